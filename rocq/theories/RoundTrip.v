(** Round trips on trees. *)
From Coq Require Import Reals List Lra Lia ZArith Bool Arith Psatz.
From Verif Require Import Base Scalar Vec Model_Real Model_S2 Model_SO3 Model_Manifold Spec Layout Comp Flat
  XR SpecR RotR NumVec NumMat Angle NumQuat NumTree NumLeaf RotLog.
Import ListNotations.
Local Open Scope R_scope.

Lemma no_s2_in m s : no_s2 m -> In s (leaves m) -> is_s2 s = false.
Proof. unfold no_s2. rewrite Forall_forall. auto. Qed.

Lemma on_leaf_len h l a b x : leaf_wf h l a b -> on_leaf (Leaf h l a b) x -> length x = h_rdim h.
Proof.
  intros W H. destruct l as [| |[|]]; cbn [leaf_wf on_leaf] in *.
  - lia. - lia. - destruct H as (A & -> & _). rewrite flat9_length. lia.
  - destruct H as (q & -> & _). cbn. lia.
Qed.

Lemma round_trip m : built m -> no_s2 m -> forall x v, onM m x -> eachT off_switch m v ->
  exists y, shiftM m x v y /\ onM m y /\
    (forall out, length out = representationDim m -> retractation m out (fin x) (fin v) = Ok (fin y)) /\
    (forall out, length out = tangentDim m -> pseudoLog m out (fin x) (fin y) = Ok (fin v)).
Proof.
  intros B NS x v (xs & -> & Hx) (vs & -> & Hv). apply built_wf in B.
  pose proof (Forall3_and _ _ _ _ _ Hx Hv) as F.
  destruct (choose4 _ (fun s x v y => on_leaf s x /\ tan_leaf s x v /\ shift_leaf s x v y /\ on_leaf s y /\
     length x = representationDim s /\ length v = tangentDim s /\ length y = representationDim s /\
    (forall o, length o = representationDim s -> retractation s o (fin x) (fin v) = Ok (fin y)) /\
    (forall o, length o = tangentDim s -> pseudoLog s o (fin x) (fin y) = Ok (fin v))) _ _ _ F) as (ys & Hy).
  { intros s x v Hs (Px & Lv & Pv). destruct (wf_leaf_inv m s B Hs) as (h & l & a & b & -> & W).
    destruct (leaf_round h l a b x v W (no_s2_in _ _ NS Hs) Px Lv Pv) as (y & S & P & Re & L).
    exists y. split; auto. split.
    { split; auto. pose proof (no_s2_in _ _ NS Hs) as N. destruct l as [| |[|]]; auto. discriminate. }
    pose proof (on_leaf_len _ _ _ _ _ W Px). pose proof (on_leaf_len _ _ _ _ _ W P). tauto. }
  exists (concat ys). split; [|split; [|split]].
  - exists xs, vs, ys. repeat (split; auto).
    + clear - Hy. induction Hy; constructor; tauto.
    + clear - Hy. induction Hy; constructor; tauto.
  - exists ys. split; auto. clear - Hy. induction Hy; constructor; tauto.
  - intros out Ho. apply (lift_op2 DR DR DT retractation retractation_prod); auto.
    eapply Forall4_impl; [exact Hy|]. cbn. tauto.
  - intros out Ho. apply (lift_op2 DT DR DR pseudoLog pseudoLog_prod); auto.
    apply Forall4_swap34. eapply Forall4_impl; [exact Hy|]. cbn. tauto.
Qed.

Lemma zero_tree m : built m -> exists z, onM m z /\
  forall out, length out = representationDim m -> setZero m out = Ok (fin z).
Proof.
  intros B. apply built_wf in B. exists (concat (map zero_leaf (leaves m))).
  assert (F : Forall2 (fun s z => on_leaf s z /\ forall o, length o = representationDim s -> setZero s o = Ok (fin z))
           (leaves m) (map zero_leaf (leaves m))).
  { pose proof (fun s => wf_leaf_inv m s B) as G. induction (leaves m) as [|s l IH]; simpl; constructor.
    - destruct (G s) as (h & k & a & b & -> & W); [simpl; auto|]. split; [apply leaf_zero_on|].
      intros. apply leaf_zero; auto.
    - apply IH. intros. apply G. simpl. auto. }
  split.
  - exists (map zero_leaf (leaves m)). split; auto. clear - F. induction F; constructor; tauto.
  - intros out Ho. rewrite fin_concat, map_map. apply (lift_op0 DR setZero setZero_prod); auto.
    rewrite <- map_map. clear - F. induction F as [|s z l zs H F IH]; simpl; constructor; auto. apply H.
Qed.

Lemma round_trip0 m : built m -> no_s2 m -> forall v, eachT off_switch m v ->
  exists z y, onM m z /\ shiftM m z v y /\
    (forall out, length out = representationDim m -> setZero m out = Ok (fin z)) /\
    (forall out, length out = representationDim m -> retractation m out (fin z) (fin v) = Ok (fin y)) /\
    (forall out, length out = tangentDim m -> pseudoLog0 m out (fin y) = Ok (fin v)).
Proof.
  intros B NS v Ev. pose proof B as B0. apply built_wf in B.
  destruct Ev as (vs & -> & Hv).
  destruct (choose3 _ (fun s v y => length v = tangentDim s /\ shift_leaf s (zero_leaf s) v y /\ on_leaf s y /\ on_leaf s (zero_leaf s) /\
     length y = representationDim s /\ tan_leaf s (zero_leaf s) v /\ length (zero_leaf s) = representationDim s /\
     (forall o, length o = representationDim s -> setZero s o = Ok (fin (zero_leaf s))) /\
    (forall o, length o = representationDim s -> retractation s o (fin (zero_leaf s)) (fin v) = Ok (fin y)) /\
    (forall o, length o = tangentDim s -> pseudoLog0 s o (fin y) = Ok (fin v))) _ _ Hv) as (ys & Hy).
  { intros s v Hs (Lv & Pv). destruct (wf_leaf_inv m s B Hs) as (h & l & a & b & -> & W).
    destruct (leaf_round0 h l a b v W (no_s2_in _ _ NS Hs) Lv Pv) as (y & S & P & Re & L).
    exists y. pose proof (on_leaf_len _ _ _ _ _ W P). pose proof (leaf_zero_on h l a b) as Z.
    pose proof (on_leaf_len _ _ _ _ _ W Z). repeat (split; auto).
    - pose proof (no_s2_in _ _ NS Hs) as N. destruct l as [| |[|]]; auto. discriminate.
    - intros. apply leaf_zero; auto. }
  exists (concat (map zero_leaf (leaves m))), (concat ys). repeat split.
  - exists (map zero_leaf (leaves m)). split; auto. clear - Hy. induction Hy; simpl; constructor; tauto.
  - exists (map zero_leaf (leaves m)), vs, ys. repeat (split; [reflexivity|]).
    split; [|split]; clear - Hy; induction Hy; simpl; constructor; tauto.
  - intros out Ho. rewrite fin_concat, map_map. apply (lift_op0 DR setZero setZero_prod); auto.
    clear - Hy. induction Hy as [|s v y l vs ys H F IH]; simpl; constructor; auto. apply H.
  - intros out Ho. apply (lift_op2 DR DR DT retractation retractation_prod); auto.
    clear - Hy. induction Hy as [|s v y l vs ys H F IH]; simpl; constructor; auto; tauto.
  - intros out Ho. apply (lift_op1 DT DR pseudoLog0 pseudoLog0_prod); auto.
    apply Forall3_swap. eapply Forall3_impl; [exact Hy|]. cbn. tauto.
Qed.

(** Every pair of points without S2 part has a relative tangent vector of rotation angles at most pi. *)
Definition rot_le_pi (s : mfd XR) (v : list R) : Prop := is_so3 s = true -> rnorm v <= PI.
Lemma leaf_relative h l a b x y : let s := Leaf h l a b in leaf_wf h l a b -> is_s2 s = false ->
  on_leaf s x -> on_leaf s y ->
  exists w y0, length w = tangentDim s /\ rot_le_pi s w /\ shift_leaf s x w y0 /\ same_leaf s y0 y.
Proof.
  intros s W N Hx Hy. unfold s, rot_le_pi in *. unfold tangentDim. cbn [hdr_of].
  destruct l as [| |[|]]; cbn [on_leaf shift_leaf same_leaf is_s2 is_so3 leaf_wf] in *; try discriminate.
  - exists (rsub y x), y. split; [rewrite rsub_length; lia|]. split; [discriminate|]. split; auto.
    symmetry. apply rsub_radd. lia.
  - destruct Hx as (A & -> & HA), Hy as (B & -> & HB).
    destruct (rot_exp (rmul (rtr A) B)) as (w & L & P & E); [apply rot_mul; auto; apply rot_tr; auto|].
    exists w, (flat9 B). split; [lia|]. split; auto. split; auto. exists A. split; auto. f_equal.
    rewrite E, <- rmul_assoc, rot_r, rmul_id_l; auto.
  - destruct Hx as (p & -> & Hp), Hy as (q & -> & Hq).
    destruct (logQ_spec (qprod (qconj p) q)) as (L & P & _ & E). { rewrite qn2_mul, Hq. unfold qn2, qconj in *. cbn. lra. }
    exists (logQ (qprod (qconj p) q)), (qflat (qprod p (expQ (logQ (qprod (qconj p) q))))).
    split; [lia|]. split; auto. split; [eauto|].
    destruct E as [-> | ->]; [left|right].
    + rewrite <- qprod_assoc, qmul_conj, qprod_1l by auto. auto.
    + change (qneg ?a) with (qneg a). replace (qprod p (qneg (qprod (qconj p) q))) with (qneg (qprod p (qprod (qconj p) q))).
      * rewrite <- qprod_assoc, qmul_conj, qprod_1l by auto. unfold qflat, qneg. cbn. rewrite !Ropp_involutive. auto.
      * apply quat_ext; cbn; ring.
Qed.
Lemma leaf_relog h l a b x w y0 y : let s := Leaf h l a b in leaf_wf h l a b -> is_s2 s = false ->
  on_leaf s x -> length w = tangentDim s -> off_switch s w -> shift_leaf s x w y0 -> same_leaf s y0 y ->
    (forall o, length o = tangentDim s -> pseudoLog s o (fin x) (fin y) = Ok (fin w)) /\
    (forall o, length o = representationDim s -> retractation s o (fin x) (fin w) = Ok (fin y0)).
Proof.
  intros s W N Hx Lw Ow S E.
  destruct (leaf_round h l a b x w W N Hx Lw Ow) as (y1 & S1 & P & Re & L).
  assert (y1 = y0).
  { unfold s in *. destruct l as [| |[|]]; cbn [shift_leaf] in *; try congruence.
    - destruct S as (A & -> & ->), S1 as (A' & Q & ->). apply flat9_inj in Q. subst. auto.
    - destruct S as (A & -> & ->), S1 as (A' & Q & ->). apply qflat_inj in Q. subst. auto. }
  subst y1. split; auto. intros o Hl. unfold s in *.
  destruct l as [| |[|]]; cbn [same_leaf on_leaf shift_leaf off_switch] in *; subst; auto.
  destruct E as [-> | ->]; auto. rewrite <- (L o Hl).
  unfold tangentDim, representationDim in *; cbn [hdr_of] in *. pose proof W as (W1 & W2 & W3 & _).
  destruct Hx as (q & -> & Hq). destruct S as (q' & Q & ->). apply qflat_inj in Q. subst q'.
  set (e := expQ w) in *.
  change (map Ropp (qflat (qprod q e))) with (qflat (qneg (qprod q e))).
  rewrite !eq_log by (auto; lia).
  replace (qprod (qconj q) (qneg (qprod q e))) with (qneg (qprod (qconj q) (qprod q e))) by (apply quat_ext; cbn; ring).
  rewrite <- !qprod_assoc, qconj_mul, qprod_1l by auto.
  apply eq_log_neg; [lia|apply expQ_unit|].
  unfold e. destruct Ow as [->|Ow].
  + rewrite expQ_0. cbn. lra.
  + destruct (expQ_qv w) as (_ & _ & C); [lia|lra|lra|]. rewrite C.
    pose proof (cos_gt_0 (rnorm w / 2)). lra.
Qed.

Lemma relative m : built m -> no_s2 m -> forall x y, onM m x -> onM m y ->
  exists w y0, eachT rot_le_pi m w /\ shiftM m x w y0 /\ sameM m y0 y.
Proof.
  intros B NS x y (xs & -> & Hx) (ys & -> & Hy). apply built_wf in B.
  pose proof (Forall3_and _ _ _ _ _ Hx Hy) as F.
  destruct (choose4 _ (fun s x y (wy : list R * list R) => on_leaf s x /\ tan_leaf s x (fst wy) /\ rot_le_pi s (fst wy) /\
     length (snd wy) = representationDim s /\
     shift_leaf s x (fst wy) (snd wy) /\ same_leaf s (snd wy) y) _ _ _ F) as (ws & Hw).
  { intros s x y Hs (Px & Py). destruct (wf_leaf_inv m s B Hs) as (h & l & a & b & -> & W).
    pose proof (no_s2_in _ _ NS Hs) as N.
    destruct (leaf_relative h l a b x y W N Px Py) as (w & y0 & L & R & S & E).
    exists (w, y0). cbn [fst snd]. repeat (split; auto).
    - destruct l as [| |[|]]; auto. discriminate.
    - pose proof (on_leaf_len _ _ _ _ _ W Py) as Ly. unfold representationDim. cbn [hdr_of]. rewrite <- Ly.
      destruct l as [| |[|]]; cbn [same_leaf] in E; subst; auto.
      destruct E as [-> | ->]; rewrite ?map_length; auto. }
  exists (concat (map fst ws)), (concat (map snd ws)). split; [|split].
  - exists (map fst ws). split; auto. clear - Hw. induction Hw as [|s x y [w y0] l xs ys ws H F IH]; simpl; constructor; auto.
    cbn [fst snd] in H. split; [apply H|tauto].
  - exists xs, (map fst ws), (map snd ws). repeat (split; [reflexivity|]). split; [exact Hx|].
    split; clear - Hw; induction Hw as [|s x y [w y0] l xs ys ws H F IH]; simpl; constructor; auto; cbn [fst snd] in *; tauto.
  - exists (map snd ws), ys. repeat (split; [reflexivity|]).
    split; clear - Hw; induction Hw as [|s x y [w y0] l xs ys ws H F IH]; simpl; constructor; auto; cbn [fst snd] in *; tauto.
Qed.

Lemma sum_list_eq {A} D (l : list (mfd XR)) (xs ys : list (list A)) :
  Forall2 (fun s z => length z = getDim D s) l xs -> Forall2 (fun s z => length z = getDim D s) l ys ->
  concat xs = concat ys -> xs = ys.
Proof.
  intros H; revert ys. induction H as [|s x l xs Hx H IH]; intros ys G E; inversion G as [|? y ? ys' Hy G']; subst; auto.
  simpl in E. assert (x = y /\ concat xs = concat ys') as [-> E'].
  { apply app_eq_app in E. destruct E as (k & [[-> E]|[-> E]]); rewrite app_length in *.
    - assert (length k = 0)%nat by lia. destruct k; [|discriminate]. rewrite app_nil_r. auto.
    - assert (length k = 0)%nat by lia. destruct k; [|discriminate]. rewrite app_nil_r. auto. }
  f_equal. apply IH; auto.
Qed.

Lemma shift_len m : wf m -> forall xs ws ys, Forall2 on_leaf (leaves m) xs -> Forall3 tan_leaf (leaves m) xs ws ->
  Forall4 shift_leaf (leaves m) xs ws ys ->
  Forall2 (fun s z => length z = getDim DR s) (leaves m) xs /\
  Forall2 (fun s z => length z = getDim DT s) (leaves m) ws /\
  Forall2 (fun s z => length z = getDim DR s) (leaves m) ys.
Proof.
  intros W. pose proof (fun s => wf_leaf_inv m s W) as G. induction (leaves m) as [|s l IH]; intros xs ws ys Hx Ht Hs.
  - inversion Hs; subst. repeat split; constructor.
  - inversion Hx as [|? x1 ? xs1 H1 H3]; subst. inversion Ht as [|? ? w1 ? ? ws1 H6 H8]; subst.
    inversion Hs as [|? ? ? y1 ? ? ? ys1 H11 H12]; subst.
    destruct (IH ltac:(intros; apply G; simpl; auto) _ _ _ H3 H8 H12) as (I1 & I2 & I3).
    destruct (G s) as (h & k & a & b & -> & Wl); [simpl; auto|].
    pose proof (on_leaf_len _ _ _ _ _ Wl H1) as L1. unfold getDim, representationDim, tangentDim. cbn [hdr_of].
    destruct H6 as [L2 _]. unfold tangentDim in L2. cbn [hdr_of] in L2.
    repeat split; constructor; auto. cbn [hdr_of].
    destruct k as [| |[|]]; cbn [shift_leaf leaf_wf] in *.
    + subst. rewrite radd_length; lia.
    + subst. rewrite rscal_length, radd_length; lia.
    + destruct H11 as (A & _ & ->). cbn. lia.
    + destruct H11 as (A & _ & ->). cbn. lia.
Qed.

Lemma relog m : built m -> no_s2 m -> forall x w y0 y, shiftM m x w y0 -> eachT off_switch m w -> sameM m y0 y ->
    (forall o, length o = tangentDim m -> pseudoLog m o (fin x) (fin y) = Ok (fin w)) /\
    (forall o, length o = representationDim m -> retractation m o (fin x) (fin w) = Ok (fin y0)).
Proof.
  intros B NS x w y0 y (xs & ws & y0s & -> & -> & -> & Hx & Ht & Hs) (ws' & Ew & Ho) (y0s' & ys & Ey & -> & Hl & Hsm).
  apply built_wf in B. destruct (shift_len m B _ _ _ Hx Ht Hs) as (Lx & Lw & Ly).
  assert (ws = ws'). { apply (sum_list_eq DT (leaves m)); auto. eapply Forall2_impl_in; [exact Ho|]. cbn. tauto. } subst ws'.
  assert (y0s = y0s') by (apply (sum_list_eq DR (leaves m)); auto). subst y0s'.
  assert (F : Forall5 (fun s x w y0 y => length x = representationDim s /\ length w = tangentDim s /\ length y = representationDim s /\
     (forall o, length o = tangentDim s -> pseudoLog s o (fin x) (fin y) = Ok (fin w)) /\
     (forall o, length o = representationDim s -> retractation s o (fin x) (fin w) = Ok (fin y0))) (leaves m) xs ws y0s ys).
  { pose proof (fun s => wf_leaf_inv m s B) as G. pose proof (fun s => no_s2_in m s NS) as N. clear Ew Ey NS.
    revert xs ws y0s ys Hx Ht Hs Ho Hl Hsm Lx Lw Ly. induction (leaves m) as [|s l IH]; intros xs ws y0s ys Hx Ht Hs Ho Hl Hsm Lx Lw Ly.
    - inversion Hs; subst. inversion Hsm; subst. constructor.
    - inversion Hx as [|? x1 ? xs1 H6 H6']; subst. inversion Ht as [|? ? w1 ? ? ws1 H7 H7']; subst.
      inversion Hs as [|? ? ? y1 ? ? ? ys1 H1 H1']; subst. inversion Hsm as [|? ? c0 ? ? cs H4 H4']; subst.
      inversion Ho as [|? ? ? ? H14 H14']; subst.
      inversion Hl; subst. inversion Lx; subst. inversion Lw; subst. inversion Ly; subst.
      constructor.
      + destruct (G s) as (h & k & a & b & -> & Wl); [simpl; auto|].
        assert (Ns : is_s2 (Leaf h k a b) = false) by (apply N; simpl; auto).
        destruct H14 as [L1 O1].
        assert (Ly' : length c0 = representationDim (Leaf h k a b)).
        { destruct k as [| |[|]]; cbn [same_leaf] in H4; subst; auto. destruct H4 as [->| ->]; rewrite ?map_length; auto. }
        destruct (leaf_relog h k a b _ _ _ _ Wl Ns H6 L1 O1 H1 H4) as [Q1 Q2]. repeat (split; auto).
      + apply IH; auto; intros; [apply G|apply N]; simpl; auto. }
  split; intros o Hlo.
  - apply (lift_op2 DT DR DR pseudoLog pseudoLog_prod); auto.
    clear - F. induction F; constructor; auto. cbn. tauto.
  - apply (lift_op2 DR DR DT retractation retractation_prod); auto.
    clear - F. induction F; constructor; auto. cbn. tauto.
Qed.
