(** C59: a path of increments against the exact composition of its steps; steps along one direction.  Exact real arithmetic. *)
From Coq Require Import Reals List Lra Lia ZArith Bool Arith Psatz.
From Verif Require Import Base Scalar Vec Model_Real Model_S2 Model_SO3 Model_Manifold Spec Layout Comp Indep Flat Structure
  XR SpecR RotR NumVec NumMat Angle NumQuat NumTree NumLeaf RotLog RoundTrip NumS2 NumExp NumLog Close Force Points Drift ExScalar ExR
  Properties_SO3 Properties_Matrix Properties_Deriv Properties_Drift Inj Properties_Inj Subgroup Path.
Import ListNotations.
Local Open Scope R_scope.

(** ** The exact path *)
(** From [x], by the exact steps [vs] one after the other: x exp(v1) ... exp(vk) on the rotations. *)
Fixpoint pathM (m : mfd XR) (x : list R) (vs : list (list R)) (y : list R) : Prop :=
  match vs with
  | [] => y = x
  | v :: vs' => exists z, shiftM m x v z /\ pathM m z vs' y
  end.
Definition besideM (e : R) (m : mfd XR) (x z : list R) : Prop :=
  exists xs zs, x = concat xs /\ z = concat zs /\ Forall3 (beside e) (leaves m) xs zs.
Lemma beside_mono e e' s x z : e <= e' -> beside e s x z -> beside e' s x z.
Proof.
  intros H. destruct s as [h [| |[|]] a b|]; cbn [beside]; auto.
  - intros (A & B & -> & -> & D & N0 & N1 & N2). exists A, B. split; auto. split; auto. split; auto. split; [|split]; lra.
  - intros (A & B & -> & -> & D & N). exists A, B. split; auto. split; auto. split; auto. unfold qnear in *. lra.
Qed.
Lemma tree_path_step m e d x z v : wf m -> besideM e m x z -> e <= 1 ->
  eachT (fun s v => under_pi s v /\ (d = 1 / 10 ^ 22 \/ (d = 0 /\ off_series s v))) m v ->
  exists y w, retractation m (fin x) (fin x) (fin v) = Ok (fin y) /\ shiftM m z v w /\ besideM (e + 16 * d) m y w.
Proof.
  intros W (xs & zs & -> & -> & F) He (vs & -> & V). pose proof (fun s => wf_leaf_inv m s W) as G.
  assert (Q : Forall3 (fun s xz v => beside e s (fst xz) (snd xz) /\ length v = tangentDim s /\ under_pi s v /\ (d = 1 / 10 ^ 22 \/ (d = 0 /\ off_series s v))) (leaves m) (combine xs zs) vs).
  { clear - F V. revert vs V. induction F; intros vs V; inversion V; subst; constructor; auto. }
  destruct (choose4 _ (fun s xz v yw => (forall o, length o = representationDim s -> retractation s o (fin (fst xz)) (fin v) = Ok (fin (fst yw))) /\
      shift_leaf s (snd xz) v (snd yw) /\ beside (e + 16 * d) s (fst yw) (snd yw) /\ beside e s (fst xz) (snd xz) /\ length v = tangentDim s /\ is_s2 s = false) _ _ _ Q) as (yws & F4).
  { intros s [x z] v Hs (B & L & P & D). cbn [fst snd] in *. destruct (G s Hs) as (h & l & a & b & -> & Wl).
    destruct (beside_step h l a b e d x z v Wl B He L) as (y & w & A1 & A2 & A3); auto.
    exists (y, w). cbn [fst snd]. split; [auto|]. split; [auto|]. split; [auto|]. split; [auto|]. split; [auto|]. destruct l; auto. destruct B. }
  assert (E1 : map fst (combine xs zs) = xs /\ map snd (combine xs zs) = zs).
  { clear - F. induction F as [|s x z ls xs zs H F IH]; [auto|]. cbn [combine map fst snd]. destruct IH as [-> ->]. auto. }
  destruct E1 as [E1 E2].
  assert (Lx : length (fin (concat xs)) = getDim DR m).
  { rewrite (leaves_dim DR m W), fin_length. clear - F G. revert G. induction F as [|s x z ls xs zs H F IH]; intros G; [reflexivity|].
    cbn [concat map]. rewrite app_length, IH by (intros; apply G; simpl; auto). destruct (G s) as (h & l & a & b & -> & Wl); [simpl; auto|]. rewrite (beside_len _ _ _ _ _ _ _ Wl H). reflexivity. }
  exists (concat (map fst yws)), (concat (map snd yws)). split; [|split].
  - apply (lift_op2 DR DR DT retractation retractation_prod m _ xs vs _ W Lx). rewrite <- E1. clear - F4 G. revert G. induction F4 as [|s xz v yw ls xzs vs yws (A & _ & _ & B & L & _) F4 IH]; intros G; cbn [map]; constructor.
    + destruct (G s) as (h & l & a & b & -> & Wl); [simpl; auto|]. split; [apply (beside_len _ _ _ _ _ _ _ Wl B)|]. auto.
    + apply IH. intros; apply G; simpl; auto.
  - exists zs, vs, (map snd yws). split; auto. split; auto. split; auto. rewrite <- E2. clear - F4. split; [|split].
    + induction F4 as [|s xz v yw ls xzs vs yws (_ & _ & _ & B & _) F4 IH]; cbn [map]; constructor; auto. apply (beside_on _ _ _ _ B).
    + induction F4 as [|s xz v yw ls xzs vs yws (_ & _ & _ & B & L & S) F4 IH]; cbn [map]; constructor; auto. split; auto. destruct s as [h [| |]|]; auto. discriminate.
    + induction F4 as [|s xz v yw ls xzs vs yws (_ & A & _) F4 IH]; cbn [map]; constructor; auto.
  - exists (map fst yws), (map snd yws). split; auto. split; auto. clear - F4.
    induction F4 as [|s xz v yw ls xzs vs yws (_ & _ & A & _) F4 IH]; cbn [map]; constructor; auto.
Qed.
Lemma besideM_refl m x : no_s2 m -> onM m x -> besideM 0 m x x.
Proof.
  intros N (xs & -> & F). exists xs, xs. split; auto. split; auto. unfold no_s2 in N. revert N. clear - F. induction F as [|s x ls xs H F IH]; intros N; inversion N; subst; constructor; auto.
  apply beside_refl; auto.
Qed.
Lemma besideM_near e m x z : 0 <= e -> besideM e m x z -> near_v e x z.
Proof.
  intros H (xs & zs & -> & -> & F). clear - F H. induction F as [|s x z ls xs zs B F IH]; [constructor|]. cbn [concat]. apply Forall2_app; auto. apply (beside_near _ s); auto.
Qed.
Lemma path_run m d : wf m -> 0 <= d -> forall vs e x z, 0 <= e -> besideM e m x z -> e + INR (length vs) * (16 * d) <= 1 ->
  Forall (eachT (fun s v => under_pi s v /\ (d = 1 / 10 ^ 22 \/ (d = 0 /\ off_series s v))) m) vs ->
  exists y w, increments m (fin x) vs = Ok (fin y) /\ pathM m z vs w /\ besideM (e + INR (length vs) * (16 * d)) m y w.
Proof.
  intros W D. induction vs as [|v vs IH]; intros e x z E0 B L F.
  - exists x, z. split; [reflexivity|]. split; [reflexivity|]. cbn [length INR]. rewrite Rmult_0_l, Rplus_0_r. auto.
  - inversion F as [|? ? F1 F2]; subst. cbn [length] in *. rewrite S_INR in *. pose proof (pos_INR (length vs)) as P.
    assert (0 <= INR (length vs) * (16 * d)) by nra.
    destruct (tree_path_step m e d x z v W B ltac:(nra) F1) as (y & w & R1 & S1 & B1).
    destruct (IH (e + 16 * d) y w) as (y' & w' & R2 & S2 & B2); auto; try nra.
    exists y', w'. cbn [increments]. rewrite R1. cbn [bind]. split; auto. split; [exists w; auto|].
    replace (e + (INR (length vs) + 1) * (16 * d)) with (e + 16 * d + INR (length vs) * (16 * d)) by ring. auto.
Qed.

(** Any tree without S2, any point of it, any list of increments whose rotation parts are shorter than pi: all of them
    succeed, and after k of them the point is within k 1e-20 of the exact composition, series branches included. *)
Theorem C59_path : forall m (x : list R) (vs : list (list R)), built m -> no_s2 m -> onM m x -> Forall (eachT under_pi m) vs ->
  INR (length vs) <= 10 ^ 20 ->
  exists y w, increments m (fin x) vs = Ok (fin y) /\ pathM m x vs w /\ near_v (INR (length vs) * (1 / 10 ^ 20)) y w.
Proof.
  intros m x vs B N Hx Hv L. apply built_wf in B. pose proof (pos_INR (length vs)) as P.
  destruct (path_run m (1 / 10 ^ 22) B ltac:(lra) vs 0 x x) as (y & w & R1 & S1 & B1); auto using besideM_refl; try lra.
  - eapply Forall_impl; [|exact Hv]. intros v (us & -> & F). exists us. split; auto. clear - F. induction F as [|s u ls us [A A'] F IH]; constructor; auto.
  - exists y, w. split; auto. split; auto. apply besideM_near in B1; [|lra]. eapply near_mono; [|exact B1]. lra.
Qed.
Print Assumptions C59_path.

(** Off the series (rotation parts zero or at least 1e-4) the composition is computed exactly, however long the path. *)
Theorem C59_path_exact : forall m (x : list R) (vs : list (list R)), built m -> no_s2 m -> onM m x ->
  Forall (eachT (fun s v => under_pi s v /\ off_series s v) m) vs ->
  exists y, increments m (fin x) vs = Ok (fin y) /\ pathM m x vs y.
Proof.
  intros m x vs B N Hx Hv. apply built_wf in B.
  destruct (path_run m 0 B ltac:(lra) vs 0 x x) as (y & w & R1 & S1 & B1); auto using besideM_refl; try lra.
  - eapply Forall_impl; [|exact Hv]. intros v (us & -> & F). exists us. split; auto. clear - F. induction F as [|s u ls us (A & A' & A'') F IH]; constructor; auto.
  - exists y. split; auto. apply besideM_near in B1; [|lra]. assert (y = w) as ->; auto.
    clear - B1. replace (0 + INR (length vs) * (16 * 0)) with 0 in B1 by ring. unfold near_v in B1. induction B1 as [|a b y w H F IH]; [reflexivity|]. f_equal; auto.
    apply Rabs_le_inv in H. lra.
Qed.
Print Assumptions C59_path_exact.

(** ** One direction *)
Definition total (ss : list R) : R := fold_right Rplus 0 ss.

Lemma shift_on h l a b x v y : let s := Leaf h l a b in leaf_wf h l a b -> is_s2 s = false -> on_leaf s x -> length v = tangentDim s -> shift_leaf s x v y -> on_leaf s y.
Proof.
  intros s W N Hx L H. unfold s, tangentDim in *. cbn [hdr_of] in L. destruct l as [| |[|]]; cbn [is_s2 on_leaf shift_leaf] in *; try discriminate.
  - subst. destruct W. rewrite radd_length; lia.
  - destruct H as (A & E & ->). destruct Hx as (B & -> & RB). apply flat9_inj in E. subst A. exists (rmul B (expSO3 v)). split; auto. apply rot_mul; auto using expSO3_rot.
  - destruct H as (A & E & ->). destruct Hx as (B & -> & RB). apply qflat_inj in E. subst A. exists (qprod B (expQ v)). split; auto. rewrite qn2_mul, RB, expQ_unit. ring.
Qed.
Lemma shift_add h l a b s t x v y z : let f := Leaf h l a b in leaf_wf h l a b -> is_s2 f = false -> length x = representationDim f -> length v = tangentDim f ->
  shift_leaf f x (rscal s v) y -> shift_leaf f y (rscal t v) z -> shift_leaf f x (rscal (s + t) v) z.
Proof.
  intros f W N Lx L H K. unfold f, tangentDim, representationDim in *. cbn [hdr_of] in *. destruct l as [| |[|]]; cbn [is_s2 shift_leaf] in *; try discriminate.
  - subst. destruct W. assert (E : length x = length v) by lia. clear - E. revert v E. induction x as [|p x IH]; intros [|q v] E; try discriminate; [reflexivity|].
    unfold radd, rscal in *. cbn [map combine fst snd]. f_equal; [ring|]. apply IH. cbn in E. lia.
  - destruct H as (A & -> & ->). destruct K as (B & E & ->). apply flat9_inj in E. subst B. exists A. split; auto. destruct W as (W1 & W2 & W3 & _). rewrite <- expSO3_add by lia. rewrite rmul_assoc. reflexivity.
  - destruct H as (A & -> & ->). destruct K as (B & E & ->). apply qflat_inj in E. subst B. exists A. split; auto. destruct W as (W1 & W2 & W3 & _). rewrite <- expQ_add by lia. rewrite qprod_assoc. reflexivity.
Qed.
Lemma shift_zero h l a b x v : let f := Leaf h l a b in leaf_wf h l a b -> is_s2 f = false -> on_leaf f x -> length v = tangentDim f -> shift_leaf f x (rscal 0 v) x.
Proof.
  intros f W N Hx L. unfold f, tangentDim in *. cbn [hdr_of] in *. destruct l as [| |[|]]; cbn [is_s2 shift_leaf on_leaf] in *; try discriminate.
  - destruct W. assert (E : length x = length v) by lia. clear - E. revert v E. induction x as [|p x IH]; intros [|q v] E; try discriminate; [reflexivity|].
    unfold radd, rscal in *. cbn [map combine fst snd]. f_equal; [ring|]. apply IH. cbn in E. lia.
  - destruct Hx as (A & -> & RA). exists A. split; auto. destruct W as (W1 & W2 & W3 & _). destruct (vec3_inv v) as (p & q & r & ->); [lia|].
    unfold rscal. cbn [map]. rewrite !Rmult_0_l, expSO3_0. f_equal. symmetry. apply rmul_id_r.
  - destruct Hx as (A & -> & RA). exists A. split; auto. destruct W as (W1 & W2 & W3 & _). destruct (vec3_inv v) as (p & q & r & ->); [lia|].
    unfold rscal. cbn [map]. rewrite !Rmult_0_l, expQ_0. f_equal. destruct A. unfold qprod. cbn. f_equal; ring.
Qed.
Lemma shiftM_add m s t x v y z : wf m -> no_s2 m -> length v = tangentDim m ->
  shiftM m x (rscal s v) y -> shiftM m y (rscal t v) z -> shiftM m x (rscal (s + t) v) z.
Proof.
  intros W N Lv (xs & vs & ys & -> & Ev & -> & Ox & Tx & Sx) (ys' & vs' & zs & Ey & Ev' & -> & Oy & Ty & Sy).
  destruct (cut_real DT m v W Lv) as (us & -> & Lu). rewrite rscal_concat in Ev, Ev'. pose proof (fun f => wf_leaf_inv m f W) as G.
  assert (SL : forall r, Forall2 (fun f w => length w = getDim DT f) (leaves m) (map (rscal r) us)).
  { intros r. clear - Lu. induction Lu; cbn [map]; constructor; auto. rewrite rscal_length. auto. }
  assert (OL : forall ws, Forall2 on_leaf (leaves m) ws -> Forall2 (fun f w => length w = getDim DR f) (leaves m) ws).
  { intros ws F. clear - F G. revert G. induction F as [|f w ls ws H F IH]; intros G; constructor.
    - destruct (G f) as (h & l & a & b & -> & Wl); [simpl; auto|]. apply on_len; auto.
    - apply IH. intros; apply G; simpl; auto. }
  assert (Oy' : Forall2 on_leaf (leaves m) ys).
  { clear - Ox Tx Sx G N. unfold no_s2 in N. revert Ox Tx G N. induction Sx as [|f x v y ls xs vs ys H Sx IH]; intros Ox Tx G N; [constructor|].
    inversion Ox; inversion Tx as [|? ? ? ? ? ? [L _] ?]; inversion N; subst. constructor; [|apply IH; auto; intros; apply G; simpl; auto].
    destruct (G f) as (h & l & a & b & -> & Wl); [simpl; auto|]. eapply shift_on; eauto. }
  assert (vs = map (rscal s) us) as ->. { apply concat_inj_len; auto. apply (len_same (ls := leaves m) (D := DT)); auto. apply (tan_len _ _ _ Tx). }
  assert (vs' = map (rscal t) us) as ->. { apply concat_inj_len; auto. apply (len_same (ls := leaves m) (D := DT)); auto. apply (tan_len _ _ _ Ty). }
  assert (ys' = ys) as ->. { symmetry. apply concat_inj_len; auto. apply (len_same (ls := leaves m) (D := DR)); auto. }
  clear Ev Ev' Ey Oy'.
  exists xs, (map (rscal (s + t)) us), zs. split; auto. split; [apply rscal_concat|]. split; auto. split; auto.
  specialize (OL xs Ox). unfold no_s2 in N. clear Tx Ty Oy Ox SL Lv. revert xs ys zs us Lu OL Sx Sy N G. generalize (leaves m) as ls. clear. intros ls.
  induction ls as [|f ls IH]; intros xs ys zs us Lu OL Sx Sy N G; inversion Lu as [|? u ? us' Lu1 Lu2]; subst; inversion OL as [|? x ? xs' OL1 OL2]; subst; cbn [map] in *.
  - inversion Sx; subst. inversion Sy; subst. split; constructor.
  - inversion Sx as [|? ? ? y ? ? ? ys' Sx1 Sx2]; subst. inversion Sy as [|? ? ? z ? ? ? zs' Sy1 Sy2]; subst. inversion N; subst.
    destruct (IH xs' ys' zs' us') as [I1 I2]; auto. { intros; apply G; simpl; auto. }
    destruct (G f) as (h & l & a & b & -> & Wl); [simpl; auto|]. split; constructor; auto.
    + split; [rewrite rscal_length; auto|]. destruct l; auto. discriminate.
    + eapply shift_add; eauto.
Qed.
Lemma shiftM_zero m x v : wf m -> no_s2 m -> onM m x -> length v = tangentDim m -> shiftM m x (rscal 0 v) x.
Proof.
  intros W N (xs & -> & Ox) Lv. destruct (cut_real DT m v W Lv) as (us & -> & Lu). pose proof (fun f => wf_leaf_inv m f W) as G.
  exists xs, (map (rscal 0) us), xs. split; auto. split; [apply rscal_concat|]. split; auto. split; auto. unfold no_s2 in N. clear Lv.
  revert xs us Lu Ox N G. generalize (leaves m) as ls. clear. intros ls. induction ls as [|f ls IH]; intros xs us Lu Ox N G; inversion Lu; inversion Ox; subst; cbn [map].
  - split; constructor.
  - inversion N; subst. edestruct IH as [I1 I2]; eauto. { intros; apply G; simpl; auto. }
    destruct (G f) as (h & l & a & b & -> & Wl); [simpl; auto|]. split; constructor; eauto.
    + split; [rewrite rscal_length; auto|]. destruct l; auto. discriminate.
    + apply shift_zero; auto.
Qed.
Lemma shiftM_on m x v y : wf m -> no_s2 m -> shiftM m x v y -> onM m y.
Proof.
  intros W N (xs & vs & ys & -> & -> & -> & Ox & Tx & Sx). pose proof (fun f => wf_leaf_inv m f W) as G. exists ys. split; auto.
  clear - Ox Tx Sx G N. unfold no_s2 in N. revert Ox Tx G N. induction Sx as [|f x v y ls xs vs ys H Sx IH]; intros Ox Tx G N; [constructor|].
  inversion Ox; inversion Tx as [|? ? ? ? ? ? [L _] ?]; inversion N; subst. constructor; [|apply IH; auto; intros; apply G; simpl; auto].
  destruct (G f) as (h & l & a & b & -> & Wl); [simpl; auto|]. eapply shift_on; eauto.
Qed.

(** Exact steps s1 v, s2 v, ... along one direction, of any lengths and signs, make the one step (s1 + s2 + ...) v. *)
Theorem C59_one_direction : forall m (v : list R) (ss : list R) (x w : list R), built m -> no_s2 m -> length v = tangentDim m -> onM m x ->
  pathM m x (map (fun s => rscal s v) ss) w -> shiftM m x (rscal (total ss) v) w.
Proof.
  intros m v ss x w B N Lv. apply built_wf in B. revert x. induction ss as [|s ss IH]; intros x Hx H; cbn [map pathM] in H.
  - subst w. apply shiftM_zero; auto.
  - destruct H as (z & H1 & H2). cbn [total fold_right]. apply shiftM_add with z; auto. apply IH; auto. apply (shiftM_on m x (rscal s v)); auto.
Qed.
Print Assumptions C59_one_direction.

(** What the code computes: k increments s1 v, ..., sk v end within k 1e-20 of the one step (s1 + ... + sk) v. *)
Theorem C59_steps : forall m (x v : list R) (ss : list R), built m -> no_s2 m -> onM m x -> length v = tangentDim m ->
  Forall (fun s => eachT under_pi m (rscal s v)) ss -> INR (length ss) <= 10 ^ 20 ->
  exists y w, increments m (fin x) (map (fun s => rscal s v) ss) = Ok (fin y) /\ shiftM m x (rscal (total ss) v) w /\
    near_v (INR (length ss) * (1 / 10 ^ 20)) y w.
Proof.
  intros m x v ss B N Hx Lv F L.
  destruct (C59_path m x (map (fun s => rscal s v) ss)) as (y & w & R1 & P & D); auto.
  - apply Forall_map. auto.
  - rewrite map_length. auto.
  - exists y, w. rewrite map_length in D. split; auto. split; auto. apply C59_one_direction; auto.
Qed.
Print Assumptions C59_steps.

(** There and back: a step and its opposite return within 2e-20 of the start; exactly at the start off the series. *)
Theorem C59_there_and_back : forall m (x v : list R), built m -> no_s2 m -> onM m x -> eachT under_pi m v ->
  exists y z, retractation m (fin x) (fin x) (fin v) = Ok (fin y) /\ retractation m (fin y) (fin y) (fin (rscal (-1) v)) = Ok (fin z) /\
    near_v (2 / 10 ^ 20) z x /\ (eachT off_series m v -> z = x).
Proof.
  intros m x v B N Hx Hv. pose proof (built_wf _ B) as W.
  assert (Lv : length v = tangentDim m).
  { destruct Hv as (us & -> & F). change (tangentDim m) with (getDim DT m). rewrite (leaves_dim DT m W). clear - F. induction F as [|s u ls us [L _] F IH]; [reflexivity|]. cbn [concat map]. rewrite app_length, IH, L. reflexivity. }
  assert (V1 : rscal 1 v = v). { unfold rscal. rewrite <- (map_id v) at 2. apply map_ext. intros; ring. }
  assert (V2 : eachT under_pi m (rscal (-1) v)).
  { destruct Hv as (us & -> & F). exists (map (rscal (-1)) us). split; [apply rscal_concat|]. clear - F. induction F as [|s u ls us [L P] F IH]; cbn [map]; constructor; auto.
    split; [rewrite rscal_length; auto|]. destruct s as [h [| |]|]; cbn [under_pi] in *; auto. rewrite rnorm_scal. replace (Rabs (-1)) with 1 by (rewrite Rabs_left; lra). lra. }
  assert (U : forall w, shiftM m x (rscal (total [1; -1]) v) w -> w = x).
  { intros w H. cbn [total fold_right] in H. replace (1 + (-1 + 0)) with 0 in H by ring.
    destruct H as (xs & vs & ws & -> & Ev & -> & Ox & T & S). destruct (cut_real DT m v W Lv) as (us & -> & Lu). rewrite rscal_concat in Ev.
    assert (vs = map (rscal 0) us) as ->. { apply concat_inj_len; auto. apply (len_same (ls := leaves m) (D := DT)); [apply (tan_len _ _ _ T)|]. clear - Lu. induction Lu; cbn [map]; constructor; auto. rewrite rscal_length. auto. }
    f_equal. pose proof (fun f => wf_leaf_inv m f W) as G. unfold no_s2 in N. clear - Ox S G N Lu. revert xs us ws Ox S G N Lu. generalize (leaves m) as ls. intros ls.
    induction ls as [|f ls IH]; intros xs us ws Ox S G N Lu; inversion Ox; inversion Lu; subst; cbn [map] in S; inversion S; subst; [reflexivity|]. inversion N; subst.
    f_equal; [|eapply IH; eauto; intros; apply G; simpl; auto].
    destruct (G f) as (h & l & a & b & -> & Wl); [simpl; auto|].
    match goal with K : shift_leaf _ ?p (rscal 0 ?u) ?q |- _ => pose proof (shift_zero h l a b p u Wl ltac:(auto) ltac:(auto) ltac:(auto)) as Z; revert K Z; clear end. intros K Z.
    destruct l as [| |[|]]; cbn [shift_leaf] in *; try congruence.
    - destruct K as (A & -> & ->). destruct Z as (A' & E & ->). apply flat9_inj in E. congruence.
    - destruct K as (A & -> & ->). destruct Z as (A' & E & ->). apply qflat_inj in E. congruence. }
  destruct (C59_steps m x v [1; -1] B N Hx Lv) as (z & w & R1 & S1 & D).
  { constructor; [rewrite V1; auto|constructor; [auto|constructor]]. }
  { cbn. lra. }
  apply U in S1. subst w. cbn [map] in R1. rewrite V1 in R1. cbn [increments] in R1.
  destruct (C59_path m x [v] B N Hx) as (y & w & R2 & _); [constructor; auto|cbn; lra|]. cbn [increments] in R2.
  destruct (retractation m (fin x) (fin x) (fin v)) as [y'|] eqn:E1; [|discriminate]. cbn [bind] in *. assert (y' = fin y) as -> by congruence.
  destruct (retractation m (fin y) (fin y) (fin (rscal (-1) v))) as [z'|] eqn:E2; [|discriminate]. cbn [bind] in R1. assert (z' = fin z) as -> by congruence.
  exists y, z. split; auto. split; auto. split; [eapply near_mono; [|exact D]; cbn; lra|].
  intros Off. destruct (C59_path_exact m x (map (fun s => rscal s v) [1; -1]) B N Hx) as (z2 & R3 & P3).
  { cbn [map]. rewrite V1.
    assert (Q : forall r, r = 1 \/ r = -1 -> eachT (fun s u => under_pi s u /\ off_series s u) m (rscal r v)).
    { intros r Hr. destruct Hv as (us & -> & F). destruct Off as (us' & Eu & F').
      assert (us' = us) as ->. { symmetry. apply concat_inj_len; auto. apply (len_same (ls := leaves m) (D := DT)); [clear - F; induction F as [|? ? ? ? []]; constructor; auto|clear - F'; induction F' as [|? ? ? ? []]; constructor; auto]. }
      exists (map (rscal r) us). split; [apply rscal_concat|]. clear - F F' Hr. assert (AR : Rabs r = 1) by (destruct Hr as [->| ->]; [apply Rabs_R1|rewrite Rabs_left; lra]).
      revert F'. induction F as [|s u ls us [L P] F IH]; intros F'; cbn [map]; inversion F' as [|? ? ? ? [_ O] F'']; subst; constructor; auto.
      split; [rewrite rscal_length; auto|]. destruct s as [h [| |]|]; cbn [under_pi off_series] in *; auto. rewrite rnorm_scal, AR, Rmult_1_l. split; auto.
      destruct O as [->|O]; auto. left. unfold rscal. cbn [map]. rewrite Rmult_0_r. reflexivity. }
    constructor; [rewrite <- V1; apply Q; auto|constructor; [apply Q; auto|constructor]]. }
  apply C59_one_direction in P3; auto. apply U in P3. subst z2. cbn [map] in R3. rewrite V1 in R3. cbn [increments] in R3. rewrite E1 in R3. cbn [bind] in R3. rewrite E2 in R3. cbn [bind] in R3.
  apply fin_inj. congruence.
Qed.
Print Assumptions C59_there_and_back.

(** ** Full turns *)
(** [k] steps of [v] make a whole number of turns on every rotation and do not move the Euclidean parts. *)
Definition turns (k : nat) (s : mfd XR) (v : list R) : Prop :=
  match s with
  | Leaf _ LReal _ _ => Forall (fun c => c = 0) v
  | Leaf _ (LSO3 _) _ _ => exists j : nat, INR k * rnorm v = 2 * PI * INR j
  | _ => True
  end.
Lemma sin_turn j : sin (PI * INR j) = 0.
Proof. apply sin_eq_0_1. exists (Z.of_nat j). rewrite <- INR_IZR_INZ. ring. Qed.
Lemma cos_turn j : cos (2 * PI * INR j) = 1.
Proof. replace (2 * PI * INR j) with (2 * (PI * INR j)) by ring. rewrite cos_2a_sin, sin_turn. ring. Qed.
Lemma cos_half_turn j : cos (PI * INR j) = 1 \/ cos (PI * INR j) = -1.
Proof.
  pose proof (sin2_cos2 (PI * INR j)) as H. rewrite sin_turn in H. unfold Rsqr in H. set (c := cos _) in *.
  assert (E : (c - 1) * (c + 1) = 0) by lra. apply Rmult_integral in E as [E|E]; [left|right]; lra.
Qed.
Lemma expQ_turn v j : length v = 3%nat -> rnorm v = 2 * PI * INR j -> expQ v = Q4 1 0 0 0 \/ expQ v = Q4 (-1) 0 0 0.
Proof.
  intros L H. destruct (vec3_inv v L) as (x & y & z & ->). unfold expQ. cbv zeta. destruct (Req_EM_T _ 0) as [Z|Z]; [auto|].
  rewrite H in *. replace (2 * PI * INR j / 2) with (PI * INR j) by field. rewrite sin_turn.
  assert (T : forall c, 0 / (2 * PI * INR j) * c = 0) by (intros c; unfold Rdiv; ring). rewrite !T.
  destruct (cos_half_turn j) as [-> | ->]; [left|right]; reflexivity.
Qed.
Lemma expSO3_turn v j : length v = 3%nat -> rnorm v = 2 * PI * INR j -> expSO3 v = ridm.
Proof.
  intros L H. rewrite <- qmat_expQ by auto. destruct (expQ_turn v j L H) as [-> | ->]; unfold qmat; cbn; unfold ridm; f_equal; ring.
Qed.
Lemma shift_turn h l a b k x v y : let f := Leaf h l a b in leaf_wf h l a b -> is_s2 f = false -> on_leaf f x -> length v = tangentDim f -> turns k f v ->
  shift_leaf f x (rscal (INR k) v) y -> same_leaf f x y.
Proof.
  intros f W N Hx L T H. unfold f, tangentDim in *. cbn [hdr_of] in *. destruct l as [| |[|]]; cbn [is_s2 shift_leaf on_leaf turns same_leaf] in *; try discriminate.
  - destruct W. assert (E : length x = length v) by lia. subst y. clear - E T. revert v E T. induction x as [|p x IH]; intros [|q v] E T; try discriminate; [reflexivity|].
    inversion T; subst. unfold radd, rscal in *. cbn [map combine fst snd]. f_equal; [ring|]. apply IH; auto.
  - destruct H as (A & -> & ->). destruct W as (W1 & W2 & W3 & _). destruct T as (j & T). rewrite (expSO3_turn _ j), rmul_id_r; [auto|rewrite rscal_length; lia|].
    rewrite rnorm_scal, Rabs_right by (apply Rle_ge, pos_INR). auto.
  - destruct H as (A & -> & ->). destruct W as (W1 & W2 & W3 & _). destruct T as (j & T). destruct (expQ_turn (rscal (INR k) v) j) as [-> | ->]; [rewrite rscal_length; lia|rewrite rnorm_scal, Rabs_right by (apply Rle_ge, pos_INR); auto| |].
    + left. destruct A. unfold qprod, qflat. cbn. repeat (apply f_equal2; [ring|]). reflexivity.
    + right. destruct A. unfold qprod, qflat. cbn. repeat (apply f_equal2; [ring|]). reflexivity.
Qed.

(** k equal increments making whole turns come back, within k 1e-20, to the element of the manifold they started from. *)
Theorem C59_full_turn : forall m (x v : list R) (k : nat), built m -> no_s2 m -> onM m x ->
  eachT (fun s u => under_pi s u /\ turns k s u) m v -> INR k <= 10 ^ 20 ->
  exists y w, increments m (fin x) (repeat v k) = Ok (fin y) /\ sameM m x w /\ near_v (INR k * (1 / 10 ^ 20)) y w.
Proof.
  intros m x v k B N Hx Hv Hk. pose proof (built_wf _ B) as W.
  assert (Lv : length v = tangentDim m).
  { destruct Hv as (us & -> & F). change (tangentDim m) with (getDim DT m). rewrite (leaves_dim DT m W). clear - F. induction F as [|s u ls us [L _] F IH]; [reflexivity|]. cbn [concat map]. rewrite app_length, IH, L. reflexivity. }
  assert (V1 : rscal 1 v = v). { unfold rscal. rewrite <- (map_id v) at 2. apply map_ext. intros; ring. }
  assert (ER : map (fun s => rscal s v) (repeat 1 k) = repeat v k). { clear - V1. induction k; cbn [repeat map]; [reflexivity|]. rewrite IHk, V1. reflexivity. }
  assert (ET : total (repeat 1 k) = INR k). { clear. induction k; [reflexivity|]. rewrite S_INR. cbn [repeat total fold_right]. unfold total in IHk. rewrite IHk. ring. }
  destruct (C59_steps m x v (repeat 1 k) B N Hx Lv) as (y & w & R1 & S1 & D).
  - apply Forall_forall. intros s Hs. apply repeat_spec in Hs. subst s. rewrite V1. destruct Hv as (us & -> & F). exists us. split; auto. clear - F. induction F as [|? ? ? ? (A & A' & _)]; constructor; auto.
  - rewrite repeat_length. auto.
  - rewrite ER in R1. rewrite ET in S1. rewrite repeat_length in D. exists y, w. split; auto. split; auto.
    destruct S1 as (xs & vs & ws & -> & Ev & -> & Ox & T & S). destruct Hv as (us & -> & F). rewrite rscal_concat in Ev.
    assert (vs = map (rscal (INR k)) us) as ->. { apply concat_inj_len; auto. apply (len_same (ls := leaves m) (D := DT)); [apply (tan_len _ _ _ T)|]. clear - F. induction F as [|? ? ? ? (A & _)]; cbn [map]; constructor; auto. rewrite rscal_length. auto. }
    pose proof (fun f => wf_leaf_inv m f W) as G. exists xs, ws. split; auto. split; auto. unfold no_s2 in N. clear - Ox S G N F.
    revert xs us ws Ox S G N F. generalize (leaves m) as ls. intros ls.
    induction ls as [|f ls IH]; intros xs us ws Ox S G N F; inversion Ox; inversion F as [|? ? ? ? (L & _ & T) F']; subst; cbn [map] in S; inversion S; subst; [split; constructor|]. inversion N; subst.
    edestruct IH as [I1 I2]; eauto. { intros; apply G; simpl; auto. }
    destruct (G f) as (h & l & a & b & -> & Wl); [simpl; auto|]. split; constructor; auto; [apply on_len; auto|].
    eapply shift_turn; eauto.
Qed.
Print Assumptions C59_full_turn.

(** ** The sphere *)
(** S2 is left out because the steps do not compose there: the vector of the first step is no longer tangent after it, and
    the second increment by the same vector is refused. *)
Theorem C59_sphere_refuted : exists (m : mfd XR) (x v y : list R), built m /\ onM m x /\ tangent_at m x v /\
  increments m (fin x) [v] = Ok (fin y) /\ onM m y /\ increments m (fin x) [v; v] = Fail EAssert.
Proof.
  destruct rS2_leaf as (h & a & b & E & W). set (y := rscal (/ rnorm (radd [1; 0; 0] [0; 1; 0])) (radd [1; 0; 0] [0; 1; 0])).
  exists rS2, [1; 0; 0], [0; 1; 0], y. split; [apply rS2_built|]. rewrite E.
  assert (D1 : rdot [1; 0; 0] [0; 1; 0] = 0) by (cbn; ring).
  assert (R1 : forall o, length o = 3%nat -> retractation (Leaf h LS2 a b) o (fin [1; 0; 0]) (fin [0; 1; 0]) = Ok (fin y)).
  { intros o Lo. apply s2_retr; auto; [cbn; ring|]. rewrite D1, Rabs_R0. lra. }
  assert (P : rdot (radd [1; 0; 0] [0; 1; 0]) (radd [1; 0; 0] [0; 1; 0]) = 2) by (cbn; ring).
  split; [exists [[1; 0; 0]]; split; [reflexivity|]; constructor; [|constructor]; split; [reflexivity|cbn; ring]|].
  split; [exists [[1; 0; 0]], [[0; 1; 0]]; split; [reflexivity|]; split; [reflexivity|]; pose proof W as (W1 & W2 & W3 & _); split; (constructor; [|constructor])|].
  { unfold representationDim; cbn [hdr_of length]. lia. }
  { split; auto. }
  cbn [increments]. rewrite R1 by reflexivity. cbn [bind]. split; [reflexivity|]. split.
  - exists [y]. split; [cbn [concat]; rewrite app_nil_r; reflexivity|]. constructor; [|constructor]. split; [reflexivity|]. apply unit_normal. rewrite P. lra.
  - rewrite s2_retr_reject; auto. unfold y, rnorm. rewrite P. unfold radd, rscal. cbn [map combine fst snd rdot].
    assert (S : sqrt 2 * sqrt 2 = 2) by (apply sqrt_sqrt; lra). assert (S0 : 0 < sqrt 2) by (apply sqrt_lt_R0; lra). assert (S1 : sqrt 2 <= 2) by nra.
    assert (I : / 2 <= / sqrt 2) by (apply Rinv_le_contravar; auto). rewrite Rabs_right; lra.
Qed.
Print Assumptions C59_sphere_refuted.

(** ** Examples *)
(** ((R^2 x SO3) x SO3): k long increments then k tiny ones backwards; four quarter turns of both rotations. *)
Example C59_example : forall k, INR k <= 10 ^ 18 ->
  exists y w, increments rP (fin rPx) (map (fun s => rscal s rPv) (repeat 1 k ++ repeat (-1 / 1000000) k)) = Ok (fin y) /\
    shiftM rP rPx (rscal (total (repeat 1 k ++ repeat (-1 / 1000000) k)) rPv) w /\ near_v (1 / 10) y w.
Proof.
  intros k Hk. assert (V : forall s, -1 <= s <= 1 -> eachT under_pi rP (rscal s rPv)).
  { intros s Hs. pose proof PI_gt2. exists [rscal s [1; -1]; rscal s [1; 0; 0]; rscal s [2; 0; 0]]. split; [reflexivity|].
    assert (Rabs s <= 1) by (apply Rabs_le; lra).
    repeat (apply Forall2_cons || apply Forall2_nil); (split; [reflexivity|]); cbn [under_pi]; auto; rewrite rnorm_scal, rnorm100; lra. }
  assert (L : length (repeat 1 k ++ repeat (-1 / 1000000) k) = (k + k)%nat) by (rewrite app_length, !repeat_length; auto).
  assert (Q : INR (k + k) <= 2 * 10 ^ 18) by (rewrite plus_INR; lra).
  destruct (C59_steps rP rPx rPv (repeat 1 k ++ repeat (-1 / 1000000) k)) as (y & w & A & B & C); auto using rP_built, rP_no_s2, rPx_on.
  - apply Forall_forall. intros s Hs. apply in_app_or in Hs as [Hs|Hs]; apply repeat_spec in Hs; subst; apply V; lra.
  - rewrite L. lra.
  - exists y, w. split; auto. split; auto. eapply near_mono; [|exact C]. rewrite L. lra.
Qed.
Example C59_turn_example : exists y w, increments rP (fin rPx) (repeat ([0; 0] ++ [PI / 2; 0; 0] ++ [0; PI / 2; 0]) 4) = Ok (fin y) /\ sameM rP rPx w /\ near_v (INR 4 * (1 / 10 ^ 20)) y w.
Proof.
  pose proof PI_gt2 as P. apply C59_full_turn; auto using rP_built, rP_no_s2, rPx_on.
  - assert (N1 : rnorm [PI / 2; 0; 0] = PI / 2) by (apply rnorm100; lra).
    assert (N2 : rnorm [0; PI / 2; 0] = PI / 2). { unfold rnorm. replace (rdot _ _) with (PI / 2 * (PI / 2)) by (cbn; ring). apply sqrt_square. lra. }
    exists [[0; 0]; [PI / 2; 0; 0]; [0; PI / 2; 0]]. split; [reflexivity|].
    repeat (apply Forall2_cons || apply Forall2_nil); (split; [reflexivity|]); cbn [under_pi turns].
    + split; auto.
    + rewrite N1. split; [lra|]. exists 1%nat. cbn. field.
    + rewrite N2. split; [lra|]. exists 1%nat. cbn. field.
  - cbn. lra.
Qed.
