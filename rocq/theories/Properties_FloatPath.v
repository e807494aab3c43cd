(** C62: where a path of increments ends in IEEE-754 double arithmetic. *)
From Coq Require Import Reals List Lra Lia ZArith Bool Arith Psatz.
From Flocq Require Import Core BinarySingleNaN.
From Verif Require Import Base Scalar Vec Model_Real Model_S2 Model_SO3 Model_Manifold Spec Layout Comp Indep Flat Points
  XR SpecR RotR NumVec NumTree Drift Path Subgroup F64 F64Err F64Norm F64S2 F64Exp F64Quat F64Mat F64Mat2 F64Tree F64Go
  Properties_Matrix Properties_Float FloatPath ExScalar.
From Verif Require Relog.
Import ListNotations.
Local Open Scope R_scope.

(** The exact path in real numbers: at every step x + v on R^n, X exp(v) on rotation matrices, q exp(v) on
    quaternions, slice by slice; the coordinates of R^n stay within [B] after every step. *)
Definition stepM (B : R) (m : mfd f64) (x v y : list R) : Prop :=
  exists xs vs ys, x = concat xs /\ v = concat vs /\ y = concat ys /\ Forall4 step_leaf (leaves m) xs vs ys /\ Forall2 (within B) (leaves m) ys.
Fixpoint walk (B : R) (m : mfd f64) (x : list R) (vs : list (list R)) (y : list R) : Prop :=
  match vs with
  | [] => y = x
  | v :: vs' => exists z, stepM B m x v z /\ walk B m z vs' y
  end.
(** What one step may cost, in units of 2^-53. *)
Definition cost (B : R) (s : mfd f64) : R :=
  match s with
  | Leaf _ LReal _ _ => 2 * B
  | Leaf _ (LSO3 MapMatrix) _ _ => 372
  | Leaf _ (LSO3 MapQuat) _ _ => 164
  | _ => 0
  end.

Lemma vals_concat (xs : list (list f64)) : vals (concat xs) = concat (map (fun x => vals x) xs).
Proof. induction xs as [|x xs IH]; [reflexivity|]. cbn [concat map]. transitivity (vals x ++ vals (concat xs)); [apply map_app|]. f_equal. exact IH. Qed.
Lemma step_len h l a b x v y : leaf_wf (K:=f64) h l a b -> step_leaf (Leaf h l a b) x v y ->
  length x = h_rdim h /\ length v = h_tdim h /\ length y = h_rdim h.
Proof.
  intros W H. unfold leaf_wf in W. destruct l as [| |[|]]; cbn [step_leaf] in H; try tauto.
  - destruct H as (H1 & H2 & ->). split; [lia|]. split; [lia|]. transitivity (length x).
    + assert (LL : length x = length v) by congruence. clear H1 H2. revert v LL. induction x as [|p x IH]; intros [|q v] LL; try discriminate; [reflexivity|].
      change (radd (p :: x) (q :: v)) with (p + q :: radd x v). cbn [length]. rewrite IH; [reflexivity|]. cbn in LL. lia.
    + lia.
  - destruct H as (H1 & A & -> & ->). cbn [flat9 length]. lia.
  - destruct W as (W1 & W2 & W3 & _). destruct H as (H1 & q & -> & ->). rewrite W3. cbn [qflat length]. split; [reflexivity|]. split; [lia|reflexivity].
Qed.
Lemma step_pieces (m : mfd f64) xs vs ys : wf m -> Forall4 step_leaf (leaves m) xs vs ys ->
  Forall2 (fun s x => length x = representationDim s) (leaves m) xs /\ Forall2 (fun s x => length x = tangentDim s) (leaves m) vs /\ Forall2 (fun s x => length x = representationDim s) (leaves m) ys.
Proof.
  intros W F. pose proof (fun s => leaf_inv_gen m s W) as G. revert G. induction F as [|s x v y ls xs vs ys H F IH]; intros G; [repeat split; constructor|].
  destruct IH as (I1 & I2 & I3); [intros; apply G; simpl; auto|]. destruct (G s) as (h & l & a & b & -> & Wl); [simpl; auto|]. destruct (step_len _ _ _ _ _ _ _ Wl H) as (L1 & L2 & L3). repeat split; constructor; auto.
Qed.
Lemma len_pair (f : mfd f64 -> nat) ls (xs : list (list f64)) (zs : list (list R)) : Forall2 (fun s x => length x = f s) ls xs -> Forall2 (fun s x => length x = f s) ls zs ->
  Forall2 (fun a b => length a = length b) (map (fun x => vals x) xs) zs.
Proof. intros F. revert zs. induction F as [|s x ls xs H F IH]; intros zs F2; inversion F2 as [|? z ? zs' H2 F2']; subst; cbn [map]; constructor; auto. rewrite map_length. etransitivity; [exact H|symmetry; exact H2]. Qed.
Lemma len_pair2 (f : mfd f64 -> nat) ls (xs zs : list (list R)) : Forall2 (fun s x => length x = f s) ls xs -> Forall2 (fun s x => length x = f s) ls zs ->
  Forall2 (fun a b => length a = length b) xs zs.
Proof. intros F. revert zs. induction F as [|s x ls xs H F IH]; intros zs F2; inversion F2 as [|? z ? zs' H2 F2']; subst; constructor; auto. congruence. Qed.

Lemma path64 L (m : mfd f64) B : accurate L -> wf m -> 0 <= B <= bpow radix2 990 -> forall vs k d xs zs r w,
  Forall2 (fstray d) (leaves m) xs -> 0 <= d -> d + 1240 * INR (length vs) * u <= 1 / 1000 -> 0 <= k -> 1240 * k <= d -> Forall (tangent64 m) vs -> Forall (Forall isf) vs ->
  Forall3 (beside64 k B) (leaves m) xs zs -> increments64 L m (concat xs) vs = Ok r -> walk B m (concat zs) (map (fun v => vals v) vs) w ->
  exists rs ws, r = concat rs /\ w = concat ws /\ Forall2 (fstray (d + 1240 * INR (length vs) * u)) (leaves m) rs /\ Forall3 (beside64 (k + INR (length vs) * u) B) (leaves m) rs ws.
Proof.
  intros HL W HB. pose proof u_pos as U. induction vs as [|v vs IH]; intros k d xs zs r w Hx D0 Hd K0 Hk Hv Fv Hb H Hw.
  - cbn [increments64] in H. apply ok_eq in H. cbn [map walk] in Hw. subst. exists xs, zs. split; auto. split; auto. cbn [length INR].
    replace (d + 1240 * 0 * u) with d by ring. replace (k + 0 * u) with k by ring. auto.
  - inversion Hv as [|? ? (ws & -> & Hws) Hv']; subst. inversion Fv as [|? ? Fv1 Fv']; subst. cbn [increments64] in H. destruct (retractation _ _ _ _) as [y'|] eqn:E; [|discriminate]. cbn [bind] in H.
    change (length (concat ws :: vs)) with (S (length vs)) in *. rewrite S_INR in Hd |- *. pose proof (pos_INR (length vs)) as P.
    assert (N : 0 <= INR (length vs) * u) by (apply Rmult_le_pos; lra).
    assert (Pv : pieces DT (leaves m) ws) by (clear - Hws; induction Hws; constructor; tauto).
    assert (Hm : Forall2 mild (leaves m) ws) by (clear - Hws; induction Hws; constructor; tauto).
    pose proof (fstray_pieces _ _ _ W Hx) as Px. pose proof (pieces_total DR m xs W Px) as Lx.
    destruct (tree_step64 L HL m d xs ws _ y' W ltac:(lra) Hx Pv Hm Lx E) as (ys & -> & Fy & Cy).
    cbn [map walk] in Hw. destruct Hw as (z & (zs' & ws' & ys' & E1 & E2 & -> & F4 & Fw) & Hw).
    destruct (step_pieces m zs' ws' ys' W F4) as (L1 & L2 & L3).
    assert (zs' = zs) as ->.
    { symmetry. apply concat_inj_len; auto. apply (len_pair2 representationDim (leaves m)); auto.
      clear - Hb Px. revert Px. induction Hb as [|s x z ls xs zs H F IH]; intros Px; inversion Px as [|? ? ? ? P1 P2]; subst; constructor; auto. etransitivity; [|exact P1].
      destruct s as [h [| |[|]] a b|]; cbn [beside64] in H; try tauto; destruct H as [H1 H2]; auto. apply nlen in H2. rewrite <- H2. symmetry. rewrite map_length. reflexivity. }
    assert (ws' = map (fun x => vals x) ws) as ->.
    { symmetry. apply concat_inj_len; [|rewrite <- vals_concat; auto]. apply (len_pair tangentDim (leaves m)); auto. }
    assert (Fs : Forall (Forall isf) ws) by (clear - Fv1; induction ws as [|w ws IH]; constructor; cbn [concat] in Fv1; apply Forall_app in Fv1; [tauto|apply IH; tauto]).
    assert (Nb : Forall3 (beside64 (k + u) B) (leaves m) ys ys').
    { pose proof (fun s => leaf_inv_gen m s W) as G. clear - G HB U Hb Cy F4 Fw Fs K0 Hk Hd N.
      assert (KK : 0 <= k <= 1 / 1000) by lra. clear Hd K0 Hk N. revert G Hb Fs F4 Fw. revert zs ys'. induction Cy as [|s x v y ls xs ws ys C Cy IH]; intros zs ys' G Hb Fs F4 Fw.
      - inversion F4; subst. constructor.
      - cbn [map] in F4. inversion F4 as [|? z1 ? y1 ? zs1 ? ys1 S1 S2]; subst. inversion Hb as [|? ? ? ? ? ? B1 B2]; subst. inversion Fw; subst. inversion Fs; subst. constructor.
        + destruct (G s) as (h & l & a & b & -> & Wl); [simpl; auto|]. apply (beside64_step k B h l a b x v y z1 y1); auto.
        + apply (IH zs1 ys1); auto. intros; apply G; simpl; auto. }
    destruct (IH (k + u) (d + 1240 * u) ys ys' r w) as (rs & ws2 & -> & -> & A1 & A2); auto; try lra. exists rs, ws2. split; auto. split; auto.
    replace (d + 1240 * (INR (length vs) + 1) * u) with (d + 1240 * u + 1240 * INR (length vs) * u) by ring. replace (k + (INR (length vs) + 1) * u) with (k + u + INR (length vs) * u) by ring. auto.
Qed.

Lemma beside64_near k B s x z : beside64 k B s x z -> near_v (k * cost B s) (vals x) z.
Proof.
  destruct s as [h [| |[|]] a b|]; cbn [beside64 cost]; try tauto.
  - intros [_ H]. replace (k * (2 * B)) with (2 * B * k) by ring. exact H.
  - intros [E H]. assert (LL : length (vals x) = length z) by (rewrite map_length; exact E). pose proof (rnorm_entry (rsub (vals x) z)) as F. clear E. revert LL H F. generalize (vals x). intros y LL H. generalize (rnorm (rsub y z)) H. clear H. intros n H.
    revert z LL. induction y as [|p y IH]; intros [|q z] LL F; try discriminate; constructor; change (rsub (p :: y) (q :: z)) with (p - q :: rsub y z) in F; inversion F; subst; [lra|]. apply IH; auto.
  - intros [E H]. assert (LL : length (vals x) = length z) by (rewrite map_length; exact E). pose proof (rnorm_entry (rsub (vals x) z)) as F. clear E. revert LL H F. generalize (vals x). intros y LL H. generalize (rnorm (rsub y z)) H. clear H. intros n H.
    revert z LL. induction y as [|p y IH]; intros [|q z] LL F; try discriminate; constructor; change (rsub (p :: y) (q :: z)) with (p - q :: rsub y z) in F; inversion F; subst; [lra|]. apply IH; auto.
Qed.
Lemma beside64_start B (m : mfd f64) d xs : 0 <= B -> wf m -> Forall (fun s => match s with Leaf _ LS2 _ _ => False | _ => True end) (leaves m) -> Forall2 (fstray d) (leaves m) xs -> Forall isf (concat xs) ->
  Forall3 (beside64 0 B) (leaves m) xs (map (fun x => vals x) xs).
Proof.
  intros HB W NS F. pose proof (fun s => leaf_inv_gen m s W) as G. revert G NS. induction F as [|s x ls xs H F IH]; intros G NS Fx; cbn [map]; constructor.
  - cbn [concat] in Fx. apply Forall_app in Fx. destruct Fx as [Fx _]. inversion NS as [|? ? N1 N2]; subst. destruct (G s) as (h & l & a & b & -> & Wl); [simpl; auto|].
    assert (Z : rnorm (rsub (vals x) (vals x)) <= 0) by (rewrite Lip.dist_refl; lra).
    destruct l as [| |[|]]; cbn [beside64]; try tauto; [split; auto; apply Path.near_refl; nra| |]; (split; [symmetry; apply map_length|lra]).
  - cbn [concat] in Fx. apply Forall_app in Fx. inversion NS; subst. apply IH; auto; try tauto. intros; apply G; simpl; auto.
Qed.
Lemma fstray_fin d s x : fstray d s x -> match s with Leaf _ LReal _ _ => True | _ => Forall isf x end.
Proof. intros H. apply stray_defect in H. destruct s as [h [| |[|]] a b|]; cbn [defect64] in H; try tauto. Qed.
Lemma walk_no_s2 B (m : mfd f64) x v vs w : walk B m x (v :: vs) w -> Forall (fun s => match s with Leaf _ LS2 _ _ => False | _ => True end) (leaves m).
Proof. cbn [walk]. intros (z & (xs & ws & ys & _ & _ & _ & F & _) & _). induction F as [|s ? ? ? ? ? ? ? H]; constructor; auto. destruct s as [h [| |] ? ?|]; auto. Qed.

(** C62: n increments in doubles end close to the end of the exact path from the same starting point with the same
    increments: per stored number n times 372 * 2^-53 on rotation matrices, n times 164 * 2^-53 on quaternions, n times
    2 B * 2^-53 on R^n, where the exact path stays within B.  The errors add, they are not amplified.  Every tree without
    S2, every starting point within [d] of the manifold, n up to 7e9 (the bound 1e-3 on the distance to the group). *)
Theorem C62_path : forall L (m : mfd f64) (x : list f64) (vs : list (list f64)) (r : list f64) (w : list R) (d B : R), accurate L -> built m ->
  0 <= d -> defect64M d m x -> Forall isf x -> Forall (tangent64 m) vs -> Forall (Forall isf) vs -> 0 <= B <= bpow radix2 990 ->
  increments64 L m x vs = Ok r -> walk B m (vals x) (map (fun v => vals v) vs) w ->
  3 * d + 1240 * INR (length vs) * / 2 ^ 53 <= 1 / 1000 ->
  exists rs ws, r = concat rs /\ w = concat ws /\
    Forall3 (fun s a b => length a = representationDim s /\ Forall isf a /\ near_v (INR (length vs) * / 2 ^ 53 * cost B s) (vals a) b) (leaves m) rs ws.
Proof.
  intros L m x vs r w d B HL Bm D0 (xs & -> & Hx) Fx Hv Fv HB H Hw He. apply built_wf in Bm. assert (EU : / 2 ^ 53 = u) by (rewrite u_val; cbn [pow]; lra). rewrite EU in *.
  assert (Sx : Forall2 (fstray (3 * d)) (leaves m) xs) by (clear - Hx D0; induction Hx; constructor; auto using defect_stray).
  destruct vs as [|v vs].
  - cbn [map walk increments64] in *. apply ok_eq in H. subst. exists xs, (map (fun x => vals x) xs). split; auto. split; [apply vals_concat|]. cbn [length INR].
    pose proof (fstray_pieces _ _ _ Bm Sx) as Px. clear - Fx Hx Px. induction Hx as [|s x ls xs H F IH]; cbn [map]; constructor; cbn [concat] in Fx; apply Forall_app in Fx; inversion Px; subst; [|apply IH; tauto]. split; auto. split; [tauto|]. rewrite !Rmult_0_l. apply Path.near_refl. lra.
  - pose proof (walk_no_s2 _ _ _ _ _ _ Hw) as NS. pose proof (beside64_start B m (3 * d) xs (proj1 HB) Bm NS Sx Fx) as Hb. rewrite vals_concat in Hw.
    destruct (path64 L m B HL Bm HB (v :: vs) 0 (3 * d) xs _ r w Sx ltac:(lra) He ltac:(lra) ltac:(lra) Hv Fv Hb H Hw) as (rs & ws & -> & -> & A1 & A2). exists rs, ws. split; auto. split; auto.
    rewrite Rplus_0_l in A2. pose proof (fstray_pieces _ _ _ Bm A1) as Pr. clear - A1 A2 Pr. revert A1 Pr. induction A2 as [|s a b ls rs ws H F IH]; intros A1 Pr; inversion A1 as [|? ? ? ? S1 S2]; inversion Pr; subst; constructor; auto. split; auto. split; [|apply beside64_near; auto].
    apply fstray_fin in S1. destruct s as [h [| |[|]] p q|]; auto. cbn [beside64] in H. tauto.
Qed.
Print Assumptions C62_path.

Lemma near_cut {c : mfd f64 -> R} {ls : list (mfd f64)} {rs : list (list f64)} {ws : list (list R)} :
  Forall3 (fun s a b => length a = representationDim s /\ Forall isf a /\ near_v (c s) (vals a) b) ls rs ws -> Forall2 (fun s x => length x = representationDim s) ls ws.
Proof. induction 1 as [|s a b ls rs ws (H1 & _ & H2) F IH]; constructor; auto. apply nlen in H2. rewrite <- H2. etransitivity; [apply map_length|exact H1]. Qed.
(** Two C libraries (two machines) that meet the accuracy asked of cos and sin end within twice that of each other. *)
Theorem C62_portable : forall L L' (m : mfd f64) (x : list f64) (vs : list (list f64)) (r r' : list f64) (w : list R) (d B : R), accurate L -> accurate L' -> built m ->
  0 <= d -> defect64M d m x -> Forall isf x -> Forall (tangent64 m) vs -> Forall (Forall isf) vs -> 0 <= B <= bpow radix2 990 ->
  increments64 L m x vs = Ok r -> increments64 L' m x vs = Ok r' -> walk B m (vals x) (map (fun v => vals v) vs) w ->
  3 * d + 1240 * INR (length vs) * / 2 ^ 53 <= 1 / 1000 ->
  exists rs rs', r = concat rs /\ r' = concat rs' /\
    Forall3 (fun s a b => length a = representationDim s /\ near_v (2 * (INR (length vs) * / 2 ^ 53 * cost B s)) (vals a) (vals b)) (leaves m) rs rs'.
Proof.
  intros L L' m x vs r r' w d B HL HL' Bm D0 Hx Fx Hv Fv HB H H' Hw He.
  destruct (C62_path L m x vs r w d B) as (rs & ws & E1 & E2 & A1); auto. destruct (C62_path L' m x vs r' w d B) as (rs' & ws' & E1' & E2' & A1'); auto.
  exists rs, rs'. split; auto. split; auto.
  assert (ws' = ws) as ->. { symmetry. apply concat_inj_len; [|congruence]. apply (len_pair2 representationDim (leaves m)); [apply (near_cut A1)|apply (near_cut A1')]. }
  clear - A1 A1'. revert rs' A1'. induction A1 as [|s a b ls rs ws (H0 & _ & H1) F IH]; intros rs' A'; inversion A' as [|? a' ? ? rs2 ? (_ & _ & H2) F2]; subst; constructor; auto. split; auto.
  rewrite Rmult_plus_distr_r with (r1 := 1) (r2 := 1), !Rmult_1_l. apply (Relog.near_v_trans _ _ _ b); auto. apply Relog.near_v_sym; auto.
Qed.
Print Assumptions C62_portable.

(** ** There and back *)
Lemma exp_back v : length v = 3%nat -> rmul (expSO3 v) (expSO3 (map Ropp v)) = ridm /\ qprod (expQ v) (expQ (map Ropp v)) = Q4 1 0 0 0.
Proof.
  intros L3. destruct v as [|a [|b [|c [|]]]]; try discriminate. assert (E1 : rscal 1 [a; b; c] = [a; b; c]) by (unfold rscal; cbn [map]; rewrite !Rmult_1_l; reflexivity).
  assert (E2 : rscal (-1) [a; b; c] = map Ropp [a; b; c]) by (unfold rscal; cbn [map]; repeat f_equal; ring). assert (E3 : rscal (1 + -1) [a; b; c] = [0; 0; 0]) by (unfold rscal; cbn [map]; repeat f_equal; ring).
  assert (N0 : rnorm [0; 0; 0] = 0) by (unfold rnorm; cbn [rdot]; replace (0 * 0 + (0 * 0 + (0 * 0 + 0))) with 0 by ring; apply sqrt_0).
  pose proof (expSO3_add 1 (-1) [a; b; c] eq_refl) as S. pose proof (expQ_add 1 (-1) [a; b; c] eq_refl) as Q. rewrite E1, E2, E3 in S, Q. rewrite S, Q. unfold expSO3, expQ. cbv zeta. rewrite N0. destruct (Req_EM_T 0 0); [auto|contradiction].
Qed.
Lemma step_back s x v y : step_leaf s x v y -> step_leaf s y (map Ropp v) x.
Proof.
  destruct s as [h [| |[|]] a b|]; cbn [step_leaf]; try tauto.
  - intros (L1 & L2 & ->). assert (LL : length x = length v) by congruence. rewrite map_length. split; [|split; [auto|]].
    + rewrite <- L1. clear L1 L2. revert v LL. induction x as [|p x IH]; intros [|q v] LL; try discriminate; [reflexivity|]. change (radd (p :: x) (q :: v)) with (p + q :: radd x v). cbn [length]. f_equal. apply IH. cbn in LL. lia.
    + clear L1 L2. revert v LL. induction x as [|p x IH]; intros [|q v] LL; try discriminate; [reflexivity|]. change (radd (radd (p :: x) (q :: v)) (map Ropp (q :: v))) with (p + q + - q :: radd (radd x v) (map Ropp v)). f_equal; [ring|]. apply IH. cbn in LL. lia.
  - intros (L3 & A & -> & ->). rewrite map_length. split; auto. eexists. split; [reflexivity|]. destruct (exp_back v L3) as [E _]. rewrite rmul_assoc, E, rmul_id_r. reflexivity.
  - intros (L3 & q & -> & ->). rewrite map_length. split; auto. eexists. split; [reflexivity|]. destruct (exp_back v L3) as [_ E]. rewrite qprod_assoc, E. destruct q. unfold qprod, qflat. cbn. repeat f_equal; ring.
Qed.
Lemma stepM_back B m x v y : stepM B m x v y -> forall xs, x = concat xs -> Forall2 (fun s x => length x = representationDim s) (leaves m) xs -> wf m -> Forall2 (within B) (leaves m) xs -> stepM B m y (map Ropp v) x.
Proof.
  intros (xs & vs & ys & -> & -> & -> & F & Wn) xs' E P W Hw. destruct (step_pieces m xs vs ys W F) as (L1 & _ & _).
  assert (xs' = xs) as ->. { symmetry. apply concat_inj_len; auto. apply (len_pair2 representationDim (leaves m)); auto. }
  exists ys, (map (map Ropp) vs), xs. split; auto. split; [apply concat_map|]. split; auto. split; auto. clear - F. induction F; cbn [map]; constructor; auto using step_back.
Qed.
Lemma walk_app B m x vs y vs' z : walk B m x vs y -> walk B m y vs' z -> walk B m x (vs ++ vs') z.
Proof. revert x. induction vs as [|v vs IH]; intros x; cbn [walk List.app]; [intros ->; auto|]. intros (t & H1 & H2) H3. exists t. split; auto. Qed.
Definition inside (B : R) (m : mfd f64) (x : list R) : Prop := exists xs, x = concat xs /\ Forall2 (fun s x => length x = representationDim s) (leaves m) xs /\ Forall2 (within B) (leaves m) xs.
Lemma walk_back B m x vs y : wf m -> inside B m x -> walk B m x vs y -> walk B m y (map (map Ropp) (rev vs)) x.
Proof.
  intros W. revert x. induction vs as [|v vs IH]; intros x (xs & Ex & P & Hw) H; cbn [walk rev map] in *; [auto|]. destruct H as (z & H1 & H2). rewrite map_app. apply (walk_app B m y _ z).
  - apply IH; auto. destruct H1 as (xs' & ws & ys & _ & _ & -> & F & Wn). exists ys. split; auto. destruct (step_pieces m _ _ _ W F) as (_ & _ & L3). auto.
  - cbn [map walk]. exists x. split; auto. apply (stepM_back B m x v z H1 xs); auto.
Qed.

(** Going along a path and back the same way with the opposite increments, in doubles, ends within 2 n times the same
    costs of the starting point. *)
Theorem C62_there_and_back : forall L (m : mfd f64) (x : list f64) (vs vs' : list (list f64)) (r : list f64) (w : list R) (d B : R), accurate L -> built m ->
  0 <= d -> defect64M d m x -> Forall isf x -> inside B m (vals x) -> Forall (tangent64 m) (vs ++ vs') -> Forall (Forall isf) (vs ++ vs') -> 0 <= B <= bpow radix2 990 ->
  map (fun v => vals v) vs' = map (fun v => map Ropp (vals v)) (rev vs) ->
  increments64 L m x (vs ++ vs') = Ok r -> walk B m (vals x) (map (fun v => vals v) vs) w ->
  3 * d + 2480 * INR (length vs) * / 2 ^ 53 <= 1 / 1000 ->
  exists rs xs, r = concat rs /\ x = concat xs /\
    Forall3 (fun s a b => length a = representationDim s /\ near_v (2 * (INR (length vs) * / 2 ^ 53 * cost B s)) (vals a) (vals b)) (leaves m) rs xs.
Proof.
  intros L m x vs vs' r w d B HL Bm D0 Hx Fx Hi Hv Fv HB E H Hw He. pose proof (built_wf _ Bm) as W.
  assert (LE : length vs' = length vs). { transitivity (length (map (fun v => vals v) vs')); [symmetry; apply map_length|]. rewrite E, map_length, rev_length. reflexivity. }
  assert (Wk : walk B m (vals x) (map (fun v => vals v) (vs ++ vs')) (vals x)).
  { assert (EE : map (fun v => vals v) (vs ++ vs') = map (fun v => vals v) vs ++ map (map Ropp) (rev (map (fun v => vals v) vs))).
    { transitivity (map (fun v => vals v) vs ++ map (fun v => vals v) vs'); [apply map_app|]. f_equal. etransitivity; [exact E|]. symmetry. etransitivity; [apply f_equal; symmetry; apply map_rev|]. apply map_map. }
    rewrite EE. apply (walk_app B m _ _ w); auto. apply walk_back; auto. }
  assert (LN : INR (length (vs ++ vs')) = 2 * INR (length vs)) by (rewrite app_length, LE, plus_INR; ring).
  destruct (C62_path L m x (vs ++ vs') r (vals x) d B) as (rs & ws & -> & E2 & A1); auto. { rewrite LN. lra. }
  destruct Hx as (xs & -> & Hx). exists rs, xs. split; auto. split; auto.
  assert (Px : Forall2 (fun s x => length x = representationDim s) (leaves m) xs). { apply (fstray_pieces (3 * d) m xs W). clear - Hx D0; induction Hx; constructor; auto using defect_stray. }
  assert (ws = map (fun x => vals x) xs) as ->. { symmetry. apply concat_inj_len; [|rewrite <- vals_concat; auto]. apply (len_pair representationDim (leaves m)); auto. apply (near_cut A1). }
  rewrite LN in A1. clear - A1 Px. revert xs Px A1. generalize (leaves m). intros ls. revert rs. induction ls as [|s ls IH]; intros rs [|y xs] Px A1; inversion Px; subst; cbn [map] in A1; inversion A1 as [|? a ? ? rs' ? (K1 & _ & K2) F]; subst; constructor; auto.
  split; auto. replace (2 * (INR (length vs) * / 2 ^ 53 * cost B s)) with (2 * INR (length vs) * / 2 ^ 53 * cost B s) by ring. exact K2.
Qed.
Print Assumptions C62_there_and_back.

(** ** Example *)
(** ((R^2 x SO3 matrix) x SO3 quaternion) from (3, 4), a quarter turn and a half turn: k times the same increment, for every k. *)
Lemma fP_walk k : forall B a b A q, Rabs a + INR k <= B -> Rabs b + INR k <= B ->
  exists w, walk B (fP libm_exact) (concat [[a; b]; flat9 A; qflat q]) (repeat (concat [[1; -1]; [1; 0; 0]; [2; 0; 0]]) k) w.
Proof.
  induction k as [|k IH]; intros B a b A q Ha Hb; [eexists; reflexivity|]. rewrite S_INR in Ha, Hb. pose proof (pos_INR k) as P.
  assert (A1 : Rabs (a + 1) <= Rabs a + 1) by (eapply Rle_trans; [apply Rabs_triang|]; rewrite (Rabs_pos_eq 1) by lra; lra).
  assert (B1 : Rabs (b + -1) <= Rabs b + 1) by (eapply Rle_trans; [apply Rabs_triang|]; rewrite (Rabs_left (-1)) by lra; lra).
  destruct (IH B (a + 1) (b + -1) (rmul A (expSO3 [1; 0; 0])) (qprod q (expQ [2; 0; 0]))) as [w Hw]; [lra|lra|]. exists w. cbn [repeat walk].
  exists (concat [[a + 1; b + -1]; flat9 (rmul A (expSO3 [1; 0; 0])); qflat (qprod q (expQ [2; 0; 0]))]). split; [|exact Hw].
  exists [[a; b]; flat9 A; qflat q], [[1; -1]; [1; 0; 0]; [2; 0; 0]], [[a + 1; b + -1]; flat9 (rmul A (expSO3 [1; 0; 0])); qflat (qprod q (expQ [2; 0; 0]))].
  split; [reflexivity|]. split; [reflexivity|]. split; [reflexivity|]. change (leaves (fP libm_exact)) with [fR2 libm_exact; fM libm_exact; fQ libm_exact]. split.
  - apply Forall4_cons; [split; [reflexivity|split; reflexivity]|]. apply Forall4_cons; [split; [reflexivity|]; eexists; split; reflexivity|]. apply Forall4_cons; [split; [reflexivity|]; eexists; split; reflexivity|]. apply Forall4_nil.
  - apply Forall2_cons; [|apply Forall2_cons; [exact I|apply Forall2_cons; [exact I|apply Forall2_nil]]]. apply Forall_cons; [lra|apply Forall_cons; [lra|apply Forall_nil]].
Qed.
Lemma fPx_ok : defect64M 0 (fP libm_exact) fPx /\ Forall isf fPx /\ vals fPx = concat [[3; 4]; flat9 (M3 0 (-1) 0 1 0 0 0 0 1); qflat (Q4 0 0 1 0)].
Proof.
  destruct (vals_fi [3; 4]%Z) as [F3 V3]; [repeat constructor; lia|]. destruct (vals_fi [0; 1; 0; -1; 0; 0; 0; 0; 1]%Z) as [F V]; [repeat constructor; lia|]. destruct (vals_fi [0; 0; 1; 0]%Z) as [F4 V4]; [repeat constructor; lia|]. split; [|split].
  - exists [fi [3; 4]%Z; fi [0; 1; 0; -1; 0; 0; 0; 0; 1]%Z; fi [0; 0; 1; 0]%Z]. split; [unfold fPx; cbn [concat]; rewrite app_nil_r; reflexivity|].
    apply Forall2_cons; [reflexivity|]. apply Forall2_cons; [|apply Forall2_cons; [|apply Forall2_nil]].
    + split; [exact F|]. exists (M3 0 (-1) 0 1 0 0 0 0 1). split; [exact V|].
      unfold near_rot, rdet. cbn [rmul rtr a00 a01 a02 a10 a11 a12 a20 a21 a22]. repeat split; apply Rabs_le; lra.
    + split; [exact F4|]. exists (Q4 0 0 1 0). split; [exact V4|]. unfold qn2. cbn. apply Rabs_le. lra.
  - unfold fPx. apply Forall_app. split; [exact F3|]. apply Forall_app. split; [exact F|exact F4].
  - unfold fPx. transitivity (vals (fi [3; 4]%Z) ++ vals (fi [0; 1; 0; -1; 0; 0; 0; 0; 1]%Z ++ fi [0; 0; 1; 0]%Z)); [apply map_app|]. rewrite V3. transitivity ([3; 4] ++ (vals (fi [0; 1; 0; -1; 0; 0; 0; 0; 1]%Z) ++ vals (fi [0; 0; 1; 0]%Z))); [apply (f_equal (fun l => [3; 4] ++ l)); apply map_app|]. rewrite V, V4. reflexivity.
Qed.
Lemma fPv_ok : tangent64 (fP libm_exact) fPv /\ Forall isf fPv /\ vals fPv = concat [[1; -1]; [1; 0; 0]; [2; 0; 0]].
Proof.
  destruct (vals_fi [1; -1]%Z) as [F3 V3]; [repeat constructor; lia|]. destruct (vals_fi [1; 0; 0]%Z) as [F V]; [repeat constructor; lia|]. destruct (vals_fi [2; 0; 0]%Z) as [F4 V4]; [repeat constructor; lia|]. split; [|split].
  - exists [fi [1; -1]%Z; fi [1; 0; 0]%Z; fi [2; 0; 0]%Z]. split; [unfold fPv; cbn [concat]; rewrite app_nil_r; reflexivity|].
    apply Forall2_cons; [split; [reflexivity|exact I]|]. apply Forall2_cons; [|apply Forall2_cons; [|apply Forall2_nil]]; (split; [reflexivity|exact I]).
  - unfold fPv. apply Forall_app. split; [exact F3|]. apply Forall_app. split; [exact F|exact F4].
  - unfold fPv. transitivity (vals (fi [1; -1]%Z) ++ vals (fi [1; 0; 0]%Z ++ fi [2; 0; 0]%Z)); [apply map_app|]. rewrite V3. transitivity ([1; -1] ++ (vals (fi [1; 0; 0]%Z) ++ vals (fi [2; 0; 0]%Z))); [apply (f_equal (fun l => [1; -1] ++ l)); apply map_app|]. rewrite V, V4. reflexivity.
Qed.
Example C62_example : forall k, 1240 * INR k * / 2 ^ 53 <= 1 / 1000 -> exists r w, increments64 libm_exact (fP libm_exact) fPx (repeat fPv k) = Ok r /\
  walk (4 + INR k) (fP libm_exact) (vals fPx) (repeat (vals fPv) k) w /\ near_v (INR k * / 2 ^ 53 * (380 + 2 * INR k)) (vals r) w.
Proof.
  intros k Hk. destruct fPx_ok as (DX & FX & VX). destruct fPv_ok as (TV & FV & VV). destruct (C49_example k) as (r & Hr & _). pose proof (pos_INR k) as P.
  destruct (fP_walk k (4 + INR k) 3 4 (M3 0 (-1) 0 1 0 0 0 0 1) (Q4 0 0 1 0)) as [w Hw]; [rewrite Rabs_pos_eq; lra|rewrite Rabs_pos_eq; lra|].
  exists r, w. split; auto. rewrite VX, VV. split; auto. assert (U0 : 0 < / 2 ^ 53) by (apply Rinv_0_lt_compat; cbn [pow]; lra).
  assert (EM : map (fun v => vals v) (repeat fPv k) = repeat (vals fPv) k) by (clear; induction k as [|k IH]; [reflexivity|]; cbn [repeat map]; f_equal; exact IH).
  destruct (C62_path libm_exact (fP libm_exact) fPx (repeat fPv k) r w 0 (4 + INR k)) as (rs & ws & -> & -> & F); auto.
  - apply libm_exact_ok.
  - apply fP_built.
  - lra.
  - apply Forall_forall. intros v Hv. apply repeat_spec in Hv. subst v. exact TV.
  - apply Forall_forall. intros v Hv. apply repeat_spec in Hv. subst v. exact FV.
  - split; [lra|]. assert (K : INR k <= 10 ^ 15) by (cbn [pow] in *; lra). apply Rle_trans with (bpow radix2 60); [cbn [pow] in K; change (bpow radix2 60) with 1152921504606846976; lra|apply bpow_le; lia].
  - rewrite EM, VX, VV. exact Hw.
  - rewrite repeat_length. lra.
  - rewrite repeat_length in F. rewrite vals_concat. assert (IE : 0 <= INR k * / 2 ^ 53) by (apply Rmult_le_pos; lra).
    change (leaves (fP libm_exact)) with [fR2 libm_exact; fM libm_exact; fQ libm_exact] in F.
    inversion F as [|? r0 w0 ? ? ? (_ & _ & G0) F0]; subst. inversion F0 as [|? r1 w1 ? ? ? (_ & _ & G1) F1]; subst. inversion F1 as [|? r2 w2 ? ? ? (_ & _ & G2) F2]; subst. inversion F2; subst. cbn [map concat].
    assert (C0 : cost (4 + INR k) (fR2 libm_exact) = 2 * (4 + INR k)) by reflexivity. assert (C1 : cost (4 + INR k) (fM libm_exact) = 372) by reflexivity. assert (C2 : cost (4 + INR k) (fQ libm_exact) = 164) by reflexivity.
    rewrite C0 in G0. rewrite C1 in G1. rewrite C2 in G2.
    repeat (apply Close.near_v_app; [eapply NumExp.near_v_mono; [|eassumption]; apply Rmult_le_compat_l; [exact IE|lra]|]). constructor.
Qed.
(** One step and one step back. *)
Example C62_example_back : exists r, increments64 libm_exact (fP libm_exact) fPx [fPv; map Bopp fPv] = Ok r /\ near_v (9 / 10 ^ 14) (vals r) (vals fPx).
Proof.
  destruct fPx_ok as (DX & FX & VX). destruct fPv_ok as (TV & FV & VV).
  assert (OV : Forall isf (map Bopp fPv) /\ vals (map Bopp fPv) = map Ropp (vals fPv)).
  { clear - FV. induction FV as [|a l Fa FV [IH1 IH2]]; [split; [constructor|reflexivity]|]. destruct (f_opp a Fa) as [F V]. cbn [map]. split; [constructor; auto|]. f_equal; auto. }
  destruct OV as [FO VO].
  assert (TO : tangent64 (fP libm_exact) (map Bopp fPv)).
  { exists [map Bopp (fi [1; -1]%Z); map Bopp (fi [1; 0; 0]%Z); map Bopp (fi [2; 0; 0]%Z)]. split; [unfold fPv; cbn [concat]; rewrite app_nil_r, !map_app; reflexivity|].
    apply Forall2_cons; [split; [reflexivity|exact I]|]. apply Forall2_cons; [|apply Forall2_cons; [|apply Forall2_nil]]; (split; [reflexivity|exact I]). }
  assert (N : forall a b, 0 <= a -> b = a \/ b = - a -> rnorm [b; 0; 0] = a) by (intros a b H [->| ->]; unfold rnorm; [replace (rdot _ _) with (a * a) by (simpl; ring)|replace (rdot _ _) with (a * a) by (simpl; ring)]; apply sqrt_square; auto).
  assert (MO : forall l, Forall isf l -> Forall isf (map Bopp l) /\ vals (map Bopp l) = map Ropp (vals l)).
  { intros l H. clear - H. induction H as [|a l Fa FV [IH1 IH2]]; [split; [constructor|reflexivity]|]. destruct (f_opp a Fa) as [F V]. cbn [map]. split; [constructor; auto|]. f_equal; auto. }
  destruct (vals_fi [1; 0; 0]%Z) as [F1 V1]; [repeat constructor; lia|]. destruct (vals_fi [2; 0; 0]%Z) as [F2 V2]; [repeat constructor; lia|]. cbn [map] in V1, V2.
  destruct (MO _ F1) as [F1' V1']. destruct (MO _ F2) as [F2' V2']. rewrite V1 in V1'. rewrite V2 in V2'. cbn [map] in V1', V2'. rewrite Ropp_0 in V1', V2'.
  destruct (C49_never_stops libm_exact (fP libm_exact) fPx [fPv; map Bopp fPv] (fP_built _) eq_refl) as [r Hr].
  { apply Forall_cons; [|apply Forall_cons; [|apply Forall_nil]].
    - exists [fi [1; -1]%Z; fi [1; 0; 0]%Z; fi [2; 0; 0]%Z]. split; [unfold fPv; cbn [concat]; rewrite app_nil_r; reflexivity|].
      apply Forall2_cons; [split; [reflexivity|exact I]|]. apply Forall2_cons; [|apply Forall2_cons; [|apply Forall2_nil]]; (split; [reflexivity|]).
      + split; [exact F1|]. rewrite V1, (N 1) by (auto; lra). lra.
      + split; [exact F2|]. rewrite V2, (N 2) by (auto; lra). lra.
    - exists [map Bopp (fi [1; -1]%Z); map Bopp (fi [1; 0; 0]%Z); map Bopp (fi [2; 0; 0]%Z)]. split; [unfold fPv; cbn [concat]; rewrite app_nil_r, !map_app; reflexivity|].
      apply Forall2_cons; [split; [reflexivity|exact I]|]. apply Forall2_cons; [|apply Forall2_cons; [|apply Forall2_nil]]; (split; [reflexivity|]).
      + split; [exact F1'|]. rewrite V1', (N 1) by (auto; lra). lra.
      + split; [exact F2'|]. rewrite V2', (N 2) by (auto; lra). lra. }
  exists r. split; auto. destruct (fP_walk 1 5 3 4 (M3 0 (-1) 0 1 0 0 0 0 1) (Q4 0 0 1 0)) as [w Hw]; [rewrite Rabs_pos_eq; simpl; lra|rewrite Rabs_pos_eq; simpl; lra|].
  destruct (C62_there_and_back libm_exact (fP libm_exact) fPx [fPv] [map Bopp fPv] r w 0 5) as (rs & xs & -> & EX & F); auto.
  - apply libm_exact_ok.
  - apply fP_built.
  - lra.
  - rewrite VX. eexists. split; [reflexivity|]. change (leaves (fP libm_exact)) with [fR2 libm_exact; fM libm_exact; fQ libm_exact]. split.
    + repeat (apply Forall2_cons; [reflexivity|]). apply Forall2_nil.
    + apply Forall2_cons; [|apply Forall2_cons; [exact I|apply Forall2_cons; [exact I|apply Forall2_nil]]]. apply Forall_cons; [rewrite Rabs_pos_eq; lra|apply Forall_cons; [rewrite Rabs_pos_eq; lra|apply Forall_nil]].
  - apply Forall_cons; auto.
  - apply Forall_cons; auto.
  - split; [lra|]. apply Rle_trans with (bpow radix2 3); [change (bpow radix2 3) with 8; lra|apply bpow_le; lia].
  - cbn [map rev List.app]. rewrite VO. reflexivity.
  - cbn [map]. rewrite VX, VV. exact Hw.
  - cbn [length INR pow]. lra.
  - rewrite EX, !vals_concat. cbn [length INR] in F. assert (U0 : 0 < / 2 ^ 53) by (apply Rinv_0_lt_compat; cbn [pow]; lra). assert (U1 : / 2 ^ 53 * 744 <= 84 / 10 ^ 15) by (cbn [pow]; lra).
    change (leaves (fP libm_exact)) with [fR2 libm_exact; fM libm_exact; fQ libm_exact] in F.
    inversion F as [|? r0 w0 ? ? ? (_ & G0) F0]; subst. inversion F0 as [|? r1 w1 ? ? ? (_ & G1) F0']; subst. inversion F0' as [|? r2 w2 ? ? ? (_ & G2) F0'']; subst. inversion F0''; subst. cbn [map concat].
    assert (C0 : cost 5 (fR2 libm_exact) = 2 * 5) by reflexivity. assert (C1 : cost 5 (fM libm_exact) = 372) by reflexivity. assert (C2 : cost 5 (fQ libm_exact) = 164) by reflexivity.
    rewrite C0 in G0. rewrite C1 in G1. rewrite C2 in G2.
    repeat (apply Close.near_v_app; [eapply NumExp.near_v_mono; [|eassumption]; cbn [pow] in *; lra|]). constructor.
Qed.
