(** C56: the release build (NDEBUG).  Refinement for any scalars; retractation and increments in exact real arithmetic. *)
From Coq Require Import Reals List Lra Lia ZArith Bool Arith Psatz.
From Verif Require Import Base Scalar Vec Model_Real Model_S2 Model_SO3 Model_Manifold Model_Release Spec Layout Comp Indep Flat BlockMat Structure
  XR SpecR RotR NumVec NumMat Angle NumQuat NumTree NumLeaf RotLog RoundTrip NumS2 NumExp NumLog Close Force Points Drift ExScalar ExR
  Properties_SO3 Properties_Drift Release.
Import ListNotations.

(** ** The release build refines the debug build *)
(** Whatever the scalars, the tree and the arguments: a call that returns in the debug build returns the same in the
    release build. *)
Theorem C56_refines : forall (K : Type) (SK : Scalar K) (m : mfd K),
  (forall v p r, isInM m v p = Ok r -> isInM_r m v p = Ok r) /\
  (forall x v p r, isInTxM m x v p = Ok r -> isInTxM_r m x v p = Ok r) /\
  (forall o v r, forceOnM m o v = Ok r -> forceOnM_r m o v = Ok r) /\
  (forall o v x r, forceOnTxM m o v x = Ok r -> forceOnTxM_r m o v x = Ok r) /\
  (forall o x v r, retractation m o x v = Ok r -> retractation_r m o x v = Ok r) /\
  (forall o x y r, pseudoLog m o x y = Ok r -> pseudoLog_r m o x y = Ok r) /\
  (forall o x r, pseudoLog0 m o x = Ok r -> pseudoLog0_r m o x = Ok r) /\
  (forall o r, setZero m o = Ok r -> setZero_r m o = Ok r) /\
  (forall o r, limitMap m o = Ok r -> limitMap_r m o = Ok r) /\
  (forall o r, getTypicalMagnitude m o = Ok r -> getTypicalMagnitude_r m o = Ok r) /\
  (forall o r, getTrustMagnitude m o = Ok r -> getTrustMagnitude_r m o = Ok r) /\
  (forall x J, diffRetractation m x = Ok J -> diffRetractation_r m x = Ok J) /\
  (forall x J, diffPseudoLog0 m x = Ok J -> diffPseudoLog0_r m x = Ok J) /\
  (forall o i x J, applyDiffRetractation m o i x = Ok J -> applyDiffRetractation_r m o i x = Ok J) /\
  (forall o i x J, applyDiffPseudoLog0 m o i x = Ok J -> applyDiffPseudoLog0_r m o i x = Ok J) /\
  (forall o i x v J, applyTransport m o i x v = Ok J -> applyTransport_r m o i x v = Ok J) /\
  (forall o i x v J, applyInvTransport m o i x v = Ok J -> applyInvTransport_r m o i x v = Ok J) /\
  (forall o i x v J, applyInvTransportOnTheRight m o i x v = Ok J -> applyInvTransportOnTheRight_r m o i x v = Ok J) /\
  (forall o x J, tangentConstraint m o x = Ok J -> tangentConstraint_r m o x = Ok J) /\
  (forall o x J, getIdentityOnTxM m o x = Ok J -> getIdentityOnTxM_r m o x = Ok J) /\
  (forall o c rnd p r, createRandomPoint m o c rnd p = Ok r -> createRandomPoint_r m o c rnd p = Ok r).
Proof.
  intros K SK m.
  split; [intros; eapply le_isInM; eauto|]. split; [intros; eapply le_isInTxM; eauto|]. split; [intros; eapply le_forceOnM; eauto|].
  split; [intros; eapply le_forceOnTxM; eauto|]. split; [intros; eapply le_retractation; eauto|]. split; [intros; eapply le_pseudoLog; eauto|].
  split; [intros; eapply le_pseudoLog0; eauto|]. split; [intros; eapply le_setZero; eauto|]. split; [intros; eapply le_limitMap; eauto|].
  split; [intros; eapply le_getTyp; eauto|]. split; [intros; eapply le_getTru; eauto|]. split; [intros; eapply le_diffRetr; eauto|].
  split; [intros; eapply le_diffLog; eauto|]. split; [intros; eapply le_applyDR; eauto|]. split; [intros; eapply le_applyDL; eauto|].
  split; [intros; eapply le_at; eauto|]. split; [intros; eapply le_ait; eauto|]. split; [intros; eapply le_aitr; eauto|].
  split; [intros; eapply le_tangentConstraint; eauto|]. split; [intros; eapply le_identity; eauto|]. intros; eapply le_random; eauto.
Qed.
Print Assumptions C56_refines.

(** ** No refusal on right sizes *)
Ltac cut3 x := let E := fresh in assert (E : List.length x = 3) by lia; destruct x as [|? [|? [|? [|? ?]]]]; try discriminate E; clear E.
Ltac cut4 x := let E := fresh in assert (E : List.length x = 4) by lia; destruct x as [|? [|? [|? [|? [|? ?]]]]]; try discriminate E; clear E.
Ltac cut9 x := let E := fresh in assert (E : List.length x = 9) by lia;
  destruct x as [|? [|? [|? [|? [|? [|? [|? [|? [|? [|? ?]]]]]]]]]]; try discriminate E; clear E.
(** With vectors of the right sizes and whatever their content (tangent or not, NaN or not), the release build always
    stores a result of the right size. *)
Theorem C56_total : forall (K : Type) (SK : Scalar K) (m : mfd K) (out x v : vec K), built m ->
  List.length out = representationDim m -> List.length x = representationDim m -> List.length v = tangentDim m ->
  exists r, retractation_r m out x v = Ok r /\ List.length r = representationDim m.
Proof.
  intros K SK m out x v B Lo Lx Lv. apply built_wf in B.
  cut (exists r, retractation_r m out x v = Ok r).
  { intros [r H]. exists r. split; auto. rewrite <- Lo. eapply retractation_r_length; eauto. }
  revert B out x v Lo Lx Lv. induction m as [h l a b|h sT sR subs IH] using mfd_ind'; intros W out x v Lo Lx Lv.
  - inversion W; subst. unfold representationDim, tangentDim in *. cbn [hdr_of] in *. cbn [retractation_r].
    destruct l as [| |[|]]; unfold leaf_wf in *.
    + assert (E1 : List.length x = List.length v) by lia. assert (E2 : List.length (vadd x v) = List.length out) by (unfold vadd; rewrite map2_length; lia).
      unfold real_retractation, same_size, assign, eigen_assert. rewrite E1, Nat.eqb_refl. cbn [bind]. rewrite E2, Nat.eqb_refl. cbn [bind]. eauto.
    + cut3 x. cut3 v. cut3 out. cbn. eauto.
    + cut9 x. cut3 v. cut9 out. unfold em_retractation_r, em_exponential_r. match goal with |- context [if ?b then _ else _] => destruct b end; eexists; reflexivity.
    + cut4 x. cut3 v. cut4 out. unfold eq_retractation_r, eq_retractation_at_r, eq_exponential_r. match goal with |- context [if ?b then _ else _] => destruct b end; eexists; reflexivity.
  - inversion W as [|? ? ? ? Hd Ht Hr HT HR Hs]; subst.
    destruct (cut_pieces DR subs out) as (os & -> & Ho); [exact (eq_trans Lo Hr)|].
    destruct (cut_pieces DR subs x) as (xs & -> & Hxs); [exact (eq_trans Lx Hr)|].
    destruct (cut_pieces DT subs v) as (vs & -> & Hvs); [exact (eq_trans Lv Ht)|].
    assert (F : exists ys, Forall5 (fun s o x v r => retractation_r s o x v = Ok r) subs os xs vs ys).
    { clear - IH Hs Ho Hxs Hvs. revert os xs vs Ho Hxs Hvs. induction subs as [|s ss IHs]; intros os xs vs Ho Hx Hv.
      - inversion Ho; inversion Hx; inversion Hv; subst. exists []. constructor.
      - inversion Ho as [|? o1 ? os' Ho1 Ho2]; inversion Hx as [|? x1 ? xs' Hx1 Hx2]; inversion Hv as [|? v1 ? vs' Hv1 Hv2];
          inversion IH as [|? ? I1 I2]; inversion Hs as [|? ? S1 S2]; subst.
        destruct (IHs I2 S2 os' xs' vs') as (ys & F); auto. destruct (I1 S1 o1 x1 v1) as (y & Hy); auto.
        exists (y :: ys). constructor; auto. }
    destruct F as (ys & F). exists (concat ys). apply retractation_r_prod; auto. exists ys. auto.
Qed.
Print Assumptions C56_total.

(** ** Exact real arithmetic: no bound on rotations, no tangency test *)
Local Open Scope R_scope.

Lemma em_exponential_r_fin x y z : let v := [x; y; z] in let n := rdot v v in
  em_exponential_r (fin v) = Ok (m3fin (rodrigues (emS n) (emC n) x y z)).
Proof.
  intros v n. unfold v. cbn [fin map em_exponential_r].
  change [Fin x; Fin y; Fin z] with (fin v). rewrite sqnorm_fin. fold n.
  unfold map_prec. cbn [klit XRS kltb ksqrt kpi].
  rewrite xsqrt_fin by apply rdot_self_nonneg. change (sqrt n) with (rnorm v). cbn [xltb].
  unfold emS, emC. change (sqrt n) with (rnorm v).
  destruct (Rltb n (1 / 100000000)) eqn:E.
  - cbn [kdiv ksub kmul kadd kopp k1 XRS]. rewrite !xdiv_fin by lra.
    cbn [xsub xadd lift2 lift1]. unfold m3fin, rodrigues. cbn [a00 a01 a02 a10 a11 a12 a20 a21 a22].
    replace (n / (24 / 1)) with (n / 24) by field. replace (n / (6 / 1)) with (n / 6) by field. reflexivity.
  - apply Rltb_false in E. cbn [kdiv ksub kmul kadd kopp k1 XRS ksin kcos lift1].
    cbn [xsub]. rewrite !xdiv_fin.
    + reflexivity.
    + intros H. assert (n = 0). { unfold n. rewrite <- rnorm_sq, H. ring. } lra.
    + lra.
Qed.
Lemma eq_exponential_r_fin q0 x y z : let v := [x; y; z] in let n := rdot v v in
  eq_exponential_r q0 (fin v) = Ok (qfin (Q4 (eqW n) (eqS n * x) (eqS n * y) (eqS n * z))).
Proof.
  intros v n. unfold v. cbn [fin map eq_exponential_r].
  change [Fin x; Fin y; Fin z] with (fin v). rewrite sqnorm_fin. fold n.
  unfold map_prec. cbn [klit XRS kltb ksqrt kpi].
  rewrite xsqrt_fin by apply rdot_self_nonneg. change (sqrt n) with (rnorm v). cbn [xltb].
  unfold eqS, eqW. change (sqrt n) with (rnorm v).
  destruct (Rltb n (1 / 100000000)) eqn:E.
  - cbn [kdiv ksub kmul kadd kopp k1 XRS].
    repeat (cbn [xsub xadd lift2 lift1]; rewrite xdiv_fin by lra). cbn [xsub xadd lift2 lift1].
    unfold qfin. cbn [qw qx qy qz lift2].
    replace (1 + (- (1) + n / (48 / 1)) * (n / (8 / 1))) with (1 + (-1 + n / 48) * (n / 8)) by field.
    replace ((1 + (- (1) + 1 / 80 * n) * n / (24 / 1)) / (2 / 1)) with ((1 + (-1 + n / 80) * n / 24) / 2) by field. reflexivity.
  - apply Rltb_false in E. cbn [kdiv ksub kmul kadd kopp k1 XRS ksin kcos lift1 lift2].
    rewrite !xdiv_fin.
    + unfold qfin. cbn [qw qx qy qz lift2]. replace (1 / 2 * rnorm v) with (rnorm v / 2) by field. reflexivity.
    + intros H. assert (n = 0). { unfold n. rewrite <- rnorm_sq, H. ring. } lra.
Qed.
Lemma em_exp_r_any v : length v = 3%nat -> exists E, em_exponential_r (fin v) = Ok (m3fin E) /\ stretch (1 / 10 ^ 24) E /\
  (eps8 <= rdot v v -> E = expSO3 v) /\ near_v (1 / 10 ^ 22) (flat9 E) (flat9 (expSO3 v)).
Proof.
  intros Lv. destruct (vec3_inv v Lv) as (x & y & z & ->). rewrite em_exponential_r_fin. cbv zeta. eexists. split; [reflexivity|].
  destruct (Rle_dec eps8 (rdot [x; y; z] [x; y; z])) as [H|H].
  - assert (X : rodrigues (emS (rdot [x; y; z] [x; y; z])) (emC (rdot [x; y; z] [x; y; z])) x y z = expSO3 [x; y; z]).
    { unfold emS, emC, expSO3. pose proof H as Hb. apply Rltb_false in Hb. rewrite Hb. cbv zeta. destruct (Req_EM_T _ 0) as [Z|Z].
      - rewrite <- rnorm_sq, Z in H. lra.
      - change (sqrt (rdot [x;y;z] [x;y;z])) with (rnorm [x;y;z]). rewrite <- rnorm_sq. reflexivity. }
    rewrite X. split; [apply stretch_mono with 0; [lra|apply stretch_rot, expSO3_rot]|]. split; auto.
    apply near_v_mono with 0; [lra|apply near_v_refl].
  - apply Rnot_le_lt in H. unfold emS, emC. pose proof H as Hb. apply Rltb_true in Hb. rewrite Hb. rewrite rdot3 in *.
    split; [apply em_series_stretch; auto|]. split; [lra|]. apply em_series_dist; auto.
Qed.
Lemma eq_exp_r_any q0 v : length v = 3%nat -> exists q, eq_exponential_r q0 (fin v) = Ok (qfin q) /\ Rabs (qn2 q - 1) <= 1 / 10 ^ 24 /\
  (eps8 <= rdot v v -> q = expQ v) /\ near_v (1 / 10 ^ 24) (qflat q) (qflat (expQ v)).
Proof.
  intros Lv. destruct (vec3_inv v Lv) as (x & y & z & ->). rewrite eq_exponential_r_fin. cbv zeta. eexists. split; [reflexivity|].
  destruct (Rle_dec eps8 (rdot [x; y; z] [x; y; z])) as [H|H].
  - match goal with |- Rabs (qn2 ?q - 1) <= _ /\ _ => assert (X : q = expQ [x; y; z]) end.
    { unfold eqS, eqW, expQ. pose proof H as Hb. apply Rltb_false in Hb. rewrite Hb. cbv zeta. destruct (Req_EM_T _ 0) as [Z|Z].
      - rewrite <- rnorm_sq, Z in H. lra.
      - reflexivity. }
    rewrite X. split; [rewrite expQ_unit; replace (1 - 1) with 0 by ring; rewrite Rabs_R0; lra|]. split; auto.
    apply near_v_mono with 0; [lra|apply near_v_refl].
  - apply Rnot_le_lt in H. unfold eqS, eqW. pose proof H as Hb. apply Rltb_true in Hb. rewrite Hb. rewrite rdot3 in *.
    split; [apply eq_series_unit; auto|]. split; [lra|]. apply eq_series_dist; auto.
Qed.

(** What the release build computes on an elementary manifold: x + v, its normalisation on S2, the product with the rotation
    by v of SO3, exactly from |v| = 1e-4 on, within 1e-22 (1e-24) per entry of that rotation below. *)
Definition lands (s : mfd XR) (x v y : list R) : Prop :=
  match s with
  | Leaf _ LReal _ _ => y = radd x v
  | Leaf _ LS2 _ _ => y = rscal (/ rnorm (radd x v)) (radd x v)
  | Leaf _ (LSO3 MapMatrix) _ _ => exists A E, x = flat9 A /\ y = flat9 (rmul A E) /\
      near_v (1 / 10 ^ 22) (flat9 E) (flat9 (expSO3 v)) /\ (1 / 100000000 <= rdot v v -> E = expSO3 v)
  | Leaf _ (LSO3 MapQuat) _ _ => exists p e, x = qflat p /\ y = qflat (qprod p e) /\
      near_v (1 / 10 ^ 24) (qflat e) (qflat (expQ v)) /\ (1 / 100000000 <= rdot v v -> e = expQ v)
  | Prod _ _ _ _ => False
  end.
(** On S2 the vector is not the opposite of the point. *)
Definition no_cancel (s : mfd XR) (x v : list R) : Prop := match s with Leaf _ LS2 _ _ => v <> map Ropp x | _ => True end.

Lemma no_cancel_pos (x v : list R) : length x = 3%nat -> length v = 3%nat -> v <> map Ropp x -> 0 < rdot (radd x v) (radd x v).
Proof.
  intros Lx Lv N. pose proof (rdot_self_nonneg (radd x v)) as P. destruct (Req_dec (rdot (radd x v) (radd x v)) 0) as [Z|Z]; [|lra].
  exfalso. apply N. clear N P. destruct (vec3_inv x Lx) as (a & b & c & ->). destruct (vec3_inv v Lv) as (p & q & r & ->).
  cbn in Z. pose proof (Rle_0_sqr (a + p)) as Q1. pose proof (Rle_0_sqr (b + q)) as Q2. pose proof (Rle_0_sqr (c + r)) as Q3. unfold Rsqr in *.
  assert (S1 : Rsqr (a + p) = 0) by (unfold Rsqr; lra). assert (S2 : Rsqr (b + q) = 0) by (unfold Rsqr; lra). assert (S3 : Rsqr (c + r) = 0) by (unfold Rsqr; lra).
  apply Rsqr_0_uniq in S1, S2, S3. cbn. f_equal; [lra|]. f_equal; [lra|]. f_equal. lra.
Qed.

Lemma leaf_step_r h l a b d x v : let s := Leaf h l a b in leaf_wf h l a b -> 0 <= d -> strays d s x -> length v = tangentDim s -> no_cancel s x v ->
  exists y, strays (nxt d) s y /\ lands s x v y /\ forall o, length o = representationDim s -> retractation_r s o (fin x) (fin v) = Ok (fin y).
Proof.
  intros s W Hd Hx Lv NC. pose proof (strays_len _ _ _ _ _ _ W Hx) as Lx. unfold s, representationDim, tangentDim in *. cbn [hdr_of] in *.
  destruct l as [| |[|]]; cbn [strays no_cancel lands retractation_r] in *.
  - destruct W as [W1 W2]. exists (radd x v). split; [rewrite radd_length; lia|]. split; [reflexivity|]. intros o Lo.
    unfold real_retractation, same_size, eigen_assert. rewrite !fin_length, Lx, Lv. replace (h_rdim h) with (h_tdim h) by lia. rewrite Nat.eqb_refl. cbn [bind].
    rewrite vadd_fin. apply assign_same. rewrite fin_length, radd_length; lia.
  - pose proof W as (W1 & W2 & W3 & _). destruct Hx as [L3 U]. assert (Lv3 : length v = 3%nat) by lia.
    pose proof (no_cancel_pos x v L3 Lv3 NC) as P. exists (rscal (/ rnorm (radd x v)) (radd x v)). split; [|split; [reflexivity|]].
    + split; [rewrite rscal_length, radd_length; lia|]. apply unit_normal; auto.
    + intros o Lo. unfold s2_retractation. rewrite same_size_fin by lia. cbn [bind]. rewrite vadd_fin.
      rewrite as_vec3_fin by (rewrite radd_length; lia). cbn [bind]. rewrite norm_fin. rewrite vdivs_fin.
      * apply assign_same. rewrite fin_length, rscal_length, radd_length; lia.
      * apply sqrt_lt_R0 in P. unfold rnorm. lra.
  - pose proof W as (W1 & W2 & W3 & _). destruct Hx as (A & -> & SA). assert (L3 : length v = 3%nat) by lia.
    destruct (em_exp_r_any v L3) as (E & HE & SE & XE & DE). exists (flat9 (rmul A E)). split; [|split].
    + exists (rmul A E). split; auto. apply stretch_mul; auto.
    + exists A, E. auto.
    + intros o Lo. unfold em_retractation_r. rewrite HE. cbn [bind]. rewrite m3_read_fin. cbn [bind].
      rewrite m3_mul_fin, m3_to_list_fin. apply raw_write_same. rewrite Lo, W3. reflexivity.
  - pose proof W as (W1 & W2 & W3 & _). destruct Hx as (p & -> & SA). assert (L3 : length v = 3%nat) by lia.
    destruct (eq_exp_r_any junk_quat v L3) as (E & HE & SE & XE & DE). exists (qflat (qprod p E)). split; [|split].
    + exists (qprod p E). split; auto. rewrite qn2_mul. set (u := qn2 p) in *. set (t := qn2 E) in *. apply Rabs_le_inv in SE.
      replace (u * t - 1) with ((u - 1) * t + (t - 1)) by ring. unfold nxt. eapply Rle_trans; [apply Rabs_triang|]. rewrite Rabs_mult.
      assert (Rabs t <= 1 + 1 / 10 ^ 24) by (apply Rabs_le; lra). assert (Rabs (t - 1) <= 1 / 10 ^ 24) by (apply Rabs_le; lra).
      assert (Rabs (u - 1) * Rabs t <= d * (1 + 1 / 10 ^ 24)) by (apply Rmult_le_compat; auto using Rabs_pos). lra.
    + exists p, E. auto.
    + intros o Lo. unfold eq_retractation_r, eq_retractation_at_r. rewrite HE. cbn [bind]. rewrite quat_read_fin. cbn [bind].
      destruct (quat_read_len o ltac:(lia)) as [o' Eo]. rewrite Eo. cbn [bind].
      rewrite qmul_fin. unfold quat_write. rewrite quat_to_list_fin. apply raw_write_same. rewrite Lo, W3. reflexivity.
Qed.

Lemma tree_step_r m d xs vs out : wf m -> 0 <= d -> Forall3 (fun s x v => strays d s x /\ length v = tangentDim s /\ no_cancel s x v) (leaves m) xs vs ->
  length out = representationDim m ->
  exists ys, retractation_r m out (fin (concat xs)) (fin (concat vs)) = Ok (fin (concat ys)) /\
    Forall2 (strays (nxt d)) (leaves m) ys /\ Forall4 lands (leaves m) xs vs ys.
Proof.
  intros W D0 F Lo.
  destruct (choose4 _ (fun s x v y => (length x = getDim DR s /\ length v = getDim DT s /\
      forall o, length o = getDim DR s -> retractation_r s o (fin x) (fin v) = Ok (fin y)) /\ strays (nxt d) s y /\ lands s x v y) _ _ _ F) as (ys & F4).
  { intros s x v Hs (Sx & Lv & Pv). destruct (wf_leaf_inv m s W Hs) as (h & l & a & b & -> & Wl).
    destruct (leaf_step_r h l a b d x v Wl D0 Sx Lv Pv) as (y & Sy & Ly & Ry).
    exists y. split; auto. split; [apply (strays_len _ _ _ _ _ _ Wl Sx)|]. split; auto. }
  exists ys. split; [|split].
  - apply (lift_op2 DR DR DT retractation_r retractation_r_prod m _ xs vs ys W Lo). clear - F4. induction F4; constructor; tauto.
  - clear - F4. induction F4; constructor; tauto.
  - clear - F4. induction F4; constructor; tauto.
Qed.
Lemma on_strays m xs : Forall2 on_leaf (leaves m) xs -> Forall2 (strays 0) (leaves m) xs.
Proof.
  intros F. induction F as [|s x ls xs Hs F IH]; constructor; auto. destruct s as [h [| |[|]] a b|]; cbn [on_leaf strays] in *; auto.
  - destruct Hs as (A & -> & HA). exists A. split; auto. apply stretch_rot; auto.
  - destruct Hs as (q & -> & HA). exists q. split; auto. rewrite HA. replace (1 - 1) with 0 by ring. rewrite Rabs_R0. lra.
Qed.
Lemma strays_defect d m ys : Forall2 (strays d) (leaves m) ys -> Forall2 (defect d) (leaves m) ys.
Proof.
  intros F. induction F as [|s x ls xs Hs F IH]; constructor; auto. destruct s as [h [| |[|]] a b|]; cbn [defect strays] in *; auto.
  destruct Hs as (A & -> & HA). exists A. split; auto. apply stretch_near; auto.
Qed.

(** From a point of the manifold and with any finite vector, however long and tangent or not, the release build computes x + v,
    (x + v) / |x + v| and the product with the rotation by v, and ends within 1e-24 of the manifold; only v = -x on an S2 slice
    is excluded. *)
Theorem C56_lands : forall m (xs vs : list (list R)) (out : list XR), built m -> Forall2 on_leaf (leaves m) xs ->
  Forall3 (fun s x v => length v = tangentDim s /\ no_cancel s x v) (leaves m) xs vs -> length out = representationDim m ->
  exists ys, retractation_r m out (fin (concat xs)) (fin (concat vs)) = Ok (fin (concat ys)) /\
    Forall4 lands (leaves m) xs vs ys /\ Forall2 (defect (1 / 10 ^ 24)) (leaves m) ys.
Proof.
  intros m xs vs out B Hx Hv Lo. apply built_wf in B.
  destruct (tree_step_r m 0 xs vs out B ltac:(lra)) as (ys & E & S & L); auto.
  { apply on_strays in Hx. revert vs Hv. induction Hx; intros vs Hv; inversion Hv; subst; constructor; auto. }
  exists ys. split; auto. split; auto. apply strays_defect. replace (1 / 10 ^ 24) with (nxt 0); auto. unfold nxt. ring.
Qed.
Print Assumptions C56_lands.

(** Point::increment (Point.cpp:116-120), repeated, in the release build. *)
Fixpoint increments_r (m : mfd XR) (x : list XR) (vs : list (list R)) : res (list XR) :=
  match vs with
  | [] => Ok x
  | v :: vs' => y <- retractation_r m x x (fin v) ;; increments_r m y vs'
  end.

(** Without S2: whatever the increments, of any length, any number of them, none fails and after k of them every SO3 slice
    is a rotation up to (1 + 1e-24)^k - 1. *)
Theorem C56_increments : forall m (x : list R) (vs : list (list R)), built m -> no_s2 m -> onM m x ->
  Forall (fun v => length v = tangentDim m) vs ->
  exists ys, increments_r m (fin x) vs = Ok (fin (concat ys)) /\ Forall2 (defect ((1 + 1 / 10 ^ 24) ^ length vs - 1)) (leaves m) ys.
Proof.
  intros m x vs B NS (xs & -> & Hx) Hv. apply built_wf in B. apply on_strays in Hx.
  assert (G : forall k xs, Forall2 (strays ((1 + 1 / 10 ^ 24) ^ k - 1)) (leaves m) xs ->
    exists ys, increments_r m (fin (concat xs)) vs = Ok (fin (concat ys)) /\ Forall2 (defect ((1 + 1 / 10 ^ 24) ^ (k + length vs) - 1)) (leaves m) ys).
  2:{ apply (G 0%nat). cbn [pow]. replace (1 - 1) with 0 by ring. exact Hx. }
  clear xs Hx. induction Hv as [|v vs Lv Hv IH]; intros k xs Hx.
  - exists xs. split; [reflexivity|]. rewrite Nat.add_0_r. apply strays_defect. auto.
  - destruct (cut_real DT m v B Lv) as (ws & -> & Pw). cbn [increments_r].
    assert (D0 : 0 <= (1 + 1 / 10 ^ 24) ^ k - 1) by (pose proof (pow_ge1 (1 / 10 ^ 24) k); lra).
    destruct (tree_step_r m _ xs ws (fin (concat xs)) B D0) as (ys & E & S & _).
    { assert (NC : forall s x v, In s (leaves m) -> no_cancel s x v).
      { intros s x v Hs. pose proof (no_s2_in _ _ NS Hs). destruct s as [h [| |[|]] a b|]; cbn; auto. discriminate. }
      clear - Hx Pw NC. revert ws Pw NC. induction Hx as [|s x ls xs Hs F IH]; intros ws Pw NC; inversion Pw as [|? w ? ws' Hw Pw']; subst; constructor; auto.
      - refine (conj Hs (conj Hw _)). apply NC. simpl; auto.
      - apply IH; auto. intros; apply NC; simpl; auto. }
    { rewrite fin_length. change (representationDim m) with (getDim DR m). rewrite (leaves_dim DR m B).
      pose proof (fun s => wf_leaf_inv m s B) as G. clear - Hx G. revert G. induction Hx as [|s x ls xs Hs F IH]; intros G; [reflexivity|].
      cbn [concat map]. rewrite app_length. change (sum_list (getDim DR s :: map (getDim DR) ls)) with (getDim DR s + sum_list (map (getDim DR) ls))%nat.
      rewrite IH by (intros; apply G; simpl; auto). f_equal. destruct (G s) as (h & l & a & b & -> & Wl); [simpl; auto|].
      apply (strays_len _ _ _ _ _ _ Wl Hs). }
    rewrite E. cbn [bind]. rewrite nxt_pow in S. destruct (IH (Datatypes.S k) ys S) as (zs & Ez & Dz). exists zs. split; auto.
    cbn [length]. rewrite Nat.add_succ_r. exact Dz.
Qed.
Print Assumptions C56_increments.

(** ** Full turns *)
(** A rotation vector lengthened by k full turns: same matrix, same quaternion up to the sign (-1)^k.  The debug build refuses
    one of the two vectors at least. *)
Lemma turn_norm (v : list R) c : length v = 3%nat -> rnorm (rscal c v) = Rabs c * rnorm v.
Proof. intros L. unfold rnorm. rewrite rdot_rscal_l, rdot_rscal_r, <- Rmult_assoc, sqrt_mult_alt by nra. f_equal. apply sqrt_Rsqr_abs. Qed.
Lemma cos_turns t k : cos (t + 2 * INR k * PI) = cos t. Proof. apply cos_period. Qed.
Lemma sin_turns t k : sin (t + 2 * INR k * PI) = sin t. Proof. apply sin_period. Qed.
Lemma cos_half k : forall t, cos (t + INR k * PI) = (-1) ^ k * cos t.
Proof.
  induction k as [|k IH]; intros t.
  - cbn. rewrite Rmult_0_l, Rplus_0_r. ring.
  - rewrite S_INR. replace (t + (INR k + 1) * PI) with (t + INR k * PI + PI) by ring. rewrite neg_cos, IH. cbn [pow]. ring.
Qed.
Lemma sin_half k : forall t, sin (t + INR k * PI) = (-1) ^ k * sin t.
Proof.
  induction k as [|k IH]; intros t.
  - cbn. rewrite Rmult_0_l, Rplus_0_r. ring.
  - rewrite S_INR. replace (t + (INR k + 1) * PI) with (t + INR k * PI + PI) by ring. rewrite neg_sin, IH. cbn [pow]. ring.
Qed.
Lemma expSO3_eq x y z t : rnorm [x; y; z] = t -> t <> 0 -> expSO3 [x; y; z] = rodrigues (sin t / t) ((1 - cos t) / (t * t)) x y z.
Proof. intros <- H. unfold expSO3. cbv zeta. destruct (Req_EM_T _ _); [contradiction|reflexivity]. Qed.
Lemma expQ_eq x y z t : rnorm [x; y; z] = t -> t <> 0 ->
  expQ [x; y; z] = Q4 (cos (t / 2)) (sin (t / 2) / t * x) (sin (t / 2) / t * y) (sin (t / 2) / t * z).
Proof. intros <- H. unfold expQ. cbv zeta. destruct (Req_EM_T _ _); [contradiction|reflexivity]. Qed.
Lemma turns v k : length v = 3%nat -> 0 < rnorm v -> let w := rscal (1 + 2 * INR k * PI / rnorm v) v in
  rnorm w = rnorm v + 2 * INR k * PI /\ expSO3 w = expSO3 v /\ qflat (expQ w) = rscal ((-1) ^ k) (qflat (expQ v)).
Proof.
  intros L P w. pose proof PI_RGT_0 as PP. pose proof (pos_INR k) as PK.
  assert (C : 0 <= 2 * INR k * PI / rnorm v). { apply Rmult_le_pos; [|left; apply Rinv_0_lt_compat; auto]. apply Rmult_le_pos; nra. }
  assert (N : rnorm w = rnorm v + 2 * INR k * PI).
  { unfold w. rewrite turn_norm, Rabs_pos_eq by (auto; lra). field. lra. }
  assert (NP : 0 <= 2 * INR k * PI) by (apply Rmult_le_pos; nra).
  split; auto. destruct (vec3_inv v L) as (x & y & z & Ev). 
  assert (Ew : w = [(1 + 2 * INR k * PI / rnorm v) * x; (1 + 2 * INR k * PI / rnorm v) * y; (1 + 2 * INR k * PI / rnorm v) * z]) by (unfold w; rewrite Ev at 2; reflexivity).
  set (t := rnorm v) in *. set (c := 1 + 2 * INR k * PI / t) in *. assert (Ct : c * t = t + 2 * INR k * PI) by (unfold c; field; lra).
  assert (Cp : 1 <= c) by (unfold c; lra).
  assert (Cn : c <> 0) by lra. assert (Tn : t <> 0) by lra.
  split.
  - rewrite Ew, Ev. rewrite (expSO3_eq _ _ _ (c * t)), (expSO3_eq x y z t); auto; try (rewrite <- Ev; reflexivity).
    + replace (sin (c * t)) with (sin t) by (rewrite Ct; symmetry; apply sin_turns). replace (cos (c * t)) with (cos t) by (rewrite Ct; symmetry; apply cos_turns). unfold rodrigues. f_equal; field; auto.
    + rewrite <- Ew, N. auto.
  - rewrite Ew, Ev. rewrite (expQ_eq _ _ _ (c * t)), (expQ_eq x y z t); auto; try (rewrite <- Ev; reflexivity).
    + replace (c * t / 2) with (t / 2 + INR k * PI) by (rewrite Ct; field). rewrite sin_half, cos_half.
      unfold qflat, rscal. cbn [qw qx qy qz map]. repeat match goal with |- _ :: _ = _ :: _ => apply f_equal2 end; try reflexivity; field; auto.
    + rewrite <- Ew, N. auto.
Qed.

Theorem C56_full_turns : forall h typ tru mp (x v : list R) (k : nat) (out : list XR),
  let s := Leaf h (LSO3 mp) typ tru in let w := rscal (1 + 2 * INR k * PI / rnorm v) v in
  built s -> on_leaf s x -> length v = 3%nat -> 1 / 100000000 <= rdot v v -> length out = representationDim s ->
  rnorm w = rnorm v + 2 * INR k * PI /\
  exists y, retractation_r s out (fin x) (fin v) = Ok (fin y) /\
    retractation_r s out (fin x) (fin w) = Ok (fin (match mp with MapMatrix => y | MapQuat => rscal ((-1) ^ k) y end)).
Proof.
  intros h typ tru mp x v k out s w B Hx L Hn Lo. apply built_leaf_wf in B.
  assert (P : 0 < rnorm v). { unfold rnorm. apply sqrt_lt_R0. lra. }
  destruct (turns v k L P) as (N & XM & XQ). fold w in N, XM, XQ. split; auto.
  assert (Lw : length w = 3%nat) by (unfold w; rewrite rscal_length; auto).
  assert (Hw : 1 / 100000000 <= rdot w w).
  { rewrite <- rnorm_sq, N. rewrite <- (rnorm_sq v) in Hn. pose proof PI_RGT_0. pose proof (pos_INR k). assert (0 <= 2 * INR k * PI) by (apply Rmult_le_pos; nra). nra. }
  assert (Hs : Forall2 (strays 0) [s] [x]) by (apply (on_strays s [x]); repeat constructor; auto). inversion Hs as [|? ? ? ? S _]; subst.
  assert (T : tangentDim s = 3%nat) by (unfold s, tangentDim; cbn [hdr_of]; destruct mp; apply B).
  destruct (leaf_step_r h (LSO3 mp) typ tru 0 x v B ltac:(lra) S) as (y & _ & Ly & Ry); [fold s; lia|exact I|].
  destruct (leaf_step_r h (LSO3 mp) typ tru 0 x w B ltac:(lra) S) as (y' & _ & Ly' & Ry'); [fold s; lia|exact I|].
  exists y. fold s in Ry, Ry'. rewrite Ry, Ry' by auto. split; auto. do 2 f_equal. destruct mp; cbn [lands] in Ly, Ly'.
  - destruct Ly as (A & E & -> & -> & _ & X). destruct Ly' as (A' & E' & EA & -> & _ & X'). apply flat9_inj in EA. subst A'. rewrite (X Hn), (X' Hw), XM. reflexivity.
  - destruct Ly as (A & E & -> & -> & _ & X). destruct Ly' as (A' & E' & EA & -> & _ & X'). rewrite (X Hn), (X' Hw).
    destruct A as [aw ax ay az], A' as [bw bx by' bz]. injection EA as -> -> -> ->. remember (expQ w) as p. remember (expQ v) as q. clear - XQ.
    destruct p as [pw px py pz], q as [rw rx ry rz].
    unfold qflat, rscal in *. cbn [map qw qx qy qz] in *. injection XQ as -> -> -> ->. unfold qprod. cbn [qw qx qy qz map].
    repeat match goal with |- _ :: _ = _ :: _ => apply f_equal2 end; try reflexivity; ring.
Qed.
Print Assumptions C56_full_turns.

(** ** What the assertions were for *)
(** v = -x on S2: refused by the debug build, NaN in the release build.  A point one entry too long: refused by the debug
    build, its last entry silently ignored by a product in the release build. *)
Definition rRR : mfd XR := get prod_empty (prod2 rR2 rR2).
Lemma rRR_built : built rRR.
Proof. apply (prod2_built rR2 rR2); auto using rR2_built. Qed.
Theorem C56_silent_refuted :
  (exists (x v : list R) (out : list XR), on_leaf rS2 x /\ length v = tangentDim rS2 /\ length out = representationDim rS2 /\
     retractation rS2 out (fin x) (fin v) = Fail EAssert /\ retractation_r rS2 out (fin x) (fin v) = Ok [Undef; Undef; Undef]) /\
  (exists m (x v : list R) (out y : list XR), built m /\ length x = S (representationDim m) /\ length v = tangentDim m /\ length out = representationDim m /\
     retractation m out (fin x) (fin v) = Fail EAssert /\ retractation_r m out (fin x) (fin v) = Ok y).
Proof.
  split.
  - exists [0; 0; 1], [0; 0; -1], [Fin 0; Fin 0; Fin 0]. split; [split; [reflexivity|cbn; ring]|]. split; [reflexivity|]. split; [reflexivity|]. split.
    + apply (s2_retr_reject); try reflexivity; [apply built_leaf_wf, rS2_built|]. cbn.
      replace (0 * 0 + (0 * 0 + (1 * -1 + 0))) with (Ropp 1) by ring. rewrite Rabs_Ropp, Rabs_R1. lra.
    + change (retractation_r rS2) with (@s2_retractation XR XRS). unfold s2_retractation. rewrite same_size_fin by reflexivity. cbn [bind]. rewrite vadd_fin.
      rewrite as_vec3_fin by reflexivity. cbn [bind]. rewrite norm_fin.
      assert (E : radd [0; 0; 1] [0; 0; -1] = [0; 0; 0]) by (unfold radd; cbn; repeat (apply f_equal2; [ring|]); reflexivity).
      rewrite E. assert (Z : rnorm [0; 0; 0] = 0) by (rewrite rnorm100; lra). rewrite Z. unfold vdivs, fin. cbn [map kdiv XRS]. rewrite !xdiv_0. reflexivity.
  - exists rRR, [1; 2; 3; 4; 5], [1; 1; 1; 1], (fin [0; 0; 0; 0]). eexists. split; [apply rRR_built|]. split; [reflexivity|]. split; [reflexivity|].
    split; [reflexivity|]. split; vm_compute; reflexivity.
Qed.
Print Assumptions C56_silent_refuted.

(** Hypotheses are met: R^2 x (S2 x SO3), a vector which is not tangent to the sphere and turns by more than pi, refused by the debug build. *)
Definition rel_xs : list (list R) := [[3; 4]; [0; 3 / 5; 4 / 5]; [0; 0; 1; 0]].
Definition rel_vs : list (list R) := [[1; -1]; [0; 1; 0]; [5; 0; 0]].
Lemma retractation_reject (m : mfd XR) o x v : length o = representationDim m -> length x = representationDim m -> length v = tangentDim m ->
  isInTxM m x v default_prec = Ok false -> retractation m o x v = Fail EAssert.
Proof.
  intros Lo Lx Lv E. destruct m; cbn [retractation]; rewrite (check_eq _ _ Lo), (check_eq _ _ Lx), (check_eq _ _ Lv); cbn [bind];
    rewrite E; reflexivity.
Qed.
Example C56_example : built rS /\ Forall2 on_leaf (leaves rS) rel_xs /\
  Forall3 (fun s x v => length v = tangentDim s /\ no_cancel s x v) (leaves rS) rel_xs rel_vs /\
  PI < rnorm [5; 0; 0] /\ 1 / 100000000 < Rabs (rdot [0; 3 / 5; 4 / 5] [0; 1; 0]) /\
  retractation rS (fin (concat rel_xs)) (fin (concat rel_xs)) (fin (concat rel_vs)) = Fail EAssert /\
  exists ys, retractation_r rS (fin (concat rel_xs)) (fin (concat rel_xs)) (fin (concat rel_vs)) = Ok (fin (concat ys)) /\
    Forall4 lands (leaves rS) rel_xs rel_vs ys.
Proof.
  assert (O : Forall2 on_leaf (leaves rS) rel_xs).
  { unfold rel_xs. repeat (apply Forall2_cons || apply Forall2_nil).
    - reflexivity.
    - split; [reflexivity|]. cbn. field.
    - exists (Q4 0 0 1 0). split; auto. unfold qn2; cbn; ring. }
  assert (V : Forall3 (fun s x v => length v = tangentDim s /\ no_cancel s x v) (leaves rS) rel_xs rel_vs).
  { unfold rel_xs, rel_vs. repeat constructor. cbn. intros H. injection H as _ H _. lra. }
  split; [apply rS_built|]. split; [exact O|]. split; [exact V|].
  split; [rewrite rnorm100 by lra; pose proof PI_4; lra|]. split; [cbn; rewrite Rabs_pos_eq; lra|]. split.
  - assert (E : isInTxM rS (fin (concat rel_xs)) (fin (concat rel_vs)) default_prec = Ok false).
    { cbv -[Rltb Rabs Rmult Rplus Rminus Ropp Rdiv Rinv IZR]. replace (Rltb _ _) with false; [reflexivity|]. symmetry. apply Rltb_false. rewrite Rabs_pos_eq; lra. }
    apply retractation_reject; auto.
  - destruct (C56_lands rS rel_xs rel_vs (fin (concat rel_xs)) rS_built O V ltac:(reflexivity)) as (ys & E & L & _). eauto.
Qed.
(** A turn and one radian, against one radian: same matrix, opposite quaternion. *)
Example C56_turns_example :
  (exists y, retractation_r rM (fin (flat9 exq)) (fin (flat9 exq)) (fin [1; 0; 0]) = Ok (fin y) /\
     retractation_r rM (fin (flat9 exq)) (fin (flat9 exq)) (fin (rscal (1 + 2 * INR 1 * PI / rnorm [1; 0; 0]) [1; 0; 0])) = Ok (fin y)) /\
  (exists y, retractation_r rQ (fin [0; 0; 1; 0]) (fin [0; 0; 1; 0]) (fin [1; 0; 0]) = Ok (fin y) /\
     retractation_r rQ (fin [0; 0; 1; 0]) (fin [0; 0; 1; 0]) (fin (rscal (1 + 2 * INR 1 * PI / rnorm [1; 0; 0]) [1; 0; 0])) = Ok (fin (rscal ((-1) ^ 1) y))).
Proof.
  split.
  - refine (proj2 (C56_full_turns _ _ _ MapMatrix (flat9 exq) [1; 0; 0] 1 (fin (flat9 exq)) rM_built _ _ _ _)); try reflexivity; [|cbn; lra].
    exists exq. split; auto using exq_rot.
  - refine (proj2 (C56_full_turns _ _ _ MapQuat [0; 0; 1; 0] [1; 0; 0] 1 (fin [0; 0; 1; 0]) rQ_built _ _ _ _)); try reflexivity; [|cbn; lra].
    exists (Q4 0 0 1 0). split; auto. unfold qn2; cbn; ring.
Qed.
