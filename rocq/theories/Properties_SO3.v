(** C18 to C22: exponential and logarithm on SO(3), matrix and quaternion maps.  Exact real arithmetic. *)
From Coq Require Import Reals List Lra Lia ZArith Bool Arith Psatz.
From Verif Require Import Base Scalar Vec Model_SO3 Model_Manifold Spec Layout Comp Flat BlockMat
  XR SpecR RotR NumVec NumMat Angle NumQuat NumTree NumLeaf RotLog RoundTrip NumExp NumLog Indep ExScalar ExR.
Import ListNotations.
Local Open Scope R_scope.

Lemma built_leaf_wf h l typ tru : built (Leaf (K:=XR) h l typ tru) -> leaf_wf h l typ tru.
Proof. intros B. apply built_wf in B. inversion B; auto. Qed.

(** ** Exponentials, all branches *)
Lemma em_exp_any v : length v = 3%nat -> rnorm v < PI ->
  exists E, em_exponential (fin v) = Ok (m3fin E) /\ near_rot (1 / 10 ^ 24) E /\
    (eps8 <= rdot v v -> E = expSO3 v) /\ near_v (1 / 10 ^ 22) (flat9 E) (flat9 (expSO3 v)).
Proof.
  intros Lv Hp. destruct (Rle_dec eps8 (rdot v v)) as [H|H].
  - exists (expSO3 v). split; [apply em_exp_main; auto|]. split; [|split; auto].
    + pose proof (rot_near _ (expSO3_rot v)) as N. unfold near_rot in *. repeat split; eapply Rle_trans; try apply N; lra.
    + apply near_v_mono with 0; [lra|apply near_v_refl].
  - apply Rnot_le_lt in H. destruct (vec3_inv v Lv) as (x & y & z & ->). rewrite em_exponential_fin. cbv zeta.
    apply Rltb_true in Hp. rewrite Hp. unfold emS, emC. pose proof H as Hb. apply Rltb_true in Hb. rewrite Hb.
    rewrite rdot3 in *. eexists. split; [reflexivity|]. split; [apply em_series_near; auto|]. split; [lra|].
    apply em_series_dist; auto.
Qed.
Lemma em_exp_reject v : length v = 3%nat -> PI <= rnorm v -> em_exponential (fin v) = Fail EAssert.
Proof.
  intros Lv Hp. destruct (vec3_inv v Lv) as (x & y & z & ->). rewrite em_exponential_fin. cbv zeta.
  apply Rltb_false in Hp. rewrite Hp. reflexivity.
Qed.
Lemma eq_exp_any q0 v : length v = 3%nat -> rnorm v < PI ->
  exists q, eq_exponential q0 (fin v) = Ok (qfin q) /\ Rabs (qn2 q - 1) <= 1 / 10 ^ 24 /\
    (eps8 <= rdot v v -> q = expQ v) /\ near_v (1 / 10 ^ 24) (qflat q) (qflat (expQ v)).
Proof.
  intros Lv Hp. destruct (Rle_dec eps8 (rdot v v)) as [H|H].
  - exists (expQ v). split; [apply eq_exp_main; auto|]. split; [|split; auto].
    + rewrite expQ_unit. replace (1 - 1) with 0 by ring. rewrite Rabs_R0. lra.
    + apply near_v_mono with 0; [lra|apply near_v_refl].
  - apply Rnot_le_lt in H. destruct (vec3_inv v Lv) as (x & y & z & ->). rewrite eq_exponential_fin. cbv zeta.
    apply Rltb_true in Hp. rewrite Hp. unfold eqS, eqW. pose proof H as Hb. apply Rltb_true in Hb. rewrite Hb.
    rewrite rdot3 in *. eexists. split; [reflexivity|]. split; [apply eq_series_unit; auto|]. split; [lra|].
    apply eq_series_dist; auto.
Qed.
Lemma eq_exp_reject q0 v : length v = 3%nat -> PI <= rnorm v -> eq_exponential q0 (fin v) = Fail EAssert.
Proof.
  intros Lv Hp. destruct (vec3_inv v Lv) as (x & y & z & ->). rewrite eq_exponential_fin. cbv zeta.
  apply Rltb_false in Hp. rewrite Hp. reflexivity.
Qed.

(** ** C18 *)
(** Below pi the result is the exact product with the rotation by v (Taylor branch: within 3e-22 per entry),
    a rotation (Taylor branch: up to 1e-24), accepted by isInM; from pi on the call is refused. *)
Theorem C18_matrix_retraction : forall h typ tru (A : m3 R) (v : list R) (out : list XR),
  let s := Leaf h (LSO3 MapMatrix) typ tru in
  built s -> rot A -> length v = 3%nat -> length out = 9%nat ->
  (rnorm v < PI ->
     exists B, retractation s out (fin (flat9 A)) (fin v) = Ok (fin (flat9 B)) /\
       near_rot (1 / 10 ^ 24) B /\
       near_v (3 / 10 ^ 22) (flat9 B) (flat9 (rmul A (expSO3 v))) /\
       (1 / 100000000 <= rdot v v -> rot B /\ B = rmul A (expSO3 v)) /\
       forall prec, isInM s (fin (flat9 B)) prec = Ok true) /\
  (PI <= rnorm v -> retractation s out (fin (flat9 A)) (fin v) = Fail EAssert).
Proof.
  intros h typ tru A v out s B HA Lv Lo. apply built_leaf_wf in B. pose proof B as (W1 & W2 & W3 & _).
  split; intros Hv.
  - destruct (em_exp_any v Lv Hv) as (E & HE & NE & XE & DE). exists (rmul A E).
    assert (NB : near_rot (1 / 10 ^ 24) (rmul A E)) by (apply near_rot_mul; auto).
    split; [|split; [auto|split; [|split]]].
    + destruct (vec3_inv v Lv) as (x & y & z & ->). apply em_retr; auto.
    + replace (3 / 10 ^ 22) with (3 * (1 / 10 ^ 22)) by field. apply rmul_near; auto. lra.
    + intros H. rewrite (XE H). split; auto. apply rot_mul; auto. apply expSO3_rot.
    + intros prec. unfold s. cbn [isInM]. unfold representationDim; cbn [hdr_of].
      rewrite check_eq by (rewrite fin_length, flat9_length; lia). cbn [bind]. apply em_isInM_near.
      unfold near_rot in *. repeat split; eapply Rle_trans; try apply NB; lra.
  - unfold s. cbn [retractation isInTxM]. unfold representationDim, tangentDim; cbn [hdr_of].
    rewrite !check_eq by (rewrite ?fin_length, ?flat9_length; lia). cbn [bind mnf_assert].
    unfold em_retractation. rewrite em_exp_reject; auto.
Qed.
Print Assumptions C18_matrix_retraction.

Example C18_example : built rM /\ rot exq /\ 0 < rnorm [1/10^5; 0; 0] < PI /\ rdot [1/10^5; 0; 0] [1/10^5; 0; 0] < 1 / 100000000 /\
  rnorm [1; 0; 0] < PI /\ 1 / 100000000 <= rdot [1; 0; 0] [1; 0; 0].
Proof.
  pose proof PI_gt2. split; [apply rM_built|]. split; [apply exq_rot|]. rewrite !rnorm100 by lra. simpl. repeat split; lra.
Qed.

(** ** C19 *)
Theorem C19_quat_retraction : forall h typ tru (p : quat R) (v : list R) (out : list XR),
  let s := Leaf h (LSO3 MapQuat) typ tru in
  built s -> qn2 p = 1 -> length v = 3%nat -> length out = 4%nat ->
  (rnorm v < PI ->
     exists q, retractation s out (fin (qflat p)) (fin v) = Ok (fin (qflat q)) /\
       Rabs (qn2 q - 1) <= 1 / 10 ^ 24 /\
       near_v (4 / 10 ^ 24) (qflat q) (qflat (qprod p (expQ v))) /\
       (1 / 100000000 <= rdot v v -> qn2 q = 1 /\ q = qprod p (expQ v)) /\
       forall prec, 1 / 10 ^ 24 < prec -> isInM s (fin (qflat q)) (Fin prec) = Ok true) /\
  (PI <= rnorm v -> retractation s out (fin (qflat p)) (fin v) = Fail EAssert).
Proof.
  intros h typ tru p v out s B Hp Lv Lo. apply built_leaf_wf in B. pose proof B as (W1 & W2 & W3 & _).
  split; intros Hv.
  - destruct (eq_exp_any junk_quat v Lv Hv) as (E & HE & NE & XE & DE). exists (qprod p E).
    assert (NB : Rabs (qn2 (qprod p E) - 1) <= 1 / 10 ^ 24) by (rewrite qn2_mul, Hp, Rmult_1_l; auto).
    split; [|split; [auto|split; [|split]]].
    + apply eq_retr; auto.
    + replace (4 / 10 ^ 24) with (4 * (1 / 10 ^ 24)) by field. apply qprod_near; auto. lra.
    + intros H. rewrite (XE H). split; auto. rewrite qn2_mul, expQ_unit. lra.
    + intros prec Hpr. unfold s. cbn [isInM]. unfold representationDim; cbn [hdr_of].
      rewrite check_eq by (rewrite fin_length; cbn; lia). cbn [bind]. unfold eq_isInM. rewrite quat_read_fin. cbn [bind].
      rewrite qsqnorm_fin. f_equal. set (n := qn2 (qprod p E)) in *.
      assert (Hn : 0 <= n). { unfold n, qn2. apply Rplus_le_le_0_compat; [apply Rplus_le_le_0_compat; [apply Rplus_le_le_0_compat|]|]; apply Rle_0_sqr. }
      cbn [ksqrt XRS]. rewrite xsqrt_fin by auto. cbn [ksub k1 XRS xsub lift2 kabs xabs lift1 kltb xltb].
      rewrite fin_length. cbn [qflat length Nat.eqb andb]. apply Rltb_true.
      apply Rle_lt_trans with (Rabs (n - 1)); [|lra]. pose proof (sqrt_sqrt n Hn) as Q. pose proof (sqrt_pos n) as S0.
      set (r := sqrt n) in *. assert (Er : n - 1 = (r - 1) * (r + 1)) by (rewrite <- Q; ring). rewrite Er, Rabs_mult.
      rewrite (Rabs_pos_eq (r + 1)) by lra. pose proof (Rabs_pos (r - 1)). nra.
  - unfold s. cbn [retractation isInTxM]. unfold representationDim, tangentDim; cbn [hdr_of].
    rewrite !check_eq by (rewrite ?fin_length; cbn; lia). cbn [bind mnf_assert].
    unfold eq_retractation, eq_retractation_at. rewrite eq_exp_reject; auto.
Qed.
Print Assumptions C19_quat_retraction.

Example C19_example : built rQ /\ qn2 (Q4 (3/5) 0 (4/5) 0) = 1 /\ 0 < rnorm [1/10^5; 0; 0] < PI /\
  rdot [1/10^5; 0; 0] [1/10^5; 0; 0] < 1 / 100000000 /\ rnorm [1; 0; 0] < PI /\ 1 / 100000000 <= rdot [1; 0; 0] [1; 0; 0].
Proof.
  pose proof PI_gt2. split; [apply rQ_built|]. split; [unfold qn2; cbn; field|]. rewrite !rnorm100 by lra. simpl. repeat split; lra.
Qed.

(** The local quaternion and the previous content of the output, both read before being written, have no
    influence.  Any scalar type, any sizes. *)
Theorem C19_no_uninitialised : forall (K : Type) (SK : Scalar K) (q0 q0' : quat K) (out out' x v : vec K),
  length out = 4%nat -> length out' = 4%nat -> eq_retractation_at q0 out x v = eq_retractation_at q0' out' x v.
Proof.
  intros K SK q0 q0' out out' x v L L'. unfold eq_retractation_at.
  assert (E : eq_exponential q0 v = eq_exponential q0' v).
  { unfold eq_exponential. destruct v as [|a [|b [|c [|]]]]; auto. }
  rewrite E. destruct (eq_exponential q0' v); auto. cbn [bind]. destruct (quat_read x); auto. cbn [bind].
  destruct (quat_read_len out L) as [r ->]. destruct (quat_read_len out' L') as [r' ->]. cbn [bind].
  unfold quat_write. apply raw_write_indep with 4%nat; auto.
Qed.
Print Assumptions C19_no_uninitialised.

(** ** C20 *)
Lemma near4 e a b : near_v e (qflat a) (qflat b) ->
  Rabs (qw a - qw b) <= e /\ Rabs (qx a - qx b) <= e /\ Rabs (qy a - qy b) <= e /\ Rabs (qz a - qz b) <= e.
Proof.
  unfold near_v, qflat. intros H. inversion H as [|? ? ? ? H1 T1]; subst. inversion T1 as [|? ? ? ? H2 T2]; subst.
  inversion T2 as [|? ? ? ? H3 T3]; subst. inversion T3 as [|? ? ? ? H4 _]; subst. auto.
Qed.
Lemma prod_close e a b c d : Rabs (a - c) <= e -> Rabs (b - d) <= e -> Rabs c <= 1 -> Rabs d <= 1 -> 0 <= e <= 1 ->
  Rabs (a * b - c * d) <= 3 * e.
Proof.
  intros H1 H2 H3 H4 He. replace (a * b - c * d) with ((a - c) * (b - d) + (a - c) * d + c * (b - d)) by ring.
  eapply Rle_trans; [apply Rabs_triang|]. eapply Rle_trans; [apply Rplus_le_compat_r; apply Rabs_triang|].
  rewrite !Rabs_mult. pose proof (Rabs_pos (a - c)). pose proof (Rabs_pos (b - d)). pose proof (Rabs_pos c). pose proof (Rabs_pos d).
  assert (Rabs (a - c) * Rabs (b - d) <= e * 1) by (apply Rmult_le_compat; lra).
  assert (Rabs (a - c) * Rabs d <= e * 1) by (apply Rmult_le_compat; lra).
  assert (Rabs c * Rabs (b - d) <= 1 * e) by (apply Rmult_le_compat; lra). lra.
Qed.
Lemma qmat_near e a b : qn2 b = 1 -> 0 <= e <= 1 -> near_v e (qflat a) (qflat b) ->
  near_v (12 * e) (flat9 (qmat a)) (flat9 (qmat b)).
Proof.
  intros Hb He H. apply near4 in H as (Hw & Hx & Hy & Hz). apply unit_entries in Hb. unfold qflat in Hb.
  inversion Hb as [|? ? Bw T1]; subst. inversion T1 as [|? ? Bx T2]; subst. inversion T2 as [|? ? By T3]; subst.
  inversion T3 as [|? ? Bz _]; subst.
  destruct a as [aw ax ay az], b as [bw bx by_ bz]. unfold flat9, qmat, near_v. cbn [a00 a01 a02 a10 a11 a12 a20 a21 a22 qw qx qy qz] in *.
  pose proof (prod_close e aw ax bw bx Hw Hx Bw Bx He) as P1. pose proof (prod_close e aw ay bw by_ Hw Hy Bw By He) as P2.
  pose proof (prod_close e aw az bw bz Hw Hz Bw Bz He) as P3. pose proof (prod_close e ax ay bx by_ Hx Hy Bx By He) as P4.
  pose proof (prod_close e ax az bx bz Hx Hz Bx Bz He) as P5. pose proof (prod_close e ay az by_ bz Hy Hz By Bz He) as P6.
  pose proof (prod_close e ax ax bx bx Hx Hx Bx Bx He) as P7. pose proof (prod_close e ay ay by_ by_ Hy Hy By By He) as P8.
  pose proof (prod_close e az az bz bz Hz Hz Bz Bz He) as P9.
  apply Rabs_le_inv in P1, P2, P3, P4, P5, P6, P7, P8, P9.
  repeat (apply Forall2_cons || apply Forall2_nil); apply Rabs_le; lra.
Qed.
Lemma near_v_trans e1 e2 x y z : near_v e1 x y -> near_v e2 y z -> near_v (e1 + e2) x z.
Proof.
  intros H. revert z. induction H as [|a b x y P F IH]; intros z G; inversion G; subst; constructor; [|apply IH; auto].
  match goal with |- Rabs (?a - ?c) <= _ => replace (a - c) with ((a - b) + (b - c)) by ring end.
  eapply Rle_trans; [apply Rabs_triang|]. lra.
Qed.
Lemma near_v_sym e x y : near_v e x y -> near_v e y x.
Proof. induction 1; constructor; auto. rewrite Rabs_minus_sym. auto. Qed.

(** Moving by the same v in both representations, from corresponding points, reaches corresponding points:
    exactly off the Taylor branch, within 1e-21 per entry on it.  Both refuse |v| >= pi. *)
Theorem C20_retractions_commute : forall h h' typ tru typ' tru' (p : quat R) (v : list R) (out out' : list XR),
  let sQ := Leaf h (LSO3 MapQuat) typ tru in
  let sM := Leaf h' (LSO3 MapMatrix) typ' tru' in
  built sQ -> built sM -> qn2 p = 1 -> length v = 3%nat -> length out = 4%nat -> length out' = 9%nat ->
  (rnorm v < PI ->
     exists q B, retractation sQ out (fin (qflat p)) (fin v) = Ok (fin (qflat q)) /\
       retractation sM out' (fin (flat9 (qmat p))) (fin v) = Ok (fin (flat9 B)) /\
       near_v (1 / 10 ^ 21) (flat9 (qmat q)) (flat9 B) /\
       (1 / 100000000 <= rdot v v -> qmat q = B)) /\
  (PI <= rnorm v -> retractation sQ out (fin (qflat p)) (fin v) = Fail EAssert /\
                    retractation sM out' (fin (flat9 (qmat p))) (fin v) = Fail EAssert).
Proof.
  intros h h' typ tru typ' tru' p v out out' sQ sM BQ BM Hp Lv Lo Lo'.
  assert (HR : rot (qmat p)) by (apply qmat_rot; auto).
  destruct (C19_quat_retraction h typ tru p v out BQ Hp Lv Lo) as [Q1 Q2].
  destruct (C18_matrix_retraction h' typ' tru' (qmat p) v out' BM HR Lv Lo') as [M1 M2].
  split; intros Hv; [|split; auto].
  destruct (Q1 Hv) as (q & Eq & _ & Nq & Xq & _). destruct (M1 Hv) as (B & EB & _ & NB & XB & _).
  exists q, B. split; [exact Eq|]. split; [exact EB|].
  assert (G : qmat (qprod p (expQ v)) = rmul (qmat p) (expSO3 v)) by (rewrite qmat_mul by auto using expQ_unit; rewrite qmat_expQ; auto).
  split.
  - apply (qmat_near (4 / 10 ^ 24)) in Nq; [|rewrite qn2_mul, expQ_unit; lra|lra].
    rewrite G in Nq. apply near_v_sym in NB. pose proof (near_v_trans _ _ _ _ _ Nq NB) as N.
    eapply near_v_mono; [|exact N]. lra.
  - intros H. destruct (Xq H) as [_ ->]. destruct (XB H) as [_ ->]. exact G.
Qed.
Print Assumptions C20_retractions_commute.

Example C20_example : built rQ /\ built rM /\ qn2 (Q4 (3/5) 0 (4/5) 0) = 1 /\ rnorm [1; 0; 0] < PI.
Proof.
  pose proof PI_gt2. repeat split; auto using rQ_built, rM_built; [unfold qn2; cbn; field|rewrite rnorm100; lra].
Qed.

Lemma logQ_mat q : qn2 q = 1 -> expSO3 (logQ q) = qmat q.
Proof.
  intros H. destruct (logQ_spec q H) as (L & _ & _ & E). rewrite <- qmat_expQ by auto. destruct E as [-> | ->]; auto. apply qmat_neg.
Qed.
Lemma upper_abs A : upper A = rnorm [a12 A; a02 A; a01 A].
Proof. unfold upper, rnorm. f_equal. simpl. ring. Qed.

(** The two logarithms of corresponding points agree within 2e-15 when the rotation angle is at most pi/2
    (trace >= 1), or when the matrix logarithm does not take its small branch and w <> 0; they are equal when
    neither takes its small branch.
    Missing: angles close to pi about coordinate axes and exact half turns, where it is false (next). *)
Theorem C20_logs_agree_partial : forall h h' typ tru typ' tru' (q : quat R) (out out' : list XR),
  let sQ := Leaf h (LSO3 MapQuat) typ tru in
  let sM := Leaf h' (LSO3 MapMatrix) typ' tru' in
  let u := rnorm [a12 (qmat q); a02 (qmat q); a01 (qmat q)] in
  built sQ -> built sM -> qn2 q = 1 -> length out = 3%nat -> length out' = 3%nat ->
  1 <= tr3 (qmat q) \/ qw q <> 0 /\ 1 / 100000000 <= u ->
  exists l l', pseudoLog0 sQ out (fin (qflat q)) = Ok (fin l) /\
    pseudoLog0 sM out' (fin (flat9 (qmat q))) = Ok (fin l') /\
    near_v (2 / 10 ^ 15) l l' /\
    (1 / 100000000 <= rnorm [qx q; qy q; qz q] -> 1 / 100000000 <= u -> l = l').
Proof.
  intros h h' typ tru typ' tru' q out out' sQ sM u BQ BM Hq Lo Lo' H. apply built_leaf_wf in BQ, BM.
  unfold u in *. rewrite <- upper_abs in *. clear u. fold (qv q) in *.
  destruct (eq_log_total out q Lo Hq) as (l & El & Nl & _ & Xl). destruct (logQ_spec q Hq) as (L1 & L2 & L3 & _).
  pose proof (logQ_mat q Hq) as Em. unfold sQ, sM. rewrite eq_log0, em_log0 by auto.
  assert (Tr := expSO3_trace (logQ q) _ L1 eq_refl). rewrite Em in Tr. fold (tr3 (qmat q)) in Tr.
  assert (N1 : rnorm (logQ q) < PI).
  { destruct H as [H|[H _]]; auto. destruct (Req_dec (rnorm (logQ q)) PI) as [E|]; [|lra].
    rewrite E, cos_PI in Tr. unfold tr3 in *. lra. }
  destruct (Rle_dec eps8 (upper (qmat q))) as [U|U].
  - exists l, (logQ q). split; auto. split; [|split].
    + rewrite <- Em at 1. apply em_log_exp; auto; [|rewrite Em; auto]. split; auto.
      pose proof (rnorm_nonneg (logQ q)). destruct (Req_dec (rnorm (logQ q)) 0) as [Z|]; [|lra]. exfalso.
      rewrite <- Em in U. unfold expSO3 in U. destruct (vec3_inv _ L1) as (x & y & z & E). rewrite E in *. cbv zeta in U.
      destruct (Req_EM_T _ 0) as [_|]; [|contradiction]. rewrite upper_id in U. lra.
    + eapply near_v_mono; [|exact Nl]. lra.
    + auto.
  - apply Rnot_le_lt in U. assert (T : 1 <= tr3 (qmat q)) by (destruct H as [H|[_ H]]; [auto|lra]).
    destruct (em_log_small_rot (qmat q) (qmat_rot q Hq) U T) as (v & Lv & Nv & Ev & Cv).
    pose proof PI2_1. assert (v = logQ q) by (apply exp_inj; auto; [lra|congruence]). subst v.
    exists l, [- a12 (qmat q); a02 (qmat q); - a01 (qmat q)]. split; auto. split; [apply em_logarithm_small; auto|]. split; [|lra].
    apply near_v_sym in Cv. eapply near_v_mono; [|apply (near_v_trans _ _ _ _ _ Nl Cv)]. lra.
Qed.
Print Assumptions C20_logs_agree_partial.

(** Rotation by 4 atan2(4,3)/2 about a tilted axis: both logarithms take their main branch. *)
Example C20_logs_example : let q := Q4 (3/5) (16/25) 0 (12/25) in qn2 q = 1 /\ qw q <> 0 /\
  1 / 100000000 <= rnorm [a12 (qmat q); a02 (qmat q); a01 (qmat q)] /\ 1 / 100000000 <= rnorm [qx q; qy q; qz q].
Proof.
  cbv zeta. split; [unfold qn2; cbn; field|]. split; [cbn; lra|].
  assert (G : forall v, 1 / 10000000000 <= rdot v v -> 1 / 100000000 <= rnorm v).
  { intros v Hv. rewrite <- (sqrt_square (1 / 100000000)) by lra. apply sqrt_le_1_alt. lra. }
  split; apply G; unfold qmat; cbn [a00 a01 a02 a10 a11 a12 a20 a21 a22 qw qx qy qz rdot]; lra.
Qed.

(** Finding: the half turn about the first axis.  The quaternion logarithm is (pi, 0, 0), the matrix
    logarithm of the same rotation is (0, 0, 0). *)
Theorem C20_half_turn_refuted : exists (sQ sM : mfd XR) (q : quat R), built sQ /\ built sM /\ onM sQ (qflat q) /\
  onM sM (flat9 (qmat q)) /\
  (forall out, length out = 3%nat -> pseudoLog0 sQ out (fin (qflat q)) = Ok (fin [PI; 0; 0])) /\
  (forall out, length out = 3%nat -> pseudoLog0 sM out (fin (flat9 (qmat q))) = Ok (fin [0; 0; 0])).
Proof.
  exists rQ, rM, (Q4 0 1 0 0). assert (U : qn2 (Q4 0 1 0 0) = 1) by (unfold qn2; cbn; ring).
  split; [apply rQ_built|]. split; [apply rM_built|].
  split. { exists [qflat (Q4 0 1 0 0)]. split; [reflexivity|]. apply Forall2_cons; [|apply Forall2_nil]. eexists. split; [reflexivity|auto]. }
  split. { exists [flat9 (qmat (Q4 0 1 0 0))]. split; [reflexivity|]. apply Forall2_cons; [|apply Forall2_nil]. eexists. split; [reflexivity|apply qmat_rot; auto]. }
  assert (N : rnorm (qv (Q4 0 1 0 0)) = 1) by (unfold qv; cbn [qx qy qz]; apply rnorm100; lra).
  split; intros out Lo.
  - destruct rQ_leaf as (h & a & b & -> & W). rewrite eq_log0 by auto. rewrite eq_logarithm_main; auto; rewrite ?N; [|lra].
    cbn [qw]. do 2 f_equal. unfold qv, rscal. cbn [map qx qy qz].
    replace (Ratan2 (2 * 1 * 0) (0 * 0 - 1 * 1)) with PI.
    + apply list3_eq; field.
    + pose proof PI_RGT_0. rewrite <- (atan2_trig PI) at 1 by lra. rewrite sin_PI, cos_PI. f_equal; ring.
  - destruct rM_leaf as (h & a & b & -> & W). rewrite em_log0 by auto.
    assert (Z : [- a12 (qmat (Q4 0 1 0 0)); a02 (qmat (Q4 0 1 0 0)); - a01 (qmat (Q4 0 1 0 0))] = [0; 0; 0])
      by (cbn [qmat a12 a02 a01 qw qx qy qz]; apply list3_eq; ring).
    rewrite em_logarithm_small; auto; [rewrite Z; auto|]. unfold upper. rewrite Z, rnorm100; lra.
Qed.
Print Assumptions C20_half_turn_refuted.

(** ** C21 *)
(** Every unit quaternion has a logarithm l of norm at most pi; it equals (small branch: is within 3e-24 of)
    a vector w of norm at most pi whose exponential is q or -q.
    For w <> 0 the logarithms of q and -q are the same; for w = 0 they are opposite vectors of length pi.
    Missing: equality for w = 0 and exactness in the small branch, both false (next theorems). *)
Theorem C21_quat_log_partial : forall h typ tru (q : quat R) (out : list XR),
  let s := Leaf h (LSO3 MapQuat) typ tru in
  built s -> qn2 q = 1 -> length out = 3%nat ->
  exists l w, pseudoLog0 s out (fin (qflat q)) = Ok (fin l) /\
    length w = 3%nat /\ rnorm l <= PI /\ rnorm w <= PI /\
    (expQ w = q \/ expQ w = qneg q) /\
    near_v (3 / 10 ^ 24) l w /\
    (rnorm [qx q; qy q; qz q] = 0 \/ 1 / 100000000 <= rnorm [qx q; qy q; qz q] -> l = w) /\
    (qw q <> 0 -> pseudoLog0 s out (fin (qflat (qneg q))) = Ok (fin l)) /\
    (qw q = 0 -> pseudoLog0 s out (fin (qflat (qneg q))) = Ok (fin (map Ropp l)) /\ rnorm l = PI).
Proof.
  intros h typ tru q out s B Hq Lo. apply built_leaf_wf in B.
  destruct (eq_log_total out q Lo Hq) as (l & El & Nl & Bl & Xl). destruct (logQ_spec q Hq) as (L1 & L2 & L3 & L4).
  exists l, (logQ q). unfold s. rewrite !eq_log0 by auto. repeat (split; auto).
  - intros W. rewrite eq_log_neg; auto.
  - pose proof (qunit_n q Hq) as U. pose proof (rnorm_nonneg (qv q)).
    assert (N1 : rnorm (qv q) = 1) by (rewrite H in U; nra).
    assert (N2 : rnorm (qv (qneg q)) = 1) by (rewrite <- N1; unfold rnorm; f_equal; simpl; ring).
    assert (W2 : qw (qneg q) = 0) by (cbn; lra).
    rewrite eq_logarithm_main in El |- *; auto; try lra. rewrite N1, N2, H, W2 in *. do 2 f_equal.
    assert (El' : l = rscal (Ratan2 (2 * 1 * 0) (0 * 0 - 1 * 1) / 1) (qv q)) by (apply fin_inj; congruence).
    rewrite El'. unfold rscal, qv. cbn [map qneg qx qy qz]. apply list3_eq; ring.
  - pose proof (qunit_n q Hq) as U. pose proof (rnorm_nonneg (qv q)).
    assert (N1 : rnorm (qv q) = 1) by (rewrite H in U; nra). 
    rewrite eq_logarithm_main in El; auto; try lra. rewrite N1, H in *.
    assert (El' : l = rscal (Ratan2 (2 * 1 * 0) (0 * 0 - 1 * 1) / 1) (qv q)) by (apply fin_inj; congruence).
    replace (Ratan2 (2 * 1 * 0) (0 * 0 - 1 * 1)) with PI in El'.
    + rewrite El', rnorm_scal, N1. pose proof PI_RGT_0. rewrite Rabs_pos_eq; lra.
    + pose proof PI_RGT_0. rewrite <- (atan2_trig PI) at 1 by lra. rewrite sin_PI, cos_PI. f_equal; ring.
Qed.
Print Assumptions C21_quat_log_partial.

Example C21_example : built rQ /\ qn2 (Q4 (-3/5) 0 (4/5) 0) = 1 /\ qn2 (Q4 0 (3/5) (4/5) 0) = 1.
Proof. repeat split; auto using rQ_built; unfold qn2; cbn; field. Qed.

(** Finding: at w = 0 the logarithms of q and -q differ. *)
Theorem C21_sign_refuted : exists (s : mfd XR) (q : quat R) (l l' : list R), built s /\ qn2 q = 1 /\
  (forall out, length out = 3%nat -> pseudoLog0 s out (fin (qflat q)) = Ok (fin l)) /\
  (forall out, length out = 3%nat -> pseudoLog0 s out (fin (qflat (qneg q))) = Ok (fin l')) /\ l <> l'.
Proof.
  destruct rQ_leaf as (h & a & b & E & W). pose proof rQ_built as B. rewrite E in B.
  set (q := Q4 0 1 0 0). assert (U : qn2 q = 1) by (unfold qn2; cbn; ring).
  assert (Lx : forall o, length o = 3%nat -> eq_logarithm o (qfin q) = eq_logarithm [Fin 0; Fin 0; Fin 0] (qfin q)).
  { intros o Lo. apply eq_logarithm_indep. auto. }
  assert (Lx' : forall o, length o = 3%nat -> eq_logarithm o (qfin (qneg q)) = eq_logarithm [Fin 0; Fin 0; Fin 0] (qfin (qneg q))).
  { intros o Lo. apply eq_logarithm_indep. auto. }
  destruct (C21_quat_log_partial h a b q [Fin 0; Fin 0; Fin 0] B U eq_refl) as (l & w & El & _ & _ & _ & _ & _ & _ & _ & F).
  destruct (F eq_refl) as [En Nl]. rewrite eq_log0 in El, En by auto.
  exists (Leaf h (LSO3 MapQuat) a b), q, l, (map Ropp l). split; auto. split; auto.
  split; [|split].
  - intros o Lo. rewrite eq_log0, Lx by auto. auto.
  - intros o Lo. rewrite eq_log0, Lx' by auto. auto.
  - intros Ex. assert (Z : rdot l l = 0).
    { clear - Ex. induction l as [|c l IH]; auto. cbn in Ex. injection Ex as E1 E2. cbn. rewrite <- IH by auto. nra. }
    unfold rnorm in Nl. rewrite Z, sqrt_0 in Nl. pose proof PI_RGT_0. lra.
Qed.
Print Assumptions C21_sign_refuted.

(** Finding: in its small branch (vector part shorter than 1e-8) the logarithm is not exact. *)
Theorem C21_small_branch_refuted : exists (s : mfd XR) (q : quat R) (l : list R), built s /\ qn2 q = 1 /\
  (forall out, length out = 3%nat -> pseudoLog0 s out (fin (qflat q)) = Ok (fin l)) /\
  expQ l <> q /\ expQ l <> qneg q.
Proof.
  pose proof PI_gt2 as P2. set (u := 1 / 10 ^ 9). set (f := atan u).
  assert (Hu : 0 < u < 1 / 10 ^ 8) by (unfold u; lra).
  assert (F1 : f < u) by (apply atan_lt; lra). assert (F0 : 0 < f) by (unfold f; rewrite <- atan_0; apply atan_increasing; lra).
  assert (C0 : 0 < cos f) by (apply cos_gt_0; lra).
  assert (S0 : 0 < sin f) by (apply sin_gt_0; lra). assert (S1 : sin f < f) by (apply sin_lt_x; auto).
  pose proof (sin2_cos2 f) as SC. unfold Rsqr in SC.
  assert (T : sin f / cos f = u) by (unfold f; rewrite <- (tan_atan u) at 3; reflexivity).
  set (q := Q4 (cos f) (sin f) 0 0).
  exists rQ, q, [2 * u; 0; 0]. split; [apply rQ_built|]. split; [unfold qn2; cbn; lra|].
  assert (N : rnorm [2 * u; 0; 0] = 2 * u) by (apply rnorm100; lra).
  assert (W : qw (expQ [2 * u; 0; 0]) = cos u).
  { unfold expQ. cbv zeta. rewrite N. destruct (Req_EM_T (2 * u) 0); [lra|]. cbn [qw]. f_equal. field. }
  assert (Cu : cos u < cos f) by (apply cos_decreasing_1; lra).
  assert (Cp : 0 < cos u) by (apply cos_gt_0; lra).
  split; [|split].
  - intros o Lo. destruct rQ_leaf as (h & a & b & -> & Wf). rewrite eq_log0 by auto.
    rewrite eq_logarithm_small; auto.
    + do 2 f_equal. unfold rscal, qv. cbn [map q qw qx qy qz]. apply list3_eq; try ring. rewrite <- T. field. lra.
    + unfold qv. cbn [q qx qy qz]. rewrite rnorm100; lra.
    + cbn. lra.
  - intros E. rewrite E in W. cbn in W. lra.
  - intros E. rewrite E in W. cbn in W. lra.
Qed.
Print Assumptions C21_small_branch_refuted.

(** ** C22 *)
(** What pseudoLog0 of the matrix map returns, for every rotation.  [u] is the length of the vector of
    entries above the diagonal, the quantity tested by the code. *)
Theorem C22_matrix_log_partial : forall h typ tru (A : m3 R) (out : list XR),
  let s := Leaf h (LSO3 MapMatrix) typ tru in
  let u := rnorm [a12 A; a02 A; a01 A] in
  built s -> rot A -> length out = 3%nat ->
  (* main branch, not a half turn: the exact logarithm *)
  (1 / 100000000 <= u -> tr3 A <> -1 ->
     exists v, pseudoLog0 s out (fin (flat9 A)) = Ok (fin v) /\ length v = 3%nat /\ rnorm v < PI /\ expSO3 v = A) /\
  (* main branch, half turn: three undefined numbers *)
  (1 / 100000000 <= u -> tr3 A = -1 -> pseudoLog0 s out (fin (flat9 A)) = Ok [Undef; Undef; Undef]) /\
  (* small branch, angle at most pi/2: within 1e-15 of the exact logarithm *)
  (u < 1 / 100000000 -> 1 <= tr3 A ->
     exists l v, pseudoLog0 s out (fin (flat9 A)) = Ok (fin l) /\ length v = 3%nat /\ rnorm v < PI /\ expSO3 v = A /\
       near_v (1 / 10 ^ 15) l v) /\
  (* small branch, angle above pi/2: a vector shorter than 1e-8 that is not a logarithm *)
  (u < 1 / 100000000 -> tr3 A < 1 ->
     exists l, pseudoLog0 s out (fin (flat9 A)) = Ok (fin l) /\ length l = 3%nat /\ rnorm l < 1 / 100000000 /\ expSO3 l <> A).
Proof.
  intros h typ tru A out s u B HA Lo. apply built_leaf_wf in B. unfold u in *. rewrite <- upper_abs in *. clear u.
  unfold s. rewrite em_log0 by auto. pose proof PI2_1. repeat split.
  - intros U T. destruct (em_log_main_rot out A Lo HA U T) as (v & E & Lv & Nv & Ev). exists v. tauto.
  - intros U T. apply em_log_half_turn; auto.
  - intros U T. destruct (em_log_small_rot A HA U T) as (v & Lv & Nv & Ev & C). do 2 eexists.
    split; [apply em_logarithm_small; auto|]. split; [exact Lv|]. split; [lra|]. split; auto.
  - intros U T. eexists. split; [apply em_logarithm_small; auto|]. split; auto. split; [exact U|].
    intros E. unfold upper in U. pose proof (expSO3_small_trace [- a12 A; a02 A; - a01 A] eq_refl ltac:(lra)). rewrite E in *. lra.
Qed.
Print Assumptions C22_matrix_log_partial.

(** Finiteness for every matrix, rotation or not. *)
Theorem C22_finite_iff : forall h typ tru (A : m3 R) (out : list XR),
  let s := Leaf h (LSO3 MapMatrix) typ tru in
  built s -> length out = 3%nat ->
  ((exists l, pseudoLog0 s out (fin (flat9 A)) = Ok (fin l)) <->
   (rnorm [a12 A; a02 A; a01 A] < 1 / 100000000 \/ -1 < tr3 A < 3)).
Proof.
  intros h typ tru A out s B Lo. apply built_leaf_wf in B. rewrite <- upper_abs. unfold s. rewrite em_log0 by auto. split.
  - intros [l E]. destruct (Rlt_dec (upper A) eps8) as [|U]; auto. right. apply Rnot_lt_le in U.
    assert (X : forall y, em_logarithm out (m3fin A) = Ok [Undef; Undef; y] -> False).
    { intros y Ey. rewrite Ey in E. destruct l; discriminate. }
    destruct (Rle_dec (tr3 A) (-1)) as [T|T].
    + exfalso. destruct (Req_dec (tr3 A) (-1)) as [T1|T1]; [eapply X; apply em_log_half_turn; auto|].
      eapply X. apply em_log_nan_low; auto. lra.
    + destruct (Rle_dec 3 (tr3 A)) as [T'|T']; [|lra]. exfalso.
      destruct (Req_dec (tr3 A) 3) as [T1|T1]; [eapply X; apply em_log_nan_3; auto|]. eapply X. apply em_log_nan; auto. lra.
  - intros [U|T]; [eexists; apply em_logarithm_small; auto|].
    destruct (Rlt_dec (upper A) eps8) as [U|U]; [eexists; apply em_logarithm_small; auto|]. apply Rnot_lt_le in U.
    eexists. apply (em_logarithm_main out A (acos ((tr3 A - 1) / 2))); auto.
    + rewrite cos_acos; [unfold tr3; field|lra].
    + apply acos_bound_lt. lra.
Qed.
Print Assumptions C22_finite_iff.

Example C22_example : built rM /\ rot exq /\ 1 / 100000000 <= rnorm [a12 exq; a02 exq; a01 exq] /\ tr3 exq <> -1.
Proof.
  split; [apply rM_built|]. split; [apply exq_rot|]. unfold tr3, exq. cbn [a00 a11 a22 a12 a02 a01]. split; [|lra].
  rewrite <- (sqrt_square (1 / 100000000)) by lra. apply sqrt_le_1_alt. simpl. lra.
Qed.

(** Finding: the exact half turn about (3/5, 4/5, 0) is accepted by isInM and has an undefined logarithm
    (0/0 from sin(acos(-1))). *)
Theorem C22_half_turn_refuted : exists (s : mfd XR) (A : m3 R), built s /\ onM s (flat9 A) /\
  (forall prec, isInM s (fin (flat9 A)) prec = Ok true) /\
  forall out, length out = 3%nat -> pseudoLog0 s out (fin (flat9 A)) = Ok [Undef; Undef; Undef].
Proof.
  set (A := qmat (Q4 0 (3/5) (4/5) 0)). assert (HA : rot A) by (apply qmat_rot; unfold qn2; cbn; field).
  exists rM, A. split; [apply rM_built|]. split; [|split].
  - exists [flat9 A]. split; [reflexivity|]. apply Forall2_cons; [|apply Forall2_nil]. eexists. split; [reflexivity|auto].
  - intros prec. change (isInM rM (fin (flat9 A)) prec) with (em_isInM (fin (flat9 A)) prec). apply em_isInM_near. pose proof (rot_near _ HA) as N. unfold near_rot in *. repeat split; eapply Rle_trans; try apply N; lra.
  - intros out Lo. destruct rM_leaf as (h & a & b & -> & W). rewrite em_log0 by auto. apply em_log_half_turn; auto.
    + unfold upper. rewrite <- (sqrt_square eps8) by lra. apply sqrt_le_1_alt. cbn [rdot A qmat a12 a02 a01 qw qx qy qz]. lra.
    + unfold tr3, A. cbn [qmat a00 a11 a22 qw qx qy qz]. field.
Qed.
Print Assumptions C22_half_turn_refuted.

(** Finding: a matrix accepted by isInM, within 2e-8 of the identity, with an undefined logarithm: its trace
    exceeds 3 by 4e-10, outside the domain of acos. *)
Theorem C22_near_identity_refuted : exists (s : mfd XR) (A : m3 R), built s /\
  (forall prec, isInM s (fin (flat9 A)) prec = Ok true) /\
  near_v (2 / 100000000) (flat9 A) (flat9 ridm) /\
  forall out, length out = 3%nat -> pseudoLog0 s out (fin (flat9 A)) = Ok [Undef; Undef; Undef].
Proof.
  set (d := 4 / 10 ^ 10). set (e := 2 / 100000000). set (A := M3 (1 + d) (- e) 0 e 1 0 0 0 1).
  exists rM, A. split; [apply rM_built|]. split; [|split].
  - intros prec. change (isInM rM (fin (flat9 A)) prec) with (em_isInM (fin (flat9 A)) prec). apply em_isInM_near.
    unfold near_rot, A, rdet. cbn [rmul rtr a00 a01 a02 a10 a11 a12 a20 a21 a22].
    unfold d, e. repeat split; apply Rabs_le; lra.
  - unfold near_v, flat9, A, ridm. cbn [a00 a01 a02 a10 a11 a12 a20 a21 a22].
    repeat (apply Forall2_cons || apply Forall2_nil); unfold d, e; apply Rabs_le; lra.
  - intros out Lo. destruct rM_leaf as (h & a & b & -> & W). rewrite em_log0 by auto. apply em_log_nan; auto.
    + unfold upper. rewrite <- (sqrt_square eps8) by lra. apply sqrt_le_1_alt. cbn [rdot A a12 a02 a01]. unfold e. lra.
    + unfold tr3, A. cbn [a00 a11 a22]. unfold d. lra.
Qed.
Print Assumptions C22_near_identity_refuted.
