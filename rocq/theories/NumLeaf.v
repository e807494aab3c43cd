(** Leaf operations on finite values, through the public API. *)
From Coq Require Import Reals List Lra Lia ZArith Bool Arith Psatz.
From Verif Require Import Base Scalar Vec Model_Real Model_S2 Model_SO3 Model_Manifold Spec Layout Comp Flat
  XR SpecR RotR NumVec NumMat Angle NumQuat.
Import ListNotations.
Local Open Scope R_scope.

Ltac chk := repeat (rewrite check_eq by (rewrite ?fin_length; cbn; lia); cbn [bind]).

(** ** retractation *)
Lemma real_retr h a b out x v : leaf_wf h LReal a b -> length out = h_dim h -> length x = h_dim h -> length v = h_dim h ->
  retractation (Leaf h LReal a b) out (fin x) (fin v) = Ok (fin (radd x v)).
Proof.
  intros (H1 & H2) Ho Hx Hv. cbn [retractation isInTxM]. unfold representationDim, tangentDim; cbn [hdr_of].
  rewrite !check_eq by (rewrite ?fin_length; lia). cbn [bind mnf_assert].
  unfold real_retractation, same_size, eigen_assert. rewrite !fin_length, Hx, Hv, Nat.eqb_refl. cbn [bind].
  rewrite vadd_fin. apply assign_same. rewrite fin_length, radd_length; lia.
Qed.
Lemma em_retr h a b out A E x y z : leaf_wf h (LSO3 MapMatrix) a b -> length out = 9%nat ->
  em_exponential (fin [x; y; z]) = Ok (m3fin E) ->
  retractation (Leaf h (LSO3 MapMatrix) a b) out (fin (flat9 A)) (fin [x; y; z]) = Ok (fin (flat9 (rmul A E))).
Proof.
  intros (H1 & H2 & H3 & _) Ho H. cbn [retractation isInTxM]. unfold representationDim, tangentDim; cbn [hdr_of].
  rewrite !check_eq by (rewrite ?fin_length; cbn; lia). cbn [bind mnf_assert]. apply em_retractation_fin; auto.
Qed.
Lemma eq_retr h a b out p q v : leaf_wf h (LSO3 MapQuat) a b -> length out = 4%nat -> length v = 3%nat ->
  eq_exponential junk_quat (fin v) = Ok (qfin q) ->
  retractation (Leaf h (LSO3 MapQuat) a b) out (fin (qflat p)) (fin v) = Ok (fin (qflat (qprod p q))).
Proof.
  intros (H1 & H2 & H3 & _) Ho Hv H. cbn [retractation isInTxM]. unfold representationDim, tangentDim; cbn [hdr_of].
  rewrite !check_eq by (rewrite ?fin_length; cbn; lia). cbn [bind mnf_assert]. apply eq_retractation_fin; auto.
Qed.

(** ** pseudoLog, pseudoLog0 *)
Lemma real_log h a b out x y : leaf_wf h LReal a b -> length out = h_dim h -> length x = h_dim h -> length y = h_dim h ->
  pseudoLog (Leaf h LReal a b) out (fin x) (fin y) = Ok (fin (rsub y x)).
Proof.
  intros (H1 & H2) Ho Hx Hv. cbn [pseudoLog]. unfold representationDim, tangentDim; cbn [hdr_of].
  rewrite !check_eq by (rewrite ?fin_length; lia). cbn [bind].
  unfold real_pseudoLog, same_size, eigen_assert. rewrite !fin_length, Hx, Hv, Nat.eqb_refl. cbn [bind].
  rewrite vsub_fin. apply assign_same. rewrite fin_length, rsub_length; lia.
Qed.
Lemma em_log h a b out A B : leaf_wf h (LSO3 MapMatrix) a b -> length out = 3%nat ->
  pseudoLog (Leaf h (LSO3 MapMatrix) a b) out (fin (flat9 A)) (fin (flat9 B)) = em_logarithm out (m3fin (rmul (rtr A) B)).
Proof.
  intros (H1 & H2 & H3 & _) Ho. cbn [pseudoLog]. unfold representationDim, tangentDim; cbn [hdr_of].
  rewrite !check_eq by (rewrite ?fin_length; cbn; lia). cbn [bind].
  unfold em_pseudoLog. rewrite !m3_read_fin. cbn [bind]. rewrite m3_trans_fin, m3_mul_fin. reflexivity.
Qed.
Lemma eq_log h a b out p q : leaf_wf h (LSO3 MapQuat) a b -> length out = 3%nat -> qn2 p = 1 ->
  pseudoLog (Leaf h (LSO3 MapQuat) a b) out (fin (qflat p)) (fin (qflat q)) = eq_logarithm out (qfin (qprod (qconj p) q)).
Proof.
  intros (H1 & H2 & H3 & _) Ho Hp. cbn [pseudoLog]. unfold representationDim, tangentDim; cbn [hdr_of].
  rewrite !check_eq by (rewrite ?fin_length; cbn; lia). cbn [bind].
  unfold eq_pseudoLog. rewrite !quat_read_fin. cbn [bind]. rewrite qinverse_fin, qmul_fin; auto.
Qed.
Lemma real_log0 h a b out x : leaf_wf h LReal a b -> length out = h_dim h -> length x = h_dim h ->
  pseudoLog0 (Leaf h LReal a b) out (fin x) = Ok (fin x).
Proof.
  intros (H1 & H2) Ho Hx. cbn [pseudoLog0]. unfold representationDim, tangentDim; cbn [hdr_of].
  rewrite !check_eq by (rewrite ?fin_length; lia). cbn [bind]. apply assign_same. rewrite fin_length. lia.
Qed.
Lemma em_log0 h a b out A : leaf_wf h (LSO3 MapMatrix) a b -> length out = 3%nat ->
  pseudoLog0 (Leaf h (LSO3 MapMatrix) a b) out (fin (flat9 A)) = em_logarithm out (m3fin A).
Proof.
  intros (H1 & H2 & H3 & _) Ho. cbn [pseudoLog0]. unfold representationDim, tangentDim; cbn [hdr_of].
  rewrite !check_eq by (rewrite ?fin_length; cbn; lia). cbn [bind].
  unfold em_pseudoLog0. rewrite !m3_read_fin. reflexivity.
Qed.
Lemma eq_log0 h a b out q : leaf_wf h (LSO3 MapQuat) a b -> length out = 3%nat ->
  pseudoLog0 (Leaf h (LSO3 MapQuat) a b) out (fin (qflat q)) = eq_logarithm out (qfin q).
Proof.
  intros (H1 & H2 & H3 & _) Ho. cbn [pseudoLog0]. unfold representationDim, tangentDim; cbn [hdr_of].
  rewrite !check_eq by (rewrite ?fin_length; cbn; lia). cbn [bind].
  unfold eq_pseudoLog0. rewrite !quat_read_fin. reflexivity.
Qed.

(** ** setZero *)
Definition zero_leaf (m : mfd XR) : list R :=
  match m with
  | Leaf h LReal _ _ => repeat 0 (h_dim h)
  | Leaf _ LS2 _ _ => [1; 0; 0]
  | Leaf _ (LSO3 MapMatrix) _ _ => flat9 ridm
  | Leaf _ (LSO3 MapQuat) _ _ => [1; 0; 0; 0]
  | Prod _ _ _ _ => []
  end.
Lemma leaf_zero h l a b out : leaf_wf h l a b -> length out = h_rdim h ->
  setZero (Leaf h l a b) out = Ok (fin (zero_leaf (Leaf h l a b))).
Proof.
  intros H Ho. cbn [setZero]. unfold representationDim, tangentDim; cbn [hdr_of]. rewrite check_eq by auto. cbn [bind].
  destruct l as [| |[|]]; cbn [leaf_wf] in H.
  - destruct H as [H1 H2]. unfold real_setZero. rewrite Ho, H2. cbn [k0 XRS]. rewrite vconst_fin. reflexivity.
  - unfold s2_setZero, eigen_assert. replace (length out =? 3)%nat with true by (symmetry; apply Nat.eqb_eq; lia). reflexivity.
  - unfold em_setZero. apply raw_write_same. cbn. lia.
  - unfold eq_setZero. destruct (quat_read_len out) as [q ->]; [lia|]. cbn [bind]. unfold quat_write.
    apply raw_write_same. cbn. lia.
Qed.
Lemma leaf_zero_on h l a b : on_leaf (Leaf h l a b) (zero_leaf (Leaf h l a b)).
Proof.
  destruct l as [| |[|]]; cbn [on_leaf zero_leaf].
  - apply repeat_length.
  - split; auto. simpl. ring.
  - exists ridm. split; auto using rot_id.
  - exists (Q4 1 0 0 0). split; auto. unfold qn2. cbn. ring.
Qed.

(** ** The switches *)
Lemma sin_ge_half x : 0 <= x <= 1 -> x / 2 <= sin x.
Proof.
  intros H. assert (P : 1 < PI) by (pose proof PI2_1; lra).
  destruct (sin_bound x 0) as [L _]; try lra. unfold sin_approx, sin_term in L. simpl in L. nra.
Qed.
Lemma sin_between e t : 0 <= e <= PI / 2 -> e <= t <= PI - e -> sin e <= sin t.
Proof.
  intros He Ht. destruct (Rle_dec t (PI / 2)).
  - apply sin_incr_1; lra.
  - rewrite <- (sin_PI_x t). apply sin_incr_1; lra.
Qed.
Lemma off_sin_mat t : 1 / 10000 <= t <= PI - 1 / 10000000 -> 2 * eps8 <= sin t.
Proof.
  intros H. assert (P : 1 < PI / 2) by (pose proof PI2_1; lra).
  apply Rle_trans with (sin (1 / 10000000)).
  - pose proof (sin_ge_half (1 / 10000000)). lra.
  - apply sin_between; lra.
Qed.
Lemma off_sin_half t : 1 / 10000 <= t < PI -> eps8 <= sin (t / 2).
Proof.
  intros H. assert (P : 1 < PI / 2) by (pose proof PI2_1; lra).
  apply Rle_trans with (sin (1 / 20000)).
  - pose proof (sin_ge_half (1 / 20000)). lra.
  - apply sin_between; lra.
Qed.
Lemma norm_sq_ge v e : 0 <= e -> e <= rnorm v -> e * e <= rdot v v.
Proof. intros He H. rewrite <- rnorm_sq. nra. Qed.
Lemma expSO3_0 : expSO3 [0; 0; 0] = ridm.
Proof.
  unfold expSO3. cbv zeta. destruct (Req_EM_T _ 0) as [|N]; auto. exfalso. apply N. unfold rnorm.
  replace (rdot _ _) with 0 by (simpl; ring). apply sqrt_0.
Qed.
Lemma expQ_0 : expQ [0; 0; 0] = Q4 1 0 0 0.
Proof.
  unfold expQ. cbv zeta. destruct (Req_EM_T _ 0) as [|N]; auto. exfalso. apply N. unfold rnorm.
  replace (rdot _ _) with 0 by (simpl; ring). apply sqrt_0.
Qed.

Lemma off_em v : length v = 3%nat -> v = [0; 0; 0] \/ 1 / 10000 <= rnorm v <= PI - 1 / 10000000 ->
  em_exponential (fin v) = Ok (m3fin (expSO3 v)) /\
  forall out, length out = 3%nat -> em_logarithm out (m3fin (expSO3 v)) = Ok (fin v).
Proof.
  intros Hl [->|H].
  - rewrite expSO3_0. split; [apply em_exp_zero|]. intros out Ho. rewrite em_logarithm_small; auto.
    + cbn [ridm a12 a02 a01]. rewrite Ropp_0. reflexivity.
    + unfold upper, rnorm. cbn [ridm a12 a02 a01]. replace (rdot _ _) with 0 by (simpl; ring). rewrite sqrt_0. lra.
  - split.
    + apply em_exp_main; auto; try lra. apply Rle_trans with (1 / 10000 * (1 / 10000)); [lra|]. apply norm_sq_ge; lra.
    + intros out Ho. apply em_log_exp; auto; [lra|]. apply upper_ok; auto; [|lra]. apply off_sin_mat. auto.
Qed.
Lemma off_eq v : length v = 3%nat -> v = [0; 0; 0] \/ 1 / 10000 <= rnorm v < PI ->
  eq_exponential junk_quat (fin v) = Ok (qfin (expQ v)) /\
  forall out, length out = 3%nat -> eq_logarithm out (qfin (expQ v)) = Ok (fin v).
Proof.
  intros Hl [->|H].
  - rewrite expQ_0. split; [apply eq_exp_zero|]. intros out Ho. rewrite eq_logarithm_small; auto.
    + unfold rscal, qv. cbn [map qx qy qz qw]. rewrite Rmult_0_r. reflexivity.
    + unfold qv, rnorm. cbn [qx qy qz]. replace (rdot _ _) with 0 by (simpl; ring). rewrite sqrt_0. lra.
    + cbn. lra.
  - split.
    + apply eq_exp_main; auto; try lra. apply Rle_trans with (1 / 10000 * (1 / 10000)); [lra|]. apply norm_sq_ge; lra.
    + intros out Ho. apply eq_log_exp; auto; [lra|]. apply off_sin_half. auto.
Qed.

(** ** Round trips on leaves *)
Lemma leaf_round h l a b x v : let s := Leaf h l a b in leaf_wf h l a b -> is_s2 s = false ->
  on_leaf s x -> length v = tangentDim s -> off_switch s v ->
  exists y, shift_leaf s x v y /\ on_leaf s y /\
    (forall o, length o = representationDim s -> retractation s o (fin x) (fin v) = Ok (fin y)) /\
    (forall o, length o = tangentDim s -> pseudoLog s o (fin x) (fin y) = Ok (fin v)).
Proof.
  intros s W N Hx Hv Ho. unfold s in *. unfold tangentDim, representationDim in *; cbn [hdr_of] in *.
  destruct l as [| |[|]]; cbn [on_leaf shift_leaf off_switch is_s2] in *.
  - pose proof W as [W1 W2]. exists (radd x v). split; auto. split; [rewrite radd_length; lia|]. split; intros o Hl.
    + apply real_retr; auto; lia.
    + rewrite real_log; auto; try lia. * rewrite radd_rsub; auto; lia. * rewrite radd_length; lia.
  - discriminate.
  - pose proof W as (W1 & W2 & W3 & _). destruct Hx as (A & -> & HA). rewrite W2 in Hv.
    destruct (off_em v Hv Ho) as [E L].
    exists (flat9 (rmul A (expSO3 v))). split; [eauto|]. split; [eauto using rot_mul, expSO3_rot|].
    destruct (vec3_inv v Hv) as (p & q & r & ->). split; intros o Hl.
    + apply em_retr; auto. lia.
    + rewrite em_log by (auto; lia). rewrite <- rmul_assoc. destruct HA as [HA _]. rewrite HA, rmul_id_l. apply L. lia.
  - pose proof W as (W1 & W2 & W3 & _). destruct Hx as (A & -> & HA). rewrite W2 in Hv.
    destruct (off_eq v Hv Ho) as [E L].
    exists (qflat (qprod A (expQ v))). split; [eauto|].
    split. { exists (qprod A (expQ v)). split; auto. rewrite qn2_mul, HA, expQ_unit. ring. }
    split; intros o Hl.
    + apply eq_retr; auto. lia.
    + rewrite eq_log by (auto; lia). rewrite <- qprod_assoc, qconj_mul, qprod_1l by auto. apply L. lia.
Qed.

(** The same at the zero element, for pseudoLog0. *)
Lemma leaf_round0 h l a b v : let s := Leaf h l a b in leaf_wf h l a b -> is_s2 s = false ->
  length v = tangentDim s -> off_switch s v ->
  exists y, shift_leaf s (zero_leaf s) v y /\ on_leaf s y /\
    (forall o, length o = representationDim s -> retractation s o (fin (zero_leaf s)) (fin v) = Ok (fin y)) /\
    (forall o, length o = tangentDim s -> pseudoLog0 s o (fin y) = Ok (fin v)).
Proof.
  intros s W N Hv Ho. unfold s in *.
  destruct (leaf_round h l a b (zero_leaf (Leaf h l a b)) v W N (leaf_zero_on _ _ _ _) Hv Ho) as (y & S & P & Re & L).
  exists y. split; auto. split; auto. split; auto. intros o Hl. specialize (L o Hl).
  unfold tangentDim, representationDim in *; cbn [hdr_of] in *.
  destruct l as [| |[|]]; cbn [on_leaf shift_leaf off_switch is_s2 zero_leaf] in *; try discriminate.
  - destruct W as [W1 W2]. rewrite real_log in L by (auto; rewrite ?repeat_length; try lia; split; auto).
    rewrite real_log0 by (auto; try lia; split; auto). rewrite <- L. do 2 f_equal.
    rewrite <- P. clear. induction y; auto. unfold rsub in *. simpl. f_equal; [ring|auto].
  - pose proof W as (W1 & W2 & W3 & _). destruct P as (A & -> & _). rewrite em_log in L by (auto; lia).
    rewrite em_log0 by (auto; lia). replace (rtr ridm) with ridm in L by reflexivity. rewrite rmul_id_l in L. auto.
  - pose proof W as (W1 & W2 & W3 & _). destruct P as (A & -> & _).
    change [1; 0; 0; 0] with (qflat (Q4 1 0 0 0)) in L. rewrite eq_log in L by (auto; try lia; unfold qn2; cbn; ring).
    rewrite eq_log0 by (auto; lia). rewrite <- L. do 2 f_equal. apply quat_ext; cbn; ring.
Qed.

Lemma list3_eq {A} (a b c a' b' c' : A) : a = a' -> b = b' -> c = c' -> [a; b; c] = [a'; b'; c'].
Proof. congruence. Qed.
(** The quaternion logarithm does not see the sign of a quaternion of nonzero real part. *)
Lemma eq_log_neg out q : length out = 3%nat -> qn2 q = 1 -> qw q <> 0 ->
  eq_logarithm out (qfin (qneg q)) = eq_logarithm out (qfin q).
Proof.
  intros Hl Hq Hw.
  assert (N : rnorm (qv (qneg q)) = rnorm (qv q)). { unfold rnorm. f_equal. simpl. ring. }
  assert (W : qw (qneg q) = - qw q) by reflexivity.
  destruct (Rlt_dec (rnorm (qv q)) eps8) as [S|S].
  - rewrite !eq_logarithm_small; rewrite ?N, ?W; auto; [|lra]. do 2 f_equal. unfold rscal, qv. cbn [map qneg qx qy qz].
    apply list3_eq; field; lra.
  - pose proof eps8_pos.
    rewrite !eq_logarithm_main; rewrite ?N, ?W; auto; try lra. do 2 f_equal.
    set (n := rnorm (qv q)) in *.
    assert (U : n * n + qw q * qw q = 1) by (apply qunit_n; auto).
    assert (U' : n * n + - qw q * - qw q = 1) by lra.
    assert (Hn : 0 <= n) by apply rnorm_nonneg.
    destruct (half_angle n (qw q) U Hn Hw) as (C1 & S1 & B1).
    destruct (half_angle n (- qw q) U' Hn ltac:(lra)) as (C2 & S2 & B2).
    set (t1 := Ratan2 (2 * n * qw q) (qw q * qw q - n * n)) in *.
    set (t2 := Ratan2 (2 * n * - qw q) (- qw q * - qw q - n * n)) in *.
    assert (E : t2 = - t1).
    { assert (t2 / 2 = - t1 / 2); [|lra]. apply angle_unique; try lra.
      - replace (- t1 / 2) with (- (t1 / 2)) by field. rewrite cos_neg, C1, C2. apply Rabs_Ropp.
      - replace (- t1 / 2) with (- (t1 / 2)) by field. rewrite sin_neg, S1, S2.
        destruct (Rlt_dec 0 (qw q)), (Rlt_dec 0 (- qw q)); lra. }
    rewrite E. unfold rscal, qv. cbn [map qneg qx qy qz]. apply list3_eq; field; lra.
Qed.
