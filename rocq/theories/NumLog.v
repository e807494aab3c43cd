(** Logarithms after the series branch of the exponentials, and logarithm of arbitrary rotations. *)
From Coq Require Import Reals List Lra Lia ZArith Bool Arith Psatz.
From Verif Require Import Base Scalar Vec Model_S2 Model_SO3 Model_Manifold Spec Layout Comp
  XR SpecR RotR NumVec NumMat Angle NumQuat NumLeaf RotLog NumS2 NumExp.
Import ListNotations.
Local Open Scope R_scope.

Lemma near3 e a b c d f g : Rabs (a - d) <= e -> Rabs (b - f) <= e -> Rabs (c - g) <= e -> near_v e [a; b; c] [d; f; g].
Proof. intros. repeat (apply Forall2_cons || apply Forall2_nil); auto. Qed.

(** ** Matrix map *)
Lemma em_series_log out x y z : length out = 3%nat -> let n := x * x + y * y + z * z in n < eps8 ->
  exists w, em_logarithm out (m3fin (rodrigues (1 - n / 6) (1 / 2 - n / 24) x y z)) = Ok (fin w) /\
            near_v (1 / 10 ^ 16) w [x; y; z].
Proof.
  intros Lo n Hn. assert (N0 : 0 <= n) by (unfold n; nra).
  assert (X : x * x <= n) by (unfold n; nra). assert (Y : y * y <= n) by (unfold n; nra). assert (Z : z * z <= n) by (unfold n; nra).
  set (s := 1 - n / 6). set (c := 1 / 2 - n / 24). set (E := rodrigues s c x y z).
  assert (Bd : forall a, a * a <= n -> Rabs a <= 1 / 10000) by (intros a Ha; apply Rabs_le; nra).
  destruct (Rlt_dec (upper E) eps8) as [U|U].
  - exists [- a12 E; a02 E; - a01 E]. split; [apply em_logarithm_small; auto|].
    assert (Sm : n <= 12 / 10 ^ 17).
    { destruct N0 as [N1|N1]; [|rewrite <- N1; lra]. assert (N0 := Rlt_le _ _ N1).
      pose proof (rod_upper s c x y z) as H0. cbv zeta in H0. fold n in H0.
      assert (Hc : 0 <= c) by (unfold c; lra). specialize (H0 ltac:(lra) Hc).
      assert (Uq : upper E * upper E = a12 E * a12 E + a02 E * a02 E + a01 E * a01 E).
      { unfold upper. rewrite rnorm3_sq. ring. }
      fold E in H0. rewrite <- Uq in H0. pose proof (rnorm_nonneg [- a12 E; a02 E; - a01 E]) as P. fold (upper E) in P.
      assert (upper E * upper E <= 1 / 10 ^ 16) by nra.
      assert (98 / 100 <= s * s) by (unfold s; nra).
      assert (98 / 100 * n <= s * s * n) by (apply Rmult_le_compat_r; auto). lra. }
    assert (C1 : 0 <= c <= 1 / 2) by (unfold c; lra).
    unfold E, rodrigues. cbn [a00 a01 a02 a10 a11 a12 a20 a21 a22].
    assert (G : forall a b, Rabs a <= 1 / 10000 -> Rabs b <= n -> Rabs (- (n / 6) * a + c * b) <= 1 / 10 ^ 16).
    { intros a b Ha Hb. eapply Rle_trans; [apply Rabs_triang|]. rewrite !Rabs_mult, Rabs_Ropp.
      rewrite (Rabs_pos_eq (n / 6)) by lra. rewrite (Rabs_pos_eq c) by lra.
      assert (n / 6 * Rabs a <= n / 6 * (1 / 10000)) by (apply Rmult_le_compat_l; lra).
      assert (c * Rabs b <= 1 / 2 * n) by (apply Rmult_le_compat; try lra; apply Rabs_pos). lra. }
    pose proof (G x (- (y * z)) (Bd x X) ltac:(rewrite Rabs_Ropp; apply small_sq; auto)).
    pose proof (G y (x * z) (Bd y Y) ltac:(apply small_sq; auto)).
    pose proof (G z (- (x * y)) (Bd z Z) ltac:(rewrite Rabs_Ropp; apply small_sq; auto)).
    apply near3; match goal with |- Rabs ?t <= _ => match goal with H : Rabs ?u <= _ |- _ =>
        replace t with u by (unfold s; field); exact H end end.
  - apply Rnot_lt_le in U.
    assert (Np : 0 < n).
    { destruct N0 as [|Z0]; auto. exfalso. assert (x = 0) by nra. assert (y = 0) by nra. assert (z = 0) by nra. subst x y z.
      unfold upper, E, rodrigues in U. cbn [a12 a02 a01] in U. unfold rnorm in U.
      match type of U with _ <= sqrt ?t => replace t with 0 in U by (simpl; ring) end. rewrite sqrt_0 in U. lra. }
    set (u := 1 - n / 2 + n * n / 24).
    assert (Eu : (a00 E + a11 E + a22 E - 1) / 2 = u).
    { unfold E, rodrigues. cbn [a00 a11 a22]. unfold u, c, n. field. }
    assert (Hu : -1 <= u <= 1) by (unfold u; nra).
    set (t := acos u). assert (Ct : cos t = u) by (apply cos_acos; auto).
    pose proof (acos_bound u) as Tb. fold t in Tb. pose proof PI2_1 as P2.
    assert (T0 : 0 < t).
    { destruct (proj1 Tb) as [|T]; auto. exfalso. rewrite <- T, cos_0 in Ct. unfold u in Ct. nra. }
    assert (Tn : t * t <= n).
    { (* cos (sqrt n) <= u = cos t, so t <= sqrt n *)
      assert (Q : sqrt n * sqrt n = n) by (apply sqrt_sqrt; auto). assert (Q0 : 0 < sqrt n) by (apply sqrt_lt_R0; auto).
      assert (Q1 : sqrt n < 1) by nra.
      pose proof (cos_taylor6 (sqrt n) ltac:(lra) ltac:(lra)) as [_ C2].
      replace (sqrt n ^ 4) with ((sqrt n * sqrt n) * (sqrt n * sqrt n)) in C2 by ring.
      replace (sqrt n ^ 2) with (sqrt n * sqrt n) in C2 by ring. rewrite Q in C2.
      fold u in C2. rewrite <- Ct in C2.
      assert (t <= sqrt n). { apply cos_decr_0; lra. } nra. }
    assert (T1 : t < 1) by nra.
    assert (Tl : n - n * n / 12 <= t * t).
    { pose proof (cos_bound t 0 ltac:(lra) ltac:(lra)) as [C1 _]. unfold cos_approx, cos_term in C1. simpl in C1.
      rewrite Ct in C1. unfold u in C1. lra. }
    pose proof (sin_taylor5 t ltac:(lra)) as [S1 S2].
    replace (t ^ 3) with (t * (t * t)) in * by ring. replace (t ^ 5) with (t * ((t * t) * (t * t))) in * by ring.
    set (m := t * t) in *.
    assert (Sp : 0 < sin t) by (apply sin_gt_0; lra).
    exists (rscal (s * (t / sin t)) [x; y; z]). split.
    + rewrite (em_logarithm_main out E t); auto; [|rewrite Eu; auto|lra].
      unfold E, rodrigues. cbn [a00 a01 a02 a10 a11 a12 a20 a21 a22]. unfold rscal. cbn [map]. do 2 f_equal.
      apply list3_eq; field; lra.
    + assert (K : 1 - 1 / 10 ^ 16 <= s * (t / sin t) <= 1).
      { assert (Et : t / sin t * sin t = t) by (field; lra). set (k := t / sin t) in *.
        assert (Kp : 0 < k) by (unfold k; apply Rdiv_lt_0_compat; auto).
        split; apply Rmult_le_reg_r with (sin t); auto; rewrite (Rmult_assoc s), Et.
        - assert (Bm : n * n <= 1 / 10 ^ 16) by nra. assert (Bm' : m * m <= n * n) by (assert (0 <= m) by (unfold m; nra); nra).
          apply Rle_trans with ((1 - 1 / 10 ^ 16) * (t - t * m / 6 + t * (m * m) / 120)); [apply Rmult_le_compat_l; lra|].
          replace ((1 - 1 / 10 ^ 16) * (t - t * m / 6 + t * (m * m) / 120)) with (t * ((1 - 1 / 10 ^ 16) * (1 - m / 6 + m * m / 120))) by field.
          rewrite (Rmult_comm s). apply Rmult_le_compat_l; [lra|]. unfold s.
          assert (0 <= m) by (unfold m; nra). 
          assert (m * m <= 1 / 10 ^ 16) by lra. nra.
        - rewrite Rmult_1_l. apply Rle_trans with (t - t * m / 6); auto.
          replace (t - t * m / 6) with (t * (1 - m / 6)) by field. rewrite (Rmult_comm s). apply Rmult_le_compat_l; [lra|]. unfold s. lra. }
      set (k := s * (t / sin t)) in *.
      assert (G : forall a, Rabs a <= 1 / 10000 -> Rabs (k * a - a) <= 1 / 10 ^ 16).
      { intros a Ha. replace (k * a - a) with ((k - 1) * a) by ring. rewrite Rabs_mult.
        assert (Rabs (k - 1) <= 1 / 10 ^ 16) by (apply Rabs_le; lra).
        apply Rle_trans with (1 / 10 ^ 16 * (1 / 10000)); [apply Rmult_le_compat; auto using Rabs_pos|lra]. }
      unfold rscal. cbn [map]. apply near3; apply G; auto.
Qed.

(** ** Quaternion map *)
Lemma atan2_scale S D k : 0 < k -> Ratan2 (k * S) (k * D) = Ratan2 S D.
Proof.
  intros Hk. unfold Ratan2.
  assert (E : forall d, d <> 0 -> d = D -> k * S / (k * D) = S / D).
  { intros d Hd ->. field. split; lra. }
  destruct (Rlt_dec 0 (k * D)), (Rlt_dec 0 D); try nra; [rewrite (E D); auto; lra|].
  destruct (Rlt_dec (k * D) 0), (Rlt_dec D 0); try nra.
  - rewrite (E D) by lra. destruct (Rle_dec 0 (k * S)), (Rle_dec 0 S); auto; nra.
  - destruct (Rlt_dec 0 (k * S)), (Rlt_dec 0 S); auto; try nra. destruct (Rlt_dec (k * S) 0), (Rlt_dec S 0); auto; nra.
Qed.
Lemma sin_small_inv d e : -1 < d < PI / 2 -> 0 <= e < 1 / 10 -> Rabs (sin d) <= e -> Rabs d <= 2 * e.
Proof.
  intros Hd He H. apply Rabs_le_inv in H. pose proof PI2_1 as P2. destruct (Rle_dec 0 d).
  - destruct (Rle_dec d 1).
    + pose proof (sin_ge_half d). rewrite Rabs_pos_eq; lra.
    + exfalso. assert (sin 1 <= sin d) by (apply sin_incr_1; lra). pose proof (sin_ge_half 1). lra.
  - pose proof (sin_ge_half (- d)). rewrite sin_neg in *. rewrite Rabs_left; lra.
Qed.

Lemma eq_series_log out x y z : length out = 3%nat -> let n := x * x + y * y + z * z in n < eps8 ->
  let s := (1 + (- 1 + n / 80) * n / 24) / 2 in
  exists w, eq_logarithm out (qfin (Q4 (1 + (- 1 + n / 48) * (n / 8)) (s * x) (s * y) (s * z))) = Ok (fin w) /\
            near_v (1 / 10 ^ 23) w [x; y; z].
Proof.
  intros Lo n Hn s. assert (N0 : 0 <= n) by (unfold n; nra).
  assert (X : x * x <= n) by (unfold n; nra). assert (Y : y * y <= n) by (unfold n; nra). assert (Z : z * z <= n) by (unfold n; nra).
  set (w := 1 + (- 1 + n / 48) * (n / 8)). set (q := Q4 w (s * x) (s * y) (s * z)).
  pose proof (rnorm3_sq x y z) as Nt. fold n in Nt. set (t := rnorm [x; y; z]) in *. assert (T0 : 0 <= t) by apply rnorm_nonneg.
  assert (Sb : 49 / 100 <= s <= 1 / 2) by (unfold s; nra).
  assert (Wb : 99 / 100 <= w <= 1) by (unfold w; nra).
  assert (Nq : rnorm (qv q) = s * t).
  { change (qv q) with (rscal s [x; y; z]). rewrite rnorm_scal, Rabs_pos_eq by lra. reflexivity. }
  assert (Bt : forall a, a * a <= n -> Rabs a <= t).
  { intros a Ha. apply Rabs_le. split; nra. }
  destruct (Rlt_dec (s * t) eps8) as [U|U].
  - exists (rscal (2 / w) (qv q)). split; [apply eq_logarithm_small; auto; [rewrite Nq; auto|simpl; lra]|].
    assert (Ts : t < 1 / 10 ^ 7) by nra.
    assert (Ns : n <= 1 / 10 ^ 14) by nra.
    assert (K : Rabs (2 / w * s - 1) <= n / 10).
    { replace (2 / w * s - 1) with ((2 * s - w) / w) by (field; lra).
      assert (E : 2 * s - w = n / 12 - n * n / 480) by (unfold s, w; field).
      assert (0 <= 2 * s - w <= n / 12) by (rewrite E; nra).
      rewrite Rabs_pos_eq.
      - apply Rmult_le_reg_r with w; [lra|]. replace ((2 * s - w) / w * w) with (2 * s - w) by (field; lra). nra.
      - apply Rmult_le_pos; [lra|]. left. apply Rinv_0_lt_compat. lra. }
    unfold q, qv, rscal. cbn [qx qy qz map].
    assert (G : forall a, a * a <= n -> Rabs (2 / w * (s * a) - a) <= 1 / 10 ^ 23).
    { intros a Ha. replace (2 / w * (s * a) - a) with ((2 / w * s - 1) * a) by (field; lra). rewrite Rabs_mult.
      apply Rle_trans with (n / 10 * t); [apply Rmult_le_compat; auto using Rabs_pos|].
      (* s t < 1e-8 and s >= 0.49 give t < 2.05e-8 *)
      assert (t <= 2041 / 10 ^ 11) by nra. assert (n <= 5 / 10 ^ 16) by nra.
      apply Rle_trans with (5 / 10 ^ 17 * (2041 / 10 ^ 11)); [apply Rmult_le_compat; lra|lra]. }
    apply near3; apply G; auto.
  - apply Rnot_lt_le in U. assert (Tp : 0 < t) by nra. assert (Np : 0 < n) by nra.
    set (N := s * t) in *.
    exists (rscal (Ratan2 (2 * N * w) (w * w - N * N) / N) (qv q)). split.
    { rewrite (eq_logarithm_main out q); auto; rewrite Nq; auto; lra. }
    assert (Et : sqrt n = t) by (rewrite <- Nt; apply sqrt_square; auto).
    destruct (eq_series_close n ltac:(lra)) as [W S]. cbv zeta in W, S. rewrite Et in W, S. fold s in S. fold w in W.
    assert (T1 : t < 1 / 1000) by nra.
    assert (n3 : n * n * n <= 1 / 10 ^ 24).
    { assert (H1 : n * n <= eps8 * eps8) by (apply Rmult_le_compat; lra).
      apply Rle_trans with (eps8 * eps8 * eps8); [apply Rmult_le_compat; nra|lra]. }
    set (c := cos (t / 2)) in *. set (s2 := sin (t / 2)) in *.
    assert (S' : Rabs (N - s2) <= 1 / 10 ^ 24 / 645120).
    { replace (N - s2) with ((s - s2 / t) * t) by (unfold N; field; lra). rewrite Rabs_mult, (Rabs_pos_eq t) by lra.
      pose proof (Rabs_pos (s - s2 / t)). nra. }
    assert (W' : Rabs (w - c) <= 1 / 10 ^ 24 / 46080) by lra.
    assert (Cb : -1 <= c <= 1) by apply COS_bound. assert (Sb2 : -1 <= s2 <= 1) by apply SIN_bound.
    assert (P0 : Rabs (N * c - w * s2) <= 1 / 10 ^ 24 / 10000).
    { replace (N * c - w * s2) with ((N - s2) * c + - ((w - c) * s2)) by ring.
      eapply Rle_trans; [apply Rabs_triang|]. rewrite Rabs_Ropp, !Rabs_mult.
      assert (Rabs c <= 1) by (apply Rabs_le; lra). assert (Rabs s2 <= 1) by (apply Rabs_le; lra).
      assert (Rabs (N - s2) * Rabs c <= 1 / 10 ^ 24 / 645120 * 1) by (apply Rmult_le_compat; auto using Rabs_pos).
      assert (Rabs (w - c) * Rabs s2 <= 1 / 10 ^ 24 / 46080 * 1) by (apply Rmult_le_compat; auto using Rabs_pos). lra. }
    assert (NB : 0 < N <= 1 / 1000) by (unfold N in *; split; nra).
    set (r := w * w + N * N). assert (Rb : 98 / 100 <= r <= 2) by (unfold r; nra).
    set (A := Ratan2 (2 * N * w) (w * w - N * N)) in *.
    assert (EA : A = Ratan2 (/ r * (2 * N * w)) (/ r * (w * w - N * N))).
    { symmetry. apply atan2_scale. apply Rinv_0_lt_compat. lra. }
    destruct (atan2_spec (/ r * (2 * N * w)) (/ r * (w * w - N * N))) as (Ca & Sa & _).
    { transitivity (/ r * / r * (r * r)); [unfold r; ring|field; lra]. }
    rewrite <- EA in Ca, Sa.
    assert (Dp : 0 < w * w - N * N) by nra.
    assert (Ab : 0 < A < PI / 2).
    { unfold A, Ratan2. destruct (Rlt_dec 0 (w * w - N * N)) as [_|]; [|lra].
      assert (0 < 2 * N * w / (w * w - N * N)) by (apply Rdiv_lt_0_compat; nra).
      split; [|apply atan_bound]. rewrite <- atan_0. apply atan_increasing. auto. }
    assert (Ts : sin (A - t) = / r * (2 * (N * c - w * s2) * (w * c + N * s2))).
    { rewrite sin_minus, Ca, Sa.
      assert (Es : sin t = 2 * s2 * c) by (unfold s2, c; rewrite <- sin_2a; f_equal; field).
      assert (Ec : cos t = c * c - s2 * s2) by (unfold s2, c; rewrite <- cos_2a; f_equal; field).
      rewrite Es, Ec. ring. }
    assert (Sm : Rabs (sin (A - t)) <= 1 / 10 ^ 24).
    { rewrite Ts. rewrite !Rabs_mult, (Rabs_pos_eq (/ r)), (Rabs_pos_eq 2); try lra.
      2:{ left. apply Rinv_0_lt_compat. lra. }
      assert (I2 : 0 < / r <= 2).
      { split; [apply Rinv_0_lt_compat; lra|]. apply Rmult_le_reg_r with r; [lra|]. rewrite Rinv_l by lra. lra. }
      assert (I3 : Rabs (w * c + N * s2) <= 2).
      { eapply Rle_trans; [apply Rabs_triang|]. rewrite !Rabs_mult, (Rabs_pos_eq w), (Rabs_pos_eq N) by lra.
        assert (Rabs c <= 1) by (apply Rabs_le; lra). assert (Rabs s2 <= 1) by (apply Rabs_le; lra).
        pose proof (Rabs_pos c). pose proof (Rabs_pos s2). nra. }
      apply Rle_trans with (2 * (2 * (1 / 10 ^ 24 / 10000) * 2)); [|lra].
      apply Rmult_le_compat; try lra.
      - apply Rmult_le_pos; [|apply Rabs_pos]. apply Rmult_le_pos; [lra|apply Rabs_pos].
      - apply Rmult_le_compat; auto using Rabs_pos; [|lra]. apply Rmult_le_pos; [lra|apply Rabs_pos]. }
    pose proof PI2_1 as P2.
    apply sin_small_inv in Sm; try lra.
    unfold q, qv, rscal. cbn [qx qy qz map].
    assert (G : forall a, a * a <= n -> Rabs (A / N * (s * a) - a) <= 1 / 10 ^ 23).
    { intros a Ha. replace (A / N * (s * a) - a) with ((A - t) * (a / t)) by (unfold N; field; lra). rewrite Rabs_mult.
      assert (Rabs (a / t) <= 1).
      { unfold Rdiv. rewrite Rabs_mult, Rabs_inv, (Rabs_pos_eq t) by lra. apply Rmult_le_reg_r with t; auto.
        rewrite Rmult_assoc, Rinv_l, Rmult_1_r, Rmult_1_l by lra. auto. }
      apply Rle_trans with (2 * (1 / 10 ^ 24) * 1); [apply Rmult_le_compat; auto using Rabs_pos|lra]. }
    apply near3; apply G; auto.
Qed.

(** ** Matrix logarithm of any rotation *)
Lemma upper_id : upper ridm = 0.
Proof. unfold upper, ridm, rnorm. cbn [a12 a02 a01]. replace (rdot _ _) with 0 by (simpl; ring). apply sqrt_0. Qed.
Lemma em_log_main_rot out A : length out = 3%nat -> rot A -> eps8 <= upper A -> tr3 A <> -1 ->
  exists v, em_logarithm out (m3fin A) = Ok (fin v) /\ length v = 3%nat /\ 0 < rnorm v < PI /\ expSO3 v = A.
Proof.
  intros Lo HA U T. destruct (rot_exp A HA) as (v & Lv & Nv & E).
  pose proof (expSO3_trace v (rnorm v) Lv eq_refl) as Tr. rewrite E in Tr. unfold tr3 in T.
  assert (N1 : rnorm v <> PI). { intros N. rewrite N, cos_PI in Tr. apply T. lra. }
  assert (N0 : rnorm v <> 0).
  { intros N. rewrite <- E in U. unfold expSO3 in U. destruct (vec3_inv v Lv) as (x & y & z & ->). cbv zeta in U.
    destruct (Req_EM_T _ 0) as [_|]; [|contradiction]. rewrite upper_id in U. lra. }
  pose proof (rnorm_nonneg v). exists v. assert (B : 0 < rnorm v < PI) by (split; apply Rnot_le_lt; intros ?; [apply N0|apply N1]; lra).
  split; [|auto]. rewrite <- E in U |- *. apply em_log_exp; auto.
Qed.
Lemma em_log_half_turn out A : length out = 3%nat -> eps8 <= upper A -> tr3 A = -1 ->
  em_logarithm out (m3fin A) = Ok [Undef; Undef; Undef].
Proof.
  intros Hl H Ht. unfold em_logarithm. cbn [a12 a02 a01 m3fin kopp XRS lift1].
  change [Fin (- a12 A); Fin (a02 A); Fin (- a01 A)] with (fin [- a12 A; a02 A; - a01 A]).
  rewrite norm_fin. unfold map_prec. cbn [klit kltb XRS xltb]. apply Rltb_false in H. fold (upper A). rewrite H.
  rewrite m3_trace_fin. fold (tr3 A). rewrite Ht. cbn [ksub kdiv kacos k1 XRS xsub].
  rewrite xdiv_fin by lra. replace ((-1 - 1) / (2 / 1)) with (-1) by field. rewrite xacos_fin by lra.
  rewrite <- cos_PI, acos_cos by (pose proof PI_RGT_0; lra). cbn [ksin kmul lift1 lift2 XRS]. rewrite sin_PI, Rmult_0_r, xdiv_0.
  rewrite m3_trans_fin. cbn [m3_map2 m3fin rtr a00 a01 a02 a10 a11 a12 a20 a21 a22 ksub XRS xsub lift2].
  apply assign_same. auto.
Qed.
Lemma em_log_nan out A : length out = 3%nat -> eps8 <= upper A -> 3 < tr3 A ->
  em_logarithm out (m3fin A) = Ok [Undef; Undef; Undef].
Proof.
  intros Hl H Ht. unfold em_logarithm. cbn [a12 a02 a01 m3fin kopp XRS lift1].
  change [Fin (- a12 A); Fin (a02 A); Fin (- a01 A)] with (fin [- a12 A; a02 A; - a01 A]).
  rewrite norm_fin. unfold map_prec. cbn [klit kltb XRS xltb]. apply Rltb_false in H. fold (upper A). rewrite H.
  rewrite m3_trace_fin. fold (tr3 A). cbn [ksub kdiv kacos k1 XRS xsub].
  rewrite xdiv_fin by lra. unfold xacos. destruct (Rle_dec (-1) _) as [_|]; [|exfalso; lra].
  destruct (Rle_dec _ 1) as [B|_]; [exfalso; lra|]. cbn [ksin kmul lift1 lift2 xdiv].
  rewrite m3_trans_fin. cbn [m3_map2 m3fin rtr a00 a01 a02 a10 a11 a12 a20 a21 a22 ksub XRS xsub lift2].
  apply assign_same. auto.
Qed.
Lemma em_log_small_rot A : rot A -> upper A < eps8 -> 1 <= tr3 A ->
  exists v, length v = 3%nat /\ rnorm v <= 1 / 10 ^ 7 /\ expSO3 v = A /\ near_v (1 / 10 ^ 15) [- a12 A; a02 A; - a01 A] v.
Proof.
  intros HA U T. destruct (rot_exp A HA) as (v & Lv & Nv & E). exists v.
  pose proof (expSO3_trace v (rnorm v) Lv eq_refl) as Tr. rewrite E in Tr. unfold tr3 in T.
  pose proof (rnorm_nonneg v) as N0. pose proof PI2_1 as P2.
  assert (Cp : 0 <= cos (rnorm v)) by lra.
  assert (Nh : rnorm v <= PI / 2).
  { apply Rnot_lt_le. intros H. pose proof (cos_lt_0 (rnorm v)). lra. }
  destruct (Req_dec (rnorm v) 0) as [Z|Z].
  - split; auto. split; [rewrite Z; lra|]. split; auto.
    destruct (vec3_inv v Lv) as (x & y & z & ->). pose proof (rnorm3_sq x y z) as N. rewrite Z in N.
    assert (x = 0) by nra. assert (y = 0) by nra. assert (z = 0) by nra. subst x y z.
    rewrite <- E, expSO3_0. unfold ridm. cbn [a12 a02 a01]. rewrite Ropp_0. apply near_v_mono with 0; [lra|apply near_v_refl].
  - pose proof (upper_exp v Lv ltac:(lra)) as Ue. rewrite E in Ue.
    assert (Up : 0 <= upper A) by apply rnorm_nonneg.
    assert (upper A * upper A <= 1 / 10 ^ 16) by nra.
    assert (S0 : 0 <= sin (rnorm v)) by (apply sin_ge_0; lra).
    assert (S1 : sin (rnorm v) <= 11 / 10 ^ 9) by nra.
    assert (N1 : rnorm v <= 22 / 10 ^ 9).
    { destruct (Rle_dec (rnorm v) 1); [pose proof (sin_ge_half (rnorm v)); lra|]. exfalso.
      assert (sin 1 <= sin (rnorm v)) by (apply sin_incr_1; lra). pose proof (sin_ge_half 1). lra. }
    split; auto. split; [lra|]. split; auto.
    destruct (vec3_inv v Lv) as (x & y & z & ->). pose proof (rnorm3_sq x y z) as N. set (t := rnorm [x; y; z]) in *.
    rewrite <- E. unfold expSO3. cbv zeta. fold t. destruct (Req_EM_T t 0) as [|_]; [contradiction|].
    cbn [rodrigues a12 a02 a01]. set (n := x * x + y * y + z * z) in *.
    assert (X : x * x <= n) by (unfold n; nra). assert (Y : y * y <= n) by (unfold n; nra). assert (Zz : z * z <= n) by (unfold n; nra).
    assert (Tp : 0 < t) by lra.
    set (s := sin t / t). set (c := (1 - cos t) / (t * t)).
    assert (Sb : - n / 6 <= s - 1 <= 0).
    { pose proof (sin_taylor5 t ltac:(lra)) as [B1 _]. pose proof (sin_lt_x t Tp).
      assert (Es : s * t = sin t) by (unfold s; field; lra).
      replace (t ^ 3) with (t * n) in B1 by (rewrite <- N; ring).
      split; apply Rmult_le_reg_r with t; auto; rewrite Rmult_minus_distr_r, Es; lra. }
    assert (Cb : 0 <= c <= 1 / 2).
    { pose proof (cos_bound t 0 ltac:(lra) ltac:(lra)) as [C1 _]. unfold cos_approx, cos_term in C1. simpl in C1.
      assert (Ec : c * (t * t) = 1 - cos t) by (unfold c; field; lra). pose proof (COS_bound t).
      assert (0 < t * t) by nra. split; apply Rmult_le_reg_r with (t * t); auto; rewrite Ec; lra. }
    assert (Nb : n <= 1 / 10 ^ 15) by (rewrite <- N; nra).
    assert (Bd : forall a, a * a <= n -> Rabs a <= 1) by (intros a Ha; apply Rabs_le; nra).
    assert (G : forall a b, Rabs a <= 1 -> Rabs b <= n -> Rabs ((s - 1) * a + c * b) <= 1 / 10 ^ 15).
    { intros a b Ha Hb. eapply Rle_trans; [apply Rabs_triang|]. rewrite !Rabs_mult.
      assert (Rabs (s - 1) <= n / 6) by (apply Rabs_le; lra).
      assert (Rabs (s - 1) * Rabs a <= n / 6 * 1) by (apply Rmult_le_compat; auto using Rabs_pos).
      rewrite (Rabs_pos_eq c) by lra.
      assert (c * Rabs b <= 1 / 2 * n) by (apply Rmult_le_compat; try lra; apply Rabs_pos). lra. }
    pose proof (G x (- (y * z)) (Bd x X) ltac:(rewrite Rabs_Ropp; apply small_sq; auto)).
    pose proof (G y (x * z) (Bd y Y) ltac:(apply small_sq; auto)).
    pose proof (G z (- (x * y)) (Bd z Zz) ltac:(rewrite Rabs_Ropp; apply small_sq; auto)).
    apply near3; match goal with |- Rabs ?t <= _ => match goal with H : Rabs ?u <= _ |- _ =>
        replace t with u by ring; exact H end end.
Qed.
Lemma expSO3_small_trace v : length v = 3%nat -> rnorm v < 1 -> 1 < tr3 (expSO3 v).
Proof.
  intros Lv H. pose proof (expSO3_trace v (rnorm v) Lv eq_refl) as Tr. unfold tr3.
  pose proof (rnorm_nonneg v). pose proof PI2_1. pose proof (cos_gt_0 (rnorm v)). lra.
Qed.

(** ** Quaternion logarithm of any unit quaternion *)
Lemma atan_close x : 0 <= x -> x - x * x * x <= atan x <= x.
Proof.
  intros Hx. destruct (Req_dec x 0) as [->|Hn]; [rewrite atan_0; lra|].
  assert (D : forall c, 0 <= c <= x -> derivable_pt_lim atan c (/ (1 + c ^ 2))).
  { intros c _. exact (derivable_pt_lim_atan c). }
  destruct (MVT_cor2 atan (fun c => / (1 + c ^ 2)) 0 x ltac:(lra) D) as (c & Hc & [C0 C1]).
  rewrite atan_0 in Hc. assert (B : 1 - c * c <= / (1 + c ^ 2) <= 1).
  { assert (Q : 0 < 1 + c ^ 2) by nra. split; apply Rmult_le_reg_r with (1 + c ^ 2); auto; rewrite Rinv_l by lra; nra. }
  assert (E : atan x = / (1 + c ^ 2) * x) by lra. rewrite E. assert (c * c <= x * x) by nra. nra.
Qed.
Lemma eq_log_total out q : length out = 3%nat -> qn2 q = 1 ->
  exists l, eq_logarithm out (qfin q) = Ok (fin l) /\ near_v (3 / 10 ^ 24) l (logQ q) /\ rnorm l <= PI /\
            (rnorm (qv q) = 0 \/ eps8 <= rnorm (qv q) -> l = logQ q).
Proof.
  intros Lo Hq. pose proof (qunit_n q Hq) as U. pose proof (rnorm_nonneg (qv q)) as N0.
  destruct (logQ_spec q Hq) as (L1 & L2 & _). pose proof PI2_1 as P2.
  destruct (Rle_dec eps8 (rnorm (qv q))) as [B|B].
  - exists (logQ q). split; [|split; [apply near_v_mono with 0; [lra|apply near_v_refl]|auto]].
    rewrite eq_logarithm_main; auto; [|lra]. unfold logQ. cbv zeta. destruct (Req_EM_T (rnorm (qv q)) 0); [lra|]. reflexivity.
  - apply Rnot_le_lt in B. set (n := rnorm (qv q)) in *.
    assert (W2 : 99 / 100 <= qw q * qw q <= 1) by nra. assert (W0 : qw q <> 0) by nra.
    exists (rscal (2 / qw q) (qv q)). split; [apply eq_logarithm_small; auto|].
    assert (Wa : 99 / 100 <= Rabs (qw q)).
    { assert (E : Rabs (qw q) * Rabs (qw q) = qw q * qw q). { rewrite <- Rabs_mult. apply Rabs_pos_eq. nra. }
      pose proof (Rabs_pos (qw q)). nra. }
    assert (Nn : rnorm (rscal (2 / qw q) (qv q)) <= 3 * n).
    { rewrite rnorm_scal. fold n. apply Rmult_le_compat_r; auto. unfold Rdiv. rewrite Rabs_mult, Rabs_inv, (Rabs_pos_eq 2) by lra.
      apply Rmult_le_reg_r with (Rabs (qw q)); [lra|]. rewrite Rmult_assoc, Rinv_l by lra. lra. }
    unfold logQ. cbv zeta. fold n. destruct (Req_EM_T n 0) as [Z|Z].
    + assert (E0 : qv q = [0; 0; 0]).
      { pose proof (rnorm_sq (qv q)) as D. fold n in D. rewrite Z in D. unfold qv in *. simpl in D.
        apply list3_eq; nra. }
      assert (E : rscal (2 / qw q) (qv q) = [0; 0; 0]) by (rewrite E0; unfold rscal; cbn [map]; apply list3_eq; ring).
      rewrite E in *. split; [apply near_v_mono with 0; [lra|apply near_v_refl]|]. split; [lra|auto].
    + split; [|split; [lra|intros [H|H]; lra]].
      (* Ratan2 (2 n w) (w^2 - n^2) = 2 atan (n / w) *)
      set (A := Ratan2 (2 * n * qw q) (qw q * qw q - n * n)).
      destruct (half_angle n (qw q) U N0 W0) as (C & S & Bd). fold A in C, S, Bd.
      assert (EA : A = 2 * atan (n / qw q)).
      { assert (A / 2 = atan (n / qw q)); [|lra]. pose proof (atan_bound (n / qw q)) as Ab.
        rewrite <- (atan_tan (A / 2)) by lra. f_equal. unfold tan. rewrite C, S.
        destruct (Rlt_dec 0 (qw q)); [rewrite Rabs_pos_eq by lra; field; lra|rewrite Rabs_left by lra; field; lra]. }
      assert (Cl : Rabs (2 * n / qw q - A) <= 3 / 10 ^ 24).
      { rewrite EA. set (u := n / Rabs (qw q)).
        assert (U0 : 0 <= u <= 102 / 10 ^ 10).
        { unfold u. split; [apply Rmult_le_pos; auto; left; apply Rinv_0_lt_compat; lra|].
          apply Rmult_le_reg_r with (Rabs (qw q)); [lra|]. unfold Rdiv at 1. rewrite Rmult_assoc, Rinv_l by lra. nra. }
        pose proof (atan_close u (proj1 U0)) as Ac.
        assert (u * u * u <= 15 / 10 ^ 25).
        { assert (u * u <= 102 / 10 ^ 10 * (102 / 10 ^ 10)) by (apply Rmult_le_compat; lra).
          apply Rle_trans with (102 / 10 ^ 10 * (102 / 10 ^ 10) * (102 / 10 ^ 10)); [apply Rmult_le_compat; nra|lra]. }
        assert (Hd : Rabs (2 * n / qw q - 2 * atan (n / qw q)) = 2 * (u - atan u)).
        { unfold u, Rabs at 2 3. destruct (Rcase_abs (qw q)).
          - replace (n / - qw q) with (- (n / qw q)) by (field; lra). rewrite atan_opp.
            assert (Q : 0 <= u - atan u) by lra. unfold u in Q. rewrite Rabs_left in Q by auto.
            replace (n / - qw q) with (- (n / qw q)) in Q by (field; lra). rewrite atan_opp in Q.
            rewrite <- Rabs_Ropp. rewrite Rabs_pos_eq; unfold Rdiv in *; lra.
          - assert (Q : 0 <= u - atan u) by lra. unfold u in Q. rewrite Rabs_pos_eq in Q by lra.
            rewrite Rabs_pos_eq; unfold Rdiv in *; lra. }
        rewrite Hd. lra. }
      pose proof (rnorm_sq (qv q)) as D. fold n in D. unfold qv in *. simpl in D.
      assert (G : forall a, a * a <= n * n -> Rabs (2 / qw q * a - A / n * a) <= 3 / 10 ^ 24).
      { intros a Ha. replace (2 / qw q * a - A / n * a) with ((2 * n / qw q - A) * (a / n)) by (field; auto). rewrite Rabs_mult.
        assert (Rabs (a / n) <= 1).
        { unfold Rdiv. rewrite Rabs_mult, Rabs_inv, (Rabs_pos_eq n) by lra. apply Rmult_le_reg_r with n; [lra|].
          rewrite Rmult_assoc, Rinv_l, Rmult_1_r, Rmult_1_l by lra. apply Rabs_le. split; nra. }
        apply Rle_trans with (3 / 10 ^ 24 * 1); [apply Rmult_le_compat; auto using Rabs_pos|lra]. }
      unfold rscal. cbn [map]. apply near3; apply G; nra.
Qed.

(** The exponential is injective below pi. *)
Lemma exp_inj v w : length v = 3%nat -> length w = 3%nat -> rnorm v < PI -> rnorm w < PI -> expSO3 v = expSO3 w -> v = w.
Proof.
  intros Lv Lw Hv Hw E. pose proof (expSO3_trace v _ Lv eq_refl) as Tv. pose proof (expSO3_trace w _ Lw eq_refl) as Tw.
  rewrite E in Tv. rewrite Tw in Tv. pose proof (rnorm_nonneg v). pose proof (rnorm_nonneg w).
  assert (N : rnorm v = rnorm w) by (rewrite <- (acos_cos (rnorm v)), <- (acos_cos (rnorm w)), Tv by lra; auto).
  destruct (vec3_inv v Lv) as (x & y & z & ->). destruct (vec3_inv w Lw) as (x' & y' & z' & ->).
  pose proof (rnorm3_sq x y z) as N1. pose proof (rnorm3_sq x' y' z') as N2. 
  unfold expSO3 in E. cbv zeta in E. rewrite N in *. set (t := rnorm [x'; y'; z']) in *.
  destruct (Req_EM_T t 0) as [Z|Z].
  - rewrite Z in *. assert (x = 0) by nra. assert (y = 0) by nra. assert (z = 0) by nra.
    assert (x' = 0) by nra. assert (y' = 0) by nra. assert (z' = 0) by nra. subst. auto.
  - assert (S : 0 < sin t) by (apply sin_gt_0; lra). assert (E21 := f_equal a21 E). assert (E12 := f_equal a12 E).
    assert (E02 := f_equal a02 E). assert (E20 := f_equal a20 E). assert (E10 := f_equal a10 E). assert (E01 := f_equal a01 E).
    cbn [rodrigues a21 a12 a02 a20 a10 a01] in *. set (s := sin t / t) in *.
    assert (Sp : 0 < s) by (unfold s; apply Rdiv_lt_0_compat; lra).
    apply list3_eq; apply Rmult_eq_reg_l with s; lra.
Qed.
Lemma atan_lt x : 0 < x -> atan x < x.
Proof.
  intros Hx.
  destruct (MVT_cor2 atan (fun c => / (1 + c ^ 2)) 0 x Hx (fun c _ => derivable_pt_lim_atan c)) as (c & Hc & [C0 C1]).
  rewrite atan_0 in Hc. assert (Q : 1 < 1 + c ^ 2) by nra. assert (/ (1 + c ^ 2) < 1) by (rewrite <- Rinv_1; apply Rinv_1_lt_contravar; lra).
  nra.
Qed.
Lemma em_log_nan_gen out A x : length out = 3%nat -> eps8 <= upper A ->
  kdiv (kacos (Fin ((tr3 A - 1) / 2))) (kmul (klit 2 1) (ksin (kacos (Fin ((tr3 A - 1) / 2))))) = x -> x = Undef ->
  em_logarithm out (m3fin A) = Ok [Undef; Undef; Undef].
Proof.
  intros Hl H Ex ->. unfold em_logarithm. cbn [a12 a02 a01 m3fin kopp XRS lift1].
  change [Fin (- a12 A); Fin (a02 A); Fin (- a01 A)] with (fin [- a12 A; a02 A; - a01 A]).
  rewrite norm_fin. unfold map_prec. cbn [klit kltb XRS xltb]. apply Rltb_false in H. fold (upper A). rewrite H.
  rewrite m3_trace_fin. fold (tr3 A). cbn [ksub kdiv kacos k1 XRS xsub].
  rewrite xdiv_fin by lra. replace ((tr3 A - 1) / (2 / 1)) with ((tr3 A - 1) / 2) by field.
  cbn [kdiv kacos kmul ksin klit XRS] in *. rewrite Ex.
  rewrite m3_trans_fin. cbn [m3_map2 m3fin rtr a00 a01 a02 a10 a11 a12 a20 a21 a22 ksub XRS xsub lift2 kmul].
  apply assign_same. auto.
Qed.
Lemma em_log_nan_3 out A : length out = 3%nat -> eps8 <= upper A -> tr3 A = 3 ->
  em_logarithm out (m3fin A) = Ok [Undef; Undef; Undef].
Proof.
  intros Hl H T. eapply em_log_nan_gen; eauto. rewrite T. replace ((3 - 1) / 2) with 1 by field.
  cbn [kacos XRS]. rewrite xacos_fin by lra. rewrite acos_1. cbn [ksin kmul XRS lift1 lift2 klit]. rewrite sin_0, Rmult_0_r.
  apply xdiv_0.
Qed.
Lemma em_log_nan_low out A : length out = 3%nat -> eps8 <= upper A -> tr3 A < -1 ->
  em_logarithm out (m3fin A) = Ok [Undef; Undef; Undef].
Proof.
  intros Hl H T. eapply em_log_nan_gen; eauto. cbn [kacos XRS]. unfold xacos.
  destruct (Rle_dec (-1) _) as [|_]; [exfalso; lra|]. reflexivity.
Qed.
