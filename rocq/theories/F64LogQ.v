(** Logarithm of the quaternion map in double arithmetic. *)
From Coq Require Import Reals List Lra Lia ZArith Bool Arith Psatz Machin.
From Flocq Require Import Core BinarySingleNaN.
From Verif Require Import Base Scalar Vec Model_SO3 Model_Manifold XR SpecR RotR NumVec NumMat NumExp Angle NumLeaf Drift F64 F64Err F64Norm F64S2 F64Exp F64Quat F64Mat F64Mat2 F64Go F64Log.
Import ListNotations.
Local Open Scope R_scope.

(** atan2 of finite arguments, the first one positive (the sign of a zero is not looked at). *)
Definition accurate_atan2 (L : libm) : Prop := forall a b, isf a -> isf b -> 0 < val a ->
  isf (f_atan2 L a b) /\ Rabs (val (f_atan2 L a b) - Ratan2 (val a) (val b)) <= 2 * u * Rabs (Ratan2 (val a) (val b)) + eta.

(** ** Real numbers *)
Lemma PI_ge : 31415 / 10000 <= PI.
Proof. destruct (PI_2_3_7_ineq 2) as [H _]. unfold tg_alt, PI_2_3_7_tg, Ratan_seq in H. simpl in H. lra. Qed.
Lemma atan2_scale k y x : 0 < k -> Ratan2 (k * y) (k * x) = Ratan2 y x.
Proof.
  intros K. unfold Ratan2.
  assert (Q : x <> 0 -> k * y / (k * x) = y / x) by (intros; field; split; lra).
  destruct (Rlt_dec 0 x) as [A|A].
  - destruct (Rlt_dec 0 (k * x)); [|exfalso; apply n; apply Rmult_lt_0_compat; auto]. rewrite Q by lra. reflexivity.
  - destruct (Rlt_dec 0 (k * x)); [exfalso; nra|]. destruct (Rlt_dec x 0) as [B|B].
    + destruct (Rlt_dec (k * x) 0); [|exfalso; nra]. rewrite Q by lra. destruct (Rle_dec 0 y), (Rle_dec 0 (k * y)); try reflexivity; exfalso; nra.
    + destruct (Rlt_dec (k * x) 0); [exfalso; nra|]. destruct (Rlt_dec 0 y), (Rlt_dec 0 (k * y)); try reflexivity; try (exfalso; nra). destruct (Rlt_dec y 0), (Rlt_dec (k * y) 0); try reflexivity; exfalso; nra.
Qed.
Lemma atan2_polar y x : 0 < x * x + y * y -> let r := sqrt (x * x + y * y) in let p := Ratan2 y x in
  0 < r /\ r * r = x * x + y * y /\ r * cos p = x /\ r * sin p = y /\ - PI < p <= PI.
Proof.
  intros H r p. assert (R0 : 0 < r) by (apply sqrt_lt_R0; auto). assert (RR : r * r = x * x + y * y) by (apply sqrt_sqrt; lra).
  assert (E : x / r * (x / r) + y / r * (y / r) = 1). { replace (x / r * (x / r) + y / r * (y / r)) with ((x * x + y * y) / (r * r)) by (field; lra). rewrite RR. field. lra. }
  destruct (atan2_spec (y / r) (x / r) E) as (C & S & B).
  assert (P : Ratan2 (y / r) (x / r) = p). { unfold p. rewrite <- (atan2_scale r (y / r) (x / r) R0). f_equal; field; lra. }
  rewrite P in *. repeat split; try lra; [rewrite C|rewrite S]; field; lra.
Qed.
Lemma small_angle d e : - PI < d < PI -> 0 < cos d -> Rabs (sin d) <= e -> Rabs d <= 2 * e.
Proof.
  intros Hd C S. assert (B : - (PI / 2) < d < PI / 2).
  { split; apply Rnot_le_lt; intros G.
    - assert (cos (- d) <= 0) by (apply cos_le_0; lra). rewrite cos_neg in H. lra.
    - assert (cos d <= 0) by (apply cos_le_0; lra). lra. }
  destruct (Rle_dec 0 d) as [G|G].
  - pose proof (sin_ge_half2 d ltac:(lra)). rewrite (Rabs_pos_eq d) by auto. apply Rabs_ends in S. lra.
  - pose proof (sin_ge_half2 (- d) ltac:(lra)) as K. rewrite sin_neg in K. rewrite (Rabs_left d) by lra. apply Rabs_ends in S. lra.
Qed.
Lemma atan2_pert X Y r2 t k : 0 <= t < PI -> 0 < r2 -> 0 <= k <= 1 / 100 -> Rabs (Y - r2 * sin t) <= k * (r2 * sin t) -> Rabs (X - r2 * cos t) <= k * r2 ->
  Rabs (Ratan2 Y X - t) <= 5 * k * sin t.
Proof.
  intros Ht R0 Hk HY HX. pose proof PI_ge. assert (S0 : 0 <= sin t) by (apply sin_ge_0; lra). pose proof (SIN_bound t) as SB. pose proof (COS_bound t) as CB.
  assert (CC : sin t * sin t + cos t * cos t = 1) by (pose proof (sin2_cos2 t) as Q; unfold Rsqr in Q; lra).
  assert (RS : 0 <= r2 * sin t) by (apply Rmult_le_pos; lra).
  set (dY := Y - r2 * sin t) in *. set (dX := X - r2 * cos t) in *.
  assert (EY : Y = r2 * sin t + dY) by (unfold dY; ring). assert (EX : X = r2 * cos t + dX) by (unfold dX; ring).
  assert (KR : 0 <= k * r2) by (apply Rmult_le_pos; lra).
  assert (DY1 : Rabs (dY * sin t) <= k * r2). { rewrite Rabs_mult, (Rabs_pos_eq (sin t)) by lra. apply Rle_trans with (k * (r2 * sin t) * 1); [apply Rmult_le_compat; auto using Rabs_pos; lra|]. assert (k * (r2 * sin t) <= k * (r2 * 1)) by (apply Rmult_le_compat_l; [lra|]; apply Rmult_le_compat_l; lra). lra. }
  assert (DX1 : Rabs (dX * cos t) <= k * r2). { rewrite Rabs_mult. apply Rle_trans with (k * r2 * 1); [apply Rmult_le_compat; auto using Rabs_pos; apply Rabs_le; lra|lra]. }
  assert (DOT : 98 / 100 * r2 <= X * cos t + Y * sin t).
  { rewrite EX, EY. replace ((r2 * cos t + dX) * cos t + (r2 * sin t + dY) * sin t) with (r2 * (sin t * sin t + cos t * cos t) + dX * cos t + dY * sin t) by ring. rewrite CC.
    apply Rabs_ends in DY1, DX1. assert (k * r2 <= 1 / 100 * r2) by (apply Rmult_le_compat_r; lra). lra. }
  assert (XY : (X * cos t + Y * sin t) * (X * cos t + Y * sin t) <= X * X + Y * Y).
  { replace (X * X + Y * Y) with ((X * X + Y * Y) * (sin t * sin t + cos t * cos t)) by (rewrite CC; ring). pose proof (Rle_0_sqr (X * sin t - Y * cos t)) as Q. unfold Rsqr in Q. lra. }
  assert (P : 0 < X * X + Y * Y). { assert (0 < (X * cos t + Y * sin t) * (X * cos t + Y * sin t)) by (apply Rmult_lt_0_compat; lra). lra. }
  destruct (atan2_polar Y X P) as (Q0 & QQ & QC & QS & QB). set (q := sqrt (X * X + Y * Y)) in *. set (p := Ratan2 Y X) in *.
  assert (QD : 98 / 100 * r2 <= q). { eapply Rle_trans; [exact DOT|]. apply Rsqr_incr_0; unfold Rsqr; lra. }
  assert (Y0 : 0 <= Y) by (rewrite EY; apply Rabs_ends in HY; assert (k * (r2 * sin t) <= 1 / 100 * (r2 * sin t)) by (apply Rmult_le_compat_r; lra); lra).
  assert (P0 : 0 <= p). { apply Rnot_lt_le. intros G. assert (0 < sin (- p)) by (apply sin_gt_0; lra). rewrite sin_neg in H0. assert (q * sin p < q * 0) by (apply Rmult_lt_compat_l; lra). lra. }
  assert (Cd : 0 < cos (p - t)). { rewrite cos_minus. apply (Rmult_lt_reg_l q); auto. rewrite Rmult_0_r. replace (q * (cos p * cos t + sin p * sin t)) with (q * cos p * cos t + q * sin p * sin t) by ring. rewrite QC, QS. lra. }
  assert (Sd : Rabs (sin (p - t)) <= 5 / 2 * (k * sin t)).
  { apply (Rmult_le_reg_l q); auto. rewrite <- (Rabs_pos_eq q) at 1 by lra. rewrite <- Rabs_mult, sin_minus.
    replace (q * (sin p * cos t - cos p * sin t)) with (q * sin p * cos t - q * cos p * sin t) by ring. rewrite QC, QS, EX, EY.
    replace ((r2 * sin t + dY) * cos t - (r2 * cos t + dX) * sin t) with (dY * cos t + - (dX * sin t)) by ring.
    eapply Rle_trans; [apply Rabs_triang|]. rewrite Rabs_Ropp, !Rabs_mult, (Rabs_pos_eq (sin t)) by lra.
    assert (Rabs dY * Rabs (cos t) <= k * (r2 * sin t) * 1) by (apply Rmult_le_compat; auto using Rabs_pos; apply Rabs_le; lra).
    assert (Rabs dX * sin t <= k * r2 * sin t) by (apply Rmult_le_compat_r; lra).
    assert (98 / 100 * r2 * (5 / 2 * (k * sin t)) <= q * (5 / 2 * (k * sin t))) by (apply Rmult_le_compat_r; [|lra]; assert (0 <= k * sin t) by (apply Rmult_le_pos; lra); lra).
    assert (0 <= k * (r2 * sin t)) by (apply Rmult_le_pos; lra). lra. }
  assert (D : - PI < p - t < PI). { split; [lra|]. destruct (Rle_lt_or_eq_dec (p - t) PI ltac:(lra)) as [G|G]; auto. rewrite G, cos_PI in Cd. lra. }
  pose proof (small_angle _ _ D Cd Sd). lra.
Qed.

(** A vector close to [p]: norm and direction. *)
Lemma norm3_close p0 p1 p2 q0 q1 q2 n m e : 0 <= n -> 0 <= m -> n * n = p0 * p0 + p1 * p1 + p2 * p2 -> m * m = q0 * q0 + q1 * q1 + q2 * q2 ->
  Rabs (q0 - p0) <= e -> Rabs (q1 - p1) <= e -> Rabs (q2 - p2) <= e -> Rabs (m - n) <= 1733 / 1000 * e.
Proof.
  intros N0 M0 N M H0 H1 H2. assert (E0 : 0 <= e) by (pose proof (Rabs_pos (q0 - p0)); lra).
  pose proof (l1_l2 p0 p1 p2 n ltac:(lra) N0) as Ln. pose proof (l1_l2 q0 q1 q2 m ltac:(lra) M0) as Lm.
  assert (D : Rabs (m - n) * (m + n) <= e * (1733 / 1000) * (m + n)).
  { rewrite <- (Rabs_pos_eq (m + n)) at 1 by lra. rewrite <- Rabs_mult. replace ((m - n) * (m + n)) with ((q0 - p0) * (q0 + p0) + (q1 - p1) * (q1 + p1) + (q2 - p2) * (q2 + p2)) by nra.
    eapply Rle_trans; [apply (dots _ _ _ _ _ _ e); auto|]. rewrite Rmult_assoc. apply Rmult_le_compat_l; auto.
    pose proof (Rabs_triang q0 p0). pose proof (Rabs_triang q1 p1). pose proof (Rabs_triang q2 p2). lra. }
  destruct (Rle_lt_or_eq_dec 0 (m + n) ltac:(lra)) as [G|G].
  - apply Rmult_le_reg_r in D; auto. lra.
  - replace m with 0 by lra. replace n with 0 by lra. rewrite Rminus_0_r, Rabs_R0. nra.
Qed.
Lemma qlog_pert h p0 p1 p2 w q0 q1 q2 m e : 0 < h <= 157 / 100 -> sin h * sin h = p0 * p0 + p1 * p1 + p2 * p2 -> 0 <= m -> m * m = q0 * q0 + q1 * q1 + q2 * q2 ->
  Rabs (w - cos h) <= e -> Rabs (q0 - p0) <= e -> Rabs (q1 - p1) <= e -> Rabs (q2 - p2) <= e -> e <= 1 / 10 ^ 10 -> 9 / 10 ^ 9 <= sin h ->
  exists r g, 0 < w /\ 0 < m /\ Rabs (r - 1) <= 6 * e /\ r * cos g = w /\ r * sin g = m /\ 0 < g < PI / 2 /\ 3 / 10000 <= w /\
    Rabs (2 * g / m * q0 - 2 * h / sin h * p0) <= 185 * e /\ Rabs (2 * g / m * q1 - 2 * h / sin h * p1) <= 185 * e /\ Rabs (2 * g / m * q2 - 2 * h / sin h * p2) <= 185 * e.
Proof.
  intros Hh N M0 M Hw H0 H1 H2 He Hn. pose proof PI_ge as PG. set (n := sin h) in *. set (c := cos h) in *.
  assert (E0 : 0 <= e) by (pose proof (Rabs_pos (q0 - p0)); lra). pose proof (SIN_bound h) as SB. fold n in SB. pose proof (COS_bound h) as CB. fold c in CB.
  assert (CC : n * n + c * c = 1) by (pose proof (sin2_cos2 h) as Q; unfold Rsqr in Q; exact Q).
  assert (C0 : 37 / 100000 <= c). { unfold c. rewrite <- sin_shift. pose proof (sin_ge_half2 (PI / 2 - h) ltac:(lra)). lra. }
  pose proof (norm3_close p0 p1 p2 q0 q1 q2 n m e ltac:(lra) M0 N M H0 H1 H2) as DM.
  pose proof (Rabs_ends _ _ Hw) as Hw'. pose proof (Rabs_ends _ _ DM) as DM'.
  assert (W0 : 3 / 10000 <= w) by lra. assert (M1 : 8 / 10 ^ 9 <= m) by lra.
  set (r := sqrt (w * w + m * m)). assert (R0 : 0 < r) by (apply sqrt_lt_R0; nra). assert (RR : r * r = w * w + m * m) by (apply sqrt_sqrt; nra).
  set (g := atan (m / w)).
  assert (MW : 0 < m / w) by (apply Rdiv_lt_0_compat; lra).
  assert (Sq : sqrt (1 + (m / w)²) = r / w). { replace (1 + (m / w)²) with ((r / w)²); [apply sqrt_Rsqr; apply Rlt_le, Rdiv_lt_0_compat; lra|]. unfold Rsqr. replace (r / w * (r / w)) with (r * r / (w * w)) by (field; lra). rewrite RR. field. lra. }
  assert (Gc : r * cos g = w) by (unfold g; rewrite cos_atan, Sq; field; lra).
  assert (Gs : r * sin g = m) by (unfold g; rewrite sin_atan, Sq; field; lra).
  assert (G0 : 0 < g < PI / 2). { split; [unfold g; rewrite <- atan_0; apply atan_increasing; auto|unfold g; apply atan_bound]. }
  assert (R1 : Rabs (r - 1) <= 6 * e).
  { assert (D : Rabs ((r - 1) * (r + 1)) <= 6 * e).
    { replace ((r - 1) * (r + 1)) with ((w - c) * (w + c) + (m - n) * (m + n)) by nra. eapply Rle_trans; [apply Rabs_triang|]. rewrite !Rabs_mult, (Rabs_pos_eq (w + c)), (Rabs_pos_eq (m + n)) by lra.
      assert (Rabs (w - c) * (w + c) <= e * (201 / 100)) by (apply Rmult_le_compat; auto using Rabs_pos; lra).
      assert (Rabs (m - n) * (m + n) <= 1733 / 1000 * e * (201 / 100)) by (apply Rmult_le_compat; auto using Rabs_pos; lra). lra. }
    rewrite Rabs_mult, (Rabs_pos_eq (r + 1)) in D by lra. pose proof (Rabs_pos (r - 1)). nra. }
  pose proof (Rabs_ends _ _ R1) as R1'.
  assert (Dg : Rabs (g - h) <= 6 * e).
  { replace (6 * e) with (2 * (3 * e)) by ring. apply small_angle; [lra| |].
    - apply cos_gt_0; lra.
    - apply (Rmult_le_reg_l r); auto. rewrite <- (Rabs_pos_eq r) at 1 by lra. rewrite <- Rabs_mult, sin_minus.
      replace (r * (sin g * cos h - cos g * sin h)) with (r * sin g * c - r * cos g * n) by (unfold c, n; ring). rewrite Gc, Gs.
      replace (m * c - w * n) with ((m - n) * c + - ((w - c) * n)) by ring. eapply Rle_trans; [apply Rabs_triang|]. rewrite Rabs_Ropp, !Rabs_mult, (Rabs_pos_eq c), (Rabs_pos_eq n) by lra.
      assert (Rabs (m - n) * c <= 1733 / 1000 * e * 1) by (apply Rmult_le_compat; auto using Rabs_pos; lra). assert (Rabs (w - c) * n <= e * 1) by (apply Rmult_le_compat; auto using Rabs_pos; lra).
      assert (99 / 100 * (3 * e) <= r * (3 * e)) by (apply Rmult_le_compat_r; lra). lra. }
  assert (HN : n <= h) by (pose proof (sin_abs h) as Q; fold n in Q; rewrite !Rabs_pos_eq in Q by lra; exact Q).
  pose proof PI_le as PL.
  pose proof (tsin_flat h g ltac:(lra) ltac:(lra) ltac:(lra)) as F. fold n in F.
  assert (F' : Rabs (g / (2 * sin g) - h / (2 * n)) <= 38 * e).
  { eapply Rle_trans; [exact F|]. assert (4 * h * Rabs (g - h) <= (4 * (157 / 100)) * (6 * e)) by (apply Rmult_le_compat; auto using Rabs_pos; lra). lra. }
  pose proof (sin_half_173 g ltac:(lra)) as SG. assert (SGp : 0 < sin g) by lra.
  assert (GB : Rabs (g / (2 * sin g)) <= 1). { rewrite Rabs_pos_eq by (apply Rlt_le, Rdiv_lt_0_compat; lra). apply (Rmult_le_reg_r (2 * sin g)); [lra|]. replace (g / (2 * sin g) * (2 * sin g)) with g by (field; lra). lra. }
  exists r, g. repeat (split; [first [exact R1|lra]|]).
  assert (P : forall p q, Rabs (q - p) <= e -> p * p <= n * n -> Rabs (2 * g / m * q - 2 * h / n * p) <= 185 * e).
  { intros p q Hpq Hp. assert (Bp : Rabs p <= 1) by (apply sq_le_abs; [|lra]; nra).
    replace (2 * g / m * q - 2 * h / n * p) with (4 * (g / (2 * sin g) - h / (2 * n)) * p + 4 * (g / (2 * sin g)) * (q / r - p)) by (rewrite <- Gs; field; lra).
    assert (Q : Rabs (q / r - p) <= 8 * e).
    { replace (q / r - p) with (((q - p) + - (p * (r - 1))) / r) by (field; lra). unfold Rdiv. rewrite Rabs_mult, Rabs_inv, (Rabs_pos_eq r) by lra.
      apply (Rmult_le_reg_r r); auto. rewrite Rmult_assoc, Rinv_l, Rmult_1_r by lra. eapply Rle_trans; [apply Rabs_triang|]. rewrite Rabs_Ropp, Rabs_mult.
      assert (Rabs p * Rabs (r - 1) <= 1 * (6 * e)) by (apply Rmult_le_compat; auto using Rabs_pos). assert (8 * e * (99 / 100) <= 8 * e * r) by (apply Rmult_le_compat_l; lra). lra. }
    eapply Rle_trans; [apply Rabs_triang|]. rewrite !Rabs_mult, (Rabs_pos_eq 4) by lra.
    set (F1 := Rabs (g / (2 * sin g) - h / (2 * n))) in *. set (F2 := Rabs (g / (2 * sin g))) in *. set (F3 := Rabs (q / r - p)) in *.
    assert (4 * F1 * Rabs p <= 4 * (38 * e) * 1) by (apply Rmult_le_compat; auto using Rabs_pos; [|lra]; apply Rmult_le_pos; [lra|apply Rabs_pos]).
    assert (4 * F2 * F3 <= 4 * 1 * (8 * e)) by (assert (0 <= F2) by apply Rabs_pos; assert (0 <= F3) by apply Rabs_pos; apply Rmult_le_compat; lra). lra. }
  split; [apply P; auto; nra|]. split; apply P; auto; nra.
Qed.

Definition qcl (q : quat f64) (r : quat R) (e : R) : Prop := cl (qw q) (qw r) e /\ cl (qx q) (qx r) e /\ cl (qy q) (qy r) e /\ cl (qz q) (qz r) e.

(** The computed norm of three small enough numbers. *)
Lemma nsq_any L a b c : isf a -> isf b -> isf c -> sq3 (val a) (val b) (val c) <= 2 -> let N := sq3 (val a) (val b) (val c) in
  isf (nsq L a b c) /\ isf (Bsqrt mode_NE (nsq L a b c)) /\ 0 <= val (nsq L a b c) /\ Rabs (val (nsq L a b c) - N) <= (3 + 1 / 200) * (u * N) + 10 * eta /\
  val (Bsqrt mode_NE (nsq L a b c)) = rnd (sqrt (val (nsq L a b c))).
Proof.
  intros Fa Fb Fc H N. assert (B9 : 2 <= B900) by (pose proof B400_900; pose proof B400_1; nra).
  pose proof (dot3_fin L a b c Fa Fb Fc ltac:(lra)) as F. fold (nsq L a b c) in F. destruct (dot3_err L a b c F) as (_ & _ & _ & E). fold (nsq L a b c) N in E.
  pose proof (nsq_pos L a b c F) as P. destruct (f_sqrt _ F P) as [Fs Vs]. auto.
Qed.
Lemma small_norm L a b c : isf a -> isf b -> isf c -> sq3 (val a) (val b) (val c) <= 2 -> Bltb (Bsqrt mode_NE (nsq L a b c)) (lit8 L) = true ->
  sq3 (val a) (val b) (val c) <= 11 / 10 ^ 17.
Proof.
  intros Fa Fb Fc H B. destruct (nsq_any L a b c Fa Fb Fc H) as (F & Fs & P & E & V). destruct (lit8_tight L) as [F8 V8]. rewrite f_ltb in B by auto. apply Rlt_bool_lt' in B.
  pose proof (rnd_err (sqrt (val (nsq L a b c)))) as R. rewrite <- V in R. pose proof (sqrt_pos (val (nsq L a b c))) as Sp. rewrite Rabs_pos_eq with (x := sqrt (val (nsq L a b c))) in R by lra. apply Rabs_ends in R, E.
  pose proof (sqrt_sqrt _ P) as SS. set (q := sqrt (val (nsq L a b c))) in *. pose proof u_pos as U. pose proof u_tiny as U1. pose proof eta_small as T. assert (T1 : u ^ 10 <= 1 / 10 ^ 40) by (rewrite u_val; lra).
  assert (u * q <= 1 / 10 ^ 15 * q) by (apply Rmult_le_compat_r; lra). assert (q <= 1002 / 10 ^ 11) by lra. assert (q * q <= 1002 / 10 ^ 11 * (1002 / 10 ^ 11)) by (apply Rmult_le_compat; lra).
  set (N := sq3 (val a) (val b) (val c)) in *. assert (0 <= N) by (unfold N, sq3; nra). assert (u * N <= 1 / 10 ^ 15 * N) by (apply Rmult_le_compat_r; lra). lra.
Qed.
Lemma big_norm L a b c : isf a -> isf b -> isf c -> sq3 (val a) (val b) (val c) <= 2 -> Bltb (Bsqrt mode_NE (nsq L a b c)) (lit8 L) = false ->
  let N := sq3 (val a) (val b) (val c) in 95 / 10 ^ 18 <= N /\ Rabs (val (nsq L a b c) - N) <= (302 / 100) * (u * N) /\ Rabs (val (Bsqrt mode_NE (nsq L a b c)) - sqrt N) <= (253 / 100) * (u * sqrt N) /\ isf (nsq L a b c) /\ isf (Bsqrt mode_NE (nsq L a b c)).
Proof.
  intros Fa Fb Fc H B N. destruct (nsq_any L a b c Fa Fb Fc H) as (F & Fs & P & E & V). fold N in E. destruct (lit8_tight L) as [F8 V8]. rewrite f_ltb in B by auto. destruct (Rlt_bool_spec (val (Bsqrt mode_NE (nsq L a b c))) (val (lit8 L))) as [|B']; [discriminate|].
  pose proof (rnd_err (sqrt (val (nsq L a b c)))) as R. rewrite <- V in R. pose proof (sqrt_pos (val (nsq L a b c))) as Sp. rewrite Rabs_pos_eq with (x := sqrt (val (nsq L a b c))) in R by lra. apply Rabs_ends in R, E.
  pose proof (sqrt_sqrt _ P) as SS. set (q := sqrt (val (nsq L a b c))) in *. pose proof u_pos as U. pose proof u_tiny as U1. pose proof eta_small as T. assert (T1 : u ^ 10 <= u / 10 ^ 50) by (rewrite u_val; lra).
  assert (u * q <= 1 / 10 ^ 15 * q) by (apply Rmult_le_compat_r; lra). assert (Q1 : 998 / 10 ^ 11 <= q) by lra. assert (998 / 10 ^ 11 * (998 / 10 ^ 11) <= q * q) by (apply Rmult_le_compat; lra).
  assert (0 <= N) by (unfold N, sq3; nra). assert (u * N <= 1 / 10 ^ 15 * N) by (apply Rmult_le_compat_r; lra).
  assert (N1 : 95 / 10 ^ 18 <= N) by lra. assert (UN : u * (95 / 10 ^ 18) <= u * N) by (apply Rmult_le_compat_l; lra).
  assert (E1 : Rabs (val (nsq L a b c) - N) <= 302 / 100 * (u * N)) by (apply Rabs_le; lra).
  assert (SN : 9 / 10 ^ 9 <= sqrt N). { rewrite <- (sqrt_square (9 / 10 ^ 9)) by lra. apply sqrt_le_1_alt. lra. }
  assert (US : u * (9 / 10 ^ 9) <= u * sqrt N) by (apply Rmult_le_compat_l; lra).
  destruct (sqrt_err _ N (302 / 100) F E1 ltac:(lra) ltac:(lra) ltac:(lra)) as [_ ES].
  repeat split; auto. eapply Rle_trans; [exact ES|]. apply Rmult_le_compat_r; lra.
Qed.

(** Relative errors of positive numbers. *)
Definition rel (a : f64) (r k : R) : Prop := isf a /\ Rabs (val a - r) <= k * (u * r).
Lemma rel_mul a b r s k j : rel a r k -> rel b s j -> 0 < r -> 0 < s -> r * s <= 1000 -> eta <= u * (r * s) / 1000 -> 0 <= k <= 100 -> 0 <= j <= 100 -> rel (a *! b) (r * s) (k + j + 1 + 1 / 100).
Proof.
  intros [Fa Ea] [Fb Eb] R0 S0 B T K J. pose proof u_pos as U. pose proof u_tiny as U1. set (p := r * s) in *. assert (P0 : 0 < p) by (apply Rmult_lt_0_compat; auto).
  pose proof (mul_pert _ _ _ _ _ _ Ea Eb) as D. fold p in D. rewrite (Rabs_pos_eq r), (Rabs_pos_eq s) in D by lra.
  replace (r * (j * (u * s)) + s * (k * (u * r)) + k * (u * r) * (j * (u * s))) with ((k + j + k * j * u) * (u * p)) in D by (unfold p; ring).
  assert (k * j <= 100 * 100) by (apply Rmult_le_compat; lra). assert (0 <= k * j) by (apply Rmult_le_pos; lra). assert (k * j * u <= 100 * 100 * (1 / 10 ^ 15)) by (apply Rmult_le_compat; lra). assert (0 <= k * j * u) by (apply Rmult_le_pos; lra).
  assert (Up : 0 < u * p) by (apply Rmult_lt_0_compat; auto). assert (D' : Rabs (val a * val b - p) <= (k + j + 1 / 1000) * (u * p)) by (eapply Rle_trans; [exact D|]; apply Rmult_le_compat_r; lra).
  assert (E1 : (k + j + 1 / 1000) * (u * p) <= 201 * (1 / 10 ^ 15 * p)). { apply Rmult_le_compat; try lra. apply Rmult_le_compat_r; lra. }
  apply Rabs_ends in D'. assert (Y : Rabs (val a * val b) <= p * (1 + 1 / 1000)) by (apply Rabs_le; lra).
  pose proof big_1. destruct (f_mul a b Fa Fb) as [F V]; [lra|]. split; auto. rewrite V. pose proof (rnd_err (val a * val b)) as E.
  assert (u * Rabs (val a * val b) <= u * (p * (1 + 1 / 1000))) by (apply Rmult_le_compat_l; lra). apply Rabs_ends in E. apply Rabs_le. lra.
Qed.
Lemma rel_exact a r : app a r 0 -> 0 < r -> rel a r 0.
Proof. intros [F E] R0. split; auto. lra. Qed.

Lemma eta_u50 : eta <= u / 10 ^ 50.
Proof. pose proof eta_small. assert (u ^ 10 <= u / 10 ^ 50) by (rewrite u_val; lra). lra. Qed.

(** The coefficient of the branch that takes the angle. *)
Section Coef.
Context (L : libm) (HT : accurate_atan2 L).
Lemma angle_coef w nf n2 m r g : isf w -> isf n2 -> isf nf -> 3 / 10000 <= val w -> 9 / 10 ^ 9 <= m <= 101 / 100 -> r * cos g = val w -> r * sin g = m -> 0 < g < PI / 2 -> Rabs (r - 1) <= 1 / 1000 ->
  Rabs (val n2 - m * m) <= 302 / 100 * (u * (m * m)) -> Rabs (val nf - m) <= 253 / 100 * (u * m) ->
  let c := f_atan2 L ((of_Z 2 /! of_Z 1) *! nf *! w) (w *! w -! n2) /! nf in isf c /\ Rabs (val c - 2 * g / m) <= 130 * u /\ Rabs (2 * g / m) <= 405 / 100.
Proof.
  intros Fw Fn2 Fn W0 M Gc Gs G R1 E2 E1 c. pose proof u_pos as U. pose proof u_tiny as U1. pose proof eta_u50 as T. pose proof eta_pos as T0. pose proof big_1 as BG. apply Rabs_ends in R1. pose proof PI_le as PL.
  assert (RR : r * r = val w * val w + m * m). { rewrite <- Gc, <- Gs. pose proof (sin2_cos2 g) as Q. unfold Rsqr in Q. replace (r * cos g * (r * cos g) + r * sin g * (r * sin g)) with (r * r * (sin g * sin g + cos g * cos g)) by ring. rewrite Q. ring. }
  assert (R2 : 998 / 1000 <= r * r <= 1003 / 1000) by nra. 
  assert (S2 : r * r * sin (2 * g) = 2 * m * val w) by (rewrite sin_2a, <- Gc, <- Gs; ring).
  assert (C2 : r * r * cos (2 * g) = val w * val w - m * m) by (rewrite cos_2a, <- Gc, <- Gs; ring).
  assert (WW : 0 <= val w * val w) by nra. assert (MM : 0 <= m * m) by nra. assert (Wu : val w <= 1002 / 1000) by nra.
  (* numerator *)
  pose proof (rel_exact _ _ (lit_int 2 ltac:(lia)) ltac:(lra)) as L2.
  assert (Un : u * (9 / 10 ^ 9) <= u * m) by (apply Rmult_le_compat_l; lra).
  pose proof (rel_mul _ _ 2 m 0 (253 / 100) L2 (conj Fn E1) ltac:(lra) ltac:(lra) ltac:(lra) ltac:(lra) ltac:(lra) ltac:(lra)) as A1.
  assert (Uw : u * (9 / 10 ^ 9) * (3 / 10000) <= u * m * val w) by (apply Rmult_le_compat; lra).
  assert (Lw : rel w (val w) 0). { split; auto. rewrite Rminus_diag_eq, Rabs_R0 by reflexivity. lra. }
  assert (Bw : 2 * m * val w <= 2 * (101 / 100) * (1002 / 1000)) by (apply Rmult_le_compat; lra).
  pose proof (rel_mul _ _ (2 * m) (val w) (0 + 253 / 100 + 1 + 1 / 100) 0 A1 Lw ltac:(lra) ltac:(lra) ltac:(lra) ltac:(lra) ltac:(lra) ltac:(lra)) as [Fy Ey].
  set (y := (of_Z 2 /! of_Z 1) *! nf *! w) in *.
  assert (Y0 : 0 < 2 * m * val w) by (apply Rmult_lt_0_compat; lra).
  assert (UY : 0 <= u * (2 * m * val w)) by (apply Rmult_le_pos; lra).
  assert (Ey5 : Rabs (val y - r * r * sin (2 * g)) <= 5 * u * (r * r * sin (2 * g))) by (rewrite S2; lra).
  assert (Yp : 0 < val y). { rewrite S2 in Ey5. apply Rabs_ends in Ey5. assert (5 * u * (2 * m * val w) <= 1 / 1000 * (2 * m * val w)) by (apply Rmult_le_compat_r; lra). lra. }
  (* denominator *)
  destruct (f_mul w w Fw Fw) as [Fww Vww]; [rewrite Rabs_pos_eq; nra|]. pose proof (rnd_err (val w * val w)) as Eww. rewrite <- Vww, (Rabs_pos_eq (val w * val w)) in Eww by auto.
  assert (Ur : u * (r * r) = u * (val w * val w) + u * (m * m)) by (rewrite RR; ring). assert (0 <= u * (val w * val w)) by (apply Rmult_le_pos; lra). assert (0 <= u * (m * m)) by (apply Rmult_le_pos; lra).
  assert (Ur1 : u * (998 / 1000) <= u * (r * r)) by (apply Rmult_le_compat_l; lra).
  assert (Ur2 : u * (r * r) <= 1 / 10 ^ 15 * (r * r)) by (apply Rmult_le_compat_r; lra).
  apply Rabs_ends in Eww. pose proof (Rabs_ends _ _ E2) as E2'.
  assert (D1 : Rabs (val (w *! w) - val n2) <= r * r * (1 + 1 / 1000)) by (apply Rabs_le; lra).
  destruct (f_sub _ _ Fww Fn2) as [Fx Vx]; [lra|]. pose proof (rnd_err (val (w *! w) - val n2)) as Ex. rewrite <- Vx in Ex.
  assert (u * Rabs (val (w *! w) - val n2) <= u * (r * r * (1 + 1 / 1000))) by (apply Rmult_le_compat_l; lra). apply Rabs_ends in Ex.
  set (x := w *! w -! n2) in *.
  assert (Ex5 : Rabs (val x - r * r * cos (2 * g)) <= 5 * u * (r * r)) by (rewrite C2; apply Rabs_le; lra).
  (* the angle *)
  pose proof (atan2_pert (val x) (val y) (r * r) (2 * g) (5 * u) ltac:(lra) ltac:(lra) ltac:(lra) Ey5 Ex5) as EA.
  destruct (HT y x Fy Fx Yp) as [Fa Ea]. set (at_ := f_atan2 L y x) in *.
  assert (SG : sin (2 * g) <= 2 * g) by (apply Rlt_le, sin_lt_x; lra).
  assert (Gm : 8 / 10 ^ 9 <= g). { pose proof (sin_lt_x g ltac:(lra)) as Q. assert (r * sin g <= 1001 / 1000 * g). { apply Rmult_le_compat; try lra. apply Rlt_le, sin_gt_0; lra. } lra. }
  assert (EA' : Rabs (Ratan2 (val y) (val x) - 2 * g) <= 25 * u * (2 * g)).
  { eapply Rle_trans; [exact EA|]. replace (5 * (5 * u) * sin (2 * g)) with (25 * u * sin (2 * g)) by ring. apply Rmult_le_compat_l; lra. }
  assert (Ug : u * (8 / 10 ^ 9) <= u * g) by (apply Rmult_le_compat_l; lra). assert (Ug2 : u * g <= 1 / 10 ^ 15 * g) by (apply Rmult_le_compat_r; lra).
  apply Rabs_ends in EA'.
  assert (AB : 2 * u * Rabs (Ratan2 (val y) (val x)) <= 2 * u * (2 * g * (1 + 1 / 1000))) by (apply Rmult_le_compat_l; [lra|]; apply Rabs_le; lra).
  assert (EAt : Rabs (val at_ - 2 * g) <= 2701 / 100 * (u * (2 * g))) by (apply Rabs_ends in Ea; apply Rabs_le; lra).
  (* division by the norm *)
  set (z := 2 * g / m). assert (Z0 : 0 < z) by (apply Rdiv_lt_0_compat; lra).
  assert (Zb : z <= 405 / 100).
  { apply (Rmult_le_reg_r m); [lra|]. unfold z. replace (2 * g / m * m) with (2 * g) by (field; lra). pose proof (sin_half_173 g ltac:(lra)) as Q. assert (999 / 1000 * (g / 2) <= r * sin g) by (apply Rmult_le_compat; lra). lra. }
  assert (EZ : Rabs (val at_ / m - z) <= 2701 / 100 * (u * z)).
  { unfold z. replace (val at_ / m - 2 * g / m) with ((val at_ - 2 * g) / m) by (field; lra). unfold Rdiv at 1. rewrite Rabs_mult, Rabs_inv, (Rabs_pos_eq m) by lra.
    apply (Rmult_le_reg_r m); [lra|]. rewrite Rmult_assoc, Rinv_l, Rmult_1_r by lra. replace (2701 / 100 * (u * (2 * g / m)) * m) with (2701 / 100 * (u * (2 * g))) by (field; lra). exact EAt. }
  assert (Uz : u * z <= u * (405 / 100)) by (apply Rmult_le_compat_l; lra). apply Rabs_ends in EZ.
  assert (ZA : Rabs (val at_ / m) <= 41 / 10) by (apply Rabs_le; lra).
  destruct (quot_err at_ nf m (253 / 100) Fa E1 ltac:(lra) ltac:(lra) ltac:(lra)) as [Fc Ec]. split; [exact Fc|]. fold c in Ec |- *.
  split; [|rewrite Rabs_pos_eq; lra].
  assert (u * Rabs (val at_ / m) <= u * (41 / 10)) by (apply Rmult_le_compat_l; lra). apply Rabs_ends in Ec. apply Rabs_le. lra.
Qed.
End Coef.

Lemma expQ_parts v : length v = 3%nat -> rnorm v <= 314 / 100 -> exists h p0 p1 p2 v0 v1 v2, v = [v0; v1; v2] /\ 0 <= h <= 157 / 100 /\ expQ v = Q4 (cos h) p0 p1 p2 /\ sin h * sin h = p0 * p0 + p1 * p1 + p2 * p2 /\
  (0 < h -> v0 = 2 * h / sin h * p0 /\ v1 = 2 * h / sin h * p1 /\ v2 = 2 * h / sin h * p2) /\ (h = 0 -> v0 = 0 /\ v1 = 0 /\ v2 = 0 /\ p0 = 0 /\ p1 = 0 /\ p2 = 0).
Proof.
  intros Lv Hv. destruct v as [|v0 [|v1 [|v2 [|]]]]; try discriminate. pose proof (rnorm_nonneg [v0; v1; v2]) as P. pose proof (rnorm_sq [v0; v1; v2]) as Q. cbn [rdot] in Q.
  set (t := rnorm [v0; v1; v2]) in *. exists (t / 2). destruct (Req_EM_T t 0) as [Z|Z].
  - exists 0, 0, 0, v0, v1, v2. split; [reflexivity|]. split; [lra|]. split; [unfold expQ; fold t; destruct (Req_EM_T t 0); [|lra]; rewrite Z; replace (0 / 2) with 0 by field; rewrite cos_0; reflexivity|].
    split; [rewrite Z; replace (0 / 2) with 0 by field; rewrite sin_0; ring|]. split; [lra|]. intros _. rewrite Z in Q. repeat split; nra.
  - assert (S0 : 0 < sin (t / 2)) by (pose proof PI_ge; apply sin_gt_0; lra).
    exists (sin (t / 2) / t * v0), (sin (t / 2) / t * v1), (sin (t / 2) / t * v2), v0, v1, v2. split; [reflexivity|]. split; [lra|]. split; [unfold expQ; fold t; destruct (Req_EM_T t 0); [lra|reflexivity]|].
    split. { transitivity (sin (t / 2) * sin (t / 2) / (t * t) * (t * t)); [field; lra|]. rewrite Q at 2. field. lra. }
    split; [|lra]. intros _. repeat split; field; lra.
Qed.

(** The branch without the angle: the vector part is tiny, the real part close to one. *)
Lemma small_coef w q p e : cl w 1 (e + 8 * u) -> 0 <= e <= 1 / 10 ^ 10 -> cl q p e -> Rabs p <= 2 / 10 ^ 8 -> isf ((of_Z 2 /! of_Z 1) /! w *! q) /\ Rabs (val ((of_Z 2 /! of_Z 1) /! w *! q) - 2 * p) <= 3 * e + u.
Proof.
  intros W He Q P. pose proof u_pos as U. pose proof u_tiny as U1. pose proof eta_u50 as T. pose proof big_1 as BG.
  assert (C2 : cl (of_Z 2 /! of_Z 1) 2 0). { destruct (lit_int 2 ltac:(lia)) as [F E]. split; auto. lra. }
  pose proof (cl_div _ _ 2 1 0 (e + 8 * u) (21 / 10 * (e + 8 * u)) 3 C2 W) as D.
  assert (cl (of_Z 2 /! of_Z 1 /! w) 2 (21 / 10 * e + 20 * u)) as [Fc Ec].
  { eapply cl_weak; [eapply cl_eq; [apply D|field]|]; rewrite ?Rabs_R1, ?(Rabs_pos_eq 2), ?(Rabs_pos_eq (2 / 1)) by lra; try lra.
    apply (Rmult_le_reg_r (1 * (1 - (e + 8 * u)))); [lra|]. unfold Rdiv. rewrite Rmult_assoc, Rinv_l by lra. nra. }
  destruct Q as [Fq Eq]. pose proof (mul_pert _ _ _ _ _ _ Ec Eq) as M. rewrite (Rabs_pos_eq 2) in M by lra.
  assert (M1 : Rabs p * (21 / 10 * e + 20 * u) <= 2 / 10 ^ 8 * (21 / 10 * e + 20 * u)) by (apply Rmult_le_compat_r; lra).
  assert (M2 : (21 / 10 * e + 20 * u) * e <= 1 / 1000 * e) by (apply Rmult_le_compat_r; lra).
  assert (M3 : Rabs (val (of_Z 2 /! of_Z 1 /! w) * val q - 2 * p) <= 21 / 10 * e + u / 10000) by lra.
  assert (Y : Rabs (val (of_Z 2 /! of_Z 1 /! w) * val q) <= 1 / 10 ^ 6).
  { replace (val (of_Z 2 /! of_Z 1 /! w) * val q) with ((val (of_Z 2 /! of_Z 1 /! w) * val q - 2 * p) + 2 * p) by ring. eapply Rle_trans; [apply Rabs_triang|]. rewrite (Rabs_mult 2), (Rabs_pos_eq 2) by lra. lra. }
  destruct (f_mul _ _ Fc Fq) as [F V]; [lra|]. split; auto. rewrite V. pose proof (rnd_err (val (of_Z 2 /! of_Z 1 /! w) * val q)) as R.
  assert (u * Rabs (val (of_Z 2 /! of_Z 1 /! w) * val q) <= u * (1 / 10 ^ 6)) by (apply Rmult_le_compat_l; lra).
  apply Rabs_ends in R, M3. apply Rabs_le. lra.
Qed.
Lemma tiny_log h p : 0 <= h <= 4 / 10 ^ 8 -> 0 < sin h -> Rabs p <= 2 / 10 ^ 8 -> 0 < h -> Rabs (2 * h / sin h * p - 2 * p) <= u.
Proof.
  intros H S P H0. pose proof u_pos as U. pose proof (sin_half_173 h ltac:(lra)) as S2. pose proof (sin_cubic h) as C. rewrite (Rabs_pos_eq h) in C by lra. specialize (C ltac:(lra)).
  replace (2 * h / sin h * p - 2 * p) with (2 * p * ((h - sin h) / sin h)) by (field; lra). rewrite !Rabs_mult, (Rabs_pos_eq 2) by lra.
  assert (Q : Rabs ((h - sin h) / sin h) <= 1 / 10 ^ 10).
  { unfold Rdiv. rewrite Rabs_mult, Rabs_inv, (Rabs_pos_eq (sin h)) by lra. apply (Rmult_le_reg_r (sin h)); auto. rewrite Rmult_assoc, Rinv_l, Rmult_1_r by lra.
    assert (h * h <= 4 / 10 ^ 8 * (4 / 10 ^ 8)) by (apply Rmult_le_compat; lra). assert (h * h * h <= 4 / 10 ^ 8 * (4 / 10 ^ 8) * h) by (apply Rmult_le_compat_r; lra). lra. }
  assert (2 * Rabs p * Rabs ((h - sin h) / sin h) <= 2 * (2 / 10 ^ 8) * (1 / 10 ^ 10)) by (apply Rmult_le_compat; auto using Rabs_pos; [apply Rmult_le_pos; [lra|apply Rabs_pos]|lra]).
  assert (4 / 10 ^ 18 <= u) by (rewrite u_val; lra). lra.
Qed.

Section LogQ.
Context (L : libm) (HT : accurate_atan2 L).
Local Notation SK := (F64 L).
Lemma eq_log_f64 out q v e : length out = 3%nat -> length v = 3%nat -> rnorm v <= 314 / 100 -> 0 <= e <= 1 / 10 ^ 10 -> qcl q (expQ v) e ->
  exists w, eq_logarithm (SK:=SK) out q = Ok w /\ Forall (fun a => isf a) w /\ near_v (185 * e + 140 * u) (map val w) v.
Proof.
  intros Lo Lv Hv He Q. destruct (expQ_parts v Lv Hv) as (h & p0 & p1 & p2 & v0 & v1 & v2 & -> & Hh & EX & N & HV & HV0). rewrite EX in Q. destruct Q as (Qw & Q0 & Q1 & Q2). cbn [qw qx qy qz] in *.
  pose proof u_pos as U. pose proof u_tiny as U1. pose proof eta_u50 as T. pose proof eta_pos as T0. pose proof big_1 as BG. pose proof PI_ge as PG.
  assert (Sh : h / 2 <= sin h) by (apply sin_half_173; lra). pose proof (SIN_bound h) as SB.
  assert (CC : 37 / 100000 <= cos h). { rewrite <- sin_shift. pose proof (sin_ge_half2 (PI / 2 - h) ltac:(lra)). lra. }
  assert (Hw : 3 / 10000 <= val (qw q)) by (pose proof (Rabs_ends _ _ (proj2 Qw)); lra).
  assert (PB : forall p, p * p <= sin h * sin h -> Rabs p <= sin h) by (intros p Hp; apply Rabs_le; nra).
  pose proof (PB p0 ltac:(nra)) as B0. pose proof (PB p1 ltac:(nra)) as B1. pose proof (PB p2 ltac:(nra)) as B2.
  set (NN := sq3 (val (qx q)) (val (qy q)) (val (qz q))). assert (NN0 : 0 <= NN) by (unfold NN, sq3; nra).
  pose proof (norm3_close p0 p1 p2 (val (qx q)) (val (qy q)) (val (qz q)) (sin h) (sqrt NN) e ltac:(lra) (sqrt_pos _) N ltac:(rewrite sqrt_sqrt by auto; unfold NN, sq3; ring) (proj2 Q0) (proj2 Q1) (proj2 Q2)) as DM.
  pose proof (sqrt_sqrt _ NN0) as SS. pose proof (sqrt_pos NN) as SP. apply Rabs_ends in DM. set (m := sqrt NN) in *.
  assert (NB : NN <= 2) by nra.
  unfold eq_logarithm, qvec. change (ksqrt (Scalar:=SK) (sqnorm (SK:=SK) [qx q; qy q; qz q])) with (Bsqrt mode_NE (nsq L (qx q) (qy q) (qz q))).
  change (sqnorm (SK:=SK) [qx q; qy q; qz q]) with (nsq L (qx q) (qy q) (qz q)). change (map_prec (SK:=SK)) with (lit8 L). change (kltb (Scalar:=SK)) with (@Bltb 53 1024).
  change (klit (Scalar:=SK) 2 1) with (of_Z 2 /! of_Z 1).
  assert (WZ : keqb (Scalar:=SK) (qw q) (k0 (Scalar:=SK)) = false). { change (Beqb (qw q) (of_Z 0) = false). rewrite Beqb_correct; [|apply Qw|reflexivity]. apply Req_bool_false. change (B2R (of_Z 0)) with 0. change (val (qw q) <> 0). lra. }
  rewrite WZ. cbn [negb]. rewrite andb_true_r.
  destruct out as [|o0 [|o1 [|o2 [|]]]]; try discriminate Lo.
  destruct (Bltb (Bsqrt mode_NE (nsq L (qx q) (qy q) (qz q))) (lit8 L)) eqn:B.
  - pose proof (small_norm L _ _ _ (proj1 Q0) (proj1 Q1) (proj1 Q2) NB B) as NS. fold NN in NS.
    assert (Mm : m <= 11 / 10 ^ 9) by nra. assert (Sm : sin h <= 12 / 10 ^ 9) by lra. assert (Hm : h <= 24 / 10 ^ 9) by lra.
    assert (W1 : cl (qw q) 1 (e + 8 * u)). { split; [apply Qw|]. pose proof (one_cos h) as O. assert (h * h <= 24 / 10 ^ 9 * (24 / 10 ^ 9)) by (apply Rmult_le_compat; lra). assert (3 / 10 ^ 16 <= 8 * u) by (rewrite u_val; lra).
      pose proof (Rabs_ends _ _ (proj2 Qw)). apply Rabs_le. lra. }
    destruct (small_coef _ _ _ e W1 He Q0 ltac:(lra)) as [F0 E0]. destruct (small_coef _ _ _ e W1 He Q1 ltac:(lra)) as [F1 E1]. destruct (small_coef _ _ _ e W1 He Q2 ltac:(lra)) as [F2 E2].
    eexists. split; [reflexivity|]. unfold vscale. cbn [map]. split; [auto|].
    assert (G : Rabs (2 * p0 - v0) <= u /\ Rabs (2 * p1 - v1) <= u /\ Rabs (2 * p2 - v2) <= u).
    { destruct (Req_EM_T h 0) as [Z|Z].
      - destruct (HV0 Z) as (-> & -> & -> & -> & -> & ->). replace (2 * 0 - 0) with 0 by ring. rewrite Rabs_R0. lra.
      - assert (h0 : 0 < h) by lra. destruct (HV h0) as (-> & -> & ->). repeat split; rewrite Rabs_minus_sym; apply tiny_log; lra. }
    destruct G as (G0 & G1 & G2). unfold near_v. change (kdiv (Scalar:=SK)) with (Bdiv (prec:=53) (emax:=1024) mode_NE). change (kmul (Scalar:=SK)) with (Bmult (prec:=53) (emax:=1024) mode_NE).
    apply Rabs_ends in G0, G1, G2, E0, E1, E2. repeat (apply Forall2_cons; [apply Rabs_le; lra|]); apply Forall2_nil.
  - destruct (big_norm L _ _ _ (proj1 Q0) (proj1 Q1) (proj1 Q2) NB B) as (N1 & E2 & E1 & F2 & F1). fold NN in N1, E2, E1. fold m in E1. rewrite <- SS in E2.
    assert (Mm : 97 / 10 ^ 10 <= m) by nra. assert (Sm : 9 / 10 ^ 9 <= sin h) by lra.
    assert (h0 : 0 < h). { pose proof (sin_abs h) as A. rewrite !Rabs_pos_eq in A by lra. lra. }
    destruct (qlog_pert h p0 p1 p2 (val (qw q)) (val (qx q)) (val (qy q)) (val (qz q)) m e ltac:(lra) N SP ltac:(rewrite SS; unfold NN, sq3; ring) (proj2 Qw) (proj2 Q0) (proj2 Q1) (proj2 Q2) ltac:(lra) Sm) as (r & g & _ & M0 & R1 & Gc & Gs & G & W0 & P0 & P1 & P2).
    destruct (angle_coef L HT (qw q) _ _ m r g (proj1 Qw) F2 F1 W0 ltac:(lra) Gc Gs G ltac:(lra) E2 E1) as (Fc & Ec & Bc).
    set (c := f_atan2 L _ _ /! _) in Fc, Ec. eexists. split; [reflexivity|]. unfold vscale. cbn [map].
    change (kdiv (Scalar:=SK)) with (Bdiv (prec:=53) (emax:=1024) mode_NE). change (kmul (Scalar:=SK)) with (Bmult (prec:=53) (emax:=1024) mode_NE). change (ksub (Scalar:=SK)) with (Bminus (prec:=53) (emax:=1024) mode_NE). change (katan2 (Scalar:=SK)) with (f_atan2 L). fold c.
    assert (G3 : forall x, isf x -> Rabs (val x) <= 101 / 100 -> isf (c *! x) /\ Rabs (val (c *! x) - 2 * g / m * val x) <= 139 * u).
    { intros x Fx Bx. set (z := 2 * g / m) in *. assert (D : Rabs (val c * val x - z * val x) <= 132 * u).
      { replace (val c * val x - z * val x) with ((val c - z) * val x) by ring. rewrite Rabs_mult. assert (Rabs (val c - z) * Rabs (val x) <= 130 * u * (101 / 100)) by (apply Rmult_le_compat; auto using Rabs_pos). lra. }
      assert (Z : Rabs (z * val x) <= 41 / 10). { rewrite Rabs_mult. assert (Rabs z * Rabs (val x) <= 405 / 100 * (101 / 100)) by (apply Rmult_le_compat; auto using Rabs_pos). lra. }
      assert (Y : Rabs (val c * val x) <= 42 / 10). { replace (val c * val x) with ((val c * val x - z * val x) + z * val x) by ring. eapply Rle_trans; [apply Rabs_triang|]. lra. }
      destruct (f_mul _ _ Fc Fx) as [F V]; [lra|]. split; auto. rewrite V. pose proof (rnd_err (val c * val x)) as R. assert (u * Rabs (val c * val x) <= u * (42 / 10)) by (apply Rmult_le_compat_l; lra).
      apply Rabs_ends in R, D. apply Rabs_le. lra. }
    assert (BX : forall x p, cl x p e -> Rabs p <= sin h -> Rabs (val x) <= 101 / 100). { intros x p [_ Ex] Hp. apply Rabs_ends in Ex, Hp. apply Rabs_le. lra. }
    destruct (G3 (qx q) (proj1 Q0) (BX _ _ Q0 B0)) as [K0 J0]. destruct (G3 (qy q) (proj1 Q1) (BX _ _ Q1 B1)) as [K1 J1]. destruct (G3 (qz q) (proj1 Q2) (BX _ _ Q2 B2)) as [K2 J2].
    split; [auto|]. destruct (HV h0) as (-> & -> & ->). unfold near_v. apply Rabs_ends in P0, P1, P2, J0, J1, J2. repeat (apply Forall2_cons; [apply Rabs_le; lra|]); apply Forall2_nil.
Qed.
End LogQ.

(** ** x^-1 * y *)
Lemma sqrt_fin_arg (r : f64) : isf (Bsqrt mode_NE r) -> isf r.
Proof. destruct r as [s|s| |s mm ee Hme]; try reflexivity; [destruct s|]; discriminate. Qed.
Lemma entry_le a N : a * a <= N -> 0 <= N <= 1001 / 1000 -> Rabs a <= 1001 / 1000.
Proof. intros H [N0 N1]. apply Rabs_le. split; nra. Qed.

Lemma inv_entry a n N : isf a -> Rabs (val n - N) <= 403 / 100 * (u * N) -> 999 / 1000 <= N <= 1001 / 1000 -> Rabs (val a) <= 1001 / 1000 -> cl (a /! n) (val a / N) (51 / 10 * u) /\ Rabs (val a / N) <= 1003 / 1000.
Proof.
  intros F E HN HA. pose proof u_pos as U. pose proof eta_u50 as T.
  assert (B : Rabs (val a / N) <= 1003 / 1000). { unfold Rdiv. rewrite Rabs_mult, Rabs_inv, (Rabs_pos_eq N) by lra. apply (Rmult_le_reg_r N); [lra|]. rewrite Rmult_assoc, Rinv_l by lra. lra. }
  split; auto. destruct (quot_err a n N (403 / 100) F E ltac:(lra) ltac:(lra) ltac:(lra)) as [F' E']. split; auto. eapply Rle_trans; [exact E'|].
  assert (u * Rabs (val a / N) <= u * (1003 / 1000)) by (apply Rmult_le_compat_l; lra). lra.
Qed.
Lemma prod87 a b r s : cl a r (51 / 10 * u) -> cl b s (82 * u) -> Rabs r <= 1003 / 1000 -> Rabs s <= 1001 / 1000 -> cl (a *! b) (r * s) (885 / 10 * u) /\ Rabs (r * s) <= 1005 / 1000.
Proof.
  intros A B R S. pose proof u_pos as U. pose proof u_tiny as U1.
  assert (Rabs (r * s) <= 1003 / 1000 * (1001 / 1000)) by (apply abs_prod; auto). split; [|lra].
  eapply cl_weak; [apply (cl_mul a b r s (51 / 10 * u) (82 * u) (874 / 10 * u) (101 / 100) A B); try lra|lra].
  assert (Rabs r * (82 * u) <= 1003 / 1000 * (82 * u)) by (apply Rmult_le_compat_r; lra). assert (Rabs s * (51 / 10 * u) <= 1001 / 1000 * (51 / 10 * u)) by (apply Rmult_le_compat_r; lra).
  assert (51 / 10 * u * (82 * u) <= 51 / 10 * (1 / 10 ^ 15) * (82 * u)) by (apply Rmult_le_compat_r; lra). lra.
Qed.
Lemma sum885 L a b c d r s t w (k := 885 / 10 * u) (B := 1005 / 1000) : cl a r k -> cl b s k -> cl c t k -> cl d w k -> Rabs r <= B -> Rabs s <= B -> Rabs t <= B -> Rabs w <= B ->
  cl (sum4 L a b c (Bopp d)) (r + s + t - w) (364 * u) /\ cl (sum4 L a (Bopp b) (Bopp c) (Bopp d)) (r - s - t - w) (364 * u).
Proof.
  intros [Fa Aa] [Fb Ab] [Fc Ac] [Fd Ad] Ba Bb Bc Bd. pose proof u_pos as U. pose proof eta_u as T.
  assert (K : 0 <= k) by (unfold k; lra). assert (HC : k + 4 * (u * (101 / 100)) <= 101 / 100 - B) by (unfold k, B; rewrite u_val; lra). assert (HB : 0 <= B) by (unfold B; lra).
  pose proof (near_opp b s k B ltac:(auto)) as Ob. pose proof (near_opp c t k B ltac:(auto)) as Oc. pose proof (near_opp d w k B ltac:(auto)) as Od.
  destruct (sum4_near L a b c (Bopp d) r s t (- w) k B (101 / 100)) as [F1 E1]; auto; try lra.
  destruct (sum4_near L a (Bopp b) (Bopp c) (Bopp d) r (- s) (- t) (- w) k B (101 / 100)) as [F2 E2]; auto; try lra.
  split; split; auto.
  - replace (r + s + t - w) with (r + s + t + - w) by ring. eapply Rle_trans; [exact E1|]. unfold k. lra.
  - replace (r - s - t - w) with (r + - s + - t + - w) by ring. eapply Rle_trans; [exact E2|]. unfold k. lra.
Qed.

Lemma eq_back L X Y E : qfin X -> Rabs (qn2 (qval X) - 1) <= 1 / 1000 -> qn2 E = 1 -> qapp Y (qprod (qval X) E) 82 -> qcl (qmul (SK:=F64 L) (qinverse (SK:=F64 L) X) Y) E (364 * u).
Proof.
  intros (F0 & F1 & F2 & F3) HN HE (A0 & A1 & A2 & A3). pose proof u_pos as U. pose proof u_tiny as U1. pose proof eta_u50 as T.
  set (Z := qprod (qval X) E) in *. assert (NZ : qn2 Z = qn2 (qval X)) by (unfold Z; rewrite qn2_mul, HE; ring).
  apply Rabs_ends in HN. set (N := qn2 (qval X)) in *. assert (N1 : 999 / 1000 <= N <= 1001 / 1000) by lra.
  assert (EN : sq4 (val (qx X)) (val (qy X)) (val (qz X)) (val (qw X)) = N) by (unfold N, qn2, qval, sq4; cbn [qw qx qy qz]; ring).
  destruct (norm4_err L (qx X) (qy X) (qz X) (qw X) F1 F2 F3 F0) as [Fs _]; [rewrite EN; lra|]. apply sqrt_fin_arg in Fs.
  destruct (dot4_err L _ _ _ _ Fs) as (_ & _ & _ & _ & ED). rewrite EN in ED. set (n2 := sum4 L (qx X *! qx X) (qy X *! qy X) (qz X *! qz X) (qw X *! qw X)) in *.
  assert (UN : u * (999 / 1000) <= u * N <= u * (1001 / 1000)) by (split; apply Rmult_le_compat_l; lra).
  assert (ED' : Rabs (val n2 - N) <= 403 / 100 * (u * N)) by lra. pose proof (Rabs_ends _ _ ED') as EDs.
  unfold qinverse. change (qsqnorm (SK:=F64 L) X) with n2. change (kltb (Scalar:=F64 L) k0 n2) with (Bltb (of_Z 0) n2).
  assert (TB : Bltb (of_Z 0) n2 = true). { rewrite f_ltb by (auto; reflexivity). apply Rlt_bool_true. change (val (of_Z 0)) with 0. lra. } rewrite TB.
  assert (NX : qw (qval X) * qw (qval X) + qx (qval X) * qx (qval X) + qy (qval X) * qy (qval X) + qz (qval X) * qz (qval X) = N) by reflexivity. unfold qval in NX. cbn [qw qx qy qz] in NX.
  pose proof (entry_le (val (qw X)) N ltac:(nra) ltac:(lra)) as B0. pose proof (entry_le (val (qx X)) N ltac:(nra) ltac:(lra)) as B1. pose proof (entry_le (val (qy X)) N ltac:(nra) ltac:(lra)) as B2. pose proof (entry_le (val (qz X)) N ltac:(nra) ltac:(lra)) as B3.
  unfold qn2 in NZ. pose proof (entry_le (qw Z) N ltac:(nra) ltac:(lra)) as Z0. pose proof (entry_le (qx Z) N ltac:(nra) ltac:(lra)) as Z1. pose proof (entry_le (qy Z) N ltac:(nra) ltac:(lra)) as Z2. pose proof (entry_le (qz Z) N ltac:(nra) ltac:(lra)) as Z3.
  destruct (f_opp _ F1) as [O1 V1]. destruct (f_opp _ F2) as [O2 V2]. destruct (f_opp _ F3) as [O3 V3].
  destruct (inv_entry _ _ _ F0 ED' N1 B0) as [I0 J0]. destruct (inv_entry _ _ _ O1 ED' N1 ltac:(rewrite V1, Rabs_Ropp; auto)) as [I1 J1]. destruct (inv_entry _ _ _ O2 ED' N1 ltac:(rewrite V2, Rabs_Ropp; auto)) as [I2 J2]. destruct (inv_entry _ _ _ O3 ED' N1 ltac:(rewrite V3, Rabs_Ropp; auto)) as [I3 J3].
  rewrite V1 in I1, J1. rewrite V2 in I2, J2. rewrite V3 in I3, J3.
  assert (M : forall a b c d r s t w e0 e1 e2 e3 x0 x1 x2 x3, cl a r (51 / 10 * u) -> cl b s (51 / 10 * u) -> cl c t (51 / 10 * u) -> cl d w (51 / 10 * u) -> Rabs r <= 1003 / 1000 -> Rabs s <= 1003 / 1000 -> Rabs t <= 1003 / 1000 -> Rabs w <= 1003 / 1000 ->
     cl e0 x0 (82 * u) -> cl e1 x1 (82 * u) -> cl e2 x2 (82 * u) -> cl e3 x3 (82 * u) -> Rabs x0 <= 1001 / 1000 -> Rabs x1 <= 1001 / 1000 -> Rabs x2 <= 1001 / 1000 -> Rabs x3 <= 1001 / 1000 ->
     cl (sum4 L (a *! e0) (b *! e1) (c *! e2) (Bopp (d *! e3))) (r * x0 + s * x1 + t * x2 - w * x3) (364 * u) /\ cl (sum4 L (a *! e0) (Bopp (b *! e1)) (Bopp (c *! e2)) (Bopp (d *! e3))) (r * x0 - s * x1 - t * x2 - w * x3) (364 * u)).
  { intros. destruct (prod87 a e0 r x0) as [? ?]; auto. destruct (prod87 b e1 s x1) as [? ?]; auto. destruct (prod87 c e2 t x2) as [? ?]; auto. destruct (prod87 d e3 w x3) as [? ?]; auto. apply sum885; auto. }
  assert (EZ : forall f, f (qprod (Q4 (val (qw X) / N) (- val (qx X) / N) (- val (qy X) / N) (- val (qz X) / N)) Z) = f E :> R).
  { intros f. f_equal. unfold Z, N, qprod, qn2, qval. destruct E as [E0 E1 E2 E3]. cbn [qw qx qy qz]. f_equal; field; unfold N, qn2, qval in N1; cbn [qw qx qy qz] in N1; lra. }
  pose proof (EZ (@qw R)) as G0. pose proof (EZ (@qx R)) as G1. pose proof (EZ (@qy R)) as G2. pose proof (EZ (@qz R)) as G3. unfold qprod in G0, G1, G2, G3. cbn [qw qx qy qz] in G0, G1, G2, G3.
  unfold qcl, qmul. cbn [qw qx qy qz kadd ksub ksum kmul kdiv kopp F64].
  split; [eapply cl_eq; [apply (M _ _ _ _ _ _ _ _ _ _ _ _ (qw Z) (qx Z) (qy Z) (qz Z) I0 I1 I2 I3); auto|rewrite <- G0; ring]|].
  split; [eapply cl_eq; [apply (M _ _ _ _ _ _ _ _ _ _ _ _ (qx Z) (qw Z) (qz Z) (qy Z) I0 I1 I2 I3); auto|rewrite <- G1; ring]|].
  split; [eapply cl_eq; [apply (M _ _ _ _ _ _ _ _ _ _ _ _ (qy Z) (qw Z) (qx Z) (qz Z) I0 I2 I3 I1); auto|rewrite <- G2; ring]|].
  eapply cl_eq; [apply (M _ _ _ _ _ _ _ _ _ _ _ _ (qz Z) (qw Z) (qy Z) (qx Z) I0 I3 I1 I2); auto|rewrite <- G3; ring].
Qed.
