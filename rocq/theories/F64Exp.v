(** The argument of the two exponentials in double arithmetic: squared norm, norm, the coefficients of the series and trigonometric branches. *)
From Coq Require Import Reals List Lra Lia ZArith Bool Arith Psatz.
From Flocq Require Import Core BinarySingleNaN.
From Verif Require Import Base Scalar Vec Model_SO3 XR SpecR NumExp F64 F64Err F64Norm F64S2.
Import ListNotations.
Local Open Scope R_scope.

(** What is asked of the C library: cos and sin of doubles up to 4 in absolute value are finite and within
    2^-52 of the exact value, absolutely for cos, relatively to the argument for sin (up to underflow). *)
Definition accurate (L : libm) : Prop := forall a, isf a -> Rabs (val a) <= 4 ->
  isf (f_cos L a) /\ Rabs (val (f_cos L a) - cos (val a)) <= 2 * u /\
  isf (f_sin L a) /\ Rabs (val (f_sin L a) - sin (val a)) <= 2 * u * Rabs (val a) + eta.

Lemma lit_format n d e m : (Z.abs n < 2 ^ 53)%Z -> (Zpos d < 2 ^ 53)%Z -> (Z.abs m < 2 ^ 53)%Z -> (-1074 <= e)%Z -> F2R (Float radix2 m e) = IZR n / IZR (Zpos d) ->
  val (of_Z n /! of_Z (Zpos d)) = IZR n / IZR (Zpos d).
Proof.
  intros Hn Hd Hm He E. destruct (of_Z_ok n Hn) as [Fn Vn]. destruct (of_Z_ok (Zpos d)) as [Fd Vd]; [exact Hd|].
  assert (D1 : 1 <= IZR (Zpos d)) by (apply IZR_le; lia).
  assert (B : Rabs (val (of_Z n) / val (of_Z (Zpos d))) <= big).
  { rewrite Vn, Vd. unfold Rdiv. rewrite Rabs_mult, (Rabs_pos_eq (/ _)) by (apply Rlt_le, Rinv_0_lt_compat; lra). rewrite <- abs_IZR.
    assert (/ IZR (Zpos d) <= 1) by (rewrite <- Rinv_1; apply Rinv_le_contravar; lra). assert (0 < / IZR (Zpos d)) by (apply Rinv_0_lt_compat; lra).
    assert (IZR (Z.abs n) <= bpow radix2 53) by (rewrite <- (IZR_Zpower radix2) by lia; apply IZR_le; change (radix2 ^ 53)%Z with (2 ^ 53)%Z; lia).
    assert (0 <= IZR (Z.abs n)) by (apply IZR_le; lia). apply Rle_trans with (bpow radix2 53); [|apply bpow_le; lia]. nra. }
  destruct (f_div (of_Z n) (of_Z (Zpos d)) Fn ltac:(rewrite Vd; lra) B) as [_ V]. rewrite V, Vn, Vd. unfold rnd. apply round_generic; [typeclasses eauto|].
  rewrite <- E. apply generic_format_FLT. exists (Float radix2 m e); auto.
Qed.

Lemma cos_sq_lip a b : Rabs (cos a - cos b) <= Rabs (a * a - b * b) / 2.
Proof.
  rewrite form2. rewrite !Rabs_mult, (Rabs_left (-2)) by lra.
  assert (S : forall x, Rabs (sin x) <= Rabs x).
  { intros x. destruct (Rle_dec 0 x) as [H|H].
    - destruct (Req_dec x 0) as [->|N]; [rewrite sin_0, Rabs_R0; lra|]. rewrite (Rabs_pos_eq x) by auto. apply Rabs_le. pose proof (sin_lt_x x ltac:(lra)).
      destruct (Rle_dec x 1) as [H1|H1]; [pose proof (sin_ge_0 x H ltac:(pose proof PI2_1; lra)); lra|]. pose proof (SIN_bound x). lra.
    - apply Rnot_le_lt in H. rewrite <- (Rabs_Ropp x), <- (Rabs_Ropp (sin x)), <- sin_neg. rewrite (Rabs_pos_eq (- x)) by lra. apply Rabs_le. pose proof (sin_lt_x (- x) ltac:(lra)).
      destruct (Rle_dec (- x) 1) as [H1|H1]; [pose proof (sin_ge_0 (- x) ltac:(lra) ltac:(pose proof PI2_1; lra)); lra|]. pose proof (SIN_bound (- x)). lra. }
  pose proof (S ((a - b) / 2)) as S1. pose proof (S ((a + b) / 2)) as S2.
  replace (Rabs (a * a - b * b) / 2) with (2 * (Rabs ((a - b) / 2) * Rabs ((a + b) / 2))).
  - replace (- -2) with 2 by ring. rewrite Rmult_assoc. apply Rmult_le_compat_l; [lra|]. apply Rmult_le_compat; auto using Rabs_pos.
  - rewrite <- Rabs_mult. replace (a * a - b * b) with (4 * ((a - b) / 2 * ((a + b) / 2))) by field. rewrite (Rabs_mult 4), (Rabs_pos_eq 4) by lra. field.
Qed.
Lemma sin_abs x : Rabs (sin x) <= Rabs x.
Proof.
  destruct (Rle_dec 0 x) as [H|H].
  - destruct (Req_dec x 0) as [->|N]; [rewrite sin_0, Rabs_R0; lra|]. rewrite (Rabs_pos_eq x) by auto. apply Rabs_le. pose proof (sin_lt_x x ltac:(lra)).
    destruct (Rle_dec x 1) as [H1|H1]; [pose proof (sin_ge_0 x H ltac:(pose proof PI2_1; lra)); lra|]. pose proof (SIN_bound x). lra.
  - apply Rnot_le_lt in H. rewrite <- (Rabs_Ropp x), <- (Rabs_Ropp (sin x)), <- sin_neg. rewrite (Rabs_pos_eq (- x)) by lra. apply Rabs_le. pose proof (sin_lt_x (- x) ltac:(lra)).
    destruct (Rle_dec (- x) 1) as [H1|H1]; [pose proof (sin_ge_0 (- x) ltac:(lra) ltac:(pose proof PI2_1; lra)); lra|]. pose proof (SIN_bound (- x)). lra.
Qed.
Lemma sin_lip a b : Rabs (sin a - sin b) <= Rabs (a - b).
Proof.
  rewrite form4. rewrite !Rabs_mult, (Rabs_pos_eq 2) by lra. pose proof (sin_abs ((a - b) / 2)) as S.
  assert (C : Rabs (cos ((a + b) / 2)) <= 1) by (apply Rabs_le; apply COS_bound).
  replace (Rabs (a - b)) with (2 * Rabs ((a - b) / 2) * 1).
  - pose proof (Rabs_pos (cos ((a + b) / 2))). pose proof (Rabs_pos (sin ((a - b) / 2))). nra.
  - replace (a - b) with (2 * ((a - b) / 2)) at 2 by field. rewrite Rabs_mult, (Rabs_pos_eq 2) by lra. ring.
Qed.
Lemma cos_lip a b : Rabs (cos a - cos b) <= Rabs (a - b).
Proof.
  rewrite form2. rewrite !Rabs_mult, (Rabs_left (-2)) by lra. pose proof (sin_abs ((a - b) / 2)) as S.
  assert (C : Rabs (sin ((a + b) / 2)) <= 1) by (apply Rabs_le; apply SIN_bound).
  replace (Rabs (a - b)) with (2 * Rabs ((a - b) / 2) * 1).
  - pose proof (Rabs_pos (sin ((a + b) / 2))). pose proof (Rabs_pos (sin ((a - b) / 2))). nra.
  - replace (a - b) with (2 * ((a - b) / 2)) at 2 by field. rewrite Rabs_mult, (Rabs_pos_eq 2) by lra. ring.
Qed.

(** The series, with the wider range a rounded comparison leaves. *)
Lemma em_series_wide n : 0 < n < 1 / 1000000 -> let t := sqrt n in
  Rabs (1 - n / 6 - sin t / t) <= n * n / 120 /\ Rabs (1 / 2 - n / 24 - (1 - cos t) / (t * t)) <= n * n / 720.
Proof.
  intros [N0 Hn] t. assert (T0 : 0 < t) by (apply sqrt_lt_R0; auto).
  assert (Tn : t * t = n) by (apply sqrt_sqrt; lra).
  assert (T1 : t < 1) by nra. assert (P : 1 < PI / 2) by (pose proof PI2_1; lra).
  pose proof (sin_taylor5 t ltac:(lra)) as [S1 S2]. pose proof (cos_taylor6 t ltac:(lra) ltac:(lra)) as [C1 C2].
  replace (t ^ 3) with (t * n) in * by (rewrite <- Tn; ring). replace (t ^ 5) with (t * (n * n)) in * by (rewrite <- Tn; ring).
  replace (t ^ 2) with n in * by (rewrite <- Tn; ring). replace (t ^ 4) with (n * n) in * by (rewrite <- Tn; ring).
  replace (t ^ 6) with (n * (n * n)) in * by (rewrite <- Tn; ring).
  rewrite Tn. split.
  - assert (E : sin t / t * t = sin t) by (field; lra). set (s := sin t / t) in *.
    apply Rabs_le. split; apply Rmult_le_reg_r with t; auto; nra.
  - assert (E : (1 - cos t) / n * n = 1 - cos t) by (field; lra). set (s := (1 - cos t) / n) in *.
    apply Rabs_le. split; apply Rmult_le_reg_r with n; auto; nra.
Qed.
Lemma eq_series_wide n : 0 < n < 1 / 1000000 -> let t := sqrt n in
  Rabs (1 + (- 1 + n / 48) * (n / 8) - cos (t / 2)) <= n * n * n / 46080 /\
  Rabs ((1 + (- 1 + n / 80) * n / 24) / 2 - sin (t / 2) / t) <= n * n * n / 645120.
Proof.
  intros [N0 Hn] t. assert (T0 : 0 < t) by (apply sqrt_lt_R0; auto).
  assert (Tn : t * t = n) by (apply sqrt_sqrt; lra).
  assert (T1 : t < 1) by nra. assert (P : 1 < PI / 2) by (pose proof PI2_1; lra).
  set (u := t / 2). assert (Un : u * u = n / 4) by (unfold u; rewrite <- Tn; field). assert (Eu : t = 2 * u) by (unfold u; field).
  pose proof (sin_taylor5 u ltac:(lra)) as [S1 S2]. pose proof (sin_taylor7 u ltac:(lra)) as S3.
  pose proof (cos_taylor6 u ltac:(lra) ltac:(lra)) as [C1 C2].
  replace (u ^ 7) with (u * ((n / 4) * (n / 4) * (n / 4))) in * by (rewrite <- Un; ring).
  replace (u ^ 3) with (u * (n / 4)) in * by (rewrite <- Un; ring). replace (u ^ 5) with (u * ((n / 4) * (n / 4))) in * by (rewrite <- Un; ring).
  replace (u ^ 2) with (n / 4) in * by (rewrite <- Un; ring). replace (u ^ 4) with ((n / 4) * (n / 4)) in * by (rewrite <- Un; ring).
  replace (u ^ 6) with ((n / 4) * ((n / 4) * (n / 4))) in * by (rewrite <- Un; ring).
  split.
  - apply Rabs_le. lra.
  - assert (E : sin u / t * t = sin u) by (field; lra). set (s := sin u / t) in *. rewrite Eu in E.
    assert (U0 : 0 < u) by lra.
    apply Rabs_le. split; apply Rmult_le_reg_r with (2 * u); try lra; rewrite Rmult_minus_distr_r, E; lra.
Qed.

Section Arg.
Variable L : libm.
Local Notation SK := (F64 L).
Local Notation lit8 := (lit8 L).

Lemma lt_pi_fin n : Bltb (Bsqrt mode_NE n) f64_pi = true -> isf n /\ 0 <= val n.
Proof.
  intros H. destruct n as [s|s| |s m e Hb].
  - split; [reflexivity|cbn; lra].
  - destruct s; discriminate H.
  - discriminate H.
  - destruct s; [discriminate H|]. split; [reflexivity|]. cbn [B2R]. apply F2R_ge_0. cbn. lia.
Qed.
Lemma arg_main a b c : Bltb (Bsqrt mode_NE (nsq L a b c)) f64_pi = true -> Bltb (nsq L a b c) lit8 = false ->
  let N := sq3 (val a) (val b) (val c) in let t := sqrt N in
  isf a /\ isf b /\ isf c /\ isf (nsq L a b c) /\ isf (Bsqrt mode_NE (nsq L a b c)) /\ 8 / 1000000000 <= N <= 99 / 10 /\
  Rabs (val (nsq L a b c) - N) <= (302 / 100) * (u * N) /\ Rabs (val (Bsqrt mode_NE (nsq L a b c)) - t) <= (253 / 100) * (u * t).
Proof.
  intros HP H8 N t. destruct (lt_pi_fin _ HP) as [F P0]. destruct (dot3_err L a b c F) as (Fa & Fb & Fc & E). cbv zeta in E. fold N in E. fold (nsq L a b c) in E.
  destruct (lit8_ok L) as [F8 [L1 L2]]. rewrite f_ltb in H8 by auto. assert (G8 : val lit8 <= val (nsq L a b c)) by (destruct (Rlt_bool_spec (val (nsq L a b c)) (val lit8)); [discriminate|auto]).
  pose proof u_pos as U. pose proof eta_small as T. pose proof eta_pos as T0. apply Rabs_ends in E.
  assert (N0 : 0 <= N) by (unfold N, sq3; nra). assert (UN : 0 <= u * N <= N / 1000000) by (assert (u <= 1 / 1000000) by (rewrite u_val; lra); split; nra).
  assert (T1 : u ^ 10 <= u / 10 ^ 40) by (rewrite u_val; cbn [pow]; lra).
  assert (N8 : 8 / 1000000000 <= N). { assert (10 * eta <= 1 / 10000000000) by (assert (u <= 1) by (rewrite u_val; lra); lra). lra. }
  assert (T2 : 10 * eta <= 1 / 1000 * (u * N)). { assert (u * (8 / 1000000000) <= u * N) by (apply Rmult_le_compat_l; lra). lra. }
  assert (E1 : Rabs (val (nsq L a b c) - N) <= 302 / 100 * (u * N)) by (apply Rabs_le; lra).
  assert (S0 : 8 / 1000000000 <= t). { apply Rsqr_incr_0_var; [|apply sqrt_pos]. unfold Rsqr, t. rewrite sqrt_sqrt by lra. lra. }
  assert (T3 : eta <= u * t / 1000). { assert (u * (8 / 1000000000) <= u * t) by (apply Rmult_le_compat_l; lra). lra. }
  destruct (sqrt_err (nsq L a b c) N (302 / 100) F E1 ltac:(lra) ltac:(lra) T3) as [FS ES]. fold t in ES.
  assert (E2 : Rabs (val (Bsqrt mode_NE (nsq L a b c)) - t) <= 253 / 100 * (u * t)) by (eapply Rle_trans; [exact ES|]; apply Rmult_le_compat_r; nra).
  destruct pi_ok as [FP VP]. rewrite f_ltb in HP by auto. apply Rlt_bool_lt' in HP. rewrite VP in HP. apply Rabs_ends in E2.
  assert (TB : t <= 3141593 / 1000000). { assert (u * t <= t / 1000000000) by (assert (u <= 1 / 1000000000) by (rewrite u_val; lra); nra). lra. }
  assert (TT : t * t = N) by (apply sqrt_sqrt; auto).
  repeat split; auto; try (apply Rabs_le; lra). nra.
Qed.
Lemma arg_small a b c : Bltb (Bsqrt mode_NE (nsq L a b c)) f64_pi = true -> Bltb (nsq L a b c) lit8 = true ->
  let N := sq3 (val a) (val b) (val c) in
  isf a /\ isf b /\ isf c /\ isf (nsq L a b c) /\ 0 <= N <= 12 / 1000000000 /\ Rabs (val (nsq L a b c) - N) <= 1 / 1000000 * u.
Proof.
  intros HP H8 N. destruct (lt_pi_fin _ HP) as [F P0]. destruct (dot3_err L a b c F) as (Fa & Fb & Fc & E). cbv zeta in E. fold N in E. fold (nsq L a b c) in E.
  destruct (lit8_ok L) as [F8 [L1 L2]]. rewrite f_ltb in H8 by auto. apply Rlt_bool_lt' in H8.
  pose proof u_pos as U. pose proof eta_small as T. pose proof eta_pos as T0. apply Rabs_ends in E.
  assert (N0 : 0 <= N) by (unfold N, sq3; nra). assert (UN : 0 <= u * N <= N / 1000000) by (assert (u <= 1 / 1000000) by (rewrite u_val; lra); split; nra).
  assert (T1 : u ^ 10 <= u / 10 ^ 40) by (rewrite u_val; cbn [pow]; lra).
  assert (N8 : N <= 12 / 1000000000). { assert (10 * eta <= 1 / 10000000000) by (assert (u <= 1) by (rewrite u_val; lra); lra). lra. }
  repeat split; auto. apply Rabs_le. assert (u * N <= u * (12 / 1000000000)) by (apply Rmult_le_compat_l; lra). lra.
Qed.
End Arg.
