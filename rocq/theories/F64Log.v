(** Logarithm of the matrix map in double arithmetic. *)
From Coq Require Import Reals List Lra Lia ZArith Bool Arith Psatz.
From Flocq Require Import Core BinarySingleNaN.
From Verif Require Import Base Scalar Vec Model_SO3 Model_Manifold SpecR RotR NumVec NumMat NumExp Angle NumLeaf Drift F64 F64Err F64Norm F64S2 F64Exp F64Quat F64Mat F64Mat2.
Import ListNotations.
Local Open Scope R_scope.
Infix "+!" := (Bplus mode_NE) (at level 50, left associativity).
Infix "-!" := (Bminus mode_NE) (at level 50, left associativity).
Infix "*!" := (Bmult mode_NE) (at level 40, left associativity).
Infix "/!" := (Bdiv mode_NE) (at level 40, left associativity).

(** What is asked of acos and atan2: finite and within 2^-52 of the exact value, relatively (up to underflow). *)
Definition accurate_acos (L : libm) : Prop := forall a, isf a -> Rabs (val a) <= 1 ->
  isf (f_acos L a) /\ Rabs (val (f_acos L a) - acos (val a)) <= 2 * u * acos (val a) + eta.

(** [cl a r e]: the double [a] is finite and within [e] of [r]. *)
Definition cl (a : f64) (r e : R) : Prop := isf a /\ Rabs (val a - r) <= e.
Lemma cl_weak a r e f : cl a r e -> e <= f -> cl a r f.
Proof. intros [F H] L. split; auto. lra. Qed.
Lemma cl_eq a r s e : cl a r e -> r = s -> cl a s e.
Proof. intros H <-. exact H. Qed.
Lemma cl_exact a r : isf a -> val a = r -> cl a r 0.
Proof. intros F <-. split; auto. rewrite Rminus_diag_eq, Rabs_R0; auto; lra. Qed.
Lemma app_cl a r k : app a r k -> cl a r (k * u). Proof. auto. Qed.
Lemma u_tiny : u <= 1 / 10 ^ 15. Proof. rewrite u_val. lra. Qed.

Lemma rnd_cl c y r e P : isf c -> val c = rnd y -> Rabs (y - r) <= e -> Rabs y <= P -> cl c r (e + (P + 1 / 1000) * u).
Proof.
  intros F V H HP. split; auto. rewrite V. pose proof (rnd_err y) as E. pose proof eta_u. pose proof u_pos.
  replace (rnd y - r) with ((rnd y - y) + (y - r)) by ring. eapply Rle_trans; [apply Rabs_triang|].
  assert (u * Rabs y <= u * P) by (apply Rmult_le_compat_l; lra). lra.
Qed.
Lemma cl_add a b r s e f P : cl a r e -> cl b s f -> Rabs (r + s) + (e + f) <= P -> P <= 1000 -> cl (a +! b) (r + s) (e + f + (P + 1 / 1000) * u).
Proof.
  intros [Fa Ea] [Fb Eb] HP P1. assert (D : Rabs ((val a + val b) - (r + s)) <= e + f).
  { replace (val a + val b - (r + s)) with ((val a - r) + (val b - s)) by ring. eapply Rle_trans; [apply Rabs_triang|]. lra. }
  assert (Y : Rabs (val a + val b) <= P). { replace (val a + val b) with ((val a + val b - (r + s)) + (r + s)) by ring. eapply Rle_trans; [apply Rabs_triang|]. lra. }
  pose proof big_1. destruct (f_add a b Fa Fb) as [F V]; [lra|]. apply (rnd_cl _ _ _ _ _ F V D Y).
Qed.
Lemma cl_sub a b r s e f P : cl a r e -> cl b s f -> Rabs (r - s) + (e + f) <= P -> P <= 1000 -> cl (a -! b) (r - s) (e + f + (P + 1 / 1000) * u).
Proof.
  intros [Fa Ea] [Fb Eb] HP P1. assert (D : Rabs ((val a - val b) - (r - s)) <= e + f).
  { replace (val a - val b - (r - s)) with ((val a - r) + - (val b - s)) by ring. eapply Rle_trans; [apply Rabs_triang|]. rewrite Rabs_Ropp. lra. }
  assert (Y : Rabs (val a - val b) <= P). { replace (val a - val b) with ((val a - val b - (r - s)) + (r - s)) by ring. eapply Rle_trans; [apply Rabs_triang|]. lra. }
  pose proof big_1. destruct (f_sub a b Fa Fb) as [F V]; [lra|]. apply (rnd_cl _ _ _ _ _ F V D Y).
Qed.
Lemma mul_pert x y r s e f : Rabs (x - r) <= e -> Rabs (y - s) <= f -> Rabs (x * y - r * s) <= Rabs r * f + Rabs s * e + e * f.
Proof.
  intros H G. replace (x * y - r * s) with (r * (y - s) + s * (x - r) + (x - r) * (y - s)) by ring.
  eapply Rle_trans; [apply Rabs_triang|]. eapply Rle_trans; [apply Rplus_le_compat_r, Rabs_triang|]. rewrite !Rabs_mult.
  assert (Rabs r * Rabs (y - s) <= Rabs r * f) by (apply Rmult_le_compat_l; auto using Rabs_pos).
  assert (Rabs s * Rabs (x - r) <= Rabs s * e) by (apply Rmult_le_compat_l; auto using Rabs_pos).
  assert (Rabs (x - r) * Rabs (y - s) <= e * f) by (apply Rmult_le_compat; auto using Rabs_pos). lra.
Qed.
Lemma cl_mul a b r s e f g P : cl a r e -> cl b s f -> Rabs r * f + Rabs s * e + e * f <= g -> Rabs (r * s) + g <= P -> P <= 1000 -> cl (a *! b) (r * s) (g + (P + 1 / 1000) * u).
Proof.
  intros [Fa Ea] [Fb Eb] HG HP P1. pose proof (mul_pert _ _ _ _ _ _ Ea Eb) as D.
  assert (Y : Rabs (val a * val b) <= P). { replace (val a * val b) with ((val a * val b - (r * s)) + (r * s)) by ring. eapply Rle_trans; [apply Rabs_triang|]. lra. }
  pose proof big_1. destruct (f_mul a b Fa Fb) as [F V]; [lra|]. eapply (rnd_cl _ _ _ _ _ F V _ Y). Unshelve. lra.
Qed.
Lemma div_pert x y r s e f : Rabs (x - r) <= e -> Rabs (y - s) <= f -> f < Rabs s -> Rabs (x / y - r / s) <= (Rabs s * e + Rabs r * f) / (Rabs s * (Rabs s - f)).
Proof.
  intros H G L. assert (S0 : 0 < Rabs s) by (pose proof (Rabs_pos (y - s)); lra). assert (s <> 0) by (intros ->; rewrite Rabs_R0 in S0; lra).
  assert (Y : Rabs s - f <= Rabs y). { pose proof (Rabs_triang_inv s (s - y)) as T. replace (s - (s - y)) with y in T by ring. rewrite (Rabs_minus_sym s) in T. lra. }
  assert (y <> 0) by (intros ->; rewrite Rabs_R0 in Y; lra).
  replace (x / y - r / s) with ((s * (x - r) + - (r * (y - s))) / (s * y)) by (field; auto).
  unfold Rdiv at 1. rewrite Rabs_mult, Rabs_inv, Rabs_mult.
  apply Rmult_le_compat; auto using Rabs_pos.
  - apply Rlt_le, Rinv_0_lt_compat, Rmult_lt_0_compat; lra.
  - eapply Rle_trans; [apply Rabs_triang|]. rewrite Rabs_Ropp, !Rabs_mult.
    apply Rplus_le_compat; apply Rmult_le_compat_l; auto using Rabs_pos.
  - apply Rinv_le_contravar; [apply Rmult_lt_0_compat; lra|]. apply Rmult_le_compat_l; lra.
Qed.
Lemma cl_div a b r s e f g P : cl a r e -> cl b s f -> f < Rabs s -> (Rabs s * e + Rabs r * f) / (Rabs s * (Rabs s - f)) <= g -> Rabs (r / s) + g <= P -> P <= 10 ^ 12 -> cl (a /! b) (r / s) (g + (P + 1 / 1000) * u).
Proof.
  intros [Fa Ea] [Fb Eb] HS HG HP P1. pose proof (div_pert _ _ _ _ _ _ Ea Eb HS) as D.
  assert (Y : Rabs (val a / val b) <= P). { replace (val a / val b) with ((val a / val b - (r / s)) + (r / s)) by ring. eapply Rle_trans; [apply Rabs_triang|]. lra. }
  assert (B0 : val b <> 0). { intros E. rewrite E in Eb. replace (0 - s) with (- s) in Eb by ring. rewrite Rabs_Ropp in Eb. lra. }
  pose proof big_1. destruct (f_div a b Fa B0) as [F V]; [lra|]. eapply (rnd_cl _ _ _ _ _ F V _ Y). Unshelve. lra.
Qed.

(** acos away from the ends. *)
Lemma PI_le : PI <= 10 / 3.
Proof.
  apply Rnot_lt_le. intros H. destruct (cos_bound (5 / 3) 0) as [_ U]; try lra. unfold cos_approx, cos_term in U. simpl in U.
  assert (0 < cos (5 / 3)) by (apply cos_gt_0; lra). lra.
Qed.
Lemma sin_ge_half2 h : 0 <= h <= PI / 2 -> h <= 2 * sin h.
Proof.
  intros H. pose proof PI2_1 as P1. pose proof PI_le as P4.
  destruct (Rle_dec h 1) as [L|L]; [pose proof (sin_ge_half h); lra|].
  assert (sin 1 <= sin h) by (apply sin_incr_1; lra).
  destruct (sin_bound 1 0) as [U _]; try lra. unfold sin_approx, sin_term in U. simpl in U. lra.
Qed.
Lemma acos_pert c t e : 0 < t < PI -> Rabs (c - cos t) <= e -> -1 <= c <= 1 -> Rabs (acos c - t) <= 4 * e / sin t.
Proof.
  intros Ht He Hc. set (a := acos c). pose proof (acos_bound c) as Ba. fold a in Ba.
  assert (Ca : cos a = c) by (apply cos_acos; lra). rewrite <- Ca in He.
  assert (St : 0 < sin t) by (apply sin_gt_0; lra). 
  replace t with (2 * (t / 2)) in St at 1 by lra. rewrite sin_2a in St.
  set (p := (a + t) / 2). set (h := (a - t) / 2).
  assert (E : cos a - cos t = - 2 * (sin p * sin h)).
  { replace a with (p + h) by (unfold p, h; field). replace t with (p - h) by (unfold p, h; field). rewrite cos_plus, cos_minus. ring. }
  rewrite E, Rabs_mult, Rabs_mult in He. rewrite (Rabs_left (-2)) in He by lra.
  assert (Ct : 0 < cos (t / 2)) by (apply cos_gt_0; lra). assert (Sh : 0 < sin (t / 2)) by (apply sin_gt_0; lra).
  assert (C1 : cos (t / 2) <= 1) by apply COS_bound. assert (S1 : sin (t / 2) <= 1) by apply SIN_bound.
  assert (M : sin (t / 2) * cos (t / 2) <= sin p).
  { destruct (Rle_dec p (PI / 2)) as [L|L].
    - assert (sin (t / 2) <= sin p) by (apply sin_incr_1; unfold p in *; lra). nra.
    - assert (cos (t / 2) <= sin p). { rewrite <- sin_shift. rewrite <- (sin_PI_x p). apply sin_incr_1; unfold p in *; lra. } nra. }
  assert (J : Rabs h <= 2 * Rabs (sin h)).
  { destruct (Rle_dec 0 h) as [L|L].
    - rewrite !Rabs_pos_eq; auto; [apply sin_ge_half2; unfold h in *; lra|apply sin_ge_0; unfold h in *; lra].
    - rewrite (Rabs_left h) by lra. rewrite (Rabs_left (sin h)).
      + rewrite <- sin_neg. apply sin_ge_half2. unfold h in *; lra.
      + rewrite <- (Ropp_involutive h), sin_neg. assert (0 < sin (- h)) by (apply sin_gt_0; unfold h in *; lra). lra. }
  replace t with (2 * (t / 2)) at 2 by lra. rewrite sin_2a.
  replace (a - t) with (2 * h) by (unfold h; field). rewrite Rabs_mult, (Rabs_pos_eq 2) by lra.
  assert (P : 0 < sin (t / 2) * cos (t / 2)) by nra. set (m := sin (t / 2) * cos (t / 2)) in *.
  replace (2 * sin (t / 2) * cos (t / 2)) with (2 * m) by (unfold m; ring).
  apply (Rmult_le_reg_r (2 * m)); [lra|]. replace (4 * e / (2 * m) * (2 * m)) with (4 * e) by (field; lra).
  rewrite (Rabs_pos_eq (sin p)) in He by lra. pose proof (Rabs_pos (sin h)). pose proof (Rabs_pos h).
  assert (m * Rabs (sin h) <= sin p * Rabs (sin h)) by (apply Rmult_le_compat_r; lra).
  assert (2 * Rabs h * (2 * m) <= 2 * (2 * Rabs (sin h)) * (2 * m)) by (apply Rmult_le_compat_r; lra). lra.
Qed.

(** t / sin t is flat near 0. *)
Lemma sin_half_173 a : 0 <= a <= 173 / 100 -> a / 2 <= sin a.
Proof. intros H. pose proof PI2_1. destruct (sin_taylor5 a) as [T _]; [lra|]. assert (a * a <= 173 / 100 * (173 / 100)) by (apply Rmult_le_compat; lra). nra. Qed.
Lemma one_cos h : 0 <= 1 - cos h <= h * h / 2.
Proof. pose proof (cos_sq_lip h 0) as H. pose proof (COS_bound h). rewrite cos_0 in H. apply Rabs_ends in H. rewrite Rmult_0_l, Rminus_0_r, Rabs_pos_eq in H by nra. lra. Qed.
Lemma sin_cubic h : Rabs h <= 1 -> Rabs (h - sin h) <= Rabs h * Rabs h * Rabs h / 6.
Proof.
  assert (P : forall h, 0 <= h <= 1 -> 0 <= h - sin h <= h * h * h / 6).
  { intros x Hx. pose proof PI2_1. destruct (sin_taylor5 x) as [T _]; [lra|]. pose proof (sin_abs x) as A. rewrite (Rabs_pos_eq x) in A by lra. apply Rabs_ends in A. simpl in T. lra. }
  intros H. destruct (Rle_dec 0 h) as [G|G].
  - rewrite (Rabs_pos_eq h) in * by lra. specialize (P h ltac:(lra)). rewrite Rabs_pos_eq; lra.
  - rewrite (Rabs_left h) in * by lra. specialize (P (- h) ltac:(lra)). rewrite sin_neg in P. rewrite Rabs_left1; lra.
Qed.
Lemma tsin_flat t a : 0 < t <= PI / 2 -> 0 < a <= 173 / 100 -> Rabs (a - t) <= t / 2 -> Rabs (a / (2 * sin a) - t / (2 * sin t)) <= 4 * t * Rabs (a - t).
Proof.
  intros Ht Ha Hh. pose proof PI_le as PL. set (h := a - t) in *.
  pose proof (sin_half_173 a ltac:(lra)) as Sa. pose proof (sin_half_173 t ltac:(lra)) as St. pose proof (Rabs_pos h) as Ph.
  assert (N : Rabs (a * sin t - t * sin a) <= 8 / 10 * t * t * t * Rabs h).
  { replace a with (t + h) by (unfold h; ring). rewrite sin_plus.
    replace ((t + h) * sin t - t * (sin t * cos h + cos t * sin h)) with (h * (sin t - t * cos t) + t * sin t * (1 - cos h) + t * cos t * (h - sin h)) by ring.
    assert (B1 : Rabs (sin t - t * cos t) <= t * t * t / 2).
    { pose proof (one_cos t) as C. destruct (sin_taylor5 t) as [T _]; [lra|]. simpl in T. pose proof (sin_abs t) as A. rewrite (Rabs_pos_eq t) in A by lra. apply Rabs_ends in A.
      assert (t * (1 - cos t) <= t * (t * t / 2)) by (apply Rmult_le_compat_l; lra). assert (0 <= t * (1 - cos t)) by (apply Rmult_le_pos; lra). apply Rabs_le. nra. }
    pose proof (one_cos h) as C. pose proof (sin_cubic h ltac:(lra)) as D. pose proof (sin_abs t) as A. rewrite (Rabs_pos_eq t) in A by lra. pose proof (COS_bound t).
    assert (HH : h * h = Rabs h * Rabs h) by (rewrite <- Rabs_mult, Rabs_pos_eq; nra). rewrite HH in C.
    eapply Rle_trans; [apply Rabs_triang|]. eapply Rle_trans; [apply Rplus_le_compat_r, Rabs_triang|]. rewrite !Rabs_mult, (Rabs_pos_eq t), (Rabs_pos_eq (1 - cos h)) by lra.
    assert (Ct : Rabs (cos t) <= 1) by (apply Rabs_le; lra). set (H' := Rabs h) in *. clearbody H'.
    assert (U1 : H' * Rabs (sin t - t * cos t) <= H' * (t * t * t / 2)) by (apply Rmult_le_compat_l; lra).
    assert (U2 : t * Rabs (sin t) * (1 - cos h) <= t * t * (H' * H' / 2)) by (apply Rmult_le_compat; try lra; [apply Rmult_le_pos; auto using Rabs_pos; lra|apply Rmult_le_compat_l; lra]).
    assert (U3 : t * Rabs (cos t) * Rabs (h - sin h) <= t * 1 * (H' * H' * H' / 6)) by (apply Rmult_le_compat; auto using Rabs_pos; [apply Rmult_le_pos; auto using Rabs_pos; lra|apply Rmult_le_compat_l; lra]).
    assert (V2 : t * t * (H' * H' / 2) <= t * t * (H' * (t / 2) / 2)) by (apply Rmult_le_compat_l; [nra|]; assert (H' * H' <= H' * (t / 2)) by (apply Rmult_le_compat_l; lra); lra).
    assert (V3 : t * 1 * (H' * H' * H' / 6) <= t * 1 * (H' * ((t / 2) * (t / 2)) / 6)). { apply Rmult_le_compat_l; [lra|]. assert (H' * H' <= t / 2 * (t / 2)) by (apply Rmult_le_compat; lra). assert (H' * (H' * H') <= H' * (t / 2 * (t / 2))) by (apply Rmult_le_compat_l; lra). lra. }
    assert (0 <= H' * (t * t * t)) by (apply Rmult_le_pos; [lra|]; apply Rmult_le_pos; nra). lra. }
  replace (a / (2 * sin a) - t / (2 * sin t)) with ((a * sin t - t * sin a) / (2 * sin a * sin t)) by (field; lra).
  assert (A2 : t / 2 <= a) by (unfold h in Hh; apply Rabs_ends in Hh; lra).
  assert (DD : t * t / 4 <= 2 * sin a * sin t). { assert (t / 4 * (t / 2) <= sin a * sin t) by (apply Rmult_le_compat; lra). lra. }
  unfold Rdiv at 1. rewrite Rabs_mult, Rabs_inv, (Rabs_pos_eq (2 * sin a * sin t)) by nra.
  apply Rle_trans with ((8 / 10 * t * t * t * Rabs h) * / (t * t / 4)).
  - apply Rmult_le_compat; auto using Rabs_pos; [apply Rlt_le, Rinv_0_lt_compat; nra|apply Rinv_le_contravar; nra].
  - replace (8 / 10 * t * t * t * Rabs h * / (t * t / 4)) with (32 / 10 * t * Rabs h) by (field; lra). apply Rmult_le_compat_r; lra.
Qed.

Definition mcl (A : m3 f64) (B : m3 R) (e : R) : Prop :=
  cl (a00 A) (a00 B) e /\ cl (a01 A) (a01 B) e /\ cl (a02 A) (a02 B) e /\ cl (a10 A) (a10 B) e /\ cl (a11 A) (a11 B) e /\ cl (a12 A) (a12 B) e /\
  cl (a20 A) (a20 B) e /\ cl (a21 A) (a21 B) e /\ cl (a22 A) (a22 B) e.

Lemma cl_sum3 L a b c r s t e P Q : cl a r e -> cl b s e -> cl c t e -> Rabs (r + s) + 2 * e <= P -> Rabs (r + t) + 2 * e <= P -> Rabs (s + t) + 2 * e <= P ->
  Rabs (r + s + t) + 3 * e + (P + 1 / 1000) * u <= Q -> P <= 1000 -> Q <= 1000 -> cl (sum3 L a b c) (r + s + t) (3 * e + (P + Q + 2 / 1000) * u).
Proof.
  intros Ha Hb Hc H1 H2 H3 H HP HQ.
  assert (T : forall a b c r s t, cl a r e -> cl b s e -> cl c t e -> Rabs (r + s) + 2 * e <= P -> Rabs (r + s + t) + 3 * e + (P + 1 / 1000) * u <= Q -> cl (a +! b +! c) (r + s + t) (3 * e + (P + Q + 2 / 1000) * u)).
  { clear - HP HQ. intros a b c r s t Ha Hb Hc H1 H. eapply cl_weak; [apply (cl_add _ _ _ _ _ _ Q (cl_add _ _ _ _ _ _ P Ha Hb ltac:(lra) HP) Hc); lra|lra]. }
  apply sum3_ind; [apply T; auto|replace (r + s + t) with (r + t + s) by ring; apply T; auto|replace (r + s + t) with (s + t + r) by ring; apply T; auto].
  - replace (r + t + s) with (r + s + t) by ring. auto.
  - replace (s + t + r) with (r + s + t) by ring. auto.
Qed.
Lemma cl_sq a A e : cl a A e -> Rabs A <= 1 -> 0 <= e <= 1 / 100 -> cl (a *! a) (A * A) (201 / 100 * e + 11 / 10 * u).
Proof.
  intros H B He. pose proof u_pos. assert (P : Rabs (A * A) <= 1) by (rewrite Rabs_mult; pose proof (Rabs_pos A); nra).
  eapply cl_weak; [apply (cl_mul _ _ _ _ _ _ (201 / 100 * e) (103 / 100) H H)|]; try lra. pose proof (Rabs_pos A). nra.
Qed.
Lemma norm_big L a b c A B C e s2 : cl a A e -> cl b B e -> cl c C e -> Rabs A <= 1 -> Rabs B <= 1 -> Rabs C <= 1 -> 0 <= e -> 100 * e <= s2 -> 2000 * u <= s2 -> s2 <= 1 ->
  8 / 9 * s2 <= A * A + B * B + C * C -> Bltb (Bsqrt mode_NE (nsq L a b c)) (lit8 L) = false.
Proof.
  intros Ha Hb Hc BA BB BC He E1 E2 E3 HN. pose proof u_pos as U. pose proof u_tiny as U1.
  pose proof (cl_sq _ _ _ Ha BA ltac:(lra)) as QA. pose proof (cl_sq _ _ _ Hb BB ltac:(lra)) as QB. pose proof (cl_sq _ _ _ Hc BC ltac:(lra)) as QC.
  assert (P : forall x, Rabs x <= 1 -> 0 <= x * x <= 1) by (intros x Hx; apply Rabs_ends in Hx; nra).
  pose proof (P _ BA). pose proof (P _ BB). pose proof (P _ BC).
  pose proof (cl_sum3 L _ _ _ _ _ _ _ (21 / 10) (32 / 10) QA QB QC ltac:(rewrite Rabs_pos_eq; lra) ltac:(rewrite Rabs_pos_eq; lra) ltac:(rewrite Rabs_pos_eq; lra) ltac:(rewrite Rabs_pos_eq; lra) ltac:(lra) ltac:(lra)) as Q.
  fold (nsq L a b c) in Q. destruct Q as [F Q].
  apply Rabs_ends in Q. set (N := A * A + B * B + C * C) in *. set (n := nsq L a b c) in *.
  assert (V : 8 / 10 * s2 <= val n) by lra.
  destruct (f_sqrt n F ltac:(lra)) as [Fs Vs]. destruct (lit8_tight L) as [F8 V8]. rewrite f_ltb by auto.
  assert (S : 3 / 10 ^ 7 <= sqrt (val n)). { rewrite <- (sqrt_square (3 / 10 ^ 7)) by lra. apply sqrt_le_1_alt. rewrite u_val in E2. lra. }
  pose proof (rnd_err (sqrt (val n))) as R. rewrite Rabs_pos_eq with (x := sqrt (val n)) in R by lra. apply Rabs_ends in R.
  pose proof eta_u. apply Rlt_bool_false. rewrite Vs. assert (u * sqrt (val n) <= 1 / 10 ^ 15 * sqrt (val n)) by (apply Rmult_le_compat_r; lra). lra.
Qed.

Section Log.
Variable L : libm.
Hypothesis HL : accurate L.
Hypothesis HA : accurate_acos L.
Local Notation SK := (F64 L).

(** The coefficient acos(c) / (2 sin(acos(c))). *)
Lemma coeff_f64 c th e : 0 < th < PI -> let s := sin th in cl c (cos th) e -> 0 <= e -> 32 * e <= s * s -> 400 * u <= s * s ->
  let a := f_acos L c in let k := a /! ((of_Z 2 /! of_Z 1) *! f_sin L a) in
  cl k (th / (2 * s)) (16 * e / (s * s * s) + 70 * u / (s * s)) /\ Rabs (th / (2 * s)) <= 17 / 10 / s.
Proof.
  intros Ht s [Fc Ec] He E1 E2 a k. pose proof u_pos as U. pose proof u_tiny as U1. pose proof eta_u as T. pose proof PI_le as PL.
  assert (S0 : 0 < s) by (apply sin_gt_0; lra). assert (S1 : s <= 1) by apply SIN_bound.
  assert (SS : 0 < s * s <= s) by nra.
  assert (CC : cos th * cos th + s * s = 1) by (pose proof (sin2_cos2 th) as Q; unfold Rsqr in Q; fold s in Q; lra).
  assert (CB : Rabs (val c) <= 1).
  { apply Rabs_ends in Ec. assert (Rabs (cos th) <= 1 - s * s / 2). { apply Rabs_le. split; nra. } apply Rabs_ends in H. apply Rabs_le. lra. }
  destruct (HA c Fc CB) as [Fa Ea]. fold a in Fa, Ea.
  pose proof (acos_pert (val c) th e Ht Ec (Rabs_ends _ _ CB)) as Ap. fold s in Ap. pose proof (acos_bound (val c)) as Ab.
  set (e2 := 4 * e / s + 8 * u).
  assert (Ca : cl a th e2).
  { split; auto. unfold e2. replace (val a - th) with ((val a - acos (val c)) + (acos (val c) - th)) by ring. eapply Rle_trans; [apply Rabs_triang|].
    assert (2 * u * acos (val c) <= 2 * u * (10 / 3)) by (apply Rmult_le_compat_l; lra). lra. }
  assert (Q1 : 4 * e / s <= s / 8). { apply (Rmult_le_reg_r s); auto. unfold Rdiv. rewrite Rmult_assoc, Rinv_l by lra. lra. }
  assert (Q0 : 0 <= 4 * e / s) by (apply Rmult_le_pos; [lra|apply Rlt_le, Rinv_0_lt_compat; auto]).
  assert (E20 : 0 <= e2) by (unfold e2; lra). assert (E2s : e2 <= s / 8 + s / 50) by (unfold e2; lra).
  assert (A4 : Rabs (val a) <= 4). { destruct Ca as [_ Ca]. apply Rabs_ends in Ca. apply Rabs_le. lra. }
  destruct (HL a Fa A4) as (_ & _ & Fs & Es).
  set (e3 := e2 + 9 * u).
  assert (Cs : cl (f_sin L a) s e3).
  { split; auto. unfold e3. replace (val (f_sin L a) - s) with ((val (f_sin L a) - sin (val a)) + (sin (val a) - sin th)) by (unfold s; ring). eapply Rle_trans; [apply Rabs_triang|].
    pose proof (sin_lip (val a) th). destruct Ca as [_ Ca]. assert (2 * u * Rabs (val a) <= 2 * u * 4) by (apply Rmult_le_compat_l; lra). lra. }
  assert (C2 : cl (of_Z 2 /! of_Z 1) 2 0). { eapply cl_weak; [apply (lit_int 2 ltac:(lia))|lra]. }
  assert (Cd : cl ((of_Z 2 /! of_Z 1) *! f_sin L a) (2 * s) (2 * e3 + 24 / 10 * u)).
  { eapply cl_weak; [apply (cl_mul _ _ _ _ _ _ (2 * e3) (238 / 100) C2 Cs); [rewrite (Rabs_pos_eq 2) by lra|rewrite (Rabs_pos_eq (2 * s)) by lra|]|]; unfold e3 in *; try lra. }
  assert (B : Rabs (th / (2 * s)) <= 17 / 10 / s).
  { rewrite Rabs_pos_eq by (apply Rmult_le_pos; [lra|apply Rlt_le, Rinv_0_lt_compat; lra]). apply (Rmult_le_reg_r (2 * s)); [lra|]. replace (th / (2 * s) * (2 * s)) with th by (field; lra). replace (17 / 10 / s * (2 * s)) with (34 / 10) by (field; lra). lra. }
  split; auto.
  set (f := 2 * e3 + 24 / 10 * u) in *. assert (Fs' : f <= s / 2) by (unfold f, e3; lra). assert (F0 : 0 <= f) by (unfold f, e3; lra).
  set (g := (2 * s * e2 + 10 / 3 * f) / (3 * (s * s))).
  assert (G : (Rabs (2 * s) * e2 + Rabs th * f) / (Rabs (2 * s) * (Rabs (2 * s) - f)) <= g).
  { rewrite (Rabs_pos_eq (2 * s)), (Rabs_pos_eq th) by lra. unfold g, Rdiv. apply Rmult_le_compat.
    - assert (0 <= s * e2) by (apply Rmult_le_pos; lra). assert (0 <= th * f) by (apply Rmult_le_pos; lra). lra.
    - apply Rlt_le, Rinv_0_lt_compat, Rmult_lt_0_compat; lra.
    - assert (th * f <= 10 / 3 * f) by (apply Rmult_le_compat_r; lra). lra.
    - apply Rinv_le_contravar; [lra|]. assert (2 * s * (3 / 2 * s) <= 2 * s * (2 * s - f)) by (apply Rmult_le_compat_l; lra). lra. }
  assert (GB : g <= 14 * e / (s * s * s) + 50 * u / (s * s)).
  { unfold g. apply (Rmult_le_reg_r (3 * (s * s))); [lra|]. unfold Rdiv at 1. rewrite Rmult_assoc, Rinv_l, Rmult_1_r by lra.
    replace ((14 * e / (s * s * s) + 50 * u / (s * s)) * (3 * (s * s))) with (42 * (e / s) + 150 * u) by (field; lra).
    unfold f, e3, e2. replace (4 * e / s) with (4 * (e / s)) by (field; lra). assert (0 <= e / s) by (apply Rmult_le_pos; [lra|apply Rlt_le, Rinv_0_lt_compat; lra]).
    set (x := e / s) in *. assert (s * (4 * x + 8 * u) <= 1 * (4 * x + 8 * u)) by (apply Rmult_le_compat_r; lra). lra. }
  assert (I1 : 1 <= / s) by (rewrite <- Rinv_1 at 1; apply Rinv_le_contravar; lra).
  assert (I2 : / (s * s) = / s * / s) by (field; lra).
  assert (GP : g <= 2 / s).
  { eapply Rle_trans; [exact GB|]. apply (Rmult_le_reg_r (s * s)); [lra|]. replace (2 / s * (s * s)) with (2 * s) by (field; lra).
    replace ((14 * e / (s * s * s) + 50 * u / (s * s)) * (s * s)) with (14 * e / s + 50 * u) by (field; lra).
    assert (14 * e / s <= s). { apply (Rmult_le_reg_r s); auto. unfold Rdiv. rewrite Rmult_assoc, Rinv_l by lra. lra. } lra. }
  assert (SI : / s <= 1000000000). { assert (1 / 10 ^ 9 <= s) by (rewrite u_val in E2; nra). replace 1000000000 with (/ (1 / 10 ^ 9)) by field. apply Rinv_le_contravar; lra. }
  eapply cl_weak; [apply (cl_div _ _ _ _ _ _ g (4 / s) Ca Cd); rewrite ?(Rabs_pos_eq (2 * s)) by lra|]; try lra.
  - rewrite (Rabs_pos_eq (2 * s)) in G by lra. exact G.
  - assert ((4 / s + 1 / 1000) * u <= 20 * u / (s * s)).
    { unfold Rdiv. rewrite I2. assert (/ s * 1 <= / s * / s) by (apply Rmult_le_compat_l; lra). assert ((4 * / s + 1 * / 1000) * u <= (5 * (/ s * / s)) * u) by (apply Rmult_le_compat_r; lra). assert (0 <= / s * / s) by lra. nra. }
    assert (0 <= e / (s * s * s)). { apply Rmult_le_pos; [lra|]. apply Rlt_le, Rinv_0_lt_compat. nra. }
    replace (16 * e / (s * s * s)) with (16 * (e / (s * s * s))) by (field; lra). replace (14 * e / (s * s * s)) with (14 * (e / (s * s * s))) in GB by (field; lra).
    replace (70 * u / (s * s)) with (50 * u / (s * s) + 20 * u / (s * s)) by (field; lra). lra.
Qed.

Lemma coeff_small c th e : 0 < th <= PI / 2 -> let s := sin th in cl c (cos th) e -> 0 <= e -> 100 * e <= s * s -> 400 * u <= s * s ->
  let a := f_acos L c in let k := a /! ((of_Z 2 /! of_Z 1) *! f_sin L a) in
  cl k (th / (2 * s)) (32 * e + 75 * u) /\ Rabs (th / (2 * s)) <= 1.
Proof.
  intros Ht s [Fc Ec] He E1 E2 a k. pose proof u_pos as U. pose proof u_tiny as U1. pose proof eta_u as T. pose proof PI_le as PL. pose proof PI2_1 as P2.
  assert (S0 : 0 < s) by (apply sin_gt_0; lra). assert (S1 : s <= 1) by apply SIN_bound.
  assert (St : th / 2 <= s) by (apply sin_half_173; lra). assert (St2 : s <= th) by (pose proof (sin_abs th) as Q; fold s in Q; rewrite !Rabs_pos_eq in Q by lra; exact Q).
  assert (SS : 0 < s * s <= s) by nra.
  assert (CC : cos th * cos th + s * s = 1) by (pose proof (sin2_cos2 th) as Q; unfold Rsqr in Q; fold s in Q; lra).
  assert (CB : Rabs (val c) <= 1).
  { apply Rabs_ends in Ec. assert (Rabs (cos th) <= 1 - s * s / 2). { apply Rabs_le. split; nra. } apply Rabs_ends in H. apply Rabs_le. lra. }
  destruct (HA c Fc CB) as [Fa Ea]. fold a in Fa, Ea.
  pose proof (acos_pert (val c) th e ltac:(lra) Ec (Rabs_ends _ _ CB)) as Ap. fold s in Ap. pose proof (acos_bound (val c)) as Ab.
  set (e2 := 4 * e / s + 8 * u).
  assert (Ca : Rabs (val a - th) <= e2).
  { unfold e2. replace (val a - th) with ((val a - acos (val c)) + (acos (val c) - th)) by ring. eapply Rle_trans; [apply Rabs_triang|].
    assert (2 * u * acos (val c) <= 2 * u * (10 / 3)) by (apply Rmult_le_compat_l; lra). lra. }
  assert (Q1 : 4 * e / s <= s / 25). { apply (Rmult_le_reg_r s); auto. unfold Rdiv. rewrite Rmult_assoc, Rinv_l by lra. lra. }
  assert (Q0 : 0 <= 4 * e / s) by (apply Rmult_le_pos; [lra|apply Rlt_le, Rinv_0_lt_compat; auto]).
  assert (E20 : 0 <= e2) by (unfold e2; lra). assert (E2s : e2 <= s / 25 + s / 50) by (unfold e2; lra).
  assert (Ta : th * e2 <= 8 * e + 16 * u).
  { unfold e2. assert (th / s <= 2). { apply (Rmult_le_reg_r s); auto. unfold Rdiv. rewrite Rmult_assoc, Rinv_l by lra. lra. }
    replace (th * (4 * e / s + 8 * u)) with (4 * e * (th / s) + 8 * u * th) by (field; lra).
    assert (4 * e * (th / s) <= 4 * e * 2) by (apply Rmult_le_compat_l; lra). assert (8 * u * th <= 8 * u * 2) by (apply Rmult_le_compat_l; lra). lra. }
  set (A := val a) in *. pose proof (Rabs_ends _ _ Ca) as Ca'.
  assert (A1 : 9 / 10 * th <= A <= 173 / 100) by lra.
  pose proof (tsin_flat th A Ht ltac:(lra) ltac:(lra)) as G. fold s in G.
  assert (G' : Rabs (A / (2 * sin A) - th / (2 * s)) <= 32 * e + 64 * u).
  { eapply Rle_trans; [exact G|]. assert (4 * th * Rabs (A - th) <= 4 * (th * e2)) by (rewrite Rmult_assoc; apply Rmult_le_compat_l; [lra|]; apply Rmult_le_compat_l; lra). lra. }
  pose proof (sin_half_173 A ltac:(lra)) as SA. set (sA := sin A) in *. assert (SA1 : sA <= 1) by apply SIN_bound.
  assert (SI : 1 / 10 ^ 9 <= s) by (rewrite u_val in E2; nra).
  assert (Z : 1000 * eta <= u * sA). { pose proof eta_small as T0. assert (u * (1 / 10 ^ 10) <= u * sA) by (apply Rmult_le_compat_l; lra). assert (u ^ 10 * 10 ^ 13 <= u) by (rewrite u_val; lra). lra. }
  assert (UA : u * A <= u * (2 * sA)) by (apply Rmult_le_compat_l; lra).
  destruct (HL a Fa) as (_ & _ & Fs & Es); [fold A; rewrite Rabs_pos_eq; lra|]. fold A sA in Es. rewrite (Rabs_pos_eq A) in Es by lra. set (w := val (f_sin L a)) in *. apply Rabs_ends in Es.
  assert (US : u * sA <= 1 / 10 ^ 15 * sA) by (apply Rmult_le_compat_r; lra).
  destruct (lit_int 2 ltac:(lia)) as [F2 V2].
  assert (W : 99 / 100 * sA <= w <= 101 / 100 * sA) by lra.
  assert (V2' : val (of_Z 2 /! of_Z 1) = 2) by (apply Rabs_ends in V2; lra).
  pose proof big_1 as BB.
  destruct (f_mul (of_Z 2 /! of_Z 1) (f_sin L a) F2 Fs) as [Fq Vq]; [fold w; rewrite V2', Rabs_pos_eq; lra|]. fold w in Vq. rewrite V2' in Vq.
  pose proof (rnd_err (2 * w)) as Rq. rewrite <- Vq in Rq. set (q := val (of_Z 2 /! of_Z 1 *! f_sin L a)) in *. rewrite (Rabs_pos_eq (2 * w)) in Rq by lra. apply Rabs_ends in Rq.
  assert (UW : u * (2 * w) <= u * (202 / 100 * sA)) by (apply Rmult_le_compat_l; lra).
  assert (Q2 : Rabs (q - 2 * sA) <= 12 * (u * sA)) by (apply Rabs_le; lra). pose proof (Rabs_ends _ _ Q2) as Q2'.
  assert (QP : 199 / 100 * sA <= q) by lra.
  assert (D : Rabs (A / q - A / (2 * sA)) <= 7 * u).
  { replace (A / q - A / (2 * sA)) with (A * - (q - 2 * sA) / (q * (2 * sA))) by (field; lra). unfold Rdiv. rewrite !Rabs_mult, Rabs_Ropp, Rabs_inv, (Rabs_pos_eq A), (Rabs_pos_eq (q * (2 * sA))) by (try apply Rmult_le_pos; lra).
    apply Rle_trans with (2 * sA * (12 * (u * sA)) * / (199 / 100 * sA * (2 * sA))).
    - apply Rmult_le_compat; [apply Rmult_le_pos; auto using Rabs_pos; lra|apply Rlt_le, Rinv_0_lt_compat; apply Rmult_lt_0_compat; lra| |].
      + apply Rmult_le_compat; auto using Rabs_pos; lra.
      + apply Rinv_le_contravar; [apply Rmult_lt_0_compat; lra|]. apply Rmult_le_compat_r; lra.
    - replace (2 * sA * (12 * (u * sA)) * / (199 / 100 * sA * (2 * sA))) with (12 * u * (100 / 199)) by (field; lra). lra. }
  assert (B : Rabs (th / (2 * s)) <= 1).
  { rewrite Rabs_pos_eq by (apply Rmult_le_pos; [lra|apply Rlt_le, Rinv_0_lt_compat; lra]). apply (Rmult_le_reg_r (2 * s)); [lra|]. replace (th / (2 * s) * (2 * s)) with th by (field; lra). lra. }
  assert (B' : Rabs (A / q) <= 201 / 100).
  { rewrite Rabs_pos_eq by (apply Rmult_le_pos; [lra|apply Rlt_le, Rinv_0_lt_compat; lra]). apply (Rmult_le_reg_r q); [lra|]. replace (A / q * q) with A by (field; lra). lra. }
  destruct (f_div a (of_Z 2 /! of_Z 1 *! f_sin L a) Fa) as [Fk Vk]; [fold q; lra|fold A q; lra|]. fold k in Fk, Vk. fold A q in Vk.
  split; auto. split; auto. pose proof (rnd_err (A / q)) as Rk. rewrite <- Vk in Rk.
  assert (u * Rabs (A / q) <= u * (201 / 100)) by (apply Rmult_le_compat_l; lra).
  replace (val k - th / (2 * s)) with ((val k - A / q) + (A / q - A / (2 * sA)) + (A / (2 * sA) - th / (2 * s))) by ring.
  eapply Rle_trans; [apply Rabs_triang|]. eapply Rle_trans; [apply Rplus_le_compat_r, Rabs_triang|]. lra.
Qed.

Lemma rot_entries B : rot B -> Rabs (a00 B) <= 1 /\ Rabs (a01 B) <= 1 /\ Rabs (a02 B) <= 1 /\ Rabs (a10 B) <= 1 /\ Rabs (a11 B) <= 1 /\ Rabs (a12 B) <= 1 /\
  Rabs (a20 B) <= 1 /\ Rabs (a21 B) <= 1 /\ Rabs (a22 B) <= 1.
Proof.
  intros [H _]. destruct B. unfold rmul, rtr, ridm in H. cbn in H. injection H as E0 _ _ _ E1 _ _ _ E2.
  repeat match goal with |- _ /\ _ => split end; cbn; apply sq_le_abs; nra.
Qed.

(** The angle argument (trace - 1) / 2. *)
Lemma trace_f64 A B e : mcl A B e -> rot B -> 0 <= e <= 1 / 100 ->
  cl ((m3_trace (SK:=SK) A -! of_Z 1) /! (of_Z 2 /! of_Z 1)) ((a00 B + a11 B + a22 B - 1) / 2) (3 / 2 * e + 7 * u).
Proof.
  intros (C0 & _ & _ & _ & C4 & _ & _ & _ & C8) RB He. pose proof u_pos as U. pose proof u_tiny as U1.
  destruct (rot_entries B RB) as (B0 & _ & _ & _ & B4 & _ & _ & _ & B8).
  unfold m3_trace. cbn [ksum kadd F64].
  assert (T : forall x y, Rabs (x + y) <= Rabs x + Rabs y) by apply Rabs_triang.
  pose proof (T (a00 B) (a11 B)). pose proof (T (a00 B) (a22 B)). pose proof (T (a11 B) (a22 B)). pose proof (T (a00 B + a11 B) (a22 B)).
  pose proof (cl_sum3 L _ _ _ _ _ _ _ (203 / 100) (305 / 100) C0 C4 C8 ltac:(lra) ltac:(lra) ltac:(lra) ltac:(lra) ltac:(lra) ltac:(lra)) as Ct.
  destruct (of_Z_ok 1) as [F1 V1]; [cbn; lia|].
  assert (O : cl (of_Z 1) 1 0) by (apply cl_exact; auto).
  assert (TB : Rabs (a00 B + a11 B + a22 B - 1) <= 4) by (apply Rabs_ends in B0, B4, B8; apply Rabs_le; lra).
  pose proof (cl_sub _ _ _ _ _ _ (405 / 100) Ct O ltac:(lra) ltac:(lra)) as Cs.
  assert (C2 : cl (of_Z 2 /! of_Z 1) 2 0). { eapply cl_weak; [apply (lit_int 2 ltac:(lia))|lra]. }
  eapply cl_weak; [apply (cl_div _ _ _ _ _ _ ((3 * e + 92 / 10 * u) / 2) (203 / 100) Cs C2); rewrite ?(Rabs_pos_eq 2) by lra|]; try lra.
  unfold Rdiv at 1. rewrite Rabs_mult, (Rabs_pos_eq (/ 2)) by lra. lra.
Qed.

Lemma cl_opp a r e : cl a r e -> cl (Bopp a) (- r) e.
Proof.
  intros [F H]. destruct (f_opp a F) as [F' V]. split; auto. rewrite V. replace (- val a - - r) with (- (val a - r)) by ring. rewrite Rabs_Ropp. exact H.
Qed.

(** The antisymmetric part times the coefficient. *)
Lemma entry_f64 k p q P Q s th v e e4 K0 : cl k (th / (2 * s)) e4 -> Rabs (th / (2 * s)) <= K0 -> cl p P e -> cl q Q e -> 0 < s <= 1 ->
  (P - Q) * (th / (2 * s)) = v -> Rabs v <= 10 / 3 -> Rabs (P - Q) <= 2 * s -> 0 <= e <= 1 / 100 -> 0 <= e4 -> 2 * s * e4 <= 2 / 5 -> (K0 + e4) * (2 * e + 21 / 10 * u) <= 1 / 10 ->
  cl ((p -! q) *! k) v (2 * s * e4 + (K0 + e4) * (2 * e + 21 / 10 * u) + 4 * u).
Proof.
  intros Ck Bk Cp Cq Hs E Bv Bd He He4 H1 H2. pose proof u_pos as U. pose proof u_tiny as U1.
  pose proof (cl_sub _ _ _ _ _ _ (203 / 100) Cp Cq ltac:(lra) ltac:(lra)) as Cd. set (d1 := e + e + (203 / 100 + 1 / 1000) * u) in *.
  assert (D1 : 0 <= d1 <= 2 * e + 21 / 10 * u) by (unfold d1; lra). set (d2 := 2 * e + 21 / 10 * u) in *.
  assert (M1 : Rabs (th / (2 * s)) * d1 <= K0 * d2) by (apply Rmult_le_compat; auto using Rabs_pos; lra).
  assert (M2 : Rabs (P - Q) * e4 <= 2 * s * e4) by (apply Rmult_le_compat_r; lra).
  assert (M3 : d1 * e4 <= e4 * d2) by (rewrite Rmult_comm; apply Rmult_le_compat_l; lra).
  rewrite <- E. eapply cl_weak; [apply (cl_mul _ _ _ _ _ _ (2 * s * e4 + (K0 + e4) * d2) (384 / 100) Cd Ck)|]; try lra.
  rewrite E. lra.
Qed.

(** The logarithm of a matrix close to the rotation exp v. *)
Lemma em_log_f64 out A v e : length out = 3%nat -> length v = 3%nat -> 0 < rnorm v < PI -> let s := sin (rnorm v) in
  mcl A (expSO3 v) e -> 0 <= e -> 400 * e <= s * s -> 10000 * u <= s * s ->
  exists w, em_logarithm (SK:=SK) out A = Ok w /\ Forall (fun a => isf a) w /\ 
    near_v ((55 * e + 400 * u) / (s * s)) (map val w) v /\ (rnorm v <= PI / 2 -> near_v (100 * e + 620 * u) (map val w) v).
Proof.
  intros Lo Lv Hv s HA' He E1 E2. pose proof u_pos as U. pose proof u_tiny as U1. pose proof PI_le as PL. set (th := rnorm v) in *.
  assert (S0 : 0 < s) by (apply sin_gt_0; lra). assert (S1 : s <= 1) by apply SIN_bound.
  assert (SS : 0 < s * s <= s) by nra.
  pose proof (expSO3_rot v) as RB. destruct (rot_entries _ RB) as (B00 & B01 & B02 & B10 & B11 & B12 & B20 & B21 & B22).
  pose proof (trace_f64 A _ e HA' RB ltac:(lra)) as Tc. pose proof (expSO3_trace v th Lv eq_refl) as Tr. rewrite Tr in Tc.
  destruct (coeff_f64 _ th _ Hv Tc ltac:(lra) ltac:(fold s; lra) ltac:(fold s; lra)) as [Ck Bk]. fold s in Ck, Bk.
  set (k := f_acos L _ /! _) in Ck.
  assert (Ck2 : th <= PI / 2 -> cl k (th / (2 * s)) (48 * e + 300 * u) /\ Rabs (th / (2 * s)) <= 1).
  { intros H2. destruct (coeff_small _ th _ (conj (proj1 Hv) H2) Tc ltac:(lra) ltac:(fold s; lra) ltac:(fold s; lra)) as [C2 B2]. fold s in C2, B2. fold k in C2. split; auto. eapply cl_weak; [exact C2|lra]. }
  pose proof (upper_exp v Lv (proj1 Hv)) as UE. unfold upper in UE. rewrite rnorm3_sq in UE. fold th s in UE.
  destruct HA' as (C00 & C01 & C02 & C10 & C11 & C12 & C20 & C21 & C22).
  assert (NB : Bltb (Bsqrt mode_NE (nsq L (Bopp (a12 A)) (a02 A) (Bopp (a01 A)))) (lit8 L) = false).
  { apply (norm_big L _ _ _ _ _ _ e (s * s) (cl_opp _ _ _ C12) C02 (cl_opp _ _ _ C01)); rewrite ?Rabs_Ropp; auto; try lra. }
  exists [(a21 A -! a12 A) *! k; (a02 A -! a20 A) *! k; (a10 A -! a01 A) *! k].
  split.
  { unfold em_logarithm. change (norm (SK:=SK) [kopp (Scalar:=SK) (a12 A); a02 A; kopp (Scalar:=SK) (a01 A)]) with (Bsqrt mode_NE (nsq L (Bopp (a12 A)) (a02 A) (Bopp (a01 A)))).
    change (kltb (Scalar:=SK)) with (@Bltb 53 1024). change (map_prec (SK:=SK)) with (lit8 L). rewrite NB.
    destruct out as [|o0 [|o1 [|o2 [|]]]]; try discriminate Lo. reflexivity. }
  set (e4 := 16 * (3 / 2 * e + 7 * u) / (s * s * s) + 70 * u / (s * s)) in *.
  assert (S3 : 0 < s * s * s) by (apply Rmult_lt_0_compat; lra).
  assert (E40 : 0 <= e4). { unfold e4. apply Rplus_le_le_0_compat; apply Rmult_le_pos; try lra; apply Rlt_le, Rinv_0_lt_compat; lra. }
  assert (Q1 : 2 * s * e4 <= (48 * e + 364 * u) / (s * s)).
  { unfold e4. apply (Rmult_le_reg_r (s * s)); [lra|]. replace ((48 * e + 364 * u) / (s * s) * (s * s)) with (48 * e + 364 * u) by (field; lra).
    replace (2 * s * (16 * (3 / 2 * e + 7 * u) / (s * s * s) + 70 * u / (s * s)) * (s * s)) with (48 * e + 224 * u + 140 * (s * u)) by (field; lra). nra. }
  assert (Q2 : e4 <= 1 / 5 / s).
  { apply (Rmult_le_reg_l (2 * s)); [lra|]. replace (2 * s * (1 / 5 / s)) with (2 / 5) by (field; lra). eapply Rle_trans; [exact Q1|].
    apply (Rmult_le_reg_r (s * s)); [lra|]. unfold Rdiv at 1. rewrite Rmult_assoc, Rinv_l, Rmult_1_r by lra. lra. }
  assert (Q2' : 2 * s * e4 <= 2 / 5). { replace (2 / 5) with (2 * s * (1 / 5 / s)) by (field; lra). apply Rmult_le_compat_l; lra. }
  assert (I1 : 1 <= / s) by (rewrite <- Rinv_1 at 1; apply Rinv_le_contravar; lra).
  assert (Q3 : (17 / 10 / s + e4) * (2 * e + 21 / 10 * u) <= (4 * e + 6 * u) / s).
  { apply Rle_trans with ((19 / 10 / s) * (2 * e + 21 / 10 * u)); [apply Rmult_le_compat_r; [lra|]; replace (19 / 10 / s) with (17 / 10 / s + 1 / 5 / s) by (field; lra); lra|].
    replace (19 / 10 / s * (2 * e + 21 / 10 * u)) with (19 / 10 * (2 * e + 21 / 10 * u) * / s) by (field; lra). apply Rmult_le_compat_r; lra. }
  assert (Q4 : (4 * e + 6 * u) / s <= 1 / 10). { apply (Rmult_le_reg_r s); [lra|]. unfold Rdiv at 1. rewrite Rmult_assoc, Rinv_l by lra. lra. }
  assert (Q5 : 2 * s * e4 + (17 / 10 / s + e4) * (2 * e + 21 / 10 * u) + 4 * u <= (55 * e + 400 * u) / (s * s)).
  { assert ((4 * e + 6 * u) / s <= (4 * e + 6 * u) / (s * s)) by (apply Rmult_le_compat_l; [lra|]; apply Rinv_le_contravar; lra).
    assert (4 * u <= 4 * u / (s * s)). { apply (Rmult_le_reg_r (s * s)); [lra|]. replace (4 * u / (s * s) * (s * s)) with (4 * u) by (field; lra). nra. }
    assert (0 <= e / (s * s)) by (apply Rmult_le_pos; [lra|apply Rlt_le, Rinv_0_lt_compat; lra]). assert (0 <= u / (s * s)) by (apply Rmult_le_pos; [lra|apply Rlt_le, Rinv_0_lt_compat; lra]).
    replace ((48 * e + 364 * u) / (s * s)) with (48 * (e / (s * s)) + 364 * (u / (s * s))) in Q1 by (field; lra).
    replace ((55 * e + 400 * u) / (s * s)) with (55 * (e / (s * s)) + 400 * (u / (s * s))) by (field; lra).
    replace ((4 * e + 6 * u) / (s * s)) with (4 * (e / (s * s)) + 6 * (u / (s * s))) in H by (field; lra). replace (4 * u / (s * s)) with (4 * (u / (s * s))) in H0 by (field; lra). lra. }
  destruct (vec3_inv v Lv) as (x & y & z & ->). unfold expSO3 in *. cbv zeta in *. fold th in C00, C01, C02, C10, C11, C12, C20, C21, C22.
  destruct (Req_EM_T th 0) as [Z|NZ]; [lra|]. unfold rodrigues in C01, C02, C10, C12, C20, C21. cbn [a00 a01 a02 a10 a11 a12 a20 a21 a22] in C01, C02, C10, C12, C20, C21.
  pose proof (rnorm3_sq x y z) as N. fold th in N.
  assert (Bx : Rabs x <= th) by (apply sq_le_abs; nra). assert (By : Rabs y <= th) by (apply sq_le_abs; nra). assert (Bz : Rabs z <= th) by (apply sq_le_abs; nra).
  assert (G : forall e4 K0 B, cl k (th / (2 * s)) e4 -> Rabs (th / (2 * s)) <= K0 -> 0 <= e4 -> 2 * s * e4 <= 2 / 5 -> (K0 + e4) * (2 * e + 21 / 10 * u) <= 1 / 10 ->
    2 * s * e4 + (K0 + e4) * (2 * e + 21 / 10 * u) + 4 * u <= B ->
    forall p q P Q w, cl p P e -> cl q Q e -> P - Q = 2 * (s / th) * w -> Rabs w <= th -> cl ((p -! q) *! k) w B).
  { clear e4 E40 Q1 Q2 Q2' Q3 Q4 Q5 Ck Bk Ck2. intros e4 K0 B Ck Bk R1 R2 R3 R4 p q P Q w Cp Cq EPQ Bw. eapply cl_weak; [|exact R4]. apply (entry_f64 k p q P Q s th w e e4 K0); auto; try lra.
    - rewrite EPQ. field. lra.
    - rewrite EPQ, Rabs_mult, (Rabs_pos_eq (2 * (s / th))).
      + apply Rle_trans with (2 * (s / th) * th); [apply Rmult_le_compat_l; auto|].
        * apply Rmult_le_pos; [lra|]. apply Rmult_le_pos; [lra|]. apply Rlt_le, Rinv_0_lt_compat. lra.
        * right. field. lra.
      + apply Rmult_le_pos; [lra|]. apply Rmult_le_pos; [lra|]. apply Rlt_le, Rinv_0_lt_compat. lra. }
  assert (G3 : forall e4 K0 B, cl k (th / (2 * s)) e4 -> Rabs (th / (2 * s)) <= K0 -> 0 <= e4 -> 2 * s * e4 <= 2 / 5 -> (K0 + e4) * (2 * e + 21 / 10 * u) <= 1 / 10 ->
    2 * s * e4 + (K0 + e4) * (2 * e + 21 / 10 * u) + 4 * u <= B ->
    Forall (fun a => isf a) [(a21 A -! a12 A) *! k; (a02 A -! a20 A) *! k; (a10 A -! a01 A) *! k] /\ near_v B (map val [(a21 A -! a12 A) *! k; (a02 A -! a20 A) *! k; (a10 A -! a01 A) *! k]) [x; y; z]).
  { intros f4 K0 B R0 R1 R2 R3 R4 R5. pose proof (G f4 K0 B R0 R1 R2 R3 R4 R5) as G'.
    pose proof (G' _ _ _ _ x C21 C12 ltac:(unfold s; field; lra) Bx) as [F0 D0].
    pose proof (G' _ _ _ _ y C02 C20 ltac:(unfold s; field; lra) By) as [F1 D1].
    pose proof (G' _ _ _ _ z C10 C01 ltac:(unfold s; field; lra) Bz) as [F2 D2].
    split; [auto|]. cbn [map]. constructor; [exact D0|]. constructor; [exact D1|]. constructor; [exact D2|]. constructor. }
  destruct (G3 e4 (17 / 10 / s) _ Ck Bk E40 Q2' ltac:(lra) Q5) as [F N1]. split; [exact F|]. split; [exact N1|].
  intros H2. destruct (Ck2 H2) as [C2 B2]. set (f4 := 48 * e + 300 * u) in *.
  assert (S4 : s * f4 <= 1 * f4) by (apply Rmult_le_compat_r; unfold f4; lra).
  assert (F4 : f4 <= 2 / 10 /\ 0 <= f4) by (unfold f4; split; lra).
  assert (M4 : (1 + f4) * (2 * e + 21 / 10 * u) <= (12 / 10) * (2 * e + 21 / 10 * u)) by (apply Rmult_le_compat_r; lra).
  apply (G3 f4 1 (100 * e + 620 * u) C2 B2); unfold f4 in *; lra.
Qed.

(** ** X^T (X exp v) *)
Lemma s3_cl a b c d f g B D F e : isf a -> isf c -> isf f -> Rabs (val a) <= 1001 / 1000 -> Rabs (val c) <= 1001 / 1000 -> Rabs (val f) <= 1001 / 1000 ->
  cl b B e -> cl d D e -> cl g F e -> Rabs B <= 1003 / 1000 -> Rabs D <= 1003 / 1000 -> Rabs F <= 1003 / 1000 -> 0 <= e <= 1 / 1000 ->
  cl (s3 (SK:=SK) a b c d f g) (val a * B + val c * D + val f * F) (301 / 100 * e + 83 / 10 * u).
Proof.
  intros Fa Fc Ff Ba Bc Bf Hb Hd Hg BB BD BF He. unfold s3. cbn [ksum kadd kmul F64]. pose proof u_pos as U. pose proof u_tiny as U1.
  assert (M : forall x y Y, isf x -> Rabs (val x) <= 1001 / 1000 -> cl y Y e -> Rabs Y <= 1003 / 1000 -> cl (x *! y) (val x * Y) (1001 / 1000 * e + 101 / 100 * u) /\ Rabs (val x * Y) <= 1005 / 1000).
  { intros x y Y Fx Bx Hy BY. assert (Rabs (val x * Y) <= 1005 / 1000) by (eapply Rle_trans; [apply abs_prod; eauto|]; lra). split; auto.
    eapply cl_weak; [apply (cl_mul _ _ _ _ 0 e (1001 / 1000 * e) (1007 / 1000) (cl_exact x _ Fx eq_refl) Hy)|]; try lra.
    assert (Rabs (val x) * e <= 1001 / 1000 * e) by (apply Rmult_le_compat_r; lra). lra. }
  destruct (M _ _ _ Fa Ba Hb BB) as [A1 P1]. destruct (M _ _ _ Fc Bc Hd BD) as [A2 P2]. destruct (M _ _ _ Ff Bf Hg BF) as [A3 P3].
  assert (P : forall x y, Rabs x <= 1005 / 1000 -> Rabs y <= 1005 / 1000 -> Rabs (x + y) <= 201 / 100) by (intros; eapply Rle_trans; [apply Rabs_triang|lra]).
  pose proof (P _ _ P1 P2). pose proof (P _ _ P1 P3). pose proof (P _ _ P2 P3).
  assert (P123 : Rabs (val a * B + val c * D + val f * F) <= 3015 / 1000) by (eapply Rle_trans; [apply Rabs_triang|lra]).
  eapply cl_weak; [apply (cl_sum3 L _ _ _ _ _ _ _ (202 / 100) (303 / 100) A1 A2 A3); lra|lra].
Qed.
Lemma back_entry g0 g1 g2 b0 b1 b2 d r : Rabs (g0 - 1) <= d -> Rabs g1 <= d -> Rabs g2 <= d -> b0 * b0 + b1 * b1 + b2 * b2 <= 1 -> r = b0 ->
  Rabs (g0 * b0 + g1 * b1 + g2 * b2 - r) <= 1733 / 1000 * d.
Proof.
  intros H0 H1 H2 N ->. replace (g0 * b0 + g1 * b1 + g2 * b2 - b0) with ((g0 - 1) * b0 + g1 * b1 + g2 * b2) by ring.
  eapply Rle_trans; [apply (dots b0 b1 b2 _ _ _ d); auto|]. pose proof (l1_l2 b0 b1 b2 1 ltac:(lra) ltac:(lra)). assert (0 <= d) by (pose proof (Rabs_pos g1); lra). nra.
Qed.
Lemma em_back X Y d E e : mfin X -> stretch d (mval X) -> 0 <= d <= 1 / 1000 -> rot E -> mcl Y (rmul (mval X) E) e -> 0 <= e <= 1 / 1000 ->
  mcl (m3_mul (SK:=SK) (m3_trans X) Y) E (301 / 100 * e + 83 / 10 * u + 1733 / 1000 * d).
Proof.
  intros (F00 & F01 & F02 & F10 & F11 & F12 & F20 & F21 & F22) SX Hd RE (Y00 & Y01 & Y02 & Y10 & Y11 & Y12 & Y20 & Y21 & Y22) He.
  destruct (stretch_entries _ _ SX ltac:(lra)) as ((X00 & X10 & X20) & (X01 & X11 & X21) & (X02 & X12 & X22)).
  assert (SP : stretch d (rmul (mval X) E)). { replace d with (d * (1 + 0) + 0) by ring. apply stretch_mul; [lra|exact SX|]. apply stretch_rot, RE. }
  destruct (stretch_entries _ _ SP ltac:(lra)) as ((P00 & P10 & P20) & (P01 & P11 & P21) & (P02 & P12 & P22)).
  pose proof (stretch_near _ _ SX) as (G0 & G1 & G2 & G3 & G4 & G5 & G6 & G7 & G8 & G9).
  assert (CE : rmul (rtr E) E = ridm) by apply RE. destruct E as [b00 b01 b02 b10 b11 b12 b20 b21 b22]. unfold rmul at 1, rtr, ridm in CE. cbn in CE. injection CE as K0 _ _ _ K1 _ _ _ K2.
  set (P := rmul (mval X) _) in *.
  unfold mcl, m3_mul, m3_trans. cbn [a00 a01 a02 a10 a11 a12 a20 a21 a22].
  unfold mval in X00, X01, X02, X10, X11, X12, X20, X21, X22. cbn [a00 a01 a02 a10 a11 a12 a20 a21 a22] in X00, X01, X02, X10, X11, X12, X20, X21, X22.
  unfold rmul, rtr, mval in G0, G1, G2, G3, G4, G5, G6, G7, G8. cbn [a00 a01 a02 a10 a11 a12 a20 a21 a22] in G0, G1, G2, G3, G4, G5, G6, G7, G8.
  assert (T : forall a r s f g, cl a r f -> Rabs (r - s) <= g -> cl a s (f + g)).
  { intros a r s f g [Fa Ha] H. split; auto. replace (val a - s) with ((val a - r) + (r - s)) by ring. eapply Rle_trans; [apply Rabs_triang|lra]. }
  assert (W : forall a, Rabs a <= 1001 / 1000 -> Rabs a <= 1003 / 1000) by (intros; lra).
  repeat match goal with |- _ /\ _ => split end; (eapply T; [apply s3_cl; [auto|auto|auto|auto|auto|auto|eassumption|eassumption|eassumption|apply W; auto|apply W; auto|apply W; auto|exact He]|]);
   unfold P, rmul, mval; cbn [a00 a01 a02 a10 a11 a12 a20 a21 a22].
  - eapply Rle_trans; [|apply (back_entry _ _ _ b00 b10 b20 d b00 G0 G3 G4 ltac:(lra) eq_refl)]. right. f_equal. ring.
  - eapply Rle_trans; [|apply (back_entry _ _ _ b01 b11 b21 d b01 G0 G3 G4 ltac:(lra) eq_refl)]. right. f_equal. ring.
  - eapply Rle_trans; [|apply (back_entry _ _ _ b02 b12 b22 d b02 G0 G3 G4 ltac:(lra) eq_refl)]. right. f_equal. ring.
  - eapply Rle_trans; [|apply (back_entry _ _ _ b10 b00 b20 d b10 G1 G5 G6 ltac:(lra) eq_refl)]. right. f_equal. ring.
  - eapply Rle_trans; [|apply (back_entry _ _ _ b11 b01 b21 d b11 G1 G5 G6 ltac:(lra) eq_refl)]. right. f_equal. ring.
  - eapply Rle_trans; [|apply (back_entry _ _ _ b12 b02 b22 d b12 G1 G5 G6 ltac:(lra) eq_refl)]. right. f_equal. ring.
  - eapply Rle_trans; [|apply (back_entry _ _ _ b20 b00 b10 d b20 G2 G7 G8 ltac:(lra) eq_refl)]. right. f_equal. ring.
  - eapply Rle_trans; [|apply (back_entry _ _ _ b21 b01 b11 d b21 G2 G7 G8 ltac:(lra) eq_refl)]. right. f_equal. ring.
  - eapply Rle_trans; [|apply (back_entry _ _ _ b22 b02 b12 d b22 G2 G7 G8 ltac:(lra) eq_refl)]. right. f_equal. ring.
Qed.
End Log.
