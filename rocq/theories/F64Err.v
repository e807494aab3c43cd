(** Error calculus for double arithmetic: a double, the real it stands for, a bound in units of 2^-53. *)
From Coq Require Import Reals List Lra Lia ZArith Bool Arith Psatz.
From Flocq Require Import Core BinarySingleNaN.
From Verif Require Import Base Scalar Vec F64.
Import ListNotations.
Local Open Scope R_scope.

(** [app a r k]: the double [a] is finite and within [k] units of [r]. *)
Definition app (a : f64) (r k : R) : Prop := isf a /\ Rabs (val a - r) <= k * u.

Lemma Rabs_ends a b : Rabs a <= b -> - b <= a <= b.
Proof. intros H. pose proof (Rle_abs a). pose proof (Rle_abs (- a)). rewrite Rabs_Ropp in *. lra. Qed.
Lemma big_1 : 1000000000000000 <= big.
Proof. apply Rle_trans with (bpow radix2 60); [cbn; lra|]. apply bpow_le. lia. Qed.
Lemma eta_u : eta <= u / 1000.
Proof. pose proof eta_small. assert (u ^ 10 <= u / 1000); [|lra]. rewrite u_val. cbn [pow]. lra. Qed.

Lemma app_exact a : isf a -> app a (val a) 0.
Proof. intros H. split; auto. replace (val a - val a) with 0 by ring. rewrite Rabs_R0. lra. Qed.
Lemma app_weak a r k l : app a r k -> k <= l -> app a r l.
Proof. intros [F H] L. split; auto. pose proof u_pos. nra. Qed.
Lemma app_shift a r s k d : app a r k -> Rabs (r - s) <= d * u -> app a s (k + d).
Proof. intros [F H] D. split; auto. replace (val a - s) with ((val a - r) + (r - s)) by ring. eapply Rle_trans; [apply Rabs_triang|]. lra. Qed.
Lemma app_val a r k M : app a r k -> Rabs r <= M -> Rabs (val a) <= M + k * u.
Proof. intros [F H] D. replace (val a) with ((val a - r) + r) by ring. eapply Rle_trans; [apply Rabs_triang|]. lra. Qed.
Lemma app_eq a r s k : app a r k -> r = s -> app a s k.
Proof. intros H <-. exact H. Qed.

(** Rounding the real [y], itself within [k] units of [r]. *)
Lemma rnd_app y r k M : Rabs (y - r) <= k * u -> Rabs r <= M -> 0 <= k -> k <= 1000000 -> Rabs (rnd y - r) <= (k + M + 1 / 100) * u.
Proof.
  intros H HM Hk Hk'. pose proof (rnd_err y) as E. pose proof u_pos. pose proof eta_u.
  assert (Y : Rabs y <= M + k * u) by (replace y with ((y - r) + r) by ring; eapply Rle_trans; [apply Rabs_triang|]; lra).
  replace (rnd y - r) with ((rnd y - y) + (y - r)) by ring. eapply Rle_trans; [apply Rabs_triang|].
  assert (u * Rabs y <= u * (M + k * u)) by (apply Rmult_le_compat_l; lra).
  assert (u * (k * u) <= u / 1000). { assert (k * u <= 1 / 1000) by (rewrite u_val; lra). nra. } lra.
Qed.

Lemma app_add a b r s k l M N : app a r k -> app b s l -> Rabs r <= M -> Rabs s <= N -> 0 <= k -> 0 <= l -> k <= 1000 -> l <= 1000 -> M <= 1000 -> N <= 1000 ->
  app (Bplus mode_NE a b) (r + s) (k + l + (M + N) + 1 / 100).
Proof.
  intros Ha Hb HM HN. intros. destruct Ha as [Fa Ea], Hb as [Fb Eb].
  assert (E : Rabs ((val a + val b) - (r + s)) <= (k + l) * u) by (replace ((val a + val b) - (r + s)) with ((val a - r) + (val b - s)) by ring; eapply Rle_trans; [apply Rabs_triang|]; lra).
  assert (R : Rabs (r + s) <= M + N) by (eapply Rle_trans; [apply Rabs_triang|]; lra).
  assert (Y : Rabs (val a + val b) <= big).
  { replace (val a + val b) with ((val a + val b - (r + s)) + (r + s)) by ring. eapply Rle_trans; [apply Rabs_triang|]. pose proof big_1. assert ((k + l) * u <= 1) by (rewrite u_val; lra). lra. }
  destruct (f_add a b Fa Fb Y) as [F V]. split; auto. rewrite V. apply rnd_app; auto; lra.
Qed.
Lemma app_opp a r k : app a r k -> app (Bopp a) (- r) k.
Proof. intros [F E]. destruct (f_opp a F) as [F' V]. split; auto. rewrite V. replace (- val a - - r) with (- (val a - r)) by ring. rewrite Rabs_Ropp. auto. Qed.
Lemma app_abs a r k : app a r k -> app (Babs a) (Rabs r) k.
Proof. intros [F E]. destruct (f_abs a F) as [F' V]. split; auto. rewrite V. eapply Rle_trans; [apply Rabs_triang_inv2|]. auto. Qed.
Lemma app_sub a b r s k l M N : app a r k -> app b s l -> Rabs r <= M -> Rabs s <= N -> 0 <= k -> 0 <= l -> k <= 1000 -> l <= 1000 -> M <= 1000 -> N <= 1000 ->
  app (Bminus mode_NE a b) (r - s) (k + l + (M + N) + 1 / 100).
Proof.
  intros Ha Hb HM HN. intros. destruct Ha as [Fa Ea], Hb as [Fb Eb].
  assert (E : Rabs ((val a - val b) - (r - s)) <= (k + l) * u).
  { replace ((val a - val b) - (r - s)) with ((val a - r) + - (val b - s)) by ring; eapply Rle_trans; [apply Rabs_triang|]; rewrite Rabs_Ropp; lra. }
  assert (R : Rabs (r - s) <= M + N) by (unfold Rminus; eapply Rle_trans; [apply Rabs_triang|]; rewrite Rabs_Ropp; lra).
  assert (Y : Rabs (val a - val b) <= big).
  { replace (val a - val b) with ((val a - val b - (r - s)) + (r - s)) by ring. eapply Rle_trans; [apply Rabs_triang|]. pose proof big_1. assert ((k + l) * u <= 1) by (rewrite u_val; lra). lra. }
  destruct (f_sub a b Fa Fb Y) as [F V]. split; auto. rewrite V. apply rnd_app; auto; lra.
Qed.
(** Same with a bound on the result instead of the arguments' sum. *)
Lemma app_mul a b r s k l M N : app a r k -> app b s l -> Rabs r <= M -> Rabs s <= N -> 0 <= k -> 0 <= l -> k <= 1000 -> l <= 1000 -> M <= 100 -> N <= 100 ->
  app (Bmult mode_NE a b) (r * s) (M * l + N * k + M * N + 1 / 50).
Proof.
  intros Ha Hb HM HN. intros. destruct Ha as [Fa Ea], Hb as [Fb Eb]. pose proof u_pos.
  pose proof (Rabs_pos r). pose proof (Rabs_pos s).
  assert (E : Rabs ((val a * val b) - (r * s)) <= (M * l + N * k + 1 / 100) * u).
  { replace (val a * val b - r * s) with (r * (val b - s) + s * (val a - r) + (val a - r) * (val b - s)) by ring.
    eapply Rle_trans; [apply Rabs_triang|]. eapply Rle_trans; [apply Rplus_le_compat_r, Rabs_triang|]. rewrite !Rabs_mult.
    assert (Rabs r * Rabs (val b - s) <= M * (l * u)) by (apply Rmult_le_compat; auto using Rabs_pos).
    assert (Rabs s * Rabs (val a - r) <= N * (k * u)) by (apply Rmult_le_compat; auto using Rabs_pos).
    assert (Rabs (val a - r) * Rabs (val b - s) <= (k * u) * (l * u)) by (apply Rmult_le_compat; auto using Rabs_pos).
    assert ((k * u) * (l * u) <= u / 100). { assert (k * l <= 1000000) by nra. assert (k * l * u <= 1 / 100) by (rewrite u_val; nra). nra. } lra. }
  assert (R : Rabs (r * s) <= M * N) by (rewrite Rabs_mult; apply Rmult_le_compat; auto).
  assert (ML : 0 <= M * l <= 100000) by nra. assert (NK : 0 <= N * k <= 100000) by nra. assert (MN : 0 <= M * N <= 10000) by nra.
  assert (Y : Rabs (val a * val b) <= big).
  { replace (val a * val b) with ((val a * val b - (r * s)) + (r * s)) by ring. eapply Rle_trans; [apply Rabs_triang|]. pose proof big_1. assert ((M * l + N * k + 1 / 100) * u <= 1) by (rewrite u_val; nra). lra. }
  destruct (f_mul a b Fa Fb Y) as [F V]. split; auto. rewrite V. eapply Rle_trans; [apply (rnd_app _ (r * s) (M * l + N * k + 1 / 100) (M * N)); auto; lra|]. apply Rmult_le_compat_r; lra.
Qed.
Lemma app_div a b r s k l M N D : app a r k -> app b s l -> Rabs (r / s) <= M -> D <= Rabs s -> 0 < D -> Rabs r <= N ->
  0 <= k -> 0 <= l -> k <= 1000 -> l <= 1000 -> M <= 1000 -> 2 * (l * u) <= D -> (k + M * l) / D <= 400000 ->
  app (Bdiv mode_NE a b) (r / s) (2 * ((k + M * l) / D) + M + 1 / 100).
Proof.
  intros Ha Hb HM HD D0 HN. intros. destruct Ha as [Fa Ea], Hb as [Fb Eb]. pose proof u_pos.
  assert (S0 : s <> 0) by (intros ->; rewrite Rabs_R0 in HD; lra).
  assert (B : D / 2 <= Rabs (val b)). { pose proof (Rabs_triang_inv s (s - val b)) as T. replace (s - (s - val b)) with (val b) in T by ring. rewrite (Rabs_minus_sym s) in T. lra. }
  assert (B0 : val b <> 0) by (intros E; rewrite E, Rabs_R0 in B; lra). pose proof (Rabs_pos (r / s)).
  assert (E : Rabs (val a / val b - r / s) <= (2 * ((k + M * l) / D)) * u).
  { replace (val a / val b - r / s) with (((val a - r) - (r / s) * (val b - s)) / val b) by (field; auto).
    unfold Rdiv at 1. rewrite Rabs_mult, Rabs_inv. 
    assert (Rabs (val a - r - r / s * (val b - s)) <= (k + M * l) * u).
    { unfold Rminus at 1. eapply Rle_trans; [apply Rabs_triang|]. rewrite Rabs_Ropp, Rabs_mult.
      assert (Rabs (r / s) * Rabs (val b - s) <= M * (l * u)) by (apply Rmult_le_compat; auto using Rabs_pos). lra. }
    replace (2 * ((k + M * l) / D) * u) with ((k + M * l) * u * (2 / D)) by (field; lra).
    apply Rmult_le_compat; auto using Rabs_pos. { apply Rlt_le, Rinv_0_lt_compat. lra. }
    replace (2 / D) with (/ (D / 2)) by (field; lra). apply Rinv_le_contravar; lra. }
  assert (0 <= (k + M * l) / D). { apply Rmult_le_pos; [nra|]. apply Rlt_le, Rinv_0_lt_compat; auto. }
  assert (Y : Rabs (val a / val b) <= big).
  { replace (val a / val b) with ((val a / val b - r / s) + r / s) by ring. eapply Rle_trans; [apply Rabs_triang|]. pose proof big_1. assert (2 * ((k + M * l) / D) * u <= 1) by (rewrite u_val; lra). lra. }
  destruct (f_div a b Fa B0 Y) as [F V]. split; auto. rewrite V. apply rnd_app; auto; lra.
Qed.

(** Literals and integers. *)
Lemma of_Z_ok n : (Z.abs n < 2 ^ 53)%Z -> isf (of_Z n) /\ val (of_Z n) = IZR n.
Proof.
  intros H. unfold of_Z. pose proof (binary_normalize_correct 53 1024 _ _ mode_NE n 0 false) as C. cbv zeta in C.
  assert (E : F2R (Float radix2 n 0) = IZR n) by (unfold F2R; cbn; ring). rewrite E in C.
  rewrite round_generic in C; try typeclasses eauto.
  - rewrite Rlt_bool_true in C. { destruct C as (C1 & C2 & _). auto. }
    rewrite <- abs_IZR. apply Rlt_trans with (bpow radix2 53); [rewrite <- (IZR_Zpower radix2) by lia; apply IZR_lt; exact H|apply bpow_lt; lia].
  - apply generic_format_FLT. exists (Float radix2 n 0); cbn; auto; lia.
Qed.
Lemma pi_ok : isf f64_pi /\ val f64_pi = 884279719003555 / 281474976710656.
Proof.
  assert (F : isf f64_pi) by reflexivity. split; auto.
  unfold f64_pi. pose proof (binary_normalize_correct 53 1024 _ _ mode_NE 884279719003555 (-48) false) as C. cbv zeta in C.
  assert (E : F2R (Float radix2 884279719003555 (-48)) = 884279719003555 / 281474976710656) by (unfold F2R; cbn; lra). rewrite E in C.
  rewrite round_generic in C; try typeclasses eauto.
  - rewrite Rlt_bool_true in C; [apply C|]. rewrite Rabs_pos_eq by lra. apply Rlt_trans with (bpow radix2 3); [cbn; lra|apply bpow_lt; lia].
  - apply generic_format_FLT. exists (Float radix2 884279719003555 (-48)); cbn; auto; lia.
Qed.
(** The same with a bound on the exact result. *)
Lemma app_addP a b r s k l P : app a r k -> app b s l -> Rabs (r + s) <= P -> 0 <= k -> 0 <= l -> k <= 1000 -> l <= 1000 -> P <= 1000 ->
  app (Bplus mode_NE a b) (r + s) (k + l + P + 1 / 100).
Proof.
  intros Ha Hb HP. intros. destruct Ha as [Fa Ea], Hb as [Fb Eb].
  assert (E : Rabs ((val a + val b) - (r + s)) <= (k + l) * u) by (replace ((val a + val b) - (r + s)) with ((val a - r) + (val b - s)) by ring; eapply Rle_trans; [apply Rabs_triang|]; lra).
  assert (Y : Rabs (val a + val b) <= big).
  { replace (val a + val b) with ((val a + val b - (r + s)) + (r + s)) by ring. eapply Rle_trans; [apply Rabs_triang|]. pose proof big_1. assert ((k + l) * u <= 1) by (rewrite u_val; lra). lra. }
  destruct (f_add a b Fa Fb Y) as [F V]. split; auto. rewrite V. apply rnd_app; auto; lra.
Qed.
Lemma app_subP a b r s k l P : app a r k -> app b s l -> Rabs (r - s) <= P -> 0 <= k -> 0 <= l -> k <= 1000 -> l <= 1000 -> P <= 1000 ->
  app (Bminus mode_NE a b) (r - s) (k + l + P + 1 / 100).
Proof.
  intros Ha Hb HP. intros. destruct Ha as [Fa Ea], Hb as [Fb Eb].
  assert (E : Rabs ((val a - val b) - (r - s)) <= (k + l) * u).
  { replace ((val a - val b) - (r - s)) with ((val a - r) + - (val b - s)) by ring; eapply Rle_trans; [apply Rabs_triang|]; rewrite Rabs_Ropp; lra. }
  assert (Y : Rabs (val a - val b) <= big).
  { replace (val a - val b) with ((val a - val b - (r - s)) + (r - s)) by ring. eapply Rle_trans; [apply Rabs_triang|]. pose proof big_1. assert ((k + l) * u <= 1) by (rewrite u_val; lra). lra. }
  destruct (f_sub a b Fa Fb Y) as [F V]. split; auto. rewrite V. apply rnd_app; auto; lra.
Qed.
Lemma app_mulP a b r s k l M N P : app a r k -> app b s l -> Rabs r <= M -> Rabs s <= N -> Rabs (r * s) <= P -> 0 <= k -> 0 <= l -> k <= 1000 -> l <= 1000 -> M <= 100 -> N <= 100 ->
  app (Bmult mode_NE a b) (r * s) (M * l + N * k + P + 1 / 50).
Proof.
  intros Ha Hb HM HN R. intros. destruct Ha as [Fa Ea], Hb as [Fb Eb]. pose proof u_pos.
  pose proof (Rabs_pos r). pose proof (Rabs_pos s).
  assert (E : Rabs ((val a * val b) - (r * s)) <= (M * l + N * k + 1 / 100) * u).
  { replace (val a * val b - r * s) with (r * (val b - s) + s * (val a - r) + (val a - r) * (val b - s)) by ring.
    eapply Rle_trans; [apply Rabs_triang|]. eapply Rle_trans; [apply Rplus_le_compat_r, Rabs_triang|]. rewrite !Rabs_mult.
    assert (Rabs r * Rabs (val b - s) <= M * (l * u)) by (apply Rmult_le_compat; auto using Rabs_pos).
    assert (Rabs s * Rabs (val a - r) <= N * (k * u)) by (apply Rmult_le_compat; auto using Rabs_pos).
    assert (Rabs (val a - r) * Rabs (val b - s) <= (k * u) * (l * u)) by (apply Rmult_le_compat; auto using Rabs_pos).
    assert ((k * u) * (l * u) <= u / 100). { assert (k * l <= 1000000) by nra. assert (k * l * u <= 1 / 100) by (rewrite u_val; nra). nra. } lra. }
  assert (R' : Rabs (r * s) <= M * N) by (rewrite Rabs_mult; apply Rmult_le_compat; auto).
  assert (ML : 0 <= M * l <= 100000) by nra. assert (NK : 0 <= N * k <= 100000) by nra. assert (MN : 0 <= M * N <= 10000) by nra.
  assert (Y : Rabs (val a * val b) <= big).
  { replace (val a * val b) with ((val a * val b - (r * s)) + (r * s)) by ring. eapply Rle_trans; [apply Rabs_triang|]. pose proof big_1. assert ((M * l + N * k + 1 / 100) * u <= 1) by (rewrite u_val; nra). lra. }
  destruct (f_mul a b Fa Fb Y) as [F V]. split; auto. rewrite V. eapply Rle_trans; [apply (rnd_app _ (r * s) (M * l + N * k + 1 / 100) P); auto; lra|]. apply Rmult_le_compat_r; lra.
Qed.
