(** The sphere in double arithmetic. *)
From Coq Require Import Reals List Lra Lia ZArith Bool Arith Psatz Permutation.
From Flocq Require Import Core BinarySingleNaN.
From Verif Require Import Base Scalar Vec Model_S2 F64 F64Err F64Norm.
Import ListNotations.
Local Open Scope R_scope.

Lemma rnd_le x : Rabs (rnd x) <= 2 * Rabs x + 1.
Proof.
  pose proof (rnd_err x) as E. replace (rnd x) with ((rnd x - x) + x) by ring. eapply Rle_trans; [apply Rabs_triang|].
  pose proof (Rabs_pos x). pose proof u_pos. pose proof eta_u. assert (u <= 1 / 10) by (rewrite u_val; lra). nra.
Qed.
Definition B400 : R := bpow radix2 400.
Definition B900 : R := bpow radix2 900.
Lemma B900_big : 1000 * B900 + 1000 <= big.
Proof.
  assert (1 <= B900) by (apply (bpow_le radix2 0 900); lia). assert (E : bpow radix2 11 * B900 = bpow radix2 911) by (unfold B900; rewrite <- bpow_plus; reflexivity).
  assert (bpow radix2 911 <= big) by (apply bpow_le; lia). assert (bpow radix2 11 = 2048) by (cbn; lra). nra.
Qed.
Lemma B400_900 : 1000000 * (B400 * B400) <= B900.
Proof.
  assert (E : bpow radix2 20 * (B400 * B400) = bpow radix2 820) by (unfold B400; rewrite <- !bpow_plus; reflexivity).
  assert (bpow radix2 820 <= B900) by (apply bpow_le; lia). assert (bpow radix2 20 = 1048576) by (cbn; lra). assert (0 < B400) by apply bpow_gt_0. nra.
Qed.
Lemma B400_1 : 1000000 <= B400.
Proof. apply Rle_trans with (bpow radix2 20); [cbn; lra|apply bpow_le; lia]. Qed.
Lemma sqr_fin a : isf a -> val a * val a <= B900 -> isf (a *! a) /\ Rabs (val (a *! a)) <= 2 * B900 + 1.
Proof.
  intros F H. pose proof B900_big. assert (0 <= val a * val a) by nra. assert (A : Rabs (val a * val a) <= B900) by (rewrite Rabs_pos_eq; auto).
  destruct (f_mul a a F F) as [F' V]; [lra|]. split; auto. rewrite V. eapply Rle_trans; [apply rnd_le|]. lra.
Qed.
Lemma dot3_fin L a b c : isf a -> isf b -> isf c -> sq3 (val a) (val b) (val c) <= B900 -> isf (sum3 L (a *! a) (b *! b) (c *! c)).
Proof.
  unfold sq3. intros Fa Fb Fc H. pose proof B900_big. assert (0 < B900) by apply bpow_gt_0.
  destruct (sqr_fin a Fa) as [Pa Qa]; [nra|]. destruct (sqr_fin b Fb) as [Pb Qb]; [nra|]. destruct (sqr_fin c Fc) as [Pc Qc]; [nra|].
  assert (S : forall x y z, isf x -> isf y -> isf z -> Rabs (val x) <= 2 * B900 + 1 -> Rabs (val y) <= 2 * B900 + 1 -> Rabs (val z) <= 2 * B900 + 1 -> isf (x +! y +! z)).
  { intros x y z Fx Fy Fz Hx Hy Hz. assert (S1 : Rabs (val x + val y) <= 4 * B900 + 2) by (eapply Rle_trans; [apply Rabs_triang|]; lra).
    destruct (f_add _ _ Fx Fy) as [F1 V1]; [lra|].
    assert (Rabs (val (x +! y)) <= 8 * B900 + 5) by (rewrite V1; eapply Rle_trans; [apply rnd_le|]; lra).
    destruct (f_add _ _ F1 Fz) as [F2 V2]; [|exact F2]. eapply Rle_trans; [apply Rabs_triang|]. lra. }
  apply sum3_ind; apply S; auto.
Qed.

(** Sums of any number of terms: no overflow when the terms are small enough. *)
Lemma pow8_add n m : (1 <= n)%nat -> (1 <= m)%nat -> 4 * (8 ^ n + 8 ^ m) <= 8 ^ (n + m).
Proof.
  intros Hn Hm. assert (P : forall k, (1 <= k)%nat -> 8 <= 8 ^ k). { intros k Hk. replace 8 with (8 ^ 1) at 1 by ring. apply Rle_pow; [lra|lia]. }
  rewrite pow_add. pose proof (P n Hn). pose proof (P m Hm). nra.
Qed.
Lemma sums_bound l s : sums l s -> forall M, 0 <= M -> Forall (fun a => isf a /\ Rabs (val a) <= M) l -> 8 ^ length l * (M + 1) <= big ->
  isf s /\ Rabs (val s) <= 8 ^ length l * (M + 1).
Proof.
  induction 1 as [a|l1 l2 l a b H1 I1 H2 I2 P]; intros M HM F HB.
  - inversion F as [|? ? [Fa Ha] _]; subst. cbn [length pow]. split; auto. lra.
  - pose proof (sums_length _ _ H1) as N1. pose proof (sums_length _ _ H2) as N2. pose proof (Permutation_length P) as N. rewrite app_length in N. rewrite <- N in *.
    pose proof (Permutation_Forall (Permutation_sym P) F) as F'. apply Forall_app in F' as [F1 F2]. pose proof (pow8_add _ _ N1 N2) as Q.
    assert (P1 : 1 <= 8 ^ length l1) by (apply pow_R1_Rle; lra). assert (P2 : 1 <= 8 ^ length l2) by (apply pow_R1_Rle; lra).
    set (p := 8 ^ length l1) in *. set (q := 8 ^ length l2) in *. set (r := 8 ^ (length l1 + length l2)) in *.
    assert (R1 : 4 * (p * (M + 1)) + 4 * (q * (M + 1)) <= r * (M + 1)) by (replace (4 * (p * (M + 1)) + 4 * (q * (M + 1))) with (4 * (p + q) * (M + 1)) by ring; apply Rmult_le_compat_r; lra).
    assert (Q1 : 1 <= p * (M + 1)) by nra. assert (Q2 : 1 <= q * (M + 1)) by nra.
    destruct (I1 M HM F1) as [Fa Ba]; [lra|]. destruct (I2 M HM F2) as [Fb Bb]; [lra|].
    assert (S : Rabs (val a + val b) <= p * (M + 1) + q * (M + 1)) by (eapply Rle_trans; [apply Rabs_triang|]; lra).
    destruct (f_add a b Fa Fb) as [G V]; [lra|]. split; auto. rewrite V. eapply Rle_trans; [apply rnd_le|]. lra.
Qed.
Lemma B900_big9 : 8 ^ 9 * (3 * B900 + 2) <= big.
Proof.
  assert (1 <= B900) by (apply (bpow_le radix2 0 900); lia). assert (E : bpow radix2 30 * B900 = bpow radix2 930) by (unfold B900; rewrite <- bpow_plus; reflexivity).
  assert (bpow radix2 930 <= big) by (apply bpow_le; lia). assert (E3 : bpow radix2 30 = 1073741824) by (cbn; lra). rewrite E3 in E. cbn [pow]. lra.
Qed.
Lemma f_sum_bound L l M : (1 <= length l <= 9)%nat -> 0 <= M <= 3 * B900 + 1 -> Forall (fun a => isf a /\ Rabs (val a) <= M) l -> isf (f_sum L l) /\ Rabs (val (f_sum L l)) <= 8 ^ length l * (M + 1).
Proof.
  intros Hl [M0 HM] F. apply sums_bound; auto.
  - apply f_sum_ok. destruct l; [cbn in Hl; lia|discriminate].
  - eapply Rle_trans; [|apply B900_big9]. apply Rmult_le_compat; [apply pow_le; lra|lra|apply Rle_pow; [lra|lia]|lra].
Qed.
Lemma dot4_fin L a b c d : isf a -> isf b -> isf c -> isf d -> sq4 (val a) (val b) (val c) (val d) <= B900 -> isf (sum4 L (a *! a) (b *! b) (c *! c) (d *! d)).
Proof.
  unfold sq4. intros Fa Fb Fc Fd H. assert (0 < B900) by apply bpow_gt_0.
  pose proof (Rle_0_sqr (val a)) as Ra. pose proof (Rle_0_sqr (val b)) as Rb. pose proof (Rle_0_sqr (val c)) as Rc. pose proof (Rle_0_sqr (val d)) as Rd. unfold Rsqr in *.
  apply (f_sum_bound L _ (2 * B900 + 1)); [cbn; lia|lra|]. repeat (apply Forall_cons; [apply sqr_fin; auto; lra|]). apply Forall_nil.
Qed.

(** Norm of three doubles that is neither tiny nor huge. *)
Lemma eta_sqrt N : 1 / 16 <= N -> eta <= u * sqrt N / 1000.
Proof.
  intros H. assert (1 / 4 <= sqrt N). { apply Rsqr_incr_0_var; [|apply sqrt_pos]. unfold Rsqr. rewrite sqrt_sqrt by lra. lra. }
  pose proof eta_small as E. pose proof u_pos. assert (u ^ 10 <= u / 4000). { rewrite u_val. cbn [pow]. lra. } nra.
Qed.
Lemma eta_rel N k : 1 / 16 <= N -> k <= 100 -> k * eta <= 1 / 1000 * (u * N).
Proof.
  intros H Hk. pose proof eta_small as E. pose proof eta_pos. pose proof u_pos. assert (u ^ 10 <= u / 16000000). { rewrite u_val. cbn [pow]. lra. }
  assert (u * (1 / 16) <= u * N) by (apply Rmult_le_compat_l; lra). nra.
Qed.
Lemma norm3_err L a b c : isf a -> isf b -> isf c -> let N := sq3 (val a) (val b) (val c) in 1 / 16 <= N <= B900 ->
  isf (Bsqrt mode_NE (sum3 L (a *! a) (b *! b) (c *! c))) /\ Rabs (val (Bsqrt mode_NE (sum3 L (a *! a) (b *! b) (c *! c))) - sqrt N) <= (253 / 100) * (u * sqrt N).
Proof.
  intros Fa Fb Fc N [H1 H2]. pose proof (dot3_fin L a b c Fa Fb Fc H2) as F. destruct (dot3_err L a b c F) as (_ & _ & _ & E). cbv zeta in E. fold N in E.
  pose proof (eta_rel N 10 H1 ltac:(lra)) as T. destruct (sqrt_err _ N (3 + 1 / 100) F) as [F' E']; try lra.
  - pose proof u_pos. assert (0 <= u * N) by nra. lra.
  - apply eta_sqrt; auto.
  - split; auto. eapply Rle_trans; [exact E'|]. apply Rmult_le_compat_r; [|lra]. pose proof u_pos. pose proof (sqrt_pos N). nra.
Qed.

(** Nearly unit vectors. *)
Lemma unit_pert w o : Rabs (o - w) <= 36 / 10 * (u * Rabs w) + eta -> Rabs w <= 1 -> Rabs (o * o - w * w) <= 72 / 10 * (u * (w * w)) + u / 100.
Proof.
  intros H W. pose proof u_pos as U. pose proof eta_small as T. pose proof eta_pos as T0. set (e := o - w) in *. replace (o * o - w * w) with (2 * w * e + e * e) by (unfold e; ring).
  eapply Rle_trans; [apply Rabs_triang|]. rewrite !Rabs_mult, (Rabs_pos_eq 2) by lra. pose proof (Rabs_pos w) as W0. pose proof (Rabs_pos e) as E0.
  assert (WW : w * w = Rabs w * Rabs w) by (rewrite <- Rabs_mult; symmetry; apply Rabs_pos_eq; nra). rewrite WW. set (p := Rabs w) in *. set (q := Rabs e) in *.
  assert (T1 : eta <= u / 10000) by (assert (u ^ 10 <= u / 10000) by (rewrite u_val; cbn [pow]; lra); lra).
  assert (Up : 0 <= u * p) by nra. assert (u * p <= u) by nra.
  assert (q <= 4 * u) by lra. assert (p * q <= p * (36 / 10 * (u * p) + eta)) by (apply Rmult_le_compat_l; auto).
  assert (p * eta <= u / 10000) by nra. assert (q * q <= u / 1000). { assert (q * q <= 4 * u * (4 * u)) by nra. assert (u * 16 <= 1 / 1000) by (rewrite u_val; lra). nra. } nra.
Qed.
Lemma div_unit a N m : isf a -> val a * val a <= N -> 0 < N -> Rabs (val m - sqrt N) <= 253 / 100 * (u * sqrt N) ->
  let w := val a / sqrt N in isf (a /! m) /\ Rabs w <= 1 /\ w * w = val a * val a / N /\ Rabs (val (a /! m) - w) <= 36 / 10 * (u * Rabs w) + eta.
Proof.
  intros F H N0 E w. assert (S0 : 0 < sqrt N) by (apply sqrt_lt_R0; auto). assert (SS : sqrt N * sqrt N = N) by (apply sqrt_sqrt; lra).
  assert (W2 : w * w = val a * val a / N) by (unfold w; rewrite <- SS at 3; field; lra).
  assert (W1 : Rabs w <= 1). { apply Rabs_le. assert (w * w <= 1). { rewrite W2. apply Rmult_le_reg_r with N; auto. unfold Rdiv. rewrite Rmult_assoc, Rinv_l, Rmult_1_r by lra. lra. } split; nra. }
  destruct (quot_err a m (sqrt N) (253 / 100) F E S0 ltac:(lra)) as [F' E']; [fold w; lra|]. fold w in E'. repeat split; auto.
  eapply Rle_trans; [exact E'|]. pose proof u_pos. pose proof (Rabs_pos w). assert (0 <= u * Rabs w) by nra. lra.
Qed.
Lemma normalise3 L a b c : isf a -> isf b -> isf c -> let N := sq3 (val a) (val b) (val c) in 1 / 16 <= N <= B900 ->
  let m := Bsqrt mode_NE (sum3 L (a *! a) (b *! b) (c *! c)) in
  isf (a /! m) /\ isf (b /! m) /\ isf (c /! m) /\ Rabs (sq3 (val (a /! m)) (val (b /! m)) (val (c /! m)) - 1) <= 8 * u /\
  Rabs (val (a /! m) - val a / sqrt N) <= 4 * u /\ Rabs (val (b /! m) - val b / sqrt N) <= 4 * u /\ Rabs (val (c /! m) - val c / sqrt N) <= 4 * u.
Proof.
  intros Fa Fb Fc N H m. destruct (norm3_err L a b c Fa Fb Fc H) as [_ E]. fold N in E. fold m in E. assert (N0 : 0 < N) by lra.
  destruct (div_unit a N m Fa ltac:(unfold N, sq3; nra) N0 E) as (Ga & Ha & Sa & Ea).
  destruct (div_unit b N m Fb ltac:(unfold N, sq3; nra) N0 E) as (Gb & Hb & Sb & Eb).
  destruct (div_unit c N m Fc ltac:(unfold N, sq3; nra) N0 E) as (Gc & Hc & Sc & Ec).
  clearbody m. set (x := val a / sqrt N) in *. set (y := val b / sqrt N) in *. set (z := val c / sqrt N) in *.
  pose proof u_pos as U. pose proof eta_u as T.
  assert (One : x * x + y * y + z * z = 1) by (rewrite Sa, Sb, Sc; unfold N, sq3; field; unfold N, sq3 in N0; lra).
  pose proof (unit_pert x _ Ea Ha) as Pa. pose proof (unit_pert y _ Eb Hb) as Pb. pose proof (unit_pert z _ Ec Hc) as Pc.
  assert (Q : forall w o, Rabs w <= 1 -> Rabs (o - w) <= 36 / 10 * (u * Rabs w) + eta -> Rabs (o - w) <= 4 * u).
  { intros w o Hw Ho. assert (u * Rabs w <= u * 1) by (apply Rmult_le_compat_l; lra). lra. }
  repeat split; auto. unfold sq3. apply Rabs_ends in Pa, Pb, Pc. apply Rabs_le.
  assert (u * (x * x) + u * (y * y) + u * (z * z) = u) by (rewrite <- !Rmult_plus_distr_l, One; ring). lra.
Qed.

(** Literals. *)
Lemma lit_ok n d : (Z.abs n < 2 ^ 53)%Z -> (Zpos d < 2 ^ 53)%Z -> isf (of_Z n /! of_Z (Zpos d)) /\ Rabs (val (of_Z n /! of_Z (Zpos d)) - IZR n / IZR (Zpos d)) <= u * Rabs (IZR n / IZR (Zpos d)) + eta.
Proof.
  intros Hn Hd. destruct (of_Z_ok n Hn) as [Fn Vn]. destruct (of_Z_ok (Zpos d)) as [Fd Vd]; [exact Hd|].
  assert (D1 : 1 <= IZR (Zpos d)) by (apply IZR_le; lia).
  assert (B : Rabs (IZR n / IZR (Zpos d)) <= big).
  { unfold Rdiv. rewrite Rabs_mult, (Rabs_pos_eq (/ _)) by (apply Rlt_le, Rinv_0_lt_compat; lra). rewrite <- abs_IZR.
    assert (/ IZR (Zpos d) <= 1) by (rewrite <- Rinv_1; apply Rinv_le_contravar; lra). assert (0 < / IZR (Zpos d)) by (apply Rinv_0_lt_compat; lra).
    assert (IZR (Z.abs n) <= bpow radix2 53) by (rewrite <- (IZR_Zpower radix2) by lia; apply IZR_le; change (radix2 ^ 53)%Z with (2 ^ 53)%Z; lia).
    assert (0 <= IZR (Z.abs n)) by (apply IZR_le; lia). apply Rle_trans with (bpow radix2 53); [|apply bpow_le; lia]. nra. }
  destruct (f_div (of_Z n) (of_Z (Zpos d)) Fn ltac:(rewrite Vd; lra) ltac:(rewrite Vn, Vd; exact B)) as [F V]. split; auto. rewrite V, Vn, Vd. apply rnd_err.
Qed.
Lemma lit_abs n d k : (Z.abs n < 2 ^ 53)%Z -> (Zpos d < 2 ^ 53)%Z -> Rabs (IZR n / IZR (Zpos d)) + 1 / 100 <= k -> app (of_Z n /! of_Z (Zpos d)) (IZR n / IZR (Zpos d)) k.
Proof.
  intros Hn Hd Hk. destruct (lit_ok n d Hn Hd) as [F E]. split; auto. eapply Rle_trans; [exact E|]. pose proof u_pos. pose proof eta_u.
  rewrite (Rmult_comm u). assert ((Rabs (IZR n / IZR (Z.pos d)) + 1 / 100) * u <= k * u) by (apply Rmult_le_compat_r; lra). lra.
Qed.

(** ** One retraction *)
Lemma Rlt_bool_lt' a b : Rlt_bool a b = true -> a < b.
Proof. intros H. destruct (Rlt_bool_spec a b); auto. discriminate. Qed.
Lemma rnd_sq w : let s := rnd w in Rabs (s * s - w * w) <= 202 / 100 * (u * (w * w)) + 3 * eta.
Proof.
  intros s. pose proof (rnd_err w) as E. fold s in E. pose proof u_pos as U. pose proof eta_pos as T. pose proof eta_u as Tu. assert (U1 : u <= 1 / 100000) by (rewrite u_val; lra).
  set (e := s - w) in *. replace (s * s - w * w) with (2 * (w * e) + e * e) by (unfold e; ring).
  eapply Rle_trans; [apply Rabs_triang|]. rewrite !Rabs_mult, (Rabs_pos_eq 2) by lra. pose proof (Rabs_pos w) as W0. pose proof (Rabs_pos e) as E0.
  assert (WW : w * w = Rabs w * Rabs w) by (rewrite <- Rabs_mult; symmetry; apply Rabs_pos_eq; nra). rewrite WW. set (p := Rabs w) in *. set (q := Rabs e) in *.
  assert (Up : 0 <= u * p) by nra. assert (Upp : 0 <= u * (p * p)) by nra.
  assert (P1 : p * q <= u * (p * p) + eta * p) by nra.
  assert (P2 : eta * p <= eta + eta * (p * p)). { assert (p <= 1 + p * p) by nra. nra. }
  assert (P3 : eta * (p * p) <= u / 1000 * (p * p)) by (apply Rmult_le_compat_r; nra).
  assert (P4 : q * q <= (u * p + eta) * (u * p + eta)) by (apply Rmult_le_compat; auto).
  assert (P5 : (u * p + eta) * (u * p + eta) <= 2 * ((u * p) * (u * p)) + 2 * (eta * eta)). { pose proof (Rle_0_sqr (u * p - eta)) as Q. unfold Rsqr in Q. lra. }
  assert (P6 : (u * p) * (u * p) <= 1 / 1000 * (u * (p * p))). { replace (u * p * (u * p)) with (u * (u * (p * p))) by ring. apply Rmult_le_compat_r; lra. }
  assert (P7 : eta * eta <= 1 / 1000 * eta) by (apply Rmult_le_compat_r; lra). lra.
Qed.
Lemma dot3_app L x0 x1 x2 v0 v1 v2 : isf (sum3 L (x0 *! v0) (x1 *! v1) (x2 *! v2)) -> sq3 (val x0) (val x1) (val x2) <= 1 + 1 / 1000 -> sq3 (val v0) (val v1) (val v2) <= 4 ->
  app (sum3 L (x0 *! v0) (x1 *! v1) (x2 *! v2)) (val x0 * val v0 + val x1 * val v1 + val x2 * val v2) 30.
Proof.
  intros F X V. unfold sq3 in *. pose proof (sum3_fin _ _ _ _ F) as (F3 & F4 & F2).
  apply mul_fin in F2 as (A2 & B2 & _). apply mul_fin in F3 as (A0 & B0 & _). apply mul_fin in F4 as (A1 & B1 & _).
  assert (Bx : forall a, a * a <= 1 + 1 / 1000 -> Rabs a <= 11 / 10) by (intros a H; apply Rabs_le; nra).
  assert (Bv : forall a, a * a <= 4 -> Rabs a <= 2) by (intros a H; apply Rabs_le; nra).
  assert (M : forall a b, isf a -> isf b -> Rabs (val a) <= 11 / 10 -> Rabs (val b) <= 2 -> app (a *! b) (val a * val b) 3).
  { intros a b Fa Fb Ha Hb. eapply app_weak; [eapply (app_mul a b _ _ 0 0 (11 / 10) 2); auto using app_exact; lra|lra]. }
  assert (N : forall a b, Rabs a <= 11 / 10 -> Rabs b <= 2 -> Rabs (a * b) <= 22 / 10).
  { intros a b Ha Hb. rewrite Rabs_mult. replace (22 / 10) with (11 / 10 * 2) by field. apply Rmult_le_compat; auto using Rabs_pos. }
  assert (X0 : Rabs (val x0) <= 11 / 10) by (apply Bx; nra). assert (X1 : Rabs (val x1) <= 11 / 10) by (apply Bx; nra). assert (X2 : Rabs (val x2) <= 11 / 10) by (apply Bx; nra).
  assert (V0 : Rabs (val v0) <= 2) by (apply Bv; nra). assert (V1 : Rabs (val v1) <= 2) by (apply Bv; nra). assert (V2 : Rabs (val v2) <= 2) by (apply Bv; nra).
  assert (S : forall p q r a b c, app p a 3 -> app q b 3 -> app r c 3 -> Rabs a <= 22 / 10 -> Rabs b <= 22 / 10 -> Rabs c <= 22 / 10 -> app (p +! q +! r) (a + b + c) 30).
  { intros p q r a b c Hp Hq Hr Na Nb Nc. eapply app_weak; [eapply app_add; [eapply app_add; [exact Hp|exact Hq|exact Na|exact Nb|..]|exact Hr| |exact Nc|..]; try lra|].
    - eapply Rle_trans; [apply Rabs_triang|]. apply Rplus_le_compat; eauto.
    - lra.
    - lra. }
  apply sum3_ind; [apply S; auto| |].
  - replace (val x0 * val v0 + val x1 * val v1 + val x2 * val v2) with (val x0 * val v0 + val x2 * val v2 + val x1 * val v1) by ring. apply S; auto.
  - replace (val x0 * val v0 + val x1 * val v1 + val x2 * val v2) with (val x1 * val v1 + val x2 * val v2 + val x0 * val v0) by ring. apply S; auto.
Qed.

Section S2.
Variable L : libm.
Local Notation SK := (F64 L).
Definition lit8 : f64 := klit (Scalar:=SK) 1 100000000.
Lemma lit8_ok : isf lit8 /\ 9 / 1000000000 <= val lit8 <= 11 / 1000000000.
Proof.
  destruct (lit_ok 1 100000000 eq_refl eq_refl) as [F E]. split; [exact F|]. apply Rabs_ends in E. rewrite Rabs_pos_eq in E by lra.
  pose proof eta_small as T. assert (u ^ 10 <= 1 / 100000000000) by (rewrite u_val; cbn [pow]; lra). rewrite u_val in E. unfold lit8. cbn [klit SK F64]. lra.
Qed.

(** Starting within 1/1000 of the sphere, with a tangent vector that passes the check and is not huge. *)
Lemma s2_step x0 x1 x2 v0 v1 v2 out : isf x0 -> isf x1 -> isf x2 -> Rabs (sq3 (val x0) (val x1) (val x2) - 1) <= 1 / 1000 ->
  Rabs (val v0) <= B400 -> Rabs (val v1) <= B400 -> Rabs (val v2) <= B400 -> length out = 3%nat ->
  s2_isInTxM (SK:=SK) [x0; x1; x2] [v0; v1; v2] lit8 = true ->
  let w0 := val x0 + val v0 in let w1 := val x1 + val v1 in let w2 := val x2 + val v2 in let W := sq3 w0 w1 w2 in
  exists y0 y1 y2, s2_retractation (SK:=SK) out [x0; x1; x2] [v0; v1; v2] = Ok [y0; y1; y2] /\ isf y0 /\ isf y1 /\ isf y2 /\
    Rabs (sq3 (val y0) (val y1) (val y2) - 1) <= 8 * u /\ 1 / 4 <= W /\
    Rabs (val y0 - w0 / sqrt W) <= 8 * u /\ Rabs (val y1 - w1 / sqrt W) <= 8 * u /\ Rabs (val y2 - w2 / sqrt W) <= 8 * u.
Proof.
  intros F0 F1 F2 HX B0 B1 B2 Lo T w0 w1 w2 W. apply Rabs_ends in HX.
  unfold s2_isInTxM in T. cbn [dot map2 ksum kabs kltb kadd kmul SK F64] in T.
  destruct lit8_ok as [Fl [L1 L2]]. pose proof (ltb_fin _ _ Fl T) as FD.
  fold (sum3 L (x0 *! v0) (x1 *! v1) (x2 *! v2)) in T, FD. pose proof (sum3_fin _ _ _ _ FD) as (G3 & G4 & G2).
  apply mul_fin in G2 as (_ & Fv2 & _). apply mul_fin in G3 as (_ & Fv0 & _). apply mul_fin in G4 as (_ & Fv1 & _).
  pose proof u_pos as U. pose proof eta_pos as Te. pose proof eta_small as Ts.
  assert (Eq : forall a b, (a + b) * (a + b) >= b * b / 2 - a * a) by (intros a b; pose proof (Rle_0_sqr (2 * a + b)) as Q; unfold Rsqr in Q; lra).
  assert (WL : 1 / 2 <= W).
  { destruct (Rle_dec (sq3 (val v0) (val v1) (val v2)) 4) as [S|S].
    - destruct (dot3_app L _ _ _ _ _ _ FD ltac:(lra) S) as [_ E]. apply Rabs_ends in E.
      rewrite f_ltb in T; [|apply f_abs; auto|auto]. apply Rlt_bool_lt' in T.
      destruct (f_abs _ FD) as [_ VA]. rewrite VA in T. pose proof (Rabs_ends _ _ (Rlt_le _ _ T)) as T2.
      assert (30 * u <= 1 / 100000000) by (rewrite u_val; lra). unfold W, w0, w1, w2, sq3 in *. nra.
    - apply Rnot_le_lt in S. unfold W, w0, w1, w2, sq3 in *. pose proof (Eq (val x0) (val v0)). pose proof (Eq (val x1) (val v1)). pose proof (Eq (val x2) (val v2)). lra. }
  assert (XB : forall a, a * a <= 2 -> Rabs a <= 2) by (intros a H; apply Rabs_le; nra).
  assert (X0 : Rabs (val x0) <= 2) by (apply XB; unfold sq3 in HX; nra). assert (X1 : Rabs (val x1) <= 2) by (apply XB; unfold sq3 in HX; nra). assert (X2 : Rabs (val x2) <= 2) by (apply XB; unfold sq3 in HX; nra).
  pose proof B900_big as BB. pose proof B400_900 as BC. pose proof B400_1 as BD.
  assert (WB : forall a b, Rabs a <= 2 -> Rabs b <= B400 -> Rabs (a + b) <= 2 * B400) by (intros a b Ha Hb; eapply Rle_trans; [apply Rabs_triang|]; lra).
  assert (Q0 : Rabs w0 <= 2 * B400) by (apply WB; auto). assert (Q1 : Rabs w1 <= 2 * B400) by (apply WB; auto). assert (Q2 : Rabs w2 <= 2 * B400) by (apply WB; auto).
  assert (SB : forall a, Rabs a <= 2 * B400 -> a * a <= 4 * (B400 * B400)) by (intros a Ha; apply Rabs_ends in Ha; nra).
  assert (WU : W <= 12 * (B400 * B400)) by (unfold W, sq3; pose proof (SB _ Q0); pose proof (SB _ Q1); pose proof (SB _ Q2); lra).
  assert (BE : 2 * B400 <= big) by nra.
  destruct (f_add x0 v0 F0 Fv0) as [Fs0 Vs0]; [fold w0; lra|]. destruct (f_add x1 v1 F1 Fv1) as [Fs1 Vs1]; [fold w1; lra|]. destruct (f_add x2 v2 F2 Fv2) as [Fs2 Vs2]; [fold w2; lra|].
  fold w0 in Vs0. fold w1 in Vs1. fold w2 in Vs2.
  pose proof (rnd_sq w0) as R0. pose proof (rnd_sq w1) as R1. pose proof (rnd_sq w2) as R2. cbv zeta in R0, R1, R2. rewrite <- Vs0 in R0. rewrite <- Vs1 in R1. rewrite <- Vs2 in R2.
  set (s0 := x0 +! v0) in *. set (s1 := x1 +! v1) in *. set (s2 := x2 +! v2) in *.
  set (N := sq3 (val s0) (val s1) (val s2)).
  assert (DN : Rabs (N - W) <= 205 / 100 * (u * W)).
  { apply Rabs_ends in R0, R1, R2. assert (9 * eta <= 1 / 1000 * (u * W)) by (apply eta_rel; lra). apply Rabs_le. unfold N, W, sq3 in *. nra. }
  apply Rabs_ends in DN. assert (U1 : u <= 1 / 100000) by (rewrite u_val; lra). assert (UW : 0 <= u * W <= W / 100000) by nra.
  assert (NB : 1 / 16 <= N <= B900) by (split; [lra|]; nra).
  destruct (normalise3 L s0 s1 s2 Fs0 Fs1 Fs2 NB) as (Y0 & Y1 & Y2 & YN & E0 & E1 & E2). fold N in E0, E1, E2.
  set (m := Bsqrt mode_NE (sum3 L (s0 *! s0) (s1 *! s1) (s2 *! s2))) in *.
  exists (s0 /! m), (s1 /! m), (s2 /! m). split.
  { unfold s2_retractation, vadd, vdivs, norm, sqnorm. cbn [same_size List.length eigen_assert Nat.eqb bind as_vec3 map2 map dot ksum kadd kmul kdiv ksqrt SK F64].
    unfold assign. rewrite Lo. reflexivity. }
  split; [auto|]. split; [auto|]. split; [auto|]. split; [auto|]. split; [lra|].
  assert (SW : 0 < sqrt W) by (apply sqrt_lt_R0; lra). assert (SWW : sqrt W * sqrt W = W) by (apply sqrt_sqrt; lra).
  assert (SN : 0 < sqrt N) by (apply sqrt_lt_R0; lra). assert (SNN : sqrt N * sqrt N = N) by (apply sqrt_sqrt; lra).
  assert (DS : Rabs (sqrt N - sqrt W) <= 205 / 100 * (u * sqrt W)).
  { set (n := sqrt N) in *. set (w := sqrt W) in *. rewrite <- SNN, <- SWW in DN. clearbody n w. clear - DN SW SN U.
    apply Rabs_le. split; apply Rmult_le_reg_r with (n + w); try lra; nra. }
  assert (SH : 1 / 2 <= sqrt W). { apply Rsqr_incr_0_var; [|apply sqrt_pos]. unfold Rsqr. rewrite SWW. lra. }
  assert (Fin : forall s w y, val s = rnd w -> val s * val s <= N -> w * w <= W -> Rabs (val y - val s / sqrt N) <= 4 * u -> Rabs (val y - w / sqrt W) <= 8 * u).
  { intros s w y Vs Hs Hw Hy. pose proof (rnd_err w) as Er. rewrite <- Vs in Er. 
    assert (HsN : Rabs (val s / sqrt N) <= 1). { unfold Rdiv. rewrite Rabs_mult, (Rabs_pos_eq (/ _)) by (apply Rlt_le, Rinv_0_lt_compat; auto). apply Rmult_le_reg_r with (sqrt N); auto. rewrite Rmult_assoc, Rinv_l, Rmult_1_r, Rmult_1_l by lra. apply Rabs_le. split; nra. }
    assert (HwW : Rabs w <= sqrt W) by (apply Rabs_le; split; nra).
    assert (A : Rabs (val s / sqrt N - w / sqrt W) <= 32 / 10 * u).
    { replace (val s / sqrt N - w / sqrt W) with (((val s - w) - (val s / sqrt N) * (sqrt N - sqrt W)) / sqrt W) by (field; split; lra).
      unfold Rdiv at 1. rewrite Rabs_mult, (Rabs_pos_eq (/ sqrt W)) by (apply Rlt_le, Rinv_0_lt_compat; auto).
      apply Rmult_le_reg_r with (sqrt W); auto. rewrite Rmult_assoc, Rinv_l, Rmult_1_r by lra. unfold Rminus at 1. eapply Rle_trans; [apply Rabs_triang|]. rewrite Rabs_Ropp, Rabs_mult.
      assert (Rabs (val s / sqrt N) * Rabs (sqrt N - sqrt W) <= 1 * (205 / 100 * (u * sqrt W))) by (apply Rmult_le_compat; auto using Rabs_pos).
      assert (eta <= u * sqrt W / 1000) by (apply eta_sqrt; lra). assert (u * Rabs w <= u * sqrt W) by (apply Rmult_le_compat_l; lra). assert (0 <= u * sqrt W) by nra. lra. }
    replace (val y - w / sqrt W) with ((val y - val s / sqrt N) + (val s / sqrt N - w / sqrt W)) by ring. eapply Rle_trans; [apply Rabs_triang|]. lra. }
  split; [|split].
  - apply (Fin s0); auto; unfold N, W, sq3; nra.
  - apply (Fin s1); auto; unfold N, W, sq3; nra.
  - apply (Fin s2); auto; unfold N, W, sq3; nra.
Qed.

(** isInM on the sphere. *)
Lemma near_one N m d : Rabs (N - 1) <= d -> d <= 1 / 100 -> isf m -> Rabs (val m - sqrt N) <= 4 * (u * sqrt N) -> 
  let one := of_Z 1 in isf (Babs (m -! one)) /\ val (Babs (m -! one)) <= d + 6 * u.
Proof.
  intros H Hd Fm E one. destruct (of_Z_ok 1 eq_refl) as [F1 V1]. fold one in F1, V1. apply Rabs_ends in H. pose proof u_pos as U. assert (U1 : u <= 1 / 100000) by (rewrite u_val; lra). pose proof eta_u as T.
  assert (S0 : 0 <= sqrt N) by apply sqrt_pos. assert (SS : sqrt N * sqrt N = N) by (apply sqrt_sqrt; lra).
  assert (S1 : - d <= sqrt N - 1 <= d) by (split; nra). apply Rabs_ends in E.
  assert (u * sqrt N <= 101 / 100 * u) by nra.
  assert (D : Rabs (val m - val one) <= d + 41 / 10 * u) by (rewrite V1; apply Rabs_le; lra).
  destruct (f_sub m one Fm F1) as [Fs Vs]; [pose proof big_1; lra|]. destruct (f_abs _ Fs) as [Fa Va]. split; auto. rewrite Va, Vs.
  pose proof (rnd_err (val m - val one)) as Er. set (e := val m - val one) in *. replace (rnd e) with ((rnd e - e) + e) by ring. eapply Rle_trans; [apply Rabs_triang|].
  assert (u * Rabs e <= u * 1) by (apply Rmult_le_compat_l; lra). lra.
Qed.
Lemma s2_isInM_ok x0 x1 x2 p d : isf x0 -> isf x1 -> isf x2 -> Rabs (sq3 (val x0) (val x1) (val x2) - 1) <= d -> d <= 1 / 100 -> isf p -> d + 6 * u < val p ->
  s2_isInM (SK:=SK) [x0; x1; x2] p = true.
Proof.
  intros F0 F1 F2 H Hd Fp Hp. pose proof (Rabs_ends _ _ H) as H'. pose proof B400_900. pose proof B400_1.
  destruct (norm3_err L x0 x1 x2 F0 F1 F2) as [Fm Em]; [split; [lra|nra]|]. 
  destruct (near_one _ _ d H Hd Fm) as [Fa Va]. { eapply Rle_trans; [exact Em|]. apply Rmult_le_compat_r; [|lra]. pose proof u_pos. pose proof (sqrt_pos (sq3 (val x0) (val x1) (val x2))). nra. }
  unfold s2_isInM, norm, sqnorm. cbn [dot map2 ksum kabs kltb kadd kmul ksub ksqrt k1 SK F64]. fold (sum3 L (x0 *! x0) (x1 *! x1) (x2 *! x2)). rewrite f_ltb by auto. apply Rlt_bool_true. lra.
Qed.
End S2.
