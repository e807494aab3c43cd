(** ExpMapMatrix::forceOnM_ in double arithmetic: what its test lets through, and the Gram-Schmidt loop. *)
From Coq Require Import Reals List Lra Lia ZArith Bool Arith Psatz Permutation.
From Flocq Require Import Core BinarySingleNaN.
From Verif Require Import Base Scalar Vec Model_Real Model_S2 Model_SO3 Model_Manifold Spec Layout Comp Indep Flat Points
  XR SpecR RotR NumVec NumTree NumS2 Drift Force F64 F64Err F64Norm F64S2 F64Exp F64Quat F64Mat F64Mat2.
Import ListNotations.
Local Open Scope R_scope.

(** ** Sums of squares are never negative, not even when they overflow *)
Lemma sq_sign a : Bsign (a *! a) = false.
Proof.
  pose proof (Bmult_correct 53 1024 _ _ mode_NE a a) as C. rewrite xorb_nilpotent in C. destruct (Rlt_bool _ _).
  - destruct C as (_ & _ & C). destruct (is_nan (a *! a)) eqn:E; [|auto]. destruct (a *! a); try discriminate E. reflexivity.
  - destruct (a *! a) as [s|s| |s m e H]; cbn in C; try discriminate C; inversion C; reflexivity.
Qed.
Lemma val_sign a : Bsign a = false -> 0 <= val a.
Proof. destruct a as [s|s| |s m e H]; cbn [Bsign B2R]; intros E; try lra. subst s. apply F2R_ge_0. cbn. lia. Qed.
Lemma add_sign a b : Bsign a = false -> Bsign b = false -> Bsign (a +! b) = false.
Proof.
  intros Ha Hb. destruct (is_finite a) eqn:Fa; destruct (is_finite b) eqn:Fb.
  - pose proof (Bplus_correct 53 1024 _ _ mode_NE a b Fa Fb) as C. destruct (Rlt_bool _ _).
    + destruct C as (_ & _ & C). rewrite C, Ha, Hb. pose proof (val_sign a Ha). pose proof (val_sign b Hb).
      destruct (Rcompare_spec (val a + val b) 0); auto. lra.
    + destruct C as [C _]. rewrite Ha in C. destruct (a +! b) as [s|s| |s m e H]; cbn in C; try discriminate C; inversion C; reflexivity.
  - destruct a as [s|s| |s m e H]; destruct b as [s'|s'| |s' m' e' H']; try discriminate; cbn in *; auto.
  - destruct a as [s|s| |s m e H]; destruct b as [s'|s'| |s' m' e' H']; try discriminate; cbn in *; auto.
  - destruct a as [s|s| |s m e H]; destruct b as [s'|s'| |s' m' e' H']; try discriminate; cbn in *; auto. subst. reflexivity.
Qed.
Lemma leb_sign X Y : Bsign X = false -> isf Y -> Bleb X Y = true -> isf X /\ val X <= val Y.
Proof.
  intros S F H. assert (FX : isf X).
  { destruct X as [s|s| |s m e HX]; try reflexivity; cbn in S; [subst s|]; destruct Y as [s'|s'| |s' m' e' H']; try discriminate F; cbn in H; discriminate H. }
  split; auto. rewrite f_leb in H by auto. destruct (Rle_bool_spec (val X) (val Y)); auto. discriminate.
Qed.
Lemma sub_fin a b : isf (a -! b) -> isf a /\ isf b /\ val (a -! b) = rnd (val a - val b).
Proof.
  intros H. assert (Fa : isf a). { destruct a as [s|s| |s m e Hb]; try reflexivity; exfalso; destruct b as [s'|s'| |s' m' e' Hb']; try discriminate H; cbn in H; destruct (Bool.eqb s _); discriminate H. }
  assert (Fb : isf b). { destruct b as [s|s| |s m e Hb]; try reflexivity; exfalso; destruct a as [s'|s'| |s' m' e' Hb']; try discriminate H; discriminate Fa. }
  split; [auto|]. split; [auto|]. pose proof (Bminus_correct 53 1024 _ _ mode_NE a b Fa Fb) as C. destruct (Rlt_bool _ _).
  - apply C.
  - exfalso. destruct C as [C _]. unfold isf in H. rewrite <- is_finite_SF_B2SF, C in H. destruct (Bsign a); discriminate H.
Qed.
Lemma rnd_fix a : rnd (val a) = val a.
Proof. unfold rnd. apply round_generic; [typeclasses eauto|]. apply (generic_format_B2R 53 1024). Qed.
Lemma rnd_mono x y : x <= y -> rnd x <= rnd y.
Proof. apply round_le; typeclasses eauto. Qed.
Lemma add_ge a b : isf (a +! b) -> Bsign a = false -> Bsign b = false -> (isf a /\ val a <= val (a +! b)) /\ (isf b /\ val b <= val (a +! b)).
Proof.
  intros F Sa Sb. apply add_fin in F as (Fa & Fb & V). apply val_sign in Sa, Sb. repeat split; auto; rewrite V.
  - rewrite <- (rnd_fix a) at 1. apply rnd_mono. lra.
  - rewrite <- (rnd_fix b) at 1. apply rnd_mono. lra.
Qed.
(** A real whose rounding is small. *)
Lemma rnd_back y B : Rabs (rnd y) <= B -> B <= 1 -> Rabs y <= B + 2 * u.
Proof.
  intros H HB. pose proof (rnd_err y) as E. pose proof u_pos as U. pose proof eta_u as T. assert (U1 : u <= 1 / 1000) by (rewrite u_val; lra).
  assert (Y : Rabs y <= Rabs (rnd y) + Rabs (rnd y - y)). { replace y with (rnd y - (rnd y - y)) at 1 by ring. unfold Rminus at 1. eapply Rle_trans; [apply Rabs_triang|]. rewrite Rabs_Ropp. lra. }
  pose proof (Rabs_pos y). nra.
Qed.
Lemma small_sq t : isf (t *! t) -> val (t *! t) <= 301 / 10000 -> isf t /\ Rabs (val t) <= 1736 / 10000.
Proof.
  intros F H. apply mul_fin in F as (Ft & _ & V). split; auto. rewrite V in H. assert (P : 0 <= rnd (val t * val t)). { rewrite <- V. apply val_sign, sq_sign. }
  pose proof (rnd_back (val t * val t) (301 / 10000)) as E. rewrite (Rabs_pos_eq (rnd _)) in E by auto. specialize (E H ltac:(lra)).
  assert (U1 : u <= 1 / 10 ^ 15) by (rewrite u_val; lra). rewrite Rabs_pos_eq in E by nra. apply sq_le_abs; lra.
Qed.

(** ** The test *)
Definition near17 (A : m3 R) : Prop :=
  let G := rmul (rtr A) A in
  (Rabs (a00 G - 1) <= 175 / 1000 /\ Rabs (a11 G - 1) <= 175 / 1000 /\ Rabs (a22 G - 1) <= 175 / 1000) /\
  (Rabs (a01 G) <= 175 / 1000 /\ Rabs (a02 G) <= 175 / 1000 /\ Rabs (a12 G) <= 175 / 1000) /\ Rabs (rdet A - 1) <= 101 / 1000.
Section Gs.
Variable L : libm.
Local Notation SK := (F64 L).
#[local] Hint Extern 0 (Scalar f64) => exact (F64 L) : typeclass_instances.

Lemma sums_sign l s : sums l s -> Forall (fun a => Bsign a = false) l -> Bsign s = false.
Proof.
  induction 1 as [a|l1 l2 l a b H1 I1 H2 I2 P]; intros A; [inversion A; auto|].
  pose proof (Permutation_Forall (Permutation_sym P) A) as A'. apply Forall_app in A' as [A1 A2]. apply add_sign; auto.
Qed.
Lemma sums_ge l s : sums l s -> forall M, isf s -> val s <= M -> Forall (fun a => Bsign a = false) l -> Forall (fun t => isf t /\ val t <= M) l.
Proof.
  induction 1 as [a|l1 l2 l a b H1 I1 H2 I2 P]; intros M F H A; [auto|].
  pose proof (Permutation_Forall (Permutation_sym P) A) as A'. apply Forall_app in A' as [A1 A2]. apply (Permutation_Forall P). apply Forall_app.
  destruct (add_ge a b F (sums_sign _ _ H1 A1) (sums_sign _ _ H2 A2)) as [[Fa Ha] [Fb Hb]]. split; [apply I1|apply I2]; auto; lra.
Qed.
(** Sums of zeroes and ones are exact. *)
Lemma of_Z_add i j : (i <= 9)%nat -> (j <= 9)%nat -> of_Z (Z.of_nat i) +! of_Z (Z.of_nat j) = of_Z (Z.of_nat (i + j)).
Proof.
  intros Hi Hj. apply B2SF_inj.
  do 10 (destruct i as [|i]; [do 10 (destruct j as [|j]; [vm_compute; reflexivity|]); lia|]). lia.
Qed.
Lemma sums_ones l s : sums l s -> forall (n : list nat), Permutation l (map (fun i => of_Z (Z.of_nat i)) n) -> (list_sum n <= 9)%nat -> s = of_Z (Z.of_nat (list_sum n)).
Proof.
  induction 1 as [a|l1 l2 l a b H1 I1 H2 I2 P]; intros n Q B.
  - pose proof (Permutation_length Q) as N. rewrite map_length in N. destruct n as [|i [|]]; try discriminate N. apply Permutation_length_1 in Q. cbn [list_sum fold_right]. rewrite Nat.add_0_r. exact Q.
  - destruct (Permutation_map_inv _ _ (Permutation_trans P Q)) as (m & E & Pm). symmetry in E. apply map_eq_app in E as (m1 & m2 & -> & E1 & E2). subst l1 l2.
    assert (S : list_sum n = (list_sum m1 + list_sum m2)%nat). { rewrite <- list_sum_app. clear - Pm. revert Pm. generalize (m1 ++ m2). intros k Pk. unfold list_sum. induction Pk; cbn [fold_right]; lia. }
    rewrite S in *. rewrite (I1 m1), (I2 m2) by (auto; lia). apply of_Z_add; lia.
Qed.
Lemma sqsum_sign (D : m3 f64) : Bsign (m3_sqsum (SK:=SK) D) = false.
Proof.
  unfold m3_sqsum, sqnorm, m3_to_list. cbn [dot map2 ksum kadd kmul F64]. eapply sums_sign; [apply f_sum_ok; discriminate|]. repeat (apply Forall_cons; [apply sq_sign|]). apply Forall_nil.
Qed.
Lemma sqsum_small (D : m3 f64) : isf (m3_sqsum (SK:=SK) D) -> val (m3_sqsum (SK:=SK) D) <= 301 / 10000 ->
  mfin D /\ Forall (fun t => Rabs (val t) <= 1736 / 10000) (m3_to_list D).
Proof.
  destruct D as [d0 d1 d2 d3 d4 d5 d6 d7 d8]. unfold m3_sqsum, sqnorm, m3_to_list, mfin. cbn [dot map2 ksum kadd kmul F64 a00 a01 a02 a10 a11 a12 a20 a21 a22]. intros F H.
  assert (A : Forall (fun t => isf t /\ val t <= 301 / 10000) [d0 *! d0; d3 *! d3; d6 *! d6; d1 *! d1; d4 *! d4; d7 *! d7; d2 *! d2; d5 *! d5; d8 *! d8]).
  { eapply sums_ge; [apply (f_sum_ok L); discriminate|exact F|exact H|]. repeat (apply Forall_cons; [apply sq_sign|]). apply Forall_nil. }
  clear F H.
  repeat match goal with A : Forall _ (?b *! ?b :: _) |- _ => let F := fresh in let H := fresh in apply Forall_cons_iff in A as [[F H] A]; apply (small_sq b F) in H; clear F; destruct H end.
  split; [tauto|]. repeat (apply Forall_cons; [assumption|]). apply Forall_nil.
Qed.
Definition lit1 : f64 := klit (Scalar:=SK) 1 10.
Lemma lit1_ok : isf lit1 /\ 999999 / 10000000 <= val lit1 <= 1000001 / 10000000.
Proof.
  destruct (lit_ok 1 10 eq_refl eq_refl) as [F E]. split; [exact F|]. apply Rabs_ends in E. rewrite Rabs_pos_eq in E by lra.
  pose proof eta_u. assert (u <= 1 / 10 ^ 15) by (rewrite u_val; lra). unfold lit1. cbn [klit F64]. lra.
Qed.
Lemma lit1_sq : isf (lit1 *! lit1) /\ 9999 / 1000000 <= val (lit1 *! lit1) <= 10001 / 1000000.
Proof.
  destruct lit1_ok as [F V]. destruct (f_mul lit1 lit1 F F) as [F2 V2]. { pose proof big_1. apply Rabs_le. nra. } split; auto.
  pose proof (rnd_err (val lit1 * val lit1)) as E. rewrite <- V2 in E. rewrite (Rabs_pos_eq (val lit1 * _)) in E by nra. apply Rabs_ends in E. pose proof eta_u. assert (u <= 1 / 10 ^ 15) by (rewrite u_val; lra). pose proof u_pos.
  assert (9998 / 1000000 <= val lit1 * val lit1 <= 10001 / 1000000) by nra. nra.
Qed.
Lemma sqsum_id : m3_sqsum (SK:=SK) (m3_id (SK:=SK)) = of_Z 3.
Proof.
  assert (E1 : of_Z 1 *! of_Z 1 = of_Z (Z.of_nat 1)) by (apply B2SF_inj; vm_compute; reflexivity). assert (E0 : (B754_zero false : f64) *! B754_zero false = of_Z (Z.of_nat 0)) by (apply B2SF_inj; vm_compute; reflexivity).
  unfold m3_sqsum, sqnorm, m3_to_list, m3_id. cbn [dot map2 ksum kadd kmul k0 k1 F64 a00 a01 a02 a10 a11 a12 a20 a21 a22]. rewrite E0, E1.
  change 3%Z with (Z.of_nat (list_sum [1; 0; 0; 0; 1; 0; 0; 0; 1]%nat)). eapply sums_ones; [apply (f_sum_ok L); discriminate| |cbn; lia]. cbn [map]. apply Permutation_refl.
Qed.
Lemma mul_nan a : a *! B754_nan = B754_nan.
Proof. destruct a; reflexivity. Qed.
Lemma approx_small (D G : m3 f64) : (m3_sqsum (SK:=SK) D <=? lit1 * lit1 * kmin (H:=SK) (m3_sqsum (SK:=SK) G) (m3_sqsum (SK:=SK) (m3_id (SK:=SK))))%k = true ->
  isf (m3_sqsum (SK:=SK) D) /\ val (m3_sqsum (SK:=SK) D) <= 301 / 10000.
Proof.
  rewrite sqsum_id. pose proof (sqsum_sign D) as SD. pose proof (sqsum_sign G) as SG. set (X := m3_sqsum D) in *. set (A := m3_sqsum G) in *. clearbody X A.
  destruct lit1_sq as [Fp Vp]. unfold kmin. cbn [kleb kltb kmul F64]. destruct (of_Z_ok 3 eq_refl) as [F3 V3].
  pose proof eta_u. assert (u <= 1 / 10 ^ 15) by (rewrite u_val; lra). pose proof u_pos. pose proof big_1.
  assert (G3 : forall a, isf a -> 0 <= val a <= 3 -> Bleb X (lit1 *! lit1 *! a) = true -> isf X /\ val X <= 301 / 10000).
  { intros a Fa Va H'. destruct (f_mul (lit1 *! lit1) a Fp Fa) as [Fm Vm]; [apply Rabs_le; nra|]. destruct (leb_sign X _ SD Fm H') as [FX VX]. split; auto.
    pose proof (rnd_err (val (lit1 *! lit1) * val a)) as E. rewrite <- Vm in E. rewrite (Rabs_pos_eq (_ * _)) in E by nra. apply Rabs_ends in E.
    assert (0 <= val (lit1 *! lit1) * val a <= 30003 / 1000000) by nra. nra. }
  destruct (Bltb (of_Z 3) A) eqn:E.
  - apply G3; auto. rewrite V3. lra.
  - destruct (is_finite A) eqn:FA.
    + apply G3; auto. split; [apply val_sign; auto|]. rewrite f_ltb in E by auto. rewrite <- V3. destruct (Rlt_bool_spec (val (of_Z 3)) (val A)); [discriminate|lra].
    + intros H'. exfalso. destruct A as [s|s| |s m e HA]; try discriminate FA.
      * cbn in SG. subst s. vm_compute in E. discriminate.
      * rewrite mul_nan in H'. destruct X as [s'|s'| |s' m' e' HX]; try discriminate H'; destruct s'; discriminate.
Qed.
Lemma s3_app11 a b c d e f : isf a -> isf b -> isf c -> isf d -> isf e -> isf f ->
  Rabs (val a) <= 11 / 10 -> Rabs (val b) <= 11 / 10 -> Rabs (val c) <= 11 / 10 -> Rabs (val d) <= 11 / 10 -> Rabs (val e) <= 11 / 10 -> Rabs (val f) <= 11 / 10 ->
  app (s3 (SK:=SK) a b c d e f) (val a * val b + val c * val d + val e * val f) 11.
Proof.
  intros Fa Fb Fc Fd Fe Ff Ba Bb Bc Bd Be Bf. unfold s3. cbn [ksum kadd kmul F64].
  assert (M : forall x y, isf x -> isf y -> Rabs (val x) <= 11 / 10 -> Rabs (val y) <= 11 / 10 -> app (x *! y) (val x * val y) (124 / 100) /\ Rabs (val x * val y) <= 121 / 100).
  { intros x y Fx Fy Bx By. assert (Rabs (val x * val y) <= 121 / 100) by (eapply Rle_trans; [apply abs_prod; eauto|]; lra). split; auto.
    eapply app_weak; [apply (app_mulP _ _ _ _ _ _ (11 / 10) (11 / 10) (121 / 100) (app_exact x Fx) (app_exact y Fy)); lra|lra]. }
  destruct (M _ _ Fa Fb Ba Bb) as [A1 P1]. destruct (M _ _ Fc Fd Bc Bd) as [A2 P2]. destruct (M _ _ Fe Ff Be Bf) as [A3 P3].
  assert (P : forall x y, Rabs x <= 121 / 100 -> Rabs y <= 121 / 100 -> Rabs (x + y) <= 242 / 100) by (intros; eapply Rle_trans; [apply Rabs_triang|lra]).
  eapply app_weak; [eapply (app_sum3 L _ _ _ _ _ _ _ (242 / 100) (363 / 100) A1 A2 A3); try lra; auto|lra].
  eapply Rle_trans; [apply Rabs_triang|]. pose proof (P _ _ P1 P2). lra.
Qed.
Definition mbound (B : R) (X : m3 f64) : Prop :=
  (Rabs (val (a00 X)) <= B /\ Rabs (val (a10 X)) <= B /\ Rabs (val (a20 X)) <= B) /\
  (Rabs (val (a01 X)) <= B /\ Rabs (val (a11 X)) <= B /\ Rabs (val (a21 X)) <= B) /\
  (Rabs (val (a02 X)) <= B /\ Rabs (val (a12 X)) <= B /\ Rabs (val (a22 X)) <= B).
Lemma det_app11 X : mfin X -> mbound (11 / 10) X -> app (m3_det (SK:=SK) X) (rdet (mval X)) 60.
Proof.
  intros (F00 & F01 & F02 & F10 & F11 & F12 & F20 & F21 & F22) ((X00 & X10 & X20) & (X01 & X11 & X21) & (X02 & X12 & X22)).
  assert (M : forall x y, isf x -> isf y -> Rabs (val x) <= 11 / 10 -> Rabs (val y) <= 11 / 10 -> app (x *! y) (val x * val y) (124 / 100) /\ Rabs (val x * val y) <= 121 / 100).
  { intros x y Fx Fy Bx By. assert (Rabs (val x * val y) <= 121 / 100) by (eapply Rle_trans; [apply abs_prod; eauto|]; lra). split; auto.
    eapply app_weak; [apply (app_mulP _ _ _ _ _ _ (11 / 10) (11 / 10) (121 / 100) (app_exact x Fx) (app_exact y Fy)); lra|lra]. }
  assert (C : forall w a b c d', isf w -> isf a -> isf b -> isf c -> isf d' -> Rabs (val w) <= 11 / 10 -> Rabs (val a) <= 11 / 10 -> Rabs (val b) <= 11 / 10 -> Rabs (val c) <= 11 / 10 -> Rabs (val d') <= 11 / 10 ->
    app (w *! (a *! b -! c *! d')) (val w * (val a * val b - val c * val d')) (10) /\ Rabs (val w * (val a * val b - val c * val d')) <= 267 / 100).
  { intros w a b c d' Fw Fa Fb Fc Fd Bw Ba Bb Bc Bd. destruct (M a b Fa Fb Ba Bb) as [A1 P1]. destruct (M c d' Fc Fd Bc Bd) as [A2 P2].
    assert (P : Rabs (val a * val b - val c * val d') <= 242 / 100). { apply Rabs_ends in P1, P2. apply Rabs_le. lra. }
    assert (PW : Rabs (val w * (val a * val b - val c * val d')) <= 267 / 100) by (eapply Rle_trans; [apply abs_prod; eauto|]; lra). split; auto.
    pose proof (app_subP _ _ _ _ _ _ (242 / 100) A1 A2 ltac:(lra) ltac:(lra) ltac:(lra) ltac:(lra) ltac:(lra) ltac:(lra)) as A12.
    eapply app_weak; [apply (app_mulP _ _ _ _ _ _ (11 / 10) (242 / 100) (267 / 100) (app_exact w Fw) A12); lra|lra]. }
  destruct (C (a00 X) (a11 X) (a22 X) (a12 X) (a21 X)) as [D1 Q1]; auto. destruct (C (a01 X) (a10 X) (a22 X) (a12 X) (a20 X)) as [D2 Q2]; auto. destruct (C (a02 X) (a10 X) (a21 X) (a11 X) (a20 X)) as [D3 Q3]; auto.
  unfold m3_det. cbn [kadd kmul ksub F64].
  assert (Q12 : Rabs (val (a00 X) * (val (a11 X) * val (a22 X) - val (a12 X) * val (a21 X)) - val (a01 X) * (val (a10 X) * val (a22 X) - val (a12 X) * val (a20 X))) <= 534 / 100)
    by (apply Rabs_ends in Q1, Q2; apply Rabs_le; lra).
  pose proof (app_subP _ _ _ _ _ _ (534 / 100) D1 D2 Q12 ltac:(lra) ltac:(lra) ltac:(lra) ltac:(lra) ltac:(lra)) as D12.
  eapply app_eq; [eapply app_weak; [apply (app_addP _ _ _ _ _ _ (801 / 100) D12 D3)|]|]; try lra.
  - apply Rabs_ends in Q12, Q3. apply Rabs_le. lra.
  - unfold rdet, mval. cbn [a00 a01 a02 a10 a11 a12 a20 a21 a22]. ring.
Qed.
(** Diagonal and other entries of the Gram matrix. *)
Lemma diag_ok a b c : isf (s3 (SK:=SK) a a b b c c -! of_Z 1) -> Rabs (val (s3 (SK:=SK) a a b b c c -! of_Z 1)) <= 1736 / 10000 ->
  (isf a /\ isf b /\ isf c) /\ Rabs (val a * val a + val b * val b + val c * val c - 1) <= 174 / 1000 /\
  Rabs (val a) <= 11 / 10 /\ Rabs (val b) <= 11 / 10 /\ Rabs (val c) <= 11 / 10.
Proof.
  intros F H. apply sub_fin in F as (Fs & F1 & V). rewrite V in H. apply rnd_back in H; [|lra]. rewrite (proj2 (of_Z_ok 1 eq_refl)) in H. unfold s3 in *. cbn [ksum kadd kmul  F64] in *.
  destruct (dot3_err L a b c Fs) as (Fa & Fb & Fc & E). cbv zeta in E. unfold sq3 in E. set (g := val (f_sum _ _)) in *. clearbody g. clear V Fs. set (N := val a * val a + val b * val b + val c * val c) in *.
  pose proof eta_u. assert (U1 : u <= 1 / 10 ^ 15) by (rewrite u_val; lra). pose proof u_pos. assert (N0 : 0 <= N) by (unfold N; nra). apply Rabs_ends in E, H.
  assert (N1 : N <= 13 / 10) by nra. assert (NN : Rabs (N - 1) <= 174 / 1000) by (apply Rabs_le; nra). split; [auto|]. split; [exact NN|]. apply Rabs_ends in NN. unfold N in NN.
  pose proof (Rle_0_sqr (val a)). pose proof (Rle_0_sqr (val b)). pose proof (Rle_0_sqr (val c)). unfold Rsqr in *. repeat split; apply sq_le_abs; lra.
Qed.
Lemma off_ok a b c d e f : isf a -> isf b -> isf c -> isf d -> isf e -> isf f ->
  Rabs (val a) <= 11 / 10 -> Rabs (val b) <= 11 / 10 -> Rabs (val c) <= 11 / 10 -> Rabs (val d) <= 11 / 10 -> Rabs (val e) <= 11 / 10 -> Rabs (val f) <= 11 / 10 ->
  isf (s3 (SK:=SK) a b c d e f -! of_Z 0) -> Rabs (val (s3 (SK:=SK) a b c d e f -! of_Z 0)) <= 1736 / 10000 -> Rabs (val a * val b + val c * val d + val e * val f) <= 174 / 1000.
Proof.
  intros Fa Fb Fc Fd Fe Ff Ba Bb Bc Bd Be Bf F H. apply sub_fin in F as (Fs & F0 & V). rewrite V in H. apply rnd_back in H; [|lra]. rewrite (proj2 (of_Z_ok 0 eq_refl)) in H.
  destruct (s3_app11 a b c d e f) as [_ E]; auto. assert (U1 : u <= 1 / 10 ^ 15) by (rewrite u_val; lra). pose proof u_pos. apply Rabs_ends in E, H. apply Rabs_le. lra.
Qed.
Lemma det_ok X : mfin X -> mbound (11 / 10) X -> Bltb (Babs (m3_det (SK:=SK) X -! of_Z 1)) lit1 = true -> Rabs (rdet (mval X) - 1) <= 101 / 1000.
Proof.
  intros FX BX H2. pose proof (det_app11 _ FX BX) as [FD ED]. set (D := m3_det _) in *. clearbody D.
  destruct lit1_ok as [Fl Vl]. pose proof (ltb_fin _ _ Fl H2) as Fs. destruct (f_abs _ Fs) as [Fb Vb]. rewrite f_ltb in H2 by auto.
  apply Rlt_bool_lt' in H2. rewrite Vb in H2. apply sub_fin in Fs as (_ & _ & Vs). rewrite Vs, (proj2 (of_Z_ok 1 eq_refl)) in H2.
  assert (U1 : u <= 1 / 10 ^ 15) by (rewrite u_val; lra). pose proof u_pos.
  assert (H3 : Rabs (rnd (val D - 1)) <= 1000001 / 10000000) by lra. apply rnd_back in H3; [|lra]. apply Rabs_ends in H3, ED. apply Rabs_le. lra.
Qed.
Lemma gram_ok x0 x1 x2 x3 x4 x5 x6 x7 x8 : let X := M3 x0 x1 x2 x3 x4 x5 x6 x7 x8 in
  mfin (M3 (s3 (SK:=SK) x0 x0 x3 x3 x6 x6 -! of_Z 1) (s3 (SK:=SK) x0 x1 x3 x4 x6 x7 -! of_Z 0) (s3 (SK:=SK) x0 x2 x3 x5 x6 x8 -! of_Z 0)
           (s3 (SK:=SK) x1 x0 x4 x3 x7 x6 -! of_Z 0) (s3 (SK:=SK) x1 x1 x4 x4 x7 x7 -! of_Z 1) (s3 (SK:=SK) x1 x2 x4 x5 x7 x8 -! of_Z 0)
           (s3 (SK:=SK) x2 x0 x5 x3 x8 x6 -! of_Z 0) (s3 (SK:=SK) x2 x1 x5 x4 x8 x7 -! of_Z 0) (s3 (SK:=SK) x2 x2 x5 x5 x8 x8 -! of_Z 1)) ->
  Forall (fun t => Rabs (val t) <= 1736 / 10000) [s3 (SK:=SK) x0 x0 x3 x3 x6 x6 -! of_Z 1; s3 (SK:=SK) x1 x0 x4 x3 x7 x6 -! of_Z 0; s3 (SK:=SK) x2 x0 x5 x3 x8 x6 -! of_Z 0;
     s3 (SK:=SK) x0 x1 x3 x4 x6 x7 -! of_Z 0; s3 (SK:=SK) x1 x1 x4 x4 x7 x7 -! of_Z 1; s3 (SK:=SK) x2 x1 x5 x4 x8 x7 -! of_Z 0;
     s3 (SK:=SK) x0 x2 x3 x5 x6 x8 -! of_Z 0; s3 (SK:=SK) x1 x2 x4 x5 x7 x8 -! of_Z 0; s3 (SK:=SK) x2 x2 x5 x5 x8 x8 -! of_Z 1] ->
  mfin X /\ mbound (11 / 10) X /\ (Rabs (rdet (mval X) - 1) <= 101 / 1000 -> near17 (mval X)).
Proof.
  intros X (D00 & D01 & D02 & D10 & D11 & D12 & D20 & D21 & D22) B. cbn [a00 a01 a02 a10 a11 a12 a20 a21 a22] in *.
  apply Forall_cons_iff in B as [B0 B]. apply Forall_cons_iff in B as [B1 B]. apply Forall_cons_iff in B as [B2 B]. apply Forall_cons_iff in B as [B3 B]. apply Forall_cons_iff in B as [B4 B].
  apply Forall_cons_iff in B as [B5 B]. apply Forall_cons_iff in B as [B6 B]. apply Forall_cons_iff in B as [B7 B]. apply Forall_cons_iff in B as [B8 _].
  destruct (diag_ok _ _ _ D00 B0) as ((F0 & F3 & F6) & G00 & V0 & V3 & V6).
  destruct (diag_ok _ _ _ D11 B4) as ((F1 & F4 & F7) & G11 & V1 & V4 & V7).
  destruct (diag_ok _ _ _ D22 B8) as ((F2 & F5 & F8) & G22 & V2 & V5 & V8).
  apply off_ok in B1, B2, B3, B5, B6, B7; auto.
  split; [unfold X, mfin; cbn [a00 a01 a02 a10 a11 a12 a20 a21 a22]; tauto|].
  split; [unfold X, mbound; cbn [a00 a01 a02 a10 a11 a12 a20 a21 a22]; tauto|]. intros Hd. unfold near17. split; [|split; [|exact Hd]].
  - unfold X, rmul, rtr, mval. cbn [a00 a01 a02 a10 a11 a12 a20 a21 a22]. repeat split; lra.
  - unfold X, rmul, rtr, mval. cbn [a00 a01 a02 a10 a11 a12 a20 a21 a22]. repeat split; lra.
Qed.
(* These equations keep the kernel from computing on literals. *)
Lemma gram_eq x0 x1 x2 x3 x4 x5 x6 x7 x8 : m3_map2 (ksub (Scalar:=SK)) (m3_mul (SK:=SK) (m3_trans (M3 x0 x1 x2 x3 x4 x5 x6 x7 x8)) (M3 x0 x1 x2 x3 x4 x5 x6 x7 x8)) (m3_id (SK:=SK)) =
  M3 (s3 (SK:=SK) x0 x0 x3 x3 x6 x6 -! of_Z 1) (s3 (SK:=SK) x0 x1 x3 x4 x6 x7 -! of_Z 0) (s3 (SK:=SK) x0 x2 x3 x5 x6 x8 -! of_Z 0)
     (s3 (SK:=SK) x1 x0 x4 x3 x7 x6 -! of_Z 0) (s3 (SK:=SK) x1 x1 x4 x4 x7 x7 -! of_Z 1) (s3 (SK:=SK) x1 x2 x4 x5 x7 x8 -! of_Z 0)
     (s3 (SK:=SK) x2 x0 x5 x3 x8 x6 -! of_Z 0) (s3 (SK:=SK) x2 x1 x5 x4 x8 x7 -! of_Z 0) (s3 (SK:=SK) x2 x2 x5 x5 x8 x8 -! of_Z 1).
Proof. reflexivity. Qed.
Lemma dett_eq X : (kabs (Scalar:=SK) (m3_det X - k1) <? klit 1 10)%k = Bltb (Babs (m3_det (SK:=SK) X -! of_Z 1)) lit1.
Proof. unfold lit1. cbn [kltb kabs ksub k1 F64]. reflexivity. Qed.
Lemma approx_eq A B : m3_isApprox (SK:=SK) A B (klit (Scalar:=SK) 1 10) =
  (m3_sqsum (SK:=SK) (m3_map2 (ksub (Scalar:=SK)) A B) <=? lit1 * lit1 * kmin (H:=SK) (m3_sqsum (SK:=SK) A) (m3_sqsum (SK:=SK) B))%k.
Proof. reflexivity. Qed.
Lemma em_test X : (m3_isApprox (SK:=SK) (m3_mul (m3_trans X) X) m3_id (klit 1 10) && (kabs (m3_det X - k1) <? klit 1 10)%k)%bool = true ->
  mfin X /\ mbound (11 / 10) X /\ near17 (mval X).
Proof.
  intros H. rewrite approx_eq, dett_eq in H. apply andb_true_iff in H as [H1 H2]. apply approx_small in H1 as [F V]. destruct (sqsum_small _ F V) as [D B]. clear F V. destruct X as [x0 x1 x2 x3 x4 x5 x6 x7 x8].
  rewrite gram_eq in D, B. unfold m3_to_list in B. cbn [a00 a01 a02 a10 a11 a12 a20 a21 a22] in B.
  destruct (gram_ok x0 x1 x2 x3 x4 x5 x6 x7 x8 D B) as (FX & BX & NX). split; [exact FX|]. split; [exact BX|]. apply NX. apply (det_ok _ FX BX H2).
Qed.
(** ** Normalisation and the loop *)
Definition v3 (x : list f64) (r : list R) (k : R) : Prop :=
  exists x0 x1 x2 r0 r1 r2, x = [x0; x1; x2] /\ r = [r0; r1; r2] /\ app x0 r0 k /\ app x1 r1 k /\ app x2 r2 k.
Definition le3 (r : list R) (B : R) : Prop := Forall (fun a => Rabs a <= B) r.
Lemma v3_weak x r k l : v3 x r k -> k <= l -> v3 x r l.
Proof. intros (x0 & x1 & x2 & r0 & r1 & r2 & -> & -> & A0 & A1 & A2) H. exists x0, x1, x2, r0, r1, r2. split; [auto|]. split; [auto|]. split; [|split]; eapply app_weak; eauto. Qed.
Lemma le3_inv a b c B : le3 [a; b; c] B -> Rabs a <= B /\ Rabs b <= B /\ Rabs c <= B.
Proof. intros H. inversion H as [|? ? H0 H']; subst. inversion H' as [|? ? H1 H'']; subst. inversion H'' as [|? ? H2 _]; subst. auto. Qed.
Lemma le3_norm r B : length r = 3%nat -> 0 <= B -> rdot r r <= B * B -> le3 r B.
Proof.
  intros L3 B0 H. destruct (vec3_inv r L3) as (p & q & s & ->). cbn [rdot] in H. pose proof (Rle_0_sqr p). pose proof (Rle_0_sqr q). pose proof (Rle_0_sqr s). unfold Rsqr in *.
  repeat (apply Forall_cons; [apply sq_le_abs; lra|]). apply Forall_nil.
Qed.
Lemma dot_app q Q k a A l : v3 q Q k -> v3 a A l -> le3 Q 1 -> le3 A (11 / 10) -> 0 <= k <= 200 -> 0 <= l <= 100 ->
  app (dot (SK:=SK) q a) (rdot Q A) (33 / 10 * k + 3 * l + 9).
Proof.
  intros (q0 & q1 & q2 & Q0 & Q1 & Q2 & -> & -> & H0 & H1 & H2) (a0 & a1 & a2 & A0 & A1 & A2 & -> & -> & E0 & E1 & E2) BQ BA Hk Hl.
  apply le3_inv in BQ as (B0 & B1 & B2). apply le3_inv in BA as (C0 & C1 & C2). cbn [dot map2 ksum kadd kmul F64 rdot].
  assert (M : forall x X y Y, app x X k -> app y Y l -> Rabs X <= 1 -> Rabs Y <= 11 / 10 -> app (x *! y) (X * Y) (l + 11 / 10 * k + 113 / 100) /\ Rabs (X * Y) <= 11 / 10).
  { intros x X y Y Hx Hy BX BY. assert (Rabs (X * Y) <= 11 / 10) by (eapply Rle_trans; [apply abs_prod; eauto|]; lra). split; auto.
    eapply app_weak; [apply (app_mulP _ _ _ _ _ _ 1 (11 / 10) (11 / 10) Hx Hy); lra|lra]. }
  destruct (M _ _ _ _ H0 E0 B0 C0) as [M0 P0]. destruct (M _ _ _ _ H1 E1 B1 C1) as [M1 P1]. destruct (M _ _ _ _ H2 E2 B2 C2) as [M2 P2].
  assert (P : forall x y, Rabs x <= 11 / 10 -> Rabs y <= 11 / 10 -> Rabs (x + y) <= 22 / 10) by (intros; eapply Rle_trans; [apply Rabs_triang|lra]).
  eapply app_eq; [eapply app_weak; [eapply (app_sum3 L _ _ _ _ _ _ _ (22 / 10) (33 / 10) M0 M1 M2); try lra; auto|lra]|ring].
  eapply Rle_trans; [apply Rabs_triang|]. pose proof (P _ _ P0 P1). lra.
Qed.
Lemma axpy_app q Q k r R' m a A l : v3 q Q k -> le3 Q 1 -> app r R' m -> Rabs R' <= 11 / 10 -> v3 a A l -> le3 A (11 / 10) -> 0 <= k <= 200 -> 0 <= m <= 600 -> 0 <= l <= 100 ->
  v3 (vsub (SK:=SK) a (map (fun q => (q * r)%k) q)) (rsub A (rscal R' Q)) (l + m + 11 / 10 * k + 34 / 10).
Proof.
  intros (q0 & q1 & q2 & Q0 & Q1 & Q2 & -> & -> & H0 & H1 & H2) BQ Hr BR (a0 & a1 & a2 & A0 & A1 & A2 & -> & -> & E0 & E1 & E2) BA Hk Hm Hl.
  apply le3_inv in BQ as (B0 & B1 & B2). apply le3_inv in BA as (C0 & C1 & C2).
  assert (M : forall x X y Y, app x X k -> app y Y l -> Rabs X <= 1 -> Rabs Y <= 11 / 10 -> app (y -! x *! r) (Y - R' * X) (l + m + 11 / 10 * k + 34 / 10)).
  { intros x X y Y Hx Hy BX BY. assert (P : Rabs (X * R') <= 11 / 10) by (eapply Rle_trans; [apply abs_prod; eauto|]; lra).
    assert (P2 : Rabs (Y - X * R') <= 22 / 10) by (apply Rabs_ends in P, BY; apply Rabs_le; lra).
    pose proof (app_mulP _ _ _ _ _ _ 1 (11 / 10) (11 / 10) Hx Hr ltac:(lra) ltac:(lra) ltac:(lra) ltac:(lra) ltac:(lra) ltac:(lra) ltac:(lra) ltac:(lra) ltac:(lra)) as M1.
    eapply app_eq; [eapply app_weak; [apply (app_subP _ _ _ _ _ _ (22 / 10) Hy M1); lra|lra]|ring]. }
  do 6 eexists. split; [reflexivity|]. split; [reflexivity|]. split; [|split]; apply M; assumption.
Qed.
Lemma unit_lip x0 x1 x2 y0 y1 y2 e : let X := sq3 x0 x1 x2 in let Y := sq3 y0 y1 y2 in 1 / 2 <= Y -> 0 <= e <= 1 / 10 ->
  Rabs (x0 - y0) <= e -> Rabs (x1 - y1) <= e -> Rabs (x2 - y2) <= e ->
  1 / 16 <= X /\ Rabs (x0 / sqrt X - y0 / sqrt Y) <= 39 / 10 * e /\ Rabs (x1 / sqrt X - y1 / sqrt Y) <= 39 / 10 * e /\ Rabs (x2 / sqrt X - y2 / sqrt Y) <= 39 / 10 * e.
Proof.
  intros X Y HY He H0 H1 H2. assert (X0 : 0 <= X) by (unfold X, sq3; nra). set (s := sqrt X). set (t := sqrt Y).
  assert (ss : s * s = X) by (apply sqrt_sqrt; auto). assert (tt : t * t = Y) by (apply sqrt_sqrt; lra). assert (s0 : 0 <= s) by apply sqrt_pos. assert (t0 : 0 <= t) by apply sqrt_pos.
  assert (t1 : 707 / 1000 <= t) by nra.
  assert (CS : x0 * y0 + x1 * y1 + x2 * y2 <= s * t).
  { apply Rsqr_incr_0_var; [|apply Rmult_le_pos; auto]. unfold Rsqr. replace (s * t * (s * t)) with (X * Y) by (rewrite <- ss, <- tt; ring). unfold X, Y, sq3.
    pose proof (Rle_0_sqr (x0 * y1 - x1 * y0)). pose proof (Rle_0_sqr (x0 * y2 - x2 * y0)). pose proof (Rle_0_sqr (x1 * y2 - x2 * y1)). unfold Rsqr in *. lra. }
  assert (SQ : forall a, Rabs a <= e -> a * a <= e * e). { intros a Ha. apply Rabs_ends in Ha. nra. }
  pose proof (SQ _ H0) as S0. pose proof (SQ _ H1) as S1. pose proof (SQ _ H2) as S2.
  assert (D : (s - t) * (s - t) <= 3 * (e * e)) by (unfold X, Y, sq3 in *; nra).
  assert (DA : Rabs (s - t) <= 1733 / 1000 * e) by (apply sq_le_abs; nra).
  pose proof (Rabs_ends _ _ DA) as DE. assert (s1 : 1 / 4 <= s) by lra. split; [nra|].
  assert (G : forall x y, Rabs (x - y) <= e -> x * x <= X -> Rabs (x / s - y / t) <= 39 / 10 * e).
  { intros x y H Hx. replace (x / s - y / t) with ((x - y) / t - (x / s) * ((s - t) / t)) by (field; lra).
    assert (Xs : Rabs (x / s) <= 1). { apply sq_le_abs; [|lra]. replace (x / s * (x / s)) with (x * x / (s * s)) by (field; lra). rewrite ss. assert (XP : 0 < X) by nra. replace (1 * 1) with (X * / X) by (field; lra). apply Rmult_le_compat_r; auto. apply Rlt_le, Rinv_0_lt_compat; auto. }
    assert (I : 0 < / t <= 1000 / 707). { split; [apply Rinv_0_lt_compat; lra|]. replace (1000 / 707) with (/ (707 / 1000)) by field. apply Rinv_le_contravar; lra. }
    assert (T1 : Rabs ((x - y) / t) <= e * (1000 / 707)). { unfold Rdiv. apply abs_prod; auto. rewrite Rabs_pos_eq; lra. }
    assert (T2 : Rabs ((s - t) / t) <= 1733 / 1000 * e * (1000 / 707)). { unfold Rdiv. apply abs_prod; auto. rewrite Rabs_pos_eq; lra. }
    pose proof (abs_prod _ _ _ _ Xs T2) as T3. apply Rabs_ends in T1, T3. apply Rabs_le. lra. }
  assert (P : forall a, 0 <= a * a) by (intros; nra). pose proof (P x0). pose proof (P x1). pose proof (P x2). unfold X, sq3 in *. repeat split; apply G; auto; lra.
Qed.
Lemma norm_app x X k : v3 x X k -> 0 <= k <= 1000 -> 1 / 2 <= rdot X X <= 2 -> v3 (vdivs (SK:=SK) x (norm (SK:=SK) x)) (normed X) (4 * k + 4).
Proof.
  intros (x0 & x1 & x2 & r0 & r1 & r2 & -> & -> & [F0 E0] & [F1 E1] & [F2 E2]) Hk HX. assert (U1 : u <= 1 / 10 ^ 15) by (rewrite u_val; lra). pose proof u_pos as U.
  assert (EN : rdot [r0; r1; r2] [r0; r1; r2] = sq3 r0 r1 r2) by (unfold sq3; cbn [rdot]; ring). rewrite EN in HX.
  destruct (unit_lip (val x0) (val x1) (val x2) r0 r1 r2 (k * u)) as (N & D0 & D1 & D2); auto; try lra; [nra|].
  assert (NB : sq3 (val x0) (val x1) (val x2) <= B900).
  { pose proof B400_900. pose proof B400_1. assert (B : forall v r, Rabs (v - r) <= k * u -> v * v <= 2 * (r * r) + 2). { intros v r H'. assert (K1 : k * u <= 1) by nra. assert (H2 : Rabs (v - r) <= 1) by lra. apply Rabs_ends in H2. pose proof (Rle_0_sqr (2 * r - v)). unfold Rsqr in *. nra. }
    pose proof (B _ _ E0). pose proof (B _ _ E1). pose proof (B _ _ E2). unfold sq3 in *. nra. }
  pose proof (normalise3 L x0 x1 x2 F0 F1 F2 (conj N NB)) as (G0 & G1 & G2 & _ & H0 & H1 & H2). cbv zeta in *.
  do 6 eexists. split; [reflexivity|]. split; [reflexivity|]. unfold norm, sqnorm. cbn [dot map2 ksum kadd kmul ksqrt kdiv F64]. unfold rnorm. rewrite EN.
  assert (T : forall a b c, Rabs (a - b) <= 4 * u -> Rabs (b - c) <= 39 / 10 * (k * u) -> Rabs (a - c) <= (4 * k + 4) * u).
  { intros a b c Q1 Q2. assert (0 <= k * u) by (apply Rmult_le_pos; lra). apply Rabs_ends in Q1, Q2. apply Rabs_le. lra. }
  unfold Rdiv in *. repeat split; auto; rewrite (Rmult_comm (/ _)); eapply T; eauto.
Qed.
End Gs.
(** ** Exact Gram-Schmidt *)
Lemma proj_len q d : length q = length d -> rdot q q = 1 ->
  rdot (rsub d (rscal (rdot q d) q)) (rsub d (rscal (rdot q d) q)) = rdot d d - rdot q d * rdot q d.
Proof.
  intros Lq U. assert (LS : length d = length (rscal (rdot q d) q)) by (rewrite rscal_length; auto).
  rewrite rdot_rsub_l, !rdot_rsub_r, !rdot_rscal_l, !rdot_rscal_r, U, (rdot_comm d q) by auto. ring.
Qed.
Lemma gs_det A : 0 < rdet A -> rdet A = rnorm (rc0 A) * rnorm (gsB (rc0 A) (rc1 A)) * rnorm (gsC (rc0 A) (rc1 A) (rc2 A)).
Proof.
  intros D. pose proof (gs_rot A D) as [_ E]. rewrite <- (colsm_id A) in D |- * at 1. unfold gs in E. set (a := rc0 A) in *. set (b := rc1 A) in *. set (c := rc2 A) in *.
  assert (La : length a = 3%nat) by reflexivity. assert (Lb : length b = 3%nat) by reflexivity. assert (Lc : length c = 3%nat) by reflexivity. clearbody a b c.
  destruct (gs_pos a b c La Lb Lc) as (Pa & Pb & Pc); [lra|]. unfold normed in E. rewrite det_scale, det_gsC in E by auto using gsB_length, gsC_length.
  apply rnorm_pos in Pa, Pb, Pc. rewrite <- (Rmult_1_r (rnorm a * _ * _)), <- E. field. lra.
Qed.
Lemma gs_facts A : near17 A -> let a := rc0 A in let b := rc1 A in let c := rc2 A in let c' := gsB a c in let q1 := normed (gsB a b) in
  0 < rdet A /\ 1 / 2 <= rdot a a <= 6 / 5 /\ 1 / 2 <= rdot (gsB a b) (gsB a b) <= 6 / 5 /\ 1 / 2 <= rdot (gsC a b c) (gsC a b c) <= 6 / 5 /\ rdot c' c' <= 6 / 5 /\
  Rabs (rdot (normed a) b) <= 11 / 10 /\ Rabs (rdot (normed a) c) <= 11 / 10 /\ Rabs (rdot q1 c') <= 11 / 10 /\ rdot b b <= 6 / 5 /\ rdot c c <= 6 / 5.
Proof.
  intros ((G0 & G1 & G2) & (G01 & G02 & G12) & D) a b c c' q1. apply Rabs_ends in G0, G1, G2, G01, G02, G12, D.
  assert (E0 : rdot a a = a00 (rmul (rtr A) A)) by (destruct A; cbn; ring). assert (E1 : rdot b b = a11 (rmul (rtr A) A)) by (destruct A; cbn; ring).
  assert (E2 : rdot c c = a22 (rmul (rtr A) A)) by (destruct A; cbn; ring). assert (E01 : rdot a b = a01 (rmul (rtr A) A)) by (destruct A; cbn; ring).
  rewrite <- E0 in G0. rewrite <- E1 in G1. rewrite <- E2 in G2. rewrite <- E01 in G01. clear E0 E1 E2 E01 G02 G12.
  assert (Dp : 0 < rdet A) by lra. pose proof (gs_det A Dp) as ED. fold a in ED. fold b in ED. fold c in ED.
  assert (La : length a = 3%nat) by reflexivity. assert (Lb : length b = 3%nat) by reflexivity. assert (Lc : length c = 3%nat) by reflexivity.
  assert (Pa : 0 < rdot a a) by lra. pose proof (unit_normal a Pa) as U0. fold (normed a) in U0. pose proof (rnorm_pos a Pa) as Na. pose proof (rnorm_sq a) as Sa.
  assert (DB : rdot (gsB a b) (gsB a b) = rdot b b - rdot (normed a) b * rdot (normed a) b) by (apply proj_len; auto; rewrite normed_length; lia).
  assert (DC : rdot c' c' = rdot c c - rdot (normed a) c * rdot (normed a) c) by (apply proj_len; auto; rewrite normed_length; lia).
  assert (S1 : rdot (normed a) b * rdot (normed a) b = rdot a b * rdot a b / rdot a a). { unfold normed. rewrite rdot_rscal_l, <- Sa. field. lra. }
  assert (S2 : rdot a b * rdot a b / rdot a a <= 1 / 20).
  { apply Rmult_le_reg_r with (rdot a a); auto. unfold Rdiv. rewrite Rmult_assoc, Rinv_l, Rmult_1_r by lra. nra. }
  set (sb := rdot (normed a) b) in *. set (sc := rdot (normed a) c) in *. assert (Q1 : 0 <= sb * sb) by nra. assert (Q2 : 0 <= sc * sc) by nra.
  assert (HB : 1 / 2 <= rdot (gsB a b) (gsB a b) <= 1175 / 1000) by lra.
  pose proof (rdot_self_nonneg c') as C0. 
  assert (PB : 0 < rdot (gsB a b) (gsB a b)) by lra. pose proof (unit_normal _ PB) as U1. fold (normed (gsB a b)) in U1. fold q1 in U1. pose proof (rnorm_pos _ PB) as Nb. pose proof (rnorm_sq (gsB a b)) as Sb.
  assert (DD : rdot (gsC a b c) (gsC a b c) = rdot c' c' - rdot q1 c' * rdot q1 c').
  { apply proj_len; auto. }
  set (sd := rdot q1 c') in *. assert (Q3 : 0 <= sd * sd) by nra. pose proof (rdot_self_nonneg (gsC a b c)) as C1. pose proof (rnorm_sq (gsC a b c)) as Sc.
  assert (CC : rdot (gsC a b c) (gsC a b c) * (rdot a a * rdot (gsB a b) (gsB a b)) = rdet A * rdet A). { rewrite <- Sa, <- Sb, <- Sc, ED. ring. }
  assert (AB : rdot a a * rdot (gsB a b) (gsB a b) <= 1175 / 1000 * (1175 / 1000)) by (apply Rmult_le_compat; lra). assert (AB0 : 0 < rdot a a * rdot (gsB a b) (gsB a b)) by (apply Rmult_lt_0_compat; auto).
  assert (DD2 : 808 / 1000 <= rdet A * rdet A) by nra.
  assert (HC : 1 / 2 <= rdot (gsC a b c) (gsC a b c)) by nra.
  repeat split; try lra; apply sq_le_abs; lra.
Qed.
(** Q R decomposition. *)
Definition qr (A Q : m3 R) : Prop :=
  rot Q /\ exists t00 t01 t02 t11 t12 t22, 0 < t00 /\ 0 < t11 /\ 0 < t22 /\ A = rmul Q (M3 t00 t01 t02 0 t11 t12 0 0 t22).
Lemma gs_qr_cols a b c : length a = 3%nat -> length b = 3%nat -> length c = 3%nat -> 0 < rdet (colsm a b c) ->
  exists t00 t01 t02 t11 t12 t22, 0 < t00 /\ 0 < t11 /\ 0 < t22 /\
  colsm a b c = rmul (colsm (normed a) (normed (gsB a b)) (normed (gsC a b c))) (M3 t00 t01 t02 0 t11 t12 0 0 t22).
Proof.
  intros La Lb Lc D'.
  destruct (gs_pos a b c La Lb Lc) as (Pa & Pb & Pc); [lra|]. apply rnorm_pos in Pa, Pb, Pc. 
  set (b' := gsB a b) in *. set (c'' := gsC a b c) in *. set (q0 := normed a). set (q1 := normed b'). set (q2 := normed c'').
  exists (rnorm a), (rdot q0 b), (rdot q0 c), (rnorm b'), (rdot q1 (gsB a c)), (rnorm c'').
  split; [auto|]. split; [auto|]. split; [auto|].
  assert (Lb' : length b' = 3%nat) by (apply gsB_length; auto). assert (Lc'' : length c'' = 3%nat) by (apply gsC_length; auto). assert (Lc' : length (gsB a c) = 3%nat) by (apply gsB_length; auto).
  assert (Ea : a = rscal (rnorm a) q0). { unfold q0, normed. destruct (vec3_inv a La) as (? & ? & ? & ->). unfold rscal. cbn [map]. set (n := rnorm _) in *. clearbody n. f_equal; [field; lra|]. f_equal; [field; lra|]. f_equal; field; lra. }
  assert (Eb : b' = rscal (rnorm b') q1). { unfold q1, normed. destruct (vec3_inv b' Lb') as (? & ? & ? & ->). unfold rscal. cbn [map]. set (n := rnorm _) in *. clearbody n. f_equal; [field; lra|]. f_equal; [field; lra|]. f_equal; field; lra. }
  assert (Ec : c'' = rscal (rnorm c'') q2). { unfold q2, normed. destruct (vec3_inv c'' Lc'') as (? & ? & ? & ->). unfold rscal. cbn [map]. set (n := rnorm _) in *. clearbody n. f_equal; [field; lra|]. f_equal; [field; lra|]. f_equal; field; lra. }
  assert (L0 : length q0 = 3%nat) by (unfold q0; rewrite normed_length; auto). assert (L1 : length q1 = 3%nat) by (unfold q1; rewrite normed_length; auto). assert (L2 : length q2 = 3%nat) by (unfold q2; rewrite normed_length; auto).
  assert (Fb : b' = rsub b (rscal (rdot q0 b) q0)) by reflexivity. assert (Fc' : gsB a c = rsub c (rscal (rdot q0 c) q0)) by reflexivity.
  assert (Fc : c'' = rsub (gsB a c) (rscal (rdot q1 (gsB a c)) q1)) by reflexivity.
  set (n1 := rnorm b') in *. set (n2 := rnorm c'') in *. clearbody n1 n2. rewrite Fb in Eb. rewrite Fc in Ec. clear Fb Fc. set (s2 := rdot q1 (gsB a c)) in *. clearbody s2. rewrite Fc' in Ec. revert Ea Eb Ec. generalize (rnorm a) (rdot q0 b) (rdot q0 c). intros n0 s0 s1 Ea Eb Ec.
  clear Pa Pb Pc Fc' D'. clearbody q0 q1 q2. clear Lb' Lc''. subst a.
  destruct (vec3_inv b Lb) as (b0 & b1 & b2 & ->). destruct (vec3_inv c Lc) as (c0 & c1 & c2 & ->). destruct (vec3_inv q0 L0) as (? & ? & ? & ->). destruct (vec3_inv q1 L1) as (? & ? & ? & ->). destruct (vec3_inv q2 L2) as (? & ? & ? & ->).
  unfold rsub, rscal in Eb, Ec. cbn [map combine fst snd] in Eb, Ec. injection Eb as B0 B1 B2. injection Ec as C0 C1 C2.
  unfold colsm, rscal, rmul. cbn [map nth a00 a01 a02 a10 a11 a12 a20 a21 a22]. f_equal; lra.
Qed.
Lemma gs_qr A : 0 < rdet A -> qr A (gs A).
Proof.
  intros D. split; [apply gs_rot, D|]. destruct (gs_qr_cols (rc0 A) (rc1 A) (rc2 A)) as (t0 & t1 & t2 & t3 & t4 & t5 & P0 & P1 & P2 & E); try reflexivity; [rewrite colsm_id; exact D|].
  rewrite colsm_id in E. exists t0, t1, t2, t3, t4, t5. split; [exact P0|]. split; [exact P1|]. split; [exact P2|exact E].
Qed.
