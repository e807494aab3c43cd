(** Changing the sign of doubles: which operations carry it over bit for bit, up to the sign of zeros. *)
From Coq Require Import Reals List Lra Lia ZArith Bool Arith Permutation.
From Flocq Require Import Core BinarySingleNaN.
From Verif Require Import Base Scalar Vec F64 F64Err F64Norm Properties_Anti.
Import ListNotations.
Local Open Scope R_scope.

(** [b] is [a], with the other sign when [s]; zeros of any sign are the same. *)
Definition sg (s : bool) (a b : f64) : Prop := b = (if s then Bopp a else a) \/ exists p q, a = B754_zero p /\ b = B754_zero q.

Lemma sg_refl a : sg false a a. Proof. left; reflexivity. Qed.
Lemma sg_true a b : sg true a b <-> contrary a b. Proof. reflexivity. Qed.
Lemma sg_trans s t a b c : sg s a b -> sg t b c -> sg (xorb s t) a c.
Proof.
  intros [->|(p & q & -> & ->)] [->|(p' & q' & E & ->)].
  - left. destruct s, t; cbn; rewrite ?Bopp_involutive; reflexivity.
  - right. destruct s; [|subst; eauto]. apply (f_equal Bopp) in E. rewrite Bopp_involutive in E. subst a. cbn. eauto.
  - right. destruct t; cbn; eauto.
  - right. eauto.
Qed.
Lemma sg_opp s a b : sg s a b -> sg s (Bopp a) (Bopp b).
Proof. intros [->|(p & q & -> & ->)]; [left; destruct s; reflexivity|right; cbn; eauto]. Qed.
Lemma sg_sign (a : f64) : sg true a (Bopp a). Proof. left; reflexivity. Qed.

Lemma fin_nan (z : f64) : is_finite z = true -> is_nan z = false. Proof. destruct z; auto; discriminate. Qed.
Lemma opp_eq (a b : f64) : isf a -> isf b -> val b = - val a -> Bsign b = negb (Bsign a) -> b = Bopp a.
Proof.
  intros Fa Fb V S. apply B2R_Bsign_inj; auto; [rewrite is_finite_Bopp; auto|rewrite B2R_Bopp; auto|]. rewrite Bsign_Bopp; auto. apply fin_nan, Fa.
Qed.

(** Products and quotients, bit for bit. *)
Lemma mul_opp (a b : f64) : a *! Bopp b = Bopp (a *! b).
Proof.
  destruct (is_finite a && is_finite b)%bool eqn:F.
  - apply andb_prop in F. destruct F as [Fa Fb]. pose proof (fin_nan b Fb) as Nb.
    pose proof (Bmult_correct 53 1024 _ _ mode_NE a b) as H1. pose proof (Bmult_correct 53 1024 _ _ mode_NE a (Bopp b)) as H2.
    rewrite B2R_Bopp, is_finite_Bopp, Bsign_Bopp in H2 by exact Nb. rewrite Fa, Fb in H1, H2. replace (val a * - val b) with (- (val a * val b)) in H2 by ring.
    cbn [round_mode] in H1, H2. rewrite round_NE_opp, Rabs_Ropp in H2. destruct (Rlt_bool _ _).
    + destruct H1 as (V1 & F1 & S1). destruct H2 as (V2 & F2 & S2). apply opp_eq; auto; [rewrite V1, V2; reflexivity|]. rewrite S1, S2 by (apply fin_nan; auto). rewrite negb_xorb_r. reflexivity.
    + apply inf_of in H1. apply inf_of in H2. rewrite H1, H2. cbn. rewrite negb_xorb_r. reflexivity.
  - destruct a as [s|s| |s ? ? ?]; destruct b as [t|t| |t ? ? ?]; try discriminate F; cbn; rewrite ?negb_xorb_r; reflexivity.
Qed.
Lemma fin_zero (b : f64) : is_finite b = true -> val b = 0 -> exists t, b = B754_zero t.
Proof. destruct b as [t|t| |t m e p]; try discriminate; eauto. intros _ H. cbn [B2R] in H. apply eq_0_F2R in H. destruct t; discriminate H. Qed.
Lemma div_opp_l (a b : f64) : Bopp a /! b = Bopp (a /! b).
Proof.
  destruct (is_finite a && is_finite b)%bool eqn:F.
  - apply andb_prop in F. destruct F as [Fa Fb]. pose proof (fin_nan a Fa) as Na. destruct (Req_dec (val b) 0) as [Z|Z].
    { destruct (fin_zero b Fb Z) as [t ->]. destruct a as [s|s| |s ? ? ?]; try discriminate Fa; cbn; rewrite ?negb_xorb_l; reflexivity. }
    pose proof (Bdiv_correct 53 1024 _ _ mode_NE a b Z) as H1. pose proof (Bdiv_correct 53 1024 _ _ mode_NE (Bopp a) b Z) as H2.
    rewrite B2R_Bopp, is_finite_Bopp, Bsign_Bopp in H2 by exact Na. rewrite Fa in H1, H2. replace (- val a / val b) with (- (val a / val b)) in H2 by (field; exact Z).
    cbn [round_mode] in H1, H2. rewrite round_NE_opp, Rabs_Ropp in H2. destruct (Rlt_bool _ _).
    + destruct H1 as (V1 & F1 & S1). destruct H2 as (V2 & F2 & S2). apply opp_eq; auto; [rewrite V1, V2; reflexivity|]. rewrite S1, S2 by (apply fin_nan; auto). rewrite negb_xorb_l. reflexivity.
    + apply inf_of in H1. apply inf_of in H2. rewrite H1, H2. cbn. rewrite negb_xorb_l. reflexivity.
  - destruct a as [s|s| |s ? ? ?]; destruct b as [t|t| |t ? ? ?]; try discriminate F; cbn; rewrite ?negb_xorb_l; reflexivity.
Qed.
Lemma div_opp_r (a b : f64) : a /! Bopp b = Bopp (a /! b).
Proof.
  destruct (is_finite a && is_finite b)%bool eqn:F.
  - apply andb_prop in F. destruct F as [Fa Fb]. pose proof (fin_nan b Fb) as Nb. destruct (Req_dec (val b) 0) as [Z|Z].
    { destruct (fin_zero b Fb Z) as [t ->]. destruct a as [s|s| |s ? ? ?]; try discriminate Fa; cbn; rewrite ?negb_xorb_r; reflexivity. }
    assert (Z' : val (Bopp b) <> 0) by (rewrite B2R_Bopp; lra).
    pose proof (Bdiv_correct 53 1024 _ _ mode_NE a b Z) as H1. pose proof (Bdiv_correct 53 1024 _ _ mode_NE a (Bopp b) Z') as H2.
    rewrite B2R_Bopp, Bsign_Bopp in H2 by exact Nb. rewrite Fa in H1, H2. replace (val a / - val b) with (- (val a / val b)) in H2 by (field; exact Z).
    cbn [round_mode] in H1, H2. rewrite round_NE_opp, Rabs_Ropp in H2. destruct (Rlt_bool _ _).
    + destruct H1 as (V1 & F1 & S1). destruct H2 as (V2 & F2 & S2). apply opp_eq; auto; [rewrite V1, V2; reflexivity|]. rewrite S1, S2 by (apply fin_nan; auto). rewrite negb_xorb_r. reflexivity.
    + apply inf_of in H1. apply inf_of in H2. rewrite H1, H2. cbn. rewrite negb_xorb_r. reflexivity.
  - destruct a as [s|s| |s ? ? ?]; destruct b as [t|t| |t ? ? ?]; try discriminate F; cbn; rewrite ?negb_xorb_r; reflexivity.
Qed.
Lemma zero_mul p q (c : f64) : sg false (B754_zero p *! c) (B754_zero q *! c).
Proof. destruct c as [t|t| |t ? ? ?]; cbn; [right|left|left|right]; eauto. Qed.
Lemma zero_div p q (c : f64) : sg false (B754_zero p /! c) (B754_zero q /! c).
Proof. destruct c as [t|t| |t ? ? ?]; cbn; [left|right|left|right]; eauto. Qed.
Lemma sg_zero s a b : sg false a b -> (exists p, a = B754_zero p) \/ is_nan a = true -> sg s a b.
Proof.
  intros [->|H] [[p ->]|N]; try (right; exact H).
  - right. eauto.
  - left. destruct a; try discriminate. destruct s; reflexivity.
Qed.
Lemma sg_mul_l s a b c : sg s a b -> sg s (a *! c) (b *! c).
Proof.
  intros [->|(p & q & -> & ->)].
  - left. destruct s; [|reflexivity]. rewrite (mul_comm64 (Bopp a)), mul_opp, mul_comm64. reflexivity.
  - apply sg_zero; [apply zero_mul|]. destruct c as [t|t| |t ? ? ?]; cbn; eauto.
Qed.
Lemma sg_mul_r s a b c : sg s a b -> sg s (c *! a) (c *! b).
Proof. rewrite (mul_comm64 c a), (mul_comm64 c b). apply sg_mul_l. Qed.
Lemma sg_mul s t a b c d : sg s a b -> sg t c d -> sg (xorb s t) (a *! c) (b *! d).
Proof. intros H1 H2. apply (sg_trans s t _ (b *! c)); [apply sg_mul_l; auto|apply sg_mul_r; auto]. Qed.
Lemma sg_div s a b c : sg s a b -> sg s (a /! c) (b /! c).
Proof.
  intros [->|(p & q & -> & ->)].
  - left. destruct s; [apply div_opp_l|reflexivity].
  - apply sg_zero; [apply zero_div|]. destruct c as [t|t| |t ? ? ?]; cbn; eauto.
Qed.
Lemma sg_sq s a b : sg s a b -> b *! b = a *! a.
Proof.
  intros [->|(p & q & -> & ->)]; [|destruct p, q; reflexivity]. destruct s; [|reflexivity]. apply sq_contrary. left; reflexivity.
Qed.

(** Sums. *)
Lemma add_opp (a b : f64) : sg true (a +! b) (Bopp a +! Bopp b).
Proof.
  destruct (is_finite a) eqn:Fa; [destruct (is_finite b) eqn:Fb|].
  - pose proof (Bplus_correct 53 1024 _ _ mode_NE a b Fa Fb) as H1.
    pose proof (Bplus_correct 53 1024 _ _ mode_NE (Bopp a) (Bopp b) ltac:(rewrite is_finite_Bopp; exact Fa) ltac:(rewrite is_finite_Bopp; exact Fb)) as H2.
    rewrite !B2R_Bopp in H2. replace (- val a + - val b) with (- (val a + val b)) in H2 by ring. cbn [round_mode] in H1, H2. rewrite round_NE_opp, Rabs_Ropp in H2.
    destruct (Rlt_bool _ _).
    + destruct H1 as (V1 & F1 & _). destruct H2 as (V2 & F2 & _). apply fin_contrary; auto. rewrite V1, V2. reflexivity.
    + destruct H1 as [H1 _]. destruct H2 as [H2 _]. apply inf_of in H1. apply inf_of in H2. rewrite H1, H2. left. rewrite Bsign_Bopp by (apply fin_nan; exact Fa). reflexivity.
  - destruct b as [|t| |]; try discriminate Fb; destruct a as [s|s| |s ? ? ?]; try discriminate Fa; left; reflexivity.
  - destruct a as [s|s| |s ? ? ?]; try discriminate Fa; destruct b as [t|t| |t ? ? ?]; left; try reflexivity. destruct s, t; reflexivity.
Qed.
Lemma zero_add p q (c : f64) : sg false (B754_zero p +! c) (B754_zero q +! c).
Proof. destruct c as [t|t| |t ? ? ?]; [|left; reflexivity..]. right. destruct p, q, t; cbn; eauto. Qed.
Lemma add_comm64 (a b : f64) : a +! b = b +! a.
Proof.
  destruct (is_finite a && is_finite b)%bool eqn:F.
  - apply andb_prop in F. destruct F as [Fa Fb]. pose proof (Bplus_correct 53 1024 _ _ mode_NE a b Fa Fb) as H1. pose proof (Bplus_correct 53 1024 _ _ mode_NE b a Fb Fa) as H2.
    rewrite (Rplus_comm (val b)), (andb_comm (Bsign b)) in H2. destruct (Rlt_bool _ _).
    + destruct H1 as (V1 & F1 & S1). destruct H2 as (V2 & F2 & S2). apply B2R_Bsign_inj; auto; congruence.
    + destruct H1 as [H1 S]. destruct H2 as [H2 _]. apply inf_of in H1. apply inf_of in H2. rewrite H1, H2, S. reflexivity.
  - destruct a as [s|s| |s ? ? ?]; destruct b as [t|t| |t ? ? ?]; try discriminate F; try reflexivity. destruct s, t; reflexivity.
Qed.
Lemma sg_add_l a b c : sg false a b -> sg false (a +! c) (b +! c).
Proof. intros [->|(p & q & -> & ->)]; [apply sg_refl|apply zero_add]. Qed.
Lemma sg_add s a b c d : sg s a b -> sg s c d -> sg s (a +! c) (b +! d).
Proof.
  assert (Z : forall a b c d, sg false a b -> sg false c d -> sg false (a +! c) (b +! d)).
  { intros a0 b0 c0 d0 H1 H2. apply (sg_trans false false _ (b0 +! c0)); [apply sg_add_l; auto|]. rewrite (add_comm64 b0 c0), (add_comm64 b0 d0). apply sg_add_l; auto. }
  destruct s; [|apply Z]. intros H1 H2. apply (sg_trans true false _ (Bopp a +! Bopp c)); [apply add_opp|]. apply Z.
  - apply (sg_trans true true _ a); [|exact H1]. left. rewrite Bopp_involutive. reflexivity.
  - apply (sg_trans true true _ c); [|exact H2]. left. rewrite Bopp_involutive. reflexivity.
Qed.

(** A library whose order of summation does not depend on the signs, and whose atan2 is odd in its first argument. *)
Definition blind (L : libm) : Prop := forall s l l', l <> [] -> Forall2 (sg s) l l' -> sg s (f_sum L l) (f_sum L l').
Definition odd_atan2 (L : libm) : Prop := forall y x, f_atan2 L (Bopp y) x = Bopp (f_atan2 L y x).
Lemma fold_sg s l l' : Forall2 (sg s) l l' -> forall a b, sg s a b -> sg s (fold_left (Bplus mode_NE) l a) (fold_left (Bplus mode_NE) l' b).
Proof. induction 1 as [|c d l l' H _ IH]; intros a b Hab; [exact Hab|]. cbn [fold_left]. apply IH, sg_add; auto. Qed.
Lemma in_order_blind L : blind (in_order L).
Proof. intros s l l' N H. destruct H as [|a b l l' H1 H2]; [congruence|]. apply (fold_sg s l l' H2 a b H1). Qed.
