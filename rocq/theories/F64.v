(** IEEE-754 double arithmetic as a [Scalar]: Flocq's binary64 with rounding to nearest, ties to even.
    The elementary functions of libm are a parameter. *)
From Coq Require Import Reals List Permutation Lra Lia ZArith Bool Arith Psatz.
From Flocq Require Import Core Relative BinarySingleNaN.
From Verif Require Import Base Scalar Vec.
Import ListNotations.
Local Open Scope R_scope.

Definition f64 := binary_float 53 1024.
#[export] Instance f64_prec : Prec_gt_0 53 := eq_refl.
#[export] Instance f64_emax : Prec_lt_emax 53 1024 := eq_refl.

(** [sums l s]: [s] is the sum of the doubles [l] by rounded additions in some order. *)
Inductive sums : list f64 -> f64 -> Prop :=
| sums_one a : sums [a] a
| sums_add l1 l2 l a b : sums l1 a -> sums l2 b -> Permutation (l1 ++ l2) l -> sums l (Bplus mode_NE a b).
(** From left to right. *)
Lemma sums_fold l1 : forall l a, sums l a -> sums (l ++ l1) (fold_left (Bplus mode_NE) l1 a).
Proof.
  induction l1 as [|b l1 IH]; intros l a H; cbn [fold_left]; [rewrite app_nil_r; auto|].
  replace (l ++ b :: l1) with ((l ++ [b]) ++ l1) by (rewrite <- app_assoc; reflexivity). apply IH.
  eapply sums_add; [exact H|apply sums_one|apply Permutation_refl].
Qed.
Definition left_to_right : list f64 -> f64 := foldsum (B754_zero false) (Bplus mode_NE).
Lemma left_to_right_sums l : l <> [] -> sums l (left_to_right l).
Proof. destruct l as [|a l]; [congruence|]. intros _. apply (sums_fold l [a] a), sums_one. Qed.

(** cos, sin, acos and atan2 of the C library, and the order in which Eigen adds the terms of a sum (it depends on
    the version, the alignment and the vector instructions): any order, which may depend on the terms. *)
Record libm := Libm { f_cos : f64 -> f64; f_sin : f64 -> f64; f_acos : f64 -> f64; f_atan2 : f64 -> f64 -> f64;
  f_sum : list f64 -> f64; f_sum_ok : forall l, l <> [] -> sums l (f_sum l) }.

(** The same library, sums taken from left to right. *)
Definition in_order (L : libm) : libm := Libm (f_cos L) (f_sin L) (f_acos L) (f_atan2 L) left_to_right left_to_right_sums.

(** An integer as a double. *)
Definition of_Z (n : Z) : f64 := binary_normalize 53 1024 _ _ mode_NE n 0 false.
(** M_PI: 884279719003555 / 2^48. *)
Definition f64_pi : f64 := binary_normalize 53 1024 _ _ mode_NE 884279719003555 (-48) false.

(** A literal num/den is the nearest double (num and den are integers below 2^53, exactly represented). *)
Definition F64 (L : libm) : Scalar f64 := {|
  k0 := B754_zero false; k1 := of_Z 1;
  kadd := Bplus mode_NE; ksum := fun l => match l with [] => B754_zero false | _ => f_sum L l end; ksub := Bminus mode_NE; kmul := Bmult mode_NE; kdiv := Bdiv mode_NE; kopp := Bopp; kabs := Babs;
  ksqrt := Bsqrt mode_NE; kcos := f_cos L; ksin := f_sin L; kacos := f_acos L; katan2 := f_atan2 L;
  kltb := Bltb; kleb := Bleb; keqb := Beqb;
  klit := fun n d => Bdiv mode_NE (of_Z n) (of_Z (Zpos d));
  kpi := f64_pi; kinf := B754_infinity false |}.

Definition isf (a : f64) : Prop := is_finite a = true.
Notation val := (B2R (prec:=53) (emax:=1024)).
Definition u : R := bpow radix2 (-53).
Definition eta : R := bpow radix2 (-1075).
Definition rnd (x : R) : R := round radix2 (FLT_exp (-1074) 53) (round_mode mode_NE) x.

Lemma u_val : u = / 9007199254740992. Proof. reflexivity. Qed.
Lemma u_pos : 0 < u. Proof. apply bpow_gt_0. Qed.
Lemma eta_pos : 0 < eta. Proof. apply bpow_gt_0. Qed.
Lemma eta_small : eta <= u ^ 10.
Proof.
  replace (u ^ 10) with (bpow radix2 (-530)); [apply bpow_le; lia|]. unfold u. cbn [pow]. rewrite Rmult_1_r, <- !bpow_plus. reflexivity.
Qed.

Lemma rnd_err x : Rabs (rnd x - x) <= u * Rabs x + eta.
Proof.
  destruct (error_N_FLT radix2 (-1074) 53 eq_refl (fun x => negb (Z.even x)) x) as (e & t & He & Ht & _ & E).
  unfold rnd. change (round_mode mode_NE) with (Znearest (fun x => negb (Z.even x))). rewrite E.
  replace (x * (1 + e) + t - x) with (x * e + t) by ring. eapply Rle_trans; [apply Rabs_triang|]. rewrite Rabs_mult.
  assert (Rabs e <= u). { eapply Rle_trans; [exact He|]. unfold u. change (-53 + 1)%Z with (-52)%Z. change (/ 2) with (bpow radix2 (-1)). rewrite <- bpow_plus. apply Rle_refl. }
  assert (Rabs t <= eta). { eapply Rle_trans; [exact Ht|]. unfold eta. change (/ 2) with (bpow radix2 (-1)). rewrite <- bpow_plus. apply Rle_refl. }
  pose proof (Rabs_pos x). nra.
Qed.
Definition big : R := bpow radix2 1000.
Lemma rnd_small x : Rabs x <= big -> Rabs (rnd x) < bpow radix2 1024.
Proof.
  intros H. pose proof (rnd_err x) as E. assert (Rabs (rnd x) <= Rabs x + (u * Rabs x + eta)).
  { replace (rnd x) with (x + (rnd x - x)) at 1 by ring. eapply Rle_trans; [apply Rabs_triang|]. lra. }
  assert (u <= 1) by (rewrite u_val; lra). assert (eta <= 1) by (apply (bpow_le radix2 (-1075) 0); lia). pose proof (Rabs_pos x). pose proof u_pos.
  assert (1 <= big) by (apply (bpow_le radix2 0 1000); lia).
  assert (big * 8 = bpow radix2 1003) by (unfold big; change 8 with (bpow radix2 3); rewrite <- bpow_plus; reflexivity).
  assert (bpow radix2 1003 < bpow radix2 1024) by (apply bpow_lt; lia). nra.
Qed.

Section Ops.
Lemma f_add a b : isf a -> isf b -> Rabs (val a + val b) <= big -> isf (Bplus mode_NE a b) /\ val (Bplus mode_NE a b) = rnd (val a + val b).
Proof. intros Ha Hb H. pose proof (Bplus_correct 53 1024 _ _ mode_NE a b Ha Hb) as C. rewrite Rlt_bool_true in C by (apply rnd_small, H). tauto. Qed.
Lemma f_sub a b : isf a -> isf b -> Rabs (val a - val b) <= big -> isf (Bminus mode_NE a b) /\ val (Bminus mode_NE a b) = rnd (val a - val b).
Proof. intros Ha Hb H. pose proof (Bminus_correct 53 1024 _ _ mode_NE a b Ha Hb) as C. rewrite Rlt_bool_true in C by (apply rnd_small, H). tauto. Qed.
Lemma f_mul a b : isf a -> isf b -> Rabs (val a * val b) <= big -> isf (Bmult mode_NE a b) /\ val (Bmult mode_NE a b) = rnd (val a * val b).
Proof. intros Ha Hb H. pose proof (Bmult_correct 53 1024 _ _ mode_NE a b) as C. rewrite Rlt_bool_true in C by (apply rnd_small, H). destruct C as (C1 & C2 & _). unfold isf. rewrite C2, Ha, Hb. auto. Qed.
Lemma f_div a b : isf a -> val b <> 0 -> Rabs (val a / val b) <= big -> isf (Bdiv mode_NE a b) /\ val (Bdiv mode_NE a b) = rnd (val a / val b).
Proof. intros Ha Hb H. pose proof (Bdiv_correct 53 1024 _ _ mode_NE a b Hb) as C. rewrite Rlt_bool_true in C by (apply rnd_small, H). destruct C as (C1 & C2 & _). unfold isf. rewrite C2. auto. Qed.
Lemma f_sqrt a : isf a -> 0 <= val a -> isf (Bsqrt mode_NE a) /\ val (Bsqrt mode_NE a) = rnd (sqrt (val a)).
Proof.
  intros Ha H. destruct (Bsqrt_correct 53 1024 _ _ mode_NE a) as (C1 & C2 & _). split; [|exact C1]. unfold isf. rewrite C2. destruct a as [s|s| |s m e Hb]; try discriminate Ha; auto.
  destruct s; auto. exfalso. cbn [B2R] in H. apply (Rlt_irrefl 0). eapply Rle_lt_trans; [exact H|]. apply F2R_lt_0. cbn. lia.
Qed.
Lemma f_opp a : isf a -> isf (Bopp a) /\ val (Bopp a) = - val a.
Proof. intros H. split; [unfold isf; rewrite is_finite_Bopp; auto|apply B2R_Bopp]. Qed.
Lemma f_abs a : isf a -> isf (Babs a) /\ val (Babs a) = Rabs (val a).
Proof. intros H. split; [unfold isf; rewrite is_finite_Babs; auto|apply B2R_Babs]. Qed.
Lemma f_ltb a b : isf a -> isf b -> Bltb a b = Rlt_bool (val a) (val b).
Proof. apply Bltb_correct. Qed.
Lemma f_leb a b : isf a -> isf b -> Bleb a b = Rle_bool (val a) (val b).
Proof. apply Bleb_correct. Qed.
(** Comparisons with a NaN or an infinity. *)
Lemma ltb_fin a b : isf b -> Bltb (Babs a) b = true -> isf a.
Proof. destruct a as [s|s| |s m e H]; try reflexivity; intros Hb; destruct b as [s'|s'| |s' m' e' H']; cbn; try discriminate; destruct s'; discriminate. Qed.
End Ops.
