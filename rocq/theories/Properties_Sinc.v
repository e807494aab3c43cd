(** C72: the series that boost::math::sinc_pi (called at ExpMapMatrix.cpp:210) uses near zero against sin(x)/x, the model's. *)
From Coq Require Import Reals Lra Lia ZArith.
From Flocq Require Import Core BinarySingleNaN.
From Verif Require Import F64.
Local Open Scope R_scope.

Lemma fact_1 : INR (fact 1) = 1. Proof. reflexivity. Qed.
Lemma fact_3 : INR (fact 3) = 6. Proof. change (fact 3) with 6%nat. simpl; ring. Qed.
Lemma fact_5 : INR (fact 5) = 120.
Proof. rewrite (fact_simpl 4), (fact_simpl 3), !mult_INR, fact_3. simpl. ring. Qed.
Lemma fact_7 : INR (fact 7) = 5040.
Proof. rewrite (fact_simpl 6), (fact_simpl 5), !mult_INR, fact_5. simpl INR. ring. Qed.
Lemma term_0 x : sin_term x 0 = x.
Proof. unfold sin_term. change (2 * 0 + 1)%nat with 1%nat. rewrite fact_1. simpl. field. Qed.
Lemma term_1 x : sin_term x 1 = - (x ^ 3 / 6).
Proof. unfold sin_term. change (2 * 1 + 1)%nat with 3%nat. rewrite fact_3. field. Qed.
Lemma term_2 x : sin_term x 2 = x ^ 5 / 120.
Proof. unfold sin_term. change (2 * 2 + 1)%nat with 5%nat. rewrite fact_5. field. Qed.
Lemma term_3 x : sin_term x 3 = - (x ^ 7 / 5040).
Proof. unfold sin_term. change (2 * 3 + 1)%nat with 7%nat. rewrite fact_7. field. Qed.

Lemma sin_ends x : 0 < x <= 3 -> x - x ^ 3 / 6 + x ^ 5 / 120 - x ^ 7 / 5040 <= sin x <= x - x ^ 3 / 6 + x ^ 5 / 120.
Proof.
  intros H. assert (P3 : 3 < PI) by (pose proof PI2_3_2; unfold PI2 in *; lra).
  destruct (pre_sin_bound x 1 ltac:(lra) ltac:(lra)) as [H1 _]. destruct (pre_sin_bound x 0 ltac:(lra) ltac:(lra)) as [_ H2].
  unfold sin_approx in H1, H2. change (2 * 1 + 1)%nat with 3%nat in H1. change (2 * (0 + 1))%nat with 2%nat in H2.
  cbn [sum_f_R0] in H1, H2. rewrite term_0, term_1, term_2 in H1, H2. rewrite term_3 in H1. lra.
Qed.
Lemma sinc_ends x : 0 < Rabs x <= 3 -> 1 - x ^ 2 / 6 + x ^ 4 / 120 - x ^ 6 / 5040 <= sin x / x <= 1 - x ^ 2 / 6 + x ^ 4 / 120.
Proof.
  assert (G : forall y, 0 < y <= 3 -> 1 - y ^ 2 / 6 + y ^ 4 / 120 - y ^ 6 / 5040 <= sin y / y <= 1 - y ^ 2 / 6 + y ^ 4 / 120).
  { intros y Hy. pose proof (sin_ends y Hy) as [A B]. split; apply (Rmult_le_reg_r y); try lra; unfold Rdiv at 4 || unfold Rdiv; rewrite ?Rmult_plus_distr_r.
    - replace (sin y * / y * y) with (sin y) by (field; lra). lra.
    - replace (sin y * / y * y) with (sin y) by (field; lra). lra. }
  intros H. destruct (Rcase_abs x) as [N|N].
  - rewrite (Rabs_left x N) in H. pose proof (G (- x) H) as E. rewrite sin_neg in E. replace (- sin x / - x) with (sin x / x) in E by (field; lra).
    replace ((- x) ^ 2) with (x ^ 2) in E by ring. replace ((- x) ^ 4) with (x ^ 4) in E by ring. replace ((- x) ^ 6) with (x ^ 6) in E by ring. exact E.
  - rewrite (Rabs_right x N) in H. apply G. exact H.
Qed.

(** Two terms below 4e-4 (recent boost, 3.3 times the fourth root of 2^-52) are within 2^-52 of sin(x)/x; three terms below 2.5e-3
    (older boost, the sixth root) within a thousandth of 2^-53. *)
Theorem C72_sinc : forall x, 0 < Rabs x ->
  (Rabs x <= 4 / 10 ^ 4 -> Rabs (1 - x ^ 2 / 6 - sin x / x) <= 2 * u) /\
  (Rabs x <= 25 / 10 ^ 4 -> Rabs (1 - x ^ 2 / 6 + x ^ 4 / 120 - sin x / x) <= u / 1000).
Proof.
  intros x X0. rewrite u_val. assert (Q2 : x ^ 2 = Rabs x ^ 2) by (rewrite pow2_abs; reflexivity).
  assert (E4 : x ^ 4 = Rabs x ^ 2 * Rabs x ^ 2) by (rewrite <- Q2; ring). assert (E6 : x ^ 6 = Rabs x ^ 2 * (Rabs x ^ 2 * Rabs x ^ 2)) by (rewrite <- Q2; ring).
  set (z := Rabs x ^ 2) in *. assert (Z0 : 0 <= z) by (unfold z; apply pow2_ge_0).
  split; intros H; pose proof (sinc_ends x ltac:(lra)) as [A B].
  - assert (Z1 : z <= 16 / 10 ^ 8) by (unfold z; replace (16 / 10 ^ 8) with ((4 / 10 ^ 4) ^ 2) by field; apply pow_incr; lra).
    assert (Z2 : z * z <= 16 / 10 ^ 8 * (16 / 10 ^ 8)) by (apply Rmult_le_compat; lra). assert (Z3 : z * (z * z) <= 1 * (z * z)) by (apply Rmult_le_compat_r; nra).
    apply Rabs_le. rewrite E4, E6 in *. split; nra || lra.
  - assert (Z1 : z <= 625 / 10 ^ 8) by (unfold z; replace (625 / 10 ^ 8) with ((25 / 10 ^ 4) ^ 2) by field; apply pow_incr; lra).
    assert (Z2 : 0 <= z * z <= 625 / 10 ^ 8 * (625 / 10 ^ 8)) by (split; [nra|apply Rmult_le_compat; lra]). assert (Z3 : 0 <= z * (z * z) <= 625 / 10 ^ 8 * (625 / 10 ^ 8 * (625 / 10 ^ 8))) by (split; [nra|apply Rmult_le_compat; lra]).
    apply Rabs_le. rewrite E4, E6 in *. lra.
Qed.
Example C72_sinc_example : Rabs (1 - (1 / 10 ^ 3) ^ 2 / 6 + (1 / 10 ^ 3) ^ 4 / 120 - sin (1 / 10 ^ 3) / (1 / 10 ^ 3)) <= u / 1000.
Proof. apply C72_sinc; rewrite Rabs_pos_eq; lra. Qed.
Print Assumptions C72_sinc.
