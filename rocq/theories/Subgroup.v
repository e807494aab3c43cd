(** Steps along one direction: exp(s v) exp(t v) = exp((s + t) v). *)
From Coq Require Import Reals List Lra Lia ZArith Bool Arith Psatz.
From Verif Require Import Base Scalar Vec Model_Real Model_S2 Model_SO3 Model_Manifold Spec Layout Comp Indep Flat
  XR SpecR RotR NumVec NumMat Angle NumQuat NumTree NumLeaf RotLog RoundTrip NumS2 NumExp NumLog Points Drift Inj.
Import ListNotations.
Local Open Scope R_scope.

Lemma expQ_scal s x y z : rnorm [x; y; z] <> 0 -> let n := rnorm [x; y; z] in
  expQ (rscal s [x; y; z]) = Q4 (cos (s * n / 2)) (sin (s * n / 2) / n * x) (sin (s * n / 2) / n * y) (sin (s * n / 2) / n * z).
Proof.
  intros N n. fold n in N. unfold expQ, rscal. cbn [map]. cbv zeta. change [s * x; s * y; s * z] with (rscal s [x; y; z]). rewrite rnorm_scal. fold n.
  destruct (Req_EM_T (Rabs s * n) 0) as [Z|Z].
  - assert (s = 0) as ->. { apply Rmult_integral in Z as [Z|Z]; [|contradiction]. destruct (Req_dec s 0); auto. apply Rabs_no_R0 in H. contradiction. }
    replace (0 * n / 2) with 0 by field. rewrite cos_0, sin_0. f_equal; field; auto.
  - assert (S : s <> 0) by (intros ->; rewrite Rabs_R0 in Z; lra).
    assert (H : sin (Rabs s * n / 2) / (Rabs s * n) = sin (s * n / 2) / (s * n) /\ cos (Rabs s * n / 2) = cos (s * n / 2)).
    { unfold Rabs. destruct (Rcase_abs s); auto. replace (- s * n / 2) with (- (s * n / 2)) by field. rewrite sin_neg, cos_neg. split; auto. field. auto. }
    destruct H as [-> ->]. f_equal; field; auto.
Qed.
Lemma rscal_zero_vec s x y z : rnorm [x; y; z] = 0 -> rscal s [x; y; z] = [0; 0; 0].
Proof.
  intros H. pose proof (rnorm3_sq x y z) as S. rewrite H in S. assert (x = 0) by nra. assert (y = 0) by nra. assert (z = 0) by nra. subst.
  unfold rscal. cbn [map]. rewrite Rmult_0_r. reflexivity.
Qed.
Lemma expQ_add s t v : length v = 3%nat -> qprod (expQ (rscal s v)) (expQ (rscal t v)) = expQ (rscal (s + t) v).
Proof.
  intros L. destruct (vec3_inv v L) as (x & y & z & ->). destruct (Req_dec (rnorm [x; y; z]) 0) as [N|N].
  - rewrite !(rscal_zero_vec _ _ _ _ N), expQ_0. unfold qprod. cbn [qw qx qy qz]. f_equal; ring.
  - rewrite !expQ_scal by auto. cbv zeta. set (n := rnorm [x; y; z]) in *. pose proof (rnorm3_sq x y z) as S. fold n in S.
    replace ((s + t) * n / 2) with (s * n / 2 + t * n / 2) by field. rewrite cos_plus, sin_plus. set (a := s * n / 2). set (b := t * n / 2).
    unfold qprod. cbn [qw qx qy qz]. f_equal; try (field; auto).
    replace (cos a * cos b - sin a / n * x * (sin b / n * x) - sin a / n * y * (sin b / n * y) - sin a / n * z * (sin b / n * z)) with (cos a * cos b - sin a * sin b * ((x * x + y * y + z * z) / (n * n))) by (field; auto).
    rewrite <- S. field. auto.
Qed.
Lemma expSO3_add s t v : length v = 3%nat -> rmul (expSO3 (rscal s v)) (expSO3 (rscal t v)) = expSO3 (rscal (s + t) v).
Proof.
  intros L. rewrite <- !qmat_expQ by (rewrite rscal_length; auto). rewrite <- qmat_mul by apply expQ_unit. rewrite expQ_add; auto.
Qed.
