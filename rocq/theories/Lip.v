(** Distances between results of two retractions. *)
From Coq Require Import Reals List Lra Lia ZArith Bool Arith Psatz.
From Verif Require Import Base Scalar Vec Model_Real Model_S2 Model_SO3 Model_Manifold Spec Layout Comp Indep Flat
  XR SpecR RotR NumVec NumMat Angle NumQuat NumTree NumLeaf RotLog RoundTrip NumS2 NumExp NumLog Points Drift Inj Subgroup Path F64Log.
Import ListNotations.
Local Open Scope R_scope.

(** ** Vectors *)
Lemma rdot_sub u w : length u = length w -> rdot (rsub u w) (rsub u w) = rdot u u - 2 * rdot u w + rdot w w.
Proof.
  revert w. induction u as [|x u IH]; intros [|y w] L; try discriminate; cbn [length] in L; [cbn; lra|].
  change (rsub (x :: u) (y :: w)) with (x - y :: rsub u w). cbn [rdot]. rewrite IH by lia. ring.
Qed.
Lemma rsub_via u w z : length u = length w -> length w = length z -> rsub u z = radd (rsub u w) (rsub w z).
Proof.
  revert w z. induction u as [|x u IH]; intros [|y w] [|t z] L L'; try discriminate; [reflexivity|]. cbn [length] in *.
  change (x - t :: rsub u z = (x - y) + (y - t) :: radd (rsub u w) (rsub w z)). f_equal; [ring|]. apply IH; lia.
Qed.
Lemma rsub_len u w : length u = length w -> length (rsub u w) = length w.
Proof. intros L. unfold rsub. rewrite map_length, combine_length. lia. Qed.
Lemma dist_via u w z : length u = length w -> length w = length z -> rnorm (rsub u z) <= rnorm (rsub u w) + rnorm (rsub w z).
Proof. intros L L'. rewrite (rsub_via u w z) by auto. apply rnorm_tri. rewrite !rsub_len; auto. Qed.
Lemma dist_sym u w : length u = length w -> rnorm (rsub u w) = rnorm (rsub w u).
Proof. intros L. unfold rnorm. f_equal. rewrite !rdot_sub, (rdot_comm u w) by auto. ring. Qed.
Lemma dist_refl u : rnorm (rsub u u) = 0.
Proof. unfold rnorm. rewrite rdot_sub by auto. replace (_ - _ + _) with 0 by ring. apply sqrt_0. Qed.
Lemma sq_le_norm u b : 0 <= b -> rdot u u <= b * b -> rnorm u <= b.
Proof. intros B H. unfold rnorm. rewrite <- (sqrt_square b) by auto. apply sqrt_le_1_alt. auto. Qed.

(** ** The quaternion exponential is 1/2-Lipschitz *)
Lemma sin_abs_le a : 0 <= a -> Rabs (sin a) <= a.
Proof.
  intros H. assert (S : sin a <= a) by (destruct (Req_dec a 0) as [->|]; [rewrite sin_0; lra|left; apply sin_lt_x; lra]).
  assert (T : - a <= sin a).
  { pose proof (sin_lt_x a). destruct (Rle_dec a PI) as [P|P]; [pose proof (sin_ge_0 a H P); lra|]. pose proof (SIN_bound a). pose proof PI2_1. lra. }
  apply Rabs_le. lra.
Qed.
Lemma exp_chord a b c : 0 < a -> 0 < b -> c <= 4 * (a * b) ->
  2 - 2 * (cos a * cos b + sin a * sin b / (2 * a * (2 * b)) * c) <= (4 * (a * a) - 2 * c + 4 * (b * b)) / 4.
Proof.
  intros A B H. set (k := sin a * sin b / (2 * a * (2 * b))).
  assert (K : 4 * k <= 1).
  { unfold k. pose proof (sin_abs_le a ltac:(lra)) as SA. pose proof (sin_abs_le b ltac:(lra)) as SB.
    assert (AB : 0 < a * b) by (apply Rmult_lt_0_compat; auto).
    assert (P : sin a * sin b <= a * b).
    { apply Rle_trans with (Rabs (sin a) * Rabs (sin b)); [rewrite <- Rabs_mult; apply Rle_abs|]. apply Rmult_le_compat; auto using Rabs_pos. }
    replace (4 * (sin a * sin b / (2 * a * (2 * b)))) with (sin a * sin b * / (a * b)) by (field; lra).
    apply Rmult_le_reg_r with (a * b); auto. rewrite Rmult_assoc, Rinv_l by lra. lra. }
  pose proof (one_cos (a - b)) as [_ O]. rewrite cos_minus in O.
  assert (E : k * (4 * (a * b)) = sin a * sin b) by (unfold k; field; lra).
  assert (M : (1 - 4 * k) * c <= (1 - 4 * k) * (4 * (a * b))) by (apply Rmult_le_compat_l; lra).
  nra.
Qed.
Lemma qdist p q : qn2 p = 1 -> qn2 q = 1 -> rdot (rsub (qflat p) (qflat q)) (rsub (qflat p) (qflat q)) = 2 - 2 * rdot (qflat p) (qflat q).
Proof. intros P Q. rewrite rdot_sub by reflexivity. assert (D : forall r, rdot (qflat r) (qflat r) = qn2 r) by (intros; unfold qn2, qflat; cbn [rdot]; ring). rewrite !D. rewrite P, Q. ring. Qed.
Lemma expQ_nz x y z : rnorm [x; y; z] <> 0 -> let n := rnorm [x; y; z] in
  expQ [x; y; z] = Q4 (cos (n / 2)) (sin (n / 2) / n * x) (sin (n / 2) / n * y) (sin (n / 2) / n * z).
Proof. intros N n. fold n in N. unfold expQ. cbv zeta. fold n. destruct (Req_EM_T n 0); [contradiction|reflexivity]. Qed.
Lemma zero_vec x y z : rnorm [x; y; z] = 0 -> [x; y; z] = [0; 0; 0].
Proof. intros H. pose proof (rscal_zero_vec 1 x y z H) as E. unfold rscal in E. cbn [map] in E. rewrite !Rmult_1_l in E. exact E. Qed.
Lemma expQ_lip v w : length v = 3%nat -> length w = 3%nat -> rnorm (rsub (qflat (expQ v)) (qflat (expQ w))) <= rnorm (rsub v w) / 2.
Proof.
  intros Lv Lw. apply sq_le_norm; [pose proof (rnorm_nonneg (rsub v w)); lra|]. rewrite qdist by apply expQ_unit.
  replace (rnorm (rsub v w) / 2 * (rnorm (rsub v w) / 2)) with (rnorm (rsub v w) * rnorm (rsub v w) / 4) by field. rewrite rnorm_sq, rdot_sub by lia.
  destruct (vec3_inv v Lv) as (x & y & z & ->). destruct (vec3_inv w Lw) as (x' & y' & z' & ->).
  pose proof (rnorm_sq [x; y; z]) as Sv. pose proof (rnorm_sq [x'; y'; z']) as Sw. pose proof (rnorm_nonneg [x; y; z]) as Nv. pose proof (rnorm_nonneg [x'; y'; z']) as Nw.
  assert (Z : forall p q r, rnorm [p; q; r] = 0 -> expQ [p; q; r] = Q4 1 0 0 0) by (intros p q r H; rewrite (zero_vec _ _ _ H); apply expQ_0).
  assert (HZ : forall p q r, let n := rnorm [p; q; r] in 2 - 2 * rdot [1; 0; 0; 0] (qflat (expQ [p; q; r])) <= n * n / 4).
  { intros p q r n. destruct (Req_dec n 0) as [N|N].
    - rewrite (Z p q r N). unfold qflat. cbn [rdot qw qx qy qz]. rewrite N. lra.
    - rewrite expQ_nz by auto. unfold qflat. cbn [rdot qw qx qy qz]. fold n. pose proof (one_cos (n / 2)). nra. }
  assert (O : forall p q r, rnorm [p; q; r] = 0 -> forall u, length u = 3%nat -> rdot [p; q; r] u = 0).
  { intros p q r H u L. rewrite (zero_vec _ _ _ H). destruct (vec3_inv u L) as (e & f & g & ->). cbn. ring. }
  destruct (Req_dec (rnorm [x; y; z]) 0) as [A|A].
  - rewrite (Z x y z A), (O x y z A [x'; y'; z'] eq_refl), (O x y z A [x; y; z] eq_refl). specialize (HZ x' y' z'). cbv zeta in HZ. rewrite Sw in HZ. unfold qflat at 1. cbn [qw qx qy qz]. lra.
  - destruct (Req_dec (rnorm [x'; y'; z']) 0) as [B|B].
    + rewrite (Z x' y' z' B). rewrite (rdot_comm [x; y; z] [x'; y'; z']), (O x' y' z' B [x; y; z] eq_refl), (O x' y' z' B [x'; y'; z'] eq_refl).
      specialize (HZ x y z). cbv zeta in HZ. rewrite Sv in HZ. rewrite rdot_comm. unfold qflat at 1. cbn [qw qx qy qz]. lra.
    + rewrite !expQ_nz by auto. set (n := rnorm [x; y; z]) in *. set (k := rnorm [x'; y'; z']) in *.
      pose proof (cauchy [x; y; z] [x'; y'; z']) as C. rewrite <- Sv, <- Sw in *. set (c := rdot [x; y; z] [x'; y'; z']) in *.
      assert (E : rdot (qflat (Q4 (cos (n / 2)) (sin (n / 2) / n * x) (sin (n / 2) / n * y) (sin (n / 2) / n * z))) (qflat (Q4 (cos (k / 2)) (sin (k / 2) / k * x') (sin (k / 2) / k * y') (sin (k / 2) / k * z'))) =
        cos (n / 2) * cos (k / 2) + sin (n / 2) * sin (k / 2) / (2 * (n / 2) * (2 * (k / 2))) * c).
      { unfold qflat, c. cbn [rdot qw qx qy qz]. field. auto. }
      rewrite E. assert (c <= n * k).
      { apply Rle_trans with (Rabs c); [apply Rle_abs|]. apply Rsqr_incr_0; [|apply Rabs_pos|nra]. unfold Rsqr. rewrite <- Rabs_mult, Rabs_pos_eq by nra. nra. }
      pose proof (exp_chord (n / 2) (k / 2) c ltac:(lra) ltac:(lra) ltac:(lra)). lra.
Qed.

(** ** Rotation matrices *)
Definition rmsub (A B : m3 R) : m3 R :=
  M3 (a00 A - a00 B) (a01 A - a01 B) (a02 A - a02 B) (a10 A - a10 B) (a11 A - a11 B) (a12 A - a12 B) (a20 A - a20 B) (a21 A - a21 B) (a22 A - a22 B).
Lemma flat9_sub A B : rsub (flat9 A) (flat9 B) = flat9 (rmsub A B).
Proof. reflexivity. Qed.
Definition fro (A : m3 R) : R := rdot (flat9 A) (flat9 A).
Lemma fro_rows A : fro A = rdot (row0 A) (row0 A) + rdot (row1 A) (row1 A) + rdot (row2 A) (row2 A).
Proof. unfold fro, flat9, row0, row1, row2. cbn [rdot]. ring. Qed.
Lemma fro_right A X : rot X -> fro (rmul A X) = fro A.
Proof. intros H. rewrite !fro_rows. destruct (row_mul A X) as (-> & -> & ->). rewrite !rot_dot by (auto; apply rot_tr; auto). reflexivity. Qed.
Lemma fro_tr A : fro (rtr A) = fro A.
Proof. unfold fro, flat9, rtr. cbn [rdot a00 a01 a02 a10 a11 a12 a20 a21 a22]. ring. Qed.
Lemma rtr_mul A B : rtr (rmul A B) = rmul (rtr B) (rtr A).
Proof. unfold rtr, rmul. cbn [a00 a01 a02 a10 a11 a12 a20 a21 a22]. f_equal; ring. Qed.
Lemma fro_left A X : rot X -> fro (rmul X A) = fro A.
Proof. intros H. rewrite <- fro_tr, rtr_mul, fro_right by (apply rot_tr; auto). apply fro_tr. Qed.
Lemma rmsub_mul_l A B C : rmul A (rmsub B C) = rmsub (rmul A B) (rmul A C).
Proof. unfold rmsub, rmul. cbn [a00 a01 a02 a10 a11 a12 a20 a21 a22]. f_equal; ring. Qed.
Lemma rmsub_mul_r A B C : rmul (rmsub A B) C = rmsub (rmul A C) (rmul B C).
Proof. unfold rmsub, rmul. cbn [a00 a01 a02 a10 a11 a12 a20 a21 a22]. f_equal; ring. Qed.
Lemma fro_rot A : rot A -> fro A = 3.
Proof. intros H. rewrite fro_rows. destruct (rows_unit A H) as (-> & -> & ->). ring. Qed.
Lemma fro_sub A B : rot A -> rot B -> fro (rmsub A B) = 6 - 2 * tr3 (rmul (rtr A) B).
Proof.
  intros HA HB. pose proof (fro_rot A HA) as FA. pose proof (fro_rot B HB) as FB. unfold fro in *.
  rewrite <- flat9_sub, rdot_sub, FA, FB by reflexivity. assert (E : rdot (flat9 A) (flat9 B) = tr3 (rmul (rtr A) B)); [|lra].
  unfold tr3, flat9, rmul, rtr. cbn [rdot a00 a01 a02 a10 a11 a12 a20 a21 a22]. ring.
Qed.
Lemma qmat_tr q : rtr (qmat q) = qmat (qconj q).
Proof. rewrite !qmat_rod. unfold rtr, rodrigues, qconj. cbn [qw qx qy qz a00 a01 a02 a10 a11 a12 a20 a21 a22]. f_equal; ring. Qed.
Lemma qmat_dist p q : qn2 p = 1 -> qn2 q = 1 -> fro (rmsub (qmat p) (qmat q)) = 8 * (1 - rdot (qflat p) (qflat q) * rdot (qflat p) (qflat q)).
Proof.
  intros P Q. rewrite fro_sub by (apply qmat_rot; auto).
  assert (Pc : qn2 (qconj p) = 1) by (rewrite <- P; unfold qn2, qconj; cbn [qw qx qy qz]; ring).
  rewrite qmat_tr, <- qmat_mul by auto. set (r := qprod (qconj p) q).
  assert (U : qn2 r = 1) by (unfold r; rewrite qn2_mul, Pc, Q; ring).
  assert (W : qw r = rdot (qflat p) (qflat q)) by (unfold r, qprod, qconj, qflat; cbn [qw qx qy qz rdot]; ring).
  rewrite <- W, qmat_rod. unfold tr3, rodrigues. cbn [a00 a01 a02 a10 a11 a12 a20 a21 a22]. unfold qn2 in U. lra.
Qed.
Lemma expSO3_lip v w : length v = 3%nat -> length w = 3%nat -> rnorm (rsub (flat9 (expSO3 v)) (flat9 (expSO3 w))) <= sqrt 2 * rnorm (rsub v w).
Proof.
  intros Lv Lw. rewrite <- !qmat_expQ by auto. pose proof (expQ_lip v w Lv Lw) as H. set (p := expQ v) in *. set (q := expQ w) in *.
  assert (P : qn2 p = 1) by apply expQ_unit. assert (Q : qn2 q = 1) by apply expQ_unit. set (d := rnorm (rsub v w)) in *. assert (D : 0 <= d) by apply rnorm_nonneg.
  assert (S0 : 0 <= sqrt 2) by apply sqrt_pos. assert (S : sqrt 2 * sqrt 2 = 2) by (apply sqrt_sqrt; lra).
  apply sq_le_norm; [apply Rmult_le_pos; auto|]. rewrite flat9_sub. fold (fro (rmsub (qmat p) (qmat q))). rewrite qmat_dist by auto.
  pose proof (qdist p q P Q) as E. rewrite <- rnorm_sq in E. set (s := rdot (qflat p) (qflat q)) in *. set (e := rnorm (rsub (qflat p) (qflat q))) in *.
  assert (E0 : 0 <= e) by apply rnorm_nonneg. assert (e * e <= d / 2 * (d / 2)) by (apply Rmult_le_compat; auto).
  replace (sqrt 2 * d * (sqrt 2 * d)) with (sqrt 2 * sqrt 2 * (d * d)) by ring. rewrite S. pose proof (Rle_0_sqr (1 - s)). unfold Rsqr in *. nra.
Qed.

(** ** The sphere: normalising is 1-Lipschitz outside the unit ball *)
Lemma normal_lip a b : length a = length b -> 1 <= rdot a a -> 1 <= rdot b b ->
  rnorm (rsub (rscal (/ rnorm a) a) (rscal (/ rnorm b) b)) <= rnorm (rsub a b).
Proof.
  intros L A B. assert (Na : 1 <= rnorm a) by (unfold rnorm; rewrite <- sqrt_1 at 1; apply sqrt_le_1_alt; auto).
  assert (Nb : 1 <= rnorm b) by (unfold rnorm; rewrite <- sqrt_1 at 1; apply sqrt_le_1_alt; auto).
  apply sq_le_norm; [apply rnorm_nonneg|]. rewrite rnorm_sq, !rdot_sub by (rewrite ?rscal_length; auto).
  rewrite !unit_normal by lra. rewrite rdot_rscal_l, rdot_rscal_r. pose proof (cauchy a b) as C. rewrite <- !rnorm_sq in C. rewrite <- !rnorm_sq.
  set (n := rnorm a) in *. set (k := rnorm b) in *. set (c := rdot a b) in *.
  assert (Hc : c <= n * k).
  { apply Rle_trans with (Rabs c); [apply Rle_abs|]. apply Rsqr_incr_0; [|apply Rabs_pos|nra]. unfold Rsqr. rewrite <- Rabs_mult, Rabs_pos_eq by nra. nra. }
  set (i := / n) in *. set (j := / k) in *. assert (I : i * n = 1) by (apply Rinv_l; lra). assert (J : j * k = 1) by (apply Rinv_l; lra).
  assert (I0 : 0 < i <= 1). { split; [apply Rinv_0_lt_compat; lra|]. unfold i. rewrite <- Rinv_1. apply Rinv_le_contravar; lra. }
  assert (J0 : 0 < j <= 1). { split; [apply Rinv_0_lt_compat; lra|]. unfold j. rewrite <- Rinv_1. apply Rinv_le_contravar; lra. }
  assert (IJ : i * j <= 1) by nra. assert (T : i * (j * (n * k)) = 1) by (replace (i * (j * (n * k))) with (i * n * (j * k)) by ring; rewrite I, J; ring).
  assert (M : (1 - i * j) * c <= (1 - i * j) * (n * k)) by (apply Rmult_le_compat_l; lra).
  pose proof (Rle_0_sqr (n - k)) as G. unfold Rsqr in G. nra.
Qed.
