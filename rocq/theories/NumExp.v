(** Series branches of the two exponentials: defects and accuracy. *)
From Coq Require Import Reals List Lra Lia ZArith Bool Arith Psatz.
From Verif Require Import Base Scalar Vec Model_S2 Model_SO3 Model_Manifold Spec Layout Comp
  XR SpecR RotR NumVec NumMat Angle NumQuat NumLeaf NumS2.
Import ListNotations.
Local Open Scope R_scope.

(** ** Taylor bounds *)
Lemma sin_taylor5 a : 0 <= a <= PI -> a - a ^ 3 / 6 <= sin a <= a - a ^ 3 / 6 + a ^ 5 / 120.
Proof.
  intros H. destruct (sin_bound a 0) as [L U]; try lra.
  unfold sin_approx, sin_term in *. simpl in *. lra.
Qed.
Lemma sin_taylor7 a : 0 <= a <= PI -> a - a ^ 3 / 6 + a ^ 5 / 120 - a ^ 7 / 5040 <= sin a.
Proof.
  intros H. destruct (sin_bound a 1) as [L _]; try lra.
  unfold sin_approx, sin_term in *. simpl in *. lra.
Qed.
Lemma cos_taylor6 a : - PI / 2 <= a -> a <= PI / 2 ->
  1 - a ^ 2 / 2 + a ^ 4 / 24 - a ^ 6 / 720 <= cos a <= 1 - a ^ 2 / 2 + a ^ 4 / 24.
Proof.
  intros H1 H2. destruct (cos_bound a 0 H1 H2) as [_ U]. destruct (cos_bound a 1 H1 H2) as [L _].
  unfold cos_approx, cos_term in *. simpl in *. lra.
Qed.

Lemma Rabs_le_inv a b : Rabs a <= b -> - b <= a <= b.
Proof. unfold Rabs. destruct (Rcase_abs a); lra. Qed.

(** ** Rotations up to a defect *)
Lemma rot_near A : rot A -> near_rot 0 A.
Proof.
  intros [H D]. unfold near_rot. rewrite H, D. cbn [ridm a00 a01 a02 a10 a11 a12 a20 a21 a22].
  replace (1 - 1) with 0 by ring. rewrite Rabs_R0. repeat split; lra.
Qed.
Lemma near_rot_mul e A B : rot A -> near_rot e B -> near_rot e (rmul A B).
Proof.
  intros [H D] N. unfold near_rot in *. rewrite rtr_mul, rmul_assoc, <- (rmul_assoc (rtr A)), H, rmul_id_l, rdet_mul, D, Rmult_1_l.
  exact N.
Qed.
Lemma near_rot_0 A : near_rot 0 A -> rot A.
Proof.
  assert (Z : forall a, Rabs a <= 0 -> a = 0).
  { intros a H. destruct (Req_dec a 0) as [|N]; auto. pose proof (Rabs_pos_lt a N). lra. }
  intros (H1 & H2 & H3 & H4 & H5 & H6 & H7 & H8 & H9 & H10). split.
  - apply m3_ext; cbn [ridm a00 a01 a02 a10 a11 a12 a20 a21 a22]; repeat match goal with H : Rabs _ <= 0 |- _ => apply Z in H end; lra.
  - apply Z in H10. lra.
Qed.

Lemma approx1_ok a : Rabs (a - 1) <= 1 / 1000000000 -> k_isApprox (Fin a) k1 map_prec = true.
Proof.
  intros H. unfold k_isApprox, map_prec, kmin. cbn [kabs ksub klit kmul kleb kltb k1 XRS xsub xabs xltb xleb lift2].
  rewrite Rabs_R1. apply Rabs_le_inv in H as [H1 H2]. rewrite (Rabs_pos_eq a) by lra.
  assert (Rabs (a - 1) <= 1 / 1000000000) by (apply Rabs_le; lra).
  destruct (Rltb 1 a); cbn; apply Rleb_true; lra.
Qed.
Lemma small_ok a : Rabs a <= 1 / 1000000000 -> k_isMuchSmallerThan (Fin a) k1 map_prec = true.
Proof.
  intros H. unfold k_isMuchSmallerThan, map_prec. cbn [kabs ksub klit kmul kleb kltb k1 XRS xsub xabs xltb xleb lift2].
  rewrite Rabs_R1. apply Rleb_true. lra.
Qed.
Lemma em_isInM_near A p : near_rot (1 / 1000000000) A -> em_isInM (fin (flat9 A)) p = Ok true.
Proof.
  intros (H1 & H2 & H3 & H4 & H5 & H6 & H7 & H8 & H9 & H10). unfold em_isInM. rewrite m3_read_fin. cbn [bind].
  rewrite m3_trans_fin, m3_mul_fin, m3_det_fin. f_equal.
  rewrite fin_length, flat9_length. cbn [Nat.eqb andb].
  set (G := rmul (rtr A) A) in *. unfold m3_isIdentity. unfold m3fin. cbn [a00 a01 a02 a10 a11 a12 a20 a21 a22].
  rewrite !approx1_ok, !small_ok by assumption. unfold map_prec. cbn [kabs ksub klit kltb k1 XRS xsub xabs xltb].
  assert (E : Rltb (Rabs (rdet A - 1)) (1 / 100000000) = true) by (apply Rltb_true; lra).
  rewrite E. reflexivity.
Qed.

(** ** Matrix exponential *)
Lemma small_sq (a b n : R) : a * a <= n -> b * b <= n -> Rabs (a * b) <= n.
Proof.
  intros Ha Hb. apply Rabs_le. split.
  - pose proof (Rle_0_sqr (a + b)) as H. unfold Rsqr in H. lra.
  - pose proof (Rle_0_sqr (a - b)) as H. unfold Rsqr in H. lra.
Qed.
Lemma em_series_near x y z : let n := x * x + y * y + z * z in n < eps8 ->
  near_rot (1 / 10 ^ 24) (rodrigues (1 - n / 6) (1 / 2 - n / 24) x y z).
Proof.
  intros n Hn. assert (N0 : 0 <= n) by (unfold n; nra).
  unfold near_rot. rewrite rod_gram, rod_det. cbv zeta. fold n.
  set (d := _ * _ + _ * _ * n - _).
  assert (Ed : d = - (n * n) / 72 + n * n * n / 576) by (unfold d; field).
  assert (Dn : Rabs d * n <= 1 / 10 ^ 24).
  { assert (n * n <= 1 / 10 ^ 16) by nra.
    assert (Hd : Rabs d <= 1 / 10 ^ 16).
    { rewrite Ed. apply Rabs_le. assert (0 <= n * n) by nra.
      assert (0 <= n * n * n) by nra. assert (n * n * n <= n * n) by nra. lra. }
    apply Rle_trans with (1 / 10 ^ 16 * n); [apply Rmult_le_compat_r; auto|lra]. }
  assert (Q : forall a, Rabs a <= n -> Rabs (d * a) <= 1 / 10 ^ 24).
  { intros a Ha. rewrite Rabs_mult. apply Rle_trans with (Rabs d * n); auto.
    apply Rmult_le_compat_l; auto. apply Rabs_pos. }
  assert (Q' : forall a b, a * a <= n -> b * b <= n -> Rabs (- d * (a * b)) <= 1 / 10 ^ 24).
  { intros a b Ha Hb. replace (- d * (a * b)) with (d * (- (a * b))) by ring. apply Q. rewrite Rabs_Ropp. apply small_sq; auto. }
  assert (X : x * x <= n) by (unfold n; nra). assert (Y : y * y <= n) by (unfold n; nra). assert (Z : z * z <= n) by (unfold n; nra).
  cbn [a00 a01 a02 a10 a11 a12 a20 a21 a22].
  repeat match goal with |- _ /\ _ => split end; auto;
    match goal with |- Rabs (1 + ?t - 1) <= _ => replace (1 + t - 1) with t by ring end.
  - apply Q. apply Rabs_le. nra.
  - apply Q. apply Rabs_le. nra.
  - apply Q. apply Rabs_le. nra.
  - rewrite Rmult_comm. apply Q. rewrite Rabs_pos_eq; lra.
Qed.

(** Distance of the series to the exact exponential. *)
Lemma em_series_close n : 0 < n < eps8 -> let t := sqrt n in
  Rabs (1 - n / 6 - sin t / t) <= n * n / 120 /\ Rabs (1 / 2 - n / 24 - (1 - cos t) / (t * t)) <= n * n / 720.
Proof.
  intros [N0 Hn] t. assert (T0 : 0 < t) by (apply sqrt_lt_R0; auto).
  assert (Tn : t * t = n) by (apply sqrt_sqrt; lra).
  assert (T1 : t < 1) by nra. assert (P : 1 < PI / 2) by (pose proof PI2_1; lra).
  pose proof (sin_taylor5 t ltac:(lra)) as [S1 S2]. pose proof (cos_taylor6 t ltac:(lra) ltac:(lra)) as [C1 C2].
  replace (t ^ 3) with (t * n) in * by (rewrite <- Tn; ring). replace (t ^ 5) with (t * (n * n)) in * by (rewrite <- Tn; ring).
  replace (t ^ 2) with n in * by (rewrite <- Tn; ring). replace (t ^ 4) with (n * n) in * by (rewrite <- Tn; ring).
  replace (t ^ 6) with (n * (n * n)) in * by (rewrite <- Tn; ring).
  rewrite Tn. split.
  - assert (E : sin t / t * t = sin t) by (field; lra). set (s := sin t / t) in *.
    apply Rabs_le. split; apply Rmult_le_reg_r with t; auto; nra.
  - assert (E : (1 - cos t) / n * n = 1 - cos t) by (field; lra). set (s := (1 - cos t) / n) in *.
    apply Rabs_le. split; apply Rmult_le_reg_r with n; auto; nra.
Qed.
(** Entries of two matrices (of two vectors) within [e]. *)
Lemma near_v_refl x : near_v 0 x x.
Proof. induction x; constructor; auto. replace (a - a) with 0 by ring. rewrite Rabs_R0. lra. Qed.
Lemma near_v_mono e e' x y : e <= e' -> near_v e x y -> near_v e' x y.
Proof. intros H. induction 1; constructor; auto. lra. Qed.

Lemma lin_close s s' c c' a b n e k : Rabs (s - s') <= e -> Rabs (c - c') <= k -> Rabs a <= 1 / 10000 -> Rabs b <= n ->
  Rabs (s * a + c * b - (s' * a + c' * b)) <= e * (1 / 10000) + k * n.
Proof.
  intros H1 H2 H3 H4. replace (s * a + c * b - (s' * a + c' * b)) with ((s - s') * a + (c - c') * b) by ring.
  eapply Rle_trans; [apply Rabs_triang|]. rewrite !Rabs_mult.
  apply Rplus_le_compat; apply Rmult_le_compat; auto using Rabs_pos.
Qed.
Lemma em_series_dist x y z : let n := x * x + y * y + z * z in n < eps8 ->
  near_v (1 / 10 ^ 22) (flat9 (rodrigues (1 - n / 6) (1 / 2 - n / 24) x y z)) (flat9 (expSO3 [x; y; z])).
Proof.
  intros n Hn. pose proof (rnorm3_sq x y z) as N. fold n in N. set (t := rnorm [x; y; z]) in *.
  assert (N0 : 0 <= n) by (unfold n; nra).
  assert (X : x * x <= n) by (unfold n; nra). assert (Y : y * y <= n) by (unfold n; nra). assert (Z : z * z <= n) by (unfold n; nra).
  unfold expSO3. cbv zeta. fold t. destruct (Req_EM_T t 0) as [E|E].
  - assert (En : n = 0) by (rewrite <- N, E; ring). 
    assert (x = 0) by nra. assert (y = 0) by nra. assert (z = 0) by nra. subst x y z.
    apply near_v_mono with 0; [lra|]. 
    replace (flat9 (rodrigues (1 - n / 6) (1 / 2 - n / 24) 0 0 0)) with (flat9 ridm); [apply near_v_refl|].
    f_equal. m3_eq; ring.
  - assert (n <> 0) by (intros En; rewrite En in N; nra).
    assert (Et : sqrt n = t) by (rewrite <- N; apply sqrt_square; apply rnorm_nonneg).
    destruct (em_series_close n ltac:(lra)) as [S C]. cbv zeta in S, C. rewrite Et in S, C.
    set (s := 1 - n / 6) in *. set (c := 1 / 2 - n / 24) in *. set (s' := sin t / t) in *. set (c' := (1 - cos t) / (t * t)) in *.
    assert (B : n * n / 120 * (1 / 10000) + n * n / 720 * n <= 1 / 10 ^ 22).
    { assert (n * n <= 1 / 10 ^ 16) by nra. assert (n * n * n <= 1 / 10 ^ 24) by nra. lra. }
    assert (Q : forall a, a * a <= n -> Rabs a <= 1 / 10000).
    { intros a Ha. apply Rabs_le. split; nra. }
    assert (G : forall a b, Rabs a <= 1 / 10000 -> Rabs b <= n -> Rabs (s * a + c * b - (s' * a + c' * b)) <= 1 / 10 ^ 22).
    { intros a b Ha Hb. eapply Rle_trans; [apply lin_close; eauto|]. auto. }
    assert (Q0 : Rabs 0 <= 1 / 10000) by (rewrite Rabs_R0; lra).
    assert (Qn : forall a, a * a <= n -> Rabs (- a) <= 1 / 10000) by (intros; rewrite Rabs_Ropp; auto).
    unfold flat9, rodrigues, near_v. cbn [a00 a01 a02 a10 a11 a12 a20 a21 a22].
    pose proof (G 0 (- (y * y + z * z)) Q0 ltac:(apply Rabs_le; unfold n; nra)).
    pose proof (G 0 (- (x * x + z * z)) Q0 ltac:(apply Rabs_le; unfold n; nra)).
    pose proof (G 0 (- (x * x + y * y)) Q0 ltac:(apply Rabs_le; unfold n; nra)).
    pose proof (G z (x * y) (Q z Z) (small_sq _ _ _ X Y)). pose proof (G (- z) (x * y) (Qn z Z) (small_sq _ _ _ X Y)).
    pose proof (G y (x * z) (Q y Y) (small_sq _ _ _ X Z)). pose proof (G (- y) (x * z) (Qn y Y) (small_sq _ _ _ X Z)).
    pose proof (G x (y * z) (Q x X) (small_sq _ _ _ Y Z)). pose proof (G (- x) (y * z) (Qn x X) (small_sq _ _ _ Y Z)).
    repeat apply Forall2_cons; try apply Forall2_nil;
      match goal with |- Rabs ?t <= _ => match goal with H : Rabs ?u <= _ |- _ =>
        replace t with u by ring; exact H end end.
Qed.
Lemma rot_entries A : rot A -> Forall (fun a => Rabs a <= 1) (flat9 A).
Proof.
  intros H. pose proof (proj1 H) as E. 
  assert (E0 := f_equal a00 E). assert (E1 := f_equal a11 E). assert (E2 := f_equal a22 E).
  cbn [rmul rtr ridm a00 a01 a02 a10 a11 a12 a20 a21 a22] in *.
  unfold flat9. repeat (apply Forall_cons || apply Forall_nil); apply Rabs_le; split; nra.
Qed.
Lemma rmul_near e A B C : rot A -> 0 <= e -> near_v e (flat9 B) (flat9 C) -> near_v (3 * e) (flat9 (rmul A B)) (flat9 (rmul A C)).
Proof.
  intros HA He H. apply rot_entries in HA.
  destruct A as [m00 m01 m02 m10 m11 m12 m20 m21 m22]. destruct B as [b00 b01 b02 b10 b11 b12 b20 b21 b22].
  destruct C as [c00 c01 c02 c10 c11 c12 c20 c21 c22]. unfold flat9, near_v, rmul in *.
  cbn [a00 a01 a02 a10 a11 a12 a20 a21 a22] in *.
  repeat match goal with H : Forall2 _ (_ :: _) (_ :: _) |- _ => inversion H; clear H; subst
                       | H : Forall _ (_ :: _) |- _ => inversion H; clear H; subst end.
  assert (G : forall p q r b c d b' c' d', Rabs p <= 1 -> Rabs q <= 1 -> Rabs r <= 1 ->
     Rabs (b - b') <= e -> Rabs (c - c') <= e -> Rabs (d - d') <= e ->
     Rabs (p * b + q * c + r * d - (p * b' + q * c' + r * d')) <= 3 * e).
  { intros. assert (M : forall p t, Rabs p <= 1 -> Rabs t <= e -> Rabs (p * t) <= e).
    { intros p0 t Hp0 Ht. rewrite Rabs_mult. rewrite <- (Rmult_1_l e). apply Rmult_le_compat; auto using Rabs_pos. }
    replace (p * b + q * c + r * d - (p * b' + q * c' + r * d')) with (p * (b - b') + q * (c - c') + r * (d - d')) by ring.
    eapply Rle_trans; [apply Rabs_triang|]. eapply Rle_trans; [apply Rplus_le_compat_r; apply Rabs_triang|].
    pose proof (M p (b - b')). pose proof (M q (c - c')). pose proof (M r (d - d')). 
    assert (Rabs (p * (b - b')) <= e) by auto. assert (Rabs (q * (c - c')) <= e) by auto. assert (Rabs (r * (d - d')) <= e) by auto. lra. }
  repeat (apply Forall2_cons; [apply G; auto|]). apply Forall2_nil.
Qed.

(** ** Quaternion exponential *)
Lemma eq_series_unit n x y z : n = x * x + y * y + z * z -> n < eps8 ->
  let s := (1 + (- 1 + n / 80) * n / 24) / 2 in
  Rabs (qn2 (Q4 (1 + (- 1 + n / 48) * (n / 8)) (s * x) (s * y) (s * z)) - 1) <= 1 / 10 ^ 24.
Proof.
  intros En Hn s. unfold qn2. cbn [qw qx qy qz]. assert (N0 : 0 <= n) by (rewrite En; nra).
  set (w := 1 + (- 1 + n / 48) * (n / 8)).
  assert (E : w * w + s * x * (s * x) + s * y * (s * y) + s * z * (s * z) - 1 =
          n * n * n * (1 / 23040 - n / 245760 + n * n / 14745600)).
  { transitivity (w * w + s * s * n - 1); [rewrite En; ring|]. unfold w, s. field. }
  rewrite E. assert (n * n <= 1 / 10 ^ 16) by nra. assert (n * n * n <= 1 / 10 ^ 24) by nra. assert (0 <= n * n * n) by nra.
  set (k := 1 / 23040 - n / 245760 + n * n / 14745600).
  assert (0 <= k <= 1) by (unfold k; nra).
  rewrite Rabs_pos_eq by nra. apply Rle_trans with (n * n * n * 1); [apply Rmult_le_compat_l; lra|lra].
Qed.
Lemma eq_series_close n : 0 < n < eps8 -> let t := sqrt n in
  Rabs (1 + (- 1 + n / 48) * (n / 8) - cos (t / 2)) <= n * n * n / 46080 /\
  Rabs ((1 + (- 1 + n / 80) * n / 24) / 2 - sin (t / 2) / t) <= n * n * n / 645120.
Proof.
  intros [N0 Hn] t. assert (T0 : 0 < t) by (apply sqrt_lt_R0; auto).
  assert (Tn : t * t = n) by (apply sqrt_sqrt; lra).
  assert (T1 : t < 1) by nra. assert (P : 1 < PI / 2) by (pose proof PI2_1; lra).
  set (u := t / 2). assert (Un : u * u = n / 4) by (unfold u; rewrite <- Tn; field). assert (Eu : t = 2 * u) by (unfold u; field).
  pose proof (sin_taylor5 u ltac:(lra)) as [S1 S2]. pose proof (sin_taylor7 u ltac:(lra)) as S3.
  pose proof (cos_taylor6 u ltac:(lra) ltac:(lra)) as [C1 C2].
  replace (u ^ 7) with (u * ((n / 4) * (n / 4) * (n / 4))) in * by (rewrite <- Un; ring).
  replace (u ^ 3) with (u * (n / 4)) in * by (rewrite <- Un; ring). replace (u ^ 5) with (u * ((n / 4) * (n / 4))) in * by (rewrite <- Un; ring).
  replace (u ^ 2) with (n / 4) in * by (rewrite <- Un; ring). replace (u ^ 4) with ((n / 4) * (n / 4)) in * by (rewrite <- Un; ring).
  replace (u ^ 6) with ((n / 4) * ((n / 4) * (n / 4))) in * by (rewrite <- Un; ring).
  split.
  - apply Rabs_le. lra.
  - assert (E : sin u / t * t = sin u) by (field; lra). set (s := sin u / t) in *. rewrite Eu in E.
    assert (U0 : 0 < u) by lra.
    apply Rabs_le. split; apply Rmult_le_reg_r with (2 * u); try lra; rewrite Rmult_minus_distr_r, E; lra.
Qed.
Lemma eq_series_dist x y z : let n := x * x + y * y + z * z in n < eps8 ->
  let s := (1 + (- 1 + n / 80) * n / 24) / 2 in
  near_v (1 / 10 ^ 24) (qflat (Q4 (1 + (- 1 + n / 48) * (n / 8)) (s * x) (s * y) (s * z))) (qflat (expQ [x; y; z])).
Proof.
  intros n Hn s. pose proof (rnorm3_sq x y z) as N. fold n in N. set (t := rnorm [x; y; z]) in *.
  assert (N0 : 0 <= n) by (unfold n; nra).
  assert (X : x * x <= n) by (unfold n; nra). assert (Y : y * y <= n) by (unfold n; nra). assert (Z : z * z <= n) by (unfold n; nra).
  unfold expQ. cbv zeta. fold t. destruct (Req_EM_T t 0) as [E|E].
  - assert (En : n = 0) by (rewrite <- N, E; ring). 
    assert (x = 0) by nra. assert (y = 0) by nra. assert (z = 0) by nra. subst x y z.
    apply near_v_mono with 0; [lra|]. rewrite En. unfold qflat. cbn [qw qx qy qz].
    replace (s * 0) with 0 by ring. replace (1 + (-1 + 0 / 48) * (0 / 8)) with 1 by field. apply near_v_refl.
  - assert (n <> 0) by (intros En; rewrite En in N; nra).
    assert (Et : sqrt n = t) by (rewrite <- N; apply sqrt_square; apply rnorm_nonneg).
    destruct (eq_series_close n ltac:(lra)) as [W S]. cbv zeta in S, W. rewrite Et in S, W. fold s in S.
    set (w := 1 + (- 1 + n / 48) * (n / 8)) in *. set (s' := sin (t / 2) / t) in *.
    assert (n * n <= 1 / 10 ^ 16) by nra. assert (n * n * n <= 1 / 10 ^ 24) by nra. assert (0 <= n * n * n) by nra.
    assert (Q : forall a, a * a <= n -> Rabs (s * a - s' * a) <= 1 / 10 ^ 24).
    { intros a Ha. assert (Rabs a <= 1) by (apply Rabs_le; nra). replace (s * a - s' * a) with ((s - s') * a) by ring.
      rewrite Rabs_mult. apply Rle_trans with (n * n * n / 645120 * 1); [apply Rmult_le_compat; auto using Rabs_pos|lra]. }
    unfold qflat. cbn [qw qx qy qz]. repeat (apply Forall2_cons || apply Forall2_nil); auto. lra.
Qed.
Lemma unit_entries q : qn2 q = 1 -> Forall (fun a => Rabs a <= 1) (qflat q).
Proof. unfold qn2. intros H. unfold qflat. repeat (apply Forall_cons || apply Forall_nil); apply Rabs_le; split; nra. Qed.
Lemma qprod_near e p a b : qn2 p = 1 -> 0 <= e -> near_v e (qflat a) (qflat b) -> near_v (4 * e) (qflat (qprod p a)) (qflat (qprod p b)).
Proof.
  intros HA He H. apply unit_entries in HA. destruct p as [pw px py pz]. destruct a as [aw ax ay az]. destruct b as [bw bx by_ bz].
  unfold qflat, near_v, qprod in *. cbn [qw qx qy qz] in *.
  repeat match goal with H : Forall2 _ (_ :: _) (_ :: _) |- _ => inversion H; clear H; subst
                       | H : Forall _ (_ :: _) |- _ => inversion H; clear H; subst end.
  assert (M : forall p t, Rabs p <= 1 -> Rabs t <= e -> - e <= p * t <= e).
  { intros p0 t Hp0 Ht. apply Rabs_le_inv. rewrite Rabs_mult. rewrite <- (Rmult_1_l e). apply Rmult_le_compat; auto using Rabs_pos. }
  repeat match goal with Hp : Rabs ?p <= 1, Ht : Rabs ?t <= e |- _ =>
    lazymatch goal with _ : - e <= p * t <= e |- _ => fail | _ => pose proof (M p t Hp Ht) end end.
  repeat (apply Forall2_cons; [apply Rabs_le; lra|]). apply Forall2_nil.
Qed.
