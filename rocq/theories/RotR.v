(** Real-number facts on rotations and unit quaternions. *)
From Coq Require Import Reals List Lra Psatz.
From Verif Require Import Base Vec Model_SO3 SpecR.
Import ListNotations.
Local Open Scope R_scope.

Lemma m3_ext (A B : m3 R) : a00 A = a00 B -> a01 A = a01 B -> a02 A = a02 B ->
  a10 A = a10 B -> a11 A = a11 B -> a12 A = a12 B ->
  a20 A = a20 B -> a21 A = a21 B -> a22 A = a22 B -> A = B.
Proof. destruct A, B; simpl; intros; subst; reflexivity. Qed.
Lemma quat_ext (A B : quat R) : qw A = qw B -> qx A = qx B -> qy A = qy B -> qz A = qz B -> A = B.
Proof. destruct A, B; simpl; intros; subst; reflexivity. Qed.

Ltac m3_eq := apply m3_ext; cbn [a00 a01 a02 a10 a11 a12 a20 a21 a22 rmul rtr ridm rodrigues qmat qw qx qy qz qprod qneg].

Lemma rmul_assoc A B C : rmul (rmul A B) C = rmul A (rmul B C).
Proof. m3_eq; ring. Qed.
Lemma rmul_id_l A : rmul ridm A = A.
Proof. m3_eq; ring. Qed.
Lemma rmul_id_r A : rmul A ridm = A.
Proof. m3_eq; ring. Qed.
Lemma rtr_mul A B : rtr (rmul A B) = rmul (rtr B) (rtr A).
Proof. m3_eq; ring. Qed.
Lemma rtr_tr A : rtr (rtr A) = A.
Proof. destruct A; reflexivity. Qed.
Lemma rdet_mul A B : rdet (rmul A B) = rdet A * rdet B.
Proof. unfold rdet. cbn [a00 a01 a02 a10 a11 a12 a20 a21 a22 rmul]. ring. Qed.
Lemma rdet_tr A : rdet (rtr A) = rdet A.
Proof. unfold rdet. cbn [a00 a01 a02 a10 a11 a12 a20 a21 a22 rtr]. ring. Qed.
Lemma rdet_id : rdet ridm = 1.
Proof. unfold rdet, ridm. cbn. ring. Qed.

(** Adjugate. *)
Definition radj (A : m3 R) : m3 R :=
  M3 (a11 A * a22 A - a12 A * a21 A) (a02 A * a21 A - a01 A * a22 A) (a01 A * a12 A - a02 A * a11 A)
     (a12 A * a20 A - a10 A * a22 A) (a00 A * a22 A - a02 A * a20 A) (a02 A * a10 A - a00 A * a12 A)
     (a10 A * a21 A - a11 A * a20 A) (a01 A * a20 A - a00 A * a21 A) (a00 A * a11 A - a01 A * a10 A).
Lemma rmul_adj A : rdet A = 1 -> rmul A (radj A) = ridm.
Proof. intros H. unfold rdet in H. m3_eq; unfold radj; cbn [a00 a01 a02 a10 a11 a12 a20 a21 a22]; lra. Qed.

Lemma rot_adj A : rot A -> rtr A = radj A.
Proof.
  intros (H1 & H2). rewrite <- (rmul_id_r (rtr A)), <- (rmul_adj A H2), <- rmul_assoc, H1. apply rmul_id_l.
Qed.
Lemma rot_r A : rot A -> rmul A (rtr A) = ridm.
Proof. intros H. rewrite (rot_adj A H). apply rmul_adj. apply H. Qed.
Lemma rot_tr A : rot A -> rot (rtr A).
Proof. intros H. split; [rewrite rtr_tr; apply rot_r; auto|rewrite rdet_tr; apply H]. Qed.
Lemma rot_id : rot ridm.
Proof. split; [m3_eq; ring|apply rdet_id]. Qed.
Lemma rot_mul A B : rot A -> rot B -> rot (rmul A B).
Proof.
  intros (A1 & A2) (B1 & B2). split.
  - rewrite rtr_mul, rmul_assoc, <- (rmul_assoc (rtr A)), A1, rmul_id_l. auto.
  - rewrite rdet_mul, A2, B2. ring.
Qed.

(** ** Rodrigues matrices *)
Lemma rod_gram s c x y z : rmul (rtr (rodrigues s c x y z)) (rodrigues s c x y z)
  = let n := x * x + y * y + z * z in let d := s * s + c * c * n - 2 * c in
    M3 (1 + d * (n - x * x)) (- d * (x * y)) (- d * (x * z))
       (- d * (x * y)) (1 + d * (n - y * y)) (- d * (y * z))
       (- d * (x * z)) (- d * (y * z)) (1 + d * (n - z * z)).
Proof. cbv zeta. m3_eq; ring. Qed.
Lemma rod_det s c x y z : rdet (rodrigues s c x y z)
  = let n := x * x + y * y + z * z in 1 + n * (s * s + c * c * n - 2 * c).
Proof. unfold rdet, rodrigues. cbn [a00 a01 a02 a10 a11 a12 a20 a21 a22]. ring. Qed.
Lemma rod_rot s c x y z : s * s + c * c * (x * x + y * y + z * z) = 2 * c -> rot (rodrigues s c x y z).
Proof.
  intros H. split.
  - rewrite rod_gram. cbv zeta. rewrite H. m3_eq; ring.
  - rewrite rod_det. cbv zeta. rewrite H. ring.
Qed.

Lemma rdot3 x y z : rdot [x; y; z] [x; y; z] = x * x + y * y + z * z.
Proof. simpl. ring. Qed.
Lemma rdot_self_nonneg v : 0 <= rdot v v.
Proof. induction v; simpl; [lra|]. pose proof (Rle_0_sqr a). unfold Rsqr in *. lra. Qed.
Lemma rnorm_nonneg v : 0 <= rnorm v.
Proof. apply sqrt_pos. Qed.
Lemma rnorm_sq v : rnorm v * rnorm v = rdot v v.
Proof. apply sqrt_sqrt. apply rdot_self_nonneg. Qed.
Lemma rnorm3_sq x y z : rnorm [x; y; z] * rnorm [x; y; z] = x * x + y * y + z * z.
Proof. rewrite rnorm_sq. apply rdot3. Qed.

Lemma rod_exact t n : t <> 0 -> t * t = n ->
  sin t / t * (sin t / t) + (1 - cos t) / (t * t) * ((1 - cos t) / (t * t)) * n = 2 * ((1 - cos t) / (t * t)).
Proof.
  intros Ht <-. pose proof (sin2_cos2 t) as H. unfold Rsqr in H.
  replace (sin t / t * (sin t / t)) with ((sin t * sin t) / (t * t)) by (field; auto).
  replace (sin t * sin t) with (1 - cos t * cos t) by lra. field. auto.
Qed.

Lemma expSO3_rot v : rot (expSO3 v).
Proof.
  unfold expSO3. destruct v as [|x [|y [|z [|]]]]; try apply rot_id.
  cbv zeta. destruct (Req_EM_T _ 0) as [E|E]; [apply rot_id|].
  apply rod_rot. apply rod_exact; auto. apply rnorm3_sq.
Qed.

(** Off-diagonal upper triangle of a rotation is at least 8/9 sin^2. *)
Lemma rod_upper s c x y z : let R := rodrigues s c x y z in let n := x * x + y * y + z * z in
  0 < n -> 0 <= c ->
  8 / 9 * (s * s * n) <= a12 R * a12 R + a02 R * a02 R + a01 R * a01 R.
Proof.
  intros R n Hn Hc. unfold R, rodrigues. cbn [a01 a02 a12].
  (* = s^2 n + c^2 q - 2 s c p with p = xyz, q = x2y2+y2z2+z2x2, q^2 >= 3 n p^2, n^2 >= 3 q *)
  set (p := x * y * z). set (q := x * x * (y * y) + y * y * (z * z) + z * z * (x * x)).
  assert (E : (- s * x + c * y * z) * (- s * x + c * y * z) + (s * y + c * x * z) * (s * y + c * x * z)
     + (- s * z + c * x * y) * (- s * z + c * x * y) = s * s * n + c * c * q - 2 * s * c * p)
    by (unfold n, p, q; ring).
  rewrite E.
  assert (Hq : 0 <= q) by (unfold q; nra).
  assert (Hqp : 3 * n * (p * p) <= q * q).
  { assert (Q : q * q - 3 * n * (p * p) =
      / 2 * ((x*x*(y*y) - y*y*(z*z)) * (x*x*(y*y) - y*y*(z*z)) + (y*y*(z*z) - z*z*(x*x)) * (y*y*(z*z) - z*z*(x*x))
             + (z*z*(x*x) - x*x*(y*y)) * (z*z*(x*x) - x*x*(y*y)))) by (unfold q, n, p; field).
    pose proof (Rle_0_sqr (x*x*(y*y) - y*y*(z*z))). pose proof (Rle_0_sqr (y*y*(z*z) - z*z*(x*x))).
    pose proof (Rle_0_sqr (z*z*(x*x) - x*x*(y*y))). unfold Rsqr in *. lra. }
  assert (Hnq : 3 * q <= n * n).
  { assert (Q : n * n - 3 * q = / 2 * ((x*x - y*y) * (x*x - y*y) + (y*y - z*z) * (y*y - z*z) + (z*z - x*x) * (z*z - x*x)))
      by (unfold q, n; field).
    pose proof (Rle_0_sqr (x*x - y*y)). pose proof (Rle_0_sqr (y*y - z*z)). pose proof (Rle_0_sqr (z*z - x*x)).
    unfold Rsqr in *. lra. }
  (* 9 p^2 <= n q *)
  assert (Hpq : 9 * (p * p) <= n * q).
  { destruct (Req_dec q 0) as [E0|E0].
    - rewrite E0 in *. assert (p * p <= 0) by (apply Rmult_le_reg_l with (3 * n); lra). lra.
    - apply Rmult_le_reg_l with (3 * n); [lra|]. 
      apply Rle_trans with (9 * (q * q)); [lra|].
      apply Rle_trans with (3 * (n * n) * q); [|lra].
      replace (9 * (q * q)) with (3 * (3 * q) * q) by ring. apply Rmult_le_compat_r; auto. lra. }
  (* multiply by n: n*(s^2 n/9 + c^2 q - 2 s c p) = (s n/3 - 3 c p)^2 + c^2 (n q - 9 p^2) *)
  apply Rmult_le_reg_l with n; auto.
  assert (Z : n * (s * s * n + c * c * q - 2 * s * c * p) - n * (8 / 9 * (s * s * n))
     = (s * n / 3 - 3 * c * p) * (s * n / 3 - 3 * c * p) + c * c * (n * q - 9 * (p * p))) by field.
  pose proof (Rle_0_sqr (s * n / 3 - 3 * c * p)). unfold Rsqr in *.
  assert (0 <= c * c * (n * q - 9 * (p * p))) by (apply Rmult_le_pos; [nra|lra]). lra.
Qed.

(** ** Quaternions *)
Lemma qn2_mul a b : qn2 (qprod a b) = qn2 a * qn2 b.
Proof. unfold qn2, qprod. cbn [qw qx qy qz]. ring. Qed.
Lemma qprod_assoc a b c : qprod (qprod a b) c = qprod a (qprod b c).
Proof. apply quat_ext; cbn [qw qx qy qz qprod]; ring. Qed.
Definition qconj (a : quat R) : quat R := Q4 (qw a) (- qx a) (- qy a) (- qz a).
Lemma qconj_mul a : qn2 a = 1 -> qprod (qconj a) a = Q4 1 0 0 0.
Proof. unfold qn2. intros H. apply quat_ext; cbn [qw qx qy qz qprod qconj]; lra. Qed.
Lemma qmul_conj a : qn2 a = 1 -> qprod a (qconj a) = Q4 1 0 0 0.
Proof. unfold qn2. intros H. apply quat_ext; cbn [qw qx qy qz qprod qconj]; lra. Qed.
Lemma qprod_1l a : qprod (Q4 1 0 0 0) a = a.
Proof. apply quat_ext; cbn [qw qx qy qz qprod]; ring. Qed.
Lemma qprod_1r a : qprod a (Q4 1 0 0 0) = a.
Proof. apply quat_ext; cbn [qw qx qy qz qprod]; ring. Qed.

Lemma expQ_unit v : qn2 (expQ v) = 1.
Proof.
  unfold expQ, qn2. destruct v as [|x [|y [|z [|]]]]; try (cbn [qw qx qy qz]; ring).
  cbv zeta. destruct (Req_EM_T _ 0) as [E|E]; cbn [qw qx qy qz]; [ring|].
  set (t := rnorm [x; y; z]) in *.
  replace (cos (t / 2) * cos (t / 2) + sin (t / 2) / t * x * (sin (t / 2) / t * x) +
    sin (t / 2) / t * y * (sin (t / 2) / t * y) + sin (t / 2) / t * z * (sin (t / 2) / t * z))
    with (cos (t / 2) * cos (t / 2) + sin (t / 2) * sin (t / 2) * ((x * x + y * y + z * z) / (t * t))) by (field; auto).
  rewrite <- rnorm3_sq. fold t. pose proof (sin2_cos2 (t / 2)) as H. unfold Rsqr in H.
  replace (t * t / (t * t)) with 1 by (field; auto). lra.
Qed.

Lemma qmat_rod q : qmat q = rodrigues (2 * qw q) 2 (qx q) (qy q) (qz q).
Proof. m3_eq; ring. Qed.
Lemma rod_scale s c k x y z : rodrigues s c (k * x) (k * y) (k * z) = rodrigues (s * k) (c * (k * k)) x y z.
Proof. m3_eq; ring. Qed.
Lemma qmat_rot q : qn2 q = 1 -> rot (qmat q).
Proof. unfold qn2. intros H. rewrite qmat_rod. apply rod_rot. lra. Qed.
Lemma qmat_neg q : qmat (qneg q) = qmat q.
Proof. m3_eq; ring. Qed.

Definition qmatH (q : quat R) : m3 R :=
  let w := qw q in let x := qx q in let y := qy q in let z := qz q in
  M3 (w * w + x * x - y * y - z * z) (2 * (x * y - w * z)) (2 * (x * z + w * y))
     (2 * (x * y + w * z)) (w * w - x * x + y * y - z * z) (2 * (y * z - w * x))
     (2 * (x * z - w * y)) (2 * (y * z + w * x)) (w * w - x * x - y * y + z * z).
Lemma qmat_H q : qn2 q = 1 -> qmat q = qmatH q.
Proof. unfold qn2. intros H. unfold qmatH. m3_eq; try ring; lra. Qed.
Lemma qmatH_mul a b : qmatH (qprod a b) = rmul (qmatH a) (qmatH b).
Proof. unfold qmatH. m3_eq; ring. Qed.
Lemma qmat_mul a b : qn2 a = 1 -> qn2 b = 1 -> qmat (qprod a b) = rmul (qmat a) (qmat b).
Proof.
  intros Ha Hb. rewrite !qmat_H; auto using qmatH_mul. rewrite qn2_mul, Ha, Hb. ring.
Qed.

Lemma qmat_expQ v : length v = 3%nat -> qmat (expQ v) = expSO3 v.
Proof.
  destruct v as [|x [|y [|z [|]]]]; try discriminate. intros _. unfold expQ, expSO3. cbv zeta.
  destruct (Req_EM_T _ 0) as [E|E]; [m3_eq; ring|]. set (t := rnorm [x; y; z]) in *.
  rewrite qmat_rod. cbn [qw qx qy qz]. rewrite rod_scale. 
  assert (Ht : t = 2 * (t / 2)) by field.
  f_equal.
  - assert (S2 : sin t = 2 * sin (t / 2) * cos (t / 2)) by (rewrite Ht at 1; apply sin_2a). rewrite S2. field. auto.
  - assert (C2 : cos t = 1 - 2 * sin (t / 2) * sin (t / 2)) by (rewrite Ht at 1; apply cos_2a_sin). rewrite C2. field. auto.
Qed.

(** A unit quaternion is determined by its matrix up to sign. *)
Lemma qmat_inj a b : qn2 a = 1 -> qn2 b = 1 -> qmat a = qmat b -> a = b \/ a = qneg b.
Proof.
  intros Ha Hb H. 
  (* c = conj a * b has matrix identity, so its vector part vanishes *)
  set (c := qprod (qconj a) b).
  assert (Hca : qn2 (qconj a) = 1) by (unfold qn2, qconj in *; cbn [qw qx qy qz]; lra).
  assert (Hc : qn2 c = 1) by (unfold c; rewrite qn2_mul, Hca, Hb; ring).
  assert (Hm : qmat c = ridm).
  { unfold c. rewrite qmat_mul, <- H by auto. rewrite <- qmat_mul, qconj_mul by auto. m3_eq; ring. }
  assert (Ex : qx c * qx c + qz c * qz c = 0 /\ qx c * qx c + qy c * qy c = 0 /\ qy c * qy c + qz c * qz c = 0).
  { pose proof (f_equal (@a00 R) Hm) as E0. pose proof (f_equal (@a11 R) Hm) as E1. pose proof (f_equal (@a22 R) Hm) as E2.
    cbn [qmat ridm a00 a11 a22] in *. lra. }
  assert (Sq : forall u, 0 <= u * u) by (intro u; apply (Rle_0_sqr u)).
  assert (Z : forall u, u * u = 0 -> u = 0) by (intros u Hu; apply (Rsqr_0_uniq u); exact Hu).
  pose proof (Sq (qx c)). pose proof (Sq (qy c)). pose proof (Sq (qz c)).
  assert (X0 : qx c = 0) by (apply Z; lra). assert (Y0 : qy c = 0) by (apply Z; lra). assert (Z0 : qz c = 0) by (apply Z; lra).
  assert (Eb : b = qprod a c) by (unfold c; rewrite <- qprod_assoc, qmul_conj, qprod_1l; auto).
  unfold qn2 in Hc. rewrite X0, Y0, Z0 in Hc.
  assert (W : (qw c - 1) * (qw c + 1) = 0) by lra. apply Rmult_integral in W.
  destruct W as [W|W]; [left|right]; rewrite Eb; apply quat_ext; cbn [qneg qprod qw qx qy qz]; rewrite X0, Y0, Z0;
    [replace (qw c) with 1 by lra ..|replace (qw c) with (-1) by lra|replace (qw c) with (-1) by lra|replace (qw c) with (-1) by lra|replace (qw c) with (-1) by lra]; ring.
Qed.
