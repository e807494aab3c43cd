(** The matrix product and the membership test of SO(3) in double arithmetic. *)
From Coq Require Import Reals List Lra Lia ZArith Bool Arith Psatz.
From Flocq Require Import Core BinarySingleNaN.
From Verif Require Import Base Scalar Vec Model_SO3 XR SpecR RotR NumVec NumMat NumExp Drift F64 F64Err F64Norm F64S2 F64Exp F64Quat F64Mat.
Import ListNotations.
Local Open Scope R_scope.

(** ** Perturbing a nearly orthogonal matrix *)
Definition mclose (e : R) (A B : m3 R) : Prop :=
  Rabs (a00 A - a00 B) <= e /\ Rabs (a01 A - a01 B) <= e /\ Rabs (a02 A - a02 B) <= e /\
  Rabs (a10 A - a10 B) <= e /\ Rabs (a11 A - a11 B) <= e /\ Rabs (a12 A - a12 B) <= e /\
  Rabs (a20 A - a20 B) <= e /\ Rabs (a21 A - a21 B) <= e /\ Rabs (a22 A - a22 B) <= e.
Lemma cs2 a b c d M : a * a + c * c <= M -> b * b + d * d <= M -> Rabs (a * d - b * c) <= M.
Proof.
  intros H1 H2. assert (P1 : 0 <= a * a + c * c) by nra. assert (P2 : 0 <= b * b + d * d) by nra.
  assert (E : (a * d - b * c) * (a * d - b * c) <= M * M).
  { apply Rle_trans with ((a * a + c * c) * (b * b + d * d)); [|apply Rmult_le_compat; auto]. pose proof (Rle_0_sqr (a * b + c * d)) as Q. unfold Rsqr in Q.
    replace ((a * a + c * c) * (b * b + d * d)) with ((a * d - b * c) * (a * d - b * c) + (a * b + c * d) * (a * b + c * d)) by ring. lra. }
  apply Rsqr_le_abs_0 in E. rewrite (Rabs_pos_eq M) in E by lra. exact E.
Qed.
Lemma dots x y z a b c e : Rabs a <= e -> Rabs b <= e -> Rabs c <= e -> Rabs (a * x + b * y + c * z) <= e * (Rabs x + Rabs y + Rabs z).
Proof.
  intros Ha Hb Hc. pose proof (Rabs_pos x) as X. pose proof (Rabs_pos y) as Y. pose proof (Rabs_pos z) as Z.
  eapply Rle_trans; [apply Rabs_triang|]. eapply Rle_trans; [apply Rplus_le_compat_r, Rabs_triang|]. rewrite !Rabs_mult.
  pose proof (Rmult_le_compat_r _ _ _ X Ha). pose proof (Rmult_le_compat_r _ _ _ Y Hb). pose proof (Rmult_le_compat_r _ _ _ Z Hc). lra.
Qed.
Lemma l1_l2 x y z n : x * x + y * y + z * z <= n * n -> 0 <= n -> Rabs x + Rabs y + Rabs z <= 1733 / 1000 * n.
Proof.
  intros H N.
  pose proof (Rabs_pos x) as X. pose proof (Rabs_pos y) as Y. pose proof (Rabs_pos z) as Z.
  assert (E : forall r, Rabs r * Rabs r = r * r) by (intros r; rewrite <- Rabs_mult; apply Rabs_pos_eq; nra).
  rewrite <- (E x), <- (E y), <- (E z) in H. set (a := Rabs x) in *. set (b := Rabs y) in *. set (c := Rabs z) in *. clearbody a b c.
  assert (Q : (a + b + c) * (a + b + c) <= 3 * (n * n)).
  { pose proof (Rle_0_sqr (a - b)). pose proof (Rle_0_sqr (a - c)). pose proof (Rle_0_sqr (b - c)). unfold Rsqr in *. lra. }
  assert (Q2 : (a + b + c) * (a + b + c) <= (1733 / 1000 * n) * (1733 / 1000 * n)) by nra.
  apply Rsqr_incr_0; unfold Rsqr; nra.
Qed.
(** The length of the image. *)
Lemma gram_pert p q r p' q' r' n e M : p * p + q * q + r * r <= M * M * (n * n) -> 0 <= n -> 0 <= e -> 0 <= M ->
  Rabs (p' - p) <= e * n -> Rabs (q' - q) <= e * n -> Rabs (r' - r) <= e * n ->
  Rabs ((p' * p' + q' * q' + r' * r') - (p * p + q * q + r * r)) <= (3466 / 1000 * M * e + 3 * e * e) * (n * n).
Proof.
  intros H N E0 M0 Hp Hq Hr.
  replace (p' * p' + q' * q' + r' * r' - (p * p + q * q + r * r)) with
    (2 * ((p' - p) * p + (q' - q) * q + (r' - r) * r) + ((p' - p) * (p' - p) + (q' - q) * (q' - q) + (r' - r) * (r' - r))) by ring.
  eapply Rle_trans; [apply Rabs_triang|]. rewrite Rabs_mult, (Rabs_pos_eq 2) by lra.
  assert (S : forall a, Rabs a <= e * n -> 0 <= a * a <= e * e * (n * n)).
  { intros a Ha. split; [nra|]. replace (a * a) with (Rabs a * Rabs a) by (rewrite <- Rabs_mult; apply Rabs_pos_eq; nra).
    replace (e * e * (n * n)) with ((e * n) * (e * n)) by ring. apply Rmult_le_compat; auto using Rabs_pos. }
  pose proof (S _ Hp). pose proof (S _ Hq). pose proof (S _ Hr). rewrite (Rabs_pos_eq ((p' - p) * (p' - p) + _ + _)) by lra.
  pose proof (dots p q r _ _ _ _ Hp Hq Hr) as D. pose proof (l1_l2 p q r (M * n)) as L1.
  assert (L2 : Rabs p + Rabs q + Rabs r <= 1733 / 1000 * (M * n)). { apply L1; [|apply Rmult_le_pos; auto]. replace (M * n * (M * n)) with (M * M * (n * n)) by ring. exact H. }
  assert (L3 : e * n * (Rabs p + Rabs q + Rabs r) <= e * n * (1733 / 1000 * (M * n))) by (apply Rmult_le_compat_l; [apply Rmult_le_pos; auto|exact L2]). lra.
Qed.
Lemma abs_prod a b e f : Rabs a <= e -> Rabs b <= f -> Rabs (a * b) <= e * f.
Proof. intros. rewrite Rabs_mult. apply Rmult_le_compat; auto using Rabs_pos. Qed.
Lemma sq_le_abs a M : a * a <= M * M -> 0 <= M -> Rabs a <= M.
Proof. intros H HM. apply Rsqr_le_abs_0 in H. rewrite (Rabs_pos_eq M) in H by auto. exact H. Qed.
Lemma det_pert A B d e : stretch d A -> d <= 1 / 1000 -> mclose e B A -> 0 <= e <= 1 / 10000 -> Rabs (rdet B - rdet A) <= 91 / 10 * e.
Proof.
  intros [S _] Hd (H0 & H1 & H2 & H3 & H4 & H5 & H6 & H7 & H8) He. destruct A as [m00 m01 m02 m10 m11 m12 m20 m21 m22]. destruct B as [b00 b01 b02 b10 b11 b12 b20 b21 b22].
  pose proof (S 1 0 0) as C1. pose proof (S 0 1 0) as C2. pose proof (S 0 0 1) as C3. cbv zeta in C1, C2, C3. unfold rmulv in *. cbn [rdot a00 a01 a02 a10 a11 a12 a20 a21 a22] in *.
  apply Rabs_ends in C1, C2, C3.
  assert (N1 : m00 * m00 + m10 * m10 + m20 * m20 <= 1001 / 1000) by nra. assert (N2 : m01 * m01 + m11 * m11 + m21 * m21 <= 1001 / 1000) by nra. assert (N3 : m02 * m02 + m12 * m12 + m22 * m22 <= 1001 / 1000) by nra. clear C1 C2 C3 S.
  assert (B1 : forall a b c, a * a + b * b + c * c <= 1001 / 1000 -> Rabs a <= 1001 / 1000 /\ Rabs b <= 1001 / 1000 /\ Rabs c <= 1001 / 1000).
  { intros a b c Q. pose proof (Rle_0_sqr a). pose proof (Rle_0_sqr b). pose proof (Rle_0_sqr c). unfold Rsqr in *. repeat split; apply sq_le_abs; lra. }
  destruct (B1 _ _ _ N1) as (M00 & M10 & M20). destruct (B1 _ _ _ N2) as (M01 & M11 & M21). destruct (B1 _ _ _ N3) as (M02 & M12 & M22).
  assert (W : forall a b c, a * a + b * b + c * c <= 1001 / 1000 -> a * a + b * b <= 1001 / 1000 /\ a * a + c * c <= 1001 / 1000 /\ b * b + c * c <= 1001 / 1000).
  { intros a b c Q. pose proof (Rle_0_sqr a). pose proof (Rle_0_sqr b). pose proof (Rle_0_sqr c). unfold Rsqr in *. repeat split; lra. }
  destruct (W _ _ _ N1) as (P1 & P2 & P3). destruct (W _ _ _ N2) as (Q1 & Q2 & Q3). destruct (W _ _ _ N3) as (R1 & R2 & R3).
  set (d00 := b00 - m00) in *. set (d01 := b01 - m01) in *. set (d02 := b02 - m02) in *. set (d10 := b10 - m10) in *. set (d11 := b11 - m11) in *. set (d12 := b12 - m12) in *.
  set (d20 := b20 - m20) in *. set (d21 := b21 - m21) in *. set (d22 := b22 - m22) in *.
  replace (rdet (M3 b00 b01 b02 b10 b11 b12 b20 b21 b22) - rdet (M3 m00 m01 m02 m10 m11 m12 m20 m21 m22)) with
    ((d00 * (m11 * m22 - m12 * m21) - d01 * (m10 * m22 - m12 * m20) + d02 * (m10 * m21 - m11 * m20)
      - d10 * (m01 * m22 - m02 * m21) + d11 * (m00 * m22 - m02 * m20) - d12 * (m00 * m21 - m01 * m20)
      + d20 * (m01 * m12 - m02 * m11) - d21 * (m00 * m12 - m02 * m10) + d22 * (m00 * m11 - m01 * m10))
     + (m00 * (d11 * d22 - d12 * d21) - m01 * (d10 * d22 - d12 * d20) + m02 * (d10 * d21 - d11 * d20)
      - m10 * (d01 * d22 - d02 * d21) + m11 * (d00 * d22 - d02 * d20) - m12 * (d00 * d21 - d01 * d20)
      + m20 * (d01 * d12 - d02 * d11) - m21 * (d00 * d12 - d02 * d10) + m22 * (d00 * d11 - d01 * d10))
     + (d00 * (d11 * d22 - d12 * d21) - d01 * (d10 * d22 - d12 * d20) + d02 * (d10 * d21 - d11 * d20)))
    by (unfold rdet, d00, d01, d02, d10, d11, d12, d20, d21, d22; cbn [a00 a01 a02 a10 a11 a12 a20 a21 a22]; ring).
  clearbody d00 d01 d02 d10 d11 d12 d20 d21 d22.
  assert (D : forall a b c d', Rabs a <= e -> Rabs b <= e -> Rabs c <= e -> Rabs d' <= e -> Rabs (a * d' - b * c) <= 2 * (e * e)).
  { intros a b c d' Ha Hb Hc Hd'. pose proof (Rabs_ends _ _ (abs_prod _ _ _ _ Ha Hd')). pose proof (Rabs_ends _ _ (abs_prod _ _ _ _ Hb Hc)). apply Rabs_le. lra. }
  assert (E2 : e * e <= e / 10000) by nra. assert (E3 : e * (2 * (e * e)) <= e / 10000) by nra.
  pose proof (Rabs_ends _ _ (abs_prod _ _ _ _ H0 (cs2 m11 m12 m21 m22 _ Q3 R3))) as X1.
  pose proof (Rabs_ends _ _ (abs_prod _ _ _ _ H1 (cs2 m10 m12 m20 m22 _ P3 R3))) as X2.
  pose proof (Rabs_ends _ _ (abs_prod _ _ _ _ H2 (cs2 m10 m11 m20 m21 _ P3 Q3))) as X3.
  pose proof (Rabs_ends _ _ (abs_prod _ _ _ _ H3 (cs2 m01 m02 m21 m22 _ Q2 R2))) as X4.
  pose proof (Rabs_ends _ _ (abs_prod _ _ _ _ H4 (cs2 m00 m02 m20 m22 _ P2 R2))) as X5.
  pose proof (Rabs_ends _ _ (abs_prod _ _ _ _ H5 (cs2 m00 m01 m20 m21 _ P2 Q2))) as X6.
  pose proof (Rabs_ends _ _ (abs_prod _ _ _ _ H6 (cs2 m01 m02 m11 m12 _ Q1 R1))) as X7.
  pose proof (Rabs_ends _ _ (abs_prod _ _ _ _ H7 (cs2 m00 m02 m10 m12 _ P1 R1))) as X8.
  pose proof (Rabs_ends _ _ (abs_prod _ _ _ _ H8 (cs2 m00 m01 m10 m11 _ P1 Q1))) as X9.
  pose proof (Rabs_ends _ _ (abs_prod _ _ _ _ M00 (D _ _ _ _ H4 H5 H7 H8))) as Y1.
  pose proof (Rabs_ends _ _ (abs_prod _ _ _ _ M01 (D _ _ _ _ H3 H5 H6 H8))) as Y2.
  pose proof (Rabs_ends _ _ (abs_prod _ _ _ _ M02 (D _ _ _ _ H3 H4 H6 H7))) as Y3.
  pose proof (Rabs_ends _ _ (abs_prod _ _ _ _ M10 (D _ _ _ _ H1 H2 H7 H8))) as Y4.
  pose proof (Rabs_ends _ _ (abs_prod _ _ _ _ M11 (D _ _ _ _ H0 H2 H6 H8))) as Y5.
  pose proof (Rabs_ends _ _ (abs_prod _ _ _ _ M12 (D _ _ _ _ H0 H1 H6 H7))) as Y6.
  pose proof (Rabs_ends _ _ (abs_prod _ _ _ _ M20 (D _ _ _ _ H1 H2 H4 H5))) as Y7.
  pose proof (Rabs_ends _ _ (abs_prod _ _ _ _ M21 (D _ _ _ _ H0 H2 H3 H5))) as Y8.
  pose proof (Rabs_ends _ _ (abs_prod _ _ _ _ M22 (D _ _ _ _ H0 H1 H3 H4))) as Y9.
  pose proof (Rabs_ends _ _ (abs_prod _ _ _ _ H0 (D _ _ _ _ H4 H5 H7 H8))) as Z1.
  pose proof (Rabs_ends _ _ (abs_prod _ _ _ _ H1 (D _ _ _ _ H3 H5 H6 H8))) as Z2.
  pose proof (Rabs_ends _ _ (abs_prod _ _ _ _ H2 (D _ _ _ _ H3 H4 H6 H7))) as Z3.
  clear - E2 E3 He X1 X2 X3 X4 X5 X6 X7 X8 X9 Y1 Y2 Y3 Y4 Y5 Y6 Y7 Y8 Y9 Z1 Z2 Z3. apply Rabs_le. split; lra.
Qed.
Lemma stretch_pert A B d e : stretch d A -> 0 <= d <= 1 / 1000 -> mclose e B A -> 0 <= e <= 1 / 10000 -> stretch (d + 10 * e) B.
Proof.
  intros SA Hd HB He. pose proof (det_pert A B d e SA (proj2 Hd) HB He) as DP. destruct SA as [S D]. split.
  - intros x y z w. specialize (S x y z). cbv zeta in S. set (n2 := x * x + y * y + z * z) in *. assert (N0 : 0 <= n2) by (unfold n2; nra).
    set (n := sqrt n2). assert (NN : n * n = n2) by (apply sqrt_sqrt; auto). assert (n0 : 0 <= n) by apply sqrt_pos.
    assert (L1 : Rabs x + Rabs y + Rabs z <= 1733 / 1000 * n) by (apply l1_l2; [rewrite NN; unfold n2; lra|auto]).
    destruct HB as (H0 & H1 & H2 & H3 & H4 & H5 & H6 & H7 & H8). destruct A as [m00 m01 m02 m10 m11 m12 m20 m21 m22]. destruct B as [b00 b01 b02 b10 b11 b12 b20 b21 b22].
    unfold w, rmulv in *. cbn [rdot a00 a01 a02 a10 a11 a12 a20 a21 a22] in *. rewrite <- NN in *.
    assert (T : forall a b c m n' k, Rabs (a - m) <= e -> Rabs (b - n') <= e -> Rabs (c - k) <= e ->
       Rabs ((a * x + (b * y + (c * z + 0))) - (m * x + (n' * y + (k * z + 0)))) <= 1733 / 1000 * e * n).
    { intros a b c m n' k Q1 Q2 Q3. replace ((a * x + (b * y + (c * z + 0))) - (m * x + (n' * y + (k * z + 0)))) with ((a - m) * x + (b - n') * y + (c - k) * z) by ring.
      eapply Rle_trans; [apply dots; eauto|]. replace (1733 / 1000 * e * n) with (e * (1733 / 1000 * n)) by ring. apply Rmult_le_compat_l; lra. }
    pose proof (T _ _ _ _ _ _ H0 H1 H2) as T0. pose proof (T _ _ _ _ _ _ H3 H4 H5) as T1. pose proof (T _ _ _ _ _ _ H6 H7 H8) as T2.
    set (p := m00 * x + _) in *. set (q := m10 * x + _) in *. set (r := m20 * x + _) in *. set (p' := b00 * x + _) in *. set (q' := b10 * x + _) in *. set (r' := b20 * x + _) in *.
    clearbody p q r p' q' r'. assert (n2' : 0 <= n * n) by nra.
    pose proof (gram_pert p q r p' q' r' n (1733 / 1000 * e) (1001 / 1000)) as G.
    apply Rabs_ends in S. assert (dn : d * (n * n) <= 1 / 1000 * (n * n)) by (apply Rmult_le_compat_r; lra).
    specialize (G ltac:(lra) n0 ltac:(lra) ltac:(lra) T0 T1 T2). apply Rabs_ends in G.
    assert (EE : e * e <= e / 10000) by nra.
    assert (GB : (3466 / 1000 * (1001 / 1000) * (1733 / 1000 * e) + 3 * (1733 / 1000 * e) * (1733 / 1000 * e)) * (n * n) <= 10 * e * (n * n)) by (apply Rmult_le_compat_r; lra).
    apply Rabs_le. lra.
  - apply Rabs_ends in D, DP. apply Rabs_le. lra.
Qed.
Lemma near_stretch A d : near_rot d A -> stretch (3 * d) A.
Proof.
  intros (H1 & H2 & H3 & H4 & H5 & H6 & H7 & H8 & H9 & H10). assert (d0 : 0 <= d) by (eapply Rle_trans; [apply Rabs_pos|exact H1]). split; [|lra].
  intros x y z w. destruct A as [m00 m01 m02 m10 m11 m12 m20 m21 m22]. unfold w, rmulv. cbn [rmul rtr rdot a00 a01 a02 a10 a11 a12 a20 a21 a22] in *.
  set (g00 := m00 * m00 + _ + _) in *. set (g11 := m01 * m01 + _ + _) in *. set (g22 := m02 * m02 + _ + _) in *. set (g01 := m00 * m01 + _ + _) in *. set (g02 := m00 * m02 + _ + _) in *. set (g12 := m01 * m02 + _ + _) in *.
  match goal with |- Rabs ?t <= _ => replace t with (((g00 - 1) * x + g01 * y + g02 * z) * x + (g01 * x + (g11 - 1) * y + g12 * z) * y + (g02 * x + g12 * y + (g22 - 1) * z) * z) by (unfold g00, g11, g22, g01, g02, g12; ring) end.
  clearbody g00 g11 g22 g01 g02 g12. set (l := Rabs x + Rabs y + Rabs z). 
  eapply Rle_trans; [apply dots; apply dots; eauto|]. fold l. set (n := sqrt (x * x + y * y + z * z)). assert (NN : n * n = x * x + y * y + z * z) by (apply sqrt_sqrt; nra).
  assert (E : forall r, Rabs r * Rabs r = r * r) by (intros r; rewrite <- Rabs_mult; apply Rabs_pos_eq; nra).
  rewrite <- (E x), <- (E y), <- (E z). unfold l. set (a := Rabs x). set (b := Rabs y). set (c := Rabs z).
  assert (Q : (a + b + c) * (a + b + c) <= 3 * (a * a + b * b + c * c)).
  { pose proof (Rle_0_sqr (a - b)). pose proof (Rle_0_sqr (a - c)). pose proof (Rle_0_sqr (b - c)). unfold Rsqr in *. lra. }
  replace (d * (a + b + c) * (a + b + c)) with (d * ((a + b + c) * (a + b + c))) by ring. replace (3 * d * (a * a + b * b + c * c)) with (d * (3 * (a * a + b * b + c * c))) by ring.
  apply Rmult_le_compat_l; auto.
Qed.

(** ** Product *)
Definition mval (A : m3 f64) : m3 R :=
  M3 (val (a00 A)) (val (a01 A)) (val (a02 A)) (val (a10 A)) (val (a11 A)) (val (a12 A)) (val (a20 A)) (val (a21 A)) (val (a22 A)).
Definition mfin (A : m3 f64) : Prop :=
  isf (a00 A) /\ isf (a01 A) /\ isf (a02 A) /\ isf (a10 A) /\ isf (a11 A) /\ isf (a12 A) /\ isf (a20 A) /\ isf (a21 A) /\ isf (a22 A).
Lemma stretch_entries A d : stretch d A -> d <= 1 / 1000 ->
  (Rabs (a00 A) <= 1001 / 1000 /\ Rabs (a10 A) <= 1001 / 1000 /\ Rabs (a20 A) <= 1001 / 1000) /\
  (Rabs (a01 A) <= 1001 / 1000 /\ Rabs (a11 A) <= 1001 / 1000 /\ Rabs (a21 A) <= 1001 / 1000) /\
  (Rabs (a02 A) <= 1001 / 1000 /\ Rabs (a12 A) <= 1001 / 1000 /\ Rabs (a22 A) <= 1001 / 1000).
Proof.
  intros [S _] Hd. pose proof (S 1 0 0) as C1. pose proof (S 0 1 0) as C2. pose proof (S 0 0 1) as C3. cbv zeta in C1, C2, C3.
  destruct A as [m00 m01 m02 m10 m11 m12 m20 m21 m22]. unfold rmulv in *. cbn [rdot a00 a01 a02 a10 a11 a12 a20 a21 a22] in *. apply Rabs_ends in C1, C2, C3.
  assert (N1 : m00 * m00 + m10 * m10 + m20 * m20 <= 1001 / 1000) by nra. assert (N2 : m01 * m01 + m11 * m11 + m21 * m21 <= 1001 / 1000) by nra. assert (N3 : m02 * m02 + m12 * m12 + m22 * m22 <= 1001 / 1000) by nra. clear C1 C2 C3 S.
  assert (B1 : forall a b c, a * a + b * b + c * c <= 1001 / 1000 -> Rabs a <= 1001 / 1000 /\ Rabs b <= 1001 / 1000 /\ Rabs c <= 1001 / 1000).
  { intros a b c Q. pose proof (Rle_0_sqr a). pose proof (Rle_0_sqr b). pose proof (Rle_0_sqr c). unfold Rsqr in *. repeat split; apply sq_le_abs; lra. }
  auto.
Qed.
(** A sum of three products; the first factors are exact. *)
Lemma s3_app L a b c d e f B D F k : isf a -> isf c -> isf e -> Rabs (val a) <= 1001 / 1000 -> Rabs (val c) <= 1001 / 1000 -> Rabs (val e) <= 1001 / 1000 ->
  app b B k -> app d D k -> app f F k -> Rabs B <= 1001 / 1000 -> Rabs D <= 1001 / 1000 -> Rabs F <= 1001 / 1000 -> 0 <= k <= 50 ->
  app (s3 (SK:=F64 L) a b c d e f) (val a * B + val c * D + val e * F) (31 / 10 * k + 83 / 10).
Proof.
  intros Fa Fc Fe Ba Bc Be Hb Hd Hf BB BD BF Hk. unfold s3. cbn [ksum kadd kmul F64].
  assert (M : forall x y Y, isf x -> Rabs (val x) <= 1001 / 1000 -> app y Y k -> Rabs Y <= 1001 / 1000 -> app (x *! y) (val x * Y) (1002 / 1000 * k + 1003 / 1000 + 2 / 100) /\ Rabs (val x * Y) <= 1003 / 1000).
  { intros x y Y Fx Bx Hy BY. assert (Rabs (val x * Y) <= 1003 / 1000) by (eapply Rle_trans; [apply abs_prod; eauto|]; lra). split; auto.
    eapply app_weak; [apply (app_mulP _ _ _ _ _ _ (1001 / 1000) (1001 / 1000) (1003 / 1000) (app_exact x Fx) Hy); lra|lra]. }
  destruct (M _ _ _ Fa Ba Hb BB) as [A1 P1]. destruct (M _ _ _ Fc Bc Hd BD) as [A2 P2]. destruct (M _ _ _ Fe Be Hf BF) as [A3 P3].
  assert (P : forall x y, Rabs x <= 1003 / 1000 -> Rabs y <= 1003 / 1000 -> Rabs (x + y) <= 2006 / 1000) by (intros; eapply Rle_trans; [apply Rabs_triang|lra]).
  eapply app_weak; [eapply (app_sum3 L _ _ _ _ _ _ _ (2006 / 1000) (3009 / 1000) A1 A2 A3); try lra; auto|lra].
  eapply Rle_trans; [apply Rabs_triang|]. pose proof (P _ _ P1 P2). lra.
Qed.
Lemma app_le a r k : app a r k -> Rabs (val a - r) <= k * u. Proof. intros [_ H]. exact H. Qed.
Lemma mapp_close A B k : mapp A B k -> mfin A /\ mclose (k * u) (mval A) B.
Proof. intros ([? ?] & [? ?] & [? ?] & [? ?] & [? ?] & [? ?] & [? ?] & [? ?] & [? ?]). unfold mfin, mclose, mval. cbn [a00 a01 a02 a10 a11 a12 a20 a21 a22]. tauto. Qed.
Lemma mul_f64 L X E B : mfin X -> stretch (1 / 1000) (mval X) -> mapp E B 37 -> rot B -> mapp (m3_mul (SK:=F64 L) X E) (rmul (mval X) B) 124.
Proof.
  intros (F00 & F01 & F02 & F10 & F11 & F12 & F20 & F21 & F22) SX (E00 & E01 & E02 & E10 & E11 & E12 & E20 & E21 & E22) HB.
  destruct (stretch_entries _ _ SX ltac:(lra)) as ((X00 & X10 & X20) & (X01 & X11 & X21) & (X02 & X12 & X22)).
  destruct (stretch_entries _ 0 (stretch_rot _ HB) ltac:(lra)) as ((B00 & B10 & B20) & (B01 & B11 & B21) & (B02 & B12 & B22)).
  unfold mval in X00, X01, X02, X10, X11, X12, X20, X21, X22. cbn [a00 a01 a02 a10 a11 a12 a20 a21 a22] in X00, X01, X02, X10, X11, X12, X20, X21, X22.
  unfold mapp, m3_mul, rmul, mval. cbn [a00 a01 a02 a10 a11 a12 a20 a21 a22].
  repeat (split; [eapply app_weak; [apply (s3_app L) with (k := 37); auto; lra|lra]|]). eapply app_weak; [apply (s3_app L) with (k := 37); auto; lra|lra].
Qed.
Section Step.
Variable L : libm.
Hypothesis HL : accurate L.
Local Notation SK := (F64 L).
(** One step: the entries are within 124 u of the exact product and the defect grows by at most 1240 u. *)
Lemma em_step X a b c out y d : mfin X -> stretch d (mval X) -> 0 <= d <= 1 / 1000 -> length out = 9%nat ->
  em_retractation (SK:=SK) out (m3_to_list X) [a; b; c] = Ok y ->
  exists Y, y = m3_to_list Y /\ mapp Y (rmul (mval X) (expSO3 (qvec3 a b c))) 124 /\ stretch (d + 1240 * u) (mval Y).
Proof.
  intros FX SX Hd Lo H. unfold em_retractation in H. destruct (em_exponential [a; b; c]) as [E|] eqn:EE; [|discriminate]. cbn [bind] in H.
  apply (em_exp_f64 L HL) in EE. pose proof (expSO3_rot (qvec3 a b c)) as RB.
  pose proof (mul_f64 L X E _ FX (stretch_mono _ _ _ (proj2 Hd) SX) EE RB) as M.
  assert (RX : m3_read (m3_to_list X) = Ok X) by (destruct X; reflexivity). rewrite RX in H. cbn [bind] in H.
  exists (m3_mul (SK:=SK) X E). split.
  - destruct out as [|o0 [|o1 [|o2 [|o3 [|o4 [|o5 [|o6 [|o7 [|o8 [|]]]]]]]]]]; try discriminate Lo.
    unfold m3_to_list at 1 in H. cbn [raw_write List.length Nat.leb ub_unless bind skipn List.app] in H. apply ok_eq in H. exact H.
  - split; [exact M|]. apply mapp_close in M as [_ MC].
    assert (SB : stretch d (rmul (mval X) (expSO3 (qvec3 a b c)))). { replace d with (d * (1 + 0) + 0) by ring. apply stretch_mul; [lra|exact SX|]. apply stretch_rot, RB. }
    pose proof u_pos as U. assert (U1 : u <= 1 / 10 ^ 15) by (rewrite u_val; lra). eapply stretch_mono; [|apply (stretch_pert _ _ d (124 * u) SB Hd MC)]; lra.
Qed.
(** ** Membership *)
Lemma lit8_tight : isf (lit8 L) /\ 999 / 10 ^ 11 <= val (lit8 L) <= 1001 / 10 ^ 11.
Proof.
  destruct (lit_ok 1 100000000 eq_refl eq_refl) as [F E]. split; [exact F|]. apply Rabs_ends in E. rewrite Rabs_pos_eq in E by lra.
  pose proof eta_small as T. assert (u ^ 10 <= 1 / 10 ^ 40) by (rewrite u_val; cbn [pow]; lra). rewrite u_val in E. unfold lit8. cbn [klit F64]. cbn [pow] in *. lra.
Qed.
Lemma det_app X : mfin X -> stretch (1 / 1000) (mval X) -> app (m3_det (SK:=SK) X) (rdet (mval X)) 33.
Proof.
  intros (F00 & F01 & F02 & F10 & F11 & F12 & F20 & F21 & F22) SX.
  destruct (stretch_entries _ _ SX ltac:(lra)) as ((X00 & X10 & X20) & (X01 & X11 & X21) & (X02 & X12 & X22)).
  unfold mval in X00, X01, X02, X10, X11, X12, X20, X21, X22. cbn [a00 a01 a02 a10 a11 a12 a20 a21 a22] in X00, X01, X02, X10, X11, X12, X20, X21, X22.
  assert (M : forall x y, isf x -> isf y -> Rabs (val x) <= 1001 / 1000 -> Rabs (val y) <= 1001 / 1000 -> app (x *! y) (val x * val y) (103 / 100) /\ Rabs (val x * val y) <= 1003 / 1000).
  { intros x y Fx Fy Bx By. assert (Rabs (val x * val y) <= 1003 / 1000) by (eapply Rle_trans; [apply abs_prod; eauto|]; lra). split; auto.
    eapply app_weak; [apply (app_mulP _ _ _ _ _ _ (1001 / 1000) (1001 / 1000) (1003 / 1000) (app_exact x Fx) (app_exact y Fy)); lra|lra]. }
  assert (C : forall w a b c d', isf w -> isf a -> isf b -> isf c -> isf d' -> Rabs (val w) <= 1001 / 1000 -> Rabs (val a) <= 1001 / 1000 -> Rabs (val b) <= 1001 / 1000 -> Rabs (val c) <= 1001 / 1000 -> Rabs (val d') <= 1001 / 1000 ->
    app (w *! (a *! b -! c *! d')) (val w * (val a * val b - val c * val d')) (62 / 10) /\ Rabs (val w * (val a * val b - val c * val d')) <= 201 / 100).
  { intros w a b c d' Fw Fa Fb Fc Fd Bw Ba Bb Bc Bd. destruct (M a b Fa Fb Ba Bb) as [A1 P1]. destruct (M c d' Fc Fd Bc Bd) as [A2 P2].
    assert (P : Rabs (val a * val b - val c * val d') <= 2006 / 1000). { apply Rabs_ends in P1, P2. apply Rabs_le. lra. }
    assert (PW : Rabs (val w * (val a * val b - val c * val d')) <= 201 / 100) by (eapply Rle_trans; [apply abs_prod; eauto|]; lra). split; auto.
    pose proof (app_subP _ _ _ _ _ _ (2006 / 1000) A1 A2 ltac:(lra) ltac:(lra) ltac:(lra) ltac:(lra) ltac:(lra) ltac:(lra)) as A12.
    eapply app_weak; [apply (app_mulP _ _ _ _ _ _ (1001 / 1000) (2006 / 1000) (201 / 100) (app_exact w Fw) A12); lra|lra]. }
  destruct (C (a00 X) (a11 X) (a22 X) (a12 X) (a21 X)) as [D1 Q1]; auto. destruct (C (a01 X) (a10 X) (a22 X) (a12 X) (a20 X)) as [D2 Q2]; auto. destruct (C (a02 X) (a10 X) (a21 X) (a11 X) (a20 X)) as [D3 Q3]; auto.
  unfold m3_det. cbn [kadd kmul ksub F64].
  assert (Q12 : Rabs (val (a00 X) * (val (a11 X) * val (a22 X) - val (a12 X) * val (a21 X)) - val (a01 X) * (val (a10 X) * val (a22 X) - val (a12 X) * val (a20 X))) <= 402 / 100)
    by (apply Rabs_ends in Q1, Q2; apply Rabs_le; lra).
  pose proof (app_subP _ _ _ _ _ _ (402 / 100) D1 D2 Q12 ltac:(lra) ltac:(lra) ltac:(lra) ltac:(lra) ltac:(lra)) as D12.
  eapply app_eq; [eapply app_weak; [apply (app_addP _ _ _ _ _ _ (603 / 100) D12 D3)|]|]; try lra.
  - apply Rabs_ends in Q12, Q3. apply Rabs_le. lra.
  - unfold rdet, mval. cbn [a00 a01 a02 a10 a11 a12 a20 a21 a22]. ring.
Qed.
Lemma approx_one g G d : app g G (83 / 10) -> Rabs (G - 1) <= d -> d <= 99 / 10 ^ 10 -> k_isApprox (SK:=SK) g (k1 (Scalar:=SK)) (lit8 L) = true.
Proof.
  intros Ag HG Hd. destruct lit8_tight as [F8 V8]. pose proof u_pos as U. assert (U1 : u <= 2 / 10 ^ 16) by (rewrite u_val; lra). pose proof (Rabs_ends _ _ HG) as HG'. assert (Hd0 : 0 <= d) by (eapply Rle_trans; [apply Rabs_pos|exact HG]).
  unfold k_isApprox. cbn [kabs ksub kleb kmul k1 F64].
  assert (A1 : app (Babs (g -! of_Z 1)) (Rabs (G - 1)) 10).
  { apply app_abs. eapply app_weak; [apply (app_subP _ _ _ _ _ _ 1 Ag one_app); try lra; apply Rabs_le; cbn [pow] in *; lra|lra]. }
  destruct (of_Z_ok 1 eq_refl) as [F1 V1]. destruct (f_abs _ F1) as [Fb Vb]. rewrite V1, Rabs_pos_eq in Vb by lra.
  pose proof (app_abs _ _ _ Ag) as [Fg Eg]. rewrite (Rabs_pos_eq G) in Eg by (cbn [pow] in *; lra). apply Rabs_ends in Eg.
  set (m := kmin (H:=SK) (Babs g) (Babs (of_Z 1))). assert (Hm : isf m /\ 1 - 99 / 10 ^ 10 - 83 / 10 * u <= val m <= 1 + 1 / 10).
  { unfold m, kmin. cbn [kltb F64]. destruct (Bltb _ _); split; auto; cbn [pow] in *; lra. }
  destruct Hm as [Fm Vm]. 
  destruct (f_mul m (lit8 L) Fm F8) as [Fq Vq]. { pose proof big_1. apply Rabs_le. cbn [pow] in *. nra. }
  pose proof (rnd_err (val m * val (lit8 L))) as E. rewrite <- Vq in E. apply Rabs_ends in E.
  assert (Pm : 9985 / 10 ^ 12 <= val m * val (lit8 L) <= 12 / 10 ^ 9). { cbn [pow] in *. split; nra. }
  rewrite (Rabs_pos_eq (val m * _)) in E by (cbn [pow] in *; lra). pose proof eta_small. assert (u ^ 10 <= 1 / 10 ^ 40) by (rewrite u_val; cbn [pow]; lra).
  destruct A1 as [Fa Ea]. apply Rabs_ends in Ea. rewrite f_leb by auto. apply Rle_bool_true.
  assert (UM : u * (val m * val (lit8 L)) <= u * 1) by (apply Rmult_le_compat_l; cbn [pow] in *; lra). cbn [pow] in *. lra.
Qed.
Lemma small_one g G d : app g G (83 / 10) -> Rabs G <= d -> d <= 99 / 10 ^ 10 -> k_isMuchSmallerThan (SK:=SK) g (k1 (Scalar:=SK)) (lit8 L) = true.
Proof.
  intros Ag HG Hd. destruct lit8_tight as [F8 V8]. pose proof u_pos as U. assert (U1 : u <= 2 / 10 ^ 16) by (rewrite u_val; lra).
  unfold k_isMuchSmallerThan. cbn [kabs ksub kleb kmul k1 F64]. destruct (app_abs _ _ _ Ag) as [Fg Eg]. apply Rabs_ends in Eg.
  destruct (of_Z_ok 1 eq_refl) as [F1 V1]. destruct (f_abs _ F1) as [Fb Vb]. rewrite V1, Rabs_pos_eq in Vb by lra.
  destruct (f_mul (Babs (of_Z 1)) (lit8 L) Fb F8) as [Fq Vq]. { rewrite Vb. pose proof big_1. apply Rabs_le. cbn [pow] in *. lra. }
  pose proof (rnd_err (val (Babs (of_Z 1)) * val (lit8 L))) as E. rewrite <- Vq in E. rewrite Vb, Rmult_1_l in E. apply Rabs_ends in E.
  rewrite (Rabs_pos_eq (val (lit8 L))) in E by (cbn [pow] in *; lra). pose proof eta_small. assert (u ^ 10 <= 1 / 10 ^ 40) by (rewrite u_val; cbn [pow]; lra).
  rewrite f_leb by auto. apply Rle_bool_true. assert (u * val (lit8 L) <= u * 1) by (apply Rmult_le_compat_l; cbn [pow] in *; lra). cbn [pow] in *. lra.
Qed.
Lemma em_isInM_ok X d p : mfin X -> stretch d (mval X) -> d <= 99 / 10 ^ 10 -> em_isInM (SK:=SK) (m3_to_list X) p = Ok true.
Proof.
  intros FX SX Hd. assert (S3 : stretch (1 / 1000) (mval X)) by (eapply stretch_mono; [|exact SX]; cbn [pow] in *; lra).
  pose proof (stretch_near _ _ SX) as (G0 & G1 & G2 & G3 & G4 & G5 & G6 & G7 & G8 & G9).
  assert (RX : m3_read (m3_to_list X) = Ok X) by (destruct X; reflexivity). unfold em_isInM. rewrite RX. cbn [bind].
  replace (length (m3_to_list X) =? 9)%nat with true by (destruct X; reflexivity). cbn [andb]. f_equal. apply andb_true_intro. split.
  - unfold map_prec. change (klit 1 100000000) with (lit8 L). destruct lit8_tight as [F8 V8]. pose proof u_pos as U. assert (U1 : u <= 2 / 10 ^ 16) by (rewrite u_val; lra).
    pose proof (det_app X FX S3) as AD. cbn [kabs ksub kltb k1 F64]. set (D := m3_det X) in *. clearbody D. pose proof (Rabs_ends _ _ G9) as G9'.
    assert (A1 : app (Babs (D -! of_Z 1)) (Rabs (rdet (mval X) - 1)) 40).
    { apply app_abs. eapply app_weak; [apply (app_subP _ _ _ _ _ _ 1 AD one_app); try lra; apply Rabs_le; cbn [pow] in *; lra|lra]. }
    destruct A1 as [Fa Ea]. apply Rabs_ends in Ea. rewrite f_ltb by auto. apply Rlt_bool_true. cbn [pow] in *. lra.
  - unfold map_prec. change (klit 1 100000000) with (lit8 L).
    destruct (stretch_entries _ _ S3 ltac:(lra)) as ((X00 & X10 & X20) & (X01 & X11 & X21) & (X02 & X12 & X22)).
    unfold mval in X00, X01, X02, X10, X11, X12, X20, X21, X22. cbn [a00 a01 a02 a10 a11 a12 a20 a21 a22] in X00, X01, X02, X10, X11, X12, X20, X21, X22.
    destruct FX as (F00 & F01 & F02 & F10 & F11 & F12 & F20 & F21 & F22).
    assert (S : forall a b c d' e f, isf a -> isf b -> isf c -> isf d' -> isf e -> isf f -> Rabs (val a) <= 1001 / 1000 -> Rabs (val b) <= 1001 / 1000 -> Rabs (val c) <= 1001 / 1000 ->
      Rabs (val d') <= 1001 / 1000 -> Rabs (val e) <= 1001 / 1000 -> Rabs (val f) <= 1001 / 1000 -> app (s3 (SK:=SK) a b c d' e f) (val a * val b + val c * val d' + val e * val f) (83 / 10)).
    { intros. eapply app_weak; [apply (s3_app L) with (k := 0); auto using app_exact; lra|lra]. }
    unfold mval, rmul, rtr in G0, G1, G2, G3, G4, G5, G6, G7, G8. cbn [a00 a01 a02 a10 a11 a12 a20 a21 a22] in G0, G1, G2, G3, G4, G5, G6, G7, G8.
    unfold m3_isIdentity, m3_mul, m3_trans. cbn [a00 a01 a02 a10 a11 a12 a20 a21 a22].
    rewrite (approx_one _ _ d (S (a00 X) (a00 X) (a10 X) (a10 X) (a20 X) (a20 X) ltac:(auto) ltac:(auto) ltac:(auto) ltac:(auto) ltac:(auto) ltac:(auto) ltac:(auto) ltac:(auto) ltac:(auto) ltac:(auto) ltac:(auto) ltac:(auto))) by auto.
    repeat (apply andb_true_intro; split); auto; first [eapply approx_one; [apply S; auto|eauto|eauto]|eapply small_one; [apply S; auto|eauto|eauto]].
Qed.
End Step.
