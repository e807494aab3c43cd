(** Every rotation is the exponential of a vector of length at most pi. *)
From Coq Require Import Reals List Lra Lia Psatz.
From Verif Require Import Base Vec Model_SO3 XR SpecR RotR NumVec Angle NumQuat.
Import ListNotations.
Local Open Scope R_scope.

Definition rot_eqs (A : m3 R) : Prop :=
  let '(M3 a b c d e f g h i) := A in
  (a = e * i - f * h /\ b = f * g - d * i /\ c = d * h - e * g /\
   d = c * h - b * i /\ e = a * i - c * g /\ f = b * g - a * h /\
   g = b * f - c * e /\ h = c * d - a * f /\ i = a * e - b * d) /\
  (a * a + d * d + g * g = 1 /\ b * b + e * e + h * h = 1 /\ c * c + f * f + i * i = 1 /\
   a * b + d * e + g * h = 0 /\ a * c + d * f + g * i = 0 /\ b * c + e * f + h * i = 0) /\
  (a * a + b * b + c * c = 1 /\ d * d + e * e + f * f = 1 /\ g * g + h * h + i * i = 1 /\
   a * d + b * e + c * f = 0 /\ a * g + b * h + c * i = 0 /\ d * g + e * h + f * i = 0).
Lemma rot_all A : rot A -> rot_eqs A.
Proof.
  intros H. pose proof (rot_adj A H) as Ha. pose proof (rot_r A H) as Hr. destruct H as [Hl _].
  destruct A as [a b c d e f g h i]. unfold rot_eqs.
  unfold rmul, rtr, ridm, radj in *. cbn [a00 a01 a02 a10 a11 a12 a20 a21 a22] in *.
  injection Ha. injection Hr. injection Hl. intros. repeat split; lra.
Qed.

(** The 4x4 matrix 4 q q^T, read off the rotation. *)
Definition qqt (A : m3 R) (i j : nat) : R :=
  let '(M3 a b c d e f g h k) := A in
  match i, j with
  | 0, 0 => (1 + a + e + k)%R | 1, 1 => (1 + a - e - k)%R | 2, 2 => (1 - a + e - k)%R | 3, 3 => (1 - a - e + k)%R 
  | 0, 1 | 1, 0 => (h - f)%R | 0, 2 | 2, 0 => (c - g)%R | 0, 3 | 3, 0 => (d - b)%R 
  | 1, 2 | 2, 1 => (b + d)%R | 1, 3 | 3, 1 => (c + g)%R | 2, 3 | 3, 2 => (f + h)%R 
  | _, _ => 0%R
  end%nat.
Lemma qqt_rank1 A i j k : rot A -> (i < 4)%nat -> (j < 4)%nat -> (k < 4)%nat ->
  qqt A i j * qqt A i k = qqt A i i * qqt A j k.
Proof.
  intros H Hi Hj Hk. apply rot_all in H. destruct A as [a b c d e f g h l]. unfold rot_eqs in H.
  destruct H as ((E1&E2&E3&E4&E5&E6&E7&E8&E9)&(F1&F2&F3&F4&F5&F6)&(G1&G2&G3&G4&G5&G6)).
  destruct i as [|[|[|[|i]]]]; [| | | |lia]; (destruct j as [|[|[|[|j]]]]; [| | | |lia]);
  (destruct k as [|[|[|[|k]]]]; [| | | |lia]); cbn [qqt]; first [ring|lra].
Qed.

Lemma rot_quat A : rot A -> exists q, qn2 q = 1 /\ qmat q = A.
Proof.
  intros H.
  assert (Hm : exists i, (i < 4)%nat /\ 0 < qqt A i i).
  { destruct (Rlt_dec 0 (qqt A 0 0)); [exists 0%nat; split; [lia|auto]|].
    destruct (Rlt_dec 0 (qqt A 1 1)); [exists 1%nat; split; auto; lia|].
    destruct (Rlt_dec 0 (qqt A 2 2)); [exists 2%nat; split; auto; lia|].
    destruct (Rlt_dec 0 (qqt A 3 3)); [exists 3%nat; split; auto; lia|].
    exfalso. destruct A. cbn [qqt] in *. lra. }
  destruct Hm as (i & Hi & Hp). set (m := qqt A i i) in *. set (r := 2 * sqrt m).
  assert (Hr : r * r = 4 * m). { unfold r. pose proof (sqrt_sqrt m). nra. }
  assert (Hr0 : r <> 0) by (intros Z; rewrite Z in Hr; lra).
  exists (Q4 (qqt A i 0 / r) (qqt A i 1 / r) (qqt A i 2 / r) (qqt A i 3 / r)).
  assert (P : forall j k, (j < 4)%nat -> (k < 4)%nat -> qqt A i j / r * (qqt A i k / r) = qqt A j k / 4).
  { intros j k Hj Hk. pose proof (qqt_rank1 A i j k H Hi Hj Hk) as E. fold m in E.
    transitivity (qqt A i j * qqt A i k / (r * r)); [field; auto|]. rewrite Hr, E. field. lra. }
  split.
  - unfold qn2. cbn [qw qx qy qz]. rewrite !P by lia. destruct A; cbn [qqt]. field.
  - m3_eq; rewrite !P by lia; clear - A; destruct A as [b0 b1 b2 b3 b4 b5 b6 b7 b8]; cbn [qqt a00 a01 a02 a10 a11 a12 a20 a21 a22]; field.
Qed.

Lemma rnorm_scal a v : rnorm (rscal a v) = Rabs a * rnorm v.
Proof.
  unfold rnorm. replace (rdot (rscal a v) (rscal a v)) with (Rsqr a * rdot v v).
  - rewrite sqrt_mult_alt by apply Rle_0_sqr. rewrite sqrt_Rsqr_abs. reflexivity.
  - unfold Rsqr, rscal. induction v; simpl; [ring|]. rewrite <- IHv. ring.
Qed.

(** Logarithm of a unit quaternion as a mathematical function. *)
Definition logQ (q : quat R) : list R :=
  let n := rnorm (qv q) in
  if Req_EM_T n 0 then [0; 0; 0]
  else rscal (Ratan2 (2 * n * qw q) (qw q * qw q - n * n) / n) (qv q).
Lemma logQ_spec q : qn2 q = 1 -> length (logQ q) = 3%nat /\ rnorm (logQ q) <= PI /\
  (qw q <> 0 -> rnorm (logQ q) < PI) /\
  (expQ (logQ q) = q \/ expQ (logQ q) = qneg q).
Proof.
  intros H. pose proof PI_RGT_0 as HPI. pose proof (qunit_n q H) as U. unfold logQ. cbv zeta.
  set (n := rnorm (qv q)) in *. assert (Hn : 0 <= n) by apply rnorm_nonneg.
  destruct (Req_EM_T n 0) as [Z|Z].
  - split; auto. assert (E0 : rnorm [0; 0; 0] = 0). { unfold rnorm. replace (rdot _ _) with 0 by (simpl; ring). apply sqrt_0. }
    rewrite E0. split; [lra|]. split; [intros; lra|].
    assert (D : rdot (qv q) (qv q) = 0). { rewrite <- rnorm_sq. fold n. rewrite Z. ring. }
    simpl in D. assert (qx q = 0) by nra. assert (qy q = 0) by nra. assert (qz q = 0) by nra.
    rewrite Z in U. assert (W : qw q = 1 \/ qw q = -1). { destruct (Rlt_dec 0 (qw q)); [left|right]; nra. }
    replace (expQ [0;0;0]) with (Q4 1 0 0 0).
    2:{ unfold expQ. cbv zeta. destruct (Req_EM_T _ 0); auto. contradiction. }
    destruct W; [left|right]; apply quat_ext; cbn [qneg qw qx qy qz]; lra.
  - split; [reflexivity|].
    set (t := Ratan2 (2 * n * qw q) (qw q * qw q - n * n)) in *.
    assert (N : rnorm (rscal (t / n) (qv q)) = Rabs t).
    { rewrite rnorm_scal. fold n. unfold Rdiv. rewrite Rabs_mult, Rabs_inv. rewrite (Rabs_right n) by lra. field. auto. }
    assert (E : (qw q * qw q - n * n) * (qw q * qw q - n * n) + (2 * n * qw q) * (2 * n * qw q) = 1).
    { replace (_ + _) with ((n * n + qw q * qw q) * (n * n + qw q * qw q)) by ring. rewrite U. ring. }
    destruct (atan2_spec _ _ E) as (Hc & Hs & Hb). fold t in Hc, Hs, Hb.
    split. { rewrite N. apply Rabs_le. lra. }
    split. { intros Hw. destruct (half_angle n (qw q) U Hn Hw) as (_ & _ & B). fold t in B. rewrite N. apply Rabs_def1; lra. }
    assert (T0 : t <> 0 -> expQ (rscal (t / n) (qv q)) =
        Q4 (cos (t / 2)) (sin (t / 2) / n * qx q) (sin (t / 2) / n * qy q) (sin (t / 2) / n * qz q)).
    { intros T. unfold expQ, rscal, qv. cbn [map]. cbv zeta.
      change [t / n * qx q; t / n * qy q; t / n * qz q] with (rscal (t / n) (qv q)). rewrite N.
      destruct (Req_EM_T (Rabs t) 0) as [Z'|Z']. { apply Rabs_no_R0 in T. contradiction. }
      assert (S : sin (Rabs t / 2) / Rabs t = sin (t / 2) / t /\ cos (Rabs t / 2) = cos (t / 2)).
      { unfold Rabs. destruct (Rcase_abs t); auto. replace (- t / 2) with (- (t / 2)) by field.
        rewrite sin_neg, cos_neg. split; auto. field. auto. }
      destruct S as [-> ->]. f_equal; field; auto. }
    destruct (Req_dec (qw q) 0) as [W|W].
    + (* half turn *)
      assert (n = 1) by nra.
      assert (t = PI). { apply angle_unique; try lra. - rewrite Hc, cos_PI. rewrite W, H0. ring. - rewrite Hs, sin_PI, W. ring. }
      left. rewrite T0 by lra. rewrite H1, H0, cos_PI2, sin_PI2. apply quat_ext; cbn; lra.
    + destruct (half_angle n (qw q) U Hn W) as (C & S & B). fold t in C, S, B.
      assert (T : t <> 0). { intros T. rewrite T in S. unfold Rdiv in S. rewrite Rmult_0_l, sin_0 in S. destruct (Rlt_dec 0 (qw q)); lra. }
      rewrite T0, C, S by auto. destruct (Rlt_dec 0 (qw q)) as [P|P].
      * left. rewrite Rabs_right by lra. apply quat_ext; cbn; field; auto.
      * right. rewrite Rabs_left by lra. apply quat_ext; cbn; field; auto.
Qed.

Lemma rot_exp A : rot A -> exists v, length v = 3%nat /\ rnorm v <= PI /\ expSO3 v = A.
Proof.
  intros H. destruct (rot_quat A H) as (q & Hq & <-). destruct (logQ_spec q Hq) as (L & N & _ & E).
  exists (logQ q). repeat split; auto. rewrite <- qmat_expQ by auto.
  destruct E as [-> | ->]; auto. apply qmat_neg.
Qed.
