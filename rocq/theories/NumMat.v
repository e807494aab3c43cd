(** ExpMapMatrix on finite values. *)
From Coq Require Import Reals List Lra Lia ZArith Bool Psatz.
From Verif Require Import Base Scalar Vec Model_SO3 Model_Manifold XR SpecR RotR NumVec.
Import ListNotations.
Local Open Scope R_scope.

Notation eps8 := (1 / 100000000).
Lemma eps8_pos : 0 < eps8. Proof. lra. Qed.

(** Coefficients of exponential: c and s in the code, as functions of n = |v|^2. *)
Definition emC (n : R) : R := if Rltb n eps8 then 1 / 2 - n / 24 else (1 - cos (sqrt n)) / n.
Definition emS (n : R) : R := if Rltb n eps8 then 1 - n / 6 else sin (sqrt n) / sqrt n.

Lemma em_exponential_fin x y z : let v := [x; y; z] in let n := rdot v v in
  em_exponential (fin v) = if Rltb (rnorm v) PI then Ok (m3fin (rodrigues (emS n) (emC n) x y z)) else Fail EAssert.
Proof.
  intros v n. unfold v. cbn [fin map em_exponential].
  change [Fin x; Fin y; Fin z] with (fin v). rewrite sqnorm_fin. fold n.
  unfold map_prec. cbn [klit XRS kltb ksqrt kpi].
  rewrite xsqrt_fin by apply rdot_self_nonneg. change (sqrt n) with (rnorm v).
  change (rnorm [x; y; z]) with (rnorm v).
  cbn [xltb]. destruct (Rltb (rnorm v) PI); [|reflexivity]. cbn [mnf_assert bind].
  unfold emS, emC. change (sqrt n) with (rnorm v).
  destruct (Rltb n (1 / 100000000)) eqn:E.
  - cbn [kdiv ksub kmul kadd kopp k1 XRS]. rewrite !xdiv_fin by lra.
    cbn [xsub xadd lift2 lift1]. unfold m3fin, rodrigues. cbn [a00 a01 a02 a10 a11 a12 a20 a21 a22].
    replace (n / (24 / 1)) with (n / 24) by field. replace (n / (6 / 1)) with (n / 6) by field. reflexivity.
  - apply Rltb_false in E. cbn [kdiv ksub kmul kadd kopp k1 XRS ksin kcos lift1].
    cbn [xsub]. rewrite !xdiv_fin.
    + reflexivity.
    + intros H. assert (n = 0). { unfold n. rewrite <- rnorm_sq, H. ring. } lra.
    + lra.
Qed.

Lemma em_exp_main v : length v = 3%nat -> eps8 <= rdot v v -> rnorm v < PI ->
  em_exponential (fin v) = Ok (m3fin (expSO3 v)).
Proof.
  intros Hl Hn Hp. destruct (vec3_inv v Hl) as (x & y & z & ->).
  rewrite em_exponential_fin. cbv zeta. apply Rltb_true in Hp. rewrite Hp.
  assert (E : Rltb (rdot [x; y; z] [x; y; z]) eps8 = false) by (apply Rltb_false; auto).
  unfold emS, emC, expSO3. rewrite E. cbv zeta.
  destruct (Req_EM_T _ 0) as [Z|Z].
  - rewrite <- rnorm_sq, Z in Hn. lra.
  - change (sqrt (rdot [x;y;z] [x;y;z])) with (rnorm [x;y;z]). rewrite <- rnorm_sq. reflexivity.
Qed.
Lemma em_exp_zero : em_exponential (fin [0; 0; 0]) = Ok (m3fin ridm).
Proof.
  rewrite em_exponential_fin. cbv zeta.
  assert (Z : rdot [0;0;0] [0;0;0] = 0) by (simpl; ring). unfold rnorm. rewrite Z, sqrt_0.
  assert (E : Rltb 0 PI = true) by (apply Rltb_true; apply PI_RGT_0). rewrite E. do 2 f_equal. m3_eq; ring.
Qed.

Lemma em_retractation_fin out A E x y z : length out = 9%nat ->
  em_exponential (fin [x; y; z]) = Ok (m3fin E) ->
  em_retractation out (fin (flat9 A)) (fin [x; y; z]) = Ok (fin (flat9 (rmul A E))).
Proof.
  intros Hl H. unfold em_retractation. rewrite H. cbn [bind]. rewrite m3_read_fin. cbn [bind].
  rewrite m3_mul_fin, m3_to_list_fin. apply raw_write_same. rewrite Hl. reflexivity.
Qed.

(** Logarithm. *)
Definition upper (A : m3 R) : R := rnorm [- a12 A; a02 A; - a01 A].
Lemma em_logarithm_small out A : length out = 3%nat -> upper A < eps8 ->
  em_logarithm out (m3fin A) = Ok (fin [- a12 A; a02 A; - a01 A]).
Proof.
  intros Hl H. unfold em_logarithm. cbn [a12 a02 a01 m3fin kopp XRS lift1].
  change [Fin (- a12 A); Fin (a02 A); Fin (- a01 A)] with (fin [- a12 A; a02 A; - a01 A]).
  rewrite norm_fin. unfold map_prec. cbn [klit kltb XRS xltb]. apply Rltb_true in H. fold (upper A). rewrite H.
  apply assign_same. rewrite Hl. reflexivity.
Qed.
Lemma em_logarithm_main out A t : length out = 3%nat -> eps8 <= upper A ->
  (a00 A + a11 A + a22 A - 1) / 2 = cos t -> 0 < t < PI ->
  em_logarithm out (m3fin A) =
  Ok (fin [ (a21 A - a12 A) * (t / (2 * sin t)); (a02 A - a20 A) * (t / (2 * sin t)); (a10 A - a01 A) * (t / (2 * sin t))]).
Proof.
  intros Hl H Ht Hb. unfold em_logarithm. cbn [a12 a02 a01 m3fin kopp XRS lift1].
  change [Fin (- a12 A); Fin (a02 A); Fin (- a01 A)] with (fin [- a12 A; a02 A; - a01 A]).
  rewrite norm_fin. unfold map_prec. cbn [klit kltb XRS xltb]. apply Rltb_false in H. fold (upper A). rewrite H.
  rewrite m3_trace_fin. cbn [ksub kdiv kacos k1 XRS xsub].
  rewrite xdiv_fin by lra. replace ((a00 A + a11 A + a22 A - 1) / (2 / 1)) with (cos t) by (rewrite <- Ht; field).
  rewrite xacos_fin by (apply COS_bound). rewrite acos_cos by lra.
  assert (Hs : 0 < sin t) by (apply sin_gt_0; lra).
  cbn [ksin kmul lift1 lift2 XRS]. rewrite xdiv_fin by (lra).
  rewrite m3_trans_fin. cbn [m3_map2 m3fin rtr a00 a01 a02 a10 a11 a12 a20 a21 a22 ksub XRS xsub lift2].
  replace (2 / 1 * sin t) with (2 * sin t) by field.
  apply assign_same. rewrite Hl. reflexivity.
Qed.

Lemma expSO3_trace v t : length v = 3%nat -> t = rnorm v ->
  (a00 (expSO3 v) + a11 (expSO3 v) + a22 (expSO3 v) - 1) / 2 = cos t.
Proof.
  intros Hl ->. destruct (vec3_inv v Hl) as (x & y & z & ->). unfold expSO3. cbv zeta.
  destruct (Req_EM_T _ 0) as [Z|Z].
  - rewrite Z, cos_0. cbn [ridm a00 a11 a22]. field.
  - set (t := rnorm [x; y; z]) in *. cbn [rodrigues a00 a11 a22].
    pose proof (rnorm3_sq x y z) as N. fold t in N.
    replace ((1 - (1 - cos t) / (t * t) * (y * y + z * z) + (1 - (1 - cos t) / (t * t) * (x * x + z * z)) +
      (1 - (1 - cos t) / (t * t) * (x * x + y * y)) - 1) / 2) with (1 - (1 - cos t) / (t * t) * (x * x + y * y + z * z)) by (field; auto).
    rewrite <- N. field. auto.
Qed.

Lemma upper_exp v : length v = 3%nat -> 0 < rnorm v ->
  8 / 9 * (sin (rnorm v) * sin (rnorm v)) <= upper (expSO3 v) * upper (expSO3 v).
Proof.
  intros Hl Hp. destruct (vec3_inv v Hl) as (x & y & z & ->). unfold upper. rewrite rnorm3_sq.
  unfold expSO3. cbv zeta. destruct (Req_EM_T _ 0) as [Z|Z]; [lra|]. set (t := rnorm [x;y;z]) in *.
  pose proof (rnorm3_sq x y z) as N. fold t in N.
  assert (Tp : 0 < t * t) by nra.
  pose proof (rod_upper (sin t / t) ((1 - cos t) / (t * t)) x y z) as H. cbv zeta in H.
  rewrite <- N in H. specialize (H Tp).
  assert (0 <= (1 - cos t) / (t * t)).
  { apply Rmult_le_pos; [pose proof (COS_bound t); lra|]. left. apply Rinv_0_lt_compat. auto. }
  specialize (H H0). replace (sin t / t * (sin t / t) * (t * t)) with (sin t * sin t) in H by (field; auto). lra.
Qed.

Lemma em_log_exp out v : length out = 3%nat -> length v = 3%nat -> 0 < rnorm v < PI -> eps8 <= upper (expSO3 v) ->
  em_logarithm out (m3fin (expSO3 v)) = Ok (fin v).
Proof.
  intros Ho Hl Hp Hu. rewrite (em_logarithm_main out _ (rnorm v)); auto using expSO3_trace.
  destruct (vec3_inv v Hl) as (x & y & z & ->). unfold expSO3. cbv zeta.
  destruct (Req_EM_T _ 0) as [Z|Z]; [lra|]. set (t := rnorm [x;y;z]) in *.
  cbn [rodrigues a21 a12 a02 a20 a10 a01].
  assert (Hs : 0 < sin t) by (apply sin_gt_0; lra).
  do 2 f_equal. repeat (f_equal; try (field; split; lra)).
Qed.

Lemma upper_ok v : length v = 3%nat -> 2 * eps8 <= sin (rnorm v) -> 0 < rnorm v -> eps8 <= upper (expSO3 v).
Proof.
  intros Hl Hs Hp. pose proof (upper_exp v Hl Hp) as H.
  assert (0 <= upper (expSO3 v)) by apply rnorm_nonneg.
  destruct (Rle_dec eps8 (upper (expSO3 v))); auto. exfalso.
  assert (upper (expSO3 v) * upper (expSO3 v) <= eps8 * eps8) by nra.
  assert ((2 * eps8) * (2 * eps8) <= sin (rnorm v) * sin (rnorm v)) by nra. lra.
Qed.
