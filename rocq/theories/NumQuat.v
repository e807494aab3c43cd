(** ExpMapQuaternion on finite values. *)
From Coq Require Import Reals List Lra Lia ZArith Bool Psatz.
From Verif Require Import Base Scalar Vec Model_SO3 Model_Manifold XR SpecR RotR NumVec NumMat Angle.
Import ListNotations.
Local Open Scope R_scope.

Definition eqW (n : R) : R := if Rltb n eps8 then 1 + (- 1 + n / 48) * (n / 8) else cos (sqrt n / 2).
Definition eqS (n : R) : R :=
  if Rltb n eps8 then (1 + (- 1 + n / 80) * n / 24) / 2 else sin (sqrt n / 2) / sqrt n.

Lemma eq_exponential_fin q0 x y z : let v := [x; y; z] in let n := rdot v v in
  eq_exponential q0 (fin v) =
  if Rltb (rnorm v) PI then Ok (qfin (Q4 (eqW n) (eqS n * x) (eqS n * y) (eqS n * z))) else Fail EAssert.
Proof.
  intros v n. unfold v. cbn [fin map eq_exponential].
  change [Fin x; Fin y; Fin z] with (fin v). rewrite sqnorm_fin. fold n.
  unfold map_prec. cbn [klit XRS kltb ksqrt kpi].
  rewrite xsqrt_fin by apply rdot_self_nonneg. change (sqrt n) with (rnorm v).
  change (rnorm [x; y; z]) with (rnorm v).
  cbn [xltb]. destruct (Rltb (rnorm v) PI); [|reflexivity]. cbn [mnf_assert bind].
  unfold eqS, eqW. change (sqrt n) with (rnorm v).
  destruct (Rltb n (1 / 100000000)) eqn:E.
  - cbn [kdiv ksub kmul kadd kopp k1 XRS].
    repeat (cbn [xsub xadd lift2 lift1]; rewrite xdiv_fin by lra). cbn [xsub xadd lift2 lift1].
    unfold qfin. cbn [qw qx qy qz lift2].
    replace (1 + (- (1) + n / (48 / 1)) * (n / (8 / 1))) with (1 + (-1 + n / 48) * (n / 8)) by field.
    replace ((1 + (- (1) + 1 / 80 * n) * n / (24 / 1)) / (2 / 1)) with ((1 + (-1 + n / 80) * n / 24) / 2) by field. reflexivity.
  - apply Rltb_false in E. cbn [kdiv ksub kmul kadd kopp k1 XRS ksin kcos lift1 lift2].
    rewrite !xdiv_fin.
    + unfold qfin. cbn [qw qx qy qz lift2]. replace (1 / 2 * rnorm v) with (rnorm v / 2) by field. reflexivity.
    + intros H. assert (n = 0). { unfold n. rewrite <- rnorm_sq, H. ring. } lra.
Qed.

Lemma eq_exp_main q0 v : length v = 3%nat -> eps8 <= rdot v v -> rnorm v < PI ->
  eq_exponential q0 (fin v) = Ok (qfin (expQ v)).
Proof.
  intros Hl Hn Hp. destruct (vec3_inv v Hl) as (x & y & z & ->).
  rewrite eq_exponential_fin. cbv zeta. apply Rltb_true in Hp. rewrite Hp.
  assert (E : Rltb (rdot [x; y; z] [x; y; z]) eps8 = false) by (apply Rltb_false; auto).
  unfold eqS, eqW, expQ. rewrite E. cbv zeta.
  destruct (Req_EM_T _ 0) as [Z|Z].
  - rewrite <- rnorm_sq, Z in Hn. lra.
  - reflexivity.
Qed.
Lemma eq_exp_zero q0 : eq_exponential q0 (fin [0; 0; 0]) = Ok (qfin (Q4 1 0 0 0)).
Proof.
  rewrite eq_exponential_fin. cbv zeta.
  assert (Z : rdot [0;0;0] [0;0;0] = 0) by (simpl; ring). unfold rnorm. rewrite Z, sqrt_0.
  assert (E : Rltb 0 PI = true) by (apply Rltb_true; apply PI_RGT_0). rewrite E. do 2 f_equal.
  unfold eqW, eqS. assert (E' : Rltb 0 eps8 = true) by (apply Rltb_true; lra). rewrite E'.
  f_equal; field.
Qed.

Lemma eq_retractation_fin out p q v : length out = 4%nat ->
  eq_exponential junk_quat (fin v) = Ok (qfin q) ->
  eq_retractation out (fin (qflat p)) (fin v) = Ok (fin (qflat (qprod p q))).
Proof.
  intros Hl H. unfold eq_retractation, eq_retractation_at. rewrite H. cbn [bind]. rewrite quat_read_fin. cbn [bind].
  destruct (quat_read_len out Hl) as [o ->]. cbn [bind].
  rewrite qmul_fin. unfold quat_write. rewrite quat_to_list_fin. apply raw_write_same. rewrite Hl. reflexivity.
Qed.

(** Logarithm of a finite quaternion. *)
Definition qv (q : quat R) : list R := [qx q; qy q; qz q].
Lemma eq_logarithm_small out q : length out = 3%nat -> rnorm (qv q) < eps8 -> qw q <> 0 ->
  eq_logarithm out (qfin q) = Ok (fin (rscal (2 / qw q) (qv q))).
Proof.
  intros Hl H Hw. unfold eq_logarithm. rewrite qvec_fin, sqnorm_fin. cbn [ksqrt XRS].
  rewrite xsqrt_fin by apply rdot_self_nonneg. change (sqrt (rdot [qx q; qy q; qz q] [qx q; qy q; qz q])) with (rnorm (qv q)).
  unfold map_prec. cbn [klit kltb keqb XRS xltb xeqb qw qfin k0].
  apply Rltb_true in H. rewrite H. apply Reqb_false in Hw as Hw'. rewrite Hw'. cbn [negb andb].
  cbn [kdiv XRS]. rewrite xdiv_fin by auto. replace (2 / 1) with 2 by field. rewrite vscale_fin.
  apply assign_same. rewrite Hl. reflexivity.
Qed.
Lemma eq_logarithm_main out q : length out = 3%nat -> rnorm (qv q) <> 0 ->
  eps8 <= rnorm (qv q) \/ qw q = 0 ->
  let n := rnorm (qv q) in
  eq_logarithm out (qfin q) = Ok (fin (rscal (Ratan2 (2 * n * qw q) (qw q * qw q - n * n) / n) (qv q))).
Proof.
  intros Hl H0 H n. unfold eq_logarithm. rewrite qvec_fin, sqnorm_fin. cbn [ksqrt XRS].
  rewrite xsqrt_fin by apply rdot_self_nonneg. change (sqrt (rdot [qx q; qy q; qz q] [qx q; qy q; qz q])) with n.
  unfold map_prec. cbn [klit kltb keqb XRS xltb xeqb qw qfin k0].
  replace (Rltb n eps8 && negb (Reqb (qw q) 0)) with false.
  2:{ symmetry. apply andb_false_iff. destruct H as [H|H].
      - left. apply Rltb_false. auto.
      - right. apply negb_false_iff. apply Reqb_true. auto. }
  cbn [kdiv kmul ksub katan2 XRS lift2 xsub]. rewrite xdiv_fin by auto.
  replace (2 / 1) with 2 by field. change [qx q; qy q; qz q] with (qv q). rewrite <- (rnorm_sq (qv q)). fold n.
  rewrite vscale_fin. apply assign_same. rewrite Hl. reflexivity.
Qed.

Lemma qunit_n q : qn2 q = 1 -> rnorm (qv q) * rnorm (qv q) + qw q * qw q = 1.
Proof. intros H. rewrite rnorm_sq. unfold qn2 in H. simpl. lra. Qed.

Lemma expQ_qv v : length v = 3%nat -> 0 < rnorm v -> rnorm v < PI ->
  qv (expQ v) = rscal (sin (rnorm v / 2) / rnorm v) v /\ rnorm (qv (expQ v)) = sin (rnorm v / 2) /\
  qw (expQ v) = cos (rnorm v / 2).
Proof.
  intros Hl Hp Hq. destruct (vec3_inv v Hl) as (x & y & z & ->).
  assert (H : qv (expQ [x; y; z]) = rscal (sin (rnorm [x;y;z] / 2) / rnorm [x;y;z]) [x;y;z] /\
              qw (expQ [x;y;z]) = cos (rnorm [x;y;z] / 2)).
  { unfold expQ. cbv zeta. destruct (Req_EM_T _ 0) as [Z|Z]; [lra|]. split; reflexivity. }
  destruct H as [H1 H2]. repeat split; auto.
  set (t := rnorm [x; y; z]) in *. rewrite H1.
  assert (S : 0 < sin (t / 2)) by (apply sin_gt_0; lra).
  assert (E : rdot (rscal (sin (t / 2) / t) [x; y; z]) (rscal (sin (t / 2) / t) [x; y; z]) = sin (t / 2) * sin (t / 2)).
  { pose proof (rnorm3_sq x y z) as N. fold t in N.
    transitivity ((sin (t / 2) / t) * (sin (t / 2) / t) * (x * x + y * y + z * z)); [simpl; ring|].
    rewrite <- N. field. lra. }
  unfold rnorm. rewrite E. apply sqrt_square. lra.
Qed.

Lemma eq_log_exp out v : length out = 3%nat -> length v = 3%nat -> 0 < rnorm v < PI -> eps8 <= sin (rnorm v / 2) ->
  eq_logarithm out (qfin (expQ v)) = Ok (fin v).
Proof.
  intros Ho Hl Hp Hs. destruct (expQ_qv v Hl) as (H1 & H2 & H3); try lra.
  rewrite (eq_logarithm_main out); auto; rewrite ?H2; auto; [|lra].
  rewrite H3, H1. set (t := rnorm v) in *.
  replace (2 * sin (t / 2) * cos (t / 2)) with (sin t).
  2:{ rewrite <- sin_2a. f_equal. field. }
  replace (cos (t / 2) * cos (t / 2) - sin (t / 2) * sin (t / 2)) with (cos t).
  2:{ rewrite <- cos_2a. f_equal. field. }
  rewrite atan2_trig by lra. do 2 f_equal. unfold rscal. rewrite map_map.
  rewrite <- (map_id v) at 2. apply map_ext. intros a. field. split; lra.
Qed.

Lemma qinverse_fin q : qn2 q = 1 -> qinverse (qfin q) = qfin (qconj q).
Proof.
  intros H. unfold qinverse. rewrite qsqnorm_fin, H. cbn [k0 kltb XRS xltb].
  assert (E : Rltb 0 1 = true) by (apply Rltb_true; lra). rewrite E.
  cbn [qfin qw qx qy qz kdiv kopp XRS lift1]. rewrite !xdiv_fin by lra. unfold qfin, qconj. cbn [qw qx qy qz].
  repeat f_equal; field.
Qed.
Lemma eq_pseudoLog_fin out p q : qn2 p = 1 ->
  eq_pseudoLog out (fin (qflat p)) (fin (qflat (qprod p q))) = eq_logarithm out (qfin q).
Proof.
  intros H. unfold eq_pseudoLog. rewrite !quat_read_fin. cbn [bind]. rewrite qinverse_fin, qmul_fin by auto.
  f_equal. f_equal. rewrite <- qprod_assoc, qconj_mul by auto. apply qprod_1l.
Qed.
