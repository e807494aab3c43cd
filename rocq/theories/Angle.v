(** atan2, acos and half-angle facts. *)
From Coq Require Import Reals Lra Psatz.
From Verif Require Import XR.
Local Open Scope R_scope.

Lemma angle_unique a b : - PI < a <= PI -> - PI < b <= PI -> cos a = cos b -> sin a = sin b -> a = b.
Proof.
  intros Ha Hb Hc Hs.
  assert (C1 : cos (a - b) = 1).
  { rewrite cos_minus, Hc, Hs. pose proof (sin2_cos2 b) as H. unfold Rsqr in H. lra. }
  replace (a - b) with (2 * ((a - b) / 2)) in C1 by field. rewrite cos_2a_sin in C1.
  assert (S0 : sin ((a - b) / 2) = 0) by nra.
  destruct (Rtotal_order ((a - b) / 2) 0) as [H|[H|H]]; [|lra|].
  - pose proof (sin_gt_0 (- ((a - b) / 2))) as P. rewrite sin_neg in P. lra.
  - pose proof (sin_gt_0 ((a - b) / 2)) as P. lra.
Qed.

Lemma atan2_spec y x : x * x + y * y = 1 ->
  cos (Ratan2 y x) = x /\ sin (Ratan2 y x) = y /\ - PI < Ratan2 y x <= PI.
Proof.
  intros H. pose proof PI_RGT_0 as HP.
  assert (Q : forall u, u <> 0 -> u = x -> sqrt (1 + (y / x)²) = / Rabs x).
  { intros u Hu ->. replace (1 + (y / x)²) with ((/ Rabs x)²).
    - apply sqrt_Rsqr. left. apply Rinv_0_lt_compat. apply Rabs_pos_lt. auto.
    - rewrite Rsqr_inv' , <- Rsqr_abs. unfold Rsqr. field_simplify; auto.
      replace (x ^ 2 + y ^ 2) with 1 by (simpl; lra). reflexivity. }
  unfold Ratan2.
  destruct (Rlt_dec 0 x) as [Hx|Hx].
  - pose proof (atan_bound (y / x)). rewrite cos_atan, sin_atan, (Q x) by lra.
    rewrite Rabs_right by lra. repeat split; try lra; field; lra.
  - destruct (Rlt_dec x 0) as [Hx'|Hx'].
    + pose proof (atan_bound (y / x)) as HB.
      assert (E1 : cos (atan (y / x)) = - x). { rewrite cos_atan, (Q x) by lra. rewrite Rabs_left by lra. field. lra. }
      assert (E2 : sin (atan (y / x)) = - y). { rewrite sin_atan, (Q x) by lra. rewrite Rabs_left by lra. field. lra. }
      destruct (Rle_dec 0 y) as [Hy|Hy].
      * rewrite neg_cos, neg_sin, E1, E2. repeat split; try lra.
        destruct (Rle_dec (atan (y / x)) 0); [lra|]. exfalso.
        assert (0 < sin (atan (y / x))) by (apply sin_gt_0; lra). lra.
      * rewrite cos_minus, sin_minus, cos_PI, sin_PI, E1, E2. repeat split; try lra.
        destruct (Rlt_dec 0 (atan (y / x))); [lra|]. exfalso.
        destruct (Req_dec (atan (y / x)) 0) as [Z|Z].
        -- rewrite Z, sin_0 in E2. lra.
        -- assert (0 < sin (- atan (y / x))) by (apply sin_gt_0; lra). rewrite sin_neg in H0. lra.
    + assert (x = 0) by lra. subst x.
      destruct (Rlt_dec 0 y).
      * assert (y = 1) by nra. subst. rewrite cos_PI2, sin_PI2. lra.
      * destruct (Rlt_dec y 0); [|exfalso; nra].
        assert (y = -1) by nra. subst. rewrite cos_neg, sin_neg, cos_PI2, sin_PI2. lra.
Qed.

Lemma atan2_trig t : - PI < t <= PI -> Ratan2 (sin t) (cos t) = t.
Proof.
  intros H. pose proof (sin2_cos2 t) as E. unfold Rsqr in E.
  destruct (atan2_spec (sin t) (cos t)) as (Hc & Hs & Hb); [lra|]. apply angle_unique; auto.
Qed.

(** Half angle of [Ratan2 (2 n w) (w^2 - n^2)], the expression in ExpMapQuaternion::logarithm. *)
Lemma half_angle n w : n * n + w * w = 1 -> 0 <= n -> w <> 0 ->
  let t := Ratan2 (2 * n * w) (w * w - n * n) in
  cos (t / 2) = Rabs w /\ sin (t / 2) = (if Rlt_dec 0 w then n else - n) /\ - PI < t < PI.
Proof.
  intros H Hn Hw t.
  assert (E : (w * w - n * n) * (w * w - n * n) + (2 * n * w) * (2 * n * w) = 1).
  { replace (_ + _) with ((n * n + w * w) * (n * n + w * w)) by ring. rewrite H. ring. }
  destruct (atan2_spec _ _ E) as (Hc & Hs & Hb). fold t in Hc, Hs, Hb.
  assert (Ht : t <> PI).
  { intros Z. rewrite Z, cos_PI in Hc. assert (w * w = 0) by nra. nra. }
  assert (C : 0 < cos (t / 2)) by (apply cos_gt_0; lra).
  pose proof (cos_2a_cos (t / 2)) as D. replace (2 * (t / 2)) with t in D by field. rewrite Hc in D.
  assert (Cw : cos (t / 2) = Rabs w).
  { apply Rsqr_inj; [lra|apply Rabs_pos|]. rewrite <- Rsqr_abs. unfold Rsqr. nra. }
  split; auto. split; [|lra].
  pose proof (sin_2a (t / 2)) as S. replace (2 * (t / 2)) with t in S by field. rewrite Hs, Cw in S.
  destruct (Rlt_dec 0 w).
  - rewrite Rabs_right in S by lra. nra.
  - rewrite Rabs_left in S by lra. nra.
Qed.
