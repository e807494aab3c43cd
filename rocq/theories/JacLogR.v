(** The rotation vector of a quaternion and its derivative, over the reals. *)
From Coq Require Import Reals List Lra Lia Arith Psatz Ratan.
From Verif Require Import Base Scalar Vec Model_SO3 XR SpecR RotR NumVec NumExp NumQuat Angle RotLog MatNum Deriv DerivLog.
Import ListNotations.
Local Open Scope R_scope.

(** The rotation vector of the rotation of a quaternion of any length: the angle is twice that of (w, n). *)
Definition qlog (q : quat R) : list R :=
  let n := rnorm (qv q) in rscal (if Req_EM_T n 0 then 0 else 2 * Ratan2 n (qw q) / n) (qv q).

(** It is the inverse of the exponential. *)
Lemma qlog_exp v : length v = 3%nat -> rnorm v < PI -> qlog (expQ v) = v.
Proof.
  intros Lv H. pose proof (rnorm_nonneg v) as P. destruct (vec3_inv v Lv) as (x & y & z & ->). set (t := rnorm [x; y; z]) in *.
  pose proof (rnorm_sq [x; y; z]) as Q. cbn [rdot] in Q. fold t in Q. unfold expQ. fold t. destruct (Req_EM_T t 0) as [Z|Z].
  - assert (x = 0 /\ y = 0 /\ z = 0) as (-> & -> & ->) by (rewrite Z in Q; repeat split; nra). unfold qlog, qv. cbn [qx qy qz rscal map]. rewrite !Rmult_0_r. reflexivity.
  - assert (S0 : 0 < sin (t / 2)) by (apply sin_gt_0; lra). unfold qlog, qv. cbn [qw qx qy qz].
    assert (N : rnorm [sin (t / 2) / t * x; sin (t / 2) / t * y; sin (t / 2) / t * z] = sin (t / 2)).
    { unfold rnorm. cbn [rdot]. replace (_ + _) with (sin (t / 2) / t * (sin (t / 2) / t) * (x * x + (y * y + (z * z + 0)))) by ring. rewrite <- Q. replace (_ * (t * t)) with (sin (t / 2) * sin (t / 2)) by (field; lra). apply sqrt_square; lra. }
    rewrite N. destruct (Req_EM_T (sin (t / 2)) 0); [lra|]. rewrite atan2_trig by lra. cbn [rscal map]. repeat (apply f_equal2; [field; lra|]). reflexivity.
Qed.
(** It does not depend on the length of the quaternion. *)
Lemma qlog_scale k w x y z : 0 < k -> qlog (Q4 (k * w) (k * x) (k * y) (k * z)) = qlog (Q4 w x y z).
Proof.
  intros K. unfold qlog, qv. cbn [qw qx qy qz]. assert (N : rnorm [k * x; k * y; k * z] = k * rnorm [x; y; z]) by (change [k * x; k * y; k * z] with (rscal k [x; y; z]); rewrite rnorm_scal, Rabs_pos_eq by lra; reflexivity).
  rewrite N. set (n := rnorm [x; y; z]) in *. destruct (Req_EM_T n 0) as [Z|Z], (Req_EM_T (k * n) 0) as [Y|Y]; try (exfalso; nra).
  - cbn [rscal map]. rewrite !Rmult_0_l. reflexivity.
  - assert (A : Ratan2 (k * n) (k * w) = Ratan2 n w).
    { unfold Ratan2. assert (Q : w <> 0 -> k * n / (k * w) = n / w) by (intros; field; split; lra).
      destruct (Rlt_dec 0 w), (Rlt_dec 0 (k * w)), (Rlt_dec w 0), (Rlt_dec (k * w) 0), (Rle_dec 0 n), (Rle_dec 0 (k * n)), (Rlt_dec 0 n), (Rlt_dec 0 (k * n)), (Rlt_dec n 0), (Rlt_dec (k * n) 0); try (exfalso; nra); rewrite ?Q by lra; reflexivity. }
    rewrite A. cbn [rscal map]. repeat (apply f_equal2; [field; lra|]). reflexivity.
Qed.

(** The derivative, with s the coefficient of the identity and p the coefficient of e e^T, e being the axis. *)
Definition qlog_jac (q : quat R) : list (list R) :=
  let n := rnorm (qv q) in
  let s := if Req_EM_T n 0 then 2 else 2 * Ratan2 n (qw q) / n in
  let p := if Req_EM_T n 0 then 0 else (2 * qw q - s) / (n * n) in
  let e i j := p * i * j in
  [[-2 * qx q; -2 * qy q; -2 * qz q];
   [s + e (qx q) (qx q); e (qy q) (qx q); e (qz q) (qx q)];
   [e (qx q) (qy q); s + e (qy q) (qy q); e (qz q) (qy q)];
   [e (qx q) (qz q); e (qy q) (qz q); s + e (qz q) (qz q)]].

Lemma qlog_deriv q U : qn2 q = 1 -> 0 < qw q -> deriv_v (fun t => qlog (qline q U t)) 0 (rmv 3 (qlog_jac q) (qflat U)).
Proof.
  intros U1 W. pose proof (qunit_n q U1) as U'. destruct q as [w a b c], U as [uw ua ub uc]. unfold qline, qlog_jac, qlog, qv in *. cbn [qw qx qy qz] in *.
  assert (Dw : derivable_pt_lim (fun t => w + t * uw) 0 uw) by (eapply d_eq; [der|]; cbv beta; ring).
  destruct (stay_pos _ 0 uw Dw) as (d1 & D1 & G1); [cbv beta; lra|].
  pose proof (rnorm_nonneg [a; b; c]) as NN. destruct (Req_EM_T (rnorm [a; b; c]) 0) as [Z|Z].
  - pose proof (rnorm_sq [a; b; c]) as Q. rewrite Z in Q. cbn [rdot] in Q. assert (a = 0 /\ b = 0 /\ c = 0) as (-> & -> & ->) by (repeat split; nra).
    assert (w = 1) as -> by nra. set (k := rnorm [ua; ub; uc]). pose proof (rnorm_nonneg [ua; ub; uc]) as K. fold k in K.
    assert (N : forall t, rnorm [0 + t * ua; 0 + t * ub; 0 + t * uc] = Rabs t * k). { intros t. rewrite !Rplus_0_l. change [t * ua; t * ub; t * uc] with (rscal t [ua; ub; uc]). apply rnorm_scal. }
    destruct (Req_EM_T k 0) as [Zk|Zk].
    + pose proof (rnorm_sq [ua; ub; uc]) as Q2. fold k in Q2. rewrite Zk in Q2. cbn [rdot] in Q2. assert (ua = 0 /\ ub = 0 /\ uc = 0) as (-> & -> & ->) by (repeat split; nra).
      exists [(fun _ => 0); (fun _ => 0); (fun _ => 0)]. split.
      * intros t. rewrite N, Zk, Rmult_0_r. destruct (Req_EM_T 0 0); [|lra]. cbn [rscal map]. rewrite !Rmult_0_l. reflexivity.
      * unfold rmv, qflat. cbn [qw qx qy qz seq map nth rdot]. repeat (apply Forall2_cons || apply Forall2_nil); (eapply d_eq; [apply d_const|ring]).
    + assert (KP : 0 < k) by lra.
      set (F := fun t i => if Req_EM_T (Rabs t * k) 0 then 0 else 2 * Ratan2 (Rabs t * k) (1 + t * uw) / (Rabs t * k) * (0 + t * i)).
      exists [(fun t => F t ua); (fun t => F t ub); (fun t => F t uc)]. split.
      * intros t. rewrite N. cbn [map]. unfold F. destruct (Req_EM_T (Rabs t * k) 0) as [Y|Y]; cbn [rscal map]; rewrite ?Rmult_0_l; reflexivity.
      * assert (D : forall i, derivable_pt_lim (fun t => F t i) 0 (2 * i)).
        { intros i. apply (d_local _ (fun t => 2 / k * i * atan (t * k / (1 + t * uw))) _ _ d1 D1).
          - intros t Ht. specialize (G1 t Ht). unfold F. destruct (Req_EM_T (Rabs t * k) 0) as [Y|Y].
            + assert (Rabs t = 0) by nra. assert (t = 0) as -> by (destruct (Req_dec t 0) as [E|E]; auto; exfalso; apply (Rabs_no_R0 t E); auto). unfold Rdiv. rewrite !Rmult_0_l, atan_0. ring.
            + unfold Ratan2. destruct (Rlt_dec 0 (1 + t * uw)); [|lra]. destruct (Rle_dec 0 t) as [T|T].
              * rewrite Rabs_pos_eq in * by auto. field. split; nra.
              * rewrite Rabs_left in * by lra. replace (- t * k / (1 + t * uw)) with (- (t * k / (1 + t * uw))) by (field; lra). rewrite atan_opp. field. split; [lra|]. intros E. subst t. lra.
          - eapply d_eq; [apply (d_mult (fun _ => 2 / k * i)); [apply d_const|]|].
            + apply (d_comp (fun t => t * k / (1 + t * uw)) atan); [|apply derivable_pt_lim_atan]. apply (d_div (fun t => t * k)); [apply (d_mult (fun t => t)); [apply d_id|apply d_const]|exact Dw|cbv beta; lra].
            + cbv beta. rewrite !Rmult_0_l, Rplus_0_r. replace (0 / 1) with 0 by field. field. lra. }
        unfold rmv, qflat. cbn [qw qx qy qz seq map nth rdot]. repeat (apply Forall2_cons || apply Forall2_nil); (eapply d_eq; [apply D|ring]).
  - assert (Dn : derivable_pt_lim (fun t => rdot [a + t * ua; b + t * ub; c + t * uc] [a + t * ua; b + t * ub; c + t * uc]) 0 (2 * (a * ua + b * ub + c * uc))).
    { cbn [rdot]. eapply d_eq; [der|]. cbv beta. ring. }
    set (N := fun t => rdot [a + t * ua; b + t * ub; c + t * uc] [a + t * ua; b + t * ub; c + t * uc]) in *.
    assert (N0 : N 0 = rdot [a; b; c] [a; b; c]) by (unfold N; cbn [rdot]; ring).
    assert (Hp : 0 < N 0) by (rewrite N0, <- rnorm_sq; nra).
    destruct (stay_pos _ 0 _ Dn Hp) as (d2 & D2 & G2).
    set (n := fun t => sqrt (N t)). assert (n0 : n 0 = rnorm [a; b; c]) by (unfold n; rewrite N0; reflexivity).
    set (f := fun t => 2 * Ratan2 (n t) (w + t * uw) / n t).
    assert (Hn : 0 < n 0) by (rewrite n0; lra).
    assert (Dn' : derivable_pt_lim n 0 ((a * ua + b * ub + c * uc) / n 0)). { eapply d_eq; [apply d_sqrt; [exact Dn|exact Hp]|]. fold (n 0). field. lra. }
    assert (U2 : n 0 * n 0 + w * w = 1) by (rewrite n0; exact U').
    assert (Df : derivable_pt_lim f 0 (-2 * uw + (2 * w - f 0) / (n 0 * n 0) * (a * ua + b * ub + c * uc))).
    { eapply d_eq.
      - unfold f. apply (d_div (fun t => 2 * Ratan2 (n t) (w + t * uw)) n); [|exact Dn'|lra]. apply (d_mult (fun _ => 2)); [apply d_const|].
        apply (d_atan2 n (fun t => w + t * uw)); [exact Dn'|exact Dw|lra].
      - cbv beta. unfold f. rewrite !Rmult_0_l, !Rplus_0_r, Rplus_0_l. set (th := Ratan2 (n 0) w). rewrite U2. set (k := a * ua + b * ub + c * uc). field. lra. }
    exists [(fun t => (if Req_EM_T (n t) 0 then 0 else f t) * (a + t * ua)); (fun t => (if Req_EM_T (n t) 0 then 0 else f t) * (b + t * ub)); (fun t => (if Req_EM_T (n t) 0 then 0 else f t) * (c + t * uc))]. split; [reflexivity|].
    assert (Q : forall p v, derivable_pt_lim (fun t => (if Req_EM_T (n t) 0 then 0 else f t) * (p + t * v)) 0 ((-2 * uw + (2 * w - f 0) / (n 0 * n 0) * (a * ua + b * ub + c * uc)) * p + f 0 * v)).
    { intros. apply (d_local _ (fun t => f t * (p + t * v)) _ _ d2 D2).
      - intros t Ht. specialize (G2 t Ht). destruct (Req_EM_T (n t) 0) as [Y|Y]; [|reflexivity]. assert (0 < n t) by (apply sqrt_lt_R0; exact G2). lra.
      - eapply d_eq; [apply (d_mult f (fun t => p + t * v)); [exact Df|der]|]. cbv beta. ring. }
    assert (F0 : f 0 = 2 * Ratan2 (n 0) w / n 0) by (unfold f; rewrite Rmult_0_l, Rplus_0_r; reflexivity).
    rewrite <- n0, <- F0. unfold rmv, qflat. cbn [qw qx qy qz seq map nth rdot].
    repeat (apply Forall2_cons || apply Forall2_nil); (eapply d_eq; [apply Q|field; lra]).
Qed.
