(** diffPseudoLog0 is the derivative of pseudoLog0 off the switches: leaves. *)
From Coq Require Import Reals List Lra Lia ZArith Bool Arith.
From Verif Require Import Base Scalar Vec Model_Real Model_S2 Model_SO3 Model_Manifold Spec Layout Comp Flat BlockMat MatOps MatProd MatTan
  XR SpecR RotR NumVec NumMat NumQuat Angle NumTree NumLeaf NumS2 RoundTrip MatNum JacApply Deriv DerivRetr.
Import ListNotations.
Local Open Scope R_scope.

(** A differentiable function positive at [x] is positive near [x]. *)
Lemma stay_pos f x a : derivable_pt_lim f x a -> 0 < f x -> exists d, 0 < d /\ forall t, Rabs (t - x) < d -> 0 < f t.
Proof.
  intros H P. assert (C : continuity_pt f x) by (apply derivable_continuous_pt; exists a; exact H).
  destruct (C (f x) P) as (d & Hd & G). exists d. split; [exact Hd|]. intros t Ht. destruct (Req_dec t x) as [->|N]; auto.
  assert (Q : R_dist (f t) (f x) < f x).
  { apply (G t). split; [split; [exact I|auto]|]. unfold dist; cbn. unfold R_dist. exact Ht. }
  unfold R_dist in Q. apply Rabs_def2 in Q. lra.
Qed.
Lemma d_acos f x a : derivable_pt_lim f x a -> -1 < f x < 1 -> derivable_pt_lim (fun t => acos (f t)) x (-1 / sqrt (1 - f x * f x) * a).
Proof.
  intros H R. apply (d_comp f acos); auto. pose proof (derive_pt_acos (f x) R) as E. unfold Rsqr in E. rewrite <- E. apply derive_pt_eq_1 with (derivable_pt_acos (f x) R). reflexivity.
Qed.
Lemma atan2_off y x : y <> 0 -> Ratan2 y x = (if Rlt_dec 0 y then PI / 2 else - (PI / 2)) - atan (x / y).
Proof.
  intros Hy.
  assert (P : forall a b, 0 < a -> 0 < b -> atan (a / b) = PI / 2 - atan (b / a)).
  { intros a b Ha Hb. replace (a / b) with (/ (b / a)) by (field; lra). apply atan_inv. apply Rdiv_lt_0_compat; auto. }
  unfold Ratan2. destruct (Rlt_dec 0 x) as [X|X].
  - destruct (Rlt_dec 0 y) as [Y|Y]; [apply P; auto|].
    replace (y / x) with (- ((- y) / x)) by (field; lra). rewrite atan_opp, P by lra. replace (x / y) with (- (x / - y)) by (field; lra). rewrite atan_opp. ring.
  - destruct (Rlt_dec x 0) as [X'|X'].
    + destruct (Rle_dec 0 y) as [Y|Y].
      * destruct (Rlt_dec 0 y); [|lra]. replace (y / x) with (- (y / - x)) by (field; lra). rewrite atan_opp, P by lra.
        replace (x / y) with (- (- x / y)) by (field; lra). rewrite atan_opp. lra.
      * destruct (Rlt_dec 0 y); [lra|]. replace (y / x) with (- y / - x) by (field; lra). rewrite P by lra. replace (- x / - y) with (x / y) by (field; lra). lra.
    + assert (x = 0) by lra. subst x. replace (0 / y) with 0 by (field; auto). rewrite atan_0, Rminus_0_r. destruct (Rlt_dec 0 y); [reflexivity|]. destruct (Rlt_dec y 0); [reflexivity|lra].
Qed.
Lemma d_atan2 f g x a b : derivable_pt_lim f x a -> derivable_pt_lim g x b -> f x <> 0 ->
  derivable_pt_lim (fun t => Ratan2 (f t) (g t)) x ((a * g x - b * f x) / (f x * f x + g x * g x)).
Proof.
  intros Hf Hg N.
  assert (S : exists d, 0 < d /\ forall t, Rabs (t - x) < d -> 0 < f t * f x).
  { apply (stay_pos (fun t => f t * f x) x (a * f x + f x * 0)); [apply (d_mult f (fun _ => f x)); auto; apply d_const|]. nra. }
  destruct S as (d & Hd & S).
  eapply (d_local _ (fun t => (if Rlt_dec 0 (f x) then PI / 2 else - (PI / 2)) - atan (g t / f t)) _ _ d Hd).
  - intros t Ht. specialize (S t Ht). rewrite atan2_off by nra. destruct (Rlt_dec 0 (f x)), (Rlt_dec 0 (f t)); auto; nra.
  - eapply d_eq; [apply d_minus; [apply d_const|]; apply (d_comp (fun t => g t / f t) atan); [apply d_div; eauto|apply derivable_pt_lim_atan]|].
    cbv beta. field. split; auto. nra.
Qed.

(** ** Matrix map *)
(** Off the switches of logarithm and diffPseudoLog0: main branches, trace inside ]-1, 3[. *)
Definition regular_mat (A : m3 R) : Prop :=
  1 / 100000000 < rnorm [- a12 A; a02 A; - a01 A] /\ -1 < (tr3 A - 1) / 2 < 1 /\
  1 / 10000000000 <= rdot [(a21 A - a12 A) / 2; (a02 A - a20 A) / 2; (a10 A - a01 A) / 2]
                          [(a21 A - a12 A) / 2; (a02 A - a20 A) / 2; (a10 A - a01 A) / 2].
Definition acoef (c : R) : R := acos c / sqrt (1 - c * c).
Definition jac0_gen (df : R) (A : m3 R) : list (list R) :=
  let hf := acoef ((tr3 A - 1) / 2) / 2 in
  let c0 := [df * ((a21 A - a12 A) / 2); df * ((a02 A - a20 A) / 2); df * ((a10 A - a01 A) / 2)] in
  [c0; [0; 0; hf]; [0; - hf; 0]; [0; 0; - hf]; c0; [hf; 0; 0]; [0; hf; 0]; [- hf; 0; 0]; c0].
Definition true_df (A : m3 R) : R :=
  let c := (tr3 A - 1) / 2 in (c * acoef c - 1) / (2 * (1 - c * c)).
Definition jac0_mat (A : m3 R) : list (list R) := jac0_gen (true_df A) A.

Lemma sinc_acos c : -1 < c < 1 -> xdiv (Fin 1) (sinc_pi (xacos (Fin c))) = Fin (acoef c).
Proof.
  intros H. rewrite xacos_fin by lra. pose proof (acos_bound_lt c H) as B. unfold sinc_pi. cbn [keqb k0 XRS xeqb].
  unfold Reqb. destruct (Req_EM_T (acos c) 0) as [E|E]; [lra|]. cbn [ksin kdiv XRS lift1]. rewrite xdiv_fin by lra.
  assert (S : sin (acos c) = sqrt (1 - c * c)) by (rewrite sin_acos by lra; reflexivity).
  assert (P : 0 < sin (acos c)) by (apply sin_gt_0; lra).
  rewrite xdiv_fin. 2: { apply Rgt_not_eq. apply Rdiv_lt_0_compat; lra. }
  f_equal. unfold acoef. rewrite <- S. field. split; lra.
Qed.
Lemma jac0_mat_eq A : regular_mat A -> em_diffPseudoLog0 (fin (flat9 A)) = Ok (matR 3 (jac0_mat A)).
Proof.
  intros (H1 & H2 & H3). destruct A as [m00 m01 m02 m10 m11 m12 m20 m21 m22]. unfold tr3 in H2. cbn [a00 a01 a02 a10 a11 a12 a20 a21 a22] in *.
  unfold flat9. cbn [fin map a00 a01 a02 a10 a11 a12 a20 a21 a22]. unfold em_diffPseudoLog0.
  cbn [klit k1 k0 kmul kadd ksub kdiv kacos kopp XRS]. cbn [xsub xadd lift1 lift2].
  assert (T2 : IZR 2 / IZR 1 = 2) by field. rewrite T2. rewrite !xdiv_fin by lra. cbn [xsub lift2].
  set (c := (m00 + m11 + m22 - 1) / 2) in *. rewrite !sinc_acos by auto. rewrite xdiv_fin by lra.
  change (sqnorm [Fin ((m21 - m12) / 2); Fin ((m02 - m20) / 2); Fin ((m10 - m01) / 2)]) with (sqnorm (fin [(m21 - m12) / 2; (m02 - m20) / 2; (m10 - m01) / 2])).
  rewrite sqnorm_fin. cbn [kltb XRS xltb].
  match goal with |- context [Rltb ?a ?b] => assert (E : Rltb a b = false) end.
  { apply Rltb_false. lra. }
  rewrite E. cbn [lift1 lift2 xsub]. assert (S2 : 0 < 1 - c * c) by nra. rewrite xdiv_fin by lra. cbn [lift2]. reflexivity.
Qed.

Definition m3line (A U : m3 R) (t : R) : m3 R :=
  M3 (a00 A + t * a00 U) (a01 A + t * a01 U) (a02 A + t * a02 U) (a10 A + t * a10 U) (a11 A + t * a11 U) (a12 A + t * a12 U)
     (a20 A + t * a20 U) (a21 A + t * a21 U) (a22 A + t * a22 U).
Lemma flat9_line A U t : radd (flat9 A) (rscal t (flat9 U)) = flat9 (m3line A U t).
Proof. destruct A, U. reflexivity. Qed.
Lemma flat9_inv (x : list R) : length x = 9%nat -> exists A, x = flat9 A.
Proof.
  intros L. do 9 (destruct x as [|? x]; [discriminate|]). destruct x; [|discriminate].
  match goal with |- exists A, [?x0; ?x1; ?x2; ?x3; ?x4; ?x5; ?x6; ?x7; ?x8] = _ => exists (M3 x0 x3 x6 x1 x4 x7 x2 x5 x8) end. reflexivity.
Qed.
Lemma rnorm_gt k v : 0 <= k -> (k < rnorm v <-> k * k < rdot v v).
Proof.
  intros Hk. rewrite <- (rnorm_sq v). pose proof (rnorm_nonneg v). split; intros; nra.
Qed.

Definition log_curve (A : m3 R) : list R :=
  let k := acoef ((tr3 A - 1) / 2) / 2 in [(a21 A - a12 A) * k; (a02 A - a20 A) * k; (a10 A - a01 A) * k].
Lemma log_curve_eq o A : length o = 3%nat -> eps8 < rnorm [- a12 A; a02 A; - a01 A] -> -1 < (tr3 A - 1) / 2 < 1 ->
  em_logarithm o (m3fin A) = Ok (fin (log_curve A)).
Proof.
  intros Lo H1 H2. rewrite (em_logarithm_main o A (acos ((tr3 A - 1) / 2))); auto.
  - assert (P : 0 < sin (acos ((tr3 A - 1) / 2))) by (pose proof (acos_bound_lt _ H2); apply sin_gt_0; lra).
    do 2 f_equal. unfold log_curve, acoef. set (c := (tr3 A - 1) / 2) in *. replace (sqrt (1 - c * c)) with (sin (acos c)) by (rewrite sin_acos by lra; reflexivity).
    repeat (apply f_equal2; [field; lra|]). reflexivity.
  - unfold upper. lra.
  - rewrite cos_acos by lra. reflexivity.
  - apply acos_bound_lt. auto.
Qed.
Lemma d_acoef f x a : derivable_pt_lim f x a -> -1 < f x < 1 ->
  derivable_pt_lim (fun t => acoef (f t)) x ((f x * acoef (f x) - 1) / (1 - f x * f x) * a).
Proof.
  intros H R. assert (P : 0 < 1 - f x * f x) by nra. assert (S : 0 < sqrt (1 - f x * f x)) by (apply sqrt_lt_R0; auto).
  unfold acoef. eapply d_eq.
  - apply (d_div (fun t => acos (f t)) (fun t => sqrt (1 - f t * f t))); [apply d_acos; eauto|apply (d_sqrt (fun t => 1 - f t * f t)); [|auto]|lra].
    apply (d_minus (fun _ => 1) (fun t => f t * f t)); [apply d_const|apply (d_mult f f); eauto].
  - cbv beta. assert (Q : sqrt (1 - f x * f x) * sqrt (1 - f x * f x) = 1 - f x * f x) by (apply sqrt_sqrt; lra).
    set (s := sqrt (1 - f x * f x)) in *. rewrite <- Q. field. lra.
Qed.

Lemma mat_curve A U : eps8 < rnorm [- a12 A; a02 A; - a01 A] -> -1 < (tr3 A - 1) / 2 < 1 -> exists d, 0 < d /\
  (forall t, Rabs t < d -> eps8 < rnorm [- a12 (m3line A U t); a02 (m3line A U t); - a01 (m3line A U t)] /\ -1 < (tr3 (m3line A U t) - 1) / 2 < 1) /\
  deriv_v (fun t => log_curve (m3line A U t)) 0 (rmv 3 (jac0_mat A) (flat9 U)).
Proof.
  intros H1 H2. apply rnorm_gt in H1; [|lra].
  destruct A as [m00 m01 m02 m10 m11 m12 m20 m21 m22], U as [u00 u01 u02 u10 u11 u12 u20 u21 u22].
  unfold m3line, tr3 in *. cbn [a00 a01 a02 a10 a11 a12 a20 a21 a22] in *.
  set (g := fun t => rdot [- (m12 + t * u12); m02 + t * u02; - (m01 + t * u01)] [- (m12 + t * u12); m02 + t * u02; - (m01 + t * u01)] - eps8 * eps8).
  set (c := fun t => (m00 + t * u00 + (m11 + t * u11) + (m22 + t * u22) - 1) / 2).
  assert (C0 : c 0 = (m00 + m11 + m22 - 1) / 2) by (unfold c; field).
  assert (Dc : derivable_pt_lim c 0 ((u00 + u11 + u22) / 2)) by (unfold c; eapply d_eq; [der|]; cbv beta; field).
  assert (exists d, 0 < d /\ forall t, Rabs (t - 0) < d -> 0 < g t) as (d1 & D1 & G1).
  { eapply stay_pos; [unfold g; cbn [rdot]; der|]. unfold g. cbn [rdot] in *. lra. }
  assert (exists d, 0 < d /\ forall t, Rabs (t - 0) < d -> 0 < 1 - c t * c t) as (d2 & D2 & G2).
  { eapply (stay_pos (fun t => 1 - c t * c t)); [apply (d_minus (fun _ => 1) (fun t => c t * c t)); [apply d_const|apply (d_mult c c); eauto]|].
    cbv beta. rewrite C0. nra. }
  exists (Rmin d1 d2). split; [apply Rmin_glb_lt; auto|]. split.
  - intros t Ht. pose proof (Rmin_l d1 d2). pose proof (Rmin_r d1 d2). split.
    + apply rnorm_gt; [lra|]. specialize (G1 t ltac:(rewrite Rminus_0_r; lra)). unfold g in G1. lra.
    + specialize (G2 t ltac:(rewrite Rminus_0_r; lra)). fold (c t). nra.
  - unfold log_curve, flat9, jac0_mat, jac0_gen, true_df, tr3, rmv. cbn [a00 a01 a02 a10 a11 a12 a20 a21 a22 seq map nth rdot]. cbv zeta.
    change (deriv_v (fun t => [(m21 + t * u21 - (m12 + t * u12)) * (acoef (c t) / 2); (m02 + t * u02 - (m20 + t * u20)) * (acoef (c t) / 2); (m10 + t * u10 - (m01 + t * u01)) * (acoef (c t) / 2)]) 0
      (rmv 3 (jac0_mat (M3 m00 m01 m02 m10 m11 m12 m20 m21 m22)) (flat9 (M3 u00 u01 u02 u10 u11 u12 u20 u21 u22)))).
    unfold flat9, jac0_mat, jac0_gen, true_df, tr3, rmv. cbn [a00 a01 a02 a10 a11 a12 a20 a21 a22 seq map nth rdot]. cbv zeta. rewrite <- C0. rewrite <- C0 in H2.
    assert (Da := d_acoef c 0 _ Dc H2). assert (P : 1 - c 0 * c 0 <> 0) by nra.
    exists [(fun t => (m21 + t * u21 - (m12 + t * u12)) * (acoef (c t) / 2)); (fun t => (m02 + t * u02 - (m20 + t * u20)) * (acoef (c t) / 2)); (fun t => (m10 + t * u10 - (m01 + t * u01)) * (acoef (c t) / 2))].
    split; [reflexivity|].
    assert (Q : forall p q u v, derivable_pt_lim (fun t => (p + t * u - (q + t * v)) * (acoef (c t) / 2)) 0
      ((u - v) * (acoef (c 0) / 2) + (p - q) * ((c 0 * acoef (c 0) - 1) / (1 - c 0 * c 0) * ((u00 + u11 + u22) / 2) / 2))).
    { intros. eapply d_eq; [apply (d_mult (fun t => p + t * u - (q + t * v)) (fun t => acoef (c t) / 2)); [der|unfold Rdiv; apply (d_mult (fun t => acoef (c t)) (fun _ => / 2)); [exact Da|apply d_const]]|].
      cbv beta. field. auto. }
    repeat (apply Forall2_cons || apply Forall2_nil); (eapply d_eq; [apply Q|field; auto]).
Qed.

(** ** Quaternion map *)
(** Off the switch of logarithm and off the half turns. *)
Definition regular_quat (q : quat R) : Prop := qn2 q = 1 /\ qw q <> 0 /\ rnorm (qv q) <> eps8.
Definition jac0_quat (q : quat R) : list (list R) :=
  let n := rnorm (qv q) in
  if Rltb n eps8
  then [[-2 / (qw q * qw q) * qx q; -2 / (qw q * qw q) * qy q; -2 / (qw q * qw q) * qz q];
        [2 / qw q; 0; 0]; [0; 2 / qw q; 0]; [0; 0; 2 / qw q]]
  else let f := Ratan2 (2 * n * qw q) (qw q * qw q - n * n) / n in
       let g := (2 * qw q - f) / (n * n) in
       [[-2 * qx q; -2 * qy q; -2 * qz q];
        [f * 1 + g * qx q * qx q; f * 0 + g * qy q * qx q; f * 0 + g * qz q * qx q];
        [f * 0 + g * qx q * qy q; f * 1 + g * qy q * qy q; f * 0 + g * qz q * qy q];
        [f * 0 + g * qx q * qz q; f * 0 + g * qy q * qz q; f * 1 + g * qz q * qz q]].
Lemma jac0_quat_eq q : qw q <> 0 -> eq_diffPseudoLog0 (fin (qflat q)) = Ok (matR 3 (jac0_quat q)).
Proof.
  intros Hw. unfold eq_diffPseudoLog0. rewrite quat_read_fin. cbn [bind]. rewrite qvec_fin, sqnorm_fin. cbn [ksqrt XRS].
  rewrite xsqrt_fin by apply rdot_self_nonneg. change (sqrt (rdot [qx q; qy q; qz q] [qx q; qy q; qz q])) with (rnorm (qv q)).
  unfold map_prec. cbn [klit kltb keqb XRS xltb xeqb qw qfin k0]. unfold jac0_quat. change (IZR 1 / IZR 100000000) with eps8.
  apply Reqb_false in Hw as Hw'. rewrite Hw'. cbn [negb]. rewrite andb_true_r. destruct (Rltb (rnorm (qv q)) eps8) eqn:E.
  - cbn [kdiv kmul kopp qx qy qz qfin XRS lift1 lift2]. rewrite !xdiv_fin by nra. cbn [lift2]. replace (- (2 / 1)) with (-2) by field. replace (2 / 1) with 2 by field. reflexivity.
  - assert (N : rnorm (qv q) <> 0) by (apply Rltb_false in E; lra).
    cbn [kdiv kmul ksub kopp kadd katan2 XRS lift1 lift2 xsub]. rewrite xdiv_fin by auto. cbn [lift2 xsub].
    replace (2 / 1) with 2 by field. change [qx q; qy q; qz q] with (qv q). rewrite <- (rnorm_sq (qv q)).
    rewrite xdiv_fin by nra. cbn [lift2 xsub]. rewrite vscale_fin. reflexivity.
Qed.
Definition qline (q u : quat R) (t : R) : quat R := Q4 (qw q + t * qw u) (qx q + t * qx u) (qy q + t * qy u) (qz q + t * qz u).
Lemma qflat_line q u t : radd (qflat q) (rscal t (qflat u)) = qflat (qline q u t).
Proof. destruct q, u. reflexivity. Qed.
Lemma qflat_inv (x : list R) : length x = 4%nat -> exists q, x = qflat q.
Proof.
  intros L. do 4 (destruct x as [|? x]; [discriminate|]). destruct x; [|discriminate].
  match goal with |- exists A, [?x0; ?x1; ?x2; ?x3] = _ => exists (Q4 x0 x1 x2 x3) end. reflexivity.
Qed.

Lemma quat_curve q u : regular_quat q -> exists y d, 0 < d /\
  (forall t, Rabs t < d -> forall o, length o = 3%nat -> eq_logarithm o (qfin (qline q u t)) = Ok (fin (y t))) /\
  deriv_v y 0 (rmv 3 (jac0_quat q) (qflat u)).
Proof.
  intros (U & W & S). pose proof (qunit_n q U) as U'. destruct q as [w a b c], u as [uw ua ub uc]. unfold qline, qv in *. cbn [qw qx qy qz] in *.
  assert (Dn : derivable_pt_lim (fun t => rdot [a + t * ua; b + t * ub; c + t * uc] [a + t * ua; b + t * ub; c + t * uc]) 0 (2 * (a * ua + b * ub + c * uc))).
  { cbn [rdot]. eapply d_eq; [der|]. cbv beta. ring. }
  set (N := fun t => rdot [a + t * ua; b + t * ub; c + t * uc] [a + t * ua; b + t * ub; c + t * uc]) in *.
  assert (N0 : N 0 = rdot [a; b; c] [a; b; c]) by (unfold N; cbn [rdot]; ring).
  assert (Dw : derivable_pt_lim (fun t => w + t * uw) 0 uw) by (eapply d_eq; [der|]; cbv beta; ring).
  assert (exists d, 0 < d /\ forall t, Rabs (t - 0) < d -> 0 < (w + t * uw) * (w + t * uw)) as (d1 & D1 & G1).
  { eapply (stay_pos (fun t => (w + t * uw) * (w + t * uw))); [apply (d_mult (fun t => w + t * uw) (fun t => w + t * uw)); eauto|]. cbv beta. nra. }
  pose proof (rnorm_nonneg [a; b; c]) as NN.
  destruct (Rlt_dec (rnorm [a; b; c]) eps8) as [L|L].
  - assert (L2 : rdot [a; b; c] [a; b; c] < eps8 * eps8) by (rewrite <- rnorm_sq; nra).
    assert (exists d, 0 < d /\ forall t, Rabs (t - 0) < d -> 0 < eps8 * eps8 - N t) as (d2 & D2 & G2).
    { eapply (stay_pos (fun t => eps8 * eps8 - N t)); [apply d_minus; [apply d_const|exact Dn]|]. cbv beta. lra. }
    exists (fun t => [2 / (w + t * uw) * (a + t * ua); 2 / (w + t * uw) * (b + t * ub); 2 / (w + t * uw) * (c + t * uc)]), (Rmin d1 d2).
    split; [apply Rmin_glb_lt; auto|]. split.
    + intros t Ht o Lo. pose proof (Rmin_l d1 d2). pose proof (Rmin_r d1 d2).
      specialize (G1 t ltac:(rewrite Rminus_0_r; lra)). specialize (G2 t ltac:(rewrite Rminus_0_r; lra)).
      apply eq_logarithm_small; auto.
      * unfold qv; cbn [qx qy qz]. apply Rnot_le_lt. intros C. unfold N in G2. rewrite <- rnorm_sq in G2. nra.
      * cbn [qw]. nra.
    + unfold jac0_quat, qv. cbn [qw qx qy qz]. apply Rltb_true in L. rewrite L. unfold qflat, rmv. cbn [qw qx qy qz seq map nth rdot].
      exists [(fun t => 2 / (w + t * uw) * (a + t * ua)); (fun t => 2 / (w + t * uw) * (b + t * ub)); (fun t => 2 / (w + t * uw) * (c + t * uc))].
      split; [reflexivity|].
      assert (Q : forall p v, derivable_pt_lim (fun t => 2 / (w + t * uw) * (p + t * v)) 0 (-2 / (w * w) * p * uw + 2 / w * v)).
      { intros. eapply d_eq; [apply (d_mult (fun t => 2 / (w + t * uw)) (fun t => p + t * v)); [apply (d_div (fun _ => 2)); [apply d_const|exact Dw|]|der]|]; cbv beta; [lra|]. rewrite ?Rmult_0_l, ?Rplus_0_r. field; auto. }
      repeat (apply Forall2_cons || apply Forall2_nil); (eapply d_eq; [apply Q|field; auto]).
  - assert (L2 : eps8 * eps8 < rdot [a; b; c] [a; b; c]) by (rewrite <- rnorm_sq; nra).
    assert (exists d, 0 < d /\ forall t, Rabs (t - 0) < d -> 0 < N t - eps8 * eps8) as (d2 & D2 & G2).
    { eapply (stay_pos (fun t => N t - eps8 * eps8)); [apply d_minus; [exact Dn|apply d_const]|]. cbv beta. lra. }
    set (n := fun t => sqrt (N t)).
    assert (n0 : n 0 = rnorm [a; b; c]) by (unfold n; rewrite N0; reflexivity).
    set (f := fun t => Ratan2 (2 * n t * (w + t * uw)) ((w + t * uw) * (w + t * uw) - n t * n t) / n t).
    exists (fun t => [f t * (a + t * ua); f t * (b + t * ub); f t * (c + t * uc)]), (Rmin d1 d2).
    split; [apply Rmin_glb_lt; auto|]. split.
    + intros t Ht o Lo. pose proof (Rmin_l d1 d2). pose proof (Rmin_r d1 d2).
      specialize (G1 t ltac:(rewrite Rminus_0_r; lra)). specialize (G2 t ltac:(rewrite Rminus_0_r; lra)).
      assert (E : eps8 < rnorm (qv (Q4 (w + t * uw) (a + t * ua) (b + t * ub) (c + t * uc)))).
      { apply rnorm_gt; [lra|]. unfold qv; cbn [qx qy qz]. unfold N in G2. lra. }
      rewrite (eq_logarithm_main o); [reflexivity|auto|lra|lra].
    + assert (Hn : 0 < n 0) by (rewrite n0; lra).
      assert (Dn' : derivable_pt_lim n 0 ((a * ua + b * ub + c * uc) / n 0)).
      { eapply d_eq; [apply d_sqrt; [exact Dn|]|]; [lra|]. fold (n 0). field. lra. }
      assert (U2 : n 0 * n 0 + w * w = 1) by (rewrite n0; exact U').
      assert (Df : derivable_pt_lim f 0 (-2 * uw + (2 * w - f 0) / (n 0 * n 0) * (a * ua + b * ub + c * uc))).
      { eapply d_eq.
        - unfold f. apply (d_div (fun t => Ratan2 (2 * n t * (w + t * uw)) ((w + t * uw) * (w + t * uw) - n t * n t)) n); [|exact Dn'|lra].
          apply (d_atan2 (fun t => 2 * n t * (w + t * uw)) (fun t => (w + t * uw) * (w + t * uw) - n t * n t)).
          + apply (d_mult (fun t => 2 * n t) (fun t => w + t * uw)); [apply (d_mult (fun _ => 2) n); [apply d_const|exact Dn']|exact Dw].
          + apply d_minus; [apply (d_mult (fun t => w + t * uw) (fun t => w + t * uw)); exact Dw|apply (d_mult n n); exact Dn'].
          + cbv beta. rewrite Rmult_0_l, Rplus_0_r. intros Z. apply Rmult_integral in Z. destruct Z; lra.
        - cbv beta. unfold f. rewrite !Rmult_0_l, !Rplus_0_r.
          set (th := Ratan2 (2 * n 0 * w) (w * w - n 0 * n 0)).
          assert (ONE : 2 * n 0 * w * (2 * n 0 * w) + (w * w - n 0 * n 0) * (w * w - n 0 * n 0) = 1).
          { transitivity ((n 0 * n 0 + w * w) * (n 0 * n 0 + w * w)); [ring|]. rewrite U2. ring. }
          rewrite ONE. set (k := a * ua + b * ub + c * uc).
          match goal with |- ((?x / 1) * _ - _) / _ = _ => assert (X : x = 2 * w * (k / n 0) - 2 * n 0 * uw) end.
          { transitivity ((n 0 * n 0 + w * w) * (2 * w * (k / n 0) - 2 * n 0 * uw)); [field; lra|]. rewrite U2. ring. }
          rewrite X. field. lra. }
      unfold jac0_quat, qv. cbn [qw qx qy qz]. assert (E : Rltb (rnorm [a; b; c]) eps8 = false) by (apply Rltb_false; lra). rewrite E.
      assert (F0 : f 0 = Ratan2 (2 * rnorm [a; b; c] * w) (w * w - rnorm [a; b; c] * rnorm [a; b; c]) / rnorm [a; b; c]).
      { unfold f. rewrite n0, Rmult_0_l, Rplus_0_r. reflexivity. }
      rewrite <- F0, <- n0. cbv zeta. unfold qflat, rmv. cbn [qw qx qy qz seq map nth rdot].
      exists [(fun t => f t * (a + t * ua)); (fun t => f t * (b + t * ub)); (fun t => f t * (c + t * uc))]. split; [reflexivity|].
      assert (Q : forall p v, derivable_pt_lim (fun t => f t * (p + t * v)) 0 ((-2 * uw + (2 * w - f 0) / (n 0 * n 0) * (a * ua + b * ub + c * uc)) * p + f 0 * v)).
      { intros. eapply d_eq; [apply (d_mult f (fun t => p + t * v)); [exact Df|der]|]. cbv beta. ring. }
      repeat (apply Forall2_cons || apply Forall2_nil); (eapply d_eq; [apply Q|field; lra]).
Qed.

(** ** A leaf *)
Definition regular0 (s : mfd XR) (x : list R) : Prop :=
  match s with
  | Leaf h LReal _ _ => length x = h_dim h
  | Leaf _ (LSO3 MapMatrix) _ _ => exists A, x = flat9 A /\ regular_mat A
  | Leaf _ (LSO3 MapQuat) _ _ => exists q, x = qflat q /\ regular_quat q
  | _ => False
  end.
Lemma log0_leaf h l a b x : leaf_wf h l a b -> regular0 (Leaf h l a b) x -> exists J,
  diffPseudoLog0 (Leaf h l a b) (fin x) = Ok (matR (h_tdim h) J) /\ length J = h_rdim h /\ Forall (fun c => length c = h_tdim h) J /\
  forall u, length u = h_rdim h -> exists y d, 0 < d /\
    (forall t, Rabs t < d -> forall o, length o = h_tdim h -> pseudoLog0 (Leaf h l a b) o (fin (radd x (rscal t u))) = Ok (fin (y t))) /\
    deriv_v y 0 (rmv (h_tdim h) J u).
Proof.
  intros W P. destruct l as [| |[|]]; cbn [regular0] in P; [| contradiction | |].
  - pose proof W as (W1 & W2). exists (map (unitv (h_dim h)) (seq 0 (h_dim h))). rewrite W1, W2, map_length, seq_length, Forall_map.
    assert (W' : h_rdim h = h_dim h) by lia.
    split; [|split; [reflexivity|split]].
    + cbn [diffPseudoLog0]. unfold representationDim; cbn [hdr_of]. rewrite check_eq by (rewrite fin_length; lia). cbn [bind]. unfold tangentDim; cbn [hdr_of]. rewrite ?W1, ?W2, mident_matR. reflexivity.
    + apply Forall_forall. intros. unfold unitv. rewrite map_length, seq_length. auto.
    + intros u Lu. exists (fun t => radd x (rscal t u)), 1. split; [lra|]. split.
      * intros t _ o Lo. apply real_log0; auto; rewrite radd_length; rewrite ?rscal_length; lia.
      * rewrite rmv_ident by lia. exists (map (fun p t => fst p + t * snd p) (combine x u)). split.
        -- intros t. rewrite map_map. unfold radd, rscal. clear. revert u; induction x as [|c x IH]; intros [|e v]; cbn [combine map]; auto. f_equal; auto.
        -- rewrite <- P in Lu. clear - Lu. revert u Lu; induction x as [|c x IH]; intros [|e v] L; try discriminate; cbn [combine map]; constructor.
           ++ cbn [fst snd]. solve_d. ring.
           ++ apply IH. simpl in L. lia.
  - destruct P as (A & -> & RA). pose proof W as (W1 & W2 & W3 & _). rewrite W2, W3. exists (jac0_mat A).
    split; [|split; [reflexivity|split; [repeat constructor|]]].
    + cbn [diffPseudoLog0]. unfold representationDim; cbn [hdr_of]. rewrite check_eq by (rewrite fin_length; cbn; lia). cbn [bind]. apply jac0_mat_eq; auto.
    + intros u Lu. destruct (flat9_inv u Lu) as (V & ->). destruct (mat_curve A V (proj1 RA) (proj1 (proj2 RA))) as (d & Hd & H & D).
      exists (fun t => log_curve (m3line A V t)), d. split; auto. split; auto. intros t Ht o Lo. rewrite flat9_line, em_log0 by auto.
      destruct (H t Ht). apply log_curve_eq; auto.
  - destruct P as (q & -> & RA). pose proof W as (W1 & W2 & W3 & _). rewrite W2, W3. exists (jac0_quat q).
    split; [|split; [|split]].
    + cbn [diffPseudoLog0]. unfold representationDim; cbn [hdr_of]. rewrite check_eq by (rewrite fin_length; cbn; lia). cbn [bind]. apply jac0_quat_eq. apply RA.
    + unfold jac0_quat. cbv zeta. destruct (Rltb _ _); reflexivity.
    + unfold jac0_quat. cbv zeta. destruct (Rltb _ _); repeat constructor.
    + intros u Lu. destruct (qflat_inv u Lu) as (V & ->). destruct (quat_curve q V RA) as (y & d & Hd & H & D).
      exists y, d. split; auto. split; auto. intros t Ht o Lo. rewrite qflat_line, eq_log0 by auto. apply H; auto.
Qed.

(** The coefficient of the trace direction computed on the series branch. *)
Definition series_df (A : m3 R) : R :=
  let x := tr3 A - 3 in tr3 A / 15 - 3 * (x * x) / 140 + 2 * (x * x * x) / 315 - 5 * (x * x * x * x) / 2772 - 0.
Lemma jac0_series_eq A : -1 < (tr3 A - 1) / 2 < 1 ->
  rdot [(a21 A - a12 A) / 2; (a02 A - a20 A) / 2; (a10 A - a01 A) / 2] [(a21 A - a12 A) / 2; (a02 A - a20 A) / 2; (a10 A - a01 A) / 2] < 1 / 10000000000 ->
  em_diffPseudoLog0 (fin (flat9 A)) = Ok (matR 3 (jac0_gen (series_df A) A)).
Proof.
  intros H2 H3. destruct A as [m00 m01 m02 m10 m11 m12 m20 m21 m22]. unfold tr3 in H2. cbn [a00 a01 a02 a10 a11 a12 a20 a21 a22] in *.
  unfold flat9. cbn [fin map a00 a01 a02 a10 a11 a12 a20 a21 a22]. unfold em_diffPseudoLog0.
  cbn [klit k1 k0 kmul kadd ksub kdiv kacos kopp XRS]. cbn [xsub xadd lift1 lift2].
  assert (T2 : IZR 2 / IZR 1 = 2) by field. rewrite T2. rewrite !xdiv_fin by lra. cbn [xsub lift2].
  set (c := (m00 + m11 + m22 - 1) / 2) in *. rewrite !sinc_acos by auto. rewrite xdiv_fin by lra.
  change (sqnorm [Fin ((m21 - m12) / 2); Fin ((m02 - m20) / 2); Fin ((m10 - m01) / 2)]) with (sqnorm (fin [(m21 - m12) / 2; (m02 - m20) / 2; (m10 - m01) / 2])).
  rewrite sqnorm_fin. cbn [kltb XRS xltb].
  match goal with |- context [Rltb ?a ?b] => assert (E : Rltb a b = true) by (apply Rltb_true; lra) end.
  rewrite E. cbn [lift1 lift2 xsub xadd]. repeat (rewrite xdiv_fin by lra; cbn [lift1 lift2 xsub xadd]).
  unfold matR, jac0_gen, series_df, tr3. cbn [a00 a01 a02 a10 a11 a12 a20 a21 a22 map fin]. cbv zeta. fold c.
  match goal with |- context [Fin (?d * ((m21 - m12) / 2))] => match goal with |- _ = Ok (Mat 3 ((Fin (?d' * ((m21 - m12) / 2)) :: _) :: _)) =>
    assert (D : d = d') end end.
  { change (IZR (11 / 30)) with 0. field. }
  rewrite D. reflexivity.
Qed.
