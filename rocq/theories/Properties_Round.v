(** C04, C05: round trips between retractation and pseudoLog.  Exact real arithmetic ([XR]). *)
From Coq Require Import Reals List Lra Lia ZArith Bool Arith Psatz.
From Verif Require Import Base Scalar Vec Model_S2 Model_SO3 Model_Manifold Spec Layout Comp Flat
  XR SpecR RotR NumVec NumMat Angle NumQuat NumTree NumLeaf RotLog RoundTrip NumS2 NumExp NumLog Close Relog ExScalar ExR.
Import ListNotations.
Local Open Scope R_scope.

(** C04.  For every manifold without S2 factor: retractation reaches the mathematically expected point
    (exact exponential), this point is on the manifold, and pseudoLog recovers the vector.
    Missing from the stated property: on the matrix map the part of angles between pi - 1e-7 and pi, where
    the property fails (next theorems). *)
Theorem C04_round_trip_partial : forall m : mfd XR, built m -> no_s2 m -> forall x v : list R,
  onM m x -> eachT off_switch m v ->
  exists y, shiftM m x v y /\ onM m y /\
    (forall out, length out = representationDim m -> retractation m out (fin x) (fin v) = Ok (fin y)) /\
    (forall out, length out = tangentDim m -> pseudoLog m out (fin x) (fin y) = Ok (fin v)).
Proof. exact round_trip. Qed.
Print Assumptions C04_round_trip_partial.

Theorem C04_round_trip_zero_partial : forall m : mfd XR, built m -> no_s2 m -> forall v : list R,
  eachT off_switch m v ->
  exists z y, onM m z /\ shiftM m z v y /\
    (forall out, length out = representationDim m -> setZero m out = Ok (fin z)) /\
    (forall out, length out = representationDim m -> retractation m out (fin z) (fin v) = Ok (fin y)) /\
    (forall out, length out = tangentDim m -> pseudoLog0 m out (fin y) = Ok (fin v)).
Proof. exact round_trip0. Qed.
Print Assumptions C04_round_trip_zero_partial.

Example C04_example : built rP /\ no_s2 rP /\ onM rP rPx /\ eachT off_switch rP rPv /\ length rPx = 15%nat.
Proof. repeat split; auto using rP_built, rP_no_s2, rPx_on, rPv_off. Qed.

(** With the Taylor branches included, for every v whose rotation parts are below pi (by 1e-7 on the matrix
    map): both calls succeed and every entry of v is recovered within 1e-16. *)
Theorem C04_round_trip_close : forall m : mfd XR, built m -> no_s2 m -> forall x v : list R,
  onM m x -> eachT below_pi m v ->
  exists y w, near_v (1 / 10 ^ 16) w v /\ length y = representationDim m /\
    (forall out, length out = representationDim m -> retractation m out (fin x) (fin v) = Ok (fin y)) /\
    (forall out, length out = tangentDim m -> pseudoLog m out (fin x) (fin y) = Ok (fin w)).
Proof. exact round_close. Qed.
Print Assumptions C04_round_trip_close.

Example C04_close_example : onM rP rPx /\ eachT below_pi rP ([1; -1] ++ [1/10^6; 0; 0] ++ [3/10^6; 0; 0]).
Proof.
  pose proof PI_gt2. split; [apply rPx_on|].
  exists [[1; -1]; [1/10^6; 0; 0]; [3/10^6; 0; 0]]. split; [reflexivity|].
  repeat (apply Forall2_cons || apply Forall2_nil); (split; [reflexivity|]); cbn [below_pi]; auto; rewrite rnorm100; lra.
Qed.

(** Exact domain of the round trip on the matrix map: the three entries above the diagonal of exp(v),
    as a vector, must not be shorter than 1e-8. *)
Theorem C04_matrix_round_trip_iff : forall h typ tru (A : m3 R) (v : list R) (out out' : list XR),
  let s := Leaf h (LSO3 MapMatrix) typ tru in
  built s -> rot A -> length v = 3%nat -> 1 / 10000 <= rnorm v < PI ->
  length out = 9%nat -> length out' = 3%nat ->
  exists y, retractation s out (fin (flat9 A)) (fin v) = Ok (fin y) /\
    (pseudoLog s out' (fin (flat9 A)) (fin y) = Ok (fin v) <->
     1 / 100000000 <= rnorm [a12 (expSO3 v); a02 (expSO3 v); a01 (expSO3 v)]).
Proof.
  intros h typ tru A v out out' s B HA Lv Hv Lo Lo'. apply built_wf in B. inversion B as [? ? ? ? W|]; subst.
  exists (flat9 (rmul A (expSO3 v))). split.
  { destruct (vec3_inv v Lv) as (x & y & z & ->). apply em_retr; auto.
    apply em_exp_main; auto; try lra. apply Rle_trans with (1 / 10000 * (1 / 10000)); [lra|]. apply norm_sq_ge; lra. }
  unfold s. rewrite em_log by auto. rewrite <- rmul_assoc. destruct HA as [HA _]. rewrite HA, rmul_id_l.
  assert (U : upper (expSO3 v) = rnorm [a12 (expSO3 v); a02 (expSO3 v); a01 (expSO3 v)]).
  { unfold upper, rnorm. f_equal. simpl. ring. }
  rewrite <- U. split.
  - intros H. destruct (Rle_dec eps8 (upper (expSO3 v))) as [|N]; auto. exfalso.
    rewrite em_logarithm_small in H; auto; [|lra]. assert (E : fin [- a12 (expSO3 v); a02 (expSO3 v); - a01 (expSO3 v)] = fin v) by congruence. apply fin_inj in E.
    unfold upper in N. rewrite E in N. lra.
  - intros H. apply em_log_exp; auto. lra.
Qed.
Print Assumptions C04_matrix_round_trip_iff.

(** Finding: near a half turn around a coordinate axis the logarithm of the matrix map returns a vector
    shorter than 1e-8 instead of v. *)
Theorem C04_matrix_near_pi_refuted : exists (m : mfd XR) (x v : list R), built m /\ no_s2 m /\ onM m x /\
  length v = 3%nat /\ 1 / 10000 <= rnorm v < PI /\
  exists y w, (forall out, length out = 9%nat -> retractation m out (fin x) (fin v) = Ok (fin y)) /\
    (forall out, length out = 3%nat -> pseudoLog m out (fin x) (fin y) = Ok (fin w)) /\
    rnorm w <= 1 / 1000000000 /\ 1 < rnorm v.
Proof.
  pose proof PI_gt2 as P2. set (t := PI - 1 / 1000000000).
  assert (Hn : rnorm [t; 0; 0] = t) by (apply rnorm100; unfold t; lra).
  assert (E : expSO3 [t; 0; 0] = M3 1 0 0 0 (cos t) (- sin t) 0 (sin t) (cos t)).
  { unfold expSO3. cbv zeta. rewrite Hn. destruct (Req_EM_T t 0) as [Z|Z]; [unfold t in Z; lra|].
    m3_eq; field; auto. }
  assert (St : 0 < sin t <= 1 / 1000000000).
  { split; [apply sin_gt_0; unfold t; lra|]. unfold t. rewrite <- sin_PI_x.
    replace (PI - (PI - 1 / 1000000000)) with (1 / 1000000000) by ring. left. apply sin_lt_x. lra. }
  exists rM, (flat9 ridm), [t; 0; 0]. split; [apply rM_built|]. split; [repeat constructor|].
  split. { exists [flat9 ridm]. split; [reflexivity|]. repeat constructor. exists ridm. split; auto using rot_id. }
  split; auto. rewrite Hn. split; [unfold t; lra|].
  destruct rM_leaf as (h & a & b & -> & W).
  exists (flat9 (expSO3 [t; 0; 0])), [sin t; 0; 0]. split; [|split; [|split]].
  - intros out Ho. rewrite <- (rmul_id_l (expSO3 [t; 0; 0])). apply em_retr; auto. apply em_exp_main; auto.
    + apply Rle_trans with (1 * 1); [lra|]. apply norm_sq_ge; [lra|]. rewrite Hn. unfold t; lra.
    + rewrite Hn. unfold t. lra.
  - intros out Ho. rewrite em_log by auto. replace (rtr ridm) with ridm by reflexivity. rewrite rmul_id_l, E.
    rewrite em_logarithm_small; auto; cbn [a12 a02 a01].
    + rewrite Ropp_involutive, Ropp_0. auto.
    + unfold upper. cbn [a12 a02 a01]. rewrite Ropp_involutive, Ropp_0, rnorm100; lra.
  - rewrite rnorm100; lra.
  - unfold t. lra.
Qed.
Print Assumptions C04_matrix_near_pi_refuted.

(** C05.  Any two points x, y of a manifold without S2 factor are related by a tangent vector w whose
    rotation parts are at most pi long: y0 = x moved by w is y up to the sign of the quaternions.
    Off the series / near-pi switches, pseudoLog(x, y) is that w and retractation(x, w) gives y0. *)
Theorem C05_log_then_retract_partial : forall m : mfd XR, built m -> no_s2 m -> forall x y : list R,
  onM m x -> onM m y ->
  exists w y0, eachT rot_le_pi m w /\ shiftM m x w y0 /\ sameM m y0 y /\
    (eachT off_switch m w ->
       (forall o, length o = tangentDim m -> pseudoLog m o (fin x) (fin y) = Ok (fin w)) /\
       (forall o, length o = representationDim m -> retractation m o (fin x) (fin w) = Ok (fin y0))).
Proof.
  intros m B N x y Hx Hy. destruct (relative m B N x y Hx Hy) as (w & y0 & H1 & H2 & H3).
  exists w, y0. repeat (split; auto); eapply relog; eauto.
Qed.
Print Assumptions C05_log_then_retract_partial.

Example C05_example : exists w y0 y, shiftM rP rPx w y0 /\ sameM rP y0 y /\ eachT off_switch rP w /\ y <> y0.
Proof.
  destruct (round_trip rP rP_built rP_no_s2 rPx rPv rPx_on rPv_off) as (y0 & S & _).
  assert (y0 = [4; 3] ++ flat9 (rmul exq (expSO3 [1; 0; 0])) ++ qflat (qprod (Q4 0 0 1 0) (expQ [2; 0; 0]))).
  { destruct S as (xs & vs & ys & Ex & Ev & -> & Hx & Ht & Hs).
    inversion Hs as [|? x1 v1 y1 ? xs1 vs1 ys1 S1 Hs1]; subst. inversion Hs1 as [|? x2 v2 y2 ? xs2 vs2 ys2 S2 Hs2]; subst.
    inversion Hs2 as [|? x3 v3 y3 ? xs3 vs3 ys3 S3 Hs3]; subst. inversion Hs3; subst.
    destruct S2 as (A & -> & ->), S3 as (q & -> & ->). simpl in S1. subst y1.
    inversion Ht as [|? ? ? ? ? ? [T1 _] Ht1]; subst. inversion Ht1 as [|? ? ? ? ? ? [T2 _] Ht2]; subst.
    inversion Ht2 as [|? ? ? ? ? ? [T3 _] _]; subst. inversion Hx as [|? ? ? ? H1 _]; subst. cbn in H1, T1, T2, T3.
    destruct x1 as [|? [|? [|]]]; try discriminate. destruct v1 as [|? [|? [|]]]; try discriminate.
    destruct (vec3_inv v2 T2) as (? & ? & ? & ->). destruct (vec3_inv v3 T3) as (? & ? & ? & ->).
    destruct A, q. cbn in Ex, Ev. inversion Ex; inversion Ev; subst. cbn [concat app]. rewrite app_nil_r.
    replace (radd [3; 4] [1; -1]) with [4; 3]; [reflexivity|].
    unfold radd. cbn [combine map fst snd]. f_equal; [ring|]. f_equal. ring. }
  set (p := qprod (Q4 0 0 1 0) (expQ [2; 0; 0])) in *.
  exists rPv, y0, ([4; 3] ++ flat9 (rmul exq (expSO3 [1; 0; 0])) ++ map Ropp (qflat p)).
  split; auto. split; [|split; [apply rPv_off|]].
  - exists [[4; 3]; flat9 (rmul exq (expSO3 [1; 0; 0])); qflat p], [[4; 3]; flat9 (rmul exq (expSO3 [1; 0; 0])); map Ropp (qflat p)].
    split; [rewrite H; reflexivity|]. split; [reflexivity|].
    split; [repeat constructor|].
    repeat (apply Forall3_cons || apply Forall3_nil); cbn [same_leaf]; auto.
  - rewrite H. intros E. apply app_inv_head in E. apply app_inv_head in E.
    assert (U : qn2 p = 1). { unfold p. rewrite qn2_mul, expQ_unit. unfold qn2. cbn. ring. }
    clearbody p. destruct p as [pw px py pz]. unfold qflat, qn2 in *. cbn [map qw qx qy qz] in *. inversion E.
    assert (pw = 0) by lra. assert (px = 0) by lra. assert (py = 0) by lra. assert (pz = 0) by lra. nra.
Qed.

(** Same, Taylor branches included: below pi (by 1e-7 on the matrix map) pseudoLog(x, y) is the relative vector w up
    to 1e-15 and retractation(x, pseudoLog(x, y)) is y0 -- y up to the sign of the quaternions -- up to 1e-12,
    per entry. *)
Theorem C05_log_then_retract_close : forall m : mfd XR, built m -> no_s2 m -> forall x y : list R,
  onM m x -> onM m y ->
  exists w y0 t z, eachT rot_le_pi m w /\ shiftM m x w y0 /\ sameM m y0 y /\
    (eachT below_pi m w -> near_v (1 / 10 ^ 15) t w /\ near_v (1 / 10 ^ 12) z y0 /\
      (forall o, length o = tangentDim m -> pseudoLog m o (fin x) (fin y) = Ok (fin t)) /\
      (forall o, length o = representationDim m -> retractation m o (fin x) (fin t) = Ok (fin z))).
Proof. intros m B N x y Hx Hy. apply relog_close; auto. Qed.
Print Assumptions C05_log_then_retract_close.

(** The hypotheses are met, with the relative vector in the Taylor branch (1e-5 long). *)
Example C05_close_example : exists x y w, onM rM x /\ onM rM y /\ shiftM rM x w y /\ eachT below_pi rM w /\
  ~ eachT off_switch rM w.
Proof.
  pose proof PI_gt2 as P2. set (v := [1 / 100000; 0; 0]).
  assert (Hn : rnorm v = 1 / 100000) by (apply rnorm100; lra).
  assert (X : onM rM (flat9 ridm)). { exists [flat9 ridm]. split; [reflexivity|]. repeat constructor. exists ridm. split; auto using rot_id. }
  exists (flat9 ridm), (flat9 (rmul ridm (expSO3 v))), v. split; auto. split; [|split; [|split]].
  - exists [flat9 (rmul ridm (expSO3 v))]. split; [reflexivity|]. repeat constructor. eexists. split; [reflexivity|]. apply rot_mul; auto using rot_id, expSO3_rot.
  - exists [flat9 ridm], [v], [flat9 (rmul ridm (expSO3 v))]. repeat (split; [reflexivity|]). split; [|split].
    + repeat constructor. exists ridm. split; auto using rot_id.
    + repeat constructor.
    + repeat (apply Forall4_cons || apply Forall4_nil). exists ridm. auto.
  - exists [v]. split; [reflexivity|]. constructor; [|constructor]. split; [reflexivity|]. change (rnorm v <= PI - 1 / 10000000). lra.
  - intros (vs & E & H). change (leaves rM) with [rM] in H. inversion H as [|? v' ? vs' [L O] H']; subst. inversion H'; subst. cbn in E. rewrite app_nil_r in E. subst v'.
    change (v = [0; 0; 0] \/ 1 / 10000 <= rnorm v <= PI - 1 / 10000000) in O. destruct O as [O|O]; [|lra].
    unfold v in O. injection O. lra.
Qed.

(** Finding: within 1e-8 of a half turn about a coordinate axis the two functions of the matrix map do not lead
    back to y (nor near it), although the relative rotation angle is below pi. *)
Theorem C05_matrix_near_pi_refuted : exists (m : mfd XR) (x y w t z : list R), built m /\ no_s2 m /\ onM m x /\ onM m y /\
  shiftM m x w y /\ eachT (fun _ v => rnorm v < PI) m w /\
  (forall o, length o = tangentDim m -> pseudoLog m o (fin x) (fin y) = Ok (fin t)) /\
  (forall o, length o = representationDim m -> retractation m o (fin x) (fin t) = Ok (fin z)) /\
  ~ near_v (1 / 2) z y.
Proof.
  pose proof PI_gt2 as P2. set (t := PI - 1 / 1000000000).
  assert (Hn : rnorm [t; 0; 0] = t) by (apply rnorm100; unfold t; lra).
  assert (E : expSO3 [t; 0; 0] = M3 1 0 0 0 (cos t) (- sin t) 0 (sin t) (cos t)).
  { unfold expSO3. cbv zeta. rewrite Hn. destruct (Req_EM_T t 0) as [Z|Z]; [unfold t in Z; lra|].
    m3_eq; field; auto. }
  assert (St : 0 < sin t <= 1 / 1000000000).
  { split; [apply sin_gt_0; unfold t; lra|]. unfold t. rewrite <- sin_PI_x.
    replace (PI - (PI - 1 / 1000000000)) with (1 / 1000000000) by ring. left. apply sin_lt_x. lra. }
  assert (Ct : cos t < 0) by (apply cos_lt_0; unfold t; lra).
  destruct (em_exp_near [sin t; 0; 0] eq_refl) as (F & HF & NF); [rewrite rnorm100; lra|].
  exists rM, (flat9 ridm), (flat9 (expSO3 [t; 0; 0])), [t; 0; 0], [sin t; 0; 0], (flat9 F).
  split; [apply rM_built|]. split; [repeat constructor|].
  split. { exists [flat9 ridm]. split; [reflexivity|]. repeat constructor. exists ridm. split; auto using rot_id. }
  split. { exists [flat9 (expSO3 [t; 0; 0])]. split; [cbn; rewrite ?app_nil_r; reflexivity|]. repeat constructor. eexists. split; [reflexivity|]. apply expSO3_rot. }
  split. { exists [flat9 ridm], [[t; 0; 0]], [flat9 (expSO3 [t; 0; 0])]. repeat (split; [reflexivity|]). split; [|split].
    + repeat constructor. exists ridm. split; auto using rot_id.
    + repeat constructor.
    + repeat (apply Forall4_cons || apply Forall4_nil). exists ridm. rewrite rmul_id_l. auto. }
  split. { exists [[t; 0; 0]]. split; [reflexivity|]. constructor; [|constructor]. split; [reflexivity|]. change (rnorm [t; 0; 0] < PI). rewrite Hn. unfold t. lra. }
  destruct rM_leaf as (h & a & b & -> & W). pose proof W as (W1 & W2 & W3 & _). unfold tangentDim, representationDim. cbn [hdr_of]. split; [|split].
  - intros out Ho. rewrite em_log by (auto; lia). replace (rtr ridm) with ridm by reflexivity. rewrite rmul_id_l, E.
    rewrite em_logarithm_small; auto; cbn [a12 a02 a01]; try lia.
    + rewrite Ropp_involutive, Ropp_0. auto.
    + unfold upper. cbn [a12 a02 a01]. rewrite Ropp_involutive, Ropp_0, rnorm100; lra.
  - intros out Ho. rewrite <- (rmul_id_l F). apply em_retr; auto. lia.
  - intros N. rewrite E in N.
    pose proof (tiny_so3 (sin t) 0 0) as T. specialize (T ltac:(nra)).
    pose proof (near_v_trans _ _ _ _ _ NF T) as D. pose proof (near_v_trans _ _ _ _ _ (near_v_sym _ _ _ D) N) as G.
    unfold lin9, flat9, near_v in G. cbn [a00 a10 a20 a01 a11 a21 a02 a12 a22] in G.
    repeat match type of G with Forall2 _ (_ :: _) (_ :: _) => let H := fresh "H" in inversion G as [|? ? ? ? H G']; clear G; rename G' into G; apply Rabs_le_inv in H; subst end.
    lra.
Qed.
Print Assumptions C05_matrix_near_pi_refuted.

(** Finding: on S2 pseudoLog is not an inverse of retractation. *)
Theorem C05_s2_refuted : exists (m : mfd XR) (x y w z : list R), built m /\ onM m x /\ onM m y /\
  (forall o, length o = 3%nat -> pseudoLog m o (fin x) (fin y) = Ok (fin w)) /\
  (forall o, length o = 3%nat -> retractation m o (fin x) (fin w) = Ok (fin z)) /\
  z <> y.
Proof.
  exists rS2, [1; 0; 0], [0; 1; 0], [0; PI / 2; 0].
  set (s := rnorm [1; PI / 2; 0]). pose proof PI_gt2.
  assert (Hs : 1 < s). { unfold s, rnorm. rewrite <- sqrt_1 at 1. apply sqrt_lt_1; simpl; nra. }
  exists (rscal (/ s) [1; PI / 2; 0]).
  split; [apply rS2_built|].
  split. { exists [[1; 0; 0]]. split; [reflexivity|]. repeat constructor. simpl. ring. }
  split. { exists [[0; 1; 0]]. split; [reflexivity|]. repeat constructor. simpl. ring. }
  split; [|split].
  - destruct rS2_leaf as (h & a & b & -> & W).
    intros o Ho. rewrite (s2_log _ _ _ o [1; 0; 0] [0; 1; 0] W); auto; [|simpl; lra].
    cbv zeta.
    assert (Ep : rproj [1; 0; 0] (rsub [0; 1; 0] [1; 0; 0]) = [0; 1; 0]).
    { unfold rproj, rsub, rscal. simpl. repeat f_equal; ring. }
    rewrite Ep. assert (En : rnorm [0; 1; 0] = 1). { unfold rnorm. replace (rdot _ _) with 1 by (simpl; ring). apply sqrt_1. }
    rewrite En. destruct (Req_EM_T 1 0); [lra|]. do 2 f_equal.
    replace (rdot [1; 0; 0] [0; 1; 0]) with 0 by (simpl; ring). rewrite acos_0.
    unfold rscal. cbn [map]. apply list3_eq; field.
  - destruct rS2_leaf as (h & a & b & -> & W).
    intros o Ho. rewrite (s2_retr _ _ _ o [1; 0; 0] [0; PI / 2; 0] W); auto.
    + assert (Er : radd [1; 0; 0] [0; PI / 2; 0] = [1; PI / 2; 0]).
      { unfold radd. cbn [combine map fst snd]. apply list3_eq; field. }
      rewrite Er. reflexivity.
    + simpl. ring.
    + replace (rdot _ _) with 0 by (simpl; ring). rewrite Rabs_R0. lra.
  - unfold rscal. cbn [map]. intros E. inversion E as [[E1 E2 E3]]. assert (0 < / s) by (apply Rinv_0_lt_compat; lra). lra.
Qed.
Print Assumptions C05_s2_refuted.
