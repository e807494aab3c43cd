(** C75: pseudoLog from y to x is the opposite of pseudoLog from x to y; exact arithmetic, then bit for bit in doubles. *)
From Coq Require Import Reals List Lra Lia ZArith Bool Arith Psatz Permutation.
From Flocq Require Import Core BinarySingleNaN.
From Verif Require Import Base Scalar Vec Model_Real Model_S2 Model_SO3 Model_Manifold Spec Layout Comp Indep Flat Points
  XR SpecR RotR NumVec NumMat NumQuat NumExp NumS2 NumTree NumLeaf RotLog RoundTrip Drift F64 F64Err F64Norm F64S2 F64Exp F64Quat F64Mat F64Mat2 F64Tree F64Go F64Gs F64Rand ExScalar ExR
  F64Trans F64Proj F64Log Properties_Round Properties_Float Properties_FloatPath Properties_FloatProj.
Import ListNotations.
Local Open Scope R_scope.

(** ** Exact arithmetic *)
Lemma rnorm_opp w : rnorm (map Ropp w) = rnorm w.
Proof. unfold rnorm. f_equal. induction w as [|a w IH]; cbn [map rdot]; [auto|rewrite IH; ring]. Qed.
Lemma off_opp s w : off_switch s w -> off_switch s (map Ropp w).
Proof.
  destruct s as [h [| |[|]] a b|]; cbn [off_switch]; auto; rewrite rnorm_opp; intros [->|H]; auto; left; cbn [map]; rewrite Ropp_0; reflexivity.
Qed.
Lemma radd_opp x w : length x = length w -> radd (radd x w) (map Ropp w) = x.
Proof.
  revert w. induction x as [|p x IH]; intros [|q w] L; try discriminate; [reflexivity|].
  change (radd (radd (p :: x) (q :: w)) (map Ropp (q :: w))) with (p + q + - q :: radd (radd x w) (map Ropp w)). f_equal; [ring|]. apply IH. cbn in L. lia.
Qed.
Lemma anti_leaf h l a b x w y0 y : let s := Leaf h l a b in leaf_wf h l a b -> is_s2 s = false ->
  on_leaf s x -> length w = tangentDim s -> off_switch s w -> shift_leaf s x w y0 -> same_leaf s y0 y ->
  length y = representationDim s /\ forall o, length o = tangentDim s -> pseudoLog s o (fin y) (fin x) = Ok (fin (map Ropp w)).
Proof.
  intros s W N Hx Lw Ow S E.
  assert (B : exists x0, on_leaf s y /\ shift_leaf s y (map Ropp w) x0 /\ same_leaf s x0 x).
  { unfold s, tangentDim in *. cbn [hdr_of] in *. destruct l as [| |[|]]; cbn [on_leaf shift_leaf same_leaf is_s2 leaf_wf] in *; try discriminate.
    - subst y0 y. exists x. split; [rewrite radd_length; lia|]. split; auto. symmetry. apply radd_opp. lia.
    - destruct Hx as (A & -> & HA). destruct S as (A' & EA & ->). apply flat9_inj in EA. subst A' y. exists (flat9 A). split; [eexists; split; [reflexivity|apply rot_mul; auto using expSO3_rot]|]. split; auto.
      eexists. split; [reflexivity|]. destruct (exp_back w ltac:(lia)) as [E _]. rewrite rmul_assoc, E, rmul_id_r. reflexivity.
    - destruct Hx as (q & -> & Hq). destruct S as (q' & EA & ->). apply qflat_inj in EA. subst q'. destruct (exp_back w ltac:(lia)) as [_ EQ].
      assert (N1 : qn2 (qprod q (expQ w)) = 1) by (rewrite qn2_mul, expQ_unit, Hq; ring).
      assert (EE : qprod (qprod q (expQ w)) (expQ (map Ropp w)) = q) by (rewrite qprod_assoc, EQ; destruct q; unfold qprod; cbn; f_equal; ring).
      destruct E as [->| ->].
      + exists (qflat q). split; [eexists; split; [reflexivity|exact N1]|]. split; auto. eexists. split; [reflexivity|]. rewrite EE. reflexivity.
      + set (z := qprod q (expQ w)) in *. exists (map Ropp (qflat q)). split; [|split].
        * exists (Q4 (- qw z) (- qx z) (- qy z) (- qz z)). split; [reflexivity|]. unfold qn2 in *. cbn [qw qx qy qz]. rewrite <- N1. ring.
        * exists (Q4 (- qw z) (- qx z) (- qy z) (- qz z)). split; [reflexivity|]. rewrite <- EE. unfold qflat, qprod. cbn [qw qx qy qz map]. repeat f_equal; ring.
        * right. rewrite map_map. rewrite <- (map_id (qflat q)) at 1. apply map_ext. intros; ring. }
  destruct B as (x0 & Hy & S' & E'). split; [apply (on_leaf_len _ _ _ _ _ W Hy)|].
  apply (leaf_relog h l a b y (map Ropp w) x0 x W N Hy); auto; [rewrite map_length; exact Lw|apply off_opp; exact Ow].
Qed.

(** Every tree without sphere, every point x and step w off the switches, y the end of the step (up to the sign of quaternions):
    pseudoLog returns w from x to y and -w from y to x. *)
Theorem C75_exact : forall m : mfd XR, built m -> no_s2 m -> forall x w y0 y : list R, shiftM m x w y0 -> sameM m y0 y -> eachT off_switch m w ->
  forall o, length o = tangentDim m -> pseudoLog m o (fin x) (fin y) = Ok (fin w) /\ pseudoLog m o (fin y) (fin x) = Ok (fin (map Ropp w)).
Proof.
  intros m B NS x w y0 y H2 H3 Ho o Lo. split; [eapply relog; eauto|].
  destruct H2 as (xs & ws & y0s & -> & -> & -> & Hx & Ht & Hs). destruct Ho as (ws' & Ew & Ho). destruct H3 as (y0s' & ys & Ey & -> & Hl & Hsm).
  apply built_wf in B. destruct (shift_len m B _ _ _ Hx Ht Hs) as (Lx & Lw & Ly).
  assert (ws = ws'). { apply (sum_list_eq DT (leaves m)); auto. eapply Forall2_impl_in; [exact Ho|]. cbn. tauto. } subst ws'.
  assert (y0s = y0s') by (apply (sum_list_eq DR (leaves m)); auto). subst y0s'. rewrite concat_map.
  apply (lift_op2 DT DR DR pseudoLog pseudoLog_prod); auto.
  pose proof (fun s => wf_leaf_inv m s B) as G. pose proof (fun s => no_s2_in m s NS) as N. clear Ew Ey NS Lo B.
  revert xs ws y0s ys Hx Ht Hs Ho Hl Hsm Lx Lw Ly. induction (leaves m) as [|s l IH]; intros xs ws y0s ys Hx Ht Hs Ho Hl Hsm Lx Lw Ly.
  - inversion Hs; subst. inversion Hsm; subst. constructor.
  - inversion Hx as [|? x1 ? xs1 H6 H6']; subst. inversion Ht as [|? ? w1 ? ? ws1 H7 H7']; subst.
    inversion Hs as [|? ? ? y1 ? ? ? ys1 H1 H1']; subst. inversion Hsm as [|? ? c0 ? ? cs H4 H4']; subst.
    inversion Ho as [|? ? ? ? H14 H14']; subst.
    inversion Hl; subst. inversion Lx; subst. inversion Lw; subst. inversion Ly; subst. cbn [map].
    constructor.
    + destruct (G s) as (h & k & a & b & -> & Wl); [simpl; auto|].
      assert (Ns : is_s2 (Leaf h k a b) = false) by (apply N; simpl; auto).
      destruct H14 as [L1 O1]. destruct (anti_leaf h k a b _ _ _ _ Wl Ns H6 L1 O1 H1 H4) as [Q1 Q2]. split; [exact Q1|]. split; auto.
    + apply IH with (y0s := ys1); auto; intros; [apply G|apply N]; simpl; auto.
Qed.
(** Every two points are the ends of such a step, rotations by at most a half turn. *)
Theorem C75_points : forall m : mfd XR, built m -> no_s2 m -> forall x y : list R, onM m x -> onM m y ->
  exists w, eachT rot_le_pi m w /\ (eachT off_switch m w -> forall o, length o = tangentDim m ->
    pseudoLog m o (fin x) (fin y) = Ok (fin w) /\ pseudoLog m o (fin y) (fin x) = Ok (fin (map Ropp w))).
Proof.
  intros m B NS x y Hx Hy. destruct (relative m B NS x y Hx Hy) as (w & y0 & H1 & H2 & H3). exists w. split; auto. intros Ho o Lo. eapply C75_exact; eauto.
Qed.

(** The plane, a matrix and a quaternion, the quaternion of y of the other sign than the one reached. *)
Example C75_example : exists w y0 y, shiftM rP rPx w y0 /\ y <> y0 /\ forall o, length o = 8%nat ->
  pseudoLog rP o (fin rPx) (fin y) = Ok (fin w) /\ pseudoLog rP o (fin y) (fin rPx) = Ok (fin (map Ropp w)).
Proof.
  destruct C05_example as (w & y0 & y & S & E & O & N). exists w, y0, y. split; auto. split; auto. intros o Lo. apply (C75_exact rP rP_built rP_no_s2 rPx w y0 y S E O o). rewrite Lo. reflexivity.
Qed.

(** On the small branch of the matrix logarithm only the upper triangle is read: there the two results need not be opposite, even exactly. *)
Theorem C75_small_refuted : exists (m : mfd XR) (x y w w' : list R), built m /\ onM m x /\ onM m y /\
  (forall o, length o = tangentDim m -> pseudoLog m o (fin x) (fin y) = Ok (fin w) /\ pseudoLog m o (fin y) (fin x) = Ok (fin w')) /\ w' <> map Ropp w.
Proof.
  set (t := 1 / 10 ^ 9). set (D := 1 + 3 * (t * t)). assert (D0 : D <> 0) by (unfold D, t; lra). set (p := 2 * (t * t + t) / D). set (q := 2 * (t * t - t) / D). set (d := (1 - t * t) / D).
  set (A := M3 d q p p d q q p d).
  assert (RA : rot A).
  { split; [unfold A, rmul, rtr, ridm, d, p, q; m3_eq; field_simplify_eq; auto; unfold D; ring|]. unfold A, rdet, d, p, q. cbn. field_simplify_eq; auto. unfold D. ring. }
  assert (Bp : 0 < p <= 3 / 10 ^ 9). { unfold p, D, t. lra. } assert (Bq : - (3 / 10 ^ 9) <= q < 0). { unfold q, D, t. lra. }
  assert (ON : forall B, rot B -> onM rM (flat9 B)). { intros B RB. exists [flat9 B]. split; [reflexivity|]. repeat constructor. exists B. auto. }
  assert (SM : forall a b c, Rabs a <= 3 / 10 ^ 9 -> Rabs b <= 3 / 10 ^ 9 -> Rabs c <= 3 / 10 ^ 9 -> rnorm [a; b; c] < eps8).
  { intros a b c Ha Hb Hc. assert (E8 : / 10 ^ 8 <= eps8) by (unfold eps8; lra). eapply Rlt_le_trans; [|exact E8]. unfold rnorm. apply Rabs_ends in Ha, Hb, Hc. rewrite <- (sqrt_square (/ 10 ^ 8)) by lra. apply sqrt_lt_1_alt. cbn [rdot]. split; nra. }
  exists rM, (flat9 ridm), (flat9 A), [- q; p; - q], [- p; q; - p]. split; [apply rM_built|]. split; [apply ON, rot_id|]. split; [apply ON, RA|]. split.
  - destruct rM_leaf as (h & a & b & -> & W). unfold tangentDim in *. cbn [hdr_of] in *. intros o Lo. assert (L3 : length o = 3%nat) by (rewrite Lo; apply W). rewrite !em_log by auto. replace (rtr ridm) with ridm by reflexivity. rewrite rmul_id_l, rmul_id_r.
    split; (rewrite em_logarithm_small; [reflexivity|exact L3|]); unfold upper, A, rtr; cbn [a00 a01 a02 a10 a11 a12 a20 a21 a22]; apply SM; apply Rabs_le; lra.
  - cbn [map]. intros E. injection E as E _ _. unfold p, q in E. apply (f_equal (fun z => z * D)) in E. field_simplify in E; auto. unfold t in E. lra.
Qed.

(** ** Doubles *)
(** Opposite doubles: [b] is [a] with the other sign (two infinities, two NaNs included), or both are zeros. *)
Definition contrary (a b : f64) : Prop := b = Bopp a \/ exists s t, a = B754_zero s /\ b = B754_zero t.

Lemma contrary_val a b : contrary a b -> (isf a <-> isf b) /\ val b = - val a.
Proof.
  intros [->|(s & t & -> & ->)].
  - unfold isf. rewrite is_finite_Bopp, B2R_Bopp. tauto.
  - cbn. split; [unfold isf; cbn; tauto|ring].
Qed.
Lemma fin_contrary a b : isf a -> isf b -> val b = - val a -> contrary a b.
Proof.
  intros Fa Fb E. destruct a as [s|s| |s m e p]; try discriminate Fa; destruct b as [t|t| |t n f q]; try discriminate Fb.
  - right. eauto.
  - exfalso. cbn [B2R] in E. rewrite Ropp_0 in E. apply eq_0_F2R in E. destruct t; discriminate E.
  - exfalso. cbn [B2R] in E. assert (E' : F2R (Float radix2 (cond_Zopp s (Z.pos m)) e) = 0) by lra. apply eq_0_F2R in E'. destruct s; discriminate E'.
  - left. apply B2R_inj; try reflexivity. rewrite B2R_Bopp. exact E.
Qed.
Lemma inf_of (a : f64) s : B2SF a = binary_overflow 53 1024 mode_NE s -> a = B754_infinity s.
Proof. intros H. destruct a; try discriminate H. cbn in H. injection H as ->. reflexivity. Qed.

Lemma sub_contrary (a b : f64) : contrary (a -! b) (b -! a).
Proof.
  destruct (is_finite a) eqn:Fa; [destruct (is_finite b) eqn:Fb|].
  - pose proof (Bminus_correct 53 1024 _ _ mode_NE a b Fa Fb) as H1. pose proof (Bminus_correct 53 1024 _ _ mode_NE b a Fb Fa) as H2.
    replace (val b - val a) with (- (val a - val b)) in H2 by ring. cbn [round_mode] in H1, H2. rewrite round_NE_opp, Rabs_Ropp in H2.
    destruct (Rlt_bool _ _).
    + destruct H1 as (V1 & F1 & _). destruct H2 as (V2 & F2 & _). apply fin_contrary; auto. rewrite V1, V2. reflexivity.
    + destruct H1 as [H1 S]. destruct H2 as [H2 _]. apply inf_of in H1. apply inf_of in H2. rewrite H1, H2. left. cbn. rewrite S, negb_involutive. reflexivity.
  - destruct b as [|t| |]; try discriminate Fb; destruct a as [s|s| |s ? ? ?]; try discriminate Fa; left; cbn; rewrite ?negb_involutive; reflexivity.
  - destruct a as [s|s| |s ? ? ?]; try discriminate Fa; destruct b as [t|t| |t ? ? ?]; left; try reflexivity; cbn; rewrite ?negb_involutive; try reflexivity. destruct s, t; reflexivity.
Qed.
Lemma mul_comm64 (a b : f64) : a *! b = b *! a.
Proof.
  destruct (is_finite a && is_finite b)%bool eqn:F.
  - pose proof (Bmult_correct 53 1024 _ _ mode_NE a b) as H1. pose proof (Bmult_correct 53 1024 _ _ mode_NE b a) as H2.
    rewrite Rmult_comm, xorb_comm in H2. destruct (Rlt_bool _ _).
    + destruct H1 as (V1 & F1 & S1). destruct H2 as (V2 & F2 & S2). rewrite F in F1. rewrite andb_comm, F in F2.
      assert (N : forall z : f64, is_finite z = true -> is_nan z = false) by (intros []; auto; discriminate).
      apply B2R_Bsign_inj; auto; [rewrite V1, V2; reflexivity|]. rewrite S1, S2; auto.
    + apply inf_of in H1. apply inf_of in H2. rewrite H1, H2. reflexivity.
  - destruct a as [s|s| |s ? ? ?]; destruct b as [t|t| |t ? ? ?]; try discriminate F; cbn; rewrite ?(xorb_comm s t); reflexivity.
Qed.
Lemma mul_contrary (a b c : f64) : contrary a b -> contrary (a *! c) (b *! c).
Proof.
  intros H. destruct (is_finite a) eqn:Fa; [destruct (is_finite c) eqn:Fc|].
  - destruct (contrary_val _ _ H) as [F V]. assert (Fb : is_finite b = true) by (apply F; exact Fa).
    pose proof (Bmult_correct 53 1024 _ _ mode_NE a c) as H1. pose proof (Bmult_correct 53 1024 _ _ mode_NE b c) as H2.
    rewrite V in H2. replace (- val a * val c) with (- (val a * val c)) in H2 by ring. cbn [round_mode] in H1, H2. rewrite round_NE_opp, Rabs_Ropp in H2.
    rewrite Fa, Fc in H1. rewrite Fb, Fc in H2. destruct (Rlt_bool _ _) eqn:Q.
    + destruct H1 as (V1 & F1 & _). destruct H2 as (V2 & F2 & _). apply fin_contrary; auto. rewrite V1, V2. reflexivity.
    + apply inf_of in H1. apply inf_of in H2. destruct H as [->|(s & t & -> & ->)].
      * rewrite H1, H2. left. rewrite Bsign_Bopp by (destruct a; auto; discriminate). cbn. destruct (Bsign a), (Bsign c); reflexivity.
      * exfalso. cbn [B2R] in Q. rewrite Rmult_0_l, round_0, Rabs_R0 in Q by apply valid_rnd_N. destruct (Rlt_bool_spec 0 (bpow radix2 1024)) as [|G]; [discriminate|]. pose proof (bpow_gt_0 radix2 1024). lra.
  - destruct c as [|s'| |]; try discriminate Fc; (destruct H as [->|(s & t & -> & ->)]; [destruct a as [s0|s0| |s0 ? ? ?]; try discriminate Fa|]); left; cbn; rewrite ?negb_xorb_l; reflexivity.
  - destruct H as [->|(s & t & -> & ->)]; [|discriminate Fa]. destruct a as [s0|s0| |s0 ? ? ?]; try discriminate Fa; destruct c as [t|t| |t ? ? ?]; left; cbn; rewrite ?negb_xorb_l; reflexivity.
Qed.

Section Anti64.
Context (L : libm).
Local Notation SK := (F64 L).
#[local] Instance SKan : Scalar f64 := SK.

(** The product the other way round is the transpose, bit for bit. *)
Lemma mul_trans64 X Y : m3_mul (SK:=SK) (m3_trans Y) X = m3_trans (m3_mul (SK:=SK) (m3_trans X) Y).
Proof.
  destruct X as [x00 x01 x02 x10 x11 x12 x20 x21 x22], Y as [y00 y01 y02 y10 y11 y12 y20 y21 y22]. unfold m3_mul, m3_trans, s3. cbn [a00 a01 a02 a10 a11 a12 a20 a21 a22].
  assert (E : forall a b c d e f, ksum (Scalar:=SK) [kmul (Scalar:=SK) a b; kmul (Scalar:=SK) c d; kmul (Scalar:=SK) e f] = ksum (Scalar:=SK) [kmul (Scalar:=SK) b a; kmul (Scalar:=SK) d c; kmul (Scalar:=SK) f e]).
  { intros a b c d e f. change (kmul (Scalar:=SK)) with (Bmult mode_NE (prec:=53) (emax:=1024)). rewrite (mul_comm64 a b), (mul_comm64 c d), (mul_comm64 e f). reflexivity. }
  f_equal; apply E.
Qed.

(** Some entry above the diagonal is at least 1e-7 in size. *)
Definition off_diag (A : m3 R) : Prop := 1 / 10 ^ 7 <= Rabs (a01 A) \/ 1 / 10 ^ 7 <= Rabs (a02 A) \/ 1 / 10 ^ 7 <= Rabs (a12 A).
Definition below (b : R) (A : m3 R) : Prop := Forall (fun a => Rabs a <= b) (flat9 A).
(** Two slices for which the logarithm is off its small branch, both ways. *)
Definition apart64 (s : mfd f64) (x y : list f64) : Prop :=
  match s with
  | Leaf _ LReal _ _ => True
  | Leaf _ (LSO3 MapMatrix) _ _ => exists X Y, x = m3_to_list X /\ y = m3_to_list Y /\ mfin X /\ mfin Y /\ below 2 (mval X) /\ below 2 (mval Y) /\
      let A := rmul (rtr (mval X)) (mval Y) in off_diag A /\ off_diag (rtr A)
  | _ => False
  end.

Lemma entries X Y : mfin X -> mfin Y -> below 2 (mval X) -> below 2 (mval Y) ->
  let A := rmul (rtr (mval X)) (mval Y) in let B := m3_mul (SK:=SK) (m3_trans X) Y in
  cl (a01 B) (a01 A) (72 * u) /\ cl (a02 B) (a02 A) (72 * u) /\ cl (a12 B) (a12 A) (72 * u) /\ Rabs (a01 A) <= 12 /\ Rabs (a02 A) <= 12 /\ Rabs (a12 A) <= 12.
Proof.
  intros (F00 & F01 & F02 & F10 & F11 & F12 & F20 & F21 & F22) (G00 & G01 & G02 & G10 & G11 & G12 & G20 & G21 & G22) BX BY.
  unfold below, flat9, mval in BX, BY. cbn [a00 a01 a02 a10 a11 a12 a20 a21 a22] in BX, BY.
  repeat match goal with H : Forall _ (_ :: _) |- _ => inversion H; clear H; subst | H : Forall _ [] |- _ => clear H end.
  assert (S2 : scale 2). { split; [apply Rle_trans with (bpow radix2 0); [apply bpow_le; lia|cbn; lra]|]. unfold B900. apply Rle_trans with (bpow radix2 1); [cbn; lra|apply bpow_le; lia]. }
  assert (P : forall r0 r1 r2 h0 h1 h2 : f64, isf r0 -> isf r1 -> isf r2 -> isf h0 -> isf h1 -> isf h2 -> Rabs (val r0) <= 2 -> Rabs (val r1) <= 2 -> Rabs (val r2) <= 2 ->
    Rabs (val h0) <= 2 -> Rabs (val h1) <= 2 -> Rabs (val h2) <= 2 -> cl (sum3 L (r0 *! h0) (r1 *! h1) (r2 *! h2)) (val r0 * val h0 + val r1 * val h1 + val r2 * val h2) (72 * u) /\ Rabs (val r0 * val h0 + val r1 * val h1 + val r2 * val h2) <= 12).
  { intros. split.
    - destruct (dot_scaled L r0 r1 r2 h0 h1 h2 (val r0) (val r1) (val r2) 0 2 S2) as [F E]; auto using app_exact; try lra. split; auto. lra.
    - assert (Q : forall a b, Rabs a <= 2 -> Rabs b <= 2 -> Rabs (a * b) <= 4) by (intros a b Ha Hb; rewrite Rabs_mult; apply Rle_trans with (2 * 2); [apply Rmult_le_compat; auto using Rabs_pos|lra]).
      eapply Rle_trans; [apply Rabs_triang|]. pose proof (Rabs_triang (val r0 * val h0) (val r1 * val h1)). pose proof (Q (val r0) (val h0)). pose proof (Q (val r1) (val h1)). pose proof (Q (val r2) (val h2)). intuition lra. }
  cbv zeta. unfold m3_mul, m3_trans, s3, rmul, rtr, mval. cbn [a00 a01 a02 a10 a11 a12 a20 a21 a22].
  destruct (P (a00 X) (a10 X) (a20 X) (a01 Y) (a11 Y) (a21 Y)) as [P1 Q1]; auto. destruct (P (a00 X) (a10 X) (a20 X) (a02 Y) (a12 Y) (a22 Y)) as [P2 Q2]; auto.
  destruct (P (a01 X) (a11 X) (a21 X) (a02 Y) (a12 Y) (a22 Y)) as [P3 Q3]; auto.
  repeat split; try apply P1; try apply P2; try apply P3; assumption.
Qed.
Lemma not_small (a b c : f64) A B C : cl a A (72 * u) -> cl b B (72 * u) -> cl c C (72 * u) -> Rabs A <= 12 -> Rabs B <= 12 -> Rabs C <= 12 ->
  1 / 10 ^ 7 <= Rabs A \/ 1 / 10 ^ 7 <= Rabs B \/ 1 / 10 ^ 7 <= Rabs C -> Bltb (Bsqrt mode_NE (nsq L a b c)) (lit8 L) = false.
Proof.
  intros [Fa Ea] [Fb Eb] [Fc Ec] HA HB HC H. pose proof u_pos as U. pose proof u_tiny as U1. assert (U2 : 72 * u <= 1 / 10 ^ 13) by (rewrite u_val; lra).
  assert (Sm : forall z Z, Rabs (val z - Z) <= 72 * u -> Rabs Z <= 12 -> 0 <= val z * val z <= 169) by (intros z Z E1 E2; apply Rabs_ends in E1, E2; split; nra).
  assert (Bg : forall z Z, Rabs (val z - Z) <= 72 * u -> 1 / 10 ^ 7 <= Rabs Z -> (9 / 10 ^ 8) * (9 / 10 ^ 8) <= val z * val z).
  { intros z Z E1 E2. assert (E3 : 9 / 10 ^ 8 <= Rabs (val z)) by (pose proof (Rabs_triang_inv Z (val z)); rewrite Rabs_minus_sym in E1; lra).
    replace (val z * val z) with (Rabs (val z) * Rabs (val z)) by (rewrite <- Rabs_mult; apply Rabs_pos_eq; nra). apply Rmult_le_compat; lra. }
  pose proof (Sm _ _ Ea HA) as Sa. pose proof (Sm _ _ Eb HB) as Sb. pose proof (Sm _ _ Ec HC) as Sc.
  set (N := sq3 (val a) (val b) (val c)). assert (EN : N = val a * val a + val b * val b + val c * val c) by reflexivity.
  assert (NL : (9 / 10 ^ 8) * (9 / 10 ^ 8) <= N) by (destruct H as [H|[H|H]]; [pose proof (Bg _ _ Ea H)|pose proof (Bg _ _ Eb H)|pose proof (Bg _ _ Ec H)]; lra).
  assert (NU : N <= B900) by (unfold B900; apply Rle_trans with (bpow radix2 10); [cbn; lra|apply bpow_le; lia]).
  destruct (norm3_tiny L a b c Fa Fb Fc) as [Fn En]; [fold N; split; [lra|exact NU]|]. fold N in En.
  assert (SN : 9 / 10 ^ 8 <= sqrt N) by (rewrite <- (sqrt_square (9 / 10 ^ 8)) by lra; apply sqrt_le_1_alt; exact NL).
  destruct (lit8_ok L) as [F8 [L1 L2]]. fold (nsq L a b c) in Fn, En. rewrite f_ltb by auto. apply Rlt_bool_false. apply Rabs_ends in En. assert (u * sqrt N <= 1 / 100 * sqrt N) by (apply Rmult_le_compat_r; [apply sqrt_pos|lra]). lra.
Qed.

Lemma anti_log64 o p X Y : length o = 3%nat -> length p = 3%nat -> mfin X -> mfin Y -> below 2 (mval X) -> below 2 (mval Y) ->
  (let A := rmul (rtr (mval X)) (mval Y) in off_diag A /\ off_diag (rtr A)) ->
  exists w w', em_pseudoLog (SK:=SK) o (m3_to_list X) (m3_to_list Y) = Ok w /\ em_pseudoLog (SK:=SK) p (m3_to_list Y) (m3_to_list X) = Ok w' /\ Forall2 contrary w w'.
Proof.
  intros Lo Lp FX FY BX BY [O1 O2].
  assert (PE : forall o X Y, em_pseudoLog (SK:=SK) o (m3_to_list X) (m3_to_list Y) = em_logarithm (SK:=SK) o (m3_mul (SK:=SK) (m3_trans X) Y)) by (intros ? [] []; reflexivity). rewrite !PE.
  assert (LG : forall o X Y, length o = 3%nat -> mfin X -> mfin Y -> below 2 (mval X) -> below 2 (mval Y) -> off_diag (rmul (rtr (mval X)) (mval Y)) ->
    let A := m3_mul (SK:=SK) (m3_trans X) Y in let t := f_acos L ((m3_trace (SK:=SK) A -! of_Z 1) /! klit (Scalar:=SK) 2 1) in let k := t /! (klit (Scalar:=SK) 2 1 *! f_sin L t) in
    em_logarithm (SK:=SK) o A = Ok [(a21 A -! a12 A) *! k; (a02 A -! a20 A) *! k; (a10 A -! a01 A) *! k]).
  { intros o0 X0 Y0 L0 F1 F2 B1 B2 OD A t k. destruct (entries X0 Y0 F1 F2 B1 B2) as (C1 & C2 & C3 & H1 & H2 & H3). fold A in C1, C2, C3.
    assert (NB : Bltb (Bsqrt mode_NE (nsq L (Bopp (a12 A)) (a02 A) (Bopp (a01 A)))) (lit8 L) = false).
    { apply (not_small _ _ _ _ _ _ (cl_opp _ _ _ C3) C2 (cl_opp _ _ _ C1)); rewrite ?Rabs_Ropp; auto. unfold off_diag in OD. tauto. }
    unfold em_logarithm. change (norm (SK:=SK) [kopp (Scalar:=SK) (a12 A); a02 A; kopp (Scalar:=SK) (a01 A)]) with (Bsqrt mode_NE (nsq L (Bopp (a12 A)) (a02 A) (Bopp (a01 A)))).
    change (kltb (Scalar:=SK)) with (@Bltb 53 1024). change (map_prec (SK:=SK)) with (lit8 L). rewrite NB.
    destruct o0 as [|o1 [|o2 [|o3 [|]]]]; try discriminate L0. reflexivity. }
  assert (TR : rmul (rtr (mval Y)) (mval X) = rtr (rmul (rtr (mval X)) (mval Y))) by (destruct X, Y; unfold rmul, rtr, mval; cbn; f_equal; ring).
  pose proof (LG o X Y Lo FX FY BX BY O1) as E1. pose proof (LG p Y X Lp FY FX BY BX ltac:(rewrite TR; exact O2)) as E2. rewrite mul_trans64 in E2.
  cbv zeta in E1, E2. set (A := m3_mul (SK:=SK) (m3_trans X) Y) in *. rewrite mul_trans64. fold A.
  do 2 eexists. split; [exact E1|]. split; [exact E2|]. clear E1 E2.
  replace (m3_trace (SK:=SK) (m3_trans A)) with (m3_trace (SK:=SK) A) by (destruct A; reflexivity).
  generalize (f_acos L ((m3_trace (SK:=SK) A -! of_Z 1) /! klit (Scalar:=SK) 2 1)). intros t. generalize (t /! (klit (Scalar:=SK) 2 1 *! f_sin L t)). intros k.
  clearbody A. destruct A as [b00 b01 b02 b10 b11 b12 b20 b21 b22]. unfold m3_trans. cbn [a00 a01 a02 a10 a11 a12 a20 a21 a22].
  repeat (apply Forall2_cons; [apply mul_contrary, sub_contrary|]). apply Forall2_nil.
Qed.

Lemma anti_leaf64 h l a b x y o p : let s := Leaf h l a b in leaf_wf h l a b -> apart64 s x y -> length x = representationDim s -> length y = representationDim s ->
  length o = tangentDim s -> length p = tangentDim s -> exists w w', pseudoLog s o x y = Ok w /\ pseudoLog s p y x = Ok w' /\ Forall2 contrary w w'.
Proof.
  intros s W H Lx Ly Lo Lp. unfold s in *. cbn [pseudoLog]. rewrite Lx, Ly, Lo, Lp, !Nat.eqb_refl. cbn [mnf_assert bind].
  unfold representationDim, tangentDim in *. cbn [hdr_of] in *. destruct l as [| |[|]]; cbn [apart64] in H; try contradiction; unfold leaf_wf in W.
  - exists (vsub y x), (vsub x y). assert (V : Forall2 contrary (vsub y x) (vsub x y)).
    { assert (LL : length x = length y) by lia. clear - LL. revert y LL. induction x as [|c x IH]; intros [|d y] E; try discriminate; [constructor|].
      change (vsub (d :: y) (c :: x)) with ((d -! c) :: vsub y x). change (vsub (c :: x) (d :: y)) with ((c -! d) :: vsub x y). constructor; [apply sub_contrary|apply IH; cbn in E; lia]. }
    assert (LV : forall a0 b0 : list f64, length a0 = length b0 -> length (vsub a0 b0) = length a0) by (induction a0 as [|c a0 IH]; intros [|d b0] E; try discriminate E; [reflexivity|cbn; f_equal; apply IH; cbn in E; lia]).
    unfold real_pseudoLog, same_size, assign. rewrite !LV by lia.
    replace (length y =? length x)%nat with true by (symmetry; apply Nat.eqb_eq; lia). replace (length x =? length y)%nat with true by (symmetry; apply Nat.eqb_eq; lia).
    replace (length o =? length y)%nat with true by (symmetry; apply Nat.eqb_eq; lia). replace (length p =? length x)%nat with true by (symmetry; apply Nat.eqb_eq; lia). cbn [bind]. auto.
  - destruct H as (X & Y & -> & -> & FX & FY & BX & BY & O). apply anti_log64; auto; lia.
Qed.
End Anti64.

(** Every tree of real spaces and rotation matrices, any sine and arc cosine, any order of summation: bit for bit opposite. *)
Theorem C75_doubles : forall (L : libm) (m : mfd f64) xs ys o p, built m -> Forall3 apart64 (leaves m) xs ys -> pieces DR (leaves m) xs -> pieces DR (leaves m) ys ->
  length o = tangentDim m -> length p = tangentDim m ->
  exists w w', pseudoLog (SK:=F64 L) m o (concat xs) (concat ys) = Ok w /\ pseudoLog (SK:=F64 L) m p (concat ys) (concat xs) = Ok w' /\ Forall2 contrary w w'.
Proof.
  intros L m xs ys o p B H Px Py Lo Lp. pose proof (built_wf m B) as W.
  destruct (cut_gen DT m o W Lo) as (os & -> & Po). destruct (cut_gen DT m p W Lp) as (ps & -> & Pp). pose proof (fun s => leaf_inv_gen m s W) as G.
  assert (E : exists ws vs, Forall5 (fun s o x y r => pseudoLog (SK:=F64 L) s o x y = Ok r) (leaves m) os xs ys ws /\ Forall5 (fun s o x y r => pseudoLog (SK:=F64 L) s o x y = Ok r) (leaves m) ps ys xs vs /\ Forall2 contrary (concat ws) (concat vs)).
  { clear W B Lo Lp. revert G Px Py Po Pp H. generalize (leaves m) as ls. intros ls. revert xs ys os ps.
    induction ls as [|s ls IH]; intros xs ys os ps G Px Py Po Pp H.
    - inversion H; subst. inversion Po; subst. inversion Pp; subst. exists [], []. repeat split; constructor.
    - inversion H as [|? x y ? xs' ys' H1 H2]; subst. inversion Px; subst. inversion Py; subst. inversion Po as [|? q ? os' Po1 Po2]; subst. inversion Pp as [|? r ? ps' Pp1 Pp2]; subst.
      destruct (IH xs' ys' os' ps') as (ws & vs & A1 & A2 & A3); auto. { intros q0 Hq. apply G. simpl; auto. }
      destruct (G s) as (h & l & a & b & -> & Wl); [simpl; auto|].
      destruct (anti_leaf64 L h l a b x y q r Wl H1) as (w & w' & E1 & E2 & E3); auto.
      exists (w :: ws), (w' :: vs). split; [constructor; auto|]. split; [constructor; auto|]. cbn [concat]. apply Forall2_app; auto. }
  destruct E as (ws & vs & A1 & A2 & A3). exists (concat ws), (concat vs). split; [|split; [|exact A3]].
  - apply (flat_op DT DR DR pseudoLog pseudoLog_prod m W); eauto.
  - apply (flat_op DT DR DR pseudoLog pseudoLog_prod m W); eauto.
Qed.

(** The computed distance is the same both ways, bit for bit. *)
Lemma sq_contrary a b : contrary a b -> b *! b = a *! a.
Proof.
  intros [->|(s & t & -> & ->)]; [|destruct s, t; reflexivity].
  destruct (is_finite a) eqn:F; [|destruct a as [s|s| |s ? ? ?]; try discriminate F; try reflexivity; destruct s; reflexivity].
  assert (NN : is_nan a = false) by (destruct a; auto; discriminate F).
  pose proof (Bmult_correct 53 1024 _ _ mode_NE a a) as H1. pose proof (Bmult_correct 53 1024 _ _ mode_NE (Bopp a) (Bopp a)) as H2.
  rewrite !B2R_Bopp, !is_finite_Bopp, !Bsign_Bopp in H2 by exact NN. replace (- val a * - val a) with (val a * val a) in H2 by ring. rewrite xorb_nilpotent in H1, H2. rewrite F in H1, H2.
  destruct (Rlt_bool _ _).
  - destruct H1 as (V1 & F1 & S1). destruct H2 as (V2 & F2 & S2).
    assert (N : forall z : f64, is_finite z = true -> is_nan z = false) by (intros []; auto; discriminate).
    apply B2R_Bsign_inj; auto; [rewrite V1, V2; reflexivity|]. rewrite S1, S2; auto.
  - apply inf_of in H1. apply inf_of in H2. rewrite H1, H2. reflexivity.
Qed.
Theorem C75_distance : forall (L : libm) (m : mfd f64) xs ys o p, built m -> Forall3 apart64 (leaves m) xs ys -> pieces DR (leaves m) xs -> pieces DR (leaves m) ys ->
  length o = tangentDim m -> length p = tangentDim m ->
  exists w w', pseudoLog (SK:=F64 L) m o (concat xs) (concat ys) = Ok w /\ pseudoLog (SK:=F64 L) m p (concat ys) (concat xs) = Ok w' /\ norm (SK:=F64 L) w' = norm (SK:=F64 L) w.
Proof.
  intros L m xs ys o p B H Px Py Lo Lp. destruct (C75_doubles L m xs ys o p B H Px Py Lo Lp) as (w & w' & E1 & E2 & C). exists w, w'. split; auto. split; auto.
  unfold norm, sqnorm, dot. f_equal. f_equal. clear - C. induction C as [|a b w w' H C IH]; [reflexivity|].
  change (b *! b :: map2 (Bmult mode_NE (prec:=53) (emax:=1024)) w' w' = a *! a :: map2 (Bmult mode_NE (prec:=53) (emax:=1024)) w w). f_equal; [apply sq_contrary; exact H|exact IH].
Qed.

(** A point of the plane and a quarter turn, to another point and no turn: any sine, arc cosine and order of summation. *)
Example C75_example_doubles : forall L, let m := get prod_empty (prod2 (fR2 L) (fM L)) in forall o, length o = 5%nat ->
  exists w w', pseudoLog (SK:=F64 L) m o (concat [fi [3; 4]%Z; fi [0; 1; 0; -1; 0; 0; 0; 0; 1]%Z]) (concat [fi [1; 7]%Z; fi [1; 0; 0; 0; 1; 0; 0; 0; 1]%Z]) = Ok w /\
    pseudoLog (SK:=F64 L) m o (concat [fi [1; 7]%Z; fi [1; 0; 0; 0; 1; 0; 0; 0; 1]%Z]) (concat [fi [3; 4]%Z; fi [0; 1; 0; -1; 0; 0; 0; 0; 1]%Z]) = Ok w' /\ Forall2 contrary w w'.
Proof.
  intros L m o Lo. destruct (of_Z_ok 1 ltac:(lia)) as [F1 V1]. destruct (of_Z_ok 0 ltac:(lia)) as [F0 V0]. destruct (of_Z_ok (-1) ltac:(lia)) as [F2 V2].
  apply C75_doubles; auto.
  - apply (prod2_built64 (fR2 L) (fM L)); [apply (built_real_mag 2 (k1 (Scalar:=F64 L))); reflexivity|apply (built_so3 MapMatrix [kpi (Scalar:=F64 L); kpi (Scalar:=F64 L); kpi (Scalar:=F64 L)]); reflexivity|reflexivity].
  - change (leaves m) with [fR2 L; fM L]. apply Forall3_cons; [exact I|]. apply Forall3_cons; [|apply Forall3_nil].
    exists (M3 (of_Z 0) (of_Z (-1)) (of_Z 0) (of_Z 1) (of_Z 0) (of_Z 0) (of_Z 0) (of_Z 0) (of_Z 1)), (M3 (of_Z 1) (of_Z 0) (of_Z 0) (of_Z 0) (of_Z 1) (of_Z 0) (of_Z 0) (of_Z 0) (of_Z 1)).
    split; [reflexivity|]. split; [reflexivity|]. split; [unfold mfin; cbn [a00 a01 a02 a10 a11 a12 a20 a21 a22]; tauto|]. split; [unfold mfin; cbn [a00 a01 a02 a10 a11 a12 a20 a21 a22]; tauto|].
    unfold below, mval, flat9, rmul, rtr, off_diag. cbn [a00 a01 a02 a10 a11 a12 a20 a21 a22]. rewrite V0, V1, V2.
    split; [repeat (apply Forall_cons; [apply Rabs_le; lra|]); apply Forall_nil|]. split; [repeat (apply Forall_cons; [apply Rabs_le; lra|]); apply Forall_nil|]. split; left.
    + replace (0 * 0 + 1 * 1 + 0 * 0) with 1 by ring. rewrite Rabs_pos_eq; lra.
    + replace (-1 * 1 + 0 * 0 + 0 * 0) with (-1) by ring. rewrite Rabs_left; lra.
  - change (leaves m) with [fR2 L; fM L]. repeat constructor.
  - change (leaves m) with [fR2 L; fM L]. repeat constructor.
Qed.
Print Assumptions C75_exact.
Print Assumptions C75_points.
Print Assumptions C75_small_refuted.
Print Assumptions C75_doubles.
Print Assumptions C75_distance.
