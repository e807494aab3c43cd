(** C78: rotation matrices and quaternions moved by the same vectors in doubles keep describing the same rotation. *)
From Coq Require Import Reals List Lra Lia ZArith Bool Arith Psatz.
From Flocq Require Import Core BinarySingleNaN.
From Verif Require Import Base Scalar Vec Model_Real Model_S2 Model_SO3 Model_Manifold Spec Layout Comp Flat
  XR SpecR RotR NumVec F64 F64Err F64Norm F64Exp F64Mat F64Tree F64Go FloatPath ExScalar Properties_Float Properties_FloatPath Properties_FloatLog Properties_FloatFind.
From Verif Require Relog NumExp F64Quat F64Log F64LogQ.
Import ListNotations.
Local Open Scope R_scope.

(** The matrix of the map p |-> q p q* (for q of norm 1, the rotation of q; SpecR.qmat is the formula of Eigen's
    toRotationMatrix, equal to it on the unit quaternions). *)
Definition turn_of (q : quat R) : m3 R :=
  let w := qw q in let x := qx q in let y := qy q in let z := qz q in
  M3 (w * w + x * x - y * y - z * z) (2 * (x * y - w * z)) (2 * (x * z + w * y))
     (2 * (x * y + w * z)) (w * w - x * x + y * y - z * z) (2 * (y * z - w * x))
     (2 * (x * z - w * y)) (2 * (y * z + w * x)) (w * w - x * x - y * y + z * z).

(** The product of the exponentials of a list of vectors. *)
Fixpoint exps (vs : list (list R)) : quat R := match vs with [] => Q4 1 0 0 0 | v :: vs' => qprod (expQ v) (exps vs') end.
Lemma exps_unit vs : qn2 (exps vs) = 1.
Proof. induction vs as [|v vs IH]; cbn [exps]; [unfold qn2; cbn; ring|]. rewrite qn2_mul, expQ_unit, IH. ring. Qed.

Section Leaves.
Variables (h h' : hdr) (a a' b b' : list f64).
Local Notation sM := (Leaf h (LSO3 MapMatrix) a b).
Local Notation sQ := (Leaf h' (LSO3 MapQuat) a' b').

Lemma one_step B s x v y : step_leaf s x v y -> within B s y -> leaves s = [s] -> stepM B s x v y.
Proof.
  intros H W E. exists [x], [v], [y]. rewrite E. cbn [concat]. rewrite !app_nil_r. repeat split; auto.
  - apply Forall4_cons; [exact H|apply Forall4_nil].
Qed.
Lemma walk_M B vs : Forall (fun v => length v = 3%nat) vs -> forall A, walk B sM (flat9 A) vs (flat9 (rmul A (turn_of (exps vs)))).
Proof.
  induction 1 as [|v vs Hv F IH]; intros A; cbn [walk exps].
  - f_equal. replace (turn_of (Q4 1 0 0 0)) with ridm; [apply rmul_id_r|]. unfold turn_of, ridm. cbn. f_equal; ring.
  - exists (flat9 (rmul A (expSO3 v))). split.
    + apply one_step; [|exact I|reflexivity]. cbn [step_leaf]. split; auto. exists A. split; reflexivity.
    + replace (rmul A (turn_of (qprod (expQ v) (exps vs)))) with (rmul (rmul A (expSO3 v)) (turn_of (exps vs))); [apply IH|].
      rewrite rmul_assoc. f_equal. change (turn_of (qprod (expQ v) (exps vs))) with (qmatH (qprod (expQ v) (exps vs))). rewrite qmatH_mul. f_equal.
      rewrite <- (qmat_expQ v Hv). apply qmat_H, expQ_unit.
Qed.
Lemma walk_Q B vs : Forall (fun v => length v = 3%nat) vs -> forall q, walk B sQ (qflat q) vs (qflat (qprod q (exps vs))).
Proof.
  induction 1 as [|v vs Hv F IH]; intros q; cbn [walk exps].
  - f_equal. destruct q. unfold qprod. cbn. f_equal; ring.
  - exists (qflat (qprod q (expQ v))). split.
    + apply one_step; [|exact I|reflexivity]. cbn [step_leaf]. split; auto. exists q. split; reflexivity.
    + rewrite <- qprod_assoc. apply IH.
Qed.
End Leaves.

Lemma Rabs_le_both x e : Rabs x <= e -> - e <= x <= e.
Proof. intros H. pose proof (Rle_abs x). pose proof (Rle_abs (- x)) as G. rewrite Rabs_Ropp in G. lra. Qed.
Lemma mul_close a b c d e : Rabs (a - b) <= e -> Rabs (c - d) <= e -> Rabs b <= 1001 / 1000 -> Rabs d <= 1001 / 1000 -> e <= 1 / 1000 -> Rabs (a * c - b * d) <= 2003 / 1000 * e.
Proof.
  intros H1 H2 H3 H4 H5. replace (a * c - b * d) with ((a - b) * (c - d) + ((a - b) * d + b * (c - d))) by ring.
  eapply Rle_trans; [apply Rabs_triang|]. pose proof (Rabs_triang ((a - b) * d) (b * (c - d))) as T. rewrite !Rabs_mult in *.
  pose proof (Rabs_pos (a - b)) as P1. pose proof (Rabs_pos (c - d)) as P2. pose proof (Rabs_pos b) as P3. pose proof (Rabs_pos d) as P4.
  assert (M1 : Rabs (a - b) * Rabs (c - d) <= e * e) by (apply Rmult_le_compat; auto).
  assert (M2 : Rabs (a - b) * Rabs d <= e * (1001 / 1000)) by (apply Rmult_le_compat; auto).
  assert (M3' : Rabs b * Rabs (c - d) <= 1001 / 1000 * e) by (apply Rmult_le_compat; auto).
  assert (M4 : e * e <= e * (1 / 1000)) by (apply Rmult_le_compat_l; lra). lra.
Qed.
Lemma turn_close p q e : near_v e (qflat p) (qflat q) -> qn2 q <= 1002 / 1000 -> e <= 1 / 1000 -> near_v (82 / 10 * e) (flat9 (turn_of p)) (flat9 (turn_of q)).
Proof.
  destruct p as [a b c d]. destruct q as [a' b' c' d']. unfold near_v, qflat, flat9, turn_of, qn2. cbn [qw qx qy qz a00 a01 a02 a10 a11 a12 a20 a21 a22]. intros H N He.
  inversion H as [|? ? ? ? H0 I0]; subst. inversion I0 as [|? ? ? ? H1 I1]; subst. inversion I1 as [|? ? ? ? H2 I2]; subst. inversion I2 as [|? ? ? ? H3 _]; subst. clear H I0 I1 I2.
  assert (E0 : 0 <= e) by (eapply Rle_trans; [apply Rabs_pos|exact H0]).
  assert (S : forall x, x * x <= 1002 / 1000 -> Rabs x <= 1001 / 1000) by (intros x Hx; apply Rabs_le; split; nra).
  assert (A' : Rabs a' <= 1001 / 1000) by (apply S; nra). assert (B' : Rabs b' <= 1001 / 1000) by (apply S; nra). assert (C' : Rabs c' <= 1001 / 1000) by (apply S; nra). assert (D' : Rabs d' <= 1001 / 1000) by (apply S; nra). clear S N.
  pose proof (fun x x' y y' Hx Hy Gx Gy => Rabs_le_both _ _ (mul_close x x' y y' e Hx Hy Gx Gy He)) as M.
  pose proof (M a a' a a' H0 H0 A' A') as Maa. pose proof (M b b' b b' H1 H1 B' B') as Mbb. pose proof (M c c' c c' H2 H2 C' C') as Mcc. pose proof (M d d' d d' H3 H3 D' D') as Mdd.
  pose proof (M b b' c c' H1 H2 B' C') as Mbc. pose proof (M a a' d d' H0 H3 A' D') as Mad. pose proof (M b b' d d' H1 H3 B' D') as Mbd. pose proof (M a a' c c' H0 H2 A' C') as Mac.
  pose proof (M c c' d d' H2 H3 C' D') as Mcd. pose proof (M a a' b b' H0 H1 A' B') as Mab. clear M H0 H1 H2 H3 A' B' C' D'.
  repeat (apply Forall2_cons; [apply Rabs_le; lra|]). apply Forall2_nil.
Qed.

Lemma col_two x y z : x * x + y * y + z * z = 1 -> Rabs x + Rabs y + Rabs z <= 2.
Proof.
  intros H. pose proof (Rabs_pos x) as P1. pose proof (Rabs_pos y) as P2. pose proof (Rabs_pos z) as P3.
  assert (Q : Rabs x * Rabs x + Rabs y * Rabs y + Rabs z * Rabs z = 1) by (rewrite <- !Rabs_mult, !(Rabs_pos_eq (_ * _)) by nra; exact H).
  revert P1 P2 P3 Q. generalize (Rabs x) (Rabs y) (Rabs z). clear. intros x y z P1 P2 P3 Q.
  pose proof (pow2_ge_0 (x - y)) as S1. pose proof (pow2_ge_0 (y - z)) as S2. pose proof (pow2_ge_0 (x - z)) as S3. nra.
Qed.
Lemma dot_close a b c a' b' c' x y z e : Rabs (a - a') <= e -> Rabs (b - b') <= e -> Rabs (c - c') <= e -> x * x + y * y + z * z = 1 ->
  Rabs (a * x + b * y + c * z - (a' * x + b' * y + c' * z)) <= 2 * e.
Proof.
  intros H1 H2 H3 N. apply col_two in N. replace (a * x + b * y + c * z - (a' * x + b' * y + c' * z)) with ((a - a') * x + (b - b') * y + (c - c') * z) by ring.
  pose proof (Rabs_triang ((a - a') * x + (b - b') * y) ((c - c') * z)) as T1. pose proof (Rabs_triang ((a - a') * x) ((b - b') * y)) as T2. rewrite !Rabs_mult in *.
  pose proof (Rmult_le_compat_r _ _ _ (Rabs_pos x) H1) as M1. pose proof (Rmult_le_compat_r _ _ _ (Rabs_pos y) H2) as M2. pose proof (Rmult_le_compat_r _ _ _ (Rabs_pos z) H3) as M3'.
  assert (E0 : 0 <= e) by (eapply Rle_trans; [apply Rabs_pos|exact H1]).
  assert (M4 : e * (Rabs x + Rabs y + Rabs z) <= e * 2) by (apply Rmult_le_compat_l; lra). lra.
Qed.
Lemma rmul_close A B C e : near_v e (flat9 A) (flat9 B) -> rmul (rtr C) C = ridm -> near_v (2 * e) (flat9 (rmul A C)) (flat9 (rmul B C)).
Proof.
  destruct A as [p00 p01 p02 p10 p11 p12 p20 p21 p22]. destruct B as [q00 q01 q02 q10 q11 q12 q20 q21 q22]. destruct C as [c00 c01 c02 c10 c11 c12 c20 c21 c22].
  unfold near_v, flat9, ridm. cbn [rmul rtr a00 a01 a02 a10 a11 a12 a20 a21 a22]. intros H E.
  assert (N0 : c00 * c00 + c10 * c10 + c20 * c20 = 1) by (injection E; intros; lra). assert (N1 : c01 * c01 + c11 * c11 + c21 * c21 = 1) by (injection E; intros; lra). assert (N2 : c02 * c02 + c12 * c12 + c22 * c22 = 1) by (injection E; intros; lra).
  clear E. repeat match goal with H : Forall2 _ (_ :: _) _ |- _ => inversion H; clear H; subst end.
  repeat (apply Forall2_cons; [apply dot_close; assumption|]). apply Forall2_nil.
Qed.

(** One leaf: the end of the computed path is near the end of the exact one. *)
Lemma leaf_path L (s : mfd f64) x vs r w d : accurate L -> built s -> leaves s = [s] -> 0 <= d -> defect64 d s x -> Forall isf x ->
  Forall (fun v => length v = tangentDim s /\ mild s v) vs -> Forall (Forall isf) vs -> increments64 L s x vs = Ok r -> walk 0 s (vals x) (map (fun v => vals v) vs) w ->
  3 * d + 1240 * INR (length vs) * / 2 ^ 53 <= 1 / 1000 -> Forall isf r /\ near_v (INR (length vs) * / 2 ^ 53 * cost 0 s) (vals r) w.
Proof.
  intros HL B E D0 Hd Fx Hv Fv H Hw He. destruct (C62_path L s x vs r w d 0) as (rs & ws & -> & -> & F); auto.
  - exists [x]. split; [cbn [concat]; rewrite app_nil_r; reflexivity|]. rewrite E. constructor; auto.
  - clear - Hv E. induction Hv as [|v vs H F IH]; constructor; auto. exists [v]. split; [cbn [concat]; rewrite app_nil_r; reflexivity|]. rewrite E. constructor; auto.
  - split; [lra|apply bpow_ge_0].
  - rewrite E in F. inversion F as [|? r0 w0 ? ? ? (_ & G1 & G2) F']; subst. inversion F'; subst. cbn [concat]. rewrite !app_nil_r. auto.
Qed.

(** C78: the same n vectors, in doubles, from a matrix and a quaternion whose rotations agree up to [e] per entry: after
    the n moves they agree up to 2 e + 1717 n 2^-53 per entry.  The start is within [d] of the group, any n up to 7e9;
    the two objects may even use two C libraries. *)
Theorem C78_together : forall L L' (h h' : hdr) (a a' b b' : list f64) (x y : list f64) (vs : list (list f64)) (r r' : list f64) (A : m3 R) (q : quat R) (d e : R),
  let sM := Leaf h (LSO3 MapMatrix) a b in let sQ := Leaf h' (LSO3 MapQuat) a' b' in
  accurate L -> accurate L' -> built sM -> built sQ ->
  Forall isf x -> Forall isf y -> vals x = flat9 A -> vals y = qflat q -> 0 <= d -> near_rot d A -> Rabs (qn2 q - 1) <= d ->
  near_v e (flat9 A) (flat9 (turn_of q)) ->
  Forall (fun v => length v = 3%nat /\ Forall isf v) vs ->
  3 * d + 1240 * INR (length vs) * / 2 ^ 53 <= 1 / 1000 ->
  increments64 L sM x vs = Ok r -> increments64 L' sQ y vs = Ok r' ->
  exists p, Forall isf r /\ Forall isf r' /\ vals r' = qflat p /\
    near_v (2 * e + 1717 * INR (length vs) * / 2 ^ 53) (vals r) (flat9 (turn_of p)).
Proof.
  intros L L' h h' a a' b b' x y vs r r' A q d e sM sQ HL HL' BM BQ Fx Fy Vx Vy D0 NA Nq Ne Hv He H H'.
  assert (V3 : Forall (fun v => length v = 3%nat) (map (fun v => vals v) vs)).
  { clear - Hv. induction Hv as [|v vs [Hv _] F IH]; cbn [map]; constructor; auto. etransitivity; [apply map_length|exact Hv]. }
  assert (Fv : Forall (Forall isf) vs) by (eapply Forall_impl; [|exact Hv]; intros v [_ Gv]; exact Gv).
  assert (TM : tangentDim sM = 3%nat) by (pose proof (built_wf _ BM) as W; inversion W as [? ? ? ? Wl|]; subst; unfold leaf_wf in Wl; cbn; intuition lia).
  assert (TQ : tangentDim sQ = 3%nat) by (pose proof (built_wf _ BQ) as W; inversion W as [? ? ? ? Wl|]; subst; unfold leaf_wf in Wl; cbn; intuition lia).
  set (P := exps (map (fun v => vals v) vs)). pose proof (exps_unit (map (fun v => vals v) vs)) as NP. fold P in NP.
  destruct (leaf_path L sM x vs r (flat9 (rmul A (turn_of P))) d) as [Fr Gr]; auto.
  { split; auto. exists A. auto. }
  { eapply Forall_impl; [|exact Hv]. intros v [Lv _]. split; [rewrite TM; exact Lv|exact I]. }
  { rewrite Vx. apply walk_M. exact V3. }
  destruct (leaf_path L' sQ y vs r' (qflat (qprod q P)) d) as [Fr' Gr']; auto.
  { split; auto. exists q. auto. }
  { eapply Forall_impl; [|exact Hv]. intros v [Lv _]. split; [rewrite TQ; exact Lv|exact I]. }
  { rewrite Vy. apply walk_Q. exact V3. }
  assert (C1 : cost 0 sM = 372) by reflexivity. assert (C2 : cost 0 sQ = 164) by reflexivity. rewrite C1 in Gr. rewrite C2 in Gr'.
  assert (U0 : 0 < / 2 ^ 53) by (apply Rinv_0_lt_compat; cbn [pow]; lra). set (n := INR (length vs) * / 2 ^ 53) in *.
  assert (N0 : 0 <= n) by (unfold n; apply Rmult_le_pos; [apply pos_INR|lra]).
  assert (He' : 3 * d + 1240 * n <= 1 / 1000) by (unfold n; lra).
  assert (EQ : exists p, vals r' = qflat p).
  { inversion Gr' as [|p0 ? l0 ? _ I0 E0]. inversion I0 as [|p1 ? l1 ? _ I1]; subst. inversion I1 as [|p2 ? l2 ? _ I2]; subst. inversion I2 as [|p3 ? l3 ? _ I3]; subst. inversion I3; subst.
    exists (Q4 p0 p1 p2 p3). reflexivity. }
  destruct EQ as [p Ep]. exists p. split; auto. split; auto. split; auto. rewrite Ep in Gr'.
  assert (Nq2 : qn2 (qprod q P) <= 1002 / 1000). { rewrite qn2_mul, NP. apply Rabs_le_both in Nq. lra. }
  pose proof (turn_close p (qprod q P) (n * 164) Gr' Nq2 ltac:(lra)) as T. apply Relog.near_v_sym in T.
  assert (EH : turn_of (qprod q P) = rmul (turn_of q) (turn_of P)) by apply (qmatH_mul q P). rewrite EH in T.
  assert (OP : rmul (rtr (turn_of P)) (turn_of P) = ridm). { change (turn_of P) with (qmatH P). rewrite <- (qmat_H P NP). apply (qmat_rot P NP). }
  pose proof (rmul_close A (turn_of q) (turn_of P) e Ne OP) as M.
  pose proof (Relog.near_v_trans _ _ _ _ _ Gr (Relog.near_v_trans _ _ _ _ _ M T)) as Z.
  eapply NumExp.near_v_mono; [|exact Z]. unfold n in *. lra.
Qed.
Print Assumptions C78_together.

(** Both start at the identity, as setZero writes it over any coordinates: after n moves the two rotations differ by at
    most 1717 n 2^-53 per entry. *)
Theorem C78_from_zero : forall L L' (h h' : hdr) (a a' b b' : list f64) (vs : list (list f64)) (x0 y0 x y r r' : list f64),
  let sM := Leaf h (LSO3 MapMatrix) a b in let sQ := Leaf h' (LSO3 MapQuat) a' b' in
  accurate L -> accurate L' -> built sM -> built sQ ->
  setZero (SK:=F64 L) sM x0 = Ok x -> setZero (SK:=F64 L') sQ y0 = Ok y ->
  Forall (fun v => length v = 3%nat /\ Forall isf v) vs -> 1240 * INR (length vs) * / 2 ^ 53 <= 1 / 1000 ->
  increments64 L sM x vs = Ok r -> increments64 L' sQ y vs = Ok r' ->
  exists p, Forall isf r /\ Forall isf r' /\ vals r' = qflat p /\ near_v (1717 * INR (length vs) * / 2 ^ 53) (vals r) (flat9 (turn_of p)).
Proof.
  intros L L' h h' a a' b b' vs x0 y0 x y r r' sM sQ HL HL' BM BQ Zx Zy Hv He H H'.
  assert (Ex : x = fi [1; 0; 0; 0; 1; 0; 0; 0; 1]%Z).
  { assert (LM : representationDim sM = 9%nat) by (pose proof (built_wf _ BM) as W; inversion W as [? ? ? ? Wl|]; subst; unfold leaf_wf in Wl; cbn; intuition lia).
    unfold sM in Zx, LM. cbn [setZero] in Zx. destruct (Nat.eqb_spec (length x0) (representationDim (Leaf h (LSO3 MapMatrix) a b))) as [E|E]; unfold mnf_assert in Zx; cbn [bind] in Zx; [|discriminate Zx]. rewrite LM in E.
    destruct x0 as [|z0 [|z1 [|z2 [|z3 [|z4 [|z5 [|z6 [|z7 [|z8 [|]]]]]]]]]]; try discriminate E. unfold em_setZero in Zx. cbn in Zx. apply F64Quat.ok_eq in Zx. rewrite Zx. reflexivity. }
  assert (Ey : y = fi [1; 0; 0; 0]%Z).
  { assert (LQ : representationDim sQ = 4%nat) by (pose proof (built_wf _ BQ) as W; inversion W as [? ? ? ? Wl|]; subst; unfold leaf_wf in Wl; cbn; intuition lia).
    unfold sQ in Zy, LQ. cbn [setZero] in Zy. destruct (Nat.eqb_spec (length y0) (representationDim (Leaf h' (LSO3 MapQuat) a' b'))) as [E|E]; unfold mnf_assert in Zy; cbn [bind] in Zy; [|discriminate Zy]. rewrite LQ in E.
    destruct y0 as [|z0 [|z1 [|z2 [|z3 [|]]]]]; try discriminate E. unfold eq_setZero in Zy. cbn in Zy. apply F64Quat.ok_eq in Zy. rewrite Zy. reflexivity. }
  destruct (vals_fi [1; 0; 0; 0; 1; 0; 0; 0; 1]%Z) as [F9 V9]; [repeat constructor; lia|]. destruct (vals_fi [1; 0; 0; 0]%Z) as [F4 V4]; [repeat constructor; lia|].
  rewrite <- Ex in F9, V9. rewrite <- Ey in F4, V4. clear Ex Ey.
  destruct (C78_together L L' h h' a a' b b' x y vs r r' ridm (Q4 1 0 0 0) 0 0) as (p & Fr & Fr' & Ep & G); auto; try lra.
  - unfold near_rot, rdet, ridm. cbn [rmul rtr a00 a01 a02 a10 a11 a12 a20 a21 a22]. repeat split; apply Rabs_le; lra.
  - unfold qn2. cbn [qw qx qy qz]. apply Rabs_le. lra.
  - unfold turn_of, ridm, near_v, flat9. cbn [qw qx qy qz a00 a01 a02 a10 a11 a12 a20 a21 a22]. repeat (apply Forall2_cons; [apply Rabs_le; lra|]). apply Forall2_nil.
  - exists p. split; auto. split; auto. split; auto. eapply NumExp.near_v_mono; [|exact G]. lra.
Qed.
Print Assumptions C78_from_zero.

(** A half turn around the second axis, then k times the vector (1, 0, 0), for every k: as a matrix and as a quaternion. *)
Example C78_example : forall k, 1240 * INR k * / 2 ^ 53 <= 1 / 1000 -> exists r r' p,
  increments64 libm_exact (fM libm_exact) (fi [-1; 0; 0; 0; 1; 0; 0; 0; -1]%Z) (repeat (fi [1; 0; 0]%Z) k) = Ok r /\
  increments64 (in_order libm_exact) (fQ libm_exact) (fi [0; 0; 1; 0]%Z) (repeat (fi [1; 0; 0]%Z) k) = Ok r' /\
  vals r' = qflat p /\ near_v (1717 * INR k * / 2 ^ 53) (vals r) (flat9 (turn_of p)).
Proof.
  intros k Hk. destruct (vals_fi [-1; 0; 0; 0; 1; 0; 0; 0; -1]%Z) as [F9 V9]; [repeat constructor; lia|]. destruct (vals_fi [0; 0; 1; 0]%Z) as [F4 V4]; [repeat constructor; lia|].
  destruct (vals_fi [1; 0; 0]%Z) as [F3 V3]; [repeat constructor; lia|].
  assert (BM : built (fM libm_exact)) by (apply (built_so3 MapMatrix [kpi (Scalar:=F64 libm_exact); kpi (Scalar:=F64 libm_exact); kpi (Scalar:=F64 libm_exact)]); reflexivity).
  assert (BQ : built (fQ libm_exact)) by (apply (built_so3 MapQuat [kpi (Scalar:=F64 libm_exact); kpi (Scalar:=F64 libm_exact); kpi (Scalar:=F64 libm_exact)]); reflexivity).
  assert (N : rnorm (vals (fi [1; 0; 0]%Z)) <= 314 / 100). { rewrite V3. cbn [map]. unfold rnorm. replace (rdot _ _) with (1 * 1) by (simpl; ring). rewrite sqrt_square; lra. }
  assert (AI : accurate (in_order libm_exact)) by exact libm_exact_ok.
  destruct (C49_never_stops libm_exact (fM libm_exact) (fi [-1; 0; 0; 0; 1; 0; 0; 0; -1]%Z) (repeat (fi [1; 0; 0]%Z) k) BM eq_refl) as [r Hr].
  { apply Forall_forall. intros v Hv. apply repeat_spec in Hv. subst v. exists [fi [1; 0; 0]%Z]. split; [reflexivity|]. apply Forall2_cons; [|apply Forall2_nil]. split; [reflexivity|]. split; [exact F3|exact N]. }
  destruct (C49_never_stops (in_order libm_exact) (fQ libm_exact) (fi [0; 0; 1; 0]%Z) (repeat (fi [1; 0; 0]%Z) k) BQ eq_refl) as [r' Hr'].
  { apply Forall_forall. intros v Hv. apply repeat_spec in Hv. subst v. exists [fi [1; 0; 0]%Z]. split; [reflexivity|]. apply Forall2_cons; [|apply Forall2_nil]. split; [reflexivity|]. split; [exact F3|exact N]. }
  exists r, r'.
  assert (EM : exists h a b, fM libm_exact = Leaf h (LSO3 MapMatrix) a b) by (do 3 eexists; reflexivity). destruct EM as (h & a & b & EM).
  assert (EQ : exists h' a' b', fQ libm_exact = Leaf h' (LSO3 MapQuat) a' b') by (do 3 eexists; reflexivity). destruct EQ as (h' & a' & b' & EQ).
  rewrite EM in *. rewrite EQ in *. clear EM EQ.
  destruct (C78_together libm_exact (in_order libm_exact) h h' a a' b b' (fi [-1; 0; 0; 0; 1; 0; 0; 0; -1]%Z) (fi [0; 0; 1; 0]%Z) (repeat (fi [1; 0; 0]%Z) k) r r' (M3 (-1) 0 0 0 1 0 0 0 (-1)) (Q4 0 0 1 0) 0 0 libm_exact_ok AI BM BQ F9 F4 V9 V4) as (p & Fr & Fr' & Ep & G); try exact Hr; try exact Hr'; try lra.
  - unfold near_rot, rdet. cbn [rmul rtr a00 a01 a02 a10 a11 a12 a20 a21 a22]. repeat split; apply Rabs_le; lra.
  - unfold qn2. cbn [qw qx qy qz]. apply Rabs_le. lra.
  - unfold turn_of, near_v, flat9. cbn [qw qx qy qz a00 a01 a02 a10 a11 a12 a20 a21 a22]. repeat (apply Forall2_cons; [apply Rabs_le; lra|]). apply Forall2_nil.
  - apply Forall_forall. intros v Hv. apply repeat_spec in Hv. subst v. split; [reflexivity|exact F3].
  - rewrite repeat_length. lra.
  - rewrite repeat_length in G. exists p. split; [exact Hr|]. split; [exact Hr'|]. split; [exact Ep|]. eapply NumExp.near_v_mono; [|exact G]. lra.
Qed.

(** ** Logarithms *)
Lemma leaf_find L (s : mfd f64) x v y p d e : accurate_log L -> built s -> leaves s = [s] -> 0 <= d <= 1 / 3000 -> 0 <= e <= 1 / 1000 -> defect64 d s x -> reached e s x v y -> findable d e s v -> length p = tangentDim s ->
  exists w, pseudoLog (SK:=F64 L) s p x y = Ok w /\ Forall isf w /\
    match s with
    | Leaf _ (LSO3 MapMatrix) _ _ =>
        (rnorm v <= 1 / 10 ^ 9 -> near_v (10 * / 2 ^ 53 + 6 * d + 4 * e) (vals w) v) /\
        (1 / 10 ^ 9 < rnorm v <= PI / 2 -> near_v (1450 * / 2 ^ 53 + 522 * d + 301 * e) (vals w) v) /\
        (PI / 2 < rnorm v -> near_v ((857 * / 2 ^ 53 + 288 * d + 166 * e) / (sin (rnorm v)) ^ 2) (vals w) v)
    | Leaf _ (LSO3 MapQuat) _ _ => near_v (6800 * / 2 ^ 53 + 745 * e) (vals w) v
    | _ => True
    end.
Proof.
  intros HL B E Hd He Hx Hy Hf Lp. destruct (C67_find L s [x] [v] [y] p d e HL B Hd He) as (ws & H & F); try (rewrite E); auto.
  { apply Forall4_cons; [exact Hy|apply Forall4_nil]. }
  cbn [concat] in H. rewrite !app_nil_r in H. rewrite E in F. inversion F as [|? ? w ? ? ? (F1 & F2) F0]; subst. inversion F0; subst. cbn [concat] in H. rewrite app_nil_r in H. exists w. split; [exact H|]. split; [exact F1|].
  destruct s as [h [| |[|]] ? ?|]; auto.
Qed.

(** The same displacement v (exact, of angle t) between two matrices and between two quaternions, each known up to [e]:
    both logarithms return, and they differ by a stated amount.  The starts need not agree, only the displacements. *)
Theorem C78_logs : forall L L' (h h' : hdr) (a a' b b' : list f64) (x x' y y' o o' : list f64) (v : list R) (d e : R),
  let sM := Leaf h (LSO3 MapMatrix) a b in let sQ := Leaf h' (LSO3 MapQuat) a' b' in let t := rnorm v in
  accurate_log L -> accurate_log L' -> built sM -> built sQ -> 0 <= d <= 1 / 3000 -> 0 <= e <= 1 / 10 ^ 11 ->
  defect64 d sM x -> defect64 d sQ x' -> length v = 3%nat -> Forall isf y -> Forall isf y' -> length o = 3%nat -> length o' = 3%nat ->
  (exists A, vals x = flat9 A /\ near_v e (vals y) (flat9 (rmul A (expSO3 v)))) ->
  (exists q, vals x' = qflat q /\ near_v e (vals y') (qflat (qprod q (expQ v)))) ->
  t <= 314 / 100 -> t <= 1 / 10 ^ 9 /\ 3 * d + e <= 1 / 10 ^ 10 \/ 10000 * / 2 ^ 53 + 2100 * d + 1300 * e <= (sin t) ^ 2 ->
  exists w w', pseudoLog (SK:=F64 L) sM o x y = Ok w /\ pseudoLog (SK:=F64 L') sQ o' x' y' = Ok w' /\ Forall isf w /\ Forall isf w' /\
    (t <= PI / 2 -> near_v (8250 * / 2 ^ 53 + 522 * d + 1046 * e) (vals w) (vals w')) /\
    (PI / 2 < t -> near_v ((857 * / 2 ^ 53 + 288 * d + 166 * e) / (sin t) ^ 2 + (6800 * / 2 ^ 53 + 745 * e)) (vals w) (vals w')).
Proof.
  intros L L' h h' a a' b b' x x' y y' o o' v d e sM sQ t HL HL' BM BQ Hd He Dx Dx' Lv Fy Fy' Lo Lo' Hy Hy' T S.
  assert (TM : tangentDim sM = 3%nat) by (pose proof (built_wf _ BM) as W; inversion W as [? ? ? ? Wl|]; subst; unfold leaf_wf in Wl; cbn; intuition lia).
  assert (TQ : tangentDim sQ = 3%nat) by (pose proof (built_wf _ BQ) as W; inversion W as [? ? ? ? Wl|]; subst; unfold leaf_wf in Wl; cbn; intuition lia).
  assert (U0 : 0 < / 2 ^ 53) by (apply Rinv_0_lt_compat; cbn [pow]; lra). pose proof F64LogQ.PI_ge as PG.
  assert (E3 : 0 <= e <= 1 / 1000) by (cbn [pow] in He; lra).
  destruct (leaf_find L sM x v y o d e) as (w & Hw & Fw & Nw1 & Nw2 & Nw3); auto; [split; [congruence|]; split; auto| |congruence|].
  { unfold findable, sM. fold t. destruct S as [S|S]; [left; exact S|right; split; [lra|exact S]]. }
  destruct (leaf_find L' sQ x' v y' o' d e) as (w' & Hw' & Fw' & Nw'); auto; [split; [congruence|]; split; auto| |congruence|].
  { unfold findable, sQ. fold t. split; [exact T|apply He]. }
  fold t in Nw1, Nw2, Nw3. apply Relog.near_v_sym in Nw'. exists w, w'. repeat (split; [assumption|]). split; intros Ht.
  - destruct (Rle_or_lt t (1 / 10 ^ 9)) as [C|C].
    + eapply NumExp.near_v_mono; [|apply (Relog.near_v_trans _ _ _ _ _ (Nw1 C) Nw')]. lra.
    + eapply NumExp.near_v_mono; [|apply (Relog.near_v_trans _ _ _ _ _ (Nw2 (conj C Ht)) Nw')]. lra.
  - apply (Relog.near_v_trans _ _ _ _ _ (Nw3 Ht) Nw').
Qed.
Print Assumptions C78_logs.

(** A third of a turn around (1, 1, 1): the matrix from the identity, the quaternion from the half turn around the first
    axis. *)
Example C78_example_logs : exists w w',
  pseudoLog (SK:=F64 libm_exact) (fM libm_exact) (fi [0; 0; 0]%Z) (fi [1; 0; 0; 0; 1; 0; 0; 0; 1]%Z) (fi [0; 1; 0; 0; 0; 1; 1; 0; 0]%Z) = Ok w /\
  pseudoLog (SK:=F64 libm_exact) (fQ libm_exact) (fi [0; 0; 0]%Z) (fi [0; 1; 0; 0]%Z) [Bopp (p2 (-1)); p2 (-1); Bopp (p2 (-1)); p2 (-1)] = Ok w' /\
  near_v (1 / 10 ^ 12) (vals w) (vals w').
Proof.
  pose proof PI_RGT_0 as PP. pose proof F64Log.PI_le as PL. pose proof F64LogQ.PI_ge as PG. set (k := 2 * PI / 3 / sqrt 3). assert (S3 : 0 < sqrt 3) by (apply sqrt_lt_R0; lra). assert (SS : sqrt 3 * sqrt 3 = 3) by (apply sqrt_sqrt; lra).
  assert (TK : rnorm [k; k; k] = 2 * PI / 3).
  { unfold rnorm. replace (rdot [k; k; k] [k; k; k]) with (2 * PI / 3 * (2 * PI / 3)); [apply sqrt_square; lra|]. cbn [rdot]. unfold k. transitivity (3 * (2 * PI / 3 * (2 * PI / 3)) / (sqrt 3 * sqrt 3)); [rewrite SS; field|field; lra]. }
  assert (QK : expQ [k; k; k] = Q4 (1 / 2) (1 / 2) (1 / 2) (1 / 2)).
  { unfold expQ. rewrite TK. destruct (Req_EM_T (2 * PI / 3) 0) as [Z|_]; [lra|]. replace (2 * PI / 3 / 2) with (PI / 3) by field. rewrite cos_PI3, sin_PI3.
    replace (sqrt 3 / 2 / (2 * PI / 3) * k) with (1 / 2) by (unfold k; field; lra). reflexivity. }
  assert (MK : expSO3 [k; k; k] = M3 0 0 1 1 0 0 0 1 0).
  { rewrite <- (qmat_expQ [k; k; k] eq_refl), QK. unfold qmat. cbn. f_equal; lra. }
  assert (SK2 : sin (rnorm [k; k; k]) ^ 2 = 3 / 4).
  { rewrite TK. replace (2 * PI / 3) with (PI - PI / 3) by field. rewrite sin_PI_x, sin_PI3. cbn [pow]. lra. }
  destruct (vals_fi [1; 0; 0; 0; 1; 0; 0; 0; 1]%Z) as [F9 V9]; [repeat constructor; lia|]. destruct (vals_fi [0; 1; 0; 0; 0; 1; 1; 0; 0]%Z) as [G9 W9]; [repeat constructor; lia|]. destruct (vals_fi [0; 1; 0; 0]%Z) as [F4 V4]; [repeat constructor; lia|].
  destruct (p2_ok (-1) ltac:(lia)) as [Fh Vh]. assert (Eh : bpow radix2 (-1) = 1 / 2) by (cbn; lra). rewrite Eh in Vh. destruct (f_opp (p2 (-1)) Fh) as [Fo Vo]. rewrite Vh in Vo.
  assert (BM : built (fM libm_exact)) by (apply (built_so3 MapMatrix [kpi (Scalar:=F64 libm_exact); kpi (Scalar:=F64 libm_exact); kpi (Scalar:=F64 libm_exact)]); reflexivity).
  assert (BQ : built (fQ libm_exact)) by (apply (built_so3 MapQuat [kpi (Scalar:=F64 libm_exact); kpi (Scalar:=F64 libm_exact); kpi (Scalar:=F64 libm_exact)]); reflexivity).
  assert (EM : exists h a b, fM libm_exact = Leaf h (LSO3 MapMatrix) a b) by (do 3 eexists; reflexivity). destruct EM as (h & a & b & EM).
  assert (EQ : exists h' a' b', fQ libm_exact = Leaf h' (LSO3 MapQuat) a' b') by (do 3 eexists; reflexivity). destruct EQ as (h' & a' & b' & EQ).
  rewrite EM in *. rewrite EQ in *. clear EM EQ.
  assert (Z0 : forall a b : R, a = b -> Rabs (a - b) <= 0) by (intros p q ->; rewrite Rminus_diag_eq, Rabs_R0; [lra|reflexivity]).
  assert (U : 0 < / 2 ^ 53 <= 112 / 10 ^ 18) by (split; [apply Rinv_0_lt_compat; cbn [pow]; lra|cbn [pow]; lra]).
  destruct (C78_logs libm_exact libm_exact h h' a a' b b' (fi [1; 0; 0; 0; 1; 0; 0; 0; 1]%Z) (fi [0; 1; 0; 0]%Z) (fi [0; 1; 0; 0; 0; 1; 1; 0; 0]%Z) [Bopp (p2 (-1)); p2 (-1); Bopp (p2 (-1)); p2 (-1)] (fi [0; 0; 0]%Z) (fi [0; 0; 0]%Z) [k; k; k] 0 0 libm_exact_log libm_exact_log BM BQ ltac:(lra) ltac:(cbn [pow]; lra))
    as (w & w' & Hw & Hw' & _ & _ & _ & N); auto.
  - split; [exact F9|]. exists ridm. split; [exact V9|]. unfold near_rot, rdet, ridm. cbn [rmul rtr a00 a01 a02 a10 a11 a12 a20 a21 a22]. repeat split; apply Rabs_le; lra.
  - split; [exact F4|]. exists (Q4 0 1 0 0). split; [exact V4|]. unfold qn2. cbn [qw qx qy qz]. apply Rabs_le. lra.
  - exists ridm. split; [exact V9|]. rewrite W9, MK, rmul_id_l. unfold flat9. cbn [map a00 a01 a02 a10 a11 a12 a20 a21 a22]. repeat (apply Forall2_cons; [apply Z0; ring|]). apply Forall2_nil.
  - exists (Q4 0 1 0 0). split; [exact V4|]. rewrite QK.
    change (vals [Bopp (p2 (-1)); p2 (-1); Bopp (p2 (-1)); p2 (-1)]) with [val (Bopp (p2 (-1))); val (p2 (-1)); val (Bopp (p2 (-1))); val (p2 (-1))]. rewrite Vo, Vh.
    unfold qprod, qflat. cbn [qw qx qy qz]. repeat (apply Forall2_cons; [apply Z0; lra|]). apply Forall2_nil.
  - rewrite TK. lra.
  - right. rewrite SK2. lra.
  - exists w, w'. split; [exact Hw|]. split; [exact Hw'|]. rewrite TK in N at 1. eapply NumExp.near_v_mono; [|apply N; lra]. rewrite SK2. lra.
Qed.
