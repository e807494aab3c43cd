(** C54: forceOnM in IEEE-754 double arithmetic; retractation followed by forceOnM, repeated for ever. *)
From Coq Require Import Reals List Lra Lia ZArith Bool Arith Psatz.
From Flocq Require Import Core BinarySingleNaN.
From Verif Require Import Base Scalar Vec Model_Real Model_S2 Model_SO3 Model_Manifold Spec Layout Comp Indep Flat Points
  XR SpecR RotR NumVec NumTree Drift Force F64 F64Err F64Norm F64S2 F64Exp F64Quat F64Mat F64Mat2 F64Tree F64Go F64Gs F64Force ExScalar Properties_Float.
Import ListNotations.
Local Open Scope R_scope.

(** Whenever forceOnM returns, its result is on the manifold up to 27200 * 2^-53 (3.1e-12), is accepted by isInM,
    and is the exact repair up to rounding: R^n slices are copied; S2 and quaternion slices are within 5 * 2^-53
    of the normalised input; a matrix slice had only finite entries (nothing is assumed of it: infinities, NaN
    and matrices further than 0.175 from a rotation never get through the assertion), its columns have the
    orthogonal factor Q of a QR decomposition with positive diagonal, and the result is within 2720 * 2^-53 of
    Q.  S2 and quaternion slices are assumed finite, of squared norm between 1/16 and 2^900.  No assumption
    on the C library: forceOnM only uses + - * / and sqrt. *)
Theorem C54_repair : forall L (m : mfd f64) (xs : list (list f64)) (out y : list f64), built m ->
  Forall2 (fun s x => length x = representationDim s /\
    match s with
    | Leaf _ LS2 _ _ | Leaf _ (LSO3 MapQuat) _ _ => Forall isf x /\ 1 / 16 <= rdot (vals x) (vals x) <= 2 ^ 900
    | _ => True
    end) (leaves m) xs ->
  length out = representationDim m -> forceOnM (SK:=F64 L) m out (concat xs) = Ok y ->
  defect64M (27200 * / 2 ^ 53) m y /\
  (forall prec, isf prec -> 995 / 10 ^ 11 <= val prec -> isInM (SK:=F64 L) m y prec = Ok true) /\
  exists ys, y = concat ys /\ Forall3 (fun s x y =>
    match s with
    | Leaf _ LReal _ _ => y = x
    | Leaf _ LS2 _ _ | Leaf _ (LSO3 MapQuat) _ _ => near_v (5 * / 2 ^ 53) (vals y) (rscal (/ rnorm (vals x)) (vals x))
    | Leaf _ (LSO3 MapMatrix) _ _ => Forall isf x /\ exists A Q t00 t01 t02 t11 t12 t22, vals x = flat9 A /\ near_rot (175 / 1000) A /\
        rot Q /\ 0 < t00 /\ 0 < t11 /\ 0 < t22 /\ A = rmul Q (M3 t00 t01 t02 0 t11 t12 0 0 t22) /\
        near_v (2720 * / 2 ^ 53) (vals y) (flat9 Q)
    | Prod _ _ _ _ => False
    end) (leaves m) xs ys.
Proof.
  intros L m xs out y B Hx Lo H. apply built_wf in B. assert (EU : / 2 ^ 53 = u) by (rewrite u_val; cbn [pow]; lra). rewrite EU.
  assert (E9 : 2 ^ 900 = bpow radix2 900) by (rewrite bpow_powerRZ; exact (pow_powerRZ 2 900)).
  assert (Px : pieces DR (leaves m) xs) by (clear - Hx; induction Hx; constructor; tauto).
  assert (Hl : Forall2 flong (leaves m) xs).
  { clear - Hx E9. induction Hx as [|s x ls xs [_ H1] Hx IH]; constructor; auto. destruct s as [h [| |[|]] a b|]; cbn [flong]; auto; rewrite <- E9; exact H1. }
  destruct (tree_force64 L m xs out y B Px Hl Lo H) as (ys & -> & Fy & Ff). split; [|split].
  - exists ys. split; auto. clear - Fy. induction Fy; constructor; auto using stray_defect.
  - intros prec Fp Hp. apply (isInM64 L m (27200 * u)); auto. pose proof u_pos. assert (u <= 12 / 10 ^ 17) by (rewrite u_val; lra). cbn [pow] in *. lra.
  - exists ys. split; auto. clear - Ff. induction Ff as [|s x y ls xs ys H Ff IH]; constructor; auto.
    destruct s as [h [| |[|]] a b|]; cbn [fforced] in H; auto. destruct H as (F & A & Q & E & N & (Rq & t00 & t01 & t02 & t11 & t12 & t22 & T0 & T1 & T2 & EA) & H).
    split; auto. exists A, Q, t00, t01, t02, t11, t12, t22. auto 10.
Qed.
Print Assumptions C54_repair.

(** forceOnM never refuses a point that is within 3.3e-4 of the manifold. *)
Theorem C54_accepts : forall L (m : mfd f64) x out d, built m -> 0 <= d <= 1 / 3000 -> defect64M d m x -> length out = representationDim m ->
  exists y, forceOnM (SK:=F64 L) m out x = Ok y /\ defect64M (27200 * / 2 ^ 53) m y.
Proof.
  intros L m x out d B D0 (xs & -> & Hx) Lo. apply built_wf in B. assert (EU : / 2 ^ 53 = u) by (rewrite u_val; cbn [pow]; lra). rewrite EU.
  assert (Hs : Forall2 (fstray (3 * d)) (leaves m) xs) by (clear - Hx D0; induction Hx; constructor; auto; apply defect_stray; auto; lra).
  destruct (tree_force_go L m (3 * d) xs out B ltac:(lra) Hs Lo) as (Hl & y & H). exists y. split; auto.
  destruct (tree_force64 L m xs out y B (fstray_pieces _ _ _ B Hs) Hl Lo H) as (ys & -> & Fy & _). exists ys. split; auto. clear - Fy. induction Fy; constructor; auto using stray_defect.
Qed.
Print Assumptions C54_accepts.

(** Steps x <- forceOnM(retractation(x, v)), one per tangent vector, whatever the buffers contained. *)
Inductive kept (L : libm) (m : mfd f64) : list f64 -> list (list f64) -> list f64 -> Prop :=
| kept_nil x : kept L m x [] x
| kept_cons x v vs out out' y z w : length out = representationDim m -> length out' = representationDim m ->
    retractation (SK:=F64 L) m out x v = Ok y -> forceOnM (SK:=F64 L) m out' y = Ok z -> kept L m z vs w -> kept L m x (v :: vs) w.

Lemma kept_stray L (m : mfd f64) : accurate L -> wf m -> forall x vs w, kept L m x vs w -> Forall (tangent64 m) vs -> forall d xs, x = concat xs -> 0 <= d <= 1 / 2000 ->
  Forall2 (fstray d) (leaves m) xs -> vs <> [] -> exists ys, w = concat ys /\ Forall2 (fstray (27200 * u)) (leaves m) ys.
Proof.
  intros HL W x vs w K. induction K as [x|x v vs out out' y z w Lo Lo' H1 H2 K IH]; intros Hv d xs -> D0 Hx NE; [congruence|].
  inversion Hv as [|? ? (ws & -> & Hw) Hv']; subst. assert (U1 : u <= 1 / 10 ^ 15) by (rewrite u_val; lra). pose proof u_pos.
  assert (Pv : pieces DT (leaves m) ws) by (clear - Hw; induction Hw; constructor; tauto). assert (Hm : Forall2 mild (leaves m) ws) by (clear - Hw; induction Hw; constructor; tauto).
  destruct (tree_step64 L HL m d xs ws out y W ltac:(lra) Hx Pv Hm Lo H1) as (ys & -> & Fy & _).
  destruct (tree_force_go L m (d + 1240 * u) ys out' W ltac:(lra) Fy Lo') as (Hl & _).
  destruct (tree_force64 L m ys out' z W (fstray_pieces _ _ _ W Fy) Hl Lo' H2) as (zs & -> & Fz & _).
  destruct vs as [|v' vs]; [inversion K; subst; eauto|]. apply (IH Hv' (27200 * u) zs eq_refl); auto; [lra|discriminate].
Qed.
(** However many steps, the point reached is within 27200 * 2^-53 of the manifold and is accepted by isInM: the
    drift of C49 does not accumulate.  No bound on the number of steps, every tree. *)
Theorem C54_forever : forall L (m : mfd f64) x vs w d, accurate L -> built m -> 0 <= d <= 1 / 6000 -> defect64M d m x -> Forall (tangent64 m) vs -> vs <> [] -> kept L m x vs w ->
  defect64M (27200 * / 2 ^ 53) m w /\ (forall prec, isf prec -> 995 / 10 ^ 11 <= val prec -> isInM (SK:=F64 L) m w prec = Ok true).
Proof.
  intros L m x vs w d HL B D0 (xs & -> & Hx) Hv NE K. apply built_wf in B. assert (EU : / 2 ^ 53 = u) by (rewrite u_val; cbn [pow]; lra). rewrite EU.
  assert (Hs : Forall2 (fstray (3 * d)) (leaves m) xs) by (clear - Hx D0; induction Hx; constructor; auto; apply defect_stray; auto; lra).
  destruct (kept_stray L m HL B _ _ _ K Hv (3 * d) xs eq_refl ltac:(lra) Hs NE) as (ys & -> & Fy). split.
  - exists ys. split; auto. clear - Fy. induction Fy; constructor; auto using stray_defect.
  - intros prec Fp Hp. apply (isInM64 L m (27200 * u)); auto. pose proof u_pos. assert (u <= 12 / 10 ^ 17) by (rewrite u_val; lra). cbn [pow] in *. lra.
Qed.
Print Assumptions C54_forever.

(** And without S2 the loop never stops on an assertion when the SO3 increments are finite and not longer
    than 3.14. *)
Theorem C54_never_stops : forall L (m : mfd f64) x vs d, accurate L -> built m -> 0 <= d <= 1 / 6000 -> defect64M d m x ->
  Forall (fun v => exists ws, v = concat ws /\ Forall2 (fun s w => length w = tangentDim s /\
     match s with Leaf _ LS2 _ _ => False | Leaf _ (LSO3 _) _ _ => Forall isf w /\ rnorm (vals w) <= 314 / 100 | _ => True end) (leaves m) ws) vs ->
  exists w, kept L m x vs w.
Proof.
  intros L m x vs d HL B D0 (xs & -> & Hx) Hv. apply built_wf in B. assert (U1 : u <= 1 / 10 ^ 15) by (rewrite u_val; lra). pose proof u_pos as U.
  assert (Hs : Forall2 (fstray (3 * d)) (leaves m) xs) by (clear - Hx D0; induction Hx; constructor; auto; apply defect_stray; auto; lra). assert (E0 : 0 <= 3 * d <= 1 / 2000) by lra.
  clear Hx D0. generalize dependent (3 * d). intros e Hx D0. clear d. revert e xs Hx D0. induction Hv as [|v vs (ws & -> & Hw) Hv IH]; intros e xs Hx D0; [eexists; constructor|].
  assert (Pv : pieces DT (leaves m) ws) by (clear - Hw; induction Hw; constructor; tauto).
  assert (HS : Forall2 short (leaves m) ws /\ Forall2 mild (leaves m) ws).
  { pose proof (fun s => leaf_inv_gen m s B) as G. clear - Hw G. induction Hw as [|s w ls ws Hw1 Hw IH]; [split; constructor|]. destruct IH as [I1 I2]; [intros; apply G; simpl; auto|].
    destruct (G s) as (h & l & a & b & -> & _); [simpl; auto|]. destruct l; cbn [short mild] in *; split; constructor; cbn [short mild]; tauto. }
  destruct HS as [HS Hm]. pose proof (fstray_pieces _ _ _ B Hx) as Px. destruct (tree_go L m xs ws xs B Px Pv Px HS) as (ys0 & E & _). change (SKg L) with (F64 L) in E.
  pose proof (pieces_total DR m xs B Px) as Lx. destruct (tree_step64 L HL m e xs ws (concat xs) (concat ys0) B ltac:(lra) Hx Pv Hm Lx E) as (ys & Ey & Fy & _). rewrite Ey in E.
  destruct (tree_force_go L m (e + 1240 * u) ys (concat xs) B ltac:(lra) Fy Lx) as (Hl & z & Hz).
  destruct (tree_force64 L m ys (concat xs) z B (fstray_pieces _ _ _ B Fy) Hl Lx Hz) as (zs & -> & Fz & _).
  destruct (IH (27200 * u) zs Fz ltac:(lra)) as (w & Hk). exists w. eapply kept_cons; eauto.
Qed.
Print Assumptions C54_never_stops.

(** The lower bound on the norm is needed: the zero quaternion goes through forceOnM and comes out as NaN. *)
Theorem C54_zero_quaternion_refuted : forall L0, let L := in_order L0 in exists (m : mfd f64) x y, built m /\ length x = representationDim m /\ Forall isf x /\
  forceOnM (SK:=F64 L) m x x = Ok y /\ Forall (fun a => is_nan a = true) y /\ isInM (SK:=F64 L) m y (klit (Scalar:=F64 L) 1 100000000) = Ok false.
Proof.
  intros L0 L. exists (fQ L), (fi [0; 0; 0; 0]%Z), [B754_nan; B754_nan; B754_nan; B754_nan]. split; [apply (built_so3 MapQuat [kpi (Scalar:=F64 L); kpi (Scalar:=F64 L); kpi (Scalar:=F64 L)]); reflexivity|].
  split; [reflexivity|]. split; [apply vals_fi; repeat constructor; lia|]. split; [vm_compute; reflexivity|]. split; [repeat constructor|vm_compute; reflexivity].
Qed.
Print Assumptions C54_zero_quaternion_refuted.

(** ** Examples *)
(** ((R^2 x SO3 matrix) x SO3 quaternion), any number of steps. *)
Example C54_example : forall k, exists w, kept libm_exact (fP libm_exact) fPx (repeat fPv (S k)) w /\ defect64M (27200 * / 2 ^ 53) (fP libm_exact) w.
Proof.
  intros k. pose proof (fP_built libm_exact) as B.
  assert (X : defect64M 0 (fP libm_exact) fPx).
  { exists [fi [3; 4]%Z; fi [0; 1; 0; -1; 0; 0; 0; 0; 1]%Z; fi [0; 0; 1; 0]%Z]. split; [unfold fPx; cbn [concat]; rewrite app_nil_r; reflexivity|].
    apply Forall2_cons; [reflexivity|]. apply Forall2_cons; [|apply Forall2_cons; [|apply Forall2_nil]].
    - destruct (vals_fi [0; 1; 0; -1; 0; 0; 0; 0; 1]%Z) as [F V]; [repeat constructor; lia|]. split; [exact F|]. exists (M3 0 (-1) 0 1 0 0 0 0 1). split; [exact V|].
      unfold near_rot, rdet. cbn [rmul rtr a00 a01 a02 a10 a11 a12 a20 a21 a22]. repeat split; apply Rabs_le; lra.
    - destruct (vals_fi [0; 0; 1; 0]%Z) as [F V]; [repeat constructor; lia|]. split; [exact F|]. exists (Q4 0 0 1 0). split; [exact V|]. unfold qn2. cbn [qw qx qy qz]. apply Rabs_le. lra. }
  assert (V2 : vals (fi [2; 0; 0]%Z) = [2; 0; 0] /\ vals (fi [1; 0; 0]%Z) = [1; 0; 0] /\ Forall isf (fi [2; 0; 0]%Z) /\ Forall isf (fi [1; 0; 0]%Z)).
  { destruct (vals_fi [2; 0; 0]%Z) as [F V]; [repeat constructor; lia|]. destruct (vals_fi [1; 0; 0]%Z) as [F' V']; [repeat constructor; lia|]. auto. }
  destruct V2 as (V2 & V1 & F2 & F1).
  assert (N : forall a, 0 <= a -> rnorm [a; 0; 0] = a). { intros a H. unfold rnorm. replace (rdot _ _) with (a * a) by (simpl; ring). apply sqrt_square. auto. }
  destruct (C54_never_stops libm_exact (fP libm_exact) fPx (repeat fPv (S k)) 0 libm_exact_ok B ltac:(lra) X) as [w Hw].
  { apply Forall_forall. intros v Hv. apply repeat_spec in Hv. subst v. exists [fi [1; -1]%Z; fi [1; 0; 0]%Z; fi [2; 0; 0]%Z]. split; [unfold fPv; cbn [concat]; rewrite app_nil_r; reflexivity|].
    apply Forall2_cons; [split; [reflexivity|exact I]|]. apply Forall2_cons; [|apply Forall2_cons; [|apply Forall2_nil]]; (split; [reflexivity|]).
    - split; [exact F1|]. rewrite V1, N by lra. lra.
    - split; [exact F2|]. rewrite V2, N by lra. lra. }
  exists w. split; [exact Hw|].
  apply (C54_forever libm_exact (fP libm_exact) fPx (repeat fPv (S k)) w 0 libm_exact_ok B ltac:(lra) X); auto; [|discriminate].
  apply Forall_forall. intros v Hv. apply repeat_spec in Hv. subst v. exists [fi [1; -1]%Z; fi [1; 0; 0]%Z; fi [2; 0; 0]%Z]. split; [unfold fPv; cbn [concat]; rewrite app_nil_r; reflexivity|].
  apply Forall2_cons; [split; [reflexivity|exact I]|]. apply Forall2_cons; [|apply Forall2_cons; [|apply Forall2_nil]]; (split; [reflexivity|exact I]).
Qed.
(** The hypotheses of C54_repair hold of a matrix that is not a rotation: 17/16, 1, 1 on the diagonal, 1/16 beside it. *)
Definition fs (n : Z) : f64 := Bdiv mode_NE (of_Z n) (of_Z 16).
Example C54_example_repair : forall L0, let L := in_order L0 in match forceOnM (SK:=F64 L) (fM L) (fi [0; 0; 0; 0; 0; 0; 0; 0; 0]%Z) [fs 17; fs 0; fs 0; fs 1; fs 16; fs 0; fs 0; fs 0; fs 16] with
  | Ok y => map (fun a => Beqb a (of_Z 0)) y = [false; true; true; true; false; true; true; true; false] /\ map (fun a => Beqb a (of_Z 1)) y = [true; false; false; false; true; false; false; false; true]
  | Fail _ => False
  end.
Proof. intros L0. vm_compute. split; reflexivity. Qed.
(** A matrix with infinite or undefined entries is refused. *)
Example C54_example_nan : forall L0, let L := in_order L0 in forceOnM (SK:=F64 L) (fM L) (fi [0; 0; 0; 0; 0; 0; 0; 0; 0]%Z) [B754_infinity false; fs 0; fs 0; fs 1; B754_nan; fs 0; fs 0; fs 0; fs 16] = Fail EAssert.
Proof. intros L0. vm_compute. reflexivity. Qed.
