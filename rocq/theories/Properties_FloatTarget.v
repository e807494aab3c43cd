(** C71: reaching a target in IEEE-754 double arithmetic: retractation(x, pseudoLog(x, y)) against y. *)
From Coq Require Import Reals List Lra Lia ZArith Bool Arith Psatz.
From Flocq Require Import Core BinarySingleNaN.
From Verif Require Import Base Scalar Vec Model_Real Model_S2 Model_SO3 Model_Manifold Spec Layout Comp Indep Flat Points
  XR SpecR RotR NumVec NumTree Drift F64 F64Err F64Norm F64S2 F64Exp F64Quat F64Mat F64Mat2 F64Tree F64Go F64Log F64LogQ F64Back F64Find F64Target Properties_Float Properties_FloatLog Properties_FloatProj Properties_FloatFind ExScalar.
Import ListNotations.
Local Open Scope R_scope.

(** From where the target is reached: the angles of C67, at most 3.13 for rotations because retractation asserts that
    the computed step is shorter than pi; on S2 the computed step must also pass isInTxM (1e-8). *)
Definition attainable (d e : R) (s : mfd f64) (v : list R) : Prop :=
  let t := rnorm v in
  match s with
  | Leaf _ LReal _ _ => True
  | Leaf _ LS2 _ _ => t < PI /\ 1000 * / 2 ^ 53 + 3000 * d + 1000 * e <= (sin t) ^ 2 /\ 540 * / 2 ^ 53 + 78 * d + 37 * e <= 4 / 10 ^ 9 * sin t
  | Leaf _ (LSO3 MapMatrix) _ _ => t <= 1 / 10 ^ 9 /\ 3 * d + e <= 1 / 10 ^ 10 \/ t <= 313 / 100 /\ 10 ^ 6 * (/ 2 ^ 53 + 3 * d + e) <= (sin t) ^ 2
  | Leaf _ (LSO3 MapQuat) _ _ => t <= 313 / 100 /\ e <= 1 / 10 ^ 11
  | Prod _ _ _ _ => False
  end.
(** Where one arrives.  R^n: at y, up to roundings of x and y.  SO3: at y.  S2: in the direction of x + v, which is at
    the angle atan t of x and not at the angle t of y. *)
Definition arrived (d e : R) (s : mfd f64) (x : list f64) (v : list R) (y z : list f64) : Prop :=
  let t := rnorm v in Forall isf z /\
  match s with
  | Leaf _ LReal _ _ => Forall3 (fun a b c => Rabs (val c - val b) <= / 2 ^ 53 * (2 * Rabs (val a) + 3 * Rabs (val b)) + 3 * bpow radix2 (-1075)) x y z
  | Leaf _ LS2 _ _ => near_v ((1900 * / 2 ^ 53 + 276 * d + 131 * e) / sin t) (vals z) (rscal (/ rnorm (radd (vals x) v)) (radd (vals x) v))
  | Leaf _ (LSO3 MapMatrix) _ _ =>
      (t <= 1 / 10 ^ 9 -> near_v (149 * / 2 ^ 53 + 15 * d + 11 * e) (vals z) (vals y)) /\
      (1 / 10 ^ 9 < t <= PI / 2 -> near_v (3700 * / 2 ^ 53 + 1290 * d + 740 * e) (vals z) (vals y)) /\
      (PI / 2 < t -> near_v ((2230 * / 2 ^ 53 + 708 * d + 410 * e) / (sin t) ^ 2) (vals z) (vals y))
  | Leaf _ (LSO3 MapQuat) _ _ => near_v (6000 * / 2 ^ 53 + 650 * e) (vals z) (vals y)
  | Prod _ _ _ _ => False
  end.

(** C71: on any built tree, from a point x within d of the manifold, towards doubles y within e of the exact end
    points of steps v: pseudoLog then retractation both succeed, the result is again on the manifold up to 3d +
    1240 roundings, and it is [arrived]. *)
Theorem C71_target : forall L (m : mfd f64) xs vs ys p o d e, accurate_log L -> built m -> 0 <= d <= 1 / 3000 -> 0 <= e <= 1 / 1000 ->
  Forall2 (defect64 d) (leaves m) xs -> Forall4 (reached e) (leaves m) xs vs ys -> Forall2 (attainable d e) (leaves m) vs -> length p = tangentDim m -> length o = representationDim m ->
  exists w zs, pseudoLog (SK:=F64 L) m p (concat xs) (concat ys) = Ok w /\ retractation (SK:=F64 L) m o (concat xs) w = Ok (concat zs) /\
    Forall2 (defect64 (3 * d + 1240 * / 2 ^ 53)) (leaves m) zs /\ Forall5 (arrived d e) (leaves m) xs vs ys zs.
Proof.
  intros L m xs vs ys p o d e HL B Hd He Hx Hy Hr Lp Lo. destruct (accurate_log_split L HL) as (A1 & A2 & A3). apply built_wf in B.
  assert (EU : / 2 ^ 53 = u) by (rewrite u_val; cbn [pow]; lra). pose proof u_pos as U.
  assert (Fx : Forall2 (fstray (3 * d)) (leaves m) xs) by (clear - Hx Hd; induction Hx; constructor; auto; apply defect_stray; auto; lra).
  assert (G : forall s, In s (leaves m) -> exists h l a b, s = Leaf h l a b /\ leaf_wf h l a b) by (intros s; apply leaf_inv_gen; auto).
  assert (Lv : Forall2 (fun s v => length v = tangentDim s) (leaves m) vs) by (clear - Hy; induction Hy as [|? ? ? ? ? ? ? ? (H & _)]; constructor; auto).
  assert (Rr : Forall2 (can (3 * d) e) (leaves m) vs).
  { clear - Hr EU. induction Hr as [|s v ls vs H Hr IH]; constructor; auto. destruct s as [h [| |[|]] a b|]; cbn [attainable can] in *; rewrite ?EU in H; auto.
    - replace (sin (rnorm v) * sin (rnorm v)) with ((sin (rnorm v)) ^ 2) by ring. destruct H as (? & ? & ?). split; [|split]; lra.
    - replace (sin (rnorm v) * sin (rnorm v)) with ((sin (rnorm v)) ^ 2) by ring. exact H. }
  assert (Ry : Forall4 (ends e) (leaves m) xs vs ys).
  { clear - Hy Hx G. revert Hx G. induction Hy as [|s x v y ls xs vs ys (Lv & Fy & H) Hy IH]; intros Hx G; constructor.
    2:{ inversion Hx; subst. apply IH; auto. intros; apply G; simpl; auto. }
    inversion Hx as [|? ? ? ? Hx1 Hx2]; subst. destruct (G s) as (h & l & a & b & -> & W); [simpl; auto|].
    destruct l as [| |[|]]; cbn [ends defect64] in *; auto.
    destruct H as (F1 & F2 & F3). unfold tangentDim in Lv. cbn [hdr_of] in Lv. unfold leaf_wf in W. apply radd3; auto. lia. }
  destruct (tree_target L A1 A2 A3 m (3 * d) e xs vs ys p o B ltac:(lra) He Fx Lv Ry Rr Lp Lo) as (w & zs & E & E2 & Fz & F). exists w, zs. split; [exact E|]. split; [exact E2|]. split.
  { rewrite EU. clear - Fz. induction Fz; constructor; auto using stray_defect. }
  clear - F EU. revert F. induction 1 as [|s x v y z ls xs vs ys zs [F0 F1] F IH]; constructor; auto. clear IH F. unfold arrived. cbv zeta. split; [exact F0|].
  change (bpow radix2 (-1075)) with eta. destruct s as [h [| |[|]] a b|]; rewrite ?EU; auto.
  - eapply NumExp.near_v_mono; [|exact F1]. apply Req_le. f_equal. ring.
  - destruct F1 as (H1 & H2 & H3). split; [|split]; intros Ht.
    + eapply NumExp.near_v_mono; [|apply H1, Ht]. lra.
    + eapply NumExp.near_v_mono; [|apply H2, Ht]. lra.
    + replace (sin (rnorm v) ^ 2) with (sin (rnorm v) * sin (rnorm v)) by ring. eapply NumExp.near_v_mono; [|apply H3, Ht]. apply Req_le. f_equal. ring.
Qed.

Lemma arrived_one {A B C D E} (P : A -> B -> C -> D -> E -> Prop) s x v y zs : Forall5 P [s] [x] [v] [y] zs -> exists z, zs = [z] /\ P s x v y z.
Proof. intros F. inversion F as [|? ? ? ? z ? ? ? ? ? F0 F']; subst. inversion F'; subst. exists z. auto. Qed.

(** The sphere is missed.  From the pole (1, 0, 0) to (0, 1, 0): whatever the library (accurate as above), pseudoLog and
    retractation accept, and the point reached is at more than 1/2 of the target in its first coordinate. *)
Theorem C71_sphere_refuted : forall L, accurate_log L -> exists (m : mfd f64) x y w z, built m /\ defect64M 0 m x /\ defect64M 0 m y /\
  pseudoLog (SK:=F64 L) m x x y = Ok w /\ retractation (SK:=F64 L) m x x w = Ok z /\ defect64M (1240 * / 2 ^ 53) m z /\
  ~ near_v (1 / 2) (vals z) (vals y).
Proof.
  intros L HL. pose proof PI_RGT_0 as PP. pose proof PI_le as PL. pose proof PI_ge as PG. pose proof (fS2_built L) as Bm. assert (E : exists h a b, fS2 L = Leaf h LS2 a b) by (eexists _, _, _; reflexivity). destruct E as (h & a & b & E). rewrite E in Bm.
  pose proof (built_wf _ Bm) as W. inversion W as [? ? ? ? W'|]; subst. destruct W' as (_ & W2 & W3 & _). set (m := Leaf h LS2 a b) in *.
  set (x := fi [1; 0; 0]%Z). set (y := fi [0; 1; 0]%Z). set (v := [0; PI / 2; 0]).
  destruct (vals_fi [1; 0; 0]%Z) as [Fx Vx]; [repeat constructor; lia|]. destruct (vals_fi [0; 1; 0]%Z) as [Fy Vy]; [repeat constructor; lia|]. cbn [map] in Vx, Vy. fold x in Fx, Vx. fold y in Fy, Vy.
  assert (TS : rnorm v = PI / 2). { unfold v, rnorm. replace (rdot _ _) with (PI / 2 * (PI / 2)) by (cbn [rdot]; ring). apply sqrt_square. lra. }
  assert (TX : rnorm [1; 0; 0] = 1). { unfold rnorm. replace (rdot _ _) with 1 by (cbn [rdot]; ring). apply sqrt_1. }
  assert (Dx : defect64 0 m x) by (split; [reflexivity|split; [exact Fx|]]; rewrite Vx; cbn [rdot]; apply Rabs_le; lra).
  assert (Dy : defect64 0 m y) by (split; [reflexivity|split; [exact Fy|]]; rewrite Vy; cbn [rdot]; apply Rabs_le; lra).
  assert (U : 0 < / 2 ^ 53 <= 112 / 10 ^ 18) by (split; [apply Rinv_0_lt_compat; cbn [pow]; lra|cbn [pow]; lra]).
  assert (Z0 : forall a b : R, a = b -> Rabs (a - b) <= 0) by (intros a0 b0 ->; rewrite Rminus_diag_eq, Rabs_R0; [lra|reflexivity]).
  assert (DT : tangentDim m = 3%nat) by exact W2. assert (DR : representationDim m = 3%nat) by exact W3.
  destruct (C71_target L m [x] [v] [y] x x 0 0 HL Bm ltac:(lra) ltac:(lra)) as (w & zs & E1 & E2 & Dz & F); change (leaves m) with [m] in *.
  - apply Forall2_cons; [exact Dx|apply Forall2_nil].
  - apply Forall4_cons; [|apply Forall4_nil]. split; [rewrite DT; reflexivity|]. split; [exact Fy|]. cbn [m]. rewrite Vx, Vy. split; [unfold v; cbn [rdot]; ring|]. unfold great_circle. rewrite TS, TX, cos_PI2, sin_PI2. unfold v. apply Forall2_cons; [apply Z0; cbn; field; lra|]. apply Forall2_cons; [apply Z0; cbn; field; lra|]. apply Forall2_cons; [apply Z0; cbn; field; lra|apply Forall2_nil].
  - apply Forall2_cons; [|apply Forall2_nil]. cbn [attainable m]. rewrite TS, sin_PI2. lra.
  - rewrite DT. reflexivity.
  - rewrite DR. reflexivity.
  - destruct (arrived_one _ _ _ _ _ _ F) as (z & -> & Fz & N). clear F. cbn [concat] in E1, E2. rewrite !app_nil_r in E1, E2. exists m, x, y, w, z. split; [exact Bm|].
    split; [exists [x]; split; [cbn [concat]; now rewrite app_nil_r|apply Forall2_cons; [exact Dx|apply Forall2_nil]]|]. split; [exists [y]; split; [cbn [concat]; now rewrite app_nil_r|apply Forall2_cons; [exact Dy|apply Forall2_nil]]|].
    split; [exact E1|]. split; [exact E2|]. split. { exists [z]. split; [cbn [concat]; now rewrite app_nil_r|]. replace (1240 * / 2 ^ 53) with (3 * 0 + 1240 * / 2 ^ 53) by ring. exact Dz. }
    cbn [m] in N. rewrite TS, sin_PI2, Vx in N. rewrite Vy. clear - N U PP PL. intros H. unfold v in N. change (radd [1; 0; 0] [0; PI / 2; 0]) with [1 + 0; 0 + PI / 2; 0 + 0] in N. set (n := rnorm _) in N.
    change (rscal (/ n) [1 + 0; 0 + PI / 2; 0 + 0]) with [/ n * (1 + 0); / n * (0 + PI / 2); / n * (0 + 0)] in N. inversion H as [|z0 ? zt ? H0 _ EZ]; subst. rewrite <- EZ in N. inversion N as [|? ? ? ? N0 _]; subst.
    assert (NN : n * n = 1 + PI / 2 * (PI / 2)). { unfold n, rnorm. rewrite sqrt_sqrt; cbn [rdot]; nra. } assert (P : 0 <= n) by apply sqrt_pos.
    assert (PI / 2 * (PI / 2) <= 5 / 3 * (5 / 3)) by (apply Rmult_le_compat; lra). assert (N1 : 0 < n < 195 / 100) by (split; nra).
    assert (100 / 195 < / n). { apply (Rmult_lt_reg_l n); [lra|]. rewrite Rinv_r by lra. lra. }
    apply Rabs_ends in H0, N0. cbn [pow] in *. lra.
Qed.

(** ** Example *)
(** R^2 x S2 x SO3 (quaternions): from (3, 4), a pole and the identity towards (4, 3), a point a quarter of a great circle
    away and a third of a turn around (1, 1, 1). *)
Example C71_example : exists w z, pseudoLog (SK:=F64 libm_exact) (fU libm_exact) (fi [0; 0; 0; 0; 0; 0; 0; 0]%Z) (fi [3; 4; 1; 0; 0; 1; 0; 0; 0]%Z) (fi [4; 3; 0; 1; 0]%Z ++ repeat (p2 (-1)) 4) = Ok w /\
  retractation (SK:=F64 libm_exact) (fU libm_exact) (fi [0; 0; 0; 0; 0; 0; 0; 0; 0]%Z) (fi [3; 4; 1; 0; 0; 1; 0; 0; 0]%Z) w = Ok z /\
  let n := sqrt (1 + (PI / 2) ^ 2) in near_v (1 / 10 ^ 12) (vals z) [4; 3; / n; / n * (PI / 2); 0; 1 / 2; 1 / 2; 1 / 2; 1 / 2].
Proof.
  pose proof (fU_built libm_exact) as B. pose proof PI_RGT_0 as PP. pose proof PI_le as PL. set (k := 2 * PI / 3 / sqrt 3). cbv zeta. assert (S3 : 0 < sqrt 3) by (apply sqrt_lt_R0; lra). assert (SS : sqrt 3 * sqrt 3 = 3) by (apply sqrt_sqrt; lra).
  set (xs := [fi [3; 4]%Z; fi [1; 0; 0]%Z; fi [1; 0; 0; 0]%Z]). set (ys := [fi [4; 3]%Z; fi [0; 1; 0]%Z; repeat (p2 (-1)) 4]). set (vs := [[1; -1]; [0; PI / 2; 0]; [k; k; k]]).
  assert (EX : fi [3; 4; 1; 0; 0; 1; 0; 0; 0]%Z = concat xs) by reflexivity. assert (EY : fi [4; 3; 0; 1; 0]%Z ++ repeat (p2 (-1)) 4 = concat ys) by reflexivity.
  destruct (vals_fi [3; 4]%Z) as [F34 V34]; [repeat constructor; lia|]. destruct (vals_fi [4; 3]%Z) as [F43 V43]; [repeat constructor; lia|].
  destruct (vals_fi [1; 0; 0]%Z) as [Fx Vx]; [repeat constructor; lia|]. destruct (vals_fi [0; 1; 0]%Z) as [Fy Vy]; [repeat constructor; lia|]. destruct (vals_fi [1; 0; 0; 0]%Z) as [Fq Vq]; [repeat constructor; lia|]. cbn [map] in V34, V43, Vx, Vy, Vq.
  destruct (p2_ok (-1) ltac:(lia)) as [Fh Vh]. assert (Eh : bpow radix2 (-1) = 1 / 2) by (cbn; lra). rewrite Eh in Vh.
  assert (TK : rnorm [k; k; k] = 2 * PI / 3). { unfold rnorm. replace (rdot [k; k; k] [k; k; k]) with (2 * PI / 3 * (2 * PI / 3)); [apply sqrt_square; lra|]. cbn [rdot]. unfold k. transitivity (3 * (2 * PI / 3 * (2 * PI / 3)) / (sqrt 3 * sqrt 3)); [rewrite SS; field|field; lra]. }
  assert (TS : rnorm [0; PI / 2; 0] = PI / 2). { unfold rnorm. replace (rdot _ _) with (PI / 2 * (PI / 2)) by (cbn [rdot]; ring). apply sqrt_square. lra. }
  assert (TX : rnorm [1; 0; 0] = 1). { unfold rnorm. replace (rdot _ _) with 1 by (cbn [rdot]; ring). apply sqrt_1. }
  assert (QK : expQ [k; k; k] = Q4 (1 / 2) (1 / 2) (1 / 2) (1 / 2)).
  { unfold expQ. rewrite TK. destruct (Req_EM_T (2 * PI / 3) 0) as [Z|_]; [lra|]. replace (2 * PI / 3 / 2) with (PI / 3) by field. rewrite cos_PI3, sin_PI3.
    replace (sqrt 3 / 2 / (2 * PI / 3) * k) with (1 / 2) by (unfold k; field; lra). reflexivity. }
  assert (L0 : Forall2 (defect64 0) (leaves (fU libm_exact)) xs).
  { apply Forall2_cons; [reflexivity|]. apply Forall2_cons; [|apply Forall2_cons; [|apply Forall2_nil]].
    - split; [reflexivity|split; [exact Fx|]]. rewrite Vx. cbn [rdot]. apply Rabs_le. lra.
    - split; [exact Fq|]. exists (Q4 1 0 0 0). split; [exact Vq|]. unfold qn2. cbn [qw qx qy qz]. apply Rabs_le. lra. }
  assert (Bg : 4 <= bpow radix2 990) by (change 4 with (bpow radix2 2); apply bpow_le; lia).
  assert (Z0 : forall a b : R, a = b -> Rabs (a - b) <= 0) by (intros a b ->; rewrite Rminus_diag_eq, Rabs_R0; [lra|reflexivity]).
  assert (R0 : Forall4 (reached 0) (leaves (fU libm_exact)) xs vs ys).
  { apply Forall4_cons; [|apply Forall4_cons; [|apply Forall4_cons; [|apply Forall4_nil]]]; (split; [reflexivity|]).
    - split; [exact F43|]. split; [exact F34|]. split.
      + apply Forall_app. split.
        * assert (Q : Forall (fun r => Rabs r <= bpow radix2 990) (vals (fi [3; 4]%Z))) by (rewrite V34; repeat (apply Forall_cons; [apply Rabs_le; lra|]); apply Forall_nil). rewrite Forall_map in Q. exact Q.
        * assert (Q : Forall (fun r => Rabs r <= bpow radix2 990) (vals (fi [4; 3]%Z))) by (rewrite V43; repeat (apply Forall_cons; [apply Rabs_le; lra|]); apply Forall_nil). rewrite Forall_map in Q. exact Q.
      + rewrite V34, V43. apply Forall2_cons; [apply Z0; cbn; ring|]. apply Forall2_cons; [apply Z0; cbn; ring|apply Forall2_nil].
    - split; [exact Fy|]. rewrite Vx, Vy. split; [cbn [rdot]; ring|]. unfold great_circle. rewrite TS, TX, cos_PI2, sin_PI2. apply Forall2_cons; [apply Z0; cbn; field; lra|]. apply Forall2_cons; [apply Z0; cbn; field; lra|]. apply Forall2_cons; [apply Z0; cbn; field; lra|apply Forall2_nil].
    - split; [repeat (apply Forall_cons; [exact Fh|]); apply Forall_nil|]. exists (Q4 1 0 0 0). split; [exact Vq|]. rewrite QK. change (vals (repeat (p2 (-1)) 4)) with [val (p2 (-1)); val (p2 (-1)); val (p2 (-1)); val (p2 (-1))]. rewrite Vh. unfold qprod, qflat. cbn [qw qx qy qz].
      repeat (apply Forall2_cons; [apply Z0; ring|]). apply Forall2_nil. }
  assert (U : 0 < / 2 ^ 53 <= 112 / 10 ^ 18) by (split; [apply Rinv_0_lt_compat; cbn [pow]; lra|cbn [pow]; lra]).
  assert (G0 : Forall2 (attainable 0 0) (leaves (fU libm_exact)) vs).
  { apply Forall2_cons; [exact I|]. apply Forall2_cons; [|apply Forall2_cons; [|apply Forall2_nil]].
    - change (rnorm [0; PI / 2; 0] < PI /\ 1000 * / 2 ^ 53 + 3000 * 0 + 1000 * 0 <= (sin (rnorm [0; PI / 2; 0])) ^ 2 /\ 540 * / 2 ^ 53 + 78 * 0 + 37 * 0 <= 4 / 10 ^ 9 * sin (rnorm [0; PI / 2; 0])). rewrite TS, sin_PI2. lra.
    - change (rnorm [k; k; k] <= 313 / 100 /\ 0 <= 1 / 10 ^ 11). rewrite TK. lra. }
  destruct (C71_target libm_exact (fU libm_exact) xs vs ys (fi [0; 0; 0; 0; 0; 0; 0; 0]%Z) (fi [0; 0; 0; 0; 0; 0; 0; 0; 0]%Z) 0 0 libm_exact_log B ltac:(lra) ltac:(lra) L0 R0 G0 eq_refl eq_refl) as (w & zs & E & E2 & _ & F).
  exists w, (concat zs). rewrite EX, EY. split; [exact E|]. split; [exact E2|].
  change (leaves (fU libm_exact)) with [fR2 libm_exact; fS2 libm_exact; fQ libm_exact] in F. unfold vs, xs, ys in F. clear E E2 R0 G0 L0 EX EY.
  inversion F as [|? ? ? ? z0 ? ? ? ? ? H0 F0]; subst. inversion F0 as [|? ? ? ? z1 ? ? ? ? ? H1 F1]; subst. inversion F1 as [|? ? ? ? z2 ? ? ? ? ? H2 F2]; subst. inversion F2; subst. clear F F0 F1 F2.
  assert (T : bpow radix2 (-1075) <= / 2 ^ 53) by (change (bpow radix2 (-1075)) with eta; pose proof eta_u50; assert (/ 2 ^ 53 = u) by (rewrite u_val; cbn [pow]; lra); pose proof u_pos; lra).
  set (n := sqrt (1 + (PI / 2) ^ 2)). cbn [concat]. rewrite app_nil_r, !map_app. change [4; 3; / n; / n * (PI / 2); 0; 1 / 2; 1 / 2; 1 / 2; 1 / 2] with ([4; 3] ++ [/ n; / n * (PI / 2); 0] ++ [1 / 2; 1 / 2; 1 / 2; 1 / 2]). apply Close.near_v_app; [|apply Close.near_v_app].
  - assert (H : Forall3 (fun a b c => Rabs (val c - val b) <= / 2 ^ 53 * (2 * Rabs (val a) + 3 * Rabs (val b)) + 3 * bpow radix2 (-1075)) (fi [3; 4]%Z) (fi [4; 3]%Z) z0) by exact (proj2 H0). clear - H U T V34 V43.
    change (fi [3; 4]%Z) with [of_Z 3; of_Z 4] in *. change (fi [4; 3]%Z) with [of_Z 4; of_Z 3] in *. assert (E3 : val (of_Z 3) = 3) by (injection V34; auto). assert (E4 : val (of_Z 4) = 4) by (injection V34; auto). clear V34 V43. revert H E3 E4. generalize (of_Z 3), (of_Z 4). intros f3 f4 H E3 E4.
    inversion H as [|? ? c0 ? ? ? D0 H']; subst. inversion H' as [|? ? c1 ? ? ? D1 H'']; subst. inversion H''; subst. rewrite E3, E4 in D0, D1. rewrite (Rabs_pos_eq 3), (Rabs_pos_eq 4) in D0, D1 by lra. cbn [map]. apply Forall2_cons; [eapply Rle_trans; [exact D0|lra]|]. apply Forall2_cons; [eapply Rle_trans; [exact D1|lra]|apply Forall2_nil].
  - assert (H : near_v ((1900 * / 2 ^ 53 + 276 * 0 + 131 * 0) / sin (rnorm [0; PI / 2; 0])) (vals z1) (rscal (/ rnorm (radd (vals (fi [1; 0; 0]%Z)) [0; PI / 2; 0])) (radd (vals (fi [1; 0; 0]%Z)) [0; PI / 2; 0]))) by exact (proj2 H1).
    rewrite TS, sin_PI2, Vx in H. assert (EN : rscal (/ rnorm (radd [1; 0; 0] [0; PI / 2; 0])) (radd [1; 0; 0] [0; PI / 2; 0]) = [/ n; / n * (PI / 2); 0]).
    { change (radd [1; 0; 0] [0; PI / 2; 0]) with [1 + 0; 0 + PI / 2; 0 + 0]. replace (rnorm [1 + 0; 0 + PI / 2; 0 + 0]) with n by (unfold n, rnorm; f_equal; cbn [rdot]; ring). change (rscal (/ n) [1 + 0; 0 + PI / 2; 0 + 0]) with [/ n * (1 + 0); / n * (0 + PI / 2); / n * (0 + 0)]. repeat (apply f_equal2; [ring|]). reflexivity. }
    rewrite EN in H. eapply NumExp.near_v_mono; [|exact H]. lra.
  - assert (H : near_v (6000 * / 2 ^ 53 + 650 * 0) (vals z2) (vals (repeat (p2 (-1)) 4))) by exact (proj2 H2). change (vals (repeat (p2 (-1)) 4)) with [val (p2 (-1)); val (p2 (-1)); val (p2 (-1)); val (p2 (-1))] in H. rewrite Vh in H. eapply NumExp.near_v_mono; [|exact H]. lra.
Qed.
