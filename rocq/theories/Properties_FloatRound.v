(** C69: pseudoLog of a retractation in IEEE-754 double arithmetic, sphere included. *)
From Coq Require Import Reals List Lra Lia ZArith Bool Arith Psatz.
From Flocq Require Import Core BinarySingleNaN.
From Verif Require Import Base Scalar Vec Model_Real Model_S2 Model_SO3 Model_Manifold Spec Layout Comp Indep Flat Points
  XR SpecR RotR NumVec NumTree Drift F64 F64Err F64Norm F64S2 F64Exp F64Quat F64Mat F64Mat2 F64Tree F64Go F64Log F64LogQ F64Back F64Find F64Round Properties_Float Properties_FloatLog Properties_FloatProj Properties_FloatFind ExScalar.
Import ListNotations.
Local Open Scope R_scope.

(** The angle between x and x + v, when it is acute: the tangent is the part of x + v across x over the part along x. *)
Definition angle_to (x v : list R) : R :=
  atan (rnorm (rsub v (rscal (rdot x v / rdot x x) x)) / (rnorm x + rdot x v / rnorm x)).
(** The step of the great circle from x to the direction of x + v: that angle, along the part of v across x.
    When v is tangent it is atan (|v| / |x|) / |v| * v. *)
Definition arc_to (x v : list R) : list R :=
  let p := rsub v (rscal (rdot x v / rdot x x) x) in rscal (angle_to x v / rnorm p) p.
(** Where the round trip is claimed: as in C51, and on S2 for steps below 2^400 which are tangent within 1/2 (the
    retractation asks for 1e-8) and whose angle is not too small. *)
Definition reach_all (d : R) (s : mfd f64) (x v : list f64) : Prop :=
  match s with
  | Leaf _ LS2 _ _ => length v = tangentDim s /\ Forall (fun a => Rabs (val a) <= bpow radix2 400) v /\ Rabs (rdot (vals x) (vals v)) <= 1 / 2 /\
      9000 * / 2 ^ 53 + 3000 * d <= (sin (angle_to (vals x) (vals v))) ^ 2
  | _ => reach64 d s x v
  end.

(** C69: in doubles, on every built tree, from every point within d of the manifold: pseudoLog(x, retractation(x, v))
    is finite and close to v on R^n and on rotations, with the errors of C51, and close to the great circle
    step to x + v on S2. *)
Theorem C69_round_trip : forall L (m : mfd f64) xs vs out p y d, accurate_log L -> built m -> 0 <= d <= 1 / 3000 ->
  Forall2 (defect64 d) (leaves m) xs -> Forall3 (reach_all d) (leaves m) xs vs -> length out = representationDim m -> length p = tangentDim m ->
  retractation (SK:=F64 L) m out (concat xs) (concat vs) = Ok y ->
  exists ws, pseudoLog (SK:=F64 L) m p (concat xs) y = Ok (concat ws) /\ Forall4 (fun s x v w =>
    Forall isf w /\
    match s with
    | Leaf _ LReal _ _ => Forall3 (fun a b c => Rabs (val c - val b) <= / 2 ^ 53 * (2 * Rabs (val a) + 3 * Rabs (val b)) + 3 * bpow radix2 (-1075)) x v w
    | Leaf _ LS2 _ _ => near_v ((836 * / 2 ^ 53 + 78 * d) / sin (angle_to (vals x) (vals v))) (vals w) (arc_to (vals x) (vals v))
    | Leaf _ (LSO3 MapMatrix) _ _ => let t := rnorm (vals v) in
        (t <= 1 / 10 ^ 9 -> near_v (383 * / 2 ^ 53 + 6 * d) (vals w) (vals v)) /\
        (1 / 10 ^ 9 < t <= PI / 2 -> near_v (39000 * / 2 ^ 53 + 522 * d) (vals w) (vals v)) /\
        (PI / 2 < t -> near_v ((21500 * / 2 ^ 53 + 288 * d) / (sin t) ^ 2) (vals w) (vals v))
    | Leaf _ (LSO3 MapQuat) _ _ => near_v (67500 * / 2 ^ 53) (vals w) (vals v)
    | Prod _ _ _ _ => False
    end) (leaves m) xs vs ws.
Proof.
  intros L m xs vs out p y d HL B Hd Hx Hr Lo Lp H. destruct (accurate_log_split L HL) as (A1 & A2 & A3). apply built_wf in B.
  assert (EU : / 2 ^ 53 = u) by (rewrite u_val; cbn [pow]; lra). pose proof u_pos as U. change (bpow radix2 (-1075)) with eta.
  assert (Fx : Forall2 (fstray (3 * d)) (leaves m) xs) by (clear - Hx Hd; induction Hx; constructor; auto; apply defect_stray; auto; lra).
  assert (G : forall s, In s (leaves m) -> exists h l a b, s = Leaf h l a b /\ leaf_wf h l a b) by (intros s; apply leaf_inv_gen; auto).
  assert (Pv : pieces DT (leaves m) vs).
  { clear - Hr. induction Hr as [|s x v ? ? ? H]; constructor; auto. destruct s as [h [| |mp] a b|]; exact (proj1 H). }
  assert (Rr : Forall3 (in_reach2 (3 * d)) (leaves m) xs vs).
  { clear - Hr Hx EU Hd U G. revert Hx G. induction Hr as [|s x v ls xs vs H Hr IH]; intros Hx G; constructor.
    2:{ inversion Hx; subst. apply IH; auto. intros; apply G; simpl; auto. }
    inversion Hx as [|? ? ? ? Hx1 Hx2]; subst. destruct (G s) as (h & l & a & b & -> & W); [simpl; auto|].
    destruct l as [| |[|]]; cbn [in_reach2 in_reach reach_all] in *.
    - destruct H as (Lv & F1 & F2 & F3). apply Forall_app in F3. destruct F3 as [F3 F4]. cbn [defect64] in Hx1. unfold tangentDim in Lv. cbn [hdr_of] in Lv. unfold leaf_wf in W.
      assert (LL : length x = length v) by lia. clear - F1 F2 F3 F4 LL. revert v F2 F4 LL. induction x as [|c x IH]; intros [|e v] F2 F4 LL; try discriminate; constructor.
      + inversion F1; inversion F2; inversion F3; inversion F4; subst. auto.
      + inversion F1; inversion F2; inversion F3; inversion F4; subst. apply IH; auto.
    - destruct H as (_ & M & C & T). split; [exact M|]. split; [exact C|]. change (turned (vals x) (vals v)) with (angle_to (vals x) (vals v)). rewrite EU in T. replace (sin (angle_to (vals x) (vals v)) * sin (angle_to (vals x) (vals v))) with ((sin (angle_to (vals x) (vals v))) ^ 2) by ring. lra.
    - destruct H as (_ & H). rewrite EU in H. cbv zeta in *. destruct H as [[H1 H2]|[H1 H2]]; [left; split; auto; lra|right; split; auto]. replace (sin (rnorm (vals v)) * sin (rnorm (vals v))) with (sin (rnorm (vals v)) ^ 2) by ring. lra.
    - exact (proj2 H). }
  destruct (tree_round L A1 A2 A3 m (3 * d) xs vs out p y B ltac:(lra) Fx Pv Rr Lo Lp H) as (ws & E & F). exists ws. split; [exact E|].
  clear - F EU Hd U. revert F. induction 1 as [|s x v w ls xs vs ws F1 F IH]; constructor; auto. clear IH F.
  destruct s as [h [| |[|]] a b|]; cbn [came_back2 came_back] in F1; try contradiction; rewrite EU.
  - split; [|eapply Forall3_impl; [exact F1|]; cbv beta; tauto]. clear - F1. induction F1 as [|? ? ? ? ? ? [Fc _]]; constructor; auto.
  - destruct F1 as [F1 F2]. split; [exact F1|]. change (angle_to (vals x) (vals v)) with (turned (vals x) (vals v)). change (arc_to (vals x) (vals v)) with (arc (vals x) (vals v)). eapply NumExp.near_v_mono; [|exact F2]. apply Req_le. f_equal. ring.
  - destruct F1 as (F & H1 & H2 & H3). split; [exact F|]. cbv zeta. split; [|split]; intros Ht.
    + eapply NumExp.near_v_mono; [|apply H1, Ht]. lra.
    + eapply NumExp.near_v_mono; [|apply H2, Ht]. lra.
    + replace (sin (rnorm (vals v)) ^ 2) with (sin (rnorm (vals v)) * sin (rnorm (vals v))) by ring. eapply NumExp.near_v_mono; [|apply H3, Ht]. apply Req_le. f_equal. ring.
  - exact F1.
Qed.

(** On the sphere with v exactly tangent: pseudoLog comes back with atan(|v|/|x|)/|v| times v, hence always shorter
    than v and never longer than a quarter of a great circle, up to the stated error. *)
Lemma rnorm3_sq (a b c : R) : rnorm [a; b; c] * rnorm [a; b; c] = a * a + b * b + c * c.
Proof. unfold rnorm. rewrite sqrt_sqrt; cbn [rdot]; nra. Qed.
Theorem C69_sphere : forall L h a b (x v out p y : list f64) d, accurate_log L -> let m := Leaf h LS2 a b in built m -> 0 <= d <= 1 / 3000 -> defect64 d m x ->
  length v = 3%nat -> length out = 3%nat -> length p = 3%nat -> Forall (fun a => Rabs (val a) <= bpow radix2 400) v -> rdot (vals x) (vals v) = 0 ->
  let t := atan (rnorm (vals v) / rnorm (vals x)) in 9000 * / 2 ^ 53 + 3000 * d <= (sin t) ^ 2 ->
  retractation (SK:=F64 L) m out x v = Ok y ->
  exists w, pseudoLog (SK:=F64 L) m p x y = Ok w /\ Forall isf w /\ near_v ((836 * / 2 ^ 53 + 78 * d) / sin t) (vals w) (rscal (t / rnorm (vals v)) (vals v)).
Proof.
  intros L h a b x v out p y d HL m Bm Hd Hx Lv Lo Lp Mv Ov t Hs H. pose proof (built_wf _ Bm) as W. inversion W as [? ? ? ? W'|]; subst. unfold leaf_wf in W'. destruct W' as (_ & W2 & W3 & _).
  assert (EA : angle_to (vals x) (vals v) = t /\ arc_to (vals x) (vals v) = rscal (t / rnorm (vals v)) (vals v)).
  { destruct Hx as (Lx & _). destruct (vec3 x Lx) as (x0 & x1 & x2 & ->). destruct (vec3 v Lv) as (v0 & v1 & v2 & ->).
    assert (P : rsub (vals [v0; v1; v2]) (rscal (rdot (vals [x0; x1; x2]) (vals [v0; v1; v2]) / rdot (vals [x0; x1; x2]) (vals [x0; x1; x2])) (vals [x0; x1; x2])) = vals [v0; v1; v2]).
    { rewrite Ov. unfold Rdiv. rewrite Rmult_0_l. change ([val v0 - 0 * val x0; val v1 - 0 * val x1; val v2 - 0 * val x2] = [val v0; val v1; val v2]). repeat f_equal; ring. }
    assert (Z : rnorm (vals [x0; x1; x2]) + 0 / rnorm (vals [x0; x1; x2]) = rnorm (vals [x0; x1; x2])) by (unfold Rdiv; rewrite Rmult_0_l; apply Rplus_0_r).
    assert (Q : angle_to (vals [x0; x1; x2]) (vals [v0; v1; v2]) = t) by (unfold angle_to; rewrite P, Ov, Z; reflexivity).
    split; [exact Q|]. unfold arc_to. cbv zeta. rewrite Q, P. reflexivity. }
  destruct EA as [EA EB].
  destruct (C69_round_trip L m [x] [v] out p y d HL Bm Hd) as (ws & E & F).
  - apply Forall2_cons; [exact Hx|apply Forall2_nil].
  - apply Forall3_cons; [|apply Forall3_nil]. cbn [reach_all m]. split; [unfold tangentDim; cbn [hdr_of]; rewrite W2; exact Lv|]. split; [exact Mv|]. split; [rewrite Ov, Rabs_R0; lra|]. rewrite EA. exact Hs.
  - unfold m, representationDim. cbn [hdr_of]. rewrite W3. exact Lo.
  - unfold m, tangentDim. cbn [hdr_of]. rewrite W2. exact Lp.
  - assert (C1 : concat [x] = x) by apply app_nil_r. assert (C2 : concat [v] = v) by apply app_nil_r. rewrite C1, C2. exact H.
  - change (leaves m) with [m] in F. assert (Q : forall P : mfd f64 -> list f64 -> list f64 -> list f64 -> Prop, Forall4 P [m] [x] [v] ws -> exists w, ws = [w] /\ P m x v w) by (clear; intros P F; inversion F as [|? ? ? w ? ? ? ? F0 F']; subst; inversion F'; subst; eauto).
    destruct (Q _ F) as (w & -> & F0 & F1). assert (C1 : concat [x] = x) by apply app_nil_r. assert (C2 : concat [w] = w) by apply app_nil_r. rewrite C1, C2 in E. exists w. split; [exact E|]. split; [exact F0|]. cbn [m] in F1. rewrite EA, EB in F1. exact F1.
Qed.

(** R^2 x S2: from (3, 4) and (1, 0, 0), steps (1, -1) and (0, 1, 0); the sphere part comes back as (0, pi/4, 0). *)
Definition fRS (L : libm) : mfd f64 := get prod_empty (prod2 (fR2 L) (fS2 L)).
Lemma fRS_go L0 : let L := in_order L0 in exists y, retractation (SK:=F64 L) (fRS L) (fi [0; 0; 0; 0; 0]%Z) (fi [3; 4; 1; 0; 0]%Z) (fi [1; -1; 0; 1; 0]%Z) = Ok y.
Proof.
  intros L. assert (H : match retractation (SK:=F64 L) (fRS L) (fi [0; 0; 0; 0; 0]%Z) (fi [3; 4; 1; 0; 0]%Z) (fi [1; -1; 0; 1; 0]%Z) with Ok _ => true | Fail _ => false end = true) by (vm_compute; reflexivity).
  destruct (retractation (SK:=F64 L) _ _ _ _) as [y|]; [exists y; reflexivity|discriminate H].
Qed.
Example C69_example : exists y ws, retractation (SK:=F64 libm_exact) (fRS libm_exact) (fi [0; 0; 0; 0; 0]%Z) (fi [3; 4; 1; 0; 0]%Z) (fi [1; -1; 0; 1; 0]%Z) = Ok y /\
  pseudoLog (SK:=F64 libm_exact) (fRS libm_exact) (fi [0; 0; 0; 0; 0]%Z) (fi [3; 4; 1; 0; 0]%Z) y = Ok ws /\ near_v (1 / 10 ^ 12) (vals ws) [1; -1; 0; PI / 4; 0].
Proof.
  assert (B : built (fRS libm_exact)) by (apply (prod2_built64 (fR2 libm_exact) (fS2 libm_exact)); [apply (built_real_mag 2 (k1 (Scalar:=F64 libm_exact))); reflexivity|apply fS2_built|reflexivity]).
  set (xs := [fi [3; 4]%Z; fi [1; 0; 0]%Z]). set (vs := [fi [1; -1]%Z; fi [0; 1; 0]%Z]).
  pose proof (fRS_go libm_exact) as G. cbv zeta in G. change (in_order libm_exact) with libm_exact in G. destruct G as [y RE]. exists y. change (fi [3; 4; 1; 0; 0]%Z) with (concat xs) in *. change (fi [1; -1; 0; 1; 0]%Z) with (concat vs) in *. destruct (vals_fi [3; 4]%Z) as [F34 V34]; [repeat constructor; lia|]. destruct (vals_fi [1; -1]%Z) as [F11 V11]; [repeat constructor; lia|].
  destruct (vals_fi [1; 0; 0]%Z) as [Fx Vx]; [repeat constructor; lia|]. destruct (vals_fi [0; 1; 0]%Z) as [Fv Vv]; [repeat constructor; lia|]. cbn [map] in V34, V11, Vx, Vv.
  assert (N1 : rnorm [1; 0; 0] = 1) by (unfold rnorm; replace (rdot _ _) with 1 by (cbn [rdot]; ring); apply sqrt_1). assert (N2 : rnorm [0; 1; 0] = 1) by (unfold rnorm; replace (rdot _ _) with 1 by (cbn [rdot]; ring); apply sqrt_1).
  assert (EP : rsub [0; 1; 0] (rscal (rdot [1; 0; 0] [0; 1; 0] / rdot [1; 0; 0] [1; 0; 0]) [1; 0; 0]) = [0; 1; 0]).
  { cbn [rdot]. replace ((1 * 0 + (0 * 1 + (0 * 0 + 0))) / (1 * 1 + (0 * 0 + (0 * 0 + 0)))) with 0 by field. change ([0 - 0 * 1; 1 - 0 * 0; 0 - 0 * 0] = [0; 1; 0]). rewrite !Rmult_0_l, !Rminus_0_r. reflexivity. }
  assert (EA : angle_to [1; 0; 0] [0; 1; 0] = PI / 4). { unfold angle_to. rewrite EP, N1, N2. replace (1 / (1 + rdot [1; 0; 0] [0; 1; 0] / 1)) with 1 by (cbn [rdot]; field). apply atan_1. }
  assert (EC : arc_to [1; 0; 0] [0; 1; 0] = [0; PI / 4; 0]). { unfold arc_to. rewrite EA. cbv zeta. rewrite EP, N2. change ([PI / 4 / 1 * 0; PI / 4 / 1 * 1; PI / 4 / 1 * 0] = [0; PI / 4; 0]). replace (PI / 4 / 1) with (PI / 4) by field. rewrite !Rmult_0_r, Rmult_1_r. reflexivity. }
  assert (X : Forall2 (defect64 0) (leaves (fRS libm_exact)) xs).
  { apply Forall2_cons; [reflexivity|]. apply Forall2_cons; [|apply Forall2_nil]. split; [reflexivity|split; [exact Fx|]]. rewrite Vx. cbn [rdot]. apply Rabs_le. lra. }
  assert (Bg : 4 <= bpow radix2 990) by (change 4 with (bpow radix2 2); apply bpow_le; lia). assert (Bg4 : 4 <= bpow radix2 400) by (change 4 with (bpow radix2 2); apply bpow_le; lia).
  assert (S4 : (sin (PI / 4)) ^ 2 = 1 / 2). { rewrite sin_PI4. replace ((1 / sqrt 2) ^ 2) with (1 / (sqrt 2 * sqrt 2)) by (field; apply Rgt_not_eq, sqrt_lt_R0; lra). rewrite sqrt_sqrt by lra. reflexivity. }
  assert (U : 0 < / 2 ^ 53 <= 112 / 10 ^ 18) by (split; [apply Rinv_0_lt_compat; cbn [pow]; lra|cbn [pow]; lra]).
  assert (Rr : Forall3 (reach_all 0) (leaves (fRS libm_exact)) xs vs).
  { apply Forall3_cons; [|apply Forall3_cons; [|apply Forall3_nil]].
    - split; [reflexivity|]. split; [exact F34|]. split; [exact F11|]. assert (V4 : map val (fi [3; 4]%Z ++ fi [1; -1]%Z) = [3; 4; 1; -1]) by (rewrite map_app; exact (f_equal2 (@List.app R) V34 V11)).
      assert (Q : Forall (fun r => Rabs r <= bpow radix2 990) (map val (fi [3; 4]%Z ++ fi [1; -1]%Z))) by (rewrite V4; repeat (apply Forall_cons; [apply Rabs_le; lra|]); apply Forall_nil).
      rewrite Forall_map in Q. exact Q.
    - split; [reflexivity|]. split.
      + assert (Q : Forall (fun r => Rabs r <= bpow radix2 400) (vals (fi [0; 1; 0]%Z))) by (rewrite Vv; repeat (apply Forall_cons; [apply Rabs_le; lra|]); apply Forall_nil). rewrite Forall_map in Q. exact Q.
      + rewrite Vx, Vv, EA, S4. split; [cbn [rdot]; apply Rabs_le; lra|]. lra. }
  destruct (C69_round_trip libm_exact (fRS libm_exact) xs vs (fi [0; 0; 0; 0; 0]%Z) (fi [0; 0; 0; 0; 0]%Z) y 0 libm_exact_log B ltac:(lra) X Rr eq_refl eq_refl RE) as (ws & E & F).
  exists (concat ws). split; [exact RE|]. split; [exact E|]. clear E RE Rr X.
  change (leaves (fRS libm_exact)) with [fR2 libm_exact; fS2 libm_exact] in F. unfold xs, vs in F.
  inversion F as [|? ? ? w0 ? ? ? ws0 G0 F0]; subst. inversion F0 as [|? ? ? w1 ? ? ? ws1 G1 F0']; subst. inversion F0'; subst. clear F F0 F0'.
  cbn [concat]. rewrite app_nil_r, !map_app. change [1; -1; 0; PI / 4; 0] with ([1; -1] ++ [0; PI / 4; 0]). apply Close.near_v_app.
  - assert (H0 : Forall3 (fun a b c => Rabs (val c - val b) <= / 2 ^ 53 * (2 * Rabs (val a) + 3 * Rabs (val b)) + 3 * bpow radix2 (-1075)) [of_Z 3; of_Z 4] [of_Z 1; of_Z (-1)] w0) by exact (proj2 G0).
    assert (T : bpow radix2 (-1075) <= / 2 ^ 53) by (change (bpow radix2 (-1075)) with eta; pose proof eta_u50; assert (/ 2 ^ 53 = u) by (rewrite u_val; cbn [pow]; lra); pose proof u_pos; lra).
    destruct (of_Z_ok 3 eq_refl) as [_ A3]. destruct (of_Z_ok 4 eq_refl) as [_ A4]. destruct (of_Z_ok 1 eq_refl) as [_ A1]. destruct (of_Z_ok (-1) eq_refl) as [_ Am]. clear - H0 T U A3 A4 A1 Am.
    generalize dependent (of_Z 3). generalize dependent (of_Z 4). generalize dependent (of_Z 1). generalize dependent (of_Z (-1)). intros am Am a1 A1 a4 A4 a3 G0 A3.
    inversion G0 as [|? ? c0 ? ? ? D0 G0']; subst. inversion G0' as [|? ? c1 ? ? ? D1 G0'']; subst. inversion G0''; subst. cbn [map].
    rewrite A3, A1 in D0. rewrite A4, Am in D1. rewrite (Rabs_pos_eq 3), (Rabs_pos_eq 1) in D0 by lra. rewrite (Rabs_pos_eq 4) in D1 by lra. rewrite (Rabs_left (-1)) in D1 by lra.
    apply Forall2_cons; [eapply Rle_trans; [exact D0|lra]|]. apply Forall2_cons; [eapply Rle_trans; [exact D1|lra]|apply Forall2_nil].
  - assert (H1 : near_v ((836 * / 2 ^ 53 + 78 * 0) / sin (angle_to (vals (fi [1; 0; 0]%Z)) (vals (fi [0; 1; 0]%Z)))) (vals w1) (arc_to (vals (fi [1; 0; 0]%Z)) (vals (fi [0; 1; 0]%Z)))) by exact (proj2 G1).
    rewrite Vx, Vv, EA, EC in H1. eapply NumExp.near_v_mono; [|exact H1]. assert (1 / 2 <= sin (PI / 4)). { assert (0 < sin (PI / 4)) by (apply sin_gt_0; pose proof PI_RGT_0; lra). nra. }
    apply (Rmult_le_reg_r (sin (PI / 4))); [lra|]. unfold Rdiv at 1. rewrite Rmult_assoc, Rinv_l by lra. lra.
Qed.
Print Assumptions C69_round_trip.
Print Assumptions C69_sphere.
