(** The sphere in the round trip pseudoLog after retractation, in doubles. *)
From Coq Require Import Reals List Lra Lia ZArith Bool Arith Psatz.
From Flocq Require Import Core BinarySingleNaN.
From Verif Require Import Base Scalar Vec Model_Real Model_S2 Model_SO3 Model_Manifold Spec Layout Comp Flat XR SpecR RotR NumVec NumMat NumExp NumTree Drift F64 F64Err F64Norm F64S2 F64Exp F64Quat F64Mat F64Mat2 F64Tree F64Go F64Log F64LogQ F64Back F64Find.
Import ListNotations.
Local Open Scope R_scope.

(** The part of v orthogonal to x, and the angle from x to x + v. *)
Definition across (x v : list R) : list R := rsub v (rscal (rdot x v / rdot x x) x).
Definition turned (x v : list R) : R := atan (rnorm (across x v) / (rnorm x + rdot x v / rnorm x)).
(** The step along the great circle from x to the direction of x + v. *)
Definition arc (x v : list R) : list R := rscal (turned x v / rnorm (across x v)) (across x v).

Lemma arc_facts x0 x1 x2 v0 v1 v2 : let x := [x0; x1; x2] in let v := [v0; v1; v2] in let r := rnorm x in let n := rnorm (across x v) in let t := turned x v in
  0 < r -> 0 < r + rdot x v / r -> 0 < n ->
  0 < t < PI / 2 /\ rdot x (arc x v) = 0 /\ rnorm (arc x v) = t /\
  let w := radd x v in radd (rscal (cos t / r) x) (rscal (sin t / t) (arc x v)) = rscal (/ rnorm w) w.
Proof.
  intros x v r n t R0 A0 N0. set (c := rdot x v) in *. set (a := r + c / r) in *.
  assert (RR : r * r = x0 * x0 + x1 * x1 + x2 * x2) by (unfold r, rnorm; rewrite sqrt_sqrt; unfold x; cbn [rdot]; nra).
  assert (XX : rdot x x = r * r) by (rewrite RR; unfold x; cbn [rdot]; ring).
  set (g := c / (r * r)). set (p0 := v0 - g * x0). set (p1 := v1 - g * x1). set (p2 := v2 - g * x2).
  assert (EP : across x v = [p0; p1; p2]) by (unfold across; fold c; rewrite XX; fold g; reflexivity).
  assert (NN : n * n = p0 * p0 + p1 * p1 + p2 * p2) by (unfold n; rewrite EP; unfold rnorm; rewrite sqrt_sqrt; cbn [rdot]; nra).
  assert (CC : c = x0 * v0 + x1 * v1 + x2 * v2) by (unfold c, x, v; cbn [rdot]; ring).
  assert (GC : g * (r * r) = c) by (unfold g; field; lra).
  assert (OP : x0 * p0 + x1 * p1 + x2 * p2 = 0) by (unfold p0, p1, p2; replace (_ + _ + _) with ((x0 * v0 + x1 * v1 + x2 * v2) - g * (x0 * x0 + x1 * x1 + x2 * x2)) by ring; rewrite <- RR, <- CC; lra).
  assert (T0 : 0 < t < PI / 2). { pose proof (atan_bound (n / a)) as B. split; [|apply B]. unfold t, turned. fold n c r a. rewrite <- atan_0. apply atan_increasing. apply Rdiv_lt_0_compat; auto. }
  set (k := t / n). assert (EA : arc x v = [k * p0; k * p1; k * p2]) by (unfold arc; fold n t k; rewrite EP; reflexivity).
  assert (K0 : 0 < k) by (apply Rdiv_lt_0_compat; lra).
  split; [exact T0|]. split; [rewrite EA; unfold x; cbn [rdot]; transitivity (k * (x0 * p0 + x1 * p1 + x2 * p2)); [ring|rewrite OP; ring]|]. split.
  - rewrite EA. unfold rnorm. replace (rdot _ _) with (t * t); [apply sqrt_square; lra|]. cbn [rdot]. transitivity (k * k * (p0 * p0 + p1 * p1 + p2 * p2)); [|ring]. rewrite <- NN. unfold k. field. lra.
  - cbv zeta. set (w := radd x v). assert (EW : w = [x0 + v0; x1 + v1; x2 + v2]) by reflexivity. 
    assert (GX : a = r * (1 + g)) by (unfold a; rewrite <- GC; field; lra).
    assert (WW : rdot w w = a * a + n * n). { rewrite EW, NN, GX. cbn [rdot]. unfold p0, p1, p2. transitivity ((1 + g) * (1 + g) * (x0 * x0 + x1 * x1 + x2 * x2) + (p0 * p0 + p1 * p1 + p2 * p2) + 2 * (1 + g) * (x0 * p0 + x1 * p1 + x2 * p2)); [unfold p0, p1, p2; ring|]. rewrite OP, <- RR. unfold p0, p1, p2. ring. }
    assert (S : sqrt (1 + (n / a)²) = rnorm w / a). { unfold rnorm. rewrite WW. unfold Rsqr. replace (1 + n / a * (n / a)) with ((a * a + n * n) / (a * a)) by (field; lra). rewrite sqrt_div_alt by nra. rewrite (sqrt_square a) by lra. reflexivity. }
    assert (W0 : 0 < rnorm w) by (unfold rnorm; rewrite WW; apply sqrt_lt_R0; nra).
    assert (C : cos t = a / rnorm w) by (unfold t, turned; fold n c r a; rewrite cos_atan, S; field; split; lra).
    assert (Sn : sin t = n / rnorm w) by (unfold t, turned; fold n c r a; rewrite sin_atan, S; field; split; lra).
    rewrite EA, C, Sn. rewrite EW at 3. unfold x. cbn [rscal map].
    change ([a / rnorm w / r * x0 + n / rnorm w / t * (k * p0); a / rnorm w / r * x1 + n / rnorm w / t * (k * p1); a / rnorm w / r * x2 + n / rnorm w / t * (k * p2)] = [/ rnorm w * (x0 + v0); / rnorm w * (x1 + v1); / rnorm w * (x2 + v2)]).
    assert (E : forall xi vi, a / rnorm w / r * xi + n / rnorm w / t * (k * (vi - g * xi)) = / rnorm w * (xi + vi)) by (intros; rewrite GX; unfold k; field; repeat split; lra).
    unfold p0, p1, p2. rewrite !E. reflexivity.
Qed.

Section Round.
Context (L : libm) (HL : accurate L) (HA : accurate_acos L) (HT : accurate_atan2 L).
Local Notation SK := (F64 L).
#[local] Instance SKr : Scalar f64 := SK.

Definition in_reach2 (d : R) (s : mfd f64) (x v : list f64) : Prop :=
  match s with
  | Leaf _ LS2 _ _ => Forall (fun a => Rabs (val a) <= bpow radix2 400) v /\ Rabs (rdot (vals x) (vals v)) <= 1 / 2 /\ 9000 * u + 1000 * d <= sin (turned (vals x) (vals v)) * sin (turned (vals x) (vals v))
  | _ => in_reach d s x v
  end.
Definition came_back2 (d : R) (s : mfd f64) (x v w : list f64) : Prop :=
  match s with
  | Leaf _ LS2 _ _ => Forall isf w /\ near_v ((836 * u + 26 * d) / sin (turned (vals x) (vals v))) (vals w) (arc (vals x) (vals v))
  | _ => came_back d s x v w
  end.
Lemma reach_mild d h l a b x v : in_reach2 d (Leaf h l a b) x v -> mild (Leaf h l a b) v.
Proof. destruct l as [| |[|]]; cbn [mild in_reach2]; auto. tauto. Qed.

Lemma leaf_round h l a b d x v o p y : let s := Leaf h l a b in leaf_wf h l a b -> 0 <= d <= 1 / 1000 -> fstray d s x -> in_reach2 d s x v -> length v = tangentDim s -> length p = tangentDim s ->
  retractation s o x v = Ok y -> exists w, pseudoLog s p x y = Ok w /\ came_back2 d s x v w.
Proof.
  intros s W Hd Hx Hv Lv Lp H. destruct l as [| |mp].
  1, 3: apply (leaf_back64 L HL HA HT h _ a b d x v o p y); auto.
  destruct (leaf_step64 L HL h LS2 a b d x v o y W Hd Hx (reach_mild _ _ _ _ _ _ _ Hv) H) as [Sy Cy]. pose proof u_pos as U. pose proof u_tiny as U1.
  unfold s in *. pose proof (fstray_len _ _ _ _ _ _ W Hx) as Lx. cbn [in_reach2 came_back2 fclose] in *. destruct Hv as (_ & Hc & Hs). unfold leaf_wf in W. unfold tangentDim in Lv, Lp. cbn [hdr_of] in Lv, Lp.
  destruct (vec3 v) as (v0 & v1 & v2 & ->); [lia|]. pose proof Hx as (x0 & x1 & x2 & -> & F0 & F1 & F2 & HX).
  set (xr := vals [x0; x1; x2]) in *. set (vr := vals [v0; v1; v2]) in *. change xr with [val x0; val x1; val x2] in *. 
  assert (Fy : Forall isf y) by (destruct Sy as (y0 & y1 & y2 & -> & ? & ? & ? & _); auto).
  assert (XX : rdot [val x0; val x1; val x2] [val x0; val x1; val x2] = sq3 (val x0) (val x1) (val x2)) by (unfold sq3; cbn [rdot]; ring).
  pose proof (Rabs_ends _ _ HX) as HX'. set (r := rnorm [val x0; val x1; val x2]) in *.
  assert (R1 : 1 / 2 < r) by (unfold r, rnorm; rewrite XX; replace (1 / 2) with (sqrt (1 / 2 * (1 / 2))) by (apply sqrt_square; lra); apply sqrt_lt_1_alt; lra).
  assert (RR : r * r = sq3 (val x0) (val x1) (val x2)) by (unfold r, rnorm; rewrite sqrt_sqrt; rewrite XX; lra).
  assert (A0 : 0 < r + rdot [val x0; val x1; val x2] vr / r).
  { apply Rabs_ends in Hc. apply (Rmult_lt_reg_l r); [lra|]. rewrite Rmult_0_r. replace (r * (r + rdot [val x0; val x1; val x2] vr / r)) with (r * r + rdot [val x0; val x1; val x2] vr) by (field; lra). lra. }
  set (n := rnorm (across [val x0; val x1; val x2] vr)). assert (N0 : 0 < n).
  { destruct (Rle_lt_or_eq_dec 0 n (rnorm_nonneg _)) as [|E]; auto. exfalso. unfold turned in Hs. fold n in Hs. rewrite <- E in Hs. unfold Rdiv in Hs at 1 2. rewrite !Rmult_0_l, atan_0, sin_0 in Hs. lra. }
  destruct (arc_facts (val x0) (val x1) (val x2) (val v0) (val v1) (val v2) ltac:(fold r; lra) A0 N0) as (T0 & O & NT & GC).
  change [val v0; val v1; val v2] with vr in *. cbv zeta in GC, Cy. rewrite <- GC in Cy. rewrite <- NT in Cy at 1 2 3.
  assert (LA : length (arc [val x0; val x1; val x2] vr) = 3%nat) by reflexivity.
  destruct (s2_leaf L HA [x0; x1; x2] (arc [val x0; val x1; val x2] vr) y p d (8 * u) Hx Hd ltac:(lra) ltac:(lia) LA Fy O Cy) as (Ly & w & E & Fw & Nw).
  { rewrite NT. pose proof PI_RGT_0. lra. } { rewrite NT. lra. }
  exists w. split.
  - cbn [pseudoLog]. unfold tangentDim, representationDim. cbn [hdr_of]. rewrite Lp. replace (length [x0; x1; x2] =? h_rdim h)%nat with true by (symmetry; apply Nat.eqb_eq; exact Lx). replace (length y =? h_rdim h)%nat with true by (symmetry; apply Nat.eqb_eq; change (3%nat = h_rdim h) in Lx; lia).
    rewrite Nat.eqb_refl. exact E.
  - split; [exact Fw|]. rewrite NT in Nw. eapply near_v_mono; [|exact Nw]. apply Req_le. f_equal. ring.
Qed.

Lemma tree_round (m : mfd f64) d xs vs out p r : wf m -> 0 <= d <= 1 / 1000 -> Forall2 (fstray d) (leaves m) xs -> pieces DT (leaves m) vs -> Forall3 (in_reach2 d) (leaves m) xs vs ->
  length out = representationDim m -> length p = tangentDim m -> retractation m out (concat xs) (concat vs) = Ok r ->
  exists ws, pseudoLog m p (concat xs) r = Ok (concat ws) /\ Forall4 (came_back2 d) (leaves m) xs vs ws.
Proof.
  intros W Hd Hx Pv Hr Lo Lp H. destruct (cut_gen DR m out W Lo) as (outs & -> & Po). destruct (cut_gen DT m p W Lp) as (ps & -> & Pp).
  pose proof (fstray_pieces _ _ _ W Hx) as Px.
  apply (flat_op DR DR DT retractation retractation_prod m W) in H; auto. destruct H as (ys & -> & F). pose proof (fun s => leaf_inv_gen m s W) as G.
  assert (E : pieces DR (leaves m) ys /\ exists ws, Forall5 (fun s o x v r => pseudoLog s o x v = Ok r) (leaves m) ps xs ys ws /\ Forall4 (came_back2 d) (leaves m) xs vs ws).
  { clear W Lo Lp Px. revert G Hx Pv Hr Po Pp F. generalize (leaves m) as ls. intros ls. revert xs vs outs ps ys.
    induction ls as [|s ls IH]; intros xs vs outs ps ys G Hx Pv Hr Po Pp F.
    - inversion F; subst. inversion Pp; subst. split; [constructor|]. exists []. split; constructor.
    - inversion Hx as [|? x ? xs' Hx1 Hx2]; subst. inversion Pv as [|? v ? vs' Pv1 Pv2]; subst. inversion Po as [|? o ? os' Po1 Po2]; subst. inversion Pp as [|? q ? qs' Pp1 Pp2]; subst.
      inversion Hr as [|? ? ? ? ? ? Hr1 Hr2]; subst. inversion F as [|? ? ? ? y0 ? ? ? ? ys0 F1 F2]; subst.
      destruct (IH xs' vs' os' qs' ys0) as (A & ws & B & C); auto. { intros q0 Hq. apply G. simpl; auto. }
      destruct (G s) as (h & l & a & b & -> & Wl); [simpl; auto|].
      destruct (leaf_round h l a b d x v o q y0 Wl Hd Hx1 Hr1 Pv1 Pp1 F1) as (w & E1 & E2).
      destruct (leaf_step64 L HL h l a b d x v o y0 Wl Hd Hx1 (reach_mild _ _ _ _ _ _ _ Hr1) F1) as [Sy _].
      split; [constructor; auto; apply (fstray_len _ _ _ _ _ _ Wl Sy)|]. exists (w :: ws). split; constructor; auto. }
  destruct E as (Py & ws & F5 & F4). exists ws. split; [|exact F4].
  apply (flat_op DT DR DR pseudoLog pseudoLog_prod m W); auto. exists ws. auto.
Qed.
End Round.
