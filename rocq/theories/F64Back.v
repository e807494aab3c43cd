(** pseudoLog of a retractation in double arithmetic: leaves and trees. *)
From Coq Require Import Reals List Lra Lia ZArith Bool Arith Psatz.
From Flocq Require Import Core BinarySingleNaN.
From Verif Require Import Base Scalar Vec Model_Real Model_SO3 Model_Manifold Spec Layout Comp Flat XR SpecR RotR NumVec NumMat NumExp Drift F64 F64Err F64Norm F64S2 F64Exp F64Quat F64Mat F64Mat2 F64Tree F64Go F64Log F64LogQ.
Import ListNotations.
Local Open Scope R_scope.

(** ** Tiny rotations of the matrix map: the branch without the angle *)
Lemma exp_tiny x y z : let t := rnorm [x; y; z] in t <= 1 / 10 ^ 9 -> let E := expSO3 [x; y; z] in
  Rabs (- a12 E - x) <= u / 2 /\ Rabs (a02 E - y) <= u / 2 /\ Rabs (- a01 E - z) <= u / 2 /\ t * t = x * x + y * y + z * z /\ Rabs x <= t /\ Rabs y <= t /\ Rabs z <= t.
Proof.
  intros t Ht E. pose proof (rnorm_nonneg [x; y; z]) as P. pose proof (rnorm_sq [x; y; z]) as Q. cbn [rdot] in Q. fold t in P, Q. pose proof u_pos as U.
  assert (B : forall a, a * a <= t * t -> Rabs a <= t) by (intros a Ha; apply Rabs_le; nra).
  pose proof (B x ltac:(nra)) as Bx. pose proof (B y ltac:(nra)) as By. pose proof (B z ltac:(nra)) as Bz.
  assert (TT : t * t <= 1 / 10 ^ 9 * (1 / 10 ^ 9)) by (apply Rmult_le_compat; lra). assert (UU : 2 / 10 ^ 18 <= u / 2) by (rewrite u_val; lra).
  split; [|split; [|split; [|repeat split; try assumption; lra]]]; unfold E, expSO3; fold t; destruct (Req_EM_T t 0) as [Z|Z].
  1,3,5: cbn [ridm a00 a01 a02 a10 a11 a12 a20 a21 a22]; apply Rabs_ends in Bx, By, Bz; apply Rabs_le; lra.
  all: assert (T0 : 0 < t) by lra; set (s := sin t / t); set (c := (1 - cos t) / (t * t)); unfold rodrigues; cbn [a00 a01 a02 a10 a11 a12 a20 a21 a22];
    assert (S1 : Rabs (s - 1) <= t * t) by (unfold s; replace (sin t / t - 1) with (- ((t - sin t) / t)) by (field; lra); rewrite Rabs_Ropp; unfold Rdiv; rewrite Rabs_mult, Rabs_inv, (Rabs_pos_eq t) by lra;
      apply (Rmult_le_reg_r t); auto; rewrite Rmult_assoc, Rinv_l, Rmult_1_r by lra; pose proof (sin_cubic t) as C; rewrite (Rabs_pos_eq t) in C by lra; specialize (C ltac:(lra)); nra);
    assert (C1 : Rabs c <= 1) by (unfold c; pose proof (one_cos t) as O; rewrite Rabs_pos_eq by (apply Rmult_le_pos; [lra|]; apply Rlt_le, Rinv_0_lt_compat; nra); apply (Rmult_le_reg_r (t * t)); [nra|]; unfold Rdiv; rewrite Rmult_assoc, Rinv_l by nra; lra);
    assert (G : forall a b d, Rabs a <= t -> Rabs b <= t -> Rabs d <= t -> Rabs ((s - 1) * a + c * b * d) <= u / 2 /\ Rabs ((s - 1) * a - c * b * d) <= u / 2) by
     (intros a b d Ha Hb Hd; assert (G1 : Rabs ((s - 1) * a) <= t * t * t) by (apply abs_prod; auto); assert (G2 : Rabs (c * b * d) <= 1 * t * t) by (apply abs_prod; auto; apply abs_prod; auto);
      assert (t * t * t <= t * t * 1) by (apply Rmult_le_compat_l; nra); apply Rabs_ends in G1, G2; split; apply Rabs_le; lra).
  - replace (- (- s * x + c * y * z) - x) with ((s - 1) * x - c * y * z) by ring. apply G; auto.
  - replace (s * y + c * x * z - y) with ((s - 1) * y + c * x * z) by ring. apply G; auto.
  - replace (- (- s * z + c * x * y) - z) with ((s - 1) * z - c * x * y) by ring. apply G; auto.
Qed.

Section Back.
Context (L : libm) (HL : accurate L) (HA : accurate_acos L) (HT : accurate_atan2 L).
Local Notation SK := (F64 L).
#[local] Instance SKb : Scalar f64 := SK.

Lemma em_log_small out A v e : length out = 3%nat -> length v = 3%nat -> rnorm v <= 1 / 10 ^ 9 -> mcl A (expSO3 v) e -> 0 <= e <= 1 / 10 ^ 9 ->
  exists w, em_logarithm (SK:=SK) out A = Ok w /\ Forall (fun a => isf a) w /\ near_v (e + u) (map val w) v.
Proof.
  intros Lo Lv Hv HM He. pose proof u_pos as U. pose proof u_tiny as U1. destruct (vec3 v Lv) as (x & y & z & ->). destruct (exp_tiny x y z Hv) as (T0 & T1 & T2 & TT & Bx & By & Bz).
  destruct HM as (_ & C01 & C02 & _ & _ & C12 & _). apply cl_opp in C12, C01. destruct C12 as [F0 E0]. destruct C02 as [F1 E1]. destruct C01 as [F2 E2].
  set (t := rnorm [x; y; z]) in *. set (E := expSO3 [x; y; z]) in *.
  assert (D0 : Rabs (val (Bopp (a12 A)) - x) <= e + u) by (apply Rabs_ends in E0, T0; apply Rabs_le; lra).
  assert (D1 : Rabs (val (a02 A) - y) <= e + u) by (apply Rabs_ends in E1, T1; apply Rabs_le; lra).
  assert (D2 : Rabs (val (Bopp (a01 A)) - z) <= e + u) by (apply Rabs_ends in E2, T2; apply Rabs_le; lra).
  assert (NS : Bltb (Bsqrt mode_NE (nsq L (Bopp (a12 A)) (a02 A) (Bopp (a01 A)))) (lit8 L) = true).
  { destruct (Bltb _ (lit8 L)) eqn:B; [reflexivity|]. exfalso.
    assert (G : forall a b, Rabs (a - b) <= e + u -> Rabs b <= t -> a * a <= 25 / 10 ^ 18) by (intros a b H1 H2; apply Rabs_ends in H1, H2; nra).
    pose proof (G _ _ D0 Bx). pose proof (G _ _ D1 By). pose proof (G _ _ D2 Bz).
    destruct (big_norm L _ _ _ F0 F1 F2 ltac:(unfold sq3; lra) B) as (N1 & _). unfold sq3 in N1. lra. }
  exists [Bopp (a12 A); a02 A; Bopp (a01 A)]. split.
  { unfold em_logarithm. change (norm (SK:=SK) [kopp (Scalar:=SK) (a12 A); a02 A; kopp (Scalar:=SK) (a01 A)]) with (Bsqrt mode_NE (nsq L (Bopp (a12 A)) (a02 A) (Bopp (a01 A)))).
    change (kltb (Scalar:=SK)) with (@Bltb 53 1024). change (map_prec (SK:=SK)) with (lit8 L). rewrite NS.
    destruct out as [|o0 [|o1 [|o2 [|]]]]; try discriminate Lo. reflexivity. }
  split; [auto|]. unfold near_v. repeat (apply Forall2_cons; [assumption|]). apply Forall2_nil.
Qed.

(** ** Leaves.  A stray slice, a tangent slice in the domain, the error of the logarithm. *)
Definition in_reach (d : R) (s : mfd f64) (x v : list f64) : Prop :=
  match s with
  | Leaf _ LReal _ _ => Forall2 (fun a b => isf a /\ isf b /\ Rabs (val a) <= bpow radix2 990 /\ Rabs (val b) <= bpow radix2 990) x v
  | Leaf _ LS2 _ _ => False
  | Leaf _ (LSO3 MapMatrix) _ _ => let t := rnorm (vals v) in t <= 1 / 10 ^ 9 /\ d <= 1 / 10 ^ 10 \/ t < PI /\ 153000 * u + 700 * d <= sin t * sin t
  | Leaf _ (LSO3 MapQuat) _ _ => rnorm (vals v) <= 314 / 100
  | Prod _ _ _ _ => False
  end.
Definition came_back (d : R) (s : mfd f64) (x v w : list f64) : Prop :=
  match s with
  | Leaf _ LReal _ _ => Forall3 (fun a b c => isf c /\ Rabs (val c - val b) <= u * (2 * Rabs (val a) + 3 * Rabs (val b)) + 3 * eta) x v w
  | Leaf _ (LSO3 MapMatrix) _ _ => let t := rnorm (vals v) in Forall isf w /\
      (t <= 1 / 10 ^ 9 -> near_v (383 * u + 2 * d) (vals w) (vals v)) /\
      (1 / 10 ^ 9 < t <= PI / 2 -> near_v (39000 * u + 174 * d) (vals w) (vals v)) /\ (PI / 2 < t -> near_v ((21500 * u + 96 * d) / (sin t * sin t)) (vals w) (vals v))
  | Leaf _ (LSO3 MapQuat) _ _ => Forall isf w /\ near_v (67500 * u) (vals w) (vals v)
  | _ => False
  end.

Lemma real_back x v : Forall2 (fun a b => isf a /\ isf b /\ Rabs (val a) <= bpow radix2 990 /\ Rabs (val b) <= bpow radix2 990) x v ->
  Forall3 (fun a b c => isf c /\ Rabs (val c - val b) <= u * (2 * Rabs (val a) + 3 * Rabs (val b)) + 3 * eta) x v (vsub (vadd x v) x).
Proof.
  assert (BB : 4 * bpow radix2 990 <= big). { unfold big. replace 4 with (bpow radix2 2) by reflexivity. rewrite <- bpow_plus. apply bpow_le. lia. }
  induction 1 as [|a b x v (Fa & Fb & Ba & Bb) H IH]; [constructor|]. change (vsub (vadd (a :: x) (b :: v)) (a :: x)) with ((a +! b -! a) :: vsub (vadd x v) x). constructor; [|exact IH].
  pose proof u_pos as U. pose proof u_tiny as U1. pose proof eta_pos as T0. pose proof eta_u50 as T. pose proof (bpow_ge_0 radix2 990) as B0.
  assert (B1 : 1 <= bpow radix2 990) by (change 1 with (bpow radix2 0); apply bpow_le; lia).
  assert (S : Rabs (val a + val b) <= Rabs (val a) + Rabs (val b)) by apply Rabs_triang.
  destruct (f_add a b Fa Fb) as [Fy Vy]; [lra|]. pose proof (rnd_err (val a + val b)) as Ey. rewrite <- Vy in Ey.
  set (y := a +! b) in *. set (A := Rabs (val a)) in *. set (B := Rabs (val b)) in *. assert (A0 : 0 <= A) by apply Rabs_pos. assert (Bp : 0 <= B) by apply Rabs_pos.
  assert (US : u * Rabs (val a + val b) <= u * (A + B)) by (apply Rmult_le_compat_l; lra). assert (US1 : u * (A + B) <= 1 / 10 ^ 15 * (A + B)) by (apply Rmult_le_compat_r; lra).
  assert (D : Rabs (val y - val a - val b) <= u * (A + B) + eta). { replace (val y - val a - val b) with (val y - (val a + val b)) by ring. lra. }
  assert (Dy : Rabs (val y - val a) <= B + (u * (A + B) + eta)). { replace (val y - val a) with (val y - val a - val b + val b) by ring. eapply Rle_trans; [apply Rabs_triang|]. fold B. lra. }
  destruct (f_sub y a Fy Fa) as [Fc Vc]; [lra|]. split; [exact Fc|]. rewrite Vc. pose proof (rnd_err (val y - val a)) as Ec.
  assert (u * Rabs (val y - val a) <= u * (B + (u * (A + B) + eta))) by (apply Rmult_le_compat_l; lra).
  assert (u * (u * (A + B) + eta) <= 1 / 1000 * (u * (A + B) + eta)) by (apply Rmult_le_compat_r; [|lra]; assert (0 <= u * (A + B)) by (apply Rmult_le_pos; lra); lra).
  assert (0 <= u * A) by (apply Rmult_le_pos; lra). assert (0 <= u * B) by (apply Rmult_le_pos; lra).
  apply Rabs_ends in Ec, D. apply Rabs_le. lra.
Qed.

Lemma leaf_back64 h l a b d x v o p y : let s := Leaf h l a b in leaf_wf h l a b -> 0 <= d <= 1 / 1000 -> fstray d s x -> in_reach d s x v -> length v = tangentDim s -> length p = tangentDim s ->
  retractation s o x v = Ok y -> exists w, pseudoLog s p x y = Ok w /\ came_back d s x v w.
Proof.
  intros s W Hd Hx Hv Lv Lp H. pose proof u_pos as U. pose proof u_tiny as U1. pose proof PI_le as PL. pose proof PI_ge as PG.
  assert (M : mild s v) by (unfold s; destruct l as [| |[|]]; cbn [mild]; auto; contradiction Hv).
  destruct (leaf_step64 L HL h l a b d x v o y W Hd Hx M H) as [Sy Cy]. pose proof (fstray_len _ _ _ _ _ _ W Hx) as Lx. pose proof (fstray_len _ _ _ _ _ _ W Sy) as Ly.
  unfold s in *. cbn [pseudoLog]. rewrite Lp, Lx, Ly, !Nat.eqb_refl. cbn [mnf_assert bind].
  cbn [retractation] in H. assert (C : length o = representationDim (Leaf h l a b) /\ isInTxM (Leaf h l a b) x v default_prec = Ok true).
  { destruct (length o =? _)%nat eqn:E1 in H; [|discriminate]. destruct (length x =? _)%nat eqn:E2 in H; [|discriminate]. destruct (length v =? _)%nat eqn:E3 in H; [|discriminate].
    cbn [mnf_assert bind] in H. destruct (isInTxM _ x v default_prec) as [bb|] eqn:E4; [|discriminate]. destruct bb; [|discriminate]. apply Nat.eqb_eq in E1. auto. }
  destruct C as (Lo & HTx). rewrite Lo, Lx, Lv, !Nat.eqb_refl in H. cbn [mnf_assert bind] in H. rewrite HTx in H. cbn [mnf_assert bind] in H.
  unfold representationDim, tangentDim in *. cbn [hdr_of] in *.
  destruct l as [| |[|]]; cbn [fstray came_back in_reach] in *; unfold leaf_wf in W; [|contradiction| |].
  - pose proof (real_back x v Hv) as RB. assert (LL : length (vadd x v) = length x /\ length (vsub (vadd x v) x) = length x).
    { pose proof (vadd_spec L x v ltac:(lia)) as VS. split; [clear - VS; induction VS; cbn; auto|clear - RB; induction RB; cbn; auto]. }
    destruct LL as [L1 L2]. unfold real_retractation, same_size, assign in H. replace (length x =? length v)%nat with true in H by (symmetry; apply Nat.eqb_eq; lia). cbn [mnf_assert bind] in H.
    rewrite L1 in H. replace (length o =? length x)%nat with true in H by (symmetry; apply Nat.eqb_eq; lia). cbn [bind] in H. apply ok_eq in H. subst y.
    exists (vsub (vadd x v) x). split; [|exact RB]. unfold real_pseudoLog, same_size, assign. rewrite L1, L2. replace (length p =? length x)%nat with true by (symmetry; apply Nat.eqb_eq; lia). rewrite ?Nat.eqb_refl. reflexivity.
  - destruct Hx as (X & -> & FX & SX). destruct (vec3 v) as (v0 & v1 & v2 & ->); [lia|].
    destruct (em_step L HL X v0 v1 v2 o y d FX SX Hd ltac:(lia) H) as (Y & -> & MY & SY).
    change (vals [v0; v1; v2]) with (qvec3 v0 v1 v2) in *. set (vv := qvec3 v0 v1 v2) in *.
    assert (MC : mcl Y (rmul (mval X) (expSO3 vv)) (124 * u)) by (destruct MY as ([? ?] & [? ?] & [? ?] & [? ?] & [? ?] & [? ?] & [? ?] & [? ?] & [? ?]); unfold mcl, cl; tauto).
    pose proof (em_back L X Y d (expSO3 vv) (124 * u) FX SX Hd (expSO3_rot _) MC ltac:(lra)) as MB.
    set (e := 301 / 100 * (124 * u) + 83 / 10 * u + 1733 / 1000 * d) in *. assert (Ee : e = 301 / 100 * (124 * u) + 83 / 10 * u + 1733 / 1000 * d) by reflexivity. clearbody e.
    assert (PE : em_pseudoLog (SK:=SK) p (m3_to_list X) (m3_to_list Y) = em_logarithm (SK:=SK) p (m3_mul (SK:=SK) (m3_trans X) Y)) by (destruct X, Y; reflexivity).
    assert (L3 : length vv = 3%nat) by reflexivity.
    destruct (Rle_lt_dec (rnorm vv) (1 / 10 ^ 9)) as [Hs|Hs].
    + destruct Hv as [[_ Hdd]|[_ Hb]].
      2:{ exfalso. pose proof (rnorm_nonneg vv) as P. pose proof (sin_abs (rnorm vv)) as A. rewrite (Rabs_pos_eq (rnorm vv)) in A by lra. apply Rabs_ends in A. assert (sin (rnorm vv) * sin (rnorm vv) <= 1 / 10 ^ 9 * (1 / 10 ^ 9)) by nra. assert (1 / 10 ^ 17 <= u) by (rewrite u_val; lra). lra. }
      destruct (em_log_small p _ vv e ltac:(lia) L3 Hs MB ltac:(lra)) as (w & Ew & Fw & Nw). exists w. split; [change (em_pseudoLog (SK:=SK) p (m3_to_list X) (m3_to_list Y) = Ok w); rewrite PE; exact Ew|].
      split; [exact Fw|]. split; [|split; intros; exfalso; lra]. intros _. eapply near_v_mono; [|exact Nw]. lra.
    + destruct Hv as [[Hv _]|[Hp Hb]]; [lra|]. 
      destruct (em_log_f64 L HL HA p _ vv e ltac:(lia) L3 ltac:(lra) MB ltac:(lra) ltac:(lra) ltac:(lra)) as (w & Ew & Fw & Nw & Nw2). exists w. split; [change (em_pseudoLog (SK:=SK) p (m3_to_list X) (m3_to_list Y) = Ok w); rewrite PE; exact Ew|].
      split; [exact Fw|]. split; [intros; exfalso; lra|]. split.
      * intros [_ H2]. eapply near_v_mono; [|apply Nw2; exact H2]. lra.
      * intros _. eapply near_v_mono; [|exact Nw]. apply Rmult_le_compat_r; [|lra]. apply Rlt_le, Rinv_0_lt_compat. lra.
  - destruct Hx as (q & -> & Fq & Sq). destruct (vec3 v) as (v0 & v1 & v2 & ->); [lia|]. destruct W as (W1 & W2 & W3 & _).
    destruct (eq_step L HL q v0 v1 v2 o y Fq ltac:(lra) ltac:(lia) H) as (r & -> & Q & S).
    change (vals [v0; v1; v2]) with (qvec3 v0 v1 v2) in *. set (vv := qvec3 v0 v1 v2) in *.
    pose proof (eq_back L q r (expQ vv) Fq ltac:(lra) (expQ_unit _) Q) as QB.
    destruct (eq_log_f64 L HT p _ vv (364 * u) ltac:(lia) eq_refl Hv ltac:(lra) QB) as (w & Ew & Fw & Nw). exists w. split; [destruct q, r; exact Ew|]. split; [exact Fw|]. eapply near_v_mono; [|exact Nw]. lra.
Qed.

(** ** Trees *)
Lemma tree_back64 (m : mfd f64) d xs vs out p r : wf m -> 0 <= d <= 1 / 1000 -> Forall2 (fstray d) (leaves m) xs -> pieces DT (leaves m) vs -> Forall3 (in_reach d) (leaves m) xs vs ->
  length out = representationDim m -> length p = tangentDim m -> retractation m out (concat xs) (concat vs) = Ok r ->
  exists ws, pseudoLog m p (concat xs) r = Ok (concat ws) /\ Forall4 (came_back d) (leaves m) xs vs ws.
Proof.
  intros W Hd Hx Pv Hr Lo Lp H. destruct (cut_gen DR m out W Lo) as (outs & -> & Po). destruct (cut_gen DT m p W Lp) as (ps & -> & Pp).
  pose proof (fstray_pieces _ _ _ W Hx) as Px.
  apply (flat_op DR DR DT retractation retractation_prod m W) in H; auto. destruct H as (ys & -> & F). pose proof (fun s => leaf_inv_gen m s W) as G.
  assert (E : pieces DR (leaves m) ys /\ exists ws, Forall5 (fun s o x v r => pseudoLog s o x v = Ok r) (leaves m) ps xs ys ws /\ Forall4 (came_back d) (leaves m) xs vs ws).
  { clear W Lo Lp Px. revert G Hx Pv Hr Po Pp F. generalize (leaves m) as ls. intros ls. revert xs vs outs ps ys.
    induction ls as [|s ls IH]; intros xs vs outs ps ys G Hx Pv Hr Po Pp F.
    - inversion F; subst. inversion Pp; subst. split; [constructor|]. exists []. split; constructor.
    - inversion Hx as [|? x ? xs' Hx1 Hx2]; subst. inversion Pv as [|? v ? vs' Pv1 Pv2]; subst. inversion Po as [|? o ? os' Po1 Po2]; subst. inversion Pp as [|? q ? qs' Pp1 Pp2]; subst.
      inversion Hr as [|? ? ? ? ? ? Hr1 Hr2]; subst. inversion F as [|? ? ? ? y0 ? ? ? ? ys0 F1 F2]; subst.
      destruct (IH xs' vs' os' qs' ys0) as (A & ws & B & C); auto. { intros q0 Hq. apply G. simpl; auto. }
      destruct (G s) as (h & l & a & b & -> & Wl); [simpl; auto|].
      destruct (leaf_back64 h l a b d x v o q y0 Wl Hd Hx1 Hr1 Pv1 Pp1 F1) as (w & E1 & E2).
      assert (M : mild (Leaf h l a b) v) by (destruct l as [| |[|]]; cbn [mild]; auto; contradiction Hr1).
      destruct (leaf_step64 L HL h l a b d x v o y0 Wl Hd Hx1 M F1) as [Sy _].
      split; [constructor; auto; apply (fstray_len _ _ _ _ _ _ Wl Sy)|]. exists (w :: ws). split; constructor; auto. }
  destruct E as (Py & ws & F5 & F4). exists ws. split; [|exact F4].
  apply (flat_op DT DR DR pseudoLog pseudoLog_prod m W); auto. exists ws. auto.
Qed.
End Back.
