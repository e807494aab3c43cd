(** createRandomPoint in double arithmetic: one elementary manifold. *)
From Coq Require Import Reals List Lra Lia ZArith Bool Arith Psatz.
From Flocq Require Import Core BinarySingleNaN.
From Verif Require Import Base Scalar Vec Model_Real Model_S2 Model_SO3 Model_Manifold Spec SpecPrint Layout Comp Indep Flat Points
  XR SpecR RotR NumVec NumTree Drift Random F64 F64Err F64Norm F64S2 F64Exp F64Quat F64Mat F64Mat2 F64Tree F64Go.
Import ListNotations.
Local Open Scope R_scope.

(** ** Normalising a short vector *)
Lemma eta_tiny : eta <= u * / 2 ^ 200 / 10 ^ 6.
Proof.
  unfold eta, u. replace (/ 2 ^ 200) with (bpow radix2 (-200)) by (cbn; lra).
  rewrite <- bpow_plus. apply Rle_trans with (bpow radix2 (-1000)); [apply bpow_le; lia|].
  apply (Rmult_le_reg_r (10 ^ 6)); [lra|]. unfold Rdiv. rewrite Rmult_assoc, Rinv_l, Rmult_1_r by lra.
  apply Rle_trans with (bpow radix2 (-1000) * bpow radix2 20); [apply Rmult_le_compat_l; [apply bpow_ge_0|cbn; lra]|]. rewrite <- bpow_plus. apply bpow_le. lia.
Qed.
Lemma norm3_tiny L a b c : isf a -> isf b -> isf c -> let N := sq3 (val a) (val b) (val c) in / 2 ^ 200 <= N <= B900 ->
  isf (Bsqrt mode_NE (sum3 L (a *! a) (b *! b) (c *! c))) /\ Rabs (val (Bsqrt mode_NE (sum3 L (a *! a) (b *! b) (c *! c))) - sqrt N) <= (253 / 100) * (u * sqrt N).
Proof.
  intros Fa Fb Fc N [H1 H2]. pose proof (dot3_fin L a b c Fa Fb Fc H2) as F. destruct (dot3_err L a b c F) as (_ & _ & _ & E). cbv zeta in E. fold N in E.
  pose proof eta_tiny as T. pose proof eta_pos as T0. pose proof u_pos as U. set (m0 := / 2 ^ 200) in *. assert (M0 : 0 < m0 <= 1) by (unfold m0; lra). clearbody m0.
  assert (T1 : u * m0 <= u * N) by (apply Rmult_le_compat_l; lra). assert (0 < u * m0) by (apply Rmult_lt_0_compat; lra).
  assert (SN : m0 <= sqrt N). { apply Rle_trans with (sqrt (m0 * m0)); [rewrite sqrt_square; lra|]. apply sqrt_le_1_alt. assert (m0 * m0 <= m0 * 1) by (apply Rmult_le_compat_l; lra). lra. }
  assert (T2 : u * m0 <= u * sqrt N) by (apply Rmult_le_compat_l; lra).
  destruct (sqrt_err _ N (3 + 1 / 100) F) as [F' E']; try lra.
  split; auto. eapply Rle_trans; [exact E'|]. apply Rmult_le_compat_r; [|lra]. lra.
Qed.
Lemma normalise3_tiny L a b c : isf a -> isf b -> isf c -> let N := sq3 (val a) (val b) (val c) in / 2 ^ 200 <= N <= B900 ->
  let m := Bsqrt mode_NE (sum3 L (a *! a) (b *! b) (c *! c)) in
  isf (a /! m) /\ isf (b /! m) /\ isf (c /! m) /\ Rabs (sq3 (val (a /! m)) (val (b /! m)) (val (c /! m)) - 1) <= 8 * u /\
  Rabs (val (a /! m) - val a / sqrt N) <= 4 * u /\ Rabs (val (b /! m) - val b / sqrt N) <= 4 * u /\ Rabs (val (c /! m) - val c / sqrt N) <= 4 * u.
Proof.
  intros Fa Fb Fc N H m. destruct (norm3_tiny L a b c Fa Fb Fc H) as [_ E]. fold N in E. fold m in E. assert (N0 : 0 < N) by lra.
  destruct (div_unit a N m Fa ltac:(unfold N, sq3; nra) N0 E) as (Ga & Ha & Sa & Ea).
  destruct (div_unit b N m Fb ltac:(unfold N, sq3; nra) N0 E) as (Gb & Hb & Sb & Eb).
  destruct (div_unit c N m Fc ltac:(unfold N, sq3; nra) N0 E) as (Gc & Hc & Sc & Ec).
  clearbody m. set (x := val a / sqrt N) in *. set (y := val b / sqrt N) in *. set (z := val c / sqrt N) in *.
  pose proof u_pos as U. pose proof eta_u as T.
  assert (One : x * x + y * y + z * z = 1) by (rewrite Sa, Sb, Sc; unfold N, sq3; field; unfold N, sq3 in N0; lra).
  pose proof (unit_pert x _ Ea Ha) as Pa. pose proof (unit_pert y _ Eb Hb) as Pb. pose proof (unit_pert z _ Ec Hc) as Pc.
  assert (Q : forall w o, Rabs w <= 1 -> Rabs (o - w) <= 36 / 10 * (u * Rabs w) + eta -> Rabs (o - w) <= 4 * u).
  { intros w o Hw Ho. assert (u * Rabs w <= u * 1) by (apply Rmult_le_compat_l; lra). lra. }
  repeat split; auto. unfold sq3. apply Rabs_ends in Pa, Pb, Pc. apply Rabs_le.
  assert (u * (x * x) + u * (y * y) + u * (z * z) = u) by (rewrite <- !Rmult_plus_distr_l, One; ring). lra.
Qed.

(** ** One elementary manifold *)
(** What a finite generator's draws [ds] become with the coefficient [c]. *)
Definition prods (c : f64) (ds : list f64) : list R := map (fun d => rnd (val c * val d)) ds.
Definition drawn (c : f64) (s : mfd f64) (ds y : list f64) : Prop :=
  match s with
  | Leaf _ LReal _ _ => vals y = prods c ds
  | Leaf _ LS2 _ _ => near_v (4 * u) (vals y) (rscal (/ rnorm (vals ds)) (vals ds))
  | Leaf _ (LSO3 MapMatrix) _ _ => near_v (124 * u) (vals y) (flat9 (expSO3 (prods c ds)))
  | Leaf _ (LSO3 MapQuat) _ _ => near_v (82 * u) (vals y) (qflat (expQ (prods c ds)))
  | Prod _ _ _ _ => False
  end.

Definition is_sphere (s : mfd f64) : bool := match s with Leaf _ LS2 _ _ => true | _ => false end.

Section Rand.
Variable L : libm.
Hypothesis HL : accurate L.
#[local] Instance SKr : Scalar f64 := F64 L.

Lemma scale_fin c ds : isf c -> Rabs (val c) <= 2 ^ 900 -> Forall (fun d => isf d /\ Rabs (val d) <= 1) ds ->
  Forall isf (vscale (SK:=SKr) c ds) /\ vals (vscale (SK:=SKr) c ds) = prods c ds.
Proof.
  intros Fc Hc F. unfold prods. induction F as [|d ds [Fd Hd] F IH]; [split; [constructor|reflexivity]|]. destruct IH as [I1 I2].
  assert (B : Rabs (val c * val d) <= big).
  { rewrite Rabs_mult. apply Rle_trans with (2 ^ 900 * 1); [apply Rmult_le_compat; auto using Rabs_pos|]. rewrite Rmult_1_r. pose proof B900_big as BB. unfold B900 in BB.
    replace (2 ^ 900) with (bpow radix2 900) by (rewrite <- IZR_Zpower by lia; rewrite pow_IZR; reflexivity). pose proof (bpow_gt_0 radix2 900). lra. }
  destruct (f_mul c d Fc Fd B) as [G1 G2]. split.
  - constructor; [exact G1|exact I1].
  - change (val (Bmult mode_NE c d) :: vals (vscale (SK:=SKr) c ds) = rnd (val c * val d) :: map (fun d => rnd (val c * val d)) ds). rewrite G2, I2. reflexivity.
Qed.
Lemma draw_fin64 (g : nat -> f64) pos n : (forall k, (pos <= k < pos + n)%nat -> isf (g k) /\ Rabs (val (g k)) <= 1) -> Forall (fun d => isf d /\ Rabs (val d) <= 1) (draw g pos n).
Proof. intros H. unfold draw. apply Forall_forall. intros d Hd. apply in_map_iff in Hd as (k & <- & Hk). apply in_seq in Hk. apply H. lia. Qed.
Lemma prods_short c ds : length ds = 3%nat -> Rabs (val c) <= 9 / 5 -> Forall (fun d => isf d /\ Rabs (val d) <= 1) ds -> rnorm (prods c ds) <= 314 / 100.
Proof.
  intros L3 Hc F. destruct ds as [|a [|b [|d [|]]]]; try discriminate L3. 
  assert (B : forall x, isf x /\ Rabs (val x) <= 1 -> Rabs (rnd (val c * val x)) <= 1801 / 1000).
  { intros x [_ Hx]. pose proof (rnd_err (val c * val x)) as E. assert (P : Rabs (val c * val x) <= 9 / 5) by (rewrite Rabs_mult; replace (9 / 5) with (9 / 5 * 1) by lra; apply Rmult_le_compat; auto using Rabs_pos).
    pose proof u_pos as U. pose proof eta_u as T. assert (u * Rabs (val c * val x) <= u * 2) by (apply Rmult_le_compat_l; lra).
    apply Rabs_ends in E, P. apply Rabs_le. assert (u <= 1 / 10 ^ 15) by (rewrite u_val; lra). lra. }
  inversion F as [|? ? A0 F1]; subst. inversion F1 as [|? ? A1 F2]; subst. inversion F2 as [|? ? A2 _]; subst. apply B in A0, A1, A2.
  unfold prods, rnorm. cbn [map rdot]. apply Rsqr_incr_0_var; [|lra]. unfold Rsqr. set (x := rnd _) in *. set (y := rnd (val c * val b)) in *. set (z := rnd (val c * val d)) in *. clearbody x y z.
  assert (Q : forall t, Rabs t <= 1801 / 1000 -> 0 <= t * t <= 3244 / 1000) by (clear; intros t H; apply Rabs_ends in H; split; nra).
  apply Q in A0, A1, A2. rewrite sqrt_sqrt by lra. lra.
Qed.
Lemma one_zero : isf (k1 (Scalar:=SKr)) /\ val (k1 (Scalar:=SKr)) = 1 /\ isf (k0 (Scalar:=SKr)) /\ val (k0 (Scalar:=SKr)) = 0.
Proof. destruct (of_Z_ok 1 ltac:(lia)) as [A B]. split; [exact A|]. split; [exact B|]. split; reflexivity. Qed.
Lemma leaf_rand64 h l a b c (g : nat -> f64) pos : let s := Leaf h l a b in leaf_wf (K:=f64) h l a b ->
  isf c -> Rabs (val c) <= 2 ^ 900 -> (is_rotation s = true -> Rabs (val c) <= 9 / 5) ->
  (forall k, (pos <= k < pos + ndraw s)%nat -> isf (g k) /\ Rabs (val (g k)) <= 1) ->
  (is_sphere s = true -> exists k, (k < 3)%nat /\ / 2 ^ 100 <= Rabs (val (g (pos + k)%nat))) ->
  exists y, length y = representationDim s /\ Forall isf y /\ fstray (1240 * u) s y /\ drawn c s (draw g pos (ndraw s)) y /\
    forall o, length o = representationDim s -> createRandomPoint (SK:=SKr) s o c g pos = Ok (y, (pos + ndraw s)%nat).
Proof.
  intros s W Fc Hc Hr Hd Hz. pose proof u_pos as U. pose proof W as W0. unfold s in *. pose proof (draw_fin64 g pos _ Hd) as Fd.
  assert (LD : forall n, length (draw g pos n) = n) by (intros n; unfold draw; rewrite map_length, seq_length; reflexivity).
  destruct l as [| |mp]; cbn [is_rotation] in Hr.
  - destruct W as [W1 W2]. unfold ndraw, tangentDim in *. cbn [hdr_of] in *. rewrite W1 in *. destruct (scale_fin c (draw g pos (h_dim h)) Fc Hc Fd) as [G1 G2].
    assert (LV : length (vscale (SK:=SKr) c (draw g pos (h_dim h))) = h_dim h) by (unfold vscale; rewrite map_length; apply LD).
    exists (vscale (SK:=SKr) c (draw g pos (h_dim h))). unfold representationDim. cbn [hdr_of fstray drawn]. split; [congruence|]. split; [exact G1|]. split; [exact LV|]. split; [exact G2|].
    intros o Lo. cbn [createRandomPoint]. unfold representationDim. cbn [hdr_of]. rewrite Lo, Nat.eqb_refl. cbn [mnf_assert bind]. rewrite W2 in *. unfold real_createRandomPoint, assign. rewrite LV, Lo, Nat.eqb_refl. reflexivity.
  - destruct W as (W1 & W2 & W3 & _). cbn [ndraw] in *. destruct (Hz eq_refl) as (k & Hk & Hg). clear LD. unfold draw in Fd |- *. cbn [seq map] in *.
    inversion Fd as [|? ? [A0 B0] F1]; subst. inversion F1 as [|? ? [A1 B1] F2]; subst. inversion F2 as [|? ? [A2 B2] _]; subst. clear F1 F2.
    assert (Hk3 : / 2 ^ 100 <= Rabs (val (g pos)) \/ / 2 ^ 100 <= Rabs (val (g (S pos))) \/ / 2 ^ 100 <= Rabs (val (g (S (S pos))))).
    { destruct k as [|[|[|]]]; try lia; [rewrite Nat.add_0_r in Hg|rewrite Nat.add_1_r in Hg|replace (pos + 2)%nat with (S (S pos)) in Hg by lia]; auto. }
    clear Hz Hg Hd Fd. set (x := g pos) in *. set (y := g (S pos)) in *. set (z := g (S (S pos))) in *. assert (EQ : draw g pos 3 = [x; y; z]) by reflexivity. clearbody x y z.
    assert (SQ : forall t, / 2 ^ 100 <= Rabs t -> / 2 ^ 200 <= t * t).
    { intros t Ht. replace (t * t) with (Rabs t * Rabs t) by (rewrite <- Rabs_mult; apply Rabs_pos_eq; nra). replace (/ 2 ^ 200) with (/ 2 ^ 100 * / 2 ^ 100) by lra. apply Rmult_le_compat; auto; lra. }
    assert (NB : / 2 ^ 200 <= sq3 (val x) (val y) (val z) <= B900).
    { split.
      - unfold sq3. pose proof (Rle_0_sqr (val x)) as P0. pose proof (Rle_0_sqr (val y)) as P1. pose proof (Rle_0_sqr (val z)) as P2. unfold Rsqr in *. destruct Hk3 as [H|[H|H]]; apply SQ in H; lra.
      - pose proof B400_900. pose proof B400_1. unfold sq3. apply Rabs_ends in B0, B1, B2. assert (val x * val x <= 1) by nra. assert (val y * val y <= 1) by nra. assert (val z * val z <= 1) by nra. assert (1 <= B400 * B400) by nra. lra. }
    destruct (normalise3_tiny L x y z A0 A1 A2 NB) as (G0 & G1 & G2 & D & E0 & E1 & E2). set (m := Bsqrt mode_NE (sum3 L (x *! x) (y *! y) (z *! z))) in *.
    exists [x /! m; y /! m; z /! m]. unfold representationDim. cbn [hdr_of fstray drawn]. split; [rewrite W3; reflexivity|]. split; [auto|]. split; [|split].
    + exists (x /! m), (y /! m), (z /! m). repeat split; auto. lra.
    + assert (RN : rnorm (vals [x; y; z]) = sqrt (sq3 (val x) (val y) (val z))) by (unfold rnorm, sq3; cbn [map rdot]; f_equal; ring). rewrite RN. unfold rscal. cbn [map].
      unfold Rdiv in *. rewrite !(Rmult_comm (/ sqrt _)). repeat (apply Forall2_cons; [assumption|]). apply Forall2_nil.
    + intros o Lo. cbn [createRandomPoint]. unfold representationDim. cbn [hdr_of]. rewrite Lo, Nat.eqb_refl. cbn [mnf_assert bind]. unfold s2_rand. rewrite Lo, W3. cbn [Nat.eqb mnf_assert bind].
      rewrite EQ. unfold assign. rewrite Lo, W3. reflexivity.
  - destruct W as (W1 & W2 & W3 & _). assert (ND : ndraw (Leaf h (LSO3 mp) a b) = 3%nat) by (unfold ndraw, tangentDim; cbn [hdr_of]; exact W2). rewrite ND in *.
    destruct (scale_fin c (draw g pos 3) Fc Hc Fd) as [G1 G2]. pose proof (prods_short c _ (LD 3%nat) (Hr eq_refl) Fd) as PS.
    assert (LV : length (vscale (SK:=SKr) c (draw g pos 3)) = 3%nat) by (unfold vscale; rewrite map_length; apply LD). set (v := vscale (SK:=SKr) c (draw g pos 3)) in *.
    destruct one_zero as (I1 & V1 & I0 & V0).
    assert (Z : exists z, length z = representationDim (Leaf h (LSO3 mp) a b) /\ fstray 0 (Leaf h (LSO3 mp) a b) z /\
       (forall o, length o = representationDim (Leaf h (LSO3 mp) a b) -> match mp with MapMatrix => em_setZero (SK:=SKr) o | MapQuat => eq_setZero (SK:=SKr) o end = Ok z) /\
       vals z = match mp with MapMatrix => flat9 ridm | MapQuat => qflat (Q4 1 0 0 0) end).
    { unfold representationDim. cbn [hdr_of]. destruct mp; rewrite W3.
      - exists (m3_to_list (m3_id (SK:=SKr))). split; [reflexivity|]. split; [|split].
        + exists (m3_id (SK:=SKr)). split; [reflexivity|]. split; [repeat split|]. replace (mval (m3_id (SK:=SKr))) with ridm; [apply stretch_rot, rot_id|]. unfold mval, m3_id, ridm. cbn [a00 a01 a02 a10 a11 a12 a20 a21 a22]. rewrite V1, V0. reflexivity.
        + intros o Lo. unfold em_setZero. apply raw_write_same. exact Lo.
        + unfold m3_to_list, m3_id, flat9, ridm. cbn [map a00 a01 a02 a10 a11 a12 a20 a21 a22]. rewrite V1, V0. reflexivity.
      - exists [k1 (Scalar:=SKr); k0 (Scalar:=SKr); k0 (Scalar:=SKr); k0 (Scalar:=SKr)]. split; [reflexivity|]. split; [|split].
        + exists (Q4 (k1 (Scalar:=SKr)) (k0 (Scalar:=SKr)) (k0 (Scalar:=SKr)) (k0 (Scalar:=SKr))). split; [reflexivity|]. split; [repeat split|]. unfold qn2, qval. cbn [qw qx qy qz]. rewrite V1, V0. rewrite Rabs_pos_eq; lra.
        + intros o Lo. unfold eq_setZero. destruct (quat_read_len o) as [q0 ->]; [lia|]. cbn [bind]. unfold quat_write. apply raw_write_same. exact Lo.
        + cbn [map]. rewrite V1, V0. reflexivity. }
    destruct Z as (z & Lz & Sz & Ez & Vz).
    destruct (leaf_go L h (LSO3 mp) a b z v z W0 Lz) as (y & Ey); [rewrite LV; symmetry; exact W2|exact Lz|split; [exact G1|unfold v in *; rewrite G2; exact PS]|].
    destruct (leaf_step64 L HL h (LSO3 mp) a b 0 z v z y W0 ltac:(lra) Sz) as [Sy Cy]; [destruct mp; exact I|exact Ey|].
    rewrite Rplus_0_l in Sy. pose proof (fstray_len _ _ _ _ _ _ W0 Sy) as Ly. exists y. split; [exact Ly|]. split; [|split; [exact Sy|split]].
    + destruct mp; cbn [fstray] in Sy.
      * destruct Sy as (X & -> & FX & _). unfold mfin in FX. unfold m3_to_list. repeat (apply Forall_cons; [tauto|]). apply Forall_nil.
      * destruct Sy as (q & -> & FX & _). unfold qfin in FX. repeat (apply Forall_cons; [tauto|]). apply Forall_nil.
    + destruct mp; cbn [fclose drawn] in *.
      * destruct Cy as (A & EA & NA). rewrite Vz in EA. assert (A = ridm). { destruct A as [p0 p1 p2 p3 p4 p5 p6 p7 p8]. unfold flat9, ridm in EA. cbn [a00 a01 a02 a10 a11 a12 a20 a21 a22] in EA. injection EA as <- <- <- <- <- <- <- <- <-. reflexivity. } subst A. rewrite rmul_id_l in NA. rewrite G2 in NA. exact NA.
      * destruct Cy as (q & EA & NA). rewrite Vz in EA. assert (q = Q4 1 0 0 0). { destruct q as [p0 p1 p2 p3]. unfold qflat in EA. cbn [qw qx qy qz] in EA. injection EA as <- <- <- <-. reflexivity. } subst q. rewrite qprod_1l in NA. rewrite G2 in NA. exact NA.
    + intros o Lo. cbn [createRandomPoint]. rewrite Lo, Nat.eqb_refl. cbn [mnf_assert bind]. rewrite (Ez o Lo). cbn [bind]. fold v. change (retractation (SK:=SKr)) with (retractation (SK:=F64 L)). 
      match goal with |- bind ?p _ = _ => replace p with (Ok y) by (symmetry; exact Ey) end. reflexivity.
Qed.
End Rand.
