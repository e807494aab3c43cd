(** C67: pseudoLog between two given points in IEEE-754 double arithmetic, sphere included. *)
From Coq Require Import Reals List Lra Lia ZArith Bool Arith Psatz.
From Flocq Require Import Core BinarySingleNaN.
From Verif Require Import Base Scalar Vec Model_Real Model_S2 Model_SO3 Model_Manifold Spec Layout Comp Indep Flat Points
  XR SpecR RotR NumVec NumTree Drift F64 F64Err F64Norm F64S2 F64Exp F64Quat F64Mat F64Mat2 F64Tree F64Go F64Log F64LogQ F64Back F64Find Properties_Float Properties_FloatLog Properties_FloatProj ExScalar.
Import ListNotations.
Local Open Scope R_scope.

(** The point at the end of the great circle that leaves x in the direction v and has length |v|. *)
Definition great_circle (x v : list R) : list R := let t := rnorm v in radd (rscal (cos t / rnorm x) x) (rscal (sin t / t) v).

(** [reached e s x v y]: the doubles y are within e of the exact end point of the step v from x. *)
Definition reached (e : R) (s : mfd f64) (x : list f64) (v : list R) (y : list f64) : Prop :=
  length v = tangentDim s /\ Forall isf y /\
  match s with
  | Leaf _ LReal _ _ => Forall isf x /\ Forall (fun a => Rabs (val a) <= bpow radix2 990) (x ++ y) /\ near_v e (vals y) (radd (vals x) v)
  | Leaf _ LS2 _ _ => rdot (vals x) v = 0 /\ near_v e (vals y) (great_circle (vals x) v)
  | Leaf _ (LSO3 MapMatrix) _ _ => exists A, vals x = flat9 A /\ near_v e (vals y) (flat9 (rmul A (expSO3 v)))
  | Leaf _ (LSO3 MapQuat) _ _ => exists q, vals x = qflat q /\ near_v e (vals y) (qflat (qprod q (expQ v)))
  | Prod _ _ _ _ => False
  end.
(** Where the step can be found again: anywhere on R^n; on S2 neither too short nor too close to the opposite point;
    with matrices up to 1e-9 or not too close to 0 and pi; with quaternions up to 3.14 radians. *)
Definition findable (d e : R) (s : mfd f64) (v : list R) : Prop :=
  let t := rnorm v in
  match s with
  | Leaf _ LReal _ _ => True
  | Leaf _ LS2 _ _ => t < PI /\ 1000 * / 2 ^ 53 + 3000 * d + 1000 * e <= (sin t) ^ 2
  | Leaf _ (LSO3 MapMatrix) _ _ => t <= 1 / 10 ^ 9 /\ 3 * d + e <= 1 / 10 ^ 10 \/ t < PI /\ 10000 * / 2 ^ 53 + 2100 * d + 1300 * e <= (sin t) ^ 2
  | Leaf _ (LSO3 MapQuat) _ _ => t <= 314 / 100 /\ e <= 1 / 10 ^ 11
  | Prod _ _ _ _ => False
  end.

Lemma radd3 (x : list f64) (v : list R) (y : list f64) e : length x = length v -> Forall isf x -> Forall isf y -> Forall (fun a => Rabs (val a) <= bpow radix2 990) (x ++ y) -> near_v e (vals y) (radd (vals x) v) ->
  Forall3 (fun a r b => isf a /\ isf b /\ Rabs (val a) <= bpow radix2 990 /\ Rabs (val b) <= bpow radix2 990 /\ Rabs (val b - (val a + r)) <= e) x v y.
Proof.
  revert v y. induction x as [|a x IH]; intros [|r v] y LL Fx Fy B N; try discriminate LL.
  - destruct y as [|b y]; [constructor|]. change (near_v e (val b :: vals y) []) in N. inversion N.
  - destruct y as [|b y]; [change (near_v e [] ((val a + r) :: radd (vals x) v)) in N; inversion N|]. change (near_v e (val b :: vals y) ((val a + r) :: radd (vals x) v)) in N. inversion N as [|? ? ? ? N1 N2]; subst.
    apply Forall_app in B. destruct B as [Ba Bb]. inversion Fx; inversion Fy; inversion Ba; inversion Bb; subst. constructor; [repeat split; auto|]. apply IH; auto. apply Forall_app. split; auto.
Qed.

(** C67: take any built tree (spheres too), a point x within d of the manifold, exact real steps v, and doubles y
    within e of the exact end points (great circles on S2).  Then pseudoLog returns finite numbers close to v: up
    to one rounding on R^n, up to a multiple of (2^-53 + d + e) / sin t on the sphere, with the stated multiples for
    rotations. *)
Theorem C67_find : forall L (m : mfd f64) xs vs ys p d e, accurate_log L -> built m -> 0 <= d <= 1 / 3000 -> 0 <= e <= 1 / 1000 ->
  Forall2 (defect64 d) (leaves m) xs -> Forall4 (reached e) (leaves m) xs vs ys -> Forall2 (findable d e) (leaves m) vs -> length p = tangentDim m ->
  exists ws, pseudoLog (SK:=F64 L) m p (concat xs) (concat ys) = Ok (concat ws) /\ Forall3 (fun s v w => let t := rnorm v in
    Forall isf w /\
    match s with
    | Leaf _ LReal _ _ => Forall2 (fun a b => Rabs (val b - a) <= e + / 2 ^ 53 * (Rabs a + e) + bpow radix2 (-1075)) v w
    | Leaf _ LS2 _ _ => near_v ((540 * / 2 ^ 53 + 78 * d + 37 * e) / sin t) (vals w) v
    | Leaf _ (LSO3 MapMatrix) _ _ =>
        (t <= 1 / 10 ^ 9 -> near_v (10 * / 2 ^ 53 + 6 * d + 4 * e) (vals w) v) /\
        (1 / 10 ^ 9 < t <= PI / 2 -> near_v (1450 * / 2 ^ 53 + 522 * d + 301 * e) (vals w) v) /\
        (PI / 2 < t -> near_v ((857 * / 2 ^ 53 + 288 * d + 166 * e) / (sin t) ^ 2) (vals w) v)
    | Leaf _ (LSO3 MapQuat) _ _ => near_v (6800 * / 2 ^ 53 + 745 * e) (vals w) v
    | Prod _ _ _ _ => False
    end) (leaves m) vs ws.
Proof.
  intros L m xs vs ys p d e HL B Hd He Hx Hy Hr Lp. destruct (accurate_log_split L HL) as (A1 & A2 & A3). apply built_wf in B.
  assert (EU : / 2 ^ 53 = u) by (rewrite u_val; cbn [pow]; lra). pose proof u_pos as U. change (bpow radix2 (-1075)) with eta.
  assert (Fx : Forall2 (fstray (3 * d)) (leaves m) xs) by (clear - Hx Hd; induction Hx; constructor; auto; apply defect_stray; auto; lra).
  assert (G : forall s, In s (leaves m) -> exists h l a b, s = Leaf h l a b /\ leaf_wf h l a b) by (intros s; apply leaf_inv_gen; auto).
  assert (Lv : Forall2 (fun s v => length v = tangentDim s) (leaves m) vs) by (clear - Hy; induction Hy as [|? ? ? ? ? ? ? ? (H & _)]; constructor; auto).
  assert (Rr : Forall2 (range (3 * d) e) (leaves m) vs).
  { clear - Hr EU. induction Hr as [|s v ls vs H Hr IH]; constructor; auto. destruct s as [h [| |[|]] a b|]; cbn [findable range] in *; rewrite ?EU in H; auto.
    - replace (sin (rnorm v) * sin (rnorm v)) with ((sin (rnorm v)) ^ 2) by ring. destruct H. split; lra.
    - replace (sin (rnorm v) * sin (rnorm v)) with ((sin (rnorm v)) ^ 2) by ring. destruct H as [[? ?]|[? ?]]; [left|right]; split; lra. }
  assert (Ry : Forall4 (ends e) (leaves m) xs vs ys).
  { clear - Hy Hx G. revert Hx G. induction Hy as [|s x v y ls xs vs ys (Lv & Fy & H) Hy IH]; intros Hx G; constructor.
    2:{ inversion Hx; subst. apply IH; auto. intros; apply G; simpl; auto. }
    inversion Hx as [|? ? ? ? Hx1 Hx2]; subst. destruct (G s) as (h & l & a & b & -> & W); [simpl; auto|].
    destruct l as [| |[|]]; cbn [ends defect64] in *; auto.
    destruct H as (F1 & F2 & F3). unfold tangentDim in Lv. cbn [hdr_of] in Lv. unfold leaf_wf in W. apply radd3; auto. lia. }
  destruct (tree_find L A1 A2 A3 m (3 * d) e xs vs ys p B ltac:(lra) He Fx Lv Ry Rr Lp) as (ws & E & F). exists ws. split; [exact E|].
  clear - F EU. revert F. induction 1 as [|s v w ls vs ws [F0 F1] F IH]; constructor; auto. clear IH F. cbv zeta. split; [exact F0|].
  destruct s as [h [| |[|]] a b|]; rewrite ?EU; auto.
  - eapply NumExp.near_v_mono; [|exact F1]. apply Req_le. f_equal. ring.
  - destruct F1 as (H1 & H2 & H3). split; [|split]; intros Ht.
    + eapply NumExp.near_v_mono; [|apply H1, Ht]. lra.
    + eapply NumExp.near_v_mono; [|apply H2, Ht]. lra.
    + replace (sin (rnorm v) ^ 2) with (sin (rnorm v) * sin (rnorm v)) by ring. eapply NumExp.near_v_mono; [|apply H3, Ht]. apply Req_le. f_equal. ring.
Qed.

Lemma forall3_one {A B C} (P : A -> B -> C -> Prop) s v ws : Forall3 P [s] [v] ws -> exists w, ws = [w] /\ P s v w.
Proof. intros F. inversion F as [|? ? w ? ? ? F0 F']; subst. inversion F'; subst. exists w. auto. Qed.

(** The sphere without naming the step: for two points within d of the sphere whose angle t is neither small nor
    close to pi, the result is t / sin t times the part of y orthogonal to x, and its length is the distance t. *)
Theorem C67_sphere : forall L h a b x y p d t, accurate_log L -> let m := Leaf h LS2 a b in built m -> 0 <= d <= 1 / 3000 -> defect64 d m x -> defect64 d m y -> length p = 3%nat ->
  let x1 := rscal (/ rnorm (vals x)) (vals x) in let y1 := rscal (/ rnorm (vals y)) (vals y) in
  0 < t < PI -> cos t = rdot x1 y1 -> 1000 * / 2 ^ 53 + 4000 * d <= (sin t) ^ 2 ->
  exists w, pseudoLog (SK:=F64 L) m p x y = Ok w /\ Forall isf w /\
    near_v ((540 * / 2 ^ 53 + 115 * d) / sin t) (vals w) (rscal (t / sin t) (rsub y1 (rscal (cos t) x1))) /\
    Rabs (rnorm (vals w) - t) <= (936 * / 2 ^ 53 + 200 * d) / sin t.
Proof.
  intros L h a b x y p d t HL m Bm Hd Hx Hy Lp x1 y1 Ht Hc Hs. pose proof (built_wf _ Bm) as W. inversion W as [? ? ? ? W'|]; subst. unfold leaf_wf in W'. destruct W' as (_ & W2 & W3 & _).
  destruct Hx as (Lx & Fx & Dx). destruct Hy as (Ly & Fy & Dy). destruct (vec3 x Lx) as (a0 & a1 & a2 & ->). destruct (vec3 y Ly) as (b0 & b1 & b2 & ->).
  change (vals [a0; a1; a2]) with [val a0; val a1; val a2] in *. change (vals [b0; b1; b2]) with [val b0; val b1; val b2] in *.
  set (r := rnorm [val a0; val a1; val a2]) in *. set (q := rnorm [val b0; val b1; val b2]) in *.
  assert (NN : forall u0 u1 u2 : R, Rabs (rdot [u0; u1; u2] [u0; u1; u2] - 1) <= d -> let n := rnorm [u0; u1; u2] in 0 < n /\ n * n = u0 * u0 + u1 * u1 + u2 * u2 /\ Rabs (n - 1) <= d /\ Rabs u0 <= n /\ Rabs u1 <= n /\ Rabs u2 <= n).
  { intros u0 u1 u2 H n. cbn [rdot] in H. apply Rabs_ends in H. assert (E : n * n = u0 * u0 + u1 * u1 + u2 * u2) by (unfold n, rnorm; cbn [rdot]; rewrite sqrt_sqrt; lra).
    assert (P : 0 < n) by (unfold n, rnorm; apply sqrt_lt_R0; cbn [rdot]; lra). split; [exact P|]. split; [exact E|]. split; [apply Rabs_le; nra|]. repeat split; apply Rabs_le; nra. }
  destruct (NN _ _ _ Dx) as (R0 & RR & R1 & _). fold r in R0, RR, R1. destruct (NN _ _ _ Dy) as (Q0 & QQ & Q1 & B0 & B1 & B2). fold q in Q0, QQ, Q1, B0, B1, B2. clear NN.
  assert (S0 : 0 < sin t) by (apply sin_gt_0; lra). assert (SC : sin t * sin t + cos t * cos t = 1) by (pose proof (sin2_cos2 t) as H; unfold Rsqr in H; exact H).
  unfold x1, y1 in *. cbn [rscal map] in *. cbn [rdot] in Hc.
  set (p0 := / r * val a0) in *. set (p1 := / r * val a1) in *. set (p2 := / r * val a2) in *. set (z0 := / q * val b0) in *. set (z1 := / q * val b1) in *. set (z2 := / q * val b2) in *.
  assert (Np : p0 * p0 + p1 * p1 + p2 * p2 = 1). { unfold p0, p1, p2. replace (_ + _ + _) with ((val a0 * val a0 + val a1 * val a1 + val a2 * val a2) / (r * r)) by (field; lra). rewrite <- RR. field. lra. }
  assert (Nz : z0 * z0 + z1 * z1 + z2 * z2 = 1). { unfold z0, z1, z2. replace (_ + _ + _) with ((val b0 * val b0 + val b1 * val b1 + val b2 * val b2) / (q * q)) by (field; lra). rewrite <- QQ. field. lra. }
  set (k := t / sin t). set (v0 := k * (z0 - cos t * p0)). set (v1 := k * (z1 - cos t * p1)). set (v2 := k * (z2 - cos t * p2)).
  assert (EV : rscal k (rsub [z0; z1; z2] [cos t * p0; cos t * p1; cos t * p2]) = [v0; v1; v2]) by reflexivity.
  assert (TV : rnorm [v0; v1; v2] = t).
  { unfold rnorm. replace (rdot [v0; v1; v2] [v0; v1; v2]) with (t * t); [apply sqrt_square; lra|]. cbn [rdot]. unfold v0, v1, v2.
    transitivity (k * k * ((z0 * z0 + z1 * z1 + z2 * z2) - 2 * cos t * (p0 * z0 + p1 * z1 + p2 * z2) + cos t * cos t * (p0 * p0 + p1 * p1 + p2 * p2))); [|ring].
    rewrite Np, Nz. replace (p0 * z0 + p1 * z1 + p2 * z2) with (cos t) by lra. replace (1 - 2 * cos t * cos t + cos t * cos t * 1) with (sin t * sin t) by lra. unfold k. field. lra. }
  assert (LV : length [v0; v1; v2] = tangentDim m) by (unfold m, tangentDim; cbn [hdr_of]; rewrite W2; reflexivity).
  assert (A : forall z bi, z = / q * bi -> Rabs bi <= q -> Rabs (bi - z) <= d).
  { intros z bi -> H. replace (bi - / q * bi) with ((q - 1) * (/ q * bi)) by (field; lra). assert (Rabs (/ q * bi) <= 1). { rewrite Rabs_mult, Rabs_inv, (Rabs_pos_eq q) by lra. apply (Rmult_le_reg_l q); auto. rewrite <- Rmult_assoc, Rinv_r, Rmult_1_l by lra. lra. }
    replace d with (d * 1) by ring. apply abs_prod; auto. }
  destruct (C67_find L m [[a0; a1; a2]] [[v0; v1; v2]] [[b0; b1; b2]] p d d HL Bm Hd ltac:(lra)) as (ws & E & F).
  - apply Forall2_cons; [|apply Forall2_nil]. split; [reflexivity|]. split; [exact Fx|exact Dx].
  - apply Forall4_cons; [|apply Forall4_nil]. split; [exact LV|]. split; [exact Fy|]. split.
    + change (vals [a0; a1; a2]) with [val a0; val a1; val a2]. cbn [rdot].
      assert (Z : forall f, val f = r * (/ r * val f)) by (intros; field; lra). rewrite (Z a0), (Z a1), (Z a2). fold p0 p1 p2. unfold v0, v1, v2.
      transitivity (r * k * ((p0 * z0 + p1 * z1 + p2 * z2) - cos t * (p0 * p0 + p1 * p1 + p2 * p2))); [ring|]. rewrite Np. replace (p0 * z0 + p1 * z1 + p2 * z2) with (cos t) by lra. ring.
    + change (vals [a0; a1; a2]) with [val a0; val a1; val a2]. change (vals [b0; b1; b2]) with [val b0; val b1; val b2]. unfold great_circle. rewrite TV. fold r. cbn [rscal map].
      change (near_v d [val b0; val b1; val b2] [cos t / r * val a0 + sin t / t * v0; cos t / r * val a1 + sin t / t * v1; cos t / r * val a2 + sin t / t * v2]).
      assert (Z : forall f z, cos t / r * f + sin t / t * (k * (z - cos t * (/ r * f))) = z) by (intros; unfold k; field; lra).
      assert (Z0 : cos t / r * val a0 + sin t / t * v0 = z0) by apply Z. assert (Z1 : cos t / r * val a1 + sin t / t * v1 = z1) by apply Z. assert (Z2 : cos t / r * val a2 + sin t / t * v2 = z2) by apply Z. rewrite Z0, Z1, Z2.
      unfold near_v. apply Forall2_cons; [apply A; auto|]. apply Forall2_cons; [apply A; auto|]. apply Forall2_cons; [apply A; auto|]. apply Forall2_nil.
  - apply Forall2_cons; [|apply Forall2_nil]. cbn [findable m]. rewrite TV. split; lra.
  - unfold m, tangentDim. cbn [hdr_of]. rewrite W2. exact Lp.
  - change (leaves m) with [m] in F. rewrite EV. clear - E F TV W2 Ht S0 Hd. clearbody v0 v1 v2. destruct (forall3_one _ _ _ _ F) as (w & -> & F0 & F1). clear F. cbn [concat] in E. rewrite (app_nil_r w) in E. change ([a0; a1; a2] ++ []) with [a0; a1; a2] in E. change ([b0; b1; b2] ++ []) with [b0; b1; b2] in E.
    exists w. split; [exact E|]. split; [exact F0|]. cbn [m] in F1. rewrite TV in F1. 
    assert (K : (540 * / 2 ^ 53 + 78 * d + 37 * d) / sin t = (540 * / 2 ^ 53 + 115 * d) / sin t) by (f_equal; ring). rewrite K in F1. split; [exact F1|].
    pose proof (near_len _ _ _ F1) as Lw. change (length w = 3%nat) in Lw. destruct (vec3 w Lw) as (w0 & w1 & w2 & ->). change (vals [w0; w1; w2]) with [val w0; val w1; val w2] in *.
    apply near_3 in F1. destruct F1 as (D0 & D1 & D2).
    assert (SQ : forall u0 u1 u2 : R, rnorm [u0; u1; u2] * rnorm [u0; u1; u2] = u0 * u0 + u1 * u1 + u2 * u2) by (intros; unfold rnorm; rewrite sqrt_sqrt; cbn [rdot]; nra).
    pose proof (norm3_close v0 v1 v2 (val w0) (val w1) (val w2) t (rnorm [val w0; val w1; val w2]) _ ltac:(lra) (sqrt_pos _) ltac:(rewrite <- TV at 1 2; apply SQ) (SQ _ _ _) D0 D1 D2) as NC.
    eapply Rle_trans; [exact NC|]. apply (Rmult_le_reg_r (sin t)); auto. replace (1733 / 1000 * ((540 * / 2 ^ 53 + 115 * d) / sin t) * sin t) with (1733 / 1000 * (540 * / 2 ^ 53 + 115 * d)) by (field; lra). replace ((936 * / 2 ^ 53 + 200 * d) / sin t * sin t) with (936 * / 2 ^ 53 + 200 * d) by (field; lra).
    assert (0 < / 2 ^ 53) by (apply Rinv_0_lt_compat; apply pow_lt; lra). lra.
Qed.

(** Where the claim stops on the sphere.  Two points a step of 2^-27 (7.5e-9) apart: whatever the library (accurate as
    above; sums from left to right), the scalar product rounds to 1, its acos is 0 and pseudoLog is exactly 0: the step is lost. *)
Lemma tiny_zero (a : f64) : isf a -> Rabs (val a) <= bpow radix2 (-1075) -> exists s, a = B754_zero s.
Proof.
  intros F H. destruct (is_finite_strict a) eqn:S.
  - exfalso. pose proof (abs_B2R_ge_emin 53 1024 a S) as B. change (SpecFloat.emin 53 1024) with (-1074)%Z in B.
    assert (bpow radix2 (-1075) < bpow radix2 (-1074)) by (apply bpow_lt; lia). lra.
  - destruct a as [s|s| |s mm ee]; try discriminate. exists s. reflexivity.
Qed.
Theorem C67_lost_refuted : forall L0, accurate_log L0 -> let L := in_order L0 in exists (m : mfd f64) x v y w, built m /\ defect64M 0 m x /\ Forall isf v /\ vals v = [0; / 2 ^ 27; 0] /\
  retractation (SK:=F64 L) m x x v = Ok y /\ isInM (SK:=F64 L) m y (default_prec (SK:=F64 L)) = Ok true /\ vals y = [1; / 2 ^ 27; 0] /\
  pseudoLog (SK:=F64 L) m v x y = Ok w /\ vals w = [0; 0; 0].
Proof.
  intros L0 HL0 L. assert (HL : accurate_log L) by exact HL0. destruct (p2_ok (-27) ltac:(lia)) as [F7 V7]. destruct (of_Z_ok 0 eq_refl) as [F0 V0]. destruct (of_Z_ok 1 eq_refl) as [F1 V1]. set (x := fi [1; 0; 0]%Z). set (v := [of_Z 0; p2 (-27); of_Z 0]).
  assert (E7 : bpow radix2 (-27) = / 2 ^ 27) by (cbn; lra).
  assert (E : exists h a b, fS2 L = Leaf h LS2 a b) by (eexists _, _, _; reflexivity). destruct E as (h & a & b & E). pose proof (fS2_built L) as Bm. rewrite E in Bm.
  pose proof (built_wf _ Bm) as W. inversion W as [? ? ? ? W'|]; subst. destruct W' as (_ & W2 & W3 & _). set (m := Leaf h LS2 a b) in *.
  set (y := [of_Z 1; p2 (-27); of_Z 0]).
  assert (RE : s2_retractation (SK:=F64 L) x x v = Ok y) by (apply same_floats; [vm_compute; reflexivity|vm_compute; reflexivity]).
  assert (TE : s2_isInTxM (SK:=F64 L) x v (default_prec (SK:=F64 L)) = true) by (vm_compute; reflexivity).
  destruct (accurate_log_split L HL) as (_ & A2 & _). destruct (A2 (of_Z 1) F1 ltac:(rewrite V1, Rabs_R1; lra)) as [Fa Ea]. rewrite V1, acos_1 in Ea.
  destruct (tiny_zero (f_acos L (of_Z 1)) Fa) as [sg ZA]. { unfold eta in Ea. replace (val (f_acos L (of_Z 1))) with (val (f_acos L (of_Z 1)) - 0) by ring. lra. }
  assert (DA : dot (SK:=F64 L) x y = of_Z 1) by (apply B2SF_inj; vm_compute; reflexivity).
  assert (PL : exists w, s2_pseudoLog (SK:=F64 L) v x y = Ok w /\ vals w = [0; 0; 0]).
  { unfold s2_pseudoLog, s2_logarithm, s2_distance. rewrite DA. change (kacos (Scalar:=F64 L) (of_Z 1)) with (f_acos L (of_Z 1)). rewrite ZA.
    exists [B754_zero sg; B754_zero sg; B754_zero sg]. split; [|reflexivity]. destruct sg; (apply same_floats; [vm_compute; reflexivity|vm_compute; reflexivity]). }
  destruct PL as (w & PL & Zw). exists m, x, v, y, w. split; [exact Bm|]. split.
  { exists [x]. split; [reflexivity|]. apply Forall2_cons; [|apply Forall2_nil]. destruct (vals_fi [1; 0; 0]%Z) as [F V]; [repeat constructor; lia|]. split; [reflexivity|]. split; [exact F|]. change (vals x) with (vals (fi [1; 0; 0]%Z)). rewrite V. cbn [map rdot]. apply Rabs_le. lra. }
  split; [unfold v; auto|]. split; [change (vals v) with [val (of_Z 0); val (p2 (-27)); val (of_Z 0)]; rewrite V7, V0, E7; reflexivity|]. split.
  { unfold m. cbn [retractation isInTxM]. unfold representationDim, tangentDim. cbn [hdr_of]. rewrite !check_eq by (rewrite ?W2, ?W3; reflexivity). cbn [bind]. rewrite TE. cbn [mnf_assert bind]. exact RE. }
  split. { unfold m. cbn [isInM]. unfold representationDim. cbn [hdr_of]. rewrite !check_eq by (rewrite ?W3; reflexivity). cbn [bind]. vm_compute. reflexivity. }
  split; [change (vals y) with [val (of_Z 1); val (p2 (-27)); val (of_Z 0)]; rewrite V7, V0, V1, E7; reflexivity|]. split; [|exact Zw].
  unfold m. cbn [pseudoLog]. unfold representationDim, tangentDim. cbn [hdr_of]. rewrite !check_eq by (rewrite ?W2, ?W3; reflexivity). cbn [bind]. exact PL.
Qed.

(** Worse: x is what forceOnM makes of (1, 0, 5), and the step (0, 2^-27, 0) from it is exactly tangent.  Both points
    are accepted by isInM, but their scalar product rounds to a number above 1; with a library whose acos is NaN
    there (C11, F.10.1.1) all of pseudoLog is NaN. *)
Theorem C67_nan_refuted : forall L0, (forall a, isf a -> 1 < val a -> f_acos L0 a = B754_nan) -> let L := in_order L0 in exists (m : mfd f64) x v y w, built m /\
  forceOnM (SK:=F64 L) m x (fi [1; 0; 5]%Z) = Ok x /\ isInM (SK:=F64 L) m x (default_prec (SK:=F64 L)) = Ok true /\
  Forall isf v /\ vals v = [0; / 2 ^ 27; 0] /\ rdot (vals x) (vals v) = 0 /\
  retractation (SK:=F64 L) m x x v = Ok y /\ Forall isf y /\ isInM (SK:=F64 L) m y (default_prec (SK:=F64 L)) = Ok true /\
  pseudoLog (SK:=F64 L) m v x y = Ok w /\ w = [B754_nan; B754_nan; B754_nan].
Proof.
  intros L0 HA L. destruct (p2_ok (-27) ltac:(lia)) as [F7 V7]. destruct (of_Z_ok 0 eq_refl) as [F0 V0].
  assert (E7 : bpow radix2 (-27) = / 2 ^ 27) by (cbn; lra).
  assert (E : exists h a b, fS2 L = Leaf h LS2 a b) by (eexists _, _, _; reflexivity). destruct E as (h & a & b & E). pose proof (fS2_built L) as Bm. rewrite E in Bm.
  pose proof (built_wf _ Bm) as W. inversion W as [? ? ? ? W'|]; subst. destruct W' as (_ & W2 & W3 & _). set (m := Leaf h LS2 a b) in *.
  pose (r := of_Z 26). pose (x := [of_Z 1 /! Bsqrt mode_NE r; of_Z 0; of_Z 5 /! Bsqrt mode_NE r]). pose (v := [of_Z 0; p2 (-27); of_Z 0]).
  pose (y := [of_Z 1 /! Bsqrt mode_NE r; p2 (-27); of_Z 5 /! Bsqrt mode_NE r]).
  assert (FE : s2_forceOnM (SK:=F64 L) x (fi [1; 0; 5]%Z) = Ok x) by (apply same_floats; [vm_compute; reflexivity|vm_compute; reflexivity]).
  assert (RE : s2_retractation (SK:=F64 L) x x v = Ok y) by (apply same_floats; [vm_compute; reflexivity|vm_compute; reflexivity]).
  assert (TE : s2_isInTxM (SK:=F64 L) x v (default_prec (SK:=F64 L)) = true) by (vm_compute; reflexivity).
  assert (DA : kacos (Scalar:=F64 L) (dot (SK:=F64 L) x y) = B754_nan).
  { apply HA; [vm_compute; reflexivity|].
    assert (B : Bltb (of_Z 1) (dot (SK:=F64 L) x y) = true) by (vm_compute; reflexivity). rewrite f_ltb in B by (vm_compute; reflexivity). apply Rlt_bool_lt' in B. destruct (of_Z_ok 1 eq_refl) as [_ V1]. rewrite V1 in B. exact B. }
  assert (PL : s2_pseudoLog (SK:=F64 L) v x y = Ok [B754_nan; B754_nan; B754_nan]).
  { unfold s2_pseudoLog, s2_logarithm, s2_distance. rewrite DA. apply same_floats; [vm_compute; reflexivity|vm_compute; reflexivity]. }
  exists m, x, v, y, [B754_nan; B754_nan; B754_nan]. split; [exact Bm|].
  split. { unfold m. cbn [forceOnM]. unfold representationDim. cbn [hdr_of]. rewrite !check_eq by (rewrite ?W3; reflexivity). cbn [bind]. exact FE. }
  assert (IM : forall z, length z = 3%nat -> s2_isInM (SK:=F64 L) z (default_prec (SK:=F64 L)) = true -> isInM (SK:=F64 L) m z (default_prec (SK:=F64 L)) = Ok true).
  { intros z Lz H. unfold m. cbn [isInM]. unfold representationDim. cbn [hdr_of]. rewrite !check_eq by (rewrite ?W3; exact Lz). cbn [bind]. f_equal. exact H. }
  split; [apply IM; [reflexivity|vm_compute; reflexivity]|]. split; [unfold v; auto|].
  assert (VV : vals v = [0; / 2 ^ 27; 0]) by (change (vals v) with [val (of_Z 0); val (p2 (-27)); val (of_Z 0)]; rewrite V7, V0, E7; reflexivity).
  split; [exact VV|]. split. { rewrite VV. change (vals x) with [val (of_Z 1 /! Bsqrt mode_NE r); val (of_Z 0); val (of_Z 5 /! Bsqrt mode_NE r)]. rewrite V0. cbn [rdot]. ring. }
  split. { unfold m. cbn [retractation isInTxM]. unfold representationDim, tangentDim. cbn [hdr_of]. rewrite !check_eq by (rewrite ?W2, ?W3; reflexivity). cbn [bind]. rewrite TE. cbn [mnf_assert bind]. exact RE. }
  split. { unfold y. apply Forall_cons; [vm_compute; reflexivity|]. apply Forall_cons; [exact F7|]. apply Forall_cons; [vm_compute; reflexivity|]. apply Forall_nil. }
  split; [apply IM; [reflexivity|vm_compute; reflexivity]|]. split; [|reflexivity].
  unfold m. cbn [pseudoLog]. unfold representationDim, tangentDim. cbn [hdr_of]. rewrite !check_eq by (rewrite ?W2, ?W3; reflexivity). cbn [bind]. exact PL.
Qed.

(** ** Examples *)
(** R^2 x S2 x SO3 (quaternions): from (3, 4), a pole and the identity to (4, 3), a point a quarter of a great circle
    away and a third of a turn around (1, 1, 1). *)
Example C67_example : exists ws, pseudoLog (SK:=F64 libm_exact) (fU libm_exact) (fi [0; 0; 0; 0; 0; 0; 0; 0]%Z) (fi [3; 4; 1; 0; 0; 1; 0; 0; 0]%Z) (fi [4; 3; 0; 1; 0]%Z ++ repeat (p2 (-1)) 4) = Ok ws /\
  let k := 2 * PI / 3 / sqrt 3 in near_v (1 / 10 ^ 12) (vals ws) [1; -1; 0; PI / 2; 0; k; k; k].
Proof.
  pose proof (fU_built libm_exact) as B. pose proof PI_RGT_0 as PP. pose proof PI_le as PL. set (k := 2 * PI / 3 / sqrt 3). cbv zeta. assert (S3 : 0 < sqrt 3) by (apply sqrt_lt_R0; lra). assert (SS : sqrt 3 * sqrt 3 = 3) by (apply sqrt_sqrt; lra).
  set (xs := [fi [3; 4]%Z; fi [1; 0; 0]%Z; fi [1; 0; 0; 0]%Z]). set (ys := [fi [4; 3]%Z; fi [0; 1; 0]%Z; repeat (p2 (-1)) 4]). set (vs := [[1; -1]; [0; PI / 2; 0]; [k; k; k]]).
  assert (EX : fi [3; 4; 1; 0; 0; 1; 0; 0; 0]%Z = concat xs) by reflexivity. assert (EY : fi [4; 3; 0; 1; 0]%Z ++ repeat (p2 (-1)) 4 = concat ys) by reflexivity.
  destruct (vals_fi [3; 4]%Z) as [F34 V34]; [repeat constructor; lia|]. destruct (vals_fi [4; 3]%Z) as [F43 V43]; [repeat constructor; lia|].
  destruct (vals_fi [1; 0; 0]%Z) as [Fx Vx]; [repeat constructor; lia|]. destruct (vals_fi [0; 1; 0]%Z) as [Fy Vy]; [repeat constructor; lia|]. destruct (vals_fi [1; 0; 0; 0]%Z) as [Fq Vq]; [repeat constructor; lia|]. cbn [map] in V34, V43, Vx, Vy, Vq.
  destruct (p2_ok (-1) ltac:(lia)) as [Fh Vh]. assert (Eh : bpow radix2 (-1) = 1 / 2) by (cbn; lra). rewrite Eh in Vh.
  assert (TK : rnorm [k; k; k] = 2 * PI / 3). { unfold rnorm. replace (rdot [k; k; k] [k; k; k]) with (2 * PI / 3 * (2 * PI / 3)); [apply sqrt_square; lra|]. cbn [rdot]. unfold k. transitivity (3 * (2 * PI / 3 * (2 * PI / 3)) / (sqrt 3 * sqrt 3)); [rewrite SS; field|field; lra]. }
  assert (TS : rnorm [0; PI / 2; 0] = PI / 2). { unfold rnorm. replace (rdot _ _) with (PI / 2 * (PI / 2)) by (cbn [rdot]; ring). apply sqrt_square. lra. }
  assert (TX : rnorm [1; 0; 0] = 1). { unfold rnorm. replace (rdot _ _) with 1 by (cbn [rdot]; ring). apply sqrt_1. }
  assert (QK : expQ [k; k; k] = Q4 (1 / 2) (1 / 2) (1 / 2) (1 / 2)).
  { unfold expQ. rewrite TK. destruct (Req_EM_T (2 * PI / 3) 0) as [Z|_]; [lra|]. replace (2 * PI / 3 / 2) with (PI / 3) by field. rewrite cos_PI3, sin_PI3.
    replace (sqrt 3 / 2 / (2 * PI / 3) * k) with (1 / 2) by (unfold k; field; lra). reflexivity. }
  assert (L0 : Forall2 (defect64 0) (leaves (fU libm_exact)) xs).
  { apply Forall2_cons; [reflexivity|]. apply Forall2_cons; [|apply Forall2_cons; [|apply Forall2_nil]].
    - split; [reflexivity|split; [exact Fx|]]. rewrite Vx. cbn [rdot]. apply Rabs_le. lra.
    - split; [exact Fq|]. exists (Q4 1 0 0 0). split; [exact Vq|]. unfold qn2. cbn [qw qx qy qz]. apply Rabs_le. lra. }
  assert (Bg : 4 <= bpow radix2 990) by (change 4 with (bpow radix2 2); apply bpow_le; lia).
  assert (Z0 : forall a b : R, a = b -> Rabs (a - b) <= 0) by (intros a b ->; rewrite Rminus_diag_eq, Rabs_R0; [lra|reflexivity]).
  assert (R0 : Forall4 (reached 0) (leaves (fU libm_exact)) xs vs ys).
  { apply Forall4_cons; [|apply Forall4_cons; [|apply Forall4_cons; [|apply Forall4_nil]]]; (split; [reflexivity|]).
    - split; [exact F43|]. split; [exact F34|]. split.
      + apply Forall_app. split.
        * assert (Q : Forall (fun r => Rabs r <= bpow radix2 990) (vals (fi [3; 4]%Z))) by (rewrite V34; repeat (apply Forall_cons; [apply Rabs_le; lra|]); apply Forall_nil). rewrite Forall_map in Q. exact Q.
        * assert (Q : Forall (fun r => Rabs r <= bpow radix2 990) (vals (fi [4; 3]%Z))) by (rewrite V43; repeat (apply Forall_cons; [apply Rabs_le; lra|]); apply Forall_nil). rewrite Forall_map in Q. exact Q.
      + rewrite V34, V43. apply Forall2_cons; [apply Z0; cbn; ring|]. apply Forall2_cons; [apply Z0; cbn; ring|apply Forall2_nil].
    - split; [exact Fy|]. rewrite Vx, Vy. split; [cbn [rdot]; ring|]. unfold great_circle. rewrite TS, TX, cos_PI2, sin_PI2. apply Forall2_cons; [apply Z0; cbn; field; lra|]. apply Forall2_cons; [apply Z0; cbn; field; lra|]. apply Forall2_cons; [apply Z0; cbn; field; lra|apply Forall2_nil].
    - split; [repeat (apply Forall_cons; [exact Fh|]); apply Forall_nil|]. exists (Q4 1 0 0 0). split; [exact Vq|]. rewrite QK. change (vals (repeat (p2 (-1)) 4)) with [val (p2 (-1)); val (p2 (-1)); val (p2 (-1)); val (p2 (-1))]. rewrite Vh. unfold qprod, qflat. cbn [qw qx qy qz].
      repeat (apply Forall2_cons; [apply Z0; ring|]). apply Forall2_nil. }
  assert (U : 0 < / 2 ^ 53 <= 112 / 10 ^ 18) by (split; [apply Rinv_0_lt_compat; cbn [pow]; lra|cbn [pow]; lra]).
  assert (G0 : Forall2 (findable 0 0) (leaves (fU libm_exact)) vs).
  { apply Forall2_cons; [exact I|]. apply Forall2_cons; [|apply Forall2_cons; [|apply Forall2_nil]].
    - change (rnorm [0; PI / 2; 0] < PI /\ 1000 * / 2 ^ 53 + 3000 * 0 + 1000 * 0 <= (sin (rnorm [0; PI / 2; 0])) ^ 2). rewrite TS, sin_PI2. lra.
    - change (rnorm [k; k; k] <= 314 / 100 /\ 0 <= 1 / 10 ^ 11). rewrite TK. lra. }
  destruct (C67_find libm_exact (fU libm_exact) xs vs ys (fi [0; 0; 0; 0; 0; 0; 0; 0]%Z) 0 0 libm_exact_log B ltac:(lra) ltac:(lra) L0 R0 G0 eq_refl) as (ws & E & F).
  exists (concat ws). rewrite EX, EY. split; [exact E|].
  change (leaves (fU libm_exact)) with [fR2 libm_exact; fS2 libm_exact; fQ libm_exact] in F. unfold vs in F. clear E R0 G0 L0 EX EY.
  inversion F as [|? ? w0 ? ? ? H0 F0]; subst. inversion F0 as [|? ? w1 ? ? ? H1 F1]; subst. inversion F1 as [|? ? w2 ? ? ? H2 F2]; subst. inversion F2; subst. clear F F0 F1 F2.
  assert (T : bpow radix2 (-1075) <= / 2 ^ 53) by (change (bpow radix2 (-1075)) with eta; pose proof eta_u50; assert (/ 2 ^ 53 = u) by (rewrite u_val; cbn [pow]; lra); pose proof u_pos; lra).
  cbn [concat]. rewrite app_nil_r, !map_app. change [1; -1; 0; PI / 2; 0; k; k; k] with ([1; -1] ++ [0; PI / 2; 0] ++ [k; k; k]). apply Close.near_v_app; [|apply Close.near_v_app].
  - assert (H : Forall2 (fun a b => Rabs (val b - a) <= 0 + / 2 ^ 53 * (Rabs a + 0) + bpow radix2 (-1075)) [1; -1] w0) by exact (proj2 H0). clear - H U T.
    inversion H as [|? c0 ? ? D0 H']; subst. inversion H' as [|? c1 ? ? D1 H'']; subst. inversion H''; subst. rewrite Rabs_R1 in D0. rewrite (Rabs_left (-1)) in D1 by lra. cbn [map]. apply Forall2_cons; [eapply Rle_trans; [exact D0|lra]|]. apply Forall2_cons; [eapply Rle_trans; [exact D1|lra]|apply Forall2_nil].
  - assert (H : near_v ((540 * / 2 ^ 53 + 78 * 0 + 37 * 0) / sin (rnorm [0; PI / 2; 0])) (vals w1) [0; PI / 2; 0]) by exact (proj2 H1). rewrite TS, sin_PI2 in H. eapply NumExp.near_v_mono; [|exact H]. lra.
  - assert (H : near_v (6800 * / 2 ^ 53 + 745 * 0) (vals w2) [k; k; k]) by exact (proj2 H2). eapply NumExp.near_v_mono; [|exact H]. lra.
Qed.

(** A library that meets both demands: the exact values rounded, NaN for acos above 1. *)
Definition libm_c : libm := Libm (f_cos libm_exact) (f_sin libm_exact) (fun a => if Bltb (of_Z 1) a then B754_nan else f_acos libm_exact a) (f_atan2 libm_exact) (f_sum libm_exact) (f_sum_ok libm_exact).
Example C67_libm : accurate_log libm_c /\ (forall a, isf a -> 1 < val a -> f_acos libm_c a = B754_nan).
Proof.
  destruct (of_Z_ok 1 eq_refl) as [F1 V1]. destruct libm_exact_log as (A & B & C). split.
  - split; [exact A|]. split; [|exact C]. intros a Fa Ha. cbn [f_acos libm_c]. rewrite f_ltb by auto. rewrite Rlt_bool_false; [apply B; auto|]. rewrite V1. apply Rabs_ends in Ha. lra.
  - intros a Fa Ha. cbn [f_acos libm_c]. rewrite f_ltb by auto. rewrite Rlt_bool_true; [reflexivity|]. rewrite V1. exact Ha.
Qed.
Print Assumptions C67_find.
Print Assumptions C67_sphere.
Print Assumptions C67_lost_refuted.
Print Assumptions C67_nan_refuted.
