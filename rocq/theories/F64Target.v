(** retractation by the computed pseudoLog, in doubles: from x one comes back to y. *)
From Coq Require Import Reals List Lra Lia ZArith Bool Arith Psatz.
From Flocq Require Import Core BinarySingleNaN.
From Verif Require Import Base Scalar Vec Model_Real Model_S2 Model_SO3 Model_Manifold Spec Layout Comp Indep Flat XR SpecR RotR NumVec NumMat Angle NumQuat NumTree NumLeaf RotLog RoundTrip NumS2 NumExp NumLog Drift Path Lip F64 F64Err F64Norm F64S2 F64Exp F64Quat F64Mat F64Mat2 F64Tree F64Go F64Log F64LogQ F64Back F64Find F64Trans F64Proj.
From Verif Require Relog.
Import ListNotations.
Local Open Scope R_scope.

(** ** Over the reals *)
Lemma near3_norm f w v : length v = 3%nat -> 0 <= f -> near_v f w v -> rnorm (rsub w v) <= 1733 / 1000 * f.
Proof.
  intros Lv F N. destruct v as [|v0 [|v1 [|v2 [|]]]]; try discriminate. inversion N as [|w0 ? w' ? H0 N0]; subst. inversion N0 as [|w1 ? w'' ? H1 N1]; subst. inversion N1 as [|w2 ? w3 ? H2 N2]; subst. inversion N2; subst.
  apply sq_le_norm; [lra|]. change (rsub [w0; w1; w2] [v0; v1; v2]) with [w0 - v0; w1 - v1; w2 - v2]. cbn [rdot].
  assert (S : forall a, Rabs a <= f -> a * a <= f * f) by (intros a A; rewrite <- (Rabs_pos_eq (a * a)), Rabs_mult by nra; apply Rmult_le_compat; auto using Rabs_pos).
  pose proof (S _ H0). pose proof (S _ H1). pose proof (S _ H2). assert (0 <= f * f) by nra. lra.
Qed.
Lemma entry_sq a S k : a * a <= S -> S <= k * k -> 0 <= k -> Rabs a <= k.
Proof. intros A B K. apply Rsqr_incr_0_var; auto. rewrite <- Rsqr_abs. unfold Rsqr. lra. Qed.
(** The exact end points of two steps from one matrix. *)
Lemma mat_moves A v w k : stretch (1 / 1000) A -> length v = 3%nat -> length w = 3%nat -> rnorm (rsub w v) <= k -> near_v (1416 / 1000 * k) (flat9 (rmul A (expSO3 w))) (flat9 (rmul A (expSO3 v))).
Proof.
  intros [S _] Lv Lw K. pose proof (expSO3_lip w v Lw Lv) as LP. set (E := expSO3 w) in *. set (F := expSO3 v) in *. assert (K0 : 0 <= k) by (pose proof (rnorm_nonneg (rsub w v)); lra).
  assert (SQ : sqrt 2 <= 14143 / 10000) by (rewrite <- (sqrt_square (14143 / 10000)) by lra; apply sqrt_le_1_alt; lra).
  assert (NF : rnorm (rsub (flat9 E) (flat9 F)) <= 14143 / 10000 * k). { eapply Rle_trans; [exact LP|]. apply Rmult_le_compat; auto using sqrt_pos, rnorm_nonneg. }
  set (n := rnorm _) in NF. assert (N0 : 0 <= n) by apply rnorm_nonneg. assert (NN : n * n = rdot (rsub (flat9 E) (flat9 F)) (rsub (flat9 E) (flat9 F))) by (unfold n; apply rnorm_sq).
  rewrite flat9_sub in NN. destruct E as [e0 e1 e2 e3 e4 e5 e6 e7 e8], F as [f0 f1 f2 f3 f4 f5 f6 f7 f8]. unfold rmsub, flat9 in NN. cbn [rdot a00 a01 a02 a10 a11 a12 a20 a21 a22] in NN.
  assert (NK : 1001 / 1000 * (n * n) <= (1416 / 1000 * k) * (1416 / 1000 * k)) by (assert (n * n <= (14143 / 10000 * k) * (14143 / 10000 * k)) by (apply Rmult_le_compat; auto); nra).
  set (g0 := e0 - f0) in *. set (g1 := e1 - f1) in *. set (g2 := e2 - f2) in *. set (g3 := e3 - f3) in *. set (g4 := e4 - f4) in *. set (g5 := e5 - f5) in *. set (g6 := e6 - f6) in *. set (g7 := e7 - f7) in *. set (g8 := e8 - f8) in *.
  assert (C : forall x y z, x * x + y * y + z * z <= n * n -> let r := rmulv A [x; y; z] in Forall (fun a => Rabs a <= 1416 / 1000 * k) r).
  { intros x y z H r. specialize (S x y z). cbv zeta in S. fold r in S. apply Rabs_ends in S. unfold r, rmulv in *. set (p := rdot [a00 A; _; _] _) in *. set (q := rdot [a10 A; _; _] _) in *. set (t := rdot [a20 A; _; _] _) in *. cbn [rdot] in S.
    assert (B : p * p + q * q + t * t <= 1001 / 1000 * (n * n)) by lra. clearbody p q t. assert (KK : 0 <= 1416 / 1000 * k) by lra.
    assert (G : forall s, s * s <= p * p + q * q + t * t -> Rabs s <= 1416 / 1000 * k) by (intros s0 G0; eapply entry_sq; [eapply Rle_trans; [exact G0|exact B]|exact NK|exact KK]).
    constructor; [apply G; nra|]. constructor; [apply G; nra|]. constructor; [apply G; nra|]. constructor. }
  assert (Q : forall a, 0 <= a * a) by (intros; nra). pose proof (Q g0). pose proof (Q g1). pose proof (Q g2). pose proof (Q g3). pose proof (Q g4). pose proof (Q g5). pose proof (Q g6). pose proof (Q g7). pose proof (Q g8).
  pose proof (C g0 g3 g6 ltac:(lra)) as C0. pose proof (C g1 g4 g7 ltac:(lra)) as C1. pose proof (C g2 g5 g8 ltac:(lra)) as C2. clear C Q.
  unfold rmulv in C0, C1, C2. cbn [rdot] in C0, C1, C2. unfold rmul, flat9. cbn [a00 a01 a02 a10 a11 a12 a20 a21 a22].
  repeat match goal with H : Forall _ (_ :: _) |- _ => let G := fresh "G" in let T := fresh "T" in inversion H as [|? ? G T]; subst; clear H end.
  unfold near_v. repeat (apply Forall2_cons; [|try apply Forall2_nil]); match goal with |- Rabs ?t <= _ => match goal with G : Rabs ?s <= _ |- _ => replace t with s; [exact G|unfold g0, g1, g2, g3, g4, g5, g6, g7, g8; ring] end end.
Qed.
Lemma quat_moves q v w k : Rabs (qn2 q - 1) <= 1 / 1000 -> length v = 3%nat -> length w = 3%nat -> rnorm (rsub w v) <= k -> near_v (501 / 1000 * k) (qflat (qprod q (expQ w))) (qflat (qprod q (expQ v))).
Proof.
  intros HQ Lv Lw K. pose proof (expQ_lip w v Lw Lv) as LP. set (E := expQ w) in *. set (F := expQ v) in *. assert (K0 : 0 <= k) by (pose proof (rnorm_nonneg (rsub w v)); lra).
  set (n := rnorm (rsub (qflat E) (qflat F))) in *. assert (N0 : 0 <= n) by apply rnorm_nonneg. assert (NN : n * n = rdot (rsub (qflat E) (qflat F)) (rsub (qflat E) (qflat F))) by (unfold n; apply rnorm_sq).
  destruct q as [a b c d], E as [e0 e1 e2 e3], F as [f0 f1 f2 f3]. unfold qflat, qprod, qn2 in *. cbn [qw qx qy qz] in *.
  change (rsub [e0; e1; e2; e3] [f0; f1; f2; f3]) with [e0 - f0; e1 - f1; e2 - f2; e3 - f3] in NN. cbn [rdot] in NN.
  set (g0 := e0 - f0) in *. set (g1 := e1 - f1) in *. set (g2 := e2 - f2) in *. set (g3 := e3 - f3) in *.
  assert (P : (a * g0 - b * g1 - c * g2 - d * g3) * (a * g0 - b * g1 - c * g2 - d * g3) + (a * g1 + b * g0 + c * g3 - d * g2) * (a * g1 + b * g0 + c * g3 - d * g2)
    + (a * g2 - b * g3 + c * g0 + d * g1) * (a * g2 - b * g3 + c * g0 + d * g1) + (a * g3 + b * g2 - c * g1 + d * g0) * (a * g3 + b * g2 - c * g1 + d * g0) = (a * a + b * b + c * c + d * d) * (n * n)) by (rewrite NN; ring).
  assert (NK : (a * a + b * b + c * c + d * d) * (n * n) <= (501 / 1000 * k) * (501 / 1000 * k)).
  { apply Rabs_ends in HQ. assert (n * n <= (k / 2) * (k / 2)) by (apply Rmult_le_compat; lra). assert (0 <= n * n) by nra.
    apply Rle_trans with (1001 / 1000 * (n * n)); [apply Rmult_le_compat_r; lra|nra]. }
  assert (KK : 0 <= 501 / 1000 * k) by lra.
  set (p0 := a * g0 - _ - _ - _) in P. set (p1 := a * g1 + _ + _ - _) in P. set (p2 := a * g2 - _ + _ + _) in P. set (p3 := a * g3 + _ - _ + _) in P.
  assert (B : forall x, x * x <= p0 * p0 + p1 * p1 + p2 * p2 + p3 * p3 -> Rabs x <= 501 / 1000 * k) by (intros x X; eapply entry_sq; [exact X|rewrite P; exact NK|exact KK]).
  assert (Q : forall x, 0 <= x * x) by (intros; nra). pose proof (Q p0). pose proof (Q p1). pose proof (Q p2). pose proof (Q p3).
  pose proof (B p0 ltac:(lra)) as B0. pose proof (B p1 ltac:(lra)) as B1. pose proof (B p2 ltac:(lra)) as B2. pose proof (B p3 ltac:(lra)) as B3.
  unfold near_v. repeat (apply Forall2_cons; [|try apply Forall2_nil]); match goal with |- Rabs ?t <= _ => match goal with G : Rabs ?s <= 501 / 1000 * k |- _ => replace t with s; [exact G|unfold p0, p1, p2, p3, g0, g1, g2, g3; ring] end end.
Qed.
Lemma norm_entries k a b : length a = length b -> rnorm (rsub a b) <= k -> near_v k a b.
Proof.
  revert b k. induction a as [|x a IH]; intros [|y b] k Ln H; try discriminate; [constructor|].
  change (rsub (x :: a) (y :: b)) with (x - y :: rsub a b) in H. pose proof (rnorm_nonneg (x - y :: rsub a b)) as N. pose proof (rnorm_sq (x - y :: rsub a b)) as Q. cbn [rdot] in Q. pose proof (rnorm_sq (rsub a b)) as D. assert (D0 : 0 <= rdot (rsub a b) (rsub a b)) by (rewrite <- D; pose proof (Rle_0_sqr (rnorm (rsub a b))) as Z; exact Z).
  set (n := rnorm (x - y :: rsub a b)) in *. assert (NK : n * n <= k * k) by (apply Rmult_le_compat; auto). constructor.
  - eapply entry_sq; [|exact NK|lra]. nra.
  - apply IH; [auto|]. apply sq_le_norm; [lra|]. pose proof (Rle_0_sqr (x - y)) as Z. unfold Rsqr in Z. lra.
Qed.
(** Directions of x + v and x + w. *)
Lemma s2_moves x v w k : length x = 3%nat -> length v = 3%nat -> length w = 3%nat -> 1 / 4 <= rdot (radd x v) (radd x v) -> 1 / 4 <= rdot (radd x w) (radd x w) -> rnorm (rsub w v) <= k ->
  near_v (2 * k) (rscal (/ rnorm (radd x w)) (radd x w)) (rscal (/ rnorm (radd x v)) (radd x v)).
Proof.
  intros Lx Lv Lw A B K. set (a := radd x w) in *. set (b := radd x v) in *. assert (LA : length a = 3%nat) by (unfold a; rewrite radd_length; lia). assert (LB : length b = 3%nat) by (unfold b; rewrite radd_length; lia).
  assert (N2 : forall z, rnorm (rscal 2 z) = 2 * rnorm z) by (intros; rewrite rnorm_scal, Rabs_pos_eq; lra).
  pose proof (normal_lip (rscal 2 a) (rscal 2 b)) as H. rewrite !rdot_rscal_l, !rdot_rscal_r, !rscal_length in H. specialize (H ltac:(lia) ltac:(lra) ltac:(lra)).
  assert (E : forall z, rdot z z >= 1 / 4 -> rscal (/ rnorm (rscal 2 z)) (rscal 2 z) = rscal (/ rnorm z) z).
  { intros z Z. assert (0 < rnorm z) by (unfold rnorm; apply sqrt_lt_R0; lra). rewrite N2. unfold rscal. rewrite map_map. apply map_ext. intros t. field. lra. }
  rewrite !E in H by lra. apply norm_entries; [rewrite !rscal_length; lia|]. eapply Rle_trans; [exact H|].
  assert (EQ : rsub (rscal 2 a) (rscal 2 b) = rscal 2 (rsub w v)).
  { unfold a, b. destruct x as [|x0 [|x1 [|x2 [|]]]]; try discriminate. destruct v as [|v0 [|v1 [|v2 [|]]]]; try discriminate. destruct w as [|w0 [|w1 [|w2 [|]]]]; try discriminate.
    change ([2 * (x0 + w0) - 2 * (x0 + v0); 2 * (x1 + w1) - 2 * (x1 + v1); 2 * (x2 + w2) - 2 * (x2 + v2)] = [2 * (w0 - v0); 2 * (w1 - v1); 2 * (w2 - v2)]). repeat (apply f_equal2; [ring|]); reflexivity. }
  rewrite EQ, N2. lra.
Qed.

(** ** Leaves *)
(** Where the target is reached: [range], and the computed step passes the assertions of retractation. *)
Definition can (d e : R) (s : mfd f64) (v : list R) : Prop :=
  let t := rnorm v in
  match s with
  | Leaf _ LReal _ _ => True
  | Leaf _ LS2 _ _ => t < PI /\ 1000 * (u + d + e) <= sin t * sin t /\ 540 * u + 26 * d + 37 * e <= 4 / 10 ^ 9 * sin t
  | Leaf _ (LSO3 MapMatrix) _ _ => t <= 1 / 10 ^ 9 /\ d + e <= 1 / 10 ^ 10 \/ t <= 313 / 100 /\ 10 ^ 6 * (u + d + e) <= sin t * sin t
  | Leaf _ (LSO3 MapQuat) _ _ => t <= 313 / 100 /\ e <= 1 / 10 ^ 11
  | Prod _ _ _ _ => False
  end.
Definition back (d e : R) (s : mfd f64) (x : list f64) (v : list R) (y z : list f64) : Prop :=
  let t := rnorm v in Forall isf z /\
  match s with
  | Leaf _ LReal _ _ => Forall3 (fun a b c => Rabs (val c - val b) <= u * (2 * Rabs (val a) + 3 * Rabs (val b)) + 3 * eta) x y z
  | Leaf _ LS2 _ _ => let w := radd (vals x) v in near_v ((1900 * u + 92 * d + 131 * e) / sin t) (vals z) (rscal (/ rnorm w) w)
  | Leaf _ (LSO3 MapMatrix) _ _ =>
      (t <= 1 / 10 ^ 9 -> near_v (149 * u + 5 * d + 11 * e) (vals z) (vals y)) /\
      (1 / 10 ^ 9 < t <= PI / 2 -> near_v (3700 * u + 430 * d + 740 * e) (vals z) (vals y)) /\
      (PI / 2 < t -> near_v ((2230 * u + 236 * d + 410 * e) / (sin t * sin t)) (vals z) (vals y))
  | Leaf _ (LSO3 MapQuat) _ _ => near_v (6000 * u + 650 * e) (vals z) (vals y)
  | Prod _ _ _ _ => False
  end.
Lemma can_range d e h l a b v : 0 <= d -> 0 <= e -> can d e (Leaf h l a b) v -> range d e (Leaf h l a b) v.
Proof.
  intros D0 E0 H. pose proof u_pos as U. pose proof PI_ge as PG. destruct l as [| |[|]]; cbn [can range] in *; auto; [tauto| |].
  - destruct H as [H|[H1 H2]]; [left; auto|right]. split; [lra|]. cbn [pow] in H2. lra.
  - split; [lra|tauto].
Qed.

Section Target.
Context (L : libm) (HL : accurate L) (HA : accurate_acos L) (HT : accurate_atan2 L).
Local Notation SK := (F64 L).
#[local] Instance SKt : Scalar f64 := SK.

Lemma real_there x y : Forall2 (fun a b => isf a /\ isf b /\ Rabs (val a) <= bpow radix2 990 /\ Rabs (val b) <= bpow radix2 990) x y ->
  Forall3 (fun a b c => isf c /\ Rabs (val c - val b) <= u * (2 * Rabs (val a) + 3 * Rabs (val b)) + 3 * eta) x y (vadd x (vsub y x)).
Proof.
  assert (BB : 4 * bpow radix2 990 <= big). { unfold big. replace 4 with (bpow radix2 2) by reflexivity. rewrite <- bpow_plus. apply bpow_le. lia. }
  induction 1 as [|a b x y (Fa & Fb & Ba & Bb) H IH]; [constructor|]. change (vadd (a :: x) (vsub (b :: y) (a :: x))) with ((a +! (b -! a)) :: vadd x (vsub y x)). constructor; [|exact IH].
  pose proof u_pos as U. pose proof u_tiny as U1. pose proof eta_pos as T0. pose proof eta_u50 as T. pose proof (bpow_ge_0 radix2 990) as B0.
  assert (B1 : 1 <= bpow radix2 990) by (change 1 with (bpow radix2 0); apply bpow_le; lia).
  assert (S : Rabs (val b - val a) <= Rabs (val b) + Rabs (val a)) by (unfold Rminus; eapply Rle_trans; [apply Rabs_triang|rewrite Rabs_Ropp; lra]).
  destruct (f_sub b a Fb Fa) as [Fw Vw]; [lra|]. pose proof (rnd_err (val b - val a)) as Ew. rewrite <- Vw in Ew.
  set (w := b -! a) in *. set (A := Rabs (val a)) in *. set (B := Rabs (val b)) in *. assert (A0 : 0 <= A) by apply Rabs_pos. assert (Bp : 0 <= B) by apply Rabs_pos.
  assert (US : u * Rabs (val b - val a) <= u * (A + B)) by (apply Rmult_le_compat_l; lra). assert (US1 : u * (A + B) <= 1 / 10 ^ 15 * (A + B)) by (apply Rmult_le_compat_r; lra).
  assert (D : Rabs (val a + val w - val b) <= u * (A + B) + eta). { replace (val a + val w - val b) with (val w - (val b - val a)) by ring. lra. }
  assert (Dy : Rabs (val a + val w) <= B + (u * (A + B) + eta)). { replace (val a + val w) with (val a + val w - val b + val b) by ring. eapply Rle_trans; [apply Rabs_triang|]. fold B. lra. }
  destruct (f_add a w Fa Fw) as [Fc Vc]; [lra|]. split; [exact Fc|]. rewrite Vc. pose proof (rnd_err (val a + val w)) as Ec.
  assert (u * Rabs (val a + val w) <= u * (B + (u * (A + B) + eta))) by (apply Rmult_le_compat_l; lra).
  assert (u * (u * (A + B) + eta) <= 1 / 1000 * (u * (A + B) + eta)) by (apply Rmult_le_compat_r; [|lra]; assert (0 <= u * (A + B)) by (apply Rmult_le_pos; lra); lra).
  assert (0 <= u * A) by (apply Rmult_le_pos; lra). assert (0 <= u * B) by (apply Rmult_le_pos; lra).
  apply Rabs_ends in Ec, D. apply Rabs_le. lra.
Qed.
Lemma vlen_sub (x y : list f64) : length x = length y -> length (vsub y x) = length x.
Proof. revert y. induction x as [|a x IH]; intros [|b y] H; try discriminate; [reflexivity|]. change (S (length (vsub y x)) = S (length x)). f_equal. apply IH. now injection H. Qed.
Lemma vlen_add (x y : list f64) : length x = length y -> length (vadd x y) = length x.
Proof. revert y. induction x as [|a x IH]; intros [|b y] H; try discriminate; [reflexivity|]. change (S (length (vadd x y)) = S (length x)). f_equal. apply IH. now injection H. Qed.
Lemma near_long f (w : list f64) v : length v = 3%nat -> 0 <= f -> near_v f (vals w) v -> rnorm (vals w) <= rnorm v + 1733 / 1000 * f.
Proof.
  intros Lv F N. pose proof (near3_norm f (vals w) v Lv F N) as H. assert (LW : length (vals w) = 3%nat) by (rewrite <- Lv; clear - N; induction N; cbn; auto).
  assert (E : vals w = radd (rsub (vals w) v) v). { destruct (vals w) as [|w0 [|w1 [|w2 [|]]]]; try discriminate. destruct v as [|v0 [|v1 [|v2 [|]]]]; try discriminate. change ([w0; w1; w2] = [w0 - v0 + v0; w1 - v1 + v1; w2 - v2 + v2]). repeat (apply f_equal2; [ring|]); reflexivity. }
  rewrite E. eapply Rle_trans; [apply rnorm_tri; rewrite rsub_len; lia|]. rewrite (Rplus_comm (rnorm v)). lra.
Qed.
(** The sphere: the computed step is tangent enough, and the two end points agree. *)
Lemma s2_target h a b d e x v p o y : let s := Leaf h LS2 a b in leaf_wf h LS2 a b -> 0 <= d <= 1 / 1000 -> 0 <= e <= 1 / 1000 -> fstray d s x -> length v = tangentDim s -> length p = tangentDim s -> length o = representationDim s ->
  ends e s x v y -> can d e s v ->
  length y = representationDim s /\ exists w z, pseudoLog (SK:=SK) s p x y = Ok w /\ length w = tangentDim s /\ retractation (SK:=SK) s o x w = Ok z /\ fstray (d + 1240 * u) s z /\ back d e s x v y z.
Proof.
  intros s W Hd He Hx Lv Lp Lo Hy Hc. pose proof u_pos as U. pose proof u_tiny as U1. pose proof PI_le as PL.
  destruct (leaf_find L HL HA HT h LS2 a b d e x v p y W Hd He Hx Lv Lp Hy (can_range _ _ _ _ _ _ _ (proj1 Hd) (proj1 He) Hc)) as (Ly & w & EL & Fw & Nw). cbn [found] in Nw.
  pose proof (fstray_len _ _ _ _ _ _ W Hx) as Lx. pose proof W as W0. unfold s in *. unfold leaf_wf in W. unfold tangentDim, representationDim in Lv, Lp, Lo, Lx, Ly |- *. cbn [hdr_of] in *. destruct W as (_ & W2 & W3 & _). rewrite ?W2, ?W3 in *.
  pose proof (near_len _ _ _ Nw) as LW. cbn [can ends] in *. destruct Hy as (Fy & Ov & Ny). destruct Hc as (Ht & Hs & Hf).
  set (t := rnorm v) in *. set (f := (540 * u + 26 * d + 37 * e) / sin t) in *.
  assert (S0 : 0 < sin t). { pose proof (rnorm_nonneg v) as P. fold t in P. destruct (Rle_lt_or_eq_dec 0 t P) as [P1|P1]; [apply sin_gt_0; lra|]. exfalso. rewrite <- P1, sin_0 in Hs. lra. }
  assert (SI : 0 < / sin t) by (apply Rinv_0_lt_compat; lra).
  assert (F0 : 0 <= f) by (apply Rmult_le_pos; lra). assert (F1 : f <= 4 / 10 ^ 9) by (apply (Rmult_le_reg_r (sin t)); auto; unfold f; replace ((540 * u + 26 * d + 37 * e) / sin t * sin t) with (540 * u + 26 * d + 37 * e) by (field; lra); exact Hf).
  assert (Lw : length w = 3%nat) by lia.
  pose proof (near_long f w v Lv F0 Nw) as NW. fold t in NW. pose proof (near3_norm f (vals w) v Lv F0 Nw) as ND.
  pose proof Hx as Hx0. destruct Hx as (x0 & x1 & x2 & -> & G0 & G1 & G2 & HX). destruct (vec3 w Lw) as (w0 & w1 & w2 & ->).
  inversion Fw as [|? ? K0 Fw1]; subst. inversion Fw1 as [|? ? K1 Fw2]; subst. inversion Fw2 as [|? ? K2 _]; subst.
  destruct v as [|v0 [|v1 [|v2 [|]]]]; try discriminate Lv.
  change (vals [w0; w1; w2]) with [val w0; val w1; val w2] in *. change (vals [x0; x1; x2]) with [val x0; val x1; val x2] in *.
  assert (EN : forall a0 a1 a2, rnorm [a0; a1; a2] * rnorm [a0; a1; a2] = a0 * a0 + a1 * a1 + a2 * a2) by (intros; rewrite rnorm_sq; cbn [rdot]; ring).
  assert (BW : forall q, q = val w0 \/ q = val w1 \/ q = val w2 -> Rabs q <= 4). { intros q Q. pose proof (EN (val w0) (val w1) (val w2)) as E. set (n := rnorm [val w0; val w1; val w2]) in *. pose proof (rnorm_nonneg [val w0; val w1; val w2]) as P. fold n in P. assert (n * n <= 4 * 4) by (apply Rmult_le_compat; lra).
    apply (entry_sq _ (n * n)); [|assumption|lra]. rewrite E. pose proof (Rle_0_sqr (val w0)) as Z0. pose proof (Rle_0_sqr (val w1)) as Z1. pose proof (Rle_0_sqr (val w2)) as Z2. unfold Rsqr in *. destruct Q as [->|[->| ->]]; lra. }
  unfold sq3 in HX. pose proof (Rabs_ends _ _ HX) as HX'.
  assert (BX : forall q, q = val x0 \/ q = val x1 \/ q = val x2 -> Rabs q <= 4). { intros q Q. apply (entry_sq _ (val x0 * val x0 + val x1 * val x1 + val x2 * val x2)); [|lra|lra]. pose proof (Rle_0_sqr (val x0)) as Z0. pose proof (Rle_0_sqr (val x1)) as Z1. pose proof (Rle_0_sqr (val x2)) as Z2. unfold Rsqr in *. destruct Q as [->|[->| ->]]; lra. }
  assert (HS : scale 4). { unfold scale, B900. split; [apply Rle_trans with (bpow radix2 0); [apply bpow_le; lia|cbn; lra]|replace 4 with (bpow radix2 2) by reflexivity; apply bpow_le; lia]. }
  destruct (dot_scaled L x0 x1 x2 w0 w1 w2 (val x0) (val x1) (val x2) 0 4 HS) as [Fd Ed]; auto using app_exact; try lra.
  set (dd := sum3 L (x0 *! w0) (x1 *! w1) (x2 *! w2)) in *. set (D := val x0 * val w0 + val x1 * val w1 + val x2 * val w2) in *.
  assert (BD : Rabs D <= 1001 / 1000 * (1733 / 1000 * f)).
  { assert (ED : D = rdot [val x0; val x1; val x2] (rsub [val w0; val w1; val w2] [v0; v1; v2])). { unfold D. change (rsub _ _) with [val w0 - v0; val w1 - v1; val w2 - v2]. cbn [rdot] in Ov |- *. lra. }
    pose proof (cauchy [val x0; val x1; val x2] (rsub [val w0; val w1; val w2] [v0; v1; v2])) as C. rewrite <- ED in C. rewrite <- (rnorm_sq (rsub _ _)) in C. set (n := rnorm (rsub _ _)) in *. assert (P : 0 <= n) by apply rnorm_nonneg.
    assert (NN : n * n <= (1733 / 1000 * f) * (1733 / 1000 * f)) by (apply Rmult_le_compat; auto). assert (QQ : rdot [val x0; val x1; val x2] [val x0; val x1; val x2] <= 1001 / 1000) by (cbn [rdot]; lra).
    assert (Q0 : 0 <= n * n) by (apply Rmult_le_pos; auto). assert (M : rdot [val x0; val x1; val x2] [val x0; val x1; val x2] * (n * n) <= 1001 / 1000 * (n * n)) by (apply Rmult_le_compat_r; auto).
    apply (entry_sq _ _ _ C); [|lra]. set (g := 1733 / 1000 * f) in *. assert (0 <= g * g) by (apply Rmult_le_pos; unfold g; lra). nra. }
  assert (BV : Rabs (val dd) <= 89 / 10 ^ 10). { assert (U2 : u <= 2 / 10 ^ 16) by (rewrite u_val; lra). replace (val dd) with (val dd - D + D) by ring. eapply Rle_trans; [apply Rabs_triang|]. cbn [pow] in *. lra. }
  assert (TT : s2_isInTxM (SK:=SK) [x0; x1; x2] [w0; w1; w2] (lit8 L) = true) by (apply (s2_proj_pass L _ _ (89 / 10 ^ 10)); [exact Fd|exact BV|cbn [pow]; lra]).
  assert (EZ : exists z, retractation (SK:=SK) (Leaf h LS2 a b) o [x0; x1; x2] [w0; w1; w2] = Ok z).
  { assert (TX : isInTxM (SK:=SK) (Leaf h LS2 a b) [x0; x1; x2] [w0; w1; w2] (default_prec (SK:=SK)) = Ok true).
    { cbn [isInTxM]. unfold representationDim, tangentDim. cbn [hdr_of]. rewrite W2, W3. cbn [List.length Nat.eqb mnf_assert bind]. change (default_prec (SK:=SK)) with (lit8 L). rewrite TT. reflexivity. }
    cbn [retractation]. rewrite TX. unfold representationDim, tangentDim. cbn [hdr_of]. rewrite W2, W3, Lo. cbn [List.length Nat.eqb mnf_assert bind].
    unfold s2_retractation, same_size. cbn [List.length Nat.eqb bind]. change (vadd [x0; x1; x2] [w0; w1; w2]) with [x0 +! w0; x1 +! w1; x2 +! w2]. unfold as_vec3, assign. cbn [List.length Nat.eqb bind]. unfold vdivs. cbn [map List.length]. rewrite ?Lo. cbn [Nat.eqb]. eexists. reflexivity. }
  destruct EZ as (z & EZ). split; [lia|]. exists [w0; w1; w2], z. split; [exact EL|]. split; [reflexivity|]. split; [exact EZ|].
  assert (ML : mild (Leaf h LS2 a b) [w0; w1; w2]). { cbn [mild]. assert (4 <= bpow radix2 400) by (replace 4 with (bpow radix2 2) by reflexivity; apply bpow_le; lia). constructor; [|constructor; [|constructor; [|constructor]]]; (eapply Rle_trans; [apply BW; auto|lra]). }
  destruct (leaf_step64 L HL h LS2 a b d _ _ o z W0 Hd Hx0 ML EZ) as [Sz Cz]. split; [exact Sz|].
  cbn [back fclose] in *. split; [destruct Sz as (z0 & z1 & z2 & -> & ? & ? & ? & _); auto|].
  change (vals [x0; x1; x2]) with [val x0; val x1; val x2] in *. change (vals [w0; w1; w2]) with [val w0; val w1; val w2] in *. cbv zeta in *.
  pose proof (s2_moves [val x0; val x1; val x2] [v0; v1; v2] [val w0; val w1; val w2] (1733 / 1000 * f) eq_refl eq_refl eq_refl) as SM.
  assert (A1 : 1 / 4 <= rdot (radd [val x0; val x1; val x2] [v0; v1; v2]) (radd [val x0; val x1; val x2] [v0; v1; v2])).
  { change (radd _ _) with [val x0 + v0; val x1 + v1; val x2 + v2]. cbn [rdot] in Ov |- *. pose proof (Rle_0_sqr v0) as Z0. pose proof (Rle_0_sqr v1) as Z1. pose proof (Rle_0_sqr v2) as Z2. unfold Rsqr in *. lra. }
  assert (A2 : 1 / 4 <= rdot (radd [val x0; val x1; val x2] [val w0; val w1; val w2]) (radd [val x0; val x1; val x2] [val w0; val w1; val w2])).
  { change (radd _ _) with [val x0 + val w0; val x1 + val w1; val x2 + val w2]. cbn [rdot]. pose proof (Rle_0_sqr (val w0)) as Z0. pose proof (Rle_0_sqr (val w1)) as Z1. pose proof (Rle_0_sqr (val w2)) as Z2. unfold Rsqr in *. apply Rabs_ends in BD. unfold D in BD. cbn [pow] in F1. lra. }
  specialize (SM A1 A2 ND). eapply near_v_mono; [|exact (Relog.near_v_trans _ _ _ _ _ Cz SM)].
  change (rnorm [v0; v1; v2]) with t. replace ((1900 * u + 92 * d + 131 * e) / sin t) with (2 * (1733 / 1000 * f) + (2836 / 100 * u + 1884 / 1000 * d + 2758 / 1000 * e) / sin t) by (unfold f; field; lra).
  assert (sin t <= 1) by (pose proof (SIN_bound t); lra). assert (1 <= / sin t) by (rewrite <- Rinv_1; apply Rinv_le_contravar; lra).
  assert (8 * u <= (2836 / 100 * u + 1884 / 1000 * d + 2758 / 1000 * e) / sin t); [|lra]. unfold Rdiv. apply Rle_trans with ((2836 / 100 * u + 1884 / 1000 * d + 2758 / 1000 * e) * 1); [lra|]. apply Rmult_le_compat_l; lra.
Qed.

Lemma leaf_target h l a b d e x v p o y : let s := Leaf h l a b in leaf_wf h l a b -> 0 <= d <= 1 / 1000 -> 0 <= e <= 1 / 1000 -> fstray d s x -> length v = tangentDim s -> length p = tangentDim s -> length o = representationDim s ->
  ends e s x v y -> can d e s v ->
  length y = representationDim s /\ exists w z, pseudoLog (SK:=SK) s p x y = Ok w /\ length w = tangentDim s /\ retractation (SK:=SK) s o x w = Ok z /\ fstray (d + 1240 * u) s z /\ back d e s x v y z.
Proof.
  intros s W Hd He Hx Lv Lp Lo Hy Hc. destruct l as [| |mp]; [|exact (s2_target h a b d e x v p o y W Hd He Hx Lv Lp Lo Hy Hc)|].
  - pose proof W as W0. pose proof (fstray_len _ _ _ _ _ _ W Hx) as Lx. unfold s in *. unfold leaf_wf in W. unfold tangentDim, representationDim in Lv, Lp, Lo, Lx. cbn [hdr_of ends] in *.
    assert (P2 : Forall2 (fun a b => isf a /\ isf b /\ Rabs (val a) <= bpow radix2 990 /\ Rabs (val b) <= bpow radix2 990) x y) by (clear - Hy; induction Hy; constructor; tauto).
    assert (Ly : length x = length y) by (clear - P2; induction P2; cbn; auto). pose proof (vlen_sub x y Ly) as LS. pose proof (vlen_add x (vsub y x) ltac:(lia)) as LA. pose proof (real_there x y P2) as RT. unfold SKt in *.
    split; [unfold representationDim; cbn [hdr_of]; lia|]. exists (vsub (SK:=SK) y x), (vadd (SK:=SK) x (vsub (SK:=SK) y x)).
    assert (E1 : pseudoLog (SK:=SK) (Leaf h LReal a b) p x y = Ok (vsub (SK:=SK) y x)).
    { cbn [pseudoLog]. unfold tangentDim, representationDim. cbn [hdr_of]. rewrite <- Ly, Lp, Lx, !Nat.eqb_refl. cbn [mnf_assert bind]. unfold real_pseudoLog, same_size, assign. rewrite LS, <- Ly, Nat.eqb_refl. replace (length p =? length x)%nat with true by (symmetry; apply Nat.eqb_eq; lia). reflexivity. }
    assert (E2 : retractation (SK:=SK) (Leaf h LReal a b) o x (vsub (SK:=SK) y x) = Ok (vadd (SK:=SK) x (vsub (SK:=SK) y x))).
    { cbn [retractation isInTxM]. unfold tangentDim, representationDim. cbn [hdr_of]. rewrite LS, Lo, Lx. replace (h_rdim h =? h_tdim h)%nat with true by (symmetry; apply Nat.eqb_eq; lia). rewrite !Nat.eqb_refl. cbn [mnf_assert bind]. unfold real_retractation, same_size, assign. rewrite LS, LA, Nat.eqb_refl. cbn [bind]. replace (length o =? length x)%nat with true by (symmetry; apply Nat.eqb_eq; lia). reflexivity. }
    split; [exact E1|]. split; [unfold tangentDim; cbn [hdr_of]; lia|]. split; [exact E2|]. split; [cbn [fstray]; lia|]. cbn [back]. split.
    + clear - RT. induction RT as [|? ? ? ? ? ? [? ?]]; constructor; auto.
    + clear - RT. induction RT as [|? ? ? ? ? ? [? ?]]; constructor; auto.
  - pose proof u_pos as U. pose proof u_tiny as U1. pose proof PI_le as PL. pose proof PI_ge as PG. pose proof (rnorm_nonneg v) as TP.
    destruct (leaf_find L HL HA HT h (LSO3 mp) a b d e x v p y W Hd He Hx Lv Lp Hy (can_range _ _ _ _ _ _ _ (proj1 Hd) (proj1 He) Hc)) as (Ly & w & EL & Fw & Nw).
    pose proof (fstray_len _ _ _ _ _ _ W Hx) as Lx. pose proof W as W0. unfold s in *. split; [exact Ly|].
    assert (L3 : tangentDim (Leaf h (LSO3 mp) a b) = 3%nat) by (unfold tangentDim; cbn [hdr_of]; unfold leaf_wf in W; destruct mp; lia). rewrite L3 in *.
    assert (G : forall f, 0 <= f -> f <= 1 / 1000 -> near_v f (vals w) v -> rnorm v <= 313 / 100 -> exists z, retractation (SK:=SK) (Leaf h (LSO3 mp) a b) o x w = Ok z /\ length w = 3%nat /\ fstray (d + 1240 * u) (Leaf h (LSO3 mp) a b) z /\ fclose (Leaf h (LSO3 mp) a b) x w z /\ Forall isf z /\ rnorm (rsub (vals w) v) <= 1733 / 1000 * f).
    { intros f F0 F1 N T. pose proof (near_long f w v Lv F0 N) as NL. pose proof (near_len _ _ _ N) as LW. 
      destruct (leaf_go L h (LSO3 mp) a b x w o W Lx ltac:(rewrite L3; lia) Lo) as (z & EZ). { cbn [short]. split; [exact Fw|lra]. }
      exists z. split; [exact EZ|]. split; [lia|]. destruct (leaf_step64 L HL h (LSO3 mp) a b d x w o z W0 Hd Hx I EZ) as [Sz Cz]. split; [exact Sz|]. split; [exact Cz|]. split; [|apply near3_norm; auto].
      destruct mp; cbn [fstray] in Sz.
      - destruct Sz as (Z & -> & MZ & _). destruct Z. unfold mfin in MZ. cbn in MZ |- *. repeat constructor; tauto.
      - destruct Sz as (q & -> & QZ & _). unfold qfin in QZ. repeat constructor; tauto. }
    destruct mp; cbn [found can ends fstray fclose back] in *.
    + destruct Hy as (Fy & A & EA & Ny). destruct Hx as (X & EX & FX & SX).
      assert (SA : stretch (1 / 1000) A). { replace A with (mval X); [eapply stretch_mono; [|exact SX]; lra|]. apply flat9_inj. rewrite <- EA, EX. destruct X; reflexivity. }
      assert (CL : forall f k, 0 <= f -> f <= 1 / 1000 -> near_v f (vals w) v -> rnorm v <= 313 / 100 -> 1416 / 1000 * (1733 / 1000 * f) + 124 * u + e <= k -> exists z, retractation (SK:=SK) (Leaf h (LSO3 MapMatrix) a b) o x w = Ok z /\ length w = 3%nat /\ (exists Z, z = m3_to_list Z /\ mfin Z /\ stretch (d + 1240 * u) (mval Z)) /\ Forall isf z /\ near_v k (vals z) (vals y)).
      { intros f k F0 F1 N T K. destruct (G f F0 F1 N T) as (z & EZ & LW & Sz & Cz & Fz & DW). exists z. split; [exact EZ|]. split; [exact LW|]. split; [exact Sz|]. split; [exact Fz|]. destruct Cz as (A' & EA' & NA). assert (A' = A) as -> by (apply flat9_inj; congruence).
        pose proof (mat_moves A v (vals w) (1733 / 1000 * f) SA Lv ltac:(rewrite map_length; exact LW) DW) as MM. eapply near_v_mono; [|exact (Relog.near_v_trans _ _ _ _ _ (Relog.near_v_trans _ _ _ _ _ NA MM) (Relog.near_v_sym _ _ _ Ny))]. lra. }
      destruct Nw as (N1 & N2 & N3). set (t := rnorm v) in *.
      destruct (Rle_lt_dec t (1 / 10 ^ 9)) as [T1|T1]; [|destruct (Rle_lt_dec t (PI / 2)) as [T2|T2]].
      * assert (HD : 10 * u + 2 * d + 4 * e <= 1 / 1000).
        { destruct Hc as [[_ H]|[_ H]]; [cbn [pow] in H; lra|]. assert (sin t * sin t <= 1) by (pose proof (SIN_bound t); nra). cbn [pow] in H. lra. }
        destruct (CL (10 * u + 2 * d + 4 * e) (149 * u + 5 * d + 11 * e) ltac:(lra) HD (N1 T1) ltac:(cbn [pow] in T1; lra) ltac:(lra)) as (z & EZ & LW & Sz & Fz & K). exists w, z. split; [exact EL|]. split; [exact LW|]. split; [exact EZ|]. split; [exact Sz|]. split; [exact Fz|]. fold t.
        split; [auto|]. split; intros; exfalso; cbn [pow] in *; lra.
      * destruct Hc as [[H _]|[H H']]; [exfalso; lra|]. assert (sin t * sin t <= 1) by (pose proof (SIN_bound t); nra). assert (HD : 1450 * u + 174 * d + 301 * e <= 1 / 1000) by (cbn [pow] in H'; lra).
        destruct (CL (1450 * u + 174 * d + 301 * e) (3700 * u + 430 * d + 740 * e) ltac:(lra) HD (N2 (conj T1 T2)) H ltac:(lra)) as (z & EZ & LW & Sz & Fz & K). exists w, z. split; [exact EL|]. split; [exact LW|]. split; [exact EZ|]. split; [exact Sz|]. split; [exact Fz|]. fold t.
        split; [intros; exfalso; lra|]. split; [auto|]. intros; exfalso; lra.
      * destruct Hc as [[H _]|[H H']]; [exfalso; cbn [pow] in *; lra|]. assert (S1 : sin t * sin t <= 1) by (pose proof (SIN_bound t); nra). assert (S0 : 0 < sin t * sin t) by (cbn [pow] in H'; lra).
        set (q := sin t * sin t) in *. assert (Q1 : 1 <= / q) by (rewrite <- Rinv_1; apply Rinv_le_contravar; lra).
        assert (HD : (857 * u + 96 * d + 166 * e) / q <= 1 / 1000). { apply (Rmult_le_reg_r q); auto. replace ((857 * u + 96 * d + 166 * e) / q * q) with (857 * u + 96 * d + 166 * e) by (field; lra). cbn [pow] in H'. lra. }
        assert (HD0 : 0 <= (857 * u + 96 * d + 166 * e) / q) by (apply Rmult_le_pos; lra).
        assert (KK : 1416 / 1000 * (1733 / 1000 * ((857 * u + 96 * d + 166 * e) / q)) + 124 * u + e <= (2230 * u + 236 * d + 410 * e) / q).
        { apply Rle_trans with (1416 / 1000 * (1733 / 1000 * ((857 * u + 96 * d + 166 * e) / q)) + (124 * u + e) * / q); [assert ((124 * u + e) * 1 <= (124 * u + e) * / q) by (apply Rmult_le_compat_l; lra); lra|].
          unfold Rdiv. apply Rle_trans with ((1416 / 1000 * (1733 / 1000 * (857 * u + 96 * d + 166 * e)) + (124 * u + e)) * / q); [apply Req_le; field; lra|]. apply Rmult_le_compat_r; lra. }
        destruct (CL _ _ HD0 HD (N3 T2) H KK) as (z & EZ & LW & Sz & Fz & K). exists w, z. split; [exact EL|]. split; [exact LW|]. split; [exact EZ|]. split; [exact Sz|]. split; [exact Fz|]. fold t.
        split; [intros; exfalso; lra|]. split; [intros; exfalso; lra|auto].
    + destruct Hy as (Fy & q & EQ & Ny). destruct Hx as (q0 & EX & FX & SX). destruct Hc as [T EE]. cbn [pow] in EE.
      assert (SA : Rabs (qn2 q - 1) <= 1 / 1000). { replace q with (qval q0); [eapply Rle_trans; [exact SX|lra]|]. apply qflat_inj. rewrite <- EQ, EX. destruct q0; reflexivity. }
      destruct (G (6800 * u + 745 * e) ltac:(lra) ltac:(lra) Nw T) as (z & EZ & LW & Sz & Cz & Fz & DW). exists w, z. split; [exact EL|]. split; [exact LW|]. split; [exact EZ|]. split; [exact Sz|]. split; [exact Fz|].
      destruct Cz as (q' & EQ' & NA). assert (q' = q) as -> by (apply qflat_inj; congruence).
      pose proof (quat_moves q v (vals w) _ SA Lv ltac:(rewrite map_length; exact LW) DW) as MM. eapply near_v_mono; [|exact (Relog.near_v_trans _ _ _ _ _ (Relog.near_v_trans _ _ _ _ _ NA MM) (Relog.near_v_sym _ _ _ Ny))]. lra.
Qed.

(** ** Trees *)
Lemma tree_target (m : mfd f64) d e xs vs ys p o : wf m -> 0 <= d <= 1 / 1000 -> 0 <= e <= 1 / 1000 -> Forall2 (fstray d) (leaves m) xs -> Forall2 (fun s v => length v = tangentDim s) (leaves m) vs -> Forall4 (ends e) (leaves m) xs vs ys -> Forall2 (can d e) (leaves m) vs ->
  length p = tangentDim m -> length o = representationDim m ->
  exists w zs, pseudoLog (SK:=SK) m p (concat xs) (concat ys) = Ok w /\ retractation (SK:=SK) m o (concat xs) w = Ok (concat zs) /\
    Forall2 (fstray (d + 1240 * u)) (leaves m) zs /\ Forall5 (back d e) (leaves m) xs vs ys zs.
Proof.
  intros W Hd He Hx Lv Hy Hr Lp Lo. destruct (cut_gen DT m p W Lp) as (ps & -> & Pp). destruct (cut_gen DR m o W Lo) as (os & -> & Po).
  pose proof (fstray_pieces _ _ _ W Hx) as Px. pose proof (fun s => leaf_inv_gen m s W) as G.
  assert (E : pieces DR (leaves m) ys /\ exists ws zs, Forall5 (fun s o x v r => pseudoLog (SK:=SK) s o x v = Ok r) (leaves m) ps xs ys ws /\ pieces DT (leaves m) ws /\
    Forall5 (fun s o x v r => retractation (SK:=SK) s o x v = Ok r) (leaves m) os xs ws zs /\ Forall2 (fstray (d + 1240 * u)) (leaves m) zs /\ Forall5 (back d e) (leaves m) xs vs ys zs).
  { clear W Lp Lo Px. revert G Hx Lv Hy Hr Pp Po. generalize (leaves m) as ls. intros ls. revert xs vs ys ps os.
    induction ls as [|s ls IH]; intros xs vs ys ps os G Hx Lv Hy Hr Pp Po.
    - inversion Hx; subst. inversion Lv; subst. inversion Hy; subst. inversion Pp; subst. inversion Po; subst. split; [constructor|]. exists [], []. repeat split; constructor.
    - inversion Hx as [|? x ? xs' Hx1 Hx2]; subst. inversion Lv as [|? v ? vs' Lv1 Lv2]; subst. inversion Hr as [|? ? ? ? Hr1 Hr2]; subst. inversion Pp as [|? q ? qs' Pp1 Pp2]; subst. inversion Po as [|? oo ? os' Po1 Po2]; subst.
      inversion Hy as [|? ? ? y ? ? ? ys' Hy1 Hy2]; subst.
      destruct (IH xs' vs' ys' qs' os') as (A & ws & zs & B & C & D & E & F); auto. { intros q0 Hq. apply G. simpl; auto. }
      destruct (G s) as (h & l & a & b & -> & Wl); [simpl; auto|].
      destruct (leaf_target h l a b d e x v q oo y Wl Hd He Hx1 Lv1 Pp1 Po1 Hy1 Hr1) as (Ly & w & z & E1 & E2 & E3 & E4 & E5).
      split; [constructor; auto|]. exists (w :: ws), (z :: zs). repeat split; constructor; auto. }
  destruct E as (Py & ws & zs & F5 & Pw & R5 & Fz & Bz). exists (concat ws), zs. split; [|split; [|split; auto]].
  - apply (flat_op DT DR DR pseudoLog pseudoLog_prod m W); auto. exists ws. auto.
  - apply (flat_op DR DR DT retractation retractation_prod m W); auto. exists zs. auto.
Qed.
End Target.
