(** pseudoLog in double arithmetic between two given points, sphere included: leaves and trees. *)
From Coq Require Import Reals List Lra Lia ZArith Bool Arith Psatz.
From Flocq Require Import Core BinarySingleNaN.
From Verif Require Import Base Scalar Vec Model_Real Model_S2 Model_SO3 Model_Manifold Spec Layout Comp Flat XR SpecR RotR NumVec NumMat NumExp Drift F64 F64Err F64Norm F64S2 F64Exp F64Quat F64Mat F64Mat2 F64Tree F64Go F64Log F64LogQ F64Back.
Import ListNotations.
Local Open Scope R_scope.

(** ** The sphere, over the reals: the projected difference and the cosine *)
Lemma unit_entry p0 p1 p2 : p0 * p0 + p1 * p1 + p2 * p2 = 1 -> Rabs p0 <= 1 /\ Rabs p1 <= 1 /\ Rabs p2 <= 1.
Proof. intros H. repeat split; apply Rabs_le; nra. Qed.
Lemma unit_dot p0 p1 p2 d0 d1 d2 e : p0 * p0 + p1 * p1 + p2 * p2 = 1 -> Rabs d0 <= e -> Rabs d1 <= e -> Rabs d2 <= e -> Rabs (p0 * d0 + p1 * d1 + p2 * d2) <= 1733 / 1000 * e.
Proof.
  intros H H0 H1 H2. pose proof (l1_l2 p0 p1 p2 1 ltac:(lra) ltac:(lra)) as L1. pose proof (dots p0 p1 p2 d0 d1 d2 e H0 H1 H2) as D. assert (0 <= e) by (pose proof (Rabs_pos d0); lra).
  replace (p0 * d0 + p1 * d1 + p2 * d2) with (d0 * p0 + d1 * p1 + d2 * p2) by ring. nra.
Qed.
Lemma proj_real r d e c s p q z di pi : 0 < r -> Rabs (r * r - 1) <= d -> d <= 1 / 1000 -> Rabs c <= 1 -> Rabs p <= 1 -> Rabs di <= e -> Rabs pi <= 1733 / 1000 * e -> z = r * (c + pi) - r * r ->
  Rabs ((c * p + s * q + di) - r * p - z * (r * p) - s * q) <= 274 / 100 * e + 201 / 100 * d.
Proof.
  intros R0 Hr Hd Hc Hp Hdi Hpi ->. assert (R1 : r <= 1001 / 1000) by (apply Rabs_ends in Hr; nra).
  replace (c * p + s * q + di - r * p - (r * (c + pi) - r * r) * (r * p) - s * q) with (di + p * ((1 - r * r) * (c - r) - r * r * pi)) by ring.
  eapply Rle_trans; [apply Rabs_triang|]. assert (E0 : 0 <= e) by (pose proof (Rabs_pos di); lra). assert (D0 : 0 <= d) by (pose proof (Rabs_pos (r * r - 1)); lra).
  assert (A1 : Rabs ((1 - r * r) * (c - r)) <= d * (2001 / 1000)). { apply abs_prod; [rewrite Rabs_minus_sym; auto|]. apply Rabs_ends in Hc. apply Rabs_le. lra. }
  assert (A2 : Rabs (r * r * pi) <= 1001 / 1000 * (1733 / 1000 * e)). { apply abs_prod; auto. apply Rabs_ends in Hr. rewrite Rabs_pos_eq by nra. lra. }
  assert (A3 : Rabs (p * ((1 - r * r) * (c - r) - r * r * pi)) <= 1 * (d * (2001 / 1000) + 1001 / 1000 * (1733 / 1000 * e))). { apply abs_prod; auto. unfold Rminus at 1. eapply Rle_trans; [apply Rabs_triang|]. rewrite Rabs_Ropp. lra. }
  lra.
Qed.
Lemma cos_real r d e c pi : 0 < r -> Rabs (r * r - 1) <= d -> d <= 1 / 1000 -> Rabs c <= 1 -> Rabs pi <= 1733 / 1000 * e -> Rabs (r * (c + pi) - c) <= d + 174 / 100 * e.
Proof.
  intros R0 Hr Hd Hc Hpi. assert (R1 : r <= 1001 / 1000) by (apply Rabs_ends in Hr; nra). assert (E0 : 0 <= e) by (pose proof (Rabs_pos pi); lra).
  assert (D : Rabs (r - 1) <= d). { apply Rabs_ends in Hr. apply Rabs_le. nra. }
  replace (r * (c + pi) - c) with ((r - 1) * c + r * pi) by ring. eapply Rle_trans; [apply Rabs_triang|].
  assert (Rabs ((r - 1) * c) <= d * 1) by (apply abs_prod; auto). assert (Rabs (r * pi) <= 1001 / 1000 * (1733 / 1000 * e)) by (apply abs_prod; auto; rewrite Rabs_pos_eq; lra). lra.
Qed.

Lemma cos_gap c S : c * c = 1 - S -> 0 <= S <= 1 -> Rabs c <= 1 - S / 2.
Proof. intros H HS. apply Rsqr_incr_0_var; [|lra]. rewrite <- Rsqr_abs. unfold Rsqr. nra. Qed.
Lemma small_div k s x : 0 < s <= 1 -> k * s <= x * (s * s) -> 0 <= x -> k <= x.
Proof. intros Hs H Hx. apply (Rmult_le_reg_r s); [lra|]. assert (x * (s * s) <= x * (s * 1)) by (apply Rmult_le_compat_l; [lra|apply Rmult_le_compat_l; lra]). lra. Qed.
(** ** The sphere, in doubles *)
Definition near1 (a : f64) : Prop := isf a /\ Rabs (val a) <= 1002 / 1000.
Lemma near1_cl a : near1 a -> cl a (val a) 0.
Proof. intros [F _]. apply cl_exact; auto. Qed.
Lemma dot_f64 L x0 x1 x2 y0 y1 y2 f B : near1 x0 -> near1 x1 -> near1 x2 -> 0 <= f <= 1 / 1000 -> 1 <= B <= 21 / 10 -> forall r0 r1 r2, cl y0 r0 f -> cl y1 r1 f -> cl y2 r2 f -> Rabs r0 <= B -> Rabs r1 <= B -> Rabs r2 <= B ->
  cl (sum3 L (x0 *! y0) (x1 *! y1) (x2 *! y2)) (val x0 * r0 + val x1 * r1 + val x2 * r2) (31 / 10 * f + 82 / 10 * B * u) /\ Rabs (val x0 * r0 + val x1 * r1 + val x2 * r2) <= 301 / 100 * B.
Proof.
  intros X0 X1 X2 Hf HB r0 r1 r2 Y0 Y1 Y2 R0 R1 R2. pose proof u_pos as U. pose proof u_tiny as U1.
  assert (G : forall x y r, near1 x -> cl y r f -> Rabs r <= B -> cl (x *! y) (val x * r) (1002 / 1000 * f + (1003 / 1000 * B + 2 / 1000) * u + f * u) /\ Rabs (val x * r) <= 1002 / 1000 * B).
  { intros x y r NX Y HR. assert (A : Rabs (val x * r) <= 1002 / 1000 * B) by (apply abs_prod; auto; apply NX). split; auto.
    assert (P : Rabs (val x) * f <= 1002 / 1000 * f) by (apply Rmult_le_compat_r; [lra|apply NX]).
    eapply cl_weak; [apply (cl_mul x y (val x) r 0 f (1002 / 1000 * f) (1002 / 1000 * B + 1002 / 1000 * f) (near1_cl _ NX) Y); lra|]. assert (0 <= f * u) by nra. assert (0 <= B * u) by nra. nra. }
  destruct (G _ _ _ X0 Y0 R0) as [C0 B0]. destruct (G _ _ _ X1 Y1 R1) as [C1 B1]. destruct (G _ _ _ X2 Y2 R2) as [C2 B2]. clear G.
  set (g := 1002 / 1000 * f + (1003 / 1000 * B + 2 / 1000) * u + f * u) in *. assert (FU : 0 <= f * u <= 1 / 10 ^ 6 * f) by (split; nra). assert (BU : u <= B * u <= 21 / 10 * u) by (split; nra).
  assert (Hg : 0 <= g <= 3 / 1000) by (unfold g; lra).
  assert (S1 : forall a b, Rabs a <= 1002 / 1000 * B -> Rabs b <= 1002 / 1000 * B -> Rabs (a + b) <= 2004 / 1000 * B) by (intros; eapply Rle_trans; [apply Rabs_triang|lra]).
  pose proof (S1 _ _ B0 B1). pose proof (S1 _ _ B0 B2). pose proof (S1 _ _ B1 B2).
  assert (S2 : Rabs (val x0 * r0 + val x1 * r1 + val x2 * r2) <= 3006 / 1000 * B) by (eapply Rle_trans; [apply Rabs_triang|lra]).
  assert (gu : g * u <= 3 / 1000 * u) by (apply Rmult_le_compat_r; lra).
  assert (PU : (2004 / 1000 * B + 2 * g + 1 / 1000) * u <= 1 / 10000) by (replace ((2004 / 1000 * B + 2 * g + 1 / 1000) * u) with (2004 / 1000 * (B * u) + 2 * (g * u) + 1 / 1000 * u) by ring; lra).
  pose proof (cl_sum3 L _ _ _ _ _ _ g (2004 / 1000 * B + 2 * g) (3006 / 1000 * B + 3 * g + 1 / 1000) C0 C1 C2 ltac:(lra) ltac:(lra) ltac:(lra) ltac:(lra) ltac:(lra) ltac:(lra)) as D2.
  split; [|lra]. eapply cl_weak; [exact D2|].
  replace ((2004 / 1000 * B + 2 * g + (3006 / 1000 * B + 3 * g + 1 / 1000) + 2 / 1000) * u) with (5010 / 1000 * (B * u) + 5 * (g * u) + 3 / 1000 * u) by field.
  unfold g in *. lra.
Qed.

Section S2.
Variable L : libm.
Hypothesis HA : accurate_acos L.
Local Notation SK := (F64 L).

Lemma s2_log_any {K} (S : Scalar K) out (x0 x1 x2 y0 y1 y2 zf w0 w1 w2 n a : K) : length out = 3%nat ->
  zf = ksum [kmul x0 (ksub y0 x0); kmul x1 (ksub y1 x1); kmul x2 (ksub y2 x2)] ->
  w0 = ksub (ksub y0 x0) (kmul zf x0) -> w1 = ksub (ksub y1 x1) (kmul zf x1) -> w2 = ksub (ksub y2 x2) (kmul zf x2) ->
  n = ksqrt (ksum [kmul w0 w0; kmul w1 w1; kmul w2 w2]) -> a = kacos (ksum [kmul x0 y0; kmul x1 y1; kmul x2 y2]) ->
  s2_pseudoLog (SK:=S) out [x0; x1; x2] [y0; y1; y2] = Ok [kdiv (kmul a w0) n; kdiv (kmul a w1) n; kdiv (kmul a w2) n].
Proof. intros Lo -> -> -> -> -> ->. destruct out as [|o0 [|o1 [|o2 [|]]]]; try discriminate Lo. reflexivity. Qed.
Lemma s2_find out x0 x1 x2 y0 y1 y2 r p0 p1 p2 q0 q1 q2 t d e : length out = 3%nat -> isf x0 -> isf x1 -> isf x2 -> isf y0 -> isf y1 -> isf y2 ->
  0 < r -> Rabs (r * r - 1) <= d -> 0 <= d <= 1 / 1000 -> 0 <= e <= 1 / 1000 -> p0 * p0 + p1 * p1 + p2 * p2 = 1 -> q0 * q0 + q1 * q1 + q2 * q2 = 1 -> p0 * q0 + p1 * q1 + p2 * q2 = 0 ->
  val x0 = r * p0 -> val x1 = r * p1 -> val x2 = r * p2 ->
  0 < t < PI -> let c := cos t in let s := sin t in 1000 * (u + d + e) <= s * s ->
  Rabs (val y0 - (c * p0 + s * q0)) <= e -> Rabs (val y1 - (c * p1 + s * q1)) <= e -> Rabs (val y2 - (c * p2 + s * q2)) <= e ->
  exists w0 w1 w2, s2_pseudoLog (SK:=SK) out [x0; x1; x2] [y0; y1; y2] = Ok [w0; w1; w2] /\ let k := (540 * u + 26 * d + 37 * e) / s in cl w0 (t * q0) k /\ cl w1 (t * q1) k /\ cl w2 (t * q2) k.
Proof.
  intros Lo Fx0 Fx1 Fx2 Fy0 Fy1 Fy2 R0 Hr Hd He Np Nq Opq X0 X1 X2 Ht c s Hs Y0 Y1 Y2.
  pose proof u_pos as U. pose proof u_tiny as U1. pose proof eta_u50 as T. pose proof eta_pos as T0. pose proof PI_le as PL.
  destruct (unit_entry _ _ _ Np) as (P0 & P1 & P2). destruct (unit_entry _ _ _ Nq) as (Q0 & Q1 & Q2).
  assert (S0 : 0 < s) by (apply sin_gt_0; lra). pose proof (SIN_bound t) as SB. fold s in SB. pose proof (COS_bound t) as CB. fold c in CB.
  assert (SC : s * s + c * c = 1) by (pose proof (sin2_cos2 t) as H; unfold Rsqr in H; exact H).
  assert (Cc : Rabs c <= 1) by (apply Rabs_le; lra).
  assert (R1 : r <= 10005 / 10000) by (apply Rabs_ends in Hr; nra).
  assert (NX : forall x p, isf x -> val x = r * p -> Rabs p <= 1 -> near1 x). { intros x p F V B. split; auto. rewrite V, Rabs_mult, (Rabs_pos_eq r) by lra. pose proof (Rabs_pos p). nra. }
  pose proof (NX _ _ Fx0 X0 P0) as Nx0. pose proof (NX _ _ Fx1 X1 P1) as Nx1. pose proof (NX _ _ Fx2 X2 P2) as Nx2. clear NX.
  assert (G : forall p q i, Rabs (p * p + q * q) <= 1 -> Rabs (c * p + s * q) <= 1 -> Rabs (i - (c * p + s * q)) <= e -> Rabs i <= 1001 / 1000). { intros p q i _ H1 H2. apply Rabs_ends in H1, H2. apply Rabs_le. lra. }
  assert (UU : (c * p0 + s * q0) * (c * p0 + s * q0) + (c * p1 + s * q1) * (c * p1 + s * q1) + (c * p2 + s * q2) * (c * p2 + s * q2) = 1).
  { replace (_ + _ + _) with (c * c * (p0 * p0 + p1 * p1 + p2 * p2) + s * s * (q0 * q0 + q1 * q1 + q2 * q2) + 2 * (c * s) * (p0 * q0 + p1 * q1 + p2 * q2)) by ring. rewrite Np, Nq, Opq. lra. }
  destruct (unit_entry _ _ _ UU) as (M0 & M1 & M2).
  assert (B0 : Rabs (val y0) <= 1001 / 1000) by (apply Rabs_ends in M0, Y0; apply Rabs_le; lra).
  assert (B1 : Rabs (val y1) <= 1001 / 1000) by (apply Rabs_ends in M1, Y1; apply Rabs_le; lra).
  assert (B2 : Rabs (val y2) <= 1001 / 1000) by (apply Rabs_ends in M2, Y2; apply Rabs_le; lra). clear G UU.
  set (d0 := val y0 - (c * p0 + s * q0)) in *. set (d1 := val y1 - (c * p1 + s * q1)) in *. set (d2 := val y2 - (c * p2 + s * q2)) in *.
  pose proof (unit_dot _ _ _ _ _ _ e Np Y0 Y1 Y2) as HP. set (pi := p0 * d0 + p1 * d1 + p2 * d2) in *.
  assert (Ey0 : val y0 = c * p0 + s * q0 + d0) by (unfold d0; ring). assert (Ey1 : val y1 = c * p1 + s * q1 + d1) by (unfold d1; ring). assert (Ey2 : val y2 = c * p2 + s * q2 + d2) by (unfold d2; ring).
  (* the difference *)
  assert (GD : forall x y, near1 x -> isf y -> Rabs (val y) <= 1001 / 1000 -> cl (y -! x) (val y - val x) (203 / 100 * u) /\ Rabs (val y - val x) <= 2003 / 1000).
  { intros x y [Fx Bx] Fy By. assert (A : Rabs (val y - val x) <= 2003 / 1000) by (apply Rabs_ends in Bx, By; apply Rabs_le; lra). split; auto.
    eapply cl_weak; [apply (cl_sub y x _ _ 0 0 (2003 / 1000) (cl_exact y _ Fy eq_refl) (cl_exact x _ Fx eq_refl)); lra|lra]. }
  destruct (GD _ _ Nx0 Fy0 B0) as [D0 DB0]. destruct (GD _ _ Nx1 Fy1 B1) as [D1 DB1]. destruct (GD _ _ Nx2 Fy2 B2) as [D2 DB2]. clear GD.
  destruct (dot_f64 L x0 x1 x2 _ _ _ (203 / 100 * u) (2003 / 1000) Nx0 Nx1 Nx2 ltac:(lra) ltac:(lra) _ _ _ D0 D1 D2 DB0 DB1 DB2) as [Cz Bz].
  set (zf := sum3 L (x0 *! (y0 -! x0)) (x1 *! (y1 -! x1)) (x2 *! (y2 -! x2))) in *.
  assert (Ez : val x0 * (val y0 - val x0) + val x1 * (val y1 - val x1) + val x2 * (val y2 - val x2) = r * (c + pi) - r * r).
  { rewrite X0, X1, X2, Ey0, Ey1, Ey2. unfold pi. replace (r * (c + (p0 * d0 + p1 * d1 + p2 * d2)) - r * r) with (r * (c * (p0 * p0 + p1 * p1 + p2 * p2) + s * (p0 * q0 + p1 * q1 + p2 * q2) + (p0 * d0 + p1 * d1 + p2 * d2)) - r * r * (p0 * p0 + p1 * p1 + p2 * p2)) by (rewrite Np, Opq; ring). ring. }
  rewrite Ez in Cz, Bz. set (z := r * (c + pi) - r * r) in *.
  (* the projection *)
  assert (E0 : 0 <= e) by lra. set (E := 274 / 100 * e + 201 / 100 * d + 46 * u).
  assert (GP : forall x y p q di, near1 x -> val x = r * p -> Rabs p <= 1 -> Rabs di <= e -> val y = c * p + s * q + di -> cl (y -! x) (val y - val x) (203 / 100 * u) -> Rabs (val y - val x) <= 2003 / 1000 ->
    cl ((y -! x) -! zf *! x) (s * q) E).
  { intros x y p q di Nx Vx Hp Hdi Vy Dd Db. pose proof (cl_mul zf x z (val x) (23 * u) 0 (24 * u) (61 / 10)) as C1.
    assert (C1' : cl (zf *! x) (z * val x) (24 * u + (61 / 10 + 1 / 1000) * u)).
    { apply C1; [eapply cl_weak; [exact Cz|lra]|apply near1_cl; auto| | |lra].
      - destruct Nx as [_ Bx]. assert (Rabs (val x) * (23 * u) <= 1002 / 1000 * (23 * u)) by (apply Rmult_le_compat_r; lra). lra.
      - assert (Rabs (z * val x) <= 301 / 100 * (2003 / 1000) * (1002 / 1000)) by (apply abs_prod; [lra|apply Nx]). lra. }
    assert (BZ : Rabs (z * val x) <= 605 / 100) by (eapply Rle_trans; [apply (abs_prod _ _ (301 / 100 * (2003 / 1000)) (1002 / 1000)); [lra|apply Nx]|lra]).
    pose proof (cl_sub _ _ _ _ _ _ (81 / 10) Dd C1') as C2. destruct C2 as [F2 C2].
    - apply Rabs_ends in Db, BZ. assert (Rabs (val y - val x - z * val x) <= 8055 / 1000) by (apply Rabs_le; lra). lra.
    - lra.
    - split; auto. pose proof (proj_real r d e c s p q z di pi R0 Hr ltac:(lra) Cc Hp Hdi HP eq_refl) as PR. rewrite <- Vx, <- Vy in PR.
      replace (val (y -! x -! zf *! x) - s * q) with ((val (y -! x -! zf *! x) - (val y - val x - z * val x)) + (val y - val x - z * val x - s * q)) by ring.
      eapply Rle_trans; [apply Rabs_triang|]. unfold E. lra. }
  pose proof (GP x0 y0 p0 q0 d0 Nx0 X0 P0 Y0 Ey0 D0 DB0) as A0. pose proof (GP x1 y1 p1 q1 d1 Nx1 X1 P1 Y1 Ey1 D1 DB1) as A1. pose proof (GP x2 y2 p2 q2 d2 Nx2 X2 P2 Y2 Ey2 D2 DB2) as A2. clear GP.
  set (w0 := y0 -! x0 -! zf *! x0) in *. set (w1 := y1 -! x1 -! zf *! x1) in *. set (w2 := y2 -! x2 -! zf *! x2) in *.
  assert (HE : 46 * u <= E <= 46 / 1000 * (s * s)) by (unfold E; lra). assert (S1 : s * s <= s) by nra.
  (* its norm *)
  assert (SQ : forall q, Rabs q <= 1 -> Rabs (s * q) <= s). { intros q Hq. rewrite Rabs_mult, (Rabs_pos_eq s) by lra. pose proof (Rabs_pos q). nra. }
  pose proof (SQ _ Q0) as SQ0. pose proof (SQ _ Q1) as SQ1. pose proof (SQ _ Q2) as SQ2.
  set (N := sq3 (val w0) (val w1) (val w2)).
  assert (N0 : 0 <= N) by (unfold N, sq3; nra). pose proof (sqrt_pos N) as SN0. pose proof (sqrt_sqrt _ N0) as SNN.
  pose proof (norm3_close (s * q0) (s * q1) (s * q2) (val w0) (val w1) (val w2) s (sqrt N) E ltac:(lra) SN0) as NC.
  specialize (NC ltac:(replace (_ + _ + _) with (s * s * (q0 * q0 + q1 * q1 + q2 * q2)) by ring; rewrite Nq; ring) ltac:(rewrite SNN; reflexivity) (proj2 A0) (proj2 A1) (proj2 A2)). apply Rabs_ends in NC.
  assert (Hn : 92 / 100 * s <= sqrt N <= 109 / 100 * s) by lra. assert (N2 : N <= 2). { rewrite <- SNN. apply Rle_trans with (109 / 100 * (109 / 100)); [apply Rmult_le_compat; lra|lra]. }
  assert (NL : 8 / 10 * (s * s) <= N). { rewrite <- SNN. apply Rle_trans with ((92 / 100 * s) * (92 / 100 * s)); [pose proof (Rle_0_sqr s) as Z; unfold Rsqr in Z; lra|apply Rmult_le_compat; lra]. }
  destruct (nsq_any L w0 w1 w2 (proj1 A0) (proj1 A1) (proj1 A2) N2) as (Fn & Fs & _ & En & _). fold N in En.
  assert (UN : u * (800 * u) <= u * N) by (apply Rmult_le_compat_l; lra). assert (T2 : eta <= u * u / 10 ^ 20). { pose proof eta_small. assert (u ^ 10 <= u * u / 10 ^ 20) by (rewrite u_val; lra). lra. }
  assert (En' : Rabs (val (nsq L w0 w1 w2) - N) <= 302 / 100 * (u * N)) by lra.
  assert (ET : eta <= u * sqrt N / 1000). { assert (u * (800 * u) <= u * sqrt N) by (apply Rmult_le_compat_l; [lra|]; apply Rle_trans with (92 / 100 * s); lra). lra. }
  destruct (sqrt_err _ N (302 / 100) Fn En' ltac:(lra) ltac:(lra) ET) as [_ ES].
  set (nf := Bsqrt mode_NE (nsq L w0 w1 w2)) in *.
  assert (Cn : cl nf s (18 / 10 * E)). { split; [exact Fs|]. assert (u * sqrt N <= u * (109 / 100)) by (apply Rmult_le_compat_l; lra). assert (k : Rabs (val nf - sqrt N) <= 3 * u) by lra. apply Rabs_ends in k. apply Rabs_le. lra. }
  (* the distance *)
  destruct (dot_f64 L x0 x1 x2 y0 y1 y2 0 (1001 / 1000) Nx0 Nx1 Nx2 ltac:(lra) ltac:(lra) _ _ _ (cl_exact _ _ Fy0 eq_refl) (cl_exact _ _ Fy1 eq_refl) (cl_exact _ _ Fy2 eq_refl) B0 B1 B2) as [Cd _].
  set (df := sum3 L (x0 *! y0) (x1 *! y1) (x2 *! y2)) in *.
  assert (Ed : val x0 * val y0 + val x1 * val y1 + val x2 * val y2 = r * (c + pi)).
  { rewrite X0, X1, X2, Ey0, Ey1, Ey2. unfold pi. replace (r * (c + (p0 * d0 + p1 * d1 + p2 * d2))) with (r * (c * (p0 * p0 + p1 * p1 + p2 * p2) + s * (p0 * q0 + p1 * q1 + p2 * q2) + (p0 * d0 + p1 * d1 + p2 * d2))) by (rewrite Np, Opq; ring). ring. }
  rewrite Ed in Cd. pose proof (cos_real r d e c pi R0 Hr ltac:(lra) Cc HP) as CR.
  set (E' := d + 174 / 100 * e + 84 / 10 * u).
  assert (CE : Rabs (val df - c) <= E'). { destruct Cd as [_ Cd]. apply Rabs_ends in Cd, CR. unfold E'. apply Rabs_le. lra. }
  assert (HE' : 84 / 10 * u <= E' <= 84 / 10000 * (s * s)) by (unfold E'; lra).
  assert (C1 : Rabs (val df) <= 1). { pose proof (cos_gap c (s * s) ltac:(lra) ltac:(lra)) as CG. apply Rabs_ends in CE, CG. apply Rabs_le. lra. }
  destruct (HA df (proj1 Cd) C1) as [Fa Ea]. pose proof (acos_pert (val df) t E' Ht CE ltac:(apply Rabs_ends in C1; lra)) as AP. fold s in AP.
  set (af := f_acos L df) in *. pose proof (acos_bound (val df)) as AB.
  set (al := (4 * E' + 7 * u) / s).
  assert (Is : 1 <= / s) by (rewrite <- Rinv_1; apply Rinv_le_contravar; lra).
  assert (Ca : cl af t al).
  { split; auto. replace (val af - t) with ((val af - acos (val df)) + (acos (val df) - t)) by ring. eapply Rle_trans; [apply Rabs_triang|].
    assert (2 * u * acos (val df) <= 2 * u * (10 / 3)) by (apply Rmult_le_compat_l; lra). assert (7 * u <= 7 * u * / s) by (apply Rle_trans with (7 * u * 1); [lra|apply Rmult_le_compat_l; lra]).
    unfold al. replace ((4 * E' + 7 * u) / s) with (4 * E' / s + 7 * u * / s) by (field; lra). lra. }
  assert (as_ : al * s = 4 * E' + 7 * u) by (unfold al; field; lra).
  assert (al0 : 0 <= al) by (unfold al; apply Rmult_le_pos; [lra|apply Rlt_le, Rinv_0_lt_compat; lra]).
  assert (al1 : al <= 1 / 20). { apply (small_div al s); [lra| |lra]. rewrite as_. lra. }
  (* the scaled projection and the quotient *)
  set (G := t * E + s * al + al * E).
  assert (tE : t * E <= 10 / 3 * E) by (apply Rmult_le_compat_r; lra).
  assert (aE : al * E <= 46 / 1000 * (al * s)). { apply Rle_trans with (al * (46 / 1000 * s)); [apply Rmult_le_compat_l; lra|right; ring]. }
  assert (HG : 0 <= G <= 10 / 3 * E + 105 / 100 * (4 * E' + 7 * u)). { unfold G. rewrite (Rmult_comm s al), as_ in *. assert (0 <= t * E) by (apply Rmult_le_pos; lra). assert (0 <= al * E) by (apply Rmult_le_pos; lra). lra. }
  assert (GQ : forall w q, cl w (s * q) E -> Rabs q <= 1 -> Rabs (s * q) <= s -> cl (af *! w /! nf) (t * q) ((540 * u + 26 * d + 37 * e) / s)).
  { intros w q Cw Hq Hsq. 
    assert (V1 : cl (af *! w) (t * (s * q)) (G + (4 + 1 / 1000) * u)).
    { apply (cl_mul af w t (s * q) al E G 4 Ca Cw); [|assert (Rabs (t * (s * q)) <= 10 / 3 * 1) by (apply abs_prod; [rewrite Rabs_pos_eq|]; lra); unfold E, E' in *; lra|lra].
      rewrite (Rabs_pos_eq t) by lra. assert (Rabs (s * q) * al <= s * al) by (apply Rmult_le_compat_r; lra). unfold G. lra. }
    set (e1 := G + (4 + 1 / 1000) * u) in *. set (f := 18 / 10 * E) in *.
    assert (F1 : f <= 83 / 1000 * s) by (unfold f; lra).
    assert (TS : Rabs (t * (s * q)) <= 10 / 3 * s) by (apply abs_prod; [rewrite Rabs_pos_eq|]; lra).
    assert (K : (Rabs s * e1 + Rabs (t * (s * q)) * f) / (Rabs s * (Rabs s - f)) <= (e1 + 10 / 3 * f) / (917 / 1000 * s)).
    { rewrite (Rabs_pos_eq s) by lra. assert (f0 : 0 <= f) by (unfold f; lra). assert (e10 : 0 <= e1) by (unfold e1; lra).
      apply Rle_trans with ((s * (e1 + 10 / 3 * f)) / (s * (s - f))).
      - apply Rmult_le_compat_r; [apply Rlt_le, Rinv_0_lt_compat, Rmult_lt_0_compat; lra|]. assert (Rabs (t * (s * q)) * f <= 10 / 3 * s * f) by (apply Rmult_le_compat_r; lra). lra.
      - replace (s * (e1 + 10 / 3 * f) / (s * (s - f))) with ((e1 + 10 / 3 * f) / (s - f)) by (field; lra). apply Rmult_le_compat_l; [lra|]. apply Rinv_le_contravar; lra. }
    set (g := (e1 + 10 / 3 * f) / (917 / 1000 * s)) in *.
    assert (gs : g * s = (e1 + 10 / 3 * f) * (1000 / 917)) by (unfold g; field; lra).
    assert (gb : g * s <= 530 * u + 26 * d + 37 * e). { rewrite gs. unfold e1, f, E, E' in *. lra. }
    assert (g1 : g <= 53 / 100). { apply (small_div g s); [lra| |lra]. lra. }
    assert (EQ : t * (s * q) / s = t * q) by (field; lra).
    assert (Q : cl (af *! w /! nf) (t * (s * q) / s) (g + (4 + 1 / 1000) * u)).
    { apply (cl_div (af *! w) nf (t * (s * q)) s e1 f g 4 V1 Cn); [rewrite Rabs_pos_eq; lra|exact K| |lra]. rewrite EQ. assert (Rabs (t * q) <= 10 / 3 * 1) by (apply abs_prod; [rewrite Rabs_pos_eq|]; lra). lra. }
    rewrite EQ in Q. eapply cl_weak; [exact Q|]. apply (Rmult_le_reg_r s); auto. replace ((540 * u + 26 * d + 37 * e) / s * s) with (540 * u + 26 * d + 37 * e) by (field; lra).
    rewrite Rmult_plus_distr_r. assert ((4 + 1 / 1000) * u * s <= (4 + 1 / 1000) * u * 1) by (apply Rmult_le_compat_l; lra). lra. }
  exists (af *! w0 /! nf), (af *! w1 /! nf), (af *! w2 /! nf). split; [|split; [|split]; apply GQ; auto].
  exact (s2_log_any SK out x0 x1 x2 y0 y1 y2 zf w0 w1 w2 nf af Lo eq_refl eq_refl eq_refl eq_refl eq_refl eq_refl).
Qed.
End S2.

(** ** x^-1 * y with y within [e] of x * E *)
Lemma prod_gen a b r s e : 0 <= e <= 1 / 1000 -> cl a r (51 / 10 * u) -> cl b s e -> Rabs r <= 1003 / 1000 -> Rabs s <= 1001 / 1000 -> cl (a *! b) (r * s) (1004 / 1000 * e + 62 / 10 * u) /\ Rabs (r * s) <= 1005 / 1000.
Proof.
  intros He A B R S. pose proof u_pos as U. pose proof u_tiny as U1.
  assert (Rabs (r * s) <= 1003 / 1000 * (1001 / 1000)) by (apply abs_prod; auto). split; [|lra].
  eapply cl_weak; [apply (cl_mul a b r s (51 / 10 * u) e (10031 / 10000 * e + 511 / 100 * u) (101 / 100) A B); try lra|lra].
  assert (Rabs r * e <= 1003 / 1000 * e) by (apply Rmult_le_compat_r; lra). assert (Rabs s * (51 / 10 * u) <= 1001 / 1000 * (51 / 10 * u)) by (apply Rmult_le_compat_r; lra).
  assert (51 / 10 * u * e <= 51 / 10 * (1 / 10 ^ 15) * e) by (apply Rmult_le_compat_r; lra). lra.
Qed.
Lemma sum_gen L a b c d r s t w e (k := 1004 / 1000 * e + 62 / 10 * u) (B := 1005 / 1000) : 0 <= e <= 1 / 1000 -> cl a r k -> cl b s k -> cl c t k -> cl d w k -> Rabs r <= B -> Rabs s <= B -> Rabs t <= B -> Rabs w <= B ->
  cl (sum4 L a b c (Bopp d)) (r + s + t - w) (402 / 100 * e + 36 * u) /\ cl (sum4 L a (Bopp b) (Bopp c) (Bopp d)) (r - s - t - w) (402 / 100 * e + 36 * u).
Proof.
  intros He [Fa Aa] [Fb Ab] [Fc Ac] [Fd Ad] Ba Bb Bc Bd. pose proof u_pos as U. pose proof eta_u as T.
  assert (K : 0 <= k) by (unfold k; lra). assert (HC : k + 4 * (u * (101 / 100)) <= 101 / 100 - B) by (unfold k, B; rewrite u_val; lra). assert (HB : 0 <= B) by (unfold B; lra).
  pose proof (near_opp b s k B ltac:(auto)) as Ob. pose proof (near_opp c t k B ltac:(auto)) as Oc. pose proof (near_opp d w k B ltac:(auto)) as Od.
  destruct (sum4_near L a b c (Bopp d) r s t (- w) k B (101 / 100)) as [F1 E1]; auto; try lra.
  destruct (sum4_near L a (Bopp b) (Bopp c) (Bopp d) r (- s) (- t) (- w) k B (101 / 100)) as [F2 E2]; auto; try lra.
  split; split; auto.
  - replace (r + s + t - w) with (r + s + t + - w) by ring. eapply Rle_trans; [exact E1|]. unfold k. lra.
  - replace (r - s - t - w) with (r + - s + - t + - w) by ring. eapply Rle_trans; [exact E2|]. unfold k. lra.
Qed.
Lemma eq_back_gen L X Y E e : 0 <= e <= 1 / 1000 -> qfin X -> Rabs (qn2 (qval X) - 1) <= 1 / 1000 -> qn2 E = 1 -> qcl Y (qprod (qval X) E) e -> qcl (qmul (SK:=F64 L) (qinverse (SK:=F64 L) X) Y) E (402 / 100 * e + 36 * u).
Proof.
  intros He (F0 & F1 & F2 & F3) HN HE (A0 & A1 & A2 & A3). pose proof u_pos as U. pose proof u_tiny as U1. pose proof eta_u50 as T.
  set (Z := qprod (qval X) E) in *. assert (NZ : qn2 Z = qn2 (qval X)) by (unfold Z; rewrite qn2_mul, HE; ring).
  apply Rabs_ends in HN. set (N := qn2 (qval X)) in *. assert (N1 : 999 / 1000 <= N <= 1001 / 1000) by lra.
  assert (EN : sq4 (val (qx X)) (val (qy X)) (val (qz X)) (val (qw X)) = N) by (unfold N, qn2, qval, sq4; cbn [qw qx qy qz]; ring).
  destruct (norm4_err L (qx X) (qy X) (qz X) (qw X) F1 F2 F3 F0) as [Fs _]; [rewrite EN; lra|]. apply sqrt_fin_arg in Fs.
  destruct (dot4_err L _ _ _ _ Fs) as (_ & _ & _ & _ & ED). rewrite EN in ED. set (n2 := sum4 L (qx X *! qx X) (qy X *! qy X) (qz X *! qz X) (qw X *! qw X)) in *.
  assert (UN : u * (999 / 1000) <= u * N <= u * (1001 / 1000)) by (split; apply Rmult_le_compat_l; lra).
  assert (ED' : Rabs (val n2 - N) <= 403 / 100 * (u * N)) by lra. pose proof (Rabs_ends _ _ ED') as EDs.
  unfold qinverse. change (qsqnorm (SK:=F64 L) X) with n2. change (kltb (Scalar:=F64 L) k0 n2) with (Bltb (of_Z 0) n2).
  assert (TB : Bltb (of_Z 0) n2 = true). { rewrite f_ltb by (auto; reflexivity). apply Rlt_bool_true. change (val (of_Z 0)) with 0. lra. } rewrite TB.
  assert (NX : qw (qval X) * qw (qval X) + qx (qval X) * qx (qval X) + qy (qval X) * qy (qval X) + qz (qval X) * qz (qval X) = N) by reflexivity. unfold qval in NX. cbn [qw qx qy qz] in NX.
  pose proof (entry_le (val (qw X)) N ltac:(nra) ltac:(lra)) as B0. pose proof (entry_le (val (qx X)) N ltac:(nra) ltac:(lra)) as B1. pose proof (entry_le (val (qy X)) N ltac:(nra) ltac:(lra)) as B2. pose proof (entry_le (val (qz X)) N ltac:(nra) ltac:(lra)) as B3.
  unfold qn2 in NZ. pose proof (entry_le (qw Z) N ltac:(nra) ltac:(lra)) as Z0. pose proof (entry_le (qx Z) N ltac:(nra) ltac:(lra)) as Z1. pose proof (entry_le (qy Z) N ltac:(nra) ltac:(lra)) as Z2. pose proof (entry_le (qz Z) N ltac:(nra) ltac:(lra)) as Z3.
  destruct (f_opp _ F1) as [O1 V1]. destruct (f_opp _ F2) as [O2 V2]. destruct (f_opp _ F3) as [O3 V3].
  destruct (inv_entry _ _ _ F0 ED' N1 B0) as [I0 J0]. destruct (inv_entry _ _ _ O1 ED' N1 ltac:(rewrite V1, Rabs_Ropp; auto)) as [I1 J1]. destruct (inv_entry _ _ _ O2 ED' N1 ltac:(rewrite V2, Rabs_Ropp; auto)) as [I2 J2]. destruct (inv_entry _ _ _ O3 ED' N1 ltac:(rewrite V3, Rabs_Ropp; auto)) as [I3 J3].
  rewrite V1 in I1, J1. rewrite V2 in I2, J2. rewrite V3 in I3, J3.
  assert (M : forall a b c d r s t w e0 e1 e2 e3 x0 x1 x2 x3, cl a r (51 / 10 * u) -> cl b s (51 / 10 * u) -> cl c t (51 / 10 * u) -> cl d w (51 / 10 * u) -> Rabs r <= 1003 / 1000 -> Rabs s <= 1003 / 1000 -> Rabs t <= 1003 / 1000 -> Rabs w <= 1003 / 1000 ->
     cl e0 x0 (e) -> cl e1 x1 (e) -> cl e2 x2 (e) -> cl e3 x3 (e) -> Rabs x0 <= 1001 / 1000 -> Rabs x1 <= 1001 / 1000 -> Rabs x2 <= 1001 / 1000 -> Rabs x3 <= 1001 / 1000 ->
     cl (sum4 L (a *! e0) (b *! e1) (c *! e2) (Bopp (d *! e3))) (r * x0 + s * x1 + t * x2 - w * x3) (402 / 100 * e + 36 * u) /\ cl (sum4 L (a *! e0) (Bopp (b *! e1)) (Bopp (c *! e2)) (Bopp (d *! e3))) (r * x0 - s * x1 - t * x2 - w * x3) (402 / 100 * e + 36 * u)).
  { intros. destruct (prod_gen a e0 r x0 e He) as [? ?]; auto. destruct (prod_gen b e1 s x1 e He) as [? ?]; auto. destruct (prod_gen c e2 t x2 e He) as [? ?]; auto. destruct (prod_gen d e3 w x3 e He) as [? ?]; auto. apply sum_gen with (e := e); auto. }
  assert (EZ : forall f, f (qprod (Q4 (val (qw X) / N) (- val (qx X) / N) (- val (qy X) / N) (- val (qz X) / N)) Z) = f E :> R).
  { intros f. f_equal. unfold Z, N, qprod, qn2, qval. destruct E as [E0 E1 E2 E3]. cbn [qw qx qy qz]. f_equal; field; unfold N, qn2, qval in N1; cbn [qw qx qy qz] in N1; lra. }
  pose proof (EZ (@qw R)) as G0. pose proof (EZ (@qx R)) as G1. pose proof (EZ (@qy R)) as G2. pose proof (EZ (@qz R)) as G3. unfold qprod in G0, G1, G2, G3. cbn [qw qx qy qz] in G0, G1, G2, G3.
  unfold qcl, qmul. cbn [qw qx qy qz kadd ksub ksum kmul kdiv kopp F64].
  split; [eapply cl_eq; [apply (M _ _ _ _ _ _ _ _ _ _ _ _ (qw Z) (qx Z) (qy Z) (qz Z) I0 I1 I2 I3); auto|rewrite <- G0; ring]|].
  split; [eapply cl_eq; [apply (M _ _ _ _ _ _ _ _ _ _ _ _ (qx Z) (qw Z) (qz Z) (qy Z) I0 I1 I2 I3); auto|rewrite <- G1; ring]|].
  split; [eapply cl_eq; [apply (M _ _ _ _ _ _ _ _ _ _ _ _ (qy Z) (qw Z) (qx Z) (qz Z) I0 I2 I3 I1); auto|rewrite <- G2; ring]|].
  eapply cl_eq; [apply (M _ _ _ _ _ _ _ _ _ _ _ _ (qz Z) (qw Z) (qy Z) (qx Z) I0 I3 I1 I2); auto|rewrite <- G3; ring].
Qed.

(** ** Leaves: a point, the step, the end point reached within [e], the range, the error *)
Definition ends (e : R) (s : mfd f64) (x : list f64) (v : list R) (y : list f64) : Prop :=
  match s with
  | Leaf _ LReal _ _ => Forall3 (fun a r b => isf a /\ isf b /\ Rabs (val a) <= bpow radix2 990 /\ Rabs (val b) <= bpow radix2 990 /\ Rabs (val b - (val a + r)) <= e) x v y
  | Leaf _ LS2 _ _ => Forall isf y /\ rdot (vals x) v = 0 /\ let t := rnorm v in near_v e (vals y) (radd (rscal (cos t / rnorm (vals x)) (vals x)) (rscal (sin t / t) v))
  | Leaf _ (LSO3 MapMatrix) _ _ => Forall isf y /\ exists A, vals x = flat9 A /\ near_v e (vals y) (flat9 (rmul A (expSO3 v)))
  | Leaf _ (LSO3 MapQuat) _ _ => Forall isf y /\ exists q, vals x = qflat q /\ near_v e (vals y) (qflat (qprod q (expQ v)))
  | Prod _ _ _ _ => False
  end.
Definition range (d e : R) (s : mfd f64) (v : list R) : Prop :=
  let t := rnorm v in
  match s with
  | Leaf _ LReal _ _ => True
  | Leaf _ LS2 _ _ => t < PI /\ 1000 * (u + d + e) <= sin t * sin t
  | Leaf _ (LSO3 MapMatrix) _ _ => t <= 1 / 10 ^ 9 /\ d + e <= 1 / 10 ^ 10 \/ t < PI /\ 10000 * u + 700 * d + 1300 * e <= sin t * sin t
  | Leaf _ (LSO3 MapQuat) _ _ => t <= 314 / 100 /\ e <= 1 / 10 ^ 11
  | Prod _ _ _ _ => False
  end.
Definition found (d e : R) (s : mfd f64) (v : list R) (w : list f64) : Prop :=
  let t := rnorm v in Forall isf w /\
  match s with
  | Leaf _ LReal _ _ => Forall2 (fun a b => Rabs (val b - a) <= e + u * (Rabs a + e) + eta) v w
  | Leaf _ LS2 _ _ => near_v ((540 * u + 26 * d + 37 * e) / sin t) (vals w) v
  | Leaf _ (LSO3 MapMatrix) _ _ =>
      (t <= 1 / 10 ^ 9 -> near_v (10 * u + 2 * d + 4 * e) (vals w) v) /\
      (1 / 10 ^ 9 < t <= PI / 2 -> near_v (1450 * u + 174 * d + 301 * e) (vals w) v) /\
      (PI / 2 < t -> near_v ((857 * u + 96 * d + 166 * e) / (sin t * sin t)) (vals w) v)
  | Leaf _ (LSO3 MapQuat) _ _ => near_v (6800 * u + 745 * e) (vals w) v
  | Prod _ _ _ _ => False
  end.

Lemma near_9 e a0 a1 a2 a3 a4 a5 a6 a7 a8 b0 b1 b2 b3 b4 b5 b6 b7 b8 : near_v e [a0; a1; a2; a3; a4; a5; a6; a7; a8] [b0; b1; b2; b3; b4; b5; b6; b7; b8] ->
  Rabs (a0 - b0) <= e /\ Rabs (a1 - b1) <= e /\ Rabs (a2 - b2) <= e /\ Rabs (a3 - b3) <= e /\ Rabs (a4 - b4) <= e /\ Rabs (a5 - b5) <= e /\ Rabs (a6 - b6) <= e /\ Rabs (a7 - b7) <= e /\ Rabs (a8 - b8) <= e.
Proof. unfold near_v. intros H. repeat match goal with H : Forall2 _ (_ :: _) _ |- _ => inversion H; subst; clear H end. tauto. Qed.
Lemma near_4 e a0 a1 a2 a3 b0 b1 b2 b3 : near_v e [a0; a1; a2; a3] [b0; b1; b2; b3] -> Rabs (a0 - b0) <= e /\ Rabs (a1 - b1) <= e /\ Rabs (a2 - b2) <= e /\ Rabs (a3 - b3) <= e.
Proof. unfold near_v. intros H. repeat match goal with H : Forall2 _ (_ :: _) _ |- _ => inversion H; subst; clear H end. tauto. Qed.
Lemma near_3 e a0 a1 a2 b0 b1 b2 : near_v e [a0; a1; a2] [b0; b1; b2] -> Rabs (a0 - b0) <= e /\ Rabs (a1 - b1) <= e /\ Rabs (a2 - b2) <= e.
Proof. unfold near_v. intros H. repeat match goal with H : Forall2 _ (_ :: _) _ |- _ => inversion H; subst; clear H end. tauto. Qed.
Lemma near_len e (y : list f64) z : near_v e (vals y) z -> length y = length z.
Proof. intros H. transitivity (length (vals y)); [symmetry; exact (map_length _ _)|]. clear - H. induction H; cbn; auto. Qed.
Lemma flat9_inj A B : flat9 A = flat9 B -> A = B.
Proof. destruct A, B. unfold flat9. cbn. congruence. Qed.
Lemma qflat_inj p q : qflat p = qflat q -> p = q.
Proof. destruct p, q. unfold qflat. cbn. congruence. Qed.

Section Find.
Variable L : libm.
Hypothesis HL : accurate L.
Hypothesis HA : accurate_acos L.
Hypothesis HT : accurate_atan2 L.
Local Notation SK := (F64 L).
#[local] Instance SKf : Scalar f64 := SK.

Lemma real_find x v y e : 0 <= e -> Forall3 (fun a r b => isf a /\ isf b /\ Rabs (val a) <= bpow radix2 990 /\ Rabs (val b) <= bpow radix2 990 /\ Rabs (val b - (val a + r)) <= e) x v y ->
  Forall isf (vsub y x) /\ Forall2 (fun a b => Rabs (val b - a) <= e + u * (Rabs a + e) + eta) v (vsub y x).
Proof.
  assert (BB : 4 * bpow radix2 990 <= big). { unfold big. replace 4 with (bpow radix2 2) by reflexivity. rewrite <- bpow_plus. apply bpow_le. lia. }
  intros He. induction 1 as [|a r b x v y (Fa & Fb & Ba & Bb & H) _ [IH1 IH2]]; [split; constructor|]. change (vsub (b :: y) (a :: x)) with ((b -! a) :: vsub y x).
  pose proof u_pos as U. pose proof (bpow_ge_0 radix2 990) as B0.
  assert (S : Rabs (val b - val a) <= Rabs (val b) + Rabs (val a)) by (unfold Rminus; eapply Rle_trans; [apply Rabs_triang|rewrite Rabs_Ropp; lra]).
  destruct (f_sub b a Fb Fa) as [Fc Vc]; [lra|]. split; [constructor; auto|]. constructor; [|exact IH2]. rewrite Vc. pose proof (rnd_err (val b - val a)) as Ec.
  assert (D : Rabs (val b - val a) <= Rabs r + e). { replace (val b - val a) with (r + (val b - (val a + r))) by ring. eapply Rle_trans; [apply Rabs_triang|lra]. }
  assert (u * Rabs (val b - val a) <= u * (Rabs r + e)) by (apply Rmult_le_compat_l; lra).
  replace (rnd (val b - val a) - r) with ((rnd (val b - val a) - (val b - val a)) + (val b - (val a + r))) by ring. eapply Rle_trans; [apply Rabs_triang|lra].
Qed.

Lemma s2_leaf x v y out d e : (exists a b c, x = [a; b; c] /\ isf a /\ isf b /\ isf c /\ Rabs (sq3 (val a) (val b) (val c) - 1) <= d) -> 0 <= d <= 1 / 1000 -> 0 <= e <= 1 / 1000 -> length out = 3%nat -> length v = 3%nat ->
  Forall isf y -> rdot (vals x) v = 0 -> let t := rnorm v in near_v e (vals y) (radd (rscal (cos t / rnorm (vals x)) (vals x)) (rscal (sin t / t) v)) -> t < PI -> 1000 * (u + d + e) <= sin t * sin t ->
  length y = 3%nat /\ exists w, s2_pseudoLog (SK:=SK) out x y = Ok w /\ Forall isf w /\ near_v ((540 * u + 26 * d + 37 * e) / sin t) (vals w) v.
Proof.
  intros (x0 & x1 & x2 & -> & Fx0 & Fx1 & Fx2 & Hx) Hd He Lo Lv Fy Ov t Ny Ht Hs. destruct (vec3 v Lv) as (v0 & v1 & v2 & ->). pose proof u_pos as U.
  change (vals [x0; x1; x2]) with [val x0; val x1; val x2] in *. set (r := rnorm [val x0; val x1; val x2]) in *.
  pose proof (near_len _ _ _ Ny) as Ly. change (length y = 3%nat) in Ly. split; [exact Ly|]. destruct (vec3 y Ly) as (y0 & y1 & y2 & ->).
  inversion Fy as [|? ? Fy0 Fy']; subst. inversion Fy' as [|? ? Fy1 Fy'']; subst. inversion Fy'' as [|? ? Fy2 _]; subst.
  apply near_3 in Ny. destruct Ny as (N0 & N1 & N2).
  assert (EX : rdot [val x0; val x1; val x2] [val x0; val x1; val x2] = sq3 (val x0) (val x1) (val x2)) by (unfold sq3; cbn [rdot]; ring).
  pose proof (Rabs_ends _ _ Hx) as Hx'. assert (rr : r * r = sq3 (val x0) (val x1) (val x2)) by (unfold r, rnorm; rewrite sqrt_sqrt; rewrite EX; [reflexivity|lra]).
  assert (R0 : 0 < r) by (unfold r, rnorm; apply sqrt_lt_R0; rewrite EX; lra).
  assert (EV : t * t = v0 * v0 + v1 * v1 + v2 * v2). { unfold t, rnorm. rewrite sqrt_sqrt; cbn [rdot]; nra. }
  assert (T0 : 0 < t). { pose proof (sqrt_pos (rdot [v0; v1; v2] [v0; v1; v2])) as P. fold (rnorm [v0; v1; v2]) in P. fold t in P. destruct (Rle_lt_or_eq_dec 0 t P) as [|E]; auto. rewrite <- E, sin_0 in Hs. lra. }
  assert (TV : forall a, t * (a / t) = a) by (intros; field; lra). assert (RV : forall a, r * (a / r) = a) by (intros; field; lra).
  assert (Np : val x0 / r * (val x0 / r) + val x1 / r * (val x1 / r) + val x2 / r * (val x2 / r) = 1). { replace (_ + _ + _) with (sq3 (val x0) (val x1) (val x2) / (r * r)) by (unfold sq3; field; lra). rewrite <- rr. field. lra. }
  assert (Nq : v0 / t * (v0 / t) + v1 / t * (v1 / t) + v2 / t * (v2 / t) = 1). { replace (_ + _ + _) with ((v0 * v0 + v1 * v1 + v2 * v2) / (t * t)) by (field; lra). rewrite <- EV. field. lra. }
  assert (Opq : val x0 / r * (v0 / t) + val x1 / r * (v1 / t) + val x2 / r * (v2 / t) = 0). { replace (_ + _ + _) with ((val x0 * v0 + val x1 * v1 + val x2 * v2) / (r * t)) by (field; lra). cbn [rdot] in Ov. replace (val x0 * v0 + val x1 * v1 + val x2 * v2) with 0 by lra. field. lra. }
  assert (K : forall y x v, Rabs (y - (cos t / r * x + sin t / t * v)) <= e -> Rabs (y - (cos t * (x / r) + sin t * (v / t))) <= e). { intros a b w H. replace (cos t * (b / r) + sin t * (w / t)) with (cos t / r * b + sin t / t * w) by (field; lra). exact H. }
  destruct (s2_find L HA out x0 x1 x2 y0 y1 y2 r _ _ _ _ _ _ t d e Lo Fx0 Fx1 Fx2 Fy0 Fy1 Fy2 R0 ltac:(rewrite rr; exact Hx) Hd He Np Nq Opq (eq_sym (RV _)) (eq_sym (RV _)) (eq_sym (RV _)) (conj T0 Ht) Hs (K _ _ _ N0) (K _ _ _ N1) (K _ _ _ N2)) as (w0 & w1 & w2 & E & C0 & C1 & C2).
  exists [w0; w1; w2]. split; [exact E|]. rewrite TV in C0, C1, C2. destruct C0, C1, C2. split; [auto|]. unfold near_v. repeat (apply Forall2_cons; [assumption|]). apply Forall2_nil.
Qed.

Lemma leaf_find h l a b d e x v p y : let s := Leaf h l a b in leaf_wf h l a b -> 0 <= d <= 1 / 1000 -> 0 <= e <= 1 / 1000 -> fstray d s x -> length v = tangentDim s -> length p = tangentDim s -> ends e s x v y -> range d e s v ->
  length y = representationDim s /\ exists w, pseudoLog (SK:=SK) s p x y = Ok w /\ found d e s v w.
Proof.
  intros s W Hd He Hx Lv Lp Hy Hr. pose proof u_pos as U. pose proof u_tiny as U1. pose proof PI_le as PL. pose proof PI_ge as PG. pose proof (fstray_len _ _ _ _ _ _ W Hx) as Lx.
  assert (RED : forall w, length y = representationDim s -> match l with LReal => real_pseudoLog (SK:=SK) p x y | LS2 => s2_pseudoLog (SK:=SK) p x y | LSO3 MapMatrix => em_pseudoLog (SK:=SK) p x y | LSO3 MapQuat => eq_pseudoLog (SK:=SK) p x y end = Ok w -> pseudoLog (SK:=SK) s p x y = Ok w).
  { intros w Ly H. unfold s in *. cbn [pseudoLog]. rewrite Lp, Lx, Ly, !Nat.eqb_refl. cbn [mnf_assert bind]. destruct l as [| |[|]]; exact H. }
  unfold s in *. unfold representationDim, tangentDim in *. cbn [hdr_of] in *.
  destruct l as [| |[|]]; cbn [fstray ends range found] in *; unfold leaf_wf in W.
  - destruct (real_find x v y e ltac:(lra) Hy) as [F1 F2]. assert (LL : length y = length x /\ length (vsub y x) = length x).
    { clear - Hy F2. split; [clear F2; induction Hy; cbn; auto|]. revert F2. generalize (vsub y x). intros w F2. assert (length v = length x) by (clear - Hy; induction Hy; cbn; auto). rewrite <- H. clear - F2. induction F2; cbn; auto. }
    destruct LL as [L1 L2]. unfold SKf in F1, F2, L2. split; [lia|]. exists (vsub (SK:=SK) y x). split; [|split; auto]. apply RED; [lia|]. unfold real_pseudoLog, same_size, assign. rewrite L1, L2. replace (length p =? length x)%nat with true by (symmetry; apply Nat.eqb_eq; lia). rewrite ?Nat.eqb_refl. reflexivity.
  - destruct Hy as (Fy & Ov & Ny). destruct Hr as [Ht Hs]. destruct (s2_leaf x v y p d e Hx Hd He ltac:(lia) ltac:(lia) Fy Ov Ny Ht Hs) as (Ly & w & E & F & N).
    split; [lia|]. exists w. split; [|split; auto]. apply RED; [lia|exact E].
  - destruct Hx as (X & -> & FX & SX). destruct Hy as (Fy & A & EA & Ny). assert (A = mval X) as -> by (apply flat9_inj; rewrite <- EA; destruct X; reflexivity). 
    pose proof (near_len _ _ _ Ny) as Ly. change (length y = 9%nat) in Ly.
    destruct y as [|y0 [|y1 [|y2 [|y3 [|y4 [|y5 [|y6 [|y7 [|y8 [|]]]]]]]]]]; try discriminate Ly. set (Y := M3 y0 y3 y6 y1 y4 y7 y2 y5 y8).
    assert (MC : mcl Y (rmul (mval X) (expSO3 v)) e).
    { apply near_9 in Ny. repeat match goal with F : Forall isf (_ :: _) |- _ => let G := fresh in let F' := fresh in inversion F as [|? ? G F']; subst; clear F end. unfold mcl, cl, Y. cbn [a00 a01 a02 a10 a11 a12 a20 a21 a22]. destruct Ny as (? & ? & ? & ? & ? & ? & ? & ? & ?). 
      repeat match goal with |- _ /\ _ => split end; assumption. }
    pose proof (em_back L X Y d (expSO3 v) e FX SX Hd (expSO3_rot _) MC ltac:(lra)) as MB.
    set (f := 301 / 100 * e + 83 / 10 * u + 1733 / 1000 * d) in *. assert (Ee : f = 301 / 100 * e + 83 / 10 * u + 1733 / 1000 * d) by reflexivity. clearbody f.
    assert (PE : em_pseudoLog (SK:=SK) p (m3_to_list X) (m3_to_list Y) = em_logarithm (SK:=SK) p (m3_mul (SK:=SK) (m3_trans X) Y)) by (destruct X; reflexivity).
    split; [lia|]. destruct (Rle_lt_dec (rnorm v) (1 / 10 ^ 9)) as [Hs|Hs].
    + destruct Hr as [[_ Hdd]|[_ Hb]].
      2:{ exfalso. pose proof (rnorm_nonneg v) as P. pose proof (sin_abs (rnorm v)) as A. rewrite (Rabs_pos_eq (rnorm v)) in A by lra. apply Rabs_ends in A. assert (sin (rnorm v) * sin (rnorm v) <= 1 / 10 ^ 9 * (1 / 10 ^ 9)) by nra. assert (1 / 10 ^ 17 <= u) by (rewrite u_val; lra). lra. }
      destruct (em_log_small L p _ v f ltac:(lia) ltac:(lia) Hs MB ltac:(lra)) as (w & Ew & Fw & Nw). exists w. split; [apply RED; [lia|]; change (em_pseudoLog (SK:=SK) p (m3_to_list X) (m3_to_list Y) = Ok w); rewrite PE; exact Ew|].
      split; [exact Fw|]. split; [|split; intros; exfalso; lra]. intros _. eapply near_v_mono; [|exact Nw]. lra.
    + destruct Hr as [[Hv _]|[Hp Hb]]; [lra|].
      destruct (em_log_f64 L HL HA p _ v f ltac:(lia) ltac:(lia) ltac:(lra) MB ltac:(lra) ltac:(lra) ltac:(lra)) as (w & Ew & Fw & Nw & Nw2). exists w. split; [apply RED; [lia|]; change (em_pseudoLog (SK:=SK) p (m3_to_list X) (m3_to_list Y) = Ok w); rewrite PE; exact Ew|].
      split; [exact Fw|]. split; [intros; exfalso; lra|]. split.
      * intros [_ H2]. eapply near_v_mono; [|apply Nw2; exact H2]. lra.
      * intros _. eapply near_v_mono; [|exact Nw]. apply Rmult_le_compat_r; [|lra]. apply Rlt_le, Rinv_0_lt_compat. lra.
  - destruct Hx as (q & -> & Fq & Sq). destruct Hy as (Fy & q' & EA & Ny). assert (q' = qval q) as -> by (apply qflat_inj; rewrite <- EA; destruct q; reflexivity). destruct W as (W1 & W2 & W3 & _).
    pose proof (near_len _ _ _ Ny) as Ly. change (length y = 4%nat) in Ly.
    destruct y as [|y0 [|y1 [|y2 [|y3 [|]]]]]; try discriminate Ly. set (Y := Q4 y0 y1 y2 y3).
    assert (QC : qcl Y (qprod (qval q) (expQ v)) e).
    { apply near_4 in Ny. repeat match goal with F : Forall isf (_ :: _) |- _ => let G := fresh in let F' := fresh in inversion F as [|? ? G F']; subst; clear F end. unfold qcl, cl, Y. cbn [qw qx qy qz]. tauto. }
    pose proof (eq_back_gen L q Y (expQ v) e He Fq ltac:(lra) (expQ_unit _) QC) as QB. destruct Hr as [Ht Hee].
    destruct (eq_log_f64 L HT p _ v (402 / 100 * e + 36 * u) ltac:(lia) ltac:(lia) Ht ltac:(lra) QB) as (w & Ew & Fw & Nw). split; [lia|]. exists w. split; [apply RED; [lia|]; destruct q; exact Ew|]. split; [exact Fw|]. eapply near_v_mono; [|exact Nw]. lra.
Qed.

(** ** Trees *)
Lemma tree_find (m : mfd f64) d e xs vs ys p : wf m -> 0 <= d <= 1 / 1000 -> 0 <= e <= 1 / 1000 -> Forall2 (fstray d) (leaves m) xs -> Forall2 (fun s v => length v = tangentDim s) (leaves m) vs -> Forall4 (ends e) (leaves m) xs vs ys -> Forall2 (range d e) (leaves m) vs ->
  length p = tangentDim m -> exists ws, pseudoLog (SK:=SK) m p (concat xs) (concat ys) = Ok (concat ws) /\ Forall3 (found d e) (leaves m) vs ws.
Proof.
  intros W Hd He Hx Lv Hy Hr Lp. destruct (cut_gen DT m p W Lp) as (ps & -> & Pp).
  pose proof (fstray_pieces _ _ _ W Hx) as Px. pose proof (fun s => leaf_inv_gen m s W) as G.
  assert (E : pieces DR (leaves m) ys /\ exists ws, Forall5 (fun s o x v r => pseudoLog (SK:=SK) s o x v = Ok r) (leaves m) ps xs ys ws /\ Forall3 (found d e) (leaves m) vs ws).
  { clear W Lp Px. revert G Hx Lv Hy Hr Pp. generalize (leaves m) as ls. intros ls. revert xs vs ys ps.
    induction ls as [|s ls IH]; intros xs vs ys ps G Hx Lv Hy Hr Pp.
    - inversion Hx; subst. inversion Lv; subst. inversion Hy; subst. inversion Pp; subst. split; [constructor|]. exists []. split; constructor.
    - inversion Hx as [|? x ? xs' Hx1 Hx2]; subst. inversion Lv as [|? v ? vs' Lv1 Lv2]; subst. inversion Hr as [|? ? ? ? Hr1 Hr2]; subst. inversion Pp as [|? q ? qs' Pp1 Pp2]; subst.
      inversion Hy as [|? ? ? y ? ? ? ys' Hy1 Hy2]; subst.
      destruct (IH xs' vs' ys' qs') as (A & ws & B & C); auto. { intros q0 Hq. apply G. simpl; auto. }
      destruct (G s) as (h & l & a & b & -> & Wl); [simpl; auto|].
      destruct (leaf_find h l a b d e x v q y Wl Hd He Hx1 Lv1 Pp1 Hy1 Hr1) as (Ly & w & E1 & E2).
      split; [constructor; auto|]. exists (w :: ws). split; constructor; auto. }
  destruct E as (Py & ws & F5 & F3). exists ws. split; [|exact F3].
  apply (flat_op DT DR DR pseudoLog pseudoLog_prod m W); auto. exists ws. auto.
Qed.
End Find.
