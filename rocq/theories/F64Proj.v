(** Projection on the tangent plane of the sphere in double arithmetic. *)
From Coq Require Import Reals List Lra Lia ZArith Bool Arith Psatz.
From Flocq Require Import Core BinarySingleNaN.
From Verif Require Import Base Scalar Vec Model_S2 F64 F64Err F64Norm F64S2 F64Gs XR SpecR RotR NumVec NumS2 F64Trans.
Import ListNotations.
Local Open Scope R_scope.

Lemma scale_mul S t : scale S -> 1 <= t -> t * S <= bpow radix2 900 -> scale (t * S).
Proof. intros [H1 H2] Ht HB. split; [|exact HB]. pose proof (bpow_gt_0 radix2 (-900)). nra. Qed.

(** One coordinate of v - c x. *)
Lemma proj_scaled c x v g S : scale S -> isf c -> isf x -> isf v -> Rabs (val c - g) <= 36 * (u * S) -> Rabs g <= 31 / 10 * S -> Rabs (val x) <= 101 / 100 -> Rabs (val v) <= S ->
  isf (v -! c *! x) /\ Rabs (val (v -! c *! x) - (val v - g * val x)) <= 50 * (u * S).
Proof.
  intros HS Fc Fx Fv Ec Hg Hx Hv. destruct (scale_eta S HS) as (S0 & T & B). pose proof u_pos as U.
  assert (US : 0 < u * S) by (apply Rmult_lt_0_compat; lra). assert (U1 : u <= 1 / 1000000) by (rewrite u_val; lra). assert (US1 : u * S <= 1 / 1000000 * S) by (apply Rmult_le_compat_r; lra).
  assert (D : Rabs (val c * val x - g * val x) <= 37 * (u * S)).
  { replace (val c * val x - g * val x) with ((val c - g) * val x) by ring. rewrite Rabs_mult.
    apply Rle_trans with (36 * (u * S) * (101 / 100)); [apply Rmult_le_compat; auto using Rabs_pos|lra]. }
  assert (G : Rabs (g * val x) <= 314 / 100 * S).
  { rewrite Rabs_mult. apply Rle_trans with (31 / 10 * S * (101 / 100)); [apply Rmult_le_compat; auto using Rabs_pos|lra]. }
  assert (M : Rabs (val c * val x) <= 32 / 10 * S).
  { replace (val c * val x) with ((val c * val x - g * val x) + g * val x) by ring. eapply Rle_trans; [apply Rabs_triang|]. lra. }
  destruct (f_mul c x Fc Fx) as [F V]; [lra|]. pose proof (rnd_err (val c * val x)) as E. rewrite <- V in E.
  assert (E' : u * Rabs (val c * val x) <= u * (32 / 10 * S)) by (apply Rmult_le_compat_l; lra).
  assert (E1 : Rabs (val (c *! x) - g * val x) <= 41 * (u * S)).
  { replace (val (c *! x) - g * val x) with ((val (c *! x) - val c * val x) + (val c * val x - g * val x)) by ring. eapply Rle_trans; [apply Rabs_triang|]. lra. }
  assert (M2 : Rabs (val v - val (c *! x)) <= 42 / 10 * S).
  { replace (val v - val (c *! x)) with (val v + - (g * val x) + - (val (c *! x) - g * val x)) by ring. eapply Rle_trans; [apply Rabs_triang|]. rewrite Rabs_Ropp.
    assert (Rabs (val v + - (g * val x)) <= S + 314 / 100 * S) by (eapply Rle_trans; [apply Rabs_triang|]; rewrite Rabs_Ropp; lra). lra. }
  destruct (f_sub v (c *! x) Fv F) as [F2 V2]; [lra|]. split; auto. pose proof (rnd_err (val v - val (c *! x))) as E2. rewrite <- V2 in E2.
  assert (E3 : u * Rabs (val v - val (c *! x)) <= u * (42 / 10 * S)) by (apply Rmult_le_compat_l; lra).
  replace (val (v -! c *! x) - (val v - g * val x)) with ((val (v -! c *! x) - (val v - val (c *! x))) + - (val (c *! x) - g * val x)) by ring.
  eapply Rle_trans; [apply Rabs_triang|]. rewrite Rabs_Ropp. lra.
Qed.

Section Leaf.
Variable L : libm.
Local Notation SK := (F64 L).
Lemma unit_entries x0 x1 x2 d : Rabs (sq3 x0 x1 x2 - 1) <= d -> d <= 1 / 1000 -> Rabs x0 <= 101 / 100 /\ Rabs x1 <= 101 / 100 /\ Rabs x2 <= 101 / 100.
Proof.
  intros H Hd. apply Rabs_ends in H. unfold sq3 in H. pose proof (Rle_0_sqr x0). pose proof (Rle_0_sqr x1). pose proof (Rle_0_sqr x2). unfold Rsqr in *.
  assert (XB : forall a, a * a <= 101 / 100 -> Rabs a <= 101 / 100) by (intros a Ha; apply Rabs_le; nra). repeat split; apply XB; lra.
Qed.
(** The computed projection against the exact one, and against the tangent test. *)
Lemma s2_proj64 x v d S : length x = 3%nat -> Forall isf x -> Rabs (rdot (map val x) (map val x) - 1) <= d -> d <= 1 / 1000 -> length v = 3%nat ->
  scale S -> 5 * S <= bpow radix2 900 -> Forall (fun a => isf a /\ Rabs (val a) <= S) v -> let X := map val x in let V := map val v in
  exists w, (forall out, length out = 3%nat -> s2_forceOnTxM (SK:=SK) out v x = Ok w) /\ length w = 3%nat /\
    Forall (fun a => isf a /\ Rabs (val a) <= 5 * S) w /\ near_v ((50 * u + 4 * d) * S) (map val w) (rsub V (rscal (rdot X V / rdot X X) X)) /\
    isf (dot (SK:=SK) x w) /\ Rabs (val (dot (SK:=SK) x w)) <= (340 * u + 4 * d) * S.
Proof.
  intros Lx Fx HX Hd Lv HS H5 Fv X V. destruct x as [|x0 [|x1 [|x2 [|]]]]; try discriminate Lx. destruct v as [|v0 [|v1 [|v2 [|]]]]; try discriminate Lv.
  inversion Fx as [|? ? F0 Fx1]; subst. inversion Fx1 as [|? ? F1 Fx2]; subst. inversion Fx2 as [|? ? F2 _]; subst.
  inversion Fv as [|? ? [G0 B0] Hv1]; subst. inversion Hv1 as [|? ? [G1 B1] Hv2]; subst. inversion Hv2 as [|? ? [G2 B2] _]; subst. clear Fx Fx1 Fx2 Fv Hv1 Hv2 Lx Lv.
  cbn [map rdot] in HX.
  assert (SX : Rabs (sq3 (val x0) (val x1) (val x2) - 1) <= d) by (unfold sq3; eapply Rle_trans; [|exact HX]; right; f_equal; ring). clear HX.
  assert (D0 : 0 <= d) by (pose proof (Rabs_pos (sq3 (val x0) (val x1) (val x2) - 1)); lra).
  destruct (unit_entries _ _ _ _ SX Hd) as (X0 & X1 & X2).
  destruct (scale_eta S HS) as (S0 & T & B). pose proof u_pos as U. assert (US : 0 < u * S) by (apply Rmult_lt_0_compat; lra).
  assert (U1 : u <= 1 / 1000000) by (rewrite u_val; lra). assert (US1 : u * S <= 1 / 1000000 * S) by (apply Rmult_le_compat_r; lra).
  destruct (dot_scaled L x0 x1 x2 v0 v1 v2 (val x0) (val x1) (val x2) 0 S HS) as [Fc Ec]; auto using app_exact; try lra.
  set (c := sum3 L (x0 *! v0) (x1 *! v1) (x2 *! v2)) in *. set (g := val x0 * val v0 + val x1 * val v1 + val x2 * val v2) in *.
  assert (Pr : forall a b, Rabs a <= 101 / 100 -> Rabs b <= S -> Rabs (a * b) <= 101 / 100 * S) by (intros; rewrite Rabs_mult; apply Rmult_le_compat; auto using Rabs_pos).
  assert (Hg : Rabs g <= 31 / 10 * S).
  { unfold g. pose proof (Pr _ _ X0 B0). pose proof (Pr _ _ X1 B1). pose proof (Pr _ _ X2 B2). eapply Rle_trans; [apply Rabs_triang|].
    assert (Rabs (val x0 * val v0 + val x1 * val v1) <= 101 / 100 * S + 101 / 100 * S) by (eapply Rle_trans; [apply Rabs_triang|]; lra). lra. }
  assert (Ec' : Rabs (val c - g) <= 36 * (u * S)) by lra.
  destruct (proj_scaled c x0 v0 g S HS Fc F0 G0 Ec' Hg X0 B0) as [W0 E0]. destruct (proj_scaled c x1 v1 g S HS Fc F1 G1 Ec' Hg X1 B1) as [W1 E1].
  destruct (proj_scaled c x2 v2 g S HS Fc F2 G2 Ec' Hg X2 B2) as [W2 E2].
  set (w0 := v0 -! c *! x0) in *. set (w1 := v1 -! c *! x1) in *. set (w2 := v2 -! c *! x2) in *.
  exists [w0; w1; w2]. split; [|split; [reflexivity|]].
  { intros out Lo. unfold s2_forceOnTxM, same_size, assign. cbn [List.length Nat.eqb eigen_assert bind]. cbn [dot map2 ksum vscale vsub map map2 kadd kmul ksub F64 List.length]. rewrite Lo. reflexivity. }
  set (N := sq3 (val x0) (val x1) (val x2)) in *. apply Rabs_ends in SX.
  assert (GX : forall a, Rabs a <= 101 / 100 -> Rabs (g * a) <= 314 / 100 * S).
  { intros a Ha. rewrite Rabs_mult. apply Rle_trans with (31 / 10 * S * (101 / 100)); [apply Rmult_le_compat; auto using Rabs_pos|lra]. }
  assert (Bw : forall w v x, Rabs (val w - (val v - g * val x)) <= 50 * (u * S) -> Rabs (val x) <= 101 / 100 -> Rabs (val v) <= S -> Rabs (val w) <= 5 * S).
  { intros w v x E Hx Hv. pose proof (GX _ Hx) as Hgx. apply Rabs_ends in E, Hv, Hgx. apply Rabs_le. lra. }
  pose proof (Bw _ _ _ E0 X0 B0) as C0. pose proof (Bw _ _ _ E1 X1 B1) as C1. pose proof (Bw _ _ _ E2 X2 B2) as C2.
  split; [repeat (constructor; [split; assumption|]); constructor|]. split.
  - assert (EX : rdot X X = N) by (unfold X, N, sq3; cbn [map rdot]; ring). assert (EG : rdot X V = g) by (unfold X, V, g; cbn [map rdot]; ring). rewrite EX, EG.
    assert (R : forall w v x, Rabs (val w - (val v - g * val x)) <= 50 * (u * S) -> Rabs (val x) <= 101 / 100 -> Rabs (val w - (val v - g / N * val x)) <= (50 * u + 4 * d) * S).
    { intros w v x E Hx. replace (val w - (val v - g / N * val x)) with ((val w - (val v - g * val x)) + (1 - N) * / N * (g * val x)) by (field; lra).
      eapply Rle_trans; [apply Rabs_triang|]. pose proof (GX _ Hx) as Hgx.
      assert (I : Rabs ((1 - N) * / N) <= 11 / 10 * d).
      { rewrite Rabs_mult. rewrite (Rabs_pos_eq (/ N)) by (left; apply Rinv_0_lt_compat; lra). assert (/ N <= 11 / 10) by (replace (11 / 10) with (/ (10 / 11)) by field; apply Rinv_le_contravar; lra).
        assert (0 < / N) by (apply Rinv_0_lt_compat; lra). assert (Rabs (1 - N) <= d) by (apply Rabs_le; lra). replace (11 / 10 * d) with (d * (11 / 10)) by ring. apply Rmult_le_compat; auto using Rabs_pos; lra. }
      assert (Rabs ((1 - N) * / N * (g * val x)) <= 11 / 10 * d * (314 / 100 * S)) by (rewrite Rabs_mult; apply Rmult_le_compat; auto using Rabs_pos).
      assert (0 <= d * S) by (apply Rmult_le_pos; lra). lra. }
    unfold V, X, rsub, rscal. cbn [map combine fst snd]. repeat (apply Forall2_cons; [apply R; assumption|]). apply Forall2_nil.
  - destruct (dot_scaled L x0 x1 x2 w0 w1 w2 (val x0) (val x1) (val x2) 0 (5 * S) (scale_mul S 5 HS ltac:(lra) H5)) as [Fd Ed]; auto using app_exact; try lra.
    cbn [dot map2 ksum kadd kmul F64]. split; [exact Fd|].
    assert (Z : forall w v x, Rabs (val w - (val v - g * val x)) <= 50 * (u * S) -> Rabs (val x) <= 101 / 100 -> Rabs (val x * (val w - (val v - g * val x))) <= 51 * (u * S)).
    { intros w v x E Hx. rewrite Rabs_mult. apply Rle_trans with (101 / 100 * (50 * (u * S))); [apply Rmult_le_compat; auto using Rabs_pos|lra]. }
    pose proof (Z _ _ _ E0 X0) as Z0. pose proof (Z _ _ _ E1 X1) as Z1. pose proof (Z _ _ _ E2 X2) as Z2.
    assert (ES : val x0 * val w0 + val x1 * val w1 + val x2 * val w2 = val x0 * (val w0 - (val v0 - g * val x0)) + val x1 * (val w1 - (val v1 - g * val x1)) + val x2 * (val w2 - (val v2 - g * val x2)) + g * (1 - N)) by (unfold g, N, sq3; ring).
    assert (GN : Rabs (g * (1 - N)) <= 31 / 10 * S * d) by (rewrite Rabs_mult; apply Rmult_le_compat; auto using Rabs_pos; apply Rabs_le; lra).
    assert (0 <= d * S) by (apply Rmult_le_pos; lra).
    apply Rabs_ends in Ed, Z0, Z1, Z2, GN. apply Rabs_le. rewrite ES in Ed. lra.
Qed.
(** Small enough vectors pass the tangent test after the projection. *)
Lemma s2_proj_pass x w e : isf (dot (SK:=SK) x w) -> Rabs (val (dot (SK:=SK) x w)) <= e -> e < 9 / 10 ^ 9 -> s2_isInTxM (SK:=SK) x w (lit8 L) = true.
Proof.
  intros F H He. unfold s2_isInTxM. change (kltb (Scalar:=SK)) with (@Bltb 53 1024). destruct (lit8_ok L) as [Fl [L1 L2]].
  destruct (f_abs _ F) as [FA VA]. change (kabs (Scalar:=SK)) with (@Babs 53 1024). rewrite f_ltb by auto. apply Rlt_bool_true. rewrite VA. cbn [pow] in He. clear VA FA. eapply Rle_lt_trans; [exact H|]. lra.
Qed.
End Leaf.
