(** forceOnM in double arithmetic, leaf by leaf. *)
From Coq Require Import Reals List Lra Lia ZArith Bool Arith Psatz Permutation.
From Flocq Require Import Core BinarySingleNaN.
From Verif Require Import Base Scalar Vec Model_Real Model_S2 Model_SO3 Model_Manifold Spec Layout Comp Indep Flat Points
  XR SpecR RotR NumVec NumTree NumS2 Drift Force F64 F64Err F64Norm F64S2 F64Exp F64Quat F64Mat F64Mat2 F64Tree F64Gs.
Import ListNotations.
Local Open Scope R_scope.

(** The loop, cut into its vectors; any scalar, so that nothing below computes on doubles. *)
Section AnyK.
Context {K : Type} {SK : Scalar K}.
Definition em_okb (M : m3 K) : bool := (m3_isApprox (m3_mul (m3_trans M) M) m3_id (klit 1 10) && (kabs (m3_det M - k1) <? klit 1 10)%k)%bool.
Definition gq0 (M : m3 K) := vdivs (col0 M) (norm (col0 M)).
Definition gb1 (M : m3 K) := vsub (col1 M) (map (fun q => (q * dot (gq0 M) (col1 M))%k) (gq0 M)).
Definition gc1 (M : m3 K) := vsub (col2 M) (map (fun q => (q * dot (gq0 M) (col2 M))%k) (gq0 M)).
Definition gq1 (M : m3 K) := vdivs (gb1 M) (norm (gb1 M)).
Definition gc2 (M : m3 K) := vsub (gc1 M) (map (fun q => (q * dot (gq1 M) (gc1 M))%k) (gq1 M)).
Definition gq2 (M : m3 K) := vdivs (gc2 M) (norm (gc2 M)).
Lemma em_force_unfold out M : em_forceOnM out (m3_to_list M) = (_ <- mnf_assert (em_okb M) ;; raw_write out (gq0 M ++ gq1 M ++ gq2 M)).
Proof. destruct M. reflexivity. Qed.
Lemma em_force_ok out M y : em_forceOnM out (m3_to_list M) = Ok y -> em_okb M = true /\ raw_write out (gq0 M ++ gq1 M ++ gq2 M) = Ok y.
Proof. rewrite em_force_unfold. destruct (em_okb M); cbn [mnf_assert bind]; [auto|discriminate]. Qed.
Lemma em_okb_eq M : em_okb M = (m3_isApprox (m3_mul (m3_trans M) M) m3_id (klit 1 10) && (kabs (m3_det M - k1) <? klit 1 10)%k)%bool.
Proof. reflexivity. Qed.
End AnyK.
Lemma write9 {A} (out : list A) y y0 y1 y2 y3 y4 y5 y6 y7 y8 : length out = 9%nat -> raw_write out ([y0; y1; y2] ++ [y3; y4; y5] ++ [y6; y7; y8]) = Ok y -> y = [y0; y1; y2; y3; y4; y5; y6; y7; y8].
Proof. intros Lo H. destruct out as [|o0 [|o1 [|o2 [|o3 [|o4 [|o5 [|o6 [|o7 [|o8 [|]]]]]]]]]]; try discriminate Lo. cbn [List.app raw_write List.length Nat.leb ub_unless bind skipn] in H. apply ok_eq in H. exact H. Qed.
(** Any order of summation. *)
Fixpoint rsum (l : list R) : R := match l with [] => 0 | a :: l' => a + rsum l' end.
Lemma rsum_app l m : rsum (l ++ m) = rsum l + rsum m.
Proof. induction l as [|a l IH]; cbn [rsum List.app]; lra. Qed.
Lemma rsum_perm l m : Permutation l m -> rsum l = rsum m.
Proof. induction 1; cbn [rsum]; lra. Qed.
Lemma rsum_bound M l : Forall (fun a => Rabs a <= M) l -> Rabs (rsum l) <= INR (length l) * M.
Proof.
  induction 1 as [|a l H _ IH]; [cbn [rsum length INR]; rewrite Rabs_R0; lra|]. change (length (a :: l)) with (S (length l)). rewrite S_INR. cbn [rsum]. eapply Rle_trans; [apply Rabs_triang|]. lra.
Qed.
Lemma sums_app l s : sums l s -> forall k M (ps : list (f64 * R)), Permutation l (map fst ps) -> Forall (fun p => app (fst p) (snd p) k /\ Rabs (snd p) <= M) ps ->
  INR (length ps) <= 9 -> 0 <= k -> 0 <= M -> 9 * k + 8 * (9 * M + 1 / 100) <= 1000 ->
  app s (rsum (map snd ps)) (INR (length ps) * k + (INR (length ps) - 1) * (9 * M + 1 / 100)).
Proof.
  induction 1 as [a|l1 l2 l a b H1 I1 H2 I2 P]; intros k M ps Q F N K0 M0 B.
  - pose proof (Permutation_length Q) as Np. rewrite map_length in Np. destruct ps as [|[t r] [|]]; try discriminate Np. apply Permutation_length_1 in Q. cbn [fst] in Q. subst a.
    inversion F as [|? ? [A _] _]; subst. cbn [fst snd map rsum length INR] in *. eapply app_eq; [eapply app_weak; [exact A|lra]|ring].
  - destruct (Permutation_map_inv _ _ (Permutation_trans P Q)) as (m & E & Pm). symmetry in E. apply map_eq_app in E as (m1 & m2 & -> & E1 & E2). subst l1 l2.
    pose proof (Permutation_Forall Pm F) as F'. apply Forall_app in F' as [F1 F2]. pose proof (sums_length _ _ H1) as N1. pose proof (sums_length _ _ H2) as N2. rewrite map_length in N1, N2.
    apply (le_INR 1) in N1, N2. change (INR 1) with 1 in *. rewrite (Permutation_length Pm), app_length, plus_INR in *. rewrite (rsum_perm _ _ (Permutation_map snd Pm)), map_app, rsum_app.
    pose proof (I1 k M m1 (Permutation_refl _) F1 ltac:(lra) K0 M0 B) as A1. pose proof (I2 k M m2 (Permutation_refl _) F2 ltac:(lra) K0 M0 B) as A2.
    set (x := INR (length m1)) in *. set (y := INR (length m2)) in *. set (c := 9 * M + 1 / 100) in *.
    assert (BM : Rabs (rsum (map snd m1) + rsum (map snd m2)) <= 9 * M).
    { rewrite <- rsum_app, <- map_app. eapply Rle_trans; [apply (rsum_bound M)|].
      - apply Forall_map. apply Forall_app. split; [eapply Forall_impl; [|exact F1]|eapply Forall_impl; [|exact F2]]; intros p [_ Hp]; exact Hp.
      - rewrite map_length, app_length, plus_INR. fold x y. apply Rmult_le_compat_r; lra. }
    assert (c0 : 0 <= c) by (unfold c; lra).
    assert (T : forall z, 1 <= z <= 9 -> 0 <= z * k + (z - 1) * c <= 1000).
    { intros z Hz. split; [apply Rplus_le_le_0_compat; apply Rmult_le_pos; lra|]. assert (z * k <= 9 * k) by (apply Rmult_le_compat_r; lra). assert ((z - 1) * c <= 8 * c) by (apply Rmult_le_compat_r; lra). lra. }
    pose proof (T x ltac:(lra)). pose proof (T y ltac:(lra)). assert (9 * M <= 1000) by (unfold c in B; lra).
    eapply app_weak; [apply (app_addP _ _ _ _ _ _ (9 * M) A1 A2 BM); lra|]. unfold c. lra.
Qed.
Section Leaves.
Variable L : libm.
Local Notation SK := (F64 L).
#[local] Hint Extern 0 (Scalar f64) => exact (F64 L) : typeclass_instances.

(** ** Rotation matrices *)
Lemma col_exact a b c : isf a -> isf b -> isf c -> v3 [a; b; c] [val a; val b; val c] 0.
Proof. intros. exists a, b, c, (val a), (val b), (val c). split; [auto|]. split; [auto|]. auto using app_exact. Qed.
Lemma gs_forward X : mfin X -> near17 (mval X) -> let a := rc0 (mval X) in let b := rc1 (mval X) in let c := rc2 (mval X) in
  v3 (gq0 (SK:=SK) X) (normed a) 4 /\ v3 (gq1 (SK:=SK) X) (normed (gsB a b)) 124 /\ v3 (gq2 (SK:=SK) X) (normed (gsC a b c)) 2720.
Proof.
  intros FX NX.
  pose proof (gs_facts _ NX) as G. intros a0 b0 c0. cbv zeta in G. destruct G as (Dp & GA & GB & GC & Gc' & R01 & R02 & R12 & Gb & Gc).
  destruct FX as (F00 & F01 & F02 & F10 & F11 & F12 & F20 & F21 & F22). 
  pose proof (col_exact _ _ _ F00 F10 F20) as V0. pose proof (col_exact _ _ _ F01 F11 F21) as V1. pose proof (col_exact _ _ _ F02 F12 F22) as V2.
  change [val (a00 X); val (a10 X); val (a20 X)] with (rc0 (mval X)) in V0. change [val (a01 X); val (a11 X); val (a21 X)] with (rc1 (mval X)) in V1. change [val (a02 X); val (a12 X); val (a22 X)] with (rc2 (mval X)) in V2.
  fold (col0 X) in V0. fold (col1 X) in V1. fold (col2 X) in V2.
  set (a := rc0 (mval X)) in *. set (b := rc1 (mval X)) in *. set (c := rc2 (mval X)) in *. subst a0 b0 c0.
  assert (La : length a = 3%nat) by reflexivity. assert (Lb : length b = 3%nat) by reflexivity. assert (Lc : length c = 3%nat) by reflexivity.
  clearbody a b c. clear F00 F01 F02 F10 F11 F12 F20 F21 F22 NX Dp.
  assert (Bd : forall x, length x = 3%nat -> rdot x x <= 6 / 5 -> le3 x (11 / 10)) by (intros; apply le3_norm; auto; lra).
  assert (Bq : forall x, length x = 3%nat -> 1 / 2 <= rdot x x -> le3 (normed x) 1). { intros x Lx Hx. apply le3_norm; [rewrite normed_length; auto|lra|]. pose proof (unit_normal x ltac:(lra)) as Un. unfold normed. rewrite Un. lra. }
  (* column 0 *)
  pose proof (norm_app L (col0 X) a 0 V0 ltac:(lra) ltac:(lra)) as Q0. fold (gq0 (SK:=SK) X) in Q0. replace (4 * 0 + 4) with 4 in Q0 by ring.
  pose proof (dot_app L (gq0 (SK:=SK) X) (normed a) 4 (col1 X) b 0 Q0 V1 (Bq a La (proj1 GA)) (Bd b Lb Gb) ltac:(lra) ltac:(lra)) as D01.
  pose proof (axpy_app L (gq0 (SK:=SK) X) (normed a) 4 _ _ _ (col1 X) b 0 Q0 (Bq a La (proj1 GA)) D01 R01 V1 (Bd b Lb Gb) ltac:(lra) ltac:(lra) ltac:(lra)) as B1. fold (gsB a b) in B1. fold (gb1 (SK:=SK) X) in B1.
  pose proof (dot_app L (gq0 (SK:=SK) X) (normed a) 4 (col2 X) c 0 Q0 V2 (Bq a La (proj1 GA)) (Bd c Lc Gc) ltac:(lra) ltac:(lra)) as D02.
  pose proof (axpy_app L (gq0 (SK:=SK) X) (normed a) 4 _ _ _ (col2 X) c 0 Q0 (Bq a La (proj1 GA)) D02 R02 V2 (Bd c Lc Gc) ltac:(lra) ltac:(lra) ltac:(lra)) as C1. fold (gsB a c) in C1. fold (gc1 (SK:=SK) X) in C1.
  apply (v3_weak _ _ _ 30) in B1; [|lra]. apply (v3_weak _ _ _ 30) in C1; [|lra].
  (* column 1 *)
  pose proof (norm_app L (gb1 (SK:=SK) X) _ 30 B1 ltac:(lra) ltac:(lra)) as Q1. fold (gq1 (SK:=SK) X) in Q1. replace (4 * 30 + 4) with 124 in Q1 by ring.
  assert (LB : length (gsB a b) = 3%nat) by (apply gsB_length; auto). assert (LC : length (gsB a c) = 3%nat) by (apply gsB_length; auto). assert (LCC : length (gsC a b c) = 3%nat) by (apply gsC_length; auto).
  pose proof (dot_app L (gq1 (SK:=SK) X) _ 124 (gc1 (SK:=SK) X) _ 30 Q1 C1 (Bq _ LB (proj1 GB)) (Bd _ LC Gc') ltac:(lra) ltac:(lra)) as D12.
  pose proof (axpy_app L (gq1 (SK:=SK) X) _ 124 _ _ _ (gc1 (SK:=SK) X) _ 30 Q1 (Bq _ LB (proj1 GB)) D12 R12 C1 (Bd _ LC Gc') ltac:(lra) ltac:(lra) ltac:(lra)) as C2.
  change (rsub (gsB a c) (rscal (rdot (normed (gsB a b)) (gsB a c)) (normed (gsB a b)))) with (gsC a b c) in C2. fold (gc2 (SK:=SK) X) in C2. apply (v3_weak _ _ _ 679) in C2; [|lra].
  (* column 2 *)
  pose proof (norm_app L (gc2 (SK:=SK) X) _ 679 C2 ltac:(lra) ltac:(lra)) as Q2. fold (gq2 (SK:=SK) X) in Q2. replace (4 * 679 + 4) with 2720 in Q2 by ring.
  split; [exact Q0|]. split; [exact Q1|exact Q2].
Qed.
Lemma em_okb_test X : em_okb (SK:=SK) X = true -> mfin X /\ mbound (11 / 10) X /\ near17 (mval X).
Proof. rewrite em_okb_eq. exact (em_test L X). Qed.
Lemma gs_pack (v0 v1 v2 a b c : list _) (out y : list f64) : length out = 9%nat -> v3 v0 a 2720 -> v3 v1 b 2720 -> v3 v2 c 2720 -> rot (colsm a b c) ->
  raw_write out (v0 ++ v1 ++ v2) = Ok y -> exists Y, y = m3_to_list Y /\ mapp Y (colsm a b c) 2720 /\ stretch (27200 * u) (mval Y).
Proof.
  intros Lo Q0 Q1 Q2 Rt H.
  destruct Q0 as (y0 & y1 & y2 & q0 & q1 & q2 & I0 & E0 & P0 & P1 & P2). destruct Q1 as (y3 & y4 & y5 & q3 & q4 & q5 & I1 & E1 & P3 & P4 & P5). destruct Q2 as (y6 & y7 & y8 & q6 & q7 & q8 & I2 & E2 & P6 & P7 & P8).
  subst. exists (M3 y0 y3 y6 y1 y4 y7 y2 y5 y8). split; [exact (write9 _ _ _ _ _ _ _ _ _ _ _ Lo H)|].
  assert (M : mapp (M3 y0 y3 y6 y1 y4 y7 y2 y5 y8) (colsm [q0; q1; q2] [q3; q4; q5] [q6; q7; q8]) 2720) by (unfold mapp, colsm; cbn [a00 a01 a02 a10 a11 a12 a20 a21 a22 nth]; tauto). split; [exact M|].
  apply mapp_close in M as [_ MC]. apply stretch_rot in Rt. assert (U1 : u <= 1 / 10 ^ 15) by (rewrite u_val; lra). pose proof u_pos.
  eapply stretch_mono; [|apply (stretch_pert _ _ 0 (2720 * u) Rt); auto; lra]. lra.
Qed.
Lemma em_force64 X out y : length out = 9%nat -> em_forceOnM (SK:=SK) out (m3_to_list X) = Ok y ->
  mfin X /\ near17 (mval X) /\ exists Y, y = m3_to_list Y /\ mapp Y (gs (mval X)) 2720 /\ stretch (27200 * u) (mval Y).
Proof.
  intros Lo H. apply em_force_ok in H as [T H]. apply em_okb_test in T as (FX & BX & NX). split; [exact FX|]. split; [exact NX|].
  destruct (gs_forward X FX NX) as (Q0 & Q1 & Q2). destruct (gs_facts _ NX) as (Dp & _). pose proof (gs_rot (mval X) Dp) as Rt. unfold gs in *.
  apply (v3_weak _ _ _ 2720) in Q0; [|lra]. apply (v3_weak _ _ _ 2720) in Q1; [|lra]. exact (gs_pack _ _ _ _ _ _ out y Lo Q0 Q1 Q2 Rt H).
Qed.

(** Points within 1e-3 pass the test. *)
Definition rsq9 (A : m3 R) : R := a00 A * a00 A + a10 A * a10 A + a20 A * a20 A + a01 A * a01 A + a11 A * a11 A + a21 A * a21 A + a02 A * a02 A + a12 A * a12 A + a22 A * a22 A.
Lemma sq9_app D A : mapp D A 10 -> (Rabs (a00 A) <= 1002 / 1000 /\ Rabs (a10 A) <= 1002 / 1000 /\ Rabs (a20 A) <= 1002 / 1000) /\
  (Rabs (a01 A) <= 1002 / 1000 /\ Rabs (a11 A) <= 1002 / 1000 /\ Rabs (a21 A) <= 1002 / 1000) /\ (Rabs (a02 A) <= 1002 / 1000 /\ Rabs (a12 A) <= 1002 / 1000 /\ Rabs (a22 A) <= 1002 / 1000) ->
  app (m3_sqsum (SK:=SK) D) (rsq9 A) 300.
Proof.
  destruct D as [d0 d1 d2 d3 d4 d5 d6 d7 d8]. destruct A as [r0 r1 r2 r3 r4 r5 r6 r7 r8]. unfold mapp, rsq9, m3_sqsum, sqnorm, m3_to_list. cbn [a00 a01 a02 a10 a11 a12 a20 a21 a22 dot map2 ksum kadd kmul F64].
  intros (A0 & A1 & A2 & A3 & A4 & A5 & A6 & A7 & A8) ((B0 & B3 & B6) & (B1 & B4 & B7) & (B2 & B5 & B8)).
  assert (S : forall t r, app t r 10 -> Rabs r <= 1002 / 1000 -> app (t *! t) (r * r) 22 /\ 0 <= r * r <= 1005 / 1000).
  { intros t r Ht Hr. pose proof (abs_prod _ _ _ _ Hr Hr) as P. split. { eapply app_weak; [apply (app_mulP _ _ _ _ _ _ (1002 / 1000) (1002 / 1000) (1005 / 1000) Ht Ht); lra|lra]. }
    apply Rabs_ends in P. split; [nra|lra]. }
  destruct (S _ _ A0 B0) as [S0 P0]. destruct (S _ _ A1 B1) as [S1 P1]. destruct (S _ _ A2 B2) as [S2 P2]. destruct (S _ _ A3 B3) as [S3 P3]. destruct (S _ _ A4 B4) as [S4 P4].
  destruct (S _ _ A5 B5) as [S5 P5]. destruct (S _ _ A6 B6) as [S6 P6]. destruct (S _ _ A7 B7) as [S7 P7]. destruct (S _ _ A8 B8) as [S8 P8].
  eapply app_eq; [eapply app_weak; [eapply (sums_app _ _ (f_sum_ok L (_ :: _) ltac:(discriminate)) 22 (1005 / 1000)
    [(d0 *! d0, r0 * r0); (d3 *! d3, r3 * r3); (d6 *! d6, r6 * r6); (d1 *! d1, r1 * r1); (d4 *! d4, r4 * r4); (d7 *! d7, r7 * r7); (d2 *! d2, r2 * r2); (d5 *! d5, r5 * r5); (d8 *! d8, r8 * r8)]); [apply Permutation_refl|..]|]|]; try (cbn [length INR]; lra).
  - repeat (apply Forall_cons; [cbn [fst snd]; split; [assumption|rewrite Rabs_pos_eq; lra]|]). apply Forall_nil.
  - cbn [map snd rsum]. ring.
Qed.

Lemma gram_eq0 x0 x1 x2 x3 x4 x5 x6 x7 x8 : m3_mul (SK:=SK) (m3_trans (M3 x0 x1 x2 x3 x4 x5 x6 x7 x8)) (M3 x0 x1 x2 x3 x4 x5 x6 x7 x8) =
  M3 (s3 (SK:=SK) x0 x0 x3 x3 x6 x6) (s3 (SK:=SK) x0 x1 x3 x4 x6 x7) (s3 (SK:=SK) x0 x2 x3 x5 x6 x8)
     (s3 (SK:=SK) x1 x0 x4 x3 x7 x6) (s3 (SK:=SK) x1 x1 x4 x4 x7 x7) (s3 (SK:=SK) x1 x2 x4 x5 x7 x8)
     (s3 (SK:=SK) x2 x0 x5 x3 x8 x6) (s3 (SK:=SK) x2 x1 x5 x4 x8 x7) (s3 (SK:=SK) x2 x2 x5 x5 x8 x8).
Proof. reflexivity. Qed.
Lemma zero_app : app (of_Z 0) 0 0.
Proof. destruct (of_Z_ok 0 eq_refl) as [F V]. rewrite <- V. apply app_exact. exact F. Qed.
Lemma approx_accept (D G : m3 f64) rD rG : app (m3_sqsum (SK:=SK) D) rD 300 -> app (m3_sqsum (SK:=SK) G) rG 300 -> 0 <= rD <= 1 / 10000 -> 29 / 10 <= rG <= 31 / 10 ->
  (m3_sqsum (SK:=SK) D <=? lit1 L * lit1 L * kmin (H:=SK) (m3_sqsum (SK:=SK) G) (m3_sqsum (SK:=SK) (m3_id (SK:=SK))))%k = true.
Proof.
  intros AD AG BD BG. rewrite sqsum_id. set (X := m3_sqsum D) in *. set (A := m3_sqsum G) in *. clearbody X A. destruct AD as [FX EX]. destruct AG as [FA EA].
  destruct (lit1_sq L) as [Fp Vp]. unfold kmin. cbn [kleb kltb kmul F64]. destruct (of_Z_ok 3 eq_refl) as [F3 V3]. set (l2 := lit1 L *! lit1 L) in *. clearbody l2.
  pose proof eta_u. assert (u <= 1 / 10 ^ 15) by (rewrite u_val; lra). pose proof u_pos. pose proof big_1. apply Rabs_ends in EX, EA. cbn [pow] in *.
  assert (G3 : forall a, isf a -> 28 / 10 <= val a <= 32 / 10 -> Bleb X (l2 *! a) = true).
  { intros a Fa Va. assert (P : 27 / 1000 <= val l2 * val a <= 33 / 1000) by (split; [eapply Rle_trans; [|apply (Rmult_le_compat (9999 / 1000000) _ (28 / 10)); lra]; lra|eapply Rle_trans; [apply (Rmult_le_compat _ (10001 / 1000000) _ (32 / 10)); lra|lra]]).
    destruct (f_mul l2 a Fp Fa) as [Fm Vm]; [apply Rabs_le; lra|]. rewrite f_leb by auto. apply Rle_bool_true.
    pose proof (rnd_err (val l2 * val a)) as E. rewrite <- Vm in E. rewrite (Rabs_pos_eq (_ * _)) in E by lra. apply Rabs_ends in E.
    assert (u * (val l2 * val a) <= 1 / 1000 * 1). { apply Rmult_le_compat; lra. } lra. }
  destruct (Bltb (of_Z 3) A) eqn:E; apply G3; auto; try rewrite V3; lra.
Qed.
Lemma em_accept X d : mfin X -> stretch d (mval X) -> d <= 1 / 1000 -> em_okb (SK:=SK) X = true.
Proof.
  intros FX SX Hd.
  assert (S3 : stretch (1 / 1000) (mval X)) by (eapply stretch_mono; [|exact SX]; lra).
  pose proof (stretch_near _ _ S3) as (G0 & G1 & G2 & G3 & G4 & G5 & G6 & G7 & G8 & G9). rewrite em_okb_eq, approx_eq, dett_eq. apply andb_true_intro. split.
  - destruct (stretch_entries _ _ S3 ltac:(lra)) as ((X00 & X10 & X20) & (X01 & X11 & X21) & (X02 & X12 & X22)).
    destruct FX as (F00 & F01 & F02 & F10 & F11 & F12 & F20 & F21 & F22). destruct X as [x0 x1 x2 x3 x4 x5 x6 x7 x8].
    unfold mval in X00, X01, X02, X10, X11, X12, X20, X21, X22. cbn [a00 a01 a02 a10 a11 a12 a20 a21 a22] in X00, X01, X02, X10, X11, X12, X20, X21, X22, F00, F01, F02, F10, F11, F12, F20, F21, F22.
    assert (S : forall a b c d' e f, isf a -> isf b -> isf c -> isf d' -> isf e -> isf f -> Rabs (val a) <= 1001 / 1000 -> Rabs (val b) <= 1001 / 1000 -> Rabs (val c) <= 1001 / 1000 ->
      Rabs (val d') <= 1001 / 1000 -> Rabs (val e) <= 1001 / 1000 -> Rabs (val f) <= 1001 / 1000 -> app (s3 (SK:=SK) a b c d' e f) (val a * val b + val c * val d' + val e * val f) (83 / 10)).
    { intros. eapply app_weak; [apply (s3_app L) with (k := 0); auto using app_exact; lra|lra]. }
    unfold mval, rmul, rtr in G0, G1, G2, G3, G4, G5, G6, G7, G8. cbn [a00 a01 a02 a10 a11 a12 a20 a21 a22] in G0, G1, G2, G3, G4, G5, G6, G7, G8.
    assert (AO : forall g r, app g r (83 / 10) -> Rabs (r - 1) <= 1 / 1000 -> app (g -! of_Z 1) (r - 1) 10).
    { intros g r Hg Hr. eapply app_weak; [apply (app_subP _ _ _ _ _ _ (1 / 1000) Hg one_app); auto; lra|lra]. }
    assert (AZ : forall g r, app g r (83 / 10) -> Rabs r <= 1 / 1000 -> app (g -! of_Z 0) r 10).
    { intros g r Hg Hr. replace r with (r - 0) by ring. eapply app_weak; [apply (app_subP _ _ _ _ _ _ (1 / 1000) Hg zero_app); try lra; replace (r - 0) with r by ring; auto|lra]. }
    pose proof (S x0 x0 x3 x3 x6 x6 F00 F00 F10 F10 F20 F20 X00 X00 X10 X10 X20 X20) as g00.
    pose proof (S x0 x1 x3 x4 x6 x7 F00 F01 F10 F11 F20 F21 X00 X01 X10 X11 X20 X21) as g01.
    pose proof (S x0 x2 x3 x5 x6 x8 F00 F02 F10 F12 F20 F22 X00 X02 X10 X12 X20 X22) as g02.
    pose proof (S x1 x0 x4 x3 x7 x6 F01 F00 F11 F10 F21 F20 X01 X00 X11 X10 X21 X20) as g10.
    pose proof (S x1 x1 x4 x4 x7 x7 F01 F01 F11 F11 F21 F21 X01 X01 X11 X11 X21 X21) as g11.
    pose proof (S x1 x2 x4 x5 x7 x8 F01 F02 F11 F12 F21 F22 X01 X02 X11 X12 X21 X22) as g12.
    pose proof (S x2 x0 x5 x3 x8 x6 F02 F00 F12 F10 F22 F20 X02 X00 X12 X10 X22 X20) as g20.
    pose proof (S x2 x1 x5 x4 x8 x7 F02 F01 F12 F11 F22 F21 X02 X01 X12 X11 X22 X21) as g21.
    pose proof (S x2 x2 x5 x5 x8 x8 F02 F02 F12 F12 F22 F22 X02 X02 X12 X12 X22 X22) as g22. clear S.
    rewrite gram_eq.
    set (r00 := val x0 * val x0 + _ + _) in *. set (r11 := val x1 * val x1 + _ + _) in *. set (r22 := val x2 * val x2 + _ + _) in *.
    set (r01 := val x0 * val x1 + _ + _) in *. set (r02 := val x0 * val x2 + _ + _) in *. set (r10 := val x1 * val x0 + _ + _) in *. set (r12 := val x1 * val x2 + _ + _) in *. set (r20 := val x2 * val x0 + _ + _) in *. set (r21 := val x2 * val x1 + _ + _) in *.
    rewrite gram_eq0. 
    set (h00 := s3 x0 x0 x3 x3 x6 x6) in *. set (h01 := s3 x0 x1 x3 x4 x6 x7) in *. set (h02 := s3 x0 x2 x3 x5 x6 x8) in *. set (h10 := s3 x1 x0 x4 x3 x7 x6) in *. set (h11 := s3 x1 x1 x4 x4 x7 x7) in *. set (h12 := s3 x1 x2 x4 x5 x7 x8) in *.
    set (h20 := s3 x2 x0 x5 x3 x8 x6) in *. set (h21 := s3 x2 x1 x5 x4 x8 x7) in *. set (h22 := s3 x2 x2 x5 x5 x8 x8) in *. clearbody r00 r01 r02 r10 r11 r12 r20 r21 r22 h00 h01 h02 h10 h11 h12 h20 h21 h22.
    clear - AO AZ G0 G1 G2 G3 G4 G5 G6 G7 G8 g00 g01 g02 g10 g11 g12 g20 g21 g22.
    assert (SQ : forall r, Rabs r <= 1 / 1000 -> 0 <= r * r <= 1 / 1000000). { intros r Hr. apply Rabs_ends in Hr. split; nra. }
    assert (S1 : forall r, Rabs (r - 1) <= 1 / 1000 -> 998 / 1000 <= r * r <= 1003 / 1000 /\ Rabs r <= 1002 / 1000). { intros r Hr. apply Rabs_ends in Hr. split; [split; nra|apply Rabs_le; lra]. }
    destruct (S1 _ G0) as [p0 q0]. destruct (S1 _ G1) as [p1 q1]. destruct (S1 _ G2) as [p2 q2].
    apply (approx_accept _ _ (rsq9 (M3 (r00 - 1) r01 r02 r10 (r11 - 1) r12 r20 r21 (r22 - 1))) (rsq9 (M3 r00 r01 r02 r10 r11 r12 r20 r21 r22))).
    + apply sq9_app. { unfold mapp. cbn [a00 a01 a02 a10 a11 a12 a20 a21 a22]. split; [auto|]. split; [auto|]. split; [auto|]. split; [auto|]. split; [auto|]. split; [auto|]. split; [auto|]. split; auto. }
      cbn [a00 a01 a02 a10 a11 a12 a20 a21 a22]. repeat split; lra.
    + apply sq9_app. { unfold mapp. cbn [a00 a01 a02 a10 a11 a12 a20 a21 a22]. assert (W : forall t r, app t r (83 / 10) -> app t r 10) by (intros; eapply app_weak; eauto; lra). split; [auto|]. split; [auto|]. split; [auto|]. split; [auto|]. split; [auto|]. split; [auto|]. split; [auto|]. split; auto. }
      cbn [a00 a01 a02 a10 a11 a12 a20 a21 a22]. repeat split; lra.
    + unfold rsq9. cbn [a00 a01 a02 a10 a11 a12 a20 a21 a22]. pose proof (SQ _ G0). pose proof (SQ _ G1). pose proof (SQ _ G2). pose proof (SQ _ G3). pose proof (SQ _ G4). pose proof (SQ _ G5). pose proof (SQ _ G6). pose proof (SQ _ G7). pose proof (SQ _ G8). lra.
    + unfold rsq9. cbn [a00 a01 a02 a10 a11 a12 a20 a21 a22]. pose proof (SQ _ G3). pose proof (SQ _ G4). pose proof (SQ _ G5). pose proof (SQ _ G6). pose proof (SQ _ G7). pose proof (SQ _ G8). lra.
  - pose proof (det_app L X FX S3) as AD. set (D := m3_det X) in *. clearbody D. destruct (lit1_ok L) as [Fl Vl].
    assert (A1 : app (Babs (D -! of_Z 1)) (Rabs (rdet (mval X) - 1)) 40).
    { apply app_abs. eapply app_weak; [apply (app_subP _ _ _ _ _ _ (1 / 1000) AD one_app); auto; lra|lra]. }
    destruct A1 as [Fa Ea]. apply Rabs_ends in Ea. rewrite f_ltb by auto. apply Rlt_bool_true. assert (u <= 1 / 10 ^ 15) by (rewrite u_val; lra). lra.
Qed.
End Leaves.

(** ** Quaternions *)
Lemma norm4_wide L a b c d : isf a -> isf b -> isf c -> isf d -> let N := sq4 (val a) (val b) (val c) (val d) in 1 / 16 <= N <= B900 ->
  Rabs (val (Bsqrt mode_NE (sum4 L (a *! a) (b *! b) (c *! c) (d *! d))) - sqrt N) <= 305 / 100 * (u * sqrt N).
Proof.
  intros Fa Fb Fc Fd N [H1 H2]. pose proof (dot4_fin L a b c d Fa Fb Fc Fd H2) as F. destruct (dot4_err L a b c d F) as (_ & _ & _ & _ & E). cbv zeta in E. fold N in E.
  pose proof (eta_rel N 20 H1 ltac:(lra)) as T. destruct (sqrt_err _ N (402 / 100) F) as [F' E']; try lra.
  - pose proof u_pos. assert (0 <= u * N) by nra. lra.
  - apply eta_sqrt; auto.
  - eapply Rle_trans; [exact E'|]. apply Rmult_le_compat_r; [|lra]. pose proof u_pos. pose proof (sqrt_pos N). nra.
Qed.
Lemma unit_pert4 w o : Rabs (o - w) <= 41 / 10 * (u * Rabs w) + eta -> Rabs w <= 1 -> Rabs (o * o - w * w) <= 82 / 10 * (u * (w * w)) + u / 100.
Proof.
  intros H W. pose proof u_pos as U. pose proof eta_small as T. pose proof eta_pos as T0. set (e := o - w) in *. replace (o * o - w * w) with (2 * w * e + e * e) by (unfold e; ring).
  eapply Rle_trans; [apply Rabs_triang|]. rewrite !Rabs_mult, (Rabs_pos_eq 2) by lra. pose proof (Rabs_pos w) as W0. pose proof (Rabs_pos e) as E0.
  assert (WW : w * w = Rabs w * Rabs w) by (rewrite <- Rabs_mult; symmetry; apply Rabs_pos_eq; nra). rewrite WW. set (p := Rabs w) in *. set (q := Rabs e) in *.
  assert (T1 : eta <= u / 10000) by (assert (u ^ 10 <= u / 10000) by (rewrite u_val; cbn [pow]; lra); lra).
  assert (Up : 0 <= u * p) by nra. assert (u * p <= u) by nra.
  assert (q <= 5 * u) by lra. assert (p * q <= p * (41 / 10 * (u * p) + eta)) by (apply Rmult_le_compat_l; auto).
  assert (p * eta <= u / 10000) by nra. assert (q * q <= u / 1000). { assert (q * q <= 5 * u * (5 * u)) by nra. assert (u * 25 <= 1 / 1000) by (rewrite u_val; lra). nra. } nra.
Qed.
Lemma div_unit4 a N m : isf a -> val a * val a <= N -> 0 < N -> Rabs (val m - sqrt N) <= 305 / 100 * (u * sqrt N) ->
  let w := val a / sqrt N in isf (a /! m) /\ Rabs w <= 1 /\ w * w = val a * val a / N /\ Rabs (val (a /! m) - w) <= 41 / 10 * (u * Rabs w) + eta.
Proof.
  intros F H N0 E w. assert (S0 : 0 < sqrt N) by (apply sqrt_lt_R0; auto). assert (SS : sqrt N * sqrt N = N) by (apply sqrt_sqrt; lra).
  assert (W2 : w * w = val a * val a / N) by (unfold w; rewrite <- SS at 3; field; lra).
  assert (W1 : Rabs w <= 1). { apply Rabs_le. assert (w * w <= 1). { rewrite W2. apply Rmult_le_reg_r with N; auto. unfold Rdiv. rewrite Rmult_assoc, Rinv_l, Rmult_1_r by lra. lra. } split; nra. }
  destruct (quot_err a m (sqrt N) (305 / 100) F E S0 ltac:(lra)) as [F' E']; [fold w; lra|]. fold w in E'. repeat split; auto.
  eapply Rle_trans; [exact E'|]. pose proof u_pos. pose proof (Rabs_pos w). assert (0 <= u * Rabs w) by nra. lra.
Qed.
Lemma normalise4 L a b c d : isf a -> isf b -> isf c -> isf d -> let N := sq4 (val a) (val b) (val c) (val d) in 1 / 16 <= N <= B900 ->
  let m := Bsqrt mode_NE (sum4 L (a *! a) (b *! b) (c *! c) (d *! d)) in
  (isf (a /! m) /\ isf (b /! m) /\ isf (c /! m) /\ isf (d /! m)) /\ Rabs (sq4 (val (a /! m)) (val (b /! m)) (val (c /! m)) (val (d /! m)) - 1) <= 9 * u /\
  Rabs (val (a /! m) - val a / sqrt N) <= 5 * u /\ Rabs (val (b /! m) - val b / sqrt N) <= 5 * u /\ Rabs (val (c /! m) - val c / sqrt N) <= 5 * u /\ Rabs (val (d /! m) - val d / sqrt N) <= 5 * u.
Proof.
  intros Fa Fb Fc Fd N H m. pose proof (norm4_wide L a b c d Fa Fb Fc Fd H) as E. fold N in E. fold m in E. assert (N0 : 0 < N) by lra.
  pose proof (Rle_0_sqr (val a)) as Ra. pose proof (Rle_0_sqr (val b)) as Rb. pose proof (Rle_0_sqr (val c)) as Rc. pose proof (Rle_0_sqr (val d)) as Rd. unfold Rsqr in *.
  destruct (div_unit4 a N m Fa ltac:(unfold N, sq4; lra) N0 E) as (Ga & Ha & Sa & Ea).
  destruct (div_unit4 b N m Fb ltac:(unfold N, sq4; lra) N0 E) as (Gb & Hb & Sb & Eb).
  destruct (div_unit4 c N m Fc ltac:(unfold N, sq4; lra) N0 E) as (Gc & Hc & Sc & Ec).
  destruct (div_unit4 d N m Fd ltac:(unfold N, sq4; lra) N0 E) as (Gd & Hd & Sd & Ed).
  clearbody m. set (x := val a / sqrt N) in *. set (y := val b / sqrt N) in *. set (z := val c / sqrt N) in *. set (t := val d / sqrt N) in *.
  pose proof u_pos as U. pose proof eta_u as T.
  assert (One : x * x + y * y + z * z + t * t = 1) by (rewrite Sa, Sb, Sc, Sd; unfold N, sq4; field; unfold N, sq4 in N0; lra).
  pose proof (unit_pert4 x _ Ea Ha) as Pa. pose proof (unit_pert4 y _ Eb Hb) as Pb. pose proof (unit_pert4 z _ Ec Hc) as Pc. pose proof (unit_pert4 t _ Ed Hd) as Pd.
  assert (Q : forall w o, Rabs w <= 1 -> Rabs (o - w) <= 41 / 10 * (u * Rabs w) + eta -> Rabs (o - w) <= 5 * u).
  { intros w o Hw Ho. assert (u * Rabs w <= u * 1) by (apply Rmult_le_compat_l; lra). lra. }
  split; [auto|]. split; [|auto]. unfold sq4. apply Rabs_ends in Pa, Pb, Pc, Pd. apply Rabs_le.
  assert (u * (x * x) + u * (y * y) + u * (z * z) + u * (t * t) = u) by (rewrite <- !Rmult_plus_distr_l, One; ring). lra.
Qed.

(** ** All leaves *)
(** Sphere and quaternion parts are finite and neither tiny nor huge; nothing is asked of matrices. *)
Definition flong (s : mfd f64) (x : list f64) : Prop :=
  match s with
  | Leaf _ LS2 _ _ | Leaf _ (LSO3 MapQuat) _ _ => Forall isf x /\ 1 / 16 <= rdot (vals x) (vals x) <= bpow radix2 900
  | _ => True
  end.
(** What the repaired value is. *)
Definition fforced (s : mfd f64) (x y : list f64) : Prop :=
  match s with
  | Leaf _ LReal _ _ => y = x
  | Leaf _ LS2 _ _ | Leaf _ (LSO3 MapQuat) _ _ => near_v (5 * u) (vals y) (rscal (/ rnorm (vals x)) (vals x))
  | Leaf _ (LSO3 MapMatrix) _ _ => Forall isf x /\ exists A Q, vals x = flat9 A /\ near_rot (175 / 1000) A /\ qr A Q /\ near_v (2720 * u) (vals y) (flat9 Q)
  | Prod _ _ _ _ => False
  end.
Lemma near17_rot A : near17 A -> near_rot (175 / 1000) A.
Proof.
  unfold near17, near_rot, rmul, rtr. destruct A as [m00 m01 m02 m10 m11 m12 m20 m21 m22]. cbn [a00 a01 a02 a10 a11 a12 a20 a21 a22].
  intros ((H0 & H1 & H2) & (H3 & H4 & H5) & H6).
  replace (m01 * m00 + m11 * m10 + m21 * m20) with (m00 * m01 + m10 * m11 + m20 * m21) by ring.
  replace (m02 * m00 + m12 * m10 + m22 * m20) with (m00 * m02 + m10 * m12 + m20 * m22) by ring.
  replace (m02 * m01 + m12 * m11 + m22 * m21) with (m01 * m02 + m11 * m12 + m21 * m22) by ring. repeat split; auto. lra.
Qed.
Lemma mapp_flat Y A k : mapp Y A k -> near_v (k * u) (vals (m3_to_list Y)) (flat9 A).
Proof.
  destruct Y as [y0 y1 y2 y3 y4 y5 y6 y7 y8], A as [r0 r1 r2 r3 r4 r5 r6 r7 r8]. unfold mapp, m3_to_list, flat9, near_v, app. cbn [a00 a01 a02 a10 a11 a12 a20 a21 a22 map]. intros ((_ & H0) & (_ & H1) & (_ & H2) & (_ & H3) & (_ & H4) & (_ & H5) & (_ & H6) & (_ & H7) & (_ & H8)).
  repeat (apply Forall2_cons; [assumption|]). apply Forall2_nil.
Qed.
Lemma list9 {A} (x : list A) : length x = 9%nat -> exists M, x = m3_to_list M.
Proof. intros H. destruct x as [|x0 [|x1 [|x2 [|x3 [|x4 [|x5 [|x6 [|x7 [|x8 [|]]]]]]]]]]; try discriminate H. exists (M3 x0 x3 x6 x1 x4 x7 x2 x5 x8). reflexivity. Qed.
Lemma list4 {A} (x : list A) : length x = 4%nat -> exists a b c d, x = [a; b; c; d].
Proof. intros H. destruct x as [|x0 [|x1 [|x2 [|x3 [|]]]]]; try discriminate H. eauto. Qed.

Section Any2.
Context {K : Type} {SK : Scalar K}.
(* The leaf equations, over any scalar. *)
Lemma s2_force_eq a b c o : length o = 3%nat -> s2_forceOnM o [a; b; c] = (let m := ksqrt (ksum [a * a; b * b; c * c])%k in Ok [(a / m)%k; (b / m)%k; (c / m)%k]).
Proof. intros H. unfold s2_forceOnM, assign, vdivs. cbn [map List.length]. rewrite H. reflexivity. Qed.
Lemma eq_force_eq a b c d o : length o = 4%nat -> eq_forceOnM o [a; b; c; d] = (let m := ksqrt (ksum [b * b; c * c; d * d; a * a])%k in Ok [(a / m)%k; (b / m)%k; (c / m)%k; (d / m)%k]).
Proof. intros H. destruct (list4 o H) as (o0 & o1 & o2 & o3 & ->). reflexivity. Qed.
Lemma real_force_eq x o : length o = length x -> real_forceOnM (K:=K) o x = Ok x.
Proof. intros H. unfold real_forceOnM, assign. rewrite H, Nat.eqb_refl. reflexivity. Qed.
Lemma em_force_go M o : length o = 9%nat -> em_okb M = true -> exists y, em_forceOnM o (m3_to_list M) = Ok y.
Proof. intros H T. rewrite em_force_unfold, T. cbn [mnf_assert bind]. destruct o as [|o0 [|o1 [|o2 [|o3 [|o4 [|o5 [|o6 [|o7 [|o8 [|]]]]]]]]]]; try discriminate H. destruct M. eexists. reflexivity. Qed.
End Any2.

Section Leaves2.
Variable L : libm.
Local Notation SK := (F64 L).
#[local] Hint Extern 0 (Scalar f64) => exact (F64 L) : typeclass_instances.
Lemma s2_force64 a b c o y : length o = 3%nat -> isf a -> isf b -> isf c -> 1 / 16 <= sq3 (val a) (val b) (val c) <= B900 -> s2_forceOnM (SK:=SK) o [a; b; c] = Ok y ->
  exists p q r, y = [p; q; r] /\ isf p /\ isf q /\ isf r /\ Rabs (sq3 (val p) (val q) (val r) - 1) <= 8 * u /\
  Rabs (val p - val a / sqrt (sq3 (val a) (val b) (val c))) <= 4 * u /\ Rabs (val q - val b / sqrt (sq3 (val a) (val b) (val c))) <= 4 * u /\ Rabs (val r - val c / sqrt (sq3 (val a) (val b) (val c))) <= 4 * u.
Proof.
  intros Lo Fa Fb Fc HN H. rewrite s2_force_eq in H by exact Lo. cbv zeta in H. apply ok_eq in H. pose proof (normalise3 L a b c Fa Fb Fc HN) as N. cbv zeta in N.
  subst y. cbn [ksqrt ksum kadd kmul kdiv F64]. exists (a /! Bsqrt mode_NE (sum3 L (a *! a) (b *! b) (c *! c))), (b /! Bsqrt mode_NE (sum3 L (a *! a) (b *! b) (c *! c))), (c /! Bsqrt mode_NE (sum3 L (a *! a) (b *! b) (c *! c))). split; [reflexivity|]. exact N.
Qed.
Lemma eq_force64 a b c d o y : length o = 4%nat -> isf a -> isf b -> isf c -> isf d -> 1 / 16 <= sq4 (val b) (val c) (val d) (val a) <= B900 -> eq_forceOnM (SK:=SK) o [a; b; c; d] = Ok y ->
  exists p q r t, y = [p; q; r; t] /\ (isf q /\ isf r /\ isf t /\ isf p) /\ Rabs (sq4 (val q) (val r) (val t) (val p) - 1) <= 9 * u /\
  Rabs (val q - val b / sqrt (sq4 (val b) (val c) (val d) (val a))) <= 5 * u /\ Rabs (val r - val c / sqrt (sq4 (val b) (val c) (val d) (val a))) <= 5 * u /\
  Rabs (val t - val d / sqrt (sq4 (val b) (val c) (val d) (val a))) <= 5 * u /\ Rabs (val p - val a / sqrt (sq4 (val b) (val c) (val d) (val a))) <= 5 * u.
Proof.
  intros Lo Fa Fb Fc Fd HN H. rewrite eq_force_eq in H by exact Lo. cbv zeta in H. apply ok_eq in H. pose proof (normalise4 L b c d a Fb Fc Fd Fa HN) as N. cbv zeta in N.
  subst y. cbn [ksqrt ksum kadd kmul kdiv F64]. set (m := Bsqrt mode_NE _) in *. exists (a /! m), (b /! m), (c /! m), (d /! m). split; [reflexivity|]. exact N.
Qed.
Lemma leaf_force64 h l a b x o y : let s := Leaf h l a b in leaf_wf h l a b -> flong s x -> forceOnM (SK:=SK) s o x = Ok y -> fstray (27200 * u) s y /\ fforced s x y.
Proof.
  intros s W Hx H. pose proof u_pos as U. unfold s in *. cbn [forceOnM] in H.
  assert (C : length o = representationDim (Leaf h l a b) /\ length x = representationDim (Leaf h l a b)).
  { destruct (length o =? _)%nat eqn:E1 in H; [|discriminate]. destruct (length x =? _)%nat eqn:E2 in H; [|discriminate]. apply Nat.eqb_eq in E1, E2. auto. }
  destruct C as (Lo & Lx). rewrite Lo, Lx, !Nat.eqb_refl in H. cbn [mnf_assert bind] in H. unfold representationDim in Lo, Lx. cbn [hdr_of] in Lo, Lx.
  destruct l as [| |[|]]; cbn [fstray fforced flong] in *; unfold leaf_wf in W.
  - rewrite real_force_eq in H by lia. apply ok_eq in H. subst y. split; [lia|reflexivity].
  - destruct Hx as [F HN]. destruct (vec3 x ltac:(lia)) as (p & q & r & ->). assert (EN : rdot (vals [p; q; r]) (vals [p; q; r]) = sq3 (val p) (val q) (val r)) by (unfold sq3; cbn [map rdot]; ring). rewrite EN in HN.
    apply Forall_cons_iff in F as [F0 F]. apply Forall_cons_iff in F as [F1 F]. apply Forall_cons_iff in F as [F2 _].
    destruct (s2_force64 p q r o y ltac:(lia) F0 F1 F2 HN H) as (y0 & y1 & y2 & -> & G0 & G1 & G2 & D & E0 & E1 & E2). split.
    + exists y0, y1, y2. repeat split; auto. lra.
    + unfold near_v, rnorm. rewrite EN. unfold rscal. cbn [map]. unfold Rdiv in *. repeat (apply Forall2_cons; [rewrite (Rmult_comm (/ _)); eapply Rle_trans; [eassumption|lra]|]). apply Forall2_nil.
  - destruct (list9 x ltac:(lia)) as (X & ->). destruct (em_force64 L X o y ltac:(lia) H) as (FX & NX & Y & -> & M & S). split.
    + exists Y. split; [reflexivity|]. split; [|exact S]. clear - M. unfold mapp, app in M. unfold mfin. tauto.
    + split. { destruct FX as (F00 & F01 & F02 & F10 & F11 & F12 & F20 & F21 & F22). unfold m3_to_list. repeat (apply Forall_cons; [assumption|]). apply Forall_nil. }
      exists (mval X), (gs (mval X)). split; [destruct X; reflexivity|]. split; [apply near17_rot, NX|]. split; [apply gs_qr; apply (gs_facts _ NX)|]. apply mapp_flat, M.
  - destruct Hx as [F HN]. destruct W as (W1 & W2 & W3 & W4). destruct (list4 x ltac:(congruence)) as (w & p & q & r & ->). assert (EN : rdot (vals [w; p; q; r]) (vals [w; p; q; r]) = sq4 (val p) (val q) (val r) (val w)) by (unfold sq4; cbn [map rdot]; ring). rewrite EN in HN.
    apply Forall_cons_iff in F as [F0 F]. apply Forall_cons_iff in F as [F1 F]. apply Forall_cons_iff in F as [F2 F]. apply Forall_cons_iff in F as [F3 _].
    destruct (eq_force64 w p q r o y ltac:(congruence) F0 F1 F2 F3 HN H) as (y0 & y1 & y2 & y3 & -> & (G1 & G2 & G3 & G0) & D & E1 & E2 & E3 & E0). split.
    + exists (Q4 y0 y1 y2 y3). split; [reflexivity|]. split; [repeat split; assumption|]. unfold qn2, qval. cbn [qw qx qy qz]. unfold sq4 in D.
      replace (val y0 * val y0 + val y1 * val y1 + val y2 * val y2 + val y3 * val y3) with (val y1 * val y1 + val y2 * val y2 + val y3 * val y3 + val y0 * val y0) by ring. lra.
    + unfold near_v, rnorm. rewrite EN. unfold rscal. cbn [map]. unfold Rdiv in *. repeat (apply Forall2_cons; [rewrite (Rmult_comm (/ _)); assumption|]). apply Forall2_nil.
Qed.
(** Points close to the manifold are accepted. *)
Lemma leaf_force_go h l a b d x o : let s := Leaf h l a b in leaf_wf h l a b -> d <= 1 / 1000 -> fstray d s x -> length o = representationDim s -> flong s x /\ exists y, forceOnM (SK:=SK) s o x = Ok y.
Proof.
  intros s W Hd Hx Lo. pose proof (fstray_len _ _ _ _ _ _ W Hx) as Lx. unfold s in *. cbn [forceOnM]. rewrite !check_eq by assumption. cbn [bind]. unfold representationDim in Lo, Lx. cbn [hdr_of] in Lo, Lx.
  assert (B9 : 2 <= bpow radix2 900) by (change 2 with (bpow radix2 1); apply bpow_le; lia).
  destruct l as [| |[|]]; cbn [fstray flong] in *; unfold leaf_wf in W.
  - split; auto. exists x. apply real_force_eq. lia.
  - destruct Hx as (p & q & r & -> & F0 & F1 & F2 & D). split.
    + split; [auto|]. replace (rdot (vals [p; q; r]) (vals [p; q; r])) with (sq3 (val p) (val q) (val r)) by (unfold sq3; cbn [map rdot]; ring). apply Rabs_ends in D. lra.
    + eexists. apply s2_force_eq. lia.
  - destruct Hx as (X & -> & FX & SX). split; auto. apply em_force_go; [lia|]. apply (em_accept L X d); auto.
  - destruct Hx as (q & -> & (F0 & F1 & F2 & F3) & D). split.
    + split; [auto|]. replace (rdot (vals [qw q; qx q; qy q; qz q]) (vals [qw q; qx q; qy q; qz q])) with (qn2 (qval q)) by (unfold qn2, qval; cbn [map rdot qw qx qy qz]; ring). apply Rabs_ends in D. lra.
    + eexists. apply eq_force_eq. destruct W as (W1 & W2 & W3 & W4). congruence.
Qed.

(** ** Trees *)
Lemma tree_force64 (m : mfd f64) xs out r : wf m -> pieces DR (leaves m) xs -> Forall2 flong (leaves m) xs -> length out = representationDim m -> forceOnM (SK:=SK) m out (concat xs) = Ok r ->
  exists ys, r = concat ys /\ Forall2 (fstray (27200 * u)) (leaves m) ys /\ Forall3 fforced (leaves m) xs ys.
Proof.
  intros W Px Hx Lo H. destruct (cut_gen DR m out W Lo) as (outs & -> & Po).
  apply (flat_op1 DR DR (forceOnM (SK:=SK)) forceOnM_prod m W) in H; auto.
  destruct H as (ys & -> & F). exists ys. split; [reflexivity|]. pose proof (fun s => leaf_inv_gen m s W) as G. clear Px Po Lo W.
  revert G Hx. induction F as [|s o x y ls os xs ys F1 F IH]; intros G Hx; [split; constructor|].
  inversion Hx as [|? ? ? ? Hx1 Hx2]; subst. destruct IH as [A B]; auto. { intros q Hq. apply G. simpl; auto. }
  destruct (G s) as (h & l & a & b & -> & Wl); [simpl; auto|]. destruct (leaf_force64 h l a b x o y Wl Hx1 F1) as [C D]. split; constructor; auto.
Qed.
Lemma tree_force_go (m : mfd f64) d xs out : wf m -> d <= 1 / 1000 -> Forall2 (fstray d) (leaves m) xs -> length out = representationDim m ->
  Forall2 flong (leaves m) xs /\ exists r, forceOnM (SK:=SK) m out (concat xs) = Ok r.
Proof.
  intros W Hd Hx Lo. destruct (cut_gen DR m out W Lo) as (outs & -> & Po). pose proof (fstray_pieces _ _ _ W Hx) as Px. pose proof (fun s => leaf_inv_gen m s W) as G.
  assert (F : Forall2 flong (leaves m) xs /\ exists ys, Forall4 (fun s o x y => forceOnM (SK:=SK) s o x = Ok y) (leaves m) outs xs ys).
  { clear Px Lo W. revert G outs Po. induction Hx as [|s x ls xs Hx1 Hx IH]; intros G outs Po; inversion Po as [|? o ? os Lo1 Po']; subst; [split; [constructor|]; exists []; constructor|].
    destruct (IH ltac:(intros; apply G; simpl; auto) os Po') as (A & ys & B). destruct (G s) as (h & l & a & b & -> & Wl); [simpl; auto|].
    destruct (leaf_force_go h l a b d x o Wl Hd Hx1 Lo1) as (C & y & D). split; [constructor; auto|]. exists (y :: ys). constructor; auto. }
  destruct F as (A & ys & F). split; auto. exists (concat ys). apply (flat_op1 DR DR (forceOnM (SK:=SK)) forceOnM_prod m W); auto. exists ys. auto.
Qed.
End Leaves2.
