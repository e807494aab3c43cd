(** The Jacobian of the retraction in double arithmetic: scalar products of rows and columns. *)
From Coq Require Import Reals List Lra Lia ZArith Bool Arith Psatz Permutation.
From Flocq Require Import Core BinarySingleNaN Mult_error.
From Verif Require Import Base Scalar Vec Model_Real Model_S2 Model_SO3 Model_Manifold Spec Layout Comp BlockMat MatOps F64 F64Err F64Norm F64Exp F64S2 F64Gs F64Tree XR SpecR RotR NumVec NumS2 F64Trans F64Proj JacR JacLeaf.
Import ListNotations.
Local Open Scope R_scope.

Fixpoint absdot (x y : list R) : R := match x, y with a :: x', b :: y' => Rabs (a * b) + absdot x' y' | _, _ => 0 end.
Lemma absdot_pos x : forall y, 0 <= absdot x y.
Proof. induction x as [|a x IH]; intros [|b y]; cbn [absdot]; try lra. pose proof (Rabs_pos (a * b)). pose proof (IH y). lra. Qed.

Section Dot.
Variable L : libm.
Local Notation SK := (F64 L).
Definition c1 : R := 1001 / 1000 * u.
(** Terms p q: their sum and the sum of their sizes. *)
Definition tsum (ps : list (f64 * f64)) : R := rdot (map (fun p => val (fst p)) ps) (map (fun p => val (snd p)) ps).
Definition tabs (ps : list (f64 * f64)) : R := absdot (map (fun p => val (fst p)) ps) (map (fun p => val (snd p)) ps).
Lemma tsum_app a b : tsum (a ++ b) = tsum a + tsum b.
Proof. unfold tsum. induction a as [|p a IH]; cbn [List.app map rdot]; lra. Qed.
Lemma tabs_app a b : tabs (a ++ b) = tabs a + tabs b.
Proof. unfold tabs. induction a as [|p a IH]; cbn [List.app map absdot]; lra. Qed.
Lemma tsum_perm a b : Permutation a b -> tsum a = tsum b.
Proof. unfold tsum. induction 1; cbn [map rdot]; lra. Qed.
Lemma tabs_perm a b : Permutation a b -> tabs a = tabs b.
Proof. unfold tabs. induction 1; cbn [map absdot]; lra. Qed.
Lemma tsum_abs a : Rabs (tsum a) <= tabs a.
Proof. unfold tsum, tabs. induction a as [|p a IH]; cbn [map rdot absdot]; [rewrite Rabs_R0; lra|]. eapply Rle_trans; [apply Rabs_triang|]. lra. Qed.
Lemma sums_err l s : sums l s -> forall ps, Permutation l (map (fun p => fst p *! snd p) ps) -> Forall (fun p => isf (fst p) /\ isf (snd p)) ps ->
  INR (length ps) <= 1000 -> tabs ps <= big / 4 ->
  isf s /\ Rabs (val s - tsum ps) <= INR (length ps) * c1 * tabs ps + (3 * INR (length ps) - 2) * eta.
Proof.
  pose proof u_pos as U. assert (U1 : u <= 1 / 10 ^ 15) by (rewrite u_val; lra). cbn [pow] in U1. pose proof eta_pos as E0. pose proof eta_u as E1. pose proof big_1 as B1.
  induction 1 as [a|l1 l2 l a b H1 I1 H2 I2 P]; intros ps Q F N B.
  - pose proof (Permutation_length Q) as Np. rewrite map_length in Np. destruct ps as [|[p q] [|]]; try discriminate Np. apply Permutation_length_1 in Q. cbn [fst snd] in Q. subst a.
    inversion F as [|? ? [Fp Fq] _]; subst. unfold tsum, tabs in *. cbn [fst snd map rdot absdot length INR] in *. rewrite !Rplus_0_r in *.
    destruct (f_mul p q Fp Fq) as [F1 V1]; [lra|]. split; [exact F1|]. pose proof (rnd_err (val p * val q)) as R1. rewrite <- V1 in R1.
    pose proof (Rabs_pos (val p * val q)) as P0. assert (0 <= u * Rabs (val p * val q)) by (apply Rmult_le_pos; lra). unfold c1. lra.
  - destruct (Permutation_map_inv _ _ (Permutation_trans P Q)) as (m & E & Pm). symmetry in E. apply map_eq_app in E as (m1 & m2 & -> & G1 & G2). subst l1 l2.
    pose proof (Permutation_Forall Pm F) as F'. apply Forall_app in F' as [F1 F2]. pose proof (sums_length _ _ H1) as N1. pose proof (sums_length _ _ H2) as N2. rewrite map_length in N1, N2.
    apply (le_INR 1) in N1, N2. change (INR 1) with 1 in *. rewrite (Permutation_length Pm), app_length, plus_INR in *. rewrite (tsum_perm _ _ Pm), (tabs_perm _ _ Pm), tsum_app, tabs_app in *.
    assert (T1 : 0 <= tabs m1) by apply absdot_pos. assert (T2 : 0 <= tabs m2) by apply absdot_pos.
    destruct (I1 m1 (Permutation_refl _) F1 ltac:(lra) ltac:(lra)) as [Fa A]. destruct (I2 m2 (Permutation_refl _) F2 ltac:(lra) ltac:(lra)) as [Fb C].
    pose proof (tsum_abs m1) as S1. pose proof (tsum_abs m2) as S2.
    set (x := INR (length m1)) in *. set (y := INR (length m2)) in *. set (X := tabs m1) in *. set (Y := tabs m2) in *. set (p := tsum m1) in *. set (q := tsum m2) in *.
    clearbody x y X Y p q. clear - U U1 E0 E1 B1 N N1 N2 T1 T2 Fa Fb A C S1 S2 B.
    assert (KC : forall z, 0 <= z <= 1000 -> 0 <= z * c1 <= 1 / 100000).
    { intros z Hz. unfold c1. split; [apply Rmult_le_pos; lra|]. assert (z * u <= 1000 * (1 / (10 * (10 * (10 * (10 * (10 * (10 * (10 * (10 * (10 * (10 * (10 * (10 * (10 * (10 * (10 * 1))))))))))))))))) by (apply Rmult_le_compat; lra). lra. }
    assert (XC : x * c1 * X <= 1 / 100000 * X) by (apply Rmult_le_compat_r; [lra|apply KC; lra]). assert (YC : y * c1 * Y <= 1 / 100000 * Y) by (apply Rmult_le_compat_r; [lra|apply KC; lra]).
    assert (XE : (3 * (x + y) - 4) * eta <= 1) by (assert ((x + y) * eta <= 1000 * (u / 1000)) by (apply Rmult_le_compat; lra); lra).
    set (err := x * c1 * X + y * c1 * Y + (3 * (x + y) - 4) * eta).
    assert (D : Rabs ((val a + val b) - (p + q)) <= err).
    { replace (val a + val b - (p + q)) with ((val a - p) + (val b - q)) by ring. eapply Rle_trans; [apply Rabs_triang|]. unfold err. lra. }
    assert (M : Rabs (val a + val b) <= X + Y + err).
    { replace (val a + val b) with ((val a + val b - (p + q)) + (p + q)) by ring. eapply Rle_trans; [apply Rabs_triang|]. pose proof (Rabs_triang p q). lra. }
    destruct (f_add a b Fa Fb) as [G V]; [unfold err in M; lra|]. split; [exact G|]. pose proof (rnd_err (val a + val b)) as R. rewrite <- V in R.
    assert (UM : u * Rabs (val a + val b) <= u * (X + Y + err)) by (apply Rmult_le_compat_l; lra).
    replace (val (a +! b) - (p + q)) with ((val (a +! b) - (val a + val b)) + ((val a + val b) - (p + q))) by ring. eapply Rle_trans; [apply Rabs_triang|].
    assert (X2 : u * ((3 * (x + y) - 4) * eta) <= 1 / 100 * eta).
    { assert ((x + y) * u <= 1000 * (1 / 1000000)) by (apply Rmult_le_compat; lra). replace (u * ((3 * (x + y) - 4) * eta)) with ((3 * ((x + y) * u) - 4 * u) * eta) by ring. apply Rmult_le_compat_r; lra. }
    assert (X1 : u * (x * c1 * X + y * c1 * Y) <= u * (1 / 100000 * (X + Y))) by (apply Rmult_le_compat_l; lra).
    assert (X3 : 0 <= (y - 1) * (c1 * X)) by (apply Rmult_le_pos; [lra|apply Rmult_le_pos; [unfold c1; lra|lra]]). assert (X4 : 0 <= (x - 1) * (c1 * Y)) by (apply Rmult_le_pos; [lra|apply Rmult_le_pos; [unfold c1; lra|lra]]).
    assert (UX : 0 <= u * X) by (apply Rmult_le_pos; lra). assert (UY : 0 <= u * Y) by (apply Rmult_le_pos; lra).
    replace ((x + y) * c1 * (X + Y)) with (x * c1 * X + y * c1 * Y + (y - 1) * (c1 * X) + (x - 1) * (c1 * Y) + 1001 / 1000 * (u * X) + 1001 / 1000 * (u * Y)) by (unfold c1; field).
    unfold err in *. lra.
Qed.
(** Scalar products in doubles, of any length below 1000, in any order. *)
Lemma dot_err a b : Forall isf a -> Forall isf b -> length a = length b -> INR (length a) <= 1000 -> absdot (map val a) (map val b) <= big / 4 ->
  isf (dot (SK:=SK) a b) /\ Rabs (val (dot (SK:=SK) a b) - rdot (map val a) (map val b)) <= INR (length a) * c1 * absdot (map val a) (map val b) + 3 * INR (length a) * eta.
Proof.
  intros Fa Fb Lab N HB. destruct a as [|p a]; destruct b as [|q b]; try discriminate Lab.
  - cbn [dot map2 map rdot absdot length INR]. split; [reflexivity|]. assert (Z : dot (SK:=SK) [] [] = B754_zero false) by reflexivity. rewrite Z. match goal with |- Rabs ?x <= _ => replace x with 0 by (cbn; ring) end. rewrite Rabs_R0. lra.
  - assert (G : forall a b : list f64, length a = length b -> map2 (fun x y => x *! y) a b = map (fun p => fst p *! snd p) (combine a b) /\ map (fun p => val (fst p)) (combine a b) = map val a /\ map (fun p => val (snd p)) (combine a b) = map val b /\ length (combine a b) = length a).
    { clear. induction a as [|x a IH]; intros [|y b] L0; try discriminate L0; auto. cbn in L0. destruct (IH b ltac:(lia)) as (A1 & A2 & A3 & A4). cbn [map2 combine map fst snd length]. rewrite A1, A2, A3, A4. auto. }
    destruct (G (p :: a) (q :: b) Lab) as (G1 & G2 & G3 & G4).
    destruct (sums_err (map2 (fun x y => x *! y) (p :: a) (q :: b)) (dot (SK:=SK) (p :: a) (q :: b))) with (ps := combine (p :: a) (q :: b)) as [F E].
    + apply (f_sum_ok L). discriminate.
    + rewrite G1. apply Permutation_refl.
    + apply Forall_forall. intros [x y] I. cbn [fst snd]. pose proof (in_combine_l _ _ _ _ I). pose proof (in_combine_r _ _ _ _ I). rewrite Forall_forall in Fa, Fb. auto.
    + eapply Rle_trans; [|exact N]. right. f_equal. exact G4.
    + assert (T : tabs (combine (p :: a) (q :: b)) = absdot (map val (p :: a)) (map val (q :: b))) by (unfold tabs; f_equal; [exact G2|exact G3]). rewrite T. exact HB.
    + split; [exact F|]. assert (T : tabs (combine (p :: a) (q :: b)) = absdot (map val (p :: a)) (map val (q :: b))) by (unfold tabs; f_equal; [exact G2|exact G3]).
      assert (S : tsum (combine (p :: a) (q :: b)) = rdot (map val (p :: a)) (map val (q :: b))) by (unfold tsum; f_equal; [exact G2|exact G3]).
      assert (I : INR (length (combine (p :: a) (q :: b))) = INR (length (p :: a))) by (f_equal; exact G4). rewrite T, S in E. match type of E with _ <= ?x * c1 * _ + _ => change x with (INR (length (combine (p :: a) (q :: b)))) in E end. rewrite I in E. pose proof eta_pos. eapply Rle_trans; [exact E|]. lra.
Qed.
End Dot.

(** ** Halving *)
Lemma half_err x : isf x -> Rabs (val x) <= 2 -> forall h, isf h -> Rabs (val h) = 1 / 2 -> isf (h *! x) /\ Rabs (val (h *! x) - val h * val x) <= eta.
Proof.
  intros Fx Hx h Fh Hh. pose proof big_1 as B1. assert (Hp : Rabs (val h * val x) <= 1) by (rewrite Rabs_mult, Hh; lra).
  destruct (f_mul h x Fh Fx) as [F V]; [lra|]. split; auto. rewrite V. clear V F. unfold rnd.
  destruct (Rlt_dec (Rabs (val h * val x)) (bpow radix2 (-1074 + 53))) as [S|S].
  - change (round_mode mode_NE) with (Znearest (fun x => negb (Z.even x))).
    pose proof (error_le_half_ulp radix2 (FLT_exp (-1074) 53) (fun x => negb (Z.even x)) (val h * val x)) as E. rewrite (ulp_FLT_small radix2 (-1074) 53) in E by exact S.
    eapply Rle_trans; [exact E|]. unfold eta. change (/ 2) with (bpow radix2 (-1)). rewrite <- bpow_plus. apply Rle_refl.
  - apply Rnot_lt_le in S. rewrite round_generic; [rewrite Rminus_diag_eq, Rabs_R0 by auto; apply bpow_ge_0|typeclasses eauto|].
    assert (X0 : val x <> 0). { intros Z. rewrite Z, Rmult_0_r, Rabs_R0 in S. pose proof (bpow_gt_0 radix2 (-1074 + 53)). lra. }
    assert (G : generic_format radix2 (FLT_exp (-1074) 53) (val x * bpow radix2 (-1))).
    { apply mult_bpow_exact_FLT; [apply (generic_format_B2R 53 1024)|].
      assert (M : (-1021 + 1 <= mag radix2 (val x))%Z); [|lia]. apply mag_ge_bpow.
      rewrite Rabs_mult, Hh in S. replace (-1021 + 1 - 1)%Z with (-1074 + 53)%Z by lia. pose proof (bpow_gt_0 radix2 (-1074 + 53)). lra. }
    assert (HH : val h = 1 / 2 \/ val h = - (1 / 2)) by (revert Hh; unfold Rabs; destruct (Rcase_abs (val h)); lra).
    change (bpow radix2 (-1)) with (/ 2) in G. destruct HH as [-> | ->].
    + replace (1 / 2 * val x) with (val x * / 2) by field. exact G.
    + replace (- (1 / 2) * val x) with (- (val x * / 2)) by field. apply generic_format_opp. exact G.
Qed.

(** ** The elementary factors *)
Fixpoint asum (x : list R) : R := match x with a :: x' => Rabs a + asum x' | [] => 0 end.
Lemma asum_pos c : 0 <= asum c.
Proof. induction c as [|a c IH]; cbn [asum]; [lra|]. pose proof (Rabs_pos a). lra. Qed.
Lemma absdot_bound S a : 0 <= S -> Forall (fun p => Rabs p <= S) a -> forall c, absdot a c <= S * asum c.
Proof.
  intros HS H. induction H as [|p a Hp H IH]; intros [|q c]; cbn [absdot asum]; try (rewrite Rmult_0_r; lra).
  - pose proof (asum_pos c). pose proof (Rabs_pos q). apply Rmult_le_pos; lra.
  - rewrite Rabs_mult, Rmult_plus_distr_l. apply Rplus_le_compat; [apply Rmult_le_compat_r; auto using Rabs_pos|auto].
Qed.
Lemma rdot_near S e a : 0 <= S -> 0 <= e -> Forall (fun p => Rabs p <= S) a -> forall c G, near_v e c G -> Rabs (rdot a c - rdot a G) <= INR (length a) * (S * e).
Proof.
  intros HS He H. induction H as [|p a Hp H IH]; intros c G N; [cbn; rewrite Rminus_diag_eq, Rabs_R0 by auto; lra|].
  change (length (p :: a)) with (Datatypes.S (length a)). rewrite S_INR. pose proof (pos_INR (length a)). assert (SE : 0 <= S * e) by (apply Rmult_le_pos; auto).
  inversion N as [|q g c' G' Hq N']; subst; cbn [rdot]; [rewrite Rminus_diag_eq, Rabs_R0 by auto; nra|].
  replace (p * q + rdot a c' - (p * g + rdot a G')) with (p * (q - g) + (rdot a c' - rdot a G')) by ring. eapply Rle_trans; [apply Rabs_triang|].
  pose proof (IH _ _ N'). rewrite Rabs_mult. assert (Rabs p * Rabs (q - g) <= S * e) by (apply Rmult_le_compat; auto using Rabs_pos). lra.
Qed.
Section Leaf.
Variable L : libm.
Local Notation SK := (F64 L).
Lemma row_col a c G k S : scale S -> Forall (fun p => isf p /\ Rabs (val p) <= S) a -> Forall isf c -> near_v eta (map val c) G -> length a = length c -> (length a <= 9)%nat ->
  asum (map val c) <= k -> k <= 10 -> isf (dot (SK:=SK) a c) /\ Rabs (val (dot (SK:=SK) a c) - rdot (map val a) G) <= (INR (length a) * (1001 / 1000) * k + 1 / 10) * u * S.
Proof.
  intros HS Ha Fc HG Lac L9 Hk K10. destruct (scale_eta S HS) as (S0 & T & B). pose proof u_pos as U. pose proof eta_u as EU. pose proof eta_pos as E0.
  assert (Fa : Forall isf a) by (clear - Ha; induction Ha as [|? ? [? ?]]; constructor; auto). assert (Ba : Forall (fun p => Rabs p <= S) (map val a)) by (clear - Ha; induction Ha as [|? ? [? ?]]; cbn [map]; constructor; auto).
  assert (N9 : INR (length a) <= 9) by (change 9 with (INR 9) || replace 9 with (INR 9) by (cbn; lra); apply le_INR; auto). pose proof (pos_INR (length a)) as N0.
  pose proof (absdot_bound S _ ltac:(lra) Ba (map val c)) as AB. pose proof (asum_pos (map val c)) as A0. set (n := INR (length a)) in *.
  assert (AB' : absdot (map val a) (map val c) <= S * k) by (eapply Rle_trans; [exact AB|apply Rmult_le_compat_l; lra]).
  assert (SK10 : S * k <= S * 10) by (apply Rmult_le_compat_l; lra).
  destruct (dot_err L a c Fa Fc Lac) as [F E]; [fold n; lra|lra|]. split; auto. fold n in E.
  pose proof (rdot_near S eta (map val a) ltac:(lra) ltac:(lra) Ba _ _ HG) as D. rewrite map_length in D. fold n in D.
  assert (E' : n * c1 * absdot (map val a) (map val c) <= n * c1 * (S * k)) by (apply Rmult_le_compat_l; [unfold c1; apply Rmult_le_pos; lra|exact AB']).
  assert (US : 0 < u * S) by (apply Rmult_lt_0_compat; lra).
  assert (SE : n * (S * eta) <= 9 * (u * S / 1000)). { apply Rmult_le_compat; try lra; [apply Rmult_le_pos; lra|]. replace (u * S / 1000) with (S * (u / 1000)) by field. apply Rmult_le_compat_l; lra. }
  assert (NE : 3 * n * eta <= 27 * (u * S / 1000)) by (apply Rmult_le_compat; lra).
  replace (val (dot a c) - rdot (map val a) G) with ((val (dot (SK:=SK) a c) - rdot (map val a) (map val c)) + (rdot (map val a) (map val c) - rdot (map val a) G)) by ring.
  eapply Rle_trans; [apply Rabs_triang|]. replace ((n * (1001 / 1000) * k + 1 / 10) * u * S) with (n * c1 * (S * k) + 1 / 10 * (u * S)) by (unfold c1; field).
  clear - E D E' US SE NE. set (p1 := Rabs _) in E |- *. set (p2 := Rabs _) in D |- *. set (q1 := n * c1 * absdot _ _) in *. set (q2 := n * c1 * (S * k)) in *. set (us := u * S) in *. set (q3 := n * (S * eta)) in *. set (q4 := 3 * n * eta) in *.
  assert (D' : p2 <= q3) by exact D. clear D. clearbody p1 p2 q1 q2 us q3 q4. lra.
Qed.

(** Jacobian of a matrix factor: the entries are copies. *)
Lemma em_jac64 x : length x = 9%nat -> Forall isf x -> exists J, em_diffRetractation (SK:=SK) x = Ok J /\ shape J 9 3 /\
  Forall (Forall isf) (mcols_ J) /\ map (map val) (mcols_ J) = jac_mat (as_m3 (map val x)).
Proof.
  intros Lx Fx. destruct x as [|x0 [|x1 [|x2 [|x3 [|x4 [|x5 [|x6 [|x7 [|x8 [|]]]]]]]]]]; try discriminate Lx.
  repeat match goal with H : Forall isf (_ :: _) |- _ => inversion H; clear H; subst end.
  eexists. split; [reflexivity|]. split; [repeat split; repeat (constructor; [reflexivity|]); constructor|].
  assert (O : forall q, isf q -> isf (Bopp q)) by (intros; apply f_opp; auto). assert (OV : forall q, isf q -> val (Bopp q) = - val q) by (intros; apply f_opp; auto).
  unfold of_rows, mbuild. cbn [mcols_ map seq nth]. cbn [kopp k0 F64]. split.
  - repeat (apply Forall_cons || apply Forall_nil); auto; reflexivity.
  - unfold jac_mat, as_m3. cbn [map nth a00 a01 a02 a10 a11 a12 a20 a21 a22]. rewrite !OV by assumption. reflexivity.
Qed.
Definition hf : f64 := klit (Scalar:=SK) 1 2.
Lemma hf_ok : isf hf /\ val hf = 1 / 2.
Proof. split; [vm_compute; reflexivity|]. unfold hf. cbn [klit F64]. apply (lit_format 1 2 (-1) 1); try lia; [reflexivity..|]. unfold F2R. cbn [Fnum Fexp]. change (bpow radix2 (-1)) with (/ 2). field. Qed.
Lemma eq_jac64 x : length x = 4%nat -> Forall (fun a => isf a /\ Rabs (val a) <= 2) x -> exists J, eq_diffRetractation (SK:=SK) x = Ok J /\ shape J 4 3 /\
  Forall (Forall isf) (mcols_ J) /\ Forall2 (near_v eta) (map (map val) (mcols_ J)) (jac_q (as_q (map val x))).
Proof.
  intros Lx Fx. destruct x as [|x0 [|x1 [|x2 [|x3 [|]]]]]; try discriminate Lx.
  repeat match goal with H : Forall (fun _ => _) (_ :: _) |- _ => inversion H; clear H; subst end.
  repeat match goal with H : isf _ /\ _ |- _ => destruct H end.
  eexists. split; [reflexivity|]. split; [repeat split; repeat (constructor; [reflexivity|]); constructor|].
  destruct hf_ok as [Fh Vh]. destruct (f_opp hf Fh) as [Fo Vo]. rewrite Vh in Vo.
  assert (HP : forall q, isf q -> Rabs (val q) <= 2 -> isf (hf *! q) /\ Rabs (val (hf *! q) - 1 / 2 * val q) <= eta).
  { intros q Fq Bq. rewrite <- Vh. apply half_err; auto. rewrite Vh. apply Rabs_pos_eq. lra. }
  assert (HM : forall q, isf q -> Rabs (val q) <= 2 -> isf (Bopp hf *! q) /\ Rabs (val (Bopp hf *! q) - - (1 / 2) * val q) <= eta).
  { intros q Fq Bq. rewrite <- Vo. apply half_err; auto. rewrite Vo, Rabs_Ropp. apply Rabs_pos_eq. lra. }
  unfold of_rows, mbuild. cbn [mcols_ map seq nth qw qx qy qz]. change (klit (Scalar:=SK) 1 2) with hf. cbn [kopp kmul F64]. split.
  - repeat (apply Forall_cons || apply Forall_nil); (apply HP || apply HM); assumption.
  - unfold jac_q, as_q. cbn [map nth qw qx qy qz]. repeat (apply Forall2_cons || apply Forall2_nil); (apply HP || apply HM); assumption.
Qed.
End Leaf.
