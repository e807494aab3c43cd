(** C76: the two quaternions of one rotation, in doubles: every operation gives the same rotation, bit for bit. *)
From Coq Require Import Reals List Lra Lia ZArith Bool Arith Psatz Permutation.
From Flocq Require Import Core BinarySingleNaN.
From Verif Require Import Base Scalar Vec Model_Real Model_S2 Model_SO3 Model_Manifold Spec Layout Comp Indep Flat Points
  XR SpecR RotR NumVec NumTree Drift F64 F64Err F64Norm F64S2 F64Exp F64Quat F64Mat F64Mat2 F64Tree F64Go F64Log F64LogQ ExScalar Properties_Float Properties_Anti.
From Verif Require Import F64Sign.
Import ListNotations.
Local Open Scope R_scope.

(** The same element of an elementary manifold: the same doubles; for a quaternion, the same doubles or all with the other
    sign (zeros of any sign are the same). *)
Definition same64 (s : mfd f64) (x x' : list f64) : Prop :=
  match s with
  | Leaf _ (LSO3 MapQuat) _ _ => exists t, Forall2 (sg t) x x'
  | _ => x' = x
  end.
Definition same64M (m : mfd f64) (x x' : list f64) : Prop :=
  exists xs xs', x = concat xs /\ x' = concat xs' /\ pieces DR (leaves m) xs /\ Forall3 same64 (leaves m) xs xs'.

Lemma sg_list_len s (x x' : list f64) : Forall2 (sg s) x x' -> length x' = length x.
Proof. induction 1; cbn; auto. Qed.
Lemma same64_len s x x' : same64 s x x' -> length x' = length x.
Proof. destruct s as [h [| |[|]] a b|]; cbn [same64]; try (intros ->; reflexivity). intros [t H]. eapply sg_list_len; eauto. Qed.
Lemma same64_refl s x : same64 s x x.
Proof. destruct s as [h [| |[|]] a b|]; cbn [same64]; auto. exists false. induction x; constructor; auto using sg_refl. Qed.
Lemma sg4 s x x' : length x = 4%nat -> Forall2 (sg s) x x' -> exists a b c d a' b' c' d', x = [a; b; c; d] /\ x' = [a'; b'; c'; d'] /\ sg s a a' /\ sg s b b' /\ sg s c c' /\ sg s d d'.
Proof.
  intros Lx H. inversion H as [|a a' ? ? H1 G1]; subst; [discriminate|]. inversion G1 as [|b b' ? ? H2 G2]; subst; [discriminate|]. inversion G2 as [|c c' ? ? H3 G3]; subst; [discriminate|].
  inversion G3 as [|d d' ? ? H4 G4]; subst; [discriminate|]. inversion G4; subst; [|discriminate]. repeat eexists; auto.
Qed.

Section Cover.
Context (L : libm) (BL : blind L).
Local Notation SK := (F64 L).

Definition qsg (s : bool) (p q : quat f64) : Prop := sg s (qw p) (qw q) /\ sg s (qx p) (qx q) /\ sg s (qy p) (qy q) /\ sg s (qz p) (qz q).
Lemma qmul_sg s t p p' q q' : qsg s p p' -> qsg t q q' -> qsg (xorb s t) (qmul (SK:=SK) p q) (qmul (SK:=SK) p' q').
Proof.
  intros (P0 & P1 & P2 & P3) (Q0 & Q1 & Q2 & Q3). unfold qmul. cbn [qw qx qy qz ksum kmul kopp SK F64].
  assert (G : forall a b c d a' b' c' d', sg (xorb s t) a a' -> sg (xorb s t) b b' -> sg (xorb s t) c c' -> sg (xorb s t) d d' -> sg (xorb s t) (sum4 L a b c d) (sum4 L a' b' c' d')).
  { intros. apply BL; [discriminate|]. repeat (apply Forall2_cons; [assumption|]). apply Forall2_nil. }
  repeat split; cbn [qw qx qy qz]; apply G; repeat apply sg_opp; apply sg_mul; assumption.
Qed.
Lemma sqs_sg s (l l' : list f64) : Forall2 (sg s) l l' -> map2 (kmul (Scalar:=SK)) l' l' = map2 (kmul (Scalar:=SK)) l l.
Proof.
  induction 1 as [|a b l l' H F IH]; [reflexivity|]. change (b *! b :: map2 (kmul (Scalar:=SK)) l' l' = a *! a :: map2 (kmul (Scalar:=SK)) l l). rewrite IH, (sg_sq s a b H). reflexivity.
Qed.
Lemma sqnorm_sg s (l l' : list f64) : Forall2 (sg s) l l' -> sqnorm (SK:=SK) l' = sqnorm (SK:=SK) l.
Proof. intros H. unfold sqnorm, dot. rewrite (sqs_sg s l l' H). reflexivity. Qed.
Lemma qsqnorm_sg s p q : qsg s p q -> qsqnorm (SK:=SK) q = qsqnorm (SK:=SK) p.
Proof. intros (P0 & P1 & P2 & P3). unfold qsqnorm. apply (sqnorm_sg s). repeat (apply Forall2_cons; [assumption|]). apply Forall2_nil. Qed.
Lemma qinverse_sg s p q : qsg s p q -> exists t, qsg t (qinverse (SK:=SK) p) (qinverse (SK:=SK) q) /\ (kltb (Scalar:=SK) (k0 (Scalar:=SK)) (qsqnorm (SK:=SK) p) = true -> t = s).
Proof.
  intros H. unfold qinverse. rewrite (qsqnorm_sg s p q H). destruct (kltb (Scalar:=SK) _ _) eqn:E.
  - exists s. split; auto. destruct H as (P0 & P1 & P2 & P3). repeat split; cbn [qw qx qy qz]; apply sg_div; auto; apply sg_opp; auto.
  - exists s. split; auto. repeat split; cbn [qw qx qy qz]; right; exists false, false; split; reflexivity.
Qed.

Lemma sg_choice s (a b : f64) : sg s a b -> exists t : bool, b = (if t then Bopp a else a) /\ (Beqb a (B754_zero false : f64) = false -> t = s).
Proof.
  intros [->|(p & q & -> & ->)]; [exists s; auto|]. exists (xorb p q). split; [destruct p, q; reflexivity|]. intros E. cbn in E. discriminate E.
Qed.
Lemma is_zero_opp (a : f64) : Beqb (Bopp a) (B754_zero false : f64) = Beqb a (B754_zero false : f64).
Proof. destruct a as [s|s| |s ? ? ?]; try reflexivity; destruct s; reflexivity. Qed.

(** Odd: the logarithm of two quaternions of opposite signs, the same except at half turns (zero scalar part), where it is the opposite. *)
Lemma eq_log_sg (OD : odd_atan2 L) s p q o r : qsg s p q -> eq_logarithm (SK:=SK) o p = Ok r ->
  exists t r', eq_logarithm (SK:=SK) o q = Ok r' /\ Forall2 (sg t) r r' /\ (Beqb (qw p) (B754_zero false : f64) = false -> t = false).
Proof.
  intros H E. pose proof H as (P0 & P1 & P2 & P3). unfold eq_logarithm in *.
  assert (N2 : sqnorm (SK:=SK) (qvec q) = sqnorm (SK:=SK) (qvec p)) by (apply (sqnorm_sg s); repeat (apply Forall2_cons; [assumption|]); apply Forall2_nil).
  rewrite N2. set (n2 := sqnorm (SK:=SK) (qvec p)) in *. destruct (sg_choice s _ _ P0) as (t & Ew & Et).
  assert (Z : keqb (Scalar:=SK) (qw q) (k0 (Scalar:=SK)) = keqb (Scalar:=SK) (qw p) (k0 (Scalar:=SK))) by (rewrite Ew; destruct t; [apply is_zero_opp|reflexivity]).
  assert (W2 : kmul (Scalar:=SK) (qw q) (qw q) = kmul (Scalar:=SK) (qw p) (qw p)) by (apply (sg_sq s); exact P0).
  rewrite Z, W2.
  assert (SC : forall k k', k' = (if t then Bopp k else k) -> forall r, assign o (vscale (SK:=SK) k (qvec p)) = Ok r ->
    exists r', assign o (vscale (SK:=SK) k' (qvec q)) = Ok r' /\ Forall2 (sg (xorb t s)) r r').
  { intros k k' Ek r0 A. unfold assign in *. change (length (vscale (SK:=SK) k' (qvec q))) with 3%nat. change (length (vscale (SK:=SK) k (qvec p))) with 3%nat in A.
    destruct (length o =? 3)%nat; [|discriminate A]. cbn [eigen_assert bind] in *. exists (vscale (SK:=SK) k' (qvec q)). split; [reflexivity|].
    assert (A' : r0 = vscale (SK:=SK) k (qvec p)) by (clear - A; congruence). subst r0.
    assert (Hk : sg t k k') by (left; exact Ek).
    unfold vscale, qvec. cbn [map]. repeat (apply Forall2_cons; [apply (sg_mul t s); assumption|]). apply Forall2_nil. }
  exists (xorb t s). assert (TT : Beqb (qw p) (B754_zero false : f64) = false -> xorb t s = false) by (intros Q; rewrite (Et Q); apply xorb_nilpotent).
  destruct (kltb (Scalar:=SK) _ _ && _)%bool.
  - destruct (SC _ (kdiv (Scalar:=SK) (klit (Scalar:=SK) 2 1) (qw q)) ltac:(rewrite Ew; destruct t; [apply div_opp_r|reflexivity]) r E) as (r' & R1 & R2). exists r'. auto.
  - match type of E with assign _ (vscale ?k _) = _ => destruct (SC k (kdiv (Scalar:=SK) (katan2 (Scalar:=SK) (kmul (Scalar:=SK) (kmul (Scalar:=SK) (klit (Scalar:=SK) 2 1) (ksqrt (Scalar:=SK) n2)) (qw q)) (ksub (Scalar:=SK) (kmul (Scalar:=SK) (qw p) (qw p)) n2)) (ksqrt (Scalar:=SK) n2))) with (r := r) as (r' & R1 & R2); [|exact E|exists r'; auto] end.
    rewrite Ew. destruct t; [|reflexivity]. change (kmul (Scalar:=SK)) with (Bmult mode_NE (prec:=53) (emax:=1024)). change (katan2 (Scalar:=SK)) with (f_atan2 L). change (kdiv (Scalar:=SK)) with (Bdiv mode_NE (prec:=53) (emax:=1024)).
    rewrite mul_opp, OD, div_opp_l. reflexivity.
Qed.

(** ** Elementary manifolds *)
Lemma retract_leaf h l a b x x' v o o' r : let s := Leaf h l a b in leaf_wf h l a b -> same64 s x x' -> length x = representationDim s -> length o' = length o ->
  retractation (SK:=SK) s o x v = Ok r -> exists r', retractation (SK:=SK) s o' x' v = Ok r' /\ same64 s r r'.
Proof.
  intros s W S Lx Lo H. assert (Ws : wf s) by (constructor; exact W).
  destruct l as [| |[|]]; unfold s in S; cbn [same64] in S; try (subst x'; exists r; split; [rewrite (retractation_indep s Ws o' o) by auto; exact H|apply same64_refl]).
  destruct S as [t S]. unfold s in *. assert (L4 : length x = 4%nat) by (rewrite Lx; unfold leaf_wf in W; cbn; apply W).
  pose proof (sg_list_len _ _ _ S) as Lx'.
  cbn [retractation isInTxM] in *. rewrite Lx', Lo. destruct (length o =? _)%nat eqn:E1; [|discriminate H]. destruct (length x =? _)%nat eqn:E2; [|discriminate H]. destruct (length v =? _)%nat eqn:E3; [|discriminate H].
  cbn [mnf_assert bind] in *. clear E2. destruct (sg4 t x x' L4 S) as (x0 & x1 & x2 & x3 & y0 & y1 & y2 & y3 & -> & -> & S0 & S1 & S2 & S3).
  unfold eq_retractation, eq_retractation_at in *. destruct (eq_exponential (SK:=SK) _ v) as [e|] eqn:Ee; [|discriminate H]. cbn [bind] in *.
  change (quat_read [x0; x1; x2; x3]) with (Ok (Q4 x0 x1 x2 x3)) in H. change (quat_read [y0; y1; y2; y3]) with (Ok (Q4 y0 y1 y2 y3)). cbn [bind] in *.
  apply Nat.eqb_eq in E1. assert (O4 : length o = 4%nat) by (rewrite E1; unfold leaf_wf in W; cbn; apply W).
  destruct o as [|o0 [|o1 [|o2 [|o3 [|]]]]]; try discriminate O4. rewrite O4 in Lo. destruct o' as [|p0 [|p1 [|p2 [|p3 [|]]]]]; try discriminate Lo.
  assert (Q : qsg t (qmul (SK:=SK) (Q4 x0 x1 x2 x3) e) (qmul (SK:=SK) (Q4 y0 y1 y2 y3) e)).
  { replace t with (xorb t false) by apply xorb_false_r. apply qmul_sg; repeat split; auto using sg_refl. }
  set (m1 := qmul (SK:=SK) (Q4 x0 x1 x2 x3) e) in *. set (m2 := qmul (SK:=SK) (Q4 y0 y1 y2 y3) e) in *.
  change (Ok (quat_to_list m1) = Ok r) in H. exists (quat_to_list m2). split; [reflexivity|]. assert (r = quat_to_list m1) by congruence. subst r.
  exists t. destruct Q as (? & ? & ? & ?). repeat (apply Forall2_cons; [assumption|]). apply Forall2_nil.
Qed.
Lemma force_leaf h l a b x x' o r : let s := Leaf h l a b in leaf_wf h l a b -> same64 s x x' -> length x = representationDim s ->
  forceOnM (SK:=SK) s o x = Ok r -> exists r', forceOnM (SK:=SK) s o x' = Ok r' /\ same64 s r r'.
Proof.
  intros s W S Lx H. destruct l as [| |[|]]; unfold s in S; cbn [same64] in S; try (subst x'; exists r; split; [exact H|apply same64_refl]).
  destruct S as [t S]. unfold s in *. assert (L4 : length x = 4%nat) by (rewrite Lx; unfold leaf_wf in W; cbn; apply W).
  pose proof (sg_list_len _ _ _ S) as Lx'.
  cbn [forceOnM] in *. rewrite Lx'. destruct (length o =? _)%nat eqn:E1; [|discriminate H]. destruct (length x =? _)%nat eqn:E2; [|discriminate H].
  cbn [mnf_assert bind] in *. clear E2. destruct (sg4 t x x' L4 S) as (x0 & x1 & x2 & x3 & y0 & y1 & y2 & y3 & -> & -> & S0 & S1 & S2 & S3).
  unfold eq_forceOnM in *.
  change (quat_read [x0; x1; x2; x3]) with (Ok (Q4 x0 x1 x2 x3)) in H. change (quat_read [y0; y1; y2; y3]) with (Ok (Q4 y0 y1 y2 y3)). cbn [bind] in *.
  apply Nat.eqb_eq in E1. assert (O4 : length o = 4%nat) by (rewrite E1; unfold leaf_wf in W; cbn; apply W).
  destruct o as [|o0 [|o1 [|o2 [|o3 [|]]]]]; try discriminate O4.
  rewrite (qsqnorm_sg t (Q4 x0 x1 x2 x3) (Q4 y0 y1 y2 y3)) by (repeat split; auto).
  set (n := ksqrt (Scalar:=SK) _) in *. change (Ok [x0 /! n; x1 /! n; x2 /! n; x3 /! n] = Ok r) in H. exists [y0 /! n; y1 /! n; y2 /! n; y3 /! n]. split; [reflexivity|].
  assert (r = [x0 /! n; x1 /! n; x2 /! n; x3 /! n]) by congruence. subst r. exists t. repeat (apply Forall2_cons; [apply sg_div; assumption|]). apply Forall2_nil.
Qed.
Lemma isIn_leaf h l a b x x' p : let s := Leaf h l a b in leaf_wf h l a b -> same64 s x x' -> length x = representationDim s -> isInM (SK:=SK) s x' p = isInM (SK:=SK) s x p.
Proof.
  intros s W S Lx. destruct l as [| |[|]]; unfold s in S; cbn [same64] in S; try (subst x'; reflexivity).
  destruct S as [t S]. unfold s in *. assert (L4 : length x = 4%nat) by (rewrite Lx; unfold leaf_wf in W; cbn; apply W).
  pose proof (sg_list_len _ _ _ S) as Lx'. cbn [isInM]. rewrite Lx'. destruct (length x =? _)%nat; [|reflexivity]. cbn [mnf_assert bind].
  destruct (sg4 t x x' L4 S) as (x0 & x1 & x2 & x3 & y0 & y1 & y2 & y3 & -> & -> & S0 & S1 & S2 & S3). unfold eq_isInM.
  change (quat_read [x0; x1; x2; x3]) with (Ok (Q4 x0 x1 x2 x3)). change (quat_read [y0; y1; y2; y3]) with (Ok (Q4 y0 y1 y2 y3)). cbn [bind].
  rewrite (qsqnorm_sg t (Q4 x0 x1 x2 x3) (Q4 y0 y1 y2 y3)) by (repeat split; auto). reflexivity.
Qed.

(** The two rotations are not a half turn apart: finite quaternions of norm about one, whose exact scalar product is not tiny. *)
Definition apart_half (s : mfd f64) (x y : list f64) : Prop :=
  match s with
  | Leaf _ (LSO3 MapQuat) _ _ => exists X Y, x = quat_to_list X /\ y = quat_to_list Y /\ qfin X /\ qfin Y /\ Rabs (qn2 (qval X) - 1) <= 1 / 1000 /\ Rabs (qn2 (qval Y) - 1) <= 1 / 1000 /\
      1 / 10 ^ 12 <= Rabs (val (qw X) * val (qw Y) + val (qx X) * val (qx Y) + val (qy X) * val (qy Y) + val (qz X) * val (qz Y))
  | _ => True
  end.
Lemma qw_nonzero X Y : qfin X -> qfin Y -> Rabs (qn2 (qval X) - 1) <= 1 / 1000 -> Rabs (qn2 (qval Y) - 1) <= 1 / 1000 ->
  1 / 10 ^ 12 <= Rabs (val (qw X) * val (qw Y) + val (qx X) * val (qx Y) + val (qy X) * val (qy Y) + val (qz X) * val (qz Y)) ->
  Beqb (qw (qmul (SK:=SK) (qinverse (SK:=SK) X) Y)) (B754_zero false : f64) = false.
Proof.
  intros (F0 & F1 & F2 & F3) (E0 & E1 & E2 & E3) HN HY HD. pose proof u_pos as U. pose proof u_tiny as U1. pose proof eta_u50 as T.
  apply Rabs_ends in HN. apply Rabs_ends in HY. set (N := qn2 (qval X)) in *. assert (N1 : 999 / 1000 <= N <= 1001 / 1000) by lra.
  assert (EN : sq4 (val (qx X)) (val (qy X)) (val (qz X)) (val (qw X)) = N) by (unfold N, qn2, qval, sq4; cbn [qw qx qy qz]; ring).
  destruct (norm4_err L (qx X) (qy X) (qz X) (qw X) F1 F2 F3 F0) as [Fs _]; [rewrite EN; lra|]. apply sqrt_fin_arg in Fs.
  destruct (dot4_err L _ _ _ _ Fs) as (_ & _ & _ & _ & ED). rewrite EN in ED. set (n2 := sum4 L (qx X *! qx X) (qy X *! qy X) (qz X *! qz X) (qw X *! qw X)) in *.
  assert (UN : u * (999 / 1000) <= u * N <= u * (1001 / 1000)) by (split; apply Rmult_le_compat_l; lra).
  assert (ED' : Rabs (val n2 - N) <= 403 / 100 * (u * N)) by lra. pose proof (Rabs_ends _ _ ED') as EDs.
  unfold qinverse. change (qsqnorm (SK:=F64 L) X) with n2. change (kltb (Scalar:=F64 L) k0 n2) with (Bltb (of_Z 0) n2).
  assert (TB : Bltb (of_Z 0) n2 = true). { rewrite f_ltb by (auto; reflexivity). apply Rlt_bool_true. change (val (of_Z 0)) with 0. lra. } rewrite TB.
  assert (NX : qw (qval X) * qw (qval X) + qx (qval X) * qx (qval X) + qy (qval X) * qy (qval X) + qz (qval X) * qz (qval X) = N) by reflexivity. unfold qval in NX. cbn [qw qx qy qz] in NX.
  pose proof (entry_le (val (qw X)) N ltac:(nra) ltac:(lra)) as B0. pose proof (entry_le (val (qx X)) N ltac:(nra) ltac:(lra)) as B1. pose proof (entry_le (val (qy X)) N ltac:(nra) ltac:(lra)) as B2. pose proof (entry_le (val (qz X)) N ltac:(nra) ltac:(lra)) as B3.
  set (M := qn2 (qval Y)) in *. assert (NY : val (qw Y) * val (qw Y) + val (qx Y) * val (qx Y) + val (qy Y) * val (qy Y) + val (qz Y) * val (qz Y) = M) by reflexivity.
  pose proof (entry_le (val (qw Y)) M ltac:(nra) ltac:(lra)) as Z0. pose proof (entry_le (val (qx Y)) M ltac:(nra) ltac:(lra)) as Z1. pose proof (entry_le (val (qy Y)) M ltac:(nra) ltac:(lra)) as Z2. pose proof (entry_le (val (qz Y)) M ltac:(nra) ltac:(lra)) as Z3.
  destruct (f_opp _ F1) as [O1 V1]. destruct (f_opp _ F2) as [O2 V2]. destruct (f_opp _ F3) as [O3 V3].
  destruct (inv_entry _ _ _ F0 ED' N1 B0) as [I0 J0]. destruct (inv_entry _ _ _ O1 ED' N1 ltac:(rewrite V1, Rabs_Ropp; auto)) as [I1 J1]. destruct (inv_entry _ _ _ O2 ED' N1 ltac:(rewrite V2, Rabs_Ropp; auto)) as [I2 J2]. destruct (inv_entry _ _ _ O3 ED' N1 ltac:(rewrite V3, Rabs_Ropp; auto)) as [I3 J3].
  rewrite V1 in I1, J1. rewrite V2 in I2, J2. rewrite V3 in I3, J3.
  assert (SF : forall e : f64, isf e -> cl e (val e) (82 * u)) by (intros e Fe; split; auto; rewrite Rminus_eq_0, Rabs_R0; lra).
  destruct (prod87 _ _ _ _ I0 (SF _ E0) J0 Z0) as [? ?]. destruct (prod87 _ _ _ _ I1 (SF _ E1) J1 Z1) as [? ?]. destruct (prod87 _ _ _ _ I2 (SF _ E2) J2 Z2) as [? ?]. destruct (prod87 _ _ _ _ I3 (SF _ E3) J3 Z3) as [? ?].
  unfold qmul. cbn [qw qx qy qz kadd ksub ksum kmul kdiv kopp F64].
  match goal with |- Beqb ?z _ = _ => assert (C : cl z (val (qw X) / N * val (qw Y) - - val (qx X) / N * val (qx Y) - - val (qy X) / N * val (qy Y) - - val (qz X) / N * val (qz Y)) (364 * u)) by (apply sum885; auto); destruct C as [Fz Ez]; generalize z Fz Ez end.
  intros z Fz' Ez'. rewrite Beqb_correct by auto. apply Req_bool_false. intros Q. change (B2R (B754_zero false : f64)) with 0 in Q. rewrite Q in Ez'.
  set (D := val (qw X) * val (qw Y) + val (qx X) * val (qx Y) + val (qy X) * val (qy Y) + val (qz X) * val (qz Y)) in *.
  replace (0 - _) with (- (D / N)) in Ez' by (unfold D; field; lra). rewrite Rabs_Ropp in Ez'. unfold Rdiv in Ez'. rewrite Rabs_mult, Rabs_inv, (Rabs_pos_eq N) in Ez' by lra.
  assert (Rabs D <= 364 * u * N). { apply (Rmult_le_compat_r N) in Ez'; [|lra]. rewrite Rmult_assoc, Rinv_l in Ez' by lra. lra. }
  assert (364 * u * N <= 364 * u * (1001 / 1000)) by (apply Rmult_le_compat_l; lra). pose proof u_val as UV. cbn [pow] in HD. lra.
Qed.

Lemma pseudoLog_leaf (OD : odd_atan2 L) h l a b x x' y y' o o' r : let s := Leaf h l a b in leaf_wf h l a b -> same64 s x x' -> same64 s y y' -> length x = representationDim s -> length y = representationDim s -> length o' = length o ->
  pseudoLog (SK:=SK) s o x y = Ok r -> exists r', pseudoLog (SK:=SK) s o' x' y' = Ok r' /\ same64 s r r' /\ (apart_half s x y -> Forall2 (sg false) r r').
Proof.
  intros s W S T Lx Ly Lo H. assert (Ws : wf s) by (constructor; exact W).
  assert (RF : forall l : list f64, Forall2 (sg false) l l) by (induction l0; constructor; auto using sg_refl).
  destruct l as [| |[|]]; unfold s in S, T; cbn [same64] in S, T; try (subst x' y'; exists r; split; [rewrite (pseudoLog_indep (SK:=SK) s Ws o' o) by auto; exact H|split; [apply same64_refl|auto]]).
  destruct S as [t S]. destruct T as [t' T]. unfold s in *. assert (L4 : length x = 4%nat) by (rewrite Lx; unfold leaf_wf in W; cbn; apply W). assert (M4 : length y = 4%nat) by (rewrite Ly; unfold leaf_wf in W; cbn; apply W).
  pose proof (sg_list_len _ _ _ S) as Lx'. pose proof (sg_list_len _ _ _ T) as Ly'.
  cbn [pseudoLog] in *. rewrite Lx', Ly', Lo. destruct (length o =? _)%nat eqn:Q1; [|discriminate H]. destruct (length x =? _)%nat eqn:Q2; [|discriminate H]. destruct (length y =? _)%nat eqn:Q3; [|discriminate H].
  cbn [mnf_assert bind] in *. clear Q2 Q3. destruct (sg4 t x x' L4 S) as (x0 & x1 & x2 & x3 & z0 & z1 & z2 & z3 & -> & -> & S0 & S1 & S2 & S3).
  destruct (sg4 t' y y' M4 T) as (y0 & y1 & y2 & y3 & w0 & w1 & w2 & w3 & -> & -> & T0 & T1 & T2 & T3).
  unfold eq_pseudoLog in *. change (quat_read [x0; x1; x2; x3]) with (Ok (Q4 x0 x1 x2 x3)) in H. change (quat_read [y0; y1; y2; y3]) with (Ok (Q4 y0 y1 y2 y3)) in H.
  change (quat_read [z0; z1; z2; z3]) with (Ok (Q4 z0 z1 z2 z3)). change (quat_read [w0; w1; w2; w3]) with (Ok (Q4 w0 w1 w2 w3)). cbn [bind] in *.
  destruct (qinverse_sg t (Q4 x0 x1 x2 x3) (Q4 z0 z1 z2 z3)) as (t2 & QI & _); [repeat split; auto|].
  assert (QM := qmul_sg t2 t' _ _ (Q4 y0 y1 y2 y3) (Q4 w0 w1 w2 w3) QI ltac:(repeat split; auto)).
  destruct (eq_log_sg OD _ _ _ o r QM H) as (k & r' & R1 & R2 & R3). exists r'. split; [|split; [exists k; exact R2|]].
  - rewrite <- R1. unfold eq_logarithm. destruct (_ && _)%bool; unfold assign; rewrite Lo; reflexivity.
  - intros (X & Y & EX & EY & FX & FY & NX & NY & D). destruct X as [X0 X1 X2 X3], Y as [Y0 Y1 Y2 Y3]. unfold quat_to_list in EX, EY. cbn [Model_SO3.qw Model_SO3.qx Model_SO3.qy Model_SO3.qz] in EX, EY. injection EX as -> -> -> ->. injection EY as -> -> -> ->.
    rewrite <- (R3 (qw_nonzero _ _ FX FY NX NY D)). exact R2.
Qed.
Lemma pseudoLog0_leaf (OD : odd_atan2 L) h l a b x x' o o' r : let s := Leaf h l a b in leaf_wf h l a b -> same64 s x x' -> length x = representationDim s -> length o' = length o ->
  pseudoLog0 (SK:=SK) s o x = Ok r -> exists r', pseudoLog0 (SK:=SK) s o' x' = Ok r' /\ same64 s r r' /\ (val (nth 0 x (B754_zero false)) <> 0 -> Forall2 (sg false) r r').
Proof.
  intros s W S Lx Lo H. assert (Ws : wf s) by (constructor; exact W).
  assert (RF : forall l : list f64, Forall2 (sg false) l l) by (induction l0; constructor; auto using sg_refl).
  destruct l as [| |[|]]; unfold s in S; cbn [same64] in S; try (subst x'; exists r; split; [rewrite (pseudoLog0_indep (SK:=SK) s Ws o' o) by auto; exact H|split; [apply same64_refl|auto]]).
  destruct S as [t S]. unfold s in *. assert (L4 : length x = 4%nat) by (rewrite Lx; unfold leaf_wf in W; cbn; apply W).
  pose proof (sg_list_len _ _ _ S) as Lx'.
  cbn [pseudoLog0] in *. rewrite Lx', Lo. destruct (length o =? _)%nat eqn:Q1; [|discriminate H]. destruct (length x =? _)%nat eqn:Q2; [|discriminate H].
  cbn [mnf_assert bind] in *. clear Q2. destruct (sg4 t x x' L4 S) as (x0 & x1 & x2 & x3 & z0 & z1 & z2 & z3 & -> & -> & S0 & S1 & S2 & S3).
  destruct (eq_log_sg OD t (Q4 x0 x1 x2 x3) (Q4 z0 z1 z2 z3) o r ltac:(repeat split; auto) H) as (k & r' & R1 & R2 & R3). exists r'. split; [|split; [exists k; exact R2|]].
  - rewrite <- R1. unfold eq_pseudoLog0. change (quat_read [z0; z1; z2; z3]) with (Ok (Q4 z0 z1 z2 z3)). cbn [length Nat.eqb eigen_assert bind]. unfold eq_logarithm. destruct (_ && _)%bool; unfold assign; rewrite Lo; reflexivity.
  - intros D. rewrite <- R3; [exact R2|]. cbn [nth] in D. cbn [qw]. destruct x0 as [e|e| |e ? ? ?]; [exfalso; apply D; reflexivity|destruct e; reflexivity|reflexivity|destruct e; reflexivity].
Qed.
End Cover.

Lemma sg_sym s a b : sg s a b -> sg s b a.
Proof. intros [->|(p & q & -> & ->)]; [left; destruct s; rewrite ?Bopp_involutive; reflexivity|right; eauto]. Qed.
Lemma same64_sym s x x' : same64 s x x' -> same64 s x' x.
Proof.
  destruct s as [h [| |[|]] a b|]; cbn [same64]; try (intros ->; reflexivity). intros [t H]. exists t. induction H; constructor; auto using sg_sym.
Qed.
Lemma same_pieces ls xs xs' : pieces DR ls xs -> Forall3 same64 ls xs xs' -> pieces DR ls xs'.
Proof.
  intros P F. induction F as [|s x x' ls xs xs' H F IH]; [constructor|]. inversion P; subst. constructor; [|apply IH; auto]. rewrite (same64_len _ _ _ H). assumption.
Qed.
Lemma same64M_sym m x x' : same64M m x x' -> same64M m x' x.
Proof.
  intros (xs & xs' & -> & -> & P & F). exists xs', xs. repeat split; auto; [eapply same_pieces; eauto|]. clear P. induction F; constructor; auto using same64_sym.
Qed.
Lemma same64M_refl m x : wf m -> length x = representationDim m -> same64M m x x.
Proof.
  intros W H. destruct (cut_gen DR m x W H) as (xs & -> & P). exists xs, xs. repeat split; auto. clear H W. induction P; constructor; auto using same64_refl.
Qed.
Lemma same64M_len m x x' : wf m -> same64M m x x' -> length x = representationDim m /\ length x' = representationDim m.
Proof.
  intros W (xs & xs' & -> & -> & P & F). split; [apply (pieces_total DR m xs W P)|apply (pieces_total DR m xs' W)]. eapply same_pieces; eauto.
Qed.

(** Moving by the same vector, on every tree: the results are the same. *)
Theorem C76_retract : forall (L : libm) (m : mfd f64) o o' x x' v r, blind L -> built m -> same64M m x x' ->
  length o = representationDim m -> length o' = representationDim m -> length v = tangentDim m ->
  retractation (SK:=F64 L) m o x v = Ok r -> exists r', retractation (SK:=F64 L) m o' x' v = Ok r' /\ same64M m r r'.
Proof.
  intros L m o o' x x' v r BL B (xs & xs' & -> & -> & Px & F) Lo Lo' Lv H. pose proof (built_wf m B) as W.
  destruct (cut_gen DR m o W Lo) as (os & -> & Po). destruct (cut_gen DR m o' W Lo') as (os' & -> & Po'). destruct (cut_gen DT m v W Lv) as (vs & -> & Pv).
  pose proof (same_pieces _ _ _ Px F) as Px'. apply (flat_op DR DR DT retractation retractation_prod m W) in H; auto. destruct H as (ys & -> & H).
  pose proof (fun s => leaf_inv_gen m s W) as G.
  assert (E : exists ys', Forall5 (fun s o x v r => retractation (SK:=F64 L) s o x v = Ok r) (leaves m) os' xs' vs ys' /\ Forall3 same64 (leaves m) ys ys' /\ pieces DR (leaves m) ys).
  { clear W B Lo Lo' Lv. revert Px Px' Po Po' Pv F G. revert xs' os'. induction H as [|s o x v y ls os xs vs ys H1 H2 IH]; intros xs' os' Px Px' Po Po' Pv F G.
    - inversion F; subst. inversion Po'; subst. exists []. repeat split; constructor.
    - inversion F as [|? ? x' ? ? xs'' F1 F2]; subst. inversion Px; subst. inversion Px'; subst. inversion Po; subst. inversion Po' as [|? o' ? os'' Po1 Po2]; subst. inversion Pv; subst.
      destruct (IH xs'' os'') as (ys' & A1 & A2 & A3); auto. { intros q0 Hq. apply G. simpl; auto. }
      destruct (G s) as (h & l & a & b & -> & Wl); [simpl; auto|].
      destruct (retract_leaf L BL h l a b x x' v o o' y Wl F1) as (y' & E1 & E2); auto; [unfold getDim in *; congruence|].
      exists (y' :: ys'). split; [constructor; auto|]. split; [constructor; auto|]. constructor; auto. apply (retractation_length (SK:=F64 L)) in H1. unfold getDim in *. congruence. }
  destruct E as (ys' & A1 & A2 & A3). exists (concat ys'). split; [apply (flat_op DR DR DT retractation retractation_prod m W); eauto|]. exists ys, ys'. auto.
Qed.

(** Any number of moves: the two walks stay the same for ever. *)
Theorem C76_walk : forall (L : libm) (m : mfd f64) x x' vs r, blind L -> built m -> same64M m x x' -> Forall (fun v => length v = tangentDim m) vs ->
  increments64 L m x vs = Ok r -> exists r', increments64 L m x' vs = Ok r' /\ same64M m r r'.
Proof.
  intros L m x x' vs r BL B S Hv. pose proof (built_wf m B) as W. revert x x' S. induction Hv as [|v vs Lv Hv IH]; intros x x' S H; cbn [increments64] in *.
  - assert (r = x) by congruence. subst r. exists x'. auto.
  - destruct (retractation _ _ _ _) as [y|] eqn:E; [|discriminate H]. cbn [bind] in H. destruct (same64M_len _ _ _ W S) as [Lx Lx'].
    destruct (C76_retract L m x x' x x' v y BL B S Lx Lx' Lv E) as (y' & E' & S'). rewrite E'. cbn [bind]. apply (IH y y' S' H).
Qed.

(** Repairing a point: the same. *)
Theorem C76_repair : forall (L : libm) (m : mfd f64) o x x' r, blind L -> built m -> same64M m x x' -> length o = representationDim m ->
  forceOnM (SK:=F64 L) m o x = Ok r -> exists r', forceOnM (SK:=F64 L) m o x' = Ok r' /\ same64M m r r'.
Proof.
  intros L m o x x' r BL B (xs & xs' & -> & -> & Px & F) Lo H. pose proof (built_wf m B) as W.
  destruct (cut_gen DR m o W Lo) as (os & -> & Po).
  pose proof (same_pieces _ _ _ Px F) as Px'. apply (flat_op1 DR DR (forceOnM (SK:=F64 L)) forceOnM_prod m W) in H; auto. destruct H as (ys & -> & H).
  pose proof (fun s => leaf_inv_gen m s W) as G.
  assert (E : exists ys', Forall4 (fun s o x r => forceOnM (SK:=F64 L) s o x = Ok r) (leaves m) os xs' ys' /\ Forall3 same64 (leaves m) ys ys' /\ pieces DR (leaves m) ys).
  { clear W B Lo. revert Px Px' Po F G. revert xs'. induction H as [|s o x y ls os xs ys H1 H2 IH]; intros xs' Px Px' Po F G.
    - inversion F; subst. exists []. repeat split; constructor.
    - inversion F as [|? ? x' ? ? xs'' F1 F2]; subst. inversion Px; subst. inversion Px'; subst. inversion Po; subst.
      destruct (IH xs'') as (ys' & A1 & A2 & A3); auto. { intros q0 Hq. apply G. simpl; auto. }
      destruct (G s) as (h & l & a & b & -> & Wl); [simpl; auto|].
      destruct (force_leaf L h l a b x x' o y Wl F1) as (y' & E1 & E2); auto.
      exists (y' :: ys'). split; [constructor; auto|]. split; [constructor; auto|]. constructor; auto. apply (forceOnM_length (SK:=F64 L)) in H1. unfold getDim in *. congruence. }
  destruct E as (ys' & A1 & A2 & A3). exists (concat ys'). split; [apply (flat_op1 DR DR (forceOnM (SK:=F64 L)) forceOnM_prod m W); eauto|]. exists ys, ys'. auto.
Qed.

(** Testing membership: the same verdict, with any precision. *)
Theorem C76_member : forall (L : libm) (m : mfd f64) x x' p, built m -> same64M m x x' -> isInM (SK:=F64 L) m x p = Ok true <-> isInM (SK:=F64 L) m x' p = Ok true.
Proof.
  intros L m. assert (D : forall x x' p, built m -> same64M m x x' -> isInM (SK:=F64 L) m x p = Ok true -> isInM (SK:=F64 L) m x' p = Ok true).
  { intros x x' p B (xs & xs' & -> & -> & Px & F) H. pose proof (built_wf m B) as W. pose proof (same_pieces _ _ _ Px F) as Px'.
    assert (Q : exists q, (match m with Leaf _ _ _ _ => True | _ => q = default_prec (SK:=F64 L) end) /\ forall z, isInM (SK:=F64 L) m z p = isInM (SK:=F64 L) m z q).
    { destruct m; [exists p; auto|]. exists (default_prec (SK:=F64 L)). split; auto. }
    destruct Q as (q & C & Q). rewrite Q in H |- *. apply (isInM_leaves m W) in H; auto. apply (isInM_leaves m W); auto.
    pose proof (fun s => leaf_inv_gen m s W) as G. clear W B C Q Px'. revert H Px G. induction F as [|s x x' ls xs xs' F1 F2 IH]; intros H Px G; [constructor|].
    inversion H; subst. inversion Px; subst. constructor; [|apply IH; auto; intros q0 Hq; apply G; simpl; auto].
    destruct (G s) as (h & l & a & b & -> & Wl); [simpl; auto|]. rewrite (isIn_leaf L h l a b x x' q Wl F1); auto. }
  intros x x' p B S. split; intros H; eapply D; eauto using same64M_sym.
Qed.

(** The logarithm: the same up to the sign of each rotation vector; and the same sign wherever the rotations are not a half turn apart. *)
Theorem C76_log : forall (L : libm) (m : mfd f64) o o' xs xs' ys ys' w, blind L -> odd_atan2 L -> built m -> pieces DR (leaves m) xs -> pieces DR (leaves m) ys ->
  Forall3 same64 (leaves m) xs xs' -> Forall3 same64 (leaves m) ys ys' -> length o = tangentDim m -> length o' = tangentDim m ->
  pseudoLog (SK:=F64 L) m o (concat xs) (concat ys) = Ok w -> exists ws ws', w = concat ws /\ pseudoLog (SK:=F64 L) m o' (concat xs') (concat ys') = Ok (concat ws') /\
    pieces DT (leaves m) ws /\ Forall3 same64 (leaves m) ws ws' /\ (Forall3 apart_half (leaves m) xs ys -> Forall2 (sg false) w (concat ws')).
Proof.
  intros L m o o' xs xs' ys ys' w BL OD B Px Py F F' Lo Lo' H. pose proof (built_wf m B) as W.
  destruct (cut_gen DT m o W Lo) as (os & -> & Po). destruct (cut_gen DT m o' W Lo') as (os' & -> & Po').
  pose proof (same_pieces _ _ _ Px F) as Px'. pose proof (same_pieces _ _ _ Py F') as Py'. apply (flat_op DT DR DR pseudoLog pseudoLog_prod m W) in H; auto. destruct H as (ws & -> & H).
  pose proof (fun s => leaf_inv_gen m s W) as G.
  assert (E : exists ws', Forall5 (fun s o x v r => pseudoLog (SK:=F64 L) s o x v = Ok r) (leaves m) os' xs' ys' ws' /\ Forall3 same64 (leaves m) ws ws' /\ pieces DT (leaves m) ws /\ (Forall3 apart_half (leaves m) xs ys -> Forall2 (sg false) (concat ws) (concat ws'))).
  { clear W B Lo Lo'. revert Px Px' Py Py' Po Po' F F' G. revert xs' ys' os'. induction H as [|s o x y w ls os xs ys ws H1 H2 IH]; intros xs' ys' os' Px Px' Py Py' Po Po' F F' G.
    - inversion F; subst. inversion F'; subst. inversion Po'; subst. exists []. repeat split; constructor.
    - inversion F as [|? ? x' ? ? xs'' F1 F2]; subst. inversion F' as [|? ? y' ? ? ys'' F1' F2']; subst. inversion Px; subst. inversion Px'; subst. inversion Py; subst. inversion Py'; subst. inversion Po; subst. inversion Po' as [|? o' ? os'' Po1 Po2]; subst.
      destruct (IH xs'' ys'' os'') as (ws' & A1 & A2 & A3 & A4); auto. { intros q0 Hq. apply G. simpl; auto. }
      destruct (G s) as (h & l & a & b & -> & Wl); [simpl; auto|].
      destruct (pseudoLog_leaf L BL OD h l a b x x' y y' o o' w Wl F1 F1') as (w' & E1 & E2 & E3); auto; [unfold getDim in *; congruence|].
      exists (w' :: ws'). split; [constructor; auto|]. split; [constructor; auto|]. split; [constructor; auto; apply (pseudoLog_length (SK:=F64 L)) in H1; unfold getDim in *; congruence|].
      intros A. inversion A; subst. cbn [concat]. apply Forall2_app; auto. }
  destruct E as (ws' & A1 & A2 & A3 & A4). exists ws, ws'. repeat split; auto. apply (flat_op DT DR DR pseudoLog pseudoLog_prod m W); eauto.
Qed.
Theorem C76_log0 : forall (L : libm) (m : mfd f64) o o' xs xs' w, blind L -> odd_atan2 L -> built m -> pieces DR (leaves m) xs ->
  Forall3 same64 (leaves m) xs xs' -> length o = tangentDim m -> length o' = tangentDim m ->
  pseudoLog0 (SK:=F64 L) m o (concat xs) = Ok w -> exists ws ws', w = concat ws /\ pseudoLog0 (SK:=F64 L) m o' (concat xs') = Ok (concat ws') /\
    pieces DT (leaves m) ws /\ Forall3 same64 (leaves m) ws ws' /\
    (Forall2 (fun s x => match s with Leaf _ (LSO3 MapQuat) _ _ => val (nth 0 x (B754_zero false)) <> 0 | _ => True end) (leaves m) xs -> Forall2 (sg false) w (concat ws')).
Proof.
  intros L m o o' xs xs' w BL OD B Px F Lo Lo' H. pose proof (built_wf m B) as W.
  destruct (cut_gen DT m o W Lo) as (os & -> & Po). destruct (cut_gen DT m o' W Lo') as (os' & -> & Po').
  pose proof (same_pieces _ _ _ Px F) as Px'. apply (flat_op1 DT DR (pseudoLog0 (SK:=F64 L)) pseudoLog0_prod m W) in H; auto. destruct H as (ws & -> & H).
  pose proof (fun s => leaf_inv_gen m s W) as G. match goal with |- context [Forall2 ?f (leaves m) xs] => set (Q := f) end.
  assert (E : exists ws', Forall4 (fun s o x r => pseudoLog0 (SK:=F64 L) s o x = Ok r) (leaves m) os' xs' ws' /\ Forall3 same64 (leaves m) ws ws' /\ pieces DT (leaves m) ws /\ (Forall2 Q (leaves m) xs -> Forall2 (sg false) (concat ws) (concat ws'))).
  { clear W B Lo Lo'. revert Px Px' Po Po' F G. revert xs' os'. induction H as [|s o x w ls os xs ws H1 H2 IH]; intros xs' os' Px Px' Po Po' F G.
    - inversion F; subst. inversion Po'; subst. exists []. repeat split; constructor.
    - inversion F as [|? ? x' ? ? xs'' F1 F2]; subst. inversion Px; subst. inversion Px'; subst. inversion Po; subst. inversion Po' as [|? o' ? os'' Po1 Po2]; subst.
      destruct (IH xs'' os'') as (ws' & A1 & A2 & A3 & A4); auto. { intros q0 Hq. apply G. simpl; auto. }
      destruct (G s) as (h & l & a & b & -> & Wl); [simpl; auto|].
      destruct (pseudoLog0_leaf L OD h l a b x x' o o' w Wl F1) as (w' & E1 & E2 & E3); auto; [unfold getDim in *; congruence|].
      exists (w' :: ws'). split; [constructor; auto|]. split; [constructor; auto|]. split; [constructor; auto; apply (pseudoLog0_length (SK:=F64 L)) in H1; unfold getDim in *; congruence|].
      intros A. inversion A as [|? ? ? ? A5 A6]; subst. cbn [concat]. apply Forall2_app; auto. destruct l as [| |[|]]; try (apply E3; exact A5).
      all: cbn [same64] in E2; subst w'; clear; induction w; constructor; auto using sg_refl. }
  destruct E as (ws' & A1 & A2 & A3 & A4). exists ws, ws'. repeat split; auto. apply (flat_op1 DT DR (pseudoLog0 (SK:=F64 L)) pseudoLog0_prod m W); eauto.
Qed.

(** ** Examples *)
(** An arc tangent odd in its first argument, as the C standard's. *)
Definition odd_libm : libm := Libm (f_cos libm_exact) (f_sin libm_exact) (f_acos libm_exact)
  (fun y x => if is_nan y then B754_nan else if Bsign y then Bopp (f_atan2 libm_exact (Bopp y) x) else f_atan2 libm_exact y x) left_to_right left_to_right_sums.
Lemma odd_libm_odd : odd_atan2 odd_libm.
Proof. intros y x. cbn [f_atan2 odd_libm]. destruct y as [[|]|[|]| |[|] ? ? ?]; cbn [is_nan Bopp Bsign negb]; rewrite ?Bopp_involutive; reflexivity. Qed.
Lemma odd_libm_blind : blind odd_libm.
Proof. exact (in_order_blind odd_libm). Qed.
Lemma exact_blind : blind libm_exact.
Proof. exact (in_order_blind libm_exact). Qed.

(** The half turn (0,0,1,0) and its other quaternion (0,0,-1,0), moved any number of times with a point of the plane and a rotation matrix. *)
Definition fPx' : list f64 := fi [3; 4]%Z ++ fi [0; 1; 0; -1; 0; 0; 0; 0; 1]%Z ++ fi [0; 0; -1; 0]%Z.
Lemma fP_same L : same64M (fP L) fPx fPx'.
Proof.
  exists [fi [3; 4]%Z; fi [0; 1; 0; -1; 0; 0; 0; 0; 1]%Z; fi [0; 0; 1; 0]%Z], [fi [3; 4]%Z; fi [0; 1; 0; -1; 0; 0; 0; 0; 1]%Z; fi [0; 0; -1; 0]%Z].
  split; [unfold fPx; cbn [concat]; rewrite app_nil_r; reflexivity|]. split; [unfold fPx'; cbn [concat]; rewrite app_nil_r; reflexivity|].
  change (leaves (fP L)) with [fR2 L; fM L; fQ L]. split; [repeat constructor|]. apply Forall3_cons; [reflexivity|]. apply Forall3_cons; [reflexivity|]. apply Forall3_cons; [|apply Forall3_nil].
  exists true. assert (Z : sg true (of_Z 0) (of_Z 0)) by (right; exists false, false; split; reflexivity).
  apply Forall2_cons; [exact Z|]. apply Forall2_cons; [exact Z|]. apply Forall2_cons; [left|apply Forall2_cons; [exact Z|apply Forall2_nil]].
  apply B2SF_inj. vm_compute. reflexivity.
Qed.
Example C76_example : forall k, exists r r', increments64 libm_exact (fP libm_exact) fPx (repeat fPv k) = Ok r /\ increments64 libm_exact (fP libm_exact) fPx' (repeat fPv k) = Ok r' /\ same64M (fP libm_exact) r r'.
Proof.
  intros k. destruct (C49_example k) as (r & H & _). destruct (C76_walk libm_exact (fP libm_exact) fPx fPx' (repeat fPv k) r exact_blind (fP_built _) (fP_same _)) as (r' & H' & S); [|exact H|exists r, r'; auto].
  apply Forall_forall. intros v Hv. apply repeat_spec in Hv. subst v. reflexivity.
Qed.

(** The logarithm from no turn to a turn of about 1/32, with either quaternion on either side. *)
Definition q64 : list f64 := [of_Z 1; of_Z 1 /! of_Z 64; of_Z 0; of_Z 0].
Definition nq64 (l : list f64) : list f64 := map Bopp l.
Lemma nq_sg l : Forall2 (sg true) l (nq64 l). Proof. induction l; constructor; auto using sg_sign. Qed.
Example C76_example_log : forall o, length o = 3%nat -> exists w w1 w2 w3,
  pseudoLog (SK:=F64 odd_libm) (fQ odd_libm) o (fi [1; 0; 0; 0]%Z) q64 = Ok w /\ pseudoLog (SK:=F64 odd_libm) (fQ odd_libm) o (nq64 (fi [1; 0; 0; 0]%Z)) q64 = Ok w1 /\
  pseudoLog (SK:=F64 odd_libm) (fQ odd_libm) o (fi [1; 0; 0; 0]%Z) (nq64 q64) = Ok w2 /\ pseudoLog (SK:=F64 odd_libm) (fQ odd_libm) o (nq64 (fi [1; 0; 0; 0]%Z)) (nq64 q64) = Ok w3 /\
  Forall2 (sg false) w w1 /\ Forall2 (sg false) w w2 /\ Forall2 (sg false) w w3.
Proof.
  intros o Lo. set (L := odd_libm). assert (B : built (fQ L)) by (apply (built_so3 MapQuat [kpi (Scalar:=F64 L); kpi (Scalar:=F64 L); kpi (Scalar:=F64 L)]); reflexivity).
  assert (LV : leaves (fQ L) = [fQ L]) by reflexivity.
  assert (T : exists w, pseudoLog (SK:=F64 L) (fQ L) o (fi [1; 0; 0; 0]%Z) q64 = Ok w).
  { destruct o as [|o0 [|o1 [|o2 [|]]]]; try discriminate Lo. unfold fQ, q64, fi. cbn [map].
    change (exists w, eq_logarithm (SK:=F64 L) [o0; o1; o2] (qmul (SK:=F64 L) (qinverse (SK:=F64 L) (Q4 (of_Z 1) (of_Z 0) (of_Z 0) (of_Z 0))) (Q4 (of_Z 1) (of_Z 1 /! of_Z 64) (of_Z 0) (of_Z 0))) = Ok w).
    unfold eq_logarithm. destruct (_ && _)%bool; eexists; reflexivity. }
  destruct T as [w T]. assert (P1 : pieces DR (leaves (fQ L)) [fi [1; 0; 0; 0]%Z]) by (rewrite LV; repeat constructor). assert (P2 : pieces DR (leaves (fQ L)) [q64]) by (rewrite LV; repeat constructor).
  assert (HF : Forall3 apart_half (leaves (fQ L)) [fi [1; 0; 0; 0]%Z] [q64]).
  { rewrite LV. apply Forall3_cons; [|apply Forall3_nil]. exists (Q4 (of_Z 1) (of_Z 0) (of_Z 0) (of_Z 0)), (Q4 (of_Z 1) (of_Z 1 /! of_Z 64) (of_Z 0) (of_Z 0)). split; [reflexivity|]. split; [reflexivity|].
    destruct (of_Z_ok 1 ltac:(lia)) as [F1 V1]. destruct (of_Z_ok 0 ltac:(lia)) as [F0 V0].
    assert (V6 : val (of_Z 1 /! of_Z 64) = 1 / 64) by (apply (lit_format 1 64 (-6) 1); try lia; unfold F2R; cbn; lra). assert (F6 : isf (of_Z 1 /! of_Z 64)) by reflexivity.
    unfold qfin, qval, qn2. cbn [qw qx qy qz]. rewrite V1, V0, V6. repeat split; auto; try (apply Rabs_le; lra). rewrite Rabs_pos_eq; lra. }
  assert (SM : forall x, same64 (fQ L) x (nq64 x)) by (intros x; exists true; apply nq_sg).
  assert (C : forall x' y', same64 (fQ L) (fi [1; 0; 0; 0]%Z) x' -> same64 (fQ L) q64 y' -> exists w', pseudoLog (SK:=F64 L) (fQ L) o x' y' = Ok w' /\ Forall2 (sg false) w w').
  { intros x' y' Sx Sy. destruct (C76_log L (fQ L) o o [fi [1; 0; 0; 0]%Z] [x'] [q64] [y'] w odd_libm_blind odd_libm_odd B P1 P2) as (ws & ws' & E & E' & _ & _ & A); auto.
    - rewrite LV. apply Forall3_cons; [exact Sx|apply Forall3_nil].
    - rewrite LV. apply Forall3_cons; [exact Sy|apply Forall3_nil].
    - cbn [concat] in E'. rewrite !app_nil_r in E'. exists (concat ws'). split; auto. }
  destruct (C _ _ (SM _) (same64_refl _ _)) as (w1 & A1 & A2). destruct (C _ _ (same64_refl _ _) (SM _)) as (w2 & B1 & B2). destruct (C _ _ (SM _) (SM _)) as (w3 & D1 & D2).
  exists w, w1, w2, w3. auto 10.
Qed.

Lemma quat_split (q : quat f64) a b c d : qw q = a -> qx q = b -> qy q = c -> qz q = d -> q = Q4 a b c d.
Proof. destruct q. cbn. congruence. Qed.
(** At a half turn the sign is lost: the two quaternions (1,0,0,0) and (-1,0,0,0) of no turn, both with positive zeros, give opposite
    logarithms of the half turn (0,1,0,0), of length pi, for any arc tangent that gives about pi at (0, -1). *)
Theorem C76_half_turn_refuted : forall L0, let L := in_order L0 in let c := f_atan2 L0 (of_Z 0) (of_Z (-1)) in isf c -> 3 <= val c <= 4 ->
  exists (m : mfd f64) (x x' y w w' : list f64), built m /\ same64M m x x' /\ length y = representationDim m /\
    pseudoLog (SK:=F64 L) m (fi [0; 0; 0]%Z) x y = Ok w /\ pseudoLog (SK:=F64 L) m (fi [0; 0; 0]%Z) x' y = Ok w' /\ val (nth 0 w (of_Z 0)) = val c /\ val (nth 0 w' (of_Z 0)) = - val c.
Proof.
  intros L0 L c Fc Hc. set (SK := F64 L). assert (B : built (fQ L)) by (apply (built_so3 MapQuat [kpi (Scalar:=SK); kpi (Scalar:=SK); kpi (Scalar:=SK)]); reflexivity).
  set (k := katan2 (Scalar:=SK) (kmul (Scalar:=SK) (kmul (Scalar:=SK) (klit (Scalar:=SK) 2 1) (of_Z 1)) (of_Z 0)) (ksub (Scalar:=SK) (kmul (Scalar:=SK) (of_Z 0) (of_Z 0)) (of_Z 1)) /! of_Z 1).
  assert (Ek : k = c /! of_Z 1).
  { unfold k, c. change (katan2 (Scalar:=SK)) with (f_atan2 L0). f_equal. f_equal; apply B2SF_inj; vm_compute; reflexivity. }
  destruct (of_Z_ok 1 ltac:(lia)) as [F1 V1]. destruct (of_Z_ok 0 ltac:(lia)) as [F0 V0]. destruct (of_Z_ok (-1) ltac:(lia)) as [F2 V2].
  assert (RC : rnd (val c) = val c) by (apply round_generic; [typeclasses eauto|apply generic_format_B2R]).
  assert (RN : rnd (- val c) = - val c) by (apply round_generic; [typeclasses eauto|apply generic_format_opp, generic_format_B2R]).
  assert (BG : Rabs (val c) <= big). { pose proof big_1. apply Rle_trans with 4; [rewrite Rabs_pos_eq; lra|]. change 4 with (bpow radix2 2). unfold big. apply bpow_le. lia. }
  assert (K : isf k /\ val k = val c).
  { rewrite Ek. destruct (f_div c (of_Z 1) Fc ltac:(rewrite V1; lra)) as [Fk Vk]; [rewrite V1; unfold Rdiv; rewrite Rinv_1, Rmult_1_r; exact BG|]. split; auto. rewrite Vk, V1. unfold Rdiv. rewrite Rinv_1, Rmult_1_r. exact RC. }
  destruct K as [Fk Vk].
  assert (LG : forall a b : Z, (a = 1 /\ b = 1 \/ a = -1 /\ b = -1)%Z -> exists r, pseudoLog (SK:=SK) (fQ L) (fi [0; 0; 0]%Z) (fi [a; 0; 0; 0]%Z) (fi [0; 1; 0; 0]%Z) = Ok r /\ nth 0 r (of_Z 0) = k *! of_Z b).
  { intros a b H. assert (Q : qmul (SK:=SK) (qinverse (SK:=SK) (Q4 (of_Z a) (of_Z 0) (of_Z 0) (of_Z 0))) (Q4 (of_Z 0) (of_Z 1) (of_Z 0) (of_Z 0)) =
        Q4 (of_Z 0) (of_Z b) (qy (qmul (SK:=SK) (qinverse (SK:=SK) (Q4 (of_Z a) (of_Z 0) (of_Z 0) (of_Z 0))) (Q4 (of_Z 0) (of_Z 1) (of_Z 0) (of_Z 0)))) (qz (qmul (SK:=SK) (qinverse (SK:=SK) (Q4 (of_Z a) (of_Z 0) (of_Z 0) (of_Z 0))) (Q4 (of_Z 0) (of_Z 1) (of_Z 0) (of_Z 0))))).
    { apply quat_split; [| |reflexivity|reflexivity]; apply B2SF_inj; destruct H as [[-> ->]|[-> ->]]; vm_compute; reflexivity. }
    change (exists r, eq_logarithm (SK:=SK) (fi [0; 0; 0]%Z) (qmul (SK:=SK) (qinverse (SK:=SK) (Q4 (of_Z a) (of_Z 0) (of_Z 0) (of_Z 0))) (Q4 (of_Z 0) (of_Z 1) (of_Z 0) (of_Z 0))) = Ok r /\ nth 0 r (of_Z 0) = k *! of_Z b).
    assert (N : sqnorm (SK:=SK) (qvec (qmul (SK:=SK) (qinverse (SK:=SK) (Q4 (of_Z a) (of_Z 0) (of_Z 0) (of_Z 0))) (Q4 (of_Z 0) (of_Z 1) (of_Z 0) (of_Z 0)))) = of_Z 1) by (apply B2SF_inj; destruct H as [[-> ->]|[-> ->]]; vm_compute; reflexivity).
    unfold eq_logarithm. rewrite N. rewrite Q. cbn [qw]. assert (SQ : ksqrt (Scalar:=SK) (of_Z 1) = of_Z 1) by (apply B2SF_inj; vm_compute; reflexivity). rewrite SQ.
    replace (keqb (Scalar:=SK) (of_Z 0) (k0 (Scalar:=SK))) with true by reflexivity. rewrite andb_false_r. eexists. split; reflexivity. }
  destruct (LG 1 1)%Z as (w & W1 & W2); [auto|]. destruct (LG (-1) (-1))%Z as (w' & W3 & W4); [auto|].
  exists (fQ L), (fi [1; 0; 0; 0]%Z), (fi [-1; 0; 0; 0]%Z), (fi [0; 1; 0; 0]%Z), w, w'. split; [exact B|]. split; [|split; [reflexivity|]].
  - exists [fi [1; 0; 0; 0]%Z], [fi [-1; 0; 0; 0]%Z]. split; [reflexivity|]. split; [reflexivity|]. change (leaves (fQ L)) with [fQ L]. split; [repeat constructor|]. apply Forall3_cons; [|apply Forall3_nil].
    exists true. apply Forall2_cons; [left; apply B2SF_inj; vm_compute; reflexivity|]. repeat (apply Forall2_cons; [right; exists false, false; split; reflexivity|]). apply Forall2_nil.
  - split; [exact W1|]. split; [exact W3|]. rewrite W2, W4.
    destruct (f_mul k (of_Z 1) Fk F1) as [_ M1]; [rewrite Vk, V1, Rmult_1_r; exact BG|]. destruct (f_mul k (of_Z (-1)) Fk F2) as [_ M2]; [rewrite Vk, V2; replace (val c * -1) with (- val c) by ring; rewrite Rabs_Ropp; exact BG|].
    rewrite M1, M2, Vk, V1, V2, Rmult_1_r. replace (val c * -1) with (- val c) by ring. auto.
Qed.
Example C76_half_turn_example : isf (f_atan2 odd_libm (of_Z 0) (of_Z (-1))) /\ 3 <= val (f_atan2 odd_libm (of_Z 0) (of_Z (-1))) <= 4.
Proof.
  destruct (of_Z_ok 0 ltac:(lia)) as [F0 V0]. destruct (of_Z_ok (-1) ltac:(lia)) as [F2 V2].
  change (f_atan2 odd_libm (of_Z 0) (of_Z (-1))) with (of_R (Ratan2 (val (of_Z 0)) (val (of_Z (-1))))). rewrite V0, V2.
  assert (E : Ratan2 0 (-1) = PI). { unfold Ratan2. destruct (Rlt_dec 0 (-1)); [lra|]. destruct (Rlt_dec (-1) 0); [|lra]. destruct (Rle_dec 0 0); [|lra]. replace (0 / -1) with 0 by lra. rewrite atan_0. ring. }
  rewrite E. pose proof PI_ge as P1. pose proof PI_4 as P4. pose proof big_1 as BG. destruct (of_R_ok PI) as [F V]; [rewrite Rabs_pos_eq; lra|]. split; [exact F|]. rewrite V.
  assert (G : forall n, (Z.abs n < 2 ^ 53)%Z -> rnd (IZR n) = IZR n) by (intros n Hn; destruct (of_Z_ok n Hn) as [_ Vn]; rewrite <- Vn; apply round_generic; [typeclasses eauto|apply generic_format_B2R]).
  split; [rewrite <- (G 3%Z) by lia|rewrite <- (G 4%Z) by lia]; apply round_le; try typeclasses eauto; lra.
Qed.

(** Repairing a quaternion of norm two and testing the result, and the logarithm from the reference point. *)
Example C76_example_repair : exists r r', forceOnM (SK:=F64 odd_libm) (fQ odd_libm) (fi [0; 0; 0; 0]%Z) (fi [0; 0; 2; 0]%Z) = Ok r /\ forceOnM (SK:=F64 odd_libm) (fQ odd_libm) (fi [0; 0; 0; 0]%Z) (nq64 (fi [0; 0; 2; 0]%Z)) = Ok r' /\
  same64M (fQ odd_libm) r r' /\ forall p, isInM (SK:=F64 odd_libm) (fQ odd_libm) r p = Ok true <-> isInM (SK:=F64 odd_libm) (fQ odd_libm) r' p = Ok true.
Proof.
  set (L := odd_libm). assert (B : built (fQ L)) by (apply (built_so3 MapQuat [kpi (Scalar:=F64 L); kpi (Scalar:=F64 L); kpi (Scalar:=F64 L)]); reflexivity).
  assert (T : exists r, forceOnM (SK:=F64 L) (fQ L) (fi [0; 0; 0; 0]%Z) (fi [0; 0; 2; 0]%Z) = Ok r) by (eexists; reflexivity). destruct T as [r T].
  destruct (C76_repair L (fQ L) (fi [0; 0; 0; 0]%Z) (fi [0; 0; 2; 0]%Z) (nq64 (fi [0; 0; 2; 0]%Z)) r odd_libm_blind B) as (r' & E & S); auto.
  - exists [fi [0; 0; 2; 0]%Z], [nq64 (fi [0; 0; 2; 0]%Z)]. split; [reflexivity|]. split; [reflexivity|]. change (leaves (fQ L)) with [fQ L]. split; [repeat constructor|]. apply Forall3_cons; [|apply Forall3_nil]. exists true. apply nq_sg.
  - exists r, r'. split; auto. split; auto. split; auto. intros p. apply C76_member; auto.
Qed.
Example C76_example_log0 : forall o, length o = 3%nat -> exists w w', pseudoLog0 (SK:=F64 odd_libm) (fQ odd_libm) o q64 = Ok w /\ pseudoLog0 (SK:=F64 odd_libm) (fQ odd_libm) o (nq64 q64) = Ok w' /\ Forall2 (sg false) w w'.
Proof.
  intros o Lo. set (L := odd_libm). assert (B : built (fQ L)) by (apply (built_so3 MapQuat [kpi (Scalar:=F64 L); kpi (Scalar:=F64 L); kpi (Scalar:=F64 L)]); reflexivity).
  assert (T : exists w, pseudoLog0 (SK:=F64 L) (fQ L) o q64 = Ok w).
  { destruct o as [|o0 [|o1 [|o2 [|]]]]; try discriminate Lo. change (exists w, eq_logarithm (SK:=F64 L) [o0; o1; o2] (Q4 (of_Z 1) (of_Z 1 /! of_Z 64) (of_Z 0) (of_Z 0)) = Ok w).
    unfold eq_logarithm. destruct (_ && _)%bool; eexists; reflexivity. }
  destruct T as [w T]. destruct (C76_log0 L (fQ L) o o [q64] [nq64 q64] w odd_libm_blind odd_libm_odd B) as (ws & ws' & E & E' & _ & _ & A); auto.
  - change (leaves (fQ L)) with [fQ L]. repeat constructor.
  - change (leaves (fQ L)) with [fQ L]. apply Forall3_cons; [exists true; apply nq_sg|apply Forall3_nil].
  - exists w, (concat ws'). split; [exact T|]. split; [exact E'|]. apply A. change (leaves (fQ L)) with [fQ L]. apply Forall2_cons; [|apply Forall2_nil]. destruct (of_Z_ok 1 ltac:(lia)) as [F1 V1].
    change (val (of_Z 1) <> 0). rewrite V1. lra.
Qed.
Print Assumptions C76_retract.
Print Assumptions C76_walk.
Print Assumptions C76_repair.
Print Assumptions C76_member.
Print Assumptions C76_log.
Print Assumptions C76_log0.
Print Assumptions C76_half_turn_refuted.
