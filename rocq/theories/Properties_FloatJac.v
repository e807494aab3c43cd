(** C65: the Jacobian of the retraction and its application, in double arithmetic. *)
From Coq Require Import Reals List Lra Lia ZArith Bool Arith Psatz SpecFloat.
From Flocq Require Import Core BinarySingleNaN.
From Verif Require Import Base Scalar Vec Model_Real Model_S2 Model_SO3 Model_Manifold Spec Layout Comp Flat BlockMat MatOps MatProd MatNum F64 F64Err F64Norm F64Exp F64S2 F64Gs F64Tree F64Go XR SpecR RotR NumVec
  NumS2 Deriv TanLeaf F64Trans F64Proj JacR JacLeaf F64Jac Properties_Float Properties_FloatTrans.
Import ListNotations.
Local Open Scope R_scope.

(** ** Specification *)
(** The block of an elementary factor: finite, and within e of the matrix whose product with every tangent
    vector v is the derivative at 0 of the exact move by t v; e is 0 but for quaternions, where it is 2^-1075. *)
Definition jacobian (s : mfd f64) (x : list f64) (J : mat f64) : Prop :=
  shape J (representationDim s) (tangentDim s) /\ Forall (Forall isf) (mcols_ J) /\
  exists G, Forall2 (near_v (match s with Leaf _ (LSO3 MapQuat) _ _ => bpow radix2 (-1075) | _ => 0 end)) (map (map val) (mcols_ J)) G /\
    forall v, length v = tangentDim s -> deriv_v (fun t => move s (vals x) (rscal t v)) 0 (rmv (representationDim s) G v).
(** A row a of the matrix given to applyDiffRetractation and the row y it becomes. *)
Definition pulled (d : R) (s : mfd f64) (x a y : list f64) : Prop :=
  match s with
  | Leaf _ LReal _ _ => y = a /\ pullback s (vals x) (vals a) (vals y)
  | _ => forall S, / 2 ^ 890 <= S <= 2 ^ 890 -> Forall (fun p => isf p /\ Rabs (val p) <= S) a ->
      Forall isf y /\ exists g, pullback s (vals x) (vals a) g /\
        near_v (match s with
                | Leaf _ (LSO3 MapMatrix) _ _ => 55 * / 2 ^ 53 * S
                | Leaf _ (LSO3 MapQuat) _ _ => 9 * / 2 ^ 53 * S
                | _ => (50 * / 2 ^ 53 + 8 * d) * S
                end) (vals y) g
  end.
Definition no_sphere (m : mfd f64) : Prop := Forall (fun s => match s with Leaf _ LS2 _ _ => False | _ => True end) (leaves m).

(** ** Elementary factors *)
Lemma rot_bounds d A : near_rot d A -> d <= 1 / 1000 -> Forall (fun p => Rabs p <= 101 / 100) (flat9 A).
Proof.
  intros (H0 & H1 & H2 & _) Hd. unfold rmul, rtr in *. cbn [a00 a01 a02 a10 a11 a12 a20 a21 a22] in *. apply Rabs_ends in H0, H1, H2.
  assert (XB : forall p, p * p <= 101 / 100 -> Rabs p <= 101 / 100) by (intros p Hp; apply Rabs_le; nra).
  assert (Q : forall p, 0 <= p * p) by (intros; nra). unfold flat9.
  pose proof (Q (a00 A)). pose proof (Q (a01 A)). pose proof (Q (a02 A)). pose proof (Q (a10 A)). pose proof (Q (a11 A)). pose proof (Q (a12 A)). pose proof (Q (a20 A)). pose proof (Q (a21 A)). pose proof (Q (a22 A)).
  repeat (apply Forall_cons; [apply XB; lra|]). apply Forall_nil.
Qed.
Lemma quat_bounds d q : Rabs (qn2 q - 1) <= d -> d <= 1 / 1000 -> Forall (fun p => Rabs p <= 101 / 100) (qflat q).
Proof.
  intros H Hd. apply Rabs_ends in H. unfold qn2 in H. assert (XB : forall p, p * p <= 101 / 100 -> Rabs p <= 101 / 100) by (intros p Hp; apply Rabs_le; nra).
  assert (Q : forall p, 0 <= p * p) by (intros; nra). unfold qflat. pose proof (Q (qw q)). pose proof (Q (qx q)). pose proof (Q (qy q)). pose proof (Q (qz q)).
  repeat (apply Forall_cons; [apply XB; lra|]). apply Forall_nil.
Qed.
Lemma asum_mat d A : near_rot d A -> d <= 1 / 1000 -> Forall (fun c => asum c <= 606 / 100) (jac_mat A).
Proof.
  intros H Hd. pose proof (rot_bounds _ _ H Hd) as B. unfold flat9 in B. repeat match goal with H : Forall _ (_ :: _) |- _ => inversion H; clear H; subst end.
  unfold jac_mat. repeat (apply Forall_cons; [cbn [asum]; rewrite ?Rabs_Ropp, ?Rabs_R0; lra|]). apply Forall_nil.
Qed.
Lemma near_asum e c G : near_v e c G -> asum c <= asum G + INR (length c) * e.
Proof.
  induction 1 as [|a b c G H N IH]; cbn [asum length]; [cbn; lra|]. rewrite S_INR. assert (Rabs a <= Rabs b + e) by (replace a with ((a - b) + b) by ring; eapply Rle_trans; [apply Rabs_triang|]; lra). lra.
Qed.
Lemma asum_quat d q : Rabs (qn2 q - 1) <= d -> d <= 1 / 1000 -> Forall (fun c => asum c <= 202 / 100) (jac_q q).
Proof.
  intros H Hd. pose proof (quat_bounds _ _ H Hd) as B. unfold qflat in B. repeat match goal with H : Forall _ (_ :: _) |- _ => inversion H; clear H; subst end.
  assert (M : forall p, Rabs (1 / 2 * p) = 1 / 2 * Rabs p) by (intros; rewrite Rabs_mult, (Rabs_pos_eq (1 / 2)) by lra; reflexivity).
  assert (M' : forall p, Rabs (- (1 / 2) * p) = 1 / 2 * Rabs p) by (intros; rewrite Rabs_mult, Rabs_Ropp, (Rabs_pos_eq (1 / 2)) by lra; reflexivity).
  unfold jac_q. repeat (apply Forall_cons; [cbn [asum]; rewrite ?M, ?M'; lra|]). apply Forall_nil.
Qed.
Lemma near_refl (xs : list (list R)) : Forall2 (near_v 0) xs xs.
Proof. induction xs as [|x xs IH]; constructor; auto. induction x; constructor; auto. rewrite Rminus_diag_eq, Rabs_R0 by auto. lra. Qed.
Lemma ident_cols L n : Forall (Forall isf) (mcols_ (mident (SK:=F64 L) n n)) /\ map (map val) (mcols_ (mident (SK:=F64 L) n n)) = map (unitv n) (seq 0 n).
Proof.
  destruct (of_Z_ok 1 eq_refl) as [F1 V1]. assert (D : forall i j, isf (delta (SK:=F64 L) i j) /\ val (delta (SK:=F64 L) i j) = if Nat.eqb i j then 1 else 0).
  { intros i j. unfold delta. destruct (Nat.eqb i j); [exact (conj F1 V1)|split; reflexivity]. }
  unfold mident, mbuild. cbn [mcols_]. split.
  - rewrite Forall_map. apply Forall_forall. intros j _. rewrite Forall_map. apply Forall_forall. intros i _. apply D.
  - rewrite map_map. apply map_ext. intros j. rewrite map_map. unfold unitv. apply map_ext. intros i. apply D.
Qed.
Lemma leaf_jac L h l a b x d : let s := Leaf h l a b in leaf_wf (K:=f64) h l a b -> 0 <= d <= 1 / 1000 -> defect64 d s x -> l <> LS2 ->
  exists J, diffRetractation (SK:=F64 L) s x = Ok J /\ jacobian s x J.
Proof.
  intros s W Hd Dx Hl. assert (Lx : length x = representationDim s) by (apply (fstray_len (3 * d) h l a b x W), defect_stray; auto; lra).
  unfold s in *. cbn [diffRetractation]. rewrite check_eq by auto. cbn [bind]. unfold jacobian. unfold representationDim, tangentDim in *. cbn [hdr_of] in *.
  destruct l as [| |[|]]; try contradiction; cbn [leaf_wf defect64] in *.
  - destruct W as [W1 W2]. destruct (ident_cols L (h_dim h)) as [I1 I2]. exists (mident (SK:=F64 L) (h_dim h) (h_dim h)). rewrite W1, W2. split; [reflexivity|]. split; [apply shape_mbuild|]. split; [exact I1|].
    exists (map (unitv (h_dim h)) (seq 0 (h_dim h))). rewrite I2. split; [apply near_refl|]. intros v Lv. rewrite rmv_ident by auto. cbn [move]. apply real_deriv. transitivity (h_dim h); [auto|]. symmetry. exact (eq_trans (map_length _ _) Dx).
  - destruct Dx as (Fx & _). destruct W as (_ & W2 & W3 & _). rewrite W2, W3 in *. destruct (em_jac64 L x Lx Fx) as (J & E & S & F & V). exists J. split; [exact E|]. split; [exact S|]. split; [exact F|].
    exists (jac_mat (as_m3 (vals x))). split; [rewrite V; apply near_refl|]. intros v Lv. apply mat_deriv. auto.
  - destruct Dx as (Fx & q & Eq & Hq). destruct W as (_ & W2 & W3 & _). rewrite W2, W3 in *.
    assert (Bx : Forall (fun p => isf p /\ Rabs (val p) <= 2) x).
    { pose proof (quat_bounds _ _ Hq ltac:(lra)) as B. rewrite <- Eq in B. rewrite Forall_map in B. clear - B Fx. induction Fx as [|p x Hp Fx IH]; inversion B; subst; constructor; auto. split; auto. lra. }
    destruct (eq_jac64 L x Lx Bx) as (J & E & S & F & V). exists J. split; [exact E|]. split; [exact S|]. split; [exact F|].
    exists (jac_q (as_q (vals x))). split; [exact V|]. intros v Lv. apply quat_deriv. auto.
Qed.

Lemma near_weak e f x y : e <= f -> near_v e x y -> near_v f x y.
Proof. intros H. induction 1; constructor; auto. lra. Qed.
Lemma near_eta (xs : list (list R)) : Forall2 (near_v eta) xs xs.
Proof. induction xs as [|x xs IH]; constructor; auto. induction x; constructor; auto. rewrite Rminus_diag_eq, Rabs_R0 by auto. apply bpow_ge_0. Qed.
Lemma scale890 S : / 2 ^ 890 <= S <= 2 ^ 890 -> scale S /\ 5 * S <= bpow radix2 900.
Proof.
  assert (E : bpow radix2 890 = 2 ^ 890) by (rewrite pow_IZR; unfold bpow; f_equal; vm_compute; reflexivity). rewrite <- E, <- bpow_opp. intros [H1 H2].
  assert (B : 8 * bpow radix2 890 <= bpow radix2 900) by (change 8 with (bpow radix2 3); rewrite <- bpow_plus; apply bpow_le; lia). pose proof (bpow_gt_0 radix2 890).
  assert (B2 : bpow radix2 (-900) <= bpow radix2 (- (890))) by (apply bpow_le; lia).
  unfold scale. replace B900 with (bpow radix2 900) by reflexivity. lra.
Qed.
Lemma scale_near k e d S y V : 0 <= d -> 0 < S -> e <= 1 / 100 * S -> Rabs (1 - k) <= 6 / 10 * d -> Forall (fun p => Rabs p <= 5 * S) y -> near_v e y V -> near_v (e + 4 * d * S) y (rscal k V).
Proof.
  intros D0 S0 He I H N. induction N as [|p v y V Hp N IH]; cbn [rscal map]; constructor; inversion H as [|? ? B H']; subst; [|apply IH; auto].
  assert (BV : Rabs v <= 6 * S) by (apply Rabs_ends in Hp, B; apply Rabs_le; lra).
  replace (p - k * v) with ((p - v) + (1 - k) * v) by ring. eapply Rle_trans; [apply Rabs_triang|]. rewrite (Rabs_mult (1 - k)).
  assert (Rabs (1 - k) * Rabs v <= 6 / 10 * d * (6 * S)) by (apply Rmult_le_compat; auto using Rabs_pos). assert (0 <= d * S) by (apply Rmult_le_pos; lra). lra.
Qed.
(** A row projected by projRows, and the exact pullback. *)
Lemma s2_row L x a d S : length x = 3%nat -> length a = 3%nat -> Forall isf x -> Rabs (rdot (vals x) (vals x) - 1) <= d -> 0 <= d <= 1 / 1000 -> scale S -> 5 * S <= bpow radix2 900 ->
  Forall (fun p => isf p /\ Rabs (val p) <= S) a -> let y := map2 (fun p q => p -! dot (SK:=F64 L) x a *! q) a x in
  Forall isf y /\ near_v ((50 * u + 8 * d) * S) (vals y) (rscal (/ rnorm (vals x)) (rsub (vals a) (rscal (rdot (vals x) (vals a) / rdot (vals x) (vals x)) (vals x)))).
Proof.
  intros Lx La Fx Hx Hd HS S5 Fa y. destruct (s2_proj64 L x a d S Lx Fx Hx ltac:(lra) La HS S5 Fa) as (w & E & Lw & Fw & N & _).
  specialize (E a La).
  destruct x as [|x0 [|x1 [|x2 [|]]]]; try discriminate Lx. destruct a as [|p0 [|p1 [|p2 [|]]]]; try discriminate La.
  unfold s2_forceOnTxM, same_size, assign in E. cbn [List.length Nat.eqb eigen_assert bind] in E. cbn [dot map2 ksum vscale vsub map map2 kadd kmul ksub F64 List.length Nat.eqb eigen_assert bind] in E.
  assert (Ew : y = w). { unfold y. cbn [map2 dot map2 ksum kadd kmul F64]. apply ok_inj in E. exact E. }
  subst w. set (X := vals [x0; x1; x2]) in *. set (A := vals [p0; p1; p2]) in *. set (V := rsub A (rscal (rdot X A / rdot X X) X)) in *.
  assert (F : Forall isf y) by (clear - Fw; induction Fw as [|? ? [? ?]]; constructor; auto). split; auto.
  pose proof u_pos as U. assert (U1 : u <= 1 / 1000000) by (rewrite u_val; lra). assert (S0 : 0 < S) by (destruct HS as [HS _]; pose proof (bpow_gt_0 radix2 (-900)); lra).
  set (n := rnorm X). assert (N2 : n * n = rdot X X) by (unfold n, rnorm; apply sqrt_sqrt; apply rdot_self_nonneg). assert (N0 : 0 <= n) by apply sqrt_pos.
  assert (I : Rabs (1 - / n) <= 6 / 10 * d).
  { rewrite <- N2 in Hx. apply Rabs_ends in Hx. assert (9 / 10 <= n) by nra. assert (n <= 11 / 10) by nra. replace (1 - / n) with ((n * n - 1) * / (n * (n + 1))) by (field; lra).
    rewrite Rabs_mult. rewrite (Rabs_pos_eq (/ _)) by (left; apply Rinv_0_lt_compat; nra). assert (/ (n * (n + 1)) <= 6 / 10) by (replace (6 / 10) with (/ (10 / 6)) by field; apply Rinv_le_contravar; nra).
    assert (Rabs (n * n - 1) <= d) by (apply Rabs_le; lra). assert (0 < / (n * (n + 1))) by (apply Rinv_0_lt_compat; nra). rewrite (Rmult_comm (6 / 10)). apply Rmult_le_compat; auto using Rabs_pos; lra. }
  assert (D2 : (50 * u + 4 * d) * S <= 1 / 100 * S) by (apply Rmult_le_compat_r; lra).
  replace ((50 * u + 8 * d) * S) with ((50 * u + 4 * d) * S + 4 * d * S) by ring. apply scale_near; auto; [lra|]. clear - Fw. induction Fw as [|? ? [? ?]]; cbn [map]; constructor; auto.
Qed.
(** Each row of the product with a Jacobian. *)
Lemma rows_near L (cs : list (list f64)) Gs a k S n : scale S -> Forall (fun p => isf p /\ Rabs (val p) <= S) a -> Forall (Forall isf) cs -> Forall2 (near_v eta) (map (map val) cs) Gs ->
  Forall (fun c => length c = n) cs -> length a = n -> (n <= 9)%nat -> Forall (fun c => asum c <= k) Gs -> k <= 9 ->
  Forall isf (map (dot (SK:=F64 L) a) cs) /\ near_v ((INR n * (1001 / 1000) * (k + 1 / 1000) + 1 / 10) * u * S) (vals (map (dot (SK:=F64 L) a) cs)) (map (rdot (vals a)) Gs).
Proof.
  intros HS Ha Fc HG Lc La N9 Hk K9. revert Gs HG Hk. induction Fc as [|c cs F1 Fc IH]; intros Gs HG Hk; inversion HG as [|? G ? Gs' H1 H2]; subst; [split; constructor|].
  inversion Lc as [|? ? L1 L2]; inversion Hk as [|? ? K1 K2]; subst. destruct (IH L2 _ H2 K2) as [I1 I2]. pose proof eta_u as EU. pose proof u_pos as U. assert (U1 : u <= 1 / 1000) by (rewrite u_val; lra).
  assert (A : asum (map val c) <= k + 1 / 1000).
  { pose proof (near_asum _ _ _ H1) as Q. assert (N' : length (map val c) = length a) by exact (eq_trans (map_length _ _) L1). assert (N : INR (length (map val c)) <= 9) by (rewrite N'; replace 9 with (INR 9) by (cbn; lra); apply le_INR; auto).
    pose proof eta_pos as E0. assert (INR (length (map val c)) * eta <= 9 * (u / 1000)) by (apply Rmult_le_compat; try lra; apply pos_INR). lra. }
  destruct (row_col L a c G (k + 1 / 1000) S HS Ha F1 H1) as [F2 E2]; auto; [lra|].
  cbn [map]. split; constructor; auto.
Qed.
Lemma leaf_pull L h l a b x d : let s := Leaf h l a b in leaf_wf (K:=f64) h l a b -> 0 <= d <= 1 / 1000 -> defect64 d s x ->
  okj (SK:=F64 L) (pulled d) s x [x].
Proof.
  intros s W Hd Dx. assert (Lx : length x = representationDim s) by (apply (fstray_len (3 * d) h l a b x W), defect_stray; auto; lra).
  apply leaf_of_rows; auto. intros r out inp So Si. unfold s in *. cbn [applyDiffRetractation]. unfold representationDim, tangentDim in *. cbn [hdr_of] in *.
  pose proof So as (So1 & So2 & _). pose proof Si as (Si1 & Si2 & Si3).
  rewrite !check_eq by (unfold ncols; congruence). cbn [bind].
  assert (Lr : forall i, length (mrow (SK:=F64 L) inp i) = h_rdim h) by (intros i; exact (eq_trans (map_length _ _) Si2)).
  assert (Lv : length (vals x) = h_rdim h) by exact (eq_trans (map_length _ _) Lx).
  assert (Lvr : forall i, length (vals (mrow (SK:=F64 L) inp i)) = h_rdim h) by (intros i; exact (eq_trans (map_length _ _) (Lr i))).
  assert (PB : (l = LS2 -> 0 < rdot (vals x) (vals x)) -> forall i, pullback (Leaf h l a b) (vals x) (vals (mrow (SK:=F64 L) inp i)) (pull (Leaf h l a b) (vals x) (vals (mrow (SK:=F64 L) inp i)))).
  { intros P i. apply pull_ok; auto. }
  pose proof u_pos as U. assert (U1 : u <= 1 / 1000) by (rewrite u_val; lra).
  destruct l as [| |[|]].
  - destruct W as [W1 W2]. exists inp. split; [apply (massign_shape out inp r (h_tdim h)); auto; rewrite W1, <- W2; auto|]. split; [rewrite W1, <- W2; auto|].
    intros i _. cbn [pulled]. split; auto. apply PB. discriminate.
  - destruct W as (_ & W2 & W3 & _). rewrite W2, W3 in *. destruct Dx as (_ & Fx & Hx).
    assert (X0 : 0 < rdot (vals x) (vals x)) by (apply Rabs_ends in Hx; lra).
    unfold s2_applyDiffRetractation, s2_projRows, ncols. rewrite So1, So2, Si1, Si2, Lx, !Nat.eqb_refl. cbn [andb eigen_assert bind].
    eexists. split; [reflexivity|]. split; [apply shape_mbuild|]. intros i Hi. cbn [pulled]. rewrite u_pow. intros S HS Fa. destruct (scale890 _ HS) as [HS' S5]. clear HS. rename HS' into HS.
    destruct (s2_row L x (mrow (SK:=F64 L) inp i) d S Lx (Lr i) Fx Hx Hd HS S5 Fa) as [R1 R2].
    assert (EY : mrow (SK:=F64 L) (mbuild r 3 (fun i j => ksub (Scalar:=F64 L) (mget (SK:=F64 L) inp i j) (kmul (Scalar:=F64 L) (dot (SK:=F64 L) x (mrow (SK:=F64 L) inp i)) (nth j x (k0 (Scalar:=F64 L)))))) i = map2 (fun p q => p -! dot (SK:=F64 L) x (mrow (SK:=F64 L) inp i) *! q) (mrow (SK:=F64 L) inp i) x).
    { unfold mrow at 1, mbuild. cbn [mcols_ map seq]. 
      assert (NB : forall f : nat -> f64, nth i (map f (seq 0 r)) (k0 (Scalar:=F64 L)) = f i).
      { intros f. rewrite nth_indep with (d' := f 0%nat) by (rewrite map_length, seq_length; auto). rewrite map_nth, seq_nth by auto. reflexivity. }
      rewrite !NB. unfold mget. unfold mrow at 4. destruct inp as [ri cs]. cbn [mcols_] in *. destruct cs as [|c0 [|c1 [|c2 [|]]]]; try discriminate Si2.
      destruct x as [|x0 [|x1 [|x2 [|]]]]; try discriminate Lx. reflexivity. }
    rewrite EY. split; auto. eexists. split; [apply PB; auto|exact R2].
  - destruct W as (_ & W2 & W3 & _). rewrite W2, W3 in *. destruct Dx as (Fx & A & EA & HA).
    destruct (em_jac64 L x Lx Fx) as (J & E & SJ & F & V). unfold em_applyDiffRetractation. rewrite check_eq by exact Si2. cbn [bind]. rewrite E. cbn [bind].
    exists (mmul (SK:=F64 L) inp J). assert (SY : shape (mmul (SK:=F64 L) inp J) r 3) by (apply shape_mmul; auto; apply SJ).
    split; [apply (massign_shape out _ r 3); auto|]. split; auto. intros i Hi. cbn [pulled]. rewrite u_pow. intros S HS Fa. destruct (scale890 _ HS) as [HS' S5]. clear HS. rename HS' into HS.
    rewrite mrow_mmul by (rewrite Si1; auto).
    assert (EJ : as_m3 (vals x) = A) by (rewrite EA; apply as_m3_flat). rewrite EJ in V.
    destruct (rows_near L (mcols_ J) (jac_mat A) (mrow (SK:=F64 L) inp i) (606 / 100) S 9 HS Fa F) as [R1 R2]; auto; try lra.
    { rewrite V. apply near_eta. }
    { apply SJ. }
    { apply (asum_mat d); auto; lra. }
    split; auto. exists (map (rdot (vals (mrow (SK:=F64 L) inp i))) (jac_mat A)). split; [|eapply near_weak; [|exact R2]].
    + rewrite <- EJ. apply PB. discriminate.
    + destruct (scale_eta S HS) as (S0 & _). assert (US : 0 < u * S) by (apply Rmult_lt_0_compat; lra). rewrite !Rmult_assoc. apply Rmult_le_compat_r; [lra|]. cbn [INR]. lra.
  - destruct W as (_ & W2 & W3 & _). rewrite W2, W3 in *. destruct Dx as (Fx & q & Eq & Hq).
    assert (Bx : Forall (fun p => isf p /\ Rabs (val p) <= 2) x).
    { pose proof (quat_bounds _ _ Hq ltac:(lra)) as B. rewrite <- Eq in B. rewrite Forall_map in B. clear - B Fx. induction Fx as [|p x Hp Fx IH]; inversion B; subst; constructor; auto. split; auto. lra. }
    destruct (eq_jac64 L x Lx Bx) as (J & E & SJ & F & V). unfold eq_applyDiffRetractation. rewrite check_eq by exact Si2. cbn [bind]. rewrite E. cbn [bind].
    exists (mmul (SK:=F64 L) inp J). assert (SY : shape (mmul (SK:=F64 L) inp J) r 3) by (apply shape_mmul; auto; apply SJ).
    split; [apply (massign_shape out _ r 3); auto|]. split; auto. intros i Hi. cbn [pulled]. rewrite u_pow. intros S HS Fa. destruct (scale890 _ HS) as [HS' S5]. clear HS. rename HS' into HS.
    rewrite mrow_mmul by (rewrite Si1; auto).
    assert (EJ : as_q (vals x) = q) by (rewrite Eq; apply as_q_flat). rewrite EJ in V.
    destruct (rows_near L (mcols_ J) (jac_q q) (mrow (SK:=F64 L) inp i) (202 / 100) S 4 HS Fa F) as [R1 R2]; auto; try lra.
    { apply SJ. }
    { lia. }
    { apply (asum_quat d); auto; lra. }
    split; auto. exists (map (rdot (vals (mrow (SK:=F64 L) inp i))) (jac_q q)). split; [|eapply near_weak; [|exact R2]].
    + rewrite <- EJ. apply PB. discriminate.
    + destruct (scale_eta S HS) as (S0 & _). assert (US : 0 < u * S) by (apply Rmult_lt_0_compat; lra). rewrite !Rmult_assoc. apply Rmult_le_compat_r; [lra|]. cbn [INR]. lra.
Qed.

(** ** Theorems *)
(** diffRetractation of a tree without a sphere: block diagonal, each block the derivative of the exact move,
    without any rounding error on R^n and rotation matrices. *)
Theorem C65_jacobian : forall L (m : mfd f64) xs d, built m -> 0 <= d <= 1 / 1000 -> Forall2 (defect64 d) (leaves m) xs -> no_sphere m ->
  exists Js, diffRetractation (SK:=F64 L) m (concat xs) = Ok (bdiag (SK:=F64 L) Js) /\ Forall3 jacobian (leaves m) xs Js.
Proof.
  intros L m xs d B Hd Dx Ns. pose proof (built_wf _ B) as W.
  assert (Px : pieces DR (leaves m) xs).
  { apply (fstray_pieces (3 * d) m); auto. clear - Dx Hd. induction Dx; constructor; auto. apply defect_stray; auto; lra. }
  assert (G : exists Js, Forall3 (fun s x J => diffRetractation (SK:=F64 L) s x = Ok J /\ jacobian s x J) (leaves m) xs Js).
  { pose proof (fun s => leaf_inv_gen m s W) as GI. unfold no_sphere in Ns. clear B W Px. revert Ns GI. induction Dx as [|s x ls xs Hx Dx IH]; intros Ns GI; [exists []; constructor|].
    inversion Ns; subst. destruct (GI s) as (h & l & a & b & -> & Wl); [simpl; auto|]. destruct (leaf_jac L h l a b x d Wl Hd Hx) as (J & EJ & HJ); [destruct l; auto; discriminate|].
    destruct IH as (Js & HJs); auto. { intros; apply GI; simpl; auto. } exists (J :: Js). constructor; auto. }
  destruct G as (Js & HJ). exists Js. split.
  - apply (flat_mat (SK:=F64 L) (diffRetractation (SK:=F64 L))); auto.
    + intros. rewrite (diffRetractation_prod (SK:=F64 L)) by auto. split; intros (js & A & C); exists js; (split; [exact C|exact A]).
    + exists Js. split; auto. clear - HJ. induction HJ as [|? ? ? ? ? ? [? ?]]; constructor; auto.
  - clear - HJ. induction HJ as [|? ? ? ? ? ? [? ?]]; constructor; auto.
Qed.
Print Assumptions C65_jacobian.

(** applyDiffRetractation on any tree, matrices of any height: every row is, part by part, the row followed back
    through the exact move, within a few roundings of its size. *)
Theorem C65_apply : forall L (m : mfd f64) xs d r out inp, built m -> 0 <= d <= 1 / 1000 -> Forall2 (defect64 d) (leaves m) xs ->
  shape out r (tangentDim m) -> shape inp r (representationDim m) ->
  exists Y, applyDiffRetractation (SK:=F64 L) m out inp (concat xs) = Ok Y /\ shape Y r (tangentDim m) /\
    forall i, (i < r)%nat -> exists ps ys, mrow (SK:=F64 L) inp i = concat ps /\ mrow (SK:=F64 L) Y i = concat ys /\
      pieces DR (leaves m) ps /\ pieces DT (leaves m) ys /\ Forall4 (pulled d) (leaves m) xs ps ys.
Proof.
  intros L m xs d r out inp B Hd Dx So Si. pose proof (built_wf _ B) as W.
  destruct (adr_tree (SK:=F64 L) (pulled d) m W xs) as [_ H]; [|exact (H r out inp So Si)].
  pose proof (fun s => leaf_inv_gen m s W) as GI. clear So Si B W. revert GI. induction Dx as [|s x ls xs Hx Dx IH]; intros GI; constructor.
  - destruct (GI s) as (h & l & a & b & -> & Wl); [simpl; auto|]. apply leaf_pull; auto.
  - apply IH. intros; apply GI; simpl; auto.
Qed.
Print Assumptions C65_apply.


(** ** Example *)
Lemma row_of_ok L (r : res (mat f64)) (l : list SpecFloat.spec_float) : match r with Ok Y => map B2SF (mrow (SK:=F64 L) Y 0) | Fail _ => [] end = l -> l <> [] -> exists Y, r = Ok Y /\ map B2SF (mrow (SK:=F64 L) Y 0) = l.
Proof. destruct r; [eauto|congruence]. Qed.
(** R^2 x SO(3) matrix x SO(3) quaternion at (3, 4), the identity and the half turn about y, a row of integers. *)
Example C65_example : forall L0, let L := in_order L0 in let xs := [fi [3; 4]%Z; fi [1; 0; 0; 0; 1; 0; 0; 0; 1]%Z; fi [0; 0; 1; 0]%Z] in
  built (fP L) /\ Forall2 (defect64 0) (leaves (fP L)) xs /\ no_sphere (fP L) /\
  exists Y, applyDiffRetractation (SK:=F64 L) (fP L) (Mat 1 (repeat [of_Z 0] 8)) (Mat 1 (map (fun a => [of_Z a]) [1; 2; 1; 2; 3; 4; 5; 6; 7; 8; 9; 2; 4; 6; 8]%Z)) (concat xs) = Ok Y /\
    map B2SF (mrow (SK:=F64 L) Y 0) = map B2SF (fi [1; 2; -2; 4; -2; -4; -1; 2]%Z).
Proof.
  intros L0 L xs. split; [apply fP_built|]. split; [|split].
  2:{ unfold no_sphere. 
      repeat (apply Forall_cons; [exact I|]). apply Forall_nil. }
  2:{ apply row_of_ok.
      - vm_compute.
        reflexivity.
      - intros E. 
        discriminate E. }
  destruct (vals_fi [1; 0; 0; 0; 1; 0; 0; 0; 1]%Z) as [Fx Vx]; [repeat constructor; lia|]. destruct (vals_fi [0; 0; 1; 0]%Z) as [Fq Vq]; [repeat constructor; lia|].
  unfold xs. apply Forall2_cons; [reflexivity|]. apply Forall2_cons; [|apply Forall2_cons; [|apply Forall2_nil]].
  - split; [exact Fx|]. exists (M3 1 0 0 0 1 0 0 0 1). split; [exact Vx|]. unfold near_rot, rdet. cbn [rmul rtr a00 a01 a02 a10 a11 a12 a20 a21 a22]. repeat split; apply Rabs_le; lra.
  - split; [exact Fq|]. exists (Q4 0 0 1 0). split; [exact Vq|]. unfold qn2. cbn [qw qx qy qz]. apply Rabs_le. lra.
Qed.
