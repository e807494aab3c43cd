(** C66: the derivative of the logarithm at the identity, diffPseudoLog0, in double arithmetic. *)
From Coq Require Import Reals List Lra Lia ZArith Bool Arith Psatz SpecFloat.
From Flocq Require Import Core BinarySingleNaN.
From Verif Require Import Base Scalar Vec Model_Real Model_S2 Model_SO3 Model_Manifold Spec Layout Comp Flat BlockMat MatOps MatProd MatNum F64 F64Err F64Norm F64Exp F64S2 F64Gs F64Tree F64Go XR SpecR RotR NumVec
  NumS2 Deriv DerivLog TanLeaf F64Quat F64Log F64LogQ F64Trans F64Proj JacR JacLeaf F64Jac JacLogR JacLogLeaf F64JacLog Angle NumQuat RotLog Properties_Float Properties_FloatTrans Properties_FloatLog Properties_FloatJac ExScalar.
Import ListNotations.
Local Open Scope R_scope.

(** ** Specification *)
(** Factors of the theorem: real spaces at any point, and quaternions of norm within d of 1, at most a few
    ten-thousandths short of a half turn away from the identity. *)
Definition log_ready (d : R) (s : mfd f64) (x : list f64) : Prop :=
  match s with
  | Leaf h LReal _ _ => length x = h_dim h
  | Leaf _ (LSO3 MapQuat) _ _ => Forall isf x /\ exists q, vals x = qflat q /\ Rabs (qn2 q - 1) <= d /\ 3 / 10000 <= qw q
  | _ => False
  end.
(** The exact logarithm at the identity: the point itself for a real space, the rotation vector for a quaternion
    (of any length: [qlog_scale], [qlog_exp]). *)
Definition exact_log (s : mfd f64) (x : list R) : list R :=
  match s with Leaf _ (LSO3 MapQuat) _ _ => qlog (as_q x) | _ => x end.
(** The exact point next to the one given: a quaternion is divided by its norm. *)
Definition exact_point (s : mfd f64) (x : list R) : list R :=
  match s with Leaf _ (LSO3 MapQuat) _ _ => rscal (/ rnorm x) x | _ => x end.
(** The block of a factor: finite, and within e of the matrix whose product with every direction U of the
    representation space is the derivative of the exact logarithm from the exact point along U. *)
Definition log_jacobian (d : R) (s : mfd f64) (x : list f64) (J : mat f64) : Prop :=
  shape J (tangentDim s) (representationDim s) /\ Forall (Forall isf) (mcols_ J) /\
  exists G, Forall2 (near_v (match s with Leaf _ (LSO3 MapQuat) _ _ => 350 * / 2 ^ 53 + 11 * d | _ => 0 end)) (map (map val) (mcols_ J)) G /\
    forall U, length U = representationDim s ->
      deriv_v (fun t => exact_log s (radd (exact_point s (vals x)) (rscal t U))) 0 (rmv (tangentDim s) G U).

(** A row a of the matrix given to applyDiffPseudoLog0 and the row y it becomes: a copy for a real space; for a
    quaternion, finite and next to the row g that gives the derivative of the linear form a of the exact logarithm
    along every direction U of the representation space. *)
Definition pulled_log (d : R) (s : mfd f64) (x a y : list f64) : Prop :=
  match s with
  | Leaf _ LReal _ _ => y = a
  | _ => forall S, / 2 ^ 890 <= S <= 2 ^ 890 -> Forall (fun p => isf p /\ Rabs (val p) <= S) a ->
      Forall isf y /\ exists g, length g = representationDim s /\
        (forall U, length U = representationDim s ->
           derivable_pt_lim (fun t => rdot (vals a) (exact_log s (radd (exact_point s (vals x)) (rscal t U)))) 0 (rdot g U)) /\
        near_v ((1082 * / 2 ^ 53 + 33 * d) * S) (vals y) g
  end.

(** ** Elementary factors *)
Lemma u_val : u = / 2 ^ 53.
Proof. unfold u. cbn. lra. Qed.
Lemma deriv_v_ext f g t D : (forall s, f s = g s) -> deriv_v f t D -> deriv_v g t D.
Proof. intros E (fs & H & F). exists fs. split; auto. intros s. rewrite <- E. apply H. Qed.
Lemma unit_flat Q : 0 < qn2 Q -> rscal (/ rnorm (qflat Q)) (qflat Q) = qflat (qunit Q).
Proof.
  intros P. assert (N : rnorm (qflat Q) = sqrt (qn2 Q)) by (unfold rnorm, qn2, qflat; cbn [rdot]; f_equal; ring).
  rewrite N. unfold qunit, qflat, rscal. cbn [map qw qx qy qz]. unfold Rdiv. rewrite (Rmult_comm _ (qw Q)), (Rmult_comm _ (qx Q)), (Rmult_comm _ (qy Q)), (Rmult_comm _ (qz Q)). reflexivity.
Qed.
Lemma leaf_jaclog L h l a b x d : let s := Leaf h l a b in accurate_atan2 L -> leaf_wf (K:=f64) h l a b -> 0 <= d <= 1 / 1000 -> log_ready d s x ->
  exists J, diffPseudoLog0 (SK:=F64 L) s x = Ok J /\ log_jacobian d s x J.
Proof.
  intros s HT W Hd Dx. unfold s in *. destruct l as [| |[|]]; try contradiction; cbn [leaf_wf log_ready] in *.
  - destruct W as [W1 W2]. destruct (ident_cols L (h_dim h)) as [I1 I2]. cbn [diffPseudoLog0]. unfold log_jacobian, representationDim, tangentDim. cbn [hdr_of]. rewrite check_eq by (rewrite W2; exact Dx). cbn [bind]. exists (mident (SK:=F64 L) (h_dim h) (h_dim h)). rewrite W1, W2. split; [reflexivity|]. split; [apply shape_mbuild|]. split; [exact I1|].
    exists (map (unitv (h_dim h)) (seq 0 (h_dim h))). rewrite I2. split; [apply near_refl|]. intros v Lv. rewrite rmv_ident by auto. cbn [exact_log exact_point]. apply real_deriv. transitivity (h_dim h); [auto|]. symmetry. exact (eq_trans (map_length _ _) Dx).
  - destruct Dx as (Fx & q & Eq & Hq & Hw). destruct W as (_ & W2 & W3 & _).
    assert (Lx : length x = 4%nat) by exact (eq_trans (eq_sym (map_length _ _)) (f_equal (@length R) Eq)).
    cbn [diffPseudoLog0]. unfold log_jacobian, representationDim, tangentDim. cbn [hdr_of]. rewrite check_eq by (rewrite W3; exact Lx). cbn [bind]. rewrite W2, W3.
    destruct x as [|xw [|x0 [|x1 [|x2 [|]]]]]; try discriminate. inversion Fx as [|? ? A0 F1]; subst. inversion F1 as [|? ? A1 F2]; subst. inversion F2 as [|? ? A2 F3]; subst. inversion F3 as [|? ? A3 F4]; subst.
    assert (Eqv : q = qval (Q4 xw x0 x1 x2)).
    { destruct q as [w p r t]. unfold qflat in Eq. cbn [map qw qx qy qz] in Eq. unfold qval. cbn [qw qx qy qz]. injection Eq as -> -> -> ->. reflexivity. }
    subst q.
    destruct (eq_jaclog64 L HT (Q4 xw x0 x1 x2) d) as (J & E & S & F & V); auto; [repeat split; auto|lra|]. cbn [qw qx qy qz] in *.
    exists J. split; [exact E|]. split; [exact S|]. split; [exact F|]. rewrite u_val in V. exists (qlog_jac (qunit (qval (Q4 xw x0 x1 x2)))). split; [exact V|].
    intros U LU. destruct (qflat_inv U LU) as (qu & ->). cbn [exact_log exact_point]. rewrite Eq. clear - Hq Hd Hw. set (Q := qval _) in *. clearbody Q.
    apply Rabs_ends in Hq. assert (P : 0 < qn2 Q) by lra. assert (SP : 0 < sqrt (qn2 Q)) by (apply sqrt_lt_R0; auto).
    eapply deriv_v_ext; [|apply qlog_deriv; [apply qunit_one; auto|unfold qunit; cbn [qw]; apply Rdiv_lt_0_compat; lra]].
    intros t. rewrite unit_flat, qflat_line by auto. reflexivity.
Qed.

(** The columns of the exact matrix are below 9 in absolute sum. *)
Lemma asum_qlog q : qn2 q = 1 -> 0 < qw q -> Forall (fun c => asum c <= 9) (qlog_jac q).
Proof.
  intros H W. unfold qlog_jac. set (n := rnorm (qv q)). destruct q as [w x y z]. unfold qn2, qv in *. cbn [qw qx qy qz] in *.
  assert (NN : n * n = x * x + y * y + z * z) by (unfold n, rnorm; cbn [rdot]; rewrite sqrt_sqrt; nra). assert (N0 : 0 <= n) by apply sqrt_pos. clearbody n.
  assert (C0 : asum [-2 * x; -2 * y; -2 * z] <= 9).
  { cbn [asum]. rewrite !Rabs_mult, (Rabs_left (-2)) by lra. assert (B : forall t, t * t <= 1 -> Rabs t <= 1) by (intros t Ht; apply Rabs_le; nra). pose proof (B x ltac:(nra)). pose proof (B y ltac:(nra)). pose proof (B z ltac:(nra)). lra. }
  destruct (Req_EM_T n 0) as [Z|Z].
  - repeat (apply Forall_cons; [try exact C0; cbn [asum]; rewrite !Rmult_0_l, ?Rplus_0_r, ?Rabs_R0, (Rabs_pos_eq 2) by lra; lra|]). apply Forall_nil.
  - assert (NP : 0 < n) by lra. destruct (atan2_polar n w ltac:(nra)) as (R0 & RR & GC & GS & GB). set (r := sqrt (w * w + n * n)) in *. set (g := Ratan2 n w) in *.
    assert (R1 : r = 1) by nra. rewrite R1, !Rmult_1_l in *.
    assert (G0 : 0 <= g). { apply Rnot_lt_le. intros C. assert (0 < sin (- g)) by (apply sin_gt_0; lra). rewrite sin_neg in *. lra. }
    pose proof PI_le as PL. assert (G1 : g < PI / 2). { apply Rnot_le_lt. intros C. assert (cos g <= 0) by (apply cos_le_0; lra). lra. }
    pose proof (sin_half_173 g ltac:(lra)) as SH. set (s := 2 * g / n).
    assert (Sn : s * n = 2 * g) by (unfold s; field; lra). assert (S4 : s <= 4) by (apply (Rmult_le_reg_r n); lra). assert (S0 : 0 <= s) by (apply (Rmult_le_reg_r n); lra).
    set (p := (2 * w - s) / (n * n)). assert (Pn : p * (n * n) = 2 * w - s) by (unfold p; field; lra). clearbody p s.
    assert (W1 : w <= 1) by nra. 
    assert (D : forall i, i * i <= n * n -> Rabs (s + p * i * i) <= 4).
    { intros i Hi. assert (0 <= i * i) by nra. destruct (Rle_dec 0 p); apply Rabs_le.
      - assert (p * (i * i) <= p * (n * n)) by (apply Rmult_le_compat_l; lra). assert (0 <= p * (i * i)) by (apply Rmult_le_pos; lra). lra.
      - assert (- p * (i * i) <= - p * (n * n)) by (apply Rmult_le_compat_l; lra). assert (0 <= - p * (i * i)) by (apply Rmult_le_pos; lra). lra. }
    assert (O : forall i j, i * i + j * j <= n * n -> Rabs (p * i * j) <= 2).
    { intros i j Hij. rewrite Rmult_assoc, Rabs_mult. assert (A : Rabs (i * j) <= n * n / 2) by (pose proof (Rle_0_sqr (i + j)) as Q1; pose proof (Rle_0_sqr (i - j)) as Q2; unfold Rsqr in *; apply Rabs_le; lra).
      assert (P4 : Rabs p * (n * n) <= 4) by (rewrite <- (Rabs_pos_eq (n * n)) by nra; rewrite <- Rabs_mult, Pn; apply Rabs_le; lra).
      pose proof (Rabs_pos p). assert (Rabs p * Rabs (i * j) <= Rabs p * (n * n / 2)) by (apply Rmult_le_compat_l; auto). lra. }
    pose proof (D x ltac:(nra)). pose proof (D y ltac:(nra)). pose proof (D z ltac:(nra)). pose proof (O x y ltac:(nra)). pose proof (O y x ltac:(nra)). pose proof (O x z ltac:(nra)). pose proof (O z x ltac:(nra)). pose proof (O y z ltac:(nra)). pose proof (O z y ltac:(nra)).
    repeat (apply Forall_cons; [try exact C0; cbn [asum]; lra|]). apply Forall_nil.
Qed.
(** A row times a matrix close to another. *)
Lemma rows_close L (cs : list (list f64)) Gs a e S : scale S -> 0 <= e <= 3 / 100 -> Forall (fun p => isf p /\ Rabs (val p) <= S) a -> Forall (Forall isf) cs -> Forall2 (near_v e) (map (map val) cs) Gs ->
  Forall (fun c => length c = 3%nat) cs -> length a = 3%nat -> Forall (fun c => asum c <= 9) Gs ->
  Forall isf (map (dot (SK:=F64 L) a) cs) /\ near_v ((31 * u + 3 * e) * S) (vals (map (dot (SK:=F64 L) a) cs)) (map (rdot (vals a)) Gs).
Proof.
  intros HS He Ha Fc HG Lc La Hk. revert Gs HG Hk. induction Fc as [|c cs F1 Fc IH]; intros Gs HG Hk; inversion HG as [|? G ? Gs' H1 H2]; subst; [split; constructor|].
  inversion Lc as [|? ? L1 L2]; inversion Hk as [|? ? K1 K2]; subst. destruct (IH L2 _ H2 K2) as [I1 I2]. pose proof u_pos as U. destruct (scale_eta S HS) as (S0 & _).
  assert (N' : length (map val c) = 3%nat) by exact (eq_trans (map_length _ _) L1).
  assert (A : asum (map val c) <= 10).
  { pose proof (near_asum _ _ _ H1) as Q. rewrite N' in Q. cbn [INR] in Q. lra. }
  assert (NR : near_v eta (map val c) (map val c)). { clear. induction c; cbn [map]; constructor; auto. rewrite Rminus_diag_eq, Rabs_R0 by auto. apply bpow_ge_0. }
  destruct (row_col L a c (map val c) 10 S HS Ha F1 NR) as [F2 E2]; auto; [rewrite La, L1; auto|rewrite La; lia|lra|].
  assert (Ba : Forall (fun p => Rabs p <= S) (vals a)) by (clear - Ha; induction Ha as [|? ? [? ?]]; cbn [map]; constructor; auto).
  pose proof (rdot_near S e (vals a) ltac:(lra) ltac:(lra) Ba _ _ H1) as D. assert (La' : length (vals a) = 3%nat) by exact (eq_trans (map_length _ _) La). rewrite La' in D. rewrite La in E2. cbn [INR] in D, E2.
  cbn [map]. split; constructor; auto.
  assert (US : 0 < u * S) by (apply Rmult_lt_0_compat; lra). match type of E2 with Rabs (?v - _) <= _ => set (V := v) in * end. change (Rabs (V - rdot (vals a) G) <= (31 * u + 3 * e) * S).
  apply Rabs_ends in D, E2. apply Rabs_le. lra.
Qed.
Lemma rdot_cols a G U : Forall (fun c => length c = 3%nat) G -> length a = 3%nat -> length G = length U -> rdot (map (rdot a) G) U = rdot a (rmv 3 G U).
Proof.
  intros HG La. destruct a as [|a0 [|a1 [|a2 [|]]]]; try discriminate. unfold rmv. cbn [seq map]. revert U. induction HG as [|c G Lc HG IH]; intros [|p U] LU; try discriminate.
  - cbn [map rdot]. ring.
  - change (rdot [a0; a1; a2] c * p + rdot (map (rdot [a0; a1; a2]) G) U = rdot [a0; a1; a2] [rdot (map (fun c => nth 0 c 0) (c :: G)) (p :: U); rdot (map (fun c => nth 1 c 0) (c :: G)) (p :: U); rdot (map (fun c => nth 2 c 0) (c :: G)) (p :: U)]). rewrite (IH U) by (simpl in LU; lia). destruct c as [|c0 [|c1 [|c2 [|]]]]; try discriminate. cbn [map nth rdot]. ring.
Qed.
Lemma leaf_pulllog L h l a b x d : let s := Leaf h l a b in accurate_atan2 L -> leaf_wf (K:=f64) h l a b -> 0 <= d <= 1 / 1000 -> log_ready d s x ->
  okl (SK:=F64 L) (pulled_log d) s x [x].
Proof.
  intros s HT W Hd Dx. destruct (leaf_jaclog L h l a b x d HT W Hd Dx) as (J & EJ & SJ & FJ & _). 
  assert (Lx : length x = representationDim s).
  { unfold s, representationDim in *. cbn [hdr_of]. destruct l as [| |[|]]; try contradiction; cbn [leaf_wf log_ready] in *; [destruct W as [_ W2]; rewrite W2; exact Dx|].
    destruct W as (_ & _ & W3 & _). destruct Dx as (_ & q & Eq & _). rewrite W3. exact (eq_trans (eq_sym (map_length _ _)) (f_equal (@length R) Eq)). }
  apply leaf_of_rows_log; auto. intros r out inp So Si. unfold s in *. cbn [applyDiffPseudoLog0 diffPseudoLog0] in *. unfold representationDim, tangentDim in *. cbn [hdr_of] in *.
  pose proof So as (So1 & So2 & _). pose proof Si as (Si1 & Si2 & Si3).
  rewrite !check_eq by (unfold ncols; congruence). rewrite check_eq in EJ by auto. cbn [bind] in *.
  destruct l as [| |[|]]; try contradiction; cbn [leaf_wf log_ready] in *.
  - destruct W as [W1 W2]. exists inp. split; [apply (massign_shape out inp r (h_rdim h)); auto; rewrite W2, <- W1; auto|]. split; [rewrite W2, <- W1; auto|]. intros i _. reflexivity.
  - destruct Dx as (Fx & q & Eq & Hq & Hw). destruct W as (_ & W2 & W3 & _). rewrite W2, W3 in *.
    assert (Eq' : exists Q, x = [qw Q; qx Q; qy Q; qz Q] /\ qfin Q /\ qval Q = q).
    { destruct x as [|xw [|x0 [|x1 [|x2 [|]]]]]; try discriminate. inversion Fx as [|? ? A0 F1]; subst. inversion F1 as [|? ? A1 F2]; subst. inversion F2 as [|? ? A2 F3]; subst. inversion F3 as [|? ? A3 F4]; subst.
      exists (Q4 xw x0 x1 x2). split; [reflexivity|]. split; [repeat split; auto|]. destruct q as [w p t v]. unfold qflat in Eq. cbn [map qw qx qy qz] in Eq. unfold qval. cbn [qw qx qy qz]. injection Eq as -> -> -> ->. reflexivity. }
    destruct Eq' as (Q & Ex & FQ & VQ).
    destruct (eq_jaclog64 L HT Q d FQ) as (J' & E & S & F & V); [rewrite VQ; auto|lra|change (val (qw Q)) with (qw (qval Q)); rewrite VQ; auto|]. rewrite <- Ex in E. 
    assert (J' = J) by (apply ok_inj; rewrite <- E, <- EJ; reflexivity). subst J'. rewrite VQ in V.
    unfold eq_applyDiffPseudoLog0. rewrite check_eq by exact Si2. cbn [bind]. rewrite EJ. cbn [bind].
    exists (mmul (SK:=F64 L) inp J). assert (SY : shape (mmul (SK:=F64 L) inp J) r 4) by (apply shape_mmul; auto; apply S).
    split; [apply (massign_shape out _ r 4); auto|]. split; auto. intros i Hi. cbn [pulled_log]. unfold representationDim. cbn [hdr_of]. rewrite W3. intros T HT' Fa. destruct (scale890 _ HT') as [HS _].
    rewrite mrow_mmul by (rewrite Si1; auto). assert (La : length (mrow (SK:=F64 L) inp i) = 3%nat) by exact (eq_trans (map_length _ _) Si2).
    assert (La' : length (vals (mrow (SK:=F64 L) inp i)) = 3%nat) by exact (eq_trans (map_length _ _) La).
    pose proof (Rabs_ends _ _ Hq) as Hq'. assert (P : 0 < qn2 q) by lra. assert (SP : 0 < sqrt (qn2 q)) by (apply sqrt_lt_R0; auto). pose proof (qunit_one q P) as U1. assert (W0 : 0 < qw (qunit q)) by (unfold qunit; cbn [qw]; apply Rdiv_lt_0_compat; lra).
    pose proof u_pos as U. assert (Us : u <= 1 / 100000) by (rewrite u_val; lra).
    destruct (rows_close L (mcols_ J) (qlog_jac (qunit q)) (mrow (SK:=F64 L) inp i) (350 * u + 11 * d) T HS) as [R1 R2]; auto; try lra.
    { apply S. }
    { apply asum_qlog; auto. }
    split; [exact R1|]. exists (map (rdot (vals (mrow (SK:=F64 L) inp i))) (qlog_jac (qunit q))). split; [reflexivity|]. split.
    + intros V' LV. rewrite rdot_cols; auto; [|repeat constructor]. apply deriv_rdot. destruct (qflat_inv V' LV) as (qu & ->). cbn [exact_log exact_point]. rewrite Eq.
      eapply deriv_v_ext; [|apply qlog_deriv; auto]. intros t. rewrite unit_flat, qflat_line by auto. reflexivity.
    + eapply near_weak; [|exact R2]. rewrite <- u_val. apply Rmult_le_compat_r; [destruct (scale_eta T HS); lra|lra].
Qed.

(** ** Trees *)
Lemma log_ready_pieces d m xs : wf m -> Forall2 (log_ready d) (leaves m) xs -> pieces DR (leaves m) xs.
Proof.
  intros W H. pose proof (fun s => leaf_inv_gen m s W) as GI. clear W. revert GI. induction H as [|s x ls xs Hx H IH]; intros GI; constructor.
  - destruct (GI s) as (h & l & a & b & -> & Wl); [simpl; auto|]. unfold getDim, representationDim. cbn [hdr_of]. destruct l as [| |[|]]; try contradiction; cbn [leaf_wf log_ready] in *.
    + destruct Wl as [_ W2]. cbn. rewrite W2. exact Hx.
    + destruct Wl as (_ & _ & W3 & _). destruct Hx as (_ & q & Eq & _). cbn. rewrite W3. exact (eq_trans (eq_sym (map_length _ _)) (f_equal (@length R) Eq)).
  - apply IH. intros; apply GI; simpl; auto.
Qed.
(** On every tree of such factors diffPseudoLog0 runs, and its result is block diagonal, one block per factor, each
    a finite matrix next to the exact derivative of that factor's logarithm. *)
Theorem C66_log_jacobian : forall L (m : mfd f64) xs d, accurate_atan2 L -> built m -> 0 <= d <= 1 / 1000 -> Forall2 (log_ready d) (leaves m) xs ->
  exists Js, diffPseudoLog0 (SK:=F64 L) m (concat xs) = Ok (bdiag (SK:=F64 L) Js) /\ Forall3 (log_jacobian d) (leaves m) xs Js.
Proof.
  intros L m xs d HT B Hd Dx. pose proof (built_wf _ B) as W. pose proof (log_ready_pieces d m xs W Dx) as Px.
  assert (G : exists Js, Forall3 (fun s x J => diffPseudoLog0 (SK:=F64 L) s x = Ok J /\ log_jacobian d s x J) (leaves m) xs Js).
  { pose proof (fun s => leaf_inv_gen m s W) as GI. clear B W Px. revert GI. induction Dx as [|s x ls xs Hx Dx IH]; intros GI; [exists []; constructor|].
    destruct (GI s) as (h & l & a & b & -> & Wl); [simpl; auto|]. destruct (leaf_jaclog L h l a b x d HT Wl Hd Hx) as (J & EJ & HJ).
    destruct IH as (Js & HJs); auto. { intros; apply GI; simpl; auto. } exists (J :: Js). constructor; auto. }
  destruct G as (Js & HJ). exists Js. split.
  - apply (flat_mat (SK:=F64 L) (diffPseudoLog0 (SK:=F64 L))); auto.
    + intros. rewrite (diffPseudoLog0_prod (SK:=F64 L)) by auto. split; intros (js & A & C); exists js; (split; [exact C|exact A]).
    + exists Js. split; auto. clear - HJ. induction HJ as [|? ? ? ? ? ? [? ?]]; constructor; auto.
  - clear - HJ. induction HJ as [|? ? ? ? ? ? [? ?]]; constructor; auto.
Qed.
Print Assumptions C66_log_jacobian.


(** applyDiffPseudoLog0 on every such tree, matrices of any height. *)
Theorem C66_apply : forall L (m : mfd f64) xs d r out inp, accurate_atan2 L -> built m -> 0 <= d <= 1 / 1000 -> Forall2 (log_ready d) (leaves m) xs ->
  shape out r (representationDim m) -> shape inp r (tangentDim m) ->
  exists Y, applyDiffPseudoLog0 (SK:=F64 L) m out inp (concat xs) = Ok Y /\ shape Y r (representationDim m) /\
    forall i, (i < r)%nat -> exists ps ys, mrow (SK:=F64 L) inp i = concat ps /\ mrow (SK:=F64 L) Y i = concat ys /\
      pieces DT (leaves m) ps /\ pieces DR (leaves m) ys /\ Forall4 (pulled_log d) (leaves m) xs ps ys.
Proof.
  intros L m xs d r out inp HT B Hd Dx So Si. pose proof (built_wf _ B) as W.
  destruct (adl_tree (SK:=F64 L) (pulled_log d) m W xs) as [_ H]; [|exact (H r out inp So Si)].
  pose proof (fun s => leaf_inv_gen m s W) as GI. clear So Si B W. revert GI. induction Dx as [|s x ls xs Hx Dx IH]; intros GI; constructor.
  - destruct (GI s) as (h & l & a & b & -> & Wl); [simpl; auto|]. apply leaf_pulllog; auto.
  - apply IH. intros; apply GI; simpl; auto.
Qed.
Print Assumptions C66_apply.

(** ** Example *)
(** R^2 x SO(3) as a quaternion, at (3, 4) and a third of a turn about (1, 1, 1). *)
Example C66_example : exists m : mfd f64, accurate_atan2 libm_exact /\ built m /\ map tangentDim (leaves m) = [2; 3]%nat /\
  Forall2 (log_ready 0) (leaves m) [fi [3; 4]%Z; [p2 (-1); p2 (-1); p2 (-1); p2 (-1)]] /\
  qlog (qval (Q4 (p2 (-1)) (p2 (-1)) (p2 (-1)) (p2 (-1)))) = rscal (2 * PI / 3 / sqrt 3) [1; 1; 1].
Proof.
  set (SKx := F64 libm_exact). exists (get prod_empty (prod2 (fR2 libm_exact) (fQ libm_exact))).
  split; [apply accurate_log_split, libm_exact_log|]. split; [|split; [reflexivity|split]].
  - apply (prod2_built64 (fR2 libm_exact) (fQ libm_exact)); [apply (built_real_mag 2 (k1 (Scalar:=SKx))); reflexivity|apply (built_so3 MapQuat [kpi (Scalar:=SKx); kpi (Scalar:=SKx); kpi (Scalar:=SKx)]); reflexivity|reflexivity].
  - destruct (p2_ok (-1) ltac:(lia)) as [F V]. apply Forall2_cons; [reflexivity|]. apply Forall2_cons; [|apply Forall2_nil]. split; [repeat (apply Forall_cons; [exact F|]); apply Forall_nil|].
    exists (Q4 (1 / 2) (1 / 2) (1 / 2) (1 / 2)). assert (V' : val (p2 (-1)) = 1 / 2) by (rewrite V; cbn; lra). split; [|split; [|cbn [qw]; lra]].
    + change (vals [p2 (-1); p2 (-1); p2 (-1); p2 (-1)]) with [val (p2 (-1)); val (p2 (-1)); val (p2 (-1)); val (p2 (-1))]. rewrite V'. reflexivity.
    + unfold qn2. cbn [qw qx qy qz]. apply Rabs_le. lra.
  - destruct (p2_ok (-1) ltac:(lia)) as [F V]. assert (V' : val (p2 (-1)) = 1 / 2) by (rewrite V; cbn; lra). unfold qval. cbn [qw qx qy qz]. rewrite V'.
    set (v := rscal (2 * PI / 3 / sqrt 3) [1; 1; 1]).
    assert (S3 : 0 < sqrt 3) by (apply sqrt_lt_R0; lra). assert (SS : sqrt 3 * sqrt 3 = 3) by (apply sqrt_sqrt; lra). pose proof PI_RGT_0 as P0.
    assert (N : rnorm v = 2 * PI / 3).
    { unfold v. rewrite rnorm_scal. assert (E : rnorm [1; 1; 1] = sqrt 3) by (unfold rnorm; cbn [rdot]; f_equal; ring). rewrite E, Rabs_pos_eq; [field; lra|]. apply Rmult_le_pos; [lra|apply Rlt_le, Rinv_0_lt_compat; lra]. }
    rewrite <- (qlog_exp v eq_refl ltac:(rewrite N; lra)) at 1. f_equal. revert N. unfold v. cbn [rscal map]. set (k := 2 * PI / 3 / sqrt 3). intros N. unfold expQ. rewrite N. destruct (Req_EM_T (2 * PI / 3) 0) as [Z|_]; [lra|].
    replace (2 * PI / 3 / 2) with (PI / 3) by field. rewrite cos_PI3, sin_PI3. assert (Ek : sqrt 3 / 2 / (2 * PI / 3) * (k * 1) = 1 / 2) by (unfold k; field; lra). rewrite Ek. reflexivity.
Qed.
