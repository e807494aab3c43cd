(** C72: the derivative of the logarithm at the identity of a rotation matrix, diffPseudoLog0, in double arithmetic. *)
From Coq Require Import Reals List Lra Lia ZArith Bool Arith Psatz SpecFloat.
From Flocq Require Import Core BinarySingleNaN.
From Verif Require Import Base Scalar Vec Model_Real Model_S2 Model_SO3 Model_Manifold Spec Layout Comp Flat BlockMat MatOps MatProd MatNum F64 F64Err F64Norm F64Exp F64S2 F64Gs F64Tree F64Go XR SpecR RotR NumVec
  NumMat NumS2 Deriv DerivLog TanLeaf F64Mat F64Quat F64Log F64LogQ F64Trans F64Proj JacR JacLeaf F64Jac JacLogR JacLogLeaf F64JacLog F64JacMat Angle NumQuat RotLog Properties_Float Properties_FloatTrans Properties_FloatLog Properties_FloatJac
  Properties_FloatJacLog ExScalar.
Import ListNotations.
Local Open Scope R_scope.

(** ** Specification *)
(** A 3x3 matrix from its nine coefficients, column after column. *)
Definition as_m (x : list R) : m3 R :=
  match x with [m00; m10; m20; m01; m11; m21; m02; m12; m22] => M3 m00 m01 m02 m10 m11 m12 m20 m21 m22 | _ => ridm end.
(** The rotation vector of a matrix: angle from the trace, direction from the antisymmetric part ([C72_log]: on
    rotations it is the inverse of the exponential). *)
Definition mlog (A : m3 R) : list R :=
  let t := acos ((a00 A + a11 A + a22 A - 1) / 2) in rscal (t / (2 * sin t)) [a21 A - a12 A; a02 A - a20 A; a10 A - a01 A].
(** x is within d, entry by entry, of the rotation of rotation vector v: from a milliradian to a quarter turn, and d
    small before the square of the sine. *)
Definition near_exp (d : R) (x : list f64) (v : list R) : Prop :=
  length v = 3%nat /\ 1 / 1000 <= rnorm v <= PI / 2 /\ 2000 * d <= (sin (rnorm v)) ^ 2 /\ near_v d (vals x) (flat9 (expSO3 v)).
(** Factors of the theorem: those of C66, and matrices close to such a rotation. *)
Definition log_ready_m (d : R) (s : mfd f64) (x : list f64) : Prop :=
  match s with Leaf _ (LSO3 MapMatrix) _ _ => Forall isf x /\ exists v, near_exp d x v | _ => log_ready d s x end.
(** The block of a matrix factor: finite, and next to the matrix whose product with every direction U is the
    derivative along U of the rotation vector from the rotation exp v, for every v such that x is close to exp v. *)
Definition log_jacobian_m (d : R) (s : mfd f64) (x : list f64) (J : mat f64) : Prop :=
  match s with
  | Leaf _ (LSO3 MapMatrix) _ _ => shape J 3 9 /\ Forall (Forall isf) (mcols_ J) /\ forall v, near_exp d x v ->
      exists G, Forall2 (near_v ((53 * d + 324 * / 2 ^ 53) / sin (rnorm v))) (map (map val) (mcols_ J)) G /\
        forall U, length U = 9%nat -> deriv_v (fun t => mlog (as_m (radd (flat9 (expSO3 v)) (rscal t U)))) 0 (rmv 3 G U)
  | _ => log_jacobian d s x J
  end.
(** A row a given to applyDiffPseudoLog0 and the row y it becomes. *)
Definition pulled_log_m (d : R) (s : mfd f64) (x a y : list f64) : Prop :=
  match s with
  | Leaf _ (LSO3 MapMatrix) _ _ => forall S, / 2 ^ 890 <= S <= 2 ^ 890 -> Forall (fun p => isf p /\ Rabs (val p) <= S) a ->
      Forall isf y /\ forall v, near_exp d x v -> exists g, length g = 9%nat /\
        (forall U, length U = 9%nat -> derivable_pt_lim (fun t => rdot (vals a) (mlog (as_m (radd (flat9 (expSO3 v)) (rscal t U))))) 0 (rdot g U)) /\
        near_v ((1003 * / 2 ^ 53 + 159 * d) / sin (rnorm v) * S) (vals y) g
  | _ => pulled_log d s x a y
  end.

(** ** The matrix factor *)
Lemma mlog_curve A : -1 < (tr3 A - 1) / 2 < 1 -> mlog A = log_curve A.
Proof.
  intros H. unfold mlog, log_curve, acoef, tr3 in *. cbv zeta. set (c := (a00 A + a11 A + a22 A - 1) / 2) in *.
  replace (sqrt (1 - c * c)) with (sin (acos c)) by (rewrite sin_acos by lra; reflexivity).
  assert (P : 0 < sin (acos c)) by (pose proof (acos_bound_lt _ H); apply sin_gt_0; lra). unfold rscal. cbn [map].
  repeat (apply f_equal2; [field; lra|]). reflexivity.
Qed.
(** The specification is the right one: on rotations [mlog] inverts the exponential. *)
Theorem C72_log : forall v, length v = 3%nat -> 0 < rnorm v < PI -> mlog (expSO3 v) = v.
Proof.
  intros v Lv Hv. unfold mlog. rewrite (expSO3_trace v (rnorm v) Lv eq_refl). cbv zeta. rewrite acos_cos by lra.
  assert (P : 0 < sin (rnorm v)) by (apply sin_gt_0; lra). pose proof (skew_exp v Lv ltac:(lra)) as S. cbv zeta in S. destruct (vec3_inv v Lv) as (x & y & z & ->). set (t := rnorm _) in *. set (B := expSO3 _) in *. clearbody t B.
  unfold rscal in *. cbn [map] in *. injection S as S0 S1 S2.
  assert (E : forall p q w, (p - q) / 2 = sin t / t * w -> t / (2 * sin t) * (p - q) = w).
  { intros p q w H. replace (p - q) with (2 * ((p - q) / 2)) by field. rewrite H. field. lra. }
  rewrite (E _ _ _ S0), (E _ _ _ S1), (E _ _ _ S2). reflexivity.
Qed.
Lemma deriv_v_local y z t0 D d : 0 < d -> (forall t, Rabs (t - t0) < d -> z t = y t) -> (forall t, length (z t) = length D) -> deriv_v y t0 D -> deriv_v z t0 D.
Proof.
  intros Hd E Lz H. exists (map (fun i t => nth i (z t) 0) (seq 0 (length D))). split.
  - intros t. rewrite map_map. rewrite <- (Lz t). generalize (z t). clear. induction l as [|a l IH]; [reflexivity|]. cbn [length seq map nth]. f_equal. rewrite <- seq_shift, map_map. exact IH.
  - assert (G : forall i, derivable_pt_lim (fun t => nth i (z t) 0) t0 (nth i D 0)).
    { intros i. apply (d_local _ (fun t => nth i (y t) 0) _ _ d Hd); [intros t Ht; rewrite E by auto; reflexivity|]. apply deriv_v_nth; auto. }
    assert (S : forall k D', (forall i, derivable_pt_lim (fun t => nth (k + i) (z t) 0) t0 (nth i D' 0)) -> Forall2 (fun f e => derivable_pt_lim f t0 e) (map (fun i t => nth i (z t) 0) (seq k (length D'))) D').
    { clear. intros k D'. revert k. induction D' as [|e D' IH]; intros k H; cbn [length seq map]; constructor.
      - specialize (H 0%nat). rewrite Nat.add_0_r in H. exact H.
      - apply IH. intros i. specialize (H (S i)). rewrite <- Nat.add_succ_comm in H. exact H. }
    apply S. exact G.
Qed.
Lemma as_m_flat A : as_m (flat9 A) = A.
Proof. destruct A. reflexivity. Qed.
Lemma exp_curve v U : length v = 3%nat -> 1 / 1000 <= rnorm v <= PI / 2 -> length U = 9%nat ->
  deriv_v (fun t => mlog (as_m (radd (flat9 (expSO3 v)) (rscal t U)))) 0 (rmv 3 (jac0_mat (expSO3 v)) U).
Proof.
  intros Lv Hv LU. destruct (flat9_inv U LU) as (V & ->). pose proof PI_le as PL. pose proof PI2_1 as P2. set (s := sin (rnorm v)).
  assert (S0 : 0 < s) by (apply sin_gt_0; lra). assert (St : rnorm v / 2 <= s) by (apply sin_half_173; lra).
  assert (H1 : eps8 < rnorm [- a12 (expSO3 v); a02 (expSO3 v); - a01 (expSO3 v)]).
  { pose proof (upper_exp v Lv ltac:(lra)) as UE. fold (upper (expSO3 v)). assert (0 <= upper (expSO3 v)) by apply sqrt_pos. fold s in UE. unfold eps8. apply Rnot_le_lt. intros C. assert (upper (expSO3 v) * upper (expSO3 v) <= 1 / 100000000 * (1 / 100000000)) by (apply Rmult_le_compat; lra). nra. }
  assert (TR : (tr3 (expSO3 v) - 1) / 2 = cos (rnorm v)) by (apply (expSO3_trace v (rnorm v) Lv eq_refl)).
  assert (H2 : -1 < (tr3 (expSO3 v) - 1) / 2 < 1).
  { rewrite TR. pose proof (sin2_cos2 (rnorm v)) as Q. unfold Rsqr in Q. fold s in Q. split; nra. }
  destruct (mat_curve (expSO3 v) V H1 H2) as (d & Hd & HC & fs & HF & HD). 
  assert (Hd' : deriv_v (fun t => log_curve (m3line (expSO3 v) V t)) 0 (rmv 3 (jac0_mat (expSO3 v)) (flat9 V))) by (exists fs; split; auto).
  apply (deriv_v_local (fun t => log_curve (m3line (expSO3 v) V t)) _ _ _ d Hd); auto.
  intros t Ht. rewrite Rminus_0_r in Ht. destruct (HC t Ht) as [_ H]. rewrite flat9_line, as_m_flat. apply mlog_curve; auto.
Qed.
Lemma near_mcl x A B d : x = m3_to_list A -> Forall isf x -> near_v d (vals x) (flat9 B) -> mcl A B d.
Proof.
  intros -> F N. destruct A as [m00 m01 m02 m10 m11 m12 m20 m21 m22]. destruct B as [n00 n01 n02 n10 n11 n12 n20 n21 n22].
  unfold m3_to_list, flat9 in *. cbn [map a00 a01 a02 a10 a11 a12 a20 a21 a22] in *.
  inversion F as [|? ? A0 F1]; subst. inversion F1 as [|? ? A1 F2]; subst. inversion F2 as [|? ? A2 F3]; subst. inversion F3 as [|? ? A3 F4]; subst. inversion F4 as [|? ? A4 F5]; subst. inversion F5 as [|? ? A5 F6]; subst.
  inversion F6 as [|? ? A6 F7]; subst. inversion F7 as [|? ? A7 F8]; subst. inversion F8 as [|? ? A8 F9]; subst. clear F F1 F2 F3 F4 F5 F6 F7 F8 F9.
  assert (FC : forall (P : R -> R -> Prop) p l q m, Forall2 P (p :: l) (q :: m) -> P p q /\ Forall2 P l m) by (clear; intros P p l q m H; inversion H; subst; auto).
  unfold near_v in N. do 9 (apply FC in N as [? N]).
  unfold mcl, cl. cbn [a00 a01 a02 a10 a11 a12 a20 a21 a22]. repeat split; auto.
Qed.
Lemma as_mat x : length x = 9%nat -> exists A : m3 f64, x = m3_to_list A.
Proof. intros H. destruct x as [|x0 [|x1 [|x2 [|x3 [|x4 [|x5 [|x6 [|x7 [|x8 [|]]]]]]]]]]; try discriminate H. exists (M3 x0 x3 x6 x1 x4 x7 x2 x5 x8). reflexivity. Qed.
Lemma near_exp_len d x v : near_exp d x v -> length x = 9%nat.
Proof.
  intros (_ & _ & _ & N). assert (E : forall l m, near_v d l m -> length l = length m) by (clear; induction 1; cbn; auto).
  apply E in N. exact (eq_trans (eq_sym (map_length _ _)) N).
Qed.
Lemma asum_mat v : length v = 3%nat -> 1 / 1000 <= rnorm v <= PI / 2 -> Forall (fun c => asum c <= 9) (jac0_mat (expSO3 v)).
Proof.
  intros Lv Hv. pose proof PI_le as PL. pose proof PI2_1 as P2. pose proof (expSO3_trace v (rnorm v) Lv eq_refl) as Tr. pose proof (skew_exp v Lv ltac:(lra)) as SK3. cbv zeta in SK3.
  unfold jac0_mat, jac0_gen, true_df, tr3. rewrite Tr, acoef_cos by lra. cbv zeta. set (B := expSO3 v) in *. clearbody B.
  set (th := rnorm v) in *. set (s := sin th) in *. assert (S0 : 0 < s) by (apply sin_gt_0; lra). assert (S1 : s <= 1) by apply SIN_bound. assert (St : th / 2 <= s) by (apply sin_half_173; lra).
  replace (1 - cos th * cos th) with (s * s) by (pose proof (sin2_cos2 th) as Q; unfold Rsqr in Q; fold s in Q; lra).
  pose proof (num_bound th ltac:(lra)) as NB. cbv zeta in NB. fold s in NB. set (N := cos th * (th / s) - 1) in *. clearbody N.
  assert (SS : 0 < s * s) by nra. assert (R : Rabs (N / (2 * (s * s))) <= 1 / 2).
  { apply Rabs_le. split; apply (Rmult_le_reg_r (2 * (s * s))); try lra; replace (N / (2 * (s * s)) * (2 * (s * s))) with N by (field; lra); lra. }
  set (r := N / (2 * (s * s))) in *. clearbody r.
  destruct (vec3_inv v Lv) as (x & y & z & ->). pose proof (rnorm3_sq x y z) as Nm. fold th in Nm. unfold rscal in SK3. cbn [map] in SK3. injection SK3 as K0 K1 K2.
  assert (KB : forall w, w * w <= th * th -> Rabs (s / th * w) <= 1).
  { intros w Hw. rewrite Rabs_mult, (Rabs_pos_eq (s / th)) by (apply Rmult_le_pos; [lra|apply Rlt_le, Rinv_0_lt_compat; lra]). apply Rle_trans with (s / th * th); [|replace (s / th * th) with s by (field; lra); lra]. 
    apply Rmult_le_compat_l; [apply Rmult_le_pos; [lra|apply Rlt_le, Rinv_0_lt_compat; lra]|rewrite <- (Rabs_pos_eq th) by lra; apply Rsqr_le_abs_0; unfold Rsqr; exact Hw]. }
  rewrite K0, K1, K2. pose proof (KB x ltac:(nra)) as Bx. pose proof (KB y ltac:(nra)) as By. pose proof (KB z ltac:(nra)) as Bz.
  assert (M : forall w, Rabs w <= 1 -> Rabs (r * w) <= 1 / 2) by (intros w Hw; rewrite Rabs_mult; replace (1 / 2) with (1 / 2 * 1) by lra; apply Rmult_le_compat; auto using Rabs_pos).
  pose proof (M _ Bx). pose proof (M _ By). pose proof (M _ Bz).
  assert (H2 : Rabs (th / s / 2) <= 1). { rewrite Rabs_pos_eq by (apply Rmult_le_pos; [apply Rmult_le_pos; [lra|apply Rlt_le, Rinv_0_lt_compat; lra]|lra]). apply (Rmult_le_reg_r (2 * s)); [lra|]. replace (th / s / 2 * (2 * s)) with th by (field; lra). lra. }
  repeat (apply Forall_cons; [cbn [asum]; rewrite ?Rabs_Ropp, ?Rabs_R0; lra|]). apply Forall_nil.
Qed.
Lemma mat_block L x d : accurate_log L -> 0 <= d -> Forall isf x -> (exists v, near_exp d x v) -> exists J, em_diffPseudoLog0 (SK:=F64 L) x = Ok J /\ shape J 3 9 /\ Forall (Forall isf) (mcols_ J) /\
  forall v, near_exp d x v -> Forall2 (near_v ((53 * d + 324 * u) / sin (rnorm v))) (map (map val) (mcols_ J)) (jac0_mat (expSO3 v)).
Proof.
  intros HL Hd Fx (v & Hv). destruct (accurate_log_split L HL) as (A1 & A2 & _). destruct (as_mat x (near_exp_len _ _ _ Hv)) as (A & EA).
  assert (G : forall v, near_exp d x v -> exists J, em_diffPseudoLog0 (SK:=F64 L) (m3_to_list A) = Ok J /\ shape J 3 9 /\ Forall (Forall isf) (mcols_ J) /\ Forall2 (near_v ((53 * d + 324 * u) / sin (rnorm v))) (map (map val) (mcols_ J)) (jac0_mat (expSO3 v))).
  { intros w (Lw & Hw & Dw & Nw). apply (em_jaclog64 L A1 A2); auto; [apply (near_mcl x); auto|]. cbn [pow] in Dw. rewrite Rmult_1_r in Dw. exact Dw. }
  destruct (G v Hv) as (J & E & S & F & _). exists J. split; [rewrite EA; exact E|]. split; [exact S|]. split; [exact F|].
  intros w Hw. destruct (G w) as (J' & E' & _ & _ & N'); [exact Hw|]. assert (J' = J) by (apply ok_inj; rewrite <- E, <- E'; reflexivity). subst J'. exact N'.
Qed.
Lemma leaf_jaclog_m L h l a b x d : let s := Leaf h l a b in accurate_log L -> leaf_wf (K:=f64) h l a b -> 0 <= d <= 1 / 1000 -> log_ready_m d s x ->
  exists J, diffPseudoLog0 (SK:=F64 L) s x = Ok J /\ log_jacobian_m d s x J.
Proof.
  intros s HL W Hd Dx. unfold s in *. pose proof (accurate_log_split L HL) as (_ & _ & HT). destruct l as [| |[|]].
  1,2,4: exact (leaf_jaclog L h _ a b x d HT W Hd Dx).
  cbn [leaf_wf log_ready_m log_jacobian_m] in *. destruct Dx as (Fx & Hx). pose proof Hx as (v0 & Hv0). destruct W as (_ & W2 & W3 & _).
  destruct (mat_block L x d HL ltac:(lra) Fx Hx) as (J & E & S & F & N). exists J. cbn [diffPseudoLog0]. unfold representationDim. cbn [hdr_of]. rewrite check_eq by (rewrite W3; exact (near_exp_len _ _ _ Hv0)). cbn [bind].
  split; [exact E|]. split; [exact S|]. split; [exact F|]. intros v Hv. exists (jac0_mat (expSO3 v)). rewrite u_val in N. split; [exact (N v Hv)|].
  intros U LU. destruct Hv as (Lv & Hv & _). apply exp_curve; auto.
Qed.
Lemma log_ready_len d h l a b x : leaf_wf (K:=f64) h l a b -> log_ready_m d (Leaf h l a b) x -> length x = representationDim (Leaf h l a b).
Proof.
  intros W Dx. unfold representationDim. cbn [hdr_of]. destruct l as [| |[|]]; cbn [leaf_wf log_ready_m log_ready] in *; try contradiction.
  - destruct W as [_ W2]. rewrite W2. exact Dx.
  - destruct W as (_ & _ & W3 & _). rewrite W3. destruct Dx as (_ & v & Hv). exact (near_exp_len _ _ _ Hv).
  - destruct W as (_ & _ & W3 & _). destruct Dx as (_ & q & Eq & _). rewrite W3. exact (eq_trans (eq_sym (map_length _ _)) (f_equal (@length R) Eq)).
Qed.
Lemma okl_weak L (C D : mfd f64 -> list f64 -> list f64 -> list f64 -> Prop) s x : leaves s = [s] -> (forall a y, C s x a y -> D s x a y) -> okl (SK:=F64 L) C s x [x] -> okl (SK:=F64 L) D s x [x].
Proof.
  intros E I [Lx H]. split; auto. intros r out inp So Si. destruct (H r out inp So Si) as (Y & EY & SY & G). exists Y. split; [exact EY|]. split; [exact SY|].
  intros i Hi. destruct (G i Hi) as (ps & ys & P1 & P2 & P3 & P4 & F). exists ps, ys. split; [exact P1|]. split; [exact P2|]. split; [exact P3|]. split; [exact P4|].
  rewrite E in *. clear - F I. inversion F as [|? ? p y ? ? ps' ys' F0 F']; subst. inversion F'; subst. constructor; auto. constructor.
Qed.
Lemma leaf_pulllog_m L h l a b x d : let s := Leaf h l a b in accurate_log L -> leaf_wf (K:=f64) h l a b -> 0 <= d <= 1 / 1000 -> log_ready_m d s x ->
  okl (SK:=F64 L) (pulled_log_m d) s x [x].
Proof.
  intros s HL W Hd Dx. pose proof (accurate_log_split L HL) as (_ & _ & HT). pose proof (log_ready_len d h l a b x W Dx) as Lx. unfold s in *. destruct l as [| |[|]].
  1,2,4: apply (okl_weak L (pulled_log d)); [reflexivity|intros a0 y H; exact H|exact (leaf_pulllog L h _ a b x d HT W Hd Dx)].
  apply leaf_of_rows_log; auto. intros r out inp So Si. cbn [applyDiffPseudoLog0]. unfold representationDim, tangentDim in *. cbn [hdr_of leaf_wf log_ready_m] in *.
  destruct Dx as (Fx & Hx). destruct W as (_ & W2 & W3 & _). rewrite W2, W3 in *. pose proof So as (So1 & So2 & _). pose proof Si as (Si1 & Si2 & Si3).
  destruct (mat_block L x d HL ltac:(lra) Fx Hx) as (J & EJ & S & F & N).
  rewrite !check_eq by (unfold ncols; congruence). cbn [bind]. unfold em_applyDiffPseudoLog0. rewrite check_eq by exact Si2. cbn [bind]. rewrite EJ. cbn [bind].
  exists (mmul (SK:=F64 L) inp J). assert (SY : shape (mmul (SK:=F64 L) inp J) r 9) by (apply shape_mmul; auto; apply S).
  split; [apply (massign_shape out _ r 9); auto|]. split; auto. intros i Hi. cbn [pulled_log_m]. intros T HT' Fa. destruct (scale890 _ HT') as [HS _].
  rewrite mrow_mmul by (rewrite Si1; auto). assert (La : length (mrow (SK:=F64 L) inp i) = 3%nat) by exact (eq_trans (map_length _ _) Si2).
  assert (La' : length (vals (mrow (SK:=F64 L) inp i)) = 3%nat) by exact (eq_trans (map_length _ _) La).
  pose proof u_pos as U. assert (Us : u <= 1 / 10 ^ 15) by (rewrite u_val; lra). set (row := mrow (SK:=F64 L) inp i) in *. clearbody row.
  assert (G : forall v, near_exp d x v -> Forall isf (map (dot (SK:=F64 L) row) (mcols_ J)) /\ exists g, length g = 9%nat /\
     (forall U, length U = 9%nat -> derivable_pt_lim (fun t => rdot (vals row) (mlog (as_m (radd (flat9 (expSO3 v)) (rscal t U))))) 0 (rdot g U)) /\
     near_v ((1003 * / 2 ^ 53 + 159 * d) / sin (rnorm v) * T) (vals (map (dot (SK:=F64 L) row) (mcols_ J))) g).
  { intros v Hv. pose proof (N v Hv) as Nv. destruct Hv as (Lv & Hv & Dv & _). pose proof PI_le as PL. pose proof PI2_1 as P2. set (s0 := sin (rnorm v)) in *. cbn [pow] in Dv. rewrite Rmult_1_r in Dv.
    assert (S0 : 0 < s0) by (apply sin_gt_0; lra). assert (S1 : s0 <= 1) by apply SIN_bound. assert (St : rnorm v / 2 <= s0) by (apply sin_half_173; lra).
    set (eps := (53 * d + 324 * u) / s0) in *. assert (Ep : eps * s0 = 53 * d + 324 * u) by (unfold eps; field; lra).
    assert (E0 : 0 <= eps <= 3 / 100). { split; apply (Rmult_le_reg_r s0); auto; rewrite Ep; [lra|]. assert (2000 * d <= s0) by nra. lra. }
    destruct (rows_close L (mcols_ J) (jac0_mat (expSO3 v)) row eps T HS E0 Fa F Nv) as [R1 R2]; auto.
    { apply S. }
    { apply asum_mat; auto. }
    split; [exact R1|]. exists (map (rdot (vals row)) (jac0_mat (expSO3 v))). split; [reflexivity|]. split.
    - intros V LV. rewrite rdot_cols; auto; [|repeat constructor]. apply deriv_rdot. apply exp_curve; auto.
    - eapply near_weak; [|exact R2]. apply Rmult_le_compat_r; [destruct (scale_eta T HS); lra|]. rewrite <- u_val. apply (Rmult_le_reg_r s0); auto.
      replace ((1003 * u + 159 * d) / s0 * s0) with (1003 * u + 159 * d) by (field; lra). replace ((31 * u + 3 * eps) * s0) with (31 * u * s0 + 3 * (eps * s0)) by ring. rewrite Ep.
      assert (31 * u * s0 <= 31 * u * 1) by (apply Rmult_le_compat_l; lra). lra. }
  destruct Hx as (v0 & Hv0). split; [exact (proj1 (G v0 Hv0))|]. intros v Hv. exact (proj2 (G v Hv)).
Qed.

(** ** Trees *)
Print Assumptions C72_log.
(** On every tree of real spaces, quaternion rotations and matrix rotations, diffPseudoLog0 runs and its result is
    block diagonal, each block finite and next to the exact derivative. *)
Theorem C72_log_jacobian : forall L (m : mfd f64) xs d, accurate_log L -> built m -> 0 <= d <= 1 / 1000 -> Forall2 (log_ready_m d) (leaves m) xs ->
  exists Js, diffPseudoLog0 (SK:=F64 L) m (concat xs) = Ok (bdiag (SK:=F64 L) Js) /\ Forall3 (log_jacobian_m d) (leaves m) xs Js.
Proof.
  intros L m xs d HL B Hd Dx. pose proof (built_wf _ B) as W.
  assert (Px : pieces DR (leaves m) xs).
  { pose proof (fun s => leaf_inv_gen m s W) as GI. clear B W. revert GI. induction Dx as [|s x ls xs Hx Dx IH]; intros GI; constructor; [|apply IH; intros; apply GI; simpl; auto].
    destruct (GI s) as (h & l & a & b & -> & Wl); [simpl; auto|]. exact (log_ready_len d h l a b x Wl Hx). }
  assert (G : exists Js, Forall3 (fun s x J => diffPseudoLog0 (SK:=F64 L) s x = Ok J /\ log_jacobian_m d s x J) (leaves m) xs Js).
  { pose proof (fun s => leaf_inv_gen m s W) as GI. clear B W Px. revert GI. induction Dx as [|s x ls xs Hx Dx IH]; intros GI; [exists []; constructor|].
    destruct (GI s) as (h & l & a & b & -> & Wl); [simpl; auto|]. destruct (leaf_jaclog_m L h l a b x d HL Wl Hd Hx) as (J & EJ & HJ).
    destruct IH as (Js & HJs); auto. { intros; apply GI; simpl; auto. } exists (J :: Js). constructor; auto. }
  destruct G as (Js & HJ). exists Js. split.
  - apply (flat_mat (SK:=F64 L) (diffPseudoLog0 (SK:=F64 L))); auto.
    + intros. rewrite (diffPseudoLog0_prod (SK:=F64 L)) by auto. split; intros (js & A & C); exists js; (split; [exact C|exact A]).
    + exists Js. split; auto. clear - HJ. induction HJ as [|? ? ? ? ? ? [? ?]]; constructor; auto.
  - clear - HJ. induction HJ as [|? ? ? ? ? ? [? ?]]; constructor; auto.
Qed.
Print Assumptions C72_log_jacobian.

(** applyDiffPseudoLog0 on every such tree, matrices of any height. *)
Theorem C72_apply : forall L (m : mfd f64) xs d r out inp, accurate_log L -> built m -> 0 <= d <= 1 / 1000 -> Forall2 (log_ready_m d) (leaves m) xs ->
  shape out r (representationDim m) -> shape inp r (tangentDim m) ->
  exists Y, applyDiffPseudoLog0 (SK:=F64 L) m out inp (concat xs) = Ok Y /\ shape Y r (representationDim m) /\
    forall i, (i < r)%nat -> exists ps ys, mrow (SK:=F64 L) inp i = concat ps /\ mrow (SK:=F64 L) Y i = concat ys /\
      pieces DT (leaves m) ps /\ pieces DR (leaves m) ys /\ Forall4 (pulled_log_m d) (leaves m) xs ps ys.
Proof.
  intros L m xs d r out inp HL B Hd Dx So Si. pose proof (built_wf _ B) as W.
  destruct (adl_tree (SK:=F64 L) (pulled_log_m d) m W xs) as [_ H]; [|exact (H r out inp So Si)].
  pose proof (fun s => leaf_inv_gen m s W) as GI. clear So Si B W. revert GI. induction Dx as [|s x ls xs Hx Dx IH]; intros GI; constructor.
  - destruct (GI s) as (h & l & a & b & -> & Wl); [simpl; auto|]. apply leaf_pulllog_m; auto.
  - apply IH. intros; apply GI; simpl; auto.
Qed.
Print Assumptions C72_apply.

(** ** Example *)
(** The quarter turn about z, exactly representable, in R^2 x SO(3). *)
Example C72_example : exists m : mfd f64, accurate_log libm_exact /\ built m /\ map representationDim (leaves m) = [2; 9]%nat /\
  Forall2 (log_ready_m 0) (leaves m) [fi [3; 4]%Z; fi [0; 1; 0; -1; 0; 0; 0; 0; 1]%Z] /\ near_exp 0 (fi [0; 1; 0; -1; 0; 0; 0; 0; 1]%Z) [0; 0; PI / 2] /\
  mlog (as_m [0; 1; 0; -1; 0; 0; 0; 0; 1]) = [0; 0; PI / 2].
Proof.
  set (SKx := F64 libm_exact). exists (get prod_empty (prod2 (fR2 libm_exact) (fM libm_exact))). pose proof PI2_1 as P2. pose proof PI_le as PL.
  assert (NP : rnorm [0; 0; PI / 2] = PI / 2). { unfold rnorm. cbn [rdot]. replace (0 * 0 + (0 * 0 + (PI / 2 * (PI / 2) + 0))) with (PI / 2 * (PI / 2)) by ring. apply sqrt_square. lra. }
  assert (EE : expSO3 [0; 0; PI / 2] = M3 0 (-1) 0 1 0 0 0 0 1).
  { unfold expSO3. rewrite NP. cbv zeta. destruct (Req_EM_T (PI / 2) 0) as [Z|_]; [lra|]. unfold rodrigues. rewrite sin_PI2, cos_PI2. f_equal; field; lra. }
  assert (NE : near_exp 0 (fi [0; 1; 0; -1; 0; 0; 0; 0; 1]%Z) [0; 0; PI / 2]).
  { split; [reflexivity|]. rewrite NP, sin_PI2, EE. split; [lra|]. split; [lra|]. destruct (vals_fi [0; 1; 0; -1; 0; 0; 0; 0; 1]%Z) as [_ V]; [repeat constructor; lia|]. rewrite V. unfold flat9. cbn [map a00 a01 a02 a10 a11 a12 a20 a21 a22].
    repeat (apply Forall2_cons; [rewrite Rminus_diag_eq, Rabs_R0 by reflexivity; lra|]). apply Forall2_nil. }
  split; [exact libm_exact_log|]. split; [|split; [reflexivity|split; [|split; [exact NE|]]]].
  - apply (prod2_built64 (fR2 libm_exact) (fM libm_exact)); [apply (built_real_mag 2 (k1 (Scalar:=SKx))); reflexivity|apply (built_so3 MapMatrix [kpi (Scalar:=SKx); kpi (Scalar:=SKx); kpi (Scalar:=SKx)]); reflexivity|reflexivity].
  - apply Forall2_cons; [reflexivity|]. apply Forall2_cons; [|apply Forall2_nil]. split; [apply vals_fi; repeat constructor; lia|]. exists [0; 0; PI / 2]. exact NE.
  - change (as_m [0; 1; 0; -1; 0; 0; 0; 0; 1]) with (M3 0 (-1) 0 1 0 0 0 0 1). rewrite <- EE. apply C72_log; [reflexivity|]. rewrite NP. lra.
Qed.
