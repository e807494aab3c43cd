(** C13, C14, C16, C17: the sphere.  Exact real arithmetic ([XR]), except where a scalar type is named. *)
From Coq Require Import Reals List Lra Lia ZArith Bool Arith Psatz.
From Verif Require Import Base Scalar Vec Model_S2 Model_SO3 Model_Manifold Spec Layout Comp Flat BlockMat
  XR SpecR RotR NumVec NumMat Angle NumQuat NumTree NumLeaf RotLog RoundTrip NumS2 ExScalar ExR.
Import ListNotations.
Local Open Scope R_scope.

Lemma built_s2_wf h typ tru : built (Leaf (K:=XR) h LS2 typ tru) -> leaf_wf h LS2 typ tru.
Proof. intros B. apply built_wf in B. inversion B; auto. Qed.

(** C13.  The tangency check decides: below 1e-8 the result has norm 1, otherwise the call is refused. *)
Theorem C13_s2_lands_on_sphere : forall h typ tru (x v : list R) (out : list XR),
  let s := Leaf h LS2 typ tru in
  built s -> length out = 3%nat -> length x = 3%nat -> length v = 3%nat -> rdot x x = 1 ->
  (Rabs (rdot x v) < 1 / 100000000 ->
     exists y, retractation s out (fin x) (fin v) = Ok (fin y) /\ length y = 3%nat /\ rnorm y = 1 /\
               exists k, 0 < k /\ y = rscal k (radd x v)) /\
  (1 / 100000000 <= Rabs (rdot x v) -> retractation s out (fin x) (fin v) = Fail EAssert).
Proof.
  intros h typ tru x v out s B Ho Hx Hv Ux. apply built_s2_wf in B. split; intros Ht.
  - eexists. split; [apply s2_retr; auto|]. pose proof (s2_sum_pos x v ltac:(lia) Ux Ht) as P. split; [|split].
    + rewrite rscal_length, radd_length; lia.
    + unfold rnorm at 1. rewrite unit_normal by auto. apply sqrt_1.
    + exists (/ rnorm (radd x v)). split; auto. apply Rinv_0_lt_compat. apply sqrt_lt_R0. auto.
  - apply s2_retr_reject; auto.
Qed.
Print Assumptions C13_s2_lands_on_sphere.

Example C13_example : built rS2 /\ rdot [3/5; 0; 4/5] [3/5; 0; 4/5] = 1 /\
  Rabs (rdot [3/5; 0; 4/5] [4; 7; -3]) < 1 / 100000000.
Proof.
  split; [apply rS2_built|]. split; [simpl; lra|].
  replace (rdot [3/5; 0; 4/5] [4; 7; -3]) with 0 by (simpl; lra). rewrite Rabs_R0. lra.
Qed.

(** Same on every tree of manifolds: if every S2 slice of v passes the check and every SO(3) slice is off
    the numeric switches, then the retraction succeeds and its result is exactly on the manifold. *)
Definition acceptable (s : mfd XR) (x v : list R) : Prop :=
  length v = tangentDim s /\
  if is_s2 s then Rabs (rdot x v) < 1 / 100000000 else off_switch s v.

Theorem C13_tree_lands_on_manifold : forall m : mfd XR, built m -> forall xs vs : list (list R),
  Forall2 on_leaf (leaves m) xs -> Forall3 acceptable (leaves m) xs vs ->
  exists ys, onM m (concat ys) /\ Forall4 shift_leaf (leaves m) xs vs ys /\
    forall out, length out = representationDim m ->
      retractation m out (fin (concat xs)) (fin (concat vs)) = Ok (fin (concat ys)).
Proof.
  intros m B xs vs Hx Hv. apply built_wf in B.
  assert (F : Forall3 (fun s x v => on_leaf s x /\ acceptable s x v) (leaves m) xs vs).
  { revert vs Hv. clear B. induction Hx as [|s x l xs P F IH]; intros vs Hv; inversion Hv; subst; constructor; auto. }
  destruct (choose4 _ (fun s x v y => shift_leaf s x v y /\ on_leaf s y /\
     length x = representationDim s /\ length v = tangentDim s /\
    (forall o, length o = representationDim s -> retractation s o (fin x) (fin v) = Ok (fin y))) _ _ _ F) as (ys & Hy).
  { intros s x v Hs (Px & Lv & Pv). destruct (wf_leaf_inv m s B Hs) as (h & l & a & b & -> & W).
    pose proof (on_leaf_len _ _ _ _ _ W Px) as Lx. destruct (is_s2 (Leaf h l a b)) eqn:N.
    - destruct l as [| |]; try discriminate. pose proof W as (W1 & W2 & W3 & _). destruct Px as [L1 Ux].
      unfold tangentDim in Lv; cbn [hdr_of] in Lv. rewrite W2 in Lv.
      exists (rscal (/ rnorm (radd x v)) (radd x v)). split; [reflexivity|]. split; [split|].
      + rewrite rscal_length, radd_length; lia.
      + apply unit_normal. apply s2_sum_pos; auto. lia.
      + split; [auto|]. split; [unfold tangentDim; cbn [hdr_of]; lia|]. intros o Lo.
        apply s2_retr; auto. unfold representationDim in Lo; cbn [hdr_of] in Lo. lia.
    - destruct (leaf_round h l a b x v W N Px Lv Pv) as (y & S & P & Re & _). exists y. tauto. }
  exists ys. split; [|split].
  - exists ys. split; auto. clear - Hy. induction Hy; constructor; tauto.
  - clear - Hy. induction Hy; constructor; tauto.
  - intros out Ho. apply (lift_op2 DR DR DT retractation retractation_prod); auto.
    eapply Forall4_impl; [exact Hy|]. cbn. tauto.
Qed.
Print Assumptions C13_tree_lands_on_manifold.

Example C13_tree_example : built rS /\
  Forall2 on_leaf (leaves rS) [[1; 2]; [3/5; 0; 4/5]; [1; 0; 0; 0]] /\
  Forall3 acceptable (leaves rS) [[1; 2]; [3/5; 0; 4/5]; [1; 0; 0; 0]] [[5; 6]; [4; 7; -3]; [2; 0; 0]].
Proof.
  pose proof PI_gt2. split; [apply rS_built|]. split.
  - constructor; [reflexivity|]. constructor; [split; [reflexivity|simpl; lra]|].
    constructor; [|constructor]. exists (Q4 1 0 0 0). split; [reflexivity|unfold qn2; simpl; ring].
  - apply Forall3_cons; [split; [reflexivity|exact I]|].
    apply Forall3_cons; [split; [reflexivity|]; cbn [is_s2] |].
    { replace (rdot [3/5; 0; 4/5] [4; 7; -3]) with 0 by (simpl; lra). change (Rabs 0 < 1 / 100000000). rewrite Rabs_R0. lra. }
    apply Forall3_cons; [split; [reflexivity|]|apply Forall3_nil].
    cbn. right. rewrite rnorm100; lra.
Qed.

(** C14.  forceOnTxM is the orthogonal projection on the tangent plane. *)
Theorem C14_s2_projection : forall h typ tru (x w : list R) (out : list XR),
  let s := Leaf h LS2 typ tru in
  built s -> length out = 3%nat -> length x = 3%nat -> length w = 3%nat -> rdot x x = 1 ->
  exists p, length p = 3%nat /\
    forceOnTxM s out (fin w) (fin x) = Ok (fin p) /\
    rdot x p = 0 /\
    (forall u, length u = 3%nat -> rdot x u = 0 -> rnorm (rsub w p) <= rnorm (rsub w u)) /\
    (rdot x w = 0 -> p = w) /\
    (forall out', length out' = 3%nat -> forceOnTxM s out' (fin p) (fin x) = Ok (fin p)).
Proof.
  intros h typ tru x w out s B Ho Hx Hw Ux. apply built_s2_wf in B. exists (rproj x w).
  assert (L : length (rproj x w) = 3%nat) by (rewrite rproj_length; lia).
  split; auto. split; [apply s2_forceT; auto|]. split; [apply rproj_tan; auto; lia|]. split; [|split].
  - intros u Lu Hu. apply sqrt_le_1_alt. apply rproj_closest; auto; lia.
  - intros H. apply rproj_fix; auto; lia.
  - intros out' Ho'. unfold s. rewrite s2_forceT by auto. do 2 f_equal. apply rproj_fix; [lia|]. apply rproj_tan; auto; lia.
Qed.
Print Assumptions C14_s2_projection.

Example C14_example : built rS2 /\ rdot [3/5; 0; 4/5] [3/5; 0; 4/5] = 1.
Proof. split; [apply rS2_built|simpl; lra]. Qed.

(** Every column of projCols, every row of projRows and projVec is what forceOnTxM computes from the same
    column, row or vector.  Any scalar type, any contents. *)
Lemma vsub_scale_len {K} {SK : Scalar K} (w x : vec K) a : length w = length x -> length (vsub w (vscale a x)) = length w.
Proof. intros. unfold vsub, vscale. apply map2_length. rewrite map_length. auto. Qed.
Theorem C14_projections_agree : forall (K : Type) (SK : Scalar K) h typ tru (x : vec K),
  let s := Leaf h LS2 typ tru in
  built s -> length x = 3%nat ->
  (forall inp out o, length inp = 3%nat -> length out = 3%nat -> length o = 3%nat ->
     exists p, s2_projVec out inp x = Ok p /\ forceOnTxM s o inp x = Ok p) /\
  (forall n inp out o i, shape inp 3 n -> shape out 3 n -> length o = 3%nat -> (i < n)%nat ->
     exists Y, s2_projCols out inp x = Ok Y /\ shape Y 3 n /\
       forceOnTxM s o (nth i (mcols_ inp) []) x = Ok (nth i (mcols_ Y) [])) /\
  (forall n inp out o i, shape inp n 3 -> shape out n 3 -> length o = 3%nat -> (i < n)%nat ->
     exists Y, s2_projRows out inp x = Ok Y /\ shape Y n 3 /\
       forceOnTxM s o (mrow inp i) x = Ok (mrow Y i)).
Proof.
  intros K SK h typ tru x s B Lx. apply built_wf in B. inversion B as [? ? ? ? W|]; subst.
  pose proof W as (W1 & W2 & W3 & _).
  assert (G : forall o w, length o = 3%nat -> length w = 3%nat ->
            forceOnTxM s o w x = Ok (vsub w (vscale (dot x w) x))).
  { intros o w Lo Lw. unfold s. cbn [forceOnTxM]. unfold representationDim, tangentDim; cbn [hdr_of].
    rewrite !check_eq by lia. cbn [bind]. unfold s2_forceOnTxM, same_size. rewrite Lx, Lw. cbn [Nat.eqb eigen_assert bind].
    apply assign_same. rewrite vsub_scale_len; lia. }
  split; [|split].
  - intros inp out o L1 L2 L3. exists (vsub inp (vscale (dot x inp) x)). split; [|apply G; auto].
    unfold s2_projVec, same_size. rewrite Lx, L1. cbn [Nat.eqb eigen_assert bind]. apply assign_same.
    rewrite vsub_scale_len; lia.
  - intros n inp out o i (I1 & I2 & I3) (O1 & O2 & O3) Lo Hi. eexists. split.
    { unfold s2_projCols, ncols. rewrite I1, O1, Lx, I2, O2, !Nat.eqb_refl. reflexivity. }
    assert (Li : length (nth i (mcols_ inp) []) = 3%nat).
    { rewrite Forall_forall in I3. apply I3. apply nth_In. lia. }
    split.
    + repeat split; cbn [mrows mcols_]; auto.
      * rewrite map_length. auto.
      * apply Forall_forall. intros c Hc. apply in_map_iff in Hc. destruct Hc as (c0 & <- & Hc).
        rewrite Forall_forall in I3. pose proof (I3 _ Hc). rewrite vsub_scale_len; lia.
    + rewrite G by auto. f_equal. cbn [mcols_].
      erewrite (nth_indep (map _ _)); [|rewrite map_length; lia]. symmetry.
      rewrite (map_nth (fun c => vsub c (vscale (dot x c) x)) (mcols_ inp) []). reflexivity.
  - intros n inp out o i (I1 & I2 & I3) (O1 & O2 & O3) Lo Hi. eexists. split.
    { unfold s2_projRows, ncols. rewrite I1, O1, Lx, I2, O2, !Nat.eqb_refl. reflexivity. }
    assert (Li : length (mrow inp i) = 3%nat) by (unfold mrow; rewrite map_length; auto).
    split; [apply shape_mbuild|]. rewrite G by auto. f_equal.
    destruct inp as [r cs]. cbn [mrows mcols_] in *. destruct cs as [|c0 [|c1 [|c2 [|]]]]; try discriminate.
    destruct x as [|x0 [|x1 [|x2 [|]]]]; try discriminate.
    unfold mbuild. unfold mrow at 3. cbn [mcols_ seq map].
    assert (N : forall f : nat -> K, nth i (map f (seq 0 r)) k0 = f i).
    { intros f. rewrite (nth_indep _ k0 (f 0%nat)) by (rewrite map_length, seq_length; lia).
      rewrite map_nth. rewrite seq_nth by lia. reflexivity. }
    rewrite I1 in N. rewrite !N. reflexivity.
Qed.
Print Assumptions C14_projections_agree.

(** C16.  Transport along v. *)
Lemma s2_transport_y h typ tru x v : leaf_wf h LS2 typ tru -> length x = 3%nat -> length v = 3%nat ->
  rdot x x = 1 -> Rabs (rdot x v) < 1 / 100000000 ->
  let s := Leaf h LS2 typ tru in let y := rscal (/ rnorm (radd x v)) (radd x v) in
  length y = 3%nat /\ rdot y y = 1 /\ 0 < rdot x y /\
  (forall o, length o = 3%nat -> retractation s o (fin x) (fin v) = Ok (fin y)) /\
  computeRotBetweenVec (fin x) (fin y) = Ok (m3fin (rotbt x y)) /\
  transport_checks s (fin x) (fin v) = Ok tt.
Proof.
  intros W Lx Lv Ux Ht s y. pose proof W as (W1 & W2 & W3 & _).
  assert (Ly : length y = 3%nat) by (unfold y; rewrite rscal_length, radd_length; lia).
  pose proof (s2_next_dot x v Lx Lv Ux Ht) as Hd.
  split; auto. split; [apply unit_normal; apply s2_sum_pos; auto; lia|]. split; auto. split; [|split].
  - intros o Lo. apply s2_retr; auto.
  - apply rotbt_fin; auto. fold y in Hd. lra.
  - unfold transport_checks. unfold representationDim, tangentDim, s; cbn [hdr_of].
    rewrite !check_eq by (rewrite ?fin_length; lia). cbn [bind].
    change default_prec with (Fin (1 / 100000000)). rewrite s2_inT by auto. apply Rltb_true in Ht. rewrite Ht. reflexivity.
Qed.
Lemma m3_on_cols_fin A out cs : mrows out = 3%nat -> ncols out = length cs ->
  m3_on_cols (m3fin A) out (matR 3 cs) = Ok (matR 3 (map (rmulv A) cs)).
Proof.
  intros H1 H2. unfold m3_on_cols, matR. unfold ncols in *. cbn [mrows mcols_]. rewrite H1, H2, map_length, !Nat.eqb_refl.
  cbn [Nat.eqb andb eigen_assert bind]. f_equal. apply f_equal. rewrite !map_map. apply map_ext. intros c. apply m3_mulv_fin.
Qed.

(** [matR 3 cs] is the matrix whose columns are the vectors [cs]; any number of columns. *)
Theorem C16_s2_transport : forall h typ tru (x v : list R), let s := Leaf h LS2 typ tru in
  built s -> length x = 3%nat -> length v = 3%nat -> rdot x x = 1 -> Rabs (rdot x v) < 1 / 100000000 ->
  exists (y : list R) (T Ti : list R -> list R),
    (forall o, length o = 3%nat -> retractation s o (fin x) (fin v) = Ok (fin y)) /\
    (forall cs out, Forall (fun c => length c = 3%nat) cs -> mrows out = 3%nat -> ncols out = length cs ->
       applyTransport s out (matR 3 cs) (fin x) (fin v) = Ok (matR 3 (map T cs)) /\
       applyInvTransport s out (matR 3 cs) (fin x) (fin v) = Ok (matR 3 (map Ti cs))) /\
    T x = y /\
    (forall u, length u = 3%nat -> length (T u) = 3%nat /\ length (Ti u) = 3%nat /\ Ti (T u) = u /\ T (Ti u) = u) /\
    (forall u w, length u = 3%nat -> length w = 3%nat -> rdot (T u) (T w) = rdot u w) /\
    (forall u, length u = 3%nat -> (rdot x u = 0 <-> rdot y (T u) = 0)) /\
    (forall u, length u = 3%nat -> (rdot y u = 0 <-> rdot x (Ti u) = 0)).
Proof.
  intros h typ tru x v s B Lx Lv Ux Ht. apply built_s2_wf in B. pose proof B as (W1 & W2 & W3 & _).
  destruct (s2_transport_y h typ tru x v B Lx Lv Ux Ht) as (Ly & Uy & Hd & Re & Ro & Ch). cbv zeta in *.
  set (y := rscal (/ rnorm (radd x v)) (radd x v)) in *. set (A := rotbt x y) in *.
  assert (RA : rot A) by (apply rotbt_rot; auto; lra).
  assert (Ax : rmulv A x = y) by (apply rotbt_maps; auto; lra).
  assert (I1 : forall u, length u = 3%nat -> rmulv (rtr A) (rmulv A u) = u).
  { intros u Lu. rewrite rmulv_mul by auto. destruct RA as [E _]. rewrite E. apply rmulv_id. auto. }
  assert (I2 : forall u, length u = 3%nat -> rmulv A (rmulv (rtr A) u) = u).
  { intros u Lu. rewrite rmulv_mul by auto. rewrite rot_r by auto. apply rmulv_id. auto. }
  exists y, (rmulv A), (rmulv (rtr A)). split; auto. split; [|split; [auto|split; [|split; [|split]]]].
  - intros cs out F O1 O2. split.
    + cbn [s applyTransport]. unfold s. cbn [applyTransport]. unfold tangentDim; cbn [hdr_of]. rewrite W2.
      unfold matR at 1 2. cbn [mrows]. unfold ncols at 1. cbn [mcols_]. rewrite O1, map_length, O2, !Nat.eqb_refl.
      cbn [Nat.eqb mnf_assert bind]. unfold s in Ch. rewrite Ch. cbn [bind]. unfold s in Re. rewrite Re by reflexivity. cbn [bind].
      unfold s2_applyTransport. rewrite Ro. cbn [bind]. apply m3_on_cols_fin; auto.
    + unfold s. cbn [applyInvTransport]. unfold tangentDim; cbn [hdr_of]. rewrite W2.
      unfold matR at 1 2. cbn [mrows]. unfold ncols at 1. cbn [mcols_]. rewrite O1, map_length, O2, !Nat.eqb_refl.
      cbn [Nat.eqb mnf_assert bind]. unfold s in Ch. rewrite Ch. cbn [bind]. unfold s in Re. rewrite Re by reflexivity. cbn [bind].
      unfold s2_applyInvTransport. rewrite Ro. cbn [bind]. rewrite m3_trans_fin. apply m3_on_cols_fin; auto.
  - intros u Lu. repeat split; auto.
  - intros u w Lu Lw. apply rot_dot; auto.
  - intros u Lu. rewrite <- Ax, rot_dot by auto. tauto.
  - intros u Lu. rewrite <- (I2 u Lu) at 1. rewrite <- Ax, rot_dot by auto. tauto.
Qed.
Print Assumptions C16_s2_transport.

(** The antipodal assertion of computeRotBetweenVec cannot fire between unit vectors whose inner product
    is not within 1e-12 of -1; after a retraction the inner product is positive. *)
Theorem C16_rotation_between : forall x y : list R, length x = 3%nat -> length y = 3%nat ->
  rdot x x = 1 -> rdot y y = 1 ->
  (1 / 1000000000000 < 1 + rdot x y ->
    exists A, computeRotBetweenVec (fin x) (fin y) = Ok (m3fin A) /\ rot A /\ rmulv A x = y) /\
  (1 + rdot x y <= 1 / 1000000000000 -> computeRotBetweenVec (fin x) (fin y) = Fail EAssert).
Proof.
  intros x y Lx Ly Ux Uy. split; intros H.
  - exists (rotbt x y). split; [apply rotbt_fin; auto|]. split; [apply rotbt_rot|apply rotbt_maps]; auto; lra.
  - unfold computeRotBetweenVec. rewrite !as_vec3_fin by auto. cbn [bind].
    rewrite dot_fin. cbn [klit kadd k1 XRS xadd kltb xltb]. apply Rltb_false in H. rewrite H. reflexivity.
Qed.
Print Assumptions C16_rotation_between.

Example C16_example : built rS2 /\ rdot [3/5; 0; 4/5] [3/5; 0; 4/5] = 1 /\
  Rabs (rdot [3/5; 0; 4/5] [4; 7; -3]) < 1 / 100000000.
Proof. exact C13_example. Qed.

(** C17.  pseudoLog on the sphere. *)
Lemma unit_dot_bound x y : length x = 3%nat -> length y = 3%nat -> rdot x x = 1 -> rdot y y = 1 -> -1 <= rdot x y <= 1.
Proof.
  intros Lx Ly Ux Uy. pose proof (rdot_self_nonneg (radd x y)) as P. pose proof (rdot_self_nonneg (rsub x y)) as M.
  rewrite rdot_radd_l, !rdot_radd_r in P by lia. rewrite rdot_rsub_l, !rdot_rsub_r in M by lia.
  rewrite (rdot_comm y x) in *. lra.
Qed.
Lemma unit_dot_eq x y : length x = 3%nat -> length y = 3%nat -> rdot x x = 1 -> rdot y y = 1 ->
  (rdot x y = 1 -> y = x) /\ (rdot x y = -1 -> y = rscal (-1) x).
Proof.
  intros Lx Ly Ux Uy. destruct (vec3_inv x Lx) as (a & b & c & ->). destruct (vec3_inv y Ly) as (d & e & f & ->).
  simpl in *. unfold rscal. simpl. split; intros H.
  - assert (Q : (a - d) * (a - d) + (b - e) * (b - e) + (c - f) * (c - f) = 0) by nra.
    pose proof (Rle_0_sqr (a - d)). pose proof (Rle_0_sqr (b - e)). pose proof (Rle_0_sqr (c - f)). unfold Rsqr in *.
    assert (a - d = 0) by nra. assert (b - e = 0) by nra. assert (c - f = 0) by nra.
    f_equal; [lra|f_equal; [lra|f_equal; lra]].
  - assert (Q : (a + d) * (a + d) + (b + e) * (b + e) + (c + f) * (c + f) = 0) by nra.
    pose proof (Rle_0_sqr (a + d)). pose proof (Rle_0_sqr (b + e)). pose proof (Rle_0_sqr (c + f)). unfold Rsqr in *.
    assert (a + d = 0) by nra. assert (b + e = 0) by nra. assert (c + f = 0) by nra.
    f_equal; [lra|f_equal; [lra|f_equal; lra]].
Qed.

Theorem C17_s2_pseudoLog_partial : forall h typ tru (x y : list R) (out : list XR), let s := Leaf h LS2 typ tru in
  built s -> length out = 3%nat -> length x = 3%nat -> length y = 3%nat ->
  rdot x x = 1 -> rdot y y = 1 -> y <> x -> y <> rscal (-1) x ->
  exists w, pseudoLog s out (fin x) (fin y) = Ok (fin w) /\ length w = 3%nat /\
    rdot x w = 0 /\
    s2_distance (fin x) (fin y) = Ok (Fin (rnorm w)) /\
    0 < rnorm w < PI /\
    radd (rscal (cos (rnorm w)) x) (rscal (sin (rnorm w) / rnorm w) w) = y.
Proof.
  intros h typ tru x y out s B Lo Lx Ly Ux Uy N1 N2. apply built_s2_wf in B.
  pose proof (unit_dot_bound x y Lx Ly Ux Uy) as Bd. destruct (unit_dot_eq x y Lx Ly Ux Uy) as [E1 E2].
  assert (Bd' : -1 < rdot x y < 1).
  { destruct (Req_dec (rdot x y) 1); [exfalso; auto|]. destruct (Req_dec (rdot x y) (-1)); [exfalso; auto|]. lra. }
  set (d := rdot x y) in *. set (p := rproj x (rsub y x)).
  assert (Lp : length p = 3%nat) by (unfold p; rewrite rproj_length; rewrite ?rsub_length; lia).
  assert (Ep : p = rsub y (rscal d x)).
  { unfold p, rproj. rewrite rdot_rsub_r by lia. fold d. rewrite Ux.
    destruct (vec3_inv x Lx) as (x0 & x1 & x2 & Ex). destruct (vec3_inv y Ly) as (y0 & y1 & y2 & Ey). rewrite Ex, Ey.
    unfold rsub, rscal. simpl. f_equal; [ring|f_equal; [ring|f_equal; ring]]. }
  assert (Pp : rdot p p = 1 - d * d).
  { rewrite Ep. rewrite rdot_rsub_l, !rdot_rsub_r, !rdot_rscal_l, !rdot_rscal_r by (rewrite ?rscal_length; lia).
    rewrite (rdot_comm y x), Ux, Uy. fold d. ring. }
  assert (Px : rdot x p = 0).
  { rewrite Ep. rewrite rdot_rsub_r, rdot_rscal_r, Ux by (rewrite ?rscal_length; lia). fold d. ring. }
  assert (Dp : 0 < 1 - d * d) by nra.
  assert (Np : rnorm p = sqrt (1 - d * d)) by (unfold rnorm; rewrite Pp; auto).
  assert (Np0 : 0 < rnorm p) by (rewrite Np; apply sqrt_lt_R0; auto).
  set (t := acos d). assert (Ct : cos t = d) by (apply cos_acos; lra).
  assert (St : sin t = rnorm p).
  { unfold t. rewrite sin_acos by lra. rewrite Np. unfold Rsqr. auto. }
  assert (T0 : 0 < t < PI).
  { pose proof (acos_bound d) as [A1 A2]. fold t in A1, A2.
    assert (sin t <> 0) by lra. split.
    - destruct (Req_dec t 0) as [Z|Z]; [rewrite Z, sin_0 in H; lra|lra].
    - destruct (Req_dec t PI) as [Z|Z]; [rewrite Z, sin_PI in H; lra|lra]. }
  set (w := rscal (/ rnorm p) (rscal t p)).
  assert (Nw : rnorm w = t).
  { unfold w, rnorm at 1. rewrite !rdot_rscal_l, !rdot_rscal_r, <- rnorm_sq.
    replace (/ rnorm p * (t * (/ rnorm p * (t * (rnorm p * rnorm p))))) with (t * t) by (field; lra).
    apply sqrt_square. lra. }
  exists w. split; [|split; [|split; [|split; [|split]]]].
  - unfold s. rewrite s2_log by auto. fold p. cbv zeta. destruct (Req_EM_T (rnorm p) 0); [lra|]. reflexivity.
  - unfold w. rewrite !rscal_length. auto.
  - unfold w. rewrite !rdot_rscal_r, Px. ring.
  - unfold s2_distance. rewrite same_size_fin by lia. cbn [bind]. rewrite dot_fin. cbn [kacos XRS]. rewrite xacos_fin by auto.
    rewrite Nw. reflexivity.
  - rewrite Nw. auto.
  - rewrite Nw, Ct, St. unfold w. clearbody t d. 
    destruct (vec3_inv x Lx) as (x0 & x1 & x2 & Ex). destruct (vec3_inv y Ly) as (y0 & y1 & y2 & Ey).
    assert (Ep' : p = [y0 - d * x0; y1 - d * x1; y2 - d * x2]) by (rewrite Ep, Ex, Ey; reflexivity).
    clear w Nw. assert (Hn : rnorm p <> 0) by lra. set (n := rnorm p) in *. clearbody n. rewrite Ep', Ex, Ey.
    unfold radd, rscal. simpl. f_equal; [field; split; lra|f_equal; [field; split; lra|f_equal; field; split; lra]].
Qed.
Print Assumptions C17_s2_pseudoLog_partial.

Example C17_example : built rS2 /\ rdot [3/5; 0; 4/5] [3/5; 0; 4/5] = 1 /\ rdot [0; 1; 0] [0; 1; 0] = 1 /\
  [0; 1; 0] <> [3/5; 0; 4/5] /\ [0; 1; 0] <> rscal (-1) [3/5; 0; 4/5].
Proof.
  split; [apply rS2_built|]. split; [simpl; lra|]. split; [simpl; lra|].
  split; unfold rscal; simpl; intros H; inversion H; lra.
Qed.

(** Finding: at the two excluded points the stated result is not met: 0/0 gives an undefined vector,
    at every point of the sphere. *)
Theorem C17_s2_pseudoLog_self_refuted : forall h typ tru (x : list R) (out : list XR), let s := Leaf h LS2 typ tru in
  built s -> length out = 3%nat -> length x = 3%nat -> rdot x x = 1 ->
  pseudoLog s out (fin x) (fin x) = Ok [Undef; Undef; Undef] /\
  pseudoLog s out (fin x) (fin (rscal (-1) x)) = Ok [Undef; Undef; Undef].
Proof.
  intros h typ tru x out s B Lo Lx Ux. apply built_s2_wf in B.
  destruct (vec3_inv x Lx) as (a & b & c & ->). pose proof Ux as U. simpl in U. split.
  - unfold s. rewrite s2_log; auto; [|lra]. cbv zeta. set (p := rproj _ _).
    replace (rnorm p) with 0; [destruct (Req_EM_T 0 0); [auto|lra]|].
    unfold rnorm. replace (rdot p p) with 0; [rewrite sqrt_0; auto|].
    unfold p, rproj, rsub, rscal. simpl. ring.
  - unfold s. rewrite s2_log; auto; [|rewrite rdot_rscal_r; lra]. cbv zeta. set (p := rproj _ _).
    replace (rnorm p) with 0; [destruct (Req_EM_T 0 0); [auto|lra]|].
    unfold rnorm. assert (E : p = [0; 0; 0]).
    { unfold p, rproj. rewrite rdot_rsub_r, rdot_rscal_r, Ux by reflexivity.
      unfold rsub, rscal. simpl. f_equal; [ring|f_equal; [ring|f_equal; ring]]. }
    rewrite E. simpl. replace (0 * 0 + (0 * 0 + (0 * 0 + 0))) with 0 by ring. rewrite sqrt_0. auto.
Qed.
Print Assumptions C17_s2_pseudoLog_self_refuted.
