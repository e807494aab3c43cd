(** diffRetractation is the derivative of retractation at 0: leaves, then trees. *)
From Coq Require Import Reals List Lra Lia ZArith Bool Arith.
From Verif Require Import Base Scalar Vec Model_Real Model_S2 Model_SO3 Model_Manifold Spec Layout Comp Flat BlockMat MatOps MatProd MatTan
  XR SpecR RotR NumVec NumMat NumQuat NumTree NumLeaf NumS2 RoundTrip MatNum JacApply Deriv.
Import ListNotations.
Local Open Scope R_scope.

(** ** Finite matrices times vectors *)
Lemma rmv_length r cs v : length (rmv r cs v) = r.
Proof. unfold rmv. rewrite map_length, seq_length. reflexivity. Qed.
Lemma nth_rmv r cs v i : (i < r)%nat -> nth i (rmv r cs v) 0 = rdot (map (fun c => nth i c 0) cs) v.
Proof.
  intros H. unfold rmv. rewrite nth_indep with (d' := (fun i => rdot (map (fun c => nth i c 0) cs) v) 0%nat) by (rewrite map_length, seq_length; auto).
  rewrite (map_nth (fun i => rdot (map (fun c => nth i c 0) cs) v)). rewrite seq_nth by auto. reflexivity.
Qed.
Lemma rvec_ext r (a b : list R) : length a = r -> length b = r -> (forall i, (i < r)%nat -> nth i a 0 = nth i b 0) -> a = b.
Proof. intros H1 H2 H. apply (nth_ext a b 0 0); [congruence|]. intros; apply H; lia. Qed.
Lemma rdot_nil_r x : rdot x [] = 0.
Proof. destruct x; reflexivity. Qed.
Lemma rdot_app a b c d : length a = length c -> rdot (a ++ b) (c ++ d) = rdot a c + rdot b d.
Proof. revert c; induction a as [|x a IH]; intros [|y c] H; simpl in *; try discriminate; [ring|]. rewrite IH by lia. ring. Qed.
Lemma rmv_app r c1 c2 v1 v2 : length c1 = length v1 -> rmv r (c1 ++ c2) (v1 ++ v2) = radd (rmv r c1 v1) (rmv r c2 v2).
Proof.
  intros H. apply (rvec_ext r); rewrite ?rmv_length; auto; [rewrite radd_length; rewrite ?rmv_length; auto|].
  intros i Hi. rewrite nth_rmv, map_app, rdot_app by (rewrite ?map_length; auto).
  unfold radd. rewrite nth_indep with (d' := (fun p => fst p + snd p) (0, 0)) by (rewrite map_length, combine_length, !rmv_length; lia).
  rewrite (map_nth (fun p => fst p + snd p)), combine_nth by (rewrite !rmv_length; auto). cbn [fst snd]. rewrite !nth_rmv by auto. reflexivity.
Qed.
Lemma rdot_repeat0 x n : rdot x (repeat 0 n) = 0.
Proof. revert n; induction x as [|a x IH]; intros [|n]; cbn [repeat rdot]; auto. rewrite IH. ring. Qed.
Lemma rmv_zero r cs v : cs = [] \/ v = [] -> rmv r cs v = repeat 0 r.
Proof.
  intros H. apply (rvec_ext r); rewrite ?rmv_length, ?repeat_length; auto. intros i Hi. rewrite nth_rmv by auto.
  rewrite nth_repeat. destruct H as [->| ->]; [reflexivity|apply rdot_nil_r].
Qed.
Lemma nth_rscal a x i : nth i (rscal a x) 0 = a * nth i x 0.
Proof. unfold rscal. revert i; induction x as [|b x IH]; intros [|i]; cbn [map nth]; try ring. apply IH. Qed.
Lemma nth_radd x y i : length x = length y -> nth i (radd x y) 0 = nth i x 0 + nth i y 0.
Proof.
  unfold radd. revert y i; induction x as [|b x IH]; intros [|c y] [|i] H; cbn [combine map nth fst snd]; simpl in H; try discriminate; try ring.
  apply IH. lia.
Qed.
Lemma rmv_cons k c Jc a v : length c = k -> rmv k (c :: Jc) (a :: v) = radd (rscal a c) (rmv k Jc v).
Proof.
  intros L. assert (L' : length (rscal a c) = length (rmv k Jc v)) by (rewrite rscal_length, rmv_length; auto).
  apply (rvec_ext k); [apply rmv_length|rewrite radd_length by auto; rewrite rscal_length; auto|].
  intros i Hi. rewrite nth_radd by (rewrite rscal_length, rmv_length; auto). rewrite nth_rscal, !nth_rmv by auto. cbn [map rdot]. ring.
Qed.
Lemma rdot_lin (w : list R) k Jc v : Forall (fun c => length c = k) Jc -> rdot (map (fun c => rdot w c) Jc) v = rdot w (rmv k Jc v).
Proof.
  intros F; revert v; induction F as [|c Jc H F IH]; intros v; [rewrite rmv_zero, rdot_repeat0 by auto; reflexivity|].
  destruct v as [|a v]; [rewrite rmv_zero, rdot_repeat0 by auto; apply rdot_nil_r|].
  rewrite rmv_cons by auto. rewrite rdot_radd_r, rdot_rscal_r by (rewrite rscal_length, rmv_length; auto). cbn [map rdot]. rewrite IH. ring.
Qed.
(** (A B) v = A (B v) *)
Lemma rmv_assoc r cs k Jc v : Forall (fun c => length c = k) Jc -> rmv r (map (rmv r cs) Jc) v = rmv r cs (rmv k Jc v).
Proof.
  intros F. apply (rvec_ext r); rewrite ?rmv_length; auto. intros i Hi. rewrite !nth_rmv by auto. rewrite map_map.
  rewrite <- rdot_lin by auto. f_equal. apply map_ext. intros c. apply nth_rmv. auto.
Qed.
Lemma mmul_fin r cs k Jc : mmul (matR r cs) (matR k Jc) = matR r (map (rmv r cs) Jc).
Proof.
  unfold mmul. cbn [mrows mcols_ matR]. unfold matR at 2. f_equal. rewrite !map_map. apply map_ext. intros c. apply mvmul_fin.
Qed.

(** ** The Jacobian of a leaf *)
Definition jac_cols (s : mfd XR) (x : list R) : list (list R) :=
  match s, x with
  | Leaf _ (LSO3 MapMatrix) _ _, [x0; x1; x2; x3; x4; x5; x6; x7; x8] =>
      [[0; 0; 0; x6; x7; x8; - x3; - x4; - x5]; [- x6; - x7; - x8; 0; 0; 0; x0; x1; x2]; [x3; x4; x5; - x0; - x1; - x2; 0; 0; 0]]
  | Leaf _ (LSO3 MapQuat) _ _, [w; a; b; c] =>
      [[- (1 / 2) * a; 1 / 2 * w; 1 / 2 * c; - (1 / 2) * b]; [- (1 / 2) * b; - (1 / 2) * c; 1 / 2 * w; 1 / 2 * a];
       [- (1 / 2) * c; 1 / 2 * b; - (1 / 2) * a; 1 / 2 * w]]
  | _, _ => map (unitv (tangentDim s)) (seq 0 (tangentDim s))
  end.
Lemma jac_leaf h l a b x : leaf_wf h l a b -> is_s2 (Leaf h l a b) = false -> length x = h_rdim h ->
  diffRetractation (Leaf h l a b) (fin x) = Ok (matR (h_rdim h) (jac_cols (Leaf h l a b) x)) /\
  length (jac_cols (Leaf h l a b) x) = h_tdim h /\ Forall (fun c => length c = h_rdim h) (jac_cols (Leaf h l a b) x).
Proof.
  intros W Ns L. cbn [diffRetractation]. unfold representationDim; cbn [hdr_of]. rewrite check_eq by (rewrite fin_length; auto). cbn [bind].
  destruct l as [| |[|]]; try discriminate; cbn [leaf_wf] in W.
  - destruct W as [W1 W2]. cbn [jac_cols]. unfold tangentDim; cbn [hdr_of]. rewrite W1, W2. rewrite mident_matR.
    split; [reflexivity|]. rewrite map_length, seq_length, Forall_map. split; auto. apply Forall_forall. intros. unfold unitv. rewrite map_length, seq_length. auto.
  - destruct W as (W1 & W2 & W3 & _). rewrite W2, W3 in *. do 9 (destruct x as [|? x]; [discriminate|]). destruct x; [|discriminate].
    split; [reflexivity|]. split; [reflexivity|]. cbn [jac_cols]. repeat constructor.
  - destruct W as (W1 & W2 & W3 & _). rewrite W2, W3 in *. do 4 (destruct x as [|? x]; [discriminate|]). destruct x; [|discriminate].
    split; [reflexivity|]. split; [reflexivity|]. cbn [jac_cols]. repeat constructor.
Qed.

(** ** The curve t -> retractation(x, t v) near 0 *)
Definition dir_leaf (s : mfd XR) (x v : list R) : list R :=
  match s with Leaf _ LS2 _ _ => v | _ => rmv (representationDim s) (jac_cols s x) v end.

Lemma small_arc N t : 0 <= N -> Rabs t < 1 / (10000 * (1 + N)) -> t * t * N < eps8.
Proof.
  intros HN Ht. assert (P : 0 < 10000 * (1 + N)) by nra. set (d := 1 / (10000 * (1 + N))) in *.
  assert (D : d * (10000 * (1 + N)) = 1) by (unfold d; field; lra). assert (0 < d) by (unfold d; apply Rdiv_lt_0_compat; lra).
  assert (t * t < d * d). { rewrite <- (Rabs_pos_eq (t * t)) by nra. rewrite Rabs_mult. apply Rmult_le_0_lt_compat; auto using Rabs_pos. }
  assert (d * d * N <= d * (1 / 10000)). { assert (d * N <= 1 / 10000) by nra. nra. }
  assert (d <= 1 / 10000) by nra. unfold eps8. nra.
Qed.
Lemma small_norm x y z t : t * t * (x * x + y * y + z * z) < eps8 -> rnorm [t * x; t * y; t * z] < PI.
Proof.
  intros H. unfold rnorm. apply Rlt_trans with 1.
  - rewrite <- sqrt_1. apply sqrt_lt_1; [apply rdot_self_nonneg|lra|]. cbn [rdot]. unfold eps8 in H. lra.
  - pose proof PI2_1. lra.
Qed.

Ltac solve_d := eapply d_eq; [der|].

Lemma curve_leaf h l a b x v : leaf_wf h l a b -> on_leaf (Leaf h l a b) x -> tan_leaf (Leaf h l a b) x v ->
  exists y d, 0 < d /\
    (forall t, Rabs t < d -> forall o, length o = h_rdim h -> retractation (Leaf h l a b) o (fin x) (fin (rscal t v)) = Ok (fin (y t))) /\
    deriv_v y 0 (dir_leaf (Leaf h l a b) x v).
Proof.
  intros W P [Lv Tv]. unfold tangentDim in Lv; cbn [hdr_of] in Lv. destruct l as [| |[|]]; cbn [leaf_wf on_leaf] in *.
  - destruct W as [W1 W2]. exists (fun t => radd x (rscal t v)), 1. split; [lra|]. split.
    + intros t _ o Lo. apply real_retr; try lia; [split; auto|]. rewrite rscal_length. lia.
    + cbn [dir_leaf]. unfold representationDim; cbn [hdr_of jac_cols]. unfold tangentDim; cbn [hdr_of]. rewrite W2, W1.
      rewrite rmv_ident by lia. rewrite W1 in Lv. exists (map (fun p t => fst p + t * snd p) (combine x v)). split.
      * intros t. rewrite map_map. unfold radd, rscal. clear. revert v; induction x as [|c x IH]; intros [|e v]; cbn [combine map]; auto. f_equal; auto.
      * rewrite <- P in Lv. clear - Lv. revert v Lv; induction x as [|c x IH]; intros [|e v] L; try discriminate; cbn [combine map]; constructor.
        -- cbn [fst snd]. solve_d. ring.
        -- apply IH. simpl in L. lia.
  - destruct P as [Lx Ux]. pose proof W as (W1 & W2 & W3 & _). rewrite W2 in Lv.
    set (N := rdot v v). assert (N0 : 0 <= N) by apply rdot_self_nonneg.
    exists (fun t => map (fun p => fst p / sqrt (1 + t * t * N) + t * snd p / sqrt (1 + t * t * N)) (combine x v)), 1. split; [lra|]. split.
    + intros t _ o Lo. rewrite s2_retr; auto; try (rewrite ?rscal_length; lia).
      * do 2 f_equal. assert (E : rnorm (radd x (rscal t v)) = sqrt (1 + t * t * N)).
        { unfold rnorm. f_equal. rewrite rdot_radd_l, !rdot_radd_r, !rdot_rscal_l, !rdot_rscal_r by (rewrite rscal_length; lia).
          rewrite (rdot_comm v x), Tv, Ux. unfold N. ring. }
        rewrite E. unfold rscal at 1, radd. rewrite map_map. unfold Rdiv. generalize (/ sqrt (1 + t * t * N)). intros k. clear.
        revert v; induction x as [|c x IH]; intros [|e v]; cbn [rscal combine map fst snd]; auto. f_equal; [ring|apply IH].
      * rewrite rdot_rscal_r, Tv, Rmult_0_r, Rabs_R0. lra.
    + cbn [dir_leaf]. exists (map (fun p t => fst p / sqrt (1 + t * t * N) + t * snd p / sqrt (1 + t * t * N)) (combine x v)). split.
      * intros t. rewrite map_map. reflexivity.
      * assert (L : length x = length v) by lia. clearbody N. clear - L N0.
        assert (Q : derivable_pt_lim (fun t => / sqrt (1 + t * t * N)) 0 0).
        { eapply d_eq; [apply d_inv; [apply d_sqrt; [der|]|]|]; cbv beta; try (replace (1 + 0 * 0 * N) with 1 by ring; rewrite ?sqrt_1; lra). }
        revert v L; induction x as [|c x IH]; intros [|e v] L; try discriminate; cbn [combine map]; constructor.
        -- cbn [fst snd]. eapply d_eq.
           { apply (d_plus (fun t => c / sqrt (1 + t * t * N))); unfold Rdiv.
             - apply (d_mult (fun _ => c)); [apply d_const|exact Q].
             - apply (d_mult (fun t => t * e)); [der|exact Q]. }
           cbv beta. replace (1 + 0 * 0 * N) with 1 by ring. rewrite sqrt_1. field.
        -- apply IH. simpl in L. lia.
  - destruct P as (A & -> & RA). pose proof W as (W1 & W2 & W3 & _). rewrite W2 in Lv. destruct (vec3_inv v Lv) as (x & y & z & ->).
    set (N := x * x + y * y + z * z). assert (N0 : 0 <= N) by (unfold N; nra).
    exists (fun t => flat9 (rmul A (rodrigues (1 - t * t * N / 6) (1 / 2 - t * t * N / 24) (t * x) (t * y) (t * z)))), (1 / (10000 * (1 + N))).
    split; [apply Rdiv_lt_0_compat; lra|]. split.
    + intros t Ht o Lo. pose proof (small_arc N t N0 Ht) as S. cbn [rscal map].
      apply em_retr; [exact W|lia|]. rewrite em_exponential_fin. cbv zeta. pose proof (small_norm x y z t S) as S'. apply Rltb_true in S'. rewrite S'.
      unfold emS, emC. assert (E : rdot [t * x; t * y; t * z] [t * x; t * y; t * z] = t * t * N) by (unfold N; cbn [rdot]; ring).
      rewrite E. apply Rltb_true in S. rewrite S. reflexivity.
    + cbn [dir_leaf]. unfold representationDim; cbn [hdr_of]. rewrite W3. destruct A as [m00 m01 m02 m10 m11 m12 m20 m21 m22].
      unfold flat9, rmul, rodrigues. cbn [a00 a01 a02 a10 a11 a12 a20 a21 a22 jac_cols]. unfold rmv. cbn [seq map nth rdot].
      match goal with |- deriv_v (fun t => [@?f0 t; @?f1 t; @?f2 t; @?f3 t; @?f4 t; @?f5 t; @?f6 t; @?f7 t; @?f8 t]) _ _ =>
        exists [f0; f1; f2; f3; f4; f5; f6; f7; f8] end.
      split; [reflexivity|]. repeat (apply Forall2_cons || apply Forall2_nil); (eapply d_eq; [der|]); cbv beta; field.
  - destruct P as (q & -> & Uq). pose proof W as (W1 & W2 & W3 & _). rewrite W2 in Lv. destruct (vec3_inv v Lv) as (x & y & z & ->).
    set (N := x * x + y * y + z * z). assert (N0 : 0 <= N) by (unfold N; nra).
    exists (fun t => let s := (1 + (- 1 + t * t * N / 80) * (t * t * N) / 24) / 2 in
      qflat (qprod q (Q4 (1 + (- 1 + t * t * N / 48) * (t * t * N / 8)) (s * (t * x)) (s * (t * y)) (s * (t * z))))), (1 / (10000 * (1 + N))).
    split; [apply Rdiv_lt_0_compat; lra|]. split.
    + intros t Ht o Lo. pose proof (small_arc N t N0 Ht) as S. cbn [rscal map]. cbv zeta.
      apply eq_retr; [exact W|lia|reflexivity|]. rewrite eq_exponential_fin. cbv zeta. pose proof (small_norm x y z t S) as S'. apply Rltb_true in S'. rewrite S'.
      unfold eqS, eqW. assert (E : rdot [t * x; t * y; t * z] [t * x; t * y; t * z] = t * t * N) by (unfold N; cbn [rdot]; ring).
      rewrite E. apply Rltb_true in S. rewrite S. reflexivity.
    + cbn [dir_leaf]. unfold representationDim; cbn [hdr_of]. rewrite W3. destruct q as [p0 p1 p2 p3]. cbv zeta.
      unfold qflat, qprod. cbn [qw qx qy qz jac_cols]. unfold rmv. cbn [seq map nth rdot].
      match goal with |- deriv_v (fun t => [@?f0 t; @?f1 t; @?f2 t; @?f3 t]) _ _ => exists [f0; f1; f2; f3] end.
      split; [reflexivity|]. repeat (apply Forall2_cons || apply Forall2_nil); (eapply d_eq; [der|]); cbv beta; field.
Qed.

(** ** applyDiffRetractation on a leaf, on a tree *)
Definition app_cols (s : mfd XR) (x : list R) (r : nat) (cs : list (list R)) : list (list R) :=
  match s with
  | Leaf _ LS2 _ _ => map (fun j => map (fun i => nth i (nth j cs []) 0 - rdot x (map (fun c => nth i c 0) cs) * nth j x 0) (seq 0 r)) (seq 0 3)
  | _ => map (rmv r cs) (jac_cols s x)
  end.
Lemma apply_leaf h l a b x r cs out : leaf_wf h l a b -> length x = h_rdim h ->
  length cs = h_rdim h -> Forall (fun c => length c = r) cs -> shape out r (h_tdim h) ->
  applyDiffRetractation (Leaf h l a b) out (matR r cs) (fin x) = Ok (matR r (app_cols (Leaf h l a b) x r cs)) /\
  length (app_cols (Leaf h l a b) x r cs) = h_tdim h /\ Forall (fun c => length c = r) (app_cols (Leaf h l a b) x r cs) /\
  forall v, tan_leaf (Leaf h l a b) x v -> rmv r (app_cols (Leaf h l a b) x r cs) v = rmv r cs (dir_leaf (Leaf h l a b) x v).
Proof.
  intros W Lx Lc Fc So. destruct (Bool.bool_dec (is_s2 (Leaf h l a b)) true) as [Hl|Hl].
  - destruct l; try discriminate. pose proof W as (W1 & W2 & W3 & _). rewrite W2, W3 in *. cbn [app_cols].
    split; [|split; [reflexivity|split]].
    + cbn [applyDiffRetractation]. unfold representationDim, tangentDim; cbn [hdr_of]. destruct So as (S1 & S2 & S3).
      unfold ncols. cbn [mcols_ matR mrows]. rewrite S1, S2, map_length, Lc, W2, W3, !check_eq by auto. cbn [bind].
      rewrite check_eq by (rewrite fin_length; auto). cbn [bind].
      unfold s2_applyDiffRetractation, s2_projRows, ncols. cbn [mcols_ matR mrows]. rewrite S1, S2, map_length, Lc, fin_length, Lx, !Nat.eqb_refl. cbn [andb eigen_assert bind].
      f_equal. unfold mbuild, matR at 3. f_equal. rewrite map_map. apply map_ext. intros j. unfold fin at 3. rewrite map_map. apply map_ext. intros i.
      rewrite mrow_fin, dot_fin. unfold mget. cbn [mcols_ matR]. change (@nil XR) with (fin []). rewrite map_nth. cbn [k0 XRS]. rewrite !nth_fin. reflexivity.
    + rewrite Forall_map. apply Forall_forall. intros. rewrite map_length, seq_length. reflexivity.
    + intros v [Lv Tv]. unfold tangentDim in Lv; cbn [hdr_of] in Lv. rewrite W2 in Lv. cbn [dir_leaf].
      apply (rvec_ext r); rewrite ?rmv_length; auto. intros i Hi. rewrite !nth_rmv by auto.
      destruct (vec3_inv x Lx) as (x0 & x1 & x2 & ->). destruct (vec3_inv v Lv) as (v0 & v1 & v2 & ->).
      destruct cs as [|c0 [|c1 [|c2 [|]]]]; try discriminate. cbn [seq map].
      repeat (rewrite nth_indep with (d := 0) (d' := (fun i => 0) 0%nat) by auto).
      assert (G : forall j, nth i (map (fun i => nth i (nth j [c0; c1; c2] []) 0 - rdot [x0; x1; x2] [nth i c0 0; nth i c1 0; nth i c2 0] * nth j [x0; x1; x2] 0) (seq 0 r)) 0
        = nth i (nth j [c0; c1; c2] []) 0 - rdot [x0; x1; x2] [nth i c0 0; nth i c1 0; nth i c2 0] * nth j [x0; x1; x2] 0).
      { intros j. set (f := fun i => nth i (nth j [c0; c1; c2] []) 0 - rdot [x0; x1; x2] [nth i c0 0; nth i c1 0; nth i c2 0] * nth j [x0; x1; x2] 0).
        rewrite nth_indep with (d' := f 0%nat) by (rewrite map_length, seq_length; auto). rewrite map_nth, seq_nth by auto. reflexivity. }
      rewrite !G. cbn [nth rdot] in *. set (p := x0 * nth i c0 0 + _).
      transitivity (nth i c0 0 * v0 + (nth i c1 0 * v1 + (nth i c2 0 * v2 + 0)) - p * (x0 * v0 + (x1 * v1 + (x2 * v2 + 0)))); [ring|]. rewrite Tv. ring.
  - apply not_true_is_false in Hl. destruct (jac_leaf h l a b x W Hl Lx) as (HJ & LJ & FJ).
    assert (E : app_cols (Leaf h l a b) x r cs = map (rmv r cs) (jac_cols (Leaf h l a b) x)) by (destruct l; try discriminate; reflexivity).
    assert (E' : forall v, dir_leaf (Leaf h l a b) x v = rmv (h_rdim h) (jac_cols (Leaf h l a b) x) v) by (destruct l; try discriminate; reflexivity).
    rewrite E. split; [|split; [|split]].
    + rewrite <- (mmul_fin r cs (h_rdim h)). apply (adr_mul (Leaf h l a b)) with (r := r); auto using finite_matR.
      * constructor. auto.
      * unfold representationDim; cbn [hdr_of]. rewrite <- Lc. apply matR_shape. auto.
    + rewrite map_length. auto.
    + rewrite Forall_map. apply Forall_forall. intros. apply rmv_length.
    + intros v _. rewrite E'. apply rmv_assoc. auto.
Qed.

Definition trip : Type := mat XR * (mat XR * list XR).
Definition ap3 (s : mfd XR) (z : trip) : res (mat XR) := applyDiffRetractation s (fst z) (fst (snd z)) (snd (snd z)).
Lemma adr_leaves r m : wf m -> forall outs inps xs Y,
  cpieces DT r (leaves m) outs -> cpieces DR r (leaves m) inps -> pieces DR (leaves m) xs ->
  (applyDiffRetractation m (hcat r outs) (hcat r inps) (concat xs) = Ok Y <->
   exists Ys, Y = hcat r Ys /\ Forall3 (fun s z y => ap3 s z = Ok y) (leaves m) (combine outs (combine inps xs)) Ys).
Proof.
  intros Hw outs inps xs Y Po Pi Px.
  set (cat := fun zs : list trip => (hcat r (map fst zs), (hcat r (map (fun z => fst (snd z)) zs), concat (map (fun z => snd (snd z)) zs)))).
  set (ok := fun (s : mfd XR) (z : trip) => shape (fst z) r (getDim DT s) /\ shape (fst (snd z)) r (getDim DR s) /\ length (snd (snd z)) = getDim DR s).
  assert (C : forall ls os is xs, cpieces DT r ls os -> cpieces DR r ls is -> pieces DR ls xs ->
     map fst (combine os (combine is xs)) = os /\ map (fun z => fst (snd z)) (combine os (combine is xs)) = is /\
     map (fun z => snd (snd z)) (combine os (combine is xs)) = xs /\ Forall2 ok ls (combine os (combine is xs))).
  { clear. intros ls os is xs Po; revert is xs; induction Po as [|s o ls os H1 Po IH]; intros is xs Pi Px; inversion Pi; inversion Px; subst; cbn [combine map fst snd]; [repeat split; auto|].
    destruct (IH l' l'0) as (E1 & E2 & E3 & E4); auto. rewrite E1, E2, E3. repeat split; auto. constructor; auto. repeat split; auto; try apply H1; apply H2. }
  destruct (C (leaves m) outs inps xs Po Pi Px) as (E1 & E2 & E3 & E4).
  assert (G := flat_gen cat (hcat r) ok ap3). 
  assert (E : ap3 m (cat (combine outs (combine inps xs))) = applyDiffRetractation m (hcat r outs) (hcat r inps) (concat xs)).
  { unfold ap3, cat. cbn [fst snd]. rewrite E1, E2, E3. reflexivity. }
  rewrite <- E. apply G; auto; clear - C.
  - intros zss. unfold cat. rewrite !map_map. cbn [fst snd]. f_equal; [|f_equal].
    + rewrite concat_map, hcat_concat, map_map. reflexivity.
    + rewrite concat_map, hcat_concat, map_map. reflexivity.
    + rewrite concat_map. induction zss as [|z zs IH]; [reflexivity|]. cbn [map concat]. rewrite concat_app, IH. reflexivity.
  - apply hcat_concat.
  - intros s [o [i x]] (H1 & H2 & H3). unfold cat. cbn [map fst snd concat] in *. destruct H1 as (<- & _), H2 as (H2 & _). rewrite hcat_one, <- H2, hcat_one, app_nil_r. reflexivity.
  - intros h l a b [o [i x]] y Hw (H1 & H2 & H3) H. unfold ap3 in H. cbn [fst snd] in *.
    assert (Sy : mrows y = r).
    { cbn [applyDiffRetractation] in H. repeat (destruct (mnf_assert _) in H; [|discriminate]; cbn [bind] in H).
      destruct H1 as (O1 & O2 & O3), H2 as (I1 & I2 & I3). destruct l as [| |[|]].
      - unfold real_copy, massign in H. destruct (eigen_assert _) in H; [|discriminate]. inversion H; subst. auto.
      - unfold s2_applyDiffRetractation, s2_projRows in H. destruct (eigen_assert _) in H; [|discriminate]. inversion H; subst. auto.
      - unfold em_applyDiffRetractation, massign in H. destruct (mnf_assert _) in H; [|discriminate]. cbn [bind] in H. destruct (em_diffRetractation x) in H; [|discriminate]. cbn [bind] in H.
        destruct (eigen_assert _) in H; [|discriminate]. inversion H; subst. auto.
      - unfold eq_applyDiffRetractation, massign in H. destruct (mnf_assert _) in H; [|discriminate]. cbn [bind] in H. destruct (eq_diffRetractation x) in H; [|discriminate]. cbn [bind] in H.
        destruct (eigen_assert _) in H; [|discriminate]. inversion H; subst. auto. }
    rewrite <- Sy. apply hcat_one.
  - intros h sT sR subs zs Hw F. unfold ok, cat. cbn [fst snd]. rewrite !(wf_prod_getDim _ _ _ _ _ Hw). clear - F.
    assert (Q : cpieces DT r subs (map fst zs) /\ cpieces DR r subs (map (fun z => fst (snd z)) zs) /\ pieces DR subs (map (fun z => snd (snd z)) zs)).
    { induction F as [|s z ss zs (H1 & H2 & H3) F (IH1 & IH2 & IH3)]; repeat split; constructor; auto. }
    destruct Q as (Q1 & Q2 & Q3). split; [exact (hcat_shape DT r _ _ Q1)|]. split; [exact (hcat_shape DR r _ _ Q2)|].
    eapply pieces_length; eauto.
  - intros h sT sR subs zs y Hw F. unfold ap3, cat. cbn [fst snd].
    assert (Q : cpieces DT r subs (map fst zs) /\ cpieces DR r subs (map (fun z => fst (snd z)) zs) /\ pieces DR subs (map (fun z => snd (snd z)) zs)).
    { clear - F. induction F as [|s z ss zs (H1 & H2 & H3) F (IH1 & IH2 & IH3)]; repeat split; constructor; auto. }
    destruct Q as (Q1 & Q2 & Q3). rewrite applyDiffRetractation_prod by auto.
    assert (S : forall ys, Forall4 (fun s o ca y => applyDiffRetractation s o (fst ca) (snd ca) = Ok y) subs (map fst zs) (combine (map (fun z => fst (snd z)) zs) (map (fun z => snd (snd z)) zs)) ys
       <-> Forall3 (fun s z r => applyDiffRetractation s (fst z) (fst (snd z)) (snd (snd z)) = Ok r) subs zs ys).
    { clear - F. induction F as [|s z ss zs H F IH]; intros ys; split; intros G; inversion G; subst; cbn [map combine]; constructor; auto; apply IH; auto. }
    split; intros (ys & -> & H); exists ys; split; auto; apply S; auto.
Qed.
