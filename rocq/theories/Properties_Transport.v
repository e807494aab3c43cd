(** C55: the vector transport of a tree is one linear isometry of its tangent coordinates;
    [applyInvTransportOnTheRight] multiplies by its inverse on the right. *)
From Coq Require Import Reals List Lra Lia ZArith Bool Arith.
From Verif Require Import Base Scalar Vec Model_Real Model_S2 Model_SO3 Model_Manifold Spec Layout Comp Flat BlockMat MatOps MatProd
  Structure XR SpecR RotR NumVec NumTree NumS2 MatNum Points ExR Properties_S2 Properties_Matrix TransTree.
Import ListNotations.
Local Open Scope R_scope.

(** [matR t cs]: the matrix with columns [cs]; [rowsR t rows]: the matrix with rows [rows].  From [x] along the
    tangent vector [v], one linear isometry [f] of R^t gives every column of [applyTransport] and every row of
    [applyInvTransportOnTheRight], for any number of columns or rows; and [f] sends the vectors tangent at [x] to
    those tangent at the point reached, at every precision: the library's own test answers the same for [u] at [x]
    and [f u] there. *)
Theorem C55_one_isometry : forall m : mfd XR, built m -> forall x v : list R, tanM m x v ->
  let t := tangentDim m in
  exists f : list R -> list R,
    (forall u, length u = t -> length (f u) = t) /\
    (forall u w, length u = t -> length w = t -> rdot (f u) (f w) = rdot u w) /\
    (forall a u w, length u = t -> length w = t -> f (radd (rscal a u) w) = radd (rscal a (f u)) (f w)) /\
    (forall cs out, Forall (fun c => length c = t) cs -> shape out t (length cs) ->
       applyTransport m out (matR t cs) (fin x) (fin v) = Ok (matR t (map f cs))) /\
    (forall rows out, Forall (fun c => length c = t) rows -> shape out (length rows) t ->
       applyInvTransportOnTheRight m out (rowsR t rows) (fin x) (fin v) = Ok (rowsR t (map f rows))) /\
    (forall o y u p, retractation m o (fin x) (fin v) = Ok y -> length u = t ->
       (isInTxM m y (fin (f u)) p = Ok true <-> isInTxM m (fin x) (fin u) p = Ok true)).
Proof. intros m B x v HT t. apply built_wf in B. destruct (transport_tree m B x v HT) as (_ & _ & f & Hf). exists f. exact Hf. Qed.
Print Assumptions C55_one_isometry.

Lemma xsum_rdot a b n : length a = n -> length b = n ->
  xsum n (fun k => lift2 Rmult (Fin (nth k a 0)) (Fin (nth k b 0))) = Fin (rdot a b).
Proof.
  intros La Lb. rewrite <- dot_fin, dot_xdot. rewrite (xdot_sum _ _ n) by (rewrite fin_length; auto).
  unfold xsum. f_equal. apply map_ext. intros k. rewrite !nth_fin. reflexivity.
Qed.
Lemma rows_cols_product t rows cs : Forall (fun c => length c = t) rows -> Forall (fun c => length c = t) cs ->
  is_product (rowsR t rows) (matR t cs)
    (mbuild (length rows) (length cs) (fun i j => Fin (rdot (nth i rows []) (nth j cs [])))) (length rows) t (length cs).
Proof.
  intros F G. split; [apply shape_mbuild|]. intros i j Hi Hj. rewrite mget_mbuild by auto.
  rewrite Forall_forall in F, G. rewrite <- (xsum_rdot _ _ t) by (first [apply F; apply nth_In; assumption|apply G; apply nth_In; assumption]).
  unfold xsum. f_equal. apply map_ext_in. intros k Hk. apply in_seq in Hk. rewrite mget_rowsR by (auto; lia). f_equal.
  unfold mget, matR. cbn [mcols_]. change (@nil XR) with (fin []). rewrite (map_nth fin). symmetry. apply nth_fin.
Qed.

(** Transporting [H] and multiplying [A] by the inverse transport on the right leaves the product unchanged,
    entry by entry: every tree, any number of rows of [A] and of columns of [H]. *)
Theorem C55_product_unchanged : forall m : mfd XR, built m -> forall x v : list R, tanM m x v ->
  let t := tangentDim m in
  forall rows cs outA outH, Forall (fun c => length c = t) rows -> Forall (fun c => length c = t) cs ->
  shape outA (length rows) t -> shape outH t (length cs) ->
  exists A' H' P,
    applyInvTransportOnTheRight m outA (rowsR t rows) (fin x) (fin v) = Ok A' /\
    applyTransport m outH (matR t cs) (fin x) (fin v) = Ok H' /\
    is_product A' H' P (length rows) t (length cs) /\
    is_product (rowsR t rows) (matR t cs) P (length rows) t (length cs).
Proof.
  intros m B x v HT t rows cs outA outH F G SA SH.
  destruct (C55_one_isometry m B x v HT) as (f & H1 & H2 & _ & H4 & H5 & _). change (tangentDim m) with t in H1, H2, H4, H5. clearbody t.
  do 3 eexists. split; [apply H5; auto|]. split; [apply H4; auto|]. split; [|apply rows_cols_product; auto].
  pose proof (rows_cols_product t (map f rows) (map f cs)) as P.
  assert (FF : forall l, Forall (fun c => length c = t) l -> Forall (fun c => length c = t) (map f l)).
  { intros l Hl. rewrite Forall_map. eapply Forall_impl; [|exact Hl]. auto. }
  specialize (P (FF _ F) (FF _ G)). rewrite !map_length in P. destruct P as [P1 P2]. split; [apply shape_mbuild|].
  intros i j Hi Hj. rewrite <- P2 by auto. rewrite !mget_mbuild by auto. f_equal.
  rewrite Forall_forall in F, G.
  rewrite (nth_indep (map f rows) [] (f [])), (nth_indep (map f cs) [] (f [])) by (rewrite map_length; auto).
  rewrite !map_nth. symmetry. apply H2; [apply F|apply G]; apply nth_In; auto.
Qed.
Print Assumptions C55_product_unchanged.

(** R^2 x S2 x SO3 (quaternions), along a vector that turns the sphere's tangent plane. *)
Example C55_example :
  exists A' H',
    applyInvTransportOnTheRight rS (mzero 1 8) (rowsR 8 [[1; 1; 1; 1; 1; 1; 1; 1]]) (fin rSx) (fin rSv) = Ok A' /\
    applyTransport rS (mzero 8 1) (matR 8 [[1; 2; 3; 4; 5; 6; 7; 8]]) (fin rSx) (fin rSv) = Ok H' /\
    is_product A' H' (matR 1 [[36]]) 1 8 1.
Proof.
  destruct (C55_product_unchanged rS rS_built rSx rSv rSv_tan [[1; 1; 1; 1; 1; 1; 1; 1]] [[1; 2; 3; 4; 5; 6; 7; 8]] (mzero 1 8) (mzero 8 1))
    as (A' & H' & P & EA & EH & [PA PB] & QA & QB); try (repeat constructor; fail); try apply shape_mzero.
  exists A', H'. change (tangentDim rS) with 8%nat in *. split; [exact EA|]. split; [exact EH|].
  split; [apply (matR_shape 1 [[36]]); repeat constructor|]. intros i j Hi Hj. rewrite <- PB by auto. rewrite QB by auto.
  destruct i; [|cbn in Hi; lia]. destruct j; [|cbn in Hj; lia]. 
  unfold xsum, mget, matR, rowsR. cbn. f_equal. ring.
Qed.
