(** C01-C03: layout of products, views, componentwise behaviour.  Any scalar arithmetic. *)
From Coq Require Import List Arith Bool ZArith Lia.
From Verif Require Import Base Scalar Vec Model_Manifold Spec Layout Comp Indep Flat Structure ExScalar.
Import ListNotations.

(** C01.  [factors P fs] says P was obtained by multiplying, in order, the manifolds fs. *)
Theorem C01_product_layout : forall (K : Type) (SK : Scalar K) (P : mfd K) (fs : list (mfd K)),
  factors P fs ->
  dim P = sum_list (map dim fs) /\
  tangentDim P = sum_list (map tangentDim fs) /\
  representationDim P = sum_list (map representationDim fs) /\
  numberOfSubManifolds P = length fs /\
  forall i, match nth_error fs i with
            | Some s => subManifold P i = Ok s /\
                        forall D, getStart D P i = Ok (sum_list (map (getDim D) (firstn i fs)))
                                  /\ getDimSub D P i = Ok (getDim D s)
            | None => subManifold P i = Fail EAssert /\
                      forall D, getStart D P i = Fail EAssert /\ getDimSub D P i = Fail EAssert
            end.
Proof.
  intros K SK P fs H. pose proof (layout_dims P fs H) as (H1 & H2 & H3 & H4).
  repeat (split; [assumption|]). intros i. exact (layout_sub P fs i H).
Qed.
Print Assumptions C01_product_layout.

(** Every product a user can build has such a factor list, and multiply never fails on it. *)
Theorem C01_products_have_factors : forall (K : Type) (SK : Scalar K) (P m : mfd K),
  built P -> built m ->
  (exists fs, factors P fs /\ exists P', multiply P m = Ok P' /\ factors P' (fs ++ [m]))
  \/ leaves P = [P].
Proof.
  intros K SK P m HP Hm. destruct P as [h l a b|h sT sR subs]; [right; reflexivity|left].
  pose proof (built_factors _ HP _ _ _ _ eq_refl) as F. exists subs. split; auto.
  destruct (multiply_total (Prod h sT sR subs) m (built_wf _ HP)) as [P' E]; [eauto 6|].
  exists P'. split; auto. eapply factors_mult; eauto.
Qed.
Print Assumptions C01_products_have_factors.

Lemma exP_built : factors exP [exP2; exSO3] /\ factors exP2 [exR2; exP1] /\ factors exP1 [exR3; exS2].
Proof.
  assert (b2 : built exR2) by (apply (built_real_mag 2 1%Z); reflexivity).
  assert (b3 : built exR3) by (apply (built_real_mag 3 1%Z); reflexivity).
  assert (bs : built exS2) by (apply (built_s2 [3;3;3]%Z); reflexivity).
  assert (bo : built exSO3) by (apply (built_so3 MapQuat [3;3;3]%Z); reflexivity).
  assert (G : forall a b : mfd Z, built a -> built b ->
              forall p, prod2 a b = Ok p -> factors p [a; b]).
  { intros a b Ha Hb p Hp. unfold prod2 in Hp.
    destruct (multiply prod_empty a) as [p1|] eqn:E1; [|discriminate]. cbn [bind] in Hp.
    destruct (multiply p1 b) as [p2|] eqn:E2; [|discriminate]. cbn [bind] in Hp.
    inversion Hp; subst. apply factors_name. apply (factors_mult p1 [a] b); auto.
    apply (factors_mult prod_empty [] a); auto. constructor. }
  assert (f1 : factors exP1 [exR3; exS2]) by (apply G; auto).
  assert (b1 : built exP1) by (eapply factors_built; eauto).
  assert (f2 : factors exP2 [exR2; exP1]) by (apply G; auto).
  assert (b2' : built exP2) by (eapply factors_built; eauto).
  split; [apply G; auto|split; auto].
Qed.

Example C01_example : exists fs, factors exP fs /\ length fs = 2 /\
  (dim exP, tangentDim exP, representationDim exP) = (10, 11, 12) /\ getStart DR exP 1 = Ok 8.
Proof. exists [exP2; exSO3]. split; [apply exP_built|]. repeat split. Qed.

(** C02: the views of a vector are its consecutive slices, one per factor; requests out of range or on
    a vector of the wrong size are refused. *)
Theorem C02_views_tile : forall (K : Type) (SK : Scalar K) (P : mfd K) (fs : list (mfd K)) (D : edim) (v : vec K),
  factors P fs -> length v = getDim D P ->
  exists xs, pieces D fs xs /\ concat xs = v /\
    (forall i, i < length fs -> getView D P v i = Ok (nth i xs [])) /\
    (forall i, length fs <= i -> getView D P v i = Fail EAssert).
Proof. intros. eapply views_tile; eauto. Qed.
Print Assumptions C02_views_tile.

Theorem C02_view_write_frame : forall (K : Type) (SK : Scalar K) (P : mfd K) (fs : list (mfd K)) (D : edim)
    (v w : vec K) (i : nat) (s : mfd K),
  factors P fs -> length v = getDim D P -> nth_error fs i = Some s -> length w = getDim D s ->
  exists v', on_view D P i (fun _ => Ok w) v = Ok v' /\ length v' = length v /\
    forall k d, nth k v' d =
      (let a := sum_list (map (getDim D) (firstn i fs)) in
       if (a <=? k) && (k <? a + getDim D s) then nth (k - a) w d else nth k v d).
Proof. intros. eapply view_write; eauto. Qed.
Print Assumptions C02_view_write_frame.

Theorem C02_view_refused : forall (K : Type) (SK : Scalar K) (P : mfd K) (fs : list (mfd K)) (D : edim)
    (v : vec K) (f : vec K -> res (vec K)) (i : nat),
  factors P fs -> length fs <= i \/ length v <> getDim D P ->
  getView D P v i = Fail EAssert /\ on_view D P i f v = Fail EAssert.
Proof. intros. eapply view_refused; eauto. Qed.
Print Assumptions C02_view_refused.

Example C02_example :
  (getView DR exP2 [1;2;3;4;5;6;7;8]%Z 1 = Ok [3;4;5;6;7;8]%Z) /\
  (getView DT exP2 [1;2;3;4;5;6;7;8]%Z 0 = Ok [1;2]%Z) /\
  on_view DR exP2 0 (fun _ => Ok [0;0]%Z) [1;2;3;4;5;6;7;8]%Z = Ok [0;0;3;4;5;6;7;8]%Z /\
  getView DR exP2 [1;2]%Z 0 = Fail EAssert.
Proof. repeat split; reflexivity. Qed.

(** C03: on a product, the result is the concatenation of the factors' results; the call succeeds
    exactly when every factor's call does. *)
Theorem C03_componentwise : forall (K : Type) (SK : Scalar K) (P : mfd K) (fs : list (mfd K)),
  factors P fs ->
  (forall outs xs vs y, pieces DR fs outs -> pieces DR fs xs -> pieces DT fs vs ->
     (retractation P (concat outs) (concat xs) (concat vs) = Ok y <->
      exists ys, y = concat ys /\ Forall5 (fun s o x v r => retractation s o x v = Ok r) fs outs xs vs ys)) /\
  (forall outs xs xs' y, pieces DT fs outs -> pieces DR fs xs -> pieces DR fs xs' ->
     (pseudoLog P (concat outs) (concat xs) (concat xs') = Ok y <->
      exists ys, y = concat ys /\ Forall5 (fun s o x x' r => pseudoLog s o x x' = Ok r) fs outs xs xs' ys)) /\
  (forall outs ws xs y, pieces DT fs outs -> pieces DT fs ws -> pieces DR fs xs ->
     (forceOnTxM P (concat outs) (concat ws) (concat xs) = Ok y <->
      exists ys, y = concat ys /\ Forall5 (fun s o w x r => forceOnTxM s o w x = Ok r) fs outs ws xs ys)) /\
  (forall outs xs y, pieces DT fs outs -> pieces DR fs xs ->
     (pseudoLog0 P (concat outs) (concat xs) = Ok y <->
      exists ys, y = concat ys /\ Forall4 (fun s o x r => pseudoLog0 s o x = Ok r) fs outs xs ys)) /\
  (forall outs xs y, pieces DR fs outs -> pieces DR fs xs ->
     (forceOnM P (concat outs) (concat xs) = Ok y <->
      exists ys, y = concat ys /\ Forall4 (fun s o x r => forceOnM s o x = Ok r) fs outs xs ys)) /\
  (forall outs y, pieces DR fs outs ->
     (setZero P (concat outs) = Ok y <->
      exists ys, y = concat ys /\ Forall3 (fun s o r => setZero s o = Ok r) fs outs ys)) /\
  (forall outs y, pieces DT fs outs ->
     (limitMap P (concat outs) = Ok y <->
      exists ys, y = concat ys /\ Forall3 (fun s o r => limitMap s o = Ok r) fs outs ys)) /\
  (forall outs y, pieces DT fs outs ->
     (getTypicalMagnitude P (concat outs) = Ok y <->
      exists ys, y = concat ys /\ Forall3 (fun s o r => getTypicalMagnitude s o = Ok r) fs outs ys)) /\
  (forall outs y, pieces DT fs outs ->
     (getTrustMagnitude P (concat outs) = Ok y <->
      exists ys, y = concat ys /\ Forall3 (fun s o r => getTrustMagnitude s o = Ok r) fs outs ys)).
Proof.
  intros K SK P fs H. destruct (factors_wf _ _ H) as (h & sT & sR & -> & Hwf).
  repeat split; intros;
    first [ eapply retractation_prod; eassumption | eapply pseudoLog_prod; eassumption
          | eapply forceOnTxM_prod; eassumption | eapply pseudoLog0_prod; eassumption
          | eapply forceOnM_prod; eassumption | eapply setZero_prod; eassumption
          | eapply limitMap_prod; eassumption | eapply getTypicalMagnitude_prod; eassumption
          | eapply getTrustMagnitude_prod; eassumption ].
Qed.
Print Assumptions C03_componentwise.

(** The same for a nested product of any depth, in terms of the elementary manifolds at its leaves. *)
Theorem C03_componentwise_leaves : forall (K : Type) (SK : Scalar K) (m : mfd K), built m ->
  (forall outs xs vs y, pieces DR (leaves m) outs -> pieces DR (leaves m) xs -> pieces DT (leaves m) vs ->
     (retractation m (concat outs) (concat xs) (concat vs) = Ok y <->
      exists ys, y = concat ys /\
        Forall5 (fun s o x v r => retractation s o x v = Ok r) (leaves m) outs xs vs ys)) /\
  (forall outs xs xs' y, pieces DT (leaves m) outs -> pieces DR (leaves m) xs -> pieces DR (leaves m) xs' ->
     (pseudoLog m (concat outs) (concat xs) (concat xs') = Ok y <->
      exists ys, y = concat ys /\
        Forall5 (fun s o x x' r => pseudoLog s o x x' = Ok r) (leaves m) outs xs xs' ys)) /\
  (forall outs ws xs y, pieces DT (leaves m) outs -> pieces DT (leaves m) ws -> pieces DR (leaves m) xs ->
     (forceOnTxM m (concat outs) (concat ws) (concat xs) = Ok y <->
      exists ys, y = concat ys /\
        Forall5 (fun s o w x r => forceOnTxM s o w x = Ok r) (leaves m) outs ws xs ys)) /\
  (forall outs xs y, pieces DT (leaves m) outs -> pieces DR (leaves m) xs ->
     (pseudoLog0 m (concat outs) (concat xs) = Ok y <->
      exists ys, y = concat ys /\ Forall4 (fun s o x r => pseudoLog0 s o x = Ok r) (leaves m) outs xs ys)) /\
  (forall outs xs y, pieces DR (leaves m) outs -> pieces DR (leaves m) xs ->
     (forceOnM m (concat outs) (concat xs) = Ok y <->
      exists ys, y = concat ys /\ Forall4 (fun s o x r => forceOnM s o x = Ok r) (leaves m) outs xs ys)) /\
  (forall outs y, pieces DR (leaves m) outs ->
     (setZero m (concat outs) = Ok y <->
      exists ys, y = concat ys /\ Forall3 (fun s o r => setZero s o = Ok r) (leaves m) outs ys)) /\
  (forall outs y, pieces DT (leaves m) outs ->
     (limitMap m (concat outs) = Ok y <->
      exists ys, y = concat ys /\ Forall3 (fun s o r => limitMap s o = Ok r) (leaves m) outs ys)).
Proof.
  intros K SK m H. apply built_wf in H.
  repeat split; intros.
  1,2: eapply (flat_op DR DR DT retractation retractation_prod); eassumption.
  1,2: eapply (flat_op DT DR DR pseudoLog pseudoLog_prod); eassumption.
  1,2: eapply (flat_op DT DT DR forceOnTxM forceOnTxM_prod); eassumption.
  1,2: eapply (flat_op1 DT DR pseudoLog0 pseudoLog0_prod); eassumption.
  1,2: eapply (flat_op1 DR DR forceOnM forceOnM_prod); eassumption.
  1,2: eapply (flat_op0 DR setZero setZero_prod); eassumption.
  1,2: eapply (flat_op0 DT limitMap limitMap_prod); eassumption.
Qed.
Print Assumptions C03_componentwise_leaves.

(** The previous content of the output never matters, on any manifold. *)
Theorem C03_output_content_irrelevant : forall (K : Type) (SK : Scalar K) (m : mfd K), built m ->
  forall out out' : vec K, length out = length out' ->
  (forall x v, retractation m out x v = retractation m out' x v) /\
  (forall x y, pseudoLog m out x y = pseudoLog m out' x y) /\
  (forall w x, forceOnTxM m out w x = forceOnTxM m out' w x) /\
  (forall x, pseudoLog0 m out x = pseudoLog0 m out' x) /\
  (forall x, forceOnM m out x = forceOnM m out' x) /\
  setZero m out = setZero m out' /\
  limitMap m out = limitMap m out' /\
  getTypicalMagnitude m out = getTypicalMagnitude m out' /\
  getTrustMagnitude m out = getTrustMagnitude m out'.
Proof.
  intros K SK m H out out' Hl. apply built_wf in H.
  repeat split; intros;
    eauto using retractation_indep, pseudoLog_indep, forceOnTxM_indep, pseudoLog0_indep, forceOnM_indep,
      setZero_indep, limitMap_indep, getTypicalMagnitude_indep, getTrustMagnitude_indep.
Qed.
Print Assumptions C03_output_content_irrelevant.

Example C03_example :
  retractation exP [9;9;9;9;9;9;9;9;9;9;9;9]%Z [1;2;3;4;5;1;0;0;1;0;0;0]%Z [10;20;30;40;50;0;0;0;0;0;0]%Z
  = Ok [11;22;33;44;55;1;0;0;1;0;0;0]%Z.
Proof. reflexivity. Qed.
Example C03_example_fail :   (* the SO3 part is longer than pi *)
  retractation exP [9;9;9;9;9;9;9;9;9;9;9;9]%Z [1;2;3;4;5;1;0;0;1;0;0;0]%Z [10;20;30;40;50;0;0;0;9;0;0]%Z
  = Fail EAssert.
Proof. reflexivity. Qed.
