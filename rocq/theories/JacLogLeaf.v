(** applyDiffPseudoLog0 on trees in terms of the elementary factors at the leaves, row by row, for any scalar. *)
From Coq Require Import List Arith Bool ZArith Lia.
From Verif Require Import Base Scalar Vec Model_Real Model_S2 Model_SO3 Model_Manifold Spec Layout Comp BlockMat MatOps MatProd Flat F64Tree TanLeaf TransLeaf JacLeaf.
Import ListNotations.

Section Gen.
Context {K : Type} {SK : Scalar K}.
(** What one elementary factor at [x] makes of its part of a row. *)
Variable C : mfd K -> vec K -> vec K -> vec K -> Prop.
Implicit Types (m s : mfd K) (subs : list (mfd K)).

Definition lsplit (ls : list (mfd K)) (xs : list (vec K)) (a y : vec K) : Prop :=
  exists ps ys, a = concat ps /\ y = concat ys /\ pieces DT ls ps /\ pieces DR ls ys /\ Forall4 C ls xs ps ys.
Definition adl_ok m (x : vec K) (xs : list (vec K)) : Prop :=
  forall r out inp, shape out r (representationDim m) -> shape inp r (tangentDim m) ->
    exists Y, applyDiffPseudoLog0 m out inp x = Ok Y /\ shape Y r (representationDim m) /\
      forall i, i < r -> lsplit (leaves m) xs (mrow inp i) (mrow Y i).

Lemma lsplit_app l1 f1 a a' l2 f2 b b' : lsplit l1 f1 a a' -> lsplit l2 f2 b b' -> lsplit (l1 ++ l2) (f1 ++ f2) (a ++ b) (a' ++ b').
Proof.
  intros (cs & cs' & -> & -> & P & P' & H) (ds & ds' & -> & -> & Q & Q' & G). exists (cs ++ ds), (cs' ++ ds').
  rewrite !concat_app. repeat split; auto using pieces_app. clear P P' Q Q'. induction H; cbn [app]; auto. constructor; auto.
Qed.
Definition okl s (x : vec K) (xs : list (vec K)) : Prop := length x = representationDim s /\ adl_ok s x xs.

Lemma adl_go n subs xs xss : Forall3 okl subs xs xss -> forall outs inps, cpieces DR n subs outs -> cpieces DT n subs inps ->
  exists ys, Forall4 (fun s o ca y => applyDiffPseudoLog0 s o (fst ca) (snd ca) = Ok y) subs outs (combine inps xs) ys /\
    cpieces DR n subs ys /\
    forall i, i < n -> lsplit (flat_map leaves subs) (concat xss) (concat (map (fun B => mrow B i) inps)) (concat (map (fun B => mrow B i) ys)).
Proof.
  induction 1 as [|s x zs ss xs xss (Lx & Ht) H IH]; intros outs inps Po Pi; inversion Po as [|? o ? os O1 O2]; inversion Pi as [|? c ? cs I1 I2]; subst.
  - exists []. split; [constructor|split; [constructor|]]. intros j _. exists [], []. repeat split; constructor.
  - destruct (Ht n o c O1 I1) as (Y & EY & SY & HY).
    destruct (IH os cs O2 I2) as (ys & E & P & G). exists (Y :: ys). cbn [combine flat_map concat map].
    split; [constructor; auto|split; [constructor; auto|]]. intros j Hj. apply lsplit_app; auto.
Qed.
Lemma adl_prod_ok h sT sR subs xs xss : wf (Prod h sT sR subs) -> Forall3 okl subs xs xss -> adl_ok (Prod h sT sR subs) (concat xs) (concat xss).
Proof.
  intros W H. assert (Px : pieces DR subs xs) by (clear W; induction H as [|? ? ? ? ? ? (A & _)]; constructor; auto).
  pose proof (wf_prod_getDim DR _ _ _ _ W) as DimT. pose proof (wf_prod_getDim DT _ _ _ _ W) as DimR.
  intros n out inp So Si. change (representationDim (Prod h sT sR subs)) with (getDim DR (Prod h sT sR subs)) in *. change (tangentDim (Prod h sT sR subs)) with (getDim DT (Prod h sT sR subs)) in *.
  rewrite DimT in So. rewrite DimR in Si.
  destruct (cut_cols DR n subs out So) as (outs & -> & Po). destruct (cut_cols DT n subs inp Si) as (inps & -> & Pi).
  destruct (adl_go n _ _ _ H _ _ Po Pi) as (ys & E & P & G). exists (hcat n ys). split; [|split].
  - apply applyDiffPseudoLog0_prod; auto. exists ys. auto.
  - rewrite DimT. apply hcat_shape; auto.
  - intros j Hj. rewrite !mrow_hcat. apply G; auto.
Qed.
Lemma adl_tree m : wf m -> forall xs, Forall2 (fun s x => okl s x [x]) (leaves m) xs -> okl m (concat xs) xs.
Proof.
  induction m as [h l a b|h sT sR subs IH] using mfd_ind'; intros W xs H.
  - cbn [leaves] in H. inversion H as [|s x ? ? H1 H2]; subst. inversion H2; subst. cbn [concat]. rewrite !app_nil_r. exact H1.
  - assert (G : exists ys xss, concat xs = concat ys /\ xs = concat xss /\ Forall3 okl subs ys xss).
    { cbn [leaves] in H. inversion W as [|? ? ? ? _ _ _ _ _ Hs]; subst. clear W. revert xs H.
      induction IH as [|s ss Hs1 _ IH']; intros xs H.
      - inversion H; subst. exists [], []. repeat split; constructor.
      - inversion Hs; subst. cbn [flat_map] in H.
        destruct (group2 _ _ _ _ H) as (x1 & x2 & -> & H1' & H2').
        match goal with Q : Forall wf ss |- _ => destruct (IH' Q _ H2') as (ys & xss & E1 & -> & HH) end.
        exists (concat x1 :: ys), (x1 :: xss). rewrite !concat_app. cbn [concat]. rewrite <- E1.
        repeat split; auto. constructor; auto. }
    destruct G as (ys & xss & E & -> & G). rewrite E. split; [|apply adl_prod_ok; auto].
    change (length (concat ys) = getDim DR (Prod h sT sR subs)). rewrite (wf_prod_getDim DR _ _ _ _ W). clear W H IH E.
    induction G as [|? ? ? ? ? ? (A & _)]; cbn [concat map sum_list]; auto. rewrite app_length. f_equal; auto.
Qed.

Lemma leaf_of_rows_log h l a b x : leaf_wf h l a b -> length x = representationDim (Leaf h l a b) ->
  (forall r out inp, shape out r (h_rdim h) -> shape inp r (h_tdim h) -> exists Y, applyDiffPseudoLog0 (Leaf h l a b) out inp x = Ok Y /\ shape Y r (h_rdim h) /\
     forall i, i < r -> C (Leaf h l a b) x (mrow inp i) (mrow Y i)) -> okl (Leaf h l a b) x [x].
Proof.
  intros W Lx H. split; auto. intros r out inp So Si. destruct (H r out inp So Si) as (Y & E & S & G). exists Y. split; [auto|split; auto].
  intros i Hi. cbn [leaves]. exists [mrow inp i], [mrow Y i]. cbn [concat]. rewrite !app_nil_r. pose proof Si as (_ & S2 & _). pose proof S as (_ & S3 & _).
  repeat split; repeat (constructor; [unfold mrow; try rewrite map_length; auto|]); try constructor. apply G; auto.
Qed.
End Gen.
