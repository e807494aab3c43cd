(** Applying a Jacobian = multiplying by it, on every tree. *)
From Coq Require Import Reals List Lra Lia ZArith Bool Arith.
From Verif Require Import Base Scalar Vec Model_Real Model_S2 Model_SO3 Model_Manifold Spec Layout Comp Flat BlockMat MatOps MatProd MatTan XR SpecR NumVec NumS2 MatNum.
Import ListNotations.
Local Open Scope R_scope.

Lemma massign_mmul (out inp J : mat XR) r c : shape out r c -> mrows inp = r -> ncols J = c -> massign out (mmul inp J) = Ok (mmul inp J).
Proof. intros. apply (massign_shape _ _ r c); auto. apply shape_mmul; auto. Qed.

Lemma hcat_finite_parts r Cs : finite_m (hcat r Cs) -> Forall (fun C => finite_m C) Cs.
Proof. induction Cs as [|C Cs IH]; intros H; constructor; apply finite_hcat in H; tauto. Qed.

Section Apply.
Variables (Do Di : edim) (ap : mfd XR -> mat XR -> mat XR -> list XR -> res (mat XR)) (jac : mfd XR -> list XR -> res (mat XR)).
Hypothesis jac_prod : forall h sT sR subs xs J, wf (Prod h sT sR subs) -> pieces DR subs xs ->
  (jac (Prod h sT sR subs) (concat xs) = Ok J <-> exists Js, Forall3 (fun s x B => jac s x = Ok B) subs xs Js /\ J = bdiag Js).
Hypothesis jac_len : forall m x J, wf m -> jac m x = Ok J -> length x = getDim DR m.
Hypothesis jac_shape : forall m x J, wf m -> jac m x = Ok J -> shape J (getDim Di m) (getDim Do m).
Hypothesis ap_prod : forall h sT sR subs r outs inps xs Y, wf (Prod h sT sR subs) ->
  cpieces Do r subs outs -> cpieces Di r subs inps -> pieces DR subs xs ->
  (ap (Prod h sT sR subs) (hcat r outs) (hcat r inps) (concat xs) = Ok Y
   <-> exists ys, Y = hcat r ys /\ Forall4 (fun s o ca y => ap s o (fst ca) (snd ca) = Ok y) subs outs (combine inps xs) ys).
Hypothesis ap_leaf : forall h l a b r out inp x J, wf (Leaf h l a b) -> jac (Leaf h l a b) x = Ok J ->
  shape out r (getDim Do (Leaf h l a b)) -> shape inp r (getDim Di (Leaf h l a b)) -> finite_m inp ->
  ap (Leaf h l a b) out inp x = Ok (mmul inp J).

Lemma apply_mul m : wf m -> forall r out inp x J, jac m x = Ok J ->
  shape out r (getDim Do m) -> shape inp r (getDim Di m) -> finite_m inp -> ap m out inp x = Ok (mmul inp J).
Proof.
  induction m as [h l a b|h sT sR subs IH] using mfd_ind'; intros Hw r out inp x J HJ So Si Fi; [eapply ap_leaf; eauto|].
  pose proof (jac_len _ _ _ Hw HJ) as Lx. destruct (cut_self DR h sT sR subs x Hw Lx) as (xs & -> & Hx).
  apply jac_prod in HJ; auto. destruct HJ as (Js & HJs & ->).
  rewrite (wf_prod_getDim Do _ _ _ _ Hw) in So. rewrite (wf_prod_getDim Di _ _ _ _ Hw) in Si.
  destruct (cut_cols Do r subs out So) as (outs & -> & Po). destruct (cut_cols Di r subs inp Si) as (inps & -> & Pi).
  assert (Hs : Forall wf subs) by (inversion Hw; auto).
  rewrite mmul_bdiag; auto.
  - apply ap_prod; auto. eexists. split; [reflexivity|].
    pose proof (hcat_finite_parts _ _ Fi) as Fp. clear - IH Hs HJs Po Pi Fp. revert outs inps Po Pi Fp.
    induction HJs as [|s x J ss xs Js H1 H2 IHJ]; intros outs inps Po Pi Fp; inversion Po; inversion Pi; subst; [constructor|].
    inversion IH; inversion Hs; inversion Fp; subst. cbn [combine map]. constructor; [|apply IHJ; auto]. cbn [fst snd]. eauto.
  - clear - Hs HJs Pi jac_shape. revert inps Pi. induction HJs as [|s x J ss xs Js H1 H2 IHJ]; intros inps Pi; inversion Pi; subst; constructor.
    + inversion Hs; subst. destruct (jac_shape s x J) as (J1 & J2 & J3); auto. destruct H3 as (C1 & C2 & C3). repeat split; auto.
      * unfold ncols. congruence.
      * rewrite J1; auto.
    + apply IHJ; auto. inversion Hs; auto.
Qed.
End Apply.

Lemma leaf_dims h a b : leaf_wf (K:=XR) h LReal a b -> h_rdim h = h_dim h /\ h_tdim h = h_dim h.
Proof. simpl. tauto. Qed.

Lemma adr_mul m : wf m -> forall r out inp x J, diffRetractation m x = Ok J ->
  shape out r (tangentDim m) -> shape inp r (representationDim m) -> finite_m inp ->
  applyDiffRetractation m out inp x = Ok (mmul inp J).
Proof.
  apply (apply_mul DT DR applyDiffRetractation diffRetractation).
  - intros. apply diffRetractation_prod; auto.
  - intros m' x J Hw H. destruct m'; cbn [diffRetractation] in H; destruct (mnf_assert _) eqn:E in H; try discriminate;
      apply mnf_inv, Nat.eqb_eq in E; auto.
  - intros. eapply diffRetractation_shape; eauto.
  - intros. apply applyDiffRetractation_prod; auto.
  - intros h l a b r out inp x J Hw HJ So Si Fi. inversion Hw as [? ? ? ? W|]; subst. pose proof (diffRetractation_shape _ Hw _ _ HJ) as SJ.
    cbn [diffRetractation] in HJ. destruct (mnf_assert _) eqn:E in HJ; [|discriminate]. cbn [bind] in HJ.
    cbn [applyDiffRetractation]. change (representationDim (Leaf h l a b)) with (h_rdim h) in *. change (tangentDim (Leaf h l a b)) with (h_tdim h) in *.
    cbn [getDim] in So, Si. change (representationDim (Leaf h l a b)) with (h_rdim h) in *. change (tangentDim (Leaf h l a b)) with (h_tdim h) in *.
    destruct So as (So1 & So2 & So3). destruct Si as (Si1 & Si2 & Si3). unfold ncols.
    rewrite Si2, So2, Si1, So1, !check_eq by auto. cbn [bind]. rewrite E. cbn [bind].
    destruct SJ as (J1 & J2 & J3).
    destruct l as [| |mp].
    + destruct (leaf_dims h a b W) as [D1 D2]. inversion HJ; subst J. unfold real_copy.
      rewrite (massign_shape _ _ r (h_tdim h)); [|repeat split; auto|repeat split; auto; congruence].
      rewrite D1. rewrite (mmul_ident inp r (h_dim h)); auto. repeat split; auto. congruence.
    + discriminate.
    + simpl in W. destruct W as (_ & T3 & R3 & _). destruct mp.
      * unfold em_applyDiffRetractation. rewrite HJ. unfold ncols. rewrite check_eq by (rewrite Si2; lia). cbn [bind].
        apply (massign_mmul _ _ _ r (h_tdim h)); auto. repeat split; auto.
      * unfold eq_applyDiffRetractation. rewrite HJ. unfold ncols. rewrite check_eq by (rewrite Si2; lia). cbn [bind].
        apply (massign_mmul _ _ _ r (h_tdim h)); auto. repeat split; auto.
Qed.

Lemma adl_mul m : wf m -> forall r out inp x J, diffPseudoLog0 m x = Ok J ->
  shape out r (representationDim m) -> shape inp r (tangentDim m) -> finite_m inp ->
  applyDiffPseudoLog0 m out inp x = Ok (mmul inp J).
Proof.
  apply (apply_mul DR DT applyDiffPseudoLog0 diffPseudoLog0).
  - intros. apply diffPseudoLog0_prod; auto.
  - intros m' x J Hw H. destruct m'; cbn [diffPseudoLog0] in H; destruct (mnf_assert _) eqn:E in H; try discriminate;
      apply mnf_inv, Nat.eqb_eq in E; auto.
  - intros. eapply diffPseudoLog0_shape; eauto.
  - intros. apply applyDiffPseudoLog0_prod; auto.
  - intros h l a b r out inp x J Hw HJ So Si Fi. inversion Hw as [? ? ? ? W|]; subst. pose proof (diffPseudoLog0_shape _ Hw _ _ HJ) as SJ.
    cbn [diffPseudoLog0] in HJ. destruct (mnf_assert _) eqn:E in HJ; [|discriminate]. cbn [bind] in HJ.
    cbn [applyDiffPseudoLog0]. change (representationDim (Leaf h l a b)) with (h_rdim h) in *. change (tangentDim (Leaf h l a b)) with (h_tdim h) in *.
    cbn [getDim] in So, Si. change (representationDim (Leaf h l a b)) with (h_rdim h) in *. change (tangentDim (Leaf h l a b)) with (h_tdim h) in *.
    destruct So as (So1 & So2 & So3). destruct Si as (Si1 & Si2 & Si3). unfold ncols.
    rewrite Si2, So2, Si1, So1, !check_eq by auto. cbn [bind]. rewrite E. cbn [bind].
    destruct SJ as (J1 & J2 & J3).
    destruct l as [| |mp].
    + destruct (leaf_dims h a b W) as [D1 D2]. inversion HJ; subst J. unfold real_copy.
      rewrite (massign_shape _ _ r (h_rdim h)); [|repeat split; auto|repeat split; auto; congruence].
      rewrite D1. rewrite (mmul_ident inp r (h_dim h)); auto. repeat split; auto. congruence.
    + discriminate.
    + simpl in W. destruct W as (_ & T3 & R3 & _). destruct mp.
      * unfold em_applyDiffPseudoLog0. rewrite HJ. unfold ncols. rewrite check_eq by (rewrite Si2; lia). cbn [bind].
        apply (massign_mmul _ _ _ r (h_rdim h)); auto. repeat split; auto.
      * unfold eq_applyDiffPseudoLog0. rewrite HJ. unfold ncols. rewrite check_eq by (rewrite Si2; lia). cbn [bind].
        apply (massign_mmul _ _ _ r (h_rdim h)); auto. repeat split; auto.
Qed.

(** The Jacobians exist on every tree without a sphere. *)
Lemma jac_total (jac : mfd XR -> list XR -> res (mat XR)) :
  (forall h sT sR subs xs J, wf (Prod h sT sR subs) -> pieces DR subs xs ->
    (jac (Prod h sT sR subs) (concat xs) = Ok J <-> exists Js, Forall3 (fun s x B => jac s x = Ok B) subs xs Js /\ J = bdiag Js)) ->
  (forall h l a b x, wf (Leaf h l a b) -> is_s2 (Leaf h l a b) = false -> length x = getDim DR (Leaf h l a b) -> exists J, jac (Leaf h l a b) x = Ok J) ->
  forall m, wf m -> no_s2 m -> forall x, length x = representationDim m -> exists J, jac m x = Ok J.
Proof.
  intros Hp Hl. induction m as [h l a b|h sT sR subs IH] using mfd_ind'; intros Hw Ns x Lx.
  - apply Hl; auto. inversion Ns; auto.
  - destruct (cut_self DR h sT sR subs x Hw Lx) as (xs & -> & Hx).
    assert (exists Js, Forall3 (fun s x B => jac s x = Ok B) subs xs Js) as [Js HJ].
    { assert (Hs : Forall wf subs) by (inversion Hw; auto). unfold no_s2 in Ns. cbn [leaves] in Ns. clear - IH Hs Hx Ns.
      induction Hx as [|s x ss xs Hx1 Hx2 IHx]; [exists []; constructor|]. cbn [flat_map] in Ns. apply Forall_app in Ns. destruct Ns as [N1 N2].
      inversion IH; inversion Hs; subst. destruct IHx as [Js HJ]; auto. destruct (H1 H5 N1 x Hx1) as [J E]. exists (J :: Js). constructor; auto. }
    exists (bdiag Js). apply Hp; eauto.
Qed.
Lemma diffRetractation_total m : wf m -> no_s2 m -> forall x : list XR, length x = representationDim m -> exists J, diffRetractation m x = Ok J.
Proof.
  apply jac_total.
  - intros. apply diffRetractation_prod; auto.
  - intros h l a b x Hw Ns Lx. inversion Hw as [? ? ? ? W|]; subst. cbn [diffRetractation]. cbn [getDim] in Lx. rewrite check_eq by auto. cbn [bind].
    change (representationDim (Leaf h l a b)) with (h_rdim h) in Lx. destruct l as [| |mp]; [eauto|discriminate|].
    simpl in W. destruct W as (_ & T3 & R3 & _). rewrite R3 in Lx. destruct mp.
    + unfold em_diffRetractation. do 9 (destruct x as [|? x]; [discriminate|]). destruct x; [|discriminate]. cbn. eauto.
    + unfold eq_diffRetractation. destruct (quat_read_len x Lx) as [q E]. rewrite E. cbn [bind]. eauto.
Qed.
Lemma diffPseudoLog0_total m : wf m -> no_s2 m -> forall x : list XR, length x = representationDim m -> exists J, diffPseudoLog0 m x = Ok J.
Proof.
  apply jac_total.
  - intros. apply diffPseudoLog0_prod; auto.
  - intros h l a b x Hw Ns Lx. inversion Hw as [? ? ? ? W|]; subst. cbn [diffPseudoLog0]. cbn [getDim] in Lx. rewrite check_eq by auto. cbn [bind].
    change (representationDim (Leaf h l a b)) with (h_rdim h) in Lx. destruct l as [| |mp]; [eauto|discriminate|].
    simpl in W. destruct W as (_ & T3 & R3 & _). rewrite R3 in Lx. destruct mp.
    + do 9 (destruct x as [|? x]; [discriminate|]). destruct x; [|discriminate]. unfold em_diffPseudoLog0. eauto.
    + unfold eq_diffPseudoLog0. destruct (quat_read_len x Lx) as [q E]. rewrite E. cbn [bind]. destruct (_ && _)%bool; eauto.
Qed.
