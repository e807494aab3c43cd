(** NaN and infinities: which slices of the arguments are finite when a call returns. *)
From Coq Require Import Reals List Permutation Lra Lia ZArith Bool Arith.
From Flocq Require Import Core BinarySingleNaN.
From Verif Require Import Base Scalar Vec Model_Real Model_S2 Model_SO3 Model_Manifold Spec Layout Comp Flat Points TanLeaf XR F64 F64Tree.
Import ListNotations.

(** An operation whose result is finite had finite operands; a comparison |a| < b or sqrt a < b that holds has a finite a. *)
Record finite_laws {K} {SK : Scalar K} (P : K -> Prop) : Prop := {
  fl_add : forall a b, P (a + b)%k -> P a /\ P b;
  fl_sum : forall l, P (ksum l) -> Forall P l;
  fl_sub : forall a b, P (a - b)%k -> P a /\ P b;
  fl_mul : forall a b, P (a * b)%k -> P a /\ P b;
  fl_sqrt : forall a, P (ksqrt a) -> P a;
  fl_abs_lt : forall a b, (kabs a <? b)%k = true -> P a;
  fl_sqrt_lt : forall a b, (ksqrt a <? b)%k = true -> P a }.

(** Finite real numbers of the exact arithmetic. *)
Definition isfin (a : XR) : Prop := exists r, a = Fin r.
Lemma xr_laws : finite_laws isfin.
Proof.
  constructor.
  - intros [x| |] [y| |] [r H]; cbn in H; try discriminate; split; eexists; reflexivity.
  - assert (A : forall a b, isfin (xadd a b) -> isfin a /\ isfin b) by (intros [x| |] [y| |] [r H]; cbn in H; try discriminate; split; eexists; reflexivity).
    assert (B : forall l a, isfin (fold_left xadd l a) -> isfin a /\ Forall isfin l).
    { induction l as [|b l IH]; intros a H; cbn [fold_left] in H; auto. apply IH in H as [H G]. apply A in H as [H1 H2]. auto. }
    intros [|a l] H; auto. apply B in H as [H1 H2]. auto.
  - intros [x| |] [y| |] [r H]; cbn in H; try discriminate; split; eexists; reflexivity.
  - intros [x| |] [y| |] [r H]; cbn in H; try discriminate; split; eexists; reflexivity.
  - intros [x| |] [r H]; cbn in H; try discriminate; eexists; reflexivity.
  - intros [x| |] [y| |] H; cbn in H; try discriminate; eexists; reflexivity.
  - intros [x| |] [y| |] H; cbn in H; try discriminate; eexists; reflexivity.
Qed.
(** Finite doubles. *)
Lemma add_f (a b : f64) : isf (Bplus mode_NE a b) -> isf a /\ isf b.
Proof. revert a b. intros [s|s| |s m e H] [s'|s'| |s' m' e' H'] G; try (split; reflexivity); exfalso; cbn in G; try discriminate G; repeat match goal with b : bool |- _ => destruct b; try discriminate G end. Qed.
Lemma sums_fin l s : sums l s -> isf s -> Forall isf l.
Proof.
  induction 1 as [a|l1 l2 l a b _ I1 _ I2 P]; intros F; auto. apply add_f in F as [F1 F2]. apply (Permutation_Forall P). apply Forall_app. auto.
Qed.
Lemma f64_laws L : @finite_laws f64 (F64 L) isf.
Proof.
  constructor.
  - apply add_f.
  - intros [|a l] H; auto. eapply sums_fin; [apply (f_sum_ok L); discriminate|exact H].
  - intros [s|s| |s m e H] [s'|s'| |s' m' e' H'] G; try (split; reflexivity); exfalso; cbn in G; try discriminate G; repeat match goal with b : bool |- _ => destruct b; try discriminate G end.
  - intros [s|s| |s m e H] [s'|s'| |s' m' e' H'] G; try (split; reflexivity); exfalso; cbn in G; try discriminate G; repeat match goal with b : bool |- _ => destruct b; try discriminate G end.
  - intros [s|s| |s m e H] G; try reflexivity; exfalso; cbn in G; try discriminate G; repeat match goal with b : bool |- _ => destruct b; try discriminate G end.
  - intros [s|s| |s m e H] [s'|s'| |s' m' e' H'] G; try reflexivity; exfalso; cbn in G; try discriminate G; repeat match goal with b : bool |- _ => destruct b; try discriminate G end.
  - intros [s|s| |s m e H] [s'|s'| |s' m' e' H'] G; try reflexivity; exfalso; cbn in G; try discriminate G; repeat match goal with b : bool |- _ => destruct b; try discriminate G end.
Qed.

Section Finite.
Context {K : Type} {SK : Scalar K} (P : K -> Prop) (FL : finite_laws P).
Implicit Types (m s : mfd K).

Lemma dot_fin_inv (x y : vec K) : length x = length y -> P (dot x y) -> Forall P x /\ Forall P y.
Proof.
  intros L H. apply (fl_sum _ FL) in H. revert y L H. induction x as [|a x IH]; intros [|b y] L H; try discriminate; auto. cbn [map2] in H.
  inversion H as [|? ? H1 H2]; subst. apply (fl_mul _ FL) in H1 as [A2 A3]. destruct (IH y ltac:(now injection L) H2). auto.
Qed.
Lemma det_fin (A : m3 K) : P (m3_det A) -> Forall P (m3_to_list A).
Proof.
  unfold m3_det. intros H.
  repeat match goal with
  | H : P (_ + _)%k |- _ => apply (fl_add _ FL) in H as [? ?]
  | H : P (_ - _)%k |- _ => apply (fl_sub _ FL) in H as [? ?]
  | H : P (_ * _)%k |- _ => apply (fl_mul _ FL) in H as [? ?]
  end.
  repeat constructor; auto.
Qed.

Definition finite_slice s (x : vec K) : Prop := match s with Leaf _ LReal _ _ => True | _ => Forall P x end.
Lemma leaf_isInM h l a b x p : leaf_wf h l a b -> isInM (Leaf h l a b) x p = Ok true -> finite_slice (Leaf h l a b) x.
Proof.
  intros W H. cbn [isInM] in H. destruct (mnf_assert _) eqn:E; [|discriminate]. cbn [bind] in H. destruct l as [| |[|]]; cbn [finite_slice]; auto.
  - injection H as H. unfold s2_isInM in H. apply (fl_abs_lt _ FL) in H. apply (fl_sub _ FL) in H as [H _]. apply (fl_sqrt _ FL) in H.
    apply dot_fin_inv in H; tauto.
  - unfold em_isInM in H. destruct (m3_read x) as [M|] eqn:R; [|discriminate]. cbn [bind] in H. injection H as H.
    apply andb_prop in H as [H _]. apply andb_prop in H as [L H]. apply (fl_abs_lt _ FL) in H. apply (fl_sub _ FL) in H as [H _]. apply det_fin in H.
    destruct x as [|? [|? [|? [|? [|? [|? [|? [|? [|? [|]]]]]]]]]]; try discriminate L. injection R as <-. exact H.
  - unfold eq_isInM in H. destruct (quat_read x) as [q|] eqn:R; [|discriminate]. cbn [bind] in H. injection H as H.
    apply andb_prop in H as [L H]. apply (fl_abs_lt _ FL) in H. apply (fl_sub _ FL) in H as [H _]. apply (fl_sqrt _ FL) in H.
    destruct x as [|? [|? [|? [|? [|]]]]]; try discriminate L. injection R as <-. unfold qsqnorm, sqnorm in H. apply dot_fin_inv in H; auto. destruct H as [H _].
    rewrite Forall_forall in H |- *. intros z Hz. apply H. cbn in Hz |- *. tauto.
Qed.

(** What a tangency test that holds says of an S2 slice; nothing of the other slices. *)
Definition finite_tan s (x v : vec K) : Prop := match s with Leaf _ LS2 _ _ => Forall P x /\ Forall P v | _ => True end.
Lemma leaf_isInTxM h l a b x v p : leaf_wf h l a b -> isInTxM (Leaf h l a b) x v p = Ok true -> finite_tan (Leaf h l a b) x v.
Proof.
  intros W H. cbn [isInTxM] in H. destruct (mnf_assert (length v =? _)) eqn:E; [|discriminate]. cbn [bind] in H.
  destruct (mnf_assert (length x =? _)) eqn:E'; [|discriminate]. cbn [bind] in H. destruct l as [| |[|]]; cbn [finite_tan]; auto.
  injection H as H. unfold s2_isInTxM in H. apply (fl_abs_lt _ FL) in H. apply dot_fin_inv in H; auto.
  unfold mnf_assert, tangentDim, representationDim in *. cbn [hdr_of] in *. destruct W as (_ & W2 & W3 & _).
  destruct (length v =? _) eqn:A in E; [|discriminate]. destruct (length x =? _) eqn:B in E'; [|discriminate]. apply Nat.eqb_eq in A, B. lia.
Qed.
(** What an accepted retraction says: S2 slices of point and vector, SO3 slices of the vector. *)
Definition finite_retr s (x v : vec K) : Prop :=
  match s with Leaf _ LS2 _ _ => Forall P x /\ Forall P v | Leaf _ (LSO3 _) _ _ => Forall P v | _ => True end.
Lemma leaf_retr_fin h l a b o x v r : leaf_wf h l a b -> retractation (Leaf h l a b) o x v = Ok r -> finite_retr (Leaf h l a b) x v.
Proof.
  intros W H. pose proof (retractation_ok_inTxM _ _ _ _ _ H) as T. apply leaf_isInTxM in T; auto.
  destruct l as [| |[|]]; cbn [finite_retr finite_tan] in *; auto; cbn [retractation] in H;
    do 4 (match type of H with bind ?e _ = _ => destruct e; [|discriminate]; cbn [bind] in H end);
    match type of H with bind ?e _ = _ => destruct e; [|discriminate]; cbn [bind] in H end.
  - unfold em_retractation in H. destruct (em_exponential v) as [E|] eqn:X; [|discriminate]. unfold em_exponential in X.
    destruct v as [|p [|q [|t [|]]]]; try discriminate. destruct (mnf_assert _) eqn:M in X; [|discriminate]. unfold mnf_assert in M.
    destruct (ksqrt _ <? _)%k eqn:C in M; [|discriminate]. apply (fl_sqrt_lt _ FL) in C. unfold sqnorm in C. apply dot_fin_inv in C; tauto.
  - unfold eq_retractation, eq_retractation_at in H. destruct (eq_exponential _ v) as [E|] eqn:X; [|discriminate]. unfold eq_exponential in X.
    destruct v as [|p [|q [|t [|]]]]; try discriminate. destruct (mnf_assert _) eqn:M in X; [|discriminate]. unfold mnf_assert in M.
    destruct (ksqrt _ <? _)%k eqn:C in M; [|discriminate]. apply (fl_sqrt_lt _ FL) in C. unfold sqnorm in C. apply dot_fin_inv in C; tauto.
Qed.
(** What an accepted forceOnM says: matrix slices. *)
Definition finite_force s (x : vec K) : Prop := match s with Leaf _ (LSO3 MapMatrix) _ _ => Forall P x | _ => True end.
Lemma leaf_force_fin h l a b o x r : leaf_wf h l a b -> forceOnM (Leaf h l a b) o x = Ok r -> finite_force (Leaf h l a b) x.
Proof.
  intros W H. destruct l as [| |[|]]; cbn [finite_force]; auto. cbn [forceOnM] in H.
  destruct (mnf_assert (length o =? _)) eqn:E0; [|discriminate]. cbn [bind] in H.
  destruct (mnf_assert (length x =? _)) eqn:E; [|discriminate]. cbn [bind] in H.
  unfold em_forceOnM in H. destruct (m3_read x) as [M|] eqn:R; [|discriminate]. cbn [bind] in H.
  destruct (mnf_assert (_ && _)) eqn:C; [|discriminate]. unfold mnf_assert in C. destruct (_ && _) eqn:D; [|discriminate].
  apply andb_prop in D as [_ D]. apply (fl_abs_lt _ FL) in D. apply (fl_sub _ FL) in D as [D _]. apply det_fin in D.
  unfold mnf_assert in E. destruct (length x =? _) eqn:L; [|discriminate]. apply Nat.eqb_eq in L. unfold representationDim in L. cbn [hdr_of] in L. destruct W as (_ & _ & W3 & _). rewrite W3 in L.
  destruct x as [|? [|? [|? [|? [|? [|? [|? [|? [|? [|]]]]]]]]]]; try discriminate L. injection R as <-. exact D.
Qed.

(** *** Trees *)
Lemma tree_isInM m xs p : wf m -> pieces DR (leaves m) xs -> isInM m (concat xs) p = Ok true -> Forall2 finite_slice (leaves m) xs.
Proof.
  intros W Hp H.
  assert (F : exists q, Forall2 (fun s x => isInM s x q = Ok true) (leaves m) xs).
  { destruct m as [h l a b|h sT sR subs].
    - exists p. apply (isInM_leaves (Leaf h l a b)); cbn; auto.
    - exists default_prec. apply (isInM_leaves (Prod h sT sR subs)); auto. }
  destruct F as [q F]. pose proof (fun s => leaf_inv_gen m s W) as G.
  clear - F G FL. induction F as [|s x ls xs Hs F IH]; constructor.
  - destruct (G s) as (h & l & a & b & -> & Wl); [simpl; auto|]. eapply leaf_isInM; eauto.
  - apply IH. intros; apply G; simpl; auto.
Qed.
Lemma tree_isInTxM m xs vs p : wf m -> pieces DR (leaves m) xs -> pieces DT (leaves m) vs ->
  isInTxM m (concat xs) (concat vs) p = Ok true -> Forall3 finite_tan (leaves m) xs vs.
Proof.
  intros W Hx Hv H. apply isInTxM_leaves in H; auto. pose proof (fun s => leaf_inv_gen m s W) as G.
  clear - H G FL. induction H as [|s x v ls xs vs Hs F IH]; constructor.
  - destruct (G s) as (h & l & a & b & -> & Wl); [simpl; auto|]. eapply leaf_isInTxM; eauto.
  - apply IH. intros; apply G; simpl; auto.
Qed.
Lemma tree_retr m os xs vs y : wf m -> pieces DR (leaves m) os -> pieces DR (leaves m) xs -> pieces DT (leaves m) vs ->
  retractation m (concat os) (concat xs) (concat vs) = Ok y -> Forall3 finite_retr (leaves m) xs vs.
Proof.
  intros W Ho Hx Hv H. apply (flat_op DR DR DT retractation retractation_prod m W) in H; auto. destruct H as (ys & _ & H).
  pose proof (fun s => leaf_inv_gen m s W) as G.
  clear - H G FL. induction H as [|s o x v r ls os xs vs rs Hs F IH]; constructor.
  - destruct (G s) as (h & l & a & b & -> & Wl); [simpl; auto|]. eapply leaf_retr_fin; eauto.
  - apply IH. intros; apply G; simpl; auto.
Qed.
Lemma tree_force m os xs y : wf m -> pieces DR (leaves m) os -> pieces DR (leaves m) xs ->
  forceOnM m (concat os) (concat xs) = Ok y -> Forall2 finite_force (leaves m) xs.
Proof.
  intros W Ho Hx H. apply (flat_op1 DR DR forceOnM forceOnM_prod m W) in H; auto. destruct H as (ys & _ & H).
  pose proof (fun s => leaf_inv_gen m s W) as G.
  clear - H G FL. induction H as [|s o x r ls os xs rs Hs F IH]; constructor.
  - destruct (G s) as (h & l & a & b & -> & Wl); [simpl; auto|]. eapply leaf_force_fin; eauto.
  - apply IH. intros; apply G; simpl; auto.
Qed.
End Finite.
