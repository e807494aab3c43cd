(** The result of a vector operation does not depend on the previous content of its output. *)
From Coq Require Import List Arith Bool ZArith Lia.
From Verif Require Import Base Scalar Vec Model_Real Model_S2 Model_SO3 Model_Manifold Spec Layout Comp.
Import ListNotations.

Section Indep.
Context {K : Type} {SK : Scalar K}.
Implicit Types (p m : mfd K) (fs subs pre post : list (mfd K)).

Lemma assign_indep {A} (o o' v : list A) : List.length o = List.length o' -> assign o v = assign o' v.
Proof. intros H. unfold assign. rewrite H. reflexivity. Qed.

Lemma raw_write_indep {A} (o o' v : list A) n : List.length o = n -> List.length o' = n ->
  List.length v = n -> raw_write o v = raw_write o' v.
Proof. intros H H' Hv. rewrite !raw_write_ok by congruence. reflexivity. Qed.

Lemma quat_read_len (o : vec K) : List.length o = 4 -> exists q, quat_read o = Ok q.
Proof. destruct o as [|? [|? [|? [|? [|? ?]]]]]; simpl; intros; try discriminate. unfold quat_read, raw_read; simpl. eauto. Qed.

Lemma em_logarithm_indep (o o' : vec K) R : List.length o = List.length o' -> em_logarithm o R = em_logarithm o' R.
Proof. intros H. unfold em_logarithm. destruct (_ <? _)%k; apply assign_indep; auto. Qed.
Lemma eq_logarithm_indep (o o' : vec K) R : List.length o = List.length o' -> eq_logarithm o R = eq_logarithm o' R.
Proof. intros H. unfold eq_logarithm. destruct (_ && _); apply assign_indep; auto. Qed.

Lemma evalA_ext {A} (op : mfd K -> vec K -> A -> res (vec K)) D subs outs outs' args :
  pieces D subs outs -> pieces D subs outs' ->
  (forall s o o' a, In s subs -> List.length o = getDim D s -> List.length o' = List.length o -> op s o a = op s o' a) ->
  evalA op subs outs args = evalA op subs outs' args.
Proof.
  intros H; revert outs' args; induction H as [|s o ss os Ho Hs IH]; intros outs' args H' Hop;
    inversion H' as [|? o' ? os' Ho' Hs']; subst; auto.
  destruct args as [|a args]; simpl; auto.
  rewrite (Hop s o o' a) by (simpl; auto; congruence).
  rewrite (IH os' args); auto. intros. apply Hop; simpl; auto.
Qed.



Ltac step_chk := match goal with
  | |- (_ <- ?e ;; _) = (_ <- ?e ;; _) => destruct e eqn:?; cbn [bind]; [|reflexivity] end.
Ltac rd :=
  match goal with H : mnf_assert (?a =? ?b) = Ok _ |- _ =>
    let E := fresh "E" in destruct (a =? b) eqn:E; [apply Nat.eqb_eq in E; clear H|discriminate H] end.
Ltac start Hl := rewrite <- ?Hl; repeat step_chk; repeat rd.
Ltac quat_out o o' :=
  let Ho := fresh in let Ho' := fresh in
  assert (Ho : List.length o = 4) by lia; assert (Ho' : List.length o' = 4) by lia;
  destruct (quat_read_len o Ho) as [? ->]; destruct (quat_read_len o' Ho') as [? ->]; cbn [bind].
Ltac leaf_dims Hwf := inversion Hwf as [? ? ? ? Hw|]; subst; simpl in Hw;
  unfold representationDim, tangentDim in *; simpl in *.
Ltac use_IH IH Hs := rewrite Forall_forall in IH, Hs; intros; apply IH; auto.
Ltac cutp D v vs Hvs := match goal with
  | E : List.length v = _ , Hr : h_rdim _ = _ |- _ =>
      destruct (cut_pieces D _ v) as (vs & -> & Hvs); [first [exact (eq_trans E Hr)]|]
  | E : List.length v = _ , Hr : h_tdim _ = _ |- _ =>
      destruct (cut_pieces D _ v) as (vs & -> & Hvs); [first [exact (eq_trans E Hr)]|]
  end.

Lemma forceOnM_indep m : wf m -> forall o o' x, List.length o = List.length o' ->
  forceOnM m o x = forceOnM m o' x.
Proof.
  induction m as [h l a b|h sT sR subs IH] using mfd_ind'; intros Hwf o o' x Hl; cbn [forceOnM].
  - start Hl.
    leaf_dims Hwf.
    destruct l as [| |[|]]; simpl in Hw; unfold real_forceOnM, s2_forceOnM, em_forceOnM, eq_forceOnM, quat_write; cbn [bind]; rewrite <- ?Hl; repeat step_chk;
      try reflexivity; try (apply assign_indep; assumption);
      try (apply em_logarithm_indep; assumption); try (apply eq_logarithm_indep; assumption);
      try (quat_out o o'); try (eapply raw_write_indep with (n := 9); solve [lia|reflexivity]);
      try (eapply raw_write_indep with (n := 4); solve [lia|reflexivity]).
  - start Hl. pose proof Hwf as Hwf'. inversion Hwf' as [|? ? ? ? Hd Ht Hr HT HR Hs]; subst.
    assert (El : List.length o' = List.length o) by auto.
    destruct (cut_pieces DR subs o) as (os & -> & Hos); [match goal with E : List.length o = representationDim _ |- _ => exact (eq_trans E Hr) | E : List.length o = tangentDim _ |- _ => exact (eq_trans E Hr) end|].
    destruct (cut_pieces DR subs o') as (os' & -> & Hos'); [rewrite El; exact (pieces_length _ _ _ Hos)|].
    destruct (cut_pieces DR subs x) as (xs & -> & Hxs); [match goal with E : List.length x = _ |- _ => exact (eq_trans E Hr) end|].
    rewrite !prod_op1 by eauto using forceOnM_length.
    rewrite (evalA_ext forceOnM DR subs os os'); auto. use_IH IH Hs.
Qed.

Lemma retractation_indep m : wf m -> forall o o' x v, List.length o = List.length o' ->
  retractation m o x v = retractation m o' x v.
Proof.
  induction m as [h l a b|h sT sR subs IH] using mfd_ind'; intros Hwf o o' x v Hl; cbn [retractation].
  - start Hl.
    leaf_dims Hwf.
    destruct l as [| |[|]]; simpl in Hw; unfold real_retractation, s2_retractation, em_retractation, eq_retractation, eq_retractation_at, quat_write; cbn [bind]; rewrite <- ?Hl; repeat step_chk;
      try reflexivity; try (apply assign_indep; assumption);
      try (apply em_logarithm_indep; assumption); try (apply eq_logarithm_indep; assumption);
      try (quat_out o o'); try (eapply raw_write_indep with (n := 9); solve [lia|reflexivity]);
      try (eapply raw_write_indep with (n := 4); solve [lia|reflexivity]).
  - start Hl. pose proof Hwf as Hwf'. inversion Hwf' as [|? ? ? ? Hd Ht Hr HT HR Hs]; subst.
    assert (El : List.length o' = List.length o) by auto.
    destruct (cut_pieces DR subs o) as (os & -> & Hos); [match goal with E : List.length o = representationDim _ |- _ => exact (eq_trans E Hr) | E : List.length o = tangentDim _ |- _ => exact (eq_trans E Hr) end|].
    destruct (cut_pieces DR subs o') as (os' & -> & Hos'); [rewrite El; exact (pieces_length _ _ _ Hos)|].
    destruct (cut_pieces DR subs x) as (xs & -> & Hxs); [match goal with E : List.length x = _ |- _ => exact (eq_trans E Hr) end|].
    destruct (cut_pieces DT subs v) as (vs & -> & Hvs); [match goal with E : List.length v = _ |- _ => exact (eq_trans E Ht) end|].
    rewrite !prod_op2 by eauto using retractation_length.
    rewrite (evalA_ext (fun s o a => retractation s o (fst a) (snd a)) DR subs os os'); auto. use_IH IH Hs.
Qed.

Lemma pseudoLog_indep m : wf m -> forall o o' x v, List.length o = List.length o' ->
  pseudoLog m o x v = pseudoLog m o' x v.
Proof.
  induction m as [h l a b|h sT sR subs IH] using mfd_ind'; intros Hwf o o' x v Hl; cbn [pseudoLog].
  - start Hl.
    leaf_dims Hwf.
    destruct l as [| |[|]]; simpl in Hw; unfold real_pseudoLog, s2_pseudoLog, s2_logarithm, em_pseudoLog, eq_pseudoLog; cbn [bind]; rewrite <- ?Hl; repeat step_chk;
      try reflexivity; try (apply assign_indep; assumption);
      try (apply em_logarithm_indep; assumption); try (apply eq_logarithm_indep; assumption);
      try (quat_out o o'); try (eapply raw_write_indep with (n := 9); solve [lia|reflexivity]);
      try (eapply raw_write_indep with (n := 4); solve [lia|reflexivity]).
  - start Hl. pose proof Hwf as Hwf'. inversion Hwf' as [|? ? ? ? Hd Ht Hr HT HR Hs]; subst.
    assert (El : List.length o' = List.length o) by auto.
    destruct (cut_pieces DT subs o) as (os & -> & Hos); [match goal with E : List.length o = representationDim _ |- _ => exact (eq_trans E Ht) | E : List.length o = tangentDim _ |- _ => exact (eq_trans E Ht) end|].
    destruct (cut_pieces DT subs o') as (os' & -> & Hos'); [rewrite El; exact (pieces_length _ _ _ Hos)|].
    destruct (cut_pieces DR subs x) as (xs & -> & Hxs); [match goal with E : List.length x = _ |- _ => exact (eq_trans E Hr) end|].
    destruct (cut_pieces DR subs v) as (vs & -> & Hvs); [match goal with E : List.length v = _ |- _ => exact (eq_trans E Hr) end|].
    rewrite !prod_op2 by eauto using pseudoLog_length.
    rewrite (evalA_ext (fun s o a => pseudoLog s o (fst a) (snd a)) DT subs os os'); auto. use_IH IH Hs.
Qed.

Lemma pseudoLog0_indep m : wf m -> forall o o' x, List.length o = List.length o' ->
  pseudoLog0 m o x = pseudoLog0 m o' x.
Proof.
  induction m as [h l a b|h sT sR subs IH] using mfd_ind'; intros Hwf o o' x Hl; cbn [pseudoLog0].
  - start Hl.
    leaf_dims Hwf.
    destruct l as [| |[|]]; simpl in Hw; unfold real_pseudoLog0, em_pseudoLog0, eq_pseudoLog0; cbn [bind]; rewrite <- ?Hl; repeat step_chk;
      try reflexivity; try (apply assign_indep; assumption);
      try (apply em_logarithm_indep; assumption); try (apply eq_logarithm_indep; assumption);
      try (quat_out o o'); try (eapply raw_write_indep with (n := 9); solve [lia|reflexivity]);
      try (eapply raw_write_indep with (n := 4); solve [lia|reflexivity]).
  - start Hl. pose proof Hwf as Hwf'. inversion Hwf' as [|? ? ? ? Hd Ht Hr HT HR Hs]; subst.
    assert (El : List.length o' = List.length o) by auto.
    destruct (cut_pieces DT subs o) as (os & -> & Hos); [match goal with E : List.length o = representationDim _ |- _ => exact (eq_trans E Ht) | E : List.length o = tangentDim _ |- _ => exact (eq_trans E Ht) end|].
    destruct (cut_pieces DT subs o') as (os' & -> & Hos'); [rewrite El; exact (pieces_length _ _ _ Hos)|].
    destruct (cut_pieces DR subs x) as (xs & -> & Hxs); [match goal with E : List.length x = _ |- _ => exact (eq_trans E Hr) end|].
    rewrite !prod_op1 by eauto using pseudoLog0_length.
    rewrite (evalA_ext pseudoLog0 DT subs os os'); auto. use_IH IH Hs.
Qed.

Lemma setZero_indep m : wf m -> forall o o' , List.length o = List.length o' ->
  setZero m o  = setZero m o' .
Proof.
  induction m as [h l a b|h sT sR subs IH] using mfd_ind'; intros Hwf o o'  Hl; cbn [setZero].
  - start Hl.
    leaf_dims Hwf.
    destruct l as [| |[|]]; simpl in Hw; unfold real_setZero, s2_setZero, em_setZero, eq_setZero, quat_write; cbn [bind]; rewrite <- ?Hl; repeat step_chk;
      try reflexivity; try (apply assign_indep; assumption);
      try (apply em_logarithm_indep; assumption); try (apply eq_logarithm_indep; assumption);
      try (quat_out o o'); try (eapply raw_write_indep with (n := 9); solve [lia|reflexivity]);
      try (eapply raw_write_indep with (n := 4); solve [lia|reflexivity]).
  - start Hl. pose proof Hwf as Hwf'. inversion Hwf' as [|? ? ? ? Hd Ht Hr HT HR Hs]; subst.
    assert (El : List.length o' = List.length o) by auto.
    destruct (cut_pieces DR subs o) as (os & -> & Hos); [match goal with E : List.length o = representationDim _ |- _ => exact (eq_trans E Hr) | E : List.length o = tangentDim _ |- _ => exact (eq_trans E Hr) end|].
    destruct (cut_pieces DR subs o') as (os' & -> & Hos'); [rewrite El; exact (pieces_length _ _ _ Hos)|].
    rewrite !prod_op0 by eauto using setZero_length.
    rewrite (evalA_ext (fun s o (_ : unit) => setZero s o) DR subs os os'); auto. use_IH IH Hs.
Qed.

Lemma forceOnTxM_indep m : wf m -> forall o o' w x, List.length o = List.length o' ->
  forceOnTxM m o w x = forceOnTxM m o' w x.
Proof.
  induction m as [h l a b|h sT sR subs IH] using mfd_ind'; intros Hwf o o' w x Hl; cbn [forceOnTxM].
  - start Hl.
    leaf_dims Hwf.
    destruct l as [| |[|]]; simpl in Hw; unfold real_forceOnTxM, s2_forceOnTxM, so3_forceOnTxM; cbn [bind]; rewrite <- ?Hl; repeat step_chk;
      try reflexivity; try (apply assign_indep; assumption);
      try (apply em_logarithm_indep; assumption); try (apply eq_logarithm_indep; assumption);
      try (quat_out o o'); try (eapply raw_write_indep with (n := 9); solve [lia|reflexivity]);
      try (eapply raw_write_indep with (n := 4); solve [lia|reflexivity]).
  - start Hl. pose proof Hwf as Hwf'. inversion Hwf' as [|? ? ? ? Hd Ht Hr HT HR Hs]; subst.
    assert (El : List.length o' = List.length o) by auto.
    destruct (cut_pieces DT subs o) as (os & -> & Hos); [match goal with E : List.length o = representationDim _ |- _ => exact (eq_trans E Ht) | E : List.length o = tangentDim _ |- _ => exact (eq_trans E Ht) end|].
    destruct (cut_pieces DT subs o') as (os' & -> & Hos'); [rewrite El; exact (pieces_length _ _ _ Hos)|].
    destruct (cut_pieces DT subs w) as (ws & -> & Hws); [match goal with E : List.length w = _ |- _ => exact (eq_trans E Ht) end|].
    destruct (cut_pieces DR subs x) as (xs & -> & Hxs); [match goal with E : List.length x = _ |- _ => exact (eq_trans E Hr) end|].
    rewrite !prod_op2 by eauto using forceOnTxM_length.
    rewrite (evalA_ext (fun s o a => forceOnTxM s o (fst a) (snd a)) DT subs os os'); auto. use_IH IH Hs.
Qed.

Lemma limitMap_indep m : wf m -> forall o o' , List.length o = List.length o' ->
  limitMap m o  = limitMap m o' .
Proof.
  induction m as [h l a b|h sT sR subs IH] using mfd_ind'; intros Hwf o o'  Hl; cbn [limitMap].
  - start Hl.
    leaf_dims Hwf.
    destruct l as [| |[|]]; simpl in Hw; unfold real_limitMap, s2_limitMap, so3_limitMap; cbn [bind]; rewrite <- ?Hl; repeat step_chk;
      try reflexivity; try (apply assign_indep; assumption);
      try (apply em_logarithm_indep; assumption); try (apply eq_logarithm_indep; assumption);
      try (quat_out o o'); try (eapply raw_write_indep with (n := 9); solve [lia|reflexivity]);
      try (eapply raw_write_indep with (n := 4); solve [lia|reflexivity]).
  - start Hl. pose proof Hwf as Hwf'. inversion Hwf' as [|? ? ? ? Hd Ht Hr HT HR Hs]; subst.
    assert (El : List.length o' = List.length o) by auto.
    destruct (cut_pieces DT subs o) as (os & -> & Hos); [match goal with E : List.length o = representationDim _ |- _ => exact (eq_trans E Ht) | E : List.length o = tangentDim _ |- _ => exact (eq_trans E Ht) end|].
    destruct (cut_pieces DT subs o') as (os' & -> & Hos'); [rewrite El; exact (pieces_length _ _ _ Hos)|].
    rewrite !prod_op0 by eauto using limitMap_length.
    rewrite (evalA_ext (fun s o (_ : unit) => limitMap s o) DT subs os os'); auto. use_IH IH Hs.
Qed.

Lemma getTypicalMagnitude_indep m : wf m -> forall o o' , List.length o = List.length o' ->
  getTypicalMagnitude m o  = getTypicalMagnitude m o' .
Proof.
  induction m as [h l a b|h sT sR subs IH] using mfd_ind'; intros Hwf o o'  Hl; cbn [getTypicalMagnitude].
  - start Hl.
    apply assign_indep; assumption.
  - start Hl. pose proof Hwf as Hwf'. inversion Hwf' as [|? ? ? ? Hd Ht Hr HT HR Hs]; subst.
    assert (El : List.length o' = List.length o) by auto.
    destruct (cut_pieces DT subs o) as (os & -> & Hos); [match goal with E : List.length o = representationDim _ |- _ => exact (eq_trans E Ht) | E : List.length o = tangentDim _ |- _ => exact (eq_trans E Ht) end|].
    destruct (cut_pieces DT subs o') as (os' & -> & Hos'); [rewrite El; exact (pieces_length _ _ _ Hos)|].
    rewrite !prod_op0 by eauto using getTypicalMagnitude_length.
    rewrite (evalA_ext (fun s o (_ : unit) => getTypicalMagnitude s o) DT subs os os'); auto. use_IH IH Hs.
Qed.

Lemma getTrustMagnitude_indep m : wf m -> forall o o' , List.length o = List.length o' ->
  getTrustMagnitude m o  = getTrustMagnitude m o' .
Proof.
  induction m as [h l a b|h sT sR subs IH] using mfd_ind'; intros Hwf o o'  Hl; cbn [getTrustMagnitude].
  - start Hl.
    apply assign_indep; assumption.
  - start Hl. pose proof Hwf as Hwf'. inversion Hwf' as [|? ? ? ? Hd Ht Hr HT HR Hs]; subst.
    assert (El : List.length o' = List.length o) by auto.
    destruct (cut_pieces DT subs o) as (os & -> & Hos); [match goal with E : List.length o = representationDim _ |- _ => exact (eq_trans E Ht) | E : List.length o = tangentDim _ |- _ => exact (eq_trans E Ht) end|].
    destruct (cut_pieces DT subs o') as (os' & -> & Hos'); [rewrite El; exact (pieces_length _ _ _ Hos)|].
    rewrite !prod_op0 by eauto using getTrustMagnitude_length.
    rewrite (evalA_ext (fun s o (_ : unit) => getTrustMagnitude s o) DT subs os os'); auto. use_IH IH Hs.
Qed.

End Indep.
