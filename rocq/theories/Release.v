(** The release build against the debug build: what the debug build returns, the release build returns. *)
From Coq Require Import List Arith Bool ZArith Lia.
From Verif Require Import Base Scalar Vec Model_Real Model_S2 Model_SO3 Model_Manifold Model_Release Spec Layout Comp.
Import ListNotations.

Definition le {A} (r r' : res A) : Prop := forall a, r = Ok a -> r' = Ok a.
Lemma le_refl {A} (r : res A) : le r r. Proof. intros a H; exact H. Qed.
Lemma le_bind {A B} (r r' : res A) (f f' : A -> res B) : le r r' -> (forall a, le (f a) (f' a)) -> le (bind r f) (bind r' f').
Proof. intros H G b E. destruct r as [a|]; [|discriminate]. rewrite (H a eq_refl). apply G. exact E. Qed.
Lemma le_skip {A B} (r : res A) (k : A -> res B) r' : (forall a, le (k a) r') -> le (bind r k) r'.
Proof. intros G b E. destruct r as [a|]; [|discriminate]. apply (G a). exact E. Qed.
Lemma le_check {A} b (k : res A) r' : le k r' -> le (bind (mnf_assert b) (fun _ => k)) r'.
Proof. intros G. apply le_skip. auto. Qed.
Lemma le_loop {A B} (f g : nat -> B -> A -> res A) l : (forall i b a, In b l -> le (f i b a) (g i b a)) ->
  forall i a, le (loop f i l a) (loop g i l a).
Proof.
  induction l as [|b l IH]; intros H i a; [apply le_refl|]. cbn [loop]. apply le_bind; [apply H; simpl; auto|].
  intros a'. apply IH. intros; apply H; simpl; auto.
Qed.

Section Release.
Context {K : Type} {SK : Scalar K}.
Implicit Types (m s : mfd K).

Ltac checks := repeat (apply le_check).
Ltac go := repeat (apply le_refl || (apply le_bind; [|intros ?]) || (apply le_check)).

(** *** Leaves *)
Lemma le_rot (x y : vec K) : le (computeRotBetweenVec x y) (computeRotBetweenVec_r x y).
Proof. unfold computeRotBetweenVec, computeRotBetweenVec_r. go. Qed.
Lemma le_s2_rand (o d : vec K) : le (s2_rand o d) (s2_rand_r o d).
Proof. unfold s2_rand, s2_rand_r. go. Qed.
Lemma le_s2_at (o i : mat K) x y : le (s2_applyTransport o i x y) (s2_applyTransport_r o i x y).
Proof. unfold s2_applyTransport, s2_applyTransport_r. apply le_bind; [apply le_rot|]. intros. go. Qed.
Lemma le_s2_ait (o i : mat K) x y : le (s2_applyInvTransport o i x y) (s2_applyInvTransport_r o i x y).
Proof. unfold s2_applyInvTransport, s2_applyInvTransport_r. apply le_bind; [apply le_rot|]. intros. go. Qed.
Lemma le_s2_aitr (o i : mat K) x y : le (s2_applyInvTransportOnTheRight o i x y) (s2_applyInvTransportOnTheRight_r o i x y).
Proof. unfold s2_applyInvTransportOnTheRight, s2_applyInvTransportOnTheRight_r. apply le_bind; [apply le_rot|]. intros. go. Qed.
Lemma le_em_exp (v : vec K) : le (em_exponential v) (em_exponential_r v).
Proof.
  unfold em_exponential, em_exponential_r. destruct v as [|a [|b [|c [|]]]]; try (intros ? ?; discriminate). checks. apply le_refl.
Qed.
Lemma le_eq_exp q (v : vec K) : le (eq_exponential q v) (eq_exponential_r q v).
Proof.
  unfold eq_exponential, eq_exponential_r. destruct v as [|a [|b [|c [|]]]]; try (intros ? ?; discriminate). checks. apply le_refl.
Qed.
Lemma le_em_retr (o x v : vec K) : le (em_retractation o x v) (em_retractation_r o x v).
Proof. unfold em_retractation, em_retractation_r. apply le_bind; [apply le_em_exp|]. intros; go. Qed.
Lemma le_eq_retr (o x v : vec K) : le (eq_retractation o x v) (eq_retractation_r o x v).
Proof.
  unfold eq_retractation, eq_retractation_r, eq_retractation_at, eq_retractation_at_r.
  apply le_bind; [apply le_eq_exp|]. intros; go.
Qed.
Lemma le_em_force (o x : vec K) : le (em_forceOnM o x) (em_forceOnM_r o x).
Proof. unfold em_forceOnM, em_forceOnM_r. apply le_bind; [apply le_refl|]. intros M. apply le_check. apply le_refl. Qed.
Lemma le_em_adr (o i : mat K) x : le (em_applyDiffRetractation o i x) (em_applyDiffRetractation_r o i x).
Proof. unfold em_applyDiffRetractation. apply le_check. apply le_refl. Qed.
Lemma le_em_adl (o i : mat K) x : le (em_applyDiffPseudoLog0 o i x) (em_applyDiffPseudoLog0_r o i x).
Proof. unfold em_applyDiffPseudoLog0. apply le_check. apply le_refl. Qed.
Lemma le_eq_adr (o i : mat K) x : le (eq_applyDiffRetractation o i x) (eq_applyDiffRetractation_r o i x).
Proof. unfold eq_applyDiffRetractation. apply le_check. apply le_refl. Qed.
Lemma le_eq_adl (o i : mat K) x : le (eq_applyDiffPseudoLog0 o i x) (eq_applyDiffPseudoLog0_r o i x).
Proof. unfold eq_applyDiffPseudoLog0. apply le_check. apply le_refl. Qed.

(** *** Views *)
Lemma le_sub m i : le (subManifold m i) (subManifold_r m i).
Proof. destruct m; unfold subManifold, subManifold_r; apply le_check, le_refl. Qed.
Lemma le_dim D m i : le (getDimSub D m i) (getDimSub_r D m i).
Proof. unfold getDimSub, getDimSub_r. apply le_check. apply le_bind; [apply le_sub|]. intros; apply le_refl. Qed.
Lemma le_start D m i : le (getStart D m i) (getStart_r D m i).
Proof. unfold getStart, getStart_r. apply le_check. destruct m; [apply le_refl|apply le_check, le_refl]. Qed.
Lemma le_range D m l i : le (view_range D m l i) (view_range_r D m l i).
Proof.
  unfold view_range, view_range_r. do 2 apply le_check. apply le_bind; [apply le_start|]. intros a.
  apply le_bind; [apply le_dim|]. intros; apply le_refl.
Qed.
Lemma le_view D m v i : le (getView D m v i) (getView_r D m v i).
Proof. unfold getView, getView_r. apply le_bind; [apply le_range|]. intros [a b]; apply le_refl. Qed.
Lemma le_on_view D m i f g out : (forall o, le (f o) (g o)) -> le (on_view D m i f out) (on_view_r D m i g out).
Proof.
  intros H. unfold on_view, on_view_r. apply le_bind; [apply le_range|]. intros [a b]. apply le_bind; [apply le_refl|]. intros o.
  apply le_bind; [apply H|]. intros; apply le_refl.
Qed.
Lemma le_getCols D m M i : le (getCols D m M i) (getCols_r D m M i).
Proof. unfold getCols, getCols_r. apply le_bind; [apply le_start|]. intros. apply le_bind; [apply le_dim|]. intros; apply le_refl. Qed.
Lemma le_getRows D m M i : le (getRows D m M i) (getRows_r D m M i).
Proof. unfold getRows, getRows_r. apply le_bind; [apply le_start|]. intros. apply le_bind; [apply le_dim|]. intros; apply le_refl. Qed.
Lemma le_on_cols D m i f g out : (forall o, le (f o) (g o)) -> le (on_cols D m i f out) (on_cols_r D m i g out).
Proof.
  intros H. unfold on_cols, on_cols_r. apply le_bind; [apply le_start|]. intros a. apply le_bind; [apply le_dim|]. intros b.
  apply le_bind; [apply le_refl|]. intros o. apply le_bind; [apply H|]. intros; apply le_refl.
Qed.
Lemma le_on_rows D m i f g out : (forall o, le (f o) (g o)) -> le (on_rows D m i f out) (on_rows_r D m i g out).
Proof.
  intros H. unfold on_rows, on_rows_r. apply le_bind; [apply le_start|]. intros a. apply le_bind; [apply le_dim|]. intros b.
  apply le_bind; [apply le_refl|]. intros o. apply le_bind; [apply H|]. intros; apply le_refl.
Qed.
Lemma le_on_block Dr Dc m i j f g out : (forall o, le (f o) (g o)) -> le (on_block Dr Dc m i j f out) (on_block_r Dr Dc m i j g out).
Proof.
  intros H. unfold on_block, on_block_r. do 2 (apply le_bind; [apply le_start|]; intros ?). do 2 (apply le_bind; [apply le_dim|]; intros ?).
  apply le_bind; [apply le_refl|]. intros o. apply le_bind; [apply H|]. intros; apply le_refl.
Qed.

(** *** Members of Manifold *)
Ltac step := first
  [ apply le_refl | apply le_em_retr | apply le_eq_retr | apply le_em_force | apply le_em_adr | apply le_em_adl | apply le_eq_adr
  | apply le_eq_adl | apply le_s2_rand | apply le_s2_at | apply le_s2_ait | apply le_s2_aitr
  | apply le_view | apply le_range | apply le_getCols | apply le_getRows
  | apply le_on_view; intros ? | apply le_on_cols; intros ? | apply le_on_rows; intros ? | apply le_on_block; intros ?
  | apply le_bind; [|intros ?] ].
Ltac member IH := induction IH.
Ltac subs IH := apply le_loop; intros ? ? ? Hin; rewrite Forall_forall in IH; specialize (IH _ Hin); repeat step; try (apply IH).

Lemma le_isInM m : forall v p, le (isInM m v p) (isInM_r m v p).
Proof.
  induction m as [h l a b|h sT sR ss IH] using mfd_ind'; intros v p; cbn [isInM isInM_r]; checks.
  - destruct l as [| |[|]]; repeat step.
  - apply le_loop. intros i s out Hin. rewrite Forall_forall in IH. destruct out; [|apply le_refl]. step; [step|]. apply IH; auto.
Qed.
Lemma le_forceOnM m : forall o v, le (forceOnM m o v) (forceOnM_r m o v).
Proof.
  induction m as [h l a b|h sT sR ss IH] using mfd_ind'; intros o v; cbn [forceOnM forceOnM_r]; checks.
  - destruct l as [| |[|]]; repeat step.
  - subs IH.
Qed.
Lemma le_isInTxM m : forall x v p, le (isInTxM m x v p) (isInTxM_r m x v p).
Proof.
  induction m as [h l a b|h sT sR ss IH] using mfd_ind'; intros x v p; cbn [isInTxM isInTxM_r]; checks.
  - destruct l as [| |[|]]; repeat step.
  - apply le_loop. intros i s out Hin. rewrite Forall_forall in IH. destruct out; [|apply le_refl]. step; [step|]. step; [step|]. apply IH; auto.
Qed.
Lemma le_retractation m : forall o x v, le (retractation m o x v) (retractation_r m o x v).
Proof.
  induction m as [h l a b|h sT sR ss IH] using mfd_ind'; intros o x v; cbn [retractation retractation_r]; checks; apply le_skip; intros b'; checks.
  - destruct l as [| |[|]]; repeat step.
  - subs IH.
Qed.
Lemma le_pseudoLog m : forall o x v, le (pseudoLog m o x v) (pseudoLog_r m o x v).
Proof.
  induction m as [h l a b|h sT sR ss IH] using mfd_ind'; intros o x v; cbn [pseudoLog pseudoLog_r]; checks.
  - destruct l as [| |[|]]; repeat step.
  - subs IH.
Qed.
Lemma le_pseudoLog0 m : forall o x, le (pseudoLog0 m o x) (pseudoLog0_r m o x).
Proof.
  induction m as [h l a b|h sT sR ss IH] using mfd_ind'; intros o x; cbn [pseudoLog0 pseudoLog0_r]; checks.
  - destruct l as [| |[|]]; repeat step.
  - subs IH.
Qed.
Lemma le_setZero m : forall o, le (setZero m o) (setZero_r m o).
Proof.
  induction m as [h l a b|h sT sR ss IH] using mfd_ind'; intros o; cbn [setZero setZero_r]; checks.
  - destruct l as [| |[|]]; repeat step.
  - subs IH.
Qed.
Lemma le_forceOnTxM m : forall o v x, le (forceOnTxM m o v x) (forceOnTxM_r m o v x).
Proof.
  induction m as [h l a b|h sT sR ss IH] using mfd_ind'; intros o v x; cbn [forceOnTxM forceOnTxM_r]; checks.
  - destruct l as [| |[|]]; repeat step.
  - subs IH.
Qed.
Lemma le_limitMap m : forall o, le (limitMap m o) (limitMap_r m o).
Proof.
  induction m as [h l a b|h sT sR ss IH] using mfd_ind'; intros o; cbn [limitMap limitMap_r]; checks.
  - destruct l as [| |[|]]; repeat step.
  - subs IH.
Qed.
Lemma le_getTyp m : forall o, le (getTypicalMagnitude m o) (getTypicalMagnitude_r m o).
Proof.
  induction m as [h l a b|h sT sR ss IH] using mfd_ind'; intros o; cbn [getTypicalMagnitude getTypicalMagnitude_r]; checks.
  - repeat step.
  - subs IH.
Qed.
Lemma le_getTru m : forall o, le (getTrustMagnitude m o) (getTrustMagnitude_r m o).
Proof.
  induction m as [h l a b|h sT sR ss IH] using mfd_ind'; intros o; cbn [getTrustMagnitude getTrustMagnitude_r]; checks.
  - repeat step.
  - subs IH.
Qed.
Lemma le_diffRetr m : forall x, le (diffRetractation m x) (diffRetractation_r m x).
Proof.
  induction m as [h l a b|h sT sR ss IH] using mfd_ind'; intros x; cbn [diffRetractation diffRetractation_r]; checks.
  - destruct l as [| |[|]]; repeat step.
  - subs IH.
Qed.
Lemma le_diffLog m : forall x, le (diffPseudoLog0 m x) (diffPseudoLog0_r m x).
Proof.
  induction m as [h l a b|h sT sR ss IH] using mfd_ind'; intros x; cbn [diffPseudoLog0 diffPseudoLog0_r]; checks.
  - destruct l as [| |[|]]; repeat step.
  - subs IH.
Qed.
Lemma le_applyDR m : forall o i x, le (applyDiffRetractation m o i x) (applyDiffRetractation_r m o i x).
Proof.
  induction m as [h l a b|h sT sR ss IH] using mfd_ind'; intros o i x; cbn [applyDiffRetractation applyDiffRetractation_r]; checks.
  - destruct l as [| |[|]]; repeat step.
  - subs IH.
Qed.
Lemma le_applyDL m : forall o i x, le (applyDiffPseudoLog0 m o i x) (applyDiffPseudoLog0_r m o i x).
Proof.
  induction m as [h l a b|h sT sR ss IH] using mfd_ind'; intros o i x; cbn [applyDiffPseudoLog0 applyDiffPseudoLog0_r]; checks.
  - destruct l as [| |[|]]; repeat step.
  - subs IH.
Qed.
Lemma le_at m : forall o i x v, le (applyTransport m o i x v) (applyTransport_r m o i x v).
Proof.
  induction m as [h l a b|h sT sR ss IH] using mfd_ind'; intros o i x v; cbn [applyTransport applyTransport_r]; checks; apply le_skip; intros _.
  - destruct l as [| |[|]]; try apply le_refl. apply le_bind; [apply (le_retractation (Leaf h LS2 a b))|]. intros; apply le_s2_at.
  - subs IH.
Qed.
Lemma le_ait m : forall o i x v, le (applyInvTransport m o i x v) (applyInvTransport_r m o i x v).
Proof.
  induction m as [h l a b|h sT sR ss IH] using mfd_ind'; intros o i x v; cbn [applyInvTransport applyInvTransport_r]; checks; apply le_skip; intros _.
  - destruct l as [| |[|]]; try apply le_refl. apply le_bind; [apply (le_retractation (Leaf h LS2 a b))|]. intros; apply le_s2_ait.
  - subs IH.
Qed.
Lemma le_aitr m : forall o i x v, le (applyInvTransportOnTheRight m o i x v) (applyInvTransportOnTheRight_r m o i x v).
Proof.
  induction m as [h l a b|h sT sR ss IH] using mfd_ind'; intros o i x v; cbn [applyInvTransportOnTheRight applyInvTransportOnTheRight_r]; checks; apply le_skip; intros _.
  - destruct l as [| |[|]]; try apply le_refl. apply le_bind; [apply (le_retractation (Leaf h LS2 a b))|]. intros; apply le_s2_aitr.
  - subs IH.
Qed.
Lemma le_tangentConstraint m : forall o x, le (tangentConstraint m o x) (tangentConstraint_r m o x).
Proof.
  induction m as [h l a b|h sT sR ss IH] using mfd_ind'; intros o x; cbn [tangentConstraint tangentConstraint_r]; checks.
  - destruct l as [| |[|]]; repeat step.
  - apply le_bind; [|intros; apply le_refl]. apply le_loop. intros i s [o' k] Hin. rewrite Forall_forall in IH. specialize (IH s Hin).
    cbv zeta. apply le_bind; [|intros; apply le_refl]. apply le_on_cols. intros C. repeat step; apply IH.
Qed.
Lemma le_identity m : forall o x, le (getIdentityOnTxM m o x) (getIdentityOnTxM_r m o x).
Proof.
  induction m as [h l a b|h sT sR ss IH] using mfd_ind'; intros o x; cbn [getIdentityOnTxM getIdentityOnTxM_r]; checks.
  - destruct l as [| |[|]]; repeat step.
  - apply le_loop. intros i s o' Hin. rewrite Forall_forall in IH. specialize (IH s Hin).
    apply le_bind.
    + apply le_on_block. intros B. apply le_bind; [apply le_view|]. intros; apply IH.
    + intros o1. apply le_loop. intros i' j o2 _. apply le_bind; [apply le_on_block; intros; apply le_refl|].
      intros o3. apply le_on_block; intros; apply le_refl.
Qed.
Lemma le_random m : forall o c rnd pos, le (createRandomPoint m o c rnd pos) (createRandomPoint_r m o c rnd pos).
Proof.
  induction m as [h l a b|h sT sR ss IH] using mfd_ind'; intros o c rnd pos; cbn [createRandomPoint createRandomPoint_r]; checks.
  - destruct l as [| |mp]; repeat step. apply (le_retractation (Leaf h (LSO3 mp) a b)).
  - apply le_loop. intros i s [o' k] Hin. rewrite Forall_forall in IH. specialize (IH s Hin).
    apply le_bind; [apply le_range|]. intros [p d]. apply le_bind; [apply le_refl|]. intros o1. apply le_bind; [apply IH|].
    intros [r p']; apply le_refl.
Qed.

(** *** Right sizes: the views of the release build are those of the debug build *)
Lemma loop_eq_inv {A B} (P : A -> Prop) (f g : nat -> B -> A -> res A) : forall l i a, P a ->
  (forall j b a, nth_error l j = Some b -> P a -> f (i + j) b a = g (i + j) b a /\ (forall a', f (i + j) b a = Ok a' -> P a')) ->
  loop f i l a = loop g i l a.
Proof.
  induction l as [|b l IH]; intros i a Pa H; [reflexivity|]. cbn [loop].
  destruct (H 0 b a eq_refl Pa) as [E Q]. rewrite Nat.add_0_r in E, Q. rewrite <- E. destruct (f i b a) as [a'|] eqn:F; [|reflexivity].
  cbn [bind]. apply IH; auto. intros j b' a0 Hj P0. specialize (H (S j) b' a0 Hj P0). rewrite Nat.add_succ_r in H. exact H.
Qed.
Lemma view_r_nth D h sT sR subs (xs : list (vec K)) i : wf (Prod h sT sR subs) -> pieces D subs xs -> i < List.length subs ->
  getView_r D (Prod h sT sR subs) (concat xs) i = Ok (nth i xs []).
Proof. intros W P Hi. apply le_view. apply getView_nth; auto. Qed.
Lemma on_view_r_eq D h sT sR subs i f (out : vec K) : wf (Prod h sT sR subs) -> i < List.length subs ->
  List.length out = getDim D (Prod h sT sR subs) ->
  on_view_r D (Prod h sT sR subs) i f out = on_view D (Prod h sT sR subs) i f out.
Proof.
  intros W Hi Lo. rewrite (wf_prod_getDim D _ _ _ _ W) in Lo. destruct (cut_pieces D subs out Lo) as (os & -> & P).
  pose proof (getView_nth D h sT sR subs os i W P Hi) as G. unfold getView in G. unfold on_view, on_view_r.
  destruct (view_range D (Prod h sT sR subs) (List.length (concat os)) i) as [[a b]|] eqn:E; [|discriminate].
  rewrite (le_range _ _ _ _ _ E). reflexivity.
Qed.
Lemma on_view_keep D m i f (out r : vec K) : (forall o r, f o = Ok r -> List.length r = List.length o) -> on_view D m i f out = Ok r ->
  List.length r = List.length out.
Proof. intros H E. eapply on_view_length; eauto. Qed.

Lemma loop_r_eq D h sT sR subs (f g : nat -> mfd K -> vec K -> res (vec K)) out : wf (Prod h sT sR subs) ->
  List.length out = getDim D (Prod h sT sR subs) ->
  (forall i s o, nth_error subs i = Some s -> g i s o = f i s o) ->
  (forall i s o r, f i s o = Ok r -> List.length r = List.length o) ->
  loop (fun i s out => on_view_r D (Prod h sT sR subs) i (g i s) out) 0 subs out =
  loop (fun i s out => on_view D (Prod h sT sR subs) i (f i s) out) 0 subs out.
Proof.
  intros W Lo E Hl. apply (loop_eq_inv (fun o => List.length o = getDim D (Prod h sT sR subs))); auto.
  intros j s o Hj Po. cbn [Nat.add]. assert (Q : on_view_r D (Prod h sT sR subs) j (g j s) o = on_view D (Prod h sT sR subs) j (f j s) o).
  { rewrite on_view_r_eq by eauto using nth_error_lt. unfold on_view. destruct (view_range _ _ _ _) as [[a b]|]; cbn [bind]; auto.
    destruct (segment o a b) as [o'|]; cbn [bind]; auto. rewrite E by auto. reflexivity. }
  split; auto. rewrite Q. intros a' F. rewrite <- Po. eapply on_view_keep; [|exact F]. eauto.
Qed.

Ltac bind_inv H :=
  match type of H with
  | (x <- ?e ;; _) = Ok _ => let E := fresh "E" in destruct e eqn:E; cbn [bind] in H; [|discriminate H]
  end.
Ltac solve_leaf_len :=
  repeat match goal with
  | H : (x <- ?e ;; _) = Ok _ |- _ =>
      let E := fresh "E" in destruct e eqn:E; cbn [bind] in H; [|discriminate H]
  end;
  match goal with
  | H : assign _ _ = Ok _ |- _ => eapply assign_length; exact H
  | H : raw_write _ _ = Ok _ |- _ => eapply raw_write_length; exact H
  end.
Lemma retractation_r_length m : forall out x v r, retractation_r m out x v = Ok r -> List.length r = List.length out.
Proof.
  induction m as [h l a b|h sT sR subs IH] using mfd_ind'; intros out x v r H; cbn [retractation_r] in H.
  - destruct l as [| |[|]]; unfold real_retractation, s2_retractation, em_retractation_r, eq_retractation_r, eq_retractation_at_r,
      quat_write in H; solve_leaf_len.
  - assert (Hl : forall i s o r', In s subs -> (xi <- getView_r DR (Prod h sT sR subs) x i ;; vi <- getView_r DT (Prod h sT sR subs) v i ;; retractation_r s o xi vi) = Ok r' ->
      List.length r' = List.length o).
    { intros i s o r' Hin Hr. do 2 bind_inv Hr. rewrite Forall_forall in IH. eapply IH; eauto. }
    revert H. apply (loop_inv (fun a => List.length a = List.length out)); auto.
    intros i s a a' Hin Ha Hv. rewrite <- Ha. unfold on_view_r in Hv. destruct (view_range_r _ _ _ _) as [[p q]|]; [|discriminate]. cbn [bind] in Hv.
    bind_inv Hv. bind_inv Hv. injection Hv as <-. specialize (Hl _ _ _ _ Hin E0).
    unfold segment, eigen_assert in E. destruct (_ <=? _) eqn:L; [|discriminate]. apply Nat.leb_le in L. cbn [bind] in E. injection E as <-.
    unfold set_segment. rewrite firstn_length, skipn_length in Hl. rewrite !app_length, firstn_length, skipn_length. lia.
Qed.
Lemma retractation_r_prod h sT sR subs (outs xs vs : list (vec K)) y : wf (Prod h sT sR subs) ->
  pieces DR subs outs -> pieces DR subs xs -> pieces DT subs vs ->
  (retractation_r (Prod h sT sR subs) (concat outs) (concat xs) (concat vs) = Ok y
   <-> exists ys, y = concat ys /\ Forall5 (fun s o x v r => retractation_r s o x v = Ok r) subs outs xs vs ys).
Proof.
  intros Hwf Ho Hx Hv. rewrite <- evalA_iff2 by eauto using pieces_len.
  rewrite <- (prod_op2 DR DR DT retractation_r h sT sR) by eauto using retractation_r_length.
  cbn [retractation_r].
  rewrite (loop_r_eq DR h sT sR subs (fun i s o => xi <- getView DR (Prod h sT sR subs) (concat xs) i ;; vi <- getView DT (Prod h sT sR subs) (concat vs) i ;; retractation_r s o xi vi)); auto; try reflexivity.
  - apply (pieces_getDim DR); auto.
  - intros i s o Hs. rewrite !view_r_nth, !getView_nth by eauto using nth_error_lt. reflexivity.
  - intros i s o r H. do 2 bind_inv H. eapply retractation_r_length; eauto.
Qed.
End Release.
