(** Product operations are evaluated factor by factor (any scalar type). *)
From Coq Require Import List Arith Bool ZArith Lia.
From Verif Require Import Base Scalar Vec Model_Real Model_S2 Model_SO3 Model_Manifold Spec Layout.
Import ListNotations.

Section Comp.
Context {K : Type} {SK : Scalar K}.
Implicit Types (p m : mfd K) (fs subs pre post : list (mfd K)).

(** ** Lengths of results *)

Lemma assign_length {A} (out v r : list A) : assign out v = Ok r -> List.length r = List.length out.
Proof. unfold assign. intros H. inv_check H. inversion H; subst. apply Nat.eqb_eq in Heqb. auto. Qed.

Lemma assign_ok {A} (out v : list A) : List.length out = List.length v -> assign out v = Ok v.
Proof. intros H. unfold assign. rewrite H, Nat.eqb_refl. reflexivity. Qed.

Lemma raw_write_length {A} (out v r : list A) : raw_write out v = Ok r -> List.length r = List.length out.
Proof.
  unfold raw_write. intros H. inv_check H. inversion H; subst. apply Nat.leb_le in Heqb.
  rewrite app_length, skipn_length. lia.
Qed.

Lemma raw_write_ok {A} (out v : list A) : List.length out = List.length v -> raw_write out v = Ok v.
Proof.
  intros H. unfold raw_write. rewrite H, Nat.leb_refl. simpl.
  rewrite skipn_all2 by lia. rewrite app_nil_r. reflexivity.
Qed.

Lemma set_segment_length {A} (v w : list A) s : s + List.length w <= List.length v ->
  List.length (set_segment v s w) = List.length v.
Proof. intros. unfold set_segment. rewrite !app_length, firstn_length, skipn_length. lia. Qed.

Lemma segment_ok_inv {A} (v w : list A) s n : segment v s n = Ok w ->
  s + n <= List.length v /\ List.length w = n.
Proof.
  unfold segment. intros H. inv_check H. inversion H; subst. apply Nat.leb_le in Heqb.
  split; auto. rewrite firstn_length, skipn_length. lia.
Qed.

Lemma on_view_length D m i f out r :
  (forall o r, f o = Ok r -> List.length r = List.length o) ->
  on_view D m i f out = Ok r -> List.length r = List.length out.
Proof.
  intros Hf H. unfold on_view in H.
  destruct (view_range D m (List.length out) i) as [[s d]|]; simpl in H; [|discriminate].
  destruct (segment out s d) as [o|] eqn:Es; simpl in H; [|discriminate].
  destruct (f o) as [r'|] eqn:Ef; simpl in H; [|discriminate].
  inversion H; subst. apply segment_ok_inv in Es. destruct Es as [Hs Ho].
  apply set_segment_length. apply Hf in Ef. lia.
Qed.

Lemma loop_inv {A B} (Q : A -> Prop) (f : nat -> B -> A -> res A) l :
  (forall i b a a', In b l -> Q a -> f i b a = Ok a' -> Q a') ->
  forall i a a', Q a -> loop f i l a = Ok a' -> Q a'.
Proof.
  induction l as [|b l IH]; intros Hf i a a' Ha H; simpl in H.
  - inversion H; subst; auto.
  - destruct (f i b a) as [a1|] eqn:E; simpl in H; [|discriminate].
    eapply (IH (fun i b a a' Hin => Hf i b a a' (or_intror Hin))); [|eauto].
    eapply Hf; eauto. left; auto.
Qed.

Lemma loop_on_view_length D m (f : nat -> mfd K -> vec K -> res (vec K)) subs out r :
  (forall i s o r, In s subs -> f i s o = Ok r -> List.length r = List.length o) ->
  loop (fun i s out => on_view D m i (f i s) out) 0 subs out = Ok r -> List.length r = List.length out.
Proof.
  intros Hf H.
  apply (loop_inv (fun a => List.length a = List.length out)
           (fun i s out => on_view D m i (f i s) out) subs) with (i := 0) (a := out); auto.
  intros i b a a' Hin Ha Hv. rewrite <- Ha. eapply on_view_length; [|eauto].
  intros. eapply Hf; eauto.
Qed.

Ltac bind_inv H :=
  match type of H with
  | (x <- ?e ;; _) = Ok _ => let E := fresh "E" in destruct e eqn:E; cbn [bind] in H; [|discriminate H]
  end.

Lemma em_logarithm_length out R r : em_logarithm (K:=K) out R = Ok r -> List.length r = List.length out.
Proof. unfold em_logarithm. intros H. destruct (_ <? _)%k; eapply assign_length; eauto. Qed.

Lemma eq_logarithm_length out R r : eq_logarithm (K:=K) out R = Ok r -> List.length r = List.length out.
Proof. unfold eq_logarithm. intros H. destruct (_ && _); eapply assign_length; eauto. Qed.

Ltac solve_leaf_len :=
  repeat match goal with
  | H : (x <- ?e ;; _) = Ok _ |- _ =>
      let E := fresh "E" in destruct e eqn:E; cbn [bind] in H; [|discriminate H]
  end;
  match goal with
  | H : assign _ _ = Ok _ |- _ => eapply assign_length; exact H
  | H : raw_write _ _ = Ok _ |- _ => eapply raw_write_length; exact H
  | H : em_logarithm _ _ = Ok _ |- _ => eapply em_logarithm_length; exact H
  | H : eq_logarithm _ _ = Ok _ |- _ => eapply eq_logarithm_length; exact H
  | H : Ok _ = Ok _ |- _ => inversion H; subst; unfold vconst; rewrite ?repeat_length; auto
  | _ => idtac
  end.

Lemma forceOnM_length m : forall out x r, forceOnM m out x = Ok r -> List.length r = List.length out.
Proof.
  induction m as [h l a b|h sT sR subs IH] using mfd_ind'; intros out x r H; simpl in H; do 2 bind_inv H.
  - destruct l as [| |[|]]; unfold real_forceOnM, s2_forceOnM, em_forceOnM, eq_forceOnM, quat_write in H;
      solve_leaf_len.
  - eapply loop_on_view_length; [|exact H].
    intros i s o r' Hin Hr. cbv beta in Hr. bind_inv Hr.
    rewrite Forall_forall in IH. eapply IH; eauto.
Qed.

Lemma retractation_length m : forall out x v r,
  retractation m out x v = Ok r -> List.length r = List.length out.
Proof.
  induction m as [h l a b|h sT sR subs IH] using mfd_ind'; intros out x v r H; cbn [retractation] in H;
    do 5 bind_inv H.
  - destruct l as [| |[|]]; unfold real_retractation, s2_retractation, em_retractation, eq_retractation, eq_retractation_at,
      quat_write in H; solve_leaf_len.
  - eapply loop_on_view_length; [|exact H].
    intros i s o r' Hin Hr. cbv beta in Hr. do 2 bind_inv Hr.
    rewrite Forall_forall in IH. eapply IH; eauto.
Qed.

Lemma pseudoLog_length m : forall out x v r,
  pseudoLog m out x v = Ok r -> List.length r = List.length out.
Proof.
  induction m as [h l a b|h sT sR subs IH] using mfd_ind'; intros out x v r H; cbn [pseudoLog] in H;
    do 3 bind_inv H.
  - destruct l as [| |[|]]; unfold real_pseudoLog, s2_pseudoLog, s2_logarithm, em_pseudoLog, eq_pseudoLog in H;
      solve_leaf_len.
  - eapply loop_on_view_length; [|exact H].
    intros i s o r' Hin Hr. cbv beta in Hr. do 2 bind_inv Hr.
    rewrite Forall_forall in IH. eapply IH; eauto.
Qed.

Lemma pseudoLog0_length m : forall out x r,
  pseudoLog0 m out x = Ok r -> List.length r = List.length out.
Proof.
  induction m as [h l a b|h sT sR subs IH] using mfd_ind'; intros out x r H; cbn [pseudoLog0] in H;
    do 2 bind_inv H.
  - destruct l as [| |[|]]; unfold real_pseudoLog0, em_pseudoLog0, eq_pseudoLog0 in H;
      try discriminate; solve_leaf_len.
  - eapply loop_on_view_length; [|exact H].
    intros i s o r' Hin Hr. cbv beta in Hr. bind_inv Hr.
    rewrite Forall_forall in IH. eapply IH; eauto.
Qed.

Lemma setZero_length m : forall out r, setZero m out = Ok r -> List.length r = List.length out.
Proof.
  induction m as [h l a b|h sT sR subs IH] using mfd_ind'; intros out r H; cbn [setZero] in H;
    bind_inv H.
  - destruct l as [| |[|]]; unfold real_setZero, s2_setZero, em_setZero, eq_setZero, quat_write in H;
      solve_leaf_len.
    inversion H; subst; simpl. unfold eigen_assert in E0. destruct (List.length out =? 3) eqn:E1;
      [|discriminate]. apply Nat.eqb_eq in E1. auto.
  - eapply loop_on_view_length; [|exact H].
    intros i s o r' Hin Hr. rewrite Forall_forall in IH. eapply IH; eauto.
Qed.

Lemma forceOnTxM_length m : forall out w x r,
  forceOnTxM m out w x = Ok r -> List.length r = List.length out.
Proof.
  induction m as [h l a b|h sT sR subs IH] using mfd_ind'; intros out w x r H; cbn [forceOnTxM] in H;
    do 3 bind_inv H.
  - destruct l as [| |[|]]; unfold real_forceOnTxM, s2_forceOnTxM, so3_forceOnTxM in H; solve_leaf_len.
  - eapply loop_on_view_length; [|exact H].
    intros i s o r' Hin Hr. cbv beta in Hr. do 2 bind_inv Hr.
    rewrite Forall_forall in IH. eapply IH; eauto.
Qed.

Lemma limitMap_length m : forall out r, limitMap m out = Ok r -> List.length r = List.length out.
Proof.
  induction m as [h l a b|h sT sR subs IH] using mfd_ind'; intros out r H; cbn [limitMap] in H;
    bind_inv H.
  - destruct l as [| |[|]]; unfold real_limitMap, s2_limitMap, so3_limitMap in H; solve_leaf_len.
  - eapply loop_on_view_length; [|exact H].
    intros i s o r' Hin Hr. rewrite Forall_forall in IH. eapply IH; eauto.
Qed.

Lemma getTypicalMagnitude_length m : forall out r,
  getTypicalMagnitude m out = Ok r -> List.length r = List.length out.
Proof.
  induction m as [h l a b|h sT sR subs IH] using mfd_ind'; intros out r H; cbn [getTypicalMagnitude] in H;
    bind_inv H.
  - solve_leaf_len.
  - eapply loop_on_view_length; [|exact H].
    intros i s o r' Hin Hr. rewrite Forall_forall in IH. eapply IH; eauto.
Qed.

Lemma getTrustMagnitude_length m : forall out r,
  getTrustMagnitude m out = Ok r -> List.length r = List.length out.
Proof.
  induction m as [h l a b|h sT sR subs IH] using mfd_ind'; intros out r H; cbn [getTrustMagnitude] in H;
    bind_inv H.
  - solve_leaf_len.
  - eapply loop_on_view_length; [|exact H].
    intros i s o r' Hin Hr. rewrite Forall_forall in IH. eapply IH; eauto.
Qed.

(** ** Evaluation with arguments *)

Section EvalA.
  Context {A : Type}.
  Variable op : mfd K -> vec K -> A -> res (vec K).
  Fixpoint evalA (subs : list (mfd K)) (outs : list (vec K)) (args : list A) : res (list (vec K)) :=
    match subs, outs, args with
    | s :: ss, o :: os, a :: az => r <- op s o a ;; rs <- evalA ss os az ;; Ok (r :: rs)
    | _, _, _ => Ok []
    end.

  Lemma evalA_Forall4 subs outs args ys :
    List.length outs = List.length subs -> List.length args = List.length subs ->
    (evalA subs outs args = Ok ys <-> Forall4 (fun s o a y => op s o a = Ok y) subs outs args ys).
  Proof.
    revert outs args ys; induction subs as [|s ss IH]; intros [|o os] [|a az] ys Ho Ha; simpl in *;
      try discriminate.
    - split; intros H; inversion H; subst; constructor.
    - split; intros H.
      + destruct (op s o a) as [r|] eqn:E; simpl in H; [|discriminate].
        destruct (evalA ss os az) as [rs|] eqn:E'; simpl in H; [|discriminate].
        inversion H; subst. constructor; auto. apply IH; auto; congruence.
      + inversion H as [|? ? ? y ? ? ? ys' Hop Hrest]; subst. rewrite Hop. simpl.
        apply IH in Hrest; [|congruence|congruence]. rewrite Hrest. reflexivity.
  Qed.

  Lemma evalf_args (d : A) subs outs args :
    List.length args = List.length subs ->
    evalf (fun i s o => op s o (nth i args d)) 0 subs outs = evalA subs outs args.
  Proof.
    cut (forall pre : list A, List.length args = List.length subs ->
         evalf (fun i s o => op s o (nth i (pre ++ args) d)) (List.length pre) subs outs
         = evalA subs outs args).
    { intros H Hl. exact (H [] Hl). }
    revert outs args; induction subs as [|s ss IH]; intros outs args pre Hl; simpl.
    - destruct outs; reflexivity.
    - destruct args as [|a az]; [discriminate|]. destruct outs as [|o os]; [reflexivity|].
      rewrite app_nth2, Nat.sub_diag by lia. simpl. destruct (op s o a) as [r|]; simpl; auto.
      specialize (IH os az (pre ++ [a])). rewrite app_length in IH. simpl in IH.
      rewrite Nat.add_1_r in IH. rewrite <- app_assoc in IH. simpl in IH.
      rewrite IH by (simpl in Hl; congruence). reflexivity.
  Qed.
End EvalA.

Lemma evalf_ext f g subs outs :
  (forall i s o, nth_error subs i = Some s -> nth_error outs i = Some o -> f i s o = g i s o) ->
  evalf (K:=K) f 0 subs outs = evalf g 0 subs outs.
Proof.
  cut (forall n, (forall i s o, nth_error subs i = Some s -> nth_error outs i = Some o ->
        f (n + i) s o = g (n + i) s o) -> evalf (K:=K) f n subs outs = evalf g n subs outs).
  { intros H H'. exact (H 0 H'). }
  revert outs; induction subs as [|s ss IH]; intros [|o os] n H; simpl; auto.
  rewrite <- (Nat.add_0_r n) at 1. rewrite (H 0 s o) by reflexivity. rewrite Nat.add_0_r.
  destruct (g n s o); simpl; auto. rewrite (IH os (S n)); auto.
  intros i s' o' Hs Ho. specialize (H (S i) s' o' Hs Ho). rewrite Nat.add_succ_r in H. exact H.
Qed.

Lemma pieces_len D fs (xs : list (vec K)) : pieces D fs xs -> List.length xs = List.length fs.
Proof. induction 1; simpl; congruence. Qed.

(** Reading view [i] of the concatenation of pieces gives piece [i]. *)
Lemma getView_nth D h sT sR subs xs i : wf (Prod h sT sR subs) -> pieces D subs xs ->
  i < List.length subs ->
  getView D (Prod h sT sR subs) (concat xs) i = Ok (nth i xs []).
Proof.
  intros Hwf Hp Hi.
  destruct (nth_split subs prod_empty Hi) as (pre & post & E & Hl).
  set (s := nth i subs prod_empty) in *. clearbody s. subst subs i.
  destruct (pieces_app_inv _ _ _ _ Hp) as (a & b & -> & Ha & Hb).
  inversion Hb as [|? x ? b' Hx Hb']; subst.
  rewrite (getView_wf D h sT sR pre s post a x b'); auto.
  rewrite app_nth2; rewrite (pieces_len _ _ _ Ha); auto.
  rewrite Nat.sub_diag. reflexivity.
Qed.

Lemma nth_error_lt {A} (l : list A) i a : nth_error l i = Some a -> i < List.length l.
Proof. intros H. apply nth_error_Some. congruence. Qed.

(** Master lemma: product loop with output view and two argument views. *)
Lemma prod_op2 D0 D1 D2 (op : mfd K -> vec K -> vec K -> vec K -> res (vec K)) h sT sR subs outs xs vs :
  wf (Prod h sT sR subs) -> pieces D0 subs outs -> pieces D1 subs xs -> pieces D2 subs vs ->
  (forall s o x v r, op s o x v = Ok r -> List.length r = List.length o) ->
  loop (fun i s out =>
          on_view D0 (Prod h sT sR subs) i
            (fun o => xi <- getView D1 (Prod h sT sR subs) (concat xs) i ;;
                      vi <- getView D2 (Prod h sT sR subs) (concat vs) i ;; op s o xi vi) out)
       0 subs (concat outs)
  = (ys <- evalA (fun s o a => op s o (fst a) (snd a)) subs outs (combine xs vs) ;; Ok (concat ys)).
Proof.
  intros Hwf Ho Hx Hv Hlen.
  rewrite (loop_on_view D0 h sT sR subs
             (fun i s o => xi <- getView D1 (Prod h sT sR subs) (concat xs) i ;;
                           vi <- getView D2 (Prod h sT sR subs) (concat vs) i ;; op s o xi vi)); auto.
  - rewrite <- (evalf_args _ ([], [])) by
      (rewrite combine_length, (pieces_len _ _ _ Hx), (pieces_len _ _ _ Hv), Nat.min_id; auto).
    rewrite (evalf_ext _ (fun i s o => op s o (fst (nth i (combine xs vs) ([], [])))
                                              (snd (nth i (combine xs vs) ([], []))))); auto.
    intros i s o Hs _. rewrite !getView_nth; eauto using nth_error_lt. simpl.
    assert (Hxv : List.length xs = List.length vs)
      by (etransitivity; [eapply pieces_len; exact Hx|symmetry; eapply pieces_len; exact Hv]).
    exact (f_equal (fun a => op s o (fst a) (snd a)) (eq_sym (combine_nth xs vs i [] [] Hxv))).
  - intros i s o r _ _ H.
    destruct (getView D1 _ _ _); simpl in H; [|discriminate].
    destruct (getView D2 _ _ _); simpl in H; [|discriminate]. eapply Hlen; eauto.
Qed.

Lemma prod_op1 D0 D1 (op : mfd K -> vec K -> vec K -> res (vec K)) h sT sR subs outs xs :
  wf (Prod h sT sR subs) -> pieces D0 subs outs -> pieces D1 subs xs ->
  (forall s o x r, op s o x = Ok r -> List.length r = List.length o) ->
  loop (fun i s out =>
          on_view D0 (Prod h sT sR subs) i
            (fun o => xi <- getView D1 (Prod h sT sR subs) (concat xs) i ;; op s o xi) out)
       0 subs (concat outs)
  = (ys <- evalA op subs outs xs ;; Ok (concat ys)).
Proof.
  intros Hwf Ho Hx Hlen.
  rewrite (loop_on_view D0 h sT sR subs
             (fun i s o => xi <- getView D1 (Prod h sT sR subs) (concat xs) i ;; op s o xi)); auto.
  - rewrite <- (evalf_args _ []) by (eapply pieces_len; exact Hx).
    rewrite (evalf_ext _ (fun i s o => op s o (nth i xs []))); auto.
    intros i s o Hs _. rewrite !getView_nth; eauto using nth_error_lt.
  - intros i s o r _ _ H.
    destruct (getView D1 _ _ _); simpl in H; [|discriminate]. eapply Hlen; eauto.
Qed.

Lemma prod_op0 D0 (op : mfd K -> vec K -> res (vec K)) h sT sR subs outs :
  wf (Prod h sT sR subs) -> pieces D0 subs outs ->
  (forall s o r, op s o = Ok r -> List.length r = List.length o) ->
  loop (fun i s out => on_view D0 (Prod h sT sR subs) i (op s) out) 0 subs (concat outs)
  = (ys <- evalA (fun s o (_ : unit) => op s o) subs outs (map (fun _ => tt) subs) ;; Ok (concat ys)).
Proof.
  intros Hwf Ho Hlen.
  rewrite (loop_on_view D0 h sT sR subs (fun i s o => op s o)); eauto.
  rewrite <- (evalf_args _ tt) by (rewrite map_length; auto). reflexivity.
Qed.

(** From evaluation to pointwise relations. *)
Lemma evalA_iff2 (op : mfd K -> vec K -> vec K -> vec K -> res (vec K)) subs outs xs vs y :
  List.length outs = List.length subs -> List.length xs = List.length subs ->
  List.length vs = List.length subs ->
  ((ys <- evalA (fun s o a => op s o (fst a) (snd a)) subs outs (combine xs vs) ;; Ok (concat ys)) = Ok y
   <-> exists ys, y = concat ys /\ Forall5 (fun s o x v r => op s o x v = Ok r) subs outs xs vs ys).
Proof.
  intros Ho Hx Hv.
  assert (Hc : List.length (combine xs vs) = List.length subs)
    by (rewrite combine_length, Hx, Hv, Nat.min_id; auto).
  assert (H54 : forall ys, Forall4 (fun s o a r => op s o (fst a) (snd a) = Ok r) subs outs (combine xs vs) ys
                <-> Forall5 (fun s o x v r => op s o x v = Ok r) subs outs xs vs ys).
  { clear Hc y. revert outs xs vs Ho Hx Hv. induction subs as [|s ss IH]; intros [|o os] [|x xs] [|v vs] Ho Hx Hv ys;
      simpl in *; try discriminate.
    - split; intros H; inversion H; subst; constructor.
    - split; intros H; inversion H; subst; constructor; auto; apply IH; auto. }
  split.
  - intros H. destruct (evalA _ _ _ _) as [ys|] eqn:E; simpl in H; [|discriminate].
    inversion H; subst. exists ys. split; auto. apply H54. apply evalA_Forall4 in E; auto.
  - intros (ys & -> & H). apply H54 in H. apply evalA_Forall4 in H; auto. rewrite H. reflexivity.
Qed.

Lemma evalA_iff1 {A} (op : mfd K -> vec K -> A -> res (vec K)) subs outs xs y :
  List.length outs = List.length subs -> List.length xs = List.length subs ->
  ((ys <- evalA op subs outs xs ;; Ok (concat ys)) = Ok y
   <-> exists ys, y = concat ys /\ Forall4 (fun s o x r => op s o x = Ok r) subs outs xs ys).
Proof.
  intros Ho Hx. split.
  - intros H. destruct (evalA _ _ _ _) as [ys|] eqn:E; simpl in H; [|discriminate].
    inversion H; subst. exists ys. split; auto. apply evalA_Forall4 in E; auto.
  - intros (ys & -> & H). apply evalA_Forall4 in H; auto. rewrite H. reflexivity.
Qed.

Lemma Forall4_unit {A B C} (R : A -> B -> C -> Prop) l1 l2 l3 :
  Forall4 (fun a b (_ : unit) c => R a b c) l1 l2 (map (fun _ => tt) l1) l3 <-> Forall3 R l1 l2 l3.
Proof.
  revert l2 l3; induction l1 as [|a l1 IH]; intros l2 l3; simpl; split; intros H; inversion H; subst;
    constructor; auto; apply IH; auto.
Qed.

Lemma evalA_iff0 (op : mfd K -> vec K -> res (vec K)) subs outs y :
  List.length outs = List.length subs ->
  ((ys <- evalA (fun s o (_ : unit) => op s o) subs outs (map (fun _ => tt) subs) ;; Ok (concat ys)) = Ok y
   <-> exists ys, y = concat ys /\ Forall3 (fun s o r => op s o = Ok r) subs outs ys).
Proof.
  intros Ho. rewrite evalA_iff1; auto using map_length.
  split; intros (ys & -> & H); exists ys; split; auto; apply Forall4_unit in H || apply Forall4_unit; auto.
Qed.

(** ** Boolean loops *)

Lemma loop_false {B} (g : nat -> B -> res bool) l i :
  loop (fun i s (b : bool) => if b then g i s else Ok false) i l false = Ok false.
Proof. revert i; induction l; intros; simpl; auto. Qed.

Lemma loop_and_true {B} (g : nat -> B -> res bool) l i :
  loop (fun i s (b : bool) => if b then g i s else Ok false) i l true = Ok true
  <-> forall k s, nth_error l k = Some s -> g (i + k) s = Ok true.
Proof.
  revert i; induction l as [|s l IH]; intros i; simpl.
  - split; auto. intros _ k s H. destruct k; discriminate.
  - split.
    + intros H [|k] s' Hs; simpl in Hs.
      * inversion Hs; subst s'. rewrite Nat.add_0_r.
        destruct (g i s) as [[|]|]; simpl in H; auto; try discriminate.
        rewrite loop_false in H. discriminate.
      * destruct (g i s) as [[|]|]; simpl in H; auto; try discriminate.
        -- rewrite Nat.add_succ_r. change (S (i + k)) with (S i + k). eapply IH; eauto.
        -- rewrite loop_false in H. discriminate.
    + intros H. rewrite <- (Nat.add_0_r i) at 1. rewrite (H 0 s) by reflexivity. simpl.
      apply IH. intros k s' Hs. specialize (H (S k) s' Hs). rewrite Nat.add_succ_r in H. exact H.
Qed.

Lemma loop_and_total {B} (g : nat -> B -> res bool) l i b :
  (forall k s, nth_error l k = Some s -> exists b, g (i + k) s = Ok b) ->
  exists b', loop (fun i s (b : bool) => if b then g i s else Ok false) i l b = Ok b'.
Proof.
  revert i b; induction l as [|s l IH]; intros i b H; simpl; eauto.
  destruct b; simpl.
  - destruct (H 0 s eq_refl) as [b Hb]. rewrite Nat.add_0_r in Hb. rewrite Hb. simpl. apply IH.
    intros k s' Hs. specialize (H (S k) s' Hs). rewrite Nat.add_succ_r in H. exact H.
  - apply IH. intros k s' Hs. specialize (H (S k) s' Hs). rewrite Nat.add_succ_r in H. exact H.
Qed.

Lemma getDim_R m : getDim DR m = representationDim m. Proof. reflexivity. Qed.
Lemma getDim_T m : getDim DT m = tangentDim m. Proof. reflexivity. Qed.

Lemma Forall2_nth {A B} (R : A -> B -> Prop) l1 l2 (d : B) :
  List.length l2 = List.length l1 ->
  ((forall k a, nth_error l1 k = Some a -> R a (nth k l2 d)) <-> Forall2 R l1 l2).
Proof.
  revert l2; induction l1 as [|a l1 IH]; intros [|b l2] Hl; simpl in *; try discriminate.
  - split; auto. intros _ k a H. destruct k; discriminate.
  - split.
    + intros H. constructor.
      * apply (H 0); reflexivity.
      * apply IH; [congruence|]. intros k a' Hk. apply (H (S k)); exact Hk.
    + intros H. inversion H; subst. intros [|k] a' Hk; simpl in *.
      * inversion Hk; subst; auto.
      * eapply (proj2 (IH l2 ltac:(congruence))); eauto.
Qed.

Lemma Forall3_nth {A B C} (R : A -> B -> C -> Prop) l1 l2 l3 (d : B) (d' : C) :
  List.length l2 = List.length l1 -> List.length l3 = List.length l1 ->
  ((forall k a, nth_error l1 k = Some a -> R a (nth k l2 d) (nth k l3 d')) <-> Forall3 R l1 l2 l3).
Proof.
  revert l2 l3; induction l1 as [|a l1 IH]; intros [|b l2] [|c l3] Hl Hl'; simpl in *; try discriminate.
  - split; [constructor|]. intros _ k a H. destruct k; discriminate.
  - split.
    + intros H. constructor.
      * apply (H 0); reflexivity.
      * apply IH; [congruence|congruence|]. intros k a' Hk. apply (H (S k)); exact Hk.
    + intros H. inversion H as [|? ? ? ? ? ? Hr Hf]; subst. intros [|k] a' Hk; simpl in *.
      * inversion Hk; subst; auto.
      * eapply (proj2 (IH l2 l3 ltac:(congruence) ltac:(congruence))); eauto.
Qed.

(** Cutting a vector of the right length into pieces. *)
Lemma cut_pieces D subs (x : vec K) : List.length x = sum_list (map (getDim D) subs) ->
  exists xs, x = concat xs /\ pieces D subs xs.
Proof.
  revert x; induction subs as [|s ss IH]; intros x H; simpl in H.
  - exists []. destruct x; [|discriminate]. split; [reflexivity|constructor].
  - destruct (IH (skipn (getDim D s) x)) as (xs & E & Hp).
    { rewrite skipn_length. lia. }
    exists (firstn (getDim D s) x :: xs). simpl. rewrite <- E, firstn_skipn. split; auto.
    constructor; auto. rewrite firstn_length. lia.
Qed.

Lemma check_eq (a b : nat) : a = b -> mnf_assert (a =? b) = Ok tt.
Proof. intros ->. rewrite Nat.eqb_refl. reflexivity. Qed.

Lemma pieces_getDim D h sT sR subs xs : wf (Prod h sT sR subs) -> pieces D subs xs ->
  List.length (concat xs) = getDim D (Prod h sT sR subs).
Proof. intros Hwf Hp. rewrite (wf_prod_getDim D _ _ _ _ Hwf). eapply pieces_length; eauto. Qed.

(** ** Product equations *)

Lemma isInTxM_prod h sT sR subs xs vs prec : wf (Prod h sT sR subs) ->
  pieces DR subs xs -> pieces DT subs vs ->
  (isInTxM (Prod h sT sR subs) (concat xs) (concat vs) prec = Ok true
   <-> Forall3 (fun s x v => isInTxM s x v prec = Ok true) subs xs vs).
Proof.
  intros Hwf Hx Hv. cbn [isInTxM].
  rewrite check_eq by exact (pieces_getDim DT _ _ _ _ _ Hwf Hv).
  rewrite check_eq by exact (pieces_getDim DR _ _ _ _ _ Hwf Hx). cbn [bind].
  rewrite loop_and_true. rewrite <- (Forall3_nth _ _ _ _ [] []) by eauto using pieces_len.
  split; intros H k s Hs; specialize (H k s Hs); simpl in *;
    rewrite !getView_nth in *; eauto using nth_error_lt.
Qed.

Lemma isInTxM_total m : wf m -> forall x v prec,
  List.length x = representationDim m -> List.length v = tangentDim m ->
  exists b, isInTxM m x v prec = Ok b.
Proof.
  induction m as [h l a b|h sT sR subs IH] using mfd_ind'; intros Hwf x v prec Hx Hv.
  - cbn [isInTxM]. rewrite !check_eq by auto. simpl. destruct l; eauto.
  - inversion Hwf as [|? ? ? ? Hd Ht Hr HT HR Hs]; subst.
    destruct (cut_pieces DR subs x) as (xs & -> & Hxs); [exact (eq_trans Hx Hr)|].
    destruct (cut_pieces DT subs v) as (vs & -> & Hvs); [exact (eq_trans Hv Ht)|].
    cbn [isInTxM]. rewrite !check_eq by auto. cbn [bind].
    apply loop_and_total. intros k s Hk. rewrite !getView_nth; eauto using nth_error_lt. simpl.
    rewrite Forall_forall in IH, Hs. pose proof (nth_error_In _ _ Hk) as Hin.
    apply IH; auto.
    + eapply (proj2 (Forall2_nth _ _ _ [] (pieces_len _ _ _ Hxs)) Hxs); eauto.
    + eapply (proj2 (Forall2_nth _ _ _ [] (pieces_len _ _ _ Hvs)) Hvs); eauto.
Qed.

Lemma retractation_ok_inTxM m out x v r : retractation m out x v = Ok r ->
  isInTxM m x v default_prec = Ok true.
Proof.
  destruct m; intros H; cbn [retractation] in H; do 5 bind_inv H.
  all: match goal with E : mnf_assert ?b = Ok _ |- Ok ?b = _ => destruct b; [reflexivity|discriminate E] end.
Qed.

Lemma Forall5_imp3 {A B C D E} (R : A -> B -> C -> D -> E -> Prop) (R' : A -> C -> D -> Prop) l1 l2 l3 l4 l5 :
  (forall a b c d e, R a b c d e -> R' a c d) -> Forall5 R l1 l2 l3 l4 l5 -> Forall3 R' l1 l3 l4.
Proof. intros H; induction 1; constructor; eauto. Qed.

Lemma retractation_prod h sT sR subs outs xs vs y : wf (Prod h sT sR subs) ->
  pieces DR subs outs -> pieces DR subs xs -> pieces DT subs vs ->
  (retractation (Prod h sT sR subs) (concat outs) (concat xs) (concat vs) = Ok y
   <-> exists ys, y = concat ys /\
       Forall5 (fun s o x v r => retractation s o x v = Ok r) subs outs xs vs ys).
Proof.
  intros Hwf Ho Hx Hv. rewrite <- evalA_iff2 by eauto using pieces_len.
  rewrite <- (prod_op2 DR DR DT retractation h sT sR) by eauto using retractation_length.
  cbn [retractation].
  rewrite check_eq by exact (pieces_getDim DR _ _ _ _ _ Hwf Ho).
  rewrite check_eq by exact (pieces_getDim DR _ _ _ _ _ Hwf Hx).
  rewrite check_eq by exact (pieces_getDim DT _ _ _ _ _ Hwf Hv). cbn [bind].
  split.
  - intros H. bind_inv H. bind_inv H. exact H.
  - intros H.
    assert (Ht : isInTxM (Prod h sT sR subs) (concat xs) (concat vs) default_prec = Ok true).
    { apply isInTxM_prod; auto.
      rewrite (prod_op2 DR DR DT retractation h sT sR) in H by eauto using retractation_length.
      apply evalA_iff2 in H; eauto using pieces_len. destruct H as (ys & _ & H).
      eapply Forall5_imp3; [|exact H]. cbv beta. intros. eapply retractation_ok_inTxM; eauto. }
    rewrite Ht. cbn [bind mnf_assert]. exact H.
Qed.

Lemma pseudoLog_prod h sT sR subs outs xs vs y : wf (Prod h sT sR subs) ->
  pieces DT subs outs -> pieces DR subs xs -> pieces DR subs vs ->
  (pseudoLog (Prod h sT sR subs) (concat outs) (concat xs) (concat vs) = Ok y
   <-> exists ys, y = concat ys /\
       Forall5 (fun s o x v r => pseudoLog s o x v = Ok r) subs outs xs vs ys).
Proof.
  intros Hwf Ho Hx Hv. rewrite <- evalA_iff2 by eauto using pieces_len.
  rewrite <- (prod_op2 DT DR DR pseudoLog h sT sR) by eauto using pseudoLog_length.
  cbn [pseudoLog].
  rewrite check_eq by exact (pieces_getDim DT _ _ _ _ _ Hwf Ho).
  rewrite check_eq by exact (pieces_getDim DR _ _ _ _ _ Hwf Hx).
  rewrite check_eq by exact (pieces_getDim DR _ _ _ _ _ Hwf Hv). cbn [bind]. reflexivity.
Qed.

Lemma forceOnTxM_prod h sT sR subs outs ws xs y : wf (Prod h sT sR subs) ->
  pieces DT subs outs -> pieces DT subs ws -> pieces DR subs xs ->
  (forceOnTxM (Prod h sT sR subs) (concat outs) (concat ws) (concat xs) = Ok y
   <-> exists ys, y = concat ys /\
       Forall5 (fun s o w x r => forceOnTxM s o w x = Ok r) subs outs ws xs ys).
Proof.
  intros Hwf Ho Hw Hx. rewrite <- evalA_iff2 by eauto using pieces_len.
  rewrite <- (prod_op2 DT DT DR forceOnTxM h sT sR) by eauto using forceOnTxM_length.
  cbn [forceOnTxM].
  rewrite check_eq by exact (pieces_getDim DT _ _ _ _ _ Hwf Ho).
  rewrite check_eq by exact (pieces_getDim DR _ _ _ _ _ Hwf Hx).
  rewrite check_eq by exact (pieces_getDim DT _ _ _ _ _ Hwf Hw). cbn [bind]. reflexivity.
Qed.

Lemma pseudoLog0_prod h sT sR subs outs xs y : wf (Prod h sT sR subs) ->
  pieces DT subs outs -> pieces DR subs xs ->
  (pseudoLog0 (Prod h sT sR subs) (concat outs) (concat xs) = Ok y
   <-> exists ys, y = concat ys /\ Forall4 (fun s o x r => pseudoLog0 s o x = Ok r) subs outs xs ys).
Proof.
  intros Hwf Ho Hx. rewrite <- evalA_iff1 by eauto using pieces_len.
  rewrite <- (prod_op1 DT DR pseudoLog0 h sT sR) by eauto using pseudoLog0_length.
  cbn [pseudoLog0].
  rewrite check_eq by exact (pieces_getDim DT _ _ _ _ _ Hwf Ho).
  rewrite check_eq by exact (pieces_getDim DR _ _ _ _ _ Hwf Hx). cbn [bind]. reflexivity.
Qed.

Lemma forceOnM_prod h sT sR subs outs xs y : wf (Prod h sT sR subs) ->
  pieces DR subs outs -> pieces DR subs xs ->
  (forceOnM (Prod h sT sR subs) (concat outs) (concat xs) = Ok y
   <-> exists ys, y = concat ys /\ Forall4 (fun s o x r => forceOnM s o x = Ok r) subs outs xs ys).
Proof.
  intros Hwf Ho Hx. rewrite <- evalA_iff1 by eauto using pieces_len.
  rewrite <- (prod_op1 DR DR forceOnM h sT sR) by eauto using forceOnM_length.
  cbn [forceOnM].
  rewrite check_eq by exact (pieces_getDim DR _ _ _ _ _ Hwf Ho).
  rewrite check_eq by exact (pieces_getDim DR _ _ _ _ _ Hwf Hx). cbn [bind]. reflexivity.
Qed.

Lemma setZero_prod h sT sR subs outs y : wf (Prod h sT sR subs) -> pieces DR subs outs ->
  (setZero (Prod h sT sR subs) (concat outs) = Ok y
   <-> exists ys, y = concat ys /\ Forall3 (fun s o r => setZero s o = Ok r) subs outs ys).
Proof.
  intros Hwf Ho. rewrite <- evalA_iff0 by eauto using pieces_len.
  rewrite <- (prod_op0 DR setZero h sT sR) by eauto using setZero_length.
  cbn [setZero]. rewrite check_eq by exact (pieces_getDim DR _ _ _ _ _ Hwf Ho). reflexivity.
Qed.

Lemma limitMap_prod h sT sR subs outs y : wf (Prod h sT sR subs) -> pieces DT subs outs ->
  (limitMap (Prod h sT sR subs) (concat outs) = Ok y
   <-> exists ys, y = concat ys /\ Forall3 (fun s o r => limitMap s o = Ok r) subs outs ys).
Proof.
  intros Hwf Ho. rewrite <- evalA_iff0 by eauto using pieces_len.
  rewrite <- (prod_op0 DT limitMap h sT sR) by eauto using limitMap_length.
  cbn [limitMap]. rewrite check_eq by exact (pieces_getDim DT _ _ _ _ _ Hwf Ho). reflexivity.
Qed.

Lemma getTypicalMagnitude_prod h sT sR subs outs y : wf (Prod h sT sR subs) -> pieces DT subs outs ->
  (getTypicalMagnitude (Prod h sT sR subs) (concat outs) = Ok y
   <-> exists ys, y = concat ys /\ Forall3 (fun s o r => getTypicalMagnitude s o = Ok r) subs outs ys).
Proof.
  intros Hwf Ho. rewrite <- evalA_iff0 by eauto using pieces_len.
  rewrite <- (prod_op0 DT getTypicalMagnitude h sT sR) by eauto using getTypicalMagnitude_length.
  cbn [getTypicalMagnitude]. rewrite check_eq by exact (pieces_getDim DT _ _ _ _ _ Hwf Ho). reflexivity.
Qed.

Lemma getTrustMagnitude_prod h sT sR subs outs y : wf (Prod h sT sR subs) -> pieces DT subs outs ->
  (getTrustMagnitude (Prod h sT sR subs) (concat outs) = Ok y
   <-> exists ys, y = concat ys /\ Forall3 (fun s o r => getTrustMagnitude s o = Ok r) subs outs ys).
Proof.
  intros Hwf Ho. rewrite <- evalA_iff0 by eauto using pieces_len.
  rewrite <- (prod_op0 DT getTrustMagnitude h sT sR) by eauto using getTrustMagnitude_length.
  cbn [getTrustMagnitude]. rewrite check_eq by exact (pieces_getDim DT _ _ _ _ _ Hwf Ho). reflexivity.
Qed.

Lemma isInM_prod h sT sR subs xs prec : wf (Prod h sT sR subs) -> pieces DR subs xs ->
  (isInM (Prod h sT sR subs) (concat xs) prec = Ok true
   <-> Forall2 (fun s x => isInM s x default_prec = Ok true) subs xs).
Proof.
  intros Hwf Hx. cbn [isInM].
  rewrite check_eq by exact (pieces_getDim DR _ _ _ _ _ Hwf Hx). cbn [bind].
  rewrite loop_and_true. rewrite <- (Forall2_nth _ _ _ []) by eauto using pieces_len.
  split; intros H k s Hs; specialize (H k s Hs); simpl in *;
    rewrite !getView_nth in *; eauto using nth_error_lt.
Qed.

End Comp.
Ltac bind_inv H :=
  match type of H with
  | (x <- ?e ;; _) = Ok _ => let E := fresh "E" in destruct e eqn:E; cbn [bind] in H; [|discriminate H]
  end.
