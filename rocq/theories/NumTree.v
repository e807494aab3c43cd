(** From leaves to trees: operations of nested products on finite values. *)
From Coq Require Import Reals List Lra Lia ZArith Bool Arith.
From Verif Require Import Base Scalar Vec Model_Manifold Spec Layout Comp Flat XR SpecR NumVec.
Import ListNotations.

Section Choice.
Context {A B C D E : Type}.
Lemma choose3 (P : A -> B -> Prop) (Q : A -> B -> C -> Prop) la lb :
  Forall2 P la lb -> (forall a b, In a la -> P a b -> exists c, Q a b c) -> exists lc, Forall3 Q la lb lc.
Proof.
  induction 1 as [|a b la lb H F IH]; intros G; [exists []; constructor|].
  destruct IH as [lc Hc]; [intros; apply G; simpl; auto|]. destruct (G a b) as [c Hq]; simpl; auto.
  exists (c :: lc). constructor; auto.
Qed.
Lemma choose4 (P : A -> B -> C -> Prop) (Q : A -> B -> C -> D -> Prop) la lb lc :
  Forall3 P la lb lc -> (forall a b c, In a la -> P a b c -> exists d, Q a b c d) -> exists ld, Forall4 Q la lb lc ld.
Proof.
  induction 1 as [|a b c la lb lc H F IH]; intros G; [exists []; constructor|].
  destruct IH as [ld Hd]; [intros; apply G; simpl; auto|]. destruct (G a b c) as [d Hq]; simpl; auto.
  exists (d :: ld). constructor; auto.
Qed.
Lemma Forall3_impl (P Q : A -> B -> C -> Prop) la lb lc : Forall3 P la lb lc ->
  (forall a b c, In a la -> P a b c -> Q a b c) -> Forall3 Q la lb lc.
Proof. induction 1; intros G; constructor; [apply G; simpl; auto|apply IHForall3; intros; apply G; simpl; auto]. Qed.
Lemma Forall4_impl (P Q : A -> B -> C -> D -> Prop) la lb lc ld : Forall4 P la lb lc ld ->
  (forall a b c d, In a la -> P a b c d -> Q a b c d) -> Forall4 Q la lb lc ld.
Proof. induction 1; intros G; constructor; [apply G; simpl; auto|apply IHForall4; intros; apply G; simpl; auto]. Qed.
Lemma Forall2_impl_in (P Q : A -> B -> Prop) la lb : Forall2 P la lb ->
  (forall a b, In a la -> P a b -> Q a b) -> Forall2 Q la lb.
Proof. induction 1; intros G; constructor; [apply G; simpl; auto|apply IHForall2; intros; apply G; simpl; auto]. Qed.
Lemma Forall3_and (P : A -> B -> Prop) (Q : A -> C -> Prop) la lb lc :
  Forall2 P la lb -> Forall2 Q la lc -> Forall3 (fun a b c => P a b /\ Q a c) la lb lc.
Proof.
  intros H; revert lc. induction H; intros lc G; inversion G; subst; constructor; auto.
Qed.
Lemma Forall3_12 (P : A -> B -> C -> Prop) la lb lc : Forall3 P la lb lc -> Forall2 (fun a b => exists c, P a b c) la lb.
Proof. induction 1; constructor; eauto. Qed.
Lemma Forall3_13 (P : A -> B -> C -> Prop) la lb lc : Forall3 P la lb lc -> Forall2 (fun a c => exists b, P a b c) la lc.
Proof. induction 1; constructor; eauto. Qed.
Lemma Forall4_14 (P : A -> B -> C -> D -> Prop) la lb lc ld : Forall4 P la lb lc ld ->
  Forall2 (fun a d => exists b c, P a b c d) la ld.
Proof. induction 1; constructor; eauto. Qed.
Lemma Forall4_124 (P : A -> B -> C -> D -> Prop) la lb lc ld : Forall4 P la lb lc ld ->
  Forall3 (fun a b d => exists c, P a b c d) la lb ld.
Proof. induction 1; constructor; eauto. Qed.
Lemma Forall4_swap34 (P : A -> B -> C -> D -> Prop) la lb lc ld : Forall4 P la lb lc ld ->
  Forall4 (fun a b d c => P a b c d) la lb ld lc.
Proof. induction 1; constructor; auto. Qed.
Lemma Forall3_swap (P : A -> B -> C -> Prop) la lb lc : Forall3 P la lb lc ->
  Forall3 (fun a c b => P a b c) la lc lb.
Proof. induction 1; constructor; auto. Qed.
End Choice.

Lemma wf_leaves m : wf m -> Forall (fun s : mfd XR => wf s /\ leaves s = [s]) (leaves m).
Proof.
  induction m as [h l a b|h sT sR subs IH] using mfd_ind'; intros Hw.
  - cbn [leaves]. constructor; [split; auto|constructor].
  - inversion Hw as [|? ? ? ? _ _ _ _ _ Hs]; subst. cbn [leaves]. clear Hw. induction subs as [|s ss IHs]; simpl; auto.
    inversion IH; inversion Hs; subst. apply Forall_app. split; auto.
Qed.
Lemma wf_leaf_inv m s : wf m -> In s (leaves m) ->
  exists h l a b, s = Leaf (K:=XR) h l a b /\ leaf_wf h l a b.
Proof.
  intros H Hi. pose proof (wf_leaves m H) as F. rewrite Forall_forall in F. destruct (F s Hi) as [W L].
  destruct s as [h l a b|h sT sR subs].
  - inversion W; subst. exists h, l, a, b. auto.
  - exfalso. clear - L. cbn [leaves] in L.
    assert (G : forall m : mfd XR, In (Prod h sT sR subs) (leaves m) -> False).
    { induction m as [|? ? ? ss IH] using mfd_ind'; simpl; intros Hi.
      - destruct Hi as [E|[]]; discriminate.
      - apply in_flat_map in Hi. destruct Hi as (x & Hx & Hi). rewrite Forall_forall in IH. eapply IH; eauto. }
    apply (G (Prod h sT sR subs)). cbn [leaves]. rewrite L. simpl. auto.
Qed.

Lemma fin_pieces D fs xs : Forall2 (fun s (x : list R) => length x = getDim D s) fs xs ->
  pieces (K:=XR) D fs (map fin xs).
Proof. induction 1; constructor; auto. rewrite fin_length. auto. Qed.

Lemma cut_leaves D (m : mfd XR) (out : list XR) : wf m -> length out = getDim D m ->
  exists outs, out = concat outs /\ pieces D (leaves m) outs.
Proof.
  intros Hw H. rewrite (leaves_dim D m Hw) in H. destruct (cut_pieces D _ _ H) as (outs & Hp & E).
  exists outs. auto.
Qed.

Section Lift.
Variables (D0 D1 D2 : edim).
Section L2.
Variable op : mfd XR -> list XR -> list XR -> list XR -> res (list XR).
Hypothesis Hprod : forall h sT sR subs outs xs vs y, wf (Prod h sT sR subs) ->
    pieces D0 subs outs -> pieces D1 subs xs -> pieces D2 subs vs ->
    (op (Prod h sT sR subs) (concat outs) (concat xs) (concat vs) = Ok y
     <-> exists ys, y = concat ys /\ Forall5 (fun s o x v r => op s o x v = Ok r) subs outs xs vs ys).
Lemma lift_op2 m out xs vs ys : wf m -> length out = getDim D0 m ->
  Forall4 (fun s x v y => length x = getDim D1 s /\ length v = getDim D2 s /\
             forall o, length o = getDim D0 s -> op s o (fin x) (fin v) = Ok (fin y)) (leaves m) xs vs ys ->
  op m out (fin (concat xs)) (fin (concat vs)) = Ok (fin (concat ys)).
Proof.
  intros Hw Ho H. destruct (cut_leaves D0 m out Hw Ho) as (outs & -> & Hp).
  rewrite !fin_concat. apply (flat_op D0 D1 D2 op Hprod m Hw).
  - auto.
  - apply fin_pieces. clear - H. induction H; constructor; tauto.
  - apply fin_pieces. clear - H. induction H; constructor; tauto.
  - exists (map fin ys). split; auto. clear Ho. revert outs Hp.
    induction H as [|s x v y ls xs vs ys Hh F IH]; intros outs Hp; inversion Hp; subst; simpl; constructor; auto.
    apply Hh. auto.
Qed.
End L2.
Section L1.
Variable op : mfd XR -> list XR -> list XR -> res (list XR).
Hypothesis Hprod : forall h sT sR subs outs xs y, wf (Prod h sT sR subs) ->
    pieces D0 subs outs -> pieces D1 subs xs ->
    (op (Prod h sT sR subs) (concat outs) (concat xs) = Ok y
     <-> exists ys, y = concat ys /\ Forall4 (fun s o x r => op s o x = Ok r) subs outs xs ys).
Lemma lift_op1 m out xs ys : wf m -> length out = getDim D0 m ->
  Forall3 (fun s x y => length x = getDim D1 s /\
             forall o, length o = getDim D0 s -> op s o (fin x) = Ok (fin y)) (leaves m) xs ys ->
  op m out (fin (concat xs)) = Ok (fin (concat ys)).
Proof.
  intros Hw Ho H. destruct (cut_leaves D0 m out Hw Ho) as (outs & -> & Hp).
  rewrite !fin_concat. apply (flat_op1 D0 D1 op Hprod m Hw).
  - auto.
  - apply fin_pieces. clear - H. induction H; constructor; tauto.
  - exists (map fin ys). split; auto. clear Ho. revert outs Hp.
    induction H as [|s x y ls xs ys Hh F IH]; intros outs Hp; inversion Hp; subst; simpl; constructor; auto.
    apply Hh. auto.
Qed.
End L1.
Section L0.
Variable op : mfd XR -> list XR -> res (list XR).
Hypothesis Hprod : forall h sT sR subs outs y, wf (Prod h sT sR subs) ->
    pieces D0 subs outs ->
    (op (Prod h sT sR subs) (concat outs) = Ok y
     <-> exists ys, y = concat ys /\ Forall3 (fun s o r => op s o = Ok r) subs outs ys).
Lemma lift_op0 m out ys : wf m -> length out = getDim D0 m ->
  Forall2 (fun s y => forall o, length o = getDim D0 s -> op s o = Ok y) (leaves m) ys ->
  op m out = Ok (concat ys).
Proof.
  intros Hw Ho H. destruct (cut_leaves D0 m out Hw Ho) as (outs & -> & Hp).
  apply (flat_op0 D0 op Hprod m Hw); auto.
  exists ys. split; auto. clear Ho. revert outs Hp.
  induction H as [|s y ls ys Hh F IH]; intros outs Hp; inversion Hp; subst; simpl; constructor; auto.
Qed.
End L0.
End Lift.
