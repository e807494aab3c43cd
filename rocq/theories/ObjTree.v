(** The trees that objects stand for, and what each call does to them. *)
From Coq Require Import List Arith Bool ZArith Lia.
From Verif Require Import Base Scalar Vec Model_Manifold Model_Object Spec Layout Heap.
Import ListNotations.

Section Trees.
Context {K : Type} {SK : Scalar K}.
Implicit Types (s : state K) (o : obj K).

Fixpoint mapM {A B} (f : A -> option B) (l : list A) : option (list B) :=
  match l with
  | [] => Some []
  | c :: l' => match f c, mapM f l' with Some m, Some ms => Some (m :: ms) | _, _ => None end
  end.
Lemma mapM_ext {A B} (f g : A -> option B) l : (forall c, In c l -> f c = g c) -> mapM f l = mapM g l.
Proof. induction l as [|c l IH]; intros H; cbn; auto. rewrite (H c), IH by (cbn in *; auto). auto. Qed.
Lemma mapM_some {A B} (f : A -> option B) l : (forall c, In c l -> exists m, f c = Some m) ->
  exists ms, mapM f l = Some ms /\ Forall2 (fun c m => f c = Some m) l ms.
Proof.
  induction l as [|c l IH]; intros H; cbn; [eauto|]. destruct (H c) as (m & E); [cbn; auto|].
  destruct IH as (ms & E' & F); [cbn in H; auto|]. rewrite E, E'. eauto.
Qed.
Lemma mapM_inv {A B} (f : A -> option B) l : forall ms, mapM f l = Some ms -> Forall2 (fun c m => f c = Some m) l ms.
Proof.
  induction l as [|c l IH]; intros ms H; cbn in H; [injection H as <-; auto|].
  destruct (f c) eqn:E; [|discriminate]. destruct (mapM f l); [|discriminate]. injection H as <-. auto.
Qed.
Lemma mapM_app {A B} (f : A -> option B) l c : mapM f (l ++ [c]) =
  match mapM f l, f c with Some ms, Some m => Some (ms ++ [m]) | _, _ => None end.
Proof.
  induction l as [|x l IH]; cbn; [destruct (f c); auto|]. rewrite IH. destruct (f x), (mapM f l), (f c); auto.
Qed.

Definition assemble o (ms : option (list (mfd K))) : option (mfd K) :=
  match o_kind o with
  | KLeaf l typ tru => Some (Leaf (o_hdr o) l typ tru)
  | KProd sT sR _ => match ms with Some l => Some (Prod (o_hdr o) sT sR l) | None => None end
  end.
Lemma tree_of_S n s a : tree_of (S n) s a =
  match get (objs s) a with Some o => assemble o (mapM (tree_of n s) (subs_of o)) | None => None end.
Proof.
  cbn [tree_of]. destruct (get (objs s) a) as [o|]; auto. unfold assemble, subs_of. destruct (o_kind o) as [|sT sR l]; auto.
  cbn [kind_subs]. match goal with |- match ?X with _ => _ end = match ?Y with _ => _ end => assert (E : X = Y) end.
  { induction l as [|c l IH]; cbn; auto. rewrite IH. auto. }
  rewrite E. auto.
Qed.

Lemma tree_shared w s : sinv w s -> forall a, is_shared s a -> forall n n', a < n -> a < n' ->
  tree_of n s a = tree_of n' s a /\ exists m, tree_of n s a = Some m.
Proof.
  intros I a. induction (lt_wf a) as [a _ IH]. intros (o & k & H & Ho) [|n] [|n'] L L'; try lia.
  rewrite !tree_of_S, H.
  assert (E : forall c, In c (subs_of o) -> tree_of n s c = tree_of n' s c /\ exists m, tree_of n s c = Some m).
  { intros c Hc. pose proof (i_rank _ _ I a o k H Ho c Hc). apply IH; try lia. apply (i_closed _ _ I a o H c Hc). }
  rewrite (mapM_ext (tree_of n s) (tree_of n' s) (subs_of o)) by (intros c Hc; apply (E c Hc)). split; auto.
  destruct (mapM_some (tree_of n s) (subs_of o)) as (ms & E1 & _); [intros c Hc; apply (E c Hc)|].
  rewrite (mapM_ext (tree_of n s) (tree_of n' s)) in E1 by (intros c Hc; apply (E c Hc)). rewrite E1.
  unfold assemble. destruct (o_kind o); eauto.
Qed.
Lemma tree_unfold w s a o : sinv w s -> get (objs s) a = Some o -> tree s a = assemble o (mapM (tree s) (subs_of o)).
Proof.
  intros I H. unfold tree. rewrite tree_of_S, H. f_equal. apply mapM_ext. intros c Hc.
  pose proof (i_closed _ _ I a o H c Hc) as Sc. apply (tree_shared w s I c Sc); apply shared_lt in Sc; lia.
Qed.
Lemma tree_fuel w s a n : sinv w s -> length (objs s) <= n -> tree_of (S n) s a = tree s a.
Proof.
  intros I Hn. unfold tree. rewrite !tree_of_S. destruct (get (objs s) a) as [o|] eqn:H; auto. f_equal. apply mapM_ext.
  intros c Hc. pose proof (i_closed _ _ I a o H c Hc) as Sc. apply (tree_shared w s I c Sc); apply shared_lt in Sc; lia.
Qed.
Lemma tree_live w s a : sinv w s -> (exists o, get (objs s) a = Some o) <-> exists m, tree s a = Some m.
Proof.
  intros I. split.
  - intros (o & H). rewrite (tree_unfold w s a o I H). destruct (mapM_some (tree s) (subs_of o)) as (ms & -> & _).
    + intros c Hc. pose proof (i_closed _ _ I a o H c Hc) as Sc. unfold tree.
      pose proof (shared_lt _ _ Sc). destruct (tree_shared w s I c Sc (S (length (objs s))) (S c)) as (_ & X); auto; lia.
    + unfold assemble. destruct (o_kind o); eauto.
  - intros (m & H). unfold tree in H. rewrite tree_of_S in H. destruct (get (objs s) a) as [o|]; [eauto|discriminate].
Qed.

(** ** Evolution of the heap *)

(** From [s] to [s'], objects outside [ex] keep their header and members; identifiers never change, locks
    are never released, the program's own objects outside [ex] are not destroyed. *)
Record evolves (ex : nat -> Prop) s s' : Prop := {
  e_len : length (objs s) <= length (objs s');
  e_cnt : counter s <= counter s';
  e_old : forall b o', get (objs s') b = Some o' -> b < length (objs s) -> exists o, get (objs s) b = Some o /\
    o_id o' = o_id o /\ (o_lock o = true -> o_lock o' = true) /\ mutable_ o' = mutable_ o /\
    (~ ex b -> o_hdr o' = o_hdr o /\ o_kind o' = o_kind o);
  e_keep : forall b o, get (objs s) b = Some o -> mutable_ o = true -> ~ ex b -> exists o', get (objs s') b = Some o' }.
Lemma evolves_refl ex s : evolves ex s s.
Proof. constructor; eauto. intros b o' H _. exists o'. intuition. Qed.
Lemma evolves_trans ex s1 s2 s3 : evolves ex s1 s2 -> evolves ex s2 s3 -> evolves ex s1 s3.
Proof.
  intros [L1 C1 O1 K1] [L2 C2 O2 K2]. constructor; try lia.
  - intros b o3 H3 Lb. destruct (O2 b o3 H3) as (o2 & H2 & Ei & El & Em & Ed); [lia|].
    destruct (O1 b o2 H2 Lb) as (o1 & H1 & Ei' & El' & Em' & Ed'). exists o1. split; auto. split; [congruence|]. split; [auto|].
    split; [congruence|]. intros N. destruct (Ed N), (Ed' N). split; congruence.
  - intros b o H M N. destruct (K1 b o H M N) as (o2 & H2). apply (K2 b o2 H2); auto.
    destruct (O1 b o2 H2) as (o1 & H1 & _ & _ & Em & _); [eapply get_lt; eauto|]. congruence.
Qed.
Lemma evolves_weak (ex ex' : nat -> Prop) s s' : (forall b, ex b -> ex' b) -> evolves ex s s' -> evolves ex' s s'.
Proof.
  intros W [L C O Kp]. constructor; auto.
  - intros b o' H Lb. destruct (O b o' H Lb) as (o & H1 & A & B & D & E). exists o. split; auto. split; auto. split; auto. split; auto.
  - intros b o H M N. apply (Kp b o H M). auto.
Qed.
Definition nobody : nat -> Prop := fun _ => False.
Lemma evolves_modify (ex : nat -> Prop) s a f :
  (forall o, get (objs s) a = Some o -> o_id (f o) = o_id o /\ (o_lock o = true -> o_lock (f o) = true) /\ mutable_ (f o) = mutable_ o /\
     (~ ex a -> o_hdr (f o) = o_hdr o /\ o_kind (f o) = o_kind o)) ->
  evolves ex s (modify s a f).
Proof.
  intros H. constructor.
  - rewrite modify_length. auto.
  - rewrite (proj2 (proj2 (modify_rest s a f))). auto.
  - intros b o' Hb _. rewrite get_modify in Hb. destruct (Nat.eqb_spec b a) as [->|N].
    + destruct (get (objs s) a) as [o|] eqn:E; [|discriminate]. injection Hb as <-. exists o. destruct (H o eq_refl) as (A & B & C & D). auto.
    + exists o'. intuition.
  - intros b o Hb M N. rewrite get_modify. destruct (Nat.eqb_spec b a) as [->|]; [rewrite Hb; cbn; eauto|eauto].
Qed.
Lemma evolves_lockm s a : evolves nobody s (lockm s a).
Proof. apply evolves_modify. intros o _. cbn. intuition. Qed.
Lemma evolves_count s a f : evolves nobody s (modify s a (with_count f)).
Proof. apply evolves_modify. intros o _. cbn. intuition. Qed.
Lemma evolves_append s p t : evolves (eq p) s (append_name s p t).
Proof. apply evolves_modify. intros o _. cbn. intuition. Qed.
Lemma evolves_add s o : evolves nobody s (add_obj s o).
Proof.
  constructor; cbn; auto.
  - rewrite app_length. cbn. lia.
  - intros b o' H L. rewrite get_app_old in H by auto. exists o'. intuition.
  - intros b ob H M _. exists ob. rewrite get_app_old; auto. eapply get_lt; eauto.
Qed.
Lemma evolves_bump s : evolves nobody s (bump s).
Proof. constructor; cbn; eauto. intros b o' H _. exists o'. intuition. Qed.
Lemma evolves_retain s l : evolves nobody s (retain s l).
Proof.
  destruct (retain_rest l s) as (_ & _ & C & L). constructor; try lia.
  - intros b o' H _. destruct (retain_get l s b) as (w' & E). destruct (get (objs s) b) as [o|] eqn:Eb.
    + destruct (E o eq_refl) as [E1 E2]. rewrite E1 in H. injection H as <-. exists o. cbn. split; auto. split; auto. split; auto. split; auto.
      unfold mutable_ in *. destruct (o_owner o) as [| |n] eqn:Eo.
      * cbn. rewrite E2; auto. * cbn. rewrite E2; auto.
      * cbn. clear E E2.
        assert (X : forall l s, (exists n o, get (objs s) b = Some o /\ o_owner o = Shared n) -> exists n o, get (objs (retain s l)) b = Some o /\ o_owner o = Shared n).
        { clear. induction l as [|c l IH]; intros s (n & o & H & Ho); cbn [retain fold_left]; eauto. apply IH.
          rewrite get_retain1. destruct (Nat.eqb_spec b c) as [->|]; [|eauto]. rewrite H. cbn. exists (S n), (incr o). split; auto. cbn. rewrite Ho. auto. }
        destruct (X l s) as (k & o2 & H2 & Ho2); [eauto|]. rewrite E1 in H2. injection H2 as <-. cbn in Ho2. rewrite Ho2. auto.
    + rewrite (retain_none l s b Eb) in H. discriminate.
  - intros b o H _ _. destruct (retain_get l s b) as (w' & E). destruct (E o H). eauto.
Qed.
Lemma evolves_shrinks s s' : shrinks s s' -> evolves nobody s s'.
Proof.
  intros (_ & _ & C & L & O & M & _). constructor; try lia.
  - intros b o' H _. destruct (O b o' H) as (o & H1 & E & Em). exists o. split; auto. rewrite E. cbn. rewrite <- E. auto.
  - intros b o H Hm _. exists o. auto.
Qed.
Lemma evolves_remove s a : evolves (eq a) s (remove s a).
Proof.
  constructor; cbn; auto.
  - rewrite upd_length. auto.
  - intros b o' H L. destruct (Nat.eq_dec b a) as [->|N].
    + rewrite get_upd_same in H by auto. discriminate.
    + rewrite get_upd_other in H by auto. exists o'. intuition.
  - intros b o H M N. exists o. rewrite get_upd_other; auto.
Qed.

(** The same without what concerns identifiers and locks: what the implicit assignments still guarantee. *)
Record evolvesW (ex : nat -> Prop) s s' : Prop := {
  ew_len : length (objs s) <= length (objs s');
  ew_cnt : counter s <= counter s';
  ew_old : forall b o', get (objs s') b = Some o' -> b < length (objs s) -> exists o, get (objs s) b = Some o /\
    mutable_ o' = mutable_ o /\ (~ ex b -> o_hdr o' = o_hdr o /\ o_kind o' = o_kind o);
  ew_keep : forall b o, get (objs s) b = Some o -> mutable_ o = true -> ~ ex b -> exists o', get (objs s') b = Some o' }.
Lemma evolves_W ex s s' : evolves ex s s' -> evolvesW ex s s'.
Proof.
  intros [L C O Kp]. constructor; auto. intros b o' H Lb. destruct (O b o' H Lb) as (o & H1 & A & B & D & E). exists o. auto.
Qed.
Lemma evolvesW_trans ex s1 s2 s3 : evolvesW ex s1 s2 -> evolvesW ex s2 s3 -> evolvesW ex s1 s3.
Proof.
  intros [L1 C1 O1 K1] [L2 C2 O2 K2]. constructor; try lia.
  - intros b o3 H3 Lb. destruct (O2 b o3 H3) as (o2 & H2 & Em & Ed); [lia|].
    destruct (O1 b o2 H2 Lb) as (o1 & H1 & Em' & Ed'). exists o1. split; auto.
    split; [congruence|]. intros N. destruct (Ed N), (Ed' N). split; congruence.
  - intros b o H M N. destruct (K1 b o H M N) as (o2 & H2). apply (K2 b o2 H2); auto.
    destruct (O1 b o2 H2) as (o1 & H1 & Em & _); [eapply get_lt; eauto|]. congruence.
Qed.
Lemma evolvesW_modify s a f : (forall o, get (objs s) a = Some o -> mutable_ (f o) = mutable_ o) -> evolvesW (eq a) s (modify s a f).
Proof.
  intros Hf. constructor; [rewrite modify_length; auto|rewrite (proj2 (proj2 (modify_rest s a f))); auto| |].
  - intros b o' H L. rewrite get_modify in H. destruct (Nat.eqb_spec b a) as [->|N].
    + destruct (get (objs s) a) as [o|] eqn:E; [|discriminate]. injection H as <-. exists o. split; auto. split; auto. tauto.
    + exists o'. auto.
  - intros b o H M N. rewrite get_modify. destruct (Nat.eqb_spec b a); [congruence|eauto].
Qed.

(** The tree of an object outside [ex] does not change, if no object of [ex] is a factor. *)
Lemma tree_frameW w w' ex s s' : sinv w s -> sinv w' s' -> evolvesW ex s s' ->
  (forall b, ex b -> b < length (objs s) -> ~ is_shared s' b) ->
  forall a, ~ ex a -> a < length (objs s) -> (exists o, get (objs s') a = Some o) -> tree s' a = tree s a.
Proof.
  intros I I' Ev Hex a Na La Ha.
  assert (F : forall n b, ~ ex b -> b < length (objs s) -> (exists o, get (objs s') b = Some o) -> tree_of n s' b = tree_of n s b).
  { induction n as [|n IH]; intros b Nb Lb (o' & Hb); [reflexivity|]. rewrite !tree_of_S, Hb.
    destruct (ew_old _ _ _ Ev b o' Hb Lb) as (o & H & _ & Ed). destruct (Ed Nb) as [Eh Ek]. rewrite H.
    unfold assemble. rewrite Eh, Ek. replace (subs_of o') with (subs_of o) by (unfold subs_of; rewrite Ek; auto).
    rewrite (mapM_ext (tree_of n s') (tree_of n s) (subs_of o)); auto. intros c Hc.
    assert (Sc : is_shared s' c). { apply (i_closed _ _ I' b o' Hb). unfold subs_of. rewrite Ek. exact Hc. }
    assert (Lc : c < length (objs s)) by (apply shared_lt, (i_closed _ _ I b o H c Hc)).
    apply IH; auto.
    - intros X. exact (Hex c X Lc Sc).
    - destruct Sc as (oc & k & X & _). eauto. }
  pose proof (ew_len _ _ _ Ev) as L.
  rewrite <- (tree_fuel w' s' a (length (objs s'))) by auto. rewrite <- (tree_fuel w s a (length (objs s'))) by auto. apply F; auto.
Qed.
Lemma tree_frame w w' ex s s' : sinv w s -> sinv w' s' -> evolves ex s s' ->
  (forall b, ex b -> b < length (objs s) -> ~ is_shared s' b) ->
  forall a, ~ ex a -> a < length (objs s) -> (exists o, get (objs s') a = Some o) -> tree s' a = tree s a.
Proof. intros I I' Ev. apply (tree_frameW w w' ex); auto. apply evolves_W; auto. Qed.

End Trees.
