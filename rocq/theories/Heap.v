(** Ownership in the heap of manifold objects: every pointer a live object holds leads to a live object, and
    every shared object knows the number of pointers to it. *)
From Coq Require Import List Arith Bool ZArith Lia.
From Verif Require Import Base Scalar Vec Model_Manifold Model_Object.
Import ListNotations.

Section Lists.
Context {A : Type}.
Lemma upd_length (l : list (option A)) i x : length (upd l i x) = length l.
Proof. revert i. induction l as [|h t IH]; intros [|i]; cbn; auto. Qed.
Lemma get_upd_same (l : list (option A)) i x : i < length l -> get (upd l i x) i = x.
Proof. unfold get. revert i. induction l as [|h t IH]; intros [|i] H; cbn in *; try lia; auto. apply IH. lia. Qed.
Lemma get_upd_other (l : list (option A)) i j x : j <> i -> get (upd l i x) j = get l j.
Proof.
  unfold get. revert i j. induction l as [|h t IH]; intros [|i] [|j] H; cbn; auto; try lia.
Qed.
Lemma get_lt (l : list (option A)) i x : get l i = Some x -> i < length l.
Proof. unfold get. intros H. destruct (Nat.lt_ge_cases i (length l)); auto. rewrite nth_overflow in H by auto. discriminate. Qed.
Lemma get_beyond (l : list (option A)) i : length l <= i -> get l i = None.
Proof. apply nth_overflow. Qed.
Lemma get_app_old (l : list (option A)) x i : i < length l -> get (l ++ [x]) i = get l i.
Proof. unfold get. intros H. rewrite app_nth1; auto. Qed.
Lemma get_app_new (l : list (option A)) x : get (l ++ [x]) (length l) = x.
Proof. unfold get. rewrite app_nth2, Nat.sub_diag by lia. reflexivity. Qed.
Lemma get_app (l : list (option A)) x i : get (l ++ [x]) i = if i =? length l then x else get l i.
Proof.
  destruct (Nat.eqb_spec i (length l)) as [->|N]; [apply get_app_new|].
  destruct (Nat.lt_ge_cases i (length l)); [apply get_app_old; auto|].
  rewrite !get_beyond; auto. rewrite app_length. cbn. lia.
Qed.
Lemma get_upd (l : list (option A)) i x j : i < length l -> get (upd l i x) j = if j =? i then x else get l j.
Proof.
  intros H. destruct (Nat.eqb_spec j i) as [->|N]; [apply get_upd_same; auto|apply get_upd_other; auto].
Qed.

(** Sums over the live entries. *)
Definition total (f : A -> nat) (l : list (option A)) : nat :=
  sum_list (map (fun x => match x with Some o => f o | None => 0 end) l).
Definition at_or0 (f : A -> nat) (x : option A) : nat := match x with Some o => f o | None => 0 end.
Lemma total_app f l x : total f (l ++ [x]) = total f l + at_or0 f x.
Proof. unfold total. induction l as [|h t IH]; cbn [app map sum_list]; [destruct x; cbn; lia|rewrite IH; lia]. Qed.
Lemma total_upd f l i x : i < length l -> total f (upd l i x) + at_or0 f (get l i) = total f l + at_or0 f x.
Proof.
  unfold total, get. revert i. induction l as [|h t IH]; intros [|i] H; cbn [length] in H; [lia|lia| |];
    cbn [upd map sum_list nth].
  - unfold at_or0. destruct h, x; lia.
  - specialize (IH i ltac:(lia)). lia.
Qed.
Lemma total_ext f l l' : length l = length l' -> (forall i, at_or0 f (get l i) = at_or0 f (get l' i)) -> total f l = total f l'.
Proof.
  revert l'. induction l as [|h t IH]; intros [|h' t'] L H; cbn in L; try lia.
  unfold total. cbn [map sum_list]. assert (E := H 0). unfold at_or0, get in E. cbn in E.
  change (sum_list (map _ t)) with (total f t). change (sum_list (map _ t')) with (total f t').
  rewrite (IH t'); [|lia|intros i; apply (H (S i))]. destruct h, h'; cbn in *; lia.
Qed.
Lemma total_get f l i : at_or0 f (get l i) <= total f l.
Proof.
  unfold total, get. revert i. induction l as [|h t IH]; intros [|i]; cbn [nth map sum_list]; cbn; try lia.
  - destruct h; cbn; lia.
  - specialize (IH i). lia.
Qed.
End Lists.

Section Heap.
Context {K : Type} {SK : Scalar K}.
Implicit Types (s : state K) (o : obj K).

Definition occ (l : list nat) (a : nat) : nat := count_occ Nat.eq_dec l a.
Lemma occ_app l m a : occ (l ++ m) a = occ l a + occ m a.
Proof. unfold occ. induction l as [|h t IH]; cbn; auto. destruct (Nat.eq_dec h a); cbn; lia. Qed.
Lemma occ_in l a : In a l -> 0 < occ l a.
Proof. intros H. apply (proj1 (count_occ_In Nat.eq_dec l a)) in H. unfold occ. lia. Qed.
Lemma in_occ l a : 0 < occ l a -> In a l.
Proof. intros H. apply (count_occ_In Nat.eq_dec l a). unfold occ in H. lia. Qed.

(** Number of pointers to [a] held by live products. *)
Definition slots (l : list (option (obj K))) (a : nat) : nat := total (fun o => occ (subs_of o) a) l.

Definition is_shared s c := exists oc n, get (objs s) c = Some oc /\ o_owner oc = Shared n.

(** [w]: pointers in flight (held by no object). *)
Record sinv (w : list nat) s : Prop := {
  i_closed : forall a o, get (objs s) a = Some o -> forall c, In c (subs_of o) -> is_shared s c;
  i_uses : forall a o n, get (objs s) a = Some o -> o_owner o = Shared n -> n = slots (objs s) a + occ w a /\ 0 < n;
  i_w : forall c, In c w -> is_shared s c;
  i_rank : forall a o n, get (objs s) a = Some o -> o_owner o = Shared n -> forall c, In c (subs_of o) -> c < a;
  i_lock : forall a o n, get (objs s) a = Some o -> o_owner o = Shared n -> o_lock o = true;
  i_id : forall a o, get (objs s) a = Some o -> o_id o < counter s }.

Lemma sinv_init : sinv [] init.
Proof. constructor; cbn; try tauto; intros [|a] o; discriminate. Qed.

Lemma sinv_perm w w' s : (forall a, occ w a = occ w' a) -> sinv w s -> sinv w' s.
Proof.
  intros E [C U W R L I]. constructor; auto.
  - intros a o n H Ho. rewrite <- E. apply (U a o n H Ho).
  - intros c H. apply W. apply in_occ. rewrite E. apply occ_in. auto.
Qed.

(** Changes that touch neither the pointers, nor the owner, nor the identifier, nor release a lock. *)
Definition meta o o' : Prop :=
  subs_of o = subs_of o' /\ o_owner o = o_owner o' /\ o_id o = o_id o' /\ (o_lock o = true -> o_lock o' = true).
Definition metas s s' : Prop :=
  length (objs s) = length (objs s') /\ counter s <= counter s' /\
  forall a, match get (objs s) a, get (objs s') a with Some o, Some o' => meta o o' | None, None => True | _, _ => False end.
Lemma metas_refl s : metas s s.
Proof. split; [|split]; auto. intros a. destruct (get (objs s) a); auto. repeat split; auto. Qed.
Lemma metas_trans s1 s2 s3 : metas s1 s2 -> metas s2 s3 -> metas s1 s3.
Proof.
  intros (L1 & C1 & M1) (L2 & C2 & M2). split; [congruence|]. split; [lia|]. intros a. specialize (M1 a). specialize (M2 a).
  destruct (get (objs s1) a), (get (objs s2) a), (get (objs s3) a); try tauto.
  destruct M1 as (?&?&?&?), M2 as (?&?&?&?). repeat split; try congruence. auto.
Qed.
Lemma metas_some s s' a o : metas s s' -> get (objs s) a = Some o -> exists o', get (objs s') a = Some o' /\ meta o o'.
Proof. intros (_ & _ & M) H. specialize (M a). rewrite H in M. destruct (get (objs s') a); [eauto|tauto]. Qed.
Lemma metas_some' s s' a o' : metas s s' -> get (objs s') a = Some o' -> exists o, get (objs s) a = Some o /\ meta o o'.
Proof. intros (_ & _ & M) H. specialize (M a). rewrite H in M. destruct (get (objs s) a); [eauto|tauto]. Qed.
Lemma metas_slots s s' a : metas s s' -> slots (objs s) a = slots (objs s') a.
Proof.
  intros (L & _ & M). apply total_ext; auto. intros i. specialize (M i).
  destruct (get (objs s) i), (get (objs s') i); cbn; try tauto. destruct M as (-> & _). auto.
Qed.
Lemma metas_shared s s' c : metas s s' -> is_shared s c -> is_shared s' c.
Proof.
  intros M (oc & n & H & Ho). destruct (metas_some _ _ _ _ M H) as (o' & H' & _ & E & _). exists o', n. split; congruence.
Qed.
Lemma sinv_meta w s s' : metas s s' -> sinv w s -> sinv w s'.
Proof.
  intros M [C U W R L I]. constructor.
  - intros a o' H' c Hc. destruct (metas_some' _ _ _ _ M H') as (o & H & E & _). rewrite <- E in Hc. eapply metas_shared; eauto.
  - intros a o' n H' Ho. destruct (metas_some' _ _ _ _ M H') as (o & H & _ & E & _). rewrite <- (metas_slots _ _ a M).
    apply (U a o n H). congruence.
  - intros c Hc. eapply metas_shared; eauto.
  - intros a o' n H' Ho c Hc. destruct (metas_some' _ _ _ _ M H') as (o & H & E & E2 & _). rewrite <- E in Hc.
    apply (R a o n H); auto. congruence.
  - intros a o' n H' Ho. destruct (metas_some' _ _ _ _ M H') as (o & H & _ & E & _ & E2). apply E2. apply (L a o n H). congruence.
  - intros a o' H'. destruct (metas_some' _ _ _ _ M H') as (o & H & _ & _ & E & _). rewrite <- E. specialize (I a o H).
    destruct M as (_ & M & _). lia.
Qed.

Lemma modify_length s a f : length (objs (modify s a f)) = length (objs s).
Proof. unfold modify. destruct (get (objs s) a); cbn; auto. apply upd_length. Qed.
Lemma get_modify s a f b :
  get (objs (modify s a f)) b = if b =? a then option_map f (get (objs s) a) else get (objs s) b.
Proof.
  unfold modify. destruct (get (objs s) a) as [o|] eqn:E; cbn.
  - apply get_upd. eapply get_lt; eauto.
  - destruct (Nat.eqb_spec b a) as [->|]; auto.
Qed.
Lemma modify_rest s a f : pts (modify s a f) = pts s /\ mems (modify s a f) = mems s /\ counter (modify s a f) = counter s.
Proof. unfold modify. destruct (get (objs s) a); cbn; auto. Qed.
Lemma metas_modify s a f : (forall o, get (objs s) a = Some o -> meta o (f o)) -> metas s (modify s a f).
Proof.
  intros H. split; [rewrite modify_length; auto|]. split; [rewrite (proj2 (proj2 (modify_rest s a f))); auto|].
  intros b. rewrite get_modify. destruct (Nat.eqb_spec b a) as [->|N].
  - destruct (get (objs s) a) as [o|]; cbn; auto.
  - destruct (get (objs s) b); auto. repeat split; auto.
Qed.
Lemma metas_lockm s a : metas s (lockm s a).
Proof. apply metas_modify. intros o _. repeat split; auto. Qed.
Lemma metas_register s a : metas s (register s a).
Proof. apply metas_modify. intros o _. repeat split; auto. Qed.
Lemma metas_append s a t : metas s (append_name s a t).
Proof. apply metas_modify. intros o _. repeat split; auto. Qed.
Lemma metas_same s s' : objs s' = objs s -> counter s <= counter s' -> metas s s'.
Proof. intros E C. split; [congruence|]. split; auto. intros a. rewrite E. destruct (get (objs s) a); auto. repeat split; auto. Qed.

(** ** Pointers in flight *)

Definition incr (o : obj K) : obj K := with_owner (match o_owner o with Shared n => Shared (S n) | w => w end) o.
Lemma get_retain1 s c b : get (objs (retain1 s c)) b = if b =? c then option_map incr (get (objs s) c) else get (objs s) b.
Proof. unfold retain1. rewrite get_modify. reflexivity. Qed.
Lemma slots_modify s a f b : (forall o, get (objs s) a = Some o -> subs_of (f o) = subs_of o) ->
  slots (objs (modify s a f)) b = slots (objs s) b.
Proof.
  intros H. unfold slots. apply total_ext; [apply modify_length|]. intros i. rewrite get_modify.
  destruct (Nat.eqb_spec i a) as [->|]; auto. destruct (get (objs s) a) as [o|]; cbn; auto. rewrite H; auto.
Qed.
Lemma shared_retain1 s c x : is_shared s x -> is_shared (retain1 s c) x.
Proof.
  intros (o & n & H & Ho). destruct (Nat.eq_dec x c) as [->|N].
  - exists (incr o), (S n). rewrite get_retain1, Nat.eqb_refl, H. cbn. rewrite Ho. auto.
  - exists o, n. rewrite get_retain1. apply Nat.eqb_neq in N. rewrite N. auto.
Qed.
Lemma retain1_inv w s c : sinv w s -> is_shared s c -> sinv (c :: w) (retain1 s c).
Proof.
  intros [C U W R L I] Hc.
  assert (G : forall a o', get (objs (retain1 s c)) a = Some o' ->
    exists o, get (objs s) a = Some o /\ subs_of o' = subs_of o /\ o_id o' = o_id o /\ o_lock o' = o_lock o /\
      (a <> c /\ o' = o \/ a = c /\ o' = incr o)).
  { intros a o' H. rewrite get_retain1 in H. destruct (Nat.eqb_spec a c) as [->|N].
    - destruct (get (objs s) c) as [o|]; [|discriminate]. injection H as <-. exists o. intuition.
    - exists o'. intuition. }
  assert (SL : forall a, slots (objs (retain1 s c)) a = slots (objs s) a) by (intros; apply slots_modify; reflexivity).
  constructor.
  - intros a o' H' x Hx. destruct (G a o' H') as (o & H & E & _). rewrite E in Hx. apply shared_retain1. eapply C; eauto.
  - intros a o' n H' Ho. destruct (G a o' H') as (o & H & _ & _ & _ & [(N & ->)|(-> & ->)]).
    + rewrite SL. cbn. destruct (Nat.eq_dec c a); [congruence|]. apply (U a o n H Ho).
    + rewrite SL. cbn in Ho |- *. destruct (Nat.eq_dec c c); [|congruence].
      destruct (o_owner o) as [| |k] eqn:Eo; try discriminate. injection Ho as <-.
      destruct (U c o k H Eo) as [-> P]. fold (occ w c). lia.
  - intros x [->|Hx]; apply shared_retain1; auto.
  - intros a o' n H' Ho x Hx. destruct (G a o' H') as (o & H & E & _ & _ & [(N & ->)|(-> & ->)]); [eapply R; eauto|].
    rewrite E in Hx. cbn in Ho. destruct (o_owner o) as [| |k] eqn:Eo; try discriminate. eapply R; eauto.
  - intros a o' n H' Ho. destruct (G a o' H') as (o & H & _ & _ & E & [(N & X)|(-> & X)]); [subst; eapply L; eauto|].
    rewrite E. rewrite X in Ho. cbn in Ho. destruct (o_owner o) eqn:Eo; try discriminate. apply (L c o n0 H Eo).
  - intros a o' H'. destruct (G a o' H') as (o & H & _ & -> & _). unfold retain1. rewrite (proj2 (proj2 (modify_rest s c _))). eauto.
Qed.
Lemma retain_inv l : forall w s, sinv w s -> (forall c, In c l -> is_shared s c) -> sinv (l ++ w) (retain s l).
Proof.
  induction l as [|c l IH]; intros w s I H; [exact I|]. cbn [retain fold_left]. fold (retain (retain1 s c) l).
  apply (sinv_perm (l ++ c :: w)); [intros a; rewrite occ_app; cbn; fold (occ (l ++ w) a); fold (occ w a);
    destruct (Nat.eq_dec c a); rewrite occ_app; lia|].
  apply IH; [apply retain1_inv; auto; apply H; left; auto|]. intros x Hx. apply shared_retain1. apply H. right. auto.
Qed.
(** What retain does to an object: only its pointer count changes. *)
Lemma retain_get l : forall s a, exists w', forall o, get (objs s) a = Some o ->
  get (objs (retain s l)) a = Some (with_owner (w' (o_owner o)) o) /\ (mutable_ o = true -> w' (o_owner o) = o_owner o).
Proof.
  induction l as [|c l IH]; intros s a; cbn [retain fold_left].
  - exists (fun w => w). intros [h k lk i n w] H. auto.
  - fold (retain (retain1 s c) l). destruct (IH (retain1 s c) a) as (w' & E).
    rewrite get_retain1 in E. destruct (Nat.eqb_spec a c) as [->|N].
    + exists (fun w => w' (match w with Shared n => Shared (S n) | w => w end)). intros o H. rewrite H in E. cbn in E.
      destruct (E _ eq_refl) as [E1 E2]. destruct o as [h k lk i n [| |x]]; (split; [rewrite E1; reflexivity|]); intros M;
        try discriminate; apply E2; reflexivity.
    + exists w'. exact E.
Qed.
Lemma retain_none l : forall s a, get (objs s) a = None -> get (objs (retain s l)) a = None.
Proof.
  induction l as [|c l IH]; intros s a H; cbn [retain fold_left]; auto. apply IH. rewrite get_retain1.
  destruct (Nat.eqb_spec a c) as [->|]; auto. rewrite H. auto.
Qed.
Lemma retain_rest l : forall s, pts (retain s l) = pts s /\ mems (retain s l) = mems s /\ counter (retain s l) = counter s /\
  length (objs (retain s l)) = length (objs s).
Proof.
  induction l as [|c l IH]; intros s; cbn [retain fold_left]; auto. destruct (IH (retain1 s c)) as (A & B & C & D).
  unfold retain in *. rewrite A, B, C, D. unfold retain1. rewrite modify_length.
  match goal with |- context [modify s c ?f] => destruct (modify_rest s c f) as (-> & -> & ->) end. auto.
Qed.

Lemma slots_add s o a : slots (objs (add_obj s o)) a = slots (objs s) a + occ (subs_of o) a.
Proof. unfold slots, add_obj, set_objs. cbn [objs]. rewrite total_app. reflexivity. Qed.
Lemma get_add s o a : get (objs (add_obj s o)) a = if a =? length (objs s) then Some o else get (objs s) a.
Proof. apply get_app. Qed.
Lemma shared_lt s c : is_shared s c -> c < length (objs s).
Proof. intros (o & n & H & _). eapply get_lt; eauto. Qed.
Lemma shared_add s o c : is_shared s c -> is_shared (add_obj s o) c.
Proof.
  intros Hs. pose proof (shared_lt _ _ Hs) as L. destruct Hs as (x & n & H & Ho). exists x, n. rewrite get_add.
  destruct (Nat.eqb_spec c (length (objs s))); [lia|auto].
Qed.
Lemma slots_zero s a w : sinv w s -> length (objs s) <= a -> slots (objs s) a = 0.
Proof.
  intros I L. unfold slots, total. assert (Forall (fun x => match x with Some o => occ (subs_of o) a = 0 | None => True end) (objs s)) as F.
  { apply Forall_forall. intros [o|] Hx; auto. destruct (In_nth _ _ None Hx) as (i & Hi & E).
    destruct (occ (subs_of o) a) eqn:E0; auto. assert (In a (subs_of o)) as Ha by (apply in_occ; lia).
    pose proof (shared_lt _ _ (i_closed _ _ I i o E a Ha)). lia. }
  clear - F. induction F as [|[o|] l H F IH]; cbn; lia.
Qed.
(** An object takes over the pointers in flight that it holds. *)
Lemma add_inv w s o : sinv (subs_of o ++ w) s -> o_id o < counter s ->
  (mutable_ o = true \/ o_lock o = true) -> (forall n, o_owner o = Shared n -> n = 1) ->
  sinv (match o_owner o with Shared _ => [length (objs s)] | _ => [] end ++ w) (add_obj s o).
Proof.
  intros I Hid Hl H1. pose proof I as [C U W R L Id].
  assert (G : forall a o', get (objs (add_obj s o)) a = Some o' -> a = length (objs s) /\ o' = o \/ a < length (objs s) /\ get (objs s) a = Some o').
  { intros a o' H. rewrite get_add in H. destruct (Nat.eqb_spec a (length (objs s))) as [->|N].
    - left. split; congruence. - right. split; auto. eapply get_lt; eauto. }
  assert (Z : forall a, length (objs s) <= a -> occ w a = 0 /\ occ (subs_of o) a = 0).
  { intros a La. assert (occ (subs_of o ++ w) a = 0) as E.
    { destruct (occ (subs_of o ++ w) a) eqn:E; auto. assert (In a (subs_of o ++ w)) as Ha by (apply in_occ; lia).
      pose proof (shared_lt _ _ (W a Ha)). lia. }
    rewrite occ_app in E. lia. }
  constructor.
  - intros a o' H' c Hc. apply shared_add. destruct (G a o' H') as [(-> & ->)|(_ & H)].
    + apply W. apply in_or_app. auto.
    + eapply C; eauto.
  - intros a o' n H' Ho. rewrite slots_add, occ_app. destruct (G a o' H') as [(-> & ->)|(Lt & H)].
    + rewrite Ho. destruct (Z (length (objs s))) as [-> ->]; auto. rewrite (slots_zero _ _ _ I) by auto.
      rewrite (H1 n Ho). cbn. destruct (Nat.eq_dec (length (objs s)) (length (objs s))); [lia|congruence].
    + destruct (U a o' n H Ho) as [E P]. split; auto. rewrite occ_app in E.
      assert (occ match o_owner o with Shared _ => [length (objs s)] | _ => [] end a = 0) as ->.
      { destruct (o_owner o); auto. cbn. destruct (Nat.eq_dec (length (objs s)) a); [lia|auto]. } lia.
  - intros c Hc. apply in_app_or in Hc. destruct Hc as [Hc|Hc].
    + destruct (o_owner o) eqn:Eo; cbn in Hc; try tauto. destruct Hc as [<-|[]]. exists o, n. rewrite get_add, Nat.eqb_refl. auto.
    + apply shared_add. apply W. apply in_or_app. auto.
  - intros a o' n H' Ho c Hc. destruct (G a o' H') as [(-> & ->)|(_ & H)].
    + apply shared_lt. apply W. apply in_or_app. auto.
    + eapply R; eauto.
  - intros a o' n H' Ho. destruct (G a o' H') as [(-> & ->)|(_ & H)]; [|eapply L; eauto]. unfold mutable_ in Hl. rewrite Ho in Hl. destruct Hl; [discriminate|auto].
  - intros a o' H'. destruct (G a o' H') as [(-> & ->)|(_ & H)]; auto. apply (Id a o' H).
Qed.
(** A pointer in flight is appended to the factors of a program's own product. *)
Lemma give_inv w s p op c f : sinv (c :: w) s -> get (objs s) p = Some op -> mutable_ op = true ->
  subs_of (f op) = subs_of op ++ [c] -> o_owner (f op) = o_owner op -> o_id (f op) = o_id op -> o_lock (f op) = o_lock op ->
  sinv w (modify s p f).
Proof.
  intros [C U W R L Id] Hp Hm Es Eo Ei El.
  assert (G : forall a o', get (objs (modify s p f)) a = Some o' -> a = p /\ o' = f op \/ a <> p /\ get (objs s) a = Some o').
  { intros a o' H. rewrite get_modify in H. destruct (Nat.eqb_spec a p) as [->|N]; auto. rewrite Hp in H. injection H as <-. auto. }
  assert (SL : forall a, slots (objs (modify s p f)) a = slots (objs s) a + occ [c] a).
  { intros a. unfold modify. rewrite Hp. cbn [objs set_objs].
    pose proof (total_upd (fun o => occ (subs_of o) a) (objs s) p (Some (f op)) (get_lt _ _ _ Hp)) as E.
    rewrite Hp in E. cbn [at_or0] in E. rewrite Es, occ_app in E. unfold slots. lia. }
  assert (SH : forall x, is_shared s x -> is_shared (modify s p f) x).
  { intros x (o & n & H & Ho). destruct (Nat.eq_dec x p) as [->|N].
    - rewrite Hp in H. injection H as <-. unfold mutable_ in Hm. rewrite Ho in Hm. discriminate.
    - exists o, n. rewrite get_modify. apply Nat.eqb_neq in N. rewrite N. auto. }
  constructor.
  - intros a o' H' x Hx. apply SH. destruct (G a o' H') as [(-> & ->)|(_ & H)]; [|eapply C; eauto].
    rewrite Es in Hx. apply in_app_or in Hx. destruct Hx as [Hx|[<-|[]]]; [eapply C; eauto|]. apply W. left. auto.
  - intros a o' n H' Ho. rewrite SL. destruct (G a o' H') as [(-> & ->)|(_ & H)].
    + unfold mutable_ in Hm. rewrite Eo in Ho. rewrite Ho in Hm. discriminate.
    + destruct (U a o' n H Ho) as [E P]. split; auto. cbn in E |- *. fold (occ w a) in E. destruct (Nat.eq_dec c a); lia.
  - intros x Hx. apply SH. apply W. right. auto.
  - intros a o' n H' Ho x Hx. destruct (G a o' H') as [(-> & ->)|(_ & H)]; [|eapply R; eauto].
    unfold mutable_ in Hm. rewrite Eo in Ho. rewrite Ho in Hm. discriminate.
  - intros a o' n H' Ho. destruct (G a o' H') as [(-> & ->)|(_ & H)]; [|eapply L; eauto]. rewrite El. apply (L p op n Hp). congruence.
  - intros a o' H'. rewrite (proj2 (proj2 (modify_rest s p f))). destruct (G a o' H') as [(-> & ->)|(_ & H)]; [|eapply Id; eauto].
    rewrite Ei. eapply Id; eauto.
Qed.

(** ** Destruction *)

Lemma get_remove s a b : a < length (objs s) -> get (objs (remove s a)) b = if b =? a then None else get (objs s) b.
Proof. intros H. unfold remove. cbn. apply get_upd. auto. Qed.
(** An object without pointers to it disappears; its own pointers are in flight. *)
Lemma remove_inv w s a o : sinv w s -> get (objs s) a = Some o -> slots (objs s) a = 0 -> ~ In a w ->
  sinv (subs_of o ++ w) (remove s a).
Proof.
  intros [C U W R L Id] Ha Z Nw. pose proof (get_lt _ _ _ Ha) as Lt.
  assert (G : forall b o', get (objs (remove s a)) b = Some o' -> b <> a /\ get (objs s) b = Some o').
  { intros b o' H. rewrite get_remove in H by auto. destruct (Nat.eqb_spec b a); [discriminate|auto]. }
  assert (SL : forall b, slots (objs (remove s a)) b + occ (subs_of o) b = slots (objs s) b).
  { intros b. unfold remove. cbn [objs set_objs].
    pose proof (total_upd (fun o => occ (subs_of o) b) (objs s) a None Lt) as E. rewrite Ha in E. cbn [at_or0] in E. unfold slots. lia. }
  assert (NS : forall b o', get (objs s) b = Some o' -> ~ In a (subs_of o')).
  { intros b o' H I. apply occ_in in I. pose proof (total_get (fun o => occ (subs_of o) a) (objs s) b) as T. rewrite H in T.
    cbn in T. unfold slots in Z. lia. }
  assert (SH : forall x, x <> a -> is_shared s x -> is_shared (remove s a) x).
  { intros x N (ox & n & H & Ho). exists ox, n. rewrite get_remove by auto. apply Nat.eqb_neq in N. rewrite N. auto. }
  constructor.
  - intros b o' H' c Hc. destruct (G b o' H') as [N H]. apply SH; [|eapply C; eauto]. intros ->. exact (NS b o' H Hc).
  - intros b o' n H' Ho. destruct (G b o' H') as [N H]. destruct (U b o' n H Ho) as [E P]. specialize (SL b). rewrite occ_app. lia.
  - intros c Hc. apply in_app_or in Hc. destruct Hc as [Hc|Hc].
    + apply SH; [|eapply C; eauto]. intros ->. exact (NS a o Ha Hc).
    + apply SH; auto. intros ->. auto.
  - intros b o' n H' Ho c Hc. destruct (G b o' H') as [N H]. eapply R; eauto.
  - intros b o' n H' Ho. destruct (G b o' H') as [N H]. eapply L; eauto.
  - intros b o' H'. destruct (G b o' H') as [N H]. apply (Id b o' H).
Qed.
Lemma mutable_slots w s a o : sinv w s -> get (objs s) a = Some o -> mutable_ o = true -> slots (objs s) a = 0 /\ ~ In a w.
Proof.
  intros [C U W R L Id] Ha Hm. split.
  - unfold slots, total. assert (Forall (fun x => match x with Some o => occ (subs_of o) a = 0 | None => True end) (objs s)) as F.
    { apply Forall_forall. intros [x|] Hx; auto. destruct (In_nth _ _ None Hx) as (i & Hi & E).
      destruct (occ (subs_of x) a) eqn:E0; auto. assert (In a (subs_of x)) as I by (apply in_occ; lia).
      destruct (C i x E a I) as (oc & kk & H & Ho). rewrite Ha in H. injection H as <-. unfold mutable_ in Hm. rewrite Ho in Hm. discriminate. }
    clear - F. induction F as [|[x|] l H F IH]; cbn; lia.
  - intros I. destruct (W a I) as (oc & kk & H & Ho). rewrite Ha in H. injection H as <-. unfold mutable_ in Hm. rewrite Ho in Hm. discriminate.
Qed.
Lemma drop1_inv w s a o n : sinv (a :: w) s -> get (objs s) a = Some o -> o_owner o = Shared (S (S n)) ->
  sinv w (modify s a (with_owner (Shared (S n)))).
Proof.
  intros [C U W R L Id] Ha Ho.
  set (s' := modify s a (with_owner (Shared (S n)))).
  assert (G : forall b o', get (objs s') b = Some o' -> b = a /\ o' = with_owner (Shared (S n)) o \/ b <> a /\ get (objs s) b = Some o').
  { intros b o' H. unfold s' in H. rewrite get_modify in H. destruct (Nat.eqb_spec b a) as [->|N]; auto. rewrite Ha in H. injection H as <-. auto. }
  assert (SL : forall b, slots (objs s') b = slots (objs s) b) by (intros; apply slots_modify; reflexivity).
  assert (SH : forall x, is_shared s x -> is_shared s' x).
  { intros x (ox & k & H & Hk). destruct (Nat.eq_dec x a) as [->|N].
    - exists (with_owner (Shared (S n)) o), (S n). unfold s'. rewrite get_modify, Nat.eqb_refl, Ha. auto.
    - exists ox, k. unfold s'. rewrite get_modify. apply Nat.eqb_neq in N. rewrite N. auto. }
  constructor.
  - intros b o' H' x Hx. apply SH. destruct (G b o' H') as [(-> & ->)|(_ & H)]; eapply C; eauto.
  - intros b o' k H' Hk. rewrite SL. destruct (G b o' H') as [(-> & ->)|(N & H)].
    + cbn in Hk. injection Hk as <-. destruct (U a o _ Ha Ho) as [E P]. cbn in E. fold (occ w a) in E.
      destruct (Nat.eq_dec a a); [lia|congruence].
    + destruct (U b o' k H Hk) as [E P]. cbn in E. fold (occ w b) in E. destruct (Nat.eq_dec a b); [congruence|lia].
  - intros x Hx. apply SH. apply W. right. auto.
  - intros b o' k H' Hk x Hx. destruct (G b o' H') as [(-> & ->)|(_ & H)]; eapply R; eauto.
  - intros b o' k H' Hk. destruct (G b o' H') as [(-> & ->)|(_ & H)]; [|eapply L; eauto]. cbn. eapply (L a o _ Ha). eauto.
  - intros b o' H'. unfold s'. rewrite (proj2 (proj2 (modify_rest s a _))). destruct (G b o' H') as [(-> & ->)|(_ & H)]; [|eapply Id; eauto].
    cbn. eapply Id; eauto.
Qed.

(** What a destruction leaves: the objects of the program, and the surviving factors with another pointer
    count; every destroyed factor had no point attached. *)
Definition shrinks s s' : Prop :=
  pts s' = pts s /\ mems s' = mems s /\ counter s' = counter s /\ length (objs s') = length (objs s) /\
  (forall a o', get (objs s') a = Some o' -> exists o, get (objs s) a = Some o /\ o' = with_owner (o_owner o') o /\ mutable_ o' = mutable_ o) /\
  (forall a o, get (objs s) a = Some o -> mutable_ o = true -> get (objs s') a = Some o) /\
  (forall a o, get (objs s) a = Some o -> get (objs s') a = None -> o_count o = 0%Z).
Lemma shrinks_refl s : shrinks s s.
Proof. do 4 (split; [reflexivity|]). split; [|split]; intros; auto; try congruence. exists o'. split; auto. split; auto. destruct o'; reflexivity. Qed.
Lemma shrinks_trans s1 s2 s3 : shrinks s1 s2 -> shrinks s2 s3 -> shrinks s1 s3.
Proof.
  intros (A1 & B1 & C1 & D1 & E1 & F1 & G1) (A2 & B2 & C2 & D2 & E2 & F2 & G2).
  split; [congruence|]. split; [congruence|]. split; [congruence|]. split; [congruence|]. split; [|split].
  - intros a o3 H. destruct (E2 a o3 H) as (o2 & H2 & E3 & M3). destruct (E1 a o2 H2) as (o1 & H1 & E4 & M4). exists o1. split; auto.
    split; [|congruence]. rewrite E3 at 1. rewrite E4. reflexivity.
  - intros a o H M. apply F2; auto.
  - intros a o H N. destruct (get (objs s2) a) as [o2|] eqn:E; [|eauto]. destruct (E1 a o2 E) as (o1 & H1 & E0 & _).
    assert (o1 = o) by congruence. subst o1. specialize (G2 a o2 E N). rewrite E0 in G2. auto.
Qed.

(** The call ends the program on an object nothing points to any more, with points attached. *)
Definition doomed s : Prop := exists s1 w c oc, shrinks s s1 /\ sinv (c :: w) s1 /\ get (objs s1) c = Some oc /\
  o_owner oc = Shared 1 /\ o_count oc <> 0%Z.
Lemma doomed_shrinks s s1 : shrinks s s1 -> doomed s1 -> doomed s.
Proof. intros H (s2 & w & c & oc & H2 & X). exists s2, w, c, oc. split; auto. eapply shrinks_trans; eauto. Qed.
Lemma release_inv fuel : forall s w, sinv w s -> pointers (objs s) + length w < fuel ->
  (release fuel s w = Terminated /\ doomed s) \/ exists s', release fuel s w = Done s' /\ sinv [] s' /\ shrinks s s'.
Proof.
  induction fuel as [|f IH]; intros s w I Hf; [lia|].
  destruct w as [|a w]; cbn [release]; [right; exists s; split; auto; split; auto; apply shrinks_refl|].
  pose proof (i_w _ _ I a (or_introl eq_refl)) as (o & n & Ha & Ho). rewrite Ha, Ho.
  destruct (i_uses _ _ I a o n Ha Ho) as [En Pn]. pose proof (get_lt _ _ _ Ha) as Lt.
  destruct n as [|[|k1]]; [lia| |].
  - destruct (Z.eqb_spec (o_count o) 0) as [Zc|Zc].
    2:{ left. split; auto. exists s, w, a, o. split; [apply shrinks_refl|]. auto. }
    cbn in En. fold (occ w a) in En.
    destruct (Nat.eq_dec a a); [|congruence].
    assert (I1 : sinv w (remove s a) \/ True) by auto. clear I1.
    assert (I2 : sinv (subs_of o ++ w) (remove s a)).
    { assert (S0 : slots (objs s) a = 0) by lia. assert (Na : ~ In a w) by (intros X; apply occ_in in X; lia).
      destruct I as [C U W R L Id].
      assert (G : forall b o', get (objs (remove s a)) b = Some o' -> b <> a /\ get (objs s) b = Some o').
      { intros b o' H. rewrite get_remove in H by auto. destruct (Nat.eqb_spec b a); [discriminate|auto]. }
      assert (SL : forall b, slots (objs (remove s a)) b + occ (subs_of o) b = slots (objs s) b).
      { intros b. unfold remove. cbn [objs set_objs].
        pose proof (total_upd (fun o => occ (subs_of o) b) (objs s) a None Lt) as E. rewrite Ha in E. cbn [at_or0] in E. unfold slots. lia. }
      assert (NS : forall b o', get (objs s) b = Some o' -> ~ In a (subs_of o')).
      { intros b o' H X. apply occ_in in X. pose proof (total_get (fun o => occ (subs_of o) a) (objs s) b) as T. rewrite H in T.
        cbn in T. unfold slots in S0. lia. }
      assert (SH : forall x, x <> a -> is_shared s x -> is_shared (remove s a) x).
      { intros x N (ox & k & H & Hk). exists ox, k. rewrite get_remove by auto. apply Nat.eqb_neq in N. rewrite N. auto. }
      constructor.
      - intros b o' H' c Hc. destruct (G b o' H') as [N H]. apply SH; [|eapply C; eauto]. intros ->. exact (NS b o' H Hc).
      - intros b o' k H' Hk. destruct (G b o' H') as [N H]. destruct (U b o' k H Hk) as [E P]. specialize (SL b). rewrite occ_app.
        cbn in E. fold (occ w b) in E. destruct (Nat.eq_dec a b); [congruence|]. lia.
      - intros c Hc. apply in_app_or in Hc. destruct Hc as [Hc|Hc].
        + apply SH; [|eapply C; eauto]. intros ->. exact (NS a o Ha Hc).
        + apply SH; [|apply W; right; auto]. intros ->. auto.
      - intros b o' k H' Hk c Hc. destruct (G b o' H') as [N H]. eapply R; eauto.
      - intros b o' k H' Hk. destruct (G b o' H') as [N H]. eapply L; eauto.
      - intros b o' H'. destruct (G b o' H') as [N H]. apply (Id b o' H). }
    assert (M : pointers (objs (remove s a)) + length (subs_of o ++ w) < f).
    { unfold remove. cbn [objs set_objs]. pose proof (total_upd (fun o => length (subs_of o)) (objs s) a None Lt) as E.
      rewrite Ha in E. cbn [at_or0] in E. change (pointers (upd (objs s) a None)) with (total (fun o : obj K => length (subs_of o)) (upd (objs s) a None)).
      change (pointers (objs s)) with (total (fun o : obj K => length (subs_of o)) (objs s)) in Hf. rewrite app_length. cbn [length] in Hf. lia. }
    assert (Sh : shrinks s (remove s a)).
    2:{ destruct (IH _ _ I2 M) as [[E D]|(s' & E & I' & S')]; [left; split; auto; eapply doomed_shrinks; eauto|].
        right. exists s'. split; auto. split; auto. eapply shrinks_trans; eauto. }
    do 3 (split; [reflexivity|]). split; [unfold remove; cbn; apply upd_length|]. split; [|split].
    + intros b o' H. rewrite get_remove in H by auto. destruct (Nat.eqb_spec b a); [discriminate|]. exists o'. split; auto. split; auto. destruct o'; auto.
    + intros b ob H Mb. rewrite get_remove by auto. destruct (Nat.eqb_spec b a) as [->|]; auto. rewrite Ha in H. injection H as <-.
      unfold mutable_ in Mb. rewrite Ho in Mb. discriminate.
    + intros b ob H Nb. rewrite get_remove in Nb by auto. destruct (Nat.eqb_spec b a) as [->|]; congruence.
  - assert (I2 := drop1_inv w s a o k1 I Ha Ho).
    assert (M : pointers (objs (modify s a (with_owner (Shared (S k1))))) + length w < f).
    { change (pointers (objs s)) with (total (fun o : obj K => length (subs_of o)) (objs s)) in Hf.
      change (pointers ?l) with (total (fun o : obj K => length (subs_of o)) l).
      rewrite (total_ext _ _ (objs s)); [cbn [length] in Hf; lia|apply modify_length|]. intros i. rewrite get_modify.
      destruct (Nat.eqb_spec i a) as [->|]; auto. rewrite Ha. reflexivity. }
    assert (Sh : shrinks s (modify s a (with_owner (Shared (S k1))))).
    2:{ destruct (IH _ _ I2 M) as [[E D]|(s' & E & I' & S')]; [left; split; auto; eapply doomed_shrinks; eauto|].
        right. exists s'. split; auto. split; auto. eapply shrinks_trans; eauto. }
    unfold shrinks. destruct (modify_rest s a (with_owner (Shared (S k1)))) as (-> & -> & ->).
    do 3 (split; [reflexivity|]). split; [apply modify_length|]. split; [|split].
    + intros b o' H. rewrite get_modify in H. destruct (Nat.eqb_spec b a) as [->|].
      * rewrite Ha in H. injection H as <-. exists o. split; auto. split; auto. unfold mutable_. rewrite Ho. auto.
      * exists o'. split; auto. split; auto. destruct o'; auto.
    + intros b ob H Mb. rewrite get_modify. destruct (Nat.eqb_spec b a) as [->|]; auto. rewrite Ha in H. injection H as <-.
      unfold mutable_ in Mb. rewrite Ho in Mb. discriminate.
    + intros b ob H Nb. rewrite get_modify in Nb. destruct (Nat.eqb_spec b a) as [->|]; [rewrite Ha in Nb; discriminate|congruence].
Qed.
Lemma drop_inv s w : sinv w s -> drop s w = Terminated \/ exists s', drop s w = Done s' /\ sinv [] s' /\ shrinks s s'.
Proof.
  intros I. unfold drop. destruct (release_inv (S (pointers (objs s) + length w)) s w I) as [[E _]|X]; auto.
Qed.
Lemma drop_doomed s w : sinv w s -> drop s w = Terminated -> doomed s.
Proof.
  intros I E. unfold drop in E. destruct (release_inv (S (pointers (objs s) + length w)) s w I) as [[_ D]|(s' & E' & _)]; auto. congruence.
Qed.
(** A program's own object exchanges its pointers with those in flight. *)
Lemma swap_inv w s p op f : sinv (subs_of (f op) ++ w) s -> get (objs s) p = Some op -> mutable_ op = true ->
  o_owner (f op) = o_owner op -> o_id (f op) < counter s -> sinv (subs_of op ++ w) (modify s p f).
Proof.
  intros [C U W R L Id] Hp Hm Eo Ei.
  assert (G : forall a o', get (objs (modify s p f)) a = Some o' -> a = p /\ o' = f op \/ a <> p /\ get (objs s) a = Some o').
  { intros a o' H. rewrite get_modify in H. destruct (Nat.eqb_spec a p) as [->|N]; auto. rewrite Hp in H. injection H as <-. auto. }
  assert (SL : forall a, slots (objs (modify s p f)) a + occ (subs_of op) a = slots (objs s) a + occ (subs_of (f op)) a).
  { intros a. unfold modify. rewrite Hp. cbn [objs set_objs].
    pose proof (total_upd (fun o => occ (subs_of o) a) (objs s) p (Some (f op)) (get_lt _ _ _ Hp)) as E.
    rewrite Hp in E. cbn [at_or0] in E. unfold slots. lia. }
  assert (SH : forall x, is_shared s x -> is_shared (modify s p f) x).
  { intros x (o & n & H & Ho). destruct (Nat.eq_dec x p) as [->|N].
    - rewrite Hp in H. injection H as <-. unfold mutable_ in Hm. rewrite Ho in Hm. discriminate.
    - exists o, n. rewrite get_modify. apply Nat.eqb_neq in N. rewrite N. auto. }
  assert (NS : forall n, o_owner (f op) <> Shared n) by (intros n X; unfold mutable_ in Hm; rewrite Eo in X; rewrite X in Hm; discriminate).
  constructor.
  - intros a o' H' x Hx. apply SH. destruct (G a o' H') as [(-> & ->)|(_ & H)]; [|eapply C; eauto]. apply W. apply in_or_app. auto.
  - intros a o' n H' Ho. specialize (SL a). rewrite occ_app. destruct (G a o' H') as [(-> & ->)|(_ & H)]; [destruct (NS n Ho)|].
    destruct (U a o' n H Ho) as [E P]. split; auto. rewrite occ_app in E. lia.
  - intros x Hx. apply SH. apply in_app_or in Hx. destruct Hx as [Hx|Hx]; [apply (C p op Hp x Hx)|]. apply W. apply in_or_app. auto.
  - intros a o' n H' Ho x Hx. destruct (G a o' H') as [(-> & ->)|(_ & H)]; [destruct (NS n Ho)|eapply R; eauto].
  - intros a o' n H' Ho. destruct (G a o' H') as [(-> & ->)|(_ & H)]; [destruct (NS n Ho)|eapply L; eauto].
  - intros a o' H'. rewrite (proj2 (proj2 (modify_rest s p f))). destruct (G a o' H') as [(-> & ->)|(_ & H)]; [auto|eapply Id; eauto].
Qed.

End Heap.
