(** C70: calls through a pointer to a manifold that no longer exists. *)
From Coq Require Import ZArith List Bool Lia.
From Verif Require Import Model_Valid.
Import ListNotations.
Open Scope nat_scope.

(** ** Specification *)

(** Members of which nothing runs once the manifold is destroyed. *)
Definition protected (m : member) : Prop :=
  ~ In m [createRandomPoint_out; display; description; pseudoLog0; getIdentityOnTxM; limitMap;
          getTypicalMagnitude_out; getTypicalMagnitude; getTrustMagnitude_out; getTrustMagnitude; lock; isLocked;
          name; getInstanceId; isSameType; getNewCopy; multiplied; pt_pseudoLog0_out; pt_typicalMagnitude;
          pt_trustMagnitude].

(** Members that read or write the destroyed manifold first, but do not complete. *)
Definition stopped_late (m : member) : Prop := In m [getIdentityOnTxM; multiplied].

(** The act changes who lives at [a], or what is left there. *)
Definition rewrites (a : nat) (x : act) : Prop :=
  match x with
  | Build b | CopyBuild b _ | Overwrite b _ => b = a
  | _ => False
  end.

(** A program ran from fresh storage to [s]. *)
Definition reached (s : store) : Prop := exists z l, acts_on (blank z) l = Some s.

(** Manifold number [n] lives at [a]. *)
Definition lives (s : store) (a n : nat) : Prop := tenant (at_ s a) = Some n.

(** ** Histories *)

Lemma acts_app : forall l l' s, acts_on s (l ++ l') =
  match acts_on s l with Some s' => acts_on s' l' | None => None end.
Proof.
  induction l as [|x l IH]; intros l' s; simpl; [reflexivity|].
  destruct (act_on s x); [apply IH | reflexivity].
Qed.

Lemma reached_more : forall s l s', reached s -> acts_on s l = Some s' -> reached s'.
Proof. intros s l s' (z & l0 & E) E'. exists z, (l0 ++ l). rewrite acts_app, E. exact E'. Qed.

(** What holds in every reached storage: live manifolds carry the flag; construction numbers are below the
    counter and name one place. *)
Definition inv (s : store) : Prop :=
  (forall a n, lives s a n -> flag (at_ s a) = FLAG /\ n < built_so_far s) /\
  (forall a b n, lives s a n -> lives s b n -> a = b).

Lemma at_put : forall s a p b, at_ (put s a p) b = if b =? a then p else at_ s b.
Proof. reflexivity. Qed.

Lemma free_lives : forall s a, free s a = false -> exists n, lives s a n.
Proof. unfold free, lives. intros s a F. destruct (tenant (at_ s a)) as [n|]; [exists n; reflexivity | discriminate]. Qed.

Ltac put_cases := unfold lives in *; simpl in *;
  repeat match goal with
  | H : context[?b =? ?a] |- _ => destruct (Nat.eqb_spec b a); [subst|]; simpl in *
  | |- context[?b =? ?a] => destruct (Nat.eqb_spec b a); [subst|]; simpl in *
  end.

Lemma inv_build : forall s a c, inv s -> inv (bump (put s a (Place FLAG c (Some (built_so_far s))))).
Proof.
  intros s a c (I & U). split.
  - intros b n H. put_cases.
    + injection H as <-. auto.
    + destruct (I b n H). auto.
  - intros b b' n H H'. put_cases; try reflexivity; try (eapply U; eassumption);
    match goal with E : Some _ = Some ?k, T : tenant _ = Some ?k |- _ =>
      destruct (I _ k T); assert (k = built_so_far s) by congruence; lia end.
Qed.

(** The tenant stays, and so does the flag of a live manifold. *)
Lemma inv_same : forall s a p, inv s -> tenant p = tenant (at_ s a) ->
  (forall n, lives s a n -> flag p = FLAG) -> inv (put s a p).
Proof.
  intros s a p (I & U) T F. split.
  - intros b n H. put_cases.
    + rewrite T in H. split; [exact (F n H) | destruct (I a n H); auto].
    + auto.
  - intros b b' n H H'. put_cases; auto; try (rewrite T in *); eauto.
Qed.

Lemma inv_none : forall s a p, inv s -> tenant p = None -> inv (put s a p).
Proof.
  intros s a p (I & U) T. split.
  - intros b n H. put_cases; [congruence | auto].
  - intros b b' n H H'. put_cases; try congruence. eauto.
Qed.

Lemma inv_act : forall s x s', inv s -> act_on s x = Some s' -> inv s'.
Proof.
  intros s x s' I E. destruct x as [a|a b|a b|a|a|a|a z]; simpl in E.
  - destruct (free s a); [|discriminate]. injection E as <-. apply inv_build, I.
  - destruct (free s a && negb (free s b)); [|discriminate]. injection E as <-. apply inv_build, I.
  - destruct (free s a || free s b) eqn:F; [discriminate|]. apply orb_false_elim in F as [Fa Fb].
    injection E as <-. apply inv_same; [exact I | reflexivity |].
    intros n _. simpl. destruct (free_lives s b Fb) as [k Lk]. apply (proj1 I b k Lk).
  - destruct (free s a); [discriminate|]. injection E as <-.
    apply inv_same; [exact I | reflexivity |]. intros n H. apply (proj1 I a n H).
  - destruct (0 <? count (at_ s a))%Z; [|discriminate]. injection E as <-.
    apply inv_same; [exact I | reflexivity |]. intros n H. apply (proj1 I a n H).
  - destruct (free s a); [discriminate|]. injection E as <-. apply inv_none; [exact I | reflexivity].
  - destruct (free s a); [|discriminate]. injection E as <-. apply inv_none; [exact I | reflexivity].
Qed.

Lemma inv_acts : forall l s s', inv s -> acts_on s l = Some s' -> inv s'.
Proof.
  induction l as [|x l IH]; simpl; intros s s' I E; [injection E as <-; exact I|].
  destruct (act_on s x) as [s1|] eqn:A; [|discriminate]. eauto using inv_act.
Qed.

Lemma inv_reached : forall s, reached s -> inv s.
Proof.
  intros s (z & l & E). apply (inv_acts l (blank z)); [|exact E].
  split; unfold lives; simpl; intros; discriminate.
Qed.

(** A free place keeps its flag until it is rewritten. *)
Lemma free_act : forall s a x s', free s a = true -> ~ rewrites a x -> act_on s x = Some s' ->
  free s' a = true /\ flag (at_ s' a) = flag (at_ s a).
Proof.
  intros s a x s' F N E.
  destruct x as [b|b c|b c|b|b|b|b z]; simpl in E, N.
  - destruct (free s b); [|discriminate]. injection E as <-. unfold free in *. simpl.
    destruct (Nat.eqb_spec a b) as [e|ne]; [subst b; congruence|]. auto.
  - destruct (free s b && negb (free s c)); [|discriminate]. injection E as <-. unfold free in *. simpl.
    destruct (Nat.eqb_spec a b) as [e|ne]; [subst b; congruence|]. auto.
  - destruct (free s b || free s c) eqn:G; [discriminate|]. apply orb_false_elim in G as [G _].
    injection E as <-. unfold free in *. simpl. destruct (Nat.eqb_spec a b) as [e|ne]; [subst b; congruence|]. auto.
  - destruct (free s b) eqn:G; [discriminate|]. injection E as <-. unfold free in *. simpl.
    destruct (Nat.eqb_spec a b) as [e|ne]; [subst b; congruence|]. auto.
  - destruct (0 <? count (at_ s b))%Z; [|discriminate]. injection E as <-. unfold free in *. simpl.
    destruct (Nat.eqb_spec a b) as [e|ne]; [subst b; auto|]. auto.
  - destruct (free s b) eqn:G; [discriminate|]. injection E as <-. unfold free in *. simpl.
    destruct (Nat.eqb_spec a b) as [e|ne]; [subst b; congruence|]. auto.
  - destruct (free s b); [|discriminate]. injection E as <-. unfold free in *. simpl.
    destruct (Nat.eqb_spec a b) as [e|ne]; [subst b; congruence|]. auto.
Qed.

Lemma free_acts : forall l s a s', free s a = true -> Forall (fun x => ~ rewrites a x) l -> acts_on s l = Some s' ->
  free s' a = true /\ flag (at_ s' a) = flag (at_ s a).
Proof.
  induction l as [|x l IH]; simpl; intros s a s' F N E; [injection E as <-; auto|].
  inversion N as [|y k Nx Nl]; subst.
  destruct (act_on s x) as [s1|] eqn:A; [|discriminate].
  destruct (free_act _ _ _ _ F Nx A) as [F1 G1]. destruct (IH _ _ _ F1 Nl E) as [F2 G2]. split; congruence.
Qed.

(** ** Members *)

Lemma run_never_refused : forall l debug fl pass k t, isValid debug fl = true -> snd (run debug fl pass k t l) <> Refused.
Proof.
  induction l as [|x l IH]; intros debug fl pass k t V; simpl; [discriminate|].
  destruct x; rewrite ?V; destruct debug; try destruct (pass k); simpl; try discriminate; auto.
Qed.

Lemma guarded : forall debug fl pass l, isValid debug fl = false -> run debug fl pass 0 false (Guard :: l) = (false, Refused).
Proof. intros debug fl pass l V. simpl. rewrite V. reflexivity. Qed.

Lemma protected_guard : forall m, protected m -> exists l, lines m = Guard :: l.
Proof.
  intros m P. destruct m; try (eexists; reflexivity); exfalso; apply P; simpl; tauto.
Qed.

(** ** C70 *)

(** A live manifold is never refused, in whatever way it came to be: built, copied, assigned to, in storage
    used before. *)
Theorem C70_live : forall debug s a n pass m, reached s -> lives s a n -> snd (call debug s a pass m) <> Refused.
Proof.
  intros debug s a n pass m R L. apply run_never_refused.
  destruct (proj1 (inv_reached s R) a n L) as [F _]. rewrite F. destruct debug; reflexivity.
Qed.

(** Two manifolds never live in the same place, nor one in two. *)
Theorem C70_one_place : forall s a b n, reached s -> lives s a n -> lives s b n -> a = b.
Proof. intros s a b n R. exact (proj2 (inv_reached s R) a b n). Qed.

(** From the destruction of a manifold until its storage is written again, whatever happens elsewhere and to
    its points, every protected member is refused before it reads or writes anything else. *)
Theorem C70_destroyed : forall s s1 s2 a n l pass m,
  reached s -> lives s a n -> act_on s (Destroy a) = Some s1 ->
  Forall (fun x => ~ rewrites a x) l -> acts_on s1 l = Some s2 ->
  protected m -> call true s2 a pass m = (false, Refused).
Proof.
  intros s s1 s2 a n l pass m R L D N E P.
  simpl in D. destruct (free s a) eqn:F; [discriminate|]. injection D as <-.
  set (s1 := put s a _) in *.
  assert (F1 : free s1 a = true) by (unfold free, s1; simpl; rewrite Nat.eqb_refl; reflexivity).
  destruct (free_acts l s1 a s2 F1 N E) as [_ G].
  assert (G1 : flag (at_ s1 a) = DEAD) by (unfold s1; simpl; rewrite Nat.eqb_refl; reflexivity).
  unfold call. destruct (protected_guard m P) as [k Ek]. rewrite Ek, G, G1. apply guarded. reflexivity.
Qed.

(** Destroying a live manifold is always possible; when points are attached it throws, and the manifold is gone
    all the same: its points are refused from then on. *)
Theorem C70_refused_destruction : forall s a n, reached s -> lives s a n -> exists s1,
  act_on s (Destroy a) = Some s1 /\ (forall k, ~ lives s1 a k) /\
  (destroy_throws s a = true <-> count (at_ s a) <> 0%Z) /\
  forall pass m, protected m -> call true s1 a pass m = (false, Refused).
Proof.
  intros s a n R L. simpl. assert (F : free s a = false) by (unfold free; unfold lives in L; rewrite L; reflexivity).
  rewrite F. eexists. split; [reflexivity|]. repeat split.
  - intros k K. unfold lives in K. simpl in K. rewrite Nat.eqb_refl in K. discriminate.
  - unfold destroy_throws. intros T Z0. rewrite Z0 in T. discriminate.
  - unfold destroy_throws. intros T. destruct (Z.eqb_spec (count (at_ s a)) 0); [contradiction | reflexivity].
  - intros pass m P. eapply (C70_destroyed s _ _ a n []); eauto; simpl; rewrite ?F; reflexivity.
Qed.

(** The two members that look at the manifold before their first check do not complete either. *)
Theorem C70_late : forall fl pass m, fl <> FLAG -> stopped_late m ->
  fst (run true fl pass 0 false (lines m)) = true /\ snd (run true fl pass 0 false (lines m)) <> Through.
Proof.
  intros fl pass m N S. apply Z.eqb_neq in N.
  destruct S as [<-|[<-|[]]]; simpl; rewrite ?N; repeat match goal with |- context[pass ?k] => destruct (pass k) end;
    simpl; split; congruence.
Qed.

(** Storage last written by something else: a protected member is refused exactly when the number left there is
    not the flag. *)
Theorem C70_overwritten : forall s s1 s2 a z l pass m,
  reached s -> act_on s (Overwrite a z) = Some s1 ->
  Forall (fun x => ~ rewrites a x) l -> acts_on s1 l = Some s2 ->
  protected m -> (snd (call true s2 a pass m) = Refused <-> z <> FLAG).
Proof.
  intros s s1 s2 a z l pass m R D N E P.
  simpl in D. destruct (free s a) eqn:F; [|discriminate]. injection D as <-.
  set (s1 := put s a _) in *.
  assert (F1 : free s1 a = true) by (unfold free, s1; simpl; rewrite Nat.eqb_refl; reflexivity).
  destruct (free_acts l s1 a s2 F1 N E) as [_ G].
  assert (G1 : flag (at_ s1 a) = z) by (unfold s1; simpl; rewrite Nat.eqb_refl; reflexivity).
  unfold call. rewrite G, G1. split.
  - intros H ->. exact (run_never_refused _ true FLAG pass 0 false eq_refl H).
  - intros Z0. destruct (protected_guard m P) as [k Ek]. rewrite Ek, guarded; [reflexivity|].
    simpl. apply Z.eqb_neq, Z0.
Qed.

(** The members that can complete on a manifold without the flag are exactly those neither protected nor
    stopped late: some outcome of their other assertions lets them through. *)
Theorem C70_unprotected : forall fl m, fl <> FLAG ->
  ((exists pass, snd (run true fl pass 0 false (lines m)) = Through) <-> ~ protected m /\ ~ stopped_late m).
Proof.
  intros fl m N. split.
  - intros (pass & T). split.
    + intros P. destruct (protected_guard m P) as [k Ek]. rewrite Ek, guarded in T; [discriminate|].
      simpl. apply Z.eqb_neq, N.
    + intros S. apply (C70_late fl pass m N S). exact T.
  - intros (P & S). exists (fun _ => true).
    destruct m; try reflexivity; exfalso;
      first [ apply S; unfold stopped_late; simpl; tauto | apply P; unfold protected; simpl; intuition discriminate ].
Qed.

(** The claim for every member, "a call through a pointer to a destroyed manifold is stopped", is false. *)
Theorem C70_every_member_refuted : exists s s1 a n pass m, reached s /\ lives s a n /\
  act_on s (Destroy a) = Some s1 /\ call true s1 a pass m = (true, Through).
Proof.
  exists (Store (at_ (put (blank (fun _ => 0%Z)) 0 (Place FLAG 0 (Some 0)))) 1). eexists.
  exists 0, 0, (fun _ => true), pseudoLog0.
  split; [exists (fun _ => 0%Z), [Build 0]; reflexivity|]. repeat split; reflexivity.
Qed.

(** The claim for protected members and reused storage is false: a manifold is destroyed while a pointer to it
    is kept, another one is built in its place, and no call through the pointer is ever refused. *)
Theorem C70_recycled_refuted : exists s s' a n l, reached s /\ lives s a n /\ acts_on s l = Some s' /\ ~ lives s' a n /\
  forall pass m, snd (call true s' a pass m) <> Refused.
Proof.
  exists (Store (at_ (put (blank (fun _ => 0%Z)) 0 (Place FLAG 0 (Some 0)))) 1). eexists. exists 0, 0, [Destroy 0; Build 0].
  assert (R : reached (Store (at_ (put (blank (fun _ => 0%Z)) 0 (Place FLAG 0 (Some 0)))) 1)).
  { exists (fun _ => 0%Z), [Build 0]. reflexivity. }
  split; [exact R|]. split; [reflexivity|]. split; [reflexivity|]. split; [discriminate|].
  intros pass m. eapply (C70_live true _ 0 1); [|reflexivity].
  eapply reached_more; [exact R|]. instantiate (1 := [Destroy 0; Build 0]). reflexivity.
Qed.

(** With NDEBUG no call is refused, whatever is at the place. *)
Theorem C70_release : forall s a pass m, snd (call false s a pass m) <> Refused.
Proof. intros s a pass m. apply run_never_refused. reflexivity. Qed.

(** ** Examples *)

(** Two manifolds, a copy of the first in a third place, a point on the first; the first is destroyed (which
    throws), its point detached, the second assigned from the copy.  Then: the first refuses retractation and
    does not refuse pseudoLog0; the other two accept both. *)
Definition story := [Build 0; Build 1; CopyBuild 2 0; Attach 0].
Definition after := [Detach 0; AssignTo 1 2; Build 3].
Definition yes := fun _ : nat => true.
Example ex_C70 : exists s s1 s2, acts_on (blank (fun _ => 17%Z)) story = Some s /\ lives s 0 0 /\
  destroy_throws s 0 = true /\ act_on s (Destroy 0) = Some s1 /\ acts_on s1 after = Some s2 /\
  Forall (fun x => ~ rewrites 0 x) after /\ protected retractation /\ protected pt_pseudoLog0 /\
  call true s2 0 yes retractation = (false, Refused) /\ call true s2 0 yes pseudoLog0 = (true, Through) /\
  call true s2 0 yes pt_pseudoLog0 = (false, Refused) /\ call false s2 0 yes retractation = (true, Through) /\
  call true s2 1 yes retractation = (true, Through) /\ call true s2 2 yes retractation = (true, Through).
Proof.
  do 3 eexists. split; [reflexivity|]. split; [reflexivity|]. split; [reflexivity|]. split; [reflexivity|].
  split; [reflexivity|]. split.
  { repeat constructor; simpl; intros H; try exact H; discriminate H. }
  split; [unfold protected; simpl; intuition discriminate|]. split; [unfold protected; simpl; intuition discriminate|]. repeat split; reflexivity.
Qed.

(** Storage reused by something that is not a manifold. *)
Example ex_C70_overwritten : exists s, acts_on (blank (fun _ => 0%Z)) [Build 0; Destroy 0; Overwrite 0 42] = Some s /\
  call true s 0 yes dim = (false, Refused) /\ stopped_late getIdentityOnTxM /\
  call true s 0 yes getIdentityOnTxM = (true, Refused).
Proof. eexists. split; [reflexivity|]. repeat split; unfold stopped_late; simpl; tauto. Qed.

Print Assumptions C70_live.
Print Assumptions C70_one_place.
Print Assumptions C70_destroyed.
Print Assumptions C70_refused_destruction.
Print Assumptions C70_late.
Print Assumptions C70_overwritten.
Print Assumptions C70_unprotected.
Print Assumptions C70_every_member_refuted.
Print Assumptions C70_recycled_refuted.
Print Assumptions C70_release.
