(** C34, C35: the temporary buffers. *)
From Coq Require Import NArith List Bool Arith Lia Permutation.
From Verif Require Import Model_Buffer Buffer.
Import ListNotations.
Local Open Scope N_scope.

(** Histories: any number of constructions, copies (whose allocation may fail), requests of at most 2^63
    doubles whose growth succeeds, and destructions, on any number of objects. *)
Definition tame (o : op) : Prop :=
  match o with GetMap _ m n ok => m * n <= 2 ^ 63 /\ ok = true | _ => True end.
Definition reachable (s : state) : Prop := exists h, Forall tame h /\ run init h = Done s.

Lemma u64_small x : x <= 2 ^ 63 -> u64 x = x.
Proof. intros H. apply N.mod_small. change (2 ^ 64) with (2 * 2 ^ 63). assert (0 < 2 ^ 63) by reflexivity. lia. Qed.

(** One tame call from a good state: it returns, throws (constructors only) or rejects a non-object; the state stays good. *)
Lemma step_inv s o : inv s -> tame o ->
  (exists s', (step s o = Done s' \/ step s o = Thrown s') /\ inv s') \/ step s o = Asserted.
Proof.
  intros I T. destruct o as [size ok|i ok|i m n ok|i]; cbn [step].
  - destruct (N.ltb_spec 0 size) as [P|]; auto. left. destruct ok.
    + eexists. split; [left; reflexivity|]. exact (proj1 (construct_inv s size _ I P eq_refl)).
    + eexists. split; [right; reflexivity|]. exact (proj1 (construct_throw_inv s size _ I eq_refl)).
  - destruct (get s i) as [b|] eqn:E; auto. left. destruct ok.
    + eexists. split; [left; reflexivity|]. exact (proj1 (construct_inv s (size_ b) _ I (inv_pos s I i b E) eq_refl)).
    + eexists. split; [right; reflexivity|]. exact (proj1 (construct_throw_inv s (size_ b) _ I eq_refl)).
  - destruct (get s i) as [b|] eqn:E; auto. left. destruct T as [T ->]. rewrite u64_small by auto.
    destruct (N.ltb_spec (size_ b) (m * n)) as [L|L].
    + destruct (realloc_inv s i b (m * n) I E L T) as (s' & k & H & I' & _). eauto.
    + eauto.
  - destruct (get s i) as [b|] eqn:E; auto. left. destruct (destroy_inv s i b I E) as (s' & H & I' & _).
    cbn [step] in H. rewrite E in H. eauto.
Qed.
Lemma run_inv h : forall s, inv s -> Forall tame h -> (exists s', run s h = Done s' /\ inv s') \/ run s h = Asserted.
Proof.
  induction h as [|o h IH]; intros s I T; cbn [run]; [eauto|]. inversion T; subst.
  destruct (step_inv s o) as [(s' & [E|E] & I')|E]; auto; rewrite E; auto.
Qed.
Lemma reachable_inv s : reachable s -> inv s.
Proof.
  intros (h & T & H). destruct (run_inv h init init_inv T) as [(s' & E & I)|E]; rewrite E in H; [|discriminate]. injection H as <-. auto.
Qed.

(** No history ever releases a block twice or with a wrong size, and none hangs; in every reached state the
    allocated blocks are exactly the buffers of the live objects, each with its own size; every block ever
    allocated is either still allocated or was released, exactly once and with its own size. *)
Theorem C34_memory : forall h, Forall tame h ->
  run init h <> UB /\ run init h <> Hang /\
  forall s, run init h = Done s ->
    Permutation (live s) (flat_map (fun o => match o with Some b => [(buffer_ b, size_ b)] | None => [] end) (objs s)) /\
    Permutation (allocs s) (live s ++ frees s) /\ NoDup (map fst (allocs s)) /\
    ((forall i, get s i = None) -> live s = [] /\ Permutation (allocs s) (frees s)).
Proof.
  intros h T. destruct (run_inv h init init_inv T) as [(s' & E & I)|E]; rewrite E; (split; [discriminate|]; split; [discriminate|]);
    [|discriminate]. intros s H. injection H as <-. pose proof I as [I1 I2 I3 I4 I5]. split; auto. split; auto. split; auto.
  intros Nn. assert (L : live s' = []).
  { apply Permutation_nil. rewrite I1. replace (owned (objs s')) with (@nil (nat * N)); auto.
    assert (F : Forall (fun o => o = None) (objs s')).
    { apply Forall_forall. intros o Ho. destruct (In_nth _ _ None Ho) as (j & Hj & <-). apply Nn. }
    clear - F. unfold owned. induction F as [|o l Ho F IH]; [reflexivity|]. subst o. cbn. auto. }
  split; auto. rewrite L in I2. auto.
Qed.
Print Assumptions C34_memory.

(** A request of m x n doubles (at most 2^63): it succeeds, the buffer holds at least m n doubles, its
    capacity is the former one times a power of two (so it never shrinks), less than 2 m n if it grew,
    and no other object changes. *)
Theorem C34_request : forall s i b m n, reachable s -> get s i = Some b -> m * n <= 2 ^ 63 ->
  exists s' b', step s (GetMap i m n true) = Done s' /\ get s' i = Some b' /\
    In (buffer_ b', size_ b') (live s') /\
    m * n <= size_ b' /\ (exists k, size_ b' = size_ b * 2 ^ k) /\
    (size_ b' <> size_ b -> size_ b' < 2 * (m * n)) /\ (m * n <= size_ b -> s' = s) /\
    forall j, j <> i -> get s' j = get s j.
Proof.
  intros s i b m n R Hb Hmn. apply reachable_inv in R. cbn [step]. rewrite Hb, u64_small by auto.
  destruct (N.ltb_spec (size_ b) (m * n)) as [L|L].
  - destruct (realloc_inv s i b (m * n) R Hb L Hmn) as (s' & k & H & I' & G & Go & G1 & G2).
    eexists _, _. split; [exact H|]. split; [exact G|]. cbn [size_ buffer_]. split; [|split; [auto|split; [eauto|split; [auto|split; [lia|auto]]]]].
    apply (get_live s' i _ I' G).
  - exists s, b. split; auto. split; auto. split; [apply (get_live s i b R Hb)|]. split; auto. split.
    + exists 0. rewrite N.pow_0_r. lia.
    + split; [congruence|]. auto.
Qed.
Print Assumptions C34_request.

(** Capacities are the initial capacity times a power of two along every history: if every construction asks
    for [c] doubles (256 by default), every capacity is c 2^k. *)
Theorem C34_power_of_two : forall c h s, Forall tame h ->
  Forall (fun o => match o with Construct n _ => n = c | _ => True end) h -> run init h = Done s ->
  forall i b, get s i = Some b -> exists k, size_ b = c * 2 ^ k.
Proof.
  intros c h s T C H.
  assert (G : forall h s0 s, inv s0 -> (forall i b, get s0 i = Some b -> exists k, size_ b = c * 2 ^ k) -> Forall tame h ->
     Forall (fun o => match o with Construct n _ => n = c | _ => True end) h -> run s0 h = Done s ->
     forall i b, get s i = Some b -> exists k, size_ b = c * 2 ^ k).
  { clear. induction h as [|o h IH]; intros s0 s I Q T C H; cbn [run] in H; [injection H as <-; auto|].
    inversion T as [|? ? To Th]; subst. inversion C as [|? ? Co Ch]; subst.
    assert (S : forall s1, (step s0 o = Done s1 \/ step s0 o = Thrown s1) -> forall i b, get s1 i = Some b -> exists k, size_ b = c * 2 ^ k).
    { intros s1 S. destruct o as [size ok|j ok|j m n ok|j]; cbn [step] in S.
      - subst size. destruct (N.ltb_spec 0 c) as [P|]; [|destruct S; discriminate]. destruct ok.
        + destruct S as [S|S]; [|discriminate]. destruct (construct_inv s0 c s1 I P S) as (_ & G1 & G2). intros i b Hb.
          destruct (Nat.eq_dec i (length (objs s0))) as [->|N0]; [rewrite G1 in Hb; injection Hb as <-; exists 0; cbn; lia|].
          rewrite G2 in Hb by auto. eauto.
        + destruct S as [S|S]; [discriminate|]. destruct (construct_throw_inv s0 c s1 I S) as (_ & G1). intros i b Hb. rewrite G1 in Hb. eauto.
      - destruct (get s0 j) as [b0|] eqn:E; [|destruct S; discriminate]. destruct (Q _ _ E) as (k0 & Ek). destruct ok.
        + destruct S as [S|S]; [|discriminate]. destruct (construct_inv s0 _ s1 I (inv_pos _ I _ _ E) S) as (_ & G1 & G2). intros i b Hb.
          destruct (Nat.eq_dec i (length (objs s0))) as [->|N0]; [rewrite G1 in Hb; injection Hb as <-; exists k0; cbn; auto|].
          rewrite G2 in Hb by auto. eauto.
        + destruct S as [S|S]; [discriminate|]. destruct (construct_throw_inv s0 _ s1 I S) as (_ & G1). intros i b Hb. rewrite G1 in Hb. eauto.
      - destruct (get s0 j) as [b0|] eqn:E; [|destruct S; discriminate]. destruct To as [To ->]. rewrite u64_small in S by auto.
        destruct (N.ltb_spec (size_ b0) (m * n)) as [L|L].
        + destruct (realloc_inv s0 j b0 (m * n) I E L To) as (s' & k & Hr & _ & G1 & G2 & _). rewrite Hr in S.
          destruct S as [S|S]; [|discriminate]. injection S as <-. intros i b Hb.
          destruct (Nat.eq_dec i j) as [->|N0]; [rewrite G1 in Hb; injection Hb as <-; cbn|rewrite G2 in Hb by auto; eauto].
          destruct (Q _ _ E) as (k0 & ->). exists (k0 + k). rewrite N.pow_add_r. lia.
        + destruct S as [S|S]; [|discriminate]. injection S as <-. auto.
      - destruct (get s0 j) as [b0|] eqn:E; [|destruct S; discriminate]. destruct (destroy_inv s0 j b0 I E) as (s' & Hr & _ & G1 & G2).
        cbn [step] in Hr. rewrite E in Hr. rewrite Hr in S. destruct S as [S|S]; [|discriminate]. injection S as <-. intros i b Hb.
        destruct (Nat.eq_dec i j) as [->|N0]; [congruence|]. rewrite G2 in Hb by auto. eauto. }
    destruct (step_inv s0 o I To) as [(s1 & E & I1)|E]; [|rewrite E in H; discriminate].
    apply (IH s1 s I1 (S s1 E) Th Ch). destruct E as [E|E]; rewrite E in H; auto. }
  apply (G h init s init_inv); auto. intros [|i] b Hb; discriminate.
Qed.
Print Assumptions C34_power_of_two.

(** Beyond 2^63 the loop `newSize *= 2` wraps to 0 and never ends (sizes this large cannot come from
    getMap, whose product of two signed indices is below 2^63). *)
Theorem C34_beyond_2_63 : forall j size, j <= 63 -> 2 ^ 63 < size -> forall fuel, grow fuel (2 ^ j) size = None.
Proof.
  intros j size Hj Hs. apply grow_stuck.
  assert (G : forall f i, i <= 64 -> 64 < N.of_nat f + i -> grow f (u64 (2 ^ i)) size = None).
  { induction f as [|f IH]; intros i Hi Hf.
    - change (N.of_nat 0) with 0 in Hf. lia.
    - cbn [grow]. assert (L : u64 (2 ^ i) <= 2 ^ 63).
      { destruct (N.eq_dec i 64) as [->|N0]; [vm_compute; discriminate|]. unfold u64. rewrite N.mod_small by (apply N.pow_lt_mono_r; lia).
        apply N.pow_le_mono_r; lia. }
      destruct (N.ltb_spec (u64 (2 ^ i)) size); [|lia]. rewrite u64_idem.
      destruct (N.eq_dec i 64) as [->|N0].
      + change (u64 (2 ^ 64 * 2)) with 0. apply grow_zero. lia.
      + replace (2 ^ i * 2) with (2 ^ (i + 1)) by (rewrite N.add_1_r, N.pow_succ_r'; lia). apply IH; lia. }
  assert (E : u64 (2 ^ j) = 2 ^ j) by (apply N.mod_small; apply N.pow_lt_mono_r; lia).
  rewrite <- E. apply G; [lia|]. change (N.of_nat 65) with 65. lia.
Qed.
Print Assumptions C34_beyond_2_63.

(** C35 is false: one failing growth, then the destructor releases the same block a second time. *)
Theorem C35_refuted : exists h, h = [Construct 256 true; GetMap 0 17 16 false; Destroy 0] /\ run init h = UB.
Proof. eexists. split; reflexivity. Qed.
Print Assumptions C35_refuted.

(** Worse: after any failing growth in any history, every way of going on with the object (destroying it,
    growing it again) releases a block that is not allocated any more; only requests that fit still return,
    with a pointer to released memory. *)
Theorem C35_always_double_free : forall s i b m n s', reachable s -> get s i = Some b -> m * n <= 2 ^ 63 ->
  step s (GetMap i m n false) = Thrown s' ->
  get s' i = Some b /\ ~ In (buffer_ b) (map fst (live s')) /\
  step s' (Destroy i) = UB /\
  forall m' n' ok, m' * n' <= 2 ^ 63 -> size_ b < m' * n' -> step s' (GetMap i m' n' ok) = UB.
Proof.
  intros s i b m n s' R Hb Hmn H. apply reachable_inv in R. cbn [step] in H. rewrite Hb, u64_small in H by auto.
  destruct (N.ltb_spec (size_ b) (m * n)) as [L|L]; [|discriminate].
  unfold reallocate_ in H. destruct (grow 65 (size_ b) (m * n)) as [r|] eqn:G; [|discriminate].
  destruct (dealloc_ok s i b R Hb) as (l & D & P). rewrite D in H. injection H as <-.
  assert (Hb' : get (State (objs s) l (next s) (allocs s) ((buffer_ b, size_ b) :: frees s)) i = Some b) by exact Hb.
  assert (NI : ~ In (buffer_ b) (map fst l)).
  { pose proof (live_nodup s R) as ND. rewrite (Permutation_map fst P) in ND. cbn in ND. inversion ND; auto. }
  split; auto. split; auto. split.
  - cbn [step]. rewrite Hb'. unfold deallocate. cbn [live]. rewrite take_none by auto. reflexivity.
  - intros m' n' ok Hm' Hs'. cbn [step]. rewrite Hb', u64_small by auto. destruct (N.ltb_spec (size_ b) (m' * n')); [|lia].
    unfold reallocate_. destruct (grow65 (size_ b) (m' * n') (inv_pos _ R _ _ Hb) Hm') as (k & r' & -> & _).
    unfold deallocate. cbn [live]. rewrite take_none by auto. reflexivity.
Qed.
Print Assumptions C35_always_double_free.

(** Allocation failures in constructors and copies are harmless: they are part of the histories of
    C34_memory.  Missing from the stated property: failures while growing. *)
Theorem C35_constructors_partial : forall s o s', reachable s ->
  match o with Construct _ _ | CopyOf _ _ => True | _ => False end -> step s o = Thrown s' ->
  live s' = live s /\ allocs s' = allocs s /\ frees s' = frees s /\ (forall j, get s' j = get s j) /\
  forall i b, get s i = Some b -> exists s2, step s' (Destroy i) = Done s2.
Proof.
  intros s o s' R Ho H. apply reachable_inv in R.
  assert (exists n, construct s n false = Thrown s') as (n & Hc).
  { destruct o as [n ok|i ok| |]; try destruct Ho; cbn [step] in H.
    - destruct (0 <? n); [|discriminate]. destruct ok; [discriminate|eauto].
    - destruct (get s i); [|discriminate]. destruct ok; [discriminate|eauto]. }
  destruct (construct_throw_inv s n s' R Hc) as (I & G). unfold construct in Hc. injection Hc as <-.
  split; [|split; [|split; [|split]]]; auto. intros i b Hb. rewrite <- G in Hb.
  destruct (destroy_inv _ i b I Hb) as (s2 & E & _). eauto.
Qed.
Print Assumptions C35_constructors_partial.

(** A history meeting the hypotheses: two objects (one a copy), a failed copy, growth from 256 to 1024
    doubles, both destroyed; three blocks allocated, three released. *)
Example C34_example : let h := [Construct 256 true; CopyOf 0 true; CopyOf 0 false; GetMap 0 100 9 true; Destroy 1; Destroy 0] in
  Forall tame h /\ exists s, run init h = Done s /\ live s = [] /\ frees s = [(2%nat, 1024); (1%nat, 256); (0%nat, 256)].
Proof.
  split; [repeat constructor; vm_compute; discriminate|]. eexists. split; [reflexivity|]. split; reflexivity.
Qed.
Example C35_example : exists s b s', reachable s /\ get s 0 = Some b /\ step s (GetMap 0 17 16 false) = Thrown s'.
Proof.
  exists (State [Some (Buf 256 0)] [(0%nat, 256)] 1 [(0%nat, 256)] []). do 2 eexists. split; [|split; reflexivity].
  exists [Construct 256 true]. split; [repeat constructor|reflexivity].
Qed.
