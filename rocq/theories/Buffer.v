(** Invariants of the temporary buffers. *)
From Coq Require Import NArith List Bool Arith Lia Permutation.
From Verif Require Import Model_Buffer.
Import ListNotations.
Local Open Scope N_scope.

(** ** The doubling loop *)
Lemma grow_ok fuel : forall n size, 0 < n -> size <= 2 ^ 63 -> size <= n * 2 ^ N.of_nat fuel ->
  exists k r, grow fuel n size = Some r /\ r = n * 2 ^ k /\ size <= r /\ (n < size -> r < 2 * size).
Proof.
  induction fuel as [|f IH]; intros n size Hn Hs Hf.
  - exists 0, n. change (N.of_nat 0) with 0 in Hf. rewrite N.pow_0_r, N.mul_1_r in *.
    cbn [grow]. destruct (N.ltb_spec n size); [lia|]. split; [reflexivity|]. lia.
  - cbn [grow]. destruct (N.ltb_spec n size) as [L|L].
    + assert (E : u64 (n * 2) = n * 2). { unfold u64. apply N.mod_small. change (2 ^ 64) with (2 * 2 ^ 63). lia. }
      rewrite E. destruct (IH (n * 2) size) as (k & r & H1 & H2 & H3 & H4); try lia.
      { rewrite Nat2N.inj_succ, N.pow_succ_r' in Hf. lia. }
      exists (k + 1), r. split; auto. split; [rewrite H2, N.add_1_r, N.pow_succ_r'; lia|]. split; auto. intros _.
      destruct (N.ltb_spec (n * 2) size); [auto|].
      assert (r = n * 2); [|lia]. destruct f; cbn [grow] in H1; destruct (N.ltb_spec (n * 2) size); try lia; congruence.
    + exists 0, n. rewrite N.pow_0_r. split; auto. lia.
Qed.
Lemma grow65 n size : 0 < n -> size <= 2 ^ 63 ->
  exists k r, grow 65 n size = Some r /\ r = n * 2 ^ k /\ size <= r /\ (n < size -> r < 2 * size).
Proof.
  intros Hn Hs. apply grow_ok; auto. apply N.le_trans with (2 ^ 63); auto. 
  apply N.le_trans with (1 * 2 ^ N.of_nat 65); [discriminate|]. apply N.mul_le_mono_r. lia.
Qed.
(** With 64-bit wrap-around, a loop still running after 65 rounds never stops. *)
Lemma grow_zero fuel size : 0 < size -> grow fuel 0 size = None.
Proof.
  induction fuel as [|f IH]; intros H; cbn [grow]; destruct (N.ltb_spec 0 size); try lia; auto.
Qed.
Lemma u64_idem x y : u64 (u64 x * y) = u64 (x * y).
Proof. unfold u64. apply N.mul_mod_idemp_l. discriminate. Qed.
Lemma grow_stuck n size : grow 65 n size = None -> forall fuel, grow fuel n size = None.
Proof.
  assert (G : forall f x, grow f x size = None -> forall g, (g <= f)%nat -> grow g x size = None).
  { induction f as [|f IH]; intros x H g Hg; cbn [grow] in H; destruct (N.ltb_spec x size) as [L|L]; try discriminate.
    - replace g with 0%nat by lia. cbn [grow]. destruct (N.ltb_spec x size); [auto|lia].
    - destruct g; cbn [grow]; (destruct (N.ltb_spec x size); [|lia]); auto. apply IH; auto. lia. }
  assert (Z : forall f x, grow f x size = None -> u64 (x * 2 ^ N.of_nat (S f)) = 0 -> forall j, grow (f + j) x size = None).
  { induction f as [|f IH]; intros x H Hz j; cbn [grow] in H; destruct (N.ltb_spec x size) as [L|L]; try discriminate.
    - destruct j; cbn [Nat.add grow]; (destruct (N.ltb_spec x size); [|lia]); auto.
      change (2 ^ N.of_nat 1) with 2 in Hz. rewrite Hz. apply grow_zero. lia.
    - cbn [Nat.add grow]. destruct (N.ltb_spec x size); [|lia]. apply IH; auto. rewrite u64_idem.
      rewrite Nat2N.inj_succ, N.pow_succ_r' in Hz. rewrite <- N.mul_assoc. auto. }
  intros H fuel. destruct (Nat.le_gt_cases fuel 65) as [L|L]; [eapply G; eauto|].
  replace fuel with (65 + (fuel - 65))%nat by lia. apply Z; auto.
  unfold u64. change (2 ^ N.of_nat 66) with (4 * 2 ^ 64). rewrite N.mul_assoc. apply N.mod_mul. discriminate.
Qed.

(** ** Ownership *)
Definition owned (l : list (option buf)) : list (nat * N) :=
  flat_map (fun o => match o with Some b => [(buffer_ b, size_ b)] | None => [] end) l.
Record inv (s : state) : Prop := Inv {
  inv_live : Permutation (live s) (owned (objs s));
  inv_hist : Permutation (allocs s) (live s ++ frees s);
  inv_nodup : NoDup (map fst (allocs s));
  inv_next : Forall (fun a => (fst a < next s)%nat) (allocs s);
  inv_pos : forall i b, get s i = Some b -> 0 < size_ b }.

Lemma take_perm p n : forall l, In (p, n) l -> NoDup (map fst l) -> exists r, take p n l = Some r /\ Permutation l ((p, n) :: r).
Proof.
  induction l as [|[q k] l IH]; intros Hin Hd; [destruct Hin|]. cbn [take map] in *. inversion Hd as [|? ? Hn Hd']; subst.
  destruct (Nat.eqb_spec p q) as [->|Ne].
  - destruct Hin as [E|Hin]; [injection E as ->; rewrite N.eqb_refl; eauto|].
    exfalso. apply Hn. change q with (fst (q, n)). apply in_map; auto.
  - destruct Hin as [E|Hin]; [congruence|]. destruct (IH Hin Hd') as (r & -> & P). exists ((q, k) :: r). split; auto.
    rewrite P. apply perm_swap.
Qed.
Lemma take_none p n : forall l, ~ In p (map fst l) -> take p n l = None.
Proof.
  induction l as [|[q k] l IH]; intros H; cbn [take map] in *; auto. cbn in H.
  destruct (Nat.eqb_spec p q) as [->|]; [tauto|]. rewrite IH by tauto. reflexivity.
Qed.

Lemma owned_app a b : owned (a ++ b) = owned a ++ owned b.
Proof. unfold owned. apply flat_map_app. Qed.
Lemma owned_split (l : list (option buf)) : forall i b, nth i l None = Some b -> exists p q, l = p ++ Some b :: q /\ length p = i.
Proof.
  intros i b H. assert (L : (i < length l)%nat).
  { destruct (Nat.lt_ge_cases i (length l)); auto. rewrite nth_overflow in H by auto. discriminate. }
  destruct (nth_split l None L) as (p & q & E & Hp). rewrite H in E. eauto.
Qed.
Lemma upd_mid {A} (p q : list A) x y : upd (p ++ x :: q) (length p) y = p ++ y :: q.
Proof. induction p as [|a p IH]; cbn; auto. rewrite IH. reflexivity. Qed.
Lemma nth_upd {A} (l : list A) i y d : (i < length l)%nat -> nth i (upd l i y) d = y.
Proof. revert i; induction l as [|a l IH]; intros [|i] H; cbn in *; auto; try lia. apply IH. lia. Qed.
Lemma nth_upd_other {A} (l : list A) i j y d : j <> i -> nth j (upd l i y) d = nth j l d.
Proof. revert i j; induction l as [|a l IH]; intros [|i] [|j] H; cbn in *; auto; try congruence. Qed.

Lemma nodup_l {A} (a b : list A) : NoDup (a ++ b) -> NoDup a.
Proof.
  induction a as [|x a IH]; intros H; [constructor|]. inversion H as [|? ? Hn Hd]; subst. constructor; auto.
  intros Hin. apply Hn. apply in_or_app. auto.
Qed.
Lemma live_nodup s : inv s -> NoDup (map fst (live s)).
Proof.
  intros I. pose proof (inv_nodup s I) as H. rewrite (Permutation_map fst (inv_hist s I)), map_app in H.
  apply nodup_l in H. auto.
Qed.
Lemma get_live s i b : inv s -> get s i = Some b -> In (buffer_ b, size_ b) (live s).
Proof.
  intros I H. rewrite (inv_live s I). destruct (owned_split _ _ _ H) as (p & q & E & _). rewrite E.
  unfold owned. rewrite flat_map_app. apply in_or_app. right. simpl. auto.
Qed.
Lemma dealloc_ok s i b : inv s -> get s i = Some b ->
  exists l, deallocate s (buffer_ b) (size_ b) = Some (State (objs s) l (next s) (allocs s) ((buffer_ b, size_ b) :: frees s)) /\
    Permutation (live s) ((buffer_ b, size_ b) :: l).
Proof.
  intros I H. destruct (take_perm _ _ _ (get_live _ _ _ I H) (live_nodup s I)) as (l & E & P).
  exists l. unfold deallocate. rewrite E. auto.
Qed.

Lemma init_inv : inv init.
Proof. split; cbn; try constructor. intros [|i] b H; discriminate. Qed.

Lemma construct_inv s n s' : inv s -> 0 < n -> construct s n true = Done s' -> inv s' /\ get s' (length (objs s)) = Some (Buf n (next s)) /\
  (forall j, j <> length (objs s) -> get s' j = get s j).
Proof.
  intros I Hn H. unfold construct in H. injection H as <-. split; [|split].
  - destruct I as [I1 I2 I3 I4 I5]. split; cbn.
    + rewrite owned_app. cbn. rewrite I1. symmetry. apply Permutation_middle || idtac. rewrite <- Permutation_cons_append. reflexivity.
    + rewrite I2. reflexivity.
    + constructor; auto. intros Hin. apply in_map_iff in Hin. destruct Hin as (a & E & Ha). rewrite Forall_forall in I4. specialize (I4 a Ha). lia.
    + constructor; [cbn; lia|]. eapply Forall_impl; [|exact I4]. cbn. intros; lia.
    + intros i b Hb. unfold get in Hb. cbn in Hb. destruct (Nat.lt_ge_cases i (length (objs s))) as [L|L].
      * rewrite app_nth1 in Hb by auto. eauto.
      * rewrite app_nth2 in Hb by auto. destruct (i - length (objs s))%nat as [|[|]]; cbn in Hb; try discriminate. injection Hb as <-. auto.
  - unfold get. cbn. rewrite app_nth2, Nat.sub_diag by lia. reflexivity.
  - intros j Hj. unfold get. cbn. destruct (Nat.lt_ge_cases j (length (objs s))) as [L|L].
    + rewrite app_nth1 by auto. reflexivity.
    + rewrite app_nth2 by auto. destruct (j - length (objs s))%nat as [|[|k]] eqn:E; [lia| |]; cbn; rewrite nth_overflow; auto; lia.
Qed.
Lemma construct_throw_inv s n s' : inv s -> construct s n false = Thrown s' -> inv s' /\ (forall j, get s' j = get s j).
Proof.
  intros I H. unfold construct in H. injection H as <-.
  assert (G : forall j, get (set_obj s (objs s ++ [None])) j = get s j).
  { intros j. unfold get. cbn. destruct (Nat.lt_ge_cases j (length (objs s))) as [L|L].
    - rewrite app_nth1 by auto. reflexivity.
    - rewrite app_nth2 by auto. rewrite (nth_overflow (objs s)) by auto. destruct (j - length (objs s))%nat as [|[|k]]; reflexivity. }
  split; auto. destruct I as [I1 I2 I3 I4 I5]. split; cbn; auto.
  - rewrite owned_app. cbn. rewrite app_nil_r. auto.
  - intros i b Hb. apply (I5 i b). rewrite <- G. exact Hb.
Qed.

Lemma realloc_inv s i b size : inv s -> get s i = Some b -> size_ b < size -> size <= 2 ^ 63 ->
  exists s' k, reallocate_ s i b size true = Done s' /\ inv s' /\ get s' i = Some (Buf (size_ b * 2 ^ k) (next s)) /\
    (forall j, j <> i -> get s' j = get s j) /\ size <= size_ b * 2 ^ k /\ size_ b * 2 ^ k < 2 * size.
Proof.
  intros I Hb Hs Hmax. destruct (grow65 (size_ b) size (inv_pos s I i b Hb) Hmax) as (k & r & G & -> & G1 & G2).
  destruct (dealloc_ok s i b I Hb) as (l & D & P). unfold reallocate_. rewrite G, D.
  eexists _, k. split; [reflexivity|]. specialize (G2 Hs).
  destruct (owned_split _ _ _ Hb) as (p & q & E & Lp). rewrite <- Lp in *.
  match goal with |- inv ?t /\ _ => set (s' := t) end.
  assert (Gi : get s' (length p) = Some (Buf (size_ b * 2 ^ k) (next s))).
  { unfold get, s'. cbn. rewrite E, upd_mid, app_nth2, Nat.sub_diag by lia. reflexivity. }
  assert (Go : forall j, j <> length p -> get s' j = get s j).
  { intros j Hj. unfold get, s'. cbn. apply nth_upd_other; auto. }
  split; [|split; [exact Gi|split; [exact Go|split; auto]]].
  pose proof I as [I1 I2 I3 I4 I5]. split; cbn.
  - rewrite E, upd_mid, owned_app. cbn. 
    assert (Q : Permutation l (owned p ++ owned q)).
    { apply Permutation_cons_inv with (buffer_ b, size_ b). rewrite <- P, I1, E, owned_app. cbn.
      symmetry. apply Permutation_middle. }
    rewrite Q. apply Permutation_middle.
  - constructor. rewrite I2, P. cbn. apply Permutation_middle.
  - constructor; auto. intros Hin. apply in_map_iff in Hin. destruct Hin as (a & Ea & Ha). rewrite Forall_forall in I4. specialize (I4 a Ha). lia.
  - constructor; [cbn; lia|]. eapply Forall_impl; [|exact I4]. cbn. intros; lia.
  - intros j c Hc. destruct (Nat.eq_dec j (length p)) as [->|Nj].
    + change (get s' (length p) = Some c) in Hc. rewrite Gi in Hc. injection Hc as <-. cbn. pose proof (I5 _ _ Hb). pose proof (N.pow_nonzero 2 k). lia.
    + change (get s' j = Some c) in Hc. rewrite Go in Hc by auto. eauto.
Qed.
Lemma destroy_inv s i b : inv s -> get s i = Some b -> exists s', step s (Destroy i) = Done s' /\ inv s' /\ get s' i = None /\
  (forall j, j <> i -> get s' j = get s j).
Proof.
  intros I Hb. destruct (dealloc_ok s i b I Hb) as (l & D & P). cbn [step]. rewrite Hb, D. eexists. split; [reflexivity|].
  destruct (owned_split _ _ _ Hb) as (p & q & E & Lp). rewrite <- Lp in *.
  match goal with |- inv ?t /\ _ => set (s' := t) end.
  assert (Gi : get s' (length p) = None).
  { unfold get, s'. cbn. rewrite E, upd_mid, app_nth2, Nat.sub_diag by lia. reflexivity. }
  assert (Go : forall j, j <> length p -> get s' j = get s j).
  { intros j Hj. unfold get, s'. cbn. apply nth_upd_other; auto. }
  split; [|split; auto]. pose proof I as [I1 I2 I3 I4 I5]. split; cbn; auto.
  - rewrite E, upd_mid, owned_app. cbn. 
    apply Permutation_cons_inv with (buffer_ b, size_ b). rewrite <- P, I1, E, owned_app. cbn.
    symmetry. apply Permutation_middle.
  - rewrite I2, P. cbn. apply Permutation_middle.
  - intros j c Hc. change (get s' j = Some c) in Hc. destruct (Nat.eq_dec j (length p)) as [->|Nj]; [congruence|]. rewrite Go in Hc by auto. eauto.
Qed.
