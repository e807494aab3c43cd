(** C28: type identifiers. *)
From Coq Require Import NArith List Lia Bool Arith String Ascii.
From Verif Require Import Model_SO3 Model_Manifold Model_Hash Hash Topo ExScalar.
Import ListNotations.
Local Open Scope N_scope.

(** The class of a manifold (CartesianPower is a CartesianProduct). *)
Inductive class := CReal | CS2 | CSO3 (mp : so3map) | CProd.
Definition class_of {K} (m : mfd K) : class :=
  match m with Leaf _ LReal _ _ => CReal | Leaf _ LS2 _ _ => CS2 | Leaf _ (LSO3 mp) _ _ => CSO3 mp | Prod _ _ _ _ => CProd end.

Theorem C28_same_type : forall (K : Type) (a b : mfd K), isSameType a b = true <-> class_of a = class_of b.
Proof.
  intros K a b. unfold isSameType. rewrite N.eqb_eq.
  destruct a as [? [| |[|]] ? ?|], b as [? [| |[|]] ? ?|]; cbn [class_of getTypeId]; split; intros H;
    try reflexivity; try congruence; exfalso; vm_compute in H; discriminate.
Qed.
Print Assumptions C28_same_type.

(** Same topology implies same type, never the converse in general. *)
Theorem C28_topology_refines_type : forall (K : Type) (a b : mfd K), isSameTopology a b = true -> isSameType a b = true.
Proof.
  intros K a b H. apply C28_same_type. apply same_topo in H.
  destruct a as [? [| |[|]] ? ?|], b as [? [| |[|]] ? ?|]; cbn in H; try discriminate; reflexivity.
Qed.
Print Assumptions C28_topology_refines_type.

(** Every step on 32-bit words is injective. *)
Theorem C28_steps_injective :
  (forall x y, x < 2 ^ 32 -> y < 2 ^ 32 -> finalize x = finalize y -> x = y) /\
  (forall h h' k, h < 2 ^ 32 -> h' < 2 ^ 32 -> k < 2 ^ 32 -> computeRound h k = computeRound h' k -> h = h') /\
  (forall h k k', h < 2 ^ 32 -> k < 2 ^ 32 -> k' < 2 ^ 32 -> computeRound h k = computeRound h k' -> k = k').
Proof.
  split; [|split]; intros.
  - apply finalize_inj; auto.
  - apply round_inj_hash with k; auto.
  - apply round_inj_block with h; auto.
Qed.
Print Assumptions C28_steps_injective.

Lemma byte_lt s i : Forall (fun b => b < 256) s -> byte s i < 256.
Proof.
  intros H. unfold byte. destruct (nth_in_or_default i s 0) as [Hi| ->]; [|reflexivity].
  rewrite Forall_forall in H. auto.
Qed.
Lemma block_lt s i : Forall (fun b => b < 256) s -> block s i < W.
Proof. intros H. apply assemble_lt; apply byte_lt; auto. Qed.
Lemma recurse_lt s i h : h < W -> computeHash_recurse s i h < W.
Proof.
  intros H. unfold computeHash_recurse. generalize (List.length s + 5 - i)%nat as f. intros f. revert i h H.
  induction f as [|f IH]; intros i h H; cbn [recurse_fuel]; auto. destruct (Nat.ltb _ i); auto. apply IH, round_lt.
Qed.

(** Same blocks from [i] on: the recursion is injective in the hash. *)
Lemma recurse_inj s t : List.length s = List.length t -> Forall (fun b => b < 256) s -> Forall (fun b => b < 256) t ->
  forall n i h h', (List.length s + 4 < 4 * n + i)%nat -> h < W -> h' < W ->
  (forall k, block s (i + 4 * k)%nat = block t (i + 4 * k)%nat) ->
  computeHash_recurse s i h = computeHash_recurse t i h' -> h = h'.
Proof.
  intros L Bs Bt. induction n as [|n IH]; intros i h h' Hn Hh Hh' Hb H.
  - rewrite (recurse_eq s), (recurse_eq t), <- L in H. destruct (Nat.ltb_spec (List.length s + 3) i); [auto|lia].
  - rewrite (recurse_eq s), (recurse_eq t), <- L in H. destruct (Nat.ltb_spec (List.length s + 3) i); [auto|].
    apply IH in H; try apply round_lt; try lia.
    + pose proof (Hb 0%nat) as B0. replace (i + 4 * 0)%nat with i in B0 by lia. rewrite <- B0 in H.
      apply round_inj_hash in H; auto. apply block_lt; auto.
    + intros k. replace (i + 4 + 4 * k)%nat with (i + 4 * S k)%nat by lia. apply Hb.
Qed.

Lemma one_block s t h : List.length s = List.length t -> Forall (fun b => b < 256) s -> Forall (fun b => b < 256) t -> h < W ->
  forall j, (forall i, (i / 4 <> j)%nat -> nth i s 0 = nth i t 0) -> s <> t ->
  computeHash_recurse s 0 h <> computeHash_recurse t 0 h.
Proof.
  intros L Bs Bt Hh j Hj Hne H.
  assert (D : block s (4 * j) <> block t (4 * j)).
  { intros E. apply Hne. apply nth_ext with 0 0; auto. intros i _.
    destruct (Nat.eq_dec (i / 4) j) as [Ej|Nj]; auto.
    apply assemble_inj in E; try (apply byte_lt; auto). unfold byte in E. destruct E as (E0 & E1 & E2 & E3).
    pose proof (Nat.div_mod i 4 ltac:(lia)) as Q. rewrite Ej in Q. pose proof (Nat.mod_upper_bound i 4 ltac:(lia)).
    remember (i mod 4)%nat as r eqn:Er. clear Er Ej. subst i.
    destruct r as [|[|[|[|]]]]; [rewrite Nat.add_0_r; exact E0|exact E1|exact E2|exact E3|lia]. }
  assert (O : forall k, k <> j -> block s (4 * k) = block t (4 * k)).
  { intros k Nk. assert (Dv : forall a, (a < 4)%nat -> ((4 * k + a) / 4 <> j)%nat).
    { intros a Ha. replace (4 * k + a)%nat with (a + k * 4)%nat by lia. rewrite Nat.div_add by lia. rewrite Nat.div_small by lia. simpl. auto. }
    unfold block, byte. pose proof (Dv 0%nat ltac:(lia)) as D0. rewrite Nat.add_0_r in D0.
    rewrite (Hj _ D0), (Hj _ (Dv 1%nat ltac:(lia))), (Hj _ (Dv 2%nat ltac:(lia))), (Hj _ (Dv 3%nat ltac:(lia))). reflexivity. }
  assert (J : (4 * j <= List.length s + 3)%nat).
  { destruct (Nat.le_gt_cases (4 * j) (List.length s + 3)); auto. exfalso. apply D. unfold block, byte.
    rewrite !nth_overflow by lia. reflexivity. }
  (* common prefix up to the block j, from any block k <= j *)
  assert (G : forall n k h, (j = n + k)%nat -> h < W -> computeHash_recurse s (4 * k) h <> computeHash_recurse t (4 * k) h).
  { clear h Hh H. induction n as [|n IH]; intros k h Ek Hh H; rewrite (recurse_eq s), (recurse_eq t), <- L in H;
      (destruct (Nat.ltb_spec (List.length s + 3) (4 * k)); [lia|]).
    - assert (k = j) by lia. subst k.
      replace (4 * j + 4)%nat with (4 * S j)%nat in H by lia.
      apply (recurse_inj s t L Bs Bt (List.length s + 5)) in H; try apply round_lt; try lia.
      + apply round_inj_block in H; try apply block_lt; auto.
      + intros k. replace (4 * S j + 4 * k)%nat with (4 * (S j + k))%nat by lia. apply O. lia.
    - rewrite (O k) in H by lia. replace (4 * k + 4)%nat with (4 * S k)%nat in H by lia. revert H. apply IH; [lia|apply round_lt]. }
  apply (G j 0%nat h); auto.
Qed.

(** Names of equal length that differ inside a single 4-byte block have different identifiers, for both
    forms of computeHash.  [s], [t]: the bytes of the two literals. *)
Theorem C28_one_block : forall (s t : list N) (j : nat), List.length s = List.length t ->
  Forall (fun b => b < 256) s -> Forall (fun b => b < 256) t ->
  (forall i, (i / 4 <> j)%nat -> nth i s 0 = nth i t 0) -> s <> t ->
  computeHash s <> computeHash t /\
  forall p, computeHash2 p s <> computeHash2 p t /\ (Forall (fun b => b < 256) p -> computeHash2 s p <> computeHash2 t p).
Proof.
  intros s t j L Bs Bt Hj Hne. split; [|intros p; split].
  - intros H. apply finalize_inj in H; try (apply recurse_lt; reflexivity). revert H. apply one_block with j; auto. reflexivity.
  - intros H. apply finalize_inj in H; try (repeat apply recurse_lt; reflexivity). revert H. apply one_block with j; auto.
    apply recurse_lt; reflexivity.
  - intros Bp H. apply finalize_inj in H; try (repeat apply recurse_lt; reflexivity).
    apply (recurse_inj p p eq_refl Bp Bp (List.length p + 5)) in H; try (apply recurse_lt; reflexivity); try lia; auto.
    revert H. apply one_block with j; auto. reflexivity.
Qed.
Print Assumptions C28_one_block.

(** Identifiers are not unique in general (Manifold.h:288-299 says they are): two distinct identifiers of
    eight letters, differing in two blocks, have the same hash. *)
Theorem C28_unique_refuted : exists a b : string, a <> b /\ String.length a = String.length b /\
  computeHash (literal a) = computeHash (literal b).
Proof. exists "Maaaaaaa"%string, "Maadqbaa"%string. split; [discriminate|]. split; vm_compute; reflexivity. Qed.
Print Assumptions C28_unique_refuted.

(** The five identifiers, and literals meeting the hypotheses of C28_one_block. *)
Example C28_example : isSameType exR2 exR3 = true /\ isSameTopology exR2 exR3 = false /\
  isSameType exSO3 exSO3m = false /\ isSameType exP1 exP = true /\
  computeHash (literal "S2") <> computeHash (literal "S3").
Proof.
  split; [reflexivity|]. split; [reflexivity|]. split; [vm_compute; reflexivity|]. split; [vm_compute; reflexivity|].
  apply (C28_one_block _ _ 0); try reflexivity.
  - repeat constructor.
  - repeat constructor.
  - intros [|[|[|i]]] H; try reflexivity; exfalso; apply H; reflexivity.
  - discriminate.
Qed.
