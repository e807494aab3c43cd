(** Injectivity of the hash steps. *)
From Coq Require Import NArith List Lia Bool Arith.
From Verif Require Import Model_Hash.
Import ListNotations.
Local Open Scope N_scope.

Lemma W_val : W = 4294967296. Proof. reflexivity. Qed.
Lemma u32_lt x : u32 x < W.
Proof. unfold u32. apply N.mod_lt. discriminate. Qed.
Lemma u32_id x : x < W -> u32 x = x.
Proof. apply N.mod_small. Qed.
Lemma bits_high x i : x < W -> 32 <= i -> N.testbit x i = false.
Proof.
  intros H Hi. destruct (N.eq_dec x 0) as [->|N0]; [apply N.bits_0|].
  apply N.bits_above_log2. apply N.lt_le_trans with 32; auto. apply N.log2_lt_pow2; [lia|exact H].
Qed.
Lemma lt_bits x : (forall i, 32 <= i -> N.testbit x i = false) -> x < W.
Proof.
  intros H. destruct (N.eq_dec x 0) as [->|N0]; [reflexivity|]. apply N.log2_lt_pow2; [lia|].
  destruct (N.lt_ge_cases (N.log2 x) 32) as [|G]; auto. specialize (H _ G). rewrite N.bit_log2 in H; [discriminate|auto].
Qed.
Lemma u32_bits x i : N.testbit (u32 x) i = if i <? 32 then N.testbit x i else false.
Proof.
  unfold u32, W. destruct (N.ltb_spec i 32) as [H|H]; [apply N.mod_pow2_bits_low|apply N.mod_pow2_bits_high]; auto.
Qed.

(** Multiplication by an odd constant. *)
Lemma mul_inj c d x y : (c * d) mod W = 1 -> x < W -> y < W -> u32 (x * c) = u32 (y * c) -> x = y.
Proof.
  intros Hc Hx Hy H.
  assert (G : forall z, z < W -> u32 (u32 (z * c) * d) = z).
  { intros z Hz. unfold u32. rewrite N.mul_mod_idemp_l by discriminate. rewrite <- N.mul_assoc.
    rewrite <- N.mul_mod_idemp_r by discriminate. rewrite Hc, N.mul_1_r. apply N.mod_small; auto. }
  rewrite <- (G x Hx), <- (G y Hy), H. reflexivity.
Qed.
(** x xor (x >> s). *)
Lemma xorshift_lt s x : x < W -> N.lxor x (N.shiftr x s) < W.
Proof.
  intros H. apply lt_bits. intros i Hi. rewrite N.lxor_spec, N.shiftr_spec by lia. rewrite !bits_high; auto. lia.
Qed.
Lemma xorshift_inj s x y : 1 <= s -> x < W -> y < W -> N.lxor x (N.shiftr x s) = N.lxor y (N.shiftr y s) -> x = y.
Proof.
  intros Hs Hx Hy H. apply N.bits_inj. intros i.
  (* downward induction on i *)
  assert (G : forall n i, 32 <= i + N.of_nat n -> N.testbit x i = N.testbit y i).
  { induction n as [|n IH]; intros j Hj.
    - rewrite !bits_high by (auto; lia). reflexivity.
    - assert (E : N.testbit (N.lxor x (N.shiftr x s)) j = N.testbit (N.lxor y (N.shiftr y s)) j) by congruence.
      rewrite !N.lxor_spec, !N.shiftr_spec in E by lia. rewrite (IH (j + s)) in E by lia.
      destruct (N.testbit x j), (N.testbit y j), (N.testbit y (j + s)); auto; discriminate. }
  apply (G 32%nat). lia.
Qed.
(** Rotation. *)
Lemma rotl_bits r x i : r <= 32 -> x < W -> N.testbit (rotl r x) i =
  if i <? r then N.testbit x (i + (32 - r)) else if i <? 32 then N.testbit x (i - r) else false.
Proof.
  intros Hr Hx. unfold rotl. rewrite N.lor_spec, u32_bits, N.shiftr_spec by lia.
  destruct (N.ltb_spec i r) as [H|H].
  - rewrite N.shiftl_spec_low by auto. destruct (i <? 32); reflexivity.
  - rewrite (bits_high x (i + (32 - r))) by (auto; lia). rewrite orb_false_r.
    destruct (i <? 32); auto. apply N.shiftl_spec_high; lia.
Qed.
Lemma rotl_lt r x : r <= 32 -> x < W -> rotl r x < W.
Proof.
  intros Hr Hx. apply lt_bits. intros i Hi. rewrite rotl_bits by auto.
  destruct (N.ltb_spec i r); [lia|]. destruct (N.ltb_spec i 32); [lia|reflexivity].
Qed.
Lemma rotl_inj r x y : r <= 32 -> x < W -> y < W -> rotl r x = rotl r y -> x = y.
Proof.
  intros Hr Hx Hy H. apply N.bits_inj. intros i.
  destruct (N.lt_ge_cases i 32) as [Hi|Hi]; [|rewrite !bits_high by auto; reflexivity].
  destruct (N.lt_ge_cases i (32 - r)) as [L|L].
  - assert (E : N.testbit (rotl r x) (i + r) = N.testbit (rotl r y) (i + r)) by congruence.
    rewrite !rotl_bits in E by auto. destruct (N.ltb_spec (i + r) r); [lia|]. destruct (N.ltb_spec (i + r) 32); [|lia].
    replace (i + r - r) with i in E by lia. exact E.
  - assert (E : N.testbit (rotl r x) (i - (32 - r)) = N.testbit (rotl r y) (i - (32 - r))) by congruence.
    rewrite !rotl_bits in E by auto. destruct (N.ltb_spec (i - (32 - r)) r); [|lia].
    replace (i - (32 - r) + (32 - r)) with i in E by lia. exact E.
Qed.
Lemma lxor_lt x y : x < W -> y < W -> N.lxor x y < W.
Proof. intros. apply lt_bits. intros i Hi. rewrite N.lxor_spec, !bits_high; auto. Qed.
Lemma lxor_inj_l x y k : N.lxor x k = N.lxor y k -> x = y.
Proof.
  intros H. assert (E : N.lxor (N.lxor x k) k = N.lxor (N.lxor y k) k) by congruence.
  rewrite !N.lxor_assoc, N.lxor_nilpotent, !N.lxor_0_r in E. auto.
Qed.
Lemma add_inj n x y : x < W -> y < W -> u32 (x + n) = u32 (y + n) -> x = y.
Proof.
  intros Hx Hy H. unfold u32 in H. 
  assert (G : forall a, a < W -> ((a + n) mod W + (W - n mod W)) mod W = a).
  { intros a Ha. rewrite N.add_mod_idemp_l by discriminate. pose proof (N.mod_lt n W ltac:(discriminate)).
    rewrite (N.div_mod n W) at 1 by discriminate.
    replace (a + (W * (n / W) + n mod W) + (W - n mod W)) with (a + (n / W + 1) * W) by lia.
    rewrite N.mod_add by discriminate. apply N.mod_small; auto. }
  rewrite <- (G x Hx), <- (G y Hy), H. reflexivity.
Qed.

Lemma round_lt h k : computeRound h k < W. Proof. apply u32_lt. Qed.
Lemma mixed_inj a b : a < W -> b < W -> computeRound_3 (computeRound_2 a) = computeRound_3 (computeRound_2 b) -> a = b.
Proof.
  intros Ha Hb H. unfold computeRound_3, computeRound_2 in H.
  assert (R : r2 <= 32) by (unfold r2; lia). apply rotl_inj with r2; auto.
  apply (mul_inj mm 3435973837); [vm_compute; reflexivity|apply rotl_lt; auto|apply rotl_lt; auto|].
  apply add_inj with nn; try apply u32_lt. unfold u32 in *.
  rewrite !N.add_mod_idemp_l by discriminate. exact H.
Qed.
Lemma round_inj_hash h h' k : h < W -> h' < W -> k < W -> computeRound h k = computeRound h' k -> h = h'.
Proof.
  intros Hh Hh' Hk H. apply mixed_inj in H; try (apply lxor_lt; auto). eapply lxor_inj_l; eauto.
Qed.
Lemma round_inj_block h k k' : h < W -> k < W -> k' < W -> computeRound h k = computeRound h k' -> k = k'.
Proof.
  intros Hh Hk Hk' H. apply mixed_inj in H; try (apply lxor_lt; auto). unfold computeRound_1 in H.
  rewrite (N.lxor_comm h k), (N.lxor_comm h k') in H. eapply lxor_inj_l; eauto.
Qed.
Lemma finalize_inj x y : x < W -> y < W -> finalize x = finalize y -> x = y.
Proof.
  intros Hx Hy H. unfold finalize, finalize_1, finalize_2, finalize_3, finalize_4 in H.
  apply xorshift_inj in H; try apply u32_lt; [|lia].
  apply (mul_inj 3266489909 2127672349) in H; [|vm_compute; reflexivity|apply xorshift_lt, u32_lt|apply xorshift_lt, u32_lt].
  apply xorshift_inj in H; try apply u32_lt; [|lia].
  apply (mul_inj 2246822507 2781581891) in H; [|vm_compute; reflexivity|apply xorshift_lt; auto|apply xorshift_lt; auto].
  apply xorshift_inj in H; auto. lia.
Qed.

(** Blocks. *)
Lemma assemble_val b0 b1 b2 b3 : b0 < 256 -> b1 < 256 -> b2 < 256 -> b3 < 256 ->
  assembleBytes b0 b1 b2 b3 = b0 + 256 * b1 + 65536 * b2 + 16777216 * b3.
Proof.
  intros H0 H1 H2 H3. unfold assembleBytes.
  assert (D : forall a b s, a < 2 ^ s -> N.lor a (N.shiftl b s) = a + 2 ^ s * b).
  { intros a b s Ha. rewrite <- N.lxor_lor.
    - rewrite <- N.add_nocarry_lxor; [rewrite N.shiftl_mul_pow2; lia|].
      apply N.bits_inj. intros i. rewrite N.land_spec, N.bits_0. destruct (N.lt_ge_cases i s) as [L|L].
      + rewrite N.shiftl_spec_low by auto. apply andb_false_r.
      + destruct (N.eq_dec a 0) as [->|N0]; [rewrite N.bits_0; reflexivity|].
        rewrite N.bits_above_log2; auto. apply N.lt_le_trans with s; auto. apply N.log2_lt_pow2; [lia|auto].
    - apply N.bits_inj. intros i. rewrite N.land_spec, N.bits_0. destruct (N.lt_ge_cases i s) as [L|L].
      + rewrite N.shiftl_spec_low by auto. apply andb_false_r.
      + destruct (N.eq_dec a 0) as [->|N0]; [rewrite N.bits_0; reflexivity|].
        rewrite N.bits_above_log2; auto. apply N.lt_le_trans with s; auto. apply N.log2_lt_pow2; [lia|auto]. }
  rewrite (D b0 b1 8) by exact H0. rewrite (D _ b2 16) by (change (2 ^ 16) with 65536; change (2 ^ 8) with 256; lia).
  rewrite (D _ b3 24) by (change (2 ^ 24) with 16777216; change (2 ^ 16) with 65536; change (2 ^ 8) with 256; lia). 
  change (2 ^ 24) with 16777216; change (2 ^ 16) with 65536; change (2 ^ 8) with 256. lia.
Qed.
Lemma assemble_lt b0 b1 b2 b3 : b0 < 256 -> b1 < 256 -> b2 < 256 -> b3 < 256 -> assembleBytes b0 b1 b2 b3 < W.
Proof. intros. rewrite assemble_val by auto. rewrite W_val. lia. Qed.
Lemma assemble_inj a0 a1 a2 a3 b0 b1 b2 b3 : a0 < 256 -> a1 < 256 -> a2 < 256 -> a3 < 256 ->
  b0 < 256 -> b1 < 256 -> b2 < 256 -> b3 < 256 -> assembleBytes a0 a1 a2 a3 = assembleBytes b0 b1 b2 b3 ->
  a0 = b0 /\ a1 = b1 /\ a2 = b2 /\ a3 = b3.
Proof. intros. rewrite !assemble_val in * by auto. lia. Qed.

Definition block (str : list N) (i : nat) : N :=
  assembleBytes (byte str i) (byte str (i + 1)%nat) (byte str (i + 2)%nat) (byte str (i + 3)%nat).

(** The recursion of the source (the fuel never runs out). *)
Lemma fuel_enough f : forall f' str i h, (List.length str + 4 < f + i)%nat -> (List.length str + 4 < f' + i)%nat ->
  recurse_fuel f str i h = recurse_fuel f' str i h.
Proof.
  induction f as [|f IH]; intros [|f'] str i h H H'; simpl; auto.
  - destruct (Nat.ltb_spec (List.length str + 3) i); auto. lia.
  - destruct (Nat.ltb_spec (List.length str + 3) i); auto. lia.
  - destruct (Nat.ltb_spec (List.length str + 3) i); auto. apply IH; lia.
Qed.
Lemma recurse_eq str i h : computeHash_recurse str i h =
  if Nat.ltb (List.length str + 3)%nat i then h else computeHash_recurse str (i + 4)%nat (computeRound h (block str i)).
Proof.
  unfold computeHash_recurse. destruct (Nat.ltb_spec (List.length str + 3) i) as [H|H].
  - destruct (List.length str + 5 - i)%nat; simpl; auto. destruct (Nat.ltb_spec (List.length str + 3) i); auto. lia.
  - replace (List.length str + 5 - i)%nat with (S (List.length str + 4 - i)) by lia. cbn [recurse_fuel].
    destruct (Nat.ltb_spec (List.length str + 3) i); [lia|].
    unfold block. destruct (Nat.le_gt_cases i (List.length str)) as [L|L].
    + apply fuel_enough; lia.
    + replace (List.length str + 5 - (i + 4))%nat with 0%nat by lia.
      destruct (List.length str + 4 - i)%nat eqn:E; [reflexivity|]. cbn [recurse_fuel].
      destruct (Nat.ltb_spec (List.length str + 3) (i + 4)); [reflexivity|lia].
Qed.
