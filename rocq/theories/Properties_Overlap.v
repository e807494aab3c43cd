(** C45: overlap detection. *)
From Coq Require Import ZArith Bool Lia.
From Verif Require Import Base Model_Overlap.
Open Scope Z_scope.

(** Some double of [a] is some double of [b]. *)
Definition share (a b : ref) : Prop := exists k, (exists i, 0 <= i < r_rows a /\ k = r_data a + 8 * i) /\ (exists j, 0 <= j < r_rows b /\ k = r_data b + 8 * j).
(** Some byte of [a] is some byte of [b]. *)
Definition share_byte (a b : ref) : Prop := exists k, r_data a <= k < r_data a + 8 * r_rows a /\ r_data b <= k < r_data b + 8 * r_rows b.
Definition small (a : ref) : Prop := 0 < r_rows a <= 2147483647.

Lemma up_or k (p : Z -> bool) : forall i acc, up k i (fun j r => r || p j) acc = true <-> acc = true \/ exists j, i <= j < i + Z.of_nat k /\ p j = true.
Proof.
  induction k as [|k IH]; intros i acc; cbn [up].
  - split; auto. intros [H|(j & H & _)]; auto. lia.
  - rewrite IH, orb_true_iff. split.
    + intros [[H|H]|(j & H & E)]; auto; right; [exists i|exists j]; split; auto; lia.
    + intros [H|(j & H & E)]; auto. destruct (Z.eq_dec i j) as [->|]; auto. right. exists j. split; auto. lia.
Qed.
Lemma up_ext {A} k (f g : Z -> A -> A) : (forall i a, f i a = g i a) -> forall i a, up k i f a = up k i g a.
Proof. intros H. induction k; intros i a; cbn [up]; auto. rewrite H. auto. Qed.
Lemma for_or (p : Z -> bool) i0 n acc : for_int i0 n (fun j r => r || p j) acc = true <-> acc = true \/ exists j, i0 <= j < n /\ p j = true.
Proof. unfold for_int. rewrite up_or. split; intros [H|(j & H & E)]; auto; right; exists j; split; auto; lia. Qed.
Lemma for_or_acc (p : Z -> bool) i0 n acc : for_int i0 n (fun j r => r || p j) acc = acc || for_int i0 n (fun j r => r || p j) false.
Proof. apply eq_true_iff_eq. rewrite orb_true_iff, !for_or. intuition congruence. Qed.

Lemma scan a b : for_int 0 (r_rows a) (fun i res => for_int i (r_rows b) (fun j res => res || (addr a i =? addr b j)) res) false = true
  <-> exists i j, 0 <= i < r_rows a /\ i <= j < r_rows b /\ addr a i = addr b j.
Proof.
  unfold for_int at 1. rewrite (up_ext _ _ (fun i r => r || for_int i (r_rows b) (fun j res => res || (addr a i =? addr b j)) false)) by (intros; apply for_or_acc).
  rewrite up_or. split.
  - intros [H|(i & Hi & E)]; [discriminate|]. apply for_or in E as [H|(j & Hj & E)]; [discriminate|]. apply Z.eqb_eq in E. exists i, j. split; [lia|auto].
  - intros (i & j & Hi & Hj & E). right. exists i. split; [lia|]. apply for_or. right. exists j. split; auto. apply Z.eqb_eq; auto.
Qed.

(** What the function computes, for all ranges: the ranges share a double and [b] does not start after [a]. *)
Theorem C45_exact : forall a b, small a -> small b ->
  exists r, areOverlappingData a b = Ok r /\ (r = true <-> share a b /\ r_data b <= r_data a).
Proof.
  intros a b [A1 A2] [B1 B2]. unfold areOverlappingData, int_max.
  destruct (Z.ltb_spec 0 (r_rows a)); [|lia]. destruct (Z.ltb_spec 0 (r_rows b)); [|lia]. cbn [andb ub_unless bind].
  destruct (Z.ltb_spec (addr a (r_rows a - 1)) (addr b 0)) as [L|L]; [|destruct (Z.ltb_spec (addr b (r_rows b - 1)) (addr a 0)) as [L'|L']]; cbn [orb].
  - exists false. split; auto. split; [discriminate|]. unfold addr in L. intros [(k & (i & Hi & E) & (j & Hj & E')) _]. lia.
  - exists false. split; auto. split; [discriminate|]. unfold addr in L'. intros [(k & (i & Hi & E) & (j & Hj & E')) _]. lia.
  - destruct (Z.leb_spec (r_rows a) 2147483647); [|lia]. destruct (Z.leb_spec (r_rows b) 2147483647); [|lia]. cbn [andb ub_unless bind].
    eexists. split; [reflexivity|]. rewrite scan. unfold addr. split.
    + intros (i & j & Hi & Hj & E). split; [|lia]. exists (r_data a + 8 * i). split; [exists i|exists j]; split; lia.
    + intros [(k & (i & Hi & E) & (j & Hj & E')) Le]. exists i, j. split; auto. split; lia.
Qed.
(** True is always right. *)
Theorem C45_sound : forall a b, areOverlappingData a b = Ok true -> share a b.
Proof.
  intros a b H. unfold areOverlappingData, int_max in H.
  destruct ((0 <? r_rows a) && (0 <? r_rows b)) eqn:P; [|discriminate]. cbn [ub_unless bind] in H.
  destruct (_ || _); [discriminate|]. destruct (_ && _) in H; [|discriminate]. cbn [ub_unless bind] in H. injection H as H. apply scan in H as (i & j & Hi & Hj & E). unfold addr in E.
  exists (r_data a + 8 * i). split; [exists i|exists j]; split; lia.
Qed.
(** The claim, for ranges given with the later one first.  Partial: the other order is the refutation below. *)
Theorem C45_overlap_partial : forall a b, small a -> small b -> r_data b <= r_data a ->
  exists r, areOverlappingData a b = Ok r /\ (r = true <-> share a b).
Proof. intros a b A B L. destruct (C45_exact a b A B) as (r & E & H). exists r. split; auto. rewrite H. tauto. Qed.
(** For doubles aligned with respect to each other, sharing a double is sharing a byte. *)
Theorem C45_bytes : forall a b, 0 < r_rows a -> 0 < r_rows b -> (8 | r_data a - r_data b) -> (share a b <-> share_byte a b).
Proof.
  intros a b A B (q & Hq). split.
  - intros (k & (i & Hi & E) & (j & Hj & E')). exists k. lia.
  - intros (k & H1 & H2). destruct (Z.le_gt_cases 0 q).
    + exists (r_data a). split; [exists 0|exists q]; split; lia.
    + exists (r_data b). split; [exists (- q)|exists 0]; split; lia.
Qed.
(** Whenever [b] starts strictly inside [a], the overlap is missed, and the answer depends on the order. *)
Theorem C45_missed : forall a b k, small a -> small b -> r_data b = r_data a + 8 * k -> 0 < k < r_rows a ->
  share a b /\ areOverlappingData a b = Ok false /\ areOverlappingData b a = Ok true.
Proof.
  intros a b k A B E Hk. assert (S : share a b).
  { exists (r_data b). destruct B. split; [exists k|exists 0]; split; lia. }
  split; auto. destruct (C45_exact a b A B) as (r & -> & H). destruct (C45_exact b a B A) as (r' & -> & H'). split.
  - destruct r; auto. destruct (proj1 H eq_refl). lia.
  - f_equal. apply H'. split; [|lia]. destruct S as (q & X & Y). exists q. auto.
Qed.
Theorem C45_overlap_refuted : exists a b, small a /\ small b /\ share a b /\ areOverlappingData a b = Ok false.
Proof.
  exists (Ref 1000 9), (Ref 1024 9). assert (A : small (Ref 1000 9)) by (unfold small; cbn; lia). assert (B : small (Ref 1024 9)) by (unfold small; cbn; lia).
  destruct (C45_missed _ _ 3 A B) as (S & E & _); cbn; auto; lia.
Qed.
Example ex_C45 : areOverlappingData (Ref 1024 9) (Ref 1000 9) = Ok true /\ areOverlappingData (Ref 1000 9) (Ref 1000 9) = Ok true /\ areOverlappingData (Ref 1000 9) (Ref 1072 9) = Ok false.
Proof. repeat split; vm_compute; reflexivity. Qed.

Print Assumptions C45_exact.
Print Assumptions C45_sound.
Print Assumptions C45_overlap_partial.
Print Assumptions C45_bytes.
Print Assumptions C45_missed.
Print Assumptions C45_overlap_refuted.
