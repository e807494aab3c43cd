(** Matrices by blocks. *)
From Coq Require Import List Arith Bool ZArith Lia.
From Verif Require Import Base Scalar Vec Model_Real Model_S2 Model_SO3 Model_Manifold Spec Layout Comp Structure.
Import ListNotations.

Section BlockMat.
Context {K : Type} {SK : Scalar K}.
Implicit Types (p m : mfd K) (fs subs pre post : list (mfd K)) (M B J : mat K).

Lemma nth_ext' {A} (l l' : list A) (d : A) : List.length l = List.length l' ->
  (forall i, i < List.length l -> nth i l d = nth i l' d) -> l = l'.
Proof. intros. apply nth_ext with (d := d) (d' := d); auto. Qed.

Lemma shape_col M r c j : shape M r c -> j < c -> List.length (nth j (mcols_ M) []) = r.
Proof.
  intros (_ & Hc & Hf) Hj. rewrite Forall_forall in Hf. apply Hf. apply nth_In. lia.
Qed.

Lemma mat_ext M M' r c : shape M r c -> shape M' r c ->
  (forall i j, i < r -> j < c -> mget M i j = mget M' i j) -> M = M'.
Proof.
  intros H H' E. destruct M as [r1 cs], M' as [r2 cs']. 
  assert (r1 = r) by apply H. assert (r2 = r) by apply H'. subst. f_equal.
  assert (L : List.length cs = c) by apply H. assert (L' : List.length cs' = c) by apply H'.
  apply nth_ext' with (d := []); [lia|]. intros j Hj. assert (Hj' : j < c) by lia.
  assert (C : List.length (nth j cs []) = r) by exact (shape_col _ _ _ j H Hj').
  assert (C' : List.length (nth j cs' []) = r) by exact (shape_col _ _ _ j H' Hj').
  apply nth_ext' with (d := k0); [lia|]. intros i Hi. apply (E i j); lia.
Qed.

Lemma shape_mzero r c : shape (K:=K) (mzero r c) r c.
Proof.
  repeat split; simpl; [apply repeat_length|].
  apply Forall_forall. intros x Hx. apply repeat_spec in Hx. subst. apply repeat_length.
Qed.

Lemma nth_repeat' {A} (a d : A) n i : i < n -> nth i (repeat a n) d = a.
Proof. revert i; induction n; intros [|i] H; simpl; auto; try lia. apply IHn. lia. Qed.

Lemma mget_mzero r c i j : i < r -> j < c -> mget (K:=K) (mzero r c) i j = k0.
Proof. intros. unfold mget, mzero. simpl. rewrite (nth_repeat' (repeat k0 r)) by auto. apply nth_repeat'; auto. Qed.

Lemma shape_mbuild r c (f : nat -> nat -> K) : shape (mbuild r c f) r c.
Proof.
  repeat split; simpl.
  - rewrite map_length, seq_length. auto.
  - apply Forall_forall. intros x Hx. apply in_map_iff in Hx. destruct Hx as (j & <- & _).
    rewrite map_length, seq_length. auto.
Qed.

Lemma mget_mbuild r c (f : nat -> nat -> K) i j : i < r -> j < c -> mget (mbuild r c f) i j = f i j.
Proof.
  intros Hi Hj. unfold mget, mbuild. simpl.
  rewrite nth_indep with (d' := (fun j => map (fun i => f i j) (seq 0 r)) 0) by (rewrite map_length, seq_length; auto).
  rewrite (map_nth (fun j => map (fun i => f i j) (seq 0 r))), seq_nth by auto. simpl.
  rewrite nth_indep with (d' := f 0 j) by (rewrite map_length, seq_length; auto).
  rewrite (map_nth (fun i => f i j)), seq_nth by auto. reflexivity.
Qed.

Lemma mbuild_ext r c (f g : nat -> nat -> K) : (forall i j, i < r -> j < c -> f i j = g i j) -> mbuild r c f = mbuild r c g.
Proof.
  intros H. apply (mat_ext _ _ r c); auto using shape_mbuild.
  intros. rewrite !mget_mbuild by auto. auto.
Qed.

Lemma mbuild_mget M r c : shape M r c -> mbuild r c (mget M) = M.
Proof.
  intros H. apply (mat_ext _ _ r c); auto using shape_mbuild. intros. apply mget_mbuild; auto.
Qed.

Lemma Forall_firstn' {A} (P : A -> Prop) n l : Forall P l -> Forall P (firstn n l).
Proof. intros H. revert n. induction H; intros [|n]; simpl; auto. Qed.
Lemma Forall_skipn' {A} (P : A -> Prop) n l : Forall P l -> Forall P (skipn n l).
Proof. intros H. revert n. induction H; intros [|n]; simpl; auto. Qed.

Lemma nth_firstn_lt {A} (l : list A) n i d : i < n -> nth i (firstn n l) d = nth i l d.
Proof. revert l i; induction n; intros [|a l] [|i] H; simpl; auto; try lia. apply IHn. lia. Qed.
Lemma nth_skipn' {A} (l : list A) n i d : nth i (skipn n l) d = nth (n + i) l d.
Proof. revert l; induction n; intros [|a l]; simpl; auto. destruct i; auto. Qed.

Lemma middleCols_ok M r c s n : shape M r c -> s + n <= c ->
  exists B, middleCols M s n = Ok B /\ shape B r n /\ forall i j, j < n -> mget B i j = mget M i (s + j).
Proof.
  intros (Hr & Hc & Hf) H. unfold middleCols, segment.
  replace (_ <=? _) with true by (symmetry; apply Nat.leb_le; lia). simpl.
  eexists; split; [reflexivity|]. split.
  - repeat split; simpl; auto.
    + rewrite firstn_length, skipn_length. lia.
    + apply Forall_firstn', Forall_skipn'. auto.
  - intros i j Hj. unfold mget. simpl. rewrite nth_firstn_lt, nth_skipn' by auto. reflexivity.
Qed.

Lemma middleRows_ok M r c s n : shape M r c -> s + n <= r ->
  exists B, middleRows M s n = Ok B /\ shape B n c /\
    forall i j, i < n -> j < c -> mget B i j = mget M (s + i) j.
Proof.
  intros (Hr & Hc & Hf) H. unfold middleRows.
  replace (_ <=? _) with true by (symmetry; apply Nat.leb_le; lia). simpl.
  eexists; split; [reflexivity|]. split.
  - repeat split; simpl; auto.
    + rewrite map_length. auto.
    + apply Forall_forall. intros x Hx. apply in_map_iff in Hx. destruct Hx as (y & <- & Hy).
      rewrite Forall_forall in Hf. apply Hf in Hy. rewrite firstn_length, skipn_length. lia.
  - intros i j Hi Hj. unfold mget. simpl.
    rewrite nth_indep with (d' := (fun c => firstn n (skipn s c)) []) by (rewrite map_length; lia).
    rewrite (map_nth (fun c => firstn n (skipn s c))). rewrite nth_firstn_lt, nth_skipn' by auto. reflexivity.
Qed.

Lemma block_ok M r c s t h w : shape M r c -> s + h <= r -> t + w <= c ->
  exists B, block M s t h w = Ok B /\ shape B h w /\
    forall i j, i < h -> j < w -> mget B i j = mget M (s + i) (t + j).
Proof.
  intros H Hr Hc. unfold block.
  destruct (middleCols_ok M r c t w H Hc) as (B1 & E1 & S1 & G1).
  destruct (middleRows_ok B1 r w s h S1 Hr) as (B2 & E2 & S2 & G2).
  rewrite E1. simpl. exists B2. repeat split; auto; try apply S2.
  intros. rewrite G2, G1; auto.
Qed.

Definition inr (s n i : nat) : bool := (s <=? i) && (i <? s + n).

Lemma nth_map2 {A T C : Type} (f : A -> T -> C) (l : list A) (m : list T) i da db dc :
  i < List.length l -> i < List.length m -> nth i (map2 f l m) dc = f (nth i l da) (nth i m db).
Proof. revert m i; induction l; intros [|b m] [|i] H H'; simpl in *; try lia; auto. apply IHl; lia. Qed.
Lemma map2_length {A T C : Type} (f : A -> T -> C) (l : list A) (m : list T) : List.length l = List.length m -> List.length (map2 f l m) = List.length l.
Proof. revert m; induction l; intros [|b m]; simpl; intros; try discriminate; auto. Qed.

Lemma set_middleCols_ok M r c s B n : shape M r c -> shape B r n -> s + n <= c ->
  shape (set_middleCols M s B) r c /\
  forall i j, mget (set_middleCols M s B) i j = if inr s n j then mget B i (j - s) else mget M i j.
Proof.
  intros (Hr & Hc & Hf) (Br & Bc & Bf) H. split.
  - repeat split; simpl; auto.
    + rewrite set_segment_length; lia.
    + unfold set_segment. apply Forall_app; split; [apply Forall_firstn'; auto|].
      apply Forall_app; split; auto. apply Forall_skipn'; auto.
  - intros i j. unfold mget. simpl. rewrite nth_set_segment by lia. rewrite Bc. unfold inr.
    destruct (_ && _); reflexivity.
Qed.

Lemma set_middleRows_ok M r c s B n : shape M r c -> shape B n c -> s + n <= r ->
  shape (set_middleRows M s B) r c /\
  forall i j, j < c -> mget (set_middleRows M s B) i j = if inr s n i then mget B (i - s) j else mget M i j.
Proof.
  intros HM HB H. pose proof HM as (Hr & Hc & Hf). pose proof HB as (Br & Bc & Bf). 
  assert (Hl : List.length (mcols_ M) = List.length (mcols_ B)) by congruence.
  split.
  - repeat split; simpl; auto.
    + rewrite map2_length; auto.
    + apply Forall_forall. intros x Hx. destruct (In_nth _ _ [] Hx) as (k & Hk & <-).
      rewrite map2_length in Hk by auto.
      rewrite nth_map2 with (da := []) (db := []) by lia.
      rewrite set_segment_length; [eapply shape_col; eauto; lia|].
      rewrite (shape_col M r c) by (auto; lia). rewrite (shape_col B n c) by (auto; lia). auto.
  - intros i j Hj. unfold mget. simpl. rewrite nth_map2 with (da := []) (db := []) by lia.
    rewrite nth_set_segment; rewrite (shape_col B n c) by auto; [reflexivity|].
    rewrite (shape_col M r c) by auto. auto.
Qed.

Lemma set_block_ok M r c s t B h w : shape M r c -> shape B h w -> s + h <= r -> t + w <= c ->
  shape (set_block M s t B) r c /\
  forall i j, j < c ->
    mget (set_block M s t B) i j = if inr s h i && inr t w j then mget B (i - s) (j - t) else mget M i j.
Proof.
  intros HM HB Hs Ht. unfold set_block. replace (ncols B) with w by (symmetry; apply HB).
  pose proof HM as (Hr & Hc & Hf). pose proof HB as (Br & Bc & Bf).
  set (band := Mat (mrows M) (firstn w (skipn t (mcols_ M)))).
  assert (Sb : shape band r w).
  { repeat split; simpl; auto; [rewrite firstn_length, skipn_length; lia|].
    apply Forall_firstn', Forall_skipn'. auto. }
  destruct (set_middleRows_ok band r w s B h Sb HB Hs) as (S1 & G1).
  destruct (set_middleCols_ok M r c t _ w HM S1 Ht) as (S2 & G2).
  split; auto. intros i j Hj. rewrite G2. destruct (inr t w j) eqn:E.
  - assert (j - t < w). { unfold inr in E. apply andb_prop in E. destruct E as [E1 E2].
      apply Nat.leb_le in E1. apply Nat.ltb_lt in E2. lia. }
    rewrite G1 by auto. destruct (inr s h i); simpl; auto.
    unfold band, mget. simpl. rewrite nth_firstn_lt, nth_skipn' by auto.
    unfold inr in E. apply andb_prop in E. destruct E as [E1 E2]. apply Nat.leb_le in E1.
    replace (t + (j - t)) with j by lia. reflexivity.
  - rewrite andb_false_r. reflexivity.
Qed.

(** Offsets of the factors. *)
Definition off (ds : list nat) (i : nat) : nat := sum_list (firstn i ds).

Lemma off_bound ds i d : nth_error ds i = Some d -> off ds i + d <= sum_list ds.
Proof.
  unfold off. revert i; induction ds as [|e ds IH]; intros [|i] H; simpl in *; try discriminate.
  - inversion H; subst. lia.
  - apply IH in H. lia.
Qed.

Lemma off_mono ds i j d : i < j -> nth_error ds i = Some d -> off ds i + d <= off ds j.
Proof.
  unfold off. revert i j; induction ds as [|e ds IH]; intros [|i] [|j] Hij H; simpl in *; try discriminate; try lia.
  - inversion H; subst. lia.
  - apply IH with (j := j) in H; lia.
Qed.

Lemma inr_off ds i k d e a : nth_error ds i = Some d -> nth_error ds k = Some e -> a < d ->
  inr (off ds k) e (off ds i + a) = (i =? k).
Proof.
  intros Hi Hk Ha. destruct (Nat.eqb_spec i k) as [->|Hn].
  - assert (d = e) by congruence. subst. unfold inr. apply andb_true_intro. split;
    [apply Nat.leb_le|apply Nat.ltb_lt]; lia.
  - unfold inr. destruct (Nat.lt_total i k) as [H|[H|H]]; [|contradiction|].
    + pose proof (off_mono ds i k d H Hi). apply andb_false_intro1. apply Nat.leb_gt. lia.
    + pose proof (off_mono ds k i e H Hk). apply andb_false_intro2. apply Nat.ltb_ge. lia.
Qed.

Lemma off_decomp ds q : q < sum_list ds ->
  exists i d a, nth_error ds i = Some d /\ a < d /\ q = off ds i + a.
Proof.
  revert q; induction ds as [|e ds IH]; intros q H; simpl in H; [lia|].
  destruct (Nat.lt_ge_cases q e) as [Hq|Hq].
  - exists 0, e, q. repeat split; auto.
  - destruct (IH (q - e)) as (i & d & a & Hi & Ha & E); [lia|].
    exists (S i), d, a. repeat split; auto. unfold off in *. simpl. lia.
Qed.

(** on_block, on_cols, on_rows of a well-formed product *)
Definition dims (D : edim) (subs : list (mfd K)) : list nat := map (getDim D) subs.

Lemma getStart_off D h sT sR subs i s : wf (Prod h sT sR subs) -> nth_error subs i = Some s ->
  getStart D (Prod h sT sR subs) i = Ok (off (dims D subs) i) /\
  getDimSub D (Prod h sT sR subs) i = Ok (getDim D s).
Proof.
  intros Hwf Hs.
  assert (Hi : i < List.length subs) by (apply nth_error_Some; congruence).
  destruct (split_at i subs Hi) as (s' & Es & E' & El). assert (s' = s) by congruence. subst s'.
  rewrite Es in Hwf. pose proof (getStart_wf D h sT sR _ _ _ Hwf) as G.
  pose proof (getDimSub_wf D h sT sR (firstn i subs) s (skipn (S i) subs)) as G'.
  rewrite <- Es, El in G, G'. unfold off, dims. rewrite firstn_map. auto.
Qed.

Lemma dims_nth D subs i s : nth_error subs i = Some s -> nth_error (dims D subs) i = Some (getDim D s).
Proof. intros H. unfold dims. rewrite nth_error_map, H. reflexivity. Qed.

Lemma on_block_ok Dr Dc h sT sR subs i j si sj f M : wf (Prod h sT sR subs) ->
  nth_error subs i = Some si -> nth_error subs j = Some sj ->
  shape M (sum_list (dims Dr subs)) (sum_list (dims Dc subs)) ->
  exists B, shape B (getDim Dr si) (getDim Dc sj) /\
    (forall a b, a < getDim Dr si -> b < getDim Dc sj ->
       mget B a b = mget M (off (dims Dr subs) i + a) (off (dims Dc subs) j + b)) /\
    on_block Dr Dc (Prod h sT sR subs) i j f M
    = (B' <- f B ;; Ok (set_block M (off (dims Dr subs) i) (off (dims Dc subs) j) B')).
Proof.
  intros Hwf Hi Hj HM. unfold on_block.
  destruct (getStart_off Dr _ _ _ _ _ _ Hwf Hi) as (-> & ->).
  destruct (getStart_off Dc _ _ _ _ _ _ Hwf Hj) as (-> & ->). cbn [bind].
  destruct (block_ok M _ _ (off (dims Dr subs) i) (off (dims Dc subs) j) (getDim Dr si) (getDim Dc sj) HM)
    as (B & E & S & G); [apply off_bound; apply dims_nth; auto|apply off_bound; apply dims_nth; auto|].
  exists B. rewrite E. cbn [bind]. split; [auto|split; [auto|reflexivity]].
Qed.

(** ** bdiag *)
Lemma bdiag_rows (Bs : list (mat K)) : mrows (bdiag Bs) = sum_list (map (@mrows K) Bs).
Proof. induction Bs; simpl; auto. Qed.

Lemma shape_bdiag (Bs : list (mat K)) : Forall (fun B => shape B (mrows B) (ncols B)) Bs ->
  shape (bdiag Bs) (sum_list (map (@mrows K) Bs)) (sum_list (map (@ncols K) Bs)).
Proof.
  induction Bs as [|B Bs IH]; intros H; inversion H as [|? ? H1 H2]; subst; simpl.
  - repeat split; simpl; auto.
  - specialize (IH H2). destruct IH as (I1 & I2 & I3). destruct H1 as (J1 & J2 & J3). repeat split; simpl.
    + rewrite I1. auto.
    + rewrite app_length, !map_length, I2. auto.
    + rewrite Forall_forall in I3, J3.
      apply Forall_app; split; apply Forall_forall; intros c Hc; apply in_map_iff in Hc;
        destruct Hc as (c' & <- & Hc'); rewrite app_length, repeat_length.
      * rewrite (J3 c') by auto. lia.
      * rewrite (I3 c') by auto. lia.
Qed.

Lemma mget_bdiag (Bs : list (mat K)) : Forall (fun B => shape B (mrows B) (ncols B)) Bs ->
  forall i j Bi Bj a b, nth_error Bs i = Some Bi -> nth_error Bs j = Some Bj ->
    a < mrows Bi -> b < ncols Bj ->
    mget (bdiag Bs) (off (map (@mrows K) Bs) i + a) (off (map (@ncols K) Bs) j + b)
    = if i =? j then mget Bi a b else k0.
Proof.
  induction Bs as [|B Bs IH]; intros H i j Bi Bj a b Hi Hj Ha Hb; [destruct i; discriminate|].
  inversion H as [|? ? H1 H2]; subst. pose proof (shape_bdiag Bs H2) as SB.
  assert (HBi : In Bi (B :: Bs)) by (eapply nth_error_In; eauto).
  assert (HBj : In Bj (B :: Bs)) by (eapply nth_error_In; eauto).
  unfold mget at 1. cbn [bdiag mcols_].
  destruct j as [|j]; simpl in Hj.
  - inversion Hj; subst Bj. unfold off at 2. simpl firstn. simpl sum_list. rewrite Nat.add_0_l.
    rewrite app_nth1 by (rewrite map_length; auto).
    rewrite nth_indep with (d' := (fun c => c ++ repeat k0 (mrows (bdiag Bs))) []) by (rewrite map_length; auto).
    rewrite (map_nth (fun c => c ++ repeat k0 (mrows (bdiag Bs)))).
    assert (Lc : List.length (nth b (mcols_ B) []) = mrows B) by (eapply shape_col; eauto).
    destruct i as [|i]; simpl in Hi.
    + inversion Hi; subst Bi. unfold off. simpl. rewrite app_nth1 by lia. reflexivity.
    + rewrite app_nth2; unfold off; simpl; [|rewrite Lc; lia].
      apply nth_repeat'. rewrite Lc, bdiag_rows.
      assert (nth_error (map (@mrows K) Bs) i = Some (mrows Bi)) as Hm by (rewrite nth_error_map, Hi; auto).
      pose proof (off_bound _ _ _ Hm). unfold off in *. lia.
  - rewrite app_nth2 by (rewrite map_length; unfold off; simpl; unfold ncols; lia).
    rewrite map_length.
    replace (off (map (@ncols K) (B :: Bs)) (S j) + b - List.length (mcols_ B))
      with (off (map (@ncols K) Bs) j + b) by (unfold off; simpl; unfold ncols at 2; lia).
    assert (nth_error (map (@ncols K) Bs) j = Some (ncols Bj)) as Hm by (rewrite nth_error_map, Hj; auto).
    pose proof (off_bound _ _ _ Hm) as Hob.
    rewrite nth_indep with (d' := (fun c => repeat k0 (mrows B) ++ c) [])
      by (rewrite map_length, (proj1 (proj2 SB)); lia).
    rewrite (map_nth (fun c => repeat k0 (mrows B) ++ c)).
    destruct i as [|i]; simpl in Hi.
    + inversion Hi; subst Bi. unfold off at 1. simpl. rewrite app_nth1 by (rewrite repeat_length; lia).
      apply nth_repeat'; auto.
    + rewrite app_nth2; rewrite repeat_length; unfold off at 1; simpl; [|lia].
      replace (mrows B + sum_list (firstn i (map (@mrows K) Bs)) + a - mrows B)
        with (off (map (@mrows K) Bs) i + a) by (unfold off; lia).
      change (nth (off (map (@mrows K) Bs) i + a) (nth (off (map (@ncols K) Bs) j + b) (mcols_ (bdiag Bs)) []) k0)
        with (mget (bdiag Bs) (off (map (@mrows K) Bs) i + a) (off (map (@ncols K) Bs) j + b)).
      apply IH with (Bj := Bj); auto.
Qed.

(** A matrix whose blocks are those of a block-diagonal matrix is that matrix. *)
Lemma is_bdiag M (Bs : list (mat K)) dr dc :
  map (@mrows K) Bs = dr -> map (@ncols K) Bs = dc -> Forall (fun B => shape B (mrows B) (ncols B)) Bs ->
  shape M (sum_list dr) (sum_list dc) ->
  (forall i j Bi Bj a b, nth_error Bs i = Some Bi -> nth_error Bs j = Some Bj ->
     a < mrows Bi -> b < ncols Bj ->
     mget M (off dr i + a) (off dc j + b) = if i =? j then mget Bi a b else k0) ->
  M = bdiag Bs.
Proof.
  intros <- <- HB HM G. eapply mat_ext; [exact HM|apply shape_bdiag; auto|].
  intros p q Hp Hq.
  destruct (off_decomp _ _ Hp) as (i & d & a & Hi & Ha & ->).
  destruct (off_decomp _ _ Hq) as (j & e & b & Hj & Hb & ->).
  rewrite nth_error_map in Hi, Hj.
  destruct (nth_error Bs i) as [Bi|] eqn:Ei; [|discriminate].
  destruct (nth_error Bs j) as [Bj|] eqn:Ej; [|discriminate].
  simpl in Hi, Hj. inversion Hi; inversion Hj; subst.
  rewrite (G i j Bi Bj a b), (mget_bdiag Bs HB i j Bi Bj a b); auto.
Qed.

(** ** Loops writing the diagonal blocks *)
Section Diag.
  Variables (subs : list (mfd K)) (dr dc : mfd K -> nat).
  Notation rd := (map dr subs).
  Notation cd := (map dc subs).
  Variables (f step : nat -> mfd K -> mat K -> res (mat K)).
  Hypothesis Hstep : forall i s J, nth_error subs i = Some s -> shape J (sum_list rd) (sum_list cd) ->
    exists B, shape B (dr s) (dc s) /\ step i s J = (B' <- f i s B ;; Ok (set_block J (off rd i) (off cd i) B')).

  Lemma diag_ok (bs : list (mat K)) J0 :
    (forall i s, nth_error subs i = Some s -> exists b, nth_error bs i = Some b /\
       shape b (dr s) (dc s) /\
       forall B, shape B (dr s) (dc s) -> f i s B = Ok b) ->
    shape J0 (sum_list rd) (sum_list cd) ->
    exists J, loop step 0 subs J0 = Ok J /\
      shape J (sum_list rd) (sum_list cd) /\
      forall i j si sj bi a b, nth_error subs i = Some si -> nth_error subs j = Some sj ->
        nth_error bs i = Some bi -> a < dr si -> b < dc sj ->
        mget J (off rd i + a) (off cd j + b)
        = if i =? j then mget bi a b else mget J0 (off rd i + a) (off cd j + b).
  Proof.
    intros Hf HJ0.
    cut (forall post pre J, subs = pre ++ post ->
      shape J (sum_list rd) (sum_list cd) ->
      (forall i j si sj bi a b, nth_error subs i = Some si -> nth_error subs j = Some sj ->
        nth_error bs i = Some bi -> a < dr si -> b < dc sj ->
        mget J (off rd i + a) (off cd j + b)
        = if (i =? j) && (i <? List.length pre) then mget bi a b
          else mget J0 (off rd i + a) (off cd j + b)) ->
      exists J', loop step (List.length pre) post J = Ok J' /\
      shape J' (sum_list rd) (sum_list cd) /\
      forall i j si sj bi a b, nth_error subs i = Some si -> nth_error subs j = Some sj ->
        nth_error bs i = Some bi -> a < dr si -> b < dc sj ->
        mget J' (off rd i + a) (off cd j + b)
        = if i =? j then mget bi a b else mget J0 (off rd i + a) (off cd j + b)).
    { intros C. apply (C subs [] J0); auto. intros. rewrite andb_false_r. reflexivity. }
    induction post as [|s post IH]; intros pre J Es HJ Inv.
    - simpl. exists J. split; auto. split; auto. intros i j si sj bi a b Hi Hj Hbi Ha Hb.
      rewrite (Inv i j si sj bi a b) by auto. rewrite Es, app_nil_r in Hi.
      assert (i < List.length pre) as Hlt by (apply nth_error_Some; congruence).
      apply Nat.ltb_lt in Hlt. rewrite Hlt, andb_true_r. reflexivity.
    - assert (Hk : nth_error subs (List.length pre) = Some s).
      { rewrite Es, nth_error_app2, Nat.sub_diag by lia. reflexivity. }
      destruct (Hf _ _ Hk) as (b0 & Hb0 & Sb0 & Fb0).
      destruct (Hstep _ _ J Hk HJ) as (B & SB & EB).
      cbn [loop]. rewrite EB, (Fb0 B SB). cbn [bind].
      pose proof (map_nth_error dr _ _ Hk) as Hkr. pose proof (map_nth_error dc _ _ Hk) as Hkc.
      destruct (set_block_ok J _ _ (off rd (List.length pre)) (off cd (List.length pre))
                  b0 (dr s) (dc s) HJ Sb0) as (SJ & GJ);
        [apply off_bound; auto|apply off_bound; auto|].
      specialize (IH (pre ++ [s]) _ ltac:(rewrite <- app_assoc; exact Es) SJ).
      rewrite app_length in IH. cbn [List.length] in IH. rewrite Nat.add_1_r in IH. apply IH. clear IH.
      intros i j si sj bi a b Hi Hj Hbi Ha Hb.
      pose proof (map_nth_error dr _ _ Hi) as Hir. pose proof (map_nth_error dc _ _ Hj) as Hjc.
      rewrite GJ by (pose proof (off_bound _ _ _ Hjc); lia).
      rewrite (inr_off rd i (List.length pre) (dr si) (dr s) a Hir Hkr Ha).
      rewrite (inr_off cd j (List.length pre) (dc sj) (dc s) b Hjc Hkc Hb).
      destruct (Nat.eqb_spec i (List.length pre)) as [->|Hni]; simpl.
      + destruct (Nat.eqb_spec j (List.length pre)) as [->|Hnj].
        * assert (bi = b0) by congruence. subst bi. rewrite Nat.eqb_refl.
          replace (List.length pre <? S (List.length pre)) with true by (symmetry; apply Nat.ltb_lt; lia).
          simpl. f_equal; lia.
        * rewrite (Inv _ j si sj bi a b) by auto.
          replace (List.length pre =? j) with false by (symmetry; apply Nat.eqb_neq; auto). reflexivity.
      + rewrite (Inv i j si sj bi a b) by auto.
        replace (i <? S (List.length pre)) with (i <? List.length pre); auto.
        destruct (Nat.ltb_spec i (List.length pre)), (Nat.ltb_spec i (S (List.length pre))); auto; lia.
  Qed.

  Lemma diag_inv J0 J :
    (forall i s B b, nth_error subs i = Some s -> shape B (dr s) (dc s) ->
       f i s B = Ok b -> shape b (dr s) (dc s)) ->
    shape J0 (sum_list rd) (sum_list cd) ->
    loop step 0 subs J0 = Ok J ->
    forall i s, nth_error subs i = Some s ->
      exists B b, shape B (dr s) (dc s) /\ f i s B = Ok b.
  Proof.
    intros Hsh HJ0.
    cut (forall post pre J0, subs = pre ++ post ->
      shape J0 (sum_list rd) (sum_list cd) ->
      loop step (List.length pre) post J0 = Ok J ->
      forall i s, List.length pre <= i -> nth_error subs i = Some s ->
      exists B b, shape B (dr s) (dc s) /\ f i s B = Ok b).
    { intros C H i s Hs. apply (C subs [] J0); auto. simpl. lia. }
    clear J0 HJ0. induction post as [|s0 post IH]; intros pre J0 Es HJ0 H i s Hi Hs.
    - rewrite app_nil_r in Es. subst pre. assert (i < List.length subs) by (apply nth_error_Some; congruence). lia.
    - assert (Hk : nth_error subs (List.length pre) = Some s0).
      { rewrite Es, nth_error_app2, Nat.sub_diag by lia. reflexivity. }
      destruct (Hstep _ _ J0 Hk HJ0) as (B & SB & EB).
      cbn [loop] in H. rewrite EB in H. destruct (f (List.length pre) s0 B) as [b|] eqn:Ef; [|discriminate].
      cbn [bind] in H.
      destruct (Nat.eq_dec i (List.length pre)) as [->|Hn].
      + assert (s = s0) by congruence. subst. eauto.
      + pose proof (map_nth_error dr _ _ Hk) as Hkr. pose proof (map_nth_error dc _ _ Hk) as Hkc.
        apply (IH (pre ++ [s0]) (set_block J0 (off rd (List.length pre)) (off cd (List.length pre)) b)); auto.
        * rewrite <- app_assoc. auto.
        * eapply set_block_ok; eauto; apply off_bound; auto.
        * rewrite app_length. simpl. rewrite Nat.add_1_r. auto.
        * rewrite app_length. simpl. lia.
  Qed.
End Diag.

(** From blocks to [bdiag]; [g] computes a block from the factor and its argument. *)
Section DiagOp.
  Variables (subs : list (mfd K)) (dr dc : mfd K -> nat).
  Variables (f step : nat -> mfd K -> mat K -> res (mat K)).
  Variables (A : Type) (g : mfd K -> A -> res (mat K)) (args : list A).
  Hypothesis Hstep : forall i s J, nth_error subs i = Some s ->
    shape J (sum_list (map dr subs)) (sum_list (map dc subs)) ->
    exists B, shape B (dr s) (dc s) /\
      step i s J = (B' <- f i s B ;; Ok (set_block J (off (map dr subs) i) (off (map dc subs) i) B')).
  Hypothesis Hargs : List.length args = List.length subs.
  Hypothesis Hf : forall i s a B, nth_error subs i = Some s -> nth_error args i = Some a ->
    shape B (dr s) (dc s) -> f i s B = g s a.
  Hypothesis Hg : forall i s a b, nth_error subs i = Some s -> nth_error args i = Some a ->
    g s a = Ok b -> shape b (dr s) (dc s).

  Lemma Forall3_nth_error {X Y Z : Type} (R : X -> Y -> Z -> Prop) l1 l2 l3 : Forall3 R l1 l2 l3 ->
    forall i x, nth_error l1 i = Some x ->
      exists y z, nth_error l2 i = Some y /\ nth_error l3 i = Some z /\ R x y z.
  Proof. induction 1; intros [|i] x Hx; simpl in *; try discriminate; eauto. inversion Hx; subst. eauto. Qed.

  Lemma collect : (forall i s a, nth_error subs i = Some s -> nth_error args i = Some a -> exists b, g s a = Ok b) ->
    exists bs, Forall3 (fun s a b => g s a = Ok b) subs args bs.
  Proof.
    clear Hstep Hf Hg. revert args Hargs. induction subs as [|s ss IH]; intros [|a az] Hl H; try discriminate.
    - exists []. constructor.
    - destruct (H 0 s a eq_refl eq_refl) as [b Hb]. destruct (IH az) as [bs Hbs].
      + simpl in Hl. lia.
      + intros i. apply (H (S i)).
      + exists (b :: bs). constructor; auto.
  Qed.

  Lemma blocks_dims bs : Forall3 (fun s a b => g s a = Ok b) subs args bs ->
    map (@mrows K) bs = map dr subs /\ map (@ncols K) bs = map dc subs /\
    Forall (fun B => shape B (mrows B) (ncols B)) bs.
  Proof.
    clear Hstep Hf Hargs. intros H.
    assert (Hg' : forall i s a b, nth_error subs i = Some s -> nth_error args i = Some a -> 
       g s a = Ok b -> shape b (dr s) (dc s)) by exact Hg. clear Hg. revert Hg'.
    induction H as [|s a b ss az bs Hb H IH]; intros Hg; simpl; auto.
    destruct IH as (I1 & I2 & I3); [intros i; apply (Hg (S i))|].
    pose proof (Hg 0 s a b eq_refl eq_refl Hb) as (S1 & S2 & S3).
    rewrite I1, I2. unfold ncols. rewrite S1, S2. repeat split; auto.
    constructor; auto. repeat split; auto. rewrite S1. auto.
  Qed.

  Lemma diag_op J0 J : shape J0 (sum_list (map dr subs)) (sum_list (map dc subs)) ->
    (forall i j, mget J0 i j = k0) ->
    (loop step 0 subs J0 = Ok J <->
     exists bs, Forall3 (fun s a b => g s a = Ok b) subs args bs /\ J = bdiag bs).
  Proof.
    intros HJ0 HZ.
    assert (OK : forall bs, Forall3 (fun s a b => g s a = Ok b) subs args bs -> loop step 0 subs J0 = Ok (bdiag bs)).
    { intros bs Hbs.
      destruct (diag_ok subs dr dc f step Hstep bs J0) as (J' & E & SJ & GJ); auto.
      - intros i s Hs. destruct (Forall3_nth_error _ _ _ _ Hbs i s Hs) as (a & b & Ha & Hb & Hgb).
        exists b. repeat split; auto; try (eapply Hg; eauto). intros B SB. rewrite (Hf i s a B); auto.
      - rewrite E. f_equal. destruct (blocks_dims bs Hbs) as (D1 & D2 & D3).
        apply (is_bdiag J' bs (map dr subs) (map dc subs)); auto.
        intros i j Bi Bj a b Hi Hj Ha Hb.
        assert (Fs : forall i B, nth_error bs i = Some B -> exists s, nth_error subs i = Some s).
        { intros k B HB. assert (k < List.length subs).
          { rewrite <- (map_length dr subs), <- D1, map_length. apply nth_error_Some. congruence. }
          destruct (nth_error subs k) eqn:Ek; eauto. apply nth_error_None in Ek. lia. }
        destruct (Fs i Bi Hi) as [si Hsi]. destruct (Fs j Bj Hj) as [sj Hsj].
        assert (Ri : mrows Bi = dr si).
        { pose proof (map_nth_error (@mrows K) _ _ Hi) as Q. rewrite D1, (map_nth_error dr _ _ Hsi) in Q. congruence. }
        assert (Cj : ncols Bj = dc sj).
        { pose proof (map_nth_error (@ncols K) _ _ Hj) as Q. rewrite D2, (map_nth_error dc _ _ Hsj) in Q. congruence. }
        rewrite (GJ i j si sj Bi a b) by (auto; lia). destruct (i =? j); auto. }
    split.
    - intros H.
      destruct collect as [bs Hbs].
      { intros i s a Hs Ha. destruct (diag_inv subs dr dc f step Hstep J0 J) with (i := i) (s := s) as (B & b & SB & Hb); auto.
        - intros i' s' B' b' Hs' SB' Hb'. 
          destruct (nth_error args i') as [a'|] eqn:Ea'.
          + eapply Hg; eauto. rewrite <- (Hf i' s' a' B'); auto.
          + apply nth_error_None in Ea'. assert (i' < List.length subs) by (apply nth_error_Some; congruence). lia.
        - exists b. rewrite <- (Hf i s a B); auto. }
      exists bs. split; auto. rewrite (OK bs Hbs) in H. congruence.
    - intros (bs & Hbs & ->). auto.
  Qed.
End DiagOp.
End BlockMat.
