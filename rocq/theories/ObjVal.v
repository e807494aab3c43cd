(** Values of points: sub-points, writes, copies. *)
From Coq Require Import List Arith Bool ZArith Lia.
From Verif Require Import Base Scalar Vec Model_Manifold Model_Object Spec SpecObj Layout Comp Structure Indep Heap ObjTree ObjStep ObjPoint ObjFacts.
Import ListNotations.

Section ObjVal.
Context {K : Type} {SK : Scalar K}.
Implicit Types (s : state K).

Lemma nth_sub {A} (v : list A) i n k d : k < n -> nth k (firstn n (skipn i v)) d = nth (i + k) v d.
Proof.
  revert v k. induction i as [|i IH]; intros v k H; cbn [skipn Nat.add].
  - revert v k H. induction n as [|n IHn]; intros [|x v] [|k] H; cbn; try lia; auto. rewrite IHn by lia. reflexivity.
  - destruct v as [|x v]; [|apply IH; auto]. destruct n, k; cbn; auto.
Qed.
Lemma shows_value s p x : shows s p x <-> exists q, get (pts s) p = Some q /\ value s q = Some x.
Proof.
  split.
  - intros (q & v & H1 & H2 & H3 & H4 & H5). exists q. split; auto. unfold value. rewrite H2, H4. destruct (Nat.leb_spec (p_off q + length x) (length v)); [|lia].
    f_equal. apply nth_ext with (d := k0) (d' := k0); rewrite ?firstn_length, ?skipn_length; [lia|]. intros k Hk. rewrite nth_sub by lia. symmetry. apply H5. lia.
  - intros (q & H1 & H2). pose proof (value_length s q x H2) as L. unfold value in H2. destruct (get (mems s) (p_mem q)) as [v|] eqn:E; [|discriminate].
    destruct (Nat.leb_spec (p_off q + p_len q) (length v)); [|discriminate]. injection H2 as <-. exists q, v.
    split; auto. split; auto. split; [lia|]. split; [lia|]. intros d k Hk. apply nth_sub. lia.
Qed.
Lemma shows_fun s p x y : shows s p x -> shows s p y -> x = y.
Proof. rewrite !shows_value. intros (q & A & B) (q' & A' & B'). congruence. Qed.

(** ** Old points and memories *)
Definition vkeep n k s s' : Prop :=
  (forall p q, p < n -> get (pts s) p = Some q -> get (pts s') p = Some q) /\
  (forall i v, i < k -> get (mems s) i = Some v -> get (mems s') i = Some v) /\
  length (pts s) <= length (pts s') /\ length (mems s) <= length (mems s').
Lemma vkeep_refl n k s : vkeep n k s s. Proof. repeat split; auto. Qed.
Lemma vkeep_trans n k s1 s2 s3 : vkeep n k s1 s2 -> vkeep n k s2 s3 -> vkeep n k s1 s3.
Proof. intros (A & B & C & D) (A' & B' & C' & D'). repeat split; try lia; auto. Qed.
Lemma vkeep_le n k n' k' s s' : n' <= n -> k' <= k -> vkeep n k s s' -> vkeep n' k' s s'.
Proof. intros L1 L2 (A & B & C & D). repeat split; auto; [intros p q L|intros i v L]; [apply A|apply B]; lia. Qed.
Lemma vkeep_same n k s s' : pts s' = pts s -> mems s' = mems s -> vkeep n k s s'.
Proof. intros E1 E2. unfold vkeep. rewrite E1, E2. repeat split; auto. Qed.
Lemma vkeep_shows s s' p x : vkeep (length (pts s)) (length (mems s)) s s' -> shows s p x -> shows s' p x.
Proof.
  intros (A & B & _) (q & v & H1 & H2 & H). exists q, v. split; [apply A; auto; eapply get_lt; eauto|]. split; [apply B; auto; eapply get_lt; eauto|exact H].
Qed.
Lemma modify_vkeep n k s a f : vkeep n k s (modify s a f).
Proof. destruct (modify_rest s a f) as (P & M & _). apply vkeep_same; auto. Qed.

(** What making a point gives. *)
Lemma make_point_gives s a v s' : make_point s a v = Done s' -> exists m, tree s a = Some m /\ length v = representationDim m /\ 0 < length v /\
  pts s' = pts s ++ [Some (Pt a (length (mems s)) 0 (length v) true)] /\ mems s' = mems s ++ [Some v].
Proof.
  unfold make_point, with_tree. destruct (tree s a) as [m|]; [|discriminate]. destruct (Nat.ltb_spec 0 (length v)); [|discriminate].
  destruct (Nat.eqb_spec (length v) (representationDim m)); [|discriminate]. intros E. injection E as <-. exists m. split; auto. split; auto. split; auto.
  unfold register. match goal with |- context [modify ?s ?a ?f] => destruct (modify_rest s a f) as (P & M & _); rewrite P, M end. auto.
Qed.
Lemma make_point_thrown s a v e s' : make_point s a v = Thrown e s' -> s' = s.
Proof.
  unfold make_point, with_tree. destruct (tree s a) as [m|]; [|discriminate]. destruct (0 <? length v); [|congruence]. destruct (length v =? _); congruence.
Qed.
Lemma make_point_does s a v m : tree s a = Some m -> length v = representationDim m -> 0 < length v -> exists s', make_point s a v = Done s'.
Proof. intros T L P. unfold make_point, with_tree. rewrite T, L, Nat.eqb_refl. apply Nat.ltb_lt in P. rewrite L in P. rewrite P. eauto. Qed.
Lemma app_vkeep n k s s' x y : pts s' = pts s ++ x -> mems s' = mems s ++ y -> n <= length (pts s) -> k <= length (mems s) -> vkeep n k s s'.
Proof.
  intros E1 E2 L1 L2. unfold vkeep. rewrite E1, E2, !app_length. repeat split; try lia; [intros p q L H|intros i v L H]; unfold get in *; rewrite app_nth1 by lia; auto.
Qed.
Lemma make_point_vkeep s a v n k : n <= length (pts s) -> k <= length (mems s) -> post (make_point s a v) (vkeep n k s).
Proof.
  intros L1 L2. destruct (make_point s a v) as [s'|e s'| | |] eqn:E; cbn [post]; auto.
  - destruct (make_point_gives _ _ _ _ E) as (m & _ & _ & _ & P & M). eapply app_vkeep; eauto.
  - apply make_point_thrown in E. subst. apply vkeep_refl.
Qed.
Lemma lockm_rest s a : pts (lockm s a) = pts s /\ mems (lockm s a) = mems s.
Proof. unfold lockm. destruct (modify_rest s a with_lock) as (P & M & _). auto. Qed.
Lemma make_point_lock_vkeep s a v n k : n <= length (pts s) -> k <= length (mems s) -> post (make_point (lockm s a) a v) (vkeep n k s).
Proof.
  intros L1 L2. destruct (lockm_rest s a) as [P M]. eapply post_weak; [|apply make_point_vkeep; rewrite ?P, ?M; eauto].
  intros s' H. eapply vkeep_trans; [|exact H]. apply vkeep_same; auto.
Qed.
Lemma add_view_gives s q s' : add_view s q = Done s' -> pts s' = pts s ++ [Some q] /\ mems s' = mems s.
Proof.
  unfold add_view. destruct (get (objs s) (p_mfd q)); [|discriminate]. intros E. injection E as <-. unfold register.
  match goal with |- context [modify ?s ?a ?f] => destruct (modify_rest s a f) as (P & M & _); rewrite P, M end. auto.
Qed.
Lemma add_view_vkeep s q n k : n <= length (pts s) -> k <= length (mems s) -> post (add_view s q) (vkeep n k s).
Proof.
  intros L1 L2. destruct (add_view s q) as [s'|e s'| | |] eqn:E; cbn [post]; auto.
  - destruct (add_view_gives _ _ _ E) as (P & M). apply (app_vkeep n k s s' [Some q] []); auto. rewrite app_nil_r. auto.
  - unfold add_view in E. destruct (get (objs s) (p_mfd q)); discriminate.
Qed.
Lemma write_rest s q w : pts (write s q w) = pts s /\ forall i, i <> p_mem q -> get (mems (write s q w)) i = get (mems s) i.
Proof. unfold write. destruct (get (mems s) (p_mem q)); cbn; split; auto. intros i N. apply get_upd_other; auto. Qed.
Lemma write_len s q w : length (mems (write s q w)) = length (mems s).
Proof. unfold write. destruct (get (mems s) (p_mem q)); auto. cbn. apply upd_length. Qed.
Lemma write_vkeep s q w n k : k <= p_mem q -> vkeep n k s (write s q w).
Proof.
  intros L. destruct (write_rest s q w) as [P M]. pose proof (write_len s q w). unfold vkeep. rewrite P. repeat split; auto; try lia.
  intros i v Li H1. rewrite M; auto. lia.
Qed.

Lemma plus_vkeep s p v : pinv s -> post (plus s p v) (vkeep (length (pts s)) (length (mems s)) s).
Proof.
  intros PI. unfold plus. destruct (get (pts s) p) as [q|] eqn:Eq; [|exact I]. destruct (p_owner q); [|exact I]. destruct (value s q) as [x|]; [|exact I]. cbn zeta.
  unfold create_point_val, with_tree. destruct (tree s (p_mfd q)) as [m|]; [|exact I]. destruct (isInM m x default_prec) as [[]|[]]; cbn [lift bind_out post]; try apply vkeep_refl; auto.
  destruct (make_point (lockm s (p_mfd q)) (p_mfd q) x) as [s1|e s1| | |] eqn:E1; cbn [bind_out post]; auto.
  2:{ apply make_point_thrown in E1. subst. apply vkeep_same; apply lockm_rest. }
  destruct (make_point_gives _ _ _ _ E1) as (m1 & _ & _ & _ & P1 & M1). destruct (lockm_rest s (p_mfd q)) as [P0 M0]. rewrite P0, M0 in *.
  set (n := length (pts s)) in *. set (k := length (mems s)) in *. set (q1 := Pt (p_mfd q) k 0 (length x) true) in *.
  assert (K1 : vkeep n k s s1) by (eapply app_vkeep; [rewrite P1; reflexivity|rewrite M1; reflexivity|auto..]).
  assert (G1 : get (pts s1) n = Some q1) by (rewrite P1; unfold n; apply get_app_new).
  assert (L1 : n < length (pts s1)) by (eapply get_lt; eauto).
  (* every state reached before the temporary is destroyed *)
  assert (X : post (bind_out (increment s1 n v) (fun s2 => copy_point s2 n)) (fun s2 => vkeep n k s s2 /\ get (pts s2) n = Some q1)).
  { unfold increment. rewrite G1. cbn [p_owner q1]. destruct (value s1 q1) as [x1|]; [|exact I]. unfold with_tree. destruct (tree s1 (p_mfd q1)) as [m'|]; [|exact I].
    destruct (retractation m' x1 x1 v) as [r|[]]; cbn [lift bind_out post]; auto. set (s2 := write s1 q1 r).
    destruct (write_rest s1 q1 r) as [P2 _]. fold s2 in P2. assert (K2 : vkeep n k s s2) by (eapply vkeep_trans; [exact K1|]; apply write_vkeep; cbn; lia).
    assert (G2 : get (pts s2) n = Some q1) by (rewrite P2; auto).
    unfold copy_point. rewrite G2. destruct (value s2 q1) as [x2|]; [|exact I]. destruct (make_point s2 (p_mfd q1) x2) as [s3|e s3| | |] eqn:E3; cbn [post]; auto.
    - destruct (make_point_gives _ _ _ _ E3) as (m3 & _ & _ & _ & P3 & M3). split.
      + eapply vkeep_trans; [exact K2|]. eapply app_vkeep; [exact P3|exact M3|rewrite P2; lia|]. destruct K2 as (_ & _ & _ & Lk). unfold k. exact Lk.
      + rewrite P3, get_app_old; auto. rewrite P2. lia.
    - apply make_point_thrown in E3. subst. auto. }
  assert (D : forall s2, vkeep n k s s2 /\ get (pts s2) n = Some q1 -> post (destroy_point s2 n) (vkeep n k s)).
  { intros s2 (K2 & G2). unfold destroy_point. rewrite G2. destruct (get (objs s2) (p_mfd q1)) as [o|]; [|exact I]. destruct (0 <? o_count o)%Z; [|exact I]. cbn [post p_owner q1 p_mem].
    set (s3 := modify s2 _ _). destruct (modify_rest s2 (p_mfd q1) (with_count (fun c => (c - 1)%Z))) as (P3 & M3 & _). fold s3 in P3, M3.
    eapply vkeep_trans; [exact K2|]. unfold vkeep. cbn. rewrite !upd_length, P3, M3. repeat split; auto.
    - intros p' q' L H. rewrite get_upd_other by lia. auto.
    - intros i w L H. rewrite get_upd_other by lia. auto. }
  unfold finally. destruct (bind_out _ _) as [s2|e s2| | |]; cbn [post] in X |- *; auto.
  pose proof (D s2 X) as Y. destruct (destroy_point s2 n); cbn [post] in *; auto.
Qed.

Theorem value_frame s (o : op K) p x : all_inv s -> declared o -> shows s p x ->
  (forall r, writes o r -> ~ same_mem s p r) -> (forall r, ends o r -> r <> p /\ (owner_point s r -> ~ same_mem s p r)) ->
  post (step s o) (fun s' => shows s' p x).
Proof.
  intros (I & B & P) D S W E. pose proof S as S0. destruct S0 as (q & v & Hq & Hm & Hl).
  assert (V : post (step s o) (vkeep (length (pts s)) (length (mems s)) s) -> post (step s o) (fun s' => shows s' p x)).
  { intros V. eapply post_weak; [|exact V]. intros s' V'. eapply vkeep_shows; eauto. }
  assert (Wr : forall r q' w, get (pts s) r = Some q' -> ~ same_mem s p r -> shows (write s q' w) p x).
  { intros r q' w Hr N. assert (Nm : p_mem q <> p_mem q') by (intros X; apply N; exists q, q'; auto). destruct (write_rest s q' w) as [P1 M1]. exists q, v.
    rewrite P1, (M1 _ Nm). auto. }
  destruct (mfd_op o) eqn:Mo.
  { apply V. eapply post_weak; [|apply mfd_keeps; auto; apply declared_tame; auto]. intros s' (P1 & M1 & _). apply vkeep_same; auto. }
  destruct o; cbn [declared mfd_op point_op negb] in *; try discriminate; try (exfalso; exact D); clear Mo; cbn [step writes ends] in *.
  - apply V. destruct (get (objs s) a); [|exact Logic.I]. apply modify_vkeep.
  - apply V. unfold create_point, with_tree. destruct (tree s a) as [m|]; [|exact Logic.I]. destruct (length junk =? representationDim m); [|exact Logic.I]. apply make_point_lock_vkeep; auto.
  - apply V. unfold create_point_val, with_tree. destruct (tree s a) as [m|]; [|exact Logic.I]. apply post_lift; [apply vkeep_refl|]. intros [] _; [apply make_point_lock_vkeep; auto|apply vkeep_refl].
  - apply V. unfold get_zero, with_tree. destruct (tree s a) as [m|]; [|exact Logic.I]. destruct (length junk =? representationDim m); [|exact Logic.I]. cbn zeta.
    apply post_lift; [apply modify_vkeep|]. intros w _. apply make_point_lock_vkeep; auto.
  - apply V. unfold copy_point. destruct (get (pts s) p0) as [q0|]; [|exact Logic.I]. destruct (value s q0); [apply make_point_vkeep; auto|exact Logic.I].
  - apply V. unfold copy_view. destruct (get (pts s) p0) as [q0|]; [apply add_view_vkeep; auto|exact Logic.I].
  - apply V. unfold sub_point. destruct (get (pts s) p0) as [q0|]; [|exact Logic.I]. apply post_tree. intros m _. destruct (get (objs s) (p_mfd q0)); [|exact Logic.I].
    apply post_lift; [apply vkeep_refl|]. intros r _. destruct (fst r + snd r <=? p_len q0); [apply add_view_vkeep; auto|apply vkeep_refl].
  - (* DestroyPoint *) destruct (E p0 eq_refl) as [Np Eo]. unfold destroy_point. destruct (get (pts s) p0) as [q0|] eqn:H0; [|exact Logic.I]. destruct (get (objs s) (p_mfd q0)) as [ob|]; [|exact Logic.I].
    destruct (0 <? o_count ob)%Z; [|exact Logic.I]. cbn [post]. set (s1 := modify s _ _). destruct (modify_rest s (p_mfd q0) (with_count (fun c => (c - 1)%Z))) as (P1 & M1 & _). fold s1 in P1, M1.
    exists q, v. cbn. split; [|split; [|auto]].
    + destruct (p_owner q0); cbn; rewrite get_upd_other by auto; rewrite P1; auto.
    + destruct (p_owner q0) eqn:O0; cbn; [|rewrite M1; auto]. rewrite get_upd_other, M1; auto. intros X. apply Eo; [exists q0; auto|]. exists q, q0. auto.
  - specialize (W p0 eq_refl). unfold write_coef. destruct (get (pts s) p0) as [q0|] eqn:H0; [|exact Logic.I]. destruct (value s q0); [|exact Logic.I].
    destruct (k <? p_len q0); [eapply Wr; eauto|exact S].
  - specialize (W p0 eq_refl). unfold increment. destruct (get (pts s) p0) as [q0|] eqn:H0; [|exact Logic.I]. destruct (p_owner q0); [|exact Logic.I]. destruct (value s q0); [|exact Logic.I].
    apply post_tree. intros m _. apply post_lift; [exact S|]. intros r _. eapply Wr; eauto.
  - specialize (W p0 eq_refl). unfold assign_point. destruct (get (pts s) p0) as [q1|] eqn:H0; [|exact Logic.I]. destruct (get (pts s) q0) as [q2|]; [|exact Logic.I].
    destruct (p_owner q1 && p_owner q2); [|exact Logic.I]. apply post_tree. intros m _. apply post_tree. intros m' _.
    destruct (dim m =? dim m'); [|exact S]. destruct (representationDim m =? representationDim m'); [|exact S]. destruct (value s q1), (value s q2); try exact Logic.I.
    apply post_lift; [exact S|]. intros r _. eapply Wr; eauto.
  - apply V. apply plus_vkeep; auto.
  - apply V. unfold retract_point. destruct (get (pts s) p0) as [q0|]; [|exact Logic.I]. destruct (p_owner q0); [|exact Logic.I]. destruct (value s q0); [|exact Logic.I].
    apply post_tree. intros m _. apply post_lift; [apply vkeep_refl|]. intros r _.
    unfold create_point_val, with_tree. destruct (tree s (p_mfd q0)) as [m'|]; [|exact Logic.I]. apply post_lift; [apply vkeep_refl|]. intros [] _; [apply make_point_lock_vkeep; auto|apply vkeep_refl].
Qed.

(** ** Writing a value *)
Lemma write_value s q w x : value s q = Some x -> length w = p_len q -> forall q' y, value s q' = Some y ->
  exists y', value (write s q w) q' = Some y' /\ length y' = length y /\
    forall k d, k < length y -> nth k y' d = if (p_mem q' =? p_mem q) && (p_off q <=? p_off q' + k) && (p_off q' + k <? p_off q + p_len q)
                                     then nth (p_off q' + k - p_off q) w d else nth k y d.
Proof.
  intros Hx Lw q' y Hy. pose proof (value_length _ _ _ Hy) as Ly. unfold value in Hx. destruct (get (mems s) (p_mem q)) as [v|] eqn:E; [|discriminate].
  destruct (Nat.leb_spec (p_off q + p_len q) (length v)) as [Lv|]; [|discriminate]. clear Hx.
  assert (Lm : p_mem q < length (mems s)) by (eapply get_lt; eauto).
  unfold write. rewrite E. unfold value in *. cbn [mems set_mems]. rewrite get_upd by auto. destruct (Nat.eqb_spec (p_mem q') (p_mem q)) as [Em|Nm].
  - rewrite Em, E in Hy. destruct (Nat.leb_spec (p_off q' + p_len q') (length v)) as [Lv'|]; [|discriminate]. injection Hy as <-.
    rewrite set_segment_length by lia. destruct (Nat.leb_spec (p_off q' + p_len q') (length v)); [|lia]. eexists. split; [reflexivity|].
    rewrite !firstn_length, !skipn_length, set_segment_length by lia. split; auto. intros k d Hk. rewrite !nth_sub by lia. rewrite nth_set_segment by lia.
    rewrite Lw. reflexivity.
  - destruct (get (mems s) (p_mem q')) as [v'|]; [|discriminate]. destruct (p_off q' + p_len q' <=? length v'); [|discriminate]. exists y. auto.
Qed.
Lemma write_self s q w x : value s q = Some x -> length w = p_len q -> value (write s q w) q = Some w.
Proof.
  intros Hx Lw. destruct (write_value s q w x Hx Lw q x Hx) as (y & Hy & Ly & N). rewrite Hy. f_equal. pose proof (value_length _ _ _ Hx).
  apply nth_ext with (d := k0) (d' := k0); [lia|]. intros k Hk. rewrite N by lia. rewrite Nat.eqb_refl. cbn [andb].
  destruct (Nat.leb_spec (p_off q) (p_off q + k)); [|lia]. destruct (Nat.ltb_spec (p_off q + k) (p_off q + p_len q)); [|lia]. cbn [andb]. f_equal. lia.
Qed.
End ObjVal.
