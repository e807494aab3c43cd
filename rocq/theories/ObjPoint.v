(** Counts, locks and memory of points. *)
From Coq Require Import List Arith Bool ZArith String Lia.
From Verif Require Import Base Scalar Vec Model_Manifold Model_Object Spec Layout Comp Heap ObjTree ObjStep.
Import ListNotations.

Section Point.
Context {K : Type} {SK : Scalar K}.
Implicit Types (s : state K) (o : obj K) (r : outcome K).

(** Number of live points attached to [a]. *)
Definition attached s (a : nat) : nat := total (fun q => if p_mfd q =? a then 1 else 0) (pts s).

Record pinv s : Prop := {
  p_count : forall a o, get (objs s) a = Some o -> o_count o = Z.of_nat (attached s a);
  p_lt : forall p q, get (pts s) p = Some q -> p_mfd q < List.length (objs s);
  p_lock : forall p q o, get (pts s) p = Some q -> get (objs s) (p_mfd q) = Some o -> o_lock o = true /\ p_len q = h_rdim (o_hdr o);
  p_own : forall p q, get (pts s) p = Some q -> p_owner q = true -> p_off q = 0 /\ exists v, get (mems s) (p_mem q) = Some v /\ List.length v = p_len q;
  p_dist : forall p q p' q', get (pts s) p = Some q -> get (pts s) p' = Some q' -> p_owner q = true -> p_owner q' = true ->
    p_mem q = p_mem q' -> p = p';
  p_memlt : forall p q, get (pts s) p = Some q -> p_mem q < List.length (mems s);
  p_bound : forall p q v, get (pts s) p = Some q -> get (mems s) (p_mem q) = Some v -> p_off q + p_len q <= List.length v;
  p_pos : forall p q, get (pts s) p = Some q -> p_owner q = true -> 0 < p_len q }.

Lemma pinv_init : pinv init.
Proof. constructor; intros until 1; unfold get in *; cbn in *; destruct p || destruct a; discriminate. Qed.

(** Calls on manifolds. *)
Definition keeps s s' : Prop :=
  pts s' = pts s /\ mems s' = mems s /\ List.length (objs s) <= List.length (objs s') /\
  forall a o', get (objs s') a = Some o' ->
    (exists o, get (objs s) a = Some o /\ o_count o' = o_count o /\ (o_lock o = true -> o_lock o' = true /\ h_rdim (o_hdr o') = h_rdim (o_hdr o))) \/
    (List.length (objs s) <= a /\ o_count o' = 0%Z).
Lemma keeps_refl s : keeps s s.
Proof. split; auto. split; auto. split; auto. intros a o H. left. exists o. auto. Qed.
Lemma keeps_trans s1 s2 s3 : keeps s1 s2 -> keeps s2 s3 -> keeps s1 s3.
Proof.
  intros (P1 & M1 & L1 & O1) (P2 & M2 & L2 & O2). split; [congruence|]. split; [congruence|]. split; [lia|]. intros a o' H.
  destruct (O2 a o' H) as [(o2 & H2 & C2 & K2)|(L & C)]; [|right; split; [lia|auto]].
  destruct (O1 a o2 H2) as [(o1 & H1 & C1 & K1)|(L & C)]; [left|right; split; [auto|congruence]].
  exists o1. split; auto. split; [congruence|]. intros Lk. destruct (K1 Lk) as [A B]. destruct (K2 A) as [A' B']. split; congruence.
Qed.
Lemma keeps_modify s a f : (forall o, get (objs s) a = Some o -> o_count (f o) = o_count o /\
  (o_lock o = true -> o_lock (f o) = true /\ h_rdim (o_hdr (f o)) = h_rdim (o_hdr o))) -> keeps s (modify s a f).
Proof.
  intros F. destruct (modify_rest s a f) as (P & M & C). split; auto. split; auto. split; [rewrite modify_length; auto|].
  intros b o' H. left. rewrite get_modify in H. destruct (Nat.eqb_spec b a) as [->|N].
  - destruct (get (objs s) a) as [o|] eqn:E; [|discriminate]. cbn in H. injection H as <-. exists o. split; auto.
  - exists o'. auto.
Qed.
Lemma keeps_lockm s a : keeps s (lockm s a).
Proof. apply keeps_modify. cbn. auto. Qed.
Lemma keeps_append s a t : keeps s (append_name s a t).
Proof. apply keeps_modify. cbn. auto. Qed.
Lemma keeps_add s o : o_count o = 0%Z -> keeps s (add_obj s o).
Proof.
  intros C. split; auto. split; auto. split; [cbn; rewrite app_length; cbn; lia|]. intros a o' H. rewrite get_add in H.
  destruct (Nat.eqb_spec a (List.length (objs s))) as [->|N]; [right|left; exists o'; auto]. injection H as <-. auto.
Qed.
Lemma keeps_bump s : keeps s (bump s).
Proof. split; auto. split; auto. split; auto. intros a o H. left. exists o. auto. Qed.
Lemma keeps_retain s l : keeps s (retain s l).
Proof.
  destruct (retain_rest l s) as (P & M & C & L). split; auto. split; auto. split; [lia|]. intros a o' H. left.
  destruct (get (objs s) a) as [o|] eqn:E; [|rewrite retain_none in H; auto; discriminate].
  destruct (retain_get l s a) as (w' & G). destruct (G o E) as [G1 _]. rewrite G1 in H. injection H as <-. exists o. cbn. auto.
Qed.
Lemma keeps_copy s o lk w : keeps s (copy_obj s o lk w).
Proof. eapply keeps_trans; [apply keeps_retain|apply keeps_add; reflexivity]. Qed.
Lemma keeps_remove s a : keeps s (remove s a).
Proof.
  split; auto. split; auto. split; [cbn; rewrite upd_length; auto|]. intros b o' H. left. exists o'. split; auto.
  destruct (Nat.lt_ge_cases a (List.length (objs s))) as [L|L].
  - rewrite get_remove in H by auto. destruct (b =? a); [discriminate|auto].
  - cbn in H. destruct (Nat.eq_dec b a) as [->|N]; [apply get_lt in H; rewrite upd_length in H; lia|]. rewrite get_upd_other in H by auto. auto.
Qed.
Lemma keeps_shrinks s s' : shrinks s s' -> keeps s s'.
Proof.
  intros (P & M & C & L & O & _). split; auto. split; auto. split; [lia|]. intros a o' H. left. destruct (O a o' H) as (o & H1 & E & _).
  exists o. split; auto. rewrite E. cbn. auto.
Qed.
Lemma attached_zero s a : pinv s -> List.length (objs s) <= a -> attached s a = 0.
Proof.
  intros I L. unfold attached. rewrite (total_ext _ (pts s) (map (fun _ => None) (pts s))).
  - unfold total. generalize (pts s). intros l. induction l as [|x l IH]; cbn; auto.
  - rewrite map_length. auto.
  - intros i. destruct (get (pts s) i) as [q|] eqn:E.
    + pose proof (p_lt _ I i q E). cbn. destruct (Nat.eqb_spec (p_mfd q) a); [lia|]. destruct (get (map _ _) i) as [z|] eqn:E2; auto.
      exfalso. unfold get in E2. revert E2. generalize (pts s) i. clear. intros l. induction l as [|x l IH]; intros [|i] E; cbn in E; try discriminate. eauto.
    + destruct (get (map _ _) i) as [z|] eqn:E2; auto.
      exfalso. unfold get in E2. revert E2. generalize (pts s) i. clear. intros l. induction l as [|x l IH]; intros [|i] E; cbn in E; try discriminate. eauto.
Qed.
Lemma keeps_inv s s' : keeps s s' -> pinv s -> pinv s'.
Proof.
  intros (P & M & L & O) I. constructor.
  - intros a o' H. unfold attached. rewrite P. fold (attached s a). destruct (O a o' H) as [(o & H1 & C & _)|(L1 & C)].
    + rewrite C. apply (p_count _ I); auto.
    + rewrite (attached_zero s a I L1), C. reflexivity.
  - intros p q H. rewrite P in H. pose proof (p_lt _ I p q H). lia.
  - intros p q o' H H'. rewrite P in H. pose proof (p_lt _ I p q H). destruct (O _ o' H') as [(o & H1 & C & F)|(L1 & C)]; [|lia].
    destruct (p_lock _ I p q o H H1) as [A B]. destruct (F A) as [A' B']. split; auto. congruence.
  - intros p q H. rewrite P in H. rewrite M. apply (p_own _ I p q H).
  - intros p q p' q' H H'. rewrite P in H, H'. apply (p_dist _ I p q p' q' H H').
  - intros p q H. rewrite P in H. rewrite M. apply (p_memlt _ I p q H).
  - intros p q v H. rewrite P in H. rewrite M. apply (p_bound _ I p q v H).
  - intros p q H. rewrite P in H. apply (p_pos _ I p q H).
Qed.

Definition mfd_op (o : op K) : bool := negb (point_op o).
Lemma mfd_keeps s (o : op K) : sinv [] s -> tame o -> (mfd_op o = true \/ exists a, o = LockMfd a) -> post (step s o) (keeps s).
Proof.
  intros I T H. destruct o; cbn in H; try (destruct H as [H|(? & H)]; discriminate); try (exfalso; exact T); cbn [step]; clear H.
  - unfold new_leaf. destruct (run_ctor c) as [[]|]; cbn [post]; auto.
    + eapply keeps_trans; [|apply keeps_bump]. apply keeps_add. reflexivity.
    + destruct (base_ok c); [apply keeps_bump|apply keeps_refl].
  - unfold new_product. cbn [post]. eapply keeps_trans; [|apply keeps_bump]. apply keeps_add. reflexivity.
  - unfold copy_mfd. destruct (get (objs s) a); [apply keeps_copy|exact Logic.I].
  - unfold get_new_copy. destruct (get (objs s) a); [|exact Logic.I]. eapply keeps_trans; [apply keeps_lockm|apply keeps_copy].
  - destruct (get (objs s) a); [apply keeps_lockm|exact Logic.I].
  - unfold set_name. destruct (get (objs s) a) as [o|]; [|exact Logic.I]. destruct (mutable_ o); [|exact Logic.I]. apply keeps_modify. cbn. auto.
  - unfold set_mag. destruct (get (objs s) a) as [o|] eqn:E; [|exact Logic.I]. destruct (mutable_ o); [|exact Logic.I]. destruct (o_kind o); [|exact Logic.I].
    destruct (o_lock o); [apply keeps_refl|]. destruct (mag_ok l v); [|apply keeps_refl]. apply keeps_modify. cbn. auto.
  - destruct (get (objs s) p) as [op|] eqn:Hp; [|unfold multiply_obj; rewrite Hp; exact Logic.I].
    destruct (get (objs s) m) as [om|] eqn:Hm; [|unfold multiply_obj; rewrite Hp, Hm; exact Logic.I].
    destruct (o_kind op) as [|sT sR l] eqn:Hk; [unfold multiply_obj; rewrite Hp, Hm, Hk; exact Logic.I|].
    destruct (mutable_ op) eqn:M; [|unfold multiply_obj; rewrite Hp, Hm, Hk, M; exact Logic.I].
    destruct (o_lock op) eqn:L; [unfold multiply_obj; rewrite Hp, Hm, Hk, M, L; apply keeps_refl|].
    rewrite (multiply_obj_mid s p m op om sT sR l Hp Hm Hk M L). cbn zeta. set (s3 := mult_mid s p m).
    assert (K3 : keeps s s3).
    { unfold s3, mult_mid. rewrite Hp. destruct (h_dim (o_hdr op) =? 0); repeat (eapply keeps_trans; [|apply keeps_append]); apply keeps_lockm. }
    destruct (locked s3 p) eqn:Lk; [exact K3|].
    destruct (back sT) as [bT|]; [|exact Logic.I]. destruct (back sR) as [bR|]; [|exact Logic.I]. cbn [post].
    eapply keeps_trans; [exact K3|]. eapply keeps_trans; [apply keeps_copy|]. apply keeps_modify. intros o Ho. split; [reflexivity|]. intros Lo. exfalso.
    assert (X : locked (copy_obj s3 om true (Shared 1)) p = true) by (unfold locked; rewrite Ho; auto).
    destruct (mid_get s p m op om Hp Hm) as (n & Gp & _). fold s3 in Gp. unfold locked in Lk, X. rewrite Gp in Lk.
    unfold copy_obj in X. rewrite get_add in X. destruct (retain_rest (subs_of om) s3) as (_ & _ & _ & Len). rewrite Len in X.
    destruct (Nat.eqb_spec p (List.length (objs s3))) as [E|_]; [apply get_lt in Gp; lia|].
    destruct (retain_get (subs_of om) s3 p) as (w' & E). destruct (E _ Gp) as [E1 E2]. rewrite E1 in X. cbn in X, Lk. congruence.
  - unfold destroy_mfd. destruct (get (objs s) a) as [o|] eqn:E; [|exact Logic.I]. destruct (mutable_ o) eqn:M; [|exact Logic.I].
    destruct (mutable_slots [] s a o I E M) as [Z N]. pose proof (remove_inv [] s a o I E Z N) as I1. rewrite app_nil_r in I1.
    destruct (drop_inv _ _ I1) as [->|(s' & -> & I2 & Sh)]; [exact Logic.I|].
    assert (G : keeps s s') by (apply (keeps_trans _ (remove s a)); [apply keeps_remove|apply keeps_shrinks; auto]).
    destruct (o_count o =? 0)%Z; [exact G|]. destruct (o_owner o); cbn; auto.
Qed.

(** ** Calls on points *)
Lemma attached_add s s' q a : pts s' = pts s ++ [Some q] -> attached s' a = attached s a + (if p_mfd q =? a then 1 else 0).
Proof. intros E. unfold attached. rewrite E, total_app. reflexivity. Qed.
(** A new point object, on old memory or new. *)
Lemma add_pt_inv s q o v l : pinv s -> get (objs s) (p_mfd q) = Some o -> o_lock o = true -> p_len q = h_rdim (o_hdr o) ->
  mems s ++ l = mems s ++ (if p_owner q then [Some v] else []) ->
  (if p_owner q then p_off q = 0 /\ p_mem q = List.length (mems s) /\ List.length v = p_len q /\ 0 < p_len q
   else p_mem q < List.length (mems s) /\ forall x, get (mems s) (p_mem q) = Some x -> p_off q + p_len q <= List.length x) ->
  pinv (register (set_pts (set_mems s (mems s ++ l)) (pts s ++ [Some q])) (p_mfd q)).
Proof.
  intros I Ho Lk Hl El Hq. apply app_inv_head in El. subst l. set (l := if p_owner q then [Some v] else []).
  set (s' := register _ _).
  assert (G : forall a, get (objs s') a = if a =? p_mfd q then Some (with_count (fun c => c + 1)%Z o) else get (objs s) a).
  { intros a. unfold s', register. rewrite get_modify. cbn. rewrite Ho. reflexivity. }
  assert (P : pts s' = pts s ++ [Some q]) by apply modify_rest. assert (Me : mems s' = mems s ++ l) by apply modify_rest.
  assert (Len : List.length (objs s') = List.length (objs s)) by (unfold s', register; rewrite modify_length; reflexivity).
  assert (Lm : List.length (mems s') = List.length (mems s) + (if p_owner q then 1 else 0)).
  { rewrite Me, app_length. unfold l. destruct (p_owner q); reflexivity. }
  assert (Gm : forall i, i < List.length (mems s) -> get (mems s') i = get (mems s) i).
  { intros i Hi. rewrite Me. unfold get. apply app_nth1. auto. }
  assert (Gn : p_owner q = true -> get (mems s') (List.length (mems s)) = Some v).
  { intros Hq'. rewrite Me. unfold l. rewrite Hq'. apply get_app_new. }
  constructor.
  - intros a oa H. rewrite (attached_add s s' q a P). rewrite G in H. destruct (Nat.eqb_spec a (p_mfd q)) as [->|N].
    + injection H as <-. cbn. rewrite (p_count _ I _ _ Ho), Nat.eqb_refl. lia.
    + rewrite (p_count _ I a oa H). destruct (Nat.eqb_spec (p_mfd q) a); [congruence|]. f_equal. lia.
  - intros p x H. rewrite Len. rewrite P, get_app in H. destruct (p =? List.length (pts s)); [injection H as <-; eapply get_lt; eauto|apply (p_lt _ I p x H)].
  - intros p x ox H H'. rewrite P, get_app in H. rewrite G in H'. destruct (p =? List.length (pts s)).
    + injection H as <-. rewrite Nat.eqb_refl in H'. injection H' as <-. auto.
    + destruct (Nat.eqb_spec (p_mfd x) (p_mfd q)) as [E|N]; [|apply (p_lock _ I p x ox H H')]. injection H' as <-. cbn.
      apply (p_lock _ I p x o H). congruence.
  - intros p x H Hx. rewrite P, get_app in H. destruct (p =? List.length (pts s)).
    + injection H as <-. rewrite Hx in Hq. destruct Hq as (A & B & C & D). split; auto. exists v. rewrite B. auto.
    + destruct (p_own _ I p x H Hx) as (A & v' & B & C). split; auto. exists v'. rewrite Gm; auto. eapply get_lt; eauto.
  - intros p x p' x' H H' Hx Hx' E. rewrite P, get_app in H, H'.
    destruct (Nat.eqb_spec p (List.length (pts s))) as [->|Np], (Nat.eqb_spec p' (List.length (pts s))) as [->|Np']; auto.
    + injection H as <-. rewrite Hx in Hq. destruct Hq as (A & B & C & D). pose proof (p_memlt _ I p' x' H'). lia.
    + injection H' as <-. rewrite Hx' in Hq. destruct Hq as (A & B & C & D). pose proof (p_memlt _ I p x H). lia.
    + apply (p_dist _ I p x p' x' H H'); auto.
  - intros p x H. rewrite P, get_app in H. rewrite Lm. destruct (p =? List.length (pts s)).
    + injection H as <-. destruct (p_owner q); lia.
    + pose proof (p_memlt _ I p x H). lia.
  - intros p x y H Hy. rewrite P, get_app in H. destruct (p =? List.length (pts s)).
    + injection H as <-. destruct (p_owner q) eqn:Eo.
      * destruct Hq as (A & B & C & D). rewrite B, Gn in Hy by auto. injection Hy as <-. lia.
      * destruct Hq as (A & B). rewrite Gm in Hy by auto. auto.
    + pose proof (p_memlt _ I p x H). rewrite Gm in Hy by auto. apply (p_bound _ I p x y H Hy).
  - intros p x H Hx. rewrite P, get_app in H. destruct (p =? List.length (pts s)); [|apply (p_pos _ I p x H Hx)].
    injection H as <-. rewrite Hx in Hq. tauto.
Qed.

(** What a call leaves, under all invariants. *)
Lemma make_point_inv s a v o : pinv s -> get (objs s) a = Some o -> o_lock o = true -> (forall m, tree s a = Some m -> hdr_of m = o_hdr o) ->
  post (make_point s a v) pinv.
Proof.
  intros I Ho Lk Hh. apply post_tree. intros m Em. destruct (Nat.ltb_spec 0 (List.length v)) as [Lv|]; [|exact I].
  destruct (Nat.eqb_spec (List.length v) (representationDim m)) as [Ev|]; [|exact I]. cbn [post].
  pose proof (add_pt_inv s (Pt a (List.length (mems s)) 0 (List.length v) true) o v [Some v] I Ho Lk) as X. cbn in X. apply X; auto.
  unfold representationDim in Ev. rewrite (Hh m Em) in Ev. auto.
Qed.
Lemma tree_hdr w s a o m : sinv w s -> get (objs s) a = Some o -> tree s a = Some m -> hdr_of m = o_hdr o.
Proof.
  intros I H E. rewrite (tree_unfold w s a o I H) in E. unfold assemble in E. destruct (o_kind o); [injection E as <-; auto|].
  destruct (mapM (tree s) (subs_of o)); [injection E as <-; auto|discriminate].
Qed.
Lemma make_point_lock_inv s a v : sinv [] s -> pinv s -> post (make_point (lockm s a) a v) pinv.
Proof.
  intros I P. assert (I1 : sinv [] (lockm s a)) by (apply (light_inv _ s); auto; apply light_lockm).
  assert (P1 : pinv (lockm s a)) by (apply (keeps_inv s); auto; apply keeps_lockm).
  destruct (get (objs (lockm s a)) a) as [o|] eqn:E.
  - apply (make_point_inv _ a v o); auto.
    + unfold lockm in E. rewrite get_modify, Nat.eqb_refl in E. destruct (get (objs s) a); [|discriminate]. injection E as <-. reflexivity.
    + intros m. apply (tree_hdr [] _ a o m I1 E).
  - apply post_tree. intros m Em. destruct (proj2 (tree_live [] _ a I1)) as (o & X); [eauto|congruence].
Qed.
Lemma create_point_inv s a v : sinv [] s -> pinv s -> post (create_point s a v) pinv.
Proof. intros I P. apply post_tree. intros m _. destruct (List.length v =? representationDim m); [apply make_point_lock_inv; auto|exact Logic.I]. Qed.
Lemma create_point_val_inv s a v : sinv [] s -> pinv s -> post (create_point_val s a v) pinv.
Proof. intros I P. apply post_tree. intros m _. apply post_lift; [auto|]. intros [] _; [apply make_point_lock_inv; auto|exact P]. Qed.
Lemma get_zero_inv s a v : sinv [] s -> pinv s -> post (get_zero s a v) pinv.
Proof.
  intros I P. apply post_tree. intros m _. destruct (List.length v =? representationDim m); [|exact Logic.I]. cbn zeta.
  apply post_lift; [apply (keeps_inv s); auto; apply keeps_lockm|]. intros x _. apply make_point_lock_inv; auto.
Qed.
Lemma copy_point_inv s p : sinv [] s -> pinv s -> post (copy_point s p) pinv.
Proof.
  intros I P. unfold copy_point. destruct (get (pts s) p) as [q|] eqn:E; [|exact Logic.I]. destruct (value s q) as [v|]; [|exact Logic.I].
  destruct (get (objs s) (p_mfd q)) as [o|] eqn:Eo.
  - apply (make_point_inv s _ v o); auto; [apply (p_lock _ P p q o E Eo)|]. intros m. apply (tree_hdr [] s _ o m I Eo).
  - apply post_tree. intros m Em. destruct (proj2 (tree_live [] _ (p_mfd q) I)) as (o & X); [eauto|congruence].
Qed.
Lemma add_view_inv s q : pinv s -> p_owner q = false -> (forall o, get (objs s) (p_mfd q) = Some o -> o_lock o = true /\ p_len q = h_rdim (o_hdr o)) ->
  p_mem q < List.length (mems s) -> (forall x, get (mems s) (p_mem q) = Some x -> p_off q + p_len q <= List.length x) -> post (add_view s q) pinv.
Proof.
  intros I No Hl Hm Hb. unfold add_view. destruct (get (objs s) (p_mfd q)) as [o|] eqn:E; [|exact Logic.I]. cbn [post].
  destruct (Hl o eq_refl) as [L1 L2].
  replace (set_pts s (pts s ++ [Some q])) with (set_pts (set_mems s (mems s ++ [])) (pts s ++ [Some q])) by (rewrite app_nil_r; destruct s; reflexivity).
  eapply (add_pt_inv s q o []); eauto; rewrite No; auto.
Qed.
Lemma copy_view_inv s p : sinv [] s -> pinv s -> post (copy_view s p) pinv.
Proof.
  intros I P. unfold copy_view. destruct (get (pts s) p) as [q|] eqn:E; [|exact Logic.I]. apply add_view_inv; auto; cbn.
  - intros o. apply (p_lock _ P p q o E). - apply (p_memlt _ P p q E). - intros x. apply (p_bound _ P p q x E).
Qed.
Lemma view_range_ok D (m : mfd K) len i st ln : view_range D m len i = Ok (st, ln) ->
  len = getDim D m /\ exists mi, subManifold m i = Ok mi /\ ln = getDim D mi /\ getStart D m i = Ok st.
Proof.
  unfold view_range, getDimSub. destruct (i <? numberOfSubManifolds m) eqn:E1; [|discriminate]. destruct (Nat.eqb_spec len (getDim D m)); [|discriminate].
  cbn [mnf_assert bind]. destruct (getStart D m i); [|discriminate]. cbn [bind]. destruct (subManifold m i) as [mi|]; [|discriminate]. cbn [bind]. intros H.
  injection H as <- <-. eauto 6.
Qed.
Lemma subManifold_prod h sT sR ms i (mi : mfd K) : subManifold (Prod h sT sR ms) i = Ok mi -> nth_error ms i = Some mi.
Proof.
  unfold subManifold. destruct (i <? List.length ms); [|discriminate]. cbn [mnf_assert bind]. unfold at_. destruct (nth_error ms i); congruence.
Qed.
Lemma sub_point_inv s p i : sinv [] s -> binv s -> pinv s -> post (sub_point s p i) pinv.
Proof.
  intros I B P. unfold sub_point. destruct (get (pts s) p) as [q|] eqn:E; [|exact Logic.I]. apply post_tree. intros m Em.
  destruct (get (objs s) (p_mfd q)) as [o|] eqn:Eo; [|exact Logic.I]. apply post_lift; [auto|]. intros [st ln] Hr. cbn [fst snd].
  destruct (Nat.leb_spec (st + ln) (p_len q)) as [Le|]; [|exact P]. destruct (p_lock _ P p q o E Eo) as [Lk Ln].
  apply add_view_inv; auto; cbn.
  - intros o' Ho'. destruct (B _ o Eo) as (m' & Em' & Bm). assert (m' = m) by congruence. subst m'.
    unfold sub_addr in Ho'. pose proof Em as Em2. rewrite (tree_unfold [] s _ o I Eo) in Em2. unfold assemble in Em2. unfold subs_of in Em2.
    destruct (o_kind o) as [l typ tru|sT sR l] eqn:Ek.
    + assert (o' = o) by congruence. subst o'. split; auto. injection Em2 as <-. destruct (view_range_ok _ _ _ _ _ _ Hr) as (El & mi & Es & -> & _).
      cbn [subManifold] in Es. destruct (i <? 1); [|discriminate]. cbn in Es. injection Es as <-. reflexivity.
    + cbn [kind_subs] in Em2. destruct (mapM (tree s) l) as [ms|] eqn:Ems; [|discriminate]. injection Em2 as <-.
      destruct (view_range_ok _ _ _ _ _ _ Hr) as (El & mi & Es & -> & _). apply subManifold_prod in Es as Ei.
      pose proof (mapM_inv _ _ _ Ems) as F.
      assert (Ti : tree s (nth i l 0) = Some mi).
      { clear -F Ei. revert i Ei. induction F as [|c x l ms H F IH]; intros [|i] Ei; cbn in Ei; try discriminate; cbn; [injection Ei as <-; exact H|exact (IH i Ei)]. }
      assert (In (nth i l 0) (subs_of o)) as Hin.
      { unfold subs_of. rewrite Ek. cbn. apply nth_In. assert (nth_error ms i <> None) as X by congruence. apply nth_error_Some in X.
        assert (List.length l = List.length ms) by (clear -F; induction F; cbn; congruence). lia. }
      pose proof (i_closed _ _ I _ o Eo _ Hin) as (oc & k & Hc & Hk). assert (oc = o') by congruence. subst oc.
      split; [apply (i_lock _ _ I _ o' k Hc Hk)|]. unfold getDim, representationDim. rewrite (tree_hdr [] s _ o' mi I Hc Ti). reflexivity.
  - apply (p_memlt _ P p q E).
  - intros x Hx. pose proof (p_bound _ P p q x E Hx). lia.
Qed.
Lemma destroy_point_inv s p : pinv s -> post (destroy_point s p) pinv.
Proof.
  intros P. unfold destroy_point. destruct (get (pts s) p) as [q|] eqn:E; [|exact Logic.I]. destruct (get (objs s) (p_mfd q)) as [o|] eqn:Eo; [|exact Logic.I].
  destruct (0 <? o_count o)%Z; [|exact Logic.I]. cbn [post]. set (s1 := modify s (p_mfd q) _).
  set (s2 := if p_owner q then _ else s1). set (s' := set_pts s2 _).
  assert (Ob : objs s' = objs s1) by (unfold s', s2; destruct (p_owner q); reflexivity).
  assert (Pe : pts s' = upd (pts s) p None) by (unfold s', s2; destruct (p_owner q); reflexivity || (cbn; f_equal; apply modify_rest)).
  assert (Me : mems s' = if p_owner q then upd (mems s) (p_mem q) None else mems s).
  { unfold s', s2. destruct (modify_rest s (p_mfd q) (with_count (fun c => c - 1)%Z)) as (_ & X & _). fold s1 in X. destruct (p_owner q); cbn; rewrite X; reflexivity. }
  assert (G : forall a, get (objs s') a = if a =? p_mfd q then Some (with_count (fun c => c - 1)%Z o) else get (objs s) a).
  { intros a. rewrite Ob. unfold s1. rewrite get_modify, Eo. reflexivity. }
  assert (Gp : forall x y, get (pts s') x = Some y -> x <> p /\ get (pts s) x = Some y).
  { intros x y H. rewrite Pe, get_upd in H by (eapply get_lt; eauto). destruct (Nat.eqb_spec x p); [discriminate|auto]. }
  assert (Gm : forall i v, get (mems s') i = Some v -> get (mems s) i = Some v).
  { intros i v H. rewrite Me in H. destruct (p_owner q); auto. destruct (Nat.eq_dec i (p_mem q)) as [->|N].
    - rewrite get_upd in H by (apply (p_memlt _ P p q E)). rewrite Nat.eqb_refl in H. discriminate.
    - rewrite get_upd_other in H by auto. auto. }
  assert (Lm : List.length (mems s') = List.length (mems s)) by (rewrite Me; destruct (p_owner q); auto; apply upd_length).
  constructor.
  - intros a oa H. assert (A : attached s' a + (if p_mfd q =? a then 1 else 0) = attached s a).
    { unfold attached. rewrite Pe. pose proof (total_upd (fun q => if p_mfd q =? a then 1 else 0) (pts s) p None) as X. rewrite E in X. cbn in X.
      rewrite Nat.add_0_r in X. apply X. eapply get_lt; eauto. }
    rewrite G in H. destruct (Nat.eqb_spec a (p_mfd q)) as [->|N].
    + injection H as <-. cbn [o_count with_count]. rewrite (p_count _ P _ _ Eo). rewrite Nat.eqb_refl in A. lia.
    + rewrite (p_count _ P a oa H). destruct (Nat.eqb_spec (p_mfd q) a); [congruence|]. f_equal. lia.
  - intros x y H. apply Gp in H as [_ H]. rewrite Ob. unfold s1. rewrite modify_length. apply (p_lt _ P x y H).
  - intros x y ox H H'. apply Gp in H as [_ H]. rewrite G in H'. destruct (Nat.eqb_spec (p_mfd y) (p_mfd q)) as [E1|N].
    + injection H' as <-. cbn. apply (p_lock _ P x y o H). congruence.
    + apply (p_lock _ P x y ox H H').
  - intros x y H Hy. apply Gp in H as [N H]. destruct (p_own _ P x y H Hy) as (A & v & B & C). split; auto. exists v. split; auto.
    rewrite Me. destruct (p_owner q) eqn:Eq; auto. rewrite get_upd_other; auto. intros X. apply N. apply (p_dist _ P x y p q); auto.
  - intros x y x' y' H H'. apply Gp in H as [_ H]. apply Gp in H' as [_ H']. apply (p_dist _ P x y x' y' H H').
  - intros x y H. apply Gp in H as [_ H]. rewrite Lm. apply (p_memlt _ P x y H).
  - intros x y v H Hv. apply Gp in H as [_ H]. apply Gm in Hv. apply (p_bound _ P x y v H Hv).
  - intros x y H. apply Gp in H as [_ H]. apply (p_pos _ P x y H).
Qed.
Lemma set_segment_len (v w : vec K) i : i + List.length w <= List.length v -> List.length (set_segment v i w) = List.length v.
Proof. intros H. apply Comp.set_segment_length. auto. Qed.
Lemma write_inv s q w x : pinv s -> value s q = Some x -> List.length w = p_len q -> pinv (write s q w).
Proof.
  intros P Hv Hw. unfold value in Hv. unfold write. destruct (get (mems s) (p_mem q)) as [v|] eqn:E; [|discriminate].
  destruct (Nat.leb_spec (p_off q + p_len q) (List.length v)) as [Le|]; [|discriminate]. clear Hv.
  set (s' := set_mems _ _).
  assert (L : List.length (set_segment v (p_off q) w) = List.length v) by (apply set_segment_len; lia).
  assert (Gm : forall i y, get (mems s') i = Some y -> exists z, get (mems s) i = Some z /\ List.length y = List.length z).
  { intros i y H. unfold s' in H. cbn in H. rewrite get_upd in H by (eapply get_lt; eauto). destruct (Nat.eqb_spec i (p_mem q)) as [->|N]; [|eauto].
    injection H as <-. eauto. }
  assert (Gm' : forall i z, get (mems s) i = Some z -> exists y, get (mems s') i = Some y /\ List.length y = List.length z).
  { intros i z H. unfold s'. cbn. rewrite get_upd by (eapply get_lt; eauto). destruct (Nat.eqb_spec i (p_mem q)) as [->|N]; [|eauto].
    eexists. split; [reflexivity|]. congruence. }
  destruct P as [P1 P2 P3 P4 P5 P6 P7 P8]. constructor; auto.
  - intros x0 y H Hy. destruct (P4 x0 y H Hy) as (A & z & B & C). split; auto. destruct (Gm' _ _ B) as (y' & D & F). exists y'. split; auto. congruence.
  - intros x0 y H. unfold s'. cbn. rewrite upd_length. apply (P6 x0 y H).
  - intros x0 y z H Hz. destruct (Gm _ _ Hz) as (z' & A & B). rewrite B. apply (P7 x0 y z' H A).
Qed.
Lemma value_length s q x : value s q = Some x -> List.length x = p_len q.
Proof.
  unfold value. destruct (get (mems s) (p_mem q)) as [v|]; [|discriminate]. destruct (Nat.leb_spec (p_off q + p_len q) (List.length v)); [|discriminate].
  intros H1. injection H1 as <-. rewrite firstn_length, skipn_length. lia.
Qed.

Lemma write_coef_inv s p k x : pinv s -> post (write_coef s p k x) pinv.
Proof.
  intros P. unfold write_coef. destruct (get (pts s) p) as [q|]; [|exact Logic.I]. destruct (value s q) as [v|] eqn:V; [|exact Logic.I].
  destruct (Nat.ltb_spec k (p_len q)); [|exact P]. pose proof (value_length _ _ _ V). apply (write_inv s q _ v); auto. rewrite set_segment_len; auto. cbn. lia.
Qed.
Lemma increment_inv s p v : sinv [] s -> binv s -> pinv s -> post (increment s p v) pinv.
Proof.
  intros I B P. unfold increment. destruct (get (pts s) p) as [q|] eqn:E; [|exact Logic.I]. destruct (p_owner q); [|exact Logic.I].
  destruct (value s q) as [x|] eqn:V; [|exact Logic.I]. apply post_tree. intros m Em. apply post_lift; [auto|]. intros y Hy. cbn [post].
  apply (write_inv s q y x); auto. pose proof (value_length _ _ _ V) as Lx.
  rewrite (Comp.retractation_length m x x v y); auto.
Qed.
Lemma assign_point_inv s p p' : pinv s -> post (assign_point s p p') pinv.
Proof.
  intros P. unfold assign_point. destruct (get (pts s) p) as [q|] eqn:E; [|exact Logic.I]. destruct (get (pts s) p') as [q'|] eqn:E'; [|exact Logic.I].
  destruct (p_owner q && p_owner q'); [|exact Logic.I]. apply post_tree. intros m _. apply post_tree. intros m' _.
  destruct (dim m =? dim m'); [|exact P]. destruct (representationDim m =? representationDim m'); [|exact P].
  destruct (value s q) as [x|] eqn:V; [|exact Logic.I]. destruct (value s q') as [y|] eqn:V'; [|exact Logic.I]. apply post_lift; [auto|]. intros z Hz. cbn [post].
  apply (write_inv s q z x); auto. pose proof (value_length _ _ _ V). unfold assign, eigen_assert in Hz. destruct (List.length x =? List.length y) eqn:Q; [|discriminate].
  apply Nat.eqb_eq in Q. cbn in Hz. injection Hz as <-. lia.
Qed.

Definition all_inv s : Prop := sinv [] s /\ binv s /\ pinv s.
Lemma light_all r s : sinv [] s -> binv s -> post r (light s) -> post r pinv -> post r all_inv.
Proof.
  intros I B L P. assert (X : forall s', light s s' -> pinv s' -> all_inv s').
  { intros s' L' P'. split; [eapply light_inv; eauto|]. split; auto. intros a oa Ha. rewrite (light_tree [] s s' a L' I).
    destruct L' as (_ & _ & C). specialize (C a). rewrite Ha in C. destruct (get (objs s) a) as [o0|] eqn:E0; [eauto|tauto]. }
  destruct r; cbn in *; auto.
Qed.
Lemma finally_inv r t : post r all_inv -> post (finally r t) pinv.
Proof.
  intros H. destruct r; cbn in *; auto.
  - apply destroy_point_inv, H.
  - pose proof (destroy_point_inv s t (proj2 (proj2 H))) as D. destruct (destroy_point s t); cbn in *; auto.
Qed.
Lemma plus_inv s p v : sinv [] s -> binv s -> pinv s -> post (plus s p v) pinv.
Proof.
  intros I B P. unfold plus. destruct (get (pts s) p) as [q|]; [|exact Logic.I]. destruct (p_owner q); [|exact Logic.I]. destruct (value s q) as [x|]; [|exact Logic.I].
  cbn zeta. eapply (post_bind _ _ all_inv).
  - apply (light_all _ s); auto; [apply create_point_val_light|apply create_point_val_inv; auto].
  - intros s1 (I1 & B1 & P1). apply finally_inv. eapply (post_bind _ _ all_inv).
    + apply (light_all _ s1); auto; [apply increment_light|apply increment_inv; auto].
    + intros s2 (I2 & B2 & P2). apply (light_all _ s2); auto; [apply copy_point_light|apply copy_point_inv; auto].
    + auto.
  - intros s1 H. apply H.
Qed.
Lemma retract_inv s p v : sinv [] s -> pinv s -> post (retract_point s p v) pinv.
Proof.
  intros I P. unfold retract_point. destruct (get (pts s) p) as [q|]; [|exact Logic.I]. destruct (p_owner q); [|exact Logic.I]. destruct (value s q) as [x|]; [|exact Logic.I].
  apply post_tree. intros m _. apply post_lift; [auto|]. intros y _. apply create_point_val_inv; auto.
Qed.

Theorem step_all s (o : op K) : all_inv s -> tame o -> post (step s o) all_inv.
Proof.
  intros (I & B & P) T. assert (X : post (step s o) pinv).
  { destruct (mfd_op o) eqn:E.
    - pose proof (mfd_keeps s o I T (or_introl E)) as Y. eapply post_weak; [|exact Y]. intros s' Kp. eapply keeps_inv; eauto.
    - destruct o; cbn in E; try discriminate; cbn [step].
      + destruct (get (objs s) a); [|exact Logic.I]. cbn [post]. apply (keeps_inv s); auto. apply keeps_lockm.
      + apply create_point_inv; auto.
      + apply create_point_val_inv; auto.
      + apply get_zero_inv; auto.
      + apply copy_point_inv; auto.
      + apply copy_view_inv; auto.
      + apply sub_point_inv; auto.
      + apply destroy_point_inv; auto.
      + apply write_coef_inv; auto.
      + apply increment_inv; auto.
      + apply assign_point_inv; auto.
      + apply plus_inv; auto.
      + apply retract_inv; auto. }
  pose proof (step_inv s o I T) as Y. pose proof (step_built s o I B T) as Z.
  destruct (step s o); cbn in *; auto; (split; [apply Y|split; [exact Z|exact X]]).
Qed.

(** States a program can reach from the start. *)
Definition reachable s : Prop := exists h, Forall tame h /\ run init h = Done s.
Lemma run_all h : forall s, all_inv s -> Forall tame h -> post (run s h) all_inv.
Proof.
  induction h as [|o h IH]; intros s I F; [exact I|]. inversion F; subst. cbn [run]. pose proof (step_all s o I H1) as X.
  destruct (step s o); cbn in *; auto.
Qed.
Lemma reachable_inv s : reachable s -> all_inv s.
Proof.
  intros (h & F & R). pose proof (run_all h init) as X. rewrite R in X. apply X; auto. split; [apply sinv_init|]. split; [|apply pinv_init].
  intros a o H. unfold get in H. cbn in H. destruct a; discriminate.
Qed.
Lemma run_app h h' : forall s : state K, run s (h ++ h') = match run s h with Done s' => run s' h' | r => r end.
Proof. induction h as [|o h IH]; intros s; cbn [app run]; auto. destruct (step s o); auto. Qed.
Lemma run_thrown h : forall (s : state K) e s', run s h <> Thrown e s'.
Proof. induction h as [|o h IH]; intros s e s'; cbn [run]; [discriminate|]. destruct (step s o); auto; discriminate. Qed.
Lemma reachable_step s (o : op K) s' : reachable s -> tame o -> step s o = Done s' \/ (exists e, step s o = Thrown e s') -> reachable s'.
Proof.
  intros (h & F & R) T H. exists (h ++ [o]). split; [apply Forall_app; auto|]. rewrite run_app, R. cbn [run].
  destruct H as [->|(e & ->)]; reflexivity.
Qed.

End Point.
