(** Facts about reachable heaps. *)
From Coq Require Import List Arith Bool ZArith String Lia.
From Verif Require Import Base Scalar Vec Model_Manifold Model_Object Spec SpecObj Layout Comp Heap ObjTree ObjStep ObjPoint.
Import ListNotations.

Section Facts.
Context {K : Type} {SK : Scalar K}.
Implicit Types (s : state K) (o : obj K) (r : outcome K).

Section DenInd.
Variable s : state K.
Variable P : nat -> mfd K -> Prop.
Hypothesis Hl : forall a o l typ tru, get (objs s) a = Some o -> o_kind o = KLeaf l typ tru -> P a (Leaf (o_hdr o) l typ tru).
Hypothesis Hp : forall a o sT sR cs ms, get (objs s) a = Some o -> o_kind o = KProd sT sR cs -> Forall2 (denotes s) cs ms -> Forall2 P cs ms ->
  P a (Prod (o_hdr o) sT sR ms).
Fixpoint denotes_ind' a m (H : denotes s a m) : P a m :=
  match H with
  | den_leaf _ a o l typ tru H1 H2 => Hl a o l typ tru H1 H2
  | den_prod _ a o sT sR cs ms H1 H2 F => Hp a o sT sR cs ms H1 H2 F
      ((fix go cs ms (F : Forall2 (denotes s) cs ms) : Forall2 P cs ms :=
          match F with Forall2_nil _ => Forall2_nil _ | Forall2_cons x y h t => Forall2_cons x y (denotes_ind' x y h) (go _ _ t) end) cs ms F)
  end.
End DenInd.

Lemma Forall2_mapM (f : nat -> option (mfd K)) l ms : Forall2 (fun c m => f c = Some m) l ms -> mapM f l = Some ms.
Proof. induction 1 as [|c m l ms H F IH]; cbn; auto. rewrite H, IH. reflexivity. Qed.

Lemma denotes_tree w s a m : sinv w s -> denotes s a m <-> tree s a = Some m.
Proof.
  intros I. split.
  - intros H. revert a m H. apply (denotes_ind' s (fun a m => tree s a = Some m)).
    + intros a o l typ tru H H0. rewrite (tree_unfold w s a o I H). unfold assemble. rewrite H0. reflexivity.
    + intros a o sT sR cs ms H H0 H1 H2. rewrite (tree_unfold w s a o I H). unfold assemble, subs_of. rewrite H0. cbn [kind_subs]. rewrite (Forall2_mapM _ _ _ H2). reflexivity.
  - revert m. assert (X : forall n a m, tree_of n s a = Some m -> denotes s a m).
    { induction n as [|n IH]; intros b m H; [discriminate|]. rewrite tree_of_S in H. destruct (get (objs s) b) as [o|] eqn:E; [|discriminate].
      unfold assemble, subs_of in H. destruct (o_kind o) as [l typ tru|sT sR l] eqn:Ek.
      - injection H as <-. eapply den_leaf; eauto.
      - cbn [kind_subs] in H. destruct (mapM (tree_of n s) l) as [ms|] eqn:Em; [|discriminate]. injection H as <-. eapply den_prod; eauto.
        apply mapM_inv in Em. clear -Em IH. induction Em; constructor; auto. }
    intros m. apply X.
Qed.
Lemma denotes_fun w s a m m' : sinv w s -> denotes s a m -> denotes s a m' -> m = m'.
Proof. intros I H H'. apply (denotes_tree w s a m I) in H. apply (denotes_tree w s a m' I) in H'. congruence. Qed.
Lemma live_denotes w s a : sinv w s -> live s a -> exists m, denotes s a m.
Proof. intros I H. destruct (proj1 (tree_live w s a I) H) as (m & E). exists m. apply (denotes_tree w); auto. Qed.
Lemma denotes_live s a m : denotes s a m -> live s a.
Proof. intros H. destruct H; eexists; eauto. Qed.

Lemma modifies_touched (o : op K) a : modifies o a <-> touched o a.
Proof. destruct o; cbn; unfold nobody; tauto. Qed.
Lemma declared_tame (o : op K) : declared o <-> tame o.
Proof. destruct o; cbn; tauto. Qed.
Lemma own_mutable s a : own s a <-> exists o, get (objs s) a = Some o /\ mutable_ o = true.
Proof.
  split; intros (o & H & E); exists o; split; auto.
  - unfold mutable_. destruct (o_owner o) eqn:Eo; auto. destruct (E n eq_refl).
  - intros n X. unfold mutable_ in E. rewrite X in E. discriminate.
Qed.
Lemma own_not_shared s a : own s a -> ~ is_shared s a.
Proof. intros (o & H & E) (o' & n & H' & E'). assert (o' = o) by congruence. subst. exact (E n E'). Qed.
Lemma live_own_or_shared s a : live s a -> own s a \/ is_shared s a.
Proof.
  intros (o & H). destruct (o_owner o) eqn:E; [left|left|right].
  1-2: exists o; split; auto; congruence. exists o, n. auto.
Qed.

(** ** Every call, including the implicit members *)
Lemma assign_post s a b : sinv [] s -> post (assign_mfd s a b) (fun s' => sinv [] s' /\ evolvesW (eq a) s s').
Proof.
  intros I. unfold assign_mfd. destruct (get (objs s) a) as [oa|] eqn:Ea; [|exact Logic.I]. destruct (get (objs s) b) as [ob|] eqn:Eb; [|exact Logic.I].
  destruct (mutable_ oa) eqn:M; cbn [andb]; [|exact Logic.I]. destruct (same_class (o_kind oa) (o_kind ob)); [|exact Logic.I]. cbn zeta.
  assert (I1 : sinv (subs_of ob) (retain s (subs_of ob))).
  { pose proof (retain_inv (subs_of ob) [] s I (i_closed _ _ I b ob Eb)) as X. rewrite app_nil_r in X. auto. }
  destruct (retain_get (subs_of ob) s a) as (w' & G). destruct (G oa Ea) as [G1 G2]. rewrite (G2 M) in G1.
  replace (with_owner (o_owner oa) oa) with oa in G1 by (destruct oa; reflexivity).
  destruct (retain_rest (subs_of ob) s) as (_ & _ & C & _).
  set (f := fun o => Obj (o_hdr ob) (o_kind ob) (o_lock ob) (o_id ob) (o_count ob) (o_owner o)). set (s1 := retain s (subs_of ob)) in *.
  assert (I2 : sinv (subs_of oa) (modify s1 a f)).
  { pose proof (swap_inv [] s1 a oa f) as X. rewrite !app_nil_r in X. apply X; auto. cbn. rewrite C.
    apply (i_id _ _ I b ob Eb). }
  destruct (drop_inv _ _ I2) as [->|(s' & -> & I3 & Sh)]; [exact Logic.I|]. cbn [post]. split; auto.
  apply (evolvesW_trans _ _ s1); [apply evolves_W; apply (evolves_weak nobody); [intros ? []|apply evolves_retain]|].
  apply (evolvesW_trans _ _ (modify s1 a f)); [apply evolvesW_modify; intros; reflexivity|]. apply evolves_W, (evolves_weak nobody); [intros ? []|]. apply evolves_shrinks. auto.
Qed.
Lemma move_post s a : sinv [] s -> post (move_mfd s a) (fun s' => sinv [] s' /\ evolvesW (eq a) s s').
Proof.
  intros I. unfold move_mfd. destruct (get (objs s) a) as [o|] eqn:E; [|exact Logic.I]. destruct (o_kind o) as [|sT sR l] eqn:Ek; [exact Logic.I|].
  destruct (mutable_ o) eqn:M; [|exact Logic.I]. cbn [post]. set (f := with_kind (KProd [] [] [])). split.
  - assert (I1 : sinv (subs_of o ++ []) (modify s a f)) by (apply (swap_inv [] s a o f); auto; apply (i_id _ _ I a o E)).
    apply (add_inv [] (modify s a f) (Obj (o_hdr o) (KProd sT sR l) (o_lock o) (o_id o) 0 Auto)); cbn; auto; try discriminate.
    + unfold subs_of in *. rewrite Ek in I1. exact I1.
    + rewrite (proj2 (proj2 (modify_rest s a f))). apply (i_id _ _ I a o E).
  - eapply evolvesW_trans; [apply (evolvesW_modify s a f); intros; reflexivity|]. apply evolves_W, (evolves_weak nobody); [intros ? []|apply evolves_add].
Qed.
Definition step_okW (o : op K) s s' : Prop := sinv [] s' /\ evolvesW (touched o) s s' /\ (forall b, touched o b -> ~ is_shared s' b).
Lemma evolvesW_not_shared ex s s' b o : evolvesW ex s s' -> get (objs s) b = Some o -> mutable_ o = true -> ~ is_shared s' b.
Proof.
  intros Ev H M (o' & n & H' & Ho). destruct (ew_old _ _ _ Ev b o' H') as (o1 & H1 & E & _); [eapply get_lt; eauto|].
  assert (o1 = o) by congruence. subst. rewrite M in E. unfold mutable_ in E. rewrite Ho in E. discriminate.
Qed.
Lemma step_invW s (o : op K) : sinv [] s -> post (step s o) (step_okW o s).
Proof.
  intros I.
  assert (X : post (step s o) (fun s' => sinv [] s' /\ evolvesW (touched o) s s')).
  { assert (D : tame o \/ exists a b, o = AssignMfd a b \/ o = MoveMfd a) by (destruct o; cbn; auto; right; [exists a, b; auto|exists a, 0; auto]).
    destruct D as [T|(a & b & [->| ->])].
    - eapply post_weak; [|apply (step_inv s o I T)]. intros s' (A & B & _). split; auto. apply evolves_W; auto.
    - apply assign_post; auto.
    - apply move_post; auto. }
  pose proof (touched_live s o) as Y. destruct (step s o) as [s'|e s'| | |]; cbn in *; auto.
  - destruct X as [X1 X2]. split; auto. split; auto. intros b Hb. destruct (Y b Hb) as (ob & H & M). eapply evolvesW_not_shared; eauto.
  - destruct X as [X1 X2]. split; auto. split; auto. intros b Hb. destruct (Y b Hb) as (ob & H & M). eapply evolvesW_not_shared; eauto.
Qed.
Lemma run_invW h : forall s, sinv [] s -> post (run s h) (sinv []).
Proof.
  induction h as [|o h IH]; intros s I; [exact I|]. cbn [run]. pose proof (step_invW s o I) as X.
  destruct (step s o); cbn in *; auto; apply IH, X.
Qed.
Lemma leads_any_inv s : leads_any init s -> sinv [] s.
Proof. intros (h & R). pose proof (run_invW h init sinv_init) as X. rewrite R in X. exact X. Qed.
Lemma leads_reachable s : leads init s <-> reachable s.
Proof.
  split; intros (h & F & R); exists h; split; auto; (eapply Forall_impl; [|exact F]); intros o; apply declared_tame.
Qed.
Lemma leads_inv s : leads init s -> all_inv s.
Proof. intros H. apply reachable_inv, leads_reachable, H. Qed.

(** Induction over the calls of a history. *)
Lemma run_ind (P : state K -> Prop) (Q : op K -> Prop) :
  (forall s (o : op K), P s -> Q o -> post (step s o) P) -> forall h s s', P s -> Forall Q h -> run s h = Done s' -> P s'.
Proof.
  intros Hs. induction h as [|o h IH]; intros s s' Hp F R; [injection R as <-; auto|]. inversion F; subst. cbn [run] in R.
  pose proof (Hs s o Hp H1) as X. destruct (step s o); try discriminate; eapply IH; eauto.
Qed.

(** ** Below *)
Lemma below_snoc s a b c o : below s a b -> get (objs s) b = Some o -> In c (subs_of o) -> below s a c.
Proof. intros H. induction H; intros G Hc; [eapply below_step; eauto; constructor|eapply below_step; eauto]. Qed.
Lemma below_trans s a b c : below s a b -> below s b c -> below s a c.
Proof. induction 1; auto. intros. eapply below_step; eauto. Qed.
Lemma below_live w s a c : sinv w s -> live s a -> below s a c -> live s c.
Proof.
  intros I L H. revert L. induction H; auto. intros _. apply IHbelow.
  destruct (i_closed _ _ I a o H b H0) as (ob & n & X & _). eexists; eauto.
Qed.
(** A factor has a holder; going up one reaches an object of the program. *)
Lemma holder s c : slots (objs s) c > 0 -> exists a o, get (objs s) a = Some o /\ In c (subs_of o).
Proof.
  unfold slots, total. intros H.
  assert (X : exists o, In (Some o) (objs s) /\ In c (subs_of o)).
  { revert H. generalize (objs s). intros l. induction l as [|[o|] l IH]; cbn [map sum_list]; intros H; [lia| |].
    - destruct (occ (subs_of o) c) eqn:E; [destruct IH as (o' & A & B); [lia|]; exists o'; cbn; auto|].
      exists o. split; [left; auto|]. apply in_occ. lia.
    - destruct IH as (o' & A & B); [lia|]. exists o'. cbn; auto. }
  destruct X as (o & A & B). destruct (In_nth _ _ None A) as (i & Hi & E). exists i, o. auto.
Qed.
Lemma root s c : sinv [] s -> is_shared s c -> exists b, own s b /\ below s b c.
Proof.
  intros I. remember (List.length (objs s) - c) as n eqn:En. revert c En. induction (lt_wf n) as [n _ IH]. intros c -> Sc.
  destruct Sc as (oc & k & Hc & Ho). destruct (i_uses _ _ I c oc k Hc Ho) as [Ek Pk]. cbn in Ek.
  destruct (holder s c) as (a & o & Ha & Hin); [lia|].
  destruct (live_own_or_shared s a) as [Oa|Sa]; [exists o; auto|..].
  - exists a. split; auto. eapply below_step; eauto. constructor.
  - pose proof Sa as Sa2. destruct Sa2 as (oa & ka & Ha2 & Hka). assert (oa = o) by congruence. subst oa.
    pose proof (i_rank _ _ I a o ka Ha Hka c Hin) as R. apply shared_lt in Sa as La.
    destruct (IH (List.length (objs s) - a)) with (c := a) as (b & Ob & Bb); auto; [lia|]. exists b. split; auto. eapply below_snoc; eauto.
Qed.
Lemma below_frame w ex s s' b c : sinv w s' -> evolvesW ex s s' -> sinv [] s -> (forall x, ex x -> ~ is_shared s' x) -> below s b c -> ~ ex b -> live s b -> live s' b ->
  below s' b c.
Proof.
  intros I' Ev I Hx H. induction H; intros Nx L L'; [constructor|]. destruct L' as (o' & H').
  destruct (ew_old _ _ _ Ev a o' H') as (o1 & H1' & _ & Ed); [eapply get_lt; eauto|]. assert (o1 = o) by congruence. subst o1. destruct (Ed Nx) as [_ Ek].
  assert (Sb : is_shared s' b) by (apply (i_closed _ _ I' a o' H'); unfold subs_of; rewrite Ek; auto).
  apply (below_step s' a o' b c H'); [rewrite Ek; auto|]. apply IHbelow.
  - intros X. exact (Hx b X Sb).
  - destruct (i_closed _ _ I a o H b H0) as (ob & n & X & _). eexists; eauto.
  - destruct Sb as (ob & n & X & _). eexists; eauto.
Qed.
Lemma below_back w ex s s' b c : sinv w s' -> evolvesW ex s s' -> sinv [] s -> (forall x, ex x -> ~ is_shared s' x) -> below s' b c -> ~ ex b -> live s b ->
  below s b c.
Proof.
  intros I' Ev I Hx H. induction H; intros Nx L; [constructor|]. destruct L as (o0 & H').
  destruct (ew_old _ _ _ Ev a o H) as (o1 & H1' & _ & Ed); [eapply get_lt; eauto|]. destruct (Ed Nx) as [_ Ek].
  apply (below_step s a o1 b c H1'); [rewrite <- Ek; auto|]. apply IHbelow.
  - intros X. exact (Hx b X (i_closed _ _ I' a o H b H0)).
  - destruct (i_closed _ _ I a o1 H1' b) as (ob & n & X & _); [unfold subs_of; rewrite <- Ek; auto|]. eexists; eauto.
Qed.
Lemma own_not_factor s a b : sinv [] s -> own s a -> below s b a -> b = a.
Proof.
  intros I O H. induction H; auto. assert (b = c) by auto. subst b. exfalso. exact (own_not_shared s c O (i_closed _ _ I a o H c H0)).
Qed.

(** ** Destruction *)
Lemma points_attached s a : points_on s a = attached s a.
Proof.
  unfold points_on, attached, total. generalize (pts s). intros l. induction l as [|[q|] l IH]; cbn; auto. destruct (p_mfd q =? a); cbn; auto.
Qed.
Lemma destroy_exact s a : all_inv s -> own s a ->
  (reported (step s (DestroyMfd a)) <-> exists c, dies_with s a c /\ 0 < points_on s c) /\
  (reported (step s (DestroyMfd a)) \/ exists s', step s (DestroyMfd a) = Done s').
Proof.
  intros (I & B & P) Oa. pose proof Oa as Oa2. apply own_mutable in Oa2 as (o & E & M). cbn [step]. unfold destroy_mfd. rewrite E, M.
  destruct (mutable_slots [] s a o I E M) as [Z N]. pose proof (remove_inv [] s a o I E Z N) as I1. rewrite app_nil_r in I1.
  assert (Pc : forall c oc, get (objs s) c = Some oc -> o_count oc <> 0%Z <-> 0 < points_on s c).
  { intros c oc Hc. rewrite points_attached. rewrite (p_count _ P c oc Hc). lia. }
  assert (Sa : dies_with s a a).
  { split; [constructor|]. intros b Ob Nb H. apply Nb. apply (own_not_factor s a b I Oa H). }
  destruct (drop_inv _ _ I1) as [D|(s' & D & I2 & Sh)]; rewrite D.
  - assert (R : reported (K:=K) Terminated) by (right; auto). split; [|auto]. split; [intros _|intros _; auto].
    destruct (drop_doomed _ _ I1 D) as (s1 & w & c & oc & Sh & I3 & Hc & Ho & Nz).
    pose proof Sh as (_ & _ & _ & Len & Old & _). destruct (Old c oc Hc) as (oc0 & Hc0 & Eoc & Em).
    rewrite get_remove in Hc0 by (eapply get_lt; eauto). destruct (Nat.eqb_spec c a) as [->|Nc]; [discriminate|].
    assert (Ev : evolvesW (eq a) s s1).
    { eapply evolvesW_trans; [apply evolves_W, evolves_remove|]. apply evolves_W, (evolves_weak nobody); [intros ? []|apply evolves_shrinks; auto]. }
    assert (Nx : forall x, a = x -> ~ is_shared s1 x) by (intros x <-; eapply evolvesW_not_shared; eauto).
    exists c. assert (NB : forall b, own s b -> b <> a -> ~ below s b c).
    { intros b Ob Nb Hb. pose proof Ob as Ob2. apply own_mutable in Ob2 as (ob & Eb & Mb).
      assert (Lb : live s1 b). { destruct (ew_keep _ _ _ Ev b ob Eb Mb) as (o' & X); [auto|]. eexists; eauto. }
      pose proof (below_frame _ _ s s1 b c I3 Ev I Nx Hb (not_eq_sym Nb) (ex_intro _ _ Eb) Lb) as Hb1.
      assert (Hh : exists x ox, get (objs s1) x = Some ox /\ In c (subs_of ox)).
      { assert (Ncb : b <> c). { intros ->. apply (own_not_shared s c Ob). exists oc0. unfold mutable_ in Em. rewrite Ho in Em. destruct (o_owner oc0) eqn:Q; try discriminate. eauto. }
        clear -Hb1 Ncb. induction Hb1; [congruence|]. destruct (Nat.eq_dec b c) as [->|]; [eauto|auto]. }
      destruct Hh as (x & ox & Hx & Hin). destruct (i_uses _ _ I3 c oc 1 Hc Ho) as [U _]. cbn in U. destruct (Nat.eq_dec c c); [|congruence].
      pose proof (total_get (fun o => occ (subs_of o) c) (objs s1) x) as T. rewrite Hx in T. cbn in T. apply occ_in in Hin. unfold slots in U. lia. }
    split; [split; auto|].
    + destruct (root s c I) as (b & Ob & Hb). { exists oc0. unfold mutable_ in Em. rewrite Ho in Em. destruct (o_owner oc0) eqn:Q; try discriminate. eauto. }
      destruct (Nat.eq_dec b a) as [->|Nb]; auto. destruct (NB b Ob Nb Hb).
    + apply (Pc c oc0 Hc0). rewrite Eoc in Nz. exact Nz.
  - assert (Ev : evolvesW (eq a) s s').
    { eapply evolvesW_trans; [apply evolves_W, evolves_remove|]. apply evolves_W, (evolves_weak nobody); [intros ? []|apply evolves_shrinks; auto]. }
    assert (Nx : forall x, a = x -> ~ is_shared s' x) by (intros x <-; eapply evolvesW_not_shared; eauto).
    pose proof Sh as (_ & _ & _ & Len & Old & _ & Zer).
    destruct (Z.eqb_spec (o_count o) 0) as [Zc|Nz].
    + split; [|right; eauto]. split; [intros [(e & s0 & X)|X]; discriminate|]. intros (c & (Hb & Hno) & Hp). exfalso.
      destruct (below_live [] s a c I (ex_intro _ _ E) Hb) as (oc & Hc). apply (Pc c oc Hc) in Hp. destruct (Nat.eq_dec c a) as [->|Nc]; [congruence|].
      destruct (get (objs s') c) as [oc'|] eqn:Hc'.
      * destruct (Old c oc' Hc') as (x & Hx & Ex & Mx). rewrite get_remove in Hx by (eapply get_lt; eauto). destruct (Nat.eqb_spec c a); [congruence|].
        assert (x = oc) by congruence. subst x.
        assert (Sc : is_shared s' c).
        { destruct (live_own_or_shared s' c) as [Oc|Sc]; [eexists; eauto| |auto]. exfalso. apply Nc. symmetry. apply (own_not_factor s c a I); auto.
          apply own_mutable. exists oc. split; auto. rewrite <- Mx. apply own_mutable in Oc as (y & Y1 & Y2). congruence. }
        destruct (root s' c I2 Sc) as (b & Ob & Bb). pose proof Ob as Ob2. apply own_mutable in Ob2 as (ob & Eb & Mb).
        destruct (Old b ob Eb) as (y & Hy & Ey & My). rewrite get_remove in Hy by (eapply get_lt; eauto). destruct (Nat.eqb_spec b a) as [|Nb]; [discriminate|].
        apply (Hno b); auto.
        -- apply own_mutable. exists y. split; auto. congruence.
        -- apply (below_back [] (eq a) s s' b c I2 Ev I Nx Bb); auto. eexists; eauto.
      * apply Hp. apply (Zer c oc); auto. rewrite get_remove by (eapply get_lt; eauto). destruct (Nat.eqb_spec c a); [congruence|auto].
    + assert (R : reported (match o_owner o with Auto => Thrown EAssert s' | _ => Terminated end)) by (destruct (o_owner o); [left; eauto|right; auto|right; auto]).
      split; [|auto]. split; [intros _|intros _; auto]. exists a. split; auto. apply (Pc a o E). auto.
Qed.

(** ** Identifiers *)
Lemma step_counter s (o : op K) : sinv [] s -> post (step s o) (fun s' => counter s <= counter s').
Proof. intros I. eapply post_weak; [|apply step_invW; auto]. intros s' (_ & Ev & _). apply (ew_cnt _ _ _ Ev). Qed.
Lemma births_bound h : forall s, sinv [] s -> Forall (fun i => counter s <= i) (births s h) /\ NoDup (births s h).
Proof.
  induction h as [|o h IH]; intros s I; [split; constructor|]. cbn [births]. pose proof (step_counter s o I) as C. pose proof (step_invW s o I) as X.
  assert (W : forall s', counter s <= counter s' -> sinv [] s' -> Forall (fun i => counter s <= i) (births s' h) /\ NoDup (births s' h)).
  { intros s' Cs Is. destruct (IH s' Is) as [A B]. split; auto. eapply Forall_impl; [|exact A]. cbn. intros. lia. }
  assert (N : forall s' (ob : obj K), counter s' = S (counter s) -> sinv [] s' -> o_id ob = counter s ->
     Forall (fun i => counter s <= i) (o_id ob :: births s' h) /\ NoDup (o_id ob :: births s' h)).
  { intros s' ob Cs Is Eo. destruct (IH s' Is) as [A B]. split.
    - constructor; [lia|]. eapply Forall_impl; [|exact A]. cbn. intros. lia.
    - constructor; auto. intros Hin. rewrite Forall_forall in A. specialize (A _ Hin). lia. }
  destruct (step s o) as [s'|e s'| | |] eqn:E; try (split; constructor); cbn in C, X; [|apply W; [auto|apply X]].
  destruct o; try (apply W; [auto|apply X]); cbn [step] in E.
  - unfold new_leaf in E. destruct (run_ctor c) as [[h0 l a b|]|]; try discriminate. injection E as <-.
    cbn [objs bump]. rewrite get_add, Nat.eqb_refl. apply N; [reflexivity|apply X|reflexivity].
  - unfold new_product in E. injection E as <-. cbn [objs bump]. rewrite get_add, Nat.eqb_refl. apply N; [reflexivity|apply X|reflexivity].
Qed.

End Facts.
