(** C29-C33: locks, reference counts, identifiers, snapshots, failing multiply.

    A history is any list of calls; exceptions are caught and the program goes on.  [leads init s]: [s] is
    reached by the declared interface; [leads_any]: also by the implicitly generated operator= and move. *)
From Coq Require Import List Arith Bool ZArith String Lia.
From Verif Require Import Base Scalar Vec Model_Manifold Model_Object Spec SpecObj Layout Heap ObjTree ObjStep ObjPoint ObjFacts.
Import ListNotations.

Section C29_33.
Context {K : Type} {SK : Scalar K}.
Implicit Types (s : state K).

(** ** C29 *)
Lemma rename_rename (m : mfd K) n t : rename (rename m n) t = rename m t.
Proof. destruct m; reflexivity. Qed.
Lemma rename_self (m : mfd K) : rename m (name m) = m.
Proof. destruct m as [[] | []]; reflexivity. Qed.
Lemma destroy_dead s a : sinv [] s -> post (step s (DestroyMfd a)) (fun s' => get (objs s') a = None).
Proof.
  intros I. cbn [step]. unfold destroy_mfd. destruct (get (objs s) a) as [o|] eqn:E; [|exact Logic.I]. destruct (mutable_ o) eqn:M; [|exact Logic.I].
  destruct (mutable_slots [] s a o I E M) as [Z N]. pose proof (remove_inv [] s a o I E Z N) as I1. rewrite app_nil_r in I1.
  destruct (drop_inv _ _ I1) as [->|(s' & -> & I2 & Sh)]; [exact Logic.I|].
  assert (G : get (objs s') a = None).
  { destruct Sh as (_ & _ & _ & Len & O & _).
    destruct (get (objs s') a) as [o'|] eqn:E'; auto. destruct (O a o' E') as (x & X & _). rewrite get_remove, Nat.eqb_refl in X by (eapply get_lt; eauto). discriminate. }
  destruct (o_count o =? 0)%Z; [exact G|]. destruct (o_owner o); cbn; auto.
Qed.
Lemma locked_step s (o : op K) a m : all_inv s -> declared o -> is_locked s a -> denotes s a m ->
  post (step s o) (fun s' => live s' a -> is_locked s' a /\ exists nm, denotes s' a (rename m nm)).
Proof.
  intros (I & B & P) D (oa & Ha & La) Dm. apply declared_tame in D. pose proof (step_inv s o I D) as X. pose proof (destroy_dead s a I) as Dd.
  apply (denotes_tree [] s a m I) in Dm.
  assert (Old : forall s', step_ok o s s' -> live s' a -> is_locked s' a).
  { intros s' (I' & Ev & _) (o' & H'). destruct (e_old _ _ _ Ev a o' H') as (o1 & H1 & _ & L & _); [eapply get_lt; eauto|].
    assert (o1 = oa) by congruence. subst o1. exists o'. auto. }
  assert (Fr : forall s', step_ok o s s' -> ~ touched o a -> live s' a -> is_locked s' a /\ exists nm, denotes s' a (rename m nm)).
  { intros s' Ok N L. split; [eauto|]. exists (name m). rewrite rename_self. pose proof Ok as (I' & _). apply (denotes_tree [] s' a m I').
    rewrite (step_frame s o s' a I Ok N); auto. eapply get_lt; eauto. }
  assert (Dc : touched o a \/ ~ touched o a).
  { destruct o; cbn [touched]; try (right; intros Y; exact Y); match goal with |- ?x = a \/ _ => destruct (Nat.eq_dec x a); auto end. }
  destruct Dc as [T|N].
  2:{ destruct (step s o) as [s'|e s'| | |]; cbn in *; auto. }
  destruct o; cbn [touched] in T; try (exfalso; exact T); try (exfalso; exact D); subst.
  - (* SetName *) cbn [step] in *. destruct (set_name s a t) as [s'|e s'| | |] eqn:E; cbn [post] in *; auto.
    + intros L. split; [eauto|]. destruct (set_name_tree s a t s' I E) as (m' & E1 & E2). exists t. destruct X as (I' & _). apply (denotes_tree [] s' a _ I'). congruence.
    + unfold set_name in E. rewrite Ha in E. destruct (mutable_ oa); discriminate.
  - (* SetMag *) cbn [step] in *. unfold set_mag in *. rewrite Ha, La in *. destruct (mutable_ oa); cbn [post]; auto. destruct (o_kind oa); cbn [post]; auto.
    intros _. split; [exists oa; auto|]. exists (name m). rewrite rename_self. apply (denotes_tree [] s a m I). auto.
  - (* Multiply *) cbn [step] in *. unfold multiply_obj in *. rewrite Ha, La in *. destruct (get (objs s) m0); cbn [post]; auto.
    destruct (o_kind oa); cbn [post]; auto. destruct (mutable_ oa); cbn [post]; auto.
    intros _. split; [exists oa; auto|]. exists (name m). rewrite rename_self. apply (denotes_tree [] s a m I). auto.
  - (* DestroyMfd *) destruct (step s (DestroyMfd a)); cbn [post] in *; auto; intros (o' & H'); congruence.
Qed.

(** Once locked, whatever calls of the interface follow: while the object is alive it is locked and stands for
    the same tree (dimensions, factors, offsets, magnitudes at every level), up to its own name, which
    name() lets one change.  Partial: the implicit operator= and move constructor are excluded (see below). *)
Theorem C29_locked_partial : forall s s' a m, leads init s -> leads s s' -> is_locked s a -> denotes s a m -> live s' a ->
  is_locked s' a /\ exists nm, denotes s' a (rename m nm).
Proof.
  intros s s' a m R (h & F & E) L D Lv. apply leads_inv in R.
  pose proof (run_ind (fun s1 => all_inv s1 /\ a < List.length (objs s1) /\ (live s1 a -> is_locked s1 a /\ exists nm, denotes s1 a (rename m nm))) declared) as Ind.
  assert (X : all_inv s' /\ a < List.length (objs s') /\ (live s' a -> is_locked s' a /\ exists nm, denotes s' a (rename m nm))).
  { apply (Ind) with (h := h) (s := s); auto.
    - intros s1 o (A & La & IH) Do. pose proof (step_all s1 o A (proj1 (declared_tame o) Do)) as Y. pose proof (step_inv s1 o (proj1 A) (proj1 (declared_tame o) Do)) as Z.
      assert (W : post (step s1 o) (fun s2 => live s2 a -> is_locked s2 a /\ exists nm, denotes s2 a (rename m nm))).
      { destruct (get (objs s1) a) as [o1|] eqn:E1.
        - destruct IH as (L1 & nm & D1); [eexists; eauto|]. eapply post_weak; [|apply (locked_step s1 o a (rename m nm)); auto].
          intros s2 H Lv2. destruct (H Lv2) as (L2 & nm2 & D2). split; auto. exists nm2. rewrite rename_rename in D2. auto.
        - destruct (step s1 o) as [s2|e s2| | |]; cbn in *; auto; intros (o2 & H2); destruct Z as (_ & Ev & _);
            destruct (e_old _ _ _ Ev a o2 H2 La) as (o3 & H3 & _); congruence. }
      destruct (step s1 o) as [s2|e s2| | |]; cbn in *; auto; (split; [auto|]); (split; [|auto]); destruct Z as (_ & Ev & _); pose proof (e_len _ _ _ Ev); lia.
    - split; auto. destruct L as (o & H & Hl). split; [eapply get_lt; eauto|]. intros _. split; [exists o; auto|]. exists (name m). rewrite rename_self. auto. }
  apply X, Lv.
Qed.

Lemma denotes_prod s a h sT sR ms : denotes s a (Prod h sT sR ms) -> exists o cs, get (objs s) a = Some o /\ o_kind o = KProd sT sR cs /\ h = o_hdr o.
Proof. intros D. inversion D; subst. eexists _, _. split; [eassumption|]. split; [eassumption|reflexivity]. Qed.
Lemma denotes_leaf s a h l typ tru : denotes s a (Leaf h l typ tru) -> exists o, get (objs s) a = Some o /\ o_kind o = KLeaf l typ tru /\ h = o_hdr o.
Proof. intros D. inversion D; subst. eexists. split; [eassumption|]. split; [eassumption|reflexivity]. Qed.
(** Any attempt to modify a locked manifold throws std::runtime_error and changes nothing at all. *)
Theorem C29_refused : forall s a, own s a -> is_locked s a ->
  (forall h sT sR ms m, denotes s a (Prod h sT sR ms) -> live s m -> step s (Multiply a m) = Thrown EThrow s) /\
  (forall h l typ tru v b, denotes s a (Leaf h l typ tru) -> step s (SetMag a v b) = Thrown EThrow s).
Proof.
  intros s a O (o & H & L). apply own_mutable in O as (o' & H' & M). assert (o' = o) by congruence. subst o'. split.
  - intros h sT sR ms m D (om & Hm). destruct (denotes_prod s a h sT sR ms D) as (o0 & cs & X & Y & _). assert (o0 = o) by congruence. subst o0.
    cbn [step]. unfold multiply_obj. rewrite H, Hm, Y, M, L. reflexivity.
  - intros h l typ tru v b D. destruct (denotes_leaf s a h l typ tru D) as (o0 & X & Y & _). assert (o0 = o) by congruence. subst o0.
    cbn [step]. unfold set_mag. rewrite H, M, Y, L. reflexivity.
Qed.

(** The calls that lock: creating a point, being multiplied into a product, being copied by getNewCopy. *)
Definition locks (o : op K) (a : nat) : Prop :=
  match o with
  | LockMfd b | CreatePoint b _ | CreatePointVal b _ | GetZero b _ | GetNewCopy b | Multiply _ b => b = a
  | _ => False
  end.
Lemma is_locked_lockm s a : live s a -> is_locked (lockm s a) a.
Proof. intros (o & H). exists (with_lock o). split; auto. unfold lockm. rewrite get_modify, Nat.eqb_refl, H. reflexivity. Qed.
Lemma light_locked s s' a : light s s' -> is_locked s a -> is_locked s' a.
Proof. intros L (o & H & Lk). destruct (light_get s s' a o L H) as (o' & H' & _ & _ & _ & _ & F). exists o'. auto. Qed.
Lemma evolves_locked ex s s' a : evolves ex s s' -> live s' a -> is_locked s a -> is_locked s' a.
Proof.
  intros Ev (o' & H') (o & H & L). destruct (e_old _ _ _ Ev a o' H') as (o1 & H1 & _ & F & _); [eapply get_lt; eauto|]. exists o'. split; auto. apply F. congruence.
Qed.
Theorem C29_who_locks : forall s o s' a, leads init s -> step s o = Done s' -> locks o a -> is_locked s' a.
Proof.
  intros s o s' a R E Lk. apply leads_inv in R as (I & B & P).
  assert (Pt : forall v, live s a -> make_point (lockm s a) a v = Done s' -> is_locked s' a).
  { intros v L H. pose proof (make_point_light (lockm s a) a v) as X. rewrite H in X. apply (light_locked _ _ _ X), is_locked_lockm, L. }
  assert (Lv : forall m, tree s a = Some m -> live s a) by (intros m H; apply (tree_live [] s a I); eauto).
  destruct o; cbn [locks] in Lk; try (exfalso; exact Lk); subst; cbn [step] in E.
  - unfold get_new_copy in E. destruct (get (objs s) a) as [o|] eqn:Ha; [|discriminate]. injection E as <-.
    assert (L1 : is_locked (lockm s a) a) by (apply is_locked_lockm; eexists; eauto). eapply evolves_locked; [apply copy_evolves| |exact L1].
    destruct L1 as (o1 & H1 & _). unfold copy_obj, live. rewrite get_add. destruct (a =? _); [eauto|].
    destruct (retain_get (subs_of o) (lockm s a) a) as (w & G). destruct (G o1 H1) as [G1 _]. eauto.
  - destruct (get (objs s) a) as [o|] eqn:Ha; [|discriminate]. injection E as <-. apply is_locked_lockm. eexists; eauto.
  - pose proof (multiply_post s p a I) as X. rewrite E in X. destruct (multiply_tree s p a s' I E) as (mp & mm & mp' & T1 & T2 & _ & _ & op' & om & oc & H1 & H2 & _ & _ & _ & _ & _ & _ & _ & N & _).
    (* the lock of a is set in the first statement *)
    pose proof E as E2. unfold multiply_obj in E2. destruct (get (objs s) p) as [op|] eqn:Hp; [|discriminate]. rewrite H2 in E2. destruct (o_kind op) as [|sT sR l] eqn:Hk; [discriminate|].
    destruct (mutable_ op) eqn:M; [|discriminate]. destruct (o_lock op) eqn:Lp; [discriminate|]. clear E2.
    rewrite (multiply_obj_mid s p a op om sT sR l Hp H2 Hk M Lp) in E. cbn zeta in E. set (s3 := mult_mid s p a) in E.
    assert (L3 : is_locked s3 a).
    { unfold s3, mult_mid. rewrite Hp. apply (evolves_locked (eq p) (lockm s a)).
      - destruct (h_dim (o_hdr op) =? 0); [apply evolves_append|eapply evolves_trans; apply evolves_append].
      - destruct (mult_mid_metas s p a) as [(_ & _ & Me) _]. specialize (Me a). rewrite H2 in Me. unfold mult_mid in Me. rewrite Hp in Me. unfold live.
        match type of Me with match ?x with Some _ => _ | None => _ end => destruct x end; [eauto|exfalso; exact Me].
      - apply is_locked_lockm. eexists; eauto. }
    destruct (locked s3 p); [discriminate|]. destruct (back sT) as [bT|]; [|discriminate]. destruct (back sR) as [bR|]; [|discriminate]. injection E as E.
    destruct X as (I' & Ev). eapply (evolves_locked (eq p) s3); [| |exact L3].
    + rewrite <- E. eapply evolves_trans; [apply (evolves_weak nobody); [intros ? []|apply copy_evolves]|]. apply evolves_modify. intros x _. cbn. intuition.
    + destruct (live_own_or_shared s a) as [Oa|Sa]; [eexists; eauto| |].
      * apply own_mutable in Oa as (x & X1 & X2). destruct (e_keep _ _ _ Ev a x X1 X2 N) as (y & Y). eexists; eauto.
      * rewrite <- E. unfold live. rewrite get_modify. destruct (Nat.eqb_spec a p); [congruence|]. destruct L3 as (o3 & L3 & _).
        unfold copy_obj. rewrite get_add. destruct (a =? _); [eauto|]. destruct (retain_get (subs_of om) s3 a) as (w & G). destruct (G o3 L3) as [G1 _]. eauto.
  - unfold create_point, with_tree in E. destruct (tree s a) as [m|] eqn:T; [|discriminate]. destruct (List.length junk =? representationDim m); [|discriminate]. eauto.
  - unfold create_point_val, with_tree in E. destruct (tree s a) as [m|] eqn:T; [|discriminate]. destruct (isInM m v default_prec) as [[]|[]]; try discriminate. eauto.
  - unfold get_zero, with_tree in E. destruct (tree s a) as [m|] eqn:T; [|discriminate]. destruct (List.length junk =? representationDim m); [|discriminate]. cbn zeta in E.
    destruct (setZero m junk) as [x|[]]; try discriminate. cbn [lift] in E. eauto.
Qed.

(** ** C30 *)

(** The count of every live manifold object is the number of live points attached to it.  Partial: without
    the implicit operator= of manifolds, which copies the count (see below). *)
Theorem C30_count_partial : forall s a o, leads init s -> get (objs s) a = Some o -> o_count o = Z.of_nat (points_on s a).
Proof. intros s a o R H. apply leads_inv in R as (_ & _ & P). rewrite points_attached. apply (p_count _ P a o H). Qed.

(** Destroying an object of the program is reported (exception or end of the program) exactly when a point
    is attached to it or to a factor that dies with it; otherwise the call returns. *)
Theorem C30_destroy_partial : forall s a, leads init s -> own s a ->
  (reported (step s (DestroyMfd a)) <-> exists c, dies_with s a c /\ 0 < points_on s c) /\
  (reported (step s (DestroyMfd a)) \/ exists s', step s (DestroyMfd a) = Done s').
Proof. intros s a R. apply destroy_exact, leads_inv, R. Qed.

(** Destroying a point attached to a live manifold never fails. *)
Theorem C30_destroy_point_partial : forall s p q, leads init s -> get (pts s) p = Some q -> live s (p_mfd q) -> exists s', step s (DestroyPoint p) = Done s'.
Proof.
  intros s p q R H (o & Ho). apply leads_inv in R as (_ & _ & P). cbn [step]. unfold destroy_point. rewrite H, Ho.
  assert (0 < attached s (p_mfd q)). { unfold attached. pose proof (total_get (fun x => if p_mfd x =? p_mfd q then 1 else 0) (pts s) p) as T. rewrite H in T. cbn in T. rewrite Nat.eqb_refl in T. lia. }
  rewrite (p_count _ P _ _ Ho). destruct (Z.ltb_spec 0 (Z.of_nat (attached s (p_mfd q)))); [eauto|lia].
Qed.

(** ** C31 *)

(** Constructors never give the same identifier twice, in any history whatsoever. *)
Theorem C31_distinct : forall h : list (op K), NoDup (births init h).
Proof. intros h. apply births_bound, sinv_init. Qed.

(** The factor a successful multiply stores is a new object with the identifier and the tree of the manifold
    that was multiplied, whose own identifier does not change. *)
Theorem C31_factor : forall s p m s' i, leads_any init s -> step s (Multiply p m) = Done s' -> has_id s m i ->
  exists c cs o', get (objs s') p = Some o' /\ kind_subs (o_kind o') = cs ++ [c] /\ ~ live s c /\ has_id s' c i /\
    (forall mm, denotes s m mm -> denotes s' c mm) /\
    (live s' m -> has_id s' m i).
Proof.
  intros s p m s' i R E (om & Hm & Hi). apply leads_any_inv in R. cbn [step] in E.
  destruct (multiply_tree s p m s' R E) as (mp & mm & mp' & T1 & T2 & _ & _ & op' & om' & oc & H1 & H2 & H3 & H4 & H5 & _ & _ & _ & H6 & N & _).
  assert (om' = om) by congruence. subst om'. pose proof (multiply_post s p m R) as X. rewrite E in X. destruct X as (I' & Ev).
  exists (List.length (objs s)), (match get (objs s) p with Some o => subs_of o | None => [] end), op'. split; auto. split; auto.
  split; [intros (o & Ho); apply get_lt in Ho; lia|]. split; [exists oc; split; auto; congruence|]. split.
  - intros mm' D. apply (denotes_tree [] s m mm' R) in D. apply (denotes_tree [] s' _ mm' I'). congruence.
  - intros (o' & Ho'). exists o'. split; auto. destruct (e_old _ _ _ Ev m o' Ho') as (o1 & X1 & X2 & _); [eapply get_lt; eauto|]. congruence.
Qed.

(** Identifiers never change.  Partial: without the implicit operator= (see below). *)
Theorem C31_constant_partial : forall s s' a i, leads init s -> leads s s' -> has_id s a i -> live s' a -> has_id s' a i.
Proof.
  intros s s' a i R (h & F & E) (o & H & Hi) Lv. apply leads_inv in R.
  assert (X : all_inv s' /\ a < List.length (objs s') /\ (live s' a -> has_id s' a i)).
  { apply (run_ind (fun s1 => all_inv s1 /\ a < List.length (objs s1) /\ (live s1 a -> has_id s1 a i)) declared) with (h := h) (s := s); auto.
    - intros s1 o1 (A & La & IH) Do. pose proof (step_all s1 o1 A (proj1 (declared_tame o1) Do)) as Y. pose proof (step_inv s1 o1 (proj1 A) (proj1 (declared_tame o1) Do)) as Z.
      destruct (step s1 o1) as [s2|e s2| | |]; cbn in *; auto; (split; [auto|]); destruct Z as (_ & Ev & _); pose proof (e_len _ _ _ Ev); (split; [lia|]);
        intros (o2 & H2); destruct (e_old _ _ _ Ev a o2 H2 La) as (o3 & H3 & E3 & _); assert (Hi1 : has_id s1 a i) by (apply IH; eexists; eauto); destruct Hi1 as (o4 & H4 & E4); exists o2; split; auto; congruence.
    - split; auto. split; [eapply get_lt; eauto|]. intros _. exists o. auto. }
  apply X, Lv.
Qed.

(** ** C32 *)

(** In every history (all calls, implicit ones included): whatever is alive has all its components alive. *)
Theorem C32_alive : forall s a, leads_any init s -> live s a ->
  (exists m, denotes s a m) /\ forall c, below s a c -> live s c.
Proof.
  intros s a R L. apply leads_any_inv in R. split; [apply (live_denotes []); auto|]. intros c H. apply (below_live [] s a c); auto.
Qed.
(** An object of the program that no call of a history names as the object to modify or destroy is still
    alive and stands for the same tree, whatever happened to every other object, among them the manifolds
    it was multiplied with. *)
Theorem C32_snapshot : forall s h s' a m, leads_any init s -> run s h = Done s' -> own s a -> denotes s a m ->
  Forall (fun o => ~ modifies o a) h -> own s' a /\ denotes s' a m.
Proof.
  intros s h s' a m R E O D F. apply leads_any_inv in R.
  assert (X : sinv [] s' /\ own s' a /\ denotes s' a m).
  { apply (run_ind (fun s1 => sinv [] s1 /\ own s1 a /\ denotes s1 a m) (fun o => ~ modifies o a)) with (h := h) (s := s); auto.
    intros s1 o (I & O1 & D1) N. pose proof (step_invW s1 o I) as X. pose proof O1 as O2. apply own_mutable in O2 as (oa & Ha & Ma).
    assert (G : forall s2, step_okW o s1 s2 -> sinv [] s2 /\ own s2 a /\ denotes s2 a m).
    { intros s2 (I2 & Ev & Ns). split; auto. assert (Nt : ~ touched o a) by (intros Y; apply N, modifies_touched, Y).
      destruct (ew_keep _ _ _ Ev a oa Ha Ma Nt) as (o2 & H2). destruct (ew_old _ _ _ Ev a o2 H2) as (o1 & H1 & M2 & _); [eapply get_lt; eauto|].
      assert (o1 = oa) by congruence. subst o1. split; [apply own_mutable; exists o2; split; congruence|].
      apply (denotes_tree [] s1 a m I) in D1. apply (denotes_tree [] s2 a m I2). rewrite <- D1.
      apply (tree_frameW [] [] (touched o) s1 s2); auto; eauto. eapply get_lt; eauto. }
    destruct (step s1 o); cbn in *; auto. }
  apply X.
Qed.
(** multiply on objects is the multiply of the value layer: the product's new tree is made of the trees at
    the time of the call. *)
Theorem C32_multiply : forall s p m s' mp mm, leads_any init s -> denotes s p mp -> denotes s m mm ->
  step s (Multiply p m) = Done s' -> exists mp', multiply mp mm = Ok mp' /\ denotes s' p mp'.
Proof.
  intros s p m s' mp mm R Dp Dm E. apply leads_any_inv in R. cbn [step] in E. pose proof (multiply_post s p m R) as X. rewrite E in X. destruct X as (I' & _).
  destruct (multiply_tree s p m s' R E) as (mp1 & mm1 & mp' & T1 & T2 & T3 & T4 & _). apply (denotes_tree [] s _ _ R) in Dp. apply (denotes_tree [] s _ _ R) in Dm.
  exists mp'. split; [congruence|]. apply (denotes_tree [] s' _ _ I'). auto.
Qed.
(** Nothing is leaked: every copy a product holds belongs to a live object of the program. *)
Theorem C32_no_leak : forall s c, leads_any init s -> live s c -> exists a, own s a /\ below s a c.
Proof.
  intros s c R L. apply leads_any_inv in R. destruct (live_own_or_shared s c L) as [O|S]; [exists c; split; auto; constructor|apply root; auto].
Qed.

(** ** C33 *)

(** A failing multiply of a product by another object changes nothing: neither the product nor anything
    else.  Partial: the product itself as argument is excluded (see below). *)
Theorem C33_unchanged_partial : forall s p m e s', p <> m -> step s (Multiply p m) = Thrown e s' -> s' = s.
Proof.
  intros s p m e s' N E. cbn [step] in E.
  destruct (get (objs s) p) as [op|] eqn:Hp; [|unfold multiply_obj in E; rewrite Hp in E; discriminate].
  destruct (get (objs s) m) as [om|] eqn:Hm; [|unfold multiply_obj in E; rewrite Hp, Hm in E; discriminate].
  destruct (o_kind op) as [|sT sR l] eqn:Hk; [unfold multiply_obj in E; rewrite Hp, Hm, Hk in E; discriminate|].
  destruct (mutable_ op) eqn:M; [|unfold multiply_obj in E; rewrite Hp, Hm, Hk, M in E; discriminate].
  destruct (o_lock op) eqn:L; [unfold multiply_obj in E; rewrite Hp, Hm, Hk, M, L in E; congruence|].
  rewrite (multiply_obj_mid s p m op om sT sR l Hp Hm Hk M L) in E. cbn zeta in E.
  destruct (mid_get s p m op om Hp Hm) as (n & Gp & _). destruct (Nat.eqb_spec p m); [congruence|]. unfold locked in E. rewrite Gp in E. cbn in E. rewrite L in E.
  destruct (back sT); [|discriminate]. destruct (back sR); discriminate.
Qed.
(** A multiply that does not fail is one on an unlocked product by another live object; then it returns. *)
Theorem C33_succeeds_partial : forall s p m h sT sR ms, leads init s -> own s p -> ~ is_locked s p -> denotes s p (Prod h sT sR ms) -> live s m -> p <> m ->
  exists s', step s (Multiply p m) = Done s'.
Proof.
  intros s p m h sT sR ms R O NL D (om & Hm) N. apply leads_inv in R as (I & B & P). apply own_mutable in O as (op & Hp & M).
  destruct (denotes_prod s p h sT sR ms D) as (o0 & cs & X & H2 & Eh). assert (o0 = op) by congruence. subst o0 h. destruct (B p op Hp) as (mp & Tp & Bp).
  apply (denotes_tree [] s _ _ I) in D. assert (mp = Prod (o_hdr op) sT sR ms) by congruence. subst mp.
  assert (L : o_lock op = false) by (destruct (o_lock op) eqn:L; auto; exfalso; apply NL; exists op; auto).
  cbn [step]. rewrite (multiply_obj_mid s p m op om sT sR cs Hp Hm H2 M L). cbn zeta. destruct (mid_get s p m op om Hp Hm) as (n & Gp & _).
  destruct (Nat.eqb_spec p m); [congruence|]. unfold locked. rewrite Gp. cbn. rewrite L.
  destruct (B m om Hm) as (mm & Tm & Bm). destruct (multiply_total (Prod (o_hdr op) sT sR ms) mm (built_wf _ Bp)) as (r & Er); [eauto 6|]. unfold multiply in Er.
  destruct (back sT); [|discriminate]. destruct (back sR); [eauto|discriminate].
Qed.

End C29_33.

(** ** Refutations and examples, over computable scalars *)

From Verif Require Import ExScalar.
Import Model_Object.
Definition st (r : outcome Z) : state Z := match r with Done s | Thrown _ s => s | _ => init end.
Lemma leads_by (s : state Z) h : Forall declared h -> run init h = Done s -> leads init s.
Proof. intros F R. exists h. auto. Qed.

Lemma denotes_by (s : state Z) h a m : run init h = Done s -> tree s a = Some m -> denotes s a m.
Proof. intros R T. apply (denotes_tree [] s a m); auto. apply leads_any_inv. exists h. auto. Qed.

(** 0: R^2, 1: R^3, 2: R^2 x R^3 (with the copies 3 and 4), one point on the product and a sub-point of it. *)
Definition h1 : list (op Z) :=
  [NewLeaf (CRealMag 2 1%Z); NewLeaf (CRealMag 3 1%Z); NewProduct; Multiply 2 0; Multiply 2 1;
   CreatePointVal 2 [1; 2; 3; 4; 5]%Z; SubPointAt 0 1].
Definition s1 : state Z := st (run init h1).
Lemma s1_ok : run init h1 = Done s1. Proof. vm_compute. reflexivity. Qed.
Lemma h1_declared : Forall declared h1. Proof. repeat constructor. Qed.
Lemma s1_leads : leads init s1. Proof. exact (leads_by s1 h1 h1_declared s1_ok). Qed.

(** C29: R^2 = R^3 by the implicit operator= changes a locked manifold. *)
Theorem C29_assign_refuted : exists (s s' : state Z) a b m m', leads init s /\ is_locked s a /\ denotes s a m /\
  step s (AssignMfd a b) = Done s' /\ denotes s' a m' /\ dim m = 2 /\ dim m' = 3.
Proof.
  exists s1, (st (step s1 (AssignMfd 0 1))), 0, 1.
  exists (Leaf (Hdr "R2" 2 2 2) LReal [1; 1]%Z [1; 1]%Z), (Leaf (Hdr "R3" 3 3 3) LReal [1; 1; 1]%Z [1; 1; 1]%Z).
  split; [exact s1_leads|]. split; [eexists; split; vm_compute; reflexivity|].
  split; [apply (denotes_by _ h1); vm_compute; reflexivity|]. split; [vm_compute; reflexivity|].
  split; [apply (denotes_by _ (h1 ++ [AssignMfd 0 1])); vm_compute; reflexivity|]. split; reflexivity.
Qed.
(** C29: the implicit move constructor empties a locked product, which keeps its dimensions. *)
Theorem C29_move_refuted : exists (s s' : state Z) a m m', leads init s /\ is_locked s a /\ denotes s a m /\
  step s (MoveMfd a) = Done s' /\ denotes s' a m' /\ numberOfSubManifolds m = 2 /\ numberOfSubManifolds m' = 0 /\ dim m' = 5.
Proof.
  exists s1, (st (step s1 (MoveMfd 2))), 2.
  exists (Prod (Hdr "R2xR3" 5 5 5) [0; 2; 5] [0; 2; 5] [Leaf (Hdr "R2" 2 2 2) LReal [1; 1]%Z [1; 1]%Z; Leaf (Hdr "R3" 3 3 3) LReal [1; 1; 1]%Z [1; 1; 1]%Z]),
    (Prod (Hdr "R2xR3" 5 5 5) [] [] []).
  split; [exact s1_leads|]. split; [eexists; split; vm_compute; reflexivity|].
  split; [apply (denotes_by _ h1); vm_compute; reflexivity|].
  split; [vm_compute; reflexivity|]. split; [apply (denotes_by _ (h1 ++ [MoveMfd 2])); vm_compute; reflexivity|].
  vm_compute. auto.
Qed.
(** C30: after an assignment the count is the one of the source. *)
Theorem C30_assign_refuted : exists (s s' : state Z) a b o, leads init s /\ step s (AssignMfd a b) = Done s' /\
  get (objs s') a = Some o /\ o_count o = 1%Z /\ points_on s' a = 0 /\ reported (step s' (DestroyMfd a)).
Proof.
  set (h := [NewLeaf (CRealMag 2 1%Z); NewLeaf (CRealMag 2 1%Z); CreatePointVal 0 [1; 2]%Z] : list (op Z)).
  exists (st (run init h)), (st (step (st (run init h)) (AssignMfd 1 0))), 1, 0. eexists. split.
  { apply (leads_by _ h); [repeat constructor|vm_compute; reflexivity]. }
  split; [vm_compute; reflexivity|]. split; [vm_compute; reflexivity|]. split; [reflexivity|]. split; [vm_compute; reflexivity|]. left. eexists _, _. vm_compute. reflexivity.
Qed.
(** C31: after an assignment two constructed manifolds have the same identifier. *)
Theorem C31_assign_refuted : exists (s s' : state Z), leads init s /\ step s (AssignMfd 1 0) = Done s' /\
  has_id s 0 0 /\ has_id s 1 1 /\ has_id s' 0 0 /\ has_id s' 1 0.
Proof.
  set (h := [NewLeaf (CRealMag 2 1%Z); NewLeaf (CRealMag 2 1%Z)] : list (op Z)).
  exists (st (run init h)), (st (step (st (run init h)) (AssignMfd 1 0))). split.
  { apply (leads_by _ h); [repeat constructor|vm_compute; reflexivity]. }
  split; [vm_compute; reflexivity|]. repeat split; eexists; split; vm_compute; reflexivity.
Qed.
(** C33: P.multiply(P) throws, after having changed the name of P and locked it. *)
Theorem C33_self_refuted : exists (s s' : state Z) p e m m', leads init s /\ denotes s p m /\ ~ is_locked s p /\
  step s (Multiply p p) = Thrown e s' /\ denotes s' p m' /\ is_locked s' p /\ name m = "R2"%string /\ name m' = "R2xR2x"%string.
Proof.
  set (h := [NewLeaf (CRealMag 2 1%Z); NewProduct; Multiply 1 0] : list (op Z)).
  exists (st (run init h)), (st (step (st (run init h)) (Multiply 1 1))), 1, EThrow.
  exists (Prod (Hdr "R2" 2 2 2) [0; 2] [0; 2] [Leaf (Hdr "R2" 2 2 2) LReal [1; 1]%Z [1; 1]%Z]),
    (Prod (Hdr "R2xR2x" 2 2 2) [0; 2] [0; 2] [Leaf (Hdr "R2" 2 2 2) LReal [1; 1]%Z [1; 1]%Z]).
  split. { apply (leads_by _ h); [repeat constructor|vm_compute; reflexivity]. }
  split; [apply (denotes_by _ h); vm_compute; reflexivity|].
  split. { intros (o & H & L). vm_compute in H. injection H as <-. discriminate. }
  split; [vm_compute; reflexivity|].
  split; [apply (denotes_by _ (h ++ [Multiply 1 1])); vm_compute; reflexivity|].
  split; [|split; reflexivity]. eexists; split; vm_compute; reflexivity.
Qed.

(** Examples: the hypotheses of the theorems above are met by [s1]. *)
Example ex_C29 : is_locked s1 2 /\ live s1 2 /\ leads s1 (st (step s1 (SetName 2 "robot"))).
Proof.
  split; [eexists; split; vm_compute; reflexivity|]. split; [eexists; vm_compute; reflexivity|]. exists [SetName 2 "robot"%string]. split; [repeat constructor|]. vm_compute. reflexivity.
Qed.
Example ex_C30 : points_on s1 2 = 1 /\ points_on s1 4 = 1 /\ points_on s1 0 = 0 /\ dies_with s1 2 4.
Proof.
  do 3 (split; [vm_compute; reflexivity|]). split.
  - eapply (below_step s1 2); [vm_compute; reflexivity|cbn; auto|constructor].
  - intros b (o & H & No) N B. destruct b as [|[|[|[|[|b]]]]]; vm_compute in H; try congruence.
    + inversion B; subst. vm_compute in H0. injection H0 as <-. destruct H1.
    + inversion B; subst. vm_compute in H0. injection H0 as <-. destruct H1.
    + injection H as <-. apply (No 1). reflexivity.
    + injection H as <-. apply (No 1). reflexivity.
    + destruct b; discriminate.
Qed.
Example ex_C31 : births init h1 = [0; 1; 2]. Proof. vm_compute. reflexivity. Qed.
(** The originals are destroyed, the product survives. *)
Example ex_C32 : own s1 2 /\ exists s', run s1 [DestroyMfd 0; DestroyMfd 1] = Done s' /\ ~ live s' 0 /\ ~ live s' 1.
Proof.
  split; [apply own_mutable; eexists; split; vm_compute; reflexivity|]. eexists. split; [vm_compute; reflexivity|].
  split; intros (o & H); vm_compute in H; discriminate.
Qed.
Example ex_C33 : step s1 (Multiply 2 0) = Thrown EThrow s1 /\ 2 <> 0. Proof. split; [vm_compute; reflexivity|discriminate]. Qed.

Print Assumptions C29_locked_partial.
Print Assumptions C29_refused.
Print Assumptions C29_who_locks.
Print Assumptions C29_assign_refuted.
Print Assumptions C29_move_refuted.
Print Assumptions C30_count_partial.
Print Assumptions C30_destroy_partial.
Print Assumptions C30_destroy_point_partial.
Print Assumptions C30_assign_refuted.
Print Assumptions C31_distinct.
Print Assumptions C31_factor.
Print Assumptions C31_constant_partial.
Print Assumptions C31_assign_refuted.
Print Assumptions C32_alive.
Print Assumptions C32_snapshot.
Print Assumptions C32_multiply.
Print Assumptions C32_no_leak.
Print Assumptions C33_unchanged_partial.
Print Assumptions C33_succeeds_partial.
Print Assumptions C33_self_refuted.
