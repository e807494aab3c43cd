(** What each call does to the manifold objects. *)
From Coq Require Import List Arith Bool ZArith String Lia.
From Verif Require Import Base Scalar Vec Model_Manifold Model_Object Spec Layout Heap ObjTree.
Import ListNotations.

Section Step.
Context {K : Type} {SK : Scalar K}.
Implicit Types (s : state K) (o : obj K) (r : outcome K).

(** The state a call leaves, if the program can go on, satisfies [P]. *)
Definition post r (P : state K -> Prop) : Prop := match r with Done s | Thrown _ s => P s | _ => True end.
Lemma post_weak r (P Q : state K -> Prop) : (forall s, P s -> Q s) -> post r P -> post r Q.
Proof. intros H. destruct r; cbn; auto. Qed.

(** Calls that only touch locks, counts, points and their memory. *)
Definition light s s' : Prop :=
  List.length (objs s') = List.length (objs s) /\ counter s' = counter s /\
  forall a, match get (objs s) a, get (objs s') a with
            | Some o, Some o' => o_hdr o' = o_hdr o /\ o_kind o' = o_kind o /\ o_owner o' = o_owner o /\ o_id o' = o_id o /\
                                 (o_lock o = true -> o_lock o' = true)
            | None, None => True
            | _, _ => False
            end.
Lemma light_refl s : light s s.
Proof. split; auto. split; auto. intros a. destruct (get (objs s) a); auto. Qed.
Lemma light_trans s1 s2 s3 : light s1 s2 -> light s2 s3 -> light s1 s3.
Proof.
  intros (A1 & B1 & C1) (A2 & B2 & C2). split; [congruence|]. split; [congruence|]. intros a. specialize (C1 a). specialize (C2 a).
  destruct (get (objs s1) a), (get (objs s2) a), (get (objs s3) a); try tauto.
  destruct C1 as (?&?&?&?&?), C2 as (?&?&?&?&?). repeat split; try congruence. auto.
Qed.
Lemma light_same s s' : objs s' = objs s -> counter s' = counter s -> light s s'.
Proof. intros E C. split; [congruence|]. split; auto. intros a. rewrite E. destruct (get (objs s) a); auto. Qed.
Lemma light_modify s a f :
  (forall o, o_hdr (f o) = o_hdr o /\ o_kind (f o) = o_kind o /\ o_owner (f o) = o_owner o /\ o_id (f o) = o_id o /\
     (o_lock o = true -> o_lock (f o) = true)) -> light s (modify s a f).
Proof.
  intros H. split; [apply modify_length|]. split; [apply modify_rest|]. intros b. rewrite get_modify.
  destruct (Nat.eqb_spec b a) as [->|N].
  - destruct (get (objs s) a); cbn; auto.
  - destruct (get (objs s) b); auto.
Qed.
Lemma light_lockm s a : light s (lockm s a). Proof. apply light_modify. cbn. auto. Qed.
Lemma light_count s a f : light s (modify s a (with_count f)). Proof. apply light_modify. cbn. auto. Qed.
Lemma light_write s q w : light s (write s q w).
Proof. unfold write. destruct (get (mems s) (p_mem q)); [apply light_same; auto|apply light_refl]. Qed.
Lemma light_get s s' a o : light s s' -> get (objs s) a = Some o -> exists o', get (objs s') a = Some o' /\
  o_hdr o' = o_hdr o /\ o_kind o' = o_kind o /\ o_owner o' = o_owner o /\ o_id o' = o_id o /\ (o_lock o = true -> o_lock o' = true).
Proof. intros (_ & _ & C) H. specialize (C a). rewrite H in C. destruct (get (objs s') a); [eauto|tauto]. Qed.
Lemma light_metas s s' : light s s' -> metas s s'.
Proof.
  intros (A & B & C). split; auto. split; [lia|]. intros a. specialize (C a).
  destruct (get (objs s) a), (get (objs s') a); try tauto. destruct C as (H1 & H2 & H3 & H4 & H5).
  split; [unfold subs_of; rewrite H2; auto|]. auto.
Qed.
Lemma light_evolves s s' : light s s' -> evolves nobody s s'.
Proof.
  intros (A & B & C). constructor; try lia.
  - intros b o' H _. specialize (C b). rewrite H in C. destruct (get (objs s) b) as [o|]; [|tauto]. exists o. unfold mutable_.
    destruct C as (H1 & H2 & -> & H4 & H5). auto 6.
  - intros b o H _ _. specialize (C b). rewrite H in C. destruct (get (objs s') b); [eauto|tauto].
Qed.
Lemma light_inv w s s' : light s s' -> sinv w s -> sinv w s'.
Proof. intros L. apply sinv_meta, light_metas, L. Qed.
Lemma light_tree w s s' a : light s s' -> sinv w s -> tree s' a = tree s a.
Proof.
  intros L I. pose proof (light_inv w s s' L I) as I'. destruct (get (objs s) a) as [o|] eqn:E.
  - apply (tree_frame w w nobody s s'); auto; try (apply light_evolves; auto); try (intros ? []); try (eapply get_lt; eauto).
    destruct (light_get s s' a o L E) as (o' & H & _). eauto.
  - unfold tree. rewrite !tree_of_S, E. destruct L as (_ & _ & C). specialize (C a). rewrite E in C. destruct (get (objs s') a); tauto.
Qed.

Lemma post_lift {A} (x : res A) s k (P : state K -> Prop) : P s -> (forall v, x = Ok v -> post (k v) P) -> post (lift x s k) P.
Proof. intros H1 H2. destruct x as [v|[]]; cbn; auto. Qed.
Lemma post_tree s a k (P : state K -> Prop) : (forall m, tree s a = Some m -> post (k m) P) -> post (with_tree s a k) P.
Proof. intros H. unfold with_tree. destruct (tree s a); cbn; auto. Qed.
Lemma post_bind r k (P Q : state K -> Prop) : post r P -> (forall s, P s -> post (k s) Q) -> (forall s, P s -> Q s) -> post (bind_out r k) Q.
Proof. intros H1 H2 H3. destruct r; cbn in *; auto. Qed.

Lemma make_point_light s a v : post (make_point s a v) (light s).
Proof.
  apply post_tree. intros m _. destruct (0 <? List.length v); [|apply light_refl]. destruct (List.length v =? representationDim m); [|apply light_refl].
  cbn [post]. eapply light_trans; [|apply light_count]. apply light_same; reflexivity.
Qed.
Lemma make_point_light_lock s a v : post (make_point (lockm s a) a v) (light s).
Proof. eapply post_weak; [|apply make_point_light]. intros s' H. eapply light_trans; [apply light_lockm|exact H]. Qed.
Lemma create_point_light s a v : post (create_point s a v) (light s).
Proof. apply post_tree. intros m _. destruct (List.length v =? representationDim m); [apply make_point_light_lock|exact I]. Qed.
Lemma create_point_val_light s a v : post (create_point_val s a v) (light s).
Proof. apply post_tree. intros m _. apply post_lift; [apply light_refl|]. intros [] _; [apply make_point_light_lock|apply light_refl]. Qed.
Lemma get_zero_light s a v : post (get_zero s a v) (light s).
Proof.
  apply post_tree. intros m _. destruct (List.length v =? representationDim m); [|exact I]. cbn zeta.
  apply post_lift; [apply light_lockm|]. intros x _. apply make_point_light_lock.
Qed.
Lemma copy_point_light s p : post (copy_point s p) (light s).
Proof. unfold copy_point. destruct (get (pts s) p) as [q|]; [|exact I]. destruct (value s q); [apply make_point_light|exact I]. Qed.
Lemma add_view_light s q : post (add_view s q) (light s).
Proof.
  unfold add_view. destruct (get (objs s) (p_mfd q)); [|exact I]. cbn [post]. eapply light_trans; [|apply light_count]. apply light_same; reflexivity.
Qed.
Lemma copy_view_light s p : post (copy_view s p) (light s).
Proof. unfold copy_view. destruct (get (pts s) p) as [q|]; [apply add_view_light|exact I]. Qed.
Lemma sub_point_light s p i : post (sub_point s p i) (light s).
Proof.
  unfold sub_point. destruct (get (pts s) p) as [q|]; [|exact I]. apply post_tree. intros m _.
  destruct (get (objs s) (p_mfd q)) as [o|]; [|exact I]. apply post_lift; [apply light_refl|]. intros x _.
  destruct (fst x + snd x <=? p_len q); [apply add_view_light|apply light_refl].
Qed.
Lemma destroy_point_light s p : post (destroy_point s p) (light s).
Proof.
  unfold destroy_point. destruct (get (pts s) p) as [q|]; [|exact I]. destruct (get (objs s) (p_mfd q)) as [o|]; [|exact I].
  destruct (0 <? o_count o)%Z; [|exact I]. cbn [post]. eapply light_trans; [apply (light_count s (p_mfd q))|]. apply light_same; destruct (p_owner q); reflexivity.
Qed.
Lemma write_coef_light s p k x : post (write_coef s p k x) (light s).
Proof.
  unfold write_coef. destruct (get (pts s) p) as [q|]; [|exact I]. destruct (value s q) as [v|]; [|exact I].
  destruct (k <? p_len q); [apply light_write|apply light_refl].
Qed.
Lemma increment_light s p v : post (increment s p v) (light s).
Proof.
  unfold increment. destruct (get (pts s) p) as [q|]; [|exact I]. destruct (p_owner q); [|exact I]. destruct (value s q) as [x|]; [|exact I].
  apply post_tree. intros m _. apply post_lift; [apply light_refl|]. intros y _. apply light_write.
Qed.
Lemma assign_point_light s p p' : post (assign_point s p p') (light s).
Proof.
  unfold assign_point. destruct (get (pts s) p) as [q|]; [|exact I]. destruct (get (pts s) p') as [q'|]; [|exact I].
  destruct (p_owner q && p_owner q'); [|exact I]. apply post_tree. intros m _. apply post_tree. intros m' _.
  destruct (dim m =? dim m'); [|apply light_refl]. destruct (representationDim m =? representationDim m'); [|apply light_refl].
  destruct (value s q); [|exact I]. destruct (value s q'); [|exact I]. apply post_lift; [apply light_refl|]. intros y _. apply light_write.
Qed.
Lemma finally_light s r t : post r (light s) -> post (finally r t) (light s).
Proof.
  intros H. destruct r; cbn in *; auto.
  - eapply post_weak; [|apply destroy_point_light]. intros s' L. eapply light_trans; eauto.
  - pose proof (destroy_point_light s0 t) as D. destruct (destroy_point s0 t); cbn in *; auto.
    + eapply light_trans; eauto. + eapply light_trans; eauto.
Qed.
Lemma plus_light s p v : post (plus s p v) (light s).
Proof.
  unfold plus. destruct (get (pts s) p) as [q|]; [|exact I]. destruct (p_owner q); [|exact I]. destruct (value s q) as [x|]; [|exact I].
  cbn zeta. eapply post_bind; [apply create_point_val_light| |auto]. intros s1 L1. apply finally_light.
  eapply post_bind; [eapply post_weak; [|apply increment_light]; intros s2 L2; eapply light_trans; [exact L1|exact L2]| |auto].
  intros s2 L2. eapply post_weak; [|apply copy_point_light]. intros s3 L3. eapply light_trans; eauto.
Qed.
Lemma retract_light s p v : post (retract_point s p v) (light s).
Proof.
  unfold retract_point. destruct (get (pts s) p) as [q|]; [|exact I]. destruct (p_owner q); [|exact I]. destruct (value s q) as [x|]; [|exact I].
  apply post_tree. intros m _. apply post_lift; [apply light_refl|]. intros y _. apply create_point_val_light.
Qed.

Definition point_op (o : op K) : bool :=
  match o with
  | LockMfd _ | CreatePoint _ _ | CreatePointVal _ _ | GetZero _ _ | CopyPoint _ | CopyView _ | SubPointAt _ _ | DestroyPoint _
  | Write _ _ _ | Increment _ _ | AssignPoint _ _ | Plus _ _ | Retract _ _ => true
  | _ => false
  end.
Lemma point_op_light s (o : op K) : point_op o = true -> post (step s o) (light s).
Proof.
  destruct o; cbn [point_op step]; try discriminate; intros _.
  - destruct (get (objs s) a); [apply light_lockm|exact I].
  - apply create_point_light.
  - apply create_point_val_light.
  - apply get_zero_light.
  - apply copy_point_light.
  - apply copy_view_light.
  - apply sub_point_light.
  - apply destroy_point_light.
  - apply write_coef_light.
  - apply increment_light.
  - apply assign_point_light.
  - apply plus_light.
  - apply retract_light.
Qed.

(** ** Calls on manifold objects *)

(** The calls of the library's own interface, that is all but the implicitly generated assignment and move. *)
Definition tame (o : op K) : Prop := match o with AssignMfd _ _ | MoveMfd _ => False | _ => True end.
(** The object a call is meant to modify or destroy. *)
Definition touched (o : op K) : nat -> Prop :=
  match o with SetName a _ | SetMag a _ _ | Multiply a _ | DestroyMfd a | AssignMfd a _ | MoveMfd a => eq a | _ => nobody end.

Lemma copy_inv w s s0 a o lk ow : sinv w s -> get (objs s0) a = Some o -> (forall c, In c (subs_of o) -> is_shared s c) ->
  o_id o < counter s -> (ow = Auto \/ lk = true) -> (forall n, ow = Shared n -> n = 1) ->
  sinv (match ow with Shared _ => [List.length (objs s)] | _ => [] end ++ w) (copy_obj s o lk ow).
Proof.
  intros I Ha Hs Hid Hl H1. unfold copy_obj. pose proof (retain_inv (subs_of o) w s I Hs) as I1.
  destruct (retain_rest (subs_of o) s) as (_ & _ & C & L). rewrite <- L.
  apply (add_inv w (retain s (subs_of o)) (Obj (o_hdr o) (o_kind o) lk (o_id o) 0 ow)); cbn; auto; [lia|]. destruct Hl as [->|]; auto.
Qed.
Lemma copy_evolves s o lk ow : evolves nobody s (copy_obj s o lk ow).
Proof. eapply evolves_trans; [apply evolves_retain|apply evolves_add]. Qed.

(** The tree of a fresh copy. *)
Lemma copy_tree w w' ex s s' a o c oc : sinv w s -> sinv w' s' -> evolves ex s s' -> (forall b, ex b -> b < List.length (objs s) -> ~ is_shared s' b) ->
  get (objs s) a = Some o -> get (objs s') c = Some oc -> o_hdr oc = o_hdr o -> o_kind oc = o_kind o -> tree s' c = tree s a.
Proof.
  intros I I' Ev Hex Ha Hc Eh Ek. rewrite (tree_unfold w s a o I Ha), (tree_unfold w' s' c oc I' Hc). unfold assemble. rewrite Eh, Ek.
  replace (subs_of oc) with (subs_of o) by (unfold subs_of; rewrite Ek; auto).
  rewrite (mapM_ext (tree s') (tree s)); auto. intros x Hx.
  assert (Sx : is_shared s' x). { apply (i_closed _ _ I' c oc Hc). unfold subs_of. rewrite Ek. exact Hx. }
  assert (Lx : x < List.length (objs s)) by (apply shared_lt, (i_closed _ _ I a o Ha x Hx)).
  apply (tree_frame w w' ex s s'); auto.
  - intros X. exact (Hex x X Lx Sx).
  - destruct Sx as (ox & k & X & _). eauto.
Qed.

Lemma evolves_not_shared ex s s' b o : evolves ex s s' -> get (objs s) b = Some o -> mutable_ o = true -> ~ is_shared s' b.
Proof.
  intros Ev H M (o' & n & H' & Ho). destruct (e_old _ _ _ Ev b o' H') as (o1 & H1 & _ & _ & E & _); [eapply get_lt; eauto|].
  assert (o1 = o) by congruence. subst. rewrite M in E. unfold mutable_ in E. rewrite Ho in E. discriminate.
Qed.

Definition step_ok (o : op K) s s' : Prop := sinv [] s' /\ evolves (touched o) s s' /\
  (forall b, touched o b -> ~ is_shared s' b).

Lemma new_leaf_post s c : sinv [] s -> post (new_leaf s c) (fun s' => sinv [] s' /\ evolves nobody s s').
Proof.
  intros I. unfold new_leaf. destruct (run_ctor c) as [[h l a b|]|e] eqn:E; cbn [post]; auto.
  - split; [|eapply evolves_trans; [apply evolves_add|apply evolves_bump]].
    set (ob := Obj h (KLeaf l a b) false (counter s) 0 Auto).
    assert (B : sinv [] (bump s)) by (apply (sinv_meta _ s); auto; apply metas_same; cbn; auto).
    pose proof (add_inv [] (bump s) ob) as X. cbn in X. apply X; auto. discriminate.
  - destruct (base_ok c); [|split; [auto|apply evolves_refl]]. split; [|apply evolves_bump]. apply (sinv_meta _ s); auto. apply metas_same; cbn; auto.
Qed.
Lemma new_product_post s : sinv [] s -> post (new_product s) (fun s' => sinv [] s' /\ evolves nobody s s').
Proof.
  intros I. unfold new_product. cbn [post]. split; [|eapply evolves_trans; [apply evolves_add|apply evolves_bump]].
  set (ob := Obj (Hdr "" 0 0 0) (KProd [0] [0] []) false (counter s) 0 Auto).
  assert (B : sinv [] (bump s)) by (apply (sinv_meta _ s); auto; apply metas_same; cbn; auto).
  pose proof (add_inv [] (bump s) ob) as X. cbn in X. apply X; auto. discriminate.
Qed.
Lemma copy_mfd_post s a : sinv [] s -> post (copy_mfd s a) (fun s' => sinv [] s' /\ evolves nobody s s').
Proof.
  intros I. unfold copy_mfd. destruct (get (objs s) a) as [o|] eqn:E; [|exact Logic.I]. cbn [post]. split; [|apply copy_evolves].
  apply (copy_inv [] s s a o (o_lock o) Auto); auto; try discriminate.
  - apply (i_closed _ _ I a o E). - apply (i_id _ _ I a o E).
Qed.
Lemma get_new_copy_post s a : sinv [] s -> post (get_new_copy s a Held) (fun s' => sinv [] s' /\ evolves nobody s s').
Proof.
  intros I. unfold get_new_copy. destruct (get (objs s) a) as [o|] eqn:E; [|exact Logic.I]. cbn [post].
  split; [|eapply evolves_trans; [apply evolves_lockm|apply copy_evolves]].
  apply (copy_inv [] (lockm s a) s a o true Held); auto; try discriminate.
  - apply (light_inv _ s); auto. apply light_lockm.
  - intros c Hc. apply (metas_shared s); [apply metas_lockm|]. apply (i_closed _ _ I a o E c Hc).
  - unfold lockm. rewrite (proj2 (proj2 (modify_rest s a _))). apply (i_id _ _ I a o E).
Qed.
Lemma set_name_post s a t : sinv [] s -> post (set_name s a t) (fun s' => sinv [] s' /\ evolves (eq a) s s').
Proof.
  intros I. unfold set_name. destruct (get (objs s) a) as [o|] eqn:E; [|exact Logic.I]. destruct (mutable_ o); [|exact Logic.I]. cbn [post]. split.
  - apply (sinv_meta _ s); auto. apply metas_modify. intros x _. repeat split; auto.
  - apply evolves_modify. intros x _. cbn. intuition.
Qed.
Lemma set_mag_post s a v b : sinv [] s -> post (set_mag s a v b) (fun s' => sinv [] s' /\ evolves (eq a) s s').
Proof.
  intros I. unfold set_mag. destruct (get (objs s) a) as [o|] eqn:E; [|exact Logic.I]. destruct (mutable_ o); [|exact Logic.I].
  destruct (o_kind o) as [l typ tru|] eqn:Ek; [|exact Logic.I].
  destruct (o_lock o); [split; [auto|apply evolves_refl]|]. destruct (mag_ok l v); [|split; [auto|apply evolves_refl]]. cbn [post]. split.
  - apply (sinv_meta _ s); auto. apply metas_modify. intros x Hx. assert (x = o) by congruence. subst x. repeat split; auto.
    unfold subs_of. rewrite Ek. destruct b; reflexivity.
  - apply evolves_modify. intros x _. cbn. intuition.
Qed.
Lemma destroy_post s a : sinv [] s -> post (destroy_mfd s a) (fun s' => sinv [] s' /\ evolves (eq a) s s').
Proof.
  intros I. unfold destroy_mfd. destruct (get (objs s) a) as [o|] eqn:E; [|exact Logic.I]. destruct (mutable_ o) eqn:M; [|exact Logic.I].
  destruct (mutable_slots [] s a o I E M) as [Z N]. pose proof (remove_inv [] s a o I E Z N) as I1. rewrite app_nil_r in I1.
  destruct (drop_inv _ _ I1) as [->|(s' & -> & I2 & Sh)]; [exact Logic.I|].
  assert (G : sinv [] s' /\ evolves (eq a) s s').
  { split; auto. eapply evolves_trans; [apply evolves_remove|]. apply (evolves_weak nobody); [intros ? []|]. apply evolves_shrinks; auto. }
  destruct (o_count o =? 0)%Z; [exact G|]. destruct (o_owner o); cbn; auto.
Qed.

(** The factors appended by multiply: the state just before the product takes the copy. *)
Definition mult_mid s p m : state K :=
  let s1 := lockm s m in
  let s2 := match get (objs s) p with Some op => if h_dim (o_hdr op) =? 0 then s1 else append_name s1 p "x" | None => s1 end in
  append_name s2 p (name_of s2 m).
Lemma mult_mid_metas s p m : metas s (mult_mid s p m) /\ evolves (eq p) s (mult_mid s p m).
Proof.
  unfold mult_mid. set (s2 := match get (objs s) p with Some op => _ | None => _ end).
  assert (H : metas s s2 /\ evolves (eq p) s s2).
  { unfold s2. assert (E : evolves (eq p) s (lockm s m)) by (apply (evolves_weak nobody); [intros ? []|apply evolves_lockm]).
    destruct (get (objs s) p) as [op|]; [destruct (h_dim (o_hdr op) =? 0)|]; try (split; [apply metas_lockm|exact E]).
    split; [eapply metas_trans; [apply metas_lockm|apply metas_append]|eapply evolves_trans; [exact E|apply evolves_append]]. }
  destruct H as [H1 H2]. split; [eapply metas_trans; [exact H1|apply metas_append]|eapply evolves_trans; [exact H2|apply evolves_append]].
Qed.
Lemma multiply_obj_mid s p m op om sT sR l : get (objs s) p = Some op -> get (objs s) m = Some om -> o_kind op = KProd sT sR l ->
  mutable_ op = true -> o_lock op = false ->
  multiply_obj s p m =
    (let s3 := mult_mid s p m in
     if locked s3 p then Thrown EThrow s3 else
     match back sT, back sR with
     | Ok bT, Ok bR =>
        let hm := o_hdr om in
        Done (modify (copy_obj s3 om true (Shared 1)) p (fun o =>
                let h := o_hdr o in
                with_kind (KProd (sT ++ [bT + h_tdim hm]) (sR ++ [bR + h_rdim hm]) (l ++ [List.length (objs s3)]))
                  (with_hdr (Hdr (h_name h) (h_dim h + h_dim hm) (h_tdim h + h_tdim hm) (h_rdim h + h_rdim hm)) o)))
     | _, _ => Undefined
     end).
Proof. intros Hp Hm Hk M L. unfold multiply_obj, mult_mid. rewrite Hp, Hm, Hk, M, L. reflexivity. Qed.
Lemma mid_get s p m op om : get (objs s) p = Some op -> get (objs s) m = Some om ->
  exists n, get (objs (mult_mid s p m)) p = Some (with_hdr (hname (o_hdr op) n) (if p =? m then with_lock op else op)) /\
    (p <> m -> n = if h_dim (o_hdr op) =? 0 then (h_name (o_hdr op) ++ h_name (o_hdr om))%string else ((h_name (o_hdr op) ++ "x") ++ h_name (o_hdr om))%string).
Proof.
  intros Hp Hm. unfold mult_mid. rewrite Hp. unfold append_name, lockm, name_of. destruct (Nat.eqb_spec p m) as [->|N].
  - assert (op = om) by congruence. subst.
    destruct (h_dim (o_hdr om) =? 0); rewrite !get_modify, !Nat.eqb_refl, Hm; cbn; eexists; (split; [reflexivity|tauto]).
  - assert (E1 : (m =? p) = false) by (apply Nat.eqb_neq; auto). assert (E2 : (p =? m) = false) by (apply Nat.eqb_neq; auto).
    destruct (h_dim (o_hdr op) =? 0); rewrite !get_modify, !Nat.eqb_refl, ?E1, ?E2, Hp, Hm; cbn; eexists; (split; [reflexivity|auto]).
Qed.
Lemma multiply_post s p m : sinv [] s -> post (multiply_obj s p m) (fun s' => sinv [] s' /\ evolves (eq p) s s').
Proof.
  intros I. destruct (get (objs s) p) as [op|] eqn:Hp; [|unfold multiply_obj; rewrite Hp; exact Logic.I].
  destruct (get (objs s) m) as [om|] eqn:Hm; [|unfold multiply_obj; rewrite Hp, Hm; exact Logic.I].
  destruct (o_kind op) as [|sT sR l] eqn:Hk; [unfold multiply_obj; rewrite Hp, Hm, Hk; exact Logic.I|].
  destruct (mutable_ op) eqn:M; [|unfold multiply_obj; rewrite Hp, Hm, Hk, M; exact Logic.I].
  destruct (o_lock op) eqn:L; [unfold multiply_obj; rewrite Hp, Hm, Hk, M, L; split; [auto|apply evolves_refl]|].
  rewrite (multiply_obj_mid s p m op om sT sR l Hp Hm Hk M L). cbn zeta. set (s3 := mult_mid s p m).
  destruct (mult_mid_metas s p m) as [Me Ev]. fold s3 in Me, Ev. assert (I3 : sinv [] s3) by (apply (sinv_meta _ s); auto).
  destruct (locked s3 p) eqn:Lk; [split; auto|].
  destruct (back sT) as [bT|]; [|exact Logic.I]. destruct (back sR) as [bR|]; [|exact Logic.I]. cbn [post].
  assert (I4 : sinv [List.length (objs s3)] (copy_obj s3 om true (Shared 1))).
  { apply (copy_inv [] s3 s m om true (Shared 1)); auto.
    - intros c Hc. apply (metas_shared s); auto. apply (i_closed _ _ I m om Hm c Hc).
    - destruct Me as (_ & C & _). pose proof (i_id _ _ I m om Hm). lia.
    - intros n E. congruence. }
  destruct (mid_get s p m op om Hp Hm) as (n & Gp & _). fold s3 in Gp.
  set (op3 := with_hdr _ _) in Gp. assert (S3 : subs_of op3 = l). { unfold op3, subs_of. destruct (p =? m); cbn; rewrite Hk; auto. }
  assert (M3 : mutable_ op3 = true) by (unfold op3; destruct (p =? m); exact M).
  assert (Gc : get (objs (copy_obj s3 om true (Shared 1))) p = Some op3).
  { unfold copy_obj. rewrite get_add. destruct (retain_rest (subs_of om) s3) as (_ & _ & _ & Len). rewrite Len.
    destruct (Nat.eqb_spec p (List.length (objs s3))) as [E|_]; [apply get_lt in Gp; lia|].
    destruct (retain_get (subs_of om) s3 p) as (w' & E). destruct (E op3 Gp) as [E1 E2]. rewrite E1, E2 by auto. destruct op3; reflexivity. }
  split.
  - eapply give_inv; [exact I4|exact Gc|auto| | | |]; cbn; try reflexivity. rewrite S3. reflexivity.
  - eapply evolves_trans; [exact Ev|]. eapply evolves_trans; [apply (evolves_weak nobody); [intros ? []|apply copy_evolves]|].
    apply evolves_modify. intros x _. cbn. intuition.
Qed.

Lemma touched_live s (o : op K) b : touched o b -> post (step s o) (fun _ => exists ob, get (objs s) b = Some ob /\ mutable_ ob = true).
Proof.
  destruct o; cbn [touched]; try (intros X; exfalso; exact X); intros <-; cbn [step].
  - unfold set_name. destruct (get (objs s) a) as [ob|] eqn:E; [|exact Logic.I]. destruct (mutable_ ob) eqn:M; [cbn; eauto|exact Logic.I].
  - unfold set_mag. destruct (get (objs s) a) as [ob|] eqn:E; [|exact Logic.I]. destruct (mutable_ ob) eqn:M; [|exact Logic.I].
    destruct (o_kind ob); [|exact Logic.I]. destruct (o_lock ob); [cbn; eauto|]. destruct (mag_ok l v); cbn; eauto.
  - unfold multiply_obj. destruct (get (objs s) p) as [ob|] eqn:E; [|exact Logic.I]. destruct (get (objs s) m) as [om|]; [|exact Logic.I].
    destruct (o_kind ob); [exact Logic.I|]. destruct (mutable_ ob) eqn:M; [|exact Logic.I]. destruct (o_lock ob); [cbn; eauto|]. cbn zeta.
    match goal with |- post (if ?b then _ else _) _ => destruct b end; [cbn; eauto|]. destruct (back startT), (back startR); cbn; eauto.
  - unfold destroy_mfd. destruct (get (objs s) a) as [ob|] eqn:E; [|exact Logic.I]. destruct (mutable_ ob) eqn:M; [|exact Logic.I].
    destruct (drop (remove s a) (subs_of ob)); cbn; eauto. destruct (o_count ob =? 0)%Z; cbn; eauto. destruct (o_owner ob); cbn; eauto.
  - unfold assign_mfd. destruct (get (objs s) a) as [ob|] eqn:E; [|exact Logic.I]. destruct (get (objs s) b0) as [om|]; [|exact Logic.I].
    destruct (mutable_ ob) eqn:M; cbn [andb]; [|exact Logic.I]. destruct (same_class (o_kind ob) (o_kind om)); [|exact Logic.I]. cbn zeta.
    match goal with |- post ?r _ => destruct r end; cbn; eauto.
  - unfold move_mfd. destruct (get (objs s) a) as [ob|] eqn:E; [|exact Logic.I]. destruct (o_kind ob); [exact Logic.I|].
    destruct (mutable_ ob) eqn:M; [cbn; eauto|exact Logic.I].
Qed.

Lemma step_inv s (o : op K) : sinv [] s -> tame o -> post (step s o) (step_ok o s).
Proof.
  intros I T.
  assert (X : post (step s o) (fun s' => sinv [] s' /\ evolves (touched o) s s')).
  { destruct (point_op o) eqn:Ep.
    - eapply post_weak; [|apply point_op_light; auto]. intros s' L. split; [eapply light_inv; eauto|].
      apply (evolves_weak nobody); [intros ? []|apply light_evolves; auto].
    - destruct o; try discriminate; cbn [step touched]; try (exfalso; exact T).
      + apply new_leaf_post; auto.
      + apply new_product_post; auto.
      + apply copy_mfd_post; auto.
      + apply get_new_copy_post; auto.
      + apply set_name_post; auto.
      + apply set_mag_post; auto.
      + apply multiply_post; auto.
      + apply destroy_post; auto. }
  pose proof (touched_live s o) as Y. destruct (step s o) as [s'|e s'| | |]; cbn in *; auto.
  - destruct X as [X1 X2]. split; auto. split; auto. intros b Hb. destruct (Y b Hb) as (ob & H & M). eapply evolves_not_shared; eauto.
  - destruct X as [X1 X2]. split; auto. split; auto. intros b Hb. destruct (Y b Hb) as (ob & H & M). eapply evolves_not_shared; eauto.
Qed.

(** The tree of every object the call is not meant to modify is unchanged. *)
Lemma step_frame s (o : op K) s' a : sinv [] s -> step_ok o s s' -> ~ touched o a -> a < List.length (objs s) ->
  (exists oa, get (objs s') a = Some oa) -> tree s' a = tree s a.
Proof. intros I (I' & Ev & Ns) Na La H. apply (tree_frame [] [] (touched o) s s'); auto. Qed.

(** ** Trees of the objects a call creates or modifies *)

Lemma modify_tree s a o f : sinv [] s -> get (objs s) a = Some o -> metas s (modify s a f) -> evolves (eq a) s (modify s a f) ->
  mutable_ o = true -> tree (modify s a f) a = assemble (f o) (mapM (tree s) (subs_of (f o))).
Proof.
  intros I H Me Ev M. assert (I' : sinv [] (modify s a f)) by (apply (sinv_meta _ s); auto).
  assert (Ha : get (objs (modify s a f)) a = Some (f o)) by (rewrite get_modify, Nat.eqb_refl, H; reflexivity).
  rewrite (tree_unfold [] _ a _ I' Ha). f_equal. apply mapM_ext. intros c Hc.
  pose proof (i_closed _ _ I' a _ Ha c Hc) as Sc.
  assert (N : a <> c). { intros <-. exact (evolves_not_shared _ _ _ a o Ev H M Sc). }
  apply (tree_frame [] [] (eq a) s); auto.
  - intros b <- _. exact (evolves_not_shared _ _ _ a o Ev H M).
  - apply shared_lt in Sc. rewrite modify_length in Sc. auto.
  - destruct Sc as (oc & k & X & _). eauto.
Qed.
Lemma set_name_tree s a t s' : sinv [] s -> set_name s a t = Done s' ->
  exists m, tree s a = Some m /\ tree s' a = Some (rename m t).
Proof.
  intros I H. unfold set_name in H. destruct (get (objs s) a) as [o|] eqn:E; [|discriminate]. destruct (mutable_ o) eqn:M; [|discriminate].
  injection H as <-. destruct (proj1 (tree_live [] s a I)) as (m & Em); [eauto|]. exists m. split; auto.
  rewrite (modify_tree s a o); auto.
  - rewrite (tree_unfold [] s a o I E) in Em. unfold assemble, subs_of in *. cbn. destruct (o_kind o) as [l typ tru|sT sR l].
    + injection Em as <-. reflexivity.
    + cbn [kind_subs] in *. destruct (mapM (tree s) l); [|discriminate]. injection Em as <-. reflexivity.
  - apply metas_modify. intros x _. repeat split; auto.
  - apply evolves_modify. intros x _. cbn. intuition.
Qed.
Lemma set_mag_tree s a v b s' : sinv [] s -> set_mag s a v b = Done s' ->
  exists m m', tree s a = Some m /\ tree s' a = Some m' /\ (if b then setTrustMagnitude m v else setTypicalMagnitude m v) = Ok m'.
Proof.
  intros I H. unfold set_mag in H. destruct (get (objs s) a) as [o|] eqn:E; [|discriminate]. destruct (mutable_ o) eqn:M; [|discriminate].
  destruct (o_kind o) as [l typ tru|] eqn:Ek; [|discriminate]. destruct (o_lock o); [discriminate|]. destruct (mag_ok l v) eqn:G; [|discriminate].
  injection H as <-. rewrite (tree_unfold [] s a o I E). unfold assemble at 1. rewrite Ek. exists (Leaf (o_hdr o) l typ tru), (if b then Leaf (o_hdr o) l typ v else Leaf (o_hdr o) l v tru). split; [reflexivity|].
  rewrite (modify_tree s a o); auto.
  - unfold assemble. cbn. destruct b; (split; [reflexivity|]); unfold setTrustMagnitude, setTypicalMagnitude; rewrite G; reflexivity.
  - apply metas_modify. intros x Hx. assert (x = o) by congruence. subst x. repeat split; auto. unfold subs_of. rewrite Ek. destruct b; reflexivity.
  - apply evolves_modify. intros x _. cbn. intuition.
Qed.
(** multiply on objects is multiply on trees. *)
Lemma multiply_tree s p m s' : sinv [] s -> multiply_obj s p m = Done s' ->
  exists mp mm mp', tree s p = Some mp /\ tree s m = Some mm /\ multiply mp mm = Ok mp' /\ tree s' p = Some mp' /\
    exists op' om oc, get (objs s') p = Some op' /\ get (objs s) m = Some om /\
      subs_of op' = match get (objs s) p with Some o => subs_of o | None => [] end ++ [List.length (objs s)] /\
      get (objs s') (List.length (objs s)) = Some oc /\ o_id oc = o_id om /\ o_lock oc = true /\ o_count oc = 0%Z /\ o_owner oc = Shared 1 /\
      tree s' (List.length (objs s)) = Some mm /\ p <> m /\ List.length (objs s') = S (List.length (objs s)).
Proof.
  intros I H. pose proof (multiply_post s p m I) as P. rewrite H in P. destruct P as [I' Ev].
  destruct (get (objs s) p) as [op|] eqn:Hp; [|unfold multiply_obj in H; rewrite Hp in H; discriminate].
  destruct (get (objs s) m) as [om|] eqn:Hm; [|unfold multiply_obj in H; rewrite Hp, Hm in H; discriminate].
  destruct (o_kind op) as [|sT sR l] eqn:Hk; [unfold multiply_obj in H; rewrite Hp, Hm, Hk in H; discriminate|].
  destruct (mutable_ op) eqn:M; [|unfold multiply_obj in H; rewrite Hp, Hm, Hk, M in H; discriminate].
  destruct (o_lock op) eqn:L; [unfold multiply_obj in H; rewrite Hp, Hm, Hk, M, L in H; discriminate|].
  rewrite (multiply_obj_mid s p m op om sT sR l Hp Hm Hk M L) in H. cbn zeta in H. set (s3 := mult_mid s p m) in H.
  destruct (mid_get s p m op om Hp Hm) as (n & Gp & En). fold s3 in Gp.
  assert (N : p <> m).
  { intros ->. rewrite Nat.eqb_refl in Gp. unfold locked in H. rewrite Gp in H. discriminate. }
  specialize (En N). destruct (Nat.eqb_spec p m); [congruence|]. set (op3 := with_hdr (hname (o_hdr op) n) op) in Gp.
  destruct (locked s3 p); [discriminate|]. destruct (back sT) as [bT|] eqn:BT; [|discriminate]. destruct (back sR) as [bR|] eqn:BR; [|discriminate].
  injection H as Hs'. destruct (mult_mid_metas s p m) as [(Len & _ & _) _]. fold s3 in Len.
  destruct (retain_rest (subs_of om) s3) as (_ & _ & _ & Len2).
  assert (Gc : get (objs (copy_obj s3 om true (Shared 1))) p = Some op3).
  { unfold copy_obj. rewrite get_add, Len2.
    destruct (Nat.eqb_spec p (List.length (objs s3))) as [E|_]; [apply get_lt in Gp; lia|].
    destruct (retain_get (subs_of om) s3 p) as (w' & E). destruct (E op3 Gp) as [E1 E2]. rewrite E1, E2 by auto. destruct op3; reflexivity. }
  set (op' := with_kind (KProd (sT ++ [bT + h_tdim (o_hdr om)]) (sR ++ [bR + h_rdim (o_hdr om)]) (l ++ [List.length (objs s3)]))
     (with_hdr (Hdr n (h_dim (o_hdr op) + h_dim (o_hdr om)) (h_tdim (o_hdr op) + h_tdim (o_hdr om)) (h_rdim (o_hdr op) + h_rdim (o_hdr om))) op3)).
  assert (Gp' : get (objs s') p = Some op') by (subst s'; rewrite get_modify, Nat.eqb_refl, Gc; reflexivity).
  set (oc := Obj (o_hdr om) (o_kind om) true (o_id om) 0 (Shared 1)).
  assert (Gc' : get (objs s') (List.length (objs s)) = Some oc).
  { subst s'. rewrite get_modify. destruct (Nat.eqb_spec (List.length (objs s)) p) as [E|_]; [apply get_lt in Hp; lia|].
    unfold copy_obj. rewrite get_add, Len2, Len, Nat.eqb_refl. reflexivity. }
  destruct (proj1 (tree_live [] s p I)) as (mp & Emp); [eauto|]. destruct (proj1 (tree_live [] s m I)) as (mm & Emm); [eauto|].
  assert (Nsh : forall b, p = b -> b < List.length (objs s) -> ~ is_shared s' b).
  { intros b <- _. exact (evolves_not_shared _ _ _ p op Ev Hp M). }
  assert (Tc : tree s' (List.length (objs s)) = Some mm).
  { rewrite <- Emm. apply (copy_tree [] [] (eq p) s s' m om _ oc); auto. }
  pose proof Emp as Emp2. rewrite (tree_unfold [] s p op I Hp) in Emp2. unfold assemble in Emp2. rewrite Hk in Emp2.
  replace (subs_of op) with l in Emp2 by (unfold subs_of; rewrite Hk; auto).
  destruct (mapM (tree s) l) as [ms|] eqn:Ems; [|discriminate]. injection Emp2 as <-.
  assert (Ems' : mapM (tree s') l = Some ms).
  { rewrite <- Ems. apply mapM_ext. intros c Hc. assert (Sc : is_shared s c) by (apply (i_closed _ _ I p op Hp); unfold subs_of; rewrite Hk; auto).
    assert (Sc' : is_shared s' c). { apply (i_closed _ _ I' p op' Gp'). unfold op', subs_of. cbn. apply in_or_app. auto. }
    apply (tree_frame [] [] (eq p) s s'); auto.
    - intros <-. destruct Sc as (x & k & X & Y). assert (x = op) by congruence. subst x. unfold mutable_ in M. rewrite Y in M. discriminate.
    - apply shared_lt; auto.
    - destruct Sc' as (x & k & X & _). eauto. }
  assert (Hmm : hdr_of mm = o_hdr om).
  { rewrite (tree_unfold [] s m om I Hm) in Emm. unfold assemble in Emm. destruct (o_kind om); [injection Emm as <-; auto|].
    destruct (mapM (tree s) (subs_of om)); [injection Emm as <-; auto|discriminate]. }
  exists (Prod (o_hdr op) sT sR ms), mm. eexists. split; auto. split; auto. split; [|split].
  - unfold multiply. rewrite BT, BR. cbn [bind]. reflexivity.
  - rewrite (tree_unfold [] s' p op' I' Gp'). unfold assemble, op', subs_of. cbn [o_kind with_kind kind_subs o_hdr with_hdr].
    rewrite mapM_app, Ems', <- Len, Tc. unfold name, dim, tangentDim, representationDim. rewrite Hmm, En. destruct (h_dim (o_hdr op) =? 0); reflexivity.
  - exists op', om, oc. split; auto. split; auto. split; [unfold op', subs_of; cbn; rewrite Hk, <- Len; reflexivity|]. split; auto. split; [reflexivity|].
    do 3 (split; [reflexivity|]). split; auto. split; auto.
    subst s'. rewrite modify_length. unfold copy_obj. cbn. rewrite app_length, Len2, <- Len. cbn. lia.
Qed.

(** ** Every live object stands for a manifold of the value layer *)
Definition binv s : Prop := forall a o, get (objs s) a = Some o -> exists m, tree s a = Some m /\ built m.

Lemma get_bump s : objs (bump s) = objs s. Proof. reflexivity. Qed.
Lemma step_built s (o : op K) : sinv [] s -> binv s -> tame o -> post (step s o) binv.
Proof.
  intros I B T. pose proof (step_inv s o I T) as P.
  assert (F : forall s', step_ok o s s' -> (forall a oa, get (objs s') a = Some oa -> (touched o a \/ List.length (objs s) <= a) -> exists m, tree s' a = Some m /\ built m) -> binv s').
  { intros s' Ok H a oa Ha. destruct (Nat.lt_ge_cases a (List.length (objs s))) as [L|L]; [|eapply H; eauto].
    assert (D : touched o a \/ ~ touched o a).
    { destruct o; cbn [touched]; try (right; intros X; exact X); match goal with |- ?x = a \/ _ => destruct (Nat.eq_dec x a); auto end. }
    destruct D as [D|D]; [eapply H; eauto|]. rewrite (step_frame s o s' a I Ok D L) by eauto.
    destruct Ok as (_ & Ev & _). destruct (e_old _ _ _ Ev a oa Ha L) as (o0 & H0 & _). eauto. }
  assert (FP : point_op o = true -> post (step s o) binv).
  { intros Ep. pose proof (point_op_light s o Ep) as Q. eapply post_weak; [|exact Q]. intros s' L a oa Ha. rewrite (light_tree [] s s' a L I).
    destruct L as (_ & _ & C). specialize (C a). rewrite Ha in C. destruct (get (objs s) a) as [o0|] eqn:E0; [eauto|tauto]. }
  destruct o; try (apply FP; reflexivity); clear FP; try (exfalso; exact T).
  - (* NewLeaf *) cbn [step] in *. unfold new_leaf in *. destruct (run_ctor c) as [[h l a b|]|e] eqn:E; cbn [post] in *; auto.
    + apply (F _ P). intros x ox Hx [[]|L]. destruct P as (I' & _). rewrite (tree_unfold [] _ x ox I' Hx). cbn [objs bump] in Hx. rewrite get_add in Hx.
      destruct (Nat.eqb_spec x (List.length (objs s))) as [->|N]; [|apply get_lt in Hx; lia]. injection Hx as <-. cbn. eexists. split; [reflexivity|].
      destruct c; cbn [run_ctor] in E; [eapply built_real|eapply built_real_mag|eapply built_s2|eapply built_so3]; eauto.
    + apply (F _ P). intros x ox Hx [[]|L]. exfalso. destruct (base_ok c); apply get_lt in Hx; cbn in Hx; lia.
  - (* NewProduct *) cbn [step] in *. unfold new_product in *. cbn [post] in *. apply (F _ P). intros x ox Hx [[]|L]. destruct P as (I' & _).
    rewrite (tree_unfold [] _ x ox I' Hx). cbn [objs bump] in Hx. rewrite get_add in Hx.
    destruct (Nat.eqb_spec x (List.length (objs s))) as [->|N]; [|apply get_lt in Hx; lia]. injection Hx as <-. cbn. eexists. split; [reflexivity|]. apply built_empty.
  - (* CopyMfd *) cbn [step] in *. unfold copy_mfd in *. destruct (get (objs s) a) as [oa|] eqn:E; cbn [post] in *; auto. apply (F _ P).
    intros x ox Hx [[]|L]. destruct P as (I' & Ev & Ns). destruct (B a oa E) as (m & Em & Bm). exists m. split; auto. rewrite <- Em.
    pose proof Hx as Hx2. unfold copy_obj in Hx2. rewrite get_add in Hx2. destruct (retain_rest (subs_of oa) s) as (_ & _ & _ & Len). rewrite Len in Hx2.
    destruct (Nat.eqb_spec x (List.length (objs s))) as [->|N]; [|apply get_lt in Hx2; lia]. injection Hx2 as <-.
    eapply (copy_tree [] [] nobody s); eauto.
  - (* GetNewCopy *) cbn [step] in *. unfold get_new_copy in *. destruct (get (objs s) a) as [oa|] eqn:E; cbn [post] in *; auto. apply (F _ P).
    intros x ox Hx [[]|L]. destruct P as (I' & Ev & Ns). destruct (B a oa E) as (m & Em & Bm). exists m. split; auto. rewrite <- Em.
    pose proof Hx as Hx2. unfold copy_obj in Hx2. rewrite get_add in Hx2. destruct (retain_rest (subs_of oa) (lockm s a)) as (_ & _ & _ & Len).
    assert (LL : List.length (objs (lockm s a)) = List.length (objs s)) by apply modify_length. rewrite Len, LL in Hx2.
    destruct (Nat.eqb_spec x (List.length (objs s))) as [->|N]; [|apply get_lt in Hx2; rewrite Len, LL in Hx2; lia].
    injection Hx2 as <-. eapply (copy_tree [] [] nobody s); eauto.
  - (* SetName *) cbn [step] in *. destruct (set_name s a t) as [s'|e s'| | |] eqn:E; cbn [post] in *; auto.
    + apply (F _ P). intros x ox Hx HT; cbn [touched] in HT; destruct HT as [<-|L].
      * destruct (set_name_tree s a t s' I E) as (m & E1 & E2). rewrite E2. eexists. split; [reflexivity|]. constructor.
        destruct (proj2 (tree_live [] s a I)) as (o & Ho); [eauto|]. destruct (B a o Ho) as (m' & E3 & Bm). congruence.
      * exfalso. unfold set_name in E. destruct (get (objs s) a) as [o|]; [|discriminate]. destruct (mutable_ o); [|discriminate]. injection E as <-.
        apply get_lt in Hx. rewrite modify_length in Hx. lia.
    + exfalso. unfold set_name in E. destruct (get (objs s) a) as [o|]; [|discriminate]. destruct (mutable_ o); discriminate.
  - (* SetMag *) cbn [step] in *. destruct (set_mag s a v trust) as [s'|e s'| | |] eqn:E; cbn [post] in *; auto.
    + apply (F _ P). intros x ox Hx HT; cbn [touched] in HT; destruct HT as [<-|L].
      * destruct (set_mag_tree s a v trust s' I E) as (m & m' & E1 & E2 & E3). rewrite E2. eexists. split; [reflexivity|].
        destruct (proj2 (tree_live [] s a I)) as (o & Ho); [eauto|]. destruct (B a o Ho) as (m2 & E4 & Bm). assert (m2 = m) by congruence. subst m2.
        destruct trust; [eapply built_tru; eauto|eapply built_typ; eauto].
      * exfalso. unfold set_mag in E. destruct (get (objs s) a) as [o|]; [|discriminate]. destruct (mutable_ o); [|discriminate].
        destruct (o_kind o); [|discriminate]. destruct (o_lock o); [discriminate|]. destruct (mag_ok l v); [|discriminate]. injection E as <-.
        apply get_lt in Hx. rewrite modify_length in Hx. lia.
    + replace s' with s; auto. unfold set_mag in E. destruct (get (objs s) a) as [o|]; [|discriminate]. destruct (mutable_ o); [|discriminate].
      destruct (o_kind o); [|discriminate]. destruct (o_lock o); [congruence|]. destruct (mag_ok l v); congruence.
  - (* Multiply *) cbn [step] in *. destruct (multiply_obj s p m) as [s'|e s'| | |] eqn:E; cbn [post] in *; auto.
    + apply (F _ P). intros x ox Hx HT. cbn [touched] in HT. destruct (multiply_tree s p m s' I E) as (mp & mm & mp' & E1 & E2 & E3 & E4 & _ & om & _ & _ & _ & _ & _ & _ & _ & _ & _ & Tc & _ & Len).
      assert (Bp : built mp). { destruct (proj2 (tree_live [] s p I)) as (o & Ho); [eauto|]. destruct (B p o Ho) as (m2 & E5 & Bm). congruence. }
      assert (Bm : built mm). { destruct (proj2 (tree_live [] s m I)) as (o & Ho); [eauto|]. destruct (B m o Ho) as (m2 & E5 & Bm). congruence. }
      destruct HT as [<-|L].
      * exists mp'. split; auto. eapply built_mult; [exact Bp|exact Bm|exact E3].
      * exists mm. split; auto. apply get_lt in Hx. replace x with (List.length (objs s)) by lia. auto.
    + apply (F _ P). intros x ox Hx HT. cbn [touched] in HT.
      destruct (get (objs s) p) as [op|] eqn:Hp; [|unfold multiply_obj in E; rewrite Hp in E; discriminate].
      destruct (get (objs s) m) as [om|] eqn:Hm; [|unfold multiply_obj in E; rewrite Hp, Hm in E; discriminate].
      destruct (o_kind op) as [|sT sR l] eqn:Hk; [unfold multiply_obj in E; rewrite Hp, Hm, Hk in E; discriminate|].
      destruct (mutable_ op) eqn:M; [|unfold multiply_obj in E; rewrite Hp, Hm, Hk, M in E; discriminate].
      destruct (o_lock op) eqn:L; [unfold multiply_obj in E; rewrite Hp, Hm, Hk, M, L in E; injection E as _ <-; destruct HT as [<-|?]; [eauto|apply get_lt in Hx; lia]|].
      rewrite (multiply_obj_mid s p m op om sT sR l Hp Hm Hk M L) in E. cbn zeta in E.
      destruct (locked (mult_mid s p m) p); [|destruct (back sT); [|discriminate]; destruct (back sR); discriminate]. injection E as _ <-.
      destruct (mult_mid_metas s p m) as [Me Ev]. destruct HT as [<-|?]; [|apply get_lt in Hx; destruct Me as (Me & _); lia].
      destruct (mid_get s p m op om Hp Hm) as (n & Gp & _). destruct P as (I' & _ & _).
      rewrite (tree_unfold [] _ p _ I' Gp). destruct (B p op Hp) as (mp & Emp & Bp). exists (rename mp n). split; [|constructor; auto].
      rewrite (tree_unfold [] s p op I Hp) in Emp. unfold assemble in *. cbn [o_kind with_hdr o_hdr].
      assert (Ek : o_kind (if p =? m then with_lock op else op) = KProd sT sR l) by (destruct (p =? m); cbn; auto). rewrite Ek. rewrite Hk in Emp.
      replace (subs_of (with_hdr _ _)) with (subs_of op) by (unfold subs_of; cbn; rewrite Ek, Hk; auto).
      rewrite (mapM_ext _ (tree s)).
      { destruct (mapM (tree s) (subs_of op)); [|discriminate]. injection Emp as <-. reflexivity. }
      intros c Hc. assert (Sc : is_shared s c) by (apply (i_closed _ _ I p op Hp c Hc)).
      apply (tree_frame [] [] (eq p) s); auto.
      * intros b <- _. exact (evolves_not_shared _ _ _ p op Ev Hp M).
      * intros <-. destruct Sc as (z & k & X & Y). assert (z = op) by congruence. subst z. unfold mutable_ in M. rewrite Y in M. discriminate.
      * apply shared_lt; auto.
      * apply (metas_shared s _ c Me) in Sc. destruct Sc as (z & k & X & _). eauto.
  - (* DestroyMfd *) assert (Len : post (step s (DestroyMfd a)) (fun s' => List.length (objs s') = List.length (objs s) /\ get (objs s') a = None)).
    { cbn [step]. unfold destroy_mfd. destruct (get (objs s) a) as [o|] eqn:E; [|exact Logic.I]. destruct (mutable_ o) eqn:M; [|exact Logic.I].
      destruct (mutable_slots [] s a o I E M) as [Z N]. pose proof (remove_inv [] s a o I E Z N) as I1. rewrite app_nil_r in I1.
      destruct (drop_inv _ _ I1) as [->|(s' & -> & I2 & Sh)]; [exact Logic.I|].
      assert (G : List.length (objs s') = List.length (objs s) /\ get (objs s') a = None).
      { destruct Sh as (_ & _ & _ & Len & O & _). split; [rewrite Len; apply upd_length|].
        destruct (get (objs s') a) as [o'|] eqn:E'; auto. destruct (O a o' E') as (x & X & _). rewrite get_remove, Nat.eqb_refl in X by (eapply get_lt; eauto). discriminate. }
      destruct (o_count o =? 0)%Z; [exact G|]. destruct (o_owner o); cbn; auto. }
    destruct (step s (DestroyMfd a)) as [s'|e s'| | |]; cbn [post] in *; auto; apply (F _ P); intros x ox Hx HT; cbn [touched] in HT; destruct HT as [<-|L]; destruct Len as [Len Na]; try congruence; apply get_lt in Hx; lia.
Qed.

End Step.
