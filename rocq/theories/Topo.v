(** isSameTopology, and what it determines. *)
From Coq Require Import List Arith Bool ZArith Lia.
From Verif Require Import Base Scalar Vec Model_Real Model_S2 Model_SO3 Model_Manifold Spec Layout.
Import ListNotations.

(** Specification: the tree of factor classes of a manifold, with the dimensions of the R^n. *)
Inductive topo := TReal (n : nat) | TS2 | TSO3 (mp : so3map) | TProd (l : list topo).

Section Topo.
Context {K : Type} {SK : Scalar K}.
Fixpoint topo_of (m : mfd K) : topo :=
  match m with
  | Leaf h LReal _ _ => TReal (h_dim h)
  | Leaf _ LS2 _ _ => TS2
  | Leaf _ (LSO3 mp) _ _ => TSO3 mp
  | Prod _ _ _ subs => TProd (map topo_of subs)
  end.

Lemma same_topo (a b : mfd K) : isSameTopology a b = true <-> topo_of a = topo_of b.
Proof.
  revert b; induction a as [h l typ tru|h sT sR subs IH] using mfd_ind'; intros [h' l' typ' tru'|h' sT' sR' subs'].
  - destruct l as [| |[|]], l' as [| |[|]]; cbn; try (split; congruence). rewrite Nat.eqb_eq. split; congruence.
  - destruct l as [| |[|]]; cbn; split; congruence.
  - cbn. destruct l' as [| |[|]]; split; congruence.
  - cbn [isSameTopology topo_of]. rewrite andb_true_iff, Nat.eqb_eq.
    assert (E : forall l o, Forall (fun a => forall b, isSameTopology a b = true <-> topo_of a = topo_of b) l -> length l = length o ->
      ((fix all (l o : list (mfd K)) : bool := match l, o with s :: l', t :: o' => if isSameTopology s t then all l' o' else false | [], _ => true | _ :: _, [] => false end) l o = true
       <-> map topo_of l = map topo_of o)).
    { clear. induction l as [|s l IHl]; intros [|t o] F L; try discriminate; [split; auto|]. inversion F; subst. cbn [map]. specialize (IHl o H2 ltac:(simpl in L; lia)).
      destruct (isSameTopology s t) eqn:E; [apply H1 in E|].
      - rewrite IHl. split; intros G; [congruence|]. inversion G. auto.
      - split; [discriminate|]. intros G. inversion G as [[G1 G2]]. apply H1 in G1. congruence. }
    split.
    + intros [L A]. f_equal. apply E; auto.
    + intros G. inversion G as [G1]. assert (L : length subs = length subs') by (rewrite <- (map_length topo_of subs), G1, map_length; auto).
      split; auto. apply E; auto.
Qed.

(** ** Manifolds that differ at most by their names and magnitudes *)
Inductive sim : mfd K -> mfd K -> Prop :=
| sim_leaf h h' l a b a' b' : h_dim h = h_dim h' -> h_tdim h = h_tdim h' -> h_rdim h = h_rdim h' -> sim (Leaf h l a b) (Leaf h' l a' b')
| sim_prod h h' sT sR subs subs' : h_dim h = h_dim h' -> h_tdim h = h_tdim h' -> h_rdim h = h_rdim h' -> Forall2 sim subs subs' ->
    sim (Prod h sT sR subs) (Prod h' sT sR subs').

Lemma sim_dims a b : sim a b -> dim a = dim b /\ tangentDim a = tangentDim b /\ representationDim a = representationDim b.
Proof. destruct 1; unfold dim, tangentDim, representationDim; cbn [hdr_of]; auto. Qed.
Lemma sim_getDim D a b : sim a b -> getDim D a = getDim D b.
Proof. intros S. destruct (sim_dims a b S) as (H1 & H2 & H3). destruct D; auto. Qed.

Lemma topo_sim a b : wf a -> wf b -> topo_of a = topo_of b -> sim a b.
Proof.
  revert b; induction a as [h l typ tru|h sT sR subs IH] using mfd_ind'; intros [h' l' typ' tru'|h' sT' sR' subs'] Wa Wb E.
  - inversion Wa as [? ? ? ? W|]; inversion Wb as [? ? ? ? W'|]; subst. destruct l as [| |[|]], l' as [| |[|]]; cbn in E; try discriminate; inversion E;
    cbn [leaf_wf] in *; constructor; lia.
  - destruct l as [| |[|]]; discriminate.
  - destruct l' as [| |[|]]; discriminate.
  - inversion Wa; inversion Wb; subst. cbn [topo_of] in E. inversion E as [E'].
    assert (S : Forall2 sim subs subs').
    { repeat match goal with H : Forall wf _ |- _ => revert H end. clear - IH E'. intros W W'. revert subs' E' W'. induction subs as [|s subs IHs]; intros [|t subs'] E W'; try discriminate; constructor;
      inversion IH; inversion W; inversion W'; inversion E; subst; auto. }
    assert (D1 : map tangentDim subs = map tangentDim subs') by (clear - S; induction S as [|x y l l' H S IHS]; cbn; auto; destruct (sim_dims _ _ H) as (?&?&?); f_equal; auto).
    assert (D2 : map representationDim subs = map representationDim subs') by (clear - S; induction S as [|x y l l' H S IHS]; cbn; auto; destruct (sim_dims _ _ H) as (?&?&?); f_equal; auto).
    assert (D0 : map dim subs = map dim subs') by (clear - S; induction S as [|x y l l' H S IHS]; cbn; auto; destruct (sim_dims _ _ H) as (?&?&?); f_equal; auto).
    rewrite D1, D2. constructor; congruence.
Qed.

(** ** The operations only read the classes, dimensions and offsets *)
Lemma sim_nth subs subs' : Forall2 sim subs subs' -> forall i, match at_ subs i, at_ subs' i with Ok s, Ok s' => sim s s' | Fail e, Fail e' => e = e' | _, _ => False end.
Proof. unfold at_. induction 1 as [|s s' l l' H F IH]; intros [|i]; cbn; auto. apply IH. Qed.
Lemma sim_len (subs subs' : list (mfd K)) : Forall2 sim subs subs' -> length subs = length subs'.
Proof. induction 1; cbn; auto. Qed.
Lemma sim_num a b : sim a b -> numberOfSubManifolds a = numberOfSubManifolds b.
Proof. destruct 1; cbn; auto. apply sim_len. auto. Qed.
Lemma sim_start D a b : sim a b -> forall i, getStart D a i = getStart D b i.
Proof. intros S i. unfold getStart. rewrite (sim_num a b S). destruct S; auto. rewrite (sim_len _ _ H2). reflexivity. Qed.
Lemma sim_dimsub D a b : sim a b -> forall i, getDimSub D a i = getDimSub D b i.
Proof.
  intros S i. unfold getDimSub. rewrite (sim_num a b S). destruct (mnf_assert _); auto. cbn [bind]. destruct S.
  - cbn [subManifold]. destruct (mnf_assert _); auto. cbn [bind]. rewrite (sim_getDim D (Leaf h l a b) (Leaf h' l a' b')); auto. constructor; auto.
  - cbn [subManifold]. rewrite (sim_len _ _ H2). destruct (mnf_assert _); auto. cbn [bind]. pose proof (sim_nth _ _ H2 i) as N.
    destruct (at_ subs i), (at_ subs' i); try contradiction; cbn [bind]; [|congruence]. rewrite (sim_getDim D _ _ N). reflexivity.
Qed.
Lemma sim_range D a b : sim a b -> forall n i, view_range D a n i = view_range D b n i.
Proof. intros S n i. unfold view_range. rewrite (sim_num _ _ S), (sim_getDim D _ _ S), (sim_start D _ _ S), (sim_dimsub D _ _ S). reflexivity. Qed.
Lemma bind_ext {A B} (r : res A) (f g : A -> res B) : (forall a, f a = g a) -> bind r f = bind r g.
Proof. intros H. destruct r; cbn; auto. Qed.
Lemma bind_ext2 {A B} (r r' : res A) (f g : A -> res B) : r = r' -> (forall a, f a = g a) -> bind r f = bind r' g.
Proof. intros -> H. destruct r'; cbn; auto. Qed.
Lemma loop_sim {A} (f g : nat -> mfd K -> A -> res A) l l' : Forall2 (fun s t => forall i acc, f i s acc = g i t acc) l l' ->
  forall i acc, loop f i l acc = loop g i l' acc.
Proof. induction 1 as [|s t l l' H F IH]; intros i acc; cbn [loop]; auto. rewrite H. apply bind_ext. intros. apply IH. Qed.
Lemma sim_view D a b : sim a b -> forall v i, getView D a v i = getView D b v i.
Proof. intros S v i. unfold getView. rewrite (sim_range D a b S). reflexivity. Qed.
Lemma sim_on_view D a b f g : sim a b -> (forall o, f o = g o) -> forall i v, on_view D a i f v = on_view D b i g v.
Proof. intros S E i v. unfold on_view. rewrite (sim_range D a b S). apply bind_ext. intros [s d]. apply bind_ext. intros o. rewrite E. reflexivity. Qed.
Lemma sim_cols D a b : sim a b -> forall v i, getCols D a v i = getCols D b v i.
Proof. intros S v i. unfold getCols. rewrite (sim_start D a b S), (sim_dimsub D a b S). reflexivity. Qed.
Lemma sim_rows D a b : sim a b -> forall v i, getRows D a v i = getRows D b v i.
Proof. intros S v i. unfold getRows. rewrite (sim_start D a b S), (sim_dimsub D a b S). reflexivity. Qed.
Lemma sim_on_cols D a b f g : sim a b -> (forall o, f o = g o) -> forall i v, on_cols D a i f v = on_cols D b i g v.
Proof. intros S E i v. unfold on_cols. rewrite (sim_start D a b S), (sim_dimsub D a b S). do 3 (apply bind_ext; intros ?). rewrite E. reflexivity. Qed.
Lemma sim_on_rows D a b f g : sim a b -> (forall o, f o = g o) -> forall i v, on_rows D a i f v = on_rows D b i g v.
Proof. intros S E i v. unfold on_rows. rewrite (sim_start D a b S), (sim_dimsub D a b S). do 3 (apply bind_ext; intros ?). rewrite E. reflexivity. Qed.
Lemma sim_on_block Dr Dc a b f g : sim a b -> (forall o, f o = g o) -> forall i j v, on_block Dr Dc a i j f v = on_block Dr Dc b i j g v.
Proof. intros S E i j v. unfold on_block. rewrite !(sim_start _ a b S), !(sim_dimsub _ a b S). do 5 (apply bind_ext; intros ?). rewrite E. reflexivity. Qed.

(** Induction on a pair of similar manifolds. *)
Lemma sim_ind2 (P : mfd K -> mfd K -> Prop) :
  (forall h h' l a b a' b', h_dim h = h_dim h' -> h_tdim h = h_tdim h' -> h_rdim h = h_rdim h' -> P (Leaf h l a b) (Leaf h' l a' b')) ->
  (forall h h' sT sR subs subs', sim (Prod h sT sR subs) (Prod h' sT sR subs') ->
     h_dim h = h_dim h' -> h_tdim h = h_tdim h' -> h_rdim h = h_rdim h' -> Forall2 (fun s t => sim s t /\ P s t) subs subs' -> P (Prod h sT sR subs) (Prod h' sT sR subs')) ->
  forall a b, sim a b -> P a b.
Proof.
  intros HL HP. induction a as [h l typ tru|h sT sR subs IH] using mfd_ind'; intros b S; inversion S; subst; auto.
  apply HP; auto. match goal with F : Forall2 sim _ _ |- _ => clear - IH F; revert IH; induction F; intros IH; constructor; inversion IH; subst; auto end.
Qed.
End Topo.

Ltac dims H1 H2 H3 := unfold representationDim, tangentDim, dim; cbn [hdr_of]; rewrite ?H1, ?H2, ?H3.
Ltac step_bind := apply bind_ext; intros ?.
Ltac head_binds := repeat match goal with |- bind (mnf_assert _) _ = bind (mnf_assert _) _ => step_bind end.

Section Ops.
Context {K : Type} {SK : Scalar K}.
Notation mf := (mfd K).

Lemma F2i {A B} (P Q : A -> B -> Prop) l l' : (forall a b, P a b -> Q a b) -> Forall2 P l l' -> Forall2 Q l l'.
Proof. induction 2; constructor; auto. Qed.

Ltac sim_walk S :=
  repeat first
    [ reflexivity
    | match goal with |- (if ?b then _ else _) = _ => destruct b | |- (let '(_, _) := ?z in _) = _ => destruct z | |- match ?z with (_, _) => _ end = _ => destruct z end
    | rewrite (sim_view _ _ _ S) | rewrite (sim_cols _ _ _ S) | rewrite (sim_rows _ _ _ S)
    | apply (sim_on_view _ _ _ _ _ S); intros ? | apply (sim_on_cols _ _ _ _ _ S); intros ? | apply (sim_on_rows _ _ _ _ _ S); intros ?
    | apply (sim_on_block _ _ _ _ _ _ S); intros ?
    | rewrite (sim_range _ _ _ S)
    | match goal with H : forall _, _ = _ |- _ => rewrite H | H : forall _ _, _ = _ |- _ => rewrite H | H : forall _ _ _, _ = _ |- _ => rewrite H | H : forall _ _ _ _, _ = _ |- _ => rewrite H end
    | apply bind_ext2; [|intros ?] ].
Ltac sim_loop S F := apply loop_sim; eapply F2i; [|exact F]; intros ? ? [? ?] ? ?.

Lemma isInM_sim (a b : mf) : sim a b -> forall x p, isInM a x p = isInM b x p.
Proof.
  intros S. pattern a, b. apply sim_ind2; [clear S|clear S|exact S].
  - intros h h' l t u t' u' H1 H2 H3 x p. cbn [isInM]; dims H1 H2 H3; head_binds; destruct l as [| |[|]]; rewrite ?H1, ?H2, ?H3; reflexivity.
  - intros h h' sT sR subs subs' S H1 H2 H3 F x p. cbn [isInM]; dims H1 H2 H3; head_binds; sim_loop S F; sim_walk S.
Qed.
Lemma forceOnM_sim (a b : mf) : sim a b -> forall o x, forceOnM a o x = forceOnM b o x.
Proof.
  intros S. pattern a, b. apply sim_ind2; [clear S|clear S|exact S].
  - intros h h' l t u t' u' H1 H2 H3 o x. cbn [forceOnM]; dims H1 H2 H3; head_binds; destruct l as [| |[|]]; rewrite ?H1, ?H2, ?H3; reflexivity.
  - intros h h' sT sR subs subs' S H1 H2 H3 F o x. cbn [forceOnM]; dims H1 H2 H3; head_binds; sim_loop S F; sim_walk S.
Qed.
Lemma isInTxM_sim (a b : mf) : sim a b -> forall x v p, isInTxM a x v p = isInTxM b x v p.
Proof.
  intros S. pattern a, b. apply sim_ind2; [clear S|clear S|exact S].
  - intros h h' l t u t' u' H1 H2 H3 x v p. cbn [isInTxM]; dims H1 H2 H3; head_binds; destruct l as [| |[|]]; rewrite ?H1, ?H2, ?H3; reflexivity.
  - intros h h' sT sR subs subs' S H1 H2 H3 F x v p. cbn [isInTxM]; dims H1 H2 H3; head_binds; sim_loop S F; sim_walk S.
Qed.
Lemma retractation_sim (a b : mf) : sim a b -> forall o x v, retractation a o x v = retractation b o x v.
Proof.
  intros S. pattern a, b. apply sim_ind2; [clear S|clear S|exact S].
  - intros h h' l t u t' u' H1 H2 H3 o x v. cbn [retractation]; dims H1 H2 H3; head_binds; (rewrite (isInTxM_sim (Leaf h l t u) (Leaf h' l t' u')) by (constructor; auto)); do 2 step_bind; destruct l as [| |[|]]; rewrite ?H1, ?H2, ?H3; reflexivity.
  - intros h h' sT sR subs subs' S H1 H2 H3 F o x v. cbn [retractation]; dims H1 H2 H3; head_binds; (rewrite (isInTxM_sim _ _ S)); do 2 step_bind; sim_loop S F; sim_walk S.
Qed.
Lemma pseudoLog_sim (a b : mf) : sim a b -> forall o x y, pseudoLog a o x y = pseudoLog b o x y.
Proof.
  intros S. pattern a, b. apply sim_ind2; [clear S|clear S|exact S].
  - intros h h' l t u t' u' H1 H2 H3 o x y. cbn [pseudoLog]; dims H1 H2 H3; head_binds; destruct l as [| |[|]]; rewrite ?H1, ?H2, ?H3; reflexivity.
  - intros h h' sT sR subs subs' S H1 H2 H3 F o x y. cbn [pseudoLog]; dims H1 H2 H3; head_binds; sim_loop S F; sim_walk S.
Qed.
Lemma pseudoLog0_sim (a b : mf) : sim a b -> forall o x, pseudoLog0 a o x = pseudoLog0 b o x.
Proof.
  intros S. pattern a, b. apply sim_ind2; [clear S|clear S|exact S].
  - intros h h' l t u t' u' H1 H2 H3 o x. cbn [pseudoLog0]; dims H1 H2 H3; head_binds; destruct l as [| |[|]]; rewrite ?H1, ?H2, ?H3; reflexivity.
  - intros h h' sT sR subs subs' S H1 H2 H3 F o x. cbn [pseudoLog0]; dims H1 H2 H3; head_binds; sim_loop S F; sim_walk S.
Qed.
Lemma setZero_sim (a b : mf) : sim a b -> forall o, setZero a o = setZero b o.
Proof.
  intros S. pattern a, b. apply sim_ind2; [clear S|clear S|exact S].
  - intros h h' l t u t' u' H1 H2 H3 o. cbn [setZero]; dims H1 H2 H3; head_binds; destruct l as [| |[|]]; rewrite ?H1, ?H2, ?H3; reflexivity.
  - intros h h' sT sR subs subs' S H1 H2 H3 F o. cbn [setZero]; dims H1 H2 H3; head_binds; sim_loop S F; sim_walk S.
Qed.
Lemma forceOnTxM_sim (a b : mf) : sim a b -> forall o w x, forceOnTxM a o w x = forceOnTxM b o w x.
Proof.
  intros S. pattern a, b. apply sim_ind2; [clear S|clear S|exact S].
  - intros h h' l t u t' u' H1 H2 H3 o w x. cbn [forceOnTxM]; dims H1 H2 H3; head_binds; destruct l as [| |[|]]; rewrite ?H1, ?H2, ?H3; reflexivity.
  - intros h h' sT sR subs subs' S H1 H2 H3 F o w x. cbn [forceOnTxM]; dims H1 H2 H3; head_binds; sim_loop S F; sim_walk S.
Qed.
Lemma limitMap_sim (a b : mf) : sim a b -> forall o, limitMap a o = limitMap b o.
Proof.
  intros S. pattern a, b. apply sim_ind2; [clear S|clear S|exact S].
  - intros h h' l t u t' u' H1 H2 H3 o. cbn [limitMap]; dims H1 H2 H3; head_binds; destruct l as [| |[|]]; rewrite ?H1, ?H2, ?H3; reflexivity.
  - intros h h' sT sR subs subs' S H1 H2 H3 F o. cbn [limitMap]; dims H1 H2 H3; head_binds; sim_loop S F; sim_walk S.
Qed.
Lemma diffRetractation_sim (a b : mf) : sim a b -> forall x, diffRetractation a x = diffRetractation b x.
Proof.
  intros S. pattern a, b. apply sim_ind2; [clear S|clear S|exact S].
  - intros h h' l t u t' u' H1 H2 H3 x. cbn [diffRetractation]; dims H1 H2 H3; head_binds; destruct l as [| |[|]]; rewrite ?H1, ?H2, ?H3; reflexivity.
  - intros h h' sT sR subs subs' S H1 H2 H3 F x. cbn [diffRetractation]; dims H1 H2 H3; head_binds; sim_loop S F; sim_walk S.
Qed.
Lemma applyDiffRetractation_sim (a b : mf) : sim a b -> forall o w x, applyDiffRetractation a o w x = applyDiffRetractation b o w x.
Proof.
  intros S. pattern a, b. apply sim_ind2; [clear S|clear S|exact S].
  - intros h h' l t u t' u' H1 H2 H3 o w x. cbn [applyDiffRetractation]; dims H1 H2 H3; head_binds; destruct l as [| |[|]]; rewrite ?H1, ?H2, ?H3; reflexivity.
  - intros h h' sT sR subs subs' S H1 H2 H3 F o w x. cbn [applyDiffRetractation]; dims H1 H2 H3; head_binds; sim_loop S F; sim_walk S.
Qed.
Lemma diffPseudoLog0_sim (a b : mf) : sim a b -> forall x, diffPseudoLog0 a x = diffPseudoLog0 b x.
Proof.
  intros S. pattern a, b. apply sim_ind2; [clear S|clear S|exact S].
  - intros h h' l t u t' u' H1 H2 H3 x. cbn [diffPseudoLog0]; dims H1 H2 H3; head_binds; destruct l as [| |[|]]; rewrite ?H1, ?H2, ?H3; reflexivity.
  - intros h h' sT sR subs subs' S H1 H2 H3 F x. cbn [diffPseudoLog0]; dims H1 H2 H3; head_binds; sim_loop S F; sim_walk S.
Qed.
Lemma applyDiffPseudoLog0_sim (a b : mf) : sim a b -> forall o w x, applyDiffPseudoLog0 a o w x = applyDiffPseudoLog0 b o w x.
Proof.
  intros S. pattern a, b. apply sim_ind2; [clear S|clear S|exact S].
  - intros h h' l t u t' u' H1 H2 H3 o w x. cbn [applyDiffPseudoLog0]; dims H1 H2 H3; head_binds; destruct l as [| |[|]]; rewrite ?H1, ?H2, ?H3; reflexivity.
  - intros h h' sT sR subs subs' S H1 H2 H3 F o w x. cbn [applyDiffPseudoLog0]; dims H1 H2 H3; head_binds; sim_loop S F; sim_walk S.
Qed.
Lemma transport_sim (a b : mf) : sim a b -> forall x v, transport_checks a x v = transport_checks b x v.
Proof. intros S x v. unfold transport_checks. destruct (sim_dims a b S) as (_ & -> & ->). rewrite (isInTxM_sim a b S). reflexivity. Qed.
Lemma applyTransport_sim (a b : mf) : sim a b -> forall o w x v, applyTransport a o w x v = applyTransport b o w x v.
Proof.
  intros S. pattern a, b. apply sim_ind2; [clear S|clear S|exact S].
  - intros h h' l t u t' u' H1 H2 H3 o w x v. cbn [applyTransport]; dims H1 H2 H3; head_binds; (rewrite (transport_sim (Leaf h l t u) (Leaf h' l t' u')) by (constructor; auto)); step_bind; (rewrite ?(retractation_sim (Leaf h l t u) (Leaf h' l t' u')) by (constructor; auto)); destruct l as [| |[|]]; rewrite ?H1, ?H2, ?H3; reflexivity.
  - intros h h' sT sR subs subs' S H1 H2 H3 F o w x v. cbn [applyTransport]; dims H1 H2 H3; head_binds; (rewrite (transport_sim _ _ S)); step_bind; sim_loop S F; sim_walk S.
Qed.
Lemma applyInvTransport_sim (a b : mf) : sim a b -> forall o w x v, applyInvTransport a o w x v = applyInvTransport b o w x v.
Proof.
  intros S. pattern a, b. apply sim_ind2; [clear S|clear S|exact S].
  - intros h h' l t u t' u' H1 H2 H3 o w x v. cbn [applyInvTransport]; dims H1 H2 H3; head_binds; (rewrite (transport_sim (Leaf h l t u) (Leaf h' l t' u')) by (constructor; auto)); step_bind; (rewrite ?(retractation_sim (Leaf h l t u) (Leaf h' l t' u')) by (constructor; auto)); destruct l as [| |[|]]; rewrite ?H1, ?H2, ?H3; reflexivity.
  - intros h h' sT sR subs subs' S H1 H2 H3 F o w x v. cbn [applyInvTransport]; dims H1 H2 H3; head_binds; (rewrite (transport_sim _ _ S)); step_bind; sim_loop S F; sim_walk S.
Qed.
Lemma applyInvTransportOnTheRight_sim (a b : mf) : sim a b -> forall o w x v, applyInvTransportOnTheRight a o w x v = applyInvTransportOnTheRight b o w x v.
Proof.
  intros S. pattern a, b. apply sim_ind2; [clear S|clear S|exact S].
  - intros h h' l t u t' u' H1 H2 H3 o w x v. cbn [applyInvTransportOnTheRight]; dims H1 H2 H3; head_binds; (rewrite (transport_sim (Leaf h l t u) (Leaf h' l t' u')) by (constructor; auto)); step_bind; (rewrite ?(retractation_sim (Leaf h l t u) (Leaf h' l t' u')) by (constructor; auto)); destruct l as [| |[|]]; rewrite ?H1, ?H2, ?H3; reflexivity.
  - intros h h' sT sR subs subs' S H1 H2 H3 F o w x v. cbn [applyInvTransportOnTheRight]; dims H1 H2 H3; head_binds; (rewrite (transport_sim _ _ S)); step_bind; sim_loop S F; sim_walk S.
Qed.
Lemma tangentConstraint_sim (a b : mf) : sim a b -> forall o x, tangentConstraint a o x = tangentConstraint b o x.
Proof.
  intros S. pattern a, b. apply sim_ind2; [clear S|clear S|exact S].
  - intros h h' l t u t' u' H1 H2 H3 o x. cbn [tangentConstraint]; dims H1 H2 H3; head_binds; destruct l as [| |[|]]; rewrite ?H1, ?H2, ?H3; reflexivity.
  - intros h h' sT sR subs subs' S H1 H2 H3 F o x. cbn [tangentConstraint]; dims H1 H2 H3; head_binds. match goal with |- bind ?A _ = bind ?B _ => cut (A = B); [intros ->; reflexivity|] end.
    sim_loop S F. match goal with z : mat K * nat, Hs : sim _ _ |- _ => destruct z as [? k]; destruct (sim_dims _ _ Hs) as (E1 & E2 & _); unfold dim, tangentDim in E1, E2; rewrite E1, E2 end. cbv beta iota zeta.
    match goal with |- bind ?A _ = bind ?B _ => assert (E : A = B) by sim_walk S; rewrite E; reflexivity end.
Qed.
Lemma getIdentityOnTxM_sim (a b : mf) : sim a b -> forall o x, getIdentityOnTxM a o x = getIdentityOnTxM b o x.
Proof.
  intros S. pattern a, b. apply sim_ind2; [clear S|clear S|exact S].
  - intros h h' l t u t' u' H1 H2 H3 o x. cbn [getIdentityOnTxM]; dims H1 H2 H3; head_binds; destruct l as [| |[|]]; rewrite ?H1, ?H2, ?H3; reflexivity.
  - intros h h' sT sR subs subs' S H1 H2 H3 F o x. cbn [getIdentityOnTxM]; dims H1 H2 H3; head_binds. sim_loop S F.
    match goal with |- bind ?A _ = bind ?B _ => assert (E : A = B) by sim_walk S; rewrite E end. step_bind.
    match goal with |- loop _ _ ?l _ = _ => generalize 0 at 1 3; generalize l end. intros js. match goal with |- forall n, loop _ n _ ?z = _ => revert z end.
    induction js as [|j js IHj]; intros z n; cbn [loop]; auto.
    match goal with |- bind ?A _ = bind ?B _ => assert (E' : A = B) by sim_walk S; rewrite E' end. step_bind. apply IHj.
Qed.
Lemma createRandomPoint_sim (a b : mf) : sim a b -> forall o c r n, createRandomPoint a o c r n = createRandomPoint b o c r n.
Proof.
  intros S. pattern a, b. apply sim_ind2; [clear S|clear S|exact S].
  - intros h h' l t u t' u' H1 H2 H3 o c r n. cbn [createRandomPoint]; dims H1 H2 H3; head_binds; destruct l as [| |[|]]; rewrite ?H1, ?H2, ?H3; try reflexivity; step_bind; (apply bind_ext2; [apply retractation_sim; constructor; auto|reflexivity]).
  - intros h h' sT sR subs subs' S H1 H2 H3 F o c r n. cbn [createRandomPoint]; dims H1 H2 H3; head_binds; sim_loop S F; sim_walk S.
Qed.
End Ops.
