(** C50: typical and trust magnitudes. *)
From Coq Require Import List Arith Bool ZArith Lia.
From Verif Require Import Base Scalar Vec Model_Real Model_S2 Model_SO3 Model_Manifold Spec Layout Comp Topo ExScalar.
Import ListNotations.

Section Mags.
Context {K : Type}.

(** [mags m t u]: [m] was obtained by construction, renaming, multiplication and the two setters, and [t] ([u]) is
    what the calls say its typical (trust) magnitude should be: the constructor's argument, or the last vector given
    to the setter; for a product, the magnitudes of the factors one after the other.  Each setter call is given
    a vector of the tangent dimension. *)
Inductive mags : mfd K -> vec K -> vec K -> Prop :=
| mags_real n v m : mk_real_vec n v = Ok m -> mags m v v
| mags_real_mag n c m : mk_real_mag n c = Ok m -> mags m (repeat c (Z.to_nat n)) (repeat c (Z.to_nat n))
| mags_s2 v m : mk_s2_vec v = Ok m -> mags m v v
| mags_so3 mp v m : mk_so3_vec mp v = Ok m -> mags m v v
| mags_typ m t u v m' : mags m t u -> length v = tangentDim m -> setTypicalMagnitude m v = Ok m' -> mags m' v u
| mags_tru m t u v m' : mags m t u -> length v = tangentDim m -> setTrustMagnitude m v = Ok m' -> mags m' t v
| mags_name m t u s : mags m t u -> mags (rename m s) t u
| mags_empty : mags prod_empty [] []
| mags_mult p m p' t u t' u' : mags p t u -> mags m t' u' -> multiply p m = Ok p' -> mags p' (t ++ t') (u ++ u').

(** The magnitudes stored in the elementary parts, in order. *)
Fixpoint typs (m : mfd K) : vec K := match m with Leaf _ _ t _ => t | Prod _ _ _ subs => flat_map typs subs end.
Fixpoint trus (m : mfd K) : vec K := match m with Leaf _ _ _ u => u | Prod _ _ _ subs => flat_map trus subs end.
Inductive sized : mfd K -> Prop :=
| sized_leaf h l t u : length t = h_tdim h -> length u = h_tdim h -> sized (Leaf h l t u)
| sized_prod h sT sR subs : Forall sized subs -> sized (Prod h sT sR subs).

Lemma mags_built m t u : mags m t u -> built m.
Proof.
  induction 1 as [n v m H|n c m H|v m H|mp v m H|m t u v m' Hb IH L H|m t u v m' Hb IH L H|m t u s Hb IH| |p m p' t u t' u' Hp IHp Hm IHm H].
  - exact (built_real _ _ _ H).
  - exact (built_real_mag _ _ _ H).
  - exact (built_s2 _ _ H).
  - exact (built_so3 _ _ _ H).
  - exact (built_typ _ _ _ IH H).
  - exact (built_tru _ _ _ IH H).
  - exact (built_name _ _ IH).
  - exact built_empty.
  - exact (built_mult _ _ _ IHp IHm H).
Qed.

Lemma mags_sized m t u : mags m t u -> sized m /\ typs m = t /\ trus m = u.
Proof.
  induction 1 as [n v m H|n c m H|v m H|mp v m H|m t u v m' Hb IH L H|m t u v m' Hb IH L H|m t u s Hb IH| |p m p' t u t' u' Hp IHp Hm IHm H].
  - unfold mk_real_vec in H. destruct (manifold_ctor _ n n n) eqn:E; simpl in H; [|discriminate].
    apply ctor_inv in E. destruct E as (? & ? & ? & ? & ? & E & ?). inv_check H. apply Nat.eqb_eq in Heqb. inversion H; subst.
    split; [constructor; congruence|split; reflexivity].
  - unfold mk_real_mag in H. destruct (manifold_ctor _ n n n) eqn:E; simpl in H; [|discriminate].
    apply ctor_inv in E. destruct E as (? & ? & ? & ? & ? & E & ?). inversion H; subst.
    split; [constructor; apply repeat_length|]. cbn [typs trus]. unfold vconst. rewrite E. split; reflexivity.
  - unfold mk_s2_vec in H. simpl in H. inv_check H. apply Nat.eqb_eq in Heqb. inversion H; subst. split; [constructor; assumption|split; reflexivity].
  - unfold mk_so3_vec in H. destruct mp; simpl in H; inv_check H; apply Nat.eqb_eq in Heqb; inversion H; subst; (split; [constructor; assumption|split; reflexivity]).
  - destruct IH as (S & E1 & E2). destruct m; simpl in H; [|discriminate]. inv_check H. inversion H; subst. inversion S; subst.
    split; [constructor; assumption|split; reflexivity].
  - destruct IH as (S & E1 & E2). destruct m; simpl in H; [|discriminate]. inv_check H. inversion H; subst. inversion S; subst.
    split; [constructor; assumption|split; reflexivity].
  - destruct IH as (S & E1 & E2). split; [destruct S; constructor; assumption|destruct m; split; assumption].
  - split; [constructor; constructor|split; reflexivity].
  - destruct IHp as (S & E1 & E2), IHm as (S' & E1' & E2'). destruct p as [|h sT sR subs]; [discriminate|]. simpl in H.
    destruct (back sT); [|discriminate]. destruct (back sR); [|discriminate]. cbn [bind] in H. inversion H; subst. inversion S; subst.
    split; [constructor; apply Forall_app; split; [assumption|constructor; [assumption|constructor]]|].
    cbn [typs trus]. rewrite !flat_map_app. cbn [flat_map]. rewrite !app_nil_r. split; reflexivity.
Qed.

Context {SK : Scalar K}.
Lemma gets_typ m : wf m -> sized m -> forall out, length out = tangentDim m -> getTypicalMagnitude m out = Ok (typs m).
Proof.
  induction m as [h l a b|h sT sR subs IH] using mfd_ind'; intros W S out L; inversion S as [? ? ? ? S1 S2|? ? ? ? Ss]; subst.
  - cbn [getTypicalMagnitude typs]. rewrite check_eq by exact L. cbn [bind]. apply assign_ok.
    unfold tangentDim in L. cbn in L. congruence.
  - inversion W as [|? ? ? ? _ E _ _ _ Ws]; subst. unfold tangentDim in L. cbn [hdr_of] in L.
    destruct (cut_pieces DT subs out) as (outs & -> & Ho); [rewrite L; exact E|].
    apply getTypicalMagnitude_prod; [exact W|exact Ho|]. exists (map typs subs). split; [cbn [typs]; rewrite flat_map_concat_map; reflexivity|].
    clear - IH Ss Ws Ho. induction Ho as [|s o ss os H Ho IHo]; cbn [map]; constructor; inversion IH; inversion Ss; inversion Ws; subst; auto.
Qed.
Lemma gets_tru m : wf m -> sized m -> forall out, length out = tangentDim m -> getTrustMagnitude m out = Ok (trus m).
Proof.
  induction m as [h l a b|h sT sR subs IH] using mfd_ind'; intros W S out L; inversion S as [? ? ? ? S1 S2|? ? ? ? Ss]; subst.
  - cbn [getTrustMagnitude trus]. rewrite check_eq by exact L. cbn [bind]. apply assign_ok.
    unfold tangentDim in L. cbn in L. congruence.
  - inversion W as [|? ? ? ? _ E _ _ _ Ws]; subst. unfold tangentDim in L. cbn [hdr_of] in L.
    destruct (cut_pieces DT subs out) as (outs & -> & Ho); [rewrite L; exact E|].
    apply getTrustMagnitude_prod; [exact W|exact Ho|]. exists (map trus subs). split; [cbn [trus]; rewrite flat_map_concat_map; reflexivity|].
    clear - IH Ss Ws Ho. induction Ho as [|s o ss os H Ho IHo]; cbn [map]; constructor; inversion IH; inversion Ss; inversion Ws; subst; auto.
Qed.

(** Leaves a setter has left with a vector of the wrong size. *)
Lemma gets_ok_sized m : wf m -> forall o o' t u, getTypicalMagnitude m o = Ok t -> getTrustMagnitude m o' = Ok u -> sized m.
Proof.
  induction m as [h l a b|h sT sR subs IH] using mfd_ind'; intros W o o' t u Ht Hu.
  - cbn [getTypicalMagnitude getTrustMagnitude] in Ht, Hu. unfold assign in Ht, Hu. repeat inv_check Ht. repeat inv_check Hu.
    rewrite !Nat.eqb_eq in *. unfold tangentDim in *. cbn [hdr_of] in *. constructor; congruence.
  - assert (L : length o = tangentDim (Prod h sT sR subs)) by (cbn [getTypicalMagnitude] in Ht; inv_check Ht; apply Nat.eqb_eq; assumption).
    assert (L' : length o' = tangentDim (Prod h sT sR subs)) by (cbn [getTrustMagnitude] in Hu; inv_check Hu; apply Nat.eqb_eq; assumption).
    inversion W as [|? ? ? ? _ E _ _ _ Ws]; subst. unfold tangentDim in L, L'. cbn [hdr_of] in L, L'.
    destruct (cut_pieces DT subs o) as (outs & -> & Ho); [rewrite L; exact E|].
    destruct (cut_pieces DT subs o') as (outs' & -> & Ho'); [rewrite L'; exact E|].
    apply getTypicalMagnitude_prod in Ht; [|exact W|exact Ho]. apply getTrustMagnitude_prod in Hu; [|exact W|exact Ho'].
    destruct Ht as (ts & _ & Ht), Hu as (us & _ & Hu). constructor. clear - IH Ws Ht Hu. revert outs outs' ts us Ht Hu.
    induction subs as [|s ss IHs]; intros outs outs' ts us Ht Hu; [constructor|].
    inversion Ht; inversion Hu; inversion IH; inversion Ws; subst. constructor; eauto.
Qed.
End Mags.

(** The getters return exactly what the history of constructor and setter calls says, on every tree; a vector of
    another size is refused. *)
Theorem C50_returned : forall (K : Type) (SK : Scalar K) (m : mfd K) t u, mags m t u -> forall out,
  (length out = tangentDim m -> getTypicalMagnitude m out = Ok t /\ getTrustMagnitude m out = Ok u) /\
  (length out <> tangentDim m -> getTypicalMagnitude m out = Fail EAssert /\ getTrustMagnitude m out = Fail EAssert).
Proof.
  intros K SK m t u H out. pose proof (built_wf _ (mags_built _ _ _ H)) as W. destruct (mags_sized _ _ _ H) as (S & <- & <-). split; intros L.
  - split; [apply gets_typ|apply gets_tru]; assumption.
  - apply Nat.eqb_neq in L. destruct m; cbn [getTypicalMagnitude getTrustMagnitude]; rewrite L; split; reflexivity.
Qed.
Print Assumptions C50_returned.

(** The setters change nothing but the magnitude they set: dimensions, topology and (C27_same_operations) the result
    of every map operation stay the same. *)
Theorem C50_setters_frame : forall (K : Type) (SK : Scalar K) (m : mfd K) v m', built m ->
  setTypicalMagnitude m v = Ok m' \/ setTrustMagnitude m v = Ok m' ->
  built m' /\ isSameTopology m m' = true /\ name m' = name m /\
  (forall out x w, retractation m' out x w = retractation m out x w) /\ (forall out x y, pseudoLog m' out x y = pseudoLog m out x y) /\
  (forall out, setTypicalMagnitude m v = Ok m' -> getTrustMagnitude m' out = getTrustMagnitude m out) /\
  (forall out, setTrustMagnitude m v = Ok m' -> getTypicalMagnitude m' out = getTypicalMagnitude m out).
Proof.
  intros K SK m v m' B H.
  assert (B' : built m') by (destruct H as [H|H]; [eapply built_typ|eapply built_tru]; eassumption).
  assert (T : topo_of m = topo_of m').
  { destruct m as [h l a b|]; [|destruct H; discriminate]. destruct H as [H|H]; cbn [setTypicalMagnitude setTrustMagnitude] in H; inv_check H; inversion H; reflexivity. }
  pose proof (topo_sim _ _ (built_wf _ B) (built_wf _ B') T) as S.
  split; [exact B'|]. split; [apply same_topo; exact T|].
  split; [destruct m as [h l a b|]; [|destruct H; discriminate]; destruct H as [H|H]; cbn [setTypicalMagnitude setTrustMagnitude] in H; inv_check H; inversion H; reflexivity|].
  split; [intros; symmetry; apply retractation_sim; exact S|]. split; [intros; symmetry; apply pseudoLog_sim; exact S|]. clear H.
  split; intros out H; (destruct m as [h l a b|]; [|discriminate]); cbn [setTypicalMagnitude setTrustMagnitude] in H; inv_check H; inversion H; reflexivity.
Qed.
Print Assumptions C50_setters_frame.

(** "The getters always return" is false: RealSpace::setTypicalMagnitude stores a vector of any size without
    a check, and from then on the getter stops at Eigen's size assertion, here inside R^2 x S2 as well. *)
Theorem C50_setter_size_refuted : exists (m m' p : mfd Z) (v : vec Z),
  built m /\ length v <> tangentDim m /\ setTypicalMagnitude m v = Ok m' /\ built m' /\
  prod2 m' exS2 = Ok p /\ built p /\
  (forall out, exists e, getTypicalMagnitude m' out = Fail e) /\ (forall out, exists e, getTypicalMagnitude p out = Fail e).
Proof.
  assert (B : built exR2) by exact (built_real_mag 2 1%Z _ eq_refl).
  assert (B' : built (get prod_empty (setTypicalMagnitude exR2 [1; 2; 3]%Z))) by (eapply built_typ; [exact B|reflexivity]).
  exists exR2, (get prod_empty (setTypicalMagnitude exR2 [1; 2; 3]%Z)), (get prod_empty (prod2 (get prod_empty (setTypicalMagnitude exR2 [1; 2; 3]%Z)) exS2)), [1; 2; 3]%Z.
  split; [exact B|]. split; [discriminate|]. split; [reflexivity|]. split; [exact B'|]. split; [reflexivity|].
  split; [|split; intros out].
  - apply built_name. eapply built_mult; [eapply built_mult; [apply built_empty|exact B'|reflexivity]|exact (built_s2 [3; 3; 3]%Z _ eq_refl)|reflexivity].
  - do 4 (destruct out as [|? out]; [eexists; reflexivity|]). eexists; reflexivity.
  - do 6 (destruct out as [|? out]; [eexists; reflexivity|]). eexists; reflexivity.
Qed.
Print Assumptions C50_setter_size_refuted.

(** The sizes given to the setters are the only obstacle: a tree whose getters both return was only given sizes of the
    tangent dimension (at the setters' last calls), and then they return for every output vector. *)
Theorem C50_getters_iff : forall (K : Type) (SK : Scalar K) (m : mfd K), built m ->
  ((exists o o' t u, getTypicalMagnitude m o = Ok t /\ getTrustMagnitude m o' = Ok u) <->
   (forall h l t u, In (Leaf h l t u) (leaves m) -> length t = h_tdim h /\ length u = h_tdim h)) /\
  ((exists o o' t u, getTypicalMagnitude m o = Ok t /\ getTrustMagnitude m o' = Ok u) ->
   forall o, length o = tangentDim m -> exists t u, getTypicalMagnitude m o = Ok t /\ getTrustMagnitude m o = Ok u).
Proof.
  intros K SK m B. pose proof (built_wf _ B) as W.
  assert (SI : sized m <-> forall h l t u, In (Leaf h l t u) (leaves m) -> length t = h_tdim h /\ length u = h_tdim h).
  { clear. induction m as [h l a b|h sT sR subs IH] using mfd_ind'; split; intros H.
    - intros h' l' t u [E|[]]. inversion E; subst. inversion H; subst. auto.
    - destruct (H h l a b (or_introl eq_refl)). constructor; assumption.
    - inversion H as [|? ? ? ? Hs]; subst. intros h' l' t u Hin. cbn [leaves] in Hin. apply in_flat_map in Hin. destruct Hin as (s & Hs1 & Hs2).
      rewrite Forall_forall in IH, Hs. exact (proj1 (IH s Hs1) (Hs s Hs1) _ _ _ _ Hs2).
    - constructor. rewrite Forall_forall in *. intros s Hs. apply (IH s Hs). intros h' l' t u Hin. apply (H h' l' t u). cbn [leaves]. apply in_flat_map. eauto. }
  split; [split|].
  - intros (o & o' & t & u & H1 & H2). apply SI. exact (gets_ok_sized m W o o' t u H1 H2).
  - intros H. apply SI in H. exists (repeat k0 (tangentDim m)), (repeat k0 (tangentDim m)), (typs m), (trus m).
    split; [apply gets_typ|apply gets_tru]; auto using repeat_length.
  - intros (o & o' & t & u & H1 & H2) out L. pose proof (gets_ok_sized m W o o' t u H1 H2) as S.
    exists (typs m), (trus m). split; [apply gets_typ|apply gets_tru]; assumption.
Qed.
Print Assumptions C50_getters_iff.

(** Example: R^2 with typical magnitude (5,6) then trust magnitude (7,8), times SO3 with magnitude (1,2,3). *)
Example C50_example : exists m : mfd Z, mags m [5; 6; 1; 2; 3]%Z [7; 8; 1; 2; 3]%Z /\
  getTypicalMagnitude m [0; 0; 0; 0; 0]%Z = Ok [5; 6; 1; 2; 3]%Z.
Proof.
  assert (H1 : mags (get prod_empty (mk_real_mag 2 9%Z)) [9; 9]%Z [9; 9]%Z) by (apply (mags_real_mag 2 9%Z); reflexivity).
  assert (H2 := mags_typ _ _ _ [5; 6]%Z _ H1 eq_refl eq_refl). assert (H3 := mags_tru _ _ _ [7; 8]%Z _ H2 eq_refl eq_refl).
  assert (H4 := mags_mult _ _ _ _ _ _ _ mags_empty H3 eq_refl).
  assert (H5 := mags_mult _ _ _ _ _ _ _ H4 (mags_so3 MapQuat [1; 2; 3]%Z _ eq_refl) eq_refl).
  eexists. split; [exact H5|reflexivity].
Qed.
