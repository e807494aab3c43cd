(** Invariant of reachable manifolds: stored dims and start indices agree with the factors. *)
From Coq Require Import List Arith Bool ZArith Lia.
From Verif Require Import Base Scalar Vec Model_Manifold Spec.
Import ListNotations.

Section Layout.
Context {K : Type} {SK : Scalar K}.

Implicit Types (p m : mfd K) (fs subs pre post : list (mfd K)).

Section Ind.
  Variable P : mfd K -> Prop.
  Hypothesis Hleaf : forall h l a b, P (Leaf h l a b).
  Hypothesis Hprod : forall h sT sR subs, Forall P subs -> P (Prod h sT sR subs).
  Fixpoint mfd_ind' (m : mfd K) : P m :=
    match m with
    | Leaf h l a b => Hleaf h l a b
    | Prod h sT sR subs =>
        Hprod h sT sR subs
          ((fix go l : Forall P l :=
              match l with
              | [] => Forall_nil P
              | s :: l' => Forall_cons s (mfd_ind' s) (go l')
              end) subs)
    end.
End Ind.

(** Prefix sums a, a+d0, a+d0+d1, ... *)
Fixpoint psums (a : nat) (ds : list nat) : list nat :=
  a :: match ds with [] => [] | d :: ds' => psums (a + d) ds' end.

Definition leaf_wf (h : hdr) (l : leaf) (typ tru : vec K) : Prop :=
  match l with
  | LReal => h_tdim h = h_dim h /\ h_rdim h = h_dim h
  | LS2 => h_dim h = 2 /\ h_tdim h = 3 /\ h_rdim h = 3 /\ List.length typ = 3 /\ List.length tru = 3
  | LSO3 mp => h_dim h = 3 /\ h_tdim h = 3 /\ h_rdim h = match mp with MapMatrix => 9 | MapQuat => 4 end
               /\ List.length typ = 3 /\ List.length tru = 3
  end.

Inductive wf : mfd K -> Prop :=
| wf_leaf h l typ tru : leaf_wf h l typ tru -> wf (Leaf h l typ tru)
| wf_prod h sT sR subs :
    h_dim h = sum_list (map dim subs) ->
    h_tdim h = sum_list (map tangentDim subs) ->
    h_rdim h = sum_list (map representationDim subs) ->
    sT = psums 0 (map tangentDim subs) ->
    sR = psums 0 (map representationDim subs) ->
    Forall wf subs ->
    wf (Prod h sT sR subs).

Lemma sum_list_app l1 l2 : sum_list (l1 ++ l2) = sum_list l1 + sum_list l2.
Proof. induction l1; simpl; lia. Qed.

Lemma psums_snoc ds a d : psums a (ds ++ [d]) = psums a ds ++ [a + sum_list ds + d].
Proof.
  revert a; induction ds as [|d0 ds IH]; intros a; simpl.
  - rewrite Nat.add_0_r. reflexivity.
  - rewrite IH. simpl. rewrite !Nat.add_assoc. reflexivity.
Qed.

Lemma psums_back ds a : back (psums a ds) = Ok (a + sum_list ds).
Proof.
  induction ds as [|d ds IH] using rev_ind; simpl.
  - unfold back. simpl. rewrite Nat.add_0_r. reflexivity.
  - rewrite psums_snoc. unfold back. rewrite rev_app_distr. simpl.
    rewrite sum_list_app. simpl. f_equal. lia.
Qed.

Lemma psums_length ds a : List.length (psums a ds) = S (List.length ds).
Proof. revert a; induction ds; intros; simpl; auto. Qed.

Lemma psums_nth ds a i : i <= List.length ds ->
  nth_error (psums a ds) i = Some (a + sum_list (firstn i ds)).
Proof.
  revert a i; induction ds as [|d ds IH]; intros a i H; simpl in *.
  - assert (i = 0) by lia. subst. simpl. rewrite Nat.add_0_r. reflexivity.
  - destruct i; simpl.
    + rewrite Nat.add_0_r. reflexivity.
    + rewrite IH by lia. f_equal. lia.
Qed.

Lemma wf_multiply p m p' : wf p -> wf m -> multiply p m = Ok p' -> wf p'.
Proof.
  intros Hp Hm H. destruct Hp as [|h sT sR subs Hd Ht Hr HT HR Hs]; simpl in H; try discriminate.
  subst sT sR. rewrite !psums_back in H. simpl in H. inversion H; subst p'; clear H.
  constructor; simpl; rewrite ?map_app, ?sum_list_app; simpl; try lia.
  - rewrite psums_snoc. reflexivity.
  - rewrite psums_snoc. reflexivity.
  - apply Forall_app; auto.
Qed.

Lemma multiply_total p m : wf p -> (exists h sT sR subs, p = Prod h sT sR subs) ->
  exists p', multiply p m = Ok p'.
Proof.
  intros Hp (h & sT & sR & subs & ->). inversion Hp; subst. simpl.
  rewrite !psums_back. simpl. eauto.
Qed.

Lemma wf_rename m s : wf m -> wf (rename m s).
Proof.
  intros H; destruct H; simpl; constructor; simpl; auto.
Qed.

Ltac inv_check H :=
  match type of H with
  | (_ <- mnf_assert ?b ;; _) = Ok _ => destruct b eqn:?; simpl in H; try discriminate
  | (_ <- eigen_assert ?b ;; _) = Ok _ => destruct b eqn:?; simpl in H; try discriminate
  | (_ <- ub_unless ?b ;; _) = Ok _ => destruct b eqn:?; simpl in H; try discriminate
  end.

Lemma ctor_inv s d td rd h : manifold_ctor s d td rd = Ok h ->
  (0 <= d)%Z /\ (d <= td)%Z /\ (td <= rd)%Z /\
  h_name h = s /\ h_dim h = Z.to_nat d /\ h_tdim h = Z.to_nat td /\ h_rdim h = Z.to_nat rd.
Proof.
  unfold manifold_ctor. intros H. do 3 inv_check H. inversion H; subst; simpl.
  rewrite !Z.leb_le in *. auto 10.
Qed.

Lemma built_wf m : built m -> wf m.
Proof.
  induction 1 as [n v m H|n c m H|v m H|mp v m H|m v m' Hb IH H|m v m' Hb IH H|m s Hb IH| |p m p' Hp IHp Hm IHm H].
  - unfold mk_real_vec in H. destruct (manifold_ctor _ n n n) eqn:E; simpl in H; [|discriminate].
    apply ctor_inv in E. destruct E as (? & ? & ? & ? & ? & ? & ?). inv_check H. inversion H; subst.
    constructor; simpl. split; congruence.
  - unfold mk_real_mag in H. destruct (manifold_ctor _ n n n) eqn:E; simpl in H; [|discriminate].
    apply ctor_inv in E. destruct E as (? & ? & ? & ? & ? & ? & ?). inversion H; subst.
    constructor; simpl. split; congruence.
  - unfold mk_s2_vec in H. simpl in H. inv_check H. inversion H; subst. apply Nat.eqb_eq in Heqb.
    constructor; simpl; auto.
  - unfold mk_so3_vec in H. destruct mp; simpl in H; inv_check H; inversion H; subst;
    apply Nat.eqb_eq in Heqb; constructor; simpl; auto.
  - destruct m; simpl in H; [|discriminate]. inv_check H. inversion H; subst. inversion IH; subst.
    constructor. destruct l; simpl in *; intuition; apply Nat.eqb_eq; auto.
  - destruct m; simpl in H; [|discriminate]. inv_check H. inversion H; subst. inversion IH; subst.
    constructor. destruct l; simpl in *; intuition; apply Nat.eqb_eq; auto.
  - apply wf_rename; auto.
  - constructor; simpl; auto.
  - exact (wf_multiply p m p' IHp IHm H).
Qed.

Lemma factors_built p fs : factors p fs -> built p.
Proof. induction 1; [constructor|constructor; auto|eapply built_mult; [| |eassumption]; auto]. Qed.

Lemma factors_inv p fs : factors p fs ->
  exists h sT sR, p = Prod h sT sR fs.
Proof.
  induction 1 as [|p fs s H IH|p fs m p' H IH Hm Hmul].
  - unfold prod_empty. eauto.
  - destruct IH as (h & sT & sR & ->). simpl. eauto.
  - destruct IH as (h & sT & sR & ->). simpl in Hmul.
    destruct (back sT); simpl in Hmul; [|discriminate].
    destruct (back sR); simpl in Hmul; [|discriminate].
    inversion Hmul; subst. eauto.
Qed.

Lemma factors_forall_built p fs : factors p fs -> Forall built fs.
Proof.
  induction 1; auto. apply Forall_app; auto.
Qed.

(** Every reachable product has a factor list. *)
Lemma built_factors m : built m -> forall h sT sR subs, m = Prod h sT sR subs -> factors m subs.
Proof.
  induction 1 as [n v m H|n c m H|v m H|mp v m H|m v m' Hb IH H|m v m' Hb IH H|m s Hb IH| |p m p' Hp IHp Hm IHm H];
    intros h sT sR subs E; subst.
  - unfold mk_real_vec in H. destruct (manifold_ctor _ n n n); simpl in H; [|discriminate].
    inv_check H.
  - unfold mk_real_mag in H. destruct (manifold_ctor _ n n n); simpl in H; discriminate.
  - unfold mk_s2_vec in H. simpl in H. inv_check H.
  - unfold mk_so3_vec in H. destruct mp; simpl in H; inv_check H.
  - destruct m; simpl in H; [|discriminate]. inv_check H.
  - destruct m; simpl in H; [|discriminate]. inv_check H.
  - destruct m as [|h0 sT0 sR0 subs0]; simpl in E; inversion E; subst.
    apply (factors_name (Prod h0 sT sR subs)). eapply IH; eauto.
  - inversion E; subst. constructor.
  - destruct p as [|h0 sT0 sR0 subs0]; [discriminate|].
    assert (H' := H). simpl in H'.
    destruct (back sT0); simpl in H'; [|discriminate].
    destruct (back sR0); simpl in H'; [|discriminate].
    inversion H'; subst. eapply factors_mult; eauto.
Qed.

(** ** Views of a well-formed product *)

Lemma at_app {A} (pre : list A) (s : A) (post : list A) : at_ (pre ++ s :: post) (List.length pre) = Ok s.
Proof. unfold at_. rewrite nth_error_app2, Nat.sub_diag by lia. reflexivity. Qed.

Definition starts (D : edim) (subs : list (mfd K)) := psums 0 (map (getDim D) subs).

Lemma wf_prod_getDim D h sT sR subs : wf (Prod h sT sR subs) ->
  getDim D (Prod h sT sR subs) = sum_list (map (getDim D) subs).
Proof. intros H; inversion H; subst. destruct D; auto. Qed.

Lemma at_starts D pre s post :
  at_ (starts D (pre ++ s :: post)) (List.length pre) = Ok (sum_list (map (getDim D) pre)).
Proof.
  unfold at_, starts. rewrite psums_nth.
  - rewrite map_app, firstn_app, map_length, Nat.sub_diag. simpl.
    rewrite app_nil_r, firstn_all2 by (rewrite map_length; lia). reflexivity.
  - rewrite map_length, app_length. simpl. lia.
Qed.

Lemma ltb_len {A} (pre : list A) (s : A) (post : list A) : (List.length pre <? List.length (pre ++ s :: post)) = true.
Proof. apply Nat.ltb_lt. rewrite app_length. simpl. lia. Qed.

Lemma getStart_wf D h sT sR pre s post : wf (Prod h sT sR (pre ++ s :: post)) ->
  getStart D (Prod h sT sR (pre ++ s :: post)) (List.length pre)
  = Ok (sum_list (map (getDim D) pre)).
Proof.
  intros H. inversion H; subst. unfold getStart.
  cbv [numberOfSubManifolds]. rewrite ltb_len. cbn [mnf_assert bind].
  destruct D; [exact (at_starts DR pre s post) | exact (at_starts DT pre s post)].
Qed.

Lemma getDimSub_wf D h sT sR pre s post :
  getDimSub D (Prod h sT sR (pre ++ s :: post)) (List.length pre) = Ok (getDim D s).
Proof.
  unfold getDimSub. cbv [numberOfSubManifolds subManifold]. rewrite ltb_len. cbn [mnf_assert bind].
  rewrite at_app. reflexivity.
Qed.

Lemma view_range_wf D h sT sR pre s post len : wf (Prod h sT sR (pre ++ s :: post)) ->
  len = sum_list (map (getDim D) (pre ++ s :: post)) ->
  view_range D (Prod h sT sR (pre ++ s :: post)) len (List.length pre)
  = Ok (sum_list (map (getDim D) pre), getDim D s).
Proof.
  intros H ->. unfold view_range.
  rewrite (wf_prod_getDim D _ _ _ _ H), Nat.eqb_refl.
  rewrite getStart_wf, getDimSub_wf by assumption.
  cbv [numberOfSubManifolds]. rewrite ltb_len. reflexivity.
Qed.

Lemma skipn_app_exact {A} (a b : list A) : skipn (List.length a) (a ++ b) = b.
Proof. rewrite skipn_app, Nat.sub_diag, skipn_all2 by lia. reflexivity. Qed.
Lemma firstn_app_exact {A} (a b : list A) : firstn (List.length a) (a ++ b) = a.
Proof. rewrite firstn_app, Nat.sub_diag, firstn_all2 by lia. simpl. apply app_nil_r. Qed.

Lemma segment_mid {A} (a b c : list A) (n m : nat) : n = List.length a -> m = List.length b ->
  segment (a ++ b ++ c) n m = Ok b.
Proof.
  intros -> ->. unfold segment. replace (_ <=? _) with true.
  - simpl. rewrite skipn_app_exact, firstn_app_exact. reflexivity.
  - symmetry. apply Nat.leb_le. rewrite !app_length. lia.
Qed.

Lemma set_segment_mid {A} (a b c b' : list A) n : n = List.length a -> List.length b' = List.length b ->
  set_segment (a ++ b ++ c) n b' = a ++ b' ++ c.
Proof.
  intros -> E. unfold set_segment. rewrite firstn_app_exact, E.
  replace (skipn (List.length a + List.length b) (a ++ b ++ c)) with c; auto.
  rewrite app_assoc, <- app_length, skipn_app_exact. reflexivity.
Qed.

Lemma pieces_length D fs xs : pieces D fs xs ->
  List.length (concat xs) = sum_list (map (getDim D) fs).
Proof. induction 1; simpl; auto. rewrite app_length. lia. Qed.

Lemma pieces_app_inv D pre post xs : pieces D (pre ++ post) xs ->
  exists a b, xs = a ++ b /\ pieces D pre a /\ pieces D post b.
Proof. intros H. apply Forall2_app_inv_l in H. destruct H as (a & b & ? & ? & ->). eauto. Qed.

Lemma getView_wf D h sT sR pre s post a x b : wf (Prod h sT sR (pre ++ s :: post)) ->
  pieces D pre a -> List.length x = getDim D s -> pieces D post b ->
  getView D (Prod h sT sR (pre ++ s :: post)) (concat (a ++ x :: b)) (List.length pre) = Ok x.
Proof.
  intros H Ha Hx Hb. unfold getView. rewrite view_range_wf; auto.
  - simpl. rewrite concat_app. simpl. apply segment_mid; auto.
    symmetry. eapply pieces_length; eauto.
  - apply pieces_length. apply Forall2_app; auto; constructor; auto.
Qed.

Lemma on_view_wf D h sT sR pre s post a o b f : wf (Prod h sT sR (pre ++ s :: post)) ->
  pieces D pre a -> List.length o = getDim D s -> pieces D post b ->
  (forall r, f o = Ok r -> List.length r = List.length o) ->
  on_view D (Prod h sT sR (pre ++ s :: post)) (List.length pre) f (concat (a ++ o :: b))
  = (r <- f o ;; Ok (concat (a ++ r :: b))).
Proof.
  intros H Ha Ho Hb Hf. unfold on_view. rewrite view_range_wf; auto.
  - simpl. rewrite concat_app. simpl. rewrite segment_mid; auto.
    + simpl. destruct (f o) as [r|e] eqn:E; simpl; auto.
      rewrite concat_app. simpl. rewrite set_segment_mid with (b := o); auto.
      symmetry. eapply pieces_length; eauto.
    + symmetry. eapply pieces_length; eauto.
  - apply pieces_length. apply Forall2_app; auto; constructor; auto.
Qed.

(** Evaluating an operation factor by factor. *)
Fixpoint evalf (f : nat -> mfd K -> vec K -> res (vec K)) (i : nat) (subs : list (mfd K))
  (outs : list (vec K)) : res (list (vec K)) :=
  match subs, outs with
  | s :: ss, o :: os => r <- f i s o ;; rs <- evalf f (S i) ss os ;; Ok (r :: rs)
  | _, _ => Ok []
  end.

(** A product loop over output views is the factor-by-factor evaluation. *)
Lemma loop_on_view D h sT sR subs f outs : wf (Prod h sT sR subs) ->
  pieces D subs outs ->
  (forall i s o r, In s subs -> List.length o = getDim D s -> f i s o = Ok r -> List.length r = List.length o) ->
  loop (fun i s out => on_view D (Prod h sT sR subs) i (f i s) out) 0 subs (concat outs)
  = (ys <- evalf f 0 subs outs ;; Ok (concat ys)).
Proof.
  intros Hwf Hp Hlen.
  cut (forall post pre a b, subs = pre ++ post -> pieces D pre a -> pieces D post b ->
       loop (fun i s out => on_view D (Prod h sT sR subs) i (f i s) out) (List.length pre) post (concat (a ++ b))
       = (ys <- evalf f (List.length pre) post b ;; Ok (concat (a ++ ys)))).
  { intros H. specialize (H subs [] [] outs eq_refl (Forall2_nil _) Hp). exact H. }
  induction post as [|s post IH]; intros pre a b E Ha Hb.
  - inversion Hb; subst. reflexivity.
  - inversion Hb as [|? o ? b' Ho Hb']; subst. cbn [loop evalf].
    rewrite on_view_wf; auto.
    + destruct (f (List.length pre) s o) as [r|e] eqn:Ef; cbn [bind]; auto.
      assert (Hr : List.length r = getDim D s).
      { rewrite <- Ho. eapply Hlen; eauto. apply in_or_app; simpl; auto. }
      specialize (IH (pre ++ [s]) (a ++ [r]) b').
      rewrite <- !app_assoc in IH. cbn [app] in IH. rewrite app_length in IH. cbn [List.length] in IH.
      rewrite Nat.add_1_r in IH. etransitivity; [apply IH; auto|].
      * apply Forall2_app; auto.
      * destruct (evalf f (S (List.length pre)) post b'); cbn [bind]; auto.
        rewrite <- app_assoc. reflexivity.
    + intros r Hr. eapply Hlen; eauto. apply in_or_app; simpl; auto.
Qed.

End Layout.

Ltac inv_check H :=
  match type of H with
  | (_ <- mnf_assert ?b ;; _) = Ok _ => destruct b eqn:?; simpl in H; try discriminate
  | (_ <- eigen_assert ?b ;; _) = Ok _ => destruct b eqn:?; simpl in H; try discriminate
  | (_ <- ub_unless ?b ;; _) = Ok _ => destruct b eqn:?; simpl in H; try discriminate
  end.
