(** Proofs for the structural properties C01-C03. *)
From Coq Require Import List Arith Bool ZArith Lia.
From Verif Require Import Base Scalar Vec Model_Real Model_S2 Model_SO3 Model_Manifold Spec Layout Comp Indep Flat.
Import ListNotations.

Section Structure.
Context {K : Type} {SK : Scalar K}.
Implicit Types (p m : mfd K) (fs subs pre post : list (mfd K)).

Lemma split_at (i : nat) fs : i < List.length fs ->
  exists s, fs = firstn i fs ++ s :: skipn (S i) fs /\ nth_error fs i = Some s /\ List.length (firstn i fs) = i.
Proof.
  intros Hi. destruct (nth_error fs i) as [s|] eqn:E.
  - exists s. repeat split; auto.
    + rewrite <- (firstn_skipn i fs) at 1. f_equal. clear Hi. revert fs E.
      induction i; intros [|a fs] E; simpl in *; try discriminate; auto.
      inversion E; auto.
    + rewrite firstn_length. lia.
  - apply nth_error_None in E. lia.
Qed.

Lemma factors_wf p fs : factors p fs ->
  exists h sT sR, p = Prod h sT sR fs /\ wf p.
Proof.
  intros H. destruct (factors_inv _ _ H) as (h & sT & sR & ->). exists h, sT, sR. split; auto.
  apply built_wf. eapply factors_built; eauto.
Qed.

Lemma layout_dims p fs : factors p fs ->
  dim p = sum_list (map dim fs) /\ tangentDim p = sum_list (map tangentDim fs) /\
  representationDim p = sum_list (map representationDim fs) /\ numberOfSubManifolds p = List.length fs.
Proof.
  intros H. destruct (factors_wf _ _ H) as (h & sT & sR & -> & Hwf). inversion Hwf; subst; auto.
Qed.

Lemma layout_sub p fs i : factors p fs ->
  match nth_error fs i with
  | Some s => subManifold p i = Ok s /\
              (forall D, getStart D p i = Ok (sum_list (map (getDim D) (firstn i fs)))
                         /\ getDimSub D p i = Ok (getDim D s))
  | None => subManifold p i = Fail EAssert /\
            (forall D, getStart D p i = Fail EAssert /\ getDimSub D p i = Fail EAssert)
  end.
Proof.
  intros H. destruct (factors_wf _ _ H) as (h & sT & sR & -> & Hwf).
  destruct (nth_error fs i) as [s|] eqn:E.
  - assert (Hi : i < List.length fs) by (apply nth_error_Some; congruence).
    destruct (split_at i fs Hi) as (s' & Es & E' & El). assert (s' = s) by congruence. subst s'.
    split.
    + cbv [subManifold]. apply Nat.ltb_lt in Hi. rewrite Hi. unfold at_. rewrite E. reflexivity.
    + intros D. rewrite Es in Hwf. pose proof (getStart_wf D h sT sR _ _ _ Hwf) as G.
      pose proof (getDimSub_wf D h sT sR (firstn i fs) s (skipn (S i) fs)) as G'.
      rewrite <- Es, El in G, G'. auto.
  - apply nth_error_None in E. assert (Hi : (i <? List.length fs) = false) by (apply Nat.ltb_ge; auto).
    split; [cbv [subManifold]; rewrite Hi; reflexivity|].
    intros D. unfold getStart, getDimSub. cbv [numberOfSubManifolds]. rewrite Hi. auto.
Qed.

Lemma views_tile p fs D (v : vec K) : factors p fs -> List.length v = getDim D p ->
  exists xs, pieces D fs xs /\ concat xs = v /\
    (forall i, i < List.length fs -> getView D p v i = Ok (nth i xs [])) /\
    (forall i, List.length fs <= i -> getView D p v i = Fail EAssert).
Proof.
  intros H Hv. destruct (factors_wf _ _ H) as (h & sT & sR & -> & Hwf).
  rewrite (wf_prod_getDim _ _ _ _ _ Hwf) in Hv.
  destruct (cut_pieces D fs v Hv) as (xs & -> & Hp). exists xs. repeat split; auto.
  - intros i Hi. apply getView_nth; auto.
  - intros i Hi. unfold getView, view_range. cbv [numberOfSubManifolds].
    apply Nat.ltb_ge in Hi. rewrite Hi. reflexivity.
Qed.

Lemma nth_set_segment {A} (v w : list A) s d k : s + List.length w <= List.length v ->
  nth k (set_segment v s w) d = if (s <=? k) && (k <? s + List.length w) then nth (k - s) w d else nth k v d.
Proof.
  intros Hl. unfold set_segment.
  destruct (s <=? k) eqn:E1; simpl.
  - apply Nat.leb_le in E1. rewrite app_nth2; rewrite firstn_length_le by lia; [|lia].
    destruct (k <? s + List.length w) eqn:E2.
    + apply Nat.ltb_lt in E2. rewrite app_nth1 by lia. reflexivity.
    + apply Nat.ltb_ge in E2. rewrite app_nth2 by lia.
      rewrite <- (firstn_skipn (s + List.length w) v) at 2.
      rewrite (app_nth2 (firstn _ _)); rewrite firstn_length_le by lia; [|lia]. f_equal. lia.
  - apply Nat.leb_gt in E1. rewrite app_nth1 by (rewrite firstn_length_le; lia).
    rewrite <- (firstn_skipn s v) at 2. rewrite (app_nth1 (firstn _ _)); auto. rewrite firstn_length_le; lia.
Qed.

Lemma view_write p fs D (v w : vec K) i s : factors p fs -> List.length v = getDim D p ->
  nth_error fs i = Some s -> List.length w = getDim D s ->
  exists v', on_view D p i (fun _ => Ok w) v = Ok v' /\ List.length v' = List.length v /\
    forall k d, nth k v' d =
      (let a := sum_list (map (getDim D) (firstn i fs)) in
       if (a <=? k) && (k <? a + getDim D s) then nth (k - a) w d else nth k v d).
Proof.
  intros H Hv Hs Hw. destruct (factors_wf _ _ H) as (h & sT & sR & -> & Hwf).
  rewrite (wf_prod_getDim _ _ _ _ _ Hwf) in Hv.
  assert (Hi : i < List.length fs) by (apply nth_error_Some; congruence).
  destruct (split_at i fs Hi) as (s' & Es & E' & El). assert (s' = s) by congruence. subst s'.
  unfold on_view. rewrite Es in Hwf. rewrite Es in Hv. pose proof (view_range_wf D h sT sR _ _ _ _ Hwf Hv) as G.
  rewrite <- Es, El in G. rewrite G. cbn [bind]. rewrite map_app, sum_list_app in Hv. simpl in Hv.
  unfold segment. replace (_ <=? List.length v) with true by (symmetry; apply Nat.leb_le; lia).
  cbn [bind eigen_assert]. eexists; split; [reflexivity|]. split.
  - apply set_segment_length. lia.
  - intros k d. rewrite nth_set_segment by lia. rewrite Hw. reflexivity.
Qed.

(** Out-of-range or ill-sized view requests are refused. *)
Lemma view_refused p fs D (v : vec K) f i : factors p fs ->
  List.length fs <= i \/ List.length v <> getDim D p ->
  getView D p v i = Fail EAssert /\ on_view D p i f v = Fail EAssert.
Proof.
  intros H Hb. destruct (factors_wf _ _ H) as (h & sT & sR & -> & Hwf).
  assert (G : view_range D (Prod h sT sR fs) (List.length v) i = Fail EAssert).
  { unfold view_range. cbv [numberOfSubManifolds]. destruct Hb as [Hb|Hb].
    - apply Nat.ltb_ge in Hb. rewrite Hb. reflexivity.
    - apply Nat.eqb_neq in Hb. rewrite Hb. destruct (_ <? _); reflexivity. }
  unfold getView, on_view. rewrite G. auto.
Qed.
End Structure.
