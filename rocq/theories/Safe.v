(** No operation on a manifold built through the API touches memory outside its arguments. *)
From Coq Require Import List Arith Bool ZArith Lia.
From Verif Require Import Base Scalar Vec Model_Real Model_S2 Model_SO3 Model_Manifold Spec Layout.
Import ListNotations.

Section Safe.
Context {K : Type} {SK : Scalar K}.

Definition safe {A} (r : res A) : Prop := r <> Fail EUB.

Lemma safe_ok {A} (a : A) : safe (Ok a). Proof. discriminate. Qed.
Lemma safe_bind {A B} (r : res A) (f : A -> res B) : safe r -> (forall a, r = Ok a -> safe (f a)) -> safe (bind r f).
Proof. unfold safe. destruct r; cbn; auto. intros H _ E. apply H. congruence. Qed.
Lemma safe_mnf b : safe (mnf_assert b). Proof. destruct b; discriminate. Qed.
Lemma safe_eigen b : safe (eigen_assert b). Proof. destruct b; discriminate. Qed.
Lemma safe_check {A} b (r : res A) : (b = true -> safe r) -> safe (_ <- mnf_assert b ;; r).
Proof. intros H. destruct b; cbn; auto. discriminate. Qed.
Lemma safe_echeck {A} b (r : res A) : (b = true -> safe r) -> safe (_ <- eigen_assert b ;; r).
Proof. intros H. destruct b; cbn; auto. discriminate. Qed.
Lemma safe_loop {A B} (f : nat -> B -> A -> res A) l : (forall i b a, In b l -> safe (f i b a)) -> forall i a, safe (loop f i l a).
Proof.
  induction l as [|b l IH]; intros H i a; cbn; [discriminate|]. apply safe_bind; [apply H; cbn; auto|]. intros. apply IH. intros. apply H. cbn; auto.
Qed.
Lemma safe_segment {A} (v : list A) s n : safe (segment v s n).
Proof. unfold segment. apply safe_echeck. discriminate. Qed.
Lemma safe_assign {A} (o v : list A) : safe (assign o v).
Proof. unfold assign. apply safe_echeck. discriminate. Qed.
Lemma safe_massign (o v : mat K) : safe (massign o v).
Proof. unfold massign. apply safe_echeck. discriminate. Qed.
Lemma safe_same (x y : vec K) : safe (same_size x y). Proof. apply safe_eigen. Qed.
Lemma safe_vec3 (x : vec K) : safe (as_vec3 x). Proof. unfold as_vec3. apply safe_echeck. discriminate. Qed.
Lemma safe_m3_read (x : vec K) : List.length x = 9 -> safe (m3_read x).
Proof. intros H. do 10 (destruct x as [|? x]; try discriminate H). discriminate. Qed.
Lemma safe_quat_read (x : vec K) : List.length x = 4 -> safe (quat_read x).
Proof. intros H. do 5 (destruct x as [|? x]; try discriminate H). discriminate. Qed.
Lemma safe_raw_write (o l : vec K) : List.length l <= List.length o -> safe (raw_write o l).
Proof. intros H. unfold raw_write. replace (_ <=? _) with true by (symmetry; apply Nat.leb_le; auto). discriminate. Qed.
Lemma raw_write_length (o l r : vec K) : raw_write o l = Ok r -> List.length r = List.length o.
Proof.
  unfold raw_write. destruct (Nat.leb_spec (List.length l) (List.length o)); cbn; [|discriminate]. intros [= <-]. rewrite app_length, skipn_length. lia.
Qed.

(** ** Leaves *)
Lemma safe_em_exponential v : safe (em_exponential v).
Proof. do 4 (destruct v as [|? v]; try discriminate). cbn [em_exponential]. apply safe_check. intros _. destruct (_ <? _)%k; discriminate. Qed.
Lemma safe_em_retractation out x v : List.length out = 9 -> List.length x = 9 -> safe (em_retractation out x v).
Proof. intros Ho Hx. apply safe_bind; [apply safe_em_exponential|]. intros. apply safe_bind; [apply safe_m3_read; auto|]. intros. apply safe_raw_write. cbn. lia. Qed.
Lemma safe_em_logarithm out R : safe (em_logarithm out R).
Proof. unfold em_logarithm. destruct (_ <? _)%k; apply safe_assign. Qed.
Lemma safe_em_forceOnM out inp : List.length out = 9 -> List.length inp = 9 -> safe (em_forceOnM out inp).
Proof.
  intros Ho Hi. unfold em_forceOnM. apply safe_bind; [apply safe_m3_read; auto|]. intros M _. apply safe_check. intros _. apply safe_raw_write.
  rewrite !app_length. unfold vdivs, vsub. rewrite !map_length. unfold col0, col1, col2. cbn. lia.
Qed.
Lemma safe_em_diffRetractation x : safe (em_diffRetractation x).
Proof. do 10 (destruct x as [|? x]; try discriminate). Qed.
Lemma safe_em_diffPseudoLog0 x : safe (em_diffPseudoLog0 x).
Proof. do 10 (destruct x as [|? x]; try discriminate). Qed.
Lemma safe_eq_exponential q v : safe (eq_exponential q v).
Proof. do 4 (destruct v as [|? v]; try discriminate). cbn [eq_exponential]. apply safe_check. intros _. destruct (_ <? _)%k; discriminate. Qed.
Lemma safe_eq_retractation out x v : List.length out = 4 -> List.length x = 4 -> safe (eq_retractation out x v).
Proof.
  intros Ho Hx. apply safe_bind; [apply safe_eq_exponential|]. intros. apply safe_bind; [apply safe_quat_read; auto|]. intros.
  apply safe_bind; [apply safe_quat_read; auto|]. intros. apply safe_raw_write. cbn. lia.
Qed.
Lemma safe_eq_logarithm out q : safe (eq_logarithm out q).
Proof. unfold eq_logarithm. destruct (_ && _); apply safe_assign. Qed.
Lemma safe_eq_forceOnM out inp : List.length out = 4 -> List.length inp = 4 -> safe (eq_forceOnM out inp).
Proof.
  intros Ho Hx. apply safe_bind; [apply safe_quat_read; auto|]. intros. apply safe_bind; [apply safe_quat_read; auto|]. intros. apply safe_raw_write. cbn. lia.
Qed.
Lemma safe_eq_diffRetractation x : List.length x = 4 -> safe (eq_diffRetractation x).
Proof. intros H. apply safe_bind; [apply safe_quat_read; auto|]. discriminate. Qed.
Lemma safe_eq_diffPseudoLog0 x : List.length x = 4 -> safe (eq_diffPseudoLog0 x).
Proof. intros H. apply safe_bind; [apply safe_quat_read; auto|]. intros q _. cbv zeta. destruct (_ && _); discriminate. Qed.
Lemma safe_rot (x y : vec K) : safe (computeRotBetweenVec x y).
Proof.
  apply safe_bind; [apply safe_vec3|]. intros x' Ex. apply safe_bind; [apply safe_vec3|]. intros y' Ey. apply safe_check. intros _.
  assert (H : forall z : vec K, safe (hat z) /\ safe (hat2 z)) by (intros z; do 4 (destruct z as [|? z]; try (split; discriminate))).
  apply safe_bind; [apply H|]. intros. apply safe_bind; [apply H|]. discriminate.
Qed.

(** ** Products *)
Lemma safe_getStart D (m : mfd K) i : wf m -> safe (getStart D m i).
Proof.
  intros H. unfold getStart. apply safe_check. intros Hi. destruct m as [|h sT sR subs]; [discriminate|]. apply safe_check. intros Hj.
  inversion H; subst. unfold at_, safe. apply Nat.ltb_lt in Hj.
  destruct D; (destruct (nth_error _ i) eqn:E; [discriminate|]); apply nth_error_None in E; rewrite psums_length, map_length in E; lia.
Qed.
Lemma safe_subManifold (m : mfd K) i : safe (subManifold m i).
Proof.
  destruct m; cbn; apply safe_check; intros H; [discriminate|]. apply Nat.ltb_lt in H. unfold at_, safe. destruct (nth_error _ i) eqn:E; [discriminate|]. apply nth_error_None in E. lia.
Qed.
Lemma safe_getDimSub D (m : mfd K) i : safe (getDimSub D m i).
Proof. unfold getDimSub. apply safe_check. intros _. apply safe_bind; [apply safe_subManifold|]. discriminate. Qed.
Lemma safe_view_range D (m : mfd K) len i : wf m -> safe (view_range D m len i).
Proof.
  intros H. unfold view_range. apply safe_check. intros _. apply safe_check. intros _. apply safe_bind; [apply safe_getStart; auto|]. intros.
  apply safe_bind; [apply safe_getDimSub|]. discriminate.
Qed.
Lemma safe_getView D (m : mfd K) v i : wf m -> safe (getView D m v i).
Proof. intros H. apply safe_bind; [apply safe_view_range; auto|]. intros [s d] _. apply safe_segment. Qed.
Lemma safe_on_view D (m : mfd K) i f out : wf m -> (forall o, safe (f o)) -> safe (on_view D m i f out).
Proof.
  intros H Hf. apply safe_bind; [apply safe_view_range; auto|]. intros [s d] _. apply safe_bind; [apply safe_segment|]. intros. apply safe_bind; [apply Hf|]. discriminate.
Qed.
Lemma safe_middleCols (M : mat K) s n : safe (middleCols M s n).
Proof. apply safe_bind; [apply safe_segment|]. discriminate. Qed.
Lemma safe_middleRows (M : mat K) s n : safe (middleRows M s n).
Proof. unfold middleRows. apply safe_echeck. discriminate. Qed.
Lemma safe_getCols D (m : mfd K) M i : wf m -> safe (getCols D m M i).
Proof. intros H. apply safe_bind; [apply safe_getStart; auto|]. intros. apply safe_bind; [apply safe_getDimSub|]. intros. apply safe_middleCols. Qed.
Lemma safe_getRows D (m : mfd K) M i : wf m -> safe (getRows D m M i).
Proof. intros H. apply safe_bind; [apply safe_getStart; auto|]. intros. apply safe_bind; [apply safe_getDimSub|]. intros. apply safe_middleRows. Qed.
Lemma safe_on_cols D (m : mfd K) i f out : wf m -> (forall o, safe (f o)) -> safe (on_cols D m i f out).
Proof.
  intros H Hf. apply safe_bind; [apply safe_getStart; auto|]. intros. apply safe_bind; [apply safe_getDimSub|]. intros. apply safe_bind; [apply safe_middleCols|]. intros.
  apply safe_bind; [apply Hf|]. discriminate.
Qed.
Lemma safe_on_rows D (m : mfd K) i f out : wf m -> (forall o, safe (f o)) -> safe (on_rows D m i f out).
Proof.
  intros H Hf. apply safe_bind; [apply safe_getStart; auto|]. intros. apply safe_bind; [apply safe_getDimSub|]. intros. apply safe_bind; [apply safe_middleRows|]. intros.
  apply safe_bind; [apply Hf|]. discriminate.
Qed.
Lemma safe_on_block D D' (m : mfd K) i j f out : wf m -> (forall o, safe (f o)) -> safe (on_block D D' m i j f out).
Proof.
  intros H Hf. do 2 (apply safe_bind; [apply safe_getStart; auto|]; intros). do 2 (apply safe_bind; [apply safe_getDimSub|]; intros).
  apply safe_bind; [apply safe_bind; [apply safe_middleCols|intros; apply safe_middleRows]|]. intros. apply safe_bind; [apply Hf|]. discriminate.
Qed.

Lemma wf_subs h sT sR (subs : list (mfd K)) s : wf (Prod h sT sR subs) -> In s subs -> wf s.
Proof. intros H Hi. inversion H; subst. rewrite Forall_forall in *. auto. Qed.

(** Checks, in order, with their boolean turned into an equation. *)
Ltac checks :=
  repeat (first [apply safe_check | apply safe_echeck];
          let E := fresh "E" in intros E; first [apply Nat.eqb_eq in E | apply Z.eqb_eq in E | idtac]).
Ltac leaf_dims H :=
  match type of H with wf (Leaf _ _ _ _) => inversion H; subst; clear H;
    match goal with L : leaf_wf _ _ _ _ |- _ => cbn [leaf_wf] in L; unfold representationDim, tangentDim, dim in *; cbn [hdr_of] in *; decompose [and] L; clear L end end.
Ltac sub H := let Hs := fresh "Hs" in let s := fresh "s" in let i := fresh "i" in
  apply safe_loop; intros i s ? Hs; apply (wf_subs _ _ _ _ _ H) in Hs.


Ltac go H := first [discriminate | apply safe_assign | apply safe_massign | apply safe_em_logarithm | apply safe_eq_logarithm |
  apply safe_em_retractation | apply safe_eq_retractation | apply safe_em_forceOnM | apply safe_eq_forceOnM | apply safe_m3_read | apply safe_quat_read |
  apply safe_em_diffRetractation | apply safe_eq_diffRetractation | apply safe_em_diffPseudoLog0 | apply safe_eq_diffPseudoLog0 | apply safe_rot |
  apply safe_same | apply safe_vec3 | apply safe_segment | apply safe_middleRows | apply safe_middleCols |
  (apply safe_getView; exact H) | (apply safe_getCols; exact H) | (apply safe_getRows; exact H) | (apply safe_view_range; exact H)]; try lia.
Ltac steps H := repeat first [go H | progress checks | apply safe_bind; [solve [go H]|intros]].
Ltac pick IH H := rewrite Forall_forall in IH;
  match goal with Hs : In ?s _ |- _ => first [apply IH; [exact Hs|exact (wf_subs _ _ _ _ _ H Hs)]] end.

Lemma safe_isInM (m : mfd K) : wf m -> forall v prec, safe (isInM m v prec).
Proof.
  induction m as [h l typ tru|h sT sR subs IH] using mfd_ind'; intros H v prec; cbn [isInM]; checks.
  - destruct l as [| |[]]; leaf_dims H; try discriminate; apply safe_bind; try discriminate; [apply safe_m3_read|apply safe_quat_read]; lia.
  - apply safe_loop. intros i s [] Hs; [|discriminate]. steps H. pick IH H.
Qed.
Lemma safe_isInTxM (m : mfd K) : wf m -> forall x v prec, safe (isInTxM m x v prec).
Proof.
  induction m as [h l typ tru|h sT sR subs IH] using mfd_ind'; intros H x v prec; cbn [isInTxM]; checks.
  - destruct l as [| |[]]; discriminate.
  - apply safe_loop. intros i s [] Hs; [|discriminate]. steps H. pick IH H.
Qed.
Lemma safe_forceOnM (m : mfd K) : wf m -> forall out inp, safe (forceOnM m out inp).
Proof.
  induction m as [h l typ tru|h sT sR subs IH] using mfd_ind'; intros H out inp; cbn [forceOnM]; checks.
  - destruct l as [| |[]]; leaf_dims H; go H.
  - apply safe_loop. intros i s a Hs. apply safe_on_view; auto. intros. steps H. pick IH H.
Qed.
Lemma safe_retractation (m : mfd K) : wf m -> forall out x v, safe (retractation m out x v).
Proof.
  induction m as [h l typ tru|h sT sR subs IH] using mfd_ind'; intros H out x v; cbn [retractation]; checks;
    (apply safe_bind; [apply safe_isInTxM; auto|]; intros b _; checks).
  - destruct l as [| |[]]; leaf_dims H; try solve [go H]; (apply safe_bind; [go H|]; intros; steps H).
  - apply safe_loop. intros i s a Hs. apply safe_on_view; auto. intros. steps H. pick IH H.
Qed.
Lemma safe_pseudoLog (m : mfd K) : wf m -> forall out x y, safe (pseudoLog m out x y).
Proof.
  induction m as [h l typ tru|h sT sR subs IH] using mfd_ind'; intros H out x y; cbn [pseudoLog]; checks.
  - destruct l as [| |[]]; leaf_dims H; unfold real_pseudoLog, s2_pseudoLog, s2_logarithm, s2_projVec, s2_distance, em_pseudoLog, eq_pseudoLog; steps H.
    apply safe_bind; [steps H|]. intros. apply safe_bind; [steps H|]. intros. go H.
  - apply safe_loop. intros i s a Hs. apply safe_on_view; auto. intros. steps H. pick IH H.
Qed.
Lemma safe_pseudoLog0 (m : mfd K) : wf m -> forall out x, safe (pseudoLog0 m out x).
Proof.
  induction m as [h l typ tru|h sT sR subs IH] using mfd_ind'; intros H out x; cbn [pseudoLog0]; checks.
  - destruct l as [| |[]]; leaf_dims H; unfold real_pseudoLog0, em_pseudoLog0, eq_pseudoLog0; steps H.
  - apply safe_loop. intros i s a Hs. apply safe_on_view; auto. intros. steps H. pick IH H.
Qed.
Lemma safe_em_setZero (out : vec K) : List.length out = 9 -> safe (em_setZero out).
Proof. intros. apply safe_raw_write. cbn. lia. Qed.
Lemma safe_eq_setZero (out : vec K) : List.length out = 4 -> safe (eq_setZero out).
Proof. intros. apply safe_bind; [apply safe_quat_read; auto|]. intros. apply safe_raw_write. cbn. lia. Qed.
Lemma safe_setZero (m : mfd K) : wf m -> forall out, safe (setZero m out).
Proof.
  induction m as [h l typ tru|h sT sR subs IH] using mfd_ind'; intros H out; cbn [setZero]; checks.
  - destruct l as [| |[]]; leaf_dims H; unfold s2_setZero; try solve [steps H]; [apply safe_em_setZero|apply safe_eq_setZero]; lia.
  - apply safe_loop. intros i s a Hs. apply safe_on_view; auto. intros. pick IH H.
Qed.
Lemma safe_forceOnTxM (m : mfd K) : wf m -> forall out inp x, safe (forceOnTxM m out inp x).
Proof.
  induction m as [h l typ tru|h sT sR subs IH] using mfd_ind'; intros H out inp x; cbn [forceOnTxM]; checks.
  - destruct l as [| |[]]; unfold s2_forceOnTxM; steps H.
  - apply safe_loop. intros i s a Hs. apply safe_on_view; auto. intros. steps H. pick IH H.
Qed.
Lemma safe_limitMap (m : mfd K) : wf m -> forall out, safe (limitMap m out).
Proof.
  induction m as [h l typ tru|h sT sR subs IH] using mfd_ind'; intros H out; cbn [limitMap]; checks.
  - destruct l as [| |[]]; discriminate.
  - apply safe_loop. intros i s a Hs. apply safe_on_view; auto. intros. pick IH H.
Qed.
Lemma safe_getTypicalMagnitude (m : mfd K) : wf m -> forall out, safe (getTypicalMagnitude m out).
Proof.
  induction m as [h l typ tru|h sT sR subs IH] using mfd_ind'; intros H out; cbn [getTypicalMagnitude]; checks.
  - discriminate.
  - apply safe_loop. intros i s a Hs. apply safe_on_view; auto. intros. pick IH H.
Qed.
Lemma safe_getTrustMagnitude (m : mfd K) : wf m -> forall out, safe (getTrustMagnitude m out).
Proof.
  induction m as [h l typ tru|h sT sR subs IH] using mfd_ind'; intros H out; cbn [getTrustMagnitude]; checks.
  - discriminate.
  - apply safe_loop. intros i s a Hs. apply safe_on_view; auto. intros. pick IH H.
Qed.
Lemma safe_diffRetractation (m : mfd K) : wf m -> forall x, safe (diffRetractation m x).
Proof.
  induction m as [h l typ tru|h sT sR subs IH] using mfd_ind'; intros H x; cbn [diffRetractation]; checks.
  - destruct l as [| |[]]; leaf_dims H; go H.
  - apply safe_loop. intros i s a Hs. apply safe_on_block; auto. intros. apply safe_bind; [go H|]. intros. apply safe_bind; [pick IH H|]. intros. go H.
Qed.
Lemma safe_diffPseudoLog0 (m : mfd K) : wf m -> forall x, safe (diffPseudoLog0 m x).
Proof.
  induction m as [h l typ tru|h sT sR subs IH] using mfd_ind'; intros H x; cbn [diffPseudoLog0]; checks.
  - destruct l as [| |[]]; leaf_dims H; go H.
  - apply safe_loop. intros i s a Hs. apply safe_on_block; auto. intros. apply safe_bind; [go H|]. intros. apply safe_bind; [pick IH H|]. intros. go H.
Qed.
Lemma safe_applyDiffRetractation (m : mfd K) : wf m -> forall out inp x, safe (applyDiffRetractation m out inp x).
Proof.
  induction m as [h l typ tru|h sT sR subs IH] using mfd_ind'; intros H out inp x; cbn [applyDiffRetractation]; checks.
  - destruct l as [| |[]]; leaf_dims H; unfold s2_applyDiffRetractation, s2_projRows, em_applyDiffRetractation, eq_applyDiffRetractation; try solve [steps H];
    checks; (apply safe_bind; [go H|]); intros; go H.
  - apply safe_loop. intros i s a Hs. apply safe_on_cols; auto. intros. steps H. pick IH H.
Qed.
Lemma safe_applyDiffPseudoLog0 (m : mfd K) : wf m -> forall out inp x, safe (applyDiffPseudoLog0 m out inp x).
Proof.
  induction m as [h l typ tru|h sT sR subs IH] using mfd_ind'; intros H out inp x; cbn [applyDiffPseudoLog0]; checks.
  - destruct l as [| |[]]; leaf_dims H; unfold em_applyDiffPseudoLog0, eq_applyDiffPseudoLog0; try solve [steps H];
    checks; (apply safe_bind; [go H|]); intros; go H.
  - apply safe_loop. intros i s a Hs. apply safe_on_cols; auto. intros. steps H. pick IH H.
Qed.
Lemma safe_transport_checks m x v : wf m -> safe (transport_checks m x v).
Proof. intros H. unfold transport_checks. checks. apply safe_bind; [apply safe_isInTxM; auto|]. intros. apply safe_mnf. Qed.
Lemma safe_m3_on_cols A out inp : safe (m3_on_cols A out inp).
Proof. unfold m3_on_cols. apply safe_echeck. discriminate. Qed.
Lemma safe_applyTransport (m : mfd K) : wf m -> forall out inp x v, safe (applyTransport m out inp x v).
Proof.
  induction m as [h l typ tru|h sT sR subs IH] using mfd_ind'; intros H out inp x v; cbn [applyTransport]; checks; (apply safe_bind; [apply safe_transport_checks; auto|]; intros).
  - destruct l as [| |[]]; try solve [go H]. apply safe_bind; [apply safe_retractation; auto|]. intros. apply safe_bind; [apply safe_rot|]. intros. apply safe_m3_on_cols.
  - apply safe_loop. intros i s o Hs. apply safe_on_rows; auto. intros. steps H. pick IH H.
Qed.
Lemma safe_applyInvTransport (m : mfd K) : wf m -> forall out inp x v, safe (applyInvTransport m out inp x v).
Proof.
  induction m as [h l typ tru|h sT sR subs IH] using mfd_ind'; intros H out inp x v; cbn [applyInvTransport]; checks; (apply safe_bind; [apply safe_transport_checks; auto|]; intros).
  - destruct l as [| |[]]; try solve [go H]. apply safe_bind; [apply safe_retractation; auto|]. intros. apply safe_bind; [apply safe_rot|]. intros. apply safe_m3_on_cols.
  - apply safe_loop. intros i s o Hs. apply safe_on_cols; auto. intros. steps H. pick IH H.
Qed.
Lemma safe_applyInvTransportOnTheRight (m : mfd K) : wf m -> forall out inp x v, safe (applyInvTransportOnTheRight m out inp x v).
Proof.
  induction m as [h l typ tru|h sT sR subs IH] using mfd_ind'; intros H out inp x v; cbn [applyInvTransportOnTheRight]; checks; (apply safe_bind; [apply safe_transport_checks; auto|]; intros).
  - destruct l as [| |[]]; try solve [go H]. apply safe_bind; [apply safe_retractation; auto|]. intros. apply safe_bind; [apply safe_rot|]. intros. apply safe_echeck. discriminate.
  - apply safe_loop. intros i s o Hs. apply safe_on_cols; auto. intros. steps H. pick IH H.
Qed.
Lemma safe_tangentConstraint (m : mfd K) : wf m -> forall out x, safe (tangentConstraint m out x).
Proof.
  induction m as [h l typ tru|h sT sR subs IH] using mfd_ind'; intros H out x; cbn [tangentConstraint]; checks.
  - destruct l as [| |[]]; try discriminate. apply safe_massign.
  - apply safe_bind; [|discriminate]. apply safe_loop. intros i s [o k] Hs. apply safe_bind; [|discriminate]. apply safe_on_cols; auto. intros.
    apply safe_bind; [go H|]. intros. apply safe_bind; [go H|]. intros. apply safe_bind; [pick IH H|]. discriminate.
Qed.
Lemma safe_getIdentityOnTxM (m : mfd K) : wf m -> forall out x, safe (getIdentityOnTxM m out x).
Proof.
  induction m as [h l typ tru|h sT sR subs IH] using mfd_ind'; intros H out x; cbn [getIdentityOnTxM]; checks.
  - destruct l as [| |[]]; try discriminate. unfold s2_getIdentityOnTxM. apply safe_bind; [go H|]. intros. apply safe_echeck. discriminate.
  - apply safe_loop. intros i s a Hs. apply safe_bind.
    + apply safe_on_block; auto. intros. apply safe_bind; [go H|]. intros. pick IH H.
    + intros. apply safe_loop. intros j b o _. apply safe_bind; [apply safe_on_block; auto; discriminate|]. intros. apply safe_on_block; auto. discriminate.
Qed.
Lemma em_setZero_length (out z : vec K) : em_setZero out = Ok z -> List.length z = List.length out.
Proof. apply raw_write_length. Qed.
Lemma safe_createRandomPoint (m : mfd K) : wf m -> forall out coeff rnd pos, safe (createRandomPoint m out coeff rnd pos).
Proof.
  induction m as [h l typ tru|h sT sR subs IH] using mfd_ind'; intros H out coeff rnd pos; cbn [createRandomPoint]; checks.
  - destruct l as [| |mp].
    + apply safe_bind; [apply safe_assign|]. discriminate.
    + apply safe_bind; [|discriminate]. unfold s2_rand. checks. apply safe_bind; [go H|]. intros. go H.
    + pose proof H as H'. apply safe_bind; [destruct mp; leaf_dims H; [apply safe_em_setZero|apply safe_eq_setZero]; lia|]. intros. apply safe_bind; [|discriminate]. apply safe_retractation; auto.
  - apply safe_loop. intros i s [o p] Hs. apply safe_bind; [go H|]. intros [b d] _. apply safe_bind; [go H|]. intros. apply safe_bind; [pick IH H|]. intros [r p'] _. discriminate.
Qed.
Lemma safe_multiply (p m : mfd K) : wf p -> safe (multiply p m).
Proof. intros H. inversion H; subst; [discriminate|]. cbn [multiply]. rewrite !psums_back. discriminate. Qed.
End Safe.
