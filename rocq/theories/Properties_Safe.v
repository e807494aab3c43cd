(** C47: memory safety of the operations; C48: the text of a point. *)
From Coq Require Import List Arith Ascii String Bool ZArith Lia.
From Verif Require Import Base Scalar Vec Model_Real Model_S2 Model_SO3 Model_Manifold Model_Text Model_Print Spec SpecPrint Layout ExScalar Safe Print Properties_Structure.
Import ListNotations.
Local Open Scope string_scope.

Section Any.
Context {K : Type} {SK : Scalar K}.
Implicit Types (m p : mfd K) (v x y out inp : list K) (M N : mat K).

(** C47. Whatever the sizes and the content of the arguments, an operation on a manifold built through the API either
    returns or stops at an assertion of the library or of Eigen: it never reads or writes outside its arguments
    ([Fail EUB]), although SO3 works on raw pointers and the products index their tables unchecked. *)
Theorem C47_safe m : built m ->
  (forall v prec, isInM m v prec <> Fail EUB) /\
  (forall out inp, forceOnM m out inp <> Fail EUB) /\
  (forall x v prec, isInTxM m x v prec <> Fail EUB) /\
  (forall out inp x, forceOnTxM m out inp x <> Fail EUB) /\
  (forall out x v, retractation m out x v <> Fail EUB) /\
  (forall out x y, pseudoLog m out x y <> Fail EUB) /\
  (forall out x, pseudoLog0 m out x <> Fail EUB) /\
  (forall out, setZero m out <> Fail EUB) /\
  (forall out c rnd pos, createRandomPoint m out c rnd pos <> Fail EUB) /\
  (forall out, limitMap m out <> Fail EUB /\ getTypicalMagnitude m out <> Fail EUB /\ getTrustMagnitude m out <> Fail EUB).
Proof.
  intros H%built_wf.
  split; [exact (safe_isInM m H)|]. split; [exact (safe_forceOnM m H)|]. split; [exact (safe_isInTxM m H)|]. split; [exact (safe_forceOnTxM m H)|].
  split; [exact (safe_retractation m H)|]. split; [exact (safe_pseudoLog m H)|]. split; [exact (safe_pseudoLog0 m H)|]. split; [exact (safe_setZero m H)|].
  split; [exact (safe_createRandomPoint m H)|]. intros out. split; [exact (safe_limitMap m H out)|]. split; [exact (safe_getTypicalMagnitude m H out)|exact (safe_getTrustMagnitude m H out)].
Qed.
Theorem C47_safe_matrices m : built m ->
  (forall x, diffRetractation m x <> Fail EUB /\ diffPseudoLog0 m x <> Fail EUB) /\
  (forall M N x, applyDiffRetractation m M N x <> Fail EUB /\ applyDiffPseudoLog0 m M N x <> Fail EUB) /\
  (forall M N x v, applyTransport m M N x v <> Fail EUB /\ applyInvTransport m M N x v <> Fail EUB /\ applyInvTransportOnTheRight m M N x v <> Fail EUB) /\
  (forall M x, tangentConstraint m M x <> Fail EUB /\ getIdentityOnTxM m M x <> Fail EUB).
Proof.
  intros H%built_wf. split; [|split; [|split]].
  - intros x. split; [exact (safe_diffRetractation m H x)|exact (safe_diffPseudoLog0 m H x)].
  - intros M N x. split; [exact (safe_applyDiffRetractation m H M N x)|exact (safe_applyDiffPseudoLog0 m H M N x)].
  - intros M N x v. split; [exact (safe_applyTransport m H M N x v)|split; [exact (safe_applyInvTransport m H M N x v)|exact (safe_applyInvTransportOnTheRight m H M N x v)]].
  - intros M x. split; [exact (safe_tangentConstraint m H M x)|exact (safe_getIdentityOnTxM m H M x)].
Qed.
(** The accessors, for every index, and multiply. *)
Theorem C47_safe_access m : built m ->
  (forall D i, getStart D m i <> Fail EUB /\ getDimSub D m i <> Fail EUB) /\
  (forall i, subManifold m i <> Fail EUB) /\
  (forall D v i, getView D m v i <> Fail EUB) /\
  (forall D M i, getCols D m M i <> Fail EUB /\ getRows D m M i <> Fail EUB) /\
  (forall m', built m' -> multiply m m' <> Fail EUB).
Proof.
  intros H%built_wf. split; [|split; [|split; [|split]]].
  - intros D i. split; [exact (safe_getStart D m i H)|exact (safe_getDimSub D m i)].
  - exact (safe_subManifold m).
  - intros D v i. exact (safe_getView D m v i H).
  - intros D M i. split; [exact (safe_getCols D m M i H)|exact (safe_getRows D m M i H)].
  - intros m' _. exact (safe_multiply m m' H).
Qed.

(** toString: a product checks the size of the vector it cuts, so that only an SO3 asked directly can go wrong. Missing for
    the whole claim: an SO3 given a vector shorter than its representation, which is read past its end. *)
Theorem C47_toString_partial fmt m v prefix : built m ->
  List.length v = representationDim m \/ is_rotation m = false -> toString fmt m v prefix <> Fail EUB.
Proof.
  intros H%built_wf [Hv|Hm].
  - destruct (toString_total fmt m H v prefix Hv) as (t & ->). discriminate.
  - destruct m as [h l a b|h sT sR subs]; [destruct l; discriminate|].
    destruct (Nat.eq_dec (List.length v) (h_rdim h)) as [E|E].
    + destruct (toString_total fmt _ H v prefix E) as (t & ->). discriminate.
    + destruct subs as [|s subs]; [discriminate|]. rewrite toString_refused by (auto; discriminate). discriminate.
Qed.

(** C48. The text of a point of a manifold without empty products: one entry per elementary manifold, in order, each with
    its own slice of the vector, the prefix and two spaces per enclosing product, separated by newlines. *)
Theorem C48_entries fmt m xs prefix : built m -> no_empty m -> pieces DR (leaves m) xs ->
  toString fmt m (List.concat xs) prefix = Ok (unlines (texts fmt prefix (depths 0 m) (leaves m) xs)).
Proof. intros H%built_wf Hn Hp. rewrite <- (toString_lines fmt m H Hn 0 xs prefix Hp). cbn [spaces Nat.mul]. rewrite sapp_nil. reflexivity. Qed.
(** With the default format: the whole text, line by line. *)
Theorem C48_default_lines cell m xs prefix : built m -> no_empty m -> pieces DR (leaves m) xs ->
  toString (default_format cell) m (List.concat xs) prefix = Ok (unlines (all_lines cell prefix (depths 0 m) (leaves m) xs)).
Proof. intros H N P. rewrite C48_entries by auto. f_equal. apply texts_lines. Qed.
(** Printing never fails at the right size; a product with a factor refuses every other size. *)
Theorem C48_total fmt m v prefix : built m -> List.length v = representationDim m -> exists t, toString fmt m v prefix = Ok t.
Proof. intros H. apply toString_total. apply built_wf, H. Qed.
Theorem C48_refused fmt p s fs v prefix : factors p (s :: fs) -> List.length v <> representationDim p -> toString fmt p v prefix = Fail EAssert.
Proof. intros H Hv. destruct (factors_inv _ _ H) as (h & sT & sR & ->). apply toString_refused; [discriminate|exact Hv]. Qed.
(** With the default format, whose rows are between brackets, the text has one opening bracket too many per rotation group:
    the claim that brackets match holds exactly on manifolds without SO3. *)
Theorem C48_brackets_partial cell m v prefix t : built m ->
  (forall (A : list (list K)) c, count "[" (cell A c) = 0 /\ count "]" (cell A c) = 0) -> count "[" prefix = 0 -> count "]" prefix = 0 ->
  List.length v = representationDim m -> toString (default_format cell) m v prefix = Ok t ->
  count "[" t = count "]" t + rotations m.
Proof.
  intros H%built_wf Hc P1 P2 Hv Ht. destruct (toString_brackets cell Hc m H v prefix P1 P2 Hv) as (t' & Et & E). rewrite Ht in Et. injection Et as <-. exact E.
Qed.
End Any.

(** ** Witnesses *)
Definition plain_cell (M : list (list Z)) (c : Z) : string := if (c <? 0)%Z then "-" else if (c =? 0)%Z then "0" else "1".

(** A rotation in quaternions asked to print one number reads three more from beyond it. *)
Theorem C47_toString_refuted : exists (m : mfd Z) v, built m /\ forall fmt prefix, toString fmt m v prefix = Fail EUB.
Proof. exists exSO3, [1]%Z. split; [apply (built_so3 MapQuat [3;3;3]%Z); reflexivity|]. reflexivity. Qed.

(** Brackets do not match on any SO3. *)
Theorem C48_brackets_refuted : exists (m : mfd Z) v t, built m /\ isInM m v 1%Z = Ok true /\ toString (default_format plain_cell) m v "" = Ok t /\ count "[" t <> count "]" t.
Proof.
  exists exSO3m, [1; 0; 0; 0; 1; 0; 0; 0; 1]%Z. eexists. split; [apply (built_so3 MapMatrix [3;3;3]%Z); reflexivity|]. split; [vm_compute; reflexivity|]. split; [vm_compute; reflexivity|].
  vm_compute. discriminate.
Qed.

(** A nested empty product leaves an empty line: the text does not have one line per elementary manifold. *)
Definition exE : mfd Z := get prod_empty (p <- multiply prod_empty exR2 ;; multiply p prod_empty).
Theorem C48_lines_refuted : exists (m : mfd Z) v t, built m /\ List.length v = representationDim m /\ toString (default_format plain_cell) m v "" = Ok t /\
  List.length (leaves m) = 1 /\ count (ascii_of_nat 10) t = 1.
Proof.
  exists exE, [1; 0]%Z. eexists. split.
  - eapply built_mult; [eapply built_mult; [apply built_empty|apply (built_real_mag 2 1%Z); reflexivity|reflexivity]|apply built_empty|reflexivity].
  - repeat split; vm_compute; reflexivity.
Qed.

(** ** Examples *)
Example C47_ex : retractation exP [0; 0; 0]%Z [1]%Z [] = Fail EAssert /\ getView DR exP [1]%Z 7 = Fail EAssert /\
  toString (default_format plain_cell) exP [1]%Z "" = Fail EAssert.
Proof. repeat split; vm_compute; reflexivity. Qed.
Example C48_ex : no_empty exP /\ depths 0 exP = [2; 3; 3; 1] /\
  toString (default_format plain_cell) exP [1; 0; 1; 1; 1; 0; 0; 1; 0; 0; 0; 1]%Z "p" = Ok (
"p    [1, 0]
p      [1, 1, 1]
p      [0, 0, 1]
p  [[0]
[0]
[0]
[1]").
Proof. vm_compute. repeat split; discriminate. Qed.
