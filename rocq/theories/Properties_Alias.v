(** C36: output and input in the same doubles. *)
From Coq Require Import List Arith ZArith Lia.
From Verif Require Import Base Scalar Vec Model_Manifold Model_Memory Spec SpecAlias Layout Comp Indep Alias ExScalar Properties_Structure.
Import ListNotations.

Section C36.
Context {K : Type} {SK : Scalar K}.
Implicit Types (mem : list K) (o x v : vref) (m : mfd K).

Lemma same_of mem o (w : res (vec K)) mem2 o2 (w2 : res (vec K)) :
  fits mem o -> fits mem2 o2 -> v_len o2 = v_len o -> w = w2 -> (forall r, w = Ok r -> length r = v_len o) ->
  same_result mem o (r <- w ;; Ok (set_segment mem (v_off o) r)) mem2 o2 (r <- w2 ;; Ok (set_segment mem2 (v_off o2) r)).
Proof.
  intros F F2 L -> H. destruct w2 as [r|e]; cbn; auto. specialize (H r eq_refl). unfold fits in *.
  assert (V : forall mem o, v_off o + v_len o <= length mem -> length r = v_len o -> val (set_segment mem (v_off o) r) o = r).
  { intros m0 o0 Hf Hl. pose proof (val_set m0 o0 r 0 (v_len o0) Hf Hl (le_n _)) as E. rewrite Nat.add_0_r in E. destruct o0 as [a n]. cbn in *. rewrite E. cbn. rewrite <- Hl. apply firstn_all. }
  rewrite !V by congruence. split; [reflexivity|].
  assert (O : forall mem o, v_off o + v_len o <= length mem -> length r = v_len o -> only_wrote mem (set_segment mem (v_off o) r) o).
  { intros m0 o0 Hf Hl. destruct (set_agree m0 (v_off o0) r (v_off o0) (v_off o0 + v_len o0)) as [A B]; try lia. split; auto. }
  split; apply O; congruence.
Qed.

(** Every tree, every memory, every placement: the memory operation is the operation on values, stored in the
    output range. *)
Theorem C36_values : forall m, built m -> forall mem o x v, fits mem o -> fits mem x -> fits mem v -> sep o x -> sep o v ->
  retractation_mem m mem o x v = (r <- retractation m (val mem o) (val mem x) (val mem v) ;; Ok (set_segment mem (v_off o) r))
  /\ forceOnTxM_mem m mem o v x = (r <- forceOnTxM m (val mem o) (val mem v) (val mem x) ;; Ok (set_segment mem (v_off o) r))
  /\ forceOnM_mem m mem o x = (r <- forceOnM m (val mem o) (val mem x) ;; Ok (set_segment mem (v_off o) r))
  /\ pseudoLog_mem m mem o x v = (r <- pseudoLog m (val mem o) (val mem x) (val mem v) ;; Ok (set_segment mem (v_off o) r)).
Proof.
  intros m B mem o x v Fo Fx Fv Sx Sv. apply built_wf in B.
  split; [apply retractation_is|split; [apply forceOnTxM_is|split; [apply forceOnM_is|apply pseudoLog_is]]]; auto.
Qed.

Section Two.
Variables (m : mfd K) (mem mem2 : list K) (o x v o2 x2 v2 : vref).
Hypotheses (B : built m) (Fo : fits mem o) (Fx : fits mem x) (Fv : fits mem v) (Sx : sep o x) (Sv : sep o v).
Hypotheses (Fo2 : fits mem2 o2) (Fx2 : fits mem2 x2) (Fv2 : fits mem2 v2) (Sx2 : disjoint o2 x2) (Sv2 : disjoint o2 v2).
Hypotheses (Lo : v_len o2 = v_len o) (Vx : val mem2 x2 = val mem x) (Vv : val mem2 v2 = val mem v).
Ltac two lem len ind :=
  rewrite !lem by (auto using built_wf; right; assumption); apply same_of; auto;
  [rewrite ?Vx, ?Vv; apply ind; [apply built_wf; auto|rewrite !val_len by auto; congruence]|
   intros r E; apply len in E; rewrite val_len in E by auto; exact E].
Lemma two_retractation : same_result mem o (retractation_mem m mem o x v) mem2 o2 (retractation_mem m mem2 o2 x2 v2).
Proof. two retractation_is retractation_length retractation_indep. Qed.
Lemma two_pseudoLog : same_result mem o (pseudoLog_mem m mem o x v) mem2 o2 (pseudoLog_mem m mem2 o2 x2 v2).
Proof. two pseudoLog_is pseudoLog_length pseudoLog_indep. Qed.
Lemma two_forceOnM : same_result mem o (forceOnM_mem m mem o x) mem2 o2 (forceOnM_mem m mem2 o2 x2).
Proof. two forceOnM_is forceOnM_length forceOnM_indep. Qed.
Lemma two_forceOnTxM : same_result mem o (forceOnTxM_mem m mem o v x) mem2 o2 (forceOnTxM_mem m mem2 o2 v2 x2).
Proof. two forceOnTxM_is forceOnTxM_length forceOnTxM_indep. Qed.
End Two.

(** The claim.  [o2], [x2], [v2] are separate buffers in some memory: the inputs hold the same values, the
    output anything. *)
Theorem C36_retractation : forall m, built m -> forall mem o x v mem2 o2 x2 v2,
  fits mem o -> fits mem x -> fits mem v -> sep o x -> sep o v ->
  fits mem2 o2 -> fits mem2 x2 -> fits mem2 v2 -> disjoint o2 x2 -> disjoint o2 v2 ->
  v_len o2 = v_len o -> val mem2 x2 = val mem x -> val mem2 v2 = val mem v ->
  same_result mem o (retractation_mem m mem o x v) mem2 o2 (retractation_mem m mem2 o2 x2 v2).
Proof. intros; apply two_retractation; auto. Qed.
Theorem C36_forceOnM : forall m, built m -> forall mem o x mem2 o2 x2,
  fits mem o -> fits mem x -> sep o x -> fits mem2 o2 -> fits mem2 x2 -> disjoint o2 x2 ->
  v_len o2 = v_len o -> val mem2 x2 = val mem x ->
  same_result mem o (forceOnM_mem m mem o x) mem2 o2 (forceOnM_mem m mem2 o2 x2).
Proof. intros; apply (two_forceOnM m mem mem2 o x o2 x2); auto. Qed.
Theorem C36_forceOnTxM : forall m, built m -> forall mem o w x mem2 o2 w2 x2,
  fits mem o -> fits mem w -> fits mem x -> sep o w -> sep o x ->
  fits mem2 o2 -> fits mem2 w2 -> fits mem2 x2 -> disjoint o2 w2 -> disjoint o2 x2 ->
  v_len o2 = v_len o -> val mem2 w2 = val mem w -> val mem2 x2 = val mem x ->
  same_result mem o (forceOnTxM_mem m mem o w x) mem2 o2 (forceOnTxM_mem m mem2 o2 w2 x2).
Proof. intros; apply two_forceOnTxM; auto. Qed.
Theorem C36_pseudoLog : forall m, built m -> forall mem o x y mem2 o2 x2 y2,
  fits mem o -> fits mem x -> fits mem y -> sep o x -> sep o y ->
  fits mem2 o2 -> fits mem2 x2 -> fits mem2 y2 -> disjoint o2 x2 -> disjoint o2 y2 ->
  v_len o2 = v_len o -> val mem2 x2 = val mem x -> val mem2 y2 = val mem y ->
  same_result mem o (pseudoLog_mem m mem o x y) mem2 o2 (pseudoLog_mem m mem2 o2 x2 y2).
Proof. intros; apply two_pseudoLog; auto. Qed.
(** Point::increment: output and point are the same doubles, the increment is elsewhere. *)
Theorem C36_increment : forall m, built m -> forall mem x v, fits mem x -> fits mem v -> disjoint x v ->
  retractation_mem m mem x x v = (r <- retractation m (val mem x) (val mem x) (val mem v) ;; Ok (set_segment mem (v_off x) r)).
Proof. intros m B mem x v Fx Fv D. apply C36_values; auto; [left; reflexivity|right; exact D]. Qed.
End C36.

Open Scope Z_scope.
(** (R2 x (R3 x S2)) x SO3 in place, between other doubles. *)
Example C36_ex : let m := exP in
  let mem := [77; 1; 2; 3; 4; 5; 0; 0; 1; 1; 0; 0; 0; 88; 10; 20; 30; 40; 50; 0; 0; 0; 0; 0; 0; 99] in
  let x := VR 1 12 in let v := VR 14 11 in
  built m /\ fits mem x /\ fits mem v /\ disjoint x v /\
  retractation_mem m mem x x v = Ok [77; 11; 22; 33; 44; 55; 0; 0; 1; 1; 0; 0; 0; 88; 10; 20; 30; 40; 50; 0; 0; 0; 0; 0; 0; 99].
Proof. split; [apply (factors_built _ _ (proj1 exP_built))|]. vm_compute. repeat split; auto; lia. Qed.
(** forceOnTxM on R2 x S2 in place, the point elsewhere. *)
Example C36_ex_tx : let m := get prod_empty (prod2 exR2 exS2) in
  forceOnTxM_mem m [5; 7; 3; 4; 9; 1; 0; 0; 0; 1] (VR 0 5) (VR 0 5) (VR 5 5) = Ok [5; 7; 3; 4; 0; 1; 0; 0; 0; 1].
Proof. vm_compute. reflexivity. Qed.
(** The hypothesis [sep] matters: with an output that starts inside the input, R3's sum reads written doubles. *)
Example C36_ex_shifted :
  retractation_mem exR3 [1; 2; 3; 0; 10; 10; 10] (VR 1 3) (VR 0 3) (VR 4 3) = Ok [1; 11; 21; 31; 10; 10; 10] /\
  retractation exR3 [0; 0; 0] [1; 2; 3] [10; 10; 10] = Ok [11; 12; 13].
Proof. vm_compute. split; reflexivity. Qed.

Print Assumptions C36_values.
Print Assumptions C36_retractation.
Print Assumptions C36_forceOnM.
Print Assumptions C36_forceOnTxM.
Print Assumptions C36_pseudoLog.
Print Assumptions C36_increment.
