(** C44: threads. *)
From Coq Require Import List Arith Bool ZArith Lia.
From Verif Require Import Base Scalar Vec Model_SO3 Model_Manifold Model_Threads SpecThreads Threads ExScalar.
Import ListNotations.

Section C44.
Context {K : Type} {SK : Scalar K}.

(** Any number of threads, calls and SO3 objects, any schedule in which no two threads are inside calls on
    the same object at the same time: every step is defined, and every finished call left in its output the
    result of the call made alone.  Partial: the statement asks for schedules without that restriction, which
    is refuted below. *)
Theorem C44_exclusive_partial : forall (g : config K) sched, initial g -> always_exclusive g sched ->
  exists g', run g sched = Ok g' /\ forall t th c out, nth_error (ths g') t = Some th -> In (c, out) (results th) -> right c out.
Proof.
  intros g sched I A. destruct (run_inv sched g _ (initial_inv g I) A) as (g' & f' & R & (_ & _ & _ & _ & Td)). exists g'. split; auto.
  intros t th c out H. apply (Td t th H).
Qed.
(** A thread that runs while the others wait finishes all its calls, with the right results. *)
Theorem C44_alone : forall (g : config K) t th, initial g -> nth_error (ths g) t = Some th ->
  exists n g' rs, run g (repeat t n) = Ok g' /\ nth_error (ths g') t = Some (Th [] None rs) /\
    map fst rs = todo th /\ Forall (fun r => right (fst r) (snd r)) rs.
Proof.
  intros g t th I Et. pose proof I as [_ T]. destruct (T t th Et) as (Ec & Er & _).
  destruct (solo t (todo th) g _ [] (initial_inv g I)) as (n & g' & rs & R & E & M & F).
  - intros t' th' H _. apply (T t' th' H).
  - rewrite Et. destruct th; cbn in *. congruence.
  - exists n, g', rs. auto.
Qed.
(** Two threads, two calls of the same size on the same object, whatever the arguments: some schedule gives
    the first caller the result of the second. *)
Theorem C44_interference : forall (s : shared K) cA cB vA vB, buffers_ok s -> c_obj cB = c_obj cA -> right cA vA -> right cB vB ->
  need cB = need cA -> (exists o, nth_error (objs s) (c_obj cA) = Some o /\ need cA <= o_size o) ->
  exists sched g', run (Cfg s [Th [cA] None []; Th [cB] None []]) sched = Ok g' /\ nth_error (ths g') 0 = Some (Th [] None [(cA, vB)]).
Proof. exact interference. Qed.
End C44.

(** Any number of threads creating manifolds, no two of them between the read and the write of the counter:
    all identifiers are different.  Partial: same restriction. *)
Theorem C44_ids_partial : forall g sched, (forall t a, nth_error (creators g) t = Some a -> c_read a = None /\ c_ids a = []) ->
  id_always_exclusive g sched -> NoDup (all_ids (id_run g sched)).
Proof.
  intros g sched H A.
  assert (I : id_inv g).
  { assert (E : all_ids g = []).
    { unfold all_ids. revert H. generalize (creators g). induction l as [|a l IH]; intros H; cbn; auto. rewrite (proj2 (H 0 a eq_refl)). apply IH. intros t a' Ha. exact (H (S t) a' Ha). }
    split; [rewrite E; constructor|split; [rewrite E; intros k []|]]. intros t a k Ha Hk. rewrite (proj1 (H t a Ha)) in Hk. discriminate. }
  clear H. revert g A I. induction sched as [|t l IH]; intros g A I; cbn [id_run fold_left] in *; [apply I|].
  cbn [id_always_exclusive] in A. destruct A as [X A]. apply IH; auto. apply id_step_inv; auto.
Qed.

(** ** Witnesses *)
Open Scope Z_scope.
(** One quaternion SO3 object; inputs of one row. *)
Definition th_call (r : vec Z) : call Z := Call 0 MapQuat DiffRetractation (Mat 1 (map (fun a => [a]) r)) [1; 0; 0; 0].
Definition thA := th_call [0; 2; 0; 0]. Definition thB := th_call [0; 0; 4; 0].
Definition th_sh (n : nat) : shared Z := Sh [Obj n 0] [Some (repeat None n)].
Definition th_g (n : nat) : config Z := Cfg (th_sh n) [Th [thA] None []; Th [thB] None []].
Lemma thA_right : right thA [2; 0; 0]. Proof. exists (mzero 1 3). eexists. split; [vm_compute; reflexivity|reflexivity]. Qed.
Lemma thB_right : right thB [0; 4; 0]. Proof. exists (mzero 1 3). eexists. split; [vm_compute; reflexivity|reflexivity]. Qed.
Lemma th_ok (n : nat) : (0 < n)%nat -> buffers_ok (th_sh n).
Proof.
  intros Hn. split.
  - intros [|[|i]] o H; try discriminate. injection H as <-. split; [exact Hn|]. eexists. split; [reflexivity|apply repeat_length].
  - intros [|[|i]] [|[|j]] o o' H H' _; try discriminate; reflexivity.
Qed.
Lemma th_initial (n : nat) : (0 < n)%nat -> initial (th_g n).
Proof.
  intros Hn. split; [apply th_ok; auto|]. intros [|[|[|t]]] th H; try discriminate; injection H as <-; (split; [reflexivity|split; [reflexivity|]]); intros c [<-|[]]; (split; [cbn; lia|]).
  - destruct thA_right as (o & R & E & _). exists o, R. auto.
  - destruct thB_right as (o & R & E & _). exists o, R. auto.
Qed.

(** The claim is false for all schedules: with the default buffer, a call returns the other thread's result. *)
Theorem C44_result_refuted : exists (g : config Z) sched g' th c out,
  initial g /\ run g sched = Ok g' /\ nth_error (ths g') 0 = Some th /\ In (c, out) (results th) /\ ~ right c out.
Proof.
  destruct (C44_interference (th_sh 256) thA thB [2; 0; 0] [0; 4; 0] (th_ok 256 ltac:(lia)) eq_refl thA_right thB_right eq_refl) as (sched & g' & R & E).
  { exists (Obj 256 0). split; [reflexivity|]. vm_compute. lia. }
  exists (th_g 256), sched, g'. eexists. exists thA, [0; 4; 0]. split; [apply th_initial; lia|]. split; [exact R|]. split; [exact E|]. split; [left; reflexivity|].
  intros (o & M & S & Eo). destruct (sequential_product thA o M S) as (J & EJ & ->). vm_compute in EJ. injection EJ as <-. vm_compute in Eo. discriminate.
Qed.
(** When the buffer must grow, both threads may release the same block. *)
Theorem C44_double_release_refuted : exists (g : config Z) sched, initial g /\ run g sched = Fail EUB.
Proof. exists (th_g 2), [0; 1; 0; 1; 0; 1; 0; 1]%nat. split; [apply th_initial; lia|]. vm_compute. reflexivity. Qed.
(** Or a thread writes in a block the other has released. *)
Theorem C44_released_write_refuted : exists (g : config Z) sched g', initial g /\ run g sched = Ok g' /\ run g (sched ++ [1%nat]) = Fail EUB /\
  exists th b k vals c a, nth_error (ths g') 1 = Some th /\ cur th = Some (c, PWrite b vals k) /\ nth_error vals k = Some a /\ blk (sh g') b = None.
Proof.
  exists (Cfg (th_sh 3) [Th [Call 0 MapQuat DiffRetractation (Mat 2 [[0; 0]; [2; 2]; [0; 0]; [0; 0]]) [1; 0; 0; 0]] None []; Th [thB] None []]), [1; 1; 1; 0; 0; 0; 0]%nat. eexists.
  split; [|split; [vm_compute; reflexivity|split; [vm_compute; reflexivity|]]].
  - split; [apply th_ok; lia|]. intros [|[|[|t]]] th H; try discriminate; injection H as <-; (split; [reflexivity|split; [reflexivity|]]); intros c [<-|[]]; (split; [cbn; lia|]).
    + exists (mzero 2 3). eexists. vm_compute. reflexivity.
    + destruct thB_right as (o & R & E & _). exists o, R. auto.
  - do 6 eexists. repeat split; reflexivity.
Qed.
(** Two threads creating one manifold each may give both the same identifier. *)
Theorem C44_ids_refuted : exists g sched, (forall t a, nth_error (creators g) t = Some a -> c_read a = None /\ c_ids a = []) /\
  (forall t a, nth_error (creators (id_run g sched)) t = Some a -> c_ids a = [counter g]) /\ length (creators g) = 2%nat.
Proof.
  exists (Cs 0 [Cr 1 None []; Cr 1 None []]), [0; 1; 0; 1]%nat. split; [|split; [|reflexivity]]; intros [|[|[|t]]] a H; try discriminate; injection H as <-; auto.
Qed.
(** Even one thread may give the same identifier twice. *)
Theorem C44_ids_one_thread_refuted : exists g sched a, (forall t a, nth_error (creators g) t = Some a -> c_read a = None /\ c_ids a = []) /\
  nth_error (creators (id_run g sched)) 0 = Some a /\ ~ NoDup (c_ids a).
Proof.
  exists (Cs 0 [Cr 3 None []; Cr 1 None []]), [1; 0; 0; 0; 0; 1; 0; 0]%nat. eexists. split; [intros [|[|[|t]]] a H; try discriminate; injection H as <-; auto|]. split; [vm_compute; reflexivity|].
  intros N. cbn in N. repeat match goal with N : NoDup (_ :: _) |- _ => inversion N; clear N; subst end. cbn in *; intuition congruence.
Qed.

(** Beside the positive theorems: the first thread makes its call, then the second, on a buffer that must
    grow; then two threads on two objects, alternating. *)
Lemma exclusive_list {K} {SK : Scalar K} (s : shared K) (a b : thread K) :
  match cur a, cur b with Some (c, _), Some (c', _) => c_obj c <> c_obj c' | _, _ => True end -> exclusive (Cfg s [a; b]).
Proof.
  intros H t t' th th' c c' p p' Ht Ht' E E' Ob. destruct t as [|[|[|t]]], t' as [|[|[|t']]]; try discriminate; auto; injection Ht as <-; injection Ht' as <-; exfalso; rewrite E, E' in H; congruence.
Qed.
Ltac excl := repeat (split; [apply exclusive_list; vm_compute; exact I || discriminate|]; intros ?g' E; vm_compute in E; injection E as <-); try (split; [apply exclusive_list; vm_compute; exact I || discriminate|exact I]).
Example C44_ex_serial : let sched := repeat 0%nat 20 ++ repeat 1%nat 12 in
  always_exclusive (th_g 2) sched /\ exists g', run (th_g 2) sched = Ok g' /\ map (@results Z) (ths g') = [[(thA, [2; 0; 0])]; [(thB, [0; 4; 0])]].
Proof. split; [|eexists; split; vm_compute; reflexivity]. cbn [repeat app]. excl. Qed.
Definition th_g2 : config Z := Cfg (Sh [Obj 3 0; Obj 4 1] [Some (repeat None 3); Some (repeat None 4)])
  [Th [thA] None []; Th [Call 1 MapQuat DiffRetractation (Mat 1 [[0]; [0]; [4]; [0]]) [1; 0; 0; 0]] None []].
Example C44_ex_two_objects : let sched := [0; 1; 0; 1; 0; 1; 0; 1; 0; 1; 0; 1; 0; 1; 0; 1; 0; 1; 0; 1; 0; 1]%nat in
  always_exclusive th_g2 sched /\ exists g', run th_g2 sched = Ok g' /\ map (fun th => map snd (results th)) (ths g') = [[[2; 0; 0]]; [[0; 4; 0]]].
Proof. split; [|eexists; split; vm_compute; reflexivity]. excl. Qed.
Example C44_ex_ids : id_always_exclusive (Cs 7 [Cr 1 None []; Cr 2 None []]) [1; 1; 0; 0; 1; 1]%nat /\
  all_ids (id_run (Cs 7 [Cr 1 None []; Cr 2 None []]) [1; 1; 0; 0; 1; 1]%nat) = [8; 7; 9].
Proof.
  split; [|reflexivity]. cbn. repeat split; intros t t' a a' H H' R R'; destruct t as [|[|[|t]]], t' as [|[|[|t']]]; try discriminate; auto; injection H as <-; injection H' as <-; cbn in *; congruence.
Qed.

Print Assumptions C44_exclusive_partial.
Print Assumptions C44_alone.
Print Assumptions C44_interference.
Print Assumptions C44_ids_partial.
Print Assumptions C44_result_refuted.
Print Assumptions C44_double_release_refuted.
Print Assumptions C44_released_write_refuted.
Print Assumptions C44_ids_refuted.
Print Assumptions C44_ids_one_thread_refuted.
