(** Vocabulary of C44. *)
From Coq Require Import List Arith ZArith.
From Verif Require Import Base Scalar Vec Model_Manifold Model_Threads.
Import ListNotations.

Section SpecThreads.
Context {K : Type} {SK : Scalar K}.
Implicit Types (g : config K) (c : call K).

(** The call made alone: the public function of a newly built SO3 manifold. *)
Definition sequential c (out : mat K) : res (mat K) :=
  m <- mk_so3 (c_map c) ;;
  match c_fun c with
  | DiffRetractation => applyDiffRetractation m out (c_in c) (c_x c)
  | DiffPseudoLog0 => applyDiffPseudoLog0 m out (c_in c) (c_x c)
  end.
(** The doubles the call leaves in its output. *)
Definition right c (out : vec K) : Prop := exists o R, sequential c o = Ok R /\ out = concat (mcols_ R).
Definition acceptable c : Prop := exists o R, sequential c o = Ok R.

(** Every object has its own live buffer, of the recorded positive size. *)
Definition buffers_ok (s : shared K) : Prop :=
  (forall i o, nth_error (objs s) i = Some o -> 0 < o_size o /\ exists cells, blk s (o_buf o) = Some cells /\ length cells = o_size o) /\
  (forall i j o o', nth_error (objs s) i = Some o -> nth_error (objs s) j = Some o' -> o_buf o = o_buf o' -> i = j).
(** Nothing has started, all calls are acceptable ones on existing objects. *)
Definition initial g : Prop :=
  buffers_ok (sh g) /\
  (forall t th, nth_error (ths g) t = Some th -> cur th = None /\ results th = [] /\
     forall c, In c (todo th) -> c_obj c < length (objs (sh g)) /\ acceptable c).
(** No two threads are inside calls on the same object. *)
Definition exclusive g : Prop := forall t t' th th' c c' p p',
  nth_error (ths g) t = Some th -> nth_error (ths g) t' = Some th' -> cur th = Some (c, p) -> cur th' = Some (c', p') ->
  c_obj c = c_obj c' -> t = t'.
(** ... at any moment of the schedule. *)
Fixpoint always_exclusive g (sched : list nat) : Prop :=
  exclusive g /\ match sched with [] => True | t :: l => forall g', step g t = Ok g' -> always_exclusive g' l end.

(** No two threads are between reading and writing the counter. *)
Definition id_exclusive (g : counters) : Prop := forall t t' a a', nth_error (creators g) t = Some a -> nth_error (creators g) t' = Some a' ->
  c_read a <> None -> c_read a' <> None -> t = t'.
Fixpoint id_always_exclusive (g : counters) (sched : list nat) : Prop :=
  id_exclusive g /\ match sched with [] => True | t :: l => id_always_exclusive (id_step g t) l end.
Definition all_ids (g : counters) : list Z := concat (map c_ids (creators g)).
End SpecThreads.
