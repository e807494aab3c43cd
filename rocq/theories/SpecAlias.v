(** Vocabulary of C36: ranges of a memory of doubles. *)
From Coq Require Import List Arith.
From Verif Require Import Base Model_Memory.
Import ListNotations.

Section SpecAlias.
Context {K : Type}.
Implicit Types (mem : list K) (o x r : vref).

(** The doubles of a range. *)
Definition val mem r : list K := firstn (v_len r) (skipn (v_off r) mem).
(** A range inside the memory. *)
Definition fits mem r : Prop := v_off r + v_len r <= length mem.
(** No double in common. *)
Definition disjoint o r : Prop := v_off o + v_len o <= v_off r \/ v_off r + v_len r <= v_off o.
(** The same range, or no double in common. *)
Definition sep o r : Prop := r = o \/ disjoint o r.
(** Every double outside [o] is unchanged. *)
Definition only_wrote mem mem' o : Prop :=
  length mem' = length mem /\ forall j, j < v_off o \/ v_off o + v_len o <= j -> nth_error mem' j = nth_error mem j.
(** Two runs, in two memories: the same failure, or the same output and nothing else written. *)
Definition same_result mem o (r : res (list K)) mem2 o2 (r2 : res (list K)) : Prop :=
  match r, r2 with
  | Ok m, Ok m2 => val m o = val m2 o2 /\ only_wrote mem m o /\ only_wrote mem2 m2 o2
  | Fail e, Fail e2 => e = e2
  | _, _ => False
  end.
End SpecAlias.
