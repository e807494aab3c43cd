(** What the text of a point should be. *)
From Coq Require Import List Arith Ascii String Bool.
From Verif Require Import Base Scalar Vec Model_Manifold Spec.
Import ListNotations.
Local Open Scope string_scope.

(** Entries one after the other, a newline between two of them. *)
Fixpoint unlines (ts : list string) : string :=
  match ts with [] => "" | [t] => t | t :: ts' => t ++ String (ascii_of_nat 10) (unlines ts') end.
Fixpoint spaces (n : nat) : string := match n with O => "" | S n' => " " ++ spaces n' end.
(** Coefficients separated by commas. *)
Fixpoint commas (ts : list string) : string :=
  match ts with [] => "" | [t] => t | t :: ts' => t ++ String "," (String " " (commas ts')) end.
(** Occurrences of a character. *)
Fixpoint count (c : ascii) (t : string) : nat :=
  match t with EmptyString => 0 | String c' t' => (if Ascii.eqb c c' then 1 else 0) + count c t' end.

Section Spec.
Context {K : Type}.
Implicit Types (m : mfd K).
Section Format.
Variable fmt : list (list K) -> string.
(** The entry of an elementary manifold: a vector on one row; a rotation matrix, stored by columns, on three rows; the four
    numbers of a quaternion on four rows; an opening bracket before a rotation. *)
Definition shown m (x : list K) : string :=
  match m, x with
  | Leaf _ (LSO3 MapMatrix) _ _, [x0; x1; x2; x3; x4; x5; x6; x7; x8] => "[" ++ fmt [[x0; x3; x6]; [x1; x4; x7]; [x2; x5; x8]]
  | Leaf _ (LSO3 MapQuat) _ _, [a; b; c; d] => "[" ++ fmt [[a]; [b]; [c]; [d]]
  | _, _ => fmt [x]
  end.

(** The entry of the leaf [m] at depth [d] with the numbers [x]: two spaces per enclosing product. *)
Fixpoint texts (p : string) (ds : list nat) (ms : list (mfd K)) (xs : list (list K)) : list string :=
  match ds, ms, xs with
  | d :: ds', m :: ms', x :: xs' => (p ++ spaces (2 * d) ++ shown m x) :: texts p ds' ms' xs'
  | _, _, _ => []
  end.
End Format.
(** How many products enclose each leaf, from left to right. *)
Fixpoint depths (d : nat) m : list nat := match m with Leaf _ _ _ _ => [d] | Prod _ _ _ subs => flat_map (depths (S d)) subs end.
(** Every product below the root has a leaf below it. *)
Fixpoint no_empty m : Prop :=
  match m with
  | Leaf _ _ _ _ => True
  | Prod _ _ _ subs => fold_right (fun s P => leaves s <> [] /\ no_empty s /\ P) True subs
  end.
(** How many rotation groups there are in the tree. *)
Definition is_rotation m : bool := match m with Leaf _ (LSO3 _) _ _ => true | _ => false end.
Definition rotations m : nat := List.length (filter is_rotation (leaves m)).
(** The text line by line, in the default format. *)
Section Lines.
Variable cell : list (list K) -> K -> string.
(** What an elementary manifold shows of its numbers: the mark in front and the rows. *)
Definition rows_of m (x : list K) : string * list (list K) :=
  match m, x with
  | Leaf _ (LSO3 MapMatrix) _ _, [x0; x1; x2; x3; x4; x5; x6; x7; x8] => ("[", [[x0; x3; x6]; [x1; x4; x7]; [x2; x5; x8]])
  | Leaf _ (LSO3 MapQuat) _ _, [a; b; c; d] => ("[", [[a]; [b]; [c]; [d]])
  | _, _ => ("", [x])
  end.
(** Its lines in the default format: one per row, the coefficients between brackets and separated by commas; the first
    line starts with [head] and the mark. *)
Definition entry_lines (head : string) m (x : list K) : list string :=
  match map (fun r => "[" ++ commas (map (cell (snd (rows_of m x))) r) ++ "]") (snd (rows_of m x)) with
  | l :: ls => (head ++ fst (rows_of m x) ++ l) :: ls
  | [] => []
  end.
Fixpoint all_lines (p : string) (ds : list nat) (ms : list (mfd K)) (xs : list (list K)) : list string :=
  match ds, ms, xs with
  | d :: ds', m :: ms', x :: xs' => (entry_lines (p ++ spaces (2 * d)) m x ++ all_lines p ds' ms' xs')%list
  | _, _, _ => []
  end.
End Lines.
End Spec.
