(** Results, checked list segments and loops used by every part of the model. *)
From Coq Require Import List Arith Bool Lia.
Import ListNotations.

(** Ways a call can fail (debug build).
    EAssert: mnf_assert / assert (include/manifolds/mnf_assert.h:24-45).
    EEigen : a size or range assertion inside Eigen (views, assignments to Ref).
    EThrow : throw std::runtime_error (e.g. src/Manifold.cpp:58, 389).
    EUB    : access outside an object or a buffer (raw data() pointers, vector operator[]). *)
Inductive err := EAssert | EEigen | EThrow | EUB.

Inductive res (A : Type) : Type :=
| Ok (a : A)
| Fail (e : err).
Arguments Ok {A} a.
Arguments Fail {A} e.

Definition bind {A B} (r : res A) (f : A -> res B) : res B :=
  match r with Ok a => f a | Fail e => Fail e end.

Notation "x <- r ;; k" := (bind r (fun x => k)) (at level 61, r at next level, right associativity).
Notation "' p <- r ;; k" := (bind r (fun p => k)) (at level 61, p pattern, r at next level, right associativity).

(** [mnf_assert(b)] (include/manifolds/mnf_assert.h:24-45, debug build). *)
Definition mnf_assert (b : bool) : res unit := if b then Ok tt else Fail EAssert.
(** Eigen's [eigen_assert(b)]. *)
Definition eigen_assert (b : bool) : res unit := if b then Ok tt else Fail EEigen.
(** A raw memory access that must be in range. *)
Definition ub_unless (b : bool) : res unit := if b then Ok tt else Fail EUB.

Definition is_ok {A} (r : res A) : bool := match r with Ok _ => true | Fail _ => false end.

(** The C++ [for (i = i0; i < l.size(); ++i) a = f(i, l[i], a)] with early exit on failure. *)
Section Loop.
  Context {A B : Type}.
  Variable f : nat -> B -> A -> res A.
  Fixpoint loop (i : nat) (l : list B) (a : A) : res A :=
    match l with
    | [] => Ok a
    | b :: l' => a' <- f i b a ;; loop (S i) l' a'
    end.
End Loop.

(** Eigen [v.segment(s, n)]: the range assertion of VectorBlock, then the coefficients. *)
Definition segment {A} (v : list A) (s n : nat) : res (list A) :=
  _ <- eigen_assert (s + n <=? length v) ;; Ok (firstn n (skipn s v)).

(** Content of [v] after the segment starting at [s] has been overwritten by [w]
    (the range has been checked when the segment was formed). *)
Definition set_segment {A} (v : list A) (s : nat) (w : list A) : list A :=
  firstn s v ++ w ++ skipn (s + length w) v.

(** [out = val] where out is an Eigen::Ref: sizes must agree, nothing is resized. *)
Definition assign {A} (out val : list A) : res (list A) :=
  _ <- eigen_assert (length out =? length val) ;; Ok val.

(** Reading [n] doubles at [x.data()]. *)
Definition raw_read {A} (n : nat) (x : list A) : res (list A) :=
  _ <- ub_unless (n <=? length x) ;; Ok (firstn n x).

(** Writing the doubles [l] at [out.data()]. *)
Definition raw_write {A} (out l : list A) : res (list A) :=
  _ <- ub_unless (length l <=? length out) ;; Ok (l ++ skipn (length l) out).

(** [v[i]] on a std::vector. *)
Definition at_ {A} (l : list A) (i : nat) : res A :=
  match nth_error l i with Some a => Ok a | None => Fail EUB end.

Fixpoint map2 {A B C} (f : A -> B -> C) (l : list A) (m : list B) : list C :=
  match l, m with
  | a :: l', b :: m' => f a b :: map2 f l' m'
  | _, _ => []
  end.

Fixpoint sum_list (l : list nat) : nat :=
  match l with [] => 0 | a :: l' => a + sum_list l' end.
