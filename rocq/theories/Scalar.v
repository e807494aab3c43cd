(** The arithmetic operations used by the C++ code, as an operations-only class.
    No law is assumed: theorems quantified over [Scalar K] hold for any arithmetic,
    IEEE double included. *)
From Coq Require Import ZArith List.
Import ListNotations.

Class Scalar (K : Type) : Type := {
  k0 : K;
  k1 : K;
  kadd : K -> K -> K;
  ksum : list K -> K;            (* .sum(), .trace() and the sums inside products, norms and dot products *)
  ksub : K -> K -> K;
  kmul : K -> K -> K;
  kdiv : K -> K -> K;
  kopp : K -> K;
  kabs : K -> K;                 (* fabs *)
  ksqrt : K -> K;
  kcos : K -> K;
  ksin : K -> K;
  kacos : K -> K;
  katan2 : K -> K -> K;
  kltb : K -> K -> bool;         (* < *)
  kleb : K -> K -> bool;         (* <= *)
  keqb : K -> K -> bool;         (* == *)
  klit : Z -> positive -> K;     (* the literal num/den *)
  kpi : K;                       (* M_PI *)
  kinf : K                       (* numeric_limits<double>::infinity() *)
}.

(** A sum from left to right. *)
Definition foldsum {K} (zero : K) (add : K -> K -> K) (l : list K) : K :=
  match l with [] => zero | a :: l' => fold_left add l' a end.

Declare Scope k_scope.
Delimit Scope k_scope with k.
Infix "+" := kadd : k_scope.
Infix "-" := ksub : k_scope.
Infix "*" := kmul : k_scope.
Infix "/" := kdiv : k_scope.
Notation "- x" := (kopp x) : k_scope.
Infix "<?" := kltb : k_scope.
Infix "<=?" := kleb : k_scope.
Infix "=?" := keqb : k_scope.

(** std::min(a, b): (b < a) ? b : a, as used by Eigen's numext::mini. *)
Definition kmin {K} `{Scalar K} (a b : K) : K := if kltb b a then b else a.
