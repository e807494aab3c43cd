(** Specification vocabulary, independent of the model's helpers: reachable manifolds, factor lists,
    pointwise relations on lists. *)
From Coq Require Import List Arith Bool ZArith.
From Verif Require Import Base Scalar Vec Model_Manifold.
Import ListNotations.

Inductive Forall3 {A B C} (R : A -> B -> C -> Prop) : list A -> list B -> list C -> Prop :=
| Forall3_nil : Forall3 R [] [] []
| Forall3_cons a b c la lb lc :
    R a b c -> Forall3 R la lb lc -> Forall3 R (a :: la) (b :: lb) (c :: lc).

Inductive Forall4 {A B C D} (R : A -> B -> C -> D -> Prop)
  : list A -> list B -> list C -> list D -> Prop :=
| Forall4_nil : Forall4 R [] [] [] []
| Forall4_cons a b c d la lb lc ld :
    R a b c d -> Forall4 R la lb lc ld -> Forall4 R (a :: la) (b :: lb) (c :: lc) (d :: ld).

Inductive Forall5 {A B C D E} (R : A -> B -> C -> D -> E -> Prop)
  : list A -> list B -> list C -> list D -> list E -> Prop :=
| Forall5_nil : Forall5 R [] [] [] [] []
| Forall5_cons a b c d e la lb lc ld le :
    R a b c d e -> Forall5 R la lb lc ld le ->
    Forall5 R (a :: la) (b :: lb) (c :: lc) (d :: ld) (e :: le).

Section Spec.
Context {K : Type} {SK : Scalar K}.

(** Manifolds a user can obtain: any sequence of constructor, setter, renaming (name() is a mutable
    reference, Manifold.cpp:398) and multiply calls that succeed. *)
Inductive built : mfd K -> Prop :=
| built_real n v m : mk_real_vec n v = Ok m -> built m
| built_real_mag n c m : mk_real_mag n c = Ok m -> built m
| built_s2 v m : mk_s2_vec v = Ok m -> built m
| built_so3 mp v m : mk_so3_vec mp v = Ok m -> built m
| built_typ m v m' : built m -> setTypicalMagnitude m v = Ok m' -> built m'
| built_tru m v m' : built m -> setTrustMagnitude m v = Ok m' -> built m'
| built_name m s : built m -> built (rename m s)
| built_empty : built prod_empty
| built_mult p m p' : built p -> built m -> multiply p m = Ok p' -> built p'.

(** [factors P fs]: [P] is a product obtained by multiplying, in order, the manifolds [fs]. *)
Inductive factors : mfd K -> list (mfd K) -> Prop :=
| factors_empty : factors prod_empty []
| factors_name p fs s : factors p fs -> factors (rename p s) fs
| factors_mult p fs m p' :
    factors p fs -> built m -> multiply p m = Ok p' -> factors p' (fs ++ [m]).

(** The pieces of a vector of P's representation (tangent) space, one per factor. *)
Definition pieces (D : edim) (fs : list (mfd K)) (xs : list (vec K)) : Prop :=
  Forall2 (fun m x => length x = getDim D m) fs xs.

End Spec.

Section Leaves.
Context {K : Type}.
(** The elementary manifolds of a tree, from left to right. *)
Fixpoint leaves (m : mfd K) : list (mfd K) :=
  match m with
  | Leaf _ _ _ _ => [m]
  | Prod _ _ _ subs => flat_map leaves subs
  end.
End Leaves.

Section Blocks.
Context {K : Type} {SK : Scalar K}.
(** A matrix with [r] rows and [c] columns. *)
Definition shape (M : mat K) (r c : nat) : Prop :=
  mrows M = r /\ length (mcols_ M) = c /\ Forall (fun col => length col = r) (mcols_ M).

(** The block-diagonal matrix with the given diagonal blocks. *)
Fixpoint bdiag (Bs : list (mat K)) : mat K :=
  match Bs with
  | [] => Mat 0 []
  | B :: Bs' =>
      let R := bdiag Bs' in
      Mat (mrows B + mrows R)
          (map (fun c => c ++ repeat k0 (mrows R)) (mcols_ B) ++
           map (fun c => repeat k0 (mrows B) ++ c) (mcols_ R))
  end.

(** Stacking blocks horizontally (same number of rows [r]) and vertically (same number of columns). *)
Definition hcat (r : nat) (Bs : list (mat K)) : mat K := Mat r (concat (map (@mcols_ K) Bs)).
Fixpoint vcat (n : nat) (Bs : list (mat K)) : mat K :=
  match Bs with
  | [] => Mat 0 (repeat [] n)
  | B :: Bs' => Mat (mrows B + mrows (vcat n Bs')) (map2 (@app K) (mcols_ B) (mcols_ (vcat n Bs')))
  end.
End Blocks.
