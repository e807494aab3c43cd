(** The quaternion product of the model against the expression of Eigen's generic product (used at
    ExpMapQuaternion.cpp:74, 106), in doubles. *)
From Coq Require Import Reals List ZArith Bool Permutation.
From Flocq Require Import Core BinarySingleNaN.
From Verif Require Import Base Scalar Vec Model_SO3 F64 F64Err F64Norm.
Import ListNotations.

Lemma sub_opp (a b : f64) : a -! b = a +! Bopp b.
Proof. destruct a as [s|s| |s m e H], b as [s'|s'| |s' m' e' H']; try reflexivity; destruct s, s'; reflexivity. Qed.
(** Adding from left to right gives the product as written, bit for bit. *)
Lemma qmul_written L0 (a b : quat f64) : qmul (SK:=F64 (in_order L0)) a b =
  Q4 (qw a *! qw b -! qx a *! qx b -! qy a *! qy b -! qz a *! qz b)
     (qw a *! qx b +! qx a *! qw b +! qy a *! qz b -! qz a *! qy b)
     (qw a *! qy b +! qy a *! qw b +! qz a *! qx b -! qx a *! qz b)
     (qw a *! qz b +! qz a *! qw b +! qx a *! qy b -! qy a *! qx b).
Proof. rewrite !sub_opp. reflexivity. Qed.
(** Every other order is some [L]: the sum of the same four terms in pairs, for instance. *)
Lemma pairs_sums (p q r s : f64) : sums [p; q; r; s] ((p +! r) +! (q +! s)).
Proof.
  apply (sums_add [p; r] [q; s]); [apply (sums_add [p] [r])|apply (sums_add [q] [s])|]; try apply sums_one; try apply Permutation_refl.
  apply perm_skip. apply (perm_swap q r [s]).
Qed.
