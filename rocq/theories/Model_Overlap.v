(** utility::areOverlappingData (src/ExpMapMatrix.cpp:26-51).  The function is defined with external linkage
    and called from nowhere in the repository. *)
From Coq Require Import ZArith Bool.
From Verif Require Import Base.
Open Scope Z_scope.

(** A ConstRefVec (include/manifolds/defs.h:32): Eigen::Ref<const VectorXd>, contiguous doubles of 8 bytes.
    The addresses are those of the machine, in bytes. *)
Record ref := Ref { r_data : Z; r_rows : Z }.
(** &a.coeff(i) (ExpMapMatrix.cpp:36-37, 46). *)
Definition addr (a : ref) (i : Z) : Z := r_data a + 8 * i.

(** for (int i = i0; i < n; ++i) acc = f(i, acc) (ExpMapMatrix.cpp:42, 44). *)
Fixpoint up {A} (k : nat) (i : Z) (f : Z -> A -> A) (acc : A) : A :=
  match k with O => acc | S k' => up k' (i + 1) f (f i acc) end.
Definition for_int {A} (i0 n : Z) (f : Z -> A -> A) (acc : A) : A := up (Z.to_nat (n - i0)) i0 f acc.
Definition int_max : Z := 2147483647.

(** ExpMapMatrix.cpp:33-50.  coeff(rows() - 1) and coeff(0) refer to no double when the range is empty
    (line 36-37: undefined behaviour); the int counters of lines 42 and 44 overflow beyond int_max rows. *)
Definition areOverlappingData (a b : ref) : res bool :=
  _ <- ub_unless ((0 <? r_rows a) && (0 <? r_rows b)) ;;
  if (addr a (r_rows a - 1) <? addr b 0) || (addr b (r_rows b - 1) <? addr a 0) then Ok false
  else
    _ <- ub_unless ((r_rows a <=? int_max) && (r_rows b <=? int_max)) ;;
    Ok (for_int 0 (r_rows a) (fun i res =>
          for_int i (r_rows b) (fun j res => res || (addr a i =? addr b j)) res) false).
