(** name() and description() (src/Manifold.cpp:120-127, src/CartesianProduct.cpp:100-129).
    RobotManifold::description of src/main.cpp: Model_Robot.  display() prints description() on std::cout. *)
From Coq Require Import List Ascii String Bool.
From Verif Require Import Base Scalar Model_Manifold.
Import ListNotations.
Local Open Scope string_scope.

(** std::endl and the frames (CartesianProduct.cpp:108-110, 122-124, Manifold.cpp:122-127). *)
Definition endl : string := String (ascii_of_nat 10) EmptyString.
Definition bra : string := "/cartprod--------------------------".
Definition ket : string := "\----------------------------------".

Section Text.
Context {K : Type}.
Implicit Types (m : mfd K).

(** isElementary (RealSpace.cpp:69, S2.cpp:70, SO3.h:142-146, CartesianProduct.cpp:100). *)
Definition isElementary m : bool := match m with Leaf _ _ _ _ => true | Prod _ _ _ _ => false end.
(** Manifold::description (Manifold.cpp:122-127), the version of the elementary manifolds. *)
Definition description_elem m (prefix : string) : string := "" ++ prefix ++ name m ++ endl.
(** description(prefix, false): Manifold.cpp:122-127 and the else branch of CartesianProduct.cpp:112-127.
    [ss] is the stringstream; line 118 is the virtual call on an elementary factor. *)
Fixpoint description_in m (prefix : string) : string :=
  match m with
  | Leaf _ _ _ _ => description_elem m prefix
  | Prod _ _ _ subs =>
      fold_left (fun ss s =>
        if isElementary s then ss ++ description_elem s prefix
        else ((ss ++ prefix ++ bra ++ endl) ++ description_in s (prefix ++ "| ")) ++ prefix ++ ket ++ endl) subs ""
  end.
(** description(prefix, firstCall) (Manifold.cpp:122-127, CartesianProduct.cpp:102-129). *)
Definition description m (prefix : string) (firstCall : bool) : string :=
  match m with
  | Leaf _ _ _ _ => description_elem m prefix
  | Prod _ _ _ _ => if firstCall then (("" ++ prefix ++ bra ++ endl) ++ description_in m (prefix ++ "| ")) ++ prefix ++ ket ++ endl
      else description_in m prefix
  end.
End Text.
