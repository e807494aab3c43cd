(** toString: the text of a point (src/RealSpace.cpp:85-92, src/S2.cpp:78-84, include/manifolds/SO3.h:155-165,
    src/CartesianProduct.cpp:137-150; ConstSubPoint::toString, Point.cpp:60-64, and operator<<, Point.h:210-215, forward to it).
    Eigen's [format(fmt)] is a parameter: a function from the rows of a matrix to a text. *)
From Coq Require Import List Arith Ascii String Bool.
From Verif Require Import Base Scalar Vec Model_Manifold Model_Text.
Import ListNotations.
Local Open Scope string_scope.

Section Print.
Context {K : Type}.
Variable fmt : list (list K) -> string.

(** toString(val, prefix, fmt). A RealSpace and S2 print the transpose of whatever vector they are given
    (RealSpace.cpp:90, S2.cpp:82: no size check). SO3 maps Map::DisplayType (Matrix3d, ExpMapMatrix.h:39, or Vector4d,
    ExpMapQuaternion.h:63) on val.data() without looking at the size (SO3.h:163). A product takes getConstView<R> of its
    factors, two more spaces each, and std::endl after all but the last (CartesianProduct.cpp:142-148). *)
Fixpoint toString (m : mfd K) (v : vec K) (prefix : string) : res string :=
  match m with
  | Leaf _ LReal _ _ | Leaf _ LS2 _ _ => Ok (prefix ++ fmt [v])
  | Leaf _ (LSO3 MapMatrix) _ _ =>
      A <- m3_read v ;;
      Ok ((prefix ++ "[") ++ fmt [[a00 A; a01 A; a02 A]; [a10 A; a11 A; a12 A]; [a20 A; a21 A; a22 A]])
  | Leaf _ (LSO3 MapQuat) _ _ =>
      q <- raw_read 4 v ;;
      Ok ((prefix ++ "[") ++ fmt (map (fun c => [c]) q))
  | Prod _ _ _ subs =>
      loop (fun i s ss =>
        vi <- getView DR m v i ;;
        t <- toString s vi (prefix ++ "  ") ;;
        Ok ((ss ++ t) ++ (if Nat.ltb i (List.length subs - 1) then endl else ""))) 0 subs ""
  end.
End Print.

(** Eigen's IOFormat(4, 0, ", ", "\n", "[", "]") (mnf::defaultFormat, defs.h:39): every row between brackets, coefficients
    separated by commas, rows by newlines. [cell M c] is the text of the coefficient [c], which depends on the whole matrix
    (columns are aligned). *)
Section Default.
Context {K : Type}.
Variable cell : list (list K) -> K -> string.
Fixpoint join (sep : string) (ts : list string) : string :=
  match ts with [] => "" | [t] => t | t :: ts' => t ++ sep ++ join sep ts' end.
Definition default_format (M : list (list K)) : string :=
  join endl (map (fun r => "[" ++ join ", " (map (cell M) r) ++ "]") M).
End Default.
