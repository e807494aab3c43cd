(** Compile-time hash of the class names and getTypeId (include/manifolds/utils.h:31-37 and 55-155).
    `uint` is a 32-bit word, represented by a number below 2^32.  The Visual Studio (< 1900) variant of
    utils.h:90-119, where N = strlen, is not modelled. *)
From Coq Require Import NArith List Ascii String Bool.
From Verif Require Import Model_SO3 Model_Manifold.
Import ListNotations.
Local Open Scope N_scope.

Definition W : N := 2 ^ 32.
(** Wrap-around of uint arithmetic (utils.h:62-70, 82, 84). *)
Definition u32 (x : N) : N := x mod W.

(** utils.h:31-36. *)
Definition c1 : N := 3432918353.  (* 0xcc9e2d51 *)
(** utils.h:32-36. *)
Definition c2 : N := 461845907.   (* 0x1b873593 *)
Definition r1 : N := 15.
Definition r2 : N := 12.
Definition mm : N := 5.
Definition nn : N := 3864292196.  (* 0xe6546b64 *)

(** assembleBytes (utils.h:57-60).  [b << 24] is computed on int in the source, with undefined behaviour
    for bytes of 128 and more; names are ASCII. *)
Definition assembleBytes (b0 b1 b2 b3 : N) : N :=
  N.lor (N.lor (N.lor b0 (N.shiftl b1 8)) (N.shiftl b2 16)) (N.shiftl b3 24).

(** utils.h:62-79. *)
Definition rotl (r x : N) : N := N.lor (u32 (N.shiftl x r)) (N.shiftr x (32 - r)).
Definition computeK_1 (k : N) : N := u32 (k * c1).
Definition computeK_2 (k : N) : N := rotl r1 k.
Definition computeK_3 (k : N) : N := u32 (k * c2).
Definition computeRound_1 (hash k : N) : N := N.lxor hash k.
Definition computeRound_2 (hash : N) : N := rotl r2 hash.
Definition computeRound_3 (hash : N) : N := u32 (hash * mm + nn).
Definition computeK (fourBytes : N) : N := computeK_3 (computeK_2 (computeK_1 fourBytes)).
Definition computeRound (hash k : N) : N := computeRound_3 (computeRound_2 (computeRound_1 hash k)).

(** utils.h:81-89. *)
Definition finalize_1 (hash : N) : N := N.lxor hash (N.shiftr hash 16).
Definition finalize_2 (hash : N) : N := u32 (hash * 2246822507).  (* 0x85ebca6b *)
(** utils.h:83-89. *)
Definition finalize_3 (hash : N) : N := N.lxor hash (N.shiftr hash 13).
Definition finalize_4 (hash : N) : N := u32 (hash * 3266489909).  (* 0xc2b2ae35 *)
(** utils.h:86-89. *)
Definition finalize (hash : N) : N := finalize_1 (finalize_4 (finalize_3 (finalize_2 (finalize_1 hash)))).

(** A string literal (const char(&str)[N], utils.h:122, 142, 148): its characters and the final NUL; N is its length. *)
Definition literal (s : string) : list N := map N_of_ascii (list_ascii_of_string s) ++ [0].
(** index < N ? str[index] : 0 (utils.h:132-138). *)
Definition byte (str : list N) (i : nat) : N := nth i str 0.

(** computeHash_recurse (utils.h:121-139): blocks at 0, 4, 8, ... as long as index <= N + 3.  The source
    passes the assembled block itself to computeRound: computeK is never called.  The recursion stops
    after at most N + 2 calls, the fuel given below (lemma [recurse_eq] of Hash.v). *)
Fixpoint recurse_fuel (fuel : nat) (str : list N) (index : nat) (hash : N) : N :=
  match fuel with
  | O => hash
  | S f =>
      if Nat.ltb (List.length str + 3)%nat index then hash
      else recurse_fuel f str (index + 4)%nat
             (computeRound hash (assembleBytes (byte str index) (byte str (index + 1)%nat)
                                               (byte str (index + 2)%nat) (byte str (index + 3)%nat)))
  end.
Definition computeHash_recurse (str : list N) (index : nat) (hash : N) : N :=
  recurse_fuel (List.length str + 5 - index)%nat str index hash.

(** computeHash (utils.h:141-151). *)
Definition computeHash (str : list N) : N := finalize (computeHash_recurse str 0 0).
Definition computeHash2 (str str2 : list N) : N :=
  finalize (computeHash_recurse str2 0 (computeHash_recurse str 0 0)).

(** getTypeId: RealSpace.cpp:209-213, S2.cpp:281-285, SO3.h:323-328 with ExpMapMatrix.h:79 and
    ExpMapQuaternion.h:103, CartesianProduct.cpp:326-329 (inherited by CartesianPower).  The conversion
    from uint to long keeps the value. *)
Definition getTypeId {K} (m : mfd K) : N :=
  match m with
  | Leaf _ LReal _ _ => computeHash (literal "RealSpace")
  | Leaf _ LS2 _ _ => computeHash (literal "S2")
  | Leaf _ (LSO3 MapMatrix) _ _ => computeHash2 (literal "SO3") (literal "ExpMapMatrix")
  | Leaf _ (LSO3 MapQuat) _ _ => computeHash2 (literal "SO3") (literal "ExpMapQuaternion")
  | Prod _ _ _ _ => computeHash (literal "CartesianProduct")
  end.
(** Manifold::isSameType (Manifold.cpp:402-405). *)
Definition isSameType {K} (a b : mfd K) : bool := getTypeId a =? getTypeId b.
