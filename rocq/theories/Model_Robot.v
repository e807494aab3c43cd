(** RobotManifold, the subclass of CartesianProduct of src/main.cpp:18-60, and main() (src/main.cpp:62-85).
    It overrides isElementary, getNewCopy_ and description and inherits the rest: everything which does
    not concern the text is that of the product without the mark ([plain_of]). *)
From Coq Require Import List Ascii String Bool ZArith.
From Verif Require Import Base Vec Scalar Model_Manifold Model_Text.
Import ListNotations.
Local Open Scope string_scope.

(** main.cpp:38 and 40. *)
Definition rbra : string := "/robot+++++++++++++++++++++++++++++".
Definition rket : string := "\++++++++++++++++++++++++++++++++++".

Section Robot.
Context {K : Type}.

(** A manifold with the dynamic class of each product in it: [robot] tells RobotManifold (main.cpp:18)
    from CartesianProduct. *)
Inductive rmfd :=
| RLeaf (h : hdr) (l : leaf) (typ tru : vec K)
| RProd (robot : bool) (h : hdr) (sT sR : list nat) (subs : list rmfd).

(** The manifold, its classes (main.cpp:18) forgotten. *)
Fixpoint plain_of (t : rmfd) : mfd K :=
  match t with
  | RLeaf h l typ tru => Leaf h l typ tru
  | RProd _ h sT sR subs => Prod h sT sR (map plain_of subs)
  end.
(** A manifold of the library: no RobotManifold (main.cpp:18) in it. *)
Fixpoint unmarked (m : mfd K) : rmfd :=
  match m with
  | Leaf h l typ tru => RLeaf h l typ tru
  | Prod h sT sR subs => RProd false h sT sR (map unmarked subs)
  end.

(** CartesianProduct() and RobotManifold() (CartesianProduct.cpp:24-29, main.cpp:21). *)
Definition empty_of (robot : bool) : rmfd := RProd robot (Hdr "" 0 0 0) [0] [0] [].
(** getNewCopy_ (CartesianProduct.cpp:331-335, main.cpp:27-31): the copy has the class of the original. *)
Definition getNewCopy_ (t : rmfd) : rmfd :=
  match t with
  | RLeaf h l typ tru => RLeaf h l typ tru
  | RProd robot h sT sR subs => RProd robot h sT sR subs
  end.
(** multiply (CartesianProduct.cpp:80-93), inherited by RobotManifold; the factor is copied. *)
Definition rmultiply (p m : rmfd) : res rmfd :=
  match p with
  | RLeaf _ _ _ _ => Fail EAssert   (* no such member; never called *)
  | RProd robot h sT sR subs =>
      let nm := if Nat.eqb (h_dim h) 0 then h_name h else h_name h ++ "x" in
      let nm := nm ++ name (plain_of m) in
      bT <- back sT ;;
      bR <- back sR ;;
      Ok (RProd robot (Hdr nm (h_dim h + dim (plain_of m)) (h_tdim h + tangentDim (plain_of m)) (h_rdim h + representationDim (plain_of m)))
                (sT ++ [bT + tangentDim (plain_of m)])%list (sR ++ [bR + representationDim (plain_of m)])%list (subs ++ [getNewCopy_ m])%list)
  end.

(** isElementary (RealSpace.cpp:69, S2.cpp:70, SO3.h:142-146, CartesianProduct.cpp:100, main.cpp:25). *)
Definition risElementary (t : rmfd) : bool :=
  match t with RLeaf _ _ _ _ => true | RProd robot _ _ _ _ => robot end.
(** The frame and the bar of a class (CartesianProduct.cpp:108-110 and 122-124, main.cpp:38-40 and 52-54). *)
Definition frame_open (robot : bool) : string := if robot then rbra else bra.
Definition frame_close (robot : bool) : string := if robot then rket else ket.
Definition bar (robot : bool) : string := if robot then "+ " else "| ".
(** description(prefix, false): Manifold.cpp:122-127, and the else branches of CartesianProduct.cpp:112-127
    and main.cpp:42-56.  Lines CartesianProduct.cpp:118 and main.cpp:48 are virtual calls through
    Manifold, whose default argument is firstCall = true (Manifold.h:104-105): on a RobotManifold they
    go to main.cpp:38-40. *)
Fixpoint rdescription_in (t : rmfd) (prefix : string) : string :=
  match t with
  | RLeaf h _ _ _ => "" ++ prefix ++ h_name h ++ endl
  | RProd robot _ _ _ subs =>
      fold_left (fun ss s =>
        if risElementary s
        then ss ++ match s with
                   | RLeaf h _ _ _ => "" ++ prefix ++ h_name h ++ endl
                   | RProd robot' _ _ _ _ => (("" ++ prefix ++ frame_open robot' ++ endl) ++ rdescription_in s (prefix ++ bar robot')) ++ prefix ++ frame_close robot' ++ endl
                   end
        else ((ss ++ prefix ++ frame_open robot ++ endl) ++ rdescription_in s (prefix ++ bar robot)) ++ prefix ++ frame_close robot ++ endl) subs ""
  end.
(** description(prefix, firstCall) (Manifold.cpp:122-127, CartesianProduct.cpp:102-129, main.cpp:33-57). *)
Definition rdescription (t : rmfd) (prefix : string) (firstCall : bool) : string :=
  match t with
  | RLeaf h _ _ _ => "" ++ prefix ++ h_name h ++ endl
  | RProd robot _ _ _ _ =>
      if firstCall then (("" ++ prefix ++ frame_open robot ++ endl) ++ rdescription_in t (prefix ++ bar robot)) ++ prefix ++ frame_close robot ++ endl
      else rdescription_in t prefix
  end.
(** display() (Manifold.cpp:120): what is sent to std::cout. *)
Definition display (t : rmfd) : string := rdescription t "" true ++ endl.

Context {SK : Scalar K}.
(** main() (main.cpp:62-85): everything it prints. *)
Definition main_output : res string :=
  r8 <- mk_real 8%Z ;;
  r3 <- mk_real 3%Z ;;
  s2 <- mk_s2 ;;
  so3 <- mk_so3 MapQuat ;;
  robot1 <- rmultiply (empty_of true) (unmarked r8) ;;
  let out := display robot1 in
  se3 <- rmultiply (empty_of false) (unmarked r3) ;;
  se3 <- rmultiply se3 (unmarked so3) ;;
  robot2 <- rmultiply (empty_of true) se3 ;;
  let out := out ++ display robot2 in
  merged <- rmultiply (empty_of false) robot1 ;;
  let out := out ++ display merged in
  merged <- rmultiply merged robot2 ;;
  merged <- rmultiply merged (unmarked s2) ;;
  merged <- rmultiply merged (unmarked r3) ;;
  merged <- rmultiply merged (unmarked s2) ;;
  merged <- rmultiply merged (unmarked r3) ;;
  Ok (out ++ display merged).
End Robot.
Arguments rmfd : clear implicits.
