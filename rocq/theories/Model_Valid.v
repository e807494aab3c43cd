(** The validity flag of ValidManifold.h: what a call through a pointer to a manifold that may no longer
    exist does.  Storage is a set of places; a place holds the flag_ and count_ of the last manifold built
    there and, as a ghost, the manifold that lives there now.  Each public member of Manifold and of Point is
    the list of its assertions, tests and uses of the object, in the order of the source.

    Simplified: undefined behaviour is replaced by the simplest reading of it, that the bytes of a destroyed
    object stay as they are until something is stored there (in particular the store made by
    ~ValidManifold is not removed by the compiler) and that a non-virtual member called on them runs its own
    body.  The virtual members isInM and forceOnM (Manifold.h:82, 85) have no override in the library, and
    ~Manifold leaves the table of Manifold in place, so that they run Manifold.cpp:62-76 as well. *)
From Coq Require Import ZArith List Bool Lia.
Import ListNotations.
Open Scope nat_scope.

(** ** The flag *)

(** ValidManifold.h:29, 33. *)
Definition FLAG : Z := 1736274519.
Definition DEAD : Z := (-271828182)%Z.

(** isValid (ValidManifold.h:36 with NDEBUG, 40 without). *)
Definition isValid (debug : bool) (flag : Z) : bool := if debug then (flag =? FLAG)%Z else true.

(** ** Storage *)

(** RefCounter.h:62, ValidManifold.h:55.  [tenant] is a ghost: which construction lives there. *)
Record place := Place { flag : Z; count : Z; tenant : option nat }.
Record store := Store { at_ : nat -> place; built_so_far : nat }.

Definition put (s : store) (a : nat) (p : place) : store :=
  Store (fun b => if b =? a then p else at_ s b) (built_so_far s).
Definition bump (s : store) : store := Store (at_ s) (S (built_so_far s)).

(** What a program does to the storage of manifolds (ValidManifold.h:31-33, Manifold.cpp:26-39). *)
Inductive act :=
| Build (a : nat)            (* a constructor, in a free place *)
| CopyBuild (a b : nat)      (* the copy constructor: a copy of the manifold at b, in the free place a *)
| AssignTo (a b : nat)       (* the implicit operator= *)
| Attach (a : nat)           (* a point is built on the manifold *)
| Detach (a : nat)           (* one of its points is destroyed *)
| Destroy (a : nat)          (* ~Manifold *)
| Overwrite (a : nat) (z : Z). (* anything else, once the place is free, that leaves z where flag_ was *)

(** No manifold at that place: before a constructor or after ~Manifold (Manifold.h:59). *)
Definition free (s : store) (a : nat) : bool := match tenant (at_ s a) with None => true | _ => false end.

(** One act; None: a program without other undefined behaviour does not do that.
    - Build: RefCounter.h:40, ValidManifold.h:31, Manifold.cpp:26-37;
    - CopyBuild: RefCounter.h:42 and ValidManifold.h:32 give fresh values, whatever the source holds;
    - AssignTo: neither base declares operator=, so that both members are copied;
    - Attach, Detach: RefCounter.h:54-59 through Point.cpp:66, 68;
    - Destroy: the bases are destroyed in the reverse of their order in Manifold.h:49, so ~ValidManifold
      (ValidManifold.h:33) stores before ~RefCounter (RefCounter.h:46-51) looks at count_; when that
      assertion throws, the object is destroyed all the same. *)
Definition act_on (s : store) (x : act) : option store :=
  match x with
  | Build a => if free s a then Some (bump (put s a (Place FLAG 0 (Some (built_so_far s))))) else None
  | CopyBuild a b =>
      if free s a && negb (free s b) then Some (bump (put s a (Place FLAG 0 (Some (built_so_far s))))) else None
  | AssignTo a b =>
      if free s a || free s b then None
      else Some (put s a (Place (flag (at_ s b)) (count (at_ s b)) (tenant (at_ s a))))
  | Attach a =>
      if free s a then None
      else Some (put s a (Place (flag (at_ s a)) (count (at_ s a) + 1) (tenant (at_ s a))))
  | Detach a =>
      if (0 <? count (at_ s a))%Z
      then Some (put s a (Place (flag (at_ s a)) (count (at_ s a) - 1) (tenant (at_ s a)))) else None
  | Destroy a =>
      if free s a then None else Some (put s a (Place DEAD (count (at_ s a)) None))
  | Overwrite a z =>
      if free s a then Some (put s a (Place z (count (at_ s a)) None)) else None
  end.

(** Destroy throws when points are attached (RefCounter.h:48-50, a debug build with MNF_ASSERT_THROW). *)
Definition destroy_throws (s : store) (a : nat) : bool := negb (count (at_ s a) =? 0)%Z.

Fixpoint acts_on (s : store) (l : list act) : option store :=
  match l with
  | [] => Some s
  | x :: l' => match act_on s x with Some s' => acts_on s' l' | None => None end
  end.

(** Storage that never held a manifold (before Manifold.cpp:26); [z] is what happens to be there. *)
Definition blank (z : nat -> Z) : store := Store (fun a => Place (z a) 0 None) 0.

(** ** Members *)

(** One line of a member (for instance Manifold.cpp:131-137). *)
Inductive line :=
| Guard   (* mnf_assert(isValid() || seeMessageAbove()) *)
| Look    (* an assertion about a field of the manifold *)
| Arg     (* an assertion about the arguments only *)
| Test    (* an if on the manifold that throws std::runtime_error, in every build *)
| Use.    (* anything else that reads or writes the object, or calls one of its virtual members *)

(** The public members (Manifold.h:51-305, CartesianProduct.h, RealSpace.h, S2.h, SO3.h, Point.h:27-205). *)
Inductive member :=
(* Manifold *)
| createPoint | createPoint_val | isInM | forceOnM | getZero | createRandomPoint | createRandomPoint_out
| dim | tangentDim | representationDim | display | description | retractation | pseudoLog | pseudoLog0
| diffRetractation | applyDiffRetractation | diffPseudoLog0 | applyDiffPseudoLog0 | applyTransport
| applyInvTransport | applyInvTransportOnTheRight | setDimension | setTangentDimension
| setRepresentationDimension | setZero | tangentConstraint | isInTxM | forceOnTxM | getIdentityOnTxM
| limitMap | getTypicalMagnitude_out | getTypicalMagnitude | getTrustMagnitude_out | getTrustMagnitude
| lock | isLocked | name | getInstanceId | isSameType | getNewCopy
(* the argument of CartesianProduct::multiply *)
| multiplied
(* Point *)
| pt_construct | pt_increment | pt_retractation | pt_retractation_out | pt_pseudoLog | pt_pseudoLog_out
| pt_pseudoLog0 | pt_pseudoLog0_out | pt_typicalMagnitude | pt_trustMagnitude | pt_assign | pt_plus | pt_minus
| pt_isInM | pt_isInTxM | pt_getDimM | pt_getTangentDimM | pt_getRepresentationDimM | pt_diffRetractation
| pt_applyDiffRetractation | pt_diffPseudoLog0 | pt_applyDiffPseudoLog0 | pt_applyTransport
| pt_applyInvTransport.

(** Manifold.cpp:102-118: the three dimensions. *)
Definition dim_lines := [Guard; Use].
(** Manifold.cpp:62-67. *)
Definition isInM_lines := Guard :: dim_lines ++ [Look; Use].
(** Manifold.cpp:325-332. *)
Definition isInTxM_lines := Guard :: Look :: dim_lines ++ [Look; Use].
(** Point.cpp:26-35, with Point.cpp:97-106 (the size of the memory is read first by Point(M)). *)
Definition point_lines := dim_lines ++ [Look; Use].
(** Manifold.cpp:309-314. *)
Definition setZero_lines := [Guard; Look; Use].
(** Manifold.cpp:95-100. *)
Definition random_lines := [Look; Use].
(** Manifold.cpp:129-138. *)
Definition retractation_lines := [Guard; Look; Look; Look] ++ isInTxM_lines ++ [Look; Use].
(** Manifold.cpp:156-164. *)
Definition pseudoLog_lines := [Guard; Look; Look; Look; Use].
(** Manifold.cpp:182-187. *)
Definition pseudoLog0_lines := [Look; Look; Use].
(** Manifold.cpp:241-283: the three transports. *)
Definition transport_lines := [Guard; Look; Look; Arg] ++ dim_lines ++ [Look; Look] ++ isInTxM_lines ++ [Look; Use].
(** Manifold.cpp:48-60. *)
Definition createPoint_val_lines := Guard :: isInM_lines ++ [Test; Use] ++ point_lines.

(** The lines of each member; the citation (Manifold.cpp:39-420 and the files named there) is on the right. *)
Definition lines (m : member) : list line :=
  match m with
  | createPoint => [Guard; Use] ++ dim_lines ++ point_lines                         (* Manifold.cpp:41-46 *)
  | createPoint_val => createPoint_val_lines                                        (* 48-60 *)
  | isInM => isInM_lines                                                            (* 62-67 *)
  | forceOnM => Guard :: dim_lines ++ [Look] ++ dim_lines ++ [Look; Use]            (* 69-75 *)
  | getZero => [Guard; Use; Use] ++ setZero_lines ++ point_lines                    (* 77-84 *)
  | createRandomPoint => [Guard; Use; Use] ++ random_lines ++ point_lines           (* 86-93 *)
  | createRandomPoint_out => random_lines                                           (* 95-100 *)
  | dim | tangentDim | representationDim => dim_lines                               (* 102-118 *)
  | display => [Use]                                                                (* 120 *)
  | description => [Use]                                                            (* 122-127 *)
  | retractation => retractation_lines                                              (* 129-138 *)
  | pseudoLog => pseudoLog_lines                                                    (* 156-164 *)
  | pseudoLog0 => pseudoLog0_lines                                                  (* 182-187 *)
  | diffRetractation | diffPseudoLog0 => [Guard; Look; Use]                         (* 205-210, 223-228 *)
  | applyDiffRetractation | applyDiffPseudoLog0 => [Guard; Look; Look; Arg; Look; Use] (* 212-221, 230-239 *)
  | applyTransport | applyInvTransport | applyInvTransportOnTheRight => transport_lines (* 241-283 *)
  | setDimension | setTangentDimension | setRepresentationDimension =>
      [Guard; Arg; Test; Use]                                                       (* 285-307 *)
  | setZero => setZero_lines                                                        (* 309-314 *)
  | tangentConstraint => [Guard; Look; Look] ++ dim_lines ++ [Look; Use]            (* 316-323 *)
  | isInTxM => isInTxM_lines                                                        (* 325-332 *)
  | forceOnTxM => [Guard; Look] ++ dim_lines ++ [Look; Look; Use]                   (* 334-342 *)
  | getIdentityOnTxM => [Look; Look] ++ dim_lines ++ [Look; Use]                    (* 344-350 *)
  | limitMap => [Look; Use]                                                         (* 352-356 *)
  | getTypicalMagnitude_out | getTrustMagnitude_out => [Look; Use]                  (* 358-362, 371-375 *)
  | getTypicalMagnitude | getTrustMagnitude => [Use; Use]                           (* 364-369, 377-382 *)
  | lock => [Use]                                                                   (* 384 *)
  | isLocked | name | getInstanceId | isSameType => [Use]                           (* 394-405 *)
  | getNewCopy => [Use; Use]                                                        (* 407-414 *)
  | multiplied => [Use; Use] ++ dim_lines ++ dim_lines ++ dim_lines ++ [Use; Use] ++ dim_lines ++ dim_lines
                                                                    (* CartesianProduct.cpp:82-91, calls on m *)
  | pt_construct => dim_lines ++ point_lines                                        (* Point.cpp:97-100 *)
  | pt_increment | pt_retractation_out => retractation_lines                        (* 116-120, 128-135 *)
  | pt_retractation => dim_lines ++ retractation_lines ++ createPoint_val_lines     (* 122-127 *)
  | pt_pseudoLog => dim_lines ++ pseudoLog_lines                                    (* 137-142 *)
  | pt_pseudoLog_out => pseudoLog_lines                                             (* 143-146 *)
  | pt_pseudoLog0 => dim_lines ++ pseudoLog0_lines                                  (* 148-153 *)
  | pt_pseudoLog0_out => pseudoLog0_lines                                           (* 154-157 *)
  | pt_typicalMagnitude | pt_trustMagnitude => [Use; Use]                           (* 159-167 *)
  | pt_assign => dim_lines ++ [Look] ++ dim_lines ++ [Look; Use]                    (* 169-176 *)
  | pt_plus => createPoint_val_lines ++ retractation_lines                          (* 178-181 *)
  | pt_minus => dim_lines ++ pseudoLog_lines                                        (* 183-188 *)
  | pt_isInM => isInM_lines                                                         (* 190 *)
  | pt_isInTxM => isInTxM_lines                                                     (* 191-194 *)
  | pt_getDimM | pt_getTangentDimM | pt_getRepresentationDimM => dim_lines          (* 196-201 *)
  | pt_diffRetractation | pt_diffPseudoLog0 => [Guard; Look; Use]                   (* 203-206, 213-216 *)
  | pt_applyDiffRetractation | pt_applyDiffPseudoLog0 => [Guard; Look; Look; Arg; Look; Use] (* 208-221 *)
  | pt_applyTransport | pt_applyInvTransport => transport_lines                     (* 223-233 *)
  end.

(** How a call ends: stopped by the validity check (ValidManifold.h:40-51), by another assertion (mnf_assert.h:32-44), by
    std::runtime_error (Manifold.cpp:386-392), or not. *)
Inductive ending := Refused | Asserted | Threw | Through.

(** The lines one after the other; [pass k] is the outcome of the assertion or test number k, whatever it
    reads; [touched]: the object was read or written (beyond flag_).  Assertions exist in debug builds only
    (mnf_assert.h:30-43). *)
Fixpoint run (debug : bool) (fl : Z) (pass : nat -> bool) (k : nat) (touched : bool) (l : list line)
  : bool * ending :=
  match l with
  | [] => (touched, Through)
  | Guard :: l' => if isValid debug fl then run debug fl pass (S k) touched l' else (touched, Refused)
  | Look :: l' => if debug then if pass k then run debug fl pass (S k) true l' else (true, Asserted)
                  else run debug fl pass (S k) touched l'
  | Arg :: l' => if debug then if pass k then run debug fl pass (S k) touched l' else (touched, Asserted)
                 else run debug fl pass (S k) touched l'
  | Test :: l' => if pass k then run debug fl pass (S k) true l' else (true, Threw)
  | Use :: l' => run debug fl pass (S k) true l'
  end.

(** A call of member [m] (Manifold.h:51-305) through a pointer to place [a]. *)
Definition call (debug : bool) (s : store) (a : nat) (pass : nat -> bool) (m : member) : bool * ending :=
  run debug (flag (at_ s a)) pass 0 false (lines m).
