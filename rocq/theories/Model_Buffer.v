(** ReusableTemporaryMap (include/manifolds/ReusableTemporaryMap.h:27-63, src/ReusableTemporaryMap.cpp:23-55)
    as a state machine over a heap of allocated blocks.

    Modelled: the members size_ and buffer_ of every live object, every call of the aligned allocator, the
    wrap-around of size_t.  Simplified: pointers are allocation numbers (never reused); the contents of the
    blocks are not represented; whether an allocation succeeds is an input of the operation ([ok]);
    aligned_allocator::allocate throws std::bad_alloc and changes nothing when it fails. *)
From Coq Require Import NArith List Bool Arith.
Import ListNotations.
Local Open Scope N_scope.

(** An object: size_ and buffer_ (ReusableTemporaryMap.h:48-50).  buffer_ is null only inside constructors. *)
Record buf := Buf { size_ : N; buffer_ : nat }.
(** All objects ever created (None: destroyed or never completed), the blocks allocated and not released by
    allocator_ (ReusableTemporaryMap.h:48; calls at ReusableTemporaryMap.cpp:38, 44, 52, 53), the next allocation
    number, and the history of allocations and releases. *)
Record state := State {
  objs : list (option buf);
  live : list (nat * N);
  next : nat;
  allocs : list (nat * N);
  frees : list (nat * N) }.
(** No object yet: what precedes the first constructor (ReusableTemporaryMap.cpp:23-33). *)
Definition init : state := State [] [] 0 [] [].

(** What a call does: returns, throws (with the state left behind; allocate, ReusableTemporaryMap.cpp:44, 53), fails an
    assertion (cpp:25, 37, 43), releases a block that is not allocated with that size (undefined behaviour, cpp:38, 52),
    or never returns (the loop of cpp:51). *)
Inductive outcome := Done (s : state) | Thrown (s : state) | Asserted | UB | Hang.

(** size_t arithmetic (ReusableTemporaryMap.h:56, ReusableTemporaryMap.cpp:51), 64 bits. *)
Definition u64 (x : N) : N := x mod 2 ^ 64.

(** aligned_allocator::allocate (called at ReusableTemporaryMap.cpp:44, 53); the new block is [next s]. *)
Definition allocate (s : state) (n : N) : state :=
  State (objs s) ((next s, n) :: live s) (S (next s)) ((next s, n) :: allocs s) (frees s).
(** aligned_allocator::deallocate(p, n) (called at ReusableTemporaryMap.cpp:38, 52): the block must be allocated, with
    that size. *)
Fixpoint take (p : nat) (n : N) (l : list (nat * N)) : option (list (nat * N)) :=
  match l with
  | [] => None
  | (q, k) :: l' =>
      if Nat.eqb p q then if n =? k then Some l' else None
      else match take p n l' with Some r => Some ((q, k) :: r) | None => None end
  end.
Definition deallocate (s : state) (p : nat) (n : N) : option state :=
  match take p n (live s) with
  | Some l => Some (State (objs s) l (next s) (allocs s) ((p, n) :: frees s))
  | None => None
  end.

(** Writing the members of an object (ReusableTemporaryMap.cpp:44-45, 53-54), or destroying it (cpp:35-39). *)
Definition set_obj (s : state) (l : list (option buf)) : state := State l (live s) (next s) (allocs s) (frees s).
Fixpoint upd {A} (l : list A) (i : nat) (x : A) : list A :=
  match l, i with [], _ => [] | _ :: t, O => x :: t | h :: t, S j => h :: upd t j x end.

(** while (newSize < size) newSize *= 2  (cpp:50-51).  A 64-bit value doubled 64 times is 0, from which the
    loop never leaves; 65 rounds therefore decide ([grow_stuck], Buffer.v). *)
Fixpoint grow (fuel : nat) (newSize size : N) : option N :=
  if newSize <? size then match fuel with O => None | S f => grow f (u64 (newSize * 2)) size end
  else Some newSize.

Inductive op :=
| Construct (size : N) (ok : bool)
| CopyOf (i : nat) (ok : bool)
| GetMap (i : nat) (m n : N) (ok : bool)
| Destroy (i : nat).

(** allocate_ (cpp:41-46) on a new object; a constructor that throws leaves no object. *)
Definition construct (s : state) (n : N) (ok : bool) : outcome :=
  if ok then Done (let s' := allocate s n in set_obj s' (objs s' ++ [Some (Buf n (next s))]))
  else Thrown (set_obj s (objs s ++ [None])).

(** reallocate_ (cpp:48-55): release the old block, then allocate; buffer_ and size_ are assigned only if
    the allocation succeeds. *)
Definition reallocate_ (s : state) (i : nat) (b : buf) (size : N) (ok : bool) : outcome :=
  match grow 65 (size_ b) size with
  | None => Hang
  | Some newSize =>
      match deallocate s (buffer_ b) (size_ b) with
      | None => UB
      | Some s1 =>
          if ok then Done (let s2 := allocate s1 newSize in
                           set_obj s2 (upd (objs s2) i (Some (Buf newSize (next s1)))))
          else Thrown s1
      end
  end.

Definition get (s : state) (i : nat) : option buf := nth i (objs s) None.

(** One call of a public member (ReusableTemporaryMap.h:30-37).  Calls on objects that do not exist are not calls: they
    are rejected as [Asserted]. *)
Definition step (s : state) (o : op) : outcome :=
  match o with
  | Construct size ok => if 0 <? size then construct s size ok else Asserted    (* cpp:23-27 *)
  | CopyOf i ok =>                                                              (* cpp:29-33 *)
      match get s i with Some b => construct s (size_ b) ok | None => Asserted end
  | GetMap i m n ok =>                                                          (* h:53-63 *)
      match get s i with
      | Some b => if size_ b <? u64 (m * n) then reallocate_ s i b (u64 (m * n)) ok else Done s
      | None => Asserted
      end
  | Destroy i =>                                                                (* cpp:35-39 *)
      match get s i with
      | Some b => match deallocate s (buffer_ b) (size_ b) with
                  | Some s' => Done (set_obj s' (upd (objs s') i None))
                  | None => UB
                  end
      | None => Asserted
      end
  end.

(** A history of calls of the public members (ReusableTemporaryMap.h:30-37); exceptions are caught and the program goes
    on. *)
Fixpoint run (s : state) (h : list op) : outcome :=
  match h with
  | [] => Done s
  | o :: h' => match step s o with Done s' | Thrown s' => run s' h' | e => e end
  end.
