(** Threads calling applyDiffRetractation and applyDiffPseudoLog0 of shared SO3 objects, and threads creating
    manifolds.  Every access to data that two threads may share is one step: size_ and buffer_ of the mutable
    member bufferMap_ (include/manifolds/SO3.h:88), the doubles of its buffer, and the static counter of
    Manifold (src/Manifold.cpp:24).
    Simplified: the accesses of all threads are totally ordered (the C++ standard promises less: a data race
    is undefined behaviour); each call of the allocator is one step; sizes do not wrap around (Model_Buffer
    has the wrap-around); the coefficients of a product are stored in column order. *)
From Coq Require Import List Arith Bool ZArith.
From Verif Require Import Base Scalar Vec Model_SO3 Model_Manifold.
Import ListNotations.

Fixpoint upd {A} (l : list A) (i : nat) (x : A) : list A :=
  match l, i with [], _ => [] | _ :: t, O => x :: t | h :: t, S j => h :: upd t j x end.

Section Threads.
Context {K : Type} {SK : Scalar K}.

(** bufferMap_ of one SO3 object: size_ and buffer_ (ReusableTemporaryMap.h:48-50). *)
Record obj := Obj { o_size : nat; o_buf : nat }.
(** Objects (SO3.h:88) and blocks (ReusableTemporaryMap.cpp:44, 52-53).  A released block is None; a double not yet written
    is None. *)
Record shared := Sh { objs : list obj; heap : list (option (list (option K))) }.
Definition blk (s : shared) (b : nat) : option (list (option K)) := nth b (heap s) None.
Definition set_objs (s : shared) (l : list obj) : shared := Sh l (heap s).
Definition set_heap (s : shared) l : shared := Sh (objs s) l.

(** The two functions that use bufferMap_ (SO3.h:206-225). *)
Inductive so3_fun := DiffRetractation | DiffPseudoLog0.
(** One call (SO3.h:206-225): the SO3 object, its map, the function, the arguments (not shared with another thread). *)
Record call := Call { c_obj : nat; c_map : so3map; c_fun : so3_fun; c_in : mat K; c_x : vec K }.
(** diffRetractation_(x), diffPseudoLog0_(x) (ExpMapMatrix.cpp:196, 248, ExpMapQuaternion.cpp:174, 255): no shared data. *)
Definition jacobian (c : call) : res (mat K) :=
  match c_fun c, c_map c with
  | DiffRetractation, MapMatrix => em_diffRetractation (c_x c)
  | DiffRetractation, MapQuat => eq_diffRetractation (c_x c)
  | DiffPseudoLog0, MapMatrix => em_diffPseudoLog0 (c_x c)
  | DiffPseudoLog0, MapQuat => eq_diffPseudoLog0 (c_x c)
  end.
(** getMap(in.rows(), 3) (ExpMapMatrix.cpp:195, ExpMapQuaternion.cpp:173), getMap(in.rows(), OutputDim_)
    (ExpMapMatrix.cpp:246-247, ExpMapQuaternion.cpp:253-254): columns of the temporary. *)
Definition map_cols (c : call) : nat :=
  match c_fun c, c_map c with DiffRetractation, _ => 3 | DiffPseudoLog0, MapMatrix => 9 | DiffPseudoLog0, MapQuat => 4 end.
Definition need (c : call) : nat := mrows (c_in c) * map_cols c.

(** while (newSize < size) newSize *= 2  (ReusableTemporaryMap.cpp:50-51); [size] rounds are enough when the
    first value is positive. *)
Fixpoint grow (fuel newSize size : nat) : nat :=
  if newSize <? size then match fuel with O => newSize | S f => grow f (newSize * 2) size end else newSize.

(** Where a call is (ReusableTemporaryMap.h:56-62, ReusableTemporaryMap.cpp:48-55, ExpMapMatrix.cpp:195-197, 246-249). *)
Inductive pc :=
| PCheck                                   (* if (size > size_)             ReusableTemporaryMap.h:62 *)
| PGrow                                    (* newSize = size_; while ...    ReusableTemporaryMap.cpp:50-51 *)
| PFree (n : nat)                          (* deallocate(buffer_, size_)    cpp:52 *)
| PAlloc (n : nat)                         (* allocate(newSize)             cpp:53 *)
| PSetBuf (n b : nat)                      (* buffer_ = ...                 cpp:53 *)
| PSize (n : nat)                          (* size_ = newSize               cpp:54 *)
| PMap                                     (* Map(buffer_, m, n)            ReusableTemporaryMap.h:57 *)
| PWrite (b : nat) (vals : vec K) (k : nat) (* a.noalias() = in * J, coefficient k  ExpMapMatrix.cpp:196, 248 *)
| PRead (b : nat) (k : nat) (out : vec K). (* out = a, coefficient k        ExpMapMatrix.cpp:197, 249 *)
Inductive progress := Go (p : pc) | Return (out : vec K).

(** One step of a call (lines of [pc], ReusableTemporaryMap.h:56-62, ReusableTemporaryMap.cpp:48-55). *)
Definition step_call (s : shared) (c : call) (p : pc) : res (shared * progress) :=
  match nth_error (objs s) (c_obj c) with
  | None => Fail EUB
  | Some o =>
      match p with
      | PCheck => Ok (s, Go (if o_size o <? need c then PGrow else PMap))
      | PGrow => Ok (s, Go (PFree (grow (need c) (o_size o) (need c))))
      | PFree n =>
          match blk s (o_buf o) with
          | Some cells => _ <- ub_unless (length cells =? o_size o) ;; Ok (set_heap s (upd (heap s) (o_buf o) None), Go (PAlloc n))
          | None => Fail EUB
          end
      | PAlloc n => Ok (set_heap s (heap s ++ [Some (repeat None n)]), Go (PSetBuf n (length (heap s))))
      | PSetBuf n b => Ok (set_objs s (upd (objs s) (c_obj c) (Obj (o_size o) b)), Go (PSize n))
      | PSize n => Ok (set_objs s (upd (objs s) (c_obj c) (Obj n (o_buf o))), Go PMap)
      | PMap => J <- jacobian c ;; Ok (s, Go (PWrite (o_buf o) (concat (mcols_ (mmul (c_in c) J))) 0))
      | PWrite b vals k =>
          match nth_error vals k with
          | None => Ok (s, Go (PRead b 0 []))
          | Some a =>
              match blk s b with
              | Some cells => _ <- ub_unless (k <? length cells) ;; Ok (set_heap s (upd (heap s) b (Some (upd cells k (Some a)))), Go (PWrite b vals (S k)))
              | None => Fail EUB
              end
          end
      | PRead b k out =>
          if k <? need c then
            match blk s b with
            | Some cells => match nth_error cells k with Some (Some a) => Ok (s, Go (PRead b (S k) (out ++ [a]))) | _ => Fail EUB end
            | None => Fail EUB
            end
          else Ok (s, Return out)
      end
  end.

(** A thread (calls of SO3.h:206-225): the calls to make, the call in progress, the calls made with the content of their output. *)
Record thread := Th { todo : list call; cur : option (call * pc); results : list (call * vec K) }.
Record config := Cfg { sh : shared; ths : list thread }.
(** One step of thread [t] (calls of SO3.h:206-225). *)
Definition step (g : config) (t : nat) : res config :=
  match nth_error (ths g) t with
  | None => Ok g
  | Some th =>
      match cur th with
      | None =>
          match todo th with
          | [] => Ok g
          | c :: cs => Ok (Cfg (sh g) (upd (ths g) t (Th cs (Some (c, PCheck)) (results th))))
          end
      | Some (c, p) =>
          '(s, r) <- step_call (sh g) c p ;;
          Ok (Cfg s (upd (ths g) t
            match r with
            | Go p' => Th (todo th) (Some (c, p')) (results th)
            | Return out => Th (todo th) None (results th ++ [(c, out)])
            end))
      end
  end.
(** A schedule: which thread makes each step (calls of SO3.h:206-225). *)
Fixpoint run (g : config) (sched : list nat) : res config :=
  match sched with [] => Ok g | t :: l => g' <- step g t ;; run g' l end.
End Threads.
Arguments shared K : clear implicits.
Arguments call K : clear implicits.
Arguments pc K : clear implicits.
Arguments thread K : clear implicits.
Arguments config K : clear implicits.

(** Creating manifolds: instanceId_ = manifoldCounter_++ (Manifold.cpp:36) reads the counter, then writes it.
    A thread: how many manifolds it will create, the value it has read, the identifiers it has given. *)
Record creator := Cr { c_left : nat; c_read : option Z; c_ids : list Z }.
Record counters := Cs { counter : Z; creators : list creator }.
Definition id_step (g : counters) (t : nat) : counters :=
  match nth_error (creators g) t with
  | None => g
  | Some a =>
      match c_read a, c_left a with
      | Some k, n => Cs (k + 1) (upd (creators g) t (Cr n None (c_ids a ++ [k])))
      | None, S n => Cs (counter g) (upd (creators g) t (Cr n (Some (counter g)) (c_ids a)))
      | None, O => g
      end
  end.
Definition id_run (g : counters) (sched : list nat) : counters := fold_left id_step sched g.
