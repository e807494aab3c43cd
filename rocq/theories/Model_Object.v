(** Manifold and point *objects*: locks, instance identifiers, reference counts, ownership, storage of
    points.  A program is a sequence of operations ([op]) on a heap ([state]).

    Modelled: construction, copy construction, getNewCopy, multiply, setters, name(), lock, destruction of
    manifolds; construction, copy, sub-indexing, writing, increment, assignment, operator+ and destruction
    of points; shared ownership of factors; the two implicitly generated members of CartesianProduct,
    S2 and RealSpace that bypass the locks (operator= and the move constructor).
    Simplified: addresses are allocation numbers, never reused; counters do not overflow; memory
    allocation never fails; the shared_ptr returned by getNewCopy is a single handle; mnf_assert throws
    (MNF_ASSERT_THROW, mnf_assert.h:33-45) and the program may catch the exception and go on. *)
From Coq Require Import List Arith Bool ZArith String.
From Verif Require Import Base Scalar Vec Model_Manifold.
Import ListNotations.

Section Lists.
Context {A : Type}.
(** Slot [i] of an array of objects (Manifold.h:49, Point.h:27); None: never allocated, or destroyed. *)
Definition get (l : list (option A)) (i : nat) : option A := nth i l None.
Fixpoint upd (l : list (option A)) (i : nat) (x : option A) : list (option A) :=
  match l, i with
  | [], _ => []
  | _ :: t, O => x :: t
  | h :: t, S j => h :: upd t j x
  end.
End Lists.
Arguments get {A} l i : simpl never.

Section Object.
Context {K : Type} {SK : Scalar K}.

(** Who destroys a manifold object: its scope, the holder of the pointer returned by getNewCopy, or the
    last of the [n] products whose subManifolds_ (CartesianProduct.h:104) point to it. *)
Inductive owner := Auto | Held | Shared (n : nat).
(** Members of the derived classes (RealSpace.h:93-94, S2.h:104-105, SO3.h:93-94); a product refers to its factors by
    address (CartesianProduct.h:104-115). *)
Inductive okind :=
| KLeaf (l : leaf) (typ tru : vec K)
| KProd (startT startR subs : list nat).
(** Manifold.h:386-408, RefCounter.h:62. *)
Record obj := Obj { o_hdr : hdr; o_kind : okind; o_lock : bool; o_id : nat; o_count : Z; o_owner : owner }.
(** A point object (Point.h:25-75): the manifold it refers to and the range of doubles value_ maps.  An
    owner is a Point, whose PointMemory (Point.h:108-118) is [p_mem]; the others are (Const)SubPoints. *)
Record pt := Pt { p_mfd : nat; p_mem : nat; p_off : nat; p_len : nat; p_owner : bool }.
(** All manifold objects (Manifold.h:386-408), all point objects (Point.h:62-70), the memory of the Points (Point.h:110-118),
    Manifold::manifoldCounter_ (Manifold.h:405, Manifold.cpp:24). *)
Record state := St {
  objs : list (option obj); pts : list (option pt); mems : list (option (vec K)); counter : nat }.
Definition init : state := St [] [] [] 0.

(** What a call does: returns; throws with the state left behind (mnf_assert.h:32-44); ends the program (an exception
    leaving a noexcept function, RefCounter.h:44-51); undefined behaviour; is not a C++ program (const violation, no such
    member). *)
Inductive outcome :=
| Done (s : state) | Thrown (e : err) (s : state) | Terminated | Undefined | Rejected.

(** subManifolds_ (CartesianProduct.h:106). *)
Definition kind_subs (k : okind) : list nat := match k with KLeaf _ _ _ => [] | KProd _ _ l => l end.
Definition subs_of (o : obj) : list nat := kind_subs (o_kind o).

(** Updates of the heap: objects (Manifold.h:386-408), points (Point.h:62-70), memory (Point.h:110-118). *)
Definition set_objs (s : state) l := St l (pts s) (mems s) (counter s).
Definition set_pts (s : state) l := St (objs s) l (mems s) (counter s).
Definition set_mems (s : state) l := St (objs s) (pts s) l (counter s).
Definition modify (s : state) (a : nat) (f : obj -> obj) : state :=
  match get (objs s) a with Some o => set_objs s (upd (objs s) a (Some (f o))) | None => s end.
Definition remove (s : state) (a : nat) : state := set_objs s (upd (objs s) a None).

(** Updates of one object: lock_ (Manifold.h:408), count_ (RefCounter.h:62), name and dimensions (Manifold.h:391-401),
    the members of the derived class (CartesianProduct.h:104-115), the owner. *)
Definition with_lock (o : obj) := Obj (o_hdr o) (o_kind o) true (o_id o) (o_count o) (o_owner o).
Definition with_count (f : Z -> Z) (o : obj) :=
  Obj (o_hdr o) (o_kind o) (o_lock o) (o_id o) (f (o_count o)) (o_owner o).
Definition with_hdr (h : hdr) (o : obj) := Obj h (o_kind o) (o_lock o) (o_id o) (o_count o) (o_owner o).
Definition with_kind (k : okind) (o : obj) := Obj (o_hdr o) k (o_lock o) (o_id o) (o_count o) (o_owner o).
Definition with_owner (w : owner) (o : obj) := Obj (o_hdr o) (o_kind o) (o_lock o) (o_id o) (o_count o) w.
Definition hname (h : hdr) (n : string) := Hdr n (h_dim h) (h_tdim h) (h_rdim h).

(** The tree (value layer) an object stands for, through subManifolds_ (CartesianProduct.h:106); [n] bounds the depth, [tree] is enough for every heap that
    a program can build (ObjTree.v: tree_live). *)
Fixpoint tree_of (n : nat) (s : state) (a : nat) : option (mfd K) :=
  match n with
  | O => None
  | S n' =>
      match get (objs s) a with
      | None => None
      | Some o =>
          match o_kind o with
          | KLeaf l typ tru => Some (Leaf (o_hdr o) l typ tru)
          | KProd sT sR l =>
              match (fix all (l : list nat) : option (list (mfd K)) :=
                       match l with
                       | [] => Some []
                       | c :: l' => match tree_of n' s c, all l' with
                                    | Some m, Some ms => Some (m :: ms)
                                    | _, _ => None
                                    end
                       end) l with
              | Some ms => Some (Prod (o_hdr o) sT sR ms)
              | None => None
              end
          end
      end
  end.
Definition tree (s : state) (a : nat) : option (mfd K) := tree_of (S (List.length (objs s))) s a.

(** ** Manifold objects *)

(** Manifold::lock (Manifold.cpp:384). *)
Definition lockm (s : state) (a : nat) : state := modify s a with_lock.

(** Non-const access: only through the variable or the pointer the program holds; operator()(i) (CartesianProduct.cpp:131-136)
    and getManifold() (Point.cpp:64) return const references, subManifolds_ holds pointers to const
    (CartesianProduct.h:106). *)
Definition mutable_ (o : obj) : bool := match o_owner o with Shared _ => false | _ => true end.

(** A new object: its constructor has run (Manifold.cpp:26-37). *)
Definition add_obj (s : state) (o : obj) : state := set_objs s (objs s ++ [Some o]).

(** Elementary constructors (RealSpace.cpp:25-52, S2.cpp:28-47, SO3.h:98-122), through the value layer. *)
Inductive ctor := CReal (n : Z) (mag : vec K) | CRealMag (n : Z) (c : K) | CS2 (mag : vec K) | CSO3 (mp : so3map) (mag : vec K).
Definition run_ctor (c : ctor) : res (mfd K) :=
  match c with
  | CReal n v => mk_real_vec n v
  | CRealMag n x => mk_real_mag n x
  | CS2 v => mk_s2_vec v
  | CSO3 mp v => mk_so3_vec mp v
  end.
(** Manifold::Manifold (Manifold.cpp:26-37): the identifier is the counter, then the counter grows.  (When a
    constructor of a derived class fails afterwards the counter has already grown; when the assertions of
    lines 33-35 fail it has not.) *)
Definition base_ok (c : ctor) : bool :=
  match c with CReal n _ | CRealMag n _ => (0 <=? n)%Z | _ => true end.
Definition bump (s : state) : state := St (objs s) (pts s) (mems s) (S (counter s)).
Definition new_leaf (s : state) (c : ctor) : outcome :=
  match run_ctor c with
  | Ok (Leaf h l typ tru) => Done (bump (add_obj s (Obj h (KLeaf l typ tru) false (counter s) 0 Auto)))
  | Ok (Prod _ _ _ _) => Rejected
  | Fail e => Thrown e (if base_ok c then bump s else s)
  end.
(** CartesianProduct::CartesianProduct() (CartesianProduct.cpp:24-29).  The other three constructors
    (CartesianProduct.cpp:31-48, CartesianPower.cpp:22-26) run this body, then multiply, then name(). *)
Definition new_product (s : state) : outcome :=
  Done (bump (add_obj s (Obj (Hdr "" 0 0 0) (KProd [0] [0] []) false (counter s) 0 Auto))).

(** Copying the shared_ptrs of subManifolds_ (CartesianProduct.h:106, CartesianProduct.cpp:331-335). *)
Definition retain1 (s : state) (c : nat) : state :=
  modify s c (fun o => with_owner (match o_owner o with Shared n => Shared (S n) | w => w end) o).
Definition retain (s : state) (l : list nat) : state := fold_left retain1 l s.
(** Destroying shared_ptrs: the last one destroys the object, and then the pointers it holds.  If points are
    attached, ~RefCounter (RefCounter.h:46-51) throws inside the noexcept destructor of shared_ptr.  Every
    round drops one pointer; [fuel] is the number of pointers plus one. *)
Fixpoint release (fuel : nat) (s : state) (w : list nat) : outcome :=
  match w with
  | [] => Done s
  | a :: w' =>
      match fuel with
      | O => Undefined
      | S f =>
          match get (objs s) a with
          | Some o =>
              match o_owner o with
              | Shared (S (S n)) => release f (modify s a (with_owner (Shared (S n)))) w'
              | Shared 1 =>
                  if (o_count o =? 0)%Z then release f (remove s a) (subs_of o ++ w') else Terminated
              | _ => Undefined
              end
          | None => Undefined
          end
      end
  end.
Definition pointers (l : list (option obj)) : nat :=
  sum_list (map (fun x => match x with Some o => List.length (subs_of o) | None => 0 end) l).
Definition drop (s : state) (w : list nat) : outcome := release (S (pointers (objs s) + List.length w)) s w.

(** The implicit copy constructors: RefCounter (RefCounter.h:42) starts at 0; name, dimensions, identifier
    and lock are copied; a product copies its vectors, hence shares its factors. *)
Definition copy_obj (s : state) (o : obj) (lk : bool) (w : owner) : state :=
  add_obj (retain s (subs_of o)) (Obj (o_hdr o) (o_kind o) lk (o_id o) 0 w).
Definition copy_mfd (s : state) (a : nat) : outcome :=
  match get (objs s) a with Some o => Done (copy_obj s o (o_lock o) Auto) | None => Undefined end.
(** Manifold::getNewCopy (Manifold.cpp:407-414). *)
Definition get_new_copy (s : state) (a : nat) (w : owner) : outcome :=
  match get (objs s) a with
  | Some o => Done (copy_obj (lockm s a) o true w)
  | None => Undefined
  end.

(** CartesianProduct::multiply (CartesianProduct.cpp:80-93), statement by statement: testLock; m.lock();
    the two appends to name(); setDimension, which tests the lock again (Manifold.cpp:285-307); the copy of
    m; the offsets. *)
Definition name_of (s : state) (a : nat) : string :=
  match get (objs s) a with Some o => h_name (o_hdr o) | None => EmptyString end.
Definition append_name (s : state) (a : nat) (t : string) : state :=
  modify s a (fun o => with_hdr (hname (o_hdr o) (h_name (o_hdr o) ++ t)) o).
Definition locked (s : state) (a : nat) : bool :=
  match get (objs s) a with Some o => o_lock o | None => false end.
Definition multiply_obj (s : state) (p m : nat) : outcome :=
  match get (objs s) p, get (objs s) m with
  | Some op, Some om =>
      match o_kind op with
      | KLeaf _ _ _ => Rejected
      | KProd sT sR l =>
          if mutable_ op then
            if o_lock op then Thrown EThrow s else
            let s1 := lockm s m in
            let s2 := if h_dim (o_hdr op) =? 0 then s1 else append_name s1 p "x" in
            let s3 := append_name s2 p (name_of s2 m) in
            if locked s3 p then Thrown EThrow s3 else
            match back sT, back sR with
            | Ok bT, Ok bR =>
                let hm := o_hdr om in
                let s4 := copy_obj s3 om true (Shared 1) in
                Done (modify s4 p (fun o =>
                        let h := o_hdr o in
                        with_kind (KProd (sT ++ [bT + h_tdim hm]) (sR ++ [bR + h_rdim hm]) (l ++ [List.length (objs s3)]))
                          (with_hdr (Hdr (h_name h) (h_dim h + h_dim hm) (h_tdim h + h_tdim hm) (h_rdim h + h_rdim hm)) o)))
            | _, _ => Undefined
            end
          else Rejected
      end
  | _, _ => Undefined
  end.

(** name() = s (Manifold.cpp:398): no lock test. *)
Definition set_name (s : state) (a : nat) (t : string) : outcome :=
  match get (objs s) a with
  | Some o => if mutable_ o then Done (modify s a (fun o => with_hdr (hname (o_hdr o) t) o)) else Rejected
  | None => Undefined
  end.
(** setTypicalMagnitude, setTrustMagnitude (RealSpace.cpp:189-207, S2.cpp:262-279, SO3.h:297-321). *)
Definition set_mag (s : state) (a : nat) (v : vec K) (trust : bool) : outcome :=
  match get (objs s) a with
  | Some o =>
      if mutable_ o then
        match o_kind o with
        | KLeaf l typ tru =>
            if o_lock o then Thrown EThrow s
            else if mag_ok l v then
              Done (modify s a (with_kind (if trust then KLeaf l typ v else KLeaf l v tru)))
            else Thrown EEigen s
        | KProd _ _ _ => Rejected
        end
      else Rejected
  | None => Undefined
  end.

(** Destruction: the members first (the factors), then ~RefCounter (RefCounter.h:46-51), whose assertion
    leaves the object destroyed; inside a shared_ptr the exception ends the program. *)
Definition destroy_mfd (s : state) (a : nat) : outcome :=
  match get (objs s) a with
  | Some o =>
      if mutable_ o then
        match drop (remove s a) (subs_of o) with
        | Done s' =>
            if (o_count o =? 0)%Z then Done s'
            else match o_owner o with Auto => Thrown EAssert s' | _ => Terminated end
        | r => r
        end
      else Rejected
  | None => Undefined
  end.

(** The implicit operator= of RealSpace, S2 and CartesianProduct: memberwise, including count_, lock_ and
    instanceId_ (RefCounter.h:37-65 and Manifold.h:49-408 declare no operator=).  Deleted for SO3 (const members of bufferMap_). *)
Definition same_class (a b : okind) : bool :=
  match a, b with
  | KLeaf LReal _ _, KLeaf LReal _ _ | KLeaf LS2 _ _, KLeaf LS2 _ _ | KProd _ _ _, KProd _ _ _ => true
  | _, _ => false
  end.
Definition assign_mfd (s : state) (a b : nat) : outcome :=
  match get (objs s) a, get (objs s) b with
  | Some oa, Some ob =>
      if mutable_ oa && same_class (o_kind oa) (o_kind ob) then
        let s1 := retain s (subs_of ob) in
        drop (modify s1 a (fun o => Obj (o_hdr ob) (o_kind ob) (o_lock ob) (o_id ob) (o_count ob) (o_owner o))) (subs_of oa)
      else Rejected
  | _, _ => Undefined
  end.
(** The implicit move constructor of CartesianProduct (CartesianProduct.h:33-115 declares none): the bases are copied, the three vectors are moved,
    leaving the source with its dimensions and no factors. *)
Definition move_mfd (s : state) (a : nat) : outcome :=
  match get (objs s) a with
  | Some o =>
      match o_kind o with
      | KProd _ _ _ =>
          if mutable_ o then
            Done (add_obj (modify s a (with_kind (KProd [] [] []))) (Obj (o_hdr o) (o_kind o) (o_lock o) (o_id o) 0 Auto))
          else Rejected
      | _ => Rejected
      end
  | None => Undefined
  end.

(** ** Points *)

(** Failures of the value layer inside a call (mnf_assert.h:32-44). *)
Definition lift {A} (r : res A) (s : state) (k : A -> outcome) : outcome :=
  match r with Ok x => k x | Fail EUB => Undefined | Fail e => Thrown e s end.
Definition with_tree (s : state) (a : nat) (k : mfd K -> outcome) : outcome :=
  match tree s a with Some m => k m | None => Undefined end.
Definition bind_out (r : outcome) (k : state -> outcome) : outcome := match r with Done s => k s | e => e end.

(** registerPoint (Point.cpp:66). *)
Definition register (s : state) (a : nat) : state := modify s a (with_count (fun c => c + 1)%Z).
(** PointMemory and SubPoint constructors (Point.cpp:86-114, 26-34): getMem asserts a positive size, the
    ConstSubPoint constructor asserts the size, then registers. *)
Definition make_point (s : state) (a : nat) (v : vec K) : outcome :=
  with_tree s a (fun m =>
    if 0 <? List.length v then
      if List.length v =? representationDim m then
        let s1 := set_mems s (mems s ++ [Some v]) in
        let s2 := set_pts s1 (pts s1 ++ [Some (Pt a (List.length (mems s)) 0 (List.length v) true)]) in
        Done (register s2 a)
      else Thrown EAssert s
    else Thrown EAssert s).

(** Manifold::createPoint() (Manifold.cpp:41-46): uninitialised memory, whose content is an input. *)
Definition create_point (s : state) (a : nat) (junk : vec K) : outcome :=
  with_tree s a (fun m =>
    if List.length junk =? representationDim m then make_point (lockm s a) a junk else Rejected).
(** Manifold::createPoint(val) (Manifold.cpp:48-60). *)
Definition create_point_val (s : state) (a : nat) (v : vec K) : outcome :=
  with_tree s a (fun m =>
    lift (isInM m v default_prec) s (fun b => if b then make_point (lockm s a) a v else Thrown EThrow s)).
(** Manifold::getZero (Manifold.cpp:77-84). *)
Definition get_zero (s : state) (a : nat) (junk : vec K) : outcome :=
  with_tree s a (fun m =>
    if List.length junk =? representationDim m then
      let s1 := lockm s a in lift (setZero m junk) s1 (fun v => make_point s1 a v)
    else Rejected).

(** The doubles value_ maps (Point.h:69). *)
Definition value (s : state) (q : pt) : option (vec K) :=
  match get (mems s) (p_mem q) with
  | Some v => if p_off q + p_len q <=? List.length v then Some (firstn (p_len q) (skipn (p_off q) v)) else None
  | None => None
  end.
Definition write (s : state) (q : pt) (w : vec K) : state :=
  match get (mems s) (p_mem q) with
  | Some v => set_mems s (upd (mems s) (p_mem q) (Some (set_segment v (p_off q) w)))
  | None => s
  end.

(** Point(const Point&), Point(const ConstSubPoint&) (Point.cpp:106-114). *)
Definition copy_point (s : state) (p : nat) : outcome :=
  match get (pts s) p with
  | Some q => match value s q with Some v => make_point s (p_mfd q) v | None => Undefined end
  | None => Undefined
  end.
(** ConstSubPoint and SubPoint copy constructors (Point.cpp:36-40, 72): same doubles, one more registration. *)
Definition add_view (s : state) (q : pt) : outcome :=
  match get (objs s) (p_mfd q) with
  | Some _ => Done (register (set_pts s (pts s ++ [Some q])) (p_mfd q))
  | None => Undefined
  end.
Definition copy_view (s : state) (p : nat) : outcome :=
  match get (pts s) p with
  | Some q => add_view s (Pt (p_mfd q) (p_mem q) (p_off q) (p_len q) false)
  | None => Undefined
  end.
(** operator()(i) (Point.cpp:46-49, 76-79): manifold_(i) and getView<R>(value_, i). *)
Definition sub_addr (a : nat) (o : obj) (i : nat) : nat :=
  match o_kind o with KLeaf _ _ _ => a | KProd _ _ l => nth i l 0 end.
Definition sub_point (s : state) (p i : nat) : outcome :=
  match get (pts s) p with
  | Some q =>
      with_tree s (p_mfd q) (fun m =>
        match get (objs s) (p_mfd q) with
        | Some o =>
            lift (view_range DR m (p_len q) i) s (fun r =>
              if fst r + snd r <=? p_len q then
                add_view s (Pt (sub_addr (p_mfd q) o i) (p_mem q) (p_off q + fst r) (snd r) false)
              else Thrown EEigen s)
        | None => Undefined
        end)
  | None => Undefined
  end.
(** ~ConstSubPoint (Point.cpp:42, 68; RefCounter.h:55-59), then ~PointMemory. *)
Definition destroy_point (s : state) (p : nat) : outcome :=
  match get (pts s) p with
  | Some q =>
      match get (objs s) (p_mfd q) with
      | Some o =>
          if (0 <? o_count o)%Z then
            let s1 := modify s (p_mfd q) (with_count (fun c => c - 1)%Z) in
            let s2 := if p_owner q then set_mems s1 (upd (mems s1) (p_mem q) None) else s1 in
            Done (set_pts s2 (upd (pts s2) p None))
          else Terminated
      | None => Undefined
      end
  | None => Undefined
  end.
(** value()[k] = x, or P[i][k] = x (Point.cpp:74, 81-84). *)
Definition write_coef (s : state) (p k : nat) (x : K) : outcome :=
  match get (pts s) p with
  | Some q =>
      match value s q with
      | Some v => if k <? p_len q then Done (write s q (set_segment v k [x])) else Thrown EEigen s
      | None => Undefined
      end
  | None => Undefined
  end.
(** Point::increment (Point.cpp:116-120): output and input are the same doubles; Alias.v shows that the
    result is the one of separate buffers. *)
Definition increment (s : state) (p : nat) (v : vec K) : outcome :=
  match get (pts s) p with
  | Some q =>
      if p_owner q then
        match value s q with
        | Some x => with_tree s (p_mfd q) (fun m => lift (retractation m x x v) s (fun r => Done (write s q r)))
        | None => Undefined
        end
      else Rejected
  | None => Undefined
  end.
(** Point::operator= (Point.cpp:169-176). *)
Definition assign_point (s : state) (p p' : nat) : outcome :=
  match get (pts s) p, get (pts s) p' with
  | Some q, Some q' =>
      if p_owner q && p_owner q' then
        with_tree s (p_mfd q) (fun m => with_tree s (p_mfd q') (fun m' =>
          if (dim m =? dim m') then
            if (representationDim m =? representationDim m') then
              match value s q, value s q' with
              | Some x, Some y => lift (assign x y) s (fun r => Done (write s q r))
              | _, _ => Undefined
              end
            else Thrown EAssert s
          else Thrown EAssert s))
      else Rejected
  | _, _ => Undefined
  end.
(** Stack unwinding: the temporary [t] (Point.cpp:180) is destroyed whether the call returned or threw. *)
Definition finally (r : outcome) (t : nat) : outcome :=
  match r with
  | Done s => destroy_point s t
  | Thrown e s => match destroy_point s t with Done s' => Thrown e s' | r => r end
  | r => r
  end.
(** operator+ (Point.cpp:178-181): the temporary createPoint(x.value()) is incremented, the result is a copy
    of it. *)
Definition plus (s : state) (p : nat) (v : vec K) : outcome :=
  match get (pts s) p with
  | Some q =>
      if p_owner q then
        match value s q with
        | Some x =>
            let t := List.length (pts s) in
            bind_out (create_point_val s (p_mfd q) x) (fun s1 =>
              finally (bind_out (increment s1 t v) (fun s2 => copy_point s2 t)) t)
        | None => Undefined
        end
      else Rejected
  | None => Undefined
  end.
(** Point::retractation(v) (Point.cpp:122-127). *)
Definition retract_point (s : state) (p : nat) (v : vec K) : outcome :=
  match get (pts s) p with
  | Some q =>
      if p_owner q then
        match value s q with
        | Some x =>
            with_tree s (p_mfd q) (fun m =>
              lift (retractation m (vconst (representationDim m) k0) x v) s (fun r => create_point_val s (p_mfd q) r))
        | None => Undefined
        end
      else Rejected
  | None => Undefined
  end.
(** The const members that return vectors (Point.cpp:137-146, 183-188); [junk] is the content of the
    uninitialised output vector. *)
Definition pt_pseudoLog (m : mfd K) (junk x y : vec K) : res (vec K) :=
  pseudoLog m (firstn (tangentDim m) junk) x y.
Definition pt_minus (m : mfd K) (junk x y : vec K) : res (vec K) :=
  pseudoLog m (firstn (dim m) junk) y x.

Inductive op :=
| NewLeaf (c : ctor) | NewProduct | CopyMfd (a : nat) | GetNewCopy (a : nat) | LockMfd (a : nat)
| SetName (a : nat) (t : string) | SetMag (a : nat) (v : vec K) (trust : bool) | Multiply (p m : nat)
| DestroyMfd (a : nat) | AssignMfd (a b : nat) | MoveMfd (a : nat)
| CreatePoint (a : nat) (junk : vec K) | CreatePointVal (a : nat) (v : vec K) | GetZero (a : nat) (junk : vec K)
| CopyPoint (p : nat) | CopyView (p : nat) | SubPointAt (p i : nat) | DestroyPoint (p : nat)
| Write (p k : nat) (x : K) | Increment (p : nat) (v : vec K) | AssignPoint (p q : nat)
| Plus (p : nat) (v : vec K) | Retract (p : nat) (v : vec K).

Definition step (s : state) (o : op) : outcome :=
  match o with
  | NewLeaf c => new_leaf s c
  | NewProduct => new_product s
  | CopyMfd a => copy_mfd s a
  | GetNewCopy a => get_new_copy s a Held
  | LockMfd a => match get (objs s) a with Some _ => Done (lockm s a) | None => Undefined end
  | SetName a t => set_name s a t
  | SetMag a v b => set_mag s a v b
  | Multiply p m => multiply_obj s p m
  | DestroyMfd a => destroy_mfd s a
  | AssignMfd a b => assign_mfd s a b
  | MoveMfd a => move_mfd s a
  | CreatePoint a v => create_point s a v
  | CreatePointVal a v => create_point_val s a v
  | GetZero a v => get_zero s a v
  | CopyPoint p => copy_point s p
  | CopyView p => copy_view s p
  | SubPointAt p i => sub_point s p i
  | DestroyPoint p => destroy_point s p
  | Write p k x => write_coef s p k x
  | Increment p v => increment s p v
  | AssignPoint p q => assign_point s p q
  | Plus p v => plus s p v
  | Retract p v => retract_point s p v
  end.

(** A history of calls of the public members (Manifold.h:51-305, Point.h:27-205); exceptions are caught and the program
    goes on. *)
Fixpoint run (s : state) (h : list op) : outcome :=
  match h with
  | [] => Done s
  | o :: h' => match step s o with Done s' | Thrown _ s' => run s' h' | r => r end
  end.

End Object.
Arguments obj K : clear implicits.
Arguments okind K : clear implicits.
Arguments state K : clear implicits.
Arguments outcome K : clear implicits.
Arguments ctor K : clear implicits.
Arguments op K : clear implicits.
