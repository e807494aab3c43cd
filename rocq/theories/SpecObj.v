(** Vocabulary for statements about manifold and point objects.  Nothing here uses the model's helpers except
    the state itself and the calls. *)
From Coq Require Import List Arith Bool ZArith.
From Verif Require Import Base Scalar Vec Model_Manifold Model_Object Spec.
Import ListNotations.

Section SpecObj.
Context {K : Type} {SK : Scalar K}.
Implicit Types (s : state K) (o : obj K).

Definition live s (a : nat) : Prop := exists o, get (objs s) a = Some o.
Definition is_locked s (a : nat) : Prop := exists o, get (objs s) a = Some o /\ o_lock o = true.
(** Objects of the program, as opposed to the copies products hold. *)
Definition own s (a : nat) : Prop := exists o, get (objs s) a = Some o /\ forall n, o_owner o <> Shared n.
Definition has_id s (a i : nat) : Prop := exists o, get (objs s) a = Some o /\ o_id o = i.

(** Object [a] is alive and stands for the tree [m], all its factors being alive. *)
Inductive denotes s : nat -> mfd K -> Prop :=
| den_leaf a o l typ tru : get (objs s) a = Some o -> o_kind o = KLeaf l typ tru ->
    denotes s a (Leaf (o_hdr o) l typ tru)
| den_prod a o sT sR cs ms : get (objs s) a = Some o -> o_kind o = KProd sT sR cs ->
    Forall2 (denotes s) cs ms -> denotes s a (Prod (o_hdr o) sT sR ms).

(** [c] is [a] or a factor of a factor ... of [a]. *)
Inductive below s : nat -> nat -> Prop :=
| below_refl a : below s a a
| below_step a o b c : get (objs s) a = Some o -> In b (kind_subs (o_kind o)) -> below s b c -> below s a c.
(** [c] is destroyed together with [a]: no other object of the program uses it. *)
Definition dies_with s (a c : nat) : Prop := below s a c /\ forall b, own s b -> b <> a -> ~ below s b c.

(** Number of live points attached to [a]. *)
Definition points_on s (a : nat) : nat :=
  List.length (filter (fun x => match x with Some q => p_mfd q =? a | None => false end) (pts s)).

(** Calls of the interface, without the implicitly generated assignment and move of manifolds. *)
Definition declared (o : op K) : Prop := match o with AssignMfd _ _ | MoveMfd _ => False | _ => True end.
(** The manifold object a call is meant to modify or destroy. *)
Definition modifies (o : op K) (a : nat) : Prop :=
  match o with
  | SetName b _ | SetMag b _ _ | Multiply b _ | DestroyMfd b | AssignMfd b _ | MoveMfd b => b = a
  | _ => False
  end.
(** [s'] is reached from [s] by calls of the interface (exceptions are caught). *)
Definition leads s s' : Prop := exists h, Forall declared h /\ run s h = Done s'.
(** The same with every call. *)
Definition leads_any s s' : Prop := exists h, run s h = Done s'.

(** The call reports an error: an exception, or the end of the program. *)
Definition reported (r : outcome K) : Prop := (exists e s, r = Thrown e s) \/ r = Terminated.

(** Identifiers given by the constructors along a history. *)
Fixpoint births s (h : list (op K)) : list nat :=
  match h with
  | [] => []
  | o :: h' =>
      match step s o with
      | Done s' =>
          match o, get (objs s') (List.length (objs s)) with
          | (NewLeaf _ | NewProduct), Some ob => o_id ob :: births s' h'
          | _, _ => births s' h'
          end
      | Thrown _ s' => births s' h'
      | _ => []
      end
  end.

(** [m'] is the component of [m] along a path of indices, its coordinates start at [off]. *)
Inductive at_path : mfd K -> list nat -> nat -> mfd K -> Prop :=
| path_nil m : at_path m [] 0 m
| path_leaf h l typ tru p off m' : at_path (Leaf h l typ tru) p off m' -> at_path (Leaf h l typ tru) (0 :: p) off m'
| path_prod h sT sR pre f post p off m' : at_path f p off m' ->
    at_path (Prod h sT sR (pre ++ f :: post)) (List.length pre :: p) (sum_list (map representationDim pre) + off) m'.

(** The doubles a live point shows. *)
Definition shows s (p : nat) (x : vec K) : Prop :=
  exists q v, get (pts s) p = Some q /\ get (mems s) (p_mem q) = Some v /\
    p_off q + List.length x <= List.length v /\ p_len q = List.length x /\
    forall d k, k < List.length x -> nth k x d = nth (p_off q + k) v d.
Definition on_manifold s (p a : nat) : Prop := exists q, get (pts s) p = Some q /\ p_mfd q = a.
Definition owner_point s (p : nat) : Prop := exists q, get (pts s) p = Some q /\ p_owner q = true.
(** The points whose value a call is meant to change, or to destroy; points on the same storage. *)
Definition writes (o : op K) (r : nat) : Prop := match o with Write p _ _ | Increment p _ | AssignPoint p _ => p = r | _ => False end.
Definition ends (o : op K) (r : nat) : Prop := match o with DestroyPoint p => p = r | _ => False end.
Definition same_mem s (p r : nat) : Prop := exists q q', get (pts s) p = Some q /\ get (pts s) r = Some q' /\ p_mem q = p_mem q'.
(** [r] is the point p(i1)(i2)..., made by successive calls from [s] to [s']. *)
Inductive reaches : state K -> nat -> list nat -> state K -> nat -> Prop :=
| reach_nil s p : reaches s p [] s p
| reach_cons s p i path s1 s2 r : step s (SubPointAt p i) = Done s1 -> reaches s1 (List.length (pts s)) path s2 r ->
    reaches s p (i :: path) s2 r.
End SpecObj.
