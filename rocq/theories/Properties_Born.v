(** C81: the points a program creates in doubles are close to their manifold, after any history. *)
From Coq Require Import Reals List Lra Lia ZArith Bool Arith Psatz.
From Flocq Require Import Core BinarySingleNaN.
From Verif Require Import Base Scalar Vec Model_Real Model_S2 Model_SO3 Model_Manifold Model_Object Spec SpecObj Layout Comp Indep Flat Heap ObjTree ObjStep ObjPoint ObjFacts ObjVal ObjPath
  SpecR NumVec F64 F64Err F64Norm F64Exp F64Tree F64Go ExScalar Properties_Float Properties_Accept.
From Verif Require Properties_Point.
Import ListNotations.
Import Model_Object.
Local Open Scope R_scope.

Section Any.
Variable L : libm.
Local Notation step := (step (SK:=F64 L)).
Local Notation leads := (leads (SK:=F64 L)).

Lemma in_default (m : mfd f64) x : built m -> isInM (SK:=F64 L) m x (default_prec (SK:=F64 L)) = Ok true -> defect64M (211 / 10 ^ 10) m x.
Proof. intros B H. destruct (default_ok L) as [Fd Vd]. apply C79_accept in H; auto; [|lra]. rewrite Rmax_right in H by lra. eapply defect64M_mono; [|exact H]. lra. Qed.

(** createPoint(val) that returns: the new point holds exactly the doubles of val, and they are within 2.11e-8 of the
    manifold.  It returns whenever they are within 3.3e-9. *)
Theorem C81_create : forall s a m v, leads init s -> denotes s a m -> (0 < representationDim m)%nat ->
  (forall s', step s (CreatePointVal a v) = Done s' ->
     defect64M (211 / 10 ^ 10) m v /\ shows s' (length (pts s)) v /\ on_manifold s' (length (pts s)) a /\ owner_point s' (length (pts s))) /\
  (defect64M (33 / 10 ^ 10) m v -> exists s', step s (CreatePointVal a v) = Done s').
Proof.
  intros s a m v R D P. pose proof (leads_inv _ R) as A. pose proof (live_built s a m A D) as B. destruct (default_ok L) as [Fd Vd]. split.
  - intros s' H. pose proof H as H'. rewrite (create_val s a m v (proj1 A) D P) in H'. destruct (isInM m v default_prec) as [[]|[]] eqn:E in H'; try discriminate H'. split; [apply in_default; auto|].
    destruct (new_shows _ _ _ _ H') as (W1 & W2 & W3). destruct (lockm_rest s a) as [P0 _]. rewrite P0 in *. auto.
  - intros Hd. apply (C79_close L m v _ B Fd ltac:(lra)) in Hd. pose proof (isInM_len _ _ _ _ Hd) as Lv. rewrite (create_val s a m v (proj1 A) D P), Hd.
    apply (make_lock_does s a v m (proj1 A) D); [exact Lv|]. rewrite Lv. exact P.
Qed.
(** x.retractation(v) that returns: the new point is within 2.11e-8 of the manifold, wherever x was and for every C
    library; x + v that returns: x itself is within 2.11e-8. *)
Theorem C81_retract : forall s p a m x v s', leads init s -> owner_point s p -> on_manifold s p a -> denotes s a m -> shows s p x ->
  step s (Retract p v) = Done s' -> exists r, retractation (SK:=F64 L) m x x v = Ok r /\ shows s' (length (pts s)) r /\ on_manifold s' (length (pts s)) a /\ shows s' p x /\ defect64M (211 / 10 ^ 10) m r.
Proof.
  intros s p a m x v s' R (q & Hq & Ho) (q0 & Hq0 & <-) D S E. assert (q0 = q) by congruence. subst q0. clear Hq0. pose proof (leads_inv _ R) as A.
  pose proof (retract_is (SK:=F64 L) s p q m x A Hq Ho D S v) as X. rewrite E in X. destruct (retractation m x x v) as [r|[]] eqn:Er; try discriminate. exists r. split; [reflexivity|].
  symmetry in X. pose proof (ops_pos s p q m A Hq Ho D) as P. destruct (C81_create s (p_mfd q) m r R D P) as [C _]. destruct (C _ X) as (C1 & C2 & C3 & _). split; [exact C2|]. split; [exact C3|]. split; [|exact C1].
  pose proof (value_frame (SK:=F64 L) s (Retract p v) p x A Logic.I S) as V. rewrite E in V. apply V; cbn; tauto.
Qed.
Theorem C81_plus : forall s p a m x v s', accurate L -> leads init s -> owner_point s p -> on_manifold s p a -> denotes s a m -> shows s p x -> tangent64 m v ->
  step s (Plus p v) = Done s' -> defect64M (211 / 10 ^ 10) m x /\
  exists r, retractation (SK:=F64 L) m x x v = Ok r /\ shows s' (S (length (pts s))) r /\ on_manifold s' (S (length (pts s))) a /\ defect64M (65 / 10 ^ 9) m r.
Proof.
  intros s p a m x v s' HL R (q & Hq & Ho) (q0 & Hq0 & <-) D S T E. assert (q0 = q) by congruence. subst q0. clear Hq0. pose proof (leads_inv _ R) as A. pose proof (live_built s _ m A D) as B.
  pose proof (plus_is (SK:=F64 L) s p q m x A Hq Ho D S v) as X. rewrite E in X. destruct (isInM m x default_prec) as [[]|[]] eqn:Ei in X; try discriminate. split; [apply in_default; auto|].
  destruct (retractation m x x v) as [r|[]] eqn:Er in X; try discriminate; try (destruct X as (? & X); discriminate X). destruct X as (s1 & E1 & Z1 & _ & Z3 & _). injection E1 as <-. exists r. split; [exact Er|]. split; [exact Z1|]. split; [exact Z3|].
  assert (W : increments64 L m x [v] = Ok r) by (cbn [increments64]; rewrite Er; reflexivity).
  assert (U : / 2 ^ 53 <= 2 / 10 ^ 16) by (cbn [pow]; lra). pose proof (C79_walk L m x [v] r HL B Ei (Forall_cons _ T (Forall_nil _)) W) as Q. cbn [length INR] in Q.
  set (c := / 2 ^ 53) in *. clearbody c. eapply defect64M_mono; [|apply Q]; lra.
Qed.
End Any.

Lemma run_snoc L h o : forall s0 s s' : state f64, run (SK:=F64 L) s0 h = Done s -> step (SK:=F64 L) s o = Done s' -> run (SK:=F64 L) s0 (h ++ [o]) = Done s'.
Proof.
  induction h as [|o' h IH]; intros s0 s s' H1 H2.
  - assert (Q : s0 = s) by (cbn in H1; congruence). subst s0. change (match step (SK:=F64 L) s o with Done s1 | Thrown _ s1 => run (SK:=F64 L) s1 [] | r => r end = Done s'). rewrite H2. reflexivity.
  - change (match step (SK:=F64 L) s0 o' with Done s1 | Thrown _ s1 => run (SK:=F64 L) s1 h | r => r end = Done s) in H1.
    change (match step (SK:=F64 L) s0 o' with Done s1 | Thrown _ s1 => run (SK:=F64 L) s1 (h ++ [o]) | r => r end = Done s'). destruct (step (SK:=F64 L) s0 o'); try discriminate H1; eauto.
Qed.
(** A sphere and a point on it, then moved both ways: the points are created; a vector of norm 2 is refused. *)
Example C81_example : forall L0, let L := in_order L0 in let y := fi [0; 1; 0]%Z in let v := fi [2; 0; 0]%Z in
  exists s m s' s1 s2, leads (SK:=F64 L) init s /\ denotes s 0 m /\ (0 < representationDim m)%nat /\
    step (SK:=F64 L) s (CreatePointVal 0 y) = Done s' /\ leads (SK:=F64 L) init s' /\ shows s' 0 y /\ owner_point s' 0 /\ on_manifold s' 0 0 /\
    step (SK:=F64 L) s' (Retract 0 v) = Done s1 /\ step (SK:=F64 L) s' (Plus 0 v) = Done s2 /\
    exists s3, step (SK:=F64 L) s (CreatePointVal 0 (fi [0; 2; 0]%Z)) = Thrown EThrow s3.
Proof.
  intros L0 L y v. set (h := [NewLeaf (CS2 (fi [1; 1; 1]%Z))] : list (op f64)).
  assert (C : match run (SK:=F64 L) init h with
    | Done s => match tree s 0 with Some m => (0 <? representationDim m)%nat | None => false end && (length (pts s) =? 0)%nat &&
        match step (SK:=F64 L) s (CreatePointVal 0 y) with
        | Done s' => match step (SK:=F64 L) s' (Retract 0 v) with Done _ => true | _ => false end && match step (SK:=F64 L) s' (Plus 0 v) with Done _ => true | _ => false end
        | _ => false end && match step (SK:=F64 L) s (CreatePointVal 0 (fi [0; 2; 0]%Z)) with Thrown EThrow _ => true | _ => false end
    | _ => false end = true) by (vm_compute; reflexivity).
  destruct (run (SK:=F64 L) init h) as [s| | | |] eqn:E; try discriminate C. destruct (tree s 0) as [m|] eqn:T; [|discriminate C].
  apply andb_prop in C as [C C4]. apply andb_prop in C as [C C3]. apply andb_prop in C as [C1 C2]. apply Nat.ltb_lt in C1. apply Nat.eqb_eq in C2.
  destruct (step (SK:=F64 L) s (CreatePointVal 0 y)) as [s'| | | |] eqn:E'; try discriminate C3. apply andb_prop in C3 as [C3 C5].
  destruct (step (SK:=F64 L) s' (Retract 0 v)) as [s1| | | |] eqn:E1; try discriminate C3. destruct (step (SK:=F64 L) s' (Plus 0 v)) as [s2| | | |] eqn:E2; try discriminate C5.
  destruct (step (SK:=F64 L) s (CreatePointVal 0 (fi [0; 2; 0]%Z))) as [|[] s3| | |] eqn:E3; try discriminate C4.
  assert (R : leads (SK:=F64 L) init s) by (exists h; split; [repeat constructor|exact E]).
  assert (D : denotes s 0 m) by (apply (denotes_tree [] s 0%nat m); [exact (proj1 (leads_inv _ R))|exact T]).
  destruct (C81_create L s 0%nat m y R D C1) as [Q _]. destruct (Q _ E') as (_ & Q1 & Q2 & Q3). rewrite C2 in *.
  exists s, m, s', s1, s2. split; [exact R|]. split; [exact D|]. split; [exact C1|]. split; [exact E'|]. split; [|repeat (split; [assumption|]); exists s3; exact E3].
  exists (h ++ [CreatePointVal 0 y]). split; [repeat constructor|]. exact (run_snoc L _ _ _ _ _ E E').
Qed.
