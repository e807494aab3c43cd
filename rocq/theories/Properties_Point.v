(** C37, C38, C39, C46: points, sub-points, copies, the operators, assignment, creation. *)
From Coq Require Import List Arith Bool ZArith Reals Lra Lia.
From Verif Require Import Base Scalar Vec Model_SO3 Model_Manifold Model_Object Spec SpecObj Layout Comp Indep Flat Heap ObjTree ObjStep ObjPoint ObjFacts ObjVal ObjPath.
From Verif Require Import XR SpecR NumTree RoundTrip Points Properties_Drift Topo.
Import ListNotations.
Open Scope nat_scope.

Section Any.
Context {K : Type} {SK : Scalar K}.
Implicit Types (s : state K) (x v : vec K).

(** ** C37 *)

(** Every path of the structure can be followed from a live point; the sub-point reached is attached to the
    component of the path and shows the slice of the component; no point and no double changes. *)
Theorem C37_path : forall s p a m x path off m', leads init s -> on_manifold s p a -> denotes s a m -> shows s p x ->
  at_path m path off m' ->
  exists s' r a', reaches s p path s' r /\ on_manifold s' r a' /\ denotes s' a' m' /\
    shows s' r (firstn (representationDim m') (skipn off x)) /\
    forall p0 z, shows s p0 z -> shows s' p0 z.
Proof.
  intros s p a m x path off m' R (q & Hq & Ea) D S Pa. subst a. apply leads_inv in R.
  destruct (reach_path m path off m' Pa s p q R Hq D) as (s' & r & q' & Re & G & X1 & X2 & X3 & X4 & X5 & X6 & X7).
  exists s', r, (p_mfd q'). split; auto. split; [exists q'; auto|]. split; auto. split.
  - pose proof (at_path_wf_le m path off m' (built_wf _ (live_built s _ m R D)) Pa) as Le. pose proof (shows_len s p q x m R Hq D S) as Lx.
    destruct S as (q0 & v & H0 & Hm & Hb & Hl & Hv). assert (q0 = q) by congruence. subst q0.
    exists q', v. rewrite X6, X1, X2, X3. split; auto. split; auto. rewrite firstn_length, skipn_length.
    replace (Nat.min (representationDim m') (length x - off)) with (representationDim m') by lia. split; [lia|]. split; auto.
    intros d k Hk. rewrite nth_sub by auto. rewrite Hv by lia. f_equal. lia.
  - intros p0 z (q0 & v & H0 & Hm & Hb). exists q0, v. rewrite X6. auto.
Qed.
(** An index outside the structure is refused and changes nothing. *)
Theorem C37_outside : forall s p a m i, leads init s -> on_manifold s p a -> denotes s a m -> numberOfSubManifolds m <= i ->
  step s (SubPointAt p i) = Thrown EAssert s.
Proof. intros s p a m i R (q & Hq & <-) D L. apply leads_inv in R. eapply sub_refused; eauto. Qed.

(** Writing coefficient [k] of the sub-point reached by [path] succeeds exactly when [k] is one of its
    coefficients; the owner then shows its old value except for coefficient off + k, and points on other
    storage are untouched. *)
Theorem C37_write_through : forall s p a m x path off m' s1 r k c, leads init s -> on_manifold s p a -> denotes s a m -> shows s p x ->
  at_path m path off m' -> reaches s p path s1 r ->
  (k < representationDim m' <-> exists s2, step s1 (Write r k c) = Done s2) /\
  forall s2, step s1 (Write r k c) = Done s2 ->
    (exists y, shows s2 p y /\ length y = length x /\ forall j d, nth j y d = if j =? off + k then c else nth j x d) /\
    (forall p0 z, shows s p0 z -> ~ same_mem s p p0 -> shows s2 p0 z).
Proof.
  intros s p a m x path off m' s1 r k c R (q & Hq & Ea) D S Pa Re. subst a. apply leads_inv in R.
  destruct (reach_path m path off m' Pa s p q R Hq D) as (s1' & r' & q' & Re' & G & X1 & X2 & X3 & X4 & X5 & X6 & X7).
  destruct (reaches_fun _ _ _ _ _ _ _ Re' Re) as [-> ->].
  pose proof (at_path_wf_le m path off m' (built_wf _ (live_built s _ m R D)) Pa) as Le. pose proof (shows_len s p q x m R Hq D S) as Lx.
  assert (S1 : shows s1 p x) by (destruct S as (q0 & v & H0 & Hm & Hb); exists q0, v; rewrite X6; auto).
  assert (Vq : value s1 q = Some x).
  { apply shows_value in S1 as (q0 & H0 & V0). rewrite (X7 _ _ Hq) in H0. congruence. }
  assert (Vr : exists w, value s1 q' = Some w).
  { unfold value in *. rewrite X1. destruct (get (mems s1) (p_mem q)) as [v|]; [|discriminate]. destruct (Nat.leb_spec (p_off q + p_len q) (length v)); [|discriminate].
    pose proof (point_len s p q m R Hq D). destruct (Nat.leb_spec (p_off q' + p_len q') (length v)); [eauto|lia]. }
  destruct Vr as (w & Vw). pose proof (value_length _ _ _ Vw) as Lw. cbn [step]. unfold write_coef. rewrite G, Vw, X3. split.
  - destruct (Nat.ltb_spec k (representationDim m')); split; auto; [eauto|lia|]. intros (s2 & E). discriminate.
  - intros s2 E. destruct (Nat.ltb_spec k (representationDim m')) as [Lk|]; [|discriminate]. injection E as <-. set (w' := set_segment w k [c]).
    assert (Lw' : length w' = p_len q') by (unfold w'; rewrite set_segment_length; [auto|cbn; lia]).
    destruct (write_value s1 q' w' w Vw Lw' q x Vq) as (y & Vy & Ly & Ny). destruct (write_rest s1 q' w') as [Pw Mw]. split.
    + exists y. split; [apply shows_value; exists q; rewrite Pw; auto|]. split; auto. intros j d. destruct (Nat.lt_ge_cases j (length x)) as [Lj|Lj].
      * rewrite Ny by auto. rewrite X1, Nat.eqb_refl, X2, X3. cbn [andb]. unfold w'.
        destruct (Nat.leb_spec (p_off q + off) (p_off q + j)) as [A1|A1]; [|destruct (Nat.eqb_spec j (off + k)); [lia|reflexivity]].
        destruct (Nat.ltb_spec (p_off q + j) (p_off q + off + representationDim m')) as [A2|A2]; cbn [andb]; [|destruct (Nat.eqb_spec j (off + k)); [lia|reflexivity]].
        rewrite Structure.nth_set_segment by (cbn; lia). cbn [length].
        destruct (Nat.eqb_spec j (off + k)) as [->|Nj].
        -- replace (p_off q + (off + k) - (p_off q + off)) with k by lia. rewrite Nat.leb_refl. destruct (Nat.ltb_spec k (k + 1)); [|lia]. cbn [andb]. rewrite Nat.sub_diag. reflexivity.
        -- destruct (Nat.leb_spec k (p_off q + j - (p_off q + off))) as [B1|B1]; [destruct (Nat.ltb_spec (p_off q + j - (p_off q + off)) (k + 1)) as [B2|B2]; [lia|]|]; cbn [andb].
           all: unfold value in Vw, Vq; rewrite X1 in Vw; destruct (get (mems s1) (p_mem q)) as [vm|]; [|discriminate];
             destruct (p_off q + p_len q <=? length vm); [|discriminate]; destruct (p_off q' + p_len q' <=? length vm); [|discriminate];
             injection Vw as <-; injection Vq as <-; pose proof (point_len s p q m R Hq D); rewrite firstn_length, skipn_length in Lj; rewrite !nth_sub by lia; f_equal; lia.
      * rewrite !nth_overflow by lia. destruct (Nat.eqb_spec j (off + k)); [lia|reflexivity].
    + intros p0 z (q0 & v & H0 & Hm & Hb) N. exists q0, v. rewrite Pw. split; auto. split; [|exact Hb]. rewrite Mw, X6; auto. rewrite X1. intros E. apply N. exists q, q0. auto.
Qed.

(** Copying a point: a new point with storage of its own, on the same manifold, with the same value. *)
Theorem C37_copy : forall s p a x, leads init s -> on_manifold s p a -> live s a -> shows s p x -> x <> [] ->
  exists s', step s (CopyPoint p) = Done s' /\
    let r := length (pts s) in shows s' r x /\ on_manifold s' r a /\ owner_point s' r /\
    (forall p0, p0 <> r -> ~ same_mem s' p0 r) /\ (forall p0 z, shows s p0 z -> shows s' p0 z).
Proof.
  intros s p a x R (q & Hq & <-) L S Nx. apply leads_inv in R. pose proof R as (I & B & P). destruct (live_denotes [] s _ I L) as (m & D).
  pose proof (shows_len s p q x m R Hq D S) as Lx. assert (V : value s q = Some x) by (apply shows_value in S as (q0 & H0 & V0); congruence).
  destruct (make_point_does s (p_mfd q) x m) as (s' & E); [apply (denotes_tree [] s _ m I); auto|auto|destruct x; [congruence|cbn; lia]|].
  exists s'. cbn [step]. unfold copy_point. rewrite Hq, V. split; auto. cbn zeta. destruct (new_shows _ _ _ _ E) as (S1 & O1 & F1). split; auto. split; auto. split; auto.
  destruct (make_point_gives _ _ _ _ E) as (m1 & _ & _ & _ & P1 & M1). split.
  - intros p0 N (q1 & q2 & H1 & H2 & Em). rewrite P1, get_app_new in H2. injection H2 as <-. cbn in Em. rewrite P1, get_app in H1.
    destruct (Nat.eqb_spec p0 (length (pts s))); [congruence|]. pose proof (p_memlt _ P p0 q1 H1). lia.
  - intros p0 z Z. pose proof (make_point_vkeep s (p_mfd q) x (length (pts s)) (length (mems s)) (le_n _) (le_n _)) as V1. rewrite E in V1. eapply vkeep_shows; eauto.
Qed.

(** No other call changes any value: in every history, a value is only changed by the calls that write to
    the same storage, and only ends with the point or the owner of the storage.  Reading, copying,
    sub-indexing, +, retractation, every call on manifolds, returning or throwing, leave it alone. *)
Theorem C37_untouched : forall s o p x s', leads init s -> declared o -> shows s p x ->
  (forall r, writes o r -> ~ same_mem s p r) -> (forall r, ends o r -> r <> p /\ (owner_point s r -> ~ same_mem s p r)) ->
  (step s o = Done s' \/ exists e, step s o = Thrown e s') -> shows s' p x.
Proof.
  intros s o p x s' R D S W E H. apply leads_inv in R. pose proof (value_frame s o p x R D S W E) as V.
  destruct H as [H|(e & H)]; rewrite H in V; exact V.
Qed.

(** ** C38 *)

(** x + v, x.retractation(v) and x.increment(v), whenever they return, give the retraction of the manifold,
    and only increment changes x. *)
Theorem C38_values : forall s p a m x v s1 s2 s3, leads init s -> owner_point s p -> on_manifold s p a -> denotes s a m -> shows s p x ->
  step s (Increment p v) = Done s1 -> step s (Plus p v) = Done s2 -> step s (Retract p v) = Done s3 ->
  exists r, (forall out, length out = representationDim m -> retractation m out x v = Ok r) /\
    shows s1 p r /\
    shows s2 (S (length (pts s))) r /\ on_manifold s2 (S (length (pts s))) a /\ shows s2 p x /\
    shows s3 (length (pts s)) r /\ on_manifold s3 (length (pts s)) a /\ shows s3 p x.
Proof.
  intros s p a m x v s1 s2 s3 R (q & Hq & Ho) (q0 & Hq0 & <-) D S E1 E2 E3. assert (q0 = q) by congruence. subst q0. clear Hq0. apply leads_inv in R.
  pose proof (ops_len s p q m x R Hq D S) as Lx.
  pose proof (increment_is s p q m x R Hq Ho D S v) as X1. pose proof (plus_is s p q m x R Hq Ho D S v) as X2. pose proof (retract_is s p q m x R Hq Ho D S v) as X3.
  rewrite E1 in X1. rewrite E2 in X2. rewrite E3 in X3. destruct (retractation m x x v) as [r|[]] eqn:Er; try discriminate. injection X1 as ->.
  pose proof (retractation_length _ _ _ _ _ Er) as Lr. exists r. split.
  { intros out Lo. rewrite <- Er. apply retractation_indep; [apply built_wf, (live_built s _ m R D)|congruence]. }
  split; [eapply write_shows; eauto|].
  assert (S2 : shows s2 p x).
  { pose proof (value_frame s (Plus p v) p x R Logic.I S) as V. rewrite E2 in V. apply V; cbn; tauto. }
  assert (S3 : shows s3 p x).
  { pose proof (value_frame s (Retract p v) p x R Logic.I S) as V. rewrite E3 in V. apply V; cbn; tauto. }
  destruct (isInM m x default_prec) as [[]|[]]; try discriminate. destruct X2 as (s2' & Y & Z1 & Z2 & Z3 & _). injection Y as <-.
  symmetry in X3. rewrite (create_val s _ m r (proj1 R) D (ops_pos s p q m R Hq Ho D)) in X3. destruct (isInM m r default_prec) as [[]|[]]; try discriminate.
  destruct (new_shows _ _ _ _ X3) as (W1 & W2 & W3). destruct (lockm_rest s (p_mfd q)) as [P0 _]. rewrite P0 in *. repeat (split; auto).
Qed.
(** When they return: increment and the copy of + need the retraction, + also that x passes isInM,
    retractation also that the result passes isInM. *)
Theorem C38_returns : forall s p a m x v, leads init s -> owner_point s p -> on_manifold s p a -> denotes s a m -> shows s p x ->
  let ret := fun o => exists s', step s o = Done s' in
  (ret (Increment p v) <-> exists r, retractation m x x v = Ok r) /\
  (ret (Plus p v) <-> (exists r, retractation m x x v = Ok r) /\ isInM m x default_prec = Ok true) /\
  (ret (Retract p v) <-> exists r, retractation m x x v = Ok r /\ isInM m r default_prec = Ok true).
Proof.
  intros s p a m x v R (q & Hq & Ho) (q0 & Hq0 & <-) D S. assert (q0 = q) by congruence. subst q0. clear Hq0. apply leads_inv in R. cbv beta zeta.
  pose proof (ops_len s p q m x R Hq D S) as Lx. pose proof (ops_pos s p q m R Hq Ho D) as Px.
  rewrite (increment_is s p q m x R Hq Ho D S v), (retract_is s p q m x R Hq Ho D S v). pose proof (plus_is s p q m x R Hq Ho D S v) as X2.
  split; [|split].
  - destruct (retractation m x x v) as [r|[]]; split; intros (y & E); try discriminate; eauto.
  - split.
    + intros (s' & E). rewrite E in X2. destruct (isInM m x default_prec) as [[]|[]]; try discriminate. split; auto.
      destruct (retractation m x x v) as [r|[]]; eauto; try discriminate; destruct X2; discriminate.
    + intros ((r & Er) & Ei). rewrite Er, Ei in X2. destruct X2 as (s' & E & _). eauto.
  - destruct (retractation m x x v) as [r|[]] eqn:Er; try (split; [intros (y & E); discriminate|intros (r & E & _); discriminate]).
    pose proof (retractation_length _ _ _ _ _ Er) as Lr.
    rewrite (create_val s _ m r (proj1 R) D Px). split.
    + intros (s' & E). exists r. split; auto. destruct (isInM m r default_prec) as [[]|[]]; try discriminate. reflexivity.
    + intros (r' & E & Ei). injection E as <-. rewrite Ei. apply (make_lock_does s _ r m (proj1 R) D); [congruence|]. rewrite Lr, Lx. exact Px.
Qed.

(** createPoint(val): exact, on every manifold whose representation is not empty. *)
Theorem C38_create : forall s a m v, leads init s -> denotes s a m -> 0 < representationDim m ->
  (length v <> representationDim m -> step s (CreatePointVal a v) = Thrown EAssert s) /\
  (length v = representationDim m -> exists b, isInM m v default_prec = Ok b /\
     if b then exists s', step s (CreatePointVal a v) = Done s' /\
       shows s' (length (pts s)) v /\ on_manifold s' (length (pts s)) a /\ owner_point s' (length (pts s))
     else step s (CreatePointVal a v) = Thrown EThrow s).
Proof.
  intros s a m v R D Pm. apply leads_inv in R. rewrite (create_val s a m v (proj1 R) D Pm). split.
  - intros N. rewrite isInM_bad by auto. reflexivity.
  - intros L. destruct (isInM_total m (built_wf _ (live_built s a m R D)) v default_prec L) as (b & E). exists b. rewrite E. split; auto. destruct b; auto.
    destruct (make_lock_does s a v m (proj1 R) D) as (s' & E'); [auto|lia|]. exists s'. split; auto. destruct (new_shows _ _ _ _ E') as (A & B & C).
    destruct (lockm_rest s a) as [P0 _]. rewrite P0 in *. auto.
Qed.

(** x.pseudoLog(y) is the pseudo-logarithm of the manifold; y - x too when dim and tangentDim agree (no S2
    factor): [junk] is the content of the uninitialised result vector. *)
Theorem C38_log_partial : forall (m : mfd K) junk x y, built m -> tangentDim m <= length junk ->
  (forall out, length out = tangentDim m -> pt_pseudoLog m junk x y = pseudoLog m out x y) /\
  (dim m = tangentDim m -> forall out, length out = tangentDim m -> pt_minus m junk y x = pseudoLog m out x y).
Proof.
  intros m junk x y B L. apply built_wf in B. split.
  - intros out Lo. unfold pt_pseudoLog. apply pseudoLog_indep; auto. rewrite firstn_length. lia.
  - intros E out Lo. unfold pt_minus. apply pseudoLog_indep; auto. rewrite firstn_length. lia.
Qed.
(** Otherwise y - x fails an assertion, whatever the points: the result vector has dim() coefficients. *)
Theorem C38_minus_fails : forall (m : mfd K) junk x y, built m -> dim m <> tangentDim m -> dim m <= length junk -> pt_minus m junk y x = Fail EAssert.
Proof.
  intros m junk x y B N L. unfold pt_minus.
  assert (E : (length (firstn (dim m) junk) =? tangentDim m) = false) by (apply Nat.eqb_neq; rewrite firstn_length; lia).
  destruct m; cbn [pseudoLog]; rewrite E; reflexivity.
Qed.
(** dim and tangentDim differ by the number of S2 leaves. *)
Definition s2_leaf (m : mfd K) : bool := match m with Leaf _ LS2 _ _ => true | _ => false end.
Theorem C38_s2_count : forall m : mfd K, built m -> tangentDim m = dim m + length (filter s2_leaf (leaves m)).
Proof.
  intros m B. apply built_wf in B. induction m as [h l a b|h sT sR subs IH] using mfd_ind'.
  - inversion B as [? ? ? ? W|]; subst. unfold tangentDim, dim. cbn [hdr_of]. destruct l as [| |[|]]; cbn in W |- *; lia.
  - inversion B as [|? ? ? ? Hd Ht _ _ _ F]; subst. unfold tangentDim, dim. cbn [hdr_of]. rewrite Hd, Ht. cbn [leaves]. clear - IH F.
    induction subs as [|t subs IHs]; [reflexivity|]. inversion IH; inversion F; subst. cbn [map sum_list flat_map]. rewrite filter_app, app_length, IHs by auto. rewrite H1 by auto. lia.
Qed.

(** ** C46 *)

(** createPoint() and getZero() succeed on every live manifold with a non-empty representation, whatever the
    uninitialised memory holds; getZero shows the zero of the manifold. *)
Theorem C46_create_partial : forall s a m junk, leads init s -> denotes s a m -> 0 < representationDim m -> length junk = representationDim m ->
  (exists s', step s (CreatePoint a junk) = Done s' /\ owner_point s' (length (pts s)) /\ on_manifold s' (length (pts s)) a /\ shows s' (length (pts s)) junk) /\
  (exists s' z, step s (GetZero a junk) = Done s' /\ owner_point s' (length (pts s)) /\ on_manifold s' (length (pts s)) a /\ shows s' (length (pts s)) z /\
     forall out, length out = representationDim m -> setZero m out = Ok z).
Proof.
  intros s a m junk R D Pm L. apply leads_inv in R. pose proof (built_wf _ (live_built s a m R D)) as W. pose proof (proj1 (denotes_tree [] s a m (proj1 R)) D) as T.
  destruct (lockm_rest s a) as [P0 _]. split.
  - destruct (make_lock_does s a junk m (proj1 R) D L) as (s' & E); [lia|]. exists s'. cbn [step]. unfold create_point, with_tree. rewrite T, L, Nat.eqb_refl.
    destruct (new_shows _ _ _ _ E) as (A & B & C). rewrite P0 in *. auto.
  - destruct (setZero_total m W junk L) as (z & Ez). pose proof (setZero_length _ _ _ Ez) as Lz. destruct (make_lock_does s a z m (proj1 R) D) as (s' & E); [lia|lia|].
    exists s', z. cbn [step]. unfold get_zero, with_tree. rewrite T, L, Nat.eqb_refl. cbn zeta. rewrite Ez. cbn [lift].
    destruct (new_shows _ _ _ _ E) as (A & B & C). rewrite P0 in *. split; auto. split; auto. split; auto. split; auto.
    intros out Lo. rewrite <- Ez. apply setZero_indep; auto. lia.
Qed.
(** An empty representation is refused: no point can ever be made. *)
Theorem C46_empty : forall s a m, leads init s -> denotes s a m -> representationDim m = 0 ->
  (exists s', step s (CreatePoint a []) = Thrown EAssert s') /\ (exists s', step s (GetZero a []) = Thrown EAssert s').
Proof.
  intros s a m R D Z. apply leads_inv in R. pose proof (built_wf _ (live_built s a m R D)) as W. pose proof (proj1 (denotes_tree [] s a m (proj1 R)) D) as T.
  assert (Mp : make_point (lockm s a) a [] = Thrown EAssert (lockm s a)).
  { unfold make_point, with_tree. rewrite (light_tree [] s _ a (light_lockm s a) (proj1 R)), T. reflexivity. }
  split; eexists; cbn [step]; unfold create_point, get_zero, with_tree; rewrite T, Z; cbn [length Nat.eqb].
  - exact Mp.
  - cbn zeta. destruct (setZero_total m W []) as (z & Ez); [cbn; lia|]. rewrite Ez. pose proof (setZero_length _ _ _ Ez) as Lz. destruct z; [|discriminate]. exact Mp.
Qed.
End Any.

(** ** Over the reals *)

Lemma prec_pos : (default_prec (K:=XR)) = Fin (1 / 100000000).
Proof. reflexivity. Qed.

(** From a point exactly on its manifold the three operators return together, with the same value. *)
Theorem C38_agree : forall (s : state XR) p a m (x v : list R), leads init s -> owner_point s p -> on_manifold s p a -> denotes s a m ->
  shows s p (fin x) -> onM m x -> length v = tangentDim m ->
  (exists (r : list XR) s1 s2 s3, step s (Increment p (fin v)) = Done s1 /\ step s (Plus p (fin v)) = Done s2 /\ step s (Retract p (fin v)) = Done s3 /\
     shows s1 p r /\ shows s2 (S (length (pts s))) r /\ shows s3 (length (pts s)) r) \/
  (forall s', step s (Increment p (fin v)) <> Done s' /\ step s (Plus p (fin v)) <> Done s' /\ step s (Retract p (fin v)) <> Done s').
Proof.
  intros s p a m x v R O M D Sh Ox Lv. destruct (C38_returns s p a m (fin x) (fin v) R O M D Sh) as (A1 & A2 & A3). pose proof (leads_inv _ R) as RI. pose proof (live_built s a m RI D) as B.
  destruct (retractation m (fin x) (fin x) (fin v)) as [r|e] eqn:E.
  - left. assert (I1 : isInM m (fin x) default_prec = Ok true) by (rewrite prec_pos; apply on_isInM; auto; [apply built_wf; auto|lra]).
    assert (I2 : isInM m r default_prec = Ok true).
    { destruct (C41_drift m x [v] r B Ox) as (ys & _ & _ & P); [constructor; auto|cbn; rewrite E; reflexivity|]. rewrite prec_pos. apply P; cbn [length INR]; lra. }
    destruct (proj2 A1) as (s1 & E1); [eauto|]. destruct (proj2 A2) as (s2 & E2); [eauto|]. destruct (proj2 A3) as (s3 & E3); [eauto|].
    destruct (C38_values s p a m (fin x) (fin v) s1 s2 s3 R O M D Sh E1 E2 E3) as (r' & _ & X1 & X2 & _ & _ & X3 & _). exists r', s1, s2, s3. auto 7.
  - right. intros s'. split; [|split]; intros H.
    + destruct (proj1 A1) as (r & F); [eauto|discriminate].
    + destruct (proj1 A2) as ((r & F) & _); [eauto|discriminate].
    + destruct (proj1 A3) as (r & F & _); [eauto|discriminate].
Qed.

(** ** C39 *)

(** Same elementary factors, whatever the nesting. *)
Definition same_class (a b : mfd XR) : Prop :=
  match a, b with
  | Leaf h LReal _ _, Leaf h' LReal _ _ => h_dim h = h_dim h'
  | Leaf _ LS2 _ _, Leaf _ LS2 _ _ => True
  | Leaf _ (LSO3 mp) _ _, Leaf _ (LSO3 mp') _ _ => mp = mp'
  | _, _ => False
  end.
(** An accepted assignment copies the value; the point is still on its manifold when both manifolds have the
    same elementary factors.  Partial: the assertions of operator= only compare dimensions (see below). *)
Theorem C39_assign_partial : forall (s s' : state XR) p p' a a' m m' (x y : list R), leads init s ->
  owner_point s p -> on_manifold s p a -> denotes s a m -> shows s p (fin x) ->
  owner_point s p' -> on_manifold s p' a' -> denotes s a' m' -> shows s p' (fin y) ->
  step s (AssignPoint p p') = Done s' ->
  shows s' p (fin y) /\ (onM m' y -> Forall2 same_class (leaves m') (leaves m) -> onM m y).
Proof.
  intros s s' p p' a a' m m' x y R (q & Hq & Ho) (q0 & Hq0 & <-) D S (q' & Hq' & Ho') (q0' & Hq0' & <-) D' S' E.
  assert (q0 = q) by congruence. assert (q0' = q') by congruence. subst q0 q0'. apply leads_inv in R.
  rewrite (assign_is s p p' q q' m m' (fin x) (fin y) R Hq Hq' Ho Ho' D D' S S') in E.
  destruct (dim m =? dim m'); [|discriminate]. destruct (Nat.eqb_spec (representationDim m) (representationDim m')) as [Er|]; [|discriminate]. injection E as <-.
  pose proof (ops_len s p q m (fin x) R Hq D S) as L. pose proof (ops_len s p' q' m' (fin y) R Hq' D' S') as L'. split.
  - apply (write_shows s p q (fin x) Hq S). lia.
  - intros (ys & -> & F) C. exists ys. split; auto. clear - F C. revert C. generalize (leaves m). induction F as [|t z l zs H F IH]; intros ls C; inversion C; subst; constructor; auto.
    destruct t as [h [| |mp] ? ?|], y as [h' [| |mp'] ? ?|]; cbn in *; try tauto; try congruence. subst. auto.
Qed.
(** The assertions accept exactly equal dim() and representationDim(). *)
Theorem C39_accepted : forall (K : Type) (SK : Scalar K) (s : state K) p p' a a' m m' x y, leads init s ->
  owner_point s p -> on_manifold s p a -> denotes s a m -> shows s p x ->
  owner_point s p' -> on_manifold s p' a' -> denotes s a' m' -> shows s p' y ->
  ((exists s', step s (AssignPoint p p') = Done s') <-> dim m = dim m' /\ representationDim m = representationDim m').
Proof.
  intros K SK s p p' a a' m m' x y R (q & Hq & Ho) (q0 & Hq0 & <-) D S (q' & Hq' & Ho') (q0' & Hq0' & <-) D' S'.
  assert (q0 = q) by congruence. assert (q0' = q') by congruence. subst q0 q0'. apply leads_inv in R.
  rewrite (assign_is s p p' q q' m m' x y R Hq Hq' Ho Ho' D D' S S').
  destruct (Nat.eqb_spec (dim m) (dim m')), (Nat.eqb_spec (representationDim m) (representationDim m')); cbn [andb]; split; intros H; try tauto; eauto; destruct H; discriminate.
Qed.

(** A product S2 x R and a quaternion SO3 both have dim 3 and representationDim 4. *)
Definition mixed_hist : list (op XR) :=
  [NewLeaf (CS2 (fin [PI; PI; PI])); NewLeaf (CRealMag 1 (Fin 1)); NewProduct; Multiply 2 0; Multiply 2 1; NewLeaf (CSO3 MapQuat (fin [PI; PI; PI]))].
Definition stX (r : outcome XR) : state XR := match r with Done s | Thrown _ s => s | _ => init end.
Definition mixed0 : state XR := Eval cbv -[IZR PI] in stX (run init mixed_hist).
Definition treeX (a : nat) (s : state XR) : mfd XR := match tree s a with Some m => m | None => prod_empty end.
Definition mxP : mfd XR := Eval cbv -[IZR PI] in treeX 2 mixed0.
Definition mxQ : mfd XR := Eval cbv -[IZR PI] in treeX 5 mixed0.
Definition mxx : list R := [1; 0; 0; 5]%R.
Definition mxy : list R := [1; 0; 0; 0]%R.
Definition mixed1 : state XR := Eval cbv -[IZR PI] in stX (make_point (lockm mixed0 2) 2 (fin mxx)).
Definition mixed2 : state XR := Eval cbv -[IZR PI] in stX (make_point (lockm mixed1 5) 5 (fin mxy)).
Lemma den_run (s : state XR) a m : leads init s -> tree s a = Some m -> denotes s a m.
Proof. intros R T. apply leads_inv in R. apply (denotes_tree [] s a m); auto. apply R. Qed.
Lemma leads_step (s s' : state XR) o : leads init s -> declared o -> step s o = Done s' -> leads init s'.
Proof.
  intros (h & F & E) D S. exists (h ++ [o]). split; [apply Forall_app; auto|]. revert E. generalize (init (K:=XR)). clear F. induction h as [|o' h IH]; cbn [run app]; intros i E.
  - injection E as ->. rewrite S. reflexivity.
  - destruct (step i o'); try discriminate; auto.
Qed.
Lemma mxP_on : onM mxP mxx.
Proof. exists [[1; 0; 0]; [5]]%R. split; [reflexivity|]. repeat constructor; cbn; ring. Qed.
Lemma mxQ_on : onM mxQ mxy.
Proof. exists [[1; 0; 0; 0]]%R. split; [reflexivity|]. repeat constructor. exists (Q4 1 0 0 0)%R. split; [reflexivity|]. unfold qn2; cbn; ring. Qed.
Lemma mixed0_leads : leads init mixed0.
Proof. exists mixed_hist. split; [repeat constructor|reflexivity]. Qed.
Lemma mixed1_leads : leads init mixed1.
Proof.
  apply (leads_step mixed0 _ (CreatePointVal 2 (fin mxx)) mixed0_leads I). assert (D : denotes mixed0 2 mxP) by (apply (den_run _ _ _ mixed0_leads); reflexivity).
  rewrite (create_val mixed0 2 mxP (fin mxx)); [|apply leads_inv, mixed0_leads|exact D|cbn; lia].
  rewrite prec_pos, on_isInM; [reflexivity|apply built_wf, (live_built mixed0 2); auto; apply leads_inv, mixed0_leads|exact mxP_on|lra].
Qed.
Lemma mixed2_leads : leads init mixed2.
Proof.
  apply (leads_step mixed1 _ (CreatePointVal 5 (fin mxy)) mixed1_leads I). assert (D : denotes mixed1 5 mxQ) by (apply (den_run _ _ _ mixed1_leads); reflexivity).
  rewrite (create_val mixed1 5 mxQ (fin mxy)); [|apply leads_inv, mixed1_leads|exact D|cbn; lia].
  rewrite prec_pos, on_isInM; [reflexivity|apply built_wf, (live_built mixed1 5); auto; apply leads_inv, mixed1_leads|exact mxQ_on|lra].
Qed.
Ltac show_it := do 2 eexists; split; [reflexivity|]; split; [reflexivity|]; split; [cbn; lia|]; split; [reflexivity|]; let d := fresh in let k := fresh in let H := fresh in intros d k H; cbn in H; do 9 (destruct k as [|k]; [first [exfalso; lia|reflexivity]|]); lia.
(** Both points are on their manifolds, the assignment is accepted, and the target leaves its manifold. *)
Theorem C39_assign_refuted : exists (s s' : state XR) p p' a a' m m' (x y : list R), leads init s /\
  owner_point s p /\ on_manifold s p a /\ denotes s a m /\ shows s p (fin x) /\ onM m x /\
  owner_point s p' /\ on_manifold s p' a' /\ denotes s a' m' /\ shows s p' (fin y) /\ onM m' y /\
  step s (AssignPoint p p') = Done s' /\ shows s' p (fin y) /\ ~ onM m y.
Proof.
  exists mixed2, (stX (step mixed2 (AssignPoint 1 0))), 1, 0, 5, 2, mxQ, mxP, mxy, mxx.
  split; [exact mixed2_leads|]. split; [eexists; split; reflexivity|]. split; [eexists; split; reflexivity|].
  split; [apply (den_run _ _ _ mixed2_leads); reflexivity|]. split; [show_it|]. split; [exact mxQ_on|].
  split; [eexists; split; reflexivity|]. split; [eexists; split; reflexivity|].
  split; [apply (den_run _ _ _ mixed2_leads); reflexivity|]. split; [show_it|]. split; [exact mxP_on|].
  split; [reflexivity|]. split; [show_it|].
  intros (xs & E & F). change (leaves mxQ) with [mxQ] in F. inversion F as [|? ? ? ? H F']; subst. inversion F'; subst. destruct H as (q & -> & N). destruct q as [w i j k]. unfold mxx, qflat in E. cbn in E. injection E as <- <- <- <-.
  unfold qn2 in N. cbn in N. lra.
Qed.
(** The positive theorem is not empty: two points of the quaternion manifold. *)
Example ex_C39 : exists s' : state XR, step mixed2 (AssignPoint 1 1) = Done s' /\ Forall2 same_class (leaves mxQ) (leaves mxQ) /\ onM mxQ mxy.
Proof. eexists. split; [reflexivity|]. split; [repeat constructor|exact mxQ_on]. Qed.
Example ex_C38_agree : owner_point mixed2 1 /\ on_manifold mixed2 1 5 /\ denotes mixed2 5 mxQ /\ shows mixed2 1 (fin mxy) /\ onM mxQ mxy.
Proof.
  split; [eexists; split; reflexivity|]. split; [eexists; split; reflexivity|]. split; [apply (den_run _ _ _ mixed2_leads); reflexivity|]. split; [show_it|exact mxQ_on].
Qed.

From Verif Require Import ExScalar.
Import Model_Object.
Definition st (r : outcome Z) : state Z := match r with Done s | Thrown _ s => s | _ => init end.
Lemma leads_by (s : state Z) h : Forall declared h -> run init h = Done s -> leads init s.
Proof. intros F R. exists h. auto. Qed.
Lemma denotes_by (s : state Z) h a m : run init h = Done s -> tree s a = Some m -> denotes s a m.
Proof. intros R T. apply (denotes_tree [] s a m); auto. apply leads_any_inv. exists h. auto. Qed.

(** y - x fails an assertion on S2, for all points: the result vector has 2 coefficients, pseudoLog wants 3. *)
Theorem C38_minus_refuted : exists m : mfd XR, built m /\ forall junk x y, 2 <= length junk -> pt_minus m junk y x = Fail EAssert.
Proof.
  exists (ExScalar.get prod_empty mk_s2). assert (B : built (ExScalar.get prod_empty (mk_s2 (K:=XR)))) by (apply (built_s2 [Fin PI; Fin PI; Fin PI]); reflexivity).
  split; auto. intros junk x y L. apply C38_minus_fails; auto. cbn. lia.
Qed.
Example ex_C38_log : exists m : mfd Z, built m /\ dim m = tangentDim m /\ pt_minus m [7; 7]%Z [5; 6]%Z [1; 9]%Z = Ok [4; -3]%Z /\ pt_pseudoLog m [7; 7]%Z [1; 9]%Z [5; 6]%Z = Ok [4; -3]%Z.
Proof. exists (ExScalar.get prod_empty (mk_real 2)). split; [apply (built_real_mag 2 1%Z); reflexivity|]. repeat split; reflexivity. Qed.

(** 0: R^2, 1: R^3, 2: R^2 x R^3, 5: (R^2 x R^3) x R^2; a point of 5. *)
Definition h2 : list (op Z) :=
  [NewLeaf (CRealMag 2 1%Z); NewLeaf (CRealMag 3 1%Z); NewProduct; Multiply 2 0; Multiply 2 1; NewProduct; Multiply 5 2; Multiply 5 0;
   CreatePointVal 5 [1; 2; 3; 4; 5; 6; 7]%Z; CreatePointVal 1 [8; 9; 10]%Z].
Definition s2 : state Z := Eval vm_compute in st (run init h2).
Definition m5 : mfd Z := Eval vm_compute in match tree s2 5 with Some m => m | None => prod_empty end.
Definition m1 : mfd Z := Eval vm_compute in match tree s2 1 with Some m => m | None => prod_empty end.
Lemma s2_leads : leads init s2. Proof. apply (leads_by s2 h2); [repeat constructor|vm_compute; reflexivity]. Qed.
Lemma s2_m5 : denotes s2 5 m5. Proof. apply (denotes_by _ h2); vm_compute; reflexivity. Qed.
Lemma s2_p0 : shows s2 0 [1; 2; 3; 4; 5; 6; 7]%Z. Proof. show_it. Qed.
Lemma s2_p1 : shows s2 1 [8; 9; 10]%Z. Proof. show_it. Qed.
(** p(0)(1)[1] = 42 writes coefficient 2 + 1 of p; the other point is left alone. *)
Example ex_C37_write : exists s' s'' r, at_path m5 [0; 1] 2 m1 /\ reaches s2 0 [0; 1] s' r /\ step s' (Write r 1 42%Z) = Done s'' /\
  shows s'' 0 [1; 2; 3; 42; 5; 6; 7]%Z /\ shows s'' 1 [8; 9; 10]%Z /\ shows s' r [3; 4; 5]%Z.
Proof.
  set (a := st (step s2 (SubPointAt 0 0))). set (b := st (step a (SubPointAt 2 1))).
  exists b, (st (step b (Write 3 1 42%Z))), 3. split; [|split; [|split; [vm_compute; reflexivity|split; [show_it|split; show_it]]]].
  - unfold m5. match goal with |- at_path (Prod ?h ?sT ?sR [?f; ?g]) _ _ _ => apply (path_prod h sT sR [] f [g] [1] 2) end.
    match goal with |- at_path (Prod ?h ?sT ?sR [?f; ?g]) _ _ _ => apply (path_prod h sT sR [f] g [] [] 0) end. apply path_nil.
  - apply (reach_cons s2 0 0 [1] a b 3); [vm_compute; reflexivity|]. apply (reach_cons a 2 1 [] b b 3); [vm_compute; reflexivity|apply reach_nil].
Qed.
Example ex_C37_copy : exists s', step s2 (CopyPoint 0) = Done s' /\ shows s' 2 [1; 2; 3; 4; 5; 6; 7]%Z /\ ~ same_mem s' 0 2.
Proof.
  exists (st (step s2 (CopyPoint 0))). split; [vm_compute; reflexivity|]. split; [show_it|]. intros (q & q' & A & B & E). vm_compute in A, B. injection A as <-. injection B as <-. discriminate.
Qed.
Example ex_C37_untouched : shows (st (step s2 (Write 1 0 3%Z))) 0 [1; 2; 3; 4; 5; 6; 7]%Z.
Proof. show_it. Qed.
(** The three operators on (R^2 x R^3) x R^2. *)
Example ex_C38 : exists a b c, step s2 (Increment 0 [1; 1; 1; 1; 1; 1; 1]%Z) = Done a /\ step s2 (Plus 0 [1; 1; 1; 1; 1; 1; 1]%Z) = Done b /\
  step s2 (Retract 0 [1; 1; 1; 1; 1; 1; 1]%Z) = Done c /\ shows a 0 [2; 3; 4; 5; 6; 7; 8]%Z /\ shows b 3 [2; 3; 4; 5; 6; 7; 8]%Z /\ shows c 2 [2; 3; 4; 5; 6; 7; 8]%Z.
Proof.
  exists (st (step s2 (Increment 0 [1; 1; 1; 1; 1; 1; 1]%Z))), (st (step s2 (Plus 0 [1; 1; 1; 1; 1; 1; 1]%Z))), (st (step s2 (Retract 0 [1; 1; 1; 1; 1; 1; 1]%Z))).
  repeat (split; [vm_compute; reflexivity|]). split; [show_it|]. split; show_it.
Qed.
Example ex_C38_create : (exists s', step s2 (CreatePointVal 1 [4; 5; 6]%Z) = Done s') /\ step s2 (CreatePointVal 1 [4; 5]%Z) = Thrown EAssert s2.
Proof. split; [eexists|]; vm_compute; reflexivity. Qed.
Example ex_C46 : exists s', step s2 (GetZero 5 [9; 9; 9; 9; 9; 9; 9]%Z) = Done s' /\ shows s' 2 [0; 0; 0; 0; 0; 0; 0]%Z.
Proof. exists (st (step s2 (GetZero 5 [9; 9; 9; 9; 9; 9; 9]%Z))). split; [vm_compute; reflexivity|show_it]. Qed.
(** C46: an empty product, and RealSpace(0), are manifolds without points. *)
Theorem C46_empty_refuted : exists s : state Z, leads init s /\ (exists m, denotes s 0 m /\ representationDim m = 0) /\ (exists m, denotes s 1 m /\ representationDim m = 0) /\
  reported (step s (CreatePoint 0 [])) /\ reported (step s (GetZero 0 [])) /\ reported (step s (CreatePoint 1 [])) /\ reported (step s (CreatePointVal 1 [])).
Proof.
  set (h := [NewProduct; NewLeaf (CRealMag 0 1%Z)] : list (op Z)). set (s := st (run init h)). assert (L : run init h = Done s) by (vm_compute; reflexivity).
  exists s. split; [apply (leads_by _ h); [repeat constructor|exact L]|]. split; [eexists; split; [apply (denotes_by _ h); [exact L|vm_compute; reflexivity]|reflexivity]|].
  split; [eexists; split; [apply (denotes_by _ h); [exact L|vm_compute; reflexivity]|reflexivity]|].
  repeat split; left; do 2 eexists; vm_compute; reflexivity.
Qed.

Print Assumptions C37_path.
Print Assumptions C37_outside.
Print Assumptions C37_write_through.
Print Assumptions C37_copy.
Print Assumptions C37_untouched.
Print Assumptions C38_values.
Print Assumptions C38_returns.
Print Assumptions C38_create.
Print Assumptions C38_log_partial.
Print Assumptions C38_minus_fails.
Print Assumptions C38_minus_refuted.
Print Assumptions C38_s2_count.
Print Assumptions C38_agree.
Print Assumptions C39_assign_partial.
Print Assumptions C39_accepted.
Print Assumptions C39_assign_refuted.
Print Assumptions C46_create_partial.
Print Assumptions C46_empty.
Print Assumptions C46_empty_refuted.
