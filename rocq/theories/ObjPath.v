(** Sub-points by paths, and what the calls on points return. *)
From Coq Require Import List Arith Bool ZArith Lia.
From Verif Require Import Base Scalar Vec Model_Real Model_S2 Model_SO3 Model_Manifold Model_Object Spec SpecObj Layout Comp Indep Heap ObjTree ObjStep ObjPoint ObjFacts ObjVal.
Import ListNotations.

Section ObjPath.
Context {K : Type} {SK : Scalar K}.
Implicit Types (s : state K).

Lemma live_built s a m : all_inv s -> denotes s a m -> built m.
Proof.
  intros (I & B & P) D. destruct (denotes_live _ _ _ D) as (o & H). destruct (B a o H) as (m' & T & Bm). apply (denotes_tree [] s a m I) in D. congruence.
Qed.
Lemma point_len s p q m : all_inv s -> get (pts s) p = Some q -> denotes s (p_mfd q) m -> p_len q = representationDim m.
Proof.
  intros (I & B & P) H D. destruct (denotes_live _ _ _ D) as (o & Ho). destruct (p_lock _ P p q o H Ho) as [_ L]. apply (denotes_tree [] s _ m I) in D.
  unfold representationDim. rewrite (tree_hdr [] s _ o m I Ho D). exact L.
Qed.
Lemma shows_len s p q x m : all_inv s -> get (pts s) p = Some q -> denotes s (p_mfd q) m -> shows s p x -> length x = representationDim m.
Proof.
  intros A H D S. rewrite <- (point_len s p q m A H D). apply shows_value in S as (q' & H' & V). assert (q' = q) by congruence. subst. eapply value_length; eauto.
Qed.
Lemma light_denotes s s' a m : light s s' -> sinv [] s -> denotes s a m -> denotes s' a m.
Proof. intros L I D. apply (denotes_tree [] s a m I) in D. apply (denotes_tree [] s' a m); [eapply light_inv; eauto|]. rewrite (light_tree [] s s' a L I). auto. Qed.

Inductive one : mfd K -> nat -> nat -> mfd K -> Prop :=
| one_leaf h l typ tru : one (Leaf h l typ tru) 0 0 (Leaf h l typ tru)
| one_prod h sT sR pre f post : one (Prod h sT sR (pre ++ f :: post)) (length pre) (sum_list (map representationDim pre)) f.
Lemma one_range m i off f : wf m -> one m i off f -> view_range DR m (representationDim m) i = Ok (off, representationDim f) /\ off + representationDim f <= representationDim m.
Proof.
  intros W H. destruct H.
  - split; [|lia]. unfold view_range, getStart, getDimSub. cbn. rewrite Nat.eqb_refl. reflexivity.
  - pose proof (wf_prod_getDim DR _ _ _ _ W) as E. change (getDim DR) with (representationDim (K:=K)) in E. split.
    + apply (view_range_wf DR); auto.
    + rewrite E, map_app, sum_list_app. cbn. lia.
Qed.
Lemma sub_step s p q m i off f : all_inv s -> get (pts s) p = Some q -> denotes s (p_mfd q) m -> one m i off f ->
  exists s1 q1, step s (SubPointAt p i) = Done s1 /\ pts s1 = pts s ++ [Some q1] /\ mems s1 = mems s /\
    p_mem q1 = p_mem q /\ p_off q1 = p_off q + off /\ p_len q1 = representationDim f /\ denotes s1 (p_mfd q1) f /\ all_inv s1 /\ p_owner q1 = false.
Proof.
  intros A H D O. pose proof A as (I & B & P). pose proof (live_built s _ m A D) as Bm. destruct (one_range m i off f (built_wf _ Bm) O) as [V Le].
  destruct (denotes_live _ _ _ D) as (o & Ho). pose proof (point_len s p q m A H D) as L. pose proof D as T. apply (denotes_tree [] s _ m I) in T.
  assert (Df : denotes s (sub_addr (p_mfd q) o i) f).
  { unfold sub_addr. clear V Le. destruct O.
    - inversion D; subst. assert (o0 = o) by congruence. subst o0.
      match goal with H : o_kind o = _ |- _ => rewrite H end. exact D.
    - inversion D; subst. assert (o0 = o) by congruence. subst o0.
      match goal with H : o_kind o = _ |- _ => rewrite H end. match goal with H : Forall2 _ cs _ |- _ => clear - H; rename H into F end.
      revert cs F. induction pre as [|x pre IH]; intros cs F; cbn [app] in F; inversion F; subst; cbn; auto. }
  cbn [step]. unfold sub_point, with_tree. rewrite H, T, Ho, L, V. cbn [lift fst snd]. destruct (Nat.leb_spec (off + representationDim f) (representationDim m)); [|lia].
  set (q1 := Pt _ _ _ _ _). destruct (denotes_live _ _ _ Df) as (of & Hof).
  assert (E : exists s1, add_view s q1 = Done s1) by (unfold add_view, q1; cbn [p_mfd]; rewrite Hof; eauto). destruct E as (s1 & E). exists s1, q1. split; auto.
  destruct (add_view_gives _ _ _ E) as (P1 & M1). split; auto. split; auto. split; auto. split; auto. split; auto.
  assert (Lt : light s s1) by (pose proof (add_view_light s q1) as X; rewrite E in X; exact X).
  split; [apply (light_denotes s); auto|]. split; auto.
  assert (X : step s (SubPointAt p i) = Done s1).
  { cbn [step]. unfold sub_point, with_tree. rewrite H, T, Ho, L, V. cbn [lift fst snd]. destruct (Nat.leb_spec (off + representationDim f) (representationDim m)); [exact E|lia]. }
  pose proof (step_all s (SubPointAt p i) A Logic.I) as Y. rewrite X in Y. exact Y.
Qed.

Lemma at_path_wf_le (m : mfd K) path off m' : wf m -> at_path m path off m' -> off + representationDim m' <= representationDim m.
Proof.
  intros W H. revert W. induction H; intros W; try lia; auto.
  pose proof (wf_prod_getDim DR _ _ _ _ W) as E. change (getDim DR) with (representationDim (K:=K)) in E. rewrite E, map_app, sum_list_app. cbn.
  inversion W as [|? ? ? ? _ _ _ _ _ F]; subst. apply Forall_app in F as [_ F]. inversion F; subst. specialize (IHat_path H2). lia.
Qed.

Lemma reach_path (m : mfd K) path off m' : at_path m path off m' -> forall s p q, all_inv s -> get (pts s) p = Some q -> denotes s (p_mfd q) m ->
  exists s' r q', reaches s p path s' r /\ get (pts s') r = Some q' /\ p_mem q' = p_mem q /\ p_off q' = p_off q + off /\ p_len q' = representationDim m' /\
    denotes s' (p_mfd q') m' /\ all_inv s' /\ mems s' = mems s /\ (forall p0 q0, get (pts s) p0 = Some q0 -> get (pts s') p0 = Some q0).
Proof.
  induction 1 as [m|h l typ tru p0 off m' H IH|h sT sR pre f post p0 off m' H IH]; intros s p q A Hq D.
  - exists s, p, q. split; [constructor|]. rewrite Nat.add_0_r. repeat (split; auto). eapply point_len; eauto.
  - destruct (sub_step s p q _ 0 0 _ A Hq D (one_leaf h l typ tru)) as (s1 & q1 & E & P1 & M1 & Q1 & Q2 & Q3 & D1 & A1 & _).
    destruct (IH s1 (length (pts s)) q1 A1) as (s' & r & q' & R & G & X1 & X2 & X3 & X4 & X5 & X6 & X7); auto. { rewrite P1. apply get_app_new. }
    exists s', r, q'. split; [econstructor; eauto|]. split; auto. split; [congruence|]. split; [lia|]. split; auto. split; auto. split; auto. split; [congruence|].
    intros p1 q2 H1. apply X7. rewrite P1, get_app_old; auto. eapply get_lt; eauto.
  - destruct (sub_step s p q _ _ _ _ A Hq D (one_prod h sT sR pre f post)) as (s1 & q1 & E & P1 & M1 & Q1 & Q2 & Q3 & D1 & A1 & _).
    destruct (IH s1 (length (pts s)) q1 A1) as (s' & r & q' & R & G & X1 & X2 & X3 & X4 & X5 & X6 & X7); auto. { rewrite P1. apply get_app_new. }
    exists s', r, q'. split; [econstructor; eauto|]. split; auto. split; [congruence|]. split; [lia|]. split; auto. split; auto. split; auto. split; [congruence|].
    intros p1 q2 H1. apply X7. rewrite P1, get_app_old; auto. eapply get_lt; eauto.
Qed.
Lemma reaches_fun (s : state K) p path s1 r1 s2 r2 : reaches s p path s1 r1 -> reaches s p path s2 r2 -> s1 = s2 /\ r1 = r2.
Proof. intros H. revert s2 r2. induction H; intros s3 r3 H'; inversion H'; subst; auto. assert (s1 = s4) by congruence. subst. auto. Qed.

(** Paths outside the structure are refused by the assertion of getView, and nothing changes. *)
Lemma sub_refused s p q m i : all_inv s -> get (pts s) p = Some q -> denotes s (p_mfd q) m -> numberOfSubManifolds m <= i ->
  step s (SubPointAt p i) = Thrown EAssert s.
Proof.
  intros A H D L. pose proof A as (I & B & P). destruct (denotes_live _ _ _ D) as (o & Ho). apply (denotes_tree [] s _ m I) in D.
  cbn [step]. unfold sub_point, with_tree. rewrite H, D, Ho. unfold view_range. destruct (Nat.ltb_spec i (numberOfSubManifolds m)); [lia|]. reflexivity.
Qed.

(** setZero always succeeds. *)
Lemma setZero_total (m : mfd K) : wf m -> forall out : vec K, length out = representationDim m -> exists z, setZero m out = Ok z.
Proof.
  induction m as [h l a b|h sT sR subs IH] using mfd_ind'; intros W out L.
  - inversion W as [? ? ? ? Wl|]; subst. cbn [setZero]. rewrite check_eq by auto. cbn [bind]. unfold representationDim in L. cbn [hdr_of] in L.
    destruct l as [| |[|]]; cbn [leaf_wf] in Wl; unfold real_setZero, s2_setZero, em_setZero, eq_setZero, quat_write, raw_write, eigen_assert; eauto.
    all: try (replace (length out) with 9 by lia); try (replace (length out) with 3 by lia); try (replace (length out) with 4 by lia); cbn; eauto.
    destruct out as [|x0 [|x1 [|x2 [|x3 [|]]]]]; cbn in L; try lia. cbn. eauto.
  - inversion W as [|? ? ? ? _ _ Hr _ _ Hs]; subst. destruct (cut_pieces DR subs out) as (xs & -> & Hx); [exact (eq_trans L Hr)|].
    assert (E : exists ys, Forall3 (fun (t : mfd K) o r => setZero t o = Ok r) subs xs ys).
    { clear - IH Hs Hx. induction Hx as [|s x l xs H Hx IHx]; [exists []; constructor|]. inversion IH; inversion Hs; subst. destruct (H2 H6 x H) as (z & E).
      destruct IHx as (ys & Y); auto. exists (z :: ys). constructor; auto. }
    destruct E as (ys & Y). exists (concat ys). apply setZero_prod; auto. eauto.
Qed.

Lemma isInM_len (m : mfd K) v p b : isInM m v p = Ok b -> length v = representationDim m.
Proof. destruct (Nat.eqb_spec (length v) (representationDim m)) as [|N]; auto. apply Nat.eqb_neq in N. destruct m; cbn [isInM]; rewrite N; discriminate. Qed.
Lemma isInM_bad (m : mfd K) v p : length v <> representationDim m -> isInM m v p = Fail EAssert.
Proof. intros N. apply Nat.eqb_neq in N. destruct m; cbn [isInM]; rewrite N; reflexivity. Qed.
Lemma isInM_total (m : mfd K) : wf m -> forall v prec, length v = representationDim m -> exists b, isInM m v prec = Ok b.
Proof.
  induction m as [h l a b|h sT sR subs IH] using mfd_ind'; intros W v prec L.
  - inversion W as [? ? ? ? Wl|]; subst. cbn [isInM]. rewrite check_eq by auto. cbn [bind]. unfold representationDim in L. cbn [hdr_of] in L.
    destruct l as [| |[|]]; cbn [leaf_wf] in Wl; eauto.
    + destruct v as [|x0 [|x1 [|x2 [|x3 [|x4 [|x5 [|x6 [|x7 [|x8 [|]]]]]]]]]]; cbn in L; try lia. cbn. eauto.
    + destruct v as [|x0 [|x1 [|x2 [|x3 [|]]]]]; cbn in L; try lia. cbn. eauto.
  - inversion W as [|? ? ? ? _ _ Hr _ _ Hs]; subst. destruct (cut_pieces DR subs v) as (xs & -> & Hx); [exact (eq_trans L Hr)|].
    cbn [isInM]. rewrite check_eq by auto. cbn [bind]. apply loop_and_total. intros k s Hk. rewrite !getView_nth; eauto using nth_error_lt. cbn [bind].
    rewrite Forall_forall in IH, Hs. pose proof (nth_error_In _ _ Hk) as Hin. apply IH; auto.
    eapply (proj2 (Forall2_nth _ _ _ [] (pieces_len _ _ _ Hx)) Hx); eauto.
Qed.
Lemma retr_len (m : mfd K) out x v r : retractation m out x v = Ok r -> length r = length out.
Proof. apply retractation_length. Qed.

(** What a new point shows. *)
Lemma new_shows s a v s' : make_point s a v = Done s' -> shows s' (length (pts s)) v /\ owner_point s' (length (pts s)) /\ on_manifold s' (length (pts s)) a.
Proof.
  intros E. destruct (make_point_gives _ _ _ _ E) as (m & _ & L & Pv & P1 & M1). set (q := Pt a (length (mems s)) 0 (length v) true) in *.
  assert (G : get (pts s') (length (pts s)) = Some q) by (rewrite P1; apply get_app_new).
  split; [|split; exists q; auto]. exists q, v. split; auto. split; [rewrite M1; apply get_app_new|]. cbn. auto.
Qed.
Lemma make_lock_does s a v m : sinv [] s -> denotes s a m -> length v = representationDim m -> 0 < length v -> exists s', make_point (lockm s a) a v = Done s'.
Proof.
  intros I D L Pv. apply (make_point_does _ _ _ m); auto. apply (denotes_tree [] s a m I) in D. rewrite (light_tree [] s _ a (light_lockm s a) I). auto.
Qed.
Lemma create_val s a m v : sinv [] s -> denotes s a m -> 0 < representationDim m ->
  step s (CreatePointVal a v) =
    match isInM m v default_prec with
    | Ok true => make_point (lockm s a) a v
    | Ok false => Thrown EThrow s
    | Fail EUB => Undefined
    | Fail e => Thrown e s
    end.
Proof.
  intros I D L. cbn [step]. unfold create_point_val, with_tree. apply (denotes_tree [] s a m I) in D. rewrite D. destruct (isInM m v default_prec) as [[]|[]]; reflexivity.
Qed.

(** ** increment, +, retractation *)
Section Ops.
Variables (s : state K) (p : nat) (q : pt) (m : mfd K) (x : vec K).
Hypothesis A : all_inv s.
Hypothesis Hq : get (pts s) p = Some q.
Hypothesis Ho : p_owner q = true.
Hypothesis D : denotes s (p_mfd q) m.
Hypothesis S : shows s p x.
Let I : sinv [] s := proj1 A.
Lemma ops_value : value s q = Some x.
Proof. apply shows_value in S as (q' & H & V). congruence. Qed.
Lemma ops_tree : tree s (p_mfd q) = Some m.
Proof. apply (denotes_tree [] s _ m I). auto. Qed.
Lemma ops_len : length x = representationDim m.
Proof. eapply shows_len; eauto. Qed.
Lemma ops_pos : 0 < representationDim m.
Proof. pose proof (p_pos _ (proj2 (proj2 A)) p q Hq Ho) as Z. rewrite (point_len s p q m A Hq D) in Z. exact Z. Qed.

Lemma increment_is v : step s (Increment p v) = match retractation m x x v with Ok r => Done (write s q r) | Fail EUB => Undefined | Fail e => Thrown e s end.
Proof. cbn [step]. unfold increment, with_tree. rewrite Hq, Ho, ops_value, ops_tree. destruct (retractation m x x v) as [|[]]; reflexivity. Qed.
Lemma write_shows r : length r = length x -> shows (write s q r) p r.
Proof.
  intros L. apply shows_value. exists q. destruct (write_rest s q r) as [P _]. rewrite P. split; auto. apply (write_self s q r x ops_value). rewrite L. apply (value_length s). exact ops_value.
Qed.
Lemma retract_is v : step s (Retract p v) =
  match retractation m x x v with
  | Ok r => step s (CreatePointVal (p_mfd q) r)
  | Fail EUB => Undefined
  | Fail e => Thrown e s
  end.
Proof.
  cbn [step]. unfold retract_point, with_tree. rewrite Hq, Ho, ops_value, ops_tree.
  rewrite (retractation_indep m (built_wf _ (live_built s _ m A D)) _ x x v) by (unfold vconst; rewrite repeat_length; symmetry; apply ops_len).
  destruct (retractation m x x v) as [|[]]; reflexivity.
Qed.
(** The temporary of operator+ is destroyed, the result is the next point. *)
Lemma plus_is v : 
  match isInM m x default_prec with
  | Ok true =>
      match retractation m x x v with
      | Ok r => exists s', step s (Plus p v) = Done s' /\ shows s' (Datatypes.S (length (pts s))) r /\ owner_point s' (Datatypes.S (length (pts s))) /\
                  on_manifold s' (Datatypes.S (length (pts s))) (p_mfd q) /\ length (pts s') = Datatypes.S (Datatypes.S (length (pts s)))
      | Fail EUB => step s (Plus p v) = Undefined
      | Fail e => exists s', step s (Plus p v) = Thrown e s'
      end
  | Ok false => step s (Plus p v) = Thrown EThrow s
  | Fail EUB => step s (Plus p v) = Undefined
  | Fail e => step s (Plus p v) = Thrown e s
  end.
Proof.
  cbn [step]. unfold plus. rewrite Hq, Ho, ops_value. cbn zeta.
  change (create_point_val s (p_mfd q) x) with (step s (CreatePointVal (p_mfd q) x)). rewrite (create_val s _ m x I D ops_pos).
  destruct (isInM m x default_prec) as [[]|[]]; cbn [bind_out]; auto.
  destruct (make_lock_does s (p_mfd q) x m I D ops_len) as (s1 & E1); [rewrite ops_len; apply ops_pos|]. rewrite E1. cbn [bind_out].
  destruct (make_point_gives _ _ _ _ E1) as (m1 & _ & _ & Px & P1 & M1). destruct (lockm_rest s (p_mfd q)) as [P0 M0]. rewrite P0, M0 in *.
  set (n := length (pts s)) in *. set (q1 := Pt (p_mfd q) (length (mems s)) 0 (length x) true) in *.
  assert (X1 : step s (CreatePoint (p_mfd q) x) = Done s1) by (cbn [step]; unfold create_point, with_tree; rewrite ops_tree, ops_len, Nat.eqb_refl; exact E1).
  pose proof (step_all s (CreatePoint (p_mfd q) x) A Logic.I) as A1. rewrite X1 in A1. cbn [post] in A1.
  assert (L1 : light s s1) by (pose proof (make_point_light_lock s (p_mfd q) x) as Y; rewrite E1 in Y; exact Y).
  assert (G1 : get (pts s1) n = Some q1) by (rewrite P1; unfold n; apply get_app_new).
  assert (D1 : denotes s1 (p_mfd q) m) by (apply (light_denotes s); auto).
  assert (V1 : value s1 q1 = Some x).
  { unfold value. cbn [p_mem q1 p_off p_len]. rewrite M1, get_app_new. cbn [Nat.add]. rewrite Nat.leb_refl. cbn [skipn]. rewrite firstn_all. reflexivity. }
  assert (T1 : tree s1 (p_mfd q) = Some m) by (apply (denotes_tree [] s1 _ m (proj1 A1)); auto).
  unfold increment, with_tree. rewrite G1. cbn [p_owner q1 p_mfd]. fold q1. rewrite V1, T1.
  assert (Fin : forall s2, light s s2 -> pinv s2 -> get (pts s2) n = Some q1 -> exists s3, destroy_point s2 n = Done s3 /\ pts s3 = upd (pts s2) n None /\
            forall i, i <> length (mems s) -> get (mems s3) i = get (mems s2) i).
  { intros s2 L2 Pv2 G2. unfold destroy_point. rewrite G2. cbn [p_mfd q1 p_owner p_mem].
    destruct (denotes_live _ _ _ D) as (ob & Hob). destruct (light_get s s2 _ ob L2 Hob) as (o2 & H2 & _). rewrite H2.
    assert (Z : (0 < o_count o2)%Z).
    { rewrite (p_count _ Pv2 _ _ H2). unfold attached. pose proof (total_get (fun y => if p_mfd y =? p_mfd q then 1 else 0) (pts s2) n) as T. rewrite G2 in T. cbn in T. rewrite Nat.eqb_refl in T. lia. }
    apply Z.ltb_lt in Z. rewrite Z. eexists. split; [reflexivity|]. cbn. match goal with |- context [modify ?a ?b ?c] => destruct (modify_rest a b c) as (Pm & Mm & _); rewrite Pm, Mm end.
    split; auto. intros i N. apply get_upd_other. auto. }
  destruct (retractation m x x v) as [r|e] eqn:R; cbn [lift bind_out].
  2:{ destruct (Fin s1 L1 (proj2 (proj2 A1)) G1) as (s3 & E3 & _). destruct e; cbn [bind_out finally]; auto; rewrite E3; eauto. }
  assert (Lr : length r = length x) by (eapply retractation_length; eauto).
  set (s2 := write s1 q1 r). destruct (write_rest s1 q1 r) as [P2 M2]. fold s2 in P2, M2.
  assert (V2 : value s2 q1 = Some r) by (apply (write_self s1 q1 r x V1); exact Lr).
  assert (L2 : light s s2) by (eapply light_trans; [exact L1|apply light_write]).
  assert (Pv2 : pinv s2) by (apply (write_inv s1 q1 r x); auto; apply A1).
  unfold copy_point. rewrite P2, G1, V2. cbn [p_mfd q1].
  assert (D2 : denotes s2 (p_mfd q) m) by (apply (light_denotes s); auto).
  assert (I2 : sinv [] s2) by (eapply light_inv; [exact L2|exact I]).
  destruct (make_point_does s2 (p_mfd q) r m) as (s3 & E3). { apply (denotes_tree [] s2 _ m I2); auto. } { rewrite Lr. apply ops_len. } { lia. }
  rewrite E3. cbn [finally].
  assert (L3 : light s s3) by (eapply light_trans; [exact L2|]; pose proof (make_point_light s2 (p_mfd q) r) as Y; rewrite E3 in Y; exact Y).
  destruct (make_point_gives _ _ _ _ E3) as (m3 & _ & _ & Pr & P3 & M3). destruct (new_shows _ _ _ _ E3) as (S3 & O3 & F3).
  assert (N2 : length (pts s2) = Datatypes.S n) by (rewrite P2, P1, app_length; cbn; unfold n; lia).
  assert (Pv3 : pinv s3).
  { destruct (denotes_live _ _ _ D2) as (ob & Hob).
    assert (Lk : o_lock ob = true) by (apply (p_lock _ Pv2 n q1 ob); [rewrite P2; auto|exact Hob]).
    pose proof (make_point_inv s2 (p_mfd q) r ob Pv2 Hob Lk) as Y. rewrite E3 in Y. apply Y. intros m' Tm. apply (tree_hdr [] s2 (p_mfd q) ob m' I2 Hob Tm). }
  assert (G3 : get (pts s3) n = Some q1) by (rewrite P3, get_app_old; [rewrite P2; auto|lia]).
  destruct (Fin s3 L3 Pv3 G3) as (s4 & E4 & P4 & M4). exists s4. split; auto.
  rewrite N2 in *. destruct S3 as (q3 & v3 & H3 & H3' & H3''). 
  assert (Q3 : q3 = Pt (p_mfd q) (length (mems s2)) 0 (length r) true).
  { rewrite P3, <- N2, get_app_new in H3. congruence. }
  assert (G4 : get (pts s4) (Datatypes.S n) = Some q3) by (rewrite P4, get_upd_other by lia; exact H3).
  assert (Lm : length (mems s2) = Datatypes.S (length (mems s))) by (unfold s2; rewrite write_len, M1, app_length; cbn; lia).
  split; [|split; [|split]].
  - exists q3, v3. split; auto. split; [|exact H3'']. rewrite M4; auto. subst q3. cbn. lia.
  - exists q3. split; auto. subst q3. reflexivity.
  - exists q3. split; auto. subst q3. reflexivity.
  - rewrite P4, upd_length, P3, app_length, N2. cbn. lia.
Qed.
End Ops.

(** ** Assignment *)
Lemma assign_is s p p' q q' m m' x y : all_inv s -> get (pts s) p = Some q -> get (pts s) p' = Some q' -> p_owner q = true -> p_owner q' = true ->
  denotes s (p_mfd q) m -> denotes s (p_mfd q') m' -> shows s p x -> shows s p' y ->
  step s (AssignPoint p p') = if (dim m =? dim m') && (representationDim m =? representationDim m') then Done (write s q y) else Thrown EAssert s.
Proof.
  intros A H H' O O' D D' S S'. pose proof (ops_value s p q x H S) as V. pose proof (ops_value s p' q' y H' S') as V'.
  cbn [step]. unfold assign_point, with_tree. rewrite H, H', O, O'. cbn [andb]. rewrite (ops_tree s q m A D), (ops_tree s q' m' A D').
  destruct (dim m =? dim m'); [|reflexivity]. destruct (Nat.eqb_spec (representationDim m) (representationDim m')) as [E|]; [|reflexivity]. rewrite V, V'. cbn [andb].
  unfold assign. pose proof (ops_len s p q m x A H D S). pose proof (ops_len s p' q' m' y A H' D' S').
  unfold eigen_assert. destruct (Nat.eqb_spec (length y) (length x)); [reflexivity|lia] || (destruct (Nat.eqb_spec (length x) (length y)); [reflexivity|lia]).
Qed.
End ObjPath.
