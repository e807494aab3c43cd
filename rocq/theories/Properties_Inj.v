(** C58: the retraction at a point is injective; the set it reaches.  Exact real arithmetic. *)
From Coq Require Import Reals List Lra Lia ZArith Bool Arith Psatz.
From Verif Require Import Base Scalar Vec Model_Real Model_S2 Model_SO3 Model_Manifold Spec Layout Comp Indep Flat
  XR SpecR RotR NumVec NumMat Angle NumQuat NumTree NumLeaf RotLog RoundTrip NumS2 NumExp NumLog Force Points Drift ExScalar ExR
  Properties_SO3 Properties_Points Properties_Matrix Inj.
Import ListNotations.
Local Open Scope R_scope.

Lemma accepted_regular m xs : wf m -> Forall2 (fun s x => length x = getDim DR s) (leaves m) xs ->
  isInM m (fin (concat xs)) (klit 1 100000000) = Ok true -> Forall2 regular (leaves m) xs.
Proof.
  intros W Lx H. rewrite fin_concat in H. apply isInM_leaves in H; auto using fin_pieces; [|destruct m; reflexivity || exact I].
  pose proof (fun s => wf_leaf_inv m s W) as G. revert xs Lx H G. generalize (leaves m) as ls. intros ls.
  induction ls as [|s ls IH]; intros xs Lx H G; inversion Lx as [|? x ? xs' L1 L2]; subst; constructor.
  - cbn [map] in H. inversion H as [|? ? ? ? H1 H2]; subst. destruct (G s) as (h & l & a & b & -> & Wl); [simpl; auto|].
    cbn [getDim] in L1. unfold representationDim in L1. cbn [hdr_of] in L1. change (klit 1 100000000) with (Fin (1 / 100000000)) in H1. destruct l as [| |[|]]; cbn [regular]; auto.
    + pose proof Wl as (W1 & W2 & W3 & _). rewrite s2_isInM_fin in H1 by (auto; lia). assert (N : Rabs (rnorm x - 1) < 1 / 100000000) by (apply Rltb_true; congruence).
      apply Rabs_def2 in N. pose proof (rnorm_sq x). nra.
    + pose proof Wl as (W1 & W2 & W3 & _). destruct (flat9_surj x ltac:(lia)) as [A ->]. exists A. split; auto.
      destruct (em_isInM_fin h a b A (Fin (1 / 100000000)) Wl) as (r & E & Hr). assert (r = true) as -> by congruence. destruct Hr as [Hr _]. destruct (Hr eq_refl) as [D _]. apply Rabs_def2 in D. lra.
    + pose proof Wl as (W1 & W2 & W3 & _). rewrite eq_isInM_fin in H1 by (auto; lia). assert (N : Rabs (rnorm x - 1) < 1 / 100000000) by (apply Rltb_true; congruence).
      destruct x as [|q0 [|q1 [|q2 [|q3 [|]]]]]; try (simpl in L1; lia). exists (Q4 q0 q1 q2 q3). split; auto.
      apply Rabs_def2 in N. pose proof (rnorm_sq [q0; q1; q2; q3]) as S. replace (qn2 _) with (rdot [q0; q1; q2; q3] [q0; q1; q2; q3]) by (unfold qn2; cbn [qw qx qy qz rdot]; ring). nra.
  - cbn [map] in H. inversion H; subst. apply IH; auto. intros; apply G; simpl; auto.
Qed.
Lemma len_same {ls : list (mfd XR)} {D} xs ys : Forall2 (fun s x => length x = getDim D s) ls xs -> Forall2 (fun s y => length y = getDim D s) ls ys ->
  Forall2 (fun x y : list R => length x = length y) xs ys.
Proof. intros H. revert ys. induction H as [|s x ls xs Hx H IH]; intros ys G; inversion G; subst; constructor; [congruence|auto]. Qed.
Lemma tree_land m xs vs o r : wf m -> length o = representationDim m -> Forall2 (fun s x => length x = getDim DR s) (leaves m) xs ->
  Forall2 regular (leaves m) xs -> Forall3 tan_leaf (leaves m) xs vs -> retractation m o (fin (concat xs)) (fin (concat vs)) = Ok r ->
  exists ys, r = fin (concat ys) /\ Forall4 land (leaves m) xs vs ys /\ Forall2 (fun s x => length x = getDim DR s) (leaves m) ys.
Proof.
  intros W Lo Lx Rx T H. pose proof (fun s => wf_leaf_inv m s W) as G.
  destruct (cut_leaves DR m o W Lo) as (os & -> & Po).
  assert (Lv : Forall2 (fun s v => length v = getDim DT s) (leaves m) vs).
  { clear - T. induction T as [|s x v ls xs vs [L _] T IH]; constructor; auto. }
  rewrite !fin_concat in H. apply (flat_op DR DR DT retractation retractation_prod m W) in H; auto using fin_pieces. destruct H as (rs & -> & F).
  assert (Q : exists ys, rs = map fin ys /\ Forall4 land (leaves m) xs vs ys /\ Forall2 (fun s x => length x = getDim DR s) (leaves m) ys).
  { clear - F G Lx Rx T Po. revert Lx Rx T G F Po. generalize (leaves m) as ls. intros ls. revert os xs vs rs.
    induction ls as [|s ls IH]; intros os xs vs rs Lx Rx T G F Po.
    - inversion T; subst. inversion F; subst. exists []. repeat constructor.
    - inversion T as [|? x v ? xs' vs' T1 T2]; subst. inversion Lx; inversion Rx; subst. inversion Po as [|? o' ? os' Po1 Po2]; subst. inversion F as [|? ? ? ? r1 ? ? ? ? rs1 F1 F2]; subst.
      destruct (IH os' xs' vs' rs1) as (ys & -> & Q1 & Q2); auto. { intros; apply G; simpl; auto. }
      destruct (G s) as (h & l & a & b & -> & Wl); [simpl; auto|].
      assert (Y : exists y, r1 = fin y /\ land (Leaf h l a b) x v y) by (eapply leaf_land; [exact Wl| | | | |exact F1]; eauto). destruct Y as (y & -> & Ly).
      exists (y :: ys). split; [reflexivity|]. split; [constructor; auto|]. constructor; auto.
      pose proof (retractation_length _ _ _ _ _ F1) as E. rewrite fin_length in E. congruence. }
  destruct Q as (ys & -> & Q1 & Q2). exists ys. rewrite fin_concat. auto.
Qed.
Lemma tan_len ls xs vs : Forall3 tan_leaf ls xs vs -> Forall2 (fun s v => length v = getDim DT s) ls vs.
Proof. induction 1 as [|s x v ls xs vs [L _] T IH]; constructor; auto. Qed.

(** ** Injectivity *)
(** [v] is tangent at [x]: exactly orthogonal on the S2 slices. *)
Definition tangent_at (m : mfd XR) (x v : list R) : Prop :=
  exists xs vs, x = concat xs /\ v = concat vs /\ Forall2 (fun s z => length z = representationDim s) (leaves m) xs /\ Forall3 tan_leaf (leaves m) xs vs.

(** Any tree, any point the library accepts, Taylor branches included: two tangent vectors whose retractions return the
    same point of the manifold (quaternions up to sign) are equal. *)
Theorem C58_injective : forall m : mfd XR, built m -> forall (x v w y y' : list R) (o o' : list XR),
  isInM m (fin x) (klit 1 100000000) = Ok true -> tangent_at m x v -> tangent_at m x w ->
  length o = representationDim m -> length o' = representationDim m ->
  retractation m o (fin x) (fin v) = Ok (fin y) -> retractation m o' (fin x) (fin w) = Ok (fin y') -> sameM m y y' -> v = w.
Proof.
  intros m B x v w y y' o o' Hx (xs & vs & -> & -> & Lx & Tv) (xs' & ws & E & -> & Lx' & Tw) Lo Lo' Hv Hw (ys & ys' & -> & -> & Ly & S).
  pose proof (built_wf m B) as W. pose proof (fun s => wf_leaf_inv m s W) as G.
  assert (xs' = xs) as ->. { symmetry. apply concat_inj_len; auto. apply (len_same (D:=DR) (ls:=leaves m)); auto. } clear E Lx'.
  pose proof (accepted_regular m xs W Lx Hx) as Rx.
  destruct (tree_land m xs vs o _ W Lo Lx Rx Tv Hv) as (zs & Ez & Fz & Lz). destruct (tree_land m xs ws o' _ W Lo' Lx Rx Tw Hw) as (zs' & Ez' & Fz' & Lz').
  apply fin_inj in Ez, Ez'.
  assert (zs = ys) as ->. { symmetry. apply concat_inj_len; auto. apply (len_same (D:=DR) (ls:=leaves m)); auto. }
  assert (Ly' : Forall2 (fun s z => length z = getDim DR s) (leaves m) ys').
  { clear - Ly S. revert Ly. induction S as [|s a b ls xs ys H S IH]; intros Ly; inversion Ly; subst; constructor; auto.
    destruct s as [h [| |[|]] ? ?|]; cbn [same_leaf] in H; subst; auto. destruct H as [->| ->]; auto. rewrite map_length. auto. }
  assert (zs' = ys') as ->. { symmetry. apply concat_inj_len; auto. apply (len_same (D:=DR) (ls:=leaves m)); auto. }
  clear - G Lx Rx Tv Tw Fz Fz' S. f_equal. revert G Lx Rx Tv Tw Fz Fz' S. generalize (leaves m) as ls. intros ls. revert xs vs ws ys ys'.
  induction ls as [|s ls IH]; intros xs vs ws ys ys' G Lx Rx Tv Tw Fz Fz' S.
  - inversion Tv; inversion Tw; subst. reflexivity.
  - inversion Tv as [|? x v ? xs1 vs1 Tv1 Tv2]; subst. inversion Tw as [|? ? w ? ? ws1 Tw1 Tw2]; subst. inversion Lx; inversion Rx; subst.
    inversion Fz as [|? ? ? y ? ? ? ys1 Fz1 Fz2]; subst. inversion Fz' as [|? ? ? y' ? ? ? ys1' Fz1' Fz2']; subst. inversion S; subst.
    destruct (G s) as (h & l & a & b & -> & Wl); [simpl; auto|]. f_equal.
    + eapply (leaf_land_inj h l a b); eauto.
    + eapply IH; eauto. intros; apply G; simpl; auto.
Qed.
Print Assumptions C58_injective.

(** ** The reachable set *)
(** The open half of the manifold around [x]: open hemispheres, rotations by less than pi. *)
Definition reachM (m : mfd XR) (x y : list R) : Prop :=
  exists xs ys, x = concat xs /\ y = concat ys /\ Forall2 on_leaf (leaves m) xs /\
    Forall2 (fun s z => length z = representationDim s) (leaves m) ys /\ Forall3 in_reach (leaves m) xs ys.

(** Whatever tangent vector is accepted, the retraction lands there: antipodes, the opposite hemisphere and the half
    turns are never reached in one step. *)
Theorem C58_reach : forall m : mfd XR, built m -> forall (x v : list R) (o r : list XR), tanM m x v -> length o = representationDim m ->
  retractation m o (fin x) (fin v) = Ok r -> exists y, r = fin y /\ reachM m x y.
Proof.
  intros m B x v o r (xs & vs & -> & -> & Hx & T) Lo H. pose proof (built_wf m B) as W. pose proof (fun s => wf_leaf_inv m s W) as G.
  assert (Lx : Forall2 (fun s z => length z = getDim DR s) (leaves m) xs /\ Forall2 regular (leaves m) xs).
  { clear - Hx G. induction Hx as [|s x ls xs H Hx IH]; [split; constructor|]. destruct IH as [I1 I2]; [intros; apply G; simpl; auto|].
    destruct (G s) as (h & l & a & b & -> & Wl); [simpl; auto|]. split; constructor; auto; [apply on_len; auto|apply on_regular; auto]. }
  destruct Lx as [Lx Rx]. destruct (tree_land m xs vs o r W Lo Lx Rx T H) as (ys & -> & F & Ly). exists (concat ys). split; auto.
  exists xs, ys. split; auto. split; auto. split; auto. split; auto.
  clear - F G Hx T. revert G Hx T. induction F as [|s x v y ls xs vs ys F1 F IH]; intros G Hx T; constructor; inversion Hx; inversion T; subst.
  - destruct (G s) as (h & l & a & b & -> & Wl); [simpl; auto|]. eapply leaf_reach; eauto.
  - apply IH; auto. intros; apply G; simpl; auto.
Qed.
Print Assumptions C58_reach.

(** Conversely every point of the open half around [x] is reached: exactly without rotation slices, within 1e-20 with
    them (the Taylor branches). *)
Theorem C58_onto : forall m : mfd XR, built m -> forall x y : list R, onM m y -> reachM m x y ->
  exists v z, tanM m x v /\ near_v (1 / 10 ^ 20) z y /\ (Forall (fun s => is_so3 s = false) (leaves m) -> z = y) /\
    forall o, length o = representationDim m -> retractation m o (fin x) (fin v) = Ok (fin z).
Proof.
  intros m B x y (ys' & -> & Hy) (xs & ys & -> & E & Hx & Ly & Rc). pose proof (built_wf m B) as W. pose proof (fun s => wf_leaf_inv m s W) as G.
  assert (L1 : forall zs, Forall2 on_leaf (leaves m) zs -> Forall2 (fun s z => length z = getDim DR s) (leaves m) zs).
  { clear - G. intros zs H. induction H as [|s x ls xs H Hx IH]; constructor; [|apply IH; intros; apply G; simpl; auto].
    destruct (G s) as (h & l & a & b & -> & Wl); [simpl; auto|]. apply on_len; auto. }
  assert (ys' = ys) as ->. { apply concat_inj_len; auto. apply (len_same (D:=DR) (ls:=leaves m)); auto. }
  assert (Q : exists vzs : list (list R * list R), Forall4 (fun s x y vz => tan_leaf s x (fst vz) /\ near_v (1 / 10 ^ 20) (snd vz) y /\ (is_so3 s = false -> snd vz = y) /\
      forall o, length o = representationDim s -> retractation s o (fin x) (fin (fst vz)) = Ok (fin (snd vz))) (leaves m) xs ys vzs).
  { apply (choose4 (fun s x y => on_leaf s x /\ on_leaf s y /\ in_reach s x y)).
    - clear - Hx Hy Rc. revert Hx Hy. induction Rc as [|s x y ls xs ys R1 Rc IH]; intros Hx Hy; constructor; inversion Hx; inversion Hy; subst; auto.
    - intros s x y Hs (H1 & H2 & H3). destruct (G s Hs) as (h & l & a & b & -> & Wl). apply leaf_onto; auto. }
  destruct Q as (vzs & F). exists (concat (map fst vzs)), (concat (map snd vzs)). split; [|split; [|split]].
  - exists xs, (map fst vzs). split; auto. split; auto. split; auto. clear - F. induction F as [|s x y vz ls xs ys vzs (A & _) F IH]; constructor; auto.
  - clear - F. induction F as [|s x y vz ls xs ys vzs (_ & A & _) F IH]; [constructor|]. apply Forall2_app; auto.
  - intros N. f_equal. clear - F N. induction F as [|s x y vz ls xs ys vzs (_ & _ & A & _) F IH]; [reflexivity|]. inversion N; subst. cbn [map]. f_equal; auto.
  - intros o Lo. destruct (cut_leaves DR m o W Lo) as (os & -> & Po). rewrite !fin_concat.
    apply (flat_op DR DR DT retractation retractation_prod m W); auto using fin_pieces.
    + apply fin_pieces. clear - F. induction F as [|s x y vz ls xs ys vzs ((A & _) & _) F IH]; constructor; auto.
    + exists (map fin (map snd vzs)). split; auto. clear - F Po. revert os Po. induction F as [|s x y vz ls xs ys vzs (_ & _ & _ & A) F IH]; intros os Po; inversion Po; subst; constructor; auto.
Qed.
Print Assumptions C58_onto.

(** ** Vectors accepted within the tolerance *)
(** S2: two different vectors of T_xM up to 1e-9, both accepted, lead to the same point. *)
Theorem C58_tolerance_refuted : exists (m : mfd XR) (x v w : list R), built m /\ onM m x /\ v <> w /\
  isInTxM m (fin x) (fin v) (klit 1 100000000) = Ok true /\ isInTxM m (fin x) (fin w) (klit 1 100000000) = Ok true /\
  exists y, forall o, length o = 3%nat -> retractation m o (fin x) (fin v) = Ok (fin y) /\ retractation m o (fin x) (fin w) = Ok (fin y).
Proof.
  destruct rS2_leaf as (h & a & b & E & W). set (k := 1 + 1 / 1000000000).
  exists rS2, [1; 0; 0], [0; 1; 0], [1 / 1000000000; k; 0]. split; [apply rS2_built|]. rewrite E.
  split; [exists [[1; 0; 0]]; split; [reflexivity|]; constructor; [|constructor]; split; [reflexivity|cbn; ring]|].
  split; [intros H; injection H; lra|].
  assert (D1 : rdot [1; 0; 0] [0; 1; 0] = 0) by (cbn; ring). assert (D2 : rdot [1; 0; 0] [1 / 1000000000; k; 0] = 1 / 1000000000) by (cbn; ring).
  change (klit 1 100000000) with (Fin (1 / 100000000)). rewrite !s2_inT, D1, D2 by (auto; reflexivity).
  assert (A1 : Rabs 0 < 1 / 100000000) by (rewrite Rabs_R0; lra). assert (A2 : Rabs (1 / 1000000000) < 1 / 100000000) by (rewrite Rabs_right; lra).
  split; [apply Rltb_true in A1; rewrite A1; reflexivity|]. split; [apply Rltb_true in A2; rewrite A2; reflexivity|].
  exists (rscal (/ rnorm (radd [1; 0; 0] [0; 1; 0])) (radd [1; 0; 0] [0; 1; 0])). intros o Lo.
  rewrite !s2_retr by (auto; try reflexivity; try (rewrite ?D1, ?D2; auto); cbn; ring). split; auto. do 2 f_equal.
  assert (S : radd [1; 0; 0] [1 / 1000000000; k; 0] = rscal k (radd [1; 0; 0] [0; 1; 0])).
  { unfold radd, rscal, k. cbn [combine map fst snd]. repeat match goal with |- _ :: _ = _ :: _ => apply f_equal2 end; try reflexivity; ring. }
  rewrite S, rnorm_scal, Rabs_right by (unfold k; lra). set (u := radd _ _). assert (P : rnorm u <> 0). { unfold u, rnorm. cbn. intros H. apply sqrt_eq_0 in H; lra. }
  unfold rscal. rewrite map_map. apply map_ext. intros z. field. split; auto. unfold k; lra.
Qed.
Print Assumptions C58_tolerance_refuted.

(** ** Example *)
(** S2 x SO3 (quaternion): from (1,0,0) and no rotation to (3/5,4/5,0) and a rotation of cosine -7/25. *)
Example C58_example : let x := [1; 0; 0; 1; 0; 0; 0] in let y := [3 / 5; 4 / 5; 0; 3 / 5; 4 / 5; 0; 0] in
  built rS1 /\ onM rS1 y /\ reachM rS1 x y /\ isInM rS1 (fin x) (klit 1 100000000) = Ok true /\
  exists v z, tangent_at rS1 x v /\ near_v (1 / 10 ^ 20) z y /\ forall o, length o = 7%nat -> retractation rS1 o (fin x) (fin v) = Ok (fin z).
Proof.
  intros x y. assert (B : built rS1) by apply (prod2_built rS2 rQ _ rS2_built rQ_built eq_refl).
  destruct rS2_leaf as (h & a & b & E & W), rQ_leaf as (h' & a' & b' & E' & W').
  assert (L : leaves rS1 = [rS2; rQ]) by reflexivity.
  assert (Hx : Forall2 on_leaf (leaves rS1) [[1; 0; 0]; [1; 0; 0; 0]]).
  { rewrite L. constructor; [|constructor; [|constructor]]; [split; [reflexivity|cbn; ring]|]. exists (Q4 1 0 0 0). split; [reflexivity|unfold qn2; cbn; ring]. }
  assert (Hy : onM rS1 y).
  { exists [[3 / 5; 4 / 5; 0]; [3 / 5; 4 / 5; 0; 0]]. split; [reflexivity|]. rewrite L. constructor; [|constructor; [|constructor]]; [split; [reflexivity|cbn; field]|]. exists (Q4 (3 / 5) (4 / 5) 0 0). split; [reflexivity|unfold qn2; cbn; field]. }
  assert (Hr : reachM rS1 x y).
  { exists [[1; 0; 0]; [1; 0; 0; 0]], [[3 / 5; 4 / 5; 0]; [3 / 5; 4 / 5; 0; 0]]. split; [reflexivity|]. split; [reflexivity|]. split; auto. rewrite L.
    split; [repeat constructor|]. constructor; [|constructor; [|constructor]]; cbn; lra. }
  split; auto. split; auto. split; auto. split.
  - apply (rS1_ex [1; 0; 0] _ eq_refl). unfold rnorm. replace (rdot [1; 0; 0] [1; 0; 0]) with 1 by (cbn; ring). rewrite sqrt_1, Rminus_diag_eq, Rabs_R0; lra.
  - destruct (C58_onto rS1 B x y Hy Hr) as (v & z & T & N & _ & H). exists v, z. split; [|split; auto].
    destruct T as (xs & vs & Ex & Ev & Ox & T). exists xs, vs. split; auto. split; auto. split; auto.
    clear - Ox L E E' W W'. rewrite L, E, E' in *. inversion Ox as [|? ? ? ? H1 H2]; subst. inversion H2 as [|? ? ? ? H3 H4]; subst. inversion H4; subst. constructor; [apply on_len; auto|constructor; [apply on_len; auto|constructor]].
Qed.
