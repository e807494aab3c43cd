(** C40: random points.  Exact real arithmetic; the random generator is an arbitrary sequence of reals. *)
From Coq Require Import Reals List Lra Lia ZArith Bool Arith Psatz.
From Verif Require Import Base Scalar Vec Model_Real Model_S2 Model_SO3 Model_Manifold Spec Layout Comp Indep Flat Structure
  XR SpecR RotR NumVec NumMat Angle NumQuat NumTree NumLeaf RotLog RoundTrip NumS2 NumExp NumLog Close Force Points Random ExR Properties_SO3.
Import ListNotations.
Local Open Scope R_scope.

(** Whatever the draws, as long as they lie in [-1,1] and the three draws of each S2 factor are not all
    zero, createRandomPoint consumes exactly the draws of its elementary factors in order, and produces a
    point whose slices are bounded by |coeff| (R^n), unit (S2), or rotations up to 1e-24 (SO3); isInM
    accepts it.  Holds for every tree and every |coeff| < pi/sqrt 3. *)
Theorem C40_random_points : forall m (rnd : nat -> R) (pos : nat) (coeff : R), built m ->
  Rabs coeff < PI / sqrt 3 ->
  let n := sum_list (map ndraw (leaves m)) in
  (forall k, (pos <= k < pos + n)%nat -> Rabs (rnd k) <= 1) ->
  (forall pre s post, leaves m = pre ++ s :: post -> is_s2 s = true ->
     exists k, (k < 3)%nat /\ rnd (pos + sum_list (map ndraw pre) + k)%nat <> 0) ->
  exists ys, Forall2 (rand_leaf coeff) (leaves m) ys /\
    (forall prec, 1 / 10 ^ 24 < prec -> isInM m (fin (concat ys)) (Fin prec) = Ok true) /\
    forall out, length out = representationDim m ->
      createRandomPoint m out (Fin coeff) (fun k => Fin (rnd k)) pos = Ok (fin (concat ys), (pos + n)%nat).
Proof.
  intros m rnd pos coeff B Hc n Hd Hz. apply built_wf in B.
  assert (G : forall s, In s (leaves m) -> exists h l a b, s = Leaf h l a b /\ leaf_wf h l a b)
    by (intros s Hs; apply (wf_leaf_inv m s B Hs)).
  assert (H : exists ys, Forall2 (rand_leaf coeff) (leaves m) ys /\
     Forall2 (fun s y => forall p, 1 / 10 ^ 24 < p -> isInM s (fin y) (Fin p) = Ok true) (leaves m) ys /\
     seqr (Fin coeff) (fun k => Fin (rnd k)) (leaves m) (map fin ys) pos).
  { unfold n in *. clear n. revert pos Hd Hz. induction (leaves m) as [|s l IH]; intros pos Hd Hz.
    - exists []. split; [|split]; simpl; auto.
    - destruct (G s) as (h & lf & a & b & -> & W); [simpl; auto|]. set (s := Leaf h lf a b) in *.
      destruct (random_leaf h lf a b coeff rnd pos W Hc) as (y & Hy & Ly & Iy & Ey).
      { intros k Hk. apply Hd. cbn [map]. change (sum_list (ndraw s :: map ndraw l)) with (ndraw s + sum_list (map ndraw l))%nat. fold s in Hk. lia. }
      { intros Hs. destruct (Hz [] s l eq_refl Hs) as (k & Hk & Hr). exists k. split; auto. simpl in Hr. rewrite Nat.add_0_r in Hr. auto. }
      destruct (IH (fun q Hq => G q (or_intror Hq)) (pos + ndraw s)%nat) as (ys & F1 & F2 & F3).
      { intros k Hk. apply Hd. cbn [map]. change (sum_list (ndraw s :: map ndraw l)) with (ndraw s + sum_list (map ndraw l))%nat. lia. }
      { intros pre q post E Hq. destruct (Hz (s :: pre) q post) as (k & Hk & Hr); [rewrite E; reflexivity|auto|].
        exists k. split; auto. cbn [map] in Hr. change (sum_list (ndraw s :: map ndraw pre)) with (ndraw s + sum_list (map ndraw pre))%nat in Hr.
        rewrite Nat.add_assoc in Hr. auto. }
      exists (y :: ys). split; [constructor; auto|]. split; [constructor; auto|]. cbn [map seqr]. rewrite fin_length. auto. }
  destruct H as (ys & F1 & F2 & F3). exists ys. split; [auto|]. split.
  - intros p Hp. rewrite fin_concat.
    pose proof (seqr_pieces _ _ _ _ _ F3) as Pc.
    assert (L : forall p, 1 / 10 ^ 24 < p -> Forall2 (fun s x => isInM s x (Fin p) = Ok true) (leaves m) (map fin ys)).
    { intros q Hq. clear - F2 Hq. induction F2; constructor; auto. }
    destruct m as [h lf a b|h sT sR subs].
    + apply isInM_leaves; auto.
    + assert (E : isInM (Prod h sT sR subs) (concat (map fin ys)) default_prec = Ok true).
      { apply isInM_leaves; auto. apply L. lra. }
      rewrite <- E. reflexivity.
  - intros out Lo. rewrite (random_tree _ _ m B (map fin ys)) by auto. rewrite <- fin_concat. reflexivity.
Qed.
Print Assumptions C40_random_points.

(** The bound on coeff is the best one: at pi/sqrt 3 and above, the draws (1,1,1) make every SO3 factor's
    createRandomPoint fail the assertion |v| < pi of the exponential. *)
Theorem C40_bound_is_sharp : forall h mp typ tru (coeff : R) (pos : nat) (out : list XR),
  let s := Leaf h (LSO3 mp) typ tru in built s -> PI / sqrt 3 <= coeff -> length out = representationDim s ->
  createRandomPoint s out (Fin coeff) (fun _ => Fin 1) pos = Fail EAssert.
Proof.
  intros h mp typ tru c pos out s B Hc Lo. 
  assert (S3 : 0 < sqrt 3) by (apply sqrt_lt_R0; lra).
  assert (Hc' : PI <= c * sqrt 3).
  { apply Rmult_le_reg_r with (/ sqrt 3); [apply Rinv_0_lt_compat; auto|]. 
    replace (c * sqrt 3 * / sqrt 3) with c by (field; lra). exact Hc. }
  assert (C0 : 0 < c) by (pose proof PI_RGT_0; nra).
  assert (N : PI <= rnorm (rscal c (draws (fun _ => 1) pos 3))).
  { unfold rnorm, rscal, draws. cbn [seq map rdot]. replace (_ + _) with ((c * c) * 3) by ring.
    rewrite sqrt_mult by nra. rewrite sqrt_square by lra. auto. }
  assert (L3 : length (rscal c (draws (fun _ => 1) pos 3)) = 3%nat) by (rewrite rscal_length; apply draws_length).
  pose proof B as B'. apply built_leaf_wf in B'. unfold s in *.
  cbn [createRandomPoint]. rewrite Lo, Nat.eqb_refl. cbn [mnf_assert bind]. unfold representationDim in Lo; cbn [hdr_of] in Lo.
  change (fun _ : nat => Fin 1) with (fun k : nat => Fin ((fun _ => 1) k)). rewrite draw_fin, vscale_fin.
  destruct mp; destruct B' as (W1 & W2 & W3 & _).
  - assert (EZ : em_setZero out = Ok (fin (flat9 ridm))).
    { unfold em_setZero. rewrite m3_id_fin, m3_to_list_fin. apply raw_write_same. rewrite fin_length, flat9_length. lia. }
    rewrite EZ. cbn [bind]. 
    pose proof (proj2 (C18_matrix_retraction h typ tru ridm _ (fin (flat9 ridm)) B rot_id L3 ltac:(rewrite fin_length, flat9_length; auto)) N) as E.
    rewrite E. reflexivity.
  - assert (EZ : eq_setZero out = Ok (fin (qflat (Q4 1 0 0 0)))).
    { unfold eq_setZero. destruct (quat_read_len out) as [q0 ->]; [lia|]. cbn [bind]. unfold quat_write.
      apply raw_write_same. cbn. lia. }
    rewrite EZ. cbn [bind]. 
    assert (U : qn2 (Q4 1 0 0 0) = 1) by (unfold qn2; cbn [qw qx qy qz]; ring).
    pose proof (proj2 (C19_quat_retraction h typ tru (Q4 1 0 0 0) _ (fin (qflat (Q4 1 0 0 0))) B U L3 eq_refl) N) as E.
    rewrite E. reflexivity.
Qed.
Print Assumptions C40_bound_is_sharp.

(** Three zero draws on S2 give the vector 0/0 (NaN), which isInM rejects. *)
Theorem C40_zero_draw : forall h typ tru (coeff : R) (pos : nat) (out : list XR),
  let s := Leaf h LS2 typ tru in built s -> length out = representationDim s ->
  createRandomPoint s out (Fin coeff) (fun _ => Fin 0) pos = Ok ([Undef; Undef; Undef], (pos + 3)%nat) /\
  forall p, isInM s [Undef; Undef; Undef] (Fin p) = Ok false.
Proof.
  intros h typ tru c pos out s B Lo. apply built_leaf_wf in B. destruct B as (W1 & W2 & W3 & _). unfold s in *. split.
  - cbn [createRandomPoint]. rewrite Lo, Nat.eqb_refl. cbn [mnf_assert bind]. unfold representationDim in Lo; cbn [hdr_of] in Lo.
    unfold s2_rand. rewrite Lo, W3. cbn [Nat.eqb mnf_assert bind]. 
    change (draw (fun _ : nat => Fin 0) pos 3) with (fin [0; 0; 0]). rewrite assign_same by (cbn; lia). cbn [bind].
    rewrite norm_fin. unfold rnorm. replace (rdot [0; 0; 0] [0; 0; 0]) with 0 by (simpl; ring). rewrite sqrt_0.
    cbn [fin map vdivs]. unfold vdivs. cbn [map kdiv XRS xdiv]. 
    destruct (Req_EM_T 0 0) as [_|N]; [|congruence].
    rewrite assign_same by reflexivity. reflexivity.
  - intros p. cbn [isInM]. unfold representationDim; cbn [hdr_of]. rewrite check_eq by (cbn; lia). cbn [bind]. reflexivity.
Qed.
Print Assumptions C40_zero_draw.

(** Hypotheses are met: R2 x (S2 x SO3 quaternion), draws 1/2 everywhere, coefficient 1 (the default). *)
Example C40_example : built rS /\ (exists pre s post, leaves rS = pre ++ s :: post /\ is_s2 s = true) /\
  Rabs 1 < PI / sqrt 3 /\ exists ys, Forall2 (rand_leaf 1) (leaves rS) ys /\
    forall out, length out = 9%nat -> createRandomPoint rS out (Fin 1) (fun _ => Fin (1 / 2)) 0 = Ok (fin (concat ys), 8%nat).
Proof.
  assert (C : Rabs 1 < PI / sqrt 3).
  { rewrite Rabs_R1. assert (S3 : 0 < sqrt 3) by (apply sqrt_lt_R0; lra). assert (E3 : sqrt 3 * sqrt 3 = 3) by (apply sqrt_sqrt; lra).
    pose proof PI2_1. apply Rmult_lt_reg_r with (sqrt 3); auto. replace (PI / sqrt 3 * sqrt 3) with PI by (field; lra). nra. }
  split; [apply rS_built|]. split; [|split; [exact C|]].
  - exists [rR2], rS2, [rQ]. split; reflexivity.
  - destruct (C40_random_points rS (fun _ => 1 / 2) 0 1 rS_built C) as (ys & F & _ & E).
    + intros k _. apply Rabs_le. lra.
    + intros. exists 0%nat. split; [lia|lra].
    + exists ys. split; auto. 
Qed.
