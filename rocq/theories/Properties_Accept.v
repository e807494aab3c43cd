(** C79: a point that isInM accepts, computed in doubles, is close to the manifold; and the other way round. *)
From Coq Require Import Reals List Lra Lia ZArith Bool Arith Psatz.
From Flocq Require Import Core BinarySingleNaN.
From Verif Require Import Base Scalar Vec Model_Real Model_S2 Model_SO3 Model_Manifold Spec Layout Comp Indep Flat Points
  XR SpecR RotR NumVec NumTree F64 F64Err F64Norm F64S2 F64Exp F64Quat F64Mat F64Mat2 F64Tree F64Go ExScalar Properties_Float Properties_FloatPath.
From Verif Require ObjPath.
From Verif Require Import F64Accept.
Import ListNotations.
Local Open Scope R_scope.

Lemma defect64_mono d D s x : d <= D -> defect64 d s x -> defect64 D s x.
Proof.
  intros DD Hs. destruct s as [h [| |[|]] a b|]; cbn [defect64] in *.
  - exact Hs.
  - destruct Hs as (A1 & A2 & A3). split; [exact A1|]. split; [exact A2|]. lra.
  - destruct Hs as (A1 & A & A2 & NX). split; [exact A1|]. exists A. split; [exact A2|]. unfold near_rot in NX |- *. cbv zeta in NX |- *.
    repeat match goal with N : _ /\ _ |- _ => destruct N end. repeat match goal with |- _ /\ _ => split end; (eapply Rle_trans; [eassumption|assumption]).
  - destruct Hs as (A1 & A & A2 & A3). split; [exact A1|]. exists A. split; [exact A2|]. lra.
  - exact Hs.
Qed.
Lemma defect64M_mono d D m x : d <= D -> defect64M d m x -> defect64M D m x.
Proof. intros DD (xs & -> & F). exists xs. split; [reflexivity|]. induction F; constructor; eauto using defect64_mono. Qed.

Lemma leaf_back L h l a b x p : leaf_wf (K:=f64) h l a b -> isf p -> val p <= 1 / 100 -> isInM (SK:=F64 L) (Leaf h l a b) x p = Ok true ->
  defect64 (21 / 10 * Rmax (val p) (1001 / 10 ^ 11)) (Leaf h l a b) x.
Proof.
  intros W Fp Hp H. pose proof (ObjPath.isInM_len _ _ _ _ H) as Lx. pose proof (Rmax_r (val p) (1001 / 10 ^ 11)) as MR. cbn [isInM] in H. rewrite Lx, Nat.eqb_refl in H. cbn [mnf_assert bind] in H.
  unfold representationDim in Lx. cbn [hdr_of] in Lx. set (D := 21 / 10 * Rmax (val p) (1001 / 10 ^ 11)) in *. unfold leaf_wf in W. destruct l as [| |[|]]; cbn [defect64].
  - lia.
  - destruct (vec3 x) as (x0 & x1 & x2 & ->); [lia|]. apply F64Quat.ok_eq in H. symmetry in H. apply s2_back in H as ((F0 & F1 & F2) & E); auto. split; [reflexivity|]. split; [auto|].
    replace (rdot (vals [x0; x1; x2]) (vals [x0; x1; x2])) with (sq3 (val x0) (val x1) (val x2)) by (unfold sq3; cbn [map rdot]; ring). exact E.
  - assert (L9 : length x = 9%nat) by lia. destruct x as [|x0 [|x1 [|x2 [|x3 [|x4 [|x5 [|x6 [|x7 [|x8 [|]]]]]]]]]]; try discriminate L9.
    apply (em_back L (M3 x0 x3 x6 x1 x4 x7 x2 x5 x8)) in H as [FX NX]. unfold mfin in FX. cbn [a00 a01 a02 a10 a11 a12 a20 a21 a22] in FX. split.
    + repeat (apply Forall_cons; [tauto|]). apply Forall_nil.
    + eexists. split; [|]. 2: { unfold near_rot in NX |- *. cbv zeta in NX |- *. assert (1005 / 10 ^ 11 <= D) by (unfold D; lra).
        repeat match goal with N : _ /\ _ |- _ => destruct N end. repeat match goal with |- _ /\ _ => split end; (eapply Rle_trans; [eassumption|assumption]). } reflexivity.
  - assert (L4 : length x = 4%nat) by lia. destruct x as [|x0 [|x1 [|x2 [|x3 [|]]]]]; try discriminate L4.
    apply (eq_back L (Q4 x0 x1 x2 x3)) in H as [(F0 & F1 & F2 & F3) E]; auto. cbn [qw qx qy qz] in *. split; [auto|]. eexists. split; [|exact E]. reflexivity.
Qed.
Lemma default_ok L : isf (default_prec (SK:=F64 L)) /\ 999 / 10 ^ 11 <= val (default_prec (SK:=F64 L)) <= 1001 / 10 ^ 11.
Proof. exact (lit8_tight L). Qed.

(** Every tree: what isInM accepts has finite coordinates on its spheres and rotations, of norm 1 (orthogonal, of
    determinant 1) up to 2.1 times the precision asked for, or 2.11e-8 if that is larger. *)
Theorem C79_accept : forall L (m : mfd f64) (x : list f64) (prec : f64), built m -> isf prec -> val prec <= 1 / 100 ->
  isInM (SK:=F64 L) m x prec = Ok true -> defect64M (21 / 10 * Rmax (val prec) (1001 / 10 ^ 11)) m x.
Proof.
  intros L m x prec B Fp Hp H. apply built_wf in B. pose proof (ObjPath.isInM_len _ _ _ _ H) as Lx. destruct (cut_gen DR m x B Lx) as (xs & -> & P). exists xs. split; [reflexivity|].
  destruct m as [h l a b|h sT sR subs].
  - apply (isInM_leaves (SK:=F64 L) _ B xs prec P I) in H. inversion B as [? ? ? ? Wl|]; subst. cbn [leaves] in *. inversion H as [|? x ? ? Hx Hn]; subst. inversion Hn; subst. apply Forall2_cons; [|apply Forall2_nil].
    apply (leaf_back L); auto.
  - assert (H' : isInM (SK:=F64 L) (Prod h sT sR subs) (concat xs) (default_prec (SK:=F64 L)) = Ok true) by (rewrite <- H; cbn [isInM]; reflexivity). clear H.
    apply (isInM_leaves (SK:=F64 L) _ B xs _ P eq_refl) in H'. pose proof (fun s => leaf_inv_gen _ s B) as G. destruct (default_ok L) as [Fd Vd].
    pose proof (Rmax_r (val prec) (1001 / 10 ^ 11)) as MR.
    assert (MD : Rmax (val (default_prec (SK:=F64 L))) (1001 / 10 ^ 11) <= Rmax (val prec) (1001 / 10 ^ 11)) by (apply Rmax_lub; lra).
    clear P Lx B. induction H' as [|s y ss ys Hs F IH]; constructor.
    + destruct (G s (or_introl eq_refl)) as (h' & l & a & b & -> & W). apply (leaf_back L) in Hs; auto; [|cbn [pow] in *; lra].
      eapply defect64_mono; [|exact Hs]. lra.
    + apply IH. intros s' Hs'. apply G. right. exact Hs'.
Qed.

(** The products test their factors with the default precision whatever precision they receive, a NaN included. *)
Theorem C79_product : forall L h sT sR subs (x : list f64) (prec : f64), built (Prod h sT sR subs) ->
  isInM (SK:=F64 L) (Prod h sT sR subs) x prec = Ok true -> defect64M (211 / 10 ^ 10) (Prod h sT sR subs) x.
Proof.
  intros L h sT sR subs x prec B H. destruct (default_ok L) as [Fd Vd].
  assert (H' : isInM (SK:=F64 L) (Prod h sT sR subs) x (default_prec (SK:=F64 L)) = Ok true) by (rewrite <- H; cbn [isInM]; reflexivity).
  apply C79_accept in H'; auto; [|lra]. rewrite Rmax_right in H' by lra. eapply defect64M_mono; [|exact H']. lra.
Qed.

(** The other way: a point within 3.3e-9 of the manifold is accepted, with every precision from 0.995e-8 on. *)
Theorem C79_close : forall L (m : mfd f64) (x : list f64) (prec : f64), built m -> isf prec -> 995 / 10 ^ 11 <= val prec ->
  defect64M (33 / 10 ^ 10) m x -> isInM (SK:=F64 L) m x prec = Ok true.
Proof.
  intros L m x prec B Fp Hp (xs & -> & F). apply built_wf in B. apply (isInM64 L m (3 * (33 / 10 ^ 10))); auto; [|lra].
  clear - F. induction F; constructor; auto. apply defect_stray; auto. lra.
Qed.

(** A walk from an accepted point: the test at the start bounds the distance to the manifold at the end. *)
Theorem C79_walk : forall L (m : mfd f64) (x : list f64) (vs : list (list f64)) (r : list f64), accurate L -> built m ->
  isInM (SK:=F64 L) m x (default_prec (SK:=F64 L)) = Ok true -> Forall (tangent64 m) vs -> increments64 L m x vs = Ok r ->
  1240 * INR (length vs) * / 2 ^ 53 <= 9 / 10000 -> defect64M (64 / 10 ^ 9 + 1240 * INR (length vs) * / 2 ^ 53) m r.
Proof.
  intros L m x vs r HL B H Hv Hr Hk. destruct (default_ok L) as [Fd Vd]. apply C79_accept in H; auto; [|lra]. rewrite Rmax_right in H by lra.
  set (k := 1240 * INR (length vs) * / 2 ^ 53) in *. destruct (C49_drift L m x vs r (21 / 10 * (1001 / 10 ^ 11)) HL B ltac:(lra) H Hv Hr) as [F _]; [fold k; lra|]. fold k in F.
  eapply defect64M_mono; [|exact F]. lra.
Qed.

(** R^2 x SO(3) x SO(3): the quarter turn and the quaternion j are accepted; so is every walk of up to 6e9 steps from there. *)
Example C79_example : isInM (SK:=F64 libm_exact) (fP libm_exact) fPx (default_prec (SK:=F64 libm_exact)) = Ok true /\
  defect64M (21 / 10 * Rmax (val (default_prec (SK:=F64 libm_exact))) (1001 / 10 ^ 11)) (fP libm_exact) fPx /\
  forall k, 1240 * INR k * / 2 ^ 53 <= 9 / 10000 -> exists r, increments64 libm_exact (fP libm_exact) fPx (repeat fPv k) = Ok r /\
    defect64M (64 / 10 ^ 9 + 1240 * INR k * / 2 ^ 53) (fP libm_exact) r.
Proof.
  destruct (default_ok libm_exact) as [Fd Vd]. destruct fPx_ok as (DX & _). pose proof (fP_built libm_exact) as B.
  assert (A : isInM (SK:=F64 libm_exact) (fP libm_exact) fPx (default_prec (SK:=F64 libm_exact)) = Ok true).
  { apply C79_close; auto; [lra|]. eapply defect64M_mono; [|exact DX]. lra. }
  split; [exact A|]. split; [apply C79_accept in A; auto; lra|]. intros k Hk. destruct (C49_example k) as (r & Hr & _). exists r. split; [exact Hr|].
  destruct fPv_ok as (TV & _). pose proof (C79_walk libm_exact (fP libm_exact) fPx (repeat fPv k) r libm_exact_ok B A) as W. rewrite repeat_length in W. apply W; auto.
  apply Forall_forall. intros v Hv. apply repeat_spec in Hv. subst v. exact TV.
Qed.
(** A sphere: the north pole is accepted, a vector of norm 1.00000002 and a NaN are refused. *)
Example C79_example_refused : forall L0, let one := of_Z 1 in let far := Bplus mode_NE one (Bdiv mode_NE one (of_Z 50000000)) in
  isInM (SK:=F64 (in_order L0)) (fS2 (in_order L0)) [of_Z 0; of_Z 0; one] (default_prec (SK:=F64 (in_order L0))) = Ok true /\
  isInM (SK:=F64 (in_order L0)) (fS2 (in_order L0)) [of_Z 0; of_Z 0; far] (default_prec (SK:=F64 (in_order L0))) = Ok false /\
  isInM (SK:=F64 (in_order L0)) (fS2 (in_order L0)) [of_Z 0; B754_nan; one] (default_prec (SK:=F64 (in_order L0))) = Ok false.
Proof. intros L0. vm_compute. repeat split. Qed.
