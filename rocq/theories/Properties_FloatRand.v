(** C73: createRandomPoint in IEEE-754 double arithmetic, the generator being any sequence of doubles. *)
From Coq Require Import Reals List Lra Lia ZArith Bool Arith Psatz.
From Flocq Require Import Core BinarySingleNaN.
From Verif Require Import Base Scalar Vec Model_Real Model_S2 Model_SO3 Model_Manifold Spec SpecPrint Layout Comp Indep Flat Points
  XR SpecR RotR NumVec NumTree Drift Random F64 F64Err F64Norm F64S2 F64Exp F64Quat F64Mat F64Mat2 F64Tree F64Go F64Rand ExScalar Properties_Float Properties_FloatProj.
Import ListNotations.
Local Open Scope R_scope.

(** ** Specification *)
(** The draws of an elementary manifold scaled by the coefficient, each product correctly rounded. *)
Definition scaled (c : f64) (ds : list f64) : list R := map (fun d => round radix2 (FLT_exp (-1074) 53) ZnearestE (val c * val d)) ds.
(** The point made of the draws: the scaled draws in R^n, the normalised draws on the sphere, the exponential of the
    scaled draws in rotations. *)
Definition made_of (c : f64) (s : mfd f64) (ds y : list f64) : Prop :=
  match s with
  | Leaf _ LReal _ _ => vals y = scaled c ds
  | Leaf _ LS2 _ _ => near_v (4 * / 2 ^ 53) (vals y) (rscal (/ rnorm (vals ds)) (vals ds))
  | Leaf _ (LSO3 MapMatrix) _ _ => near_v (124 * / 2 ^ 53) (vals y) (flat9 (expSO3 (scaled c ds)))
  | Leaf _ (LSO3 MapQuat) _ _ => near_v (82 * / 2 ^ 53) (vals y) (qflat (expQ (scaled c ds)))
  | Prod _ _ _ _ => False
  end.
(** How many draws an elementary manifold takes. *)
Definition wants (s : mfd f64) : nat := match s with Leaf h LReal _ _ => h_dim h | _ => 3%nat end.

Lemma drawn_made c s ds y : drawn c s ds y -> made_of c s ds y.
Proof.
  assert (EU : / 2 ^ 53 = u) by (rewrite u_val; cbn [pow]; lra). unfold made_of. rewrite EU. destruct s as [h [| |[|]] a b|]; exact (fun H => H).
Qed.
Lemma wants_ndraw h l a b : leaf_wf (K:=f64) h l a b -> ndraw (Leaf h l a b) = wants (Leaf h l a b).
Proof. unfold ndraw, tangentDim. cbn [hdr_of]. destruct l as [| |mp]; cbn [leaf_wf wants]; intros W; [apply W|reflexivity|destruct mp; apply W]. Qed.
Lemma draw_app (g : nat -> f64) pos a b : draw g pos (a + b) = draw g pos a ++ draw g (pos + a) b.
Proof. unfold draw. rewrite seq_app, map_app. reflexivity. Qed.

(** ** Trees *)
(** Every generator whose doubles are in [-1, 1], every coefficient (at most 1.8 when the tree has a rotation), every
    tree: when the three draws of each sphere are not all below 2^-100, createRandomPoint takes the draws of the
    elementary factors in order, once each, whatever the output held; every factor's slice is made of its own
    draws up to rounding; the whole point is finite, at most 1240 * 2^-53 off the manifold, and isInM accepts it. *)
Theorem C73_random : forall L (m : mfd f64) (g : nat -> f64) pos c, accurate L -> built m -> isf c -> Rabs (val c) <= 2 ^ 900 ->
  (forall s, In s (leaves m) -> is_rotation s = true -> Rabs (val c) <= 9 / 5) ->
  let n := sum_list (map wants (leaves m)) in
  (forall k, (pos <= k < pos + n)%nat -> isf (g k) /\ Rabs (val (g k)) <= 1) ->
  (forall pre s post, leaves m = pre ++ s :: post -> is_sphere s = true -> exists k, (k < 3)%nat /\ / 2 ^ 100 <= Rabs (val (g (pos + sum_list (map wants pre) + k)%nat))) ->
  exists dss ys, map g (seq pos n) = concat dss /\ Forall3 (fun s ds y => length ds = wants s /\ made_of c s ds y) (leaves m) dss ys /\
    Forall isf (concat ys) /\ Forall2 (defect64 (1240 * / 2 ^ 53)) (leaves m) ys /\
    (forall prec, isf prec -> 995 / 10 ^ 11 <= val prec -> isInM (SK:=F64 L) m (concat ys) prec = Ok true) /\
    forall out, length out = representationDim m -> createRandomPoint (SK:=F64 L) m out c g pos = Ok (concat ys, (pos + n)%nat).
Proof.
  intros L m g pos c HL B Fc Hc Hr n Hd Hz. pose proof (built_wf _ B) as W. pose proof (fun s => leaf_inv_gen m s W) as GI.
  assert (EN : map wants (leaves m) = map ndraw (leaves m)).
  { apply map_ext_in. intros s Hs. destruct (GI s Hs) as (h & l & a & b & -> & Wl). symmetry. apply wants_ndraw, Wl. }
  assert (H : exists dss ys, map g (seq pos n) = concat dss /\ Forall3 (fun s ds y => length ds = wants s /\ made_of c s ds y) (leaves m) dss ys /\
     Forall isf (concat ys) /\ Forall2 (fstray (1240 * u)) (leaves m) ys /\ seqr (SK:=F64 L) c g (leaves m) ys pos).
  { unfold n in *. clear n EN B W. revert pos Hd Hz. induction (leaves m) as [|s ls IH]; intros pos Hd Hz.
    - exists [], []. repeat split; constructor.
    - destruct (GI s) as (h & l & a & b & -> & Wl); [simpl; auto|]. set (s := Leaf h l a b) in *. pose proof (wants_ndraw h l a b Wl) as WN. fold s in WN.
      destruct (leaf_rand64 L HL h l a b c g pos Wl Fc Hc) as (y & Ly & Fy & Sy & Dy & Ey).
      { apply Hr. simpl. auto. }
      { fold s. rewrite WN. intros k Hk. apply Hd. cbn [map]. change (sum_list (wants s :: map wants ls)) with (wants s + sum_list (map wants ls))%nat. lia. }
      { intros Hs. destruct (Hz [] s ls eq_refl Hs) as (k & Hk & Hg). exists k. split; auto. simpl in Hg. rewrite Nat.add_0_r in Hg. exact Hg. }
      destruct (IH (fun q Hq => Hr q (or_intror Hq)) (fun q Hq => GI q (or_intror Hq)) (pos + wants s)%nat) as (dss & ys & E1 & E2 & E3 & E4 & E5).
      { intros k Hk. apply Hd. cbn [map]. change (sum_list (wants s :: map wants ls)) with (wants s + sum_list (map wants ls))%nat. lia. }
      { intros pre q post E Hq. destruct (Hz (s :: pre) q post) as (k & Hk & Hg); [rewrite E; reflexivity|auto|]. exists k. split; auto.
        cbn [map] in Hg. change (sum_list (wants s :: map wants pre)) with (wants s + sum_list (map wants pre))%nat in Hg. rewrite Nat.add_assoc in Hg. exact Hg. }
      exists (draw g pos (wants s) :: dss), (y :: ys). fold s in Dy, Ey, Ly, Sy. rewrite WN in Dy, Ey. split; [|split; [|split; [|split]]].
      + cbn [map concat]. change (sum_list (wants s :: map wants ls)) with (wants s + sum_list (map wants ls))%nat. change (draw g pos (wants s + sum_list (map wants ls)) = draw g pos (wants s) ++ concat dss). rewrite draw_app. f_equal. exact E1.
      + constructor; auto. split; [unfold draw; rewrite map_length, seq_length; reflexivity|]. apply drawn_made, Dy.
      + cbn [concat]. apply Forall_app. split; auto.
      + constructor; auto.
      + cbn [seqr]. rewrite WN. split; [split; [exact Ly|exact Ey]|exact E5]. }
  destruct H as (dss & ys & E1 & E2 & E3 & E4 & E5). exists dss, ys. split; [exact E1|]. split; [exact E2|]. split; [exact E3|].
  assert (EU : / 2 ^ 53 = u) by (rewrite u_val; cbn [pow]; lra). rewrite EU. split; [clear - E4; induction E4; constructor; auto using stray_defect|]. split.
  - intros prec Fp Hp. apply (isInM64 L m (1240 * u)); auto. rewrite u_val. lra.
  - intros out Lo. rewrite (random_tree (SK:=F64 L) c g m W ys pos out E5 Lo). unfold total. rewrite <- EN. reflexivity.
Qed.
Print Assumptions C73_random.

(** Three zero draws on the sphere (Eigen's Random cannot give them with an odd RAND_MAX): 0/0, which isInM rejects. *)
Theorem C73_zero_refuted : forall L0, let L := in_order L0 in exists (m : mfd f64) g y, built m /\ (forall k, isf (g k) /\ Rabs (val (g k)) <= 1) /\
  createRandomPoint (SK:=F64 L) m (fi [0; 0; 0]%Z) (of_Z 1) g 0 = Ok (y, 3%nat) /\ Forall (fun a => is_nan a = true) y /\ isInM (SK:=F64 L) m y (klit (Scalar:=F64 L) 1 100000000) = Ok false.
Proof.
  intros L0 L. exists (fS2 L), (fun _ => B754_zero false), [B754_nan; B754_nan; B754_nan]. split; [apply (fS2_built L)|].
  split; [intros k; split; [reflexivity|cbn; rewrite Rabs_R0; lra]|]. split; [vm_compute; reflexivity|]. split; [repeat constructor|vm_compute; reflexivity].
Qed.
Print Assumptions C73_zero_refuted.

(** ** Examples *)
(** A coefficient above pi / sqrt 3 stops the program on the draws (1, 1, 1). *)
Example C73_example_large : forall L0, let L := in_order L0 in
  createRandomPoint (SK:=F64 L) (fM L) (fi [0; 0; 0; 0; 0; 0; 0; 0; 0]%Z) (of_Z 2) (fun _ => of_Z 1) 0 = Fail EAssert.
Proof. intros. vm_compute. reflexivity. Qed.
(** (R^2 x S^2) x SO3 with the default coefficient 1 and all draws equal to 1. *)
Example C73_example : let L := libm_exact in exists ys : list (list f64),
  Forall3 (fun s ds y => length ds = wants s /\ made_of (of_Z 1) s ds y) (leaves (fU L)) [fi [1; 1]%Z; fi [1; 1; 1]%Z; fi [1; 1; 1]%Z] ys /\
  forall out, length out = 9%nat -> createRandomPoint (SK:=F64 L) (fU L) out (of_Z 1) (fun _ => of_Z 1) 0 = Ok (concat ys, 8%nat).
Proof.
  intros L. destruct (of_Z_ok 1 ltac:(lia)) as [F1 V1]. assert (A1 : Rabs (val (of_Z 1)) <= 1) by (rewrite V1, Rabs_pos_eq; lra).
  destruct (C73_random L (fU L) (fun _ => of_Z 1) 0 (of_Z 1)) as (dss & ys & E1 & E2 & _ & _ & _ & E3).
  - exact libm_exact_ok.
  - apply fU_built.
  - exact F1.
  - lra.
  - intros; lra.
  - intros; split; [exact F1|exact A1].
  - intros. exists 0%nat. split; [lia|]. rewrite V1, Rabs_pos_eq by lra. lra.
  - exists ys. split; [|exact E3]. replace [fi [1; 1]%Z; fi [1; 1; 1]%Z; fi [1; 1; 1]%Z] with dss; [exact E2|]. clear E3.
    change (leaves (fU L)) with [fR2 L; fS2 L; fQ L] in E2. inversion E2 as [|? d0 ? ? ? ? [L0 _] G0]; subst. inversion G0 as [|? d1 ? ? ? ? [L1 _] G1]; subst. inversion G1 as [|? d2 ? ? ? ? [L2 _] G2]; subst. inversion G2; subst.
    change (wants (fR2 L)) with 2%nat in L0. change (wants (fS2 L)) with 3%nat in L1. change (wants (fQ L)) with 3%nat in L2.
    destruct d0 as [|? [|? [|]]]; try discriminate L0. destruct d1 as [|? [|? [|? [|]]]]; try discriminate L1. destruct d2 as [|? [|? [|? [|]]]]; try discriminate L2.
    change (sum_list (map wants (leaves (fU L)))) with 8%nat in E1. cbn [seq map concat app] in E1. unfold fi. cbn [map]. set (o := of_Z 1) in *. clearbody o. injection E1 as <- <- <- <- <- <- <- <-. reflexivity.
Qed.
