(** C57: NaN and infinities.  Double arithmetic (any libm) and exact arithmetic with Undef/+inf. *)
From Coq Require Import Reals List Lra Lia ZArith Bool Arith.
From Flocq Require Import Core BinarySingleNaN.
From Verif Require Import Base Scalar Vec Model_Real Model_S2 Model_SO3 Model_Manifold Spec Layout Comp Flat Points XR F64 F64Tree ExScalar ExR Properties_Float Finite.
Import ListNotations.

(** ** What the runtime checks catch *)
(** The entries of the slice are finite doubles: on every S2 and SO3 slice; on S2 slices; on SO3 slices; on slices holding a rotation matrix. *)
Definition curved64 (s : mfd f64) (x : vec f64) : Prop := match s with Leaf _ LReal _ _ => True | _ => Forall isf x end.
Definition sphere64 (s : mfd f64) (x : vec f64) : Prop := match s with Leaf _ LS2 _ _ => Forall isf x | _ => True end.
Definition matrix64 (s : mfd f64) (x : vec f64) : Prop := match s with Leaf _ (LSO3 MapMatrix) _ _ => Forall isf x | _ => True end.

(** In double arithmetic, for every math library, every tree, every size and every precision (including NaN and
    negative ones): a point that isInM accepts, a tangent vector that isInTxM accepts, the arguments of a retraction
    that returns, and the input of a forceOnM that returns. *)
Theorem C57_checked : forall L (m : mfd f64), let SK := F64 L in built m ->
  (forall xs p, pieces DR (leaves m) xs -> isInM (SK:=SK) m (concat xs) p = Ok true -> Forall2 curved64 (leaves m) xs) /\
  (forall xs vs p, pieces DR (leaves m) xs -> pieces DT (leaves m) vs -> isInTxM (SK:=SK) m (concat xs) (concat vs) p = Ok true ->
     Forall2 sphere64 (leaves m) xs /\ Forall2 sphere64 (leaves m) vs) /\
  (forall os xs vs y, pieces DR (leaves m) os -> pieces DR (leaves m) xs -> pieces DT (leaves m) vs ->
     retractation (SK:=SK) m (concat os) (concat xs) (concat vs) = Ok y ->
     Forall2 sphere64 (leaves m) xs /\ Forall2 curved64 (leaves m) vs) /\
  (forall os xs y, pieces DR (leaves m) os -> pieces DR (leaves m) xs -> forceOnM (SK:=SK) m (concat os) (concat xs) = Ok y ->
     Forall2 matrix64 (leaves m) xs).
Proof.
  intros L m SK B. pose proof (built_wf m B) as W. pose proof (f64_laws L) as FL.
  split; [intros xs p Px H; exact (tree_isInM isf FL m xs p W Px H)|].
  split; [|split].
  - intros xs vs p Px Pv H. pose proof (tree_isInTxM isf FL m xs vs p W Px Pv H) as F. clear - F.
    split; induction F as [|s x v ls xs vs Hs F IH]; constructor; auto; destruct s as [h [| |[|]] a b|]; cbn in *; tauto.
  - intros os xs vs y Po Px Pv H. pose proof (tree_retr isf FL m os xs vs y W Po Px Pv H) as F.
    pose proof (fun s => leaf_inv_gen m s W) as G. clear - F G.
    split; induction F as [|s x v ls xs vs Hs F IH]; constructor; try (apply IH; intros; apply G; simpl; auto);
      destruct (G s) as (h & l & a & b & -> & _); simpl; auto; destruct l as [| |[|]]; cbn in *; tauto.
  - intros os xs y Po Px H. exact (tree_force isf FL m os xs y W Po Px H).
Qed.
Print Assumptions C57_checked.

(** ** What they do not catch *)
Definition nans (n : nat) : list f64 := repeat B754_nan n.
(** (R^2 x SO3 matrix) x SO3 quaternion, every coefficient of the point a NaN: isInM says no, the retraction by the
    zero vector returns a point of NaNs without a word.  R^n accepts NaNs as points.  S2 and the quaternion chart
    "project" NaNs to NaNs; the logarithm of the matrix chart returns NaNs. *)
Theorem C57_silent_refuted : forall L0, let L := in_order L0 in let SK := F64 L in
  (exists m : mfd f64, built m /\ isInM (SK:=SK) m (nans 15) default_prec = Ok false /\
     retractation (SK:=SK) m (nans 15) (nans 15) (fi (repeat 0%Z 8)) = Ok (nans 15)) /\
  isInM (SK:=SK) (fR2 L) (nans 2) default_prec = Ok true /\
  forceOnM (SK:=SK) (fS2 L) (nans 3) (nans 3) = Ok (nans 3) /\ forceOnM (SK:=SK) (fQ L) (nans 4) (nans 4) = Ok (nans 4) /\
  pseudoLog (SK:=SK) (fM L) (nans 3) (nans 9) (nans 9) = Ok (nans 3).
Proof.
  intros L0 L SK. split.
  - exists (fP L). split; [apply fP_built|]. split; vm_compute; reflexivity.
  - split; [vm_compute; reflexivity|]. split; [vm_compute; reflexivity|]. split; vm_compute; reflexivity.
Qed.
Print Assumptions C57_silent_refuted.

(** ** Exact arithmetic *)
(** The same in exact arithmetic, where an entry is a real number, +inf or an undefined value. *)
Definition curvedX (s : mfd XR) (x : vec XR) : Prop := match s with Leaf _ LReal _ _ => True | _ => exists r, x = fin r end.
Definition sphereX (s : mfd XR) (x : vec XR) : Prop := match s with Leaf _ LS2 _ _ => exists r, x = fin r | _ => True end.
Lemma isfin_fin x : Forall isfin x -> exists r, x = fin r.
Proof. induction 1 as [|a x [r ->] F [l ->]]; [exists []|exists (r :: l)]; reflexivity. Qed.
Theorem C57_checked_exact : forall m : mfd XR, built m ->
  (forall xs p, pieces DR (leaves m) xs -> isInM m (concat xs) p = Ok true -> Forall2 curvedX (leaves m) xs) /\
  (forall os xs vs y, pieces DR (leaves m) os -> pieces DR (leaves m) xs -> pieces DT (leaves m) vs ->
     retractation m (concat os) (concat xs) (concat vs) = Ok y ->
     Forall2 sphereX (leaves m) xs /\ Forall2 curvedX (leaves m) vs).
Proof.
  intros m B. pose proof (built_wf m B) as W. pose proof xr_laws as FL. split.
  - intros xs p Px H. pose proof (tree_isInM isfin FL m xs p W Px H) as F. clear - F.
    induction F as [|s x ls xs Hs F IH]; constructor; auto. destruct s as [h [| |[|]] a b|]; cbn in *; auto using isfin_fin.
  - intros os xs vs y Po Px Pv H. pose proof (tree_retr isfin FL m os xs vs y W Po Px Pv H) as F.
    pose proof (fun s => leaf_inv_gen m s W) as G. clear - F G.
    split; induction F as [|s x v ls xs vs Hs F IH]; constructor; try (apply IH; intros; apply G; simpl; auto);
      destruct (G s) as (h & l & a & b & -> & _); simpl; auto; destruct l as [| |[|]]; cbn in *; try tauto; try destruct Hs; auto using isfin_fin.
Qed.
Print Assumptions C57_checked_exact.

(** ** Examples *)
(** The hypotheses are met on ((R^2 x SO3 matrix) x SO3 quaternion) by a quarter turn and a half turn; R^2 keeps a NaN. *)
Definition fNx : list f64 := [B754_nan; of_Z 4] ++ fi [0; 1; 0; -1; 0; 0; 0; 0; 1]%Z ++ fi [0; 0; 1; 0]%Z.
Example C57_example : forall L0, let L := in_order L0 in let SK := F64 L in built (fP L) /\ isInM (SK:=SK) (fP L) fNx default_prec = Ok true /\
  match retractation (SK:=SK) (fP L) fNx fNx (fi (repeat 0%Z 8)) with Ok y => negb (is_finite (nth 0 y (of_Z 0))) && forallb is_finite (tl y) | _ => false end = true /\
  match forceOnM (SK:=SK) (fP L) fNx fNx with Ok y => forallb is_finite (tl y) | _ => false end = true /\
  retractation (SK:=SK) (fP L) fNx fNx (fi [0; 0]%Z ++ [B754_nan; of_Z 0; of_Z 0] ++ fi [0; 0; 0]%Z) = Fail EAssert /\
  retractation (SK:=SK) (fS2 L) (fi [1; 0; 0]%Z) (fi [1; 0; 0]%Z) [of_Z 0; B754_infinity true; of_Z 0] = Fail EAssert.
Proof.
  intros L0 L SK. split; [apply fP_built|]. split; [vm_compute; reflexivity|].
  split; [vm_compute; reflexivity|]. split; [vm_compute; reflexivity|]. split; vm_compute; reflexivity.
Qed.
