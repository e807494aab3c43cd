(** Concrete manifolds over [XR] for the examples beside the numeric theorems:
    R^2, S2, both SO3, (R^2 x SO3matrix) x SO3quaternion and R^2 x (S2 x SO3quaternion). *)
From Coq Require Import Reals List Lra ZArith.
From Verif Require Import Base Scalar Vec Model_SO3 Model_Manifold Spec Layout XR SpecR RotR NumVec ExScalar.
Import ListNotations.
Local Open Scope R_scope.

Definition rR2 : mfd XR := get prod_empty (mk_real 2).
Definition rS2 : mfd XR := get prod_empty mk_s2.
Definition rM : mfd XR := get prod_empty (mk_so3 MapMatrix).
Definition rQ : mfd XR := get prod_empty (mk_so3 MapQuat).
Definition rP1 : mfd XR := get prod_empty (prod2 rR2 rM).
Definition rP : mfd XR := get prod_empty (prod2 rP1 rQ).
Definition rS1 : mfd XR := get prod_empty (prod2 rS2 rQ).
Definition rS : mfd XR := get prod_empty (prod2 rR2 rS1).

Lemma rR2_built : built rR2. Proof. apply (built_real_mag 2 (Fin 1)). reflexivity. Qed.
Lemma rS2_built : built rS2. Proof. apply (built_s2 [Fin PI; Fin PI; Fin PI]). reflexivity. Qed.
Lemma rM_built : built rM. Proof. apply (built_so3 MapMatrix [Fin PI; Fin PI; Fin PI]). reflexivity. Qed.
Lemma rQ_built : built rQ. Proof. apply (built_so3 MapQuat [Fin PI; Fin PI; Fin PI]). reflexivity. Qed.
Lemma prod2_built (a b p : mfd XR) : built a -> built b -> prod2 a b = Ok p -> built p.
Proof.
  intros Ha Hb Hp. unfold prod2 in Hp.
  destruct (multiply prod_empty a) as [p1|] eqn:E1; [|discriminate]. cbn [bind] in Hp.
  destruct (multiply p1 b) as [p2|] eqn:E2; [|discriminate]. cbn [bind] in Hp.
  inversion Hp; subst. apply built_name. apply (built_mult p1 b); auto.
  apply (built_mult prod_empty a); auto. apply built_empty.
Qed.
Lemma rP_built : built rP.
Proof.
  apply (prod2_built rP1 rQ); auto using rQ_built.
  apply (prod2_built rR2 rM); auto using rR2_built, rM_built; reflexivity.
Qed.
Lemma rS_built : built rS.
Proof.
  apply (prod2_built rR2 rS1); auto using rR2_built.
  apply (prod2_built rS2 rQ); auto using rS2_built, rQ_built; reflexivity.
Qed.
Lemma rP_no_s2 : no_s2 rP.
Proof. repeat constructor. Qed.

Lemma rnorm100 a : 0 <= a -> rnorm [a; 0; 0] = a.
Proof. intros H. unfold rnorm. replace (rdot _ _) with (a * a) by (simpl; ring). apply sqrt_square. auto. Qed.
Lemma PI_gt2 : 2 < PI. Proof. pose proof PI2_1. lra. Qed.

(** A point of rP (a quarter turn for the matrix, a half turn for the quaternion), a tangent vector. *)
Definition exq : m3 R := M3 0 (-1) 0 1 0 0 0 0 1.
Definition rPx : list R := [3; 4] ++ flat9 exq ++ [0; 0; 1; 0].
Definition rPv : list R := [1; -1] ++ [1; 0; 0] ++ [2; 0; 0].
Lemma exq_rot : rot exq.
Proof. split; [unfold exq; m3_eq; ring|unfold rdet, exq; cbn; ring]. Qed.
Lemma rPx_on : onM rP rPx.
Proof.
  exists [[3; 4]; flat9 exq; [0; 0; 1; 0]]. split; [reflexivity|].
  repeat (apply Forall2_cons || apply Forall2_nil).
  - reflexivity.
  - exists exq. split; auto using exq_rot.
  - exists (Q4 0 0 1 0). split; auto. unfold qn2; cbn; ring.
Qed.
Lemma rPv_off : eachT off_switch rP rPv.
Proof.
  pose proof PI_gt2. exists [[1; -1]; [1; 0; 0]; [2; 0; 0]]. split; [reflexivity|].
  repeat (apply Forall2_cons || apply Forall2_nil); (split; [reflexivity|]); cbn [off_switch]; auto;
    right; rewrite rnorm100; lra.
Qed.
Lemma rM_leaf : exists h a b, rM = Leaf h (LSO3 MapMatrix) a b /\ leaf_wf h (LSO3 MapMatrix) a b.
Proof. do 3 eexists. split; [reflexivity|]. repeat split. Qed.
Lemma rQ_leaf : exists h a b, rQ = Leaf h (LSO3 MapQuat) a b /\ leaf_wf h (LSO3 MapQuat) a b.
Proof. do 3 eexists. split; [reflexivity|]. repeat split. Qed.
Lemma rS2_leaf : exists h a b, rS2 = Leaf h LS2 a b /\ leaf_wf h LS2 a b.
Proof. do 3 eexists. split; [reflexivity|]. repeat split. Qed.
