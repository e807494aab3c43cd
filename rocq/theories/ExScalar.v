(** A computable scalar type, used only in the concrete examples beside the theorems. *)
From Coq Require Import ZArith List String.
From Verif Require Import Base Scalar Vec Model_Manifold.
Import ListNotations.

#[export] Instance ZScalar : Scalar Z := {|
  k0 := 0%Z; k1 := 1%Z; kadd := Z.add; ksum := foldsum 0%Z Z.add; ksub := Z.sub; kmul := Z.mul; kdiv := Z.div; kopp := Z.opp;
  kabs := Z.abs; ksqrt := Z.sqrt; kcos := fun _ => 1%Z; ksin := fun x => x; kacos := fun _ => 0%Z;
  katan2 := fun _ _ => 0%Z; kltb := Z.ltb; kleb := Z.leb; keqb := Z.eqb;
  klit := fun n d => (- ((- n) / Z.pos d))%Z; kpi := 3%Z; kinf := 1000000%Z |}.

Definition get {A} (d : A) (r : res A) : A := match r with Ok a => a | Fail _ => d end.

(** R^2, R^3 and the nested product (R^2 x (R^3 x S2)) x SO3. *)
Definition exR2 : mfd Z := get prod_empty (mk_real 2).
Definition exR3 : mfd Z := get prod_empty (mk_real 3).
Definition exS2 : mfd Z := get prod_empty mk_s2.
Definition exSO3 : mfd Z := get prod_empty (mk_so3 MapQuat).
Definition exSO3m : mfd Z := get prod_empty (mk_so3 MapMatrix).
Definition exP1 : mfd Z := get prod_empty (prod2 exR3 exS2).
Definition exP2 : mfd Z := get prod_empty (prod2 exR2 exP1).
Definition exP : mfd Z := get prod_empty (prod2 exP2 exSO3).
