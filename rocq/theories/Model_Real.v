(** RealSpace (src/RealSpace.cpp).  [n] is the space's dimension (dim = tangentDim =
    representationDim = n, RealSpace.cpp:25). *)
From Coq Require Import List Arith Bool ZArith.
From Verif Require Import Base Scalar Vec.
Import ListNotations.

Section Real.
Context {K : Type} {SK : Scalar K}.

(** RealSpace::isInM_ (RealSpace.cpp:54-58): only the size is checked. *)
Definition real_isInM (n : nat) (val : vec K) : bool := n =? length val.

(** RealSpace::forceOnM_ (RealSpace.cpp:60). *)
Definition real_forceOnM (out inp : vec K) : res (vec K) := assign out inp.

(** RealSpace::getIdentityOnTxM_ (RealSpace.cpp:62-65). *)
Definition real_getIdentityOnTxM (out : mat K) : mat K := mident (mrows out) (ncols out).

(** RealSpace::createRandomPoint_ (RealSpace.cpp:94-97); the random vector is the argument [draw]. *)
Definition real_createRandomPoint (out : vec K) (coeff : K) (draw : vec K) : res (vec K) :=
  assign out (vscale coeff draw).

(** RealSpace::retractation_ (RealSpace.cpp:99-103). *)
Definition real_retractation (out x v : vec K) : res (vec K) :=
  _ <- same_size x v ;; assign out (vadd x v).

(** RealSpace::pseudoLog_ (RealSpace.cpp:105-109). *)
Definition real_pseudoLog (out x y : vec K) : res (vec K) :=
  _ <- same_size y x ;; assign out (vsub y x).

(** RealSpace::pseudoLog0_ (RealSpace.cpp:111). *)
Definition real_pseudoLog0 (out x : vec K) : res (vec K) := assign out x.

(** RealSpace::setZero_ (RealSpace.cpp:113). *)
Definition real_setZero (out : vec K) : vec K := vconst (length out) k0.

(** RealSpace::diffRetractation_ and diffPseudoLog0_ (RealSpace.cpp:115-118, 126-129). *)
Definition real_diff (n : nat) : mat K := mident n n.

(** RealSpace::applyDiffRetractation_, applyDiffPseudoLog0_, applyTransport_,
    applyInvTransport_, applyInvTransportOnTheRight_ (RealSpace.cpp:120-154): all [out = in]. *)
Definition real_copy (out inp : mat K) : res (mat K) := massign out inp.

(** RealSpace::forceOnTxM_ (RealSpace.cpp:167-171). *)
Definition real_forceOnTxM (out inp : vec K) : res (vec K) := assign out inp.

(** RealSpace::limitMap_ (RealSpace.cpp:173-176). *)
Definition real_limitMap (out : vec K) : vec K := vconst (length out) kinf.

End Real.
