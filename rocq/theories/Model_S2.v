(** S2 (src/S2.cpp) and the helpers of src/utils.cpp it uses. *)
From Coq Require Import List Arith Bool ZArith.
From Verif Require Import Base Scalar Vec.
Import ListNotations.

Section S2.
Context {K : Type} {SK : Scalar K}.

(** utils::hat (utils.cpp:28-31). *)
Definition hat (v : vec K) : res (m3 K) :=
  match v with
  | [v0; v1; v2] => Ok (M3 k0 (- v2)%k v1
                           v2 k0 (- v0)%k
                           (- v1)%k v0 k0)
  | _ => Fail EEigen
  end.

(** utils::hat2 (utils.cpp:32-43). *)
Definition hat2 (v : vec K) : res (m3 K) :=
  match v with
  | [v0; v1; v2] =>
      let v0v1 := (v0 * v1)%k in
      let v1v2 := (v1 * v2)%k in
      let v2v0 := (v2 * v0)%k in
      let v0_2 := (v0 * v0)%k in
      let v1_2 := (v1 * v1)%k in
      let v2_2 := (v2 * v2)%k in
      Ok (M3 (- v1_2 - v2_2)%k v0v1 v2v0
             v0v1 (- v0_2 - v2_2)%k v1v2
             v2v0 v1v2 (- v0_2 - v1_2)%k)
  | _ => Fail EEigen
  end.

(** utils::computeRotBetweenVec (utils.cpp:45-58). *)
Definition computeRotBetweenVec (x y : vec K) : res (m3 K) :=
  x <- as_vec3 x ;;
  y <- as_vec3 y ;;
  let acrossb := cross x y in
  let adotb := dot x y in
  _ <- mnf_assert (klit 1 1000000000000 <? k1 + adotb)%k ;;
  h <- hat acrossb ;;
  h2 <- hat2 acrossb ;;
  Ok (m3_map2 kadd (m3_map2 kadd m3_id h) (m3_divs h2 (k1 + adotb)%k)).

(** S2::isInM_ (S2.cpp:49-53). *)
Definition s2_isInM (val : vec K) (prec : K) : bool := (kabs (norm val - k1)%k <? prec)%k.

(** S2::forceOnM_ (S2.cpp:55-58). *)
Definition s2_forceOnM (out inp : vec K) : res (vec K) := assign out (vdivs inp (norm inp)).

(** S2::getIdentityOnTxM_ (S2.cpp:60-66). *)
Definition s2_getIdentityOnTxM (out : mat K) (x : vec K) : res (mat K) :=
  x <- as_vec3 x ;;
  _ <- eigen_assert ((mrows out =? 3) && (ncols out =? 3)) ;;
  Ok (mbuild 3 3 (fun i j => (delta i j - nth i x k0 * nth j x k0)%k)).

(** S2::retractation_ (S2.cpp:88-94). *)
Definition s2_retractation (out x v : vec K) : res (vec K) :=
  _ <- same_size x v ;;
  sum <- as_vec3 (vadd x v) ;;
  assign out (vdivs sum (norm sum)).

(** S2::projVec (S2.cpp:124-127). *)
Definition s2_projVec (out inp x : vec K) : res (vec K) :=
  _ <- same_size x inp ;;
  assign out (vsub inp (vscale (dot x inp) x)).

(** S2::distance (S2.cpp:110-113). *)
Definition s2_distance (x y : vec K) : res K :=
  _ <- same_size x y ;; Ok (kacos (dot x y)).

(** S2::logarithm (S2.cpp:102-108), called by pseudoLog_ (S2.cpp:96-100).
    projDiff starts uninitialised; its previous content is the argument [junk]. *)
Definition s2_logarithm (junk out x y : vec K) : res (vec K) :=
  _ <- same_size y x ;;
  diff <- as_vec3 (vsub y x) ;;
  projDiff <- s2_projVec junk diff x ;;
  d <- s2_distance x y ;;
  assign out (vdivs (vscale d projDiff) (norm projDiff)).
Definition s2_pseudoLog (out x y : vec K) : res (vec K) :=
  s2_logarithm (vconst 3 k0) out x y.

(** S2::projRows (S2.cpp:115-119): out.row(i) = in.row(i) - trace(x in.row(i)) x^T. *)
Definition s2_projRows (out inp : mat K) (x : vec K) : res (mat K) :=
  _ <- eigen_assert ((ncols inp =? length x) && (ncols out =? length x)
                     && (mrows inp =? mrows out)) ;;
  Ok (mbuild (mrows inp) (ncols inp)
        (fun i j => (mget inp i j - dot x (mrow inp i) * nth j x k0)%k)).

(** S2::projCols (S2.cpp:120-123). *)
Definition s2_projCols (out inp : mat K) (x : vec K) : res (mat K) :=
  _ <- eigen_assert ((mrows inp =? length x) && (mrows out =? length x)
                     && (ncols inp =? ncols out)) ;;
  Ok (Mat (mrows inp) (map (fun c => vsub c (vscale (dot x c) x)) (mcols_ inp))).

(** S2::rand (S2.cpp:129-135); the random vector is the argument [draw]. *)
Definition s2_rand (out draw : vec K) : res (vec K) :=
  _ <- mnf_assert (length out =? 3) ;;
  out' <- assign out draw ;;
  assign out' (vdivs out' (norm out')).

(** S2::randVec (S2.cpp:137-145). *)
Definition s2_randVec (out x draw : vec K) : res (vec K) :=
  _ <- mnf_assert (length out =? 3) ;;
  _ <- mnf_assert (length x =? 3) ;;
  out' <- assign out draw ;;
  out'' <- s2_projVec out' out' x ;;
  assign out'' (vdivs out'' (norm out'')).

(** S2::setZero_ (S2.cpp:158-163): comma initialiser of exactly 3 coefficients
    (the message on std::cout is not modelled). *)
Definition s2_setZero (out : vec K) : res (vec K) :=
  _ <- eigen_assert (length out =? 3) ;; Ok [k1; k0; k0].

(** S2::applyDiffRetractation_ (S2.cpp:171-175). *)
Definition s2_applyDiffRetractation (out inp : mat K) (x : vec K) : res (mat K) :=
  s2_projRows out inp x.

(** Loop shared by applyTransport_ and applyInvTransport_ (S2.cpp:196-200, 210-214): out.col(i) = A * in.col(i). *)
Definition m3_on_cols (A : m3 K) (out inp : mat K) : res (mat K) :=
  _ <- eigen_assert ((mrows inp =? 3) && (mrows out =? 3) && (ncols inp =? ncols out)) ;;
  Ok (Mat 3 (map (m3_mulv A) (mcols_ inp))).

(** S2::applyTransport_ (S2.cpp:189-201); [y] is what the call retractation(y, x, v) stored. *)
Definition s2_applyTransport (out inp : mat K) (x y : vec K) : res (mat K) :=
  R <- computeRotBetweenVec x y ;; m3_on_cols R out inp.

(** S2::applyInvTransport_ (S2.cpp:203-215). *)
Definition s2_applyInvTransport (out inp : mat K) (x y : vec K) : res (mat K) :=
  R <- computeRotBetweenVec x y ;; m3_on_cols (m3_trans R) out inp.

(** S2::applyInvTransportOnTheRight_ (S2.cpp:217-230): out.row(i) = in.row(i) * R^T,
    i.e. the coefficients of R * in.row(i)^T. *)
Definition s2_applyInvTransportOnTheRight (out inp : mat K) (x y : vec K) : res (mat K) :=
  R <- computeRotBetweenVec x y ;;
  _ <- eigen_assert ((ncols inp =? 3) && (ncols out =? 3) && (mrows inp =? mrows out)) ;;
  Ok (mbuild (mrows inp) 3 (fun i j => nth j (m3_mulv R (mrow inp i)) k0)).

(** S2::tangentConstraint_ (S2.cpp:232-235): out = x^T. *)
Definition s2_tangentConstraint (out : mat K) (x : vec K) : res (mat K) :=
  massign out (Mat 1 (map (fun a => [a]) x)).

(** S2::isInTxM_ (S2.cpp:237-242). *)
Definition s2_isInTxM (x v : vec K) (prec : K) : bool := (kabs (dot x v) <? prec)%k.

(** S2::forceOnTxM_ (S2.cpp:244-248). *)
Definition s2_forceOnTxM (out v x : vec K) : res (vec K) :=
  _ <- same_size x v ;; assign out (vsub v (vscale (dot x v) x)).

(** S2::limitMap_ (S2.cpp:250-253). *)
Definition s2_limitMap (out : vec K) : vec K := vconst (length out) kinf.

End S2.
