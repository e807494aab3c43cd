(** The release build (NDEBUG defined): mnf_assert and assert expand to nothing
    (include/manifolds/mnf_assert.h:29-42), so that their arguments, calls to isInTxM included
    (Manifold.cpp:136, 250, 265, 280), are not evaluated; nothing else in src/ and include/ depends on NDEBUG
    (ValidManifold.h:35 aside, not modelled).  Eigen's own assertions disappear as well: [Fail EEigen] and
    [Fail EUB] are here the calls about which nothing is said (an access outside a buffer or a size
    mismatch inside Eigen).  Each definition is the one of Model_S2.v, Model_SO3.v or Model_Manifold.v without
    its assertions; members without assertions are shared with the debug build. *)
From Coq Require Import List Arith Bool ZArith.
From Verif Require Import Base Scalar Vec Model_Real Model_S2 Model_SO3 Model_Manifold.
Import ListNotations.

Section Release.
Context {K : Type} {SK : Scalar K}.

(** utils::computeRotBetweenVec (utils.cpp:45-58). *)
Definition computeRotBetweenVec_r (x y : vec K) : res (m3 K) :=
  x <- as_vec3 x ;;
  y <- as_vec3 y ;;
  let acrossb := cross x y in
  let adotb := dot x y in
  h <- hat acrossb ;;
  h2 <- hat2 acrossb ;;
  Ok (m3_map2 kadd (m3_map2 kadd m3_id h) (m3_divs h2 (k1 + adotb)%k)).

(** S2::rand (S2.cpp:129-135); the random vector is the argument [draw]. *)
Definition s2_rand_r (out draw : vec K) : res (vec K) :=
  out' <- assign out draw ;;
  assign out' (vdivs out' (norm out')).

(** S2::applyTransport_ (S2.cpp:189-201); [y] is what the call retractation(y, x, v) stored. *)
Definition s2_applyTransport_r (out inp : mat K) (x y : vec K) : res (mat K) :=
  R <- computeRotBetweenVec_r x y ;; m3_on_cols R out inp.

(** S2::applyInvTransport_ (S2.cpp:203-215). *)
Definition s2_applyInvTransport_r (out inp : mat K) (x y : vec K) : res (mat K) :=
  R <- computeRotBetweenVec_r x y ;; m3_on_cols (m3_trans R) out inp.

(** S2::applyInvTransportOnTheRight_ (S2.cpp:217-230): out.row(i) = in.row(i) * R^T,
    i.e. the coefficients of R * in.row(i)^T. *)
Definition s2_applyInvTransportOnTheRight_r (out inp : mat K) (x y : vec K) : res (mat K) :=
  R <- computeRotBetweenVec_r x y ;;
  _ <- eigen_assert ((ncols inp =? 3) && (ncols out =? 3) && (mrows inp =? mrows out)) ;;
  Ok (mbuild (mrows inp) 3 (fun i j => nth j (m3_mulv R (mrow inp i)) k0)).

(** ExpMapMatrix::exponential (ExpMapMatrix.cpp:70-94). *)
Definition em_exponential_r (v : vec K) : res (m3 K) :=
  match v with
  | [vx; vy; vz] =>
      let n := sqnorm v in
      let '(c, s) :=
        if (n <? map_prec)%k
        then ((klit 1 2 - n / klit 24 1)%k, (k1 - n / klit 6 1)%k)
        else let t := ksqrt n in (((k1 - kcos t) / n)%k, (ksin t / t)%k) in
      Ok (M3 (k1 - c * (vy * vy + vz * vz))%k (- s * vz + c * vx * vy)%k (s * vy + c * vx * vz)%k
             (s * vz + c * vx * vy)%k (k1 - c * (vx * vx + vz * vz))%k (- s * vx + c * vy * vz)%k
             (- s * vy + c * vx * vz)%k (s * vx + c * vy * vz)%k (k1 - c * (vx * vx + vy * vy))%k)
  | _ => Fail EEigen
  end.

(** ExpMapMatrix::retractation_ (ExpMapMatrix.cpp:62-68); Eigen evaluates the product into a
    temporary before writing [out]. *)
Definition em_retractation_r (out x v : vec K) : res (vec K) :=
  E <- em_exponential_r v ;;
  X <- m3_read x ;;
  raw_write out (m3_to_list (m3_mul X E)).

(** ExpMapMatrix::forceOnM_ (ExpMapMatrix.cpp:141-174): Gram-Schmidt on the columns of a copy of the
    input, Q written column by column at out.data(). *)
Definition em_forceOnM_r (out inp : vec K) : res (vec K) :=
  M <- m3_read inp ;;
  let A0 := col0 M in let A1 := col1 M in let A2 := col2 M in
  let R00 := norm A0 in
  let Q0 := vdivs A0 R00 in
  let R01 := dot Q0 A1 in
  let A1 := vsub A1 (map (fun q => (q * R01)%k) Q0) in
  let R02 := dot Q0 A2 in
  let A2 := vsub A2 (map (fun q => (q * R02)%k) Q0) in
  let R11 := norm A1 in
  let Q1 := vdivs A1 R11 in
  let R12 := dot Q1 A2 in
  let A2 := vsub A2 (map (fun q => (q * R12)%k) Q1) in
  let R22 := norm A2 in
  let Q2 := vdivs A2 R22 in
  raw_write out (Q0 ++ Q1 ++ Q2).

(** ExpMapMatrix::applyDiffRetractation_ (ExpMapMatrix.cpp:190-198); the product goes through the
    temporary map, then is copied to [out]. *)
Definition em_applyDiffRetractation_r (out inp : mat K) (x : vec K) : res (mat K) :=
  J <- em_diffRetractation x ;;
  massign out (mmul inp J).

(** ExpMapMatrix::applyDiffPseudoLog0_ (ExpMapMatrix.cpp:241-250). *)
Definition em_applyDiffPseudoLog0_r (out inp : mat K) (x : vec K) : res (mat K) :=
  J <- em_diffPseudoLog0 x ;;
  massign out (mmul inp J).

(** ExpMapQuaternion::exponential (ExpMapQuaternion.cpp:77-97).  [q0] is the uninitialised content of
    the output, read by the ReverseQuaternion temporaries. *)
Definition eq_exponential_r (q0 : quat K) (v : vec K) : res (quat K) :=
  match v with
  | [vx; vy; vz] =>
      let n2 := sqnorm v in
      let '(w, s) :=
        if (n2 <? map_prec)%k
        then ((k1 + (- k1 + n2 / klit 48 1) * (n2 / klit 8 1))%k,
              ((k1 + (- k1 + klit 1 80 * n2) * n2 / klit 24 1) / klit 2 1)%k)
        else let t := ksqrt n2 in
             (kcos (klit 1 2 * t)%k, (ksin (klit 1 2 * t)%k / t)%k) in
      let q1 := Q4 w (qx q0) (qy q0) (qz q0) in       (* toQuat(q.data()).w() = w  *)
      Ok (Q4 (qw q1) (s * vx)%k (s * vy)%k (s * vz)%k) (* toQuat(q.data()).vec() = s*v *)
  | _ => Fail EEigen
  end.

(** ExpMapQuaternion::retractation_ (ExpMapQuaternion.cpp:68-75); [q0] is the uninitialised content of
    the local quaternion. *)
Definition eq_retractation_at_r (q0 : quat K) (out x v : vec K) : res (vec K) :=
  q <- eq_exponential_r q0 v ;;
  X <- quat_read x ;;
  _ <- quat_read out ;;
  quat_write out (qmul X q).
Definition eq_retractation_r (out x v : vec K) : res (vec K) := eq_retractation_at_r junk_quat out x v.

(** ExpMapQuaternion::applyDiffRetractation_ (ExpMapQuaternion.cpp:168-176). *)
Definition eq_applyDiffRetractation_r (out inp : mat K) (x : vec K) : res (mat K) :=
  J <- eq_diffRetractation x ;;
  massign out (mmul inp J).

(** ExpMapQuaternion::applyDiffPseudoLog0_ (ExpMapQuaternion.cpp:248-257). *)
Definition eq_applyDiffPseudoLog0_r (out inp : mat K) (x : vec K) : res (mat K) :=
  J <- eq_diffPseudoLog0 x ;;
  massign out (mmul inp J).

(** operator()(i) (RealSpace.cpp:79-83, S2.cpp:72-76, SO3.h:148-153, CartesianProduct.cpp:131-135). *)
Definition subManifold_r (m : mfd K) (i : nat) : res (mfd K) :=
  match m with
  | Leaf _ _ _ _ => Ok m
  | Prod _ _ _ subs => at_ subs i
  end.

(** getDim<D>(i) (Manifold.h:460-472). *)
Definition getDimSub_r (D : edim) (m : mfd K) (i : nat) : res nat :=
  s <- subManifold_r m i ;; Ok (getDim D s).

(** getStart<D>(i), startR, startT (Manifold.h:434-446, 474-484; CartesianProduct.h:118-128). *)
Definition getStart_r (D : edim) (m : mfd K) (i : nat) : res nat :=
  match m with
  | Leaf _ _ _ _ => Ok 0
  | Prod _ sT sR subs =>
      at_ (match D with DR => sR | DT => sT end) i
  end.

(** Range of getView<D>(val, i) / getConstView<D>(val, i) (Manifold.h:417-432). *)
Definition view_range_r (D : edim) (m : mfd K) (len i : nat) : res (nat * nat) :=
  s <- getStart_r D m i ;;
  d <- getDimSub_r D m i ;;
  Ok (s, d).

(** Reading getConstView<D>(val, i) (Manifold.h:425-432). *)
Definition getView_r (D : edim) (m : mfd K) (val : vec K) (i : nat) : res (vec K) :=
  '(s, d) <- view_range_r D m (List.length val) i ;; segment val s d.

(** Passing getView<D>(out, i) (Manifold.h:417-424) as an output argument to [f]. *)
Definition on_view_r (D : edim) (m : mfd K) (i : nat) (f : vec K -> res (vec K)) (out : vec K)
  : res (vec K) :=
  '(s, d) <- view_range_r D m (List.length out) i ;;
  o <- segment out s d ;;
  r <- f o ;;
  Ok (set_segment out s r).

(** getView<F, D>(val, i) = val.middleCols(getStart<D>(i), getDim<D>(i)) (Manifold.h:517-543). *)
Definition getCols_r (D : edim) (m : mfd K) (M : mat K) (i : nat) : res (mat K) :=
  s <- getStart_r D m i ;; d <- getDimSub_r D m i ;; middleCols M s d.
Definition on_cols_r (D : edim) (m : mfd K) (i : nat) (f : mat K -> res (mat K)) (out : mat K)
  : res (mat K) :=
  s <- getStart_r D m i ;; d <- getDimSub_r D m i ;;
  B <- middleCols out s d ;; B' <- f B ;; Ok (set_middleCols out s B').

(** getView<D, F>(val, i) = val.middleRows(getStart<D>(i), getDim<D>(i)) (Manifold.h:545-573). *)
Definition getRows_r (D : edim) (m : mfd K) (M : mat K) (i : nat) : res (mat K) :=
  s <- getStart_r D m i ;; d <- getDimSub_r D m i ;; middleRows M s d.
Definition on_rows_r (D : edim) (m : mfd K) (i : nat) (f : mat K -> res (mat K)) (out : mat K)
  : res (mat K) :=
  s <- getStart_r D m i ;; d <- getDimSub_r D m i ;;
  B <- middleRows out s d ;; B' <- f B ;; Ok (set_middleRows out s B').

(** getView<Dr, Dc>(val, ir, ic) (Manifold.h:486-515). *)
Definition on_block_r (Dr Dc : edim) (m : mfd K) (ir ic : nat) (f : mat K -> res (mat K)) (out : mat K)
  : res (mat K) :=
  sr <- getStart_r Dr m ir ;; sc <- getStart_r Dc m ic ;;
  dr <- getDimSub_r Dr m ir ;; dc <- getDimSub_r Dc m ic ;;
  B <- block out sr sc dr dc ;; B' <- f B ;; Ok (set_block out sr sc B').

(** Manifold::isInM (Manifold.cpp:62-67) and the isInM_ members; CartesianProduct::isInM_
    (CartesianProduct.cpp:50-58) ignores its precision and calls the factors with the default one. *)
Fixpoint isInM_r (m : mfd K) (val : vec K) (prec : K) : res bool :=
  match m with
  | Leaf h LReal _ _ => Ok (real_isInM (h_dim h) val)
  | Leaf _ LS2 _ _ => Ok (s2_isInM val prec)
  | Leaf _ (LSO3 MapMatrix) _ _ => em_isInM val prec
  | Leaf _ (LSO3 MapQuat) _ _ => eq_isInM val prec
  | Prod _ _ _ subs =>
      loop (fun i s (out : bool) =>
              if out then (x <- getView_r DR m val i ;; isInM_r s x default_prec) else Ok false)
           0 subs true
  end.

(** Manifold::forceOnM (Manifold.cpp:69-75), CartesianProduct::forceOnM_ (CartesianProduct.cpp:60-64). *)
Fixpoint forceOnM_r (m : mfd K) (out inp : vec K) : res (vec K) :=
  match m with
  | Leaf _ LReal _ _ => real_forceOnM out inp
  | Leaf _ LS2 _ _ => s2_forceOnM out inp
  | Leaf _ (LSO3 MapMatrix) _ _ => em_forceOnM_r out inp
  | Leaf _ (LSO3 MapQuat) _ _ => eq_forceOnM out inp
  | Prod _ _ _ subs =>
      loop (fun i s out => on_view_r DR m i (fun o => x <- getView_r DR m inp i ;; forceOnM_r s o x) out)
           0 subs out
  end.

(** Manifold::isInTxM (Manifold.cpp:325-332), CartesianProduct::isInTxM_ (CartesianProduct.cpp:290-298:
    the loop stops at the first false). *)
Fixpoint isInTxM_r (m : mfd K) (x v : vec K) (prec : K) : res bool :=
  match m with
  | Leaf _ LS2 _ _ => Ok (s2_isInTxM x v prec)
  | Leaf _ _ _ _ => Ok true
  | Prod _ _ _ subs =>
      loop (fun i s (b : bool) =>
              if b then (xi <- getView_r DR m x i ;; vi <- getView_r DT m v i ;; isInTxM_r s xi vi prec)
              else Ok false)
           0 subs true
  end.

(** Manifold::retractation (Manifold.cpp:129-138), CartesianProduct::retractation_
    (CartesianProduct.cpp:158-166). *)
Fixpoint retractation_r (m : mfd K) (out x v : vec K) : res (vec K) :=
  match m with
  | Leaf _ LReal _ _ => real_retractation out x v
  | Leaf _ LS2 _ _ => s2_retractation out x v
  | Leaf _ (LSO3 MapMatrix) _ _ => em_retractation_r out x v
  | Leaf _ (LSO3 MapQuat) _ _ => eq_retractation_r out x v
  | Prod _ _ _ subs =>
      loop (fun i s out =>
              on_view_r DR m i (fun o => xi <- getView_r DR m x i ;; vi <- getView_r DT m v i ;;
                                       retractation_r s o xi vi) out)
           0 subs out
  end.

(** Manifold::pseudoLog (Manifold.cpp:156-164), CartesianProduct::pseudoLog_
    (CartesianProduct.cpp:168-176). *)
Fixpoint pseudoLog_r (m : mfd K) (out x y : vec K) : res (vec K) :=
  match m with
  | Leaf _ LReal _ _ => real_pseudoLog out x y
  | Leaf _ LS2 _ _ => s2_pseudoLog out x y
  | Leaf _ (LSO3 MapMatrix) _ _ => em_pseudoLog out x y
  | Leaf _ (LSO3 MapQuat) _ _ => eq_pseudoLog out x y
  | Prod _ _ _ subs =>
      loop (fun i s out =>
              on_view_r DT m i (fun o => xi <- getView_r DR m x i ;; yi <- getView_r DR m y i ;;
                                       pseudoLog_r s o xi yi) out)
           0 subs out
  end.

(** Manifold::pseudoLog0 (Manifold.cpp:182-187), CartesianProduct::pseudoLog0_
    (CartesianProduct.cpp:178-184); S2 throws (S2.cpp:153-156). *)
Fixpoint pseudoLog0_r (m : mfd K) (out x : vec K) : res (vec K) :=
  match m with
  | Leaf _ LReal _ _ => real_pseudoLog0 out x
  | Leaf _ LS2 _ _ => Fail EThrow
  | Leaf _ (LSO3 MapMatrix) _ _ => em_pseudoLog0 out x
  | Leaf _ (LSO3 MapQuat) _ _ => eq_pseudoLog0 out x
  | Prod _ _ _ subs =>
      loop (fun i s out =>
              on_view_r DT m i (fun o => xi <- getView_r DR m x i ;; pseudoLog0_r s o xi) out)
           0 subs out
  end.

(** Manifold::setZero (Manifold.cpp:309-314), CartesianProduct::setZero_ (CartesianProduct.cpp:186-190). *)
Fixpoint setZero_r (m : mfd K) (out : vec K) : res (vec K) :=
  match m with
  | Leaf _ LReal _ _ => Ok (real_setZero out)
  | Leaf _ LS2 _ _ => s2_setZero out
  | Leaf _ (LSO3 MapMatrix) _ _ => em_setZero out
  | Leaf _ (LSO3 MapQuat) _ _ => eq_setZero out
  | Prod _ _ _ subs => loop (fun i s out => on_view_r DR m i (setZero_r s) out) 0 subs out
  end.

(** Manifold::forceOnTxM (Manifold.cpp:334-342), CartesianProduct::forceOnTxM_
    (CartesianProduct.cpp:300-306). *)
Fixpoint forceOnTxM_r (m : mfd K) (out inp x : vec K) : res (vec K) :=
  match m with
  | Leaf _ LReal _ _ => real_forceOnTxM out inp
  | Leaf _ LS2 _ _ => s2_forceOnTxM out inp x
  | Leaf _ (LSO3 _) _ _ => so3_forceOnTxM out inp
  | Prod _ _ _ subs =>
      loop (fun i s out =>
              on_view_r DT m i (fun o => wi <- getView_r DT m inp i ;; xi <- getView_r DR m x i ;;
                                       forceOnTxM_r s o wi xi) out)
           0 subs out
  end.

(** Manifold::limitMap (Manifold.cpp:352-356), CartesianProduct::limitMap_ (CartesianProduct.cpp:308-312). *)
Fixpoint limitMap_r (m : mfd K) (out : vec K) : res (vec K) :=
  match m with
  | Leaf _ LReal _ _ => Ok (real_limitMap out)
  | Leaf _ LS2 _ _ => Ok (s2_limitMap out)
  | Leaf _ (LSO3 _) _ _ => Ok (so3_limitMap out)
  | Prod _ _ _ subs => loop (fun i s out => on_view_r DT m i (limitMap_r s) out) 0 subs out
  end.

(** Manifold::getTypicalMagnitude(out) (Manifold.cpp:358-362) and getTrustMagnitude(out) (371-375),
    CartesianProduct (CartesianProduct.cpp:314-324), leaves (RealSpace.cpp:178-181, 195; S2.cpp:255, 268;
    SO3.h:285-289, 304-308). *)
Fixpoint getTypicalMagnitude_r (m : mfd K) (out : vec K) : res (vec K) :=
  match m with
  | Leaf _ _ typ _ => assign out typ
  | Prod _ _ _ subs => loop (fun i s out => on_view_r DT m i (getTypicalMagnitude_r s) out) 0 subs out
  end.
Fixpoint getTrustMagnitude_r (m : mfd K) (out : vec K) : res (vec K) :=
  match m with
  | Leaf _ _ _ tru => assign out tru
  | Prod _ _ _ subs => loop (fun i s out => on_view_r DT m i (getTrustMagnitude_r s) out) 0 subs out
  end.

(** Manifold::diffRetractation (Manifold.cpp:205-210), CartesianProduct::diffRetractation_
    (CartesianProduct.cpp:192-202); S2 throws (S2.cpp:165-169).  Assigning the factor's Jacobian to
    the block asserts that the sizes agree. *)
Fixpoint diffRetractation_r (m : mfd K) (x : vec K) : res (mat K) :=
  match m with
  | Leaf h LReal _ _ => Ok (mident (h_rdim h) (h_dim h))
  | Leaf _ LS2 _ _ => Fail EThrow
  | Leaf _ (LSO3 MapMatrix) _ _ => em_diffRetractation x
  | Leaf _ (LSO3 MapQuat) _ _ => eq_diffRetractation x
  | Prod h _ _ subs =>
      loop (fun i s J =>
              on_block_r DR DT m i i (fun B => xi <- getView_r DR m x i ;; Ji <- diffRetractation_r s xi ;;
                                             massign B Ji) J)
           0 subs (mzero (h_rdim h) (h_tdim h))
  end.

(** Manifold::applyDiffRetractation (Manifold.cpp:212-221), CartesianProduct::applyDiffRetractation_
    (CartesianProduct.cpp:204-213). *)
Fixpoint applyDiffRetractation_r (m : mfd K) (out inp : mat K) (x : vec K) : res (mat K) :=
  match m with
  | Leaf _ LReal _ _ => real_copy out inp
  | Leaf _ LS2 _ _ => s2_applyDiffRetractation out inp x
  | Leaf _ (LSO3 MapMatrix) _ _ => em_applyDiffRetractation_r out inp x
  | Leaf _ (LSO3 MapQuat) _ _ => eq_applyDiffRetractation_r out inp x
  | Prod _ _ _ subs =>
      loop (fun i s out =>
              on_cols_r DT m i (fun o => ci <- getCols_r DR m inp i ;; xi <- getView_r DR m x i ;;
                                       applyDiffRetractation_r s o ci xi) out)
           0 subs out
  end.

(** Manifold::diffPseudoLog0 (Manifold.cpp:223-228), CartesianProduct::diffPseudoLog0_
    (CartesianProduct.cpp:215-225); S2 throws (S2.cpp:177-181). *)
Fixpoint diffPseudoLog0_r (m : mfd K) (x : vec K) : res (mat K) :=
  match m with
  | Leaf h LReal _ _ => Ok (mident (h_rdim h) (h_dim h))
  | Leaf _ LS2 _ _ => Fail EThrow
  | Leaf _ (LSO3 MapMatrix) _ _ => em_diffPseudoLog0 x
  | Leaf _ (LSO3 MapQuat) _ _ => eq_diffPseudoLog0 x
  | Prod h _ _ subs =>
      loop (fun i s J =>
              on_block_r DT DR m i i (fun B => xi <- getView_r DR m x i ;; Ji <- diffPseudoLog0_r s xi ;;
                                             massign B Ji) J)
           0 subs (mzero (h_tdim h) (h_rdim h))
  end.

(** Manifold::applyDiffPseudoLog0 (Manifold.cpp:230-239), CartesianProduct::applyDiffPseudoLog0_
    (CartesianProduct.cpp:227-236); S2 throws (S2.cpp:183-187). *)
Fixpoint applyDiffPseudoLog0_r (m : mfd K) (out inp : mat K) (x : vec K) : res (mat K) :=
  match m with
  | Leaf _ LReal _ _ => real_copy out inp
  | Leaf _ LS2 _ _ => Fail EThrow
  | Leaf _ (LSO3 MapMatrix) _ _ => em_applyDiffPseudoLog0_r out inp x
  | Leaf _ (LSO3 MapQuat) _ _ => eq_applyDiffPseudoLog0_r out inp x
  | Prod _ _ _ subs =>
      loop (fun i s out =>
              on_cols_r DR m i (fun o => ci <- getCols_r DT m inp i ;; xi <- getView_r DR m x i ;;
                                       applyDiffPseudoLog0_r s o ci xi) out)
           0 subs out
  end.

(** Manifold::applyTransport (Manifold.cpp:241-253), CartesianProduct::applyTransport_
    (CartesianProduct.cpp:238-248).  S2::applyTransport_ first calls the public retractation. *)
Fixpoint applyTransport_r (m : mfd K) (out inp : mat K) (x v : vec K) : res (mat K) :=
  match m with
  | Leaf _ LReal _ _ => real_copy out inp
  | Leaf _ LS2 _ _ => y <- retractation_r m (vconst 3 k0) x v ;; s2_applyTransport_r out inp x y
  | Leaf _ (LSO3 _) _ _ => so3_copy out inp
  | Prod _ _ _ subs =>
      loop (fun i s out =>
              on_rows_r DT m i (fun o => ri <- getRows_r DT m inp i ;; xi <- getView_r DR m x i ;;
                                       vi <- getView_r DT m v i ;; applyTransport_r s o ri xi vi) out)
           0 subs out
  end.

(** Manifold::applyInvTransport (Manifold.cpp:255-268), CartesianProduct::applyInvTransport_
    (CartesianProduct.cpp:250-260): the product takes *column* views. *)
Fixpoint applyInvTransport_r (m : mfd K) (out inp : mat K) (x v : vec K) : res (mat K) :=
  match m with
  | Leaf _ LReal _ _ => real_copy out inp
  | Leaf _ LS2 _ _ => y <- retractation_r m (vconst 3 k0) x v ;; s2_applyInvTransport_r out inp x y
  | Leaf _ (LSO3 _) _ _ => so3_copy out inp
  | Prod _ _ _ subs =>
      loop (fun i s out =>
              on_cols_r DT m i (fun o => ci <- getCols_r DT m inp i ;; xi <- getView_r DR m x i ;;
                                       vi <- getView_r DT m v i ;; applyInvTransport_r s o ci xi vi) out)
           0 subs out
  end.

(** Manifold::applyInvTransportOnTheRight (Manifold.cpp:270-283),
    CartesianProduct::applyInvTransportOnTheRight_ (CartesianProduct.cpp:262-273). *)
Fixpoint applyInvTransportOnTheRight_r (m : mfd K) (out inp : mat K) (x v : vec K) : res (mat K) :=
  match m with
  | Leaf _ LReal _ _ => real_copy out inp
  | Leaf _ LS2 _ _ =>
      y <- retractation_r m (vconst 3 k0) x v ;; s2_applyInvTransportOnTheRight_r out inp x y
  | Leaf _ (LSO3 _) _ _ => so3_copy out inp
  | Prod _ _ _ subs =>
      loop (fun i s out =>
              on_cols_r DT m i (fun o => ci <- getCols_r DT m inp i ;; xi <- getView_r DR m x i ;;
                                       vi <- getView_r DT m v i ;;
                                       applyInvTransportOnTheRight_r s o ci xi vi) out)
           0 subs out
  end.

(** Manifold::tangentConstraint (Manifold.cpp:316-323), CartesianProduct::tangentConstraint_
    (CartesianProduct.cpp:275-288); RealSpace and SO3 leave the empty matrix alone
    (RealSpace.cpp:156-159, ExpMapMatrix.cpp:290-293, ExpMapQuaternion.cpp:298-301).
    The loop carries (out, k). *)
Fixpoint tangentConstraint_r (m : mfd K) (out : mat K) (x : vec K) : res (mat K) :=
  match m with
  | Leaf _ LS2 _ _ => s2_tangentConstraint out x
  | Leaf _ _ _ _ => Ok out
  | Prod _ _ _ subs =>
      r <- loop (fun i s (st : mat K * nat) =>
                   let '(out, k) := st in
                   let sz := tangentDim s - dim s in
                   out' <- on_cols_r DT m i
                             (fun Ci => B <- middleRows Ci k sz ;; xi <- getView_r DR m x i ;;
                                        B' <- tangentConstraint_r s B xi ;;
                                        Ok (set_middleRows Ci k B')) out ;;
                   Ok (out', k + sz))
                0 subs (mzero (mrows out) (ncols out), 0) ;;
      Ok (fst r)
  end.

(** Manifold::getIdentityOnTxM (Manifold.cpp:344-350), CartesianProduct::getIdentityOnTxM_
    (CartesianProduct.cpp:66-78). *)
Fixpoint getIdentityOnTxM_r (m : mfd K) (out : mat K) (x : vec K) : res (mat K) :=
  match m with
  | Leaf _ LReal _ _ => Ok (real_getIdentityOnTxM out)
  | Leaf _ LS2 _ _ => s2_getIdentityOnTxM out x
  | Leaf _ (LSO3 _) _ _ => Ok (so3_getIdentityOnTxM out)
  | Prod _ _ _ subs =>
      loop (fun i s out =>
              out' <- on_block_r DT DT m i i (fun B => xi <- getView_r DR m x i ;;
                                                     getIdentityOnTxM_r s B xi) out ;;
              loop (fun _ j out =>
                      out1 <- on_block_r DT DT m i j (fun B => Ok (mzero (mrows B) (ncols B))) out ;;
                      on_block_r DT DT m j i (fun B => Ok (mzero (mrows B) (ncols B))) out1)
                   0 (seq 0 i) out')
           0 subs out
  end.

(** Manifold::createRandomPoint(out, coeff) (Manifold.cpp:95-100) and the createRandomPoint_ members
    (RealSpace.cpp:94-97, S2.cpp:86, SO3.h:167-173, CartesianProduct.cpp:152-156). *)
Fixpoint createRandomPoint_r (m : mfd K) (out : vec K) (coeff : K) (rnd : nat -> K) (pos : nat)
  : res (vec K * nat) :=
  match m with
  | Leaf h LReal _ _ =>
      r <- real_createRandomPoint out coeff (draw rnd pos (h_rdim h)) ;; Ok (r, pos + h_rdim h)
  | Leaf _ LS2 _ _ => r <- s2_rand_r out (draw rnd pos 3) ;; Ok (r, pos + 3)
  | Leaf _ (LSO3 mp) _ _ =>
      z <- match mp with MapMatrix => em_setZero out | MapQuat => eq_setZero out end ;;
      r <- retractation_r m z z (vscale coeff (draw rnd pos 3)) ;; Ok (r, pos + 3)
  | Prod _ _ _ subs =>
      loop (fun i s (st : vec K * nat) =>
              let '(out, pos) := st in
              '(b, d) <- view_range_r DR m (List.length out) i ;;
              o <- segment out b d ;;
              '(r, pos') <- createRandomPoint_r s o coeff rnd pos ;;
              Ok (set_segment out b r, pos'))
           0 subs (out, pos)
  end.

End Release.
