(** The two maps of SO3<Map>: ExpMapMatrix (src/ExpMapMatrix.cpp) and ExpMapQuaternion
    (src/ExpMapQuaternion.cpp), and the SO3 members that are not plain forwarding
    (include/manifolds/SO3.h). *)
From Coq Require Import List Arith Bool ZArith.
From Verif Require Import Base Scalar Vec.
Import ListNotations.

Section SO3.
Context {K : Type} {SK : Scalar K}.

(** * ExpMapMatrix *)

(** ExpMapMatrix::prec (ExpMapMatrix.cpp:55), ExpMapQuaternion::prec (ExpMapQuaternion.cpp:62-63). *)
Definition map_prec : K := klit 1 100000000.

(** ExpMapMatrix::exponential (ExpMapMatrix.cpp:70-94). *)
Definition em_exponential (v : vec K) : res (m3 K) :=
  match v with
  | [vx; vy; vz] =>
      let n := sqnorm v in
      _ <- mnf_assert (ksqrt n <? kpi)%k ;;
      let '(c, s) :=
        if (n <? map_prec)%k
        then ((klit 1 2 - n / klit 24 1)%k, (k1 - n / klit 6 1)%k)
        else let t := ksqrt n in (((k1 - kcos t) / n)%k, (ksin t / t)%k) in
      Ok (M3 (k1 - c * (vy * vy + vz * vz))%k (- s * vz + c * vx * vy)%k (s * vy + c * vx * vz)%k
             (s * vz + c * vx * vy)%k (k1 - c * (vx * vx + vz * vz))%k (- s * vx + c * vy * vz)%k
             (- s * vy + c * vx * vz)%k (s * vx + c * vy * vz)%k (k1 - c * (vx * vx + vy * vy))%k)
  | _ => Fail EAssert
  end.

(** ExpMapMatrix::retractation_ (ExpMapMatrix.cpp:62-68); Eigen evaluates the product into a
    temporary before writing [out]. *)
Definition em_retractation (out x v : vec K) : res (vec K) :=
  E <- em_exponential v ;;
  X <- m3_read x ;;
  raw_write out (m3_to_list (m3_mul X E)).

(** ExpMapMatrix::logarithm (ExpMapMatrix.cpp:109-124). *)
Definition em_logarithm (out : vec K) (R : m3 K) : res (vec K) :=
  let v := [(- a12 R)%k; a02 R; (- a01 R)%k] in
  let acosTr := kacos ((m3_trace R - k1) / klit 2 1)%k in
  if (norm v <? map_prec)%k then assign out v
  else
    let diff := m3_map2 ksub R (m3_trans R) in
    let coeff := (acosTr / (klit 2 1 * ksin acosTr))%k in
    assign out [(a21 diff * coeff)%k; (a02 diff * coeff)%k; (a10 diff * coeff)%k].

(** ExpMapMatrix::pseudoLog_ (ExpMapMatrix.cpp:96-101). *)
Definition em_pseudoLog (out x y : vec K) : res (vec K) :=
  X <- m3_read x ;; Y <- m3_read y ;;
  em_logarithm out (m3_mul (m3_trans X) Y).

(** ExpMapMatrix::pseudoLog0_ (ExpMapMatrix.cpp:103-107). *)
Definition em_pseudoLog0 (out x : vec K) : res (vec K) :=
  X <- m3_read x ;; em_logarithm out X.

(** ExpMapMatrix::setZero_ (ExpMapMatrix.cpp:126-129). *)
Definition em_setZero (out : vec K) : res (vec K) := raw_write out (m3_to_list m3_id).

(** ExpMapMatrix::isInM_ (ExpMapMatrix.cpp:131-139): the precision argument is unnamed, the static
    constant [prec] is used instead. *)
Definition em_isInM (val : vec K) (prec_arg : K) : res bool :=
  M <- m3_read val ;;
  Ok ((length val =? 9)
      && (kabs (m3_det M - k1) <? map_prec)%k
      && m3_isIdentity (m3_mul (m3_trans M) M) map_prec).

(** Columns of a 3x3 matrix (ExpMapMatrix.cpp:156-172). *)
Definition col0 (A : m3 K) : vec K := [a00 A; a10 A; a20 A].
Definition col1 (A : m3 K) : vec K := [a01 A; a11 A; a21 A].
Definition col2 (A : m3 K) : vec K := [a02 A; a12 A; a22 A].

(** ExpMapMatrix::forceOnM_ (ExpMapMatrix.cpp:141-174): Gram-Schmidt on the columns of a copy of the
    input, Q written column by column at out.data(). *)
Definition em_forceOnM (out inp : vec K) : res (vec K) :=
  M <- m3_read inp ;;
  _ <- mnf_assert (m3_isApprox (m3_mul (m3_trans M) M) m3_id (klit 1 10)
                   && (kabs (m3_det M - k1) <? klit 1 10)%k) ;;
  let A0 := col0 M in let A1 := col1 M in let A2 := col2 M in
  let R00 := norm A0 in
  let Q0 := vdivs A0 R00 in
  let R01 := dot Q0 A1 in
  let A1 := vsub A1 (map (fun q => (q * R01)%k) Q0) in
  let R02 := dot Q0 A2 in
  let A2 := vsub A2 (map (fun q => (q * R02)%k) Q0) in
  let R11 := norm A1 in
  let Q1 := vdivs A1 R11 in
  let R12 := dot Q1 A2 in
  let A2 := vsub A2 (map (fun q => (q * R12)%k) Q1) in
  let R22 := norm A2 in
  let Q2 := vdivs A2 R22 in
  raw_write out (Q0 ++ Q1 ++ Q2).

(** ExpMapMatrix::diffRetractation_ (ExpMapMatrix.cpp:181-188), 9x3, given by rows. *)
Definition em_diffRetractation_rows (x : vec K) : res (list (vec K)) :=
  match x with
  | [x0; x1; x2; x3; x4; x5; x6; x7; x8] =>
      Ok [[k0; (- x6)%k; x3]; [k0; (- x7)%k; x4]; [k0; (- x8)%k; x5];
          [x6; k0; (- x0)%k]; [x7; k0; (- x1)%k]; [x8; k0; (- x2)%k];
          [(- x3)%k; x0; k0]; [(- x4)%k; x1; k0]; [(- x5)%k; x2; k0]]
  | _ => Fail EEigen
  end.
Definition of_rows (r c : nat) (rows : list (vec K)) : mat K :=
  mbuild r c (fun i j => nth j (nth i rows []) k0).
Definition em_diffRetractation (x : vec K) : res (mat K) :=
  rows <- em_diffRetractation_rows x ;; Ok (of_rows 9 3 rows).

(** ExpMapMatrix::applyDiffRetractation_ (ExpMapMatrix.cpp:190-198); the product goes through the
    temporary map, then is copied to [out]. *)
Definition em_applyDiffRetractation (out inp : mat K) (x : vec K) : res (mat K) :=
  _ <- mnf_assert (ncols inp =? 9) ;;
  J <- em_diffRetractation x ;;
  massign out (mmul inp J).

(** boost::math::sinc_pi(x) (called at ExpMapMatrix.cpp:210) = sin(x)/x, 1 at 0 (its Taylor switches near 0 are not modelled). *)
Definition sinc_pi (x : K) : K := if (x =? k0)%k then k1 else (ksin x / x)%k.

(** ExpMapMatrix::diffPseudoLog0_ (ExpMapMatrix.cpp:200-239).  [11 / 30] is an integer division: 0. *)
Definition em_diffPseudoLog0 (R : vec K) : res (mat K) :=
  match R with
  | [R0; R1; R2; R3; R4; R5; R6; R7; R8] =>
      let v0 := ((R5 - R7) / klit 2 1)%k in
      let v1 := ((R6 - R2) / klit 2 1)%k in
      let v2 := ((R1 - R3) / klit 2 1)%k in
      let trR := (R0 + R4 + R8)%k in
      let trRm1o2 := ((trR - k1) / klit 2 1)%k in
      let s2 := (k1 - trRm1o2 * trRm1o2)%k in
      let f := (k1 / sinc_pi (kacos trRm1o2))%k in
      let hf := (f / klit 2 1)%k in
      let df :=
        if (sqnorm [v0; v1; v2] <? klit 1 10000000000)%k
        then let x := (trR - klit 3 1)%k in
             (trR / klit 15 1 - (klit 3 1 * (x * x)) / klit 140 1
              + (klit 2 1 * (x * x * x)) / klit 315 1
              - (klit 5 1 * (x * x * x * x)) / klit 2772 1
              - klit (11 / 30) 1)%k
        else ((trRm1o2 * f - k1) / (klit 2 1 * s2))%k in
      let c0 := [(df * v0)%k; (df * v1)%k; (df * v2)%k] in
      Ok (Mat 3 [c0; [k0; k0; hf]; [k0; (- hf)%k; k0]; [k0; k0; (- hf)%k]; c0;
                 [hf; k0; k0]; [k0; hf; k0]; [(- hf)%k; k0; k0]; c0])
  | _ => Fail EEigen
  end.

(** ExpMapMatrix::applyDiffPseudoLog0_ (ExpMapMatrix.cpp:241-250). *)
Definition em_applyDiffPseudoLog0 (out inp : mat K) (x : vec K) : res (mat K) :=
  _ <- mnf_assert (ncols inp =? 3) ;;
  J <- em_diffPseudoLog0 x ;;
  massign out (mmul inp J).

(** * ExpMapQuaternion; quaternions are stored (w, x, y, z) (ExpMapQuaternion.cpp:30-41, 52-55) *)

Record quat := Q4 { qw : K; qx : K; qy : K; qz : K }.
Definition quat_to_list (q : quat) : vec K := [qw q; qx q; qy q; qz q].

(** ConstReverseQuaternion / ReverseQuaternion constructors (ExpMapQuaternion.cpp:30-33, 52-55). *)
Definition quat_read (x : vec K) : res quat :=
  l <- raw_read 4 x ;;
  match l with [w; a; b; c] => Ok (Q4 w a b c) | _ => Fail EUB end.

(** ReverseQuaternion::writeChanges (ExpMapQuaternion.cpp:35-41), also run by the destructor. *)
Definition quat_write (out : vec K) (q : quat) : res (vec K) := raw_write out (quat_to_list q).

(** Eigen quaternion product, inverse, squared norm (used at ExpMapQuaternion.cpp:74, 106).  A difference is the sum
    with the opposite; the four terms are added by [ksum], because Eigen's scalar and SSE products order them differently. *)
Definition qmul (a b : quat) : quat :=
  Q4 (ksum [(qw a * qw b)%k; (- (qx a * qx b))%k; (- (qy a * qy b))%k; (- (qz a * qz b))%k])
     (ksum [(qw a * qx b)%k; (qx a * qw b)%k; (qy a * qz b)%k; (- (qz a * qy b))%k])
     (ksum [(qw a * qy b)%k; (qy a * qw b)%k; (qz a * qx b)%k; (- (qx a * qz b))%k])
     (ksum [(qw a * qz b)%k; (qz a * qw b)%k; (qx a * qy b)%k; (- (qy a * qx b))%k]).
Definition qsqnorm (q : quat) : K := sqnorm [qx q; qy q; qz q; qw q].
Definition qinverse (q : quat) : quat :=
  let n2 := qsqnorm q in
  if (k0 <? n2)%k then Q4 (qw q / n2)%k (- qx q / n2)%k (- qy q / n2)%k (- qz q / n2)%k
  else Q4 k0 k0 k0 k0.
Definition qvec (q : quat) : vec K := [qx q; qy q; qz q].

(** ExpMapQuaternion::exponential (ExpMapQuaternion.cpp:77-97).  [q0] is the uninitialised content of
    the output, read by the ReverseQuaternion temporaries. *)
Definition eq_exponential (q0 : quat) (v : vec K) : res quat :=
  match v with
  | [vx; vy; vz] =>
      let n2 := sqnorm v in
      _ <- mnf_assert (ksqrt n2 <? kpi)%k ;;
      let '(w, s) :=
        if (n2 <? map_prec)%k
        then ((k1 + (- k1 + n2 / klit 48 1) * (n2 / klit 8 1))%k,
              ((k1 + (- k1 + klit 1 80 * n2) * n2 / klit 24 1) / klit 2 1)%k)
        else let t := ksqrt n2 in
             (kcos (klit 1 2 * t)%k, (ksin (klit 1 2 * t)%k / t)%k) in
      let q1 := Q4 w (qx q0) (qy q0) (qz q0) in       (* toQuat(q.data()).w() = w  *)
      Ok (Q4 (qw q1) (s * vx)%k (s * vy)%k (s * vz)%k) (* toQuat(q.data()).vec() = s*v *)
  | _ => Fail EAssert
  end.

(** Content of an uninitialised local quaternion (ExpMapQuaternion.cpp:71, 102); theorem C19 shows results do not depend on it. *)
Definition junk_quat : quat := Q4 k0 k0 k0 k0.

(** ExpMapQuaternion::retractation_ (ExpMapQuaternion.cpp:68-75); [q0] is the uninitialised content of
    the local quaternion. *)
Definition eq_retractation_at (q0 : quat) (out x v : vec K) : res (vec K) :=
  q <- eq_exponential q0 v ;;
  X <- quat_read x ;;
  _ <- quat_read out ;;
  quat_write out (qmul X q).
Definition eq_retractation (out x v : vec K) : res (vec K) := eq_retractation_at junk_quat out x v.

(** ExpMapQuaternion::logarithm (ExpMapQuaternion.cpp:116-126). *)
Definition eq_logarithm (out : vec K) (q : quat) : res (vec K) :=
  let n2 := sqnorm (qvec q) in
  let n := ksqrt n2 in
  if (n <? map_prec)%k && negb (qw q =? k0)%k
  then assign out (vscale (klit 2 1 / qw q)%k (qvec q))
  else assign out (vscale (katan2 (klit 2 1 * n * qw q) (qw q * qw q - n2) / n)%k (qvec q)).

(** ExpMapQuaternion::pseudoLog_ (ExpMapQuaternion.cpp:99-109). *)
Definition eq_pseudoLog (out x y : vec K) : res (vec K) :=
  X <- quat_read x ;; Y <- quat_read y ;;
  eq_logarithm out (qmul (qinverse X) Y).

(** ExpMapQuaternion::pseudoLog0_ (ExpMapQuaternion.cpp:111-114); x is converted to a Vector4d. *)
Definition eq_pseudoLog0 (out x : vec K) : res (vec K) :=
  _ <- eigen_assert (length x =? 4) ;;
  X <- quat_read x ;; eq_logarithm out X.

(** ExpMapQuaternion::setZero_ (ExpMapQuaternion.cpp:128-131). *)
Definition eq_setZero (out : vec K) : res (vec K) :=
  _ <- quat_read out ;; quat_write out (Q4 k1 k0 k0 k0).

(** ExpMapQuaternion::isInM_ (ExpMapQuaternion.cpp:133-139). *)
Definition eq_isInM (val : vec K) (prec : K) : res bool :=
  q <- quat_read val ;;
  Ok ((length val =? 4) && (kabs (ksqrt (qsqnorm q) - k1) <? prec)%k).

(** ExpMapQuaternion::forceOnM_ (ExpMapQuaternion.cpp:141-148); normalize() is modelled as division of
    the coefficients by the norm (Eigen 3.2; later versions leave the zero quaternion unchanged). *)
Definition eq_forceOnM (out inp : vec K) : res (vec K) :=
  q <- quat_read inp ;;
  _ <- quat_read out ;;
  let n := ksqrt (qsqnorm q) in
  quat_write out (Q4 (qw q / n)%k (qx q / n)%k (qy q / n)%k (qz q / n)%k).

(** ExpMapQuaternion::diffRetractation_ (ExpMapQuaternion.cpp:155-166), 4x3. *)
Definition eq_diffRetractation (x : vec K) : res (mat K) :=
  q <- quat_read x ;;
  let h := klit 1 2 in
  let mh := (- h)%k in
  Ok (of_rows 4 3
        [[(mh * qx q)%k; (mh * qy q)%k; (mh * qz q)%k];
         [(h * qw q)%k; (mh * qz q)%k; (h * qy q)%k];
         [(h * qz q)%k; (h * qw q)%k; (mh * qx q)%k];
         [(mh * qy q)%k; (h * qx q)%k; (h * qw q)%k]]).

(** ExpMapQuaternion::applyDiffRetractation_ (ExpMapQuaternion.cpp:168-176). *)
Definition eq_applyDiffRetractation (out inp : mat K) (x : vec K) : res (mat K) :=
  _ <- mnf_assert (ncols inp =? 4) ;;
  J <- eq_diffRetractation x ;;
  massign out (mmul inp J).

(** ExpMapQuaternion::diffPseudoLog0_ (ExpMapQuaternion.cpp:178-246), 3x4. *)
Definition eq_diffPseudoLog0 (x : vec K) : res (mat K) :=
  q <- quat_read x ;;
  let n2 := sqnorm (qvec q) in
  let n := ksqrt n2 in
  if (n <? map_prec)%k && negb (qw q =? k0)%k
  then
    let a := (klit 2 1 / qw q)%k in
    let b := (- klit 2 1 / (qw q * qw q))%k in
    Ok (of_rows 3 4 [[(b * qx q)%k; a; k0; k0];
                     [(b * qy q)%k; k0; a; k0];
                     [(b * qz q)%k; k0; k0; a]])
  else
    let f := (katan2 (klit 2 1 * n * qw q) (qw q * qw q - n2) / n)%k in
    let g := ((klit 2 1 * qw q - f) / n2)%k in
    let dfdw := (- klit 2 1)%k in
    let v := qvec q in
    let gvv i j := (g * nth i v k0 * nth j v k0)%k in
    Ok (Mat 3 (vscale dfdw v
               :: map (fun j => map (fun i => (f * delta i j + gvv i j)%k) (seq 0 3)) (seq 0 3))).

(** ExpMapQuaternion::applyDiffPseudoLog0_ (ExpMapQuaternion.cpp:248-257). *)
Definition eq_applyDiffPseudoLog0 (out inp : mat K) (x : vec K) : res (mat K) :=
  _ <- mnf_assert (ncols inp =? 3) ;;
  J <- eq_diffPseudoLog0 x ;;
  massign out (mmul inp J).

(** applyTransport_, applyInvTransport_, applyInvTransportOnTheRight_ of both maps
    (ExpMapMatrix.cpp:254-288, ExpMapQuaternion.cpp:261-296): [out = in]. *)
Definition so3_copy (out inp : mat K) : res (mat K) := massign out inp.

(** getIdentityOnTxM_ of both maps (ExpMapMatrix.cpp:176-179, ExpMapQuaternion.cpp:150-153). *)
Definition so3_getIdentityOnTxM (out : mat K) : mat K := mident (mrows out) (ncols out).

(** forceOnTxM_ of both maps (ExpMapMatrix.cpp:301-305, ExpMapQuaternion.cpp:309-313). *)
Definition so3_forceOnTxM (out inp : vec K) : res (vec K) := assign out inp.

(** SO3::limitMap_ (SO3.h:278-283). *)
Definition so3_limitMap (out : vec K) : vec K := vconst (length out) (kpi / ksqrt (klit 3 1))%k.

End SO3.
Arguments quat K : clear implicits.
