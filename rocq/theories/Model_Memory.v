(** The operations that write a vector of the manifold, on a memory where the output may be the same doubles
    as an input: retractation, pseudoLog, forceOnM, forceOnTxM.  The functional model (Model_Manifold and the
    leaf files) takes input values; here every read happens when the C++ statement makes it.
    Eigen: `out = expression of coefficients` reads and writes coefficient by coefficient, without a
    temporary; reductions (norm, dot) are evaluated when the expression is built; a matrix product is
    evaluated into a temporary (no noalias()); Vector3d, Matrix3d and Quaterniond locals are copies.
    Packet (SIMD) evaluation reads a few coefficients before writing the same ones and is not modelled. *)
From Coq Require Import List Arith Bool ZArith.
From Verif Require Import Base Scalar Vec Model_Real Model_S2 Model_SO3 Model_Manifold.
Import ListNotations.

(** An Eigen::Ref<VectorXd> (include/manifolds/defs.h:31-32): first double and size. *)
Record vref := VR { v_off : nat; v_len : nat }.

Section Memory.
Context {K : Type} {SK : Scalar K}.
Definition memory := vec K.
Implicit Types (mem : memory) (o x y v inp r : vref).

(** Doubles [k, k + n) of [r] (a RefVec, defs.h:31-32): all of them read at once, into a local (S2.cpp:92, ExpMapMatrix.cpp:105,
    ExpMapQuaternion.cpp:104-105) or by a reduction (S2.cpp:93, 112). *)
Definition load_at mem r (k n : nat) : res (vec K) :=
  _ <- ub_unless ((k + n <=? v_len r) && (v_off r + v_len r <=? List.length mem)) ;;
  Ok (firstn n (skipn (v_off r + k) mem)).
Definition load mem r : res (vec K) := load_at mem r 0 (v_len r).
(** Writing the doubles [l] at [r.data() + k] (defs.h:31; for instance ExpMapQuaternion.cpp:37-40). *)
Definition store_at mem r (k : nat) (l : vec K) : res memory :=
  _ <- ub_unless ((k + List.length l <=? v_len r) && (v_off r + v_len r <=? List.length mem)) ;;
  Ok (set_segment mem (v_off r + k) l).
(** One coefficient of a RefVec (defs.h:31-32). *)
Definition coeff mem r (i : nat) : res K :=
  _ <- ub_unless (i <? v_len r) ;; at_ mem (v_off r + i).

(** for (i = 0; i < n; ++i) out[i] = f(i), [f] reading the memory of the moment: Eigen's assignment of an expression
    (RealSpace.cpp:102, 108, S2.cpp:93). *)
Fixpoint each (n i : nat) o (f : nat -> memory -> res K) mem : res memory :=
  match n with
  | O => Ok mem
  | S n' => c <- f i mem ;; mem' <- store_at mem o i [c] ;; each n' (S i) o f mem'
  end.
(** out = an expression with [n] coefficients (RealSpace.cpp:102, 108). *)
Definition assign_each o (n : nat) (f : nat -> memory -> res K) mem : res memory :=
  _ <- eigen_assert (v_len o =? n) ;; each n 0 o f mem.
(** out = a local vector (S2.cpp:93, 107, ExpMapQuaternion.cpp:123, 125). *)
Definition assign_local o (l : vec K) mem : res memory :=
  assign_each o (List.length l) (fun i _ => at_ l i) mem.
(** Eigen's size assertion of x + v, y - x (RealSpace.cpp:102, 108). *)
Definition same_len x y : res unit := eigen_assert (v_len x =? v_len y).

(** ** RealSpace *)
(** RealSpace::retractation_ (RealSpace.cpp:99-103). *)
Definition real_retractation_mem mem o x v : res memory :=
  _ <- same_len x v ;;
  assign_each o (v_len x) (fun i mem => a <- coeff mem x i ;; b <- coeff mem v i ;; Ok (a + b)%k) mem.
(** RealSpace::pseudoLog_ (RealSpace.cpp:105-109). *)
Definition real_pseudoLog_mem mem o x y : res memory :=
  _ <- same_len y x ;;
  assign_each o (v_len y) (fun i mem => b <- coeff mem y i ;; a <- coeff mem x i ;; Ok (b - a)%k) mem.
(** RealSpace::forceOnM_ (RealSpace.cpp:60), RealSpace::forceOnTxM_ (RealSpace.cpp:167-171) and
    forceOnTxM_ of both SO3 maps (ExpMapMatrix.cpp:301-305, ExpMapQuaternion.cpp:309-313): out = in. *)
Definition copy_mem mem o inp : res memory := assign_each o (v_len inp) (fun i mem => coeff mem inp i) mem.

(** ** S2 *)
(** S2::retractation_ (S2.cpp:88-94): through the local sum. *)
Definition s2_retractation_mem mem o x v : res memory :=
  _ <- same_len x v ;;
  xs <- load mem x ;; vs <- load mem v ;;
  sum <- as_vec3 (vadd xs vs) ;;
  assign_local o (vdivs sum (norm sum)) mem.
(** S2::logarithm (S2.cpp:102-108): through the locals diff and projDiff; distance(x, y) is computed
    before the assignment. *)
Definition s2_pseudoLog_mem mem o x y : res memory :=
  _ <- same_len y x ;;
  xs <- load mem x ;; ys <- load mem y ;;
  diff <- as_vec3 (vsub ys xs) ;;
  projDiff <- s2_projVec (vconst 3 k0) diff xs ;;
  d <- s2_distance xs ys ;;
  assign_local o (vdivs (vscale d projDiff) (norm projDiff)) mem.
(** S2::forceOnM_ (S2.cpp:55-58): out = in / in.lpNorm<2>(). *)
Definition s2_forceOnM_mem mem o inp : res memory :=
  l <- load mem inp ;;
  let n := norm l in
  assign_each o (v_len inp) (fun i mem => a <- coeff mem inp i ;; Ok (a / n)%k) mem.
(** S2::forceOnTxM_ (S2.cpp:244-248): out = v - x.dot(v) * x. *)
Definition s2_forceOnTxM_mem mem o v x : res memory :=
  _ <- same_len x v ;;
  xs <- load mem x ;; vs <- load mem v ;;
  let d := dot xs vs in
  assign_each o (v_len v) (fun i mem => a <- coeff mem v i ;; b <- coeff mem x i ;; Ok (a - d * b)%k) mem.

(** ** SO3, matrix map *)
(** ExpMapMatrix::retractation_ (ExpMapMatrix.cpp:62-68). *)
Definition em_retractation_mem mem o x v : res memory :=
  vs <- load mem v ;; E <- em_exponential vs ;;
  xs <- load mem x ;; X <- m3_read xs ;;
  store_at mem o 0 (m3_to_list (m3_mul X E)).
(** ExpMapMatrix::pseudoLog_, logarithm (ExpMapMatrix.cpp:96-101, 109-124): v is local. *)
Definition em_logarithm_mem mem o (R : m3 K) : res memory :=
  let v := [(- a12 R)%k; a02 R; (- a01 R)%k] in
  let acosTr := kacos ((m3_trace R - k1) / klit 2 1)%k in
  if (norm v <? map_prec)%k then assign_local o v mem
  else
    let diff := m3_map2 ksub R (m3_trans R) in
    let coeff := (acosTr / (klit 2 1 * ksin acosTr))%k in
    assign_local o [(a21 diff * coeff)%k; (a02 diff * coeff)%k; (a10 diff * coeff)%k] mem.
Definition em_pseudoLog_mem mem o x y : res memory :=
  xs <- load mem x ;; X <- m3_read xs ;; ys <- load mem y ;; Y <- m3_read ys ;;
  em_logarithm_mem mem o (m3_mul (m3_trans X) Y).
(** ExpMapMatrix::forceOnM_ (ExpMapMatrix.cpp:141-174): A is a copy of the input, Q is the output, read
    back by the scalar products. *)
Definition em_forceOnM_mem mem o inp : res memory :=
  l <- load mem inp ;; M <- m3_read l ;;
  _ <- mnf_assert (m3_isApprox (m3_mul (m3_trans M) M) m3_id (klit 1 10)
                   && (kabs (m3_det M - k1) <? klit 1 10)%k) ;;
  let A0 := col0 M in let A1 := col1 M in let A2 := col2 M in
  let R00 := norm A0 in
  mem <- store_at mem o 0 (vdivs A0 R00) ;;
  q <- load_at mem o 0 3 ;;
  let R01 := dot q A1 in
  q <- load_at mem o 0 3 ;;
  let A1 := vsub A1 (map (fun q => (q * R01)%k) q) in
  q <- load_at mem o 0 3 ;;
  let R02 := dot q A2 in
  q <- load_at mem o 0 3 ;;
  let A2 := vsub A2 (map (fun q => (q * R02)%k) q) in
  let R11 := norm A1 in
  mem <- store_at mem o 3 (vdivs A1 R11) ;;
  q <- load_at mem o 3 3 ;;
  let R12 := dot q A2 in
  q <- load_at mem o 3 3 ;;
  let A2 := vsub A2 (map (fun q => (q * R12)%k) q) in
  let R22 := norm A2 in
  store_at mem o 6 (vdivs A2 R22).

(** ** SO3, quaternion map *)
(** ReverseQuaternion (ExpMapQuaternion.cpp:30-50): reads four doubles when constructed, writes them when
    destroyed. *)
Definition quat_load mem r : res (quat K) := l <- load_at mem r 0 4 ;; quat_read l.
Definition quat_store mem r (q : quat K) : res memory := store_at mem r 0 (quat_to_list q).
(** ExpMapQuaternion::retractation_ (ExpMapQuaternion.cpp:68-75). *)
Definition eq_retractation_mem mem o x v : res memory :=
  vs <- load mem v ;; q <- eq_exponential junk_quat vs ;;
  X <- quat_load mem x ;;
  _ <- quat_load mem o ;;
  quat_store mem o (qmul X q).
(** ExpMapQuaternion::pseudoLog_, logarithm (ExpMapQuaternion.cpp:99-109, 116-126). *)
Definition eq_logarithm_mem mem o (q : quat K) : res memory :=
  let n2 := sqnorm (qvec q) in
  let n := ksqrt n2 in
  if (n <? map_prec)%k && negb (qw q =? k0)%k
  then assign_local o (vscale (klit 2 1 / qw q)%k (qvec q)) mem
  else assign_local o (vscale (katan2 (klit 2 1 * n * qw q) (qw q * qw q - n2) / n)%k (qvec q)) mem.
Definition eq_pseudoLog_mem mem o x y : res memory :=
  X <- quat_load mem x ;; Y <- quat_load mem y ;;
  eq_logarithm_mem mem o (qmul (qinverse X) Y).
(** ExpMapQuaternion::forceOnM_ (ExpMapQuaternion.cpp:141-148): written by writeChanges, then again by the
    destructor of outQuat. *)
Definition eq_forceOnM_mem mem o inp : res memory :=
  q <- quat_load mem inp ;;
  _ <- quat_load mem o ;;
  let n := ksqrt (qsqnorm q) in
  let q' := Q4 (qw q / n)%k (qx q / n)%k (qy q / n)%k (qz q / n)%k in
  mem <- quat_store mem o q' ;;
  quat_store mem o q'.

(** ** Trees *)
(** getView<D>(val, i), getConstView<D>(val, i) (Manifold.h:417-432): a Ref to a part of the same doubles. *)
Definition subref (D : edim) (m : mfd K) r (i : nat) : res vref :=
  '(s, d) <- view_range D m (v_len r) i ;;
  _ <- eigen_assert (s + d <=? v_len r) ;;
  Ok (VR (v_off r + s) d).

(** Manifold::retractation (Manifold.cpp:129-138), CartesianProduct::retractation_
    (CartesianProduct.cpp:158-166). *)
Fixpoint retractation_mem (m : mfd K) mem o x v : res memory :=
  _ <- mnf_assert (v_len o =? representationDim m) ;;
  _ <- mnf_assert (v_len x =? representationDim m) ;;
  _ <- mnf_assert (v_len v =? tangentDim m) ;;
  xs <- load mem x ;; vs <- load mem v ;;
  b <- isInTxM m xs vs default_prec ;;
  _ <- mnf_assert b ;;
  match m with
  | Leaf _ LReal _ _ => real_retractation_mem mem o x v
  | Leaf _ LS2 _ _ => s2_retractation_mem mem o x v
  | Leaf _ (LSO3 MapMatrix) _ _ => em_retractation_mem mem o x v
  | Leaf _ (LSO3 MapQuat) _ _ => eq_retractation_mem mem o x v
  | Prod _ _ _ subs =>
      loop (fun i s mem => oi <- subref DR m o i ;; xi <- subref DR m x i ;; vi <- subref DT m v i ;;
                           retractation_mem s mem oi xi vi) 0 subs mem
  end.
(** Manifold::pseudoLog (Manifold.cpp:156-164), CartesianProduct::pseudoLog_ (CartesianProduct.cpp:168-176). *)
Fixpoint pseudoLog_mem (m : mfd K) mem o x y : res memory :=
  _ <- mnf_assert (v_len o =? tangentDim m) ;;
  _ <- mnf_assert (v_len x =? representationDim m) ;;
  _ <- mnf_assert (v_len y =? representationDim m) ;;
  match m with
  | Leaf _ LReal _ _ => real_pseudoLog_mem mem o x y
  | Leaf _ LS2 _ _ => s2_pseudoLog_mem mem o x y
  | Leaf _ (LSO3 MapMatrix) _ _ => em_pseudoLog_mem mem o x y
  | Leaf _ (LSO3 MapQuat) _ _ => eq_pseudoLog_mem mem o x y
  | Prod _ _ _ subs =>
      loop (fun i s mem => oi <- subref DT m o i ;; xi <- subref DR m x i ;; yi <- subref DR m y i ;;
                           pseudoLog_mem s mem oi xi yi) 0 subs mem
  end.
(** Manifold::forceOnM (Manifold.cpp:69-75), CartesianProduct::forceOnM_ (CartesianProduct.cpp:60-64). *)
Fixpoint forceOnM_mem (m : mfd K) mem o inp : res memory :=
  _ <- mnf_assert (v_len o =? representationDim m) ;;
  _ <- mnf_assert (v_len inp =? representationDim m) ;;
  match m with
  | Leaf _ LReal _ _ => copy_mem mem o inp
  | Leaf _ LS2 _ _ => s2_forceOnM_mem mem o inp
  | Leaf _ (LSO3 MapMatrix) _ _ => em_forceOnM_mem mem o inp
  | Leaf _ (LSO3 MapQuat) _ _ => eq_forceOnM_mem mem o inp
  | Prod _ _ _ subs =>
      loop (fun i s mem => oi <- subref DR m o i ;; xi <- subref DR m inp i ;; forceOnM_mem s mem oi xi) 0 subs mem
  end.
(** Manifold::forceOnTxM (Manifold.cpp:334-342), CartesianProduct::forceOnTxM_ (CartesianProduct.cpp:300-306). *)
Fixpoint forceOnTxM_mem (m : mfd K) mem o inp x : res memory :=
  _ <- mnf_assert (v_len o =? tangentDim m) ;;
  _ <- mnf_assert (v_len x =? representationDim m) ;;
  _ <- mnf_assert (v_len inp =? tangentDim m) ;;
  match m with
  | Leaf _ LReal _ _ => copy_mem mem o inp
  | Leaf _ LS2 _ _ => s2_forceOnTxM_mem mem o inp x
  | Leaf _ (LSO3 _) _ _ => copy_mem mem o inp
  | Prod _ _ _ subs =>
      loop (fun i s mem => oi <- subref DT m o i ;; wi <- subref DT m inp i ;; xi <- subref DR m x i ;;
                           forceOnTxM_mem s mem oi wi xi) 0 subs mem
  end.
End Memory.
