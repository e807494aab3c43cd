(** The Manifold API (src/Manifold.cpp, include/manifolds/Manifold.h) on trees of elementary manifolds
    and Cartesian products (src/CartesianProduct.cpp), value layer.

    Every API function takes the *content* of its arguments and returns the new content of its output
    argument.  The public member performs the mnf_assert checks, then dispatches to the virtual
    member, which for products calls the public member of each factor on views.
    [isValid()] checks, locks and reference counts belong to the object layer (Model_Object.v). *)
From Coq Require Import List Arith Bool ZArith String.
From Coq Require DecimalString.
From Verif Require Import Base Scalar Vec Model_Real Model_S2 Model_SO3.
Import ListNotations.

(** eDimension (include/manifolds/view.h:26-31) without F, which selects whole rows or columns. *)
Inductive edim := DR | DT.

(** Template argument of SO3<Map> (SO3.h:32-33): ExpMapMatrix (ExpMapMatrix.h) or ExpMapQuaternion
    (ExpMapQuaternion.h). *)
Inductive so3map := MapMatrix | MapQuat.

(** Elementary manifold classes: RealSpace (RealSpace.h:30), S2 (S2.h:31), SO3<Map> (SO3.h:32-33). *)
Inductive leaf := LReal | LS2 | LSO3 (m : so3map).

(** name_, dimension_, tangentDim_, representationDim_ (Manifold.h:391-401). *)
Record hdr := Hdr { h_name : string; h_dim : nat; h_tdim : nat; h_rdim : nat }.

Section Manifold.
Context {K : Type} {SK : Scalar K}.

(** A manifold object and everything reachable from it.  Leaves carry typicalMagnitude_ and
    trustMagnitude_ (RealSpace.h:93-94, S2.h:104-105, SO3.h:93-94); products carry startIndexT_,
    startIndexR_ and subManifolds_ (CartesianProduct.h:104-115). *)
Inductive mfd : Type :=
| Leaf (h : hdr) (l : leaf) (typ tru : vec K)
| Prod (h : hdr) (startT startR : list nat) (subs : list mfd).

Definition hdr_of (m : mfd) : hdr := match m with Leaf h _ _ _ => h | Prod h _ _ _ => h end.
(** Manifold::name (Manifold.cpp:396). *)
Definition name (m : mfd) : string := h_name (hdr_of m).
(** Manifold::dim, tangentDim, representationDim (Manifold.cpp:102-118). *)
Definition dim (m : mfd) : nat := h_dim (hdr_of m).
Definition tangentDim (m : mfd) : nat := h_tdim (hdr_of m).
Definition representationDim (m : mfd) : nat := h_rdim (hdr_of m).

Definition rename (m : mfd) (s : string) : mfd :=
  match m with
  | Leaf h l a b => Leaf (Hdr s (h_dim h) (h_tdim h) (h_rdim h)) l a b
  | Prod h sT sR subs => Prod (Hdr s (h_dim h) (h_tdim h) (h_rdim h)) sT sR subs
  end.

(** ** Constructors *)

(** Manifold::Manifold (Manifold.cpp:26-37): assertions on the dimensions (Index is signed). *)
Definition manifold_ctor (s : string) (d td rd : Z) : res hdr :=
  _ <- mnf_assert (0 <=? d)%Z ;;
  _ <- mnf_assert (d <=? td)%Z ;;
  _ <- mnf_assert (td <=? rd)%Z ;;
  Ok (Hdr s (Z.to_nat d) (Z.to_nat td) (Z.to_nat rd)).

(** std::to_string on a non-negative integer (RealSpace.cpp:27, 37, 47): decimal digits. *)
Definition to_string (n : nat) : string := DecimalString.NilEmpty.string_of_uint (Nat.to_uint n).

(** RealSpace::RealSpace(n, magnitude vector) (RealSpace.cpp:44-52); the other two constructors
    (RealSpace.cpp:25-43) build the constant vector first. *)
Definition mk_real_vec (n : Z) (mag : vec K) : res mfd :=
  h <- manifold_ctor ("R" ++ to_string (Z.to_nat n)) n n n ;;
  _ <- mnf_assert (List.length mag =? Z.to_nat n) ;;
  Ok (Leaf h LReal mag mag).
Definition mk_real_mag (n : Z) (c : K) : res mfd :=
  h <- manifold_ctor ("R" ++ to_string (Z.to_nat n)) n n n ;;
  Ok (Leaf h LReal (vconst (h_tdim h) c) (vconst (h_tdim h) c)).
Definition mk_real (n : Z) : res mfd := mk_real_mag n k1.

(** S2 constructors (S2.cpp:28-47). *)
Definition mk_s2_vec (mag : vec K) : res mfd :=
  h <- manifold_ctor "S2" 2 3 3 ;;
  _ <- mnf_assert (List.length mag =? 3) ;;
  Ok (Leaf h LS2 mag mag).
Definition mk_s2_mag (c : K) : res mfd := mk_s2_vec (vconst 3 c).
Definition mk_s2 : res mfd := mk_s2_mag kpi.

(** SO3 constructors (SO3.h:98-122). *)
Definition so3_rdim (mp : so3map) : Z := match mp with MapMatrix => 9 | MapQuat => 4 end.
Definition mk_so3_vec (mp : so3map) (mag : vec K) : res mfd :=
  h <- manifold_ctor "SO3" 3 3 (so3_rdim mp) ;;
  _ <- mnf_assert (List.length mag =? 3) ;;
  Ok (Leaf h (LSO3 mp) mag mag).
Definition mk_so3_mag (mp : so3map) (c : K) : res mfd := mk_so3_vec mp (vconst 3 c).
Definition mk_so3 (mp : so3map) : res mfd := mk_so3_mag mp kpi.

(** setTypicalMagnitude / setTrustMagnitude (RealSpace.cpp:183-207, S2.cpp:257-279, SO3.h:291-321) on
    an unlocked manifold.  RealSpace stores a VectorXd, which is resized to the argument's size without
    any check; S2 and SO3 store a Vector3d, for which Eigen asserts the size. *)
Definition mag_ok (l : leaf) (v : vec K) : bool :=
  match l with LReal => true | _ => List.length v =? 3 end.
Definition setTypicalMagnitude (m : mfd) (v : vec K) : res mfd :=
  match m with
  | Leaf h l _ tru => _ <- eigen_assert (mag_ok l v) ;; Ok (Leaf h l v tru)
  | Prod _ _ _ _ => Fail EAssert   (* no such member; never called *)
  end.
(** setTrustMagnitude (RealSpace.cpp:197-207, S2.cpp:270-279, SO3.h:310-321). *)
Definition setTrustMagnitude (m : mfd) (v : vec K) : res mfd :=
  match m with
  | Leaf h l typ _ => _ <- eigen_assert (mag_ok l v) ;; Ok (Leaf h l typ v)
  | Prod _ _ _ _ => Fail EAssert
  end.

(** CartesianProduct::CartesianProduct() (CartesianProduct.cpp:24-29). *)
Definition prod_empty : mfd := Prod (Hdr "" 0 0 0) [0] [0] [].

(** vector::back() (CartesianProduct.cpp:90-91); startIndex vectors are never empty (proved in Layout.v). *)
Definition back (l : list nat) : res nat :=
  match rev l with [] => Fail EUB | a :: _ => Ok a end.

(** CartesianProduct::multiply (CartesianProduct.cpp:80-93) on an unlocked product; [m] is copied by
    value into the product (Manifold.cpp:407-420).  Locks: see the object layer. *)
Definition multiply (p m : mfd) : res mfd :=
  match p with
  | Leaf _ _ _ _ => Fail EAssert   (* no such member; never called *)
  | Prod h sT sR subs =>
      let nm := if h_dim h =? 0 then h_name h else (h_name h ++ "x")%string in
      let nm := (nm ++ name m)%string in
      bT <- back sT ;;
      bR <- back sR ;;
      Ok (Prod (Hdr nm (h_dim h + dim m) (h_tdim h + tangentDim m) (h_rdim h + representationDim m))
               (sT ++ [bT + tangentDim m]) (sR ++ [bR + representationDim m]) (subs ++ [m]))
  end.

(** CartesianProduct(initializer_list) (CartesianProduct.cpp:31-38). *)
Definition prod_of_list (l : list mfd) : res mfd :=
  loop (fun _ m p => multiply p m) 0 l prod_empty.

(** CartesianProduct(m1, m2) (CartesianProduct.cpp:40-48). *)
Definition prod2 (m1 m2 : mfd) : res mfd :=
  p <- multiply prod_empty m1 ;;
  p <- multiply p m2 ;;
  Ok (rename p (name m1 ++ "x" ++ name m2)).

(** CartesianPower(M, n) (CartesianPower.cpp:22-26). *)
Definition power (m : mfd) (n : Z) : res mfd :=
  loop (fun _ m p => multiply p m) 0 (repeat m (Z.to_nat n)) prod_empty.

(** ** Structure and views *)

(** numberOfSubManifolds (RealSpace.cpp:67, S2.cpp:68, SO3.h:136-140, CartesianProduct.cpp:95-98). *)
Definition numberOfSubManifolds (m : mfd) : nat :=
  match m with Leaf _ _ _ _ => 1 | Prod _ _ _ subs => List.length subs end.

(** operator()(i) (RealSpace.cpp:79-83, S2.cpp:72-76, SO3.h:148-153, CartesianProduct.cpp:131-135). *)
Definition subManifold (m : mfd) (i : nat) : res mfd :=
  match m with
  | Leaf _ _ _ _ => _ <- mnf_assert (i <? 1) ;; Ok m
  | Prod _ _ _ subs => _ <- mnf_assert (i <? List.length subs) ;; at_ subs i
  end.

(** getDim<D>() (Manifold.h:448-458). *)
Definition getDim (D : edim) (m : mfd) : nat :=
  match D with DR => representationDim m | DT => tangentDim m end.

(** getDim<D>(i) (Manifold.h:460-472). *)
Definition getDimSub (D : edim) (m : mfd) (i : nat) : res nat :=
  _ <- mnf_assert (i <? numberOfSubManifolds m) ;;
  s <- subManifold m i ;; Ok (getDim D s).

(** getStart<D>(i), startR, startT (Manifold.h:434-446, 474-484; CartesianProduct.h:118-128). *)
Definition getStart (D : edim) (m : mfd) (i : nat) : res nat :=
  _ <- mnf_assert (i <? numberOfSubManifolds m) ;;
  match m with
  | Leaf _ _ _ _ => Ok 0
  | Prod _ sT sR subs =>
      _ <- mnf_assert (i <? List.length subs) ;;
      at_ (match D with DR => sR | DT => sT end) i
  end.

(** Range of getView<D>(val, i) / getConstView<D>(val, i) (Manifold.h:417-432). *)
Definition view_range (D : edim) (m : mfd) (len i : nat) : res (nat * nat) :=
  _ <- mnf_assert (i <? numberOfSubManifolds m) ;;
  _ <- mnf_assert (len =? getDim D m) ;;
  s <- getStart D m i ;;
  d <- getDimSub D m i ;;
  Ok (s, d).

(** Reading getConstView<D>(val, i) (Manifold.h:425-432). *)
Definition getView (D : edim) (m : mfd) (val : vec K) (i : nat) : res (vec K) :=
  '(s, d) <- view_range D m (List.length val) i ;; segment val s d.

(** Passing getView<D>(out, i) (Manifold.h:417-424) as an output argument to [f]. *)
Definition on_view (D : edim) (m : mfd) (i : nat) (f : vec K -> res (vec K)) (out : vec K)
  : res (vec K) :=
  '(s, d) <- view_range D m (List.length out) i ;;
  o <- segment out s d ;;
  r <- f o ;;
  Ok (set_segment out s r).

(** getView<F, D>(val, i) = val.middleCols(getStart<D>(i), getDim<D>(i)) (Manifold.h:517-543). *)
Definition getCols (D : edim) (m : mfd) (M : mat K) (i : nat) : res (mat K) :=
  s <- getStart D m i ;; d <- getDimSub D m i ;; middleCols M s d.
Definition on_cols (D : edim) (m : mfd) (i : nat) (f : mat K -> res (mat K)) (out : mat K)
  : res (mat K) :=
  s <- getStart D m i ;; d <- getDimSub D m i ;;
  B <- middleCols out s d ;; B' <- f B ;; Ok (set_middleCols out s B').

(** getView<D, F>(val, i) = val.middleRows(getStart<D>(i), getDim<D>(i)) (Manifold.h:545-573). *)
Definition getRows (D : edim) (m : mfd) (M : mat K) (i : nat) : res (mat K) :=
  s <- getStart D m i ;; d <- getDimSub D m i ;; middleRows M s d.
Definition on_rows (D : edim) (m : mfd) (i : nat) (f : mat K -> res (mat K)) (out : mat K)
  : res (mat K) :=
  s <- getStart D m i ;; d <- getDimSub D m i ;;
  B <- middleRows out s d ;; B' <- f B ;; Ok (set_middleRows out s B').

(** getView<Dr, Dc>(val, ir, ic) (Manifold.h:486-515). *)
Definition on_block (Dr Dc : edim) (m : mfd) (ir ic : nat) (f : mat K -> res (mat K)) (out : mat K)
  : res (mat K) :=
  sr <- getStart Dr m ir ;; sc <- getStart Dc m ic ;;
  dr <- getDimSub Dr m ir ;; dc <- getDimSub Dc m ic ;;
  B <- block out sr sc dr dc ;; B' <- f B ;; Ok (set_block out sr sc B').

(** ** Map operations *)

(** Default precision 1e-8 of isInM and isInTxM (Manifold.h:82, 250). *)
Definition default_prec : K := klit 1 100000000.

(** Manifold::isInM (Manifold.cpp:62-67) and the isInM_ members; CartesianProduct::isInM_
    (CartesianProduct.cpp:50-58) ignores its precision and calls the factors with the default one. *)
Fixpoint isInM (m : mfd) (val : vec K) (prec : K) : res bool :=
  _ <- mnf_assert (List.length val =? representationDim m) ;;
  match m with
  | Leaf h LReal _ _ => Ok (real_isInM (h_dim h) val)
  | Leaf _ LS2 _ _ => Ok (s2_isInM val prec)
  | Leaf _ (LSO3 MapMatrix) _ _ => em_isInM val prec
  | Leaf _ (LSO3 MapQuat) _ _ => eq_isInM val prec
  | Prod _ _ _ subs =>
      loop (fun i s (out : bool) =>
              if out then (x <- getView DR m val i ;; isInM s x default_prec) else Ok false)
           0 subs true
  end.

(** Manifold::forceOnM (Manifold.cpp:69-75), CartesianProduct::forceOnM_ (CartesianProduct.cpp:60-64). *)
Fixpoint forceOnM (m : mfd) (out inp : vec K) : res (vec K) :=
  _ <- mnf_assert (List.length out =? representationDim m) ;;
  _ <- mnf_assert (List.length inp =? representationDim m) ;;
  match m with
  | Leaf _ LReal _ _ => real_forceOnM out inp
  | Leaf _ LS2 _ _ => s2_forceOnM out inp
  | Leaf _ (LSO3 MapMatrix) _ _ => em_forceOnM out inp
  | Leaf _ (LSO3 MapQuat) _ _ => eq_forceOnM out inp
  | Prod _ _ _ subs =>
      loop (fun i s out => on_view DR m i (fun o => x <- getView DR m inp i ;; forceOnM s o x) out)
           0 subs out
  end.

(** Manifold::isInTxM (Manifold.cpp:325-332), CartesianProduct::isInTxM_ (CartesianProduct.cpp:290-298:
    the loop stops at the first false). *)
Fixpoint isInTxM (m : mfd) (x v : vec K) (prec : K) : res bool :=
  _ <- mnf_assert (List.length v =? tangentDim m) ;;
  _ <- mnf_assert (List.length x =? representationDim m) ;;
  match m with
  | Leaf _ LS2 _ _ => Ok (s2_isInTxM x v prec)
  | Leaf _ _ _ _ => Ok true
  | Prod _ _ _ subs =>
      loop (fun i s (b : bool) =>
              if b then (xi <- getView DR m x i ;; vi <- getView DT m v i ;; isInTxM s xi vi prec)
              else Ok false)
           0 subs true
  end.

(** Manifold::retractation (Manifold.cpp:129-138), CartesianProduct::retractation_
    (CartesianProduct.cpp:158-166). *)
Fixpoint retractation (m : mfd) (out x v : vec K) : res (vec K) :=
  _ <- mnf_assert (List.length out =? representationDim m) ;;
  _ <- mnf_assert (List.length x =? representationDim m) ;;
  _ <- mnf_assert (List.length v =? tangentDim m) ;;
  b <- isInTxM m x v default_prec ;;
  _ <- mnf_assert b ;;
  match m with
  | Leaf _ LReal _ _ => real_retractation out x v
  | Leaf _ LS2 _ _ => s2_retractation out x v
  | Leaf _ (LSO3 MapMatrix) _ _ => em_retractation out x v
  | Leaf _ (LSO3 MapQuat) _ _ => eq_retractation out x v
  | Prod _ _ _ subs =>
      loop (fun i s out =>
              on_view DR m i (fun o => xi <- getView DR m x i ;; vi <- getView DT m v i ;;
                                       retractation s o xi vi) out)
           0 subs out
  end.

(** Manifold::pseudoLog (Manifold.cpp:156-164), CartesianProduct::pseudoLog_
    (CartesianProduct.cpp:168-176). *)
Fixpoint pseudoLog (m : mfd) (out x y : vec K) : res (vec K) :=
  _ <- mnf_assert (List.length out =? tangentDim m) ;;
  _ <- mnf_assert (List.length x =? representationDim m) ;;
  _ <- mnf_assert (List.length y =? representationDim m) ;;
  match m with
  | Leaf _ LReal _ _ => real_pseudoLog out x y
  | Leaf _ LS2 _ _ => s2_pseudoLog out x y
  | Leaf _ (LSO3 MapMatrix) _ _ => em_pseudoLog out x y
  | Leaf _ (LSO3 MapQuat) _ _ => eq_pseudoLog out x y
  | Prod _ _ _ subs =>
      loop (fun i s out =>
              on_view DT m i (fun o => xi <- getView DR m x i ;; yi <- getView DR m y i ;;
                                       pseudoLog s o xi yi) out)
           0 subs out
  end.

(** Manifold::pseudoLog0 (Manifold.cpp:182-187), CartesianProduct::pseudoLog0_
    (CartesianProduct.cpp:178-184); S2 throws (S2.cpp:153-156). *)
Fixpoint pseudoLog0 (m : mfd) (out x : vec K) : res (vec K) :=
  _ <- mnf_assert (List.length out =? tangentDim m) ;;
  _ <- mnf_assert (List.length x =? representationDim m) ;;
  match m with
  | Leaf _ LReal _ _ => real_pseudoLog0 out x
  | Leaf _ LS2 _ _ => Fail EThrow
  | Leaf _ (LSO3 MapMatrix) _ _ => em_pseudoLog0 out x
  | Leaf _ (LSO3 MapQuat) _ _ => eq_pseudoLog0 out x
  | Prod _ _ _ subs =>
      loop (fun i s out =>
              on_view DT m i (fun o => xi <- getView DR m x i ;; pseudoLog0 s o xi) out)
           0 subs out
  end.

(** Manifold::setZero (Manifold.cpp:309-314), CartesianProduct::setZero_ (CartesianProduct.cpp:186-190). *)
Fixpoint setZero (m : mfd) (out : vec K) : res (vec K) :=
  _ <- mnf_assert (List.length out =? representationDim m) ;;
  match m with
  | Leaf _ LReal _ _ => Ok (real_setZero out)
  | Leaf _ LS2 _ _ => s2_setZero out
  | Leaf _ (LSO3 MapMatrix) _ _ => em_setZero out
  | Leaf _ (LSO3 MapQuat) _ _ => eq_setZero out
  | Prod _ _ _ subs => loop (fun i s out => on_view DR m i (setZero s) out) 0 subs out
  end.

(** Manifold::forceOnTxM (Manifold.cpp:334-342), CartesianProduct::forceOnTxM_
    (CartesianProduct.cpp:300-306). *)
Fixpoint forceOnTxM (m : mfd) (out inp x : vec K) : res (vec K) :=
  _ <- mnf_assert (List.length out =? tangentDim m) ;;
  _ <- mnf_assert (List.length x =? representationDim m) ;;
  _ <- mnf_assert (List.length inp =? tangentDim m) ;;
  match m with
  | Leaf _ LReal _ _ => real_forceOnTxM out inp
  | Leaf _ LS2 _ _ => s2_forceOnTxM out inp x
  | Leaf _ (LSO3 _) _ _ => so3_forceOnTxM out inp
  | Prod _ _ _ subs =>
      loop (fun i s out =>
              on_view DT m i (fun o => wi <- getView DT m inp i ;; xi <- getView DR m x i ;;
                                       forceOnTxM s o wi xi) out)
           0 subs out
  end.

(** Manifold::limitMap (Manifold.cpp:352-356), CartesianProduct::limitMap_ (CartesianProduct.cpp:308-312). *)
Fixpoint limitMap (m : mfd) (out : vec K) : res (vec K) :=
  _ <- mnf_assert (List.length out =? tangentDim m) ;;
  match m with
  | Leaf _ LReal _ _ => Ok (real_limitMap out)
  | Leaf _ LS2 _ _ => Ok (s2_limitMap out)
  | Leaf _ (LSO3 _) _ _ => Ok (so3_limitMap out)
  | Prod _ _ _ subs => loop (fun i s out => on_view DT m i (limitMap s) out) 0 subs out
  end.

(** Manifold::getTypicalMagnitude(out) (Manifold.cpp:358-362) and getTrustMagnitude(out) (371-375),
    CartesianProduct (CartesianProduct.cpp:314-324), leaves (RealSpace.cpp:178-181, 195; S2.cpp:255, 268;
    SO3.h:285-289, 304-308). *)
Fixpoint getTypicalMagnitude (m : mfd) (out : vec K) : res (vec K) :=
  _ <- mnf_assert (List.length out =? tangentDim m) ;;
  match m with
  | Leaf _ _ typ _ => assign out typ
  | Prod _ _ _ subs => loop (fun i s out => on_view DT m i (getTypicalMagnitude s) out) 0 subs out
  end.
Fixpoint getTrustMagnitude (m : mfd) (out : vec K) : res (vec K) :=
  _ <- mnf_assert (List.length out =? tangentDim m) ;;
  match m with
  | Leaf _ _ _ tru => assign out tru
  | Prod _ _ _ subs => loop (fun i s out => on_view DT m i (getTrustMagnitude s) out) 0 subs out
  end.

(** Manifold::diffRetractation (Manifold.cpp:205-210), CartesianProduct::diffRetractation_
    (CartesianProduct.cpp:192-202); S2 throws (S2.cpp:165-169).  Assigning the factor's Jacobian to
    the block asserts that the sizes agree. *)
Fixpoint diffRetractation (m : mfd) (x : vec K) : res (mat K) :=
  _ <- mnf_assert (List.length x =? representationDim m) ;;
  match m with
  | Leaf h LReal _ _ => Ok (mident (h_rdim h) (h_dim h))
  | Leaf _ LS2 _ _ => Fail EThrow
  | Leaf _ (LSO3 MapMatrix) _ _ => em_diffRetractation x
  | Leaf _ (LSO3 MapQuat) _ _ => eq_diffRetractation x
  | Prod h _ _ subs =>
      loop (fun i s J =>
              on_block DR DT m i i (fun B => xi <- getView DR m x i ;; Ji <- diffRetractation s xi ;;
                                             massign B Ji) J)
           0 subs (mzero (h_rdim h) (h_tdim h))
  end.

(** Manifold::applyDiffRetractation (Manifold.cpp:212-221), CartesianProduct::applyDiffRetractation_
    (CartesianProduct.cpp:204-213). *)
Fixpoint applyDiffRetractation (m : mfd) (out inp : mat K) (x : vec K) : res (mat K) :=
  _ <- mnf_assert (ncols inp =? representationDim m) ;;
  _ <- mnf_assert (ncols out =? tangentDim m) ;;
  _ <- mnf_assert (mrows inp =? mrows out) ;;
  _ <- mnf_assert (List.length x =? representationDim m) ;;
  match m with
  | Leaf _ LReal _ _ => real_copy out inp
  | Leaf _ LS2 _ _ => s2_applyDiffRetractation out inp x
  | Leaf _ (LSO3 MapMatrix) _ _ => em_applyDiffRetractation out inp x
  | Leaf _ (LSO3 MapQuat) _ _ => eq_applyDiffRetractation out inp x
  | Prod _ _ _ subs =>
      loop (fun i s out =>
              on_cols DT m i (fun o => ci <- getCols DR m inp i ;; xi <- getView DR m x i ;;
                                       applyDiffRetractation s o ci xi) out)
           0 subs out
  end.

(** Manifold::diffPseudoLog0 (Manifold.cpp:223-228), CartesianProduct::diffPseudoLog0_
    (CartesianProduct.cpp:215-225); S2 throws (S2.cpp:177-181). *)
Fixpoint diffPseudoLog0 (m : mfd) (x : vec K) : res (mat K) :=
  _ <- mnf_assert (List.length x =? representationDim m) ;;
  match m with
  | Leaf h LReal _ _ => Ok (mident (h_rdim h) (h_dim h))
  | Leaf _ LS2 _ _ => Fail EThrow
  | Leaf _ (LSO3 MapMatrix) _ _ => em_diffPseudoLog0 x
  | Leaf _ (LSO3 MapQuat) _ _ => eq_diffPseudoLog0 x
  | Prod h _ _ subs =>
      loop (fun i s J =>
              on_block DT DR m i i (fun B => xi <- getView DR m x i ;; Ji <- diffPseudoLog0 s xi ;;
                                             massign B Ji) J)
           0 subs (mzero (h_tdim h) (h_rdim h))
  end.

(** Manifold::applyDiffPseudoLog0 (Manifold.cpp:230-239), CartesianProduct::applyDiffPseudoLog0_
    (CartesianProduct.cpp:227-236); S2 throws (S2.cpp:183-187). *)
Fixpoint applyDiffPseudoLog0 (m : mfd) (out inp : mat K) (x : vec K) : res (mat K) :=
  _ <- mnf_assert (ncols out =? representationDim m) ;;
  _ <- mnf_assert (ncols inp =? tangentDim m) ;;
  _ <- mnf_assert (mrows inp =? mrows out) ;;
  _ <- mnf_assert (List.length x =? representationDim m) ;;
  match m with
  | Leaf _ LReal _ _ => real_copy out inp
  | Leaf _ LS2 _ _ => Fail EThrow
  | Leaf _ (LSO3 MapMatrix) _ _ => em_applyDiffPseudoLog0 out inp x
  | Leaf _ (LSO3 MapQuat) _ _ => eq_applyDiffPseudoLog0 out inp x
  | Prod _ _ _ subs =>
      loop (fun i s out =>
              on_cols DR m i (fun o => ci <- getCols DT m inp i ;; xi <- getView DR m x i ;;
                                       applyDiffPseudoLog0 s o ci xi) out)
           0 subs out
  end.

(** Checks common to the three transport members (Manifold.cpp:241-283). *)
Definition transport_checks (m : mfd) (x v : vec K) : res unit :=
  _ <- mnf_assert (List.length x =? representationDim m) ;;
  _ <- mnf_assert (List.length v =? tangentDim m) ;;
  b <- isInTxM m x v default_prec ;;
  mnf_assert b.

(** Manifold::applyTransport (Manifold.cpp:241-253), CartesianProduct::applyTransport_
    (CartesianProduct.cpp:238-248).  S2::applyTransport_ first calls the public retractation. *)
Fixpoint applyTransport (m : mfd) (out inp : mat K) (x v : vec K) : res (mat K) :=
  _ <- mnf_assert (mrows inp =? tangentDim m) ;;
  _ <- mnf_assert (mrows out =? tangentDim m) ;;
  _ <- mnf_assert (ncols inp =? ncols out) ;;
  _ <- transport_checks m x v ;;
  match m with
  | Leaf _ LReal _ _ => real_copy out inp
  | Leaf _ LS2 _ _ => y <- retractation m (vconst 3 k0) x v ;; s2_applyTransport out inp x y
  | Leaf _ (LSO3 _) _ _ => so3_copy out inp
  | Prod _ _ _ subs =>
      loop (fun i s out =>
              on_rows DT m i (fun o => ri <- getRows DT m inp i ;; xi <- getView DR m x i ;;
                                       vi <- getView DT m v i ;; applyTransport s o ri xi vi) out)
           0 subs out
  end.

(** Manifold::applyInvTransport (Manifold.cpp:255-268), CartesianProduct::applyInvTransport_
    (CartesianProduct.cpp:250-260): the product takes *column* views. *)
Fixpoint applyInvTransport (m : mfd) (out inp : mat K) (x v : vec K) : res (mat K) :=
  _ <- mnf_assert (mrows inp =? tangentDim m) ;;
  _ <- mnf_assert (mrows out =? tangentDim m) ;;
  _ <- mnf_assert (ncols inp =? ncols out) ;;
  _ <- transport_checks m x v ;;
  match m with
  | Leaf _ LReal _ _ => real_copy out inp
  | Leaf _ LS2 _ _ => y <- retractation m (vconst 3 k0) x v ;; s2_applyInvTransport out inp x y
  | Leaf _ (LSO3 _) _ _ => so3_copy out inp
  | Prod _ _ _ subs =>
      loop (fun i s out =>
              on_cols DT m i (fun o => ci <- getCols DT m inp i ;; xi <- getView DR m x i ;;
                                       vi <- getView DT m v i ;; applyInvTransport s o ci xi vi) out)
           0 subs out
  end.

(** Manifold::applyInvTransportOnTheRight (Manifold.cpp:270-283),
    CartesianProduct::applyInvTransportOnTheRight_ (CartesianProduct.cpp:262-273). *)
Fixpoint applyInvTransportOnTheRight (m : mfd) (out inp : mat K) (x v : vec K) : res (mat K) :=
  _ <- mnf_assert (ncols inp =? tangentDim m) ;;
  _ <- mnf_assert (ncols out =? tangentDim m) ;;
  _ <- mnf_assert (mrows inp =? mrows out) ;;
  _ <- transport_checks m x v ;;
  match m with
  | Leaf _ LReal _ _ => real_copy out inp
  | Leaf _ LS2 _ _ =>
      y <- retractation m (vconst 3 k0) x v ;; s2_applyInvTransportOnTheRight out inp x y
  | Leaf _ (LSO3 _) _ _ => so3_copy out inp
  | Prod _ _ _ subs =>
      loop (fun i s out =>
              on_cols DT m i (fun o => ci <- getCols DT m inp i ;; xi <- getView DR m x i ;;
                                       vi <- getView DT m v i ;;
                                       applyInvTransportOnTheRight s o ci xi vi) out)
           0 subs out
  end.

(** Manifold::tangentConstraint (Manifold.cpp:316-323), CartesianProduct::tangentConstraint_
    (CartesianProduct.cpp:275-288); RealSpace and SO3 leave the empty matrix alone
    (RealSpace.cpp:156-159, ExpMapMatrix.cpp:290-293, ExpMapQuaternion.cpp:298-301).
    The loop carries (out, k). *)
Fixpoint tangentConstraint (m : mfd) (out : mat K) (x : vec K) : res (mat K) :=
  _ <- mnf_assert (Z.of_nat (mrows out) =? Z.of_nat (tangentDim m) - Z.of_nat (dim m))%Z ;;
  _ <- mnf_assert (ncols out =? tangentDim m) ;;
  _ <- mnf_assert (List.length x =? representationDim m) ;;
  match m with
  | Leaf _ LS2 _ _ => s2_tangentConstraint out x
  | Leaf _ _ _ _ => Ok out
  | Prod _ _ _ subs =>
      r <- loop (fun i s (st : mat K * nat) =>
                   let '(out, k) := st in
                   let sz := tangentDim s - dim s in
                   out' <- on_cols DT m i
                             (fun Ci => B <- middleRows Ci k sz ;; xi <- getView DR m x i ;;
                                        B' <- tangentConstraint s B xi ;;
                                        Ok (set_middleRows Ci k B')) out ;;
                   Ok (out', k + sz))
                0 subs (mzero (mrows out) (ncols out), 0) ;;
      Ok (fst r)
  end.

(** Manifold::getIdentityOnTxM (Manifold.cpp:344-350), CartesianProduct::getIdentityOnTxM_
    (CartesianProduct.cpp:66-78). *)
Fixpoint getIdentityOnTxM (m : mfd) (out : mat K) (x : vec K) : res (mat K) :=
  _ <- mnf_assert (mrows out =? tangentDim m) ;;
  _ <- mnf_assert (ncols out =? tangentDim m) ;;
  _ <- mnf_assert (List.length x =? representationDim m) ;;
  match m with
  | Leaf _ LReal _ _ => Ok (real_getIdentityOnTxM out)
  | Leaf _ LS2 _ _ => s2_getIdentityOnTxM out x
  | Leaf _ (LSO3 _) _ _ => Ok (so3_getIdentityOnTxM out)
  | Prod _ _ _ subs =>
      loop (fun i s out =>
              out' <- on_block DT DT m i i (fun B => xi <- getView DR m x i ;;
                                                     getIdentityOnTxM s B xi) out ;;
              loop (fun _ j out =>
                      out1 <- on_block DT DT m i j (fun B => Ok (mzero (mrows B) (ncols B))) out ;;
                      on_block DT DT m j i (fun B => Ok (mzero (mrows B) (ncols B))) out1)
                   0 (seq 0 i) out')
           0 subs out
  end.

(** Manifold::createRandomPoint(out, coeff) (Manifold.cpp:95-100) and the createRandomPoint_ members
    (RealSpace.cpp:94-97, S2.cpp:86, SO3.h:167-173, CartesianProduct.cpp:152-156).  Eigen's Random()
    draws are the values [rnd pos, rnd (pos+1), ...]; the new position is returned with the vector. *)
Definition draw (rnd : nat -> K) (pos n : nat) : vec K := map rnd (seq pos n).
Fixpoint createRandomPoint (m : mfd) (out : vec K) (coeff : K) (rnd : nat -> K) (pos : nat)
  : res (vec K * nat) :=
  _ <- mnf_assert (List.length out =? representationDim m) ;;
  match m with
  | Leaf h LReal _ _ =>
      r <- real_createRandomPoint out coeff (draw rnd pos (h_rdim h)) ;; Ok (r, pos + h_rdim h)
  | Leaf _ LS2 _ _ => r <- s2_rand out (draw rnd pos 3) ;; Ok (r, pos + 3)
  | Leaf _ (LSO3 mp) _ _ =>
      z <- match mp with MapMatrix => em_setZero out | MapQuat => eq_setZero out end ;;
      r <- retractation m z z (vscale coeff (draw rnd pos 3)) ;; Ok (r, pos + 3)
  | Prod _ _ _ subs =>
      loop (fun i s (st : vec K * nat) =>
              let '(out, pos) := st in
              '(b, d) <- view_range DR m (List.length out) i ;;
              o <- segment out b d ;;
              '(r, pos') <- createRandomPoint s o coeff rnd pos ;;
              Ok (set_segment out b r, pos'))
           0 subs (out, pos)
  end.

(** isSameTopology (RealSpace.cpp:71-77, S2.cpp:293-299, SO3.h:337-344, CartesianProduct.cpp:337-350).
    CartesianPower is a CartesianProduct for dynamic_cast. *)
Fixpoint isSameTopology (m other : mfd) : bool :=
  match m, other with
  | Leaf h LReal _ _, Leaf h' LReal _ _ => h_dim h =? h_dim h'
  | Leaf _ LS2 _ _, Leaf _ LS2 _ _ => true
  | Leaf _ (LSO3 MapMatrix) _ _, Leaf _ (LSO3 MapMatrix) _ _ => true
  | Leaf _ (LSO3 MapQuat) _ _, Leaf _ (LSO3 MapQuat) _ _ => true
  | Prod _ _ _ subs, Prod _ _ _ osubs =>
      (List.length subs =? List.length osubs)
      && (fix all (l o : list mfd) : bool :=
            match l, o with
            | s :: l', t :: o' => if isSameTopology s t then all l' o' else false
            | [], _ => true
            | _ :: _, [] => false    (* other(i) out of range; excluded by the length test *)
            end) subs osubs
  | _, _ => false
  end.

End Manifold.
Arguments mfd K : clear implicits.
