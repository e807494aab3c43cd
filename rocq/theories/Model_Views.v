(** The matrix views as the caller sees them: every instance of the templates getView<Dr, Dc> and
    getConstView<Dr, Dc> (include/manifolds/Manifold.h:133-144, 486-590; view.h:26-72). *)
From Coq Require Import List Arith Bool.
From Verif Require Import Base Scalar Vec Model_Manifold.
Import ListNotations.

Section Views.
Context {K : Type} {SK : Scalar K}.

(** eDimension (view.h:26-31): R, T, or the full space F. *)
Inductive vdim := VD (D : edim) | VF.

(** getConstView<Dr, Dc>(val, ir, ic): the block (Manifold.h:509-515), the specialisations with one F
    (middleCols: Manifold.h:524-529, 538-543; middleRows: 553-558, 568-573) and F, F (583-588).
    None of them looks at the size of [val]; Eigen's block functions check their range. *)
Definition getMatView (Dr Dc : vdim) (m : mfd K) (M : mat K) (ir ic : nat) : res (mat K) :=
  match Dr, Dc with
  | VD a, VD b =>
      sr <- getStart a m ir ;; sc <- getStart b m ic ;;
      dr <- getDimSub a m ir ;; dc <- getDimSub b m ic ;; block M sr sc dr dc
  | VF, VD b => getCols b m M ic
  | VD a, VF => getRows a m M ir
  | VF, VF => Ok M
  end.

(** Passing getView<Dr, Dc>(out, ir, ic) as an output argument to [f] (Manifold.h:500-507, 517-522, 531-536,
    545-551, 560-566, 575-581). *)
Definition onMatView (Dr Dc : vdim) (m : mfd K) (ir ic : nat) (f : mat K -> res (mat K)) (out : mat K)
  : res (mat K) :=
  match Dr, Dc with
  | VD a, VD b => on_block a b m ir ic f out
  | VF, VD b => on_cols b m ic f out
  | VD a, VF => on_rows a m ir f out
  | VF, VF => f out
  end.

(** getView<Dr, Dc>(val, i) = getView<Dr, Dc>(val, i, i) (Manifold.h:486-498). *)
Definition getMatView1 (Dr Dc : vdim) (m : mfd K) (M : mat K) (i : nat) : res (mat K) := getMatView Dr Dc m M i i.
Definition onMatView1 (Dr Dc : vdim) (m : mfd K) (i : nat) (f : mat K -> res (mat K)) (out : mat K)
  : res (mat K) := onMatView Dr Dc m i i f out.
End Views.
