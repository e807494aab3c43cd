(** Eigen vectors (lists), column-major matrices, 3x3 matrices. *)
From Coq Require Import List Arith Bool Lia ZArith.
From Verif Require Import Base Scalar.
Import ListNotations.

(** Eigen vectors. *)
Notation vec := list (only parsing).

Section Vec.
Context {K : Type} {SK : Scalar K}.


(** Coefficient-wise Eigen expressions; Eigen asserts equal sizes, callers below do it. *)
Definition vadd (x y : vec K) : vec K := map2 kadd x y.
Definition vsub (x y : vec K) : vec K := map2 ksub x y.
(** [s * x] *)
Definition vscale (s : K) (x : vec K) : vec K := map (kmul s) x.
(** [x / s]  (Eigen's scalar quotient; modelled as one division per coefficient) *)
Definition vdivs (x : vec K) (s : K) : vec K := map (fun a => kdiv a s) x.

(** [x.dot(y)]: the sum of the products; in which order they are added is up to the scalar's [ksum]. *)
Definition dot (x y : vec K) : K := ksum (map2 kmul x y).
(** [x.squaredNorm()], [x.norm()], [x.lpNorm<2>()] *)
Definition sqnorm (x : vec K) : K := dot x x.
Definition norm (x : vec K) : K := ksqrt (sqnorm x).
(** [VectorXd::Constant(n, c)] *)
Definition vconst (n : nat) (c : K) : vec K := repeat c n.

(** Size assertion of a binary coefficient-wise expression. *)
Definition same_size (x y : vec K) : res unit := eigen_assert (length x =? length y).

(** ** Matrices: number of rows and list of columns. *)
Record mat := Mat { mrows : nat; mcols_ : list (vec K) }.
Definition ncols (M : mat) : nat := length (mcols_ M).

Definition mbuild (r c : nat) (f : nat -> nat -> K) : mat :=
  Mat r (map (fun j => map (fun i => f i j) (seq 0 r)) (seq 0 c)).
Definition mzero (r c : nat) : mat := Mat r (repeat (repeat k0 r) c).
Definition delta (i j : nat) : K := if i =? j then k1 else k0.
(** [setIdentity()], [MatrixXd::Identity(r, c)] *)
Definition mident (r c : nat) : mat := mbuild r c delta.
Definition mget (M : mat) (i j : nat) : K := nth i (nth j (mcols_ M) []) k0.
Definition mrow (M : mat) (i : nat) : vec K := map (fun c => nth i c k0) (mcols_ M).
Definition mtrans (M : mat) : mat := mbuild (ncols M) (mrows M) (fun i j => mget M j i).

(** [M.middleCols(s, n)], [M.middleRows(s, n)], [M.block(r, c, h, w)] with Eigen's range assertions. *)
Definition middleCols (M : mat) (s n : nat) : res mat :=
  cs <- segment (mcols_ M) s n ;; Ok (Mat (mrows M) cs).
Definition set_middleCols (M : mat) (s : nat) (B : mat) : mat :=
  Mat (mrows M) (set_segment (mcols_ M) s (mcols_ B)).
Definition middleRows (M : mat) (s n : nat) : res mat :=
  _ <- eigen_assert (s + n <=? mrows M) ;;
  Ok (Mat n (map (fun c => firstn n (skipn s c)) (mcols_ M))).
Definition set_middleRows (M : mat) (s : nat) (B : mat) : mat :=
  Mat (mrows M) (map2 (fun c b => set_segment c s b) (mcols_ M) (mcols_ B)).
Definition block (M : mat) (r c h w : nat) : res mat :=
  B <- middleCols M c w ;; middleRows B r h.
Definition set_block (M : mat) (r c : nat) (B : mat) : mat :=
  let band := Mat (mrows M) (firstn (ncols B) (skipn c (mcols_ M))) in
  set_middleCols M c (set_middleRows band r B).

(** [out = val] for matrices (Ref: sizes must agree). *)
Definition massign (out val : mat) : res mat :=
  _ <- eigen_assert ((mrows out =? mrows val) && (ncols out =? ncols val)) ;; Ok val.

(** [A * b] and [A * B]: coefficients are sums over k of A(i,k) b(k). *)
Definition mvmul (A : mat) (b : vec K) : vec K :=
  map (fun i => dot (mrow A i) b) (seq 0 (mrows A)).
Definition mmul (A B : mat) : mat := Mat (mrows A) (map (mvmul A) (mcols_ B)).

(** ** 3x3 matrices (Eigen::Matrix3d), fields named (row, column). *)
Record m3 := M3 { a00 : K; a01 : K; a02 : K;
                  a10 : K; a11 : K; a12 : K;
                  a20 : K; a21 : K; a22 : K }.

(** [Eigen::Map<Matrix3d>(data)]: column-major layout of the 9 doubles. *)
Definition m3_to_list (A : m3) : vec K :=
  [a00 A; a10 A; a20 A; a01 A; a11 A; a21 A; a02 A; a12 A; a22 A].
Definition m3_read (x : vec K) : res m3 :=
  l <- raw_read 9 x ;;
  match l with
  | [x0; x1; x2; x3; x4; x5; x6; x7; x8] => Ok (M3 x0 x3 x6 x1 x4 x7 x2 x5 x8)
  | _ => Fail EUB
  end.

Definition m3_id : m3 := M3 k1 k0 k0 k0 k1 k0 k0 k0 k1.
Definition m3_trans (A : m3) : m3 :=
  M3 (a00 A) (a10 A) (a20 A) (a01 A) (a11 A) (a21 A) (a02 A) (a12 A) (a22 A).
Definition s3 (a b c d e f : K) : K := ksum [(a * b)%k; (c * d)%k; (e * f)%k].
Definition m3_mul (A B : m3) : m3 :=
  M3 (s3 (a00 A) (a00 B) (a01 A) (a10 B) (a02 A) (a20 B))
     (s3 (a00 A) (a01 B) (a01 A) (a11 B) (a02 A) (a21 B))
     (s3 (a00 A) (a02 B) (a01 A) (a12 B) (a02 A) (a22 B))
     (s3 (a10 A) (a00 B) (a11 A) (a10 B) (a12 A) (a20 B))
     (s3 (a10 A) (a01 B) (a11 A) (a11 B) (a12 A) (a21 B))
     (s3 (a10 A) (a02 B) (a11 A) (a12 B) (a12 A) (a22 B))
     (s3 (a20 A) (a00 B) (a21 A) (a10 B) (a22 A) (a20 B))
     (s3 (a20 A) (a01 B) (a21 A) (a11 B) (a22 A) (a21 B))
     (s3 (a20 A) (a02 B) (a21 A) (a12 B) (a22 A) (a22 B)).
Definition m3_map2 (f : K -> K -> K) (A B : m3) : m3 :=
  M3 (f (a00 A) (a00 B)) (f (a01 A) (a01 B)) (f (a02 A) (a02 B))
     (f (a10 A) (a10 B)) (f (a11 A) (a11 B)) (f (a12 A) (a12 B))
     (f (a20 A) (a20 B)) (f (a21 A) (a21 B)) (f (a22 A) (a22 B)).
Definition m3_divs (A : m3) (s : K) : m3 := m3_map2 (fun a _ => kdiv a s) A A.
(** [M.trace()] *)
Definition m3_trace (A : m3) : K := ksum [a00 A; a11 A; a22 A].
(** [M.determinant()]: Eigen's bruteforce_det3_helper expansion along the first row. *)
Definition m3_det (A : m3) : K :=
  (a00 A * (a11 A * a22 A - a12 A * a21 A)
   - a01 A * (a10 A * a22 A - a12 A * a20 A)
   + a02 A * (a10 A * a21 A - a11 A * a20 A))%k.
(** [M.cwiseAbs2().sum()] *)
Definition m3_sqsum (A : m3) : K := sqnorm (m3_to_list A).
(** [M * v] for a 3-vector *)
Definition m3_mulv (A : m3) (v : vec K) : vec K :=
  [dot [a00 A; a01 A; a02 A] v; dot [a10 A; a11 A; a12 A] v; dot [a20 A; a21 A; a22 A] v].

(** Scalar comparisons of Eigen: isApprox(x, y, p) is |x-y| <= min(|x|,|y|) p;
    isMuchSmallerThan(x, y, p) is |x| <= |y| p. *)
Definition k_isApprox (x y p : K) : bool := (kabs (x - y)%k <=? kmin (kabs x) (kabs y) * p)%k.
Definition k_isMuchSmallerThan (x y p : K) : bool := (kabs x <=? kabs y * p)%k.

(** [M.isIdentity(p)]: columns, then rows. *)
Definition m3_isIdentity (A : m3) (p : K) : bool :=
  k_isApprox (a00 A) k1 p && k_isMuchSmallerThan (a10 A) k1 p && k_isMuchSmallerThan (a20 A) k1 p &&
  k_isMuchSmallerThan (a01 A) k1 p && k_isApprox (a11 A) k1 p && k_isMuchSmallerThan (a21 A) k1 p &&
  k_isMuchSmallerThan (a02 A) k1 p && k_isMuchSmallerThan (a12 A) k1 p && k_isApprox (a22 A) k1 p.

(** [A.isApprox(B, p)]: |A-B|^2 <= p^2 min(|A|^2, |B|^2) (Frobenius). *)
Definition m3_isApprox (A B : m3) (p : K) : bool :=
  (m3_sqsum (m3_map2 ksub A B) <=? p * p * kmin (m3_sqsum A) (m3_sqsum B))%k.

(** [x.cross(y)] for 3-vectors. *)
Definition cross (x y : vec K) : vec K :=
  match x, y with
  | [x0; x1; x2], [y0; y1; y2] =>
      [(x1 * y2 - x2 * y1)%k; (x2 * y0 - x0 * y2)%k; (x0 * y1 - x1 * y0)%k]
  | _, _ => []
  end.

(** Conversion of a Ref<VectorXd> to Vector3d: Eigen asserts the size. *)
Definition as_vec3 (x : vec K) : res (vec K) := _ <- eigen_assert (length x =? 3) ;; Ok x.

End Vec.
Arguments mat K : clear implicits.
Arguments m3 K : clear implicits.
