(** Real-number vocabulary of the numeric theorems: vectors, rotations, unit quaternions, points and
    tangent vectors of a tree of manifolds.  Nothing here refers to the model's operations. *)
From Coq Require Import Reals List Lra.
From Verif Require Import Base Vec Model_SO3 Model_Manifold Spec XR.
Import ListNotations.
Local Open Scope R_scope.

(** ** Vectors *)
Fixpoint rdot (x y : list R) : R :=
  match x, y with a :: x', b :: y' => a * b + rdot x' y' | _, _ => 0 end.
Definition rnorm (x : list R) : R := sqrt (rdot x x).
Definition radd (x y : list R) : list R := map (fun p => fst p + snd p) (combine x y).
Definition rsub (x y : list R) : list R := map (fun p => fst p - snd p) (combine x y).
Definition rscal (a : R) (x : list R) : list R := map (Rmult a) x.
(** Same length, entries within [e]. *)
Definition near_v (e : R) (x y : list R) : Prop := Forall2 (fun a b => Rabs (a - b) <= e) x y.

(** ** 3x3 matrices and rotations *)
Definition ridm : m3 R := M3 1 0 0 0 1 0 0 0 1.
Definition rtr (A : m3 R) : m3 R :=
  M3 (a00 A) (a10 A) (a20 A) (a01 A) (a11 A) (a21 A) (a02 A) (a12 A) (a22 A).
Definition rmul (A B : m3 R) : m3 R :=
  let s a b c d e f := a * d + b * e + c * f in
  let row0 := s (a00 A) (a01 A) (a02 A) in
  let row1 := s (a10 A) (a11 A) (a12 A) in
  let row2 := s (a20 A) (a21 A) (a22 A) in
  M3 (row0 (a00 B) (a10 B) (a20 B)) (row0 (a01 B) (a11 B) (a21 B)) (row0 (a02 B) (a12 B) (a22 B))
     (row1 (a00 B) (a10 B) (a20 B)) (row1 (a01 B) (a11 B) (a21 B)) (row1 (a02 B) (a12 B) (a22 B))
     (row2 (a00 B) (a10 B) (a20 B)) (row2 (a01 B) (a11 B) (a21 B)) (row2 (a02 B) (a12 B) (a22 B)).
Definition rdet (A : m3 R) : R :=
  a00 A * a11 A * a22 A + a01 A * a12 A * a20 A + a02 A * a10 A * a21 A
  - a02 A * a11 A * a20 A - a01 A * a10 A * a22 A - a00 A * a12 A * a21 A.
Definition rmulv (A : m3 R) (v : list R) : list R :=
  [rdot [a00 A; a01 A; a02 A] v; rdot [a10 A; a11 A; a12 A] v; rdot [a20 A; a21 A; a22 A] v].
Definition rot (A : m3 R) : Prop := rmul (rtr A) A = ridm /\ rdet A = 1.
(** Entries of A^T A and the determinant are within [e] of those of a rotation. *)
Definition near_rot (e : R) (A : m3 R) : Prop :=
  let G := rmul (rtr A) A in
  Rabs (a00 G - 1) <= e /\ Rabs (a11 G - 1) <= e /\ Rabs (a22 G - 1) <= e /\
  Rabs (a01 G) <= e /\ Rabs (a02 G) <= e /\ Rabs (a10 G) <= e /\ Rabs (a12 G) <= e /\ Rabs (a20 G) <= e /\
  Rabs (a21 G) <= e /\ Rabs (rdet A - 1) <= e.
(** Trace. *)
Definition tr3 (A : m3 R) : R := a00 A + a11 A + a22 A.
(** The 9 stored doubles: column after column. *)
Definition flat9 (A : m3 R) : list R :=
  [a00 A; a10 A; a20 A; a01 A; a11 A; a21 A; a02 A; a12 A; a22 A].

(** Rotation by the angle |v| around v (Rodrigues): I + sin t / t [v] + (1 - cos t) / t^2 [v]^2. *)
Definition rodrigues (s c x y z : R) : m3 R :=
  M3 (1 - c * (y * y + z * z)) (- s * z + c * x * y) (s * y + c * x * z)
     (s * z + c * x * y) (1 - c * (x * x + z * z)) (- s * x + c * y * z)
     (- s * y + c * x * z) (s * x + c * y * z) (1 - c * (x * x + y * y)).
Definition expSO3 (v : list R) : m3 R :=
  match v with
  | [x; y; z] =>
      let t := rnorm v in
      if Req_EM_T t 0 then ridm else rodrigues (sin t / t) ((1 - cos t) / (t * t)) x y z
  | _ => ridm
  end.

(** ** Quaternions (w, x, y, z) *)
Definition qn2 (q : quat R) : R := qw q * qw q + qx q * qx q + qy q * qy q + qz q * qz q.
Definition qflat (q : quat R) : list R := [qw q; qx q; qy q; qz q].
Definition qprod (a b : quat R) : quat R :=
  Q4 (qw a * qw b - qx a * qx b - qy a * qy b - qz a * qz b)
     (qw a * qx b + qx a * qw b + qy a * qz b - qz a * qy b)
     (qw a * qy b - qx a * qz b + qy a * qw b + qz a * qx b)
     (qw a * qz b + qx a * qy b - qy a * qx b + qz a * qw b).
Definition qneg (a : quat R) : quat R := Q4 (- qw a) (- qx a) (- qy a) (- qz a).
(** Half-angle quaternion of the rotation by |v| around v. *)
Definition expQ (v : list R) : quat R :=
  match v with
  | [x; y; z] =>
      let t := rnorm v in
      if Req_EM_T t 0 then Q4 1 0 0 0
      else Q4 (cos (t / 2)) (sin (t / 2) / t * x) (sin (t / 2) / t * y) (sin (t / 2) / t * z)
  | _ => Q4 1 0 0 0
  end.
(** Rotation matrix of a unit quaternion. *)
Definition qmat (q : quat R) : m3 R :=
  let w := qw q in let x := qx q in let y := qy q in let z := qz q in
  M3 (1 - 2 * (y * y + z * z)) (2 * (x * y - w * z)) (2 * (x * z + w * y))
     (2 * (x * y + w * z)) (1 - 2 * (x * x + z * z)) (2 * (y * z - w * x))
     (2 * (x * z - w * y)) (2 * (y * z + w * x)) (1 - 2 * (x * x + y * y)).

(** ** Trees *)
(** [x] is (exactly) a point of the elementary manifold [m]. *)
Definition on_leaf (m : mfd XR) (x : list R) : Prop :=
  match m with
  | Leaf h LReal _ _ => length x = h_dim h
  | Leaf _ LS2 _ _ => length x = 3%nat /\ rdot x x = 1
  | Leaf _ (LSO3 MapMatrix) _ _ => exists A, x = flat9 A /\ rot A
  | Leaf _ (LSO3 MapQuat) _ _ => exists q, x = qflat q /\ qn2 q = 1
  | Prod _ _ _ _ => False
  end.
(** [v] is (exactly) tangent at [x]. *)
Definition tan_leaf (m : mfd XR) (x v : list R) : Prop :=
  length v = tangentDim m /\
  match m with Leaf _ LS2 _ _ => rdot x v = 0 | _ => True end.

Definition onM (m : mfd XR) (x : list R) : Prop :=
  exists xs, x = concat xs /\ Forall2 on_leaf (leaves m) xs.
Definition tanM (m : mfd XR) (x v : list R) : Prop :=
  exists xs vs, x = concat xs /\ v = concat vs /\ Forall2 on_leaf (leaves m) xs /\
                Forall3 tan_leaf (leaves m) xs vs.
(** A property of the leaves' slices of a tangent vector. *)
Definition eachT (Q : mfd XR -> list R -> Prop) (m : mfd XR) (v : list R) : Prop :=
  exists vs, v = concat vs /\ Forall2 (fun s vi => length vi = tangentDim s /\ Q s vi) (leaves m) vs.

Definition is_so3 (m : mfd XR) : bool := match m with Leaf _ (LSO3 _) _ _ => true | _ => false end.
Definition is_s2 (m : mfd XR) : bool := match m with Leaf _ LS2 _ _ => true | _ => false end.
Definition no_s2 (m : mfd XR) : Prop := Forall (fun s => is_s2 s = false) (leaves m).

(** [y] is the point reached from [x] by the tangent vector [v]: addition on R^n, normalised sum on the
    sphere, right multiplication by the exact exponential on SO(3). *)
Definition shift_leaf (m : mfd XR) (x v y : list R) : Prop :=
  match m with
  | Leaf _ LReal _ _ => y = radd x v
  | Leaf _ LS2 _ _ => y = rscal (/ rnorm (radd x v)) (radd x v)
  | Leaf _ (LSO3 MapMatrix) _ _ => exists A, x = flat9 A /\ y = flat9 (rmul A (expSO3 v))
  | Leaf _ (LSO3 MapQuat) _ _ => exists q, x = qflat q /\ y = qflat (qprod q (expQ v))
  | Prod _ _ _ _ => False
  end.
Definition shiftM (m : mfd XR) (x v y : list R) : Prop :=
  exists xs vs ys, x = concat xs /\ v = concat vs /\ y = concat ys /\
    Forall2 on_leaf (leaves m) xs /\ Forall3 tan_leaf (leaves m) xs vs /\
    Forall4 shift_leaf (leaves m) xs vs ys.
(** Same element of the manifold: equal, except that unit quaternions stand for rotations up to sign. *)
Definition same_leaf (m : mfd XR) (x y : list R) : Prop :=
  match m with
  | Leaf _ (LSO3 MapQuat) _ _ => y = x \/ y = map Ropp x
  | _ => y = x
  end.
Definition sameM (m : mfd XR) (x y : list R) : Prop :=
  exists xs ys, x = concat xs /\ y = concat ys /\
    Forall2 (fun s z => length z = representationDim s) (leaves m) xs /\ Forall3 same_leaf (leaves m) xs ys.

(** Tangent vectors for which the library's series and near-pi switches are not active. *)
Definition off_switch (m : mfd XR) (v : list R) : Prop :=
  match m with
  | Leaf _ (LSO3 MapMatrix) _ _ => v = [0; 0; 0] \/ 1 / 10000 <= rnorm v <= PI - 1 / 10000000
  | Leaf _ (LSO3 MapQuat) _ _ => v = [0; 0; 0] \/ 1 / 10000 <= rnorm v < PI
  | _ => True
  end.
(** Tangent vectors whose rotation parts are below pi, by 1e-7 on the matrix map. *)
Definition below_pi (m : mfd XR) (v : list R) : Prop :=
  match m with
  | Leaf _ (LSO3 MapMatrix) _ _ => rnorm v <= PI - 1 / 10000000
  | Leaf _ (LSO3 MapQuat) _ _ => rnorm v < PI
  | _ => True
  end.
