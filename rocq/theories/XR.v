(** Exact real arithmetic with one infinity and an error value, the arithmetic of the numeric theorems.
    [Undef] stands for NaN and for every result IEEE would make infinite by division by zero; every
    operation on it gives [Undef] and every comparison with it is false.  Rounding, overflow, signed
    zeros and negative infinity are not modelled. *)
From Coq Require Import Reals List Lra ZArith.
From Verif Require Import Base Scalar Vec.
Import ListNotations.
Local Open Scope R_scope.

Inductive XR := Fin (r : R) | PInf | Undef.

Definition xadd a b := match a, b with
  | Fin x, Fin y => Fin (x + y)
  | Fin _, PInf | PInf, Fin _ | PInf, PInf => PInf
  | _, _ => Undef end.
Definition xsub a b := match a, b with
  | Fin x, Fin y => Fin (x - y)
  | PInf, Fin _ => PInf
  | _, _ => Undef end.
Definition lift2 (f : R -> R -> R) a b := match a, b with Fin x, Fin y => Fin (f x y) | _, _ => Undef end.
Definition lift1 (f : R -> R) a := match a with Fin x => Fin (f x) | _ => Undef end.
Definition xdiv a b := match a, b with
  | Fin x, Fin y => if Req_EM_T y 0 then Undef else Fin (x / y)
  | _, _ => Undef end.
Definition xabs a := match a with Fin x => Fin (Rabs x) | PInf => PInf | Undef => Undef end.
Definition xsqrt a := match a with Fin x => if Rlt_dec x 0 then Undef else Fin (sqrt x) | _ => Undef end.
Definition xacos a := match a with
  | Fin x => if Rle_dec (-1) x then if Rle_dec x 1 then Fin (acos x) else Undef else Undef
  | _ => Undef end.

(** atan2(y, x) of <cmath>, for unsigned zeros. *)
Definition Ratan2 (y x : R) : R :=
  if Rlt_dec 0 x then atan (y / x)
  else if Rlt_dec x 0 then (if Rle_dec 0 y then atan (y / x) + PI else atan (y / x) - PI)
  else if Rlt_dec 0 y then PI / 2 else if Rlt_dec y 0 then - (PI / 2) else 0.

Definition Rltb a b : bool := if Rlt_dec a b then true else false.
Definition Rleb a b : bool := if Rle_dec a b then true else false.
Definition Reqb a b : bool := if Req_EM_T a b then true else false.
Definition xltb a b := match a, b with Fin x, Fin y => Rltb x y | Fin _, PInf => true | _, _ => false end.
Definition xleb a b := match a, b with Fin x, Fin y => Rleb x y | Fin _, PInf | PInf, PInf => true | _, _ => false end.
Definition xeqb a b := match a, b with Fin x, Fin y => Reqb x y | PInf, PInf => true | _, _ => false end.

#[export] Instance XRS : Scalar XR := {|
  k0 := Fin 0; k1 := Fin 1; kadd := xadd; ksum := foldsum (Fin 0) xadd; ksub := xsub; kmul := lift2 Rmult; kdiv := xdiv;
  kopp := lift1 Ropp; kabs := xabs; ksqrt := xsqrt; kcos := lift1 cos; ksin := lift1 sin; kacos := xacos;
  katan2 := lift2 Ratan2; kltb := xltb; kleb := xleb; keqb := xeqb;
  klit := fun n d => Fin (IZR n / IZR (Zpos d)); kpi := Fin PI; kinf := PInf |}.

Definition fin : list R -> list XR := map Fin.

Lemma Fin_inj a b : Fin a = Fin b -> a = b.
Proof. congruence. Qed.
Lemma fin_inj x y : fin x = fin y -> x = y.
Proof. revert y; induction x; intros [|b y] H; simpl in H; try discriminate; auto. inversion H. f_equal; auto. Qed.
Lemma fin_length x : length (fin x) = length x.
Proof. apply map_length. Qed.
Lemma fin_app x y : fin (x ++ y) = fin x ++ fin y.
Proof. apply map_app. Qed.
Lemma fin_concat xs : fin (concat xs) = concat (map fin xs).
Proof. apply concat_map. Qed.

Lemma Rltb_true a b : Rltb a b = true <-> a < b.
Proof. unfold Rltb. destruct (Rlt_dec a b); split; intros; auto; discriminate. Qed.
Lemma Rltb_false a b : Rltb a b = false <-> b <= a.
Proof. unfold Rltb. destruct (Rlt_dec a b); split; intros; auto; try lra; discriminate. Qed.
Lemma Rleb_true a b : Rleb a b = true <-> a <= b.
Proof. unfold Rleb. destruct (Rle_dec a b); split; intros; auto; discriminate. Qed.
Lemma Rleb_false a b : Rleb a b = false <-> b < a.
Proof. unfold Rleb. destruct (Rle_dec a b); split; intros; auto; try lra; discriminate. Qed.
Lemma Reqb_true a b : Reqb a b = true <-> a = b.
Proof. unfold Reqb. destruct (Req_EM_T a b); split; intros; auto; discriminate. Qed.
Lemma Reqb_false a b : Reqb a b = false <-> a <> b.
Proof. unfold Reqb. destruct (Req_EM_T a b); split; intros; auto; [discriminate|contradiction]. Qed.

Lemma xdiv_fin a b : b <> 0 -> xdiv (Fin a) (Fin b) = Fin (a / b).
Proof. intros H. simpl. destruct (Req_EM_T b 0); [contradiction|auto]. Qed.
Lemma xdiv_0 a : xdiv (Fin a) (Fin 0) = Undef.
Proof. simpl. destruct (Req_EM_T 0 0); [auto|contradiction]. Qed.
Lemma xsqrt_fin a : 0 <= a -> xsqrt (Fin a) = Fin (sqrt a).
Proof. intros H. simpl. destruct (Rlt_dec a 0); [lra|auto]. Qed.
Lemma xacos_fin a : -1 <= a <= 1 -> xacos (Fin a) = Fin (acos a).
Proof. intros H. simpl. destruct (Rle_dec (-1) a); [|lra]. destruct (Rle_dec a 1); [auto|lra]. Qed.
