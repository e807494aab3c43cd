(** A path of increments computed in doubles against the exact path: one step. *)
From Coq Require Import Reals List Lra Lia ZArith Bool Arith Psatz.
From Flocq Require Import Core BinarySingleNaN Plus_error Relative.
From Verif Require Import Base Scalar Vec Model_Real Model_S2 Model_SO3 Model_Manifold Spec Layout Comp Indep Flat Points
  XR SpecR RotR NumVec NumTree NumQuat NumExp Drift Path Lip F64 F64Err F64Norm F64S2 F64Exp F64Quat F64Mat F64Mat2 F64Tree F64Go.
Import ListNotations.
Local Open Scope R_scope.

(** One exact step on an elementary slice, in real arithmetic: x + v, X exp(v), q exp(v).  S2 is left out. *)
Definition step_leaf (s : mfd f64) (x v y : list R) : Prop :=
  match s with
  | Leaf h LReal _ _ => length x = h_dim h /\ length v = h_dim h /\ y = radd x v
  | Leaf _ (LSO3 MapMatrix) _ _ => length v = 3%nat /\ exists A, x = flat9 A /\ y = flat9 (rmul A (expSO3 v))
  | Leaf _ (LSO3 MapQuat) _ _ => length v = 3%nat /\ exists q, x = qflat q /\ y = qflat (qprod q (expQ v))
  | _ => False
  end.
(** The coordinates of R^n do not exceed [B]. *)
Definition within (B : R) (s : mfd f64) (y : list R) : Prop :=
  match s with Leaf _ LReal _ _ => Forall (fun a => Rabs a <= B) y | _ => True end.

(** Closeness to the exact path after [k] roundings of one step ([k] is [number of steps] * 2^-53). *)
Definition beside64 (k B : R) (s : mfd f64) (x : list f64) (z : list R) : Prop :=
  match s with
  | Leaf _ LReal _ _ => Forall isf x /\ near_v (2 * B * k) (vals x) z
  | Leaf _ (LSO3 MapMatrix) _ _ => length x = length z /\ rnorm (rsub (vals x) z) <= 372 * k
  | Leaf _ (LSO3 MapQuat) _ _ => length x = length z /\ rnorm (rsub (vals x) z) <= 164 * k
  | _ => False
  end.

Lemma rnd_add a b : isf a -> isf b -> Rabs (rnd (val a + val b) - (val a + val b)) <= u * Rabs (val a + val b).
Proof.
  intros Fa Fb. destruct (FLT_plus_error_N_ex radix2 (-1074) 53 (fun n => negb (Z.even n)) (val a) (val b)) as (e & He & E).
  - apply (generic_format_B2R 53 1024 a).
  - apply (generic_format_B2R 53 1024 b).
  - unfold rnd. cbn [round_mode]. unfold ZnearestE in *. rewrite E. replace ((val a + val b) * (1 + e) - (val a + val b)) with (e * (val a + val b)) by ring. rewrite Rabs_mult.
    apply Rmult_le_compat_r; [apply Rabs_pos|]. eapply Rle_trans; [exact He|]. assert (Eu : u_ro radix2 53 = u).
    { rewrite u_val. unfold u_ro. change (bpow radix2 (- (53) + 1)) with (/ 4503599627370496). field. }
    rewrite Eu. pose proof u_pos. apply Rmult_le_reg_r with (1 + u); [lra|]. unfold Rdiv. rewrite Rmult_assoc, Rinv_l by lra. nra.
Qed.
Lemma sq_near e (y w : list R) : near_v e y w -> rdot (rsub y w) (rsub y w) <= INR (length y) * (e * e).
Proof.
  induction 1 as [|a b y w H F IH]; [cbn; lra|]. change (rsub (a :: y) (b :: w)) with (a - b :: rsub y w). cbn [rdot]. change (length (a :: y)) with (S (length y)). rewrite S_INR.
  apply Rabs_le_inv in H. nra.
Qed.
Lemma nlen e y w : near_v e y w -> length y = length w.
Proof. induction 1; cbn [length]; auto. Qed.
Lemma qprod_dist p q e : qn2 e = 1 -> rnorm (rsub (qflat (qprod p e)) (qflat (qprod q e))) = rnorm (rsub (qflat p) (qflat q)).
Proof.
  intros H. unfold rnorm. f_equal. transitivity (rdot (rsub (qflat p) (qflat q)) (rsub (qflat p) (qflat q)) * qn2 e); [|rewrite H; ring].
  destruct p, q, e. unfold qn2, qflat, qprod, rsub. cbn. ring.
Qed.
Lemma qflat_inj p q : qflat p = qflat q -> p = q.
Proof. destruct p, q. unfold qflat. cbn. intros H. inversion H. reflexivity. Qed.

Lemma beside64_step k B h l a b x v y z z' : let s := Leaf h l a b in 0 <= k <= 1 / 1000 -> 0 <= B <= bpow radix2 990 -> Forall isf v ->
  beside64 k B s x z -> fclose s x v y -> step_leaf s z (vals v) z' -> within B s z' -> beside64 (k + u) B s y z'.
Proof.
  intros s K HB Fv. pose proof u_pos as U. unfold s in *. destruct l as [| |[|]]; cbn [beside64 fclose step_leaf within]; try tauto.
  - intros (Fx & N) C (Lz & Lv & ->) Hz. rewrite map_length in Lv.
    assert (LL : length v = length z) by (transitivity (h_dim h); [exact Lv|symmetry; exact Lz]). clear Lz Lv. revert z N Hz LL Fv. induction C as [|c d e x v y H C IH]; intros z N Hz LL Fv.
    + inversion N; subst. split; constructor.
    + inversion N as [|? z0 ? zs N1 N2]; subst. inversion Fx as [|? ? Fc Fx']; subst. inversion Fv as [|? ? Fd Fv']; subst. change (radd (z0 :: zs) (map val (d :: v))) with (z0 + val d :: radd zs (vals v)) in *.
      inversion Hz as [|? ? Hz1 Hz2]; subst. destruct (IH Fx' zs N2 Hz2 ltac:(cbn in LL; lia) Fv') as [I1 I2].
      assert (A : Rabs (val c + val d) <= B * (1 + 2 * k)).
      { replace (val c + val d) with ((z0 + val d) + (val c - z0)) by ring. eapply Rle_trans; [apply Rabs_triang|]. lra. }
      assert (A2 : Rabs (val c + val d) <= 2 * B) by nra.
      destruct (H Fc Fd) as [Fe E]. { eapply Rle_trans; [exact A2|]. apply Rle_trans with (2 * bpow radix2 990); [lra|]. change 2 with (bpow radix2 1) at 1. rewrite <- bpow_plus. apply bpow_le. lia. }
      split; [constructor; auto|]. constructor; auto. rewrite E. pose proof (rnd_add c d Fc Fd) as R1.
      replace (rnd (val c + val d) - (z0 + val d)) with ((rnd (val c + val d) - (val c + val d)) + (val c - z0)) by ring. eapply Rle_trans; [apply Rabs_triang|]. nra.
  - intros (Lx & N) (A & EA & C) (Lv & A' & -> & ->) _. pose proof (sq_near _ _ _ C) as Q. assert (LV : length (vals y) = 9%nat) by (rewrite (nlen _ _ _ C); reflexivity). assert (Ly : length y = 9%nat) by (transitivity (length (vals y)); [symmetry; apply map_length|exact LV]).
    split; [rewrite Ly; reflexivity|]. eapply Rle_trans; [apply (dist_via _ (flat9 (rmul A (expSO3 (vals v))))); [exact LV|reflexivity]|].
    assert (E : rnorm (rsub (flat9 (rmul A (expSO3 (vals v)))) (flat9 (rmul A' (expSO3 (vals v))))) = rnorm (rsub (vals x) (flat9 A'))).
    { rewrite EA. unfold rnorm. f_equal. rewrite !flat9_sub, <- rmsub_mul_r. apply fro_right, expSO3_rot. }
    rewrite E. assert (rnorm (rsub (vals y) (flat9 (rmul A (expSO3 (vals v))))) <= 3 * (124 * u)); [|lra].
    apply sq_le_norm; [lra|]. eapply Rle_trans; [exact Q|]. rewrite LV. cbn [INR]. nra.
  - intros (Lx & N) (p & Ep & C) (Lv & q & -> & ->) _. pose proof (sq_near _ _ _ C) as Q. assert (LV : length (vals y) = 4%nat) by (rewrite (nlen _ _ _ C); reflexivity). assert (Ly : length y = 4%nat) by (transitivity (length (vals y)); [symmetry; apply map_length|exact LV]).
    split; [rewrite Ly; reflexivity|]. eapply Rle_trans; [apply (dist_via _ (qflat (qprod p (expQ (vals v))))); [exact LV|reflexivity]|].
    rewrite qprod_dist by (apply expQ_unit; auto). rewrite <- Ep. assert (rnorm (rsub (vals y) (qflat (qprod p (expQ (vals v))))) <= 2 * (82 * u)); [|lra].
    apply sq_le_norm; [lra|]. eapply Rle_trans; [exact Q|]. rewrite LV. cbn [INR]. nra.
Qed.
