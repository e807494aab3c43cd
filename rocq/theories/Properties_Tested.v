(** C80: a tangent vector that isInTxM accepts, computed in doubles, is nearly tangent; and the other way round. *)
From Coq Require Import Reals List Lra Lia ZArith Bool Arith Psatz.
From Flocq Require Import Core BinarySingleNaN.
From Verif Require Import Base Scalar Vec Model_Real Model_S2 Model_SO3 Model_Manifold Spec Layout Comp Indep Flat Points TanLeaf
  XR SpecR RotR NumVec NumTree F64 F64Err F64Norm F64S2 F64Exp F64Tree F64Go ExScalar Properties_Float Properties_FloatRound.
From Verif Require F64Rand.
Import ListNotations.
Local Open Scope R_scope.

(** What a vector of one elementary part must satisfy.  R^n and the rotations carry their tangent vectors as free
    coordinates; on the sphere the scalar product with the point is at most p, up to 4 rounding units of the sum of
    the |x_i v_i| (and 2^-200, for underflow).  Six finite numbers. *)
Definition nearly_tangent (p : R) (s : mfd f64) (x v : list f64) : Prop :=
  match s with
  | Leaf h LReal _ _ => length v = h_dim h
  | Leaf _ LS2 _ _ => length x = 3%nat /\ length v = 3%nat /\ Forall isf x /\ Forall isf v /\
      Rabs (rdot (vals x) (vals v)) < p + 4 * / 2 ^ 53 * rdot (map Rabs (vals x)) (map Rabs (vals v)) + / 2 ^ 200
  | Leaf _ (LSO3 _) _ _ => length v = 3%nat
  | Prod _ _ _ _ => False
  end.
(** The exact scalar product is below p by the same margin; coordinates up to 2^400. *)
Definition well_tangent (p : R) (s : mfd f64) (x v : list f64) : Prop :=
  length x = representationDim s /\ length v = tangentDim s /\
  match s with
  | Leaf _ LS2 _ _ => Forall (fun a => isf a /\ Rabs (val a) <= 2 ^ 400) x /\ Forall (fun a => isf a /\ Rabs (val a) <= 2 ^ 400) v /\
      Rabs (rdot (vals x) (vals v)) + 4 * / 2 ^ 53 * rdot (map Rabs (vals x)) (map Rabs (vals v)) + / 2 ^ 200 < p
  | _ => True
  end.

Lemma add_near p q x y e f : Rabs (p - x) <= e -> Rabs (q - y) <= f ->
  Rabs (rnd (p + q) - (x + y)) <= e + f + (u * (Rabs x + Rabs y + e + f) + eta).
Proof.
  intros H1 H2. pose proof (rnd_err (p + q)) as E. pose proof u_pos.
  assert (A : Rabs (p + q - (x + y)) <= e + f). { replace (p + q - (x + y)) with ((p - x) + (q - y)) by ring. eapply Rle_trans; [apply Rabs_triang|lra]. }
  assert (B : Rabs (p + q) <= Rabs x + Rabs y + e + f). { replace (p + q) with ((p + q - (x + y)) + (x + y)) by ring. eapply Rle_trans; [apply Rabs_triang|]. pose proof (Rabs_triang x y). lra. }
  replace (rnd (p + q) - (x + y)) with ((rnd (p + q) - (p + q)) + (p + q - (x + y))) by ring. eapply Rle_trans; [apply Rabs_triang|]. assert (u * Rabs (p + q) <= u * (Rabs x + Rabs y + e + f)) by (apply Rmult_le_compat_l; lra). lra.
Qed.
Lemma three p q r a b c : isf (p +! q +! r) -> Rabs (val p - a) <= u * Rabs a + eta -> Rabs (val q - b) <= u * Rabs b + eta -> Rabs (val r - c) <= u * Rabs c + eta ->
  Rabs (val (p +! q +! r) - (a + b + c)) <= 4 * (u * (Rabs a + Rabs b + Rabs c)) + 10 * eta.
Proof.
  intros F H1 H2 H3. apply add_fin in F as (F & _ & V). apply add_fin in F as (_ & _ & V1). rewrite V.
  pose proof (add_near _ _ _ _ _ _ H1 H2) as E1. rewrite <- V1 in E1. pose proof (add_near _ _ _ _ _ _ E1 H3) as E2. eapply Rle_trans; [exact E2|]. clear E1 E2 H1 H2 H3 V V1.
  pose proof (Rabs_pos a). pose proof (Rabs_pos b). pose proof (Rabs_pos c). pose proof (Rabs_triang a b) as T. set (x := Rabs a) in *. set (y := Rabs b) in *. set (z := Rabs c) in *. set (w := Rabs (a + b)) in *. clearbody x y z w.
  pose proof u_pos as U. pose proof eta_pos. assert (U1 : u <= 1 / 1000) by (rewrite u_val; lra).
  assert (0 <= u * x) by nra. assert (0 <= u * y) by nra. assert (0 <= u * z) by nra. assert (u * w <= u * x + u * y) by nra.
  assert (M : forall t, 0 <= t -> u * t <= 1 / 1000 * t) by (intros; apply Rmult_le_compat_r; lra).
  set (e1 := u * x + eta + (u * y + eta) + (u * (x + y + (u * x + eta) + (u * y + eta)) + eta)).
  assert (E1 : e1 <= 201 / 100 * (u * x + u * y) + 4 * eta). { unfold e1. pose proof (M (u * x + eta + (u * y + eta)) ltac:(lra)). replace (u * (x + y + (u * x + eta) + (u * y + eta))) with (u * x + u * y + u * (u * x + eta + (u * y + eta))) by ring. lra. }
  assert (E0 : 0 <= e1). { unfold e1. assert (0 <= u * (x + y + (u * x + eta) + (u * y + eta))) by (apply Rmult_le_pos; lra). lra. }
  clearbody e1. pose proof (M (e1 + (u * z + eta)) ltac:(lra)). replace (u * (w + z + e1 + (u * z + eta))) with (u * w + u * z + u * (e1 + (u * z + eta))) by ring. lra.
Qed.

Section Dot.
Variable L : libm.
Lemma dot_back x0 x1 x2 v0 v1 v2 : isf (sum3 L (x0 *! v0) (x1 *! v1) (x2 *! v2)) ->
  (isf x0 /\ isf x1 /\ isf x2) /\ (isf v0 /\ isf v1 /\ isf v2) /\
  Rabs (val (sum3 L (x0 *! v0) (x1 *! v1) (x2 *! v2)) - rdot (vals [x0; x1; x2]) (vals [v0; v1; v2])) <=
    4 * / 2 ^ 53 * rdot (map Rabs (vals [x0; x1; x2])) (map Rabs (vals [v0; v1; v2])) + 10 * eta.
Proof.
  intros F. destruct (sum3_fin _ _ _ _ F) as (G0 & G1 & G2). apply mul_fin in G0 as (A0 & B0 & V0). apply mul_fin in G1 as (A1 & B1 & V1). apply mul_fin in G2 as (A2 & B2 & V2). split; [auto|]. split; [auto|].
  pose proof (rnd_err (val x0 * val v0)) as E0. pose proof (rnd_err (val x1 * val v1)) as E1. pose proof (rnd_err (val x2 * val v2)) as E2. rewrite <- V0 in E0. rewrite <- V1 in E1. rewrite <- V2 in E2.
  cbn [map rdot]. rewrite <- !Rabs_mult. assert (EU : / 2 ^ 53 = u) by (rewrite u_val; cbn [pow]; lra). rewrite EU.
  destruct (sum3_cases L (x0 *! v0) (x1 *! v1) (x2 *! v2)) as [C|[C|C]]; rewrite C in *.
  - pose proof (three _ _ _ _ _ _ F E0 E1 E2) as H. eapply Rle_trans; [|eapply Rle_trans; [exact H|]]; [right; f_equal; ring|lra].
  - pose proof (three _ _ _ _ _ _ F E0 E2 E1) as H. eapply Rle_trans; [|eapply Rle_trans; [exact H|]]; [right; f_equal; ring|lra].
  - pose proof (three _ _ _ _ _ _ F E1 E2 E0) as H. eapply Rle_trans; [|eapply Rle_trans; [exact H|]]; [right; f_equal; ring|lra].
Qed.
Lemma eta_200 : 10 * eta <= / 2 ^ 200 / 2.
Proof. pose proof F64Rand.eta_tiny as T. assert (U1 : u <= 1 / 1000) by (rewrite u_val; lra). pose proof u_pos. assert (P : 0 < / 2 ^ 200) by (apply Rinv_0_lt_compat, pow_lt; lra). assert (u * / 2 ^ 200 <= 1 / 1000 * / 2 ^ 200) by (apply Rmult_le_compat_r; lra). lra. Qed.
Lemma s2_test x0 x1 x2 v0 v1 v2 p : isf p -> s2_isInTxM (SK:=F64 L) [x0; x1; x2] [v0; v1; v2] p = true ->
  Forall isf [x0; x1; x2] /\ Forall isf [v0; v1; v2] /\
  Rabs (rdot (vals [x0; x1; x2]) (vals [v0; v1; v2])) < val p + 4 * / 2 ^ 53 * rdot (map Rabs (vals [x0; x1; x2])) (map Rabs (vals [v0; v1; v2])) + / 2 ^ 200.
Proof.
  intros Fp H. unfold s2_isInTxM in H. cbn [dot map2 ksum kabs kltb kadd kmul F64] in H. pose proof (ltb_fin _ _ Fp H) as F. destruct (f_abs _ F) as [Fa Va]. rewrite f_ltb in H by auto. apply Rlt_bool_lt' in H. rewrite Va in H.
  destruct (dot_back x0 x1 x2 v0 v1 v2 F) as ((X0 & X1 & X2) & (Y0 & Y1 & Y2) & E). split; [auto|]. split; [auto|]. pose proof eta_200.
  assert (T : forall S D p A c : R, Rabs S < p -> Rabs (S - D) <= A + 10 * eta -> 10 * eta <= c / 2 -> 0 < c -> Rabs D < p + A + c).
  { intros S D q A c G1 G2 G3 G4. assert (Rabs D <= Rabs S + Rabs (S - D)); [|lra]. replace D with (S - (S - D)) at 1 by ring. unfold Rminus at 1. eapply Rle_trans; [apply Rabs_triang|]. rewrite Rabs_Ropp. lra. }
  eapply T; [exact H|exact E|exact H0|apply Rinv_0_lt_compat, pow_lt; lra].
Qed.
Lemma mul400 a b : isf a -> isf b -> Rabs (val a) <= 2 ^ 400 -> Rabs (val b) <= 2 ^ 400 -> isf (a *! b) /\ Rabs (val (a *! b)) <= 2 * B900 + 1.
Proof.
  intros Fa Fb Ha Hb. assert (E : 2 ^ 400 = bpow radix2 400) by (rewrite (bpow_powerRZ radix2 400), <- (pow_powerRZ _ 400); reflexivity). rewrite E in *.
  assert (M : Rabs (val a * val b) <= B900). { rewrite Rabs_mult. apply Rle_trans with (bpow radix2 400 * bpow radix2 400); [apply Rmult_le_compat; auto using Rabs_pos|]. rewrite <- bpow_plus. apply bpow_le. lia. }
  pose proof B900_big. assert (0 < B900) by apply bpow_gt_0. destruct (f_mul a b Fa Fb) as [F V]; [lra|]. split; [exact F|]. rewrite V. eapply Rle_trans; [apply rnd_le|]. lra.
Qed.
Lemma dot_go x0 x1 x2 v0 v1 v2 : Forall (fun a => isf a /\ Rabs (val a) <= 2 ^ 400) [x0; x1; x2] -> Forall (fun a => isf a /\ Rabs (val a) <= 2 ^ 400) [v0; v1; v2] -> isf (sum3 L (x0 *! v0) (x1 *! v1) (x2 *! v2)).
Proof.
  intros HX HV. inversion HX as [|? ? [X0 X0'] HX1]; subst. inversion HX1 as [|? ? [X1 X1'] HX2]; subst. inversion HX2 as [|? ? [X2 X2'] _]; subst.
  inversion HV as [|? ? [V0 V0'] HV1]; subst. inversion HV1 as [|? ? [V1 V1'] HV2]; subst. inversion HV2 as [|? ? [V2 V2'] _]; subst.
  destruct (mul400 x0 v0) as [Pa Qa]; auto. destruct (mul400 x1 v1) as [Pb Qb]; auto. destruct (mul400 x2 v2) as [Pc Qc]; auto. pose proof B900_big. assert (0 < B900) by apply bpow_gt_0.
  assert (S : forall x y z, isf x -> isf y -> isf z -> Rabs (val x) <= 2 * B900 + 1 -> Rabs (val y) <= 2 * B900 + 1 -> Rabs (val z) <= 2 * B900 + 1 -> isf (x +! y +! z)).
  { intros x y z Fx Fy Fz Hx Hy Hz. assert (S1 : Rabs (val x + val y) <= 4 * B900 + 2) by (eapply Rle_trans; [apply Rabs_triang|]; lra).
    destruct (f_add _ _ Fx Fy) as [F1 W1]; [lra|].
    assert (Rabs (val (x +! y)) <= 8 * B900 + 5) by (rewrite W1; eapply Rle_trans; [apply rnd_le|]; lra).
    destruct (f_add _ _ F1 Fz) as [F2 W2]; [|exact F2]. eapply Rle_trans; [apply Rabs_triang|]. lra. }
  apply sum3_ind; apply S; auto.
Qed.
Lemma s2_pass x0 x1 x2 v0 v1 v2 p : isf p -> Forall (fun a => isf a /\ Rabs (val a) <= 2 ^ 400) [x0; x1; x2] -> Forall (fun a => isf a /\ Rabs (val a) <= 2 ^ 400) [v0; v1; v2] ->
  Rabs (rdot (vals [x0; x1; x2]) (vals [v0; v1; v2])) + 4 * / 2 ^ 53 * rdot (map Rabs (vals [x0; x1; x2])) (map Rabs (vals [v0; v1; v2])) + / 2 ^ 200 < val p ->
  s2_isInTxM (SK:=F64 L) [x0; x1; x2] [v0; v1; v2] p = true.
Proof.
  intros Fp HX HV H. pose proof (dot_go _ _ _ _ _ _ HX HV) as F. destruct (dot_back x0 x1 x2 v0 v1 v2 F) as (_ & _ & E). unfold s2_isInTxM. cbn [dot map2 ksum kabs kltb kadd kmul F64].
  destruct (f_abs _ F) as [Fa Va]. pose proof eta_200 as H0.
  assert (T : forall S D p A c : R, Rabs (S - D) <= A + 10 * eta -> 10 * eta <= c / 2 -> 0 < c -> Rabs D + A + c < p -> Rabs S < p).
  { intros S D q A c G1 G2 G3 G4. assert (Rabs S <= Rabs D + Rabs (S - D)); [|lra]. replace S with (D + (S - D)) at 1 by ring. apply Rabs_triang. }
  assert (C : Rabs (val (sum3 L (x0 *! v0) (x1 *! v1) (x2 *! v2))) < val p) by (eapply T; [exact E|exact H0|apply Rinv_0_lt_compat, pow_lt; lra|exact H]).
  rewrite <- Va in C. pose proof (f_ltb _ _ Fa Fp) as B. rewrite Rlt_bool_true in B by exact C. exact B.
Qed.
End Dot.
Lemma txm_len {K} {SK : Scalar K} (m : mfd K) x v p b : isInTxM m x v p = Ok b -> length v = tangentDim m /\ length x = representationDim m.
Proof.
  destruct (Nat.eqb_spec (length v) (tangentDim m)) as [E|N]; destruct (Nat.eqb_spec (length x) (representationDim m)) as [E'|N']; auto;
    destruct m; cbn [isInTxM]; try (apply Nat.eqb_neq in N; rewrite N; discriminate); rewrite E, Nat.eqb_refl; apply Nat.eqb_neq in N'; rewrite N'; discriminate.
Qed.

(** Every tree, every precision: products hand the precision down (isInM does not). *)
Theorem C80_accept : forall L (m : mfd f64) (x v : list f64) (prec : f64), built m -> isf prec -> isInTxM (SK:=F64 L) m x v prec = Ok true ->
  exists xs vs, x = concat xs /\ v = concat vs /\ Forall3 (nearly_tangent (val prec)) (leaves m) xs vs.
Proof.
  intros L m x v prec B Fp H. apply built_wf in B. destruct (txm_len _ _ _ _ _ H) as [Lv Lx]. destruct (cut_gen DR m x B Lx) as (xs & -> & Px). destruct (cut_gen DT m v B Lv) as (vs & -> & Pv). exists xs, vs. split; [reflexivity|]. split; [reflexivity|].
  apply (isInTxM_leaves (SK:=F64 L)) in H; auto. pose proof (fun s => leaf_inv_gen m s B) as G. clear B Px Pv Lx Lv. induction H as [|s y w ls ys ws Hs T IH]; constructor.
  - destruct (G s (or_introl eq_refl)) as (h & l & a & b & -> & W). destruct (txm_len _ _ _ _ _ Hs) as [Lw Ly]. cbn [isInTxM] in Hs. rewrite Ly, Lw, !Nat.eqb_refl in Hs. cbn [mnf_assert bind] in Hs.
    unfold representationDim, tangentDim in Ly, Lw. cbn [hdr_of] in Ly, Lw. unfold leaf_wf in W. destruct l as [| |[|]]; cbn [nearly_tangent]; try lia.
    destruct (vec3 y) as (y0 & y1 & y2 & ->); [lia|]. destruct (vec3 w) as (w0 & w1 & w2 & ->); [lia|]. apply F64Quat.ok_eq in Hs. symmetry in Hs. apply s2_test in Hs as (A1 & A2 & A3); auto.
  - apply IH. intros s' Hs'. apply G. right. exact Hs'.
Qed.
Theorem C80_close : forall L (m : mfd f64) (xs vs : list (list f64)) (prec : f64), built m -> isf prec -> Forall3 (well_tangent (val prec)) (leaves m) xs vs ->
  isInTxM (SK:=F64 L) m (concat xs) (concat vs) prec = Ok true.
Proof.
  intros L m xs vs prec B Fp F. apply built_wf in B.
  assert (P : pieces DR (leaves m) xs /\ pieces DT (leaves m) vs). { clear B. induction F as [|s y w ls ys ws Hs T IH]; [split; constructor|]. destruct Hs as (A1 & A2 & _). destruct IH. split; constructor; auto. }
  destruct P as [Px Pv]. apply (isInTxM_leaves (SK:=F64 L)); auto. pose proof (fun s => leaf_inv_gen m s B) as G. clear B Px Pv. induction F as [|s y w ls ys ws Hs T IH]; constructor.
  - destruct (G s (or_introl eq_refl)) as (h & l & a & b & -> & W). destruct Hs as (Ly & Lw & Hs). cbn [isInTxM]. rewrite Ly, Lw, !Nat.eqb_refl. cbn [mnf_assert bind].
    unfold representationDim, tangentDim in Ly, Lw. cbn [hdr_of] in Ly, Lw. unfold leaf_wf in W. destruct l as [| |[|]]; try reflexivity.
    destruct (vec3 y) as (y0 & y1 & y2 & ->); [lia|]. destruct (vec3 w) as (w0 & w1 & w2 & ->); [lia|]. destruct Hs as (A1 & A2 & A3). rewrite s2_pass; auto.
  - apply IH. intros s' Hs'. apply G. right. exact Hs'.
Qed.
(** A retraction that returns has received a nearly tangent vector. *)
Theorem C80_retractation : forall L (m : mfd f64) (out x v y : list f64), built m -> retractation (SK:=F64 L) m out x v = Ok y ->
  exists xs vs, x = concat xs /\ v = concat vs /\ Forall3 (nearly_tangent (1001 / 10 ^ 11)) (leaves m) xs vs.
Proof.
  intros L m out x v y B H. assert (T : isInTxM (SK:=F64 L) m x v (default_prec (SK:=F64 L)) = Ok true).
  { destruct m as [h l a b|h sT sR subs]; cbn [retractation] in H; destruct (length out =? _)%nat in H; try discriminate H; destruct (length x =? _)%nat in H; try discriminate H; destruct (length v =? _)%nat in H; try discriminate H;
      cbn [mnf_assert bind] in H; destruct (isInTxM _ x v default_prec) as [[|]|] eqn:E in H; try discriminate H; exact E. }
  destruct (F64Mat2.lit8_tight L) as [Fd Vd]. change (lit8 L) with (default_prec (SK:=F64 L)) in Fd, Vd. apply C80_accept in T as (xs & vs & E1 & E2 & F); auto. exists xs, vs. split; [exact E1|]. split; [exact E2|].
  clear - F Vd. induction F as [|s a b ls ys ws Hs T IH]; constructor; auto. destruct s as [h [| |l] q r|]; cbn [nearly_tangent] in *; auto. destruct Hs as (A1 & A2 & A3 & A4 & A5). repeat split; auto. lra.
Qed.

Lemma fRS_built L : built (fRS L).
Proof. apply (prod2_built64 (fR2 L) (fS2 L)); [apply (built_real_mag 2 (k1 (Scalar:=F64 L))); reflexivity|apply fS2_built|reflexivity]. Qed.
(** R^2 x S2: accepted; refused when the vector leaves the tangent plane, or holds a NaN on the sphere. *)
Example C80_example : forall L0, let L := in_order L0 in let x := fi [3; 4; 1; 0; 0]%Z in let v := fi [1; -1; 0; 1; 0]%Z in
  isInTxM (SK:=F64 L) (fRS L) x v (default_prec (SK:=F64 L)) = Ok true /\
  isInTxM (SK:=F64 L) (fRS L) x (fi [1; -1; 1; 1; 0]%Z) (default_prec (SK:=F64 L)) = Ok false /\
  isInTxM (SK:=F64 L) (fRS L) x (fi [1; -1; 0]%Z ++ [B754_nan; of_Z 0]) (default_prec (SK:=F64 L)) = Ok false /\
  exists xs vs, x = concat xs /\ v = concat vs /\ Forall3 (nearly_tangent (val (default_prec (SK:=F64 L)))) (leaves (fRS L)) xs vs.
Proof.
  intros L0 L x v. assert (T : isInTxM (SK:=F64 L) (fRS L) x v (default_prec (SK:=F64 L)) = Ok true) by (vm_compute; reflexivity).
  split; [exact T|]. split; [vm_compute; reflexivity|]. split; [vm_compute; reflexivity|]. eapply C80_accept; [apply fRS_built| |exact T]. apply (F64Mat2.lit8_tight L).
Qed.
Example C80_example_close : forall L,
  Forall3 (well_tangent (val (default_prec (SK:=F64 L)))) (leaves (fRS L)) [fi [3; 4]%Z; fi [1; 0; 0]%Z] [fi [1; -1]%Z; fi [0; 1; 0]%Z].
Proof.
  intros L. change (leaves (fRS L)) with [fR2 L; fS2 L]. apply Forall3_cons; [split; [reflexivity|split; [reflexivity|exact I]]|]. apply Forall3_cons; [|apply Forall3_nil].
  split; [reflexivity|]. split; [reflexivity|].
  destruct (vals_fi [1; 0; 0]%Z) as [F1 V1]; [repeat constructor; lia|]. destruct (vals_fi [0; 1; 0]%Z) as [F2 V2]; [repeat constructor; lia|].
  assert (B : forall l r, Forall isf l -> vals l = r -> Forall (fun a => Rabs a <= 1) r -> Forall (fun a => isf a /\ Rabs (val a) <= 2 ^ 400) l).
  { intros l r Fl <- Fr. assert (P : 1 <= 2 ^ 400) by (apply pow_R1_Rle; lra). induction Fl as [|a l Fa Fl IH]; constructor; inversion Fr; subst; [split; [exact Fa|lra]|auto]. }
  destruct (F64Mat2.lit8_tight L) as [Fd Vd]. change (lit8 L) with (default_prec (SK:=F64 L)) in Fd, Vd.
  split; [eapply B; [exact F1|exact V1|]; repeat (apply Forall_cons; [apply Rabs_le; lra|]); apply Forall_nil|].
  split; [eapply B; [exact F2|exact V2|]; repeat (apply Forall_cons; [apply Rabs_le; lra|]); apply Forall_nil|].
  rewrite V1, V2. cbn [map rdot]. rewrite ?Rabs_R0, ?Rabs_R1. replace (1 * 0 + (0 * 1 + (0 * 0 + 0))) with 0 by ring. rewrite Rabs_R0. assert (P : / 2 ^ 200 <= / 2 ^ 50) by (apply Rinv_le_contravar; [apply pow_lt; lra|apply Rle_pow; [lra|lia]]).
  assert (Q : / 2 ^ 50 <= 1 / 10 ^ 12) by (cbn [pow]; lra). set (c := / 2 ^ 200) in *. clearbody c. lra.
Qed.
