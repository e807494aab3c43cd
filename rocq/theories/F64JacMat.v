(** The derivative of the matrix logarithm, diffPseudoLog0_ of ExpMapMatrix, in doubles (used by C72). *)
From Coq Require Import Reals List Lra Lia ZArith Bool Arith Psatz SpecFloat.
From Flocq Require Import Core BinarySingleNaN.
From Verif Require Import Base Scalar Vec Model_SO3 Spec BlockMat MatOps F64 F64Err F64Norm F64Exp F64S2 F64Mat F64Mat2 F64Gs XR SpecR RotR NumVec NumMat Deriv DerivLog F64Quat F64Log F64Trans JacLogR JacLogLeaf F64Jac F64JacLog Angle RotLog.
Import ListNotations.
Local Open Scope R_scope.

Lemma cl_one : cl (of_Z 1) 1 0.
Proof. destruct (of_Z_ok 1) as [F1 V1]; [cbn; lia|]. apply cl_exact; auto. Qed.

Section Sinc.
Variable L : libm.
Hypothesis HL : accurate L.
Hypothesis HA : accurate_acos L.
Local Notation SK := (F64 L).

(** 1 / sinc(acos(c)), the quotient computed as 1 / (sin(a) / a). *)
Lemma sinc_f64 c th e : 0 < th <= PI / 2 -> let s := sin th in cl c (cos th) e -> 0 <= e -> 100 * e <= s * s -> 400 * u <= s * s ->
  let a := f_acos L c in let f := of_Z 1 /! (f_sin L a /! a) in
  isf a /\ 0 < val a /\ cl f (th / s) (64 * e + 153 * u) /\ 1 <= th / s <= 2.
Proof.
  intros Ht s [Fc Ec] He E1 E2 a f. pose proof u_pos as U. pose proof u_tiny as U1. pose proof eta_u as T. pose proof PI_le as PL. pose proof PI2_1 as P2.
  assert (S0 : 0 < s) by (apply sin_gt_0; lra). assert (S1 : s <= 1) by apply SIN_bound.
  assert (St : th / 2 <= s) by (apply sin_half_173; lra). assert (St2 : s <= th) by (pose proof (sin_abs th) as Q; fold s in Q; rewrite !Rabs_pos_eq in Q by lra; exact Q).
  assert (SS : 0 < s * s <= s) by nra.
  assert (CC : cos th * cos th + s * s = 1) by (pose proof (sin2_cos2 th) as Q; unfold Rsqr in Q; fold s in Q; lra).
  assert (CB : Rabs (val c) <= 1).
  { apply Rabs_ends in Ec. assert (Rabs (cos th) <= 1 - s * s / 2). { apply Rabs_le. split; nra. } apply Rabs_ends in H. apply Rabs_le. lra. }
  destruct (HA c Fc CB) as [Fa Ea]. fold a in Fa, Ea.
  pose proof (acos_pert (val c) th e ltac:(lra) Ec (Rabs_ends _ _ CB)) as Ap. fold s in Ap. pose proof (acos_bound (val c)) as Ab.
  set (e2 := 4 * e / s + 8 * u).
  assert (Ca : Rabs (val a - th) <= e2).
  { unfold e2. replace (val a - th) with ((val a - acos (val c)) + (acos (val c) - th)) by ring. eapply Rle_trans; [apply Rabs_triang|].
    assert (2 * u * acos (val c) <= 2 * u * (10 / 3)) by (apply Rmult_le_compat_l; lra). lra. }
  assert (Q1 : 4 * e / s <= s / 25). { apply (Rmult_le_reg_r s); auto. unfold Rdiv. rewrite Rmult_assoc, Rinv_l by lra. lra. }
  assert (Q0 : 0 <= 4 * e / s) by (apply Rmult_le_pos; [lra|apply Rlt_le, Rinv_0_lt_compat; auto]).
  assert (E20 : 0 <= e2) by (unfold e2; lra). assert (E2s : e2 <= s / 25 + s / 50) by (unfold e2; lra).
  assert (Ta : th * e2 <= 8 * e + 16 * u).
  { unfold e2. assert (th / s <= 2). { apply (Rmult_le_reg_r s); auto. unfold Rdiv. rewrite Rmult_assoc, Rinv_l by lra. lra. }
    replace (th * (4 * e / s + 8 * u)) with (4 * e * (th / s) + 8 * u * th) by (field; lra).
    assert (4 * e * (th / s) <= 4 * e * 2) by (apply Rmult_le_compat_l; lra). assert (8 * u * th <= 8 * u * 2) by (apply Rmult_le_compat_l; lra). lra. }
  set (A := val a) in *. pose proof (Rabs_ends _ _ Ca) as Ca'.
  assert (A1 : 9 / 10 * th <= A <= 173 / 100) by lra. assert (A0 : 0 < A) by lra.
  pose proof (tsin_flat th A Ht ltac:(lra) ltac:(lra)) as G. fold s in G.
  pose proof (sin_half_173 A ltac:(lra)) as SA. set (sA := sin A) in *. assert (SA1 : sA <= 1) by apply SIN_bound.
  assert (G' : Rabs (A / sA - th / s) <= 64 * e + 128 * u).
  { replace (A / sA - th / s) with (2 * (A / (2 * sA) - th / (2 * s))) by (field; lra). rewrite Rabs_mult, (Rabs_pos_eq 2) by lra.
    assert (4 * th * Rabs (A - th) <= 4 * (th * e2)) by (rewrite Rmult_assoc; apply Rmult_le_compat_l; [lra|]; apply Rmult_le_compat_l; lra). lra. }
  assert (SI : 1 / 10 ^ 9 <= s) by (rewrite u_val in E2; nra).
  assert (Z : 1000 * eta <= u * sA). { pose proof eta_small as T0. assert (u * (1 / 10 ^ 10) <= u * sA) by (apply Rmult_le_compat_l; lra). assert (u ^ 10 * 10 ^ 13 <= u) by (rewrite u_val; lra). lra. }
  assert (UA : u * A <= u * (2 * sA)) by (apply Rmult_le_compat_l; lra).
  destruct (HL a Fa) as (_ & _ & Fs & Es); [fold A; rewrite Rabs_pos_eq; lra|]. fold A sA in Es. rewrite (Rabs_pos_eq A) in Es by lra. set (w := val (f_sin L a)) in *.
  assert (US : u * sA <= 1 / 10 ^ 15 * sA) by (apply Rmult_le_compat_r; lra).
  assert (W : Rabs (w - sA) <= 41 / 10 * (u * sA)) by (assert (0 < u * sA) by (apply Rmult_lt_0_compat; lra); lra). pose proof (Rabs_ends _ _ W) as W'.
  (* the first quotient *)
  assert (SB : sA <= A) by (pose proof (sin_abs A) as Q; fold sA in Q; rewrite !Rabs_pos_eq in Q by lra; exact Q).
  set (x := sA / A). assert (Hx : x * A = sA) by (unfold x; field; lra). assert (X1 : 1 / 2 <= x <= 1) by (split; apply (Rmult_le_reg_r A); lra).
  assert (D1 : Rabs (w / A - x) <= 41 / 10 * u).
  { replace (w / A - x) with ((w - sA) / A) by (unfold x; field; lra). unfold Rdiv. rewrite Rabs_mult, Rabs_inv, (Rabs_pos_eq A) by lra.
    apply (Rmult_le_reg_r A); auto. rewrite Rmult_assoc, Rinv_l, Rmult_1_r by lra. assert (u * sA <= u * A) by (apply Rmult_le_compat_l; lra). lra. }
  pose proof big_1 as BB. pose proof (Rabs_ends _ _ D1) as D1'.
  destruct (f_div (f_sin L a) a Fs) as [Fq Vq]; [fold A; lra|fold A w; apply Rabs_le; lra|]. fold A w in Vq.
  pose proof (rnd_err (w / A)) as Rq. rewrite <- Vq in Rq. set (q := val (f_sin L a /! a)) in *.
  assert (UQ : u * Rabs (w / A) <= u * (11 / 10)) by (apply Rmult_le_compat_l; [lra|]; apply Rabs_le; lra).
  assert (D2 : Rabs (q - x) <= 53 / 10 * u).
  { replace (q - x) with ((q - w / A) + (w / A - x)) by ring. eapply Rle_trans; [apply Rabs_triang|]. lra. }
  pose proof (Rabs_ends _ _ D2) as D2'. assert (Qp : 49 / 100 <= q <= 101 / 100) by lra.
  destruct cl_one as [F1 V1]. assert (V1' : val (of_Z 1) = 1) by (apply Rabs_ends in V1; lra).
  assert (Iq : 0 <= 1 / q <= 205 / 100). { split; apply (Rmult_le_reg_r q); try lra; replace (1 / q * q) with 1 by (field; lra); lra. }
  destruct (f_div (of_Z 1) (f_sin L a /! a) F1) as [Ff Vf]; [fold q; lra|fold q; rewrite V1'; apply Rabs_le; lra|]. fold f in Ff, Vf. fold q in Vf. rewrite V1' in Vf.
  pose proof (rnd_err (1 / q)) as Rf. rewrite <- Vf in Rf.
  assert (UI : u * Rabs (1 / q) <= u * (205 / 100)) by (apply Rmult_le_compat_l; [lra|]; apply Rabs_le; lra).
  assert (D3 : Rabs (1 / q - A / sA) <= 22 * u).
  { replace (A / sA) with (1 / x) by (unfold x; field; lra). replace (1 / q - 1 / x) with (- (q - x) / (q * x)) by (field; lra).
    assert (QX : 245 / 1000 <= q * x) by (replace (245 / 1000) with (49 / 100 * (1 / 2)) by lra; apply Rmult_le_compat; lra).
    unfold Rdiv. rewrite Rabs_mult, Rabs_Ropp, Rabs_inv, (Rabs_pos_eq (q * x)) by lra. apply (Rmult_le_reg_r (q * x)); [lra|]. rewrite Rmult_assoc, Rinv_l, Rmult_1_r by lra. assert (22 * u * (245 / 1000) <= 22 * u * (q * x)) by (apply Rmult_le_compat_l; lra). lra. }
  split; auto. split; auto. split.
  - split; auto. 
    replace (val f - th / s) with ((val f - 1 / q) + (1 / q - A / sA) + (A / sA - th / s)) by ring.
    eapply Rle_trans; [apply Rabs_triang|]. eapply Rle_trans; [apply Rplus_le_compat_r, Rabs_triang|]. lra.
  - split; apply (Rmult_le_reg_r s); auto; replace (th / s * s) with th by (field; lra); lra.
Qed.
End Sinc.

(** ** Exact facts *)
Lemma t_cos_sin t : 0 <= t -> t <= PI / 2 -> t * cos t <= sin t.
Proof.
  intros H0 H1. destruct (Req_dec t 0) as [->|N]; [rewrite sin_0; lra|].
  destruct (MVT_cor2 (fun x => sin x - x * cos x) (fun x => x * sin x) 0 t) as (c & Hc & C0 & C1); [lra| |].
  - intros x _. eapply d_eq; [apply d_minus; [apply derivable_pt_lim_sin|apply (d_mult (fun x => x) cos); [apply derivable_pt_lim_id|apply derivable_pt_lim_cos]]|]. cbv beta. ring.
  - rewrite sin_0, Rmult_0_l in Hc. pose proof PI_le. assert (0 <= sin c) by (apply sin_ge_0; lra). assert (0 <= c * sin c * (t - 0)) by (apply Rmult_le_pos; [apply Rmult_le_pos|]; lra). lra.
Qed.
(** The numerator of the coefficient of the trace. *)
Lemma num_bound th : 0 < th <= PI / 2 -> let s := sin th in - (s * s) <= cos th * (th / s) - 1 <= 0.
Proof.
  intros H s. pose proof PI_le. assert (S0 : 0 < s) by (apply sin_gt_0; lra). pose proof (t_cos_sin th ltac:(lra) ltac:(lra)) as U. fold s in U.
  assert (St2 : s <= th) by (pose proof (sin_abs th) as Q; fold s in Q; rewrite !Rabs_pos_eq in Q by lra; exact Q).
  assert (CC : cos th * cos th + s * s = 1) by (pose proof (sin2_cos2 th) as Q; unfold Rsqr in Q; fold s in Q; lra).
  assert (C0 : 0 <= cos th) by (apply cos_ge_0; lra). assert (C1 : cos th <= 1) by (apply COS_bound).
  split; apply (Rmult_le_reg_r s); auto; replace ((cos th * (th / s) - 1) * s) with (cos th * th - s) by (field; lra); [|lra].
  assert (cos th * s <= cos th * th) by (apply Rmult_le_compat_l; lra). assert (cos th * (cos th * s) <= 1 * (cos th * s)) by (apply Rmult_le_compat_r; [apply Rmult_le_pos; lra|lra]).
  replace (- (s * s) * s) with (cos th * (cos th * s) - s) by (replace (s * s) with (1 - cos th * cos th) by lra; ring). lra.
Qed.
(** The exact matrix at the rotation exp v. *)
Lemma skew_exp v : length v = 3%nat -> 0 < rnorm v -> let B := expSO3 v in let k := sin (rnorm v) / rnorm v in
  [(a21 B - a12 B) / 2; (a02 B - a20 B) / 2; (a10 B - a01 B) / 2] = rscal k v.
Proof.
  intros Lv Hv B k. destruct (vec3_inv v Lv) as (x & y & z & ->). unfold B, expSO3. cbv zeta. destruct (Req_EM_T _ 0) as [Z|_]; [lra|].
  unfold rodrigues, rscal. cbn [a00 a01 a02 a10 a11 a12 a20 a21 a22 map]. repeat (apply f_equal2; [unfold k; field; lra|]). reflexivity.
Qed.
Lemma acoef_cos th : 0 < th < PI -> acoef (cos th) = th / sin th.
Proof.
  intros H. unfold acoef. rewrite acos_cos by lra. replace (1 - cos th * cos th) with (sin th * sin th) by (pose proof (sin2_cos2 th) as Q; unfold Rsqr in Q; lra).
  rewrite sqrt_square; [reflexivity|]. apply Rlt_le, sin_gt_0; lra.
Qed.

(** ** The code, over any scalar *)
Section Any.
Context {K : Type} {SK : Scalar K}.
Definition jcols (df hf v0 v1 v2 : K) : mat K :=
  let c0 := [(df * v0)%k; (df * v1)%k; (df * v2)%k] in
  Mat 3 [c0; [k0; k0; hf]; [k0; (- hf)%k; k0]; [k0; k0; (- hf)%k]; c0; [hf; k0; k0]; [k0; hf; k0]; [(- hf)%k; k0; k0]; c0].
Lemma em_dpl_main (A : m3 K) : let v0 := ((a21 A - a12 A) / klit 2 1)%k in let v1 := ((a02 A - a20 A) / klit 2 1)%k in let v2 := ((a10 A - a01 A) / klit 2 1)%k in
  let c := ((a00 A + a11 A + a22 A - k1) / klit 2 1)%k in let a := kacos c in let f := (k1 / (ksin a / a))%k in
  (a =? k0)%k = false -> (sqnorm [v0; v1; v2] <? klit 1 10000000000)%k = false ->
  em_diffPseudoLog0 (m3_to_list A) = Ok (jcols ((c * f - k1) / (klit 2 1 * (k1 - c * c)))%k (f / klit 2 1)%k v0 v1 v2).
Proof.
  intros v0 v1 v2 c a f H1 H2. unfold m3_to_list, em_diffPseudoLog0, sinc_pi. cbv zeta.
  fold v0 v1 v2 c. fold a. rewrite H1, H2. reflexivity.
Qed.
End Any.

Section Jac.
Variable L : libm.
Hypothesis HL : accurate L.
Hypothesis HA : accurate_acos L.
Local Notation SK := (F64 L).

(** The coefficient of the trace. *)
Lemma df_f64 c f th e : 0 < th <= PI / 2 -> let s := sin th in cl c (cos th) (3 / 2 * e + 7 * u) -> cl f (th / s) (96 * e + 601 * u) -> th / s <= 2 -> 0 <= e -> 2000 * e <= s * s -> 10000000 * u <= s * s ->
  let d := ((c *! f) -! of_Z 1) /! ((of_Z 2 /! of_Z 1) *! (of_Z 1 -! (c *! c))) in
  let r := (cos th * (th / s) - 1) / (2 * (s * s)) in cl d r ((52 * e + 322 * u) / (s * s)) /\ Rabs r <= 1 / 2.
Proof.
  intros Ht s Cc Cf F2 He E1 E2 d r. pose proof u_pos as U. pose proof u_tiny as U1. pose proof PI_le as PL.
  assert (S0 : 0 < s) by (apply sin_gt_0; lra). assert (S1 : s <= 1) by apply SIN_bound. assert (SS : 0 < s * s <= 1) by nra.
  assert (CC : cos th * cos th + s * s = 1) by (pose proof (sin2_cos2 th) as Q; unfold Rsqr in Q; fold s in Q; lra).
  assert (C0 : 0 <= cos th) by (apply cos_ge_0; lra). assert (C1 : cos th <= 1) by (apply COS_bound).
  assert (F0 : 0 < th / s) by (apply Rdiv_lt_0_compat; lra).
  pose proof (num_bound th Ht) as NB. cbv zeta in NB. fold s in NB. set (C := cos th) in *. set (F := th / s) in *. clearbody C F.
  assert (CF : 0 <= C * F <= 1) by (split; [apply Rmult_le_pos; lra|lra]).
  set (ec := 3 / 2 * e + 7 * u) in *. set (ef := 96 * e + 601 * u) in *.
  assert (Ec : 0 <= ec <= 1 / 1000) by (unfold ec; lra). assert (Ef : 0 <= ef) by (unfold ef; lra).
  assert (M1 : ec * ef <= 1 / 1000 * ef) by (apply Rmult_le_compat_r; lra).
  assert (M2 : C * ef <= 1 * ef) by (apply Rmult_le_compat_r; lra). assert (M3 : F * ec <= 2 * ec) by (apply Rmult_le_compat_r; lra).
  assert (M4 : C * ec <= 1 * ec) by (apply Rmult_le_compat_r; lra). assert (M5 : ec * ec <= 1 / 1000 * ec) by (apply Rmult_le_compat_r; lra).
  assert (Cm : cl (c *! f) (C * F) (992 / 10 * e + 6182 / 10 * u)).
  { eapply cl_weak; [apply (cl_mul _ _ _ _ _ _ (992 / 10 * e + 616 * u) (21 / 10) Cc Cf); rewrite ?(Rabs_pos_eq C), ?(Rabs_pos_eq F), ?(Rabs_pos_eq (C * F)) by lra; unfold ec, ef in *; lra|lra]. }
  set (eN := 993 / 10 * e + 620 * u).
  assert (Cn : cl ((c *! f) -! of_Z 1) (C * F - 1) eN).
  { eapply cl_weak; [apply (cl_sub _ _ _ _ _ _ (11 / 10) Cm cl_one); [rewrite Rabs_left1 by lra|]; lra|unfold eN; lra]. }
  assert (Cq : cl (c *! c) (C * C) (301 / 100 * e + 152 / 10 * u)).
  { assert (0 <= C * C) by nra. eapply cl_weak; [apply (cl_mul _ _ _ _ _ _ (3005 / 1000 * e + 1405 / 100 * u) (11 / 10) Cc Cc); rewrite ?(Rabs_pos_eq C), ?(Rabs_pos_eq (C * C)) by lra; unfold ec in *; lra|lra]. }
  assert (Cs : cl (of_Z 1 -! (c *! c)) (s * s) (301 / 100 * e + 164 / 10 * u)).
  { replace (s * s) with (1 - C * C) by lra. eapply cl_weak; [apply (cl_sub _ _ _ _ _ _ (11 / 10) cl_one Cq); [rewrite Rabs_pos_eq by lra|]; lra|lra]. }
  set (eD := 602 / 100 * e + 35 * u).
  assert (Cd : cl ((of_Z 2 /! of_Z 1) *! (of_Z 1 -! (c *! c))) (2 * (s * s)) eD).
  { eapply cl_weak; [apply (cl_mul _ _ _ _ _ _ (602 / 100 * e + 328 / 10 * u) (21 / 10) cl_two Cs); rewrite ?(Rabs_pos_eq 2), ?(Rabs_pos_eq (s * s)), ?(Rabs_pos_eq (2 * (s * s))) by lra; lra|unfold eD; lra]. }
  assert (R : Rabs r <= 1 / 2).
  { unfold r. apply Rabs_le. split; apply (Rmult_le_reg_r (2 * (s * s))); try lra; replace ((C * F - 1) / (2 * (s * s)) * (2 * (s * s))) with (C * F - 1) by (field; lra); lra. }
  split; auto. set (q := s * s) in *. clearbody q.
  assert (EN : 0 <= eN) by (unfold eN; lra). assert (ED : 0 <= eD <= 1 / 200 * q) by (unfold eD; lra).
  set (g := (52 * e + 321 * u) / q).
  assert (G0 : g <= 3 / 100). { unfold g. apply (Rmult_le_reg_r q); [lra|]. unfold Rdiv at 1. rewrite Rmult_assoc, Rinv_l by lra. lra. }
  assert (G : (Rabs (2 * q) * eN + Rabs (C * F - 1) * eD) / (Rabs (2 * q) * (Rabs (2 * q) - eD)) <= g).
  { rewrite (Rabs_pos_eq (2 * q)) by lra. rewrite (Rabs_left1 (C * F - 1)) by lra.
    apply Rle_trans with ((2 * q * eN + q * eD) / (2 * q * (199 / 100 * q))).
    - unfold Rdiv. apply Rmult_le_compat.
      + assert (0 <= q * eN) by (apply Rmult_le_pos; lra). assert (0 <= - (C * F - 1) * eD) by (apply Rmult_le_pos; lra). lra.
      + apply Rlt_le, Rinv_0_lt_compat, Rmult_lt_0_compat; lra.
      + assert (- (C * F - 1) * eD <= q * eD) by (apply Rmult_le_compat_r; lra). lra.
      + apply Rinv_le_contravar; [apply Rmult_lt_0_compat; lra|]. apply Rmult_le_compat_l; lra.
    - unfold g. apply (Rmult_le_reg_r q); [lra|]. replace ((2 * q * eN + q * eD) / (2 * q * (199 / 100 * q)) * q) with ((2 * eN + eD) / (398 / 100)) by (field; lra).
      replace ((52 * e + 321 * u) / q * q) with (52 * e + 321 * u) by (field; lra). unfold eN, eD. lra. }
  eapply cl_weak; [apply (cl_div _ _ _ _ _ _ g (6 / 10) Cn Cd); rewrite ?(Rabs_pos_eq (2 * q)) by lra; try lra|].
  - rewrite (Rabs_pos_eq (2 * q)) in G by lra. exact G.
  - fold r. lra.
  - replace ((52 * e + 322 * u) / q) with (g + u / q) by (unfold g; field; lra). assert (u <= u / q). { apply (Rmult_le_reg_r q); [lra|]. replace (u / q * q) with u by (field; lra). assert (u * q <= u * 1) by (apply Rmult_le_compat_l; lra). lra. } lra.
Qed.
(** One entry of the antisymmetric part, and its product with the coefficient. *)
Lemma skew_f64 p q P Q e s : cl p P e -> cl q Q e -> 0 < s <= 1 -> Rabs ((P - Q) / 2) <= s -> 0 <= e <= 1 / 2000 -> cl ((p -! q) /! (of_Z 2 /! of_Z 1)) ((P - Q) / 2) (e + 22 / 10 * u).
Proof.
  intros Cp Cq Hs B He. pose proof u_pos as U. pose proof u_tiny as U1.
  assert (B2 : Rabs (P - Q) <= 2). { replace (P - Q) with (2 * ((P - Q) / 2)) by field. rewrite Rabs_mult, (Rabs_pos_eq 2) by lra. lra. }
  pose proof (cl_sub _ _ _ _ _ _ (21 / 10) Cp Cq ltac:(lra) ltac:(lra)) as Cd.
  eapply cl_weak; [apply (cl_div _ _ _ _ _ _ (e + 10505 / 10000 * u) (11 / 10) Cd cl_two); rewrite ?(Rabs_pos_eq 2) by lra; lra|lra].
Qed.
Lemma prod_f64 d w r V e s : 0 < s <= 1 -> cl d r ((52 * e + 322 * u) / (s * s)) -> Rabs r <= 1 / 2 -> cl w V (e + 22 / 10 * u) -> Rabs V <= s -> 0 <= e -> 2000 * e <= s * s -> 10000000 * u <= s * s ->
  cl (d *! w) (r * V) ((53 * e + 324 * u) / s).
Proof.
  intros Hs Cd Hr Cw HV He E1 E2. pose proof u_pos as U. pose proof u_tiny as U1. assert (SS : 0 < s * s <= 1) by nra.
  set (X := (52 * e + 322 * u) / (s * s)) in *. set (y := e + 22 / 10 * u) in *. set (Y := (52 * e + 322 * u) / s).
  assert (XY : s * X = Y) by (unfold X, Y; field; lra). assert (X0 : 0 <= X <= 3 / 100).
  { unfold X. split; apply (Rmult_le_reg_r (s * s)); try lra; unfold Rdiv; rewrite Rmult_assoc, Rinv_l by lra; lra. }
  assert (Y0 : 0 <= y <= 1 / 1000) by (unfold y; lra).
  assert (YX : Y <= 3 / 100). { rewrite <- XY. assert (s * X <= 1 * X) by (apply Rmult_le_compat_r; lra). lra. }
  pose proof (Rabs_pos r). pose proof (Rabs_pos V).
  assert (A1 : Rabs r * y <= 1 / 2 * y) by (apply Rmult_le_compat_r; lra). assert (A2 : Rabs V * X <= Y) by (rewrite <- XY; apply Rmult_le_compat_r; lra).
  assert (A3 : X * y <= 3 / 100 * y) by (apply Rmult_le_compat_r; lra). assert (A4 : Rabs (r * V) <= 1 / 2).
  { rewrite Rabs_mult. replace (1 / 2) with (1 / 2 * 1) by lra. apply Rmult_le_compat; lra. }
  eapply cl_weak; [apply (cl_mul _ _ _ _ _ _ (Y + 53 / 100 * y) (6 / 10) Cd Cw); lra|].
  replace ((53 * e + 324 * u) / s) with (Y + (e + 2 * u) / s) by (unfold Y; field; lra).
  assert (e + 2 * u <= (e + 2 * u) / s). { apply (Rmult_le_reg_r s); [lra|]. replace ((e + 2 * u) / s * s) with (e + 2 * u) by (field; lra). assert ((e + 2 * u) * s <= (e + 2 * u) * 1) by (apply Rmult_le_compat_l; lra). lra. }
  unfold y. lra.
Qed.

Theorem em_jaclog64 (A : m3 f64) v e : length v = 3%nat -> 1 / 1000 <= rnorm v <= PI / 2 -> let s := sin (rnorm v) in mcl A (expSO3 v) e -> 0 <= e -> 2000 * e <= s * s ->
  exists J, em_diffPseudoLog0 (SK:=SK) (m3_to_list A) = Ok J /\ shape J 3 9 /\ Forall (Forall isf) (mcols_ J) /\
    Forall2 (near_v ((53 * e + 324 * u) / s)) (map (map val) (mcols_ J)) (jac0_mat (expSO3 v)).
Proof.
  intros Lv Hv s HM He E1. pose proof u_pos as U. pose proof u_tiny as U1. pose proof PI_le as PL. pose proof PI2_1 as P2. set (th := rnorm v) in *.
  assert (Ht : 0 < th <= PI / 2) by lra.
  assert (S0 : 0 < s) by (apply sin_gt_0; lra). assert (S1 : s <= 1) by apply SIN_bound.
  assert (St : th / 2 <= s) by (apply sin_half_173; lra). assert (SS : 0 < s * s <= 1) by nra. assert (SQ : 1 / 4000000 <= s * s) by nra.
  assert (E2 : 10000000 * u <= s * s) by lra. assert (He' : e <= 1 / 2000) by lra.
  pose proof (expSO3_rot v) as RB. pose proof (expSO3_trace v th Lv eq_refl) as Tr. pose proof (skew_exp v Lv ltac:(fold th; lra)) as SK3. cbv zeta in SK3. fold th s in SK3.
  pose proof (trace_f64 (in_order L) A _ e HM RB ltac:(lra)) as Tc. rewrite Tr in Tc.
  set (B := expSO3 v) in *. set (c := (a00 A +! a11 A +! a22 A -! of_Z 1) /! (of_Z 2 /! of_Z 1)). change (cl c (cos th) (3 / 2 * e + 7 * u)) in Tc.
  destruct (sinc_f64 L HL HA c th _ Ht Tc ltac:(lra) ltac:(fold s; lra) ltac:(fold s; lra)) as (Fa & Pa & Cf & F1). fold s in Cf, F1.
  set (a := f_acos L c) in *. set (f := of_Z 1 /! (f_sin L a /! a)) in *.
  apply (cl_weak _ _ _ (96 * e + 601 * u)) in Cf; [|lra].
  destruct (df_f64 c f th e Ht Tc Cf ltac:(fold s; lra) He E1 E2) as [Cd Rd]. fold s in Cd, Rd.
  set (r := (cos th * (th / s) - 1) / (2 * (s * s))) in *. set (df := ((c *! f) -! of_Z 1) /! _) in Cd.
  assert (Ch : cl (f /! (of_Z 2 /! of_Z 1)) (th / s / 2) (48 * e + 302 * u)).
  { eapply cl_weak; [apply (cl_div _ _ _ _ _ _ (48 * e + 3005 / 10 * u) (11 / 10) Cf cl_two); rewrite ?(Rabs_pos_eq 2), ?(Rabs_pos_eq (th / s)), ?(Rabs_pos_eq (th / s / 2)) by lra; lra|lra]. }
  set (hf := f /! (of_Z 2 /! of_Z 1)) in *.
  destruct HM as (C00 & C01 & C02 & C10 & C11 & C12 & C20 & C21 & C22).
  (* the antisymmetric part *)
  destruct (vec3_inv v Lv) as (x & y & z & ->). pose proof (rnorm3_sq x y z) as N. fold th in N. unfold rscal in SK3. cbn [map] in SK3. injection SK3 as K0 K1 K2.
  set (k := s / th) in *. assert (Kt : k * th = s) by (unfold k; field; lra). assert (Kp : 0 <= k) by (apply Rmult_le_pos; [lra|apply Rlt_le, Rinv_0_lt_compat; lra]).
  assert (KB : forall w, w * w <= th * th -> Rabs (k * w) <= s).
  { intros w Hw. rewrite Rabs_mult, (Rabs_pos_eq k) by lra. rewrite <- Kt. apply Rmult_le_compat_l; auto. apply sq_le_abs; nra. }
  assert (Bx : Rabs (k * x) <= s) by (apply KB; nra). assert (By : Rabs (k * y) <= s) by (apply KB; nra). assert (Bz : Rabs (k * z) <= s) by (apply KB; nra).
  pose proof (skew_f64 _ _ _ _ e s C21 C12 ltac:(lra) ltac:(rewrite K0; auto) ltac:(lra)) as V0. pose proof (skew_f64 _ _ _ _ e s C02 C20 ltac:(lra) ltac:(rewrite K1; auto) ltac:(lra)) as V1. pose proof (skew_f64 _ _ _ _ e s C10 C01 ltac:(lra) ltac:(rewrite K2; auto) ltac:(lra)) as V2.
  rewrite K0 in V0. rewrite K1 in V1. rewrite K2 in V2.
  set (v0 := (a21 A -! a12 A) /! (of_Z 2 /! of_Z 1)) in *. set (v1 := (a02 A -! a20 A) /! (of_Z 2 /! of_Z 1)) in *. set (v2 := (a10 A -! a01 A) /! (of_Z 2 /! of_Z 1)) in *.
  (* the switches *)
  assert (T1 : Beqb a (B754_zero false) = false).
  { destruct (Beqb a (B754_zero false)) eqn:E; auto. rewrite Beqb_correct in E by auto. apply Req_bool_lt' in E || idtac. exfalso. revert E. case Req_bool_spec; [|discriminate]. intros E _. cbn in E. lra. }
  assert (T2 : Bltb (nsq L v0 v1 v2) (of_Z 1 /! of_Z 10000000000) = false).
  { pose proof (cl_sq _ _ _ V0 ltac:(lra) ltac:(lra)) as Q0. pose proof (cl_sq _ _ _ V1 ltac:(lra) ltac:(lra)) as Q1. pose proof (cl_sq _ _ _ V2 ltac:(lra) ltac:(lra)) as Q2.
    assert (P : forall w, Rabs w <= s -> 0 <= w * w <= 1) by (intros w Hw; apply Rabs_ends in Hw; nra). pose proof (P _ Bx). pose proof (P _ By). pose proof (P _ Bz).
    pose proof (cl_sum3 L _ _ _ _ _ _ _ (21 / 10) (32 / 10) Q0 Q1 Q2 ltac:(rewrite Rabs_pos_eq; lra) ltac:(rewrite Rabs_pos_eq; lra) ltac:(rewrite Rabs_pos_eq; lra) ltac:(rewrite Rabs_pos_eq; lra) ltac:(lra) ltac:(lra)) as [F Q].
    replace (k * x * (k * x) + k * y * (k * y) + k * z * (k * z)) with (s * s) in Q by (rewrite <- Kt; replace (k * th * (k * th)) with (k * k * (th * th)) by ring; rewrite N; ring).
    destruct (lit_ok 1 10000000000) as [Fl Vl]; [cbn; lia|cbn; lia|]. rewrite (Rabs_pos_eq (1 / 10000000000)) in Vl by lra. apply Rabs_ends in Q, Vl.
    unfold nsq. rewrite f_ltb by auto. apply Rlt_bool_false. pose proof eta_u. lra. }
  pose proof (em_dpl_main (SK:=SK) A) as EQ. cbv zeta in EQ. specialize (EQ T1 T2).
  eexists. split; [exact EQ|]. split; [repeat constructor|].
  set (eps := (53 * e + 324 * u) / s).
  assert (EP : 48 * e + 302 * u <= eps).
  { unfold eps. apply (Rmult_le_reg_r s); [lra|]. replace ((53 * e + 324 * u) / s * s) with (53 * e + 324 * u) by (field; lra). assert ((48 * e + 302 * u) * s <= (48 * e + 302 * u) * 1) by (apply Rmult_le_compat_l; lra). lra. }
  pose proof (prod_f64 _ _ _ _ e s ltac:(lra) Cd Rd V0 Bx He E1 E2) as [G0 N0]. pose proof (prod_f64 _ _ _ _ e s ltac:(lra) Cd Rd V1 By He E1 E2) as [G1 N1]. pose proof (prod_f64 _ _ _ _ e s ltac:(lra) Cd Rd V2 Bz He E1 E2) as [G2 N2].
  fold eps in N0, N1, N2. pose proof (cl_opp _ _ _ Ch) as [Go No]. destruct Ch as [Gh Nh].
  assert (FZ : isf (B754_zero false)) by reflexivity.
  unfold jcols. cbv zeta. cbn [mcols_ kmul kopp k0 F64].
  split.
  { repeat (apply Forall_cons; [repeat (apply Forall_cons; [first [exact G0|exact G1|exact G2|exact Gh|exact Go|exact FZ]|]); apply Forall_nil|]). apply Forall_nil. }
  unfold jac0_mat, jac0_gen, true_df, tr3. rewrite Tr. rewrite acoef_cos by (unfold B in *; lra). fold s.
  replace (1 - cos th * cos th) with (s * s) by (pose proof (sin2_cos2 th) as Q; unfold Rsqr in Q; fold s in Q; lra). cbv zeta. fold r. rewrite K0, K1, K2. cbn [map].
  assert (Z0 : Rabs (val (B754_zero false) - 0) <= eps) by (cbn; rewrite Rminus_0_r, Rabs_R0; lra).
  assert (Nh' : Rabs (val hf - th / s / 2) <= eps) by lra. assert (No' : Rabs (val (Bopp hf) - - (th / s / 2)) <= eps) by lra.
  repeat (apply Forall2_cons; [repeat (apply Forall2_cons; [first [exact N0|exact N1|exact N2|exact Nh'|exact No'|exact Z0]|]); apply Forall2_nil|]). apply Forall2_nil.
Qed.
End Jac.
