(** What the membership tests accept in doubles: from the computed test back to the real numbers held by the doubles. *)
From Coq Require Import Reals List Lra Lia ZArith Bool Arith Psatz Permutation.
From Flocq Require Import Core BinarySingleNaN.
From Verif Require Import Base Scalar Vec Model_Real Model_S2 Model_SO3 Model_Manifold Spec Layout Comp Indep Flat Points
  XR SpecR RotR NumVec NumTree Drift F64 F64Err F64Norm F64S2 F64Exp F64Quat F64Mat F64Mat2 F64Tree F64Gs F64Go ObjPath ExScalar Properties_Float.
Import ListNotations.
Local Open Scope R_scope.

Section Accept.
Variable L : libm.
Local Notation SK := (F64 L).

Lemma leb_fin a b : isf b -> Bleb (Babs a) b = true -> isf a.
Proof. destruct a as [s|s| |s m e H]; try reflexivity; intros Hb; destruct b as [s'|s'| |s' m' e' H']; cbn; try discriminate; destruct s'; discriminate. Qed.
Lemma Rle_bool_le' a b : Rle_bool a b = true -> a <= b.
Proof. destruct (Rle_bool_spec a b); [auto|discriminate]. Qed.

(** A computed norm found close to 1. *)
Lemma norm_back s p : isf p -> val p <= 1 / 100 -> Bltb (Babs (Bsqrt mode_NE s -! of_Z 1)) p = true ->
  isf s /\ 0 < val p /\ Rabs (val s - 1) <= 201 / 100 * val p + 12 * u.
Proof.
  intros Fp Hp H. pose proof (ltb_fin _ _ Fp H) as Fs. destruct (f_abs _ Fs) as [Fb Vb]. rewrite f_ltb in H by auto. apply Rlt_bool_lt' in H. rewrite Vb in H.
  apply sub_fin in Fs as (Fr & _ & V). rewrite V, (proj2 (of_Z_ok 1 eq_refl)) in H. apply sqrt_fin in Fr as [F0 P0]. split; [exact F0|].
  destruct (f_sqrt _ F0 P0) as [_ Vr]. rewrite Vr in H. assert (Pp : 0 < val p) by (eapply Rle_lt_trans; [apply Rabs_pos|exact H]). split; [exact Pp|].
  assert (H1 : Rabs (rnd (rnd (sqrt (val s)) - 1)) <= val p) by lra. apply rnd_back in H1; [|lra].
  pose proof (rnd_err (sqrt (val s))) as E. pose proof (sqrt_sqrt _ P0) as Q. pose proof (sqrt_pos (val s)) as Q0. set (r := sqrt (val s)) in *. clearbody r. rewrite <- Q. clear Q H V Vr Vb.
  set (t := rnd r) in *. clearbody t. rewrite (Rabs_pos_eq r) in E by auto. pose proof eta_u. pose proof u_pos. assert (U1 : u <= 1 / 10 ^ 15) by (rewrite u_val; lra). apply Rabs_ends in E, H1.
  assert (r <= 102 / 100) by nra. assert (B : Rabs (r - 1) <= val p + 4 * u) by (apply Rabs_le; nra). apply Rabs_ends in B. apply Rabs_le. nra.
Qed.
Lemma final_bound S N p : 0 < p <= 1 / 100 -> 0 <= N -> Rabs (S - 1) <= 201 / 100 * p + 12 * u -> Rabs (S - N) <= 402 / 100 * (u * N) + 20 * eta -> 
  Rabs (N - 1) <= 21 / 10 * Rmax p (1001 / 10 ^ 11).
Proof.
  intros [P0 P1] N0 H1 H2. pose proof eta_u. pose proof u_pos. assert (U1 : u <= 12 / 10 ^ 17) by (rewrite u_val; lra). apply Rabs_ends in H1, H2.
  assert (N2 : N <= 2) by nra. assert (E : Rabs (N - 1) <= 201 / 100 * p + 50 * u) by (apply Rabs_le; nra).
  pose proof (Rmax_l p (1001 / 10 ^ 11)). pose proof (Rmax_r p (1001 / 10 ^ 11)). lra.
Qed.

Lemma s2_back x0 x1 x2 p : isf p -> val p <= 1 / 100 -> s2_isInM (SK:=SK) [x0; x1; x2] p = true ->
  (isf x0 /\ isf x1 /\ isf x2) /\ Rabs (sq3 (val x0) (val x1) (val x2) - 1) <= 21 / 10 * Rmax (val p) (1001 / 10 ^ 11).
Proof.
  intros Fp Hp H. unfold s2_isInM, norm, sqnorm in H. cbn [dot map2 ksum kabs kltb kadd kmul ksub ksqrt k1 F64] in H.
  apply norm_back in H as (Fs & Pp & E); auto. destruct (dot3_err L x0 x1 x2 Fs) as (F0 & F1 & F2 & D). cbv zeta in D. split; [auto|].
  pose proof u_pos. assert (N0 : 0 <= sq3 (val x0) (val x1) (val x2)) by (unfold sq3; nra). eapply final_bound; eauto.
  eapply Rle_trans; [exact D|]. assert (0 <= u * sq3 (val x0) (val x1) (val x2)) by nra. pose proof eta_pos. lra.
Qed.
Lemma eq_back q p : isf p -> val p <= 1 / 100 -> eq_isInM (SK:=SK) [qw q; qx q; qy q; qz q] p = Ok true ->
  qfin q /\ Rabs (qn2 (qval q) - 1) <= 21 / 10 * Rmax (val p) (1001 / 10 ^ 11).
Proof.
  intros Fp Hp H. unfold eq_isInM, quat_read in H. cbn [raw_read List.length Nat.leb ub_unless bind firstn Nat.eqb andb] in H. injection H as H.
  unfold qsqnorm, sqnorm in H. cbn [qw qx qy qz dot map2 ksum kabs ksub ksqrt kadd kmul kltb k1 F64] in H.
  apply norm_back in H as (Fs & Pp & E); auto. destruct (dot4_err L (qx q) (qy q) (qz q) (qw q) Fs) as (F1 & F2 & F3 & F0 & D). cbv zeta in D. split; [repeat split; auto|].
  replace (qn2 (qval q)) with (sq4 (val (qx q)) (val (qy q)) (val (qz q)) (val (qw q))) by (unfold sq4, qn2, qval; cbn [qw qx qy qz]; ring).
  pose proof u_pos. assert (N0 : 0 <= sq4 (val (qx q)) (val (qy q)) (val (qz q)) (val (qw q))) by (unfold sq4; nra). eapply final_bound; eauto.
  eapply Rle_trans; [exact D|]. assert (0 <= u * sq4 (val (qx q)) (val (qy q)) (val (qz q)) (val (qw q))) by nra. lra.
Qed.

Lemma approx_back g : k_isApprox (SK:=SK) g (k1 (Scalar:=SK)) (lit8 L) = true -> isf g /\ Rabs (val g - 1) <= 1003 / 10 ^ 11.
Proof.
  intros H. assert (Fg : isf g). { destruct g as [s|s| |s m e Hb]; try reflexivity; exfalso; [destruct s; vm_compute in H; discriminate H|discriminate H]. }
  split; [exact Fg|]. unfold k_isApprox in H. cbn [kabs ksub kleb kmul k1 F64] in H. destruct (lit8_tight L) as [F8 V8]. destruct (f_abs _ Fg) as [Fa Va]. destruct (of_Z_ok 1 eq_refl) as [F1 V1].
  destruct (f_abs _ F1) as [Fb Vb]. rewrite V1, Rabs_R1 in Vb.
  assert (M : exists k, kmin (H:=SK) (Babs g) (Babs (of_Z 1)) = k /\ isf k /\ 0 <= val k <= 1).
  { eexists. split; [reflexivity|]. unfold kmin. cbn [kltb F64]. rewrite f_ltb by auto. destruct (Rlt_bool_spec (val (Babs (of_Z 1))) (val (Babs g))); split; auto; rewrite ?Vb; [lra|]. split; [rewrite Va; apply Rabs_pos|lra]. }
  destruct M as (k & Ek & Fk & K). rewrite Ek in H. pose proof u_pos. pose proof eta_u. assert (U1 : u <= 12 / 10 ^ 17) by (rewrite u_val; lra).
  assert (PK : 0 <= val k * val (lit8 L) <= 1001 / 10 ^ 11) by (split; nra).
  destruct (f_mul k (lit8 L) Fk F8) as [Fm Vm]. { rewrite Rabs_pos_eq by lra. eapply Rle_trans; [apply PK|]. pose proof B900_big. pose proof B400_900. pose proof B400_1. nra. }
  pose proof (leb_fin _ _ Fm H) as Fs. destruct (f_abs _ Fs) as [Fc Vc]. rewrite f_leb in H by auto. apply Rle_bool_le' in H. rewrite Vc, Vm in H. apply sub_fin in Fs as (_ & _ & Vs). rewrite Vs, V1 in H.
  pose proof (rnd_err (val k * val (lit8 L))) as E. rewrite (Rabs_pos_eq (val k * _)) in E by lra. apply Rabs_ends in E.
  assert (HR : Rabs (rnd (val g - 1)) <= 1002 / 10 ^ 11) by (set (z := val k * val (lit8 L)) in *; clearbody z; nra). apply rnd_back in HR; [|lra]. lra.
Qed.
Lemma small_back g : k_isMuchSmallerThan (SK:=SK) g (k1 (Scalar:=SK)) (lit8 L) = true -> isf g /\ Rabs (val g) <= 1002 / 10 ^ 11.
Proof.
  intros H. unfold k_isMuchSmallerThan in H. cbn [kabs kleb kmul k1 F64] in H. destruct (lit8_tight L) as [F8 V8]. destruct (of_Z_ok 1 eq_refl) as [F1 V1].
  destruct (f_abs _ F1) as [Fb Vb]. rewrite V1, Rabs_R1 in Vb. pose proof u_pos. pose proof eta_u. assert (U1 : u <= 12 / 10 ^ 17) by (rewrite u_val; lra).
  destruct (f_mul (Babs (of_Z 1)) (lit8 L) Fb F8) as [Fm Vm]. { rewrite Vb, Rmult_1_l, Rabs_pos_eq by lra. eapply Rle_trans; [apply V8|]. pose proof B900_big. pose proof B400_900. pose proof B400_1. nra. }
  pose proof (leb_fin _ _ Fm H) as Fg. split; [exact Fg|]. destruct (f_abs _ Fg) as [Fc Vc]. rewrite f_leb in H by auto. apply Rle_bool_le' in H. rewrite Vc, Vm, Vb, Rmult_1_l in H.
  pose proof (rnd_err (val (lit8 L))) as E. rewrite (Rabs_pos_eq (val (lit8 L))) in E by lra. apply Rabs_ends in E. set (z := val (lit8 L)) in *. clearbody z. nra.
Qed.
Lemma diag_back a b c : k_isApprox (SK:=SK) (s3 (SK:=SK) a a b b c c) (k1 (Scalar:=SK)) (lit8 L) = true ->
  (isf a /\ isf b /\ isf c) /\ Rabs (val a * val a + val b * val b + val c * val c - 1) <= 1005 / 10 ^ 11 /\
  Rabs (val a) <= 11 / 10 /\ Rabs (val b) <= 11 / 10 /\ Rabs (val c) <= 11 / 10.
Proof.
  intros H. apply approx_back in H as [Fs H]. unfold s3 in *. cbn [ksum kadd kmul F64] in *.
  destruct (dot3_err L a b c Fs) as (Fa & Fb & Fc & E). cbv zeta in E. unfold sq3 in E. set (g := val (f_sum _ _)) in *. clearbody g. clear Fs. set (N := val a * val a + val b * val b + val c * val c) in *.
  pose proof eta_u. assert (U1 : u <= 12 / 10 ^ 17) by (rewrite u_val; lra). pose proof u_pos. assert (N0 : 0 <= N) by (unfold N; nra). apply Rabs_ends in E, H.
  assert (N1 : N <= 13 / 10) by nra. assert (NN : Rabs (N - 1) <= 1005 / 10 ^ 11) by (apply Rabs_le; nra). split; [auto|]. split; [exact NN|]. apply Rabs_ends in NN. unfold N in NN.
  pose proof (Rle_0_sqr (val a)). pose proof (Rle_0_sqr (val b)). pose proof (Rle_0_sqr (val c)). unfold Rsqr in *. repeat split; apply sq_le_abs; lra.
Qed.
Lemma off_back a b c d e f : isf a -> isf b -> isf c -> isf d -> isf e -> isf f ->
  Rabs (val a) <= 11 / 10 -> Rabs (val b) <= 11 / 10 -> Rabs (val c) <= 11 / 10 -> Rabs (val d) <= 11 / 10 -> Rabs (val e) <= 11 / 10 -> Rabs (val f) <= 11 / 10 ->
  k_isMuchSmallerThan (SK:=SK) (s3 (SK:=SK) a b c d e f) (k1 (Scalar:=SK)) (lit8 L) = true -> Rabs (val a * val b + val c * val d + val e * val f) <= 1005 / 10 ^ 11.
Proof.
  intros Fa Fb Fc Fd Fe Ff Ba Bb Bc Bd Be Bf H. apply small_back in H as [_ H].
  destruct (s3_app11 L a b c d e f) as [_ E]; auto. assert (U1 : u <= 12 / 10 ^ 17) by (rewrite u_val; lra). pose proof u_pos. apply Rabs_ends in E, H. apply Rabs_le. lra.
Qed.
Lemma det_back X : mfin X -> mbound (11 / 10) X -> Bltb (Babs (m3_det (SK:=SK) X -! of_Z 1)) (lit8 L) = true -> Rabs (rdet (mval X) - 1) <= 1005 / 10 ^ 11.
Proof.
  intros FX BX H2. pose proof (det_app11 L _ FX BX) as [FD ED]. set (D := m3_det _) in *. clearbody D.
  destruct (lit8_tight L) as [Fl Vl]. pose proof (ltb_fin _ _ Fl H2) as Fs. destruct (f_abs _ Fs) as [Fb Vb]. rewrite f_ltb in H2 by auto.
  apply Rlt_bool_lt' in H2. rewrite Vb in H2. apply sub_fin in Fs as (_ & _ & Vs). rewrite Vs, (proj2 (of_Z_ok 1 eq_refl)) in H2.
  assert (U1 : u <= 12 / 10 ^ 17) by (rewrite u_val; lra). pose proof u_pos.
  assert (H3 : Rabs (rnd (val D - 1)) <= 1001 / 10 ^ 11) by lra. apply rnd_back in H3; [|lra]. apply Rabs_ends in H3, ED. apply Rabs_le. lra.
Qed.
Lemma em_back X p : em_isInM (SK:=SK) (m3_to_list X) p = Ok true -> mfin X /\ near_rot (1005 / 10 ^ 11) (mval X).
Proof.
  assert (RX : m3_read (m3_to_list X) = Ok X) by (destruct X; reflexivity). unfold em_isInM. rewrite RX. cbn [bind].
  replace (length (m3_to_list X) =? 9)%nat with true by (destruct X; reflexivity). cbn [andb]. intros H. injection H as H. apply andb_prop in H as [HD H].
  change (map_prec (SK:=SK)) with (lit8 L) in HD, H. cbn [kabs ksub kltb k1 F64] in HD.
  unfold m3_isIdentity, m3_mul, m3_trans in H. destruct X as [x0 x1 x2 x3 x4 x5 x6 x7 x8]. cbn [a00 a01 a02 a10 a11 a12 a20 a21 a22] in H.
  repeat match goal with H : _ && _ = true |- _ => apply andb_prop in H; let H' := fresh "K" in destruct H as [H H'] end.
  apply diag_back in H as ((F0 & F3 & F6) & G0 & B0 & B3 & B6). apply diag_back in K as ((F2 & F5 & F8) & G2 & B2 & B5 & B8).
  match goal with K : k_isApprox _ _ _ = true |- _ => apply diag_back in K; destruct K as ((F1 & F4 & F7) & G1 & B1 & B4 & B7) end.
  assert (FX : mfin (M3 x0 x1 x2 x3 x4 x5 x6 x7 x8)) by (unfold mfin; cbn [a00 a01 a02 a10 a11 a12 a20 a21 a22]; tauto).
  assert (BX : mbound (11 / 10) (M3 x0 x1 x2 x3 x4 x5 x6 x7 x8)) by (unfold mbound; cbn [a00 a01 a02 a10 a11 a12 a20 a21 a22]; tauto).
  split; [exact FX|]. apply (det_back _ FX BX) in HD.
  repeat match goal with K : k_isMuchSmallerThan _ _ _ = true |- _ => apply off_back in K; [|assumption..] end.
  unfold near_rot. cbv zeta. unfold mval, rmul, rtr in *. cbn [a00 a01 a02 a10 a11 a12 a20 a21 a22] in *. repeat split; assumption.
Qed.
End Accept.
