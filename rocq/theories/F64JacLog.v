(** diffPseudoLog0 of the quaternion map in double arithmetic. *)
From Coq Require Import Reals List Lra Lia ZArith Bool Arith Psatz.
From Flocq Require Import Core BinarySingleNaN.
From Verif Require Import Base Scalar Vec Spec Model_SO3 XR SpecR RotR NumVec NumExp NumQuat Angle RotLog F64 F64Err F64Norm F64S2 F64Exp F64Quat F64Mat F64Mat2 F64Go F64Log F64LogQ JacLogR.
Import ListNotations.
Local Open Scope R_scope.

Lemma big_20 : 100000000000000000000 <= big.
Proof. apply Rle_trans with (bpow radix2 80); [cbn; lra|]. apply bpow_le. lia. Qed.
Lemma cl_lit k n : (Z.abs k < 2 ^ 53)%Z -> IZR k = n -> cl (of_Z k) n 0.
Proof. intros H <-. destruct (of_Z_ok k H) as [F V]. split; auto. rewrite V, Rminus_diag_eq, Rabs_R0 by reflexivity. lra. Qed.
Lemma cl_self a : isf a -> cl a (val a) 0.
Proof. intros F. split; auto. rewrite Rminus_diag_eq, Rabs_R0 by reflexivity. lra. Qed.
Lemma cl_two : cl (of_Z 2 /! of_Z 1) 2 0.
Proof. destruct (lit_int 2 ltac:(lia)) as [F E]. split; auto. lra. Qed.

(** ** The rank-one term *)
Section Gvv.
Context (w c n2 : f64) (m z : R).
Hypothesis (Fw : isf w) (Fc : isf c) (W : Rabs (val w) <= 1002 / 1000) (M : 97 / 10 ^ 10 <= m <= 101 / 100)
  (C : Rabs (val c - z) <= 130 * u) (Z : Rabs z <= 405 / 100) (N2 : Rabs (val n2 - m * m) <= 302 / 100 * (u * (m * m))).
Let N := (of_Z 2 /! of_Z 1) *! w -! c.
Lemma num_cl : cl N (2 * val w - z) (139 * u) /\ Rabs (2 * val w - z) <= 606 / 100.
Proof.
  pose proof u_pos as U. pose proof u_tiny as U1. pose proof (Rabs_ends _ _ W) as W'. pose proof (Rabs_ends _ _ Z) as Z'.
  assert (B : Rabs (2 * val w - z) <= 606 / 100) by (apply Rabs_le; lra). split; auto.
  assert (A : cl ((of_Z 2 /! of_Z 1) *! w) (2 * val w) (0 + (21 / 10 + 1 / 1000) * u)).
  { apply (cl_mul _ _ 2 (val w) 0 0 0 (21 / 10) cl_two (cl_self w Fw)); try lra. rewrite Rabs_mult, (Rabs_pos_eq 2) by lra. lra. }
  pose proof (cl_sub _ _ (2 * val w) z _ _ (62 / 10) A (conj Fc C) ltac:(lra) ltac:(lra)) as [F E]. split; [exact F|]. unfold N. lra.
Qed.
Lemma quot_big : isf (N /! n2) /\ Rabs (val (N /! n2) * (m * m) - val N) <= 26 * u.
Proof.
  destruct num_cl as [[FN EN] BN]. pose proof u_pos as U. pose proof u_tiny as U1. pose proof eta_u50 as T. pose proof eta_pos as T0. pose proof big_20 as BG.
  assert (MM : 94 / 10 ^ 18 <= m * m <= 103 / 100) by nra. set (s := m * m) in *. apply Rabs_ends in N2.
  assert (US : u * s <= 1 / 10 ^ 15 * s) by (apply Rmult_le_compat_r; lra). assert (S0 : 0 < val n2) by lra.
  assert (BV : Rabs (val N) <= 61 / 10). { apply Rabs_ends in EN, BN. apply Rabs_le. lra. }
  set (y := val N / val n2). assert (Y : y * val n2 = val N) by (unfold y; field; lra).
  assert (YB : Rabs y <= 10 ^ 17). { unfold y, Rdiv. rewrite Rabs_mult, Rabs_inv, (Rabs_pos_eq (val n2)) by lra. apply (Rmult_le_reg_r (val n2)); auto. rewrite Rmult_assoc, Rinv_l, Rmult_1_r by lra. lra. }
  destruct (f_div N n2 FN ltac:(lra)) as [F V]; [fold y; lra|]. fold y in V. split; auto. pose proof (rnd_err y) as E. rewrite <- V in E. set (g := val (N /! n2)) in *.
  assert (YS : Rabs y * val n2 <= 61 / 10). { rewrite <- (Rabs_pos_eq (val n2)) at 1 by lra. rewrite <- Rabs_mult, Y. exact BV. }
  pose proof (Rabs_pos y) as Y0. assert (YS' : Rabs y * s <= 611 / 100). { assert (Rabs y * s <= Rabs y * (val n2 * (1 + 1 / 1000))) by (apply Rmult_le_compat_l; lra). lra. }
  replace (g * s - val N) with ((g - y) * s + y * (s - val n2)) by (rewrite <- Y; ring). eapply Rle_trans; [apply Rabs_triang|]. rewrite !Rabs_mult, (Rabs_pos_eq s) by lra.
  assert (Rabs (g - y) * s <= (u * Rabs y + eta) * s) by (apply Rmult_le_compat_r; lra). assert (u * (Rabs y * s) <= u * (611 / 100)) by (apply Rmult_le_compat_l; lra). assert (eta * s <= u / 10 ^ 50 * (103 / 100)) by (apply Rmult_le_compat; lra).
  assert (Rabs y * Rabs (s - val n2) <= Rabs y * (302 / 100 * (u * s))) by (apply Rmult_le_compat_l; [auto|apply Rabs_le; lra]).
  replace (Rabs y * (302 / 100 * (u * s))) with (302 / 100 * (u * (Rabs y * s))) in * by ring. lra.
Qed.
Lemma gvv_cl a b : isf a -> isf b -> Rabs (val a) <= m -> Rabs (val b) <= m ->
  cl (N /! n2 *! a *! b) ((2 * val w - z) * (val a * val b / (m * m))) (180 * u) /\ Rabs ((2 * val w - z) * (val a * val b / (m * m))) <= 606 / 100 /\ Rabs (val a * val b / (m * m)) <= 1.
Proof.
  intros Fa Fb Ha Hb. destruct num_cl as [[FN EN] BN]. destruct quot_big as [Fg Eg]. pose proof u_pos as U. pose proof u_tiny as U1. pose proof eta_u50 as T. pose proof eta_pos as T0. pose proof big_20 as BG.
  set (g := val (N /! n2)) in *. assert (M0 : 0 < m) by lra. assert (MM : 94 / 10 ^ 18 <= m * m <= 103 / 100) by nra.
  assert (AB : Rabs (val a * val b) <= m * m) by (rewrite Rabs_mult; apply Rmult_le_compat; auto using Rabs_pos).
  assert (Q : Rabs (val a * val b / (m * m)) <= 1).
  { unfold Rdiv. rewrite Rabs_mult, Rabs_inv, (Rabs_pos_eq (m * m)) by lra. apply (Rmult_le_reg_r (m * m)); [lra|]. rewrite Rmult_assoc, Rinv_l by lra. lra. }
  assert (GM : Rabs g * (m * m) <= 62 / 10). { rewrite <- (Rabs_pos_eq (m * m)) by lra. rewrite <- Rabs_mult. apply Rabs_ends in EN, BN, Eg. apply Rabs_le. lra. }
  pose proof (Rabs_pos g) as G0. assert (GA : Rabs (g * val a) * m <= 62 / 10). { rewrite Rabs_mult. assert (Rabs g * Rabs (val a) <= Rabs g * m) by (apply Rmult_le_compat_l; auto). assert (Rabs g * Rabs (val a) * m <= Rabs g * m * m) by (apply Rmult_le_compat_r; lra). lra. }
  assert (GB : Rabs (g * val a) <= 10 ^ 10). { apply (Rmult_le_reg_r m); auto. lra. }
  destruct (f_mul (N /! n2) a Fg Fa) as [F1 V1]; [fold g; lra|]. fold g in V1. pose proof (rnd_err (g * val a)) as E1. rewrite <- V1 in E1. set (p := val (N /! n2 *! a)) in *.
  pose proof (Rabs_pos (g * val a)) as P0. set (ga := Rabs (g * val a)) in *. assert (UG : u * (ga * m) <= u * (62 / 10)) by (apply Rmult_le_compat_l; lra).
  assert (D1 : Rabs (p * val b - g * val a * val b) <= 63 / 10 * u).
  { replace (p * val b - g * val a * val b) with ((p - g * val a) * val b) by ring. rewrite Rabs_mult. assert (Rabs (p - g * val a) * Rabs (val b) <= (u * ga + eta) * m) by (apply Rmult_le_compat; auto using Rabs_pos). assert (eta * m <= u / 10 ^ 50 * (101 / 100)) by (apply Rmult_le_compat; lra). lra. }
  assert (GAB : Rabs (g * val a * val b) <= 62 / 10). { rewrite Rabs_mult. fold ga. assert (ga * Rabs (val b) <= ga * m) by (apply Rmult_le_compat_l; auto). lra. }
  assert (PB : Rabs (p * val b) <= 63 / 10). { replace (p * val b) with ((p * val b - g * val a * val b) + g * val a * val b) by ring. eapply Rle_trans; [apply Rabs_triang|]. lra. }
  destruct (f_mul _ b F1 Fb) as [F2 V2]; [fold p; lra|]. fold p in V2. pose proof (rnd_err (p * val b)) as E2. rewrite <- V2 in E2.
  assert (u * Rabs (p * val b) <= u * (63 / 10)) by (apply Rmult_le_compat_l; lra).
  assert (D2 : Rabs (g * val a * val b - (2 * val w - z) * (val a * val b / (m * m))) <= 165 * u).
  { replace (g * val a * val b - (2 * val w - z) * (val a * val b / (m * m))) with ((g * (m * m) - (2 * val w - z)) * (val a * val b / (m * m))) by (field; lra). rewrite Rabs_mult.
    assert (Rabs (g * (m * m) - (2 * val w - z)) <= 165 * u) by (apply Rabs_ends in EN, Eg; apply Rabs_le; lra).
    assert (Rabs (g * (m * m) - (2 * val w - z)) * Rabs (val a * val b / (m * m)) <= 165 * u * 1) by (apply Rmult_le_compat; auto using Rabs_pos). lra. }
  split; [|split; auto].
  - split; auto. apply Rabs_ends in D1, D2, E2. apply Rabs_le. lra.
  - rewrite Rabs_mult. assert (Rabs (2 * val w - z) * Rabs (val a * val b / (m * m)) <= 606 / 100 * 1) by (apply Rmult_le_compat; auto using Rabs_pos). lra.
Qed.
End Gvv.

(** ** The switch near the identity, over the reals *)
Lemma tiny_trig g : 0 < g <= 23 / 10 ^ 9 -> Rabs (2 / cos g - 2 * g / sin g) <= 20 * u /\ Rabs (2 * cos g - 2 * g / sin g) <= 40 * u /\ 999 / 1000 <= cos g.
Proof.
  intros H. assert (UV : 1 / 10 ^ 16 <= u) by (rewrite u_val; lra). pose proof (sin_lt_x g (proj1 H)) as SX. pose proof (one_cos g) as O. pose proof (sin_half_173 g ltac:(lra)) as S2. pose proof (sin_cubic g) as C. rewrite (Rabs_pos_eq g) in C by lra. specialize (C ltac:(lra)). apply Rabs_ends in C.
  assert (GG : g * g <= 53 / 10 ^ 17) by (apply Rle_trans with (23 / 10 ^ 9 * (23 / 10 ^ 9)); [apply Rmult_le_compat; lra|lra]). assert (G0 : 0 <= g * g) by nra. assert (G3 : g * g * g <= 53 / 10 ^ 17 * g) by (apply Rmult_le_compat_r; lra). assert (G30 : 0 <= g * g * g) by (apply Rmult_le_pos; lra).
  assert (CG : 999 / 1000 <= cos g) by lra. set (c := cos g) in *. set (s := sin g) in *.
  assert (GC : g * (1 - c) <= g * (g * g / 2)) by (apply Rmult_le_compat_l; lra). assert (GC0 : 0 <= g * (1 - c)) by (apply Rmult_le_pos; [apply Rlt_le, H|apply O]). assert (SC : s * (1 - c) <= g * (1 - c)) by (apply Rmult_le_compat_r; lra).
  assert (SC0 : 0 <= s * (1 - c)) by (apply Rmult_le_pos; lra).
  split; [|split; auto].
  - replace (2 / c - 2 * g / s) with (2 * (s - g + g * (1 - c)) / (s * c)) by (field; split; lra). unfold Rdiv. rewrite Rabs_mult, Rabs_inv. assert (P : 0 < s * c) by (apply Rmult_lt_0_compat; lra). rewrite (Rabs_pos_eq (s * c)) by lra.
    apply (Rmult_le_reg_r (s * c)); auto. rewrite Rmult_assoc, Rinv_l, Rmult_1_r by lra. assert (g / 2 * (999 / 1000) <= s * c) by (apply Rmult_le_compat; lra). assert (20 * (1 / 10 ^ 16) * (g / 2 * (999 / 1000)) <= 20 * u * (s * c)) by (apply Rmult_le_compat; lra).
    assert (Rabs (2 * (s - g + g * (1 - c))) <= 54 / 10 ^ 17 * g) by (apply Rabs_le; lra). lra.
  - replace (2 * c - 2 * g / s) with (2 * (s - g - s * (1 - c)) / s) by (field; lra). unfold Rdiv. rewrite Rabs_mult, Rabs_inv, (Rabs_pos_eq s) by lra.
    apply (Rmult_le_reg_r s); [lra|]. rewrite Rmult_assoc, Rinv_l, Rmult_1_r by lra. assert (40 * (1 / 10 ^ 16) * (g / 2) <= 40 * u * s) by (apply Rmult_le_compat; lra).
    assert (Rabs (2 * (s - g - s * (1 - c))) <= 100 / 10 ^ 17 * g) by (apply Rabs_le; lra). lra.
Qed.

(** ** The Jacobian *)
Definition qunit (q : quat R) : quat R := let r := sqrt (qn2 q) in Q4 (qw q / r) (qx q / r) (qy q / r) (qz q / r).
Lemma qunit_one q : 0 < qn2 q -> qn2 (qunit q) = 1.
Proof.
  intros H. unfold qunit. set (r := sqrt (qn2 q)). assert (RR : r * r = qn2 q) by (apply sqrt_sqrt; lra). assert (0 < r) by (apply sqrt_lt_R0; auto).
  unfold qn2 at 1. cbn [qw qx qy qz]. transitivity (qn2 q / (r * r)); [unfold qn2; field; lra|]. rewrite RR. field. lra.
Qed.
Lemma near_one r d : 0 < r -> Rabs (r * r - 1) <= d -> d <= 1 / 1000 -> Rabs (r - 1) <= d /\ 9994 / 10000 <= r <= 10006 / 10000 /\ Rabs (1 - / r) <= 1001 / 1000 * d.
Proof.
  intros R0 H D. apply Rabs_ends in H. assert (B : 9994 / 10000 <= r <= 10006 / 10000) by nra. assert (A : Rabs (r - 1) <= 2 / 3 * d) by (apply Rabs_le; nra). pose proof (Rabs_pos (r - 1)).
  repeat split; try lra. replace (1 - / r) with ((r - 1) * / r) by (field; lra). rewrite Rabs_mult, Rabs_inv, (Rabs_pos_eq r) by lra. apply (Rmult_le_reg_r r); auto. rewrite Rmult_assoc, Rinv_l, Rmult_1_r by lra. nra.
Qed.

Section Jac.
Context (L : libm) (HT : accurate_atan2 L).
Local Notation SK := (F64 L).
Lemma eq_jaclog64 (q : quat f64) d : qfin q -> Rabs (qn2 (qval q) - 1) <= d -> d <= 1 / 1000 -> 3 / 10000 <= val (qw q) ->
  exists J, eq_diffPseudoLog0 (SK:=SK) [qw q; qx q; qy q; qz q] = Ok J /\ shape J 3 4 /\ Forall (Forall isf) (mcols_ J) /\
    Forall2 (near_v (350 * u + 11 * d)) (map (map val) (mcols_ J)) (qlog_jac (qunit (qval q))).
Proof.
  intros (Fw & F0 & F1 & F2) Hq Hd W0. destruct q as [xw x0 x1 x2]. unfold qval, qunit in *. cbn [qw qx qy qz] in *. unfold qn2 in Hq |- *. cbn [qw qx qy qz] in *.
  pose proof u_pos as U. pose proof u_tiny as U1. pose proof eta_u50 as T. pose proof eta_pos as T0. pose proof big_1 as BG. pose proof PI_ge as PG. pose proof PI_le as PL.
  set (w := val xw) in *. set (v0 := val x0) in *. set (v1 := val x1) in *. set (v2 := val x2) in *.
  set (r2 := w * w + v0 * v0 + v1 * v1 + v2 * v2) in *. set (r := sqrt r2). assert (R2 : 0 < r2) by (apply Rabs_ends in Hq; lra). assert (RR : r * r = r2) by (apply sqrt_sqrt; lra). assert (R0 : 0 < r) by (apply sqrt_lt_R0; auto).
  destruct (near_one r d R0 ltac:(rewrite RR; exact Hq) Hd) as (R1 & RB & RI). assert (D0 : 0 <= d) by (pose proof (Rabs_pos (r - 1)); lra).
  set (NN := sq3 v0 v1 v2). assert (NN0 : 0 <= NN) by (unfold NN, sq3; nra). assert (NR : r2 = w * w + NN) by (unfold r2, NN, sq3; ring).
  assert (NB : NN <= 2) by (apply Rabs_ends in Hq; nra). pose proof (sqrt_sqrt _ NN0) as SS. pose proof (sqrt_pos NN) as SP. set (m := sqrt NN) in *.
  assert (WB : w <= 1002 / 1000) by nra. assert (MB : m <= 101 / 100) by nra.
  assert (PB : forall p, p * p <= NN -> Rabs p <= m) by (intros p Hp; apply Rabs_le; nra).
  pose proof (PB v0 ltac:(unfold NN, sq3; nra)) as B0. pose proof (PB v1 ltac:(unfold NN, sq3; nra)) as B1. pose proof (PB v2 ltac:(unfold NN, sq3; nra)) as B2.
  assert (EN : rnorm [v0 / r; v1 / r; v2 / r] = m / r).
  { unfold rnorm. cbn [rdot]. replace (_ + _) with ((m / r) * (m / r)); [apply sqrt_square; apply Rmult_le_pos; [lra|apply Rlt_le, Rinv_0_lt_compat; lra]|]. transitivity (m * m / (r * r)); [field; lra|]. rewrite SS. unfold NN, sq3. field. lra. }
  assert (V0 : forall v, Rabs v <= m -> Rabs (-2 * v - -2 * (v / r)) <= 203 / 100 * d).
  { intros v Hv. replace (-2 * v - -2 * (v / r)) with (-2 * (v * (1 - / r))) by (field; lra). rewrite Rabs_mult, (Rabs_left (-2)), Rabs_mult by lra. assert (Rabs v * Rabs (1 - / r) <= 101 / 100 * (1001 / 1000 * d)) by (apply Rmult_le_compat; auto using Rabs_pos; lra). lra. }
  unfold eq_diffPseudoLog0. cbn [quat_read raw_read length Nat.leb Nat.ltb firstn bind].
  change (quat_read [xw; x0; x1; x2]) with (@Ok (quat f64) (Q4 xw x0 x1 x2)). unfold qvec. cbn [bind qw qx qy qz].
  change (ksqrt (Scalar:=SK) (sqnorm (SK:=SK) [x0; x1; x2])) with (Bsqrt mode_NE (nsq L x0 x1 x2)).
  change (sqnorm (SK:=SK) [x0; x1; x2]) with (nsq L x0 x1 x2). change (map_prec (SK:=SK)) with (lit8 L). change (kltb (Scalar:=SK)) with (@Bltb 53 1024).
  change (klit (Scalar:=SK) 2 1) with (of_Z 2 /! of_Z 1).
  assert (WZ : keqb (Scalar:=SK) xw (k0 (Scalar:=SK)) = false). { change (Beqb xw (of_Z 0) = false). rewrite Beqb_correct; [|exact Fw|reflexivity]. apply Req_bool_false. change (B2R (of_Z 0)) with 0. change (w <> 0). lra. }
  rewrite WZ. cbn [negb]. rewrite andb_true_r.
  assert (AT : 0 < w * w + m * m) by nra. destruct (atan2_polar m w AT) as (RP & RRP & GC & GS & GB). set (g := Ratan2 m w) in *.
  assert (ER : sqrt (w * w + m * m) = r) by (unfold r; f_equal; rewrite NR, SS; reflexivity). rewrite ER in *.
  assert (GAT : Ratan2 (m / r) (w / r) = g). { unfold g. rewrite <- (atan2_scale r (m / r) (w / r) R0). f_equal; field; lra. }
  assert (C0 : 0 < cos g) by (apply (Rmult_lt_reg_l r); lra). assert (S0 : 0 <= sin g) by (apply (Rmult_le_reg_l r); lra).
  assert (G0 : 0 <= g). { apply Rnot_lt_le. intros C. assert (0 < sin (- g)) by (apply sin_gt_0; lra). rewrite sin_neg in H. lra. }
  assert (G1 : g < PI / 2). { apply Rnot_le_lt. intros C. assert (cos g <= 0) by (apply cos_le_0; lra). lra. }
  unfold qlog_jac, qv. cbn [qw qx qy qz]. rewrite EN, GAT.
  destruct (Bltb (Bsqrt mode_NE (nsq L x0 x1 x2)) (lit8 L)) eqn:B.
  - pose proof (small_norm L _ _ _ F0 F1 F2 NB B) as NS. change (sq3 (val x0) (val x1) (val x2)) with NN in NS.
    assert (Mm : m <= 11 / 10 ^ 9) by nra.
    assert (SG : g / 2 <= sin g) by (apply sin_half_173; lra). assert (Gm : g <= 23 / 10 ^ 9) by nra.
    assert (WI : 998 / 1000 <= w) by nra.
    assert (CW : cl (of_Z 2 /! of_Z 1 /! xw) (2 / w) (3 * u)).
    { assert (IW : Rabs (2 / w) <= 21 / 10). { rewrite Rabs_pos_eq; [|apply Rmult_le_pos; [lra|apply Rlt_le, Rinv_0_lt_compat; lra]]. apply (Rmult_le_reg_r w); [lra|]. unfold Rdiv. rewrite Rmult_assoc, Rinv_l by lra. lra. }
      pose proof (cl_div _ _ 2 w 0 0 0 (21 / 10) cl_two (cl_self xw Fw) ltac:(apply Rabs_pos_lt; lra)) as D. eapply cl_weak; [apply D|]; try lra. }
    assert (CB : exists bv, cl (Bopp (of_Z 2 /! of_Z 1) /! (xw *! xw)) bv 0 /\ Rabs bv <= 21 / 10 /\ Rabs (bv + 2) <= 3 * d + 1 / 10 ^ 9).
    { assert (WW : cl (xw *! xw) (w * w) (0 + (1005 / 1000 + 1 / 1000) * u)). { apply (cl_mul _ _ w w 0 0 0 (1005 / 1000) (cl_self xw Fw) (cl_self xw Fw)); try lra. rewrite Rabs_pos_eq by nra. nra. }
      assert (W2 : 996 / 1000 <= w * w) by nra. pose proof (cl_opp _ _ _ cl_two) as C2.
      set (f := 0 + (1005 / 1000 + 1 / 1000) * u) in *. assert (Ff : 0 <= f <= 1 / 10 ^ 10) by (unfold f; lra). clearbody f.
      assert (IB : Rabs (- (2) / (w * w)) <= 202 / 100). { unfold Rdiv. rewrite Rabs_mult, Rabs_Ropp, Rabs_inv, (Rabs_pos_eq 2), (Rabs_pos_eq (w * w)) by lra. apply (Rmult_le_reg_r (w * w)); [lra|]. rewrite Rmult_assoc, Rinv_l by lra. lra. }
      pose proof (cl_div _ _ (- (2)) (w * w) 0 f (3 / 10 ^ 10) (205 / 100) C2 WW) as D. rewrite (Rabs_pos_eq (w * w)), Rabs_Ropp, (Rabs_pos_eq 2) in D by lra. specialize (D ltac:(lra)).
      destruct D as [FD ED]; try lra.
      { apply (Rmult_le_reg_r (w * w * (w * w - f))); [apply Rmult_lt_0_compat; lra|]. unfold Rdiv at 1. rewrite Rmult_assoc, Rinv_l, Rmult_1_r by (apply Rgt_not_eq, Rmult_lt_0_compat; lra). assert (99 / 100 * (99 / 100) <= w * w * (w * w - f)) by (apply Rmult_le_compat; lra). lra. }
      eexists. split; [apply cl_self; exact FD|]. apply Rabs_ends in ED, IB. split; [apply Rabs_le; lra|].
      assert (W1 : Rabs (- (2) / (w * w) + 2) <= 203 / 100 * (d + 2 / 10 ^ 16)).
      { replace (- (2) / (w * w) + 2) with (2 * (w * w - 1) / (w * w)) by (field; lra). unfold Rdiv. rewrite Rabs_mult, Rabs_inv, (Rabs_pos_eq (w * w)), Rabs_mult, (Rabs_pos_eq 2) by lra. apply (Rmult_le_reg_r (w * w)); [lra|]. rewrite Rmult_assoc, Rinv_l by lra.
        assert (Rabs (w * w - 1) <= d + 2 / 10 ^ 16) by (apply Rabs_ends in Hq; apply Rabs_le; lra). nra. }
      apply Rabs_ends in W1. apply Rabs_le. lra. }
    destruct CB as (bv & CBv & BB & BB2).
    assert (COL0 : forall x, isf x -> Rabs (val x) <= m -> cl (Bopp (of_Z 2 /! of_Z 1) /! (xw *! xw) *! x) (-2 * (val x / r)) (350 * u + 11 * d)).
    { intros x Fx Bx. destruct CBv as [Fb Eb]. set (b := Bopp (of_Z 2 /! of_Z 1) /! (xw *! xw)) in *. assert (val b = bv) as VB. { apply Rabs_ends in Eb. lra. }
      assert (PBx : Rabs (val b * val x) <= 24 / 10 ^ 9). { rewrite VB, Rabs_mult. assert (Rabs bv * Rabs (val x) <= 21 / 10 * (11 / 10 ^ 9)) by (apply Rmult_le_compat; auto using Rabs_pos; lra). lra. }
      destruct (f_mul b x Fb Fx) as [F V]; [lra|]. split; auto. rewrite V. pose proof (rnd_err (val b * val x)) as E. assert (u * Rabs (val b * val x) <= u * (24 / 10 ^ 9)) by (apply Rmult_le_compat_l; lra).
      assert (D : Rabs (val b * val x - -2 * (val x / r)) <= u + d).
      { rewrite VB. replace (bv * val x - -2 * (val x / r)) with (val x * ((bv + 2) - 2 * (1 - / r))) by (field; lra). rewrite Rabs_mult.
        assert (Rabs (bv + 2 - 2 * (1 - / r)) <= 6 * d + 1 / 10 ^ 9) by (apply Rabs_ends in BB2, RI; apply Rabs_le; lra).
        assert (Rabs (val x) * Rabs (bv + 2 - 2 * (1 - / r)) <= 11 / 10 ^ 9 * (6 * d + 1 / 10 ^ 9)) by (apply Rmult_le_compat; auto using Rabs_pos; lra). assert (1 / 10 ^ 16 <= u) by (rewrite u_val; lra). lra. }
      apply Rabs_ends in D, E. apply Rabs_le. lra. }
    set (s' := if Req_EM_T (m / r) 0 then 2 else 2 * g / (m / r)). set (p' := if Req_EM_T (m / r) 0 then 0 else (2 * (w / r) - s') / (m / r * (m / r))).
    assert (FACTS : Rabs (2 / w - s') <= 20 * u + 3 * d /\ forall i j, Rabs i <= m -> Rabs j <= m -> Rabs (p' * (i / r) * (j / r)) <= 40 * u).
    { assert (CWR : w / r = cos g) by (rewrite <- GC; field; lra). assert (SMR : m / r = sin g) by (rewrite <- GS; field; lra). unfold p', s'. destruct (Req_EM_T (m / r) 0) as [Y|Y].
      - assert (M0 : m = 0) by (replace m with (m / r * r) by (field; lra); rewrite Y; ring). assert (w = r) as WR by nra. split; [|intros; rewrite !Rmult_0_l, Rabs_R0; lra].
        replace (2 / w - 2) with (-2 * (1 - / r)) by (rewrite WR; field; lra). rewrite Rabs_mult, (Rabs_left (-2)) by lra. lra.
      - assert (SP0 : 0 < sin g) by lra. assert (GP : 0 < g). { destruct (Req_dec g 0) as [E|E]; [|lra]. rewrite E, sin_0 in SP0. lra. }
        destruct (tiny_trig g (conj GP Gm)) as (T1 & T2 & T3). rewrite SMR, CWR. split.
        + replace (2 / w) with (2 / cos g * / r) by (rewrite <- GC; field; lra).
          replace (2 / cos g * / r - 2 * g / sin g) with ((2 / cos g - 2 * g / sin g) - 2 / cos g * (1 - / r)) by ring.
          assert (IC : Rabs (2 / cos g) <= 201 / 100). { unfold Rdiv. rewrite Rabs_mult, Rabs_inv, (Rabs_pos_eq 2), (Rabs_pos_eq (cos g)) by lra. apply (Rmult_le_reg_r (cos g)); auto. rewrite Rmult_assoc, Rinv_l by lra. lra. }
          assert (Rabs (2 / cos g * (1 - / r)) <= 201 / 100 * (1001 / 1000 * d)) by (rewrite Rabs_mult; apply Rmult_le_compat; auto using Rabs_pos).
          apply Rabs_ends in T1, H. apply Rabs_le. lra.
        + intros i j Hi Hj. replace ((2 * cos g - 2 * g / sin g) / (sin g * sin g) * (i / r) * (j / r)) with ((2 * cos g - 2 * g / sin g) * (i * j / (m * m))) by (rewrite <- GS; field; lra).
          assert (MP : 0 < m) by (rewrite <- GS; apply Rmult_lt_0_compat; lra). assert (MM : 0 < m * m) by nra.
          assert (Q : Rabs (i * j / (m * m)) <= 1). { unfold Rdiv. rewrite Rabs_mult, Rabs_inv, (Rabs_pos_eq (m * m)), Rabs_mult by lra. apply (Rmult_le_reg_r (m * m)); auto. rewrite Rmult_assoc, Rinv_l by lra. assert (Rabs i * Rabs j <= m * m) by (apply Rmult_le_compat; auto using Rabs_pos). lra. }
          rewrite Rabs_mult. assert (Rabs (2 * cos g - 2 * g / sin g) * Rabs (i * j / (m * m)) <= 40 * u * 1) by (apply Rmult_le_compat; auto using Rabs_pos). lra. }
    destruct FACTS as [FS FP]. clearbody s' p'.
    assert (DIAG : forall i, Rabs i <= m -> cl (of_Z 2 /! of_Z 1 /! xw) (s' + p' * (i / r) * (i / r)) (350 * u + 11 * d)).
    { intros i Hi. destruct CW as [F E]. split; auto. pose proof (FP i i Hi Hi) as P. apply Rabs_ends in P, E, FS. apply Rabs_le. lra. }
    assert (OFF : forall i j, Rabs i <= m -> Rabs j <= m -> cl (B754_zero false) (p' * (i / r) * (j / r)) (350 * u + 11 * d)).
    { intros i j Hi Hj. split; [reflexivity|]. pose proof (FP i j Hi Hj) as P. change (val (B754_zero false)) with 0. apply Rabs_ends in P. apply Rabs_le. lra. }
    eexists. split; [reflexivity|]. split; [repeat split; repeat (constructor; [reflexivity|]); constructor|].
    unfold of_rows, mbuild. cbn [mcols_ map seq nth]. change (kdiv (Scalar:=SK)) with (Bdiv (prec:=53) (emax:=1024) mode_NE). change (kmul (Scalar:=SK)) with (Bmult (prec:=53) (emax:=1024) mode_NE). change (kopp (Scalar:=SK)) with (Bopp (prec:=53) (emax:=1024)). change (k0 (Scalar:=SK)) with (B754_zero (prec:=53) (emax:=1024) false).
    split; [|unfold near_v]; repeat (apply Forall_cons || apply Forall_nil || apply Forall2_cons || apply Forall2_nil);
      solve [apply (COL0 x0 F0 B0) | apply (COL0 x1 F1 B1) | apply (COL0 x2 F2 B2) | apply (DIAG v0 B0) | apply (DIAG v1 B1) | apply (DIAG v2 B2) | reflexivity
        | apply (OFF v0 v1 B0 B1) | apply (OFF v0 v2 B0 B2) | apply (OFF v1 v0 B1 B0) | apply (OFF v1 v2 B1 B2) | apply (OFF v2 v0 B2 B0) | apply (OFF v2 v1 B2 B1)].
  - destruct (big_norm L _ _ _ F0 F1 F2 NB B) as (N1 & E2 & E1 & Fn2 & Fn). change (sq3 (val x0) (val x1) (val x2)) with NN in N1, E2, E1. fold m in E1. rewrite <- SS in E2.
    assert (Mm : 97 / 10 ^ 10 <= m). { apply Rnot_lt_le. intros K. assert (m * m <= 97 / 10 ^ 10 * (97 / 10 ^ 10)) by (apply Rmult_le_compat; lra). lra. }
    assert (SP0 : 0 < sin g) by (apply (Rmult_lt_reg_l r); lra).
    assert (GP : 0 < g). { destruct (Req_dec g 0) as [E|E]; [|lra]. rewrite E, sin_0 in SP0. lra. }
    destruct (angle_coef L HT xw _ _ m r g Fw Fn2 Fn W0 ltac:(lra) GC GS (conj GP G1) ltac:(lra) E2 E1) as (Fc & Ec & Bc).
    change (katan2 (Scalar:=SK)) with (f_atan2 L). change (kdiv (Scalar:=SK)) with (Bdiv (prec:=53) (emax:=1024) mode_NE). change (kmul (Scalar:=SK)) with (Bmult (prec:=53) (emax:=1024) mode_NE). change (kadd (Scalar:=SK)) with (Bplus (prec:=53) (emax:=1024) mode_NE). change (ksub (Scalar:=SK)) with (Bminus (prec:=53) (emax:=1024) mode_NE). change (kopp (Scalar:=SK)) with (Bopp (prec:=53) (emax:=1024)).
    set (c := f_atan2 L _ _ /! _) in *. set (z := 2 * g / m) in *.
    destruct (Req_EM_T (m / r) 0) as [Y|Y]; [exfalso; assert (0 < m / r) by (apply Rdiv_lt_0_compat; lra); lra|].
    set (s' := 2 * g / (m / r)). set (p' := (2 * (w / r) - s') / (m / r * (m / r))).
    assert (ES : s' = r * z) by (unfold s', z; field; lra).
    assert (DS : Rabs (z - s') <= 406 / 100 * d). { rewrite ES. replace (z - r * z) with (- (z * (r - 1))) by ring. rewrite Rabs_Ropp, Rabs_mult. assert (Rabs z * Rabs (r - 1) <= 405 / 100 * d) by (apply Rmult_le_compat; auto using Rabs_pos). lra. }
    assert (DP : forall i j, Rabs (i * j / (m * m)) <= 1 -> Rabs ((2 * w - z) * (i * j / (m * m)) - p' * (i / r) * (j / r)) <= 62 / 10 * d).
    { intros i j Q. replace (p' * (i / r) * (j / r)) with ((2 * (w / r) - s') * (i * j / (m * m))) by (unfold p'; field; lra). rewrite ES.
      replace ((2 * w - z) * (i * j / (m * m)) - (2 * (w / r) - r * z) * (i * j / (m * m))) with ((2 * w * (1 - / r) + z * (r - 1)) * (i * j / (m * m))) by (field; lra). rewrite Rabs_mult.
      assert (Rabs (2 * w * (1 - / r)) <= 2004 / 1000 * (1001 / 1000 * d)) by (rewrite Rabs_mult; apply Rmult_le_compat; auto using Rabs_pos; rewrite Rabs_pos_eq; lra).
      assert (Rabs (z * (r - 1)) <= 405 / 100 * d) by (rewrite Rabs_mult; apply Rmult_le_compat; auto using Rabs_pos).
      assert (A : Rabs (2 * w * (1 - / r) + z * (r - 1)) <= 62 / 10 * d) by (eapply Rle_trans; [apply Rabs_triang|]; lra).
      assert (Rabs (2 * w * (1 - / r) + z * (r - 1)) * Rabs (i * j / (m * m)) <= 62 / 10 * d * 1) by (apply Rmult_le_compat; auto using Rabs_pos). lra. }
    pose proof (fun a b => gvv_cl xw c (nsq L x0 x1 x2) m z Fw Fc ltac:(fold w; rewrite Rabs_pos_eq; lra) ltac:(lra) Ec Bc E2 a b) as GV. fold w in GV.
    clearbody c z s' p'. pose proof (Rabs_ends _ _ Bc) as Bz.
    assert (ONE : cl (c *! of_Z 1) z (135 * u)).
    { eapply cl_weak; [eapply cl_eq; [apply (cl_mul c (of_Z 1) z 1 (130 * u) 0 (130 * u) (41 / 10) (conj Fc Ec) (cl_lit 1 1 eq_refl eq_refl))|ring]|]; try lra; rewrite ?Rabs_R1, ?Rmult_1_r; lra. }
    assert (ZER : cl (c *! B754_zero false) 0 (u)).
    { eapply cl_weak; [eapply cl_eq; [apply (cl_mul c (of_Z 0) z 0 (130 * u) 0 0 (1 / 1000) (conj Fc Ec) (cl_lit 0 0 eq_refl eq_refl))|ring]|]; try lra; rewrite ?Rmult_0_r, ?Rabs_R0; lra. }
    assert (DIAG : forall x, isf x -> Rabs (val x) <= m -> cl (c *! of_Z 1 +! ((of_Z 2 /! of_Z 1) *! xw -! c) /! nsq L x0 x1 x2 *! x *! x) (s' + p' * (val x / r) * (val x / r)) (350 * u + 11 * d)).
    { intros x Fx Bx. destruct (GV x x Fx Fx Bx Bx) as (G & GBd & Q). specialize (DP _ _ Q). pose proof (Rabs_ends _ _ GBd) as GBd'.
      destruct (cl_add _ _ _ _ _ _ (1025 / 100) ONE G) as [F E]; [assert (Rabs (z + (2 * w - z) * (val x * val x / (m * m))) <= 1012 / 100) by (apply Rabs_le; lra); lra|lra|]. split; auto. apply Rabs_ends in E, DS, DP. apply Rabs_le. lra. }
    assert (OFF : forall x y, isf x -> isf y -> Rabs (val x) <= m -> Rabs (val y) <= m -> cl (c *! B754_zero false +! ((of_Z 2 /! of_Z 1) *! xw -! c) /! nsq L x0 x1 x2 *! x *! y) (p' * (val x / r) * (val y / r)) (350 * u + 11 * d)).
    { intros x y Fx Fy Bx By. destruct (GV x y Fx Fy Bx By) as (G & GBd & Q). specialize (DP _ _ Q). 
      destruct (cl_add _ _ _ _ _ _ (62 / 10) ZER G) as [F E]; [rewrite Rplus_0_l; lra|lra|]. split; auto. apply Rabs_ends in E, DP. apply Rabs_le. lra. }
    assert (COL0 : forall x, isf x -> Rabs (val x) <= m -> cl (Bopp (of_Z 2 /! of_Z 1) *! x) (-2 * (val x / r)) (350 * u + 11 * d)).
    { intros x Fx Bx. pose proof (V0 _ Bx) as D. pose proof (cl_mul _ _ (- (2)) (val x) 0 0 0 (21 / 10) (cl_opp _ _ _ cl_two) (cl_self x Fx)) as M. destruct M as [F E]; try lra. { rewrite Rabs_mult, Rabs_Ropp, (Rabs_pos_eq 2) by lra. lra. } split; auto. apply Rabs_ends in E, D. apply Rabs_le. lra. }
    eexists. split; [reflexivity|]. split; [repeat split; repeat (constructor; [reflexivity|]); constructor|].
    unfold vscale. cbn [mcols_ map seq nth]. unfold delta. cbn [Nat.eqb]. change (kmul (Scalar:=SK)) with (Bmult (prec:=53) (emax:=1024) mode_NE). change (k1 (Scalar:=SK)) with (of_Z 1). change (k0 (Scalar:=SK)) with (B754_zero (prec:=53) (emax:=1024) false).
    split; [|unfold near_v]; repeat (apply Forall_cons || apply Forall_nil || apply Forall2_cons || apply Forall2_nil);
      solve [apply (COL0 x0 F0 B0) | apply (COL0 x1 F1 B1) | apply (COL0 x2 F2 B2) | apply (DIAG x0 F0 B0) | apply (DIAG x1 F1 B1) | apply (DIAG x2 F2 B2)
        | apply (OFF x0 x1 F0 F1 B0 B1) | apply (OFF x0 x2 F0 F2 B0 B2) | apply (OFF x1 x0 F1 F0 B1 B0) | apply (OFF x1 x2 F1 F2 B1 B2) | apply (OFF x2 x0 F2 F0 B2 B0) | apply (OFF x2 x1 F2 F1 B2 B1)].
Qed.
End Jac.
