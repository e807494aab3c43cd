(** The matrix exponential and the matrix product in double arithmetic. *)
From Coq Require Import Reals List Lra Lia ZArith Bool Arith Psatz.
From Flocq Require Import Core BinarySingleNaN.
From Verif Require Import Base Scalar Vec Model_SO3 XR SpecR RotR NumVec NumMat NumExp Drift F64 F64Err F64Norm F64S2 F64Exp F64Quat.
Import ListNotations.
Local Open Scope R_scope.

(** ** Coefficients *)
(** [c], [s] computed, [C], [S] exact, for a vector of norm [t] (square [n]). *)
Record coeffs (c s : f64) (C S t : R) : Prop := {
  co_fc : isf c; co_fs : isf s; co_t : 0 <= t <= 315 / 100;
  co_c : Rabs (val c - C) * (t * t) <= 21 * u; co_s : Rabs (val s - S) * t <= 19 * u;
  co_C : Rabs C * (t * t) <= 2; co_S : Rabs S * t <= 1;
  co_c1 : Rabs (val c) <= 6 / 10; co_ct : Rabs (val c) * t <= 1002 / 1000; co_s1 : Rabs (val s) <= 11 / 10 }.

Section Coef.
Variable L : libm.
Hypothesis HL : accurate L.
Local Notation SK := (F64 L).

Lemma mtrig nh n : let th := Bsqrt mode_NE nh in let t := sqrt n in isf nh -> isf th -> 8 / 1000000000 <= n <= 99 / 10 ->
  Rabs (val nh - n) <= 302 / 100 * (u * n) -> Rabs (val th - t) <= 253 / 100 * (u * t) ->
  coeffs ((of_Z 1 -! f_cos L th) /! nh) (f_sin L th /! th) ((1 - cos t) / (t * t)) (sin t / t) t /\ 0 < t.
Proof.
  intros th t Fn Fth Hn En Eth. pose proof u_pos as U. pose proof eta_pos as T0. pose proof eta_u as Tu. assert (U1 : u <= 1 / 10 ^ 15) by (rewrite u_val; lra).
  assert (TT : t * t = n) by (apply sqrt_sqrt; lra). assert (t0 : 0 <= t) by apply sqrt_pos. assert (t1 : 8 / 100000 <= t) by nra. assert (t2 : t <= 315 / 100) by nra.
  assert (Ut : 0 <= u * t) by nra. assert (Ut3 : u * t <= 315 / 100 * u) by nra. assert (Un : 0 <= u * n) by nra. rewrite TT.
  pose proof (Rabs_ends _ _ Eth) as Eth'.
  destruct (HL th Fth) as (Fc & Ec & Fs & Es). { apply Rabs_le. lra. }
  (* cos *)
  pose proof (cos_lip (val th) t) as CL. assert (Ec' : Rabs (val (f_cos L th) - cos t) <= 10 * u).
  { replace (val (f_cos L th) - cos t) with ((val (f_cos L th) - cos (val th)) + (cos (val th) - cos t)) by ring. eapply Rle_trans; [apply Rabs_triang|]. lra. }
  pose proof (COS_bound t) as CB. apply Rabs_ends in Ec'.
  destruct (of_Z_ok 1 eq_refl) as [F1 V1]. destruct (f_sub (of_Z 1) (f_cos L th) F1 Fc) as [Fp Vp]. { rewrite V1. pose proof big_1. apply Rabs_le. lra. }
  rewrite V1 in Vp. pose proof (rnd_err (1 - val (f_cos L th))) as Ep. rewrite <- Vp in Ep. set (p := of_Z 1 -! f_cos L th) in *.
  assert (Ep' : Rabs (val p - (1 - cos t)) <= 121 / 10 * u).
  { assert (Rabs (1 - val (f_cos L th)) <= 2001 / 1000) by (apply Rabs_le; lra).
    assert (u * Rabs (1 - val (f_cos L th)) <= u * (2001 / 1000)) by (apply Rmult_le_compat_l; lra). apply Rabs_ends in Ep. apply Rabs_le. lra. }
  assert (C2 : 0 <= 1 - cos t <= n / 2). { split; [lra|]. pose proof (cos_sq_lip t 0) as Q. rewrite cos_0 in Q. replace (t * t - 0 * 0) with n in Q by (rewrite <- TT; ring). rewrite (Rabs_pos_eq n) in Q by lra. apply Rabs_ends in Q. lra. }
  assert (C3 : 1 - cos t <= t). { pose proof (cos_lip t 0) as Q. rewrite cos_0 in Q. rewrite Rminus_0_r, (Rabs_pos_eq t) in Q by lra. apply Rabs_ends in Q. lra. }
  apply Rabs_ends in Ep'.
  assert (I0 : 0 < / n) by (apply Rinv_0_lt_compat; lra). assert (IN : / n * n = 1) by (field; lra).
  assert (Bp : Rabs (val p / n) <= 51 / 100).
  { unfold Rdiv. rewrite Rabs_mult, (Rabs_pos_eq (/ n)) by lra. apply Rmult_le_reg_r with n; [lra|]. rewrite Rmult_assoc, IN, Rmult_1_r. apply Rabs_le. lra. }
  destruct (quot_err p nh n (302 / 100) Fp En) as [Fcc Ecc]; try lra.
  assert (Dc : Rabs (val (p /! nh) - (1 - cos t) / n) * n <= 21 * u).
  { replace (val (p /! nh) - (1 - cos t) / n) with ((val (p /! nh) - val p / n) + (val p - (1 - cos t)) / n) by (field; lra).
    apply Rle_trans with ((Rabs (val (p /! nh) - val p / n) + Rabs ((val p - (1 - cos t)) / n)) * n); [apply Rmult_le_compat_r; [lra|apply Rabs_triang]|].
    assert (Rabs ((val p - (1 - cos t)) / n) * n <= 121 / 10 * u). { unfold Rdiv. rewrite Rabs_mult, (Rabs_pos_eq (/ n)) by lra. rewrite Rmult_assoc, IN, Rmult_1_r. apply Rabs_le; lra. }
    assert (Rabs (val (p /! nh) - val p / n) * n <= (302 / 100 + 1 + 1 / 100) * (u * (2001 / 1000)) + eta * (99 / 10)).
    { apply Rle_trans with (((302 / 100 + 1 + 1 / 100) * (u * Rabs (val p / n)) + eta) * n); [apply Rmult_le_compat_r; lra|].
      assert (Rabs (val p / n) * n <= 2001 / 1000). { unfold Rdiv. rewrite Rabs_mult, (Rabs_pos_eq (/ n)) by lra. rewrite Rmult_assoc, IN, Rmult_1_r. apply Rabs_le; lra. }
      assert (u * (Rabs (val p / n) * n) <= u * (2001 / 1000)) by (apply Rmult_le_compat_l; lra). assert (eta * n <= eta * (99 / 10)) by (apply Rmult_le_compat_l; lra). lra. }
    lra. }
  set (c := p /! nh) in *. 
  assert (Hc : Rabs ((1 - cos t) / n) * n = 1 - cos t). { unfold Rdiv. rewrite Rabs_mult, (Rabs_pos_eq (/ n)), Rmult_assoc, IN, Rmult_1_r by lra. apply Rabs_pos_eq. lra. }
  assert (Dc1 : Rabs (val c - (1 - cos t) / n) <= 1 / 10000).
  { apply Rmult_le_reg_r with n; [lra|]. eapply Rle_trans; [exact Dc|]. lra. }
  assert (Cc : Rabs ((1 - cos t) / n) <= 1 / 2) by (apply Rmult_le_reg_r with n; [lra|]; rewrite Hc; lra).
  assert (Cv : Rabs (val c) <= Rabs (val c - (1 - cos t) / n) + Rabs ((1 - cos t) / n)). { replace (val c) with ((val c - (1 - cos t) / n) + (1 - cos t) / n) at 1 by ring. apply Rabs_triang. }
  (* sin *)
  pose proof (sin_lip (val th) t) as SL. rewrite (Rabs_pos_eq (val th)) in Es by lra.
  assert (Eu : eta <= u * t / 100). { pose proof eta_small. assert (u ^ 10 <= u / 10 ^ 40) by (rewrite u_val; cbn [pow]; lra). assert (u * (8 / 100000) <= u * t) by (apply Rmult_le_compat_l; lra). lra. }
  assert (Es' : Rabs (val (f_sin L th) - sin t) <= 46 / 10 * (u * t)).
  { replace (val (f_sin L th) - sin t) with ((val (f_sin L th) - sin (val th)) + (sin (val th) - sin t)) by ring. eapply Rle_trans; [apply Rabs_triang|].
    assert (u * val th <= u * (101 / 100 * t)) by (apply Rmult_le_compat_l; lra). lra. }
  pose proof (SIN_bound t) as SB. pose proof (sin_abs t) as SA. rewrite (Rabs_pos_eq t) in SA by lra. pose proof (Rabs_ends _ _ Es') as Es2. pose proof (Rabs_ends _ _ SA) as SA2.
  assert (J0 : 0 < / t) by (apply Rinv_0_lt_compat; lra). assert (JT : / t * t = 1) by (field; lra).
  assert (Bs : Rabs (val (f_sin L th) / t) <= 101 / 100).
  { unfold Rdiv. rewrite Rabs_mult, (Rabs_pos_eq (/ t)) by lra. apply Rmult_le_reg_r with t; [lra|]. rewrite Rmult_assoc, JT, Rmult_1_r. assert (u * t <= 1 / 10 ^ 15 * t) by (apply Rmult_le_compat_r; lra). apply Rabs_le. lra. }
  destruct (quot_err (f_sin L th) th t (253 / 100) Fs Eth) as [Fss Ess]; try lra. set (s := f_sin L th /! th) in *.
  assert (Ds : Rabs (val s - sin t / t) * t <= 19 * u).
  { replace (val s - sin t / t) with ((val s - val (f_sin L th) / t) + (val (f_sin L th) - sin t) / t) by (field; lra).
    apply Rle_trans with ((Rabs (val s - val (f_sin L th) / t) + Rabs ((val (f_sin L th) - sin t) / t)) * t); [apply Rmult_le_compat_r; [lra|apply Rabs_triang]|].
    assert (Rabs ((val (f_sin L th) - sin t) / t) * t <= 46 / 10 * (u * t)). { unfold Rdiv. rewrite Rabs_mult, (Rabs_pos_eq (/ t)) by lra. rewrite Rmult_assoc, JT, Rmult_1_r. auto. }
    assert (Rabs (val s - val (f_sin L th) / t) * t <= (253 / 100 + 1 + 1 / 100) * (u * (1001 / 1000)) + eta * (315 / 100)).
    { apply Rle_trans with (((253 / 100 + 1 + 1 / 100) * (u * Rabs (val (f_sin L th) / t)) + eta) * t); [apply Rmult_le_compat_r; lra|].
      assert (Rabs (val (f_sin L th) / t) * t <= 1001 / 1000). { unfold Rdiv. rewrite Rabs_mult, (Rabs_pos_eq (/ t)) by lra. rewrite Rmult_assoc, JT, Rmult_1_r. apply Rabs_le; lra. }
      assert (u * (Rabs (val (f_sin L th) / t) * t) <= u * (1001 / 1000)) by (apply Rmult_le_compat_l; lra). assert (eta * t <= eta * (315 / 100)) by (apply Rmult_le_compat_l; lra). lra. }
    lra. }
  assert (Hs : Rabs (sin t / t) * t = Rabs (sin t)). { unfold Rdiv. rewrite Rabs_mult, (Rabs_pos_eq (/ t)), Rmult_assoc, JT, Rmult_1_r by lra. auto. }
  assert (Ds1 : Rabs (val s - sin t / t) <= 1 / 1000). { apply Rmult_le_reg_r with t; [lra|]. eapply Rle_trans; [exact Ds|]. lra. }
  assert (Cs : Rabs (sin t / t) <= 1) by (apply Rmult_le_reg_r with t; [lra|]; rewrite Hs; lra).
  assert (Sv : Rabs (val s) <= Rabs (val s - sin t / t) + Rabs (sin t / t)). { replace (val s) with ((val s - sin t / t) + sin t / t) at 1 by ring. apply Rabs_triang. }
  split; [|lra]. constructor; auto; try lra.
  - rewrite TT. exact Dc.
  - rewrite TT, Hc. lra.
  - rewrite Hs. apply Rabs_le. lra.
  - apply Rle_trans with ((1 / 10000 + Rabs ((1 - cos t) / n)) * t); [apply Rmult_le_compat_r; lra|].
    assert (Rabs ((1 - cos t) / n) * t <= 1). { apply Rmult_le_reg_r with t; [lra|]. replace (Rabs ((1 - cos t) / n) * t * t) with (Rabs ((1 - cos t) / n) * n) by (rewrite <- TT; ring). rewrite Hc. lra. } lra.
Qed.

Lemma msmall nh n : app nh n (1 / 1000000) -> 0 <= n <= 12 / 1000000000 ->
  let c := (of_Z 1 /! of_Z 2) -! nh /! (of_Z 24 /! of_Z 1) in let s := of_Z 1 -! nh /! (of_Z 6 /! of_Z 1) in
  app c (1 / 2 - n / 24) 1 /\ app s (1 - n / 6) (12 / 10).
Proof.
  intros An Hn c s. split.
  - pose proof (app_divc _ _ _ 24 _ (1 / 1000) An (lit_int 24 ltac:(lia)) ltac:(lra) ltac:(rb) ltac:(rb) ltac:(lra) ltac:(lra)) as A2.
    eapply app_weak; [apply (app_subP _ _ _ _ _ _ (1 / 2) lit_half A2); try lra; rb|lra].
  - pose proof (app_divc _ _ _ 6 _ (1 / 1000) An (lit_int 6 ltac:(lia)) ltac:(lra) ltac:(rb) ltac:(rb) ltac:(lra) ltac:(lra)) as A2.
    eapply app_weak; [apply (app_subP _ _ _ _ _ _ 1 one_app A2); try lra; rb|lra].
Qed.
Lemma small_coeffs c s C S t : app c C 3 -> app s S 3 -> 0 <= t <= 1 / 100 -> Rabs C <= 51 / 100 -> Rabs S <= 101 / 100 -> coeffs c s C S t.
Proof.
  intros [Fc Ec] [Fs Es] Ht HC HS. pose proof u_pos as U. assert (U1 : u <= 1 / 10 ^ 15) by (rewrite u_val; lra).
  assert (Vc : Rabs (val c) <= 6 / 10). { replace (val c) with ((val c - C) + C) by ring. eapply Rle_trans; [apply Rabs_triang|]. lra. }
  assert (Vs : Rabs (val s) <= 11 / 10). { replace (val s) with ((val s - S) + S) by ring. eapply Rle_trans; [apply Rabs_triang|]. lra. }
  pose proof (Rabs_pos (val c - C)). pose proof (Rabs_pos (val s - S)). pose proof (Rabs_pos C). pose proof (Rabs_pos S). pose proof (Rabs_pos (val c)).
  assert (T2 : t * t <= 1) by nra. assert (T3 : 0 <= t * t) by nra.
  assert (M : forall a b x y, 0 <= a -> 0 <= x -> a <= b -> x <= y -> a * x <= b * y) by (intros; apply Rmult_le_compat; auto).
  constructor; auto; try lra.
  - pose proof (M _ _ _ _ H T3 Ec T2). lra.
  - pose proof (M _ _ _ _ H0 (proj1 Ht) Es (proj2 Ht)). lra.
  - pose proof (M _ _ _ _ H1 T3 HC T2). lra.
  - pose proof (M _ _ _ _ H2 (proj1 Ht) HS (proj2 Ht)). lra.
  - pose proof (M _ _ _ _ H3 (proj1 Ht) Vc (proj2 Ht)). lra.
Qed.
End Coef.

(** ** Entries *)
Lemma xy_half x y t : x * x + y * y <= t * t -> Rabs (x * y) <= t * t / 2.
Proof. intros H. pose proof (Rle_0_sqr (x - y)) as A. pose proof (Rle_0_sqr (x + y)) as B. unfold Rsqr in *. apply Rabs_le. lra. Qed.
Lemma entry_off c s C S t x y z (sg : bool) : coeffs c s C S t -> isf x -> isf y -> isf z -> val x * val x + val y * val y <= t * t -> Rabs (val x) <= t -> Rabs (val y) <= t -> Rabs (val z) <= t ->
  let sz := if sg then Bopp s *! z else s *! z in let Sz := (if sg then - S else S) * val z in
  app (sz +! c *! x *! y) (Sz + C * val x * val y) 37.
Proof.
  intros [fc fs Ht cc cs CC CS c1 ct s1] Fx Fy Fz Hxy Hx Hy Hz sz Sz. pose proof u_pos as U. assert (U1 : u <= 1 / 10 ^ 15) by (rewrite u_val; lra).
  set (X := val x) in *. set (Y := val y) in *. set (Z := val z) in *.
  pose proof (Rabs_pos (val s - S)) as P1. pose proof (Rabs_pos (val c - C)) as P2. pose proof (Rabs_pos S) as P3. pose proof (Rabs_pos C) as P4. pose proof (Rabs_pos X) as P5. pose proof (Rabs_pos Y) as P6. pose proof (Rabs_pos Z) as P7. pose proof (Rabs_pos (val c)) as P8.
  assert (DsZ : Rabs (val s * Z - S * Z) <= 19 * u). { replace (val s * Z - S * Z) with ((val s - S) * Z) by ring. rewrite Rabs_mult. eapply Rle_trans; [apply Rmult_le_compat_l; [auto|exact Hz]|]. auto. }
  assert (SZ : Rabs (S * Z) <= 1). { rewrite Rabs_mult. eapply Rle_trans; [apply Rmult_le_compat_l; [auto|exact Hz]|]. auto. }
  assert (sZ : Rabs (val s * Z) <= 1001 / 1000). { replace (val s * Z) with ((val s * Z - S * Z) + S * Z) by ring. eapply Rle_trans; [apply Rabs_triang|]. lra. }
  assert (A1 : app (s *! z) (val s * Z) (103 / 100)) by (eapply app_weak; [apply (app_mulP _ _ _ _ _ _ (11 / 10) (315 / 100) (1001 / 1000) (app_exact s fs) (app_exact z Fz)); fold Z; lra|lra]).
  destruct (f_opp s fs) as [Fo Vo].
  assert (A1' : app (Bopp s *! z) (val (Bopp s) * Z) (103 / 100)).
  { eapply app_weak; [apply (app_mulP _ _ _ _ _ _ (11 / 10) (315 / 100) (1001 / 1000) (app_exact _ Fo) (app_exact z Fz)); fold Z; rewrite ?Vo; try rewrite Ropp_mult_distr_l_reverse; rewrite ?Rabs_Ropp; lra|lra]. }
  assert (A2 : app sz Sz (2003 / 100)).
  { unfold sz, Sz. destruct sg.
    - eapply app_weak; [apply (app_shift _ _ _ _ 19 A1')|lra]. rewrite Vo. replace (- val s * Z - - S * Z) with (- (val s * Z - S * Z)) by ring. rewrite Rabs_Ropp. auto.
    - eapply app_weak; [apply (app_shift _ _ _ _ 19 A1)|lra]. auto. }
  assert (BSz : Rabs Sz <= 1). { unfold Sz. destruct sg; [rewrite Ropp_mult_distr_l_reverse, Rabs_Ropp|]; auto. }
  assert (cX : Rabs (val c * X) <= 1002 / 1000). { rewrite Rabs_mult. eapply Rle_trans; [apply Rmult_le_compat_l; [auto|exact Hx]|]. auto. }
  assert (A3 : app (c *! x) (val c * X) (103 / 100)) by (eapply app_weak; [apply (app_mulP _ _ _ _ _ _ (6 / 10) (315 / 100) (1002 / 1000) (app_exact c fc) (app_exact x Fx)); fold X; lra|lra]).
  pose proof (xy_half X Y t Hxy) as HXY.
  assert (DcXY : Rabs (val c * X * Y - C * X * Y) <= 105 / 10 * u). { replace (val c * X * Y - C * X * Y) with ((val c - C) * (X * Y)) by ring. rewrite Rabs_mult. eapply Rle_trans; [apply Rmult_le_compat_l; [auto|exact HXY]|]. lra. }
  assert (CXY : Rabs (C * X * Y) <= 1). { rewrite Rmult_assoc, Rabs_mult. eapply Rle_trans; [apply Rmult_le_compat_l; [auto|exact HXY]|]. lra. }
  assert (cXY : Rabs (val c * X * Y) <= 1001 / 1000). { replace (val c * X * Y) with ((val c * X * Y - C * X * Y) + C * X * Y) by ring. eapply Rle_trans; [apply Rabs_triang|]. lra. }
  assert (A4 : app (c *! x *! y) (val c * X * Y) (43 / 10)) by (eapply app_weak; [apply (app_mulP _ _ _ _ _ _ (1002 / 1000) (315 / 100) (1001 / 1000) A3 (app_exact y Fy)); fold Y; lra|lra]).
  assert (A5 : app (c *! x *! y) (C * X * Y) (148 / 10)) by (eapply app_weak; [apply (app_shift _ _ _ _ (105 / 10) A4); auto|lra]).
  eapply app_weak; [apply (app_addP _ _ _ _ _ _ 2 A2 A5); try lra|lra].
  eapply Rle_trans; [apply Rabs_triang|]. lra.
Qed.
Lemma entry_diag c s C S t y z : coeffs c s C S t -> isf y -> isf z -> val y * val y + val z * val z <= t * t -> 0 <= C ->
  app (of_Z 1 -! c *! (y *! y +! z *! z)) (1 - C * (val y * val y + val z * val z)) 37.
Proof.
  intros [fc fs Ht cc cs CC CS c1 ct s1] Fy Fz Hyz C0. pose proof u_pos as U. assert (U1 : u <= 1 / 10 ^ 15) by (rewrite u_val; lra).
  set (Y := val y) in *. set (Z := val z) in *. assert (Y0 : 0 <= Y * Y) by nra. assert (Z0 : 0 <= Z * Z) by nra. assert (n1 : t * t <= 9923 / 1000) by nra.
  pose proof (Rabs_pos (val c - C)) as P2. pose proof (Rabs_pos (val c)) as P8.
  assert (BY : Rabs Y <= 315 / 100) by (apply Rabs_le; nra). assert (BZ : Rabs Z <= 315 / 100) by (apply Rabs_le; nra).
  assert (Ay : app (y *! y) (Y * Y) (Y * Y + 2 / 100)).
  { eapply app_weak; [apply (app_mulP _ _ _ _ _ _ (315 / 100) (315 / 100) (Y * Y) (app_exact y Fy) (app_exact y Fy)); fold Y; try lra|lra]. rewrite Rabs_pos_eq; lra. }
  assert (Az : app (z *! z) (Z * Z) (Z * Z + 2 / 100)).
  { eapply app_weak; [apply (app_mulP _ _ _ _ _ _ (315 / 100) (315 / 100) (Z * Z) (app_exact z Fz) (app_exact z Fz)); fold Z; try lra|lra]. rewrite Rabs_pos_eq; lra. }
  set (W := Y * Y + Z * Z) in *. assert (EW : W = Y * Y + Z * Z) by reflexivity. clearbody W. assert (W0 : 0 <= W <= t * t) by lra.
  assert (Aw : app (y *! y +! z *! z) W (2 * W + 5 / 100)). { rewrite EW at 1. eapply app_weak; [apply (app_addP _ _ _ _ _ _ W Ay Az); rewrite <- ?EW; try lra; rewrite ?Rabs_pos_eq; lra|lra]. }
  assert (DcW : Rabs (val c * W - C * W) <= 21 * u). { replace (val c * W - C * W) with ((val c - C) * W) by ring. rewrite Rabs_mult, (Rabs_pos_eq W) by lra. eapply Rle_trans; [apply Rmult_le_compat_l; [auto|apply W0]|]. auto. }
  rewrite (Rabs_pos_eq C) in CC by auto. assert (CW : 0 <= C * W <= 2). { split; [apply Rmult_le_pos; lra|]. eapply Rle_trans; [apply Rmult_le_compat_l; [auto|apply W0]|]. auto. }
  assert (cW : Rabs (val c * W) <= 2001 / 1000). { replace (val c * W) with ((val c * W - C * W) + C * W) by ring. eapply Rle_trans; [apply Rabs_triang|]. rewrite (Rabs_pos_eq (C * W)) by lra. lra. }
  assert (cW' : Rabs (val c) * W <= 2001 / 1000). { rewrite <- (Rabs_pos_eq W) by lra. rewrite <- Rabs_mult. auto. }
  assert (A3 : app (c *! (y *! y +! z *! z)) (val c * W) (61 / 10)).
  { eapply app_weak; [apply (app_mulP _ _ _ _ _ _ (Rabs (val c)) (9923 / 1000) (2001 / 1000) (app_exact c fc) Aw); try lra|]. { rewrite Rabs_pos_eq; lra. }
    replace (Rabs (val c) * (2 * W + 5 / 100)) with (2 * (Rabs (val c) * W) + 5 / 100 * Rabs (val c)) by ring. lra. }
  assert (A4 : app (c *! (y *! y +! z *! z)) (C * W) (271 / 10)) by (eapply app_weak; [apply (app_shift _ _ _ _ 21 A3); auto|lra]).
  eapply app_weak; [apply (app_subP _ _ _ _ _ _ 1 one_app A4); try lra|lra]. apply Rabs_le. lra.
Qed.

(** ** The exponential *)
Definition mapp (A : m3 f64) (B : m3 R) (k : R) : Prop :=
  app (a00 A) (a00 B) k /\ app (a01 A) (a01 B) k /\ app (a02 A) (a02 B) k /\
  app (a10 A) (a10 B) k /\ app (a11 A) (a11 B) k /\ app (a12 A) (a12 B) k /\
  app (a20 A) (a20 B) k /\ app (a21 A) (a21 B) k /\ app (a22 A) (a22 B) k.
Section Exp.
Variable L : libm.
Hypothesis HL : accurate L.
Local Notation SK := (F64 L).
Local Notation lit8 := (lit8 L).
Definition em_of (c s vx vy vz : f64) : m3 f64 :=
  M3 (of_Z 1 -! c *! (vy *! vy +! vz *! vz)) (Bopp s *! vz +! c *! vx *! vy) (s *! vy +! c *! vx *! vz)
     (s *! vz +! c *! vx *! vy) (of_Z 1 -! c *! (vx *! vx +! vz *! vz)) (Bopp s *! vx +! c *! vy *! vz)
     (Bopp s *! vy +! c *! vx *! vz) (s *! vx +! c *! vy *! vz) (of_Z 1 -! c *! (vx *! vx +! vy *! vy)).
Lemma em_of_app c s C S t a b d : coeffs c s C S t -> isf a -> isf b -> isf d -> t * t = sq3 (val a) (val b) (val d) -> 0 <= C ->
  mapp (em_of c s a b d) (rodrigues S C (val a) (val b) (val d)) 37.
Proof.
  intros Hc Fa Fb Fd Ht C0. assert (t0 : 0 <= t) by apply Hc. destruct (abs_le_norm _ _ _ t Ht t0) as (Ba & Bb & Bd). unfold sq3 in Ht.
  unfold mapp, em_of, rodrigues. cbn [a00 a01 a02 a10 a11 a12 a20 a21 a22].
  assert (S1 : val a * val a + val b * val b <= t * t) by nra. assert (S2 : val a * val a + val d * val d <= t * t) by nra. assert (S3 : val b * val b + val d * val d <= t * t) by nra.
  pose proof (fun x y z => entry_off c s C S t x y z true Hc) as OT. pose proof (fun x y z => entry_off c s C S t x y z false Hc) as OF. cbv zeta iota in OT, OF.
  pose proof (fun x y => entry_diag c s C S t x y Hc) as OD.
  split; [apply OD; auto|]. split; [apply OT; auto|]. split; [apply OF; auto|]. split; [apply OF; auto|]. split; [apply OD; auto|]. split; [apply OT; auto|]. split; [apply OT; auto|]. split; [apply OF; auto|]. apply OD; auto.
Qed.
Lemma em_exp_f64 a b d E : em_exponential (SK:=SK) [a; b; d] = Ok E -> mapp E (expSO3 (qvec3 a b d)) 37.
Proof.
  unfold em_exponential, sqnorm. cbn [dot map2 ksum kadd kmul ksqrt kltb kpi SK F64]. fold (nsq L a b d).
  destruct (Bltb (Bsqrt mode_NE (nsq L a b d)) f64_pi) eqn:HP; [|discriminate]. cbn [mnf_assert bind].
  unfold map_prec. change (klit 1 100000000) with lit8. intros H.
  assert (NN : rnorm (qvec3 a b d) = sqrt (sq3 (val a) (val b) (val d))). { unfold rnorm, qvec3, sq3. cbn [rdot]. f_equal. ring. }
  assert (EX : expSO3 (qvec3 a b d) = let t := sqrt (sq3 (val a) (val b) (val d)) in if Req_EM_T t 0 then ridm else rodrigues (sin t / t) ((1 - cos t) / (t * t)) (val a) (val b) (val d)).
  { rewrite <- NN. reflexivity. }
  cbv zeta in EX. pose proof u_pos as U.
  destruct (Bltb (nsq L a b d) lit8) eqn:H8.
  - destruct (arg_small L a b d HP H8) as (Fa & Fb & Fc & Fn & [N0 N1] & En). set (n := sq3 (val a) (val b) (val d)) in *.
    assert (An : app (nsq L a b d) n (1 / 1000000)) by (split; auto). destruct (msmall _ _ An ltac:(lra)) as [Ac As].
    cbn [k1 kadd kmul kdiv kopp ksub klit SK F64] in H. apply ok_eq in H. subst E.
    set (c := (of_Z 1 /! of_Z 2) -! nsq L a b d /! (of_Z 24 /! of_Z 1)) in *. set (s := of_Z 1 -! nsq L a b d /! (of_Z 6 /! of_Z 1)) in *. fold (em_of c s a b d).
    set (t := sqrt n) in *. assert (TT : t * t = n) by (apply sqrt_sqrt; auto). assert (t0 : 0 <= t) by apply sqrt_pos. assert (t1 : t <= 1 / 100) by nra.
    rewrite EX. destruct (Req_EM_T t 0) as [Z|Z].
    + assert (n = 0) by (rewrite <- TT, Z; ring).
      assert (H0 : val a = 0 /\ val b = 0 /\ val d = 0). { destruct (abs_le_norm _ _ _ t TT t0) as (Ba & Bb & Bd). rewrite Z in *. apply Rabs_ends in Ba, Bb, Bd. lra. }
      replace ridm with (rodrigues 1 (1 / 2) (val a) (val b) (val d)).
      * apply (em_of_app c s (1 / 2) 1 t); auto; [|lra]. apply small_coeffs; try lra.
        -- eapply app_weak; [eapply app_eq; [exact Ac|rewrite H; field]|lra].
        -- eapply app_weak; [eapply app_eq; [exact As|rewrite H; field]|lra].
        -- rb.
        -- rb.
      * destruct H0 as (-> & -> & ->). unfold rodrigues, ridm. f_equal; ring.
    + assert (n <> 0) by (intros Q; apply Z; unfold t; rewrite Q, sqrt_0; auto).
      destruct (em_series_wide n ltac:(lra)) as [S1 S2]. fold t in S1, S2.
      assert (N2 : n * n <= 1 / 10 ^ 15) by nra. assert (N20 : 0 <= n * n) by nra. assert (U3 : 1 / 10 ^ 15 / 120 <= u) by (rewrite u_val; lra).
      pose proof (Rabs_ends _ _ S1) as S1'. pose proof (Rabs_ends _ _ S2) as S2'.
      apply (em_of_app c s _ _ t); auto.
      * apply small_coeffs; try lra.
        -- eapply app_weak; [apply (app_shift _ _ _ _ 1 Ac); lra|lra].
        -- eapply app_weak; [apply (app_shift _ _ _ _ 1 As); lra|lra].
        -- rb.
        -- rb.
      * lra.
  - destruct (arg_main L a b d HP H8) as (Fa & Fb & Fc & Fn & Ft & Hn & En & Et). set (n := sq3 (val a) (val b) (val d)) in *.
    destruct (mtrig L HL (nsq L a b d) n Fn Ft Hn En Et) as [Hc t0]. cbn [k1 kadd kmul kdiv kopp ksub klit kcos ksin ksqrt SK F64] in H.
    set (th := Bsqrt mode_NE (nsq L a b d)) in *. apply ok_eq in H. subst E. set (t := sqrt n) in *. assert (TT : t * t = n) by (apply sqrt_sqrt; lra).
    rewrite EX. destruct (Req_EM_T t 0) as [Z|Z]; [lra|].
    apply (em_of_app _ _ _ _ t _ _ _ Hc); auto. pose proof (COS_bound t). apply Rmult_le_pos; [lra|]. apply Rlt_le, Rinv_0_lt_compat. nra.
Qed.
End Exp.
