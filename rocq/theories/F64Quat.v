(** The quaternion exponential and the quaternion product in double arithmetic. *)
From Coq Require Import Reals List Lra Lia ZArith Bool Arith Psatz.
From Flocq Require Import Core BinarySingleNaN.
From Verif Require Import Base Scalar Vec Model_SO3 XR SpecR RotR NumVec NumExp F64 F64Err F64Norm F64S2 F64Exp.
Import ListNotations.
Local Open Scope R_scope.

Lemma lit_int n : (0 < Zpos n < 2 ^ 53)%Z -> app (of_Z (Zpos n) /! of_Z 1) (IZR (Zpos n)) 0.
Proof.
  intros H. destruct (lit_ok (Zpos n) 1) as [F _]; [cbn [Z.abs]; lia|lia|]. split; auto.
  rewrite (lit_format (Zpos n) 1 0 (Zpos n)); cbn [Z.abs]; try lia.
  - replace (IZR (Z.pos n) / 1 - IZR (Z.pos n)) with 0 by field. rewrite Rabs_R0. lra.
  - unfold F2R. cbn. field.
Qed.
Lemma lit_half : app (of_Z 1 /! of_Z 2) (1 / 2) 0.
Proof.
  destruct (lit_ok 1 2) as [F _]; [reflexivity|reflexivity|]. split; auto. rewrite (lit_format 1 2 (-1) 1); try (cbn; lia).
  - replace (1 / 2 - 1 / 2) with 0 by field. rewrite Rabs_R0. lra.
  - unfold F2R. cbn. field.
Qed.
Lemma one_app : app (of_Z 1) 1 0.
Proof. destruct (of_Z_ok 1 eq_refl) as [F V]. split; auto. rewrite V. replace (1 - 1) with 0 by ring. rewrite Rabs_R0. lra. Qed.

(** Division by an exact constant. *)
Lemma app_divc a b r (c : R) k M : app a r k -> app b c 0 -> 1 <= c -> Rabs (r / c) <= M -> Rabs r <= 100 -> 0 <= k <= 1000 -> M <= 1000 -> app (a /! b) (r / c) (k * (2 / c) + M + 1 / 100).
Proof.
  intros Ha Hb Hc HM Hr Hk HM'. pose proof u_pos.
  assert (I : k / c <= k). { unfold Rdiv. assert (/ c <= 1) by (rewrite <- Rinv_1; apply Rinv_le_contravar; lra). assert (0 < / c) by (apply Rinv_0_lt_compat; lra). nra. }
  eapply app_weak; [apply (app_div a b r c k 0 M 100 c Ha Hb HM); try lra|].
  - rewrite Rabs_pos_eq; lra.
  - replace ((k + M * 0) / c) with (k / c) by (f_equal; ring). right. field. lra.
Qed.

Lemma ok_eq {A} (a b : A) : Ok a = Ok b -> b = a.
Proof. intros [= H]. auto. Qed.
Ltac rb := apply Rabs_le; lra.

(** ** Series branch *)
Section Small.
Variables (nh : f64) (n : R).
Hypothesis An : app nh n (1 / 1000000).
Hypothesis N0 : 0 <= n.
Hypothesis N1 : n <= 12 / 1000000000.
Let one := of_Z 1.
Definition qw_small : f64 := one +! (Bopp one +! nh /! (of_Z 48 /! of_Z 1)) *! (nh /! (of_Z 8 /! of_Z 1)).
Definition qs_small : f64 := (one +! (Bopp one +! (of_Z 1 /! of_Z 80) *! nh) *! nh /! (of_Z 24 /! of_Z 1)) /! (of_Z 2 /! of_Z 1).
Lemma qw_small_app : app qw_small (1 + (- 1 + n / 48) * (n / 8)) (12 / 10).
Proof.
  unfold qw_small. pose proof one_app as A1. fold one in A1. pose proof (app_opp _ _ _ A1) as Am. apply (app_eq _ _ (-1)) in Am; [|ring].
  pose proof (app_divc _ _ _ 48 _ (1 / 1000) An (lit_int 48 ltac:(lia)) ltac:(lra) ltac:(rb) ltac:(rb) ltac:(lra) ltac:(lra)) as A2.
  pose proof (app_divc _ _ _ 8 _ (1 / 1000) An (lit_int 8 ltac:(lia)) ltac:(lra) ltac:(rb) ltac:(rb) ltac:(lra) ltac:(lra)) as A3.
  pose proof (app_addP _ _ _ _ _ _ 1 Am A2 ltac:(rb) ltac:(lra) ltac:(lra) ltac:(lra) ltac:(lra) ltac:(lra)) as A4.
  assert (B4 : 0 <= - (-1 + n / 48) <= 1) by lra. set (r := -1 + n / 48) in *.
  assert (P : Rabs (r * (n / 8)) <= 1 / 1000) by (apply Rabs_le; nra).
  pose proof (app_mulP _ _ _ _ _ _ 1 (1 / 1000) (1 / 1000) A4 A3 ltac:(rb) ltac:(rb) P ltac:(lra) ltac:(lra) ltac:(lra) ltac:(lra) ltac:(lra) ltac:(lra)) as A5.
  eapply app_weak; [eapply (app_addP _ _ _ _ _ _ 1 A1 A5); try lra|lra]. apply Rabs_le. split; nra.
Qed.
Lemma qs_small_app : app qs_small ((1 + (- 1 + n / 80) * n / 24) / 2) 2.
Proof.
  unfold qs_small. pose proof one_app as A1. fold one in A1. pose proof (app_opp _ _ _ A1) as Am. apply (app_eq _ _ (-1)) in Am; [|ring].
  assert (A80 : app (of_Z 1 /! of_Z 80) (1 / 80) (3 / 100)) by (apply lit_abs; try reflexivity; rewrite Rabs_pos_eq; lra).
  pose proof (app_mulP _ _ _ _ _ _ (1 / 80) (1 / 1000) (1 / 1000) A80 An ltac:(rb) ltac:(rb) ltac:(rb) ltac:(lra) ltac:(lra) ltac:(lra) ltac:(lra) ltac:(lra) ltac:(lra)) as A2.
  apply (app_eq _ _ (n / 80)) in A2; [|field].
  pose proof (app_addP _ _ _ _ _ _ 1 Am A2 ltac:(rb) ltac:(lra) ltac:(lra) ltac:(lra) ltac:(lra) ltac:(lra)) as A4.
  assert (B4 : 0 <= - (-1 + n / 80) <= 1) by lra. set (r := -1 + n / 80) in *.
  assert (P : Rabs (r * n) <= 1 / 1000) by (apply Rabs_le; nra).
  pose proof (app_mulP _ _ _ _ _ _ 1 (1 / 1000) (1 / 1000) A4 An ltac:(rb) ltac:(rb) P ltac:(lra) ltac:(lra) ltac:(lra) ltac:(lra) ltac:(lra) ltac:(lra)) as A5.
  assert (P2 : 0 <= - (r * n) <= 1 / 1000) by nra. set (q := r * n) in *.
  pose proof (app_divc _ _ _ 24 _ (1 / 1000) A5 (lit_int 24 ltac:(lia)) ltac:(lra) ltac:(rb) ltac:(rb) ltac:(lra) ltac:(lra)) as A6.
  pose proof (app_addP _ _ _ _ _ _ 1 A1 A6 ltac:(rb) ltac:(lra) ltac:(lra) ltac:(lra) ltac:(lra) ltac:(lra)) as A7.
  eapply app_weak; [eapply (app_divc _ _ _ 2 _ (1 / 2) A7 (lit_int 2 ltac:(lia))); try lra; rb|lra].
Qed.
End Small.

Section Exp.
Variable L : libm.
Hypothesis HL : accurate L.
Local Notation SK := (F64 L).
Local Notation lit8 := (lit8 L).

(** ** Trigonometric branch *)
Lemma qtrig nh n : let th := Bsqrt mode_NE nh in let t := sqrt n in isf th -> 8 / 1000000000 <= n <= 99 / 10 -> Rabs (val th - t) <= 253 / 100 * (u * t) ->
  let h := (of_Z 1 /! of_Z 2) *! th in
  app (f_cos L h) (cos (t / 2)) 8 /\ app (f_sin L h /! th) (sin (t / 2) / t) 5 /\ 0 < t <= 315 / 100.
Proof.
  intros th t Fth Hn Eth h. pose proof u_pos as U. pose proof eta_pos as T0. pose proof eta_small as Ts.
  assert (TT : t * t = n) by (apply sqrt_sqrt; lra). assert (t0 : 0 <= t) by apply sqrt_pos. assert (t1 : 8 / 1000000000 <= t) by nra. assert (t2 : t <= 315 / 100) by nra.
  assert (Tu : eta <= u * t / 1000). { assert (u ^ 10 <= u / 10 ^ 40) by (rewrite u_val; cbn [pow]; lra). assert (u * (8 / 1000000000) <= u * t) by (apply Rmult_le_compat_l; lra). lra. }
  destruct lit_half as [Fh Vh]. assert (Vh' : val (of_Z 1 /! of_Z 2) = 1 / 2). { apply Rabs_ends in Vh. lra. }
  assert (Ut : 0 <= u * t) by nra. assert (U1 : u <= 1 / 1000000) by (rewrite u_val; lra). assert (Uts : u * t <= t / 1000000) by nra. apply Rabs_ends in Eth.
  destruct (f_mul (of_Z 1 /! of_Z 2) th Fh Fth) as [F V]. { rewrite Vh', Rabs_pos_eq by lra. pose proof big_1. lra. }
  fold h in F, V. rewrite Vh' in V. pose proof (rnd_err (1 / 2 * val th)) as Er. rewrite <- V in Er. rewrite (Rabs_pos_eq (1 / 2 * val th)) in Er by lra. apply Rabs_ends in Er.
  assert (Uth : u * (1 / 2 * val th) <= 51 / 100 * (u * t)). { assert (1 / 2 * val th <= 51 / 100 * t) by lra. replace (51 / 100 * (u * t)) with (u * (51 / 100 * t)) by ring. apply Rmult_le_compat_l; lra. }
  assert (Dh : - (18 / 10 * (u * t)) <= val h - t / 2 <= 18 / 10 * (u * t)) by lra.
  destruct (HL h F) as (Fc & Ec & Fs & Es). { apply Rabs_le. lra. }
  split; [|split; [|lra]].
  - split; auto. pose proof (cos_lip (val h) (t / 2)) as C. assert (Rabs (val h - t / 2) <= 18 / 10 * (u * t)) by (apply Rabs_le; lra).
    replace (val (f_cos L h) - cos (t / 2)) with ((val (f_cos L h) - cos (val h)) + (cos (val h) - cos (t / 2))) by ring. eapply Rle_trans; [apply Rabs_triang|].
    assert (u * t <= u * (315 / 100)) by (apply Rmult_le_compat_l; lra). lra.
  - pose proof (sin_lip (val h) (t / 2)) as C. assert (Dh' : Rabs (val h - t / 2) <= 18 / 10 * (u * t)) by (apply Rabs_le; lra).
    rewrite (Rabs_pos_eq (val h)) in Es by lra.
    assert (Es' : Rabs (val (f_sin L h) - sin (t / 2)) <= 29 / 10 * (u * t)).
    { replace (val (f_sin L h) - sin (t / 2)) with ((val (f_sin L h) - sin (val h)) + (sin (val h) - sin (t / 2))) by ring. eapply Rle_trans; [apply Rabs_triang|].
      assert (u * val h <= 51 / 100 * (u * t)). { replace (51 / 100 * (u * t)) with (u * (51 / 100 * t)) by ring. apply Rmult_le_compat_l; lra. } lra. }
    pose proof (sin_abs (t / 2)) as SA. rewrite (Rabs_pos_eq (t / 2)) in SA by lra.
    assert (B : Rabs (val (f_sin L h) / t) <= 51 / 100).
    { unfold Rdiv. rewrite Rabs_mult, (Rabs_pos_eq (/ t)) by (apply Rlt_le, Rinv_0_lt_compat; lra). apply Rmult_le_reg_r with t; [lra|]. rewrite Rmult_assoc, Rinv_l, Rmult_1_r by lra.
      replace (val (f_sin L h)) with ((val (f_sin L h) - sin (t / 2)) + sin (t / 2)) by ring. eapply Rle_trans; [apply Rabs_triang|]. lra. }
    destruct (quot_err (f_sin L h) th t (253 / 100) Fs) as [Fq Eq]; try lra. { apply Rabs_le; lra. }
    split; auto. replace (val (f_sin L h /! th) - sin (t / 2) / t) with ((val (f_sin L h /! th) - val (f_sin L h) / t) + (val (f_sin L h) - sin (t / 2)) / t) by (field; lra).
    eapply Rle_trans; [apply Rabs_triang|].
    assert (Rabs ((val (f_sin L h) - sin (t / 2)) / t) <= 29 / 10 * u).
    { unfold Rdiv. rewrite Rabs_mult, (Rabs_pos_eq (/ t)) by (apply Rlt_le, Rinv_0_lt_compat; lra). apply Rmult_le_reg_r with t; [lra|]. rewrite Rmult_assoc, Rinv_l, Rmult_1_r by lra. lra. }
    assert (u * Rabs (val (f_sin L h) / t) <= u * (51 / 100)) by (apply Rmult_le_compat_l; lra). pose proof eta_u. lra.
Qed.
Lemma abs_le_norm x y z t : t * t = sq3 x y z -> 0 <= t -> Rabs x <= t /\ Rabs y <= t /\ Rabs z <= t.
Proof. unfold sq3. intros H H0. repeat split; apply Rabs_le; split; nra. Qed.
Lemma scale_t x t s : 0 < t -> Rabs x <= t -> Rabs s <= 1 -> Rabs (s / t * x) <= 1.
Proof.
  intros H Hx Hs. replace (s / t * x) with (s * x / t) by (field; lra). unfold Rdiv. rewrite Rabs_mult, (Rabs_pos_eq (/ t)) by (apply Rlt_le, Rinv_0_lt_compat; lra).
  apply Rmult_le_reg_r with t; [lra|]. rewrite Rmult_assoc, Rinv_l, Rmult_1_r, Rmult_1_l, Rabs_mult by lra. pose proof (Rabs_pos s). pose proof (Rabs_pos x). nra.
Qed.

(** Every accepted argument: within 17 units of the exact half-angle quaternion. *)
Definition qvec3 (a b c : f64) : list R := [val a; val b; val c].
Lemma eq_exp_f64 q0 a b c q : eq_exponential (SK:=SK) q0 [a; b; c] = Ok q ->
  app (qw q) (qw (expQ (qvec3 a b c))) 17 /\ app (qx q) (qx (expQ (qvec3 a b c))) 17 /\ app (qy q) (qy (expQ (qvec3 a b c))) 17 /\ app (qz q) (qz (expQ (qvec3 a b c))) 17.
Proof.
  unfold eq_exponential, sqnorm. cbn [dot map2 ksum kadd kmul ksqrt kltb kpi SK F64]. fold (nsq L a b c).
  destruct (Bltb (Bsqrt mode_NE (nsq L a b c)) f64_pi) eqn:HP; [|discriminate]. cbn [mnf_assert bind].
  unfold map_prec. change (klit 1 100000000) with lit8. intros H.
  assert (NN : rnorm (qvec3 a b c) = sqrt (sq3 (val a) (val b) (val c))). { unfold rnorm, qvec3, sq3. cbn [rdot]. f_equal. ring. }
  assert (EX : expQ (qvec3 a b c) = let t := sqrt (sq3 (val a) (val b) (val c)) in if Req_EM_T t 0 then Q4 1 0 0 0 else Q4 (cos (t / 2)) (sin (t / 2) / t * val a) (sin (t / 2) / t * val b) (sin (t / 2) / t * val c)).
  { rewrite <- NN. reflexivity. }
  cbv zeta in EX. pose proof u_pos as U.
  destruct (Bltb (nsq L a b c) lit8) eqn:H8.
  - destruct (arg_small L a b c HP H8) as (Fa & Fb & Fc & Fn & [N0 N1] & En). set (n := sq3 (val a) (val b) (val c)) in *.
    assert (An : app (nsq L a b c) n (1 / 1000000)) by (split; auto).
    pose proof (qw_small_app _ _ An N0 N1) as Aw. pose proof (qs_small_app _ _ An N0 N1) as As.
    cbn [k1 kadd kmul kdiv kopp klit SK F64] in H. fold (qw_small (nsq L a b c)) in H. fold (qs_small (nsq L a b c)) in H.
    apply ok_eq in H. subst q. cbn [qw qx qy qz]. set (t := sqrt n) in *. assert (TT : t * t = n) by (apply sqrt_sqrt; auto).
    destruct (abs_le_norm _ _ _ t TT (sqrt_pos n)) as (Ba & Bb & Bc). assert (t0 : 0 <= t) by apply sqrt_pos. assert (t1 : t <= 2 / 10000) by nra.
    rewrite EX. destruct (Req_EM_T t 0) as [Z|Z].
    + assert (n = 0) by (rewrite <- TT, Z; ring). assert (Z3 : forall x, Rabs x <= t -> x = 0) by (intros x Hx; rewrite Z in Hx; apply Rabs_ends in Hx; lra).
      assert (S : app (qs_small (nsq L a b c)) (1 / 2) 2) by (eapply app_eq; [exact As|]; rewrite H; field).
      assert (M : forall x, isf x -> val x = 0 -> app (qs_small (nsq L a b c) *! x) 0 17).
      { intros x Fx Vx. eapply app_weak; [eapply app_eq; [apply (app_mulP _ _ _ _ _ _ 1 0 0 S (app_exact x Fx)); rewrite ?Vx, ?Rmult_0_r, ?Rabs_R0; try lra; rb|rewrite Vx; ring]|lra]. }
      cbn [qw qx qy qz]. split; [|split; [|split]]; auto.
      eapply app_weak; [eapply app_eq; [exact Aw|rewrite H; field]|lra].
    + assert (n <> 0) by (intros E; apply Z; unfold t; rewrite E, sqrt_0; auto).
      destruct (eq_series_wide n ltac:(lra)) as [S1 S2]. fold t in S1, S2. cbn [qw qx qy qz].
      assert (N3 : n * n * n <= 1 / 10 ^ 21) by (assert (n * n <= 1 / 10 ^ 15) by nra; nra).
      assert (N30 : 0 <= n * n * n) by (apply Rmult_le_pos; auto; nra).
      assert (U3 : 1 / 10 ^ 21 <= u / 100) by (rewrite u_val; lra).
      split.
      { eapply app_weak; [apply (app_shift _ _ _ _ 1 Aw); eapply Rle_trans; [exact S1|]; lra|lra]. }
      assert (As' : app (qs_small (nsq L a b c)) (sin (t / 2) / t) 3). { eapply app_weak; [apply (app_shift _ _ _ _ 1 As); eapply Rle_trans; [exact S2|]; lra|lra]. }
      assert (M : forall x, isf x -> Rabs (val x) <= t -> app (qs_small (nsq L a b c) *! x) (sin (t / 2) / t * val x) 17).
      { intros x Fx Hx. assert (SB : Rabs (sin (t / 2) / t * val x) <= 1) by (apply scale_t; auto; [lra|]; apply Rabs_le; apply SIN_bound).
        assert (SC : Rabs (sin (t / 2) / t) <= 1).
        { apply Rabs_ends in S2. apply Rabs_le. assert (- (6 / 10) <= (1 + (-1 + n / 80) * n / 24) / 2 <= 6 / 10) by (split; nra). lra. }
        eapply app_weak; [apply (app_mulP _ _ _ _ _ _ 1 1 1 As' (app_exact x Fx)); try lra|lra]. }
      auto.
  - destruct (arg_main L a b c HP H8) as (Fa & Fb & Fc & Fn & Ft & Hn & En & Et). set (n := sq3 (val a) (val b) (val c)) in *.
    destruct (qtrig (nsq L a b c) n Ft Hn Et) as (Aw & As & [t0 t1]). cbn [kmul kdiv klit kcos ksin ksqrt SK F64] in H.
    set (th := Bsqrt mode_NE (nsq L a b c)) in *. apply ok_eq in H. subst q. cbn [qw qx qy qz]. set (t := sqrt n) in *. assert (TT : t * t = n) by (apply sqrt_sqrt; lra).
    destruct (abs_le_norm _ _ _ t TT ltac:(lra)) as (Ba & Bb & Bc). rewrite EX. destruct (Req_EM_T t 0) as [Z|Z]; [lra|]. cbn [qw qx qy qz].
    split; [eapply app_weak; [exact Aw|lra]|].
    assert (M : forall x, isf x -> Rabs (val x) <= t -> app ((f_sin L ((of_Z 1 /! of_Z 2) *! th) /! th) *! x) (sin (t / 2) / t * val x) 17).
    { intros x Fx Hx. assert (SB : Rabs (sin (t / 2) / t * val x) <= 1) by (apply scale_t; auto; apply Rabs_le; apply SIN_bound).
      assert (SC : Rabs (sin (t / 2) / t) <= 1 / 2).
      { unfold Rdiv at 1. rewrite Rabs_mult, (Rabs_pos_eq (/ t)) by (apply Rlt_le, Rinv_0_lt_compat; lra). apply Rmult_le_reg_r with t; [lra|]. rewrite Rmult_assoc, Rinv_l, Rmult_1_r by lra.
        pose proof (sin_abs (t / 2)) as S. rewrite (Rabs_pos_eq (t / 2)) in S by lra. lra. }
      eapply app_weak; [apply (app_mulP _ _ _ _ _ _ (1 / 2) (315 / 100) 1 As (app_exact x Fx)); try lra|lra]. }
    auto.
Qed.
End Exp.

(** ** Product *)
Lemma mul18 p e r : isf p -> Rabs (val p) <= 1001 / 1000 -> app e r 17 -> Rabs r <= 1 -> app (p *! e) (val p * r) (181 / 10) /\ Rabs (val p * r) <= 1001 / 1000.
Proof.
  intros Fp Bp Ae Be. assert (P : Rabs (val p * r) <= 1001 / 1000). { rewrite Rabs_mult. pose proof (Rabs_pos (val p)). pose proof (Rabs_pos r). nra. } split; auto.
  eapply app_weak; [apply (app_mulP _ _ _ _ _ _ (1001 / 1000) 1 (1001 / 1000) (app_exact p Fp) Ae); lra|lra].
Qed.
Lemma qsum4 L a b c d ra rb rc rd : app a ra (181 / 10) -> app b rb (181 / 10) -> app c rc (181 / 10) -> app d rd (181 / 10) ->
  Rabs ra <= 1001 / 1000 -> Rabs rb <= 1001 / 1000 -> Rabs rc <= 1001 / 1000 -> Rabs rd <= 1001 / 1000 ->
  app (sum4 L a b c (Bopp d)) (ra + rb + rc - rd) 82 /\ app (sum4 L a (Bopp b) (Bopp c) (Bopp d)) (ra - rb - rc - rd) 82.
Proof.
  intros [Fa Aa] [Fb Ab] [Fc Ac] [Fd Ad] Ba Bb Bc Bd. pose proof u_pos as U. pose proof eta_u as T. set (k := 181 / 10 * u) in *.
  assert (K : 0 <= k) by (unfold k; lra). assert (HC : k + 4 * (u * (101 / 100)) <= 101 / 100 - 1001 / 1000) by (unfold k; rewrite u_val; lra).
  pose proof (near_opp b rb k (1001 / 1000) ltac:(auto)) as Ob. pose proof (near_opp c rc k (1001 / 1000) ltac:(auto)) as Oc. pose proof (near_opp d rd k (1001 / 1000) ltac:(auto)) as Od.
  destruct (sum4_near L a b c (Bopp d) ra rb rc (- rd) k (1001 / 1000) (101 / 100)) as [F1 E1]; auto; try lra.
  destruct (sum4_near L a (Bopp b) (Bopp c) (Bopp d) ra (- rb) (- rc) (- rd) k (1001 / 1000) (101 / 100)) as [F2 E2]; auto; try lra.
  split; split; auto.
  - replace (ra + rb + rc - rd) with (ra + rb + rc + - rd) by ring. eapply Rle_trans; [exact E1|]. unfold k. lra.
  - replace (ra - rb - rc - rd) with (ra + - rb + - rc + - rd) by ring. eapply Rle_trans; [exact E2|]. unfold k. lra.
Qed.
Definition qval (q : quat f64) : quat R := Q4 (val (qw q)) (val (qx q)) (val (qy q)) (val (qz q)).
Definition qfin (q : quat f64) : Prop := isf (qw q) /\ isf (qx q) /\ isf (qy q) /\ isf (qz q).
Definition qapp (q : quat f64) (r : quat R) (k : R) : Prop := app (qw q) (qw r) k /\ app (qx q) (qx r) k /\ app (qy q) (qy r) k /\ app (qz q) (qz r) k.

Lemma unit_pert4 (z : quat R) d : qn2 z <= 1 + d -> 0 <= d <= 1 / 1000 -> forall y k, 0 <= k <= 1000 -> Rabs (qw y - qw z) <= k * u -> Rabs (qx y - qx z) <= k * u -> Rabs (qy y - qy z) <= k * u -> Rabs (qz y - qz z) <= k * u ->
  Rabs (qn2 y - qn2 z) <= (4 * k + 4 * d * k + 1) * u.
Proof.
  intros Hz Hd y k Hk H0 H1 H2 H3. pose proof u_pos as U. unfold qn2 in *. destruct z as [z0 z1 z2 z3], y as [y0 y1 y2 y3]. cbn [qw qx qy qz] in *.
  assert (P : forall a b, Rabs (b - a) <= k * u -> Rabs (b * b - a * a) <= 2 * Rabs a * (k * u) + (k * u) * (k * u)).
  { intros a b H. replace (b * b - a * a) with (2 * a * (b - a) + (b - a) * (b - a)) by ring. eapply Rle_trans; [apply Rabs_triang|]. rewrite !Rabs_mult, (Rabs_pos_eq 2) by lra.
    pose proof (Rabs_pos a). pose proof (Rabs_pos (b - a)). apply Rplus_le_compat; [apply Rmult_le_compat_l; lra|apply Rmult_le_compat; auto]. }
  pose proof (P _ _ H0) as P0. pose proof (P _ _ H1) as P1. pose proof (P _ _ H2) as P2. pose proof (P _ _ H3) as P3.
  assert (KU : (k * u) * (k * u) <= u / 100). { assert (k * k * u <= 1 / 100) by (rewrite u_val; nra). nra. }
  assert (S : Rabs z0 + Rabs z1 + Rabs z2 + Rabs z3 <= 2 + 2 * d).
  { assert (Q : forall a, a * a = Rabs a * Rabs a) by (intros a; rewrite <- Rabs_mult; symmetry; apply Rabs_pos_eq; nra). rewrite (Q z0), (Q z1), (Q z2), (Q z3) in Hz.
    pose proof (Rabs_pos z0). pose proof (Rabs_pos z1). pose proof (Rabs_pos z2). pose proof (Rabs_pos z3). set (a := Rabs z0) in *. set (b := Rabs z1) in *. set (c := Rabs z2) in *. set (e := Rabs z3) in *.
    assert ((a + b + c + e) * (a + b + c + e) <= 4 * (a * a + b * b + c * c + e * e)).
    { pose proof (Rle_0_sqr (a - b)). pose proof (Rle_0_sqr (a - c)). pose proof (Rle_0_sqr (a - e)). pose proof (Rle_0_sqr (b - c)). pose proof (Rle_0_sqr (b - e)). pose proof (Rle_0_sqr (c - e)). unfold Rsqr in *. lra. }
    assert (S9 : (a + b + c + e) * (a + b + c + e) <= (2 + 2 * d) * (2 + 2 * d)) by nra. apply Rsqr_incr_0_var; [exact S9|lra]. }
  assert (KU0 : 0 <= k * u) by nra.
  assert (T : 2 * Rabs z0 * (k * u) + 2 * Rabs z1 * (k * u) + 2 * Rabs z2 * (k * u) + 2 * Rabs z3 * (k * u) <= 2 * (2 + 2 * d) * (k * u)) by nra.
  apply Rabs_ends in P0, P1, P2, P3. apply Rabs_le. lra.
Qed.
Section Prod.
Variable L : libm.
Local Notation SK := (F64 L).
Lemma qmul_f64 p e r : qfin p -> Rabs (qn2 (qval p) - 1) <= 1 / 1000 -> qapp e r 17 -> qn2 r = 1 -> qapp (qmul (SK:=SK) p e) (qprod (qval p) r) 82.
Proof.
  intros (F0 & F1 & F2 & F3) Hp (A0 & A1 & A2 & A3) Hr. apply Rabs_ends in Hp. unfold qn2, qval in *. cbn [qw qx qy qz] in *.
  assert (B : forall a, a * a <= 1 + 1 / 1000 -> Rabs a <= 1001 / 1000) by (intros a H; apply Rabs_le; split; nra).
  assert (C : forall a, a * a <= 1 -> Rabs a <= 1) by (intros a H; apply Rabs_le; split; nra).
  pose proof (B (val (qw p)) ltac:(nra)) as B0. pose proof (B (val (qx p)) ltac:(nra)) as B1. pose proof (B (val (qy p)) ltac:(nra)) as B2. pose proof (B (val (qz p)) ltac:(nra)) as B3.
  pose proof (C (qw r) ltac:(nra)) as C0. pose proof (C (qx r) ltac:(nra)) as C1. pose proof (C (qy r) ltac:(nra)) as C2. pose proof (C (qz r) ltac:(nra)) as C3.
  unfold qapp, qmul, qprod. cbn [qw qx qy qz kadd ksub ksum kopp kmul SK F64].
  assert (M : forall a b c d ra rb rc rd e0 e1 e2 e3, isf a -> isf b -> isf c -> isf d -> Rabs (val a) <= 1001 / 1000 -> Rabs (val b) <= 1001 / 1000 -> Rabs (val c) <= 1001 / 1000 -> Rabs (val d) <= 1001 / 1000 ->
     app e0 ra 17 -> app e1 rb 17 -> app e2 rc 17 -> app e3 rd 17 -> Rabs ra <= 1 -> Rabs rb <= 1 -> Rabs rc <= 1 -> Rabs rd <= 1 ->
     app (sum4 L (a *! e0) (b *! e1) (c *! e2) (Bopp (d *! e3))) (val a * ra + val b * rb + val c * rc - val d * rd) 82 /\
     app (sum4 L (a *! e0) (Bopp (b *! e1)) (Bopp (c *! e2)) (Bopp (d *! e3))) (val a * ra - val b * rb - val c * rc - val d * rd) 82).
  { intros. destruct (mul18 a e0 ra) as [? ?]; auto. destruct (mul18 b e1 rb) as [? ?]; auto. destruct (mul18 c e2 rc) as [? ?]; auto. destruct (mul18 d e3 rd) as [? ?]; auto. apply qsum4; auto. }
  split; [apply M; auto|].
  split; [eapply app_eq; [apply M; eauto|ring]|].
  split; [eapply app_eq; [apply M; eauto|ring]|].
  eapply app_eq; [apply M; eauto|ring].
Qed.
Hypothesis HL : accurate L.
Lemma qval_flat p : map (B2R (prec:=53) (emax:=1024)) [qw p; qx p; qy p; qz p] = qflat (qval p).
Proof. reflexivity. Qed.
Lemma eq_step p a b c out y : qfin p -> Rabs (qn2 (qval p) - 1) <= 1 / 1000 -> length out = 4%nat ->
  eq_retractation (SK:=SK) out [qw p; qx p; qy p; qz p] [a; b; c] = Ok y ->
  exists r, y = [qw r; qx r; qy r; qz r] /\ qapp r (qprod (qval p) (expQ (qvec3 a b c))) 82 /\
    Rabs (qn2 (qval r) - qn2 (qval p)) <= 330 * u.
Proof.
  intros Fp Hp Lo H. unfold eq_retractation, eq_retractation_at in H.
  destruct (eq_exponential junk_quat [a; b; c]) as [e|] eqn:E; [|discriminate]. cbn [bind] in H.
  apply (eq_exp_f64 L HL) in E. pose proof (qmul_f64 p e _ Fp Hp E (expQ_unit _)) as Q. destruct p as [p0 p1 p2 p3]. cbn [qw qx qy qz] in *.
  destruct out as [|o0 [|o1 [|o2 [|o3 [|]]]]]; try discriminate Lo. unfold quat_read, quat_write, quat_to_list in H.
  cbn [raw_read raw_write List.length Nat.leb ub_unless bind firstn skipn List.app] in H. apply ok_eq in H. subst y.
  eexists. split; [reflexivity|]. split; [exact Q|]. destruct Q as ([_ E0] & [_ E1] & [_ E2] & [_ E3]). unfold qval at 1. 
  set (z := qprod (qval {| qw := p0; qx := p1; qy := p2; qz := p3 |}) (expQ (qvec3 a b c))) in *.
  assert (Z : qn2 z = qn2 (qval {| qw := p0; qx := p1; qy := p2; qz := p3 |})) by (unfold z; rewrite qn2_mul, expQ_unit; ring).
  rewrite <- Z in Hp |- *. apply Rabs_ends in Hp. pose proof u_pos.
  eapply Rle_trans; [apply (unit_pert4 z (1 / 1000)) with (k := 82); cbn [qw qx qy qz]; auto; lra|lra].
Qed.

(** isInM *)
Lemma norm4_err a b c d : isf a -> isf b -> isf c -> isf d -> let N := sq4 (val a) (val b) (val c) (val d) in 1 / 16 <= N <= 2 ->
  isf (Bsqrt mode_NE (sum4 L (a *! a) (b *! b) (c *! c) (d *! d))) /\ Rabs (val (Bsqrt mode_NE (sum4 L (a *! a) (b *! b) (c *! c) (d *! d))) - sqrt N) <= 4 * (u * sqrt N).
Proof.
  intros Fa Fb Fc Fd N [H1 H2]. assert (B9 : 2 <= B900) by (pose proof B400_900; pose proof B400_1; nra). pose proof B900_big.
  pose proof (dot4_fin L a b c d Fa Fb Fc Fd ltac:(fold N; lra)) as F.
  destruct (dot4_err L a b c d F) as (_ & _ & _ & _ & E). cbv zeta in E. fold N in E.
  pose proof (eta_rel N 20 H1 ltac:(lra)) as T. destruct (sqrt_err _ N (402 / 100) F) as [F' E']; try lra.
  - pose proof u_pos. assert (0 <= u * N) by nra. lra.
  - apply eta_sqrt; auto.
  - split; auto. eapply Rle_trans; [exact E'|]. apply Rmult_le_compat_r; [|lra]. pose proof u_pos. pose proof (sqrt_pos N). nra.
Qed.
Lemma eq_isInM_ok p q d : qfin q -> Rabs (qn2 (qval q) - 1) <= d -> d <= 1 / 100 -> isf p -> d + 6 * u < val p -> eq_isInM (SK:=SK) [qw q; qx q; qy q; qz q] p = Ok true.
Proof.
  intros (F0 & F1 & F2 & F3) H Hd Fp Hp. unfold eq_isInM, quat_read. cbn [raw_read List.length Nat.leb ub_unless bind firstn Nat.eqb andb]. f_equal.
  unfold qsqnorm, sqnorm. cbn [qw qx qy qz dot map2 ksum kabs ksub ksqrt kadd kmul kltb k1 SK F64].
  assert (EN : sq4 (val (qx q)) (val (qy q)) (val (qz q)) (val (qw q)) = qn2 (qval q)) by (unfold sq4, qn2, qval; cbn [qw qx qy qz]; ring).
  pose proof (Rabs_ends _ _ H) as H'.
  destruct (norm4_err (qx q) (qy q) (qz q) (qw q) F1 F2 F3 F0) as [Fm Em]; [rewrite EN; lra|]. rewrite EN in Em.
  destruct (near_one _ _ d H Hd Fm Em) as [Fa Va]. rewrite f_ltb by auto. apply Rlt_bool_true. lra.
Qed.
End Prod.
