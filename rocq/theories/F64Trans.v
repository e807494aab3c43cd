(** Vector transport on the sphere in double arithmetic. *)
From Coq Require Import Reals List Lra Lia ZArith Bool Arith Psatz.
From Flocq Require Import Core BinarySingleNaN.
From Verif Require Import Base Scalar Vec Model_S2 F64 F64Err F64Norm F64S2 XR SpecR RotR NumVec NumS2.
Import ListNotations.
Local Open Scope R_scope.

(** ** A matrix applied to a vector of any scale *)
(** [S] bounds the entries of the vector. *)
Definition scale (S : R) : Prop := bpow radix2 (-900) <= S <= B900.
Lemma scale_eta S : scale S -> 0 < S /\ eta <= u * S / 1000 /\ 1000 * S <= big.
Proof.
  intros [H1 H2]. pose proof (bpow_gt_0 radix2 (-900)) as P. split; [lra|]. split.
  - assert (E : eta = bpow radix2 (-1075 + 953) * (u * bpow radix2 (-900))) by (unfold eta, u; rewrite <- !bpow_plus; reflexivity).
    assert (bpow radix2 (-1075 + 953) <= 1 / 1000) by (apply Rle_trans with (bpow radix2 (-10)); [apply bpow_le; lia|cbn; lra]).
    pose proof u_pos. assert (u * bpow radix2 (-900) <= u * S) by (apply Rmult_le_compat_l; lra). assert (0 < u * bpow radix2 (-900)) by (apply Rmult_lt_0_compat; lra). rewrite E. nra.
  - pose proof B900_big. lra.
Qed.
Lemma mul_scaled r h rho k S : scale S -> app r rho k -> 0 <= k <= 1000 -> Rabs rho <= 4 -> isf h -> Rabs (val h) <= S ->
  isf (r *! h) /\ Rabs (val (r *! h) - rho * val h) <= (k + 5) * (u * S) /\ Rabs (rho * val h) <= 4 * S.
Proof.
  intros HS [Fr Er] Hk Hr Fh Hh. destruct (scale_eta S HS) as (S0 & T & B). pose proof u_pos as U.
  assert (U1 : 1000 * u <= 1 / 100000) by (rewrite u_val; lra). assert (Ku : k * u <= 1 / 100000) by nra.
  assert (D : Rabs (val r * val h - rho * val h) <= k * (u * S)).
  { replace (val r * val h - rho * val h) with ((val r - rho) * val h) by ring. rewrite Rabs_mult.
    replace (k * (u * S)) with ((k * u) * S) by ring. apply Rmult_le_compat; auto using Rabs_pos. }
  assert (P : Rabs (rho * val h) <= 4 * S) by (rewrite Rabs_mult; apply Rmult_le_compat; auto using Rabs_pos).
  assert (KS : k * (u * S) <= S / 100000) by (replace (k * (u * S)) with ((k * u) * S) by ring; nra).
  assert (M : Rabs (val r * val h) <= 4 * S + S / 100000).
  { replace (val r * val h) with ((val r * val h - rho * val h) + rho * val h) by ring. eapply Rle_trans; [apply Rabs_triang|]. lra. }
  destruct (f_mul r h Fr Fh) as [F V]; [lra|]. split; auto. split; auto. rewrite V. pose proof (rnd_err (val r * val h)) as E.
  replace (rnd (val r * val h) - rho * val h) with ((rnd (val r * val h) - val r * val h) + (val r * val h - rho * val h)) by ring.
  eapply Rle_trans; [apply Rabs_triang|]. assert (u * Rabs (val r * val h) <= u * (4 * S + S / 100000)) by (apply Rmult_le_compat_l; lra).
  assert (0 < u * S) by (apply Rmult_lt_0_compat; lra). lra.
Qed.
Lemma add_scaled a b al be k l P S : scale S -> isf a -> isf b -> Rabs (val a - al) <= k * (u * S) -> Rabs (val b - be) <= l * (u * S) ->
  0 <= k <= 10000 -> 0 <= l <= 10000 -> Rabs (al + be) <= P * S -> 0 <= P <= 100 ->
  isf (a +! b) /\ Rabs (val (a +! b) - (al + be)) <= (k + l + P + 1 / 10) * (u * S).
Proof.
  intros HS Fa Fb Ea Eb Hk Hl HP P0. destruct (scale_eta S HS) as (S0 & T & B). pose proof u_pos as U.
  assert (US : 0 < u * S) by (apply Rmult_lt_0_compat; lra). assert (U1 : 20000 * u <= 1 / 10000) by (rewrite u_val; lra).
  assert (D : Rabs (val a + val b - (al + be)) <= (k + l) * (u * S)).
  { replace (val a + val b - (al + be)) with ((val a - al) + (val b - be)) by ring. eapply Rle_trans; [apply Rabs_triang|]. lra. }
  assert (KS : (k + l) * (u * S) <= S / 10000) by (replace ((k + l) * (u * S)) with ((k + l) * u * S) by ring; assert ((k + l) * u <= 1 / 10000) by nra; nra).
  assert (M : Rabs (val a + val b) <= P * S + S / 10000).
  { replace (val a + val b) with ((val a + val b - (al + be)) + (al + be)) by ring. eapply Rle_trans; [apply Rabs_triang|]. lra. }
  destruct (f_add a b Fa Fb) as [F V]; [nra|]. split; auto. rewrite V. pose proof (rnd_err (val a + val b)) as E.
  replace (rnd (val a + val b) - (al + be)) with ((rnd (val a + val b) - (val a + val b)) + (val a + val b - (al + be))) by ring.
  eapply Rle_trans; [apply Rabs_triang|]. assert (u * Rabs (val a + val b) <= u * (P * S + S / 10000)) by (apply Rmult_le_compat_l; lra).
  lra.
Qed.
Lemma dot_scaled L r0 r1 r2 h0 h1 h2 p0 p1 p2 k S : scale S -> app r0 p0 k -> app r1 p1 k -> app r2 p2 k -> 0 <= k <= 1000 ->
  Rabs p0 <= 4 -> Rabs p1 <= 4 -> Rabs p2 <= 4 -> isf h0 -> isf h1 -> isf h2 -> Rabs (val h0) <= S -> Rabs (val h1) <= S -> Rabs (val h2) <= S ->
  isf (sum3 L (r0 *! h0) (r1 *! h1) (r2 *! h2)) /\
  Rabs (val (sum3 L (r0 *! h0) (r1 *! h1) (r2 *! h2)) - (p0 * val h0 + p1 * val h1 + p2 * val h2)) <= (3 * k + 36) * (u * S).
Proof.
  intros HS A0 A1 A2 Hk B0 B1 B2 F0 F1 F2 H0 H1 H2.
  destruct (mul_scaled r0 h0 p0 k S HS A0 Hk B0 F0 H0) as (G0 & E0 & M0). destruct (mul_scaled r1 h1 p1 k S HS A1 Hk B1 F1 H1) as (G1 & E1 & M1).
  destruct (mul_scaled r2 h2 p2 k S HS A2 Hk B2 F2 H2) as (G2 & E2 & M2).
  destruct (scale_eta S HS) as (S0 & _). pose proof u_pos as U. assert (US : 0 < u * S) by (apply Rmult_lt_0_compat; lra).
  assert (T : forall a b c al be ga, isf a -> isf b -> isf c -> Rabs (val a - al) <= (k + 5) * (u * S) -> Rabs (val b - be) <= (k + 5) * (u * S) -> Rabs (val c - ga) <= (k + 5) * (u * S) ->
     Rabs al <= 4 * S -> Rabs be <= 4 * S -> Rabs ga <= 4 * S -> isf (a +! b +! c) /\ Rabs (val (a +! b +! c) - (al + be + ga)) <= (3 * k + 36) * (u * S)).
  { intros a b c al be ga Fa Fb Fc Ea Eb Ec Ma Mb Mc. assert (AB : Rabs (al + be) <= 8 * S) by (eapply Rle_trans; [apply Rabs_triang|]; lra).
    destruct (add_scaled _ _ _ _ (k + 5) (k + 5) 8 S HS Fa Fb Ea Eb) as [G3 E3]; try lra.
    destruct (add_scaled _ _ _ _ (k + 5 + (k + 5) + 8 + 1 / 10) (k + 5) 12 S HS G3 Fc E3 Ec) as [G4 E4]; try lra; [eapply Rle_trans; [apply Rabs_triang|]; lra|].
    split; auto. eapply Rle_trans; [exact E4|]. clear - US Hk. nra. }
  pattern (sum3 L (r0 *! h0) (r1 *! h1) (r2 *! h2)). apply sum3_ind.
  - apply T; auto.
  - replace (p0 * val h0 + p1 * val h1 + p2 * val h2) with (p0 * val h0 + p2 * val h2 + p1 * val h1) by ring. apply T; auto.
  - replace (p0 * val h0 + p1 * val h1 + p2 * val h2) with (p1 * val h1 + p2 * val h2 + p0 * val h0) by ring. apply T; auto.
Qed.

(** ** The rotation between two nearly unit vectors *)
Lemma entry d h q s de et ka si : app d de 0 -> app h et (193 / 10) -> app q ka 82 -> app s si 32 ->
  Rabs de <= 1 -> Rabs et <= 1001 / 1000 -> Rabs ka <= 101 / 100 -> 98 / 100 <= si ->
  app (d +! h +! q /! s) (de + et + ka / si) 263 /\ Rabs (de + et + ka / si) <= 4.
Proof.
  intros Ad Ah Aq As Hd Hh Hq Hs.
  assert (Q : Rabs (ka / si) <= 105 / 100).
  { unfold Rdiv. rewrite Rabs_mult, (Rabs_pos_eq (/ si)) by (apply Rlt_le, Rinv_0_lt_compat; lra). apply Rmult_le_reg_r with si; [lra|].
    rewrite Rmult_assoc, Rinv_l, Rmult_1_r by lra. lra. }
  assert (S : Rabs (de + et) <= 2001 / 1000) by (eapply Rle_trans; [apply Rabs_triang|]; lra).
  assert (T : Rabs (de + et + ka / si) <= 306 / 100) by (eapply Rle_trans; [apply Rabs_triang|]; lra).
  split; [|lra]. pose proof u_pos. assert (u <= 1 / 100000) by (rewrite u_val; lra).
  eapply app_weak; [eapply app_addP; [eapply (app_addP d h _ _ 0 (193 / 10) (2001 / 1000)); eauto; lra
    |eapply (app_div q s ka si 82 32 (105 / 100) (101 / 100) (98 / 100)); eauto; try lra; rewrite Rabs_pos_eq; lra|exact T|..]|]; try lra.
Qed.

Section Rot.
Variable L : libm.
Local Notation SK := (F64 L).
Lemma rot64 x0 x1 x2 y0 y1 y2 Y0 Y1 Y2 : isf x0 -> isf x1 -> isf x2 -> sq3 (val x0) (val x1) (val x2) <= 1 + 1 / 1000 ->
  app y0 Y0 8 -> app y1 Y1 8 -> app y2 Y2 8 -> sq3 Y0 Y1 Y2 = 1 -> - (1 / 100) <= val x0 * Y0 + val x1 * Y1 + val x2 * Y2 ->
  let F := rotbt [val x0; val x1; val x2] [Y0; Y1; Y2] in
  exists A : m3 f64, computeRotBetweenVec (SK:=SK) [x0; x1; x2] [y0; y1; y2] = Ok A /\
    (app (a00 A) (a00 F) 263 /\ app (a01 A) (a01 F) 263 /\ app (a02 A) (a02 F) 263 /\
     app (a10 A) (a10 F) 263 /\ app (a11 A) (a11 F) 263 /\ app (a12 A) (a12 F) 263 /\
     app (a20 A) (a20 F) 263 /\ app (a21 A) (a21 F) 263 /\ app (a22 A) (a22 F) 263) /\
    (Rabs (a00 F) <= 4 /\ Rabs (a01 F) <= 4 /\ Rabs (a02 F) <= 4 /\ Rabs (a10 F) <= 4 /\ Rabs (a11 F) <= 4 /\ Rabs (a12 F) <= 4 /\
     Rabs (a20 F) <= 4 /\ Rabs (a21 F) <= 4 /\ Rabs (a22 F) <= 4).
Proof.
  intros F0 F1 F2 HX A0 A1 A2 HY HD F. unfold sq3 in *.
  set (X0 := val x0) in *. set (X1 := val x1) in *. set (X2 := val x2) in *.
  assert (BX : forall a, a * a <= 1 + 1 / 1000 -> Rabs a <= 1001 / 1000) by (intros a H; apply Rabs_le; nra).
  assert (BY : forall a, a * a <= 1 -> Rabs a <= 1) by (intros a H; apply Rabs_le; nra).
  assert (M0 : Rabs X0 <= 1001 / 1000) by (apply BX; nra). assert (M1 : Rabs X1 <= 1001 / 1000) by (apply BX; nra). assert (M2 : Rabs X2 <= 1001 / 1000) by (apply BX; nra).
  assert (N0 : Rabs Y0 <= 1) by (apply BY; nra). assert (N1 : Rabs Y1 <= 1) by (apply BY; nra). assert (N2 : Rabs Y2 <= 1) by (apply BY; nra).
  assert (Mu : forall a b Y, isf a -> Rabs (val a) <= 1001 / 1000 -> app b Y 8 -> Rabs Y <= 1 -> app (a *! b) (val a * Y) (91 / 10) /\ Rabs (val a * Y) <= 1001 / 1000).
  { intros a b Y Fa Ha Ab Hb. split; [|rewrite Rabs_mult; replace (1001 / 1000) with (1001 / 1000 * 1) by ring; apply Rmult_le_compat; auto using Rabs_pos].
    eapply app_weak; [eapply (app_mul a b _ _ 0 8 (1001 / 1000) 1); auto using app_exact; lra|lra]. }
  set (p := X1 * Y2 - X2 * Y1). set (q := X2 * Y0 - X0 * Y2). set (r := X0 * Y1 - X1 * Y0). set (D := X0 * Y0 + X1 * Y1 + X2 * Y2) in *.
  assert (LG : p * p + q * q + r * r + D * D <= 1 + 1 / 1000).
  { assert (E : p * p + q * q + r * r + D * D = (X0 * X0 + X1 * X1 + X2 * X2) * (Y0 * Y0 + Y1 * Y1 + Y2 * Y2)) by (unfold p, q, r, D; ring). rewrite E, HY. lra. }
  assert (P0 : Rabs p <= 1001 / 1000) by (apply BX; nra). assert (P1 : Rabs q <= 1001 / 1000) by (apply BX; nra). assert (P2 : Rabs r <= 1001 / 1000) by (apply BX; nra).
  assert (PD : Rabs D <= 1001 / 1000) by (apply BX; nra).
  assert (Sb : forall a b c d Ya Yb, isf a -> Rabs (val a) <= 1001 / 1000 -> app b Yb 8 -> Rabs Yb <= 1 -> isf c -> Rabs (val c) <= 1001 / 1000 -> app d Ya 8 -> Rabs Ya <= 1 ->
     Rabs (val a * Yb - val c * Ya) <= 1001 / 1000 -> app (a *! b -! c *! d) (val a * Yb - val c * Ya) (193 / 10)).
  { intros a b c d Ya Yb Fa Ha Ab Hb Fc Hc Ad Hd HP. destruct (Mu a b Yb Fa Ha Ab Hb) as [U1 _]. destruct (Mu c d Ya Fc Hc Ad Hd) as [U2 _].
    eapply app_weak; [eapply (app_subP _ _ _ _ (91 / 10) (91 / 10) (1001 / 1000)); [exact U1|exact U2|exact HP|..]; lra|lra]. }
  pose proof (Sb x1 y2 x2 y1 Y1 Y2 F1 M1 A2 N2 F2 M2 A1 N1 P0) as C0.
  pose proof (Sb x2 y0 x0 y2 Y2 Y0 F2 M2 A0 N0 F0 M0 A2 N2 P1) as C1.
  pose proof (Sb x0 y1 x1 y0 Y0 Y1 F0 M0 A1 N1 F1 M1 A0 N0 P2) as C2.
  fold X0 X1 X2 in C0, C1, C2. fold p in C0. fold q in C1. fold r in C2.
  set (c0 := x1 *! y2 -! x2 *! y1) in *. set (c1 := x2 *! y0 -! x0 *! y2) in *. set (c2 := x0 *! y1 -! x1 *! y0) in *.
  assert (DD : app (sum3 L (x0 *! y0) (x1 *! y1) (x2 *! y2)) D (295 / 10)).
  { destruct (Mu x0 y0 Y0 F0 M0 A0 N0) as [U0 _]. destruct (Mu x1 y1 Y1 F1 M1 A1 N1) as [U1 _]. destruct (Mu x2 y2 Y2 F2 M2 A2 N2) as [U2 _].
    fold X0 in U0. fold X1 in U1. fold X2 in U2.
    assert (PP : forall a b c d, a * a + b * b <= 1 + 1 / 1000 -> c * c + d * d <= 1 -> Rabs (a * c + b * d) <= 1001 / 1000).
    { intros a b c d H1 H2. apply BX. assert ((a * c + b * d) * (a * c + b * d) + (a * d - b * c) * (a * d - b * c) = (a * a + b * b) * (c * c + d * d)) by ring.
      pose proof (Rle_0_sqr (a * d - b * c)) as SQ. unfold Rsqr in SQ. assert ((a * a + b * b) * (c * c + d * d) <= (1 + 1 / 1000) * 1) by (apply Rmult_le_compat; clear - H1 H2; nra). lra. }
    assert (T : forall a b c al be ga, app a al (91 / 10) -> app b be (91 / 10) -> app c ga (91 / 10) -> Rabs (al + be) <= 1001 / 1000 -> al + be + ga = D -> app (a +! b +! c) D (295 / 10)).
    { intros a b c al be ga Aa Ab Ac Hab HD'. eapply app_weak; [eapply app_eq; [eapply app_addP; [eapply app_addP; [exact Aa|exact Ab|exact Hab|..]|exact Ac|rewrite HD'; exact PD|..]|exact HD']|]; lra. }
    apply sum3_ind; [eapply (T _ _ _ _ _ _ U0 U1 U2)|eapply (T _ _ _ _ _ _ U0 U2 U1)|eapply (T _ _ _ _ _ _ U1 U2 U0)]; try (apply PP; clear - HX HY; nra); unfold D; ring. }
  set (dd := sum3 L (x0 *! y0) (x1 *! y1) (x2 *! y2)) in *.
  destruct (of_Z_ok 1 eq_refl) as [G1 V1]. destruct (of_Z_ok 0 eq_refl) as [G0 V0].
  assert (One : app (of_Z 1) 1 0) by (eapply app_eq; [apply app_exact; auto|auto]). assert (Zer : app (of_Z 0) 0 0) by (eapply app_eq; [apply app_exact; auto|auto]).
  assert (SS : app (of_Z 1 +! dd) (1 + D) 32).
  { eapply app_weak; [eapply (app_addP _ _ 1 D 0 (295 / 10) (201 / 100)); [exact One|exact DD|..]; try lra|lra]. apply Rabs_ends in PD. apply Rabs_le. lra. }
  set (ss := of_Z 1 +! dd) in *.
  assert (Hs : 98 / 100 <= 1 + D) by lra.
  assert (Mm : forall a b A B, app a A (193 / 10) -> app b B (193 / 10) -> Rabs A <= 1001 / 1000 -> Rabs B <= 1001 / 1000 -> app (a *! b) (A * B) 40 /\ Rabs (A * B) <= 101 / 100).
  { intros a b A B Aa Ab Ha Hb. split; [eapply app_weak; [eapply (app_mul a b A B (193 / 10) (193 / 10) (1001 / 1000) (1001 / 1000)); auto; lra|lra]|].
    rewrite Rabs_mult. apply Rle_trans with (1001 / 1000 * (1001 / 1000)); [apply Rmult_le_compat; auto using Rabs_pos|lra]. }
  assert (Dg : forall a b A B, app a A (193 / 10) -> app b B (193 / 10) -> A * A + B * B <= 1 + 1 / 1000 -> app (Bopp (a *! a) -! b *! b) (- (A * A) - B * B) 82 /\ Rabs (- (A * A) - B * B) <= 101 / 100).
  { intros a b A B Aa Ab H. assert (Rabs A <= 1001 / 1000) by (apply BX; nra). assert (Rabs B <= 1001 / 1000) by (apply BX; nra).
    destruct (Mm a a A A Aa Aa) as [Q1 _]; auto. destruct (Mm b b B B Ab Ab) as [Q2 _]; auto.
    assert (Z : Rabs (- (A * A) - B * B) <= 101 / 100) by (apply Rabs_le; nra). split; auto.
    eapply app_weak; [eapply (app_subP _ _ _ _ 40 40 (101 / 100)); [apply app_opp; exact Q1|exact Q2|exact Z|..]; lra|lra]. }
  assert (W : forall k a A l, app a A k -> k <= l -> app a A l) by (intros; eapply app_weak; eauto).
  assert (R0 : Rabs 0 <= 1) by (rewrite Rabs_R0; lra). assert (R0' : Rabs 0 <= 1001 / 1000) by (rewrite Rabs_R0; lra). assert (R1 : Rabs 1 <= 1) by (rewrite Rabs_R1; lra).
  assert (Zer' : app (of_Z 0) 0 (193 / 10)) by (eapply W; [exact Zer|lra]).
  pose proof (app_opp _ _ _ C0) as O0. pose proof (app_opp _ _ _ C1) as O1. pose proof (app_opp _ _ _ C2) as O2.
  assert (NN : forall a, Rabs a <= 1001 / 1000 -> Rabs (- a) <= 1001 / 1000) by (intros a; rewrite Rabs_Ropp; auto).
  destruct (Mm c0 c1 p q C0 C1 P0 P1) as [E01 B01]. destruct (Mm c1 c2 q r C1 C2 P1 P2) as [E12 B12]. destruct (Mm c2 c0 r p C2 C0 P2 P0) as [E20 B20].
  assert (W82 : forall a A, app a A 40 -> app a A 82) by (intros; eapply W; [eassumption|lra]). apply W82 in E01, E12, E20.
  destruct (Dg c1 c2 q r C1 C2 ltac:(nra)) as [Q0 T0]. destruct (Dg c0 c2 p r C0 C2 ltac:(nra)) as [Q1 T1]. destruct (Dg c0 c1 p q C0 C1 ltac:(nra)) as [Q2 T2].
  pose proof (entry _ _ _ _ _ _ _ _ One Zer' Q0 SS R1 R0' T0 Hs) as [e00 b00].
  pose proof (entry _ _ _ _ _ _ _ _ Zer O2 E01 SS R0 (NN _ P2) B01 Hs) as [e01 b01].
  pose proof (entry _ _ _ _ _ _ _ _ Zer C1 E20 SS R0 P1 B20 Hs) as [e02 b02].
  pose proof (entry _ _ _ _ _ _ _ _ Zer C2 E01 SS R0 P2 B01 Hs) as [e10 b10].
  pose proof (entry _ _ _ _ _ _ _ _ One Zer' Q1 SS R1 R0' T1 Hs) as [e11 b11].
  pose proof (entry _ _ _ _ _ _ _ _ Zer O0 E12 SS R0 (NN _ P0) B12 Hs) as [e12 b12].
  pose proof (entry _ _ _ _ _ _ _ _ Zer O1 E20 SS R0 (NN _ P1) B20 Hs) as [e20 b20].
  pose proof (entry _ _ _ _ _ _ _ _ Zer C0 E12 SS R0 P0 B12 Hs) as [e21 b21].
  pose proof (entry _ _ _ _ _ _ _ _ One Zer' Q2 SS R1 R0' T2 Hs) as [e22 b22].
  eexists. split.
  { unfold computeRotBetweenVec. cbn [as_vec3 List.length Nat.eqb eigen_assert bind cross dot map2 ksum hat hat2 kmul ksub kadd kopp k0 k1 klit kltb SK F64].
    fold c0 c1 c2 dd ss. 
    assert (LT : Bltb (of_Z 1 /! of_Z 1000000000000) ss = true).
    { destruct (lit_ok 1 1000000000000 eq_refl eq_refl) as [Fl El]. destruct SS as [Fs Es]. rewrite f_ltb by auto. apply Rlt_bool_true.
      apply Rabs_ends in El, Es. rewrite Rabs_pos_eq in El by lra. pose proof eta_u. assert (u <= 1 / 100000) by (rewrite u_val; lra). lra. }
    rewrite LT. cbn [mnf_assert bind]. reflexivity. }
  assert (EF : F = rodrigues 1 (/ (1 + D)) p q r).
  { unfold F, rotbt. cbn [rcross]. fold X0 X1 X2 p q r. replace (rdot [X0; X1; X2] [Y0; Y1; Y2]) with D by (unfold D; cbn [rdot]; ring). reflexivity. }
  rewrite EF. unfold m3_map2, m3_divs, m3_id, rodrigues. cbn [m3_map2 a00 a01 a02 a10 a11 a12 a20 a21 a22 kadd kdiv k0 k1 SK F64].
  split; [repeat match goal with |- _ /\ _ => split end; eapply app_eq; try eassumption; field; lra|].
  repeat match goal with |- _ /\ _ => split end;
   [replace (1 - _) with (1 + 0 + (- (q * q) - r * r) / (1 + D)) by (field; lra)
   |replace (_ + _) with (0 + - r + p * q / (1 + D)) by (field; lra)
   |replace (_ + _) with (0 + q + r * p / (1 + D)) by (field; lra)
   |replace (_ + _) with (0 + r + p * q / (1 + D)) by (field; lra)
   |replace (1 - _) with (1 + 0 + (- (p * p) - r * r) / (1 + D)) by (field; lra)
   |replace (_ + _) with (0 + - p + q * r / (1 + D)) by (field; lra)
   |replace (_ + _) with (0 + - q + r * p / (1 + D)) by (field; lra)
   |replace (_ + _) with (0 + p + q * r / (1 + D)) by (field; lra)
   |replace (1 - _) with (1 + 0 + (- (p * p) - q * q) / (1 + D)) by (field; lra)]; assumption.
Qed.
End Rot.

(** ** Starting point close to the sphere *)
Lemma g_bound r c d : Rabs (r - 1) <= d -> d <= 1 / 1000 -> - (1 / 50) <= c <= 1 -> Rabs (/ (1 + r * c) * (r * r) - / (1 + c)) <= 32 / 10 * d.
Proof.
  intros H Hd Hc. apply Rabs_ends in H. assert (R1 : 99 / 100 <= r <= 101 / 100) by lra.
  assert (rc : - (3 / 100) <= r * c <= 101 / 100) by nra. assert (P1 : 97 / 100 <= 1 + r * c) by lra. assert (P2 : 98 / 100 <= 1 + c) by lra.
  replace (/ (1 + r * c) * (r * r) - / (1 + c)) with ((r - 1) * (r + 1 + r * c) * / ((1 + r * c) * (1 + c))) by (field; split; lra).
  assert (P3 : 9506 / 10000 <= (1 + r * c) * (1 + c)) by nra. rewrite Rabs_mult, (Rabs_pos_eq (/ _)) by (apply Rlt_le, Rinv_0_lt_compat; lra).
  apply Rmult_le_reg_r with ((1 + r * c) * (1 + c)); [lra|]. rewrite Rmult_assoc, Rinv_l, Rmult_1_r by lra.
  rewrite Rabs_mult, (Rabs_pos_eq (r + 1 + r * c)) by lra.
  assert (Rabs (r - 1) <= d) by (apply Rabs_le; lra). assert (D0 : 0 <= d) by lra.
  apply Rle_trans with (d * (302 / 100)); [apply Rmult_le_compat; auto using Rabs_pos; lra|].
  apply Rle_trans with (32 / 10 * d * (9506 / 10000)); [lra|]. apply Rmult_le_compat_l; lra.
Qed.
Definition ment (P : R -> R -> Prop) (A B : m3 R) : Prop :=
  P (a00 A) (a00 B) /\ P (a01 A) (a01 B) /\ P (a02 A) (a02 B) /\ P (a10 A) (a10 B) /\ P (a11 A) (a11 B) /\ P (a12 A) (a12 B) /\
  P (a20 A) (a20 B) /\ P (a21 A) (a21 B) /\ P (a22 A) (a22 B).
Lemma rotbt_scale r a b c Y0 Y1 Y2 d : Rabs (r - 1) <= d -> d <= 1 / 1000 -> sq3 a b c = 1 -> sq3 Y0 Y1 Y2 = 1 -> - (1 / 50) <= a * Y0 + b * Y1 + c * Y2 ->
  ment (fun f q => Rabs (f - q) <= 5 * d) (rotbt [r * a; r * b; r * c] [Y0; Y1; Y2]) (rotbt [a; b; c] [Y0; Y1; Y2]).
Proof.
  intros H Hd HX HY HC. unfold sq3 in *. set (D := a * Y0 + b * Y1 + c * Y2) in *.
  unfold rotbt. cbn [rcross]. set (p := b * Y2 - c * Y1). set (q := c * Y0 - a * Y2). set (s := a * Y1 - b * Y0).
  replace (rdot [a; b; c] [Y0; Y1; Y2]) with D by (unfold D; cbn [rdot]; ring).
  replace (rdot [r * a; r * b; r * c] [Y0; Y1; Y2]) with (r * D) by (unfold D; cbn [rdot]; ring).
  replace (r * b * Y2 - r * c * Y1) with (r * p) by (unfold p; ring). replace (r * c * Y0 - r * a * Y2) with (r * q) by (unfold q; ring). replace (r * a * Y1 - r * b * Y0) with (r * s) by (unfold s; ring).
  assert (LG : p * p + q * q + s * s + D * D = 1).
  { transitivity ((a * a + b * b + c * c) * (Y0 * Y0 + Y1 * Y1 + Y2 * Y2)); [unfold p, q, s, D; ring|rewrite HX, HY; ring]. }
  assert (HD : - (1 / 50) <= D <= 1) by (split; [auto|]; pose proof (Rle_0_sqr p); pose proof (Rle_0_sqr q); pose proof (Rle_0_sqr s); unfold Rsqr in *; nra).
  pose proof (g_bound r D d H Hd HD) as G. set (k := / (1 + r * D)) in *. set (l := / (1 + D)) in *.
  set (g := k * (r * r) - l) in *. clearbody D p q s k l. clear HX HY HC a b c Y0 Y1 Y2.
  pose proof (Rle_0_sqr p) as Sp. pose proof (Rle_0_sqr q) as Sq. pose proof (Rle_0_sqr s) as Ss. pose proof (Rle_0_sqr D) as SD. unfold Rsqr in *.
  assert (D0 : 0 <= d) by (pose proof (Rabs_pos (r - 1)); lra).
  assert (T : forall m, Rabs m <= 1 -> Rabs (g * m) <= 32 / 10 * d).
  { intros m Hm. rewrite Rabs_mult. replace (32 / 10 * d) with (32 / 10 * d * 1) by ring. apply Rmult_le_compat; auto using Rabs_pos. }
  assert (O : forall z m, z * z <= 1 -> Rabs m <= 1 -> Rabs ((r - 1) * z + g * m) <= 5 * d).
  { intros z m Hz Hm. eapply Rle_trans; [apply Rabs_triang|]. pose proof (T m Hm). rewrite Rabs_mult. assert (Rabs z <= 1) by (apply Rabs_le; nra).
    assert (Rabs (r - 1) * Rabs z <= d * 1) by (apply Rmult_le_compat; auto using Rabs_pos). lra. }
  assert (I : forall m n, m * m + n * n <= 1 -> Rabs (m * n) <= 1).
  { intros m n Hmn. apply Rabs_le. pose proof (Rle_0_sqr (m + n)). pose proof (Rle_0_sqr (m - n)). unfold Rsqr in *. split; lra. }
  assert (J : forall m n, m * m + n * n <= 1 -> Rabs (- (m * m + n * n)) <= 1).
  { intros m n Hmn. rewrite Rabs_Ropp, Rabs_pos_eq; auto. pose proof (Rle_0_sqr m). pose proof (Rle_0_sqr n). unfold Rsqr in *. lra. }
  unfold ment, rodrigues. cbn [a00 a01 a02 a10 a11 a12 a20 a21 a22].
  repeat match goal with |- _ /\ _ => split end.
  - replace (_ - _) with ((r - 1) * 0 + g * (- (q * q + s * s))) by (unfold g; ring). apply O; [lra|apply J; lra].
  - replace (_ - _) with ((r - 1) * (- s) + g * (p * q)) by (unfold g; ring). apply O; [lra|apply I; lra].
  - replace (_ - _) with ((r - 1) * q + g * (p * s)) by (unfold g; ring). apply O; [lra|apply I; lra].
  - replace (_ - _) with ((r - 1) * s + g * (p * q)) by (unfold g; ring). apply O; [lra|apply I; lra].
  - replace (_ - _) with ((r - 1) * 0 + g * (- (p * p + s * s))) by (unfold g; ring). apply O; [lra|apply J; lra].
  - replace (_ - _) with ((r - 1) * (- p) + g * (q * s)) by (unfold g; ring). apply O; [lra|apply I; lra].
  - replace (_ - _) with ((r - 1) * (- q) + g * (p * s)) by (unfold g; ring). apply O; [lra|apply I; lra].
  - replace (_ - _) with ((r - 1) * p + g * (q * s)) by (unfold g; ring). apply O; [lra|apply I; lra].
  - replace (_ - _) with ((r - 1) * 0 + g * (- (p * p + q * q))) by (unfold g; ring). apply O; [lra|apply J; lra].
Qed.

(** Directions orthogonal to both vectors do not move. *)
Lemma rotbt_fixes x y c : length x = 3%nat -> length y = 3%nat -> length c = 3%nat -> rdot c x = 0 -> rdot c y = 0 -> rmulv (rotbt x y) c = c.
Proof.
  intros Lx Ly Lc. destruct x as [|x0 [|x1 [|x2 [|]]]]; try discriminate Lx. destruct y as [|y0 [|y1 [|y2 [|]]]]; try discriminate Ly. destruct c as [|c0 [|c1 [|c2 [|]]]]; try discriminate Lc.
  intros Hx Hy. unfold rotbt, rcross. set (k := / (1 + _)). clearbody k. cbn [rdot] in Hx, Hy.
  set (p := x1 * y2 - x2 * y1). set (q := x2 * y0 - x0 * y2). set (r := x0 * y1 - x1 * y0).
  assert (T0 : q * c2 - r * c1 = 0) by (transitivity (y0 * (c0 * x0 + (c1 * x1 + (c2 * x2 + 0))) - x0 * (c0 * y0 + (c1 * y1 + (c2 * y2 + 0)))); [unfold q, r; ring|rewrite Hx, Hy; ring]).
  assert (T1 : r * c0 - p * c2 = 0) by (transitivity (y1 * (c0 * x0 + (c1 * x1 + (c2 * x2 + 0))) - x1 * (c0 * y0 + (c1 * y1 + (c2 * y2 + 0)))); [unfold p, r; ring|rewrite Hx, Hy; ring]).
  assert (T2 : p * c1 - q * c0 = 0) by (transitivity (y2 * (c0 * x0 + (c1 * x1 + (c2 * x2 + 0))) - x2 * (c0 * y0 + (c1 * y1 + (c2 * y2 + 0)))); [unfold p, q; ring|rewrite Hx, Hy; ring]).
  unfold rmulv, rodrigues. cbn [a00 a01 a02 a10 a11 a12 a20 a21 a22 rdot]. f_equal; [|f_equal; [|f_equal]].
  - transitivity (c0 + (q * c2 - r * c1) + k * (q * (p * c1 - q * c0) - r * (r * c0 - p * c2))); [ring|rewrite T0, T1, T2; ring].
  - transitivity (c1 + (r * c0 - p * c2) + k * (r * (q * c2 - r * c1) - p * (p * c1 - q * c0))); [ring|rewrite T0, T1, T2; ring].
  - transitivity (c2 + (p * c1 - q * c0) + k * (p * (r * c0 - p * c2) - q * (q * c2 - r * c1))); [ring|rewrite T0, T1, T2; ring].
Qed.

(** ** One leaf *)
Definition ent (d : R) (a : f64) (q : R) : Prop := exists p, app a p 263 /\ Rabs p <= 4 /\ Rabs (p - q) <= 5 * d.
Definition ments (d : R) (A : m3 f64) (Q : m3 R) : Prop :=
  ent d (a00 A) (a00 Q) /\ ent d (a01 A) (a01 Q) /\ ent d (a02 A) (a02 Q) /\ ent d (a10 A) (a10 Q) /\ ent d (a11 A) (a11 Q) /\ ent d (a12 A) (a12 Q) /\
  ent d (a20 A) (a20 Q) /\ ent d (a21 A) (a21 Q) /\ ent d (a22 A) (a22 Q).
Lemma ments_trans d A Q : ments d A Q -> ments d (m3_trans A) (rtr Q).
Proof. unfold ments, m3_trans, rtr. cbn [a00 a01 a02 a10 a11 a12 a20 a21 a22]. tauto. Qed.
Lemma row_scaled L r0 r1 r2 h0 h1 h2 q0 q1 q2 d S : scale S -> 0 <= d -> ent d r0 q0 -> ent d r1 q1 -> ent d r2 q2 -> isf h0 -> isf h1 -> isf h2 ->
  Rabs (val h0) <= S -> Rabs (val h1) <= S -> Rabs (val h2) <= S ->
  isf (sum3 L (r0 *! h0) (r1 *! h1) (r2 *! h2)) /\
  Rabs (val (sum3 L (r0 *! h0) (r1 *! h1) (r2 *! h2)) - (q0 * val h0 + (q1 * val h1 + (q2 * val h2 + 0)))) <= (825 * u + 15 * d) * S.
Proof.
  intros HS D0 (p0 & A0 & B0 & C0) (p1 & A1 & B1 & C1) (p2 & A2 & B2 & C2) F0 F1 F2 H0 H1 H2.
  destruct (dot_scaled L r0 r1 r2 h0 h1 h2 p0 p1 p2 263 S HS A0 A1 A2) as [F E]; auto; [lra|]. split; auto.
  assert (T : forall p q h, Rabs (p - q) <= 5 * d -> Rabs h <= S -> Rabs ((p - q) * h) <= 5 * d * S) by (intros; rewrite Rabs_mult; apply Rmult_le_compat; auto using Rabs_pos).
  pose proof (T _ _ _ C0 H0) as T0. pose proof (T _ _ _ C1 H1) as T1. pose proof (T _ _ _ C2 H2) as T2.
  apply Rabs_ends in E, T0, T1, T2. apply Rabs_le. lra.
Qed.
Lemma mulv_scaled d A Q h S : scale S -> 0 <= d -> ments d A Q -> length h = 3%nat -> Forall (fun a => isf a /\ Rabs (val a) <= S) h -> forall L,
  Forall isf (m3_mulv (SK:=F64 L) A h) /\ near_v ((825 * u + 15 * d) * S) (map val (m3_mulv (SK:=F64 L) A h)) (rmulv Q (map val h)).
Proof.
  intros HS D0 (E00 & E01 & E02 & E10 & E11 & E12 & E20 & E21 & E22) Lh Fh L.
  destruct h as [|h0 [|h1 [|h2 [|]]]]; try discriminate Lh. inversion Fh as [|? ? [F0 H0] Fh1]; subst. inversion Fh1 as [|? ? [F1 H1] Fh2]; subst. inversion Fh2 as [|? ? [F2 H2] _]; subst.
  destruct (row_scaled L _ _ _ h0 h1 h2 _ _ _ d S HS D0 E00 E01 E02) as [G0 N0]; auto. destruct (row_scaled L _ _ _ h0 h1 h2 _ _ _ d S HS D0 E10 E11 E12) as [G1 N1]; auto.
  destruct (row_scaled L _ _ _ h0 h1 h2 _ _ _ d S HS D0 E20 E21 E22) as [G2 N2]; auto.
  unfold m3_mulv, rmulv. cbn [dot map2 ksum kadd kmul F64 map rdot]. split; [repeat (constructor; [assumption|]); constructor|]. repeat (constructor; [assumption|]); constructor.
Qed.

Section Leaf.
Variable L : libm.
Local Notation SK := (F64 L).
Lemma norm3_pos N : 999 / 1000 <= N -> 0 < sqrt N /\ sqrt N * sqrt N = N.
Proof. intros H. split; [apply sqrt_lt_R0; lra|apply sqrt_sqrt; lra]. Qed.
Lemma s2_trans64 x v d : length x = 3%nat -> Forall isf x -> Rabs (rdot (map val x) (map val x) - 1) <= d -> d <= 1 / 1000 ->
  length v = 3%nat -> Forall (fun a => Rabs (val a) <= bpow radix2 400) v -> s2_isInTxM (SK:=SK) x v (lit8 L) = true ->
  let X := map val x in let W := radd X (map val v) in
  exists (y : list f64) (A : m3 f64) (Q : m3 R), (forall out, length out = 3%nat -> s2_retractation (SK:=SK) out x v = Ok y) /\ computeRotBetweenVec (SK:=SK) x y = Ok A /\
    rot Q /\ rmulv Q (rscal (/ rnorm X) X) = rscal (/ rnorm W) W /\
    (forall c, length c = 3%nat -> rdot c X = 0 -> rdot c W = 0 -> rmulv Q c = c) /\ ments d A Q.
Proof.
  intros Lx Fx HX Hd Lv Hv T X W. destruct x as [|x0 [|x1 [|x2 [|]]]]; try discriminate Lx. destruct v as [|v0 [|v1 [|v2 [|]]]]; try discriminate Lv.
  inversion Fx as [|? ? F0 Fx1]; subst. inversion Fx1 as [|? ? F1 Fx2]; subst. inversion Fx2 as [|? ? F2 _]; subst.
  inversion Hv as [|? ? B0 Hv1]; subst. inversion Hv1 as [|? ? B1 Hv2]; subst. inversion Hv2 as [|? ? B2 _]; subst. clear Fx Fx1 Fx2 Hv Hv1 Hv2 Lx Lv.
  cbn [map rdot] in HX.
  assert (SX : Rabs (sq3 (val x0) (val x1) (val x2) - 1) <= d) by (unfold sq3; eapply Rle_trans; [|exact HX]; right; f_equal; ring).
  pose proof (Rabs_ends _ _ SX) as SXe.
  destruct (s2_step L x0 x1 x2 v0 v1 v2 [x0; x1; x2] F0 F1 F2 ltac:(lra) B0 B1 B2 eq_refl T) as (y0 & y1 & y2 & Ey & G0 & G1 & G2 & _ & WL & E0 & E1 & E2).
  set (w0 := val x0 + val v0) in *. set (w1 := val x1 + val v1) in *. set (w2 := val x2 + val v2) in *. set (N := sq3 w0 w1 w2) in *.
  assert (SW : 0 < sqrt N) by (apply sqrt_lt_R0; lra). assert (SWW : sqrt N * sqrt N = N) by (apply sqrt_sqrt; lra).
  assert (SH : 1 / 2 <= sqrt N). { apply Rsqr_incr_0_var; [|apply sqrt_pos]. unfold Rsqr. rewrite SWW. lra. }
  set (n := sqrt N) in *. set (Y0 := w0 / n) in *. set (Y1 := w1 / n) in *. set (Y2 := w2 / n) in *.
  assert (HY : sq3 Y0 Y1 Y2 = 1).
  { unfold sq3, Y0, Y1, Y2. replace (w0 / n * (w0 / n) + w1 / n * (w1 / n) + w2 / n * (w2 / n)) with (N / (n * n)) by (unfold N, sq3; field; lra). rewrite SWW. field. lra. }
  set (M := sq3 (val x0) (val x1) (val x2)) in *. assert (M1 : 999 / 1000 <= M) by lra. destruct (norm3_pos M M1) as [RM RR]. set (r := sqrt M) in *.
  assert (Hr : Rabs (r - 1) <= d) by (apply Rabs_le; split; nra).
  (* the scalar product with the starting point *)
  assert (DV : - (2 / 100000000) - 36 * (u * (11 * n + 1)) <= val x0 * val v0 + val x1 * val v1 + val x2 * val v2).
  { assert (XB : forall a, a * a <= 101 / 100 -> Rabs a <= 101 / 100) by (intros a H; apply Rabs_le; nra). 
    assert (X0 : Rabs (val x0) <= 101 / 100) by (apply XB; unfold M, sq3 in *; nra). assert (X1 : Rabs (val x1) <= 101 / 100) by (apply XB; unfold M, sq3 in *; nra). assert (X2 : Rabs (val x2) <= 101 / 100) by (apply XB; unfold M, sq3 in *; nra).
    assert (V : forall w x v, w = x + v -> w * w <= N -> Rabs x <= 101 / 100 -> Rabs v <= n + 101 / 100).
    { intros w x v -> Hw Hx. replace v with ((x + v) - x) by ring. unfold Rminus. eapply Rle_trans; [apply Rabs_triang|]. rewrite Rabs_Ropp. assert (Rabs (x + v) <= n) by (apply Rabs_le; split; nra). lra. }
    pose proof (V w0 (val x0) (val v0) eq_refl ltac:(unfold N, sq3; nra) X0) as V0. pose proof (V w1 (val x1) (val v1) eq_refl ltac:(unfold N, sq3; nra) X1) as V1. pose proof (V w2 (val x2) (val v2) eq_refl ltac:(unfold N, sq3; nra) X2) as V2.
    assert (Hn : n <= 2 * bpow radix2 401).
    { assert (Q : forall x v, Rabs x <= 101 / 100 -> Rabs v <= bpow radix2 400 -> Rabs (x + v) <= bpow radix2 401).
      { intros a b Ha Hb. eapply Rle_trans; [apply Rabs_triang|]. change (bpow radix2 401) with (bpow radix2 (1 + 400)). rewrite bpow_plus. change (bpow radix2 1) with 2. assert (2 <= bpow radix2 400) by (apply (bpow_le radix2 1 400); lia). lra. }
      pose proof (Q _ _ X0 B0) as Q0. pose proof (Q _ _ X1 B1) as Q1. pose proof (Q _ _ X2 B2) as Q2. fold w0 in Q0. fold w1 in Q1. fold w2 in Q2. pose proof (bpow_gt_0 radix2 401) as PB. set (b := bpow radix2 401) in *.
      assert (SQ : forall a, Rabs a <= b -> a * a <= b * b) by (intros a Ha; apply Rabs_ends in Ha; nra).
      pose proof (SQ _ Q0). pose proof (SQ _ Q1). pose proof (SQ _ Q2). assert (N <= 3 * (b * b)) by (unfold N, sq3; lra). nra. }
    set (S := 11 * n + 1).
    assert (HS : scale S).
    { split; unfold S. - apply Rle_trans with 1; [apply (bpow_le radix2 (-900) 0); lia|lra].
      - apply Rle_trans with (bpow radix2 406); [|apply bpow_le; lia]. change (bpow radix2 406) with (bpow radix2 (5 + 401)). rewrite bpow_plus. change (bpow radix2 5) with 32. assert (1 <= bpow radix2 401) by (apply (bpow_le radix2 0 401); lia). lra. }
    assert (Fv : isf v0 /\ isf v1 /\ isf v2 /\ isf (sum3 L (x0 *! v0) (x1 *! v1) (x2 *! v2)) /\ Rabs (val (sum3 L (x0 *! v0) (x1 *! v1) (x2 *! v2))) <= 11 / 1000000000).
    { unfold s2_isInTxM in T. cbn [dot map2 ksum kabs kltb kadd kmul SK F64] in T. destruct (lit8_ok L) as [Fl [L1 L2]]. pose proof (ltb_fin _ _ Fl T) as FD.
      pose proof (sum3_fin _ _ _ _ FD) as (K3 & K4 & K2). apply mul_fin in K2 as (_ & Fv2 & _). apply mul_fin in K3 as (_ & Fv0 & _). apply mul_fin in K4 as (_ & Fv1 & _).
      repeat split; auto. rewrite f_ltb in T; [|apply f_abs; auto|auto]. apply Rlt_bool_lt' in T. destruct (f_abs _ FD) as [_ VA]. rewrite VA in T. lra. }
    destruct Fv as (Fv0 & Fv1 & Fv2 & FD & TD).
    destruct (dot_scaled L x0 x1 x2 v0 v1 v2 (val x0) (val x1) (val x2) 0 S HS) as [_ E]; auto using app_exact; try (unfold S; lra).
    apply Rabs_ends in E, TD. lra. }
  assert (U : 0 < u) by apply u_pos. assert (U1 : u <= 1 / 10000000000) by (rewrite u_val; lra).
  assert (XY : - (1 / 100) <= val x0 * Y0 + val x1 * Y1 + val x2 * Y2).
  { replace (val x0 * Y0 + val x1 * Y1 + val x2 * Y2) with ((M + (val x0 * val v0 + val x1 * val v1 + val x2 * val v2)) / n) by (unfold Y0, Y1, Y2, w0, w1, w2, M, sq3; field; lra).
    apply Rmult_le_reg_r with n; auto. unfold Rdiv. rewrite Rmult_assoc, Rinv_l, Rmult_1_r by lra. assert (u * n <= 1 / 10000000000 * n) by (apply Rmult_le_compat_r; lra). lra. }
  assert (A0 : app y0 Y0 8) by (split; auto). assert (A1 : app y1 Y1 8) by (split; auto). assert (A2 : app y2 Y2 8) by (split; auto).
  destruct (rot64 L x0 x1 x2 y0 y1 y2 Y0 Y1 Y2 F0 F1 F2 ltac:(fold M; lra) A0 A1 A2 HY XY) as (A & EA & EN & BN). cbv zeta in EN, BN.
  set (a := val x0 / r). set (b := val x1 / r). set (c := val x2 / r).
  assert (HU : sq3 a b c = 1). { unfold sq3, a, b, c. replace (_ + _ + _) with (M / (r * r)) by (unfold M, sq3; field; lra). rewrite RR. field. lra. }
  assert (rB : 999 / 1000 <= r <= 1001 / 1000) by (apply Rabs_ends in Hr; lra).
  assert (XU : - (1 / 50) <= a * Y0 + b * Y1 + c * Y2).
  { replace (a * Y0 + b * Y1 + c * Y2) with ((val x0 * Y0 + val x1 * Y1 + val x2 * Y2) / r) by (unfold a, b, c; field; lra).
    apply Rmult_le_reg_r with r; auto. unfold Rdiv. rewrite Rmult_assoc, Rinv_l, Rmult_1_r by lra. lra. }
  pose proof (rotbt_scale r a b c Y0 Y1 Y2 d Hr Hd HU HY XU) as ME.
  replace [r * a; r * b; r * c] with [val x0; val x1; val x2] in ME by (unfold a, b, c; f_equal; [field; lra|f_equal; [field; lra|f_equal; field; lra]]).
  exists [y0; y1; y2], A, (rotbt [a; b; c] [Y0; Y1; Y2]).
  assert (ND : 1 + rdot [a; b; c] [Y0; Y1; Y2] <> 0) by (cbn [rdot]; lra).
  assert (U2 : rdot [a; b; c] [a; b; c] = 1) by (rewrite <- HU; unfold sq3; cbn [rdot]; ring). assert (U3 : rdot [Y0; Y1; Y2] [Y0; Y1; Y2] = 1) by (rewrite <- HY; unfold sq3; cbn [rdot]; ring).
  split; [|split; [exact EA|split; [apply rotbt_rot; auto|split; [|split]]]].
  - intros out Lo. rewrite <- Ey. unfold s2_retractation. cbn [same_size List.length Nat.eqb eigen_assert bind vadd map2 as_vec3]. unfold assign. rewrite Lo. reflexivity.
  - assert (EX : rscal (/ rnorm X) X = [a; b; c]).
    { assert (RN : rnorm X = r) by (unfold rnorm, r, X; f_equal; unfold M, sq3; cbn [map rdot]; ring). rewrite RN. unfold X, rscal. cbn [map]. unfold a, b, c, Rdiv. f_equal; [ring|f_equal; [ring|f_equal; ring]]. }
    assert (EW : rscal (/ rnorm W) W = [Y0; Y1; Y2]).
    { assert (RN : rnorm W = n) by (unfold rnorm, n, W, X; f_equal; unfold N, sq3, w0, w1, w2; unfold radd; cbn [map combine fst snd rdot]; ring). rewrite RN. unfold W, X, rscal. unfold radd; cbn [map combine fst snd]. unfold Y0, Y1, Y2, w0, w1, w2, Rdiv. f_equal; [ring|f_equal; [ring|f_equal; ring]]. }
    rewrite EX, EW. apply rotbt_maps; auto.
  - intros g Lg Hx Hw. destruct g as [|g0 [|g1 [|g2 [|]]]]; try discriminate Lg. apply rotbt_fixes; auto; cbn [rdot].
    + replace (g0 * a + (g1 * b + (g2 * c + 0))) with ((g0 * val x0 + (g1 * val x1 + (g2 * val x2 + 0))) * / r) by (unfold a, b, c; field; lra).
      cbn [map rdot X] in Hx. unfold X in Hx. cbn [map rdot] in Hx. rewrite Hx. ring.
    + replace (g0 * Y0 + (g1 * Y1 + (g2 * Y2 + 0))) with ((g0 * w0 + (g1 * w1 + (g2 * w2 + 0))) * / n) by (unfold Y0, Y1, Y2; field; lra).
      unfold W, X, radd in Hw. cbn [map combine fst snd rdot] in Hw. fold w0 w1 w2 in Hw. rewrite Hw. ring.
  - unfold ments, ment in *. unfold ent. repeat match goal with H : _ /\ _ |- _ => destruct H end. repeat split; eexists; eauto.
Qed.
End Leaf.
