(** retractation after pseudoLog, Taylor branches included. *)
From Coq Require Import Reals List Lra Lia ZArith Bool Arith Psatz.
From Verif Require Import Base Scalar Vec Model_SO3 Model_Manifold Spec Layout Comp Indep Flat
  XR SpecR RotR NumVec NumMat Angle NumQuat NumTree NumLeaf RotLog RoundTrip NumExp NumLog Close.
Import ListNotations.
Local Open Scope R_scope.

Lemma near_v_trans e e' x y z : near_v e x y -> near_v e' y z -> near_v (e + e') x z.
Proof.
  intros H. revert z. induction H as [|a b x y H _ IH]; intros z G; inversion G as [|? c ? z' Hc Gc]; subst; constructor; auto.
  - replace (a - c) with ((a - b) + (b - c)) by ring. eapply Rle_trans; [apply Rabs_triang|]. lra.
  - apply IH. exact Gc.
Qed.
Lemma near_v_length e x y : near_v e x y -> length x = length y.
Proof. induction 1; simpl; auto. Qed.
Lemma near_v_sym e x y : near_v e x y -> near_v e y x.
Proof. induction 1; constructor; auto. rewrite Rabs_minus_sym. assumption. Qed.

(** The computed exponentials, Taylor branch or not. *)
Lemma em_exp_near v : length v = 3%nat -> rnorm v < PI ->
  exists E, em_exponential (fin v) = Ok (m3fin E) /\ near_v (1 / 10 ^ 22) (flat9 E) (flat9 (expSO3 v)).
Proof.
  intros Lv H. destruct (Rle_dec eps8 (rdot v v)) as [B|B].
  - exists (expSO3 v). split; [apply em_exp_main; auto|]. apply near_v_mono with 0; [lra|apply near_v_refl].
  - apply Rnot_le_lt in B. destruct (vec3_inv v Lv) as (x & y & z & ->).
    pose proof (em_exponential_fin x y z) as E. cbv zeta in E.
    apply Rltb_true in H. rewrite H in E. unfold emS, emC in E. pose proof B as Hb. apply Rltb_true in Hb. rewrite Hb in E.
    rewrite rdot3 in *. eexists. split; [exact E|]. apply em_series_dist. exact B.
Qed.
Lemma eq_exp_near v : length v = 3%nat -> rnorm v < PI ->
  exists E, eq_exponential junk_quat (fin v) = Ok (qfin E) /\ near_v (1 / 10 ^ 24) (qflat E) (qflat (expQ v)).
Proof.
  intros Lv H. destruct (Rle_dec eps8 (rdot v v)) as [B|B].
  - exists (expQ v). split; [apply eq_exp_main; auto|]. apply near_v_mono with 0; [lra|apply near_v_refl].
  - apply Rnot_le_lt in B. destruct (vec3_inv v Lv) as (x & y & z & ->).
    pose proof (eq_exponential_fin junk_quat x y z) as E. cbv zeta in E.
    apply Rltb_true in H. rewrite H in E. unfold eqS, eqW in E. pose proof B as Hb. apply Rltb_true in Hb. rewrite Hb in E.
    rewrite rdot3 in *. eexists. split; [exact E|]. apply eq_series_dist. exact B.
Qed.

(** Tiny vectors: the exponential is I + hat u (1 + u/2) up to the square of the norm. *)
Definition lin9 (x y z : R) : list R := flat9 (M3 1 (- z) y z 1 (- x) (- y) x 1).
Lemma tiny_so3 x y z : x * x + y * y + z * z <= 1 / 10 ^ 14 ->
  near_v (11 / 10 ^ 15) (flat9 (expSO3 [x; y; z])) (lin9 x y z).
Proof.
  intros H. set (n := x * x + y * y + z * z) in *.
  pose proof (em_series_dist x y z) as D. cbv zeta in D. fold n in D.
  specialize (D ltac:(lra)). apply near_v_sym in D.
  apply near_v_mono with (1 / 10 ^ 22 + 105 / 10 ^ 16); [lra|]. eapply near_v_trans; [exact D|]. clear D.
  assert (N0 : 0 <= n) by (unfold n; nra).
  assert (X : x * x <= n) by (unfold n; nra). assert (Y : y * y <= n) by (unfold n; nra). assert (Z : z * z <= n) by (unfold n; nra).
  assert (L : forall a, a * a <= n -> Rabs a <= 1 / 10 ^ 7) by (intros a Ha; apply Rabs_le; nra).
  assert (Q : forall a s, a * a <= n -> (s = n / 6 \/ s = - (n / 6)) -> Rabs (s * a) <= 1 / 10 ^ 17).
  { intros a s Ha Hs. rewrite Rabs_mult. pose proof (L a Ha). pose proof (Rabs_pos a).
    assert (Rabs s = n / 6) by (destruct Hs as [-> | ->]; rewrite ?Rabs_Ropp; apply Rabs_pos_eq; lra). rewrite H2. nra. }
  assert (P : forall a b, a * a <= n -> b * b <= n -> Rabs ((1 / 2 - n / 24) * (a * b)) <= 51 / 10 ^ 16).
  { intros a b Ha Hb. pose proof (small_sq a b n Ha Hb) as S. rewrite Rabs_mult, (Rabs_pos_eq (1 / 2 - n / 24)) by lra.
    pose proof (Rabs_pos (a * b)). nra. }
  assert (Pd : forall a b, a * a + b * b <= n -> Rabs ((1 / 2 - n / 24) * (a * a + b * b)) <= 51 / 10 ^ 16).
  { intros a b Ha. rewrite Rabs_mult, (Rabs_pos_eq (1 / 2 - n / 24)) by lra. rewrite Rabs_pos_eq by nra. nra. }
  assert (T : forall a b c, Rabs a <= 1 / 10 ^ 17 -> Rabs b <= 51 / 10 ^ 16 -> c = a + b -> Rabs c <= 105 / 10 ^ 16).
  { intros a b c Ha Hb ->. eapply Rle_trans; [apply Rabs_triang|]. lra. }
  unfold lin9, rodrigues, flat9, near_v. cbn [a00 a10 a20 a01 a11 a21 a02 a12 a22].
  repeat (apply Forall2_cons || apply Forall2_nil).
  - replace (_ - 1) with (- ((1 / 2 - n / 24) * (y * y + z * z))) by ring. rewrite Rabs_Ropp. eapply Rle_trans; [apply Pd; unfold n; nra|lra].
  - apply (T _ _ _ (Q z (- (n / 6)) Z (or_intror eq_refl)) (P x y X Y)). ring.
  - apply (T _ _ _ (Q y (n / 6) Y (or_introl eq_refl)) (P x z X Z)). ring.
  - apply (T _ _ _ (Q z (n / 6) Z (or_introl eq_refl)) (P x y X Y)). ring.
  - replace (_ - 1) with (- ((1 / 2 - n / 24) * (x * x + z * z))) by ring. rewrite Rabs_Ropp. eapply Rle_trans; [apply Pd; unfold n; nra|lra].
  - apply (T _ _ _ (Q x (- (n / 6)) X (or_intror eq_refl)) (P y z Y Z)). ring.
  - apply (T _ _ _ (Q y (- (n / 6)) Y (or_intror eq_refl)) (P x z X Z)). ring.
  - apply (T _ _ _ (Q x (n / 6) X (or_introl eq_refl)) (P y z Y Z)). ring.
  - replace (_ - 1) with (- ((1 / 2 - n / 24) * (x * x + y * y))) by ring. rewrite Rabs_Ropp. eapply Rle_trans; [apply Pd; unfold n; nra|lra].
Qed.
Lemma lin9_near e x y z a b c : 0 <= e -> near_v e [x; y; z] [a; b; c] -> near_v e (lin9 x y z) (lin9 a b c).
Proof.
  intros He H. unfold near_v in H. inversion H as [|? ? ? ? H1 H']; subst. inversion H' as [|? ? ? ? H2 H'']; subst. inversion H'' as [|? ? ? ? H3 _]; subst.
  assert (Z : Rabs (1 - 1) <= e) by (rewrite Rminus_diag_eq, Rabs_R0; auto).
  assert (N : forall p q, Rabs (p - q) <= e -> Rabs (- p - - q) <= e) by (intros p q Hp; replace (- p - - q) with (- (p - q)) by ring; rewrite Rabs_Ropp; auto).
  unfold lin9, flat9, near_v. cbn [a00 a10 a20 a01 a11 a21 a02 a12 a22]. repeat (apply Forall2_cons || apply Forall2_nil); auto.
Qed.
Lemma tiny_q x y z : x * x + y * y + z * z <= 1 / 10 ^ 14 ->
  near_v (11 / 10 ^ 15) (qflat (expQ [x; y; z])) (qflat (Q4 1 (x / 2) (y / 2) (z / 2))).
Proof.
  intros H. set (n := x * x + y * y + z * z) in *.
  pose proof (eq_series_dist x y z) as D. cbv zeta in D. fold n in D.
  specialize (D ltac:(lra)). apply near_v_sym in D.
  assert (N0 : 0 <= n) by (unfold n; nra).
  assert (X : x * x <= n) by (unfold n; nra). assert (Y : y * y <= n) by (unfold n; nra). assert (Z : z * z <= n) by (unfold n; nra).
  assert (L : forall a, a * a <= n -> Rabs a <= 1 / 10 ^ 7) by (intros a Ha; apply Rabs_le; nra).
  assert (Q : forall a, a * a <= n -> Rabs ((1 + (-1 + n / 80) * n / 24) / 2 * a - a / 2) <= 105 / 10 ^ 16).
  { intros a Ha. replace (_ - a / 2) with (((-1 + n / 80) * n / 48) * a) by field. rewrite Rabs_mult.
    assert (Rabs ((-1 + n / 80) * n / 48) <= 1 / 10 ^ 14) by (apply Rabs_le; split; nra). pose proof (L a Ha). pose proof (Rabs_pos a). pose proof (Rabs_pos ((-1 + n / 80) * n / 48)). nra. }
  assert (W : Rabs (1 + (-1 + n / 48) * (n / 8) - 1) <= 105 / 10 ^ 16) by (apply Rabs_le; split; nra).
  assert (G : near_v (105 / 10 ^ 16) (qflat (Q4 (1 + (-1 + n / 48) * (n / 8)) ((1 + (-1 + n / 80) * n / 24) / 2 * x) ((1 + (-1 + n / 80) * n / 24) / 2 * y) ((1 + (-1 + n / 80) * n / 24) / 2 * z))) (qflat (Q4 1 (x / 2) (y / 2) (z / 2)))).
  { unfold qflat, near_v. cbn [qw qx qy qz]. repeat (apply Forall2_cons || apply Forall2_nil); auto. }
  pose proof (near_v_trans _ _ _ _ _ D G) as F. apply (near_v_mono _ (11 / 10 ^ 15)) in F; [|lra].
  exact F.
Qed.

(** The computed logarithm of a relative rotation followed by the computed exponential. *)
Lemma em_log_exp_near w : length w = 3%nat -> rnorm w <= PI - 1 / 10000000 ->
  exists l E, near_v (1 / 10 ^ 15) l w /\
    (forall out, length out = 3%nat -> em_logarithm out (m3fin (expSO3 w)) = Ok (fin l)) /\
    em_exponential (fin l) = Ok (m3fin E) /\ near_v (3 / 10 ^ 14) (flat9 E) (flat9 (expSO3 w)).
Proof.
  intros Lw H. pose proof (expSO3_rot w) as HR. pose proof PI2_1 as P2. pose proof (rnorm_nonneg w) as N0.
  pose proof (expSO3_trace w (rnorm w) Lw eq_refl) as Tr.
  destruct (Rle_dec eps8 (upper (expSO3 w))) as [B|B].
  - destruct (em_exp_near w Lw ltac:(lra)) as (E & HE & NE). exists w, E.
    split; [apply near_v_mono with 0; [lra|apply near_v_refl]|]. split; [|split; auto; eapply near_v_mono; [|exact NE]; lra].
    intros o Lo. destruct (em_log_main_rot o (expSO3 w) Lo HR B) as (v & Hv & Lv & Nv & Ev).
    { unfold tr3. assert (cos PI < cos (rnorm w)) by (apply cos_decreasing_1; lra). rewrite cos_PI in *. lra. }
    replace w with v at 2; auto. apply exp_inj; auto; lra.
  - apply Rnot_le_lt in B.
    assert (S : rnorm w < 1 / 10000).
    { apply Rnot_le_lt. intros G. pose proof (off_sin_mat (rnorm w) (conj G H)) as Q. pose proof (upper_ok w Lw Q). lra. }
    destruct (em_log_small_rot (expSO3 w) HR B) as (v & Lv & Nv & Ev & Nl).
    { unfold tr3. pose proof (cos_ge_0 (rnorm w)). lra. }
    assert (v = w) by (apply exp_inj; auto; lra). subst v. clear Ev.
    set (R := expSO3 w) in *. set (l := [- a12 R; a02 R; - a01 R]) in *.
    destruct (vec3_inv w Lw) as (x & y & z & ->). 
    assert (Nn : x * x + y * y + z * z <= 1 / 10 ^ 14). { pose proof (rnorm3_sq x y z). nra. }
    assert (Ln : - a12 R * - a12 R + a02 R * a02 R + - a01 R * - a01 R < 1 / 10 ^ 16).
    { unfold upper in B. fold l in B. pose proof (rnorm_nonneg l). pose proof (rnorm3_sq (- a12 R) (a02 R) (- a01 R)) as Q. fold l in Q. nra. }
    destruct (em_exp_near l eq_refl) as (E & HE & NE). { unfold upper in B. fold l in B. lra. }
    exists l, E. split; auto. split; [intros o Lo; apply em_logarithm_small; auto|]. split; auto.
    apply near_v_mono with (1 / 10 ^ 22 + 11 / 10 ^ 15 + 1 / 10 ^ 15 + 11 / 10 ^ 15); [lra|].
    eapply near_v_trans; [|apply near_v_sym; apply tiny_so3; exact Nn].
    eapply near_v_trans; [|apply lin9_near; [lra|exact Nl]].
    eapply near_v_trans; [exact NE|]. apply tiny_so3. lra.
Qed.

Lemma eq_log_exp_near q : qn2 q = 1 -> rnorm (logQ q) < PI ->
  exists l E, near_v (1 / 10 ^ 15) l (logQ q) /\
    (forall out, length out = 3%nat -> eq_logarithm out (qfin q) = Ok (fin l)) /\
    eq_exponential junk_quat (fin l) = Ok (qfin E) /\ near_v (3 / 10 ^ 14) (qflat E) (qflat (expQ (logQ q))).
Proof.
  intros Hq H. destruct (logQ_spec q Hq) as (Lw & _ & _ & Eq).
  destruct (eq_log_total [Fin 0; Fin 0; Fin 0] q eq_refl Hq) as (l & Hl & Nl & _ & Ex).
  assert (Ll : length l = 3%nat) by (rewrite <- Lw; exact (near_v_length _ _ _ Nl)).
  assert (I : forall o, length o = 3%nat -> eq_logarithm o (qfin q) = Ok (fin l)).
  { intros o Lo. rewrite <- Hl. apply eq_logarithm_indep. auto. }
  pose proof (rnorm_nonneg (qv q)) as N0. set (w := logQ q) in *. pose proof (rnorm_nonneg w) as W0.
  assert (C : l = w \/ (0 < rnorm (qv q) /\ rnorm (qv q) < eps8)).
  { destruct (Req_dec (rnorm (qv q)) 0); [left; apply Ex; auto|]. destruct (Rle_dec eps8 (rnorm (qv q))); [left; apply Ex; auto|]. right. lra. }
  destruct C as [-> | [Q0 Q1]].
  - destruct (eq_exp_near w Lw H) as (E & HE & NE). exists w, E. split; [apply near_v_mono with 0; [lra|apply near_v_refl]|].
    split; auto. split; auto. eapply near_v_mono; [|exact NE]. lra.
  - assert (Nv : rnorm (qv (expQ w)) = rnorm (qv q)).
    { destruct Eq as [-> | ->]; auto. unfold rnorm. f_equal. simpl. ring. }
    assert (S : rnorm w <= 4 / 10 ^ 8).
    { destruct (Req_dec (rnorm w) 0); [lra|]. destruct (expQ_qv w Lw) as (_ & S & _); [lra|lra|]. rewrite Nv in S.
      assert (rnorm w < 1 / 10000). { apply Rnot_le_lt. intros G. pose proof (off_sin_half (rnorm w) (conj G H)). lra. }
      pose proof (sin_ge_half (rnorm w / 2)). lra. }
    destruct (vec3_inv w Lw) as (x & y & z & Ew). destruct (vec3_inv l Ll) as (a & b & c & ->). rewrite Ew in *.
    pose proof (rnorm3_sq x y z) as Nn. assert (Nw : x * x + y * y + z * z <= 16 / 10 ^ 16) by (rewrite <- Nn; nra).
    assert (Na : a * a + b * b + c * c <= 1 / 10 ^ 14).
    { inversion Nl as [|? ? ? ? H1 Nl']; subst. inversion Nl' as [|? ? ? ? H2 Nl'']; subst. inversion Nl'' as [|? ? ? ? H3 _]; subst.
      apply Rabs_le_inv in H1, H2, H3.
      assert (D : forall u v, -(3 / 10 ^ 24) <= u - v <= 3 / 10 ^ 24 -> u * u <= 2 * (v * v) + 1 / 10 ^ 40).
      { intros u v Hu. assert (u * u <= 2 * (v * v) + 2 * ((u - v) * (u - v))) by (pose proof (Rle_0_sqr (u - 2 * v)) as Q; unfold Rsqr in Q; lra). set (d := u - v) in *. assert (d * d <= 9 / 10 ^ 48) by (assert (0 <= (3 / 10 ^ 24 - d) * (3 / 10 ^ 24 + d)) by (apply Rmult_le_pos; lra); lra). lra. }
      pose proof (D _ _ H1). pose proof (D _ _ H2). pose proof (D _ _ H3). lra. }
    destruct (eq_exp_near [a; b; c] eq_refl) as (E & HE & NE). { pose proof (rnorm3_sq a b c) as Q. pose proof (rnorm_nonneg [a; b; c]). pose proof PI2_1. nra. }
    exists [a; b; c], E. split; [eapply near_v_mono; [|exact Nl]; lra|]. split; auto. split; auto.
    apply near_v_mono with (1 / 10 ^ 24 + 11 / 10 ^ 15 + 1 / 10 ^ 15 + 11 / 10 ^ 15); [lra|].
    eapply near_v_trans; [|apply near_v_sym; apply tiny_q; lra].
    eapply near_v_trans; [eapply near_v_trans; [exact NE|apply tiny_q; exact Na]|].
    inversion Nl as [|? ? ? ? H1 Nl']; subst. inversion Nl' as [|? ? ? ? H2 Nl'']; subst. inversion Nl'' as [|? ? ? ? H3 _]; subst.
    apply Rabs_le_inv in H1, H2, H3.
    unfold qflat, near_v. cbn [qw qx qy qz]. repeat (apply Forall2_cons || apply Forall2_nil); apply Rabs_le; lra.
Qed.

Lemma leaf_relog_close h l a b x y : let s := Leaf h l a b in leaf_wf h l a b -> is_s2 s = false ->
  on_leaf s x -> on_leaf s y ->
  exists w y0, length w = tangentDim s /\ rot_le_pi s w /\ shift_leaf s x w y0 /\ same_leaf s y0 y /\
    exists t z, length t = tangentDim s /\ length z = representationDim s /\ (below_pi s w -> near_v (1 / 10 ^ 15) t w /\ near_v (1 / 10 ^ 12) z y0 /\
    (forall o, length o = tangentDim s -> pseudoLog s o (fin x) (fin y) = Ok (fin t)) /\
    (forall o, length o = representationDim s -> retractation s o (fin x) (fin t) = Ok (fin z))).
Proof.
  intros s W N Hx Hy. unfold s, rot_le_pi in *. unfold tangentDim, representationDim. cbn [hdr_of].
  destruct l as [| |[|]]; cbn [on_leaf shift_leaf same_leaf is_s2 is_so3 leaf_wf below_pi] in *; try discriminate.
  - pose proof W as [W1 W2].
    assert (E : radd x (rsub y x) = y) by (apply rsub_radd; lia).
    exists (rsub y x), y. split; [rewrite rsub_length; lia|]. split; [discriminate|]. split; [auto|]. split; auto.
    exists (rsub y x), y. split; [rewrite rsub_length; lia|]. split; [lia|]. intros _.
    split; [apply near_v_mono with 0; [lra|apply near_v_refl]|]. split; [apply near_v_mono with 0; [lra|apply near_v_refl]|]. split; intros o Hl.
    + apply real_log; auto; lia.
    + rewrite <- E at 2. apply real_retr; auto; rewrite ?rsub_length; lia.
  - pose proof W as (W1 & W2 & W3 & _). destruct Hx as (A & -> & HA), Hy as (B & -> & HB).
    destruct (rot_exp (rmul (rtr A) B)) as (w & L & P & E); [apply rot_mul; auto; apply rot_tr; auto|].
    exists w, (flat9 B). split; [lia|]. split; auto.
    assert (EB : rmul A (expSO3 w) = B) by (rewrite E, <- rmul_assoc, rot_r, rmul_id_l; auto).
    split; [exists A; rewrite EB; auto|]. split; auto.
    destruct (Rle_dec (rnorm w) (PI - 1 / 10000000)) as [Hw|Hw].
    + destruct (em_log_exp_near w L Hw) as (t & F & Nt & Lt & EF & NF).
      assert (Tt : length t = 3%nat) by (rewrite <- L; exact (near_v_length _ _ _ Nt)).
      exists t, (flat9 (rmul A F)). split; [lia|]. split; [rewrite flat9_length; lia|]. intros _. split; auto. split.
      * rewrite <- EB. eapply near_v_mono; [|apply rmul_near; [auto| |exact NF]]; lra.
      * split; intros o Hl; [rewrite em_log, <- E by (auto; lia); apply Lt; lia|].
        destruct (vec3_inv t Tt) as (p & q & r & ->). apply em_retr; auto. lia.
    + exists w, (flat9 B). split; [lia|]. split; [rewrite flat9_length; lia|]. tauto.
  - pose proof W as (W1 & W2 & W3 & _). destruct Hx as (p & -> & Hp), Hy as (q & -> & Hq).
    set (r := qprod (qconj p) q). assert (Hr : qn2 r = 1). { unfold r. rewrite qn2_mul, Hq. unfold qn2, qconj in *. cbn. lra. }
    destruct (logQ_spec r Hr) as (L & P & _ & E).
    exists (logQ r), (qflat (qprod p (expQ (logQ r)))).
    split; [lia|]. split; auto. split; [eauto|]. split.
    { destruct E as [-> | ->]; [left|right]; unfold r.
      + rewrite <- qprod_assoc, qmul_conj, qprod_1l by auto. auto.
      + replace (qprod p (qneg (qprod (qconj p) q))) with (qneg (qprod p (qprod (qconj p) q))).
        * rewrite <- qprod_assoc, qmul_conj, qprod_1l by auto. unfold qflat, qneg. cbn. rewrite !Ropp_involutive. auto.
        * apply quat_ext; cbn; ring. }
    destruct (Rlt_dec (rnorm (logQ r)) PI) as [Hw|Hw].
    + destruct (eq_log_exp_near r Hr Hw) as (t & F & Nt & Lt & EF & NF).
      assert (Tt : length t = 3%nat) by (rewrite <- L; exact (near_v_length _ _ _ Nt)).
      exists t, (qflat (qprod p F)). split; [lia|]. split; [cbn; lia|]. intros _. split; auto. split.
      * eapply near_v_mono; [|apply qprod_near; [auto| |exact NF]]; lra.
      * split; intros o Hl; [rewrite eq_log by (auto; lia); apply Lt; lia|]. apply eq_retr; auto; lia.
    + exists (logQ r), (qflat q). split; [lia|]. split; [cbn; lia|]. tauto.
Qed.

Record quad := Quad { qd_w : list R; qd_y0 : list R; qd_t : list R; qd_z : list R }.
Lemma relog_close m : built m -> no_s2 m -> forall x y, onM m x -> onM m y ->
  exists w y0 t z, eachT rot_le_pi m w /\ shiftM m x w y0 /\ sameM m y0 y /\
    (eachT below_pi m w -> near_v (1 / 10 ^ 15) t w /\ near_v (1 / 10 ^ 12) z y0 /\
      (forall o, length o = tangentDim m -> pseudoLog m o (fin x) (fin y) = Ok (fin t)) /\
      (forall o, length o = representationDim m -> retractation m o (fin x) (fin t) = Ok (fin z))).
Proof.
  intros B NS x y (xs & -> & Hx) (ys & -> & Hy). apply built_wf in B.
  pose proof (Forall3_and _ _ _ _ _ Hx Hy) as F.
  destruct (choose4 _ (fun s x y (q : quad) => on_leaf s x /\ length x = representationDim s /\ length y = representationDim s /\
     tan_leaf s x (qd_w q) /\ rot_le_pi s (qd_w q) /\
     length (qd_y0 q) = representationDim s /\ shift_leaf s x (qd_w q) (qd_y0 q) /\ same_leaf s (qd_y0 q) y /\
     length (qd_t q) = tangentDim s /\ length (qd_z q) = representationDim s /\
     (below_pi s (qd_w q) -> near_v (1 / 10 ^ 15) (qd_t q) (qd_w q) /\ near_v (1 / 10 ^ 12) (qd_z q) (qd_y0 q) /\
       (forall o, length o = tangentDim s -> pseudoLog s o (fin x) (fin y) = Ok (fin (qd_t q))) /\
       (forall o, length o = representationDim s -> retractation s o (fin x) (fin (qd_t q)) = Ok (fin (qd_z q))))) _ _ _ F) as (qs & Hq).
  { intros s x y Hs (Px & Py). destruct (wf_leaf_inv m s B Hs) as (h & l & a & b & -> & W).
    pose proof (no_s2_in _ _ NS Hs) as N.
    pose proof (on_leaf_len _ _ _ _ _ W Px) as Lx. pose proof (on_leaf_len _ _ _ _ _ W Py) as Ly.
    destruct (leaf_relog_close h l a b x y W N Px Py) as (w & y0 & L & R & S & E & t & z & Lt & Lz & H).
    exists (Quad w y0 t z). cbn [qd_w qd_y0 qd_t qd_z]. repeat (split; [assumption|]).
    split. { split; auto. destruct l as [| |[|]]; auto. discriminate. }
    split; auto. split. { unfold representationDim. cbn [hdr_of]. rewrite <- Ly.
      destruct l as [| |[|]]; cbn [same_leaf] in E; subst; auto.
      destruct E as [-> | ->]; rewrite ?map_length; auto. }
    repeat (split; auto). }
  exists (concat (map qd_w qs)), (concat (map qd_y0 qs)), (concat (map qd_t qs)), (concat (map qd_z qs)). split; [|split; [|split]].
  - exists (map qd_w qs). split; auto. clear - Hq. induction Hq as [|s x y q l xs ys ws H F IH]; simpl; constructor; auto.
    split; [apply H|tauto].
  - exists xs, (map qd_w qs), (map qd_y0 qs). repeat (split; [reflexivity|]). split; [exact Hx|].
    split; clear - Hq; induction Hq as [|s x y q l xs ys ws H F IH]; simpl; constructor; auto; tauto.
  - exists (map qd_y0 qs), ys. repeat (split; [reflexivity|]).
    split; clear - Hq; induction Hq as [|s x y q l xs ys ws H F IH]; simpl; constructor; auto; tauto.
  - intros (ws & Ew & Hw).
    assert (map qd_w qs = ws).
    { apply (sum_list_eq DT (leaves m)); auto.
      - clear - Hq. induction Hq as [|s x y q l xs ys ws H F IH]; simpl; constructor; auto. apply H.
      - clear - Hw. induction Hw as [|s w l ws H F IH]; constructor; auto. apply H. }
    subst ws. clear Ew F.
    assert (Hb : Forall4 (fun s x y (q : quad) => length x = representationDim s /\ length y = representationDim s /\ length (qd_t q) = tangentDim s /\
       near_v (1 / 10 ^ 15) (qd_t q) (qd_w q) /\ near_v (1 / 10 ^ 12) (qd_z q) (qd_y0 q) /\
       (forall o, length o = tangentDim s -> pseudoLog s o (fin x) (fin y) = Ok (fin (qd_t q))) /\
       (forall o, length o = representationDim s -> retractation s o (fin x) (fin (qd_t q)) = Ok (fin (qd_z q)))) (leaves m) xs ys qs).
    { clear - Hq Hw. induction Hq as [|s x y q l xs ys ws H F IH]; constructor; inversion Hw as [|? ? ? ? [_ H1] H2]; subst; auto. tauto. }
    clear Hq Hw Hx Hy. split; [|split; [|split]].
    + clear - Hb. induction Hb as [|s x y q l xs ys ws H F IH]; simpl; [constructor|]. apply near_v_app; [apply H|apply IH].
    + clear - Hb. induction Hb as [|s x y q l xs ys ws H F IH]; simpl; [constructor|]. apply near_v_app; [apply H|apply IH].
    + intros o Ho. apply (lift_op2 DT DR DR pseudoLog pseudoLog_prod); auto.
      apply Forall4_map_d. eapply Forall4_impl; [exact Hb|]. cbn. tauto.
    + intros o Ho. apply (lift_op2 DR DR DT retractation retractation_prod); auto.
      eapply (Forall4_map_2 (fun s x t z => length x = getDim DR s /\ length t = getDim DT s /\
         forall o, length o = getDim DR s -> retractation s o (fin x) (fin t) = Ok (fin z)) qd_t qd_z _ _ ys).
      eapply Forall4_impl; [exact Hb|]. cbn. tauto.
Qed.
