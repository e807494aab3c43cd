(** C51: pseudoLog of a retractation in IEEE-754 double arithmetic. *)
From Coq Require Import Reals List Lra Lia ZArith Bool Arith Psatz.
From Flocq Require Import Core BinarySingleNaN.
From Verif Require Import Base Scalar Vec Model_Real Model_S2 Model_SO3 Model_Manifold Spec Layout Comp Indep Flat Points
  XR SpecR RotR NumVec NumTree Drift F64 F64Err F64Norm F64S2 F64Exp F64Quat F64Mat F64Mat2 F64Tree F64Go F64Log F64LogQ F64Back Properties_Float ExScalar.
Import ListNotations.
Local Open Scope R_scope.

(** What the library is asked to do: cos and sin within 2^-52 (absolutely for cos, relative to the argument for sin),
    acos and atan2 within 2^-52 relative to the result; half the smallest subnormal on top. *)
Definition accurate_log (L : libm) : Prop :=
  (forall a, isf a -> Rabs (val a) <= 4 -> isf (f_cos L a) /\ Rabs (val (f_cos L a) - cos (val a)) <= / 2 ^ 52 /\
     isf (f_sin L a) /\ Rabs (val (f_sin L a) - sin (val a)) <= / 2 ^ 52 * Rabs (val a) + bpow radix2 (-1075)) /\
  (forall a, isf a -> Rabs (val a) <= 1 -> isf (f_acos L a) /\ Rabs (val (f_acos L a) - acos (val a)) <= / 2 ^ 52 * acos (val a) + bpow radix2 (-1075)) /\
  (forall a b, isf a -> isf b -> 0 < val a -> isf (f_atan2 L a b) /\ Rabs (val (f_atan2 L a b) - Ratan2 (val a) (val b)) <= / 2 ^ 52 * Rabs (Ratan2 (val a) (val b)) + bpow radix2 (-1075)).

(** Where the round trip is claimed: R^n below 2^990; matrices at angles up to 1e-9, or at angles whose sine is not
    small (the distance of x to the group counts too); quaternions at angles up to 3.14.  S2 left out: its
    logarithm is that of the great circles and its retractation is the projection (C17). *)
Definition reach64 (d : R) (s : mfd f64) (x v : list f64) : Prop :=
  length v = tangentDim s /\
  match s with
  | Leaf _ LReal _ _ => Forall isf x /\ Forall isf v /\ Forall (fun a => Rabs (val a) <= bpow radix2 990) (x ++ v)
  | Leaf _ (LSO3 MapMatrix) _ _ => let t := rnorm (vals v) in
      t <= 1 / 10 ^ 9 /\ d <= 1 / 10 ^ 11 \/ t < PI /\ 153000 * / 2 ^ 53 + 2100 * d <= (sin t) ^ 2
  | Leaf _ (LSO3 MapQuat) _ _ => rnorm (vals v) <= 314 / 100
  | _ => False
  end.

Lemma accurate_log_split L : accurate_log L -> accurate L /\ accurate_acos L /\ accurate_atan2 L.
Proof.
  assert (E : / 2 ^ 52 = 2 * u) by (rewrite u_val; cbn [pow]; lra). pose proof eta_pos as T. change (bpow radix2 (-1075)) with eta in *. intros (A & B & C). split; [|split].
  - intros a Fa Ha. destruct (A a Fa Ha) as (? & ? & ? & ?). rewrite E in *. repeat split; auto; lra.
  - intros a Fa Ha. destruct (B a Fa Ha) as (? & ?). rewrite E in *. repeat split; auto; lra.
  - intros a b Fa Fb Ha. destruct (C a b Fa Fb Ha) as (F & H). rewrite E in *. split; auto.
Qed.

(** C51: in doubles too pseudoLog undoes the retractation, on every built tree without sphere factor, from every
    point within [d] of the manifold; the error is a stated number of units 2^-53.  On R^n it is relative to x as
    well as to v (the sum forgets the low digits of v); on matrices it grows as 1/sin^2 towards pi. *)
Theorem C51_round_trip : forall L (m : mfd f64) xs vs out p y d, accurate_log L -> built m -> 0 <= d <= 1 / 3000 ->
  Forall2 (defect64 d) (leaves m) xs -> Forall3 (reach64 d) (leaves m) xs vs -> length out = representationDim m -> length p = tangentDim m ->
  retractation (SK:=F64 L) m out (concat xs) (concat vs) = Ok y ->
  exists ws, pseudoLog (SK:=F64 L) m p (concat xs) y = Ok (concat ws) /\ Forall4 (fun s x v w =>
    Forall isf w /\
    match s with
    | Leaf _ LReal _ _ => Forall3 (fun a b c => Rabs (val c - val b) <= / 2 ^ 53 * (2 * Rabs (val a) + 3 * Rabs (val b)) + 3 * bpow radix2 (-1075)) x v w
    | Leaf _ (LSO3 MapMatrix) _ _ => let t := rnorm (vals v) in
        (t <= 1 / 10 ^ 9 -> near_v (383 * / 2 ^ 53 + 6 * d) (vals w) (vals v)) /\
        (1 / 10 ^ 9 < t <= PI / 2 -> near_v (39000 * / 2 ^ 53 + 522 * d) (vals w) (vals v)) /\
        (PI / 2 < t -> near_v ((21500 * / 2 ^ 53 + 288 * d) / (sin t) ^ 2) (vals w) (vals v))
    | Leaf _ (LSO3 MapQuat) _ _ => near_v (67500 * / 2 ^ 53) (vals w) (vals v)
    | _ => False
    end) (leaves m) xs vs ws.
Proof.
  intros L m xs vs out p y d HL B Hd Hx Hr Lo Lp H. destruct (accurate_log_split L HL) as (A1 & A2 & A3). apply built_wf in B.
  assert (EU : / 2 ^ 53 = u) by (rewrite u_val; cbn [pow]; lra). pose proof u_pos as U. change (bpow radix2 (-1075)) with eta.
  assert (Fx : Forall2 (fstray (3 * d)) (leaves m) xs) by (clear - Hx Hd; induction Hx; constructor; auto; apply defect_stray; auto; lra).
  pose proof (fstray_pieces _ _ _ B Fx) as Px.
  assert (Pv : pieces DT (leaves m) vs) by (clear - Hr; induction Hr as [|s x v ? ? ? [H _]]; constructor; auto).
  assert (G : forall s, In s (leaves m) -> exists h l a b, s = Leaf h l a b /\ leaf_wf h l a b) by (intros s; apply leaf_inv_gen; auto).
  assert (Rr : Forall3 (in_reach (3 * d)) (leaves m) xs vs).
  { clear - Hr Hx EU Hd U G. revert Hx G. induction Hr as [|s x v ls xs vs [Lv H] Hr IH]; intros Hx G; constructor.
    2:{ inversion Hx; subst. apply IH; auto. intros; apply G; simpl; auto. }
    inversion Hx as [|? ? ? ? Hx1 Hx2]; subst. destruct (G s) as (h & l & a & b & -> & W); [simpl; auto|].
    destruct l as [| |[|]]; cbn [in_reach]; auto.
    - destruct H as (F1 & F2 & F3). apply Forall_app in F3. destruct F3 as [F3 F4]. cbn [defect64] in Hx1. unfold tangentDim in Lv. cbn [hdr_of] in Lv. unfold leaf_wf in W.
      assert (LL : length x = length v) by lia. clear - F1 F2 F3 F4 LL. revert v F2 F4 LL. induction x as [|c x IH]; intros [|e v] F2 F4 LL; try discriminate; constructor.
      + inversion F1; inversion F2; inversion F3; inversion F4; subst. auto.
      + inversion F1; inversion F2; inversion F3; inversion F4; subst. apply IH; auto.
    - rewrite EU in H. destruct H as [[H1 H2]|[H1 H2]]; [left; split; auto; lra|right; split; auto]. replace (sin (rnorm (vals v)) * sin (rnorm (vals v))) with (sin (rnorm (vals v)) ^ 2) by ring. lra. }
  destruct (tree_back64 L A1 A2 A3 m (3 * d) xs vs out p y B ltac:(lra) Fx Pv Rr Lo Lp H) as (ws & E & F). exists ws. split; [exact E|].
  clear - F EU Hd U. revert F. induction 1 as [|s x v w ls xs vs ws F1 F IH]; constructor; auto. clear IH F.
  destruct s as [h [| |[|]] a b|]; cbn [came_back] in F1; try contradiction; rewrite EU.
  - split; [|eapply Forall3_impl; [exact F1|]; cbv beta; tauto]. clear - F1. induction F1 as [|? ? ? ? ? ? [Fc _]]; constructor; auto.
  - destruct F1 as (F & H1 & H2 & H3). split; [exact F|]. cbv zeta. split; [|split]; intros Ht.
    + eapply NumExp.near_v_mono; [|apply H1, Ht]. lra.
    + eapply NumExp.near_v_mono; [|apply H2, Ht]. lra.
    + replace (sin (rnorm (vals v)) ^ 2) with (sin (rnorm (vals v)) * sin (rnorm (vals v))) by ring. eapply NumExp.near_v_mono; [|apply H3, Ht]. apply Req_le. f_equal. ring.
  - exact F1.
Qed.

(** The library that rounds the exact values to nearest meets these demands. *)
Lemma libm_exact_log : accurate_log libm_exact.
Proof.
  pose proof big_1. pose proof u_pos as U. pose proof eta_pos as T0. assert (E : / 2 ^ 52 = 2 * u) by (rewrite u_val; cbn [pow]; lra). unfold accurate_log. change (bpow radix2 (-1075)) with eta. rewrite E. pose proof PI_4 as P4. pose proof PI_RGT_0.
  assert (RB : forall r, Rabs r <= 4 -> isf (of_R r) /\ Rabs (val (of_R r) - r) <= 2 * u * Rabs r + eta).
  { intros r Hr. destruct (of_R_ok r) as [F V]; [lra|]. split; auto. rewrite V. pose proof (rnd_err r). pose proof (Rabs_pos r). assert (0 <= u * Rabs r) by (apply Rmult_le_pos; lra). lra. }
  split; [|split].
  - intros a Fa Ha. destruct (libm_exact_ok a Fa Ha) as (F1 & E1 & F2 & E2). auto.
  - intros a Fa Ha. pose proof (acos_bound (val a)) as B. destruct (RB (acos (val a))) as [F V]; [rewrite Rabs_pos_eq; lra|]. rewrite (Rabs_pos_eq (acos (val a))) in V by lra. split; [exact F|exact V].
  - intros a b Fa Fb Ha. destruct (atan2_polar (val a) (val b) ltac:(nra)) as (_ & _ & _ & _ & B). apply RB. apply Rabs_le. lra.
Qed.

(** R^2 x SO3 (matrices) x SO3 (quaternions): from (3, 4), a quarter turn and a half turn, back to steps of 1 and 2
    radians; no error above 8e-12. *)
Example C51_example : exists y ws, retractation (SK:=F64 libm_exact) (fP libm_exact) fPx fPx fPv = Ok y /\
  pseudoLog (SK:=F64 libm_exact) (fP libm_exact) fPv fPx y = Ok ws /\ near_v (8 / 10 ^ 12) (vals ws) [1; -1; 1; 0; 0; 2; 0; 0].
Proof.
  pose proof (fP_built libm_exact) as B. set (xs := [fi [3; 4]%Z; fi [0; 1; 0; -1; 0; 0; 0; 0; 1]%Z; fi [0; 0; 1; 0]%Z]). set (vs := [fi [1; -1]%Z; fi [1; 0; 0]%Z; fi [2; 0; 0]%Z]).
  assert (EX : fPx = concat xs) by (unfold fPx, xs; cbn [concat]; rewrite app_nil_r; reflexivity). assert (EV : fPv = concat vs) by (unfold fPv, vs; cbn [concat]; rewrite app_nil_r; reflexivity).
  destruct (vals_fi [3; 4]%Z) as [F34 V34]; [repeat constructor; lia|]. destruct (vals_fi [1; -1]%Z) as [F11 V11]; [repeat constructor; lia|].
  destruct (vals_fi [1; 0; 0]%Z) as [F1 V1]; [repeat constructor; lia|]. destruct (vals_fi [2; 0; 0]%Z) as [F2 V2]; [repeat constructor; lia|]. cbn [map] in V1, V2, V34, V11.
  assert (N : forall a, 0 <= a -> rnorm [a; 0; 0] = a). { intros a H. unfold rnorm. replace (rdot _ _) with (a * a) by (simpl; ring). apply sqrt_square. auto. }
  assert (X : Forall2 (defect64 0) (leaves (fP libm_exact)) xs).
  { apply Forall2_cons; [reflexivity|]. apply Forall2_cons; [|apply Forall2_cons; [|apply Forall2_nil]].
    - destruct (vals_fi [0; 1; 0; -1; 0; 0; 0; 0; 1]%Z) as [F V]; [repeat constructor; lia|]. split; [exact F|]. exists (M3 0 (-1) 0 1 0 0 0 0 1). split; [exact V|].
      unfold near_rot, rdet. cbn [rmul rtr a00 a01 a02 a10 a11 a12 a20 a21 a22]. repeat split; apply Rabs_le; lra.
    - destruct (vals_fi [0; 0; 1; 0]%Z) as [F V]; [repeat constructor; lia|]. split; [exact F|]. exists (Q4 0 0 1 0). split; [exact V|]. unfold qn2. cbn [qw qx qy qz]. apply Rabs_le. lra. }
  destruct (C49_never_stops libm_exact (fP libm_exact) fPx [fPv] B eq_refl) as [y Hy].
  { apply Forall_cons; [|apply Forall_nil]. exists vs. split; [exact EV|].
    apply Forall2_cons; [split; [reflexivity|exact I]|]. apply Forall2_cons; [|apply Forall2_cons; [|apply Forall2_nil]]; (split; [reflexivity|]).
    - split; [exact F1|]. rewrite V1, N by lra. lra.
    - split; [exact F2|]. rewrite V2, N by lra. lra. }
  cbn [increments64] in Hy. destruct (retractation (SK:=F64 libm_exact) (fP libm_exact) fPx fPx fPv) as [y'|] eqn:RE; [|discriminate]. cbn [bind] in Hy. apply ok_eq in Hy. subst y'.
  pose proof PI2_1 as P1. pose proof PI_4 as P4.
  assert (U53 : 153000 * / 2 ^ 53 <= 1 / 10 ^ 9) by (cbn [pow]; lra).
  assert (B9 : 4 <= bpow radix2 990). { change 4 with (bpow radix2 2). apply bpow_le. lia. }
  assert (Rr : Forall3 (reach64 0) (leaves (fP libm_exact)) xs vs).
  { apply Forall3_cons; [|apply Forall3_cons; [|apply Forall3_cons; [|apply Forall3_nil]]]; (split; [reflexivity|]).
    - split; [exact F34|]. split; [exact F11|]. assert (V4 : map val (fi [3; 4]%Z ++ fi [1; -1]%Z) = [3; 4; 1; -1]) by (rewrite map_app; exact (f_equal2 (@List.app R) V34 V11)).
      assert (Q : Forall (fun r => Rabs r <= bpow radix2 990) (map val (fi [3; 4]%Z ++ fi [1; -1]%Z))) by (rewrite V4; repeat (apply Forall_cons; [apply Rabs_le; lra|]); apply Forall_nil).
      rewrite Forall_map in Q. exact Q.
    - right. rewrite V1, N by lra. split; [lra|]. assert (1 / 2 <= sin 1). { pose proof (sin_half_173 1 ltac:(lra)). lra. } nra.
    - change (rnorm (vals (fi [2; 0; 0]%Z)) <= 314 / 100). rewrite V2, N by lra. lra. }
  rewrite EX, EV in RE.
  destruct (C51_round_trip libm_exact (fP libm_exact) xs vs (concat xs) (concat vs) y 0 libm_exact_log B ltac:(lra) X Rr eq_refl eq_refl RE) as (ws & E & F).
  exists y, (concat ws). rewrite EX, EV. split; [reflexivity|]. split; [exact E|].
  change (leaves (fP libm_exact)) with [fR2 libm_exact; fM libm_exact; fQ libm_exact] in F. unfold xs, vs in F.
  inversion F as [|? ? ? w0 ? ? ? ws0 G0 F0]; subst. inversion F0 as [|? ? ? w1 ? ? ? ws1 G1 F0']; subst. inversion F0' as [|? ? ? w2 ? ? ? ws2 G2 F0'']; subst. inversion F0''; subst. clear F F0 F0' F0''.
  cbn [concat]. rewrite app_nil_r, !map_app. assert (H1 : 1 / 10 ^ 9 < rnorm (vals (fi [1; 0; 0]%Z)) <= PI / 2 -> near_v (39000 * / 2 ^ 53 + 522 * 0) (vals w1) (vals (fi [1; 0; 0]%Z))) by exact (proj1 (proj2 (proj2 G1))).
  assert (H2 : near_v (67500 * / 2 ^ 53) (vals w2) (vals (fi [2; 0; 0]%Z))) by exact (proj2 G2). clear G1 G2. rewrite V1 in H1. rewrite V2 in H2. rewrite N in H1 by lra.
  assert (U : / 2 ^ 53 <= 112 / 10 ^ 18) by (cbn [pow]; lra). assert (U0 : 0 < / 2 ^ 53) by (apply Rinv_0_lt_compat; cbn [pow]; lra).
  assert (T : bpow radix2 (-1075) <= / 2 ^ 53) by (change (bpow radix2 (-1075)) with eta; pose proof eta_u50; assert (/ 2 ^ 53 = u) by (rewrite u_val; cbn [pow]; lra); pose proof u_pos; lra).
  change [1; -1; 1; 0; 0; 2; 0; 0] with ([1; -1] ++ [1; 0; 0] ++ [2; 0; 0]). apply Close.near_v_app; [|apply Close.near_v_app].
  - assert (H0 : Forall3 (fun a b c => Rabs (val c - val b) <= / 2 ^ 53 * (2 * Rabs (val a) + 3 * Rabs (val b)) + 3 * bpow radix2 (-1075)) [of_Z 3; of_Z 4] [of_Z 1; of_Z (-1)] w0) by exact (proj2 G0).
    destruct (of_Z_ok 3 eq_refl) as [_ A3]. destruct (of_Z_ok 4 eq_refl) as [_ A4]. destruct (of_Z_ok 1 eq_refl) as [_ A1]. destruct (of_Z_ok (-1) eq_refl) as [_ Am]. clear G0 V34 V11 F34 F11 xs vs EX EV X Rr RE E.
    generalize dependent (of_Z 3). generalize dependent (of_Z 4). generalize dependent (of_Z 1). generalize dependent (of_Z (-1)). intros am Am a1 A1 a4 A4 a3 G0 A3.
    inversion G0 as [|? ? c0 ? ? ? D0 G0']; subst. inversion G0' as [|? ? c1 ? ? ? D1 G0'']; subst. inversion G0''; subst. cbn [map].
    rewrite A3, A1 in D0. rewrite A4, Am in D1. rewrite (Rabs_pos_eq 3), (Rabs_pos_eq 1) in D0 by lra. rewrite (Rabs_pos_eq 4) in D1 by lra. rewrite (Rabs_left (-1)) in D1 by lra.
    apply Forall2_cons; [eapply Rle_trans; [exact D0|lra]|]. apply Forall2_cons; [eapply Rle_trans; [exact D1|lra]|apply Forall2_nil].
  - eapply NumExp.near_v_mono; [|apply H1; lra]. lra.
  - eapply NumExp.near_v_mono; [|exact H2]. lra.
Qed.

Lemma same_floats (r : res (list f64)) l : match r with Ok y => map (B2SF (prec:=53) (emax:=1024)) y | Fail _ => [SpecFloat.S754_nan] end = map (B2SF (prec:=53) (emax:=1024)) l -> (match r with Ok _ => true | _ => false end = true) -> r = Ok l.
Proof.
  destruct r as [y|e]; [|discriminate]. intros H _. f_equal. revert l H. induction y as [|a y IH]; intros [|b l] H; try discriminate; [reflexivity|]. cbn [map] in H. injection H as H1 H2. f_equal; [apply B2SF_inj, H1|apply IH, H2].
Qed.

(** Between the two ranges the matrix map breaks down (sums taken from left to right): from the identity the step (2^-26, 0, 0) is followed without
    any loss, the point reached passes isInM, and pseudoLog returns NaN: the trace rounds to 3, acos gives 0, and
    0 is divided by sin 0. *)
Theorem C51_nan_refuted : forall L0, let L := in_order L0 in f_acos L (of_Z 1) = B754_zero false -> f_sin L (B754_zero false) = B754_zero false ->
  exists (m : mfd f64) x v y w, built m /\ defect64M 0 m x /\ Forall isf v /\ vals v = [/ 2 ^ 26; 0; 0] /\
    retractation (SK:=F64 L) m x x v = Ok y /\ isInM (SK:=F64 L) m y (default_prec (SK:=F64 L)) = Ok true /\
    pseudoLog (SK:=F64 L) m v x y = Ok w /\ w = [B754_nan; B754_nan; B754_nan].
Proof.
  intros L0 L HA HS. destruct (p2_ok (-26) ltac:(lia)) as [F6 V6]. destruct (of_Z_ok 0 eq_refl) as [F0 V0].
  set (x := fi [1; 0; 0; 0; 1; 0; 0; 0; 1]%Z). set (v := [p2 (-26); of_Z 0; of_Z 0]).
  assert (E : exists h a b, fM L = Leaf h (LSO3 MapMatrix) a b) by (eexists _, _, _; reflexivity). destruct E as (h & a & b & E).
  assert (Bm : built (fM L)) by (apply (built_so3 MapMatrix [kpi (Scalar:=F64 L); kpi (Scalar:=F64 L); kpi (Scalar:=F64 L)]); reflexivity).
  rewrite E in Bm. pose proof (built_wf _ Bm) as W. inversion W as [? ? ? ? W'|]; subst. destruct W' as (W1 & W2 & W3 & _).
  assert (X : defect64M 0 (Leaf h (LSO3 MapMatrix) a b) x).
  { exists [x]. split; [reflexivity|]. apply Forall2_cons; [|apply Forall2_nil]. destruct (vals_fi [1; 0; 0; 0; 1; 0; 0; 0; 1]%Z) as [F V]; [repeat constructor; lia|]. split; [exact F|].
    exists (M3 1 0 0 0 1 0 0 0 1). split; [exact V|]. unfold near_rot, rdet. cbn [rmul rtr a00 a01 a02 a10 a11 a12 a20 a21 a22]. repeat split; apply Rabs_le; lra. }
  set (m := Leaf h (LSO3 MapMatrix) a b) in *.
  set (q := of_Z 9007199254740991 *! p2 (-53)). set (y := [of_Z 1; of_Z 0; of_Z 0; of_Z 0; q; p2 (-26); of_Z 0; Bopp (p2 (-26)); q]).
  assert (RE : em_retractation (SK:=F64 L) x x v = Ok y) by (apply same_floats; [vm_compute; reflexivity|vm_compute; reflexivity]).
  assert (R1 : retractation (SK:=F64 L) m x x v = Ok y).
  { unfold m. cbn [retractation isInTxM]. unfold representationDim, tangentDim. cbn [hdr_of]. rewrite !check_eq by (rewrite ?W2, ?W3; reflexivity). cbn [bind mnf_assert]. exact RE. }
  assert (I1 : isInM (SK:=F64 L) m y (default_prec (SK:=F64 L)) = Ok true).
  { unfold m. cbn [isInM]. unfold representationDim. cbn [hdr_of]. rewrite !check_eq by (rewrite ?W3; reflexivity). cbn [bind]. 
    assert (G : match em_isInM (SK:=F64 L) y (default_prec (SK:=F64 L)) with Ok b => b | _ => false end = true) by (vm_compute; reflexivity). destruct (em_isInM _ _) as [[|]|]; [reflexivity|discriminate|discriminate]. }
  set (A := m3_mul (SK:=F64 L) (m3_trans (M3 (of_Z 1) (of_Z 0) (of_Z 0) (of_Z 0) (of_Z 1) (of_Z 0) (of_Z 0) (of_Z 0) (of_Z 1))) (M3 (of_Z 1) (of_Z 0) (of_Z 0) (of_Z 0) q (Bopp (p2 (-26))) (of_Z 0) (p2 (-26)) q)).
  assert (P1 : pseudoLog (SK:=F64 L) m v x y = em_logarithm (SK:=F64 L) v A).
  { unfold m. cbn [pseudoLog]. unfold representationDim, tangentDim. cbn [hdr_of]. rewrite !check_eq by (rewrite ?W2, ?W3; reflexivity). reflexivity. }
  assert (TR : kdiv (Scalar:=F64 L) (ksub (Scalar:=F64 L) (m3_trace (SK:=F64 L) A) (k1 (Scalar:=F64 L))) (klit (Scalar:=F64 L) 2 1) = of_Z 1) by (apply B2SF_inj; vm_compute; reflexivity).
  assert (NB : kltb (Scalar:=F64 L) (norm (SK:=F64 L) [kopp (Scalar:=F64 L) (a12 A); a02 A; kopp (Scalar:=F64 L) (a01 A)]) (map_prec (SK:=F64 L)) = false) by (vm_compute; reflexivity).
  assert (PL : em_logarithm (SK:=F64 L) v A = Ok [B754_nan; B754_nan; B754_nan]).
  { unfold em_logarithm. rewrite NB, TR. change (kacos (Scalar:=F64 L)) with (f_acos L). change (ksin (Scalar:=F64 L)) with (f_sin L). rewrite HA, HS. apply same_floats; [vm_compute; reflexivity|vm_compute; reflexivity]. }
  exists m, x, v, y, [B754_nan; B754_nan; B754_nan]. split; [exact Bm|]. split; [exact X|]. split; [unfold v; auto|].
  split; [change (vals v) with [val (p2 (-26)); val (of_Z 0); val (of_Z 0)]; rewrite V6, V0; replace (bpow radix2 (-26)) with (/ 2 ^ 26) by (cbn; lra); reflexivity|]. split; [exact R1|]. split; [exact I1|]. split; [rewrite P1; exact PL|reflexivity].
Qed.
(** The library that rounds exact values does so. *)
Example C51_nan_example : f_acos libm_exact (of_Z 1) = B754_zero false /\ f_sin libm_exact (B754_zero false) = B754_zero false.
Proof.
  destruct (of_Z_ok 1 eq_refl) as [_ V1]. assert (Z : of_R 0 = B754_zero false).
  { destruct (of_R_ok 0) as [F V]; [rewrite Rabs_R0; pose proof big_1; lra|]. unfold of_R. unfold scaled_mantissa. rewrite Rmult_0_l. rewrite (Zrnd_IZR (Znearest (fun x => negb (Z.even x))) 0%Z). reflexivity. }
  cbn [f_acos f_sin libm_exact]. rewrite V1. cbn [B2R]. rewrite acos_1, sin_0. auto.
Qed.
Print Assumptions C51_round_trip.
Print Assumptions C51_nan_refuted.
