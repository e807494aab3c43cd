(** The retraction at a point is injective; where it can land. *)
From Coq Require Import Reals List Lra Lia ZArith Bool Arith Psatz.
From Verif Require Import Base Scalar Vec Model_Real Model_S2 Model_SO3 Model_Manifold Spec Layout Comp Indep Flat
  XR SpecR RotR NumVec NumMat Angle NumQuat NumTree NumLeaf RotLog RoundTrip NumS2 NumExp NumLog Points Drift.
Import ListNotations.
Local Open Scope R_scope.

(** ** The coefficients of the two exponentials *)
Lemma sqrt_eps8 : sqrt eps8 = 1 / 10000.
Proof. replace eps8 with (1 / 10000 * (1 / 10000)) by lra. apply sqrt_square. lra. Qed.
Lemma sqrt_ge n : eps8 <= n -> 1 / 10000 <= sqrt n.
Proof. intros H. rewrite <- sqrt_eps8. apply sqrt_le_1_alt. auto. Qed.
Definition emG (n : R) : R := emC n * n.
Lemma emG_big n : eps8 <= n -> emG n = 1 - cos (sqrt n).
Proof. intros H. unfold emG, emC. apply Rltb_false in H as E. rewrite E. field. lra. Qed.
Lemma emG_small n : n < eps8 -> emG n = n / 2 - n * n / 24.
Proof. intros H. unfold emG, emC. apply Rltb_true in H as E. rewrite E. field. Qed.
Lemma emG_mono n k : 0 <= n -> n < k -> sqrt k < PI -> emG n < emG k.
Proof.
  intros N H K. pose proof PI_RGT_0 as HP. pose proof PI2_3_2 as P2.
  assert (SNK : sqrt n < sqrt k) by (apply sqrt_lt_1; lra). pose proof (sqrt_pos n) as SN.
  destruct (Rlt_dec k eps8) as [A|A].
  - rewrite !emG_small by lra. nra.
  - apply Rnot_lt_le in A. rewrite (emG_big k) by auto. destruct (Rlt_dec n eps8) as [B|B].
    + rewrite emG_small by auto. pose proof (sqrt_ge k A) as G.
      assert (C : cos (sqrt k) <= cos (1 / 10000)) by (destruct (Req_dec (sqrt k) (1 / 10000)) as [->|]; [lra|left; apply cos_decreasing_1; lra]).
      pose proof (cos_taylor6 (1 / 10000) ltac:(lra) ltac:(lra)) as [_ U].
      assert (n / 2 - n * n / 24 < (1 / 10000) ^ 2 / 2 - (1 / 10000) ^ 4 / 24) by nra. lra.
    + apply Rnot_lt_le in B. rewrite emG_big by auto. pose proof (cos_decreasing_1 (sqrt n) (sqrt k) ltac:(lra) ltac:(lra) ltac:(lra) ltac:(lra) SNK). lra.
Qed.
Lemma emG_inj n k : 0 <= n -> 0 <= k -> sqrt n < PI -> sqrt k < PI -> emG n = emG k -> n = k.
Proof.
  intros N K Sn Sk E. destruct (Rtotal_order n k) as [H|[H|H]]; auto; exfalso.
  - pose proof (emG_mono n k N H Sk). lra.
  - pose proof (emG_mono k n K H Sn). lra.
Qed.
Lemma emG_lt2 n : 0 <= n -> sqrt n < PI -> emG n < 2.
Proof.
  intros N H. destruct (Rlt_dec n eps8) as [A|A]; [rewrite emG_small by auto; nra|]. apply Rnot_lt_le in A. rewrite emG_big by auto.
  pose proof (sqrt_ge n A). pose proof PI_RGT_0. pose proof (cos_decreasing_1 (sqrt n) PI ltac:(lra) ltac:(lra) ltac:(lra) ltac:(lra) H) as C. rewrite cos_PI in C. lra.
Qed.
Lemma emS_pos n : 0 <= n -> sqrt n < PI -> 0 < emS n.
Proof.
  intros N H. unfold emS. destruct (Rltb n eps8) eqn:E; [apply Rltb_true in E; lra|]. apply Rltb_false in E. pose proof (sqrt_ge n E).
  apply Rdiv_lt_0_compat; [apply sin_gt_0; lra|lra].
Qed.
Lemma eqS_pos n : 0 <= n -> sqrt n < PI -> 0 < eqS n.
Proof.
  intros N H. unfold eqS. destruct (Rltb n eps8) eqn:E; [apply Rltb_true in E; nra|]. apply Rltb_false in E. pose proof (sqrt_ge n E).
  apply Rdiv_lt_0_compat; [apply sin_gt_0; lra|lra].
Qed.
Lemma eqW_pos n : 0 <= n -> sqrt n < PI -> 0 < eqW n.
Proof.
  intros N H. unfold eqW. destruct (Rltb n eps8) eqn:E; [apply Rltb_true in E; nra|]. apply Rltb_false in E. pose proof (sqrt_ge n E).
  apply cos_gt_0; lra.
Qed.
Lemma eqW_mono n k : 0 <= n -> n < k -> sqrt k < PI -> eqW k < eqW n.
Proof.
  intros N H K. pose proof PI_RGT_0 as HP. pose proof PI2_3_2 as P2.
  assert (SNK : sqrt n < sqrt k) by (apply sqrt_lt_1; lra). pose proof (sqrt_pos n) as SN. unfold eqW.
  destruct (Rltb k eps8) eqn:A.
  - apply Rltb_true in A. assert (B : Rltb n eps8 = true) by (apply Rltb_true; lra). rewrite B. nra.
  - apply Rltb_false in A. pose proof (sqrt_ge k A) as G. destruct (Rltb n eps8) eqn:B.
    + apply Rltb_true in B.
      assert (C : cos (sqrt k / 2) <= cos (1 / 20000)) by (destruct (Req_dec (sqrt k) (1 / 10000)) as [->|]; [right; f_equal; lra|left; apply cos_decreasing_1; lra]).
      pose proof (cos_taylor6 (1 / 20000) ltac:(lra) ltac:(lra)) as [_ U].
      assert (1 - (1 / 20000) ^ 2 / 2 + (1 / 20000) ^ 4 / 24 < 1 + (-1 + n / 48) * (n / 8)) by nra. lra.
    + apply cos_decreasing_1; lra.
Qed.
Lemma eqW_inj n k : 0 <= n -> 0 <= k -> sqrt n < PI -> sqrt k < PI -> eqW n = eqW k -> n = k.
Proof.
  intros N K Sn Sk E. destruct (Rtotal_order n k) as [H|[H|H]]; auto; exfalso.
  - pose proof (eqW_mono n k N H Sk). lra.
  - pose proof (eqW_mono k n K H Sn). lra.
Qed.

(** ** The exponentials *)
Definition emE (v : list R) : m3 R := match v with [x; y; z] => rodrigues (emS (rdot v v)) (emC (rdot v v)) x y z | _ => ridm end.
Definition eqE (v : list R) : quat R := match v with [x; y; z] => let n := rdot v v in Q4 (eqW n) (eqS n * x) (eqS n * y) (eqS n * z) | _ => Q4 1 0 0 0 end.
Lemma emE_inj v w : length v = 3%nat -> length w = 3%nat -> rnorm v < PI -> rnorm w < PI -> emE v = emE w -> v = w.
Proof.
  intros Lv Lw Nv Nw E. destruct (vec3_inv v Lv) as (x & y & z & ->). destruct (vec3_inv w Lw) as (x' & y' & z' & ->).
  unfold rnorm in Nv, Nw. unfold emE in E. set (n := rdot [x; y; z] [x; y; z]) in *. set (k := rdot [x'; y'; z'] [x'; y'; z']) in *.
  assert (Hn : n = x * x + y * y + z * z) by apply rdot3. assert (Hk : k = x' * x' + y' * y' + z' * z') by apply rdot3.
  assert (N0 : 0 <= n) by nra. assert (K0 : 0 <= k) by nra.
  apply (f_equal flat9) in E. unfold rodrigues, flat9 in E. cbn [a00 a01 a02 a10 a11 a12 a20 a21 a22] in E. injection E as E1 E2 E3 E4 E5 E6 E7 E8 E9.
  assert (G : emG n = emG k) by (unfold emG; rewrite Hn at 2; rewrite Hk at 2; lra).
  apply emG_inj in G; auto. clearbody n k. rewrite <- G in *. clear Hn Hk G k Nw K0. pose proof (emS_pos n N0 Nv) as P.
  assert (X : emS n * x = emS n * x') by lra. assert (Y : emS n * y = emS n * y') by lra. assert (Z : emS n * z = emS n * z') by lra.
  apply Rmult_eq_reg_l in X, Y, Z; try lra. subst. reflexivity.
Qed.
Lemma eqE_inj v w : length v = 3%nat -> length w = 3%nat -> rnorm v < PI -> rnorm w < PI -> eqE v = eqE w -> v = w.
Proof.
  intros Lv Lw Nv Nw E. destruct (vec3_inv v Lv) as (x & y & z & ->). destruct (vec3_inv w Lw) as (x' & y' & z' & ->).
  unfold rnorm in Nv, Nw. unfold eqE in E. cbv zeta in E. set (n := rdot [x; y; z] [x; y; z]) in *. set (k := rdot [x'; y'; z'] [x'; y'; z']) in *.
  assert (N0 : 0 <= n) by apply rdot_self_nonneg. assert (K0 : 0 <= k) by apply rdot_self_nonneg.
  injection E as G X Y Z. apply eqW_inj in G; auto. clearbody n k. subst k. pose proof (eqS_pos n N0 Nv) as P.
  apply Rmult_eq_reg_l in X, Y, Z; try lra. subst. reflexivity.
Qed.
Lemma eqE_w v : length v = 3%nat -> rnorm v < PI -> 0 < qw (eqE v).
Proof. intros Lv Nv. destruct (vec3_inv v Lv) as (x & y & z & ->). apply eqW_pos; [apply rdot_self_nonneg|exact Nv]. Qed.
Lemma emE_tr v : length v = 3%nat -> rnorm v < PI -> -1 < tr3 (emE v).
Proof.
  intros Lv Nv. destruct (vec3_inv v Lv) as (x & y & z & ->). unfold rnorm in Nv. pose proof (emG_lt2 _ (rdot_self_nonneg [x; y; z]) Nv) as G.
  unfold emE, tr3, rodrigues, emG in *. cbn [a00 a11 a22]. rewrite rdot3 in G at 2. lra.
Qed.
Lemma em_exp_E v : length v = 3%nat -> em_exponential (fin v) = if Rltb (rnorm v) PI then Ok (m3fin (emE v)) else Fail EAssert.
Proof. intros Lv. destruct (vec3_inv v Lv) as (x & y & z & ->). apply em_exponential_fin. Qed.
Lemma eq_exp_E q0 v : length v = 3%nat -> eq_exponential q0 (fin v) = if Rltb (rnorm v) PI then Ok (qfin (eqE v)) else Fail EAssert.
Proof. intros Lv. destruct (vec3_inv v Lv) as (x & y & z & ->). apply eq_exponential_fin. Qed.

(** ** Cancellation *)
Lemma cramer A a b c : rdet A <> 0 -> a00 A * a + a01 A * b + a02 A * c = 0 -> a10 A * a + a11 A * b + a12 A * c = 0 ->
  a20 A * a + a21 A * b + a22 A * c = 0 -> a = 0 /\ b = 0 /\ c = 0.
Proof.
  destruct A as [p q r s t u v w x]. unfold rdet. cbn [a00 a01 a02 a10 a11 a12 a20 a21 a22]. intros D H0 H1 H2.
  assert (Z : forall e, (p * t * x + q * u * v + r * s * w - r * t * v - q * s * x - p * u * w) * e = 0 -> e = 0).
  { intros e E. apply Rmult_integral in E as [E|E]; auto. contradiction. }
  split; [|split]; apply Z.
  - transitivity ((t * x - u * w) * (p * a + q * b + r * c) - (q * x - r * w) * (s * a + t * b + u * c) + (q * u - r * t) * (v * a + w * b + x * c)); [ring|]. rewrite H0, H1, H2. ring.
  - transitivity (- (s * x - u * v) * (p * a + q * b + r * c) + (p * x - r * v) * (s * a + t * b + u * c) - (p * u - r * s) * (v * a + w * b + x * c)); [ring|]. rewrite H0, H1, H2. ring.
  - transitivity ((s * w - t * v) * (p * a + q * b + r * c) - (p * w - q * v) * (s * a + t * b + u * c) + (p * t - q * s) * (v * a + w * b + x * c)); [ring|]. rewrite H0, H1, H2. ring.
Qed.
Lemma rmul_cancel A B C : rdet A <> 0 -> rmul A B = rmul A C -> B = C.
Proof.
  intros D E. destruct B as [b0 b1 b2 b3 b4 b5 b6 b7 b8], C as [c0 c1 c2 c3 c4 c5 c6 c7 c8]. unfold rmul in E. cbn [a00 a01 a02 a10 a11 a12 a20 a21 a22] in E. injection E as E1 E2 E3 E4 E5 E6 E7 E8 E9.
  destruct (cramer A (b0 - c0) (b3 - c3) (b6 - c6) D) as (? & ? & ?); try lra.
  destruct (cramer A (b1 - c1) (b4 - c4) (b7 - c7) D) as (? & ? & ?); try lra.
  destruct (cramer A (b2 - c2) (b5 - c5) (b8 - c8) D) as (? & ? & ?); try lra.
  repeat match goal with H : ?a - ?b = 0 |- _ => apply Rminus_diag_uniq in H; subst end. reflexivity.
Qed.
Lemma qprod_cancel q a b : qn2 q <> 0 -> qprod q a = qprod q b -> a = b.
Proof.
  intros D E. destruct q as [w x y z], a as [p q r s], b as [p' q' r' s']. unfold qprod, qn2 in *. cbn [qw qx qy qz] in *. injection E as E1 E2 E3 E4.
  assert (Z : forall e f, (w * w + x * x + y * y + z * z) * (e - f) = 0 -> e = f).
  { intros e f E. apply Rmult_integral in E as [E|E]; [contradiction|lra]. }
  f_equal; apply Z.
  - transitivity (w * ((w * p - x * q - y * r - z * s) - (w * p' - x * q' - y * r' - z * s')) + x * ((w * q + x * p + y * s - z * r) - (w * q' + x * p' + y * s' - z * r')) + y * ((w * r - x * s + y * p + z * q) - (w * r' - x * s' + y * p' + z * q')) + z * ((w * s + x * r - y * q + z * p) - (w * s' + x * r' - y * q' + z * p'))); [ring|]. rewrite E1, E2, E3, E4. ring.
  - transitivity (- x * ((w * p - x * q - y * r - z * s) - (w * p' - x * q' - y * r' - z * s')) + w * ((w * q + x * p + y * s - z * r) - (w * q' + x * p' + y * s' - z * r')) + z * ((w * r - x * s + y * p + z * q) - (w * r' - x * s' + y * p' + z * q')) - y * ((w * s + x * r - y * q + z * p) - (w * s' + x * r' - y * q' + z * p'))); [ring|]. rewrite E1, E2, E3, E4. ring.
  - transitivity (- y * ((w * p - x * q - y * r - z * s) - (w * p' - x * q' - y * r' - z * s')) - z * ((w * q + x * p + y * s - z * r) - (w * q' + x * p' + y * s' - z * r')) + w * ((w * r - x * s + y * p + z * q) - (w * r' - x * s' + y * p' + z * q')) + x * ((w * s + x * r - y * q + z * p) - (w * s' + x * r' - y * q' + z * p'))); [ring|]. rewrite E1, E2, E3, E4. ring.
  - transitivity (- z * ((w * p - x * q - y * r - z * s) - (w * p' - x * q' - y * r' - z * s')) + y * ((w * q + x * p + y * s - z * r) - (w * q' + x * p' + y * s' - z * r')) - x * ((w * r - x * s + y * p + z * q) - (w * r' - x * s' + y * p' + z * q')) + w * ((w * s + x * r - y * q + z * p) - (w * s' + x * r' - y * q' + z * p'))); [ring|]. rewrite E1, E2, E3, E4. ring.
Qed.

(** ** Leaves *)
(** Points at which the slice can be moved: nonzero, invertible. *)
Definition regular (s : mfd XR) (x : list R) : Prop :=
  match s with
  | Leaf _ LReal _ _ => True
  | Leaf _ LS2 _ _ => 0 < rdot x x
  | Leaf _ (LSO3 MapMatrix) _ _ => exists A, x = flat9 A /\ rdet A <> 0
  | Leaf _ (LSO3 MapQuat) _ _ => exists q, x = qflat q /\ qn2 q <> 0
  | Prod _ _ _ _ => False
  end.
Definition land (s : mfd XR) (x v y : list R) : Prop :=
  match s with
  | Leaf _ LReal _ _ => y = radd x v
  | Leaf _ LS2 _ _ => y = rscal (/ rnorm (radd x v)) (radd x v)
  | Leaf _ (LSO3 MapMatrix) _ _ => rnorm v < PI /\ forall A, x = flat9 A -> y = flat9 (rmul A (emE v))
  | Leaf _ (LSO3 MapQuat) _ _ => rnorm v < PI /\ forall q, x = qflat q -> y = qflat (qprod q (eqE v))
  | Prod _ _ _ _ => False
  end.
Lemma s2_pos x v : length x = length v -> 0 < rdot x x -> rdot x v = 0 -> 0 < rdot (radd x v) (radd x v).
Proof. intros L P T. rewrite rdot_radd_l, !rdot_radd_r by auto. rewrite (rdot_comm v x), T. pose proof (rdot_self_nonneg v). lra. Qed.
Lemma s2_go h a b out x v : leaf_wf h LS2 a b -> length out = 3%nat -> length x = 3%nat -> length v = 3%nat -> 0 < rdot x x -> rdot x v = 0 ->
  retractation (Leaf h LS2 a b) out (fin x) (fin v) = Ok (fin (rscal (/ rnorm (radd x v)) (radd x v))).
Proof.
  intros W Ho Hx Hv H1 Ht. pose proof W as (W1 & W2 & W3 & _).
  cbn [retractation]. unfold representationDim, tangentDim; cbn [hdr_of].
  rewrite !check_eq by (rewrite ?fin_length; lia). cbn [bind].
  change default_prec with (Fin (1 / 100000000)). rewrite s2_inT by auto. assert (Ht' : Rltb (Rabs (rdot x v)) eps8 = true) by (apply Rltb_true; rewrite Ht, Rabs_R0; lra). rewrite Ht'.
  cbn [bind mnf_assert].
  unfold s2_retractation. rewrite same_size_fin by lia. cbn [bind]. rewrite vadd_fin.
  rewrite as_vec3_fin by (rewrite radd_length; lia). cbn [bind]. rewrite norm_fin.
  rewrite vdivs_fin.
  - apply assign_same. rewrite fin_length, rscal_length, radd_length; lia.
  - pose proof (s2_pos x v ltac:(lia) H1 Ht) as P. apply sqrt_lt_R0 in P. unfold rnorm. lra.
Qed.
Lemma leaf_land h l a b o x v r : let s := Leaf h l a b in leaf_wf h l a b -> length o = representationDim s -> length x = representationDim s ->
  regular s x -> tan_leaf s x v -> retractation s o (fin x) (fin v) = Ok r -> exists y, r = fin y /\ land s x v y.
Proof.
  intros s W Lo Lx Rx [Lv T] H. unfold s, representationDim, tangentDim in *. cbn [hdr_of] in *.
  destruct l as [| |[|]]; cbn [regular land tan_leaf] in *.
  - destruct W as [W1 W2]. rewrite real_retr in H by (try split; auto; lia). exists (radd x v). split; [congruence|reflexivity].
  - pose proof W as (W1 & W2 & W3 & _). rewrite s2_go in H by (auto; lia). eexists. split; [symmetry; apply (f_equal (fun r => match r with Ok z => z | _ => [] end)) in H; exact H|reflexivity].
  - pose proof W as (W1 & W2 & W3 & _). destruct Rx as (A & -> & _). assert (L3 : length v = 3%nat) by lia. destruct (Rltb (rnorm v) PI) eqn:N.
    + pose proof (em_exp_E v L3) as E. rewrite N in E. destruct (vec3_inv v L3) as (p & q & t & ->). rewrite (em_retr h a b o A (emE [p; q; t])) in H by (auto; lia).
      apply Rltb_true in N. exists (flat9 (rmul A (emE [p; q; t]))). split; [apply (f_equal (fun r => match r with Ok z => z | _ => [] end)) in H; symmetry; exact H|]. split; auto. intros B EB. apply flat9_inj in EB. subst B. reflexivity.
    + exfalso. revert H. cbn [retractation isInTxM]. unfold representationDim, tangentDim; cbn [hdr_of].
      rewrite !check_eq by (rewrite ?fin_length, ?flat9_length; lia). cbn [bind mnf_assert].
      unfold em_retractation. rewrite em_exp_E, N by auto. discriminate.
  - pose proof W as (W1 & W2 & W3 & _). destruct Rx as (q & -> & _). assert (L3 : length v = 3%nat) by lia. destruct (Rltb (rnorm v) PI) eqn:N.
    + pose proof (eq_exp_E junk_quat v L3) as E. rewrite N in E. rewrite (eq_retr h a b o q (eqE v)) in H by (auto; lia).
      apply Rltb_true in N. exists (qflat (qprod q (eqE v))). split; [apply (f_equal (fun r => match r with Ok z => z | _ => [] end)) in H; symmetry; exact H|]. split; auto. intros B EB. apply qflat_inj in EB. subst B. reflexivity.
    + exfalso. revert H. cbn [retractation isInTxM]. unfold representationDim, tangentDim; cbn [hdr_of].
      rewrite !check_eq by (rewrite ?fin_length; cbn; lia). cbn [bind mnf_assert].
      unfold eq_retractation, eq_retractation_at. rewrite eq_exp_E, N by auto. discriminate.
Qed.
Lemma radd_inj x v w : length v = length x -> length w = length x -> radd x v = radd x w -> v = w.
Proof.
  revert v w. induction x as [|a x IH]; intros [|b v] [|c w] Lv Lw H; try discriminate; auto. unfold radd in H. cbn [combine map fst snd] in H.
  injection H as H1 H2. f_equal; [lra|]. apply IH; auto.
Qed.
Lemma rscal_inj a x y : a <> 0 -> rscal a x = rscal a y -> x = y.
Proof.
  intros Ha. revert y. induction x as [|b x IH]; intros [|c y] H; try discriminate; auto. unfold rscal in H. cbn [map] in H. injection H as H1 H2.
  apply Rmult_eq_reg_l in H1; auto. f_equal; auto.
Qed.
Lemma leaf_land_inj h l a b x v w y y' : let s := Leaf h l a b in leaf_wf h l a b -> length x = representationDim s ->
  regular s x -> tan_leaf s x v -> tan_leaf s x w -> land s x v y -> land s x w y' -> same_leaf s y y' -> v = w.
Proof.
  intros s W Lx Rx [Lv Tv] [Lw Tw] Hv Hw E. unfold s, representationDim, tangentDim in *. cbn [hdr_of] in *.
  destruct l as [| |[|]]; cbn [regular land tan_leaf same_leaf] in *.
  - destruct W as [W1 W2]. subst. apply radd_inj in E; auto; lia.
  - pose proof W as (W1 & W2 & W3 & _). subst y y'. pose proof (s2_pos x v ltac:(lia) Rx Tv) as Pv. pose proof (s2_pos x w ltac:(lia) Rx Tw) as Pw.
    apply sqrt_lt_R0 in Pv, Pw. fold (rnorm (radd x v)) in Pv. fold (rnorm (radd x w)) in Pw.
    pose proof (f_equal (rdot x) E) as D. rewrite !rdot_rscal_r, !rdot_radd_r, Tv, Tw in D by lia.
    assert (D' : / rnorm (radd x w) = / rnorm (radd x v)). { apply (Rmult_eq_reg_r (rdot x x + 0)); lra. }
    rewrite D' in E. apply rscal_inj in E; [|apply Rinv_neq_0_compat; lra]. symmetry. apply radd_inj in E; auto; lia.
  - pose proof W as (W1 & W2 & W3 & _). destruct Rx as (A & -> & DA). destruct Hv as [Nv Hv], Hw as [Nw Hw]. rewrite (Hv A eq_refl), (Hw A eq_refl) in E.
    apply flat9_inj in E. apply rmul_cancel in E; auto. symmetry. apply emE_inj in E; auto; lia.
  - pose proof W as (W1 & W2 & W3 & _). destruct Rx as (q & -> & DA). destruct Hv as [Nv Hv], Hw as [Nw Hw]. rewrite (Hv q eq_refl), (Hw q eq_refl) in E.
    destruct E as [E|E].
    + apply qflat_inj in E. apply qprod_cancel in E; auto. symmetry. apply eqE_inj in E; auto; lia.
    + exfalso. assert (X : qprod q (eqE w) = qprod q (qneg (eqE v))).
      { apply qflat_inj. rewrite E. unfold qprod, qneg, qflat. cbn [qw qx qy qz map].
        repeat match goal with |- _ :: _ = _ :: _ => apply f_equal2 end; try reflexivity; ring. }
      apply qprod_cancel in X; auto. apply (f_equal qw) in X. unfold qneg in X. cbn [qw] in X.
      pose proof (eqE_w v ltac:(lia) Nv). pose proof (eqE_w w ltac:(lia) Nw). lra.
Qed.

(** ** Where it lands *)
Definition in_reach (s : mfd XR) (x y : list R) : Prop :=
  match s with
  | Leaf _ LReal _ _ => True
  | Leaf _ LS2 _ _ => 0 < rdot x y
  | Leaf _ (LSO3 MapMatrix) _ _ => exists A B, x = flat9 A /\ y = flat9 B /\ -1 < tr3 (rmul (rtr A) B)
  | Leaf _ (LSO3 MapQuat) _ _ => 0 < rdot x y
  | Prod _ _ _ _ => False
  end.
Lemma on_regular h l a b x : let s := Leaf h l a b in on_leaf s x -> regular s x.
Proof.
  intros s H. unfold s in *. destruct l as [| |[|]]; cbn [on_leaf regular] in *; auto.
  - lra.
  - destruct H as (A & -> & _ & D). exists A. split; auto. lra.
  - destruct H as (q & -> & D). exists q. split; auto. lra.
Qed.
Lemma on_len h l a b x : let s := Leaf h l a b in leaf_wf h l a b -> on_leaf s x -> length x = representationDim s.
Proof. intros s W H. apply (strays_len 0); auto. unfold s in *. destruct l as [| |[|]]; cbn [on_leaf strays] in *; auto.
  - destruct H as (A & -> & D). exists A. split; auto. apply stretch_rot; auto.
  - destruct H as (q & -> & D). exists q. split; auto. rewrite D, Rminus_diag_eq, Rabs_R0; lra.
Qed.
Lemma rmul_tr_cancel A E : rot A -> rmul (rtr A) (rmul A E) = E.
Proof. intros [H _]. rewrite <- rmul_assoc, H. apply rmul_id_l. Qed.
Lemma leaf_reach h l a b x v y : let s := Leaf h l a b in leaf_wf h l a b -> on_leaf s x -> tan_leaf s x v -> land s x v y -> in_reach s x y.
Proof.
  intros s W Hx [Lv T] H. unfold s, tangentDim in *. cbn [hdr_of] in *. destruct l as [| |[|]]; cbn [on_leaf land tan_leaf in_reach] in *; auto.
  - pose proof W as (W1 & W2 & W3 & _). subst y. destruct Hx as [L3 U]. pose proof (s2_pos x v ltac:(lia) ltac:(lra) T) as P. apply sqrt_lt_R0 in P. fold (rnorm (radd x v)) in P.
    rewrite rdot_rscal_r, rdot_radd_r, T, U by lia. pose proof (Rinv_0_lt_compat _ P). lra.
  - pose proof W as (W1 & W2 & W3 & _). destruct Hx as (A & -> & RA). destruct H as [N H]. exists A, (rmul A (emE v)). split; auto. split; [auto|]. rewrite rmul_tr_cancel by auto. apply emE_tr; auto; lia.
  - pose proof W as (W1 & W2 & W3 & _). destruct Hx as (q & -> & U). destruct H as [N H]. rewrite (H q eq_refl).
    replace (rdot (qflat q) (qflat (qprod q (eqE v)))) with (qn2 q * qw (eqE v)) by (unfold qn2, qprod, qflat; cbn [qw qx qy qz rdot]; ring).
    rewrite U. pose proof (eqE_w v ltac:(lia) N). lra.
Qed.

Lemma emE_near v : length v = 3%nat -> rnorm v < PI -> near_v (1 / 10 ^ 22) (flat9 (emE v)) (flat9 (expSO3 v)).
Proof.
  intros L N. destruct (Rle_dec eps8 (rdot v v)) as [B|B].
  - pose proof (em_exp_main v L B N) as E. rewrite em_exp_E in E by auto. apply Rltb_true in N. rewrite N in E.
    assert (emE v = expSO3 v) as ->. { apply flat9_inj. apply (f_equal (fun r => match r with Ok M => m3_to_list M | _ => [] end)) in E. rewrite !m3_to_list_fin in E. apply fin_inj in E. exact E. }
    eapply near_v_mono; [|apply near_v_refl]. lra.
  - apply Rnot_le_lt in B. destruct (vec3_inv v L) as (x & y & z & ->). unfold emE, emS, emC. apply Rltb_true in B as B'. rewrite B'. rewrite rdot3 in *. apply (em_series_dist x y z B).
Qed.
Lemma eqE_near v : length v = 3%nat -> rnorm v < PI -> near_v (1 / 10 ^ 24) (qflat (eqE v)) (qflat (expQ v)).
Proof.
  intros L N. destruct (Rle_dec eps8 (rdot v v)) as [B|B].
  - pose proof (eq_exp_main junk_quat v L B N) as E. rewrite eq_exp_E in E by auto. apply Rltb_true in N. rewrite N in E.
    assert (eqE v = expQ v) as ->. { apply qflat_inj. apply (f_equal (fun r => match r with Ok q => [qw q; qx q; qy q; qz q] | _ => [] end)) in E. exact (fin_inj (qflat (eqE v)) (qflat (expQ v)) E). }
    eapply near_v_mono; [|apply near_v_refl]. lra.
  - apply Rnot_le_lt in B. destruct (vec3_inv v L) as (x & y & z & ->). unfold eqE, eqS, eqW. cbv zeta. apply Rltb_true in B as B'. rewrite B'. rewrite rdot3 in *. apply (eq_series_dist x y z B).
Qed.
Lemma radd_sub_back x y : length x = length y -> radd x (rsub y x) = y.
Proof.
  revert y. induction x as [|a x IH]; intros [|b y] L; try discriminate; auto. unfold radd, rsub in *. cbn [combine map fst snd]. f_equal; [ring|]. apply IH. auto.
Qed.
Lemma leaf_onto h l a b x y : let s := Leaf h l a b in leaf_wf h l a b -> on_leaf s x -> on_leaf s y -> in_reach s x y ->
  exists vz, tan_leaf s x (fst vz) /\ near_v (1 / 10 ^ 20) (snd vz) y /\ (is_so3 s = false -> snd vz = y) /\
    forall o, length o = representationDim s -> retractation s o (fin x) (fin (fst vz)) = Ok (fin (snd vz)).
Proof.
  intros s W Hx Hy H. unfold s, tan_leaf, representationDim, tangentDim in *. cbn [hdr_of] in *. destruct l as [| |[|]]; cbn [on_leaf in_reach is_so3] in *.
  - destruct W as [W1 W2]. exists (rsub y x, y). cbn [fst snd]. split; [split; auto; rewrite rsub_length; lia|]. split; [eapply near_v_mono; [|apply near_v_refl]; lra|]. split; auto.
    intros o Lo. rewrite real_retr; try (split; auto); try lia; [|rewrite rsub_length; lia]. rewrite radd_sub_back; auto. lia.
  - pose proof W as (W1 & W2 & W3 & _). destruct Hx as [Lx Ux], Hy as [Ly Uy]. set (d := rdot x y) in *.
    exists (rsub (rscal (/ d) y) x, y). cbn [fst snd].
    assert (T : rdot x (rsub (rscal (/ d) y) x) = 0). { rewrite rdot_rsub_r by (rewrite rscal_length; lia). rewrite rdot_rscal_r, Ux. fold d. field. lra. }
    assert (L : length (rsub (rscal (/ d) y) x) = 3%nat) by (rewrite rsub_length; rewrite ?rscal_length; lia).
    split; [split; auto; lia|]. split; [eapply near_v_mono; [|apply near_v_refl]; lra|]. split; auto.
    intros o Lo. rewrite s2_go; auto; try lia; try lra. rewrite radd_sub_back by (rewrite rscal_length; lia).
    rewrite rnorm_scal. replace (rnorm y) with 1 by (unfold rnorm; rewrite Uy, sqrt_1; reflexivity). rewrite Rabs_right by (pose proof (Rinv_0_lt_compat d H); lra).
    replace (rscal (/ (/ d * 1)) (rscal (/ d) y)) with y; auto.
    unfold rscal. rewrite map_map. rewrite <- (map_id y) at 1. apply map_ext. intros z. field. lra.
  - pose proof W as (W1 & W2 & W3 & _). destruct Hx as (A & -> & RA), Hy as (B & -> & RB). destruct H as (A' & B' & EA & EB & T). apply flat9_inj in EA, EB. subst A' B'.
    destruct (rot_exp (rmul (rtr A) B)) as (v & Lv & Nv & Ev). { apply rot_mul; auto. apply rot_tr; auto. }
    assert (N : rnorm v < PI). { destruct Nv as [N|N]; auto. exfalso. pose proof (expSO3_trace v (rnorm v) Lv eq_refl) as X. rewrite N, cos_PI, Ev in X. unfold tr3 in T. lra. }
    exists (v, flat9 (rmul A (emE v))). cbn [fst snd]. split; [split; auto; lia|]. split.
    { assert (EB : B = rmul A (expSO3 v)). { rewrite Ev, <- rmul_assoc. replace (rmul A (rtr A)) with ridm; [symmetry; apply rmul_id_l|]. symmetry. apply rot_r; auto. }
      rewrite EB. eapply near_v_mono; [|apply rmul_near; [auto| |apply emE_near; auto]]; lra. }
    split; [discriminate|]. intros o Lo. destruct (vec3_inv v Lv) as (p & q & t & ->). apply em_retr; auto; [lia|]. rewrite em_exp_E by auto. apply Rltb_true in N. rewrite N. reflexivity.
  - pose proof W as (W1 & W2 & W3 & _). destruct Hx as (q & -> & Uq), Hy as (p & -> & Up).
    assert (U : qn2 (qprod (qconj q) p) = 1). { rewrite qn2_mul, Up. replace (qn2 (qconj q)) with (qn2 q); [lra|]. unfold qn2, qconj. cbn [qw qx qy qz]. ring. }
    assert (Wp : 0 < qw (qprod (qconj q) p)). { unfold qprod, qconj, qflat in *. cbn [qw qx qy qz rdot] in *. lra. }
    destruct (logQ_spec _ U) as (Lv & _ & Nv & Ev). specialize (Nv ltac:(lra)). set (v := logQ (qprod (qconj q) p)) in *.
    assert (E : expQ v = qprod (qconj q) p).
    { destruct Ev as [E|E]; auto. exfalso. apply (f_equal qw) in E. unfold qneg in E. cbn [qw] in E.
      assert (C : 0 <= qw (expQ v)). { destruct (vec3_inv v Lv) as (x & y & z & ->). unfold expQ. cbv zeta. destruct (Req_EM_T _ 0); cbn [qw]; [lra|]. pose proof (rnorm_nonneg [x; y; z]). apply cos_ge_0; lra. }
      lra. }
    exists (v, qflat (qprod q (eqE v))). cbn [fst snd]. split; [split; auto; lia|]. split.
    { assert (EB : p = qprod q (expQ v)). { rewrite E, <- qprod_assoc, qmul_conj by auto. destruct p as [w x y z]. unfold qprod. cbn [qw qx qy qz]. f_equal; ring. }
      rewrite EB. eapply near_v_mono; [|apply qprod_near; [auto| |apply eqE_near; auto]]; lra. }
    split; [discriminate|]. intros o Lo. apply eq_retr; auto; [lia|]. rewrite eq_exp_E by auto. apply Rltb_true in Nv. rewrite Nv. reflexivity.
Qed.
