(** forceOnM on finite values: Gram-Schmidt on the matrix map, normalisation on S2 and the quaternions. *)
From Coq Require Import Reals List Lra Lia ZArith Bool Arith Psatz.
From Verif Require Import Base Scalar Vec Model_Real Model_S2 Model_SO3 Model_Manifold Spec Layout Comp Indep Flat
  XR SpecR RotR NumVec NumMat Angle NumQuat NumTree NumLeaf RotLog RoundTrip NumS2.
Import ListNotations.
Local Open Scope R_scope.

Definition colsm (a b c : list R) : m3 R :=
  M3 (nth 0 a 0) (nth 0 b 0) (nth 0 c 0) (nth 1 a 0) (nth 1 b 0) (nth 1 c 0) (nth 2 a 0) (nth 2 b 0) (nth 2 c 0).
Lemma colsm_flat a b c : length a = 3%nat -> length b = 3%nat -> length c = 3%nat -> flat9 (colsm a b c) = a ++ b ++ c.
Proof.
  intros Ha Hb Hc. destruct (vec3_inv a Ha) as (? & ? & ? & ->). destruct (vec3_inv b Hb) as (? & ? & ? & ->).
  destruct (vec3_inv c Hc) as (? & ? & ? & ->). reflexivity.
Qed.
Definition rc0 (A : m3 R) := [a00 A; a10 A; a20 A].
Definition rc1 (A : m3 R) := [a01 A; a11 A; a21 A].
Definition rc2 (A : m3 R) := [a02 A; a12 A; a22 A].
Lemma colsm_id A : colsm (rc0 A) (rc1 A) (rc2 A) = A.
Proof. destruct A; reflexivity. Qed.

Definition normed (x : list R) : list R := rscal (/ rnorm x) x.
(** The vectors computed by the loop. *)
Definition gsB (a b : list R) : list R := rsub b (rscal (rdot (normed a) b) (normed a)).
Definition gsC (a b c : list R) : list R :=
  let c' := gsB a c in let q1 := normed (gsB a b) in rsub c' (rscal (rdot q1 c') q1).
Definition gs (A : m3 R) : m3 R :=
  colsm (normed (rc0 A)) (normed (gsB (rc0 A) (rc1 A))) (normed (gsC (rc0 A) (rc1 A) (rc2 A))).

Lemma normed_length x : length (normed x) = length x.
Proof. apply rscal_length. Qed.
Lemma gsB_length a b : length a = 3%nat -> length b = 3%nat -> length (gsB a b) = 3%nat.
Proof. intros. unfold gsB. rewrite rsub_length; auto. rewrite rscal_length, normed_length. lia. Qed.
Lemma gsC_length a b c : length a = 3%nat -> length b = 3%nat -> length c = 3%nat -> length (gsC a b c) = 3%nat.
Proof.
  intros. unfold gsC. cbv zeta. rewrite rsub_length; [apply gsB_length; auto|].
  rewrite rscal_length, normed_length, !gsB_length; auto.
Qed.

Lemma det_gsB a b c : length a = 3%nat -> length b = 3%nat -> length c = 3%nat ->
  rdet (colsm a (gsB a b) c) = rdet (colsm a b c).
Proof.
  intros Ha Hb Hc. unfold gsB, normed. set (k := rdot _ b). set (n := / rnorm a).
  destruct (vec3_inv a Ha) as (? & ? & ? & ->). destruct (vec3_inv b Hb) as (? & ? & ? & ->).
  destruct (vec3_inv c Hc) as (? & ? & ? & ->). clearbody k n. unfold rsub, rscal, colsm, rdet. simpl. ring.
Qed.
Lemma det_gsC a b c : length a = 3%nat -> length b = 3%nat -> length c = 3%nat ->
  rdet (colsm a (gsB a b) (gsC a b c)) = rdet (colsm a b c).
Proof.
  intros Ha Hb Hc. rewrite <- (det_gsB a b c) by auto. unfold gsC. cbv zeta. set (b1 := gsB a b).
  assert (Lb : length b1 = 3%nat) by (apply gsB_length; auto). clearbody b1.
  set (c' := gsB a c). unfold normed at 1 2. set (k := rdot _ c'). set (n := / rnorm b1). clearbody k n.
  unfold c', gsB, normed. set (k' := rdot _ c). set (n' := / rnorm a). clearbody k' n'.
  destruct (vec3_inv a Ha) as (? & ? & ? & ->). destruct (vec3_inv b1 Lb) as (? & ? & ? & ->).
  destruct (vec3_inv c Hc) as (? & ? & ? & ->). unfold rsub, rscal, colsm, rdet. simpl. ring.
Qed.

Lemma rdot_zero3 x : length x = 3%nat -> rdot x x = 0 -> x = [0; 0; 0].
Proof. intros L H. destruct (vec3_inv x L) as (p & q & r & ->). simpl in H. apply list3_eq; nra. Qed.
Lemma rdot_pos3 x : length x = 3%nat -> x <> [0; 0; 0] -> 0 < rdot x x.
Proof.
  intros L H. destruct (rdot_self_nonneg x) as [P|P]; auto. exfalso. apply H. apply rdot_zero3; auto.
Qed.
Lemma gs_pos a b c : length a = 3%nat -> length b = 3%nat -> length c = 3%nat -> rdet (colsm a b c) <> 0 ->
  0 < rdot a a /\ 0 < rdot (gsB a b) (gsB a b) /\ 0 < rdot (gsC a b c) (gsC a b c).
Proof.
  intros Ha Hb Hc D. split; [|split]; apply rdot_pos3; auto using gsB_length, gsC_length; intros E; apply D.
  - rewrite E. destruct (vec3_inv b Hb) as (? & ? & ? & ->). destruct (vec3_inv c Hc) as (? & ? & ? & ->).
    unfold rdet, colsm. simpl. ring.
  - rewrite <- det_gsB, E by auto. destruct (vec3_inv a Ha) as (? & ? & ? & ->). destruct (vec3_inv c Hc) as (? & ? & ? & ->).
    unfold rdet, colsm. simpl. ring.
  - rewrite <- det_gsC, E by auto. pose proof (gsB_length a b Ha Hb) as Lg. destruct (vec3_inv a Ha) as (? & ? & ? & ->).
    destruct (vec3_inv (gsB _ b) Lg) as (? & ? & ? & ->). unfold rdet, colsm. simpl. ring.
Qed.
Lemma orthonormal_rot p q r : length p = 3%nat -> length q = 3%nat -> length r = 3%nat ->
  rdot p p = 1 -> rdot q q = 1 -> rdot r r = 1 -> rdot p q = 0 -> rdot p r = 0 -> rdot q r = 0 ->
  0 < rdet (colsm p q r) -> rot (colsm p q r).
Proof.
  intros Lp Lq Lr Hp Hq Hr Hpq Hpr Hqr D.
  assert (G : rmul (rtr (colsm p q r)) (colsm p q r) = ridm).
  { destruct (vec3_inv p Lp) as (? & ? & ? & ->). destruct (vec3_inv q Lq) as (? & ? & ? & ->).
    destruct (vec3_inv r Lr) as (? & ? & ? & ->). unfold colsm. simpl in *. m3_eq; simpl; lra. }
  split; auto. assert (E := f_equal rdet G). rewrite rdet_mul, rdet_tr, rdet_id in E. nra.
Qed.
Lemma det_scale a b c k l m : length a = 3%nat -> length b = 3%nat -> length c = 3%nat ->
  rdet (colsm (rscal k a) (rscal l b) (rscal m c)) = k * l * m * rdet (colsm a b c).
Proof.
  intros Ha Hb Hc. destruct (vec3_inv a Ha) as (? & ? & ? & ->). destruct (vec3_inv b Hb) as (? & ? & ? & ->).
  destruct (vec3_inv c Hc) as (? & ? & ? & ->). unfold rscal, colsm, rdet. simpl. ring.
Qed.
Lemma rnorm_pos x : 0 < rdot x x -> 0 < rnorm x.
Proof. apply sqrt_lt_R0. Qed.
Lemma gs_rot A : 0 < rdet A -> rot (gs A).
Proof.
  intros D. rewrite <- (colsm_id A) in D. unfold gs. set (a := rc0 A) in *. set (b := rc1 A) in *. set (c := rc2 A) in *.
  assert (La : length a = 3%nat) by reflexivity. assert (Lb : length b = 3%nat) by reflexivity.
  assert (Lc : length c = 3%nat) by reflexivity. clearbody a b c.
  destruct (gs_pos a b c La Lb Lc) as (Pa & Pb & Pc); [lra|].
  pose proof (gsB_length a b La Lb) as LB. pose proof (gsC_length a b c La Lb Lc) as LC.
  assert (U0 := unit_normal a Pa). assert (U1 := unit_normal _ Pb). assert (U2 := unit_normal _ Pc).
  fold (normed a) in U0. fold (normed (gsB a b)) in U1. fold (normed (gsC a b c)) in U2.
  assert (O : forall d, length d = 3%nat -> rdot (normed a) (gsB a d) = 0).
  { intros d Ld. unfold gsB. rewrite rdot_rsub_r, rdot_rscal_r, U0 by (rewrite rscal_length, normed_length; lia). ring. }
  assert (O01 : rdot (normed a) (normed (gsB a b)) = 0).
  { unfold normed at 2. rewrite rdot_rscal_r, O by auto. ring. }
  assert (O02 : rdot (normed a) (normed (gsC a b c)) = 0).
  { unfold normed at 2. rewrite rdot_rscal_r. unfold gsC. cbv zeta.
    rewrite rdot_rsub_r, rdot_rscal_r, O, O01 by (rewrite ?rscal_length, ?normed_length, ?gsB_length; auto). ring. }
  assert (O12 : rdot (normed (gsB a b)) (normed (gsC a b c)) = 0).
  { unfold normed at 2. rewrite rdot_rscal_r. unfold gsC at 2. cbv zeta.
    rewrite rdot_rsub_r, rdot_rscal_r, U1 by (rewrite ?rscal_length, ?normed_length, ?gsB_length; auto). ring. }
  apply orthonormal_rot; rewrite ?normed_length; auto.
  unfold normed. rewrite det_scale, det_gsC by auto.
  apply Rmult_lt_0_compat; auto. repeat apply Rmult_lt_0_compat; apply Rinv_0_lt_compat, rnorm_pos; auto.
Qed.

Lemma normed_fix x : rdot x x = 1 -> normed x = x.
Proof.
  intros H. unfold normed, rnorm. rewrite H, sqrt_1, Rinv_1. clear H. unfold rscal. induction x; auto. simpl. f_equal; auto; ring.
Qed.
Lemma gsB_fix a b : length a = length b -> rdot a a = 1 -> rdot a b = 0 -> gsB a b = b.
Proof.
  intros L U O. unfold gsB. rewrite normed_fix, O by auto. apply rsub_zero. auto.
Qed.
Lemma rot_cols A : rot A -> rdot (rc0 A) (rc0 A) = 1 /\ rdot (rc1 A) (rc1 A) = 1 /\ rdot (rc2 A) (rc2 A) = 1 /\
  rdot (rc0 A) (rc1 A) = 0 /\ rdot (rc0 A) (rc2 A) = 0 /\ rdot (rc1 A) (rc2 A) = 0.
Proof.
  intros [H _]. assert (E0 := f_equal a00 H). assert (E1 := f_equal a11 H). assert (E2 := f_equal a22 H).
  assert (E3 := f_equal a01 H). assert (E4 := f_equal a02 H). assert (E5 := f_equal a12 H).
  destruct A as [m00 m01 m02 m10 m11 m12 m20 m21 m22]. unfold rc0, rc1, rc2. cbn [rmul rtr ridm a00 a01 a02 a10 a11 a12 a20 a21 a22 rdot] in *. repeat split; lra.
Qed.
Lemma gs_fix A : rot A -> gs A = A.
Proof.
  intros H. destruct (rot_cols A H) as (U0 & U1 & U2 & O01 & O02 & O12).
  unfold gs, gsC. cbv zeta. rewrite !gsB_fix by auto. rewrite !normed_fix by auto. rewrite O12, rsub_zero, normed_fix by auto.
  apply colsm_id.
Qed.

Lemma map_mul_fin r x : map (fun q : XR => kmul q (Fin r)) (fin x) = fin (rscal r x).
Proof. induction x; simpl; auto. f_equal; auto. f_equal. ring. Qed.
Lemma vdivs_normed x : 0 < rdot x x -> vdivs (fin x) (norm (fin x)) = fin (normed x).
Proof. intros H. rewrite norm_fin, vdivs_fin; auto. pose proof (rnorm_pos x H). lra. Qed.

(** The acceptance test of ExpMapMatrix::forceOnM_, in real numbers. *)
Definition fro2 (A : m3 R) : R := rdot (flat9 A) (flat9 A).
Definition almost_rot (A : m3 R) : Prop :=
  let G := rmul (rtr A) A in
  rdot (rsub (flat9 G) (flat9 ridm)) (rsub (flat9 G) (flat9 ridm)) <= 1 / 10 * (1 / 10) * Rmin (fro2 G) (fro2 ridm) /\
  Rabs (rdet A - 1) < 1 / 10.
Lemma m3_isApprox_fin A B p : m3_isApprox (m3fin A) (m3fin B) (Fin p) = true <->
  rdot (rsub (flat9 A) (flat9 B)) (rsub (flat9 A) (flat9 B)) <= p * p * Rmin (fro2 A) (fro2 B).
Proof.
  unfold m3_isApprox, m3_sqsum. rewrite !m3_to_list_fin, !sqnorm_fin. fold (fro2 A). fold (fro2 B).
  assert (E : m3_to_list (m3_map2 ksub (m3fin A) (m3fin B)) = fin (rsub (flat9 A) (flat9 B))) by reflexivity.
  rewrite E, sqnorm_fin. unfold kmin. cbn [kltb kleb kmul XRS xltb xleb lift2].
  destruct (Rltb (fro2 B) (fro2 A)) eqn:C.
  - apply Rltb_true in C. rewrite Rmin_right by lra. rewrite Rleb_true. reflexivity.
  - apply Rltb_false in C. rewrite Rmin_left by lra. rewrite Rleb_true. reflexivity.
Qed.
Lemma almost_det A : almost_rot A -> 0 < rdet A.
Proof. intros [_ H]. apply Rabs_def2 in H. lra. Qed.
Lemma em_force_fin out A : length out = 9%nat ->
  (almost_rot A -> em_forceOnM out (fin (flat9 A)) = Ok (fin (flat9 (gs A)))) /\
  (~ almost_rot A -> em_forceOnM out (fin (flat9 A)) = Fail EAssert).
Proof.
  intros Lo. unfold em_forceOnM. rewrite m3_read_fin. cbn [bind]. rewrite m3_trans_fin, m3_mul_fin, m3_det_fin, m3_id_fin.
  assert (T : (m3_isApprox (m3fin (rmul (rtr A) A)) (m3fin ridm) (klit 1 10) && kltb (kabs (ksub (Fin (rdet A)) k1)) (klit 1 10)) = true
              <-> almost_rot A).
  { change (klit 1 10) with (Fin (1 / 10)). rewrite andb_true_iff, m3_isApprox_fin.
    cbn [ksub k1 XRS xsub kabs xabs lift1 lift2 kltb xltb]. rewrite Rltb_true. reflexivity. }
  split; intros H.
  - pose proof (proj2 T H) as Ht. rewrite Ht. cbn [mnf_assert bind].
    pose proof (almost_det A H) as D. rewrite <- (colsm_id A) in D.
    change (col0 (m3fin A)) with (fin (rc0 A)). change (col1 (m3fin A)) with (fin (rc1 A)). change (col2 (m3fin A)) with (fin (rc2 A)).
    destruct (gs_pos (rc0 A) (rc1 A) (rc2 A) eq_refl eq_refl eq_refl) as (Pa & Pb & Pc); [lra|].
    rewrite !vdivs_normed by auto. rewrite !dot_fin, !map_mul_fin, !vsub_fin.
    change (rsub (rc1 A) (rscal (rdot (normed (rc0 A)) (rc1 A)) (normed (rc0 A)))) with (gsB (rc0 A) (rc1 A)).
    change (rsub (rc2 A) (rscal (rdot (normed (rc0 A)) (rc2 A)) (normed (rc0 A)))) with (gsB (rc0 A) (rc2 A)).
    rewrite !vdivs_normed by auto. rewrite !dot_fin, !map_mul_fin, !vsub_fin.
    change (rsub (gsB (rc0 A) (rc2 A)) _) with (gsC (rc0 A) (rc1 A) (rc2 A)).
    rewrite !vdivs_normed by auto. unfold gs.
    rewrite colsm_flat by (rewrite ?normed_length; auto using gsB_length, gsC_length).
    unfold fin. rewrite !map_app. apply raw_write_same.
    rewrite !app_length, !map_length, !normed_length, gsB_length, gsC_length; auto.
  - destruct (m3_isApprox _ _ _ && _) eqn:E; [|reflexivity]. exfalso. apply H, T. auto.
Qed.
Lemma almost_rot_rot A : rot A -> almost_rot A.
Proof.
  intros [H D]. unfold almost_rot. cbv zeta. rewrite H, D. split.
  - rewrite Rmin_left by lra. unfold fro2, ridm, flat9, rsub. simpl. lra.
  - replace (1 - 1) with 0 by ring. rewrite Rabs_R0. lra.
Qed.

Lemma s2_force_fin out x : length out = 3%nat -> length x = 3%nat ->
  (0 < rdot x x -> s2_forceOnM out (fin x) = Ok (fin (normed x))) /\
  (rdot x x = 0 -> s2_forceOnM out (fin x) = Ok [Undef; Undef; Undef]).
Proof.
  intros Lo Lx. unfold s2_forceOnM. split; intros H.
  - rewrite vdivs_normed by auto. apply assign_same. rewrite fin_length, normed_length. lia.
  - apply rdot_zero3 in H; auto. subst x. rewrite norm_fin. unfold rnorm. replace (rdot _ _) with 0 by (simpl; ring).
    rewrite sqrt_0. unfold vdivs, fin. cbn [map kdiv XRS]. rewrite xdiv_0. apply assign_same. auto.
Qed.
Lemma eq_force_fin out q : length out = 4%nat ->
  (0 < qn2 q -> eq_forceOnM out (fin (qflat q)) = Ok (fin (normed (qflat q)))) /\
  (qn2 q = 0 -> eq_forceOnM out (fin (qflat q)) = Ok [Undef; Undef; Undef; Undef]).
Proof.
  intros Lo. unfold eq_forceOnM. rewrite quat_read_fin. cbn [bind]. destruct (quat_read_len out Lo) as [r ->]. cbn [bind].
  rewrite qsqnorm_fin. cbn [ksqrt XRS]. split; intros H.
  - rewrite xsqrt_fin by lra. pose proof (sqrt_lt_R0 _ H) as S.
    unfold qfin, quat_write, quat_to_list. cbn [qw qx qy qz kdiv XRS]. rewrite !xdiv_fin by lra.
    rewrite raw_write_same by auto. f_equal. unfold normed, rnorm, rscal, qflat.
    replace (rdot _ _) with (qn2 q) by (unfold qn2; simpl; ring). unfold Rdiv. cbn [map fin].
    rewrite !(Rmult_comm (/ sqrt (qn2 q))). reflexivity.
  - rewrite H, xsqrt_fin by lra. rewrite sqrt_0.
    unfold qfin, quat_write, quat_to_list. cbn [qw qx qy qz kdiv XRS]. rewrite !xdiv_0. apply raw_write_same. auto.
Qed.
Lemma qn2_dot q : qn2 q = rdot (qflat q) (qflat q).
Proof. unfold qn2. simpl. ring. Qed.

(** Zero vectors have no direction. *)
Definition has_dir (m : mfd XR) (x : list R) : Prop :=
  match m with
  | Leaf _ LS2 _ _ | Leaf _ (LSO3 MapQuat) _ _ => 0 < rdot x x
  | _ => True
  end.
Definition accepts (m : mfd XR) (x : list R) : Prop :=
  match m with Leaf _ (LSO3 MapMatrix) _ _ => exists A, x = flat9 A /\ almost_rot A | _ => True end.
Definition forced (m : mfd XR) (x : list R) : list R :=
  match m with
  | Leaf _ LS2 _ _ | Leaf _ (LSO3 MapQuat) _ _ => normed x
  | Leaf _ (LSO3 MapMatrix) _ _ => match x with
     | [m00; m10; m20; m01; m11; m21; m02; m12; m22] => flat9 (gs (M3 m00 m01 m02 m10 m11 m12 m20 m21 m22)) | _ => x end
  | _ => x
  end.
Lemma leaf_force h l a b x : let s := Leaf h l a b in leaf_wf h l a b -> length x = representationDim s -> has_dir s x ->
  length (forced s x) = representationDim s /\
  forall o, length o = representationDim s ->
    (accepts s x -> forceOnM s o (fin x) = Ok (fin (forced s x)) /\ on_leaf s (forced s x)) /\
    (~ accepts s x -> forceOnM s o (fin x) = Fail EAssert).
Proof.
  intros s W Lx Hd. unfold s in *. unfold representationDim in *; cbn [hdr_of] in *.
  assert (Ch : forall o : list XR, length o = h_rdim h -> forall (k : res (list XR)),
     (_ <- mnf_assert (length o =? h_rdim h)%nat ;; _ <- mnf_assert (length (fin x) =? h_rdim h)%nat ;; k) = k).
  { intros o Lo k. rewrite !check_eq by (rewrite ?fin_length; auto). reflexivity. }
  destruct l as [| |[|]]; cbn [forced accepts has_dir on_leaf] in *.
  - destruct W as [W1 W2]. split; auto. intros o Lo. cbn [forceOnM]. unfold representationDim; cbn [hdr_of]. rewrite Ch by auto.
    split; [|tauto]. intros _. split; [|lia]. apply assign_same. rewrite fin_length. lia.
  - destruct W as (W1 & W2 & W3 & _). rewrite normed_length. split; auto. intros o Lo. cbn [forceOnM]. unfold representationDim; cbn [hdr_of]. rewrite Ch by auto.
    split; [|tauto]. intros _. split; [apply s2_force_fin; auto; lia|]. split; [lia|]. apply unit_normal; auto.
  - destruct W as (W1 & W2 & W3 & _). rewrite W3 in Lx.
    destruct (flat9_surj x Lx) as [A ->]. 
    assert (Ef : forced (Leaf (K:=XR) h (LSO3 MapMatrix) a b) (flat9 A) = flat9 (gs A)) by (destruct A; reflexivity).
    cbn [forced] in Ef. rewrite Ef. split; [rewrite flat9_length; lia|].
    intros o Lo. cbn [forceOnM]. unfold representationDim; cbn [hdr_of]. rewrite Ch by auto.
    destruct (em_force_fin o A ltac:(lia)) as [F1 F2]. split.
    + intros (B & E & HB). apply flat9_inj in E. subst B. split; auto. exists (gs A). split; auto. apply gs_rot, almost_det; auto.
    + intros HN. apply F2. intros HA. apply HN. eauto.
  - destruct W as (W1 & W2 & W3 & _). rewrite normed_length. split; auto. intros o Lo. cbn [forceOnM]. unfold representationDim; cbn [hdr_of]. rewrite Ch by auto.
    split; [|tauto]. intros _. rewrite W3 in Lx. destruct (qflat_surj x Lx) as [q ->].
    split; [apply eq_force_fin; [lia|rewrite qn2_dot; auto]|].
    assert (L4 : length (normed (qflat q)) = 4%nat) by (rewrite normed_length; auto).
    destruct (qflat_surj _ L4) as [p Ep]. exists p. split; auto. rewrite qn2_dot, <- Ep. apply unit_normal; auto.
Qed.
Lemma forced_on h l a b x : let s := Leaf h l a b in on_leaf s x -> forced s x = x /\ has_dir s x /\ accepts s x.
Proof.
  destruct l as [| |[|]]; cbn [forced on_leaf has_dir accepts]; intros H; auto.
  - destruct H as [L U]. rewrite normed_fix by auto. split; auto. split; auto. lra.
  - destruct H as (A & -> & HA). split; [|split; auto]; [|exists A; auto using almost_rot_rot].
    pose proof (gs_fix A HA) as G. destruct A as [m00 m01 m02 m10 m11 m12 m20 m21 m22]. unfold flat9 at 1. cbn [a00 a01 a02 a10 a11 a12 a20 a21 a22].
    rewrite G. reflexivity.
  - destruct H as (q & -> & U). rewrite qn2_dot in U. rewrite normed_fix by auto. split; auto. split; auto. lra.
Qed.
