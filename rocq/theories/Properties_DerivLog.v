(** C08: diffPseudoLog0 is the derivative of pseudoLog0 off the switches, on every tree. *)
From Coq Require Import Reals List Lra Lia ZArith Bool Arith.
From Verif Require Import Base Scalar Vec Model_Real Model_S2 Model_SO3 Model_Manifold Spec Layout Comp Flat BlockMat MatOps MatProd MatTan
  Structure XR SpecR RotR NumVec NumMat NumQuat Angle NumTree NumLeaf NumS2 RoundTrip NumExp MatNum JacApply TanLeaf Deriv DerivRetr DerivLog ExScalar ExR
  Properties_Matrix Properties_Deriv.
Import ListNotations.
Local Open Scope R_scope.

(** A point of a tree off the switches: its piece on every leaf is. *)
Definition regularM (m : mfd XR) (x : list R) : Prop := exists xs, x = concat xs /\ Forall2 regular0 (leaves m) xs.

Definition log_ok (s : mfd XR) (x : list R) (J : list (list R)) : Prop :=
  diffPseudoLog0 s (fin x) = Ok (matR (tangentDim s) J) /\ length J = representationDim s /\ Forall (fun c => length c = tangentDim s) J /\
  forall u, length u = representationDim s -> exists p : (R -> list R) * R, 0 < snd p /\
    (forall t, Rabs t < snd p -> forall o, length o = tangentDim s -> pseudoLog0 s o (fin (radd x (rscal t u))) = Ok (fin (fst p t))) /\
    deriv_v (fst p) 0 (rmv (tangentDim s) J u).
Lemma regular0_len h l a b x : leaf_wf h l a b -> regular0 (Leaf h l a b) x -> length x = h_rdim h.
Proof.
  intros W P. destruct l as [| |[|]]; cbn [regular0 leaf_wf] in *; [lia|contradiction| |].
  - destruct P as (A & -> & _). cbn. lia.
  - destruct P as (A & -> & _). cbn. lia.
Qed.
Lemma radd_concat xs us t : Forall2 (fun x u : list R => length x = length u) xs us ->
  radd (concat xs) (rscal t (concat us)) = concat (map (fun p => radd (fst p) (rscal t (snd p))) (combine xs us)).
Proof.
  induction 1 as [|x u xs us H F IH]; [reflexivity|]. cbn [concat combine map fst snd]. rewrite <- IH. unfold rscal. rewrite map_app.
  assert (E : length x = length (map (Rmult t) u)) by (rewrite map_length; auto). revert E. generalize (map (Rmult t) u), (map (Rmult t) (concat us)), (concat xs). clear.
  intros w z y. revert w; induction x as [|c x IH]; intros [|e w] L; try discriminate; [reflexivity|].
  cbn [app]. unfold radd in *. cbn [combine map app]. f_equal. apply IH. simpl in L. lia.
Qed.

(** At every point off the switches the matrix returned by diffPseudoLog0 is, along every direction u of the
    representation space, the derivative at 0 of t -> pseudoLog0(x + t u), which is returned for t near 0. *)
Theorem C08_derivative : forall m : mfd XR, built m -> forall x : list R, regularM m x ->
  exists J : list (list R), diffPseudoLog0 m (fin x) = Ok (matR (tangentDim m) J) /\
    length J = representationDim m /\ Forall (fun c => length c = tangentDim m) J /\
    forall u : list R, length u = representationDim m -> exists (y : R -> list R) (d : R), 0 < d /\
      (forall t, Rabs t < d -> forall out, length out = tangentDim m ->
         pseudoLog0 m out (fin (radd x (rscal t u))) = Ok (fin (y t))) /\
      deriv_v y 0 (rmv (tangentDim m) J u).
Proof.
  intros m B x (xs & -> & P). pose proof (built_wf _ B) as Hw. pose proof (leaves_inv m Hw) as L.
  assert (Lx : Forall2 (fun s z => length z = getDim DR s) (leaves m) xs).
  { eapply Forall2_impl_in; [exact P|]. intros s z Hi H. destruct (L s Hi) as (h & l & a & b & -> & W). exact (regular0_len h l a b z W H). }
  assert (exists Js, Forall3 log_ok (leaves m) xs Js) as [Js C].
  { eapply choose3; [exact P|]. intros s z Hi H. destruct (L s Hi) as (h & l & a & b & -> & W).
    destruct (log0_leaf h l a b z W H) as (J & J1 & J2 & J3 & J4). exists J. split; [exact J1|]. split; [exact J2|]. split; [exact J3|].
    intros u Lu. destruct (J4 u Lu) as (y & d & Hy). exists (y, d). exact Hy. }
  set (Bs := map (fun p => (tangentDim (fst p), snd p)) (combine (leaves m) Js)).
  assert (K : Forall2 blk_ok Bs (map (getDim DR) (leaves m))).
  { unfold Bs. clear - C. induction C as [|s z J ls xs Js (H1 & H2 & H3 & _) C IH]; cbn [combine map fst snd]; constructor; auto. split; auto. }
  assert (R0 : fst (rbdiag Bs) = tangentDim m).
  { change (tangentDim m) with (getDim DT m). rewrite (leaves_dim DT m Hw). unfold Bs. clear - C.
    induction C as [|s z J ls xs Js H C IH]; [reflexivity|]. cbn [map combine fst snd rbdiag]. rewrite IH. reflexivity. }
  destruct (rbdiag_ok _ _ K) as [K1 K2]. rewrite <- (leaves_dim DR m Hw) in K1. rewrite R0 in K2.
  exists (snd (rbdiag Bs)). split; [|split; [exact K1|split; [exact K2|]]].
  - rewrite fin_concat. apply (flat_mat diffPseudoLog0); auto.
    + intros. rewrite diffPseudoLog0_prod by auto. split; intros (Ys & H1 & H2); exists Ys; auto.
    + apply fin_pieces; auto.
    + exists (map matB Bs). split; [rewrite bdiag_rbdiag; unfold matB; rewrite R0; reflexivity|].
      unfold Bs. clear - C. induction C as [|s z J ls xs Js (H1 & _) C IH]; cbn [combine map fst snd]; constructor; auto.
  - intros u Lu. destruct (cutA DR m u Hw Lu) as (us & -> & Fu).
    assert (PV : Forall4 (fun s z J w => log_ok s z J /\ length z = getDim DR s /\ length w = getDim DR s) (leaves m) xs Js us).
    { clear - C Fu Lx. revert us Fu Lx. induction C as [|s z J ls xs Js H C IH]; intros us Fu Lx; inversion Fu; inversion Lx; subst; constructor; auto. }
    assert (exists ps : list ((R -> list R) * R), length ps = length (leaves m) /\ Forall4 (fun s z wJ p => length z = getDim DR s /\ length (fst wJ) = getDim DR s /\ 0 < snd p /\
      (forall t, Rabs t < snd p -> forall o, length o = tangentDim s -> pseudoLog0 s o (fin (radd z (rscal t (fst wJ)))) = Ok (fin (fst p t))) /\
      deriv_v (fst p) 0 (rmv (tangentDim s) (snd wJ) (fst wJ))) (leaves m) xs (combine us Js) ps) as (ps & _ & Q).
    { clear - PV. induction PV as [|s z J w ls xs Js us (H & H1 & H2) F (ps & E & IH)]; [exists []; split; [reflexivity|constructor]|].
      destruct H as (_ & _ & _ & H). destruct (H w H2) as (p & G). exists (p :: ps). split; [cbn; congruence|]. cbn [combine]. constructor; auto. }
    exists (fun t => concat (map (fun p => fst p t) ps)), (dmin ps). split; [|split].
    + clear - Q. induction Q as [|? ? ? p ? ? ? ? H C IH]; cbn [dmin]; [lra|]. apply Rmin_glb_lt; auto. apply H.
    + intros t Ht out Lo. rewrite radd_concat.
      2:{ clear - PV. induction PV as [|s z J w ls xs Js us (H & H1 & H2) F IH]; constructor; auto. congruence. }
      apply (lift_op1 DT DR pseudoLog0); auto.
      { intros. apply pseudoLog0_prod; auto. }
      assert (G : Forall (fun p => dmin ps <= snd p) ps).
      { clear. induction ps as [|p ps IH]; constructor; cbn [dmin]; [apply Rmin_l|]. eapply Forall_impl; [|exact IH]. cbn. intros. eapply Rle_trans; [apply Rmin_r|]. auto. }
      assert (LJ : length us = length Js) by (clear - PV; induction PV; cbn; congruence).
      revert G Ht. generalize (dmin ps). intros k G Ht. clear - Q G Ht LJ.
      remember (combine us Js) as ws eqn:E. revert us Js LJ E. induction Q as [|s z w ps' ls xs ws ps (H1 & H2 & H3 & H4 & _) Q IH]; intros us Js LJ E.
      * destruct us; cbn [combine map]; constructor.
      * destruct us as [|w' us]; [discriminate|]. destruct Js as [|J' Js]; [discriminate|]. cbn [combine] in E. inversion E; subst. inversion G; subst. cbn [combine map fst snd] in *. constructor.
        -- split; [rewrite radd_length; rewrite ?rscal_length; congruence|]. intros o Lo. apply H4; auto. lra.
        -- apply IH with Js; auto.
    + rewrite <- R0, rbdiag_mul.
      2:{ unfold Bs. clear - PV. induction PV as [|s z J w ls xs Js us ((H1 & H2 & H3 & _) & H5 & H6) F IH]; cbn [combine map fst snd]; constructor; auto. rewrite H6. split; auto. }
      assert (LJ : length us = length Js) by (clear - PV; induction PV; cbn; congruence).
      assert (D : Forall (fun p => deriv_v (fst p) 0 (snd p)) (combine (map fst ps) (map (fun p => rmv (fst (fst p)) (snd (fst p)) (snd p)) (combine Bs us))) /\
                  length (map fst ps) = length (map (fun p => rmv (fst (fst p)) (snd (fst p)) (snd p)) (combine Bs us))).
      { unfold Bs. clear - Q LJ. remember (combine us Js) as ws eqn:E. revert us Js LJ E. induction Q as [|s z w p ls xs ws ps (_ & _ & _ & _ & H) Q IH]; intros us Js LJ E.
        - destruct us; cbn; split; auto.
        - destruct us as [|w' us]; [discriminate|]. destruct Js as [|J' Js]; [discriminate|]. cbn [combine] in E. inversion E; subst.
          cbn [combine map fst snd] in *. destruct (IH us Js) as [I1 I2]; auto. split; [constructor; auto|]. cbn [length]. rewrite I2. reflexivity. }
      destruct D as [D1 D2]. set (Ds := map (fun p => rmv (fst (fst p)) (snd (fst p)) (snd p)) (combine Bs us)) in *.
      match goal with |- deriv_v _ _ (concat ?D) => change D with Ds end. clearbody Ds.
      apply deriv_v_concat in D1. destruct D1 as (fs & F1 & F2). exists fs. split.
      * intros t. rewrite <- F1. f_equal. clear - D2. revert Ds D2. induction ps as [|p ps IH]; intros [|D Ds] E; try discriminate; cbn [map combine fst]; auto. f_equal. apply IH. cbn [map length] in E. congruence.
      * replace (map snd (combine (map fst ps) Ds)) with Ds in F2; [exact F2|]. clear - D2. revert Ds D2. induction ps as [|p ps IH]; intros [|D Ds] E; try discriminate; cbn [map combine snd]; auto. f_equal. apply IH. cbn [map length] in E. congruence.
Qed.
Print Assumptions C08_derivative.

(** ** Rotations off the switches *)
Lemma exp3 v : length v = 3%nat -> 0 < rnorm v -> exists x y z, v = [x; y; z] /\
  rnorm v * rnorm v = x * x + y * y + z * z /\
  expSO3 v = rodrigues (sin (rnorm v) / rnorm v) ((1 - cos (rnorm v)) / (rnorm v * rnorm v)) x y z.
Proof.
  intros L P. destruct (vec3_inv v L) as (x & y & z & ->). exists x, y, z. split; auto. split; [apply rnorm3_sq|].
  unfold expSO3. cbv zeta. destruct (Req_EM_T _ 0) as [Z|Z]; [lra|reflexivity].
Qed.
Lemma skew_exp v : length v = 3%nat -> 0 < rnorm v -> let A := expSO3 v in
  [(a21 A - a12 A) / 2; (a02 A - a20 A) / 2; (a10 A - a01 A) / 2] = rscal (sin (rnorm v) / rnorm v) v.
Proof.
  intros L P A. destruct (exp3 v L P) as (x & y & z & E1 & _ & E). unfold A. rewrite E. cbn [rodrigues a21 a12 a02 a20 a10 a01].
  match goal with |- _ = rscal ?k v => replace (rscal k v) with (rscal k [x; y; z]) by (rewrite <- E1; reflexivity) end. cbn [rscal map]. repeat (apply f_equal2; [field; lra|]). reflexivity.
Qed.
Lemma skew_exp_sq v : length v = 3%nat -> 0 < rnorm v ->
  rdot (rscal (sin (rnorm v) / rnorm v) v) (rscal (sin (rnorm v) / rnorm v) v) = sin (rnorm v) * sin (rnorm v).
Proof. intros L P. rewrite rdot_rscal_l, rdot_rscal_r, <- rnorm_sq. field. lra. Qed.

(** Which rotations are off the switches of the matrix map: all those whose angle has a sine of 1e-5 or more. *)
Theorem C08_regular_rotations : forall v : list R, length v = 3%nat -> 0 < rnorm v < PI -> 1 / 100000 <= sin (rnorm v) -> regular_mat (expSO3 v).
Proof.
  intros v L P S. assert (Hs : 0 < sin (rnorm v)) by lra. split; [|split].
  - apply rnorm_gt; [lra|]. pose proof (upper_exp v L (proj1 P)) as U. unfold upper in U. rewrite <- rnorm_sq. nra.
  - unfold tr3. rewrite (expSO3_trace v _ L eq_refl). pose proof (sin2_cos2 (rnorm v)) as Q. unfold Rsqr in Q. nra.
  - pose proof (skew_exp v L (proj1 P)) as K. cbv zeta in K. rewrite K, skew_exp_sq by (auto; lra). nra.
Qed.
Print Assumptions C08_regular_rotations.

(** ** The series branch of the matrix map *)
Lemma true_df_limit v : length v = 3%nat -> 0 < rnorm v <= 1 / 100 ->
  Rabs (true_df (expSO3 v) + 1 / 6) <= rnorm v * rnorm v.
Proof.
  intros L P. set (t := rnorm v) in *. pose proof PI2_1 as PIb.
  destruct (sin_taylor5 t) as [S1 S2]; [lra|]. destruct (cos_taylor6 t) as [C1 C2]; [lra|lra|].
  unfold true_df, tr3. rewrite (expSO3_trace v t L eq_refl). cbv zeta.
  assert (Hs : 0 < sin t) by (apply sin_gt_0; lra).
  assert (Q : sqrt (1 - cos t * cos t) = sin t).
  { replace (1 - cos t * cos t) with (sin t * sin t) by (pose proof (sin2_cos2 t) as Q; unfold Rsqr in Q; lra). apply sqrt_square. lra. }
  unfold acoef. rewrite Q, acos_cos by lra.
  replace (1 - cos t * cos t) with (sin t * sin t) by (pose proof (sin2_cos2 t) as Q'; unfold Rsqr in Q'; lra).
  set (s := sin t) in *. set (c := cos t) in *. clearbody s c. clearbody t. clear Q L v.
  replace ((c * (t / s) - 1) / (2 * (s * s)) + 1 / 6) with ((3 * (t * c - s) + s * s * s) / (6 * (s * s * s))) by (field; lra).
  assert (T2 : 0 < t * t <= 1 / 10000) by nra. assert (T3 : 0 < t * t * t) by nra.
  assert (s3lo : t * t * t * (1 - t * t / 2) <= s * s * s).
  { assert (t * (1 - t * t / 6) <= s) by lra. assert (0 < 1 - t * t / 6) by nra.
    apply Rle_trans with ((t * (1 - t * t / 6)) * (t * (1 - t * t / 6)) * (t * (1 - t * t / 6))).
    - replace (t * (1 - t * t / 6) * (t * (1 - t * t / 6)) * (t * (1 - t * t / 6))) with (t * t * t * ((1 - t * t / 6) * (1 - t * t / 6) * (1 - t * t / 6))) by ring.
      apply Rmult_le_compat_l; [lra|]. set (w := t * t) in *. clearbody w. nra.
    - assert (0 <= t * (1 - t * t / 6)) by nra. apply Rmult_le_compat; try nra. }
  assert (s3hi : s * s * s <= t * t * t).
  { assert (s <= t). { assert (t ^ 5 / 120 <= t ^ 3 / 6) by (simpl; nra). lra. } apply Rmult_le_compat; try nra. }
  assert (num : Rabs (3 * (t * c - s) + s * s * s) <= t * t * t * (t * t)).
  { assert (E1 : t * c <= t * (1 - t ^ 2 / 2 + t ^ 4 / 24)) by (apply Rmult_le_compat_l; lra).
    assert (E2 : t * (1 - t ^ 2 / 2 + t ^ 4 / 24 - t ^ 6 / 720) <= t * c) by (apply Rmult_le_compat_l; lra).
    assert (T5 : 0 < t * t * t * (t * t)) by nra.
    assert (T7 : t * t * t * (t * t) * (t * t) <= t * t * t * (t * t) * (1 / 10000)) by (apply Rmult_le_compat_l; lra).
    apply Rabs_le. simpl in *. split; nra. }
  unfold Rdiv at 1. rewrite Rabs_mult, (Rabs_pos_eq (/ (6 * (s * s * s)))).
  2:{ left. apply Rinv_0_lt_compat. nra. }
  apply Rmult_le_reg_r with (6 * (s * s * s)); [nra|]. rewrite Rmult_assoc, Rinv_l by nra. rewrite Rmult_1_r.
  eapply Rle_trans; [exact num|]. assert (t * t * t <= 6 * (s * s * s)) by nra. nra.
Qed.
Lemma series_df_limit v : length v = 3%nat -> 0 < rnorm v <= 1 / 100 ->
  Rabs (series_df (expSO3 v) - 1 / 5) <= rnorm v * rnorm v.
Proof.
  intros L P. set (t := rnorm v) in *. pose proof PI2_1 as PIb.
  destruct (cos_taylor6 t) as [C1 C2]; [lra|lra|]. pose proof (COS_bound t) as CB.
  assert (T : tr3 (expSO3 v) = 1 + 2 * cos t) by (pose proof (expSO3_trace v t L eq_refl); unfold tr3; lra).
  unfold series_df. rewrite T. cbv zeta. replace (1 + 2 * cos t - 3) with (2 * (cos t - 1)) by ring.
  set (c := 1 - cos t) in *. assert (B : 0 <= c <= t * t / 2).
  { unfold c. split; [lra|].
    assert (0 <= t ^ 4) by (apply pow_le; lra). assert (t ^ 6 = t ^ 4 * (t * t)) by ring. assert (t * t <= 1) by nra.
    assert (t ^ 4 * (t * t) <= t ^ 4 * 1) by (apply Rmult_le_compat_l; lra). replace (t ^ 2) with (t * t) in C1 by ring. lra. }
  replace (cos t) with (1 - c) by (unfold c; ring). clearbody c. assert (c <= 1 / 20000) by nra.
  apply Rabs_le. assert (0 <= c * c <= c / 20000) by nra. assert (0 <= c * c * c <= c / 20000) by nra. assert (0 <= c * c * c * c <= c / 20000) by nra. split; nra.
Qed.

(** For every rotation of angle at most 1/100 on which the logarithm takes its main branch and diffPseudoLog0 its
    series branch, the true coefficient of the trace direction is -1/6 up to the square of the angle, and the
    returned one is +1/5 up to the square of the angle (11 / 30 is an integer division). *)
Theorem C08_series_coefficient : forall v : list R, length v = 3%nat -> 0 < rnorm v <= 1 / 100 ->
  eps8 < upper (expSO3 v) -> sin (rnorm v) * sin (rnorm v) < 1 / 10000000000 ->
  exists J Jt w k kt, diffPseudoLog0 rM (fin (flat9 (expSO3 v))) = Ok (matR 3 J) /\ nth 0 J [] = rscal k w /\
    (forall u, length u = 9%nat -> exists y d, 0 < d /\
       (forall t, Rabs t < d -> forall out, length out = 3%nat -> pseudoLog0 rM out (fin (radd (flat9 (expSO3 v)) (rscal t u))) = Ok (fin (y t))) /\
       deriv_v y 0 (rmv 3 Jt u)) /\ nth 0 Jt [] = rscal kt w /\ length Jt = 9%nat /\ Forall (fun c => length c = 3%nat) Jt /\
    w = rscal (sin (rnorm v) / rnorm v) v /\
    Rabs (k - 1 / 5) <= rnorm v * rnorm v /\ Rabs (kt - - (1 / 6)) <= rnorm v * rnorm v.
Proof.
  intros v L P U S. pose proof (skew_exp v L (proj1 P)) as K. cbv zeta in K. pose proof PI2_1 as PIb.
  assert (C : -1 < (tr3 (expSO3 v) - 1) / 2 < 1).
  { unfold tr3. rewrite (expSO3_trace v _ L eq_refl). assert (0 < sin (rnorm v)) by (apply sin_gt_0; lra). pose proof (sin2_cos2 (rnorm v)) as Q. unfold Rsqr in Q. nra. }
  exists (jac0_gen (series_df (expSO3 v)) (expSO3 v)), (jac0_gen (true_df (expSO3 v)) (expSO3 v)), (rscal (sin (rnorm v) / rnorm v) v), (series_df (expSO3 v)), (true_df (expSO3 v)).
  split; [|split; [|split; [|split; [|split; [|split; [|split; [|split]]]]]]].
  - destruct rM_leaf as (h & a & b & -> & W). pose proof W as (W1 & W2 & W3 & _). cbn [diffPseudoLog0]. unfold representationDim; cbn [hdr_of]. rewrite check_eq by (rewrite W3; reflexivity). cbn [bind]. apply jac0_series_eq; auto. rewrite K, skew_exp_sq; auto. lra.
  - rewrite <- K. reflexivity.
  - intros u Lu. destruct (flat9_inv u Lu) as (V & ->). destruct (mat_curve (expSO3 v) V U C) as (d & Hd & H & D).
    exists (fun t => log_curve (m3line (expSO3 v) V t)), d. split; auto. split; auto. intros t Ht o Lo. rewrite flat9_line. destruct rM_leaf as (h & a & b & -> & W). rewrite em_log0 by auto.
    destruct (H t Ht). apply log_curve_eq; auto.
  - rewrite <- K. reflexivity.
  - reflexivity.
  - repeat constructor.
  - reflexivity.
  - apply series_df_limit; auto.
  - replace (true_df (expSO3 v) - - (1 / 6)) with (true_df (expSO3 v) + 1 / 6) by ring. apply true_df_limit; auto.
Qed.
Print Assumptions C08_series_coefficient.

(** The property is false on the series branch of the matrix map: the derivative exists and is not the returned matrix. *)
Lemma rnorm_x a : 0 < a -> rnorm [a; 0; 0] = a.
Proof. intros H. unfold rnorm. cbn [rdot]. replace (a * a + (0 * 0 + (0 * 0 + 0))) with (a * a) by ring. apply sqrt_square. lra. Qed.
Theorem C08_series_refuted : exists (x u : list R) (y : R -> list R) (d : R) (J : list (list R)) (D : list R),
  onM rM x /\ length u = 9%nat /\ diffPseudoLog0 rM (fin x) = Ok (matR 3 J) /\ 0 < d /\
  (forall t, Rabs t < d -> forall out, length out = 3%nat -> pseudoLog0 rM out (fin (radd x (rscal t u))) = Ok (fin (y t))) /\
  deriv_v y 0 D /\ rmv 3 J u <> D /\ nth 0 D 0 < 0 < nth 0 (rmv 3 J u) 0.
Proof.
  set (e := 1 / 1000000). assert (He : e = 1 / 1000000) by reflexivity. clearbody e. set (v := [e; 0; 0]).
  assert (N : rnorm v = e) by (apply rnorm_x; lra). pose proof PI2_1 as PIb.
  destruct (sin_taylor5 e) as [S1 S2]; [lra|].
  assert (B1 : 9 / 10000000 < sin e) by (rewrite He in *; simpl in *; lra).
  assert (B2 : sin e < 11 / 10000000) by (rewrite He in *; simpl in *; lra).
  destruct (C08_series_coefficient v eq_refl) as (J & Jt & w & k & kt & H1 & H2 & H3 & H4 & H5 & H6 & Hw & H7 & H8); rewrite ?N in *; try lra.
  { pose proof (upper_exp v eq_refl) as U. rewrite N in U. specialize (U ltac:(lra)).
    assert (0 <= upper (expSO3 v)) by apply rnorm_nonneg. apply Rnot_le_lt. intros C. assert (upper (expSO3 v) * upper (expSO3 v) <= eps8 * eps8) by nra. nra. }
  { nra. }
  destruct (H3 [1; 0; 0; 0; 0; 0; 0; 0; 0] eq_refl) as (y & d & Hd & Hy & D).
  assert (E : forall M : list (list R), rmv 3 M [1; 0; 0; 0; 0; 0; 0; 0; 0] = [nth 0 (nth 0 M []) 0; nth 1 (nth 0 M []) 0; nth 2 (nth 0 M []) 0]).
  { intros M. unfold rmv. cbn [seq map]. destruct M as [|c M]; [reflexivity|]. cbn [map nth rdot].
    assert (Z : forall l : list R, rdot l [0; 0; 0; 0; 0; 0; 0; 0] = 0) by (intros; apply (rdot_repeat0 l 8)). rewrite !Z, !Rmult_1_r, !Rplus_0_r. reflexivity. }
  assert (Pw : 0 < nth 0 w 0). { rewrite Hw. cbn [rscal map nth v]. replace (sin e / e * e) with (sin e) by (field; lra). lra. }
  apply Rabs_le_inv in H7, H8.
  assert (nth 0 (rmv 3 Jt [1; 0; 0; 0; 0; 0; 0; 0; 0]) 0 < 0 < nth 0 (rmv 3 J [1; 0; 0; 0; 0; 0; 0; 0; 0]) 0).
  { rewrite !E. cbn [nth]. rewrite H2, H4, !nth_rscal. assert (e * e < 1 / 100) by (rewrite He; lra). split; nra. }
  exists (flat9 (expSO3 v)), [1; 0; 0; 0; 0; 0; 0; 0; 0], y, d, J, (rmv 3 Jt [1; 0; 0; 0; 0; 0; 0; 0; 0]).
  split; [|split; [reflexivity|split; [exact H1|split; [exact Hd|split; [exact Hy|split; [exact D|split; [|exact H]]]]]]].
  - destruct rM_leaf as (h & a & b & E' & W). exists [flat9 (expSO3 v)]. split; [symmetry; apply app_nil_r|]. rewrite E'. cbn [leaves]. constructor; [|constructor].
    exists (expSO3 v). split; auto. apply expSO3_rot.
  - intros C. rewrite C in H. lra.
Qed.
Print Assumptions C08_series_refuted.

(** At a half turn the quaternion logarithm jumps: no derivative exists, whatever diffPseudoLog0 returns. *)
Theorem C08_half_turn_refuted : exists (x u : list R), onM rQ x /\ length u = 4%nat /\
  ~ exists (y : R -> list R) (d : R) (D : list R), 0 < d /\
      (forall t, Rabs t < d -> forall out, length out = 3%nat -> pseudoLog0 rQ out (fin (radd x (rscal t u))) = Ok (fin (y t))) /\ deriv_v y 0 D.
Proof.
  exists (qflat (Q4 0 1 0 0)), (qflat (Q4 (-1) 0 0 0)). split; [|split; [reflexivity|]].
  - destruct rQ_leaf as (h & a & b & E' & W). exists [qflat (Q4 0 1 0 0)]. split; [symmetry; apply app_nil_r|]. rewrite E'. cbn [leaves]. constructor; [|constructor].
    exists (Q4 0 1 0 0). split; auto. unfold qn2; cbn; ring.
  - intros (y & d & D & Hd & Hy & Hv). pose proof (deriv_v_nth y 0 D Hv 0%nat) as H. pose proof PI2_1 as PIb.
    assert (V : forall t, 0 <= t < d -> nth 0 (y t) 0 = Ratan2 (2 * - t) (t * t - 1)).
    { intros t Ht. specialize (Hy t ltac:(rewrite Rabs_pos_eq; lra) (repeat (Fin 0) 3) eq_refl). rewrite qflat_line in Hy.
      destruct rQ_leaf as (h & a & b & E' & W). rewrite E', eq_log0 in Hy by auto. unfold qline in Hy. cbn [qw qx qy qz] in Hy.
      assert (N : rnorm (qv (Q4 (0 + t * -1) (1 + t * 0) (0 + t * 0) (0 + t * 0))) = 1).
      { unfold qv. cbn [qx qy qz]. replace (1 + t * 0) with 1 by ring. replace (0 + t * 0) with 0 by ring. apply rnorm_x. lra. }
      rewrite eq_logarithm_main in Hy; [|reflexivity|lra|lra]. rewrite N in Hy. cbn [qw] in Hy. inversion Hy as [Q]. change (fin (rscal (Ratan2 (2 * 1 * (0 + t * -1)) ((0 + t * -1) * (0 + t * -1) - 1 * 1) / 1) (qv (Q4 (0 + t * -1) (1 + t * 0) (0 + t * 0) (0 + t * 0)))) = fin (y t)) in Q.
      apply fin_inj in Q. rewrite <- Q. unfold qv, rscal. cbn [qx qy qz map nth]. replace (2 * 1 * (0 + t * -1)) with (2 * - t) by ring. replace ((0 + t * -1) * (0 + t * -1) - 1 * 1) with (t * t - 1) by ring. field. }
    assert (C : continuity_pt (fun t => nth 0 (y t) 0) 0) by (apply derivable_continuous_pt; exists (nth 0 D 0); exact H).
    destruct (C 1 ltac:(lra)) as (a & Ha & G). set (t := Rmin (Rmin (a / 2) (d / 2)) (1 / 2)).
    assert (Ht : 0 < t) by (unfold t; repeat apply Rmin_glb_lt; lra).
    assert (t <= a / 2) by (unfold t; eapply Rle_trans; [apply Rmin_l|apply Rmin_l]).
    assert (t <= d / 2) by (unfold t; eapply Rle_trans; [apply Rmin_l|apply Rmin_r]).
    assert (t <= 1 / 2) by (unfold t; apply Rmin_r).
    assert (Q : R_dist (nth 0 (y t) 0) (nth 0 (y 0) 0) < 1).
    { apply (G t). split; [split; [exact I|lra]|]. unfold dist; cbn. unfold R_dist. rewrite Rminus_0_r, Rabs_pos_eq; lra. }
    rewrite !V in Q by lra. unfold R_dist in Q. apply Rabs_def2 in Q.
    assert (Z : Ratan2 (2 * - 0) (0 * 0 - 1) = PI).
    { replace (2 * - 0) with (sin PI) by (rewrite sin_PI; ring). replace (0 * 0 - 1) with (cos PI) by (rewrite cos_PI; ring). apply atan2_trig. lra. }
    rewrite Z in Q. rewrite atan2_off in Q by lra. destruct (Rlt_dec 0 (2 * - t)) as [X|X]; [lra|]. pose proof (atan_bound ((t * t - 1) / (2 * - t))). lra.
Qed.
Print Assumptions C08_half_turn_refuted.

(** Examples: the point of the tree (R2 x SO3) x SO3, a rotation by one radian, a quaternion on each side of the switch. *)
Example C08_example : built rP /\ exists x, regularM rP x /\ length x = representationDim rP.
Proof.
  split; [apply rP_built|]. exists ([3; 4] ++ flat9 (expSO3 [1; 0; 0]) ++ qflat (Q4 (3 / 5) (4 / 5) 0 0)). split; [|reflexivity].
  exists [[3; 4]; flat9 (expSO3 [1; 0; 0]); qflat (Q4 (3 / 5) (4 / 5) 0 0)]. split; [cbn [concat]; rewrite app_nil_r; reflexivity|].
  assert (S1 : 1 / 100000 <= sin 1) by (destruct (sin_taylor5 1) as [S _]; [pose proof PI2_1; lra|simpl in S; lra]).
  repeat (apply Forall2_cons || apply Forall2_nil).
  - reflexivity.
  - exists (expSO3 [1; 0; 0]). split; auto. pose proof PI2_1. apply C08_regular_rotations; rewrite ?rnorm_x by lra; auto; lra.
  - exists (Q4 (3 / 5) (4 / 5) 0 0). split; auto. unfold regular_quat, qn2, qv. cbn [qw qx qy qz]. rewrite rnorm_x by lra. repeat split; lra.
Qed.
Example C08_example_series : let v := [1 / 1000000; 0; 0] in length v = 3%nat /\ 0 < rnorm v <= 1 / 100 /\
  eps8 < upper (expSO3 v) /\ sin (rnorm v) * sin (rnorm v) < 1 / 10000000000.
Proof.
  intros v. assert (N : rnorm v = 1 / 1000000) by (apply rnorm_x; lra). rewrite N. pose proof PI2_1 as PIb.
  destruct (sin_taylor5 (1 / 1000000)) as [S1 S2]; [lra|]. simpl in S1, S2.
  assert (B1 : 9 / 10000000 < sin (1 / 1000000)) by lra. assert (B2 : sin (1 / 1000000) < 11 / 10000000) by lra.
  split; [reflexivity|]. split; [lra|]. split; [|nra].
  pose proof (upper_exp v eq_refl) as U. rewrite N in U. specialize (U ltac:(lra)).
  assert (0 <= upper (expSO3 v)) by apply rnorm_nonneg. apply Rnot_le_lt. intros C. assert (upper (expSO3 v) * upper (expSO3 v) <= eps8 * eps8) by nra. nra.
Qed.
