(** C61: the norm of pseudoLog is a distance.  Exact real arithmetic. *)
From Coq Require Import Reals List Lra Lia ZArith Bool Arith Psatz.
From Verif Require Import Base Scalar Vec Model_Real Model_S2 Model_SO3 Model_Manifold Spec Layout Comp Indep Flat Structure
  XR SpecR RotR NumVec NumMat Angle NumQuat NumTree NumLeaf RotLog RoundTrip NumS2 NumExp NumLog Close Force Points Drift ExScalar ExR
  Properties_SO3 Properties_Matrix Properties_Deriv Properties_Points Properties_Drift Inj Properties_Inj Subgroup Path Properties_Path Lip Properties_Lip Metric.
Import ListNotations.
Local Open Scope R_scope.

(** ** Distance between two points of a tree *)
(** The geodesic distances of the slices, and their Euclidean combination. *)
Fixpoint geos (ls : list (mfd XR)) (x y : list R) : list R :=
  match ls with
  | [] => []
  | s :: ls' => let n := representationDim s in geo_leaf s (firstn n x) (firstn n y) :: geos ls' (skipn n x) (skipn n y)
  end.
Definition geoM (m : mfd XR) (x y : list R) : R := rnorm (geos (leaves m) x y).
(** A condition on every pair of slices. *)
Fixpoint pairs (P : mfd XR -> list R -> list R -> Prop) (ls : list (mfd XR)) (x y : list R) : Prop :=
  match ls with
  | [] => True
  | s :: ls' => let n := representationDim s in P s (firstn n x) (firstn n y) /\ pairs P ls' (skipn n x) (skipn n y)
  end.

Lemma take_app (n : nat) (a b : list R) : length a = n -> firstn n (a ++ b) = a /\ skipn n (a ++ b) = b.
Proof. intros <-. rewrite firstn_app, skipn_app, Nat.sub_diag, firstn_all, skipn_all. cbn. rewrite app_nil_r. auto. Qed.
Lemma geos_cut ls xs ys : Forall2 (fun s z => length z = representationDim s) ls xs -> Forall2 (fun s z => length z = representationDim s) ls ys ->
  Forall4 (fun s x y d => d = geo_leaf s x y) ls xs ys (geos ls (concat xs) (concat ys)).
Proof.
  intros F. revert ys. induction F as [|s x ls xs H F IH]; intros ys G; inversion G as [|? y ? ys' H' G']; subst; cbn [geos concat]; constructor; cbv zeta.
  - destruct (take_app _ x (concat xs) H) as [E1 E2]. destruct (take_app _ y (concat ys') H') as [E3 E4]. rewrite ?E1, ?E2, ?E3, ?E4. auto.
  - destruct (take_app _ x (concat xs) H) as [E1 E2]. destruct (take_app _ y (concat ys') H') as [E3 E4]. rewrite ?E1, ?E2, ?E3, ?E4. auto.
Qed.
Lemma pairs_cut P ls xs ys : Forall2 (fun s z => length z = representationDim s) ls xs -> Forall2 (fun s z => length z = representationDim s) ls ys ->
  (pairs P ls (concat xs) (concat ys) <-> Forall3 P ls xs ys).
Proof.
  intros F. revert ys. induction F as [|s x ls xs H F IH]; intros ys G; inversion G as [|? y ? ys' H' G']; subst; cbn [pairs concat]; cbv zeta.
  - split; auto. constructor.
  - destruct (take_app _ x (concat xs) H) as [E1 E2]. destruct (take_app _ y (concat ys') H') as [E3 E4]. rewrite ?E1, ?E2, ?E3, ?E4. rewrite IH by auto. split; [intros [? ?]; constructor; auto|]. intros K. inversion K; subst; auto.
Qed.
Lemma on_slices m xs : wf m -> Forall2 on_leaf (leaves m) xs -> Forall2 (fun s z => length z = representationDim s) (leaves m) xs.
Proof.
  intros W F. pose proof (fun s => wf_leaf_inv m s W) as G. clear W. revert G. induction F as [|s x ls xs H F IH]; intros G; constructor; [|apply IH; intros; apply G; simpl; auto].
  destruct (G s) as (h & l & a & b & -> & Wl); [simpl; auto|]. eapply on_len; eauto.
Qed.
Lemma rnorm_zero_all ds : rnorm ds = 0 <-> Forall (fun d => d = 0) ds.
Proof.
  split.
  - intros E. assert (Q : rdot ds ds = 0) by (rewrite <- rnorm_sq, E; ring). clear E. induction ds as [|d ds IH]; constructor; cbn [rdot] in Q; pose proof (rdot_self_nonneg ds); [nra|apply IH; nra].
  - intros F. replace (rnorm ds) with (sqrt 0); [apply sqrt_0|]. unfold rnorm. f_equal. induction F as [|d ds H F IH]; cbn [rdot]; [auto|]. rewrite <- IH, H. ring.
Qed.

(** ** It is a distance *)
Lemma geo_metric m xs ys : wf m -> Forall2 on_leaf (leaves m) xs -> Forall2 on_leaf (leaves m) ys ->
  geos (leaves m) (concat xs) (concat ys) = geos (leaves m) (concat ys) (concat xs).
Proof.
  intros W X Y. pose proof (geos_cut _ _ _ (on_slices m xs W X) (on_slices m ys W Y)) as A. pose proof (geos_cut _ _ _ (on_slices m ys W Y) (on_slices m xs W X)) as B.
  pose proof (fun s => wf_leaf_inv m s W) as G. clear W. revert A B G X Y. generalize (geos (leaves m) (concat xs) (concat ys)) as ds. generalize (geos (leaves m) (concat ys) (concat xs)) as es.
  intros es ds A. revert es. induction A as [|s x y d ls xs ys ds H A IH]; intros es B G X Y; inversion B as [|? ? ? e ? ? ? es' H' B']; subst; auto.
  inversion X; subst. inversion Y; subst. f_equal; [|apply IH; auto; intros; apply G; simpl; auto]. destruct (G s) as (h & l & a & b & -> & Wl); [simpl; auto|].
  apply geo_sym. rewrite !(on_len _ _ _ _ _ Wl); auto.
Qed.
Theorem C61_metric : forall m : mfd XR, built m -> forall x y z : list R, onM m x -> onM m y -> onM m z ->
  0 <= geoM m x y /\ geoM m x y = geoM m y x /\ geoM m x z <= geoM m x y + geoM m y z /\ (geoM m x y = 0 <-> sameM m x y).
Proof.
  intros m B x y z (xs & -> & X) (ys & -> & Y) (zs & -> & Z). pose proof (built_wf _ B) as W. pose proof (fun s => wf_leaf_inv m s W) as G.
  pose proof (on_slices m xs W X) as LX. pose proof (on_slices m ys W Y) as LY. pose proof (on_slices m zs W Z) as LZ.
  split; [apply rnorm_nonneg|]. split; [unfold geoM; f_equal; apply geo_metric; auto|]. split.
  - unfold geoM. pose proof (geos_cut _ _ _ LX LZ) as A1. pose proof (geos_cut _ _ _ LX LY) as A2. pose proof (geos_cut _ _ _ LY LZ) as A3.
    revert A1 A2 A3. generalize (geos (leaves m) (concat xs) (concat zs)) as ds. generalize (geos (leaves m) (concat xs) (concat ys)) as es. generalize (geos (leaves m) (concat ys) (concat zs)) as fs. intros fs es ds A1 A2 A3.
    assert (Q : length es = length fs /\ Forall2 (fun n c => 0 <= n <= c) ds (radd es fs)).
    { clear W LX LY LZ B. revert ys es fs A2 A3 X Y Z G. induction A1 as [|s x z d ls xs zs ds H A1 IH]; intros ys es fs A2 A3 X Y Z G; inversion A2 as [|? ? y e ? ? ys' es' H' A2']; subst; inversion A3 as [|? ? ? f ? ? ? fs' H'' A3']; subst; [split; [auto|constructor]|].
      inversion X; inversion Y; inversion Z; subst. destruct (IH ys' es' fs') as [I1 I2]; auto. { intros; apply G; simpl; auto. } split; [cbn [length]; auto|].
      change (radd (geo_leaf s x y :: es') (geo_leaf s y z :: fs')) with (geo_leaf s x y + geo_leaf s y z :: radd es' fs'). constructor; auto. split; [apply geo_pos|].
      destruct (G s) as (h & l & a & b & -> & Wl); [simpl; auto|]. apply geo_tri; auto. }
    destruct Q as [Q1 Q2]. eapply Rle_trans; [apply rnorm_mono; eauto|apply rnorm_tri; auto].
  - unfold geoM. rewrite rnorm_zero_all.
    assert (S : Forall (fun d => d = 0) (geos (leaves m) (concat xs) (concat ys)) <-> Forall3 same_leaf (leaves m) xs ys).
    { pose proof (geos_cut _ _ _ LX LY) as A. revert A. generalize (geos (leaves m) (concat xs) (concat ys)) as ds. intros ds A. clear - A X Y G. induction A as [|s x y d ls xs ys ds H A IH]; [split; constructor|].
      inversion X; inversion Y; subst. assert (I : Forall (fun d => d = 0) ds <-> Forall3 same_leaf ls xs ys) by (apply IH; auto; intros; apply G; simpl; auto).
      destruct (G s) as (h & l & a & b & -> & Wl); [simpl; auto|]. pose proof (geo_zero h l a b x y Wl ltac:(auto) ltac:(auto)) as GZ.
      split; intros K; inversion K; subst; constructor; try apply GZ; try apply I; auto. }
    rewrite S. split.
    + intros F. exists xs, ys. auto.
    + intros (xs' & ys' & E1 & E2 & L & F). assert (xs = xs') by (apply (sum_list_eq DR (leaves m)); auto). subst xs'.
      assert (ys = ys'); [|subst; auto]. apply (sum_list_eq DR (leaves m)); auto. clear - F L. revert L. induction F as [|s x y ls xs ys H F IH]; intros L; inversion L as [|? ? ? ? L1 L2]; subst; constructor; auto.
      change (getDim DR s) with (representationDim s). rewrite <- L1. destruct s as [h [| |[|]] a b|]; cbn [same_leaf] in H; subst; auto. destruct H as [-> | ->]; rewrite ?map_length; auto.
Qed.
Print Assumptions C61_metric.

(** ** The library's logarithm measures it *)
Lemma tree_log m x y : wf m -> onM m x -> onM m y -> pairs logable (leaves m) x y ->
  exists t ns, (forall o, length o = tangentDim m -> pseudoLog m o (fin x) (fin y) = Ok (fin t)) /\ length t = tangentDim m /\ rnorm t = rnorm ns /\ length ns = length (leaves m) /\
    near_v (3 / 10 ^ 15) ns (geos (leaves m) x y) /\ (pairs log_main (leaves m) x y -> ns = geos (leaves m) x y).
Proof.
  intros W (xs & -> & X) (ys & -> & Y) P. pose proof (fun s => wf_leaf_inv m s W) as G. pose proof (on_slices m xs W X) as LX. pose proof (on_slices m ys W Y) as LY.
  pose proof (geos_cut _ _ _ LX LY) as A. rewrite pairs_cut in P by auto. pose proof (pairs_cut log_main _ _ _ LX LY) as PM. revert A. generalize (geos (leaves m) (concat xs) (concat ys)) as ds. intros ds A.
  assert (F : Forall3 (fun s x y => on_leaf s x /\ on_leaf s y /\ logable s x y) (leaves m) xs ys).
  { clear - P X Y. induction P; inversion X; inversion Y; subst; constructor; auto. }
  destruct (choose4 _ (fun s x y t => length x = representationDim s /\ length y = representationDim s /\ length t = tangentDim s /\ (forall o, length o = tangentDim s -> pseudoLog s o (fin x) (fin y) = Ok (fin t)) /\
    Rabs (rnorm t - geo_leaf s x y) <= 3 / 10 ^ 15 /\ (log_main s x y -> rnorm t = geo_leaf s x y)) _ _ _ F) as (ts & F4).
  { intros s x y Hs (A1 & A2 & A3). destruct (G s Hs) as (h & l & a & b & -> & Wl). destruct (leaf_log h l a b x y Wl A1 A2 A3) as (t & H1 & H2 & H3 & H4). exists t. pose proof (on_len _ _ _ _ _ Wl A1). pose proof (on_len _ _ _ _ _ Wl A2). auto 10. }
  exists (concat ts), (map rnorm ts). split; [|split; [|split; [|split; [|split]]]].
  - intros o Lo. apply (lift_op2 DT DR DR pseudoLog pseudoLog_prod); auto. clear - F4. induction F4 as [|s x y t ls xs ys ts (H1 & H2 & H3 & H4 & _) F4 IH]; constructor; auto.
  - change (tangentDim m) with (getDim DT m). rewrite (leaves_dim DT m W). clear - F4. induction F4 as [|s x y t ls xs ys ts (H1 & H2 & H3 & H4 & _) F4 IH]; [reflexivity|]. cbn [concat map]. rewrite app_length, IH, H3. reflexivity.
  - change (sqrt (rdot (concat ts) (concat ts)) = sqrt (rdot (map rnorm ts) (map rnorm ts))). f_equal. clear. induction ts as [|t ts IH]; [reflexivity|]. cbn [concat map rdot]. rewrite rdot_app_sq, IH, rnorm_sq. ring.
  - rewrite map_length. clear - F4. induction F4; cbn [length]; auto.
  - clear - F4 A. revert ts F4. induction A as [|s x y d ls xs ys ds H A IH]; intros ts F4; inversion F4 as [|? ? ? t ? ? ? ts' (_ & _ & _ & _ & K & _) F4']; subst; cbn [map]; constructor; auto. apply IH; auto.
  - rewrite PM. clear - F4 A. revert ts F4. induction A as [|s x y d ls xs ys ds H A IH]; intros ts F4 M; inversion F4 as [|? ? ? t ? ? ? ts' (_ & _ & _ & _ & _ & K) F4']; subst; cbn [map]; auto. inversion M; subst. f_equal; auto.
Qed.
Theorem C61_log : forall m : mfd XR, built m -> forall x y : list R, onM m x -> onM m y -> pairs logable (leaves m) x y ->
  exists w, (forall o, length o = tangentDim m -> pseudoLog m o (fin x) (fin y) = Ok (fin w)) /\
    Rabs (rnorm w - geoM m x y) <= INR (length (leaves m)) * (3 / 10 ^ 15) /\
    (pairs log_main (leaves m) x y -> rnorm w = geoM m x y).
Proof.
  intros m B x y X Y P. destruct (tree_log m x y (built_wf _ B) X Y P) as (t & ns & H1 & _ & H2 & H3 & H4 & H5). exists t. split; auto. rewrite H2. split; [|intros M; rewrite H5; auto].
  pose proof (near_norm (3 / 10 ^ 15) _ _ ltac:(lra) H4) as N. rewrite H3 in N. eapply Rle_trans; [|exact N]. apply norm_close. eapply near_len; eauto.
Qed.
Print Assumptions C61_log.

(** The measured distance is symmetric and satisfies the triangle inequality, up to the error of the series. *)
Lemma logable_sym m x y : wf m -> onM m x -> onM m y -> pairs logable (leaves m) x y -> pairs logable (leaves m) y x.
Proof.
  intros W (xs & -> & X) (ys & -> & Y). pose proof (fun s => wf_leaf_inv m s W) as G. pose proof (on_slices m xs W X) as LX. pose proof (on_slices m ys W Y) as LY. rewrite !pairs_cut by auto.
  intros F. clear - G F X Y. induction F as [|s x y ls xs ys H F IH]; inversion X; inversion Y; subst; constructor; [|apply IH; auto; intros; apply G; simpl; auto].
  destruct (G s) as (h & l & a & b & -> & Wl); [simpl; auto|]. assert (E : geo_leaf (Leaf h l a b) y x = geo_leaf (Leaf h l a b) x y). { apply geo_sym. rewrite !(on_len _ _ _ _ _ Wl); auto. }
  destruct l as [| |[|]]; cbn [logable] in *; rewrite ?E; auto.
Qed.
Theorem C61_measured : forall m : mfd XR, built m -> forall x y z : list R, onM m x -> onM m y -> onM m z ->
  pairs logable (leaves m) x y -> pairs logable (leaves m) y z -> pairs logable (leaves m) x z ->
  exists xy yx yz xz, (forall o, length o = tangentDim m ->
      pseudoLog m o (fin x) (fin y) = Ok (fin xy) /\ pseudoLog m o (fin y) (fin x) = Ok (fin yx) /\
      pseudoLog m o (fin y) (fin z) = Ok (fin yz) /\ pseudoLog m o (fin x) (fin z) = Ok (fin xz)) /\
    Rabs (rnorm xy - rnorm yx) <= INR (length (leaves m)) * (6 / 10 ^ 15) /\
    rnorm xz <= rnorm xy + rnorm yz + INR (length (leaves m)) * (9 / 10 ^ 15).
Proof.
  intros m B x y z X Y Z P Q S. destruct (C61_log m B x y X Y P) as (xy & A1 & A2 & _). destruct (C61_log m B y x Y X (logable_sym m x y (built_wf _ B) X Y P)) as (yx & B1 & B2 & _).
  destruct (C61_log m B y z Y Z Q) as (yz & C1 & C2 & _). destruct (C61_log m B x z X Z S) as (xz & D1 & D2 & _). destruct (C61_metric m B x y z X Y Z) as (_ & M1 & M2 & _).
  exists xy, yx, yz, xz. split; [auto|]. rewrite <- M1 in B2. apply Rabs_le_inv in A2. apply Rabs_le_inv in B2. apply Rabs_le_inv in C2. apply Rabs_le_inv in D2. split; [apply Rabs_le|]; lra.
Qed.
Print Assumptions C61_measured.

(** ** The stored numbers *)
(** Two points are close for the distance exactly when their stored numbers are, up to the sign of quaternions. *)
Theorem C61_stored : forall m : mfd XR, built m -> forall x y : list R, onM m x -> onM m y ->
  geoM m x y <= 12 / 5 * rnorm (rsub y x) /\ exists y', onM m y' /\ sameM m y y' /\ rnorm (rsub y' x) <= sqrt 2 * geoM m x y.
Proof.
  intros m B x y (xs & -> & X) (ys & -> & Y). pose proof (built_wf _ B) as W. pose proof (fun s => wf_leaf_inv m s W) as G. pose proof (on_slices m xs W X) as LX. pose proof (on_slices m ys W Y) as LY.
  pose proof (geos_cut _ _ _ LX LY) as A. unfold geoM. revert A. generalize (geos (leaves m) (concat xs) (concat ys)) as ds. intros ds A.
  assert (SL : forall us us' : list (list R), Forall2 (fun s z => length z = representationDim s) (leaves m) us -> Forall2 (fun s z => length z = representationDim s) (leaves m) us' -> Forall2 (fun u u' => length u = length u') us us').
  { clear. intros us us' F. revert us'. induction F as [|s u ls us H F IH]; intros us' F'; inversion F'; subst; constructor; auto; congruence. }
  split.
  - rewrite dist_slices by auto. replace (12 / 5) with (Rabs (12 / 5)) by (apply Rabs_pos_eq; lra). rewrite <- rnorm_scal. apply rnorm_mono.
    clear - A X Y G. induction A as [|s x y d ls xs ys ds H A IH]; [constructor|]. inversion X; inversion Y; subst.
    change (rscal (12 / 5) (dists (y :: ys) (x :: xs))) with (12 / 5 * rnorm (rsub y x) :: rscal (12 / 5) (dists ys xs)). constructor; [|apply IH; auto; intros; apply G; simpl; auto].
    split; [apply geo_pos|]. destruct (G s) as (h & l & a & b & -> & Wl); [simpl; auto|]. apply geo_low; auto.
  - assert (F : Forall3 (fun s x y => on_leaf s x /\ on_leaf s y) (leaves m) xs ys). { clear - A X Y. induction A; inversion X; inversion Y; subst; constructor; auto. }
    destruct (choose4 _ (fun s x y y' => on_leaf s y' /\ same_leaf s y y' /\ rnorm (rsub y' x) <= sqrt 2 * geo_leaf s x y) _ _ _ F) as (ys' & F4).
    { intros s x y Hs (A1 & A2). destruct (G s Hs) as (h & l & a & b & -> & Wl). apply (geo_up h l a b x y Wl A1 A2). }
    exists (concat ys'). assert (Y' : Forall2 on_leaf (leaves m) ys') by (clear - F4; induction F4 as [|? ? ? ? ? ? ? ? (? & _) ? ?]; constructor; auto).
    split; [exists ys'; auto|]. split.
    + exists ys, ys'. split; auto. split; auto. split; auto. clear - F4. induction F4 as [|? ? ? ? ? ? ? ? (? & ? & _) ? ?]; constructor; auto.
    + rewrite dist_slices by auto using on_slices. replace (sqrt 2) with (Rabs (sqrt 2)) by (apply Rabs_pos_eq, sqrt_pos). rewrite <- rnorm_scal. apply rnorm_mono.
      clear - A F4. revert ys' F4. induction A as [|s x y d ls xs ys ds H A IH]; intros ys' F4; inversion F4 as [|? ? ? y' ? ? ? ys1 (_ & _ & K) F4']; subst; [constructor|].
      change (dists (y' :: ys1) (x :: xs)) with (rnorm (rsub y' x) :: dists ys1 xs). change (rscal (sqrt 2) (geo_leaf s x y :: ds)) with (sqrt 2 * geo_leaf s x y :: rscal (sqrt 2) ds). constructor; [|apply IH; auto]. split; [apply rnorm_nonneg|auto].
Qed.
Print Assumptions C61_stored.

(** ** The retraction moves a point by the length of the tangent vector *)
Lemma s2_angle x v : length x = length v -> rdot x x = 1 -> rdot x v = 0 -> acos (rdot x (rscal (/ rnorm (radd x v)) (radd x v))) = atan (rnorm v).
Proof.
  intros L X T. rewrite rdot_rscal_r, rdot_radd_r, X, T by auto. assert (Q : rnorm (radd x v) * rnorm (radd x v) = 1 + rnorm v * rnorm v). { rewrite !rnorm_sq, rdot_add by auto. rewrite X, T. ring. }
  set (k := rnorm (radd x v)) in *. set (n := rnorm v) in *. assert (K0 : 0 <= k) by apply rnorm_nonneg. assert (N0 : 0 <= n) by apply rnorm_nonneg. assert (K1 : 1 <= k) by nra.
  replace (/ k * (1 + 0)) with (/ k) by ring. rewrite acos_atan by (apply Rinv_0_lt_compat; lra). f_equal. replace (1 - (/ k)²) with ((n / k)²).
  - rewrite sqrt_Rsqr; [field; lra|]. apply Rmult_le_pos; auto. apply Rlt_le, Rinv_0_lt_compat. lra.
  - unfold Rsqr. replace (n / k * (n / k)) with (n * n / (k * k)) by (field; lra). rewrite Q. replace (/ k * / k) with (/ (k * k)) by (field; lra). rewrite Q. field. nra.
Qed.
Lemma geo_shift h l a b x v w : let s := Leaf h l a b in leaf_wf h l a b -> on_leaf s x -> tan_leaf s x v -> under_pi s v -> shift_leaf s x v w ->
  geo_leaf s x w = match l with LS2 => atan (rnorm v) | _ => rnorm v end.
Proof.
  intros s W X [L T] P S. destruct (is_s2 s) eqn:N.
  - unfold s, tangentDim in *. cbn [hdr_of] in *. destruct l; try discriminate. cbn [shift_leaf geo_leaf on_leaf] in *. destruct W as (_ & W2 & _). destruct X as [L3 X]. subst w. apply s2_angle; auto. lia.
  - assert (E : geo_leaf s x w = rnorm v). { apply (geo_rel h l a b x v w w); auto. - unfold rot_le_pi. unfold s in *. destruct l as [| |[|]]; cbn [is_so3 under_pi] in *; intros; try discriminate; lra. - unfold s in *. destruct l as [| |[|]]; cbn [same_leaf]; auto. }
    rewrite E. unfold s in N. destruct l; auto. discriminate.
Qed.
Theorem C61_step : forall m : mfd XR, built m -> forall x v : list R, tanM m x v -> eachT (fun s u => under_pi s u /\ off_series s u) m v ->
  exists y, (forall o, length o = representationDim m -> retractation m o (fin x) (fin v) = Ok (fin y)) /\
    geoM m x y <= rnorm v /\ (no_s2 m -> geoM m x y = rnorm v).
Proof.
  intros m B x v T P. apply built_wf in B. pose proof (fun s => wf_leaf_inv m s B) as G.
  assert (C : eachT (cond 0) m v). { destruct P as (us & -> & F). exists us. split; auto. clear - F. induction F as [|s u ls us [L [H H']] F IH]; constructor; auto. split; auto. split; auto. }
  destruct (tree_good m _ x v B T C) as (xvs & yws & -> & -> & F). exists (concat (map fst yws)). split; [intros o Lo; eapply good_run; eauto|].
  assert (LX : Forall2 (fun s z => length z = representationDim s) (leaves m) (map fst xvs)).
  { clear - F G. induction F as [|s xv yw ls xvs yws (_ & _ & _ & _ & _ & O & _) F IH]; constructor; [|apply IH; intros; apply G; simpl; auto]. destruct (G s) as (h & l & a & b & -> & Wl); [simpl; auto|]. eapply on_len; eauto. }
  assert (LY : Forall2 (fun s z => length z = representationDim s) (leaves m) (map fst yws)).
  { clear - F. induction F as [|s xv yw ls xvs yws (_ & _ & O & _) F IH]; constructor; auto. }
  pose proof (geos_cut _ _ _ LX LY) as A. unfold geoM. revert A. generalize (geos (leaves m) (concat (map fst xvs)) (concat (map fst yws))) as ds. intros ds A.
  assert (U : Forall2 under_pi (leaves m) (map snd xvs)).
  { destruct P as (us & E & FU). assert (us = map snd xvs). { apply (sum_list_eq DT (leaves m)); auto; [clear - FU; induction FU as [|s u ls us [L _] FU IH]; constructor; auto|]. clear - F. induction F as [|s xv yw ls xvs yws (_ & _ & _ & _ & _ & _ & [L _]) F IH]; constructor; auto. }
    subst us. clear - FU. induction FU as [|s u ls us (_ & H & _) FU IH]; constructor; auto. }
  assert (NV : rnorm (concat (map snd xvs)) = rnorm (map rnorm (map snd xvs))).
  { change (sqrt (rdot (concat (map snd xvs)) (concat (map snd xvs))) = sqrt (rdot (map rnorm (map snd xvs)) (map rnorm (map snd xvs)))). f_equal. clear. induction (map snd xvs) as [|t ts IH]; [reflexivity|]. cbn [concat map rdot]. rewrite rdot_app_sq, IH, rnorm_sq. ring. }
  assert (Q : Forall3 (fun s d n => 0 <= d <= n /\ (is_s2 s = false -> d = n)) (leaves m) ds (map rnorm (map snd xvs))).
  { clear - A F U G. revert ds A U. induction F as [|s xv yw ls xvs yws (_ & S & L1 & L2 & D & O & T) F IH]; intros ds A U; inversion A as [|? ? ? d ? ? ? ds' HD A']; subst; [constructor|]. cbn [map] in U. inversion U as [|? ? ? ? U1 U2]; subst. constructor; [|apply IH; auto; intros; apply G; simpl; auto].
    destruct (G s) as (h & l & a & b & -> & Wl); [simpl; auto|]. assert (E : fst yw = snd yw). { apply rsub_zero_eq; [congruence|]. pose proof (rnorm_nonneg (rsub (fst yw) (snd yw))) as N0. rewrite <- rnorm_sq. assert (N1 : rnorm (rsub (fst yw) (snd yw)) = 0) by lra. rewrite N1. ring. }
    rewrite E. rewrite (geo_shift h l a b (fst xv) (snd xv) (snd yw) Wl O T U1 S). pose proof (rnorm_nonneg (snd xv)) as N0.
    destruct l as [| |k]; cbn [is_s2]; [split; [lra|auto]| |split; [lra|auto]]. split; [|discriminate]. split.
    - destruct N0 as [N0|<-]; [|rewrite atan_0; lra]. rewrite <- atan_0. apply Rlt_le, atan_increasing; auto.
    - destruct N0 as [N0|<-]; [|rewrite atan_0; lra]. apply Rlt_le, atan_lt; auto. }
  rewrite NV. split.
  - apply rnorm_mono. clear - Q. induction Q as [|s d n ls ds ns [H _] Q IH]; constructor; auto.
  - intros N. f_equal. pose proof (fun s => no_s2_in m s N) as NS. clear - Q NS. induction Q as [|s d n ls ds ns [_ H] Q IH]; auto. f_equal; [apply H, NS; simpl; auto|]. apply IH. intros; apply NS; simpl; auto.
Qed.
Print Assumptions C61_step.

(** ** Where it fails: a half turn of the matrix map has logarithm zero *)
Theorem C61_half_turn_refuted : exists (m : mfd XR) (x y w : list R), built m /\ onM m x /\ onM m y /\
  (forall o, length o = tangentDim m -> pseudoLog m o (fin x) (fin y) = Ok (fin w)) /\ rnorm w = 0 /\ geoM m x y = PI.
Proof.
  set (q := Q4 0 1 0 0). assert (U : qn2 q = 1) by (unfold qn2, q; cbn; ring). pose proof rM_built as B. destruct rM_leaf as (h & a & b & E & W). pose proof W as (W1 & W2 & W3 & _).
  exists rM, (flat9 ridm), (flat9 (qmat q)), [0; 0; 0]. split; [auto|]. rewrite E. split; [exists [flat9 ridm]; split; [reflexivity|]; constructor; [exists ridm; auto using rot_id|constructor]|].
  split; [exists [flat9 (qmat q)]; split; [reflexivity|]; constructor; [exists (qmat q); auto using qmat_rot|constructor]|]. split; [|split; [apply rnorm100; lra|]].
  - intros o Lo. unfold tangentDim in Lo. cbn [hdr_of] in Lo. rewrite em_log by (auto; lia). change (rtr ridm) with ridm; rewrite rmul_id_l.
    assert (Z : [- a12 (qmat q); a02 (qmat q); - a01 (qmat q)] = [0; 0; 0]) by (unfold q; cbn [qmat a12 a02 a01 Model_SO3.qw Model_SO3.qx Model_SO3.qy Model_SO3.qz]; apply list3_eq; ring).
    rewrite em_logarithm_small; [rewrite Z; auto|lia|]. unfold upper. rewrite Z, rnorm100; lra.
  - unfold geoM. cbn [leaves geos]. cbv zeta. unfold representationDim. cbn [hdr_of]. rewrite !firstn_all2 by (rewrite flat9_length; lia). cbn [geo_leaf].
    replace ((rdot (flat9 ridm) (flat9 (qmat q)) - 1) / 2) with (- (1)) by (unfold q; cbn; field). rewrite acos_opp, acos_1. pose proof PI_RGT_0.
    unfold rnorm. cbn [rdot]. replace ((PI - 0) * (PI - 0) + 0) with (PI * PI) by ring. apply sqrt_square. lra.
Qed.
Print Assumptions C61_half_turn_refuted.

(** ** Example *)
(** S2 x SO3 (quaternion): a quarter turn on the sphere and a rotation of 2 pi/3 (written with the other sign). *)
Example C61_example : let x := [1; 0; 0; 1; 0; 0; 0] in let y := [0; 1; 0; - (1 / 2); 1 / 2; 1 / 2; 1 / 2] in
  onM rS1 x /\ onM rS1 y /\ pairs logable (leaves rS1) x y /\ pairs log_main (leaves rS1) x y /\ geos (leaves rS1) x y = [PI / 2; 2 * (PI / 3)].
Proof.
  intros x y. assert (L : leaves rS1 = [rS2; rQ]) by reflexivity. rewrite L. unfold onM. rewrite L.
  destruct rS2_leaf as (h & a & b & E & W), rQ_leaf as (h' & a' & b' & E' & W'). pose proof PI_gt2 as P2.
  assert (A0 : acos (1 * 0 + (0 * 1 + (0 * 0 + 0))) = PI / 2) by (rewrite <- acos_0; f_equal; ring).
  assert (A1 : acos (Rabs (1 * - (1 / 2) + (0 * (1 / 2) + (0 * (1 / 2) + (0 * (1 / 2) + 0))))) = PI / 3).
  { replace (1 * - (1 / 2) + (0 * (1 / 2) + (0 * (1 / 2) + (0 * (1 / 2) + 0)))) with (- (1 / 2)) by ring. rewrite Rabs_Ropp, Rabs_pos_eq by lra. rewrite <- cos_PI3. apply acos_cos. lra. }
  assert (R1 : representationDim rS2 = 3%nat) by reflexivity. assert (R2 : representationDim rQ = 4%nat) by reflexivity.
  split; [exists [[1; 0; 0]; [1; 0; 0; 0]]; split; [reflexivity|]|split; [exists [[0; 1; 0]; [- (1 / 2); 1 / 2; 1 / 2; 1 / 2]]; split; [reflexivity|]|]].
  - constructor; [split; [reflexivity|cbn; ring]|constructor; [|constructor]]. exists (Q4 1 0 0 0). split; [reflexivity|unfold qn2; cbn; ring].
  - constructor; [split; [reflexivity|cbn; ring]|constructor; [|constructor]]. exists (Q4 (- (1 / 2)) (1 / 2) (1 / 2) (1 / 2)). split; [reflexivity|unfold qn2; cbn; field].
  - cbn [pairs geos]. cbv zeta. rewrite R1, R2. unfold x, y. cbn [firstn skipn]. rewrite E, E'. cbn [logable log_main geo_leaf rdot]. rewrite A0, A1. split; [split; [lra|split; [lra|auto]]|]. split; [split; [auto|split; [right; lra|auto]]|]. auto.
Qed.
