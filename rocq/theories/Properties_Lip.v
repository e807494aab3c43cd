(** C60: the retraction does not amplify perturbations.  Exact real arithmetic. *)
From Coq Require Import Reals List Lra Lia ZArith Bool Arith Psatz.
From Verif Require Import Base Scalar Vec Model_Real Model_S2 Model_SO3 Model_Manifold Spec Layout Comp Indep Flat Structure
  XR SpecR RotR NumVec NumMat Angle NumQuat NumTree NumLeaf RotLog RoundTrip NumS2 NumExp NumLog Close Force Points Drift ExScalar ExR
  Properties_SO3 Properties_Matrix Properties_Deriv Properties_Points Properties_Drift Inj Properties_Inj Subgroup Path Properties_Path Lip.
Import ListNotations.
Local Open Scope R_scope.

(** ** Elementary manifolds *)
Lemma reach h l a b d x v : let s := Leaf h l a b in leaf_wf h l a b -> on_leaf s x -> tan_leaf s x v -> under_pi s v ->
  (d = 1 / 10 ^ 22 \/ (d = 0 /\ off_series s v)) ->
  exists y w, (forall o, length o = representationDim s -> retractation s o (fin x) (fin v) = Ok (fin y)) /\
    shift_leaf s x v w /\ length y = representationDim s /\ length w = representationDim s /\ rnorm (rsub y w) <= 48 * d.
Proof.
  intros s W Hx [Lv Tv] Pv Hd. assert (D0 : 0 <= d) by (destruct Hd as [->|[-> _]]; lra). pose proof (on_len _ _ _ _ _ W Hx) as Lx.
  destruct (is_s2 s) eqn:S2.
  - unfold s, representationDim, tangentDim in *. cbn [hdr_of] in *. destruct l; try discriminate. pose proof W as (W1 & W2 & W3 & _). destruct Hx as [L3 U].
    exists (rscal (/ rnorm (radd x v)) (radd x v)), (rscal (/ rnorm (radd x v)) (radd x v)). split; [|split; [reflexivity|split; [|split]]].
    + intros o Lo. apply s2_retr; auto; try lia. rewrite Tv, Rabs_R0. lra.
    + rewrite rscal_length, radd_length; lia.
    + rewrite rscal_length, radd_length; lia.
    + rewrite dist_refl. lra.
  - destruct (beside_step h l a b 0 d x x v W) as (y & w & R1 & S1 & B1); auto using beside_refl; try lra.
    exists y, w. split; auto. split; auto. rewrite Rplus_0_l in B1. split; [apply (beside_len _ _ _ _ _ _ _ W B1)|]. split; [apply on_len; auto; apply (beside_on _ _ _ _ B1)|].
    destruct l as [| |[|]]; cbn [beside] in B1; try tauto.
    + destruct B1 as [-> _]. rewrite dist_refl. lra.
    + destruct B1 as (A & B & -> & -> & _ & N0 & N1 & N2). apply sq_le_norm; [lra|]. rewrite flat9_sub. fold (fro (rmsub A B)). rewrite fro_rows.
      change (row0 (rmsub A B)) with (rsub (row0 A) (row0 B)). change (row1 (rmsub A B)) with (rsub (row1 A) (row1 B)). change (row2 (rmsub A B)) with (rsub (row2 A) (row2 B)).
      rewrite <- !rnorm_sq. pose proof (rnorm_nonneg (rsub (row0 A) (row0 B))). pose proof (rnorm_nonneg (rsub (row1 A) (row1 B))). pose proof (rnorm_nonneg (rsub (row2 A) (row2 B))). nra.
    + destruct B1 as (p & q & -> & -> & _ & N). unfold qnear in N. lra.
Qed.
Lemma shift_lip h l a b x x' v v' w w' : let s := Leaf h l a b in leaf_wf h l a b -> on_leaf s x -> on_leaf s x' -> tan_leaf s x v -> tan_leaf s x' v' ->
  shift_leaf s x v w -> shift_leaf s x' v' w' -> rnorm (rsub w w') <= rnorm (rsub x x') + sqrt 2 * rnorm (rsub v v').
Proof.
  intros s W Hx Hx' [Lv Tv] [Lv' Tv'] Hw Hw'. pose proof (on_len _ _ _ _ _ W Hx) as Lx. pose proof (on_len _ _ _ _ _ W Hx') as Lx'.
  assert (S1 : 1 <= sqrt 2) by (rewrite <- sqrt_1 at 1; apply sqrt_le_1_alt; lra). pose proof (rnorm_nonneg (rsub v v')) as Nv.
  assert (SUM : length x = length v -> length x' = length v' -> length x = length x' -> rnorm (rsub (radd x v) (radd x' v')) <= rnorm (rsub x x') + rnorm (rsub v v')).
  { intros E1 E2 E3. assert (E : rsub (radd x v) (radd x' v') = radd (rsub x x') (rsub v v')).
    { clear - E1 E2 E3. revert v x' v' E1 E2 E3. induction x as [|p x IH]; intros [|q v] [|p' x'] [|q' v'] E1 E2 E3; try discriminate; [reflexivity|]. cbn [length] in *.
      change ((p + q) - (p' + q') :: rsub (radd x v) (radd x' v') = (p - p') + (q - q') :: radd (rsub x x') (rsub v v')). f_equal; [ring|]. apply IH; lia. }
    rewrite E. apply rnorm_tri. rewrite !rsub_len by lia. lia. }
  unfold s, representationDim, tangentDim in *. cbn [hdr_of] in *. destruct l as [| |[|]]; cbn [shift_leaf on_leaf] in *.
  - destruct W as [W1 W2]. subst w w'. specialize (SUM ltac:(lia) ltac:(lia) ltac:(lia)). nra.
  - destruct W as (W1 & W2 & W3 & _). subst w w'. specialize (SUM ltac:(lia) ltac:(lia) ltac:(lia)). destruct Hx as [_ U], Hx' as [_ U'].
    assert (A : 1 <= rdot (radd x v) (radd x v)) by (rewrite rdot_add, U, Tv by lia; pose proof (rdot_self_nonneg v); lra).
    assert (B : 1 <= rdot (radd x' v') (radd x' v')) by (rewrite rdot_add, U', Tv' by lia; pose proof (rdot_self_nonneg v'); lra).
    pose proof (normal_lip (radd x v) (radd x' v') ltac:(rewrite !radd_length; lia) A B). nra.
  - destruct W as (W1 & W2 & W3 & _). destruct Hx as (A & -> & RA), Hx' as (A' & -> & RA'). destruct Hw as (B & E & ->), Hw' as (B' & E' & ->).
    apply flat9_inj in E, E'. subst B B'. pose proof (expSO3_lip v v' ltac:(lia) ltac:(lia)) as H.
    eapply Rle_trans; [apply (dist_via _ (flat9 (rmul A' (expSO3 v)))); reflexivity|]. apply Rplus_le_compat.
    + right. unfold rnorm. f_equal. rewrite !flat9_sub. rewrite <- rmsub_mul_r. apply fro_right. apply expSO3_rot.
    + eapply Rle_trans; [right|exact H]. unfold rnorm. f_equal. rewrite !flat9_sub. rewrite <- rmsub_mul_l. apply fro_left. auto.
  - destruct W as (W1 & W2 & W3 & _). destruct Hx as (p & -> & U), Hx' as (p' & -> & U'). destruct Hw as (B & E & ->), Hw' as (B' & E' & ->).
    apply qflat_inj in E, E'. subst B B'. pose proof (expQ_lip v v' ltac:(lia) ltac:(lia)) as H. set (e := expQ v) in *. set (e' := expQ v') in *.
    assert (Ue : qn2 e = 1) by apply expQ_unit.
    eapply Rle_trans; [apply (dist_via _ (qflat (qprod p' e))); reflexivity|]. apply Rplus_le_compat.
    + right. unfold rnorm. f_equal. transitivity (rdot (rsub (qflat p) (qflat p')) (rsub (qflat p) (qflat p')) * qn2 e); [|rewrite Ue; ring].
      unfold rsub, qflat, qn2, qprod. cbn [map combine fst snd rdot Model_SO3.qw Model_SO3.qx Model_SO3.qy Model_SO3.qz]. ring.
    + apply Rle_trans with (rnorm (rsub (qflat e) (qflat e'))); [right|nra]. unfold rnorm. f_equal.
      transitivity (rdot (rsub (qflat e) (qflat e')) (rsub (qflat e) (qflat e')) * qn2 p'); [|rewrite U'; ring].
      unfold rsub, qflat, qn2, qprod. cbn [map combine fst snd rdot Model_SO3.qw Model_SO3.qx Model_SO3.qy Model_SO3.qz]. ring.
Qed.

(** ** Slices *)
Definition dists (us us' : list (list R)) : list R := map (fun p => rnorm (rsub (fst p) (snd p))) (combine us us').
Lemma rsub_app a b c d : length a = length c -> rsub (a ++ b) (c ++ d) = rsub a c ++ rsub b d.
Proof. revert c. induction a as [|x a IH]; intros [|y c] L; try discriminate; [reflexivity|]. change (x - y :: rsub (a ++ b) (c ++ d) = x - y :: rsub a c ++ rsub b d). f_equal. apply IH. auto. Qed.
Lemma rdot_app_sq a b : rdot (a ++ b) (a ++ b) = rdot a a + rdot b b.
Proof. induction a as [|x a IH]; cbn [app rdot]; [ring|]. rewrite IH. ring. Qed.
Lemma dist_slices us us' : Forall2 (fun u u' => length u = length u') us us' -> rnorm (rsub (concat us) (concat us')) = rnorm (dists us us').
Proof.
  intros F. change (sqrt (rdot (rsub (concat us) (concat us')) (rsub (concat us) (concat us'))) = sqrt (rdot (dists us us') (dists us us'))). f_equal. induction F as [|u u' us us' L F IH]; [reflexivity|]. cbn [concat]. rewrite rsub_app, rdot_app_sq, IH by auto.
  change (dists (u :: us) (u' :: us')) with (rnorm (rsub u u') :: dists us us'). cbn [rdot]. rewrite rnorm_sq. ring.
Qed.
Lemma rnorm_mono ns cs : Forall2 (fun n c => 0 <= n <= c) ns cs -> rnorm ns <= rnorm cs.
Proof. intros F. apply sqrt_le_1_alt. induction F as [|n c ns cs H F IH]; [lra|]. cbn [rdot]. nra. Qed.
Lemma rnorm_repeat e k : 0 <= e -> rnorm (repeat e k) <= INR k * e.
Proof.
  intros E. pose proof (pos_INR k). apply sq_le_norm; [apply Rmult_le_pos; auto|]. induction k as [|k IH]; [cbn; lra|]. rewrite S_INR. cbn [repeat rdot]. pose proof (pos_INR k). specialize (IH ltac:(auto)). nra.
Qed.
Lemma minkowski e ns as_ bs : 0 <= e -> Forall3 (fun n a b => 0 <= n <= a + sqrt 2 * b + e) ns as_ bs -> rnorm ns <= rnorm as_ + sqrt 2 * rnorm bs + INR (length ns) * e.
Proof.
  intros E F. assert (L : length ns = length as_ /\ length ns = length bs) by (induction F; cbn [length]; intuition lia). destruct L as [L1 L2].
  apply Rle_trans with (rnorm (radd (radd as_ (rscal (sqrt 2) bs)) (repeat e (length ns)))).
  - apply rnorm_mono. clear - F. induction F as [|n a b ns as_ bs H F IH]; [constructor|]. cbn [length repeat].
    change (radd (radd (a :: as_) (rscal (sqrt 2) (b :: bs))) (e :: repeat e (length ns))) with (a + sqrt 2 * b + e :: radd (radd as_ (rscal (sqrt 2) bs)) (repeat e (length ns))). constructor; auto.
  - eapply Rle_trans; [apply rnorm_tri; rewrite radd_length, ?rscal_length, ?repeat_length; rewrite ?rscal_length; lia|]. apply Rplus_le_compat; [|apply rnorm_repeat; auto].
    eapply Rle_trans; [apply rnorm_tri; rewrite rscal_length; lia|]. rewrite rnorm_scal, Rabs_right by (apply Rle_ge, sqrt_pos). lra.
Qed.

(** ** Trees *)
Definition cond (d : R) (s : mfd XR) (v : list R) : Prop := under_pi s v /\ (d = 1 / 10 ^ 22 \/ (d = 0 /\ off_series s v)).
Definition good (d : R) (s : mfd XR) (xv yw : list R * list R) : Prop :=
  (forall o, length o = representationDim s -> retractation s o (fin (fst xv)) (fin (snd xv)) = Ok (fin (fst yw))) /\
  shift_leaf s (fst xv) (snd xv) (snd yw) /\ length (fst yw) = representationDim s /\ length (snd yw) = representationDim s /\ rnorm (rsub (fst yw) (snd yw)) <= 48 * d /\
  on_leaf s (fst xv) /\ tan_leaf s (fst xv) (snd xv).
Lemma tree_good m d x v : wf m -> tanM m x v -> eachT (cond d) m v ->
  exists xvs yws, x = concat (map fst xvs) /\ v = concat (map snd xvs) /\ Forall3 (good d) (leaves m) xvs yws.
Proof.
  intros W (xs & vs & -> & -> & Ox & T) (us & Eu & C). pose proof (fun s => wf_leaf_inv m s W) as G.
  assert (us = vs) as ->.
  { symmetry. apply concat_inj_len; auto. apply (len_same (ls := leaves m) (D := DT)); [apply (tan_len _ _ _ T)|]. clear - C. induction C as [|? ? ? ? []]; constructor; auto. }
  clear Eu. assert (E : map fst (combine xs vs) = xs /\ map snd (combine xs vs) = vs).
  { clear - T. induction T as [|s x v ls xs vs H T IH]; [auto|]. cbn [combine map fst snd]. destruct IH as [-> ->]. auto. }
  destruct E as [E1 E2]. exists (combine xs vs). rewrite E1, E2.
  assert (F : Forall2 (fun s xv => on_leaf s (fst xv) /\ tan_leaf s (fst xv) (snd xv) /\ cond d s (snd xv)) (leaves m) (combine xs vs)).
  { clear - Ox T C. revert Ox C. induction T as [|s x v ls xs vs H T IH]; intros Ox C; inversion Ox; inversion C; subst; constructor; cbn [fst snd]; [|apply IH; auto]. intuition. }
  destruct (choose3 _ (good d) _ _ F) as (yws & Q).
  - intros s [x v] Hs (H1 & H2 & H3 & H4). cbn [fst snd] in *. destruct (G s Hs) as (h & l & a & b & -> & Wl).
    destruct (reach h l a b d x v Wl H1 H2 H3 H4) as (y & w & A1 & A2 & A3 & A4 & A5). exists (y, w). unfold good. cbn [fst snd]. intuition.
  - exists yws. auto.
Qed.
Lemma good_run m d xvs yws : wf m -> Forall3 (good d) (leaves m) xvs yws -> forall o, length o = representationDim m ->
  retractation m o (fin (concat (map fst xvs))) (fin (concat (map snd xvs))) = Ok (fin (concat (map fst yws))).
Proof.
  intros W F o Lo. pose proof (fun s => wf_leaf_inv m s W) as G. apply (lift_op2 DR DR DT retractation retractation_prod m _ _ _ _ W Lo).
  clear - F G. revert G. induction F as [|s xv yw ls xvs yws (A & _ & _ & _ & _ & B & L & _) F IH]; intros G; cbn [map]; constructor.
  - destruct (G s) as (h & l & a & b & -> & Wl); [simpl; auto|]. split; [apply (on_len _ _ _ _ _ Wl B)|]. auto.
  - apply IH. intros; apply G; simpl; auto.
Qed.
Lemma good_dist m d xvs yws xvs' yws' : wf m -> 0 <= d -> Forall3 (good d) (leaves m) xvs yws -> Forall3 (good d) (leaves m) xvs' yws' ->
  rnorm (rsub (concat (map fst yws)) (concat (map fst yws'))) <=
    rnorm (rsub (concat (map fst xvs)) (concat (map fst xvs'))) + sqrt 2 * rnorm (rsub (concat (map snd xvs)) (concat (map snd xvs'))) + INR (length (leaves m)) * (96 * d).
Proof.
  intros W D F F'. pose proof (fun s => wf_leaf_inv m s W) as G.
  assert (Q : Forall2 (fun u u' => length u = length u') (map fst yws) (map fst yws') /\ Forall2 (fun u u' => length u = length u') (map fst xvs) (map fst xvs') /\
    Forall2 (fun u u' => length u = length u') (map snd xvs) (map snd xvs') /\ length (dists (map fst yws) (map fst yws')) = length (leaves m) /\
    Forall3 (fun n a b => 0 <= n <= a + sqrt 2 * b + 96 * d) (dists (map fst yws) (map fst yws')) (dists (map fst xvs) (map fst xvs')) (dists (map snd xvs) (map snd xvs'))).
  { clear - F F' G. revert xvs' yws' F' G. induction F as [|s xv yw ls xvs yws H F IH]; intros xvs' yws' F' G; inversion F' as [|? xv' yw' ? xvs1 yws1 H' F1]; subst.
    - cbn. repeat split; try constructor; lra.
    - destruct (IH xvs1 yws1 F1) as (I1 & I2 & I3 & I4 & I5). { intros; apply G; simpl; auto. }
      destruct (G s) as (h & l & a & b & -> & Wl); [simpl; auto|].
      destruct H as (_ & A1 & A2 & A3 & A4 & A5 & A6), H' as (_ & A1' & A2' & A3' & A4' & A5' & A6').
      pose proof (on_len _ _ _ _ _ Wl A5) as L1. pose proof (on_len _ _ _ _ _ Wl A5') as L1'. destruct A6 as [L2 T2] eqn:E6, A6' as [L2' T2'] eqn:E6'. clear E6 E6'.
      cbn [map]. split; [constructor; auto; congruence|]. split; [constructor; auto; congruence|]. split; [constructor; auto; congruence|].
      unfold dists in *. cbn [combine map fst snd length]. split; [f_equal; auto|]. constructor; auto. split; [apply rnorm_nonneg|].
      pose proof (shift_lip h l a b _ _ _ _ _ _ Wl A5 A5' (conj L2 T2) (conj L2' T2') A1 A1') as S.
      pose proof (dist_via (fst yw) (snd yw) (fst yw') ltac:(congruence) ltac:(congruence)) as V1.
      pose proof (dist_via (snd yw) (snd yw') (fst yw') ltac:(congruence) ltac:(congruence)) as V2. rewrite (dist_sym (snd yw') (fst yw')) in V2 by congruence. lra. }
  destruct Q as (Q1 & Q2 & Q3 & Q4 & Q5). rewrite !dist_slices by auto. rewrite <- Q4. apply minkowski; auto. lra.
Qed.

(** Any tree, any two points of it, tangent vectors at them with rotation parts shorter than pi: both retractions succeed and
    the results are not further apart than the points plus sqrt 2 times the vectors, up to 1e-20 per elementary factor. *)
Theorem C60_lipschitz : forall m : mfd XR, built m -> forall x x' v v' : list R, tanM m x v -> tanM m x' v' ->
  eachT under_pi m v -> eachT under_pi m v' ->
  exists y y', (forall o, length o = representationDim m -> retractation m o (fin x) (fin v) = Ok (fin y) /\ retractation m o (fin x') (fin v') = Ok (fin y')) /\
    rnorm (rsub y y') <= rnorm (rsub x x') + sqrt 2 * rnorm (rsub v v') + INR (length (leaves m)) * (1 / 10 ^ 20).
Proof.
  intros m B x x' v v' T T' P P'. apply built_wf in B.
  assert (C : forall u, eachT under_pi m u -> eachT (cond (1 / 10 ^ 22)) m u).
  { intros u (us & -> & F). exists us. split; auto. clear - F. induction F as [|s u ls us [L H] F IH]; constructor; auto. split; auto. split; auto. }
  destruct (tree_good m _ x v B T (C _ P)) as (xvs & yws & -> & -> & F). destruct (tree_good m _ x' v' B T' (C _ P')) as (xvs' & yws' & -> & -> & F').
  exists (concat (map fst yws)), (concat (map fst yws')). split.
  - intros o Lo. split; eapply good_run; eauto.
  - pose proof (good_dist m (1 / 10 ^ 22) _ _ _ _ B ltac:(lra) F F') as H. pose proof (pos_INR (length (leaves m))). nra.
Qed.
Print Assumptions C60_lipschitz.

(** Off the series the constant 1e-20 is not needed. *)
Theorem C60_lipschitz_exact : forall m : mfd XR, built m -> forall x x' v v' : list R, tanM m x v -> tanM m x' v' ->
  eachT (fun s u => under_pi s u /\ off_series s u) m v -> eachT (fun s u => under_pi s u /\ off_series s u) m v' ->
  exists y y', (forall o, length o = representationDim m -> retractation m o (fin x) (fin v) = Ok (fin y) /\ retractation m o (fin x') (fin v') = Ok (fin y')) /\
    rnorm (rsub y y') <= rnorm (rsub x x') + sqrt 2 * rnorm (rsub v v').
Proof.
  intros m B x x' v v' T T' P P'. apply built_wf in B.
  assert (C : forall u, eachT (fun s u => under_pi s u /\ off_series s u) m u -> eachT (cond 0) m u).
  { intros u (us & -> & F). exists us. split; auto. clear - F. induction F as [|s u ls us [L [H H']] F IH]; constructor; auto. split; auto. split; auto. }
  destruct (tree_good m _ x v B T (C _ P)) as (xvs & yws & -> & -> & F). destruct (tree_good m _ x' v' B T' (C _ P')) as (xvs' & yws' & -> & -> & F').
  exists (concat (map fst yws)), (concat (map fst yws')). split.
  - intros o Lo. split; eapply good_run; eauto.
  - pose proof (good_dist m 0 _ _ _ _ B ltac:(lra) F F') as H. lra.
Qed.
Print Assumptions C60_lipschitz_exact.

(** A step is at most sqrt 2 times as long as its tangent vector. *)
Theorem C60_step : forall m : mfd XR, built m -> forall x v : list R, tanM m x v -> eachT under_pi m v ->
  exists y, (forall o, length o = representationDim m -> retractation m o (fin x) (fin v) = Ok (fin y)) /\
    rnorm (rsub y x) <= sqrt 2 * rnorm v + INR (length (leaves m)) * (1 / 10 ^ 20).
Proof.
  intros m B x v T P. pose proof (built_wf _ B) as W. pose proof T as (xs & vs & Ex & Ev & Ox & Tv).
  assert (Hx : onM m x) by (exists xs; auto).
  assert (Lz : forall ls, concat (map (fun s : mfd XR => repeat 0 (tangentDim s)) ls) = repeat 0 (sum_list (map (getDim DT) ls))).
  { induction ls as [|s ls IH]; [reflexivity|]. cbn [map concat]. rewrite IH, <- repeat_app. reflexivity. }
  assert (Ez : repeat 0 (tangentDim m) = concat (map (fun s : mfd XR => repeat 0 (tangentDim s)) (leaves m))).
  { rewrite Lz. f_equal. change (tangentDim m) with (getDim DT m). apply (leaves_dim DT m W). }
  assert (Z0 : forall k (y : list R), rdot y (repeat 0 k) = 0). { intros k. induction k as [|k IH]; intros [|y ys]; cbn [repeat rdot]; try lra. rewrite IH. ring. }
  assert (TZ : tanM m x (repeat 0 (tangentDim m))).
  { exists xs, (map (fun s : mfd XR => repeat 0 (tangentDim s)) (leaves m)). split; auto. split; auto. split; auto. clear - Ox Z0. induction Ox as [|s x ls xs H F IH]; cbn [map]; constructor; auto.
    split; [apply repeat_length|]. destruct s as [h [| |]|]; auto. }
  assert (PZ : eachT under_pi m (repeat 0 (tangentDim m))).
  { exists (map (fun s : mfd XR => repeat 0 (tangentDim s)) (leaves m)). split; auto. clear - Z0. induction (leaves m) as [|s ls IH]; cbn [map]; constructor; auto.
    split; [apply repeat_length|]. destruct s as [h [| |]|]; cbn [under_pi]; auto. unfold rnorm. rewrite Z0, sqrt_0. apply PI_RGT_0. }
  destruct (C60_lipschitz m B x x v _ T TZ P PZ) as (y & y' & R1 & D).
  destruct (C23_zero_partial m B) as (_ & Z). destruct (Z x Hx) as [Z1 _].
  assert (y' = x) as ->.
  { destruct (R1 (repeat (Fin 0) (representationDim m)) (repeat_length _ _)) as [_ A]. rewrite Z1 in A by apply repeat_length. injection A as A. apply fin_inj in A. auto. }
  exists y. split; [intros o Lo; apply R1; auto|]. rewrite dist_refl in D.
  assert (E : rsub v (repeat 0 (tangentDim m)) = v).
  { assert (Lv : length v = tangentDim m). { subst v. change (tangentDim m) with (getDim DT m). rewrite (leaves_dim DT m W). clear - Tv. induction Tv as [|s x v ls xs vs [L _] T IH]; [reflexivity|]. cbn [concat map]. rewrite app_length, IH, L. reflexivity. }
    rewrite <- Lv. clear. induction v as [|a v IH]; [reflexivity|]. cbn [length repeat]. change (a - 0 :: rsub v (repeat 0 (length v)) = a :: v). rewrite IH. f_equal. ring. }
  rewrite E in D. lra.
Qed.
Print Assumptions C60_step.

(** ** Paths *)
Lemma shiftM_lip m x x' v v' w w' : wf m -> shiftM m x v w -> shiftM m x' v' w' ->
  rnorm (rsub w w') <= rnorm (rsub x x') + sqrt 2 * rnorm (rsub v v').
Proof.
  intros W (xs & vs & ws & -> & -> & -> & Ox & Tx & Sx) (xs' & vs' & ws' & -> & -> & -> & Ox' & Tx' & Sx'). pose proof (fun s => wf_leaf_inv m s W) as G.
  assert (Q : Forall2 (fun u u' => length u = length u') ws ws' /\ Forall2 (fun u u' => length u = length u') xs xs' /\ Forall2 (fun u u' => length u = length u') vs vs' /\
    Forall3 (fun n a b => 0 <= n <= a + sqrt 2 * b + 0) (dists ws ws') (dists xs xs') (dists vs vs')).
  { clear W. revert xs' vs' ws' Ox Tx Ox' Tx' Sx' G. induction Sx as [|s x v w ls xs vs ws H F IH]; intros xs' vs' ws' Ox Tx Ox' Tx' Sx' G; inversion Sx' as [|? x' v' w' ? xs1 vs1 ws1 H' F']; subst.
    - repeat split; constructor.
    - inversion Ox as [|? ? ? ? O1 O2]; inversion Tx as [|? ? ? ? ? ? T1 T2]; inversion Ox' as [|? ? ? ? O1' O2']; inversion Tx' as [|? ? ? ? ? ? T1' T2']; subst.
      destruct (IH xs1 vs1 ws1) as (I1 & I2 & I3 & I4); auto. { intros; apply G; simpl; auto. }
      destruct (G s) as (h & l & a & b & -> & Wl); [simpl; auto|].
      pose proof (on_len _ _ _ _ _ Wl O1) as L1. pose proof (on_len _ _ _ _ _ Wl O1') as L1'. pose proof T1 as [L2 _]. pose proof T1' as [L2' _].
      assert (LW : length w = length w').
      { destruct l as [| |[|]]; cbn [shift_leaf] in *.
        - subst. rewrite !radd_length; try lia; destruct Wl as [W1 W2]; unfold representationDim, tangentDim in *; cbn [hdr_of] in *; lia.
        - subst. rewrite !rscal_length. destruct Wl as (W1 & W2 & W3 & _). unfold representationDim, tangentDim in *; cbn [hdr_of] in *. rewrite !radd_length by lia. lia.
        - destruct H as (? & _ & ->), H' as (? & _ & ->). reflexivity.
        - destruct H as (? & _ & ->), H' as (? & _ & ->). reflexivity. }
      split; [constructor; auto|]. split; [constructor; auto; congruence|]. split; [constructor; auto; congruence|].
      unfold dists in *. cbn [combine map fst snd]. constructor; auto. split; [apply rnorm_nonneg|]. rewrite Rplus_0_r. exact (shift_lip h l a b _ _ _ _ _ _ Wl O1 O1' T1 T1' H H'). }
  destruct Q as (Q1 & Q2 & Q3 & Q4). rewrite !dist_slices by auto. pose proof (minkowski 0 _ _ _ ltac:(lra) Q4). lra.
Qed.
Definition gap (vs vs' : list (list R)) : R := fold_right Rplus 0 (dists vs vs').
Lemma near_norm e y w : 0 <= e -> near_v e y w -> rnorm (rsub y w) <= INR (length y) * e.
Proof.
  intros E F. apply Rle_trans with (rnorm (repeat e (length y))); [|apply rnorm_repeat; auto].
  assert (Q : rdot (rsub y w) (rsub y w) <= rdot (repeat e (length y)) (repeat e (length y))); [|apply sqrt_le_1_alt; auto].
  induction F as [|a b y w H F IH]; [cbn; lra|]. change (rsub (a :: y) (b :: w)) with (a - b :: rsub y w). cbn [length repeat rdot]. apply Rabs_le_inv in H. nra.
Qed.
Lemma near_len e y w : near_v e y w -> length y = length w.
Proof. induction 1; cbn [length]; auto. Qed.

(** Two paths of k increments on a tree without S2: the end points are not further apart than the starting points plus
    sqrt 2 times the sum of the differences of the increments, up to k 1e-20 per stored number on each side. *)
Theorem C60_paths : forall m : mfd XR, built m -> no_s2 m -> forall (x x' : list R) (vs vs' : list (list R)), onM m x -> onM m x' ->
  length vs = length vs' -> Forall (eachT under_pi m) vs -> Forall (eachT under_pi m) vs' -> INR (length vs) <= 10 ^ 20 ->
  exists y y', increments m (fin x) vs = Ok (fin y) /\ increments m (fin x') vs' = Ok (fin y') /\
    rnorm (rsub y y') <= rnorm (rsub x x') + sqrt 2 * gap vs vs' + 2 * INR (representationDim m) * (INR (length vs) * (1 / 10 ^ 20)).
Proof.
  intros m B N x x' vs vs' Hx Hx' L P P' K. pose proof (built_wf _ B) as W.
  destruct (C59_path m x vs B N Hx P K) as (y & w & R1 & S1 & D1). destruct (C59_path m x' vs' B N Hx' P' ltac:(rewrite <- L; auto)) as (y' & w' & R2 & S2 & D2).
  exists y, y'. split; auto. split; auto.
  assert (OL : forall z, onM m z -> length z = representationDim m).
  { intros z (zs & -> & F). change (representationDim m) with (getDim DR m). rewrite (leaves_dim DR m W). pose proof (fun s => wf_leaf_inv m s W) as G. clear - F G. revert G. induction F as [|s z ls zs H F IH]; intros G; [reflexivity|].
    cbn [concat map]. rewrite app_length, IH by (intros; apply G; simpl; auto). destruct (G s) as (h & l & a & b & -> & Wl); [simpl; auto|]. rewrite (on_len _ _ _ _ _ Wl H). reflexivity. }
  assert (PO : forall vs x w, onM m x -> pathM m x vs w -> onM m w).
  { clear - W N. induction vs as [|v vs IH]; intros x w Hx H; cbn [pathM] in H; [subst; auto|]. destruct H as (z & H1 & H2). apply (IH z); auto. apply (shiftM_on m x v); auto. }
  pose proof (OL _ (PO _ _ _ Hx S1)) as Lw. pose proof (OL _ (PO _ _ _ Hx' S2)) as Lw'. pose proof (near_len _ _ _ D1) as L1. pose proof (near_len _ _ _ D2) as L2.
  assert (PD : rnorm (rsub w w') <= rnorm (rsub x x') + sqrt 2 * gap vs vs').
  { clear - W L S1 S2. revert x x' vs' L S1 S2. induction vs as [|v vs IH]; intros x x' [|v' vs'] L S1 S2; try discriminate; cbn [pathM] in *.
    - subst. unfold gap. cbn. lra.
    - destruct S1 as (z & A1 & A2), S2 as (z' & A1' & A2'). pose proof (IH z z' vs' ltac:(cbn in L; lia) A2 A2') as H. pose proof (shiftM_lip _ _ _ _ _ _ _ W A1 A1').
      change (gap (v :: vs) (v' :: vs')) with (rnorm (rsub v v') + gap vs vs'). lra. }
  pose proof (pos_INR (length vs)) as K0. assert (E0 : 0 <= INR (length vs) * (1 / 10 ^ 20)) by (apply Rmult_le_pos; lra).
  rewrite <- L in D2. pose proof (near_norm _ _ _ E0 D1) as N1. pose proof (near_norm _ _ _ E0 D2) as N2.
  pose proof (dist_via y w y' ltac:(congruence) ltac:(congruence)) as V1. pose proof (dist_via w w' y' ltac:(congruence) ltac:(congruence)) as V2. rewrite (dist_sym w' y') in V2 by congruence.
  replace (length y) with (representationDim m) in N1 by congruence. replace (length y') with (representationDim m) in N2 by congruence. lra.
Qed.
Print Assumptions C60_paths.

(** The factor sqrt 2 cannot be 1: a turn of pi/3 of the matrix map moves the nine stored numbers by sqrt 2. *)
Theorem C60_factor_refuted : exists (m : mfd XR) (x v y : list R), built m /\ tanM m x v /\ eachT under_pi m v /\
  (forall o, length o = representationDim m -> retractation m o (fin x) (fin v) = Ok (fin y)) /\ rnorm v + 1 / 20 < rnorm (rsub y x).
Proof.
  destruct rM_leaf as (h & a & b & E & W). pose proof PI_gt2 as P2. pose proof PI_4 as P4. pose proof W as (W1 & W2 & W3 & _).
  assert (NV : rnorm [PI / 3; 0; 0] = PI / 3) by (apply rnorm100; lra).
  exists rM, (flat9 ridm), [PI / 3; 0; 0], (flat9 (rmul ridm (expSO3 [PI / 3; 0; 0]))). split; [apply rM_built|]. rewrite E.
  split; [exists [flat9 ridm], [[PI / 3; 0; 0]]; split; [reflexivity|]; split; [reflexivity|]; split|].
  { constructor; [|constructor]. exists ridm. split; auto using rot_id. }
  { constructor; [|constructor]. split; auto. }
  split; [exists [[PI / 3; 0; 0]]; split; [reflexivity|]; constructor; [|constructor]; split; [auto|]|].
  { cbn [under_pi]. rewrite NV. lra. }
  split.
  - intros o Lo. apply em_retr; auto. { unfold representationDim in Lo. cbn [hdr_of] in Lo. lia. } apply em_exp_main; auto; [|rewrite NV; lra]. rewrite <- rnorm_sq, NV. unfold eps8. nra.
  - rewrite rmul_id_l, NV. unfold rnorm. rewrite flat9_sub. fold (fro (rmsub (expSO3 [PI / 3; 0; 0]) ridm)). rewrite fro_sub by auto using rot_id, expSO3_rot.
    assert (T : tr3 (rmul (rtr (expSO3 [PI / 3; 0; 0])) ridm) = 2).
    { rewrite rmul_id_r. unfold expSO3. cbv zeta. rewrite NV. destruct (Req_EM_T (PI / 3) 0); [lra|]. unfold tr3, rtr, rodrigues. cbn [a00 a01 a02 a10 a11 a12 a20 a21 a22]. rewrite cos_PI3. field. lra. }
    rewrite T. replace (6 - 2 * 2) with 2 by ring. assert (S : 14 / 10 < sqrt 2) by (apply Rsqr_incrst_0; [unfold Rsqr; rewrite sqrt_sqrt; lra|lra|apply sqrt_pos]). lra.
Qed.
Print Assumptions C60_factor_refuted.

(** ** Example *)
(** S2 x SO3 (quaternion): two nearby points of the sphere with different tangent vectors. *)
Example C60_example : let x := [1; 0; 0; 1; 0; 0; 0] in let x' := [3 / 5; 4 / 5; 0; 1; 0; 0; 0] in
  let v := [0; 2; 1; 1; 0; 0] in let v' := [4 / 5; - 3 / 5; 1; 2; 0; 0] in
  exists y y', (forall o, length o = 7%nat -> retractation rS1 o (fin x) (fin v) = Ok (fin y) /\ retractation rS1 o (fin x') (fin v') = Ok (fin y')) /\
    rnorm (rsub y y') <= rnorm (rsub x x') + sqrt 2 * rnorm (rsub v v') + 2 * (1 / 10 ^ 20).
Proof.
  intros x x' v v'. assert (B : built rS1) by apply (prod2_built rS2 rQ _ rS2_built rQ_built eq_refl). pose proof PI_gt2 as P2.
  assert (L : leaves rS1 = [rS2; rQ]) by reflexivity.
  destruct rS2_leaf as (h & a & b & E & W), rQ_leaf as (h' & a' & b' & E' & W').
  assert (H1 : tanM rS1 x v).
  { exists [[1; 0; 0]; [1; 0; 0; 0]], [[0; 2; 1]; [1; 0; 0]]. split; [reflexivity|]. split; [reflexivity|]. rewrite L. split.
    - constructor; [split; [reflexivity|cbn; ring]|constructor; [|constructor]]. exists (Q4 1 0 0 0). split; [reflexivity|unfold qn2; cbn; ring].
    - constructor; [split; [reflexivity|cbn; ring]|constructor; [|constructor]]. split; [reflexivity|]. rewrite E'. auto. }
  assert (H2 : tanM rS1 x' v').
  { exists [[3 / 5; 4 / 5; 0]; [1; 0; 0; 0]], [[4 / 5; - 3 / 5; 1]; [2; 0; 0]]. split; [reflexivity|]. split; [reflexivity|]. rewrite L. split.
    - constructor; [split; [reflexivity|cbn; field]|constructor; [|constructor]]. exists (Q4 1 0 0 0). split; [reflexivity|unfold qn2; cbn; ring].
    - constructor; [split; [reflexivity|cbn; field]|constructor; [|constructor]]. split; [reflexivity|]. rewrite E'. auto. }
  destruct (C60_lipschitz rS1 B x x' v v' H1 H2) as (y & y' & R1 & D).
  - exists [[0; 2; 1]; [1; 0; 0]]. split; [reflexivity|]. rewrite L. constructor; [split; [reflexivity|exact I]|constructor; [split; [reflexivity|]|constructor]]. cbn [under_pi]. rewrite E'. cbn [under_pi]. rewrite rnorm100; lra.
  - exists [[4 / 5; - 3 / 5; 1]; [2; 0; 0]]. split; [reflexivity|]. rewrite L. constructor; [split; [reflexivity|exact I]|constructor; [split; [reflexivity|]|constructor]]. rewrite E'. cbn [under_pi]. rewrite rnorm100; lra.
  - exists y, y'. split; [exact R1|]. rewrite L in D. cbn [length] in D. replace (INR 2) with 2 in D by (cbn; ring). exact D.
Qed.
