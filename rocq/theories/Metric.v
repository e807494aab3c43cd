(** Geodesic distance on the elementary manifolds, defined from the stored numbers only. *)
From Coq Require Import Reals List Lra Lia ZArith Bool Arith Psatz.
From Verif Require Import Base Scalar Vec Model_Real Model_S2 Model_SO3 Model_Manifold Spec Layout Comp Indep Flat
  XR SpecR RotR NumVec NumMat Angle NumQuat NumTree NumLeaf RotLog RoundTrip NumS2 NumExp NumLog Relog Points Drift Inj Subgroup Path Lip.
Import ListNotations.
Local Open Scope R_scope.

(** Length of the shortest path between two points: straight line, great circle, angle of the relative rotation
    (the scalar product of two rotation matrices is the trace of the relative rotation; that of two unit quaternions
    is the cosine of half its angle, up to sign). *)
Definition geo_leaf (s : mfd XR) (x y : list R) : R :=
  match s with
  | Leaf _ LReal _ _ => rnorm (rsub y x)
  | Leaf _ LS2 _ _ => acos (rdot x y)
  | Leaf _ (LSO3 MapMatrix) _ _ => acos ((rdot x y - 1) / 2)
  | Leaf _ (LSO3 MapQuat) _ _ => 2 * acos (Rabs (rdot x y))
  | Prod _ _ _ _ => 0
  end.

Lemma acos_le a t : -1 <= a <= 1 -> 0 <= t <= PI -> cos t <= a -> acos a <= t.
Proof.
  intros A T C. apply Rnot_lt_le. intros L. pose proof (acos_bound a). pose proof (cos_decreasing_1 t (acos a) ltac:(lra) ltac:(lra) ltac:(lra) ltac:(lra) L). rewrite cos_acos in *; lra.
Qed.
Lemma unit_dot x y : rdot x x = 1 -> rdot y y = 1 -> -1 <= rdot x y <= 1.
Proof. intros X Y. pose proof (cauchy x y) as C. rewrite X, Y in C. nra. Qed.
Lemma sin_acos_sq c : -1 <= c <= 1 -> 0 <= sin (acos c) /\ sin (acos c) * sin (acos c) = 1 - c * c.
Proof.
  intros C. pose proof (acos_bound c). split; [apply sin_ge_0; lra|]. pose proof (sin2_cos2 (acos c)) as S. unfold Rsqr in S. rewrite cos_acos in S by auto. lra.
Qed.
Lemma acos_tri x y z : length x = length y -> length y = length z -> rdot x x = 1 -> rdot y y = 1 -> rdot z z = 1 ->
  acos (rdot x z) <= acos (rdot x y) + acos (rdot y z).
Proof.
  intros L1 L2 X Y Z. pose proof (unit_dot x y X Y) as A. pose proof (unit_dot y z Y Z) as B. pose proof (unit_dot x z X Z) as C.
  pose proof (acos_bound (rdot x y)). pose proof (acos_bound (rdot y z)). destruct (Rle_dec PI (acos (rdot x y) + acos (rdot y z))) as [|N].
  - pose proof (acos_bound (rdot x z)). lra.
  - apply acos_le; auto; [lra|]. rewrite cos_plus, !cos_acos by auto. destruct (sin_acos_sq _ A) as [A1 A2]. destruct (sin_acos_sq _ B) as [B1 B2].
    set (sa := sin (acos (rdot x y))) in *. set (sb := sin (acos (rdot y z))) in *. set (a := rdot x y) in *. set (b := rdot y z) in *.
    pose proof (cauchy (rsub x (rscal a y)) (rsub z (rscal b y))) as K.
    assert (La : length (rscal a y) = length y) by apply rscal_length. assert (Lb : length (rscal b y) = length y) by apply rscal_length.
    assert (E1 : rdot (rsub x (rscal a y)) (rsub z (rscal b y)) = rdot x z - a * b).
    { rewrite rdot_rsub_l by congruence. rewrite !rdot_rsub_r by congruence. rewrite !rdot_rscal_l, !rdot_rscal_r, Y. unfold a, b. ring. }
    assert (E2 : rdot (rsub x (rscal a y)) (rsub x (rscal a y)) = 1 - a * a).
    { rewrite rdot_sub by congruence. rewrite !rdot_rscal_r, !rdot_rscal_l, X, Y. fold a. ring. }
    assert (E3 : rdot (rsub z (rscal b y)) (rsub z (rscal b y)) = 1 - b * b).
    { rewrite rdot_sub by congruence. rewrite !rdot_rscal_r, !rdot_rscal_l, Z, Y. rewrite (rdot_comm z y). fold b. ring. }
    rewrite E1, E2, E3, <- A2, <- B2 in K. replace (sa * sa * (sb * sb)) with ((sa * sb) * (sa * sb)) in K by ring.
    assert (0 <= sa * sb) by (apply Rmult_le_pos; auto). nra.
Qed.
Lemma rdot_opp x y : rdot (map Ropp x) y = - rdot x y.
Proof. revert y. induction x as [|a x IH]; intros [|b y]; cbn; try ring. rewrite IH. ring. Qed.
Definition flip (c : R) (x : list R) : list R := if Rle_dec 0 c then x else map Ropp x.
Lemma flip_len c x : length (flip c x) = length x.
Proof. unfold flip. destruct (Rle_dec 0 c); rewrite ?map_length; auto. Qed.
Lemma flip_dot c x y : rdot (flip c x) y = (if Rle_dec 0 c then 1 else -1) * rdot x y.
Proof. unfold flip. destruct (Rle_dec 0 c); rewrite ?rdot_opp; ring. Qed.
Lemma flip_unit c x : rdot (flip c x) (flip c x) = rdot x x.
Proof. rewrite flip_dot, rdot_comm, flip_dot. destruct (Rle_dec 0 c); ring. Qed.
Lemma flip_abs x y : rdot (flip (rdot x y) x) y = Rabs (rdot x y).
Proof. rewrite flip_dot. destruct (Rle_dec 0 (rdot x y)); [rewrite Rabs_pos_eq; lra|rewrite Rabs_left; lra]. Qed.
Lemma acos_tri_abs x y z : length x = length y -> length y = length z -> rdot x x = 1 -> rdot y y = 1 -> rdot z z = 1 ->
  acos (Rabs (rdot x z)) <= acos (Rabs (rdot x y)) + acos (Rabs (rdot y z)).
Proof.
  intros L1 L2 X Y Z. set (x' := flip (rdot x y) x). set (z' := flip (rdot z y) z).
  pose proof (acos_tri x' y z' ltac:(unfold x'; rewrite flip_len; auto) ltac:(unfold z'; rewrite flip_len; auto) ltac:(unfold x'; rewrite flip_unit; auto) Y ltac:(unfold z'; rewrite flip_unit; auto)) as T.
  replace (rdot x' y) with (Rabs (rdot x y)) in T by (symmetry; apply flip_abs). replace (rdot y z') with (Rabs (rdot y z)) in T.
  2:{ rewrite (rdot_comm y z'), (rdot_comm y z). symmetry. apply flip_abs. }
  assert (Q : Rabs (rdot x' z') = Rabs (rdot x z)).
  { unfold x', z'. rewrite flip_dot, (rdot_comm x (flip (rdot z y) z)), flip_dot, (rdot_comm z x), !Rabs_mult. destruct (Rle_dec 0 (rdot x y)), (Rle_dec 0 (rdot z y)); rewrite ?Rabs_R1, ?Rabs_Ropp, ?Rabs_m1; replace (Rabs (-1)) with 1 by (rewrite Rabs_left; lra); ring. }
  rewrite <- Q. apply Rle_trans with (acos (rdot x' z')); auto.
  assert (U : -1 <= rdot x' z' <= 1) by (apply unit_dot; [unfold x'|unfold z']; rewrite flip_unit; auto).
  apply acos_le; [| |].
  - assert (Rabs (rdot x' z') <= 1) by (apply Rabs_le; auto). pose proof (Rabs_pos (rdot x' z')). lra.
  - apply acos_bound.
  - rewrite cos_acos by auto. apply RRle_abs.
Qed.
Lemma acos_double c : -1 <= c <= 1 -> acos (2 * (c * c) - 1) = 2 * acos (Rabs c).
Proof.
  intros C. assert (A : Rabs c <= 1) by (apply Rabs_le; auto). pose proof (Rabs_pos c) as A0. assert (A1 : acos (Rabs c) <= PI / 2). { apply acos_le; [lra| |rewrite cos_PI2; lra]. pose proof PI_RGT_0. lra. }
  pose proof (acos_bound (Rabs c)) as [B0 _]. rewrite <- (acos_cos (2 * acos (Rabs c))) by lra. f_equal. rewrite cos_2a_cos, cos_acos by lra.
  replace (2 * Rabs c * Rabs c) with (2 * (Rabs c * Rabs c)) by ring. rewrite <- Rabs_mult, Rabs_pos_eq; [ring|nra].
Qed.

(** Rotation matrices through quaternions. *)
Lemma mat_quat_dot p q : qn2 p = 1 -> qn2 q = 1 -> rdot (flat9 (qmat p)) (flat9 (qmat q)) = 4 * (rdot (qflat p) (qflat q) * rdot (qflat p) (qflat q)) - 1.
Proof.
  intros P Q. pose proof (qmat_dist p q P Q) as D. unfold fro in D. rewrite <- flat9_sub, rdot_sub in D by reflexivity.
  pose proof (fro_rot _ (qmat_rot p P)) as F1. pose proof (fro_rot _ (qmat_rot q Q)) as F2. unfold fro in F1, F2. lra.
Qed.
Lemma qflat_unit q : rdot (qflat q) (qflat q) = qn2 q.
Proof. destruct q. unfold qflat, qn2. cbn. ring. Qed.
Lemma mat_geo p q : qn2 p = 1 -> qn2 q = 1 -> acos ((rdot (flat9 (qmat p)) (flat9 (qmat q)) - 1) / 2) = 2 * acos (Rabs (rdot (qflat p) (qflat q))).
Proof.
  intros P Q. rewrite mat_quat_dot by auto. set (c := rdot (qflat p) (qflat q)). replace ((4 * (c * c) - 1 - 1) / 2) with (2 * (c * c) - 1) by field.
  apply acos_double. apply unit_dot; rewrite qflat_unit; auto.
Qed.
Lemma rsub_zero_eq x y : length x = length y -> rdot (rsub y x) (rsub y x) = 0 -> y = x.
Proof.
  revert y. induction x as [|a x IH]; intros [|b y] L E; try discriminate; auto. change (rsub (b :: y) (a :: x)) with (b - a :: rsub y x) in E. cbn [rdot] in E.
  assert (0 <= rdot (rsub y x) (rsub y x)) by (rewrite <- rnorm_sq; nra). assert (b - a = 0) by nra. f_equal; [lra|]. apply IH; [cbn in L; lia|nra].
Qed.
Lemma acos_zero c : -1 <= c <= 1 -> (acos c = 0 <-> c = 1).
Proof. intros C. split; intros E; [|subst; apply acos_1]. rewrite <- (cos_acos c C), E. apply cos_0. Qed.
Lemma unit_eq x y n : length x = length y -> rdot x x = n -> rdot y y = n -> (rdot x y = n <-> y = x).
Proof.
  intros L X Y. split; [|intros ->; auto]. intros E. apply rsub_zero_eq; auto. rewrite rdot_sub by auto. rewrite (rdot_comm y x). lra.
Qed.

(** ** A distance *)
Lemma geo_pos s x y : 0 <= geo_leaf s x y.
Proof. destruct s as [h [| |[|]] a b|]; cbn [geo_leaf]; try apply acos_bound; [apply rnorm_nonneg| |lra]. pose proof (acos_bound (Rabs (rdot x y))). lra. Qed.
Lemma geo_sym h l a b x y : let s := Leaf h l a b in length x = length y -> geo_leaf s x y = geo_leaf s y x.
Proof. intros s L. unfold s. destruct l as [| |[|]]; cbn [geo_leaf]; rewrite ?(rdot_comm x y); auto. apply dist_sym; auto. Qed.
Lemma rot_flat A : rot A -> rdot (flat9 A) (flat9 A) = 3.
Proof. exact (fro_rot A). Qed.
Lemma geo_tri h l a b x y z : let s := Leaf h l a b in leaf_wf h l a b -> on_leaf s x -> on_leaf s y -> on_leaf s z ->
  geo_leaf s x z <= geo_leaf s x y + geo_leaf s y z.
Proof.
  intros s W X Y Z. pose proof (on_len _ _ _ _ _ W X) as LX. pose proof (on_len _ _ _ _ _ W Y) as LY. pose proof (on_len _ _ _ _ _ W Z) as LZ. unfold s in *.
  destruct l as [| |[|]]; cbn [geo_leaf on_leaf] in *.
  - rewrite Rplus_comm. apply dist_via; congruence.
  - destruct X, Y, Z. apply acos_tri; auto; congruence.
  - destruct X as (A & -> & HA), Y as (B & -> & HB), Z as (C & -> & HC). destruct (rot_quat A HA) as (p & P & <-), (rot_quat B HB) as (q & Q & <-), (rot_quat C HC) as (r & E & <-).
    rewrite !mat_geo by auto. pose proof (acos_tri_abs (qflat p) (qflat q) (qflat r) eq_refl eq_refl). rewrite !qflat_unit in *. specialize (H P Q E). lra.
  - destruct X as (p & -> & P), Y as (q & -> & Q), Z as (r & -> & E). pose proof (acos_tri_abs (qflat p) (qflat q) (qflat r) eq_refl eq_refl). rewrite !qflat_unit in *. specialize (H P Q E). lra.
Qed.
Lemma geo_zero h l a b x y : let s := Leaf h l a b in leaf_wf h l a b -> on_leaf s x -> on_leaf s y ->
  (geo_leaf s x y = 0 <-> same_leaf s x y).
Proof.
  intros s W X Y. pose proof (on_len _ _ _ _ _ W X) as LX. pose proof (on_len _ _ _ _ _ W Y) as LY. unfold s in *.
  destruct l as [| |[|]]; cbn [geo_leaf on_leaf same_leaf] in *.
  - split; [|intros ->; apply dist_refl]. intros E. apply rsub_zero_eq; [congruence|]. rewrite <- rnorm_sq, E. ring.
  - destruct X as [_ X], Y as [_ Y]. rewrite acos_zero by (apply unit_dot; auto). apply unit_eq; auto; congruence.
  - destruct X as (A & -> & HA), Y as (B & -> & HB). pose proof (rot_flat A HA) as X. pose proof (rot_flat B HB) as Y.
    destruct (rot_quat A HA) as (p & P & <-), (rot_quat B HB) as (q & Q & <-). rewrite <- (unit_eq _ _ 3) by auto. rewrite mat_geo, mat_quat_dot by auto.
    set (c := rdot (qflat p) (qflat q)). assert (C : -1 <= c <= 1) by (apply unit_dot; rewrite qflat_unit; auto). assert (C' : Rabs c <= 1) by (apply Rabs_le; auto). pose proof (Rabs_pos c).
    split; intros E.
    + assert (K : acos (Rabs c) = 0) by lra. apply acos_zero in K; [|lra]. replace (c * c) with (Rabs c * Rabs c); [rewrite K; ring|]. rewrite <- Rabs_mult, Rabs_pos_eq; nra.
    + assert (K : acos (Rabs c) = 0); [|lra]. apply acos_zero; [lra|]. assert (Rabs c * Rabs c = 1); [rewrite <- Rabs_mult, Rabs_pos_eq; nra|nra].
  - destruct X as (p & -> & P), Y as (q & -> & Q). rewrite <- (qflat_unit p) in P. rewrite <- (qflat_unit q) in Q.
    set (c := rdot (qflat p) (qflat q)). assert (C : -1 <= c <= 1) by (apply unit_dot; auto). assert (C' : Rabs c <= 1) by (apply Rabs_le; auto). pose proof (Rabs_pos c).
    assert (N : rdot (map Ropp (qflat p)) (map Ropp (qflat p)) = 1) by (rewrite rdot_opp, rdot_comm, rdot_opp; lra).
    rewrite <- (unit_eq (qflat p) (qflat q) 1), <- (unit_eq (map Ropp (qflat p)) (qflat q) 1), rdot_opp by (rewrite ?map_length; auto). fold c.
    split; intros E.
    + assert (K : acos (Rabs c) = 0) by lra. apply acos_zero in K; [|lra]. revert K. unfold Rabs. destruct (Rcase_abs c); auto.
    + assert (K : acos (Rabs c) = 0); [|lra]. apply acos_zero; [lra|]. destruct E as [-> | E]; [apply Rabs_R1|]. replace c with (-1) by lra. rewrite Rabs_left; lra.
Qed.

(** ** The stored numbers *)
Lemma PI_53 : PI / 2 <= 5 / 3.
Proof.
  apply Rnot_lt_le. intros H. pose proof (cos_gt_0 (5 / 3) ltac:(lra) ltac:(lra)) as C. pose proof PI_RGT_0.
  pose proof (cos_bound (5 / 3) 0 ltac:(lra) ltac:(lra)) as [_ U]. unfold cos_approx, cos_term in U. cbn in U. lra.
Qed.
Lemma sin_low t : 0 <= t <= PI / 2 -> t / 2 <= sin t.
Proof. intros T. pose proof PI_53. pose proof (sin_taylor5 t ltac:(lra)) as [B _]. nra. Qed.
Lemma sin_low4 t : 0 <= t <= PI / 4 -> 5 / 6 * t <= sin t.
Proof. intros T. pose proof PI_53. pose proof (sin_taylor5 t ltac:(lra)) as [B _]. nra. Qed.
Lemma half_angle t : 1 - cos t = 2 * (sin (t / 2) * sin (t / 2)).
Proof. replace t with (2 * (t / 2)) at 1 by field. rewrite cos_2a_sin. ring. Qed.
Lemma norm_between u s k : 0 <= s -> rdot u u = k * (s * s) -> forall a b, 0 <= a -> 0 <= b -> a * a <= k -> k <= b * b -> a * s <= rnorm u <= b * s.
Proof.
  intros S E a b A B KA KB. assert (P : 0 <= rnorm u) by apply rnorm_nonneg. rewrite <- rnorm_sq in E. split; apply Rsqr_incr_0; unfold Rsqr; try nra.
Qed.
Lemma abs_acos c : -1 <= c <= 1 -> 0 <= acos (Rabs c) <= PI / 2 /\ cos (acos (Rabs c)) = Rabs c.
Proof.
  intros C. assert (A : Rabs c <= 1) by (apply Rabs_le; auto). pose proof (Rabs_pos c) as A0. pose proof PI_RGT_0. pose proof (acos_bound (Rabs c)). split; [split; [lra|]|apply cos_acos; lra].
  apply acos_le; [lra|lra|rewrite cos_PI2; lra].
Qed.
Lemma geo_low h l a b x y : let s := Leaf h l a b in leaf_wf h l a b -> on_leaf s x -> on_leaf s y -> geo_leaf s x y <= 12 / 5 * rnorm (rsub y x).
Proof.
  intros s W X Y. pose proof (on_len _ _ _ _ _ W X) as LX. pose proof (on_len _ _ _ _ _ W Y) as LY. unfold s in *. pose proof (rnorm_nonneg (rsub y x)) as NN.
  destruct l as [| |[|]]; cbn [geo_leaf on_leaf] in *.
  - lra.
  - destruct X as [_ X], Y as [_ Y]. pose proof (unit_dot x y X Y) as C. set (t := acos (rdot x y)). pose proof (acos_bound (rdot x y)) as T. fold t in T.
    assert (E : rdot (rsub y x) (rsub y x) = 4 * (sin (t / 2) * sin (t / 2))).
    { rewrite rdot_sub by congruence. rewrite X, Y, (rdot_comm y x). pose proof (half_angle t) as H. unfold t in H at 1. rewrite cos_acos in H by auto. lra. }
    pose proof (sin_low (t / 2) ltac:(lra)). destruct (norm_between _ (sin (t / 2)) 4 ltac:(lra) E 2 2); lra.
  - destruct X as (A & -> & HA), Y as (B & -> & HB). pose proof (rot_flat A HA) as X. pose proof (rot_flat B HB) as Y. set (c := (rdot (flat9 A) (flat9 B) - 1) / 2).
    assert (C : -1 <= c <= 1).
    { unfold c. destruct (rot_quat A HA) as (p & P & <-), (rot_quat B HB) as (q & Q & <-). rewrite mat_quat_dot by auto. pose proof (unit_dot (qflat p) (qflat q)) as U. rewrite !qflat_unit in U. specialize (U P Q). nra. }
    set (t := acos c). pose proof (acos_bound c) as T. fold t in T.
    assert (E : rdot (rsub (flat9 B) (flat9 A)) (rsub (flat9 B) (flat9 A)) = 8 * (sin (t / 2) * sin (t / 2))).
    { rewrite rdot_sub by reflexivity. rewrite X, Y, (rdot_comm (flat9 B) (flat9 A)). pose proof (half_angle t) as H. unfold t in H at 1. rewrite cos_acos in H by auto. unfold c in H. lra. }
    pose proof (sin_low (t / 2) ltac:(lra)). destruct (norm_between _ (sin (t / 2)) 8 ltac:(lra) E 2 3); lra.
  - destruct X as (p & -> & P), Y as (q & -> & Q). rewrite <- (qflat_unit p) in P. rewrite <- (qflat_unit q) in Q. pose proof (unit_dot _ _ P Q) as C. set (c := rdot (qflat p) (qflat q)) in *.
    destruct (abs_acos c C) as [T K]. set (t := acos (Rabs c)) in *.
    assert (E : 4 * (sin (t / 2) * sin (t / 2)) <= rnorm (rsub (qflat q) (qflat p)) * rnorm (rsub (qflat q) (qflat p))).
    { rewrite rnorm_sq, rdot_sub by reflexivity. rewrite P, Q, (rdot_comm (qflat q) (qflat p)). fold c. pose proof (half_angle t) as H. rewrite K in H. pose proof (RRle_abs c). lra. }
    pose proof (sin_low4 (t / 2) ltac:(lra)) as S. assert (2 * sin (t / 2) <= rnorm (rsub (qflat q) (qflat p))); [|lra]. apply Rsqr_incr_0; unfold Rsqr; lra.
Qed.
Lemma geo_up h l a b x y : let s := Leaf h l a b in leaf_wf h l a b -> on_leaf s x -> on_leaf s y ->
  exists y', on_leaf s y' /\ same_leaf s y y' /\ rnorm (rsub y' x) <= sqrt 2 * geo_leaf s x y.
Proof.
  intros s W X Y. pose proof (on_len _ _ _ _ _ W X) as LX. pose proof (on_len _ _ _ _ _ W Y) as LY. unfold s in *. pose proof (rnorm_nonneg (rsub y x)) as NN.
  assert (S2 : 1 <= sqrt 2) by (rewrite <- sqrt_1 at 1; apply sqrt_le_1_alt; lra). assert (Q2 : sqrt 2 * sqrt 2 = 2) by (apply sqrt_sqrt; lra).
  destruct l as [| |[|]]; cbn [geo_leaf on_leaf same_leaf] in *.
  - exists y. split; auto. split; auto. nra.
  - destruct X as [_ X]. exists y. split; auto. split; auto. destruct Y as [_ Y]. pose proof (unit_dot x y X Y) as C. set (t := acos (rdot x y)). pose proof (acos_bound (rdot x y)) as T. fold t in T.
    assert (E : rdot (rsub y x) (rsub y x) = 4 * (sin (t / 2) * sin (t / 2))).
    { rewrite rdot_sub by congruence. rewrite X, Y, (rdot_comm y x). pose proof (half_angle t) as H. unfold t in H at 1. rewrite cos_acos in H by auto. lra. }
    pose proof (sin_low (t / 2) ltac:(lra)). destruct (norm_between _ (sin (t / 2)) 4 ltac:(lra) E 2 2) as [_ U]; try lra. pose proof (sin_abs_le (t / 2) ltac:(lra)) as A. rewrite Rabs_pos_eq in A by lra. nra.
  - exists y. split; auto. split; auto. destruct X as (A & -> & HA), Y as (B & -> & HB). pose proof (rot_flat A HA) as X. pose proof (rot_flat B HB) as Y. set (c := (rdot (flat9 A) (flat9 B) - 1) / 2).
    assert (C : -1 <= c <= 1).
    { unfold c. destruct (rot_quat A HA) as (p & P & <-), (rot_quat B HB) as (q & Q & <-). rewrite mat_quat_dot by auto. pose proof (unit_dot (qflat p) (qflat q)) as U. rewrite !qflat_unit in U. specialize (U P Q). nra. }
    set (t := acos c). pose proof (acos_bound c) as T. fold t in T.
    assert (E : rdot (rsub (flat9 B) (flat9 A)) (rsub (flat9 B) (flat9 A)) = 8 * (sin (t / 2) * sin (t / 2))).
    { rewrite rdot_sub by reflexivity. rewrite X, Y, (rdot_comm (flat9 B) (flat9 A)). pose proof (half_angle t) as H. unfold t in H at 1. rewrite cos_acos in H by auto. unfold c in H. lra. }
    pose proof (sin_low (t / 2) ltac:(lra)). destruct (norm_between _ (sin (t / 2)) 8 ltac:(lra) E 2 (2 * sqrt 2)) as [_ U]; try lra; try nra. pose proof (sin_abs_le (t / 2) ltac:(lra)) as A'. rewrite Rabs_pos_eq in A' by lra. nra.
  - destruct X as (p & -> & P), Y as (q & -> & Q). pose proof P as P'. pose proof Q as Q'. rewrite <- (qflat_unit p) in P. rewrite <- (qflat_unit q) in Q. pose proof (unit_dot _ _ P Q) as C. set (c := rdot (qflat p) (qflat q)) in *.
    destruct (abs_acos c C) as [T K]. set (t := acos (Rabs c)) in *. set (y' := flip c (qflat q)).
    exists y'. split; [|split].
    + unfold y', flip. destruct (Rle_dec 0 c); [eauto|]. exists (qneg q). split; [reflexivity|]. unfold qn2, qneg in *. cbn in *. lra.
    + unfold y', flip. destruct (Rle_dec 0 c); auto.
    + assert (E : rdot (rsub y' (qflat p)) (rsub y' (qflat p)) = 4 * (sin (t / 2) * sin (t / 2))).
      { rewrite rdot_sub by (unfold y'; rewrite flip_len; reflexivity). unfold y'. rewrite flip_unit, P, Q. unfold c. rewrite (rdot_comm (qflat p) (qflat q)), flip_abs, (rdot_comm (qflat q) (qflat p)). fold c. pose proof (half_angle t) as H. rewrite K in H. lra. }
      pose proof (sin_low (t / 2) ltac:(lra)). destruct (norm_between _ (sin (t / 2)) 4 ltac:(lra) E 2 2) as [_ U]; try lra. pose proof (sin_abs_le (t / 2) ltac:(lra)) as A. rewrite Rabs_pos_eq in A by lra. nra.
Qed.

(** ** The library's logarithm *)
Lemma expQ_qw v : length v = 3%nat -> Model_SO3.qw (expQ v) = cos (rnorm v / 2).
Proof.
  intros L. destruct (vec3_inv v L) as (x & y & z & ->). unfold expQ. cbv zeta. destruct (Req_EM_T _ 0) as [Z|Z]; [|reflexivity]. rewrite Z. replace (0 / 2) with 0 by field. rewrite cos_0. reflexivity.
Qed.
Lemma rot_dot_tr A B : rot A -> rot B -> rdot (flat9 A) (flat9 B) = tr3 (rmul (rtr A) B).
Proof. intros HA HB. pose proof (fro_sub A B HA HB) as F. unfold fro in F. rewrite <- flat9_sub, rdot_sub, !rot_flat in F by auto. lra. Qed.
Lemma geo_rel h l a b x w y0 y : let s := Leaf h l a b in leaf_wf h l a b -> is_s2 s = false -> on_leaf s x -> length w = tangentDim s -> rot_le_pi s w ->
  shift_leaf s x w y0 -> same_leaf s y0 y -> geo_leaf s x y = rnorm w.
Proof.
  intros s W N X L P S E. unfold s, rot_le_pi, tangentDim in *. cbn [hdr_of is_so3] in *. pose proof (rnorm_nonneg w) as NN.
  destruct l as [| |[|]]; cbn [geo_leaf on_leaf same_leaf shift_leaf is_s2 leaf_wf] in *; try discriminate.
  - subst. rewrite radd_rsub; auto. lia.
  - destruct X as (A & -> & HA), S as (A' & Q & ->). apply flat9_inj in Q. subst A' y. rewrite rot_dot_tr by (auto using rot_mul, expSO3_rot).
    rewrite rmul_tr_cancel by auto. pose proof (expSO3_trace w (rnorm w) ltac:(lia) eq_refl) as T. unfold tr3. rewrite T. apply acos_cos. split; auto.
  - destruct X as (p & -> & HP), S as (p' & Q & ->). apply qflat_inj in Q. subst p'.
    assert (D : rdot (qflat p) (qflat (qprod p (expQ w))) = cos (rnorm w / 2)).
    { rewrite <- expQ_qw by lia. destruct p as [p0 p1 p2 p3], (expQ w) as [e0 e1 e2 e3]. unfold qflat, qprod, qn2 in *. cbn in *. transitivity (e0 * (p0 * p0 + p1 * p1 + p2 * p2 + p3 * p3)); [ring|]. replace (p0 * p0 + p1 * p1 + p2 * p2 + p3 * p3) with 1 by lra. ring. }
    assert (R : Rabs (rdot (qflat p) y) = cos (rnorm w / 2)).
    { assert (C : 0 <= cos (rnorm w / 2)) by (specialize (P eq_refl); apply cos_ge_0; lra). destruct E as [-> | ->]; [rewrite D; apply Rabs_pos_eq; auto|]. rewrite rdot_comm, rdot_opp, rdot_comm, D, Rabs_Ropp. apply Rabs_pos_eq; auto. }
    rewrite R, acos_cos by (specialize (P eq_refl); lra). field.
Qed.

(** Pairs for which the library's logarithm is defined: distinct and not opposite on S2, below pi on the rotations (by
    1e-7 with matrices). *)
Definition logable (s : mfd XR) (x y : list R) : Prop :=
  match s with
  | Leaf _ LS2 _ _ => 0 < geo_leaf s x y < PI
  | Leaf _ (LSO3 MapMatrix) _ _ => geo_leaf s x y <= PI - 1 / 10000000
  | Leaf _ (LSO3 MapQuat) _ _ => geo_leaf s x y < PI
  | _ => True
  end.
(** ... and off the series. *)
Definition log_main (s : mfd XR) (x y : list R) : Prop :=
  match s with
  | Leaf _ (LSO3 _) _ _ => geo_leaf s x y = 0 \/ 1 / 10000 <= geo_leaf s x y
  | _ => True
  end.
Lemma rsub_radd' u w : length u = length w -> radd (rsub u w) w = u.
Proof. revert w. induction u as [|x u IH]; intros [|y w] L; try discriminate; auto. change (x - y + y :: radd (rsub u w) w = x :: u). rewrite IH by (cbn in L; lia). f_equal. ring. Qed.
Lemma norm_close u w : length u = length w -> Rabs (rnorm u - rnorm w) <= rnorm (rsub u w).
Proof.
  intros L. pose proof (rnorm_tri (rsub u w) w ltac:(apply rsub_len; auto)) as A. pose proof (rnorm_tri (rsub w u) u ltac:(apply rsub_len; auto)) as B.
  rewrite rsub_radd' in A by auto. rewrite rsub_radd' in B by auto. rewrite (dist_sym w u) in B by auto. apply Rabs_le. lra.
Qed.
Lemma leaf_log h l a b x y : let s := Leaf h l a b in leaf_wf h l a b -> on_leaf s x -> on_leaf s y -> logable s x y ->
  exists t, length t = tangentDim s /\ (forall o, length o = tangentDim s -> pseudoLog s o (fin x) (fin y) = Ok (fin t)) /\
    Rabs (rnorm t - geo_leaf s x y) <= 3 / 10 ^ 15 /\ (log_main s x y -> rnorm t = geo_leaf s x y).
Proof.
  intros s W X Y G. pose proof (on_len _ _ _ _ _ W X) as LX. pose proof (on_len _ _ _ _ _ W Y) as LY. destruct (is_s2 s) eqn:N.
  - unfold s in *. destruct l; try discriminate. cbn [logable geo_leaf log_main on_leaf] in *. pose proof W as (W1 & W2 & W3 & _). destruct X as [Lx X], Y as [Ly Y]. pose proof (unit_dot x y X Y) as C.
    set (p := rproj x (rsub y x)). assert (Lp : length p = 3%nat) by (unfold p; rewrite rproj_length; rewrite ?rsub_length; lia).
    assert (Z : rnorm p <> 0).
    { intros Z. assert (Q : rdot p p = 1 - rdot x y * rdot x y).
      { unfold p, rproj. rewrite rdot_sub by (rewrite ?rscal_length, ?rsub_length; lia). rewrite !rdot_rscal_r, !rdot_rscal_l, X. rewrite rdot_sub by lia. rewrite (rdot_comm (rsub y x) x). rewrite !rdot_rsub_r by lia. rewrite X, Y, (rdot_comm y x). ring. }
      rewrite <- rnorm_sq, Z in Q. assert (K : rdot x y = 1 \/ rdot x y = -1). { destruct (Rle_dec 0 (rdot x y)); [left|right]; nra. }
      destruct K as [K|K]; rewrite K in G; [rewrite acos_1 in G; lra|]. replace (acos (-1)) with PI in G; [lra|]. replace (-1) with (- (1)) by ring. rewrite acos_opp, acos_1. ring. }
    exists (rscal (/ rnorm p) (rscal (acos (rdot x y)) p)).
    assert (NT : rnorm (rscal (/ rnorm p) (rscal (acos (rdot x y)) p)) = acos (rdot x y)).
    { pose proof (rnorm_nonneg p). rewrite !rnorm_scal, !Rabs_pos_eq; [field; auto|lra|]. apply Rlt_le, Rinv_0_lt_compat. lra. }
    split; [unfold tangentDim; cbn [hdr_of]; rewrite !rscal_length; lia|]. rewrite NT. split; [|split; [replace (acos (rdot x y) - acos (rdot x y)) with 0 by ring; rewrite Rabs_R0; lra|auto]].
    intros o Lo. unfold tangentDim in Lo. cbn [hdr_of] in Lo. rewrite s2_log by (auto; lia). fold p. cbv zeta. destruct (Req_EM_T (rnorm p) 0); [contradiction|reflexivity].
  - destruct (leaf_relog_close h l a b x y W N X Y) as (w & y0 & L & R & S & E & t & z & Lt & Lz & H).
    pose proof (geo_rel h l a b x w y0 y W N X L R S E) as GR.
    assert (BP : below_pi (Leaf h l a b) w). { unfold s in *. destruct l as [| |[|]]; cbn [below_pi logable] in *; auto; rewrite <- GR; auto. }
    specialize (H BP). destruct H as (H1 & _ & H2 & _). exists t. split; auto. split; auto. fold s in GR. rewrite GR.
    assert (LT : length t = length w) by congruence.
    assert (EX : log_main s x y -> rnorm t = rnorm w).
    { intros M. assert (OS : off_switch (Leaf h l a b) w).
      { unfold s in *. unfold tangentDim in L. destruct l as [| |[|]]; cbn [off_switch logable log_main below_pi hdr_of leaf_wf] in *; auto; rewrite GR in *.
        - destruct M as [M|M]; [left|right; lra]. destruct W as (_ & W2 & _). destruct (vec3_inv w ltac:(lia)) as (? & ? & ? & ->). apply zero_vec; auto.
        - destruct M as [M|M]; [left|right; lra]. destruct W as (_ & W2 & _). destruct (vec3_inv w ltac:(lia)) as (? & ? & ? & ->). apply zero_vec; auto. }
      destruct (leaf_relog h l a b x w y0 y W N X L OS S E) as [H3 _].
      specialize (H3 (repeat (Fin 0) (tangentDim s)) (repeat_length _ _)). specialize (H2 (repeat (Fin 0) (tangentDim s)) (repeat_length _ _)). fold s in H3, H2. rewrite H2 in H3.
      assert (fin t = fin w) as Q by congruence. apply fin_inj in Q. congruence. }
    split; auto. destruct (is_so3 s) eqn:SO.
    + apply Rle_trans with (rnorm (rsub t w)); [apply norm_close; auto|].
      assert (L3 : length w = 3%nat). { unfold s, tangentDim in *. destruct l as [| |[|]]; cbn [is_so3 hdr_of leaf_wf] in *; try discriminate; destruct W as (_ & W2 & _); lia. }
      destruct (vec3_inv w L3) as (w1 & w2 & w3 & ->). destruct (vec3_inv t ltac:(congruence)) as (t1 & t2 & t3 & ->). inversion H1 as [|? ? ? ? A1 H1' E1 E2]; subst. inversion H1' as [|? ? ? ? A2 H8 E1 E2]; subst. inversion H8 as [|? ? ? ? A3 H9 E1 E2]; subst.
      unfold rsub. cbn [combine map fst snd]. apply sq_le_norm; [lra|]. cbn [rdot]. apply Rabs_le_inv in A1. apply Rabs_le_inv in A2. apply Rabs_le_inv in A3. set (e := 1 / 10 ^ 15) in *. replace (3 / 10 ^ 15) with (3 * e) by (unfold e; field; lra). nra.
    + rewrite EX; [replace (rnorm w - rnorm w) with 0 by ring; rewrite Rabs_R0; lra|]. unfold s in *. destruct l as [| |[|]]; cbn [is_so3 is_s2 log_main] in *; try discriminate; auto.
Qed.
