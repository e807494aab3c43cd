(** Orthogonality defect along a sequence of increments. *)
From Coq Require Import Reals List Lra Lia ZArith Bool Arith Psatz.
From Verif Require Import Base Scalar Vec Model_Real Model_S2 Model_SO3 Model_Manifold Spec Layout Comp Indep Flat Structure
  XR SpecR RotR NumVec NumMat Angle NumQuat NumTree NumLeaf RotLog RoundTrip NumS2 NumExp NumLog Close Force Points Properties_SO3.
Import ListNotations.
Local Open Scope R_scope.

(** Lengths are changed by a factor within [d] of one (squared), and so is the volume. *)
Definition stretch (d : R) (A : m3 R) : Prop :=
  (forall x y z, let w := rmulv A [x; y; z] in Rabs (rdot w w - (x * x + y * y + z * z)) <= d * (x * x + y * y + z * z)) /\
  Rabs (rdet A - 1) <= d.

Lemma stretch_rot A : rot A -> stretch 0 A.
Proof.
  intros [H D]. split.
  - intros x y z w. replace (rdot w w - (x * x + y * y + z * z)) with 0; [rewrite Rabs_R0; lra|].
    assert (E0 := f_equal a00 H). assert (E1 := f_equal a11 H). assert (E2 := f_equal a22 H).
    assert (E3 := f_equal a01 H). assert (E4 := f_equal a02 H). assert (E5 := f_equal a12 H).
    destruct A as [m00 m01 m02 m10 m11 m12 m20 m21 m22]. unfold w, rmulv. cbn [rmul rtr ridm rdot a00 a01 a02 a10 a11 a12 a20 a21 a22] in *.
    transitivity (x * x * (m00 * m00 + m10 * m10 + m20 * m20) + y * y * (m01 * m01 + m11 * m11 + m21 * m21) + z * z * (m02 * m02 + m12 * m12 + m22 * m22)
       + 2 * x * y * (m00 * m01 + m10 * m11 + m20 * m21) + 2 * x * z * (m00 * m02 + m10 * m12 + m20 * m22) + 2 * y * z * (m01 * m02 + m11 * m12 + m21 * m22)
       - (x * x + y * y + z * z)); [|ring].
    rewrite E0, E1, E2, E3, E4, E5. ring.
  - rewrite D. replace (1 - 1) with 0 by ring. rewrite Rabs_R0. lra.
Qed.
Lemma stretch_mono d e A : d <= e -> stretch d A -> stretch e A.
Proof.
  intros H [S D]. split; [|lra]. intros x y z w. eapply Rle_trans; [apply S|]. apply Rmult_le_compat_r; nra.
Qed.
Lemma stretch_near d A : stretch d A -> near_rot d A.
Proof.
  intros [S D]. destruct A as [m00 m01 m02 m10 m11 m12 m20 m21 m22]. unfold near_rot.
  assert (Q : forall x y z, Rabs ((m00 * x + m01 * y + m02 * z) * (m00 * x + m01 * y + m02 * z) + (m10 * x + m11 * y + m12 * z) * (m10 * x + m11 * y + m12 * z)
      + (m20 * x + m21 * y + m22 * z) * (m20 * x + m21 * y + m22 * z) - (x * x + y * y + z * z)) <= d * (x * x + y * y + z * z)).
  { intros x y z. specialize (S x y z). cbv zeta in S. unfold rmulv in S. cbn [rdot a00 a01 a02 a10 a11 a12 a20 a21 a22] in S.
    match goal with |- Rabs ?t <= _ => match type of S with Rabs ?u <= _ => replace t with u by ring end end. exact S. }
  pose proof (Q 1 0 0) as Q1. pose proof (Q 0 1 0) as Q2. pose proof (Q 0 0 1) as Q3.
  pose proof (Q 1 1 0) as Q4. pose proof (Q 1 (-1) 0) as Q5. pose proof (Q 1 0 1) as Q6. pose proof (Q 1 0 (-1)) as Q7.
  pose proof (Q 0 1 1) as Q8. pose proof (Q 0 1 (-1)) as Q9.
  clear S Q. repeat match goal with H : Rabs _ <= _ |- _ => lazymatch type of H with Rabs (rdet _ - 1) <= _ => fail | _ => apply Rabs_le_inv in H as [? ?] end end || idtac.
  cbn [rmul rtr a00 a01 a02 a10 a11 a12 a20 a21 a22] in *.
  repeat match goal with |- _ /\ _ => split end; auto; apply Rabs_le;
  repeat match goal with H : Rabs _ <= _ |- _ => apply Rabs_le_inv in H end; split; lra.
Qed.
Lemma stretch_mul d e A B : 0 <= d -> stretch d A -> stretch e B -> stretch (d * (1 + e) + e) (rmul A B).
Proof.
  intros Hd [SA DA] [SB DB]. split.
  - intros x y z w. unfold w. rewrite <- rmulv_mul by reflexivity. set (n := x * x + y * y + z * z).
    specialize (SB x y z). cbv zeta in SB. fold n in SB. 
    destruct (vec3_inv (rmulv B [x; y; z])) as (x' & y' & z' & E); [reflexivity|]. rewrite E in *.
    specialize (SA x' y' z'). cbv zeta in SA. rewrite <- rdot3 in SA. set (n' := rdot [x'; y'; z'] [x'; y'; z']) in *.
    set (N := rdot _ _) in *. apply Rabs_le_inv in SA, SB. apply Rabs_le. assert (0 <= n) by (unfold n; nra).
    assert (d * n' <= d * ((1 + e) * n)) by (apply Rmult_le_compat_l; lra). lra.
  - rewrite rdet_mul. set (a := rdet A) in *. set (b := rdet B) in *. apply Rabs_le_inv in DB.
    replace (a * b - 1) with ((a - 1) * b + (b - 1)) by ring. eapply Rle_trans; [apply Rabs_triang|]. rewrite Rabs_mult.
    assert (Rabs b <= 1 + e) by (apply Rabs_le; lra). assert (Rabs (b - 1) <= e) by (apply Rabs_le; lra).
    assert (Rabs (a - 1) * Rabs b <= d * (1 + e)) by (apply Rmult_le_compat; auto using Rabs_pos). lra.
Qed.
Lemma em_series_stretch x y z : let n := x * x + y * y + z * z in n < eps8 ->
  stretch (1 / 10 ^ 24) (rodrigues (1 - n / 6) (1 / 2 - n / 24) x y z).
Proof.
  intros n Hn. assert (N0 : 0 <= n) by (unfold n; nra). split.
  - intros a b c w. set (s := 1 - n / 6) in *. set (k := 1 / 2 - n / 24) in *.
    set (d := s * s + k * k * n - 2 * k).
    assert (E : rdot w w - (a * a + b * b + c * c) = d * (n * (a * a + b * b + c * c) - (x * a + y * b + z * c) * (x * a + y * b + z * c))).
    { unfold w, d, n, rodrigues, rmulv. cbn [rdot a00 a01 a02 a10 a11 a12 a20 a21 a22]. ring. }
    rewrite E. set (m := a * a + b * b + c * c). assert (M0 : 0 <= m) by (unfold m; nra).
    assert (C : 0 <= n * m - (x * a + y * b + z * c) * (x * a + y * b + z * c) <= n * m).
    { split; [|pose proof (Rle_0_sqr (x * a + y * b + z * c)) as Q; unfold Rsqr in Q; lra]. unfold n, m. pose proof (Rle_0_sqr (x * b - y * a)) as Q1. pose proof (Rle_0_sqr (x * c - z * a)) as Q2. pose proof (Rle_0_sqr (y * c - z * b)) as Q3. unfold Rsqr in *. lra. }
    assert (Ed : d = - (n * n) / 72 + n * n * n / 576) by (unfold d, s, k; field).
    assert (Dn : Rabs d * n <= 1 / 10 ^ 24).
    { assert (n * n <= 1 / 10 ^ 16) by nra.
      assert (Hd : Rabs d <= 1 / 10 ^ 16).
      { rewrite Ed. apply Rabs_le. assert (0 <= n * n) by nra.
        assert (0 <= n * n * n) by nra. assert (n * n * n <= n * n) by nra. lra. }
      apply Rle_trans with (1 / 10 ^ 16 * n); [apply Rmult_le_compat_r; auto|lra]. }
    rewrite Rabs_mult. rewrite (Rabs_pos_eq (_ - _)) by tauto.
    apply Rle_trans with (Rabs d * (n * m)); [apply Rmult_le_compat_l; [apply Rabs_pos|tauto]|].
    rewrite <- Rmult_assoc. apply Rmult_le_compat_r; auto.
  - apply (em_series_near x y z Hn).
Qed.
Lemma em_exp_stretch v : length v = 3%nat -> rnorm v < PI ->
  exists E, em_exponential (fin v) = Ok (m3fin E) /\ stretch (1 / 10 ^ 24) E.
Proof.
  intros Lv Hp. destruct (Rle_dec eps8 (rdot v v)) as [H|H].
  - exists (expSO3 v). split; [apply em_exp_main; auto|]. apply stretch_mono with 0; [lra|]. apply stretch_rot, expSO3_rot.
  - apply Rnot_le_lt in H. destruct (vec3_inv v Lv) as (x & y & z & ->). rewrite em_exponential_fin. cbv zeta.
    apply Rltb_true in Hp. rewrite Hp. unfold emS, emC. pose proof H as Hb. apply Rltb_true in Hb. rewrite Hb.
    rewrite rdot3 in *. eexists. split; [reflexivity|]. apply em_series_stretch; auto.
Qed.

(** ** One increment *)
Definition strays (d : R) (s : mfd XR) (x : list R) : Prop :=
  match s with
  | Leaf h LReal _ _ => length x = h_dim h
  | Leaf _ LS2 _ _ => length x = 3%nat /\ rdot x x = 1
  | Leaf _ (LSO3 MapMatrix) _ _ => exists A, x = flat9 A /\ stretch d A
  | Leaf _ (LSO3 MapQuat) _ _ => exists q, x = qflat q /\ Rabs (qn2 q - 1) <= d
  | Prod _ _ _ _ => False
  end.
Definition nxt (d : R) : R := d * (1 + 1 / 10 ^ 24) + 1 / 10 ^ 24.
Lemma strays_len d h l a b x : let s := Leaf h l a b in leaf_wf h l a b -> strays d s x -> length x = representationDim s.
Proof.
  intros s W H. unfold s, representationDim in *. cbn [hdr_of]. destruct l as [| |[|]]; cbn [strays] in H; unfold leaf_wf in W.
  - lia.
  - lia.
  - destruct H as (A & -> & _). rewrite flat9_length. lia.
  - destruct H as (q & -> & _). destruct W as (W1 & W2 & W3 & _). rewrite W3. reflexivity.
Qed.

Definition fits (s : mfd XR) (x v : list R) : Prop :=
  match s with
  | Leaf _ LS2 _ _ => Rabs (rdot x v) < 1 / 100000000
  | Leaf _ (LSO3 _) _ _ => rnorm v < PI
  | _ => True
  end.

Lemma leaf_step h l a b d x v : let s := Leaf h l a b in leaf_wf h l a b -> 0 <= d -> strays d s x -> length v = tangentDim s ->
  (fits s x v -> exists y, strays (nxt d) s y /\ forall o, length o = representationDim s -> retractation s o (fin x) (fin v) = Ok (fin y)) /\
  (~ fits s x v -> forall o, length o = representationDim s -> retractation s o (fin x) (fin v) = Fail EAssert).
Proof.
  intros s W Hd Hx Lv. pose proof (strays_len _ _ _ _ _ _ W Hx) as Lx. unfold s, representationDim, tangentDim in *. cbn [hdr_of] in *.
  destruct l as [| |[|]]; cbn [strays fits] in *.
  - destruct W as [W1 W2]. split; [|tauto]. intros _. exists (radd x v). split; [rewrite radd_length; lia|].
    intros o Lo. apply real_retr; [split; auto| | |]; lia.
  - pose proof W as (W1 & W2 & W3 & _). destruct Hx as [L3 U]. split.
    + intros F. assert (P : 0 < rdot (radd x v) (radd x v)) by (apply s2_sum_pos; auto; lia).
      exists (rscal (/ rnorm (radd x v)) (radd x v)). split.
      * split; [rewrite rscal_length, radd_length; lia|]. apply unit_normal; auto.
      * intros o Lo. apply s2_retr; auto; lia.
    + intros F o Lo. apply s2_retr_reject; auto; try lia. lra.
  - pose proof W as (W1 & W2 & W3 & _). destruct Hx as (A & -> & SA). assert (L3 : length v = 3%nat) by lia. split.
    + intros F. destruct (em_exp_stretch v L3 F) as (E & HE & SE). exists (flat9 (rmul A E)). split.
      * exists (rmul A E). split; auto. apply stretch_mul; auto.
      * intros o Lo. destruct (vec3_inv v L3) as (p & q & r & ->). apply em_retr; auto. lia.
    + intros F o Lo. cbn [retractation isInTxM]. unfold representationDim, tangentDim; cbn [hdr_of].
      rewrite !check_eq by (rewrite ?fin_length, ?flat9_length; lia). cbn [bind mnf_assert].
      unfold em_retractation. rewrite em_exp_reject by (auto; lra). reflexivity.
  - pose proof W as (W1 & W2 & W3 & _). destruct Hx as (p & -> & SA). assert (L3 : length v = 3%nat) by lia. split.
    + intros F. destruct (eq_exp_any junk_quat v L3 F) as (E & HE & SE & _). exists (qflat (qprod p E)). split.
      * exists (qprod p E). split; auto. rewrite qn2_mul. set (u := qn2 p) in *. set (t := qn2 E) in *. apply Rabs_le_inv in SE.
        replace (u * t - 1) with ((u - 1) * t + (t - 1)) by ring. unfold nxt. eapply Rle_trans; [apply Rabs_triang|]. rewrite Rabs_mult.
        assert (Rabs t <= 1 + 1 / 10 ^ 24) by (apply Rabs_le; lra). assert (Rabs (t - 1) <= 1 / 10 ^ 24) by (apply Rabs_le; lra).
        assert (Rabs (u - 1) * Rabs t <= d * (1 + 1 / 10 ^ 24)) by (apply Rmult_le_compat; auto using Rabs_pos). lra.
      * intros o Lo. apply eq_retr; auto. lia.
    + intros F o Lo. cbn [retractation isInTxM]. unfold representationDim, tangentDim; cbn [hdr_of].
      rewrite !check_eq by (rewrite ?fin_length, ?Lx; lia). cbn [bind mnf_assert].
      unfold eq_retractation, eq_retractation_at. rewrite eq_exp_reject by (auto; lra). reflexivity.
Qed.

(** ** On trees *)
Definition straysM (d : R) (m : mfd XR) (x : list R) : Prop :=
  exists xs, x = concat xs /\ Forall2 (strays d) (leaves m) xs.
Lemma cut_real {A} D (m : mfd XR) (x : list A) : wf m -> length x = getDim D m ->
  exists xs, x = concat xs /\ Forall2 (fun s z => length z = getDim D s) (leaves m) xs.
Proof.
  intros Hw H. rewrite (leaves_dim D m Hw) in H. revert x H. generalize (leaves m). intros ls.
  induction ls as [|s ls IH]; intros x H; simpl in H.
  - exists []. split; [|constructor]. destruct x; [reflexivity|discriminate].
  - destruct (IH (skipn (getDim D s) x)) as (xs & E & F). { rewrite skipn_length. lia. }
    exists (firstn (getDim D s) x :: xs). cbn [concat]. rewrite <- E, firstn_skipn. split; auto. constructor; auto. rewrite firstn_length. lia.
Qed.
Lemma tree_step m d x v out r : wf m -> 0 <= d -> straysM d m x -> length v = tangentDim m -> length out = representationDim m ->
  retractation m out (fin x) (fin v) = Ok r -> exists y, r = fin y /\ straysM (nxt d) m y.
Proof.
  intros W Hd (xs & -> & Hx) Lv Lo H.
  destruct (cut_leaves DR m out W Lo) as (outs & -> & Po).
  destruct (cut_real DT m v W Lv) as (vs & -> & Pv).
  rewrite !fin_concat in H.
  assert (G : forall s, In s (leaves m) -> exists h l a b, s = Leaf h l a b /\ leaf_wf h l a b)
    by (intros s Hs; apply (wf_leaf_inv m s W Hs)).
  apply (flat_op DR DR DT retractation retractation_prod m W) in H; auto.
  - destruct H as (ys & -> & F). revert G Hx Pv Po F. clear - Hd. unfold straysM. generalize (leaves m) as ls. intros ls.
    revert xs vs outs ys. induction ls as [|s ls IH]; intros xs vs outs ys G Hx Pv Po F.
    + inversion F; subst. exists []. split; [reflexivity|]. exists []. split; [reflexivity|constructor].
    + inversion Hx as [|? x ? xs' Hx1 Hx2]; subst. inversion Pv as [|? v ? vs' Pv1 Pv2]; subst. inversion Po as [|? o ? os' Po1 Po2]; subst.
      inversion F as [|? ? ? ? y0 ? ? ? ? ys0 F1 F2]; subst.
      destruct (IH xs' vs' os' ys0) as (y & Ey & ys' & -> & Fy); auto. { intros q Hq. apply G. simpl; auto. }
      destruct (G s) as (h & l & a & b & -> & Wl); [simpl; auto|].
      destruct (leaf_step h l a b d x v Wl Hd Hx1 Pv1) as [A B].
      destruct (Classical_Prop.classic (fits (Leaf h l a b) x v)) as [Y|N].
      * destruct (A Y) as (y & Sy & Ry). rewrite Ry in F1 by auto. injection F1 as <-.
        exists (y ++ concat ys'). split; [unfold fin in *; rewrite map_app; cbn [concat]; rewrite Ey; reflexivity|].
        exists (y :: ys'). split; auto.
      * rewrite B in F1 by auto. discriminate.
  - apply fin_pieces. clear - Hx G. induction Hx as [|s x ls xs Hx1 Hx2 IH]; constructor; auto.
    + destruct (G s) as (h & l & a & b & -> & Wl); [simpl; auto|]. apply (strays_len _ _ _ _ _ _ Wl Hx1).
    + apply IH. intros q Hq. apply G. simpl; auto.
  - apply fin_pieces. exact Pv.
Qed.
