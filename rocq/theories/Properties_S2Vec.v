(** C74: S2::randVec, random tangent vectors of the sphere; exact arithmetic, then doubles. *)
From Coq Require Import Reals List Lra Lia ZArith Bool Arith Psatz SpecFloat.
From Flocq Require Import Core BinarySingleNaN.
From Verif Require Import Base Scalar Vec Model_Real Model_S2 Model_SO3 Model_Manifold Spec Layout Comp Indep Flat Points
  XR SpecR RotR NumVec NumS2 NumTree Drift F64 F64Err F64Norm F64S2 F64Exp F64Quat F64Mat F64Mat2 F64Tree F64Go F64Gs F64Force ExScalar ExR RotLog Path
  TanLeaf F64Trans F64Proj F64Rand Properties_S2 Properties_Float Properties_FloatProj.
Import ListNotations.
Local Open Scope R_scope.

(** ** Specification *)
(** The part of [d] orthogonal to [x]. *)
Definition part_off (x d : list R) : list R := rsub d (rscal (rdot x d / rdot x x) x).

(** ** Exact arithmetic *)
Lemma randVec_fin out x d : length out = 3%nat -> length x = 3%nat -> length d = 3%nat -> rdot x x = 1 -> rnorm (part_off x d) <> 0 ->
  s2_randVec (SK:=XRS) out (fin x) (fin d) = Ok (fin (rscal (/ rnorm (part_off x d)) (part_off x d))).
Proof.
  intros Lo Lx Ld Ux Hp. unfold s2_randVec. rewrite fin_length, Lo, Lx. cbn [Nat.eqb mnf_assert bind].
  rewrite assign_same by (rewrite fin_length; lia). cbn [bind]. unfold s2_projVec. rewrite same_size_fin by lia. cbn [bind].
  rewrite dot_fin, vscale_fin, vsub_fin. replace (rdot x d) with (rdot x d / rdot x x) by (rewrite Ux; field). fold (part_off x d).
  assert (LP : length (part_off x d) = 3%nat) by (unfold part_off; rewrite rsub_length; [lia|rewrite rscal_length; lia]).
  rewrite assign_same by (rewrite !fin_length; lia). cbn [bind]. rewrite norm_fin, vdivs_fin by exact Hp. apply assign_same. rewrite !fin_length, rscal_length. lia.
Qed.
Lemma part_off_length x d : length x = length d -> length (part_off x d) = length d.
Proof. intros. unfold part_off. rewrite rsub_length; auto. rewrite rscal_length. lia. Qed.
Lemma part_off_dot x d : length x = length d -> rdot x x <> 0 -> rdot x (part_off x d) = 0.
Proof. intros HL Hx. unfold part_off. rewrite rdot_rsub_r by (rewrite rscal_length; lia). rewrite rdot_rscal_r. field. exact Hx. Qed.
Lemma rdot3_zero p : length p = 3%nat -> rdot p p = 0 -> p = [0; 0; 0].
Proof.
  destruct p as [|a [|b [|c [|]]]]; try discriminate. intros _. cbn [rdot]. intros H. pose proof (Rle_0_sqr a). pose proof (Rle_0_sqr b). pose proof (Rle_0_sqr c). unfold Rsqr in *.
  assert (a * a = 0) by lra. assert (b * b = 0) by lra. assert (c * c = 0) by lra. repeat f_equal; apply Rsqr_0_uniq; unfold Rsqr; assumption.
Qed.

(** x on the sphere, a draw that is not a multiple of x: the result is the normalised part of the draw orthogonal to x, a
    unit vector tangent at x, which isInTxM accepts at every positive precision and along which x can be moved.  A draw
    that is a multiple of x gives three undefined entries (0/0). *)
Theorem C74_tangent : forall h a b (x d : list R) (out o : list XR), let s := Leaf h LS2 a b in
  built s -> length out = 3%nat -> length o = 3%nat -> length x = 3%nat -> length d = 3%nat -> rdot x x = 1 ->
  ((forall k, d <> rscal k x) -> exists w k, s2_randVec out (fin x) (fin d) = Ok (fin w) /\ length w = 3%nat /\ rdot w w = 1 /\ rdot x w = 0 /\
      0 < k /\ w = rscal k (part_off x d) /\
      (forall p, 0 < p -> isInTxM s (fin x) (fin w) (Fin p) = Ok true) /\
      exists y, retractation s o (fin x) (fin w) = Ok (fin y) /\ rnorm y = 1) /\
  (forall k, d = rscal k x -> s2_randVec out (fin x) (fin d) = Ok [Undef; Undef; Undef]).
Proof.
  intros h a b x d out o s B Lo Lo' Lx Ld Ux. pose proof (built_s2_wf _ _ _ B) as W. assert (LP : length (part_off x d) = 3%nat) by (rewrite part_off_length; lia).
  split.
  - intros Hd. assert (Pn : 0 < rdot (part_off x d) (part_off x d)).
    { pose proof (rdot_self_nonneg (part_off x d)) as N. destruct (Req_EM_T (rdot (part_off x d) (part_off x d)) 0) as [E|E]; [|lra]. exfalso.
      apply rdot3_zero in E; auto. apply (Hd (rdot x d / rdot x x)). unfold part_off in E. destruct (vec3 x Lx) as (x0 & x1 & x2 & ->). destruct (vec3 d Ld) as (d0 & d1 & d2 & ->).
      set (k := rdot _ _ / rdot _ _) in *. clearbody k. cbn [rsub rscal map combine fst snd] in *. injection E as E0 E1 E2. repeat f_equal; lra. }
    pose proof (sqrt_lt_R0 _ Pn) as Rn. fold (rnorm (part_off x d)) in Rn. exists (rscal (/ rnorm (part_off x d)) (part_off x d)), (/ rnorm (part_off x d)).
    assert (T : rdot x (rscal (/ rnorm (part_off x d)) (part_off x d)) = 0) by (rewrite rdot_rscal_r, part_off_dot; [ring|lia|lra]).
    split; [apply randVec_fin; auto; lra|]. split; [rewrite rscal_length; exact LP|]. split; [apply unit_normal, Pn|]. split; [exact T|]. split; [apply Rinv_0_lt_compat, Rn|]. split; [reflexivity|]. split.
    + intros p Hp. unfold s. rewrite s2_inT; auto; [|rewrite rscal_length; exact LP]. rewrite T, Rabs_R0. f_equal. apply Rltb_true. exact Hp.
    + destruct (C13_s2_lands_on_sphere h a b x (rscal (/ rnorm (part_off x d)) (part_off x d)) o B Lo' Lx) as [H _]; auto; [rewrite rscal_length; exact LP|].
      destruct H as (y & E & _ & Ny & _); [rewrite T, Rabs_R0; lra|]. exists y. split; auto.
  - intros k ->. assert (E : part_off x (rscal k x) = [0; 0; 0]).
    { unfold part_off. rewrite rdot_rscal_r, Ux. replace (k * 1 / 1) with k by field. destruct (vec3 x Lx) as (x0 & x1 & x2 & ->). cbn [rsub rscal map combine fst snd]. repeat f_equal; ring. }
    unfold s2_randVec. rewrite fin_length, Lo, Lx. cbn [Nat.eqb mnf_assert bind].
    rewrite assign_same by (rewrite fin_length; lia). cbn [bind]. unfold s2_projVec. rewrite same_size_fin by lia. cbn [bind].
    rewrite dot_fin, vscale_fin, vsub_fin. replace (rdot x (rscal k x)) with (rdot x (rscal k x) / rdot x x) by (rewrite Ux; field). fold (part_off x (rscal k x)). rewrite E.
    rewrite assign_same by (rewrite !fin_length; simpl; lia). cbn [bind]. rewrite norm_fin. replace (rnorm [0; 0; 0]) with 0 by (unfold rnorm; replace (rdot [0; 0; 0] [0; 0; 0]) with 0 by (cbn [rdot]; ring); symmetry; apply sqrt_0).
    unfold vdivs, fin. cbn [map]. change (kdiv (Scalar:=XRS)) with xdiv. rewrite xdiv_0. reflexivity.
Qed.
Print Assumptions C74_tangent.

(** Any scalar type: anything but three entries for the point or the output is refused. *)
Theorem C74_sizes : forall (K : Type) (SK : Scalar K) (out x d : vec K), length d = 3%nat ->
  (length out = 3%nat /\ length x = 3%nat -> exists w, s2_randVec out x d = Ok w /\ length w = 3%nat) /\
  (length out <> 3%nat \/ length x <> 3%nat -> s2_randVec out x d = Fail EAssert).
Proof.
  intros K SK out x d Ld. split.
  - intros [Lo Lx]. eexists. unfold s2_randVec. rewrite Lo, Lx. cbn [Nat.eqb mnf_assert bind]. rewrite assign_same by lia. cbn [bind]. unfold s2_projVec, same_size. rewrite Lx, Ld. cbn [Nat.eqb eigen_assert bind].
    assert (E : length (vsub d (vscale (dot x d) x)) = 3%nat) by (rewrite vsub_scale_len; lia).
    rewrite assign_same by lia. cbn [bind]. split; [apply assign_same; unfold vdivs; rewrite map_length; reflexivity|unfold vdivs; rewrite map_length; exact E].
  - intros H. unfold s2_randVec. destruct (Nat.eqb_spec (length out) 3) as [Lo|Lo]; [|reflexivity]. destruct (Nat.eqb_spec (length x) 3) as [Lx|Lx]; [|reflexivity]. destruct H; contradiction.
Qed.
Print Assumptions C74_sizes.

(** ** Doubles *)
Lemma near_norm w P e : length w = 3%nat -> near_v e w P -> 0 <= e -> Rabs (rnorm w - rnorm P) <= 2 * e.
Proof.
  intros Lw N He. assert (LP : length P = 3%nat) by (rewrite <- Lw; symmetry; clear - N; induction N; simpl; auto).
  assert (N2 : near_v e P w) by (clear - N; induction N; constructor; auto; rewrite Rabs_minus_sym; auto).
  assert (G : forall a b, length a = 3%nat -> length b = 3%nat -> near_v e a b -> rnorm a <= rnorm b + 2 * e).
  { intros a b La Lb Nab. assert (D : Forall (fun z => Rabs z <= e) (rsub a b)) by (clear - Nab; induction Nab; constructor; auto).
    pose proof (rnorm_bound e (rsub a b) He ltac:(rewrite rsub_length; lia) D). pose proof (rnorm_tri b (rsub a b) ltac:(rewrite rsub_length; lia)) as T.
    replace (radd b (rsub a b)) with a in T; [lra|]. destruct (vec3 a La) as (a0 & a1 & a2 & ->). destruct (vec3 b Lb) as (b0 & b1 & b2 & ->). cbn [rsub radd map combine fst snd]. repeat f_equal; ring. }
  pose proof (G w P Lw LP N). pose proof (G P w LP Lw N2). apply Rabs_le. lra.
Qed.
Lemma near_dir a p n r e : Rabs (a - p) <= e -> Rabs (n - r) <= 2 * e -> Rabs p <= r -> 0 < r -> 10 * e <= r -> Rabs (a / n - / r * p) <= 4 * (e / r).
Proof.
  intros H1 H2 H3 Hr He. assert (E0 : 0 <= e) by (pose proof (Rabs_pos (a - p)); lra). assert (Hn : 8 / 10 * r <= n) by (apply Rabs_ends in H2; lra). assert (Hn0 : 0 < n) by lra.
  replace (a / n - / r * p) with ((a - p) * / n + p * / r * ((r - n) * / n)) by (field; lra).
  assert (In : 0 < / n) by (apply Rinv_0_lt_compat; lra). assert (Ir : 0 < / r) by (apply Rinv_0_lt_compat; lra).
  assert (J : / n <= 10 / 8 * / r) by (replace (10 / 8 * / r) with (/ (8 / 10 * r)) by (field; lra); apply Rinv_le_contravar; lra).
  assert (A1 : Rabs ((a - p) * / n) <= e * (10 / 8 * / r)) by (rewrite Rabs_mult, (Rabs_pos_eq (/ n)) by lra; apply Rmult_le_compat; auto using Rabs_pos; lra).
  assert (A2 : Rabs ((r - n) * / n) <= 2 * e * (10 / 8 * / r)) by (rewrite Rabs_mult, (Rabs_pos_eq (/ n)) by lra; apply Rmult_le_compat; auto using Rabs_pos; [lra|rewrite Rabs_minus_sym; exact H2]).
  assert (A3 : Rabs (p * / r) <= 1).
  { rewrite Rabs_mult, (Rabs_pos_eq (/ r)) by lra. apply Rmult_le_reg_r with r; auto. replace (Rabs p * / r * r) with (Rabs p) by (field; lra). lra. }
  eapply Rle_trans; [apply Rabs_triang|]. assert (A4 : Rabs (p * / r * ((r - n) * / n)) <= 1 * (2 * e * (10 / 8 * / r))) by (rewrite Rabs_mult; apply Rmult_le_compat; auto using Rabs_pos).
  unfold Rdiv at 1. assert (0 <= e * / r) by (apply Rmult_le_pos; lra). lra.
Qed.

(** x within d of the sphere (d = | |x|^2 - 1 |), three draws in [-1, 1] whose part orthogonal to x has norm at least
    ten times 50 * 2^-53 + 4 d, any order of summation: the computed vector is finite, of norm 1 up to 8 * 2^-53, within
    4 (50 * 2^-53 + 4 d) / |part| + 4 * 2^-53 of the exact direction, orthogonal to x up to four times that; if moreover
    the part is at least 10^10 times 50 * 2^-53 + 4 d, isInTxM accepts it. *)
Theorem C74_doubles : forall L h a b (x ds o : list f64) d, let s := Leaf h LS2 a b in let P := part_off (vals x) (vals ds) in
  let e := 50 * / 2 ^ 53 + 4 * d in
  built s -> defect64 d s x -> d <= 1 / 1000 -> length ds = 3%nat -> Forall (fun z => isf z /\ Rabs (val z) <= 1) ds -> length o = 3%nat -> 10 * e <= rnorm P ->
  exists w, s2_randVec (SK:=F64 L) o x ds = Ok w /\ length w = 3%nat /\ Forall isf w /\ Rabs (rdot (vals w) (vals w) - 1) <= 8 * / 2 ^ 53 /\
    near_v (4 * (e / rnorm P) + 4 * / 2 ^ 53) (vals w) (rscal (/ rnorm P) P) /\ Rabs (rdot (vals x) (vals w)) <= 4 * (4 * (e / rnorm P) + 4 * / 2 ^ 53) /\
    (10 ^ 11 * e <= rnorm P -> isInTxM (SK:=F64 L) s x w (default_prec (SK:=F64 L)) = Ok true).
Proof.
  intros L h a b x ds o d s P e B Dx Hd Lds Fds Lo HP. subst e. rewrite upow in *. pose proof u_pos as U.
  destruct Dx as (Lx & Fx & Dx). assert (D0 : 0 <= d) by (eapply Rle_trans; [apply Rabs_pos|exact Dx]).
  pose proof (built_wf _ B) as W. assert (Wl : leaf_wf h LS2 a b) by (inversion W; assumption). destruct Wl as (W1 & W2 & W3 & _).
  assert (SM : / 2 ^ 900 <= 1 <= 2 ^ 890).
  { split; [rewrite <- Rinv_1; apply Rinv_le_contravar; [lra|apply pow_R1_Rle; lra]|apply pow_R1_Rle; lra]. }
  destruct (scale890 1 SM) as [SS S5].
  destruct (s2_proj64 L x ds d 1 Lx Fx Dx Hd Lds SS S5 Fds) as (w0 & E0 & L0 & F0 & N0 & _). fold (vals ds) in N0. fold (vals x) in N0. fold (vals w0) in N0. change (rsub _ _) with P in N0. rewrite Rmult_1_r in N0.
  set (e := 50 * u + 4 * d) in *. assert (He : 0 <= e) by (unfold e; lra).
  assert (LV : forall v : list f64, length (vals v) = length v) by (intros; apply map_length).
  pose proof (near_norm (vals w0) P e ltac:(rewrite LV; exact L0) N0 He) as NN. pose proof (rnorm_entry P) as PE. set (r := rnorm P) in *.
  assert (e0 : 0 < e) by (unfold e; lra). assert (r0 : 0 < r) by lra.
  destruct (vec3 w0 L0) as (p & q & t & ->). destruct (vec3 x Lx) as (x0 & x1 & x2 & ->).
  inversion F0 as [|? ? [Fp Bp] F0']; subst. inversion F0' as [|? ? [Fq Bq] F0'']; subst. inversion F0'' as [|? ? [Ft Bt] _]; subst. clear F0' F0''.
  set (N := sq3 (val p) (val q) (val t)). assert (RN : rnorm (vals [p; q; t]) = sqrt N) by (unfold rnorm, N, sq3; cbn [map rdot]; f_equal; ring). rewrite RN in NN.
  assert (SN : 8 / 10 * r <= sqrt N) by (apply Rabs_ends in NN; lra).
  assert (N8 : 0 <= N) by (unfold N, sq3; pose proof (Rle_0_sqr (val p)); pose proof (Rle_0_sqr (val q)); pose proof (Rle_0_sqr (val t)); unfold Rsqr in *; lra).
  assert (NB : / 2 ^ 200 <= N <= B900).
  { split.
    - assert (H0 : 8 / 10 * (10 * (50 * u)) <= sqrt N) by (unfold e in *; lra). rewrite u_val in H0. rewrite <- (sqrt_sqrt N) by exact N8.
      apply Rle_trans with (/ 2 ^ 100 * / 2 ^ 100); [right; rewrite <- Rinv_mult; f_equal; rewrite <- pow_add; reflexivity|].
      assert (/ 2 ^ 100 <= sqrt N). { eapply Rle_trans; [|exact H0]. apply Rle_trans with (/ 2 ^ 53); [apply Rinv_le_contravar; [apply pow_lt; lra|apply Rle_pow; [lra|lia]]|cbn [pow]; lra]. }
      assert (0 < / 2 ^ 100) by (apply Rinv_0_lt_compat, pow_lt; lra). apply Rmult_le_compat; lra.
    - pose proof B400_900. pose proof B400_1. assert (Q : forall z, Rabs z <= 5 * 1 -> z * z <= 25) by (intros z Hz; apply Rabs_ends in Hz; nra).
      pose proof (Q _ Bp). pose proof (Q _ Bq). pose proof (Q _ Bt). unfold N, sq3. assert (75 <= B900); [|lra].
      replace B900 with (2 ^ 900) by (symmetry; apply bpow900). apply Rle_trans with (2 ^ 10); [cbn [pow]; lra|apply Rle_pow; [lra|lia]]. }
  destruct (normalise3_tiny L p q t Fp Fq Ft NB) as (G0 & G1 & G2 & D & Ep & Eq & Et). fold N in Ep, Eq, Et.
  set (m := Bsqrt mode_NE (sum3 L (p *! p) (q *! q) (t *! t))) in *. exists [p /! m; q /! m; t /! m].
  assert (EE : s2_randVec (SK:=F64 L) o [x0; x1; x2] ds = Ok [p /! m; q /! m; t /! m]).
  { unfold s2_randVec. rewrite Lo. cbn [List.length Nat.eqb mnf_assert bind]. rewrite assign_same by lia. cbn [bind].
    assert (EP : s2_projVec (SK:=F64 L) ds ds [x0; x1; x2] = Ok [p; q; t]) by exact (E0 ds Lds). rewrite EP. reflexivity. }
  split; [exact EE|]. split; [reflexivity|]. split; [auto|]. split.
  { unfold vals. cbn [map rdot]. unfold sq3 in D. eapply Rle_trans; [|exact D]. right. f_equal. ring. }
  assert (LP : length P = 3%nat) by (unfold P; rewrite part_off_length; rewrite !LV; simpl; lia).
  assert (XP : rdot (vals [x0; x1; x2]) P = 0) by (apply part_off_dot; [rewrite !LV; simpl; lia|apply Rabs_ends in Dx; unfold vals in *; lra]).
  destruct (vec3 P LP) as (p0 & q0 & t0 & EQ). clearbody P. subst P. unfold vals in N0. cbn [map] in N0.
  inversion N0 as [|? ? ? ? n0 N1]; subst. inversion N1 as [|? ? ? ? n1 N2]; subst. inversion N2 as [|? ? ? ? n2 _]; subst. clear N1 N2.
  inversion PE as [|? ? b0 PE1]; subst. inversion PE1 as [|? ? b1 PE2]; subst. inversion PE2 as [|? ? b2 _]; subst. clear PE1 PE2.
  pose proof (near_dir _ _ _ _ _ n0 NN b0 r0 HP) as k0. pose proof (near_dir _ _ _ _ _ n1 NN b1 r0 HP) as k1. pose proof (near_dir _ _ _ _ _ n2 NN b2 r0 HP) as k2.
  set (f := 4 * (e / r) + 4 * u). assert (f0 : 0 <= f) by (unfold f; assert (0 <= e / r) by (apply Rmult_le_pos; [lra|left; apply Rinv_0_lt_compat, r0]); lra).
  assert (Z : forall z g v, Rabs (val z - g) <= 4 * u -> Rabs (g - v) <= 4 * (e / r) -> Rabs (val z - v) <= f).
  { intros z g v H1 H2. replace (val z - v) with ((val z - g) + (g - v)) by ring. eapply Rle_trans; [apply Rabs_triang|]. unfold f. lra. }
  pose proof (Z _ _ _ Ep k0) as z0. pose proof (Z _ _ _ Eq k1) as z1. pose proof (Z _ _ _ Et k2) as z2.
  split; [unfold vals, rscal; cbn [map]; repeat (apply Forall2_cons; [assumption|]); apply Forall2_nil|].
  unfold vals in XP, Dx. cbn [map rdot] in XP, Dx.
  assert (SX : Rabs (sq3 (val x0) (val x1) (val x2) - 1) <= d) by (unfold sq3; eapply Rle_trans; [|exact Dx]; right; f_equal; ring).
  destruct (unit_entries _ _ _ _ SX Hd) as (X0 & X1 & X2).
  assert (DT : Rabs (val x0 * val (p /! m) + val x1 * val (q /! m) + val x2 * val (t /! m)) <= 303 / 100 * f).
  { replace (val x0 * val (p /! m) + val x1 * val (q /! m) + val x2 * val (t /! m)) with
      (val x0 * (val (p /! m) - / r * p0) + val x1 * (val (q /! m) - / r * q0) + val x2 * (val (t /! m) - / r * t0)).
    2: { replace 0 with (/ r * 0) in XP by ring. assert (XQ : / r * (val x0 * p0 + val x1 * q0 + val x2 * t0) = 0) by (replace (val x0 * p0 + val x1 * q0 + val x2 * t0) with 0 by lra; ring). lra. }
    assert (PR : forall c z, Rabs c <= 101 / 100 -> Rabs z <= f -> Rabs (c * z) <= 101 / 100 * f) by (intros; rewrite Rabs_mult; apply Rmult_le_compat; auto using Rabs_pos).
    pose proof (PR _ _ X0 z0) as y0. pose proof (PR _ _ X1 z1) as y1. pose proof (PR _ _ X2 z2) as y2. apply Rabs_ends in y0, y1, y2. apply Rabs_le. lra. }
  split.
  { unfold vals. cbn [map rdot]. fold f. eapply Rle_trans; [|apply Rle_trans with (303 / 100 * f); [exact DT|lra]]. right. f_equal. ring. }
  intros H11. assert (f1 : f <= 1 / 10 ^ 10).
  { assert (e / r <= / 10 ^ 11). { unfold Rdiv. apply Rmult_le_reg_r with r; auto. rewrite Rmult_assoc, Rinv_l, Rmult_1_r by lra. apply Rmult_le_reg_l with (10 ^ 11); [cbn [pow]; lra|]. rewrite <- Rmult_assoc, Rinv_r by (cbn [pow]; lra). lra. }
    unfold f. rewrite u_val. cbn [pow] in *. lra. }
  assert (Un : forall y z w, Rabs (sq3 y z w - 1) <= 8 * u -> Rabs y <= 2 /\ Rabs z <= 2 /\ Rabs w <= 2).
  { intros y z w Hq. destruct (unit_entries y z w (8 * u) Hq) as (? & ? & ?); [rewrite u_val; lra|]. repeat split; lra. }
  destruct (Un _ _ _ D) as (v0 & v1 & v2).
  assert (S2' : scale 2). { destruct (scale890 2) as [Q _]; auto. split; [lra|]. apply Rle_trans with (2 ^ 1); [lra|]. apply Rle_pow; [lra|lia]. }
  destruct (dot_scaled L x0 x1 x2 (p /! m) (q /! m) (t /! m) (val x0) (val x1) (val x2) 0 2 S2') as [Fd Ed]; auto using app_exact; try lra;
    try (apply app_exact; inversion Fx as [|? ? i0 Fx1]; subst; inversion Fx1 as [|? ? i1 Fx2]; subst; inversion Fx2 as [|? ? i2 _]; subst; assumption).
  unfold s. cbn [isInTxM]. unfold representationDim, tangentDim. cbn [hdr_of]. 
  rewrite !check_eq by (simpl; lia). cbn [bind]. f_equal.
  apply (s2_proj_pass L [x0; x1; x2] [p /! m; q /! m; t /! m] (303 / 100 * f + 72 * u)); [exact Fd| |rewrite u_val; cbn [pow] in *; lra].
  set (cd := sum3 L (x0 *! (p /! m)) (x1 *! (q /! m)) (x2 *! (t /! m))) in *. change (dot (SK:=F64 L) [x0; x1; x2] [p /! m; q /! m; t /! m]) with cd. clearbody cd. apply Rabs_ends in Ed, DT. apply Rabs_le. lra.
Qed.
Print Assumptions C74_doubles.

(** A draw equal to x = (1, 1, 0) / sqrt 2 rounded to doubles, a point isInM accepts: the projection leaves only rounding
    errors, and normalising them gives x itself, the normal direction; isInTxM rejects it.  A draw (1, 0, 0) at
    x = (1, 0, 0) gives NaN. *)
Definition h12 (L : libm) : f64 := kdiv (Scalar:=F64 L) (of_Z 1) (ksqrt (Scalar:=F64 L) (of_Z 2)).
Lemma sf_fin (z : f64) s m e : B2SF z = S754_finite s m e -> exists pf, z = B754_finite s m e pf.
Proof. destruct z; try discriminate. cbn. intros H. injection H as -> -> ->. eexists. reflexivity. Qed.
Lemma sf_zero (z : f64) s : B2SF z = S754_zero s -> z = B754_zero s.
Proof. destruct z; try discriminate. cbn. intros H. injection H as ->. reflexivity. Qed.
Definition got (r : res (list f64)) : list spec_float := match r with Ok w => map B2SF w | Fail _ => [] end.
Lemma got3 r a b c : got r = [a; b; c] -> exists x y z, r = Ok [x; y; z] /\ B2SF x = a /\ B2SF y = b /\ B2SF z = c.
Proof. destruct r as [w|]; [|discriminate]. cbn. destruct w as [|x [|y [|z [|]]]]; try discriminate. cbn. intros H. injection H as H1 H2 H3. do 3 eexists. eauto. Qed.
Theorem C74_parallel_refuted : forall L0, let L := in_order L0 in let p := default_prec (SK:=F64 L) in
  exists (m : mfd f64) (x w w' : list f64), built m /\ isInM (SK:=F64 L) m x p = Ok true /\ Forall (fun z => isf z /\ Rabs (val z) <= 1) x /\
  s2_randVec (SK:=F64 L) (fi [0; 0; 0]%Z) x x = Ok w /\ Forall isf w /\ vals w = vals x /\ isInTxM (SK:=F64 L) m x w p = Ok false /\
  isInM (SK:=F64 L) m (fi [1; 0; 0]%Z) p = Ok true /\ s2_randVec (SK:=F64 L) (fi [0; 0; 0]%Z) (fi [1; 0; 0]%Z) (fi [1; 0; 0]%Z) = Ok w' /\ Forall (fun z => is_nan z = true) w'.
Proof.
  intros L0 L p. assert (E : B2SF (h12 L) = S754_finite false 6369051672525772 (-53)) by (vm_compute; reflexivity).
  assert (R : got (s2_randVec (SK:=F64 L) (fi [0; 0; 0]%Z) [h12 L; h12 L; B754_zero false] [h12 L; h12 L; B754_zero false]) =
    [S754_finite false 6369051672525772 (-53); S754_finite false 6369051672525772 (-53); S754_zero false]) by (vm_compute; reflexivity).
  apply got3 in R. destruct R as (y0 & y1 & y2 & R & R0 & R1 & R2). apply sf_fin in R0. apply sf_fin in R1. apply sf_zero in R2. destruct R0 as [p1 ->]. destruct R1 as [p2 ->]. subst y2. apply sf_fin in E.
  assert (I1 : isInM (SK:=F64 L) (fS2 L) [h12 L; h12 L; B754_zero false] p = Ok true) by (vm_compute; reflexivity).
  assert (I2 : isInM (SK:=F64 L) (fS2 L) (fi [1; 0; 0]%Z) p = Ok true) by (vm_compute; reflexivity).
  assert (I3 : s2_randVec (SK:=F64 L) (fi [0; 0; 0]%Z) (fi [1; 0; 0]%Z) (fi [1; 0; 0]%Z) = Ok [B754_nan; B754_nan; B754_nan]) by (vm_compute; reflexivity).
  destruct E as [pf E]. rewrite E in I1, R.
  eexists (fS2 L), _, _, _. split; [apply (fS2_built L)|]. split; [exact I1|]. split.
  { set (g := B754_finite _ _ _ _) at 1 2. assert (H : isf g /\ Rabs (val g) <= 1).
    { assert (Eg : val g = IZR 6369051672525772 * / 2 ^ 53). { change (val g) with (F2R (Float radix2 6369051672525772 (-53))). unfold F2R. cbn [Fnum Fexp]. f_equal. change (bpow radix2 (-53)) with (/ IZR (2 ^ 53)). rewrite pow_IZR. reflexivity. }
      split; [reflexivity|]. rewrite Eg. assert (0 < / 2 ^ 53) by (apply Rinv_0_lt_compat, pow_lt; lra). cbn [pow] in *. rewrite Rabs_pos_eq; lra. }
    clearbody g. repeat (apply Forall_cons; [first [exact H|split; [reflexivity|cbn; rewrite Rabs_R0; lra]]|]). apply Forall_nil. }
  split; [exact R|]. split; [repeat (apply Forall_cons; [reflexivity|]); apply Forall_nil|]. split; [reflexivity|]. split; [clear; vm_compute; reflexivity|]. split; [exact I2|]. split; [exact I3|].
  repeat (apply Forall_cons; [reflexivity|]); apply Forall_nil.
Qed.
Print Assumptions C74_parallel_refuted.

(** ** Examples *)
Example C74_example : built rS2 /\ rdot [3/5; 0; 4/5] [3/5; 0; 4/5] = 1 /\ (forall k, [1; 1/2; -1/3] <> rscal k [3/5; 0; 4/5]).
Proof. split; [apply rS2_built|]. split; [simpl; lra|]. intros k. cbn [rscal map]. intros H. injection H as _ H _. lra. Qed.
(** x = (1, 0, 0) and the draws (1, 1, 1): the direction is (0, 1, 1) / sqrt 2, and isInTxM accepts the result. *)
Example C74_example_doubles : forall L, exists w, s2_randVec (SK:=F64 L) (fi [0; 0; 0]%Z) (fi [1; 0; 0]%Z) (fi [1; 1; 1]%Z) = Ok w /\
  isInTxM (SK:=F64 L) (fS2 L) (fi [1; 0; 0]%Z) w (default_prec (SK:=F64 L)) = Ok true.
Proof.
  intros L. destruct (of_Z_ok 1 ltac:(lia)) as [F1 V1]. destruct (of_Z_ok 0 ltac:(lia)) as [F0 V0].
  pose proof (fS2_built L) as B. assert (E : exists h a b, fS2 L = Leaf h LS2 a b) by (unfold fS2; cbn; eauto). destruct E as (h & a & b & E). rewrite E in *.
  assert (EP : rnorm (part_off (vals (fi [1; 0; 0]%Z)) (vals (fi [1; 1; 1]%Z))) = sqrt 2).
  { unfold part_off, vals, fi. cbn [map]. rewrite V1, V0. cbn [rdot rscal rsub map combine fst snd]. unfold rnorm. cbn [rdot]. f_equal. field. }
  assert (S2 : 1 <= sqrt 2) by (rewrite <- sqrt_1 at 1; apply sqrt_le_1_alt; lra).
  destruct (C74_doubles L h a b (fi [1; 0; 0]%Z) (fi [1; 1; 1]%Z) (fi [0; 0; 0]%Z) 0) as (w & H1 & _ & _ & _ & _ & _ & H2).
  - exact B.
  - split; [reflexivity|]. unfold fi. cbn [map]. split; [auto|]. unfold vals. cbn [map rdot]. rewrite V1, V0. right. rewrite Rabs_pos_eq; lra.
  - lra.
  - reflexivity.
  - unfold fi. cbn [map]. repeat (apply Forall_cons; [split; [exact F1|rewrite V1, Rabs_pos_eq; lra]|]). apply Forall_nil.
  - reflexivity.
  - rewrite EP. cbn [pow]. lra.
  - exists w. split; [exact H1|]. apply H2. rewrite EP. cbn [pow]. lra.
Qed.
