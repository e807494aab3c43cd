(** S2 on finite values. *)
From Coq Require Import Reals List Lra Lia ZArith Bool Arith Psatz.
From Verif Require Import Base Scalar Vec Model_S2 Model_Manifold Spec Layout Comp XR SpecR RotR NumVec Angle.
Import ListNotations.
Local Open Scope R_scope.

Lemma same_size_fin x y : length x = length y -> same_size (K:=XR) (fin x) (fin y) = Ok tt.
Proof. intros H. unfold same_size, eigen_assert. rewrite !fin_length, H, Nat.eqb_refl. reflexivity. Qed.
Lemma as_vec3_fin x : length x = 3%nat -> as_vec3 (K:=XR) (fin x) = Ok (fin x).
Proof. intros H. unfold as_vec3, eigen_assert. rewrite fin_length, H. reflexivity. Qed.

Lemma rdot_comm x y : rdot x y = rdot y x.
Proof. revert y; induction x; intros [|b y]; simpl; auto. rewrite IHx. ring. Qed.
Lemma rdot_radd_l x y z : length x = length y -> rdot (radd x y) z = rdot x z + rdot y z.
Proof.
  revert y z; induction x as [|a x IH]; intros [|b y] [|c z] H; simpl in *; try discriminate; try lra.
  change (map (fun p => fst p + snd p) (combine x y)) with (radd x y). rewrite IH by lia. ring.
Qed.
Lemma rdot_rsub_l x y z : length x = length y -> rdot (rsub x y) z = rdot x z - rdot y z.
Proof.
  revert y z; induction x as [|a x IH]; intros [|b y] [|c z] H; simpl in *; try discriminate; try lra.
  change (map (fun p => fst p - snd p) (combine x y)) with (rsub x y). rewrite IH by lia. ring.
Qed.
Lemma rdot_rscal_l a x y : rdot (rscal a x) y = a * rdot x y.
Proof. revert y; unfold rscal; induction x; intros [|b y]; simpl; try ring. rewrite IHx. ring. Qed.
Lemma rdot_radd_r x y z : length x = length y -> rdot z (radd x y) = rdot z x + rdot z y.
Proof. intros. rewrite rdot_comm, rdot_radd_l, (rdot_comm x), (rdot_comm y); auto. Qed.
Lemma rdot_rsub_r x y z : length x = length y -> rdot z (rsub x y) = rdot z x - rdot z y.
Proof. intros. rewrite rdot_comm, rdot_rsub_l, (rdot_comm x), (rdot_comm y); auto. Qed.
Lemma rdot_rscal_r a x y : rdot y (rscal a x) = a * rdot y x.
Proof. rewrite rdot_comm, rdot_rscal_l, rdot_comm. auto. Qed.

Definition rproj (x w : list R) : list R := rsub w (rscal (rdot x w) x).
Lemma rproj_length x w : length x = length w -> length (rproj x w) = length w.
Proof. intros. unfold rproj. rewrite rsub_length; rewrite ?rscal_length; auto. Qed.

(** ** isInTxM, retractation *)
Lemma s2_inT h a b x v p : leaf_wf h LS2 a b -> length x = 3%nat -> length v = 3%nat ->
  isInTxM (Leaf h LS2 a b) (fin x) (fin v) (Fin p) = Ok (Rltb (Rabs (rdot x v)) p).
Proof.
  intros (H1 & H2 & H3 & _) Hx Hv. cbn [isInTxM]. unfold representationDim, tangentDim; cbn [hdr_of].
  rewrite !check_eq by (rewrite ?fin_length; lia). cbn [bind].
  unfold s2_isInTxM. rewrite dot_fin. reflexivity.
Qed.
Lemma s2_sum_pos x v : length x = length v -> rdot x x = 1 -> Rabs (rdot x v) < 1 / 100000000 -> 0 < rdot (radd x v) (radd x v).
Proof.
  intros L Hx Hv. rewrite rdot_radd_l, !rdot_radd_r by auto. rewrite (rdot_comm v x), Hx.
  pose proof (rdot_self_nonneg v). apply Rabs_def2 in Hv. lra.
Qed.
Lemma s2_retr h a b out x v : leaf_wf h LS2 a b -> length out = 3%nat -> length x = 3%nat -> length v = 3%nat ->
  rdot x x = 1 -> Rabs (rdot x v) < 1 / 100000000 ->
  retractation (Leaf h LS2 a b) out (fin x) (fin v) = Ok (fin (rscal (/ rnorm (radd x v)) (radd x v))).
Proof.
  intros W Ho Hx Hv H1 Ht. pose proof W as (W1 & W2 & W3 & _).
  cbn [retractation]. unfold representationDim, tangentDim; cbn [hdr_of].
  rewrite !check_eq by (rewrite ?fin_length; lia). cbn [bind].
  change default_prec with (Fin (1 / 100000000)). rewrite s2_inT by auto. apply Rltb_true in Ht as Ht'. rewrite Ht'.
  cbn [bind mnf_assert].
  unfold s2_retractation. rewrite same_size_fin by lia. cbn [bind]. rewrite vadd_fin.
  rewrite as_vec3_fin by (rewrite radd_length; lia). cbn [bind]. rewrite norm_fin.
  rewrite vdivs_fin.
  - apply assign_same. rewrite fin_length, rscal_length, radd_length; lia.
  - pose proof (s2_sum_pos x v ltac:(lia) H1 Ht) as P. apply sqrt_lt_R0 in P. unfold rnorm. lra.
Qed.
Lemma s2_retr_reject h a b out x v : leaf_wf h LS2 a b -> length out = 3%nat -> length x = 3%nat -> length v = 3%nat ->
  1 / 100000000 <= Rabs (rdot x v) ->
  retractation (Leaf h LS2 a b) out (fin x) (fin v) = Fail EAssert.
Proof.
  intros W Ho Hx Hv Ht. pose proof W as (W1 & W2 & W3 & _).
  cbn [retractation]. unfold representationDim, tangentDim; cbn [hdr_of].
  rewrite !check_eq by (rewrite ?fin_length; lia). cbn [bind].
  change default_prec with (Fin (1 / 100000000)). rewrite s2_inT by auto. apply Rltb_false in Ht as Ht'. rewrite Ht'.
  reflexivity.
Qed.
Lemma unit_normal z : 0 < rdot z z -> rdot (rscal (/ rnorm z) z) (rscal (/ rnorm z) z) = 1.
Proof.
  intros H. rewrite rdot_rscal_l, rdot_rscal_r, <- rnorm_sq. field.
  pose proof (sqrt_lt_R0 _ H). unfold rnorm. lra.
Qed.

(** ** pseudoLog *)
Lemma s2_log h a b out x y : leaf_wf h LS2 a b -> length out = 3%nat -> length x = 3%nat -> length y = 3%nat ->
  -1 <= rdot x y <= 1 ->
  pseudoLog (Leaf h LS2 a b) out (fin x) (fin y) =
  (let p := rproj x (rsub y x) in
   if Req_EM_T (rnorm p) 0 then Ok [Undef; Undef; Undef] else Ok (fin (rscal (/ rnorm p) (rscal (acos (rdot x y)) p)))).
Proof.
  intros W Ho Hx Hy Hd. pose proof W as (W1 & W2 & W3 & _).
  cbn [pseudoLog]. unfold representationDim, tangentDim; cbn [hdr_of].
  rewrite !check_eq by (rewrite ?fin_length; lia). cbn [bind].
  unfold s2_pseudoLog, s2_logarithm. rewrite same_size_fin by lia. cbn [bind].
  rewrite vsub_fin, as_vec3_fin by (rewrite rsub_length; lia). cbn [bind].
  unfold s2_projVec. rewrite same_size_fin by (rewrite rsub_length; lia). cbn [bind].
  rewrite dot_fin, vscale_fin, vsub_fin. fold (rproj x (rsub y x)). set (p := rproj x (rsub y x)).
  assert (Lp : length p = 3%nat) by (unfold p; rewrite rproj_length; rewrite ?rsub_length; lia).
  rewrite assign_same by (rewrite fin_length, Lp; reflexivity). cbn [bind].
  unfold s2_distance. rewrite same_size_fin by lia. cbn [bind]. rewrite dot_fin. cbn [kacos XRS]. rewrite xacos_fin by auto.
  rewrite vscale_fin, norm_fin. cbv zeta.
  destruct (Req_EM_T (rnorm p) 0) as [Z|Z].
  - rewrite Z. destruct (vec3_inv p Lp) as (p1 & p2 & p3 & ->). cbn [fin rscal map vdivs]. cbn [kdiv XRS].
    rewrite !xdiv_0. apply assign_same. auto.
  - rewrite vdivs_fin by auto. apply assign_same. rewrite fin_length, !rscal_length. lia.
Qed.

(** ** Projection *)
Lemma s2_forceT h a b out w x : leaf_wf h LS2 a b -> length out = 3%nat -> length x = 3%nat -> length w = 3%nat ->
  forceOnTxM (Leaf h LS2 a b) out (fin w) (fin x) = Ok (fin (rproj x w)).
Proof.
  intros W Ho Hx Hw. pose proof W as (W1 & W2 & W3 & _).
  cbn [forceOnTxM]. unfold representationDim, tangentDim; cbn [hdr_of].
  rewrite !check_eq by (rewrite ?fin_length; lia). cbn [bind].
  unfold s2_forceOnTxM. rewrite same_size_fin by lia. cbn [bind]. rewrite dot_fin, vscale_fin, vsub_fin.
  apply assign_same. change (rsub w (rscal (rdot x w) x)) with (rproj x w). rewrite fin_length, rproj_length; lia.
Qed.
Lemma rproj_tan x w : length x = length w -> rdot x x = 1 -> rdot x (rproj x w) = 0.
Proof. intros L H. unfold rproj. rewrite rdot_rsub_r, rdot_rscal_r, H; rewrite ?rscal_length; auto. ring. Qed.
Lemma rsub_zero w x : length x = length w -> rsub w (rscal 0 x) = w.
Proof.
  revert x; induction w as [|a w IH]; intros [|b x] H; simpl in *; try discriminate; auto.
  unfold rsub, rscal in *. simpl. f_equal; [ring|]. apply IH. lia.
Qed.
Lemma rproj_fix x w : length x = length w -> rdot x w = 0 -> rproj x w = w.
Proof. intros L H. unfold rproj. rewrite H. apply rsub_zero. auto. Qed.
Lemma rproj_closest x w u : length x = length w -> length u = length w -> rdot x x = 1 -> rdot x u = 0 ->
  rdot (rsub w (rproj x w)) (rsub w (rproj x w)) <= rdot (rsub w u) (rsub w u).
Proof.
  intros L1 L2 H Hu.
  assert (E : rdot (rsub w u) (rsub w u) = rdot (rsub w (rproj x w)) (rsub w (rproj x w)) +
              rdot (rsub (rproj x w) u) (rsub (rproj x w) u)).
  { assert (Lp : length (rproj x w) = length w) by (apply rproj_length; auto).
    rewrite !rdot_rsub_l, !rdot_rsub_r; auto; try lia. unfold rproj.
    rewrite !rdot_rsub_l, !rdot_rsub_r, !rdot_rscal_l, !rdot_rscal_r; rewrite ?rscal_length; auto.
    rewrite (rdot_comm u x), (rdot_comm w x), (rdot_comm u w), Hu, H. ring. }
  rewrite E. pose proof (rdot_self_nonneg (rsub (rproj x w) u)). lra.
Qed.

(** ** Matrices of finite columns *)
Definition matR (r : nat) (cs : list (list R)) : mat XR := Mat r (map fin cs).

Lemma s2_projCols_fin out cs x : length x = 3%nat -> mrows out = 3%nat -> ncols out = length cs ->
  Forall (fun c => length c = 3%nat) cs ->
  s2_projCols out (matR 3 cs) (fin x) = Ok (matR 3 (map (rproj x) cs)).
Proof.
  intros Hx Ho Hc F. unfold s2_projCols, matR, ncols in *. cbn [mrows mcols_]. rewrite fin_length, Hx, Ho, map_length, Hc, !Nat.eqb_refl.
  cbn [andb eigen_assert bind]. do 2 f_equal. rewrite !map_map. apply map_ext. intros c.
  rewrite dot_fin, vscale_fin, vsub_fin. reflexivity.
Qed.

(** ** Rotation between two vectors *)
Definition m3_mapR (f : R -> R) (A : m3 R) : m3 R :=
  M3 (f (a00 A)) (f (a01 A)) (f (a02 A)) (f (a10 A)) (f (a11 A)) (f (a12 A)) (f (a20 A)) (f (a21 A)) (f (a22 A)).
Definition m3_addR (A B : m3 R) : m3 R :=
  M3 (a00 A + a00 B) (a01 A + a01 B) (a02 A + a02 B) (a10 A + a10 B) (a11 A + a11 B) (a12 A + a12 B)
     (a20 A + a20 B) (a21 A + a21 B) (a22 A + a22 B).
Lemma m3_divs_fin A d : d <> 0 -> m3_divs (m3fin A) (Fin d) = m3fin (m3_mapR (fun a => a / d) A).
Proof.
  intros H. destruct A as [m00 m01 m02 m10 m11 m12 m20 m21 m22]. unfold m3_divs, m3_map2, m3fin, m3_mapR.
  cbn [a00 a01 a02 a10 a11 a12 a20 a21 a22]. cbn [kdiv XRS]. rewrite !xdiv_fin by auto. reflexivity.
Qed.
Lemma m3_add_fin A B : m3_map2 kadd (m3fin A) (m3fin B) = m3fin (m3_addR A B).
Proof. reflexivity. Qed.

Definition rcross (x y : list R) : list R :=
  match x, y with
  | [a; b; c], [d; e; f] => [b * f - c * e; c * d - a * f; a * e - b * d]
  | _, _ => []
  end.
Definition rotbt (x y : list R) : m3 R :=
  match rcross x y with
  | [p; q; r] => rodrigues 1 (/ (1 + rdot x y)) p q r
  | _ => ridm
  end.
Lemma rotbt_fin x y : length x = 3%nat -> length y = 3%nat -> 1 / 1000000000000 < 1 + rdot x y ->
  computeRotBetweenVec (fin x) (fin y) = Ok (m3fin (rotbt x y)).
Proof.
  intros Hx Hy Hd. unfold computeRotBetweenVec. rewrite !as_vec3_fin by auto. cbn [bind].
  rewrite dot_fin. cbn [klit kadd k1 XRS xadd kltb xltb]. apply Rltb_true in Hd as E. rewrite E. cbn [mnf_assert bind].
  destruct (vec3_inv x Hx) as (a & b & c & ->). destruct (vec3_inv y Hy) as (d & e & f & ->).
  set (D := 1 + rdot [a; b; c] [d; e; f]) in *. assert (D <> 0) by lra.
  unfold rotbt, rcross. fold D.
  cbn [fin map cross]. cbn [kmul ksub XRS lift2 xsub].
  set (p := b * f - c * e). set (q := c * d - a * f). set (r := a * e - b * d).
  cbn [hat hat2 bind]. cbn [kmul ksub kopp k0 XRS lift1 lift2 xsub].
  change (M3 (Fin 0) (Fin (- r)) (Fin q) (Fin r) (Fin 0) (Fin (- p)) (Fin (- q)) (Fin p) (Fin 0))
    with (m3fin (M3 0 (- r) q r 0 (- p) (- q) p 0)).
  match goal with |- Ok (m3_map2 _ _ (m3_divs ?B _)) = _ =>
    change B with (m3fin (M3 (- (q * q) - r * r) (p * q) (r * p) (p * q) (- (p * p) - r * r) (q * r)
                             (r * p) (q * r) (- (p * p) - q * q))) end.
  rewrite m3_divs_fin by auto. rewrite m3_id_fin, !m3_add_fin. f_equal. f_equal.
  m3_eq; cbn [m3_addR m3_mapR ridm a00 a01 a02 a10 a11 a12 a20 a21 a22]; field; auto.
Qed.
Lemma rotbt_rot x y : length x = 3%nat -> length y = 3%nat -> rdot x x = 1 -> rdot y y = 1 -> 1 + rdot x y <> 0 ->
  rot (rotbt x y).
Proof.
  intros Hx Hy Ux Uy Hd. destruct (vec3_inv x Hx) as (a & b & c & ->). destruct (vec3_inv y Hy) as (d & e & f & ->).
  unfold rotbt, rcross. apply rod_rot. set (D := rdot [a; b; c] [d; e; f]) in *.
  assert (L : (b * f - c * e) * (b * f - c * e) + (c * d - a * f) * (c * d - a * f) + (a * e - b * d) * (a * e - b * d)
          = rdot [a;b;c] [a;b;c] * rdot [d;e;f] [d;e;f] - D * D) by (unfold D; simpl; ring).
  rewrite L, Ux, Uy. field. auto.
Qed.
Lemma rotbt_maps x y : length x = 3%nat -> length y = 3%nat -> rdot x x = 1 -> rdot y y = 1 -> 1 + rdot x y <> 0 ->
  rmulv (rotbt x y) x = y.
Proof.
  intros Hx Hy Ux Uy Hd. destruct (vec3_inv x Hx) as (a & b & c & ->). destruct (vec3_inv y Hy) as (d & e & f & ->).
  unfold rotbt, rcross, rmulv. cbn [rodrigues a00 a01 a02 a10 a11 a12 a20 a21 a22].
  set (D := rdot [a; b; c] [d; e; f]) in *. set (k := / (1 + D)).
  assert (ED : D = a * d + b * e + c * f) by (unfold D; simpl; ring). simpl in Ux, Uy.
  assert (N : a * a + b * b + c * c = 1) by lra. assert (M : d * d + e * e + f * f = 1) by lra. clear Ux Uy.
  assert (Hk : k * (1 + D) = 1) by (unfold k; field; auto). clearbody D k.
  set (p := b * f - c * e). set (q := c * d - a * f). set (r := a * e - b * d).
  assert (O : p * a + q * b + r * c = 0) by (unfold p, q, r; ring).
  assert (L : p * p + q * q + r * r = 1 - D * D).
  { transitivity ((a * a + b * b + c * c) * (d * d + e * e + f * f) - D * D); [rewrite ED; unfold p, q, r; ring|].
    rewrite N, M. ring. }
  assert (C0 : q * c - r * b = d - D * a).
  { transitivity (d * (a * a + b * b + c * c) - D * a); [rewrite ED; unfold q, r; ring|]. rewrite N. ring. }
  assert (C1 : r * a - p * c = e - D * b).
  { transitivity (e * (a * a + b * b + c * c) - D * b); [rewrite ED; unfold p, r; ring|]. rewrite N. ring. }
  assert (C2 : p * b - q * a = f - D * c).
  { transitivity (f * (a * a + b * b + c * c) - D * c); [rewrite ED; unfold p, q; ring|]. rewrite N. ring. }
  clearbody p q r. cbn [rdot].
  assert (K : k * (1 - D * D) = 1 - D).
  { transitivity (k * (1 + D) * (1 - D)); [ring|]. rewrite Hk. ring. }
  f_equal; [|f_equal; [|f_equal]].
  - transitivity (a + (q * c - r * b) + k * (p * (p * a + q * b + r * c)) - k * (p * p + q * q + r * r) * a); [ring|].
    rewrite O, L, C0, K. ring.
  - transitivity (b + (r * a - p * c) + k * (q * (p * a + q * b + r * c)) - k * (p * p + q * q + r * r) * b); [ring|].
    rewrite O, L, C1, K. ring.
  - transitivity (c + (p * b - q * a) + k * (r * (p * a + q * b + r * c)) - k * (p * p + q * q + r * r) * c); [ring|].
    rewrite O, L, C2, K. ring.
Qed.

(** A rotation preserves inner products. *)
Lemma rot_dot A u w : rot A -> length u = 3%nat -> length w = 3%nat -> rdot (rmulv A u) (rmulv A w) = rdot u w.
Proof.
  intros [H _] Hu Hw. destruct (vec3_inv u Hu) as (a & b & c & ->). destruct (vec3_inv w Hw) as (d & e & f & ->).
  assert (E : forall g : m3 R -> R, g (rmul (rtr A) A) = g ridm) by (intros; rewrite H; auto).
  pose proof (E a00) as E00. pose proof (E a01) as E01. pose proof (E a02) as E02.
  pose proof (E a11) as E11. pose proof (E a12) as E12. pose proof (E a22) as E22.
  clear E. cbn [rmul rtr ridm a00 a01 a02 a10 a11 a12 a20 a21 a22] in *. unfold rmulv. cbn [rdot].
  set (m00 := a00 A) in *. set (m01 := a01 A) in *. set (m02 := a02 A) in *.
  set (m10 := a10 A) in *. set (m11 := a11 A) in *. set (m12 := a12 A) in *.
  set (m20 := a20 A) in *. set (m21 := a21 A) in *. set (m22 := a22 A) in *.
  transitivity ((m00*m00+m10*m10+m20*m20)*(a*d) + (m01*m01+m11*m11+m21*m21)*(b*e) + (m02*m02+m12*m12+m22*m22)*(c*f)
    + (m00*m01+m10*m11+m20*m21)*(a*e+b*d) + (m00*m02+m10*m12+m20*m22)*(a*f+c*d) + (m01*m02+m11*m12+m21*m22)*(b*f+c*e)); [ring|].
  rewrite E00, E01, E02, E11, E12, E22. ring.
Qed.
Lemma rmulv_mul A B u : length u = 3%nat -> rmulv A (rmulv B u) = rmulv (rmul A B) u.
Proof.
  intros Hu. destruct (vec3_inv u Hu) as (a & b & c & ->). unfold rmulv, rmul. cbn [rdot a00 a01 a02 a10 a11 a12 a20 a21 a22].
  f_equal; [|f_equal; [|f_equal]]; ring.
Qed.
Lemma rmulv_id u : length u = 3%nat -> rmulv ridm u = u.
Proof.
  intros Hu. destruct (vec3_inv u Hu) as (a & b & c & ->). unfold rmulv, ridm. cbn [rdot a00 a01 a02 a10 a11 a12 a20 a21 a22].
  f_equal; [|f_equal; [|f_equal]]; ring.
Qed.

(** The point reached by the retraction is never opposite to the starting point. *)
Lemma s2_next_dot x v : length x = 3%nat -> length v = 3%nat -> rdot x x = 1 -> Rabs (rdot x v) < 1 / 100000000 ->
  0 < rdot x (rscal (/ rnorm (radd x v)) (radd x v)).
Proof.
  intros Hx Hv Ux Ht. rewrite rdot_rscal_r, rdot_radd_r, Ux by lia.
  pose proof (s2_sum_pos x v ltac:(lia) Ux Ht) as P. apply sqrt_lt_R0 in P. fold (rnorm (radd x v)) in P.
  apply Rabs_def2 in Ht. apply Rmult_lt_0_compat; [apply Rinv_0_lt_compat; auto|lra].
Qed.
