(** Derivatives at 0 of the exact moves of the elementary factors, over the reals. *)
From Coq Require Import Reals List Lra Lia ZArith Bool Arith.
From Verif Require Import Base Scalar Vec Model_SO3 Model_Manifold Spec Layout XR SpecR RotR NumVec NumS2 MatNum Deriv DerivRetr.
Import ListNotations.
Local Open Scope R_scope.

(** A 9-vector as a matrix stored by columns, a 4-vector as a quaternion. *)
Definition as_m3 (x : list R) : m3 R :=
  M3 (nth 0 x 0) (nth 3 x 0) (nth 6 x 0) (nth 1 x 0) (nth 4 x 0) (nth 7 x 0) (nth 2 x 0) (nth 5 x 0) (nth 8 x 0).
Definition as_q (x : list R) : quat R := Q4 (nth 0 x 0) (nth 1 x 0) (nth 2 x 0) (nth 3 x 0).
Lemma as_m3_flat A : as_m3 (flat9 A) = A. Proof. destruct A; reflexivity. Qed.
Lemma as_q_flat q : as_q (qflat q) = q. Proof. destruct q; reflexivity. Qed.

(** The exact move of an elementary factor: the point reached from x by v. *)
Definition move {K} (s : mfd K) (x v : list R) : list R :=
  match s with
  | Leaf _ LS2 _ _ => let w := radd x v in rscal (/ rnorm w) w
  | Leaf _ (LSO3 MapMatrix) _ _ => flat9 (rmul (as_m3 x) (expSO3 v))
  | Leaf _ (LSO3 MapQuat) _ _ => qflat (qprod (as_q x) (expQ v))
  | _ => radd x v
  end.
Definition is_tan {K} (s : mfd K) (x v : list R) : Prop :=
  length v = tangentDim s /\ match s with Leaf _ LS2 _ _ => rdot x v = 0 | _ => True end.

(** ** The exponentials along a line *)
Lemma rnorm_line t x y z : rnorm [t * x; t * y; t * z] = Rabs t * rnorm [x; y; z].
Proof.
  unfold rnorm. cbn [rdot]. replace (t * x * (t * x) + (t * y * (t * y) + (t * z * (t * z) + 0))) with (Rsqr t * (x * x + (y * y + (z * z + 0)))) by (unfold Rsqr; ring).
  rewrite sqrt_mult_alt by apply Rle_0_sqr. rewrite sqrt_Rsqr_abs. reflexivity.
Qed.
Lemma norm0 x y z : rnorm [x; y; z] = 0 -> x = 0 /\ y = 0 /\ z = 0.
Proof.
  intros H. unfold rnorm in H. apply sqrt_eq_0 in H; [|apply rdot_self_nonneg]. cbn [rdot] in H. repeat split; nra.
Qed.
Lemma even_abs (f : R -> R) t : (forall a, f (- a) = f a) -> f (Rabs t) = f t.
Proof. intros H. unfold Rabs. destruct (Rcase_abs t); auto. Qed.
Lemma exp_line x y z t : rnorm [x; y; z] <> 0 -> let n := rnorm [x; y; z] in
  expSO3 [t * x; t * y; t * z] = rodrigues (sin (t * n) / n) ((1 - cos (t * n)) / (n * n)) x y z.
Proof.
  intros Hn n. fold n in Hn. unfold expSO3. cbv zeta. rewrite rnorm_line. fold n. destruct (Req_EM_T (Rabs t * n) 0) as [Z|Z].
  - assert (t = 0). { apply Rmult_integral in Z. destruct Z as [Z|Z]; [|contradiction]. destruct (Req_dec t 0); auto. apply Rabs_no_R0 in H. contradiction. }
    subst t. rewrite Rmult_0_l, sin_0, cos_0. unfold rodrigues, ridm. f_equal; unfold Rdiv; ring.
  - assert (T : t <> 0). { intros ->. rewrite Rabs_R0 in Z. lra. }
    assert (S : sin (Rabs t * n) / (Rabs t * n) = sin (t * n) / (t * n)).
    { apply (even_abs (fun a => sin (a * n) / (a * n)) t). intros a. replace (- a * n) with (- (a * n)) by ring. rewrite sin_neg. destruct (Req_dec a 0) as [->|A]; [unfold Rdiv; rewrite Rmult_0_l, sin_0; ring|field; auto]. }
    assert (C : (1 - cos (Rabs t * n)) / (Rabs t * n * (Rabs t * n)) = (1 - cos (t * n)) / (t * n * (t * n))).
    { apply (even_abs (fun a => (1 - cos (a * n)) / (a * n * (a * n))) t). intros a. replace (- a * n) with (- (a * n)) by ring. rewrite cos_neg. f_equal. ring. }
    rewrite S, C. unfold rodrigues. f_equal; field; auto.
Qed.
Lemma expq_line x y z t : rnorm [x; y; z] <> 0 -> let n := rnorm [x; y; z] in
  expQ [t * x; t * y; t * z] = Q4 (cos (t * n / 2)) (sin (t * n / 2) / n * x) (sin (t * n / 2) / n * y) (sin (t * n / 2) / n * z).
Proof.
  intros Hn n. fold n in Hn. unfold expQ. cbv zeta. rewrite rnorm_line. fold n. destruct (Req_EM_T (Rabs t * n) 0) as [Z|Z].
  - assert (t = 0). { apply Rmult_integral in Z. destruct Z as [Z|Z]; [|contradiction]. destruct (Req_dec t 0); auto. apply Rabs_no_R0 in H. contradiction. }
    subst t. replace (0 * n / 2) with 0 by field. rewrite sin_0, cos_0. f_equal; unfold Rdiv; ring.
  - assert (T : t <> 0). { intros ->. rewrite Rabs_R0 in Z. lra. }
    assert (S : sin (Rabs t * n / 2) / (Rabs t * n) = sin (t * n / 2) / (t * n)).
    { apply (even_abs (fun a => sin (a * n / 2) / (a * n)) t). intros a. replace (- a * n / 2) with (- (a * n / 2)) by field. rewrite sin_neg. destruct (Req_dec a 0) as [->|A]; [|field; auto].
      replace (0 * n / 2) with 0 by field. rewrite sin_0. unfold Rdiv. ring. }
    assert (C : cos (Rabs t * n / 2) = cos (t * n / 2)).
    { apply (even_abs (fun a => cos (a * n / 2)) t). intros a. replace (- a * n / 2) with (- (a * n / 2)) by field. apply cos_neg. }
    rewrite S, C. f_equal; field; auto.
Qed.

Lemma d_sin_line n : n <> 0 -> derivable_pt_lim (fun t => sin (t * n) / n) 0 1.
Proof.
  intros H. unfold Rdiv. eapply d_eq; [apply (d_mult (fun t => sin (t * n)) (fun _ => / n)); [|apply d_const]|].
  - apply (d_comp (fun t => t * n) sin); [der|apply derivable_pt_lim_sin].
  - cbv beta. rewrite Rmult_0_l, cos_0, sin_0. field. auto.
Qed.
Lemma d_cos_line n : n <> 0 -> derivable_pt_lim (fun t => (1 - cos (t * n)) / (n * n)) 0 0.
Proof.
  intros H. unfold Rdiv. eapply d_eq; [apply (d_mult (fun t => 1 - cos (t * n)) (fun _ => / (n * n))); [|apply d_const]|].
  - apply (d_minus (fun _ => 1)); [apply d_const|]. apply (d_comp (fun t => t * n) cos); [der|apply derivable_pt_lim_cos].
  - cbv beta. rewrite Rmult_0_l, cos_0, sin_0. ring.
Qed.
Lemma d_sin_half n : n <> 0 -> derivable_pt_lim (fun t => sin (t * n / 2) / n) 0 (1 / 2).
Proof.
  intros H. unfold Rdiv. eapply d_eq; [apply (d_mult (fun t => sin (t * n * / 2)) (fun _ => / n)); [|apply d_const]|].
  - apply (d_comp (fun t => t * n * / 2) sin); [der|apply derivable_pt_lim_sin].
  - cbv beta. replace (0 * n * / 2) with 0 by ring. rewrite cos_0, sin_0. field. auto.
Qed.
Lemma d_cos_half n : derivable_pt_lim (fun t => cos (t * n / 2)) 0 0.
Proof.
  eapply d_eq; [apply (d_comp (fun t => t * n / 2) cos); [der|apply derivable_pt_lim_cos]|]. cbv beta. replace (0 * n / 2) with 0 by field. rewrite sin_0. ring.
Qed.

Lemma deriv_ext y z t0 D : (forall t, y t = z t) -> deriv_v z t0 D -> deriv_v y t0 D.
Proof. intros E (fs & H1 & H2). exists fs. split; auto. intros t. rewrite E. auto. Qed.

(** ** The Jacobians *)
Definition jac_mat (A : m3 R) : list (list R) :=
  [[0; 0; 0; a02 A; a12 A; a22 A; - a01 A; - a11 A; - a21 A]; [- a02 A; - a12 A; - a22 A; 0; 0; 0; a00 A; a10 A; a20 A];
   [a01 A; a11 A; a21 A; - a00 A; - a10 A; - a20 A; 0; 0; 0]].
Definition jac_q (q : quat R) : list (list R) :=
  [[- (1 / 2) * qx q; 1 / 2 * qw q; 1 / 2 * qz q; - (1 / 2) * qy q]; [- (1 / 2) * qy q; - (1 / 2) * qz q; 1 / 2 * qw q; 1 / 2 * qx q];
   [- (1 / 2) * qz q; 1 / 2 * qy q; - (1 / 2) * qx q; 1 / 2 * qw q]].
Ltac split9 := match goal with
  | |- deriv_v (fun t => [@?f0 t; @?f1 t; @?f2 t; @?f3 t; @?f4 t; @?f5 t; @?f6 t; @?f7 t; @?f8 t]) _ _ => exists [f0; f1; f2; f3; f4; f5; f6; f7; f8]
  | |- deriv_v (fun t => [@?f0 t; @?f1 t; @?f2 t; @?f3 t]) _ _ => exists [f0; f1; f2; f3] end; split; [reflexivity|].

Lemma mat_deriv A v : length v = 3%nat -> deriv_v (fun t => flat9 (rmul A (expSO3 (rscal t v)))) 0 (rmv 9 (jac_mat A) v).
Proof.
  intros Lv. destruct (vec3_inv v Lv) as (x & y & z & ->). cbn [rscal map]. unfold rmv, jac_mat. cbn [seq map nth rdot].
  destruct (Req_dec (rnorm [x; y; z]) 0) as [Z|Z].
  - destruct (norm0 _ _ _ Z) as (-> & -> & ->). apply (deriv_ext _ (fun _ => flat9 (rmul A ridm))).
    + intros t. f_equal. f_equal. rewrite !Rmult_0_r. unfold expSO3. cbv zeta. destruct (Req_EM_T _ 0) as [_|N]; auto. contradiction.
    + unfold flat9. split9. repeat (apply Forall2_cons || apply Forall2_nil); (eapply d_eq; [apply d_const|ring]).
  - set (n := rnorm [x; y; z]) in *.
    assert (E : exists f g, derivable_pt_lim f 0 1 /\ derivable_pt_lim g 0 0 /\ f 0 = 0 /\ g 0 = 0 /\ forall t, expSO3 [t * x; t * y; t * z] = rodrigues (f t) (g t) x y z).
    { exists (fun t => sin (t * n) / n), (fun t => (1 - cos (t * n)) / (n * n)). split; [apply d_sin_line; auto|]. split; [apply d_cos_line; auto|].
      split; [rewrite Rmult_0_l, sin_0; unfold Rdiv; ring|]. split; [rewrite Rmult_0_l, cos_0; unfold Rdiv; ring|]. intros t. apply exp_line. auto. }
    destruct E as (f & g & Df & Dg & F0 & G0 & E). apply (deriv_ext _ (fun t => flat9 (rmul A (rodrigues (f t) (g t) x y z)))); [intros t; rewrite E; reflexivity|].
    unfold flat9, rmul, rodrigues. cbn [a00 a01 a02 a10 a11 a12 a20 a21 a22].
    split9. repeat (apply Forall2_cons || apply Forall2_nil); (eapply d_eq; [der; [..]; first [exact Df|exact Dg]|]); cbv beta; rewrite ?F0, ?G0; ring.
Qed.
Lemma quat_deriv q v : length v = 3%nat -> deriv_v (fun t => qflat (qprod q (expQ (rscal t v)))) 0 (rmv 4 (jac_q q) v).
Proof.
  intros Lv. destruct (vec3_inv v Lv) as (x & y & z & ->). cbn [rscal map]. unfold rmv, jac_q. cbn [seq map nth rdot].
  destruct (Req_dec (rnorm [x; y; z]) 0) as [Z|Z].
  - destruct (norm0 _ _ _ Z) as (-> & -> & ->). apply (deriv_ext _ (fun _ => qflat (qprod q (Q4 1 0 0 0)))).
    + intros t. f_equal. f_equal. rewrite !Rmult_0_r. unfold expQ. cbv zeta. destruct (Req_EM_T _ 0) as [_|N]; auto. contradiction.
    + unfold qflat. split9. repeat (apply Forall2_cons || apply Forall2_nil); (eapply d_eq; [apply d_const|ring]).
  - set (n := rnorm [x; y; z]) in *.
    assert (E : exists f g, derivable_pt_lim f 0 (1 / 2) /\ derivable_pt_lim g 0 0 /\ f 0 = 0 /\ g 0 = 1 /\ forall t, expQ [t * x; t * y; t * z] = Q4 (g t) (f t * x) (f t * y) (f t * z)).
    { exists (fun t => sin (t * n / 2) / n), (fun t => cos (t * n / 2)). split; [apply d_sin_half; auto|]. split; [apply d_cos_half; auto|].
      split; [replace (0 * n / 2) with 0 by field; rewrite sin_0; unfold Rdiv; ring|]. split; [replace (0 * n / 2) with 0 by field; apply cos_0|]. intros t. apply expq_line. auto. }
    destruct E as (f & g & Df & Dg & F0 & G0 & E). apply (deriv_ext _ (fun t => qflat (qprod q (Q4 (g t) (f t * x) (f t * y) (f t * z))))); [intros t; rewrite E; reflexivity|].
    unfold qflat, qprod. cbn [qw qx qy qz].
    split9. repeat (apply Forall2_cons || apply Forall2_nil); (eapply d_eq; [der; [..]; first [exact Df|exact Dg]|]); cbv beta; rewrite ?F0, ?G0; field.
Qed.
Lemma real_deriv x v : length v = length x -> deriv_v (fun t => radd x (rscal t v)) 0 v.
Proof.
  intros Lv. exists (map (fun p t => fst p + t * snd p) (combine x v)). split.
  - intros t. rewrite map_map. unfold radd, rscal. clear. revert v; induction x as [|c x IH]; intros [|e v]; cbn [combine map]; auto. f_equal; auto.
  - revert v Lv; induction x as [|c x IH]; intros [|e v] L; try discriminate; cbn [combine map]; constructor.
    + cbn [fst snd]. eapply d_eq; [der|]. ring.
    + apply IH. simpl in L. lia.
Qed.
Lemma s2_deriv x v : length x = 3%nat -> length v = 3%nat -> rdot x v = 0 -> 0 < rdot x x ->
  deriv_v (fun t => let w := radd x (rscal t v) in rscal (/ rnorm w) w) 0 (rscal (/ rnorm x) v).
Proof.
  intros Lx Lv T P. set (M := rdot x x) in *. set (N := rdot v v). assert (N0 : 0 <= N) by apply rdot_self_nonneg.
  assert (E : forall t, rnorm (radd x (rscal t v)) = sqrt (M + t * t * N)).
  { intros t. unfold rnorm. f_equal. rewrite rdot_radd_l, !rdot_radd_r, !rdot_rscal_l, !rdot_rscal_r by (rewrite ?rscal_length; lia).
    rewrite (rdot_comm v x), T. unfold M, N. ring. }
  set (k := / rnorm x). assert (Q : derivable_pt_lim (fun t => / sqrt (M + t * t * N)) 0 0 /\ / sqrt (M + 0 * 0 * N) = k).
  { split.
    - eapply d_eq; [apply d_inv; [apply d_sqrt; [der|]|]|]; cbv beta.
      + replace (M + 0 * 0 * N) with M by ring. exact P.
      + replace (M + 0 * 0 * N) with M by ring. pose proof (sqrt_lt_R0 M P). lra.
      + replace (0 + ((1 * 0 + 0 * 1) * N + 0 * 0 * 0)) with 0 by ring. unfold Rdiv. ring.
    - unfold k, rnorm. fold M. replace (M + 0 * 0 * N) with M by ring. reflexivity. }
  destruct Q as [Q K]. set (f := fun t => / sqrt (M + t * t * N)) in *.
  apply (deriv_ext _ (fun t => map (fun p => f t * (fst p + t * snd p)) (combine x v))).
  { intros t. cbv zeta. rewrite E. change (/ sqrt (M + t * t * N)) with (f t). generalize (f t). intros k0. unfold radd, rscal at 1. rewrite map_map. clear. revert v; induction x as [|c x IH]; intros [|e v]; cbn [combine map rscal]; auto. cbn [fst snd]. f_equal. apply IH. }
  exists (map (fun p t => f t * (fst p + t * snd p)) (combine x v)). split; [intros t; rewrite map_map; reflexivity|].
  assert (L : length x = length v) by lia. change (/ sqrt (M + 0 * 0 * N)) with (f 0) in K. clearbody f k. clear - L Q K.
  revert v L; induction x as [|c x IH]; intros [|e v] L; try discriminate; cbn [combine map rscal]; constructor.
  - cbn [fst snd]. eapply d_eq; [apply (d_mult f (fun t => c + t * e)); [exact Q|der]|]. cbv beta. rewrite K. ring.
  - apply IH. simpl in L. lia.
Qed.

(** A linear form a at the end of the move, followed back to the start: its value along every tangent vector
    is the derivative of a along the move. *)
Definition pullback {K} (s : mfd K) (x a g : list R) : Prop :=
  length g = tangentDim s /\
  (forall v, is_tan s x v -> derivable_pt_lim (fun t => rdot a (move s x (rscal t v))) 0 (rdot g v)) /\
  match s with Leaf _ LS2 _ _ => rdot x g = 0 | _ => True end.

Lemma deriv_rdot a y D t0 : deriv_v y t0 D -> derivable_pt_lim (fun t => rdot a (y t)) t0 (rdot a D).
Proof.
  intros (fs & E & F). apply (d_local _ (fun t => rdot a (map (fun f => f t) fs)) _ _ 1); [lra|intros; rewrite E; reflexivity|]. clear E y.
  revert a; induction F as [|f D fs Ds H F IH]; intros [|c a]; cbn [rdot map]; try apply d_const.
  apply (d_plus (fun t => c * f t)); [|apply IH]. eapply d_eq; [apply (d_mult (fun _ => c)); [apply d_const|exact H]|]. ring.
Qed.

Definition pull {K} (s : mfd K) (x a : list R) : list R :=
  match s with
  | Leaf _ LS2 _ _ => rscal (/ rnorm x) (rsub a (rscal (rdot x a / rdot x x) x))
  | Leaf _ (LSO3 MapMatrix) _ _ => map (rdot a) (jac_mat (as_m3 x))
  | Leaf _ (LSO3 MapQuat) _ _ => map (rdot a) (jac_q (as_q x))
  | _ => a
  end.
Lemma jac_mat_len A : Forall (fun c => length c = 9%nat) (jac_mat A). Proof. unfold jac_mat. repeat (constructor; [reflexivity|]). constructor. Qed.
Lemma jac_q_len q : Forall (fun c => length c = 4%nat) (jac_q q). Proof. unfold jac_q. repeat (constructor; [reflexivity|]). constructor. Qed.
Lemma pull_ok {K} (h : hdr) l a0 b0 (x a : list R) : let s := Leaf (K:=K) h l a0 b0 in leaf_wf h l a0 b0 -> length x = representationDim s -> length a = representationDim s ->
  (l = LS2 -> 0 < rdot x x) -> pullback s x a (pull s x a).
Proof.
  intros s W Lx La P. unfold s, representationDim in *. cbn [hdr_of] in *. unfold pullback, tangentDim; cbn [hdr_of].
  destruct l as [| |[|]]; cbn [leaf_wf] in W; cbn [pull].
  - destruct W as [W1 W2]. split; [lia|]. split; auto. intros v [Lv _]. unfold tangentDim in Lv; cbn [hdr_of] in Lv. apply deriv_rdot. cbn [move]. apply real_deriv. lia.
  - destruct W as (_ & W2 & W3 & _). rewrite W2, W3 in *. pose proof (P eq_refl) as P0. set (k := rdot x a / rdot x x).
    assert (Ls : length (rsub a (rscal k x)) = 3%nat) by (unfold rsub; rewrite map_length, combine_length, rscal_length; lia).
    split; [rewrite rscal_length; auto|]. split.
    + intros v [Lv Tv]. unfold tangentDim in Lv; cbn [hdr_of] in Lv. rewrite W2 in Lv. eapply d_eq; [apply deriv_rdot; cbn [move]; apply s2_deriv; auto|].
      rewrite rdot_rscal_l, rdot_rscal_r. f_equal. clearbody k. clear - La Lx Lv Tv.
      destruct (vec3_inv x Lx) as (x0 & x1 & x2 & ->). destruct (vec3_inv v Lv) as (v0 & v1 & v2 & ->). destruct (vec3_inv a La) as (p & q & r & ->).
      unfold rsub, rscal. cbn [map combine fst snd rdot] in *. transitivity (p * v0 + (q * v1 + (r * v2 + 0)) - k * (x0 * v0 + (x1 * v1 + (x2 * v2 + 0)))); [rewrite Tv; ring|ring].
    + rewrite rdot_rscal_r. assert (Z : rdot x (rsub a (rscal k x)) = 0); [|rewrite Z; ring].
      assert (E : rdot x (rsub a (rscal k x)) = rdot x a - k * rdot x x).
      { clearbody k. clear - La Lx. destruct (vec3_inv x Lx) as (x0 & x1 & x2 & ->). destruct (vec3_inv a La) as (p & q & r & ->). unfold rsub, rscal. cbn [map combine fst snd rdot]. ring. }
      rewrite E. unfold k. field. lra.
  - destruct W as (_ & W2 & W3 & _). rewrite W2, W3 in *. split; [reflexivity|]. split; auto. intros v [Lv _]. unfold tangentDim in Lv; cbn [hdr_of] in Lv. rewrite W2 in Lv.
    rewrite (rdot_lin a 9) by apply jac_mat_len. apply deriv_rdot. apply mat_deriv. auto.
  - destruct W as (_ & W2 & W3 & _). rewrite W2, W3 in *. split; [reflexivity|]. split; auto. intros v [Lv _]. unfold tangentDim in Lv; cbn [hdr_of] in Lv. rewrite W2 in Lv.
    rewrite (rdot_lin a 4) by apply jac_q_len. apply deriv_rdot. apply quat_deriv. auto.
Qed.
