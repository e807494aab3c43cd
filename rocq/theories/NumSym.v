(** The symmetries of the elementary manifolds: translations of R^n, rotations of the sphere, left multiplications of
    SO(3).  The operations commute with them. *)
From Coq Require Import Reals List Lra Lia ZArith Bool Arith Psatz.
From Verif Require Import Base Scalar Vec Model_Real Model_S2 Model_SO3 Model_Manifold Spec Layout Comp Indep Flat
  XR SpecR RotR NumVec NumMat Angle NumQuat NumTree NumLeaf NumS2 Force Points TanLeaf.
Import ListNotations.
Local Open Scope R_scope.

Lemma ok_eq {A} (x y : A) : Ok x = Ok y -> x = y. Proof. congruence. Qed.
(** A symmetry of one elementary manifold. *)
Inductive sym := SymT (c : list R) | SymR (A : m3 R) | SymQ (q : quat R).
Definition sym_ok (s : mfd XR) (g : sym) : Prop :=
  match s, g with
  | Leaf h LReal _ _, SymT c => length c = h_dim h
  | Leaf _ LS2 _ _, SymR A => rot A
  | Leaf _ (LSO3 MapMatrix) _ _, SymR A => rot A
  | Leaf _ (LSO3 MapQuat) _ _, SymQ q => qn2 q = 1
  | _, _ => False
  end.
(** Its action on points ... *)
Definition move (s : mfd XR) (g : sym) (x : list R) : list R :=
  match s, g, x with
  | Leaf _ LReal _ _, SymT c, _ => radd c x
  | Leaf _ LS2 _ _, SymR A, _ => rmulv A x
  | Leaf _ (LSO3 MapMatrix) _ _, SymR A, [x0; x1; x2; x3; x4; x5; x6; x7; x8] =>
      flat9 (rmul A (M3 x0 x3 x6 x1 x4 x7 x2 x5 x8))
  | Leaf _ (LSO3 MapQuat) _ _, SymQ q, [w; a; b; c] => qflat (qprod q (Q4 w a b c))
  | _, _, _ => x
  end.
(** ... and on tangent vectors (those of SO(3) are written in the moving frame). *)
Definition push (s : mfd XR) (g : sym) (v : list R) : list R :=
  match s, g with Leaf _ LS2 _ _, SymR A => rmulv A v | _, _ => v end.
Definition sym_inv (g : sym) : sym :=
  match g with SymT c => SymT (map Ropp c) | SymR A => SymR (rtr A) | SymQ q => SymQ (qconj q) end.

Lemma move_mat h a b A X : move (Leaf h (LSO3 MapMatrix) a b) (SymR A) (flat9 X) = flat9 (rmul A X).
Proof. destruct X. reflexivity. Qed.
Lemma move_quat h a b q p : move (Leaf h (LSO3 MapQuat) a b) (SymQ q) (qflat p) = qflat (qprod q p).
Proof. destruct p. reflexivity. Qed.

Lemma move_length h l a b g x : let s := Leaf h l a b in leaf_wf h l a b -> sym_ok s g ->
  length x = representationDim s -> length (move s g x) = representationDim s.
Proof.
  intros s W G Lx. unfold s, representationDim in *. cbn [hdr_of] in *.
  destruct l as [| |[|]], g; cbn [sym_ok] in G; try contradiction; cbn [leaf_wf] in W.
  - destruct W as [W1 W2]. cbn [move]. rewrite radd_length; lia.
  - destruct W as (_ & _ & W3 & _). rewrite W3. reflexivity.
  - destruct W as (_ & _ & W3 & _). rewrite W3 in *. destruct (flat9_surj x Lx) as [X ->]. rewrite move_mat. reflexivity.
  - destruct W as (_ & _ & W3 & _). rewrite W3 in *. destruct (qflat_surj x Lx) as [X ->]. rewrite move_quat. reflexivity.
Qed.
Lemma push_length h l a b g v : let s := Leaf h l a b in leaf_wf h l a b -> sym_ok s g ->
  length v = tangentDim s -> length (push s g v) = tangentDim s.
Proof.
  intros s W G Lx. unfold s, tangentDim in *. cbn [hdr_of] in *.
  destruct l as [| |[|]], g; cbn [sym_ok] in G; try contradiction; cbn [leaf_wf] in W; auto.
  destruct W as (_ & W2 & _). rewrite W2. reflexivity.
Qed.

Lemma inv_ok h l a b g : let s := Leaf h l a b in sym_ok s g -> sym_ok s (sym_inv g).
Proof.
  intros s G. unfold s in *. destruct l as [| |[|]], g; cbn [sym_ok sym_inv] in *; try contradiction; auto using rot_tr.
  - rewrite map_length. auto.
  - unfold qn2, qconj in *. cbn [qw qx qy qz]. rewrite <- G. ring.
Qed.
Lemma radd_inv c x : length c = length x -> radd (map Ropp c) (radd c x) = x.
Proof.
  revert x; induction c as [|a c IH]; intros [|b x] H; simpl in *; try discriminate; auto.
  unfold radd in *. simpl. f_equal; [ring|]. apply IH. lia.
Qed.
Lemma move_inv h l a b g x : let s := Leaf h l a b in leaf_wf h l a b -> sym_ok s g ->
  length x = representationDim s -> move s (sym_inv g) (move s g x) = x.
Proof.
  intros s W G Lx. unfold s, representationDim in *. cbn [hdr_of] in *.
  destruct l as [| |[|]], g; cbn [sym_ok] in G; try contradiction; cbn [leaf_wf] in W; cbn [sym_inv].
  - destruct W as [W1 W2]. cbn [move]. apply radd_inv. lia.
  - destruct W as (_ & _ & W3 & _). cbn [move]. rewrite rmulv_mul by lia. rewrite (proj1 G). apply rmulv_id. lia.
  - destruct W as (_ & _ & W3 & _). rewrite W3 in *. destruct (flat9_surj x Lx) as [X ->]. rewrite !move_mat.
    rewrite <- rmul_assoc, (proj1 G), rmul_id_l. reflexivity.
  - destruct W as (_ & _ & W3 & _). rewrite W3 in *. destruct (qflat_surj x Lx) as [X ->]. rewrite !move_quat.
    rewrite <- qprod_assoc, qconj_mul, qprod_1l by auto. reflexivity.
Qed.
Lemma push_inv h l a b g v : let s := Leaf h l a b in leaf_wf h l a b -> sym_ok s g ->
  length v = tangentDim s -> push s (sym_inv g) (push s g v) = v.
Proof.
  intros s W G Lx. unfold s, tangentDim in *. cbn [hdr_of] in *.
  destruct l as [| |[|]], g; cbn [sym_ok] in G; try contradiction; cbn [leaf_wf] in W; cbn [sym_inv]; auto.
  destruct W as (_ & W2 & W3 & _). cbn [push]. rewrite rmulv_mul by lia. rewrite (proj1 G). apply rmulv_id. lia.
Qed.

(** ** rmulv is linear *)
Lemma rmulv_radd A x y : length x = 3%nat -> length y = 3%nat -> rmulv A (radd x y) = radd (rmulv A x) (rmulv A y).
Proof.
  intros Hx Hy. destruct (vec3_inv x Hx) as (a & b & c & ->). destruct (vec3_inv y Hy) as (d & e & f & ->).
  unfold rmulv, radd. cbn [combine map fst snd rdot]. f_equal; [|f_equal; [|f_equal]]; ring.
Qed.
Lemma rmulv_rsub A x y : length x = 3%nat -> length y = 3%nat -> rmulv A (rsub x y) = rsub (rmulv A x) (rmulv A y).
Proof.
  intros Hx Hy. destruct (vec3_inv x Hx) as (a & b & c & ->). destruct (vec3_inv y Hy) as (d & e & f & ->).
  unfold rmulv, rsub. cbn [combine map fst snd rdot]. f_equal; [|f_equal; [|f_equal]]; ring.
Qed.
Lemma rmulv_rscal A t x : length x = 3%nat -> rmulv A (rscal t x) = rscal t (rmulv A x).
Proof.
  intros Hx. destruct (vec3_inv x Hx) as (a & b & c & ->).
  unfold rmulv, rscal. cbn [map rdot]. f_equal; [|f_equal; [|f_equal]]; ring.
Qed.
Lemma rmulv_len A x : length (rmulv A x) = 3%nat. Proof. reflexivity. Qed.
Lemma rot_norm A x : rot A -> length x = 3%nat -> rnorm (rmulv A x) = rnorm x.
Proof. intros H L. unfold rnorm. rewrite rot_dot; auto. Qed.
Lemma rmulv_rproj A x w : rot A -> length x = 3%nat -> length w = 3%nat -> rmulv A (rproj x w) = rproj (rmulv A x) (rmulv A w).
Proof.
  intros H Lx Lw. unfold rproj. rewrite rmulv_rsub, rmulv_rscal, rot_dot by (rewrite ?rscal_length; auto). reflexivity.
Qed.
Lemma radd_shift c x v : length c = length x -> length x = length v -> radd (radd c x) v = radd c (radd x v).
Proof.
  revert x v; induction c as [|a c IH]; intros [|b x] [|d v] H H'; simpl in *; try discriminate; auto.
  unfold radd in *. simpl. f_equal; [ring|]. apply IH; lia.
Qed.
Lemma rsub_shift c x y : length c = length x -> length x = length y -> rsub (radd c y) (radd c x) = rsub y x.
Proof.
  revert x y; induction c as [|a c IH]; intros [|b x] [|d v] H H'; simpl in *; try discriminate; auto.
  unfold radd, rsub in *. simpl. f_equal; [ring|]. apply IH; lia.
Qed.

(** ** Leaves *)
Lemma s2_retr_any h a b out x v : leaf_wf h LS2 a b -> length out = 3%nat -> length x = 3%nat -> length v = 3%nat ->
  retractation (Leaf h LS2 a b) out (fin x) (fin v) =
  if Rltb (Rabs (rdot x v)) (1 / 100000000)
  then if Req_EM_T (rnorm (radd x v)) 0 then Ok [Undef; Undef; Undef]
       else Ok (fin (rscal (/ rnorm (radd x v)) (radd x v)))
  else Fail EAssert.
Proof.
  intros W Ho Hx Hv. pose proof W as (W1 & W2 & W3 & _).
  cbn [retractation]. unfold representationDim, tangentDim; cbn [hdr_of].
  rewrite !check_eq by (rewrite ?fin_length; lia). cbn [bind].
  change default_prec with (Fin (1 / 100000000)). rewrite s2_inT by auto. cbn [bind].
  destruct (Rltb _ _); [|reflexivity]. cbn [mnf_assert bind].
  unfold s2_retractation. rewrite same_size_fin by lia. cbn [bind]. rewrite vadd_fin.
  rewrite as_vec3_fin by (rewrite radd_length; lia). cbn [bind]. rewrite norm_fin.
  assert (Ls : length (radd x v) = 3%nat) by (rewrite radd_length; lia).
  destruct (Req_EM_T (rnorm (radd x v)) 0) as [Z|Z].
  - rewrite Z. destruct (vec3_inv _ Ls) as (p & q & r & ->). unfold vdivs, fin. cbn [map kdiv XRS]. rewrite !xdiv_0.
    apply assign_same. auto.
  - rewrite vdivs_fin by auto. apply assign_same. rewrite fin_length, rscal_length; lia.
Qed.

Lemma undef_fin (y : list R) : [Undef; Undef; Undef] = fin y -> False.
Proof. destruct y; discriminate. Qed.

Lemma retr_sym h l a b g o o' x v y : let s := Leaf h l a b in leaf_wf h l a b -> sym_ok s g ->
  length o = representationDim s -> length o' = representationDim s -> length x = representationDim s -> length v = tangentDim s ->
  retractation s o (fin x) (fin v) = Ok (fin y) ->
  retractation s o' (fin (move s g x)) (fin (push s g v)) = Ok (fin (move s g y)).
Proof.
  intros s W G Lo Lo' Lx Lv E. unfold s, representationDim, tangentDim in *. cbn [hdr_of] in *.
  destruct l as [| |[|]], g; cbn [sym_ok] in G; try contradiction.
  - pose proof W as [W1 W2]. cbn [move push]. rewrite real_retr in E by (auto; lia). apply ok_eq, fin_inj in E. subst y.
    rewrite real_retr by (rewrite ?radd_length; auto; lia). rewrite radd_shift by lia. reflexivity.
  - pose proof W as (W1 & W2 & W3 & _). cbn [move push]. rewrite s2_retr_any in E by (auto; lia).
    rewrite s2_retr_any by (rewrite ?rmulv_len; auto; lia). rewrite rot_dot, <- rmulv_radd, rot_norm by (rewrite ?radd_length; auto; lia).
    destruct (Rltb _ _); [|discriminate]. destruct (Req_EM_T _ 0).
    + exfalso. inversion E as [E']. destruct y; discriminate.
    + inversion E as [E']. apply fin_inj in E'. subst y. rewrite rmulv_rscal by (rewrite radd_length; lia). reflexivity.
  - pose proof W as (W1 & W2 & W3 & _). rewrite W3 in *. rewrite W2 in *. destruct (flat9_surj x Lx) as [X ->]. rewrite move_mat. cbn [push].
    destruct (vec3_inv v Lv) as (v1 & v2 & v3 & ->).
    assert (EX : exists Ex, em_exponential (fin [v1; v2; v3]) = Ok (m3fin Ex)).
    { pose proof (em_exponential_fin v1 v2 v3) as Q. cbv zeta in Q.
      destruct (Rltb (rnorm [v1; v2; v3]) PI) eqn:B; [eauto|]. exfalso.
      cbn [retractation isInTxM] in E. unfold representationDim, tangentDim in E; cbn [hdr_of] in E.
      rewrite !check_eq in E by (rewrite ?fin_length; cbn; lia). cbn [bind mnf_assert] in E. unfold em_retractation in E. rewrite Q in E. discriminate. }
    destruct EX as [Ex HE]. rewrite (em_retr h a b o X Ex) in E by (auto; lia). apply ok_eq, fin_inj in E. subst y.
    rewrite (em_retr h a b o' _ Ex) by (auto; lia). rewrite move_mat, rmul_assoc. reflexivity.
  - pose proof W as (W1 & W2 & W3 & _). rewrite W3 in *. rewrite W2 in *. destruct (qflat_surj x Lx) as [X ->]. rewrite move_quat. cbn [push].
    assert (EX : exists Ex, eq_exponential junk_quat (fin v) = Ok (qfin Ex)).
    { destruct (vec3_inv v Lv) as (v1 & v2 & v3 & ->). pose proof (eq_exponential_fin junk_quat v1 v2 v3) as Q. cbv zeta in Q.
      destruct (Rltb (rnorm [v1; v2; v3]) PI) eqn:B; [eauto|]. exfalso.
      cbn [retractation isInTxM] in E. unfold representationDim, tangentDim in E; cbn [hdr_of] in E.
      rewrite !check_eq in E by (rewrite ?fin_length; cbn; lia). cbn [bind mnf_assert] in E. unfold eq_retractation, eq_retractation_at in E.
      rewrite Q in E. discriminate. }
    destruct EX as [Ex HE]. rewrite (eq_retr h a b o X Ex) in E by (auto; lia). apply ok_eq, fin_inj in E. subst y.
    rewrite (eq_retr h a b o' _ Ex) by (auto; lia). rewrite move_quat, qprod_assoc. reflexivity.
Qed.

Lemma qinverse_any q : qinverse (qfin q) = if Rltb 0 (qn2 q)
  then qfin (Q4 (qw q / qn2 q) (- qx q / qn2 q) (- qy q / qn2 q) (- qz q / qn2 q)) else qfin (Q4 0 0 0 0).
Proof.
  unfold qinverse. rewrite qsqnorm_fin. cbn [k0 kltb XRS xltb]. destruct (Rltb 0 (qn2 q)) eqn:E; [|reflexivity].
  apply Rltb_true in E. cbn [qfin qw qx qy qz kdiv kopp XRS lift1]. rewrite !xdiv_fin by lra. reflexivity.
Qed.
Lemma quat_rel q p r : qn2 q = 1 ->
  qmul (qinverse (qfin (qprod q p))) (qfin (qprod q r)) = qmul (qinverse (qfin p)) (qfin r).
Proof.
  intros H. rewrite !qinverse_any. rewrite qn2_mul, H, Rmult_1_l. destruct (Rltb 0 (qn2 p)) eqn:E.
  - rewrite !qmul_fin. f_equal. apply Rltb_true in E. set (d := qn2 p) in *. clearbody d.
    assert (F : forall c r, qprod (Q4 (qw c / d) (- qx c / d) (- qy c / d) (- qz c / d)) r =
      (let k := qprod (qconj c) r in Q4 (qw k / d) (qx k / d) (qy k / d) (qz k / d))).
    { intros. apply quat_ext; cbn [qw qx qy qz qprod qconj]; field; lra. }
    rewrite !F.
    assert (G : qprod (qconj (qprod q p)) (qprod q r) = qprod (qconj p) r).
    { transitivity (qprod (qconj p) (qprod (qprod (qconj q) q) r)).
      - apply quat_ext; cbn [qw qx qy qz qprod qconj]; ring.
      - rewrite qconj_mul, qprod_1l by auto. reflexivity. }
    rewrite G. reflexivity.
  - rewrite !qmul_fin. f_equal. apply quat_ext; cbn; ring.
Qed.
Lemma s2_log_any h a b out x y : leaf_wf h LS2 a b -> length out = 3%nat -> length x = 3%nat -> length y = 3%nat ->
  ~ (-1 <= rdot x y <= 1) -> pseudoLog (Leaf h LS2 a b) out (fin x) (fin y) = Ok [Undef; Undef; Undef].
Proof.
  intros W Ho Hx Hy Hd. pose proof W as (W1 & W2 & W3 & _).
  cbn [pseudoLog]. unfold representationDim, tangentDim; cbn [hdr_of].
  rewrite !check_eq by (rewrite ?fin_length; lia). cbn [bind].
  unfold s2_pseudoLog, s2_logarithm. rewrite same_size_fin by lia. cbn [bind].
  rewrite vsub_fin, as_vec3_fin by (rewrite rsub_length; lia). cbn [bind].
  unfold s2_projVec. rewrite same_size_fin by (rewrite rsub_length; lia). cbn [bind].
  rewrite dot_fin, vscale_fin, vsub_fin. fold (rproj x (rsub y x)). set (p := rproj x (rsub y x)).
  assert (Lp : length p = 3%nat) by (unfold p; rewrite rproj_length; rewrite ?rsub_length; lia).
  rewrite assign_same by (rewrite fin_length, Lp; reflexivity). cbn [bind].
  unfold s2_distance. rewrite same_size_fin by lia. cbn [bind]. rewrite dot_fin. cbn [kacos XRS].
  assert (U : xacos (Fin (rdot x y)) = Undef).
  { unfold xacos. destruct (Rle_dec (-1) (rdot x y)); [|reflexivity]. destruct (Rle_dec (rdot x y) 1); [|reflexivity]. exfalso. auto. }
  rewrite U. destruct (vec3_inv p Lp) as (p1 & p2 & p3 & ->). apply assign_same. auto.
Qed.
Lemma log_sym h l a b g o o' x y v : let s := Leaf h l a b in leaf_wf h l a b -> sym_ok s g ->
  length o = tangentDim s -> length o' = tangentDim s -> length x = representationDim s -> length y = representationDim s ->
  pseudoLog s o (fin x) (fin y) = Ok (fin v) ->
  pseudoLog s o' (fin (move s g x)) (fin (move s g y)) = Ok (fin (push s g v)).
Proof.
  intros s W G Lo Lo' Lx Ly E. unfold s, representationDim, tangentDim in *. cbn [hdr_of] in *.
  destruct l as [| |[|]], g; cbn [sym_ok] in G; try contradiction.
  - pose proof W as [W1 W2]. cbn [move push]. rewrite real_log in E by (auto; lia). apply ok_eq, fin_inj in E. subst v.
    rewrite real_log by (rewrite ?radd_length; auto; lia). rewrite rsub_shift by lia. reflexivity.
  - pose proof W as (W1 & W2 & W3 & _). cbn [move push].
    assert (D : -1 <= rdot x y <= 1).
    { destruct (Rle_dec (-1) (rdot x y)); [destruct (Rle_dec (rdot x y) 1); [lra|]|]; exfalso;
      rewrite s2_log_any in E by (auto; lia || lra); inversion E as [E']; destruct v; discriminate. }
    rewrite s2_log in E by (auto; lia). rewrite s2_log by (rewrite ?rmulv_len, ?rot_dot; auto; lia). cbv zeta in *.
    rewrite rot_dot, <- rmulv_rsub, <- rmulv_rproj, rot_norm by (rewrite ?rproj_length; rewrite ?rsub_length; auto; lia).
    destruct (Req_EM_T _ 0).
    + exfalso. inversion E as [E']. destruct v; discriminate.
    + apply ok_eq, fin_inj in E. subst v. rewrite !rmulv_rscal by (rewrite ?rscal_length, ?rproj_length; rewrite ?rsub_length; lia). reflexivity.
  - pose proof W as (W1 & W2 & W3 & _). rewrite W3 in *. rewrite W2 in *. destruct (flat9_surj x Lx) as [X ->]. destruct (flat9_surj y Ly) as [Y ->].
    rewrite !move_mat. cbn [push]. rewrite em_log in * by (auto; lia).
    rewrite rtr_mul, rmul_assoc, <- (rmul_assoc (rtr A)), (proj1 G), rmul_id_l. rewrite <- E. apply em_logarithm_indep. lia.
  - pose proof W as (W1 & W2 & W3 & _). rewrite W3 in *. rewrite W2 in *. destruct (qflat_surj x Lx) as [X ->]. destruct (qflat_surj y Ly) as [Y ->].
    rewrite !move_quat. cbn [push]. cbn [pseudoLog] in *. unfold representationDim, tangentDim in *; cbn [hdr_of] in *.
    rewrite !check_eq in * by (rewrite ?fin_length; cbn; lia). cbn [bind] in *.
    unfold eq_pseudoLog in *. rewrite !quat_read_fin in *. cbn [bind] in *. rewrite quat_rel by auto. rewrite <- E. apply eq_logarithm_indep. lia.
Qed.
Lemma forceT_sym h l a b g o o' w x r : let s := Leaf h l a b in leaf_wf h l a b -> sym_ok s g ->
  length o = tangentDim s -> length o' = tangentDim s -> length w = tangentDim s -> length x = representationDim s ->
  forceOnTxM s o (fin w) (fin x) = Ok (fin r) ->
  forceOnTxM s o' (fin (push s g w)) (fin (move s g x)) = Ok (fin (push s g r)).
Proof.
  intros s W G Lo Lo' Lw Lx E. pose proof (move_length h l a b g x W G Lx) as Lm. unfold s, representationDim, tangentDim in *. cbn [hdr_of] in *.
  destruct l as [| |[|]], g; cbn [sym_ok] in G; try contradiction.
  2: { pose proof W as (W1 & W2 & W3 & _). cbn [move push]. rewrite s2_forceT in E by (auto; lia). apply ok_eq, fin_inj in E. subst r.
    rewrite s2_forceT by (rewrite ?rmulv_len; auto; lia). rewrite rmulv_rproj by (auto; lia). reflexivity. }
  all: cbn [push]; cbn [forceOnTxM] in *; unfold representationDim, tangentDim in *; cbn [hdr_of] in *;
    rewrite !check_eq in E by (rewrite ?fin_length; lia); rewrite !check_eq by (rewrite ?fin_length; lia); cbn [bind] in *; rewrite <- E; apply assign_indep; lia.
Qed.
Lemma inT_sym h l a b g x v p : let s := Leaf h l a b in leaf_wf h l a b -> sym_ok s g ->
  length x = representationDim s -> length v = tangentDim s ->
  isInTxM s (fin (move s g x)) (fin (push s g v)) (Fin p) = isInTxM s (fin x) (fin v) (Fin p).
Proof.
  intros s W G Lx Lv. pose proof (move_length h l a b g x W G Lx) as Lm. unfold s, representationDim, tangentDim in *. cbn [hdr_of] in *.
  destruct l as [| |[|]], g; cbn [sym_ok] in G; try contradiction.
  2: { pose proof W as (W1 & W2 & W3 & _). cbn [move push]. rewrite !s2_inT by (rewrite ?rmulv_len; auto; lia). rewrite rot_dot by (auto; lia). reflexivity. }
  all: cbn [push]; cbn [isInTxM] in *; unfold representationDim, tangentDim in *; cbn [hdr_of] in *;
    rewrite !check_eq by (rewrite ?fin_length; lia); reflexivity.
Qed.
Lemma gram_inv A X : rot A -> rmul (rtr (rmul A X)) (rmul A X) = rmul (rtr X) X.
Proof. intros H. rewrite rtr_mul, rmul_assoc, <- (rmul_assoc (rtr A)), (proj1 H), rmul_id_l. reflexivity. Qed.
Lemma inM_sym h l a b g x p : let s := Leaf h l a b in leaf_wf h l a b -> sym_ok s g -> length x = representationDim s ->
  isInM s (fin (move s g x)) (Fin p) = isInM s (fin x) (Fin p).
Proof.
  intros s W G Lx. pose proof (move_length h l a b g x W G Lx) as Lm. unfold s, representationDim, tangentDim in *. cbn [hdr_of] in *.
  destruct l as [| |[|]], g; cbn [sym_ok] in G; try contradiction.
  - pose proof W as [W1 W2]. rewrite !real_isInM_fin by (rewrite ?fin_length; auto; lia). reflexivity.
  - pose proof W as (W1 & W2 & W3 & _). cbn [move]. rewrite !s2_isInM_fin by (rewrite ?rmulv_len; auto; lia). rewrite rot_norm by (auto; lia). reflexivity.
  - pose proof W as (W1 & W2 & W3 & _). rewrite W3 in *. destruct (flat9_surj x Lx) as [X ->]. rewrite move_mat.
    destruct (em_isInM_fin h a b X (Fin p) W) as (r & -> & Hr). destruct (em_isInM_fin h a b (rmul A X) (Fin p) W) as (r' & -> & Hr').
    f_equal. apply Bool.eq_iff_eq_true. rewrite Hr, Hr'. unfold em_accepts. rewrite gram_inv, rdet_mul, (proj2 G), Rmult_1_l by auto. reflexivity.
  - pose proof W as (W1 & W2 & W3 & _). rewrite W3 in *. destruct (qflat_surj x Lx) as [X ->]. rewrite move_quat.
    rewrite !eq_isInM_fin by (auto; reflexivity). unfold rnorm. rewrite <- !qn2_dot, qn2_mul, G, Rmult_1_l. reflexivity.
Qed.
Lemma rmulv_normed A x : rot A -> length x = 3%nat -> rmulv A (normed x) = normed (rmulv A x).
Proof. intros H L. unfold normed. rewrite rmulv_rscal, rot_norm by auto. reflexivity. Qed.
Lemma rmul_cols A a b c : length a = 3%nat -> length b = 3%nat -> length c = 3%nat ->
  rmul A (colsm a b c) = colsm (rmulv A a) (rmulv A b) (rmulv A c).
Proof.
  intros Ha Hb Hc. destruct (vec3_inv a Ha) as (? & ? & ? & ->). destruct (vec3_inv b Hb) as (? & ? & ? & ->). destruct (vec3_inv c Hc) as (? & ? & ? & ->).
  unfold colsm, rmulv. m3_eq; simpl; ring.
Qed.
Lemma rmulv_rc0 A X : rc0 (rmul A X) = rmulv A (rc0 X). Proof. unfold rc0, rmulv. simpl. repeat (f_equal; try ring). Qed.
Lemma rmulv_rc1 A X : rc1 (rmul A X) = rmulv A (rc1 X). Proof. unfold rc1, rmulv. simpl. repeat (f_equal; try ring). Qed.
Lemma rmulv_rc2 A X : rc2 (rmul A X) = rmulv A (rc2 X). Proof. unfold rc2, rmulv. simpl. repeat (f_equal; try ring). Qed.
Lemma rmulv_gsB A a b : rot A -> length a = 3%nat -> length b = 3%nat -> rmulv A (gsB a b) = gsB (rmulv A a) (rmulv A b).
Proof.
  intros H La Lb. unfold gsB. rewrite <- rmulv_normed, rot_dot, rmulv_rsub, rmulv_rscal by (rewrite ?rscal_length, ?normed_length; auto). reflexivity.
Qed.
Lemma rmulv_gsC A a b c : rot A -> length a = 3%nat -> length b = 3%nat -> length c = 3%nat ->
  rmulv A (gsC a b c) = gsC (rmulv A a) (rmulv A b) (rmulv A c).
Proof.
  intros H La Lb Lc. unfold gsC. cbv zeta. pose proof (gsB_length a b La Lb) as L1. pose proof (gsB_length a c La Lc) as L2.
  rewrite <- !rmulv_gsB, <- rmulv_normed, rot_dot, rmulv_rsub, rmulv_rscal by (rewrite ?rscal_length, ?normed_length; auto). reflexivity.
Qed.
Lemma gs_sym A X : rot A -> gs (rmul A X) = rmul A (gs X).
Proof.
  intros H. unfold gs. pose proof (gsB_length (rc0 X) (rc1 X) eq_refl eq_refl) as L1.
  assert (L2 : length (gsC (rc0 X) (rc1 X) (rc2 X)) = 3%nat).
  { unfold gsC. rewrite rsub_length; rewrite ?rscal_length, ?normed_length; rewrite ?gsB_length; auto. }
  rewrite rmul_cols by (rewrite normed_length; auto). rewrite !rmulv_normed, !rmulv_gsB, !rmulv_gsC by auto.
  rewrite rmulv_rc0, rmulv_rc1, rmulv_rc2. reflexivity.
Qed.
Lemma forceM_sym h l a b g o o' x y : let s := Leaf h l a b in leaf_wf h l a b -> sym_ok s g ->
  length o = representationDim s -> length o' = representationDim s -> length x = representationDim s ->
  forceOnM s o (fin x) = Ok (fin y) -> forceOnM s o' (fin (move s g x)) = Ok (fin (move s g y)).
Proof.
  intros s W G Lo Lo' Lx E. pose proof (move_length h l a b g x W G Lx) as Lm. unfold s, representationDim, tangentDim in *. cbn [hdr_of] in *.
  destruct l as [| |[|]], g; cbn [sym_ok] in G; try contradiction;
    [destruct W as [W1 W2]|destruct W as (W1 & W2 & W3 & _)..];
    cbn [forceOnM] in *; unfold representationDim, tangentDim in *; cbn [hdr_of] in *;
    rewrite !check_eq in E by (rewrite ?fin_length; lia); rewrite !check_eq by (rewrite ?fin_length; lia); cbn [bind] in *; rewrite ?W3 in *.
  - cbn [move] in *. rewrite assign_same in E by (rewrite fin_length; lia). apply ok_eq, fin_inj in E. subst y. apply assign_same. rewrite fin_length; lia.
  - cbn [move]. destruct (s2_force_fin o x Lo Lx) as [F1 F2]. destruct (s2_force_fin o' (rmulv A x) Lo' eq_refl) as [F1' F2'].
    destruct (Rlt_dec 0 (rdot x x)) as [P|P].
    + rewrite F1 in E by auto. apply ok_eq, fin_inj in E. subst y. rewrite F1' by (rewrite rot_dot; auto). rewrite rmulv_normed by auto. reflexivity.
    + exfalso. assert (Z : rdot x x = 0) by (pose proof (rdot_self_nonneg x); lra). rewrite F2 in E by auto. inversion E as [E']. destruct y; discriminate.
  - destruct (flat9_surj x Lx) as [X ->]. rewrite move_mat in *. destruct (em_force_fin o X Lo) as [F1 F2].
    destruct (em_force_fin o' (rmul A X) Lo') as [F1' F2'].
    assert (AR : almost_rot X <-> almost_rot (rmul A X)). { unfold almost_rot. rewrite gram_inv, rdet_mul, (proj2 G), Rmult_1_l by auto. reflexivity. }
    assert (Q : almost_rot X). { destruct (Rlt_dec 0 1) as [_|]; [|lra]. destruct (Classical_Prop.classic (almost_rot X)) as [Q|Q]; auto. rewrite F2 in E by auto. discriminate. }
    rewrite F1 in E by auto. apply ok_eq, fin_inj in E. subst y. rewrite F1', move_mat, gs_sym by (auto; apply AR; auto). reflexivity.
  - destruct (qflat_surj x Lx) as [X ->]. rewrite move_quat in *. destruct (eq_force_fin o X Lo) as [F1 F2].
    destruct (eq_force_fin o' (qprod q X) Lo') as [F1' F2'].
    destruct (Rlt_dec 0 (qn2 X)) as [P|P].
    + rewrite F1 in E by auto. apply ok_eq, fin_inj in E. subst y. rewrite F1' by (rewrite qn2_mul, G; lra).
      unfold normed, rnorm. rewrite <- !qn2_dot, qn2_mul, G, Rmult_1_l. set (t := / sqrt (qn2 X)). clearbody t. destruct X as [X0 X1 X2 X3].
      apply f_equal. apply f_equal. unfold rscal. cbn [map qflat move qw qx qy qz qprod]. unfold qflat, qprod. cbn [qw qx qy qz]. repeat (apply f_equal2; [ring|]). reflexivity.
    + exfalso. assert (Z : qn2 X = 0). { rewrite qn2_dot in *. pose proof (rdot_self_nonneg (qflat X)). lra. } rewrite F2 in E by auto. inversion E as [E']. destruct y; discriminate.
Qed.
Lemma on_sym h l a b g x : let s := Leaf h l a b in leaf_wf h l a b -> sym_ok s g -> on_leaf s x -> on_leaf s (move s g x).
Proof.
  intros s W G O. unfold s in *. destruct l as [| |[|]], g; cbn [sym_ok] in G; try contradiction; cbn [on_leaf] in *.
  - cbn [move]. rewrite radd_length; lia.
  - cbn [move]. destruct O as [L U]. split; [reflexivity|]. rewrite rot_dot; auto.
  - destruct O as (X & -> & R1). rewrite move_mat. exists (rmul A X). split; auto. apply rot_mul; auto.
  - destruct O as (X & -> & R1). rewrite move_quat. exists (qprod q X). split; auto. rewrite qn2_mul, G, R1. ring.
Qed.
Lemma tan_sym h l a b g x v : let s := Leaf h l a b in leaf_wf h l a b -> sym_ok s g -> on_leaf s x -> tan_leaf s x v ->
  tan_leaf s (move s g x) (push s g v).
Proof.
  intros s W G O T. unfold s in *. destruct l as [| |[|]], g; cbn [sym_ok] in G; try contradiction; cbn [push]; unfold tan_leaf in *; auto.
  cbn [move on_leaf] in *. destruct W as (_ & W2 & _). unfold tangentDim in *. cbn [hdr_of] in *. destruct T as [L U]. split; [rewrite W2; reflexivity|]. rewrite rot_dot; auto; [tauto|lia].
Qed.
