(** C49: staying on the manifold in IEEE-754 double arithmetic (rounding to nearest, ties to even).  The
    arithmetic is Flocq's binary64; cos and sin of the C library are a parameter, assumed accurate. *)
From Coq Require Import Reals List Lra Lia ZArith Bool Arith Psatz.
From Flocq Require Import Core BinarySingleNaN.
From Verif Require Import Base Scalar Vec Model_Real Model_S2 Model_SO3 Model_Manifold Spec Layout Comp Indep Flat Points
  XR SpecR RotR NumVec NumTree Drift F64 F64Err F64Norm F64S2 F64Exp F64Quat F64Mat F64Mat2 F64Tree F64Go ExScalar.
Import ListNotations.
Local Open Scope R_scope.

(** Point::increment (Point.cpp:116-120), repeated, in doubles. *)
Fixpoint increments64 (L : libm) (m : mfd f64) (x : list f64) (vs : list (list f64)) : res (list f64) :=
  match vs with
  | [] => Ok x
  | v :: vs' => y <- retractation (SK:=F64 L) m x x v ;; increments64 L m y vs'
  end.

(** Exact distance of the real numbers held by the doubles to the manifold; no infinity, no NaN.  R^n has no
    constraint. *)
Definition defect64 (d : R) (s : mfd f64) (x : list f64) : Prop :=
  match s with
  | Leaf h LReal _ _ => length x = h_dim h
  | Leaf _ LS2 _ _ => length x = 3%nat /\ Forall isf x /\ Rabs (rdot (vals x) (vals x) - 1) <= d
  | Leaf _ (LSO3 MapMatrix) _ _ => Forall isf x /\ exists A, vals x = flat9 A /\ near_rot d A
  | Leaf _ (LSO3 MapQuat) _ _ => Forall isf x /\ exists q, vals x = qflat q /\ Rabs (qn2 q - 1) <= d
  | Prod _ _ _ _ => False
  end.
Definition defect64M (d : R) (m : mfd f64) (x : list f64) : Prop := exists xs, x = concat xs /\ Forall2 (defect64 d) (leaves m) xs.

(** Tangent vectors of the right sizes, entries of the S2 slices below 2^400. *)
Definition tangent64 (m : mfd f64) (v : list f64) : Prop :=
  exists vs, v = concat vs /\ Forall2 (fun s w => length w = tangentDim s /\ mild s w) (leaves m) vs.

Lemma defect_stray d s x : 0 <= d -> defect64 d s x -> fstray (3 * d) s x.
Proof.
  intros D0. destruct s as [h [| |[|]] a b|]; cbn [defect64 fstray]; auto.
  - intros (L3 & F & H). destruct (vec3 x L3) as (p & q & r & ->). inversion F as [|? ? F0 F']; subst. inversion F' as [|? ? F1 F'']; subst. inversion F'' as [|? ? F2 _]; subst.
    exists p, q, r. repeat split; auto. replace (sq3 (val p) (val q) (val r)) with (rdot (vals [p; q; r]) (vals [p; q; r])) by (unfold sq3; cbn [map rdot]; ring). lra.
  - intros (F & A & E & H). apply near_stretch in H. assert (L9 : length x = 9%nat) by (transitivity (length (vals x)); [symmetry; apply map_length|rewrite E; reflexivity]).
    destruct x as [|x0 [|x1 [|x2 [|x3 [|x4 [|x5 [|x6 [|x7 [|x8 [|]]]]]]]]]]; try discriminate L9. exists (M3 x0 x3 x6 x1 x4 x7 x2 x5 x8). split; [reflexivity|].
    repeat match goal with F : Forall isf (_ :: _) |- _ => let G := fresh in let F' := fresh in inversion F as [|? ? G F']; subst; clear F end. split.
    + unfold mfin. cbn [a00 a01 a02 a10 a11 a12 a20 a21 a22]. tauto.
    + destruct A as [m0 m1 m2 m3 m4 m5 m6 m7 m8]. unfold flat9 in E. cbn [map] in E. cbn [a00 a01 a02 a10 a11 a12 a20 a21 a22] in E. inversion E. subst. exact H.
  - intros (F & q & E & H). assert (L4 : length x = 4%nat) by (transitivity (length (vals x)); [symmetry; apply map_length|rewrite E; reflexivity]).
    destruct x as [|x0 [|x1 [|x2 [|x3 [|]]]]]; try discriminate L4. exists (Q4 x0 x1 x2 x3). split; [reflexivity|].
    repeat match goal with F : Forall isf (_ :: _) |- _ => let G := fresh in let F' := fresh in inversion F as [|? ? G F']; subst; clear F end. split.
    + repeat split; assumption.
    + destruct q as [q0 q1 q2 q3]. unfold qflat in E. cbn [map] in E. cbn [qw qx qy qz] in E. inversion E. subst. unfold qval. cbn [qw qx qy qz]. lra.
Qed.
Lemma stray_defect d s x : fstray d s x -> defect64 d s x.
Proof.
  destruct s as [h [| |[|]] a b|]; cbn [defect64 fstray]; auto.
  - intros (p & q & r & -> & F0 & F1 & F2 & H). split; [reflexivity|]. split; [auto|].
    replace (rdot (vals [p; q; r]) (vals [p; q; r])) with (sq3 (val p) (val q) (val r)) by (unfold sq3; cbn [map rdot]; ring). exact H.
  - intros (X & -> & (F00 & F01 & F02 & F10 & F11 & F12 & F20 & F21 & F22) & S). split; [unfold m3_to_list; repeat (apply Forall_cons; [assumption|]); apply Forall_nil|].
    exists (mval X). split; [reflexivity|]. apply stretch_near, S.
  - intros (q & -> & (F0 & F1 & F2 & F3) & H). split; [repeat (apply Forall_cons; [assumption|]); apply Forall_nil|]. exists (qval q). split; [reflexivity|exact H].
Qed.
Lemma increments_stray L (m : mfd f64) : accurate L -> wf m -> forall vs d xs r, Forall2 (fstray d) (leaves m) xs -> 0 <= d -> d + 1240 * INR (length vs) * u <= 1 / 1000 ->
  Forall (tangent64 m) vs -> increments64 L m (concat xs) vs = Ok r -> exists ys, r = concat ys /\ Forall2 (fstray (d + 1240 * INR (length vs) * u)) (leaves m) ys.
Proof.
  intros HL W. pose proof u_pos as U. induction vs as [|v vs IH]; intros d xs r Hx D0 Hd Hv H.
  - cbn [increments64] in H. apply ok_eq in H. subst r. exists xs. split; auto. cbn [List.length INR]. replace (d + 1240 * 0 * u) with d by ring. exact Hx.
  - inversion Hv as [|? ? (ws & -> & Hw) Hv']; subst. cbn [increments64] in H. destruct (retractation _ _ _ _) as [y'|] eqn:E; [|discriminate]. cbn [bind] in H.
    change (length (concat ws :: vs)) with (S (length vs)) in *. rewrite S_INR in Hd |- *. pose proof (pos_INR (length vs)) as P.
    assert (N : 0 <= INR (length vs) * u) by (apply Rmult_le_pos; lra).
    assert (Pv : pieces DT (leaves m) ws) by (clear - Hw; induction Hw; constructor; tauto).
    assert (Hm : Forall2 mild (leaves m) ws) by (clear - Hw; induction Hw; constructor; tauto).
    pose proof (pieces_total DR m xs W (fstray_pieces _ _ _ W Hx)) as Lx.
    destruct (tree_step64 L HL m d xs ws _ y' W ltac:(lra) Hx Pv Hm Lx E) as (ys & -> & Fy & _).
    destruct (IH (d + 1240 * u) ys r Fy ltac:(lra) ltac:(lra) Hv' H) as (zs & -> & Fz). exists zs. split; auto.
    replace (d + 1240 * (INR (length vs) + 1) * u) with (d + 1240 * u + 1240 * INR (length vs) * u) by ring. exact Fz.
Qed.

(** Whatever the doubles, after k increments that all returned, every S2 and SO3 slice is finite and its
    distance to the manifold is below 3 d + 1240 k 2^-53, [d] the distance at the start, while this stays
    below 1e-3; and isInM, computed in doubles, accepts the point while it stays below 9.9e-9 (71000
    increments from an exact point), for every precision from 0.995e-8 on.  Every tree, no bound on k. *)
Theorem C49_drift : forall L (m : mfd f64) (x : list f64) (vs : list (list f64)) (r : list f64) (d : R), accurate L -> built m ->
  0 <= d -> defect64M d m x -> Forall (tangent64 m) vs -> increments64 L m x vs = Ok r ->
  let e := 3 * d + 1240 * INR (length vs) * / 2 ^ 53 in
  e <= 1 / 1000 -> defect64M e m r /\
    (e <= 99 / 10 ^ 10 -> forall prec, isf prec -> 995 / 10 ^ 11 <= val prec -> isInM (SK:=F64 L) m r prec = Ok true).
Proof.
  intros L m x vs r d HL B D0 (xs & -> & Hx) Hv H e He. apply built_wf in B. assert (EU : / 2 ^ 53 = u) by (rewrite u_val; cbn [pow]; lra). unfold e in *. rewrite EU in *. clear e EU.
  destruct (increments_stray L m HL B vs (3 * d) xs r) as (ys & -> & Fy); auto; [|lra|].
  { clear - Hx D0. induction Hx; constructor; auto using defect_stray. }
  split.
  - exists ys. split; auto. clear - Fy. induction Fy; constructor; auto using stray_defect.
  - intros H9 prec Fp Hp. apply (isInM64 L m (3 * d + 1240 * INR (length vs) * u)); auto. split; [|exact H9].
    pose proof (pos_INR (length vs)). pose proof u_pos. assert (0 <= INR (length vs) * u) by (apply Rmult_le_pos; lra). lra.
Qed.
Print Assumptions C49_drift.

(** One retractation against the exact one: slice by slice, R^n sums are correctly rounded, S2 entries are
    within 8 * 2^-53 of the normalised sum, SO3 matrices within 124 * 2^-53 of X exp(v), quaternions within
    82 * 2^-53 of q exp(v). *)
Theorem C49_accuracy : forall L (m : mfd f64) xs vs out y d, accurate L -> built m -> 0 <= d <= 1 / 3000 ->
  Forall2 (defect64 d) (leaves m) xs -> Forall2 (fun s w => length w = tangentDim s /\ mild s w) (leaves m) vs -> length out = representationDim m ->
  retractation (SK:=F64 L) m out (concat xs) (concat vs) = Ok y ->
  exists ys, y = concat ys /\ Forall4 (fun s x v y =>
    match s with
    | Leaf _ LReal _ _ => Forall3 (fun a b c => isf a -> isf b -> Rabs (val a + val b) <= bpow radix2 1000 ->
        isf c /\ val c = round radix2 (FLT_exp (-1074) 53) ZnearestE (val a + val b)) x v y
    | Leaf _ LS2 _ _ => let w := radd (vals x) (vals v) in near_v (8 * / 2 ^ 53) (vals y) (rscal (/ rnorm w) w)
    | Leaf _ (LSO3 MapMatrix) _ _ => exists A, vals x = flat9 A /\ near_v (124 * / 2 ^ 53) (vals y) (flat9 (rmul A (expSO3 (vals v))))
    | Leaf _ (LSO3 MapQuat) _ _ => exists q, vals x = qflat q /\ near_v (82 * / 2 ^ 53) (vals y) (qflat (qprod q (expQ (vals v))))
    | Prod _ _ _ _ => False
    end) (leaves m) xs vs ys.
Proof.
  intros L m xs vs out y d HL B D0 Hx Hv Lo H. apply built_wf in B. assert (EU : / 2 ^ 53 = u) by (rewrite u_val; cbn [pow]; lra). rewrite EU.
  assert (Pv : pieces DT (leaves m) vs) by (clear - Hv; induction Hv; constructor; tauto).
  assert (Hm : Forall2 mild (leaves m) vs) by (clear - Hv; induction Hv; constructor; tauto).
  destruct (tree_step64 L HL m (3 * d) xs vs out y B) as (ys & -> & _ & F); auto; [lra| |].
  { clear - Hx D0. induction Hx; constructor; auto. apply defect_stray; auto; lra. }
  exists ys. split; auto.
Qed.
Print Assumptions C49_accuracy.

(** Without S2, increments whose SO3 slices are finite and not longer than 3.14 never stop the program,
    however many: the bound M_PI is never reached by rounding. *)
Theorem C49_never_stops : forall L (m : mfd f64) x vs, built m -> length x = representationDim m ->
  Forall (fun v => exists ws, v = concat ws /\ Forall2 (fun s w => length w = tangentDim s /\
     match s with Leaf _ LS2 _ _ => False | Leaf _ (LSO3 _) _ _ => Forall isf w /\ rnorm (vals w) <= 314 / 100 | _ => True end) (leaves m) ws) vs ->
  exists r, increments64 L m x vs = Ok r.
Proof.
  intros L m x vs B Lx Hv. apply built_wf in B. revert x Lx. induction Hv as [|v vs (ws & -> & Hw) Hv IH]; intros x Lx; [eexists; reflexivity|]. cbn [increments64].
  destruct (cut_gen DR m x B Lx) as (xs & -> & Px).
  assert (Pv : pieces DT (leaves m) ws) by (clear - Hw; induction Hw; constructor; tauto).
  assert (Hs : Forall2 short (leaves m) ws).
  { pose proof (fun s => leaf_inv_gen m s B) as G. clear - Hw G. induction Hw as [|s w ls ws Hw1 Hw IH]; constructor; [|apply IH; intros; apply G; simpl; auto].
    destruct (G s) as (h & l & a & b & -> & _); [simpl; auto|]. destruct l; cbn [short]; tauto. }
  destruct (tree_go L m xs ws xs B Px Pv Px Hs) as (ys & E & F). change (SKg L) with (F64 L) in E, F. rewrite E. cbn [bind]. apply IH.
  assert (Py : pieces DR (leaves m) ys).
  { assert (Q : forall ls os xs vs ys, Forall5 (fun s o x v y => retractation (SK:=F64 L) s o x v = Ok y) ls os xs vs ys -> pieces DR ls os -> pieces DR ls ys); [|eauto].
    clear. induction 1 as [|s o x v y ls os xs vs ys H F IH]; intros P; inversion P; subst; constructor; [|apply IH; assumption].
    etransitivity; [apply (retractation_length (SK:=F64 L) s o x v y H)|assumption]. }
  apply (pieces_total DR m ys B Py).
Qed.
Print Assumptions C49_never_stops.

(** ** Examples *)
Section Ex.
Variable L : libm.
#[local] Instance SKx : Scalar f64 := F64 L.
Definition fR2 : mfd f64 := get prod_empty (mk_real 2).
Definition fS2 : mfd f64 := get prod_empty mk_s2.
Definition fM : mfd f64 := get prod_empty (mk_so3 MapMatrix).
Definition fQ : mfd f64 := get prod_empty (mk_so3 MapQuat).
Definition fP : mfd f64 := get prod_empty (prod2 (get prod_empty (prod2 fR2 fM)) fQ).
Definition fi (l : list Z) : list f64 := map of_Z l.
Lemma fS2_built : built fS2. Proof. apply (built_s2 [kpi; kpi; kpi]). reflexivity. Qed.
Lemma prod2_built64 (a b p : mfd f64) : built a -> built b -> prod2 a b = Ok p -> built p.
Proof.
  intros Ha Hb Hp. unfold prod2 in Hp.
  destruct (multiply prod_empty a) as [p1|] eqn:E1; [|discriminate]. cbn [bind] in Hp.
  destruct (multiply p1 b) as [p2|] eqn:E2; [|discriminate]. cbn [bind] in Hp.
  inversion Hp; subst. apply built_name. apply (built_mult p1 b); auto.
  apply (built_mult prod_empty a); auto. apply built_empty.
Qed.
Lemma fP_built : built fP.
Proof.
  apply (prod2_built64 (get prod_empty (prod2 fR2 fM)) fQ).
  - apply (prod2_built64 fR2 fM); [apply (built_real_mag 2 k1); reflexivity|apply (built_so3 MapMatrix [kpi; kpi; kpi]); reflexivity|reflexivity].
  - apply (built_so3 MapQuat [kpi; kpi; kpi]); reflexivity.
  - reflexivity.
Qed.
End Ex.
Lemma vals_fi l : Forall (fun z => (Z.abs z < 2 ^ 53)%Z) l -> Forall isf (fi l) /\ vals (fi l) = map IZR l.
Proof.
  induction 1 as [|z l H F [IH1 IH2]]; [split; [constructor|reflexivity]|]. destruct (of_Z_ok z) as [Fz Vz]. { exact H. }
  cbn [fi map]. split; [constructor; auto|]. f_equal; auto.
Qed.

(** Any number of increments of ((R^2 x SO3 matrix) x SO3 quaternion) from a quarter turn and a half turn. *)
Definition fPx : list f64 := fi [3; 4]%Z ++ fi [0; 1; 0; -1; 0; 0; 0; 0; 1]%Z ++ fi [0; 0; 1; 0]%Z.
Definition fPv : list f64 := fi [1; -1]%Z ++ fi [1; 0; 0]%Z ++ fi [2; 0; 0]%Z.
Example C49_example : forall k, exists r, increments64 libm_exact (fP libm_exact) fPx (repeat fPv k) = Ok r /\
  (1240 * INR k * / 2 ^ 53 <= 1 / 1000 -> defect64M (3 * 0 + 1240 * INR k * / 2 ^ 53) (fP libm_exact) r).
Proof.
  intros k. pose proof (fP_built libm_exact) as B.
  assert (X : defect64M 0 (fP libm_exact) fPx).
  { exists [fi [3; 4]%Z; fi [0; 1; 0; -1; 0; 0; 0; 0; 1]%Z; fi [0; 0; 1; 0]%Z]. split; [unfold fPx; cbn [concat]; rewrite app_nil_r; reflexivity|].
    apply Forall2_cons; [reflexivity|]. apply Forall2_cons; [|apply Forall2_cons; [|apply Forall2_nil]].
    - destruct (vals_fi [0; 1; 0; -1; 0; 0; 0; 0; 1]%Z) as [F V]; [repeat constructor; lia|]. split; [exact F|]. exists (M3 0 (-1) 0 1 0 0 0 0 1). split; [exact V|].
      unfold near_rot, rdet. cbn [rmul rtr a00 a01 a02 a10 a11 a12 a20 a21 a22]. repeat split; apply Rabs_le; lra.
    - destruct (vals_fi [0; 0; 1; 0]%Z) as [F V]; [repeat constructor; lia|]. split; [exact F|]. exists (Q4 0 0 1 0). split; [exact V|]. unfold qn2. cbn [qw qx qy qz]. apply Rabs_le. lra. }
  assert (V2 : vals (fi [2; 0; 0]%Z) = [2; 0; 0] /\ vals (fi [1; 0; 0]%Z) = [1; 0; 0] /\ Forall isf (fi [2; 0; 0]%Z) /\ Forall isf (fi [1; 0; 0]%Z)).
  { destruct (vals_fi [2; 0; 0]%Z) as [F V]; [repeat constructor; lia|]. destruct (vals_fi [1; 0; 0]%Z) as [F' V']; [repeat constructor; lia|]. auto. }
  destruct V2 as (V2 & V1 & F2 & F1).
  assert (N : forall a, 0 <= a -> rnorm [a; 0; 0] = a). { intros a H. unfold rnorm. replace (rdot _ _) with (a * a) by (simpl; ring). apply sqrt_square. auto. }
  destruct (C49_never_stops libm_exact (fP libm_exact) fPx (repeat fPv k) B eq_refl) as [r Hr].
  { apply Forall_forall. intros v Hv. apply repeat_spec in Hv. subst v. exists [fi [1; -1]%Z; fi [1; 0; 0]%Z; fi [2; 0; 0]%Z]. split; [unfold fPv; cbn [concat]; rewrite app_nil_r; reflexivity|].
    apply Forall2_cons; [split; [reflexivity|exact I]|]. apply Forall2_cons; [|apply Forall2_cons; [|apply Forall2_nil]]; (split; [reflexivity|]).
    - split; [exact F1|]. rewrite V1, N by lra. lra.
    - split; [exact F2|]. rewrite V2, N by lra. lra. }
  exists r. split; [exact Hr|]. intros Hk.
  destruct (C49_drift libm_exact (fP libm_exact) fPx (repeat fPv k) r 0 libm_exact_ok B ltac:(lra) X) as [D _]; auto.
  - apply Forall_forall. intros v Hv. apply repeat_spec in Hv. subst v. exists [fi [1; -1]%Z; fi [1; 0; 0]%Z; fi [2; 0; 0]%Z]. split; [unfold fPv; cbn [concat]; rewrite app_nil_r; reflexivity|].
    apply Forall2_cons; [split; [reflexivity|exact I]|]. apply Forall2_cons; [|apply Forall2_cons; [|apply Forall2_nil]]; (split; [reflexivity|exact I]).
  - rewrite repeat_length. lra.
  - rewrite repeat_length in D. exact D.
Qed.

(** ** What is lost *)
Lemma s2_red L h a b o x v : leaf_wf (K:=f64) h LS2 a b -> length o = 3%nat -> length x = 3%nat -> length v = 3%nat -> s2_isInTxM (SK:=F64 L) x v (lit8 L) = true ->
  retractation (SK:=F64 L) (Leaf h LS2 a b) o x v = s2_retractation (SK:=F64 L) o x v.
Proof.
  intros (W1 & W2 & W3 & _) Lo Lx Lv H. cbn [retractation isInTxM]. unfold representationDim, tangentDim. cbn [hdr_of]. rewrite !check_eq by lia. cbn [bind].
  change (default_prec (SK:=F64 L)) with (lit8 L). rewrite H. reflexivity.
Qed.
(** 2^e. *)
Definition p2 (e : Z) : f64 := binary_normalize 53 1024 _ _ mode_NE 1 e false.
Lemma ok_eq3 (a b c a' b' c' : f64) : a = a' -> b = b' -> c = c' -> Ok [a; b; c] = Ok [a'; b'; c'].
Proof. intros -> -> ->. reflexivity. Qed.
Lemma overflow L h a b : leaf_wf (K:=f64) h LS2 a b -> let x := fi [1; 0; 0]%Z in let v := [of_Z 0; p2 600; of_Z 0] in
 exists y, retractation (SK:=F64 L) (Leaf h LS2 a b) x x v = Ok y /\ isInM (SK:=F64 L) (Leaf h LS2 a b) y (lit8 L) = Ok false /\
   map (B2SF (prec:=53) (emax:=1024)) y = repeat (SpecFloat.S754_zero false) 3.
Proof.
  intros W x v. assert (T : s2_isInTxM (SK:=F64 L) x v (lit8 L) = true).
  { unfold s2_isInTxM, x, v, fi. cbn [map dot map2 ksum kabs kltb kmul F64]. apply (sum3_ind L (fun s => Bltb (Babs s) (lit8 L) = true)); vm_compute; reflexivity. }
  rewrite s2_red by auto. set (z := B754_zero false : f64).
  assert (N : sum3 L ((of_Z 1 +! of_Z 0) *! (of_Z 1 +! of_Z 0)) ((of_Z 0 +! p2 600) *! (of_Z 0 +! p2 600)) ((of_Z 0 +! of_Z 0) *! (of_Z 0 +! of_Z 0)) = B754_infinity false)
    by (apply (sum3_ind L (fun s => s = B754_infinity false)); apply B2SF_inj; vm_compute; reflexivity).
  exists [z; z; z]. split; [|split; [|reflexivity]].
  - unfold s2_retractation, x, v, fi. cbn [map same_size List.length Nat.eqb eigen_assert bind vadd map2 as_vec3 kadd F64]. unfold vdivs, norm, sqnorm. cbn [map dot map2 ksum kmul kdiv ksqrt F64]. rewrite N.
    unfold assign. cbn [List.length Nat.eqb eigen_assert bind]. apply ok_eq3; apply B2SF_inj; vm_compute; reflexivity.
  - cbn [isInM]. unfold representationDim. cbn [hdr_of]. rewrite check_eq by (destruct W as (_ & _ & W & _); rewrite W; reflexivity).
    cbn [bind]. f_equal. unfold s2_isInM, norm, sqnorm. cbn [dot map2 ksum kabs kltb kmul ksub ksqrt k1 F64].
    apply (sum3_ind L (fun s => Bltb (Babs (Bsqrt mode_NE s -! of_Z 1)) (lit8 L) = false)); vm_compute; reflexivity.
Qed.
Lemma p2_ok e : (-1074 <= e <= 1000)%Z -> isf (p2 e) /\ val (p2 e) = bpow radix2 e.
Proof.
  intros H. unfold p2. pose proof (binary_normalize_correct 53 1024 _ _ mode_NE 1 e false) as C. cbv zeta in C.
  assert (E : F2R (Float radix2 1 e) = bpow radix2 e) by (unfold F2R; cbn [Fnum Fexp]; ring). rewrite E in C.
  change (SpecFloat.fexp 53 1024) with (FLT_exp (-1074) 53) in C.
  rewrite round_generic in C; [|apply valid_rnd_N|apply generic_format_FLT_bpow; [exact eq_refl|lia]].
  rewrite Rlt_bool_true in C by (rewrite Rabs_pos_eq by apply bpow_ge_0; apply bpow_lt; lia). destruct C as (C1 & C2 & _). auto.
Qed.

(** The bound on S2 slices is needed: (0, 2^600, 0) is a finite tangent vector at (1, 0, 0), exactly orthogonal,
    and passes the check; the norm overflows, the result is the null vector, which is not on the sphere. *)
Theorem C49_sphere_refuted : forall L, exists (m : mfd f64) x v y, built m /\ defect64M 0 m x /\ length v = tangentDim m /\ Forall isf v /\
  rdot (vals x) (vals v) = 0 /\ retractation (SK:=F64 L) m x x v = Ok y /\ isInM (SK:=F64 L) m y (default_prec (SK:=F64 L)) = Ok false /\ vals y = [0; 0; 0].
Proof.
  intros L. destruct (vals_fi [1; 0; 0]%Z) as [FX VX]; [repeat constructor; lia|].
  assert (E : exists h a b, fS2 L = Leaf h LS2 a b) by (eexists _, _, _; reflexivity). destruct E as (h & a & b & E).
  pose proof (fS2_built L) as B. rewrite E in B. pose proof (built_wf _ B) as W. inversion W as [? ? ? ? W'|]; subst.
  destruct (overflow L h a b W') as (y & R & I & Z). destruct (p2_ok 600 ltac:(lia)) as [F6 V6]. destruct (of_Z_ok 0 eq_refl) as [F0 V0].
  exists (Leaf h LS2 a b), (fi [1; 0; 0]%Z), [of_Z 0; p2 600; of_Z 0], y. split; [exact B|]. split.
  { exists [fi [1; 0; 0]%Z]. split; [reflexivity|]. cbn [leaves]. apply Forall2_cons; [|apply Forall2_nil]. split; [reflexivity|]. split; [exact FX|].
    rewrite VX. cbn [map rdot]. apply Rabs_le. lra. }
  split; [destruct W' as (_ & W2 & _); unfold tangentDim; cbn [hdr_of]; rewrite W2; reflexivity|]. split; [auto|]. split; [rewrite VX; cbn [map rdot]; rewrite V0; ring|].
  split; [exact R|]. split; [exact I|].
  destruct y as [|y0 [|y1 [|y2 [|]]]]; try discriminate Z. cbn [map repeat] in Z. inversion Z as [[Z0 Z1 Z2]]. cbn [map].
  assert (Q : forall y, B2SF (prec:=53) (emax:=1024) y = SpecFloat.S754_zero false -> val y = 0) by (intros [s|s| |s m e Hb] H; try discriminate H; reflexivity).
  rewrite (Q y0), (Q y1), (Q y2) by congruence. reflexivity.
Qed.
Print Assumptions C49_sphere_refuted.

(** On R, retracting then taking the logarithm does not give the tangent vector back: from 2^53, adding 1 is lost. *)
Theorem C49_round_trip_refuted : forall L, exists (m : mfd f64) x v y w, built m /\ defect64M 0 m x /\ length v = tangentDim m /\ Forall isf x /\ Forall isf v /\
  retractation (SK:=F64 L) m x x v = Ok y /\ pseudoLog (SK:=F64 L) m v x y = Ok w /\ vals v = [1] /\ vals w = [0].
Proof.
  intros L. destruct (p2_ok 53 ltac:(lia)) as [F6 V6]. destruct (of_Z_ok 1 eq_refl) as [F1 V1].
  exists (get prod_empty (mk_real (SK:=F64 L) 1)), [p2 53], [of_Z 1]. eexists _, _. split; [apply (built_real_mag 1 (of_Z 1)); reflexivity|].
  split; [exists [[p2 53]]; split; [reflexivity|]; apply Forall2_cons; [reflexivity|apply Forall2_nil]|]. split; [reflexivity|]. split; [auto|]. split; [auto|].
  split; [reflexivity|]. split; [reflexivity|]. split; [cbn [map]; rewrite V1; reflexivity|].
  match goal with |- vals ?w = _ => assert (Z : map (B2SF (prec:=53) (emax:=1024)) w = [SpecFloat.S754_zero false]) by (vm_compute; reflexivity) end.
  match type of Z with map _ ?a = _ => generalize dependent a end. intros [|z [|]] Z; try discriminate Z. cbn [map] in *. injection Z as Z0.
  destruct z as [s|s| |s m e Hb]; try discriminate Z0; reflexivity.
Qed.
Print Assumptions C49_round_trip_refuted.
