(** C11, C23 to C26: isInM, zero, forceOnM, limitMap.  Exact real arithmetic unless a scalar is quantified. *)
From Coq Require Import Reals List Lra Lia ZArith Bool Arith Psatz Classical.
From Verif Require Import Base Scalar Vec Model_Real Model_S2 Model_SO3 Model_Manifold Spec Layout Comp Indep Flat Structure
  XR SpecR RotR NumVec NumMat Angle NumQuat NumTree NumLeaf RotLog RoundTrip NumS2 NumExp NumLog Close Force Points
  ExScalar ExR Properties_SO3.
Import ListNotations.
Local Open Scope R_scope.

(** ** C11 *)
(** isInM on a product is the conjunction of the factors, at the default precision 1e-8 whatever the
    requested one (any arithmetic).  Missing from the stated property: the requested precision. *)
Theorem C11_product_partial : forall (K : Type) (SK : Scalar K) (P : mfd K) (fs : list (mfd K)) (xs : list (vec K)) (prec : K),
  factors P fs -> pieces DR fs xs ->
  (isInM P (concat xs) prec = Ok true <-> Forall2 (fun s x => isInM s x (klit 1 100000000) = Ok true) fs xs).
Proof.
  intros K SK P fs xs prec F Hp. destruct (factors_wf _ _ F) as (h & sT & sR & -> & W). apply isInM_prod; auto.
Qed.
Print Assumptions C11_product_partial.

(** S2 and quaternions compare | |x| - 1 | with the requested precision; R^n accepts every vector of its
    size; the matrix map compares with 1e-8 whatever the requested precision. *)
Theorem C11_elementary_partial : forall h l typ tru, let s := Leaf h l typ tru in built s ->
  forall (x : list R) (p : R), length x = representationDim s ->
  exists r, isInM s (fin x) (Fin p) = Ok r /\
  (r = true <->
   match l with
   | LReal => True
   | LS2 | LSO3 MapQuat => Rabs (rnorm x - 1) < p
   | LSO3 MapMatrix => exists A, x = flat9 A /\ em_accepts A
   end).
Proof.
  intros h l typ tru s B x p L. apply built_leaf_wf in B as W. unfold s, representationDim in *; cbn [hdr_of] in *.
  destruct l as [| |[|]]; pose proof W as W'; cbn [leaf_wf] in W'.
  - exists true. split; [apply real_isInM_fin; auto; rewrite fin_length; lia|tauto].
  - rewrite s2_isInM_fin by (auto; lia). eexists. split; [reflexivity|]. apply Rltb_true.
  - assert (L9 : length x = 9%nat) by lia. destruct (flat9_surj x L9) as [A ->].
    destruct (em_isInM_fin h typ tru A (Fin p) W) as (r & E & Hr). exists r. split; auto. rewrite Hr. split.
    + intros H. exists A. auto.
    + intros (B' & EB & H). apply flat9_inj in EB. subst. auto.
  - rewrite eq_isInM_fin by (auto; lia). eexists. split; [reflexivity|]. apply Rltb_true.
Qed.
Print Assumptions C11_elementary_partial.

Example C11_example : factors rS1 [rS2; rQ] /\
  pieces (K:=XR) DR [rS2; rQ] [fin [1 + 1 / 1000; 0; 0]; fin [1; 0; 0; 0]].
Proof.
  split; [|repeat constructor]. unfold rS1, prod2. cbn [bind multiply prod_empty]. 
  apply (factors_name (Prod _ _ _ [rS2; rQ])).
  apply (factors_mult (get prod_empty (multiply prod_empty rS2)) [rS2] rQ); [|apply rQ_built|reflexivity].
  apply (factors_mult prod_empty [] rS2); [constructor|apply rS2_built|reflexivity].
Qed.

Lemma rS1_ex (x : list R) p : length x = 3%nat ->
  (isInM rS1 (fin (x ++ [1; 0; 0; 0])) p = Ok true <-> Rabs (rnorm x - 1) < 1 / 100000000).
Proof.
  intros L. destruct C11_example as [F _]. rewrite fin_app.
  assert (E : fin x ++ fin [1; 0; 0; 0] = concat [fin x; fin [1; 0; 0; 0]]) by (cbn [concat]; rewrite app_nil_r; auto).
  rewrite E, (C11_product_partial _ _ _ _ _ p F).
  2:{ constructor; [rewrite fin_length; auto|]. repeat constructor. }
  destruct rS2_leaf as (h & a & b & Es & W), rQ_leaf as (h' & a' & b' & Eq & W').
  change (klit 1 100000000) with (Fin (1 / 100000000)).
  assert (Q : isInM rQ (fin [1; 0; 0; 0]) (Fin (1 / 100000000)) = Ok true).
  { rewrite Eq. apply (leaf_isInM h' (LSO3 MapQuat) a' b' [1;0;0;0]); auto; [|lra]. exists (Q4 1 0 0 0). split; auto. unfold qn2; cbn; ring. }
  assert (S : isInM rS2 (fin x) (Fin (1 / 100000000)) = Ok true <-> Rabs (rnorm x - 1) < 1 / 100000000).
  { rewrite Es, s2_isInM_fin by auto. rewrite <- Rltb_true. split; congruence. }
  split; intros H.
  - inversion H; subst. tauto.
  - constructor; [tauto|]. constructor; auto.
Qed.
(** Finding: a product refuses points its factors accept at the requested precision, and accepts points a
    factor refuses at the requested precision. *)
Theorem C11_product_precision_refuted :
  (exists (P a b : mfd XR) (x y : list XR) (p : R), factors P [a; b] /\ pieces DR [a; b] [x; y] /\ 0 < p /\
     isInM a x (Fin p) = Ok true /\ isInM b y (Fin p) = Ok true /\ isInM P (x ++ y) (Fin p) <> Ok true) /\
  (exists (P a b : mfd XR) (x y : list XR) (p : R), factors P [a; b] /\ pieces DR [a; b] [x; y] /\ 0 < p /\
     isInM a x (Fin p) = Ok false /\ isInM P (x ++ y) (Fin p) = Ok true).
Proof.
  destruct C11_example as [F _]. destruct rS2_leaf as (h & a & b & Es & W). destruct rQ_leaf as (h' & a' & b' & Eq & W').
  split.
  - exists rS1, rS2, rQ, (fin [1 + 1 / 1000; 0; 0]), (fin [1; 0; 0; 0]), (1 / 10).
    split; [exact F|]. split; [repeat constructor|]. split; [lra|].
    assert (N : rnorm [1 + 1 / 1000; 0; 0] = 1 + 1 / 1000) by (apply rnorm100; lra).
    split; [|split].
    + rewrite Es, s2_isInM_fin by auto. f_equal. apply Rltb_true. rewrite N, Rabs_pos_eq; lra.
    + rewrite Eq. apply (leaf_isInM h' (LSO3 MapQuat) a' b' [1;0;0;0]); auto; [|lra]. exists (Q4 1 0 0 0). split; auto. unfold qn2; cbn; ring.
    + rewrite <- fin_app, rS1_ex, N by auto. intros H. apply Rabs_def2 in H. lra.
  - exists rS1, rS2, rQ, (fin [1 + 1 / 10 ^ 9; 0; 0]), (fin [1; 0; 0; 0]), (1 / 10 ^ 12).
    split; [exact F|]. split; [repeat constructor|]. split; [lra|].
    assert (N : rnorm [1 + 1 / 10 ^ 9; 0; 0] = 1 + 1 / 10 ^ 9) by (apply rnorm100; lra).
    split.
    + rewrite Es, s2_isInM_fin by auto. f_equal. apply Rltb_false. rewrite N, Rabs_pos_eq; lra.
    + rewrite <- fin_app, rS1_ex, N by auto. rewrite Rabs_pos_eq; lra.
Qed.
Print Assumptions C11_product_precision_refuted.

(** Finding: the matrix map accepts a matrix 4e-9 away from orthogonal at precision 1e-12 and refuses one
    1e-3 away at precision 1/10. *)
Theorem C11_matrix_precision_refuted : exists (m : mfd XR) (A B : m3 R), built m /\
  m = rM /\ isInM m (fin (flat9 A)) (Fin (1 / 10 ^ 12)) = Ok true /\ 1 / 10 ^ 9 <= Rabs (rdet A - 1) /\
  isInM m (fin (flat9 B)) (Fin (1 / 10)) = Ok false /\ near_rot (1 / 500) B.
Proof.
  set (e := 1 / 10 ^ 9). set (A := M3 (1 + e) 0 0 0 1 0 0 0 1).
  set (f := 1 / 10 ^ 3). set (B := M3 1 f 0 0 1 0 0 0 1).
  assert (GA : rmul (rtr A) A = M3 ((1 + e) * (1 + e)) 0 0 0 1 0 0 0 1) by (unfold A; m3_eq; ring).
  assert (GB : rmul (rtr B) B = M3 1 f 0 f (1 + f * f) 0 0 0 1) by (unfold B; m3_eq; ring).
  assert (DA : rdet A = 1 + e) by (unfold A, rdet; cbn; ring).
  assert (DB : rdet B = 1) by (unfold B, rdet; cbn; ring).
  destruct rM_leaf as (h & a & b & E & W).
  exists rM, A, B. split; [apply rM_built|]. split; auto. rewrite E.
  assert (Z : 1 - 1 = 0) by ring.
  split; [|split; [|split]].
  - destruct (em_isInM_fin h a b A (Fin (1 / 10 ^ 12)) W) as (r & -> & Hr). f_equal. apply Hr.
    unfold em_accepts. cbv zeta. rewrite GA, DA. cbn [a00 a01 a02 a10 a11 a12 a20 a21 a22].
    repeat split; repeat (apply Forall_cons || apply Forall_nil); rewrite ?Z, ?Rabs_R0, ?Rabs_R1, ?(Rmin_left 1 1); try lra.
    + rewrite Rabs_pos_eq; unfold e; lra.
    + rewrite Rmin_right, Rabs_pos_eq; unfold e; try lra. rewrite Rabs_pos_eq; lra.
  - rewrite DA, Rabs_pos_eq; unfold e; lra.
  - destruct (em_isInM_fin h a b B (Fin (1 / 10)) W) as (r & -> & Hr). f_equal. destruct r; auto. exfalso.
    destruct (proj1 Hr eq_refl) as (_ & _ & H). rewrite GB in H. cbn [a00 a01 a02 a10 a11 a12 a20 a21 a22] in H.
    inversion H as [|? ? H1 _]; subst. apply Rabs_le_inv in H1. unfold f in H1. lra.
  - unfold near_rot. cbv zeta. rewrite GB, DB. cbn [a00 a01 a02 a10 a11 a12 a20 a21 a22].
    repeat split; apply Rabs_le; unfold f; lra.
Qed.
Print Assumptions C11_matrix_precision_refuted.

(** ** C23 *)
Theorem C23_zero_partial : forall m : mfd XR, built m ->
  (exists z, onM m z /\ (forall out, length out = representationDim m -> setZero m out = Ok (fin z)) /\
     (forall p, 0 < p -> isInM m (fin z) (Fin p) = Ok true) /\
     (no_s2 m -> forall o, length o = tangentDim m -> pseudoLog0 m o (fin z) = Ok (fin (repeat 0 (tangentDim m))))) /\
  (forall x, onM m x ->
     (forall out, length out = representationDim m ->
        retractation m out (fin x) (fin (repeat 0 (tangentDim m))) = Ok (fin x)) /\
     (no_s2 m -> forall o, length o = tangentDim m -> pseudoLog m o (fin x) (fin x) = Ok (fin (repeat 0 (tangentDim m))))).
Proof.
  intros m B. pose proof (built_wf _ B) as W. split.
  - destruct (zero_tree m B) as (z0 & Hz & Sz). pose proof (fun s => wf_leaf_inv m s W) as G.
    assert (Ez : z0 = concat (map zero_leaf (leaves m))).
    { apply fin_inj. assert (Q : setZero m (repeat (Fin 0) (representationDim m)) = Ok (fin (concat (map zero_leaf (leaves m))))).
      { rewrite fin_concat, map_map. apply (lift_op0 DR setZero setZero_prod); auto; [apply repeat_length|].
        clear - G. induction (leaves m) as [|s l IH]; simpl; constructor.
        - intros o Lo. destruct (G s) as (h & k & a & b & -> & Wl); [simpl; auto|]. apply leaf_zero; auto.
        - apply IH. intros. apply G. simpl. auto. }
      rewrite Sz in Q by apply repeat_length. congruence. }
    exists z0. split; auto. split; auto. split; [intros; apply on_isInM; auto|].
    intros N o Lo. rewrite Ez, zeros_leaves by auto. apply (lift_op1 DT DR pseudoLog0 pseudoLog0_prod); auto.
    pose proof (fun s => no_s2_in m s N) as N'. clear - G N'. induction (leaves m) as [|s l IH]; cbn [map]; constructor.
    + destruct (G s) as (h & k & a & b & -> & Wl); [simpl; auto|]. split.
      * apply (on_leaf_len h k a b); auto. apply leaf_zero_on.
      * intros. apply leaf_log0_zero; auto. apply N'. simpl; auto.
    + apply IH; intros; [apply G|apply N']; simpl; auto.
  - intros x (xs & -> & Hx). pose proof (fun s => wf_leaf_inv m s W) as G. split.
    + intros out Lo. rewrite zeros_leaves by auto. apply (lift_op2 DR DR DT retractation retractation_prod); auto.
      clear - G Hx. induction Hx as [|s x l xs H Hx IH]; cbn [map]; constructor.
      * destruct (G s) as (h & k & a & b & -> & Wl); [simpl; auto|]. split; [apply (on_leaf_len h k a b); auto|].
        split; [apply repeat_length|]. intros. apply leaf_retr0; auto.
      * apply IH. intros. apply G. simpl; auto.
    + intros N o Lo. rewrite zeros_leaves by auto. apply (lift_op2 DT DR DR pseudoLog pseudoLog_prod); auto.
      pose proof (fun s => no_s2_in m s N) as N'.
      clear - G N' Hx. induction Hx as [|s x l xs H Hx IH]; cbn [map]; constructor.
      * destruct (G s) as (h & k & a & b & -> & Wl); [simpl; auto|]. pose proof (on_leaf_len h k a b _ Wl H) as L.
        split; auto. split; auto. intros. apply leaf_log_self; auto. apply N'. simpl; auto.
      * apply IH; intros; [apply G|apply N']; simpl; auto.
Qed.
Print Assumptions C23_zero_partial.

(** Finding: on S2 pseudoLog0 always throws and pseudoLog(x, x) is 0/0 in every coordinate. *)
Theorem C23_s2_refuted : exists m : mfd XR, built m /\
  (forall o z, length o = 3%nat -> length z = 3%nat -> pseudoLog0 m o z = Fail EThrow) /\
  (forall o x, length o = 3%nat -> onM m x -> pseudoLog m o (fin x) (fin x) = Ok [Undef; Undef; Undef]).
Proof.
  exists rS2. split; [apply rS2_built|]. split.
  - intros o z Lo Lz. cbn. rewrite Lo, Lz. reflexivity.
  - intros o x Lo (xs & -> & H). inversion H as [|? x ? ? Hx Hn]; subst. inversion Hn; subst. cbn [concat]. rewrite app_nil_r.
    destruct Hx as [L U]. destruct rS2_leaf as (h & a & b & E & W).
    unfold rS2 in E. change (get prod_empty mk_s2) with rS2 in E. rewrite E.
    rewrite (s2_log h a b o x x W) by (auto; rewrite U; lra). cbv zeta.
    assert (P : rproj x (rsub x x) = [0; 0; 0]).
    { rewrite rsub_self, L. destruct (vec3_inv x L) as (p & q & r & ->). unfold rproj, rsub, rscal. simpl. apply list3_eq; ring. }
    rewrite P. assert (Z : rnorm [0; 0; 0] = 0). { unfold rnorm. replace (rdot _ _) with 0 by (simpl; ring). apply sqrt_0. }
    rewrite Z. destruct (Req_EM_T 0 0); [|lra]. reflexivity.
Qed.
Print Assumptions C23_s2_refuted.

Example C23_example : onM rS ([3; 4] ++ [0; 1; 0] ++ [0; 0; 1; 0]) /\ onM rP rPx /\ no_s2 rP.
Proof.
  split; [|split; [apply rPx_on|apply rP_no_s2]].
  exists [[3; 4]; [0; 1; 0]; [0; 0; 1; 0]]. split; [reflexivity|].
  repeat (apply Forall2_cons || apply Forall2_nil).
  - reflexivity. - split; auto. simpl. ring. - exists (Q4 0 0 1 0). split; auto. unfold qn2; cbn; ring.
Qed.

(** ** C24 *)
(** A representation vector cut along the leaves. *)
Definition slices (m : mfd XR) (x : list R) (xs : list (list R)) : Prop :=
  x = concat xs /\ Forall2 (fun s z => length z = representationDim s) (leaves m) xs.

Lemma force_lift m : built m -> forall x xs, slices m x xs -> Forall2 has_dir (leaves m) xs ->
  forall out, length out = representationDim m ->
  (Forall2 accepts (leaves m) xs ->
     exists ys, forceOnM m out (fin x) = Ok (fin (concat ys)) /\ ys = map (fun p => forced (fst p) (snd p)) (combine (leaves m) xs) /\
       Forall2 on_leaf (leaves m) ys) /\
  (forall r, forceOnM m out (fin x) = Ok r -> Forall2 accepts (leaves m) xs).
Proof.
  intros B x xs (-> & Ls) Hd out Lo. pose proof (built_wf _ B) as W. pose proof (fun s => wf_leaf_inv m s W) as G. split.
  - intros Ha. exists (map (fun p => forced (fst p) (snd p)) (combine (leaves m) xs)).
    assert (F : Forall3 (fun s x y => length x = representationDim s /\ on_leaf s y /\
       forall o, length o = representationDim s -> forceOnM s o (fin x) = Ok (fin y)) (leaves m) xs
       (map (fun p => forced (fst p) (snd p)) (combine (leaves m) xs))).
    { clear - G Ls Hd Ha. induction Ls as [|s x l xs L Ls IH]; cbn [combine map]; constructor.
      - inversion Hd; inversion Ha; subst. destruct (G s) as (h & k & a & b & -> & Wl); [simpl; auto|]. cbn [fst snd].
        destruct (leaf_force h k a b x Wl) as (Lf & Hf); auto. split; auto. split.
        + destruct (Hf (repeat (Fin 0) (representationDim (Leaf h k a b)))) as [H1 _]; [apply repeat_length|]. apply H1; auto.
        + intros o Lo. apply (Hf o Lo); auto.
      - inversion Hd; inversion Ha; subst. apply IH; auto. intros. apply G. simpl; auto. }
    split; [|split; auto].
    + apply (lift_op1 DR DR forceOnM forceOnM_prod); auto. eapply Forall3_impl; [exact F|]. cbn. tauto.
    + clear - F. induction F; constructor; tauto.
  - intros r E. destruct (cut_leaves DR m out W Lo) as (outs & -> & Hp). rewrite fin_concat in E.
    apply (flat_op1 DR DR forceOnM forceOnM_prod m W) in E; auto; [|apply fin_pieces; auto].
    destruct E as (ys & _ & F). clear Lo. revert outs ys Hp F Hd.
    induction Ls as [|s x l xs L Ls IH]; intros outs ys Hp F Hd; constructor.
    + inversion Hd; subst. inversion Hp as [|? o ? ? Ho]; subst. inversion F as [|? ? ? ? ? ? ? ? Hf]; subst.
      destruct (G s) as (h & k & a & b & -> & Wl); [simpl; auto|].
      destruct (leaf_force h k a b x Wl) as (_ & Hl); auto. destruct (Hl o Ho) as [_ Hr].
      apply NNPP. intros N. specialize (Hr N). cbn [map] in Hf. congruence.
    + inversion Hd; subst. inversion Hp; subst. inversion F; subst. eapply IH; eauto. intros. apply G. simpl; auto.
Qed.

(** Every accepted input with a direction on its S2 and quaternion parts is sent to a point of the manifold,
    exactly; an input is accepted iff each of its matrix parts passes the test of ExpMapMatrix::forceOnM_;
    points of the manifold are unchanged.  Missing: zero S2 and quaternion parts (next theorem). *)
Theorem C24_force_partial : forall m : mfd XR, built m ->
  (forall x xs, slices m x xs -> Forall2 has_dir (leaves m) xs -> forall out, length out = representationDim m ->
     (forall r, forceOnM m out (fin x) = Ok r -> exists y, r = fin y /\ onM m y) /\
     ((exists r, forceOnM m out (fin x) = Ok r) <-> Forall2 accepts (leaves m) xs)) /\
  (forall x, onM m x -> forall out, length out = representationDim m -> forceOnM m out (fin x) = Ok (fin x)).
Proof.
  intros m B. split.
  - intros x xs S Hd out Lo. destruct (force_lift m B x xs S Hd out Lo) as [F1 F2]. split.
    + intros r E. destruct (F1 (F2 r E)) as (ys & E' & _ & O). exists (concat ys). split; [congruence|]. exists ys. auto.
    + split; [intros (r & E); eauto|]. intros A. destruct (F1 A) as (ys & E & _). eauto.
  - intros x (xs & -> & Hx) out Lo. pose proof (built_wf _ B) as W. pose proof (fun s => wf_leaf_inv m s W) as G.
    assert (Fx : Forall2 (fun s x => forced s x = x /\ has_dir s x /\ accepts s x /\ length x = representationDim s) (leaves m) xs).
    { clear - G Hx. induction Hx as [|s x l xs H Hx IH]; constructor.
      - destruct (G s) as (h & k & a & b & -> & Wl); [simpl; auto|]. destruct (forced_on h k a b x H) as (F1 & F2 & F3).
        repeat (split; auto). apply (on_leaf_len h k a b); auto.
      - apply IH. intros. apply G. simpl; auto. }
    destruct (force_lift m B (concat xs) xs) with (out := out) as [F1 _]; auto.
    + split; auto. clear - Fx. induction Fx; constructor; tauto.
    + clear - Fx. induction Fx; constructor; tauto.
    + destruct F1 as (ys & E & Ey & _). { clear - Fx. induction Fx; constructor; tauto. }
      assert (ys = xs). { rewrite Ey. clear - Fx.
        induction Fx; cbn [combine map]; auto. f_equal; tauto. }
      congruence.
Qed.
Print Assumptions C24_force_partial.

(** Finding: the zero vector is accepted on S2 and on quaternions and gives NaN coordinates. *)
Theorem C24_zero_refuted :
  (exists m : mfd XR, built m /\ forall out, length out = 3%nat -> forceOnM m out (fin [0; 0; 0]) = Ok [Undef; Undef; Undef]) /\
  (exists m : mfd XR, built m /\ forall out, length out = 4%nat ->
     forceOnM m out (fin [0; 0; 0; 0]) = Ok [Undef; Undef; Undef; Undef]).
Proof.
  split.
  - exists rS2. split; [apply rS2_built|]. intros out Lo. unfold rS2. cbn -[s2_forceOnM].
    rewrite Lo. cbn -[s2_forceOnM]. apply (s2_force_fin out [0; 0; 0]); auto. simpl; ring.
  - exists rQ. split; [apply rQ_built|]. intros out Lo. unfold rQ. cbn -[eq_forceOnM].
    rewrite Lo. cbn -[eq_forceOnM]. apply (eq_force_fin out (Q4 0 0 0 0)); auto. unfold qn2; cbn; ring.
Qed.
Print Assumptions C24_zero_refuted.

Definition shear : m3 R := M3 1 (1 / 20) 0 0 1 0 0 0 1.
Lemma shear_ok : almost_rot shear.
Proof.
  unfold almost_rot. cbv zeta. assert (G : rmul (rtr shear) shear = M3 1 (1/20) 0 (1/20) (1 + 1/400) 0 0 0 1) by (unfold shear; m3_eq; lra).
  assert (D : rdet shear = 1) by (unfold shear, rdet; cbn; ring). rewrite G, D. split.
  - rewrite Rmin_right; unfold fro2, flat9, rsub, ridm; cbn [a00 a01 a02 a10 a11 a12 a20 a21 a22 combine map fst snd rdot]; lra.
  - replace (1 - 1) with 0 by ring. rewrite Rabs_R0. lra.
Qed.
Example C24_example : let x := [3; 4] ++ flat9 shear ++ [0; 3; 0; 4] in
  exists xs, slices rP x xs /\ Forall2 has_dir (leaves rP) xs /\ Forall2 accepts (leaves rP) xs /\ ~ onM rP x.
Proof.
  intros x. exists [[3; 4]; flat9 shear; [0; 3; 0; 4]]. split; [|split; [|split]].
  - split; [reflexivity|]. repeat (apply Forall2_cons || apply Forall2_nil); reflexivity.
  - repeat (apply Forall2_cons || apply Forall2_nil); cbn [has_dir]; auto. simpl. lra.
  - repeat (apply Forall2_cons || apply Forall2_nil); cbn [accepts]; auto. exists shear. split; auto using shear_ok.
  - intros (xs & E & H). inversion H as [|? x1 ? l1 H1 R1]; subst. inversion R1 as [|? x2 ? l2 H2 R2]; subst.
    inversion R2 as [|? x3 ? l3 H3 R3]; subst. inversion R3; subst. destruct H2 as (A & -> & HA), H3 as (q & -> & Hq).
    cbn in H1. destruct x1 as [|? [|? [|]]]; try discriminate. destruct A, q. unfold x in E. cbn in E. inversion E; subst.
    unfold qn2 in Hq. cbn in Hq. lra.
Qed.

(** ** C25 *)
Definition not_matrix (m : mfd XR) : Prop := match m with Leaf _ (LSO3 MapMatrix) _ _ => False | _ => True end.
Lemma normed_closest x z : length x = length z -> 0 < rdot x x -> rdot z z = 1 ->
  rdot (rsub (normed x) x) (rsub (normed x) x) <= rdot (rsub z x) (rsub z x).
Proof.
  intros L P U. pose proof (unit_normal x P) as Un. fold (normed x) in Un. pose proof (rnorm_pos x P) as Np.
  assert (Ln : length (normed x) = length x) by apply normed_length.
  assert (C : rdot z (normed x) <= 1).
  { pose proof (rdot_self_nonneg (rsub z (normed x))) as H. rewrite rdot_rsub_l, !rdot_rsub_r in H by lia.
    rewrite (rdot_comm (normed x) z), U, Un in H. lra. }
  assert (E : rdot z x = rnorm x * rdot z (normed x)).
  { unfold normed. rewrite rdot_rscal_r. field. lra. }
  assert (E' : rdot (normed x) x = rnorm x). { unfold normed. rewrite rdot_rscal_l, <- rnorm_sq. field. lra. }
  rewrite !rdot_rsub_l, !rdot_rsub_r by lia. rewrite (rdot_comm x (normed x)), (rdot_comm x z), Un, U, E, E'. nra.
Qed.
Lemma rdot_app a b c d : length a = length c -> rdot (a ++ b) (c ++ d) = rdot a c + rdot b d.
Proof. revert c; induction a; intros [|e c] H; simpl in *; try discriminate; [ring|]. rewrite IHa by lia. ring. Qed.
Lemma rsub_app a b c d : length a = length c -> rsub (a ++ b) (c ++ d) = rsub a c ++ rsub b d.
Proof.
  revert c; induction a; intros [|e c] H; simpl in *; try discriminate; auto.
  unfold rsub in *. cbn [combine map app]. f_equal. apply IHa. lia.
Qed.
(** Trees without matrix-map parts: the output is on the manifold and no point of the manifold is closer to
    the input.  Missing: the matrix map, for which it is false (next theorem). *)
Theorem C25_closest_partial : forall m : mfd XR, built m -> Forall not_matrix (leaves m) ->
  forall x xs, slices m x xs -> Forall2 has_dir (leaves m) xs ->
  exists y, onM m y /\ (forall out, length out = representationDim m -> forceOnM m out (fin x) = Ok (fin y)) /\
    forall z, onM m z -> rnorm (rsub y x) <= rnorm (rsub z x).
Proof.
  intros m B NM x xs S Hd. pose proof (built_wf _ B) as W. pose proof (fun s => wf_leaf_inv m s W) as G.
  assert (A : Forall2 accepts (leaves m) xs).
  { destruct S as [_ Ls]. clear - Ls NM. induction Ls as [|s x l xs]; constructor; inversion NM; subst; auto.
    destruct s as [? [| |[|]] ? ?|]; simpl in *; tauto. }
  exists (concat (map (fun p => forced (fst p) (snd p)) (combine (leaves m) xs))). split; [|split].
  - destruct (force_lift m B x xs S Hd (repeat (Fin 0) (representationDim m)) (repeat_length _ _)) as [F _].
    destruct (F A) as (ys & _ & -> & O). eexists. split; eauto.
  - intros out Lo. destruct (force_lift m B x xs S Hd out Lo) as [F _]. destruct (F A) as (ys & E & -> & _). auto.
  - destruct S as [-> Ls]. intros z (zs & -> & Hz). unfold rnorm. apply sqrt_le_1; try apply rdot_self_nonneg.
    clear W B A. revert zs Hz. induction Ls as [|s x l xs L Ls IH]; intros zs Hz; inversion Hz as [|? z ? zs' H1 H2]; subst.
    + simpl. lra.
    + cbn [combine map concat fst snd]. inversion Hd as [|? ? ? ? D1 D2]; inversion NM as [|? ? N1 N2]; subst.
      destruct (G s) as (h & k & a & b & -> & Wl); [simpl; auto|].
      destruct (leaf_force h k a b x Wl L D1) as [Lf _]. pose proof (on_leaf_len h k a b z Wl H1) as Lz.
      unfold representationDim in *; cbn [hdr_of] in *.
      rewrite !rsub_app by lia. rewrite !rdot_app by (rewrite !rsub_length; lia).
      apply Rplus_le_compat; [|apply IH; auto; intros; apply G; simpl; auto].
      destruct k as [| |[|]]; cbn [forced has_dir on_leaf not_matrix] in *.
      * rewrite rsub_self, rdot_zeros. apply rdot_self_nonneg.
      * apply normed_closest; try tauto. lia.
      * contradiction.
      * destruct H1 as (q & -> & Hq). rewrite qn2_dot in Hq. apply normed_closest; auto. lia.
Qed.
Print Assumptions C25_closest_partial.

Example C25_example : let x := [3; 4] ++ [0; 3; 4] ++ [0; 3; 0; 4] in
  exists xs, built rS /\ Forall not_matrix (leaves rS) /\ slices rS x xs /\ Forall2 has_dir (leaves rS) xs.
Proof.
  intros x. exists [[3; 4]; [0; 3; 4]; [0; 3; 0; 4]]. split; [apply rS_built|]. split; [repeat constructor|]. split.
  - split; [reflexivity|]. repeat (apply Forall2_cons || apply Forall2_nil); reflexivity.
  - repeat (apply Forall2_cons || apply Forall2_nil); cbn [has_dir]; auto; simpl; lra.
Qed.

(** Finding: Gram-Schmidt on the columns is not the projection on SO(3): the shear I + E01/20 is sent to I,
    although a rotation by a small angle is at less than 3/4 of the distance. *)
Theorem C25_matrix_refuted : exists (m : mfd XR) (x y z : list R), built m /\ onM m y /\ onM m z /\
  (forall out, length out = 9%nat -> forceOnM m out (fin x) = Ok (fin y)) /\
  4 * rdot (rsub z x) (rsub z x) < 3 * rdot (rsub y x) (rsub y x).
Proof.
  set (c := 6399 / 6401). set (s := - (160 / 6401)).
  set (Z := M3 c (- s) 0 s c 0 0 0 1).
  exists rM, (flat9 shear), (flat9 ridm), (flat9 Z).
  assert (OM : forall A, rot A -> onM rM (flat9 A)).
  { intros A H. exists [flat9 A]. split; [reflexivity|]. apply Forall2_cons; [|apply Forall2_nil]. exists A. auto. }
  assert (Gs : gs shear = ridm).
  { unfold gs, gsC. cbv zeta. unfold shear, rc0, rc1, rc2. cbn [a00 a01 a02 a10 a11 a12 a20 a21 a22].
    assert (N0 : normed [1; 0; 0] = [1; 0; 0]) by (apply normed_fix; simpl; ring).
    assert (B1 : gsB [1; 0; 0] [1 / 20; 1; 0] = [0; 1; 0]).
    { unfold gsB. rewrite N0. unfold rsub, rscal. cbn [rdot combine map fst snd]. apply list3_eq; ring. }
    assert (B2 : gsB [1; 0; 0] [0; 0; 1] = [0; 0; 1]) by (apply gsB_fix; simpl; auto; ring).
    rewrite N0, B1, B2. assert (N1 : normed [0; 1; 0] = [0; 1; 0]) by (apply normed_fix; simpl; ring). rewrite N1.
    replace (rdot [0; 1; 0] [0; 0; 1]) with 0 by (simpl; ring). rewrite rsub_zero by auto.
    rewrite normed_fix by (simpl; ring). reflexivity. }
  split; [apply rM_built|]. split; [apply OM, rot_id|].
  split. { apply OM. split; [unfold Z, c, s; m3_eq; lra|]. unfold Z, rdet, c, s. cbn. lra. }
  split.
  - intros out Lo. destruct rM_leaf as (h & a & b & E & W).
    destruct (em_force_fin out shear Lo) as [F _]. rewrite <- Gs, <- (F shear_ok).
    unfold rM. cbn -[em_forceOnM]. rewrite Lo. reflexivity.
  - unfold Z, shear, ridm, flat9, rsub, c, s. cbn [a00 a01 a02 a10 a11 a12 a20 a21 a22 combine map fst snd rdot]. lra.
Qed.
Print Assumptions C25_matrix_refuted.

(** ** C26 *)
(** Strictly inside the limit returned by limitMap. *)
Definition inside (l : XR) (a : R) : Prop := match l with Fin b => Rabs a < b | PInf => True | Undef => False end.
(** On S2 parts the vector must pass the tangency check. *)
Definition tangent_part (m : mfd XR) (x v : list R) : Prop :=
  match m with Leaf _ LS2 _ _ => Rabs (rdot x v) < 1 / 100000000 | _ => True end.
Definition limit_leaf (m : mfd XR) : list XR :=
  match m with Leaf h (LSO3 _) _ _ => repeat (Fin (PI / sqrt 3)) 3 | _ => repeat PInf (tangentDim m) end.
Lemma leaf_limit h l a b o : let s := Leaf h l a b in leaf_wf h l a b -> length o = tangentDim s ->
  limitMap s o = Ok (limit_leaf s).
Proof.
  intros s W Lo. unfold s in *. unfold tangentDim in *; cbn [hdr_of] in *. cbn [limitMap]. unfold tangentDim; cbn [hdr_of].
  rewrite check_eq by auto. cbn [bind]. pose proof sqrt_lt_R0 3 ltac:(lra) as S3.
  assert (Q : (kpi / ksqrt (klit 3 1))%k = Fin (PI / sqrt 3)).
  { cbn [kdiv kpi ksqrt klit XRS]. replace (3 / 1) with 3 by field. rewrite xsqrt_fin by lra. apply xdiv_fin. lra. }
  destruct l as [| |[|]]; cbn [limit_leaf]; unfold tangentDim; cbn [hdr_of].
  - unfold real_limitMap. rewrite Lo. reflexivity.
  - unfold s2_limitMap. rewrite Lo. reflexivity.
  - unfold so3_limitMap. destruct W as (_ & W2 & _). rewrite Lo, W2, Q. reflexivity.
  - unfold so3_limitMap. destruct W as (_ & W2 & _). rewrite Lo, W2, Q. reflexivity.
Qed.
Lemma third_sq s : 0 < s -> s * s = 3 -> 3 * (PI / s * (PI / s)) = PI * PI.
Proof. intros H E. rewrite <- E. field. lra. Qed.
Lemma box_norm v : length v = 3%nat -> Forall2 inside (repeat (Fin (PI / sqrt 3)) 3) v -> rnorm v < PI.
Proof.
  intros L H. pose proof PI_gt2 as P2. destruct (vec3_inv v L) as (x & y & z & ->).
  pose proof sqrt_lt_R0 3 ltac:(lra) as S3. assert (S : sqrt 3 * sqrt 3 = 3) by (apply sqrt_sqrt; lra).
  set (q := PI / sqrt 3) in *. assert (Q : 3 * (q * q) = PI * PI) by (apply third_sq; auto).
  assert (Hq : 0 < q) by (apply Rdiv_lt_0_compat; lra).
  inversion H as [|? ? ? ? H1 R1]; subst. inversion R1 as [|? ? ? ? H2 R2]; subst. inversion R2 as [|? ? ? ? H3 R3]; subst.
  cbn [inside] in *. apply Rabs_def2 in H1, H2, H3.
  rewrite <- (sqrt_square PI) by lra. unfold rnorm. apply sqrt_lt_1; [apply rdot_self_nonneg|nra|]. simpl. nra.
Qed.
Lemma leaf_limit_ok h l a b x v : let s := Leaf h l a b in leaf_wf h l a b -> on_leaf s x -> length v = tangentDim s ->
  Forall2 inside (limit_leaf s) v -> tangent_part s x v ->
  exists y, length y = representationDim s /\ forall o, length o = representationDim s -> retractation s o (fin x) (fin v) = Ok (fin y).
Proof.
  intros s W Hx Lv Hl Ht. unfold s in *. unfold tangentDim, representationDim in *; cbn [hdr_of] in *.
  pose proof (on_leaf_len _ _ _ _ _ W Hx) as Lx. pose proof W as W'.
  destruct l as [| |[|]]; cbn [on_leaf limit_leaf tangent_part leaf_wf] in *.
  - exists (radd x v). split; [rewrite radd_length; lia|]. intros. apply real_retr; auto; lia.
  - exists (rscal (/ rnorm (radd x v)) (radd x v)). split; [rewrite rscal_length, radd_length; lia|].
    intros. apply s2_retr; auto; lia || tauto.
  - destruct Hx as (A & -> & HA). assert (L3 : length v = 3%nat) by lia.
    destruct (em_exp_any v L3 (box_norm v L3 Hl)) as (E & HE & _). exists (flat9 (rmul A E)). split; [auto|].
    destruct (vec3_inv v L3) as (? & ? & ? & ->). intros. apply em_retr; auto. lia.
  - destruct Hx as (q & -> & HA). assert (L3 : length v = 3%nat) by lia.
    destruct (eq_exp_any junk_quat v L3 (box_norm v L3 Hl)) as (E & HE & _). exists (qflat (qprod q E)). split; [auto|].
    intros. apply eq_retr; auto. lia.
Qed.
Theorem C26_limit : forall m : mfd XR, built m ->
  exists lims, (forall out, length out = tangentDim m -> limitMap m out = Ok lims) /\
  forall x v xs vs, x = concat xs -> v = concat vs -> Forall2 on_leaf (leaves m) xs ->
    Forall2 (fun s w => length w = tangentDim s) (leaves m) vs ->
    Forall3 tangent_part (leaves m) xs vs -> Forall2 inside lims v ->
  exists y, length y = representationDim m /\
    forall out, length out = representationDim m -> retractation m out (fin x) (fin v) = Ok (fin y).
Proof.
  intros m B. pose proof (built_wf _ B) as W. pose proof (fun s => wf_leaf_inv m s W) as G.
  exists (concat (map limit_leaf (leaves m))). split.
  - intros out Lo. apply (lift_op0 DT limitMap limitMap_prod); auto.
    clear - G. induction (leaves m) as [|s l IH]; cbn [map]; constructor.
    + intros o Lo. destruct (G s) as (h & k & a & b & -> & Wl); [simpl; auto|]. apply leaf_limit; auto.
    + apply IH. intros. apply G. simpl; auto.
  - intros x v xs vs -> -> Hx Lv Ht Hl.
    assert (F : Forall3 (fun s x v => exists y, length x = representationDim s /\ length v = tangentDim s /\ length y = representationDim s /\
       forall o, length o = representationDim s -> retractation s o (fin x) (fin v) = Ok (fin y)) (leaves m) xs vs).
    { clear B W. revert vs Lv Ht Hl. induction Hx as [|s x l xs H Hx IH]; intros vs Lv Ht Hl; inversion Lv as [|? v ? vs' L1 L2]; subst.
      - constructor.
      - inversion Ht as [|? ? ? ? ? ? T1 T2]; subst. cbn [map concat] in Hl.
        destruct (G s) as (h & k & a & b & -> & Wl); [simpl; auto|].
        assert (Ll : length (limit_leaf (Leaf h k a b)) = length v).
        { rewrite L1. unfold tangentDim; cbn [hdr_of]. destruct k as [| |[|]]; cbn [limit_leaf]; rewrite ?repeat_length; auto;
            destruct Wl as (_ & W2 & _); auto. }
        assert (S : Forall2 inside (limit_leaf (Leaf h k a b)) v /\ Forall2 inside (concat (map limit_leaf l)) (concat vs')).
        { clear - Hl Ll. revert v Ll Hl. generalize (limit_leaf (Leaf h k a b)). intros q.
          induction q as [|c q IHq]; intros [|d v] L H; simpl in *; try discriminate; auto.
          inversion H; subst. destruct (IHq v) as [A B]; auto. }
        constructor.
        + destruct (leaf_limit_ok h k a b x v Wl H L1 (proj1 S) T1) as (y & Ly & Hy). exists y.
          split; [apply (on_leaf_len h k a b); auto|]. auto.
        + apply IH; auto; [|tauto]. intros. apply G. simpl; auto. }
    assert (C : exists ys, Forall4 (fun s x v y => length x = representationDim s /\ length v = tangentDim s /\ length y = representationDim s /\
       forall o, length o = representationDim s -> retractation s o (fin x) (fin v) = Ok (fin y)) (leaves m) xs vs ys).
    { clear - F. induction F as [|s x v l xs vs (y & H) F (ys & IH)]; [exists []; constructor|]. exists (y :: ys). constructor; auto. }
    destruct C as (ys & Hy). exists (concat ys). split.
    + change (representationDim m) with (getDim DR m). rewrite (leaves_dim DR m W). clear - Hy.
      induction Hy as [|s x v y ? ? ? ? H F IH]; simpl; auto. rewrite app_length, IH. f_equal. apply H.
    + intros out Lo. apply (lift_op2 DR DR DT retractation retractation_prod); auto.
      eapply Forall4_impl; [exact Hy|]. cbn. tauto.
Qed.
Print Assumptions C26_limit.

(** The bound is sharp: the corner of the closed box, at distance pi, is refused. *)
Theorem C26_corner_refused : forall mp : so3map, exists (m : mfd XR) (l : R), built m /\
  (forall o, length o = 3%nat -> limitMap m o = Ok [Fin l; Fin l; Fin l]) /\ 0 < l /\
  (forall x out, onM m x -> length out = representationDim m -> retractation m out (fin x) (fin [l; l; l]) = Fail EAssert).
Proof.
  intros mp. pose proof PI_gt2 as P2. pose proof sqrt_lt_R0 3 ltac:(lra) as S3.
  assert (S : sqrt 3 * sqrt 3 = 3) by (apply sqrt_sqrt; lra).
  assert (N : rnorm [PI / sqrt 3; PI / sqrt 3; PI / sqrt 3] = PI).
  { unfold rnorm. replace (rdot _ _) with (PI * PI); [apply sqrt_square; lra|].
    cbn [rdot]. set (q := PI / sqrt 3). assert (Q : 3 * (q * q) = PI * PI) by (apply third_sq; auto). lra. }
  exists (match mp with MapMatrix => rM | MapQuat => rQ end), (PI / sqrt 3).
  split; [destruct mp; auto using rM_built, rQ_built|]. split; [|split; [apply Rdiv_lt_0_compat; lra|]].
  - intros o Lo. destruct mp.
    + destruct rM_leaf as (h & a & b & E & W). rewrite E. rewrite (leaf_limit h (LSO3 MapMatrix) a b o W); auto. destruct W as (_ & W & _). unfold tangentDim; cbn [hdr_of]; lia.
    + destruct rQ_leaf as (h & a & b & E & W). rewrite E. rewrite (leaf_limit h (LSO3 MapQuat) a b o W); auto. destruct W as (_ & W & _). unfold tangentDim; cbn [hdr_of]; lia.
  - intros x out (xs & -> & Hx) Lo. set (v := [PI / sqrt 3; PI / sqrt 3; PI / sqrt 3]) in *. destruct mp.
    + inversion Hx as [|? x ? ? Hx1 Hn]; subst. inversion Hn; subst. cbn [concat]. rewrite app_nil_r.
      destruct Hx1 as (A & -> & _). assert (F : em_exponential (fin v) = Fail EAssert) by (apply em_exp_reject; auto; lra).
      cbn in Lo. cbn -[em_retractation fin]. rewrite Lo, !fin_length, flat9_length. cbn -[em_retractation fin].
      unfold em_retractation. rewrite F. reflexivity.
    + inversion Hx as [|? x ? ? Hx1 Hn]; subst. inversion Hn; subst. cbn [concat]. rewrite app_nil_r.
      destruct Hx1 as (A & -> & _). assert (F : eq_exponential junk_quat (fin v) = Fail EAssert) by (apply eq_exp_reject; auto; lra).
      cbn in Lo. cbn -[eq_retractation fin]. rewrite Lo, !fin_length. cbn -[eq_retractation fin].
      unfold eq_retractation, eq_retractation_at. rewrite F. reflexivity.
Qed.
Print Assumptions C26_corner_refused.

Example C26_example : exists xs vs, concat xs = [3; 4] ++ [0; 1; 0] ++ [0; 0; 1; 0] /\
  Forall2 on_leaf (leaves rS) xs /\ Forall3 tangent_part (leaves rS) xs vs /\
  Forall2 inside (concat (map limit_leaf (leaves rS))) (concat vs) /\ concat vs = [100; -100] ++ [1; 0; 5] ++ [1; 1; -1].
Proof.
  exists [[3; 4]; [0; 1; 0]; [0; 0; 1; 0]], [[100; -100]; [1; 0; 5]; [1; 1; -1]]. split; [reflexivity|].
  pose proof PI_gt2 as P2. pose proof sqrt_lt_R0 3 ltac:(lra) as S3.
  assert (S : sqrt 3 < 2). { replace 2 with (sqrt (2 * 2)) by (apply sqrt_square; lra). apply sqrt_lt_1; lra. }
  assert (Q : 1 < PI / sqrt 3). { apply (Rmult_lt_reg_r (sqrt 3)); auto. unfold Rdiv. rewrite Rmult_assoc, Rinv_l; lra. }
  split; [|split; [|split; [|reflexivity]]].
  - repeat (apply Forall2_cons || apply Forall2_nil).
    + reflexivity. + split; auto. simpl. ring. + exists (Q4 0 0 1 0). split; auto. unfold qn2; cbn; ring.
  - repeat (apply Forall3_cons || apply Forall3_nil); cbn [tangent_part]; auto. 
    replace (rdot _ _) with 0 by (simpl; ring). rewrite Rabs_R0. lra.
  - cbn [leaves flat_map rS rS1 get app map limit_leaf concat repeat]. 
    repeat (apply Forall2_cons || apply Forall2_nil); cbn [inside]; auto; apply Rabs_def1; lra.
Qed.
