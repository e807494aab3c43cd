(** C07: diffRetractation is the derivative of retractation at 0, on every tree. *)
From Coq Require Import Reals List Lra Lia ZArith Bool Arith.
From Verif Require Import Base Scalar Vec Model_Real Model_S2 Model_SO3 Model_Manifold Spec Layout Comp Flat BlockMat MatOps MatProd MatTan
  Structure XR SpecR RotR NumVec NumTree NumLeaf NumS2 RoundTrip MatNum JacApply TanLeaf Deriv DerivRetr ExScalar ExR Properties_Matrix.
Import ListNotations.
Local Open Scope R_scope.

Lemma rscal_concat t vs : rscal t (concat vs) = concat (map (rscal t) vs).
Proof. apply concat_map. Qed.
Lemma leaves_inv (m : mfd XR) : wf m -> forall s, In s (leaves m) -> exists h l a b, s = Leaf (K:=XR) h l a b /\ leaf_wf h l a b.
Proof. intros. eapply wf_leaf_inv; eauto. Qed.

Definition curve_ok (s : mfd XR) (x v : list R) (p : (R -> list R) * R) : Prop :=
  0 < snd p /\
  (forall t, Rabs t < snd p -> forall o, length o = representationDim s -> retractation s o (fin x) (fin (rscal t v)) = Ok (fin (fst p t))) /\
  deriv_v (fst p) 0 (dir_leaf s x v).
Fixpoint dmin (l : list ((R -> list R) * R)) : R := match l with [] => 1 | p :: l' => Rmin (snd p) (dmin l') end.
Lemma cutA {A} D (m : mfd XR) (x : list A) : wf m -> length x = getDim D m ->
  exists xs, x = concat xs /\ Forall2 (fun s z => length z = getDim D s) (leaves m) xs.
Proof.
  intros Hw H. rewrite (leaves_dim D m Hw) in H. revert x H. generalize (leaves m). intros ls.
  induction ls as [|s ls IH]; intros x H; simpl in H.
  - exists []. split; [|constructor]. destruct x; [reflexivity|discriminate].
  - destruct (IH (skipn (getDim D s) x)) as (xs & E & F). { rewrite skipn_length. lia. }
    exists (firstn (getDim D s) x :: xs). cbn [concat]. rewrite <- E, firstn_skipn. split; auto. constructor; auto. rewrite firstn_length. lia.
Qed.

(** For every point x of a tree and every tangent vector v: t -> retractation(x, t v) is returned near 0 and
    is differentiable at 0; on trees without a sphere its derivative is diffRetractation(x) v; on every tree
    applyDiffRetractation(A, x) v = A D, that is, A is multiplied by the derivative. *)
Theorem C07_derivative : forall m : mfd XR, built m -> forall x v : list R, tanM m x v ->
  exists (y : R -> list R) (D : list R) (d : R), 0 < d /\
    (forall t, Rabs t < d -> forall out, length out = representationDim m ->
       retractation m out (fin x) (fin (rscal t v)) = Ok (fin (y t))) /\
    deriv_v y 0 D /\
    (no_s2 m -> exists J, diffRetractation m (fin x) = Ok (matR (representationDim m) J) /\ length J = tangentDim m /\
       Forall (fun c => length c = representationDim m) J /\ rmv (representationDim m) J v = D) /\
    (forall (r : nat) (A : list (list R)) out, length A = representationDim m -> Forall (fun c => length c = r) A -> shape out r (tangentDim m) ->
       exists Y, applyDiffRetractation m out (matR r A) (fin x) = Ok (matR r Y) /\ length Y = tangentDim m /\
         Forall (fun c => length c = r) Y /\ rmv r Y v = rmv r A D).
Proof.
  intros m B x v (xs & vs & -> & -> & P & V). pose proof (built_wf _ B) as Hw. pose proof (leaves_inv m Hw) as L.
  assert (Lx : Forall2 (fun s z => length z = getDim DR s) (leaves m) xs).
  { eapply Forall2_impl_in; [exact P|]. intros s z Hi H. destruct (L s Hi) as (h & l & a & b & -> & W). apply (on_leaf_len _ _ _ _ _ W H). }
  assert (PV : Forall3 (fun s z w => on_leaf s z /\ tan_leaf s z w) (leaves m) xs vs).
  { clear - P V. revert P; induction V; intros P; inversion P; subst; constructor; auto. }
  assert (exists ps, Forall4 curve_ok (leaves m) xs vs ps) as [ps C].
  { eapply choose4; [exact PV|]. intros s z w Hi [Hz Hv]. destruct (L s Hi) as (h & l & a & b & -> & W).
    destruct (curve_leaf h l a b z w W Hz Hv) as (y & d & H1 & H2 & H3). exists (y, d). split; [exact H1|]. split; [exact H2|exact H3]. }
  set (Ds := map (fun p => dir_leaf (fst p) (fst (snd p)) (snd (snd p))) (combine (leaves m) (combine xs vs))).
  exists (fun t => concat (map (fun p => fst p t) ps)), (concat Ds), (dmin ps).
  split; [|split; [|split; [|split]]].
  - clear - C. induction C as [|? ? ? p ? ? ? ? H C IH]; cbn [dmin]; [lra|]. apply Rmin_glb_lt; auto. apply H.
  - intros t Ht out Lo. rewrite rscal_concat. apply (lift_op2 DR DR DT retractation).
    + intros. apply retractation_prod; auto.
    + auto.
    + auto.
    + assert (G : Forall4 (fun s z w p => length z = getDim DR s /\ length w = getDim DT s /\ curve_ok s z w p /\ dmin ps <= snd p) (leaves m) xs vs ps).
      { assert (Q : Forall4 (fun (_ : mfd XR) (_ _ : list R) p => dmin ps <= snd p) (leaves m) xs vs ps).
        { clear - C. induction C as [|? ? ? p ? ? ? ? H C IH]; constructor.
          - cbn [dmin]. apply Rmin_l.
          - cbn [dmin]. eapply Forall4_impl; [exact IH|]. cbn. intros. eapply Rle_trans; [apply Rmin_r|]. auto. }
        clear - C Q Lx V L. revert Lx V Q L. generalize (dmin ps). intros k Lx V. revert Lx V. induction C as [|s z w p ls xs vs ps H C IH]; intros Lx V Q L; constructor.
        - inversion Lx; inversion V as [|? ? ? ? ? ? [V1 _]]; inversion Q; subst. split; [auto|]. split; [exact V1|]. auto.
        - inversion Lx; inversion V; inversion Q; subst. apply IH; auto. intros; apply L; right; auto. }
      clear - G Ht. revert G Ht. generalize (dmin ps). intros k G Ht. induction G as [|s z w p ls xs vs ps (H1 & H2 & H3 & H4) G IH]; cbn [map]; constructor; auto.
      split; auto. split; [rewrite rscal_length; auto|]. intros o Lo. apply H3; auto. lra.
  - assert (E : Ds = map snd (map (fun q => (fst (fst q), snd q)) (combine ps Ds)) /\ map (fun p => fst p) ps = map fst (map (fun q => (fst (fst q), snd q)) (combine ps Ds)) /\
      Forall (fun p => deriv_v (fst p) 0 (snd p)) (map (fun q => (fst (fst q), snd q)) (combine ps Ds))).
    { unfold Ds. clear - C. induction C as [|s z w p ls xs vs ps H C (I1 & I2 & I3)]; cbn [combine map fst snd]; [repeat split; auto|].
      rewrite <- I1, <- I2. split; [reflexivity|]. split; [reflexivity|]. constructor; auto. apply H. }
    destruct E as (E1 & E2 & E3). apply deriv_v_concat in E3. rewrite <- E1 in E3. 
    assert (E4 : forall t, map (fun p => fst p t) ps = map (fun p => fst p t) (map (fun q => (fst (fst q), snd q)) (combine ps Ds))).
    { intros t. transitivity (map (fun f => f t) (map (fun p => fst p) ps)); [rewrite map_map; reflexivity|]. rewrite E2, map_map. reflexivity. }
    destruct E3 as (fs & F1 & F2). exists fs. split; auto. intros t. rewrite E4. apply F1.
  - intros Ns. set (Bs := map (fun p => (representationDim (fst p), jac_cols (fst p) (snd p))) (combine (leaves m) xs)).
    assert (J : Forall3 (fun s z r => diffRetractation s z = Ok r) (leaves m) (map fin xs) (map matB Bs)).
    { unfold Bs, no_s2 in *. revert L Ns Lx. clear. generalize (leaves m). intros ls L Ns F. induction F as [|s z ls xs H F IH]; [constructor|]. inversion Ns; subst. cbn [map combine fst snd]. constructor.
      - destruct (L s (or_introl eq_refl)) as (h & l & a & b & -> & W). apply jac_leaf; auto.
      - apply IH; auto. intros; apply L; right; auto. }
    assert (K : Forall2 blk_ok Bs (map (getDim DT) (leaves m))).
    { unfold Bs, no_s2 in *. revert L Ns Lx. clear. generalize (leaves m). intros ls L Ns F. induction F as [|s z ls xs H F IH]; [constructor|]. inversion Ns; subst. cbn [map combine fst snd]. constructor.
      - destruct (L s (or_introl eq_refl)) as (h & l & a & b & -> & W). destruct (jac_leaf h l a b z) as (_ & G1 & G2); auto. split; auto.
      - apply IH; auto. intros; apply L; right; auto. }
    assert (R0 : fst (rbdiag Bs) = representationDim m).
    { change (representationDim m) with (getDim DR m). rewrite (leaves_dim DR m Hw). unfold Bs. revert Lx. clear. generalize (leaves m). intros ls F.
      induction F as [|s z ls xs H F IH]; [reflexivity|]. cbn [map combine fst snd rbdiag]. rewrite IH. reflexivity. }
    destruct (rbdiag_ok _ _ K) as [K1 K2]. rewrite <- (leaves_dim DT m Hw) in K1. rewrite R0 in K2.
    exists (snd (rbdiag Bs)). split; [|split; [exact K1|split; [exact K2|]]].
    + rewrite fin_concat. apply (flat_mat diffRetractation); auto.
      * intros. rewrite diffRetractation_prod by auto. firstorder.
      * apply fin_pieces; auto.
      * exists (map matB Bs). split; auto. rewrite bdiag_rbdiag. unfold matB. rewrite R0. reflexivity.
    + rewrite <- R0, rbdiag_mul.
      * f_equal. unfold Ds, Bs, no_s2 in *. revert Ns V L. clear. generalize (leaves m). intros ls Ns V L. induction V as [|s z w ls xs vs H V IH]; [reflexivity|]. inversion Ns; subst. cbn [map combine fst snd]. f_equal.
        -- destruct (L s (or_introl eq_refl)) as (h & l & a & b & -> & W). destruct l; try discriminate; reflexivity.
        -- apply IH; auto. intros; apply L; right; auto.
      * assert (LV : Forall2 (fun s w => length w = getDim DT s) (leaves m) vs).
        { clear - V. induction V as [|s z w ls xs vs [H _] V IH]; constructor; auto. }
        clearbody Bs. clear - K LV. revert Bs K. induction LV as [|s w ls vs H LV IH]; intros Bs K; inversion K; subst; constructor; auto. rewrite H. auto.
  - intros r A out LA FA So. destruct (cutA DR m A Hw LA) as (As & -> & FAs).
    change (tangentDim m) with (getDim DT m) in *. rewrite (leaves_dim DT m Hw) in So. destruct (cut_cols DT r (leaves m) out So) as (outs & -> & Po).
    set (Ys := map (fun p => app_cols (fst p) (fst (snd p)) r (snd (snd p))) (combine (leaves m) (combine xs As))).
    assert (HA : Forall (fun A => Forall (fun c => length c = r) A) As).
    { clear - FA. induction As as [|A As IH]; constructor; cbn [concat] in FA; apply Forall_app in FA; destruct FA; auto. }
    assert (E : matR r (concat As) = hcat r (map (matR r) As)).
    { unfold hcat, matR. f_equal. rewrite map_map. cbn [mcols_]. rewrite concat_map. reflexivity. }
    assert (Q : Forall3 (fun s z y => ap3 s z = Ok y) (leaves m) (combine outs (combine (map (matR r) As) (map fin xs))) (map (matR r) Ys) /\
      length (concat Ys) = sum_list (map (getDim DT) (leaves m)) /\ Forall (fun c => length c = r) (concat Ys) /\
      rmv r (concat Ys) (concat vs) = rmv r (concat As) (concat Ds)).
    { unfold Ys, Ds. revert outs Po As FAs FA HA E xs Lx P V PV C L Ys Ds So LA. clear. intros outs Po As FAs FA HA _ xs Lx _ V _ _ L _ _ _ _. revert As FAs FA HA outs Po L Lx. generalize (leaves m), V. clear V. intros ls V.
      induction V as [|s z w ls xs vs H V IH]; intros As FAs FA HA outs Po L Lx.
      - inversion FAs; subst. inversion Po; subst. cbn. repeat split; constructor.
      - inversion FAs as [|? A ? As' HA1 HA2]; inversion Po as [|? o ? os' Ho1 Ho2]; inversion Lx as [|? ? ? ? Hx1 Hx2]; subst. inversion HA; subst.
        cbn [concat] in FA. apply Forall_app in FA. destruct FA as [FA1 FA2].
        destruct (IH As' HA2 FA2 ltac:(auto) os' Ho2 ltac:(intros; apply L; right; auto) Hx2) as (I1 & I2 & I3 & I4).
        destruct (L s (or_introl eq_refl)) as (h & l & a & b & -> & W).
        destruct (apply_leaf h l a b z r A o W Hx1 HA1 FA1 Ho1) as (G1 & G2 & G3 & G4).
        cbn [combine map fst snd concat]. split; [|split; [|split]].
        + constructor; auto.
        + rewrite app_length, I2. cbn [sum_list fold_right map]. rewrite G2. reflexivity.
        + apply Forall_app. split; auto.
        + assert (Lw : length w = h_tdim h) by apply H. rewrite rmv_app, I4, G4 by (auto; congruence). rewrite <- rmv_app; [reflexivity|].
          rewrite HA1. destruct l as [| |mp]; cbn [dir_leaf]; try (rewrite rmv_length; reflexivity). destruct H as [Hw _]. rewrite Hw.
          pose proof W as (W1 & W2 & W3 & _). unfold tangentDim; cbn [getDim hdr_of]. unfold representationDim; cbn [hdr_of]. lia. }
    destruct Q as (Q1 & Q2 & Q3 & Q4). exists (concat Ys). split; [|split; [|split]]; auto.
    + rewrite E, fin_concat. apply adr_leaves; auto.
      * unfold cpieces. clear - FAs HA. induction FAs as [|s A ls As H F IH]; constructor; inversion HA; subst; [|apply IH; auto]. rewrite <- H. apply matR_shape. auto.
      * apply fin_pieces. auto.
      * exists (map (matR r) Ys). split; auto. unfold hcat, matR. f_equal. rewrite map_map. cbn [mcols_]. rewrite concat_map. reflexivity.
    + rewrite (leaves_dim DT m Hw). auto.
Qed.
Print Assumptions C07_derivative.

Lemma tan_no_s2 m x v : built m -> no_s2 m -> onM m x -> length v = tangentDim m -> tanM m x v.
Proof.
  intros B Ns (xs & -> & P) Lv. pose proof (built_wf _ B) as Hw. destruct (cutA DT m v Hw Lv) as (vs & -> & F).
  exists xs, vs. repeat split; auto. unfold no_s2 in Ns. clear - P F Ns. revert vs F Ns. induction P as [|s z ls xs H P IH]; intros vs F Ns; inversion F; inversion Ns; subst; constructor; auto.
  split; auto. destruct s as [h [| |] a b|]; auto. discriminate.
Qed.
Lemma rmv_unit k J j : Forall (fun c => length c = k) J -> (j < length J)%nat -> rmv k J (unitv (length J) j) = nth j J [].
Proof.
  intros F Hj. assert (Lj : length (nth j J []) = k) by (rewrite Forall_forall in F; apply F, nth_In; auto).
  apply (rvec_ext k); auto using rmv_length. intros i Hi. rewrite nth_rmv, rdot_unit by (auto; rewrite map_length; auto).
  rewrite nth_indep with (d' := (fun c => nth i c 0) []) by (rewrite map_length; auto).
  rewrite (map_nth (fun c => nth i c 0)). reflexivity.
Qed.
(** Column j of diffRetractation(x) is the derivative of t -> retractation(x, t e_j) at 0. *)
Theorem C07_columns : forall m : mfd XR, built m -> no_s2 m -> forall x : list R, onM m x ->
  exists J, diffRetractation m (fin x) = Ok (matR (representationDim m) J) /\ length J = tangentDim m /\
    forall j, (j < tangentDim m)%nat -> exists (y : R -> list R) (d : R), 0 < d /\
      (forall t, Rabs t < d -> forall out, length out = representationDim m ->
         retractation m out (fin x) (fin (rscal t (unitv (tangentDim m) j))) = Ok (fin (y t))) /\
      deriv_v y 0 (nth j J []).
Proof.
  intros m B Ns x P.
  destruct (C07_derivative m B x (repeat 0 (tangentDim m))) as (y0 & D0 & d0 & _ & _ & _ & HJ & _).
  { apply tan_no_s2; auto. apply repeat_length. }
  destruct (HJ Ns) as (J & EJ & LJ & FJ & _). exists J. split; auto. split; auto. intros j Hj.
  assert (Lu : length (unitv (tangentDim m) j) = tangentDim m) by (unfold unitv; rewrite map_length, seq_length; auto).
  destruct (C07_derivative m B x (unitv (tangentDim m) j)) as (y & D & d & H1 & H2 & H3 & HJ' & _); [apply tan_no_s2; auto|].
  destruct (HJ' Ns) as (J' & EJ' & LJ' & FJ' & ED). exists y, d. split; auto. split; auto.
  assert (J' = J). { rewrite EJ in EJ'. inversion EJ' as [E]. clear - E. symmetry. revert J' E; induction J as [|c J IH]; intros [|c' J'] E; try discriminate; auto. inversion E. f_equal; auto. apply fin_inj. auto. }
  subst J'. rewrite <- ED in H3. rewrite <- LJ in H3. rewrite rmv_unit in H3 by (auto; lia). exact H3.
Qed.
Print Assumptions C07_columns.

Example C07_example : built rS /\ tanM rS rSx rSv /\ built rP /\ no_s2 rP /\ onM rP rPx.
Proof. repeat split; auto using rS_built, rSv_tan, rP_built, rP_no_s2, rPx_on. Qed.
