(** Matrix operations of products: applyDiffRetractation, applyDiffPseudoLog0, the transports. *)
From Coq Require Import List Arith Bool ZArith Lia.
From Verif Require Import Base Scalar Vec Model_Real Model_S2 Model_SO3 Model_Manifold Spec Layout Comp Structure BlockMat MatOps.
Import ListNotations.

Section MatProd.
Context {K : Type} {SK : Scalar K}.
Implicit Types (p m s : mfd K) (fs subs pre post : list (mfd K)) (M B J out inp : mat K).

Lemma nth_error_combine {A T} (l : list A) (l' : list T) i a b :
  nth_error (combine l l') i = Some (a, b) -> nth_error l i = Some a /\ nth_error l' i = Some b.
Proof.
  revert l' i; induction l; intros [|b' l'] [|i] H; simpl in *; try discriminate; auto.
  inversion H; subst; auto.
Qed.

Lemma cpieces_any D r subs Bs : cpieces (K:=K) D r subs Bs -> Forall (fun B => shape B r (ncols B)) Bs.
Proof.
  induction 1 as [|s B ss Bs (H1 & H2 & H3) _ IH]; constructor; auto. repeat split; auto.
Qed.
Lemma rpieces_any D n subs Bs : rpieces (K:=K) D n subs Bs -> Forall (fun B => shape B (mrows B) n) Bs.
Proof. intros H. apply (rpieces_dims _ _ _ _ H). Qed.
Lemma cpieces_len D r subs Bs : cpieces (K:=K) D r subs Bs -> List.length Bs = List.length subs.
Proof. induction 1; simpl; congruence. Qed.
Lemma rpieces_len D r subs Bs : rpieces (K:=K) D r subs Bs -> List.length Bs = List.length subs.
Proof. induction 1; simpl; congruence. Qed.

Lemma cols_prod {X} Do Di h sT sR subs r (op : mfd K -> mat K -> mat K -> X -> res (mat K))
  (f : nat -> mfd K -> mat K -> res (mat K)) outs inps args Y :
  wf (Prod h sT sR subs) -> cpieces Do r subs outs -> cpieces Di r subs inps ->
  List.length args = List.length subs ->
  (forall i s c a o, nth_error subs i = Some s -> nth_error inps i = Some c -> nth_error args i = Some a ->
     f i s o = op s o c a) ->
  (forall s o c a y, In s subs -> shape o r (getDim Do s) -> shape c r (ncols c) -> op s o c a = Ok y ->
     shape y r (getDim Do s)) ->
  (loop (fun i s out => on_cols Do (Prod h sT sR subs) i (f i s) out) 0 subs (hcat r outs) = Ok Y
   <-> exists ys, Y = hcat r ys /\
       Forall4 (fun s o ca y => op s o (fst ca) (snd ca) = Ok y) subs outs (combine inps args) ys).
Proof.
  intros Hwf Ho Hi Hl Hf Hsh.
  pose proof (cpieces_len _ _ _ _ Ho) as Lo. pose proof (cpieces_len _ _ _ _ Hi) as Li.
  assert (Lc : List.length (combine inps args) = List.length subs) by (rewrite combine_length; lia).
  rewrite (loop_on_cols Do h sT sR subs r (fun s o ca => op s o (fst ca) (snd ca)) f outs (combine inps args)); auto.
  - split.
    + intros H. destruct (evalM _ _ _ _) as [ys|] eqn:E; [|discriminate]. cbn [bind] in H. inversion H; subst.
      exists ys. split; auto. apply evalM_iff in E; auto.
    + intros (ys & -> & H). apply evalM_iff in H; auto. rewrite H. reflexivity.
  - intros i s [c a] o Hs Hc. apply nth_error_combine in Hc. destruct Hc. simpl. eapply Hf; eauto.
  - intros s o [c a] y Hin Hc Hs Hop. eapply Hsh; eauto. pose proof (cpieces_any _ _ _ _ Hi) as Hany.
    rewrite Forall_forall in Hany. apply Hany. eapply in_combine_l; eauto.
Qed.

Lemma rows_prod {X} Do Di h sT sR subs n (op : mfd K -> mat K -> mat K -> X -> res (mat K))
  (f : nat -> mfd K -> mat K -> res (mat K)) outs inps args Y :
  wf (Prod h sT sR subs) -> rpieces Do n subs outs -> rpieces Di n subs inps ->
  List.length args = List.length subs ->
  (forall i s c a o, nth_error subs i = Some s -> nth_error inps i = Some c -> nth_error args i = Some a ->
     f i s o = op s o c a) ->
  (forall s o c a y, In s subs -> shape o (getDim Do s) n -> shape c (mrows c) n -> op s o c a = Ok y ->
     shape y (getDim Do s) n) ->
  (loop (fun i s out => on_rows Do (Prod h sT sR subs) i (f i s) out) 0 subs (vcat n outs) = Ok Y
   <-> exists ys, Y = vcat n ys /\
       Forall4 (fun s o ca y => op s o (fst ca) (snd ca) = Ok y) subs outs (combine inps args) ys).
Proof.
  intros Hwf Ho Hi Hl Hf Hsh.
  pose proof (rpieces_len _ _ _ _ Ho) as Lo. pose proof (rpieces_len _ _ _ _ Hi) as Li.
  assert (Lc : List.length (combine inps args) = List.length subs) by (rewrite combine_length; lia).
  rewrite (loop_on_rows Do h sT sR subs n (fun s o ca => op s o (fst ca) (snd ca)) f outs (combine inps args)); auto.
  - split.
    + intros H. destruct (evalM _ _ _ _) as [ys|] eqn:E; [|discriminate]. cbn [bind] in H. inversion H; subst.
      exists ys. split; auto. apply evalM_iff in E; auto.
    + intros (ys & -> & H). apply evalM_iff in H; auto. rewrite H. reflexivity.
  - intros i s [c a] o Hs Hc. apply nth_error_combine in Hc. destruct Hc. simpl. eapply Hf; eauto.
  - intros s o [c a] y Hin Hc Hs Hop. eapply Hsh; eauto. pose proof (rpieces_any _ _ _ _ Hi) as Hany.
    rewrite Forall_forall in Hany. apply Hany. eapply in_combine_l; eauto.
Qed.

Lemma cpieces_ncols D r h sT sR subs Bs : wf (Prod h sT sR subs) -> cpieces D r subs Bs ->
  ncols (hcat r Bs) = getDim D (Prod h sT sR subs).
Proof. intros Hwf H. rewrite (wf_prod_getDim _ _ _ _ _ Hwf). apply (hcat_shape D r subs Bs H). Qed.
Lemma rpieces_mrows D n h sT sR subs Bs : wf (Prod h sT sR subs) -> rpieces D n subs Bs ->
  mrows (vcat n Bs) = getDim D (Prod h sT sR subs).
Proof. intros Hwf H. rewrite (wf_prod_getDim _ _ _ _ _ Hwf). apply (rpieces_shape D n subs Bs H). Qed.
Lemma rpieces_ncols D n subs Bs : rpieces D n subs Bs -> ncols (vcat n Bs) = n.
Proof. intros H. apply (rpieces_shape D n subs Bs H). Qed.

Lemma mnf_inv (b : bool) u : mnf_assert b = Ok u -> b = true.
Proof. destruct b; [auto|discriminate]. Qed.
Lemma eigen_inv (b : bool) u : eigen_assert b = Ok u -> b = true.
Proof. destruct b; [auto|discriminate]. Qed.

Lemma shape_mmul (A J : mat K) r c : mrows A = r -> ncols J = c -> shape (mmul A J) r c.
Proof.
  intros <- <-. repeat split; simpl.
  - apply map_length.
  - apply Forall_forall. intros v Hv. apply in_map_iff in Hv. destruct Hv as (w & <- & _).
    unfold mvmul. rewrite map_length, seq_length. auto.
Qed.

Lemma massign_val_shape out J r c B : shape out r c -> shape J (mrows J) (ncols J) -> massign out J = Ok B ->
  shape B r c.
Proof.
  intros Ho HJ H. apply massign_inv in H. destruct H as (-> & E1 & E2).
  destruct Ho as (O1 & O2 & _). rewrite O1 in E1. unfold ncols in E2. rewrite O2 in E2.
  eapply shape_eq; eauto.
Qed.

Lemma s2_projRows_shape out inp (x : vec K) y r c : shape out r c -> s2_projRows out inp x = Ok y -> shape y r c.
Proof.
  unfold s2_projRows. intros (O1 & O2 & _) H. inv_check H. inversion H; subst.
  apply andb_prop in Heqb. destruct Heqb as [Hb E3]. apply andb_prop in Hb. destruct Hb as [E1 E2].
  apply Nat.eqb_eq in E1, E2, E3. unfold ncols in *. rewrite E1, E3, <- E2. apply shape_mbuild.
Qed.


Lemma cols_shapes {X} Do r (op : mfd K -> mat K -> mat K -> X -> res (mat K)) subs outs inps (args : list X) ys :
  cpieces Do r subs outs -> Forall (fun B => shape B r (ncols B)) inps ->
  (forall s o c a y, In s subs -> shape o r (getDim Do s) -> shape c r (ncols c) -> op s o c a = Ok y ->
     shape y r (getDim Do s)) ->
  Forall4 (fun s o ca y => op s o (fst ca) (snd ca) = Ok y) subs outs (combine inps args) ys ->
  cpieces Do r subs ys.
Proof.
  intros Hos Hany Hsh H. remember (combine inps args) as az eqn:Haz. revert inps args Haz Hos Hany.
  induction H as [|s o [c x] y ss os az ys Hop H IHl]; intros inps xs Haz Hos Hany; [constructor|].
  destruct inps as [|c0 inps]; [discriminate|]. destruct xs as [|x0 xs]; [discriminate|]. inversion Haz; subst.
  inversion Hos; subst. inversion Hany; subst. constructor.
  - eapply Hsh; simpl; eauto.
  - eapply IHl; eauto. intros; eapply Hsh; simpl; eauto.
Qed.
Lemma rows_shapes {X} Do n (op : mfd K -> mat K -> mat K -> X -> res (mat K)) subs outs inps (args : list X) ys :
  rpieces Do n subs outs -> Forall (fun B => shape B (mrows B) n) inps ->
  (forall s o c a y, In s subs -> shape o (getDim Do s) n -> shape c (mrows c) n -> op s o c a = Ok y ->
     shape y (getDim Do s) n) ->
  Forall4 (fun s o ca y => op s o (fst ca) (snd ca) = Ok y) subs outs (combine inps args) ys ->
  rpieces Do n subs ys.
Proof.
  intros Hos Hany Hsh H. remember (combine inps args) as az eqn:Haz. revert inps args Haz Hos Hany.
  induction H as [|s o [c x] y ss os az ys Hop H IHl]; intros inps xs Haz Hos Hany; [constructor|].
  destruct inps as [|c0 inps]; [discriminate|]. destruct xs as [|x0 xs]; [discriminate|]. inversion Haz; subst.
  inversion Hos; subst. inversion Hany; subst. constructor.
  - eapply Hsh; simpl; eauto.
  - eapply IHl; eauto. intros; eapply Hsh; simpl; eauto.
Qed.

Lemma mmul_self_shape (A J : mat K) : shape (mmul A J) (mrows (mmul A J)) (ncols (mmul A J)).
Proof. apply shape_mmul; auto. unfold ncols, mmul. simpl. rewrite map_length. auto. Qed.

Lemma m3_on_cols_shape (R : m3 K) out inp y n : shape out 3 n -> m3_on_cols R out inp = Ok y -> shape y 3 n.
Proof.
  unfold m3_on_cols. intros (O1 & O2 & _) H. inv_check H. inversion H; subst.
  apply andb_prop in Heqb. destruct Heqb as [Hb E3]. apply Nat.eqb_eq in E3. unfold ncols in *.
  repeat split; simpl.
  - rewrite map_length. congruence.
  - apply Forall_forall. intros v Hv. apply in_map_iff in Hv. destruct Hv as (w & <- & _). reflexivity.
Qed.

(** ** applyDiffRetractation *)

Lemma adr_prod_aux h sT sR subs r outs inps xs Y : wf (Prod h sT sR subs) ->
  (forall s o c x y, In s subs -> shape o r (getDim DT s) -> shape c r (ncols c) ->
     applyDiffRetractation s o c x = Ok y -> shape y r (getDim DT s)) ->
  cpieces DT r subs outs -> cpieces DR r subs inps -> pieces DR subs xs ->
  (applyDiffRetractation (Prod h sT sR subs) (hcat r outs) (hcat r inps) (concat xs) = Ok Y
   <-> exists ys, Y = hcat r ys /\
       Forall4 (fun s o ca y => applyDiffRetractation s o (fst ca) (snd ca) = Ok y) subs outs (combine inps xs) ys).
Proof.
  intros Hwf Hsh Ho Hi Hx. cbn [applyDiffRetractation].
  rewrite !check_eq by first [exact (cpieces_ncols DR r _ _ _ _ _ Hwf Hi)|exact (cpieces_ncols DT r _ _ _ _ _ Hwf Ho)
    |reflexivity|exact (pieces_getDim DR _ _ _ _ _ Hwf Hx)]. cbn [bind].
  apply (cols_prod DT DR h sT sR subs r applyDiffRetractation
    (fun i s o => ci <- getCols DR (Prod h sT sR subs) (hcat r inps) i ;;
                  xi <- getView DR (Prod h sT sR subs) (concat xs) i ;; applyDiffRetractation s o ci xi)); auto.
  - eapply pieces_len; eauto.
  - intros i s c a o Hs Hc Ha. rewrite (getCols_nth DR _ _ _ _ r _ _ c) by auto. cbn [bind].
    rewrite (getView_nth_error DR _ _ _ _ _ _ a) by auto. reflexivity.
Qed.

Lemma adr_shape m : wf m -> forall r out inp x y, shape out r (tangentDim m) -> shape inp r (ncols inp) ->
  applyDiffRetractation m out inp x = Ok y -> shape y r (tangentDim m).
Proof.
  induction m as [h l a b|h sT sR subs IH] using mfd_ind'; intros Hwf r out inp x y Ho Hi H.
  - cbn [applyDiffRetractation] in H. do 4 bind_inv H.
    assert (Hi' : shape inp (mrows inp) (ncols inp)) by (destruct Hi as (<- & ? & ?); repeat split; auto).
    destruct l as [| |[|]].
    + eapply massign_val_shape; eauto.
    + eapply s2_projRows_shape; eauto.
    + unfold em_applyDiffRetractation in H. do 2 bind_inv H. eapply massign_val_shape; [exact Ho| |exact H]. apply mmul_self_shape.
    + unfold eq_applyDiffRetractation in H. do 2 bind_inv H. eapply massign_val_shape; [exact Ho| |exact H]. apply mmul_self_shape.
  - assert (Hs : Forall wf subs) by (inversion Hwf; auto).
    pose proof H as H'. cbn [applyDiffRetractation] in H'. do 4 bind_inv H'. clear H'.
    repeat match goal with E : mnf_assert _ = Ok _ |- _ => apply mnf_inv in E; apply Nat.eqb_eq in E end.
    assert (DimO := wf_prod_getDim DT _ _ _ _ Hwf). assert (DimI := wf_prod_getDim DR _ _ _ _ Hwf).
    change (tangentDim (Prod h sT sR subs)) with (getDim DT (Prod h sT sR subs)) in *.
    change (representationDim (Prod h sT sR subs)) with (getDim DR (Prod h sT sR subs)) in *.
    destruct (cut_cols DT r subs out) as (outs & -> & Hos); [rewrite <- DimO; auto|].
    destruct (cut_cols DR r subs inp) as (inps & -> & His);
      [rewrite <- DimI; match goal with E : ncols inp = _ |- _ => rewrite <- E end; auto|].
    destruct (cut_self DR h sT sR subs x Hwf) as (xs & -> & Hxs); auto.
    assert (Hsub : forall s o c x y, In s subs -> shape o r (getDim DT s) -> shape c r (ncols c) ->
       applyDiffRetractation s o c x = Ok y -> shape y r (getDim DT s))
      by (rewrite Forall_forall in IH, Hs; intros; eapply IH; eauto).
    apply adr_prod_aux in H; auto.
    destruct H as (ys & -> & H). rewrite DimO. apply (hcat_shape DT r subs ys).
    apply (cols_shapes DT r applyDiffRetractation subs outs inps xs); eauto using cpieces_any.
Qed.

Lemma applyDiffRetractation_prod h sT sR subs r outs inps xs Y : wf (Prod h sT sR subs) ->
  cpieces DT r subs outs -> cpieces DR r subs inps -> pieces DR subs xs ->
  (applyDiffRetractation (Prod h sT sR subs) (hcat r outs) (hcat r inps) (concat xs) = Ok Y
   <-> exists ys, Y = hcat r ys /\
       Forall4 (fun s o ca y => applyDiffRetractation s o (fst ca) (snd ca) = Ok y) subs outs (combine inps xs) ys).
Proof.
  intros Hwf. apply adr_prod_aux; auto. inversion Hwf as [|? ? ? ? _ _ _ _ _ Hs]; subst.
  rewrite Forall_forall in Hs. intros; eapply adr_shape; eauto.
Qed.

(** ** applyDiffPseudoLog0 *)

Lemma adl_prod_aux h sT sR subs r outs inps xs Y : wf (Prod h sT sR subs) ->
  (forall s o c x y, In s subs -> shape o r (getDim DR s) -> shape c r (ncols c) ->
     applyDiffPseudoLog0 s o c x = Ok y -> shape y r (getDim DR s)) ->
  cpieces DR r subs outs -> cpieces DT r subs inps -> pieces DR subs xs ->
  (applyDiffPseudoLog0 (Prod h sT sR subs) (hcat r outs) (hcat r inps) (concat xs) = Ok Y
   <-> exists ys, Y = hcat r ys /\
       Forall4 (fun s o ca y => applyDiffPseudoLog0 s o (fst ca) (snd ca) = Ok y) subs outs (combine inps xs) ys).
Proof.
  intros Hwf Hsh Ho Hi Hx. cbn [applyDiffPseudoLog0].
  rewrite !check_eq by first [exact (cpieces_ncols DT r _ _ _ _ _ Hwf Hi)|exact (cpieces_ncols DR r _ _ _ _ _ Hwf Ho)
    |reflexivity|exact (pieces_getDim DR _ _ _ _ _ Hwf Hx)]. cbn [bind].
  apply (cols_prod DR DT h sT sR subs r applyDiffPseudoLog0
    (fun i s o => ci <- getCols DT (Prod h sT sR subs) (hcat r inps) i ;;
                  xi <- getView DR (Prod h sT sR subs) (concat xs) i ;; applyDiffPseudoLog0 s o ci xi)); auto.
  - eapply pieces_len; eauto.
  - intros i s c a o Hs Hc Ha. rewrite (getCols_nth DT _ _ _ _ r _ _ c) by auto. cbn [bind].
    rewrite (getView_nth_error DR _ _ _ _ _ _ a) by auto. reflexivity.
Qed.

Lemma adl_shape m : wf m -> forall r out inp x y, shape out r (representationDim m) -> shape inp r (ncols inp) ->
  applyDiffPseudoLog0 m out inp x = Ok y -> shape y r (representationDim m).
Proof.
  induction m as [h l a b|h sT sR subs IH] using mfd_ind'; intros Hwf r out inp x y Ho Hi H.
  - cbn [applyDiffPseudoLog0] in H. do 4 bind_inv H.
    assert (Hi' : shape inp (mrows inp) (ncols inp)) by (destruct Hi as (<- & ? & ?); repeat split; auto).
    destruct l as [| |[|]].
    + eapply massign_val_shape; eauto.
    + discriminate.
    + unfold em_applyDiffPseudoLog0 in H. do 2 bind_inv H. eapply massign_val_shape; [exact Ho| |exact H]. apply mmul_self_shape.
    + unfold eq_applyDiffPseudoLog0 in H. do 2 bind_inv H. eapply massign_val_shape; [exact Ho| |exact H]. apply mmul_self_shape.
  - assert (Hs : Forall wf subs) by (inversion Hwf; auto).
    pose proof H as H'. cbn [applyDiffPseudoLog0] in H'. do 4 bind_inv H'. clear H'.
    repeat match goal with E : mnf_assert _ = Ok _ |- _ => apply mnf_inv in E; apply Nat.eqb_eq in E end.
    assert (DimO := wf_prod_getDim DR _ _ _ _ Hwf). assert (DimI := wf_prod_getDim DT _ _ _ _ Hwf).
    change (tangentDim (Prod h sT sR subs)) with (getDim DT (Prod h sT sR subs)) in *.
    change (representationDim (Prod h sT sR subs)) with (getDim DR (Prod h sT sR subs)) in *.
    destruct (cut_cols DR r subs out) as (outs & -> & Hos); [rewrite <- DimO; auto|].
    destruct (cut_cols DT r subs inp) as (inps & -> & His);
      [rewrite <- DimI; match goal with E : ncols inp = _ |- _ => rewrite <- E end; auto|].
    destruct (cut_self DR h sT sR subs x Hwf) as (xs & -> & Hxs); auto.
    assert (Hsub : forall s o c x y, In s subs -> shape o r (getDim DR s) -> shape c r (ncols c) ->
       applyDiffPseudoLog0 s o c x = Ok y -> shape y r (getDim DR s))
      by (rewrite Forall_forall in IH, Hs; intros; eapply IH; eauto).
    apply adl_prod_aux in H; auto.
    destruct H as (ys & -> & H). rewrite DimO. apply (hcat_shape DR r subs ys).
    apply (cols_shapes DR r applyDiffPseudoLog0 subs outs inps xs); eauto using cpieces_any.
Qed.

Lemma applyDiffPseudoLog0_prod h sT sR subs r outs inps xs Y : wf (Prod h sT sR subs) ->
  cpieces DR r subs outs -> cpieces DT r subs inps -> pieces DR subs xs ->
  (applyDiffPseudoLog0 (Prod h sT sR subs) (hcat r outs) (hcat r inps) (concat xs) = Ok Y
   <-> exists ys, Y = hcat r ys /\
       Forall4 (fun s o ca y => applyDiffPseudoLog0 s o (fst ca) (snd ca) = Ok y) subs outs (combine inps xs) ys).
Proof.
  intros Hwf. apply adl_prod_aux; auto. inversion Hwf as [|? ? ? ? _ _ _ _ _ Hs]; subst.
  rewrite Forall_forall in Hs. intros; eapply adl_shape; eauto.
Qed.

(** ** Transports *)

Lemma transport_checks_prod h sT sR subs xs vs : wf (Prod h sT sR subs) ->
  pieces DR subs xs -> pieces DT subs vs ->
  Forall3 (fun s x v => isInTxM s x v default_prec = Ok true) subs xs vs ->
  transport_checks (Prod h sT sR subs) (concat xs) (concat vs) = Ok tt.
Proof.
  intros Hwf Hx Hv H. unfold transport_checks.
  rewrite check_eq by exact (pieces_getDim DR _ _ _ _ _ Hwf Hx).
  rewrite check_eq by exact (pieces_getDim DT _ _ _ _ _ Hwf Hv). cbn [bind].
  rewrite (proj2 (isInTxM_prod h sT sR subs xs vs default_prec Hwf Hx Hv) H). reflexivity.
Qed.

Lemma transport_checks_inv m (x v : vec K) u : transport_checks m x v = Ok u ->
  List.length x = representationDim m /\ List.length v = tangentDim m /\ isInTxM m x v default_prec = Ok true.
Proof.
  unfold transport_checks. intros H. do 2 inv_check H. bind_inv H.
  apply Nat.eqb_eq in Heqb, Heqb0. destruct a; [auto|discriminate].
Qed.

Lemma applyTransport_inTxM m out inp x v y : applyTransport m out inp x v = Ok y ->
  isInTxM m x v default_prec = Ok true.
Proof.
  destruct m; intros H; cbn [applyTransport] in H; do 4 bind_inv H; eapply transport_checks_inv; eauto.
Qed.
Lemma applyInvTransportOnTheRight_inTxM m out inp x v y : applyInvTransportOnTheRight m out inp x v = Ok y ->
  isInTxM m x v default_prec = Ok true.
Proof.
  destruct m; intros H; cbn [applyInvTransportOnTheRight] in H; do 4 bind_inv H; eapply transport_checks_inv; eauto.
Qed.

Lemma Forall4_inTxM (op : mfd K -> mat K -> mat K -> vec K * vec K -> res (mat K)) subs outs inps xs vs ys :
  (forall s o c x v y, op s o c (x, v) = Ok y -> isInTxM s x v default_prec = Ok true) ->
  List.length inps = List.length subs -> List.length xs = List.length subs -> List.length vs = List.length subs ->
  Forall4 (fun s o ca y => op s o (fst ca) (snd ca) = Ok y) subs outs (combine inps (combine xs vs)) ys ->
  Forall3 (fun s x v => isInTxM s x v default_prec = Ok true) subs xs vs.
Proof.
  intros Hop. revert outs inps xs vs ys. induction subs as [|s ss IH]; intros outs [|c inps] [|x xs] [|v vs] ys L1 L2 L3 H;
    try discriminate; [constructor|]. simpl in H. inversion H; subst. constructor; eauto.
Qed.

Lemma view_pair h sT sR subs xs vs i a : wf (Prod h sT sR subs) -> pieces DR subs xs -> pieces DT subs vs ->
  nth_error (combine xs vs) i = Some a ->
  getView DR (Prod h sT sR subs) (concat xs) i = Ok (fst a) /\
  getView DT (Prod h sT sR subs) (concat vs) i = Ok (snd a).
Proof.
  intros Hwf Hx Hv Ha. destruct a as [x v]. apply nth_error_combine in Ha. destruct Ha as [A1 A2].
  split; apply getView_nth_error; auto.
Qed.

Lemma atr_prod_aux h sT sR subs n outs inps xs vs Y : wf (Prod h sT sR subs) ->
  (forall s o c x v y, In s subs -> shape o (getDim DT s) n -> shape c (mrows c) n ->
     applyTransport s o c x v = Ok y -> shape y (getDim DT s) n) ->
  rpieces DT n subs outs -> rpieces DT n subs inps -> pieces DR subs xs -> pieces DT subs vs ->
  (applyTransport (Prod h sT sR subs) (vcat n outs) (vcat n inps) (concat xs) (concat vs) = Ok Y
   <-> exists ys, Y = vcat n ys /\
       Forall4 (fun s o ca y => applyTransport s o (fst ca) (fst (snd ca)) (snd (snd ca)) = Ok y)
               subs outs (combine inps (combine xs vs)) ys).
Proof.
  intros Hwf Hsh Ho Hi Hx Hv. cbn [applyTransport].
  rewrite !check_eq by first [exact (rpieces_mrows DT n _ _ _ _ _ Hwf Hi)|exact (rpieces_mrows DT n _ _ _ _ _ Hwf Ho)|rewrite (rpieces_ncols _ _ _ _ Hi), (rpieces_ncols _ _ _ _ Ho); reflexivity]. cbn [bind].
  assert (Lxv : List.length (combine xs vs) = List.length subs)
    by (rewrite combine_length, (pieces_len _ _ _ Hx), (pieces_len _ _ _ Hv); lia).
  assert (Main : loop (fun i s out => on_rows DT (Prod h sT sR subs) i (fun o =>
       ci <- getRows DT (Prod h sT sR subs) (vcat n inps) i ;;
       xi <- getView DR (Prod h sT sR subs) (concat xs) i ;;
       vi <- getView DT (Prod h sT sR subs) (concat vs) i ;; applyTransport s o ci xi vi) out) 0 subs (vcat n outs) = Ok Y
   <-> exists ys, Y = vcat n ys /\
       Forall4 (fun s o ca y => applyTransport s o (fst ca) (fst (snd ca)) (snd (snd ca)) = Ok y)
               subs outs (combine inps (combine xs vs)) ys).
  { apply (rows_prod DT DT h sT sR subs n (fun s o c xv => applyTransport s o c (fst xv) (snd xv))
    (fun i s o => ci <- getRows DT (Prod h sT sR subs) (vcat n inps) i ;;
       xi <- getView DR (Prod h sT sR subs) (concat xs) i ;;
       vi <- getView DT (Prod h sT sR subs) (concat vs) i ;; applyTransport s o ci xi vi)); auto.
    - intros i s c a o Hs Hc Ha. rewrite (getRows_nth DT _ _ _ _ n _ _ c) by auto. cbn [bind].
      destruct (view_pair h sT sR subs xs vs i a Hwf Hx Hv Ha) as [-> ->]. reflexivity.
    - intros s o c a y Hin So Sc. apply Hsh; auto. }
  rewrite <- Main. split.
  - intros H. bind_inv H. exact H.
  - intros H. rewrite transport_checks_prod; auto. apply Main in H. destruct H as (ys & _ & H).
    eapply (Forall4_inTxM (fun s o c xv => applyTransport s o c (fst xv) (snd xv))); [| | | |exact H];
      eauto using applyTransport_inTxM, rpieces_len, pieces_len.
Qed.

Lemma atr_shape m : wf m -> forall n out inp x v y, shape out (tangentDim m) n -> shape inp (mrows inp) n ->
  applyTransport m out inp x v = Ok y -> shape y (tangentDim m) n.
Proof.
  induction m as [h l a b|h sT sR subs IH] using mfd_ind'; intros Hwf n out inp x v y Ho Hi H.
  - cbn [applyTransport] in H. do 4 bind_inv H.
    assert (Hi' : shape inp (mrows inp) (ncols inp)) by (destruct Hi as (? & E' & ?); unfold ncols; rewrite E'; repeat split; auto).
    inversion Hwf as [? ? ? ? Hw|]; subst.
    destruct l as [| |mp].
    + eapply massign_val_shape; eauto.
    + bind_inv H. unfold s2_applyTransport in H. bind_inv H.
      unfold tangentDim in *. simpl in *. destruct Hw as (_ & T3 & _). rewrite T3 in *. eapply m3_on_cols_shape; eauto.
    + eapply massign_val_shape; eauto.
  - assert (Hs : Forall wf subs) by (inversion Hwf; auto).
    pose proof H as H'. cbn [applyTransport] in H'. do 4 bind_inv H'. clear H'.
    match goal with E : transport_checks _ _ _ = Ok _ |- _ => apply transport_checks_inv in E; destruct E as (Ex & Ev & _) end.
    repeat match goal with E : mnf_assert _ = Ok _ |- _ => apply mnf_inv in E; apply Nat.eqb_eq in E end.
    assert (DimO := wf_prod_getDim DT _ _ _ _ Hwf).
    change (tangentDim (Prod h sT sR subs)) with (getDim DT (Prod h sT sR subs)) in *.
    destruct (cut_rows DT n subs out) as (outs & -> & Hos); [rewrite <- DimO; auto|].
    destruct (cut_rows DT n subs inp) as (inps & -> & His);
      [rewrite <- DimO; match goal with E : mrows inp = _ |- _ => rewrite <- E end; auto|].
    destruct (cut_self DR h sT sR subs x Hwf) as (xs & -> & Hxs); auto.
    destruct (cut_self DT h sT sR subs v Hwf) as (vs & -> & Hvs); auto.
    assert (Hsub : forall s o c x v y, In s subs -> shape o (getDim DT s) n -> shape c (mrows c) n ->
       applyTransport s o c x v = Ok y -> shape y (getDim DT s) n)
      by (rewrite Forall_forall in IH, Hs; intros; eapply IH; eauto).
    apply atr_prod_aux in H; auto.
    destruct H as (ys & -> & H). rewrite DimO. apply (rpieces_shape DT n subs ys).
    apply (rows_shapes DT n (fun s o c xv => applyTransport s o c (fst xv) (snd xv)) subs outs inps (combine xs vs)); eauto using rpieces_any.
Qed.

Lemma applyTransport_prod h sT sR subs n outs inps xs vs Y : wf (Prod h sT sR subs) ->
  rpieces DT n subs outs -> rpieces DT n subs inps -> pieces DR subs xs -> pieces DT subs vs ->
  (applyTransport (Prod h sT sR subs) (vcat n outs) (vcat n inps) (concat xs) (concat vs) = Ok Y
   <-> exists ys, Y = vcat n ys /\
       Forall4 (fun s o ca y => applyTransport s o (fst ca) (fst (snd ca)) (snd (snd ca)) = Ok y)
               subs outs (combine inps (combine xs vs)) ys).
Proof.
  intros Hwf. apply atr_prod_aux; auto. inversion Hwf as [|? ? ? ? _ _ _ _ _ Hs]; subst.
  rewrite Forall_forall in Hs. intros; eapply atr_shape; eauto.
Qed.

Lemma aitr_prod_aux h sT sR subs n outs inps xs vs Y : wf (Prod h sT sR subs) ->
  (forall s o c x v y, In s subs -> shape o n (getDim DT s) -> shape c n (ncols c) ->
     applyInvTransportOnTheRight s o c x v = Ok y -> shape y n (getDim DT s)) ->
  cpieces DT n subs outs -> cpieces DT n subs inps -> pieces DR subs xs -> pieces DT subs vs ->
  (applyInvTransportOnTheRight (Prod h sT sR subs) (hcat n outs) (hcat n inps) (concat xs) (concat vs) = Ok Y
   <-> exists ys, Y = hcat n ys /\
       Forall4 (fun s o ca y => applyInvTransportOnTheRight s o (fst ca) (fst (snd ca)) (snd (snd ca)) = Ok y)
               subs outs (combine inps (combine xs vs)) ys).
Proof.
  intros Hwf Hsh Ho Hi Hx Hv. cbn [applyInvTransportOnTheRight].
  rewrite !check_eq by first [exact (cpieces_ncols DT n _ _ _ _ _ Hwf Hi)|exact (cpieces_ncols DT n _ _ _ _ _ Hwf Ho)|reflexivity]. cbn [bind].
  assert (Lxv : List.length (combine xs vs) = List.length subs)
    by (rewrite combine_length, (pieces_len _ _ _ Hx), (pieces_len _ _ _ Hv); lia).
  assert (Main : loop (fun i s out => on_cols DT (Prod h sT sR subs) i (fun o =>
       ci <- getCols DT (Prod h sT sR subs) (hcat n inps) i ;;
       xi <- getView DR (Prod h sT sR subs) (concat xs) i ;;
       vi <- getView DT (Prod h sT sR subs) (concat vs) i ;; applyInvTransportOnTheRight s o ci xi vi) out) 0 subs (hcat n outs) = Ok Y
   <-> exists ys, Y = hcat n ys /\
       Forall4 (fun s o ca y => applyInvTransportOnTheRight s o (fst ca) (fst (snd ca)) (snd (snd ca)) = Ok y)
               subs outs (combine inps (combine xs vs)) ys).
  { apply (cols_prod DT DT h sT sR subs n (fun s o c xv => applyInvTransportOnTheRight s o c (fst xv) (snd xv))
    (fun i s o => ci <- getCols DT (Prod h sT sR subs) (hcat n inps) i ;;
       xi <- getView DR (Prod h sT sR subs) (concat xs) i ;;
       vi <- getView DT (Prod h sT sR subs) (concat vs) i ;; applyInvTransportOnTheRight s o ci xi vi)); auto.
    - intros i s c a o Hs Hc Ha. rewrite (getCols_nth DT _ _ _ _ n _ _ c) by auto. cbn [bind].
      destruct (view_pair h sT sR subs xs vs i a Hwf Hx Hv Ha) as [-> ->]. reflexivity.
    - intros s o c a y Hin So Sc. apply Hsh; auto. }
  rewrite <- Main. split.
  - intros H. bind_inv H. exact H.
  - intros H. rewrite transport_checks_prod; auto. apply Main in H. destruct H as (ys & _ & H).
    eapply (Forall4_inTxM (fun s o c xv => applyInvTransportOnTheRight s o c (fst xv) (snd xv))); [| | | |exact H];
      eauto using applyInvTransportOnTheRight_inTxM, cpieces_len, pieces_len.
Qed.

Lemma aitr_shape m : wf m -> forall n out inp x v y, shape out n (tangentDim m) -> shape inp n (ncols inp) ->
  applyInvTransportOnTheRight m out inp x v = Ok y -> shape y n (tangentDim m).
Proof.
  induction m as [h l a b|h sT sR subs IH] using mfd_ind'; intros Hwf n out inp x v y Ho Hi H.
  - cbn [applyInvTransportOnTheRight] in H. do 4 bind_inv H.
    assert (Hi' : shape inp (mrows inp) (ncols inp)) by (destruct Hi as (<- & ? & ?); repeat split; auto).
    inversion Hwf as [? ? ? ? Hw|]; subst.
    destruct l as [| |mp].
    + eapply massign_val_shape; eauto.
    + bind_inv H. unfold s2_applyInvTransportOnTheRight in H. do 2 bind_inv H. inversion H; subst.
      match goal with E : mnf_assert (mrows inp =? _) = _ |- _ => apply mnf_inv in E; apply Nat.eqb_eq in E; rewrite E end.
      unfold tangentDim in *. simpl in *. destruct Hw as (_ & T3 & _). rewrite T3 in *.
      destruct Ho as (O1 & _). rewrite O1. apply shape_mbuild.
    + eapply massign_val_shape; eauto.
  - assert (Hs : Forall wf subs) by (inversion Hwf; auto).
    pose proof H as H'. cbn [applyInvTransportOnTheRight] in H'. do 4 bind_inv H'. clear H'.
    match goal with E : transport_checks _ _ _ = Ok _ |- _ => apply transport_checks_inv in E; destruct E as (Ex & Ev & _) end.
    repeat match goal with E : mnf_assert _ = Ok _ |- _ => apply mnf_inv in E; apply Nat.eqb_eq in E end.
    assert (DimO := wf_prod_getDim DT _ _ _ _ Hwf).
    change (tangentDim (Prod h sT sR subs)) with (getDim DT (Prod h sT sR subs)) in *.
    destruct (cut_cols DT n subs out) as (outs & -> & Hos); [rewrite <- DimO; auto|].
    destruct (cut_cols DT n subs inp) as (inps & -> & His);
      [rewrite <- DimO; match goal with E : ncols inp = _ |- _ => rewrite <- E end; auto|].
    destruct (cut_self DR h sT sR subs x Hwf) as (xs & -> & Hxs); auto.
    destruct (cut_self DT h sT sR subs v Hwf) as (vs & -> & Hvs); auto.
    assert (Hsub : forall s o c x v y, In s subs -> shape o n (getDim DT s) -> shape c n (ncols c) ->
       applyInvTransportOnTheRight s o c x v = Ok y -> shape y n (getDim DT s))
      by (rewrite Forall_forall in IH, Hs; intros; eapply IH; eauto).
    apply aitr_prod_aux in H; auto.
    destruct H as (ys & -> & H). rewrite DimO. apply (hcat_shape DT n subs ys).
    apply (cols_shapes DT n (fun s o c xv => applyInvTransportOnTheRight s o c (fst xv) (snd xv)) subs outs inps (combine xs vs)); eauto using cpieces_any.
Qed.

Lemma applyInvTransportOnTheRight_prod h sT sR subs n outs inps xs vs Y : wf (Prod h sT sR subs) ->
  cpieces DT n subs outs -> cpieces DT n subs inps -> pieces DR subs xs -> pieces DT subs vs ->
  (applyInvTransportOnTheRight (Prod h sT sR subs) (hcat n outs) (hcat n inps) (concat xs) (concat vs) = Ok Y
   <-> exists ys, Y = hcat n ys /\
       Forall4 (fun s o ca y => applyInvTransportOnTheRight s o (fst ca) (fst (snd ca)) (snd (snd ca)) = Ok y)
               subs outs (combine inps (combine xs vs)) ys).
Proof.
  intros Hwf. apply aitr_prod_aux; auto. inversion Hwf as [|? ? ? ? _ _ _ _ _ Hs]; subst.
  rewrite Forall_forall in Hs. intros; eapply aitr_shape; eauto.
Qed.
End MatProd.
