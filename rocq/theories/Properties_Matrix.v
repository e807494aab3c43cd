(** Matrix operations of every tree of manifolds: C06 (Jacobian products), C09, C10 (transports),
    C12 (tangent constraint), C15 (identity on the tangent space). *)
From Coq Require Import Reals List Lra Lia ZArith Bool Arith.
From Verif Require Import Base Scalar Vec Model_Real Model_S2 Model_SO3 Model_Manifold Spec Layout Comp Flat BlockMat MatOps MatProd MatTan
  Structure XR SpecR RotR NumVec NumTree NumS2 RoundTrip MatNum JacApply TanLeaf ExScalar ExR Properties_S2 Properties_SO3 Properties_Points.
Import ListNotations.
Local Open Scope R_scope.

(** * C06 *)
(** [Y] is the product [A B] ([n] columns of A, rows of B), entry by entry. *)
Definition is_product (A B Y : mat XR) (r n c : nat) : Prop :=
  shape Y r c /\ forall i j, (i < r)%nat -> (j < c)%nat ->
    mget Y i j = xsum n (fun k => lift2 Rmult (mget A i k) (mget B k j)).

(** Whenever the Jacobian is returned, applying it is multiplying by it: any tree, any point (even off the
    manifold or with non-finite coordinates), any number of rows of finite coefficients. *)
Theorem C06_apply_diffRetractation : forall m : mfd XR, built m -> forall (x : list XR) (J : mat XR),
  diffRetractation m x = Ok J ->
  shape J (representationDim m) (tangentDim m) /\
  forall (r : nat) (cs : list (list R)) (out : mat XR),
    length cs = representationDim m -> Forall (fun c => length c = r) cs -> shape out r (tangentDim m) ->
    exists Y, applyDiffRetractation m out (matR r cs) x = Ok Y /\
      is_product (matR r cs) J Y r (representationDim m) (tangentDim m).
Proof.
  intros m B x J HJ. apply built_wf in B. pose proof (diffRetractation_shape m B x J HJ) as SJ. split; auto.
  intros r cs out Lc F So. assert (Si : shape (matR r cs) r (representationDim m)) by (rewrite <- Lc; apply matR_shape; auto).
  exists (mmul (matR r cs) J). split; [eapply adr_mul; eauto using finite_matR|]. split.
  - apply shape_mmul; auto. apply SJ.
  - intros. apply (mmul_entry _ _ r _ (tangentDim m)); auto.
Qed.
Print Assumptions C06_apply_diffRetractation.

Theorem C06_apply_diffPseudoLog0 : forall m : mfd XR, built m -> forall (x : list XR) (J : mat XR),
  diffPseudoLog0 m x = Ok J ->
  shape J (tangentDim m) (representationDim m) /\
  forall (r : nat) (cs : list (list R)) (out : mat XR),
    length cs = tangentDim m -> Forall (fun c => length c = r) cs -> shape out r (representationDim m) ->
    exists Y, applyDiffPseudoLog0 m out (matR r cs) x = Ok Y /\
      is_product (matR r cs) J Y r (tangentDim m) (representationDim m).
Proof.
  intros m B x J HJ. apply built_wf in B. pose proof (diffPseudoLog0_shape m B x J HJ) as SJ. split; auto.
  intros r cs out Lc F So. assert (Si : shape (matR r cs) r (tangentDim m)) by (rewrite <- Lc; apply matR_shape; auto).
  exists (mmul (matR r cs) J). split; [eapply adl_mul; eauto using finite_matR|]. split.
  - apply shape_mmul; auto. apply SJ.
  - intros. apply (mmul_entry _ _ r _ (representationDim m)); auto.
Qed.
Print Assumptions C06_apply_diffPseudoLog0.

(** The Jacobians are returned at every point of a tree without a sphere; with a sphere they throw. *)
Theorem C06_jacobians_returned : forall m : mfd XR, built m -> forall x : list XR, length x = representationDim m ->
  (no_s2 m -> (exists J, diffRetractation m x = Ok J) /\ exists J, diffPseudoLog0 m x = Ok J) /\
  (~ no_s2 m -> (forall J, diffRetractation m x <> Ok J) /\ forall J, diffPseudoLog0 m x <> Ok J).
Proof.
  intros m B x Lx. apply built_wf in B. split; intros Ns.
  - split; [apply diffRetractation_total|apply diffPseudoLog0_total]; auto.
  - destruct (cut_leaves DR m x B Lx) as (xs & -> & P).
    assert (G : forall op : mfd XR -> list XR -> res (mat XR),
      (forall h sT sR subs xs y, wf (Prod h sT sR subs) -> pieces DR subs xs ->
        (op (Prod h sT sR subs) (concat xs) = Ok y <-> exists ys, Forall3 (fun s x r => op s x = Ok r) subs xs ys /\ y = bdiag ys)) ->
      (forall h a b x J, op (Leaf h LS2 a b) x <> Ok J) -> forall J, op m (concat xs) <> Ok J).
    { intros op Hp Hl J HJ. apply (flat_mat op) in HJ; auto.
      - destruct HJ as (Js & _ & F). apply Ns. clear - F Hl. unfold no_s2. induction F as [|s z r ls zs rs H F IH]; constructor; auto.
        destruct s as [h [| |] a b|]; auto. exfalso. eapply Hl; eauto.
      - intros. rewrite Hp by auto. firstorder. }
    split; apply G.
    + intros. apply diffRetractation_prod; auto.
    + intros h a b z J H. cbn [diffRetractation] in H. destruct (mnf_assert _); discriminate.
    + intros. apply diffPseudoLog0_prod; auto.
    + intros h a b z J H. cbn [diffPseudoLog0] in H. destruct (mnf_assert _); discriminate.
Qed.
Print Assumptions C06_jacobians_returned.

(** On a product the Jacobians are block diagonal, the blocks being the factors' Jacobians, and the
    application acts on each block of columns with the matching factor (any scalar type). *)
Theorem C06_block_diagonal : forall (K : Type) (SK : Scalar K) (P : mfd K) (fs : list (mfd K)) (xs : list (vec K)),
  factors P fs -> pieces DR fs xs ->
  (forall J, diffRetractation P (concat xs) = Ok J <->
     exists Js, Forall3 (fun s x B => diffRetractation s x = Ok B) fs xs Js /\ J = bdiag Js) /\
  (forall J, diffPseudoLog0 P (concat xs) = Ok J <->
     exists Js, Forall3 (fun s x B => diffPseudoLog0 s x = Ok B) fs xs Js /\ J = bdiag Js) /\
  (forall r outs inps Y, Forall2 (fun s B => shape B r (tangentDim s)) fs outs ->
     Forall2 (fun s B => shape B r (representationDim s)) fs inps ->
     (applyDiffRetractation P (hcat r outs) (hcat r inps) (concat xs) = Ok Y <->
      exists Ys, Y = hcat r Ys /\
        Forall4 (fun s o ix y => applyDiffRetractation s o (fst ix) (snd ix) = Ok y) fs outs (combine inps xs) Ys)) /\
  (forall r outs inps Y, Forall2 (fun s B => shape B r (representationDim s)) fs outs ->
     Forall2 (fun s B => shape B r (tangentDim s)) fs inps ->
     (applyDiffPseudoLog0 P (hcat r outs) (hcat r inps) (concat xs) = Ok Y <->
      exists Ys, Y = hcat r Ys /\
        Forall4 (fun s o ix y => applyDiffPseudoLog0 s o (fst ix) (snd ix) = Ok y) fs outs (combine inps xs) Ys)).
Proof.
  intros K SK P fs xs H Hx. destruct (factors_wf _ _ H) as (h & sT & sR & -> & Hw). split; [|split; [|split]].
  - intros. apply diffRetractation_prod; auto.
  - intros. apply diffPseudoLog0_prod; auto.
  - intros. apply applyDiffRetractation_prod; auto.
  - intros. apply applyDiffPseudoLog0_prod; auto.
Qed.
Print Assumptions C06_block_diagonal.

(** (R^2 x SO(3)) x unit quaternions: 15 coordinates, 8 tangent directions. *)
Example C06_example : no_s2 rP /\ representationDim rP = 15%nat /\ tangentDim rP = 8%nat /\
  exists J, diffRetractation rP (fin rPx) = Ok J /\ shape J 15 8 /\
    mget J 0 0 = Fin 1 /\ mget J 4 3 = Fin (- 1) /\ mget J 0 5 = Fin 0.
Proof.
  split; [apply rP_no_s2|]. split; [reflexivity|]. split; [reflexivity|].
  pose proof (proj1 (C06_jacobians_returned rP rP_built (fin rPx) ltac:(reflexivity)) rP_no_s2) as [[J HJ] _].
  exists J. split; auto. split; [apply (C06_apply_diffRetractation rP rP_built (fin rPx) J HJ)|].
  vm_compute in HJ. inversion HJ; subst J. cbn. repeat split; f_equal; ring.
Qed.

(** * C09 *)
(** A product transports each block of rows with the matching factor: any scalar type, number of factors
    and number of columns; the call succeeds exactly when every factor's call does. *)
Theorem C09_transport_blockwise : forall (K : Type) (SK : Scalar K) (P : mfd K) (fs : list (mfd K)) (xs vs : list (vec K)),
  factors P fs -> pieces DR fs xs -> pieces DT fs vs ->
  (forall n (M : mat K), shape M (tangentDim P) n <-> exists Bs, M = vcat n Bs /\ Forall2 (fun s B => shape B (tangentDim s) n) fs Bs) /\
  forall n outs inps Y,
    Forall2 (fun s B => shape B (tangentDim s) n) fs outs -> Forall2 (fun s B => shape B (tangentDim s) n) fs inps ->
    (applyTransport P (vcat n outs) (vcat n inps) (concat xs) (concat vs) = Ok Y <->
     exists Ys, Y = vcat n Ys /\
       Forall4 (fun s o ixv y => applyTransport s o (fst ixv) (fst (snd ixv)) (snd (snd ixv)) = Ok y)
               fs outs (combine inps (combine xs vs)) Ys).
Proof.
  intros K SK P fs xs vs H Hx Hv. destruct (factors_wf _ _ H) as (h & sT & sR & -> & Hw). split.
  - intros n M. change (tangentDim (Prod h sT sR fs)) with (getDim DT (Prod h sT sR fs)). rewrite (wf_prod_getDim DT _ _ _ _ Hw). split.
    + intros S. apply (cut_rows DT n fs M) in S. exact S.
    + intros (Bs & -> & F). apply (rpieces_shape DT n fs Bs). exact F.
  - intros. apply applyTransport_prod; auto.
Qed.
Print Assumptions C09_transport_blockwise.

(** * C10 *)
(** Elementary manifolds: the two transports are inverse of each other, for any number of columns. *)
Theorem C10_inverse_elementary : forall (m : mfd XR), built m -> leaves m = [m] ->
  forall (x v : list R), on_leaf m x -> tan_leaf m x v ->
  forall (cs : list (list R)) (out out' : mat XR), Forall (fun c => length c = tangentDim m) cs ->
    shape out (tangentDim m) (length cs) -> shape out' (tangentDim m) (length cs) ->
    (exists Y, applyTransport m out (matR (tangentDim m) cs) (fin x) (fin v) = Ok Y /\
       applyInvTransport m out' Y (fin x) (fin v) = Ok (matR (tangentDim m) cs)) /\
    (exists Y, applyInvTransport m out (matR (tangentDim m) cs) (fin x) (fin v) = Ok Y /\
       applyTransport m out' Y (fin x) (fin v) = Ok (matR (tangentDim m) cs)).
Proof.
  intros m B Lm x v Px [Lv Pv] cs out out' Fc So So'.
  destruct m as [h l a b|h sT sR subs]; [|destruct Px].
  assert (Hw := built_wf _ B). inversion Hw as [? ? ? ? W|]; subst. pose proof (on_leaf_len _ _ _ _ _ W Px) as Lx.
  destruct So as (S1 & S2 & S3), So' as (S1' & S2' & S3').
  assert (Sc : shape (matR (tangentDim (Leaf h l a b)) cs) (tangentDim (Leaf h l a b)) (length cs)) by (apply matR_shape; auto).
  assert (Q : l <> LS2 -> forall o, shape o (tangentDim (Leaf h l a b)) (length cs) ->
    applyTransport (Leaf h l a b) o (matR (tangentDim (Leaf h l a b)) cs) (fin x) (fin v) = Ok (matR (tangentDim (Leaf h l a b)) cs) /\
    applyInvTransport (Leaf h l a b) o (matR (tangentDim (Leaf h l a b)) cs) (fin x) (fin v) = Ok (matR (tangentDim (Leaf h l a b)) cs)).
  { intros Hl o (O1 & O2 & O3).
    assert (T : transport_checks (Leaf h l a b) (fin x) (fin v) = Ok tt).
    { unfold transport_checks. rewrite !check_eq by (rewrite fin_length; auto). cbn [bind isInTxM].
      rewrite !check_eq by (rewrite fin_length; auto). cbn [bind]. destruct l; [reflexivity|contradiction|reflexivity]. }
    cbn [applyTransport applyInvTransport]. rewrite T. unfold ncols, matR. cbn [mcols_ mrows]. rewrite O1, O2, map_length, !check_eq by auto. cbn [bind].
    assert (M : massign o (matR (tangentDim (Leaf h l a b)) cs) = Ok (matR (tangentDim (Leaf h l a b)) cs)).
    { apply (massign_shape _ _ (tangentDim (Leaf h l a b)) (length cs)); auto. repeat split; auto. }
    destruct l; [split; exact M|contradiction|split; exact M]. }
  destruct (Bool.bool_dec (is_s2 (Leaf h l a b)) true) as [Hl|Hl].
  - destruct l; try discriminate. cbn [on_leaf] in Px. destruct Px as [Lx3 Ux]. pose proof W as (W1 & W2 & W3 & _).
    assert (T3 : tangentDim (Leaf h LS2 a b) = 3%nat) by (unfold tangentDim; cbn [hdr_of]; lia). rewrite T3 in *.
    destruct (C16_s2_transport h a b x v B Lx3 Lv Ux) as (y & T & Ti & _ & HT & _ & Hi & _).
    { rewrite Pv, Rabs_R0. lra. }
    assert (FT : Forall (fun c => length c = 3%nat) (map T cs)) by (rewrite Forall_map; eapply Forall_impl; [|exact Fc]; intros c Hc; apply Hi; auto).
    assert (FTi : Forall (fun c => length c = 3%nat) (map Ti cs)) by (rewrite Forall_map; eapply Forall_impl; [|exact Fc]; intros c Hc; apply Hi; auto).
    assert (E1 : map Ti (map T cs) = cs).
    { rewrite map_map. rewrite <- (map_id cs) at 2. apply map_ext_in. intros c Hc. rewrite Forall_forall in Fc. apply Hi. auto. }
    assert (E2 : map T (map Ti cs) = cs).
    { rewrite map_map. rewrite <- (map_id cs) at 2. apply map_ext_in. intros c Hc. rewrite Forall_forall in Fc. apply Hi. auto. }
    split.
    + exists (matR 3 (map T cs)). split; [apply HT; auto|]. rewrite <- E1 at 2. apply HT; auto. rewrite map_length. auto.
    + exists (matR 3 (map Ti cs)). split; [apply HT; auto|]. rewrite <- E2 at 2. apply HT; auto. rewrite map_length. auto.
  - assert (Hl' : l <> LS2) by (intros ->; apply Hl; reflexivity).
    destruct (Q Hl' out) as [Q1 Q2]; [repeat split; auto|]. destruct (Q Hl' out') as [Q1' Q2']; [repeat split; auto|].
    split; exists (matR (tangentDim (Leaf h l a b)) cs); auto.
Qed.
Print Assumptions C10_inverse_elementary.

Lemma loop_steps {A B} (f : nat -> B -> A -> res A) l : forall i a r, loop f i l a = Ok r ->
  forall k b, nth_error l k = Some b -> exists a0 a1, f (i + k)%nat b a0 = Ok a1.
Proof.
  induction l as [|b l IH]; intros i a r H k c Hk; [destruct k; discriminate|].
  cbn [loop] in H. destruct (f i b a) as [a'|] eqn:E; [|discriminate]. destruct k as [|k].
  - inversion Hk; subst. rewrite Nat.add_0_r. eauto.
  - cbn [bind] in H. destruct (IH _ _ _ H k c Hk) as (a0 & a1 & G). exists a0, a1. replace (i + S k)%nat with (S i + k)%nat by lia. auto.
Qed.
(** Products: applyInvTransport of a product hands column blocks of the full height to its factors, so it
    never returns as soon as one factor's tangent space is smaller than the product's (any scalar). *)
Theorem C10_product_never_returns : forall (K : Type) (SK : Scalar K) (P : mfd K) (fs : list (mfd K)) (s : mfd K),
  factors P fs -> In s fs -> tangentDim s <> tangentDim P ->
  forall out inp x v Y, applyInvTransport P out inp x v <> Ok Y.
Proof.
  intros K SK P fs s H Hi Hd out inp x v Y E. destruct (factors_wf _ _ H) as (h & sT & sR & -> & Hw).
  cbn [applyInvTransport] in E.
  destruct (mnf_assert (mrows inp =? _)) eqn:E1 in E; [|discriminate]. apply mnf_inv, Nat.eqb_eq in E1. cbn [bind] in E.
  destruct (mnf_assert _) in E; [|discriminate]. cbn [bind] in E. destruct (mnf_assert _) in E; [|discriminate]. cbn [bind] in E.
  destruct (transport_checks _ _ _) in E; [|discriminate]. cbn [bind] in E.
  apply In_nth_error in Hi. destruct Hi as [k Hk].
  destruct (loop_steps _ _ _ _ _ E k s Hk) as (o & o' & G). clear E. unfold on_cols in G.
  destruct (getStart DT _ _) in G; [|discriminate]. destruct (getDimSub DT _ _) in G; [|discriminate]. cbn [bind] in G.
  destruct (middleCols _ _ _) in G; [|discriminate]. cbn [bind] in G.
  destruct (getCols DT _ inp _) as [ci|] eqn:Ec in G; [|discriminate]. cbn [bind] in G.
  destruct (getView DR _ _ _) as [xi|] in G; [|discriminate]. destruct (getView DT _ _ _) as [vi|] in G; [|discriminate]. cbn [bind] in G.
  destruct (applyInvTransport s _ ci xi vi) eqn:Es in G; [|discriminate].
  assert (Rc : mrows ci = mrows inp).
  { unfold getCols in Ec. destruct (getStart DT _ _) in Ec; [|discriminate]. destruct (getDimSub DT _ _) in Ec; [|discriminate]. cbn [bind] in Ec.
    unfold middleCols in Ec. destruct (segment _ _ _) in Ec; [|discriminate]. inversion Ec; reflexivity. }
  assert (Rs : mrows ci = tangentDim s).
  { destruct s; cbn [applyInvTransport] in Es; destruct (mnf_assert (mrows ci =? _)) eqn:Em in Es; try discriminate; apply mnf_inv, Nat.eqb_eq in Em; auto. }
  congruence.
Qed.
Print Assumptions C10_product_never_returns.

(** * C12, C15 *)
(** Finite blocks. *)
Definition blk : Type := nat * list (list R).
Definition matB (B : blk) : mat XR := matR (fst B) (snd B).
Fixpoint rbdiag (Bs : list blk) : blk :=
  match Bs with
  | [] => (0%nat, [])
  | B :: Bs' => ((fst B + fst (rbdiag Bs'))%nat,
      map (fun c => c ++ repeat 0 (fst (rbdiag Bs'))) (snd B) ++ map (fun c => repeat 0 (fst B) ++ c) (snd (rbdiag Bs')))
  end.
Lemma fin_repeat0 n : fin (repeat 0 n) = repeat (Fin 0) n.
Proof. induction n; simpl; f_equal; auto. Qed.
Lemma bdiag_rbdiag Bs : bdiag (map matB Bs) = matB (rbdiag Bs).
Proof.
  induction Bs as [|B Bs IH]; [reflexivity|]. cbn [map bdiag]. rewrite IH. unfold matB, matR. cbn [mrows mcols_ rbdiag fst snd]. f_equal.
  rewrite map_app, !map_map. f_equal; apply map_ext; intros c; rewrite fin_app, fin_repeat0; reflexivity.
Qed.
Definition blk_ok (B : blk) (n : nat) : Prop := length (snd B) = n /\ Forall (fun c => length c = fst B) (snd B).
Lemma rbdiag_ok Bs ns : Forall2 blk_ok Bs ns -> blk_ok (rbdiag Bs) (sum_list ns).
Proof.
  induction 1 as [|B n Bs ns [H1 H2] F [IH1 IH2]]; [split; auto; constructor|]. split; cbn [rbdiag fst snd].
  - rewrite app_length, !map_length. simpl. lia.
  - rewrite Forall_app, !Forall_map. split; eapply Forall_impl; [| exact H2 | | exact IH2]; cbn; intros c Hc; rewrite app_length, repeat_length; lia.
Qed.
Lemma rbdiag_mul Bs vs : Forall2 (fun B v => blk_ok B (length v)) Bs vs ->
  rmv (fst (rbdiag Bs)) (snd (rbdiag Bs)) (concat vs) = concat (map (fun p => rmv (fst (fst p)) (snd (fst p)) (snd p)) (combine Bs vs)).
Proof.
  intros F. apply fin_inj. rewrite <- mvmul_fin. change (matR (fst (rbdiag Bs)) (snd (rbdiag Bs))) with (matB (rbdiag Bs)).
  rewrite <- bdiag_rbdiag, fin_concat, mvmul_bdiag.
  - rewrite fin_concat. f_equal. clear F. revert vs; induction Bs as [|B Bs IH]; intros vs; [reflexivity|]. destruct vs as [|v vs]; [reflexivity|].
    cbn [map combine]. rewrite IH. cbn [fst snd]. f_equal. unfold matB. apply mvmul_fin.
  - clear - F. induction F as [|B v Bs vs [H1 H2] F IH]; constructor; auto. cbn [matB matR mrows]. rewrite <- H1. apply matR_shape. auto.
Qed.
Lemma rbdiag_cols Bs : Forall (fun c => exists zs, c = concat zs /\
  Forall2 (fun B z => z = repeat 0 (fst B) \/ In z (snd B)) Bs zs) (snd (rbdiag Bs)).
Proof.
  induction Bs as [|B Bs IH]; [constructor|]. cbn [rbdiag snd]. rewrite Forall_app, !Forall_map. split.
  - rewrite Forall_forall. intros c Hc. exists (c :: map (fun B => repeat 0 (fst B)) Bs). split.
    + cbn [concat]. f_equal. clear. induction Bs as [|B Bs IH]; [reflexivity|]. cbn [rbdiag fst map concat]. rewrite repeat_app, IH. reflexivity.
    + constructor; auto. clear. induction Bs; constructor; auto.
  - eapply Forall_impl; [|exact IH]. intros c (zs & -> & F). exists (repeat 0 (fst B) :: zs). split; auto.
Qed.
Lemma cutR D (m : mfd XR) (x : list R) : wf m -> length x = getDim D m ->
  exists xs, x = concat xs /\ Forall2 (fun s z => length z = getDim D s) (leaves m) xs.
Proof.
  intros Hw H. rewrite (leaves_dim D m Hw) in H. revert x H. generalize (leaves m). intros ls.
  induction ls as [|s ls IH]; intros x H; simpl in H.
  - exists []. split; [|constructor]. destruct x; [reflexivity|discriminate].
  - destruct (IH (skipn (getDim D s) x)) as (xs & E & F). { rewrite skipn_length. lia. }
    exists (firstn (getDim D s) x :: xs). cbn [concat]. rewrite <- E, firstn_skipn. split; auto. constructor; auto. rewrite firstn_length. lia.
Qed.
Lemma codim_leaves (m : mfd XR) : wf m -> codim m = sum_list (map codim (leaves m)).
Proof.
  induction m as [h l a b|h sT sR subs IH] using mfd_ind'; intros Hw.
  - cbn. lia.
  - rewrite codim_sum by auto. inversion Hw as [|? ? ? ? _ _ _ _ _ Hs]; subst. cbn [leaves]. clear Hw.
    induction Hs as [|s ss H Hs IHs]; [reflexivity|]. inversion IH; subst. cbn [map flat_map]. rewrite map_app. simpl. rewrite H2 by auto.
    rewrite IHs by auto. clear. induction (map codim (leaves s)); simpl; lia.
Qed.
Lemma constr_block_ok h l a b x : leaf_wf h l a b -> length x = representationDim (Leaf h l a b) ->
  fst (constr_block (Leaf h l a b) x) = codim (Leaf h l a b) /\ blk_ok (constr_block (Leaf h l a b) x) (tangentDim (Leaf h l a b)).
Proof.
  intros W L. unfold codim, dim, tangentDim, representationDim in *. cbn [hdr_of] in *.
  destruct l as [| |mp]; cbn [constr_block fst snd leaf_wf] in *.
  1, 3: split; [lia|split; cbn [fst snd]; [apply repeat_length|]]; apply Forall_forall; intros c Hc; apply repeat_spec in Hc; subst; reflexivity.
  split; [lia|]. split; cbn [fst snd]; [rewrite map_length; lia|]. rewrite Forall_map. apply Forall_forall. reflexivity.
Qed.

Definition constrM (m : mfd XR) (xs : list (list R)) : blk := rbdiag (map (fun p => constr_block (fst p) (snd p)) (combine (leaves m) xs)).
Lemma constr_tree m xs : wf m -> Forall2 (fun s z => length z = getDim DR s) (leaves m) xs ->
  fst (constrM m xs) = codim m /\ blk_ok (constrM m xs) (tangentDim m) /\ tc m (fin (concat xs)) = Ok (matB (constrM m xs)) /\
  forall vs p, Forall2 (fun s z => length z = getDim DT s) (leaves m) vs ->
    (isInTxM m (fin (concat xs)) (fin (concat vs)) (Fin p) = Ok true <->
     Forall (fun e => Rabs e < p) (rmv (fst (constrM m xs)) (snd (constrM m xs)) (concat vs))).
Proof.
  intros Hw F.
  assert (L : forall s, In s (leaves m) -> exists h l a b, s = Leaf (K:=XR) h l a b /\ leaf_wf h l a b) by (intros; eapply wf_leaf_inv; eauto).
  rewrite (codim_leaves m Hw). change (tangentDim m) with (getDim DT m). rewrite (leaves_dim DT m Hw).
  assert (T : Forall3 (fun s x r => tc s x = Ok r) (leaves m) (map fin xs) (map (fun p => matB (constr_block (fst p) (snd p))) (combine (leaves m) xs))).
  { revert L F. clear. generalize (leaves m). intros ls L F. induction F as [|s z ls xs H F IH]; [constructor|]. cbn [map combine fst snd]. constructor.
    - destruct (L s (or_introl eq_refl)) as (h & l & a & b & -> & W). apply tc_leaf; auto.
    - apply IH. intros; apply L; right; auto. }
  split; [|split; [|split]].
  - unfold constrM. revert L F. clear. generalize (leaves m). intros ls L F. induction F as [|s z ls xs H F IH]; [reflexivity|].
    cbn [map combine rbdiag fst snd]. rewrite IH by (intros; apply L; right; auto). simpl. f_equal.
    destruct (L s (or_introl eq_refl)) as (h & l & a & b & -> & W). apply constr_block_ok; auto.
  - apply rbdiag_ok. revert L F. clear. generalize (leaves m). intros ls L F. induction F as [|s z ls xs H F IH]; [constructor|].
    cbn [map combine fst snd]. constructor; [|apply IH; intros; apply L; right; auto].
    destruct (L s (or_introl eq_refl)) as (h & l & a & b & -> & W). apply constr_block_ok; auto.
  - rewrite fin_concat. apply tc_leaves; auto; [apply fin_pieces; auto|].
    exists (map (fun p => matB (constr_block (fst p) (snd p))) (combine (leaves m) xs)). split; auto.
    unfold constrM. rewrite <- bdiag_rbdiag, map_map. reflexivity.
  - intros vs p Fv. rewrite !fin_concat. rewrite isInTxM_leaves by (auto; apply fin_pieces; auto).
    unfold constrM. rewrite rbdiag_mul.
    + clear T. revert vs Fv L. revert F. clear. generalize (leaves m). intros ls F. induction F as [|s z ls xs H F IH]; intros vs Fv L; inversion Fv as [|? v ? vs' Hv Fv']; subst; cbn [map combine fst snd concat].
      * split; constructor.
      * rewrite Forall_app. rewrite <- IH by (auto; intros; apply L; right; auto).
        destruct (L s (or_introl eq_refl)) as (h & l & a & b & -> & W). rewrite <- leaf_inT by auto.
        split; [intros G; inversion G; subst; auto|intros [G1 G2]; constructor; auto].
    + clear T. revert vs Fv L. revert F. clear. generalize (leaves m). intros ls F. induction F as [|s z ls xs H F IH]; intros vs Fv L; inversion Fv as [|? v ? vs' Hv Fv']; subst; cbn [map combine fst snd]; constructor.
      * rewrite Hv. destruct (L s (or_introl eq_refl)) as (h & l & a & b & -> & W). apply constr_block_ok; auto.
      * apply IH; auto. intros; apply L; right; auto.
Qed.

(** tangentConstraint is a (tangentDim - dim) x tangentDim matrix, whatever [out] held; it is block diagonal
    over the elementary manifolds (a row x^T for a sphere, no row otherwise); isInTxM tests exactly C v. *)
Theorem C12_constraint : forall m : mfd XR, built m -> forall x : list R, length x = representationDim m ->
  exists C : list (list R), length C = tangentDim m /\ Forall (fun c => length c = (tangentDim m - dim m)%nat) C /\
    (forall out, shape out (tangentDim m - dim m) (tangentDim m) ->
       tangentConstraint m out (fin x) = Ok (matR (tangentDim m - dim m) C)) /\
    (exists xs, x = concat xs /\ Forall2 (fun s z => length z = representationDim s) (leaves m) xs /\
       matR (tangentDim m - dim m) C = bdiag (map (fun p => matR (fst (constr_block (fst p) (snd p))) (snd (constr_block (fst p) (snd p))))
                                            (combine (leaves m) xs))) /\
    forall (v : list R) (p : R), length v = tangentDim m -> exists b, isInTxM m (fin x) (fin v) (Fin p) = Ok b /\
      (b = true <-> Forall (fun e => Rabs e < p) (rmv (tangentDim m - dim m) C v)).
Proof.
  intros m B x Lx. pose proof (built_wf _ B) as Hw. destruct (cutR DR m x Hw Lx) as (xs & -> & F).
  destruct (constr_tree m xs Hw F) as (E1 & (E2 & E2') & E3 & E4). change (tangentDim m - dim m)%nat with (codim m). rewrite <- E1 in *.
  exists (snd (constrM m xs)). split; [auto|]. split; [auto|]. split; [|split].
  - intros out So. rewrite tc_any by (auto; congruence). exact E3.
  - exists xs. split; auto. split; auto. change (matR (fst (constrM m xs)) (snd (constrM m xs))) with (matB (constrM m xs)).
    unfold constrM. rewrite <- bdiag_rbdiag, map_map. reflexivity.
  - intros v p Lv. destruct (cutR DT m v Hw Lv) as (vs & -> & Fv).
    destruct (isInTxM_total m Hw (fin (concat xs)) (fin (concat vs)) (Fin p)) as [b Hb]; try (rewrite fin_length; auto).
    exists b. split; auto. rewrite <- E4 by auto. rewrite Hb. split; congruence.
Qed.
Print Assumptions C12_constraint.
(** On a product the constraint is block diagonal over the direct factors too, and tangency is factorwise:
    any scalar type. *)
Theorem C12_product : forall (K : Type) (SK : Scalar K) (P : mfd K) (fs : list (mfd K)) (xs vs : list (vec K)),
  factors P fs -> pieces DR fs xs -> pieces DT fs vs ->
  (forall out C, shape out (tangentDim P - dim P) (tangentDim P) ->
    (tangentConstraint P out (concat xs) = Ok C <->
     exists Cs, C = bdiag Cs /\ Forall3 (fun s x D => tangentConstraint s (mzero (tangentDim s - dim s) (tangentDim s)) x = Ok D) fs xs Cs)) /\
  (forall p, isInTxM P (concat xs) (concat vs) p = Ok true <-> Forall3 (fun s x v => isInTxM s x v p = Ok true) fs xs vs).
Proof.
  intros K SK P fs xs vs H Hx Hv. destruct (factors_wf _ _ H) as (h & sT & sR & -> & Hw). split.
  - intros out C So. rewrite tangentConstraint_prod by auto. unfold codim. firstorder.
  - intros p. apply isInTxM_prod; auto.
Qed.
Print Assumptions C12_product.

Lemma rdot_repeat0 x n : rdot x (repeat 0 n) = 0.
Proof. revert n; induction x as [|a x IH]; intros [|n]; cbn [repeat rdot]; auto. rewrite IH. ring. Qed.
Lemma tan_block_ok h l a b x : leaf_wf h l a b -> on_leaf (Leaf h l a b) x ->
  blk_ok (tangentDim (Leaf h l a b), tan_block (Leaf h l a b) x) (tangentDim (Leaf h l a b)) /\
  Forall (tan_leaf (Leaf h l a b) x) (tan_block (Leaf h l a b) x) /\ tan_leaf (Leaf h l a b) x (repeat 0 (tangentDim (Leaf h l a b))) /\
  forall v, tan_leaf (Leaf h l a b) x v -> rmv (tangentDim (Leaf h l a b)) (tan_block (Leaf h l a b) x) v = v.
Proof.
  intros W P. assert (Z : tan_leaf (Leaf h l a b) x (repeat 0 (tangentDim (Leaf h l a b)))).
  { split; [apply repeat_length|]. destruct l; auto. apply rdot_repeat0. }
  destruct (Bool.bool_dec (is_s2 (Leaf h l a b)) true) as [Hl|Hl].
  - destruct l; try discriminate. destruct P as [Lx Ux]. cbn [tan_block leaf_wf] in *. destruct W as (W1 & W2 & W3 & _).
    unfold tan_leaf, tangentDim in *. cbn [hdr_of] in *. rewrite W2 in *.
    destruct x as [|x0 [|x1 [|x2 [|]]]]; try discriminate. cbn [rdot] in *.
    split; [|split; [|split]]; auto.
    + split; cbn [fst snd]; [reflexivity|]. rewrite Forall_map. apply Forall_forall. intros. rewrite map_length, seq_length. reflexivity.
    + cbn [seq map Nat.eqb nth]. repeat (apply Forall_cons || apply Forall_nil); (split; [reflexivity|]); cbn [rdot];
        [transitivity (x0 * (1 - (x0 * x0 + (x1 * x1 + (x2 * x2 + 0)))))
        |transitivity (x1 * (1 - (x0 * x0 + (x1 * x1 + (x2 * x2 + 0)))))
        |transitivity (x2 * (1 - (x0 * x0 + (x1 * x1 + (x2 * x2 + 0)))))]; first [ring|rewrite Ux; ring].
    + intros v [Lv Ov]. destruct v as [|v0 [|v1 [|v2 [|]]]]; try discriminate. cbn [rdot] in Ov. unfold rmv. cbn [seq map Nat.eqb nth rdot].
      f_equal; [|f_equal; [|f_equal]];
        [transitivity (v0 - x0 * (x0 * v0 + (x1 * v1 + (x2 * v2 + 0))))
        |transitivity (v1 - x1 * (x0 * v0 + (x1 * v1 + (x2 * v2 + 0))))
        |transitivity (v2 - x2 * (x0 * v0 + (x1 * v1 + (x2 * v2 + 0))))]; first [ring|rewrite Ov; ring].
  - assert (E : tan_block (Leaf h l a b) x = map (unitv (tangentDim (Leaf h l a b))) (seq 0 (tangentDim (Leaf h l a b)))) by (destruct l; try reflexivity; exfalso; apply Hl; reflexivity).
    rewrite E. split; [|split; [|split]]; auto.
    + split; cbn [fst snd]; [rewrite map_length, seq_length; auto|]. rewrite Forall_map. apply Forall_forall. intros. unfold unitv. rewrite map_length, seq_length. auto.
    + rewrite Forall_map. apply Forall_forall. intros j _. split; [unfold unitv; rewrite map_length, seq_length; auto|]. destruct l; auto. exfalso; apply Hl; reflexivity.
    + intros v [Lv _]. apply rmv_ident. auto.
Qed.

Lemma concat_inj_len {A} (xs ys : list (list A)) : Forall2 (fun x y => length x = length y) xs ys -> concat xs = concat ys -> xs = ys.
Proof.
  induction 1 as [|x y xs ys L F IH]; intros E; [reflexivity|]. cbn [concat] in E. apply app_len_inj in E; auto. destruct E as [-> E]. f_equal. auto.
Qed.

(** getIdentityOnTxM returns, whatever the matrix held, a matrix that maps every tangent vector to itself
    and whose columns are all tangent. *)
Theorem C15_identity : forall m : mfd XR, built m -> forall x : list R, onM m x ->
  exists I : list (list R), length I = tangentDim m /\
    (forall out, shape out (tangentDim m) (tangentDim m) -> getIdentityOnTxM m out (fin x) = Ok (matR (tangentDim m) I)) /\
    (forall v, tanM m x v -> rmv (tangentDim m) I v = v) /\ Forall (tanM m x) I.
Proof.
  intros m B x (xs & -> & P). pose proof (built_wf _ B) as Hw.
  assert (L : forall s, In s (leaves m) -> exists h l a b, s = Leaf (K:=XR) h l a b /\ leaf_wf h l a b) by (intros; eapply wf_leaf_inv; eauto).
  set (Bs := map (fun p => (tangentDim (fst p), tan_block (fst p) (snd p))) (combine (leaves m) xs)).
  assert (Fx : Forall2 (fun s z => length z = getDim DR s) (leaves m) xs).
  { revert L P. clear. generalize (leaves m). intros ls L P. induction P as [|s z ls xs H P IH]; constructor.
    - destruct (L s (or_introl eq_refl)) as (h & l & a & b & -> & W). apply (on_leaf_len _ _ _ _ _ W H).
    - apply IH. intros; apply L; right; auto. }
  assert (T : Forall3 (fun s x r => idt s x = Ok r) (leaves m) (map fin xs) (map matB Bs)).
  { unfold Bs. revert L Fx. clear. generalize (leaves m). intros ls L F. induction F as [|s z ls xs H F IH]; [constructor|]. cbn [map combine fst snd]. constructor.
    - destruct (L s (or_introl eq_refl)) as (h & l & a & b & -> & W). apply idt_leaf; auto.
    - apply IH. intros; apply L; right; auto. }
  assert (E : idt m (fin (concat xs)) = Ok (matB (rbdiag Bs))).
  { rewrite fin_concat. apply ident_leaves; auto; [apply fin_pieces; auto|]. exists (map matB Bs). split; auto. rewrite bdiag_rbdiag. reflexivity. }
  assert (K : Forall2 blk_ok Bs (map (getDim DT) (leaves m))).
  { unfold Bs. revert L P. clear. generalize (leaves m). intros ls L F. induction F as [|s z ls xs H F IH]; [constructor|]. cbn [map combine fst snd]. constructor.
    - destruct (L s (or_introl eq_refl)) as (h & l & a & b & -> & W). apply tan_block_ok; auto.
    - apply IH. intros; apply L; right; auto. }
  assert (R0 : fst (rbdiag Bs) = tangentDim m).
  { change (tangentDim m) with (getDim DT m). rewrite (leaves_dim DT m Hw). unfold Bs. revert P. clear. generalize (leaves m). intros ls F.
    induction F as [|s z ls xs H F IH]; [reflexivity|]. cbn [map combine fst snd rbdiag]. rewrite IH. reflexivity. }
  exists (snd (rbdiag Bs)). destruct (rbdiag_ok _ _ K) as [K1 _]. rewrite <- (leaves_dim DT m Hw) in K1. split; [exact K1|]. split; [|split].
  - intros out So. rewrite ident_any; auto.
    + rewrite E. unfold matB. rewrite R0. reflexivity.
    + rewrite fin_length. change (representationDim m) with (getDim DR m). rewrite (leaves_dim DR m Hw). clear - Fx. induction Fx as [|s z ls zs H F IH]; [reflexivity|].
      cbn [concat map]. rewrite app_length, H, IH. reflexivity.
  - intros v (xs' & vs & Ex & -> & P' & V). assert (xs' = xs).
    { symmetry. apply concat_inj_len; auto. revert L P P'. clear. generalize (leaves m). intros ls L P. revert xs'.
      induction P as [|s z ls xs H P IH]; intros xs' P'; inversion P'; subst; constructor.
      - destruct (L s (or_introl eq_refl)) as (h & l & a & b & -> & W). rewrite (on_leaf_len _ _ _ _ _ W H), (on_leaf_len _ _ _ _ _ W H2). reflexivity.
      - apply IH; auto. intros; apply L; right; auto. }
    subst xs'. rewrite <- R0, rbdiag_mul.
    + f_equal. unfold Bs. revert L P V. clear. generalize (leaves m). intros ls L P V.
      induction V as [|s z v ls xs vs Hv V IH]; [reflexivity|]. inversion P; subst. cbn [map combine fst snd]. f_equal.
      * destruct (L s (or_introl eq_refl)) as (h & l & a & b & -> & W). apply tan_block_ok; auto.
      * apply IH; auto. intros; apply L; right; auto.
    + unfold Bs. revert L P V. clear. generalize (leaves m). intros ls L P V.
      induction V as [|s z v ls xs vs Hv V IH]; [constructor|]. inversion P; subst. cbn [map combine fst snd]. constructor.
      * destruct Hv as [-> _]. destruct (L s (or_introl eq_refl)) as (h & l & a & b & -> & W). apply tan_block_ok; auto.
      * apply IH; auto. intros; apply L; right; auto.
  - eapply Forall_impl; [|apply rbdiag_cols]. cbn. intros c (zs & -> & F). exists xs, zs. split; auto. split; auto. split; auto.
    unfold Bs in F. revert L P F. clear. generalize (leaves m). intros ls L P. revert zs.
    induction P as [|s z ls xs H P IH]; intros zs F; inversion F as [|? z0 ? zs' Hz F']; subst; constructor.
    + cbn [fst snd] in Hz. destruct (L s (or_introl eq_refl)) as (h & l & a & b & -> & W). destruct (tan_block_ok _ _ _ _ _ W H) as (_ & G1 & G2 & _).
      destruct Hz as [->|Hz]; auto. rewrite Forall_forall in G1. auto.
    + apply IH; auto. intros; apply L; right; auto.
Qed.
Print Assumptions C15_identity.

(** * Examples *)
(** A point of R^2 x (S2 x unit quaternions). *)
Definition rSx : list R := [3; 4] ++ [0; 3 / 5; 4 / 5] ++ [0; 0; 1; 0].
Definition rSv : list R := [1; -1] ++ [2; 4; -3] ++ [2; 0; 0].
Lemma rSx_on : onM rS rSx.
Proof.
  exists [[3; 4]; [0; 3 / 5; 4 / 5]; [0; 0; 1; 0]]. split; [reflexivity|].
  repeat (apply Forall2_cons || apply Forall2_nil).
  - reflexivity.
  - split; [reflexivity|]. cbn [rdot]. lra.
  - exists (Q4 0 0 1 0). split; auto. unfold qn2; cbn; ring.
Qed.
Lemma rSv_tan : tanM rS rSx rSv.
Proof.
  exists [[3; 4]; [0; 3 / 5; 4 / 5]; [0; 0; 1; 0]], [[1; -1]; [2; 4; -3]; [2; 0; 0]]. split; [reflexivity|]. split; [reflexivity|]. split.
  - repeat (apply Forall2_cons || apply Forall2_nil).
    + reflexivity.
    + split; [reflexivity|]. cbn [rdot]. lra.
    + exists (Q4 0 0 1 0). split; auto. unfold qn2; cbn; ring.
  - repeat (apply Forall3_cons || apply Forall3_nil); (split; [reflexivity|]); auto. cbn [rdot]. lra.
Qed.
(** One constraint row, (0 0 x^T 0 0 0), on 8 tangent coordinates. *)
Example C12_example : (tangentDim rS - dim rS = 1)%nat /\ tangentDim rS = 8%nat /\
  tangentConstraint rS (mzero 1 8) (fin rSx) = Ok (matR 1 [[0]; [0]; [0]; [3 / 5]; [4 / 5]; [0]; [0]; [0]]) /\
  isInTxM rS (fin rSx) (fin rSv) (Fin 1) = Ok true.
Proof.
  split; [reflexivity|]. split; [reflexivity|]. split; [cbn; reflexivity|].
  destruct (C12_constraint rS rS_built rSx ltac:(reflexivity)) as (C & LC & _ & HC & _ & H).
  specialize (HC (mzero 1 8) ltac:(repeat split; repeat constructor)).
  assert (E : tangentConstraint rS (mzero 1 8) (fin rSx) = Ok (matR 1 [[0]; [0]; [0]; [3 / 5]; [4 / 5]; [0]; [0]; [0]])) by (vm_compute; reflexivity).
  destruct (H rSv 1 ltac:(reflexivity)) as (b & Hb & Hi). rewrite Hb. f_equal. apply Hi.
  change (tangentDim rS - dim rS)%nat with 1%nat in *. rewrite E in HC. inversion HC as [HC'].
  assert (C = [[0]; [0]; [0]; [3 / 5]; [4 / 5]; [0]; [0]; [0]]) as ->.
  { revert HC'. clear. intros H. repeat (destruct C as [|? C]; [discriminate|]; cbn [map] in H).
    destruct C; [|discriminate]. inversion H.
    repeat match goal with G : _ = fin ?c |- _ => first [apply (fin_inj [0] c) in G|apply (fin_inj [3 / 5] c) in G|apply (fin_inj [4 / 5] c) in G]; subst c end. reflexivity. }
  unfold rmv. cbn [seq map nth rSv app rdot]. constructor; [|constructor]. rewrite Rabs_pos_eq; lra.
Qed.
(** The hypotheses of C15 hold on a product with a sphere, and the matrix is not the plain identity. *)
Example C15_example : built rS /\ onM rS rSx /\ tanM rS rSx rSv /\
  exists I, getIdentityOnTxM rS (mzero 8 8) (fin rSx) = Ok I /\ mget I 3 3 = Fin (16 / 25) /\ mget I 3 4 = Fin (- 12 / 25).
Proof.
  split; [apply rS_built|]. split; [apply rSx_on|]. split; [apply rSv_tan|].
  eexists. split; [vm_compute; reflexivity|]. cbn. split; f_equal; field.
Qed.
(** Two columns carried along the factors of (R^2 x SO(3)) x unit quaternions. *)
Definition ex_cols : list (list R) := [[1; 2; 3; 4; 5; 6; 7; 8]; [0; 1; 0; 2; 0; 3; 0; 4]].
Example C09_example : factors rP [rP1; rQ] /\
  applyTransport rP (mzero 8 2) (matR 8 ex_cols) (fin rPx) (fin rPv) = Ok (matR 8 ex_cols).
Proof.
  split; [|vm_compute; reflexivity].
  apply (factors_name (get prod_empty (bind (multiply prod_empty rP1) (fun p => multiply p rQ)))).
  apply (factors_mult (get prod_empty (multiply prod_empty rP1)) [rP1] rQ); [|apply rQ_built|reflexivity].
  apply (factors_mult prod_empty [] rP1); [constructor| |reflexivity].
  apply (prod2_built rR2 rM); auto using rR2_built, rM_built; reflexivity.
Qed.
(** C10 is false for products: applyTransport returns, applyInvTransport never does. *)
Theorem C10_product_refuted : exists (P : mfd XR) (x v : list R) (cs : list (list R)) (Y : mat XR),
  built P /\ onM P x /\ tanM P x v /\ Forall (fun c => length c = tangentDim P) cs /\
  applyTransport P (mzero (tangentDim P) (length cs)) (matR (tangentDim P) cs) (fin x) (fin v) = Ok Y /\
  forall out Z, applyInvTransport P out Y (fin x) (fin v) <> Ok Z.
Proof.
  exists rP, rPx, rPv, ex_cols, (matR 8 ex_cols). split; [apply rP_built|]. split; [apply rPx_on|]. split; [|split; [|split]].
  - destruct rPx_on as (xs & E & F). exists [[3; 4]; flat9 exq; [0; 0; 1; 0]], [[1; -1]; [1; 0; 0]; [2; 0; 0]]. split; [reflexivity|]. split; [reflexivity|]. split.
    + repeat (apply Forall2_cons || apply Forall2_nil).
      * reflexivity.
      * exists exq. split; auto using exq_rot.
      * exists (Q4 0 0 1 0). split; auto. unfold qn2; cbn; ring.
    + repeat (apply Forall3_cons || apply Forall3_nil); (split; [reflexivity|]); auto.
  - repeat constructor.
  - vm_compute. reflexivity.
  - intros out Z. apply (C10_product_never_returns XR XRS rP [rP1; rQ] rQ); [apply C09_example|right; left; reflexivity|discriminate].
Qed.
Print Assumptions C10_product_refuted.
(** The hypotheses of C10_inverse_elementary on the sphere, with a nonzero tangent vector. *)
Example C10_example : built rS2 /\ leaves rS2 = [rS2] /\ on_leaf rS2 [0; 3 / 5; 4 / 5] /\ tan_leaf rS2 [0; 3 / 5; 4 / 5] [2; 4; -3].
Proof.
  split; [apply rS2_built|]. split; [reflexivity|]. split.
  - split; [reflexivity|]. cbn [rdot]. lra.
  - split; [reflexivity|]. cbn. lra.
Qed.
