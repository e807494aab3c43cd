(** Tangent constraints, identity on the tangent space and transports, leaf by leaf on every tree. *)
From Coq Require Import Reals List Lra Lia ZArith Bool Arith.
From Verif Require Import Base Scalar Vec Model_Real Model_S2 Model_SO3 Model_Manifold Spec Layout Comp Flat BlockMat MatOps MatProd MatTan
  XR SpecR NumVec NumTree NumS2 MatNum.
Import ListNotations.
Local Open Scope R_scope.

Section AnyScalar.
Context {K : Type} {SK : Scalar K}.
Definition is_len (D : edim) (s : mfd K) (z : list K) : Prop := length z = getDim D s.

Lemma flat_mat (op : mfd K -> list K -> res (mat K)) :
  (forall h sT sR subs xs y, wf (Prod h sT sR subs) -> pieces DR subs xs ->
    (op (Prod h sT sR subs) (concat xs) = Ok y <-> exists ys, y = bdiag ys /\ Forall3 (fun s x r => op s x = Ok r) subs xs ys)) ->
  forall m, wf m -> forall xs y, pieces DR (leaves m) xs ->
    (op m (concat xs) = Ok y <-> exists ys, y = bdiag ys /\ Forall3 (fun s x r => op s x = Ok r) (leaves m) xs ys).
Proof.
  intros Hp. apply (flat_gen (@concat K) bdiag (is_len DR) op).
  - intros. induction zss as [|z zs IH]; auto. cbn [concat map]. rewrite concat_app, IH. reflexivity.
  - apply bdiag_concat.
  - intros. apply app_nil_r.
  - intros. apply bdiag_one.
  - intros h sT sR subs zs Hw F. unfold is_len. rewrite (wf_prod_getDim DR _ _ _ _ Hw). eapply pieces_length; eauto.
  - intros. apply Hp; auto.
Qed.

Definition tc (s : mfd K) (x : list K) : res (mat K) := tangentConstraint s (mzero (codim s) (tangentDim s)) x.
Lemma tc_leaves m : wf m -> forall xs C, pieces DR (leaves m) xs ->
  (tc m (concat xs) = Ok C <-> exists Cs, C = bdiag Cs /\ Forall3 (fun s x r => tc s x = Ok r) (leaves m) xs Cs).
Proof.
  apply flat_mat. intros h sT sR subs xs y Hw Hp. unfold tc at 1.
  rewrite tangentConstraint_prod by (auto; apply shape_mzero). unfold tc. firstorder.
Qed.
Lemma tc_any m out x : wf m -> shape out (codim m) (tangentDim m) -> tangentConstraint m out x = tc m x.
Proof. intros W S. apply tc_indep; auto. apply shape_mzero. Qed.

Definition idt (s : mfd K) (x : list K) : res (mat K) := getIdentityOnTxM s (mzero (tangentDim s) (tangentDim s)) x.
Lemma ident_prod_iff h sT sR subs xs y : wf (Prod h sT sR subs) -> pieces DR subs xs ->
  (idt (Prod h sT sR subs) (concat xs) = Ok y <-> exists ys, y = bdiag ys /\ Forall3 (fun s x r => idt s x = Ok r) subs xs ys).
Proof.
  intros Hw Hp. assert (Hs : Forall wf subs) by (inversion Hw; auto).
  assert (exists Is, Forall3 (fun s x I => shape I (tangentDim s) (tangentDim s) /\
     forall out, shape out (tangentDim s) (tangentDim s) -> getIdentityOnTxM s out x = Ok I) subs xs Is) as [Is HI].
  { clear Hw. induction Hp as [|s x ss xs Hx Hp IHp]; [exists []; constructor|]. inversion Hs; subst.
    destruct IHp as [Is HIs]; auto. destruct (ident_total s H1 x Hx) as (I & HI). exists (I :: Is). constructor; auto. }
  assert (E : idt (Prod h sT sR subs) (concat xs) = Ok (bdiag Is)).
  { unfold idt. apply ident_prod; auto. apply shape_mzero. }
  assert (U : forall ys, Forall3 (fun s x r => idt s x = Ok r) subs xs ys <-> ys = Is).
  { clear - HI. induction HI as [|s x I ss xs Is (H1 & H2) H IH]; intros ys.
    - split; [intros G; inversion G; auto|intros ->; constructor].
    - assert (E : idt s x = Ok I) by (apply H2; apply shape_mzero). split.
      + intros G. inversion G as [|? ? r ? ? rs G1 G2]; subst. apply IH in G2. congruence.
      + intros ->. constructor; auto. apply IH. auto. }
  split.
  - intros H. exists Is. split; [congruence|apply U; auto].
  - intros (ys & -> & F). apply U in F. subst. auto.
Qed.
Lemma ident_leaves m : wf m -> forall xs C, pieces DR (leaves m) xs ->
  (idt m (concat xs) = Ok C <-> exists Cs, C = bdiag Cs /\ Forall3 (fun s x r => idt s x = Ok r) (leaves m) xs Cs).
Proof. apply flat_mat. intros. apply ident_prod_iff; auto. Qed.
Lemma ident_any m out x : wf m -> shape out (tangentDim m) (tangentDim m) -> length x = representationDim m ->
  getIdentityOnTxM m out x = idt m x.
Proof. intros W S L. destruct (ident_total m W x L) as (I & _ & H). unfold idt. rewrite !H; auto. apply shape_mzero. Qed.

(** isInTxM holds iff it holds on every leaf. *)
Lemma isInTxM_leaves p m : wf m -> forall xs vs, pieces DR (leaves m) xs -> pieces DT (leaves m) vs ->
  (isInTxM m (concat xs) (concat vs) p = Ok true <-> Forall3 (fun s x v => isInTxM s x v p = Ok true) (leaves m) xs vs).
Proof.
  intros Hw xs vs Hx Hv.
  set (op := fun (s : mfd K) (z : list K * list K) => match isInTxM s (fst z) (snd z) p with Ok true => Ok tt | _ => Fail EAssert end).
  assert (B : forall s x v, isInTxM s x v p = Ok true <-> op s (x, v) = Ok tt).
  { intros. unfold op. cbn [fst snd]. destruct (isInTxM s x v p) as [[|]|]; split; intros; auto; discriminate. }
  set (cat := fun zs : list (list K * list K) => (concat (map fst zs), concat (map snd zs))).
  set (ok := fun (s : mfd K) (z : list K * list K) => length (fst z) = getDim DR s /\ length (snd z) = getDim DT s).
  assert (M : forall ls xs vs, Forall3 (fun s x v => isInTxM s x v p = Ok true) ls xs vs <->
    exists us, Forall3 (fun s z r => op s z = Ok r) ls (combine xs vs) us /\ length xs = length ls /\ length vs = length ls).
  { clear - B. induction ls as [|s ls IH]; intros xs vs.
    - split.
      + intros H. inversion H; subst. exists []. repeat constructor.
      + intros (us & H & Lx & Lv). destruct xs, vs; try discriminate. constructor.
    - split.
      + intros H. inversion H as [|? x v ? xs' vs' H1 H2]; subst. apply IH in H2. destruct H2 as (us & F & L1 & L2). exists (tt :: us).
        cbn [combine length]. repeat split; auto. constructor; auto. apply B; auto.
      + intros (us & H & Lx & Lv). destruct xs as [|x xs], vs as [|v vs]; try discriminate. cbn [combine] in H. inversion H as [|? ? [] ? ? us' H1 H2]; subst.
        constructor; [apply B; auto|]. apply IH. simpl in Lx, Lv. exists us'. repeat split; auto. }
  assert (Z : forall fs xs vs, pieces DR fs xs -> pieces DT fs vs -> Forall2 ok fs (combine xs vs) /\ map fst (combine xs vs) = xs /\ map snd (combine xs vs) = vs).
  { clear. intros fs xs vs H; revert vs. induction H as [|s x fs xs H1 H2 IH]; intros vs Hv; inversion Hv as [|? v ? vs' V1 V2]; subst; [repeat constructor|].
    destruct (IH vs' V2) as (A & B & C). cbn [combine map]. rewrite B, C. repeat split; auto. constructor; auto. split; auto. }
  assert (G := flat_gen cat (fun _ : list unit => tt) ok op).
  destruct (Z _ _ _ Hx Hv) as (Z1 & Z2 & Z3).
  assert (E : cat (combine xs vs) = (concat xs, concat vs)) by (unfold cat; rewrite Z2, Z3; auto).
  rewrite B, <- E. rewrite G; auto.
  - rewrite M. split.
    + intros (us & _ & F). exists us. split; auto. split; eapply pieces_len; eauto.
    + intros (us & F & _). exists us. auto.
  - unfold cat. intros zss. clear. f_equal.
    + induction zss as [|z zs IH]; auto. cbn [concat map]. rewrite map_app, concat_app, IH. reflexivity.
    + induction zss as [|z zs IH]; auto. cbn [concat map]. rewrite map_app, concat_app, IH. reflexivity.
  - intros s [a b] _. unfold cat. cbn. rewrite !app_nil_r. reflexivity.
  - intros. destruct y. reflexivity.
  - intros h sT sR subs zs W F. unfold ok, cat. cbn [fst snd]. rewrite (wf_prod_getDim DR _ _ _ _ W), (wf_prod_getDim DT _ _ _ _ W).
    clear - F. induction F as [|s z fs zs [H1 H2] F [I1 I2]]; auto. cbn [map concat sum_list]. rewrite !app_length, I1, I2, H1, H2. auto.
  - intros h sT sR subs zs [] W F. unfold cat.
    assert (F1 : pieces DR subs (map fst zs)) by (clear - F; induction F as [|s z fs zs [H1 H2] F IH]; constructor; auto).
    assert (F2 : pieces DT subs (map snd zs)) by (clear - F; induction F as [|s z fs zs [H1 H2] F IH]; constructor; auto).
    rewrite <- B. rewrite isInTxM_prod by auto. rewrite M. rewrite !map_length.
    replace (combine (map fst zs) (map snd zs)) with zs by (clear; induction zs as [|[a b] zs IH]; auto; cbn [map combine]; rewrite <- IH; reflexivity).
    split.
    + intros (us & H & _). exists us. auto.
    + intros (us & _ & H). exists us. split; auto. apply Forall2_len in F. auto.
Qed.
End AnyScalar.

(** ** Leaves over finite values *)
(** Constraint block of an elementary manifold: the row x^T for the sphere, no row otherwise. *)
Definition constr_block (s : mfd XR) (x : list R) : nat * list (list R) :=
  match s with
  | Leaf _ LS2 _ _ => (1%nat, map (fun a => [a]) x)
  | _ => (0%nat, repeat [] (tangentDim s))
  end.
Definition tan_block (s : mfd XR) (x : list R) : list (list R) :=
  match s with
  | Leaf _ LS2 _ _ => map (fun j => map (fun i => (if (i =? j)%nat then 1 else 0) - nth i x 0 * nth j x 0) (seq 0 3)) (seq 0 3)
  | _ => map (unitv (tangentDim s)) (seq 0 (tangentDim s))
  end.

Lemma map_fin_repeat n : map fin (repeat [] n) = repeat [] n.
Proof. induction n; simpl; f_equal; auto. Qed.
Lemma tc_leaf h l a b x : leaf_wf h l a b -> length x = representationDim (Leaf h l a b) ->
  tc (Leaf h l a b) (fin x) = Ok (matR (fst (constr_block (Leaf h l a b) x)) (snd (constr_block (Leaf h l a b) x))).
Proof.
  intros W L. assert (Hw : wf (Leaf h l a b)) by (constructor; auto).
  unfold tc. cbn [tangentConstraint]. rewrite tc_check by auto. rewrite check_eq by (unfold ncols; cbn [mcols_ mzero]; apply repeat_length).
  rewrite check_eq by (rewrite fin_length; auto). cbn [bind].
  destruct l as [| |mp]; cbn [constr_block fst snd].
  - destruct W as (W1 & W2). f_equal. unfold mzero, matR. rewrite map_fin_repeat. unfold codim, dim, tangentDim in *. cbn [hdr_of].
    replace (h_tdim h - h_dim h)%nat with 0%nat by lia. reflexivity.
  - destruct W as (W1 & W2 & W3 & _). unfold representationDim in L; cbn [hdr_of] in L. rewrite W3 in L.
    unfold s2_tangentConstraint. rewrite (massign_shape _ _ 1 3).
    + unfold matR. do 2 f_equal. unfold fin at 1. rewrite !map_map. reflexivity.
    + assert (C : codim (Leaf h LS2 a b) = 1%nat) by (unfold codim, dim, tangentDim; cbn [hdr_of]; lia).
      assert (T : tangentDim (Leaf h LS2 a b) = 3%nat) by (unfold tangentDim; cbn [hdr_of]; lia).
      pose proof (shape_mzero (K:=XR) (codim (Leaf h LS2 a b)) (tangentDim (Leaf h LS2 a b))) as S.
      eapply shape_eq; eauto.
    + repeat split; [cbn [mcols_]; rewrite map_length, fin_length; auto|]. cbn [mcols_]. rewrite Forall_map. apply Forall_forall. reflexivity.
  - destruct W as (W1 & W2 & W3 & _). f_equal. unfold mzero, matR. rewrite map_fin_repeat. unfold codim, dim, tangentDim in *. cbn [hdr_of].
    replace (h_tdim h - h_dim h)%nat with 0%nat by lia. reflexivity.
Qed.

Lemma idt_leaf h l a b x : leaf_wf h l a b -> length x = representationDim (Leaf h l a b) ->
  idt (Leaf h l a b) (fin x) = Ok (matR (tangentDim (Leaf h l a b)) (tan_block (Leaf h l a b) x)).
Proof.
  intros W L. unfold idt. cbn [getIdentityOnTxM].
  rewrite check_eq by reflexivity. rewrite check_eq by (unfold ncols; cbn [mcols_ mzero]; apply repeat_length).
  rewrite check_eq by (rewrite fin_length; auto). cbn [bind].
  assert (N : forall r c, ncols (K:=XR) (mzero r c) = c) by (intros; unfold ncols; cbn [mcols_ mzero]; apply repeat_length).
  destruct l as [| |mp].
  - unfold real_getIdentityOnTxM. rewrite N. cbn [mrows mzero]. rewrite mident_matR. reflexivity.
  - destruct W as (W1 & W2 & W3 & _). unfold representationDim in L; cbn [hdr_of] in L. rewrite W3 in L.
    unfold s2_getIdentityOnTxM. rewrite as_vec3_fin by auto. cbn [bind]. rewrite N. cbn [mrows mzero].
    unfold tangentDim; cbn [hdr_of]. rewrite W2. cbn [Nat.eqb andb eigen_assert bind]. f_equal.
    cbn [tan_block]. unfold mbuild, matR. f_equal. rewrite map_map. apply map_ext. intros j. unfold fin. rewrite map_map. apply map_ext. intros i.
    change (map Fin x) with (fin x). change (k0 (K:=XR)) with (Fin 0). rewrite !nth_fin. unfold delta. destruct (i =? j)%nat; reflexivity.
  - unfold so3_getIdentityOnTxM. rewrite N. cbn [mrows mzero]. rewrite mident_matR. reflexivity.
Qed.

Lemma leaf_inT h l a b x v p : leaf_wf h l a b -> length x = representationDim (Leaf h l a b) -> length v = tangentDim (Leaf h l a b) ->
  (isInTxM (Leaf h l a b) (fin x) (fin v) (Fin p) = Ok true <->
   Forall (fun e => Rabs e < p) (rmv (fst (constr_block (Leaf h l a b) x)) (snd (constr_block (Leaf h l a b) x)) v)).
Proof.
  intros W Lx Lv. destruct l as [| |mp].
  - cbn [isInTxM]. rewrite !check_eq by (rewrite fin_length; auto). cbn. split; constructor.
  - pose proof W as W'. destruct W' as (W1 & W2 & W3 & _). unfold representationDim, tangentDim in *; cbn [hdr_of] in *.
    rewrite s2_inT by (auto; lia). cbn [constr_block fst snd]. unfold rmv. cbn [seq map]. rewrite map_map. cbn [nth].
    replace (map (fun x : R => x) x) with x by (symmetry; apply map_id). split.
    + intros H. constructor; auto. apply Rltb_true. congruence.
    + intros H. inversion H; subst. f_equal. apply Rltb_true. auto.
  - cbn [isInTxM]. rewrite !check_eq by (rewrite fin_length; auto). cbn. split; constructor.
Qed.
