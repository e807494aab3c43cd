(** Matrix-valued operations of products, block by block (any scalar type). *)
From Coq Require Import List Arith Bool ZArith Lia.
From Verif Require Import Base Scalar Vec Model_Real Model_S2 Model_SO3 Model_Manifold Spec Layout Comp Structure BlockMat.
Import ListNotations.

Section MatOps.
Context {K : Type} {SK : Scalar K}.
Implicit Types (p m s : mfd K) (fs subs pre post : list (mfd K)) (M B J : mat K).

Lemma mzero_get r c i j : mget (K:=K) (mzero r c) i j = k0.
Proof.
  unfold mget, mzero. simpl. destruct (Nat.lt_ge_cases j c) as [H|H].
  - rewrite (nth_repeat' (repeat k0 r)) by auto. apply nth_repeat.
  - rewrite (nth_overflow (repeat (repeat k0 r) c)) by (rewrite repeat_length; auto). destruct i; reflexivity.
Qed.

Lemma massign_shape M J r c : shape M r c -> shape J r c -> massign M J = Ok J.
Proof.
  intros (A1 & A2 & _) (B1 & B2 & _). unfold massign, ncols. rewrite A1, A2, B1, B2, !Nat.eqb_refl. reflexivity.
Qed.
Lemma massign_inv M J B : massign M J = Ok B -> B = J /\ mrows J = mrows M /\ ncols J = ncols M.
Proof.
  unfold massign. intros H. inv_check H. inversion H; subst. apply andb_prop in Heqb. destruct Heqb as [E1 E2].
  apply Nat.eqb_eq in E1, E2. auto.
Qed.

Lemma pieces_nth_error D subs (xs : list (vec K)) i s : pieces D subs xs -> nth_error subs i = Some s ->
  exists x, nth_error xs i = Some x /\ List.length x = getDim D s.
Proof.
  intros H; revert i; induction H as [|s0 x0 ss xs0 H0 H IH]; intros [|i] Hs; simpl in *; try discriminate; eauto.
  inversion Hs; subst; eauto.
Qed.

Lemma getView_nth_error D h sT sR subs (xs : list (vec K)) i x : wf (Prod h sT sR subs) -> pieces D subs xs ->
  nth_error xs i = Some x -> getView D (Prod h sT sR subs) (concat xs) i = Ok x.
Proof.
  intros Hwf Hp Hx. rewrite getView_nth; auto.
  - f_equal. erewrite nth_error_nth; eauto.
  - assert (i < List.length xs) by (apply nth_error_Some; congruence).
    rewrite (pieces_len _ _ _ Hp) in *. auto.
Qed.

Section Jac.
  (** A Jacobian-like operation: block-diagonal assembly of the factors' matrices. *)
  Variables (Dr Dc : edim) (op : mfd K -> vec K -> res (mat K)).
  Lemma jac_prod h sT sR subs xs J : wf (Prod h sT sR subs) -> pieces DR subs xs ->
    (forall s x B, In s subs -> op s x = Ok B -> shape B (getDim Dr s) (getDim Dc s)) ->
    (loop (fun i s J => on_block Dr Dc (Prod h sT sR subs) i i
             (fun B => xi <- getView DR (Prod h sT sR subs) (concat xs) i ;; Ji <- op s xi ;; massign B Ji) J)
          0 subs (mzero (getDim Dr (Prod h sT sR subs)) (getDim Dc (Prod h sT sR subs))) = Ok J
     <-> exists Js, Forall3 (fun s x B => op s x = Ok B) subs xs Js /\ J = bdiag Js).
  Proof.
    intros Hwf Hp Hsh.
    apply (diag_op subs (getDim Dr) (getDim Dc)
             (fun i s B => xi <- getView DR (Prod h sT sR subs) (concat xs) i ;; Ji <- op s xi ;; massign B Ji)).
    - intros i s M Hs HM.
      destruct (on_block_ok Dr Dc h sT sR subs i i s s
        (fun B => xi <- getView DR (Prod h sT sR subs) (concat xs) i ;; Ji <- op s xi ;; massign B Ji) M Hwf Hs Hs HM)
        as (B & SB & _ & E). exists B. auto.
    - eapply pieces_len; eauto.
    - intros i s x B Hs Hx SB. rewrite (getView_nth_error DR _ _ _ _ _ i x) by auto. cbn [bind].
      destruct (op s x) as [Ji|] eqn:E; auto. cbn [bind]. eapply massign_shape; eauto.
      eapply Hsh; eauto. eapply nth_error_In; eauto.
    - intros i s x b Hs Hx H. eapply Hsh; eauto. eapply nth_error_In; eauto.
    - rewrite !(wf_prod_getDim _ _ _ _ _ Hwf). apply shape_mzero.
    - apply mzero_get.
  Qed.
End Jac.

Lemma blocks_shape (op : mfd K -> vec K -> res (mat K)) Dr Dc h sT sR subs xs Js : wf (Prod h sT sR subs) ->
  (forall s x B, In s subs -> op s x = Ok B -> shape B (getDim Dr s) (getDim Dc s)) ->
  Forall3 (fun s x B => op s x = Ok B) subs xs Js ->
  shape (bdiag Js) (getDim Dr (Prod h sT sR subs)) (getDim Dc (Prod h sT sR subs)).
Proof.
  intros Hwf Hsh H. rewrite !(wf_prod_getDim _ _ _ _ _ Hwf).
  destruct (blocks_dims subs (getDim Dr) (getDim Dc) (vec K) op xs) with (bs := Js) as (D1 & D2 & D3); auto.
  - intros i s x b Hs _ Hb. eapply Hsh; eauto. eapply nth_error_In; eauto.
  - rewrite <- D1, <- D2. apply shape_bdiag; auto.
Qed.

Lemma shape_eq M r c r' c' : shape M r c -> r = r' -> c = c' -> shape M r' c'.
Proof. intros; subst; auto. Qed.

Lemma cut_self D h sT sR subs (x : vec K) : wf (Prod h sT sR subs) ->
  List.length x = getDim D (Prod h sT sR subs) -> exists xs, x = concat xs /\ pieces D subs xs.
Proof. intros Hwf H. apply cut_pieces. rewrite H. apply wf_prod_getDim; auto. Qed.

Lemma diffRetractation_shape m : wf m -> forall x J, diffRetractation m x = Ok J ->
  shape J (representationDim m) (tangentDim m).
Proof.
  induction m as [h l a b|h sT sR subs IH] using mfd_ind'; intros Hwf x J H; cbn [diffRetractation] in H.
  - bind_inv H. inversion Hwf as [? ? ? ? Hw|]; subst. unfold representationDim, tangentDim. simpl.
    destruct l as [| |[|]]; simpl in *.
    + inversion H; subst. destruct Hw as [-> ->]. apply shape_mbuild.
    + discriminate.
    + unfold em_diffRetractation in H. bind_inv H. inversion H; subst. destruct Hw as (_ & -> & -> & _).
      apply shape_mbuild.
    + unfold eq_diffRetractation in H. bind_inv H. inversion H; subst. destruct Hw as (_ & -> & -> & _).
      apply shape_mbuild.
  - assert (Hs : Forall wf subs) by (inversion Hwf; auto).
    bind_inv H. destruct (List.length x =? representationDim (Prod h sT sR subs)) eqn:El; [|discriminate].
    apply Nat.eqb_eq in El. destruct (cut_self DR _ _ _ _ _ Hwf El) as (xs & -> & Hxs).
    assert (Hsh : forall s x B, In s subs -> diffRetractation s x = Ok B -> shape B (getDim DR s) (getDim DT s)).
    { rewrite Forall_forall in IH, Hs. intros. eapply IH; eauto. }
    apply (jac_prod DR DT diffRetractation) in H; auto. destruct H as (Js & HJ & ->).
    exact (blocks_shape diffRetractation DR DT h sT sR subs xs Js Hwf Hsh HJ).
Qed.

Lemma em_diffPseudoLog0_shape (x : vec K) J : em_diffPseudoLog0 x = Ok J -> shape J 3 9.
Proof.
  unfold em_diffPseudoLog0. intros H.
  do 9 (destruct x as [|? x]; [discriminate|]). destruct x; [|discriminate].
  injection H as <-. repeat split; repeat constructor.
Qed.
Lemma eq_diffPseudoLog0_shape (x : vec K) J : eq_diffPseudoLog0 x = Ok J -> shape J 3 4.
Proof.
  unfold eq_diffPseudoLog0. intros H. bind_inv H. destruct (_ && _).
  - injection H as <-. apply shape_mbuild.
  - injection H as <-. repeat split; repeat constructor.
Qed.

Lemma diffPseudoLog0_shape m : wf m -> forall x J, diffPseudoLog0 m x = Ok J ->
  shape J (tangentDim m) (representationDim m).
Proof.
  induction m as [h l a b|h sT sR subs IH] using mfd_ind'; intros Hwf x J H; cbn [diffPseudoLog0] in H.
  - bind_inv H. inversion Hwf as [? ? ? ? Hw|]; subst. unfold representationDim, tangentDim. simpl.
    destruct l as [| |[|]]; simpl in *.
    + inversion H; subst. destruct Hw as [-> ->]. apply shape_mbuild.
    + discriminate.
    + destruct Hw as (_ & -> & -> & _). eapply em_diffPseudoLog0_shape; eauto.
    + destruct Hw as (_ & -> & -> & _). eapply eq_diffPseudoLog0_shape; eauto.
  - assert (Hs : Forall wf subs) by (inversion Hwf; auto).
    bind_inv H. destruct (List.length x =? representationDim (Prod h sT sR subs)) eqn:El; [|discriminate].
    apply Nat.eqb_eq in El. destruct (cut_self DR _ _ _ _ _ Hwf El) as (xs & -> & Hxs).
    assert (Hsh : forall s x B, In s subs -> diffPseudoLog0 s x = Ok B -> shape B (getDim DT s) (getDim DR s)).
    { rewrite Forall_forall in IH, Hs. intros. eapply IH; eauto. }
    apply (jac_prod DT DR diffPseudoLog0) in H; auto. destruct H as (Js & HJ & ->).
    exact (blocks_shape diffPseudoLog0 DT DR h sT sR subs xs Js Hwf Hsh HJ).
Qed.

Lemma diffRetractation_prod h sT sR subs xs J : wf (Prod h sT sR subs) -> pieces DR subs xs ->
  (diffRetractation (Prod h sT sR subs) (concat xs) = Ok J
   <-> exists Js, Forall3 (fun s x B => diffRetractation s x = Ok B) subs xs Js /\ J = bdiag Js).
Proof.
  intros Hwf Hp. cbn [diffRetractation]. rewrite check_eq by exact (pieces_getDim DR _ _ _ _ _ Hwf Hp). cbn [bind].
  apply (jac_prod DR DT diffRetractation); auto.
  intros s x B Hin. apply diffRetractation_shape. inversion Hwf as [|? ? ? ? _ _ _ _ _ Hs]; subst.
  rewrite Forall_forall in Hs; auto.
Qed.
Lemma diffPseudoLog0_prod h sT sR subs xs J : wf (Prod h sT sR subs) -> pieces DR subs xs ->
  (diffPseudoLog0 (Prod h sT sR subs) (concat xs) = Ok J
   <-> exists Js, Forall3 (fun s x B => diffPseudoLog0 s x = Ok B) subs xs Js /\ J = bdiag Js).
Proof.
  intros Hwf Hp. cbn [diffPseudoLog0]. rewrite check_eq by exact (pieces_getDim DR _ _ _ _ _ Hwf Hp). cbn [bind].
  apply (jac_prod DT DR diffPseudoLog0); auto.
  intros s x B Hin. apply diffPseudoLog0_shape. inversion Hwf as [|? ? ? ? _ _ _ _ _ Hs]; subst.
  rewrite Forall_forall in Hs; auto.
Qed.

(** ** Column blocks *)

(** Pieces of a matrix: blocks of columns. *)
Definition cpieces (D : edim) (r : nat) (subs : list (mfd K)) (Bs : list (mat K)) : Prop :=
  Forall2 (fun s B => shape B r (getDim D s)) subs Bs.

Lemma cut_cols D r subs M : shape M r (sum_list (map (getDim D) subs)) ->
  exists Bs, M = hcat r Bs /\ cpieces D r subs Bs.
Proof.
  intros (Hr & Hc & Hf). destruct M as [r' cs]. simpl in *. subst r'.
  cut (exists Bs, cs = concat (map (@mcols_ K) Bs) /\ cpieces D r subs Bs).
  { intros (Bs & -> & H). exists Bs. auto. }
  revert cs Hc Hf. induction subs as [|s ss IH]; intros cs Hc Hf; simpl in *.
  - exists []. destruct cs; [|discriminate]. split; auto. constructor.
  - destruct (IH (skipn (getDim D s) cs)) as (Bs & E & HB).
    + rewrite skipn_length. lia.
    + apply Forall_skipn'; auto.
    + exists (Mat r (firstn (getDim D s) cs) :: Bs). simpl. rewrite <- E, firstn_skipn. split; auto.
      constructor; auto. repeat split; simpl; auto.
      * rewrite firstn_length. lia.
      * apply Forall_firstn'; auto.
Qed.

Lemma hcat_shape D r subs Bs : cpieces D r subs Bs -> shape (hcat r Bs) r (sum_list (map (getDim D) subs)).
Proof.
  intros H. unfold hcat. repeat split; simpl.
  - induction H as [|s B ss Bs (H1 & H2 & H3) _ IH]; simpl; auto. rewrite app_length, H2, IH. auto.
  - induction H as [|s B ss Bs (H1 & H2 & H3) _ IH]; simpl; auto. apply Forall_app; auto.
Qed.

Lemma cpieces_app_inv D r pre post Bs : cpieces D r (pre ++ post) Bs ->
  exists a b, Bs = a ++ b /\ cpieces D r pre a /\ cpieces D r post b.
Proof. intros H. apply Forall2_app_inv_l in H. destruct H as (a & b & ? & ? & ->). eauto. Qed.

Lemma cpieces_cols_length D r subs Bs : cpieces D r subs Bs ->
  List.length (concat (map (@mcols_ K) Bs)) = sum_list (map (getDim D) subs).
Proof. intros H. apply (hcat_shape D r subs Bs H). Qed.

Lemma getCols_hcat D h sT sR pre s post r a B b : wf (Prod h sT sR (pre ++ s :: post)) ->
  cpieces D r pre a -> shape B r (getDim D s) -> cpieces D r post b ->
  getCols D (Prod h sT sR (pre ++ s :: post)) (hcat r (a ++ B :: b)) (List.length pre) = Ok B.
Proof.
  intros Hwf Ha HB Hb. unfold getCols. rewrite getStart_wf, getDimSub_wf by auto. cbn [bind].
  unfold middleCols, hcat. cbn [mcols_ mrows]. rewrite map_app, concat_app. cbn [map concat].
  rewrite segment_mid.
  - cbn [bind]. destruct HB as (<- & _). destruct B; reflexivity.
  - symmetry. eapply cpieces_cols_length; eauto.
  - symmetry. apply HB.
Qed.

Lemma getCols_nth D h sT sR subs r Bs i B : wf (Prod h sT sR subs) -> cpieces D r subs Bs ->
  nth_error Bs i = Some B -> getCols D (Prod h sT sR subs) (hcat r Bs) i = Ok B.
Proof.
  intros Hwf Hp HB. destruct (nth_error_split _ _ HB) as (a & b & -> & Hl).
  apply Forall2_app_inv_r in Hp. destruct Hp as (pre & q & Ha & Hq & ->).
  inversion Hq as [|s ? post ? Hs Hpost]; subst.
  assert (List.length a = List.length pre) as E by (clear -Ha; induction Ha; simpl; auto).
  rewrite E. apply getCols_hcat; auto.
Qed.

Lemma on_cols_hcat D h sT sR pre s post r a B b f : wf (Prod h sT sR (pre ++ s :: post)) ->
  cpieces D r pre a -> shape B r (getDim D s) -> cpieces D r post b ->
  (forall B', f B = Ok B' -> shape B' r (getDim D s)) ->
  on_cols D (Prod h sT sR (pre ++ s :: post)) (List.length pre) f (hcat r (a ++ B :: b))
  = (B' <- f B ;; Ok (hcat r (a ++ B' :: b))).
Proof.
  intros Hwf Ha HB Hb Hf.
  pose proof (getCols_hcat D h sT sR pre s post r a B b Hwf Ha HB Hb) as G.
  unfold on_cols. unfold getCols in G. rewrite getStart_wf, getDimSub_wf in * by auto. cbn [bind] in *.
  rewrite G. cbn [bind]. destruct (f B) as [B'|] eqn:E; auto. cbn [bind]. f_equal.
  specialize (Hf B' eq_refl). unfold set_middleCols, hcat. cbn [mrows mcols_]. f_equal.
  rewrite !map_app, !concat_app. cbn [map concat]. apply set_segment_mid.
  - symmetry. eapply cpieces_cols_length; eauto.
  - destruct Hf as (_ & -> & _). destruct HB as (_ & -> & _). auto.
Qed.

(** Factor-by-factor evaluation of matrix operations. *)
Fixpoint evalM {A} (op : mfd K -> mat K -> A -> res (mat K)) (subs : list (mfd K)) (outs : list (mat K))
  (args : list A) : res (list (mat K)) :=
  match subs, outs, args with
  | s :: ss, o :: os, a :: az => r <- op s o a ;; rs <- evalM op ss os az ;; Ok (r :: rs)
  | _, _, _ => Ok []
  end.

Lemma evalM_iff {A} (op : mfd K -> mat K -> A -> res (mat K)) subs outs args ys :
  List.length outs = List.length subs -> List.length args = List.length subs ->
  (evalM op subs outs args = Ok ys <-> Forall4 (fun s o a y => op s o a = Ok y) subs outs args ys).
Proof.
  revert outs args ys; induction subs as [|s ss IH]; intros [|o os] [|a az] ys Ho Ha; simpl in *;
    try discriminate.
  - split; intros H; inversion H; subst; constructor.
  - split; intros H.
    + destruct (op s o a) as [r|] eqn:E; simpl in H; [|discriminate].
      destruct (evalM op ss os az) as [rs|] eqn:E'; simpl in H; [|discriminate].
      inversion H; subst. constructor; auto. apply IH; auto.
    + inversion H as [|? ? ? y ? ? ? ys' Hop Hrest]; subst. rewrite Hop. simpl.
      apply IH in Hrest; auto. rewrite Hrest. reflexivity.
Qed.

Lemma loop_on_cols {A} D h sT sR subs r (op : mfd K -> mat K -> A -> res (mat K))
  (f : nat -> mfd K -> mat K -> res (mat K)) outs args :
  wf (Prod h sT sR subs) -> cpieces D r subs outs -> List.length args = List.length subs ->
  (forall i s a o, nth_error subs i = Some s -> nth_error args i = Some a -> f i s o = op s o a) ->
  (forall s o a y, In s subs -> In a args -> shape o r (getDim D s) -> op s o a = Ok y -> shape y r (getDim D s)) ->
  loop (fun i s out => on_cols D (Prod h sT sR subs) i (f i s) out) 0 subs (hcat r outs)
  = (ys <- evalM op subs outs args ;; Ok (hcat r ys)).
Proof.
  intros Hwf Hp Hl Hf Hsh.
  cut (forall post pre a b args2, subs = pre ++ post -> cpieces D r pre a -> cpieces D r post b ->
       List.length args2 = List.length post -> incl args2 args ->
       (forall i s a o, nth_error post i = Some s -> nth_error args2 i = Some a -> f (List.length pre + i) s o = op s o a) ->
       loop (fun i s out => on_cols D (Prod h sT sR subs) i (f i s) out) (List.length pre) post (hcat r (a ++ b))
       = (ys <- evalM op post b args2 ;; Ok (hcat r (a ++ ys)))).
  { intros H. apply (H subs [] [] outs args); auto using incl_refl. constructor. }
  clear Hf Hl. induction post as [|s post IH]; intros pre a b args2 E Ha Hb Hl Hi Hf.
  - inversion Hb; subst. reflexivity.
  - inversion Hb as [|? o ? b' Ho Hb']; subst. destruct args2 as [|x args2]; [discriminate|].
    cbn [loop evalM].
    assert (Ef : f (List.length pre) s o = op s o x).
    { rewrite <- (Nat.add_0_r (List.length pre)). apply (Hf 0); auto. }
    assert (Hin : In s (pre ++ s :: post)) by (apply in_or_app; simpl; auto).
    assert (Hix : In x args) by (apply Hi; simpl; auto).
    rewrite on_cols_hcat; auto.
    + rewrite Ef. destruct (op s o x) as [y|] eqn:Eo; cbn [bind]; auto.
      specialize (IH (pre ++ [s]) (a ++ [y]) b' args2).
      rewrite <- !app_assoc in IH. cbn [app] in IH. rewrite app_length in IH. cbn [List.length] in IH.
      rewrite Nat.add_1_r in IH. etransitivity; [apply IH; auto|].
      * apply Forall2_app; auto. constructor; auto. eapply Hsh; eauto.
      * intros z Hz. apply Hi. simpl; auto.
      * intros i s' a' o' Hs' Ha'. specialize (Hf (S i) s' a' o' Hs' Ha').
        rewrite Nat.add_succ_r in Hf. exact Hf.
      * destruct (evalM op post b' args2); cbn [bind]; auto. rewrite <- app_assoc. reflexivity.
    + intros B' HB'. rewrite Ef in HB'. eapply Hsh; eauto.
Qed.

(** ** Row blocks *)

Definition rpieces (D : edim) (n : nat) (subs : list (mfd K)) (Bs : list (mat K)) : Prop :=
  Forall2 (fun s B => shape B (getDim D s) n) subs Bs.

Lemma shape_vcat n (Bs : list (mat K)) : Forall (fun B => shape B (mrows B) n) Bs ->
  shape (vcat n Bs) (sum_list (map (@mrows K) Bs)) n.
Proof.
  induction Bs as [|B Bs IH]; intros H; simpl.
  - repeat split; simpl; [apply repeat_length|]. apply Forall_forall. intros x Hx.
    apply repeat_spec in Hx. subst; auto.
  - inversion H as [|? ? H1 H2]; subst. specialize (IH H2).
    destruct IH as (I1 & I2 & I3). destruct H1 as (J1 & J2 & J3). repeat split; simpl.
    + rewrite I1. auto.
    + rewrite map2_length; [auto|congruence].
    + apply Forall_forall. intros c Hc. destruct (In_nth _ _ [] Hc) as (k & Hk & <-).
      rewrite map2_length in Hk by congruence.
      rewrite nth_map2 with (da := []) (db := []) by lia. rewrite app_length.
      rewrite Forall_forall in I3, J3.
      rewrite (J3 (nth k (mcols_ B) [])), (I3 (nth k (mcols_ (vcat n Bs)) [])) by (apply nth_In; lia). auto.
Qed.

Lemma mget_vcat n (Bs : list (mat K)) : Forall (fun B => shape B (mrows B) n) Bs ->
  forall i B a j, nth_error Bs i = Some B -> a < mrows B -> j < n ->
    mget (vcat n Bs) (off (map (@mrows K) Bs) i + a) j = mget B a j.
Proof.
  induction Bs as [|B0 Bs IH]; intros H i B a j Hi Ha Hj; [destruct i; discriminate|].
  inversion H as [|? ? H1 H2]; subst. pose proof (shape_vcat n Bs H2) as SV.
  unfold mget at 1. cbn [vcat mcols_].
  rewrite nth_map2 with (da := []) (db := []) by
    (rewrite ?(proj1 (proj2 H1)), ?(proj1 (proj2 SV)); auto).
  assert (Lc : List.length (nth j (mcols_ B0) []) = mrows B0) by (eapply shape_col; eauto).
  destruct i as [|i]; simpl in Hi.
  - inversion Hi; subst. unfold off. simpl. rewrite app_nth1 by lia. reflexivity.
  - rewrite app_nth2; rewrite Lc; unfold off; simpl; [|lia].
    replace (mrows B0 + sum_list (firstn i (map (@mrows K) Bs)) + a - mrows B0)
      with (off (map (@mrows K) Bs) i + a) by (unfold off; lia).
    apply (IH H2 i B a j); auto.
Qed.

Lemma is_vcat M n (Bs : list (mat K)) dr : map (@mrows K) Bs = dr ->
  Forall (fun B => shape B (mrows B) n) Bs -> shape M (sum_list dr) n ->
  (forall i B a j, nth_error Bs i = Some B -> a < mrows B -> j < n -> mget M (off dr i + a) j = mget B a j) ->
  M = vcat n Bs.
Proof.
  intros <- HB HM G. eapply mat_ext; [exact HM|apply shape_vcat; auto|].
  intros q j Hq Hj. destruct (off_decomp _ _ Hq) as (i & d & a & Hi & Ha & ->).
  rewrite nth_error_map in Hi. destruct (nth_error Bs i) as [B|] eqn:Ei; [|discriminate].
  simpl in Hi. inversion Hi; subst. rewrite (G i B a j), (mget_vcat n Bs HB i B a j); auto.
Qed.

Lemma rpieces_dims D n subs Bs : rpieces D n subs Bs ->
  map (@mrows K) Bs = dims D subs /\ Forall (fun B => shape B (mrows B) n) Bs.
Proof.
  induction 1 as [|s B ss Bs (H1 & H2 & H3) _ (I1 & I2)]; simpl; auto.
  rewrite I1, H1. split; auto. constructor; auto. repeat split; auto. rewrite H1. auto.
Qed.

Lemma rpieces_shape D n subs Bs : rpieces D n subs Bs -> shape (vcat n Bs) (sum_list (dims D subs)) n.
Proof. intros H. destruct (rpieces_dims _ _ _ _ H) as (<- & H2). apply shape_vcat; auto. Qed.

Lemma cut_rows D n subs M : shape M (sum_list (map (getDim D) subs)) n ->
  exists Bs, M = vcat n Bs /\ rpieces D n subs Bs.
Proof.
  revert M; induction subs as [|s ss IH]; intros M HM; simpl in HM.
  - exists []. split; [|constructor]. apply (mat_ext M (vcat n []) 0 n); auto.
    + apply (shape_vcat n []). constructor.
    + intros; lia.
  - destruct (middleRows_ok M _ _ 0 (getDim D s) HM) as (B1 & _ & S1 & G1); [lia|].
    destruct (middleRows_ok M _ _ (getDim D s) (sum_list (map (getDim D) ss)) HM) as (B2 & _ & S2 & G2); [lia|].
    destruct (IH B2 S2) as (Bs & E & HBs). exists (B1 :: Bs).
    assert (HR : rpieces D n (s :: ss) (B1 :: Bs)) by (constructor; auto).
    split; auto. eapply is_vcat with (dr := dims D (s :: ss)).
    + apply (rpieces_dims _ _ _ _ HR).
    + apply (rpieces_dims _ _ _ _ HR).
    + exact HM.
    + intros [|i] B a j Hi Ha Hj; simpl in Hi.
      * inversion Hi; subst. unfold off. simpl. rewrite G1; auto. rewrite <- (proj1 S1). auto.
      * unfold off. simpl. rewrite <- Nat.add_assoc.
        assert (Hb : sum_list (firstn i (dims D ss)) + a < sum_list (map (getDim D) ss)).
        { destruct (rpieces_dims _ _ _ _ HBs) as (Q & _).
          pose proof (map_nth_error (@mrows K) _ _ Hi) as W. rewrite Q in W. apply off_bound in W. unfold off, dims in *. lia. }
        rewrite <- G2; auto. rewrite E.
        destruct (rpieces_dims _ _ _ _ HBs) as (Q & Q2). fold (dims D ss). rewrite <- Q.
        apply (mget_vcat n Bs Q2 i B a j); auto.
Qed.

Lemma getRows_nth D h sT sR subs n Bs i B : wf (Prod h sT sR subs) -> rpieces D n subs Bs ->
  nth_error Bs i = Some B -> getRows D (Prod h sT sR subs) (vcat n Bs) i = Ok B.
Proof.
  intros Hwf Hp HB.
  assert (exists s, nth_error subs i = Some s /\ shape B (getDim D s) n) as (s & Hs & SB).
  { clear Hwf. revert i HB. induction Hp as [|s0 B0 ss Bs H0 H IH]; intros [|i] HB; simpl in *; try discriminate; eauto.
    inversion HB; subst; eauto. }
  unfold getRows. destruct (getStart_off D _ _ _ _ _ _ Hwf Hs) as (-> & ->). cbn [bind].
  destruct (rpieces_dims _ _ _ _ Hp) as (D1 & D2).
  destruct (middleRows_ok (vcat n Bs) _ _ (off (dims D subs) i) (getDim D s) (rpieces_shape _ _ _ _ Hp)) as (B' & E & S' & G').
  { apply off_bound. apply dims_nth. auto. }
  rewrite E. f_equal. apply (mat_ext B' B (getDim D s) n); auto.
  intros a j Ha Hj. rewrite G' by auto. rewrite <- D1. apply (mget_vcat n Bs D2 i B a j); auto.
  rewrite (proj1 SB). auto.
Qed.

Lemma on_rows_vcat D h sT sR pre s post n a B b f : wf (Prod h sT sR (pre ++ s :: post)) ->
  rpieces D n pre a -> shape B (getDim D s) n -> rpieces D n post b ->
  (forall B', f B = Ok B' -> shape B' (getDim D s) n) ->
  on_rows D (Prod h sT sR (pre ++ s :: post)) (List.length pre) f (vcat n (a ++ B :: b))
  = (B' <- f B ;; Ok (vcat n (a ++ B' :: b))).
Proof.
  intros Hwf Ha HB Hb Hf. set (subs := pre ++ s :: post) in *.
  assert (Hp : rpieces D n subs (a ++ B :: b)) by (apply Forall2_app; auto; constructor; auto).
  assert (La : List.length a = List.length pre) by (clear -Ha; induction Ha; simpl; auto).
  assert (Hs : nth_error subs (List.length pre) = Some s).
  { unfold subs. rewrite nth_error_app2, Nat.sub_diag by lia. auto. }
  assert (HBn : nth_error (a ++ B :: b) (List.length pre) = Some B).
  { rewrite nth_error_app2, La, Nat.sub_diag by lia. auto. }
  pose proof (getRows_nth D h sT sR subs n _ _ B Hwf Hp HBn) as G.
  unfold on_rows. unfold getRows in G. destruct (getStart_off D _ _ _ _ _ _ Hwf Hs) as (E1 & E2).
  rewrite E1, E2 in *. cbn [bind] in *. rewrite G. cbn [bind].
  destruct (f B) as [B'|] eqn:Ef; auto. cbn [bind]. f_equal. specialize (Hf B' eq_refl).
  assert (Hp' : rpieces D n subs (a ++ B' :: b)) by (apply Forall2_app; auto; constructor; auto).
  pose proof (dims_nth D _ _ _ Hs) as Hd.
  destruct (set_middleRows_ok (vcat n (a ++ B :: b)) _ _ (off (dims D subs) (List.length pre)) B' (getDim D s)
              (rpieces_shape _ _ _ _ Hp) Hf) as (S' & G'); [apply off_bound; auto|].
  destruct (rpieces_dims _ _ _ _ Hp) as (D1 & D2). destruct (rpieces_dims _ _ _ _ Hp') as (D1' & D2').
  eapply is_vcat; eauto. intros i C x j Hi Hx Hj. rewrite G' by auto.
  assert (Hdi : nth_error (dims D subs) i = Some (mrows C)).
  { rewrite <- D1'. apply map_nth_error. auto. }
  rewrite (inr_off _ i (List.length pre) (mrows C) (getDim D s) x) by auto.
  destruct (Nat.eqb_spec i (List.length pre)) as [->|Hn].
  - rewrite nth_error_app2, La, Nat.sub_diag in Hi by lia. simpl in Hi. inversion Hi; subst. f_equal. lia.
  - rewrite <- D1. apply (mget_vcat n _ D2 i C x j); auto.
    rewrite <- Hi. destruct (Nat.lt_ge_cases i (List.length a)).
    + rewrite !nth_error_app1 by auto. auto.
    + rewrite !nth_error_app2 by auto. destruct (i - List.length a) eqn:Q; [lia|]. auto.
Qed.

Lemma loop_on_rows {A} D h sT sR subs n (op : mfd K -> mat K -> A -> res (mat K))
  (f : nat -> mfd K -> mat K -> res (mat K)) outs args :
  wf (Prod h sT sR subs) -> rpieces D n subs outs -> List.length args = List.length subs ->
  (forall i s a o, nth_error subs i = Some s -> nth_error args i = Some a -> f i s o = op s o a) ->
  (forall s o a y, In s subs -> In a args -> shape o (getDim D s) n -> op s o a = Ok y -> shape y (getDim D s) n) ->
  loop (fun i s out => on_rows D (Prod h sT sR subs) i (f i s) out) 0 subs (vcat n outs)
  = (ys <- evalM op subs outs args ;; Ok (vcat n ys)).
Proof.
  intros Hwf Hp Hl Hf Hsh.
  cut (forall post pre a b args2, subs = pre ++ post -> rpieces D n pre a -> rpieces D n post b ->
       List.length args2 = List.length post -> incl args2 args ->
       (forall i s a o, nth_error post i = Some s -> nth_error args2 i = Some a -> f (List.length pre + i) s o = op s o a) ->
       loop (fun i s out => on_rows D (Prod h sT sR subs) i (f i s) out) (List.length pre) post (vcat n (a ++ b))
       = (ys <- evalM op post b args2 ;; Ok (vcat n (a ++ ys)))).
  { intros H. apply (H subs [] [] outs args); auto using incl_refl. constructor. }
  clear Hf Hl. induction post as [|s post IH]; intros pre a b args2 E Ha Hb Hl Hi Hf.
  - inversion Hb; subst. reflexivity.
  - inversion Hb as [|? o ? b' Ho Hb']; subst. destruct args2 as [|x args2]; [discriminate|].
    cbn [loop evalM].
    assert (Ef : f (List.length pre) s o = op s o x).
    { rewrite <- (Nat.add_0_r (List.length pre)). apply (Hf 0); auto. }
    assert (Hin : In s (pre ++ s :: post)) by (apply in_or_app; simpl; auto).
    assert (Hix : In x args) by (apply Hi; simpl; auto).
    rewrite on_rows_vcat; auto.
    + rewrite Ef. destruct (op s o x) as [y|] eqn:Eo; cbn [bind]; auto.
      specialize (IH (pre ++ [s]) (a ++ [y]) b' args2).
      rewrite <- !app_assoc in IH. cbn [app] in IH. rewrite app_length in IH. cbn [List.length] in IH.
      rewrite Nat.add_1_r in IH. etransitivity; [apply IH; auto|].
      * apply Forall2_app; auto. constructor; auto. eapply Hsh; eauto.
      * intros z Hz. apply Hi. simpl; auto.
      * intros i s' a' o' Hs' Ha'. specialize (Hf (S i) s' a' o' Hs' Ha').
        rewrite Nat.add_succ_r in Hf. exact Hf.
      * destruct (evalM op post b' args2); cbn [bind]; auto. rewrite <- app_assoc. reflexivity.
    + intros B' HB'. rewrite Ef in HB'. eapply Hsh; eauto.
Qed.
End MatOps.
