(** C52: the matrix views of a product tile the matrix.  Any scalar arithmetic. *)
From Coq Require Import List Arith Bool ZArith Lia.
From Verif Require Import Base Scalar Vec Model_Manifold Model_Views Spec Layout Comp Indep Flat Structure BlockMat MatOps
  ExScalar Properties_Structure.
Import ListNotations.

Section Spans.
Context {K : Type} {SK : Scalar K}.
(** Where the rows (columns) of factor [i] start in a matrix with [n] rows (columns), and how many there are. *)
Definition vstart (D : vdim) (fs : list (mfd K)) (i : nat) : nat :=
  match D with VD d => sum_list (map (getDim d) (firstn i fs)) | VF => 0 end.
Definition vsize (D : vdim) (fs : list (mfd K)) (n i : nat) : nat :=
  match D with VD d => nth i (map (getDim d) fs) 0 | VF => n end.
(** The range of a view; F ignores the index. *)
Definition vin (D : vdim) (fs : list (mfd K)) (n i k : nat) : bool :=
  (vstart D fs i <=? k) && (k <? vstart D fs i + vsize D fs n i).
Definition vfits (D : vdim) (fs : list (mfd K)) (n i : nat) : Prop := vstart D fs i + vsize D fs n i <= n.
Definition vindex (D : vdim) (fs : list (mfd K)) (i : nat) : Prop :=
  match D with VD _ => i < length fs | VF => True end.
(** The size a matrix whose rows (columns) are indexed by the given space should have. *)
Definition vtotal (D : vdim) (P : mfd K) (n : nat) : Prop := match D with VD d => n = getDim d P | VF => True end.

Lemma start_off D (fs : list (mfd K)) i : vstart (VD D) fs i = off (dims D fs) i.
Proof. unfold vstart, off, dims. rewrite firstn_map. reflexivity. Qed.
Lemma size_dim D (fs : list (mfd K)) n i s : nth_error fs i = Some s -> vsize (VD D) fs n i = getDim D s.
Proof. intros H. cbn. apply nth_error_nth. rewrite nth_error_map, H. reflexivity. Qed.

Lemma mc_fail (M : mat K) r c s n : shape M r c -> ~ s + n <= c -> middleCols M s n = Fail EEigen.
Proof.
  intros (_ & Hc & _) H. unfold middleCols, segment. rewrite Hc.
  replace (s + n <=? c) with false by (symmetry; apply Nat.leb_gt; lia). reflexivity.
Qed.
Lemma mr_fail (M : mat K) r c s n : shape M r c -> ~ s + n <= r -> middleRows M s n = Fail EEigen.
Proof.
  intros (Hr & _ & _) H. unfold middleRows. rewrite Hr.
  replace (s + n <=? r) with false by (symmetry; apply Nat.leb_gt; lia). reflexivity.
Qed.
Lemma bl_fail (M : mat K) r c s t h w : shape M r c -> ~ (s + h <= r /\ t + w <= c) -> block M s t h w = Fail EEigen.
Proof.
  intros H N. unfold block. destruct (le_dec (t + w) c) as [Hc|Hc]; [|erewrite mc_fail; eauto].
  destruct (middleCols_ok M r c t w H Hc) as (B & -> & S & _). cbn [bind]. eapply mr_fail; eauto.
Qed.

Lemma nth_err (fs : list (mfd K)) i : i < length fs -> exists s, nth_error fs i = Some s.
Proof. intros H. destruct (nth_error fs i) eqn:E; eauto. apply nth_error_None in E. lia. Qed.

Lemma view_read Dr Dc (P : mfd K) fs M r c ir ic : factors P fs -> shape M r c -> vindex Dr fs ir -> vindex Dc fs ic ->
  (vfits Dr fs r ir /\ vfits Dc fs c ic ->
   exists B, getMatView Dr Dc P M ir ic = Ok B /\ shape B (vsize Dr fs r ir) (vsize Dc fs c ic) /\
     forall a b, a < vsize Dr fs r ir -> b < vsize Dc fs c ic ->
       mget B a b = mget M (vstart Dr fs ir + a) (vstart Dc fs ic + b)) /\
  (~ (vfits Dr fs r ir /\ vfits Dc fs c ic) -> getMatView Dr Dc P M ir ic = Fail EEigen).
Proof.
  intros HP HM Ir Ic. destruct (factors_wf _ _ HP) as (h & sT & sR & -> & W). unfold vfits.
  destruct Dr as [a|], Dc as [b|]; cbn [vindex] in Ir, Ic.
  - destruct (nth_err _ _ Ir) as [si Hi]. destruct (nth_err _ _ Ic) as [sj Hj].
    rewrite !start_off, (size_dim _ _ _ _ _ Hi), (size_dim _ _ _ _ _ Hj). cbn [getMatView].
    destruct (getStart_off a _ _ _ _ _ _ W Hi) as [-> ->]. destruct (getStart_off b _ _ _ _ _ _ W Hj) as [-> ->].
    cbn [bind]. split; [intros [F1 F2]; eapply block_ok; eauto|intros N; eapply bl_fail; eauto].
  - destruct (nth_err _ _ Ir) as [si Hi]. rewrite start_off, (size_dim _ _ _ _ _ Hi). cbn [getMatView vstart vsize].
    unfold getRows. destruct (getStart_off a _ _ _ _ _ _ W Hi) as [-> ->]. cbn [bind]. split.
    + intros [F1 _]. destruct (middleRows_ok M r c _ _ HM F1) as (B & E & S & G). exists B. repeat split; try apply S; auto.
    + intros N. eapply mr_fail; eauto.
  - destruct (nth_err _ _ Ic) as [sj Hj]. rewrite start_off, (size_dim _ _ _ _ _ Hj). cbn [getMatView vstart vsize].
    unfold getCols. destruct (getStart_off b _ _ _ _ _ _ W Hj) as [-> ->]. cbn [bind]. split.
    + intros [_ F2]. destruct (middleCols_ok M r c _ _ HM F2) as (B & E & S & G). exists B. repeat split; try apply S; auto.
    + intros N. eapply mc_fail; eauto.
  - cbn [getMatView vstart vsize]. split; [|intros N; exfalso; apply N; lia]. intros _. exists M. repeat split; try apply HM; auto.
Qed.

Lemma view_write Dr Dc (P : mfd K) fs M r c ir ic f : factors P fs -> shape M r c -> vindex Dr fs ir -> vindex Dc fs ic ->
  vfits Dr fs r ir -> vfits Dc fs c ic ->
  exists B, getMatView Dr Dc P M ir ic = Ok B /\
    (forall e, f B = Fail e -> onMatView Dr Dc P ir ic f M = Fail e) /\
    forall W, f B = Ok W -> shape W (vsize Dr fs r ir) (vsize Dc fs c ic) ->
      exists M', onMatView Dr Dc P ir ic f M = Ok M' /\ shape M' r c /\
        forall p q, p < r -> q < c ->
          mget M' p q = if vin Dr fs r ir p && vin Dc fs c ic q
                        then mget W (p - vstart Dr fs ir) (q - vstart Dc fs ic) else mget M p q.
Proof.
  intros HP HM Ir Ic Fr Fc.
  destruct (view_read Dr Dc P fs M r c ir ic HP HM Ir Ic) as [Hok _]. destruct (Hok (conj Fr Fc)) as (B & E & SB & _). clear Hok.
  exists B. split; auto. destruct (factors_wf _ _ HP) as (h & sT & sR & -> & WF).
  unfold vfits, vin in *.
  destruct Dr as [a|], Dc as [b|]; cbn [vindex] in Ir, Ic; cbn [getMatView onMatView] in *; unfold getRows, getCols, on_rows, on_cols, on_block in *.
  - destruct (nth_err _ _ Ir) as [si Hi]. destruct (nth_err _ _ Ic) as [sj Hj].
    rewrite !start_off, (size_dim _ _ _ _ _ Hi), (size_dim _ _ _ _ _ Hj) in *.
    destruct (getStart_off a _ _ _ _ _ _ WF Hi) as [H1 H2]. destruct (getStart_off b _ _ _ _ _ _ WF Hj) as [H3 H4].
    rewrite H1, H2, H3, H4 in *. cbn [bind] in *. rewrite E. cbn [bind]. split; [intros e ->; reflexivity|].
    intros W -> SW. cbn [bind]. destruct (set_block_ok M r c _ _ W _ _ HM SW Fr Fc) as [S G].
    eexists. split; [reflexivity|]. split; auto. intros p q Hp Hq. rewrite G by auto. reflexivity.
  - destruct (nth_err _ _ Ir) as [si Hi]. rewrite start_off, (size_dim _ _ _ _ _ Hi) in *. cbn [vstart vsize] in *.
    destruct (getStart_off a _ _ _ _ _ _ WF Hi) as [H1 H2]. rewrite H1, H2 in *. cbn [bind] in *. rewrite E. cbn [bind].
    split; [intros e ->; reflexivity|]. intros W -> SW. cbn [bind].
    destruct (set_middleRows_ok M r c _ W _ HM SW Fr) as [S G]. eexists. split; [reflexivity|]. split; auto.
    intros p q Hp Hq. rewrite G by auto. unfold inr. replace ((0 <=? q) && (q <? 0 + c)) with true.
    2:{ symmetry. apply andb_true_intro. split; [reflexivity|apply Nat.ltb_lt; lia]. }
    rewrite andb_true_r, Nat.sub_0_r. reflexivity.
  - destruct (nth_err _ _ Ic) as [sj Hj]. rewrite start_off, (size_dim _ _ _ _ _ Hj) in *. cbn [vstart vsize] in *.
    destruct (getStart_off b _ _ _ _ _ _ WF Hj) as [H1 H2]. rewrite H1, H2 in *. cbn [bind] in *. rewrite E. cbn [bind].
    split; [intros e ->; reflexivity|]. intros W -> SW. cbn [bind].
    destruct (set_middleCols_ok M r c _ W _ HM SW Fc) as [S G]. eexists. split; [reflexivity|]. split; auto.
    intros p q Hp Hq. rewrite G by auto. unfold inr. replace ((0 <=? p) && (p <? 0 + r)) with true.
    2:{ symmetry. apply andb_true_intro. split; [reflexivity|apply Nat.ltb_lt; lia]. }
    rewrite andb_true_l, Nat.sub_0_r. reflexivity.
  - inversion E; subst B. cbn [vstart vsize] in *. split; [intros e H; auto|]. intros W H SW. exists W. split; auto. split; auto.
    intros p q Hp Hq. replace (_ && _) with true.
    + rewrite !Nat.sub_0_r. reflexivity.
    + symmetry. apply andb_true_intro. split; apply andb_true_intro; split; try reflexivity; apply Nat.ltb_lt; lia.
Qed.

Lemma vindex_dec D (fs : list (mfd K)) i : {vindex D fs i} + {~ vindex D fs i}.
Proof. destruct D; cbn; [apply lt_dec|left; exact I]. Qed.

Lemma start_refused D (P : mfd K) fs i : factors P fs -> length fs <= i -> getStart D P i = Fail EAssert.
Proof.
  intros HP H. destruct (factors_wf _ _ HP) as (h & sT & sR & -> & _). unfold getStart, numberOfSubManifolds.
  replace (i <? length fs) with false by (symmetry; apply Nat.ltb_ge; lia). reflexivity.
Qed.

Lemma view_refused Dr Dc (P : mfd K) fs M ir ic f : factors P fs -> ~ (vindex Dr fs ir /\ vindex Dc fs ic) ->
  getMatView Dr Dc P M ir ic = Fail EAssert /\ onMatView Dr Dc P ir ic f M = Fail EAssert.
Proof.
  intros HP N.
  assert (G : forall D i, ~ i < length fs -> getStart D P i = Fail EAssert) by (intros; eapply start_refused; eauto; lia).
  destruct Dr as [a|], Dc as [b|]; cbn [vindex] in N; cbn [getMatView onMatView]; unfold getRows, getCols, on_rows, on_cols, on_block.
  - destruct (lt_dec ir (length fs)) as [H|H]; [|rewrite !G by auto; auto].
    destruct (nth_err _ _ H) as [s Hs]. assert (E : exists k, getStart a P ir = Ok k).
    { destruct (factors_wf _ _ HP) as (h & sT & sR & -> & W). destruct (getStart_off a _ _ _ _ _ _ W Hs) as [-> _]. eauto. }
    destruct E as [k ->]. cbn [bind]. rewrite !(G b) by tauto. auto.
  - rewrite !G by tauto. auto.
  - rewrite !G by tauto. auto.
  - tauto.
Qed.
End Spans.

(** Reading: view (ir, ic) is the block of the rows of factor ir and the columns of factor ic (all of them for F). *)
Theorem C52_view_read : forall (K : Type) (SK : Scalar K) (Dr Dc : vdim) (P : mfd K) (fs : list (mfd K))
    (M : mat K) (r c ir ic : nat),
  factors P fs -> shape M r c -> vindex Dr fs ir -> vindex Dc fs ic ->
  vtotal Dr P r -> vtotal Dc P c ->
  exists B, getMatView Dr Dc P M ir ic = Ok B /\ shape B (vsize Dr fs r ir) (vsize Dc fs c ic) /\
    forall a b, a < vsize Dr fs r ir -> b < vsize Dc fs c ic ->
      mget B a b = mget M (vstart Dr fs ir + a) (vstart Dc fs ic + b).
Proof.
  intros K SK Dr Dc P fs M r c ir ic HP HM Ir Ic Tr Tc.
  apply (proj1 (view_read Dr Dc P fs M r c ir ic HP HM Ir Ic)).
  destruct (factors_wf _ _ HP) as (h & sT & sR & -> & W).
  assert (G : forall D n i, vindex D fs i -> vtotal D (Prod h sT sR fs) n -> vfits D fs n i).
  { intros [d|] n i Hi Ht; unfold vfits; [|cbn; lia]. cbn [vindex] in Hi. destruct (nth_err _ _ Hi) as [s Hs].
    rewrite start_off, (size_dim _ _ _ _ _ Hs). cbn [vtotal] in Ht. rewrite Ht, (wf_prod_getDim _ _ _ _ _ W).
    apply off_bound. apply dims_nth. auto. }
  split; apply G; auto.
Qed.
Print Assumptions C52_view_read.

(** Every row (column) index of the matrix is in the range of exactly one factor. *)
Theorem C52_tile : forall (K : Type) (SK : Scalar K) (D : edim) (P : mfd K) (fs : list (mfd K)) (k : nat),
  factors P fs -> k < getDim D P ->
  exists i, i < length fs /\ vin (VD D) fs (getDim D P) i k = true /\
    forall j, j < length fs -> vin (VD D) fs (getDim D P) j k = true -> j = i.
Proof.
  intros K SK D P fs k HP Hk. destruct (factors_wf _ _ HP) as (h & sT & sR & -> & W).
  rewrite (wf_prod_getDim _ _ _ _ _ W) in Hk. destruct (off_decomp (dims D fs) k Hk) as (i & d & a & Hi & Ha & ->).
  assert (I : forall j e, nth_error (dims D fs) j = Some e ->
    vin (VD D) fs (getDim D (Prod h sT sR fs)) j (off (dims D fs) i + a) = (i =? j)).
  { intros j e Hj. rewrite <- (inr_off _ _ _ _ _ _ Hi Hj Ha). unfold vin, inr. rewrite start_off.
    replace (vsize (VD D) fs (getDim D (Prod h sT sR fs)) j) with e; [reflexivity|].
    cbn. symmetry. apply nth_error_nth. exact Hj. }
  assert (Li : i < length fs).
  { assert (i < length (dims D fs)) by (apply nth_error_Some; congruence). unfold dims in *. rewrite map_length in *. auto. }
  exists i. split; auto. split; [rewrite (I _ _ Hi); apply Nat.eqb_refl|].
  intros j Hj E. destruct (nth_err _ _ Hj) as [s Hs]. rewrite (I _ _ (dims_nth D _ _ _ Hs)) in E. apply Nat.eqb_eq in E. auto.
Qed.
Print Assumptions C52_tile.

(** Writing through view (ir, ic): the callee receives the block, an error of the callee is passed on, and a block of
    the same size written by it replaces exactly the entries of the view. *)
Theorem C52_view_write : forall (K : Type) (SK : Scalar K) (Dr Dc : vdim) (P : mfd K) (fs : list (mfd K))
    (M : mat K) (r c ir ic : nat) (f : mat K -> res (mat K)),
  factors P fs -> shape M r c -> vindex Dr fs ir -> vindex Dc fs ic ->
  vfits Dr fs r ir -> vfits Dc fs c ic ->
  exists B, getMatView Dr Dc P M ir ic = Ok B /\
    (forall e, f B = Fail e -> onMatView Dr Dc P ir ic f M = Fail e) /\
    forall W, f B = Ok W -> shape W (vsize Dr fs r ir) (vsize Dc fs c ic) ->
      exists M', onMatView Dr Dc P ir ic f M = Ok M' /\ shape M' r c /\
        forall p q, p < r -> q < c ->
          mget M' p q = if vin Dr fs r ir p && vin Dc fs c ic q
                        then mget W (p - vstart Dr fs ir) (q - vstart Dc fs ic) else mget M p q.
Proof. intros. apply view_write; auto. Qed.
Print Assumptions C52_view_write.

(** Refusals: an index out of range fails an assertion whatever the matrix; a valid index fails (in Eigen) exactly when
    the view does not fit.  The size of the matrix itself is not checked, unlike for vectors (C02_view_refused). *)
Theorem C52_view_refused : forall (K : Type) (SK : Scalar K) (Dr Dc : vdim) (P : mfd K) (fs : list (mfd K))
    (M : mat K) (r c ir ic : nat) (f : mat K -> res (mat K)),
  factors P fs -> shape M r c ->
  (~ (vindex Dr fs ir /\ vindex Dc fs ic) ->
   getMatView Dr Dc P M ir ic = Fail EAssert /\ onMatView Dr Dc P ir ic f M = Fail EAssert) /\
  (vindex Dr fs ir -> vindex Dc fs ic ->
   (getMatView Dr Dc P M ir ic = Fail EEigen <-> ~ (vfits Dr fs r ir /\ vfits Dc fs c ic))).
Proof.
  intros K SK Dr Dc P fs M r c ir ic f HP HM. split.
  - intros N. eapply view_refused; eauto.
  - intros Ir Ic. destruct (view_read Dr Dc P fs M r c ir ic HP HM Ir Ic) as [A B]. split; auto.
    intros E C. destruct (A C) as (X & E' & _). congruence.
Qed.
Print Assumptions C52_view_refused.

(** The property as stated also asks that a matrix of the wrong size is refused.  It is not: a matrix with one
    row and one column too many is accepted by every view. *)
Theorem C52_wrong_size_refuted : exists (P : mfd Z) (fs : list (mfd Z)) (M : mat Z) (r c : nat),
  factors P fs /\ shape M r c /\ r <> getDim DR P /\ c <> getDim DT P /\
  forall ir ic, ir < length fs -> ic < length fs -> exists B, getMatView (VD DR) (VD DT) P M ir ic = Ok B.
Proof.
  exists exP, [exP2; exSO3], (mzero 13 12), 13, 12. split; [apply exP_built|]. split; [apply shape_mzero|].
  split; [cbv; lia|]. split; [cbv; lia|]. intros ir ic Hr Hc.
  destruct (view_read (VD DR) (VD DT) exP [exP2; exSO3] (mzero 13 12) 13 12 ir ic) as [A _]; auto;
    [apply exP_built|apply shape_mzero|].
  destruct A as (B & E & _); eauto. cbn [length] in *.
  destruct ir as [|[|ir]]; [| |lia]; destruct ic as [|[|ic]]; try lia; split; cbv; lia.
Qed.
Print Assumptions C52_wrong_size_refuted.

(** The views of an elementary manifold: index 0 gives the whole vector or matrix. *)
Theorem C52_elementary : forall (K : Type) (SK : Scalar K) (h : hdr) (l : leaf) (t u : vec K) (D Dr Dc : edim)
    (v : vec K) (M : mat K) (i : nat),
  let m := Leaf h l t u in
  getView D m v i = (if (i =? 0) && (length v =? getDim D m) then Ok v else Fail EAssert) /\
  (shape M (getDim Dr m) (getDim Dc m) ->
   getMatView1 (VD Dr) (VD Dc) m M i = if i =? 0 then Ok M else Fail EAssert).
Proof.
  intros K SK h l t u D Dr Dc v M i m. split.
  - unfold getView, view_range, getStart, getDimSub, subManifold, numberOfSubManifolds. cbn [m].
    destruct i as [|i]; [|reflexivity]. cbn [Nat.ltb Nat.leb mnf_assert bind Nat.eqb andb].
    fold m. destruct (length v =? getDim D m) eqn:E; [|reflexivity]. apply Nat.eqb_eq in E. cbn [bind mnf_assert].
    unfold segment. rewrite <- E. cbn. rewrite Nat.leb_refl. cbn. rewrite firstn_all. reflexivity.
  - intros HM. unfold getMatView1, getMatView, getStart, getDimSub, subManifold, numberOfSubManifolds. cbn [m].
    destruct i as [|i]; [|reflexivity]. cbn [Nat.ltb Nat.leb mnf_assert bind Nat.eqb]. fold m.
    destruct (block_ok M _ _ 0 0 (getDim Dr m) (getDim Dc m) HM) as (B & -> & S & G); [lia|lia|].
    f_equal. apply (mat_ext _ _ (getDim Dr m) (getDim Dc m)); auto.
Qed.
Print Assumptions C52_elementary.

(** (R2 x (R3 x S2)) x SO3: representation 8 + 4, tangent 8 + 3. *)
Example C52_example :
  factors exP [exP2; exSO3] /\ (getDim DR exP, getDim DT exP) = (12, 11) /\
  let M := mbuild 12 11 (fun i j => Z.of_nat (100 * i + j)) in
  (exists B, getMatView (VD DR) (VD DT) exP M 1 0 = Ok B /\ (mrows B, ncols B) = (4, 8) /\ mget B 2 3 = 1003%Z) /\
  (exists B, getMatView VF (VD DT) exP M 7 1 = Ok B /\ (mrows B, ncols B) = (12, 3) /\ mget B 2 1 = 209%Z) /\
  getMatView (VD DR) VF exP M 2 0 = Fail EAssert.
Proof.
  split; [apply exP_built|]. split; [reflexivity|]. cbv zeta.
  split; [eexists; split; [vm_compute; reflexivity|split; vm_compute; reflexivity]|].
  split; [eexists; split; [vm_compute; reflexivity|split; vm_compute; reflexivity]|]. vm_compute. reflexivity.
Qed.
