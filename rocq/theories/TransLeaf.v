(** Vector transport on trees in terms of the elementary factors at the leaves, for any scalar. *)
From Coq Require Import List Arith Bool ZArith Lia.
From Verif Require Import Base Scalar Vec Model_Real Model_S2 Model_SO3 Model_Manifold Spec Layout Comp BlockMat MatOps MatProd Flat F64Tree TanLeaf.
Import ListNotations.

Section Gen.
Context {K : Type} {SK : Scalar K} {F : Type}.
(** What one elementary factor does to its part of a vector: [C s f c c'], with [f] the data of the factor. *)
Variable C : mfd K -> F -> vec K -> vec K -> Prop.
Implicit Types (m s : mfd K) (subs : list (mfd K)).

(** A vector [c] and its image [c'], cut into the parts of the elementary factors [ls]. *)
Definition splits (ls : list (mfd K)) (fs : list F) (c c' : vec K) : Prop :=
  exists cs cs', c = concat cs /\ c' = concat cs' /\ pieces DT ls cs /\ pieces DT ls cs' /\ Forall4 C ls fs cs cs'.

Definition col (M : mat K) (j : nat) : vec K := nth j (mcols_ M) [].

Definition tr_ok m (x v : vec K) (fs : list F) : Prop :=
  (forall n out inp, shape out (tangentDim m) n -> shape inp (tangentDim m) n ->
     exists Y, applyTransport m out inp x v = Ok Y /\ shape Y (tangentDim m) n /\
       forall j, j < n -> splits (leaves m) fs (col inp j) (col Y j)) /\
  (forall n out inp, shape out n (tangentDim m) -> shape inp n (tangentDim m) ->
     exists Y, applyInvTransportOnTheRight m out inp x v = Ok Y /\ shape Y n (tangentDim m) /\
       forall i, i < n -> splits (leaves m) fs (mrow inp i) (mrow Y i)).

Lemma splits_app l1 f1 a a' l2 f2 b b' : splits l1 f1 a a' -> splits l2 f2 b b' -> splits (l1 ++ l2) (f1 ++ f2) (a ++ b) (a' ++ b').
Proof.
  intros (cs & cs' & -> & -> & P & P' & H) (ds & ds' & -> & -> & Q & Q' & G). exists (cs ++ ds), (cs' ++ ds').
  rewrite !concat_app. repeat split; auto using pieces_app. clear P P' Q Q'. induction H; cbn [app]; auto. constructor; auto.
Qed.

Lemma col_vcat n subs (Bs : list (mat K)) j : rpieces DT n subs Bs -> j < n -> col (vcat n Bs) j = concat (map (fun B => col B j) Bs).
Proof.
  intros P Hj. induction P as [|s B ss Bs HB P IH]; cbn [vcat map concat]; unfold col in *; cbn [mcols_].
  - destruct (nth_in_or_default j (repeat (@nil K) n) []) as [H| ->]; auto. apply repeat_spec in H. auto.
  - pose proof (rpieces_shape _ _ _ _ P) as (_ & L & _). destruct HB as (_ & LB & _).
    rewrite nth_map2 with (da := []) (db := []) by (rewrite ?LB, ?L; auto). rewrite IH. reflexivity.
Qed.
Lemma mrow_hcat n (Bs : list (mat K)) i : mrow (hcat n Bs) i = concat (map (fun B => mrow B i) Bs).
Proof. unfold mrow, hcat. cbn [mcols_]. rewrite concat_map, map_map. reflexivity. Qed.

Definition okf s (x v : vec K) (fs : list F) : Prop := length x = representationDim s /\ length v = tangentDim s /\ tr_ok s x v fs.

Lemma rows_go n subs xs vs fss : Forall4 okf subs xs vs fss -> forall outs inps, rpieces DT n subs outs -> rpieces DT n subs inps ->
  exists ys, Forall4 (fun s o ca y => applyTransport s o (fst ca) (fst (snd ca)) (snd (snd ca)) = Ok y) subs outs (combine inps (combine xs vs)) ys /\
    rpieces DT n subs ys /\
    forall j, j < n -> splits (flat_map leaves subs) (concat fss) (concat (map (fun B => col B j) inps)) (concat (map (fun B => col B j) ys)).
Proof.
  induction 1 as [|s x v fs ss xs vs fss (Lx & Lv & Ht & _) H IH]; intros outs inps Po Pi; inversion Po as [|? o ? os O1 O2]; inversion Pi as [|? c ? cs I1 I2]; subst.
  - exists []. split; [constructor|split; [constructor|]]. intros j _. exists [], []. repeat split; constructor.
  - destruct (Ht n o c O1 I1) as (Y & EY & SY & HY).
    destruct (IH os cs O2 I2) as (ys & E & P & G). exists (Y :: ys). cbn [combine flat_map concat map].
    split; [constructor; auto|split; [constructor; auto|]]. intros j Hj. apply splits_app; auto.
Qed.
Lemma cols_go n subs xs vs fss : Forall4 okf subs xs vs fss -> forall outs inps, cpieces DT n subs outs -> cpieces DT n subs inps ->
  exists ys, Forall4 (fun s o ca y => applyInvTransportOnTheRight s o (fst ca) (fst (snd ca)) (snd (snd ca)) = Ok y) subs outs (combine inps (combine xs vs)) ys /\
    cpieces DT n subs ys /\
    forall i, i < n -> splits (flat_map leaves subs) (concat fss) (concat (map (fun B => mrow B i) inps)) (concat (map (fun B => mrow B i) ys)).
Proof.
  induction 1 as [|s x v fs ss xs vs fss (Lx & Lv & _ & Ht) H IH]; intros outs inps Po Pi; inversion Po as [|? o ? os O1 O2]; inversion Pi as [|? c ? cs I1 I2]; subst.
  - exists []. split; [constructor|split; [constructor|]]. intros j _. exists [], []. repeat split; constructor.
  - destruct (Ht n o c O1 I1) as (Y & EY & SY & HY).
    destruct (IH os cs O2 I2) as (ys & E & P & G). exists (Y :: ys). cbn [combine flat_map concat map].
    split; [constructor; auto|split; [constructor; auto|]]. intros j Hj. apply splits_app; auto.
Qed.

Lemma tr_prod h sT sR subs xs vs fss : wf (Prod h sT sR subs) -> Forall4 okf subs xs vs fss ->
  tr_ok (Prod h sT sR subs) (concat xs) (concat vs) (concat fss).
Proof.
  intros W H.
  assert (Px : pieces DR subs xs) by (clear W; induction H as [|? ? ? ? ? ? ? ? (A & B & _)]; constructor; auto).
  assert (Pv : pieces DT subs vs) by (clear W Px; induction H as [|? ? ? ? ? ? ? ? (A & B & _)]; constructor; auto).
  pose proof (wf_prod_getDim DT _ _ _ _ W) as DimT.
  split; intros n out inp So Si; change (tangentDim (Prod h sT sR subs)) with (getDim DT (Prod h sT sR subs)) in *; rewrite DimT in So, Si.
  - destruct (cut_rows DT n subs out So) as (outs & -> & Po). destruct (cut_rows DT n subs inp Si) as (inps & -> & Pi).
    destruct (rows_go n _ _ _ _ H _ _ Po Pi) as (ys & E & P & G). exists (vcat n ys). split; [|split].
    + apply applyTransport_prod; auto. exists ys. auto.
    + rewrite DimT. apply rpieces_shape; auto.
    + intros j Hj. rewrite !(col_vcat n subs) by auto. apply G; auto.
  - destruct (cut_cols DT n subs out So) as (outs & -> & Po). destruct (cut_cols DT n subs inp Si) as (inps & -> & Pi).
    destruct (cols_go n _ _ _ _ H _ _ Po Pi) as (ys & E & P & G). exists (hcat n ys). split; [|split].
    + apply applyInvTransportOnTheRight_prod; auto. exists ys. auto.
    + rewrite DimT. apply hcat_shape; auto.
    + intros j Hj. rewrite !mrow_hcat. apply G; auto.
Qed.

(** From the elementary factors to the tree. *)
Lemma group4 {A B D E} (P : A -> B -> D -> E -> Prop) (ls1 : list A) : forall ls2 xs vs fs, Forall4 P (ls1 ++ ls2) xs vs fs ->
  exists x1 x2 v1 v2 f1 f2, xs = x1 ++ x2 /\ vs = v1 ++ v2 /\ fs = f1 ++ f2 /\ Forall4 P ls1 x1 v1 f1 /\ Forall4 P ls2 x2 v2 f2.
Proof.
  induction ls1 as [|a l IH]; intros ls2 xs vs fs H.
  - exists [], xs, [], vs, [], fs. repeat split; auto. constructor.
  - cbn in H. inversion H as [|? b c d ? lb lc ld H1 H2]; subst. destruct (IH _ _ _ _ H2) as (x1 & x2 & v1 & v2 & f1 & f2 & -> & -> & -> & G1 & G2).
    exists (b :: x1), x2, (c :: v1), v2, (d :: f1), f2. repeat split; auto. constructor; auto.
Qed.
Lemma tr_tree m : wf m -> forall xs vs fs, Forall4 (fun s x v f => okf s x v [f]) (leaves m) xs vs fs -> okf m (concat xs) (concat vs) fs.
Proof.
  induction m as [h l a b|h sT sR subs IH] using mfd_ind'; intros W xs vs fs H.
  - cbn [leaves] in H. inversion H as [|s x v f ? ? ? ? H1 H2]; subst. inversion H2; subst. cbn [concat]. rewrite !app_nil_r. exact H1.
  - assert (G : exists xss vss fss, concat xs = concat xss /\ concat vs = concat vss /\ fs = concat fss /\ Forall4 okf subs xss vss fss).
    { cbn [leaves] in H. inversion W as [|? ? ? ? _ _ _ _ _ Hs]; subst. clear W. revert xs vs fs H.
      induction IH as [|s ss Hs1 _ IH']; intros xs vs fs H.
      - inversion H; subst. exists [], [], []. repeat split; constructor.
      - inversion Hs; subst. cbn [flat_map] in H.
        destruct (group4 _ _ _ _ _ _ H) as (x1 & x2 & v1 & v2 & f1 & f2 & -> & -> & -> & H1' & H2').
        match goal with Q : Forall wf ss |- _ => destruct (IH' Q _ _ _ H2') as (xss & vss & fss & E1 & E2 & -> & HH) end.
        exists (concat x1 :: xss), (concat v1 :: vss), (f1 :: fss). rewrite !concat_app. cbn [concat]. rewrite E1, E2.
        repeat split; auto. constructor; auto. }
    destruct G as (xss & vss & fss & -> & -> & -> & G).
    split; [|split; [|apply tr_prod; auto]].
    + change (length (concat xss) = getDim DR (Prod h sT sR subs)). rewrite (wf_prod_getDim DR _ _ _ _ W). clear W H IH.
      induction G as [|? ? ? ? ? ? ? ? (A & _)]; cbn [concat map sum_list]; auto. rewrite app_length. f_equal; auto.
    + change (length (concat vss) = getDim DT (Prod h sT sR subs)). rewrite (wf_prod_getDim DT _ _ _ _ W). clear W H IH.
      induction G as [|? ? ? ? ? ? ? ? (_ & A & _)]; cbn [concat map sum_list]; auto. rewrite app_length. f_equal; auto.
Qed.

(** Elementary factors other than S2 copy. *)
Lemma tr_copy h l a b x v f : leaf_wf h l a b -> l <> LS2 -> length x = representationDim (Leaf h l a b) -> length v = tangentDim (Leaf h l a b) ->
  (forall c, length c = tangentDim (Leaf h l a b) -> C (Leaf h l a b) f c c) -> okf (Leaf h l a b) x v [f].
Proof.
  intros W Hl Lx Lv HC. split; [auto|split; [auto|]]. set (s := Leaf h l a b) in *. set (t := tangentDim s) in *.
  assert (Ch : transport_checks s x v = Ok tt).
  { unfold transport_checks, s. cbn [isInTxM]. rewrite !check_eq by auto. destruct l; try reflexivity. contradiction. }
  assert (Sp : forall c, length c = t -> splits [s] [f] c c).
  { intros c Lc. exists [c], [c]. cbn [concat]. rewrite app_nil_r. repeat split; repeat (constructor; [auto|]); constructor. }
  split; intros n out inp So Si; exists inp; fold t in So, Si |- *.
  - split; [|split; [auto|]].
    + unfold s. cbn [applyTransport]. fold s. fold t. pose proof So as (S1 & S2 & _). pose proof Si as (T1 & T2 & _).
      rewrite !check_eq by (unfold ncols; congruence). rewrite Ch. cbn [bind].
      assert (E : massign out inp = Ok inp) by (eapply massign_shape; eauto).
      destruct l; [exact E|contradiction|exact E].
    + intros j Hj. cbn [leaves]. unfold s. cbn [leaves]. fold s. apply Sp. destruct Si as (_ & S2 & S3). rewrite Forall_forall in S3. apply S3, nth_In. rewrite S2. auto.
  - split; [|split; [auto|]].
    + unfold s. cbn [applyInvTransportOnTheRight]. fold s. fold t. pose proof So as (S1 & S2 & _). pose proof Si as (T1 & T2 & _).
      rewrite !check_eq by (unfold ncols; congruence). rewrite Ch. cbn [bind].
      assert (E : massign out inp = Ok inp) by (eapply massign_shape; eauto).
      destruct l; [exact E|contradiction|exact E].
    + intros j Hj. unfold s. cbn [leaves]. fold s. apply Sp. destruct Si as (_ & S2 & _). unfold mrow. rewrite map_length. auto.
Qed.

(** S2. *)
Lemma tr_s2 h a b x v y A f : leaf_wf h LS2 a b -> length x = 3 -> length v = 3 -> s2_isInTxM x v default_prec = true ->
  (forall out, length out = 3 -> s2_retractation out x v = Ok y) -> computeRotBetweenVec x y = Ok A ->
  (forall c, length c = 3 -> C (Leaf h LS2 a b) f c (m3_mulv A c)) -> okf (Leaf h LS2 a b) x v [f].
Proof.
  intros W Lx Lv T Re Ro HC. pose proof W as (_ & W2 & W3 & _). set (s := Leaf h LS2 a b) in *.
  assert (T3 : tangentDim s = 3) by exact W2. assert (R3 : representationDim s = 3) by exact W3.
  split; [congruence|split; [congruence|]]. unfold tr_ok. rewrite T3.
  assert (IT : isInTxM s x v default_prec = Ok true).
  { unfold s. cbn [isInTxM]. fold s. rewrite T3, R3. rewrite !check_eq by auto. cbn [bind]. rewrite T. reflexivity. }
  assert (Ch : transport_checks s x v = Ok tt).
  { unfold transport_checks. rewrite T3, R3. rewrite !check_eq by auto. cbn [bind]. rewrite IT. reflexivity. }
  assert (RR : retractation s (vconst 3 k0) x v = Ok y).
  { unfold s. cbn [retractation]. fold s. rewrite T3, R3. rewrite !check_eq by auto. cbn [bind]. fold s. rewrite ?IT. cbn [bind mnf_assert]. apply Re. reflexivity. }
  assert (Lm : forall c, length (m3_mulv A c) = 3) by reflexivity.
  assert (Sp : forall c, length c = 3 -> splits [s] [f] c (m3_mulv A c)).
  { intros c Lc. exists [c], [m3_mulv A c]. cbn [concat]. rewrite !app_nil_r. repeat split; repeat (constructor; [cbn [getDim]; rewrite ?T3, ?Lm; auto|]); constructor. }
  split; intros n out inp So Si; pose proof So as (S1 & S2 & S3); pose proof Si as (T1 & T2 & T4); rewrite Forall_forall in T4.
  - exists (Mat 3 (map (m3_mulv A) (mcols_ inp))). split; [|split].
    + unfold s. cbn [applyTransport]. fold s. rewrite T3. rewrite !check_eq by (unfold ncols; congruence). rewrite Ch, RR. cbn [bind].
      unfold s2_applyTransport. rewrite Ro. cbn [bind]. unfold m3_on_cols, ncols. rewrite T1, S1, S2, T2, !Nat.eqb_refl. reflexivity.
    + repeat split; cbn [mrows mcols_]; [rewrite map_length; auto|]. rewrite Forall_map. apply Forall_forall. auto.
    + intros j Hj. unfold s. cbn [leaves]. fold s. unfold col. cbn [mcols_].
      rewrite (nth_indep (map (m3_mulv A) (mcols_ inp)) [] (m3_mulv A [])) by (rewrite map_length, T2; auto). rewrite map_nth. apply Sp, T4, nth_In. rewrite T2; auto.
  - exists (mbuild n 3 (fun i j => nth j (m3_mulv A (mrow inp i)) k0)). split; [|split].
    + unfold s. cbn [applyInvTransportOnTheRight]. fold s. rewrite T3. rewrite !check_eq by (unfold ncols; congruence). rewrite Ch, RR. cbn [bind].
      unfold s2_applyInvTransportOnTheRight. rewrite Ro. cbn [bind]. unfold ncols. rewrite T1, S1, S2, T2, !Nat.eqb_refl. reflexivity.
    + apply shape_mbuild.
    + intros i Hi. unfold s. cbn [leaves]. fold s.
      replace (mrow (mbuild n 3 (fun i j => nth j (m3_mulv A (mrow inp i)) k0)) i) with (m3_mulv A (mrow inp i)).
      * apply Sp. unfold mrow. rewrite map_length. auto.
      * apply (nth_ext _ _ k0 k0).
        -- unfold mrow at 2. rewrite map_length. unfold mbuild. cbn [mcols_]. rewrite map_length, seq_length. apply Lm.
        -- intros j Hj. rewrite Lm in Hj. symmetry.
           transitivity (mget (mbuild n 3 (fun i j => nth j (m3_mulv A (mrow inp i)) k0)) i j); [|rewrite mget_mbuild by auto; reflexivity].
           set (M := mbuild _ _ _). assert (LM : length (mcols_ M) = 3) by (unfold M, mbuild; cbn [mcols_]; rewrite map_length, seq_length; auto).
           unfold mget, mrow. rewrite (nth_indep (map (fun c => nth i c k0) (mcols_ M)) k0 (nth i [] k0)) by (rewrite map_length, LM; auto).
           apply (map_nth (fun c => nth i c k0)).
Qed.
End Gen.
