(** tangentConstraint and getIdentityOnTxM of products. *)
From Coq Require Import List Arith Bool ZArith Lia.
From Verif Require Import Base Scalar Vec Model_Real Model_S2 Model_SO3 Model_Manifold Spec Layout Comp Structure BlockMat MatOps MatProd.
Import ListNotations.

Section MatTan.
Context {K : Type} {SK : Scalar K}.
Implicit Types (m s : mfd K) (fs subs pre post : list (mfd K)) (M B J out inp : mat K).

(** Number of tangency constraints. *)
Definition codim (m : mfd K) : nat := tangentDim m - dim m.

Lemma wf_dim_le m : wf m -> dim m <= tangentDim m.
Proof.
  induction m as [h l a b|h sT sR subs IH] using mfd_ind'; intros Hwf; inversion Hwf as [? ? ? ? Hw|? ? ? ? E1 E2 _ _ _ Hs]; subst.
  - unfold dim, tangentDim. simpl. destruct l; simpl in Hw; intuition lia.
  - unfold dim, tangentDim. cbn [hdr_of]. rewrite E1, E2. clear -IH Hs. induction Hs; simpl; [lia|].
    inversion IH; subst. specialize (H2 H). specialize (IHHs H3). lia.
Qed.

Lemma codim_sum h sT sR subs : wf (Prod h sT sR subs) -> codim (Prod h sT sR subs) = sum_list (map codim subs).
Proof.
  intros Hwf. inversion Hwf as [|? ? ? ? E1 E2 _ _ _ Hs]; subst. unfold codim, dim, tangentDim in *. cbn [hdr_of].
  rewrite E1, E2. clear -Hs. induction Hs as [|s ss H Hs IH]; simpl; auto. rewrite <- IH. pose proof (wf_dim_le _ H) as L.
  assert (sum_list (map (fun m => h_dim (hdr_of m)) ss) <= sum_list (map (fun m => h_tdim (hdr_of m)) ss)).
  { clear -Hs. induction Hs; simpl; auto. pose proof (wf_dim_le _ H). unfold dim, tangentDim in *. lia. }
  unfold dim, tangentDim in *. lia.
Qed.

Lemma loop_carry subs (step' : nat -> mfd K -> mat K * nat -> res (mat K * nat))
  (step : nat -> mfd K -> mat K -> res (mat K)) ks :
  (forall i s J, nth_error subs i = Some s ->
     step' i s (J, off ks i) = (J' <- step i s J ;; Ok (J', off ks (S i)))) ->
  forall J, loop step' 0 subs (J, 0) = (J' <- loop step 0 subs J ;; Ok (J', off ks (List.length subs))).
Proof.
  intros Hst J.
  cut (forall post pre J, subs = pre ++ post -> loop step' (List.length pre) post (J, off ks (List.length pre))
        = (J' <- loop step (List.length pre) post J ;; Ok (J', off ks (List.length subs)))).
  { intros H. apply (H subs [] J). auto. }
  clear J. induction post as [|s post IH]; intros pre J E.
  - simpl. rewrite E, app_nil_r. auto.
  - cbn [loop]. rewrite Hst by (rewrite E, nth_error_app2, Nat.sub_diag by lia; auto).
    destruct (step (List.length pre) s J) as [J'|]; auto. cbn [bind].
    specialize (IH (pre ++ [s]) J'). rewrite app_length in IH. cbn [List.length] in IH. rewrite Nat.add_1_r in IH.
    apply IH. rewrite <- app_assoc. auto.
Qed.

Lemma off_S ds i d : nth_error ds i = Some d -> off ds (S i) = off ds i + d.
Proof.
  unfold off. revert i; induction ds as [|e ds IH]; intros [|i] H; simpl in *; try discriminate.
  - inversion H; subst. lia.
  - apply IH in H. simpl in H. lia.
Qed.

Definition tc_step P x subs i s J :=
  on_cols DT P i (fun Ci => B <- middleRows Ci (off (map codim subs) i) (codim s) ;;
     xi <- getView DR P x i ;; B' <- tangentConstraint (K:=K) s B xi ;;
     Ok (set_middleRows Ci (off (map codim subs) i) B')) J.

Lemma tc_step_block h sT sR subs x i s J : wf (Prod h sT sR subs) -> nth_error subs i = Some s ->
  (forall B x y, shape B (codim s) (tangentDim s) -> tangentConstraint s B x = Ok y -> shape y (codim s) (tangentDim s)) ->
  shape J (sum_list (map codim subs)) (sum_list (map (getDim DT) subs)) ->
  exists B, shape B (codim s) (getDim DT s) /\
    tc_step (Prod h sT sR subs) x subs i s J =
    (B' <- (xi <- getView DR (Prod h sT sR subs) x i ;; tangentConstraint s B xi) ;;
     Ok (set_block J (off (map codim subs) i) (off (map (getDim DT) subs) i) B')).
Proof.
  intros Hwf Hs Hsh HJ. unfold tc_step, on_cols.
  destruct (getStart_off DT _ _ _ _ _ _ Hwf Hs) as (-> & ->). cbn [bind].
  destruct (middleCols_ok J _ _ (off (dims DT subs) i) (getDim DT s) HJ) as (Ci & EC & SC & GC).
  { apply off_bound. apply dims_nth. auto. }
  rewrite EC. cbn [bind].
  destruct (middleRows_ok Ci _ _ (off (map codim subs) i) (codim s) SC) as (B & EB & SB & GB).
  { apply off_bound. apply map_nth_error. auto. }
  exists B. split; auto. rewrite EB. cbn [bind].
  destruct (getView DR _ x i) as [xi|]; auto. cbn [bind].
  destruct (tangentConstraint s B xi) as [B'|] eqn:ET; auto. cbn [bind]. f_equal.
  specialize (Hsh _ _ _ SB ET). unfold set_block. replace (ncols B') with (getDim DT s) by (symmetry; apply Hsh).
  unfold dims in *. unfold middleCols, segment, eigen_assert in EC.
  match type of EC with context [if ?b then _ else _] => destruct b end; simpl in EC; inversion EC. reflexivity.
Qed.

Lemma tc_check m out : wf m -> mrows out = codim m ->
  mnf_assert (Z.of_nat (mrows out) =? Z.of_nat (tangentDim m) - Z.of_nat (dim m))%Z = Ok tt.
Proof.
  intros Hwf ->. unfold codim. rewrite Nat2Z.inj_sub by (apply wf_dim_le; auto). rewrite Z.eqb_refl. auto.
Qed.

Lemma tc_loop h sT sR subs x out :
  wf (Prod h sT sR subs) -> shape out (codim (Prod h sT sR subs)) (tangentDim (Prod h sT sR subs)) ->
  List.length x = representationDim (Prod h sT sR subs) ->
  tangentConstraint (Prod h sT sR subs) out x
  = loop (tc_step (Prod h sT sR subs) x subs) 0 subs (mzero (mrows out) (ncols out)).
Proof.
  intros Hwf Ho Hx. cbn [tangentConstraint].
  rewrite tc_check by (auto; apply Ho). rewrite (check_eq (ncols out)) by apply Ho. rewrite check_eq by auto. cbn [bind].
  rewrite (loop_carry subs _ (tc_step (Prod h sT sR subs) x subs) (map codim subs)).
  - destruct (loop _ 0 subs _); reflexivity.
  - intros i s J Hs. cbv beta iota zeta. change (tangentDim s - dim s) with (codim s).
    unfold tc_step. destruct (on_cols _ _ _ _ _); auto. cbn [bind].
    rewrite (off_S _ _ (codim s)) by (apply map_nth_error; auto). reflexivity.
Qed.

Lemma tc_indep m out out' x : wf m -> shape out (codim m) (tangentDim m) -> shape out' (codim m) (tangentDim m) ->
  tangentConstraint m out x = tangentConstraint m out' x.
Proof.
  intros Hwf Ho Ho'. destruct m as [h l a b|h sT sR subs].
  - cbn [tangentConstraint]. rewrite !tc_check by (auto; first [apply Ho|apply Ho']).
    rewrite !(check_eq (ncols _)) by first [apply Ho|apply Ho'].
    destruct (mnf_assert _); auto. cbn [bind]. inversion Hwf as [? ? ? ? Hw|]; subst.
    destruct l; simpl in Hw.
    + f_equal. eapply mat_ext; eauto. unfold codim, tangentDim, dim. simpl. intros. exfalso. lia.
    + unfold s2_tangentConstraint, massign. destruct Ho as (-> & E & _), Ho' as (-> & E' & _). unfold ncols. rewrite E, E'. auto.
    + f_equal. eapply mat_ext; eauto. unfold codim, tangentDim, dim. simpl. intros. exfalso. lia.
  - destruct (Nat.eq_dec (List.length x) (representationDim (Prod h sT sR subs))) as [E|E].
    + rewrite !tc_loop by auto. destruct Ho as (-> & Eo & _), Ho' as (-> & Eo' & _). unfold ncols. rewrite Eo, Eo'. auto.
    + cbn [tangentConstraint]. rewrite !tc_check by (auto; first [apply Ho|apply Ho']).
      rewrite !(check_eq (ncols _)) by first [apply Ho|apply Ho']. cbn [bind].
      apply Nat.eqb_neq in E. rewrite E. reflexivity.
Qed.

Lemma tc_shape m : wf m -> forall out x y, shape out (codim m) (tangentDim m) -> tangentConstraint m out x = Ok y ->
  shape y (codim m) (tangentDim m).
Proof.
  induction m as [h l a b|h sT sR subs IH] using mfd_ind'; intros Hwf out x y Ho H.
  - cbn [tangentConstraint] in H. do 3 bind_inv H. destruct l; try (inversion H; subst; auto; fail).
    unfold s2_tangentConstraint in H. eapply massign_val_shape; eauto. unfold ncols. repeat split; simpl; auto.
    apply Forall_forall. intros c Hc. apply in_map_iff in Hc. destruct Hc as (? & <- & _). auto.
  - assert (Hs : Forall wf subs) by (inversion Hwf; auto).
    assert (Hx : List.length x = representationDim (Prod h sT sR subs)).
    { cbn [tangentConstraint] in H. do 3 bind_inv H. apply mnf_inv in E1. apply Nat.eqb_eq in E1. auto. }
    rewrite tc_loop in H by auto.
    assert (Sz : shape (mzero (K:=K) (mrows out) (ncols out)) (sum_list (map codim subs)) (sum_list (map (getDim DT) subs))).
    { eapply shape_eq; [apply shape_mzero| |].
      - rewrite <- (codim_sum h sT sR) by auto. apply Ho.
      - rewrite <- (wf_prod_getDim DT h sT sR) by auto. apply Ho. }
    rewrite (codim_sum h sT sR) by auto.
    change (tangentDim (Prod h sT sR subs)) with (getDim DT (Prod h sT sR subs)). rewrite (wf_prod_getDim DT _ _ _ _ Hwf).
    clear Ho Hx. revert H Sz. generalize (mzero (K:=K) (mrows out) (ncols out)).
    cut (forall post pre J, subs = pre ++ post -> loop (tc_step (Prod h sT sR subs) x subs) (List.length pre) post J = Ok y ->
      shape J (sum_list (map codim subs)) (sum_list (map (getDim DT) subs)) ->
      shape y (sum_list (map codim subs)) (sum_list (map (getDim DT) subs))).
    { intros C J HJ. apply (C subs [] J); auto. }
    induction post as [|s post IHp]; intros pre J E H HJ.
    + simpl in H. inversion H; subst. auto.
    + cbn [loop] in H.
      assert (Hn : nth_error subs (List.length pre) = Some s) by (rewrite E, nth_error_app2, Nat.sub_diag by lia; auto).
      assert (Hin : In s subs) by (eapply nth_error_In; eauto).
      rewrite Forall_forall in IH, Hs.
      destruct (tc_step_block h sT sR subs x _ s J Hwf Hn) as (B & SB & EB); auto.
      { intros. eapply IH; eauto. }
      rewrite EB in H. bind_inv H. bind_inv E0. inversion E0; subst; clear E0. bind_inv E1.
      pose proof (IH s Hin (Hs s Hin) _ _ _ SB E1) as SB'.
      apply (IHp (pre ++ [s]) (set_block J (off (map codim (pre ++ s :: post)) (List.length pre)) (off (map (getDim DT) (pre ++ s :: post)) (List.length pre)) a0)).
      * rewrite <- app_assoc; auto.
      * rewrite app_length, Nat.add_1_r. auto.
      * eapply set_block_ok; eauto.
        -- apply off_bound. apply (map_nth_error codim). auto.
        -- apply off_bound. apply (map_nth_error (getDim DT)). auto.
Qed.

Lemma tangentConstraint_prod h sT sR subs xs out C : wf (Prod h sT sR subs) -> pieces DR subs xs ->
  shape out (codim (Prod h sT sR subs)) (tangentDim (Prod h sT sR subs)) ->
  (tangentConstraint (Prod h sT sR subs) out (concat xs) = Ok C
   <-> exists Cs, Forall3 (fun s x C => tangentConstraint s (mzero (codim s) (tangentDim s)) x = Ok C) subs xs Cs
                  /\ C = bdiag Cs).
Proof.
  intros Hwf Hp Ho. assert (Hs : Forall wf subs) by (inversion Hwf; auto). rewrite Forall_forall in Hs.
  rewrite tc_loop; auto.
  2: exact (pieces_getDim DR _ _ _ _ _ Hwf Hp).
  apply (diag_op subs codim (getDim DT)
    (fun i s B => xi <- getView DR (Prod h sT sR subs) (concat xs) i ;; tangentConstraint s B xi)
    (tc_step (Prod h sT sR subs) (concat xs) subs) (vec K)
    (fun s x => tangentConstraint s (mzero (codim s) (tangentDim s)) x) xs).
  - intros i s J Hn HJ. apply tc_step_block; auto. intros. eapply tc_shape; eauto. apply Hs. eapply nth_error_In; eauto.
  - eapply pieces_len; eauto.
  - intros i s x B Hn Hx SB. rewrite (getView_nth_error DR _ _ _ _ _ i x) by auto. cbn [bind].
    apply tc_indep; auto. + apply Hs. eapply nth_error_In; eauto. + apply shape_mzero.
  - intros i s x b Hn Hx H. eapply tc_shape; [|apply shape_mzero|exact H]. apply Hs. eapply nth_error_In; eauto.
  - eapply shape_eq; [apply shape_mzero| |].
    + rewrite <- (codim_sum h sT sR) by auto. apply Ho.
    + rewrite <- (wf_prod_getDim DT h sT sR) by auto. apply Ho.
  - apply mzero_get.
Qed.

(** ** getIdentityOnTxM *)

Section Ident.
  Variables (h : hdr) (sT sR : list nat) (subs : list (mfd K)).
  Hypothesis Hwf : wf (Prod h sT sR subs).
  Notation P := (Prod h sT sR subs).
  Notation ds := (dims DT subs).
  Notation zero_blk := (fun B => Ok (mzero (mrows B) (ncols B))).

  Lemma zero_block M i j si sj : nth_error subs i = Some si -> nth_error subs j = Some sj ->
    shape M (sum_list ds) (sum_list ds) ->
    exists M', on_block DT DT P i j zero_blk M = Ok M' /\ shape M' (sum_list ds) (sum_list ds) /\
      forall p q sp sq a b, nth_error subs p = Some sp -> nth_error subs q = Some sq ->
        a < tangentDim sp -> b < tangentDim sq ->
        mget M' (off ds p + a) (off ds q + b)
        = if (p =? i) && (q =? j) then k0 else mget M (off ds p + a) (off ds q + b).
  Proof.
    intros Hi Hj HM. destruct (on_block_ok DT DT h sT sR subs i j si sj zero_blk M Hwf Hi Hj HM) as (B & SB & _ & E).
    rewrite E. cbn [bind]. eexists. split; [reflexivity|].
    assert (SZ : shape (mzero (K:=K) (mrows B) (ncols B)) (tangentDim si) (tangentDim sj))
      by (eapply shape_eq; [apply shape_mzero|apply SB|apply SB]).
    destruct (set_block_ok M _ _ (off ds i) (off ds j) _ _ _ HM SZ) as (S' & G').
    - apply off_bound. apply (dims_nth DT). auto.
    - apply off_bound. apply (dims_nth DT). auto.
    - split; auto. intros p q sp sq a b Hp Hq Ha Hb.
      pose proof (dims_nth DT _ _ _ Hq) as Hqd. pose proof (dims_nth DT _ _ _ Hp) as Hpd.
      rewrite G' by (pose proof (off_bound _ _ _ Hqd); simpl in *; lia).
      rewrite (inr_off ds p i (tangentDim sp) (tangentDim si) a), (inr_off ds q j (tangentDim sq) (tangentDim sj) b)
        by (auto; apply (dims_nth DT); auto).
      destruct ((p =? i) && (q =? j)); auto. apply mzero_get.
  Qed.

  Lemma zero_blocks k sk : nth_error subs k = Some sk -> forall l i0 M, (forall j, In j l -> j < List.length subs) ->
    shape M (sum_list ds) (sum_list ds) ->
    exists M', loop (fun _ j out => out1 <- on_block DT DT P k j zero_blk out ;; on_block DT DT P j k zero_blk out1) i0 l M = Ok M' /\
      shape M' (sum_list ds) (sum_list ds) /\
      forall p q sp sq a b, nth_error subs p = Some sp -> nth_error subs q = Some sq ->
        a < tangentDim sp -> b < tangentDim sq ->
        mget M' (off ds p + a) (off ds q + b)
        = if ((p =? k) && existsb (Nat.eqb q) l) || ((q =? k) && existsb (Nat.eqb p) l) then k0
          else mget M (off ds p + a) (off ds q + b).
  Proof.
    intros Hk. induction l as [|j l IH]; intros i0 M Hl HM.
    - exists M. split; auto. split; auto. intros. cbn [existsb]. rewrite !andb_false_r. reflexivity.
    - assert (exists sj, nth_error subs j = Some sj) as [sj Hj].
      { specialize (Hl j (or_introl eq_refl)). destruct (nth_error subs j) eqn:E; eauto. apply nth_error_None in E. lia. }
      cbn [loop].
      destruct (zero_block M k j sk sj Hk Hj HM) as (M1 & E1 & S1 & G1).
      destruct (zero_block M1 j k sj sk Hj Hk S1) as (M2 & E2 & S2 & G2).
      rewrite E1. cbn [bind]. rewrite E2. cbn [bind].
      destruct (IH (S i0) M2) as (M3 & E3 & S3 & G3); auto. { intros; apply Hl; simpl; auto. }
      exists M3. split; auto. split; auto. intros p q sp sq a b Hp Hq Ha Hb.
      rewrite (G3 p q sp sq a b) by auto. rewrite (G2 p q sp sq a b) by auto. rewrite (G1 p q sp sq a b) by auto.
      cbn [existsb]. destruct (p =? k) eqn:Epk, (q =? j) eqn:Eqj, (q =? k) eqn:Eqk, (p =? j) eqn:Epj; simpl;
        repeat match goal with |- context [existsb ?f l] => destruct (existsb f l) end; simpl; auto.
  Qed.

  Lemma ident_loop (f : nat -> mfd K -> mat K -> res (mat K)) (Is : list (mat K)) M0 :
    (forall i s, nth_error subs i = Some s -> exists I, nth_error Is i = Some I /\ shape I (tangentDim s) (tangentDim s) /\
        forall B, shape B (tangentDim s) (tangentDim s) -> f i s B = Ok I) ->
    List.length Is = List.length subs ->
    shape M0 (sum_list ds) (sum_list ds) ->
    loop (fun i s out => out' <- on_block DT DT P i i (f i s) out ;;
            loop (fun _ j out => out1 <- on_block DT DT P i j zero_blk out ;; on_block DT DT P j i zero_blk out1) 0 (seq 0 i) out')
      0 subs M0 = Ok (bdiag Is).
  Proof.
    intros Hf HL HM0.
    set (step := fun i s out => out' <- on_block DT DT P i i (f i s) out ;;
            loop (fun _ j out => out1 <- on_block DT DT P i j zero_blk out ;; on_block DT DT P j i zero_blk out1) 0 (seq 0 i) out').
    cut (forall post pre M, subs = pre ++ post -> shape M (sum_list ds) (sum_list ds) ->
      (forall p q sp sq Ip a b, p < List.length pre -> q < List.length pre ->
         nth_error subs p = Some sp -> nth_error subs q = Some sq -> nth_error Is p = Some Ip ->
         a < tangentDim sp -> b < tangentDim sq ->
         mget M (off ds p + a) (off ds q + b) = if p =? q then mget Ip a b else k0) ->
      exists M', loop step (List.length pre) post M = Ok M' /\ shape M' (sum_list ds) (sum_list ds) /\
      (forall p q sp sq Ip a b, 
         nth_error subs p = Some sp -> nth_error subs q = Some sq -> nth_error Is p = Some Ip ->
         a < tangentDim sp -> b < tangentDim sq ->
         mget M' (off ds p + a) (off ds q + b) = if p =? q then mget Ip a b else k0)).
    { intros C. destruct (C subs [] M0) as (M' & E & SM & G); auto. { intros p q. simpl. lia. }
      simpl in E. rewrite E. f_equal.
      assert (HD : map (@mrows K) Is = ds /\ map (@ncols K) Is = ds /\ Forall (fun B => shape B (mrows B) (ncols B)) Is).
      { clear -Hf HL. unfold dims.
        assert (W : forall i s, nth_error subs i = Some s -> exists I, nth_error Is i = Some I /\ shape I (tangentDim s) (tangentDim s)).
        { intros i s Hi. destruct (Hf i s Hi) as (I & ? & ? & _). eauto. }
        clear Hf. revert Is HL W. induction subs as [|s ss IH]; intros [|I Is] HL W; try discriminate; [repeat split; constructor|].
        destruct (IH Is) as (A1 & A2 & A3); [simpl in HL; lia|intros i; apply (W (S i))|].
        destruct (W 0 s eq_refl) as (I' & HI' & (S1 & S2 & S3)). simpl in HI'. inversion HI'; subst I'.
        simpl. rewrite A1, A2. unfold ncols. rewrite S1, S2. repeat split; auto. constructor; auto.
        repeat split; auto. rewrite S1. auto. }
      destruct HD as (D1 & D2 & D3).
      apply (is_bdiag M' Is ds ds); auto.
      intros i j Bi Bj a b Hi Hj Ha Hb.
      assert (Fs : forall i B, nth_error Is i = Some B -> exists s, nth_error subs i = Some s /\ mrows B = tangentDim s /\ ncols B = tangentDim s).
      { intros k B HB. destruct (nth_error subs k) as [s|] eqn:Ek.
        - exists s. split; auto. destruct (Hf k s Ek) as (I & HI & SI & _). rewrite HB in HI. inversion HI; subst. split; apply SI.
        - apply nth_error_None in Ek. assert (k < List.length Is) by (apply nth_error_Some; congruence). lia. }
      destruct (Fs i Bi Hi) as (si & Hsi & R1 & C1). destruct (Fs j Bj Hj) as (sj & Hsj & R2 & C2).
      apply (G i j si sj Bi a b); auto; lia. }
    induction post as [|s post IH]; intros pre M E HM Inv.
    - exists M. split; auto. split; auto. rewrite app_nil_r in E. intros. eapply Inv; eauto; rewrite <- E; apply nth_error_Some; congruence.
    - assert (Hn : nth_error subs (List.length pre) = Some s) by (rewrite E, nth_error_app2, Nat.sub_diag by lia; auto).
      destruct (Hf _ _ Hn) as (I & HI & SI & FI).
      destruct (on_block_ok DT DT h sT sR subs _ _ s s (f (List.length pre) s) M Hwf Hn Hn HM) as (B & SB & _ & EB).
      cbn [loop]. unfold step at 1. rewrite EB, FI by auto. cbn [bind].
      destruct (set_block_ok M _ _ (off ds (List.length pre)) (off ds (List.length pre)) I _ _ HM SI) as (S1 & G1).
      { apply off_bound. apply (dims_nth DT). auto. } { apply off_bound. apply (dims_nth DT). auto. }
      destruct (zero_blocks _ s Hn (seq 0 (List.length pre)) 0 (set_block M (off ds (List.length pre)) (off ds (List.length pre)) I)) as (M2 & E2 & S2 & G2); auto.
      { intros j Hj. apply in_seq in Hj. apply nth_error_lt in Hn. lia. }
      rewrite E2. cbn [bind].
      destruct (IH (pre ++ [s]) M2) as (M' & E' & S' & G').
      + rewrite <- app_assoc. auto.
      + auto.
      + rewrite app_length. cbn [List.length]. intros p q sp sq Ip a b Lp Lq Hp Hq HIp Ha Hb.
        rewrite (G2 p q sp sq a b) by auto.
        assert (Ex : forall z, existsb (Nat.eqb z) (seq 0 (List.length pre)) = (z <? List.length pre)).
        { intros z. destruct (Nat.ltb_spec z (List.length pre)).
          - apply existsb_exists. exists z. split; [apply in_seq; lia|apply Nat.eqb_refl].
          - destruct (existsb _ _) eqn:Q; auto. apply existsb_exists in Q. destruct Q as (w & Hw & Hz).
            apply Nat.eqb_eq in Hz. apply in_seq in Hw. lia. }
        rewrite !Ex.
        pose proof (dims_nth DT _ _ _ Hq) as Hqd. pose proof (dims_nth DT _ _ _ Hp) as Hpd. pose proof (dims_nth DT _ _ _ Hn) as Hnd.
        rewrite G1 by (pose proof (off_bound _ _ _ Hqd); simpl in *; lia).
        rewrite (inr_off ds p (List.length pre) (tangentDim sp) (tangentDim s) a), (inr_off ds q (List.length pre) (tangentDim sq) (tangentDim s) b) by auto.
        destruct (Nat.eqb_spec p (List.length pre)) as [Ep|Np].
        * destruct (Nat.ltb_spec q (List.length pre)) as [Lq'|Lq'].
          -- simpl. replace (p =? q) with false by (symmetry; apply Nat.eqb_neq; lia). auto.
          -- assert (q = List.length pre) by lia. subst q. subst p. rewrite Nat.eqb_refl, Nat.ltb_irrefl. simpl.
             replace Ip with I by congruence. f_equal; lia.
        * destruct (Nat.eqb_spec q (List.length pre)) as [Eq|Nq].
          -- replace (p <? List.length pre) with true by (symmetry; apply Nat.ltb_lt; lia). simpl.
             replace (p =? q) with false by (symmetry; apply Nat.eqb_neq; lia). auto.
          -- simpl. eapply Inv; eauto; lia.
      + exists M'. rewrite app_length, Nat.add_1_r in E'. auto.
  Qed.
End Ident.

Lemma shape_dims h sT sR subs M : wf (Prod h sT sR subs) ->
  shape M (tangentDim (Prod h sT sR subs)) (tangentDim (Prod h sT sR subs)) ->
  shape M (sum_list (dims DT subs)) (sum_list (dims DT subs)).
Proof.
  intros Hwf. change (tangentDim (Prod h sT sR subs)) with (getDim DT (Prod h sT sR subs)).
  rewrite (wf_prod_getDim DT _ _ _ _ Hwf). auto.
Qed.

Lemma ident_prod h sT sR subs xs Is : wf (Prod h sT sR subs) -> pieces DR subs xs ->
  Forall3 (fun s x I => shape I (tangentDim s) (tangentDim s) /\
     forall out, shape out (tangentDim s) (tangentDim s) -> getIdentityOnTxM s out x = Ok I) subs xs Is ->
  forall out, shape out (tangentDim (Prod h sT sR subs)) (tangentDim (Prod h sT sR subs)) ->
  getIdentityOnTxM (Prod h sT sR subs) out (concat xs) = Ok (bdiag Is).
Proof.
  intros Hwf Hx H out Ho. cbn [getIdentityOnTxM].
  rewrite (check_eq (mrows out)) by apply Ho. rewrite (check_eq (ncols out)) by apply Ho.
  rewrite check_eq by exact (pieces_getDim DR _ _ _ _ _ Hwf Hx). cbn [bind].
  apply (ident_loop h sT sR subs Hwf (fun i s B => xi <- getView DR (Prod h sT sR subs) (concat xs) i ;; getIdentityOnTxM s B xi) Is).
  - intros i s Hs. destruct (Forall3_nth_error _ _ _ _ H i s Hs) as (x & I & Hxi & HI & SI & G).
    exists I. split; auto. split; auto. intros B SB. rewrite (getView_nth_error DR _ _ _ _ _ i x) by auto. cbn [bind]. auto.
  - clear -H. induction H; simpl; auto.
  - eapply shape_dims; eauto.
Qed.

Lemma ident_total m : wf m -> forall x, List.length x = representationDim m ->
  exists I, shape I (tangentDim m) (tangentDim m) /\
    forall out, shape out (tangentDim m) (tangentDim m) -> getIdentityOnTxM m out x = Ok I.
Proof.
  induction m as [h l a b|h sT sR subs IH] using mfd_ind'; intros Hwf x Hx.
  - inversion Hwf as [? ? ? ? Hw|]; subst.
    assert (Q : forall out, shape out (tangentDim (Leaf h l a b)) (tangentDim (Leaf h l a b)) ->
      getIdentityOnTxM (Leaf h l a b) out x = 
       match l with LS2 => s2_getIdentityOnTxM out x | _ => Ok (mident (tangentDim (Leaf h l a b)) (tangentDim (Leaf h l a b))) end).
    { intros out Ho. cbn [getIdentityOnTxM]. rewrite (check_eq (mrows out)) by apply Ho. rewrite (check_eq (ncols out)) by apply Ho.
      rewrite check_eq by auto. cbn [bind]. unfold real_getIdentityOnTxM, so3_getIdentityOnTxM.
      destruct Ho as (-> & E & _). unfold ncols. rewrite E. destruct l; auto. }
    destruct l as [| |mp].
    + eexists. split; [|exact Q]. apply shape_mbuild.
    + exists (mbuild 3 3 (fun i j => (delta i j - nth i x k0 * nth j x k0)%k)).
      simpl in Hw. destruct Hw as (_ & T3 & R3 & _). unfold tangentDim, representationDim in *. simpl in *.
      rewrite R3 in Hx. split; [rewrite T3; apply shape_mbuild|].
      intros out Ho. rewrite Q by auto. unfold s2_getIdentityOnTxM, as_vec3. rewrite Hx. simpl.
      rewrite T3 in Ho. destruct Ho as (-> & E & _). unfold ncols. rewrite E. reflexivity.
    + eexists. split; [|exact Q]. apply shape_mbuild.
  - assert (Hs : Forall wf subs) by (inversion Hwf; auto).
    destruct (cut_self DR h sT sR subs x Hwf Hx) as (xs & -> & Hp).
    assert (exists Is, Forall3 (fun s x I => shape I (tangentDim s) (tangentDim s) /\
       forall out, shape out (tangentDim s) (tangentDim s) -> getIdentityOnTxM s out x = Ok I) subs xs Is) as [Is HIs].
    { clear -IH Hs Hp. induction Hp as [|s x ss xs Hx Hp IHp]; [exists []; constructor|].
      inversion IH; subst. inversion Hs; subst. destruct IHp as [Is HIs]; auto.
      destruct (H1 H3 x) as (I & HI); auto. exists (I :: Is). constructor; auto. }
    exists (bdiag Is). split; [|eapply ident_prod; eauto].
    change (tangentDim (Prod h sT sR subs)) with (getDim DT (Prod h sT sR subs)). rewrite (wf_prod_getDim DT _ _ _ _ Hwf).
    assert (HD : map (@mrows K) Is = map (getDim DT) subs /\ map (@ncols K) Is = map (getDim DT) subs /\ Forall (fun B => shape B (mrows B) (ncols B)) Is).
    { clear -HIs. induction HIs as [|s x I ss xs Is ((S1 & S2 & S3) & _) _ (A1 & A2 & A3)]; [repeat split; constructor|].
      simpl. rewrite A1, A2. unfold ncols. rewrite S1, S2. repeat split; auto. constructor; auto. repeat split; auto. rewrite S1; auto. }
    destruct HD as (D1 & D2 & D3). pose proof (shape_bdiag Is D3) as SB. rewrite D1, D2 in SB. exact SB.
Qed.
End MatTan.
