(** isInM, zero vectors and limits on finite values, leaf by leaf and on trees. *)
From Coq Require Import Reals List Lra Lia ZArith Bool Arith Psatz.
From Verif Require Import Base Scalar Vec Model_Real Model_S2 Model_SO3 Model_Manifold Spec Layout Comp Indep Flat
  XR SpecR RotR NumVec NumMat Angle NumQuat NumTree NumLeaf RotLog RoundTrip NumS2 NumExp NumLog Close Force.
Import ListNotations.
Local Open Scope R_scope.

(** ** isInM *)
Section AnyScalar.
Context {K : Type} {SK : Scalar K}.
Lemma isInM_leaves (m : mfd K) : wf m -> forall xs p, pieces DR (leaves m) xs ->
  (match m with Leaf _ _ _ _ => True | _ => p = default_prec end) ->
  (isInM m (concat xs) p = Ok true <-> Forall2 (fun s x => isInM s x p = Ok true) (leaves m) xs).
Proof.
  induction m as [h l a b|h sT sR subs IH] using mfd_ind'; intros W xs p Hp Hc.
  - cbn [leaves] in *. inversion Hp as [|? x ? ? Hx Hn]; subst. inversion Hn; subst. cbn [concat]. rewrite app_nil_r.
    split; intros H; [repeat constructor; auto|]. inversion H; auto.
  - subst p. inversion W as [|? ? ? ? ? ? ? ? ? Hs]; subst. cbn [leaves] in *.
    destruct (regroup DR subs xs Hs Hp) as (zss & -> & Hz & Hz' & ->).
    rewrite isInM_prod by auto. clear - IH Hs Hz.
    induction Hz as [|s z ss zs Hz1 Hz IHz]; cbn [map flat_map concat].
    + split; constructor.
    + inversion IH as [|? ? IH1 IH2]; inversion Hs as [|? ? Hs1 Hs2]; subst. specialize (IHz IH2 Hs2).
      assert (Q : isInM s (concat z) default_prec = Ok true <-> Forall2 (fun s x => isInM s x default_prec = Ok true) (leaves s) z).
      { apply IH1; auto. destruct s; auto. }
      split; intros H.
      * inversion H; subst. apply Forall2_app; tauto.
      * assert (L : length (leaves s) = length z) by (clear - Hz1; induction Hz1; simpl; auto).
        assert (A : Forall2 (fun s x => isInM s x default_prec = Ok true) (leaves s) z /\
                    Forall2 (fun s x => isInM s x default_prec = Ok true) (flat_map leaves ss) (concat zs)).
        { clear - H L. revert z L H. induction (leaves s) as [|q qs IHq]; intros [|y ys] L H; simpl in *; try discriminate; auto.
          inversion H; subst. destruct (IHq ys) as [A B]; auto. }
        constructor; tauto.
Qed.
End AnyScalar.

Lemma s2_isInM_fin h a b x p : leaf_wf h LS2 a b -> length x = 3%nat ->
  isInM (Leaf h LS2 a b) (fin x) (Fin p) = Ok (Rltb (Rabs (rnorm x - 1)) p).
Proof.
  intros (W1 & W2 & W3 & _) L. cbn [isInM]. unfold representationDim; cbn [hdr_of]. rewrite check_eq by (rewrite fin_length; lia).
  cbn [bind]. unfold s2_isInM. rewrite norm_fin. reflexivity.
Qed.
Lemma eq_isInM_fin h a b x p : leaf_wf h (LSO3 MapQuat) a b -> length x = 4%nat ->
  isInM (Leaf h (LSO3 MapQuat) a b) (fin x) (Fin p) = Ok (Rltb (Rabs (rnorm x - 1)) p).
Proof.
  intros (W1 & W2 & W3 & _) L. cbn [isInM]. unfold representationDim; cbn [hdr_of]. rewrite check_eq by (rewrite fin_length; lia).
  cbn [bind]. unfold eq_isInM. destruct (qflat_surj x L) as [q ->]. rewrite quat_read_fin. cbn [bind].
  rewrite fin_length, L, qsqnorm_fin. cbn [Nat.eqb andb ksqrt XRS].
  rewrite xsqrt_fin. { cbn [ksub kabs kltb k1 XRS xsub xabs xltb]. unfold rnorm. rewrite qn2_dot. reflexivity. }
  unfold qn2. nra.
Qed.
Lemma real_isInM_fin h a b x p : leaf_wf h LReal a b -> length x = h_dim h -> isInM (Leaf h LReal a b) x p = Ok true.
Proof.
  intros (W1 & W2) L. cbn [isInM]. unfold representationDim; cbn [hdr_of]. rewrite check_eq by lia.
  cbn [bind]. unfold real_isInM. rewrite L, Nat.eqb_refl. reflexivity.
Qed.
(** What the matrix map accepts, whatever the precision argument. *)
Definition em_accepts (A : m3 R) : Prop :=
  let G := rmul (rtr A) A in
  Rabs (rdet A - 1) < 1 / 100000000 /\
  Forall (fun g => Rabs (g - 1) <= Rmin (Rabs g) 1 * (1 / 100000000)) [a00 G; a11 G; a22 G] /\
  Forall (fun g => Rabs g <= 1 / 100000000) [a10 G; a20 G; a01 G; a21 G; a02 G; a12 G].
Lemma approx1_iff a : k_isApprox (Fin a) k1 map_prec = true <-> Rabs (a - 1) <= Rmin (Rabs a) 1 * (1 / 100000000).
Proof.
  unfold k_isApprox, map_prec, kmin. cbn [kabs ksub klit kmul kleb kltb k1 XRS xsub xabs xltb xleb lift2]. rewrite Rabs_R1.
  destruct (Rltb 1 (Rabs a)) eqn:E; cbn [xleb lift2]; rewrite Rleb_true.
  - apply Rltb_true in E. rewrite Rmin_right by lra. reflexivity.
  - apply Rltb_false in E. rewrite Rmin_left by lra. reflexivity.
Qed.
Lemma small_iff a : k_isMuchSmallerThan (Fin a) k1 map_prec = true <-> Rabs a <= 1 / 100000000.
Proof.
  unfold k_isMuchSmallerThan, map_prec. cbn [kabs ksub klit kmul kleb kltb k1 XRS xsub xabs xltb xleb lift2].
  rewrite Rabs_R1, Rleb_true, Rmult_1_l. reflexivity.
Qed.
Lemma em_isInM_fin h a b A p : leaf_wf h (LSO3 MapMatrix) a b ->
  exists r, isInM (Leaf h (LSO3 MapMatrix) a b) (fin (flat9 A)) p = Ok r /\ (r = true <-> em_accepts A).
Proof.
  intros (W1 & W2 & W3 & _). cbn [isInM]. unfold representationDim; cbn [hdr_of].
  rewrite check_eq by (rewrite fin_length, flat9_length; lia). cbn [bind]. unfold em_isInM. rewrite m3_read_fin. cbn [bind].
  rewrite m3_trans_fin, m3_mul_fin, m3_det_fin, fin_length, flat9_length. cbn [Nat.eqb andb]. eexists. split; [reflexivity|].
  unfold em_accepts. cbv zeta. set (G := rmul (rtr A) A). unfold m3_isIdentity, m3fin. cbn [a00 a01 a02 a10 a11 a12 a20 a21 a22].
  rewrite !andb_true_iff, !approx1_iff, !small_iff.
  assert (D : (kabs (ksub (Fin (rdet A)) k1) <? map_prec)%k = true <-> Rabs (rdet A - 1) < 1 / 100000000).
  { unfold map_prec. cbn [kabs ksub klit kltb k1 XRS xsub xabs xltb]. apply Rltb_true. }
  rewrite D. rewrite !Forall_cons_iff. intuition.
Qed.
Lemma rot_accepts A : rot A -> em_accepts A.
Proof.
  intros [HG HD]. unfold em_accepts. cbv zeta. rewrite HG, HD. cbn [ridm a00 a01 a02 a10 a11 a12 a20 a21 a22].
  assert (Z : 1 - 1 = 0) by ring.
  repeat split; repeat (apply Forall_cons || apply Forall_nil); rewrite ?Z, ?Rabs_R0, ?Rabs_R1, ?Rmin_left; lra.
Qed.
Lemma leaf_isInM h l a b x p : let s := Leaf h l a b in leaf_wf h l a b -> on_leaf s x -> 0 < p ->
  isInM s (fin x) (Fin p) = Ok true.
Proof.
  intros s W H P. unfold s in *. destruct l as [| |[|]]; cbn [on_leaf] in H.
  - apply real_isInM_fin; auto. rewrite fin_length. auto.
  - destruct H as [L U]. rewrite s2_isInM_fin by auto. f_equal. apply Rltb_true. unfold rnorm. rewrite U, sqrt_1.
    replace (1 - 1) with 0 by ring. rewrite Rabs_R0. auto.
  - destruct H as (A & -> & HA). destruct (em_isInM_fin h a b A (Fin p) W) as (r & -> & Hr). f_equal. apply Hr, rot_accepts. auto.
  - destruct H as (q & -> & U). rewrite eq_isInM_fin by auto. f_equal. apply Rltb_true. unfold rnorm. rewrite <- qn2_dot, U, sqrt_1.
    replace (1 - 1) with 0 by ring. rewrite Rabs_R0. auto.
Qed.
Lemma onM_pieces m xs : wf m -> Forall2 on_leaf (leaves m) xs -> pieces DR (leaves m) (map fin xs).
Proof.
  intros W F. apply fin_pieces. eapply Forall2_impl_in; [exact F|]. intros s x Hi H.
  destruct (wf_leaf_inv m s W Hi) as (h & l & a & b & -> & Wl). apply (on_leaf_len _ _ _ _ _ Wl H).
Qed.
Lemma on_isInM m x p : wf m -> onM m x -> 0 < p -> isInM m (fin x) (Fin p) = Ok true.
Proof.
  intros W (xs & -> & F) P. assert (Hp := onM_pieces m xs W F). rewrite fin_concat.
  assert (L : forall p, 0 < p -> Forall2 (fun s x => isInM s x (Fin p) = Ok true) (leaves m) (map fin xs)).
  { clear P p. intros p P. pose proof (fun s => wf_leaf_inv m s W) as G. clear Hp. induction F as [|s x ls xs Hx F IH]; cbn [map]; constructor.
    - destruct (G s) as (h & l & a & b & -> & Wl); [simpl; auto|]. apply leaf_isInM; auto.
    - apply IH. intros. apply G. simpl. auto. }
  destruct m as [h l a b|h sT sR subs].
  - apply isInM_leaves; auto.
  - assert (E : isInM (Prod h sT sR subs) (concat (map fin xs)) default_prec = Ok true).
    { apply isInM_leaves; auto. apply L. lra. }
    rewrite <- E. inversion W as [|? ? ? ? ? ? ? ? ? Hs]; subst. cbn [isInM]. reflexivity.
Qed.

(** ** The zero tangent vector *)
Lemma radd_zeros x n : length x = n -> radd x (repeat 0 n) = x.
Proof. intros <-. unfold radd. induction x; simpl; auto. f_equal; auto. ring. Qed.
Lemma rsub_self x : rsub x x = repeat 0 (length x).
Proof. unfold rsub. induction x; simpl; auto. f_equal; auto. ring. Qed.
Lemma rdot_zeros x n : rdot x (repeat 0 n) = 0.
Proof. revert n; induction x; intros [|n]; simpl; auto. rewrite IHx. ring. Qed.
Lemma leaf_retr0 h l a b x o : let s := Leaf h l a b in leaf_wf h l a b -> on_leaf s x -> length o = representationDim s ->
  retractation s o (fin x) (fin (repeat 0 (tangentDim s))) = Ok (fin x).
Proof.
  intros s W H Lo. unfold s in *. unfold tangentDim, representationDim in *. cbn [hdr_of] in *.
  pose proof (on_leaf_len _ _ _ _ _ W H) as Lx. destruct l as [| |[|]]; cbn [on_leaf] in H; pose proof W as W'; cbn [leaf_wf] in W'.
  - rewrite real_retr by (auto; rewrite ?repeat_length; lia). rewrite radd_zeros by lia. auto.
  - destruct H as [L U]. replace (h_tdim h) with 3%nat by lia.
    rewrite s2_retr by (auto; try lia; rewrite rdot_zeros, Rabs_R0; lra).
    rewrite radd_zeros by lia. fold (normed x). rewrite normed_fix by auto. auto.
  - destruct H as (A & -> & HA). replace (h_tdim h) with 3%nat by lia. change (repeat 0 3) with [0; 0; 0].
    rewrite (em_retr h a b o A ridm 0 0 0) by (auto; try lia; apply em_exp_zero). rewrite rmul_id_r. auto.
  - destruct H as (q & -> & U). replace (h_tdim h) with 3%nat by lia. change (repeat 0 3) with [0; 0; 0].
    destruct (off_eq [0;0;0]) as [E _]; auto. rewrite expQ_0 in E.
    rewrite (eq_retr h a b o q (Q4 1 0 0 0) [0;0;0]) by (auto; lia). do 3 f_equal. apply quat_ext; cbn; ring.
Qed.
Lemma leaf_log_self h l a b x o : let s := Leaf h l a b in leaf_wf h l a b -> is_s2 s = false -> on_leaf s x -> length o = tangentDim s ->
  pseudoLog s o (fin x) (fin x) = Ok (fin (repeat 0 (tangentDim s))).
Proof.
  intros s W N H Lo. unfold s in *. unfold tangentDim, representationDim in *. cbn [hdr_of] in *.
  pose proof (on_leaf_len _ _ _ _ _ W H) as Lx. destruct l as [| |[|]]; cbn [on_leaf] in H; try discriminate; pose proof W as W'; cbn [leaf_wf] in W'.
  - rewrite real_log by (auto; lia). rewrite rsub_self. do 3 f_equal. lia.
  - destruct H as (A & -> & [HA _]). replace (h_tdim h) with 3%nat in Lo |- * by lia. rewrite em_log by auto. rewrite HA, <- expSO3_0.
    apply (off_em [0;0;0]); auto.
  - destruct H as (q & -> & U). replace (h_tdim h) with 3%nat in Lo |- * by lia. rewrite eq_log by auto. rewrite qconj_mul by auto.
    rewrite <- expQ_0. apply (off_eq [0;0;0]); auto.
Qed.
Lemma leaf_log0_zero h l a b o : let s := Leaf h l a b in leaf_wf h l a b -> is_s2 s = false -> length o = tangentDim s ->
  pseudoLog0 s o (fin (zero_leaf s)) = Ok (fin (repeat 0 (tangentDim s))).
Proof.
  intros s W N Lo. unfold s in *. unfold tangentDim, representationDim in *. cbn [hdr_of] in *.
  destruct l as [| |[|]]; try discriminate; pose proof W as W'; cbn [leaf_wf zero_leaf] in W' |- *.
  - rewrite real_log0 by (auto; rewrite ?repeat_length; lia). do 3 f_equal. lia.
  - replace (h_tdim h) with 3%nat in Lo |- * by lia. rewrite em_log0 by auto. rewrite <- expSO3_0.
    apply (off_em [0;0;0]); auto.
  - replace (h_tdim h) with 3%nat in Lo |- * by lia. change [1; 0; 0; 0] with (qflat (Q4 1 0 0 0)). rewrite eq_log0 by auto.
    rewrite <- expQ_0. apply (off_eq [0;0;0]); auto.
Qed.
Lemma zeros_concat (ds : list nat) : concat (map (repeat 0) ds) = repeat 0 (sum_list ds).
Proof. induction ds; simpl; auto. rewrite IHds, repeat_app. auto. Qed.
Lemma zeros_leaves m : wf m -> repeat 0 (tangentDim m) = concat (map (fun s : mfd XR => repeat 0 (tangentDim s)) (leaves m)).
Proof.
  intros W. change (tangentDim m) with (getDim DT m). rewrite (leaves_dim DT m W), <- zeros_concat, map_map. reflexivity.
Qed.
