(** createRandomPoint on trees: composition leaf by leaf, then values on each elementary manifold. *)
From Coq Require Import Reals List Lra Lia ZArith Bool Arith Psatz.
From Verif Require Import Base Scalar Vec Model_Real Model_S2 Model_SO3 Model_Manifold Spec Layout Comp Indep Flat Structure
  XR SpecR RotR NumVec NumMat Angle NumQuat NumTree NumLeaf RotLog RoundTrip NumS2 NumExp NumLog Close Force Points Properties_SO3.
Import ListNotations.

(** Number of draws used by an elementary manifold. *)
Definition ndraw {K} (s : mfd K) : nat := match s with Leaf _ LS2 _ _ => 3 | _ => tangentDim s end.

Section Tree.
Context {K : Type} {SK : Scalar K}.
Variables (c : K) (rnd : nat -> K).
Fixpoint seqr (l : list (mfd K)) (ys : list (vec K)) (pos : nat) : Prop :=
  match l, ys with
  | [], [] => True
  | s :: l', y :: ys' =>
      (length y = representationDim s /\
       forall o, length o = representationDim s -> createRandomPoint s o c rnd pos = Ok (y, pos + ndraw s)) /\
      seqr l' ys' (pos + ndraw s)
  | _, _ => False
  end.
Definition total (l : list (mfd K)) : nat := sum_list (map ndraw l).

Lemma total_app a b : total (a ++ b) = total a + total b.
Proof. unfold total. rewrite map_app. induction (map ndraw a); simpl; auto. lia. Qed.
Lemma seqr_app a : forall b ys pos, seqr (a ++ b) ys pos ->
  exists u v, ys = u ++ v /\ seqr a u pos /\ seqr b v (pos + total a).
Proof.
  induction a as [|s a IH]; intros b ys pos H.
  - exists [], ys. unfold total. simpl. rewrite Nat.add_0_r. auto.
  - destruct ys as [|y ys]; [destruct H|]. destruct H as [H1 H2]. destruct (IH _ _ _ H2) as (u & v & -> & Hu & Hv).
    exists (y :: u), v. split; [reflexivity|]. split; [split; auto|].
    replace (pos + total (s :: a)) with (pos + ndraw s + total a) by (unfold total; simpl; lia). exact Hv.
Qed.
Lemma seqr_pieces l : forall ys pos, seqr l ys pos -> pieces DR l ys.
Proof.
  induction l as [|s l IH]; intros [|y ys] pos H; try destruct H; constructor.
  - destruct H. auto.
  - eapply IH; eauto.
Qed.

Lemma random_tree m : wf m -> forall ys pos out, seqr (leaves m) ys pos -> length out = representationDim m ->
  createRandomPoint m out c rnd pos = Ok (concat ys, pos + total (leaves m)).
Proof.
  induction m as [h l a b|h sT sR subs IH] using mfd_ind'; intros W ys pos out H Lo.
  - cbn [leaves] in *. destruct ys as [|y [|y' ys]]; [destruct H| |destruct H as [_ []]].
    destruct H as [[_ H] _]. rewrite H by auto. unfold total. simpl. rewrite app_nil_r, !Nat.add_0_r. auto.
  - cbn [createRandomPoint]. rewrite Lo, Nat.eqb_refl. cbn [mnf_assert bind].
    destruct (cut_pieces (K:=K)  DR subs out) as (os & Eo & Po).
    { rewrite Lo. change (representationDim (Prod h sT sR subs)) with (getDim DR (Prod h sT sR subs)). apply wf_prod_getDim; auto. }
    cut (forall post pre ra ob zs p, subs = pre ++ post -> pieces DR pre ra -> pieces DR post ob ->
       seqr (flat_map leaves post) zs p ->
       loop (fun i s (st : vec K * nat) =>
              let '(out, pos) := st in
              '(b, d) <- view_range DR (Prod h sT sR subs) (length out) i ;;
              o <- segment out b d ;;
              '(r, pos') <- createRandomPoint s o c rnd pos ;;
              Ok (set_segment out b r, pos')) (length pre) post (concat (ra ++ ob), p)
       = Ok (concat ra ++ concat zs, p + total (flat_map leaves post))).
    { intros G. rewrite Eo. apply (G subs [] [] os ys pos eq_refl (Forall2_nil _) Po H). }
    clear H Eo Po Lo. inversion W as [|? ? ? ? _ _ _ _ _ Hs]; subst.
    induction post as [|s post IHp]; intros pre ra ob zs p E Ha Hb H.
    + inversion Hb; subst. destruct zs; [|destruct H]. cbn [loop flat_map]. rewrite app_nil_r. unfold total. simpl.
      rewrite app_nil_r, Nat.add_0_r. reflexivity.
    + inversion Hb as [|? o ? ob' Ho Hb']; subst. cbn [loop flat_map] in *.
      destruct (seqr_app _ _ _ _ H) as (u & v & -> & Hu & Hv).
      rewrite view_range_wf; auto.
      2:{ apply pieces_length. apply Forall2_app; auto. }
      cbn [bind]. rewrite concat_app. cbn [concat].
      rewrite segment_mid; auto. 2:{ symmetry. eapply pieces_length; eauto. }
      cbn [bind].
      assert (Is : In s (pre ++ s :: post)) by (apply in_or_app; simpl; auto).
      rewrite Forall_forall in IH, Hs. rewrite (IH s Is (Hs s Is) u p o Hu Ho). cbn [bind].
      assert (Lu : length (concat u) = getDim DR s).
      { rewrite (pieces_length DR (leaves s) u) by (eapply seqr_pieces; eauto). symmetry. apply leaves_dim. auto. }
      rewrite set_segment_mid with (b := o); auto; try (symmetry; eapply pieces_length; eauto); try congruence.
      specialize (IHp (pre ++ [s]) (ra ++ [concat u]) ob' v (p + total (leaves s))).
      rewrite <- !app_assoc in IHp. cbn [app] in IHp. rewrite app_length in IHp. cbn [length] in IHp. rewrite Nat.add_1_r in IHp.
      rewrite !concat_app in IHp. cbn [concat] in IHp. rewrite app_nil_r in IHp.
      etransitivity; [apply IHp; auto|].
      * apply Forall2_app; auto.
      * rewrite total_app, concat_app, <- !app_assoc. rewrite Nat.add_assoc. reflexivity.
Qed.
End Tree.

(** ** Values, in exact arithmetic *)
Local Open Scope R_scope.
Definition draws (rnd : nat -> R) (pos n : nat) : list R := map rnd (seq pos n).
Lemma draw_fin rnd pos n : draw (fun k => Fin (rnd k)) pos n = fin (draws rnd pos n).
Proof. unfold draw, draws, fin. rewrite map_map. reflexivity. Qed.
Lemma draws_length rnd pos n : length (draws rnd pos n) = n.
Proof. unfold draws. rewrite map_length, seq_length. reflexivity. Qed.

(** What an elementary random point satisfies. *)
Definition rand_leaf (c : R) (s : mfd XR) (y : list R) : Prop :=
  match s with
  | Leaf h LReal _ _ => length y = h_dim h /\ Forall (fun a => Rabs a <= Rabs c) y
  | Leaf _ LS2 _ _ => length y = 3%nat /\ rdot y y = 1
  | Leaf _ (LSO3 MapMatrix) _ _ => exists A, y = flat9 A /\ near_rot (1 / 10 ^ 24) A
  | Leaf _ (LSO3 MapQuat) _ _ => exists q, y = qflat q /\ Rabs (qn2 q - 1) <= 1 / 10 ^ 24
  | Prod _ _ _ _ => False
  end.

Lemma draw_norm c a b d : Rabs a <= 1 -> Rabs b <= 1 -> Rabs d <= 1 -> Rabs c < PI / sqrt 3 -> rnorm (rscal c [a; b; d]) < PI.
Proof.
  intros Ha Hb Hd Hc. assert (S3 : 0 < sqrt 3) by (apply sqrt_lt_R0; lra). assert (E3 : sqrt 3 * sqrt 3 = 3) by (apply sqrt_sqrt; lra).
  assert (Hc' : Rabs c * sqrt 3 < PI).
  { apply Rmult_lt_reg_r with (/ sqrt 3); [apply Rinv_0_lt_compat; auto|]. 
    replace (Rabs c * sqrt 3 * / sqrt 3) with (Rabs c) by (field; lra). exact Hc. }
  eapply Rle_lt_trans; [|exact Hc']. unfold rnorm. 
  rewrite <- (sqrt_square (Rabs c * sqrt 3)) by (apply Rmult_le_pos; [apply Rabs_pos|lra]).
  apply sqrt_le_1_alt. replace (Rabs c * sqrt 3 * (Rabs c * sqrt 3)) with (Rabs c * Rabs c * 3) by (replace (Rabs c * sqrt 3 * (Rabs c * sqrt 3)) with (Rabs c * Rabs c * (sqrt 3 * sqrt 3)) by ring; rewrite E3; ring).
  rewrite <- Rabs_mult, (Rabs_pos_eq (c * c)) by nra. apply Rabs_le_inv in Ha, Hb, Hd.
  unfold rscal. cbn [map rdot]. 
  assert (c * c * (a * a + b * b + d * d) <= c * c * 3) by (apply Rmult_le_compat_l; nra). lra.
Qed.

Lemma random_leaf h l a b c rnd pos : let s := Leaf h l a b in leaf_wf h l a b -> Rabs c < PI / sqrt 3 ->
  (forall k, (k < ndraw s)%nat -> Rabs (rnd (pos + k)%nat) <= 1) ->
  (is_s2 s = true -> exists k, (k < 3)%nat /\ rnd (pos + k)%nat <> 0) ->
  exists y, rand_leaf c s y /\ length y = representationDim s /\
    (forall p, 1 / 10 ^ 24 < p -> isInM s (fin y) (Fin p) = Ok true) /\
    forall o, length o = representationDim s ->
      createRandomPoint s o (Fin c) (fun k => Fin (rnd k)) pos = Ok (fin y, (pos + ndraw s)%nat).
Proof.
  intros s W Hc Hd Hz. pose proof W as W0. unfold s in *. destruct l as [| |[|]].
  - destruct W as [W1 W2]. exists (rscal c (draws rnd pos (h_rdim h))).
    assert (L : length (rscal c (draws rnd pos (h_rdim h))) = h_rdim h) by (rewrite rscal_length; apply draws_length).
    split; [|split; [|split]].
    + split; [lia|]. unfold rscal, draws. rewrite map_map. apply Forall_forall. intros t Ht. apply in_map_iff in Ht.
      destruct Ht as (k & <- & Hk). apply in_seq in Hk. rewrite Rabs_mult. rewrite <- (Rmult_1_r (Rabs c)) at 2.
      apply Rmult_le_compat_l; [apply Rabs_pos|]. replace k with (pos + (k - pos))%nat by lia. apply Hd.
      unfold ndraw, tangentDim. cbn [hdr_of]. lia.
    + exact L.
    + intros p _. apply real_isInM_fin; auto. rewrite fin_length. lia.
    + intros o Lo. cbn [createRandomPoint]. rewrite Lo, Nat.eqb_refl. cbn [mnf_assert bind].
      unfold real_createRandomPoint. rewrite draw_fin, vscale_fin.
      unfold representationDim in Lo; cbn [hdr_of] in Lo. rewrite assign_same by (rewrite fin_length; lia).
      cbn [bind]. unfold ndraw, tangentDim. cbn [hdr_of]. do 2 f_equal. lia.
  - destruct W as (W1 & W2 & W3 & _). set (d := draws rnd pos 3).
    assert (N : 0 < rdot d d).
    { destruct (Hz eq_refl) as (k & Hk & Hr). unfold d, draws. cbn [seq map rdot].
      destruct k as [|[|[|]]]; try lia; [rewrite Nat.add_0_r in Hr|rewrite Nat.add_1_r in Hr|replace (pos + 2)%nat with (S (S pos)) in Hr by lia]; nra. }
    pose proof (rnorm_pos d N) as Np. exists (rscal (/ rnorm d) d).
    assert (L : length (rscal (/ rnorm d) d) = 3%nat) by (rewrite rscal_length; apply draws_length).
    assert (U : rdot (rscal (/ rnorm d) d) (rscal (/ rnorm d) d) = 1).
    { assert (E : rnorm d * rnorm d = rdot d d) by (apply sqrt_sqrt; lra).
      destruct (vec3_inv d (draws_length rnd pos 3)) as (x & y & z & Ed). rewrite Ed in *. unfold rscal. cbn [map rdot] in *.
      set (n := rnorm [x; y; z]) in *. replace (_ + _) with ((x * x + (y * y + (z * z + 0))) * / n * / n) by ring.
      rewrite <- E. field. lra. }
    split; [|split; [|split]].
    + split; auto.
    + unfold representationDim; cbn [hdr_of]. lia.
    + intros p Hp. rewrite s2_isInM_fin by auto. f_equal. apply Rltb_true. unfold rnorm at 1. rewrite U, sqrt_1.
      replace (1 - 1) with 0 by ring. rewrite Rabs_R0. lra.
    + intros o Lo. cbn [createRandomPoint]. rewrite Lo, Nat.eqb_refl. cbn [mnf_assert bind].
      unfold representationDim in Lo; cbn [hdr_of] in Lo. 
      unfold s2_rand. rewrite draw_fin. fold d. rewrite Lo, W3. cbn [Nat.eqb mnf_assert bind].
      rewrite assign_same by (rewrite fin_length; unfold d; rewrite draws_length; lia). cbn [bind].
      rewrite norm_fin, vdivs_fin by lra. rewrite assign_same by (rewrite !fin_length, L; apply draws_length). reflexivity.
  - destruct W as (W1 & W2 & W3 & _). set (d := draws rnd pos 3).
    assert (Hd3 : forall k, (k < 3)%nat -> Rabs (rnd (pos + k)%nat) <= 1).
    { intros k Hk. apply Hd. unfold ndraw, tangentDim. cbn [hdr_of]. lia. }
    assert (Hn : rnorm (rscal c d) < PI).
    { unfold d, draws. cbn [seq map]. pose proof (Hd3 0%nat ltac:(lia)) as H0. pose proof (Hd3 1%nat ltac:(lia)) as H1. pose proof (Hd3 2%nat ltac:(lia)) as H2.
      rewrite Nat.add_0_r in H0. rewrite Nat.add_1_r in H1. replace (pos + 2)%nat with (S (S pos)) in H2 by lia. apply draw_norm; auto. }
    assert (L3 : length (rscal c d) = 3%nat) by (rewrite rscal_length; apply draws_length).
    destruct (em_exp_any _ L3 Hn) as (X & HX & NX & _). exists (flat9 X). split; [|split; [|split]].
    + exists X. auto.
    + unfold representationDim; cbn [hdr_of]. rewrite flat9_length. lia.
    + intros p Hp. destruct (em_isInM_fin h a b X (Fin p) W0) as (r & Er & Hr). rewrite Er.
      cbn [isInM] in Er. unfold representationDim in Er; cbn [hdr_of] in Er.
      rewrite check_eq in Er by (rewrite fin_length, flat9_length; lia). cbn [bind] in Er. rewrite em_isInM_near in Er; auto.
      unfold near_rot in *. repeat split; eapply Rle_trans; try apply NX; lra.
    + intros o Lo. unfold representationDim in Lo; cbn [hdr_of] in Lo.
      assert (EZ : em_setZero o = Ok (fin (flat9 ridm))).
      { unfold em_setZero. rewrite m3_id_fin, m3_to_list_fin. apply raw_write_same. rewrite fin_length, flat9_length. lia. }
      cbn [createRandomPoint]. unfold representationDim; cbn [hdr_of]. rewrite Lo, Nat.eqb_refl. cbn [mnf_assert bind]. rewrite EZ. cbn [bind].
      rewrite draw_fin, vscale_fin. fold d. destruct (vec3_inv _ L3) as (x & y & z & Ed). rewrite Ed in *.
      rewrite em_retr with (E := X); auto. cbn [bind]. rewrite rmul_id_l. unfold ndraw, tangentDim. cbn [hdr_of]. rewrite W2. reflexivity.
  - destruct W as (W1 & W2 & W3 & _). set (d := draws rnd pos 3).
    assert (Hd3 : forall k, (k < 3)%nat -> Rabs (rnd (pos + k)%nat) <= 1).
    { intros k Hk. apply Hd. unfold ndraw, tangentDim. cbn [hdr_of]. lia. }
    assert (Hn : rnorm (rscal c d) < PI).
    { unfold d, draws. cbn [seq map]. pose proof (Hd3 0%nat ltac:(lia)) as H0. pose proof (Hd3 1%nat ltac:(lia)) as H1. pose proof (Hd3 2%nat ltac:(lia)) as H2.
      rewrite Nat.add_0_r in H0. rewrite Nat.add_1_r in H1. replace (pos + 2)%nat with (S (S pos)) in H2 by lia. apply draw_norm; auto. }
    assert (L3 : length (rscal c d) = 3%nat) by (rewrite rscal_length; apply draws_length).
    destruct (eq_exp_any junk_quat _ L3 Hn) as (X & HX & NX & _). exists (qflat X). split; [|split; [|split]].
    + exists X. auto.
    + unfold representationDim; cbn [hdr_of]. rewrite W3. reflexivity.
    + intros p Hp. rewrite eq_isInM_fin by auto. f_equal. apply Rltb_true. unfold rnorm. rewrite <- qn2_dot.
      apply Rabs_le_inv in NX. set (q2 := qn2 X) in *.
      assert (S0 : 0 <= sqrt q2) by apply sqrt_pos. assert (S1 : sqrt q2 * sqrt q2 = q2) by (apply sqrt_sqrt; lra).
      assert (Rabs (sqrt q2 - 1) <= 1 / 10 ^ 24); [|lra]. apply Rabs_le. split; nra.
    + intros o Lo. unfold representationDim in Lo; cbn [hdr_of] in Lo.
      assert (EZ : eq_setZero o = Ok (fin (qflat (Q4 1 0 0 0)))).
      { unfold eq_setZero. destruct (quat_read_len o) as [q0 ->]; [lia|]. cbn [bind]. unfold quat_write.
        apply raw_write_same. cbn. lia. }
      cbn [createRandomPoint]. unfold representationDim; cbn [hdr_of]. rewrite Lo, Nat.eqb_refl. cbn [mnf_assert bind]. rewrite EZ. cbn [bind].
      rewrite draw_fin, vscale_fin. fold d. 
      rewrite eq_retr with (q := X); auto. cbn [bind]. unfold ndraw, tangentDim. cbn [hdr_of]. rewrite W2.
      do 4 f_equal. destruct X as [xw xx xy xz]. unfold qprod. cbn [qw qx qy qz]. f_equal; ring.
Qed.
