(** Round trip including the Taylor branches: recovered up to 1e-16. *)
From Coq Require Import Reals List Lra Lia ZArith Bool Arith Psatz.
From Verif Require Import Base Scalar Vec Model_SO3 Model_Manifold Spec Layout Comp Indep Flat
  XR SpecR RotR NumVec NumMat Angle NumQuat NumTree NumLeaf RotLog RoundTrip NumExp NumLog.
Import ListNotations.
Local Open Scope R_scope.

Lemma em_exp_log v : length v = 3%nat -> rnorm v <= PI - 1 / 10000000 ->
  exists E w, em_exponential (fin v) = Ok (m3fin E) /\ near_v (1 / 10 ^ 16) w v /\
    forall out, length out = 3%nat -> em_logarithm out (m3fin E) = Ok (fin w).
Proof.
  intros Lv H. destruct (Rle_dec eps8 (rdot v v)) as [B|B].
  - exists (expSO3 v), v. split; [apply em_exp_main; auto; lra|].
    split; [apply near_v_mono with 0; [lra|apply near_v_refl]|].
    assert (N : 1 / 10000 <= rnorm v).
    { rewrite <- (sqrt_square (1 / 10000)) by lra. apply sqrt_le_1_alt. lra. }
    destruct (off_em v Lv (or_intror (conj N H))) as [_ G]. auto.
  - apply Rnot_le_lt in B. destruct (vec3_inv v Lv) as (x & y & z & ->).
    assert (Hp : rnorm [x; y; z] < PI) by lra. pose proof (em_exponential_fin x y z) as E. cbv zeta in E.
    apply Rltb_true in Hp. rewrite Hp in E. unfold emS, emC in E. pose proof B as Hb. apply Rltb_true in Hb. rewrite Hb in E.
    rewrite rdot3 in *. destruct (em_series_log [Fin 0; Fin 0; Fin 0] x y z eq_refl B) as (w & Ew & Nw).
    do 2 eexists. split; [exact E|]. split; [exact Nw|]. intros o Lo. rewrite <- Ew. apply em_logarithm_indep. auto.
Qed.
Lemma eq_exp_log v : length v = 3%nat -> rnorm v < PI ->
  exists E w, eq_exponential junk_quat (fin v) = Ok (qfin E) /\ near_v (1 / 10 ^ 16) w v /\
    forall out, length out = 3%nat -> eq_logarithm out (qfin E) = Ok (fin w).
Proof.
  intros Lv H. destruct (Rle_dec eps8 (rdot v v)) as [B|B].
  - exists (expQ v), v. split; [apply eq_exp_main; auto; lra|].
    split; [apply near_v_mono with 0; [lra|apply near_v_refl]|].
    assert (N : 1 / 10000 <= rnorm v).
    { rewrite <- (sqrt_square (1 / 10000)) by lra. apply sqrt_le_1_alt. lra. }
    destruct (off_eq v Lv (or_intror (conj N H))) as [_ G]. auto.
  - apply Rnot_le_lt in B. destruct (vec3_inv v Lv) as (x & y & z & ->).
    pose proof (eq_exponential_fin junk_quat x y z) as E. cbv zeta in E.
    apply Rltb_true in H. rewrite H in E. unfold eqS, eqW in E. pose proof B as Hb. apply Rltb_true in Hb. rewrite Hb in E.
    rewrite rdot3 in *. destruct (eq_series_log [Fin 0; Fin 0; Fin 0] x y z eq_refl B) as (w & Ew & Nw).
    do 2 eexists. split; [exact E|]. split; [eapply near_v_mono; [|exact Nw]; lra|].
    intros o Lo. rewrite <- Ew. apply eq_logarithm_indep. auto.
Qed.


Lemma leaf_close h l a b x v : let s := Leaf h l a b in leaf_wf h l a b -> is_s2 s = false ->
  on_leaf s x -> length v = tangentDim s -> below_pi s v ->
  exists yw, near_v (1 / 10 ^ 16) (snd yw) v /\ length (fst yw) = representationDim s /\
    (forall o, length o = representationDim s -> retractation s o (fin x) (fin v) = Ok (fin (fst yw))) /\
    (forall o, length o = tangentDim s -> pseudoLog s o (fin x) (fin (fst yw)) = Ok (fin (snd yw))).
Proof.
  intros s W N Hx Hv Ho. unfold s in *. unfold tangentDim, representationDim in *; cbn [hdr_of] in *.
  destruct l as [| |[|]]; cbn [on_leaf below_pi is_s2] in *.
  - pose proof W as [W1 W2]. exists (radd x v, v). cbn [fst snd].
    split; [apply near_v_mono with 0; [lra|apply near_v_refl]|]. split; [rewrite radd_length; lia|]. split; intros o Hl.
    + apply real_retr; auto; lia.
    + rewrite real_log; auto; try lia. * rewrite radd_rsub; auto; lia. * rewrite radd_length; lia.
  - discriminate.
  - pose proof W as (W1 & W2 & W3 & _). destruct Hx as (A & -> & HA). rewrite W2 in Hv.
    destruct (em_exp_log v Hv Ho) as (E & w & HE & Nw & L).
    exists (flat9 (rmul A E), w). cbn [fst snd]. split; auto. split; [rewrite flat9_length; lia|].
    destruct (vec3_inv v Hv) as (p & q & r & ->). split; intros o Hl.
    + apply em_retr; auto. lia.
    + rewrite em_log by (auto; lia). rewrite <- rmul_assoc. destruct HA as [HA _]. rewrite HA, rmul_id_l. apply L. lia.
  - pose proof W as (W1 & W2 & W3 & _). destruct Hx as (A & -> & HA). rewrite W2 in Hv.
    destruct (eq_exp_log v Hv Ho) as (E & w & HE & Nw & L).
    exists (qflat (qprod A E), w). cbn [fst snd]. split; auto. split; [cbn; lia|]. split; intros o Hl.
    + apply eq_retr; auto. lia.
    + rewrite eq_log by (auto; lia). rewrite <- qprod_assoc, qconj_mul, qprod_1l by auto. apply L. lia.
Qed.

Lemma Forall4_map_d {A B C D E} (P : A -> B -> C -> E -> Prop) (f : D -> E) la lb lc ld :
  Forall4 (fun a b c d => P a b c (f d)) la lb lc ld -> Forall4 P la lb lc (map f ld).
Proof. induction 1; constructor; auto. Qed.
Lemma Forall4_map_2 {A B C D E F} (P : A -> B -> E -> F -> Prop) (f : D -> E) (g : D -> F) la lb (lc : list C) ld :
  Forall4 (fun a b c d => P a b (f d) (g d)) la lb lc ld -> Forall4 P la lb (map f ld) (map g ld).
Proof. induction 1; constructor; auto. Qed.
Lemma near_v_app e a b c d : near_v e a c -> near_v e b d -> near_v e (a ++ b) (c ++ d).
Proof. apply Forall2_app. Qed.

Lemma round_close m : built m -> no_s2 m -> forall x v, onM m x -> eachT below_pi m v ->
  exists y w, near_v (1 / 10 ^ 16) w v /\ length y = representationDim m /\
    (forall out, length out = representationDim m -> retractation m out (fin x) (fin v) = Ok (fin y)) /\
    (forall out, length out = tangentDim m -> pseudoLog m out (fin x) (fin y) = Ok (fin w)).
Proof.
  intros B NS x v (xs & -> & Hx) (vs & -> & Hv). apply built_wf in B.
  pose proof (Forall3_and _ _ _ _ _ Hx Hv) as F.
  destruct (choose4 _ (fun s x v (yw : list R * list R) => 
     length x = representationDim s /\ length v = tangentDim s /\ 
     near_v (1 / 10 ^ 16) (snd yw) v /\ length (fst yw) = representationDim s /\
    (forall o, length o = representationDim s -> retractation s o (fin x) (fin v) = Ok (fin (fst yw))) /\
    (forall o, length o = tangentDim s -> pseudoLog s o (fin x) (fin (fst yw)) = Ok (fin (snd yw)))) _ _ _ F) as (yw & Hy).
  { intros s x v Hs (Px & Lv & Pv). destruct (wf_leaf_inv m s B Hs) as (h & l & a & b & -> & W).
    destruct (leaf_close h l a b x v W (no_s2_in _ _ NS Hs) Px Lv Pv) as (y & H).
    exists y. split; [exact (on_leaf_len _ _ _ _ _ W Px)|]. split; auto. }
  exists (concat (map fst yw)), (concat (map snd yw)). split; [|split; [|split]].
  - clear - Hy. induction Hy as [|s x v y ? ? ? ? H F IH]; simpl; [constructor|]. apply near_v_app; [apply H|apply IH].
  - change (representationDim m) with (getDim DR m). rewrite (leaves_dim DR m B). clear - Hy.
    induction Hy as [|s x v y ? ? ? ? H F IH]; simpl; auto. rewrite app_length, IH. f_equal. apply H.
  - intros out Ho. apply (lift_op2 DR DR DT retractation retractation_prod); auto.
    apply Forall4_map_d. eapply Forall4_impl; [exact Hy|]. cbn. tauto.
  - intros out Ho. apply (lift_op2 DT DR DR pseudoLog pseudoLog_prod); auto.
    eapply (Forall4_map_2 (fun s x y w => length x = getDim DR s /\ length y = getDim DR s /\
       forall o, length o = getDim DT s -> pseudoLog s o (fin x) (fin y) = Ok (fin w)) fst snd _ _ vs).
    eapply Forall4_impl; [exact Hy|]. cbn. tauto.
Qed.
