(** C63: vector transport in IEEE-754 double arithmetic (rounding to nearest, ties to even). *)
From Coq Require Import Reals List Lra Lia ZArith Bool Arith Psatz.
From Flocq Require Import Core BinarySingleNaN.
From Verif Require Import Base Scalar Vec Model_Real Model_S2 Model_SO3 Model_Manifold Spec Layout Comp Indep Flat Points
  XR SpecR RotR NumVec NumS2 NumTree Drift F64 F64Err F64Norm F64S2 F64Exp F64Quat F64Mat F64Mat2 F64Tree F64Go ExScalar
  TanLeaf TransLeaf Relog F64Trans Properties_Float.
Import ListNotations.
Local Open Scope R_scope.

(** ** Spec *)
(** The exact transport of one elementary factor from [x] along [v]: on S2 the rotation that takes the
    direction of x to the direction of x + v and keeps the vectors orthogonal to both; elsewhere nothing moves. *)
Definition moves (s : mfd f64) (x v : list f64) (f : list R -> list R) : Prop :=
  match s with
  | Leaf _ LS2 _ _ => let X := vals x in let W := radd X (vals v) in
      exists Q, rot Q /\ (forall c, f c = rmulv Q c) /\ f (rscal (/ rnorm X) X) = rscal (/ rnorm W) W /\
        (forall c, length c = 3%nat -> rdot c X = 0 -> rdot c W = 0 -> f c = c)
  | _ => forall c, f c = c
  end.
(** What the doubles make of it: on S2, vectors with finite entries of size at most S come out finite and
    within (825 * 2^-53 + 15 d) S of the exact image; elsewhere they are copied bit for bit. *)
Definition carried (d : R) (s : mfd f64) (f : list R -> list R) (c c' : list f64) : Prop :=
  match s with
  | Leaf _ LS2 _ _ => forall S, / 2 ^ 900 <= S <= 2 ^ 900 -> Forall (fun a => isf a /\ Rabs (val a) <= S) c ->
      Forall isf c' /\ near_v ((825 * / 2 ^ 53 + 15 * d) * S) (vals c') (f (vals c))
  | _ => c' = c
  end.
(** A vector and its image, cut into the parts of the elementary factors. *)
Definition image (d : R) (ls : list (mfd f64)) (fs : list (list R -> list R)) (c c' : list f64) : Prop :=
  exists cs cs', c = concat cs /\ c' = concat cs' /\ pieces DT ls cs /\ pieces DT ls cs' /\ Forall4 (carried d) ls fs cs cs'.

(** ** Lemmas *)
Lemma scale_pow S : / 2 ^ 900 <= S <= 2 ^ 900 -> scale S.
Proof.
  assert (E : bpow radix2 900 = 2 ^ 900) by (rewrite pow_IZR; unfold bpow; f_equal; vm_compute; reflexivity).
  intros H. unfold scale. change (bpow radix2 (-900)) with (bpow radix2 (Z.opp 900)). rewrite bpow_opp, E. replace B900 with (bpow radix2 900) by reflexivity. rewrite E. exact H.
Qed.
Lemma u_pow : / 2 ^ 53 = u.
Proof. rewrite u_val. field. Qed.

Lemma ok_inj {A} (a b : A) : Ok a = Ok b -> a = b.
Proof. intros H. inversion H. auto. Qed.
Lemma rot_near A e x y : rot A -> length x = 3%nat -> length y = 3%nat -> near_v e x y -> near_v (2 * e) (rmulv A x) (rmulv A y).
Proof.
  intros HA Lx Ly H. destruct x as [|x0 [|x1 [|x2 [|]]]]; try discriminate Lx. destruct y as [|y0 [|y1 [|y2 [|]]]]; try discriminate Ly.
  inversion H as [|? ? ? ? H0 H']; subst. inversion H' as [|? ? ? ? H1 H'']; subst. inversion H'' as [|? ? ? ? H2 _]; subst. clear H H' H''.
  assert (E0 : 0 <= e) by (pose proof (Rabs_pos (x0 - y0)); lra).
  pose proof (rot_dot A [x0 - y0; x1 - y1; x2 - y2] [x0 - y0; x1 - y1; x2 - y2] HA eq_refl eq_refl) as D.
  assert (Q : forall a, Rabs a <= e -> a * a <= e * e) by (intros a Ha; apply Rabs_ends in Ha; nra).
  pose proof (Q _ H0). pose proof (Q _ H1). pose proof (Q _ H2). cbn [rdot] in D.
  unfold rmulv in *. cbn [rdot] in *.
  set (t0 := a00 A * (x0 - y0) + (a01 A * (x1 - y1) + (a02 A * (x2 - y2) + 0))) in *. set (t1 := a10 A * (x0 - y0) + (a11 A * (x1 - y1) + (a12 A * (x2 - y2) + 0))) in *.
  set (t2 := a20 A * (x0 - y0) + (a21 A * (x1 - y1) + (a22 A * (x2 - y2) + 0))) in *.
  pose proof (Rle_0_sqr t0) as P0. pose proof (Rle_0_sqr t1) as P1. pose proof (Rle_0_sqr t2) as P2. unfold Rsqr in *.
  assert (B : forall t, t * t <= 4 * (e * e) -> Rabs t <= 2 * e) by (intros t Ht; apply Rabs_le; nra).
  apply Forall2_cons; [|apply Forall2_cons; [|apply Forall2_cons; [|apply Forall2_nil]]].
  - replace (_ - _) with t0 by (unfold t0; ring). apply B. lra.
  - replace (_ - _) with t1 by (unfold t1; ring). apply B. lra.
  - replace (_ - _) with t2 by (unfold t2; ring). apply B. lra.
Qed.
Lemma s2_leaf L h a b x v d : leaf_wf (K:=f64) h LS2 a b -> 0 <= d <= 1 / 1000 -> defect64 d (Leaf h LS2 a b) x -> length v = 3%nat -> mild (Leaf h LS2 a b) v ->
  isInTxM (SK:=F64 L) (Leaf h LS2 a b) x v (default_prec (SK:=F64 L)) = Ok true ->
  exists y A f Q, (forall out, length out = 3%nat -> s2_retractation (SK:=F64 L) out x v = Ok y) /\ computeRotBetweenVec (SK:=F64 L) x y = Ok A /\
    s2_isInTxM (SK:=F64 L) x v (default_prec (SK:=F64 L)) = true /\ moves (Leaf h LS2 a b) x v f /\ rot Q /\ (forall c, f c = rmulv Q c) /\ ments d A Q.
Proof.
  intros W Hd (Lx & Fx & Dx) Lv Hm T. cbn [isInTxM] in T. unfold bind in T.
  destruct (mnf_assert _); [|discriminate]. destruct (mnf_assert _); [|discriminate]. apply ok_inj in T.
  destruct (s2_trans64 L x v d Lx Fx Dx ltac:(lra) Lv Hm T) as (y & A & Q & Re & Ro & HQ & E & G & M).
  exists y, A, (rmulv Q), Q. repeat split; auto; try apply HQ; try apply M. exists Q. auto.
Qed.
Lemma leaf_ok L h l a b x v d : leaf_wf h l a b -> 0 <= d <= 1 / 1000 -> defect64 d (Leaf h l a b) x -> length v = tangentDim (Leaf h l a b) ->
  mild (Leaf h l a b) v -> isInTxM (SK:=F64 L) (Leaf h l a b) x v (default_prec (SK:=F64 L)) = Ok true ->
  exists f, moves (Leaf h l a b) x v f /\ okf (SK:=F64 L) (carried d) (Leaf h l a b) x v [f].
Proof.
  intros W Hd Dx Lv Hm T. assert (Ll : l = LS2 \/ l <> LS2) by (destruct l; auto; right; discriminate). destruct Ll as [->|Hl].
  - assert (L3 : length v = 3%nat) by (rewrite Lv; apply W).
    destruct (s2_leaf L h a b x v d W Hd Dx L3 Hm T) as (y & A & f & Q & Re & Ro & TT & Mv & HQ & Ef & M).
    exists f. split; auto. apply (tr_s2 (SK:=F64 L) (carried d) h a b x v y A f); auto; [apply Dx|].
    intros c Lc S HS Fc. rewrite Ef, u_pow. apply mulv_scaled; auto using scale_pow. lra.
  - exists (fun c => c). split; [destruct l; try contradiction; cbn [moves]; auto|]. apply tr_copy; auto.
    + apply defect_stray in Dx; [|lra]. apply (fstray_len _ _ _ _ _ _ W Dx).
    + intros c _. destruct l; try contradiction; reflexivity.
Qed.

(** ** Theorems *)
(** Both transports of a product of any depth and of matrices of any width. *)
Theorem C63_transport : forall L (m : mfd f64) xs vs d, built m -> 0 <= d <= 1 / 1000 ->
  Forall2 (defect64 d) (leaves m) xs -> Forall2 (fun s w => length w = tangentDim s /\ mild s w) (leaves m) vs ->
  isInTxM (SK:=F64 L) m (concat xs) (concat vs) (default_prec (SK:=F64 L)) = Ok true ->
  exists fs, Forall4 moves (leaves m) xs vs fs /\
  (forall n out inp, shape out (tangentDim m) n -> shape inp (tangentDim m) n ->
     exists Y, applyTransport (SK:=F64 L) m out inp (concat xs) (concat vs) = Ok Y /\ shape Y (tangentDim m) n /\
       forall j, (j < n)%nat -> image d (leaves m) fs (nth j (mcols_ inp) []) (nth j (mcols_ Y) [])) /\
  (forall n out inp, shape out n (tangentDim m) -> shape inp n (tangentDim m) ->
     exists Y, applyInvTransportOnTheRight (SK:=F64 L) m out inp (concat xs) (concat vs) = Ok Y /\ shape Y n (tangentDim m) /\
       forall i, (i < n)%nat -> image d (leaves m) fs (mrow (SK:=F64 L) inp i) (mrow (SK:=F64 L) Y i)).
Proof.
  intros L m xs vs d B Hd Dx Dv T. pose proof (built_wf _ B) as W.
  assert (Px : pieces DR (leaves m) xs).
  { apply (fstray_pieces (3 * d) m); auto. clear - Dx Hd. induction Dx; constructor; auto. apply defect_stray; auto; lra. }
  assert (Pv : pieces DT (leaves m) vs) by (clear - Dv; induction Dv as [|? ? ? ? [? ?]]; constructor; auto).
  apply (isInTxM_leaves (SK:=F64 L)) in T; auto.
  assert (G : exists fs, Forall4 moves (leaves m) xs vs fs /\ Forall4 (fun s x v f => okf (SK:=F64 L) (carried d) s x v [f]) (leaves m) xs vs fs).
  { pose proof (fun s => leaf_inv_gen m s W) as GI. clear B W Px Pv. revert GI Dx Dv. induction T as [|s x v ls xs vs Hs T IH]; intros GI Dx Dv.
    - exists []. split; constructor.
    - inversion Dx; inversion Dv as [|? ? ? ? [Lv Mv]]; subst. destruct (GI s) as (h & l & a & b & -> & Wl); [simpl; auto|].
      destruct (leaf_ok L h l a b x v d) as (f & M & O); auto. destruct IH as (fs & Ms & Os); auto. { intros; apply GI; simpl; auto. }
      exists (f :: fs). split; constructor; auto. }
  destruct G as (fs & Ms & Os). exists fs. split; auto.
  destruct (tr_tree (SK:=F64 L) (carried d) m W xs vs fs Os) as (_ & _ & H). exact H.
Qed.

(** There and back on the elementary sphere: the vectors come back within five such errors.  (On products
    applyInvTransport takes the wrong views and does not return, see C10.) *)
Theorem C63_back : forall L h a b x v d S n out inp out', let m := Leaf h LS2 a b in built m -> 0 <= d <= 1 / 1000 -> defect64 d m x ->
  length v = 3%nat -> mild m v -> isInTxM (SK:=F64 L) m x v (default_prec (SK:=F64 L)) = Ok true -> / 2 ^ 900 <= S <= 2 ^ 898 ->
  shape out 3 n -> shape inp 3 n -> shape out' 3 n -> Forall (Forall (fun a => isf a /\ Rabs (val a) <= S)) (mcols_ inp) ->
  exists Y Z, applyTransport (SK:=F64 L) m out inp x v = Ok Y /\ applyInvTransport (SK:=F64 L) m out' Y x v = Ok Z /\ shape Z 3 n /\
    forall j, (j < n)%nat -> Forall isf (nth j (mcols_ Z) []) /\ near_v (5 * ((825 * / 2 ^ 53 + 15 * d) * S)) (vals (nth j (mcols_ Z) [])) (vals (nth j (mcols_ inp) [])).
Proof.
  intros L h a b x v d S n out inp out' m B Hd Dx Lv Mv T HS So Si So' Fi. pose proof (built_wf _ B) as W. inversion W as [? ? ? ? Wl|]; subst.
  destruct (s2_leaf L h a b x v d Wl Hd Dx Lv Mv T) as (y & A & f & Q & Re & Ro & TT & _ & HQ & Ef & M).
  pose proof Dx as (Lx & _). pose proof Wl as (_ & W2 & W3 & _).
  assert (T3 : tangentDim m = 3%nat) by exact W2. assert (R3 : representationDim m = 3%nat) by exact W3.
  assert (Ch : transport_checks (SK:=F64 L) m x v = Ok tt).
  { unfold transport_checks. rewrite T3, R3. rewrite !check_eq by auto. cbn [bind]. rewrite T. reflexivity. }
  assert (RR : retractation (SK:=F64 L) m (vconst 3 (k0 (Scalar:=F64 L))) x v = Ok y).
  { unfold m. cbn [retractation]. fold m. rewrite T3, R3. rewrite !check_eq by auto. cbn [bind]. fold m. rewrite ?T. cbn [bind mnf_assert]. apply Re. reflexivity. }
  exists (Mat 3 (map (m3_mulv (SK:=F64 L) A) (mcols_ inp))), (Mat 3 (map (m3_mulv (SK:=F64 L) (m3_trans A)) (map (m3_mulv (SK:=F64 L) A) (mcols_ inp)))).
  destruct So as (S1 & S2 & S3). destruct Si as (I1 & I2 & I3). destruct So' as (O1 & O2 & O3).
  split; [|split; [|split]].
  - unfold m. cbn [applyTransport]. fold m. rewrite T3. rewrite !check_eq by (unfold ncols; congruence). rewrite Ch, RR. cbn [bind].
    unfold s2_applyTransport. rewrite Ro. cbn [bind]. unfold m3_on_cols, ncols. rewrite I1, S1, S2, I2, !Nat.eqb_refl. reflexivity.
  - pose proof (eq_trans (map_length (m3_mulv (SK:=F64 L) A) (mcols_ inp)) I2) as LY. set (Yc := map (m3_mulv (SK:=F64 L) A) (mcols_ inp)) in *. clearbody Yc.
    unfold m. cbn [applyInvTransport]. fold m. rewrite T3. rewrite !check_eq by (unfold ncols; cbn [mrows mcols_]; congruence). rewrite Ch, RR. cbn [bind].
    unfold s2_applyInvTransport. rewrite Ro. cbn [bind]. unfold m3_on_cols, ncols. cbn [mrows mcols_]. rewrite O1, O2, LY, !Nat.eqb_refl. reflexivity.
  - repeat split; cbn [mrows mcols_]; [rewrite !map_length; auto|]. rewrite Forall_map. apply Forall_forall. reflexivity.
  - intros j Hj. cbn [mcols_]. rewrite map_map. rewrite Forall_forall in I3, Fi.
    set (g := fun c => m3_mulv (SK:=F64 L) (m3_trans A) (m3_mulv (SK:=F64 L) A c)).
    rewrite (nth_indep (map g (mcols_ inp)) [] (g [])) by (rewrite map_length, I2; auto). rewrite (map_nth g).
    assert (In0 : In (nth j (mcols_ inp) []) (mcols_ inp)) by (apply nth_In; rewrite I2; auto).
    pose proof (I3 _ In0) as Lc. pose proof (Fi _ In0) as Fc. set (c := nth j (mcols_ inp) []) in *. clearbody c. unfold g. clear g In0 I3 Fi.
    rewrite u_pow. pose proof u_pos as U. assert (U1 : u <= 1 / 10000000000) by (rewrite u_val; lra).
    assert (SP : 0 < S) by (destruct HS as [HS _]; assert (0 < / 2 ^ 900) by (apply Rinv_0_lt_compat, pow_lt; lra); lra).
    assert (P9 : 4 * 2 ^ 898 = 2 ^ 900) by (change 900%nat with (2 + 898)%nat; rewrite pow_add; simpl (2 ^ 2); ring).
    assert (P0 : 0 < 2 ^ 898) by (apply pow_lt; lra).
    set (e := 825 * u + 15 * d). assert (E0 : 0 <= e <= 1 / 10) by (unfold e; lra).
    destruct (mulv_scaled d A Q c S ltac:(apply scale_pow; lra) ltac:(lra) M Lc Fc L) as (F1 & N1). fold e in N1.
    set (c1 := m3_mulv (SK:=F64 L) A c) in *. assert (L1 : length c1 = 3%nat) by reflexivity. clearbody c1.
    assert (Lvc : length (map val c) = 3%nat) by (rewrite map_length; exact Lc). assert (Lv1 : length (map val c1) = 3%nat) by (rewrite map_length; exact L1).
    assert (B1 : Forall (fun t => Rabs t <= 2 * S) (rmulv Q (map val c))).
    { assert (N : near_v S (map val c) [0; 0; 0]).
      { clear - Lc Fc. destruct c as [|p [|q [|r [|]]]]; try discriminate Lc. inversion Fc as [|? ? [_ H0] Fc1]; subst. inversion Fc1 as [|? ? [_ H1] Fc2]; subst. inversion Fc2 as [|? ? [_ H2] _]; subst.
        cbn [map]. apply Forall2_cons; [|apply Forall2_cons; [|apply Forall2_cons; [|apply Forall2_nil]]]; rewrite Rminus_0_r; assumption. }
      apply (rot_near Q) in N; auto. clear - N. remember (rmulv Q (map val c)) as z. unfold rmulv in N. cbn [rdot] in N.
      inversion N as [|? ? ? ? H0 N1]; subst. inversion N1 as [|? ? ? ? H1 N2]; subst. inversion N2 as [|? ? ? ? H2 N3]; subst. inversion N3; subst.
      repeat (constructor; [match goal with H : Rabs (?t - _) <= _ |- Rabs ?t <= _ => eapply Rle_trans; [|exact H]; right; f_equal; ring end|]). constructor. }
    assert (Fc1 : Forall (fun t => isf t /\ Rabs (val t) <= 3 * S) c1).
    { clear - F1 N1 B1 E0 SP. remember (rmulv Q (map val c)) as z. clear Heqz. revert z N1 B1. induction F1 as [|t l Ht F1 IH]; intros z N1 B1; constructor.
      - split; auto. inversion N1 as [|? w ? z' H N2]; subst. inversion B1; subst. assert (e * S <= 1 / 10 * S) by (apply Rmult_le_compat_r; lra).
        replace (val t) with ((val t - w) + w) by ring. eapply Rle_trans; [apply Rabs_triang|]. lra.
      - inversion N1; subst. inversion B1; subst. eapply IH; eauto. }
    destruct (mulv_scaled d (m3_trans A) (rtr Q) c1 (3 * S) ltac:(apply scale_pow; lra) ltac:(lra) ltac:(apply ments_trans; exact M) L1 Fc1 L) as (F2 & N2). fold e in N2.
    split; [exact F2|]. apply (rot_near (rtr Q)) in N1; auto using rot_tr.
    assert (EQ : rmulv (rtr Q) (rmulv Q (map val c)) = map val c) by (rewrite rmulv_mul by auto; destruct HQ as [-> _]; apply rmulv_id; auto).
    rewrite EQ in N1. replace (5 * (e * S)) with (e * (3 * S) + 2 * (e * S)) by ring. eapply near_v_trans; eassumption.
Qed.
Print Assumptions C63_transport.
Print Assumptions C63_back.

(** R^2 x S2, at ((3, 4), the north pole) along ((1, -1), e1): any 5-row matrix; the vector ((5, 7), (0, 2, 0))
    keeps its first part and its sphere part stays within 1650 units of 2^-53. *)
Section Ex.
Variable L : libm.
#[local] Instance SKt : Scalar f64 := F64 L.
Definition fT : mfd f64 := get prod_empty (prod2 (fR2 L) (fS2 L)).
Lemma fT_built : built fT.
Proof. apply (prod2_built64 (fR2 L) (fS2 L)); [apply (built_real_mag 2 k1); reflexivity|apply (fS2_built L)|reflexivity]. Qed.
End Ex.
Example C63_example : forall L0, let L := in_order L0 in exists Y, applyTransport (SK:=F64 L) (fT L) (mzero (SK:=F64 L) 5 1) (Mat 5 [fi [5; 7; 0; 2; 0]%Z]) (fi [3; 4; 0; 0; 1]%Z) (fi [1; -1; 1; 0; 0]%Z) = Ok Y /\
  exists t, mcols_ Y = [fi [5; 7]%Z ++ t] /\ Forall isf t /\ near_v (1650 * / 2 ^ 53) (vals t) [0; 2; 0].
Proof.
  intros L0 L. pose (xs := [fi [3; 4]%Z; fi [0; 0; 1]%Z]). pose (vs := [fi [1; -1]%Z; fi [1; 0; 0]%Z]).
  destruct (vals_fi [0; 0; 1]%Z) as [Fx Vx]; [repeat constructor; lia|]. destruct (vals_fi [1; 0; 0]%Z) as [Fv Vv]; [repeat constructor; lia|].
  destruct (vals_fi [0; 2; 0]%Z) as [Fc Vc]; [repeat constructor; lia|].
  destruct (C63_transport L (fT L) xs vs 0 (fT_built L)) as (fs & Ms & Tr & _).
  - lra.
  - apply Forall2_cons; [reflexivity|apply Forall2_cons; [|apply Forall2_nil]]. split; [reflexivity|split; [exact Fx|]]. rewrite Vx. cbn [map rdot]. apply Rabs_le. lra.
  - apply Forall2_cons; [split; [reflexivity|exact I]|apply Forall2_cons; [|apply Forall2_nil]]. split; [reflexivity|]. cbn [mild]. 
    assert (P : 1 <= bpow radix2 400) by (apply (bpow_le radix2 0 400); lia).
    assert (G : Forall (fun r => Rabs r <= bpow radix2 400) (vals (fi [1; 0; 0]%Z))). { rewrite Vv. cbn [map]. repeat (constructor; [apply Rabs_le; lra|]). constructor. }
    apply Forall_map in G. exact G.
  - vm_compute. reflexivity.
  - destruct (Tr 1%nat (mzero (SK:=F64 L) 5 1) (Mat 5 [fi [5; 7; 0; 2; 0]%Z])) as (Y & EY & SY & HY).
    + repeat split. repeat constructor.
    + repeat split. repeat constructor.
    + exists Y. split; [exact EY|]. destruct SY as (_ & LY & FY). destruct (HY 0%nat ltac:(lia)) as (cs & cs' & E & E' & P & P' & H).
      inversion Ms as [|? ? ? f1 ? ? ? ? M1 Ms']; subst. inversion Ms' as [|? ? ? f2 ? ? ? ? M2 Ms'']; subst. inversion Ms''; subst.
      inversion H as [|? ? c1 d1 ? ? ? ? H1 H']; subst. inversion H' as [|? ? c2 d2 ? ? ? ? H2 H'']; subst. inversion H''; subst.
      inversion P as [|? ? ? ? P1 Pr]; subst. inversion Pr as [|? ? ? ? P2 _]; subst.
      cbn [concat nth mcols_] in E. rewrite app_nil_r in E. destruct c1 as [|? [|? [|]]]; try discriminate P1. destruct c2 as [|? [|? [|? [|]]]]; try discriminate P2.
      cbn [fi map app] in E. inversion E; subst. clear E. cbn [carried] in H1. subst d1.
      destruct (H2 2) as [G1 G2].
      * assert (1 <= 2 ^ 900) by (apply pow_R1_Rle; lra). assert (/ 2 ^ 900 <= / 1) by (apply Rinv_le_contravar; lra).
        assert (2 <= 2 ^ 900) by (change 900%nat with (1 + 899)%nat; rewrite pow_add; assert (1 <= 2 ^ 899) by (apply pow_R1_Rle; lra); simpl (2 ^ 1); lra). lra.
      * change (Forall (fun a => isf a /\ Rabs (val a) <= 2) (fi [0; 2; 0]%Z)).
        assert (G : Forall (fun r => Rabs r <= 2) (vals (fi [0; 2; 0]%Z))). { rewrite Vc. cbn [map]. repeat (constructor; [apply Rabs_le; lra|]). constructor. }
        apply Forall_map in G. rewrite Forall_forall in *. auto.
      * exists d2. cbn [concat] in E'. rewrite app_nil_r in E'. split; [|split; [exact G1|]].
        -- destruct (mcols_ Y) as [|z [|]]; try discriminate LY. cbn [nth] in E'. rewrite E'. reflexivity.
        -- destruct M2 as (Q & _ & Ef & _ & Fx'). change (near_v ((825 * / 2 ^ 53 + 15 * 0) * 2) (vals d2) (f2 (vals (fi [0; 2; 0]%Z)))) in G2.
           rewrite Vc in G2. rewrite Fx' in G2; [|reflexivity| |].
           ++ replace (1650 * / 2 ^ 53) with ((825 * / 2 ^ 53 + 15 * 0) * 2) by ring. exact G2.
           ++ change (rdot (map IZR [0; 2; 0]%Z) (vals (fi [0; 0; 1]%Z)) = 0). rewrite Vx. cbn [map rdot]. ring.
           ++ change (rdot (map IZR [0; 2; 0]%Z) (radd (vals (fi [0; 0; 1]%Z)) (vals (fi [1; 0; 0]%Z))) = 0). rewrite Vx, Vv. unfold radd. cbn [map combine fst snd rdot]. ring.
Qed.
