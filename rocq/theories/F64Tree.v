(** Retractations in double arithmetic on trees. *)
From Coq Require Import Reals List Lra Lia ZArith Bool Arith Psatz.
From Flocq Require Import Core BinarySingleNaN.
From Verif Require Import Base Scalar Vec Model_Real Model_S2 Model_SO3 Model_Manifold Spec Layout Comp Indep Flat Points
  XR SpecR RotR NumVec NumTree Drift F64 F64Err F64Norm F64S2 F64Exp F64Quat F64Mat F64Mat2.
Import ListNotations.
Local Open Scope R_scope.

(** ** Any scalar *)
Section Gen.
Context {K : Type} {SK : Scalar K}.
Lemma wf_leaves_gen m : wf m -> Forall (fun s : mfd K => wf s /\ leaves s = [s]) (leaves m).
Proof.
  induction m as [h l a b|h sT sR subs IH] using mfd_ind'; intros Hw.
  - cbn [leaves]. constructor; [split; auto|constructor].
  - inversion Hw as [|? ? ? ? _ _ _ _ _ Hs]; subst. cbn [leaves]. clear Hw. induction subs as [|s ss IHs]; simpl; auto.
    inversion IH; inversion Hs; subst. apply Forall_app. split; auto.
Qed.
Lemma leaf_inv_gen (m : mfd K) s : wf m -> In s (leaves m) -> exists h l a b, s = Leaf h l a b /\ leaf_wf h l a b.
Proof.
  intros H Hi. pose proof (wf_leaves_gen m H) as F. rewrite Forall_forall in F. destruct (F s Hi) as [W L].
  destruct s as [h l a b|h sT sR subs].
  - inversion W; subst. exists h, l, a, b. auto.
  - exfalso. clear - L. cbn [leaves] in L.
    assert (G : forall m : mfd K, In (Prod h sT sR subs) (leaves m) -> False).
    { induction m as [|? ? ? ss IH] using mfd_ind'; simpl; intros Hi.
      - destruct Hi as [E|[]]; discriminate.
      - apply in_flat_map in Hi. destruct Hi as (x & Hx & Hi). rewrite Forall_forall in IH. eapply IH; eauto. }
    apply (G (Prod h sT sR subs)). cbn [leaves]. rewrite L. simpl. auto.
Qed.
Lemma cut_gen D (m : mfd K) (out : list K) : wf m -> length out = getDim D m -> exists outs, out = concat outs /\ pieces D (leaves m) outs.
Proof.
  intros Hw H. rewrite (leaves_dim D m Hw) in H. destruct (cut_pieces D _ _ H) as (outs & Hp & E). exists outs. auto.
Qed.
Lemma pieces_total D (m : mfd K) xs : wf m -> pieces D (leaves m) xs -> length (concat xs) = getDim D m.
Proof.
  intros W P. rewrite (leaves_dim D m W). clear W. induction P as [|s x ls xs H P IH]; [reflexivity|].
  cbn [concat map]. rewrite app_length, IH, H. reflexivity.
Qed.
End Gen.

(** ** Leaves *)
Notation vals := (map val).
Definition m3_of (x : list f64) : m3 f64 := match x with [a; b; c; d; e; f; g; h; i] => M3 a d g b e h c f i | _ => M3 (of_Z 0) (of_Z 0) (of_Z 0) (of_Z 0) (of_Z 0) (of_Z 0) (of_Z 0) (of_Z 0) (of_Z 0) end.
Definition fstray (d : R) (s : mfd f64) (x : list f64) : Prop :=
  match s with
  | Leaf h LReal _ _ => length x = h_dim h
  | Leaf _ LS2 _ _ => exists a b c, x = [a; b; c] /\ isf a /\ isf b /\ isf c /\ Rabs (sq3 (val a) (val b) (val c) - 1) <= d
  | Leaf _ (LSO3 MapMatrix) _ _ => exists X, x = m3_to_list X /\ mfin X /\ stretch d (mval X)
  | Leaf _ (LSO3 MapQuat) _ _ => exists q, x = [qw q; qx q; qy q; qz q] /\ qfin q /\ Rabs (qn2 (qval q) - 1) <= d
  | Prod _ _ _ _ => False
  end.
(** Sphere parts below 2^400. *)
Definition mild (s : mfd f64) (v : list f64) : Prop := match s with Leaf _ LS2 _ _ => Forall (fun a => Rabs (val a) <= bpow radix2 400) v | _ => True end.
(** The computed value is close to the exact one. *)
Definition fclose (s : mfd f64) (x v y : list f64) : Prop :=
  match s with
  | Leaf _ LReal _ _ => Forall3 (fun a b c => isf a -> isf b -> Rabs (val a + val b) <= bpow radix2 1000 -> isf c /\ val c = rnd (val a + val b)) x v y
  | Leaf _ LS2 _ _ => let w := radd (vals x) (vals v) in near_v (8 * u) (vals y) (rscal (/ rnorm w) w)
  | Leaf _ (LSO3 MapMatrix) _ _ => exists A, vals x = flat9 A /\ near_v (124 * u) (vals y) (flat9 (rmul A (expSO3 (vals v))))
  | Leaf _ (LSO3 MapQuat) _ _ => exists q, vals x = qflat q /\ near_v (82 * u) (vals y) (qflat (qprod q (expQ (vals v))))
  | Prod _ _ _ _ => False
  end.

Lemma fstray_len d h l a b x : leaf_wf (K:=f64) h l a b -> fstray d (Leaf h l a b) x -> length x = representationDim (Leaf h l a b).
Proof.
  intros W H. unfold representationDim. cbn [hdr_of]. destruct l as [| |[|]]; cbn [fstray] in H; unfold leaf_wf in W.
  - lia.
  - destruct H as (p & q & r & -> & _). cbn [List.length]. lia.
  - destruct H as (A & -> & _). unfold m3_to_list. cbn [List.length]. lia.
  - destruct H as (q & -> & _). destruct W as (W1 & W2 & W3 & _). rewrite W3. reflexivity.
Qed.
Lemma fstray_mono d e s x : d <= e -> fstray d s x -> fstray e s x.
Proof.
  intros H. destruct s as [h [| |[|]] a b|]; cbn [fstray]; auto.
  - intros (p & q & r & ? & ? & ? & ? & ?). exists p, q, r. repeat split; auto. lra.
  - intros (X & ? & ? & ?). exists X. split; auto. split; auto. eapply stretch_mono; eauto.
  - intros (q & ? & ? & ?). exists q. split; auto. split; auto. lra.
Qed.
Lemma vec3 {A} (v : list A) : length v = 3%nat -> exists a b c, v = [a; b; c].
Proof. destruct v as [|a [|b [|c [|]]]]; try discriminate. intros _. eauto. Qed.

Section Tree.
Variable L : libm.
Hypothesis HL : accurate L.
Local Notation SK := (F64 L).
#[local] Instance SKi : Scalar f64 := SK.

Lemma vadd_spec x v : length v = length x -> Forall3 (fun a b c => isf a -> isf b -> Rabs (val a + val b) <= bpow radix2 1000 -> isf c /\ val c = rnd (val a + val b)) x v (vadd x v).
Proof.
  revert v. induction x as [|a x IH]; intros [|b v] H; try discriminate; [constructor|]. cbn. constructor; [|apply IH; cbn in H; lia].
  intros Fa Fb HB. apply (f_add a b Fa Fb). exact HB.
Qed.
Lemma leaf_step64 h l a b d x v o y : let s := Leaf h l a b in leaf_wf h l a b -> 0 <= d <= 1 / 1000 -> fstray d s x -> mild s v ->
  retractation s o x v = Ok y -> fstray (d + 1240 * u) s y /\ fclose s x v y.
Proof.
  intros s W Hd Hx Hm H. pose proof u_pos as U. unfold s in *. cbn [retractation] in H.
  assert (C : length o = representationDim (Leaf h l a b) /\ length x = representationDim (Leaf h l a b) /\ length v = tangentDim (Leaf h l a b) /\ isInTxM (Leaf h l a b) x v default_prec = Ok true).
  { destruct (length o =? _)%nat eqn:E1 in H; [|discriminate]. destruct (length x =? _)%nat eqn:E2 in H; [|discriminate]. destruct (length v =? _)%nat eqn:E3 in H; [|discriminate].
    cbn [mnf_assert bind] in H. destruct (isInTxM _ x v default_prec) as [bb|] eqn:E4; [|discriminate]. destruct bb; [|discriminate].
    apply Nat.eqb_eq in E1, E2, E3. auto. }
  destruct C as (Lo & Lx & Lv & HT). rewrite Lo, Lx, Lv, !Nat.eqb_refl in H. cbn [mnf_assert bind] in H. rewrite HT in H. cbn [mnf_assert bind] in H.
  unfold representationDim, tangentDim in Lo, Lx, Lv. cbn [hdr_of] in Lo, Lx, Lv.
  destruct l as [| |[|]]; cbn [fstray fclose mild] in *; unfold leaf_wf in W.
  - unfold real_retractation, same_size in H. replace (length x =? length v)%nat with true in H by (symmetry; apply Nat.eqb_eq; lia). cbn [mnf_assert bind] in H.
    pose proof (vadd_spec x v ltac:(lia)) as VS. assert (LV : length (vadd x v) = length x) by (clear - VS; induction VS; cbn; auto).
    unfold assign in H. rewrite LV in H. replace (length o =? length x)%nat with true in H by (symmetry; apply Nat.eqb_eq; lia).
    cbn [bind] in H. apply ok_eq in H. subst y. split; [lia|]. exact VS.
  - destruct Hx as (x0 & x1 & x2 & -> & F0 & F1 & F2 & HX). destruct (vec3 v) as (v0 & v1 & v2 & ->); [lia|].
    inversion Hm as [|? ? M0 Hm1]; subst. inversion Hm1 as [|? ? M1 Hm2]; subst. inversion Hm2 as [|? ? M2 _]; subst.
    cbn [isInTxM] in HT. unfold representationDim, tangentDim in HT. cbn [hdr_of] in HT. rewrite !check_eq in HT by (cbn [List.length]; lia). cbn [bind] in HT. apply ok_eq in HT. symmetry in HT.
    destruct (s2_step L x0 x1 x2 v0 v1 v2 o F0 F1 F2 ltac:(lra) M0 M1 M2 ltac:(lia) HT) as (y0 & y1 & y2 & Ey & G0 & G1 & G2 & D & W4 & E0 & E1 & E2).
    assert (Y : y = [y0; y1; y2]). { apply ok_eq. rewrite <- Ey. exact H. } subst y. split.
    + exists y0, y1, y2. repeat split; auto. lra.
    + cbv zeta. change (radd (vals [x0; x1; x2]) (vals [v0; v1; v2])) with [val x0 + val v0; val x1 + val v1; val x2 + val v2].
      assert (RN : rnorm [val x0 + val v0; val x1 + val v1; val x2 + val v2] = sqrt (sq3 (val x0 + val v0) (val x1 + val v1) (val x2 + val v2))) by (unfold rnorm, sq3; cbn [rdot]; f_equal; ring).
      rewrite RN. unfold rscal. cbn [map]. clear H Ey. unfold Rdiv in *. repeat (constructor; [rewrite (Rmult_comm (/ _)); assumption|]). constructor.
  - destruct Hx as (X & -> & FX & SX). destruct (vec3 v) as (v0 & v1 & v2 & ->); [lia|].
    destruct (em_step L HL X v0 v1 v2 o y d FX SX Hd ltac:(lia) H) as (Y & -> & MY & SY). split.
    + exists Y. split; auto. split; auto. apply (mapp_close _ _ _ MY).
    + exists (mval X). split; [reflexivity|]. apply mapp_close in MY as [_ (C0 & C1 & C2 & C3 & C4 & C5 & C6 & C7 & C8)].
      unfold m3_to_list, flat9. cbn [map]. unfold qvec3 in *. unfold near_v. repeat (apply Forall2_cons; [assumption|]). apply Forall2_nil.
  - destruct Hx as (q & -> & Fq & Sq). destruct (vec3 v) as (v0 & v1 & v2 & ->); [lia|].
    destruct W as (W1 & W2 & W3 & _).
    destruct (eq_step L HL q v0 v1 v2 o y Fq ltac:(lra) ltac:(lia) H) as (r & -> & Q & S). split.
    + exists r. split; auto. destruct Q as ([Q0 _] & [Q1 _] & [Q2 _] & [Q3 _]). split; [repeat split; assumption|].
      apply Rabs_ends in S, Sq. apply Rabs_le. lra.
    + exists (qval q). split; [reflexivity|]. destruct Q as ([_ Q0] & [_ Q1] & [_ Q2] & [_ Q3]). cbn [map]. unfold qvec3, near_v, qflat in *. repeat (apply Forall2_cons; [assumption|]). apply Forall2_nil.
Qed.

(** ** Trees *)
Definition fstrayM (d : R) (m : mfd f64) (x : list f64) : Prop := exists xs, x = concat xs /\ Forall2 (fstray d) (leaves m) xs.
Definition mildM (m : mfd f64) (v : list f64) : Prop := exists vs, v = concat vs /\ pieces DT (leaves m) vs /\ Forall2 mild (leaves m) vs.
Lemma fstray_pieces d (m : mfd f64) xs : wf m -> Forall2 (fstray d) (leaves m) xs -> pieces DR (leaves m) xs.
Proof.
  intros W F. pose proof (fun s => leaf_inv_gen m s W) as G. revert G. induction F as [|s x ls xs Hs F IH]; intros G; constructor.
  - destruct (G s) as (h & l & a & b & -> & Wl); [simpl; auto|]. apply (fstray_len _ _ _ _ _ _ Wl Hs).
  - apply IH. intros; apply G; simpl; auto.
Qed.
Lemma tree_step64 (m : mfd f64) d xs vs out r : wf m -> 0 <= d <= 1 / 1000 -> Forall2 (fstray d) (leaves m) xs -> pieces DT (leaves m) vs -> Forall2 mild (leaves m) vs ->
  length out = representationDim m -> retractation m out (concat xs) (concat vs) = Ok r ->
  exists ys, r = concat ys /\ Forall2 (fstray (d + 1240 * u)) (leaves m) ys /\ Forall4 fclose (leaves m) xs vs ys.
Proof.
  intros W Hd Hx Pv Hm Lo H. destruct (cut_gen DR m out W Lo) as (outs & -> & Po).
  pose proof (fstray_pieces _ _ _ W Hx) as Px.
  apply (flat_op DR DR DT retractation retractation_prod m W) in H; auto.
  destruct H as (ys & -> & F). exists ys. split; [reflexivity|]. pose proof (fun s => leaf_inv_gen m s W) as G. clear Px W Lo.
  revert G Hx Pv Hm Po F. generalize (leaves m) as ls. intros ls. revert xs vs outs ys.
  induction ls as [|s ls IH]; intros xs vs outs ys G Hx Pv Hm Po F.
  - inversion F; subst. split; constructor.
  - inversion Hx as [|? x ? xs' Hx1 Hx2]; subst. inversion Pv as [|? v ? vs' Pv1 Pv2]; subst. inversion Hm as [|? ? ? ? Hm1 Hm2]; subst. inversion Po as [|? o ? os' Po1 Po2]; subst.
    inversion F as [|? ? ? ? y0 ? ? ? ? ys0 F1 F2]; subst.
    destruct (IH xs' vs' os' ys0) as [A B]; auto. { intros q Hq. apply G. simpl; auto. }
    destruct (G s) as (h & l & a & b & -> & Wl); [simpl; auto|].
    destruct (leaf_step64 h l a b d x v o y0 Wl Hd Hx1 Hm1 F1) as [C D]. split; constructor; auto.
Qed.
Lemma isInM64 (m : mfd f64) d ys p : wf m -> Forall2 (fstray d) (leaves m) ys -> 0 <= d <= 99 / 10 ^ 10 -> isf p -> 995 / 10 ^ 11 <= val p -> isInM m (concat ys) p = Ok true.
Proof.
  intros W F Hd Fp Hp. pose proof (fun s => leaf_inv_gen m s W) as G. pose proof (fstray_pieces _ _ _ W F) as P.
  assert (LL : forall p, isf p -> 995 / 10 ^ 11 <= val p -> Forall2 (fun s x => isInM s x p = Ok true) (leaves m) ys).
  { clear p Fp Hp. intros p Fp Hp. assert (U1 : u <= 2 / 10 ^ 16) by (rewrite u_val; lra). assert (PD : d + 6 * u < val p) by (cbn [pow] in *; lra). assert (D1 : d <= 1 / 100) by (cbn [pow] in *; lra).
    clear P Hp U1. revert G. induction F as [|s x ls xs Hs F IH]; intros G; constructor.
    2:{ apply IH. intros; apply G; simpl; auto. }
    destruct (G s) as (h & l & a & b & -> & Wl); [simpl; auto|]. clear G IH F. pose proof (fstray_len _ _ _ _ _ _ Wl Hs) as Lx. cbn [isInM]. rewrite check_eq by exact Lx. cbn [bind].
    destruct l as [| |[|]]; cbn [fstray] in Hs.
    - unfold real_isInM. rewrite Hs, Nat.eqb_refl. reflexivity.
    - destruct Hs as (x0 & x1 & x2 & -> & F0 & F1 & F2 & HX). f_equal. apply (s2_isInM_ok L x0 x1 x2 p d); auto.
    - destruct Hs as (X & -> & FX & SX). apply (em_isInM_ok L X d p); auto. apply Hd.
    - destruct Hs as (q & -> & Fq & Sq). apply (eq_isInM_ok L p q d); auto. }
  destruct m as [h lf a b|h sT sR subs].
  - apply isInM_leaves; auto.
  - assert (E : isInM (Prod h sT sR subs) (concat ys) default_prec = Ok true).
    { apply isInM_leaves; auto. destruct (lit8_tight L) as [F8 V8]. apply LL; [exact F8|]. change default_prec with (lit8 L). cbn [pow] in *. lra. }
    rewrite <- E. reflexivity.
Qed.
End Tree.
