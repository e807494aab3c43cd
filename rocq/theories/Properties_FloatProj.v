(** C64: forceOnTxM in IEEE-754 double arithmetic, and a loop that never stops on any tree. *)
From Coq Require Import Reals List Lra Lia ZArith Bool Arith Psatz.
From Flocq Require Import Core BinarySingleNaN.
From Verif Require Import Base Scalar Vec Model_Real Model_S2 Model_SO3 Model_Manifold Spec Layout Comp Indep Flat Points
  XR SpecR RotR NumVec NumS2 NumTree Drift F64 F64Err F64Norm F64S2 F64Exp F64Quat F64Mat F64Mat2 F64Tree F64Go F64Gs F64Force ExScalar
  TanLeaf F64Trans F64Proj Properties_Float.
Import ListNotations.
Local Open Scope R_scope.

(** ** Spec *)
(** The parts of a vector before and after the projection at [x]: on S2 finite and within (50 * 2^-53 + 4 d) S of
    v - <x,v>/<x,x> x for entries of size at most S; elsewhere copied bit for bit. *)
Definition projected (d : R) (s : mfd f64) (x v w : list f64) : Prop :=
  match s with
  | Leaf _ LS2 _ _ => forall S, / 2 ^ 900 <= S <= 2 ^ 890 -> Forall (fun a => isf a /\ Rabs (val a) <= S) v ->
      Forall isf w /\ near_v ((50 * / 2 ^ 53 + 4 * d) * S) (vals w) (rsub (vals v) (rscal (rdot (vals x) (vals v) / rdot (vals x) (vals x)) (vals x)))
  | _ => w = v
  end.
(** Sphere parts finite, of size at most [S]. *)
Definition tame (S : R) (s : mfd f64) (v : list f64) : Prop :=
  match s with Leaf _ LS2 _ _ => Forall (fun a => isf a /\ Rabs (val a) <= S) v | _ => True end.

(** ** Lemmas *)
Lemma bpow900 : bpow radix2 900 = 2 ^ 900.
Proof. rewrite pow_IZR; unfold bpow; f_equal; vm_compute; reflexivity. Qed.
Lemma bpow400 : bpow radix2 400 = 2 ^ 400.
Proof. rewrite pow_IZR; unfold bpow; f_equal; vm_compute; reflexivity. Qed.
Lemma pow890 S : 0 <= S <= 2 ^ 890 -> 5 * S <= bpow radix2 900.
Proof.
  intros H. rewrite bpow900. change 900%nat with (10 + 890)%nat. rewrite pow_add. assert (P : 0 < 2 ^ 890) by (apply pow_lt, Rlt_0_2).
  generalize dependent (2 ^ 890). intros p H P. assert (5 <= 2 ^ 10) by (simpl; lra). apply Rmult_le_compat; lra.
Qed.
Lemma scale890 S : / 2 ^ 900 <= S <= 2 ^ 890 -> scale S /\ 5 * S <= bpow radix2 900.
Proof.
  intros H. assert (0 < / 2 ^ 900) by (apply Rinv_0_lt_compat, pow_lt; lra). assert (HP : 0 < S) by (eapply Rlt_le_trans; [eassumption|apply H]). assert (H5 : 5 * S <= bpow radix2 900) by (apply pow890; split; [left; exact HP|apply H]). split; auto. split; [|eapply Rle_trans; [|exact H5]; lra].
  change (bpow radix2 (-900)) with (bpow radix2 (Z.opp 900)). rewrite bpow_opp, bpow900. apply H.
Qed.
Lemma upow : / 2 ^ 53 = u.
Proof. rewrite u_val. cbn [pow]. lra. Qed.

Section Leaf.
Variable L : libm.
Local Notation SK := (F64 L).
Lemma proj_leaf h l a b x v o d : let s := Leaf h l a b in leaf_wf (K:=f64) h l a b -> 0 <= d <= 1 / 1000 -> defect64 d s x -> length v = tangentDim s -> length o = tangentDim s ->
  exists w, forceOnTxM (SK:=SK) s o v x = Ok w /\ length w = tangentDim s /\ projected d s x v w /\
    forall S, 1 <= S -> (340 * u + 4 * d) * S < 9 / 10 ^ 9 -> tame S s v ->
      isInTxM (SK:=SK) s x w (default_prec (SK:=SK)) = Ok true /\ mild s w.
Proof.
  intros s W Hd Dx Lv Lo. assert (Lx : length x = representationDim s).
  { apply defect_stray in Dx; [|lra]. apply (fstray_len _ _ _ _ _ _ W Dx). }
  assert (Ll : l = LS2 \/ l <> LS2) by (destruct l; auto; right; discriminate). destruct Ll as [->|Hl].
  - pose proof W as (_ & W2 & W3 & _). assert (T3 : tangentDim s = 3%nat) by exact W2. assert (R3 : representationDim s = 3%nat) by exact W3.
    destruct Dx as (L3 & Fx & Dx). rewrite T3 in *. rewrite R3 in *.
    destruct (vec3 x L3) as (x0 & x1 & x2 & ->). destruct (vec3 v Lv) as (v0 & v1 & v2 & ->).
    set (w := vsub (SK:=SK) [v0; v1; v2] (vscale (SK:=SK) (dot (SK:=SK) [x0; x1; x2] [v0; v1; v2]) [x0; x1; x2])).
    assert (Ew : forall out, length out = 3%nat -> s2_forceOnTxM (SK:=SK) out [v0; v1; v2] [x0; x1; x2] = Ok w).
    { intros out Lout. unfold s2_forceOnTxM, same_size, assign. cbn [List.length Nat.eqb eigen_assert bind]. change (length w) with 3%nat. fold w. rewrite Lout. reflexivity. }
    exists w. split; [|split; [reflexivity|split]].
    + unfold s. cbn [forceOnTxM]. fold s. rewrite T3, R3. rewrite !check_eq by auto. cbn [bind]. apply Ew. exact Lo.
    + intros S HS Fv. destruct (scale890 S HS) as [SS S5].
      destruct (s2_proj64 L [x0; x1; x2] [v0; v1; v2] d S L3 Fx Dx ltac:(lra) Lv SS S5 Fv) as (w' & E' & _ & Fw & N & _).
      specialize (E' o Lo). rewrite Ew in E' by auto. assert (w' = w) by congruence. subst w'. rewrite upow. split; auto.
      eapply Forall_impl; [|exact Fw]. cbv beta. tauto.
    + intros S S1 HS Fv. pose proof u_pos as U. assert (SB : S <= 2 ^ 890).
      { apply Rle_trans with (2 ^ 40); [|apply Rle_pow; [lra|lia]]. assert (0 <= d * S) by (apply Rmult_le_pos; lra). rewrite u_val in HS. cbn [pow] in *. lra. }
      assert (SM : / 2 ^ 900 <= 1) by (rewrite <- Rinv_1; apply Rinv_le_contravar; [lra|apply pow_R1_Rle; lra]).
      destruct (scale890 S ltac:(lra)) as [SS S5].
      destruct (s2_proj64 L [x0; x1; x2] [v0; v1; v2] d S L3 Fx Dx ltac:(lra) Lv SS S5 Fv) as (w' & E' & _ & Fw & _ & Fd & Bd).
      specialize (E' o Lo). rewrite Ew in E' by auto. assert (w' = w) by congruence. subst w'.
      split.
      * unfold s. cbn [isInTxM]. fold s. rewrite T3, R3. rewrite !check_eq by auto. cbn [bind]. f_equal. apply (s2_proj_pass L _ _ _ Fd Bd HS).
      * cbn [mild s]. eapply Forall_impl; [|exact Fw]. cbv beta. intros t [_ Ht]. eapply Rle_trans; [exact Ht|]. rewrite bpow400.
        apply Rle_trans with (2 ^ 40); [|apply Rle_pow; [lra|lia]]. assert (0 <= d * S) by (apply Rmult_le_pos; lra). rewrite u_val in HS. cbn [pow] in *. lra.
  - exists v. assert (E : assign o v = Ok v) by (unfold assign; replace (length o =? length v)%nat with true by (symmetry; apply Nat.eqb_eq; congruence); reflexivity).
    split; [|split; [auto|split]].
    + unfold s. cbn [forceOnTxM]. fold s. rewrite !check_eq by auto. cbn [bind]. destruct l; [exact E|contradiction|exact E].
    + unfold s. destruct l; try contradiction; reflexivity.
    + intros S _ _ _. unfold s. split; [|destruct l; try contradiction; exact I]. cbn [isInTxM]. rewrite !check_eq by auto. cbn [bind]. destruct l; [reflexivity|contradiction|reflexivity].
Qed.
Lemma proj_tree (m : mfd f64) xs vs outs d : wf m -> 0 <= d <= 1 / 1000 -> Forall2 (defect64 d) (leaves m) xs -> pieces DT (leaves m) vs -> pieces DT (leaves m) outs ->
  exists ws, forceOnTxM (SK:=SK) m (concat outs) (concat vs) (concat xs) = Ok (concat ws) /\ pieces DT (leaves m) ws /\ Forall4 (projected d) (leaves m) xs vs ws /\
    forall S, 1 <= S -> (340 * u + 4 * d) * S < 9 / 10 ^ 9 -> Forall2 (tame S) (leaves m) vs ->
      Forall3 (fun s x w => isInTxM (SK:=SK) s x w (default_prec (SK:=SK)) = Ok true) (leaves m) xs ws /\ Forall2 mild (leaves m) ws.
Proof.
  intros W Hd Dx Pv Po.
  assert (Px : pieces DR (leaves m) xs).
  { apply (fstray_pieces (3 * d) m); auto. clear - Dx Hd. induction Dx; constructor; auto. apply defect_stray; auto; lra. }
  assert (F : exists ws, Forall5 (fun s o w x r => forceOnTxM (SK:=SK) s o w x = Ok r) (leaves m) outs vs xs ws /\ pieces DT (leaves m) ws /\ Forall4 (projected d) (leaves m) xs vs ws /\
    forall S, 1 <= S -> (340 * u + 4 * d) * S < 9 / 10 ^ 9 -> Forall2 (tame S) (leaves m) vs ->
      Forall3 (fun s x w => isInTxM (SK:=SK) s x w (default_prec (SK:=SK)) = Ok true) (leaves m) xs ws /\ Forall2 mild (leaves m) ws).
  { pose proof (fun s => leaf_inv_gen m s W) as G. clear Px W. revert vs outs Pv Po G. induction Dx as [|s x ls xs D1 Dx IH]; intros vs outs Pv Po G; inversion Pv as [|? v ? vs' Lv Pv']; inversion Po as [|? o ? os Lo Po']; subst.
    - exists []. repeat split; constructor.
    - destruct (IH vs' os Pv' Po') as (ws & A & B & C & D); [intros; apply G; simpl; auto|]. destruct (G s) as (h & l & a & b & -> & Wl); [simpl; auto|].
      destruct (proj_leaf h l a b x v o d Wl Hd D1 Lv Lo) as (w & A1 & B1 & C1 & E1). exists (w :: ws).
      split; [constructor; auto|split; [constructor; auto|split; [constructor; auto|]]]. intros S S1 HS HT. inversion HT as [|? ? ? ? HT1 HT2]; subst.
      destruct (D S S1 HS HT2). destruct (E1 S S1 HS HT1). split; constructor; auto. }
  destruct F as (ws & A & B & C & D). exists ws. split; [|auto]. apply (flat_op DT DT DR (forceOnTxM (SK:=SK)) forceOnTxM_prod m W); auto. exists ws. auto.
Qed.
End Leaf.

(** ** Theorems *)
(** The projection on any tree: it always returns, and this is what it returns. *)
Theorem C64_projection : forall L (m : mfd f64) xs vs out d, built m -> 0 <= d <= 1 / 1000 -> Forall2 (defect64 d) (leaves m) xs -> pieces DT (leaves m) vs -> length out = tangentDim m ->
  exists ws, forceOnTxM (SK:=F64 L) m out (concat vs) (concat xs) = Ok (concat ws) /\ pieces DT (leaves m) ws /\ Forall4 (projected d) (leaves m) xs vs ws.
Proof.
  intros L m xs vs out d B Hd Dx Pv Lo. pose proof (built_wf _ B) as W. destruct (cut_gen DT m out W Lo) as (outs & -> & Po).
  destruct (proj_tree L m xs vs outs d W Hd Dx Pv Po) as (ws & A & P & C & _). exists ws. auto.
Qed.
Print Assumptions C64_projection.

(** Vectors whose sphere parts are not too long are accepted by the tangent test after the projection. *)
Theorem C64_accepted : forall L (m : mfd f64) xs vs out d S w, built m -> 0 <= d <= 1 / 1000 -> 1 <= S -> (340 * / 2 ^ 53 + 4 * d) * S < 9 / 10 ^ 9 ->
  Forall2 (defect64 d) (leaves m) xs -> pieces DT (leaves m) vs -> Forall2 (tame S) (leaves m) vs -> length out = tangentDim m ->
  forceOnTxM (SK:=F64 L) m out (concat vs) (concat xs) = Ok w -> isInTxM (SK:=F64 L) m (concat xs) w (default_prec (SK:=F64 L)) = Ok true.
Proof.
  intros L m xs vs out d S w B Hd S1 HS Dx Pv HT Lo H. pose proof (built_wf _ B) as W. destruct (cut_gen DT m out W Lo) as (outs & -> & Po). rewrite upow in HS.
  destruct (proj_tree L m xs vs outs d W Hd Dx Pv Po) as (ws & A & P & C & D). rewrite A in H. assert (w = concat ws) by congruence. subst w.
  apply isInTxM_leaves; auto; [|apply (D S S1 HS HT)].
  apply (fstray_pieces (3 * d) m); auto. clear - Dx Hd. induction Dx; constructor; auto. apply defect_stray; auto; lra.
Qed.
Print Assumptions C64_accepted.

(** Steps x <- retractation(z, forceOnTxM(v, z)) with z = forceOnM(x), one per vector v, whatever the buffers contained. *)
Inductive guided (L : libm) (m : mfd f64) : list f64 -> list (list f64) -> list f64 -> Prop :=
| guided_nil x : guided L m x [] x
| guided_cons x v vs o1 o2 o3 z t y w : length o1 = representationDim m -> length o2 = tangentDim m -> length o3 = representationDim m ->
    forceOnM (SK:=F64 L) m o1 x = Ok z -> forceOnTxM (SK:=F64 L) m o2 v z = Ok t -> retractation (SK:=F64 L) m o3 z t = Ok y -> guided L m y vs w -> guided L m x (v :: vs) w.
(** Ambient vectors with sphere parts of size at most 500, rotation parts not longer than 3.14. *)
Definition request (m : mfd f64) (v : list f64) : Prop :=
  exists ws, v = concat ws /\ Forall2 (fun s w => length w = tangentDim s /\
     match s with Leaf _ LS2 _ _ => Forall (fun a => isf a /\ Rabs (val a) <= 500) w | Leaf _ (LSO3 _) _ _ => Forall isf w /\ rnorm (vals w) <= 314 / 100 | _ => True end) (leaves m) ws.

Lemma s2_go L h a b x v o : leaf_wf (K:=f64) h LS2 a b -> length x = 3%nat -> length v = 3%nat -> length o = 3%nat ->
  isInTxM (SK:=F64 L) (Leaf h LS2 a b) x v (default_prec (SK:=F64 L)) = Ok true -> exists y, retractation (SK:=F64 L) (Leaf h LS2 a b) o x v = Ok y.
Proof.
  intros W Lx Lv Lo T. pose proof W as (_ & W2 & W3 & _). cbn [retractation]. set (s := Leaf h LS2 a b) in *. assert (T3 : tangentDim s = 3%nat) by exact W2. assert (R3 : representationDim s = 3%nat) by exact W3.
  rewrite T3, R3. rewrite !check_eq by auto. cbn [bind]. rewrite ?T. cbn [bind mnf_assert].
  destruct (vec3 x Lx) as (x0 & x1 & x2 & ->). destruct (vec3 v Lv) as (v0 & v1 & v2 & ->). destruct (vec3 o Lo) as (o0 & o1 & o2 & ->). eexists. reflexivity.
Qed.
Lemma retr_tree L (m : mfd f64) xs vs ts outs d : wf m -> pieces DR (leaves m) xs -> pieces DR (leaves m) outs -> pieces DT (leaves m) ts -> Forall4 (projected d) (leaves m) xs vs ts ->
  Forall3 (fun s x w => isInTxM (SK:=F64 L) s x w (default_prec (SK:=F64 L)) = Ok true) (leaves m) xs ts ->
  Forall2 (fun s w => length w = tangentDim s /\
     match s with Leaf _ LS2 _ _ => Forall (fun a => isf a /\ Rabs (val a) <= 500) w | Leaf _ (LSO3 _) _ _ => Forall isf w /\ rnorm (vals w) <= 314 / 100 | _ => True end) (leaves m) vs ->
  exists y, retractation (SK:=F64 L) m (concat outs) (concat xs) (concat ts) = Ok y.
Proof.
  intros W Px Po Pt Pr T Hv. pose proof (fun s => leaf_inv_gen m s W) as G.
  assert (F : exists ys, Forall5 (fun s o x v y => retractation (SK:=F64 L) s o x v = Ok y) (leaves m) outs xs ts ys).
  { clear W. revert outs vs Px Po Pt Pr Hv G. induction T as [|s x t ls xs ts T1 T IH]; intros outs vs Px Po Pt Pr Hv G; inversion Po as [|? o ? os Lo Po']; inversion Px as [|? ? ? ? Lx Px']; inversion Pt as [|? ? ? ? Lt Pt']; subst; [exists []; constructor|].
    inversion Pr as [|? ? v ? ? ? vs' ? Pr1 Pr2]; subst. inversion Hv as [|? ? ? ? [Lv Hv1] Hv2]; subst.
    destruct (IH os vs') as (ys & F); auto. { intros; apply G; simpl; auto. } destruct (G s) as (h & l & a & b & -> & Wl); [simpl; auto|].
    assert (Y : exists y, retractation (SK:=F64 L) (Leaf h l a b) o x t = Ok y).
    { destruct l as [| |mp].
      - cbn [projected] in Pr1. subst t. apply (leaf_go L h LReal a b x v o Wl Lx Lv Lo I).
      - pose proof Wl as (_ & W2 & W3 & _). cbn [getDim representationDim tangentDim hdr_of] in *. apply s2_go; auto; unfold representationDim, tangentDim in *; cbn [hdr_of] in *; congruence.
      - cbn [projected] in Pr1. subst t. apply (leaf_go L h (LSO3 mp) a b x v o Wl Lx Lv Lo Hv1). }
    destruct Y as (y & Y). exists (y :: ys). constructor; auto. }
  destruct F as (ys & F). exists (concat ys). apply (flat_op DR DR DT (retractation (SK:=F64 L)) retractation_prod m W); auto. exists ys. auto.
Qed.
Lemma guided_step L (m : mfd f64) d xs v o1 o2 o3 : accurate L -> wf m -> 0 <= d <= 1 / 2000 -> Forall2 (fstray d) (leaves m) xs -> request m v ->
  length o1 = representationDim m -> length o2 = tangentDim m -> length o3 = representationDim m ->
  exists z t ys, forceOnM (SK:=F64 L) m o1 (concat xs) = Ok z /\ forceOnTxM (SK:=F64 L) m o2 v z = Ok t /\ retractation (SK:=F64 L) m o3 z t = Ok (concat ys) /\
    Forall2 (fstray (28440 * u)) (leaves m) ys.
Proof.
  intros HL W Hd Hx (vs & -> & Hv) L1 L2 L3. pose proof u_pos as U. assert (U1 : u <= 1 / 10 ^ 15) by (rewrite u_val; lra). cbn [pow] in U1.
  destruct (tree_force_go L m d xs o1 W ltac:(lra) Hx L1) as (Hl & z & Hz).
  destruct (tree_force64 L m xs o1 z W (fstray_pieces _ _ _ W Hx) Hl L1 Hz) as (zs & -> & Fz & _).
  destruct (cut_gen DT m o2 W L2) as (o2s & -> & P2). destruct (cut_gen DR m o3 W L3) as (o3s & -> & P3).
  assert (Pv : pieces DT (leaves m) vs) by (clear - Hv; induction Hv; constructor; tauto).
  assert (Dz : Forall2 (defect64 (27200 * u)) (leaves m) zs) by (clear - Fz; induction Fz; constructor; auto using stray_defect).
  destruct (proj_tree L m zs vs o2s (27200 * u) W ltac:(lra) Dz Pv P2) as (ts & Et & Pt & Pr & Ok1).
  assert (HT : Forall2 (tame 500) (leaves m) vs).
  { pose proof (fun s => leaf_inv_gen m s W) as G. clear - Hv G. induction Hv as [|s w ls ws [_ H] Hv IH]; constructor; [|apply IH; intros; apply G; simpl; auto].
    destruct (G s) as (h & l & a & b & -> & _); [simpl; auto|]. destruct l; cbn [tame]; auto. }
  destruct (Ok1 500 ltac:(lra)) as [T Mi]; auto; [rewrite u_val; cbn [pow]; lra|].
  destruct (retr_tree L m zs vs ts o3s (27200 * u) W (fstray_pieces _ _ _ W Fz) P3 Pt Pr T Hv) as (y & Ey).
  destruct (tree_step64 L HL m (27200 * u) zs ts (concat o3s) y W ltac:(lra) Fz Pt Mi L3 Ey) as (ys & -> & Fy & _).
  exists (concat zs), (concat ts), ys. repeat split; auto. replace (28440 * u) with (27200 * u + 1240 * u) by ring. exact Fy.
Qed.

(** The loop never stops on an assertion, on any tree and for any number of steps, ... *)
Theorem C64_never_stops : forall L (m : mfd f64) x vs d, accurate L -> built m -> 0 <= d <= 1 / 6000 -> defect64M d m x -> Forall (request m) vs -> exists w, guided L m x vs w.
Proof.
  intros L m x vs d HL B D0 (xs & -> & Hx) Hv. apply built_wf in B. pose proof u_pos as U. assert (U1 : u <= 1 / 10 ^ 15) by (rewrite u_val; lra). cbn [pow] in U1.
  assert (Hs : Forall2 (fstray (3 * d)) (leaves m) xs) by (clear - Hx D0; induction Hx; constructor; auto; apply defect_stray; auto; lra). assert (E0 : 0 <= 3 * d <= 1 / 2000) by lra.
  clear Hx D0. generalize dependent (3 * d). intros e Hx D0. clear d. revert e xs Hx D0. induction Hv as [|v vs Hw Hv IH]; intros e xs Hx D0; [eexists; constructor|].
  set (o2 := repeat (of_Z 0) (tangentDim m)). assert (Lx : length (concat xs) = representationDim m) by (apply (pieces_total DR m xs B), (fstray_pieces _ _ _ B Hx)).
  destruct (guided_step L m e xs v (concat xs) o2 (concat xs) HL B D0 Hx Hw Lx ltac:(apply repeat_length) Lx) as (z & t & ys & E1 & E2 & E3 & F).
  destruct (IH (28440 * u) ys F ltac:(lra)) as (w & Hk). exists w. eapply guided_cons; [exact Lx| |exact Lx|exact E1|exact E2|exact E3|exact Hk]. apply repeat_length.
Qed.
Print Assumptions C64_never_stops.
(** ... and every run of it, whatever the buffers, ends within 28440 * 2^-53 of the manifold, at a point isInM accepts. *)
Theorem C64_forever : forall L (m : mfd f64) x vs w d, accurate L -> built m -> 0 <= d <= 1 / 6000 -> defect64M d m x -> Forall (request m) vs -> vs <> [] -> guided L m x vs w ->
  defect64M (28440 * / 2 ^ 53) m w /\ (forall prec, isf prec -> 995 / 10 ^ 11 <= val prec -> isInM (SK:=F64 L) m w prec = Ok true).
Proof.
  intros L m x vs w d HL B D0 (xs & -> & Hx) Hv NE K. apply built_wf in B. rewrite upow. pose proof u_pos as U. assert (U1 : u <= 12 / 10 ^ 17) by (rewrite u_val; lra). cbn [pow] in U1.
  assert (Hs : Forall2 (fstray (3 * d)) (leaves m) xs) by (clear - Hx D0; induction Hx; constructor; auto; apply defect_stray; auto; lra). assert (E0 : 0 <= 3 * d <= 1 / 2000) by lra.
  clear Hx D0. generalize dependent (3 * d). intros e Hx D0. clear d.
  assert (R : exists ys, w = concat ys /\ Forall2 (fstray (28440 * u)) (leaves m) ys).
  { remember (concat xs) as x eqn:Ex. revert e xs Ex Hx D0 Hv NE. induction K as [x|x v vs o1 o2 o3 z t y w L1 L2 L3 H1 H2 H3 K IH]; intros e xs Ex Hx D0 Hv NE; [congruence|]. subst x.
    inversion Hv as [|? ? Hv1 Hv2]; subst. destruct (guided_step L m e xs v o1 o2 o3 HL B D0 Hx Hv1 L1 L2 L3) as (z' & t' & ys & E1 & E2 & E3 & F).
    rewrite H1 in E1. assert (z' = z) by congruence. subst z'. rewrite H2 in E2. assert (t' = t) by congruence. subst t'. rewrite H3 in E3. assert (y = concat ys) by congruence. subst y.
    destruct vs as [|v' vs]; [inversion K; subst; eauto|]. apply (IH (28440 * u) ys eq_refl F); auto; [lra|discriminate]. }
  destruct R as (ys & -> & Fy). split.
  - exists ys. split; auto. clear - Fy. induction Fy; constructor; auto using stray_defect.
  - intros prec Fp Hp. apply (isInM64 L m (28440 * u)); auto. cbn [pow] in *. lra.
Qed.
Print Assumptions C64_forever.

(** The bound on the size is needed: at (3/5, 4/5, 0), rounded, the projection of (1e9, 1, 0) is refused by the
    tangent test, and so by retractation, although x is accepted by isInM and the projection is what forceOnTxM returns. *)
Theorem C64_large_refuted : forall L0, let L := in_order L0 in exists (m : mfd f64) x v w, built m /\ Forall isf x /\ Forall isf v /\ isInM (SK:=F64 L) m x (default_prec (SK:=F64 L)) = Ok true /\
  forceOnTxM (SK:=F64 L) m v v x = Ok w /\ Forall isf w /\ isInTxM (SK:=F64 L) m x w (default_prec (SK:=F64 L)) = Ok false /\ retractation (SK:=F64 L) m x x w = Fail EAssert.
Proof.
  intros L0 L. pose (x := [klit (Scalar:=F64 L) 3 5; klit (Scalar:=F64 L) 4 5; of_Z 0]). pose (v := fi [1000000000; 1; 0]%Z).
  pose (w := vsub (SK:=F64 L) v (vscale (SK:=F64 L) (dot (SK:=F64 L) x v) x)).
  exists (fS2 L), x, v, w. split; [apply (fS2_built L)|]. split; [repeat (constructor; [vm_compute; reflexivity|]); constructor|]. split; [repeat (constructor; [vm_compute; reflexivity|]); constructor|].
  split; [vm_compute; reflexivity|]. split; [reflexivity|]. split; [repeat (constructor; [vm_compute; reflexivity|]); constructor|]. split; vm_compute; reflexivity.
Qed.
Print Assumptions C64_large_refuted.

(** ** Example *)
(** R^2 x S2 and a request that is not tangent: k steps, any k. *)
Section Ex.
Variable L : libm.
#[local] Instance SKp : Scalar f64 := F64 L.
Definition fU : mfd f64 := get prod_empty (prod2 (get prod_empty (prod2 (fR2 L) (fS2 L))) (fQ L)).
Lemma fU_built : built fU.
Proof.
  apply (prod2_built64 (get prod_empty (prod2 (fR2 L) (fS2 L))) (fQ L)); [|apply (built_so3 MapQuat [kpi; kpi; kpi]); reflexivity|reflexivity].
  apply (prod2_built64 (fR2 L) (fS2 L)); [apply (built_real_mag 2 k1); reflexivity|apply (fS2_built L)|reflexivity].
Qed.
End Ex.
Example C64_example : forall k, exists w, guided libm_exact (fU libm_exact) (fi [3; 4; 0; 0; 1; 0; 0; 1; 0]%Z) (repeat (fi [1; -1; 5; 6; 7; 2; 0; 0]%Z) (S k)) w /\ defect64M (28440 * / 2 ^ 53) (fU libm_exact) w.
Proof.
  intros k. pose proof (fU_built libm_exact) as B.
  destruct (vals_fi [0; 0; 1]%Z) as [Fx Vx]; [repeat constructor; lia|]. destruct (vals_fi [0; 0; 1; 0]%Z) as [Fq Vq]; [repeat constructor; lia|].
  destruct (vals_fi [5; 6; 7]%Z) as [Fv Vv]; [repeat constructor; lia|]. destruct (vals_fi [2; 0; 0]%Z) as [Fw Vw]; [repeat constructor; lia|].
  assert (X : defect64M 0 (fU libm_exact) (fi [3; 4; 0; 0; 1; 0; 0; 1; 0]%Z)).
  { exists [fi [3; 4]%Z; fi [0; 0; 1]%Z; fi [0; 0; 1; 0]%Z]. split; [reflexivity|].
    apply Forall2_cons; [reflexivity|]. apply Forall2_cons; [|apply Forall2_cons; [|apply Forall2_nil]].
    - split; [reflexivity|split; [exact Fx|]]. rewrite Vx. cbn [map rdot]. apply Rabs_le. lra.
    - split; [exact Fq|]. exists (Q4 0 0 1 0). split; [exact Vq|]. unfold qn2. cbn [qw qx qy qz]. apply Rabs_le. lra. }
  assert (V : Forall (request (fU libm_exact)) (repeat (fi [1; -1; 5; 6; 7; 2; 0; 0]%Z) (S k))).
  { apply Forall_forall. intros v Hv. apply repeat_spec in Hv. subst v. exists [fi [1; -1]%Z; fi [5; 6; 7]%Z; fi [2; 0; 0]%Z]. split; [reflexivity|].
    apply Forall2_cons; [split; [reflexivity|exact I]|]. apply Forall2_cons; [|apply Forall2_cons; [|apply Forall2_nil]]; (split; [reflexivity|]).
    - assert (G : Forall (fun r => Rabs r <= 500) (vals (fi [5; 6; 7]%Z))). { rewrite Vv. cbn [map]. repeat (constructor; [apply Rabs_le; lra|]). constructor. }
      apply Forall_map in G. rewrite Forall_forall in *. auto.
    - split; [exact Fw|]. rewrite Vw. cbn [map]. assert (N : forall a, 0 <= a -> rnorm [a; 0; 0] = a). { intros a H. unfold rnorm. replace (rdot _ _) with (a * a) by (simpl; ring). apply sqrt_square. auto. } rewrite N; lra. }
  destruct (C64_never_stops libm_exact (fU libm_exact) _ _ 0 libm_exact_ok B ltac:(lra) X V) as [w Hw]. exists w. split; auto.
  apply (C64_forever libm_exact (fU libm_exact) _ _ w 0 libm_exact_ok B ltac:(lra) X V); auto. discriminate.
Qed.
