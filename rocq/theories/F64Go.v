(** When the double computations do not stop; a library meeting the accuracy hypothesis. *)
From Coq Require Import Reals List Lra Lia ZArith Bool Arith Psatz Permutation.
From Flocq Require Import Core BinarySingleNaN.
From Verif Require Import Base Scalar Vec Model_Real Model_S2 Model_SO3 Model_Manifold Spec Layout Comp Indep Flat Points
  XR SpecR RotR NumVec NumTree Drift F64 F64Err F64Norm F64S2 F64Exp F64Quat F64Mat F64Mat2 F64Tree.
Import ListNotations.
Local Open Scope R_scope.

Lemma rnd_pos x : 0 <= x -> 0 <= rnd x.
Proof.
  intros H. unfold rnd. apply round_ge_generic; [apply (FLT_exp_valid (-1074) 53)|apply valid_rnd_N|apply generic_format_0|exact H].
Qed.
Lemma sums_pos l s : sums l s -> isf s -> Forall (fun a => isf a -> 0 <= val a) l -> 0 <= val s.
Proof.
  induction 1 as [a|l1 l2 l a b H1 I1 H2 I2 P]; intros F A.
  - inversion A; subst; auto.
  - pose proof (Permutation_Forall (Permutation_sym P) A) as A'. apply Forall_app in A' as [A1 A2]. apply add_fin in F as (Fa & Fb & V). rewrite V.
    apply rnd_pos, Rplus_le_le_0_compat; auto.
Qed.
Lemma sq_pos a : isf (a *! a) -> 0 <= val (a *! a).
Proof. intros F. apply mul_fin in F as (_ & _ & V). rewrite V. apply rnd_pos. nra. Qed.
Lemma nsq_pos L a b c : isf (nsq L a b c) -> 0 <= val (nsq L a b c).
Proof.
  unfold nsq. intros F. apply (sums_pos [a *! a; b *! b; c *! c]); auto; [apply f_sum_ok; discriminate|].
  repeat (apply Forall_cons; [apply sq_pos|]). apply Forall_nil.
Qed.
Lemma lt_pi_ok L a b c : isf a -> isf b -> isf c -> sqrt (sq3 (val a) (val b) (val c)) <= 314 / 100 -> Bltb (Bsqrt mode_NE (nsq L a b c)) f64_pi = true.
Proof.
  intros Fa Fb Fc H. set (N := sq3 (val a) (val b) (val c)) in *. set (t := sqrt N) in *. assert (N0 : 0 <= N) by (unfold N, sq3; nra).
  assert (TT : t * t = N) by (apply sqrt_sqrt; auto). assert (t0 : 0 <= t) by apply sqrt_pos. assert (N1 : N <= 10) by nra.
  pose proof B400_900 as B9. pose proof B400_1 as B4. assert (B10 : 10 <= B900). { apply Rle_trans with (bpow radix2 4); [cbn; lra|apply bpow_le; lia]. }
  destruct pi_ok as [FP VP]. pose proof u_pos as U. assert (U1 : u <= 1 / 10 ^ 15) by (rewrite u_val; lra).
  destruct (Rle_dec (1 / 16) N) as [G|G].
  - destruct (norm3_err L a b c Fa Fb Fc) as [F E]; [fold N; lra|]. fold N t in E. fold (nsq L a b c) in F, E. apply Rabs_ends in E.
    rewrite f_ltb by auto. apply Rlt_bool_true. rewrite VP. assert (u * t <= 1 / 10 ^ 15 * 4) by (apply Rmult_le_compat; lra). cbn [pow] in *. lra.
  - pose proof (dot3_fin L a b c Fa Fb Fc ltac:(fold N; lra)) as F. fold (nsq L a b c) in F. pose proof (nsq_pos L a b c F) as P.
    destruct (dot3_err L a b c F) as (_ & _ & _ & E). cbv zeta in E. fold N in E. fold (nsq L a b c) in E. apply Rabs_ends in E.
    destruct (f_sqrt _ F P) as [FS VS]. pose proof (rnd_err (sqrt (val (nsq L a b c)))) as ER. rewrite <- VS in ER.
    pose proof eta_u. assert (u * N <= 1 / 10 ^ 15 * (1 / 16)) by (apply Rmult_le_compat; lra).
    assert (Q : val (nsq L a b c) <= 1) by (cbn [pow] in *; lra).
    assert (SQ : sqrt (val (nsq L a b c)) <= 1). { rewrite <- sqrt_1. apply sqrt_le_1_alt. lra. } pose proof (sqrt_pos (val (nsq L a b c))) as SP.
    rewrite (Rabs_pos_eq (sqrt _)) in ER by auto. apply Rabs_ends in ER.
    assert (u * sqrt (val (nsq L a b c)) <= 1 / 10 ^ 15 * 1) by (apply Rmult_le_compat; lra).
    rewrite f_ltb by auto. apply Rlt_bool_true. rewrite VP. cbn [pow] in *. lra.
Qed.

(** Rotation parts finite and shorter than 3.14. *)
Definition short (s : mfd f64) (v : list f64) : Prop :=
  match s with Leaf _ (LSO3 _) _ _ => Forall isf v /\ rnorm (vals v) <= 314 / 100 | Leaf _ LS2 _ _ => False | _ => True end.
Section Go.
Variable L : libm.
#[local] Instance SKg : Scalar f64 := F64 L.
Lemma leaf_go h l a b x v o : let s := Leaf h l a b in leaf_wf h l a b -> length x = representationDim s -> length v = tangentDim s -> length o = representationDim s ->
  short s v -> exists y, retractation s o x v = Ok y.
Proof.
  intros s W Lx Lv Lo Hs. unfold s in *. cbn [retractation]. rewrite Lo, Lx, Lv, !Nat.eqb_refl. cbn [mnf_assert bind].
  assert (HT : l <> LS2 -> isInTxM (Leaf h l a b) x v default_prec = Ok true). { intros H. cbn [isInTxM]. rewrite Lx, Lv, !Nat.eqb_refl. cbn [mnf_assert bind]. destruct l; congruence. }
  assert (EN : forall v0 v1 v2, rnorm (vals [v0; v1; v2]) = sqrt (sq3 (val v0) (val v1) (val v2))) by (intros; unfold rnorm, sq3; cbn [map rdot]; f_equal; ring).
  destruct l as [| |mp]; cbn [short] in *; [|tauto|]; rewrite HT by discriminate; cbn [mnf_assert bind]; unfold leaf_wf, representationDim, tangentDim in *; cbn [hdr_of] in *.
  - unfold real_retractation, same_size. replace (length x =? length v)%nat with true by (symmetry; apply Nat.eqb_eq; lia). cbn [bind].
    pose proof (vadd_spec L x v ltac:(lia)) as VS. assert (LV : length (vadd x v) = length x) by (assert (Q : forall P x v z, Forall3 (A:=f64) (B:=f64) (C:=f64) P x v z -> length z = length x) by (induction 1; cbn [List.length]; auto); exact (Q _ _ _ _ VS)).
    unfold assign. rewrite LV. replace (length o =? length x)%nat with true by (symmetry; apply Nat.eqb_eq; lia). eexists. reflexivity.
  - destruct (vec3 v) as (v0 & v1 & v2 & ->); [lia|]. destruct Hs as [Fv Nv]. rewrite EN in Nv.
    inversion Fv as [|? ? G0 Fv1]; subst. inversion Fv1 as [|? ? G1 Fv2]; subst. inversion Fv2 as [|? ? G2 _]; subst.
    pose proof (lt_pi_ok L v0 v1 v2 G0 G1 G2 Nv) as P. destruct W as (W1 & W2 & W3 & _). rewrite W3 in *.
    destruct mp.
    + destruct x as [|x0 [|x1 [|x2 [|x3 [|x4 [|x5 [|x6 [|x7 [|x8 [|]]]]]]]]]]; try discriminate Lx. destruct o as [|o0 [|o1 [|o2 [|o3 [|o4 [|o5 [|o6 [|o7 [|o8 [|]]]]]]]]]]; try discriminate Lo.
      unfold em_retractation, em_exponential. change (ksqrt (sqnorm [v0; v1; v2]) <? kpi)%k with (Bltb (Bsqrt mode_NE (nsq L v0 v1 v2)) f64_pi). rewrite P. cbn [mnf_assert bind].
      destruct (_ <? _)%k; eexists; unfold m3_read, m3_to_list; cbn [raw_read raw_write List.length Nat.leb ub_unless bind firstn skipn List.app]; reflexivity.
    + destruct x as [|x0 [|x1 [|x2 [|x3 [|]]]]]; try discriminate Lx. destruct o as [|o0 [|o1 [|o2 [|o3 [|]]]]]; try discriminate Lo.
      unfold eq_retractation, eq_retractation_at, eq_exponential. change (ksqrt (sqnorm [v0; v1; v2]) <? kpi)%k with (Bltb (Bsqrt mode_NE (nsq L v0 v1 v2)) f64_pi). rewrite P. cbn [mnf_assert bind].
      destruct (_ <? _)%k; eexists; unfold quat_read, quat_write, quat_to_list; cbn [raw_read raw_write List.length Nat.leb ub_unless bind firstn skipn List.app]; reflexivity.
Qed.
Lemma tree_go (m : mfd f64) xs vs outs : wf m -> pieces DR (leaves m) xs -> pieces DT (leaves m) vs -> pieces DR (leaves m) outs -> Forall2 short (leaves m) vs ->
  exists ys, retractation m (concat outs) (concat xs) (concat vs) = Ok (concat ys) /\ Forall5 (fun s o x v y => retractation s o x v = Ok y) (leaves m) outs xs vs ys.
Proof.
  intros W Px Pv Po Hs. pose proof (fun s => leaf_inv_gen m s W) as G.
  assert (F : exists ys, Forall5 (fun s o x v y => retractation s o x v = Ok y) (leaves m) outs xs vs ys).
  { clear W. revert outs xs vs Px Pv Po Hs G. generalize (leaves m) as ls.
    induction ls as [|s ls IH]; intros outs xs vs Px Pv Po Hs G.
    - inversion Px; inversion Pv; inversion Po; subst. exists []. constructor.
    - inversion Px as [|? x ? xs' Lx Px']; subst. inversion Pv as [|? v ? vs' Lv Pv']; subst. inversion Po as [|? o ? os' Lo Po']; subst. inversion Hs as [|? ? ? ? Hs1 Hs2]; subst.
      destruct (IH os' xs' vs') as (ys & F); auto. { intros; apply G; simpl; auto. }
      destruct (G s) as (h & l & a & b & -> & Wl); [simpl; auto|]. destruct (leaf_go h l a b x v o Wl Lx Lv Lo Hs1) as (y' & Hy). exists (y' :: ys). constructor; auto. }
  destruct F as (ys & F). exists ys. split; auto. apply (flat_op DR DR DT retractation retractation_prod m W); auto. exists ys. auto.
Qed.
End Go.

(** ** A library within half an ulp *)
Definition of_R (r : R) : f64 := binary_normalize 53 1024 _ _ mode_NE (Znearest (fun x => negb (Z.even x)) (scaled_mantissa radix2 (FLT_exp (-1074) 53) r)) (cexp radix2 (FLT_exp (-1074) 53) r) false.
Lemma of_R_ok r : Rabs r <= big -> isf (of_R r) /\ val (of_R r) = rnd r.
Proof.
  intros H. unfold of_R. pose proof (binary_normalize_correct 53 1024 _ _ mode_NE (Znearest (fun x => negb (Z.even x)) (scaled_mantissa radix2 (FLT_exp (-1074) 53) r)) (cexp radix2 (FLT_exp (-1074) 53) r) false) as C. cbv zeta in C.
  change (F2R _) with (rnd r) in C. change (SpecFloat.fexp 53 1024) with (FLT_exp (-1074) 53) in C.
  rewrite round_generic in C; [|auto with typeclass_instances|apply generic_format_round; auto with typeclass_instances; apply (FLT_exp_valid (-1074) 53)].
  rewrite Rlt_bool_true in C by (apply rnd_small, H). destruct C as (C1 & C2 & _). split; auto.
Qed.
Definition libm_exact : libm := Libm (fun a => of_R (cos (val a))) (fun a => of_R (sin (val a))) (fun a => of_R (acos (val a))) (fun a b => of_R (Ratan2 (val a) (val b))) left_to_right left_to_right_sums.
Lemma libm_exact_ok : accurate libm_exact.
Proof.
  intros a Fa Ha. cbn [f_cos f_sin libm_exact]. pose proof big_1. pose proof u_pos. pose proof eta_u. pose proof (COS_bound (val a)). pose proof (SIN_bound (val a)). pose proof (sin_abs (val a)) as SA.
  assert (CA : Rabs (cos (val a)) <= 1) by (apply Rabs_le; lra). assert (SB : Rabs (sin (val a)) <= 1) by (apply Rabs_le; lra).
  destruct (of_R_ok (cos (val a))) as [Fc Vc]; [lra|]. destruct (of_R_ok (sin (val a))) as [Fs Vs]; [lra|].
  split; [exact Fc|]. split; [rewrite Vc|split; [exact Fs|rewrite Vs]].
  - eapply Rle_trans; [apply rnd_err|]. assert (u * Rabs (cos (val a)) <= u * 1) by (apply Rmult_le_compat_l; lra). lra.
  - eapply Rle_trans; [apply rnd_err|]. assert (u * Rabs (sin (val a)) <= u * Rabs (val a)) by (apply Rmult_le_compat_l; lra). pose proof (Rabs_pos (val a)). assert (0 <= u * Rabs (val a)) by (apply Rmult_le_pos; lra). lra.
Qed.
