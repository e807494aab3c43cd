(** C77: moving by the zero vector, in doubles, leaves every coordinate as it is. *)
From Coq Require Import Reals List Lra Lia ZArith Bool Arith Permutation.
From Flocq Require Import Core BinarySingleNaN.
From Verif Require Import Base Scalar Vec Model_Real Model_S2 Model_SO3 Model_Manifold Spec Layout Comp Flat
  F64 F64Err F64Norm F64Exp F64Mat F64Tree F64Go ExScalar Properties_Float Properties_Anti.
From Verif Require Import F64Sign Properties_Cover.
Import ListNotations.
Local Open Scope R_scope.

(** A zero of any sign; the same coordinates, zeros of any sign being the same. *)
Definition nil64 (a : f64) : Prop := exists s, a = B754_zero s.
Definition unmoved : list f64 -> list f64 -> Prop := Forall2 (sg false).

Lemma add_nil (a b : f64) : nil64 b -> sg false a (a +! b).
Proof. intros [s ->]. destruct a as [t|t| |t ? ? ?]; [right|left; reflexivity..]. destruct s, t; cbn; eauto. Qed.
Lemma nil_add (a b : f64) : nil64 b -> sg false a (b +! a).
Proof. rewrite add_comm64. apply add_nil. Qed.
Lemma nil_sg a b : nil64 a -> sg false a b -> nil64 b.
Proof. intros [s ->] [->|(p & q & E & ->)]; [exists s; reflexivity|exists q; reflexivity]. Qed.
Lemma sg_ft a b c : sg false a b -> sg false b c -> sg false a c.
Proof. intros H G. exact (sg_trans false false a b c H G). Qed.
Lemma sums_nil l s : sums l s -> Forall nil64 l -> nil64 s.
Proof.
  induction 1 as [a|l1 l2 l a b H1 IH1 H2 IH2 P]; intros F; [inversion F; auto|].
  apply (Permutation_Forall (Permutation_sym P)), Forall_app in F. destruct F as [F1 F2]. apply (nil_sg a); auto. apply add_nil; auto.
Qed.
Lemma sums_lone l s : sums l s -> forall a zs, Permutation l (a :: zs) -> Forall nil64 zs -> sg false a s.
Proof.
  induction 1 as [c|l1 l2 l c d H1 IH1 H2 IH2 P]; intros a zs Q F.
  - apply Permutation_length_1_inv in Q. inversion Q; subst. apply sg_refl.
  - assert (R := Permutation_trans P Q). assert (I : In a (l1 ++ l2)) by (apply (Permutation_in _ (Permutation_sym R)); left; reflexivity).
    apply in_app_or in I. destruct I as [I|I]; apply in_split in I; destruct I as (p & q & ->).
    + assert (Z : Permutation ((p ++ q) ++ l2) zs).
      { apply (Permutation_cons_inv (a := a)). rewrite <- R. rewrite <- !app_assoc. cbn [app]. apply Permutation_middle. }
      apply (Permutation_Forall (Permutation_sym Z)), Forall_app in F. destruct F as [F1 F2].
      apply (sg_ft a c); [apply (IH1 a (p ++ q)); auto; symmetry; apply Permutation_middle|]. apply add_nil. eapply sums_nil; eauto.
    + assert (Z : Permutation (l1 ++ p ++ q) zs).
      { apply (Permutation_cons_inv (a := a)). rewrite <- R. rewrite !app_assoc. apply Permutation_middle. }
      apply (Permutation_Forall (Permutation_sym Z)), Forall_app in F. destruct F as [F1 F2].
      apply (sg_ft a d); [apply (IH2 a (p ++ q)); auto; symmetry; apply Permutation_middle|]. apply nil_add. eapply sums_nil; eauto.
Qed.
Lemma mul_one (a b : f64) : isf a -> isf b -> val b = 1 -> Bsign b = false -> a *! b = a.
Proof.
  intros Fa Fb Vb Sb. pose proof (Bmult_correct 53 1024 _ _ mode_NE a b) as C. rewrite Vb, Rmult_1_r in C. cbn [round_mode] in C.
  rewrite round_generic in C; [|typeclasses eauto|apply generic_format_B2R]. rewrite Rlt_bool_true in C by apply abs_B2R_lt_emax. destruct C as (V & F & S).
  assert (F' : is_finite (a *! b) = true) by (rewrite F; unfold isf in *; rewrite Fa, Fb; reflexivity).
  apply B2R_Bsign_inj; auto. rewrite S by (destruct (a *! b); auto; discriminate F'). rewrite Sb. apply xorb_false_r.
Qed.
Lemma mul_nil (a b : f64) : isf a -> nil64 b -> nil64 (a *! b).
Proof. intros Fa [s ->]. destruct a as [t|t| |t ? ? ?]; try discriminate Fa; cbn; unfold nil64; eauto. Qed.
Lemma opp_nil (a : f64) : nil64 a -> nil64 (Bopp a).
Proof. intros [s ->]. cbn. unfold nil64. eauto. Qed.

(** [one a]: exactly one.  [settled]: on a sphere, the norm of the point, as computed, is one. *)
Definition one (a : f64) : Prop := B2SF a = B2SF (of_Z 1).
Definition settled (L : libm) (s : mfd f64) (x : list f64) : Prop := match s with Leaf _ LS2 _ _ => one (norm (SK:=F64 L) x) | _ => True end.
Lemma div_one (a b : f64) : isf a -> one b -> a /! b = a.
Proof.
  intros Fa Hb. apply B2SF_inj in Hb. subst b. destruct (of_Z_ok 1 ltac:(lia)) as [Fb Vb]. pose proof (Bdiv_correct 53 1024 _ _ mode_NE a (of_Z 1) ltac:(change (val (of_Z 1) <> 0); rewrite Vb; lra)) as C.
  change (B2R (of_Z 1)) with (val (of_Z 1)) in C. rewrite Vb in C. replace (B2R a / 1) with (B2R a) in C by field. cbn [round_mode] in C.
  rewrite round_generic in C; [|typeclasses eauto|apply generic_format_B2R]. rewrite Rlt_bool_true in C by apply abs_B2R_lt_emax. destruct C as (V & F & S).
  assert (F' : is_finite (a /! of_Z 1) = true) by (rewrite F; exact Fa).
  apply B2R_Bsign_inj; auto. rewrite S by (destruct (a /! of_Z 1); auto; discriminate F'). apply xorb_false_r.
Qed.
Lemma mul_by_one (a b : f64) : isf a -> one b -> a *! b = a.
Proof. intros Fa Hb. apply B2SF_inj in Hb. subst b. destruct (of_Z_ok 1 ltac:(lia)) as [F V]. apply mul_one; auto. Qed.

Section Still.
Context (L : libm).
Local Notation SK := (F64 L).
Lemma sqs_nil (v : list f64) : v <> [] -> Forall nil64 v -> nil64 (sqnorm (SK:=SK) v).
Proof.
  intros N F. destruct v as [|a v]; [congruence|]. unfold sqnorm, dot. apply (sums_nil (map2 (kmul (Scalar:=SK)) (a :: v) (a :: v))).
  - apply f_sum_ok. discriminate.
  - clear N. induction F as [|c w [s ->] F IH]; [constructor|]. constructor; [destruct s; eexists; reflexivity|exact IH].
Qed.
Lemma sum3_lone a b c l : Permutation l [a; b; c] -> nil64 b -> nil64 c -> sg false a (f_sum L l).
Proof. intros P B C. apply (sums_lone l _) with (zs := [b; c]); auto. apply f_sum_ok. intros ->. apply Permutation_nil in P. discriminate P. Qed.
Lemma sum4_lone a b c d l : Permutation l [a; b; c; d] -> nil64 b -> nil64 c -> nil64 d -> sg false a (f_sum L l).
Proof. intros P B C D. apply (sums_lone l _) with (zs := [b; c; d]); auto. apply f_sum_ok. intros ->. apply Permutation_nil in P. discriminate P. Qed.

Lemma sum3_one a e b c l : isf a -> one e -> Permutation l [a *! e; b; c] -> nil64 b -> nil64 c -> sg false a (f_sum L l).
Proof. intros Fa O. rewrite (mul_by_one a e Fa O). apply sum3_lone. Qed.
Lemma sum4_one a e b c d l : isf a -> one e -> Permutation l [a *! e; b; c; d] -> nil64 b -> nil64 c -> nil64 d -> sg false a (f_sum L l).
Proof. intros Fa O. rewrite (mul_by_one a e Fa O). apply sum4_lone. Qed.

Lemma em_exp_nil v : length v = 3%nat -> Forall nil64 v -> exists E, em_exponential (SK:=SK) v = Ok E /\
  one (a00 E) /\ nil64 (a01 E) /\ nil64 (a02 E) /\ nil64 (a10 E) /\ one (a11 E) /\ nil64 (a12 E) /\ nil64 (a20 E) /\ nil64 (a21 E) /\ one (a22 E).
Proof.
  intros Lv F. destruct v as [|v0 [|v1 [|v2 [|]]]]; try discriminate Lv. pose proof (sqs_nil [v0; v1; v2] ltac:(discriminate) F) as N. unfold em_exponential. set (n := sqnorm (SK:=SK) [v0; v1; v2]) in *. destruct N as [s N].
  rewrite N. clearbody n. clear n N. inversion F as [|? ? [s0 ->] F1]; subst. inversion F1 as [|? ? [s1 ->] F2]; subst. inversion F2 as [|? ? [s2 ->] F3]; subst. clear F F1 F2 F3 Lv.
  assert (C1 : kltb (Scalar:=SK) (ksqrt (Scalar:=SK) (B754_zero s)) (kpi (Scalar:=SK)) = true) by (destruct s; vm_compute; reflexivity).
  assert (C2 : kltb (Scalar:=SK) (B754_zero s) (map_prec (SK:=SK)) = true) by (destruct s; vm_compute; reflexivity).
  rewrite C1, C2. cbn [mnf_assert bind]. eexists. split; [reflexivity|]. cbn [a00 a01 a02 a10 a11 a12 a20 a21 a22]. unfold one, nil64.
  destruct s, s0, s1, s2; repeat split; vm_compute; try reflexivity; eexists; reflexivity.
Qed.
Lemma eq_exp_nil q v : length v = 3%nat -> Forall nil64 v -> exists e, eq_exponential (SK:=SK) q v = Ok e /\ one (qw e) /\ nil64 (qx e) /\ nil64 (qy e) /\ nil64 (qz e).
Proof.
  intros Lv F. destruct v as [|v0 [|v1 [|v2 [|]]]]; try discriminate Lv. pose proof (sqs_nil [v0; v1; v2] ltac:(discriminate) F) as N. unfold eq_exponential. set (n := sqnorm (SK:=SK) [v0; v1; v2]) in *. destruct N as [s N].
  rewrite N. clearbody n. clear n N. inversion F as [|? ? [s0 ->] F1]; subst. inversion F1 as [|? ? [s1 ->] F2]; subst. inversion F2 as [|? ? [s2 ->] F3]; subst. clear F F1 F2 F3 Lv.
  assert (C1 : kltb (Scalar:=SK) (ksqrt (Scalar:=SK) (B754_zero s)) (kpi (Scalar:=SK)) = true) by (destruct s; vm_compute; reflexivity).
  assert (C2 : kltb (Scalar:=SK) (B754_zero s) (map_prec (SK:=SK)) = true) by (destruct s; vm_compute; reflexivity).
  rewrite C1, C2. cbn [mnf_assert bind]. eexists. split; [reflexivity|]. cbn [qw qx qy qz]. unfold one, nil64.
  destruct s, s0, s1, s2; repeat split; vm_compute; try reflexivity; eexists; reflexivity.
Qed.

Ltac lone := first [apply mul_nil; assumption | apply opp_nil, mul_nil; assumption].
Lemma still_leaf h l a b x v o : let s := Leaf h l a b in leaf_wf h l a b -> settled L s x -> length x = representationDim s -> length v = tangentDim s -> length o = representationDim s ->
  Forall isf x -> Forall nil64 v -> exists r, retractation (SK:=SK) s o x v = Ok r /\ unmoved x r.
Proof.
  intros s W S Lx Lv Lo Fx Fv. unfold s in *.
  assert (Q : retractation (SK:=SK) (Leaf h l a b) o x v = match l with LReal => real_retractation (SK:=SK) o x v | LS2 => s2_retractation (SK:=SK) o x v | LSO3 MapMatrix => em_retractation (SK:=SK) o x v | LSO3 MapQuat => eq_retractation (SK:=SK) o x v end).
  { destruct l as [| |[|]]; cbn [retractation isInTxM]; rewrite Lx, Lv, Lo, !Nat.eqb_refl; try reflexivity. cbn [mnf_assert bind].
    assert (T : s2_isInTxM (SK:=SK) x v (default_prec (SK:=SK)) = true); [|rewrite T; reflexivity]. unfold s2_isInTxM.
    assert (N : nil64 (dot (SK:=SK) x v)).
    { unfold representationDim, tangentDim in *. cbn [hdr_of] in *. unfold leaf_wf in W. assert (L3 : length x = 3%nat) by lia. assert (M3 : length v = 3%nat) by lia. destruct x as [|x0 [|x1 [|x2 [|]]]]; try discriminate L3. destruct v as [|v0 [|v1 [|v2 [|]]]]; try discriminate M3.
      repeat match goal with H : Forall _ (_ :: _) |- _ => inversion H; subst; clear H end. unfold dot. cbn [map2 ksum kmul F64]. apply (sums_nil [x0 *! v0; x1 *! v1; x2 *! v2]); [apply f_sum_ok; discriminate|].
      repeat (apply Forall_cons; [apply mul_nil; assumption|]). apply Forall_nil. }
    destruct N as [z ->]. destruct z; vm_compute; reflexivity. }
  rewrite Q. clear Q. unfold representationDim, tangentDim in *. cbn [hdr_of] in *. destruct l as [| |[|]]; unfold leaf_wf in W.
  - unfold real_retractation, same_size. assert (LL : length x = length v) by lia. replace (length x =? length v)%nat with true by (symmetry; apply Nat.eqb_eq; exact LL). cbn [eigen_assert bind].
    assert (LV : length (vadd (SK:=SK) x v) = length x) by (clear - LL; revert v LL; induction x as [|c x IH]; intros [|d v] E; try discriminate E; [reflexivity|cbn; f_equal; apply IH; cbn in E; lia]).
    unfold assign. rewrite LV. replace (length o =? length x)%nat with true by (symmetry; apply Nat.eqb_eq; lia). cbn [eigen_assert bind]. eexists. split; [reflexivity|].
    clear - LL Fv. revert x LL. induction Fv as [|d v Hd Fv IH]; intros [|c x] E; try discriminate E; [constructor|]. change (unmoved (c :: x) ((c +! d) :: vadd (SK:=SK) x v)).
    constructor; [apply add_nil; exact Hd|apply IH; cbn in E; lia].
  - assert (L3 : length x = 3%nat) by lia. assert (O3 : length o = 3%nat) by lia. assert (M3 : length v = 3%nat) by lia. cbn [settled] in S.
    unfold s2_retractation, same_size. rewrite L3, M3. cbn [Nat.eqb eigen_assert bind].
    destruct x as [|x0 [|x1 [|x2 [|]]]]; try discriminate L3. destruct v as [|v0 [|v1 [|v2 [|]]]]; try discriminate M3. destruct o as [|p0 [|p1 [|p2 [|]]]]; try discriminate O3.
    repeat match goal with H : Forall _ (_ :: _) |- _ => inversion H; subst; clear H end.
    change (vadd (SK:=SK) [x0; x1; x2] [v0; v1; v2]) with [x0 +! v0; x1 +! v1; x2 +! v2].
    assert (U : Forall2 (sg false) [x0; x1; x2] [x0 +! v0; x1 +! v1; x2 +! v2]) by (repeat (apply Forall2_cons; [apply add_nil; assumption|]); apply Forall2_nil).
    assert (N : one (norm (SK:=SK) [x0 +! v0; x1 +! v1; x2 +! v2])) by (unfold norm in *; rewrite (sqnorm_sg L false _ _ U); exact S).
    eexists. split; [reflexivity|]. set (n := norm (SK:=SK) [x0 +! v0; x1 +! v1; x2 +! v2]) in *. change (unmoved [x0; x1; x2] [(x0 +! v0) /! n; (x1 +! v1) /! n; (x2 +! v2) /! n]).
    assert (FF : forall c d, isf c -> nil64 d -> isf (c +! d)) by (intros c d Fc Hd; destruct (add_nil c d Hd) as [->|(p & q & _ & ->)]; [exact Fc|reflexivity]).
    unfold unmoved. repeat (apply Forall2_cons; [rewrite div_one by auto; apply add_nil; assumption|]). apply Forall2_nil.
  - assert (L9 : length x = 9%nat) by lia. assert (O9 : length o = 9%nat) by lia. assert (V3 : length v = 3%nat) by lia.
    destruct (em_exp_nil v V3 Fv) as (E & E0 & H0 & H1 & H2 & H3 & H4 & H5 & H6 & H7 & H8). unfold em_retractation. rewrite E0. cbn [bind].
    destruct x as [|x0 [|x1 [|x2 [|x3 [|x4 [|x5 [|x6 [|x7 [|x8 [|]]]]]]]]]]; try discriminate L9. destruct o as [|p0 [|p1 [|p2 [|p3 [|p4 [|p5 [|p6 [|p7 [|p8 [|]]]]]]]]]]; try discriminate O9.
    repeat match goal with H : Forall isf (_ :: _) |- _ => inversion H; subst; clear H end.
    eexists. split; [reflexivity|]. unfold m3_mul, s3, m3_to_list. cbn [a00 a01 a02 a10 a11 a12 a20 a21 a22 ksum kmul F64].
    assert (P1 : forall c d e : f64, Permutation [c; d; e] [c; d; e]) by (intros; apply Permutation_refl).
    assert (P2 : forall c d e : f64, Permutation [d; c; e] [c; d; e]) by (intros; apply perm_swap).
    assert (P3 : forall c d e : f64, Permutation [d; e; c] [c; d; e]) by (intros; apply (Permutation_app_comm [d; e] [c])).
    unfold unmoved. repeat (apply Forall2_cons; [|]); try apply Forall2_nil.
    all: first [eapply sum3_one; [| |apply P1|lone|lone]; eassumption | eapply sum3_one; [| |apply P2|lone|lone]; eassumption | eapply sum3_one; [| |apply P3|lone|lone]; eassumption].
  - assert (L4 : length x = 4%nat) by lia. assert (O4 : length o = 4%nat) by lia. assert (V3 : length v = 3%nat) by lia.
    unfold eq_retractation, eq_retractation_at. destruct (eq_exp_nil (junk_quat (SK:=SK)) v V3 Fv) as (E & E0 & H0 & H1 & H2 & H3). rewrite E0. cbn [bind].
    destruct x as [|x0 [|x1 [|x2 [|x3 [|]]]]]; try discriminate L4. destruct o as [|p0 [|p1 [|p2 [|p3 [|]]]]]; try discriminate O4.
    repeat match goal with H : Forall isf (_ :: _) |- _ => inversion H; subst; clear H end.
    eexists. split; [reflexivity|]. unfold qmul, quat_to_list. cbn [qw qx qy qz ksum kmul kopp F64].
    assert (P1 : forall c d e f : f64, Permutation [c; d; e; f] [c; d; e; f]) by (intros; apply Permutation_refl).
    assert (P2 : forall c d e f : f64, Permutation [d; c; e; f] [c; d; e; f]) by (intros; apply perm_swap).
    unfold unmoved. repeat (apply Forall2_cons; [|]); try apply Forall2_nil.
    all: first [eapply sum4_one; [| |apply P1|lone|lone|lone]; eassumption | eapply sum4_one; [| |apply P2|lone|lone|lone]; eassumption].
Qed.
End Still.


(** Every tree, any finite coordinates (on the manifold or not), any order of summation, any cosine and sine. *)
Theorem C77_still : forall (L : libm) (m : mfd f64) o xs v, built m -> pieces DR (leaves m) xs -> Forall2 (settled L) (leaves m) xs -> Forall isf (concat xs) ->
  length v = tangentDim m -> length o = representationDim m -> Forall nil64 v -> exists rs, retractation (SK:=F64 L) m o (concat xs) v = Ok (concat rs) /\ Forall2 unmoved xs rs.
Proof.
  intros L m o xs v B Px NS Fx Lv Lo Fv. pose proof (built_wf m B) as W.
  destruct (cut_gen DR m o W Lo) as (os & -> & Po). destruct (cut_gen DT m v W Lv) as (vs & -> & Pv).
  pose proof (fun s => leaf_inv_gen m s W) as G.
  assert (E : exists rs, Forall5 (fun s o x v r => retractation (SK:=F64 L) s o x v = Ok r) (leaves m) os xs vs rs /\ Forall2 unmoved xs rs).
  { clear W B Lo Lv. revert os xs vs Po Px Pv Fx Fv G NS. generalize (leaves m) as ls. induction ls as [|s ls IH]; intros os xs vs Po Px Pv Fx Fv G NS.
    - inversion Po; inversion Px; inversion Pv; subst. exists []. split; constructor.
    - inversion Po as [|? o1 ? os' Po1 Po2]; subst. inversion Px as [|? x1 ? xs' Px1 Px2]; subst. inversion Pv as [|? v1 ? vs' Pv1 Pv2]; subst. inversion NS as [|? ? ? ? N1 N2]; subst.
      cbn [concat] in Fx, Fv. apply Forall_app in Fx. apply Forall_app in Fv. destruct Fx as [Fx1 Fx2]. destruct Fv as [Fv1 Fv2].
      destruct (IH os' xs' vs') as (rs & A1 & A2); auto. { intros q0 Hq. apply G. simpl; auto. }
      destruct (G s) as (h & l & a & b & -> & Wl); [simpl; auto|].
      destruct (still_leaf L h l a b x1 v1 o1 Wl N1) as (r & E1 & E2); auto.
      exists (r :: rs). split; [constructor; auto|]. constructor; auto. }
  destruct E as (rs & A1 & A2). exists rs. split; [apply (flat_op DR DR DT retractation retractation_prod m W); eauto|exact A2].
Qed.
Lemma unmoved_fin x r : unmoved x r -> Forall isf x -> Forall isf r.
Proof. induction 1 as [|a b x r H F IH]; intros Fx; [constructor|]. inversion Fx; subst. constructor; auto. destruct H as [->|(p & q & _ & ->)]; [assumption|reflexivity]. Qed.
Lemma unmoved_trans x y z : unmoved x y -> unmoved y z -> unmoved x z.
Proof. intros H. revert z. induction H as [|a b x y H F IH]; intros z G; inversion G; subst; constructor; [eapply sg_ft; eauto|apply IH; auto]. Qed.
Lemma unmoved_refl x : unmoved x x. Proof. induction x; constructor; auto using sg_refl. Qed.
Lemma unmoved_len x r : unmoved x r -> length r = length x. Proof. induction 1; cbn; auto. Qed.
Lemma unmoved_all L ls xs rs : Forall2 unmoved xs rs -> pieces DR ls xs -> Forall2 (settled L) ls xs -> Forall isf (concat xs) -> pieces DR ls rs /\ Forall2 (settled L) ls rs /\ Forall isf (concat rs).
Proof.
  intros H. revert ls. induction H as [|x r xs rs H F IH]; intros [|s ls] P S Q; inversion P; subst; inversion S; subst; [repeat split; constructor|].
  cbn [concat] in Q. apply Forall_app in Q. destruct Q as [Q1 Q2]. destruct (IH ls) as (A & A' & A''); auto. split; [constructor; auto; rewrite (unmoved_len _ _ H); assumption|]. split.
  - constructor; auto. destruct s as [h [| |[|]] ? ?|]; cbn [settled] in *; auto. unfold norm. rewrite (sqnorm_sg L false _ _ H). assumption.
  - cbn [concat]. apply Forall_app. split; auto. eapply unmoved_fin; eauto.
Qed.

(** Any number of times. *)
Theorem C77_walk : forall (L : libm) (m : mfd f64) xs vs, built m -> pieces DR (leaves m) xs -> Forall2 (settled L) (leaves m) xs -> Forall isf (concat xs) ->
  Forall (fun v => length v = tangentDim m /\ Forall nil64 v) vs -> exists rs, increments64 L m (concat xs) vs = Ok (concat rs) /\ Forall2 unmoved xs rs.
Proof.
  intros L m xs vs B P S F Hv. revert xs P S F. induction Hv as [|v vs [Lv Fv] Hv IH]; intros xs P S F; cbn [increments64].
  - exists xs. split; [reflexivity|]. clear. induction xs; constructor; auto using unmoved_refl.
  - destruct (C77_still L m (concat xs) xs v B P S F Lv) as (ys & E & U); auto. { apply (pieces_total DR m xs (built_wf m B) P). } rewrite E. cbn [bind].
    destruct (unmoved_all L _ _ _ U P S F) as (P' & S' & F'). destruct (IH ys P' S' F') as (rs & E' & U'). exists rs. split; auto. clear - U U'. revert rs U'. induction U as [|x y xs ys H U IHU]; intros rs U'; inversion U'; subst; constructor; [eapply unmoved_trans; eauto|apply IHU; auto].
Qed.

(** On a sphere, a point whose computed norm is not one is moved: (1 + 2^-30, 0, 0), accepted by isInM, comes back as (1, 0, 0). *)
Definition s2x : list f64 := [of_Z 1073741825 /! of_Z 1073741824; of_Z 0; of_Z 0].
Theorem C77_sphere_refuted : forall L0, let L := in_order L0 in exists (m : mfd f64) (x r : list f64), built m /\ Forall isf x /\ isInM (SK:=F64 L) m x (default_prec (SK:=F64 L)) = Ok true /\
  retractation (SK:=F64 L) m x x (fi [0; 0; 0]%Z) = Ok r /\ val (nth 0 x (of_Z 0)) = 1073741825 / 1073741824 /\ val (nth 0 r (of_Z 0)) = 1.
Proof.
  intros L0 L. set (SK := F64 L).
  assert (Q : match retractation (SK:=SK) (fS2 L) s2x s2x (fi [0; 0; 0]%Z) with Ok r => map B2SF r = map B2SF (fi [1; 0; 0]%Z) | _ => False end) by (vm_compute; reflexivity).
  destruct (retractation (SK:=SK) (fS2 L) s2x s2x (fi [0; 0; 0]%Z)) as [r|] eqn:E; [|contradiction]. exists (fS2 L), s2x, r. split; [apply (fS2_built L)|]. split; [repeat constructor|].
  split; [vm_compute; reflexivity|]. split; [exact E|]. split.
  - apply (lit_format 1073741825 1073741824 (-30) 1073741825); try lia. unfold F2R. cbn. lra.
  - destruct r as [|r0 [|r1 [|r2 [|]]]]; try discriminate Q. injection Q as Q0 _ _. change (val r0 = 1). destruct (of_Z_ok 1 ltac:(lia)) as [_ V1]. rewrite <- V1. f_equal. apply B2SF_inj. exact Q0.
Qed.

(** A point of the plane, a direction, and two rotations, one far from the group: any number of zero moves. *)
Definition fV L : mfd f64 := get prod_empty (prod2 (fP L) (fS2 L)).
Example C77_example : forall (L0 : libm) (k : nat), let L := in_order L0 in let xs := [fi [3; 4]%Z; fi [7; 1; 0; -1; 0; 0; 0; 0; 1]%Z; fi [5; 0; 1; 0]%Z; fi [0; 1; 0]%Z] in
  exists rs, increments64 L (fV L) (concat xs) (repeat (fi (repeat 0%Z 11)) k) = Ok (concat rs) /\ Forall2 unmoved xs rs.
Proof.
  intros L0 k L xs. assert (LV : leaves (fV L) = [fR2 L; fM L; fQ L; fS2 L]) by reflexivity. apply C77_walk.
  - apply (prod2_built64 (fP L) (fS2 L)); [apply fP_built|apply fS2_built|reflexivity].
  - rewrite LV. repeat constructor.
  - rewrite LV. repeat (apply Forall2_cons; [exact I|]). apply Forall2_cons; [|apply Forall2_nil]. unfold settled, fS2. change (one (norm (SK:=F64 L) (fi [0; 1; 0]%Z))). unfold one. vm_compute. reflexivity.
  - repeat constructor.
  - apply Forall_forall. intros v Hv. apply repeat_spec in Hv. subst v. split; [reflexivity|]. repeat (apply Forall_cons; [exists false; reflexivity|]). apply Forall_nil.
Qed.
Print Assumptions C77_still.
Print Assumptions C77_walk.
Print Assumptions C77_sphere_refuted.
