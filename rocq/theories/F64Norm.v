(** Sums of squares, norms and normalised vectors in double arithmetic. *)
From Coq Require Import Reals List Permutation Lra Lia ZArith Bool Arith Psatz.
From Flocq Require Import Core BinarySingleNaN.
From Verif Require Import Base Scalar Vec F64 F64Err.
Import ListNotations.
Local Open Scope R_scope.

(** A finite result was not an overflow, and its arguments are finite. *)
Lemma add_fin a b : isf (Bplus mode_NE a b) -> isf a /\ isf b /\ val (Bplus mode_NE a b) = rnd (val a + val b).
Proof.
  intros H. assert (Fa : isf a). { destruct a as [s|s| |s m e Hb]; try reflexivity; exfalso; destruct b as [s'|s'| |s' m' e' Hb']; try discriminate H; cbn in H; destruct (Bool.eqb s s'); discriminate H. }
  assert (Fb : isf b). { destruct b as [s|s| |s m e Hb]; try reflexivity; exfalso; destruct a as [s'|s'| |s' m' e' Hb']; try discriminate H; discriminate Fa. }
  split; [auto|]. split; [auto|]. pose proof (Bplus_correct 53 1024 _ _ mode_NE a b Fa Fb) as C. destruct (Rlt_bool _ _).
  - apply C.
  - exfalso. destruct C as [C _]. unfold isf in H. rewrite <- is_finite_SF_B2SF, C in H. destruct (Bsign a); discriminate H.
Qed.
Lemma mul_fin a b : isf (Bmult mode_NE a b) -> isf a /\ isf b /\ val (Bmult mode_NE a b) = rnd (val a * val b).
Proof.
  intros H. pose proof (Bmult_correct 53 1024 _ _ mode_NE a b) as C. destruct (Rlt_bool _ _).
  - destruct C as (C1 & C2 & _). unfold isf in *. rewrite C2 in H. apply andb_true_iff in H. tauto.
  - exfalso. unfold isf in H. rewrite <- is_finite_SF_B2SF, C in H. destruct (xorb _ _); discriminate H.
Qed.
Lemma sqrt_fin a : isf (Bsqrt mode_NE a) -> isf a /\ 0 <= val a.
Proof.
  intros H. destruct a as [s|s| |s m e Hb]; try discriminate H.
  - split; [reflexivity|]. cbn. lra.
  - destruct s; discriminate H.
  - destruct s; [discriminate H|]. split; [reflexivity|]. cbn [B2R]. apply F2R_ge_0. cbn. lia.
Qed.

Notation "a +! b" := (Bplus mode_NE a b) (at level 50, left associativity).
Notation "a -! b" := (Bminus mode_NE a b) (at level 50, left associativity).
Notation "a *! b" := (Bmult mode_NE a b) (at level 40, left associativity).
Notation "a /! b" := (Bdiv mode_NE a b) (at level 40, left associativity).

(** Three and four squares added from left to right. *)
Lemma sq_err p A : Rabs (p - A) <= u * A + eta -> 0 <= A -> - (u * A + eta) <= p - A <= u * A + eta.
Proof. intros H _. apply Rabs_ends, H. Qed.
Lemma sqr_err a : isf (a *! a) -> isf a /\ - (u * (val a * val a) + eta) <= val (a *! a) - val a * val a <= u * (val a * val a) + eta.
Proof.
  intros H. apply mul_fin in H as (F & _ & V). split; auto. rewrite V. pose proof (rnd_err (val a * val a)) as E. assert (0 <= val a * val a) by nra.
  rewrite (Rabs_pos_eq (val a * val a)) in E by auto. apply Rabs_ends in E. auto.
Qed.
Lemma addp_err a b A B k l e f : isf (a +! b) -> - (k * (u * A) + e) <= val a - A <= k * (u * A) + e -> - (l * (u * B) + f) <= val b - B <= l * (u * B) + f ->
  0 <= A -> 0 <= B -> 0 <= l <= k -> k <= 10 -> 0 <= e <= 10 * eta -> 0 <= f <= 10 * eta ->
  isf a /\ isf b /\ - ((k + 1 + 1 / 1000) * (u * (A + B)) + (e + f + 2 * eta)) <= val (a +! b) - (A + B) <= (k + 1 + 1 / 1000) * (u * (A + B)) + (e + f + 2 * eta).
Proof.
  intros H Ha Hb A0 B0 Hl Hk He Hf. apply add_fin in H as (Fa & Fb & V). split; [auto|]. split; [auto|]. rewrite V.
  pose proof (rnd_err (val a + val b)) as E. pose proof u_pos as U. pose proof eta_pos as T. assert (UA : 0 <= u * A) by nra. assert (UB : 0 <= u * B) by nra.
  set (s := val a + val b) in *.
  assert (S : - (k * (u * (A + B)) + (e + f)) <= s - (A + B) <= k * (u * (A + B)) + (e + f)).
  { unfold s. assert (l * (u * B) <= k * (u * B)) by (apply Rmult_le_compat_r; lra). lra. }
  assert (S' : Rabs s <= (A + B) + (k * (u * (A + B)) + (e + f))) by (apply Rabs_le; lra).
  assert (u * Rabs s <= u * ((A + B) + (k * (u * (A + B)) + (e + f)))) by (apply Rmult_le_compat_l; lra).
  assert (u * (k * (u * (A + B))) <= 1 / 1000 * (u * (A + B))). { assert (u * k <= 1 / 1000) by (rewrite u_val; lra). nra. }
  assert (u * (e + f) <= eta). { assert (u * 20 <= 1) by (rewrite u_val; lra). nra. }
  apply Rabs_ends in E. lra.
Qed.

(** ** Sums in any order *)
Notation sum3 L p q r := (f_sum L (@cons f64 p (@cons f64 q (@cons f64 r (@nil f64))))).
Notation sum4 L p q r s := (f_sum L (@cons f64 p (@cons f64 q (@cons f64 r (@cons f64 s (@nil f64)))))).

Lemma add_comm (a b : f64) : a +! b = b +! a.
Proof.
  destruct a as [s|s| |s m e H], b as [s'|s'| |s' m' e' H']; try reflexivity; unfold Bplus.
  - destruct s, s'; reflexivity.
  - destruct s, s'; reflexivity.
  - rewrite Z.min_comm. f_equal. apply Z.add_comm.
Qed.
Lemma sums_length l s : sums l s -> (1 <= length l)%nat.
Proof. induction 1 as [a|l1 l2 l a b _ I1 _ I2 P]; cbn; auto. rewrite <- (Permutation_length P), app_length. lia. Qed.
Lemma sums_1 l s p : sums l s -> Permutation l [p] -> s = p.
Proof.
  intros H. destruct H as [a|l1 l2 l a b H1 H2 P]; intros Q.
  - apply Permutation_length_1 in Q. exact Q.
  - apply sums_length in H1. apply sums_length in H2. apply Permutation_length in P, Q. rewrite app_length in P. cbn in Q. lia.
Qed.
Lemma sums_2 l s p q : sums l s -> Permutation l [p; q] -> s = p +! q.
Proof.
  intros H. destruct H as [a|l1 l2 l a b H1 H2 P]; intros Q.
  - apply Permutation_length in Q. discriminate Q.
  - pose proof (sums_length _ _ H1) as N1. pose proof (sums_length _ _ H2) as N2. pose proof (Permutation_trans P Q) as PQ. pose proof (Permutation_length PQ) as N. rewrite app_length in N. cbn in N.
    destruct l1 as [|x [|]]; cbn in N1, N; try lia. destruct l2 as [|y [|]]; cbn in N2, N; try lia. cbn [app] in PQ.
    rewrite (sums_1 _ _ x H1 (Permutation_refl _)), (sums_1 _ _ y H2 (Permutation_refl _)).
    apply Permutation_length_2 in PQ as [[-> ->]|[-> ->]]; auto. apply add_comm.
Qed.
(** Three terms: one of them comes last. *)
Lemma sums_3 l s p q r : sums l s -> Permutation l [p; q; r] -> s = p +! q +! r \/ s = p +! r +! q \/ s = q +! r +! p.
Proof.
  intros H. destruct H as [a|l1 l2 l a b H1 H2 P]; intros Q.
  { apply Permutation_length in Q. discriminate Q. }
  pose proof (sums_length _ _ H1) as N1. pose proof (sums_length _ _ H2) as N2. pose proof (Permutation_trans P Q) as PQ. pose proof (Permutation_length PQ) as N. rewrite app_length in N. cbn in N.
  assert (C : exists x l' c, sums l' c /\ (a +! b = c +! x) /\ Permutation (x :: l') [p; q; r]).
  { destruct l1 as [|x [|x' l1]]; cbn in N1, N; try lia.
    - exists x, l2, b. split; auto. split; auto. rewrite (sums_1 _ _ x H1 (Permutation_refl _)). apply add_comm.
    - destruct l2 as [|y [|]]; cbn in N2, N; try lia. exists y, (x :: x' :: l1), a. split; auto. split; [now rewrite (sums_1 _ _ y H2 (Permutation_refl _))|].
      eapply Permutation_trans; [|exact PQ]. apply Permutation_cons_append. }
  destruct C as (x & l' & c & Hc & -> & Pc). assert (I : In x [p; q; r]) by (apply (Permutation_in x Pc); left; auto).
  destruct I as [<-|[<-|[<-|[]]]].
  - right; right. f_equal. apply (sums_2 l'); auto. apply (Permutation_cons_inv Pc).
  - right; left. f_equal. apply (sums_2 l'); auto. apply (Permutation_cons_inv (a:=q)). eapply Permutation_trans; [exact Pc|]. apply perm_swap.
  - left. f_equal. apply (sums_2 l'); auto. apply (Permutation_cons_inv (a:=r)). eapply Permutation_trans; [exact Pc|].
    apply (Permutation_trans (l' := [p; r; q])); [apply perm_skip, perm_swap|apply perm_swap].
Qed.
Lemma sum3_cases L p q r : sum3 L p q r = p +! q +! r \/ sum3 L p q r = p +! r +! q \/ sum3 L p q r = q +! r +! p.
Proof. apply (sums_3 [p; q; r]); [apply f_sum_ok; discriminate|apply Permutation_refl]. Qed.
Lemma sum3_fin L p q r : isf (sum3 L p q r) -> isf p /\ isf q /\ isf r.
Proof.
  intros H. destruct (sum3_cases L p q r) as [E|[E|E]]; rewrite E in H; apply add_fin in H as (H & H1 & _); apply add_fin in H as (H2 & H3 & _); auto.
Qed.
(** What holds of every sum of three terms from left to right, whatever their order, holds of [sum3]. *)
Lemma sum3_ind L (P : f64 -> Prop) p q r : P (p +! q +! r) -> P (p +! r +! q) -> P (q +! r +! p) -> P (sum3 L p q r).
Proof. intros A B C. destruct (sum3_cases L p q r) as [E|[E|E]]; rewrite E; auto. Qed.

Lemma app_sum3 L a b c al be ga k P Q : app a al k -> app b be k -> app c ga k -> 0 <= k <= 400 -> 0 <= P <= 150 -> Q <= 1000 ->
  Rabs (al + be) <= P -> Rabs (al + ga) <= P -> Rabs (be + ga) <= P -> Rabs (al + be + ga) <= Q -> app (sum3 L a b c) (al + be + ga) (3 * k + P + Q + 2 / 100).
Proof.
  intros Ha Hb Hc Hk HP HQ H1 H2 H3 H.
  assert (T : forall a b c al be ga, app a al k -> app b be k -> app c ga k -> Rabs (al + be) <= P -> Rabs (al + be + ga) <= Q -> app (a +! b +! c) (al + be + ga) (3 * k + P + Q + 2 / 100)).
  { clear - Hk HP HQ. intros a b c al be ga Ha Hb Hc H1 H. eapply app_weak; [eapply app_addP; [eapply app_addP; [exact Ha|exact Hb|exact H1|..]|exact Hc|exact H|..]|]; lra. }
  apply sum3_ind; [apply T; auto|replace (al + be + ga) with (al + ga + be) by ring; apply T; auto|replace (al + be + ga) with (be + ga + al) by ring; apply T; auto].
  - replace (al + ga + be) with (al + be + ga) by ring. auto.
  - replace (be + ga + al) with (al + be + ga) by ring. auto.
Qed.

(** Up to four terms known within [k], in any order. *)
Fixpoint rtotal (l : list R) : R := match l with [] => 0 | a :: l' => a + rtotal l' end.
Lemma rtotal_app l m : rtotal (l ++ m) = rtotal l + rtotal m.
Proof. induction l as [|a l IH]; cbn [rtotal List.app]; [lra|rewrite IH; lra]. Qed.
Lemma rtotal_perm l m : Permutation l m -> rtotal l = rtotal m.
Proof. induction 1; cbn [rtotal]; lra. Qed.
Lemma sums_near k B C l s : sums l s -> 0 <= k -> 0 <= B -> k + 4 * (u * C) <= C - B -> 1 <= C <= 100 -> forall rs, (length l <= 4)%nat ->
  Forall2 (fun a r => isf a /\ Rabs (val a - r) <= k /\ Rabs r <= B) l rs ->
  let n := INR (length l) in isf s /\ Rabs (val s - rtotal rs) <= n * k + (n * (n + 1) / 2 - 1) * (u * C) + (n - 1) * eta /\ Rabs (rtotal rs) <= n * B.
Proof.
  intros H Hk HB HC HC1. pose proof u_pos as U. pose proof eta_u as T.
  induction H as [a|l1 l2 l a b H1 IH1 H2 IH2 P]; intros rs Ln F n.
  - inversion F as [|? r ? ? (Fa & Ea & Ba) F']; subst. inversion F'; subst. cbn [rtotal]. unfold n. cbn [length INR]. rewrite Rplus_0_r. split; auto. split; lra.
  - destruct (Permutation_Forall2 (Permutation_sym P) F) as (rs' & P' & F'). apply Forall2_app_inv_l in F' as (r1 & r2 & F1 & F2 & ->).
    pose proof (Permutation_length P) as LP. rewrite app_length in LP. pose proof (sums_length _ _ H1) as N1. pose proof (sums_length _ _ H2) as N2.
    destruct (IH1 r1 ltac:(lia) F1) as (Fa & Ea & Ba). destruct (IH2 r2 ltac:(lia) F2) as (Fb & Eb & Bb).
    rewrite (rtotal_perm _ _ P'), rtotal_app. assert (En : n = INR (length l1) + INR (length l2)) by (unfold n; rewrite <- LP, plus_INR; reflexivity).
    apply le_INR in N1, N2. assert (N4 : n <= 4) by (unfold n; apply le_INR in Ln; cbn [INR] in Ln; lra). cbn [INR] in N1, N2.
    set (n1 := INR (length l1)) in *. set (n2 := INR (length l2)) in *. clearbody n1 n2 n. subst n. clear IH1 IH2 F F1 F2 H1 H2 P P' LP Ln.
    assert (C0 : 0 <= C) by nra. assert (UC : 0 <= u * C) by (apply Rmult_le_pos; lra). assert (TU : eta <= u * C).
    { apply Rle_trans with (u * 1); [lra|apply Rmult_le_compat_l; lra]. }
    assert (EE : Rabs (val a + val b - (rtotal r1 + rtotal r2)) <= (n1 + n2) * k + ((n1 * (n1 + 1) + n2 * (n2 + 1)) / 2 - 2) * (u * C) + (n1 + n2 - 2) * eta).
    { apply Rabs_ends in Ea, Eb. apply Rabs_le. lra. }
    assert (M : Rabs (val a + val b) <= (n1 + n2) * C).
    { apply Rabs_ends in EE, Ba, Bb. 
      assert ((n1 + n2) * (k + 4 * (u * C)) <= (n1 + n2) * (C - B)) by (apply Rmult_le_compat_l; lra).
      assert ((n1 * (n1 + 1) + n2 * (n2 + 1)) / 2 - 2 <= 3 * (n1 + n2)) by nra.
      assert (((n1 * (n1 + 1) + n2 * (n2 + 1)) / 2 - 2) * (u * C) <= 3 * (n1 + n2) * (u * C)) by (apply Rmult_le_compat_r; lra).
      assert ((n1 + n2 - 2) * eta <= (n1 + n2) * (u * C)) by (apply Rmult_le_compat; try lra; pose proof (bpow_gt_0 radix2 (-1074)); pose proof eta_pos; lra).
      apply Rabs_le. lra. }
    destruct (f_add a b Fa Fb) as [Fs Vs]; [pose proof big_1; nra|]. split; auto. rewrite Vs. pose proof (rnd_err (val a + val b)) as E3.
    assert (E4 : u * Rabs (val a + val b) <= u * ((n1 + n2) * C)) by (apply Rmult_le_compat_l; lra).
    assert (E5 : (n1 + n2 - 1) * (u * C) <= n1 * n2 * (u * C)) by (apply Rmult_le_compat_r; nra).
    split; [|apply Rabs_ends in Ba, Bb; apply Rabs_le; lra].
    replace (rnd (val a + val b) - (rtotal r1 + rtotal r2)) with ((rnd (val a + val b) - (val a + val b)) + (val a + val b - (rtotal r1 + rtotal r2))) by ring.
    eapply Rle_trans; [apply Rabs_triang|]. lra.
Qed.
Lemma sum4_near L a b c d ra rb rc rd k B C : 0 <= k -> 0 <= B -> k + 4 * (u * C) <= C - B -> 1 <= C <= 100 ->
  isf a /\ Rabs (val a - ra) <= k /\ Rabs ra <= B -> isf b /\ Rabs (val b - rb) <= k /\ Rabs rb <= B -> isf c /\ Rabs (val c - rc) <= k /\ Rabs rc <= B -> isf d /\ Rabs (val d - rd) <= k /\ Rabs rd <= B ->
  isf (sum4 L a b c d) /\ Rabs (val (sum4 L a b c d) - (ra + rb + rc + rd)) <= 4 * k + 9 * (u * C) + 3 * eta.
Proof.
  intros Hk HB HC HC1 Ha Hb Hc Hd.
  destruct (sums_near k B C [a; b; c; d] (sum4 L a b c d) ltac:(apply f_sum_ok; discriminate) Hk HB HC HC1 [ra; rb; rc; rd] ltac:(cbn; lia)) as (F & E & _); [repeat (apply Forall2_cons; [assumption|]); apply Forall2_nil|].
  split; auto. cbn [rtotal length INR] in E. replace (ra + rb + rc + rd) with (ra + (rb + (rc + (rd + 0)))) by ring. eapply Rle_trans; [exact E|]. right. field.
Qed.
Lemma near_opp (d : f64) rd k B : isf d /\ Rabs (val d - rd) <= k /\ Rabs rd <= B -> isf (Bopp d) /\ Rabs (val (Bopp d) - - rd) <= k /\ Rabs (- rd) <= B.
Proof. intros (F & E & H). destruct (f_opp d F) as [F' ->]. split; auto. rewrite Rabs_Ropp. replace (- val d - - rd) with (- (val d - rd)) by ring. rewrite Rabs_Ropp. auto. Qed.

(** Squares. *)
Fixpoint rsqs (l : list f64) : R := match l with [] => 0 | a :: l' => val a * val a + rsqs l' end.
Lemma rsqs_app l m : rsqs (l ++ m) = rsqs l + rsqs m.
Proof. induction l as [|a l IH]; [cbn; lra|]. change (rsqs ((a :: l) ++ m)) with (val a * val a + rsqs (l ++ m)). cbn [rsqs]. lra. Qed.
Lemma rsqs_perm l m : Permutation l m -> rsqs l = rsqs m.
Proof. induction 1; cbn [rsqs]; lra. Qed.
Lemma rsqs_pos l : 0 <= rsqs l.
Proof. induction l as [|a l IH]; cbn [rsqs]; nra. Qed.
Definition sqd (a : f64) : f64 := a *! a.
Lemma sums_map l1 l2 xs : Permutation (l1 ++ l2) (map sqd xs) -> exists x1 x2, l1 = map sqd x1 /\ l2 = map sqd x2 /\ Permutation (x1 ++ x2) xs.
Proof.
  intros H. destruct (Permutation_map_inv _ _ H) as (ys & E & P). symmetry in E. apply map_eq_app in E as (x1 & x2 & -> & E1 & E2).
  exists x1, x2. split; auto. split; auto. apply Permutation_sym, P.
Qed.
Lemma sqs_err l s : sums l s -> forall xs, Permutation l (map sqd xs) -> (length xs <= 4)%nat -> isf s ->
  let n := INR (length xs) in
  Forall isf xs /\ - ((1 + (n - 1) * (1001 / 1000)) * (u * rsqs xs) + (3 * n - 2) * eta) <= val s - rsqs xs <= (1 + (n - 1) * (1001 / 1000)) * (u * rsqs xs) + (3 * n - 2) * eta.
Proof.
  induction 1 as [a|l1 l2 l a b H1 I1 H2 I2 P]; intros xs Q N F n.
  - pose proof (Permutation_length Q) as Nx. rewrite map_length in Nx. destruct xs as [|x [|]]; try discriminate Nx. apply Permutation_length_1 in Q. cbn [rsqs length INR] in *. unfold n. subst a. unfold sqd in *.
    destruct (sqr_err _ F) as [Fx E]. split; auto. pose proof eta_pos. replace (val x * val x + 0) with (val x * val x) by ring. lra.
  - destruct (sums_map _ _ _ (Permutation_trans P Q)) as (x1 & x2 & E1 & E2 & Px). subst l1 l2. pose proof (Permutation_length Px) as Nx. rewrite app_length in Nx.
    pose proof (sums_length _ _ H1) as N1. pose proof (sums_length _ _ H2) as N2. rewrite map_length in N1, N2.
    destruct (add_fin _ _ F) as (Fa & Fb & _).
    destruct (I1 x1 (Permutation_refl _) ltac:(lia) Fa) as [Fx1 A]. destruct (I2 x2 (Permutation_refl _) ltac:(lia) Fb) as [Fx2 B]. cbv zeta in A, B.
    split; [apply (Permutation_Forall Px), Forall_app; auto|].
    assert (En : n = INR (length x1) + INR (length x2)) by (unfold n; rewrite <- Nx; apply plus_INR). rewrite En, <- (rsqs_perm _ _ Px), rsqs_app. clear En. clearbody n. clear n.
    assert (M1 : 1 <= INR (length x1)) by (apply (le_INR 1); lia). assert (M2 : 1 <= INR (length x2)) by (apply (le_INR 1); lia).
    assert (M : INR (length x1) + INR (length x2) <= 4) by (rewrite <- plus_INR; replace 4 with (INR 4) by (cbn; lra); apply le_INR; lia).
    set (n1 := INR (length x1)) in *. set (n2 := INR (length x2)) in *. pose proof (rsqs_pos x1) as P1. pose proof (rsqs_pos x2) as P2. pose proof u_pos as U. pose proof eta_pos as T.
    set (A1 := rsqs x1) in *. set (B1 := rsqs x2) in *.
    assert (UA : 0 <= u * A1) by nra. assert (UB : 0 <= u * B1) by nra.
    destruct (Rle_dec n2 n1) as [C|C].
    + destruct (addp_err a b A1 B1 (1 + (n1 - 1) * (1001 / 1000)) (1 + (n2 - 1) * (1001 / 1000)) ((3 * n1 - 2) * eta) ((3 * n2 - 2) * eta) F A B P1 P2 ltac:(lra) ltac:(lra) ltac:(nra) ltac:(nra)) as (_ & _ & G).
      assert ((1 + (n1 - 1) * (1001 / 1000) + 1 + 1 / 1000) * (u * (A1 + B1)) <= (1 + (n1 + n2 - 1) * (1001 / 1000)) * (u * (A1 + B1))) by (apply Rmult_le_compat_r; [lra|lra]). lra.
    + rewrite add_comm in F |- *. rewrite (Rplus_comm A1 B1), (Rplus_comm n1 n2).
      destruct (addp_err b a B1 A1 (1 + (n2 - 1) * (1001 / 1000)) (1 + (n1 - 1) * (1001 / 1000)) ((3 * n2 - 2) * eta) ((3 * n1 - 2) * eta) F B A P2 P1 ltac:(lra) ltac:(lra) ltac:(nra) ltac:(nra)) as (_ & _ & G).
      assert ((1 + (n2 - 1) * (1001 / 1000) + 1 + 1 / 1000) * (u * (B1 + A1)) <= (1 + (n2 + n1 - 1) * (1001 / 1000)) * (u * (B1 + A1))) by (apply Rmult_le_compat_r; [lra|lra]). lra.
Qed.

(** ** Norm of three and four doubles *)
Definition sq3 (a b c : R) : R := a * a + b * b + c * c.
Lemma dot3_err L a b c : isf (sum3 L (a *! a) (b *! b) (c *! c)) -> let N := sq3 (val a) (val b) (val c) in
  isf a /\ isf b /\ isf c /\ Rabs (val (sum3 L (a *! a) (b *! b) (c *! c)) - N) <= (3 + 1 / 200) * (u * N) + 10 * eta.
Proof.
  intros H N. destruct (sqs_err [a *! a; b *! b; c *! c] (sum3 L (a *! a) (b *! b) (c *! c)) ltac:(apply f_sum_ok; discriminate) [a; b; c] (Permutation_refl _) ltac:(cbn; lia) H) as [F E].
  inversion F as [|? ? Fa F1]; subst. inversion F1 as [|? ? Fb F2]; subst. inversion F2 as [|? ? Fc _]; subst. cbn [length INR] in E.
  replace (rsqs [a; b; c]) with N in E by (unfold N, sq3; cbn [rsqs]; ring). pose proof u_pos. pose proof eta_pos. assert (0 <= N) by (unfold N, sq3; nra). assert (0 <= u * N) by nra.
  repeat split; auto. apply Rabs_le. lra.
Qed.
(** squaredNorm() of three doubles. *)
Definition nsq (L : libm) (a b c : f64) : f64 := sum3 L (a *! a) (b *! b) (c *! c).
Definition sq4 (a b c d : R) : R := a * a + b * b + c * c + d * d.
Lemma dot4_err L a b c d : isf (sum4 L (a *! a) (b *! b) (c *! c) (d *! d)) -> let N := sq4 (val a) (val b) (val c) (val d) in
  isf a /\ isf b /\ isf c /\ isf d /\ Rabs (val (sum4 L (a *! a) (b *! b) (c *! c) (d *! d)) - N) <= (4 + 1 / 100) * (u * N) + 20 * eta.
Proof.
  intros H N. destruct (sqs_err [a *! a; b *! b; c *! c; d *! d] (sum4 L (a *! a) (b *! b) (c *! c) (d *! d)) ltac:(apply f_sum_ok; discriminate) [a; b; c; d] (Permutation_refl _) ltac:(cbn; lia) H) as [F E].
  inversion F as [|? ? Fa F1]; subst. inversion F1 as [|? ? Fb F2]; subst. inversion F2 as [|? ? Fc F3]; subst. inversion F3 as [|? ? Fd _]; subst. cbn [length INR] in E.
  replace (rsqs [a; b; c; d]) with N in E by (unfold N, sq4; cbn [rsqs]; ring). pose proof u_pos. pose proof eta_pos. assert (0 <= N) by (unfold N, sq4; nra). assert (0 <= u * N) by nra.
  repeat split; auto. apply Rabs_le. lra.
Qed.

Lemma sqrt_pert x t q s : 0 <= x -> x <= 1 / 1000000 -> 0 < t -> t <= 1 / 1000000 -> x * x <= t / 1000 -> 0 < s -> 0 <= q ->
  - (x * (s * s)) <= q * q - s * s <= x * (s * s) -> - ((x / 2 + t / 1000) * s) <= q - s <= (x / 2 + t / 1000) * s.
Proof.
  intros X0 X1 T0 T1 XX S0 Q0 H. remember (x / 2 + t / 1000) as y eqn:Ey. assert (Y0 : 0 < y) by lra. assert (Y1' : y < 1) by lra.
  assert (YY : y * y <= t / 1000) by (subst y; nra). assert (Y2 : 0 <= y * y) by nra.
  assert (A1 : (1 + x) <= (1 + y) * (1 + y)) by nra.
  assert (A2 : (1 - y) * (1 - y) <= 1 - x) by nra.
  assert (S2 : 0 < s * s) by nra. clear XX YY Y2. split.
  - assert (B : (s * (1 - y)) * (s * (1 - y)) <= q * q).
    { replace ((s * (1 - y)) * (s * (1 - y))) with ((1 - y) * (1 - y) * (s * s)) by ring. assert ((1 - y) * (1 - y) * (s * s) <= (1 - x) * (s * s)) by (apply Rmult_le_compat_r; lra). lra. }
    assert (s * (1 - y) <= q); [|lra]. apply Rsqr_incr_0_var; auto.
  - assert (B : q * q <= (s * (1 + y)) * (s * (1 + y))).
    { replace ((s * (1 + y)) * (s * (1 + y))) with ((1 + y) * (1 + y) * (s * s)) by ring. assert ((1 + x) * (s * s) <= (1 + y) * (1 + y) * (s * s)) by (apply Rmult_le_compat_r; lra). lra. }
    assert (q <= s * (1 + y)); [|lra]. apply Rsqr_incr_0_var; auto. apply Rmult_le_pos; lra.
Qed.
(** Square root of a double within [k] units (relatively) of N. *)
Lemma sqrt_err r N k : isf r -> Rabs (val r - N) <= k * (u * N) -> 0 < N -> 0 <= k <= 1000 -> eta <= u * sqrt N / 1000 ->
  isf (Bsqrt mode_NE r) /\ Rabs (val (Bsqrt mode_NE r) - sqrt N) <= (k / 2 + 1 + 1 / 100) * (u * sqrt N).
Proof.
  intros F H N0 Hk HT. apply Rabs_ends in H. pose proof u_pos as U. assert (Hku : k * u <= 1 / 1000000) by (rewrite u_val; lra).
  assert (R0 : 0 <= val r). { assert (k * (u * N) <= N / 1000000) by (rewrite <- Rmult_assoc; nra). lra. }
  destruct (f_sqrt r F R0) as [F' V]. split; auto. rewrite V. pose proof (rnd_err (sqrt (val r))) as E.
  assert (S : 0 < sqrt N) by (apply sqrt_lt_R0; auto). assert (SS : sqrt N * sqrt N = N) by (apply sqrt_sqrt; lra).
  pose proof (sqrt_pos (val r)) as Q0. pose proof (sqrt_sqrt _ R0) as QQ. set (q := sqrt (val r)) in *. set (s := sqrt N) in *.
  assert (D : - ((k / 2 + 1 / 1000) * (u * s)) <= q - s <= (k / 2 + 1 / 1000) * (u * s)).
  { assert (K0 : 0 <= k * u) by nra. assert (X : k * (u * N) = (k * u) * (s * s)) by (rewrite SS; ring). rewrite X, <- SS, <- QQ in H. set (x := k * u) in *.
    assert (Xs : (k / 2 + 1 / 1000) * (u * s) = (x / 2 + u / 1000) * s) by (unfold x; field). rewrite Xs.
    assert (xx : x * x <= u / 1000). { unfold x. assert (k * k * u <= 1 / 1000) by (rewrite u_val; nra). nra. }
    clearbody q s x. apply sqrt_pert; auto. rewrite u_val; lra. }
  rewrite (Rabs_pos_eq q) in E by auto. apply Rabs_ends in E. apply Rabs_le.
  assert (Us : 0 <= u * s) by nra.
  assert (u * q <= u * (s + (k / 2 + 1 / 1000) * (u * s))) by (apply Rmult_le_compat_l; lra).
  assert (u * ((k / 2 + 1 / 1000) * (u * s)) <= 1 / 1000 * (u * s)). { replace (u * ((k / 2 + 1 / 1000) * (u * s))) with ((k * u / 2 + u / 1000) * (u * s)) by field. apply Rmult_le_compat_r; auto. rewrite u_val in *. lra. }
  lra.
Qed.

Lemma quot_pert x t S m : 0 <= x -> x <= 1 / 1000000 -> 0 < t -> t <= 1 / 1000000 -> x * x <= t / 2000 -> 0 < S ->
  - (x * S) <= m - S <= x * S -> 0 < m /\ Rabs (S / m - 1) <= x + t / 1000.
Proof.
  intros X0 X1 T0 T1 XX S0 H. assert (M1 : 0 < m) by nra. split; auto.
  assert (A : x * S <= (x + t / 1000) * m).
  { apply Rle_trans with ((x + t / 1000) * ((1 - x) * S)); [|apply Rmult_le_compat_l; lra].
    rewrite <- Rmult_assoc. apply Rmult_le_compat_r; [lra|]. nra. }
  replace (S / m - 1) with ((S - m) / m) by (field; lra). apply Rabs_le. split; apply Rmult_le_reg_r with m; auto; unfold Rdiv; rewrite ?Rmult_assoc, Rinv_l, Rmult_1_r by lra; lra.
Qed.
(** Quotient by a double within [k] units (relatively) of S. *)
Lemma quot_err a m S k : isf a -> Rabs (val m - S) <= k * (u * S) -> 0 < S -> 0 <= k <= 1000 -> Rabs (val a / S) <= 1000 ->
  isf (a /! m) /\ Rabs (val (a /! m) - val a / S) <= (k + 1 + 1 / 100) * (u * Rabs (val a / S)) + eta.
Proof.
  intros F H S0 Hk HB. apply Rabs_ends in H. pose proof u_pos as U. assert (Hku : k * u <= 1 / 1000000) by (rewrite u_val; lra).
  replace (k * (u * S)) with ((k * u) * S) in H by ring. assert (K0 : 0 <= k * u) by nra.
  assert (KK : (k * u) * (k * u) <= u / 2000). { assert (k * k * u <= 1 / 2000) by (rewrite u_val; nra). nra. }
  remember (k * u) as x eqn:Ex. assert (Hu : u <= 1 / 1000000) by (rewrite u_val; lra).
  destruct (quot_pert x u S (val m)) as [M1 G]; auto.
  remember (val a / S) as w eqn:Ew. assert (W : val a / val m = w * (S / val m)) by (rewrite Ew; field; split; lra).
  pose proof (Rabs_pos w) as W0.
  assert (D : Rabs (val a / val m - w) <= (x + u / 1000) * Rabs w).
  { rewrite W. replace (w * (S / val m) - w) with ((S / val m - 1) * w) by ring. rewrite Rabs_mult. apply Rmult_le_compat_r; auto. }
  assert (Y : Rabs (val a / val m) <= Rabs w + (x + u / 1000) * Rabs w).
  { replace (val a / val m) with ((val a / val m - w) + w) by ring. eapply Rle_trans; [apply Rabs_triang|]. lra. }
  assert (B : Rabs (val a / val m) <= big). { eapply Rle_trans; [exact Y|]. pose proof big_1. assert (x + u / 1000 <= 1) by lra. nra. }
  destruct (f_div a m F ltac:(lra) B) as [F' V]. split; auto. rewrite V. pose proof (rnd_err (val a / val m)) as E.
  replace (rnd (val a / val m) - w) with ((rnd (val a / val m) - val a / val m) + (val a / val m - w)) by ring. eapply Rle_trans; [apply Rabs_triang|].
  assert (u * Rabs (val a / val m) <= u * (Rabs w + (x + u / 1000) * Rabs w)) by (apply Rmult_le_compat_l; lra).
  assert (u * ((x + u / 1000) * Rabs w) <= 1 / 1000 * (u * Rabs w)). { replace (u * ((x + u / 1000) * Rabs w)) with ((x + u / 1000) * (u * Rabs w)) by ring. apply Rmult_le_compat_r; [nra|lra]. }
  assert (x * Rabs w = k * (u * Rabs w)) by (rewrite Ex; ring). assert (0 <= u * Rabs w) by nra. lra.
Qed.
