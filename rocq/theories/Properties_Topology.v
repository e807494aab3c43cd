(** C27: isSameTopology; C43: CartesianPower. *)
From Coq Require Import List Arith Bool ZArith Lia.
From Verif Require Import Base Scalar Vec Model_Real Model_S2 Model_SO3 Model_Manifold Spec Layout Structure Topo ExScalar.
Import ListNotations.

(** ** C27 *)

(** isSameTopology holds iff the two trees of classes and R^n dimensions are equal. *)
Theorem C27_structural : forall (K : Type) (a b : mfd K), isSameTopology a b = true <-> topo_of a = topo_of b.
Proof. intros K a b. apply same_topo. Qed.
Print Assumptions C27_structural.

Theorem C27_equivalence : forall (K : Type),
  (forall a : mfd K, isSameTopology a a = true) /\
  (forall a b : mfd K, isSameTopology a b = isSameTopology b a) /\
  (forall a b c : mfd K, isSameTopology a b = true -> isSameTopology b c = true -> isSameTopology a c = true).
Proof.
  intros K. split; [|split].
  - intros a. apply same_topo. reflexivity.
  - intros a b. destruct (isSameTopology a b) eqn:E.
    + symmetry. apply same_topo. symmetry. apply same_topo. auto.
    + destruct (isSameTopology b a) eqn:E'; auto. apply same_topo in E'. symmetry in E'. apply same_topo in E'. congruence.
  - intros a b c H1 H2. apply same_topo in H1, H2. apply same_topo. congruence.
Qed.
Print Assumptions C27_equivalence.

(** Two manifolds built through the API that have the same topology have the same dimensions and layout, and
    every map operation returns the same result (value or refusal) on both, for every argument. *)
Theorem C27_same_operations : forall (K : Type) (SK : Scalar K) (a b : mfd K), built a -> built b -> isSameTopology a b = true ->
  dim a = dim b /\ tangentDim a = tangentDim b /\ representationDim a = representationDim b /\
  numberOfSubManifolds a = numberOfSubManifolds b /\
  (forall D i, getStart D a i = getStart D b i) /\ (forall D i, getDimSub D a i = getDimSub D b i) /\
  (forall D v i, getView D a v i = getView D b v i) /\
  (forall x p, isInM a x p = isInM b x p) /\
  (forall o x, forceOnM a o x = forceOnM b o x) /\
  (forall x v p, isInTxM a x v p = isInTxM b x v p) /\
  (forall o x v, retractation a o x v = retractation b o x v) /\
  (forall o x y, pseudoLog a o x y = pseudoLog b o x y) /\
  (forall o x, pseudoLog0 a o x = pseudoLog0 b o x) /\
  (forall o, setZero a o = setZero b o) /\
  (forall o v x, forceOnTxM a o v x = forceOnTxM b o v x) /\
  (forall o, limitMap a o = limitMap b o) /\
  (forall x, diffRetractation a x = diffRetractation b x) /\
  (forall o M x, applyDiffRetractation a o M x = applyDiffRetractation b o M x) /\
  (forall x, diffPseudoLog0 a x = diffPseudoLog0 b x) /\
  (forall o M x, applyDiffPseudoLog0 a o M x = applyDiffPseudoLog0 b o M x) /\
  (forall o M x v, applyTransport a o M x v = applyTransport b o M x v) /\
  (forall o M x v, applyInvTransport a o M x v = applyInvTransport b o M x v) /\
  (forall o M x v, applyInvTransportOnTheRight a o M x v = applyInvTransportOnTheRight b o M x v) /\
  (forall o x, tangentConstraint a o x = tangentConstraint b o x) /\
  (forall o x, getIdentityOnTxM a o x = getIdentityOnTxM b o x) /\
  (forall o c rnd n, createRandomPoint a o c rnd n = createRandomPoint b o c rnd n).
Proof.
  intros K SK a b Ba Bb H. apply same_topo in H. assert (S : sim a b) by (apply topo_sim; auto using built_wf).
  destruct (sim_dims a b S) as (D1 & D2 & D3).
  repeat (split; [first [assumption | apply sim_num; assumption | intros; apply sim_start; assumption | intros; apply sim_dimsub; assumption | intros; apply sim_view; assumption
    | intros; apply isInM_sim; assumption | intros; apply forceOnM_sim; assumption | intros; apply isInTxM_sim; assumption | intros; apply retractation_sim; assumption
    | intros; apply pseudoLog_sim; assumption | intros; apply pseudoLog0_sim; assumption | intros; apply setZero_sim; assumption | intros; apply forceOnTxM_sim; assumption
    | intros; apply limitMap_sim; assumption | intros; apply diffRetractation_sim; assumption | intros; apply applyDiffRetractation_sim; assumption
    | intros; apply diffPseudoLog0_sim; assumption | intros; apply applyDiffPseudoLog0_sim; assumption | intros; apply applyTransport_sim; assumption
    | intros; apply applyInvTransport_sim; assumption | intros; apply applyInvTransportOnTheRight_sim; assumption | intros; apply tangentConstraint_sim; assumption
    | intros; apply getIdentityOnTxM_sim; assumption]|]).
  intros; apply createRandomPoint_sim; assumption.
Qed.
Print Assumptions C27_same_operations.

(** Names and magnitudes are not part of the topology, nesting is. *)
Definition exA : mfd Z := get prod_empty (prod2 exP1 exSO3).
Definition exB : mfd Z := get prod_empty (prod2 (get prod_empty (prod2 (get prod_empty (mk_real_mag 3 7%Z)) exS2)) (rename exSO3 String.EmptyString)).
Definition exC : mfd Z := get prod_empty (prod2 exR3 (get prod_empty (prod2 exS2 exSO3))).
Lemma b2 (a b : mfd Z) : built a -> built b -> built (get prod_empty (prod2 a b)).
Proof.
  intros Ba Bb. unfold prod2. destruct (multiply_total prod_empty a) as [p Hp]; [apply built_wf; constructor|do 4 eexists; reflexivity|]. rewrite Hp. cbn [bind].
  assert (Bp : built p) by (apply (built_mult prod_empty a p); auto; constructor). assert (exists h sT sR subs, p = Prod h sT sR subs) as E by (cbn in Hp; inversion Hp; do 4 eexists; reflexivity).
  destruct (multiply_total p b (built_wf _ Bp) E) as [q Hq]. rewrite Hq. cbn [bind get]. apply built_name. apply (built_mult p b q); auto.
Qed.
Lemma ex_leaves : built exR3 /\ built exS2 /\ built exSO3 /\ built (get prod_empty (mk_real_mag 3 7%Z)).
Proof.
  split; [exact (built_real_mag 3 1%Z _ eq_refl)|]. split; [exact (built_s2 [3; 3; 3]%Z _ eq_refl)|].
  split; [exact (built_so3 MapQuat [3; 3; 3]%Z _ eq_refl)|exact (built_real_mag 3 7%Z _ eq_refl)].
Qed.
Example C27_example : built exA /\ built exB /\ built exC /\ exA <> exB /\ isSameTopology exA exB = true /\
  isSameTopology exA exC = false /\ leaves exA = leaves exC.
Proof.
  destruct ex_leaves as (H1 & H2 & H3 & H4). split; [apply b2; auto; apply b2; auto|]. split; [apply b2; [apply b2; auto|apply built_name; auto]|].
  split; [apply b2; auto; apply b2; auto|]. split; [discriminate|]. repeat split.
Qed.

(** ** C43 *)
(** [nfold n m]: the result of multiplying the empty product n times by m. *)
Definition nfold {K} (n : nat) (m : mfd K) : res (mfd K) := Nat.iter n (fun r => p <- r ;; multiply p m) (Ok prod_empty).

Lemma loop_snoc {A B} (f : nat -> B -> A -> res A) l b : forall i a, loop f i (l ++ [b]) a = (x <- loop f i l a ;; f (i + length l) b x).
Proof.
  induction l as [|c l IH]; intros i a; cbn [app loop length bind].
  - rewrite Nat.add_0_r. destruct (f i b a); reflexivity.
  - destruct (f i c a); cbn [bind]; auto. rewrite IH. replace (S i + length l) with (i + S (length l)) by lia. reflexivity.
Qed.
Lemma power_nfold {K} (m : mfd K) n : loop (fun _ m p => multiply p m) 0 (repeat m n) prod_empty = nfold n m.
Proof.
  induction n as [|n IH]; [reflexivity|]. replace (S n) with (n + 1) by lia. rewrite repeat_app. cbn [repeat]. rewrite loop_snoc, IH.
  rewrite Nat.add_comm. reflexivity.
Qed.
Lemma factors_topo {K} {SK : Scalar K} (p : mfd K) fs : factors p fs -> topo_of p = TProd (map topo_of fs).
Proof. intros H. destruct (factors_inv _ _ H) as (h & sT & sR & ->). reflexivity. Qed.
Lemma sum_repeat a n : sum_list (repeat a n) = n * a.
Proof. induction n; cbn; lia. Qed.
Lemma map_repeat {A B} (f : A -> B) a n : map f (repeat a n) = repeat (f a) n.
Proof. induction n; cbn; congruence. Qed.

(** CartesianPower(M, n) is the n-fold product of M; n <= 0 gives the empty product. *)
Theorem C43_power : forall (K : Type) (SK : Scalar K) (m : mfd K), built m -> forall n : Z,
  exists p, power m n = Ok p /\ nfold (Z.to_nat n) m = Ok p /\ factors p (repeat m (Z.to_nat n)) /\ built p /\
    ((n <= 0)%Z -> p = prod_empty) /\
    numberOfSubManifolds p = Z.to_nat n /\ (forall i, (i < Z.to_nat n)%nat -> subManifold p i = Ok m) /\
    dim p = Z.to_nat n * dim m /\ tangentDim p = Z.to_nat n * tangentDim m /\ representationDim p = Z.to_nat n * representationDim m /\
    forall q, factors q (repeat m (Z.to_nat n)) -> isSameTopology p q = true.
Proof.
  intros K SK m B n. set (k := Z.to_nat n).
  assert (exists p, nfold k m = Ok p /\ factors p (repeat m k)) as (p & E & F).
  { clearbody k. induction k as [|k (p & E & F)]; [exists prod_empty; split; [reflexivity|constructor]|].
    destruct (factors_wf _ _ F) as (h & sT & sR & Ep & W). destruct (multiply_total p m) as [q Hq]; [exact W|rewrite Ep; eauto|].
    exists q. split; [change (nfold (S k) m) with (p <- nfold k m ;; multiply p m); rewrite E; exact Hq|].
    replace (S k) with (k + 1) by lia. rewrite repeat_app. cbn [repeat]. eapply factors_mult; eauto. }
  exists p. split; [unfold power; fold k; rewrite power_nfold; exact E|]. split; [exact E|]. split; [exact F|]. split; [eapply factors_built; eauto|].
  assert (L : length (repeat m k) = k) by apply repeat_length. destruct (layout_dims p _ F) as (D1 & D2 & D3 & _).
  destruct (factors_inv _ _ F) as (h & sT & sR & Ep).
  split; [intros Hn; unfold k in E; replace (Z.to_nat n) with 0 in E by lia; cbn in E; congruence|].
  split; [rewrite Ep; exact L|]. split.
  { intros i Hi. rewrite Ep. cbn [subManifold]. rewrite L. apply Nat.ltb_lt in Hi as Hi'. fold k in Hi, Hi'. rewrite Hi'. cbn [mnf_assert bind]. unfold at_.
    clear - Hi. revert i Hi; induction k as [|k IH]; intros i Hi; [lia|]. destruct i; cbn [repeat nth_error]; [reflexivity|]. apply IH. lia. }
  rewrite D1, D2, D3, !map_repeat, !sum_repeat. repeat (split; [reflexivity|]).
  intros q Fq. apply same_topo. rewrite (factors_topo p _ F), (factors_topo q _ Fq). reflexivity.
Qed.
Print Assumptions C43_power.

Example C43_example : built exP1 /\ (exists p, power exP1 4 = Ok p /\ numberOfSubManifolds p = 4 /\ representationDim p = 24) /\ power exP1 (-3) = Ok prod_empty.
Proof.
  destruct ex_leaves as (H1 & H2 & _). split; [apply b2; auto|]. split; [|reflexivity].
  eexists. split; [reflexivity|]. split; reflexivity.
Qed.
