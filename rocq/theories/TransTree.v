(** The vector transport of a tree is one linear isometry of its tangent coordinates, leaf block by leaf
    block: the columns of [applyTransport] and the rows of [applyInvTransportOnTheRight] are its images. *)
From Coq Require Import Reals List Lra Lia ZArith Bool Arith.
From Verif Require Import Base Scalar Vec Model_Real Model_S2 Model_SO3 Model_Manifold Spec Layout Comp Flat BlockMat MatOps MatProd
  Structure XR SpecR RotR NumVec NumTree NumS2 MatNum Points RoundTrip Properties_S2.
Import ListNotations.
Local Open Scope R_scope.

(** The matrix whose rows are [rows], all of length [t] (spec side). *)
Definition rowsR (t : nat) (rows : list (list R)) : mat XR :=
  Mat (length rows) (map (fun j => map (fun a => Fin (nth j a 0)) rows) (seq 0 t)).

Lemma rowsR_shape t rows : shape (rowsR t rows) (length rows) t.
Proof.
  unfold rowsR. repeat split; cbn [mcols_ mrows]; [rewrite map_length, seq_length; auto|].
  apply Forall_forall. intros c H. apply in_map_iff in H. destruct H as (j & <- & _). apply map_length.
Qed.

(** ** Block maps *)
Fixpoint blk (l : list (nat * (list R -> list R))) (u : list R) : list R :=
  match l with [] => [] | (t, f) :: l' => f (firstn t u) ++ blk l' (skipn t u) end.
Definition dsum (l : list (nat * (list R -> list R))) : nat := sum_list (map fst l).
Definition len_ok (p : nat * (list R -> list R)) : Prop := forall u, length u = fst p -> length (snd p u) = fst p.
Definition iso_ok (p : nat * (list R -> list R)) : Prop :=
  forall u w, length u = fst p -> length w = fst p -> rdot (snd p u) (snd p w) = rdot u w.
Definition lin_ok (p : nat * (list R -> list R)) : Prop :=
  forall a u w, length u = fst p -> length w = fst p -> snd p (radd (rscal a u) w) = radd (rscal a (snd p u)) (snd p w).

Lemma cut_len a b (u : list R) : length u = (a + b)%nat -> length (firstn a u) = a /\ length (skipn a u) = b.
Proof. intros H. rewrite firstn_length, skipn_length. lia. Qed.

Lemma blk_length l : Forall len_ok l -> forall u, length u = dsum l -> length (blk l u) = dsum l.
Proof.
  unfold dsum. induction 1 as [|[t f] l Hf H IH]; intros u Lu; cbn [map fst sum_list blk] in *; auto.
  unfold len_ok in Hf; cbn [fst snd] in Hf.
  destruct (cut_len _ _ _ Lu) as [L1 L2]. rewrite app_length, IH by auto. rewrite (Hf (firstn t u)) by auto. reflexivity.
Qed.
Lemma rdot_app' a b c d : length a = length c -> rdot (a ++ b) (c ++ d) = rdot a c + rdot b d.
Proof.
  revert c; induction a as [|x a IH]; intros [|y c] H; try discriminate; [cbn; lra|]. 
  change (x * y + rdot (a ++ b) (c ++ d) = x * y + rdot a c + rdot b d). rewrite IH by (cbn in H; lia). lra.
Qed.
Lemma blk_iso l : Forall len_ok l -> Forall iso_ok l -> forall u w, length u = dsum l -> length w = dsum l ->
  rdot (blk l u) (blk l w) = rdot u w.
Proof.
  unfold dsum. induction 1 as [|[t f] l Hf H IH]; intros HI u w Lu Lw; cbn [map fst sum_list blk] in *.
  - destruct u, w; try discriminate. reflexivity.
  - apply Forall_cons_iff in HI. destruct HI as [I1 I2]. unfold len_ok in Hf; unfold iso_ok, lin_ok in I1; cbn [fst snd] in Hf, I1.
    destruct (cut_len _ _ _ Lu) as [L1 L2]. destruct (cut_len _ _ _ Lw) as [M1 M2].
    rewrite rdot_app' by (rewrite (Hf (firstn t u)), (Hf (firstn t w)); auto).
    rewrite IH by auto. rewrite (I1 (firstn t u) (firstn t w)) by auto.
    rewrite <- rdot_app' by lia. rewrite !firstn_skipn. reflexivity.
Qed.
Lemma radd_nil_r u : radd u [] = [].
Proof. destruct u; reflexivity. Qed.
Lemma firstn_radd n u w : firstn n (radd u w) = radd (firstn n u) (firstn n w).
Proof.
  revert u w; induction n as [|n IH]; intros [|a u] [|b w]; auto.
  change (a + b :: firstn n (radd u w) = a + b :: radd (firstn n u) (firstn n w)). rewrite IH. reflexivity.
Qed.
Lemma skipn_radd n u w : skipn n (radd u w) = radd (skipn n u) (skipn n w).
Proof.
  revert u w; induction n as [|n IH]; intros [|a u] [|b w]; auto.
  - change (@nil R = radd (skipn n u) []). rewrite radd_nil_r. reflexivity.
  - change (skipn n (radd u w) = radd (skipn n u) (skipn n w)). auto.
Qed.
Lemma firstn_rscal n a u : firstn n (rscal a u) = rscal a (firstn n u).
Proof. unfold rscal. apply firstn_map. Qed.
Lemma skipn_rscal n a u : skipn n (rscal a u) = rscal a (skipn n u).
Proof. unfold rscal. apply skipn_map. Qed.
Lemma radd_app' a b c d : length a = length c -> radd (a ++ b) (c ++ d) = radd a c ++ radd b d.
Proof.
  revert c; induction a as [|x a IH]; intros [|y c] H; try discriminate; auto.
  change (x + y :: radd (a ++ b) (c ++ d) = x + y :: (radd a c ++ radd b d)). rewrite IH by (cbn in H; lia). reflexivity.
Qed.
Lemma blk_lin l : Forall len_ok l -> Forall lin_ok l -> forall a u w, length u = dsum l -> length w = dsum l ->
  blk l (radd (rscal a u) w) = radd (rscal a (blk l u)) (blk l w).
Proof.
  unfold dsum. induction 1 as [|[t f] l Hf H IH]; intros HI a u w Lu Lw; cbn [map fst sum_list blk] in *.
  - reflexivity.
  - apply Forall_cons_iff in HI. destruct HI as [I1 I2]. unfold len_ok in Hf; unfold iso_ok, lin_ok in I1; cbn [fst snd] in Hf, I1.
    destruct (cut_len _ _ _ Lu) as [L1 L2]. destruct (cut_len _ _ _ Lw) as [M1 M2].
    rewrite firstn_radd, skipn_radd, firstn_rscal, skipn_rscal.
    rewrite (I1 a (firstn t u) (firstn t w)) by auto. rewrite IH by auto.
    replace (rscal a (f (firstn t u) ++ blk l (skipn t u))) with (rscal a (f (firstn t u)) ++ rscal a (blk l (skipn t u))) by (unfold rscal; rewrite map_app; reflexivity).
    rewrite radd_app'; auto. unfold rscal. rewrite map_length. rewrite (Hf (firstn t u)), (Hf (firstn t w)); auto.
Qed.
Lemma blk_id l u : length u = dsum l -> blk (map (fun p => (fst p, fun w => w)) l) u = u.
Proof.
  unfold dsum. revert u; induction l as [|[t f] l IH]; intros u Lu; cbn [map fst sum_list blk] in *.
  - destruct u; [auto|discriminate].
  - destruct (cut_len _ _ _ Lu) as [L1 L2]. rewrite IH by auto. apply firstn_skipn.
Qed.

(** Cutting columns and rows. *)
Fixpoint cutc (l : list (nat * (list R -> list R))) (cs : list (list R)) : list (mat XR) :=
  match l with [] => [] | (t, f) :: l' => matR t (map (fun c => f (firstn t c)) cs) :: cutc l' (map (skipn t) cs) end.
Fixpoint cutr (l : list (nat * (list R -> list R))) (cs : list (list R)) : list (mat XR) :=
  match l with [] => [] | (t, f) :: l' => rowsR t (map (fun c => f (firstn t c)) cs) :: cutr l' (map (skipn t) cs) end.

Lemma map2_map {A B C D} (g : B -> C -> D) (f : A -> B) (h : A -> C) l : map2 g (map f l) (map h l) = map (fun a => g (f a) (h a)) l.
Proof. induction l as [|a l IH]; auto. cbn. f_equal. auto. Qed.
Lemma vcat_cutc l : forall n cs, n = length cs -> vcat n (cutc l cs) = matR (dsum l) (map (blk l) cs).
Proof.
  unfold dsum. induction l as [|[t f] l IH]; intros n cs ->; cbn [cutc vcat blk map fst sum_list].
  - unfold matR. rewrite map_map. f_equal. induction cs as [|c cs IH]; auto. cbn. f_equal. auto.
  - rewrite (IH (length cs) (map (skipn t) cs)) by (rewrite map_length; auto). unfold matR. cbn [mrows mcols_]. f_equal.
    rewrite !map_map. rewrite map2_map. apply map_ext. intros c. cbn [fst snd]. rewrite fin_app. reflexivity.
Qed.
Lemma hcat_cutr l : Forall len_ok l -> forall n cs, n = length cs -> Forall (fun c => length c = dsum l) cs ->
  hcat n (cutr l cs) = rowsR (dsum l) (map (blk l) cs).
Proof.
  unfold dsum. induction 1 as [|[t f] l Hf H IH]; intros n cs -> F; cbn [cutr blk map fst sum_list] in *.
  - unfold hcat, rowsR. cbn. rewrite map_length. reflexivity.
  - unfold len_ok in Hf; cbn [fst snd] in Hf. assert (F2 : Forall (fun c => length c = sum_list (map fst l)) (map (skipn t) cs)).
    { rewrite Forall_map. eapply Forall_impl; [|exact F]. cbv beta. intros c Lc. apply (cut_len t); auto. }
    pose proof (IH (length cs) (map (skipn t) cs) ltac:(rewrite map_length; auto) F2) as E.
    unfold hcat in *. cbn [map concat]. unfold rowsR in E at 1. unfold rowsR at 2. inversion E as [[E1 E2]].
    cbn [mcols_] in E2 |- *. rewrite E2. clear E E1 E2 IH. rewrite !map_length. f_equal.
    unfold rowsR; cbn [mcols_]. rewrite map_seq_split. f_equal.
    + apply map_ext_in. intros j Hj. apply in_seq in Hj. rewrite !map_map. apply map_ext_in. intros c Hc.
      rewrite Forall_forall in F. destruct (cut_len _ _ _ (F c Hc)) as [L1 L2].
      rewrite app_nth1; auto. rewrite (Hf (firstn t c)); auto. cbn; lia.
    + apply map_ext_in. intros j Hj. rewrite !map_map. apply map_ext_in. intros c Hc.
      rewrite Forall_forall in F. destruct (cut_len _ _ _ (F c Hc)) as [L1 L2].
      rewrite app_nth2 by (rewrite (Hf (firstn t c)); cbn; auto; lia). rewrite (Hf (firstn t c)) by auto. cbn [fst]. do 2 f_equal. lia.
Qed.
Lemma cutc_rpieces subs l : Forall2 (fun s p => tangentDim s = fst p /\ len_ok p) subs l -> forall n cs, n = length cs ->
  Forall (fun c => length c = dsum l) cs -> rpieces DT n subs (cutc l cs).
Proof.
  unfold dsum. induction 1 as [|s [t f] subs l [Hd Hf] H IH]; intros n cs -> F; cbn [cutc map fst sum_list] in *; [constructor|]. unfold len_ok in Hf; cbn [fst snd] in Hf.
  constructor.
  - cbn [getDim]. rewrite Hd. replace (length cs) with (length (map (fun c => f (firstn t c)) cs)) by apply map_length.
    apply matR_shape. rewrite Forall_map. eapply Forall_impl; [|exact F]. cbv beta. intros c Lc. apply (Hf (firstn t c)). apply (cut_len t _ _ Lc).
  - apply IH; [rewrite map_length; auto|]. rewrite Forall_map. eapply Forall_impl; [|exact F]. cbv beta. intros c Lc. apply (cut_len t _ _ Lc).
Qed.
Lemma cutr_cpieces subs l : Forall2 (fun s p => tangentDim s = fst p /\ len_ok p) subs l -> forall n cs, n = length cs ->
  cpieces DT n subs (cutr l cs).
Proof.
  induction 1 as [|s [t f] subs l [Hd Hf] H IH]; intros n cs ->; cbn [cutr map fst] in *; [constructor|]. unfold len_ok in Hf; cbn [fst snd] in Hf.
  constructor.
  - cbn [getDim]. rewrite Hd. replace (length cs) with (length (map (fun c => f (firstn t c)) cs)) by apply map_length.
    apply rowsR_shape.
  - apply IH. rewrite map_length; auto.
Qed.

(** ** One tree *)
(** [f] is the transport of [m] from [x] along [v]. *)
Definition transport_of (m : mfd XR) (x v : list R) (f : list R -> list R) : Prop :=
  let t := tangentDim m in
  (forall u, length u = t -> length (f u) = t) /\
  (forall u w, length u = t -> length w = t -> rdot (f u) (f w) = rdot u w) /\
  (forall a u w, length u = t -> length w = t -> f (radd (rscal a u) w) = radd (rscal a (f u)) (f w)) /\
  (forall cs out, Forall (fun c => length c = t) cs -> shape out t (length cs) ->
     applyTransport m out (matR t cs) (fin x) (fin v) = Ok (matR t (map f cs))) /\
  (forall rows out, Forall (fun c => length c = t) rows -> shape out (length rows) t ->
     applyInvTransportOnTheRight m out (rowsR t rows) (fin x) (fin v) = Ok (rowsR t (map f rows))) /\
  (forall o y u p, retractation m o (fin x) (fin v) = Ok y -> length u = t ->
     (isInTxM m y (fin (f u)) p = Ok true <-> isInTxM m (fin x) (fin u) p = Ok true)).

Lemma group3 (P : mfd XR -> list R -> list R -> Prop) subs : forall xs vs, Forall3 P (flat_map leaves subs) xs vs ->
  exists xss vss, xs = concat xss /\ vs = concat vss /\ Forall3 (fun s a b => Forall3 P (leaves s) a b) subs xss vss.
Proof.
  induction subs as [|s ss IH]; intros xs vs H.
  - inversion H; subst. exists [], []. repeat split; constructor.
  - cbn [flat_map] in H.
    assert (G : forall l1 l2 xs vs, Forall3 P (l1 ++ l2) xs vs -> exists x1 x2 v1 v2, xs = x1 ++ x2 /\ vs = v1 ++ v2 /\
       Forall3 P l1 x1 v1 /\ Forall3 P l2 x2 v2).
    { clear. induction l1 as [|a l1 IH]; intros l2 xs vs H; [exists [], xs, [], vs; repeat split; auto; constructor|].
      cbn in H. inversion H as [|? x v ? xs' vs' H1 H2]; subst. destruct (IH _ _ _ H2) as (x1 & x2 & v1 & v2 & -> & -> & H3 & H4).
      exists (x :: x1), x2, (v :: v1), v2. repeat split; auto. constructor; auto. }
    destruct (G _ _ _ _ H) as (x1 & x2 & v1 & v2 & -> & -> & H1 & H2).
    destruct (IH _ _ H2) as (xss & vss & -> & -> & H3). exists (x1 :: xss), (v1 :: vss). repeat split; auto. constructor; auto.
Qed.
Lemma tanM_prod h sT sR subs x v : tanM (Prod h sT sR subs) x v ->
  exists xs vs, x = concat xs /\ v = concat vs /\ Forall3 tanM subs xs vs.
Proof.
  intros (xs & vs & -> & -> & H1 & H2). cbn [leaves] in *.
  assert (H3 : Forall3 (fun s a b => on_leaf s a /\ tan_leaf s a b) (flat_map leaves subs) xs vs).
  { clear - H1 H2. revert H1. induction H2 as [|s a b ls la lb H H2 IH]; intros H1; [constructor|]. inversion H1; subst. constructor; auto. }
  destruct (group3 _ _ _ _ H3) as (xss & vss & -> & -> & G). clear - G.
  exists (map (@concat R) xss), (map (@concat R) vss).
  assert (CC : forall l : list (list (list R)), concat (concat l) = concat (map (@concat R) l)).
  { induction l as [|a l IH]; auto. cbn [map concat]. rewrite concat_app, IH. reflexivity. }
  rewrite !CC. split; [auto|split; auto]. clear CC. induction G as [|s a b ls la lb H G IH]; cbn [map]; constructor; auto.
  exists a, b. repeat split; auto; clear - H.
  - induction H as [|s0 a0 b0 ls la lb [H0 _] H IH]; constructor; auto.
  - induction H as [|s0 a0 b0 ls la lb [_ H0] H IH]; constructor; auto.
Qed.

Lemma real_so3_transport h l a b x v : leaf_wf h l a b -> l <> LS2 -> length x = representationDim (Leaf h l a b) ->
  length v = tangentDim (Leaf h l a b) -> transport_of (Leaf h l a b) x v (fun u => u).
Proof.
  intros W Hl Lx Lv. unfold transport_of. set (s := Leaf h l a b) in *. set (t := tangentDim s) in *.
  assert (Ch : transport_checks s (fin x) (fin v) = Ok tt).
  { unfold transport_checks, s. cbn [isInTxM]. rewrite !check_eq by (rewrite fin_length; auto). destruct l; try reflexivity. contradiction. }
  split; [auto|split; [auto|split; [auto|split; [|split]]]].
  - intros cs out F So. unfold s. cbn [applyTransport]. fold s. fold t. pose proof So as (S1 & S2 & _).
    rewrite !check_eq by (unfold ncols; cbn [matR mrows mcols_]; rewrite ?map_length; auto). rewrite Ch. cbn [bind].
    rewrite map_id. assert (E : massign out (matR t cs) = Ok (matR t cs)) by (eapply massign_shape; [exact So|apply matR_shape; auto]).
    destruct l; [exact E|contradiction|exact E].
  - intros rows out F So. unfold s. cbn [applyInvTransportOnTheRight]. fold s. fold t. pose proof So as (S1 & S2 & _).
    pose proof (rowsR_shape t rows) as (T1 & T2 & _).
    rewrite !check_eq by (unfold ncols; congruence). rewrite Ch. cbn [bind].
    rewrite map_id. assert (E : massign out (rowsR t rows) = Ok (rowsR t rows)) by (eapply massign_shape; [exact So|apply rowsR_shape; auto]).
    destruct l; [exact E|contradiction|exact E].
  - intros o y u p H Lu. pose proof (retractation_length _ _ _ _ _ H) as Ly. unfold s in H. cbn [retractation] in H. bind_inv H.
    match goal with E : mnf_assert _ = Ok _ |- _ => apply mnf_inv in E; apply Nat.eqb_eq in E end.
    unfold s. cbn [isInTxM]. rewrite !check_eq by (rewrite ?fin_length; auto; congruence). destruct l; try contradiction; tauto.
Qed.

Lemma mget_rowsR t rows i j : (i < length rows)%nat -> (j < t)%nat -> mget (rowsR t rows) i j = Fin (nth j (nth i rows []) 0).
Proof.
  intros Hi Hj. unfold mget, rowsR. cbn [mcols_].
  rewrite nth_indep with (d' := (fun j => map (fun a => Fin (nth j a 0)) rows) 0%nat) by (rewrite map_length, seq_length; auto).
  rewrite (map_nth (fun j => map (fun a => Fin (nth j a 0)) rows)), seq_nth by auto. cbn [Nat.add].
  rewrite nth_indep with (d' := (fun a => Fin (nth j a 0)) []) by (rewrite map_length; auto).
  rewrite (map_nth (fun a => Fin (nth j a 0))). reflexivity.
Qed.
Lemma mrow_rowsR t rows i : (i < length rows)%nat -> length (nth i rows []) = t -> mrow (rowsR t rows) i = fin (nth i rows []).
Proof.
  intros Hi Lt. unfold mrow, rowsR. cbn [mcols_]. rewrite map_map.
  apply (nth_ext _ _ (Fin 0) (Fin 0)); [rewrite map_length, seq_length, fin_length; auto|].
  intros j Hj. rewrite map_length, seq_length in Hj.
  rewrite nth_indep with (d' := (fun j => nth i (map (fun a => Fin (nth j a 0)) rows) k0) 0%nat) by (rewrite map_length, seq_length; auto).
  rewrite (map_nth (fun j => nth i (map (fun a => Fin (nth j a 0)) rows) k0)), seq_nth by auto. cbn [Nat.add].
  rewrite nth_indep with (d' := (fun a => Fin (nth j a 0)) []) by (rewrite map_length; auto).
  rewrite (map_nth (fun a => Fin (nth j a 0))), nth_fin. reflexivity.
Qed.

Lemma rmulv_lin A a u w : length u = 3%nat -> length w = 3%nat -> rmulv A (radd (rscal a u) w) = radd (rscal a (rmulv A u)) (rmulv A w).
Proof.
  intros Lu Lw. destruct u as [|u0 [|u1 [|u2 [|]]]]; try discriminate. destruct w as [|w0 [|w1 [|w2 [|]]]]; try discriminate.
  unfold rmulv, radd, rscal. cbn. f_equal; [ring|f_equal; [ring|f_equal; ring]].
Qed.

Lemma s2_transport_of h a b x v : leaf_wf h LS2 a b -> length x = 3%nat -> length v = 3%nat -> rdot x x = 1 -> rdot x v = 0 ->
  exists f, transport_of (Leaf h LS2 a b) x v f.
Proof.
  intros W Lx Lv Ux Hv. assert (Ht : Rabs (rdot x v) < 1 / 100000000) by (rewrite Hv, Rabs_R0; lra).
  destruct (s2_transport_y h a b x v W Lx Lv Ux Ht) as (Ly & Uy & Hd & Re & Ro & Ch). cbv zeta in *.
  set (y := rscal (/ rnorm (radd x v)) (radd x v)) in *. set (A := rotbt x y) in *.
  assert (RA : rot A) by (apply rotbt_rot; auto; lra).
  assert (Ax : rmulv A x = y) by (apply rotbt_maps; auto; lra).
  pose proof W as (W1 & W2 & W3 & _).
  exists (rmulv A). unfold transport_of. set (s := Leaf h LS2 a b) in *.
  assert (T3 : tangentDim s = 3%nat) by exact W2. rewrite T3. assert (R3 : representationDim s = 3%nat) by exact W3.
  split; [reflexivity|]. split; [intros; apply rot_dot; auto|]. split; [intros; apply rmulv_lin; auto|]. split; [|split].
  - intros cs out F So. pose proof So as (S1 & S2 & _). unfold s. cbn [applyTransport]. fold s. rewrite T3.
    rewrite !check_eq by (unfold ncols; cbn [matR mrows mcols_]; rewrite ?map_length; auto). rewrite Ch. cbn [bind].
    rewrite Re by reflexivity. cbn [bind]. unfold s2_applyTransport. rewrite Ro. cbn [bind]. apply m3_on_cols_fin; auto.
  - intros rows out F So. pose proof So as (S1 & S2 & _). pose proof (rowsR_shape 3 rows) as (T1 & T2 & _).
    unfold s. cbn [applyInvTransportOnTheRight]. fold s. rewrite T3.
    rewrite !check_eq by (unfold ncols; congruence). rewrite Ch. cbn [bind].
    rewrite Re by reflexivity. cbn [bind]. unfold s2_applyInvTransportOnTheRight. rewrite Ro. cbn [bind].
    unfold ncols. rewrite T1, T2, S1, S2, !Nat.eqb_refl. cbn [andb Nat.eqb eigen_assert bind]. f_equal.
    apply (mat_ext _ _ (length rows) 3).
    + apply shape_mbuild.
    + rewrite <- (map_length (rmulv A) rows). apply rowsR_shape.
    + intros i j Hi Hj. rewrite Forall_forall in F.
      assert (Li : length (nth i rows []) = 3%nat) by (apply F, nth_In; auto).
      rewrite mget_mbuild by auto. rewrite mrow_rowsR by auto. unfold A. rewrite m3_mulv_fin. fold A.
      rewrite mget_rowsR by (rewrite ?map_length; auto).
      rewrite (nth_indep (map (rmulv A) rows) [] (rmulv A [])) by (rewrite map_length; auto). rewrite (map_nth (rmulv A)).
      apply (nth_fin j (rmulv A (nth i rows []))).
  - intros o y' u p Hr Lu.
    assert (Lo : length o = 3%nat).
    { unfold s in Hr. cbn [retractation] in Hr. bind_inv Hr.
      match goal with E : mnf_assert _ = Ok _ |- _ => apply mnf_inv in E; apply Nat.eqb_eq in E end. match goal with E : length o = _ |- _ => exact (eq_trans E R3) end. }
    rewrite (Re o Lo) in Hr. assert (E : y' = fin y) by congruence. subst y'.
    unfold s. cbn [isInTxM]. fold s. rewrite T3, R3. rewrite !check_eq by (rewrite ?fin_length; auto). cbn [bind].
    unfold s2_isInTxM. rewrite !dot_fin. rewrite <- Ax, rot_dot by auto. tauto.
Qed.

Lemma fin_lens D (subs : list (mfd XR)) xs : Forall2 (fun s x => length x = getDim D s) subs xs -> pieces D subs (map fin xs).
Proof. induction 1; cbn [map]; constructor; auto. rewrite fin_length. auto. Qed.

(** The factors of a product, each with its point, vector and transport. *)
Definition okq (s : mfd XR) (x v : list R) (p : nat * (list R -> list R)) : Prop :=
  length x = representationDim s /\ length v = tangentDim s /\ fst p = tangentDim s /\ transport_of s x v (snd p).

Lemma okq_at subs xs vs l : Forall4 okq subs xs vs l -> forall n cs outs, n = length cs ->
  Forall (fun c => length c = dsum l) cs -> rpieces DT n subs outs ->
  Forall4 (fun s o ca y => applyTransport s o (fst ca) (fst (snd ca)) (snd (snd ca)) = Ok y)
    subs outs (combine (cutc (map (fun p => (fst p, fun w => w)) l) cs) (combine (map fin xs) (map fin vs))) (cutc l cs).
Proof.
  unfold dsum. induction 1 as [|s x v [t f] subs xs vs l (H1 & H2 & H3 & HT) H IH]; intros n cs outs -> F Ho; inversion Ho as [|? o ? outs' So Ho']; subst.
  - constructor.
  - cbn [map cutc combine fst snd sum_list] in *. subst t. constructor.
    + cbn [fst snd]. destruct HT as (_ & _ & _ & HT & _). cbn [fst snd] in HT.
      rewrite <- (map_map (firstn (tangentDim s)) f). apply HT.
      * rewrite Forall_map. eapply Forall_impl; [|exact F]. cbv beta. intros c Lc. apply (cut_len _ _ _ Lc).
      * rewrite map_length. exact So.
    + apply (IH (length cs)); [rewrite map_length; auto| |auto].
      rewrite Forall_map. eapply Forall_impl; [|exact F]. cbv beta. intros c Lc. apply (cut_len _ _ _ Lc).
Qed.
Lemma okq_aitr subs xs vs l : Forall4 okq subs xs vs l -> forall n cs outs, n = length cs ->
  Forall (fun c => length c = dsum l) cs -> cpieces DT n subs outs ->
  Forall4 (fun s o ca y => applyInvTransportOnTheRight s o (fst ca) (fst (snd ca)) (snd (snd ca)) = Ok y)
    subs outs (combine (cutr (map (fun p => (fst p, fun w => w)) l) cs) (combine (map fin xs) (map fin vs))) (cutr l cs).
Proof.
  unfold dsum. induction 1 as [|s x v [t f] subs xs vs l (H1 & H2 & H3 & HT) H IH]; intros n cs outs -> F Ho; inversion Ho as [|? o ? outs' So Ho']; subst.
  - constructor.
  - cbn [map cutr combine fst snd sum_list] in *. subst t. constructor.
    + cbn [fst snd]. destruct HT as (_ & _ & _ & _ & HT & _). cbn [fst snd] in HT.
      rewrite <- (map_map (firstn (tangentDim s)) f). apply HT.
      * rewrite Forall_map. eapply Forall_impl; [|exact F]. cbv beta. intros c Lc. apply (cut_len _ _ _ Lc).
      * rewrite map_length. exact So.
    + apply (IH (length cs)); [rewrite map_length; auto| |auto].
      rewrite Forall_map. eapply Forall_impl; [|exact F]. cbv beta. intros c Lc. apply (cut_len _ _ _ Lc).
Qed.

Fixpoint cutv (l : list (nat * (list R -> list R))) (u : list R) : list (list R) :=
  match l with [] => [] | (t, f) :: l' => f (firstn t u) :: cutv l' (skipn t u) end.
Lemma cutv_blk l u : concat (cutv l u) = blk l u.
Proof. revert u; induction l as [|[t f] l IH]; intros u; auto. cbn. rewrite IH. auto. Qed.

Lemma okq_inT subs xs vs l : Forall4 okq subs xs vs l -> forall outs ys p u, Forall5 (fun s o x v r => retractation s o x v = Ok r) subs outs (map fin xs) (map fin vs) ys ->
  length u = dsum l ->
  Forall3 (fun s x v => isInTxM s x v p = Ok true) subs ys (map fin (cutv l u)) <->
  Forall3 (fun s x v => isInTxM s x v p = Ok true) subs (map fin xs) (map fin (cutv (map (fun p => (fst p, fun w => w)) l) u)).
Proof.
  unfold dsum. induction 1 as [|s x v [t f] subs xs vs l (H1 & H2 & H3 & HT) H IH]; intros outs ys p u H5 Lu; inversion H5; subst.
  - cbn. split; constructor.
  - cbn [map cutv fst snd sum_list] in *. subst t. destruct (cut_len _ _ _ Lu) as [L1 L2].
    destruct HT as (_ & _ & _ & _ & _ & HT). cbn [fst snd] in HT.
    split; intros G; inversion G; subst; constructor; try (eapply IH; eauto); try (eapply HT; eauto).
Qed.
Lemma okq_len subs xs vs l : Forall4 okq subs xs vs l ->
  Forall len_ok l /\ Forall iso_ok l /\ Forall lin_ok l /\ Forall2 (fun s x => length x = getDim DR s) subs xs /\
  Forall2 (fun s x => length x = getDim DT s) subs vs /\ sum_list (map (getDim DT) subs) = dsum l /\
  Forall2 (fun s p => tangentDim s = fst p /\ len_ok p) subs l.
Proof.
  unfold dsum. induction 1 as [|s x v [t f] subs xs vs l (H1 & H2 & H3 & HT) H IH]; [repeat split; constructor|].
  destruct IH as (I1 & I2 & I3 & I4 & I5 & I6 & I7). cbn [fst snd] in *. subst t. destruct HT as (T1 & T2 & T3 & _).
  assert (LK : len_ok (tangentDim s, f)) by (intros u; apply T1).
  split; [constructor; auto|]. split; [constructor; auto; intros u w; apply T2|]. split; [constructor; auto; intros a u w; apply T3|].
  split; [constructor; auto|]. split; [constructor; auto|]. split; [|constructor; auto].
  cbn [map sum_list fst]. rewrite I6. reflexivity.
Qed.
Lemma cutv_pieces subs l : Forall2 (fun s p => tangentDim s = fst p /\ len_ok p) subs l -> forall u, length u = dsum l -> pieces DT subs (map fin (cutv l u)).
Proof.
  unfold dsum. induction 1 as [|s [t f] subs l [Hd Hf] H IH]; intros u Lu; cbn [cutv map fst sum_list] in *; [constructor|].
  destruct (cut_len _ _ _ Lu) as [L1 L2]. unfold len_ok in Hf; cbn [fst snd] in Hf. constructor; [rewrite fin_length; cbn [getDim]; rewrite Hf; auto|]. apply IH; auto.
Qed.
Lemma idl l subs : Forall2 (fun (s : mfd XR) p => tangentDim s = fst p /\ len_ok p) subs l ->
  Forall2 (fun s p => tangentDim s = fst p /\ len_ok p) subs (map (fun p => (fst p, fun w => w)) l) /\ dsum (map (fun p => (fst p, fun w : list R => w)) l) = dsum l.
Proof.
  unfold dsum. induction 1 as [|s [t f] subs l [Hd Hf] H [IH IH2]]; [split; [constructor|auto]|]. cbn [map fst sum_list]. split; [|congruence].
  constructor; auto. split; auto. intros u; auto.
Qed.

Lemma transport_tree m : wf m -> forall x v, tanM m x v ->
  length x = representationDim m /\ length v = tangentDim m /\ exists f, transport_of m x v f.
Proof.
  induction m as [h l a b|h sT sR subs IH] using mfd_ind'; intros W x v HT.
  - destruct HT as (xs & vs & -> & -> & H1 & H2). cbn [leaves] in *. inversion H1 as [|? x ? ? Hx H1']; subst. inversion H1'; subst.
    inversion H2 as [|? ? v ? ? ? Hv H2']; subst. inversion H2'; subst. cbn [concat]. rewrite !app_nil_r.
    inversion W as [? ? ? ? Wl|]; subst. pose proof (on_leaf_len _ _ _ _ _ Wl Hx) as Lx. destruct Hv as [Lv Hv].
    split; auto. split; auto. destruct l as [| |mp].
    + eexists. apply real_so3_transport; auto. discriminate.
    + destruct Hx as [Lx3 Ux]. apply s2_transport_of; auto. rewrite Lv. apply Wl.
    + eexists. apply real_so3_transport; auto. discriminate.
  - destruct (tanM_prod _ _ _ _ _ _ HT) as (xs & vs & -> & -> & HF). clear HT.
    assert (Hs : Forall wf subs) by (inversion W; auto).
    assert (Q : exists l, Forall4 okq subs xs vs l).
    { eapply choose4; [exact HF|]. cbv beta. intros s x v Hi Ht. rewrite Forall_forall in IH, Hs.
      destruct (IH s Hi (Hs s Hi) x v Ht) as (L1 & L2 & f & Hf). exists (tangentDim s, f). split; [auto|split; [auto|split; [reflexivity|exact Hf]]]. }
    clear HF IH. destruct Q as [l Q]. destruct (okq_len _ _ _ _ Q) as (K1 & K2 & K3 & K4 & K5 & K6 & K7).
    destruct (idl _ _ K7) as [K8 K9].
    assert (Px := fin_lens DR _ _ K4). assert (Pv := fin_lens DT _ _ K5).
    assert (TD : tangentDim (Prod h sT sR subs) = dsum l) by (rewrite <- K6; apply (wf_prod_getDim DT _ _ _ _ W)).
    split; [rewrite <- (fin_length (concat xs)), fin_concat; apply (pieces_getDim DR _ _ _ _ _ W Px)|].
    split; [rewrite <- (fin_length (concat vs)), fin_concat; apply (pieces_getDim DT _ _ _ _ _ W Pv)|].
    exists (blk l). unfold transport_of. rewrite TD, !fin_concat.
    split; [apply blk_length; auto|]. split; [apply blk_iso; auto|]. split; [apply blk_lin; auto|]. split; [|split].
    + intros cs out F So. rewrite <- K6 in So. destruct (cut_rows DT _ _ _ So) as (outs & -> & Po).
      rewrite <- (vcat_cutc l (length cs) cs) by auto.
      replace (matR (dsum l) cs) with (vcat (length cs) (cutc (map (fun p => (fst p, fun w => w)) l) cs)).
      2:{ rewrite vcat_cutc, K9 by auto. f_equal. rewrite <- (map_id cs) at 2. apply map_ext_in. intros c Hc. apply blk_id. rewrite Forall_forall in F. auto. }
      apply applyTransport_prod; auto.
      * eapply cutc_rpieces; eauto. rewrite K9. auto.
      * eexists. split; [reflexivity|]. eapply okq_at; eauto.
    + intros cs out F So. rewrite <- K6 in So. destruct (cut_cols DT _ _ _ So) as (outs & -> & Po).
      rewrite <- (hcat_cutr l K1 (length cs) cs) by auto.
      replace (rowsR (dsum l) cs) with (hcat (length cs) (cutr (map (fun p => (fst p, fun w => w)) l) cs)).
      2:{ rewrite hcat_cutr, K9 by (rewrite ?K9; auto; clear; induction l; constructor; auto; intros u; auto).
          f_equal. rewrite <- (map_id cs) at 2. apply map_ext_in. intros c Hc. apply blk_id. rewrite Forall_forall in F. auto. }
      apply applyInvTransportOnTheRight_prod; auto.
      * eapply cutr_cpieces; eauto.
      * eexists. split; [reflexivity|]. eapply okq_aitr; eauto.
    + intros o y u p Hr Lu.
      assert (Lo : length o = representationDim (Prod h sT sR subs)).
      { cbn [retractation] in Hr. bind_inv Hr. match goal with E : mnf_assert _ = Ok _ |- _ => apply mnf_inv in E; apply Nat.eqb_eq in E end. auto. }
      destruct (cut_self DR _ _ _ _ _ W Lo) as (os & -> & Po).
      apply retractation_prod in Hr; auto. destruct Hr as (ys & -> & H5).
      assert (Py : pieces DR subs ys).
      { clear - H5 Po. unfold pieces in *. revert Po. induction H5; intros Po; [constructor|]. inversion Po; subst. constructor; auto.
        match goal with E : retractation _ _ _ _ = Ok _ |- _ => rewrite (retractation_length _ _ _ _ _ E) end. auto. }
      rewrite <- cutv_blk, fin_concat. rewrite <- (blk_id l u Lu) at 2. rewrite <- cutv_blk, fin_concat.
      rewrite !isInTxM_prod; auto using cutv_pieces.
      * eapply okq_inT; eauto.
      * apply cutv_pieces; auto. rewrite K9. auto.
Qed.
