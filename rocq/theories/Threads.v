(** Proofs for C44. *)
From Coq Require Import List Arith Bool ZArith Lia.
From Verif Require Import Base Scalar Vec Model_SO3 Model_Manifold Model_Threads SpecThreads.
Import ListNotations.

Lemma upd_length {A} (l : list A) i x : length (upd l i x) = length l.
Proof. revert i; induction l; intros [|i]; cbn; auto. Qed.
Lemma upd_same {A} (l : list A) i x : i < length l -> nth_error (upd l i x) i = Some x.
Proof. revert i; induction l; intros [|i] H; cbn in *; try lia; auto. apply IHl. lia. Qed.
Lemma upd_other {A} (l : list A) i j x : i <> j -> nth_error (upd l i x) j = nth_error l j.
Proof. revert i j; induction l; intros [|i] [|j] H; cbn; auto; try lia. Qed.
Lemma nth_nth_error {A} (l : list A) i d : nth i l d = match nth_error l i with Some a => a | None => d end.
Proof. revert i; induction l; intros [|i]; cbn; auto. Qed.
Lemma nth_upd_same {A} (l : list A) i x d : i < length l -> nth i (upd l i x) d = x.
Proof. intros H. rewrite nth_nth_error, upd_same; auto. Qed.
Lemma nth_upd_other {A} (l : list A) i j x d : i <> j -> nth j (upd l i x) d = nth j l d.
Proof. intros H. rewrite !nth_nth_error, upd_other; auto. Qed.
Lemma lt_some {A} (l : list A) i a : nth_error l i = Some a -> i < length l.
Proof. intros H. apply nth_error_Some. congruence. Qed.
Lemma firstn_S {A} (l : list A) k a : nth_error l k = Some a -> firstn (S k) l = firstn k l ++ [a].
Proof. revert k; induction l; intros [|k] H; cbn in *; try discriminate; [congruence|]. f_equal. auto. Qed.
Lemma firstn_upd {A} (l : list A) k x : firstn k (upd l k x) = firstn k l.
Proof. revert k; induction l; intros [|k]; cbn; auto. f_equal. auto. Qed.

Lemma grow_ok fuel n size : 0 < n -> size <= n + fuel -> n <= grow fuel n size /\ size <= grow fuel n size.
Proof.
  revert n; induction fuel; intros n H L; cbn [grow]; destruct (Nat.ltb_spec n size); try lia.
  destruct (IHfuel (n * 2)); lia.
Qed.

Section Threads.
Context {K : Type} {SK : Scalar K}.
Implicit Types (g : config K) (c : call K) (s : shared K) (p : pc K).

Lemma jacobian_cols c J : jacobian c = Ok J -> ncols J = map_cols c.
Proof.
  unfold jacobian, map_cols. destruct (c_fun c), (c_map c).
  - unfold em_diffRetractation. destruct (em_diffRetractation_rows _); cbn; intros [= <-]; reflexivity.
  - unfold eq_diffRetractation. destruct (quat_read _); cbn; intros [= <-]; reflexivity.
  - unfold em_diffPseudoLog0. destruct (c_x c) as [|? [|? [|? [|? [|? [|? [|? [|? [|? [|? ?]]]]]]]]]]; try discriminate. intros [= <-]. reflexivity.
  - unfold eq_diffPseudoLog0. destruct (quat_read _); cbn; [|discriminate]. destruct (_ && _); intros [= <-]; reflexivity.
Qed.
Lemma mmul_length (A J : mat K) : length (concat (mcols_ (mmul A J))) = mrows A * ncols J.
Proof.
  unfold mmul, ncols. cbn. induction (mcols_ J) as [|col l IH]; cbn; [lia|]. rewrite app_length, IH. unfold mvmul. rewrite map_length, seq_length. lia.
Qed.
Lemma sequential_product c out R : sequential c out = Ok R -> exists J, jacobian c = Ok J /\ R = mmul (c_in c) J.
Proof.
  intros H. unfold sequential, jacobian in *. destruct (c_fun c), (c_map c); cbn in H;
    repeat match type of H with bind (mnf_assert ?b) _ = _ => destruct b; cbn in H; [|discriminate] end;
    match type of H with ?x = _ => idtac end.
  - unfold em_applyDiffRetractation in H. destruct (mnf_assert _) in H; [|discriminate]. cbn [bind] in H. destruct (em_diffRetractation (c_x c)) as [J|]; [|discriminate]. cbn [bind] in H. unfold massign in H. destruct (eigen_assert _) in H; [|discriminate]. injection H as <-. eauto.
  - unfold eq_applyDiffRetractation in H. destruct (mnf_assert _) in H; [|discriminate]. cbn [bind] in H. destruct (eq_diffRetractation (c_x c)) as [J|]; [|discriminate]. cbn [bind] in H. unfold massign in H. destruct (eigen_assert _) in H; [|discriminate]. injection H as <-. eauto.
  - unfold em_applyDiffPseudoLog0 in H. destruct (mnf_assert _) in H; [|discriminate]. cbn [bind] in H. destruct (em_diffPseudoLog0 (c_x c)) as [J|]; [|discriminate]. cbn [bind] in H. unfold massign in H. destruct (eigen_assert _) in H; [|discriminate]. injection H as <-. eauto.
  - unfold eq_applyDiffPseudoLog0 in H. destruct (mnf_assert _) in H; [|discriminate]. cbn [bind] in H. destruct (eq_diffPseudoLog0 (c_x c)) as [J|]; [|discriminate]. cbn [bind] in H. unfold massign in H. destruct (eigen_assert _) in H; [|discriminate]. injection H as <-. eauto.
Qed.
Lemma acceptable_product c : acceptable c -> exists J, jacobian c = Ok J /\ right c (concat (mcols_ (mmul (c_in c) J))) /\ length (concat (mcols_ (mmul (c_in c) J))) = need c.
Proof.
  intros (o & R & E). destruct (sequential_product c o R E) as (J & EJ & ->). exists J. split; auto. split; [exists o; eexists; split; eauto|].
  rewrite mmul_length. unfold need. f_equal. apply jacobian_cols. auto.
Qed.

(** ** One call, alone on its object *)
(** [f]: the block the object owns. *)
Definition idle_inv s (i : nat) (f : option nat) : Prop := exists n b cells,
  nth_error (objs s) i = Some (Obj n b) /\ f = Some b /\ blk s b = Some cells /\ length cells = n /\ 0 < n.
Definition sized s c (f : option nat) (b : nat) : Prop := exists n cells,
  nth_error (objs s) (c_obj c) = Some (Obj n b) /\ f = Some b /\ blk s b = Some cells /\ length cells = n /\ 0 < n /\ need c <= n.
Definition pcinv s c p (f : option nat) : Prop :=
  match p with
  | PCheck | PGrow => idle_inv s (c_obj c) f
  | PFree n => idle_inv s (c_obj c) f /\ need c <= n /\ 0 < n
  | PAlloc n => c_obj c < length (objs s) /\ f = None /\ need c <= n /\ 0 < n
  | PSetBuf n b => c_obj c < length (objs s) /\ f = Some b /\ need c <= n /\ 0 < n /\ exists cells, blk s b = Some cells /\ length cells = n
  | PSize n => need c <= n /\ 0 < n /\ exists k b cells, nth_error (objs s) (c_obj c) = Some (Obj k b) /\ f = Some b /\ blk s b = Some cells /\ length cells = n
  | PMap => exists b, sized s c f b
  | PWrite b vals k => sized s c f b /\ right c vals /\ length vals = need c /\ k <= need c /\
      forall cells, blk s b = Some cells -> firstn k cells = map Some (firstn k vals)
  | PRead b k out => sized s c f b /\ exists vals, right c vals /\ length vals = need c /\ k <= need c /\ out = firstn k vals /\
      forall cells, blk s b = Some cells -> firstn (need c) cells = map Some vals
  end.
Lemma sized_idle s c f b : sized s c f b -> idle_inv s (c_obj c) f.
Proof. intros (n & cells & H1 & H2 & H3 & H4 & H5 & _). exists n, b, cells. auto. Qed.
Lemma idle_local s s' i f : nth_error (objs s') i = nth_error (objs s) i -> (forall b, f = Some b -> blk s' b = blk s b) -> idle_inv s i f -> idle_inv s' i f.
Proof. intros E B (n & b & cells & H1 & H2 & H3 & H4). exists n, b, cells. rewrite E, B; auto. Qed.
Lemma sized_local s s' c f b : nth_error (objs s') (c_obj c) = nth_error (objs s) (c_obj c) -> (forall b, f = Some b -> blk s' b = blk s b) -> sized s c f b -> sized s' c f b.
Proof. intros E B (n & cells & H1 & H2 & H3). exists n, cells. rewrite E, B; auto. Qed.
Lemma sized_f s c f b : sized s c f b -> f = Some b.
Proof. intros (n & cells & H1 & H2 & _). auto. Qed.
Lemma pcinv_local s s' c p f : length (objs s') = length (objs s) -> nth_error (objs s') (c_obj c) = nth_error (objs s) (c_obj c) ->
  (forall b, f = Some b -> blk s' b = blk s b) -> pcinv s c p f -> pcinv s' c p f.
Proof.
  intros L E B H. destruct p; cbn [pcinv] in *; rewrite ?L.
  - eapply idle_local; eauto.
  - eapply idle_local; eauto.
  - destruct H; split; auto. eapply idle_local; eauto.
  - auto.
  - destruct H as (H1 & H2 & H3 & H4 & H5). repeat split; auto. rewrite B; auto.
  - destruct H as (H1 & H2 & k & b & cells & H3 & H4 & H5). repeat split; auto. exists k, b, cells. rewrite E, B; auto.
  - destruct H as (b & H). exists b. eapply sized_local; eauto.
  - destruct H as (H & H'). split; [eapply sized_local; eauto|]. rewrite B by (eapply sized_f; eauto). auto.
  - destruct H as (H & H'). split; [eapply sized_local; eauto|]. rewrite B by (eapply sized_f; eauto). auto.
Qed.

Lemma blk_lt s b cells : blk s b = Some cells -> b < length (heap s).
Proof. unfold blk. intros H. destruct (Nat.lt_ge_cases b (length (heap s))); auto. rewrite nth_overflow in H by auto. discriminate. Qed.

Lemma step_call_ok s c p f : acceptable c -> pcinv s c p f ->
  exists s' r f', step_call s c p = Ok (s', r) /\
    match r with Go p' => pcinv s' c p' f' | Return out => idle_inv s' (c_obj c) f' /\ right c out end /\
    length (objs s') = length (objs s) /\
    (forall j, j <> c_obj c -> nth_error (objs s') j = nth_error (objs s) j) /\
    (forall b, f <> Some b -> blk s b <> None -> blk s' b = blk s b) /\
    (forall b, f' = Some b -> f = Some b \/ (b = length (heap s))).
Proof.
  intros G H. destruct p; cbn [pcinv] in H; unfold step_call.
  - destruct H as (n & b & cells & H1 & H2 & H3 & H4 & H5). rewrite H1. cbn [o_size]. exists s. eexists. exists f. split; [reflexivity|].
    destruct (Nat.ltb_spec n (need c)); cbn [pcinv]; repeat split; auto.
    + exists n, b, cells. auto.
    + exists b, n, cells. repeat split; auto.
  - destruct H as (n & b & cells & H1 & H2 & H3 & H4 & H5). rewrite H1. cbn [o_size]. exists s. eexists. exists f. split; [reflexivity|].
    destruct (grow_ok (need c) n (need c)) as [L1 L2]; [lia|lia|]. cbn [pcinv]. repeat split; auto; try lia. exists n, b, cells. auto.
  - destruct H as ((k & b & cells & H1 & H2 & H3 & H4 & H5) & L1 & L2). rewrite H1. cbn [o_size o_buf]. rewrite H3, H4, Nat.eqb_refl. cbn [ub_unless bind]. eexists _, _, None. split; [reflexivity|]. cbn [pcinv set_heap objs].
    repeat split; auto.
    + apply lt_some in H1. auto.
    + intros b' Hb _. unfold blk. cbn [set_heap heap]. apply nth_upd_other. congruence.
    + discriminate.
  - destruct H as (H1 & -> & L1 & L2). destruct (nth_error (objs s) (c_obj c)) as [o|] eqn:E; [|apply nth_error_None in E; lia].
    eexists _, _, (Some (length (heap s))). split; [reflexivity|]. cbn [pcinv set_heap objs]. repeat split; auto.
    + exists (repeat None n). unfold blk. cbn [set_heap heap]. rewrite app_nth2, Nat.sub_diag by lia. cbn. rewrite repeat_length. auto.
    + intros b _ Hb. unfold blk in *. cbn [set_heap heap]. apply app_nth1. destruct (nth b (heap s) None) eqn:Eb; [|congruence]. eapply blk_lt; exact Eb.
    + intros b [= <-]. auto.
  - destruct H as (H1 & -> & L1 & L2 & cells & H3 & H4). destruct (nth_error (objs s) (c_obj c)) as [o|] eqn:E; [|apply nth_error_None in E; lia].
    eexists _, _, (Some b). split; [reflexivity|]. cbn [pcinv set_objs objs]. rewrite upd_length. repeat split; auto.
    + exists (o_size o), b, cells. rewrite upd_same by auto. auto.
    + intros j Hj. apply upd_other. auto.
  - destruct H as (L1 & L2 & k & b & cells & H1 & -> & H3 & H4). rewrite H1. cbn [o_buf]. eexists _, _, (Some b). split; [reflexivity|]. cbn [pcinv set_objs objs]. rewrite upd_length. repeat split; auto.
    + exists b, n, cells. cbn [set_objs objs]. rewrite upd_same by (eapply lt_some; eauto). repeat split; auto; lia.
    + intros j Hj. apply upd_other. auto.
  - destruct H as (b & Hs). destruct (acceptable_product c G) as (J & EJ & R & L). pose proof Hs as (n & cells & H1 & H2 & H3 & H4 & H5 & H6). rewrite H1, EJ. cbn [bind o_buf].
    eexists _, _, f. split; [reflexivity|]. cbn [pcinv]. repeat split; auto. lia.
  - destruct H as (Hs & R & L & Hk & Hc). pose proof Hs as (n & cells & H1 & H2 & H3 & H4 & H5 & H6). rewrite H1. destruct (nth_error vals k) as [a|] eqn:Ea.
    + pose proof (lt_some _ _ _ Ea). rewrite H3. destruct (Nat.ltb_spec k (length cells)); [|lia]. cbn [ub_unless bind]. eexists _, _, f. split; [reflexivity|]. cbn [pcinv].
      pose proof (blk_lt _ _ _ H3) as Hb.
      assert (Eb : blk (set_heap s (upd (heap s) b (Some (upd cells k (Some a))))) b = Some (upd cells k (Some a))) by (unfold blk; cbn [set_heap heap]; apply nth_upd_same; auto).
      repeat split; auto; try lia.
      * exists n, (upd cells k (Some a)). cbn [set_heap objs]. rewrite upd_length. repeat split; auto.
      * intros cells'. rewrite Eb. intros [= <-]. rewrite (firstn_S vals k a Ea), (firstn_S _ k (Some a)) by (apply upd_same; auto). rewrite firstn_upd, map_app. cbn. f_equal. auto.
      * intros b' Hb' _. unfold blk. cbn [set_heap heap]. apply nth_upd_other. congruence.
    + apply nth_error_None in Ea. eexists _, _, f. split; [reflexivity|]. cbn [pcinv]. repeat split; auto. exists vals. repeat split; auto; try lia.
      intros cells' E'. specialize (Hc cells' E'). assert (k = need c) by lia. subst k. rewrite Hc. f_equal. rewrite <- L. apply firstn_all.
  - destruct H as (Hs & vals & R & L & Hk & -> & Hc). pose proof Hs as (n & cells & H1 & H2 & H3 & H4 & H5 & H6). rewrite H1. destruct (Nat.ltb_spec k (need c)) as [Lk|Lk].
    + specialize (Hc cells H3). destruct (nth_error vals k) as [a|] eqn:Ea; [|apply nth_error_None in Ea; lia].
      assert (Ec : nth_error cells k = Some (Some a)).
      { rewrite <- (firstn_skipn (need c) cells), Hc. rewrite nth_error_app1 by (rewrite map_length; lia). rewrite nth_error_map, Ea. reflexivity. }
      rewrite H3, Ec. eexists _, _, f. split; [reflexivity|]. cbn [pcinv]. repeat split; auto. exists vals. repeat split; auto. rewrite (firstn_S vals k a Ea). reflexivity.
      intros cells' E'. rewrite H3 in E'. injection E' as <-. auto.
    + eexists _, _, f. split; [reflexivity|]. repeat split; auto.
      * eapply sized_idle; eauto.
      * assert (k = need c) by lia. subst k. rewrite <- L, firstn_all. auto.
Qed.

(** ** All threads *)
Definition Inv g (f : nat -> option nat) : Prop :=
  (forall i j b, f i = Some b -> f j = Some b -> i = j) /\
  (forall i b, f i = Some b -> blk (sh g) b <> None) /\
  (forall i, i < length (objs (sh g)) -> (forall t th c p, nth_error (ths g) t = Some th -> cur th = Some (c, p) -> c_obj c <> i) -> idle_inv (sh g) i (f i)) /\
  (forall t th c p, nth_error (ths g) t = Some th -> cur th = Some (c, p) -> pcinv (sh g) c p (f (c_obj c)) /\ acceptable c /\ c_obj c < length (objs (sh g))) /\
  (forall t th, nth_error (ths g) t = Some th -> (forall c, In c (todo th) -> c_obj c < length (objs (sh g)) /\ acceptable c) /\ (forall c out, In (c, out) (results th) -> right c out)).

Lemma pcinv_alive s c p f b : pcinv s c p f -> f = Some b -> blk s b <> None.
Proof.
  intros H E. destruct p; cbn [pcinv] in H.
  1,2: destruct H as (n & b' & cells & H1 & H2 & H3 & _); congruence.
  - destruct H as ((k & b' & cells & H1 & H2 & H3 & _) & _). congruence.
  - destruct H as (_ & H & _). congruence.
  - destruct H as (H1 & H2 & H3 & H4 & cells & H5 & _). congruence.
  - destruct H as (H1 & H2 & k & b' & cells & H3 & H4 & H5 & _). congruence.
  - destruct H as (b' & k & cells & H1 & H2 & H3 & _). congruence.
  - destruct H as ((k' & cells & H1 & H2 & H3 & _) & _). congruence.
  - destruct H as ((k' & cells & H1 & H2 & H3 & _) & _). congruence.
Qed.

Lemma step_inv g t f : Inv g f -> exclusive g -> (forall g', step g t = Ok g' -> exclusive g') ->
  exists g' f', step g t = Ok g' /\ Inv g' f'.
Proof.
  intros I X X'. pose proof I as (Ij & Al & Id & Ac & Td). unfold step in *. destruct (nth_error (ths g) t) as [th|] eqn:Et; [|exists g, f; split; [reflexivity|exact I]].
  pose proof (lt_some _ _ _ Et) as Lt. destruct (cur th) as [[c p]|] eqn:Ec.
  - destruct (Ac t th c p Et Ec) as (P & G & Li). destruct (step_call_ok (sh g) c p (f (c_obj c)) G P) as (s' & r & fi & E & R & L & O & B & F).
    rewrite E. cbn [bind]. set (th' := match r with Go p' => _ | Return out => _ end). exists (Cfg s' (upd (ths g) t th')), (fun j => if j =? c_obj c then fi else f j). split; [reflexivity|].
    assert (Keep : forall j b, j <> c_obj c -> f j = Some b -> blk s' b = blk (sh g) b).
    { intros j b Hj Hf. apply B; [|eapply Al; eauto]. intros Hc. apply Hj. eapply Ij; eauto. }
    assert (Td' : forall t0 th0, nth_error (upd (ths g) t th') t0 = Some th0 -> t0 = t /\ th0 = th' \/ t0 <> t /\ nth_error (ths g) t0 = Some th0).
    { intros t0 th0 H. destruct (Nat.eq_dec t0 t) as [->|Hn]; [left; rewrite upd_same in H by auto; split; congruence|right; rewrite upd_other in H by auto; auto]. }
    assert (Alf : forall b, fi = Some b -> blk s' b <> None).
    { intros b Hb. destruct r as [p'|out]; [eapply pcinv_alive; eauto|]. destruct R as [(n & b' & cells & H1 & H2 & H3 & _) _]. congruence. }
    split; [|split; [|split; [|split]]]; cbn [sh ths].
    + intros i j b. destruct (Nat.eqb_spec i (c_obj c)) as [->|Hi], (Nat.eqb_spec j (c_obj c)) as [->|Hj]; auto; intros H1 H2.
      * destruct (F b H1) as [H|H]; [eapply Ij; eauto|]. exfalso. apply (Al _ _ H2). subst b. unfold blk. apply nth_overflow. auto.
      * destruct (F b H2) as [H|H]; [eapply Ij; eauto|]. exfalso. apply (Al _ _ H1). subst b. unfold blk. apply nth_overflow. auto.
      * eapply Ij; eauto.
    + intros i b. destruct (Nat.eqb_spec i (c_obj c)) as [->|Hi]; [apply Alf|]. intros H. rewrite (Keep i b Hi H). eapply Al; eauto.
    + intros i Hi Hno. rewrite L in Hi. destruct (Nat.eqb_spec i (c_obj c)) as [->|Hn].
      * destruct r as [p'|out]; [|apply R]. exfalso. eapply (Hno t th' c p'); [apply upd_same; auto|reflexivity|reflexivity].
      * apply (idle_local (sh g)); [apply O; auto|intros b Hb; eapply Keep; eauto|]. apply Id; auto. intros t0 th0 c0 p0 H0 Hc0.
        destruct (Nat.eq_dec t0 t) as [->|Ht]; [rewrite Et in H0; injection H0 as <-; rewrite Ec in Hc0; injection Hc0 as <- <-; auto|]. eapply (Hno t0 th0); [rewrite upd_other; eauto|eauto].
    + intros t0 th0 c0 p0 H0 Hc0. destruct (Td' t0 th0 H0) as [[-> ->]|[Ht H0']].
      * destruct r as [p'|out]; cbn in Hc0; [|discriminate]. injection Hc0 as <- <-. rewrite Nat.eqb_refl, L. auto.
      * assert (Hn : c_obj c0 <> c_obj c) by (intros Hc; apply Ht; eapply (X t0 t); eauto). apply Nat.eqb_neq in Hn as Hn'. rewrite Hn', L. destruct (Ac t0 th0 c0 p0 H0' Hc0) as (P0 & G0 & L0).
        split; [|auto]. apply (pcinv_local (sh g)); auto. intros b Hb. eapply Keep; eauto.
    + intros t0 th0 H0. rewrite L. destruct (Td' t0 th0 H0) as [[-> ->]|[Ht H0']]; [|eapply Td; eauto]. destruct (Td t th Et) as [T1 T2]. destruct r as [p'|out]; cbn; split; auto.
      intros c0 out0 Hin. apply in_app_or in Hin as [Hin|[Hin|[]]]; [auto|]. injection Hin as <- <-. apply R.
  - destruct (todo th) as [|c cs] eqn:Eto; [exists g, f; split; [reflexivity|exact I]|].
    set (th' := Th cs (Some (c, PCheck)) (results th)) in *. specialize (X' _ eq_refl). exists (Cfg (sh g) (upd (ths g) t th')), f. split; [reflexivity|].
    destruct (Td t th Et) as [T1 T2]. rewrite Eto in T1. destruct (T1 c (or_introl eq_refl)) as [Li G].
    assert (Td' : forall t0 th0, nth_error (upd (ths g) t th') t0 = Some th0 -> t0 = t /\ th0 = th' \/ t0 <> t /\ nth_error (ths g) t0 = Some th0).
    { intros t0 th0 H. destruct (Nat.eq_dec t0 t) as [->|Hn]; [left; rewrite upd_same in H by auto; split; congruence|right; rewrite upd_other in H by auto; auto]. }
    split; [|split; [|split; [|split]]]; cbn [sh ths]; auto.
    + intros i Hi Hno. apply Id; auto. intros t0 th0 c0 p0 H0 Hc0. destruct (Nat.eq_dec t0 t) as [->|Ht]; [congruence|]. eapply (Hno t0 th0); [rewrite upd_other; eauto|eauto].
    + intros t0 th0 c0 p0 H0 Hc0. destruct (Td' t0 th0 H0) as [[-> ->]|[Ht H0']]; [|eapply Ac; eauto]. cbn in Hc0. injection Hc0 as <- <-. split; [|auto]. cbn [pcinv]. apply Id; auto.
      intros t1 th1 c1 p1 H1 Hc1 Heq. destruct (Nat.eq_dec t1 t) as [->|Ht]; [congruence|]. apply Ht. apply (X' t1 t th1 th' c1 c p1 PCheck); cbn [ths]; [rewrite upd_other; auto|apply upd_same; auto|auto..].
    + intros t0 th0 H0. destruct (Td' t0 th0 H0) as [[-> ->]|[Ht H0']]; [|eapply Td; eauto]. cbn. split; auto. intros c0 Hin. apply T1. right. auto.
Qed.

Lemma run_inv sched : forall g f, Inv g f -> always_exclusive g sched -> exists g' f', run g sched = Ok g' /\ Inv g' f'.
Proof.
  induction sched as [|t l IH]; intros g f I A; cbn [run].
  - exists g, f. auto.
  - cbn [always_exclusive] in A. destruct A as [X A]. destruct (step_inv g t f I X) as (g1 & f1 & E & I1).
    { intros g' E. specialize (A g' E). destruct l; apply A. }
    rewrite E. cbn [bind]. apply (IH g1 f1); auto.
Qed.
Lemma initial_inv g : initial g -> Inv g (fun i => option_map o_buf (nth_error (objs (sh g)) i)).
Proof.
  intros [[B1 B2] T]. split; [|split; [|split; [|split]]].
  - intros i j b. destruct (nth_error (objs (sh g)) i) as [o|] eqn:Ei; cbn; [|discriminate]. destruct (nth_error (objs (sh g)) j) as [o'|] eqn:Ej; cbn; [|discriminate]. intros [= <-] [= E]. eapply B2; eauto.
  - intros i b. destruct (nth_error (objs (sh g)) i) as [o|] eqn:Ei; cbn; [|discriminate]. intros [= <-]. destruct (B1 i o Ei) as (_ & cells & E & _). congruence.
  - intros i Hi _. destruct (nth_error (objs (sh g)) i) as [o|] eqn:Ei; [|apply nth_error_None in Ei; lia]. destruct (B1 i o Ei) as (P & cells & E & L). exists (o_size o), (o_buf o), cells. destruct o; cbn in *. auto.
  - intros t th c p H Hc. destruct (T t th H) as (E & _). congruence.
  - intros t th H. destruct (T t th H) as (E & R & C). split; auto. rewrite R. intros c out [].
Qed.

(** ** One thread alone *)
Definition rank c p : nat :=
  match p with
  | PRead _ k _ => need c - k
  | PWrite _ _ k => S (need c) + (need c - k)
  | PMap => 2 * need c + 2
  | PSize _ => 2 * need c + 3
  | PSetBuf _ _ => 2 * need c + 4
  | PAlloc _ => 2 * need c + 5
  | PFree _ => 2 * need c + 6
  | PGrow => 2 * need c + 7
  | PCheck => 2 * need c + 8
  end.
Lemma step_call_rank s c p f s' p' : pcinv s c p f -> step_call s c p = Ok (s', Go p') -> rank c p' < rank c p.
Proof.
  intros H E. unfold step_call in E. destruct (nth_error (objs s) (c_obj c)) as [o|]; [|discriminate]. destruct p; cbn [pcinv rank] in *.
  - destruct (_ <? _); injection E as <- <-; cbn [rank]; lia.
  - injection E as <- <-. cbn [rank]. lia.
  - destruct (blk s (o_buf o)); [|discriminate]. destruct (ub_unless _); [|discriminate]. injection E as <- <-. cbn [rank]. lia.
  - injection E as <- <-. cbn [rank]. lia.
  - injection E as <- <-. cbn [rank]. lia.
  - injection E as <- <-. cbn [rank]. lia.
  - destruct (jacobian c); [|discriminate]. injection E as <- <-. cbn [rank]. lia.
  - destruct H as (_ & _ & L & Hk & _). destruct (nth_error vals k) eqn:En.
    + apply lt_some in En. destruct (blk s b); [|discriminate]. destruct (ub_unless _); [|discriminate]. injection E as <- <-. cbn [rank]. lia.
    + apply nth_error_None in En. injection E as <- <-. cbn [rank]. lia.
  - destruct (Nat.ltb_spec k (need c)); [|discriminate]. destruct (blk s b); [|discriminate]. destruct (nth_error l k) as [[a|]|]; try discriminate. injection E as <- <-. cbn [rank]. lia.
Qed.

Definition only g (t : nat) : Prop := forall t' th, nth_error (ths g) t' = Some th -> t' <> t -> cur th = None.
Lemma only_exclusive g t : only g t -> exclusive g.
Proof.
  intros O t1 t2 th1 th2 c1 c2 p1 p2 H1 H2 C1 C2 _.
  destruct (Nat.eq_dec t1 t) as [->|N1]; [|rewrite (O t1 th1 H1 N1) in C1; discriminate]. destruct (Nat.eq_dec t2 t) as [->|N2]; [auto|rewrite (O t2 th2 H2 N2) in C2; discriminate].
Qed.
Lemma only_step g t g' : only g t -> step g t = Ok g' -> only g' t.
Proof.
  intros O E. unfold step in E. destruct (nth_error (ths g) t) as [th|] eqn:Et; [|injection E as <-; auto].
  assert (X : forall s th', only (Cfg s (upd (ths g) t th')) t) by (intros s th' t' th0 H N; cbn [ths] in H; rewrite upd_other in H by auto; eauto).
  destruct (cur th) as [[c p]|]; [|destruct (todo th); injection E as <-; auto]. destruct (step_call _ _ _) as [[s r]|]; [|discriminate]. injection E as <-. auto.
Qed.
Lemma run_app (l l' : list nat) : forall g, run g (l ++ l') = (g' <- run g l ;; run g' l').
Proof. induction l; intros g; cbn; auto. destruct (step g a); cbn; auto. Qed.
Lemma solo_call t : forall N g f th c p, rank c p < N -> Inv g f -> only g t -> nth_error (ths g) t = Some th -> cur th = Some (c, p) ->
  exists n g' f' out, run g (repeat t n) = Ok g' /\ Inv g' f' /\ only g' t /\ nth_error (ths g') t = Some (Th (todo th) None (results th ++ [(c, out)])).
Proof.
  induction N as [|N IH]; intros g f th c p HN I O Et Ec; [lia|].
  destruct (step_inv g t f I (only_exclusive g t O)) as (g1 & f1 & E & I1). { intros g' E. eapply only_exclusive, only_step; eauto. }
  pose proof (only_step g t g1 O E) as O1. pose proof I as (_ & _ & _ & Ac & _). destruct (Ac t th c p Et Ec) as (P & G & _).
  pose proof E as E'. unfold step in E'. rewrite Et, Ec in E'. destruct (step_call (sh g) c p) as [[s r]|] eqn:Es; [|discriminate]. cbn [bind] in E'. injection E' as <-.
  destruct r as [p'|out].
  - pose proof (step_call_rank _ _ _ _ _ _ P Es). destruct (IH (Cfg s (upd (ths g) t (Th (todo th) (Some (c, p')) (results th)))) f1 (Th (todo th) (Some (c, p')) (results th)) c p') as (n & g2 & f2 & out & R & I2 & O2 & T2); auto; [lia|apply upd_same; eapply lt_some; eauto|].
    exists (S n), g2, f2, out. cbn [repeat run]. rewrite E. auto.
  - exists 1. eexists. exists f1, out. cbn [repeat run]. rewrite E. cbn [bind]. split; [reflexivity|]. split; [exact I1|]. split; [exact O1|]. cbn [ths]. apply upd_same. eapply lt_some; eauto.
Qed.
Lemma solo t : forall cs g f rs, Inv g f -> only g t -> nth_error (ths g) t = Some (Th cs None rs) ->
  exists n g' rs', run g (repeat t n) = Ok g' /\ nth_error (ths g') t = Some (Th [] None (rs ++ rs')) /\ map fst rs' = cs /\ Forall (fun r => right (fst r) (snd r)) rs'.
Proof.
  induction cs as [|c cs IH]; intros g f rs I O Et.
  - exists 0, g, []. rewrite app_nil_r. repeat split; auto.
  - destruct (step_inv g t f I (only_exclusive g t O)) as (g1 & f1 & E & I1). { intros g' E. eapply only_exclusive, only_step; eauto. }
    pose proof (only_step g t g1 O E) as O1. pose proof E as E'. unfold step in E'. rewrite Et in E'. cbn [cur todo results] in E'. injection E' as <-.
    destruct (solo_call t (S (rank c PCheck)) (Cfg (sh g) (upd (ths g) t (Th cs (Some (c, PCheck)) rs))) f1 (Th cs (Some (c, PCheck)) rs) c PCheck (le_n _) I1 O1) as (n & g2 & f2 & out & R & I2 & O2 & T2); [cbn [ths]; apply upd_same; eapply lt_some; eauto|reflexivity|].
    cbn [todo results] in T2. destruct (IH g2 f2 (rs ++ [(c, out)]) I2 O2 T2) as (n' & g3 & rs' & R3 & T3 & M & F).
    exists (S (n + n')), g3, ((c, out) :: rs'). rewrite <- app_assoc in T3. cbn [repeat run app] in *. rewrite E. cbn [bind]. rewrite repeat_app, run_app, R. cbn [bind]. split; [auto|]. split; [auto|]. split; [cbn; congruence|].
    constructor; auto. cbn. destruct I2 as (_ & _ & _ & _ & Td). apply (Td t _ T2). cbn. apply in_or_app. right. left. reflexivity.
Qed.

(** ** Two calls on one object *)
Fixpoint exec (n : nat) s c p : res (shared K * pc K) :=
  match n with
  | O => Ok (s, p)
  | S n' => match step_call s c p with Ok (s', Go p') => exec n' s' c p' | Ok (_, Return _) => Fail EAssert | Fail e => Fail e end
  end.
Lemma run_exec n : forall g t th c p s' p', nth_error (ths g) t = Some th -> cur th = Some (c, p) -> exec n (sh g) c p = Ok (s', p') ->
  run g (repeat t n) = Ok (Cfg s' (upd (ths g) t (Th (todo th) (Some (c, p')) (results th)))).
Proof.
  induction n as [|n IH]; intros g t th c p s' p' Et Ec E; cbn [exec repeat run] in *.
  - injection E as <- <-. f_equal. destruct g as [s l], th as [a b d]. cbn in *. subst b. f_equal. clear -Et. revert t Et; induction l; intros [|t] H; cbn in *; try discriminate; [congruence|]. f_equal. auto.
  - unfold step. rewrite Et, Ec. destruct (step_call (sh g) c p) as [[s1 [p1|]]|]; try discriminate. cbn [bind].
    pose proof (lt_some _ _ _ Et) as Lt. rewrite (IH _ t (Th (todo th) (Some (c, p1)) (results th)) c p1 s' p'); auto; [|cbn [ths]; apply upd_same; auto]. cbn [todo results ths]. do 2 f_equal.
    clear. revert t; induction (ths g); intros [|t]; cbn; auto. f_equal. auto.
Qed.
Lemma exec_app n n' : forall s c p s1 p1, exec n s c p = Ok (s1, p1) -> exec (n + n') s c p = exec n' s1 c p1.
Proof. induction n; intros s c p s1 p1 H; cbn in *; [congruence|]. destruct (step_call s c p) as [[s2 [p2|]]|]; try discriminate. eauto. Qed.
Lemma exec_write c b vals : forall j k s cells, j + k = length vals -> c_obj c < length (objs s) -> blk s b = Some cells -> length vals <= length cells -> firstn k cells = map Some (firstn k vals) ->
  exists s' cells', exec (S j) s c (PWrite b vals k) = Ok (s', PRead b 0 []) /\ objs s' = objs s /\ blk s' b = Some cells' /\ length cells' = length cells /\ firstn (length vals) cells' = map Some vals.
Proof.
  induction j as [|j IH]; intros k s cells Hj Ho Hb Hl Hc.
  - cbn [exec]. unfold step_call. destruct (nth_error (objs s) (c_obj c)) as [o|] eqn:Eo; [|apply nth_error_None in Eo; lia]. destruct (nth_error vals k) eqn:Ek; [apply lt_some in Ek; lia|].
    exists s, cells. cbn in Hj. subst k. rewrite Hc, firstn_all. auto.
  - remember (S j) as j' eqn:Ej. cbn [exec]. unfold step_call. destruct (nth_error (objs s) (c_obj c)) as [o|] eqn:Eo; [|apply nth_error_None in Eo; lia]. destruct (nth_error vals k) as [a|] eqn:Ek; [|apply nth_error_None in Ek; lia].
    rewrite Hb. destruct (Nat.ltb_spec k (length cells)); [|lia]. cbn [ub_unless bind].
    subst j'. destruct (IH (S k) (set_heap s (upd (heap s) b (Some (upd cells k (Some a))))) (upd cells k (Some a))) as (s' & cells' & E & O & B & L & F).
    + lia.
    + auto.
    + unfold blk. cbn [set_heap heap]. apply nth_upd_same. eapply blk_lt; eauto.
    + rewrite upd_length. auto.
    + rewrite (firstn_S vals k a Ek), (firstn_S _ k (Some a)) by (apply upd_same; auto). rewrite firstn_upd, map_app. cbn. f_equal. auto.
    + exists s', cells'. rewrite upd_length in L. cbn [set_heap objs] in O. auto.
Qed.
Lemma exec_read c b vals s cells : length vals = need c -> c_obj c < length (objs s) -> blk s b = Some cells -> firstn (need c) cells = map Some vals ->
  forall j k, k + j <= need c -> exec j s c (PRead b k (firstn k vals)) = Ok (s, PRead b (k + j) (firstn (k + j) vals)).
Proof.
  intros L Ho Hb Hc. induction j as [|j IH]; intros k Hk; cbn [exec]; [rewrite Nat.add_0_r; reflexivity|].
  unfold step_call. destruct (nth_error (objs s) (c_obj c)) as [o|] eqn:Eo; [|apply nth_error_None in Eo; lia]. destruct (Nat.ltb_spec k (need c)); [|lia]. rewrite Hb.
  destruct (nth_error vals k) as [a|] eqn:Ea; [|apply nth_error_None in Ea; lia].
  assert (Ec : nth_error cells k = Some (Some a)).
  { rewrite <- (firstn_skipn (need c) cells), Hc. rewrite nth_error_app1 by (rewrite map_length; lia). rewrite nth_error_map, Ea. reflexivity. }
  rewrite Ec, <- (firstn_S vals k a Ea), IH by lia. f_equal. f_equal; f_equal; try lia. f_equal. lia.
Qed.
Lemma right_product c v : right c v -> exists J, jacobian c = Ok J /\ v = concat (mcols_ (mmul (c_in c) J)) /\ length v = need c.
Proof.
  intros (o & R & E & ->). destruct (sequential_product c o R E) as (J & EJ & ->). exists J. repeat split; auto. rewrite mmul_length. unfold need. f_equal. apply jacobian_cols. auto.
Qed.
(** From the check to the end of the product. *)
Lemma exec_product s c v o cells : right c v -> nth_error (objs s) (c_obj c) = Some o -> need c <= o_size o -> blk s (o_buf o) = Some cells -> length cells = o_size o ->
  exists s' cells', exec (3 + need c) s c PCheck = Ok (s', PRead (o_buf o) 0 []) /\ objs s' = objs s /\ blk s' (o_buf o) = Some cells' /\ length cells' = o_size o /\ firstn (need c) cells' = map Some v.
Proof.
  intros R Eo Hn Hb Hl. destruct (right_product c v R) as (J & EJ & Ev & Lv).
  destruct (exec_write c (o_buf o) v (need c) 0 s cells) as (s' & cells' & E & O & B & L & F); [lia|eapply lt_some; eauto|auto|lia|reflexivity|].
  exists s', cells'. split; [|rewrite Lv in F; split; [auto|split; [auto|split; [congruence|auto]]]].
  change (3 + need c) with (1 + (1 + S (need c))). rewrite (exec_app 1 (1 + S (need c)) s c PCheck s PMap).
  - rewrite (exec_app 1 (S (need c)) s c PMap s (PWrite (o_buf o) v 0)); auto. cbn [exec]. unfold step_call. rewrite Eo, EJ. cbn [bind]. rewrite <- Ev. reflexivity.
  - cbn [exec]. unfold step_call. rewrite Eo. destruct (Nat.ltb_spec (o_size o) (need c)); [lia|]. reflexivity.
Qed.
Lemma interference s cA cB vA vB : buffers_ok s -> c_obj cB = c_obj cA -> right cA vA -> right cB vB -> need cB = need cA ->
  (exists o, nth_error (objs s) (c_obj cA) = Some o /\ need cA <= o_size o) ->
  exists sched g', run (Cfg s [Th [cA] None []; Th [cB] None []]) sched = Ok g' /\ nth_error (ths g') 0 = Some (Th [] None [(cA, vB)]).
Proof.
  intros [B1 _] Eob RA RB En (o & Eo & Ho). destruct (B1 _ _ Eo) as (_ & cells & Eb & Lc).
  destruct (exec_product s cA vA o cells RA Eo Ho Eb Lc) as (s1 & cells1 & E1 & O1 & Eb1 & L1 & F1).
  destruct (exec_product s1 cB vB o cells1 RB) as (s2 & cells2 & E2 & O2 & Eb2 & L2 & F2); [rewrite O1, Eob; auto|rewrite En; auto|auto|auto|].
  destruct (right_product cB vB RB) as (J & _ & _ & LvB).
  pose proof (exec_read cA (o_buf o) vB s2 cells2) as E3. rewrite O2, O1 in E3. specialize (E3 (eq_trans LvB En) (lt_some _ _ _ Eo) Eb2). rewrite En in F2. specialize (E3 F2 (need cA) 0 (le_n _)). cbn [firstn Nat.add] in E3.
  rewrite (firstn_all2 (n := need cA) vB) in E3 by lia.
  exists ([0] ++ repeat 0 (3 + need cA) ++ [1] ++ repeat 1 (3 + need cB) ++ repeat 0 (need cA) ++ [0]).
  rewrite run_app. cbn [run]. unfold step at 1. cbn [ths nth_error cur todo bind results upd sh].
  rewrite run_app, (run_exec _ _ _ (Th [] (Some (cA, PCheck)) []) cA PCheck s1 (PRead (o_buf o) 0 [])) by auto. cbn [bind todo results upd ths].
  rewrite run_app. cbn [run]. unfold step at 1. cbn [ths nth_error cur todo bind results upd sh].
  rewrite run_app, (run_exec _ _ _ (Th [] (Some (cB, PCheck)) []) cB PCheck s2 (PRead (o_buf o) 0 [])) by auto. cbn [bind todo results upd ths].
  rewrite run_app, (run_exec _ _ _ (Th [] (Some (cA, PRead (o_buf o) 0 [])) []) cA (PRead (o_buf o) 0 []) s2 (PRead (o_buf o) (need cA) vB)) by auto. cbn [bind todo results upd ths].
  cbn [run]. unfold step, step_call. cbn [ths nth_error cur todo results sh]. rewrite O2, O1, Eo. destruct (Nat.ltb_spec (need cA) (need cA)); [lia|]. cbn [bind upd]. eexists. split; [reflexivity|]. reflexivity.
Qed.
End Threads.

(** ** Identifiers *)
From Coq Require Import Permutation.
Lemma upd_ids l t a a' k : nth_error l t = Some a -> c_ids a' = c_ids a ++ [k] -> Permutation (concat (map c_ids (upd l t a'))) (k :: concat (map c_ids l)).
Proof.
  revert t; induction l as [|x l IH]; intros [|t] H E; cbn in *; try discriminate.
  - injection H as ->. rewrite E, <- app_assoc. symmetry. apply Permutation_middle.
  - rewrite (IH t H E). symmetry. apply Permutation_middle.
Qed.
Lemma upd_ids_same l t a a' : nth_error l t = Some a -> c_ids a' = c_ids a -> concat (map c_ids (upd l t a')) = concat (map c_ids l).
Proof. revert t; induction l as [|x l IH]; intros [|t] H E; cbn in *; try discriminate; [congruence|]. rewrite (IH t); auto. Qed.
Definition id_inv (g : counters) : Prop := NoDup (all_ids g) /\ (forall k, In k (all_ids g) -> (k < counter g)%Z) /\
  forall t a k, nth_error (creators g) t = Some a -> c_read a = Some k -> k = counter g.
Lemma id_step_inv g t : id_inv g -> id_exclusive g -> id_inv (id_step g t).
Proof.
  intros (N & L & R) X. unfold id_step. destruct (nth_error (creators g) t) as [[n rd ids]|] eqn:Et; [|split; [auto|split; auto]]. cbn [c_read c_left c_ids]. destruct rd as [k|].
  - pose proof (R t _ k Et eq_refl) as ->. pose proof (upd_ids (creators g) t _ (Cr n None (ids ++ [counter g])) (counter g) Et eq_refl) as P. unfold id_inv, all_ids. cbn [creators counter].
    split; [|split].
    + apply (Permutation_NoDup (Permutation_sym P)). constructor; auto. intros H. apply L in H. lia.
    + intros k H. apply (Permutation_in _ P) in H. destruct H as [<-|H]; [lia|]. apply L in H. lia.
    + intros t0 a k H0 H1. destruct (Nat.eq_dec t0 t) as [->|Ht]; [rewrite upd_same in H0 by (eapply lt_some; eauto); injection H0 as <-; discriminate|]. rewrite upd_other in H0 by auto.
      exfalso. apply Ht. eapply (X t0 t); eauto; cbn; congruence.
  - destruct n as [|n]; [split; [auto|split; auto]|]. unfold id_inv, all_ids. cbn [creators counter]. rewrite (upd_ids_same _ _ _ (Cr n (Some (counter g)) ids) Et eq_refl). split; [auto|split; [auto|]].
    intros t0 a k H0 H1. destruct (Nat.eq_dec t0 t) as [->|Ht]; [rewrite upd_same in H0 by (eapply lt_some; eauto); injection H0 as <-; cbn in H1; congruence|]. rewrite upd_other in H0 by auto. eapply R; eauto.
Qed.
