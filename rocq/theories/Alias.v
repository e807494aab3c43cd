(** Proofs for C36: the memory operations are the functional ones when every input is the output range or is
    disjoint from it. *)
From Coq Require Import List Arith Bool ZArith Lia.
From Verif Require Import Base Scalar Vec Model_Real Model_S2 Model_SO3 Model_Manifold Model_Memory Spec SpecAlias Layout Comp.
Import ListNotations.

Section Alias.
Context {K : Type} {SK : Scalar K}.
Implicit Types (mem : vec K) (o x y v r : vref).

Lemma val_len mem r : fits mem r -> length (val mem r) = v_len r.
Proof. unfold val, fits. intros. rewrite firstn_length, skipn_length. lia. Qed.
Lemma load_val mem r : fits mem r -> load mem r = Ok (val mem r).
Proof.
  intros F. unfold load, load_at, fits in *. rewrite !Nat.add_0_l, Nat.leb_refl, Nat.add_0_r. destruct (Nat.leb_spec (v_off r + v_len r) (length mem)); [reflexivity|lia].
Qed.
Lemma nth_error_firstn' {A} (l : list A) n i : i < n -> nth_error (firstn n l) i = nth_error l i.
Proof. revert n i; induction l; intros [|n] [|i] H; cbn; auto; try lia. apply IHl. lia. Qed.
Lemma nth_error_skipn' {A} (l : list A) n i : nth_error (skipn n l) i = nth_error l (n + i).
Proof. revert n; induction l; intros [|n]; cbn; auto. destruct i; reflexivity. Qed.
Lemma val_nth mem r i : i < v_len r -> nth_error (val mem r) i = nth_error mem (v_off r + i).
Proof. intros H. unfold val. rewrite nth_error_firstn', nth_error_skipn'; auto. Qed.
Lemma coeff_val mem r i a : i < v_len r -> nth_error (val mem r) i = Some a -> coeff mem r i = Ok a.
Proof. intros H E. rewrite val_nth in E by auto. unfold coeff, at_. destruct (Nat.ltb_spec i (v_len r)); [|lia]. cbn. rewrite E. reflexivity. Qed.

Lemma nth_error_ext {A} (l l' : list A) : (forall i, nth_error l i = nth_error l' i) -> l = l'.
Proof.
  revert l'; induction l as [|a l IH]; intros [|b l'] H; auto; try (specialize (H 0); discriminate).
  pose proof (H 0) as H0. injection H0 as ->. f_equal. apply IH. intros i. exact (H (S i)).
Qed.

(** Memories that agree outside [a, b). *)
Definition agree mem mem' (a b : nat) : Prop := length mem' = length mem /\ forall j, j < a \/ b <= j -> nth_error mem' j = nth_error mem j.
Lemma agree_val mem mem' a b r : agree mem mem' a b -> v_off r + v_len r <= a \/ b <= v_off r -> val mem' r = val mem r.
Proof.
  intros [L A] S. apply nth_error_ext. intros i. destruct (Nat.lt_ge_cases i (v_len r)) as [Hi|Hi].
  - rewrite !val_nth by auto. apply A. lia.
  - assert (X : forall mem, nth_error (val mem r) i = None) by (intros m0; apply nth_error_None; unfold val; rewrite firstn_length; lia). rewrite !X. reflexivity.
Qed.
Lemma nth_set {A} (l w : list A) s j : s + length w <= length l -> nth_error (set_segment l s w) j = if (s <=? j) && (j <? s + length w) then nth_error w (j - s) else nth_error l j.
Proof.
  intros H. unfold set_segment. destruct (Nat.leb_spec s j) as [H1|H1]; [destruct (Nat.ltb_spec j (s + length w)) as [H2|H2]|]; cbn [andb].
  - rewrite nth_error_app2 by (rewrite firstn_length; lia). rewrite firstn_length, Nat.min_l by lia. rewrite nth_error_app1 by lia. reflexivity.
  - rewrite nth_error_app2 by (rewrite firstn_length; lia). rewrite firstn_length, Nat.min_l by lia. rewrite nth_error_app2 by lia. rewrite nth_error_skipn'. f_equal. lia.
  - rewrite nth_error_app1 by (rewrite firstn_length; lia). apply nth_error_firstn'. auto.
Qed.
Lemma set_agree mem s w a b : s + length w <= length mem -> a <= s -> s + length w <= b -> agree mem (set_segment mem s w) a b.
Proof.
  intros H Ha Hb. split; [apply set_segment_length; auto|]. intros j Hj. rewrite nth_set by auto.
  destruct (Nat.leb_spec s j); [destruct (Nat.ltb_spec j (s + length w))|]; cbn [andb]; auto. lia.
Qed.
Lemma set_set {A} (l w w' : list A) s : s + length w + length w' <= length l -> set_segment (set_segment l s w) (s + length w) w' = set_segment l s (w ++ w').
Proof.
  intros H. apply nth_error_ext. intros j. rewrite nth_set by (rewrite set_segment_length; lia). rewrite !nth_set by (rewrite ?app_length; lia). rewrite app_length.
  repeat match goal with |- context [(?a <=? ?b)] => destruct (Nat.leb_spec a b) | |- context [(?a <? ?b)] => destruct (Nat.ltb_spec a b) end; cbn [andb]; try lia; auto.
  - rewrite nth_error_app2 by lia. f_equal. lia.
  - rewrite nth_error_app1 by lia. reflexivity.
Qed.
Lemma set_nil {A} (l : list A) s : set_segment l s [] = l.
Proof. unfold set_segment. cbn. rewrite Nat.add_0_r. apply firstn_skipn. Qed.
Lemma set_again {A} (l w w' : list A) s : length w = length w' -> s + length w <= length l -> set_segment (set_segment l s w) s w' = set_segment l s w'.
Proof.
  intros E H. apply nth_error_ext. intros j. rewrite nth_set by (rewrite set_segment_length; lia). rewrite !nth_set by lia. rewrite E. destruct (_ && _); auto.
Qed.

(** ** Coefficient-wise assignment *)
Lemma store1 mem r i c : i < v_len r -> fits mem r -> store_at mem r i [c] = Ok (set_segment mem (v_off r + i) [c]).
Proof.
  intros H F. unfold store_at, fits in *. cbn [length]. destruct (Nat.leb_spec (i + 1) (v_len r)); [|lia]. destruct (Nat.leb_spec (v_off r + v_len r) (length mem)); [|lia]. reflexivity.
Qed.
Lemma each_spec o f mem : fits mem o -> forall (l : vec K), length l <= v_len o ->
  (forall i c mem', nth_error l i = Some c -> agree mem mem' (v_off o) (v_off o + i) -> f i mem' = Ok c) ->
  each (length l) 0 o f mem = Ok (set_segment mem (v_off o) l).
Proof.
  intros F l L H. unfold fits in F.
  enough (G : forall post pre, l = pre ++ post -> each (length post) (length pre) o f (set_segment mem (v_off o) pre) = Ok (set_segment mem (v_off o) l)).
  { specialize (G l [] eq_refl). rewrite set_nil in G. exact G. }
  induction post as [|c post IH]; intros pre E; cbn [length each].
  - rewrite app_nil_r in E. subst. reflexivity.
  - assert (Lp : length pre < v_len o) by (subst l; rewrite app_length in L; cbn in L; lia).
    rewrite (H (length pre) c).
    + cbn [bind]. rewrite store1; [|auto|unfold fits; rewrite set_segment_length; lia]. cbn [bind].
      rewrite set_set by (cbn; lia). specialize (IH (pre ++ [c])). rewrite app_length, Nat.add_1_r in IH. apply IH. rewrite <- app_assoc. exact E.
    + subst l. rewrite nth_error_app2, Nat.sub_diag by lia. reflexivity.
    + apply set_agree; lia.
Qed.
Lemma assign_each_spec o f mem l : fits mem o -> v_len o = length l ->
  (forall i c mem', nth_error l i = Some c -> agree mem mem' (v_off o) (v_off o + i) -> f i mem' = Ok c) ->
  assign_each o (length l) f mem = Ok (set_segment mem (v_off o) l).
Proof. intros F L H. unfold assign_each. rewrite L, Nat.eqb_refl. cbn. apply each_spec; auto. lia. Qed.
Lemma assign_local_spec o mem l : fits mem o -> assign_local o l mem = (w <- assign (val mem o) l ;; Ok (set_segment mem (v_off o) w)).
Proof.
  intros F. unfold assign_local, assign. rewrite val_len by auto. destruct (Nat.eqb_spec (v_len o) (length l)) as [E|E].
  - cbn [eigen_assert bind]. apply assign_each_spec; auto. intros i c mem' Hi _. unfold at_. rewrite Hi. reflexivity.
  - unfold assign_each. apply Nat.eqb_neq in E. rewrite E. reflexivity.
Qed.
(** Reading coefficient [i] of an input when the first [i] coefficients of the output are written. *)
Lemma coeff_later mem mem' o r i a : sep o r -> fits mem r -> i < v_len r -> v_len r = v_len o -> agree mem mem' (v_off o) (v_off o + i) ->
  nth_error (val mem r) i = Some a -> coeff mem' r i = Ok a.
Proof.
  intros S F Hi L [La A] E. apply coeff_val; auto. rewrite val_nth in * by auto. rewrite A; auto. destruct S as [->|S]; unfold disjoint in *; lia.
Qed.
Lemma map2_nth {A B C} (f : A -> B -> C) l m i c : nth_error (map2 f l m) i = Some c -> exists a b, nth_error l i = Some a /\ nth_error m i = Some b /\ c = f a b.
Proof.
  revert m i; induction l as [|a l IH]; intros [|b m] [|i] E; cbn in *; try discriminate; eauto. injection E as <-. eauto.
Qed.
Lemma map2_len {A B C} (f : A -> B -> C) l m : length l = length m -> length (map2 f l m) = length l.
Proof. revert m; induction l; intros [|b m] E; cbn in *; try discriminate; auto. Qed.
Lemma lt_nth {A} (l : list A) i a : nth_error l i = Some a -> i < length l.
Proof. intros H. apply nth_error_Some. congruence. Qed.

(** ** Leaves *)
Section Leaves.
Variables (mem : vec K) (o x v : vref).
Hypotheses (Fo : fits mem o) (Fx : fits mem x) (Fv : fits mem v) (Sx : sep o x) (Sv : sep o v).
Ltac fin_each := unfold bind.

Lemma each2 g : v_len x = v_len v -> v_len o = v_len x ->
  assign_each o (v_len x) (fun i mem => a <- coeff mem x i ;; b <- coeff mem v i ;; Ok (g a b)) mem
  = Ok (set_segment mem (v_off o) (map2 g (val mem x) (val mem v))).
Proof.
  intros E1 E2. assert (L : length (map2 g (val mem x) (val mem v)) = v_len x) by (rewrite map2_len; rewrite !val_len; auto).
  rewrite <- L. apply assign_each_spec; auto; [congruence|]. intros i c mem' Hi A. destruct (map2_nth _ _ _ _ _ Hi) as (a & b & Ha & Hb & ->).
  pose proof (lt_nth _ _ _ Ha) as La. pose proof (lt_nth _ _ _ Hb) as Lb. rewrite val_len in * by auto.
  rewrite (coeff_later mem mem' o x i a); auto. cbn [bind]. rewrite (coeff_later mem mem' o v i b); auto. lia.
Qed.
Lemma each1 g : v_len o = v_len x ->
  assign_each o (v_len x) (fun i mem => a <- coeff mem x i ;; Ok (g a)) mem = Ok (set_segment mem (v_off o) (map g (val mem x))).
Proof.
  intros E. assert (L : length (map g (val mem x)) = v_len x) by (rewrite map_length, val_len; auto).
  rewrite <- L. apply assign_each_spec; auto; [congruence|]. intros i c mem' Hi A. rewrite nth_error_map in Hi. destruct (nth_error (val mem x) i) as [a|] eqn:Ha; [|discriminate]. injection Hi as <-.
  pose proof (lt_nth _ _ _ Ha) as La. rewrite val_len in La by auto. rewrite (coeff_later mem mem' o x i a); auto.
Qed.
Lemma assign_ok' (w : vec K) n : length w = n -> assign (val mem o) w = (_ <- eigen_assert (v_len o =? n) ;; Ok w).
Proof. intros <-. unfold assign. rewrite val_len; auto. Qed.
Lemma each_bad n f w : length w = n -> v_len o <> n -> assign_each o n f mem = (r <- assign (val mem o) w ;; Ok (set_segment mem (v_off o) r)).
Proof. intros <- N. rewrite (assign_ok' w (length w)) by auto. unfold assign_each. apply Nat.eqb_neq in N. rewrite N. reflexivity. Qed.

Lemma copy_mem_is : copy_mem mem o x = (w <- assign (val mem o) (val mem x) ;; Ok (set_segment mem (v_off o) w)).
Proof.
  unfold copy_mem. destruct (Nat.eq_dec (v_len o) (v_len x)) as [E|N]; [|apply each_bad; auto; apply val_len; auto].
  rewrite (assign_ok' _ (v_len x)) by (apply val_len; auto). rewrite E, Nat.eqb_refl. cbn [eigen_assert bind].
  rewrite <- (map_id (val mem x)). rewrite <- (each1 (fun a => a) E). unfold assign_each. destruct (eigen_assert _); cbn [bind]; auto.
  enough (G : forall n i m0, each n i o (fun i mem => coeff mem x i) m0 = each n i o (fun i mem => a <- coeff mem x i ;; Ok a) m0) by apply G.
  induction n; intros i m0; cbn [each]; auto. destruct (coeff m0 x i); cbn [bind]; auto. destruct (store_at m0 o i [a0]); cbn [bind]; auto.
Qed.
Lemma real_retractation_is : real_retractation_mem mem o x v = (w <- real_retractation (val mem o) (val mem x) (val mem v) ;; Ok (set_segment mem (v_off o) w)).
Proof.
  unfold real_retractation_mem, real_retractation, same_len, same_size. rewrite !val_len by auto. destruct (Nat.eqb_spec (v_len x) (v_len v)) as [E|]; [|reflexivity]. cbn [eigen_assert bind].
  assert (L : length (vadd (val mem x) (val mem v)) = v_len x) by (unfold vadd; rewrite map2_len; rewrite !val_len; auto).
  destruct (Nat.eq_dec (v_len o) (v_len x)) as [E'|N]; [|apply each_bad; auto]. rewrite (assign_ok' _ (v_len x)) by auto. rewrite E', Nat.eqb_refl. cbn [eigen_assert bind]. apply each2; auto.
Qed.
Lemma s2_retractation_is : s2_retractation_mem mem o x v = (w <- s2_retractation (val mem o) (val mem x) (val mem v) ;; Ok (set_segment mem (v_off o) w)).
Proof.
  unfold s2_retractation_mem, s2_retractation, same_len, same_size. rewrite !val_len, !load_val by auto. destruct (eigen_assert _); [|reflexivity]. cbn [bind].
  destruct (as_vec3 _); [|reflexivity]. cbn [bind]. apply assign_local_spec; auto.
Qed.
Lemma s2_pseudoLog_is : s2_pseudoLog_mem mem o x v = (w <- s2_pseudoLog (val mem o) (val mem x) (val mem v) ;; Ok (set_segment mem (v_off o) w)).
Proof.
  unfold s2_pseudoLog_mem, s2_pseudoLog, s2_logarithm, same_len, same_size. rewrite !val_len, !load_val by auto. destruct (eigen_assert _); [|reflexivity]. cbn [bind].
  destruct (as_vec3 _); [|reflexivity]. cbn [bind]. destruct (s2_projVec _ _ _); [|reflexivity]. cbn [bind]. destruct (s2_distance _ _); [|reflexivity]. cbn [bind]. apply assign_local_spec; auto.
Qed.
Lemma s2_forceOnM_is : s2_forceOnM_mem mem o x = (w <- s2_forceOnM (val mem o) (val mem x) ;; Ok (set_segment mem (v_off o) w)).
Proof.
  unfold s2_forceOnM_mem, s2_forceOnM. rewrite load_val by auto. cbn [bind].
  assert (L : length (vdivs (val mem x) (norm (val mem x))) = v_len x) by (unfold vdivs; rewrite map_length, val_len; auto).
  destruct (Nat.eq_dec (v_len o) (v_len x)) as [E'|N]; [|apply each_bad; auto]. rewrite (assign_ok' _ (v_len x)) by auto. rewrite E', Nat.eqb_refl. cbn [eigen_assert bind].
  apply (each1 (fun a => (a / norm (val mem x))%k)); auto.
Qed.
Lemma em_logarithm_is R : em_logarithm_mem mem o R = (w <- em_logarithm (val mem o) R ;; Ok (set_segment mem (v_off o) w)).
Proof. unfold em_logarithm_mem, em_logarithm. destruct (_ <? _)%k; apply assign_local_spec; auto. Qed.
Lemma eq_logarithm_is R : eq_logarithm_mem mem o R = (w <- eq_logarithm (val mem o) R ;; Ok (set_segment mem (v_off o) w)).
Proof. unfold eq_logarithm_mem, eq_logarithm. destruct (_ && _); apply assign_local_spec; auto. Qed.
Lemma em_pseudoLog_is : em_pseudoLog_mem mem o x v = (w <- em_pseudoLog (val mem o) (val mem x) (val mem v) ;; Ok (set_segment mem (v_off o) w)).
Proof.
  unfold em_pseudoLog_mem, em_pseudoLog. rewrite !load_val by auto. cbn [bind]. destruct (m3_read (val mem x)); [|reflexivity]. cbn [bind]. destruct (m3_read (val mem v)); [|reflexivity]. cbn [bind]. apply em_logarithm_is.
Qed.
Lemma quat_load_is r : fits mem r -> v_len r = 4 -> quat_load mem r = quat_read (val mem r).
Proof.
  intros F L. unfold quat_load, quat_read. assert (X : load_at mem r 0 4 = Ok (val mem r)) by (rewrite <- load_val by auto; unfold load; rewrite L; reflexivity). rewrite X. reflexivity.
Qed.
Lemma eq_pseudoLog_is : v_len x = 4 -> v_len v = 4 -> eq_pseudoLog_mem mem o x v = (w <- eq_pseudoLog (val mem o) (val mem x) (val mem v) ;; Ok (set_segment mem (v_off o) w)).
Proof.
  intros L1 L2. unfold eq_pseudoLog_mem, eq_pseudoLog. rewrite !quat_load_is by auto. destruct (quat_read (val mem x)); [|reflexivity]. cbn [bind]. destruct (quat_read (val mem v)); [|reflexivity]. cbn [bind]. apply eq_logarithm_is.
Qed.
Lemma store_all l : length l = v_len o -> store_at mem o 0 l = (w <- raw_write (val mem o) l ;; Ok (set_segment mem (v_off o) w)).
Proof.
  intros L. rewrite raw_write_ok by (rewrite val_len; auto). cbn [bind]. unfold store_at. rewrite L, Nat.add_0_l, Nat.leb_refl, Nat.add_0_r. unfold fits in Fo. destruct (Nat.leb_spec (v_off o + v_len o) (length mem)); [reflexivity|lia].
Qed.
Lemma em_retractation_is : v_len o = 9 -> em_retractation_mem mem o x v = (w <- em_retractation (val mem o) (val mem x) (val mem v) ;; Ok (set_segment mem (v_off o) w)).
Proof.
  intros L. unfold em_retractation_mem, em_retractation. rewrite !load_val by auto. cbn [bind]. destruct (em_exponential _); [|reflexivity]. cbn [bind]. destruct (m3_read _); [|reflexivity]. cbn [bind]. apply store_all. auto.
Qed.
Lemma eq_retractation_is : v_len o = 4 -> v_len x = 4 -> eq_retractation_mem mem o x v = (w <- eq_retractation (val mem o) (val mem x) (val mem v) ;; Ok (set_segment mem (v_off o) w)).
Proof.
  intros L L'. unfold eq_retractation_mem, eq_retractation, eq_retractation_at. rewrite !load_val, !quat_load_is by auto. cbn [bind]. destruct (eq_exponential _ _); [|reflexivity]. cbn [bind]. destruct (quat_read (val mem x)); [|reflexivity]. cbn [bind].
  destruct (quat_read (val mem o)); [|reflexivity]. cbn [bind]. apply store_all. auto.
Qed.
Lemma eq_forceOnM_is : v_len o = 4 -> v_len x = 4 -> eq_forceOnM_mem mem o x = (w <- eq_forceOnM (val mem o) (val mem x) ;; Ok (set_segment mem (v_off o) w)).
Proof.
  intros L L'. unfold eq_forceOnM_mem, eq_forceOnM. rewrite !quat_load_is by auto. destruct (quat_read (val mem x)) as [q|]; [|reflexivity]. cbn [bind]. destruct (quat_read (val mem o)); [|reflexivity]. cbn [bind].
  unfold quat_store, quat_write. set (l := quat_to_list _). assert (Ll : length l = 4) by reflexivity. rewrite store_all by lia. rewrite raw_write_ok by (rewrite val_len; auto; lia). cbn [bind].
  unfold store_at. rewrite set_segment_length by (unfold fits in Fo; lia). rewrite Ll, L, Nat.add_0_r. unfold fits in Fo. destruct (Nat.leb_spec (v_off o + 4) (length mem)); [|lia]. cbn. rewrite set_again by lia; reflexivity.
Qed.
Lemma store_load (m0 : vec K) k (l : vec K) : fits m0 o -> k + length l <= v_len o ->
  store_at m0 o k l = Ok (set_segment m0 (v_off o + k) l) /\ fits (set_segment m0 (v_off o + k) l) o /\ load_at (set_segment m0 (v_off o + k) l) o k (length l) = Ok l.
Proof.
  intros F L. unfold fits in *. split; [|split].
  - unfold store_at. destruct (Nat.leb_spec (k + length l) (v_len o)); [|lia]. destruct (Nat.leb_spec (v_off o + v_len o) (length m0)); [|lia]. reflexivity.
  - rewrite set_segment_length by lia. auto.
  - unfold load_at. rewrite set_segment_length by lia. destruct (Nat.leb_spec (k + length l) (v_len o)); [|lia]. destruct (Nat.leb_spec (v_off o + v_len o) (length m0)); [|lia]. cbn. f_equal.
    unfold set_segment. rewrite skipn_app, firstn_length, Nat.min_l by lia. rewrite skipn_all2 by (rewrite firstn_length; lia). rewrite Nat.sub_diag. cbn. rewrite firstn_app, firstn_all, Nat.sub_diag. cbn. apply app_nil_r.
Qed.
Lemma em_forceOnM_is : v_len o = 9 -> em_forceOnM_mem mem o x = (w <- em_forceOnM (val mem o) (val mem x) ;; Ok (set_segment mem (v_off o) w)).
Proof.
  intros L. unfold em_forceOnM_mem, em_forceOnM. rewrite load_val by auto. cbn [bind]. destruct (m3_read _) as [M|]; [|reflexivity]. cbn [bind]. destruct (mnf_assert _); [|reflexivity]. cbn [bind]. cbn zeta.
  set (q0 := vdivs (col0 M) _). assert (L0 : length q0 = 3) by reflexivity. destruct (store_load mem 0 q0 Fo) as (E0 & F0 & R0); [lia|]. rewrite E0. cbn [bind]. rewrite L0 in R0. rewrite R0. cbn [bind].
  set (q1 := vdivs (vsub (col1 M) _) _). assert (L1 : length q1 = 3) by reflexivity.
  match goal with |- context [store_at ?m0 o 3 q1] => destruct (store_load m0 3 q1 F0) as (E1 & F1 & R1); [lia|]; rewrite E1 end. cbn [bind]. rewrite L1 in R1. rewrite R1. cbn [bind].
  set (q2 := vdivs _ _). assert (L2 : length q2 = 3) by reflexivity.
  match goal with |- context [store_at ?m0 o 6 q2] => destruct (store_load m0 6 q2 F1) as (E2 & F2 & _); [lia|]; rewrite E2 end.
  rewrite raw_write_ok by (rewrite val_len, !app_length, L0, L1, L2 by auto; lia). cbn [bind]. f_equal. unfold fits in Fo. rewrite Nat.add_0_r.
  replace (v_off o + 3) with (v_off o + length q0) by lia. rewrite set_set by lia. replace (v_off o + 6) with (v_off o + length (q0 ++ q1)) by (rewrite app_length; lia). rewrite set_set by (rewrite app_length; lia). rewrite <- app_assoc. reflexivity.
Qed.
End Leaves.
Lemma real_pseudoLog_is mem o x y : fits mem o -> fits mem x -> fits mem y -> sep o x -> sep o y ->
  real_pseudoLog_mem mem o x y = (w <- real_pseudoLog (val mem o) (val mem x) (val mem y) ;; Ok (set_segment mem (v_off o) w)).
Proof.
  intros Fo Fx Fy Sx Sy. unfold real_pseudoLog_mem, real_pseudoLog, same_len, same_size. rewrite !val_len by auto. destruct (Nat.eqb_spec (v_len y) (v_len x)) as [E|]; [|reflexivity]. cbn [eigen_assert bind].
  assert (L : length (vsub (val mem y) (val mem x)) = v_len y) by (unfold vsub; rewrite map2_len; rewrite !val_len; auto).
  destruct (Nat.eq_dec (v_len o) (v_len y)) as [E'|N]; [|apply each_bad; auto]. rewrite (assign_ok' mem o Fo _ (v_len y)) by auto. rewrite E', Nat.eqb_refl. cbn [eigen_assert bind]. apply (each2 mem o y x); auto.
Qed.
Lemma s2_forceOnTxM_is mem o v x : fits mem o -> fits mem v -> fits mem x -> sep o v -> sep o x ->
  s2_forceOnTxM_mem mem o v x = (w <- s2_forceOnTxM (val mem o) (val mem v) (val mem x) ;; Ok (set_segment mem (v_off o) w)).
Proof.
  intros Fo Fv Fx Sv Sx. unfold s2_forceOnTxM_mem, s2_forceOnTxM, same_len, same_size. rewrite !val_len, !load_val by auto. destruct (Nat.eqb_spec (v_len x) (v_len v)) as [E|]; [|reflexivity]. cbn [eigen_assert bind].
  set (d := dot _ _). assert (L : length (vsub (val mem v) (vscale d (val mem x))) = v_len v) by (unfold vsub, vscale; rewrite map2_len; rewrite ?map_length, !val_len; auto).
  destruct (Nat.eq_dec (v_len o) (v_len v)) as [E'|N]; [|apply each_bad; auto]. rewrite (assign_ok' mem o Fo _ (v_len v)) by auto. rewrite E', Nat.eqb_refl. cbn [eigen_assert bind].
  rewrite (each2 mem o v x Fo Fv Fx Sv Sx (fun a b => (a - d * b)%k)); auto. do 2 f_equal. unfold vsub, vscale. clearbody d. clear.
  revert d. generalize (val mem x). induction (val mem v) as [|a l IH]; intros [|b l'] d; cbn; auto. f_equal. apply IH.
Qed.

(** ** Trees *)
Lemma val_set mem o out k n : fits mem o -> length out = v_len o -> k + n <= v_len o ->
  val (set_segment mem (v_off o) out) (VR (v_off o + k) n) = firstn n (skipn k out).
Proof.
  intros F L H. unfold fits in F. apply nth_error_ext. intros i. destruct (Nat.lt_ge_cases i n) as [Hi|Hi].
  - rewrite val_nth by auto. cbn [v_off]. rewrite nth_set by lia. rewrite nth_error_firstn', nth_error_skipn' by auto.
    destruct (Nat.leb_spec (v_off o) (v_off o + k + i)); [|lia]. destruct (Nat.ltb_spec (v_off o + k + i) (v_off o + length out)); [|lia]. cbn [andb]. f_equal. lia.
  - unfold val. cbn [v_len]. rewrite !(proj2 (nth_error_None _ _)); auto; rewrite firstn_length; lia.
Qed.
Lemma set_sub mem o out k w : fits mem o -> length out = v_len o -> k + length w <= v_len o ->
  set_segment (set_segment mem (v_off o) out) (v_off o + k) w = set_segment mem (v_off o) (set_segment out k w).
Proof.
  intros F L H. unfold fits in F. apply nth_error_ext. intros j.
  rewrite nth_set by (rewrite set_segment_length; lia). rewrite !nth_set by (rewrite ?set_segment_length; lia). rewrite set_segment_length by lia.
  repeat match goal with |- context [(?a <=? ?b)] => destruct (Nat.leb_spec a b) | |- context [(?a <? ?b)] => destruct (Nat.ltb_spec a b) end; cbn [andb]; try lia; auto. f_equal. lia.
Qed.
Definition inside (k n : nat) r : vref := VR (v_off r + k) n.
Lemma val_inside mem r k n : k + n <= v_len r -> val mem (inside k n r) = firstn n (skipn k (val mem r)).
Proof.
  intros H. unfold inside. apply nth_error_ext. intros i. destruct (Nat.lt_ge_cases i n) as [Hi|Hi].
  - rewrite val_nth by auto. cbn [v_off]. rewrite nth_error_firstn', nth_error_skipn', val_nth by lia. f_equal. lia.
  - unfold val. cbn [v_len]. rewrite !(proj2 (nth_error_None _ _)); auto; rewrite firstn_length; lia.
Qed.
Lemma set_whole mem o : fits mem o -> set_segment mem (v_off o) (val mem o) = mem.
Proof.
  intros F. pose proof (val_len _ _ F) as L. unfold fits in F. apply nth_error_ext. intros j. rewrite nth_set by lia. rewrite L.
  destruct (Nat.leb_spec (v_off o) j); [destruct (Nat.ltb_spec j (v_off o + v_len o))|]; cbn [andb]; auto. rewrite val_nth by lia. f_equal. lia.
Qed.

Definition dims (D : edim) (subs : list (mfd K)) : nat := sum_list (map (getDim D) subs).
(** [out] still holds the initial doubles from position [k] on. *)
Definition fresh mem o (k : nat) (out : vec K) : Prop := length out = v_len o /\ skipn k out = skipn k (val mem o).

Lemma loop_mem D0 mem o subs (F : nat -> mfd K -> vec K -> res (vec K)) (G : nat -> mfd K -> vec K -> res (vec K)) :
  fits mem o -> v_len o = dims D0 subs ->
  (forall pre s post out, subs = pre ++ s :: post -> fresh mem o (dims D0 pre) out ->
     F (length pre) s (set_segment mem (v_off o) out) = (w <- G (length pre) s out ;; Ok (set_segment mem (v_off o) w))
     /\ forall w, G (length pre) s out = Ok w -> fresh mem o (dims D0 (pre ++ [s])) w) ->
  loop F 0 subs mem = (w <- loop G 0 subs (val mem o) ;; Ok (set_segment mem (v_off o) w)).
Proof.
  intros Fo L H.
  enough (X : forall post pre out, subs = pre ++ post -> fresh mem o (dims D0 pre) out ->
            loop F (length pre) post (set_segment mem (v_off o) out) = (w <- loop G (length pre) post out ;; Ok (set_segment mem (v_off o) w))).
  { specialize (X subs [] (val mem o) eq_refl). rewrite set_whole in X by auto. apply X. split; auto. apply val_len; auto. }
  induction post as [|s post IH]; intros pre out E R; cbn [loop]; [reflexivity|].
  destruct (H pre s post out E R) as [E1 R1]. rewrite E1. destruct (G (length pre) s out) as [w|] eqn:Ew; [|reflexivity]. cbn [bind].
  specialize (IH (pre ++ [s]) w). rewrite app_length, Nat.add_1_r in IH. apply IH; [rewrite <- app_assoc; exact E|apply R1; reflexivity].
Qed.

(** An input of kind [D1] relative to the output of kind [D0]. *)
Definition sepD (D0 D1 : edim) (subs : list (mfd K)) o r : Prop :=
  (r = o /\ map (getDim D0) subs = map (getDim D1) subs) \/ v_off o + v_len o <= v_off r \/ v_off r + v_len r <= v_off o.
Lemma dims_app D a b : dims D (a ++ b) = dims D a + dims D b.
Proof. unfold dims. rewrite map_app. apply sum_list_app. Qed.
Lemma dims_cons D s b : dims D (s :: b) = getDim D s + dims D b.
Proof. reflexivity. Qed.
Lemma map_split (D0 D1 : edim) (pre post : list (mfd K)) s : map (getDim D0) (pre ++ s :: post) = map (getDim D1) (pre ++ s :: post) ->
  dims D0 pre = dims D1 pre /\ getDim D0 s = getDim D1 s.
Proof.
  induction pre as [|p pre IH]; cbn [app map]; intros E; injection E as E E'; [split; auto|]. destruct (IH E'). unfold dims in *. cbn [map sum_list]. split; lia.
Qed.

Section Prod.
Variables (h : hdr) (sT sR : list nat) (subs : list (mfd K)).
Hypothesis W : wf (Prod h sT sR subs).
Let P := Prod h sT sR subs.
Lemma subref_is D r pre s post : subs = pre ++ s :: post -> v_len r = dims D subs ->
  subref D P r (length pre) = Ok (inside (dims D pre) (getDim D s) r).
Proof.
  intros -> L. unfold subref, P. rewrite (view_range_wf D h sT sR pre s post (v_len r) W L). cbn [bind]. fold (dims D pre).
  rewrite dims_app, dims_cons in L. destruct (Nat.leb_spec (dims D pre + getDim D s) (v_len r)); [reflexivity|lia].
Qed.
Lemma getView_is D (y : vec K) pre s post : subs = pre ++ s :: post -> length y = dims D subs ->
  getView D P y (length pre) = Ok (firstn (getDim D s) (skipn (dims D pre) y)).
Proof.
  intros -> L. unfold getView, P. rewrite (view_range_wf D h sT sR pre s post (length y) W L). cbn [bind]. fold (dims D pre).
  rewrite dims_app, dims_cons in L. unfold segment. destruct (Nat.leb_spec (dims D pre + getDim D s) (length y)); [reflexivity|lia].
Qed.
Lemma on_view_is D (out : vec K) f pre s post : subs = pre ++ s :: post -> length out = dims D subs ->
  on_view D P (length pre) f out = (w <- f (firstn (getDim D s) (skipn (dims D pre) out)) ;; Ok (set_segment out (dims D pre) w)).
Proof.
  intros -> L. unfold on_view, P. rewrite (view_range_wf D h sT sR pre s post (length out) W L). cbn [bind]. fold (dims D pre).
  rewrite dims_app, dims_cons in L. unfold segment. destruct (Nat.leb_spec (dims D pre + getDim D s) (length out)); [reflexivity|lia].
Qed.
(** Reading a view of an input in the middle of the loop. *)
Lemma read_view D0 D1 mem o r out pre s post : subs = pre ++ s :: post -> fits mem o -> v_len o = dims D0 subs -> fits mem r -> v_len r = dims D1 subs ->
  sepD D0 D1 subs o r -> fresh mem o (dims D0 pre) out ->
  let mem' := set_segment mem (v_off o) out in let ri := inside (dims D1 pre) (getDim D1 s) r in let oi := inside (dims D0 pre) (getDim D0 s) o in
  val mem' ri = firstn (getDim D1 s) (skipn (dims D1 pre) (val mem r)) /\ fits mem' ri /\ fits mem' oi /\ sep oi ri /\ v_len ri = getDim D1 s.
Proof.
  intros E Fo Lo Fr Lr S [Lout R]. cbn zeta.
  assert (B1 : dims D1 pre + getDim D1 s <= v_len r) by (rewrite Lr, E, dims_app, dims_cons; lia).
  assert (B0 : dims D0 pre + getDim D0 s <= v_len o) by (rewrite Lo, E, dims_app, dims_cons; lia).
  unfold fits in *. split; [|split; [|split; [|split]]].
  - destruct S as [[-> Em]|S].
    + rewrite E in Em. destruct (map_split _ _ _ _ _ Em) as [E1 E2]. unfold inside. rewrite val_set by (unfold fits; auto; lia). rewrite <- E1, R, E1. reflexivity.
    + rewrite <- val_inside by auto. eapply agree_val; [apply set_agree with (a := v_off o) (b := v_off o + v_len o); lia|]. cbn. lia.
  - unfold inside. cbn [v_off v_len]. rewrite set_segment_length; lia.
  - unfold inside. cbn [v_off v_len]. rewrite set_segment_length; lia.
  - destruct S as [[-> Em]|S].
    + rewrite E in Em. destruct (map_split _ _ _ _ _ Em) as [-> ->]. left. reflexivity.
    + right. unfold inside, disjoint. cbn [v_off v_len]. lia.
  - reflexivity.
Qed.
Lemma fresh_next D0 mem o pre s post out w : subs = pre ++ s :: post -> fits mem o -> v_len o = dims D0 subs -> fresh mem o (dims D0 pre) out ->
  length w = getDim D0 s -> fresh mem o (dims D0 (pre ++ [s])) (set_segment out (dims D0 pre) w).
Proof.
  intros E Fo Lo [Lout R] Lw. assert (B0 : dims D0 pre + getDim D0 s <= v_len o) by (rewrite Lo, E, dims_app, dims_cons; lia).
  rewrite dims_app, dims_cons. change (dims D0 []) with 0. rewrite Nat.add_0_r. split; [rewrite set_segment_length; lia|].
  apply nth_error_ext. intros j. rewrite !nth_error_skipn', nth_set by lia.
  destruct (Nat.leb_spec (dims D0 pre) (dims D0 pre + getDim D0 s + j)); [|lia]. destruct (Nat.ltb_spec (dims D0 pre + getDim D0 s + j) (dims D0 pre + length w)); [lia|]. cbn [andb].
  pose proof (f_equal (fun l => nth_error l (getDim D0 s + j)) R) as R'. cbv beta in R'. rewrite !nth_error_skipn', !Nat.add_assoc in R'. exact R'.
Qed.

Lemma prod_mem2 D0 D1 D2 (opm : mfd K -> vec K -> vref -> vref -> vref -> res (vec K)) (op : mfd K -> vec K -> vec K -> vec K -> res (vec K)) mem o x v :
  fits mem o -> fits mem x -> fits mem v -> v_len o = dims D0 subs -> v_len x = dims D1 subs -> v_len v = dims D2 subs ->
  sepD D0 D1 subs o x -> sepD D0 D2 subs o v ->
  (forall s (out a b r : vec K), op s out a b = Ok r -> length r = length out) ->
  Forall (fun s => forall mem o x v, fits mem o -> fits mem x -> fits mem v -> v_len o = getDim D0 s -> v_len x = getDim D1 s -> v_len v = getDim D2 s ->
            sep o x -> sep o v -> opm s mem o x v = (w <- op s (val mem o) (val mem x) (val mem v) ;; Ok (set_segment mem (v_off o) w))) subs ->
  loop (fun i s mem => oi <- subref D0 P o i ;; xi <- subref D1 P x i ;; vi <- subref D2 P v i ;; opm s mem oi xi vi) 0 subs mem
  = (w <- loop (fun i s out => on_view D0 P i (fun (o : vec K) => xi <- getView D1 P (val mem x) i ;; vi <- getView D2 P (val mem v) i ;; op s o xi vi) out) 0 subs (val mem o) ;;
     Ok (set_segment mem (v_off o) w)).
Proof.
  intros Fo Fx Fv Lo Lx Lv Sx Sv Hl IH. apply (loop_mem D0); auto. intros pre s post out E R.
  assert (Lout : length out = dims D0 subs) by (destruct R; congruence).
  assert (B0 : dims D0 pre + getDim D0 s <= v_len o) by (rewrite Lo, E, dims_app, dims_cons; lia).
  rewrite (on_view_is D0 out _ pre s post E Lout), !(subref_is _ _ pre s post E), (getView_is D1 _ pre s post E), (getView_is D2 _ pre s post E) by (rewrite ?val_len; auto). cbn [bind].
  destruct (read_view D0 D1 mem o x out pre s post E Fo Lo Fx Lx Sx R) as (V1 & F1 & Foi & S1 & L1).
  destruct (read_view D0 D2 mem o v out pre s post E Fo Lo Fv Lv Sv R) as (V2 & F2 & _ & S2 & L2).
  rewrite Forall_forall in IH. assert (In s subs) by (rewrite E; apply in_elt).
  assert (Lf : length (firstn (getDim D0 s) (skipn (dims D0 pre) out)) = getDim D0 s) by (rewrite firstn_length, skipn_length; lia).
  split.
  - rewrite IH; auto. rewrite V1, V2. unfold inside. rewrite val_set; auto; [|lia]. cbn [v_off].
    destruct (op s _ _ _) as [w|] eqn:Ew; [|reflexivity]. cbn [bind]. apply Hl in Ew. rewrite set_sub; auto; lia.
  - intros w. destruct (op s _ _ _) as [w'|] eqn:Ew; [|discriminate]. cbn [bind]. intros [= <-]. apply Hl in Ew. eapply fresh_next; eauto. congruence.
Qed.
Lemma prod_mem1 D0 D1 (opm : mfd K -> vec K -> vref -> vref -> res (vec K)) (op : mfd K -> vec K -> vec K -> res (vec K)) mem o x :
  fits mem o -> fits mem x -> v_len o = dims D0 subs -> v_len x = dims D1 subs ->
  sepD D0 D1 subs o x ->
  (forall s (out a r : vec K), op s out a = Ok r -> length r = length out) ->
  Forall (fun s => forall mem o x, fits mem o -> fits mem x -> v_len o = getDim D0 s -> v_len x = getDim D1 s ->
            sep o x -> opm s mem o x = (w <- op s (val mem o) (val mem x) ;; Ok (set_segment mem (v_off o) w))) subs ->
  loop (fun i s mem => oi <- subref D0 P o i ;; xi <- subref D1 P x i ;; opm s mem oi xi) 0 subs mem
  = (w <- loop (fun i s out => on_view D0 P i (fun (o : vec K) => xi <- getView D1 P (val mem x) i ;; op s o xi) out) 0 subs (val mem o) ;;
     Ok (set_segment mem (v_off o) w)).
Proof.
  intros Fo Fx Lo Lx Sx Hl IH. apply (loop_mem D0); auto. intros pre s post out E R.
  assert (Lout : length out = dims D0 subs) by (destruct R; congruence).
  assert (B0 : dims D0 pre + getDim D0 s <= v_len o) by (rewrite Lo, E, dims_app, dims_cons; lia).
  rewrite (on_view_is D0 out _ pre s post E Lout), !(subref_is _ _ pre s post E), (getView_is D1 _ pre s post E) by (rewrite ?val_len; auto). cbn [bind].
  destruct (read_view D0 D1 mem o x out pre s post E Fo Lo Fx Lx Sx R) as (V1 & F1 & Foi & S1 & L1).
  rewrite Forall_forall in IH. assert (In s subs) by (rewrite E; apply in_elt).
  assert (Lf : length (firstn (getDim D0 s) (skipn (dims D0 pre) out)) = getDim D0 s) by (rewrite firstn_length, skipn_length; lia).
  split.
  - rewrite IH; auto. rewrite V1. unfold inside. rewrite val_set; auto; [|lia]. cbn [v_off].
    destruct (op s _ _) as [w|] eqn:Ew; [|reflexivity]. cbn [bind]. apply Hl in Ew. rewrite set_sub; auto; lia.
  - intros w. destruct (op s _ _) as [w'|] eqn:Ew; [|discriminate]. cbn [bind]. intros [= <-]. apply Hl in Ew. eapply fresh_next; eauto. congruence.
Qed.
End Prod.

(** A tangent vector never has more doubles than a point, so one range is both only when every factor agrees. *)
Lemma tdim_rdim (m : mfd K) : wf m -> tangentDim m <= representationDim m.
Proof.
  induction m as [h l a b|h sT sR subs IH] using mfd_ind'; intros Hw; inversion Hw as [? ? ? ? Hl|? ? ? ? Hd Ht Hr HT HR Hs]; subst.
  - unfold tangentDim, representationDim. cbn. destruct l as [| |[|]]; cbn in Hl; lia.
  - change (h_tdim h <= h_rdim h). rewrite Ht, Hr. clear -IH Hs. induction subs; cbn; [lia|]. inversion IH; inversion Hs; subst. specialize (IHsubs H2 H6). specialize (H1 H5). lia.
Qed.
Lemma same_dims (subs : list (mfd K)) : Forall wf subs -> dims DT subs = dims DR subs -> map (getDim DT) subs = map (getDim DR) subs.
Proof.
  assert (Le : forall l : list (mfd K), Forall wf l -> dims DT l <= dims DR l).
  { induction 1 as [|s l Hs _ IHl]; [apply le_n|]. rewrite !dims_cons. pose proof (tdim_rdim s Hs). change (getDim DT s) with (tangentDim s). change (getDim DR s) with (representationDim s). lia. }
  induction 1 as [|s l Hs Hl IHl]; intros E; cbn [map]; auto. rewrite !dims_cons in E. pose proof (tdim_rdim s Hs). pose proof (Le l Hl).
  change (getDim DT s) with (tangentDim s) in *. change (getDim DR s) with (representationDim s) in *. f_equal; [lia|apply IHl; lia].
Qed.
Lemma sep_sepD D0 D1 (subs : list (mfd K)) o r : Forall wf subs -> v_len o = dims D0 subs -> v_len r = dims D1 subs -> sep o r -> sepD D0 D1 subs o r.
Proof.
  intros Hw Lo Lr [->|S]; [left; split; auto|right; auto]. destruct D0, D1; auto; [symmetry|]; apply same_dims; auto; congruence.
Qed.

Ltac same_check L := rewrite val_len by auto; match goal with |- bind (mnf_assert (?a =? ?b)) _ = _ => destruct (Nat.eqb_spec a b) as [L|L]; [|reflexivity] end; cbn [mnf_assert bind].
Lemma retractation_is m : wf m -> forall mem o x v, fits mem o -> fits mem x -> fits mem v -> sep o x -> sep o v ->
  retractation_mem m mem o x v = (w <- retractation m (val mem o) (val mem x) (val mem v) ;; Ok (set_segment mem (v_off o) w)).
Proof.
  induction m as [h l a b|h sT sR subs IH] using mfd_ind'; intros Hw mem o x v Fo Fx Fv Sx Sv; cbn [retractation_mem retractation]; same_check Lo; same_check Lx; same_check Lv;
    rewrite !load_val by auto; cbn [bind]; destruct (isInTxM _ _ _ _) as [ok|]; try reflexivity; cbn [bind]; destruct ok; try reflexivity; cbn [mnf_assert bind];
    inversion Hw as [? ? ? ? Hl|? ? ? ? Hd Ht Hr HT HR Hs]; subst.
  - unfold representationDim in *. cbn in Lo, Lx. destruct l as [| |[|]]; cbn in Hl; [apply real_retractation_is|apply s2_retractation_is|apply em_retractation_is|apply eq_retractation_is]; auto; lia.
  - change (v_len o = h_rdim h) in Lo. change (v_len x = h_rdim h) in Lx. change (v_len v = h_tdim h) in Lv. rewrite Hr in Lo, Lx. rewrite Ht in Lv.
    apply (prod_mem2 h _ _ subs Hw DR DR DT retractation_mem retractation); auto.
    + apply sep_sepD; auto.
    + apply sep_sepD; auto.
    + eauto using retractation_length.
    + rewrite Forall_forall in *. intros; apply IH; auto.
Qed.
Lemma pseudoLog_is m : wf m -> forall mem o x y, fits mem o -> fits mem x -> fits mem y -> sep o x -> sep o y ->
  pseudoLog_mem m mem o x y = (w <- pseudoLog m (val mem o) (val mem x) (val mem y) ;; Ok (set_segment mem (v_off o) w)).
Proof.
  induction m as [h l a b|h sT sR subs IH] using mfd_ind'; intros Hw mem o x v Fo Fx Fv Sx Sv; cbn [pseudoLog_mem pseudoLog]; same_check Lo; same_check Lx; same_check Lv;
    inversion Hw as [? ? ? ? Hl|? ? ? ? Hd Ht Hr HT HR Hs]; subst.
  - unfold representationDim in *. cbn in Lo, Lx, Lv. destruct l as [| |[|]]; cbn in Hl; [apply real_pseudoLog_is|apply s2_pseudoLog_is|apply em_pseudoLog_is|apply eq_pseudoLog_is]; auto; lia.
  - change (v_len o = h_tdim h) in Lo. change (v_len x = h_rdim h) in Lx. change (v_len v = h_rdim h) in Lv. rewrite Hr in Lv, Lx. rewrite Ht in Lo.
    apply (prod_mem2 h _ _ subs Hw DT DR DR pseudoLog_mem pseudoLog); auto.
    + apply sep_sepD; auto.
    + apply sep_sepD; auto.
    + eauto using pseudoLog_length.
    + rewrite Forall_forall in *. intros; apply IH; auto.
Qed.
Lemma forceOnM_is m : wf m -> forall mem o x, fits mem o -> fits mem x -> sep o x ->
  forceOnM_mem m mem o x = (w <- forceOnM m (val mem o) (val mem x) ;; Ok (set_segment mem (v_off o) w)).
Proof.
  induction m as [h l a b|h sT sR subs IH] using mfd_ind'; intros Hw mem o x Fo Fx Sx; cbn [forceOnM_mem forceOnM]; same_check Lo; same_check Lx;
    inversion Hw as [? ? ? ? Hl|? ? ? ? Hd Ht Hr HT HR Hs]; subst.
  - unfold representationDim in *. cbn in Lo, Lx. destruct l as [| |[|]]; cbn in Hl; [apply copy_mem_is|apply s2_forceOnM_is|apply em_forceOnM_is with (v := x)|apply eq_forceOnM_is]; auto; lia.
  - change (v_len o = h_rdim h) in Lo. change (v_len x = h_rdim h) in Lx. rewrite Hr in Lo, Lx.
    apply (prod_mem1 h _ _ subs Hw DR DR forceOnM_mem forceOnM); auto.
    + apply sep_sepD; auto.
    + eauto using forceOnM_length.
    + rewrite Forall_forall in *. intros; apply IH; auto.
Qed.
Lemma forceOnTxM_is m : wf m -> forall mem o w x, fits mem o -> fits mem w -> fits mem x -> sep o w -> sep o x ->
  forceOnTxM_mem m mem o w x = (r <- forceOnTxM m (val mem o) (val mem w) (val mem x) ;; Ok (set_segment mem (v_off o) r)).
Proof.
  induction m as [h l a b|h sT sR subs IH] using mfd_ind'; intros Hw mem o v x Fo Fv Fx Sv Sx; cbn [forceOnTxM_mem forceOnTxM]; same_check Lo; same_check Lx; same_check Lv;
    inversion Hw as [? ? ? ? Hl|? ? ? ? Hd Ht Hr HT HR Hs]; subst.
  - destruct l as [| |mp]; [apply copy_mem_is|apply s2_forceOnTxM_is|apply copy_mem_is]; auto.
  - change (v_len o = h_tdim h) in Lo. change (v_len x = h_rdim h) in Lx. change (v_len v = h_tdim h) in Lv. rewrite Hr in Lx. rewrite Ht in Lo, Lv.
    apply (prod_mem2 h _ _ subs Hw DT DT DR forceOnTxM_mem forceOnTxM); auto.
    + apply sep_sepD; auto.
    + apply sep_sepD; auto.
    + eauto using forceOnTxM_length.
    + rewrite Forall_forall in *. intros; apply IH; auto.
Qed.
End Alias.
