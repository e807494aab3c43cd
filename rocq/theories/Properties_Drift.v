(** C41: drift along any number of increments.  Exact real arithmetic. *)
From Coq Require Import Reals List Lra Lia ZArith Bool Arith Psatz.
From Verif Require Import Base Scalar Vec Model_Real Model_S2 Model_SO3 Model_Manifold Spec Layout Comp Indep Flat Structure
  XR SpecR RotR NumVec NumMat Angle NumQuat NumTree NumLeaf RotLog RoundTrip NumS2 NumExp NumLog Close Force Points Drift ExScalar ExR Properties_SO3.
Import ListNotations.
Local Open Scope R_scope.

(** Point::increment (Point.cpp:116-120), repeated: the value is retracted in place by each tangent vector. *)
Fixpoint increments (m : mfd XR) (x : list XR) (vs : list (list R)) : res (list XR) :=
  match vs with
  | [] => Ok x
  | v :: vs' => y <- retractation m x x (fin v) ;; increments m y vs'
  end.

(** Distance of an elementary value to the manifold. *)
Definition defect (d : R) (s : mfd XR) (x : list R) : Prop :=
  match s with
  | Leaf h LReal _ _ => length x = h_dim h
  | Leaf _ LS2 _ _ => length x = 3%nat /\ rdot x x = 1
  | Leaf _ (LSO3 MapMatrix) _ _ => exists A, x = flat9 A /\ near_rot d A
  | Leaf _ (LSO3 MapQuat) _ _ => exists q, x = qflat q /\ Rabs (qn2 q - 1) <= d
  | Prod _ _ _ _ => False
  end.

(** Rotation parts shorter than pi. *)
Definition under_pi (s : mfd XR) (v : list R) : Prop := match s with Leaf _ (LSO3 _) _ _ => rnorm v < PI | _ => True end.

Lemma nxt_pow k : nxt ((1 + 1 / 10 ^ 24) ^ k - 1) = (1 + 1 / 10 ^ 24) ^ (S k) - 1.
Proof. unfold nxt. cbn [pow]. ring. Qed.
Lemma pow_ge1 e k : 0 <= e -> 1 <= (1 + e) ^ k.
Proof. intros H. induction k; cbn [pow]; [lra|]. nra. Qed.
Lemma pow_lin e k : 0 <= e -> 2 * (INR k * e) <= 1 -> (1 + e) ^ k <= 1 + 2 * (INR k * e).
Proof.
  intros He. induction k as [|k IH]; intros H.
  - cbn. lra.
  - rewrite S_INR in *. cbn [pow]. pose proof (pos_INR k) as Hk. assert (K : 0 <= INR k * e) by (apply Rmult_le_pos; auto).
    assert (A : (1 + e) ^ k <= 1 + 2 * (INR k * e)) by (apply IH; lra).
    assert (B : (1 + e) * (1 + e) ^ k <= (1 + e) * (1 + 2 * (INR k * e))) by (apply Rmult_le_compat_l; lra).
    assert (C : e * (2 * (INR k * e)) <= e * 1) by (apply Rmult_le_compat_l; lra). lra.
Qed.

Lemma increments_strays m : wf m -> forall vs k x r, straysM ((1 + 1 / 10 ^ 24) ^ k - 1) m x -> 
  Forall (fun v => length v = tangentDim m) vs -> increments m (fin x) vs = Ok r ->
  exists y, r = fin y /\ straysM ((1 + 1 / 10 ^ 24) ^ (k + length vs) - 1) m y.
Proof.
  intros W. induction vs as [|v vs IH]; intros k x r Hx Lv H.
  - cbn [increments] in H. injection H as <-. exists x. split; auto. cbn [length]. rewrite Nat.add_0_r. auto.
  - inversion Lv; subst. cbn [increments] in H.
    destruct (retractation m (fin x) (fin x) (fin v)) as [y'|] eqn:E; [|discriminate]. cbn [bind] in H.
    assert (Lx : length (fin x) = representationDim m).
    { rewrite fin_length. destruct Hx as (xs & -> & F). change (representationDim m) with (getDim DR m). rewrite (leaves_dim DR m W).
      pose proof (fun s => wf_leaf_inv m s W) as G. clear - F G. revert G. induction F as [|s x ls xs Hs F IH]; intros G; [reflexivity|].
      cbn [concat map]. rewrite app_length. change (sum_list (getDim DR s :: map (getDim DR) ls)) with (getDim DR s + sum_list (map (getDim DR) ls))%nat.
      rewrite IH by (intros; apply G; simpl; auto). f_equal. destruct (G s) as (h & l & a & b & -> & Wl); [simpl; auto|].
      apply (strays_len _ _ _ _ _ _ Wl Hs). }
    assert (D0 : 0 <= (1 + 1 / 10 ^ 24) ^ k - 1) by (pose proof (pow_ge1 (1 / 10 ^ 24) k); lra).
    destruct (tree_step m _ x v _ _ W D0 Hx ltac:(assumption) Lx E) as (y & -> & Hy).
    rewrite nxt_pow in Hy. destruct (IH (S k) y r) as (z & -> & Hz); auto.
    exists z. split; auto. cbn [length]. rewrite Nat.add_succ_r. exact Hz.
Qed.

(** Whatever the (finite) increments, as long as no assertion fails, after k of them every SO3 slice is a
    rotation up to (1 + 1e-24)^k - 1: entries of A^T A, determinant, squared quaternion norm; S2 slices are
    exactly unit.  Up to 1e12 increments isInM accepts the point for every precision above 1e-11.  Every
    tree, every exact starting point, no bound on k. *)
Theorem C41_drift : forall m (x : list R) (vs : list (list R)) (r : list XR), built m -> onM m x ->
  Forall (fun v => length v = tangentDim m) vs -> increments m (fin x) vs = Ok r ->
  let k := length vs in
  exists ys, r = fin (concat ys) /\ Forall2 (defect ((1 + 1 / 10 ^ 24) ^ k - 1)) (leaves m) ys /\
    (INR k <= 10 ^ 12 -> forall prec, 1 / 10 ^ 11 < prec -> isInM m r (Fin prec) = Ok true).
Proof.
  intros m x vs r B Hx Lv H k. apply built_wf in B.
  pose proof (fun s => wf_leaf_inv m s B) as G.
  destruct (increments_strays m B vs 0%nat x r) as (y & -> & ys & -> & F); auto.
  { destruct Hx as (xs & -> & F). exists xs. split; auto. cbn [pow]. clear - F. induction F as [|s x ls xs Hs F IH]; constructor; auto.
    replace (1 - 1) with 0 by ring. destruct s as [h [| |[|]] a b|]; cbn [on_leaf strays] in *; auto.
    - destruct Hs as (A & -> & HA). exists A. split; auto. apply stretch_rot; auto.
    - destruct Hs as (q & -> & HA). exists q. split; auto. rewrite HA. replace (1 - 1) with 0 by ring. rewrite Rabs_R0. lra. }
  cbn [Nat.add] in F. fold k in F. set (d := (1 + 1 / 10 ^ 24) ^ k - 1) in *. exists ys. split; [reflexivity|].
  assert (D : Forall2 (defect d) (leaves m) ys).
  { clear - F. induction F as [|s x ls xs Hs F IH]; constructor; auto.
    destruct s as [h [| |[|]] a b|]; cbn [defect strays] in *; auto.
    destruct Hs as (A & -> & HA). exists A. split; auto. apply stretch_near; auto. }
  split; [auto|]. intros Hk prec Hp.
  assert (D0 : 0 <= d). { unfold d. pose proof (pow_ge1 (1 / 10 ^ 24) k). lra. }
  assert (Dk : d <= 2 / 10 ^ 12).
  { unfold d. pose proof (pow_lin (1 / 10 ^ 24) k ltac:(lra)) as P. assert (INR k * (1 / 10 ^ 24) <= 10 ^ 12 * (1 / 10 ^ 24)) by (apply Rmult_le_compat_r; lra).
    assert (10 ^ 12 * (1 / 10 ^ 24) = 1 / 10 ^ 12) by field. lra. }
  assert (P : pieces DR (leaves m) (map fin ys)).
  { apply fin_pieces. clear - F G. revert G. induction F as [|s x ls xs Hs F IH]; intros G; constructor; auto.
    - destruct (G s) as (h & l & a & b & -> & Wl); [simpl; auto|]. apply (strays_len _ _ _ _ _ _ Wl Hs).
    - apply IH. intros; apply G; simpl; auto. }
  assert (L : forall p, 1 / 10 ^ 11 < p -> Forall2 (fun s x => isInM s x (Fin p) = Ok true) (leaves m) (map fin ys)).
  { intros p Hpp. clear - D D0 Dk G Hpp. revert G. induction D as [|s x ls xs Hs F IH]; intros G; cbn [map]; constructor; auto.
    2:{ apply IH. intros; apply G; simpl; auto. }
    destruct (G s) as (h & l & a & b & -> & Wl); [simpl; auto|]. clear G IH F.
    assert (SQ : forall q2, Rabs (q2 - 1) <= d -> Rabs (sqrt q2 - 1) < p).
    { intros q2 Hq. apply Rabs_le_inv in Hq.
      assert (S0 : 0 <= sqrt q2) by apply sqrt_pos. assert (S1 : sqrt q2 * sqrt q2 = q2) by (apply sqrt_sqrt; lra).
      assert (Rabs (sqrt q2 - 1) <= d); [|lra]. apply Rabs_le. split; nra. }
    destruct l as [| |[|]]; cbn [defect] in Hs.
    - apply real_isInM_fin; auto. rewrite fin_length. auto.
    - destruct Hs as [L3 U]. rewrite s2_isInM_fin by auto. f_equal. apply Rltb_true. apply SQ. rewrite U. replace (1 - 1) with 0 by ring. rewrite Rabs_R0. lra.
    - destruct Hs as (A & -> & HA). destruct Wl as (W1 & W2 & W3 & _). cbn [isInM]. unfold representationDim; cbn [hdr_of].
      rewrite check_eq by (rewrite fin_length, flat9_length; lia). cbn [bind]. apply em_isInM_near.
      unfold near_rot in *. repeat split; eapply Rle_trans; try apply HA; lra.
    - destruct Hs as (q & -> & HA). rewrite eq_isInM_fin by auto. f_equal. apply Rltb_true. unfold rnorm. rewrite <- qn2_dot. apply SQ. auto. }
  rewrite fin_concat. destruct m as [h lf a b|h sT sR subs].
  - apply isInM_leaves; auto.
  - assert (E : isInM (Prod h sT sR subs) (concat (map fin ys)) default_prec = Ok true).
    { apply isInM_leaves; auto. apply L. lra. }
    rewrite <- E. reflexivity.
Qed.
Print Assumptions C41_drift.

(** Without S2, increments whose SO3 slices are shorter than pi never fail an assertion, however many. *)
Theorem C41_never_stops : forall m (x : list R) (vs : list (list R)), built m -> no_s2 m -> onM m x ->
  Forall (eachT under_pi m) vs -> exists r, increments m (fin x) vs = Ok r.
Proof.
  intros m x vs B NS Hx Hv. apply built_wf in B.
  assert (S : exists d, 0 <= d /\ straysM d m x).
  { exists 0. split; [lra|]. destruct Hx as (xs & -> & F). exists xs. split; auto. clear - F. induction F as [|s x ls xs Hs F IH]; constructor; auto.
    destruct s as [h [| |[|]] a b|]; cbn [on_leaf strays] in *; auto.
    - destruct Hs as (A & -> & HA). exists A. split; auto. apply stretch_rot; auto.
    - destruct Hs as (q & -> & HA). exists q. split; auto. rewrite HA. replace (1 - 1) with 0 by ring. rewrite Rabs_R0. lra. }
  clear Hx. revert x S. induction Hv as [|v vs Hv1 Hv IH]; intros x (d & D0 & xs & -> & F); [eexists; reflexivity|].
  destruct Hv1 as (ws & -> & Hw). cbn [increments].
  assert (F3 : Forall3 (fun s x v => strays d s x /\ length v = tangentDim s /\ under_pi s v) (leaves m) xs ws).
  { clear - F Hw. revert ws Hw. induction F; intros ws Hw; inversion Hw; subst; constructor; auto. }
  destruct (choose4 _ (fun s x v y => (length x = getDim DR s /\ length v = getDim DT s /\
      forall o, length o = getDim DR s -> retractation s o (fin x) (fin v) = Ok (fin y)) /\ strays (nxt d) s y) _ _ _ F3) as (ys & F4).
  { intros s x v Hs (Sx & Lv & Pv). destruct (wf_leaf_inv m s B Hs) as (h & l & a & b & -> & Wl).
    destruct (leaf_step h l a b d x v Wl D0 Sx Lv) as [A _].
    destruct A as (y & Sy & Ry).
    - pose proof (no_s2_in _ _ NS Hs). destruct l as [| |[|]]; cbn [fits under_pi] in *; auto. discriminate.
    - exists y. split; auto. split; [apply (strays_len _ _ _ _ _ _ Wl Sx)|]. split; auto. }
  assert (Lx : length (fin (concat xs)) = getDim DR m).
  { rewrite (leaves_dim DR m B), fin_length. clear - F4. induction F4 as [|s x v y ls xs vs ys H F IH]; [reflexivity|].
    cbn [concat map]. rewrite app_length, IH. destruct H as [(H & _) _]. rewrite H. reflexivity. }
  rewrite (lift_op2 DR DR DT retractation retractation_prod m _ xs ws ys B Lx).
  - cbn [bind]. apply IH. exists (nxt d). split; [unfold nxt; lra|]. exists ys. split; auto. clear - F4. induction F4; constructor; tauto.
  - clear - F4. induction F4; constructor; tauto.
Qed.
Print Assumptions C41_never_stops.

(** Hypotheses are met: k increments of ((R^2 x SO3) x SO3), any k, from a point with both maps non trivial. *)
Example C41_example : forall k, exists r, increments rP (fin rPx) (repeat rPv k) = Ok r /\
  exists ys, r = fin (concat ys) /\ Forall2 (defect ((1 + 1 / 10 ^ 24) ^ k - 1)) (leaves rP) ys.
Proof.
  intros k. assert (V : eachT under_pi rP rPv).
  { pose proof PI_gt2. exists [[1; -1]; [1; 0; 0]; [2; 0; 0]]. split; [reflexivity|].
    repeat (apply Forall2_cons || apply Forall2_nil); (split; [reflexivity|]); cbn [under_pi]; auto; rewrite rnorm100; lra. }
  destruct (C41_never_stops rP rPx (repeat rPv k) rP_built rP_no_s2 rPx_on) as [r Hr].
  { apply Forall_forall. intros v Hin. apply repeat_spec in Hin. subst. auto. }
  exists r. split; auto. destruct (C41_drift rP rPx (repeat rPv k) r rP_built rPx_on) as (ys & E & F & _); auto.
  { apply Forall_forall. intros v Hin. apply repeat_spec in Hin. subst. reflexivity. }
  rewrite repeat_length in F. eauto.
Qed.
