(** Errors along a path of increments: the steps are isometries, so they add up. *)
From Coq Require Import Reals List Lra Lia ZArith Bool Arith Psatz.
From Verif Require Import Base Scalar Vec Model_Real Model_S2 Model_SO3 Model_Manifold Spec Layout Comp Indep Flat
  XR SpecR RotR NumVec NumMat Angle NumQuat NumTree NumLeaf RotLog RoundTrip NumS2 NumExp NumLog Points Drift Inj.
Import ListNotations.
Local Open Scope R_scope.

(** ** The Euclidean norm *)
Lemma amgm U W s x y : 0 <= U -> 0 <= W -> s * s <= U * W -> 2 * (s * (x * y)) <= U * (y * y) + W * (x * x).
Proof.
  intros HU HW H. set (p := sqrt U). set (q := sqrt W).
  assert (P : p * p = U) by (apply sqrt_sqrt; auto). assert (Q : q * q = W) by (apply sqrt_sqrt; auto).
  assert (P0 : 0 <= p) by apply sqrt_pos. assert (Q0 : 0 <= q) by apply sqrt_pos.
  assert (S : Rabs s <= p * q).
  { apply Rsqr_incr_0; [|apply Rabs_pos|nra]. unfold Rsqr. rewrite <- Rabs_mult, Rabs_pos_eq by nra. nra. }
  apply Rle_trans with (2 * (Rabs s * (Rabs x * Rabs y))).
  - rewrite <- !Rabs_mult. pose proof (Rle_abs (s * (x * y))). lra.
  - assert (X : Rabs x * Rabs x = x * x) by (rewrite <- Rabs_mult, Rabs_pos_eq; nra).
    assert (Y : Rabs y * Rabs y = y * y) by (rewrite <- Rabs_mult, Rabs_pos_eq; nra).
    pose proof (Rabs_pos x) as X0. pose proof (Rabs_pos y) as Y0. set (a := Rabs x) in *. set (b := Rabs y) in *.
    assert (Rabs s * (a * b) <= p * q * (a * b)) by (apply Rmult_le_compat_r; nra).
    pose proof (Rle_0_sqr (p * b - q * a)) as G. unfold Rsqr in G. nra.
Qed.
Lemma cauchy u w : rdot u w * rdot u w <= rdot u u * rdot w w.
Proof.
  revert w. induction u as [|x u IH]; intros [|y w]; cbn [rdot]; try lra.
  pose proof (amgm (rdot u u) (rdot w w) (rdot u w) x y (rdot_self_nonneg u) (rdot_self_nonneg w) (IH w)). specialize (IH w). nra.
Qed.
Lemma rdot_add u w : length u = length w -> rdot (radd u w) (radd u w) = rdot u u + 2 * rdot u w + rdot w w.
Proof.
  revert w. induction u as [|x u IH]; intros [|y w] L; try discriminate; cbn [length] in L; [cbn; lra|].
  change (radd (x :: u) (y :: w)) with (x + y :: radd u w). cbn [rdot]. rewrite IH by lia. ring.
Qed.
Lemma rnorm_tri u w : length u = length w -> rnorm (radd u w) <= rnorm u + rnorm w.
Proof.
  intros L. pose proof (rnorm_nonneg u) as A. pose proof (rnorm_nonneg w) as B. apply Rsqr_incr_0; [|apply rnorm_nonneg|lra].
  unfold Rsqr. rewrite rnorm_sq, rdot_add by auto.
  replace ((rnorm u + rnorm w) * (rnorm u + rnorm w)) with (rnorm u * rnorm u + 2 * (rnorm u * rnorm w) + rnorm w * rnorm w) by ring.
  rewrite !rnorm_sq. assert (rdot u w <= rnorm u * rnorm w); [|lra].
  apply Rle_trans with (Rabs (rdot u w)); [apply Rle_abs|]. apply Rsqr_incr_0; [|apply Rabs_pos|nra].
  unfold Rsqr. rewrite <- Rabs_mult, Rabs_pos_eq by nra. pose proof (cauchy u w). rewrite <- !rnorm_sq in H. nra.
Qed.
Lemma rnorm_bound d u : 0 <= d -> (length u <= 4)%nat -> Forall (fun a => Rabs a <= d) u -> rnorm u <= 2 * d.
Proof.
  intros D L F. assert (H : rdot u u <= INR (length u) * (d * d)).
  { clear L. induction F as [|a u Ha F IH]; cbn [rdot length]; [cbn; lra|]. rewrite S_INR. apply Rabs_le_inv in Ha. assert (a * a <= d * d) by nra. nra. }
  apply Rsqr_incr_0; [|apply rnorm_nonneg|lra]. unfold Rsqr. rewrite rnorm_sq.
  assert (INR (length u) <= 4) by (apply (le_INR _ 4) in L; cbn [INR] in L; lra). nra.
Qed.
Lemma rnorm_entry u : Forall (fun a => Rabs a <= rnorm u) u.
Proof.
  apply Forall_forall. intros a Ha. apply Rsqr_incr_0; [|apply Rabs_pos|apply rnorm_nonneg].
  unfold Rsqr. rewrite rnorm_sq, <- Rabs_mult, Rabs_pos_eq by nra.
  induction u as [|b u IH]; [destruct Ha|]. cbn [rdot]. destruct Ha as [->|Ha]; [pose proof (rdot_self_nonneg u); lra|]. specialize (IH Ha). nra.
Qed.

(** ** One row of a matrix product *)
Lemma row_step E X p q e d : rot X -> near_v d (flat9 E) (flat9 X) -> 0 <= d -> length p = 3%nat -> length q = 3%nat -> rdot q q = 1 ->
  rnorm (rsub p q) <= e -> e <= 1 -> rnorm (rsub (rmulv (rtr E) p) (rmulv (rtr X) q)) <= e + 16 * d.
Proof.
  intros RX N D Lp Lq Uq H He. destruct (vec3_inv p Lp) as (p0 & p1 & p2 & ->). destruct (vec3_inv q Lq) as (q0 & q1 & q2 & ->).
  assert (B : Forall (fun a => Rabs a <= 2) [p0; p1; p2]).
  { pose proof (rnorm_entry (rsub [p0; p1; p2] [q0; q1; q2])) as G. pose proof (rnorm_entry [q0; q1; q2]) as K.
    assert (Nq : rnorm [q0; q1; q2] = 1) by (unfold rnorm; rewrite Uq; apply sqrt_1). rewrite Nq in K.
    unfold rsub in G; cbn [map combine fst snd] in G. fold (rnorm [p0 - q0; p1 - q1; p2 - q2]) in G. inversion G as [|? ? G0 G']; subst. inversion G' as [|? ? G1 G'']; subst. inversion G'' as [|? ? G2 _]; subst.
    inversion K as [|? ? K0 K']; subst. inversion K' as [|? ? K1 K'']; subst. inversion K'' as [|? ? K2 _]; subst.
    change (rsub [p0; p1; p2] [q0; q1; q2]) with [p0 - q0; p1 - q1; p2 - q2] in H. set (r := rnorm _) in *. apply Forall_cons; [|apply Forall_cons; [|apply Forall_cons; [|apply Forall_nil]]]; apply Rabs_le; repeat match goal with H : Rabs _ <= _ |- _ => apply Rabs_le_inv in H end; lra. }
  inversion B as [|? ? B0 B']; subst. inversion B' as [|? ? B1 B'']; subst. inversion B'' as [|? ? B2 _]; subst.
  set (f := fun a b c : R => p0 * a + p1 * b + p2 * c).
  assert (E1 : rsub (rmulv (rtr E) [p0; p1; p2]) (rmulv (rtr X) [q0; q1; q2]) =
     radd (rmulv (rtr X) (rsub [p0; p1; p2] [q0; q1; q2]))
       [f (a00 E - a00 X) (a10 E - a10 X) (a20 E - a20 X); f (a01 E - a01 X) (a11 E - a11 X) (a21 E - a21 X); f (a02 E - a02 X) (a12 E - a12 X) (a22 E - a22 X)]).
  { unfold f, rsub, radd, rmulv, rtr. cbn [rdot map combine fst snd a00 a01 a02 a10 a11 a12 a20 a21 a22]. repeat (apply f_equal2; [ring|]). reflexivity. }
  rewrite E1. eapply Rle_trans; [apply rnorm_tri; reflexivity|]. apply Rplus_le_compat.
  - assert (P : rnorm (rmulv (rtr X) (rsub [p0; p1; p2] [q0; q1; q2])) = rnorm (rsub [p0; p1; p2] [q0; q1; q2])).
    { unfold rnorm. rewrite rot_dot; auto. apply rot_tr; auto. }
    rewrite P. auto.
  - unfold flat9 in N. repeat match goal with H : near_v _ _ _ |- _ => unfold near_v in H | H : Forall2 _ (_ :: _) (_ :: _) |- _ => inversion H; subst; clear H end.
    assert (F : forall a b c, Rabs a <= d -> Rabs b <= d -> Rabs c <= d -> Rabs (f a b c) <= 6 * d).
    { intros a b c Ha Hb Hc. unfold f. eapply Rle_trans; [apply Rabs_triang|]. pose proof (Rabs_triang (p0 * a) (p1 * b)) as T. rewrite !Rabs_mult in *.
      assert (forall s t, Rabs s <= 2 -> Rabs t <= d -> Rabs s * Rabs t <= 2 * d) as M by (intros; apply Rmult_le_compat; auto using Rabs_pos).
      pose proof (M p0 a B0 Ha). pose proof (M p1 b B1 Hb). pose proof (M p2 c B2 Hc). lra. }
    eapply Rle_trans; [apply (rnorm_bound (6 * d)); [lra|cbn; lia|apply Forall_cons; [|apply Forall_cons; [|apply Forall_cons; [|apply Forall_nil]]]; apply F; auto]|lra].
Qed.
Definition row0 (A : m3 R) := [a00 A; a01 A; a02 A].
Definition row1 (A : m3 R) := [a10 A; a11 A; a12 A].
Definition row2 (A : m3 R) := [a20 A; a21 A; a22 A].
Lemma row_mul A E : row0 (rmul A E) = rmulv (rtr E) (row0 A) /\ row1 (rmul A E) = rmulv (rtr E) (row1 A) /\ row2 (rmul A E) = rmulv (rtr E) (row2 A).
Proof.
  unfold row0, row1, row2, rmulv, rmul, rtr. cbn [rdot a00 a01 a02 a10 a11 a12 a20 a21 a22].
  split; [|split]; repeat (apply f_equal2; [ring|]); reflexivity.
Qed.
Definition row_near (e : R) (A B : m3 R) : Prop :=
  rnorm (rsub (row0 A) (row0 B)) <= e /\ rnorm (rsub (row1 A) (row1 B)) <= e /\ rnorm (rsub (row2 A) (row2 B)) <= e.
Lemma rows_unit B : rot B -> rdot (row0 B) (row0 B) = 1 /\ rdot (row1 B) (row1 B) = 1 /\ rdot (row2 B) (row2 B) = 1.
Proof.
  intros H. apply rot_tr in H. destruct H as [H _].
  assert (E : forall g : m3 R -> R, g (rmul (rtr (rtr B)) (rtr B)) = g ridm) by (intros; rewrite H; auto).
  pose proof (E a00) as E0. pose proof (E a11) as E1. pose proof (E a22) as E2. unfold row0, row1, row2. rewrite !rdot3. cbn in E0, E1, E2. lra.
Qed.
Lemma mat_step E X A B e d : rot X -> rot B -> near_v d (flat9 E) (flat9 X) -> 0 <= d -> row_near e A B -> e <= 1 ->
  row_near (e + 16 * d) (rmul A E) (rmul B X).
Proof.
  intros RX RB N D (H0 & H1 & H2) He. destruct (rows_unit B RB) as (U0 & U1 & U2).
  destruct (row_mul A E) as (M0 & M1 & M2). destruct (row_mul B X) as (K0 & K1 & K2). unfold row_near. rewrite M0, M1, M2, K0, K1, K2.
  split; [|split].
  - apply (row_step E X (row0 A) (row0 B)); auto.
  - apply (row_step E X (row1 A) (row1 B)); auto.
  - apply (row_step E X (row2 A) (row2 B)); auto.
Qed.

(** ** A product of quaternions *)
Definition qnear (e : R) (p q : quat R) : Prop := rnorm (rsub (qflat p) (qflat q)) <= e.
Lemma quat_step E X p q e d : qn2 X = 1 -> qn2 q = 1 -> near_v d (qflat E) (qflat X) -> 0 <= d -> qnear e p q -> e <= 1 ->
  qnear (e + 16 * d) (qprod p E) (qprod q X).
Proof.
  unfold qnear. intros UX Uq N D H He.
  destruct p as [p0 p1 p2 p3], q as [q0 q1 q2 q3], E as [e0 e1 e2 e3], X as [x0 x1 x2 x3]. unfold qn2 in UX, Uq. unfold qflat, qprod in *. cbn [qw qx qy qz] in *.
  assert (B : Rabs p0 <= 2 /\ Rabs p1 <= 2 /\ Rabs p2 <= 2 /\ Rabs p3 <= 2).
  { match type of H with rnorm ?l <= _ => pose proof (rnorm_entry l) as G end. set (r := rnorm _) in *.
    unfold rsub in G; cbn [map combine fst snd] in G.
    repeat match goal with K : Forall _ (_ :: _) |- _ => inversion K; subst; clear K end.
    repeat match goal with H : Rabs _ <= r |- _ => apply Rabs_le_inv in H end.
    assert (U : -1 <= q0 <= 1 /\ -1 <= q1 <= 1 /\ -1 <= q2 <= 1 /\ -1 <= q3 <= 1).
    { pose proof (Rle_0_sqr q0). pose proof (Rle_0_sqr q1). pose proof (Rle_0_sqr q2). pose proof (Rle_0_sqr q3). unfold Rsqr in *.
      repeat split; nra. }
    repeat split; apply Rabs_le; lra. }
  destruct B as (B0 & B1 & B2 & B3).
  match goal with |- rnorm ?L <= _ => assert (E1 : L = radd
      [(p0 - q0) * x0 - (p1 - q1) * x1 - (p2 - q2) * x2 - (p3 - q3) * x3; (p0 - q0) * x1 + (p1 - q1) * x0 + (p2 - q2) * x3 - (p3 - q3) * x2;
       (p0 - q0) * x2 + (p2 - q2) * x0 + (p3 - q3) * x1 - (p1 - q1) * x3; (p0 - q0) * x3 + (p3 - q3) * x0 + (p1 - q1) * x2 - (p2 - q2) * x1]
      [p0 * (e0 - x0) + (- p1) * (e1 - x1) + (- p2) * (e2 - x2) + (- p3) * (e3 - x3); p0 * (e1 - x1) + p1 * (e0 - x0) + p2 * (e3 - x3) + (- p3) * (e2 - x2);
       p0 * (e2 - x2) + p2 * (e0 - x0) + p3 * (e1 - x1) + (- p1) * (e3 - x3); p0 * (e3 - x3) + p3 * (e0 - x0) + p1 * (e2 - x2) + (- p2) * (e1 - x1)]) end.
  { unfold rsub, radd. cbn [map combine fst snd]. repeat (apply f_equal2; [ring|]). reflexivity. }
  rewrite E1. eapply Rle_trans; [apply rnorm_tri; reflexivity|]. apply Rplus_le_compat.
  - match goal with |- rnorm ?L <= _ => assert (P : rnorm L = rnorm (rsub [p0; p1; p2; p3] [q0; q1; q2; q3])) end.
    { unfold rnorm. f_equal. unfold rsub. cbn [rdot map combine fst snd].
      match goal with |- _ = ?r => transitivity (r * (x0 * x0 + x1 * x1 + x2 * x2 + x3 * x3)); [ring|rewrite UX; ring] end. }
    rewrite P. exact H.
  - repeat match goal with H : near_v _ _ _ |- _ => unfold near_v in H | H : Forall2 _ (_ :: _) (_ :: _) |- _ => inversion H; subst; clear H end.
    assert (F : forall s t u v a b c w, Rabs s <= 2 -> Rabs t <= 2 -> Rabs u <= 2 -> Rabs v <= 2 -> Rabs a <= d -> Rabs b <= d -> Rabs c <= d -> Rabs w <= d ->
       Rabs (s * a + t * b + u * c + v * w) <= 8 * d).
    { intros s t u v a b c w Hs Ht Hu Hv Ha Hb Hc Hw. 
      assert (forall s t, Rabs s <= 2 -> Rabs t <= d -> Rabs (s * t) <= 2 * d) as M by (intros; rewrite Rabs_mult; apply Rmult_le_compat; auto using Rabs_pos).
      pose proof (M s a Hs Ha) as M1. pose proof (M t b Ht Hb) as M2. pose proof (M u c Hu Hc) as M3. pose proof (M v w Hv Hw) as M4.
      apply Rabs_le_inv in M1, M2, M3, M4. apply Rabs_le. lra. }
    eapply Rle_trans; [apply (rnorm_bound (8 * d)); [lra|cbn; lia|]|lra].
    repeat (apply Forall_cons; [apply F; rewrite ?Rabs_Ropp; auto|]). apply Forall_nil.
Qed.

(** ** Leaves *)
(** [x] is within [e] of the exact point [z]. *)
Definition beside (e : R) (s : mfd XR) (x z : list R) : Prop :=
  match s with
  | Leaf h LReal _ _ => x = z /\ length x = h_dim h
  | Leaf _ LS2 _ _ => False
  | Leaf _ (LSO3 MapMatrix) _ _ => exists A B, x = flat9 A /\ z = flat9 B /\ rot B /\ row_near e A B
  | Leaf _ (LSO3 MapQuat) _ _ => exists p q, x = qflat p /\ z = qflat q /\ qn2 q = 1 /\ qnear e p q
  | Prod _ _ _ _ => False
  end.
Lemma row_near_refl A : row_near 0 A A.
Proof.
  assert (G : forall x y z, rnorm (rsub [x; y; z] [x; y; z]) <= 0).
  { intros. unfold rsub, rnorm. cbn [map combine fst snd]. rewrite rdot3. rewrite !Rminus_diag_eq by reflexivity. replace (_ + _) with 0 by ring. rewrite sqrt_0. lra. }
  split; [|split]; apply G.
Qed.
Lemma qnear_refl p : qnear 0 p p.
Proof.
  unfold qnear, qflat, rsub, rnorm. cbn [map combine fst snd rdot]. rewrite !Rminus_diag_eq by reflexivity. replace (_ + _) with 0 by ring. rewrite sqrt_0. lra.
Qed.
Lemma beside_refl s x : is_s2 s = false -> on_leaf s x -> beside 0 s x x.
Proof.
  destruct s as [h [| |[|]] a b|]; cbn [on_leaf beside is_s2]; try discriminate; try tauto.
  - intros _ (A & -> & H). exists A, A. auto using row_near_refl.
  - intros _ (q & -> & H). exists q, q. auto using qnear_refl.
Qed.
Lemma beside_near e s x z : 0 <= e -> beside e s x z -> near_v e x z.
Proof.
  intros E0. destruct s as [h [| |[|]] a b|]; cbn [beside]; try tauto.
  - intros [-> _]. unfold near_v. clear - E0. induction z; constructor; auto. rewrite Rminus_diag_eq by auto. rewrite Rabs_R0. auto.
  - intros (A & B & -> & -> & _ & H0 & H1 & H2). unfold near_v, flat9.
    pose proof (rnorm_entry (rsub (row0 A) (row0 B))) as K0. pose proof (rnorm_entry (rsub (row1 A) (row1 B))) as K1. pose proof (rnorm_entry (rsub (row2 A) (row2 B))) as K2.
    set (r0 := rnorm (rsub (row0 A) (row0 B))) in *. set (r1 := rnorm (rsub (row1 A) (row1 B))) in *. set (r2 := rnorm (rsub (row2 A) (row2 B))) in *.
    unfold rsub, row0, row1, row2 in K0, K1, K2; cbn [map combine fst snd] in K0, K1, K2.
    repeat match goal with K : Forall _ (_ :: _) |- _ => inversion K; subst; clear K end.
    repeat (apply Forall2_cons; [lra|]). apply Forall2_nil.
  - intros (p & q & -> & -> & _ & H). unfold qnear in H. unfold near_v, qflat.
    pose proof (rnorm_entry (rsub (qflat p) (qflat q))) as K. set (r := rnorm (rsub (qflat p) (qflat q))) in *.
    unfold rsub, qflat in K; cbn [map combine fst snd] in K.
    repeat match goal with K : Forall _ (_ :: _) |- _ => inversion K; subst; clear K end.
    repeat (apply Forall2_cons; [lra|]). apply Forall2_nil.
Qed.
Lemma beside_on e s x z : beside e s x z -> on_leaf s z.
Proof.
  destruct s as [h [| |[|]] a b|]; cbn [beside on_leaf]; try tauto.
  - intros [-> L]. auto.
  - intros (A & B & -> & -> & H & _). eauto.
  - intros (A & B & -> & -> & H & _). eauto.
Qed.
Lemma beside_len e h l a b x z : let s := Leaf h l a b in leaf_wf h l a b -> beside e s x z -> length x = representationDim s.
Proof.
  intros s W H. unfold s, representationDim in *. cbn [hdr_of]. destruct l as [| |[|]]; cbn [beside] in H; unfold leaf_wf in W; try tauto.
  - destruct H. lia.
  - destruct H as (A & B & -> & _). rewrite flat9_length. lia.
  - destruct H as (A & B & -> & _). destruct W as (W1 & W2 & W3 & _). rewrite W3. reflexivity.
Qed.

(** The exponential the code computes, against the exact one: equal off the series, 1e-22 on it. *)
Definition off_series (s : mfd XR) (v : list R) : Prop :=
  match s with Leaf _ (LSO3 _) _ _ => v = [0; 0; 0] \/ 1 / 10000 <= rnorm v | _ => True end.
Lemma eps8_norm v : 1 / 10000 <= rnorm v -> eps8 <= rdot v v.
Proof. intros H. rewrite <- rnorm_sq. unfold eps8. nra. Qed.
Lemma emE_exact v : length v = 3%nat -> rnorm v < PI -> v = [0; 0; 0] \/ 1 / 10000 <= rnorm v -> emE v = expSO3 v.
Proof.
  intros L N H. assert (E : em_exponential (fin v) = Ok (m3fin (expSO3 v))).
  { destruct H as [->|H]; [rewrite expSO3_0; apply em_exp_zero|]. apply em_exp_main; auto using eps8_norm. }
  rewrite em_exp_E in E by auto. apply Rltb_true in N. rewrite N in E.
  apply flat9_inj. apply (f_equal (fun r => match r with Ok M => m3_to_list M | _ => [] end)) in E. rewrite !m3_to_list_fin in E. apply fin_inj in E. exact E.
Qed.
Lemma eqE_exact v : length v = 3%nat -> rnorm v < PI -> v = [0; 0; 0] \/ 1 / 10000 <= rnorm v -> eqE v = expQ v.
Proof.
  intros L N H. assert (E : eq_exponential junk_quat (fin v) = Ok (qfin (expQ v))).
  { destruct H as [->|H]; [rewrite expQ_0; apply eq_exp_zero|]. apply eq_exp_main; auto using eps8_norm. }
  rewrite eq_exp_E in E by auto. apply Rltb_true in N. rewrite N in E.
  apply qflat_inj. apply (f_equal (fun r => match r with Ok q => [qw q; qx q; qy q; qz q] | _ => [] end)) in E. exact (fin_inj (qflat (eqE v)) (qflat (expQ v)) E).
Qed.
Lemma near_mono d d' x y : d <= d' -> near_v d x y -> near_v d' x y.
Proof. intros H F. unfold near_v in *. induction F; constructor; auto. lra. Qed.
Lemma near_refl d x : 0 <= d -> near_v d x x.
Proof. intros H. unfold near_v. induction x; constructor; auto. rewrite Rminus_diag_eq by auto. rewrite Rabs_R0. auto. Qed.

(** One increment next to one exact step. *)
Lemma beside_step h l a b e d x z v : let s := Leaf h l a b in leaf_wf h l a b -> beside e s x z -> e <= 1 -> length v = tangentDim s ->
  (match l with LSO3 _ => rnorm v < PI | _ => True end) -> (d = 1 / 10 ^ 22 \/ (d = 0 /\ off_series s v)) ->
  exists y w, (forall o, length o = representationDim s -> retractation s o (fin x) (fin v) = Ok (fin y)) /\
    shift_leaf s z v w /\ beside (e + 16 * d) s y w.
Proof.
  intros s W Hx He Lv Pv Hd. pose proof (beside_len _ _ _ _ _ _ _ W Hx) as Lx. unfold s, representationDim, tangentDim in *. cbn [hdr_of] in *.
  assert (D0 : 0 <= d) by (destruct Hd as [->|[-> _]]; lra).
  destruct l as [| |[|]]; cbn [beside shift_leaf off_series] in *; try tauto.
  - destruct W as [W1 W2]. destruct Hx as [-> L]. exists (radd z v), (radd z v). split; [|split; [auto|split; [auto|rewrite radd_length; lia]]].
    intros o Lo. apply real_retr; [split; auto| | |]; lia.
  - pose proof W as (W1 & W2 & W3 & _). destruct Hx as (A & B & -> & -> & RB & H). assert (L3 : length v = 3%nat) by lia.
    exists (flat9 (rmul A (emE v))), (flat9 (rmul B (expSO3 v))). split; [|split; [eauto|]].
    + intros o Lo. pose proof (em_exp_E v L3) as Ex. pose proof Pv as Pb. apply Rltb_true in Pb. rewrite Pb in Ex. destruct (vec3_inv v L3) as (p & q & r & ->). apply em_retr; auto. lia.
    + exists (rmul A (emE v)), (rmul B (expSO3 v)). split; [auto|]. split; [auto|]. split; [apply rot_mul; auto using expSO3_rot|].
      apply mat_step; auto using expSO3_rot. destruct Hd as [->|[-> O]]; [apply emE_near; auto|]. rewrite emE_exact by auto. apply near_refl. lra.
  - pose proof W as (W1 & W2 & W3 & _). destruct Hx as (A & B & -> & -> & RB & H). assert (L3 : length v = 3%nat) by lia.
    exists (qflat (qprod A (eqE v))), (qflat (qprod B (expQ v))). split; [|split; [eauto|]].
    + intros o Lo. pose proof (eq_exp_E junk_quat v L3) as Ex. pose proof Pv as Pb. apply Rltb_true in Pb. rewrite Pb in Ex. apply eq_retr; auto. lia.
    + exists (qprod A (eqE v)), (qprod B (expQ v)). split; [auto|]. split; [auto|]. split; [rewrite qn2_mul, RB, expQ_unit; ring|].
      apply quat_step; auto using expQ_unit. destruct Hd as [->|[-> O]].
      * pose proof (eqE_near v L3 Pv) as Q. eapply near_mono; [|exact Q]. lra.
      * rewrite eqE_exact by auto. apply near_refl. lra.
Qed.
