(** Derivatives of real functions and of vector-valued functions given coordinate by coordinate. *)
From Coq Require Import Reals List Lra Lia.
From Verif Require Import SpecR.
Import ListNotations.
Local Open Scope R_scope.

(** [y] is differentiable at [t0] with derivative [D], coordinate by coordinate. *)
Definition deriv_v (y : R -> list R) (t0 : R) (D : list R) : Prop :=
  exists fs : list (R -> R), (forall t, y t = map (fun f => f t) fs) /\ Forall2 (fun f d => derivable_pt_lim f t0 d) fs D.

Lemma d_const c x : derivable_pt_lim (fun _ => c) x 0.
Proof. apply derivable_pt_lim_const. Qed.
Lemma d_id x : derivable_pt_lim (fun t => t) x 1.
Proof. apply derivable_pt_lim_id. Qed.
Lemma d_plus f g x a b : derivable_pt_lim f x a -> derivable_pt_lim g x b -> derivable_pt_lim (fun t => f t + g t) x (a + b).
Proof. intros. apply (derivable_pt_lim_plus f g); auto. Qed.
Lemma d_minus f g x a b : derivable_pt_lim f x a -> derivable_pt_lim g x b -> derivable_pt_lim (fun t => f t - g t) x (a - b).
Proof. intros. apply (derivable_pt_lim_minus f g); auto. Qed.
Lemma d_mult f g x a b : derivable_pt_lim f x a -> derivable_pt_lim g x b -> derivable_pt_lim (fun t => f t * g t) x (a * g x + f x * b).
Proof. intros. apply (derivable_pt_lim_mult f g); auto. Qed.
Lemma d_opp f x a : derivable_pt_lim f x a -> derivable_pt_lim (fun t => - f t) x (- a).
Proof. intros. apply (derivable_pt_lim_opp f); auto. Qed.
Lemma d_comp f g x a b : derivable_pt_lim f x a -> derivable_pt_lim g (f x) b -> derivable_pt_lim (fun t => g (f t)) x (b * a).
Proof. intros. apply (derivable_pt_lim_comp f g); auto. Qed.
Lemma d_inv f x a : derivable_pt_lim f x a -> f x <> 0 -> derivable_pt_lim (fun t => / f t) x (- a / (f x * f x)).
Proof.
  intros H N. pose proof (derivable_pt_lim_div (fun _ => 1) f x 0 a (d_const 1 x) H N) as G.
  unfold div_fct, Rsqr in G. replace (- a / (f x * f x)) with ((0 * f x - a * 1) / (f x * f x)) by (unfold Rdiv; ring).
  intros e He. destruct (G e He) as [d Hd]. exists d. intros h H0 H1. specialize (Hd h H0 H1).
  replace ((/ f (x + h) - / f x) / h) with ((1 / f (x + h) - 1 / f x) / h) by (unfold Rdiv; ring). exact Hd.
Qed.
Lemma d_div f g x a b : derivable_pt_lim f x a -> derivable_pt_lim g x b -> g x <> 0 ->
  derivable_pt_lim (fun t => f t / g t) x ((a * g x - b * f x) / (g x * g x)).
Proof. intros. apply (derivable_pt_lim_div f g); auto. Qed.
Lemma d_sqrt f x a : derivable_pt_lim f x a -> 0 < f x -> derivable_pt_lim (fun t => sqrt (f t)) x (/ (2 * sqrt (f x)) * a).
Proof. intros H P. apply (d_comp f sqrt); auto. apply derivable_pt_lim_sqrt; auto. Qed.
Lemma d_eq f x a b : derivable_pt_lim f x a -> a = b -> derivable_pt_lim f x b.
Proof. intros H <-. exact H. Qed.
(** A function equal to [g] near [x] has the same derivative. *)
Lemma d_local f g x a d : 0 < d -> (forall t, Rabs (t - x) < d -> f t = g t) -> derivable_pt_lim g x a -> derivable_pt_lim f x a.
Proof.
  intros Hd E H e He. destruct (H e He) as [d' H']. assert (P : 0 < Rmin d d') by (apply Rmin_glb_lt; auto; apply cond_pos).
  exists (mkposreal _ P). intros h H0 H1. cbn [pos] in H1.
  assert (Rabs h < d) by (eapply Rlt_le_trans; [exact H1|apply Rmin_l]).
  assert (Rabs h < d') by (eapply Rlt_le_trans; [exact H1|apply Rmin_r]).
  rewrite (E (x + h)) by (replace (x + h - x) with h by ring; auto).
  rewrite (E x) by (replace (x - x) with 0 by ring; rewrite Rabs_R0; auto). apply H'; auto.
Qed.

(** Structural differentiation of polynomial expressions. *)
Ltac der :=
  match goal with
  | |- derivable_pt_lim (fun _ => ?c) _ _ => apply d_const
  | |- derivable_pt_lim (fun t => t) _ _ => apply d_id
  | |- derivable_pt_lim (fun t => @?f t + @?g t) _ _ => eapply (d_plus f g); der
  | |- derivable_pt_lim (fun t => @?f t - @?g t) _ _ => eapply (d_minus f g); der
  | |- derivable_pt_lim (fun t => @?f t * @?g t) _ _ => eapply (d_mult f g); der
  | |- derivable_pt_lim (fun t => - @?f t) _ _ => eapply (d_opp f); der
  | |- derivable_pt_lim (fun t => @?f t / ?c) _ _ => unfold Rdiv; eapply (d_mult f (fun _ => / c)); der
  | _ => idtac
  end.

Lemma deriv_v_concat (ys : list ((R -> list R) * list R)) t0 :
  Forall (fun p => deriv_v (fst p) t0 (snd p)) ys ->
  deriv_v (fun t => concat (map (fun p => fst p t) ys)) t0 (concat (map snd ys)).
Proof.
  induction 1 as [|[y D] ys (fs & H1 & H2) F (gs & G1 & G2)]; [exists []; split; [reflexivity|constructor]|].
  exists (fs ++ gs). cbn [fst snd map concat] in *. split.
  - intros t. rewrite H1, G1, map_app. reflexivity.
  - apply Forall2_app; auto.
Qed.
Lemma deriv_v_len y t0 D : deriv_v y t0 D -> forall t, length (y t) = length D.
Proof. intros (fs & E & F) t. rewrite E, map_length. clear E. induction F; simpl; auto. Qed.
Lemma deriv_v_nth y t0 D : deriv_v y t0 D -> forall i, derivable_pt_lim (fun t => nth i (y t) 0) t0 (nth i D 0).
Proof.
  intros (fs & E & F) i. assert (G : derivable_pt_lim (fun t => nth i (map (fun f => f t) fs) 0) t0 (nth i D 0)).
  { clear E. revert i; induction F as [|f d fs D H F IH]; intros i; [destruct i; simpl; apply d_const|].
    destruct i; cbn [map nth]; auto. }
  intros e He. destruct (G e He) as [d Hd]. exists d. intros h H0 H1. rewrite !E. apply Hd; auto.
Qed.
