(** C53: the operations commute with the symmetries of the manifold. *)
From Coq Require Import Reals List Lra Lia ZArith Bool Arith Psatz.
From Verif Require Import Base Scalar Vec Model_Real Model_S2 Model_SO3 Model_Manifold Spec Layout Comp Indep Flat
  XR SpecR RotR NumVec NumMat Angle NumQuat NumTree NumLeaf NumS2 Force Points TanLeaf NumSym RoundTrip MatNum ExR Properties_Matrix.
Import ListNotations.
Local Open Scope R_scope.

(** One symmetry per elementary manifold of the tree: a translation of each R^n, a rotation of each sphere, a left
    multiplication of each SO(3).  [act] applies it slice by slice to a vector of the kind [D]. *)
Definition act (D : edim) (f : mfd XR -> sym -> list R -> list R) (m : mfd XR) (gs : list sym) (x x' : list R) : Prop :=
  exists xs xs', x = concat xs /\ x' = concat xs' /\
    Forall4 (fun s g a a' => sym_ok s g /\ length a = getDim D s /\ a' = f s g a) (leaves m) gs xs xs'.
Definition moved := act DR move.
Definition pushed := act DT push.

Lemma fin_concat_inv (ys : list (list XR)) : forall y, fin y = concat ys -> exists ys', ys = map fin ys' /\ y = concat ys'.
Proof.
  induction ys as [|a ys IH]; intros y E.
  - exists []. destruct y; [auto|discriminate].
  - cbn [concat] in E.
    assert (S : fin (firstn (length a) y) = a /\ fin (skipn (length a) y) = concat ys).
    { unfold fin in *. rewrite <- firstn_map, <- skipn_map, E. rewrite firstn_app, Nat.sub_diag, firstn_all, skipn_app, Nat.sub_diag, skipn_all.
      cbn. rewrite app_nil_r. auto. }
    destruct S as [S1 S2]. destruct (IH _ S2) as (ys' & -> & E'). exists (firstn (length a) y :: ys'). cbn [map concat]. rewrite S1.
    split; auto. rewrite <- E', firstn_skipn. reflexivity.
Qed.

Section Lift2.
Variables (D0 D1 D2 : edim) (f0 f1 f2 : mfd XR -> sym -> list R -> list R).
Variable op : mfd XR -> list XR -> list XR -> list XR -> res (list XR).
Hypothesis Hprod : forall h sT sR subs outs xs vs y, wf (Prod h sT sR subs) ->
    pieces D0 subs outs -> pieces D1 subs xs -> pieces D2 subs vs ->
    (op (Prod h sT sR subs) (concat outs) (concat xs) (concat vs) = Ok y
     <-> exists ys, y = concat ys /\ Forall5 (fun s o x v r => op s o x v = Ok r) subs outs xs vs ys).
Hypothesis Hlen : forall m o x v r, op m o x v = Ok r -> length r = length o.
Hypothesis Hl1 : forall h l a b g x, let s := Leaf h l a b in leaf_wf h l a b -> sym_ok s g -> length x = getDim D1 s -> length (f1 s g x) = getDim D1 s.
Hypothesis Hl2 : forall h l a b g x, let s := Leaf h l a b in leaf_wf h l a b -> sym_ok s g -> length x = getDim D2 s -> length (f2 s g x) = getDim D2 s.
Hypothesis Hleaf : forall h l a b g o o' x v y, let s := Leaf h l a b in leaf_wf h l a b -> sym_ok s g ->
  length o = getDim D0 s -> length o' = getDim D0 s -> length x = getDim D1 s -> length v = getDim D2 s ->
  op s o (fin x) (fin v) = Ok (fin y) -> op s o' (fin (f1 s g x)) (fin (f2 s g v)) = Ok (fin (f0 s g y)).
Lemma lift_sym2 m gs x x' v v' : wf m -> act D1 f1 m gs x x' -> act D2 f2 m gs v v' ->
  forall o o' y, length o = getDim D0 m -> length o' = getDim D0 m -> op m o (fin x) (fin v) = Ok (fin y) ->
  exists y', act D0 f0 m gs y y' /\ op m o' (fin x') (fin v') = Ok (fin y').
Proof.
  intros W (xs & xs' & -> & -> & Fx) (vs & vs' & -> & -> & Fv) o o' y Lo Lo' E.
  destruct (cut_leaves D0 m o W Lo) as (outs & -> & Ho). destruct (cut_leaves D0 m o' W Lo') as (outs' & -> & Ho').
  pose proof (fun s => wf_leaf_inv m s W) as G.
  rewrite !fin_concat in E. apply (flat_op D0 D1 D2 op Hprod m W) in E; auto.
  2: { apply fin_pieces. clear - Fx. induction Fx; constructor; tauto. }
  2: { apply fin_pieces. clear - Fv. induction Fv; constructor; tauto. }
  destruct E as (zs & E & F). destruct (fin_concat_inv _ _ E) as (ys & -> & ->). clear E.
  assert (Q : exists ys', Forall4 (fun s g a a' => sym_ok s g /\ length a = getDim D0 s /\ a' = f0 s g a) (leaves m) gs ys ys' /\
    Forall5 (fun s o x v r => op s o x v = Ok r) (leaves m) outs' (map fin xs') (map fin vs') (map fin ys') /\
    Forall2 (fun s x => length x = getDim D1 s) (leaves m) xs' /\ Forall2 (fun s x => length x = getDim D2 s) (leaves m) vs').
  { clear Lo Lo' W. revert vs vs' ys outs outs' Fv Ho Ho' F. induction Fx as [|s g x x' ls gs xs xs' Hx Fx IH]; intros.
    - inversion Fv; subst. inversion F; subst. destruct ys; [|discriminate]. inversion Ho'; subst. exists []. repeat split; constructor.
    - inversion Fv as [|? ? v v' ? ? ? ? Hv Fv']; subst. destruct ys as [|y ys]; [inversion F|]. cbn [map] in F.
      inversion Ho as [|? o ? ? Lo Ho2]; subst. inversion Ho' as [|? o' ? ? Lo' Ho2']; subst. inversion F as [|? ? ? ? ? ? ? ? ? ? H5 F']; subst.
      destruct (IH ltac:(intros; apply G; right; auto) _ _ _ _ _ Fv' Ho2 Ho2' F') as (ys' & A1 & A2 & A3 & A4).
      destruct Hx as (S & Lx & ->). destruct Hv as (_ & Lv & ->). destruct (G s (or_introl eq_refl)) as (h & l & a & b & -> & Wl).
      exists (f0 (Leaf h l a b) g y :: ys'). split; [|split; [|split]]; constructor; auto.
      + split; auto. split; auto. apply Hlen in H5. rewrite fin_length in H5. congruence.
      + exact (Hleaf h l a b g _ _ x v y Wl S Lo Lo' Lx Lv H5). }
  destruct Q as (ys' & A1 & A2 & A3 & A4). exists (concat ys'). split; [exists ys, ys'; auto|].
  rewrite !fin_concat. apply (flat_op D0 D1 D2 op Hprod m W); auto using fin_pieces. exists (map fin ys'). auto.
Qed.
End Lift2.

Section Lift1.
Variables (D0 D1 : edim) (f0 f1 : mfd XR -> sym -> list R -> list R).
Variable op : mfd XR -> list XR -> list XR -> res (list XR).
Hypothesis Hprod : forall h sT sR subs outs xs y, wf (Prod h sT sR subs) ->
    pieces D0 subs outs -> pieces D1 subs xs ->
    (op (Prod h sT sR subs) (concat outs) (concat xs) = Ok y
     <-> exists ys, y = concat ys /\ Forall4 (fun s o x r => op s o x = Ok r) subs outs xs ys).
Hypothesis Hlen : forall m o x r, op m o x = Ok r -> length r = length o.
Hypothesis Hl1 : forall h l a b g x, let s := Leaf h l a b in leaf_wf h l a b -> sym_ok s g -> length x = getDim D1 s -> length (f1 s g x) = getDim D1 s.
Hypothesis Hleaf : forall h l a b g o o' x y, let s := Leaf h l a b in leaf_wf h l a b -> sym_ok s g ->
  length o = getDim D0 s -> length o' = getDim D0 s -> length x = getDim D1 s ->
  op s o (fin x) = Ok (fin y) -> op s o' (fin (f1 s g x)) = Ok (fin (f0 s g y)).
Lemma lift_sym1 m gs x x' : wf m -> act D1 f1 m gs x x' ->
  forall o o' y, length o = getDim D0 m -> length o' = getDim D0 m -> op m o (fin x) = Ok (fin y) ->
  exists y', act D0 f0 m gs y y' /\ op m o' (fin x') = Ok (fin y').
Proof.
  intros W (xs & xs' & -> & -> & Fx) o o' y Lo Lo' E.
  destruct (cut_leaves D0 m o W Lo) as (outs & -> & Ho). destruct (cut_leaves D0 m o' W Lo') as (outs' & -> & Ho').
  pose proof (fun s => wf_leaf_inv m s W) as G.
  rewrite !fin_concat in E. apply (flat_op1 D0 D1 op Hprod m W) in E; auto.
  2: { apply fin_pieces. clear - Fx. induction Fx; constructor; tauto. }
  destruct E as (zs & E & F). destruct (fin_concat_inv _ _ E) as (ys & -> & ->). clear E.
  assert (Q : exists ys', Forall4 (fun s g a a' => sym_ok s g /\ length a = getDim D0 s /\ a' = f0 s g a) (leaves m) gs ys ys' /\
    Forall4 (fun s o x r => op s o x = Ok r) (leaves m) outs' (map fin xs') (map fin ys') /\
    Forall2 (fun s x => length x = getDim D1 s) (leaves m) xs').
  { clear Lo Lo' W. revert ys outs outs' Ho Ho' F. induction Fx as [|s g x x' ls gs xs xs' Hx Fx IH]; intros.
    - inversion F; subst. destruct ys; [|discriminate]. inversion Ho'; subst. exists []. repeat split; constructor.
    - destruct ys as [|y ys]; [inversion F|]. cbn [map] in F.
      inversion Ho as [|? o ? ? Lo Ho2]; subst. inversion Ho' as [|? o' ? ? Lo' Ho2']; subst. inversion F as [|? ? ? ? ? ? ? ? H5 F']; subst.
      destruct (IH ltac:(intros; apply G; right; auto) _ _ _ Ho2 Ho2' F') as (ys' & A1 & A2 & A3).
      destruct Hx as (S & Lx & ->). destruct (G s (or_introl eq_refl)) as (h & l & a & b & -> & Wl).
      exists (f0 (Leaf h l a b) g y :: ys'). split; [|split]; constructor; auto.
      + split; auto. split; auto. apply Hlen in H5. rewrite fin_length in H5. congruence.
      + exact (Hleaf h l a b g _ _ x y Wl S Lo Lo' Lx H5). }
  destruct Q as (ys' & A1 & A2 & A3). exists (concat ys'). split; [exists ys, ys'; auto|].
  rewrite !fin_concat. apply (flat_op1 D0 D1 op Hprod m W); auto using fin_pieces. exists (map fin ys'). auto.
Qed.
End Lift1.

Lemma act_len D f m gs x x' : wf m -> act D f m gs x x' -> length x = getDim D m.
Proof.
  intros W (xs & xs' & -> & _ & F). rewrite (leaves_dim D m W). revert F. generalize (leaves m). intros ls F. clear W.
  induction F as [|s g y y' ls gs xs xs' H F IH]; [reflexivity|]. cbn. rewrite app_length. unfold sum_list in *. cbn in *. lia.
Qed.

(** retractation, pseudoLog, forceOnTxM and forceOnM commute with every symmetry, for any vectors of the right size:
    whenever the result is finite, the result at the moved arguments is the moved result. *)
Theorem C53_commutes : forall m : mfd XR, built m -> forall gs x x', moved m gs x x' ->
  (forall v v' o o' y, pushed m gs v v' -> length o = representationDim m -> length o' = representationDim m ->
     retractation m o (fin x) (fin v) = Ok (fin y) ->
     exists y', moved m gs y y' /\ retractation m o' (fin x') (fin v') = Ok (fin y')) /\
  (forall y y' o o' v, moved m gs y y' -> length o = tangentDim m -> length o' = tangentDim m ->
     pseudoLog m o (fin x) (fin y) = Ok (fin v) ->
     exists v', pushed m gs v v' /\ pseudoLog m o' (fin x') (fin y') = Ok (fin v')) /\
  (forall w w' o o' v, pushed m gs w w' -> length o = tangentDim m -> length o' = tangentDim m ->
     forceOnTxM m o (fin w) (fin x) = Ok (fin v) ->
     exists v', pushed m gs v v' /\ forceOnTxM m o' (fin w') (fin x') = Ok (fin v')) /\
  (forall o o' y, length o = representationDim m -> length o' = representationDim m ->
     forceOnM m o (fin x) = Ok (fin y) ->
     exists y', moved m gs y y' /\ forceOnM m o' (fin x') = Ok (fin y')).
Proof.
  intros m B gs x x' M. pose proof (built_wf _ B) as W. split; [|split; [|split]].
  - intros v v' o o' y P Lo Lo' E. eapply (lift_sym2 DR DR DT move move push retractation retractation_prod) with (x := x) (v := v) (o := o); eauto.
    + intros; eapply retractation_length; eassumption.
    + exact move_length.
    + exact push_length.
    + exact retr_sym.
  - intros y y' o o' v P Lo Lo' E. eapply (lift_sym2 DT DR DR push move move pseudoLog pseudoLog_prod) with (x := x) (v := y) (o := o); eauto.
    + intros; eapply pseudoLog_length; eassumption.
    + exact move_length.
    + exact move_length.
    + exact log_sym.
  - intros w w' o o' v P Lo Lo' E. eapply (lift_sym2 DT DT DR push push move forceOnTxM forceOnTxM_prod) with (x := w) (v := x) (o := o); eauto.
    + intros; eapply forceOnTxM_length; eassumption.
    + exact push_length.
    + exact move_length.
    + exact forceT_sym.
  - intros o o' y Lo Lo' E. eapply (lift_sym1 DR DR move move forceOnM forceOnM_prod) with (x := x) (o := o); eauto.
    + intros; eapply forceOnM_length; eassumption.
    + exact move_length.
    + exact forceM_sym.
Qed.

(** Undoing the symmetries. *)
Theorem C53_inverse : forall m : mfd XR, built m -> forall gs,
  (forall x x', moved m gs x x' -> moved m (map sym_inv gs) x' x) /\
  (forall v v', pushed m gs v v' -> pushed m (map sym_inv gs) v' v) /\
  (forall x, length gs = length (leaves m) -> Forall2 sym_ok (leaves m) gs -> length x = representationDim m ->
     exists x', moved m gs x x') /\
  (forall v, length gs = length (leaves m) -> Forall2 sym_ok (leaves m) gs -> length v = tangentDim m ->
     exists v', pushed m gs v v').
Proof.
  intros m B gs. pose proof (built_wf _ B) as W. pose proof (fun s => wf_leaf_inv m s W) as G.
  assert (T : forall D f, (forall z, length z = getDim D m -> Forall2 sym_ok (leaves m) gs -> exists z', act D f m gs z z')).
  { intros D f z Lz O. destruct (cut_leaves D m (fin z) W) as (fs & E & P0); [rewrite fin_length; auto|].
    destruct (fin_concat_inv _ _ E) as (zs & -> & ->). clear E Lz.
    assert (P : Forall2 (fun s (a : list R) => length a = getDim D s) (leaves m) zs).
    { clear - P0. revert P0. generalize (leaves m). induction zs as [|z zs IH]; intros ls P0; inversion P0; subst; constructor.
      - rewrite fin_length in *. auto. - apply IH. auto. }
    assert (Q : exists zs', Forall4 (fun s g a a' => sym_ok s g /\ length a = getDim D s /\ a' = f s g a) (leaves m) gs zs zs').
    { clear - O P. revert zs P. induction O as [|s g ls gs H O IH]; intros zs P; inversion P; subst; [exists []; constructor|].
      edestruct IH as [zs' IH']; [eassumption|]. eexists (_ :: zs'). constructor; eauto. }
    destruct Q as (zs' & Q). exists (concat zs'), zs, zs'. auto. }
  split; [|split; [|split]].
  - intros x x' (xs & xs' & -> & -> & F). exists xs', xs. split; auto. split; auto. clear W T.
    induction F as [|s g a a' ls gs xs xs' (S & L & ->) F IH]; cbn [map]; constructor; [|apply IH; intros; apply G; right; auto].
    destruct (G s (or_introl eq_refl)) as (h & l & p & q & -> & Wl). split; [|split].
    + apply inv_ok; auto.
    + apply move_length; auto.
    + rewrite move_inv; auto.
  - intros x x' (xs & xs' & -> & -> & F). exists xs', xs. split; auto. split; auto. clear W T.
    induction F as [|s g a a' ls gs xs xs' (S & L & ->) F IH]; cbn [map]; constructor; [|apply IH; intros; apply G; right; auto].
    destruct (G s (or_introl eq_refl)) as (h & l & p & q & -> & Wl). split; [|split].
    + apply inv_ok; auto.
    + apply push_length; auto.
    + rewrite push_inv; auto.
  - intros x _ O L. apply T; auto.
  - intros v _ O L. apply T; auto.
Qed.

(** The membership tests give the same answer at the moved arguments. *)
Theorem C53_tests : forall m : mfd XR, built m -> forall gs x x', moved m gs x x' ->
  (isInM m (fin x) default_prec = Ok true <-> isInM m (fin x') default_prec = Ok true) /\
  (forall v v' p, pushed m gs v v' ->
     (isInTxM m (fin x) (fin v) (Fin p) = Ok true <-> isInTxM m (fin x') (fin v') (Fin p) = Ok true)) /\
  (onM m x <-> onM m x') /\ (forall v v', pushed m gs v v' -> (tanM m x v <-> tanM m x' v')).
Proof.
  intros m B. pose proof (built_wf _ B) as W. pose proof (fun s => wf_leaf_inv m s W) as G.
  assert (Q : forall gs x x', moved m gs x x' ->
    (isInM m (fin x) default_prec = Ok true -> isInM m (fin x') default_prec = Ok true) /\
    (forall v v' p, pushed m gs v v' -> (isInTxM m (fin x) (fin v) (Fin p) = Ok true -> isInTxM m (fin x') (fin v') (Fin p) = Ok true)) /\
    (onM m x -> onM m x') /\ (forall v v', pushed m gs v v' -> tanM m x v -> tanM m x' v')).
  { intros gs x x' (xs & xs' & -> & -> & F).
    assert (Px : Forall2 (fun s z => length z = getDim DR s) (leaves m) xs) by (clear - F; induction F; constructor; tauto).
    assert (Px' : Forall2 (fun s z => length z = getDim DR s) (leaves m) xs').
    { clear - F G. induction F as [|s g a a' ls gs xs xs' (S & L & ->) F IH]; constructor; [|apply IH; intros; apply G; right; auto].
      destruct (G s (or_introl eq_refl)) as (h & l & p & q & -> & Wl). apply move_length; auto. }
    assert (ON : forall s g z, In s (leaves m) -> sym_ok s g -> on_leaf s z -> on_leaf s (move s g z)).
    { intros s g z Hi S O. destruct (G s Hi) as (h & l & p & q & -> & Wl). apply on_sym; auto. }
    assert (INJ : forall zs, Forall2 on_leaf (leaves m) zs -> concat xs = concat zs -> xs = zs).
    { intros zs O E. apply concat_inj_len; auto. clear - Px O G. revert xs Px. induction O as [|s z ls zs H O IH]; intros xs Px; inversion Px; subst; constructor.
      - destruct (G s (or_introl eq_refl)) as (h & l & p & q & -> & Wl). rewrite (on_leaf_len _ _ _ _ _ Wl H). assumption.
      - apply IH; auto. intros; apply G; right; auto. }
    split; [|split; [|split]].
    - rewrite !fin_concat. rewrite !isInM_leaves by (auto using fin_pieces; destruct m; auto). clear - F G.
      induction F as [|s g a a' ls gs xs xs' (S & L & ->) F IH]; intros H; inversion H; subst; cbn [map]; constructor; [|apply IH; auto; intros; apply G; right; auto].
      destruct (G s (or_introl eq_refl)) as (h & l & p & q & -> & Wl). change default_prec with (Fin (1 / 100000000)) in *. rewrite inM_sym; auto.
    - intros v v' p (vs & vs' & -> & -> & Fv).
      assert (Pv : Forall2 (fun s z => length z = getDim DT s) (leaves m) vs) by (clear - Fv; induction Fv; constructor; tauto).
      assert (Pv' : Forall2 (fun s z => length z = getDim DT s) (leaves m) vs').
      { clear - Fv G. induction Fv as [|s g a a' ls gs xs xs' (S & L & ->) F IH]; constructor; [|apply IH; intros; apply G; right; auto].
        destruct (G s (or_introl eq_refl)) as (h & l & p & q & -> & Wl). apply push_length; auto. }
      rewrite !fin_concat. rewrite !isInTxM_leaves by auto using fin_pieces. clear - F Fv G. revert vs vs' Fv.
      induction F as [|s g a a' ls gs xs xs' (S & L & ->) F IH]; intros vs vs' Fv H; inversion Fv as [|? ? v v' ? ? ? ? (_ & Lv & ->) Fv']; subst; cbn [map] in *.
      + constructor.
      + inversion H; subst. constructor; [|eapply IH; eauto; intros; apply G; right; auto].
        destruct (G s (or_introl eq_refl)) as (h & l & p' & q & -> & Wl). rewrite inT_sym; auto.
    - intros (zs & E & O). pose proof (INJ zs O E) as EZ. subst zs. exists xs'. split; auto. clear - F O ON.
      induction F as [|s g a a' ls gs xs xs' (S & L & ->) F IH]; inversion O; subst; constructor; [apply ON; simpl; auto|apply IH; auto].
      intros; apply ON; simpl; auto.
    - intros v v' (vs & vs' & -> & -> & Fv) (zs & ws & E & Ev & O & T). pose proof (INJ zs O E) as EZ. subst zs. clear E.
      assert (Pv : Forall2 (fun s z => length z = getDim DT s) (leaves m) vs) by (clear - Fv; induction Fv; constructor; tauto).
      assert (E : vs = ws).
      { apply concat_inj_len; auto. clear - Pv T G. revert vs Pv. induction T as [|s z w ls zs ws H O IH]; intros vs Pv; inversion Pv; subst; constructor.
        - destruct (G s (or_introl eq_refl)) as (h & l & p & q & -> & Wl). destruct H as [H _]. cbn [getDim] in *. congruence.
        - apply IH; auto. intros; apply G; right; auto. }
      rewrite <- E in T. clear E Ev ws. exists xs', vs'. split; auto. split; auto. clear - F Fv O T ON G. revert vs vs' Fv T.
      induction F as [|s g a a' ls gs xs xs' (S & L & ->) F IH]; intros vs vs' Fv T; inversion Fv as [|? ? v v' ? ? ? ? (_ & Lv & ->) Fv']; subst.
      + split; constructor.
      + inversion O; inversion T; subst. destruct (IH ltac:(intros; apply G; right; auto) ltac:(intros; apply ON; simpl; auto) ltac:(auto) _ _ Fv' ltac:(auto)) as [I1 I2].
        destruct (G s (or_introl eq_refl)) as (h & l & p' & q & -> & Wl). split; constructor; auto; [apply ON; simpl; auto|]. apply tan_sym; auto. }
  intros gs x x' M. destruct (C53_inverse m B gs) as (I1 & I2 & _).
  destruct (Q gs x x' M) as (Q1 & Q2 & Q3 & Q4). destruct (Q _ x' x (I1 _ _ M)) as (R1 & R2 & R3 & R4).
  split; [split; auto|]. split; [intros; split; [eapply Q2|eapply R2]; eauto|]. split; [split; auto|]. intros v v' P. split; eauto.
Qed.

(** Hence a finite result at the moved arguments is always the moved result. *)
Theorem C53_iff : forall m : mfd XR, built m -> forall gs x x', moved m gs x x' ->
  (forall v v' y y' o o', pushed m gs v v' -> moved m gs y y' -> length o = representationDim m -> length o' = representationDim m ->
     (retractation m o (fin x) (fin v) = Ok (fin y) <-> retractation m o' (fin x') (fin v') = Ok (fin y'))) /\
  (forall y y' v v' o o', moved m gs y y' -> pushed m gs v v' -> length o = tangentDim m -> length o' = tangentDim m ->
     (pseudoLog m o (fin x) (fin y) = Ok (fin v) <-> pseudoLog m o' (fin x') (fin y') = Ok (fin v'))).
Proof.
  intros m B.
  assert (FUN : forall D f gs z z1 z2, act D f m gs z z1 -> act D f m gs z z2 -> z1 = z2).
  { intros D f gs z z1 z2 (zs & zs1 & -> & -> & F) (ys & zs2 & E & -> & F2). assert (zs = ys).
    { apply concat_inj_len; auto. clear E. revert ys zs2 F2. induction F as [|s g a a' ls gs zs zs' (S & L & ->) F IH]; intros ys zs2 F2; inversion F2 as [|? ? ? ? ? ? ? ? (_ & L2 & _)]; subst; constructor; [congruence|eauto]. }
    subst ys. f_equal. clear E. revert zs2 F2. induction F as [|s g a a' ls gs zs zs' (S & L & ->) F IH]; intros zs2 F2; inversion F2 as [|? ? ? ? ? ? ? ? (_ & L2 & ->)]; subst; auto. f_equal. auto. }
  intros gs x x' M. destruct (C53_inverse m B gs) as (I1 & I2 & _).
  destruct (C53_commutes m B gs x x' M) as (A1 & A2 & _). destruct (C53_commutes m B _ x' x (I1 _ _ M)) as (B1 & B2 & _). split.
  - intros v v' y y' o o' P Y Lo Lo'. split; intros E.
    + destruct (A1 v v' o o' y P Lo Lo' E) as (z & Z & ->). rewrite (FUN _ _ _ _ _ _ Y Z). reflexivity.
    + destruct (B1 v' v o' o y' (I2 _ _ P) Lo' Lo E) as (z & Z & ->). rewrite (FUN _ _ _ _ _ _ (I1 _ _ Y) Z). reflexivity.
  - intros y y' v v' o o' Y P Lo Lo'. split; intros E.
    + destruct (A2 y y' o o' v Y Lo Lo' E) as (z & Z & ->). rewrite (FUN _ _ _ _ _ _ P Z). reflexivity.
    + destruct (B2 y' y o' o v' (I1 _ _ Y) Lo' Lo E) as (z & Z & ->). rewrite (FUN _ _ _ _ _ _ (I2 _ _ P) Z). reflexivity.
Qed.

(** Translation by (1, 1), the quarter turn about the third axis of the sphere, the half turn of SO(3) about its first
    axis; the moved point and tangent vector of R^2 x (S2 x unit quaternions). *)
Definition exgs : list sym := [SymT [1; 1]; SymR (M3 0 (-1) 0 1 0 0 0 0 1); SymQ (Q4 0 1 0 0)].
Example C53_example : built rS /\ tanM rS rSx rSv /\
  moved rS exgs rSx ([4; 5] ++ [- (3 / 5); 0; 4 / 5] ++ [0; 0; 0; 1]) /\
  pushed rS exgs rSv ([1; -1] ++ [-4; 2; -3] ++ [2; 0; 0]).
Proof.
  split; [apply rS_built|]. split; [apply rSv_tan|].
  assert (RA : rot (M3 0 (-1) 0 1 0 0 0 0 1)). { split; [m3_eq; simpl; ring|unfold rdet; simpl; ring]. }
  assert (QA : qn2 (Q4 0 1 0 0) = 1) by (unfold qn2; cbn; ring).
  split.
  - exists [[3; 4]; [0; 3 / 5; 4 / 5]; [0; 0; 1; 0]], [[4; 5]; [- (3 / 5); 0; 4 / 5]; [0; 0; 0; 1]].
    split; [reflexivity|]. split; [reflexivity|].
    repeat (apply Forall4_cons || apply Forall4_nil); (split; [auto|split; [reflexivity|]]); try reflexivity;
      cbn; unfold rmulv, qflat, qprod; cbn; repeat (apply f_equal2; [lra|]); reflexivity.
  - exists [[1; -1]; [2; 4; -3]; [2; 0; 0]], [[1; -1]; [-4; 2; -3]; [2; 0; 0]].
    split; [reflexivity|]. split; [reflexivity|].
    repeat (apply Forall4_cons || apply Forall4_nil); (split; [auto|split; [reflexivity|]]); try reflexivity;
      cbn; unfold rmulv, qflat, qprod; cbn; repeat (apply f_equal2; [lra|]); reflexivity.
Qed.
Print Assumptions C53_commutes.
Print Assumptions C53_inverse.
Print Assumptions C53_tests.
Print Assumptions C53_iff.
