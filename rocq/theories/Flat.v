(** Operations on nested products, in terms of the elementary factors at the leaves of the tree. *)
From Coq Require Import List Arith Bool ZArith Lia.
From Verif Require Import Base Scalar Vec Model_Real Model_S2 Model_SO3 Model_Manifold Spec Layout Comp.
Import ListNotations.

Section Flat.
Context {K : Type} {SK : Scalar K}.
Implicit Types (p m : mfd K) (fs subs pre post : list (mfd K)).

Lemma leaves_dim D m : wf m -> getDim D m = sum_list (map (getDim D) (leaves m)).
Proof.
  induction m as [h l a b|h sT sR subs IH] using mfd_ind'; intros Hwf.
  - simpl. destruct D; simpl; lia.
  - rewrite (wf_prod_getDim D _ _ _ _ Hwf). inversion Hwf as [|? ? ? ? _ _ _ _ _ Hs]; subst. simpl. clear Hwf.
    induction IH as [|s ss Hs1 _ IH']; simpl; auto. inversion Hs; subst.
    rewrite map_app, sum_list_app, <- IH', Hs1; auto.
Qed.

Lemma pieces_app D fs gs xs ys : pieces (K:=K) D fs xs -> pieces D gs ys -> pieces D (fs ++ gs) (xs ++ ys).
Proof. intros. apply Forall2_app; auto. Qed.

(** Regroup leaf pieces by factor. *)
Lemma regroup D subs zs : Forall wf subs -> pieces D (flat_map leaves subs) zs ->
  exists zss, zs = concat zss /\ Forall2 (fun s z => pieces D (leaves s) z) subs zss
              /\ pieces D subs (map (@concat K) zss) /\ concat zs = concat (map (@concat K) zss).
Proof.
  revert zs; induction subs as [|s ss IH]; intros zs Hw Hp; simpl in Hp.
  - inversion Hp; subst. exists []. repeat split; constructor.
  - inversion Hw; subst. destruct (pieces_app_inv _ _ _ _ Hp) as (a & b & -> & Ha & Hb).
    destruct (IH b) as (zss & -> & H3 & H4 & H5); auto.
    exists (a :: zss). simpl. repeat split; auto.
    + constructor; auto. rewrite leaves_dim by auto. eapply pieces_length; eauto.
    + rewrite concat_app, H5. reflexivity.
Qed.

Section Op.
  Variables (D0 D1 D2 : edim) (op : mfd K -> vec K -> vec K -> vec K -> res (vec K)).
  Hypothesis Hprod : forall h sT sR subs outs xs vs y, wf (Prod h sT sR subs) ->
    pieces D0 subs outs -> pieces D1 subs xs -> pieces D2 subs vs ->
    (op (Prod h sT sR subs) (concat outs) (concat xs) (concat vs) = Ok y
     <-> exists ys, y = concat ys /\ Forall5 (fun s o x v r => op s o x v = Ok r) subs outs xs vs ys).

  Lemma Forall5_app l1 l2 l3 l4 l5 r1 r2 r3 r4 r5 :
    Forall5 (fun s o x v r => op s o x v = Ok r) l1 l2 l3 l4 l5 ->
    Forall5 (fun s o x v r => op s o x v = Ok r) r1 r2 r3 r4 r5 ->
    Forall5 (fun s o x v r => op s o x v = Ok r) (l1 ++ r1) (l2 ++ r2) (l3 ++ r3) (l4 ++ r4) (l5 ++ r5).
  Proof. induction 1; simpl; auto. constructor; auto. Qed.

  Lemma Forall5_app_inv l1 r1 l2 r2 l3 r3 l4 r4 l5 :
    Forall5 (fun s o x v r => op s o x v = Ok r) (l1 ++ r1) (l2 ++ r2) (l3 ++ r3) (l4 ++ r4) l5 ->
    List.length l2 = List.length l1 -> List.length l3 = List.length l1 -> List.length l4 = List.length l1 ->
    exists a b, l5 = a ++ b /\ Forall5 (fun s o x v r => op s o x v = Ok r) l1 l2 l3 l4 a
                /\ Forall5 (fun s o x v r => op s o x v = Ok r) r1 r2 r3 r4 b.
  Proof.
    revert l2 l3 l4 l5; induction l1 as [|s l1 IH]; intros [|o l2] [|x l3] [|v l4] l5 H E2 E3 E4;
      simpl in *; try discriminate.
    - exists [], l5. repeat split; auto. constructor.
    - inversion H; subst. destruct (IH l2 l3 l4 le) as (a & b & -> & Ha & Hb); auto.
      exists (e :: a), b. repeat split; auto. constructor; auto.
  Qed.

  Lemma flat_op m : wf m -> forall outs xs vs y,
    pieces D0 (leaves m) outs -> pieces D1 (leaves m) xs -> pieces D2 (leaves m) vs ->
    (op m (concat outs) (concat xs) (concat vs) = Ok y
     <-> exists ys, y = concat ys /\
         Forall5 (fun s o x v r => op s o x v = Ok r) (leaves m) outs xs vs ys).
  Proof.
    induction m as [h l a b|h sT sR subs IH] using mfd_ind'; intros Hwf outs xs vs y Ho Hx Hv.
    - simpl in *. inversion Ho as [|? o ? ? Ho1 Ho2]; subst. inversion Ho2; subst.
      inversion Hx as [|? x ? ? Hx1 Hx2]; subst. inversion Hx2; subst.
      inversion Hv as [|? v ? ? Hv1 Hv2]; subst. inversion Hv2; subst.
      simpl. rewrite !app_nil_r. split.
      + intros H. exists [y]. split; [simpl; rewrite app_nil_r; auto|repeat constructor; auto].
      + intros (ys & -> & H). inversion H as [|? ? ? ? r ? ? ? ? ? H1 H2]; subst. inversion H2; subst.
        simpl. rewrite app_nil_r. exact H1.
    - inversion Hwf as [|? ? ? ? _ _ _ _ _ Hs]; subst. cbn [leaves] in *.
      destruct (regroup D0 subs outs) as (oss & -> & Ho3 & Ho4 & Ho5); auto.
      destruct (regroup D1 subs xs) as (xss & -> & Hx3 & Hx4 & Hx5); auto.
      destruct (regroup D2 subs vs) as (vss & -> & Hv3 & Hv4 & Hv5); auto.
      rewrite Ho5, Hx5, Hv5, Hprod by auto. clear Hprod Ho Hx Hv Hwf Ho4 Hx4 Hv4 Ho5 Hx5 Hv5.
      revert y oss xss vss Ho3 Hx3 Hv3. induction subs as [|s ss IHs]; intros y oss xss vss Ho Hx Hv.
      + inversion Ho; inversion Hx; inversion Hv; subst. simpl.
        split; intros (ys & -> & H); inversion H; subst; exists []; split; auto; constructor.
      + inversion Ho as [|? o1 ? oss' Ho1 Ho2]; inversion Hx as [|? x1 ? xss' Hx1 Hx2];
        inversion Hv as [|? v1 ? vss' Hv1 Hv2]; subst. inversion IH as [|? ? IH1 IH2]; subst.
        inversion Hs as [|? ? Hs1 Hs2]; subst. specialize (IHs IH2 Hs2). simpl. split.
        * intros (ys & -> & H). inversion H as [|? ? ? ? r ? ? ? ? ys' H1 H2]; subst.
          apply IH1 in H1; auto. destruct H1 as (rs & -> & H1).
          destruct (proj1 (IHs (concat ys') oss' xss' vss' Ho2 Hx2 Hv2)) as (ws & E & Hw).
          { exists ys'. auto. }
          exists (rs ++ ws). split; [simpl; rewrite concat_app, E; auto|].
          apply Forall5_app; auto.
        * intros (ys & -> & H). apply Forall5_app_inv in H;
            [|eapply pieces_len; eassumption|eapply pieces_len; eassumption|eapply pieces_len; eassumption].
          destruct H as (a & b & -> & Ha & Hb).
          destruct (proj2 (IHs (concat b) oss' xss' vss' Ho2 Hx2 Hv2)) as (ws & E & Hw).
          { exists b; auto. }
          exists (concat a :: ws). simpl. rewrite concat_app, E. split; auto. constructor; auto.
          apply IH1; auto. exists a; auto.
  Qed.
End Op.

Lemma Forall54 {A B C D} (R : A -> B -> C -> D -> Prop) l1 l2 l3 l4 :
  Forall5 (fun a b c (_ : B) d => R a b c d) l1 l2 l3 l2 l4 <-> Forall4 R l1 l2 l3 l4.
Proof.
  split.
  - remember l2 as l2' eqn:E. rewrite E at 1. intros H. revert E. 
    assert (G : forall l1 l2 l3 l2' l4, Forall5 (fun a b c (_ : B) d => R a b c d) l1 l2 l3 l2' l4 -> Forall4 R l1 l2 l3 l4)
      by (induction 1; constructor; auto).
    intros ->. eapply G; eauto.
  - induction 1; constructor; auto.
Qed.

Lemma Forall53 {A B D} (R : A -> B -> D -> Prop) l1 l2 l4 :
  Forall5 (fun a b (_ : B) (_ : B) d => R a b d) l1 l2 l2 l2 l4 <-> Forall3 R l1 l2 l4.
Proof.
  split.
  - assert (G : forall l1 l2 l3 l2' l4, Forall5 (fun a b (_ : B) (_ : B) d => R a b d) l1 l2 l3 l2' l4 -> Forall3 R l1 l2 l4)
      by (induction 1; constructor; auto).
    eapply G.
  - induction 1; constructor; auto.
Qed.

Lemma Forall5_swap {A B C D E} (R : A -> B -> C -> D -> E -> Prop) l1 l2 l3 l4 l5 :
  Forall5 R l1 l2 l3 l4 l5 -> List.length l4 = List.length l1.
Proof. induction 1; simpl; auto. Qed.

Section Op1.
  Variables (D0 D1 : edim) (op : mfd K -> vec K -> vec K -> res (vec K)).
  Hypothesis Hprod : forall h sT sR subs outs xs y, wf (Prod h sT sR subs) ->
    pieces D0 subs outs -> pieces D1 subs xs ->
    (op (Prod h sT sR subs) (concat outs) (concat xs) = Ok y
     <-> exists ys, y = concat ys /\ Forall4 (fun s o x r => op s o x = Ok r) subs outs xs ys).
  Lemma Forall5_any {A B C D E} (R : A -> B -> C -> E -> Prop) l1 l2 l3 (l4 : list D) l5 :
    List.length l4 = List.length l1 ->
    (Forall5 (fun a b c (_ : D) e => R a b c e) l1 l2 l3 l4 l5 <-> Forall4 R l1 l2 l3 l5).
  Proof.
    intros Hl. split.
    - intros H. clear Hl. induction H; constructor; auto.
    - intros H. revert l4 Hl. induction H; intros [|? ?] Hl; simpl in *; try discriminate; constructor; auto.
  Qed.
  Lemma flat_op1 m : wf m -> forall outs xs y,
    pieces D0 (leaves m) outs -> pieces D1 (leaves m) xs ->
    (op m (concat outs) (concat xs) = Ok y
     <-> exists ys, y = concat ys /\ Forall4 (fun s o x r => op s o x = Ok r) (leaves m) outs xs ys).
  Proof.
    intros Hwf outs xs y Ho Hx.
    pose proof (flat_op D0 D1 D0 (fun s o x _ => op s o x)) as F.
    assert (H := fun Hp => F Hp m Hwf outs xs outs y Ho Hx Ho).
    rewrite H.
    - split; intros (ys & -> & G); exists ys; split; auto; apply Forall54; auto.
    - intros h sT sR subs outs' xs' vs' y' Hw Ho' Hx' Hv'. rewrite Hprod by auto.
      split; intros (ys & -> & G); exists ys; split; auto.
      + apply Forall5_any; auto. eapply pieces_len; eauto.
      + apply Forall5_any in G; auto. eapply pieces_len; eauto.
  Qed.
End Op1.

Section Op0.
  Variables (D0 : edim) (op : mfd K -> vec K -> res (vec K)).
  Hypothesis Hprod : forall h sT sR subs outs y, wf (Prod h sT sR subs) ->
    pieces D0 subs outs ->
    (op (Prod h sT sR subs) (concat outs) = Ok y
     <-> exists ys, y = concat ys /\ Forall3 (fun s o r => op s o = Ok r) subs outs ys).
  Lemma Forall4_any {A B C E} (R : A -> B -> E -> Prop) l1 l2 (l3 : list C) l5 :
    List.length l3 = List.length l1 ->
    (Forall4 (fun a b (_ : C) e => R a b e) l1 l2 l3 l5 <-> Forall3 R l1 l2 l5).
  Proof.
    intros Hl. split.
    - intros H. clear Hl. induction H; constructor; auto.
    - intros H. revert l3 Hl. induction H; intros [|? ?] Hl; simpl in *; try discriminate; constructor; auto.
  Qed.
  Lemma flat_op0 m : wf m -> forall outs y,
    pieces D0 (leaves m) outs ->
    (op m (concat outs) = Ok y
     <-> exists ys, y = concat ys /\ Forall3 (fun s o r => op s o = Ok r) (leaves m) outs ys).
  Proof.
    intros Hwf outs y Ho.
    assert (H := fun Hp => flat_op1 D0 D0 (fun s o _ => op s o) Hp m Hwf outs outs y Ho Ho).
    rewrite H.
    - split; intros (ys & -> & G); exists ys; split; auto.
      + apply Forall4_any in G; auto. eapply pieces_len; eauto.
      + apply Forall4_any; auto. eapply pieces_len; eauto.
    - intros h sT sR subs outs' xs' y' Hw Ho' Hx'. rewrite Hprod by auto.
      split; intros (ys & -> & G); exists ys; split; auto.
      + apply Forall4_any; auto. eapply pieces_len; eauto.
      + apply Forall4_any in G; auto. eapply pieces_len; eauto.
  Qed.
End Op0.

End Flat.
