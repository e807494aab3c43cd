(** Block-diagonal, side-by-side and stacked matrices over exact arithmetic; matrix operations of nested
    products in terms of the elementary factors. *)
From Coq Require Import Reals List Lra Lia ZArith Bool Arith.
From Verif Require Import Base Scalar Vec Model_Manifold Spec Layout Comp Flat BlockMat MatOps MatProd MatTan XR SpecR NumVec NumS2.
Import ListNotations.

(** ** Nested blocks *)
Section Nest.
Context {K : Type} {SK : Scalar K}.

Definition bd2 (B R : mat K) : mat K :=
  Mat (mrows B + mrows R)
      (map (fun c => c ++ repeat k0 (mrows R)) (mcols_ B) ++ map (fun c => repeat k0 (mrows B) ++ c) (mcols_ R)).
Lemma bdiag_cons (B : mat K) Bs : bdiag (B :: Bs) = bd2 B (bdiag Bs).
Proof. reflexivity. Qed.
Lemma bd2_nil_l R : bd2 (Mat 0 []) R = R.
Proof. destruct R as [r cs]. unfold bd2. simpl. f_equal. rewrite map_id. reflexivity. Qed.
Lemma bd2_nil_r B : bd2 B (Mat 0 []) = B.
Proof.
  destruct B as [r cs]. unfold bd2. simpl. rewrite app_nil_r, Nat.add_0_r. f_equal.
  rewrite <- (map_id cs) at 2. apply map_ext. intros. apply app_nil_r.
Qed.
Lemma bd2_assoc A B C : bd2 A (bd2 B C) = bd2 (bd2 A B) C.
Proof.
  destruct A as [a ca], B as [b cb], C as [c cc]. unfold bd2. simpl. rewrite Nat.add_assoc. f_equal.
  rewrite !map_app, !map_map, <- app_assoc. f_equal; [|f_equal].
  - apply map_ext. intros. rewrite <- app_assoc, <- repeat_app. reflexivity.
  - apply map_ext. intros. rewrite app_assoc. reflexivity.
  - apply map_ext. intros. rewrite app_assoc, <- repeat_app. reflexivity.
Qed.
Lemma bdiag_app (A B : list (mat K)) : bdiag (A ++ B) = bd2 (bdiag A) (bdiag B).
Proof.
  induction A as [|a A IH]; [simpl; rewrite bd2_nil_l; auto|].
  change ((a :: A) ++ B) with (a :: (A ++ B)). rewrite !bdiag_cons, IH, bd2_assoc. reflexivity.
Qed.
Lemma bdiag_concat (Bss : list (list (mat K))) : bdiag (concat Bss) = bdiag (map bdiag Bss).
Proof. induction Bss as [|Bs Bss IH]; auto. cbn [concat map]. rewrite bdiag_app, bdiag_cons, IH. reflexivity. Qed.
Lemma bdiag_one B : bdiag [B] = B.
Proof. apply bd2_nil_r. Qed.

Lemma hcat_concat r (Bss : list (list (mat K))) : hcat r (concat Bss) = hcat r (map (hcat r) Bss).
Proof.
  unfold hcat. f_equal. rewrite map_map. cbn [mcols_].
  induction Bss as [|Bs Bss IH]; auto. cbn [concat map]. rewrite map_app, concat_app, IH. reflexivity.
Qed.
Lemma hcat_one (B : mat K) : hcat (mrows B) [B] = B.
Proof. destruct B as [r cs]. unfold hcat. simpl. rewrite app_nil_r. reflexivity. Qed.

Lemma map2_assoc {A} (f : A -> A -> A) : (forall a b c, f a (f b c) = f (f a b) c) ->
  forall l m n, map2 f l (map2 f m n) = map2 f (map2 f l m) n.
Proof. intros H. induction l as [|a l IH]; intros [|b m] [|c n]; simpl; auto. rewrite H, IH. reflexivity. Qed.
Lemma map2_nils n (L : list (list K)) : List.length L <= n -> map2 (@app K) (repeat [] n) L = L.
Proof. revert L; induction n; intros [|c L] H; simpl in *; auto; [lia|]. f_equal. apply IHn. lia. Qed.
Lemma map2_nils_r n (L : list (list K)) : List.length L <= n -> map2 (@app K) L (repeat [] n) = L.
Proof. revert L; induction n; intros [|c L] H; simpl in *; auto; [lia|]. rewrite app_nil_r. f_equal. apply IHn. lia. Qed.
Lemma map2_min {A B C} (f : A -> B -> C) l m : List.length (map2 f l m) = Nat.min (List.length l) (List.length m).
Proof. revert m; induction l; intros [|b m]; simpl; auto. Qed.
Lemma vcat_le n (Bs : list (mat K)) : List.length (mcols_ (vcat n Bs)) <= n.
Proof. induction Bs; simpl; [rewrite repeat_length; auto|]. rewrite map2_min. lia. Qed.
Lemma vcat_app n (A B : list (mat K)) :
  vcat n (A ++ B) = Mat (mrows (vcat n A) + mrows (vcat n B)) (map2 (@app K) (mcols_ (vcat n A)) (mcols_ (vcat n B))).
Proof.
  induction A as [|a A IH].
  - cbn [app vcat mrows mcols_]. rewrite map2_nils by apply vcat_le. destruct (vcat n B); reflexivity.
  - cbn [app vcat mrows mcols_]. rewrite IH. cbn [mrows mcols_]. rewrite map2_assoc by (intros; apply app_assoc).
    rewrite Nat.add_assoc. reflexivity.
Qed.
Lemma vcat_concat n (Bss : list (list (mat K))) : vcat n (concat Bss) = vcat n (map (vcat n) Bss).
Proof. induction Bss as [|Bs Bss IH]; auto. cbn [concat map]. rewrite vcat_app, IH. reflexivity. Qed.
Lemma vcat_one n (B : mat K) : List.length (mcols_ B) = n -> vcat n [B] = B.
Proof. destruct B as [r cs]. intros H. cbn in *. rewrite map2_nils_r, Nat.add_0_r by lia. reflexivity. Qed.
End Nest.

(** ** Any operation given blockwise on the factors is given blockwise on the leaves. *)
Section FlatG.
Context {K : Type} {SK : Scalar K} {I O : Type}.
Variables (catI : list I -> I) (catO : list O -> O) (okI : mfd K -> I -> Prop) (op : mfd K -> I -> res O).
Hypothesis catI_concat : forall zss, catI (concat zss) = catI (map catI zss).
Hypothesis catO_concat : forall zss, catO (concat zss) = catO (map catO zss).
Hypothesis catI_one : forall s z, okI s z -> catI [z] = z.
Hypothesis catO_one : forall h l a b z y, wf (Leaf h l a b) -> okI (Leaf h l a b) z -> op (Leaf h l a b) z = Ok y -> catO [y] = y.
Hypothesis okI_cat : forall h sT sR subs zs, wf (Prod h sT sR subs) -> Forall2 okI subs zs -> okI (Prod h sT sR subs) (catI zs).
Hypothesis Hprod : forall h sT sR subs zs y, wf (Prod h sT sR subs) -> Forall2 okI subs zs ->
  (op (Prod h sT sR subs) (catI zs) = Ok y <-> exists ys, y = catO ys /\ Forall3 (fun s z r => op s z = Ok r) subs zs ys).

Lemma group subs zs : Forall2 okI (flat_map leaves subs) zs ->
  exists zss, zs = concat zss /\ Forall2 (fun s z => Forall2 okI (leaves s) z) subs zss.
Proof.
  revert zs; induction subs as [|s ss IH]; intros zs H.
  - inversion H; subst. exists []. split; constructor.
  - cbn [flat_map] in H. apply Forall2_app_inv_l in H. destruct H as (a & b & Ha & Hb & ->).
    destruct (IH b Hb) as (zss & -> & H). exists (a :: zss). split; auto.
Qed.
Lemma okI_leaves m : wf m -> forall zs, Forall2 okI (leaves m) zs -> okI m (catI zs).
Proof.
  induction m as [h l a b|h sT sR subs IH] using mfd_ind'; intros Hw zs H.
  - cbn [leaves] in H. inversion H as [|? z ? ? H1 H2]; subst. inversion H2; subst. rewrite (catI_one (Leaf h l a b)); auto.
  - cbn [leaves] in H. destruct (group _ _ H) as (zss & -> & G). rewrite catI_concat. apply okI_cat; auto.
    inversion Hw as [|? ? ? ? _ _ _ _ _ Hs]; subst. clear - IH Hs G. induction G as [|s z ss zss G1 G2 IHG]; cbn [map]; constructor.
    + inversion IH; inversion Hs; subst; auto.
    + inversion IH; inversion Hs; subst; auto.
Qed.
Lemma Forall3_app' {A B C} (R : A -> B -> C -> Prop) l1 l2 l3 r1 r2 r3 :
  Forall3 R l1 l2 l3 -> Forall3 R r1 r2 r3 -> Forall3 R (l1 ++ r1) (l2 ++ r2) (l3 ++ r3).
Proof. induction 1; simpl; auto. constructor; auto. Qed.
Lemma Forall3_app_inv' {A B C} (R : A -> B -> C -> Prop) l1 r1 l2 r2 l3 : List.length l2 = List.length l1 ->
  Forall3 R (l1 ++ r1) (l2 ++ r2) l3 -> exists a b, l3 = a ++ b /\ Forall3 R l1 l2 a /\ Forall3 R r1 r2 b.
Proof.
  revert l2 l3; induction l1 as [|x l1 IH]; intros [|y l2] l3 E H; simpl in *; try discriminate.
  - exists [], l3. repeat split; auto. constructor.
  - inversion H; subst. destruct (IH l2 lc) as (a & b & -> & Ha & Hb); auto. exists (c :: a), b. repeat split; auto. constructor; auto.
Qed.
Lemma app_len_inj {A} (a b c d : list A) : List.length a = List.length c -> a ++ b = c ++ d -> a = c /\ b = d.
Proof.
  revert c; induction a as [|x a IH]; intros [|y c] L E; simpl in *; try discriminate; auto.
  inversion E; subst. destruct (IH c) as [-> ->]; auto.
Qed.
Lemma Forall2_len {A B} (R : A -> B -> Prop) l m : Forall2 R l m -> List.length m = List.length l.
Proof. induction 1; simpl; auto. Qed.

Lemma flat_gen m : wf m -> forall zs y, Forall2 okI (leaves m) zs ->
  (op m (catI zs) = Ok y <-> exists ys, y = catO ys /\ Forall3 (fun s z r => op s z = Ok r) (leaves m) zs ys).
Proof.
  induction m as [h l a b|h sT sR subs IH] using mfd_ind'; intros Hw zs y Hz.
  - cbn [leaves] in *. inversion Hz as [|? z ? ? H1 H2]; subst. inversion H2; subst. rewrite (catI_one (Leaf h l a b)) by auto. split.
    + intros H. exists [y]. split; [symmetry; eapply catO_one; eauto|]. repeat constructor; auto.
    + intros (ys & -> & H). inversion H as [|? ? r ? ? ? G1 G2]; subst. inversion G2; subst. rewrite (catO_one h l a b z); auto.
  - cbn [leaves] in *. destruct (group _ _ Hz) as (zss & -> & G). rewrite catI_concat.
    assert (Hs : Forall wf subs) by (inversion Hw; auto).
    assert (OK : Forall2 okI subs (map catI zss)).
    { clear - okI_cat catI_one catI_concat Hs G. induction G; simpl; constructor; inversion Hs; subst; auto. apply okI_leaves; auto. }
    rewrite Hprod by auto. clear Hprod Hw Hz OK okI_cat. revert y. 
    assert (Q : forall ys, Forall3 (fun s z r => op s z = Ok r) subs (map catI zss) ys <->
       exists yss, ys = map catO yss /\ Forall3 (fun s z r => op s z = Ok r) (flat_map leaves subs) (concat zss) (concat yss) /\
         Forall2 (fun s r => Forall2 (fun _ _ => True) (leaves s) r) subs yss).
    { induction G as [|s z ss zss G1 G2 IHG]; intros ys.
      - cbn. split.
        + intros H. inversion H; subst. exists []. repeat constructor.
        + intros (yss & -> & _ & H). inversion H; subst. constructor.
      - inversion IH as [|? ? IH1 IH2]; inversion Hs as [|? ? Hs1 Hs2]; subst. specialize (IHG IH2 Hs2). cbn [map flat_map concat]. split.
        + intros H. inversion H as [|? ? r ? ? rs H1 H2]; subst. apply IH1 in H1; auto. destruct H1 as (w & -> & Hw).
          apply IHG in H2. destruct H2 as (yss & -> & F1 & F2). exists (w :: yss). split; [reflexivity|]. split; [apply Forall3_app'; auto|].
          constructor; auto. clear - Hw. induction Hw; constructor; auto.
        + intros (yss & -> & F1 & F2). inversion F2 as [|? w ? ws F3 F4]; subst. cbn [map concat] in *.
          apply Forall3_app_inv' in F1; [|eapply Forall2_len; eauto]. destruct F1 as (a & b & E & Fa & Fb).
          assert (a = w /\ b = concat ws) as [-> ->].
          { apply Forall2_len in F3. assert (La : List.length a = List.length (leaves s)) by (clear - Fa; induction Fa; simpl; auto).
            symmetry in E. apply app_len_inj in E; [tauto|congruence]. }
          constructor; [apply IH1; auto; exists w; auto|]. apply IHG. exists ws. auto. }
    intros y. split.
    + intros (ys & -> & H). apply Q in H. destruct H as (yss & -> & F & _). exists (concat yss). split; auto.
    + intros (ys & -> & H).
      assert (exists yss, ys = concat yss /\ Forall2 (fun s r => Forall2 (fun _ _ => True) (leaves s) r) subs yss) as (yss & -> & F).
      { clear - H G. revert ys H. induction G as [|s z ss zss G1 G2 IHG]; intros ys H; cbn in H.
        - inversion H; subst. exists []. repeat constructor.
        - apply Forall3_app_inv' in H; [|eapply Forall2_len; eauto]. destruct H as (a & b & -> & Ha & Hb).
          destruct (IHG b Hb) as (yss & -> & F). exists (a :: yss). split; auto. constructor; auto.
          clear - Ha. induction Ha; constructor; auto. }
      exists (map catO yss). split; [auto|]. apply Q. eauto.
Qed.
End FlatG.

(** ** Sums of products over [XR]: order and grouping do not matter, finite times zero is zero. *)
Local Open Scope R_scope.
Lemma xadd_assoc a b c : xadd a (xadd b c) = xadd (xadd a b) c.
Proof. destruct a, b, c; simpl; auto. f_equal. ring. Qed.
Lemma xadd_comm a b : xadd a b = xadd b a.
Proof. destruct a, b; simpl; auto. f_equal. ring. Qed.
Lemma xadd_0_l a : xadd (Fin 0) a = a.
Proof. destruct a; simpl; auto. f_equal. ring. Qed.
Lemma xadd_0_r a : xadd a (Fin 0) = a.
Proof. rewrite xadd_comm. apply xadd_0_l. Qed.
Lemma xmul_comm a b : lift2 Rmult a b = lift2 Rmult b a.
Proof. destruct a, b; simpl; auto. f_equal. ring. Qed.

(** Sum over k < n of f k. *)
Definition xsum (n : nat) (f : nat -> XR) : XR := fold_right xadd (Fin 0) (map f (seq 0 n)).

Fixpoint xdot (x y : list XR) : XR :=
  match x, y with a :: x', b :: y' => xadd (lift2 Rmult a b) (xdot x' y') | _, _ => Fin 0 end.
Lemma dot_acc_xdot a x y : fold_left xadd (map2 (lift2 Rmult) x y) a = xadd a (xdot x y).
Proof.
  revert a y; induction x as [|b x IH]; intros a [|c y]; simpl; rewrite ?xadd_0_r; auto.
  rewrite IH, xadd_assoc. reflexivity.
Qed.
Lemma dot_xdot x y : dot x y = xdot x y.
Proof. destruct x as [|b x], y as [|c y]; simpl; auto. apply dot_acc_xdot. Qed.
Lemma xdot_comm x y : xdot x y = xdot y x.
Proof. revert y; induction x as [|a x IH]; intros [|b y]; simpl; auto. rewrite IH, xmul_comm. reflexivity. Qed.
Lemma xdot_app a b c d : length a = length c -> xdot (a ++ b) (c ++ d) = xadd (xdot a c) (xdot b d).
Proof.
  revert c; induction a as [|x a IH]; intros [|y c] H; try discriminate; cbn [app xdot].
  - rewrite xadd_0_l. auto.
  - simpl in H. rewrite IH by lia. apply xadd_assoc.
Qed.
Lemma xdot_zeros w n : xdot (fin w) (repeat (Fin 0) n) = Fin 0.
Proof.
  revert n; induction w as [|a w IH]; intros [|n]; simpl; auto. rewrite IH. simpl. f_equal. ring.
Qed.
Lemma xdot_zeros_l w n : xdot (repeat (Fin 0) n) (fin w) = Fin 0.
Proof. rewrite xdot_comm. apply xdot_zeros. Qed.
Lemma xdot_sum x y n : length x = n -> length y = n ->
  xdot x y = xsum n (fun k => lift2 Rmult (nth k x (Fin 0)) (nth k y (Fin 0))).
Proof.
  revert x y; induction n as [|n IH]; intros [|a x] [|b y] Hx Hy; simpl in *; try discriminate; auto.
  unfold xsum in *. cbn [seq map fold_right]. rewrite (IH x y) by lia. f_equal. f_equal.
  rewrite <- seq_shift, map_map. reflexivity.
Qed.

(** Finite matrices, their products with vectors (independently of the model's). *)
Definition rmv (r : nat) (cs : list (list R)) (v : list R) : list R :=
  map (fun i => rdot (map (fun c => nth i c 0) cs) v) (seq 0 r).
Lemma nth_fin i x : nth i (fin x) (Fin 0) = Fin (nth i x 0).
Proof. apply (map_nth Fin). Qed.
Lemma mrow_fin r cs i : mrow (matR r cs) i = fin (map (fun c => nth i c 0) cs).
Proof.
  unfold mrow, matR, fin. cbn [mcols_]. rewrite !map_map. apply map_ext. intros c. change (map Fin c) with (fin c). apply nth_fin.
Qed.
Lemma mvmul_fin r cs v : mvmul (matR r cs) (fin v) = fin (rmv r cs v).
Proof.
  unfold mvmul, rmv. cbn [mrows matR]. unfold fin at 2. rewrite map_map. apply map_ext. intros i.
  rewrite mrow_fin, dot_fin. reflexivity.
Qed.
Lemma matR_shape r cs : shape (matR r cs) r (length cs) <-> Forall (fun c => length c = r) cs.
Proof.
  unfold shape, matR. cbn [mrows mcols_]. rewrite map_length. split.
  - intros (_ & _ & H). rewrite Forall_map in H. eapply Forall_impl; [|exact H]. intros c; cbn. rewrite fin_length. auto.
  - intros H. repeat split; auto. rewrite Forall_map. eapply Forall_impl; [|exact H]. intros c; cbn. rewrite fin_length. auto.
Qed.

(** *** Block rows times a block-diagonal matrix *)
Lemma mrow_hcat r C Cs i : mrow (K:=XR) (hcat r (C :: Cs)) i = mrow C i ++ mrow (hcat r Cs) i.
Proof. unfold mrow, hcat. cbn [mcols_ map concat]. apply map_app. Qed.
Lemma mrow_length {K} {SK : Scalar K} (M : mat K) i : length (mrow M i) = ncols M.
Proof. unfold mrow, ncols. apply map_length. Qed.
(** Every row is finite. *)
Definition finite_m (M : mat XR) : Prop := forall i, exists w, mrow M i = fin w.
Lemma finite_matR r cs : finite_m (matR r cs).
Proof. intros i. rewrite mrow_fin. eauto. Qed.
Lemma fin_split x y w : x ++ y = fin w -> (exists a, x = fin a) /\ exists b, y = fin b.
Proof.
  revert w; induction x as [|e x IH]; intros w H; simpl in H; [split; [exists []; auto|eauto]|].
  destruct w as [|r w]; [discriminate|]. simpl in H. inversion H; subst.
  destruct (IH w) as [(a & ->) Hb]; auto. split; auto. exists (r :: a). auto.
Qed.
Lemma finite_hcat r C Cs : finite_m (hcat r (C :: Cs)) -> finite_m C /\ finite_m (hcat r Cs).
Proof.
  intros H. split; intros i; destruct (H i) as [w E]; rewrite mrow_hcat in E; apply fin_split in E; tauto.
Qed.
Lemma mmul_bdiag r Cs Js : Forall2 (fun C J => mrows C = r /\ ncols C = mrows J /\ Forall (fun c => length c = mrows J) (mcols_ J)) Cs Js ->
  finite_m (hcat r Cs) -> mmul (K:=XR) (hcat r Cs) (bdiag Js) = hcat r (map (fun p => mmul (fst p) (snd p)) (combine Cs Js)).
Proof.
  intros F. induction F as [|C J Cs Js (H1 & H2 & H3) F IH]; intros Hf; [reflexivity|].
  destruct (finite_hcat _ _ _ Hf) as [FC FCs]. specialize (IH FCs).
  assert (RB : ncols (hcat r Cs) = mrows (bdiag Js)).
  { clear - F. unfold ncols, hcat. cbn [mcols_]. induction F as [|C J Cs Js (H1 & H2 & H3) F IH]; auto.
    cbn [map concat bdiag mrows]. rewrite app_length, IH. unfold ncols in H2. lia. }
  unfold mmul in *. unfold hcat in *. cbn [mrows mcols_ combine map concat fst snd] in *. f_equal. inversion IH as [IH'].
  rewrite bdiag_cons. unfold bd2. cbn [mcols_]. rewrite map_app. f_equal.
  - rewrite map_map. apply map_ext_in. intros c Hc. unfold mvmul. cbn [mrows]. rewrite H1. apply map_ext. intros i.
    rewrite !dot_xdot. change (Mat r (mcols_ C ++ concat (map (@mcols_ XR) Cs))) with (hcat r (C :: Cs)). rewrite mrow_hcat.
    rewrite Forall_forall in H3. rewrite xdot_app by (rewrite mrow_length, H3; auto).
    destruct (FCs i) as [w E]. unfold hcat. unfold hcat in E. rewrite E.
    change (repeat k0 (mrows (bdiag Js))) with (repeat (Fin 0) (mrows (bdiag Js))). rewrite xdot_zeros, xadd_0_r. reflexivity.
  - rewrite map_map. apply map_ext_in. intros c Hc. unfold mvmul. cbn [mrows]. apply map_ext. intros i.
    rewrite !dot_xdot. change (Mat r (mcols_ C ++ concat (map (@mcols_ XR) Cs))) with (hcat r (C :: Cs)). rewrite mrow_hcat.
    rewrite xdot_app by (rewrite mrow_length, repeat_length; auto).
    destruct (FC i) as [w E]. rewrite E. change (repeat k0 (mrows J)) with (repeat (Fin 0) (mrows J)).
    rewrite xdot_zeros, xadd_0_l. reflexivity.
Qed.

(** *** A block-diagonal matrix times a vector in pieces *)
Lemma map_seq_split {A} (f : nat -> A) a b : map f (seq 0 (a + b)) = map f (seq 0 a) ++ map (fun i => f (a + i)%nat) (seq 0 b).
Proof.
  rewrite seq_app, map_app. f_equal. simpl. revert a. induction b as [|b IH]; intros a; auto. simpl. f_equal; [f_equal; lia|].
  rewrite IH. rewrite <- seq_shift, map_map. apply map_ext. intros. f_equal. lia.
Qed.
Lemma mvmul_bdiag (Bs : list (mat XR)) vs : Forall2 (fun B v => shape B (mrows B) (length v)) Bs vs ->
  mvmul (bdiag Bs) (concat (map fin vs)) = concat (map (fun p => mvmul (fst p) (fin (snd p))) (combine Bs vs)).
Proof.
  intros F. induction F as [|B v Bs vs (_ & H2 & H3) F IH]; [reflexivity|].
  cbn [map concat combine fst snd]. rewrite <- IH. unfold mvmul. rewrite bdiag_cons. cbn [mrows bd2].
  rewrite map_seq_split. f_equal.
  - apply map_ext_in. intros i Hi. apply in_seq in Hi. rewrite !dot_xdot. unfold mrow. cbn [mcols_ bd2]. rewrite map_app.
    rewrite xdot_app by (rewrite !map_length, fin_length; auto).
    replace (map (fun c => nth i c k0) (map (fun c => c ++ repeat k0 (mrows (bdiag Bs))) (mcols_ B))) with (map (fun c => nth i c k0) (mcols_ B)).
    2:{ rewrite map_map. apply map_ext_in. intros c Hc. rewrite Forall_forall in H3. rewrite app_nth1; auto. rewrite H3; auto. lia. }
    replace (map (fun c => nth i c k0) (map (fun c => repeat k0 (mrows B) ++ c) (mcols_ (bdiag Bs)))) with (repeat (Fin 0) (ncols (bdiag Bs))).
    2:{ rewrite map_map. unfold ncols. induction (mcols_ (bdiag Bs)) as [|c l IHl]; auto. simpl. f_equal; auto.
        rewrite app_nth1 by (rewrite repeat_length; lia). rewrite nth_repeat' by lia. reflexivity. }
    rewrite <- fin_concat, xdot_zeros_l, xadd_0_r. reflexivity.
  - apply map_ext_in. intros i Hi. apply in_seq in Hi. rewrite !dot_xdot. unfold mrow. cbn [mcols_ bd2]. rewrite map_app.
    rewrite xdot_app by (rewrite !map_length, fin_length; auto).
    replace (map (fun c => nth (mrows B + i) c k0) (map (fun c => c ++ repeat k0 (mrows (bdiag Bs))) (mcols_ B))) with (repeat (Fin 0) (ncols B)).
    2:{ rewrite map_map. unfold ncols. rewrite Forall_forall in H3. clear H2 IH. induction (mcols_ B) as [|c l IHl]; auto. simpl. f_equal.
        - rewrite app_nth2 by (rewrite H3; simpl; auto; lia). rewrite nth_repeat' by (rewrite H3; simpl; auto; lia). reflexivity.
        - apply IHl. intros. apply H3. simpl; auto. }
    rewrite xdot_zeros_l, xadd_0_l. f_equal. rewrite map_map. apply map_ext. intros c.
    rewrite app_nth2 by (rewrite repeat_length; lia). rewrite repeat_length. f_equal. lia.
Qed.

(** *** Identity matrices *)
Definition unitv (n j : nat) : list R := map (fun i => if (i =? j)%nat then 1 else 0) (seq 0 n).
Lemma rdot_unit_gen w s n j : length w = n ->
  rdot w (map (fun i => if (i =? j)%nat then 1 else 0) (seq s n)) = if (s <=? j)%nat then nth (j - s) w 0 else 0.
Proof.
  revert s n; induction w as [|a w IH]; intros s n H; simpl in H; subst.
  - simpl. destruct (s <=? j)%nat; auto. destruct (j - s)%nat; auto.
  - cbn [seq map rdot]. rewrite (IH (S s) (length w)) by auto. destruct (Nat.leb_spec s j) as [L|L].
    + destruct (Nat.eqb_spec s j) as [->|N].
      * rewrite Nat.sub_diag. replace (S j <=? j)%nat with false by (symmetry; apply Nat.leb_gt; lia). simpl. ring.
      * replace (S s <=? j)%nat with true by (symmetry; apply Nat.leb_le; lia). replace (j - s)%nat with (S (j - S s)) by lia. simpl. ring.
    + replace (s =? j)%nat with false by (symmetry; apply Nat.eqb_neq; lia).
      replace (S s <=? j)%nat with false by (symmetry; apply Nat.leb_gt; lia). ring.
Qed.
Lemma rdot_unit w n j : length w = n -> rdot w (unitv n j) = nth j w 0.
Proof. intros H. unfold unitv. rewrite rdot_unit_gen by auto. simpl. rewrite Nat.sub_0_r. reflexivity. Qed.
Lemma mident_matR r c : mident (K:=XR) r c = matR r (map (unitv r) (seq 0 c)).
Proof.
  unfold mident, mbuild, matR, unitv, fin. f_equal. rewrite map_map. apply map_ext. intros j. rewrite map_map. apply map_ext. intros i.
  unfold delta. destruct (i =? j)%nat; reflexivity.
Qed.
Lemma mmul_ident inp r n : shape inp r n -> finite_m inp -> mmul inp (mident n n) = inp.
Proof.
  intros S F. apply (mat_ext _ _ r n); auto.
  - apply shape_mmul; [apply S|]. rewrite mident_matR. unfold ncols, matR. cbn [mcols_]. rewrite !map_length, seq_length. auto.
  - intros i j Hi Hj. unfold mmul, mget at 1. cbn [mcols_]. rewrite mident_matR. unfold matR. cbn [mcols_].
    rewrite !map_map. rewrite nth_indep with (d' := mvmul inp (fin (unitv n 0))) by (rewrite map_length, seq_length; auto).
    rewrite (map_nth (fun j => mvmul inp (fin (unitv n j)))), seq_nth by auto. cbn [plus].
    unfold mvmul. destruct S as (Sr & Sc & _). rewrite Sr.
    rewrite nth_indep with (d' := dot (mrow inp 0) (fin (unitv n j))) by (rewrite map_length, seq_length; auto).
    rewrite (map_nth (fun i => dot (mrow inp i) (fin (unitv n j)))), seq_nth by auto. cbn [plus].
    destruct (F i) as [w E]. rewrite E, dot_fin, rdot_unit.
    + rewrite <- nth_fin, <- E. unfold mrow, mget.
      rewrite nth_indep with (d' := (fun c => nth i c k0) []) by (rewrite map_length; lia). rewrite (map_nth (fun c => nth i c k0)). reflexivity.
    + rewrite <- (fin_length w), <- E. rewrite mrow_length. exact Sc.
Qed.
Lemma rmv_ident n v : length v = n -> rmv n (map (unitv n) (seq 0 n)) v = v.
Proof.
  intros H. unfold rmv. rewrite <- H. clear H. 
  assert (G : forall i, map (fun c => nth i c 0) (map (unitv (length v)) (seq 0 (length v))) =
     map (fun j => if (i <? length v)%nat then if (j =? i)%nat then 1 else 0 else 0) (seq 0 (length v))).
  { intros i. rewrite map_map. apply map_ext. intros j. unfold unitv. destruct (Nat.ltb_spec i (length v)) as [L|L].
    - rewrite nth_indep with (d' := (fun i => if (i =? j)%nat then 1 else 0) 0%nat) by (rewrite map_length, seq_length; auto).
      rewrite (map_nth (fun i => if (i =? j)%nat then 1 else 0)), seq_nth by auto. simpl. rewrite Nat.eqb_sym. reflexivity.
    - apply nth_overflow. rewrite map_length, seq_length. auto. }
  apply nth_ext with (d := 0) (d' := 0); [rewrite map_length, seq_length; auto|].
  rewrite map_length, seq_length. intros i Hi.
  rewrite nth_indep with (d' := (fun i => rdot (map (fun c => nth i c 0) (map (unitv (length v)) (seq 0 (length v)))) v) 0%nat) by (rewrite map_length, seq_length; auto).
  rewrite (map_nth (fun i => rdot (map (fun c => nth i c 0) (map (unitv (length v)) (seq 0 (length v)))) v)), seq_nth by auto. cbn [plus].
  rewrite G. apply Nat.ltb_lt in Hi as Hi'. rewrite Hi', rdot_comm. apply rdot_unit. auto.
Qed.
Lemma mmul_entry A B r n c : shape A r n -> shape (K:=XR) B n c -> forall i j, (i < r)%nat -> (j < c)%nat ->
  mget (mmul A B) i j = xsum n (fun k => lift2 Rmult (mget A i k) (mget B k j)).
Proof.
  intros (Ar & Ac & Af) (Br & Bc & Bf) i j Hi Hj. unfold mmul, mget at 1. cbn [mcols_].
  rewrite nth_indep with (d' := mvmul A []) by (rewrite map_length; lia). rewrite (map_nth (mvmul A)).
  unfold mvmul. rewrite Ar. set (col := nth j (mcols_ B) []).
  rewrite nth_indep with (d' := (fun i => dot (mrow A i) col) 0%nat) by (rewrite map_length, seq_length; auto).
  rewrite (map_nth (fun i => dot (mrow A i) col)), seq_nth by auto. cbn [plus]. rewrite dot_xdot.
  assert (Lc : length col = n) by (rewrite Forall_forall in Bf; apply Bf; apply nth_In; lia).
  rewrite (xdot_sum _ _ n); [|rewrite mrow_length; exact Ac|exact Lc].
  unfold xsum. f_equal. apply map_ext_in. intros k Hk. apply in_seq in Hk. f_equal. unfold mrow, mget.
  rewrite nth_indep with (d' := (fun c => nth i c (Fin 0)) []) by (rewrite map_length; lia). rewrite (map_nth (fun c => nth i c (Fin 0))). reflexivity.
Qed.
