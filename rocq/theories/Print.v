(** Proofs about toString. *)
From Coq Require Import List Arith Ascii String Bool Lia.
From Verif Require Import Base Scalar Vec Model_Manifold Model_Text Model_Print Spec SpecPrint Layout Comp Flat.
Import ListNotations.
Local Open Scope string_scope.

Lemma sapp_assoc (a b c : string) : (a ++ b) ++ c = a ++ b ++ c.
Proof. induction a; cbn; congruence. Qed.
Lemma sapp_nil (a : string) : a ++ "" = a.
Proof. induction a; cbn; congruence. Qed.

Section Print.
Context {K : Type} {SK : Scalar K}.
Variable fmt : list (list K) -> string.
Implicit Types (m : mfd K) (subs : list (mfd K)).

Lemma raw_read_ok {A} n (x : list A) : n <= List.length x -> raw_read n x = Ok (firstn n x).
Proof. intros H. unfold raw_read. apply Nat.leb_le in H. rewrite H. reflexivity. Qed.


Lemma toString_leaf h l a b x p : wf (Leaf h l a b) -> List.length x = h_rdim h -> toString fmt (Leaf h l a b) x p = Ok (p ++ shown fmt (Leaf h l a b) x).
Proof.
  intros H Hx. inversion H as [? ? ? ? L|]; subst. destruct l as [| |[]]; cbn [toString]; try reflexivity; cbn [leaf_wf] in L; decompose [and] L.
  - do 10 (destruct x as [|? x]; cbn [List.length] in *; try lia). unfold m3_read. rewrite raw_read_ok by (cbn; lia). cbn [bind firstn a00 a01 a02 a10 a11 a12 a20 a21 a22]. rewrite sapp_assoc. reflexivity.
  - do 5 (destruct x as [|? x]; cbn [List.length] in *; try lia). rewrite raw_read_ok by (cbn; lia). cbn [bind firstn map]. rewrite sapp_assoc. reflexivity.
Qed.

Lemma join_unlines ts : join endl ts = unlines ts.
Proof. induction ts as [|t [|t' ts] IH]; cbn [join unlines] in *; try reflexivity. rewrite IH. reflexivity. Qed.
Lemma join_cons sep t ts : join sep (t :: ts) = t ++ match ts with [] => "" | _ => sep ++ join sep ts end.
Proof. destruct ts; cbn [join]; [rewrite sapp_nil|]; reflexivity. Qed.
Lemma join_app sep a b : a <> [] -> b <> [] -> join sep (a ++ b)%list = join sep a ++ sep ++ join sep b.
Proof.
  intros Ha Hb. induction a as [|t a IH]; [congruence|]. destruct a as [|t' a].
  - cbn [app join]. destruct b; [congruence|]. reflexivity.
  - change ((t :: t' :: a) ++ b)%list with (t :: (t' :: a) ++ b)%list. rewrite join_cons. change ((t' :: a) ++ b)%list with (t' :: (a ++ b))%list at 1. cbv iota.
    rewrite IH by discriminate. cbn [join]. rewrite !sapp_assoc. reflexivity.
Qed.
Lemma join_concat sep tss : Forall (fun ts => ts <> []) tss -> join sep (map (join sep) tss) = join sep (List.concat tss).
Proof.
  induction tss as [|ts tss IH]; intros H; [reflexivity|]. inversion H; subst. cbn [map List.concat]. rewrite join_cons, IH by auto.
  destruct tss as [|ts' tss]; cbn [map List.concat]; [rewrite app_nil_r, sapp_nil; reflexivity|]. symmetry. apply join_app; auto.
  inversion H3; subst. destruct ts'; [congruence|discriminate].
Qed.

Lemma toString_loop h sT sR subs xs p : wf (Prod h sT sR subs) -> pieces DR subs xs -> forall post ys ts, Forall3 (fun s y t => toString fmt s y (p ++ "  ") = Ok t) post ys ts ->
  forall pre zs acc, subs = (pre ++ post)%list -> xs = (zs ++ ys)%list -> List.length zs = List.length pre ->
  loop (fun i s ss => vi <- getView DR (Prod h sT sR subs) (List.concat xs) i ;; t <- toString fmt s vi (p ++ "  ") ;; Ok ((ss ++ t) ++ (if Nat.ltb i (List.length subs - 1) then endl else "")))
    (List.length pre) post acc = Ok (acc ++ join endl ts).
Proof.
  intros Hw Hp post ys ts HF. induction HF as [|s y t post ys ts Ht HF IH]; intros pre zs acc Es Ex El.
  - cbn. rewrite sapp_nil. reflexivity.
  - cbn [loop]. rewrite getView_nth by (auto; rewrite Es, app_length; cbn; lia). rewrite Ex, app_nth2 by lia. rewrite <- El, Nat.sub_diag. cbn [nth bind]. rewrite Ht. cbn [bind].
    replace (S (List.length zs)) with (List.length (pre ++ [s])%list) by (rewrite app_length; cbn; lia).
    rewrite <- Ex. erewrite IH with (zs := (zs ++ [y])%list); [|rewrite Es, <- app_assoc; reflexivity|rewrite Ex, <- app_assoc; reflexivity|rewrite !app_length; cbn; lia].
    f_equal. rewrite join_cons, !sapp_assoc. f_equal. f_equal. rewrite El, Es, app_length. cbn [List.length].
    inversion HF; subst.
    + replace (Nat.ltb _ _) with false by (symmetry; apply Nat.ltb_ge; cbn; lia). reflexivity.
    + replace (Nat.ltb _ _) with true by (symmetry; apply Nat.ltb_lt; cbn; lia). reflexivity.
Qed.
Lemma toString_prod h sT sR subs xs ts p : wf (Prod h sT sR subs) -> pieces DR subs xs -> Forall3 (fun s y t => toString fmt s y (p ++ "  ") = Ok t) subs xs ts ->
  toString fmt (Prod h sT sR subs) (List.concat xs) p = Ok (join endl ts).
Proof. intros Hw Hp HF. cbn [toString]. apply (toString_loop h sT sR subs xs p Hw Hp subs xs ts HF [] [] ""); auto. Qed.

Lemma toString_total m : wf m -> forall v p, List.length v = representationDim m -> exists t, toString fmt m v p = Ok t.
Proof.
  induction m as [h l a b|h sT sR subs IH] using mfd_ind'; intros H v p Hv.
  - eexists. apply toString_leaf; auto.
  - change (representationDim (Prod h sT sR subs)) with (getDim DR (Prod h sT sR subs)) in Hv. rewrite (wf_prod_getDim DR _ _ _ _ H) in Hv. destruct (cut_pieces DR subs v Hv) as (xs & -> & Hp).
    assert (HT : exists ts, Forall3 (fun s y t => toString fmt s y (p ++ "  ") = Ok t) subs xs ts).
    { inversion H as [|? ? ? ? _ _ _ _ _ Hs]; subst. clear - IH Hs Hp. revert IH Hs. induction Hp as [|s x ss xs Hx Hp IHp]; intros IH Hs; [exists []; constructor|].
      inversion IH; subst. inversion Hs; subst. destruct IHp as (ts & Hts); auto. destruct (H1 H3 x (p ++ "  ")) as (t & Et); auto. exists (t :: ts). constructor; auto. }
    destruct HT as (ts & HT). eexists. apply toString_prod; eauto.
Qed.
Lemma toString_refused h sT sR subs v p : subs <> [] -> List.length v <> h_rdim h -> toString fmt (Prod h sT sR subs) v p = Fail EAssert.
Proof.
  intros Hs Hv. cbn [toString]. destruct subs as [|s subs]; [congruence|]. cbn [loop]. unfold getView, view_range. cbn [numberOfSubManifolds List.length]. cbn [Nat.ltb Nat.leb mnf_assert bind].
  apply Nat.eqb_neq in Hv. unfold getDim, representationDim. cbn [hdr_of]. rewrite Hv. reflexivity.
Qed.

(** ** The text in terms of the leaves *)
Lemma depths_length d m : List.length (depths d m) = List.length (leaves m).
Proof.
  revert d. induction m as [h l a b|h sT sR subs IH] using mfd_ind'; intros d; [reflexivity|]. cbn [depths leaves].
  induction IH as [|s ss Hs _ IHss]; cbn [flat_map]; [reflexivity|]. rewrite !app_length, IHss, Hs. reflexivity.
Qed.
Lemma texts_app p ds ms xs ds' ms' xs' : List.length ds = List.length ms -> List.length xs = List.length ms ->
  texts fmt p (ds ++ ds') (ms ++ ms') (xs ++ xs') = (texts fmt p ds ms xs ++ texts fmt p ds' ms' xs')%list.
Proof.
  revert ms xs. induction ds as [|d ds IH]; intros [|m ms] [|x xs] E1 E2; cbn in E1, E2; try lia; [reflexivity|]. cbn [app texts]. f_equal. apply IH; lia.
Qed.
Lemma spaces_add a b : spaces (a + b) = spaces a ++ spaces b.
Proof. induction a; cbn; congruence. Qed.
Lemma toString_lines m : wf m -> no_empty m -> forall d xs p, pieces DR (leaves m) xs ->
  toString fmt m (List.concat xs) (p ++ spaces (2 * d)) = Ok (unlines (texts fmt p (depths d m) (leaves m) xs)).
Proof.
  induction m as [h l a b|h sT sR subs IH] using mfd_ind'; intros H Hn d xs p Hp.
  - cbn [leaves] in Hp. inversion Hp as [|? x ? ? Hx Hr]; subst. inversion Hr; subst. cbn [List.concat depths leaves texts unlines]. rewrite app_nil_r. rewrite toString_leaf by auto. rewrite sapp_assoc. reflexivity.
  - inversion H as [|? ? ? ? _ _ _ _ _ Hs]; subst. cbn [leaves] in Hp. destruct (regroup DR subs xs Hs Hp) as (xss & -> & H1 & H2 & H3). rewrite H3.
    assert (HT : exists tss, Forall3 (fun s y t => toString fmt s y ((p ++ spaces (2 * d)) ++ "  ") = Ok t) subs (map (@List.concat K) xss) (map (join endl) tss) /\
              Forall (fun ts => ts <> []) tss /\ List.concat tss = texts fmt p (flat_map (depths (S d)) subs) (flat_map leaves subs) (List.concat xss)).
    { cbn [no_empty] in Hn. clear - IH Hs H1 Hn. revert IH Hs Hn. induction H1 as [|s zs ss xss Hz H1 IH1]; intros IH Hs Hn; [exists []; repeat split; constructor|].
      inversion IH; subst. inversion Hs; subst. cbn [fold_right] in Hn. destruct Hn as (Nl & Ns & Hn). destruct IH1 as (tss & T1 & T2 & T3); auto.
      pose proof (H2 H4 Ns (S d) zs p Hz) as G. replace (2 * S d) with (2 * d + 2) in G by lia. rewrite spaces_add, <- sapp_assoc in G. change (spaces 2) with "  " in G.
      exists (texts fmt p (depths (S d) s) (leaves s) zs :: tss). repeat split.
      - cbn [map]. constructor; auto. rewrite join_unlines; exact G.
      - constructor; auto. pose proof (depths_length (S d) s) as L. pose proof (pieces_len _ _ _ Hz) as L'. destruct (leaves s), (depths (S d) s), zs; cbn in L, L'; try discriminate. congruence.
      - cbn [List.concat flat_map]. rewrite T3. symmetry. apply texts_app; [apply depths_length|apply (pieces_len _ _ _ Hz)]. }
    destruct HT as (tss & T1 & T2 & T3). rewrite (toString_prod h sT sR subs _ (map (join endl) tss)); auto. cbn [depths leaves]. rewrite <- T3, join_concat, join_unlines; auto.
Qed.

(** ** Brackets *)
Lemma count_app c a b : count c (a ++ b) = count c a + count c b.
Proof. induction a; cbn; lia. Qed.
Lemma count_join c sep ts : count c sep = 0 -> count c (join sep ts) = sum_list (map (count c) ts).
Proof.
  intros H. induction ts as [|t ts IH]; [reflexivity|]. rewrite join_cons, count_app. cbn [map]. change (sum_list (?a :: ?l)) with (a + sum_list l). destruct ts; [reflexivity|]. rewrite count_app, IH, H. reflexivity.
Qed.
End Print.

Section Brackets.
Context {K : Type} {SK : Scalar K}.
Variable cell : list (list K) -> K -> string.
Hypothesis Hcell : forall M c, count "[" (cell M c) = 0 /\ count "]" (cell M c) = 0.
Lemma default_brackets (M : list (list K)) : count "[" (default_format cell M) = List.length M /\ count "]" (default_format cell M) = List.length M.
Proof.
  unfold default_format. generalize (cell M) (Hcell M). intros f Hf. split; rewrite count_join by reflexivity; rewrite map_map.
  - transitivity (sum_list (map (fun _ : list K => 1) M)); [|clear; induction M; cbn; auto]. f_equal. apply map_ext. intros r. rewrite !count_app, count_join by reflexivity.
    rewrite map_map. replace (sum_list _) with 0; [reflexivity|]. induction r as [|a r IH]; [reflexivity|]. cbn. rewrite (proj1 (Hf a)). exact IH.
  - transitivity (sum_list (map (fun _ : list K => 1) M)); [|clear; induction M; cbn; auto]. f_equal. apply map_ext. intros r. rewrite !count_app, count_join by reflexivity.
    rewrite map_map. replace (sum_list _) with 0; [reflexivity|]. induction r as [|a r IH]; [reflexivity|]. cbn. rewrite (proj2 (Hf a)). exact IH.
Qed.
Lemma toString_brackets (m : mfd K) : wf m -> forall v p, count "[" p = 0 -> count "]" p = 0 -> List.length v = representationDim m ->
  exists t, toString (default_format cell) m v p = Ok t /\ count "[" t = count "]" t + rotations m.
Proof.
  induction m as [h l a b|h sT sR subs IH] using mfd_ind'; intros H v p P1 P2 Hv.
  - eexists. split; [apply toString_leaf; auto|]. rewrite !count_app, P1, P2. unfold representationDim in Hv. cbn [hdr_of] in Hv. inversion H as [? ? ? ? L|]; subst.
    assert (G : forall M, count "[" ("[" ++ default_format cell M) = count "]" ("[" ++ default_format cell M) + 1).
    { intros M. rewrite !count_app. destruct (default_brackets M) as [-> ->]. cbn. lia. }
    destruct l as [| |[]]; cbn [leaf_wf] in L; decompose [and] L.
    + cbn [shown]. destruct (default_brackets [v]) as [-> ->]. reflexivity.
    + cbn [shown]. destruct (default_brackets [v]) as [-> ->]. reflexivity.
    + do 10 (destruct v as [|? v]; cbn [List.length] in *; try lia). cbn [shown]. apply G.
    + do 5 (destruct v as [|? v]; cbn [List.length] in *; try lia). cbn [shown]. apply G.
  - change (representationDim (Prod h sT sR subs)) with (getDim DR (Prod h sT sR subs)) in Hv. rewrite (wf_prod_getDim DR _ _ _ _ H) in Hv. destruct (cut_pieces DR subs v Hv) as (xs & -> & Hp).
    assert (HT : exists ts, Forall3 (fun s y t => toString (default_format cell) s y (p ++ "  ") = Ok t) subs xs ts /\
               sum_list (map (count "[") ts) = sum_list (map (count "]") ts) + List.length (filter is_rotation (flat_map leaves subs))).
    { inversion H as [|? ? ? ? _ _ _ _ _ Hs]; subst. clear - IH Hs Hp P1 P2. revert IH Hs. induction Hp as [|s x ss xs Hx Hp IHp]; intros IH Hs; [exists []; split; [constructor|reflexivity]|].
      inversion IH; subst. inversion Hs; subst. destruct IHp as (ts & Hts & E); auto. destruct (H1 H3 x (p ++ "  ")) as (t & Et & E'); auto; try (rewrite count_app, ?P1, ?P2; reflexivity).
      exists (t :: ts). split; [constructor; auto|]. cbn [map flat_map]. change (sum_list (?a :: ?l)) with (a + sum_list l). rewrite filter_app, app_length. unfold rotations in E'. lia. }
    destruct HT as (ts & HT & E). eexists. split; [apply toString_prod; eauto|]. rewrite !count_join by reflexivity. exact E.
Qed.
End Brackets.

(** Line by line, in the default format. *)
Section Lines.
Context {K : Type}.
Variable cell : list (list K) -> K -> string.
Lemma join_commas ts : join ", " ts = commas ts.
Proof. induction ts as [|t [|t' ts] IH]; auto. change (t ++ ", " ++ join ", " (t' :: ts) = t ++ String "," (String " " (commas (t' :: ts)))). rewrite IH. reflexivity. Qed.
Lemma unlines_head h l ls : h ++ unlines (l :: ls) = unlines ((h ++ l) :: ls).
Proof. destruct ls as [|a ls]; [reflexivity|]. change (h ++ (l ++ String (ascii_of_nat 10) (unlines (a :: ls))) = (h ++ l) ++ String (ascii_of_nat 10) (unlines (a :: ls))). rewrite sapp_assoc. reflexivity. Qed.
Lemma unlines_flat ls ts : ls <> [] -> unlines (unlines ls :: ts) = unlines (ls ++ ts).
Proof.
  induction ls as [|l [|l' ls] IH]; intros N; [congruence|reflexivity|]. specialize (IH ltac:(discriminate)).
  change ((l :: l' :: ls) ++ ts)%list with (l :: ((l' :: ls) ++ ts))%list. destruct ts as [|t ts]; [rewrite app_nil_r; reflexivity|].
  change (((l ++ String (ascii_of_nat 10) (unlines (l' :: ls))) ++ String (ascii_of_nat 10) (unlines (t :: ts))) = l ++ String (ascii_of_nat 10) (unlines ((l' :: ls) ++ t :: ts))). rewrite <- IH.
  rewrite sapp_assoc. reflexivity.
Qed.
Lemma shown_lines head (m : mfd K) x : head ++ shown (default_format cell) m x = unlines (entry_lines cell head m x) /\ entry_lines cell head m x <> [].
Proof.
  assert (G : forall M, default_format cell M = unlines (map (fun r => "[" ++ commas (map (cell M) r) ++ "]") M)).
  { intros M. unfold default_format. rewrite join_unlines. f_equal. apply map_ext. intros r. rewrite join_commas. reflexivity. }
  assert (R : shown (default_format cell) m x = fst (rows_of m x) ++ default_format cell (snd (rows_of m x)) /\ snd (rows_of m x) <> []).
  { unfold rows_of, shown. destruct m as [h [| |[|]] a b|]; try (split; [reflexivity|discriminate]).
    - destruct x as [|x0 [|x1 [|x2 [|x3 [|x4 [|x5 [|x6 [|x7 [|x8 [|]]]]]]]]]]; split; try reflexivity; discriminate.
    - destruct x as [|x0 [|x1 [|x2 [|x3 [|]]]]]; split; try reflexivity; discriminate. }
  destruct R as [R1 R2]. rewrite R1, G. unfold entry_lines. destruct (rows_of m x) as [b [|r rs]]; [cbn in R2; congruence|]. cbn [fst snd map]. split; [|discriminate].
  rewrite <- sapp_assoc, unlines_head, sapp_assoc. reflexivity.
Qed.
Lemma unlines_cons t ts ts' : unlines ts = unlines ts' -> (ts = [] <-> ts' = []) -> unlines (t :: ts) = unlines (t :: ts').
Proof.
  intros E [I J]. destruct ts as [|a ts], ts' as [|b ts']; try reflexivity; [discriminate I; reflexivity|discriminate J; reflexivity|].
  change (t ++ String (ascii_of_nat 10) (unlines (a :: ts)) = t ++ String (ascii_of_nat 10) (unlines (b :: ts'))). rewrite E. reflexivity.
Qed.
Lemma texts_lines p ds (ms : list (mfd K)) xs : unlines (texts (default_format cell) p ds ms xs) = unlines (all_lines cell p ds ms xs) /\ (texts (default_format cell) p ds ms xs = [] <-> all_lines cell p ds ms xs = []).
Proof.
  revert ms xs. induction ds as [|d ds IH]; intros [|m ms] [|x xs]; try (split; [reflexivity|tauto]). cbn [texts all_lines]. destruct (IH ms xs) as [E N].
  destruct (shown_lines (p ++ spaces (2 * d)) m x) as [E1 N1]. rewrite <- sapp_assoc, E1. split.
  - rewrite (unlines_cons _ _ _ E N). apply unlines_flat, N1.
  - split; intros H; [discriminate|]. apply app_eq_nil in H. tauto.
Qed.
End Lines.
