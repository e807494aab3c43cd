(** C42: names and descriptions. *)
From Coq Require Import List Arith Ascii String Bool ZArith Lia.
From Verif Require Import Base Scalar Model_Real Model_Manifold Model_Text Spec Layout.
Import ListNotations.
Local Open Scope string_scope.

(** ** Specification *)

(** The lines of a picture: depth, and a bracket or the name of an elementary manifold. *)
Inductive item := Opening | Closing | Name (n : string).
Definition line := (nat * item)%type.
Fixpoint bars (d : nat) : string := match d with O => "" | S d' => "| " ++ bars d' end.
Definition item_text (i : item) : string :=
  match i with Opening => "/cartprod--------------------------" | Closing => "\----------------------------------" | Name n => n end.
(** The text of a line: the prefix, the bars of the enclosing brackets, the item. *)
Definition render (prefix : string) (l : line) : string := prefix ++ bars (fst l) ++ item_text (snd l).
Definition newline : ascii := ascii_of_nat 10.
Fixpoint print (prefix : string) (ls : list line) : string :=
  match ls with [] => "" | l :: ls' => render prefix l ++ String newline (print prefix ls') end.
(** Brackets match, and every line is under as many bars as there are open brackets. *)
Inductive balanced : nat -> list line -> Prop :=
| bal_nil d : balanced d []
| bal_name d n rest : balanced d rest -> balanced d ((d, Name n) :: rest)
| bal_group d inner rest : balanced (S d) inner -> balanced d rest -> balanced d ((d, Opening) :: inner ++ (d, Closing) :: rest).
Definition item_name (l : line) : list string := match snd l with Name n => [n] | _ => [] end.
Definition names (ls : list line) : list string := flat_map item_name ls.
(** Lines of a text: the maximal newline-free pieces, each ended by a newline. *)
Fixpoint split_lines (cur : string) (t : string) : list string :=
  match t with
  | EmptyString => match cur with EmptyString => [] | _ => [cur] end
  | String c t' => if Ascii.eqb c newline then cur :: split_lines "" t' else split_lines (cur ++ String c "") t'
  end.
Fixpoint has (c : ascii) (t : string) : Prop := match t with EmptyString => False | String c' t' => c = c' \/ has c t' end.
(** A name which cannot be taken for a bar or a bracket. *)
Definition plain (n : string) : Prop :=
  ~ has newline n /\ match n with String c _ => c <> "|"%char /\ c <> "/"%char /\ c <> "\"%char | EmptyString => True end.

Section Any.
Context {K : Type}.
Implicit Types (m : mfd K) (fs : list (mfd K)).

(** Same nesting, same names of the elementary manifolds in the same places. *)
Inductive same_shape : mfd K -> mfd K -> Prop :=
| shape_leaf h l a b h' l' a' b' : h_name h = h_name h' -> same_shape (Leaf h l a b) (Leaf h' l' a' b')
| shape_prod h sT sR ms h' sT' sR' ms' : Forall2 same_shape ms ms' -> same_shape (Prod h sT sR ms) (Prod h' sT' sR' ms').

(** ** Strings *)
Lemma sapp_assoc (a b c : string) : (a ++ b) ++ c = a ++ b ++ c.
Proof. induction a; cbn; congruence. Qed.
Lemma sapp_nil (a : string) : a ++ "" = a.
Proof. induction a; cbn; congruence. Qed.
Lemma sapp_inj (a b c : string) : a ++ b = a ++ c -> b = c.
Proof. induction a; cbn; auto. intros H. injection H. auto. Qed.
Lemma has_app c (a b : string) : has c (a ++ b) <-> has c a \/ has c b.
Proof. induction a; cbn; tauto. Qed.
Lemma split_go (a : string) : ~ has newline a -> forall cur t, split_lines cur (a ++ String newline t) = (cur ++ a) :: split_lines "" t.
Proof.
  induction a as [|c a IH]; intros N cur t; cbn [append split_lines].
  - rewrite sapp_nil. replace (Ascii.eqb newline newline) with true by (symmetry; apply Ascii.eqb_eq; reflexivity). reflexivity.
  - cbn in N. destruct (Ascii.eqb_spec c newline) as [->|]; [tauto|]. rewrite IH by tauto. rewrite sapp_assoc. reflexivity.
Qed.
Lemma bars_snoc d : bars d ++ "| " = bars (S d).
Proof. induction d; [reflexivity|]. cbn [bars append] in *. rewrite IHd. reflexivity. Qed.
Lemma print_app prefix a b : print prefix (a ++ b) = print prefix a ++ print prefix b.
Proof. induction a; cbn; auto. rewrite IHa. rewrite sapp_assoc. reflexivity. Qed.

(** ** The lines of a manifold *)
Fixpoint picture (d : nat) m : list line :=
  match m with
  | Leaf h _ _ _ => [(d, Name (h_name h))]
  | Prod _ _ _ subs => (d, Opening) :: flat_map (picture (S d)) subs ++ [(d, Closing)]
  end.
Lemma one_line prefix d t : prefix ++ (bars d ++ t) ++ endl = (prefix ++ bars d ++ t) ++ String newline "".
Proof. rewrite !sapp_assoc. reflexivity. Qed.
(** The body of a product under [d] bars. *)
Lemma body prefix h sT sR subs : Forall (fun m => forall d, match m with Prod _ _ _ ms => description_in m (prefix ++ bars d) = print prefix (flat_map (picture d) ms) | _ => True end) subs ->
  forall d, description_in (Prod h sT sR subs) (prefix ++ bars d) = print prefix (flat_map (picture d) subs).
Proof.
  intros H d. cbn [description_in].
  enough (G : forall ss, fold_left (fun ss s => if isElementary s then ss ++ description_elem s (prefix ++ bars d)
      else ((ss ++ (prefix ++ bars d) ++ bra ++ endl) ++ description_in s ((prefix ++ bars d) ++ "| ")) ++ (prefix ++ bars d) ++ ket ++ endl) subs ss = ss ++ print prefix (flat_map (picture d) subs)) by (apply G).
  induction H as [|m subs Hm H IH]; intros ss; cbn [fold_left flat_map].
  - rewrite sapp_nil. reflexivity.
  - rewrite IH, print_app, <- (sapp_assoc ss (print prefix (picture d m))). apply (f_equal (fun t => t ++ _)). destruct m as [h' l a b|h' sT' sR' ms]; cbn [isElementary].
    + unfold description_elem, name. cbn [hdr_of picture print]. unfold render. cbn [fst snd item_text append]. rewrite !sapp_assoc. reflexivity.
    + rewrite (sapp_assoc prefix (bars d) "| "), bars_snoc, (Hm (S d)). cbn [picture print]. rewrite print_app. cbn [print]. unfold render. cbn [fst snd item_text]. unfold bra, ket, endl.
      fold newline. rewrite !sapp_assoc. reflexivity.
Qed.
Lemma body_all prefix m : forall d, match m with Prod _ _ _ ms => description_in m (prefix ++ bars d) = print prefix (flat_map (picture d) ms) | _ => True end.
Proof. induction m as [|h sT sR subs IH] using mfd_ind'; intros d; auto. apply body. auto. Qed.
Lemma description_picture m prefix : description m prefix true = print prefix (picture 0 m).
Proof.
  destruct m as [h l a b|h sT sR subs]; cbn [description].
  - unfold description_elem, name. cbn [hdr_of picture print]. unfold render. cbn [fst snd item_text bars append]. rewrite !sapp_assoc. reflexivity.
  - change "| " with (bars 1). rewrite (body_all prefix (Prod h sT sR subs) 1). cbn [picture print]. rewrite print_app. cbn [print]. unfold render. cbn [fst snd item_text bars append].
    unfold bra, ket, endl. fold newline. rewrite !sapp_assoc. reflexivity.
Qed.

Lemma balanced_app d a b : balanced d a -> balanced d b -> balanced d (a ++ b).
Proof.
  intros A B. induction A; cbn; auto; [constructor; auto|]. rewrite <- app_assoc. cbn. constructor; auto.
Qed.
Lemma picture_balanced m : forall d, balanced d (picture d m).
Proof.
  induction m as [h l a b|h sT sR subs IH] using mfd_ind'; intros d; cbn [picture].
  - repeat constructor.
  - apply bal_group; [|constructor]. induction IH as [|m subs Hm IH' IHs]; cbn [flat_map]; [constructor|]. apply balanced_app; auto.
Qed.
Lemma names_app a b : names (a ++ b) = (names a ++ names b)%list.
Proof. apply flat_map_app. Qed.
Lemma picture_names m : forall d, names (picture d m) = map name (leaves m).
Proof.
  induction m as [h l a b|h sT sR subs IH] using mfd_ind'; intros d; cbn [picture]; auto.
  change (names (flat_map (picture (S d)) subs ++ [(d, Closing)]) = map name (leaves (Prod h sT sR subs))). rewrite names_app. cbn [names flat_map item_name snd leaves app]. rewrite app_nil_r.
  induction IH as [|m subs Hm IH' IHs]; cbn [flat_map]; auto. rewrite names_app, map_app, Hm, IHs. reflexivity.
Qed.

(** ** C42: descriptions *)

(** For all trees and prefixes: the description is a sequence of lines which all start with the prefix,
    properly bracketed, with one line for each elementary manifold, in order, bearing its name. *)
Theorem C42_description : forall m prefix, exists ls,
  description m prefix true = print prefix ls /\ balanced 0 ls /\ names ls = map name (leaves m).
Proof. intros m prefix. exists (picture 0 m). split; [apply description_picture|]. split; [apply picture_balanced|apply picture_names]. Qed.
(** When no name and no prefix contains a newline these are the lines of the text. *)
Theorem C42_lines : forall m prefix, ~ has newline prefix -> (forall m', In m' (leaves m) -> ~ has newline (name m')) -> exists ls,
  split_lines "" (description m prefix true) = map (render prefix) ls /\ balanced 0 ls /\ names ls = map name (leaves m).
Proof.
  intros m prefix Np Nm. exists (picture 0 m). rewrite description_picture. split; [|split; [apply picture_balanced|apply picture_names]].
  assert (N : Forall (fun n => ~ has newline n) (names (picture 0 m))).
  { rewrite picture_names. apply Forall_forall. intros n Hn. apply in_map_iff in Hn as (m' & <- & Hm). auto. }
  revert N. generalize (picture 0 m). induction l as [|[d i] l IH]; intros N; auto. cbn [print map].
  assert (N1 : ~ has newline (item_text i)).
  { destruct i; cbn in N |- *; [| |inversion N; auto]; intuition discriminate. }
  rewrite split_go.
  - rewrite IH; [reflexivity|]. cbn in N. apply Forall_app in N. tauto.
  - unfold render. cbn [fst snd]. rewrite !has_app. intros [H|[H|H]]; auto. clear - H. induction d; cbn in H; intuition discriminate.
Qed.

(** The description determines the structure: two manifolds with the same description (for one prefix)
    have the same nesting and the same names, provided that names cannot be taken for brackets. *)
Lemma end_of_name (a b t u : string) : ~ has newline a -> ~ has newline b -> a ++ String newline t = b ++ String newline u -> a = b /\ t = u.
Proof.
  revert b. induction a as [|c a IH]; intros [|c' b] Na Nb E; cbn in *; injection E; intros; subst; auto; try tauto.
  destruct (IH b); auto. subst. auto.
Qed.
Definition plain_item (i : item) := match i with Name n => plain n | _ => True end.
Lemma item_line i i' (t u : string) : plain_item i -> plain_item i' -> item_text i ++ String newline t = item_text i' ++ String newline u -> i = i' /\ t = u.
Proof.
  intros P P' E. destruct i as [| |n], i' as [| |n']; cbn [item_text plain_item] in *.
  1, 5: apply sapp_inj in E; injection E as ->; auto.
  1, 3: discriminate.
  1, 2: destruct P' as [P1 P2], n'; [discriminate|]; injection E as <- _; tauto.
  1, 2: destruct P as [P1 P2], n; [discriminate|]; injection E as -> _; tauto.
  apply end_of_name in E as [-> ->]; [auto|apply P|apply P'].
Qed.
Lemma render_line d d' i i' (t u : string) : plain_item i -> plain_item i' -> (bars d ++ item_text i) ++ String newline t = (bars d' ++ item_text i') ++ String newline u -> d = d' /\ i = i' /\ t = u.
Proof.
  assert (B : forall d i (t u : string), plain_item i -> item_text i ++ String newline t = (bars (S d) ++ u) -> False).
  { clear. intros d [| |n] t u P E; cbn in *; try discriminate. destruct P as [P1 P2], n; cbn in E; [discriminate|]. injection E as -> _. tauto. }
  intros P P'. revert d'. induction d as [|d IH]; intros [|d'] E.
  - apply item_line in E as [-> ->]; auto.
  - exfalso. rewrite (sapp_assoc (bars (S d'))) in E. apply (B d' i t (item_text i' ++ String newline u) P E).
  - exfalso. rewrite (sapp_assoc (bars (S d))) in E. symmetry in E. apply (B d i' u (item_text i ++ String newline t) P' E).
  - cbn in E. injection E as E. destruct (IH d' E) as (-> & -> & ->). auto.
Qed.
Lemma print_inj prefix a : forall b, Forall (fun l => plain_item (snd l)) a -> Forall (fun l => plain_item (snd l)) b -> print prefix a = print prefix b -> a = b.
Proof.
  induction a as [|[d i] a IH]; intros [|[d' i'] b] A B E; auto; cbn [print] in E.
  - destruct (render prefix (d', i')); discriminate.
  - destruct (render prefix (d, i)); discriminate.
  - inversion A; inversion B; subst. unfold render in E. cbn [fst snd] in *. rewrite !(sapp_assoc prefix) in E. apply sapp_inj in E. apply render_line in E as (-> & -> & E); auto. f_equal. auto.
Qed.
Lemma picture_head d m : exists i r, picture d m = (d, i) :: r /\ i <> Closing.
Proof. destruct m; cbn; do 2 eexists; split; try reflexivity; discriminate. Qed.
Lemma picture_inj m : forall d m' (r r' : list line), (picture d m ++ r = picture d m' ++ r')%list -> same_shape m m' /\ r = r'.
Proof.
  induction m as [h l a b|h sT sR subs IH] using mfd_ind'; intros d [h' l' a' b'|h' sT' sR' subs'] r r' E; cbn [picture app] in E; try discriminate.
  - injection E as E ->. split; auto. constructor; auto.
  - injection E as E. rewrite <- !app_assoc in E. cbn [app] in E. enough (G : Forall2 same_shape subs subs' /\ r = r') by (destruct G; split; auto; constructor; auto).
    revert subs' E. induction IH as [|m subs Hm IH' IHs]; intros [|m' subs'] E; cbn [flat_map app] in E.
    + injection E as ->. split; auto.
    + exfalso. destruct (picture_head (S d) m') as (i & q & Eq & _). rewrite Eq in E. cbn in E. injection E as E _. lia.
    + exfalso. destruct (picture_head (S d) m) as (i & q & Eq & _). rewrite Eq in E. cbn in E. injection E as E _. lia.
    + rewrite <- !app_assoc in E. apply Hm in E as [S1 E]. apply IHs in E as [S2 E]. split; auto.
Qed.
Lemma picture_plain m d : (forall m', In m' (leaves m) -> plain (name m')) -> Forall (fun l => plain_item (snd l)) (picture d m).
Proof.
  intros P. assert (N : Forall plain (names (picture d m))).
  { rewrite picture_names. apply Forall_forall. intros n Hn. apply in_map_iff in Hn as (m' & <- & Hm). auto. }
  revert N. generalize (picture d m). induction l as [|[d' i] l IH]; intros N; constructor.
  - destruct i; cbn in N |- *; auto. inversion N; auto.
  - apply IH. cbn in N. apply Forall_app in N. tauto.
Qed.
Theorem C42_structure : forall m m' prefix, (forall x, In x (leaves m) -> plain (name x)) -> (forall x, In x (leaves m') -> plain (name x)) ->
  description m prefix true = description m' prefix true -> same_shape m m'.
Proof.
  intros m m' prefix P P' E. rewrite !description_picture in E. apply print_inj in E; auto using picture_plain.
  apply (picture_inj m 0 m' [] []). rewrite !app_nil_r. exact E.
Qed.

(** ** C42: names *)

(** [p] is an empty product multiplied, in order, by [fs] (multiply, or the initializer list constructor). *)
Inductive multiplied : mfd K -> list (mfd K) -> Prop :=
| mul_empty : multiplied prod_empty []
| mul_next p fs m p' : multiplied p fs -> multiply p m = Ok p' -> multiplied p' (fs ++ [m]).
Fixpoint join (l : list string) : string := match l with [] => "" | [n] => n | n :: l' => n ++ "x" ++ join l' end.

Lemma join_snoc l n : l <> [] -> join (l ++ [n]) = join l ++ "x" ++ n.
Proof.
  induction l as [|a l IH]; [congruence|]. intros _. destruct l as [|b l]; [reflexivity|].
  change (join ((a :: b :: l) ++ [n])) with (a ++ "x" ++ join ((b :: l) ++ [n])). rewrite IH by discriminate. cbn [join]. rewrite !sapp_assoc. reflexivity.
Qed.
Lemma multiplied_dim p fs : multiplied p fs -> dim p = sum_list (map dim fs).
Proof.
  induction 1 as [|p fs m p' H IH E]; [reflexivity|]. unfold multiply in E. destruct p as [|h sT sR subs]; [discriminate|].
  destruct (back sT); [|discriminate]. cbn [bind] in E. destruct (back sR); [|discriminate]. injection E as <-. unfold dim in *. cbn [hdr_of h_dim] in *.
  rewrite map_app. cbn [map]. unfold dim. rewrite IH. clear. induction (map (fun m => h_dim (hdr_of m)) fs); cbn in *; lia.
Qed.
Theorem C42_name : forall p fs, multiplied p fs -> Forall (fun m => 0 < dim m) fs -> name p = join (map name fs).
Proof.
  induction 1 as [|p fs m p' H IH E]; intros F; [reflexivity|]. apply Forall_app in F as [F _]. specialize (IH F). pose proof (multiplied_dim _ _ H) as D.
  unfold multiply in E. destruct p as [|h sT sR subs]; [discriminate|].
  destruct (back sT); [|discriminate]. cbn [bind] in E. destruct (back sR); [|discriminate]. injection E as <-. unfold name in *. cbn [hdr_of h_name] in *. rewrite map_app. cbn [map].
  destruct fs as [|f fs].
  - unfold dim in D. cbn [hdr_of map sum_list] in D. rewrite D. cbn [Nat.eqb]. rewrite IH. reflexivity.
  - inversion F; subst. unfold dim in D. cbn [hdr_of map sum_list] in D. destruct (Nat.eqb_spec (h_dim h) 0) as [Z|]; [unfold dim in *; lia|].
    rewrite join_snoc by discriminate. rewrite <- IH, sapp_assoc. reflexivity.
Qed.
(** In general the separator is only put after a positive dimension. *)
Theorem C42_name_exact : forall p fs m p', multiplied p fs -> multiply p m = Ok p' ->
  name p' = name p ++ (if (sum_list (map dim fs) =? 0)%nat then "" else "x") ++ name m.
Proof.
  intros p fs m p' H E. apply multiplied_dim in H as D. unfold multiply in E. destruct p as [|h sT sR subs]; [discriminate|].
  destruct (back sT); [|discriminate]. cbn [bind] in E. destruct (back sR); [|discriminate]. injection E as <-. unfold name, dim in *. cbn [hdr_of h_name] in *. rewrite <- D.
  destruct (h_dim h =? 0)%nat; [reflexivity|]. rewrite sapp_assoc. reflexivity.
Qed.
(** CartesianProduct(m1, m2): always with the separator; its multiply continues from that name. *)
Theorem C42_name_pair : forall m1 m2 p, prod2 m1 m2 = Ok p -> name p = name m1 ++ "x" ++ name m2.
Proof.
  intros m1 m2 p E. unfold prod2 in E. destruct (multiply prod_empty m1) as [p1|]; [|discriminate]. cbn [bind] in E. destruct (multiply p1 m2) as [p2|]; [|discriminate]. injection E as <-.
  destruct p2; reflexivity.
Qed.
Lemma multiplied_list l : forall p fs i q, multiplied p fs -> loop (fun _ m p => multiply p m) i l p = Ok q -> multiplied q (fs ++ l).
Proof.
  induction l as [|m l IH]; intros p fs i q H E; cbn [loop] in E.
  - injection E as <-. rewrite app_nil_r. auto.
  - destruct (multiply p m) as [p'|] eqn:Em; [|discriminate]. cbn [bind] in E. replace (fs ++ m :: l)%list with ((fs ++ [m]) ++ l)%list by (rewrite <- app_assoc; reflexivity).
    eapply IH; eauto. econstructor; eauto.
Qed.
(** The two other constructors. *)
Theorem C42_name_list : forall fs p, prod_of_list fs = Ok p -> Forall (fun m => 0 < dim m) fs -> name p = join (map name fs).
Proof. intros fs p E F. apply C42_name; auto. apply (multiplied_list fs prod_empty [] 0 p mul_empty E). Qed.
Theorem C42_name_power : forall m n p, power m n = Ok p -> 0 < dim m -> name p = join (repeat (name m) (Z.to_nat n)).
Proof.
  intros m n p E D. replace (repeat (name m) (Z.to_nat n)) with (map name (repeat m (Z.to_nat n))) by (clear; induction (Z.to_nat n); cbn; congruence). apply C42_name; [apply (multiplied_list _ prod_empty [] 0 p mul_empty E)|]. apply Forall_forall. intros x H. apply repeat_spec in H. subst. auto.
Qed.
End Any.

(** ** Examples *)
From Verif Require Import ExScalar.
Definition tR2 : mfd Z := Eval vm_compute in get prod_empty (mk_real 2).
Definition tR0 : mfd Z := Eval vm_compute in get prod_empty (mk_real 0).
Definition tS2 : mfd Z := Eval vm_compute in get prod_empty mk_s2.
Definition tP : mfd Z := Eval vm_compute in get prod_empty (prod_of_list [tR2; get prod_empty (prod_of_list [tS2; tR2]); tS2]).
Example ex_C42_name : multiplied tP [tR2; get prod_empty (prod_of_list [tS2; tR2]); tS2] /\ name tP = "R2xS2xR2xS2".
Proof. split; [apply (multiplied_list [tR2; get prod_empty (prod_of_list [tS2; tR2]); tS2] prod_empty [] 0 _ mul_empty); vm_compute; reflexivity|reflexivity]. Qed.
Example ex_C42_description : split_lines "" (description tP "> " true) =
  [ "> /cartprod--------------------------";
    "> | R2";
    "> | /cartprod--------------------------";
    "> | | S2";
    "> | | R2";
    "> | \----------------------------------";
    "> | S2";
    "> \----------------------------------" ].
Proof. vm_compute. reflexivity. Qed.
Example ex_C42_plain : forall x, In x (leaves tP) -> plain (name x).
Proof. intros x H. cbn in H. repeat (destruct H as [<-|H]; [split; [cbn; intuition discriminate|cbn; repeat split; discriminate]|]). tauto. Qed.
(** A factor of dimension 0 in front: the separator is missing. *)
Theorem C42_name_without_x : exists (fs : list (mfd Z)) p, Forall built fs /\ multiplied p fs /\ name p = "R0R2" /\ join (map name fs) = "R0xR2".
Proof.
  exists [tR0; tR2], (get prod_empty (prod_of_list [tR0; tR2])). split; [repeat constructor; [apply (built_real_mag 0 1%Z)|apply (built_real_mag 2 1%Z)]; reflexivity|].
  split; [apply (multiplied_list [tR0; tR2] prod_empty [] 0 _ mul_empty); vm_compute; reflexivity|]. split; reflexivity.
Qed.

Print Assumptions C42_description.
Print Assumptions C42_lines.
Print Assumptions C42_structure.
Print Assumptions C42_name.
Print Assumptions C42_name_exact.
Print Assumptions C42_name_pair.
Print Assumptions C42_name_list.
Print Assumptions C42_name_power.
Print Assumptions C42_name_without_x.
