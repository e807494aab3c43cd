(** C68: what the pictures of robots show (src/main.cpp). *)
From Coq Require Import List Arith Ascii String Bool ZArith Lia.
From Verif Require Import Base Vec Scalar Model_Real Model_Manifold Model_Text Model_Robot Spec Layout Properties_Text.
Import ListNotations.
Local Open Scope string_scope.

(** ** Specification *)

(** The lines of a picture with two kinds of frames ([true]: robot): the frames around the line, the
    outermost first, and a bracket or the name of an elementary manifold. *)
Inductive mark := Opens (k : bool) | Closes (k : bool) | Is (n : string).
Definition rline := (list bool * mark)%type.
Definition mark_text (i : mark) : string :=
  match i with
  | Opens true => "/robot+++++++++++++++++++++++++++++"
  | Opens false => "/cartprod--------------------------"
  | Closes true => "\++++++++++++++++++++++++++++++++++"
  | Closes false => "\----------------------------------"
  | Is n => n
  end.
Fixpoint margin (s : list bool) : string :=
  match s with [] => "" | k :: s' => (if k then "+ " else "| ") ++ margin s' end.
Definition rrender (prefix : string) (l : rline) : string := prefix ++ margin (fst l) ++ mark_text (snd l).
Fixpoint rprint (prefix : string) (ls : list rline) : string :=
  match ls with [] => "" | l :: ls' => rrender prefix l ++ String newline (rprint prefix ls') end.
(** Frames match in kind, and the margin of every line shows the open frames. *)
Inductive framed : list bool -> list rline -> Prop :=
| framed_nil s : framed s []
| framed_name s n rest : framed s rest -> framed s ((s, Is n) :: rest)
| framed_group s k inner rest : framed (s ++ [k]) inner -> framed s rest -> framed s ((s, Opens k) :: inner ++ (s, Closes k) :: rest).
Definition rnames (ls : list rline) : list string := flat_map (fun l => match snd l with Is n => [n] | _ => [] end) ls.
Definition opened (ls : list rline) : list bool := flat_map (fun l => match snd l with Opens k => [k] | _ => [] end) ls.
(** A name which cannot be taken for a margin or a bracket. *)
Definition rplain (n : string) : Prop :=
  ~ has newline n /\ match n with String c _ => c <> "|"%char /\ c <> "+"%char /\ c <> "/"%char /\ c <> "\"%char | EmptyString => True end.

Section Any.
Context {K : Type}.
Implicit Types (t : rmfd K) (m : mfd K).

Fixpoint rmfd_ind' (P : rmfd K -> Prop) (HL : forall h l a b, P (RLeaf h l a b))
  (HP : forall r h sT sR subs, Forall P subs -> P (RProd r h sT sR subs)) t {struct t} : P t :=
  match t with
  | RLeaf h l a b => HL h l a b
  | RProd r h sT sR subs => HP r h sT sR subs
      ((fix go (ts : list (rmfd K)) : Forall P ts := match ts with [] => Forall_nil _ | t :: ts' => Forall_cons _ (rmfd_ind' P HL HP t) (go ts') end) subs)
  end.

(** The classes of the products of a tree, outermost first, left to right. *)
Fixpoint classes t : list bool :=
  match t with RLeaf _ _ _ _ => [] | RProd r _ _ _ subs => r :: flat_map classes subs end.
(** The kinds of frames they get: a product directly in a robot gets a robot's frame. *)
Fixpoint kinds (inside : bool) t : list bool :=
  match t with RLeaf _ _ _ _ => [] | RProd r _ _ _ subs => (r || inside) :: flat_map (kinds r) subs end.
(** No CartesianProduct is a direct factor of a robot. *)
Inductive tidy : bool -> rmfd K -> Prop :=
| tidy_leaf i h l a b : tidy i (RLeaf h l a b)
| tidy_prod i r h sT sR subs : (i = true -> r = true) -> Forall (tidy r) subs -> tidy i (RProd r h sT sR subs).
(** Same nesting, same names in the same places, same classes. *)
Inductive same_classes : rmfd K -> rmfd K -> Prop :=
| sc_leaf h l a b h' l' a' b' : h_name h = h_name h' -> same_classes (RLeaf h l a b) (RLeaf h' l' a' b')
| sc_prod r h sT sR ts h' sT' sR' ts' : Forall2 same_classes ts ts' -> same_classes (RProd r h sT sR ts) (RProd r h' sT' sR' ts').
(** Same nesting and names. *)
Definition same_nesting t t' := same_shape (plain_of t) (plain_of t').
(** Trees made with the operations of the program. *)
Inductive assembled : rmfd K -> Prop :=
| as_lib m : built m -> assembled (unmarked m)
| as_empty r : assembled (empty_of r)
| as_multiply p f p' : assembled p -> assembled f -> rmultiply p f = Ok p' -> assembled p'.

(** ** The lines *)
Fixpoint rpicture (s : list bool) (inside : bool) t : list rline :=
  match t with
  | RLeaf h _ _ _ => [(s, Is (h_name h))]
  | RProd r _ _ _ subs => (s, Opens (r || inside)) :: flat_map (rpicture (s ++ [r || inside]) r) subs ++ [(s, Closes (r || inside))]
  end.
Lemma rprint_app prefix a b : rprint prefix (a ++ b) = rprint prefix a ++ rprint prefix b.
Proof. induction a; cbn; auto. rewrite IHa. rewrite sapp_assoc. reflexivity. Qed.
Lemma margin_snoc s k : margin (s ++ [k]) = margin s ++ bar k.
Proof. induction s as [|a s IH]; cbn [app margin]; [destruct k; reflexivity|]. rewrite IH, sapp_assoc. reflexivity. Qed.
Lemma open_text k : frame_open k = mark_text (Opens k).
Proof. destruct k; reflexivity. Qed.
Lemma close_text k : frame_close k = mark_text (Closes k).
Proof. destruct k; reflexivity. Qed.
(** One frame around a body. *)
Lemma one_frame prefix s k (body : string) ls : body = rprint prefix ls ->
  (("" ++ (prefix ++ margin s) ++ frame_open k ++ endl) ++ body) ++ (prefix ++ margin s) ++ frame_close k ++ endl
  = rprint prefix ((s, Opens k) :: ls ++ [(s, Closes k)]).
Proof.
  intros ->. cbn [rprint]. rewrite rprint_app. cbn [rprint]. unfold rrender. cbn [fst snd]. rewrite open_text, close_text. unfold endl. fold newline.
  rewrite !sapp_assoc. reflexivity.
Qed.
Lemma rbody prefix t : forall s, match t with RProd r _ _ _ subs => rdescription_in t (prefix ++ margin s) = rprint prefix (flat_map (rpicture s r) subs) | _ => True end.
Proof.
  induction t as [|r h sT sR subs IH] using rmfd_ind'; intros s; auto. cbn [rdescription_in].
  match goal with |- fold_left ?f subs "" = _ => enough (G : forall ss, fold_left f subs ss = ss ++ rprint prefix (flat_map (rpicture s r) subs)) by (apply G) end.
  induction IH as [|t subs Ht IH IHs]; intros ss; cbn [fold_left flat_map]; [rewrite sapp_nil; reflexivity|].
  rewrite IHs, rprint_app, <- (sapp_assoc ss (rprint prefix (rpicture s r t))). apply (f_equal (fun x => x ++ _)). clear IHs IH.
  destruct t as [h' l a b|[|] h' sT' sR' ts]; cbn [risElementary].
  - cbn [rpicture rprint]. unfold rrender. cbn [fst snd mark_text]. unfold endl. fold newline. rewrite !sapp_assoc. reflexivity.
  - f_equal. rewrite (sapp_assoc prefix (margin s) (bar true)), <- margin_snoc. apply one_frame. apply (Ht (s ++ [true])%list).
  - rewrite !(sapp_assoc ss). f_equal. rewrite (sapp_assoc prefix (margin s) (bar r)), <- margin_snoc.
    transitivity ((("" ++ (prefix ++ margin s) ++ frame_open r ++ endl) ++ rdescription_in (RProd false h' sT' sR' ts) (prefix ++ margin (s ++ [r])%list)) ++ (prefix ++ margin s) ++ frame_close r ++ endl).
    { cbn [append]. rewrite !sapp_assoc. reflexivity. }
    cbn [rpicture orb]. apply one_frame. apply (Ht (s ++ [r])%list).
Qed.
Lemma rdescription_picture t prefix : rdescription t prefix true = rprint prefix (rpicture [] false t).
Proof.
  destruct t as [h l a b|r h sT sR subs]; cbn [rdescription].
  - cbn [rpicture rprint]. unfold rrender. cbn [fst snd mark_text margin append]. unfold endl. fold newline. rewrite !sapp_assoc. reflexivity.
  - pose proof (rbody prefix (RProd r h sT sR subs) [r]) as B. cbn [margin] in B. replace ((if r then "+ " else "| ") ++ "") with (bar r) in B by (destruct r; reflexivity). rewrite B.
    pose proof (one_frame prefix [] r _ _ (eq_refl (rprint prefix (flat_map (rpicture [r] r) subs)))) as O. cbn [margin] in O. rewrite sapp_nil in O. rewrite O.
    cbn [rpicture app]. rewrite orb_false_r. reflexivity.
Qed.
Lemma framed_app s a b : framed s a -> framed s b -> framed s (a ++ b).
Proof. intros A B. induction A; cbn; auto; [constructor; auto|]. rewrite <- app_assoc. cbn. constructor; auto. Qed.
Lemma rpicture_framed t : forall s i, framed s (rpicture s i t).
Proof.
  induction t as [h l a b|r h sT sR subs IH] using rmfd_ind'; intros s i; cbn [rpicture]; [repeat constructor|].
  apply framed_group; [|constructor]. induction IH as [|t subs Ht IH' IHs]; cbn [flat_map]; [constructor|]. apply framed_app; auto.
Qed.
Lemma rpicture_names t : forall s i, rnames (rpicture s i t) = map name (leaves (plain_of t)).
Proof.
  induction t as [h l a b|r h sT sR subs IH] using rmfd_ind'; intros s i; cbn [rpicture]; auto.
  unfold rnames. cbn [flat_map snd app]. rewrite flat_map_app. cbn [flat_map snd app plain_of leaves]. rewrite app_nil_r.
  induction IH as [|t subs Ht IH' IHs]; cbn [flat_map map]; auto. rewrite flat_map_app, map_app. f_equal; auto.
Qed.
Lemma rpicture_kinds t : forall s i, opened (rpicture s i t) = kinds i t.
Proof.
  induction t as [h l a b|r h sT sR subs IH] using rmfd_ind'; intros s i; cbn [rpicture kinds]; auto.
  unfold opened. cbn [flat_map snd app]. f_equal. rewrite flat_map_app. cbn [flat_map snd app]. rewrite app_nil_r.
  induction IH as [|t subs Ht IH' IHs]; cbn [flat_map]; auto. rewrite flat_map_app. f_equal; auto.
Qed.

(** ** C68 *)

(** For all trees of products and robots and all prefixes: the description is a sequence of lines which all
    start with the prefix, properly framed, with one line for each elementary manifold, in order, and
    one frame for each product; a product directly in a robot is shown in a robot's frame. *)
Theorem C68_description : forall t prefix, exists ls,
  rdescription t prefix true = rprint prefix ls /\ framed [] ls /\ rnames ls = map name (leaves (plain_of t)) /\ opened ls = kinds false t.
Proof. intros t prefix. exists (rpicture [] false t). repeat split; [apply rdescription_picture|apply rpicture_framed|apply rpicture_names|apply rpicture_kinds]. Qed.
(** Without robots it is the description of the library (C42). *)
Lemma plain_unmarked m : plain_of (unmarked m) = m.
Proof. induction m as [h l a b|h sT sR subs IH] using mfd_ind'; cbn; auto. f_equal. induction IH; cbn; congruence. Qed.
Lemma unmarked_in m : forall prefix, rdescription_in (unmarked m) prefix = description_in m prefix.
Proof.
  induction m as [h l a b|h sT sR subs IH] using mfd_ind'; intros prefix; auto. cbn [unmarked rdescription_in description_in].
  match goal with |- fold_left ?f (map unmarked subs) "" = fold_left ?g subs "" => enough (G : forall ss, fold_left f (map unmarked subs) ss = fold_left g subs ss) by apply G end.
  induction IH as [|m subs Hm IH' IHs]; intros ss; cbn [map fold_left]; auto.
  rewrite IHs. f_equal. destruct m as [h' l a b|h' sT' sR' ms]; cbn [unmarked risElementary isElementary]; [reflexivity|].
  change (RProd false h' sT' sR' (map unmarked ms)) with (unmarked (Prod h' sT' sR' ms)). rewrite Hm. reflexivity.
Qed.
Theorem C68_library : forall m prefix first, rdescription (unmarked m) prefix first = description m prefix first.
Proof.
  intros [h l a b|h sT sR subs] prefix first; auto. cbn [unmarked rdescription description].
  change (RProd false h sT sR (map unmarked subs)) with (unmarked (Prod h sT sR subs)). rewrite !unmarked_in. reflexivity.
Qed.
(** A robot is otherwise the product it derives from: same name, dimensions, factors and indices. *)
Theorem C68_same_product : forall p (m : rmfd K) p', rmultiply p m = Ok p' -> multiply (plain_of p) (plain_of m) = Ok (plain_of p').
Proof.
  intros [|r h sT sR subs] m p' E; [discriminate|]. cbn [rmultiply plain_of multiply] in *. destruct (back sT); [|discriminate]. cbn [bind] in *. destruct (back sR); [|discriminate].
  injection E as <-. cbn [plain_of]. rewrite map_app. cbn [map]. destruct m; reflexivity.
Qed.
Theorem C68_assembled : forall t, assembled t -> built (plain_of t).
Proof.
  induction 1 as [m B|r|p m p' Hp IHp Hm IHm E]; [rewrite plain_unmarked; auto|apply built_empty|].
  apply C68_same_product in E. exact (built_mult _ _ _ IHp IHm E).
Qed.
(** multiplying keeps the classes of everything already there and of the new factor (which is copied), ... *)
Theorem C68_multiply_classes : forall p (f : rmfd K) p', rmultiply p f = Ok p' ->
  classes p' = (classes p ++ classes f)%list /\ leaves (plain_of p') = (leaves (plain_of p) ++ leaves (plain_of f))%list.
Proof.
  intros [|r h sT sR subs] f p' E; [discriminate|]. cbn [rmultiply] in E. destruct (back sT); [|discriminate]. cbn [bind] in E. destruct (back sR); [|discriminate].
  injection E as <-. assert (C : getNewCopy_ f = f) by (destruct f; reflexivity). rewrite C. cbn [classes plain_of leaves]. rewrite map_app, !flat_map_app. cbn [flat_map map]. rewrite !app_nil_r. auto.
Qed.
(** ... and adds the description of a robot or an elementary factor as it is on its own, one bar further. *)
Theorem C68_multiply_text : forall p (f : rmfd K) p' prefix, rmultiply p f = Ok p' -> risElementary f = true ->
  rdescription p' prefix false = rdescription p prefix false ++ rdescription f prefix true.
Proof.
  intros [|r h sT sR subs] f p' prefix E F; [discriminate|]. cbn [rmultiply] in E. destruct (back sT); [|discriminate]. cbn [bind] in E. destruct (back sR); [|discriminate].
  injection E as <-. assert (C : getNewCopy_ f = f) by (destruct f; reflexivity). rewrite C. cbn [rdescription rdescription_in]. rewrite fold_left_app. cbn [fold_left]. rewrite F. destruct f; reflexivity.
Qed.

(** ** What the picture determines *)
Definition plain_mark (i : mark) := match i with Is n => rplain n | _ => True end.
Lemma mark_line i i' (x y : string) : plain_mark i -> plain_mark i' -> mark_text i ++ String newline x = mark_text i' ++ String newline y -> i = i' /\ x = y.
Proof.
  intros P P' E. destruct i as [[|]|[|]|n], i' as [[|]|[|]|n']; cbn [mark_text plain_mark] in *;
    try (apply sapp_inj in E; injection E as ->; auto; fail); try discriminate;
    try (destruct P', n'; [discriminate|]; injection E as <- _; tauto);
    try (destruct P, n; [discriminate|]; injection E as -> _; tauto).
  apply end_of_name in E as [-> ->]; [auto|apply P|apply P'].
Qed.
Lemma margin_line s : forall s' i i' (x y : string), plain_mark i -> plain_mark i' -> (margin s ++ mark_text i) ++ String newline x = (margin s' ++ mark_text i') ++ String newline y -> s = s' /\ i = i' /\ x = y.
Proof.
  assert (B : forall k s i (x y : string), plain_mark i -> mark_text i ++ String newline x = margin (k :: s) ++ y -> False).
  { clear. intros k s [[|]|[|]|n] x y P E; destruct k; cbn in *; try discriminate; destruct P as [P1 P2], n; cbn in E; try discriminate; injection E as -> _; tauto. }
  induction s as [|k s IH]; intros [|k' s'] i i' x y P P' E.
  - apply mark_line in E as [-> ->]; auto.
  - exfalso. rewrite (sapp_assoc (margin (k' :: s'))) in E. exact (B k' s' i x _ P E).
  - exfalso. rewrite (sapp_assoc (margin (k :: s))) in E. symmetry in E. exact (B k s i' y _ P' E).
  - assert (k = k') by (destruct k, k'; cbn in E; congruence). subst k'. assert (E' : (margin s ++ mark_text i) ++ String newline x = (margin s' ++ mark_text i') ++ String newline y) by (destruct k; cbn in E; injection E; auto).
    destruct (IH s' i i' x y P P' E') as (-> & -> & ->). auto.
Qed.
Lemma rprint_inj prefix a : forall b, Forall (fun l => plain_mark (snd l)) a -> Forall (fun l => plain_mark (snd l)) b -> rprint prefix a = rprint prefix b -> a = b.
Proof.
  induction a as [|[s i] a IH]; intros [|[s' i'] b] A B E; auto; cbn [rprint] in E.
  - destruct (rrender prefix (s', i')); discriminate.
  - destruct (rrender prefix (s, i)); discriminate.
  - inversion A; inversion B; subst. unfold rrender in E. cbn [fst snd] in *. rewrite !(sapp_assoc prefix) in E. apply sapp_inj in E. apply margin_line in E as (-> & -> & E); auto. f_equal. auto.
Qed.
Lemma rpicture_plain t s i : (forall m', In m' (leaves (plain_of t)) -> rplain (name m')) -> Forall (fun l => plain_mark (snd l)) (rpicture s i t).
Proof.
  intros P. assert (N : Forall rplain (rnames (rpicture s i t))).
  { rewrite rpicture_names. apply Forall_forall. intros n Hn. apply in_map_iff in Hn as (m' & <- & Hm). auto. }
  revert N. generalize (rpicture s i t). induction l as [|[d j] l IH]; intros N; constructor.
  - destruct j; cbn in N |- *; auto. inversion N; auto.
  - apply IH. cbn in N. apply Forall_app in N. tauto.
Qed.
Lemma rpicture_head s i t : exists j q, rpicture s i t = (s, j) :: q.
Proof. destruct t; cbn; eauto. Qed.
Lemma longer (s : list bool) k : (s ++ [k])%list <> s.
Proof. intros E. apply (f_equal (@List.length bool)) in E. rewrite app_length in E. cbn in E. lia. Qed.
Lemma rpicture_nesting t : forall s i i' t' (q q' : list rline), (rpicture s i t ++ q = rpicture s i' t' ++ q')%list -> same_nesting t t' /\ q = q'.
Proof.
  induction t as [h l a b|r h sT sR subs IH] using rmfd_ind'; intros s i i' [h' l' a' b'|r' h' sT' sR' subs'] q q' E; cbn [rpicture app] in E; try discriminate.
  - injection E as E ->. split; auto. constructor; auto.
  - injection E as Ek E. rewrite <- Ek in E. rewrite <- !app_assoc in E. cbn [app] in E. revert E. generalize (r || i)%bool as k. intros k E.
    enough (G : Forall2 same_nesting subs subs' /\ q = q').
    { destruct G as [G ->]. split; auto. unfold same_nesting. cbn [plain_of]. constructor. clear - G. induction G; cbn; constructor; auto. }
    revert subs' E. clear Ek. induction IH as [|t subs Ht IH' IHs]; intros [|t' subs'] E; cbn [flat_map app] in E.
    + injection E as ->. split; auto.
    + exfalso. destruct (rpicture_head (s ++ [k]) r' t') as (j & p & Eq). rewrite Eq in E. cbn in E. injection E as E _. symmetry in E. apply longer in E. auto.
    + exfalso. destruct (rpicture_head (s ++ [k]) r t) as (j & p & Eq). rewrite Eq in E. cbn in E. injection E as E _. apply longer in E. auto.
    + rewrite <- !app_assoc in E. apply Ht in E as [S1 E]. apply IHs in E as [S2 E]. split; auto.
Qed.
Lemma rpicture_classes t : forall s i t' (q q' : list rline), tidy i t -> tidy i t' -> (rpicture s i t ++ q = rpicture s i t' ++ q')%list -> same_classes t t' /\ q = q'.
Proof.
  induction t as [h l a b|r h sT sR subs IH] using rmfd_ind'; intros s i [h' l' a' b'|r' h' sT' sR' subs'] q q' T T' E; cbn [rpicture app] in E; try discriminate.
  - injection E as E ->. split; auto. constructor; auto.
  - inversion T as [|? ? ? ? ? ? Ti Ts]; inversion T' as [|? ? ? ? ? ? Ti' Ts']; subst. injection E as Ek E. rewrite <- Ek in E. rewrite <- !app_assoc in E. cbn [app] in E.
    assert (r = r'). { destruct i; [rewrite Ti, Ti' by auto; auto|]. rewrite !orb_false_r in Ek. auto. } subst r'. revert E. generalize (r || i)%bool as k. intros k E.
    enough (G : Forall2 same_classes subs subs' /\ q = q') by (destruct G as [G ->]; split; auto; constructor; auto). clear Ek Ti Ti' T T'.
    revert subs' Ts' E. induction IH as [|t subs Ht IH' IHs]; intros [|t' subs'] Ts' E; cbn [flat_map app] in E.
    + injection E as ->. split; auto.
    + exfalso. destruct (rpicture_head (s ++ [k]) r t') as (j & p & Eq). rewrite Eq in E. cbn in E. injection E as E _. symmetry in E. apply longer in E. auto.
    + exfalso. destruct (rpicture_head (s ++ [k]) r t) as (j & p & Eq). rewrite Eq in E. cbn in E. injection E as E _. apply longer in E. auto.
    + inversion Ts; inversion Ts'; subst. rewrite <- !app_assoc in E. apply Ht in E as [S1 E]; auto. apply IHs in E as [S2 E]; auto.
Qed.
(** Two trees with the same description have the same nesting and the same names ... *)
Theorem C68_nesting : forall t t' prefix, (forall x, In x (leaves (plain_of t)) -> rplain (name x)) -> (forall x, In x (leaves (plain_of t')) -> rplain (name x)) ->
  rdescription t prefix true = rdescription t' prefix true -> same_nesting t t' /\ kinds false t = kinds false t'.
Proof.
  intros t t' prefix P P' E. rewrite !rdescription_picture in E. apply rprint_inj in E; auto using rpicture_plain. split.
  - apply (rpicture_nesting t [] false false t' [] []). rewrite !app_nil_r. exact E.
  - rewrite <- !(rpicture_kinds _ []), E. reflexivity.
Qed.
(** ... and the same classes, provided that no CartesianProduct is directly in a robot. *)
Theorem C68_classes : forall t t' prefix, (forall x, In x (leaves (plain_of t)) -> rplain (name x)) -> (forall x, In x (leaves (plain_of t')) -> rplain (name x)) ->
  tidy false t -> tidy false t' -> rdescription t prefix true = rdescription t' prefix true -> same_classes t t'.
Proof.
  intros t t' prefix P P' T T' E. rewrite !rdescription_picture in E. apply rprint_inj in E; auto using rpicture_plain.
  apply (rpicture_classes t [] false t' [] []); auto. rewrite !app_nil_r. exact E.
Qed.
End Any.

(** ** The program *)
From Verif Require Import ExScalar.
Definition rget (r : res (rmfd Z)) : rmfd Z := match r with Ok t => t | Fail _ => empty_of false end.
Definition qR3 : mfd Z := Eval vm_compute in get prod_empty (mk_real 3).
Definition qSO3 : mfd Z := Eval vm_compute in get prod_empty (mk_so3 MapQuat).
(** se3 and robot2 of main.cpp:71-72, and a robot in a robot. *)
Definition se3_of (r : bool) : rmfd Z := Eval vm_compute in rget (p <- rmultiply (empty_of r) (unmarked qR3) ;; rmultiply p (unmarked qSO3)).
Definition robot_of (r : bool) : rmfd Z := Eval vm_compute in rget (rmultiply (empty_of true) (se3_of r)).
Lemma se3_assembled r : assembled (se3_of r).
Proof.
  apply (as_multiply (rget (rmultiply (empty_of r) (unmarked qR3))) (unmarked qSO3)); [|apply as_lib, (built_so3 MapQuat (vconst 3 kpi)); reflexivity|destruct r; reflexivity].
  apply (as_multiply (empty_of r) (unmarked qR3)); [constructor|apply as_lib, (built_real_mag 3 1%Z); reflexivity|destruct r; reflexivity].
Qed.
Lemma robot_assembled r : assembled (robot_of r).
Proof. apply (as_multiply (empty_of true) (se3_of r)); [constructor|apply se3_assembled|destruct r; reflexivity]. Qed.
(** The classes are not determined in general: a robot made of the product R3 x SO3 (robot2 of the
    program) is described like a robot made of the robot R3 x SO3. *)
Theorem C68_classes_refuted : exists t t' : rmfd Z, assembled t /\ assembled t' /\ (forall x, In x (leaves (plain_of t)) -> rplain (name x)) /\ (forall x, In x (leaves (plain_of t')) -> rplain (name x)) /\
  (forall prefix, rdescription t prefix true = rdescription t' prefix true) /\ classes t <> classes t'.
Proof.
  exists (robot_of false), (robot_of true). do 2 (split; [apply robot_assembled|]).
  do 2 (split; [intros x H; cbn in H; repeat (destruct H as [<-|H]; [split; [cbn; intuition discriminate|cbn; repeat split; discriminate]|]); tauto|]).
  split; [|discriminate]. intros prefix. rewrite !rdescription_picture. reflexivity.
Qed.
(** Non-vacuity of the hypotheses of C68_nesting and C68_classes. *)
Definition merged_of (r : bool) : rmfd Z := Eval vm_compute in rget (p <- rmultiply (empty_of false) (se3_of r) ;; rmultiply p (unmarked qR3)).
Example ex_C68_classes : tidy false (merged_of true) /\ tidy false (merged_of false) /\ assembled (merged_of true) /\
  (forall x, In x (leaves (plain_of (merged_of true))) -> rplain (name x)) /\
  rdescription (merged_of true) "" true <> rdescription (merged_of false) "" true.
Proof.
  split; [repeat constructor; discriminate|]. split; [repeat constructor; discriminate|]. split.
  - apply (as_multiply (rget (rmultiply (empty_of false) (se3_of true))) (unmarked qR3)); [|apply as_lib, (built_real_mag 3 1%Z); reflexivity|reflexivity].
    apply (as_multiply (empty_of false) (se3_of true)); [constructor|apply se3_assembled|reflexivity].
  - split; [|vm_compute; discriminate]. intros x H; cbn in H; repeat (destruct H as [<-|H]; [split; [cbn; intuition discriminate|cbn; repeat split; discriminate]|]); tauto.
Qed.
(** What the program prints. *)
Example ex_C68_main : exists out, main_output (K:=Z) = Ok out /\ split_lines "" out =
  [ "/robot+++++++++++++++++++++++++++++";
    "+ R8";
    "\++++++++++++++++++++++++++++++++++";
    "";
    "/robot+++++++++++++++++++++++++++++";
    "+ /robot+++++++++++++++++++++++++++++";
    "+ + R3";
    "+ + SO3";
    "+ \++++++++++++++++++++++++++++++++++";
    "\++++++++++++++++++++++++++++++++++";
    "";
    "/cartprod--------------------------";
    "| /robot+++++++++++++++++++++++++++++";
    "| + R8";
    "| \++++++++++++++++++++++++++++++++++";
    "\----------------------------------";
    "";
    "/cartprod--------------------------";
    "| /robot+++++++++++++++++++++++++++++";
    "| + R8";
    "| \++++++++++++++++++++++++++++++++++";
    "| /robot+++++++++++++++++++++++++++++";
    "| + /robot+++++++++++++++++++++++++++++";
    "| + + R3";
    "| + + SO3";
    "| + \++++++++++++++++++++++++++++++++++";
    "| \++++++++++++++++++++++++++++++++++";
    "| S2";
    "| R3";
    "| S2";
    "| R3";
    "\----------------------------------";
    "" ].
Proof. eexists. split; [vm_compute; reflexivity|vm_compute; reflexivity]. Qed.

Print Assumptions C68_description.
Print Assumptions C68_library.
Print Assumptions C68_same_product.
Print Assumptions C68_assembled.
Print Assumptions C68_multiply_classes.
Print Assumptions C68_multiply_text.
Print Assumptions C68_nesting.
Print Assumptions C68_classes.
Print Assumptions C68_classes_refuted.
