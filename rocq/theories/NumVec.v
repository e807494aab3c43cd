(** The model's vector and matrix helpers on finite values. *)
From Coq Require Import Reals List Lra Lia ZArith.
From Verif Require Import Base Scalar Vec Model_SO3 Model_Manifold XR SpecR RotR.
Import ListNotations.
Local Open Scope R_scope.

Lemma dot_acc_fin a x y : fold_left xadd (map2 (lift2 Rmult) (fin x) (fin y)) (Fin a) = Fin (a + rdot x y).
Proof.
  revert a y; induction x as [|b x IH]; intros a [|c y]; simpl; try (f_equal; ring).
  rewrite IH. f_equal. ring.
Qed.
Lemma dot_fin x y : dot (fin x) (fin y) = Fin (rdot x y).
Proof. destruct x as [|b x], y as [|c y]; simpl; auto. apply dot_acc_fin. Qed.
Lemma sqnorm_fin x : sqnorm (fin x) = Fin (rdot x x).
Proof. apply dot_fin. Qed.
Lemma norm_fin x : norm (fin x) = Fin (rnorm x).
Proof. unfold norm. rewrite sqnorm_fin. apply xsqrt_fin. apply rdot_self_nonneg. Qed.

Lemma vadd_fin x y : vadd (fin x) (fin y) = fin (radd x y).
Proof. unfold vadd, radd. revert y; induction x as [|a x IH]; intros [|b y]; simpl; auto. f_equal. apply IH. Qed.
Lemma vsub_fin x y : vsub (fin x) (fin y) = fin (rsub x y).
Proof. unfold vsub, rsub. revert y; induction x as [|a x IH]; intros [|b y]; simpl; auto. f_equal. apply IH. Qed.
Lemma vscale_fin a x : vscale (Fin a) (fin x) = fin (rscal a x).
Proof. unfold vscale, rscal, fin. rewrite !map_map. reflexivity. Qed.
Lemma vdivs_fin x a : a <> 0 -> vdivs (fin x) (Fin a) = fin (rscal (/ a) x).
Proof.
  intros Ha. induction x as [|b x IH]; auto.
  unfold vdivs, fin, rscal in *. cbn [map]. rewrite IH. f_equal.
  change (xdiv (Fin b) (Fin a) = Fin (/ a * b)). rewrite xdiv_fin by auto. f_equal. unfold Rdiv. ring.
Qed.
Lemma vconst_fin n a : vconst n (Fin a) = fin (repeat a n).
Proof. induction n; simpl; f_equal; auto. Qed.

Lemma radd_length x y : length x = length y -> length (radd x y) = length x.
Proof. intros H. unfold radd. rewrite map_length, combine_length. lia. Qed.
Lemma rsub_length x y : length x = length y -> length (rsub x y) = length x.
Proof. intros H. unfold rsub. rewrite map_length, combine_length. lia. Qed.
Lemma rscal_length a x : length (rscal a x) = length x.
Proof. apply map_length. Qed.
Lemma radd_rsub x v : length x = length v -> rsub (radd x v) x = v.
Proof.
  revert v; induction x as [|a x IH]; intros [|b v] H; simpl in *; try discriminate; auto.
  unfold rsub, radd in *. simpl. f_equal; [ring|]. apply IH. lia.
Qed.
Lemma rsub_radd x y : length x = length y -> radd x (rsub y x) = y.
Proof.
  revert y; induction x as [|a x IH]; intros [|b v] H; simpl in *; try discriminate; auto.
  unfold rsub, radd in *. simpl. f_equal; [ring|]. apply IH. lia.
Qed.

Definition m3fin (A : m3 R) : m3 XR :=
  M3 (Fin (a00 A)) (Fin (a01 A)) (Fin (a02 A)) (Fin (a10 A)) (Fin (a11 A)) (Fin (a12 A))
     (Fin (a20 A)) (Fin (a21 A)) (Fin (a22 A)).

Lemma m3_read_fin A : m3_read (fin (flat9 A)) = Ok (m3fin A).
Proof. reflexivity. Qed.
Lemma m3_to_list_fin A : m3_to_list (m3fin A) = fin (flat9 A).
Proof. reflexivity. Qed.
Lemma m3_mul_fin A B : m3_mul (m3fin A) (m3fin B) = m3fin (rmul A B).
Proof. reflexivity. Qed.
Lemma m3_trans_fin A : m3_trans (m3fin A) = m3fin (rtr A).
Proof. reflexivity. Qed.
Lemma m3_trace_fin A : m3_trace (m3fin A) = Fin (a00 A + a11 A + a22 A).
Proof. reflexivity. Qed.
Lemma m3_det_fin A : m3_det (m3fin A) = Fin (rdet A).
Proof. unfold m3_det, rdet. simpl. f_equal. ring. Qed.
Lemma m3_id_fin : m3_id = m3fin ridm.
Proof. reflexivity. Qed.
Lemma m3_mulv_fin A v : m3_mulv (m3fin A) (fin v) = fin (rmulv A v).
Proof.
  unfold m3_mulv, rmulv.
  change [a00 (m3fin A); a01 (m3fin A); a02 (m3fin A)] with (fin [a00 A; a01 A; a02 A]).
  change [a10 (m3fin A); a11 (m3fin A); a12 (m3fin A)] with (fin [a10 A; a11 A; a12 A]).
  change [a20 (m3fin A); a21 (m3fin A); a22 (m3fin A)] with (fin [a20 A; a21 A; a22 A]).
  rewrite !dot_fin. reflexivity.
Qed.
Lemma flat9_inj A B : flat9 A = flat9 B -> A = B.
Proof. unfold flat9. intros H. destruct A, B; simpl in *. inversion H; subst. reflexivity. Qed.
Lemma flat9_length A : length (flat9 A) = 9%nat.
Proof. reflexivity. Qed.
Lemma flat9_surj x : length x = 9%nat -> exists A, x = flat9 A.
Proof.
  do 9 (destruct x as [|? x]; [discriminate|]). destruct x; [|discriminate]. intros _.
  exists (M3 r r2 r5 r0 r3 r6 r1 r4 r7). reflexivity.
Qed.

Definition qfin (q : quat R) : quat XR := Q4 (Fin (qw q)) (Fin (qx q)) (Fin (qy q)) (Fin (qz q)).
Lemma quat_read_fin q : quat_read (fin (qflat q)) = Ok (qfin q).
Proof. reflexivity. Qed.
Lemma quat_to_list_fin q : quat_to_list (qfin q) = fin (qflat q).
Proof. reflexivity. Qed.
Lemma qmul_fin a b : qmul (qfin a) (qfin b) = qfin (qprod a b).
Proof. unfold qmul, qprod, qfin. simpl. f_equal; f_equal; ring. Qed.
Lemma qflat_inj A B : qflat A = qflat B -> A = B.
Proof. unfold qflat. intros H. destruct A, B; simpl in *. inversion H; subst. reflexivity. Qed.
Lemma qflat_surj x : length x = 4%nat -> exists q, x = qflat q.
Proof.
  do 4 (destruct x as [|? x]; [discriminate|]). destruct x; [|discriminate]. intros _. exists (Q4 r r0 r1 r2). reflexivity.
Qed.
Lemma qsqnorm_fin q : qsqnorm (qfin q) = Fin (qn2 q).
Proof.
  unfold qsqnorm. change [qx (qfin q); qy (qfin q); qz (qfin q); qw (qfin q)] with (fin [qx q; qy q; qz q; qw q]).
  rewrite sqnorm_fin. unfold qn2. simpl. f_equal. ring.
Qed.
Lemma qvec_fin q : qvec (qfin q) = fin [qx q; qy q; qz q].
Proof. reflexivity. Qed.

Lemma raw_write_same {A} (out l : list A) : length out = length l -> raw_write out l = Ok l.
Proof.
  intros H. unfold raw_write. replace (length l <=? length out)%nat with true by (symmetry; apply Nat.leb_le; lia).
  simpl. rewrite skipn_all2 by lia. rewrite app_nil_r. reflexivity.
Qed.
Lemma assign_same {A} (out l : list A) : length out = length l -> assign out l = Ok l.
Proof. intros H. unfold assign. rewrite H, Nat.eqb_refl. reflexivity. Qed.
Lemma quat_read_len {K} (out : list K) : length out = 4%nat -> exists q, quat_read out = Ok q.
Proof. do 4 (destruct out as [|? out]; [discriminate|]). destruct out; [|discriminate]. intros _. eexists. reflexivity. Qed.
Lemma vec3_inv {A} (v : list A) : length v = 3%nat -> exists x y z, v = [x; y; z].
Proof. destruct v as [|x [|y [|z [|]]]]; try discriminate. eauto. Qed.
