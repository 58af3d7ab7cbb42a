(** Componentwise facts about vectors of reals. *)
From Coq Require Import ZArith Reals Lra Lia List Bool Psatz.
From Verif Require Import Base.Scalar Base.RNum Base.Lists Base.Series Model.Vector Spec.Motion.
Import ListNotations.
Local Open Scope R_scope.

Lemma map2_length {A B C} (f : A -> B -> C) u v : length u = length v -> length (map2 f u v) = length u.
Proof. revert v. induction u as [| a u IH]; intros [| b v] H; cbn in *; try discriminate; auto. Qed.
Lemma nth_map2 {A B C} (f : A -> B -> C) a b c u v i : length u = length v -> f a b = c ->
  nth i (map2 f u v) c = f (nth i u a) (nth i v b).
Proof.
  revert v i. induction u as [| x u IH]; intros [| y v] i H E; cbn in *; try discriminate; [destruct i; auto |].
  destruct i; [reflexivity |]. apply IH; [lia | auto].
Qed.

Lemma sub_length (u v : list R) : length u = length v -> length (vec_sub u v) = length u.
Proof. apply map2_length. Qed.
Lemma nth_sub (u v : list R) i : length u = length v -> nth i (vec_sub u v) 0 = nth i u 0 - nth i v 0.
Proof. intros H. unfold vec_sub. rewrite (nth_map2 _ 0 0 0); auto. rnum. ring. Qed.
Lemma add_length (u v : list R) : length u = length v -> length (vec_add u v) = length u.
Proof. apply map2_length. Qed.
Lemma nth_add (u v : list R) i : length u = length v -> nth i (vec_add u v) 0 = nth i u 0 + nth i v 0.
Proof. intros H. unfold vec_add. rewrite (nth_map2 _ 0 0 0); auto. rnum. ring. Qed.
Lemma scale_length (u : list R) s : length (vec_scale u s) = length u.
Proof. apply map_length. Qed.
Lemma nth_scale (u : list R) s i : nth i (vec_scale u s) 0 = nth i u 0 * s.
Proof.
  unfold vec_scale. destruct (Nat.lt_ge_cases i (length u)) as [L | L].
  - rewrite (nth_indep _ 0 (0 * s)) by (rewrite map_length; auto). rewrite (map_nth (fun a => a * s)). reflexivity.
  - rewrite !nth_overflow by (rewrite ?map_length; auto). ring.
Qed.

Lemma fold_dot l : forall c, fold_left (fun sum (ab : R * R) => sum + fst ab * snd ab) l c =
  c + bsum (length l) (fun i => fst (nth i l (0, 0)) * snd (nth i l (0, 0))).
Proof.
  induction l as [| [a b] r IH]; intros c; [cbn; ring |].
  cbn [fold_left length]. rewrite IH, bsum_first. cbn. ring.
Qed.
Lemma dot_sum (u v : list R) : length u = length v -> dot u v = bsum (length u) (fun i => nth i u 0 * nth i v 0).
Proof.
  intros H. unfold dot. rnum. rewrite fold_dot, Rplus_0_l. rewrite combine_length, <- H, Nat.min_id.
  apply bsum_ext. intros i Hi. rewrite combine_nth by auto. reflexivity.
Qed.
Lemma norm_squared_nonneg (u : list R) : 0 <= norm_squared u.
Proof. unfold norm_squared. rewrite dot_sum by reflexivity. apply bsum_nonneg. intros i _. nra. Qed.
Lemma norm_squared_zero (u : list R) : norm_squared u = 0 -> forall i, nth i u 0 = 0.
Proof.
  unfold norm_squared. rewrite dot_sum by reflexivity. intros H i.
  destruct (Nat.lt_ge_cases i (length u)) as [L | L]; [| apply nth_overflow; auto].
  assert (G : forall n, (forall j, 0 <= nth j u 0 * nth j u 0) -> bsum n (fun i => nth i u 0 * nth i u 0) = 0 -> (i < n)%nat ->
    nth i u 0 * nth i u 0 = 0).
  { induction n as [| n IH]; cbn; intros P Z Hi; [lia |].
    assert (0 <= bsum n (fun i => nth i u 0 * nth i u 0)) by (apply bsum_nonneg; auto).
    pose proof (P n). destruct (Nat.eq_dec i n) as [-> | Ne]; [lra |]. apply IH; auto; [lra | lia]. }
  specialize (G (length u) ltac:(intros j; nra) H L). nra.
Qed.
Lemma norm_zero (u : list R) : norm u = 0 -> norm_squared u = 0.
Proof. unfold norm. rnum. intros H. apply sqrt_eq_0; auto. apply norm_squared_nonneg. Qed.
Lemma norm_nonneg (u : list R) : 0 <= norm u.
Proof. unfold norm. rnum. apply sqrt_pos. Qed.

(** The norm of a difference is the distance. *)
Lemma norm_distance (u v : list R) : length u = length v -> norm (vec_sub u v) = distance_between u v.
Proof.
  intros H. unfold norm, norm_squared, distance_between. rnum. rewrite dot_sum by reflexivity. rewrite sub_length by auto.
  f_equal. apply bsum_ext. intros i Hi. rewrite nth_sub by auto. ring.
Qed.
Lemma distance_sym (u v : list R) : length u = length v -> distance_between u v = distance_between v u.
Proof. intros H. unfold distance_between. rewrite H. f_equal. apply bsum_ext. intros. ring. Qed.
Lemma distance_nonneg u v : 0 <= distance_between u v.
Proof. apply sqrt_pos. Qed.

Lemma along_point (a b : list R) lambda : length a = length b ->
  along a b lambda (vec_add a (vec_scale (vec_sub b a) lambda)).
Proof.
  intros H. assert (E : length a = length (vec_scale (vec_sub b a) lambda)) by (rewrite scale_length, sub_length; auto).
  split; [apply add_length; auto |]. intros i. rewrite nth_add by auto. rewrite nth_scale, nth_sub by auto. ring.
Qed.
Lemma along_unique a b lambda x y : along a b lambda x -> along a b lambda y -> x = y.
Proof. intros [L1 H1] [L2 H2]. apply nth_ext with 0 0; [congruence |]. intros i _. rewrite H1, H2. reflexivity. Qed.
Lemma along_start a b : along a b 0 a.
Proof. split; auto. intros i. ring. Qed.

(** Squared distance from a query to the point [lambda] of the way along. *)
Lemma along_distance (q a b x : list R) lambda : length q = length a -> length a = length b -> along a b lambda x ->
  distance_between q x =
    R_sqrt.sqrt (norm_squared (vec_sub q a) - 2 * lambda * dot (vec_sub q a) (vec_sub b a) + lambda ^ 2 * norm_squared (vec_sub b a)).
Proof.
  intros H1 H2 [_ H]. unfold distance_between, norm_squared.
  assert (L1 : length (vec_sub q a) = length q) by (apply sub_length; auto).
  assert (L2 : length (vec_sub b a) = length b) by (apply sub_length; auto).
  rewrite !dot_sum by congruence. rewrite L1, L2. replace (length b) with (length q) by congruence. f_equal.
  rewrite <- !bsum_scal, <- bsum_minus, <- bsum_plus. apply bsum_ext. intros i Hi.
  rewrite H, !nth_sub by auto. ring.
Qed.

(** The clamped foot of the perpendicular is the closest point of a segment. *)
Lemma foot_closest (q a b x y : list R) lambda : length q = length a -> length a = length b ->
  norm_squared (vec_sub b a) <> 0 -> 0 <= lambda <= 1 -> along a b lambda x ->
  along a b (Rmin (Rmax (dot (vec_sub q a) (vec_sub b a) / norm_squared (vec_sub b a)) 0) 1) y ->
  distance_between q y <= distance_between q x.
Proof.
  intros H1 H2 N L Hx Hy. pose proof (norm_squared_nonneg (vec_sub b a)) as P.
  rewrite (along_distance q a b x lambda) by auto. rewrite (along_distance q a b y _ H1 H2 Hy).
  set (den := norm_squared (vec_sub b a)) in *. set (B := dot (vec_sub q a) (vec_sub b a)) in *.
  set (C := norm_squared (vec_sub q a)). set (t := B / den).
  assert (EB : B = t * den) by (unfold t; field; auto). rewrite EB.
  apply sqrt_le_1_alt.
  assert (G : forall p, (p - t) ^ 2 <= (lambda - t) ^ 2 -> C - 2 * p * (t * den) + p ^ 2 * den <= C - 2 * lambda * (t * den) + lambda ^ 2 * den).
  { intros p Hp. assert (0 <= den * ((lambda - t) ^ 2 - (p - t) ^ 2)) by (apply Rmult_le_pos; lra). nra. }
  apply G. rewrite <- !Rsqr_pow2. apply Rsqr_le_abs_1.
  unfold Rmin, Rmax. destruct (Rle_dec t 0) as [T0 | T0].
  - destruct (Rle_dec 0 1) as [_ | F]; [| lra]. rewrite !Rabs_pos_eq; lra.
  - destruct (Rle_dec t 1) as [T1 | T1].
    + replace (t - t) with 0 by ring. rewrite Rabs_R0. apply Rabs_pos.
    + rewrite !Rabs_left1; lra.
Qed.
