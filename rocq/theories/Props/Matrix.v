(** C87-C88: the arithmetic of matrices and vectors. *)
From Coq Require Import ZArith Reals List Bool Arith Lia Lra Psatz.
From Verif Require Import Base.Scalar Base.RNum Base.Lists Base.Series Model.Vector Model.Matrix Spec.Matrix Proofs.Matrix Proofs.Qr Proofs.Svd Proofs.Pinv Proofs.Algebra.
Import ListNotations.
Local Open Scope R_scope.

Lemma skip_twice {A} (l : list A) : forall x y, skipn x (skipn y l) = skipn (y + x) l.
Proof. induction l as [|a l IH]; intros x y; [rewrite !skipn_nil; reflexivity|]. destruct y; [reflexivity|]. cbn. apply IH. Qed.
(** ** Any scalar: what the layout alone gives *)
Section Any.
  Context {T : Type} {NT : Num T}.
(** A transpose exchanges rows and columns, and a second one gives the matrix back. *)
Theorem C87_transpose rows cols (m : mat T) : shape rows cols m ->
    shape cols rows (transpose rows cols m) /\
    (forall i j, (i < rows)%nat -> (j < cols)%nat -> mget (transpose rows cols m) j i = mget m i j) /\
    transpose cols rows (transpose rows cols m) = m.
Proof.
    intros S. split; [apply shape_mat_fn|]. split; [intros; apply mget_transpose; auto|].
    apply (mat_ext rows cols); auto; [apply shape_mat_fn|]. intros i j Hi Hj. rewrite !mget_transpose by auto. reflexivity.
Qed.
(** Sums, differences, negatives and multiples are taken entry by entry. *)
Theorem C87_entrywise rows cols (a b : mat T) s : shape rows cols a -> shape rows cols b ->
    shape rows cols (mat_add a b) /\ shape rows cols (mat_sub a b) /\ shape rows cols (mat_neg a) /\ shape rows cols (mat_scale rows cols a s) /\
    forall i j, (i < rows)%nat -> (j < cols)%nat ->
      mget (mat_add a b) i j = add (mget a i j) (mget b i j) /\ mget (mat_sub a b) i j = sub (mget a i j) (mget b i j) /\
      mget (mat_neg a) i j = neg (mget a i j) /\ mget (mat_scale rows cols a s) i j = mul (mget a i j) s.
Proof.
    intros Sa Sb. split; [apply shape_map2; auto|]. split; [apply shape_map2; auto|]. split; [apply shape_map; auto|]. split; [apply shape_mat_fn|].
    intros i j Hi Hj. split; [apply (mget_map2 add rows cols); auto|]. split; [apply (mget_map2 sub rows cols); auto|]. split; [apply (mget_map neg rows cols); auto|]. unfold mat_scale. rewrite mget_mat_fn by auto. reflexivity.
Qed.
(** Making a matrix symmetric makes it so to the last bit and leaves its diagonal as it was. *)
Theorem C87_symmetrized n (m : mat T) : shape n n m -> shape n n (symmetrized n m) /\
    forall i j, (i < n)%nat -> (j < n)%nat -> mget (symmetrized n m) i j = mget (symmetrized n m) j i /\ mget (symmetrized n m) i i = mget m i i.
Proof.
    intros S. destruct (symmetrized_spec n m S) as [S' E]. split; [exact S'|]. intros i j Hi Hj. rewrite !E by auto. rewrite Nat.eqb_refl. split; [|reflexivity].
    rewrite (Nat.eqb_sym j i). destruct (Nat.eqb_spec i j) as [->|N]; [reflexivity|]. destruct (Nat.ltb_spec i j), (Nat.ltb_spec j i); try lia; reflexivity.
Qed.
(** Reading an entry, a row or a column gives nothing exactly when it lies outside, and a slice is taken exactly when
    its length is that of the matrix, row by row. *)
Theorem C87_reading rows cols (m : mat T) i j : shape rows cols m ->
    ((i < rows)%nat -> (j < cols)%nat -> mat_get m i j = Some (mget m i j)) /\
    ((rows <= i)%nat \/ (cols <= j)%nat -> mat_get m i j = None) /\
    (try_row m i = if Nat.ltb i rows then Some (from_fn cols (mget m i)) else None) /\
    (try_column rows cols m j = if Nat.ltb j cols then Some (from_fn rows (fun r => mget m r j)) else None).
Proof.
    intros [S1 S2]. split; [|split; [|split]].
    - intros Hi Hj. unfold mat_get. rewrite (nth_error_nth' m []) by lia. rewrite (nth_error_nth' (nth i m []) zero) by (rewrite S2; lia). reflexivity.
    - intros [H|H]; unfold mat_get.
      + assert (E : nth_error m i = None) by (apply nth_error_None; lia). rewrite E. reflexivity.
      + destruct (nth_error m i) as [r|] eqn:E; [|reflexivity]. apply nth_error_None. assert (Li : (i < length m)%nat) by (apply nth_error_Some; congruence).
        assert (r = nth i m []) by (symmetry; apply nth_error_nth; auto). subst r. rewrite S2; lia.
    - unfold try_row. destruct (Nat.ltb_spec i rows) as [L|L]; [|apply nth_error_None; lia]. rewrite (nth_error_nth' m []) by lia. f_equal.
      apply (vec_ext cols); [apply S2; auto|unfold from_fn; rewrite map_length, seq_length; reflexivity|]. intros k Hk. rewrite vget_from_fn by auto. reflexivity.
    - reflexivity.
Qed.
Theorem C87_from_slice rows cols (slice : list T) :
    (try_from_row_slice rows cols slice = None <-> length slice <> (rows * cols)%nat) /\
    forall m, try_from_row_slice rows cols slice = Some m -> shape rows cols m /\ concat m = slice.
Proof.
    unfold try_from_row_slice. destruct (Nat.eqb_spec (length slice) (rows * cols)) as [E|E]; (split; [split; [try discriminate; auto|intros; try lia; auto]|]); try discriminate.
    intros m H. injection H as <-. split; [apply shape_mat_fn|].
    (* row by row the entries are those of the slice *)
    assert (G : forall r o, (o + r * cols <= length slice)%nat -> concat (map (fun row => from_fn cols (fun column => vget slice (o + row * cols + column))) (seq 0 r)) = firstn (r * cols) (skipn o slice)).
    { induction r as [|r IH]; intros o Ho; [reflexivity|]. rewrite seq_S, map_app, concat_app. cbn [map concat Nat.add]. rewrite app_nil_r. rewrite IH by lia.
      rewrite (firstn_skipn_comm (r * cols)). replace (S r * cols)%nat with (r * cols + cols)%nat by lia.
      assert (X : from_fn cols (fun column => vget slice (o + r * cols + column)) = firstn cols (skipn (o + r * cols) slice)).
      { apply (vec_ext cols); [unfold from_fn; rewrite map_length, seq_length; reflexivity|rewrite firstn_length, skipn_length; lia|]. intros k Hk. rewrite vget_from_fn by auto. unfold vget.
        assert (NE : forall (l : list T) c d, (d < c)%nat -> nth d (firstn c l) zero = nth d l zero).
        { induction l as [|a l IHl]; intros c d Hd; [rewrite firstn_nil; destruct d; reflexivity|]. destruct c; [lia|]. destruct d; [reflexivity|]. cbn. apply IHl. lia. }
        assert (NS : forall (l : list T) c d, nth d (skipn c l) zero = nth (c + d) l zero).
        { induction l as [|a l IHl]; intros c d; [rewrite skipn_nil; destruct d, c; reflexivity|]. destruct c; [reflexivity|]. cbn. apply IHl. }
        rewrite NE, NS by auto. reflexivity. }
      rewrite X. rewrite <- (firstn_skipn_comm (r * cols)).
      rewrite <- (firstn_skipn (r * cols) (firstn (r * cols + cols) (skipn o slice))). f_equal.
      - rewrite firstn_firstn. f_equal. lia.
      - rewrite skipn_firstn_comm. rewrite skip_twice. f_equal; lia. }
    unfold mat_fn, from_fn at 1. specialize (G rows 0%nat ltac:(lia)). cbn [Nat.add] in G. rewrite G. rewrite skipn_O. rewrite <- E. apply firstn_all.
Qed.
End Any.

(** ** Exact entries *)
Lemma mul_ext rows inner cols (a a' b b' : mat R) : (forall i k, (i < rows)%nat -> (k < inner)%nat -> mget a i k = mget a' i k) ->
  (forall k j, (k < inner)%nat -> (j < cols)%nat -> mget b k j = mget b' k j) -> mat_mul rows inner cols a b = mat_mul rows inner cols a' b'.
Proof. intros H K. apply (mat_ext rows cols); try apply shape_mat_fn. intros i j Hi Hj. rewrite !mget_mul by auto. apply product_ext; auto. Qed.
(** The product of matrices is the sum of the products along the row and the column, it is associative, the identity
    does nothing, it distributes over sums, and a transposed product is the product transposed in the other order. *)
Theorem C87_product n m p (a b : mat R) : shape n m a -> shape m p b ->
  shape n p (mat_mul n m p a b) /\ equal n p (mget (mat_mul n m p a b)) (product m (mget a) (mget b)) /\
  (forall q c, shape p q c -> mat_mul n p q (mat_mul n m p a b) c = mat_mul n m q a (mat_mul m p q b c)) /\
  mat_mul n n m (identity n) a = a /\ mat_mul n m m a (identity m) = a /\
  (forall b', shape m p b' -> mat_mul n m p a (mat_add b b') = mat_add (mat_mul n m p a b) (mat_mul n m p a b')) /\
  (forall a', shape n m a' -> mat_mul n m p (mat_add a a') b = mat_add (mat_mul n m p a b) (mat_mul n m p a' b)) /\
  transpose n p (mat_mul n m p a b) = mat_mul p m n (transpose m p b) (transpose n m a) /\
  (forall v, mat_vec n p (mat_mul n m p a b) v = mat_vec n m a (mat_vec m p b v)).
Proof.
  intros Sa Sb. split; [apply shape_mat_fn|]. split; [intros i j Hi Hj; apply mget_mul; auto|]. split; [|split; [|split; [|split; [|split; [|split]]]]].
  - intros q c Sc. apply (mat_ext n q); try apply shape_mat_fn. intros i j Hi Hj. rewrite !mget_mul by auto.
    rewrite (product_ext p _ (product m (mget a) (mget b)) (mget c) (mget c)) by (intros; auto; apply mget_mul; auto).
    rewrite (product_ext m (mget a) (mget a) _ (product p (mget b) (mget c))) by (intros; auto; apply mget_mul; auto). apply product_assoc.
  - apply (mat_ext n m); auto; [apply shape_mat_fn|]. intros i j Hi Hj. rewrite mget_mul by auto. rewrite (product_ext n _ unit_matrix _ (mget a)) by (intros; auto; rewrite mget_identity by auto; reflexivity). apply product_unit_l; auto.
  - apply (mat_ext n m); auto; [apply shape_mat_fn|]. intros i j Hi Hj. rewrite mget_mul by auto. rewrite (product_ext m (mget a) (mget a) _ unit_matrix) by (intros; auto; rewrite mget_identity by auto; reflexivity). apply product_unit_r; auto.
  - intros b' Sb'. apply (mat_ext n p); [apply shape_mat_fn|apply shape_map2; apply shape_mat_fn|]. intros i j Hi Hj. unfold mat_add at 2. rewrite (mget_map2 add n p) by (auto; apply shape_mat_fn). rewrite !mget_mul by auto.
    unfold product. rnum. rewrite <- bsum_plus. apply bsum_ext. intros k Hk. unfold mat_add. rewrite (mget_map2 _ m p) by auto. rnum. ring.
  - intros a' Sa'. apply (mat_ext n p); [apply shape_mat_fn|apply shape_map2; apply shape_mat_fn|]. intros i j Hi Hj. unfold mat_add at 2. rewrite (mget_map2 add n p) by (auto; apply shape_mat_fn). rewrite !mget_mul by auto.
    unfold product. rnum. rewrite <- bsum_plus. apply bsum_ext. intros k Hk. unfold mat_add. rewrite (mget_map2 _ n m) by auto. rnum. ring.
  - apply (mat_ext p n); [apply shape_mat_fn|apply shape_mat_fn|]. intros i j Hi Hj. rewrite mget_transpose, !mget_mul by auto. unfold product. apply bsum_ext. intros k Hk. rewrite !mget_transpose by auto. ring.
  - intros v. apply (vec_ext n); try (unfold mat_vec, from_fn; rewrite map_length, seq_length; reflexivity). intros i Hi. rewrite !vget_mat_vec by auto.
    rewrite (times_ext p _ (product m (mget a) (mget b)) (vget v) (vget v)); [|intros; apply mget_mul; auto|intros k Hk; reflexivity].
    rewrite (times_ext m (mget a) (mget a) _ (times p (mget b) (vget v))); [apply times_product|auto|]. intros k Hk. apply vget_mat_vec; auto.
Qed.
(** The trace is the sum of the diagonal and does not depend on the order of two factors; the Frobenius norm is the
    root of the sum of the squares; making a matrix symmetric keeps its form, and keeps it whole if it is symmetric. *)
Theorem C87_trace n m (a b : mat R) : shape n m a -> shape m n b ->
  trace n (mat_mul n m n a b) = bsum n (fun i => mget (mat_mul n m n a b) i i) /\
  trace n (mat_mul n m n a b) = trace m (mat_mul m n m b a).
Proof.
  intros Sa Sb. assert (TR : forall k (x : mat R), trace k x = bsum k (fun i => mget x i i)) by (intros; apply loop_sum_bsum).
  split; [apply TR|]. rewrite !TR. rewrite (bsum_ext n _ (fun i => bsum m (fun k => mget a i k * mget b k i))) by (intros; rewrite mget_mul by auto; reflexivity).
  rewrite bsum_swap. apply bsum_ext. intros k Hk. rewrite mget_mul by auto. unfold product. apply bsum_ext. intros; ring.
Qed.
Lemma fold_squares (l : list R) : forall s, fold_left (fun acc x => acc + x * x) l s = s + fold_right (fun x acc => x * x + acc) 0 l.
Proof. induction l as [|x l IH]; intros s; cbn; [ring|]. rewrite IH. ring. Qed.
Lemma row_squares (l : list R) : fold_right (fun x acc => x * x + acc) 0 l = bsum (length l) (fun j => vget l j * vget l j).
Proof. induction l as [|x l IH]; [reflexivity|]. cbn [length fold_right]. rewrite bsum_first, IH. reflexivity. Qed.
Lemma squares_app (l l' : list R) : fold_right (fun x acc => x * x + acc) 0 (l ++ l') = fold_right (fun x acc => x * x + acc) 0 l + fold_right (fun x acc => x * x + acc) 0 l'.
Proof. induction l as [|x l IH]; cbn; [ring|]. rewrite IH. ring. Qed.
Theorem C87_frobenius rows cols (a : mat R) : shape rows cols a ->
  frobenius_norm a = R_sqrt.sqrt (bsum rows (fun i => bsum cols (fun j => mget a i j * mget a i j))) /\
  (frobenius_norm a = 0 <-> equal rows cols (mget a) (fun _ _ => 0)).
Proof.
  intros [S1 S2]. assert (E : frobenius_norm a = R_sqrt.sqrt (bsum rows (fun i => bsum cols (fun j => mget a i j * mget a i j)))).
  { unfold frobenius_norm. rnum. f_equal. rewrite fold_squares, Rplus_0_l. rewrite <- S1.
    assert (G : forall (l : mat R), (forall r, In r l -> length r = cols) -> fold_right (fun x acc => x * x + acc) 0 (concat l) = bsum (length l) (fun i => bsum cols (fun j => mget l i j * mget l i j))).
    { induction l as [|r l IH]; intros H; [reflexivity|]. cbn [concat length]. rewrite squares_app, bsum_first, IH by (intros; apply H; right; auto). rewrite row_squares, (H r) by (left; auto). reflexivity. }
    apply G. intros r Hr. destruct (In_nth _ _ [] Hr) as (i & Hi & <-). apply S2. lia. }
  split; [exact E|]. rewrite E. set (s := bsum rows _).
  assert (P : forall i, (i < rows)%nat -> 0 <= bsum cols (fun j => mget a i j * mget a i j)) by (intros; apply bsum_nonneg; intros; nra).
  split.
  - intros Z. apply sqrt_eq_0 in Z; [|apply bsum_nonneg; auto]. intros i j Hi Hj.
    assert (R0 : bsum cols (fun j => mget a i j * mget a i j) = 0) by (apply (bsum_zero_terms rows (fun i => bsum cols (fun j => mget a i j * mget a i j))); auto).
    assert (mget a i j * mget a i j = 0) by (apply (bsum_zero_terms cols (fun j => mget a i j * mget a i j)); auto; intros; nra). nra.
  - intros Z. unfold s. rewrite (bsum_ext rows _ (fun _ => 0)); [rewrite bsum_0; apply sqrt_0|]. intros i Hi. rewrite (bsum_ext cols _ (fun _ => 0)); [apply bsum_0|]. intros j Hj. rewrite Z by auto. ring.
Qed.
Theorem C87_symmetrized_form n (m : mat R) : shape n n m ->
  (forall x, dot_product n x (times n (mget (symmetrized n m)) x) = dot_product n x (times n (mget m) x)) /\
  (symmetric n (mget m) -> symmetrized n m = m).
Proof.
  intros S. destruct (symmetrized_spec n m S) as [S' E].
  assert (H : forall i j, (i < n)%nat -> (j < n)%nat -> mget (symmetrized n m) i j = (mget m i j + mget m j i) / 2).
  { intros i j Hi Hj. rewrite E by auto. rnum. destruct (Nat.eqb_spec i j) as [->|]; [field|]. destruct (Nat.ltb i j); field. }
  split.
  - intros x. unfold dot_product, times.
    assert (X : forall (a : matrix), bsum n (fun k => x k * bsum n (fun k0 => a k k0 * x k0)) = bsum n (fun k => bsum n (fun l => a k l * (x k * x l)))) by (intros; apply bsum_ext; intros; rewrite <- bsum_scal; apply bsum_ext; intros; ring).
    rewrite !X. rewrite (bsum_ext n _ (fun k => bsum n (fun l => / 2 * (mget m k l * (x k * x l))) + bsum n (fun l => / 2 * (mget m l k * (x l * x k))))).
    + rewrite bsum_plus. rewrite (bsum_swap n n (fun k l => / 2 * (mget m l k * (x l * x k)))). rewrite <- bsum_plus. apply bsum_ext. intros k Hk. rewrite <- bsum_plus. apply bsum_ext. intros l Hl. field.
    + intros k Hk. rewrite <- bsum_plus. apply bsum_ext. intros l Hl. rewrite H by auto. field.
  - intros Y. apply (mat_ext n n); auto. intros i j Hi Hj. rewrite H by auto. rewrite (Y j i) by auto. unfold transposed. field.
Qed.

(** ** Vectors *)
Lemma dot_bsum : forall (u v : list R), length u = length v -> dot u v = dot_product (length u) (vget u) (vget v).
Proof.
  assert (G : forall (u v : list R) s, length u = length v -> fold_left (fun sum (ab : R * R) => sum + fst ab * snd ab) (combine u v) s = s + bsum (length u) (fun k => vget u k * vget v k)).
  { induction u as [|a u IH]; intros v s L; destruct v as [|b v]; try discriminate; [cbn; ring|]. cbn [combine fold_left length fst snd]. rewrite IH by (injection L; auto). rewrite bsum_first. cbn [vget nth]. unfold vget. cbn [nth]. ring. }
  intros u v L. unfold dot. rnum. rewrite G by auto. unfold dot_product. ring.
Qed.
(** The dot product is the sum of the products, it does not depend on the order, it is bounded by the lengths, the
    length of a sum by the sum of the lengths, and only the zero vector has length zero. *)
Theorem C88_dot (u v : list R) : length u = length v ->
  dot u v = dot_product (length u) (vget u) (vget v) /\ dot u v = dot v u /\
  norm u = R_sqrt.sqrt (square_norm (length u) (vget u)) /\ Rabs (dot u v) <= norm u * norm v /\ norm (vec_add u v) <= norm u + norm v /\
  (norm u = 0 <-> forall i, (i < length u)%nat -> vget u i = 0).
Proof.
  intros L. pose proof (dot_bsum u v L) as D. pose proof (dot_bsum v u ltac:(lia)) as D'. pose proof (dot_bsum u u eq_refl) as U. pose proof (dot_bsum v v eq_refl) as V.
  assert (NU : norm u = R_sqrt.sqrt (square_norm (length u) (vget u))) by (unfold norm, norm_squared; rewrite U; reflexivity).
  assert (NV : norm v = R_sqrt.sqrt (square_norm (length u) (vget v))) by (unfold norm, norm_squared; rewrite V, L; reflexivity).
  pose proof (square_norm_nonneg (length u) (vget u)) as PU. pose proof (square_norm_nonneg (length u) (vget v)) as PV.
  assert (CS : Rabs (dot u v) <= norm u * norm v).
  { rewrite NU, NV, <- sqrt_mult by auto. rewrite D. apply Rsqr_incr_0_var; [|apply sqrt_pos]. rewrite <- Rsqr_abs. unfold Rsqr. rewrite sqrt_sqrt by nra. apply cauchy_square. }
  split; [exact D|]. split; [rewrite D, D', <- L; apply dot_comm|]. split; [exact NU|]. split; [exact CS|]. split.
  - assert (LA : length (vec_add u v) = length u) by (unfold vec_add; apply map2_length; auto).
    assert (NA : norm (vec_add u v) = R_sqrt.sqrt (square_norm (length u) (fun i => vget u i + vget v i))).
    { unfold norm, norm_squared. rewrite (dot_bsum _ _ eq_refl), LA. unfold square_norm. rnum. f_equal. apply dot_ext; intros i Hi; unfold vget, vec_add; rewrite (nth_map2 add 0 0 0) by lia; reflexivity. }
    assert (P0 : 0 <= norm u + norm v) by (rewrite NU, NV; pose proof (sqrt_pos (square_norm (length u) (vget u))); pose proof (sqrt_pos (square_norm (length u) (vget v))); lra).
    rewrite NA. apply Rsqr_incr_0_var; auto. unfold Rsqr. rewrite sqrt_sqrt by apply square_norm_nonneg. rewrite dot_plus, <- D.
    assert (SU : norm u * norm u = square_norm (length u) (vget u)) by (rewrite NU; apply sqrt_sqrt; auto). assert (SV : norm v * norm v = square_norm (length u) (vget v)) by (rewrite NV; apply sqrt_sqrt; auto).
    rewrite <- SU, <- SV. pose proof (Rle_abs (dot u v)). lra.
  - rewrite NU. split.
    + intros Z. apply sqrt_eq_0 in Z; auto. apply square_norm_zero; auto.
    + intros Z. unfold square_norm, dot_product. rewrite (bsum_ext _ _ (fun _ => 0)); [rewrite bsum_0; apply sqrt_0|]. intros i Hi. rewrite Z by auto. ring.
Qed.
(** A vector other than zero is brought to length one along the same direction; the zero vector has no direction and
    the checked form says so. *)
Theorem C88_normalized (u : list R) : (norm u <> 0 -> try_normalized u = Some (normalized u) /\ norm (normalized u) = 1 /\ vec_scale (normalized u) (norm u) = u) /\
  (norm u = 0 -> try_normalized u = None).
Proof.
  destruct (C88_dot u u eq_refl) as (_ & _ & NU & _). split.
  - intros N. assert (E : forall x, safe_div x (norm u) = x / norm u). { intros x. unfold safe_div. change (eqb (norm u) zero) with (Reqb (norm u) 0). destruct (Reqb (norm u) 0) eqn:Q; rcases; [lra|reflexivity]. }
    split; [|split].
    + unfold try_normalized. cbv zeta. change (is_nan (norm u)) with false. change (eqb (norm u) zero) with (Reqb (norm u) 0). destruct (Reqb (norm u) 0) eqn:Q; rcases; [lra|]. reflexivity.
    + assert (LN : length (normalized u) = length u) by (unfold normalized, vec_div; apply map_length).
      assert (S : norm_squared (normalized u) = 1).
      { unfold norm_squared. rewrite (dot_bsum _ _ eq_refl), LN. unfold dot_product. rewrite (bsum_ext _ _ (fun k => / (norm u * norm u) * (vget u k * vget u k))).
        - rewrite bsum_scal. change (bsum (length u) (fun k => vget u k * vget u k)) with (square_norm (length u) (vget u)). rewrite NU, sqrt_sqrt by apply square_norm_nonneg. apply Rinv_l. intros Z. rewrite Z, sqrt_0 in NU. contradiction.
        - intros k Hk. unfold normalized, vec_div, vget. rewrite (nth_indep _ zero (safe_div 0 (norm u))) by (rewrite map_length; auto). rewrite (map_nth (fun a => safe_div a (norm u)) u 0). rewrite E. change (@zero R Rnum) with 0. field. auto. }
      unfold norm. rewrite S. apply sqrt_1.
    + unfold vec_scale, normalized, vec_div. rewrite map_map. transitivity (map (fun x : R => x) u); [|apply map_id]. apply map_ext. intros x. rewrite E. rnum. field. auto.
  - intros Z. unfold try_normalized. cbv zeta. rewrite Z. change (is_nan 0) with false. change (eqb 0 zero) with (Reqb 0 0). destruct (Reqb 0 0) eqn:Q; rcases; [reflexivity|lra].
Qed.
(** The cross product is perpendicular to both factors, changes sign with their order, and its length is the area they
    span; in the plane it is the signed area. *)
Theorem C88_cross (ux uy uz vx vy vz : R) : let '(cx, cy, cz) := cross3 (ux, uy, uz) (vx, vy, vz) in
  cx * ux + cy * uy + cz * uz = 0 /\ cx * vx + cy * vy + cz * vz = 0 /\
  cross3 (vx, vy, vz) (ux, uy, uz) = (- cx, - cy, - cz) /\
  cx * cx + cy * cy + cz * cz = (ux * ux + uy * uy + uz * uz) * (vx * vx + vy * vy + vz * vz) - (ux * vx + uy * vy + uz * vz) * (ux * vx + uy * vy + uz * vz) /\
  cross3 (1, 0, 0) (0, 1, 0) = (0, 0, 1) /\ cross2 (ux, uy) (vx, vy) = cz.
Proof.
  unfold cross3, cross2. rnum. cbn [fst snd]. split; [ring|]. split; [ring|]. split; [f_equal; [f_equal|]; ring|]. split; [ring|]. split; [f_equal; [f_equal|]; ring|ring].
Qed.
Example C87_example : exists n m p (a b : mat R), shape n m a /\ shape m p b /\ mat_mul n m p a b = [[5; 11]; [11; 25]].
Proof.
  exists 2%nat, 2%nat, 2%nat, [[1; 2]; [3; 4]], [[1; 3]; [2; 4]].
  split; [split; [reflexivity|intros i Hi; destruct i as [|[|]]; try lia; reflexivity]|]. split; [split; [reflexivity|intros i Hi; destruct i as [|[|]]; try lia; reflexivity]|].
  unfold mat_mul, mat_fn, from_fn, loop_sum, mget. cbn [seq map fold_left nth]. rnum. f_equal; [f_equal; [ring|f_equal; ring]|f_equal; f_equal; [ring|f_equal; ring]].
Qed.
Example C88_example : exists u : list R, norm u = 5 /\ length u = 2%nat.
Proof.
  exists [3; 4]. split; [|reflexivity]. unfold norm, norm_squared, dot. cbn [combine fold_left fst snd]. rnum. replace (0 + 3 * 3 + 4 * 4) with (5 * 5) by ring. apply sqrt_square. lra.
Qed.

Print Assumptions C87_transpose.
Print Assumptions C87_entrywise.
Print Assumptions C87_symmetrized.
Print Assumptions C87_reading.
Print Assumptions C87_from_slice.
Print Assumptions C87_product.
Print Assumptions C87_trace.
Print Assumptions C87_frobenius.
Print Assumptions C87_symmetrized_form.
Print Assumptions C88_dot.
Print Assumptions C88_normalized.
Print Assumptions C88_cross.
Print Assumptions C87_example.
Print Assumptions C88_example.
