(** Square real matrices as functions: the laws by which products are rewritten, powers, and quadratic forms. *)
From Coq Require Import Reals List Arith Lia Lra Psatz FunctionalExtensionality.
From Verif Require Import Base.Scalar Base.RNum Base.Lists Base.Series Model.Vector Model.Matrix Spec.Matrix Proofs.Matrix Proofs.Qr Proofs.Svd.
Local Open Scope R_scope.


Ltac matrix_ext := apply functional_extensionality; intros ?i; apply functional_extensionality; intros ?j.

Lemma p_assoc n m a b c : product m (product n a b) c = product n a (product m b c).
Proof. matrix_ext. apply product_assoc. Qed.
Lemma p_plus_l n a b c : product n (plus_matrix a b) c = plus_matrix (product n a c) (product n b c).
Proof. matrix_ext. unfold product, plus_matrix. rewrite <- bsum_plus. apply bsum_ext. intros; ring. Qed.
Lemma p_plus_r n a b c : product n a (plus_matrix b c) = plus_matrix (product n a b) (product n a c).
Proof. matrix_ext. unfold product, plus_matrix. rewrite <- bsum_plus. apply bsum_ext. intros; ring. Qed.
Lemma p_minus_l n a b c : product n (minus_matrix a b) c = minus_matrix (product n a c) (product n b c).
Proof. matrix_ext. unfold product, minus_matrix. rewrite <- bsum_minus. apply bsum_ext. intros; ring. Qed.
Lemma p_minus_r n a b c : product n a (minus_matrix b c) = minus_matrix (product n a b) (product n a c).
Proof. matrix_ext. unfold product, minus_matrix. rewrite <- bsum_minus. apply bsum_ext. intros; ring. Qed.
Lemma p_scaled_l n s a b : product n (scaled_matrix s a) b = scaled_matrix s (product n a b).
Proof. matrix_ext. unfold product, scaled_matrix. rewrite <- bsum_scal. apply bsum_ext. intros; ring. Qed.
Lemma p_scaled_r n s a b : product n a (scaled_matrix s b) = scaled_matrix s (product n a b).
Proof. matrix_ext. unfold product, scaled_matrix. rewrite <- bsum_scal. apply bsum_ext. intros; ring. Qed.
Lemma p_zero_l n b : product n zero_matrix b = zero_matrix.
Proof. matrix_ext. unfold product, zero_matrix. rewrite (bsum_ext n _ (fun _ => 0)) by (intros; ring). apply bsum_0. Qed.
Lemma p_zero_r n b : product n b zero_matrix = zero_matrix.
Proof. matrix_ext. unfold product, zero_matrix. rewrite (bsum_ext n _ (fun _ => 0)) by (intros; ring). apply bsum_0. Qed.
Lemma t_product n a b : transposed (product n a b) = product n (transposed b) (transposed a).
Proof. matrix_ext. symmetry. apply product_transposed. Qed.
Lemma t_plus a b : transposed (plus_matrix a b) = plus_matrix (transposed a) (transposed b).
Proof. reflexivity. Qed.
Lemma t_minus a b : transposed (minus_matrix a b) = minus_matrix (transposed a) (transposed b).
Proof. reflexivity. Qed.
Lemma t_scaled c a : transposed (scaled_matrix c a) = scaled_matrix c (transposed a).
Proof. reflexivity. Qed.
Lemma t_twice a : transposed (transposed a) = a.
Proof. reflexivity. Qed.
Lemma t_unit : transposed unit_matrix = unit_matrix.
Proof. matrix_ext. unfold transposed, unit_matrix. rewrite Nat.eqb_sym. reflexivity. Qed.
#[global] Hint Rewrite p_plus_l p_plus_r p_minus_l p_minus_r p_scaled_l p_scaled_r p_zero_l p_zero_r p_assoc t_product t_plus t_minus t_scaled t_twice t_unit : mats.

(** [equal] is a congruence. *)
Lemma equal_refl r c a : equal r c a a. Proof. intros i j _ _. reflexivity. Qed.
Lemma equal_sym r c a b : equal r c a b -> equal r c b a. Proof. intros H i j Hi Hj. symmetry. auto. Qed.
Lemma equal_trans r c a b d : equal r c a b -> equal r c b d -> equal r c a d. Proof. intros H K i j Hi Hj. rewrite H; auto. Qed.
Lemma equal_product r n c a a' b b' : equal r n a a' -> equal n c b b' -> equal r c (product n a b) (product n a' b').
Proof. intros H K i j Hi Hj. apply product_ext; auto. Qed.
Lemma product_left n a a' b : equal n n a a' -> equal n n (product n a b) (product n a' b).
Proof. intros H. apply equal_product; auto. apply equal_refl. Qed.
(** Equal inner factors give the same function. *)
Lemma middle r c a a' b d : equal r c a a' -> product r b (product c a d) = product r b (product c a' d).
Proof. intros H. matrix_ext. apply product_ext; auto. intros k Hk. apply product_ext; auto. Qed.
Lemma unit_inside_l n a b : product n a (product n unit_matrix b) = product n a b.
Proof. matrix_ext. apply product_ext; auto. intros; apply product_unit_l; auto. Qed.
Lemma unit_inside_r n a b : product n (product n a unit_matrix) b = product n a b.
Proof. matrix_ext. apply product_ext; auto. intros; apply product_unit_r; auto. Qed.

(** ** Powers *)
Lemma power_one n a : equal n n (power n a 1) a.
Proof. intros i j Hi Hj. cbn. apply product_unit_l; auto. Qed.
Lemma power_plus n a p q : equal n n (product n (power n a p) (power n a q)) (power n a (p + q)).
Proof.
  induction q as [|q IH]; [rewrite Nat.add_0_r; intros i j Hi Hj; apply product_unit_r; auto|]. rewrite Nat.add_succ_r. cbn [power].
  rewrite <- p_assoc. apply product_left. exact IH.
Qed.
Lemma power_comm n a k : equal n n (product n a (power n a k)) (product n (power n a k) a).
Proof.
  induction k as [|k IH]; [intros i j Hi Hj; cbn; rewrite product_unit_l, product_unit_r by auto; reflexivity|]. cbn [power].
  rewrite <- p_assoc. apply product_left. exact IH.
Qed.
Lemma power_left n a k : equal n n (power n a (S k)) (product n a (power n a k)).
Proof. apply equal_sym, power_comm. Qed.
Lemma power_ext n a b k : equal n n a b -> equal n n (power n a k) (power n b k).
Proof. intros H. induction k as [|k IH]; [apply equal_refl|]. cbn. apply equal_product; auto. Qed.

(** ** Forms and norms *)
Lemma times_assoc n a b x : times n (product n a b) x = times n a (times n b x).
Proof. apply functional_extensionality. intros i. apply times_product. Qed.
Lemma quadratic_sandwich n a q x : quadratic n (product n (transposed a) (product n q a)) x = quadratic n q (times n a x).
Proof.
  unfold quadratic. rewrite !times_assoc. set (y := times n a x). set (z := times n q y). unfold dot_product, times at 1, y, transposed.
  rewrite (bsum_ext n _ (fun i => bsum n (fun k => x i * a k i * z k))) by (intros; rewrite <- bsum_scal; apply bsum_ext; intros; ring).
  rewrite bsum_swap. apply bsum_ext. intros k Hk. unfold times. rewrite Rmult_comm, <- bsum_scal. apply bsum_ext. intros; ring.
Qed.
Lemma quadratic_ext n a b x : equal n n a b -> quadratic n a x = quadratic n b x.
Proof. intros H. unfold quadratic, dot_product. apply bsum_ext. intros i Hi. f_equal. apply times_ext; [intros; apply H; auto|intros k Hk; reflexivity]. Qed.
Lemma quadratic_plus n a b x : quadratic n (plus_matrix a b) x = quadratic n a x + quadratic n b x.
Proof. unfold quadratic, dot_product. rewrite <- bsum_plus. apply bsum_ext. intros i Hi. unfold times, plus_matrix. rewrite (bsum_ext n _ (fun k => a i k * x k + b i k * x k)) by (intros; ring). rewrite bsum_plus. ring. Qed.
Lemma quadratic_minus n a b x : quadratic n (minus_matrix a b) x = quadratic n a x - quadratic n b x.
Proof. unfold quadratic, dot_product. rewrite <- bsum_minus. apply bsum_ext. intros i Hi. unfold times, minus_matrix. rewrite (bsum_ext n _ (fun k => a i k * x k - b i k * x k)) by (intros; ring). rewrite bsum_minus. ring. Qed.
Lemma cauchy_square n x y : dot_product n x y * dot_product n x y <= square_norm n x * square_norm n y.
Proof.
  (* the square of |x|^2 y - (x.y) x is not negative *)
  assert (H : 0 <= square_norm n x * (square_norm n x * square_norm n y - dot_product n x y * dot_product n x y)).
  { replace (square_norm n x * (square_norm n x * square_norm n y - dot_product n x y * dot_product n x y))
      with (square_norm n (fun i => square_norm n x * y i - dot_product n x y * x i)); [apply square_norm_nonneg|].
    set (a := square_norm n x). set (b := dot_product n x y).
    transitivity (a * a * square_norm n y - 2 * a * b * dot_product n x y + b * b * square_norm n x).
    - unfold square_norm, dot_product. rewrite <- !bsum_scal. rewrite <- bsum_minus, <- bsum_plus. apply bsum_ext. intros; ring.
    - fold a b. ring. }
  destruct (square_norm_nonneg n x) as [P|Z]; [nra|]. symmetry in Z.
  assert (D : dot_product n x y = 0). { unfold dot_product. rewrite (bsum_ext n _ (fun _ => 0)); [apply bsum_0|]. intros i Hi. rewrite (square_norm_zero n x Z i Hi). ring. }
  rewrite D, Z. lra.
Qed.
(** The sum of the squares of the entries, and what it bounds. *)
Lemma squares_sum_nonneg n a : 0 <= squares_sum n a.
Proof. apply bsum_nonneg. intros. apply bsum_nonneg. intros; nra. Qed.
Lemma squares_sum_ext n a b : equal n n a b -> squares_sum n a = squares_sum n b.
Proof. intros H. apply bsum_ext. intros i Hi. apply bsum_ext. intros j Hj. rewrite H; auto. Qed.
Lemma times_bound n a x : square_norm n (times n a x) <= squares_sum n a * square_norm n x.
Proof.
  unfold squares_sum. rewrite Rmult_comm, <- bsum_scal. unfold square_norm at 1, dot_product. apply bsum_le. intros i Hi.
  pose proof (cauchy_square n (a i) x) as C. unfold square_norm, dot_product in C. unfold times, square_norm, dot_product. lra.
Qed.
Lemma product_bound n a b : squares_sum n (product n a b) <= squares_sum n a * squares_sum n b.
Proof.
  unfold squares_sum at 1.
  apply Rle_trans with (bsum n (fun i => bsum n (fun j => square_norm n (a i) * square_norm n (fun k => b k j)))).
  - apply bsum_le. intros i Hi. apply bsum_le. intros j Hj. pose proof (cauchy_square n (a i) (fun k => b k j)) as C. exact C.
  - rewrite (bsum_ext n _ (fun i => squares_sum n b * square_norm n (a i))).
    + rewrite bsum_scal. unfold squares_sum, square_norm, dot_product. lra.
    + intros i Hi. rewrite bsum_scal. rewrite Rmult_comm. f_equal. unfold squares_sum, square_norm, dot_product. apply bsum_swap.
Qed.
Lemma squares_sum_transposed n a : squares_sum n (transposed a) = squares_sum n a.
Proof. unfold squares_sum, transposed. apply bsum_swap. Qed.
Lemma quadratic_bound n a x : Rabs (quadratic n a x) <= R_sqrt.sqrt (squares_sum n a) * square_norm n x.
Proof.
  pose proof (cauchy_square n x (times n a x)) as C. pose proof (times_bound n a x) as B. pose proof (square_norm_nonneg n x) as P. pose proof (squares_sum_nonneg n a) as Q.
  apply Rsqr_incr_0_var; [|apply Rmult_le_pos; [apply sqrt_pos|exact P]]. rewrite <- Rsqr_abs. unfold Rsqr.
  replace (R_sqrt.sqrt (squares_sum n a) * square_norm n x * (R_sqrt.sqrt (squares_sum n a) * square_norm n x)) with ((R_sqrt.sqrt (squares_sum n a) * R_sqrt.sqrt (squares_sum n a)) * square_norm n x * square_norm n x) by ring.
  rewrite sqrt_sqrt by auto. apply Rle_trans with (1 := C). nra.
Qed.
Lemma pair_cauchy n a b : bsum n (fun i => bsum n (fun j => a i j * b i j)) * bsum n (fun i => bsum n (fun j => a i j * b i j)) <= squares_sum n a * squares_sum n b.
Proof.
  set (s := bsum n (fun i => bsum n (fun j => a i j * b i j))). set (A := squares_sum n a).
  assert (H : 0 <= A * (A * squares_sum n b - s * s)).
  { replace (A * (A * squares_sum n b - s * s)) with (squares_sum n (fun i j => A * b i j - s * a i j)); [apply squares_sum_nonneg|].
    assert (E : forall x y, squares_sum n (fun i j => x * b i j - y * a i j) = x * x * squares_sum n b - 2 * x * y * s + y * y * A).
    { intros x y. unfold squares_sum, s, A. unfold squares_sum. rewrite <- !bsum_scal. rewrite <- bsum_minus, <- bsum_plus. apply bsum_ext. intros i Hi. rewrite <- !bsum_scal. rewrite <- bsum_minus, <- bsum_plus. apply bsum_ext. intros; ring. }
    rewrite E. ring. }
  destruct (squares_sum_nonneg n a) as [P|Z]; fold A in P || fold A in Z; [nra|]. rewrite <- Z.
  assert (Q : forall i j, (i < n)%nat -> (j < n)%nat -> a i j = 0).
  { intros i j Hi Hj. symmetry in Z. assert (R0 : bsum n (fun j => a i j * a i j) = 0) by (apply (bsum_zero_terms n (fun i => bsum n (fun j => a i j * a i j))); auto; intros; apply bsum_nonneg; intros; nra).
    assert (a i j * a i j = 0) by (apply (bsum_zero_terms n (fun j => a i j * a i j)); auto; intros; nra). nra. }
  assert (s = 0). { unfold s. rewrite (bsum_ext n _ (fun _ => 0)); [apply bsum_0|]. intros i Hi. rewrite (bsum_ext n _ (fun _ => 0)); [apply bsum_0|]. intros j Hj. rewrite Q by auto. ring. }
  nra.
Qed.
(** The Frobenius norm. *)
Definition frobenius (n : nat) (a : matrix) : R := R_sqrt.sqrt (squares_sum n a).
Lemma frobenius_nonneg n a : 0 <= frobenius n a. Proof. apply sqrt_pos. Qed.
Lemma frobenius_sqr n a : frobenius n a * frobenius n a = squares_sum n a. Proof. apply sqrt_sqrt, squares_sum_nonneg. Qed.
Lemma frobenius_ext n a b : equal n n a b -> frobenius n a = frobenius n b. Proof. intros H. unfold frobenius. rewrite (squares_sum_ext n a b H). reflexivity. Qed.
Lemma frobenius_plus n a b : frobenius n (plus_matrix a b) <= frobenius n a + frobenius n b.
Proof.
  pose proof (frobenius_nonneg n a) as A. pose proof (frobenius_nonneg n b) as B. apply Rsqr_incr_0_var; [|lra]. unfold Rsqr. rewrite frobenius_sqr.
  set (s := bsum n (fun i => bsum n (fun j => a i j * b i j))).
  assert (E : squares_sum n (plus_matrix a b) = squares_sum n a + 2 * s + squares_sum n b).
  { unfold squares_sum, s, plus_matrix. rewrite <- bsum_scal, <- !bsum_plus. apply bsum_ext. intros i Hi. rewrite <- bsum_scal, <- !bsum_plus. apply bsum_ext. intros; ring. }
  rewrite E, <- !frobenius_sqr. assert (S : s <= frobenius n a * frobenius n b).
  { apply Rsqr_incr_0_var; [|nra]. unfold Rsqr. pose proof (pair_cauchy n a b) as C. fold s in C. rewrite <- !frobenius_sqr in C. nra. }
  nra.
Qed.
Lemma frobenius_product n a b : frobenius n (product n a b) <= frobenius n a * frobenius n b.
Proof.
  pose proof (frobenius_nonneg n a) as A. pose proof (frobenius_nonneg n b) as B. apply Rsqr_incr_0_var; [|nra]. unfold Rsqr. rewrite frobenius_sqr. pose proof (product_bound n a b) as C. rewrite <- (frobenius_sqr n a), <- (frobenius_sqr n b) in C. nra.
Qed.
Lemma frobenius_transposed n a : frobenius n (transposed a) = frobenius n a.
Proof. unfold frobenius. rewrite squares_sum_transposed. reflexivity. Qed.
