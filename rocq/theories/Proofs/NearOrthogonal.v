(** Square matrices whose columns have length one and are nearly orthogonal, and what solving by a settled decomposition leaves. *)
From Coq Require Import ZArith List Bool Arith Reals Lra Lia Psatz.
From Verif Require Import Base.Scalar Base.RNum Base.Lists Base.Series Model.Errors Model.Vector Model.Matrix Model.Lu Model.Svd Spec.Matrix Spec.Svd Proofs.Matrix Proofs.Lu Proofs.Svd Proofs.Pinv Proofs.Algebra Props.Svd.
Import ListNotations.
Local Open Scope R_scope.
Local Notation length := List.length.

Lemma Rabs_between x a : Rabs x <= a -> - a <= x <= a.
Proof. unfold Rabs. destruct (Rcase_abs x); lra. Qed.
(** A square matrix that sends only zero to zero reaches every vector. *)
Lemma regular_reaches n (a : matrix) b : ~ singular n a -> exists y, equal_vectors n (times n a y) b.
Proof.
  intros N. set (m := mat_fn n n a). assert (H : shape n n m) by apply shape_mat_fn. assert (E : forall i j, (i < n)%nat -> (j < n)%nat -> mget m i j = a i j) by (intros; apply mget_mat_fn; auto).
  assert (TE : forall x, equal_vectors n (times n (mget m) x) (times n a x)) by (intros x i Hi; apply times_ext; [intros; apply E; auto|intros k Hk; reflexivity]).
  pose proof (factor_spec n m H) as F. destruct (factor_lu n m) as [[g s]|e|]; [| |destruct F].
  - assert (L : length (map b (seq 0 n)) = n) by (rewrite map_length, seq_length; reflexivity). destruct (done_solve n (mget m) g s F _ L) as [_ S]. exists (vget (lu_solve n g (map b (seq 0 n)))). intros i Hi. rewrite <- TE by auto. rewrite S by auto.
    unfold vget. rewrite (nth_indep _ _ (b 0%nat)) by lia. rewrite map_nth. rewrite seq_nth by auto. reflexivity.
  - exfalso. apply N. destruct F as (_ & (x & X & Z) & _). exists x. split; [exact X|]. intros i Hi. rewrite <- TE by auto. apply Z. exact Hi.
Qed.
Lemma singular_zero n a : (forall x, equal_vectors n (times n a x) (fun _ => 0) -> square_norm n x = 0) -> ~ singular n a.
Proof. intros H (x & (i & Hi & Nx) & Z). apply Nx. apply (square_norm_zero n x (H x Z) i Hi). Qed.
Lemma square_norm_ext n x y : equal_vectors n x y -> square_norm n x = square_norm n y.
Proof. intros H. unfold square_norm, dot_product. apply bsum_ext. intros k K. rewrite H by auto. reflexivity. Qed.
Lemma square_norm_0 n : square_norm n (fun _ => 0) = 0.
Proof. unfold square_norm, dot_product. rewrite (bsum_ext n _ (fun _ => 0)) by (intros; ring). apply bsum_0. Qed.

Section Near.
  Variables (n : nat) (U : matrix) (eps : R).
  Hypothesis UNIT : forall p, (p < n)%nat -> square_norm n (column U p) = 1.
  Hypothesis NEAR : forall p q, (p < n)%nat -> (q < n)%nat -> p <> q -> Rabs (dot_product n (column U p) (column U q)) <= eps.
  Hypothesis SMALL : 0 <= eps /\ INR n * eps <= 1 / 8.
  Let eta := INR n * eps.
  Definition overlap : matrix := fun p q => dot_product n (column U p) (column U q) - unit_matrix p q.
  Lemma eta_pos : 0 <= eta. Proof. unfold eta. apply Rmult_le_pos; [apply pos_INR|apply SMALL]. Qed.
  Lemma gram_form y z : dot_product n (times n U y) (times n U z) = dot_product n y z + dot_product n y (times n overlap z).
  Proof.
    rewrite dot_transposed. unfold dot_product at 1 2 3. rewrite <- bsum_plus. apply bsum_ext. intros p Hp. rewrite <- Rmult_plus_distr_l. f_equal.
    transitivity (bsum n (fun q => dot_product n (column U p) (column U q) * z q)).
    - unfold times, transposed, dot_product, column. rewrite (bsum_ext n _ (fun i => bsum n (fun q => U i p * U i q * z q))) by (intros; rewrite <- bsum_scal; apply bsum_ext; intros; ring).
      rewrite bsum_swap. apply bsum_ext. intros q Hq. rewrite Rmult_comm, <- bsum_scal. apply bsum_ext. intros; ring.
    - unfold times, overlap. rewrite (bsum_ext n _ (fun q => unit_matrix p q * z q + (dot_product n (column U p) (column U q) - unit_matrix p q) * z q)) by (intros; ring). rewrite bsum_plus. f_equal. apply (times_unit n z p Hp).
  Qed.
  Lemma overlap_bound z : square_norm n (times n overlap z) <= eta * eta * square_norm n z.
  Proof.
    eapply Rle_trans; [apply times_bound|]. apply Rmult_le_compat_r; [apply square_norm_nonneg|]. unfold squares_sum.
    apply Rle_trans with (bsum n (fun _ => bsum n (fun _ => eps * eps))); [|rewrite !bsum_const; unfold eta; right; ring].
    apply bsum_le. intros p Hp. apply bsum_le. intros q Hq. unfold overlap, unit_matrix. destruct (Nat.eqb_spec p q) as [->|N].
    - fold (square_norm n (column U q)). rewrite UNIT by auto. destruct SMALL. nra.
    - rewrite Rminus_0_r. pose proof (NEAR p q Hp Hq N) as A. destruct SMALL as [P _]. rewrite <- (Rabs_pos_eq (_ * _)) by (apply Rle_0_sqr). rewrite Rabs_mult. pose proof (Rabs_pos (dot_product n (column U p) (column U q))). nra.
  Qed.
  Lemma overlap_form z : Rabs (dot_product n z (times n overlap z)) <= eta * square_norm n z.
  Proof.
    pose proof (cauchy_square n z (times n overlap z)) as C. pose proof (overlap_bound z) as B. pose proof (square_norm_nonneg n z) as P. pose proof eta_pos as E.
    apply Rsqr_incr_0_var; [|apply Rmult_le_pos; auto]. rewrite <- Rsqr_abs. unfold Rsqr. eapply Rle_trans; [exact C|]. replace (eta * square_norm n z * (eta * square_norm n z)) with (square_norm n z * (eta * eta * square_norm n z)) by ring. apply Rmult_le_compat_l; auto.
  Qed.
  Lemma image_size y : (1 - eta) * square_norm n y <= square_norm n (times n U y) <= (1 + eta) * square_norm n y.
  Proof.
    assert (G : square_norm n (times n U y) = square_norm n y + dot_product n y (times n overlap y)) by apply gram_form. rewrite G. pose proof (overlap_form y) as H. apply Rabs_between in H. lra.
  Qed.
  Lemma near_regular : ~ singular n U.
  Proof.
    apply singular_zero. intros x Z. pose proof (proj1 (image_size x)) as H. rewrite (square_norm_ext n _ _ Z), square_norm_0 in H. pose proof (square_norm_nonneg n x). unfold eta in H. destruct SMALL. nra.
  Qed.
  (** Going to the columns and back is nearly nothing. *)
  Lemma round_trip b : square_norm n (fun i => times n U (times n (transposed U) b) i - b i) <= (2 * eta) ^ 2 * square_norm n b.
  Proof.
    destruct (regular_reaches n U b near_regular) as [y Y].
    assert (TB : equal_vectors n (times n (transposed U) b) (fun p => y p + times n overlap y p)).
    { intros p Hp. transitivity (times n (transposed U) (times n U y) p); [apply times_ext; [reflexivity|]; intros k Hk; symmetry; apply Y; auto|].
      unfold times at 1, transposed. transitivity (bsum n (fun q => dot_product n (column U p) (column U q) * y q)).
      - unfold times, dot_product, column. rewrite (bsum_ext n _ (fun i => bsum n (fun q => U i p * U i q * y q))) by (intros; rewrite <- bsum_scal; apply bsum_ext; intros; ring).
        rewrite bsum_swap. apply bsum_ext. intros q Hq. rewrite (Rmult_comm _ (y q)), <- bsum_scal. apply bsum_ext. intros; ring.
      - rewrite <- (times_unit n y p Hp). unfold times, overlap. rewrite <- bsum_plus. apply bsum_ext. intros; ring. }
    assert (R1 : equal_vectors n (fun i => times n U (times n (transposed U) b) i - b i) (times n U (times n overlap y))).
    { intros i Hi. rewrite (times_ext n U U _ _ i (fun k _ => eq_refl) TB). rewrite <- (Y i Hi). set (oy := times n overlap y). unfold times. rewrite <- bsum_minus. apply bsum_ext. intros; ring. }
    rewrite (square_norm_ext n _ _ R1). pose proof (image_size (times n overlap y)) as [_ I1]. pose proof (overlap_bound y) as B. pose proof (image_size y) as [I2 _]. rewrite (square_norm_ext n _ _ Y) in I2.
    pose proof eta_pos as E. assert (E8 : eta <= 1 / 8) by apply SMALL. pose proof (square_norm_nonneg n y). pose proof (square_norm_nonneg n b). set (sy := square_norm n y) in *. set (sb := square_norm n b) in *.
    apply Rle_trans with ((1 + eta) * (eta * eta * sy)); [eapply Rle_trans; [exact I1|apply Rmult_le_compat_l; lra]|].
    assert (sy <= 8 / 7 * sb) by nra. assert (0 <= eta * eta) by nra. apply Rle_trans with (9 / 8 * (eta * eta * (8 / 7 * sb))); [apply Rmult_le_compat; try nra; apply Rmult_le_pos; lra|]. nra.
  Qed.
End Near.

(** ** Decompositions of square matrices *)
Section Solve.
  Variables (n : nat) (m : mat R) (d : svd (T := R)).
  Hypothesis N0 : (0 < n)%nat.
  Hypothesis NS : INR n * / 2 ^ 52 <= 1 / 8.
  Hypothesis SH : shape n n m.
  Hypothesis FOUND : svd_found n n m = (d, true).
  Let sigma := vget (singular_values d).
  Hypothesis ABOVE : INR n * / 2 ^ 52 * sigma 0%nat < sigma (n - 1)%nat.

  Lemma eps_value : epsilon (Num := Rnum) = / 2 ^ 52.
  Proof. rnum. f_equal. rewrite (pow_IZR 2 52). reflexivity. Qed.
  Lemma found_triple : triple n n (mget m) (true = true) epsilon (svd_left d) (singular_values d) (svd_right d) /\ ordered n n (singular_values d).
  Proof. destruct (svd_facts n n m (le_n n) SH) as (d' & st & E' & _ & T & O & _). rewrite FOUND in E'. injection E' as <- <-. auto. Qed.
  Lemma values_above k : (k < n)%nat -> INR n * / 2 ^ 52 * sigma 0%nat < sigma k /\ 0 < sigma k.
  Proof.
    intros K. destruct found_triple as [T O]. destruct T as (_ & _ & _ & _ & _ & _ & T7 & _). assert (L : sigma (n - 1)%nat <= sigma k) by (destruct (Nat.eq_dec k (n - 1)) as [->|NE]; [lra|]; apply O; lia).
    assert (0 <= sigma 0%nat) by (apply T7; lia). assert (0 <= INR n * / 2 ^ 52) by (apply Rmult_le_pos; [apply pos_INR|left; apply Rinv_0_lt_compat, pow_lt; lra]). assert (0 <= INR n * / 2 ^ 52 * sigma 0%nat) by (apply Rmult_le_pos; auto). lra.
  Qed.
  (** What is solved exactly is a right hand side hardly different. *)
  Lemma settled_solve b : length b = n -> let x := svd_solve n n d b in
    length x = n /\ square_norm n (fun i => times n (mget m) (vget x) i - vget b i) <= (2 * INR n * / 2 ^ 52) ^ 2 * square_norm n (vget b).
  Proof.
    intros LB x. destruct found_triple as [T O]. pose proof (tol_pos n n m d _ T) as T0. pose proof (tol_value n n d ltac:(lia)) as TV. fold sigma in TV.
    split; [unfold x, svd_solve; apply from_fn_length|]. set (U := mget (svd_left d)).
    assert (AX : equal_vectors n (times n (mget m) (vget x)) (times n U (times n (transposed U) (vget b)))).
    { intros i Hi. transitivity (times n (mget m) (times n (mget (svd_pseudo_inverse n n d)) (vget b)) i).
      - apply times_ext; [reflexivity|]. intros k Hk. apply (solve_spec n n _ d b k eq_refl LB Hk).
      - rewrite <- times_product. rewrite <- times_product. apply times_ext; [|intros k Hk; reflexivity]. intros k Hk. unfold svd_pseudo_inverse. rewrite (AP_spec n n (mget m) _ _ _ d T T0 i k Hi Hk). unfold composed, product, transposed. apply bsum_ext. intros l Hl.
        destruct (values_above l Hl) as [A _]. fold sigma. fold U. destruct (Rltb _ _) eqn:E; rcases; [ring|]. rewrite TV in E. unfold sigma in *. lra. }
    rewrite (square_norm_ext n _ (fun i => times n U (times n (transposed U) (vget b)) i - vget b i)) by (intros i Hi; rewrite AX by auto; reflexivity).
    replace ((2 * INR n * / 2 ^ 52) ^ 2) with ((2 * (INR n * / 2 ^ 52)) ^ 2) by ring.
    destruct T as (T1 & T2 & T3 & T4 & T5 & T6 & T7 & T8). apply (round_trip n U (/ 2 ^ 52)).
    - intros p Hp. apply T7; [exact Hp|]. apply values_above. exact Hp.
    - intros p q Hp Hq NE. rewrite <- eps_value. apply T8; auto.
    - split; [left; apply Rinv_0_lt_compat, pow_lt; lra|exact NS].
  Qed.
End Solve.
