(** Power series of one matrix: they multiply by convolving their coefficients. *)
From Coq Require Import Reals List Arith Lia Lra Psatz FunctionalExtensionality.
From Coquelicot Require Import Coquelicot.
From Verif Require Import Base.Series Spec.Matrix Spec.MatrixExp Proofs.Matrix Proofs.Algebra.
Local Open Scope R_scope.

(** ** Column sums *)
Definition bounded (n : nat) (a : matrix) (c : R) : Prop := forall j, (j < n)%nat -> bsum n (fun i => Rabs (a i j)) <= c.
Lemma bsum_abs n f : Rabs (bsum n f) <= bsum n (fun i => Rabs (f i)).
Proof. induction n as [|n IH]; cbn [bsum]; [rewrite Rabs_R0; lra|]. apply Rle_trans with (1 := Rabs_triang _ _). lra. Qed.
Lemma bounded_nonneg n a c : (0 < n)%nat -> bounded n a c -> 0 <= c.
Proof. intros N H. apply Rle_trans with (2 := H 0%nat N). apply bsum_nonneg. intros; apply Rabs_pos. Qed.
Lemma bounded_ext n a b c : equal n n a b -> bounded n a c -> bounded n b c.
Proof. intros E H j Hj. rewrite (bsum_ext n _ (fun i => Rabs (a i j))) by (intros; rewrite E; auto). auto. Qed.
Lemma bounded_le n a c d : c <= d -> bounded n a c -> bounded n a d.
Proof. intros E H j Hj. specialize (H j Hj). lra. Qed.
Lemma bounded_plus n a b c d : bounded n a c -> bounded n b d -> bounded n (plus_matrix a b) (c + d).
Proof.
  intros H K j Hj. specialize (H j Hj). specialize (K j Hj). apply Rle_trans with (bsum n (fun i => Rabs (a i j) + Rabs (b i j))); [apply bsum_le; intros; apply Rabs_triang|]. rewrite bsum_plus. lra.
Qed.
Lemma bounded_minus n a b c d : bounded n a c -> bounded n b d -> bounded n (minus_matrix a b) (c + d).
Proof.
  intros H K j Hj. specialize (H j Hj). specialize (K j Hj). apply Rle_trans with (bsum n (fun i => Rabs (a i j) + Rabs (b i j))); [apply bsum_le; intros; unfold minus_matrix, Rminus; rewrite <- (Rabs_Ropp (b i j)); apply Rabs_triang|]. rewrite bsum_plus. lra.
Qed.
Lemma bounded_scaled n s a c : bounded n a c -> bounded n (scaled_matrix s a) (Rabs s * c).
Proof.
  intros H j Hj. unfold scaled_matrix. rewrite (bsum_ext n _ (fun i => Rabs s * Rabs (a i j))) by (intros; apply Rabs_mult). rewrite bsum_scal. apply Rmult_le_compat_l; [apply Rabs_pos|auto].
Qed.
Lemma bounded_product n a b c d : 0 <= c -> bounded n a c -> bounded n b d -> bounded n (product n a b) (c * d).
Proof.
  intros C H K j Hj. unfold product. apply Rle_trans with (bsum n (fun i => bsum n (fun k => Rabs (a i k) * Rabs (b k j)))).
  - apply bsum_le. intros i Hi. apply Rle_trans with (1 := bsum_abs n _). right. apply bsum_ext. intros; apply Rabs_mult.
  - rewrite bsum_swap. apply Rle_trans with (bsum n (fun k => c * Rabs (b k j))).
    + apply bsum_le. intros k Hk. rewrite (bsum_ext n _ (fun i => Rabs (b k j) * Rabs (a i k))) by (intros; ring). rewrite bsum_scal. rewrite Rmult_comm. apply Rmult_le_compat_r; [apply Rabs_pos|apply H; auto].
    + rewrite bsum_scal. apply Rmult_le_compat_l; auto.
Qed.
Lemma bounded_unit n : bounded n unit_matrix 1.
Proof.
  intros j Hj. rewrite (bsum_ext n _ (fun i => if Nat.eqb i j then 1 else 0)); [rewrite bsum_delta by auto; lra|]. intros i Hi. unfold unit_matrix. destruct (Nat.eqb i j); [apply Rabs_R1|apply Rabs_R0].
Qed.
Lemma bounded_power n a c k : 0 <= c -> bounded n a c -> bounded n (power n a k) (c ^ k).
Proof.
  intros C H. induction k as [|k IH]; [apply bounded_unit|]. cbn [power pow]. rewrite Rmult_comm. apply bounded_product; auto. apply pow_le; auto.
Qed.
Lemma bounded_entry n a c i j : bounded n a c -> (i < n)%nat -> (j < n)%nat -> Rabs (a i j) <= c.
Proof.
  intros H Hi Hj. apply Rle_trans with (2 := H j Hj). rewrite <- (bsum_delta n i (Rabs (a i j))) by auto. apply bsum_le. intros k Hk. destruct (Nat.eqb_spec k i) as [->|N]; [lra|apply Rabs_pos].
Qed.
Lemma largest_le n f c : 0 <= c -> (forall i, (i < n)%nat -> f i <= c) -> largest n f <= c.
Proof. intros C H. induction n as [|n IH]; cbn; [auto|]. apply Rmax_lub; [apply IH; intros; apply H; lia|apply H; lia]. Qed.
Lemma largest_ext n f g : (forall i, (i < n)%nat -> f i = g i) -> largest n f = largest n g.
Proof. induction n as [|n IH]; intros H; [reflexivity|]. cbn [largest]. rewrite IH, H; auto. Qed.
Lemma largest_ge n f i : (i < n)%nat -> f i <= largest n f.
Proof.
  induction n as [|n IH]; intros Hi; [lia|]. cbn. destruct (Nat.eq_dec i n) as [->|N]; [apply Rmax_r|]. apply Rle_trans with (2 := Rmax_l _ _). apply IH. lia.
Qed.
Lemma largest_nonneg n f : 0 <= largest n f.
Proof. induction n as [|n IH]; cbn; [lra|]. apply Rle_trans with (1 := IH). apply Rmax_l. Qed.
Lemma column_norm_nonneg n a : 0 <= column_norm n a. Proof. apply largest_nonneg. Qed.
Lemma bounded_norm n a : bounded n a (column_norm n a).
Proof. intros j Hj. unfold column_norm. apply (largest_ge n (fun j => bsum n (fun i => Rabs (a i j)))). auto. Qed.
Lemma norm_scaled n s a : column_norm n (scaled_matrix s a) = Rabs s * column_norm n a.
Proof.
  unfold column_norm. generalize n at 1 3. induction n0 as [|k IH]; [cbn; ring|]. cbn [largest]. rewrite IH, <- RmaxRmult by apply Rabs_pos. f_equal. rewrite <- bsum_scal. apply bsum_ext. intros i Hi. unfold scaled_matrix. apply Rabs_mult.
Qed.
Lemma norm_ext n a b : equal n n a b -> column_norm n a = column_norm n b.
Proof. intros H. unfold column_norm. apply largest_ext. intros j Hj. apply bsum_ext. intros i Hi. rewrite H by auto. reflexivity. Qed.
Lemma norm_le n a c : 0 <= c -> bounded n a c -> column_norm n a <= c.
Proof. intros C H. apply largest_le; auto. Qed.

(** ** Series *)
Lemma bsum_sum_n n f : bsum (S n) f = sum_n f n.
Proof. induction n as [|n IH]; [cbn [bsum]; rewrite sum_O; ring|]. rewrite sum_Sn, <- IH. reflexivity. Qed.
Lemma bsum_sum_f_R0 n f : bsum (S n) f = sum_f_R0 f n.
Proof. induction n as [|n IH]; [cbn [bsum sum_f_R0]; ring|]. cbn [sum_f_R0]. rewrite <- IH. reflexivity. Qed.
Lemma is_series_finite (c : nat -> R) n : (forall k, (n <= k)%nat -> c k = 0) -> is_series c (bsum n c).
Proof.
  intros Z. destruct n as [|n].
  - cbn [bsum]. apply (is_series_ext (fun _ => 0)); [intros k; symmetry; apply Z; lia|]. apply is_series_Reals. intros eps E. exists 0%nat. intros m _. rewrite <- bsum_sum_f_R0, bsum_0. unfold R_dist. rewrite Rminus_eq_0, Rabs_R0. auto.
  - apply is_series_Reals. intros eps E. exists n. intros m Hm. rewrite <- bsum_sum_f_R0. replace (S m) with (S n + (m - n))%nat by lia. rewrite bsum_shift. rewrite (bsum_ext (m - n) _ (fun _ => 0)) by (intros; apply Z; lia). rewrite bsum_0, Rplus_0_r. unfold R_dist. rewrite Rminus_eq_0, Rabs_R0. auto.
Qed.
Lemma is_series_bsum n (f : nat -> nat -> R) l : (forall i, (i < n)%nat -> is_series (f i) (l i)) -> is_series (fun k => bsum n (fun i => f i k)) (bsum n l).
Proof.
  induction n as [|n IH]; intros H; [apply (is_series_finite (fun _ => 0) 0); auto|]. cbn [bsum]. apply (is_series_plus (fun k => bsum n (fun i => f i k)) (f n)); [apply IH; intros; apply H; lia|apply H; lia].
Qed.
Lemma is_series_conv (a b : nat -> R) la lb : is_series a la -> is_series b lb -> ex_series (fun k => Rabs (a k)) -> ex_series (fun k => Rabs (b k)) -> is_series (conv a b) (la * lb).
Proof.
  intros A B A' B'. apply (is_series_ext (fun n => sum_f_R0 (fun k => a k * b (n - k)%nat) n)); [intros n; unfold conv; rewrite bsum_sum_f_R0; reflexivity|]. apply is_series_mult; auto.
Qed.
Lemma conv_pow (c d : nat -> R) x k : conv (fun i => c i * x ^ i) (fun i => d i * x ^ i) k = conv c d k * x ^ k.
Proof.
  unfold conv. rewrite <- (Rmult_comm (x ^ k)). rewrite <- bsum_scal. apply bsum_ext. intros i Hi. replace (x ^ k) with (x ^ i * x ^ (k - i)) by (rewrite <- pow_add; f_equal; lia). ring.
Qed.
Lemma conv_abs c d k : Rabs (conv c d k) <= conv (fun i => Rabs (c i)) (fun i => Rabs (d i)) k.
Proof. unfold conv. apply Rle_trans with (1 := bsum_abs _ _). right. apply bsum_ext. intros; apply Rabs_mult. Qed.

Section One.
  Variables (n : nat) (X : matrix) (rho : R).
  Hypothesis R0 : 0 <= rho.
  Hypothesis XB : bounded n X rho.
  Definition admits (c : nat -> R) : Prop := ex_series (fun k => Rabs (c k) * rho ^ k).
  Definition series (c : nat -> R) : matrix := fun i j => Series (fun k => c k * power n X k i j).
  Lemma series_abs c i j : admits c -> (i < n)%nat -> (j < n)%nat -> ex_series (fun k => Rabs (c k * power n X k i j)).
  Proof.
    intros A Hi Hj. apply (ex_series_le (V := R_CompleteNormedModule) _ (fun k => Rabs (c k) * rho ^ k)); [|exact A]. intros k. change (Rabs (Rabs (c k * power n X k i j)) <= Rabs (c k) * rho ^ k). rewrite Rabs_Rabsolu, Rabs_mult. apply Rmult_le_compat_l; [apply Rabs_pos|].
    apply (bounded_entry n); auto. apply bounded_power; auto.
  Qed.
  Lemma is_series_entry c i j : admits c -> (i < n)%nat -> (j < n)%nat -> is_series (fun k => c k * power n X k i j) (series c i j).
  Proof. intros A Hi Hj. apply Series_correct. apply ex_series_Rabs, series_abs; auto. Qed.
  Lemma series_bounded c : admits c -> bounded n (series c) (Series (fun k => Rabs (c k) * rho ^ k)).
  Proof.
    intros A j Hj. apply Rle_trans with (bsum n (fun i => Series (fun k => Rabs (c k * power n X k i j)))); [apply bsum_le; intros i Hi; apply Series_Rabs, series_abs; auto|].
    assert (E : is_series (fun k => bsum n (fun i => Rabs (c k * power n X k i j))) (bsum n (fun i => Series (fun k => Rabs (c k * power n X k i j))))).
    { apply (is_series_bsum n (fun i k => Rabs (c k * power n X k i j))). intros i Hi. apply Series_correct, series_abs; auto. }
    rewrite <- (is_series_unique _ _ E). apply Series_le; [|exact A]. intros k. split; [apply bsum_nonneg; intros; apply Rabs_pos|].
    rewrite (bsum_ext n _ (fun i => Rabs (c k) * Rabs (power n X k i j))) by (intros; apply Rabs_mult). rewrite bsum_scal. apply Rmult_le_compat_l; [apply Rabs_pos|]. apply (bounded_power n X rho k R0 XB j Hj).
  Qed.
  Lemma admits_conv c d : admits c -> admits d -> admits (conv c d).
  Proof.
    intros A B. unfold admits. apply (ex_series_le (V := R_CompleteNormedModule) _ (conv (fun k => Rabs (c k) * rho ^ k) (fun k => Rabs (d k) * rho ^ k))).
    - intros k. change (Rabs (Rabs (conv c d k) * rho ^ k) <= conv (fun k => Rabs (c k) * rho ^ k) (fun k => Rabs (d k) * rho ^ k) k). rewrite (conv_pow (fun k => Rabs (c k)) (fun k => Rabs (d k))). rewrite Rabs_mult, Rabs_Rabsolu, (Rabs_pos_eq (rho ^ k)) by (apply pow_le; auto). apply Rmult_le_compat_r; [apply pow_le; auto|apply conv_abs].
    - assert (P : forall e : nat -> R, ex_series (fun k => Rabs (e k) * rho ^ k) -> ex_series (fun k => Rabs (Rabs (e k) * rho ^ k))).
      { intros e E. eapply ex_series_ext; [|exact E]. intros k. cbv beta. rewrite Rabs_mult, Rabs_Rabsolu, (Rabs_pos_eq (rho ^ k)) by (apply pow_le; auto). reflexivity. }
      eexists. apply is_series_conv; [apply Series_correct, A|apply Series_correct, B|apply P, A|apply P, B].
  Qed.
  Lemma series_product c d : admits c -> admits d -> equal n n (product n (series c) (series d)) (series (conv c d)).
  Proof.
    intros A B i j Hi Hj. unfold product.
    assert (E : is_series (fun k => bsum n (fun l => conv (fun p => c p * power n X p i l) (fun q => d q * power n X q l j) k)) (bsum n (fun l => series c i l * series d l j))).
    { apply (is_series_bsum n (fun l => conv (fun p => c p * power n X p i l) (fun q => d q * power n X q l j)) (fun l => series c i l * series d l j)). intros l Hl. apply is_series_conv; try (apply is_series_entry; auto); apply series_abs; auto. }
    symmetry. apply is_series_unique. eapply is_series_ext; [|exact E]. intros k. cbv beta. unfold conv at 1. rewrite bsum_swap. rewrite <- (Rmult_comm (power n X k i j)). unfold conv. rewrite <- bsum_scal. apply bsum_ext. intros p Hp.
    rewrite (bsum_ext n _ (fun l => (c p * d (k - p)%nat) * (power n X p i l * power n X (k - p) l j))) by (intros; ring). rewrite bsum_scal.
    change (bsum n (fun l => power n X p i l * power n X (k - p) l j)) with (product n (power n X p) (power n X (k - p)) i j). rewrite (power_plus n X p (k - p) i j Hi Hj). replace (p + (k - p))%nat with k by lia. ring.
  Qed.
  Lemma series_ext c d : (forall k, c k = d k) -> series c = series d.
  Proof. intros H. matrix_ext. unfold series. apply Series_ext. intros k. rewrite H. reflexivity. Qed.
  Lemma admits_ext c d : (forall k, c k = d k) -> admits c -> admits d.
  Proof. intros H A. eapply ex_series_ext; [|exact A]. intros k. cbv beta. rewrite H. reflexivity. Qed.
  Lemma series_minus c d : admits c -> admits d -> equal n n (series (fun k => c k - d k)) (minus_matrix (series c) (series d)).
  Proof.
    intros A B i j Hi Hj. unfold minus_matrix. apply is_series_unique. eapply is_series_ext; [|apply (is_series_minus (V := R_NormedModule)); apply is_series_entry; eauto]. intros k. cbn. change (c k * power n X k i j + - (d k * power n X k i j) = (c k - d k) * power n X k i j). ring.
  Qed.
  Lemma admits_minus c d : admits c -> admits d -> admits (fun k => c k - d k).
  Proof.
    intros A B. apply (ex_series_le (V := R_CompleteNormedModule) _ (fun k => Rabs (c k) * rho ^ k + Rabs (d k) * rho ^ k)); [|apply (ex_series_plus (V := R_NormedModule)); auto]. intros k. change (Rabs (Rabs (c k - d k) * rho ^ k) <= Rabs (c k) * rho ^ k + Rabs (d k) * rho ^ k).
    rewrite Rabs_mult, Rabs_Rabsolu, (Rabs_pos_eq (rho ^ k)) by (apply pow_le; auto). rewrite <- Rmult_plus_distr_r. apply Rmult_le_compat_r; [apply pow_le; auto|]. unfold Rminus. rewrite <- (Rabs_Ropp (d k)). apply Rabs_triang.
  Qed.
  Lemma admits_finite c m : (forall k, (m <= k)%nat -> c k = 0) -> admits c.
  Proof. intros Z. eexists. apply (is_series_finite (fun k => Rabs (c k) * rho ^ k) m). intros k Hk. rewrite Z by auto. rewrite Rabs_R0. ring. Qed.
  Lemma series_finite c m : (forall k, (m <= k)%nat -> c k = 0) -> forall i j, series c i j = bsum m (fun k => c k * power n X k i j).
  Proof. intros Z i j. apply is_series_unique. apply (is_series_finite (fun k => c k * power n X k i j) m). intros k Hk. rewrite Z by auto. ring. Qed.
  Lemma series_one : equal n n (series (fun k => if Nat.eqb k 0 then 1 else 0)) unit_matrix.
  Proof. intros i j Hi Hj. rewrite (series_finite _ 1) by (intros [|k] Hk; [lia|reflexivity]). cbn. ring. Qed.
  Lemma series_itself : equal n n (series (fun k => if Nat.eqb k 1 then 1 else 0)) X.
  Proof. intros i j Hi Hj. rewrite (series_finite _ 2) by (intros [|[|k]] Hk; [lia|lia|reflexivity]). cbn [bsum Nat.eqb]. rewrite power_one by auto. ring. Qed.
  (** exp(tX), for every t *)
  Definition exponent (t : R) (k : nat) : R := t ^ k / INR (fact k).
  Lemma admits_exponent t : admits (exponent t).
  Proof.
    pose proof (is_exp_Reals (Rabs t * rho)) as E. exists (exp (Rabs t * rho)). eapply is_series_ext; [|exact E]. intros k. unfold exponent. rewrite pow_n_pow. unfold scal. cbn. unfold mult. cbn. unfold Rdiv. rewrite Rabs_mult, <- RPow_abs, (Rabs_pos_eq (/ INR (fact k))) by (left; apply Rinv_0_lt_compat, INR_fact_lt_0). rewrite Rpow_mult_distr. ring.
  Qed.
  Lemma exponent_sum t : Series (fun k => Rabs (exponent t k) * rho ^ k) = exp (Rabs t * rho).
  Proof.
    apply is_series_unique. pose proof (is_exp_Reals (Rabs t * rho)) as E. eapply is_series_ext; [|exact E]. intros k. unfold exponent. rewrite pow_n_pow. unfold scal. cbn. unfold mult. cbn. unfold Rdiv. rewrite Rabs_mult, <- RPow_abs, (Rabs_pos_eq (/ INR (fact k))) by (left; apply Rinv_0_lt_compat, INR_fact_lt_0). rewrite Rpow_mult_distr. ring.
  Qed.
  Lemma exponent_conv s t k : conv (exponent s) (exponent t) k = exponent (s + t) k.
  Proof.
    unfold exponent. rewrite Binomial.binomial. unfold conv. rewrite bsum_sum_f_R0. unfold Rdiv at 3. rewrite (Rmult_comm (sum_f_R0 _ _)). rewrite scal_sum. apply sum_eq. intros i Hi. unfold Binomial.C. field. repeat split; apply INR_fact_neq_0.
  Qed.
  Lemma exponent_product s t : equal n n (product n (series (exponent s)) (series (exponent t))) (series (exponent (s + t))).
  Proof. eapply equal_trans; [apply series_product; apply admits_exponent|]. rewrite (series_ext _ (exponent (s + t))) by apply exponent_conv. apply equal_refl. Qed.
  Lemma series_commute c d : admits c -> admits d -> equal n n (product n (series c) (series d)) (product n (series d) (series c)).
  Proof.
    intros A B. eapply equal_trans; [apply series_product; auto|]. eapply equal_trans; [|apply equal_sym, series_product; auto]. rewrite (series_ext (conv c d) (conv d c)) by apply conv_comm. apply equal_refl.
  Qed.
End One.
Lemma power_scaled n s a k : equal n n (power n (scaled_matrix s a) k) (scaled_matrix (s ^ k) (power n a k)).
Proof.
  induction k as [|k IH]; [intros i j Hi Hj; unfold scaled_matrix; cbn; ring|]. cbn [power]. eapply equal_trans; [apply product_left; exact IH|]. rewrite p_scaled_l, p_scaled_r. intros i j Hi Hj. unfold scaled_matrix. cbn [pow]. ring.
Qed.
Lemma exp_of_scaled n s a : equal n n (matrix_exp n (scaled_matrix s a)) (series n a (exponent s)).
Proof.
  intros i j Hi Hj. unfold matrix_exp, series. apply Series_ext. intros k. rewrite (power_scaled n s a k i j Hi Hj). unfold scaled_matrix, exponent, Rdiv. ring.
Qed.
