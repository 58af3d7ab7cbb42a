(** Lemmas for the unscented filter. *)
From Coq Require Import ZArith Reals List Bool Arith Lia Lra Psatz.
From Verif Require Import Base.Scalar Base.RNum Base.Lists Base.Series Model.Errors Model.Vector Model.Matrix Model.Lu Model.Cholesky Model.Kalman Model.Unscented.
From Verif Require Import Spec.Matrix Spec.Kalman Spec.Unscented Proofs.Matrix Proofs.Algebra Proofs.Expm Proofs.Riccati Proofs.Kalman Props.Cholesky.
Import ListNotations.
Local Open Scope R_scope.
Local Notation length := List.length.
Local Notation S := Datatypes.S.

Lemma bsum_const n c : bsum n (fun _ => c) = INR n * c.
Proof. induction n; [cbn; ring|]. rewrite S_INR. cbn [bsum]. rewrite IHn. ring. Qed.
Lemma square_of_sum n (u v : nat -> R) : (0 < n)%nat ->
  bsum n (fun j => u j + v j) * bsum n (fun j => u j + v j) <= 2 * INR n * bsum n (fun j => u j * u j + v j * v j).
Proof.
  intros P. set (U := bsum n (fun j => u j + v j)). set (V := bsum n (fun j => u j * u j + v j * v j)).
  assert (N : 0 < INR n) by (apply lt_0_INR; auto). set (t := U / (2 * INR n)).
  assert (E : 0 <= bsum n (fun j => (u j - t) * (u j - t) + (v j - t) * (v j - t))) by (apply bsum_nonneg; intros; apply Rplus_le_le_0_compat; apply Rle_0_sqr).
  rewrite (bsum_ext n _ (fun j => (u j * u j + v j * v j) - 2 * t * (u j + v j) + 2 * (t * t))) in E by (intros; ring).
  rewrite bsum_plus, bsum_minus, bsum_scal, bsum_const in E. fold U V in E.
  assert (T : 2 * INR n * t = U) by (unfold t; field; lra).
  assert (2 * INR n * (V - 2 * t * U + INR n * (2 * (t * t))) = 2 * INR n * V - U * U) by (rewrite <- T; ring). nra.
Qed.
(** A cloud of numbers never has a negative variance, however they lie. *)
Lemma variance_nonneg n alpha beta kappa c (p q : nat -> R) a : (0 < n)%nat -> 0 < spread_of n alpha kappa -> 0 <= INR n * beta + alpha * alpha * kappa ->
  a = mean_weight n alpha kappa * c + bsum n (fun j => side_weight n alpha kappa * (p j + q j)) ->
  0 <= spread_weight n alpha beta kappa * (c - a) * (c - a) +
       bsum n (fun j => side_weight n alpha kappa * ((p j - a) * (p j - a) + (q j - a) * (q j - a))).
Proof.
  intros P Sp C Ea. set (s := spread_of n alpha kappa) in *. set (w := side_weight n alpha kappa) in *.
  set (U := bsum n (fun j => (p j - c) + (q j - c))). set (V := bsum n (fun j => (p j - c) * (p j - c) + (q j - c) * (q j - c))).
  assert (N : 0 < INR n) by (apply lt_0_INR; auto).
  assert (W : w * (2 * s) = 1) by (unfold w, side_weight; fold s; field; lra). assert (Wp : 0 < w) by nra.
  assert (M : mean_weight n alpha kappa = 1 - 2 * INR n * w) by (unfold mean_weight, w, side_weight; fold s; field; lra).
  assert (A : a = c + w * U).
  { rewrite Ea, bsum_scal, M. unfold U. rewrite (bsum_ext n (fun j => p j - c + (q j - c)) (fun j => (p j + q j) - 2 * c)) by (intros; ring).
    rewrite bsum_minus, bsum_const. ring. }
  assert (K : U * U <= 2 * INR n * V) by (apply (square_of_sum n (fun j => p j - c) (fun j => q j - c) P)).
  rewrite bsum_scal. rewrite (bsum_ext n _ (fun j => ((p j - c) * (p j - c) + (q j - c) * (q j - c)) - 2 * (w * U) * ((p j - c) + (q j - c)) + 2 * (w * U * (w * U)))) by (intros; rewrite A; ring).
  rewrite bsum_plus, bsum_minus, bsum_scal, bsum_const. fold U V. rewrite A. unfold spread_weight. rewrite M.
  replace (_ + _) with (w * (V + w * (U * U) * (beta - alpha * alpha))) by ring.
  apply Rmult_le_pos; [lra|].
  assert (s = alpha * alpha * (INR n + kappa)) by reflexivity.
  assert (E1 : 2 * INR n * (V + w * (U * U) * (beta - alpha * alpha)) * s = s * (2 * INR n * V) + INR n * (U * U) * (beta - alpha * alpha)) by (transitivity (s * (2 * INR n * V) + INR n * (U * U) * (beta - alpha * alpha) * (w * (2 * s))); [ring|rewrite W; ring]).
  assert (E2 : 0 <= s * (2 * INR n * V) + INR n * (U * U) * (beta - alpha * alpha)).
  { apply Rle_trans with (s * (U * U) + INR n * (U * U) * (beta - alpha * alpha)); [|nra].
    replace (s * (U * U) + INR n * (U * U) * (beta - alpha * alpha)) with ((U * U) * (INR n * beta + alpha * alpha * kappa)) by (rewrite H; ring). apply Rmult_le_pos; [nra|exact C]. }
  rewrite <- E1 in E2. destruct (Rle_or_lt 0 (V + w * (U * U) * (beta - alpha * alpha))) as [G|G]; [exact G|]. exfalso.
  assert (2 * INR n * s > 0) by nra. nra.
Qed.

(** ** Clouds of vectors *)
Lemma dot_bsum n k x (f : nat -> nat -> R) : dot_product n x (fun i => bsum k (f i)) = bsum k (fun j => dot_product n x (fun i => f i j)).
Proof.
  unfold dot_product. rewrite <- (bsum_swap k n (fun j i => x i * f i j)) || rewrite (bsum_ext n _ (fun i => bsum k (fun j => x i * f i j))) by (intros; rewrite bsum_scal; reflexivity).
  apply bsum_swap.
Qed.
Lemma dot_scal n x c y : dot_product n x (fun i => c * y i) = c * dot_product n x y.
Proof. unfold dot_product. rewrite <- bsum_scal. apply bsum_ext. intros; ring. Qed.
Lemma dot_plus n x y z : dot_product n x (fun i => y i + z i) = dot_product n x y + dot_product n x z.
Proof. unfold dot_product. rewrite <- bsum_plus. apply bsum_ext. intros; ring. Qed.
Lemma dot_minus n x y z : dot_product n x (fun i => y i - z i) = dot_product n x y - dot_product n x z.
Proof. unfold dot_product. rewrite <- bsum_minus. apply bsum_ext. intros; ring. Qed.
Lemma dot_average k n w0 w c x : dot_product k x (average n w0 w c) =
  w0 * dot_product k x (middle_point c) + bsum n (fun j => w * (dot_product k x (column (plus_points c) j) + dot_product k x (column (minus_points c) j))).
Proof. unfold average. rewrite dot_plus, dot_scal, dot_bsum. f_equal. apply bsum_ext. intros j _. rewrite dot_scal, dot_plus. reflexivity. Qed.
Lemma outer_times rows cols x y (u v : vector) : dot_product rows x (times cols (fun i k => u i * v k) y) = dot_product rows x u * dot_product cols y v.
Proof. unfold dot_product, times. rewrite Rmult_comm, <- bsum_scal. apply bsum_ext. intros i _. rewrite (bsum_ext cols (fun k => u i * v k * y k) (fun k => u i * (y k * v k))) by (intros; ring). rewrite bsum_scal. ring. Qed.
Lemma times_bsum cols k (f : nat -> matrix) y : forall i, times cols (fun i q => bsum k (fun j => f j i q)) y i = bsum k (fun j => times cols (f j) y i).
Proof.
  intros i. unfold times. rewrite (bsum_ext cols _ (fun q => bsum k (fun j => f j i q * y q))) by (intros; rewrite (Rmult_comm _ (y i0)), <- bsum_scal; apply bsum_ext; intros; ring). apply bsum_swap.
Qed.
Lemma covary_form rows cols n w0 w c a d b x y : dot_product rows x (times cols (covary n w0 w c a d b) y) =
  w0 * (dot_product rows x (middle_point c) - dot_product rows x a) * (dot_product cols y (middle_point d) - dot_product cols y b) +
  bsum n (fun j => w * ((dot_product rows x (column (plus_points c) j) - dot_product rows x a) * (dot_product cols y (column (plus_points d) j) - dot_product cols y b) +
                        (dot_product rows x (column (minus_points c) j) - dot_product rows x a) * (dot_product cols y (column (minus_points d) j) - dot_product cols y b))).
Proof.
  transitivity (dot_product rows x (fun i => times cols (fun i k => (w0 * (middle_point c i - a i)) * (middle_point d k - b k)) y i +
     bsum n (fun j => times cols (fun i k => (w * (plus_points c i j - a i)) * (plus_points d k j - b k)) y i + times cols (fun i k => (w * (minus_points c i j - a i)) * (minus_points d k j - b k)) y i))).
  - apply dot_ext; [intros ? ?; reflexivity|]. intros i _. unfold covary. 
    rewrite (bsum_ext n _ (fun j => times cols (fun i k => w * ((plus_points c i j - a i) * (plus_points d k j - b k) + (minus_points c i j - a i) * (minus_points d k j - b k))) y i)).
    + rewrite <- times_bsum. unfold times. rewrite <- bsum_plus. apply bsum_ext. intros; ring.
    + intros j _. unfold times. rewrite <- bsum_plus. apply bsum_ext. intros; ring.
  - rewrite dot_plus, dot_bsum, outer_times. rewrite dot_scal, !dot_minus. f_equal. apply bsum_ext. intros j _.
    rewrite dot_plus, !outer_times, !dot_scal, !dot_minus. unfold column. ring.
Qed.
Lemma covary_form_sym n k w0 w c a x : quadratic k (covary n w0 w c a c a) x = 
  w0 * (dot_product k x (middle_point c) - dot_product k x a) * (dot_product k x (middle_point c) - dot_product k x a) +
  bsum n (fun j => w * ((dot_product k x (column (plus_points c) j) - dot_product k x a) * (dot_product k x (column (plus_points c) j) - dot_product k x a) +
                        (dot_product k x (column (minus_points c) j) - dot_product k x a) * (dot_product k x (column (minus_points c) j) - dot_product k x a))).
Proof. apply covary_form. Qed.
Lemma covary_symmetric n k w0 w c a : symmetric k (covary n w0 w c a c a).
Proof. intros i j _ _. unfold transposed, covary. f_equal; [ring|]. apply bsum_ext. intros; ring. Qed.

Section Cloud.
  Variables (n : nat) (alpha beta kappa : R).
  Hypothesis P : (0 < n)%nat.
  Hypothesis Sp : 0 < spread_of n alpha kappa.
  Hypothesis C : 0 <= INR n * beta + alpha * alpha * kappa.
  Let w0 := mean_weight n alpha kappa.
  Let w1 := spread_weight n alpha beta kappa.
  Let w := side_weight n alpha kappa.
  Lemma cloud_covariance k c : covariance_matrix k (covary n w1 w c (average n w0 w c) c (average n w0 w c)).
  Proof.
    split; [apply covary_symmetric|]. intros x. rewrite covary_form_sym. apply variance_nonneg; auto. apply dot_average.
  Qed.
  (** two clouds seen at once: what one reading says about the other never exceeds what there is *)
  Lemma cloud_joint k l c d x y : 
    0 <= quadratic k (covary n w1 w c (average n w0 w c) c (average n w0 w c)) x +
         2 * dot_product k x (times l (covary n w1 w c (average n w0 w c) d (average n w0 w d)) y) +
         quadratic l (covary n w1 w d (average n w0 w d) d (average n w0 w d)) y.
  Proof.
    rewrite !covary_form_sym, covary_form. set (a := average n w0 w c). set (b := average n w0 w d).
    pose proof (variance_nonneg n alpha beta kappa (dot_product k x (middle_point c) + dot_product l y (middle_point d))
      (fun j => dot_product k x (column (plus_points c) j) + dot_product l y (column (plus_points d) j))
      (fun j => dot_product k x (column (minus_points c) j) + dot_product l y (column (minus_points d) j))
      (dot_product k x a + dot_product l y b) P Sp C) as V.
    fold w0 w w1 in V. refine (Rle_trans _ _ _ (V _) (Req_le _ _ _)).
    - unfold a, b. rewrite !dot_average. match goal with |- _ = _ + bsum n ?C => rewrite (bsum_ext n C (fun j => w * (dot_product k x (column (plus_points c) j) + dot_product k x (column (minus_points c) j)) + w * (dot_product l y (column (plus_points d) j) + dot_product l y (column (minus_points d) j)))) by (intros; ring) end.
      rewrite bsum_plus. ring.
    - rewrite (bsum_ext n _ (fun j => w * ((dot_product k x (column (plus_points c) j) - dot_product k x a) * (dot_product k x (column (plus_points c) j) - dot_product k x a) + (dot_product k x (column (minus_points c) j) - dot_product k x a) * (dot_product k x (column (minus_points c) j) - dot_product k x a)) +
        (2 * (w * ((dot_product k x (column (plus_points c) j) - dot_product k x a) * (dot_product l y (column (plus_points d) j) - dot_product l y b) + (dot_product k x (column (minus_points c) j) - dot_product k x a) * (dot_product l y (column (minus_points d) j) - dot_product l y b))) +
        w * ((dot_product l y (column (plus_points d) j) - dot_product l y b) * (dot_product l y (column (plus_points d) j) - dot_product l y b) + (dot_product l y (column (minus_points d) j) - dot_product l y b) * (dot_product l y (column (minus_points d) j) - dot_product l y b))))) by (intros; ring).
      rewrite !bsum_plus, (bsum_scal n 2). ring.
  Qed.
End Cloud.

(** ** What the code computes *)
Definition cloud_of (centre : list R) (plus minus : mat R) : cloud := {| middle_point := vget centre; plus_points := mget plus; minus_points := mget minus |}.
Lemma vget_scale (v : list R) c i : vget (vec_scale v c) i = c * vget v i.
Proof. unfold vget, vec_scale. destruct (Nat.ltb_spec i (length v)) as [H|H]; [rewrite (nth_indep _ 0 (mul (nth 0 v zero) c)) by (rewrite map_length; auto)|].
  - rewrite (nth_indep _ _ (mul zero c)) by (rewrite map_length; auto). rewrite (map_nth (fun a => mul a c)). rnum. ring.
  - rewrite !nth_overflow by (rewrite ?map_length; auto). rnum. ring.
Qed.
Lemma vec_scale_length (v : list R) c : length (vec_scale v c) = length v.
Proof. apply map_length. Qed.
Lemma column_of_length rows (a : mat R) j : length (column_of rows a j) = rows.
Proof. apply from_fn_length. Qed.
Lemma vget_column rows (a : mat R) j i : (i < rows)%nat -> vget (column_of rows a j) i = mget a i j.
Proof. intros H. unfold column_of. rewrite vget_from_fn by auto. reflexivity. Qed.
Lemma vget_add (u v : list R) i : length u = length v -> (i < length u)%nat -> vget (vec_add u v) i = vget u i + vget v i.
Proof. intros. unfold vec_add. rewrite vget_map2 by auto. reflexivity. Qed.
Lemma vget_sub (u v : list R) i : length u = length v -> (i < length u)%nat -> vget (vec_sub u v) i = vget u i - vget v i.
Proof. intros. unfold vec_sub. rewrite vget_map2 by auto. reflexivity. Qed.
Lemma add_length (u v : list R) : length u = length v -> length (vec_add u v) = length u.
Proof. apply map2_length. Qed.
Lemma sub_length (u v : list R) : length u = length v -> length (vec_sub u v) = length u.
Proof. apply map2_length. Qed.

Lemma mean_read n rows w0 w centre plus minus : length centre = rows ->
  length (weighted_mean n rows w0 w centre plus minus) = rows /\
  equal_vectors rows (vget (weighted_mean n rows w0 w centre plus minus)) (average n w0 w (cloud_of centre plus minus)).
Proof.
  intros L. unfold weighted_mean, average. induction n as [|n [IL IE]]; [cbn [seq fold_left bsum]; split; [rewrite vec_scale_length; auto|intros i Hi; rewrite vget_scale; cbn [cloud_of middle_point]; ring]|].
  rewrite seq_S, fold_left_app. cbn [fold_left Nat.add]. set (r := fold_left _ _ _) in *.
  assert (LC : length (vec_scale (vec_add (column_of rows plus n) (column_of rows minus n)) w) = rows) by (rewrite vec_scale_length, add_length; rewrite ?column_of_length; auto).
  split; [rewrite add_length; lia|]. intros i Hi. rewrite vget_add by lia. rewrite IE by auto. rewrite vget_scale, vget_add by (rewrite ?column_of_length; auto).
  rewrite !vget_column by auto. cbn [cloud_of middle_point plus_points minus_points]. cbn [bsum]. ring.
Qed.
Lemma outer_read rows cols (a : mat R) c u v : shape rows cols a ->
  shape rows cols (add_weighted_outer_product rows cols a c u v) /\
  equal rows cols (mget (add_weighted_outer_product rows cols a c u v)) (plus_matrix (mget a) (fun i k => c * vget u i * vget v k)).
Proof.
  intros S. unfold add_weighted_outer_product. split; [apply shape_map2; [exact S|apply shape_mat_fn]|]. intros i j Hi Hj. rewrite (mget_add rows cols) by (auto; apply shape_mat_fn).
  unfold plus_matrix. rewrite mget_mat_fn by auto. reflexivity.
Qed.
Lemma spread_sum_read n rows cols start w0 w ce pl mi me ce' pl' mi' me' : shape rows cols start -> length ce = rows -> length me = rows -> length ce' = cols -> length me' = cols ->
  shape rows cols (weighted_spread n rows cols start w0 w ce pl mi me ce' pl' mi' me') /\
  equal rows cols (mget (weighted_spread n rows cols start w0 w ce pl mi me ce' pl' mi' me'))
    (plus_matrix (mget start) (covary n w0 w (cloud_of ce pl mi) (vget me) (cloud_of ce' pl' mi') (vget me'))).
Proof.
  intros S L1 L2 L3 L4. unfold weighted_spread, covary. cbn [cloud_of middle_point plus_points minus_points].
  induction n as [|n [IS IE]].
  - cbn [seq fold_left]. destruct (outer_read rows cols start w0 (vec_sub ce me) (vec_sub ce' me') S) as [A B]. split; [exact A|]. intros i k Hi Hk. rewrite B by auto.
    unfold plus_matrix. cbn [bsum]. rewrite !vget_sub by lia. ring.
  - rewrite seq_S, fold_left_app. cbn [fold_left Nat.add]. set (r := fold_left _ _ _) in *.
    destruct (outer_read rows cols r w (vec_sub (column_of rows pl n) me) (vec_sub (column_of cols pl' n) me') IS) as [A B].
    destruct (outer_read rows cols _ w (vec_sub (column_of rows mi n) me) (vec_sub (column_of cols mi' n) me') A) as [A' B'].
    split; [exact A'|]. intros i k Hi Hk. rewrite B' by auto. unfold plus_matrix at 1. rewrite B by auto. unfold plus_matrix at 1. rewrite IE by auto. unfold plus_matrix.
    cbn [bsum]. rewrite !vget_sub by (rewrite ?column_of_length; lia). rewrite !vget_column by auto. ring.
Qed.
