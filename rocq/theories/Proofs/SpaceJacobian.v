(** The jacobians of rotations of space, and of rigid motions of space. *)
From Coq Require Import ZArith List Bool Arith Reals Lra Lia.
From Coquelicot Require Import Coquelicot.
From Verif Require Import Base.Scalar Base.RNum Base.Lists Base.Series Base.Deriv Model.Vector Model.Matrix Model.Quaternion Model.Lie Spec.Matrix Spec.MatrixExp Spec.Hold Spec.Rotation Proofs.Matrix Proofs.Algebra Proofs.Expm Proofs.Quaternion Proofs.Rotation Proofs.ExpIntegral.
Import ListNotations.
Local Open Scope R_scope.
Local Notation cos := Rtrigo_def.cos.
Local Notation sin := Rtrigo_def.sin.
Local Notation sqrt := R_sqrt.sqrt.
Local Notation length := Spec.Rotation.length.

(** ** Polynomials in the matrix of a cross product *)
Definition series3 (phi : point) (k0 k1 k2 : R) : matrix := fun i j =>
  k0 * unit_matrix i j + k1 * cross_matrix phi i j + k2 * product 3 (cross_matrix phi) (cross_matrix phi) i j.
Lemma series3_ext phi k0 k1 k2 k1' k2' : (phi <> (0, 0, 0) -> k1 = k1' /\ k2 = k2') -> equal 3 3 (series3 phi k0 k1 k2) (series3 phi k0 k1' k2').
Proof.
  intros H i j Hi Hj. unfold series3. destruct phi as [[x y] z]. destruct (Req_dec x 0) as [X|X]; [destruct (Req_dec y 0) as [Y|Y]; [destruct (Req_dec z 0) as [Z|Z]|]|].
  1:{ subst. unfold product, bsum, cross_matrix. three i; three j; cbn [nth]; ring. }
  all: destruct H as [-> ->]; [congruence|reflexivity].
Qed.
Lemma series3_product phi k0 k1 k2 l0 l1 l2 : let t := inner phi phi in
  equal 3 3 (product 3 (series3 phi k0 k1 k2) (series3 phi l0 l1 l2))
    (series3 phi (k0 * l0) (k0 * l1 + k1 * l0 - t * (k1 * l2 + k2 * l1)) (k0 * l2 + k1 * l1 + k2 * l0 - t * (k2 * l2))).
Proof.
  intros t i j Hi Hj. unfold t, series3. destruct phi as [[x y] z]. unfold product, bsum, inner, cross_matrix, unit_matrix. three i; three j; cbn [nth Nat.eqb]; ring.
Qed.
Lemma cross_series phi k0 k1 k2 : equal 3 3 (product 3 (cross_matrix phi) (series3 phi k0 k1 k2)) (series3 phi 0 (k0 - inner phi phi * k2) k1).
Proof.
  intros i j Hi Hj. unfold series3. destruct phi as [[x y] z]. unfold product, bsum, inner, cross_matrix, unit_matrix. three i; three j; cbn [nth Nat.eqb]; ring.
Qed.
Lemma cross_entry phi i j : (i < 3)%nat -> (j < 3)%nat -> Rabs (cross_matrix phi i j) <= length phi.
Proof.
  intros Hi Hj. pose proof (coordinate_bound phi 0) as A. pose proof (coordinate_bound phi 1) as B. pose proof (coordinate_bound phi 2) as C. pose proof (length_nonneg phi).
  destruct phi as [[x y] z]. cbn [coordinate nth] in A, B, C. unfold cross_matrix. three i; three j; cbn [nth]; rewrite ?Rabs_Ropp, ?Rabs_R0; assumption.
Qed.
Lemma square_entry phi i j : (i < 3)%nat -> (j < 3)%nat -> Rabs (product 3 (cross_matrix phi) (cross_matrix phi) i j) <= inner phi phi.
Proof.
  intros Hi Hj. destruct phi as [[x y] z]. unfold product, bsum, inner, cross_matrix. apply Rabs_le. three i; three j; cbn [nth]; nra.
Qed.
Lemma series3_near phi k0 k1 k2 l1 l2 d1 d2 : Rabs (k1 - l1) <= d1 -> Rabs (k2 - l2) <= d2 -> forall i j, (i < 3)%nat -> (j < 3)%nat ->
  Rabs (series3 phi k0 k1 k2 i j - series3 phi k0 l1 l2 i j) <= d1 * length phi + d2 * inner phi phi.
Proof.
  intros D1 D2 i j Hi Hj. unfold series3. pose proof (cross_entry phi i j Hi Hj) as A. pose proof (square_entry phi i j Hi Hj) as B.
  match goal with |- Rabs ?u <= _ => replace u with ((k1 - l1) * cross_matrix phi i j + (k2 - l2) * product 3 (cross_matrix phi) (cross_matrix phi) i j) by ring end.
  eapply Rle_trans; [apply Rabs_triang|]. rewrite !Rabs_mult. apply Rplus_le_compat; apply Rmult_le_compat; auto using Rabs_pos.
Qed.
Lemma nonzero_inner phi : phi <> (0, 0, 0) -> 0 < length phi /\ inner phi phi = length phi * length phi /\ 0 < inner phi phi.
Proof. intros N. pose proof (length_pos phi N) as P. pose proof (length_sqr phi) as Q. split; [exact P|]. split; [lra|nra]. Qed.

(** The integral of the turns by t phi, for t from zero *)
Definition swept (phi : point) (t : R) : matrix := series3 phi t ((1 - cos (t * length phi)) / inner phi phi) ((t - sin (t * length phi) / length phi) / inner phi phi).
Lemma swept_derive phi t i j : (i < 3)%nat -> (j < 3)%nat -> is_derive (fun s => swept phi s i j) t (unit_matrix i j + product 3 (cross_matrix phi) (swept phi t) i j).
Proof.
  intros Hi Hj. unfold swept at 2. rewrite cross_series by auto. destruct (Req_dec (length phi) 0) as [Z|Z].
  - apply length_zero in Z. subst. apply (is_derive_ext (fun s => s * unit_matrix i j)).
    + intros s. unfold swept, series3, product, bsum, cross_matrix. three i; three j; cbn [nth]; match goal with |- ?u = ?v => change (@eq R u v) end; ring.
    + evar_last. { auto_derive; trivial. } unfold series3, product, bsum, cross_matrix. three i; three j; cbn [nth]; match goal with |- ?u = ?v => change (@eq R u v) end; ring.
  - assert (N : phi <> (0, 0, 0)). { intros ->. apply Z. apply length_zero. reflexivity. } destruct (nonzero_inner phi N) as (P & Q & S).
    unfold swept, series3. set (c := cross_matrix phi i j). set (d := product 3 (cross_matrix phi) (cross_matrix phi) i j). rewrite Q. set (l := length phi) in *. set (u := unit_matrix i j). auto_derive; trivial. field. exact Z.
Qed.
Lemma swept_zero phi : equal 3 3 (swept phi 0) zero_matrix.
Proof. intros i j Hi Hj. unfold swept, series3. rewrite (Rmult_0_l (length phi)), cos_0, sin_0. unfold zero_matrix, Rdiv. ring. Qed.
Lemma swept_integral phi b : 0 <= b -> equal 3 3 (exp_at 3 (cross_matrix phi) b) (plus_matrix unit_matrix (product 3 (cross_matrix phi) (swept phi b))) /\ integral 3 3 (exp_at 3 (cross_matrix phi)) b (swept phi b).
Proof. apply integral_unique; [intros; apply swept_derive; auto|apply swept_zero]. Qed.

(** ** The coefficients *)
(** The four coefficients of Taylor series the code uses, exactly *)
Definition exact1 (l : R) : R := (1 - cos l) / (l * l).
Definition exact2 (l : R) : R := (l - sin l) / (l * l * l).
Definition exact3 (l : R) : R := (1 - l * l / 2 - cos l) / (l * l * l * l).
Definition exact5 (l : R) : R := (l - sin l - l * l * l / 6) / (l * l * l * l * l).
Lemma exact_near l : 0 < l <= 2 ->
  (0 <= exact1 l - (/ 2 - l * l / 24) <= l ^ 4 / 720) /\ (0 <= exact2 l - (1 / 6 - l * l / 120) <= l ^ 4 / 5040) /\
  Rabs (- 1 / 24 + l * l / 720 - exact3 l) <= l ^ 4 / 40320 /\ Rabs (- 1 / 120 + l * l / 5040 - exact5 l) <= l ^ 4 / 362880.
Proof.
  intros L. destruct (sin_taylor l ltac:(lra)) as [[A B] [C D]]. destruct (cos_taylor l ltac:(lra)) as [[E F] [G H]].
  assert (P2 : 0 < l * l) by nra. assert (P3 : 0 < l * l * l) by nra. assert (P4 : 0 < l * l * l * l) by nra. assert (P5 : 0 < l * l * l * l * l) by nra.
  assert (K : forall u v w, 0 < w -> u * w <= v -> u <= v / w). { intros u v w W X. apply Rmult_le_reg_r with w; [exact W|]. unfold Rdiv. rewrite Rmult_assoc, Rinv_l by lra. lra. }
  assert (K' : forall u v w, 0 < w -> v <= u * w -> v / w <= u). { intros u v w W X. apply Rmult_le_reg_r with w; [exact W|]. unfold Rdiv. rewrite Rmult_assoc, Rinv_l by lra. lra. }
  unfold exact1, exact2, exact3, exact5. repeat split; try apply Rabs_le; try split.
  all: first [assert (/ 2 - l * l / 24 <= (1 - cos l) / (l * l)) by (apply K; lra); lra
    |assert ((1 - cos l) / (l * l) <= / 2 - l * l / 24 + l ^ 4 / 720) by (apply K'; lra); lra
    |assert (1 / 6 - l * l / 120 <= (l - sin l) / (l * l * l)) by (apply K; lra); lra
    |assert ((l - sin l) / (l * l * l) <= 1 / 6 - l * l / 120 + l ^ 4 / 5040) by (apply K'; lra); lra
    |idtac].
  - assert ((1 - l * l / 2 - cos l) / (l * l * l * l) <= - 1 / 24 + l * l / 720) by (apply K'; lra). assert (0 <= l ^ 4) by (apply pow_le; lra). lra.
  - assert (- 1 / 24 + l * l / 720 - l ^ 4 / 40320 <= (1 - l * l / 2 - cos l) / (l * l * l * l)) by (apply K; lra). lra.
  - assert ((l - sin l - l * l * l / 6) / (l * l * l * l * l) <= - 1 / 120 + l * l / 5040) by (apply K'; lra). assert (0 <= l ^ 4) by (apply pow_le; lra). lra.
  - assert (- 1 / 120 + l * l / 5040 - l ^ 4 / 362880 <= (l - sin l - l * l * l / 6) / (l * l * l * l * l)) by (apply K; lra). lra.
Qed.
Lemma cbrt_below v t : 0 < v -> 0 <= t -> (t < Rcbrt v <-> t * t * t < v).
Proof.
  intros V T. destruct (Rcbrt_pos v V) as [P E]. split; intros H.
  - rewrite <- E. apply Rle_lt_trans with (t * t * Rcbrt v); [|apply Rmult_lt_compat_r; nra]. nra.
  - apply Rnot_le_lt. intros Q. assert (v <= t * t * t); [|lra]. rewrite <- E. apply Rle_trans with (t * t * Rcbrt v); [|nra]. apply Rmult_le_compat_r; nra.
Qed.
Lemma fourth_below v t : 0 < v -> 0 <= t -> (t < sqrt (sqrt v) <-> t * t * t * t < v).
Proof.
  intros V T. assert (S : 0 < sqrt v) by (apply sqrt_lt_R0, V). assert (S2 : 0 < sqrt (sqrt v)) by (apply sqrt_lt_R0, S). pose proof (sqrt_sqrt v ltac:(lra)) as E. pose proof (sqrt_sqrt (sqrt v) ltac:(lra)) as F.
  set (r := sqrt (sqrt v)) in *. set (s := sqrt v) in *. split; intros H.
  - assert (t * t < s) by nra. rewrite <- E. replace (t * t * t * t) with ((t * t) * (t * t)) by ring. assert (0 <= t * t) by nra. nra.
  - apply Rnot_le_lt. intros Q. assert (s <= t * t) by nra. assert (s * s <= (t * t) * (t * t)) by nra. lra.
Qed.
(** One coefficient as the code computes it *)
Definition coeff1 (l : R) : R := if Rltb (l * l) (Rcbrt (360 * / IZR (2^52))) then / 2 - l * l / 24 else exact1 l.
Definition coeff2 (l : R) : R := if Rltb (l * l) (Rcbrt (2520 * / IZR (2^52))) then 1 / 6 - l * l / 120 else exact2 l.
Lemma power_52 : 0 < / IZR (2^52) < / 1000000000000000.
Proof. split; [apply Rinv_0_lt_compat; apply IZR_lt; lia|]. apply Rinv_lt_contravar; [|apply IZR_lt; lia]. apply Rmult_lt_0_compat; apply IZR_lt; lia. Qed.
Lemma cube_below t v : 0 <= t -> t * t * t < v -> v <= / 1000000 -> t < / 100.
Proof. intros T H V. apply Rnot_le_lt. intros Q. assert (/ 100 * / 100 * / 100 <= t * t * t); [|lra]. apply Rmult_le_compat; nra. Qed.
Lemma square_root_below l : 0 <= l -> l * l < / 100 -> l <= / 10.
Proof. intros. nra. Qed.
Lemma coeff_near l : 0 < l -> Rabs (coeff1 l - exact1 l) <= l ^ 4 / 720 /\ Rabs (coeff2 l - exact2 l) <= l ^ 4 / 5040 /\
  (360 * / IZR (2^52) <= l ^ 6 -> coeff1 l = exact1 l) /\ (2520 * / IZR (2^52) <= l ^ 6 -> coeff2 l = exact2 l).
Proof.
  intros L. pose proof power_52 as E. assert (P4 : 0 <= l ^ 4) by (apply pow_le; lra). assert (P2 : 0 <= l * l) by nra. unfold coeff1, coeff2.
  assert (Z1 : Rabs (exact1 l - exact1 l) <= l ^ 4 / 720) by (rewrite Rminus_diag_eq, Rabs_R0 by reflexivity; lra). assert (Z2 : Rabs (exact2 l - exact2 l) <= l ^ 4 / 5040) by (rewrite Rminus_diag_eq, Rabs_R0 by reflexivity; lra).
  repeat split; intros.
  - destruct (Rltb _ _) eqn:D; [|exact Z1]. apply Rltb_true, cbrt_below in D; [|lra|lra]. apply cube_below in D; [|lra|lra]. apply square_root_below in D; [|lra]. destruct (exact_near l ltac:(lra)) as [A _]. apply Rabs_le. lra.
  - destruct (Rltb _ _) eqn:D; [|exact Z2]. apply Rltb_true, cbrt_below in D; [|lra|lra]. apply cube_below in D; [|lra|lra]. apply square_root_below in D; [|lra]. destruct (exact_near l ltac:(lra)) as (_ & A & _). apply Rabs_le. lra.
  - destruct (Rltb _ _) eqn:D; [|reflexivity]. apply Rltb_true, cbrt_below in D; [|lra|lra]. replace (l * l * (l * l) * (l * l)) with (l ^ 6) in D by ring. lra.
  - destruct (Rltb _ _) eqn:D; [|reflexivity]. apply Rltb_true, cbrt_below in D; [|lra|lra]. replace (l * l * (l * l) * (l * l)) with (l ^ 6) in D by ring. lra.
Qed.

(** ** The left jacobian of a rotation vector *)
Lemma skew3_R phi : equal 3 3 (mget (skew3 phi)) (cross_matrix phi).
Proof. destruct phi as [[x y] z]. intros i j Hi Hj. unfold mget, skew3, cross_matrix. rnum. three i; three j; reflexivity. Qed.
Lemma shape_skew3 (phi : point) : shape 3 3 (skew3 (T := R) phi).
Proof. destruct phi as [[x y] z]. split; [reflexivity|]. intros i Hi. three i; reflexivity. Qed.
Ltac shapes := repeat (apply shape_map2 || apply shape_scale || apply shape_identity || apply shape_mat_fn || apply shape_skew3 || apply shape_map).
Lemma identity_R n : equal n n (mget (identity (T := R) n)) unit_matrix.
Proof. intros i j Hi Hj. rewrite mget_identity by auto. reflexivity. Qed.
Lemma mget_difference n k (a b : mat R) : shape n k a -> shape n k b -> equal n k (mget (mat_sub a b)) (minus_matrix (mget a) (mget b)).
Proof. intros Sa Sb i j Hi Hj. unfold mat_sub. rewrite (mget_map2 sub n k) by auto. reflexivity. Qed.
Lemma mget_product n m k (a b : mat R) a' b' : equal n m (mget a) a' -> equal m k (mget b) b' -> equal n k (mget (mat_mul n m k a b)) (product m a' b').
Proof. intros A B i j Hi Hj. rewrite mget_mul by auto. apply (equal_product n m k _ _ _ _ A B); auto. Qed.
Lemma skew_square phi : equal 3 3 (mget (mat_mul 3 3 3 (skew3 phi) (skew3 phi))) (product 3 (cross_matrix phi) (cross_matrix phi)).
Proof. apply mget_product; apply skew3_R. Qed.
Lemma theta_sq phi : inner phi phi = length phi * length phi.
Proof. pose proof (length_sqr phi). lra. Qed.
Lemma zero_or phi : {phi = (0, 0, 0)} + {phi <> (0, 0, 0)}.
Proof. destruct (Req_EM_T (length phi) 0) as [Z|Z]; [left; apply length_zero, Z|right; intros E; apply Z, length_zero, E]. Qed.
Lemma left_jacobian_R phi : equal 3 3 (mget (left_jacobian_so3 phi)) (series3 phi 1 (coeff1 (length phi)) (coeff2 (length phi))).
Proof.
  intros i j Hi Hj. unfold left_jacobian_so3, small_angle_so3_sq. cbv zeta. rewrite dot3_R.
  rewrite (mget_sum 3 3) by (auto; shapes).
  unfold plus_matrix at 1. rewrite (mget_sum 3 3) by (auto; shapes). unfold plus_matrix. rewrite identity_R, !mget_scale by auto. unfold scaled_matrix. rewrite skew_square, skew3_R by auto.
  rnum. change (sqrt (inner phi phi)) with (length phi). rewrite theta_sq. unfold series3, coeff1, coeff2, exact1, exact2.
  replace (360 / 1) with 360 by field. replace (2520 / 1) with 2520 by field. replace (24 / 1) with 24 by field. replace (6 / 1) with 6 by field. replace (120 / 1) with 120 by field. rewrite Rmult_1_l. reflexivity.
Qed.
Lemma swept_one phi : equal 3 3 (swept phi 1) (series3 phi 1 (exact1 (length phi)) (exact2 (length phi))).
Proof.
  unfold swept. rewrite !Rmult_1_l. apply series3_ext. intros N. destruct (nonzero_inner phi N) as (P & Q & S). rewrite Q. unfold exact1, exact2. split; [reflexivity|]. field. lra.
Qed.
Definition exact_jacobian (phi : point) : matrix := series3 phi 1 (exact1 (length phi)) (exact2 (length phi)).
Lemma exact_jacobian_integral phi : integral 3 3 (exp_at 3 (cross_matrix phi)) 1 (exact_jacobian phi).
Proof. destruct (swept_integral phi 1 ltac:(lra)) as [_ I]. intros i j Hi Hj. unfold exact_jacobian. rewrite <- swept_one by auto. apply I; auto. Qed.
Lemma left_jacobian_exact phi : 2520 * / IZR (2^52) <= length phi ^ 6 \/ phi = (0, 0, 0) -> equal 3 3 (mget (left_jacobian_so3 phi)) (exact_jacobian phi).
Proof.
  intros H. eapply equal_trans; [apply left_jacobian_R|]. apply series3_ext. intros N. destruct H as [H|H]; [|contradiction]. pose proof power_52. destruct (coeff_near (length phi) (length_pos phi N)) as (_ & _ & A & B). split; [apply A; lra|apply B, H].
Qed.
Lemma left_jacobian_near phi i j : (i < 3)%nat -> (j < 3)%nat -> Rabs (mget (left_jacobian_so3 phi) i j - exact_jacobian phi i j) <= length phi ^ 5 / 720 + length phi ^ 6 / 5040.
Proof.
  intros Hi Hj. rewrite left_jacobian_R by auto. destruct (zero_or phi) as [->|N].
  - unfold exact_jacobian. rewrite (series3_ext (0, 0, 0) 1 _ _ (exact1 (length (0, 0, 0))) (exact2 (length (0, 0, 0)))) by (auto; contradiction). rewrite Rminus_diag_eq, Rabs_R0 by reflexivity. pose proof (length_nonneg (0, 0, 0)) as L. pose proof (pow_le _ 5 L). pose proof (pow_le _ 6 L). lra.
  - destruct (coeff_near (length phi) (length_pos phi N)) as (A & B & _). eapply Rle_trans; [apply (series3_near phi 1 _ _ _ _ _ _ A B i j Hi Hj)|]. rewrite theta_sq. right. field.
Qed.

(** ** Its inverse *)
Definition exact4 (l : R) : R := (1 - l / 2 * (cos (l / 2) / sin (l / 2))) / (l * l).
Definition coeff4 (l : R) : R := if Rltb (l * l) (Rcbrt (15120 * / IZR (2^52))) then 1 / 12 + l * l / 720 else exact4 l.
Lemma inverse_left_jacobian_R phi : equal 3 3 (mget (inverse_left_jacobian_so3 phi)) (series3 phi 1 (- / 2) (coeff4 (length phi))).
Proof.
  intros i j Hi Hj. unfold inverse_left_jacobian_so3, small_angle_inverse_so3_sq. cbv zeta. rewrite dot3_R.
  rewrite (mget_sum 3 3) by (auto; shapes).
  unfold plus_matrix at 1. rewrite (mget_difference 3 3) by (auto; shapes). unfold minus_matrix. rewrite identity_R, !mget_scale by auto. unfold scaled_matrix. rewrite skew_square, skew3_R by auto.
  rnum. change (sqrt (inner phi phi)) with (length phi). rewrite theta_sq. unfold series3, coeff4, exact4.
  replace (15120 / 1) with 15120 by field. replace (12 / 1) with 12 by field. replace (720 / 1) with 720 by field. fold (length phi / 2). ring.
Qed.
Lemma half_angles l : cos l = 1 - 2 * (sin (l / 2) * sin (l / 2)) /\ sin l = 2 * (sin (l / 2) * cos (l / 2)).
Proof. split; replace l with (2 * (l / 2)) at 1 by field; [rewrite cos_2a_sin|rewrite sin_2a]; ring. Qed.
Lemma exact_inverse phi : phi = (0, 0, 0) \/ sin (length phi / 2) <> 0 ->
  equal 3 3 (product 3 (exact_jacobian phi) (series3 phi 1 (- / 2) (exact4 (length phi)))) unit_matrix /\ equal 3 3 (product 3 (series3 phi 1 (- / 2) (exact4 (length phi))) (exact_jacobian phi)) unit_matrix.
Proof.
  intros H. assert (U : equal 3 3 (series3 phi 1 0 0) unit_matrix). { intros i j _ _. unfold series3. ring. }
  split; (eapply equal_trans; [apply series3_product|]; rewrite Rmult_1_l; eapply equal_trans; [apply series3_ext|exact U]); intros N; (destruct H as [H|H]; [contradiction|]); destruct (nonzero_inner phi N) as (P & Q & S); rewrite Q; set (l := length phi) in *;
    unfold exact1, exact2, exact4; destruct (half_angles l) as [-> ->]; pose proof (sin2_cos2 (l / 2)) as E; unfold Rsqr in E; set (c := cos (l / 2)) in *; set (s := sin (l / 2)) in *; (split; [field_simplify_eq; [|lra..]|field_simplify_eq; [|lra..]]); try (replace (c ^ 2) with (1 - s * s) by lra; ring); try (replace (c ^ 2) with (1 - s ^ 2) by lra; ring).
Qed.
Lemma coeff4_exact l : 15120 * / IZR (2^52) <= l ^ 6 -> coeff4 l = exact4 l.
Proof.
  intros H. pose proof power_52. unfold coeff4. destruct (Rltb _ _) eqn:D; [|reflexivity]. assert (0 <= l * l) by nra. apply Rltb_true, cbrt_below in D; [|lra|lra]. replace (l * l * (l * l) * (l * l)) with (l ^ 6) in D by ring. lra.
Qed.
Lemma inverse_left_jacobian_exact phi : 15120 * / IZR (2^52) <= length phi ^ 6 \/ phi = (0, 0, 0) -> equal 3 3 (mget (inverse_left_jacobian_so3 phi)) (series3 phi 1 (- / 2) (exact4 (length phi))).
Proof. intros H. eapply equal_trans; [apply inverse_left_jacobian_R|]. apply series3_ext. intros N. destruct H as [H|H]; [|contradiction]. split; [reflexivity|apply coeff4_exact, H]. Qed.
Lemma coeff_taylor l : 0 < l <= / 10 -> (0 <= coeff1 l - (/ 2 - l * l / 24) <= l ^ 4 / 720) /\ (0 <= coeff2 l - (1 / 6 - l * l / 120) <= l ^ 4 / 5040).
Proof.
  intros L. destruct (exact_near l ltac:(lra)) as (A & B & _). assert (0 <= l ^ 4) by (apply pow_le; lra). unfold coeff1, coeff2. split; destruct (Rltb _ _); lra.
Qed.
Lemma small_inverse phi i j : (i < 3)%nat -> (j < 3)%nat -> length phi ^ 6 < 15120 * / IZR (2^52) ->
  Rabs (product 3 (mget (left_jacobian_so3 phi)) (mget (inverse_left_jacobian_so3 phi)) i j - unit_matrix i j) <= length phi ^ 5 /\
  Rabs (product 3 (mget (inverse_left_jacobian_so3 phi)) (mget (left_jacobian_so3 phi)) i j - unit_matrix i j) <= length phi ^ 5.
Proof.
  intros Hi Hj H. rewrite (equal_product 3 3 3 _ _ _ _ (left_jacobian_R phi) (inverse_left_jacobian_R phi) i j Hi Hj), (equal_product 3 3 3 _ _ _ _ (inverse_left_jacobian_R phi) (left_jacobian_R phi) i j Hi Hj), !series3_product by auto.
  replace (unit_matrix i j) with (series3 phi (1 * 1) 0 0 i j) by (unfold series3; ring).
  assert (M : forall a b, a = b -> b <= length phi ^ 5 -> a <= length phi ^ 5) by (intros; lra).
  destruct (zero_or phi) as [->|N].
  { pose proof (pow_le _ 5 (length_nonneg (0, 0, 0))) as L5. split; rewrite (series3_ext (0, 0, 0) (1 * 1) _ _ 0 0) by (auto; contradiction); rewrite Rminus_diag_eq, Rabs_R0 by reflexivity; exact L5. }
  pose proof (length_pos phi N) as L. rewrite theta_sq. pose proof power_52 as E.
  assert (P2 : 0 <= length phi * length phi) by nra. replace (length phi ^ 6) with (length phi * length phi * (length phi * length phi) * (length phi * length phi)) in H by ring.
  assert (D := H). apply cube_below in D; [|lra|lra]. apply square_root_below in D; [|lra]. destruct (coeff_taylor (length phi) ltac:(lra)) as [A B].
  assert (C : coeff4 (length phi) = 1 / 12 + length phi * length phi / 720). { unfold coeff4. rewrite (proj2 (Rltb_true _ _)); [reflexivity|]. apply cbrt_below; lra. }
  rewrite C. clear C H. set (l := length phi) in *. set (c1 := coeff1 l) in *. set (c2 := coeff2 l) in *.
  set (d1 := c1 - (/ 2 - l * l / 24)) in *. set (d2 := c2 - (1 / 6 - l * l / 120)) in *. replace c1 with (/ 2 - l * l / 24 + d1) by (unfold d1; ring). replace c2 with (1 / 6 - l * l / 120 + d2) by (unfold d2; ring). clearbody d1 d2. clear c1 c2.
  set (t := l * l) in *. replace (l ^ 4) with (t * t) in A, B by (unfold t; ring). assert (T : 0 < t <= / 100) by (unfold t; nra).
  assert (F : 0 <= l ^ 5) by (apply pow_le; lra). assert (TT : 0 <= t * t <= t / 100) by nra.
  assert (X1 : Rabs (- / 2 + (/ 2 - t / 24 + d1) - t * ((/ 2 - t / 24 + d1) * (1 / 12 + t / 720) - (1 / 6 - t / 120 + d2) / 2)) <= t * t / 10).
  { match goal with |- Rabs ?u <= _ => replace u with (d1 - t * t / 720 + t * (t * t) / 17280 - t * d1 * (1 / 12 + t / 720) + t * d2 / 2) by field end.
    assert (0 <= t * d1 <= d1) by nra. assert (0 <= t * d2 <= d2) by nra. assert (0 <= t * d1 * (1 / 12 + t / 720) <= t * d1) by nra. assert (0 <= t * (t * t) <= t * t) by nra. apply Rabs_le. lra. }
  assert (X2 : Rabs ((1 / 12 + t / 720) - (/ 2 - t / 24 + d1) / 2 + (1 / 6 - t / 120 + d2) - t * ((1 / 6 - t / 120 + d2) * (1 / 12 + t / 720))) <= t * t / 10).
  { match goal with |- Rabs ?u <= _ => replace u with (d2 - d1 / 2 + t * t * (1 / 1440 - 1 / 4320) + t * (t * t) / 86400 - t * d2 * (1 / 12 + t / 720)) by field end.
    assert (0 <= t * d2 <= d2) by nra. assert (0 <= t * d2 * (1 / 12 + t / 720) <= t * d2) by nra. assert (0 <= t * (t * t) <= t * t) by nra. apply Rabs_le. lra. }
  assert (Z : t * t / 10 * l + t * t / 10 * (l * l) <= l ^ 5). { replace (t * t / 10 * l + t * t / 10 * (l * l)) with (l ^ 5 * ((1 + l) / 10)) by (unfold t; field). assert ((1 + l) / 10 <= 1) by lra. nra. }
  fold t in Z. pose proof (theta_sq phi) as TQ. fold l t in TQ.
  assert (W : forall a b, Rabs (a - 0) <= t * t / 10 -> Rabs (b - 0) <= t * t / 10 -> Rabs (series3 phi (1 * 1) a b i j - series3 phi (1 * 1) 0 0 i j) <= l ^ 5).
  { intros a b HA HB. eapply Rle_trans; [apply (series3_near phi (1 * 1) _ _ _ _ _ _ HA HB i j Hi Hj)|]. rewrite TQ. exact Z. }
  (split; apply W; rewrite Rminus_0_r); (eapply Rle_trans; [right; apply f_equal|]); [|exact X1| |exact X2| |exact X1| |exact X2]; field.
Qed.
