(** The quaternion exponential and logarithm. *)
From Coq Require Import ZArith List Bool Arith Reals Lra Lia.
From Coquelicot Require Import Coquelicot.
From Verif Require Import Base.Scalar Base.RNum Base.Lists Base.Series Base.Trig Model.Vector Model.Matrix Model.Quaternion Spec.Matrix Spec.MatrixExp Spec.Rotation Spec.Quaternion Proofs.Matrix Proofs.Algebra Proofs.Expm Proofs.Quaternion Proofs.Angle Proofs.Rotation.
Import ListNotations.
Local Open Scope R_scope.
Local Notation cos := Rtrigo_def.cos.
Local Notation sin := Rtrigo_def.sin.
Local Notation sqrt := R_sqrt.sqrt.
Local Notation exp := Rtrigo_def.exp.
Local Notation length := Spec.Rotation.length.

Ltac four i := destruct i as [|[|[|[|i]]]]; [| | | |exfalso; lia].
(** The exponential with a nonzero vector part *)
Definition exact_exp (w : R) (v : point) : quaternion R := from_scalar_vector (exp w * cos (length v)) (multiple (exp w * (sin (length v) / length v)) v).
Lemma exact_exp_left w v : v <> (0, 0, 0) -> equal 4 4 (left_matrix (exact_exp w v)) (matrix_exp 4 (left_matrix (from_scalar_vector w v))).
Proof.
  intros N. pose proof (length_pos v N) as P. pose proof (length_sqr v) as Q. destruct v as [[x y] z]. set (n := length (x, y, z)) in *.
  set (f := fun t => left_matrix (Quat (exp (t * w) * cos (t * n)) (exp (t * w) * (sin (t * n) / n) * x) (exp (t * w) * (sin (t * n) / n) * y) (exp (t * w) * (sin (t * n) / n) * z))).
  apply equal_trans with (f 1).
  { intros i j _ _. unfold f, exact_exp, multiple, from_scalar_vector. fold n. rewrite !Rmult_1_l. reflexivity. }
  apply equal_trans with (matrix_exp 4 (scaled_matrix 1 (left_matrix (from_scalar_vector w (x, y, z))))).
  - apply exp_unique; [| |lra].
    + intros t i j Hi Hj. unfold f, left_matrix, from_scalar_vector, product, bsum.
      unfold inner in Q. assert (Q' : z * z = n * n - x * x - y * y) by lra.
      four i; four j; cbn [nth]; auto_derive; auto; try lra; match goal with |- ?l = ?r => change (@eq R l r) end; set (c := cos (t * n)); set (s := sin (t * n)); set (e := exp (t * w)); try (field; lra);
      match goal with |- ?l = ?r => apply (Rmult_eq_reg_r n); [|lra]; transitivity (r * n + e * s * (x * x + y * y + z * z - n * n)); [field; lra|rewrite <- Q; ring] 
       | |- ?l = ?r => apply (Rmult_eq_reg_r n); [|lra]; transitivity (r * n - e * s * (x * x + y * y + z * z - n * n)); [field; lra|rewrite <- Q; ring] end.
    + intros i j Hi Hj. unfold f, left_matrix, unit_matrix. rewrite !Rmult_0_l, exp_0, cos_0, sin_0. four i; four j; cbn [nth Nat.eqb]; field; lra.
  - apply matrix_exp_ext. intros i j _ _. unfold scaled_matrix. ring.
Qed.
Lemma real_exp_left w : equal 4 4 (left_matrix (Quat (exp w) 0 0 0)) (matrix_exp 4 (left_matrix (Quat w 0 0 0))).
Proof.
  set (f := fun t => left_matrix (Quat (exp (t * w)) 0 0 0)).
  apply equal_trans with (f 1); [intros i j _ _; unfold f; rewrite Rmult_1_l; reflexivity|].
  apply equal_trans with (matrix_exp 4 (scaled_matrix 1 (left_matrix (Quat w 0 0 0)))).
  - apply exp_unique; [| |lra].
    + intros t i j Hi Hj. unfold f, left_matrix, product, bsum. four i; four j; cbn [nth]; auto_derive; auto; match goal with |- ?l = ?r => change (@eq R l r) end; ring.
    + intros i j Hi Hj. unfold f, left_matrix, unit_matrix. rewrite !Rmult_0_l, exp_0. four i; four j; cbn [nth Nat.eqb]; ring.
  - apply matrix_exp_ext. intros i j _ _. unfold scaled_matrix. ring.
Qed.
Lemma quat_exp_large q : small <= length (quat_vec q) -> quat_exp q = exact_exp (qw q) (quat_vec q).
Proof.
  intros H. pose proof small_bound as S. unfold quat_exp, small_angle_sq, small_angle. rnum. fold small.
  replace (qx q * qx q + qy q * qy q + qz q * qz q) with (inner (quat_vec q) (quat_vec q)) by reflexivity.
  rewrite (proj2 (Rltb_false _ _)) by (rewrite <- length_sqr; nra). fold (length (quat_vec q)). unfold exact_exp. set (n := length (quat_vec q)) in *. clearbody n. destruct q as [w x y z]. unfold multiple, from_scalar_vector, quat_vec. cbn [qw qx qy qz].
  apply quat_eq; cbn [qw qx qy qz]; first [reflexivity|ring|field].
Qed.
Lemma quat_exp_small q : length (quat_vec q) < small ->
  quat_exp q = from_scalar_vector (exp (qw q) * (1 - length (quat_vec q) * length (quat_vec q) / 2)) (multiple (exp (qw q) * (1 - length (quat_vec q) * length (quat_vec q) / 6)) (quat_vec q)).
Proof.
  intros H. pose proof small_bound as S. pose proof (length_nonneg (quat_vec q)). unfold quat_exp, small_angle_sq, small_angle. rnum. fold small.
  replace (qx q * qx q + qy q * qy q + qz q * qz q) with (inner (quat_vec q) (quat_vec q)) by reflexivity.
  rewrite (proj2 (Rltb_true _ _)) by (rewrite <- length_sqr; nra). rewrite <- length_sqr. set (n := length (quat_vec q)) in *. clearbody n. destruct q as [w x y z]. unfold multiple, from_scalar_vector, quat_vec. cbn [qw qx qy qz].
  apply quat_eq; cbn [qw qx qy qz]; first [reflexivity|ring|field].
Qed.
Lemma left_matrix_near p q d : (forall k, (k < 4)%nat -> Rabs (component p k - component q k) <= d) -> forall i j, (i < 4)%nat -> (j < 4)%nat -> Rabs (left_matrix p i j - left_matrix q i j) <= d.
Proof.
  intros H i j Hi Hj. pose proof (H 0%nat ltac:(lia)) as A. pose proof (H 1%nat ltac:(lia)) as B. pose proof (H 2%nat ltac:(lia)) as C. pose proof (H 3%nat ltac:(lia)) as D. clear H.
  destruct p as [w x y z], q as [w' x' y' z']. unfold component in *. cbn [nth qw qx qy qz] in *. unfold left_matrix.
  four i; four j; cbn [nth]; try assumption; rewrite <- Rabs_Ropp; match goal with |- Rabs ?e <= _ => match goal with K : Rabs ?f <= d |- _ => replace e with f by ring; exact K end end.
Qed.
Lemma sinc_taylor n : 0 < n <= 2 -> 0 <= sin n / n - (1 - n * n / 6) <= n ^ 4 / 120.
Proof.
  intros N. pose proof (sin_taylor n ltac:(lra)) as [[A B] _]. assert (K : sin n / n * n = sin n) by (field; lra). split; (apply (Rmult_le_reg_r n); [lra|]).
  - rewrite Rmult_0_l. replace ((sin n / n - (1 - n * n / 6)) * n) with (sin n / n * n - (n - n ^ 3 / 6)) by (field; lra). rewrite K. lra.
  - replace ((sin n / n - (1 - n * n / 6)) * n) with (sin n / n * n - (n - n ^ 3 / 6)) by (field; lra). rewrite K. replace (n ^ 4 / 120 * n) with (n ^ 5 / 120) by field. lra.
Qed.
Lemma exp_near q : length (quat_vec q) < small -> forall i j, (i < 4)%nat -> (j < 4)%nat ->
  Rabs (left_matrix (quat_exp q) i j - matrix_exp 4 (left_matrix q) i j) <= exp (qw q) * length (quat_vec q) ^ 4.
Proof.
  intros H i j Hi Hj. pose proof small_bound as S. pose proof (length_nonneg (quat_vec q)) as P. rewrite quat_exp_small by exact H. pose proof (exp_pos (qw q)) as E.
  replace (left_matrix q) with (left_matrix (from_scalar_vector (qw q) (quat_vec q))) by (rewrite vector_eq; reflexivity). set (v := quat_vec q) in *. set (w := qw q) in *. clearbody v w. destruct (small_cubed (length v) ltac:(lra)) as [C K].
  assert (P4 : 0 <= length v ^ 4) by (apply pow_le; lra).
  destruct (Req_dec (length v) 0) as [Z|NZ].
  - apply length_zero in Z. subst v. rewrite length_coordinates_zero. cbn [from_scalar_vector]. rewrite <- real_exp_left by auto. unfold multiple, left_matrix, from_scalar_vector.
    match goal with |- Rabs ?e <= _ => replace e with 0 by (four i; four j; cbn [nth]; field) end. rewrite Rabs_R0. rewrite length_coordinates_zero in *. nra.
  - assert (N : v <> (0, 0, 0)) by (intros X; apply NZ, length_zero, X). rewrite <- (exact_exp_left w v N) by auto. apply left_matrix_near; auto. intros k Hk. unfold exact_exp. rewrite !component_vector. set (n := length v) in *.
    destruct k as [|k].
    + pose proof (cos_taylor n ltac:(lra)) as [[A B] _]. rewrite <- Rmult_minus_distr_l, Rabs_mult, (Rabs_pos_eq (exp w)) by lra. apply Rmult_le_compat_l; [lra|]. apply Rabs_le. lra.
    + pose proof (sinc_taylor n ltac:(lra)) as [A B]. rewrite !coordinate_multiple. pose proof (coordinate_bound v k) as Cb. fold n in Cb. replace (exp w * (1 - n * n / 6) * coordinate v k - exp w * (sin n / n) * coordinate v k) with (exp w * (- (sin n / n - (1 - n * n / 6)) * coordinate v k)) by ring.
      rewrite Rabs_mult, (Rabs_pos_eq (exp w)) by lra. apply Rmult_le_compat_l; [lra|]. rewrite Rabs_mult, Rabs_Ropp, Rabs_pos_eq by lra. pose proof (Rabs_pos (coordinate v k)). nra.
Qed.

(** ** The logarithm *)
Lemma norm_polar q : q <> Quat 0 0 0 0 -> 0 < quat_norm q /\ hyp (qw q) (length (quat_vec q)) = quat_norm q.
Proof.
  intros N. split.
  - apply sqrt_lt_R0. pose proof (norm_squared_nonneg q) as [P|P]; [exact P|]. exfalso. apply N, norm_squared_zero. auto.
  - unfold hyp, quat_norm. rewrite length_sqr. destruct q as [w x y z]. unfold quat_norm_squared, inner, quat_vec. cbn [qw qx qy qz]. rnum. f_equal. ring.
Qed.
Lemma quat_log_R q : quat_log q = from_scalar_vector (ln (quat_norm q))
  (multiple (if (Rltb (length (quat_vec q)) small && Rltb 0 (qw q))%bool then / quat_norm q else Ratan2 (length (quat_vec q)) (qw q) / length (quat_vec q)) (quat_vec q)).
Proof.
  unfold quat_log, small_angle. rnum. fold small. rewrite vector_length. set (n := length (quat_vec q)). set (m := quat_norm q). destruct q as [w x y z]. unfold quat_vec, multiple, from_scalar_vector. cbn [qw qx qy qz].
  destruct (_ && _)%bool; apply quat_eq; cbn [qw qx qy qz]; first [reflexivity|ring].
Qed.
Lemma exact_exp_log q : quat_vec q <> (0, 0, 0) -> exact_exp (ln (quat_norm q)) (multiple (Ratan2 (length (quat_vec q)) (qw q) / length (quat_vec q)) (quat_vec q)) = q.
Proof.
  intros N. assert (NQ : q <> Quat 0 0 0 0) by (intros ->; apply N; reflexivity). destruct (norm_polar q NQ) as [P H]. pose proof (length_pos _ N) as L.
  destruct (polar_form (qw q) (length (quat_vec q))) as [A B]. rewrite H in A, B. set (a := Ratan2 (length (quat_vec q)) (qw q)) in *. pose proof (atan2_range (length (quat_vec q)) (qw q)) as G. fold a in G.
  assert (S : 0 < sin a) by (destruct (Rlt_dec 0 (sin a)); [assumption|exfalso; nra]).
  assert (G0 : 0 < a). { destruct (Rlt_dec 0 a) as [|X]; [assumption|exfalso]. destruct (Req_dec a 0) as [E|E]; [rewrite E, sin_0 in S; lra|]. pose proof (sin_gt_0 (- a) ltac:(lra) ltac:(lra)) as Y. rewrite sin_neg in Y. lra. }
  unfold exact_exp. rewrite exp_ln by exact P.
  assert (E : length (multiple (a / length (quat_vec q)) (quat_vec q)) = a).
  { rewrite length_multiple, Rabs_pos_eq; [field; lra|]. apply Rlt_le, Rdiv_lt_0_compat; lra. }
  rewrite E, <- A, multiple_multiple. replace (quat_norm q * (sin a / a) * (a / length (quat_vec q))) with (quat_norm q * sin a / length (quat_vec q)) by (field; lra). rewrite <- B.
  replace (length (quat_vec q) / length (quat_vec q)) with 1 by (field; lra). rewrite multiple_one. apply vector_eq.
Qed.
(** Near the positive real axis the logarithm uses the limit factor. *)
Lemma exact_exp_log_near q : quat_vec q <> (0, 0, 0) -> 0 < qw q -> forall k, (k < 4)%nat ->
  Rabs (component (exact_exp (ln (quat_norm q)) (multiple (/ quat_norm q) (quat_vec q))) k - component q k) <= quat_norm q * (length (quat_vec q) / quat_norm q) ^ 3.
Proof.
  intros N W k Hk. assert (NQ : q <> Quat 0 0 0 0) by (intros ->; apply N; reflexivity). destruct (norm_polar q NQ) as [P H]. pose proof (length_pos _ N) as L.
  assert (H2 : qw q * qw q + length (quat_vec q) * length (quat_vec q) = quat_norm q * quat_norm q) by (rewrite <- H; symmetry; apply hyp_sqr). clear H.
  replace (component q k) with (component (from_scalar_vector (qw q) (quat_vec q)) k) by (rewrite vector_eq; reflexivity).
  unfold exact_exp. rewrite exp_ln by exact P. rewrite length_multiple, (Rabs_pos_eq (/ quat_norm q)) by (left; apply Rinv_0_lt_compat; exact P).
  rewrite !component_vector. set (n := quat_norm q) in *. set (l := length (quat_vec q)) in *. set (w := qw q) in *. set (r := l / n).
  replace (/ n * l) with r by (unfold r; field; lra). assert (R0 : 0 < r) by (apply Rdiv_lt_0_compat; lra).
  assert (El : l = n * r) by (unfold r; field; lra).
  assert (Ew : w = n * (w / n)) by (field; lra). set (c := w / n) in *. assert (C0 : 0 < c) by (apply Rdiv_lt_0_compat; lra).
  assert (C2 : c * c + r * r = 1). { rewrite El, Ew in H2. apply (Rmult_eq_reg_l (n * n)); [|nra]. transitivity (n * c * (n * c) + n * r * (n * r)); [ring|]. rewrite H2. ring. }
  assert (R1 : r <= 1) by nra. assert (P3 : 0 <= r ^ 3) by (apply pow_le; lra).
  assert (P4 : 0 <= r ^ 4 <= r ^ 3) by (split; [apply pow_le; lra|replace (r ^ 4) with (r * r ^ 3) by ring; nra]).
  destruct k as [|k].
  - rewrite Ew. rewrite <- Rmult_minus_distr_l, Rabs_mult, (Rabs_pos_eq n) by lra. apply Rmult_le_compat_l; [lra|].
    pose proof (cos_taylor r ltac:(lra)) as [[A B] _].
    assert (c <= 1 - r * r / 2). { destruct (Rle_dec c (1 - r * r / 2)); [assumption|exfalso; nra]. }
    assert (1 - r * r / 2 - r ^ 4 / 2 <= c).
    { destruct (Rle_dec (1 - r * r / 2 - r ^ 4 / 2) c) as [|G]; [assumption|exfalso]. assert (G' : c < 1 - r * r / 2 - r ^ 4 / 2) by lra. assert (B2 : c * c < (1 - r * r / 2 - r ^ 4 / 2) * (1 - r * r / 2 - r ^ 4 / 2)) by nra.
      replace ((1 - r * r / 2 - r ^ 4 / 2) * (1 - r * r / 2 - r ^ 4 / 2)) with (1 - r * r - r ^ 4 * (3 / 4 - r * r / 2 - r ^ 4 / 4)) in B2 by field.
      assert (0 <= 3 / 4 - r * r / 2 - r ^ 4 / 4) by nra. nra. }
    apply Rabs_le. lra.
  - rewrite !coordinate_multiple. pose proof (coordinate_bound (quat_vec q) k) as Cb. fold l in Cb. set (x := coordinate (quat_vec q) k) in *.
    pose proof (sin_taylor r ltac:(lra)) as [[A _] _]. pose proof (sin_lt_x r R0) as B.
    replace (n * (sin r / r) * (/ n * x) - x) with (- (r - sin r) * (x / r)) by (field; lra). rewrite Rabs_mult, Rabs_Ropp, (Rabs_pos_eq (r - sin r)) by lra.
    assert (X : Rabs (x / r) <= n). { unfold Rdiv. rewrite Rabs_mult, (Rabs_pos_eq (/ r)) by (left; apply Rinv_0_lt_compat; lra). apply (Rmult_le_reg_r r); [lra|]. rewrite Rmult_assoc, Rinv_l by lra. rewrite <- El. lra. }
    pose proof (Rabs_pos (x / r)). apply Rle_trans with (r ^ 3 / 6 * n); [apply Rmult_le_compat; lra|nra].
Qed.
Lemma quat_log_exact_exp w v : v <> (0, 0, 0) -> length v < PI -> (small <= exp w * sin (length v) \/ PI / 2 <= length v) -> quat_log (exact_exp w v) = from_scalar_vector w v.
Proof.
  intros N LP H. pose proof (length_pos v N) as L. pose proof (exp_pos w) as E. assert (S : 0 < sin (length v)) by (apply sin_gt_0; lra).
  rewrite quat_log_R. unfold exact_exp. rewrite vector_of, scalar_of. rewrite length_multiple. set (n := length v) in *.
  assert (K : Rabs (exp w * (sin n / n)) * n = exp w * sin n). { rewrite Rabs_pos_eq; [field; lra|]. apply Rmult_le_pos; [lra|]. apply Rlt_le, Rdiv_lt_0_compat; lra. }
  rewrite K.
  assert (Q : quat_norm (from_scalar_vector (exp w * cos n) (multiple (exp w * (sin n / n)) v)) = exp w).
  { unfold quat_norm. replace (quat_norm_squared _) with (Rsqr (exp w)); [apply sqrt_Rsqr; lra|].
    replace (quat_norm_squared _) with (exp w * cos n * (exp w * cos n) + (exp w * (sin n / n)) * (exp w * (sin n / n)) * inner v v).
    - rewrite <- length_sqr. fold n. pose proof (sin2_cos2 n) as T. unfold Rsqr in *. transitivity (exp w * exp w * (sin n * sin n + cos n * cos n)); [rewrite T; ring|field; lra].
    - destruct v as [[x y] z]. unfold quat_norm_squared, from_scalar_vector, multiple, inner. cbn [qw qx qy qz]. rnum. ring. }
  rewrite Q, ln_exp.
  replace (Rltb (exp w * sin n) small && Rltb 0 (exp w * cos n))%bool with false.
  - f_equal. rewrite atan2_positive; [|lra|right; lra]. rewrite atan2_angle by lra. rewrite multiple_multiple. replace (n / (exp w * sin n) * (exp w * (sin n / n))) with 1 by (field; repeat split; lra). apply multiple_one.
  - symmetry. apply andb_false_iff. destruct H as [H|H]; [left; apply Rltb_false; lra|right; apply Rltb_false].
    assert (cos n <= 0) by (apply cos_le_0; lra). nra.
Qed.
