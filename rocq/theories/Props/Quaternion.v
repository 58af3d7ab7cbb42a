(** C94 quaternion arithmetic and the rotation it stands for; C96 axis and angle; C97 rotation vectors. *)
From Coq Require Import ZArith List Bool Arith Reals Lra Lia.
From Coquelicot Require Import Coquelicot.
From Verif Require Import Base.Scalar Base.RNum Base.Lists Base.Series Base.Trig Model.Vector Model.Matrix Model.Quaternion Spec.Matrix Spec.MatrixExp Spec.Rotation Spec.Quaternion Proofs.Matrix Proofs.Algebra Proofs.Quaternion Proofs.Angle Proofs.Rotation.
Import ListNotations.
Local Open Scope R_scope.
Local Notation cos := Rtrigo_def.cos.
Local Notation sin := Rtrigo_def.sin.
Local Notation sqrt := R_sqrt.sqrt.
Local Notation length := Spec.Rotation.length.

(** * C94 *)

(** Hamilton's relations, associativity, distribution over sums, and the norm of a product. *)
Theorem C94_algebra :
  (let one := Quat 1 0 0 0 in let i := Quat 0 1 0 0 in let j := Quat 0 0 1 0 in let k := Quat 0 0 0 1 in
   quat_identity = one /\ quat_mul i i = quat_neg one /\ quat_mul j j = quat_neg one /\ quat_mul k k = quat_neg one /\ quat_mul (quat_mul i j) k = quat_neg one) /\
  forall (p q r : quaternion R) (s : R),
    quat_mul (quat_mul p q) r = quat_mul p (quat_mul q r) /\ quat_mul quat_identity q = q /\ quat_mul q quat_identity = q /\
    quat_mul p (quat_add q r) = quat_add (quat_mul p q) (quat_mul p r) /\ quat_mul (quat_add p q) r = quat_add (quat_mul p r) (quat_mul q r) /\
    quat_mul (quat_scale p s) q = quat_scale (quat_mul p q) s /\ quat_mul p (quat_scale q s) = quat_scale (quat_mul p q) s /\
    quat_sub p q = quat_add p (quat_scale q (-1)) /\ quat_neg p = quat_scale p (-1) /\
    conjugate (quat_mul p q) = quat_mul (conjugate q) (conjugate p) /\ quat_norm (quat_mul p q) = quat_norm p * quat_norm q /\
    quat_mul q (conjugate q) = Quat (quat_norm q * quat_norm q) 0 0 0 /\ quat_dot q q = quat_norm q * quat_norm q.
Proof.
  split; [cbn; repeat split; qring|]. intros p q r s. rewrite !quat_norm_sqr.
  repeat split; try qring. unfold quat_norm. rewrite norm_mul. apply sqrt_mult; apply norm_squared_nonneg.
Qed.

(** Every quaternion but zero has an inverse, for a unit one the conjugate; normalizing keeps the direction. *)
Theorem C94_inverse (q : quaternion R) : q <> Quat 0 0 0 0 ->
  quat_mul q (quat_inverse q) = quat_identity /\ quat_mul (quat_inverse q) q = quat_identity /\ (unit_quaternion q -> quat_inverse q = conjugate q) /\
  unit_quaternion (quat_normalized q) /\ 0 < quat_norm q /\ q = quat_scale (quat_normalized q) (quat_norm q).
Proof.
  intros N. assert (P : 0 < quat_norm_squared q). { pose proof (norm_squared_nonneg q) as [P|P]; [exact P|]. exfalso. apply N, norm_squared_zero. auto. }
  assert (M : quat_mul q (quat_inverse q) = quat_identity /\ quat_mul (quat_inverse q) q = quat_identity).
  { unfold quat_inverse. rnum. set (k := / quat_norm_squared q). assert (K : quat_norm_squared q * k = 1) by (apply Rinv_r; lra).
    split; [replace (quat_mul q (quat_scale (conjugate q) k)) with (quat_scale (quat_mul q (conjugate q)) k) by qring; rewrite mul_conjugate
           |replace (quat_mul (quat_scale (conjugate q) k) q) with (quat_scale (quat_mul (conjugate q) q) k) by qring; rewrite conjugate_mul_self];
    unfold quat_scale, quat_identity; cbn [qw qx qy qz]; rnum; rewrite K; apply quat_eq; cbn [qw qx qy qz]; ring. }
  assert (Q : 0 < quat_norm q) by (apply sqrt_lt_R0, P).
  split; [apply M|]. split; [apply M|]. split; [|split; [|split; [exact Q|]]].
  - intros U. unfold quat_inverse. rewrite (proj1 (unit_is q) U). rnum. rewrite Rinv_1. qring.
  - apply unit_is. unfold quat_normalized. rewrite norm_scale. rnum. rewrite <- quat_norm_sqr. field. lra.
  - unfold quat_normalized, quat_scale. rnum. destruct q as [w x y z]. cbn [qw qx qy qz]. set (n := quat_norm (Quat w x y z)) in *. apply quat_eq; cbn [qw qx qy qz]; field; lra.
Qed.
(** The checked normalization accepts exactly the quaternions longer than the machine epsilon. *)
Theorem C94_checked (q : quaternion R) : quat_try_normalized q = if Rle_dec (quat_norm q) (/ IZR (2^52)) then None else Some (quat_normalized q).
Proof. unfold quat_try_normalized, quat_normalized. rnum. unfold Rleb. cbn [negb orb]. destruct (Rle_dec _ _); reflexivity. Qed.

(** A unit quaternion is a proper rotation: its matrix is one, and rotating a point is applying the matrix. *)
Theorem C94_rotation (q : quaternion R) : unit_quaternion q ->
  proper_rotation (mget (to_rotation_matrix q)) /\
  (forall v, carries (mget (to_rotation_matrix q)) v (transform_point q v)) /\
  (forall v, transform_point q v = quat_vec (quat_mul (quat_mul q (from_scalar_vector 0 v)) (quat_inverse q))) /\
  (forall u v, inner (transform_point q u) (transform_point q v) = inner u v) /\ (forall v, length (transform_point q v) = length v) /\
  (forall u v, outer (transform_point q u) (transform_point q v) = transform_point q (outer u v)) /\
  (forall v, inverse_transform_point q (transform_point q v) = v) /\ (forall v, transform_point q (inverse_transform_point q v) = v).
Proof.
  intros U. split; [apply rotation_matrix_proper, U|]. split; [intros v; apply rotation_matrix_carries, U|].
  assert (I : forall u v, inner (transform_point q u) (transform_point q v) = inner u v). { intros u v. rewrite transform_inner. rewrite (proj1 (unit_is q) U). unfold Rsqr. ring. }
  split; [|split; [exact I|split; [|split; [|split]]]].
  - intros v. destruct (C94_inverse q) as (_ & _ & E & _); [intros ->; unfold unit_quaternion in U; cbn in U; lra|]. rewrite (E U), sandwich. destruct (transform_point q v) as [[x y] z]. reflexivity.
  - intros v. unfold length. rewrite I. reflexivity.
  - intros u v. rewrite transform_outer. rewrite (proj1 (unit_is q) U). apply multiple_one.
  - intros v. apply transform_undo, U.
  - intros v. unfold inverse_transform_point. rewrite <- transform_mul, mul_conjugate. rewrite (proj1 (unit_is q) U). apply transform_identity.
Qed.
(** The product composes rotations, the right factor first. *)
Theorem C94_compose (p q : quaternion R) : (forall v, transform_point (quat_mul p q) v = transform_point p (transform_point q v)) /\
  (unit_quaternion p -> unit_quaternion q -> unit_quaternion (quat_mul p q) /\
   equal 3 3 (mget (to_rotation_matrix (quat_mul p q))) (product 3 (mget (to_rotation_matrix p)) (mget (to_rotation_matrix q)))).
Proof.
  split; [intros v; apply transform_mul|]. intros P Q. assert (U := unit_mul p q P Q). split; [exact U|].
  apply carries_unique. intros v w C i Hi. rewrite <- (C i Hi). rewrite (rotation_matrix_carries _ v U i Hi), transform_mul.
  rewrite <- (rotation_matrix_carries p (transform_point q v) P i Hi). rewrite times_product. apply times_ext; [reflexivity|]. intros k Hk. apply (rotation_matrix_carries q v Q k Hk).
Qed.
(** Two unit quaternions are the same rotation exactly when they agree up to sign. *)
Theorem C94_double_cover (p q : quaternion R) : unit_quaternion p -> unit_quaternion q ->
  (forall v, transform_point p v = transform_point q v) <-> p = q \/ p = quat_neg q.
Proof.
  intros P Q. split; [|intros [->| ->] v; [reflexivity|apply transform_neg]]. intros H.
  assert (R : forall v, transform_point (quat_mul (conjugate q) p) v = v). { intros v. rewrite transform_mul, H. apply transform_undo, Q. }
  assert (U : unit_quaternion (quat_mul (conjugate q) p)) by (apply unit_mul; [apply unit_conjugate|]; auto).
  assert (E : p = quat_mul q (quat_mul (conjugate q) p)). { rewrite <- mul_assoc, mul_conjugate. rewrite (proj1 (unit_is q) Q). symmetry. apply mul_identity_l. }
  destruct (quat_mul (conjugate q) p) as [w x y z]. unfold unit_quaternion in U. cbn [qw qx qy qz] in U.
  pose proof (R (1, 0, 0)) as A. pose proof (R (0, 1, 0)) as B. rewrite transform_explicit in A, B. injection A as A _ _. injection B as _ B _.
  assert (x = 0) by nra. assert (y = 0) by nra. assert (z = 0) by nra. subst x y z.
  assert (w = 1 \/ w = -1) as [-> | ->] by (assert ((w - 1) * (w + 1) = 0) as W by lra; apply Rmult_integral in W as [W|W]; [left|right]; lra).
  - left. rewrite E. apply mul_identity_r.
  - right. rewrite E. qring.
Qed.
(** The quaternion (1, 2, 3, 4) has a direction, and half the sum of the units is a unit quaternion. *)
Example C94_example : Quat 1 2 3 4 <> Quat 0 0 0 0 /\ unit_quaternion (Quat (/ 2) (/ 2) (/ 2) (/ 2)) /\ unit_quaternion (Quat (3 / 5) 0 (4 / 5) 0) /\
  transform_point (Quat (/ 2) (/ 2) (/ 2) (/ 2)) (1, 2, 3) = (3, 1, 2) /\ / IZR (2^52) < quat_norm (Quat 1 2 3 4).
Proof.
  split; [intros E; injection E; lra|]. split; [unfold unit_quaternion; cbn; field|]. split; [unfold unit_quaternion; cbn; field|]. split; [rewrite transform_explicit; apply point_eq; field|].
  apply Rlt_le_trans with 1; [rewrite <- Rinv_1; apply Rinv_lt_contravar; [|apply IZR_lt; reflexivity]; rewrite Rmult_1_l; apply IZR_lt; reflexivity|].
  apply Rle_trans with (sqrt 1); [rewrite sqrt_1; lra|]. apply sqrt_le_1_alt. unfold quat_norm_squared. cbn [qw qx qy qz]. rnum. lra.
Qed.

(** * C96 *)

(** The rotation by [angle] about [axis] is the turn about its direction; to_axis_angle gives back an axis and an angle of
    the same rotation, the angle between 0 and pi. *)
Theorem C96_from axis angle : / IZR (2^52) < length axis ->
  unit_quaternion (from_axis_angle axis angle) /\ turns (from_axis_angle axis angle) (direction axis) angle.
Proof.
  intros H. assert (N : axis <> (0, 0, 0)). { intros ->. rewrite length_coordinates_zero in H. assert (0 < / IZR (2^52)) by (apply Rinv_0_lt_compat, IZR_lt; reflexivity). lra. }
  rewrite from_axis_angle_R by exact H. split; [apply turn_unit, direction_unit, N|]. intros v. apply turn_quaternion, direction_unit, N.
Qed.
Theorem C96_to q : unit_quaternion q -> let '(axis, angle) := to_axis_angle q in
  0 <= angle <= PI /\ length axis = 1 /\
  (/ IZR (2^52) < length (quat_vec q) -> turns q axis angle) /\
  (length (quat_vec q) <= / IZR (2^52) -> axis = (1, 0, 0) /\ angle = 0).
Proof.
  intros U. pose proof PI_RGT_0. assert (E : 0 < / IZR (2^52)) by (apply Rinv_0_lt_compat, IZR_lt; reflexivity). rewrite to_axis_angle_R. destruct (Rle_dec _ _) as [L|L].
  - split; [lra|]. split; [|split; [lra|auto]]. unfold length, inner. transitivity (sqrt 1); [f_equal; ring|apply sqrt_1].
  - assert (N : quat_vec q <> (0, 0, 0)). { intros Z. apply L. rewrite Z, length_coordinates_zero. lra. }
    pose proof (half_angle_range q). split; [lra|]. split; [|split; [intros _ v; apply shortest_turn; auto|lra]].
    apply length_direction. intros Z. apply N. apply length_zero. rewrite <- vec_shortest_length. apply length_zero, Z.
Qed.
(** Axis and angle survive the round trip. *)
Theorem C96_round_trip axis angle : / IZR (2^52) < length axis -> 0 < angle <= PI -> / IZR (2^52) < sin (angle / 2) ->
  to_axis_angle (from_axis_angle axis angle) = (direction axis, angle).
Proof.
  intros H A S. pose proof PI_RGT_0. assert (E : 0 < / IZR (2^52)) by (apply Rinv_0_lt_compat, IZR_lt; reflexivity).
  assert (N : axis <> (0, 0, 0)). { intros ->. rewrite length_coordinates_zero in H. lra. }
  rewrite from_axis_angle_R by exact H. rewrite to_axis_angle_R, vector_of.
  assert (L : length (multiple (sin (angle / 2)) (direction axis)) = sin (angle / 2)) by (rewrite length_multiple, (length_direction axis N), Rabs_pos_eq; lra).
  rewrite L. destruct (Rle_dec _ _); [lra|]. rewrite (half_angle_of _ _ (angle / 2)) by (auto; lra). rewrite shortest_of by (apply cos_ge_0; lra). rewrite vector_of.
  assert (ND : direction axis <> (0, 0, 0)) by (intros Z; apply length_zero in Z; rewrite (length_direction axis N) in Z; lra).
  rewrite direction_multiple by (auto; lra). f_equal; [|field].
  rewrite <- (direction_multiple (length axis) (direction axis)) by (auto; lra). rewrite multiple_direction by exact N. reflexivity.
Qed.
(** The axis need not be long only in the documentation: a nonzero axis shorter than the machine epsilon is treated as
    zero, so half a turn about it moves nothing. *)
Theorem C96_tiny_axis_refuted : let axis := (/ IZR (2^53), 0, 0) in
  axis <> (0, 0, 0) /\ transform_point (from_axis_angle axis PI) (0, 1, 0) = (0, 1, 0) /\ turned (direction axis) PI (0, 1, 0) = (0, -1, 0).
Proof.
  assert (E : 0 < / IZR (2^53)) by (apply Rinv_0_lt_compat, IZR_lt; reflexivity). cbv zeta.
  assert (L : length (/ IZR (2^53), 0, 0) = / IZR (2^53)). { unfold length, inner. replace (_ + _) with (Rsqr (/ IZR (2^53))) by (unfold Rsqr; ring). rewrite sqrt_Rsqr; lra. }
  split; [intros Z; injection Z; lra|]. split.
  - rewrite from_axis_angle_tiny; [apply transform_identity|]. rewrite L. apply Rinv_le_contravar; [apply IZR_lt; reflexivity|apply IZR_le; lia].
  - assert (D : direction (/ IZR (2^53), 0, 0) = (1, 0, 0)). { unfold direction. rewrite L. unfold multiple. apply point_eq; field; apply not_0_IZR; lia. }
    rewrite D. unfold turned, together, multiple, inner, outer. rewrite cos_PI, sin_PI. apply point_eq; ring.
Qed.
Example C96_example : / IZR (2^52) < length (0, 0, 2) /\ unit_quaternion (Quat (/ 2) (/ 2) (/ 2) (/ 2)) /\ 0 < PI <= PI /\ / IZR (2^52) < sin (PI / 2).
Proof.
  assert (E : / IZR (2^52) < 1). { rewrite <- Rinv_1. apply Rinv_lt_contravar; [rewrite Rmult_1_l; apply IZR_lt; reflexivity|apply IZR_lt; reflexivity]. }
  pose proof PI_RGT_0. rewrite sin_PI2. split; [|split; [unfold unit_quaternion; cbn; field|lra]].
  unfold length, inner. replace (_ + _) with (Rsqr 2) by (unfold Rsqr; ring). rewrite sqrt_Rsqr; lra.
Qed.

(** * C97 *)

(** The rotation of the rotation vector [phi] is the matrix exponential of its cross-product matrix, exactly from
    [|phi| >= 30 eps] on and to [|phi|^4] below. *)
Theorem C97_exponential phi :
  (30 / IZR (2^52) <= length phi -> unit_quaternion (from_scaled_axis phi) /\
     equal 3 3 (mget (to_rotation_matrix (from_scaled_axis phi))) (matrix_exp 3 (cross_matrix phi))) /\
  (length phi < 30 / IZR (2^52) -> Rabs (quat_norm (from_scaled_axis phi) * quat_norm (from_scaled_axis phi) - 1) <= length phi ^ 4 /\
     forall i j, (i < 3)%nat -> (j < 3)%nat -> Rabs (mget (to_rotation_matrix (from_scaled_axis phi)) i j - matrix_exp 3 (cross_matrix phi) i j) <= length phi ^ 4).
Proof.
  split; [apply exp_large|]. intros H. destruct (exp_small phi H) as [A B]. split; [|exact B]. rewrite quat_norm_sqr.
  replace (quat_norm_squared (from_scaled_axis phi)) with (qw (from_scaled_axis phi) * qw (from_scaled_axis phi) + length (quat_vec (from_scaled_axis phi)) ^ 2); [exact A|].
  replace (length (quat_vec (from_scaled_axis phi)) ^ 2) with (inner (quat_vec (from_scaled_axis phi)) (quat_vec (from_scaled_axis phi))) by (rewrite <- length_sqr; ring).
  destruct (from_scaled_axis phi) as [w x y z]. unfold quat_vec, inner, quat_norm_squared. cbn [qw qx qy qz]. rnum. ring.
Qed.
(** The logarithm gives the rotation vector of least length: at most pi, rotating as [q] does, exactly unless [q] is within
    30 eps of no rotation, and then to the cube of that. *)
Theorem C97_logarithm q : unit_quaternion q ->
  (30 / IZR (2^52) <= length (quat_vec q) ->
     length (to_scaled_axis q) <= PI /\ (from_scaled_axis (to_scaled_axis q) = q \/ from_scaled_axis (to_scaled_axis q) = quat_neg q) /\
     equal 3 3 (matrix_exp 3 (cross_matrix (to_scaled_axis q))) (mget (to_rotation_matrix q))) /\
  (length (quat_vec q) < 30 / IZR (2^52) ->
     length (to_scaled_axis q) <= 60 / IZR (2^52) /\
     exists q', (q' = q \/ q' = quat_neg q) /\ forall k, (k < 4)%nat -> Rabs (component (from_scaled_axis (to_scaled_axis q)) k - component q' k) <= length (quat_vec q) ^ 3).
Proof.
  intros U. fold small. split; intros H.
  - destruct (log_large q U H) as [R L]. pose proof (half_angle_range q). split; [lra|].
    assert (B : small <= length (to_scaled_axis q)).
    { rewrite L. destruct (half_angle_polar q U) as [_ S]. rewrite vec_shortest_length in S. pose proof small_bound.
      destruct (Req_dec (half_angle q) 0) as [E|E]; [rewrite E, sin_0 in S; lra|]. pose proof (sin_lt_x (half_angle q) ltac:(lra)). lra. }
    split; [rewrite R; apply shortest_is|]. destruct (exp_large (to_scaled_axis q) B) as [_ X]. apply equal_sym in X. eapply equal_trans; [exact X|]. rewrite R.
    destruct (shortest_is q) as [->| ->]; intros i j Hi Hj; [reflexivity|]. unfold to_rotation_matrix, quat_neg, mget. rnum. three i; three j; cbn [nth qw qx qy qz]; ring.
  - split.
    + rewrite to_scaled_axis_R. destruct (Rlt_dec _ _); [|lra]. rewrite length_multiple, vec_shortest_length, Rabs_pos_eq by lra. replace (60 / IZR (2^52)) with (2 * small) by (unfold small; field; apply not_0_IZR; lia). lra.
    + exists (shortest q). split; [apply shortest_is|]. apply log_small; assumption.
Qed.
(** A rotation vector no longer than pi survives the round trip: exactly from 120 eps on, to the cube of its length below. *)
Theorem C97_round_trip phi : (120 / IZR (2^52) <= length phi <= PI -> to_scaled_axis (from_scaled_axis phi) = phi) /\
  (length phi < 120 / IZR (2^52) -> length (together (to_scaled_axis (from_scaled_axis phi)) (multiple (-1) phi)) <= length phi ^ 3).
Proof.
  replace (120 / IZR (2^52)) with (4 * small) by (unfold small; field; apply not_0_IZR; lia). split; [apply log_exp_exact|apply log_exp_near].
Qed.
Example C97_example : 120 / IZR (2^52) <= length (1, 2, -2) <= PI /\ unit_quaternion (Quat (/ 2) (/ 2) (/ 2) (/ 2)) /\ 30 / IZR (2^52) <= length (quat_vec (Quat (/ 2) (/ 2) (/ 2) (/ 2))) /\
  length (0, 0, 0) < 30 / IZR (2^52).
Proof.
  assert (L : length (1, 2, -2) = 3). { unfold length, inner. replace (_ + _) with (Rsqr 3) by (unfold Rsqr; ring). apply sqrt_Rsqr. lra. }
  pose proof small_bound as S. assert (S47 : / IZR (2^47) <= / 1000) by (apply Rinv_le_contravar; [lra|apply IZR_le; lia]). 
  replace (120 / IZR (2^52)) with (4 * small) by (unfold small; field; apply not_0_IZR; lia). fold small. rewrite L, length_coordinates_zero.
  split; [pose proof PI_ineq 1; pose proof PI2_3_2; lra|]. split; [unfold unit_quaternion; cbn; field|]. split; [|lra].
  apply Rle_trans with (/ 2); [lra|]. unfold length, quat_vec, inner. cbn [qx qy qz]. rewrite <- (sqrt_Rsqr (/ 2)) at 1 by lra. apply sqrt_le_1_alt. unfold Rsqr. lra.
Qed.

Print Assumptions C94_algebra.
Print Assumptions C94_inverse.
Print Assumptions C94_checked.
Print Assumptions C94_rotation.
Print Assumptions C94_compose.
Print Assumptions C94_double_cover.
Print Assumptions C96_from.
Print Assumptions C96_to.
Print Assumptions C96_round_trip.
Print Assumptions C96_tiny_axis_refuted.
Print Assumptions C97_exponential.
Print Assumptions C97_logarithm.
Print Assumptions C97_round_trip.
