(** C98 Euler angles; C99 the rotation between two directions; C100 rotation matrices and pairs of directions; C101 the angle
    between rotations and spherical interpolation. *)
From Coq Require Import ZArith List Bool Arith Reals Lra Lia.
From Coquelicot Require Import Coquelicot.
From Verif Require Import Base.Scalar Base.RNum Base.Lists Base.Series Base.Trig Model.Vector Model.Matrix Model.Quaternion Model.Lie Spec.Matrix Spec.MatrixExp Spec.Rotation Spec.Quaternion Proofs.Matrix Proofs.Algebra Proofs.Quaternion Proofs.Angle Proofs.Rotation Proofs.Attitude Proofs.Slerp Proofs.Euler Proofs.Pairs Props.Quaternion.
Import ListNotations.
Local Open Scope R_scope.
Local Notation cos := Rtrigo_def.cos.
Local Notation sin := Rtrigo_def.sin.
Local Notation sqrt := R_sqrt.sqrt.
Local Notation acos := Ratan.acos.
Local Notation asin := Ratan.asin.
Local Notation length := Spec.Rotation.length.

(** * C98 *)

(** Roll, pitch and yaw: roll about x, then pitch about y, then yaw about z, all about the fixed axes. *)
Theorem C98_from roll pitch yaw : unit_quaternion (from_euler_zyx roll pitch yaw) /\
  forall v, transform_point (from_euler_zyx roll pitch yaw) v = turned (0, 0, 1) yaw (turned (0, 1, 0) pitch (turned (1, 0, 0) roll v)).
Proof. split; [apply euler_unit|apply euler_turns]. Qed.

Lemma nose q : coordinate (transform_point q (1, 0, 0)) 2%nat = - sine_pitch q.
Proof. destruct q as [w x y z]. rewrite transform_explicit. unfold coordinate, sine_pitch. cbn [nth qw qx qy qz]. ring. Qed.
Lemma nose_abs q : Rabs (coordinate (transform_point q (1, 0, 0)) 2%nat) = Rabs (sine_pitch q).
Proof. rewrite nose. apply Rabs_Ropp. Qed.
(** Unless the turned x axis points almost straight up or down, the angles read back stand for the same rotation. *)
Theorem C98_to q : unit_quaternion q -> Rabs (coordinate (transform_point q (1, 0, 0)) 2%nat) < 1 - 30 / IZR (2^52) -> let '(roll, pitch, yaw) := to_euler_zyx q in
  (forall v, transform_point (from_euler_zyx roll pitch yaw) v = transform_point q v) /\ - (PI / 2) < pitch < PI / 2 /\ - PI < roll <= PI /\ - PI < yaw <= PI.
Proof.
  intros U H. rewrite nose_abs in H. assert (X := euler_matrix_away q U H). destruct (to_euler_zyx q) as [[roll pitch] yaw]. destruct X as [E X]. split; [|exact X].
  intros v. apply (transform_carried _ _ _ _ (euler_unit roll pitch yaw) E). apply rotation_matrix_carries, U.
Qed.
(** Angles in their ranges are read back as they were given. *)
Theorem C98_round_trip roll pitch yaw : - PI < roll <= PI -> - (PI / 2) <= pitch <= PI / 2 -> - PI < yaw <= PI -> Rabs (sin pitch) < 1 - 30 / IZR (2^52) ->
  to_euler_zyx (from_euler_zyx roll pitch yaw) = (roll, pitch, yaw).
Proof. apply euler_round_trip. Qed.
(** When it points straight up or down the roll is taken to be zero, and the rotation comes back exactly; in the band around
    that, every component comes back to within twice the square root of the tolerance. *)
Theorem C98_pole q : unit_quaternion q -> 1 - 30 / IZR (2^52) <= Rabs (coordinate (transform_point q (1, 0, 0)) 2%nat) -> let '(roll, pitch, yaw) := to_euler_zyx q in
  roll = 0 /\ (pitch = PI / 2 \/ pitch = - (PI / 2)) /\
  (forall k, (k < 4)%nat -> Rabs (component (from_euler_zyx roll pitch yaw) k - component q k) <= 2 * sqrt (30 / IZR (2^52))) /\
  (Rabs (coordinate (transform_point q (1, 0, 0)) 2%nat) = 1 -> from_euler_zyx roll pitch yaw = q).
Proof. intros U. rewrite nose_abs. apply euler_pole, U. Qed.
(** In the band the rotation read back can be off by more than a ten-millionth, far more than the rounding of the arithmetic. *)
Theorem C98_pole_refuted : exists q, unit_quaternion q /\ Rabs (coordinate (transform_point q (1, 0, 0)) 2%nat) < 1 /\
  let '(roll, pitch, yaw) := to_euler_zyx q in / 10000000 < Rabs (mget (to_rotation_matrix (from_euler_zyx roll pitch yaw)) 0%nat 0%nat - mget (to_rotation_matrix q) 0%nat 0%nat).
Proof.
  pose proof small_bound as Sm. assert (S47 : / IZR (2^47) <= / 1000) by (apply Rinv_le_contravar; [lra|apply IZR_le; lia]).
  set (b := asin (1 - small)). assert (Sb : sin b = 1 - small) by (apply sin_asin; lra). assert (Cb : cos b = sqrt (1 - (1 - small) * (1 - small))) by (unfold b; rewrite cos_asin by lra; reflexivity).
  destruct (half_turn b) as (H1 & H2 & H3).
  exists (Quat (cos (b / 2)) 0 (sin (b / 2)) 0). assert (SP : sine_pitch (Quat (cos (b / 2)) 0 (sin (b / 2)) 0) = 1 - small) by (unfold sine_pitch; cbn [qw qx qy qz]; rewrite <- Sb, H2; ring).
  assert (U : unit_quaternion (Quat (cos (b / 2)) 0 (sin (b / 2)) 0)) by (unfold unit_quaternion; cbn [qw qx qy qz]; lra).
  split; [exact U|]. rewrite nose_abs, SP, Rabs_pos_eq by lra. split; [lra|].
  rewrite to_euler_R, SP, (Rabs_pos_eq (1 - small)) by lra. destruct (Rle_dec _ _); [|lra]. destruct (Rlt_dec _ _); [|lra]. unfold Rcopysign. destruct (Rlt_dec _ _); [lra|]. rewrite (Rabs_pos_eq (PI / 2)) by (pose proof PI_RGT_0; lra).
  destruct (euler_entries 0 (PI / 2) (- (2 * Ratan2 (qx (Quat (cos (b / 2)) 0 (sin (b / 2)) 0)) (qw (Quat (cos (b / 2)) 0 (sin (b / 2)) 0))))) as (E0 & _). rewrite E0, cos_PI2, Rmult_0_r.
  unfold to_rotation_matrix, mget. cbn [nth qw qx qy qz]. rnum. replace (0 - (1 - 2 * (sin (b / 2) * sin (b / 2) + 0 * 0))) with (- cos b) by (rewrite H1; lra). rewrite Rabs_Ropp, Cb, Rabs_pos_eq by apply sqrt_pos.
  rewrite <- (sqrt_Rsqr (/ 10000000)) by lra. apply sqrt_lt_1_alt. unfold Rsqr. split; [lra|].
  assert (L : 60 / 10000000000000000 < small). { unfold small. unfold Rdiv. apply Rmult_lt_reg_r with (IZR (2^52)); [apply IZR_lt; reflexivity|]. rewrite (Rmult_assoc 30), Rinv_l by (apply not_0_IZR; lia). change (2^52)%Z with 4503599627370496%Z. lra. }
  nra.
Qed.
Example C98_example : let q := from_euler_zyx (1 / 10) (1 / 2) (-1) in unit_quaternion q /\ Rabs (coordinate (transform_point q (1, 0, 0)) 2%nat) < 1 - 30 / IZR (2^52) /\
  Rabs (coordinate (transform_point (from_euler_zyx 0 (PI / 2) 1) (1, 0, 0)) 2%nat) = 1.
Proof.
  cbv zeta. split; [apply euler_unit|]. pose proof small_bound as Sm. assert (S47 : / IZR (2^47) <= / 1000) by (apply Rinv_le_contravar; [lra|apply IZR_le; lia]). fold small.
  assert (SP : forall r p y, sine_pitch (from_euler_zyx r p y) = sin p). { intros r p y. destruct (euler_entries r p y) as (_ & _ & E & _). rewrite sine_pitch_entry in E. lra. }
  rewrite !nose_abs, !SP, sin_PI2, Rabs_R1. split; [|reflexivity].
  assert (P1 := sin_lt_x (1 / 2) ltac:(lra)). assert (0 < sin (1 / 2)) by (apply sin_gt_0; pose proof PI2_3_2; lra). rewrite Rabs_pos_eq by lra. lra.
Qed.

(** * C99 *)

Lemma transform_multiple (q : quaternion R) k v : transform_point q (multiple k v) = multiple k (transform_point q v).
Proof. destruct q as [w x y z], v as [[a b] c]. unfold multiple. rewrite !transform_explicit. apply point_eq; ring. Qed.
(** The rotation taking one direction to another: it does, and no rotation that does turns by less. *)
Theorem C99_carries from target : from <> (0, 0, 0) -> target <> (0, 0, 0) -> let q := from_two_vectors from target in
  unit_quaternion q /\ transform_point q (direction from) = direction target /\ transform_point q from = multiple (length from) (direction target).
Proof.
  intros F T. destruct (from_two_vectors_R from target F T) as (U & C & _). cbv zeta in *. split; [exact U|]. split; [exact C|].
  rewrite <- C. rewrite <- transform_multiple, multiple_direction by exact F. reflexivity.
Qed.
Theorem C99_shortest from target : from <> (0, 0, 0) -> target <> (0, 0, 0) -> let q := from_two_vectors from target in
  forall r, unit_quaternion r -> transform_point r (direction from) = direction target ->
  rotation_angle_to quat_identity q <= rotation_angle_to quat_identity r /\ cos (rotation_angle_to quat_identity q) = inner (direction from) (direction target).
Proof.
  intros F T. destruct (from_two_vectors_R from target F T) as (U & C & W0 & W). cbv zeta in *. intros r Ur H. pose proof (shortest_possible r _ _ Ur (direction_unit from F) H) as B.
  set (q := from_two_vectors from target) in *. rewrite !rotation_angle_R by auto using unit_identity.
  assert (I : forall p, quat_dot quat_identity p = qw p) by (intros p; unfold quat_dot, quat_identity; cbn [qw qx qy qz]; rnum; ring). rewrite !I.
  pose proof (dot_bound quat_identity q unit_identity U) as B1. pose proof (dot_bound quat_identity r unit_identity Ur) as B2. rewrite I in B1, B2.
  destruct (acos_spec _ B1) as (R1 & C1 & _ & _). destruct (acos_spec _ B2) as (R2 & C2 & _ & _).
  assert (LE : Rabs (qw r) <= Rabs (qw q)). { apply Rsqr_le_abs_0. unfold Rsqr. lra. }
  split.
  - destruct (Rle_dec (acos (Rabs (qw q))) (acos (Rabs (qw r)))) as [L|L]; [lra|]. exfalso. pose proof PI_RGT_0. assert (D := cos_decreasing_1 (acos (Rabs (qw r))) (acos (Rabs (qw q))) ltac:(lra) ltac:(lra) ltac:(lra) ltac:(lra) ltac:(lra)). lra.
  - rewrite cos_2a_cos, C1. rewrite (Rabs_pos_eq (qw q)) by exact W0. lra.
Qed.
(** Without two directions to go by, the answer is the identity. *)
Theorem C99_no_direction v : from_two_vectors (0, 0, 0) v = quat_identity /\ from_two_vectors v (0, 0, 0) = quat_identity.
Proof.
  assert (Z : unit_direction ((0, 0, 0) : point) = None) by (rewrite unit_direction_R; destruct (Req_EM_T _ _) as [|N]; [reflexivity|exfalso; apply N, length_zero; reflexivity]).
  unfold from_two_vectors. rewrite Z. destruct (unit_direction v); auto.
Qed.
Example C99_example : (1, 2, -2) <> (0, 0, 0) /\ multiple (-1) (1, 2, -2) <> (0, 0, 0) /\ transform_point (Quat (/ 2) (/ 2) (/ 2) (/ 2)) (direction (1, 0, 0)) = direction (0, 2, 0).
Proof.
  split; [intros E; injection E; lra|]. split; [unfold multiple; intros E; injection E; lra|].
  assert (L1 : length (1, 0, 0) = 1) by (unfold length, inner; replace (_ + _) with 1 by ring; apply sqrt_1). assert (L2 : length (0, 2, 0) = 2) by (unfold length, inner; replace (_ + _) with (Rsqr 2) by (unfold Rsqr; ring); apply sqrt_Rsqr; lra).
  unfold direction. rewrite L1, L2. unfold multiple. rewrite transform_explicit. apply point_eq; field.
Qed.

(** * C100 *)

(** Every proper rotation matrix is accepted, and the rotation returned has that matrix. *)
Theorem C100_from_matrix (m : mat R) : proper_rotation (mget m) -> exists q, so3_try_from_matrix m = Some q /\ try_from_rotation_matrix m = Some q /\
  unit_quaternion q /\ equal 3 3 (mget (to_rotation_matrix q)) (mget m).
Proof.
  intros P. destruct (so3_from_matrix_proper m P) as (q & A & U & E). destruct (from_matrix_proper m P) as (q' & A' & _). exists q. split; [exact A|]. split; [|auto].
  destruct (gram_accepts m) as [[G _]|[G _]]; [rewrite <- G; exact A|]. rewrite A in G. discriminate.
Qed.
(** A matrix that is accepted has columns orthonormal to the tolerance and a positive determinant: no reflection gets through. *)
Theorem C100_refused (m : mat R) q : so3_try_from_matrix m = Some q ->
  (forall i j, (i < 3)%nat -> (j < 3)%nat -> Rabs (product 3 (transposed (mget m)) (mget m) i j - unit_matrix i j) <= 30 / IZR (2^52)) /\ 0 < det 3 (mget m) /\ unit_quaternion q.
Proof.
  intros H. destruct (gram_accepts m) as [(E & G & D)|[E _]]; rewrite E in H; [|discriminate]. split; [exact G|]. split; [exact D|].
  rewrite try_from_rotation_matrix_R in H. rewrite C94_checked in H. destruct (Rle_dec _ _) as [|N]; [discriminate|]. injection H as <-. apply normalized_is_unit.
  rewrite <- quat_norm_sqr. assert (0 < / IZR (2 ^ 52)) by (apply Rinv_0_lt_compat, IZR_lt; reflexivity). nra.
Qed.
(** A rotation goes to its matrix and back unchanged but for the sign of the quaternion. *)
Theorem C100_round_trip q : unit_quaternion q -> exists p, so3_try_from_matrix (to_rotation_matrix q) = Some p /\ (p = q \/ p = quat_neg q).
Proof.
  intros U. destruct (C100_from_matrix (to_rotation_matrix q) (rotation_matrix_proper q U)) as (p & A & _ & Up & E). exists p. split; [exact A|]. apply (C94_double_cover p q Up U).
  intros v. apply (transform_carried p _ _ _ Up E). apply rotation_matrix_carries, U.
Qed.
(** The rotation between two pairs of directions carries the first direction exactly, and the plane of the pair with its
    orientation; it exists exactly when neither pair is degenerate. *)
Theorem C100_pairs po so pr sr : po <> (0, 0, 0) -> outer po so <> (0, 0, 0) -> pr <> (0, 0, 0) -> outer pr sr <> (0, 0, 0) ->
  exists q, from_two_direction_pairs po so pr sr = Some q /\ unit_quaternion q /\ transform_point q (direction po) = direction pr /\ transform_point q (direction (outer po so)) = direction (outer pr sr).
Proof. apply pairs_R. Qed.
Theorem C100_pairs_refused po so pr sr : po = (0, 0, 0) \/ outer po so = (0, 0, 0) \/ pr = (0, 0, 0) \/ outer pr sr = (0, 0, 0) -> from_two_direction_pairs po so pr sr = None.
Proof. apply pairs_refused. Qed.
(** In particular two directions that were really turned by one rotation give that rotation. *)
Theorem C100_pairs_recover r po so : unit_quaternion r -> po <> (0, 0, 0) -> outer po so <> (0, 0, 0) ->
  exists q, from_two_direction_pairs po so (transform_point r po) (transform_point r so) = Some q /\ forall v, transform_point q v = transform_point r v.
Proof.
  intros U P S. pose proof (proj1 (unit_is r) U) as N.
  assert (TO : outer (transform_point r po) (transform_point r so) = transform_point r (outer po so)) by (rewrite transform_outer, N, multiple_one; reflexivity).
  assert (TN : forall u, u <> (0, 0, 0) -> transform_point r u <> (0, 0, 0)). { intros u K E. apply K, inner_zero. assert (X := transform_inner r u u). rewrite N, E in X. change (inner (0, 0, 0) (0, 0, 0)) with (0 * 0 + 0 * 0 + 0 * 0) in X. unfold Rsqr in X. lra. }
  destruct (C100_pairs po so (transform_point r po) (transform_point r so) P S (TN _ P)) as (q & A & Uq & C1 & C2); [rewrite TO; apply TN, S|]. exists q. split; [exact A|].
  rewrite TO in C2.
  assert (TD : forall u, direction (transform_point r u) = transform_point r (direction u)).
  { intros u. unfold direction. assert (L : length (transform_point r u) = length u) by (unfold length; rewrite transform_inner, N; unfold Rsqr; f_equal; ring). rewrite L. set (k := / length u). destruct r as [w x y z], u as [[a b] c]. unfold multiple. rewrite !transform_explicit. apply point_eq; ring. }
  rewrite TD in C1, C2. set (d := quat_mul (conjugate r) q).
  assert (Ud : unit_quaternion d) by (apply unit_mul; [apply unit_conjugate|]; assumption).
  assert (D1 : transform_point d (direction po) = direction po) by (unfold d; rewrite transform_mul, C1; apply transform_undo, U).
  assert (D2 : transform_point d (direction (outer po so)) = direction (outer po so)) by (unfold d; rewrite transform_mul, C2; apply transform_undo, U).
  assert (I1 := direction_unit po P). assert (I2 := direction_unit _ S). assert (I3 := inner_across po so P). set (a := direction po) in *. set (c := direction (outer po so)) in *.
  assert (D3 : transform_point d (outer c a) = outer c a). { pose proof (transform_outer d c a) as X. rewrite D1, D2, (proj1 (unit_is d) Ud), multiple_one in X. auto. }
  assert (F : forall v, transform_point d v = v).
  { intros v. assert (V : v = together (multiple (inner a v) a) (together (multiple (inner (outer c a) v) (outer c a)) (multiple (inner c v) c))).
    { pose proof (axes_proper a c I1 I2 I3) as PR. assert (PE := proper_entries_of _ PR). destruct PE. clear - I1 I2 I3 pe_r0 pe_r1 pe_r2 pe_r01 pe_r02 pe_r12.
      destruct a as [[a1 a2] a3], c as [[c1 c2] c3], v as [[v1 v2] v3]. unfold axes in *. rewrite !mget_mat_fn in * by lia. unfold vget, list3, outer, inner, multiple, together in *. cbn [nth] in *. apply point_eq.
      - transitivity (v1 * 1 + v2 * 0 + v3 * 0); [ring|]. rewrite <- pe_r0 at 1. rewrite <- pe_r01 at 1. rewrite <- pe_r02 at 1. ring.
      - transitivity (v1 * 0 + v2 * 1 + v3 * 0); [ring|]. rewrite <- pe_r01 at 1. rewrite <- pe_r1 at 1. rewrite <- pe_r12 at 1. ring.
      - transitivity (v1 * 0 + v2 * 0 + v3 * 1); [ring|]. rewrite <- pe_r02 at 1. rewrite <- pe_r12 at 1. rewrite <- pe_r2 at 1. ring. }
    assert (LIN : forall x1 x2 x3 e1 e2 e3, transform_point d (together (multiple x1 e1) (together (multiple x2 e2) (multiple x3 e3))) = together (multiple x1 (transform_point d e1)) (together (multiple x2 (transform_point d e2)) (multiple x3 (transform_point d e3)))).
    { clear. intros x1 x2 x3 e1 e2 e3. destruct d as [w x y z], e1 as [[a1 a2] a3], e2 as [[b1 b2] b3], e3 as [[c1 c2] c3]. unfold multiple, together. rewrite !transform_explicit. apply point_eq; ring. }
    transitivity (transform_point d (together (multiple (inner a v) a) (together (multiple (inner (outer c a) v) (outer c a)) (multiple (inner c v) c)))); [rewrite <- V; reflexivity|]. rewrite LIN, D1, D2, D3. symmetry. exact V. }
  intros v. rewrite <- (F v) at 2. unfold d. rewrite <- transform_mul, <- mul_assoc, mul_conjugate, N. change (Quat 1 0 0 0) with (quat_identity (T := R)). rewrite mul_identity_l. reflexivity.
Qed.
Example C100_example : proper_rotation (mget (to_rotation_matrix (Quat (/ 2) (/ 2) (/ 2) (/ 2)))) /\ (1, 2, -2) <> (0, 0, 0) /\ outer (1, 2, -2) (0, 1, 0) <> (0, 0, 0) /\
  so3_try_from_matrix [[1; 0; 0]; [0; 1; 0]; [0; 0; -1]] = None.
Proof.
  split; [apply rotation_matrix_proper; unfold unit_quaternion; cbn; field|]. split; [intros E; injection E; lra|]. split; [unfold outer; intros E; injection E; lra|].
  destruct (so3_try_from_matrix [[1; 0; 0]; [0; 1; 0]; [0; 0; -1]]) eqn:E; [|reflexivity]. apply C100_refused in E. destruct E as (_ & D & _). exfalso. revert D. unfold det, without, skip, bsum, mget. cbn [Nat.ltb Nat.leb pow nth]. lra.
Qed.

(** * C101 *)

(** The angle between two rotations: a distance on rotations, and the angle the trace of the relative rotation matrix gives. *)
Theorem C101_angle p q : unit_quaternion p -> unit_quaternion q ->
  0 <= rotation_angle_to p q <= PI /\ rotation_angle_to p q = rotation_angle_to q p /\
  (rotation_angle_to p q = 0 <-> forall v, transform_point p v = transform_point q v) /\
  (forall r, unit_quaternion r -> rotation_angle_to p r <= rotation_angle_to p q + rotation_angle_to q r) /\
  (let relative := product 3 (transposed (mget (to_rotation_matrix p))) (mget (to_rotation_matrix q)) in
   1 + 2 * cos (rotation_angle_to p q) = relative 0%nat 0%nat + relative 1%nat 1%nat + relative 2%nat 2%nat).
Proof.
  intros P Q. split; [apply angle_range; assumption|]. split; [apply angle_sym; assumption|]. split; [rewrite (angle_zero p q P Q); symmetry; apply C94_double_cover; assumption|].
  split; [intros r Hr; apply angle_triangle; assumption|]. apply angle_trace; assumption.
Qed.
(** Turning by an angle about an axis moves a rotation by that angle. *)
Theorem C101_turn p n angle : unit_quaternion p -> inner n n = 1 -> 0 <= angle <= PI -> rotation_angle_to p (quat_mul p (from_axis_angle n angle)) = angle.
Proof.
  intros P N A. assert (L : length n = 1) by (unfold length; rewrite N; apply sqrt_1). assert (ND : direction n = n) by (unfold direction; rewrite L, Rinv_1; apply multiple_one).
  assert (E : / IZR (2^52) < length n) by (rewrite L; pose proof eps_small; lra).
  pose proof (from_axis_angle_R n angle E) as F. rewrite ND in F. assert (U := turn_unit n angle N). rewrite <- F in U. rewrite rotation_angle_R by auto using unit_mul.
  assert (D : quat_dot p (quat_mul p (from_axis_angle n angle)) = qw (from_axis_angle n angle)). { rewrite <- (Rmult_1_l (qw _)). rewrite <- (proj1 (unit_is p) P). qring. }
  rewrite D, F. rewrite scalar_of. rewrite acos_cos_half by lra. lra.
Qed.
(** Interpolating starts at the first rotation, ends at the second, and stays on the shortest way between. *)
Theorem C101_slerp p q t : unit_quaternion p -> unit_quaternion q -> 0 <= t <= 1 ->
  unit_quaternion (slerp p q t) /\ rotation_angle_to p (slerp p q t) + rotation_angle_to (slerp p q t) q = rotation_angle_to p q /\
  slerp p q 0 = p /\ (slerp p q 1 = q \/ slerp p q 1 = quat_neg q).
Proof.
  intros P Q T. destruct (slerp_between p q t P Q T) as [U B]. destruct (slerp_ends p q P Q) as [S E]. rewrite E. repeat split; auto. apply nearer_is.
Qed.
(** It turns at constant speed, as long as the two rotations are not within a hair of each other. *)
Theorem C101_speed p q s t : unit_quaternion p -> unit_quaternion q -> cos (rotation_angle_to p q / 2) <= 1 - / IZR (2^52) -> 0 <= s <= 1 -> 0 <= t <= 1 ->
  rotation_angle_to (slerp p q s) (slerp p q t) = Rabs (t - s) * rotation_angle_to p q.
Proof.
  intros P Q C. apply slerp_speed; try assumption. rewrite rotation_angle_R in C by assumption. replace (2 * acos (Rabs (quat_dot p q)) / 2) with (acos (Rabs (quat_dot p q))) in C by field.
  destruct (acos_spec _ (dot_bound p q P Q)) as (_ & E & _). rewrite E in C. exact C.
Qed.
Example C101_example : let p := Quat (/ 2) (/ 2) (/ 2) (/ 2) in let q := Quat (3 / 5) 0 (4 / 5) 0 in unit_quaternion p /\ unit_quaternion q /\ cos (rotation_angle_to p q / 2) <= 1 - / IZR (2^52) /\ inner (2 / 3, 2 / 3, -1 / 3) (2 / 3, 2 / 3, -1 / 3) = 1.
Proof.
  cbv zeta. assert (P : unit_quaternion (Quat (/ 2) (/ 2) (/ 2) (/ 2))) by (unfold unit_quaternion; cbn; field). assert (Q : unit_quaternion (Quat (3 / 5) 0 (4 / 5) 0)) by (unfold unit_quaternion; cbn; field).
  split; [exact P|]. split; [exact Q|]. split; [|unfold inner; field]. rewrite rotation_angle_R by assumption. replace (2 * acos _ / 2) with (acos (Rabs (quat_dot (Quat (/ 2) (/ 2) (/ 2) (/ 2)) (Quat (3 / 5) 0 (4 / 5) 0)))) by field.
  destruct (acos_spec _ (dot_bound _ _ P Q)) as (_ & E & _). rewrite E. unfold quat_dot. cbn [qw qx qy qz]. rnum. replace (_ + _) with (7 / 10) by field. rewrite Rabs_pos_eq by lra. pose proof eps_small. lra.
Qed.

Print Assumptions C98_from.
Print Assumptions C98_to.
Print Assumptions C98_round_trip.
Print Assumptions C98_pole.
Print Assumptions C98_pole_refuted.
Print Assumptions C99_carries.
Print Assumptions C99_shortest.
Print Assumptions C99_no_direction.
Print Assumptions C100_from_matrix.
Print Assumptions C100_refused.
Print Assumptions C100_round_trip.
Print Assumptions C100_pairs.
Print Assumptions C100_pairs_refused.
Print Assumptions C100_pairs_recover.
Print Assumptions C101_angle.
Print Assumptions C101_turn.
Print Assumptions C101_slerp.
Print Assumptions C101_speed.
