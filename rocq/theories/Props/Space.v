(** C105 rigid motions of space, C106 velocities and loads moved between frames. *)
From Coq Require Import ZArith List Bool Arith Reals Lra Lia.
From Coquelicot Require Import Coquelicot.
From Verif Require Import Base.Scalar Base.RNum Base.Lists Base.Series Model.Vector Model.Matrix Model.Quaternion Model.Lie Spec.Matrix Spec.MatrixExp Spec.Hold Spec.Rotation Spec.Quaternion Spec.Planar Spec.Space Spec.Inertia Proofs.Matrix Proofs.Algebra Proofs.Expm Proofs.Quaternion Proofs.Rotation Proofs.Pairs Proofs.SpaceJacobian Proofs.MotionJacobian Proofs.Space Proofs.Screw.
Import ListNotations.
Local Open Scope R_scope.
Local Notation cos := Rtrigo_def.cos.
Local Notation sin := Rtrigo_def.sin.
Local Notation sqrt := R_sqrt.sqrt.
Local Notation length := Spec.Rotation.length.

(** ** C105 *)
(** Rigid motions form a group, and their homogeneous matrices multiply accordingly and act on points. *)
Theorem C105_group a b c : unit_se3 a -> unit_se3 b ->
  se3_compose (se3_compose a b) c = se3_compose a (se3_compose b c) /\ se3_compose se3_identity a = a /\ se3_compose a se3_identity = a /\
  se3_compose a (se3_inverse a) = se3_identity /\ se3_compose (se3_inverse a) a = se3_identity /\ unit_se3 (se3_compose a b) /\ unit_se3 (se3_inverse a).
Proof.
  intros A B. split; [apply se3_assoc|]. split; [apply se3_identity_l|]. split; [apply se3_identity_l|]. split; [apply se3_inverses, A|]. split; [apply se3_inverses, A|]. apply se3_units; assumption.
Qed.
Theorem C105_matrix a b p : unit_se3 a -> unit_se3 b ->
  space_motion (mget (se3_to_matrix a)) /\ equal 4 4 (mget (se3_to_matrix (se3_compose a b))) (product 4 (mget (se3_to_matrix a)) (mget (se3_to_matrix b))) /\
  equal_vectors 4 (appended (se3_act a p)) (times 4 (mget (se3_to_matrix a)) (appended p)) /\
  (forall v, equal 4 4 (mget (se3_hat (T := R) v)) (velocity_matrix v)) /\ forall v, se3_vee (se3_hat (T := R) v) = v.
Proof. intros A B. split; [apply se3_space_motion, A|]. split; [apply se3_product; assumption|]. split; [apply se3_action, A|]. split; [apply se3_hat_R|apply se3_vee_hat]. Qed.
(** The exponential is the matrix exponential of the velocity's matrix: exactly once the angle is large enough for the closed form or
    zero, and within a power of the angle below. *)
Theorem C105_exponential v : let angle := length (snd v) in
  (2520 / IZR (2^52) <= angle ^ 6 \/ snd v = (0, 0, 0) -> unit_se3 (se3_exp v) /\ equal 4 4 (mget (se3_to_matrix (se3_exp v))) (matrix_exp 4 (velocity_matrix v))) /\
  (angle ^ 6 < 2520 / IZR (2^52) -> forall i j, (i < 4)%nat -> (j < 4)%nat ->
     Rabs (mget (se3_to_matrix (se3_exp v)) i j - matrix_exp 4 (velocity_matrix v) i j) <= (if Rlt_dec angle (30 / IZR (2^52)) then angle ^ 4 else 0) + angle ^ 5 * length (fst v)).
Proof. cbv zeta. split; [intros H; apply se3_exp_exact, H|]. intros H i j Hi Hj. apply se3_exp_near; assumption. Qed.
(** The logarithm is a velocity turning by at most pi whose exponential is the motion. *)
Theorem C105_logarithm a : unit_se3 a -> let v := se3_log a in length (snd v) <= PI /\
  (15120 / IZR (2^52) <= length (snd v) ^ 6 \/ quat_vec (se3_rotation a) = (0, 0, 0) -> same_motion (se3_exp v) a /\ equal 4 4 (matrix_exp 4 (velocity_matrix v)) (mget (se3_to_matrix a))) /\
  (length (snd v) ^ 6 < 15120 / IZR (2^52) -> (30 / IZR (2^52) <= length (quat_vec (se3_rotation a)) -> se3_rotation (se3_exp v) = se3_rotation a \/ se3_rotation (se3_exp v) = quat_neg (se3_rotation a)) /\
     forall i, (i < 3)%nat -> Rabs (coordinate (se3_translation (se3_exp v)) i - coordinate (se3_translation a) i) <= 3 * length (snd v) ^ 5 * length (se3_translation a)).
Proof.
  intros U v. split; [unfold v; rewrite se3_log_R; apply log_length, U|]. split.
  - intros H. pose proof (se3_exp_log a U H) as S. fold v in S. split; [exact S|]. eapply equal_trans; [|apply same_matrix, S]. apply equal_sym, se3_exp_exact. destruct H as [H|H]; [left; pose proof power_52; unfold Rdiv in H; eapply Rle_trans; [|exact H]; lra|right]. unfold v. rewrite se3_log_R. apply log_no_vector, H.
  - intros H. split; [|intros i Hi; apply se3_log_near; assumption]. intros L. unfold v. rewrite se3_log_R, se3_exp_R. cbn [se3_rotation]. destruct (log_large _ U L) as [E _]. rewrite E. apply shortest_is.
Qed.
Theorem C105_round_trip v : (15120 / IZR (2^52) <= length (snd v) ^ 6 /\ length (snd v) <= PI) \/ snd v = (0, 0, 0) -> se3_log (se3_exp v) = v.
Proof. apply se3_log_exp. Qed.
(** Interpolation follows one velocity from the first motion to the second. *)
Theorem C105_interpolate a b s : unit_se3 a -> unit_se3 b -> let c := se3_compose (se3_inverse a) b in let v := se3_log c in
  se3_interpolate a b 0 = a /\ (15120 / IZR (2^52) <= length (snd v) ^ 6 \/ quat_vec (se3_rotation c) = (0, 0, 0) -> same_motion (se3_interpolate a b 1) b) /\
  (2520 / IZR (2^52) <= length (multiple s (snd v)) ^ 6 \/ multiple s (snd v) = (0, 0, 0) -> equal 4 4 (mget (se3_to_matrix (se3_interpolate a b s))) (product 4 (mget (se3_to_matrix a)) (exp_at 4 (velocity_matrix v) s))).
Proof. intros A B c v. destruct (se3_interpolate_ends a b A B) as [P Q]. split; [exact P|]. split; [exact Q|]. apply se3_interpolate_matrix; assumption. Qed.
(** A motion's matrix gives the motion back; a matrix whose upper block is a proper rotation is read when its last row is (0, 0, 0, 1)
    up to 30 eps and refused otherwise; what is accepted is within that tolerance and keeps the translation. *)
Theorem C105_from_matrix m :
  (forall a, unit_se3 a -> exists b, se3_try_from_matrix (se3_to_matrix a) = Some b /\ unit_se3 b /\ equal 4 4 (mget (se3_to_matrix b)) (mget (se3_to_matrix a))) /\
  (proper_rotation (mget m) -> (forall j, (j < 4)%nat -> Rabs (mget m 3 j - unit_matrix 3%nat j) <= 30 / IZR (2^52)) -> exists a, se3_try_from_matrix m = Some a /\ unit_se3 a /\ forall i j, (i < 3)%nat -> (j < 4)%nat -> mget (se3_to_matrix a) i j = mget m i j) /\
  (forall a, se3_try_from_matrix m = Some a -> (forall j, (j < 4)%nat -> Rabs (mget m 3 j - unit_matrix 3%nat j) <= 30 / IZR (2^52)) /\
     (forall i, (i < 3)%nat -> coordinate (se3_translation a) i = mget m i 3) /\ 0 < det 3 (mget m) /\
     (forall i j, (i < 3)%nat -> (j < 3)%nat -> Rabs (product 3 (transposed (mget m)) (mget m) i j - unit_matrix i j) <= 30 / IZR (2^52))).
Proof.
  split; [|split; [apply se3_from_matrix_proper|]].
  - intros a U. destruct (se3_round_trip a U) as (b & E & Ub & T & M). exists b. split; [exact E|]. split; [exact Ub|]. eapply equal_trans; [apply se3_matrix_R|]. eapply equal_trans; [|apply equal_sym, se3_matrix_R]. apply homogeneous_ext; assumption.
  - intros a E. destruct (se3_from_matrix m) as [[L X]|[_ X]]; rewrite X in E; [|discriminate]. split; [exact L|]. destruct (so3_try_from_matrix (upper_block m)) as [q|] eqn:Q; [|discriminate]. injection E as <-. cbn [se3_translation]. split; [intros i Hi; three i; reflexivity|].
    destruct (gram_accepts (upper_block m)) as [(_ & G & D)|[N _]]; [|congruence]. pose proof (upper_block_R m) as B. split.
    + replace (det 3 (mget m)) with (det 3 (mget (upper_block m))); [exact D|]. unfold det, without, skip, bsum. cbn [Nat.ltb Nat.leb pow]. rewrite !B by lia. reflexivity.
    + intros i j Hi Hj. specialize (G i j Hi Hj). replace (product 3 (transposed (mget m)) (mget m) i j) with (product 3 (transposed (mget (upper_block m))) (mget (upper_block m)) i j); [exact G|]. unfold product, transposed. apply bsum_ext. intros k Hk. rewrite !B by auto. reflexivity.
Qed.
Lemma example_unit : unit_se3 (SE3 (Quat (1 / 2) (1 / 2) (1 / 2) (1 / 2)) (1, 2, 3)).
Proof. unfold unit_se3, unit_quaternion. cbn. lra. Qed.
Lemma example_length : length (2, -1, 2) = 3.
Proof. unfold length, inner. replace (2 * 2 + -1 * -1 + 2 * 2) with (3 * 3) by ring. apply sqrt_square. lra. Qed.
Example C105_example : unit_se3 (SE3 (Quat (1 / 2) (1 / 2) (1 / 2) (1 / 2)) (1, 2, 3)) /\ 15120 / IZR (2^52) <= length (snd ((5, 0, -1), (2, -1, 2))) ^ 6 /\ length (snd ((5, 0, -1), (2, -1, 2))) <= PI /\
  15120 / IZR (2^52) <= length (snd (se3_log (se3_exp (T := R) ((5, 0, -1), (2, -1, 2))))) ^ 6 /\ proper_rotation (mget (se3_to_matrix (SE3 (Quat (1 / 2) (1 / 2) (1 / 2) (1 / 2)) (1, 2, 3)))).
Proof.
  pose proof power_52. pose proof PI2_3_2. unfold PI2 in *. cbn [snd]. assert (A : 15120 / IZR (2^52) <= length (2, -1, 2) ^ 6) by (rewrite example_length; unfold Rdiv; lra).
  split; [apply example_unit|]. split; [exact A|]. split; [rewrite example_length; lra|]. split.
  - rewrite C105_round_trip; [exact A|]. left. split; [exact A|]. cbn [snd]. rewrite example_length. lra.
  - eapply proper_ext; [|apply (rotation_matrix_proper _ example_unit)]. intros i j Hi Hj. rewrite se3_matrix_R by lia. unfold homogeneous, stacked. rewrite !(proj2 (Nat.ltb_lt _ 3)) by lia. reflexivity.
Qed.

(** ** C106 *)
(** Moving a velocity or a load into another frame: the velocity of the moved particle is the rotated velocity of the particle, the
    force is the rotated force, the moment about the moved point is the rotated moment about the point, and power is preserved. *)
Theorem C106_frames a t w p : unit_se3 a ->
  point_velocity (velocity_of (act_twist a t)) (se3_act a p) = transform_point (se3_rotation a) (point_velocity (velocity_of t) p) /\ angular (act_twist a t) = transform_point (se3_rotation a) (angular t) /\
  force (act_wrench a w) = transform_point (se3_rotation a) (force w) /\ moment (wrench_of (act_wrench a w)) (se3_act a p) = transform_point (se3_rotation a) (moment (wrench_of w) p) /\
  dot_wrench t w = power (velocity_of t) (wrench_of w) /\ dot_wrench (act_twist a t) (act_wrench a w) = dot_wrench t w.
Proof.
  intros U. split; [apply act_twist_point, U|]. split; [reflexivity|]. destruct (act_wrench_moment a w p U) as [F M]. split; [exact F|]. split; [exact M|]. split; [apply dot_wrench_R|apply act_power, U].
Qed.
(** Moving back undoes moving, is moving by the inverse motion, and moving by a composition is moving twice. *)
Theorem C106_actions a b t w : unit_se3 a -> unit_se3 b ->
  inverse_act_twist a (act_twist a t) = t /\ act_twist a (inverse_act_twist a t) = t /\ inverse_act_twist a t = act_twist (se3_inverse a) t /\ act_twist (se3_compose a b) t = act_twist a (act_twist b t) /\
  inverse_act_wrench a (act_wrench a w) = w /\ act_wrench a (inverse_act_wrench a w) = w /\ inverse_act_wrench a w = act_wrench (se3_inverse a) w /\ act_wrench (se3_compose a b) w = act_wrench a (act_wrench b w).
Proof.
  intros A B. destruct (act_twist_undo a t A) as (P & Q & S). destruct (act_wrench_undo a w A) as (P' & Q' & S'). repeat (split; [first [assumption|apply act_twist_compose, A]|]). apply act_wrench_compose, A.
Qed.
(** The adjoint matrices are these actions in coordinates, and conjugation by the motion's matrix on velocity matrices. *)
Theorem C106_adjoint a t w : unit_se3 a ->
  equal_vectors 6 (times 6 (mget (se3_adjoint a)) (six (velocity_of t))) (six (velocity_of (act_twist a t))) /\
  equal_vectors 6 (times 6 (mget (force_adjoint a)) (six (wrench_of w))) (six (wrench_of (act_wrench a w))) /\
  equal 4 4 (velocity_matrix (velocity_of (act_twist a t))) (product 4 (product 4 (mget (se3_to_matrix a)) (velocity_matrix (velocity_of t))) (mget (se3_to_matrix (se3_inverse a)))).
Proof. intros U. split; [apply adjoint_acts, U|]. split; [apply force_adjoint_acts, U|apply velocity_conjugated, U]. Qed.
(** The cross product of velocities is the bracket of their matrices, so alternating and obeying Jacobi's identity; the one of a velocity
    and a load is its dual and represents the bracket; both are the same in every frame. *)
Theorem C106_cross a s t r w : unit_se3 a ->
  equal 4 4 (velocity_matrix (velocity_of (twist_cross s t))) (bracket 4 (velocity_matrix (velocity_of s)) (velocity_matrix (velocity_of t))) /\
  twist_cross t t = twist_zeros /\ twist_cross s (twist_cross t r) = twist_add (twist_cross (twist_cross s t) r) (twist_cross t (twist_cross s r)) /\
  dot_wrench (twist_cross s t) w = - dot_wrench t (cross_wrench s w) /\ cross_wrench (twist_cross s t) w = wrench_sub (cross_wrench s (cross_wrench t w)) (cross_wrench t (cross_wrench s w)) /\
  act_twist a (twist_cross s t) = twist_cross (act_twist a s) (act_twist a t) /\ act_wrench a (cross_wrench s w) = cross_wrench (act_twist a s) (act_wrench a w).
Proof.
  intros U. split; [apply velocity_bracket|]. split; [apply cross_self|]. split; [apply cross_jacobi|]. split; [apply cross_dual|]. split; [apply cross_wrench_jacobi|]. split; [apply act_cross, U|apply act_cross_wrench, U].
Qed.
Example C106_example : unit_se3 (SE3 (Quat (1 / 2) (1 / 2) (1 / 2) (1 / 2)) (1, 2, 3)) /\ twist_cross (Twist (1, 0, 0) (0, 0, 2)) (Twist (0, 1, 0) (0, 3, 0)) = Twist (T := R) (-2, 0, 3) (-6, 0, 0).
Proof. split; [apply example_unit|]. rewrite twist_cross_R. cbn [linear angular]. unfold together, outer. f_equal; apply point_eq; ring. Qed.

Print Assumptions C105_group.
Print Assumptions C105_matrix.
Print Assumptions C105_exponential.
Print Assumptions C105_logarithm.
Print Assumptions C105_round_trip.
Print Assumptions C105_interpolate.
Print Assumptions C105_from_matrix.
Print Assumptions C106_frames.
Print Assumptions C106_actions.
Print Assumptions C106_adjoint.
Print Assumptions C106_cross.
