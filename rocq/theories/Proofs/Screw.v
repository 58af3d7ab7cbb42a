(** Spatial velocities, loads and inertias. *)
From Coq Require Import ZArith List Bool Arith Reals Lra Lia.
From Coquelicot Require Import Coquelicot.
From Verif Require Import Base.Scalar Base.RNum Base.Lists Base.Series Base.Deriv Model.Vector Model.Matrix Model.Quaternion Model.Lie Spec.Matrix Spec.Rotation Spec.Quaternion Spec.Planar Spec.Space Spec.Inertia Proofs.Matrix Proofs.Algebra Proofs.Expm Proofs.Flow Proofs.Quaternion Proofs.Rotation Proofs.Pairs Proofs.SpaceJacobian Proofs.MotionJacobian Proofs.Space.
Import ListNotations.
Local Open Scope R_scope.
Local Notation cos := Rtrigo_def.cos.
Local Notation sin := Rtrigo_def.sin.
Local Notation sqrt := R_sqrt.sqrt.
Local Notation length := Spec.Rotation.length.

Lemma twist_eq (a b : twist R) : linear a = linear b -> angular a = angular b -> a = b.
Proof. destruct a, b. cbn. intros -> ->. reflexivity. Qed.
Lemma wrench_eq (a b : wrench R) : force a = force b -> torque a = torque b -> a = b.
Proof. destruct a, b. cbn. intros -> ->. reflexivity. Qed.
Lemma rotate_outer q u v : unit_quaternion q -> outer (transform_point q u) (transform_point q v) = transform_point q (outer u v).
Proof. intros U. rewrite transform_outer, (proj1 (unit_is q) U). apply multiple_one. Qed.
Lemma rotate_inner q u v : unit_quaternion q -> inner (transform_point q u) (transform_point q v) = inner u v.
Proof. intros U. rewrite transform_inner, (proj1 (unit_is q) U). unfold Rsqr. ring. Qed.
Lemma rotate_back q u : unit_quaternion q -> transform_point (conjugate q) (transform_point q u) = u /\ transform_point q (transform_point (conjugate q) u) = u.
Proof. intros U. destruct (conjugate_inverse q U) as [A B]. rewrite <- !transform_mul, A, B. split; apply transform_identity. Qed.

(** ** What the code computes *)
Lemma act_twist_R a t : act_twist (T := R) a t = Twist (together (transform_point (se3_rotation a) (linear t)) (outer (se3_translation a) (transform_point (se3_rotation a) (angular t)))) (transform_point (se3_rotation a) (angular t)).
Proof. unfold act_twist, so3_act. rewrite add3_R, cross3_R. reflexivity. Qed.
Lemma act_wrench_R a w : act_wrench (T := R) a w = Wrench (transform_point (se3_rotation a) (force w)) (together (transform_point (se3_rotation a) (torque w)) (outer (se3_translation a) (transform_point (se3_rotation a) (force w)))).
Proof. unfold act_wrench, so3_act. rewrite add3_R, cross3_R. reflexivity. Qed.
Lemma inverse_act_twist_R a t : inverse_act_twist (T := R) a t = Twist (transform_point (conjugate (se3_rotation a)) (together (linear t) (multiple (-1) (outer (se3_translation a) (angular t))))) (transform_point (conjugate (se3_rotation a)) (angular t)).
Proof. unfold inverse_act_twist, so3_act, so3_inverse. rewrite sub3_R, cross3_R. reflexivity. Qed.
Lemma inverse_act_wrench_R a w : inverse_act_wrench (T := R) a w = Wrench (transform_point (conjugate (se3_rotation a)) (force w)) (transform_point (conjugate (se3_rotation a)) (together (torque w) (multiple (-1) (outer (se3_translation a) (force w))))).
Proof. unfold inverse_act_wrench, so3_act, so3_inverse. rewrite sub3_R, cross3_R. reflexivity. Qed.
Lemma twist_cross_R a b : twist_cross (T := R) a b = Twist (together (outer (angular a) (linear b)) (outer (linear a) (angular b))) (outer (angular a) (angular b)).
Proof. unfold twist_cross. rewrite add3_R, !cross3_R. reflexivity. Qed.
Lemma cross_wrench_R a w : cross_wrench (T := R) a w = Wrench (outer (angular a) (force w)) (together (outer (angular a) (torque w)) (outer (linear a) (force w))).
Proof. unfold cross_wrench. rewrite add3_R, !cross3_R. reflexivity. Qed.
Lemma dot_wrench_R a w : dot_wrench (T := R) a w = power (velocity_of a) (wrench_of w).
Proof. unfold dot_wrench, power, velocity_of, wrench_of. rewrite !dot3_R. reflexivity. Qed.
Lemma se3_act_R a p : se3_act (T := R) a p = together (transform_point (se3_rotation a) p) (se3_translation a).
Proof. unfold se3_act, so3_act. apply add3_R. Qed.

(** ** Moving a velocity or a load *)
Lemma outer_together_r u v w : outer u (together v w) = together (outer u v) (outer u w). Proof. flat. Qed.
Lemma outer_together_l u v w : outer (together u v) w = together (outer u w) (outer v w). Proof. flat. Qed.
Lemma act_twist_point a t p : unit_se3 a -> point_velocity (velocity_of (act_twist a t)) (se3_act a p) = transform_point (se3_rotation a) (point_velocity (velocity_of t) p).
Proof.
  intros U. rewrite act_twist_R, se3_act_R. unfold point_velocity, velocity_of. cbn [fst snd linear angular]. rewrite transform_together, <- (rotate_outer _ _ _ U), outer_together_r.
  generalize (transform_point (se3_rotation a) (linear t)) (transform_point (se3_rotation a) (angular t)) (transform_point (se3_rotation a) p) (se3_translation a). intros. flat.
Qed.
Lemma act_wrench_moment a w p : unit_se3 a -> force (act_wrench a w) = transform_point (se3_rotation a) (force w) /\ moment (wrench_of (act_wrench a w)) (se3_act a p) = transform_point (se3_rotation a) (moment (wrench_of w) p).
Proof.
  intros U. split; [rewrite act_wrench_R; reflexivity|]. rewrite act_wrench_R, se3_act_R. unfold moment, wrench_of. cbn [fst snd force torque]. rewrite transform_together, transform_multiple', <- (rotate_outer _ _ _ U), outer_together_l.
  generalize (transform_point (se3_rotation a) (torque w)) (transform_point (se3_rotation a) (force w)) (transform_point (se3_rotation a) p) (se3_translation a). intros. flat.
Qed.
Lemma act_power a t w : unit_se3 a -> dot_wrench (act_twist a t) (act_wrench a w) = dot_wrench t w.
Proof.
  intros U. rewrite !dot_wrench_R, act_twist_R, act_wrench_R. unfold power, velocity_of, wrench_of. cbn [fst snd linear angular force torque]. rewrite <- (rotate_inner _ (linear t) (force w) U), <- (rotate_inner _ (angular t) (torque w) U).
  generalize (transform_point (se3_rotation a) (linear t)) (transform_point (se3_rotation a) (angular t)) (transform_point (se3_rotation a) (force w)) (transform_point (se3_rotation a) (torque w)) (se3_translation a). intros. flat.
Qed.
Lemma act_twist_undo a t : unit_se3 a -> inverse_act_twist a (act_twist a t) = t /\ act_twist a (inverse_act_twist a t) = t /\ inverse_act_twist a t = act_twist (se3_inverse a) t.
Proof.
  intros U. repeat split; apply twist_eq; rewrite ?act_twist_R, ?inverse_act_twist_R; cbn [linear angular]; rewrite ?(proj1 (rotate_back _ _ U)), ?(proj2 (rotate_back _ _ U)); try reflexivity.
  - rewrite <- (proj1 (rotate_back _ (linear t) U)) at 2. f_equal. generalize (transform_point (se3_rotation a) (linear t)) (outer (se3_translation a) (transform_point (se3_rotation a) (angular t))). intros. flat.
  - generalize (outer (se3_translation a) (angular t)). intros. destruct t as [[[lx ly] lz] w]. cbn [linear]. flat.
  - cbn [se3_inverse se3_rotation se3_translation]. unfold so3_inverse, so3_act. rewrite neg3_R. rewrite transform_together, transform_multiple', <- (rotate_outer _ _ _ (unit_conjugate _ U)).
    generalize (transform_point (conjugate (se3_rotation a)) (linear t)) (transform_point (conjugate (se3_rotation a)) (angular t)) (transform_point (conjugate (se3_rotation a)) (se3_translation a)). intros. flat.
Qed.
Lemma act_wrench_undo a w : unit_se3 a -> inverse_act_wrench a (act_wrench a w) = w /\ act_wrench a (inverse_act_wrench a w) = w /\ inverse_act_wrench a w = act_wrench (se3_inverse a) w.
Proof.
  intros U. repeat split; apply wrench_eq; rewrite ?act_wrench_R, ?inverse_act_wrench_R; cbn [force torque]; rewrite ?(proj1 (rotate_back _ _ U)), ?(proj2 (rotate_back _ _ U)); try reflexivity.
  - rewrite <- (proj1 (rotate_back _ (torque w) U)) at 2. f_equal. generalize (transform_point (se3_rotation a) (torque w)) (outer (se3_translation a) (transform_point (se3_rotation a) (force w))). intros. flat.
  - generalize (outer (se3_translation a) (force w)). intros. destruct w as [f [[lx ly] lz]]. cbn [torque]. flat.
  - cbn [se3_inverse se3_rotation se3_translation]. unfold so3_inverse, so3_act. rewrite neg3_R. rewrite transform_together, transform_multiple', <- (rotate_outer _ _ _ (unit_conjugate _ U)).
    generalize (transform_point (conjugate (se3_rotation a)) (torque w)) (transform_point (conjugate (se3_rotation a)) (force w)) (transform_point (conjugate (se3_rotation a)) (se3_translation a)). intros. flat.
Qed.
Lemma act_twist_compose a b t : unit_se3 a -> act_twist (T := R) (se3_compose a b) t = act_twist a (act_twist b t).
Proof.
  intros U. apply twist_eq; rewrite !act_twist_R; cbn [linear angular se3_compose se3_rotation se3_translation]; unfold so3_compose, so3_act; rewrite !transform_mul; [|reflexivity]. rewrite add3_R, transform_together, <- (rotate_outer _ _ _ U).
  generalize (transform_point (se3_rotation a) (transform_point (se3_rotation b) (linear t))) (transform_point (se3_rotation a) (transform_point (se3_rotation b) (angular t))) (transform_point (se3_rotation a) (se3_translation b)) (se3_translation a). intros. flat.
Qed.
Lemma act_wrench_compose a b w : unit_se3 a -> act_wrench (T := R) (se3_compose a b) w = act_wrench a (act_wrench b w).
Proof.
  intros U. apply wrench_eq; rewrite !act_wrench_R; cbn [force torque se3_compose se3_rotation se3_translation]; unfold so3_compose, so3_act; rewrite !transform_mul; [reflexivity|]. rewrite add3_R, transform_together, <- (rotate_outer _ _ _ U).
  generalize (transform_point (se3_rotation a) (transform_point (se3_rotation b) (torque w))) (transform_point (se3_rotation a) (transform_point (se3_rotation b) (force w))) (transform_point (se3_rotation a) (se3_translation b)) (se3_translation a). intros. flat.
Qed.
Lemma act_cross a s t : unit_se3 a -> act_twist a (twist_cross s t) = twist_cross (act_twist a s) (act_twist a t).
Proof.
  intros U. rewrite !twist_cross_R, !act_twist_R. cbn [linear angular]. rewrite transform_together, <- !(rotate_outer _ _ _ U). apply twist_eq; cbn [linear angular]; [|reflexivity].
  generalize (transform_point (se3_rotation a) (linear s)) (transform_point (se3_rotation a) (angular s)) (transform_point (se3_rotation a) (linear t)) (transform_point (se3_rotation a) (angular t)) (se3_translation a). intros. flat.
Qed.
Lemma act_cross_wrench a s w : unit_se3 a -> act_wrench a (cross_wrench s w) = cross_wrench (act_twist a s) (act_wrench a w).
Proof.
  intros U. rewrite !cross_wrench_R, !act_twist_R, !act_wrench_R. cbn [linear angular force torque]. rewrite transform_together, <- !(rotate_outer _ _ _ U). apply wrench_eq; cbn [force torque]; [reflexivity|].
  generalize (transform_point (se3_rotation a) (linear s)) (transform_point (se3_rotation a) (angular s)) (transform_point (se3_rotation a) (force w)) (transform_point (se3_rotation a) (torque w)) (se3_translation a). intros. flat.
Qed.
Ltac flat_twists := repeat match goal with t : twist R |- _ => destruct t as [[[? ?] ?] [[? ?] ?]] | w : wrench R |- _ => destruct w as [[[? ?] ?] [[? ?] ?]] end; cbn [linear angular force torque].
Lemma cross_dual s t w : dot_wrench (T := R) (twist_cross s t) w = - dot_wrench t (cross_wrench s w).
Proof. rewrite !dot_wrench_R, twist_cross_R, cross_wrench_R. unfold power, velocity_of, wrench_of. flat_twists. cbn [fst snd]. unfold together, outer, inner. ring. Qed.
Lemma cross_self t : twist_cross (T := R) t t = twist_zeros.
Proof. rewrite twist_cross_R. unfold twist_zeros, zeros3. rnum. apply twist_eq; flat_twists; unfold together, outer; apply point_eq; ring. Qed.
Lemma cross_jacobi a b c : twist_cross (T := R) a (twist_cross b c) = twist_add (twist_cross (twist_cross a b) c) (twist_cross b (twist_cross a c)).
Proof. unfold twist_add. rewrite !twist_cross_R, !add3_R. apply twist_eq; flat_twists; unfold together, outer; apply point_eq; ring. Qed.
Lemma cross_wrench_jacobi a b w : cross_wrench (T := R) (twist_cross a b) w = wrench_sub (cross_wrench a (cross_wrench b w)) (cross_wrench b (cross_wrench a w)).
Proof. unfold wrench_sub. rewrite !cross_wrench_R, !twist_cross_R, !sub3_R. apply wrench_eq; flat_twists; unfold together, outer, multiple; apply point_eq; ring. Qed.

(** ** Their matrices *)
Lemma adjoint_R a : equal 6 6 (mget (se3_adjoint a)) (stacked 3 (mget (to_rotation_matrix (se3_rotation a))) (product 3 (cross_matrix (se3_translation a)) (mget (to_rotation_matrix (se3_rotation a)))) (mget (to_rotation_matrix (se3_rotation a)))).
Proof.
  assert (S : equal 3 3 (mget (mat_mul 3 3 3 (skew3 (se3_translation a)) (to_rotation_matrix (se3_rotation a)))) (product 3 (cross_matrix (se3_translation a)) (mget (to_rotation_matrix (se3_rotation a))))).
  { intros i j Hi Hj. rewrite mget_mul by auto. apply bsum_ext. intros k Hk. f_equal. apply skew3_R; auto. }
  unfold se3_adjoint, so3_to_matrix. revert S. set (r := to_rotation_matrix _). set (s := mat_mul _ _ _ _ _). set (p := product _ _ _). clearbody r s p. intros S i j Hi Hj. unfold stacked. six_i i; six_i j; try reflexivity; cbn; symmetry; (rewrite <- S by lia); reflexivity.
Qed.
Lemma force_adjoint_R a : equal 6 6 (mget (force_adjoint a)) (fun i j => if Nat.ltb i 3 then (if Nat.ltb j 3 then mget (to_rotation_matrix (se3_rotation a)) i j else 0) else (if Nat.ltb j 3 then product 3 (cross_matrix (se3_translation a)) (mget (to_rotation_matrix (se3_rotation a))) (i - 3) j else mget (to_rotation_matrix (se3_rotation a)) (i - 3) (j - 3))%nat).
Proof.
  assert (S : equal 3 3 (mget (mat_mul 3 3 3 (skew3 (se3_translation a)) (to_rotation_matrix (se3_rotation a)))) (product 3 (cross_matrix (se3_translation a)) (mget (to_rotation_matrix (se3_rotation a))))).
  { intros i j Hi Hj. rewrite mget_mul by auto. apply bsum_ext. intros k Hk. f_equal. apply skew3_R; auto. }
  unfold force_adjoint, so3_to_matrix. revert S. set (r := to_rotation_matrix _). set (s := mat_mul _ _ _ _ _). set (p := product _ _ _). clearbody r s p. intros S i j Hi Hj. six_i i; six_i j; try reflexivity; cbn; symmetry; (rewrite <- S by lia); reflexivity.
Qed.
Lemma rotated_coordinate q u i : unit_quaternion q -> (i < 3)%nat -> coordinate (transform_point q u) i = times 3 (mget (to_rotation_matrix q)) (coordinate u) i.
Proof. intros U Hi. symmetry. apply (rotation_matrix_carries q u U i Hi). Qed.
Lemma outer_coordinate u v i : (i < 3)%nat -> coordinate (outer u v) i = times 3 (cross_matrix u) (coordinate v) i.
Proof. intros Hi. destruct u as [[a b] c], v as [[x y] z]. unfold times, bsum, coordinate, outer, cross_matrix. three i; cbn [nth]; ring. Qed.
Lemma times_six m v i : times 6 m (six v) i = times 3 (fun i j => m i j) (coordinate (fst v)) i + times 3 (fun i j => m i (j + 3)%nat) (coordinate (snd v)) i.
Proof. unfold times, bsum, six. cbn [Nat.ltb Nat.leb Nat.sub Nat.add]. ring. Qed.
Lemma outer_rotated_coordinate q p u i : unit_quaternion q -> (i < 3)%nat -> coordinate (outer p (transform_point q u)) i = times 3 (product 3 (cross_matrix p) (mget (to_rotation_matrix q))) (coordinate u) i.
Proof. intros U Hi. rewrite outer_coordinate, times_product by auto. apply times_ext; [intros; reflexivity|]. intros k Hk. apply rotated_coordinate; auto. Qed.
Lemma times_rows m m' x i i' : (forall j, (j < 3)%nat -> m i j = m' i' j) -> times 3 m x i = times 3 m' x i'.
Proof. intros H. unfold times. apply bsum_ext. intros j Hj. rewrite H by auto. reflexivity. Qed.
Lemma times_none m x i : (forall j, (j < 3)%nat -> m i j = 0) -> times 3 m x i = 0.
Proof. intros H. unfold times, bsum. rewrite !H by lia. ring. Qed.
Lemma adjoint_acts a t : unit_se3 a -> equal_vectors 6 (times 6 (mget (se3_adjoint a)) (six (velocity_of t))) (six (velocity_of (act_twist a t))).
Proof.
  intros U i Hi. transitivity (times 6 (stacked 3 (mget (to_rotation_matrix (se3_rotation a))) (product 3 (cross_matrix (se3_translation a)) (mget (to_rotation_matrix (se3_rotation a)))) (mget (to_rotation_matrix (se3_rotation a)))) (six (velocity_of t)) i).
  { unfold times. apply bsum_ext. intros j Hj. rewrite adjoint_R by auto. reflexivity. }
  rewrite times_six, act_twist_R. unfold velocity_of, six, stacked. cbn [fst snd linear angular]. destruct (Nat.ltb_spec i 3).
  - rewrite coordinate_together, rotated_coordinate, outer_rotated_coordinate by auto. f_equal; apply times_rows; intros j Hj; rewrite (proj2 (Nat.ltb_lt i 3)) by lia.
    + rewrite (proj2 (Nat.ltb_lt j 3)) by lia. reflexivity.
    + rewrite (proj2 (Nat.ltb_ge (j + 3) 3)) by lia. f_equal. lia.
  - rewrite times_none, Rplus_0_l by (intros j Hj; rewrite (proj2 (Nat.ltb_ge i 3)), (proj2 (Nat.ltb_lt j 3)) by lia; reflexivity). rewrite rotated_coordinate by (auto; lia). apply times_rows. intros j Hj. rewrite (proj2 (Nat.ltb_ge i 3)), (proj2 (Nat.ltb_ge (j + 3) 3)) by lia. f_equal. lia.
Qed.
Lemma force_adjoint_acts a w : unit_se3 a -> equal_vectors 6 (times 6 (mget (force_adjoint a)) (six (wrench_of w))) (six (wrench_of (act_wrench a w))).
Proof.
  intros U i Hi. rewrite (times_ext 6 _ _ _ _ i (fun k Hk => force_adjoint_R a i k Hi Hk) (fun k _ => eq_refl)).
  rewrite times_six, act_wrench_R. unfold wrench_of, six. cbn [fst snd force torque]. destruct (Nat.ltb_spec i 3).
  - match goal with |- ?x + times 3 ?m ?v ?k = _ => assert (Z : times 3 m v k = 0) by (apply times_none; intros j Hj; rewrite (proj2 (Nat.ltb_lt i 3)), (proj2 (Nat.ltb_ge (j + 3) 3)) by lia; reflexivity); rewrite Z, Rplus_0_r end. rewrite rotated_coordinate by auto. apply times_rows. intros j Hj. rewrite (proj2 (Nat.ltb_lt i 3)), (proj2 (Nat.ltb_lt j 3)) by lia. reflexivity.
  - rewrite coordinate_together, rotated_coordinate, outer_rotated_coordinate by (auto; lia). rewrite Rplus_comm. f_equal; apply times_rows; intros j Hj; rewrite (proj2 (Nat.ltb_ge i 3)) by lia.
    + rewrite (proj2 (Nat.ltb_ge (j + 3) 3)) by lia. f_equal. lia.
    + rewrite (proj2 (Nat.ltb_lt j 3)) by lia. reflexivity.
Qed.
Lemma velocity_bracket s t : equal 4 4 (velocity_matrix (velocity_of (twist_cross s t))) (bracket 4 (velocity_matrix (velocity_of s)) (velocity_matrix (velocity_of t))).
Proof.
  rewrite twist_cross_R. unfold velocity_of. cbn [linear angular]. flat_twists. intros i j Hi Hj. unfold velocity_matrix, bracket, minus_matrix, product, bsum, stacked, column, cross_matrix, coordinate, zero_matrix, together, outer. cbn [fst snd]. four_i i; four_i j; cbn; ring.
Qed.
Lemma motion_ad_acts s t : equal_vectors 6 (times 6 (motion_ad (velocity_of s)) (six (velocity_of t))) (six (velocity_of (twist_cross s t))).
Proof.
  rewrite twist_cross_R. unfold velocity_of. cbn [linear angular]. flat_twists. intros i Hi. unfold motion_ad, times, bsum, stacked, cross_matrix, six, coordinate, together, outer. cbn [fst snd]. six_i i; cbn; ring.
Qed.
(** The rotation matrix intertwines the cross products. *)
Lemma rotate_cross q u : unit_quaternion q -> equal 3 3 (product 3 (mget (to_rotation_matrix q)) (cross_matrix u)) (product 3 (cross_matrix (transform_point q u)) (mget (to_rotation_matrix q))).
Proof.
  intros U i j Hi Hj. pose proof (rotate_outer q u) as H. set (e := fun j => match j with 0%nat => (1, 0, 0) | 1%nat => (0, 1, 0) | _ => (0, 0, 1) end : point).
  assert (C : forall m, times 3 m (coordinate (e j)) i = m i j) by (intros m; unfold times, bsum, e, coordinate; three j; cbn [nth]; ring).
  rewrite <- (C (product 3 _ _)), <- (C (product 3 (cross_matrix _) _)). rewrite <- outer_rotated_coordinate by auto. rewrite H by exact U. rewrite rotated_coordinate, times_product by auto. apply times_ext; [intros; reflexivity|]. intros k Hk. symmetry. apply outer_coordinate, Hk.
Qed.
Lemma velocity_moved a t : unit_se3 a -> equal 4 4 (product 4 (mget (se3_to_matrix a)) (velocity_matrix (velocity_of t))) (product 4 (velocity_matrix (velocity_of (act_twist a t))) (mget (se3_to_matrix a))).
Proof.
  intros U. eapply equal_trans; [apply equal_product; [apply se3_matrix_R|apply equal_refl]|]. eapply equal_trans; [|apply equal_product; [apply equal_refl|apply equal_sym, se3_matrix_R]].
  assert (X : forall m p v, equal 4 4 (product 4 (homogeneous m p) (velocity_matrix v)) (stacked 3 (product 3 m (cross_matrix (snd v))) (fun i _ => times 3 m (coordinate (fst v)) i) zero_matrix)).
  { intros m p v i j Hi Hj. unfold homogeneous, velocity_matrix, product, times, bsum, stacked, column, zero_matrix, unit_matrix. four_i i; four_i j; cbn [Nat.ltb Nat.leb Nat.sub Nat.eqb]; ring. }
  assert (Y : forall m p v, equal 4 4 (product 4 (velocity_matrix v) (homogeneous m p)) (stacked 3 (product 3 (cross_matrix (snd v)) m) (fun i _ => times 3 (cross_matrix (snd v)) (coordinate p) i + coordinate (fst v) i) zero_matrix)).
  { intros m p v i j Hi Hj. unfold homogeneous, velocity_matrix, product, times, bsum, stacked, column, zero_matrix, unit_matrix. four_i i; four_i j; cbn [Nat.ltb Nat.leb Nat.sub Nat.eqb]; ring. }
  eapply equal_trans; [apply X|]. eapply equal_trans; [|apply equal_sym, Y]. apply stacked_ext4; [| |reflexivity].
  - rewrite act_twist_R. cbn [velocity_of snd angular]. apply rotate_cross, U.
  - intros i Hi. rewrite act_twist_R. unfold velocity_of. cbn [fst snd linear angular]. rewrite coordinate_together, <- outer_coordinate, <- rotated_coordinate by auto.
    rewrite (outer_coordinate (se3_translation a)), (outer_coordinate (transform_point _ _)) by auto. generalize (transform_point (se3_rotation a) (angular t)). intros w. destruct w as [[wx wy] wz], (se3_translation a) as [[px py] pz]. unfold times, bsum, cross_matrix. cbn [coordinate nth]. three i; cbn [nth]; unfold coordinate; cbn [nth]; ring.
Qed.
Lemma velocity_conjugated a t : unit_se3 a -> equal 4 4 (velocity_matrix (velocity_of (act_twist a t))) (product 4 (product 4 (mget (se3_to_matrix a)) (velocity_matrix (velocity_of t))) (mget (se3_to_matrix (se3_inverse a)))).
Proof.
  intros U. pose proof (proj2 (se3_units a a U U)) as V. eapply equal_trans; [|apply equal_product; [apply equal_sym, velocity_moved, U|apply equal_refl]]. rewrite p_assoc.
  assert (I : equal 4 4 (product 4 (mget (se3_to_matrix a)) (mget (se3_to_matrix (se3_inverse a)))) unit_matrix).
  { eapply equal_trans; [apply equal_sym, se3_product; assumption|]. rewrite (proj1 (se3_inverses a U)). intros i j Hi Hj. unfold unit_matrix. four_i i; four_i j; cbn; unfold so3_identity; rnum; ring. }
  intros i j Hi Hj. rewrite (equal_product 4 4 4 _ _ _ _ (equal_refl 4 4 _) I) by auto. symmetry. apply product_unit_r, Hj.
Qed.
