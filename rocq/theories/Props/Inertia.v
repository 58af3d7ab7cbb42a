(** C108 rigid bodies: momentum, energy and frames; C109 the state of a free body. *)
From Coq Require Import ZArith List Bool Arith Reals Lra Lia.
From Coquelicot Require Import Coquelicot.
From Verif Require Import Base.Scalar Base.RNum Base.Lists Base.Series Model.Errors Model.Vector Model.Matrix Model.Quaternion Model.Lie Spec.Matrix Spec.Rotation Spec.Quaternion Spec.Space Spec.Inertia Proofs.Matrix Proofs.Algebra Proofs.Expm Proofs.Quaternion Proofs.Rotation Proofs.Pairs Proofs.Attitude Proofs.Slerp Proofs.SpaceJacobian Proofs.MotionJacobian Proofs.Space Proofs.Screw Proofs.Inertia.
Import ListNotations.
Local Open Scope R_scope.
Local Notation cos := Rtrigo_def.cos.
Local Notation sin := Rtrigo_def.sin.
Local Notation sqrt := R_sqrt.sqrt.
Local Notation length := Spec.Rotation.length.

(** ** C108 *)
(** If the mass, balance point and rotational inertia are those of some particles, then the momentum is the sum of the particles'
    momenta and of their moments about the origin, the kinetic energy the sum of theirs, and the inertia about a point the sum of theirs. *)
Theorem C108_particles b c v p : describes b c ->
  force (momentum b v) = total_point (fun x => multiple (fst x) (point_velocity (velocity_of v) (snd x))) c /\
  torque (momentum b v) = total_point (fun x => outer (snd x) (multiple (fst x) (point_velocity (velocity_of v) (snd x)))) c /\
  kinetic_energy b v = total (fun x => / 2 * fst x * inner (point_velocity (velocity_of v) (snd x)) (point_velocity (velocity_of v) (snd x))) c /\
  equal 3 3 (mget (inertia_about b p)) (spread c p).
Proof. intros D. destruct (cloud_momentum b c v D) as [F T]. split; [exact F|]. split; [exact T|]. split; [apply cloud_kinetic_energy, D|apply cloud_inertia_about, D]. Qed.
(** Two bodies stuck together are described by both sets of particles, a moved body by the moved particles. *)
Theorem C108_combined a b ca cb : mass a + mass b <> 0 -> describes a ca -> describes b cb -> describes (combined a b) (ca ++ cb).
Proof. apply cloud_combined. Qed.
Theorem C108_moved a b c : unit_se3 a -> describes b c -> describes (act_inertia a b) (moved (se3_act a) c).
Proof. apply cloud_moved. Qed.
(** The matrix form gives the momentum, kinetic energy is half the momentum's power, and the bias load does no work. *)
Theorem C108_momentum b v :
  equal_vectors 6 (times 6 (mget (inertia_to_matrix b)) (six (velocity_of v))) (six (wrench_of (momentum b v))) /\
  kinetic_energy b v = / 2 * power (velocity_of v) (wrench_of (momentum b v)) /\
  kinetic_energy b v = / 2 * mass b * inner (point_velocity (velocity_of v) (center_of_mass b)) (point_velocity (velocity_of v) (center_of_mass b)) + / 2 * bsum 3 (fun i => coordinate (angular v) i * times 3 (mget (rotational_inertia b)) (coordinate (angular v)) i) /\
  dot_wrench v (bias_wrench b v) = 0.
Proof.
  split; [apply momentum_matrix|]. split; [apply kinetic_energy_R|]. split; [|apply bias_no_work]. rewrite kinetic_energy_split. f_equal. f_equal. unfold carried, bsum, inner. destruct (angular v) as [[x y] z]. cbn [coordinate nth]. unfold coordinate. cbn [nth]. ring.
Qed.
(** Momentum, energy and bias load agree in every frame, and moving a body back restores it. *)
Theorem C108_frames a b v : unit_se3 a ->
  momentum (act_inertia a b) (act_twist a v) = act_wrench a (momentum b v) /\ kinetic_energy (act_inertia a b) (act_twist a v) = kinetic_energy b v /\
  bias_wrench (act_inertia a b) (act_twist a v) = act_wrench a (bias_wrench b v) /\
  let c := inverse_act_inertia a (act_inertia a b) in mass c = mass b /\ center_of_mass c = center_of_mass b /\ equal 3 3 (mget (rotational_inertia c)) (mget (rotational_inertia b)).
Proof. intros U. split; [apply act_momentum, U|]. split; [apply act_energy, U|]. split; [apply act_bias, U|apply inverse_act_inertia_undo, U]. Qed.
(** Newton and Euler: when the pose follows the body velocity, the momentum seen from the fixed frame changes at the rate of the load
    I dv + bias, seen from the fixed frame. *)
Theorem C108_equation_of_motion b (pose : R -> se3 R) (v : R -> twist R) t dv : (forall s, unit_se3 (pose s)) ->
  (forall i j, (i < 4)%nat -> (j < 4)%nat -> is_derive (fun s => mget (se3_to_matrix (pose s)) i j) t (product 4 (mget (se3_to_matrix (pose t))) (velocity_matrix (velocity_of (v t))) i j)) ->
  (forall i, (i < 6)%nat -> is_derive (fun s => six (velocity_of (v s)) i) t (six (velocity_of dv) i)) ->
  forall i, (i < 6)%nat -> is_derive (fun s => six (wrench_of (act_wrench (pose s) (momentum b (v s)))) i) t (six (wrench_of (act_wrench (pose t) (wrench_add (momentum b dv) (bias_wrench b (v t))))) i).
Proof.
  intros U F D. assert (Dl : point_derive (fun s => linear (v s)) t (linear dv)) by (intros i Hi; pose proof (D i ltac:(lia)) as H; unfold six, velocity_of in H; rewrite (proj2 (Nat.ltb_lt i 3)) in H by lia; exact H).
  assert (Da : point_derive (fun s => angular (v s)) t (angular dv)). { intros i Hi. pose proof (D (i + 3)%nat ltac:(lia)) as H. unfold six, velocity_of in H. rewrite (proj2 (Nat.ltb_ge (i + 3) 3)) in H by lia. cbn [fst snd] in H. rewrite Nat.add_sub in H. exact H. }
  destruct (equation_of_motion b pose v t dv U F Dl Da) as [Ef Et]. intros i Hi. unfold six, wrench_of. cbn [fst snd]. destruct (Nat.ltb_spec i 3); [apply Ef; auto|apply Et; lia].
Qed.
(** What construction accepts, and that a body given along its own axes has positive energy unless it is at rest. *)
Theorem C108_new m c r : (exists b, inertia_new (T := R) m c r = Ok b) <->
  0 < m /\ (forall i, (i < 3)%nat -> 0 < mget r i i) /\ (forall i j, (i < j < 3)%nat -> Rabs (mget r i j - mget r j i) <= 30 / IZR (2^52) * Rmax (Rmax (Rabs (mget r i j)) (Rabs (mget r j i))) 1).
Proof.
  unfold inertia_new. assert (Fin : mat_is_finite r = true) by (unfold mat_is_finite; apply forallb_forall; intros x _; reflexivity).
  rewrite Fin. destruct c as [[x y] z]. cbn [is_finite3]. rnum. cbn [negb orb andb]. unfold Rleb at 1. destruct (Rle_dec m 0) as [M|M]; [split; [intros [b H]; discriminate|intros [H _]; lra]|].
  unfold is_symmetric. cbn [forallb range seq Nat.sub Nat.add existsb]. rnum. fold small. rewrite ?andb_true_r, ?orb_false_r.
  change (30 / IZR (2^52)) with small. unfold Rltb, Rleb. split.
  - intros [b H].
    destruct (Rlt_dec (small * _) (Rabs (mget r 0 1 - mget r 1 0))) as [?|A]; [discriminate|]. destruct (Rlt_dec (small * _) (Rabs (mget r 0 2 - mget r 2 0))) as [?|B]; [discriminate|]. destruct (Rlt_dec (small * _) (Rabs (mget r 1 2 - mget r 2 1))) as [?|C]; [discriminate|]. cbn [negb andb] in H.
    destruct (Rle_dec (mget r 0 0) 0) as [?|D0]; [discriminate|]. destruct (Rle_dec (mget r 1 1) 0) as [?|D1]; [discriminate|]. destruct (Rle_dec (mget r 2 2) 0) as [?|D2]; [discriminate|].
    split; [lra|]. split; [intros i Hi; three i; lra|]. intros i j Hij. assert (Cs : (i = 0 /\ j = 1 \/ i = 0 /\ j = 2 \/ i = 1 /\ j = 2)%nat) by lia. destruct Cs as [[-> ->]|[[-> ->]|[-> ->]]]; lra.
  - intros (_ & D & S). pose proof (S 0%nat 1%nat ltac:(lia)) as A. pose proof (S 0%nat 2%nat ltac:(lia)) as B. pose proof (S 1%nat 2%nat ltac:(lia)) as C. pose proof (D 0%nat ltac:(lia)) as D0. pose proof (D 1%nat ltac:(lia)) as D1. pose proof (D 2%nat ltac:(lia)) as D2.
    destruct (Rlt_dec _ (Rabs (mget r 0 1 - mget r 1 0))); [lra|]. destruct (Rlt_dec _ (Rabs (mget r 0 2 - mget r 2 0))); [lra|]. destruct (Rlt_dec _ (Rabs (mget r 1 2 - mget r 2 1))); [lra|]. cbn [negb andb].
    destruct (Rle_dec (mget r 0 0) 0); [lra|]. destruct (Rle_dec (mget r 1 1) 0); [lra|]. destruct (Rle_dec (mget r 2 2) 0); [lra|]. cbn [orb]. eexists. reflexivity.
Qed.
Theorem C108_diagonal m c d : (exists b, from_diagonal_inertia (T := R) m c d = Ok b) <-> 0 < m /\ forall i, (i < 3)%nat -> 0 < coordinate d i.
Proof.
  unfold from_diagonal_inertia. rewrite C108_new. destruct d as [[x y] z].
  assert (E : forall i j, (i < 3)%nat -> (j < 3)%nat -> mget (from_diagonal 3 (list3 (x, y, z))) i j = if Nat.eqb i j then coordinate (x, y, z) i else 0) by (intros i j Hi Hj; three i; three j; reflexivity).
  split; [intros (M & D & _)|intros [M D]]; (split; [exact M|]).
  - intros i Hi. specialize (D i Hi). rewrite E, Nat.eqb_refl in D by auto. exact D.
  - split; [intros i Hi; rewrite E, Nat.eqb_refl by auto; apply D, Hi|]. intros i j Hij. rewrite !E by lia. rewrite (proj2 (Nat.eqb_neq i j)), (proj2 (Nat.eqb_neq j i)) by lia. rewrite Rminus_diag_eq, Rabs_R0 by reflexivity. pose proof small_bound. fold small. pose proof (Rmax_r (Rmax 0 0) 1). apply Rmult_le_pos; lra.
Qed.
Theorem C108_diagonal_energy m c d b v : from_diagonal_inertia (T := R) m c d = Ok b -> 0 <= kinetic_energy b v /\ (kinetic_energy b v = 0 -> v = twist_zeros).
Proof.
  intros N. destruct (proj1 (C108_diagonal m c d) (ex_intro _ b N)) as [M D]. unfold from_diagonal_inertia, inertia_new in N.
  assert (B : b = Inertia m c (from_diagonal 3 (list3 d))). { repeat match type of N with (if ?x then _ else _) = _ => destruct x; [discriminate|] end. injection N as <-. reflexivity. } clear N. subst b.
  rewrite kinetic_energy_split. cbn [mass rotational_inertia]. set (u := balance_velocity _ v). destruct d as [[dx dy] dz]. pose proof (D 0%nat ltac:(lia)) as D0. pose proof (D 1%nat ltac:(lia)) as D1. pose proof (D 2%nat ltac:(lia)) as D2. cbn [coordinate nth] in D0, D1, D2. unfold coordinate in D0, D1, D2. cbn [nth] in D0, D1, D2.
  assert (K : inner (angular v) (carried (mget (from_diagonal 3 (list3 (dx, dy, dz)))) (angular v)) = let '(x, y, z) := angular v in dx * (x * x) + dy * (y * y) + dz * (z * z)).
  { destruct (angular v) as [[x y] z]. unfold carried, times, bsum, inner, mget, coordinate. cbn. ring. }
  rewrite K. clear K. destruct v as [l [[x y] z]]. cbn [angular] in *. destruct u as [[ux uy] uz] eqn:E. unfold inner.
  assert (P : forall a k, 0 < a -> 0 <= a * (k * k)) by (intros a k A; pose proof (Rle_0_sqr k) as Q; unfold Rsqr in Q; apply Rmult_le_pos; lra).
  assert (Z : forall a k, 0 < a -> a * (k * k) <= 0 -> k = 0). { intros a k A Q. destruct (Req_dec k 0) as [|N]; [assumption|]. pose proof (Rlt_0_sqr k N) as S. unfold Rsqr in S. pose proof (Rmult_lt_0_compat _ _ A S). lra. }
  pose proof (P m ux M). pose proof (P m uy M). pose proof (P m uz M). pose proof (P dx x D0). pose proof (P dy y D1). pose proof (P dz z D2). split; [lra|]. intros Zero.
  assert (x = 0) by (apply (Z dx); [assumption|lra]). assert (y = 0) by (apply (Z dy); [assumption|lra]). assert (z = 0) by (apply (Z dz); [assumption|lra]). assert (ux = 0) by (apply (Z m); [assumption|lra]). assert (uy = 0) by (apply (Z m); [assumption|lra]). assert (uz = 0) by (apply (Z m); [assumption|lra]). subst.
  unfold twist_zeros, zeros3. rnum. apply twist_eq; cbn [linear angular]; [|reflexivity]. unfold u, balance_velocity, point_velocity, velocity_of in E. cbn [fst snd linear angular center_of_mass] in E. destruct l as [[lx ly] lz], c as [[cx cy] cz]. unfold together, outer in E. injection E as E1 E2 E3. apply point_eq; lra.
Qed.
(** Construction only looks at the diagonal and the symmetry: it accepts a body with negative kinetic energy, which turned a little no
    longer meets its own conditions. *)
Definition lopsided : inertia R := Inertia 1 (0, 0, 0) [[1; 2; 0]; [2; 1; 0]; [0; 0; 1]].
Definition some_turn : se3 R := SE3 (Quat (4 / 5) 0 0 (3 / 5)) (0, 0, 0).
Theorem C108_positive_refuted : inertia_new (T := R) (mass lopsided) (center_of_mass lopsided) (rotational_inertia lopsided) = Ok lopsided /\
  kinetic_energy lopsided (Twist (0, 0, 0) (1, -1, 0)) < 0 /\ unit_se3 some_turn /\
  let b := act_inertia some_turn lopsided in ~ exists c, inertia_new (T := R) (mass b) (center_of_mass b) (rotational_inertia b) = Ok c.
Proof.
  split; [|split; [|split]].
  - destruct (proj2 (C108_new (mass lopsided) (center_of_mass lopsided) (rotational_inertia lopsided))) as [b E].
    + split; [cbn; lra|]. split; [intros i Hi; three i; cbn; lra|]. intros i j Hij. pose proof small_bound. fold small. assert (Cs : (i = 0 /\ j = 1 \/ i = 0 /\ j = 2 \/ i = 1 /\ j = 2)%nat) by lia. assert (X : mget (rotational_inertia lopsided) i j - mget (rotational_inertia lopsided) j i = 0) by (destruct Cs as [[-> ->]|[[-> ->]|[-> ->]]]; cbn; ring). rewrite X, Rabs_R0. pose proof (Rmax_r (Rmax (Rabs (mget (rotational_inertia lopsided) i j)) (Rabs (mget (rotational_inertia lopsided) j i))) 1). apply Rmult_le_pos; lra.
    + rewrite E. unfold inertia_new in E. repeat match type of E with (if ?x then _ else _) = _ => destruct x; [discriminate|] end. injection E as <-. reflexivity.
  - rewrite kinetic_energy_split. unfold balance_velocity, point_velocity, velocity_of, carried, times, bsum, lopsided. cbn. unfold inner, together, outer. lra.
  - unfold unit_se3, unit_quaternion. cbn. lra.
  - cbv zeta. intros H. apply C108_new in H as (_ & D & _). specialize (D 0%nat ltac:(lia)). rewrite act_inertia_rotational in D by lia. revert D. unfold product, transposed, bsum, to_rotation_matrix, mget, some_turn, lopsided. cbn [rotational_inertia se3_rotation qw qx qy qz nth]. rnum. lra.
Qed.
Example C108_example : describes (Inertia 4 (1, 0, 0) [[0; 0; 0]; [0; 4; 0]; [0; 0; 4]]) [(2, (0, 0, 0)); (2, (2, 0, 0))] /\ 4 + 4 <> 0 /\ unit_se3 some_turn /\
  exists b, from_diagonal_inertia (T := R) 2 (0, 0, / 10) (1, 2, 3) = Ok b.
Proof.
  split; [|split; [lra|split]].
  - split; [cbn; ring|]. split; [cbn; apply point_eq; ring|]. intros i j Hi Hj. unfold spread, displaced. cbn [total fold_right fst snd center_of_mass]. unfold together, multiple, inner, coordinate. three i; three j; cbn; ring.
  - unfold unit_se3, unit_quaternion. cbn. lra.
  - apply C108_diagonal. split; [lra|]. intros i Hi. three i; cbn; lra.
Qed.
(** A pose that follows a velocity: spinning about the upward axis while climbing. *)
Example C108_motion_example : let pose := fun s => SE3 (Quat (cos (s / 2)) 0 0 (sin (s / 2))) (0, 0, s) in let v := Twist (0, 0, 1) (0, 0, 1) in
  (forall s, unit_se3 (pose s)) /\ forall t i j, (i < 4)%nat -> (j < 4)%nat -> is_derive (fun s => mget (se3_to_matrix (pose s)) i j) t (product 4 (mget (se3_to_matrix (pose t))) (velocity_matrix (velocity_of v)) i j).
Proof.
  cbv zeta. split.
  - intros s. unfold unit_se3, unit_quaternion. cbn. pose proof (sin2_cos2 (s / 2)) as H. unfold Rsqr in H. lra.
  - intros t i j Hi Hj. eapply is_derive_ext; [intros s; symmetry; apply se3_matrix_R; auto|]. cbn [se3_rotation se3_translation]. unfold product, bsum. rewrite !se3_matrix_R by lia. cbn [se3_rotation se3_translation]. unfold homogeneous, stacked, column, velocity_matrix, velocity_of, to_rotation_matrix, mget, unit_matrix, zero_matrix, cross_matrix, coordinate, stacked, column. cbn [fst snd linear angular]. rnum.
    pose proof (sin2_cos2 (t / 2)) as H. unfold Rsqr in H. four_i i; four_i j; cbn [Nat.ltb Nat.leb Nat.eqb Nat.sub nth qw qx qy qz fst snd]; auto_derive; auto; unfold Rdiv, coordinate in *; cbn [nth]; lra.
Qed.

(** ** C109 *)
(** A free body's state survives being written as numbers and read back; whatever is read has the place and velocity given and the
    orientation scaled to norm one, and nothing is read when the orientation's norm is at most 2^-52. *)
Theorem C109_round_trip s : unit_se3 (fj_pose s) -> from_generalized_vectors (fst (generalized_position s)) (snd (generalized_position s)) (generalized_velocity (T := R) s) = Some s.
Proof.
  intros U. unfold from_generalized_vectors, generalized_position, generalized_velocity. cbn [fst snd]. destruct s as [[q p] [l a]]. cbn [fj_pose fj_velocity se3_rotation se3_translation]. unfold unit_se3 in U. cbn in U. replace (quat_from_array (quat_as_array q)) with q by (destruct q; reflexivity). rewrite (try_normalized_unit q U). unfold so3_from_quaternion. rewrite (normalized_unit q U). reflexivity.
Qed.
Lemma quat_norm_square (q : quaternion R) : 0 <= quat_norm q /\ quat_norm q * quat_norm q = qw q * qw q + qx q * qx q + qy q * qy q + qz q * qz q.
Proof.
  destruct q as [w x y z]. unfold quat_norm, quat_norm_squared. cbn [qw qx qy qz]. rnum. pose proof (Rle_0_sqr w). pose proof (Rle_0_sqr x). pose proof (Rle_0_sqr y). pose proof (Rle_0_sqr z). unfold Rsqr in *. split; [apply sqrt_pos|]. apply sqrt_sqrt. lra.
Qed.
Theorem C109_reading place w x y z v :
  (forall s, from_generalized_vectors (T := R) place (w, x, y, z) v = Some s -> se3_translation (fj_pose s) = place /\ velocity_of (fj_velocity s) = v /\ unit_se3 (fj_pose s) /\
     exists k, 0 < k /\ se3_rotation (fj_pose s) = Quat (k * w) (k * x) (k * y) (k * z)) /\
  (from_generalized_vectors (T := R) place (w, x, y, z) v = None <-> w * w + x * x + y * y + z * z <= / IZR (2^52) * / IZR (2^52)).
Proof.
  unfold from_generalized_vectors, quat_try_normalized, quat_from_array. destruct (quat_norm_square (Quat w x y z)) as [N S]. cbn [qw qx qy qz] in S. set (n := quat_norm _) in *. clearbody n. pose proof eps_small as E. rnum. cbn [negb orb]. unfold Rleb. destruct (Rle_dec n (/ IZR (2^52))) as [L|L].
  - split; [intros s H; discriminate|]. split; [intros _|reflexivity]. rewrite <- S. apply Rmult_le_compat; assumption.
  - assert (P : 0 < n) by lra. split.
    + intros s H. injection H as <-. pose proof (Rinv_0_lt_compat _ P) as K. assert (U : unit_quaternion (quat_scale (Quat w x y z) (/ n))).
      { unfold unit_quaternion, quat_scale. cbn [qw qx qy qz]. rnum. transitivity ((w * w + x * x + y * y + z * z) * (/ n * / n)); [ring|]. rewrite <- S. field. lra. }
      unfold so3_from_quaternion. rewrite (normalized_unit _ U). cbn [fj_pose fj_velocity se3_translation se3_rotation]. split; [reflexivity|]. split; [destruct v; reflexivity|]. split; [exact U|].
      exists (/ n). split; [exact K|]. unfold quat_scale. cbn [qw qx qy qz]. rnum. apply quat_eq; cbn [qw qx qy qz]; ring.
    + split; [discriminate|]. intros H. exfalso. rewrite <- S in H. assert (/ IZR (2^52) * / IZR (2^52) < n * n) by (apply Rmult_le_0_lt_compat; lra). lra.
Qed.
(** The documentation says only the zero quaternion is refused; a tiny one is refused as well. *)
Theorem C109_refusal_refuted : exists w x y z, (w, x, y, z) <> (0, 0, 0, 0) /\ forall place v, from_generalized_vectors (T := R) place (w, x, y, z) v = None.
Proof.
  exists (/ IZR (2^52)), 0, 0, 0. pose proof eps_small. split; [intros H'; injection H' as H'; lra|]. intros place v. apply C109_reading. lra.
Qed.
Example C109_example : unit_se3 (fj_pose (FreeJoint some_turn (Twist (1, 2, 3) (4, 5, 6)))) /\ exists s, from_generalized_vectors (T := R) (1, 2, 3) (3, 0, 4, 0) ((0, 0, 0), (1, 0, 0)) = Some s.
Proof.
  split; [unfold unit_se3, unit_quaternion; cbn; lra|]. destruct (from_generalized_vectors _ _ _) as [s|] eqn:E; [exists s; reflexivity|]. apply C109_reading in E. pose proof eps_small. assert (/ IZR (2^52) * / IZR (2^52) <= 1 * 1) by (apply Rmult_le_compat; lra). lra.
Qed.

Print Assumptions C108_particles.
Print Assumptions C108_combined.
Print Assumptions C108_moved.
Print Assumptions C108_momentum.
Print Assumptions C108_frames.
Print Assumptions C108_equation_of_motion.
Print Assumptions C108_new.
Print Assumptions C108_diagonal.
Print Assumptions C108_diagonal_energy.
Print Assumptions C108_positive_refuted.
Print Assumptions C109_round_trip.
Print Assumptions C109_reading.
Print Assumptions C109_refusal_refuted.
