(** C151 a free rigid body: Newton's laws for its particles, momentum and energy, and the tick. *)
From Coq Require Import ZArith List Bool Arith Reals Lra Lia.
From Coquelicot Require Import Coquelicot.
From Verif Require Import Base.Scalar Base.RNum Base.Lists Base.Series Model.Errors Model.Vector Model.Matrix Model.Lu Model.Cholesky Model.Quaternion Model.Lie Model.Ode Model.RigidBody
  Spec.Space Spec.Matrix Spec.Rotation Spec.Quaternion Spec.Inertia Spec.MatrixExp Spec.AttitudeControl Spec.RigidBody Proofs.Matrix Proofs.Algebra Proofs.Quaternion Proofs.Rotation Proofs.Space Proofs.Screw Proofs.Attitude Proofs.Slerp Proofs.Inertia Proofs.RigidBody
  Props.Cholesky Props.Lu Props.Inertia Props.AttitudeStep.
Import ListNotations.
Local Open Scope R_scope.
Local Notation sqrt := R_sqrt.sqrt.
Local Notation cos := Rtrigo_def.cos.
Local Notation sin := Rtrigo_def.sin.

(** ** Building the body *)
Theorem C151_finite {T} {NT : Num T} (b : inertia T) (g : vec3 T) :
  (rigid_body_new b g = Err DyNonFinite <-> inertia_is_finite b = false \/ is_finite3 g = false) /\
  (forall body, rigid_body_new b g = Ok body -> rb_inertia body = b /\ rb_gravity body = g).
Proof.
  unfold rigid_body_new. destruct (inertia_is_finite b), (is_finite3 g); cbn [negb orb]; try (split; [split; [auto|reflexivity]|intros body H; discriminate]).
  split.
  - split; [|intros [H|H]; discriminate]. destruct (cholesky 3 _) as [l|e|]; [destruct (mat_inverse 3 _) as [i|e|]| |]; discriminate.
  - intros body. destruct (cholesky 3 _) as [l|e|]; [destruct (mat_inverse 3 _) as [i|e|]| |]; try discriminate. intros H. injection H as <-. split; reflexivity.
Qed.
(** The body is refused as having no positive inertia exactly when some turning rate has no energy; what is built carries an inverse of the
    rotational inertia, and a body far from singular is built. *)
Theorem C151_new (b : inertia R) (g : point) : shape 3 3 (rotational_inertia b) -> symmetric 3 (mget (rotational_inertia b)) ->
  (rigid_body_new b g = Err DyNonPositiveInertia <-> ~ positive_definite 3 (mget (rotational_inertia b))) /\
  (forall body, rigid_body_new b g = Ok body -> positive_definite 3 (mget (rotational_inertia b)) /\ rb_inertia body = b /\ rb_gravity body = g /\
     equal 3 3 (product 3 (mget (rotational_inertia b)) (mget (rb_inverse body))) unit_matrix /\ equal 3 3 (product 3 (mget (rb_inverse body)) (mget (rotational_inertia b))) unit_matrix) /\
  (forall largest, positive_definite 3 (mget (rotational_inertia b)) -> (forall i j, (i < 3)%nat -> (j < 3)%nat -> Rabs (mget (rotational_inertia b) i j) <= largest) ->
     / IZR (2^52) * 3 * largest ^ 3 < Rabs (det 3 (mget (rotational_inertia b))) -> exists body, rigid_body_new b g = Ok body).
Proof.
  intros H Sy. destruct (C79_accepts 3 _ H Sy) as [A B].
  assert (F : rigid_body_new b g = match cholesky 3 (rotational_inertia b) with Ok _ => match mat_inverse 3 (rotational_inertia b) with Ok inverse => Ok {| rb_inertia := b; rb_inverse := inverse; rb_gravity := g |} | Err e => Err (DyLinalg e) | Panic => Panic end | Err _ => Err DyNonPositiveInertia | Panic => Panic end).
  { unfold rigid_body_new. replace (inertia_is_finite b) with true; [|symmetry; unfold inertia_is_finite; destruct (center_of_mass b) as [[? ?] ?]; unfold mat_is_finite; apply forallb_forall; intros y _; reflexivity]. destruct g as [[? ?] ?]. reflexivity. }
  rewrite F. clear F. pose proof (C78_inverse 3 (rotational_inertia b)) as I. pose proof (C78_accepts 3 (rotational_inertia b)) as J. destruct (cholesky 3 (rotational_inertia b)) as [l|e|].
  - assert (P : positive_definite 3 (mget (rotational_inertia b))) by (apply A; exists l; reflexivity). destruct (mat_inverse 3 (rotational_inertia b)) as [i|e|].
    + split; [split; [discriminate|contradiction]|]. split; [intros body Q; injection Q as <-; destruct (I i H eq_refl) as (_ & E1 & E2); auto|]. intros; eexists; reflexivity.
    + split; [split; [discriminate|contradiction]|]. split; [discriminate|]. intros largest _ L D. destruct (J largest H ltac:(lia) L) as [y Hy]; [|discriminate]. change (INR 3) with (2 + 1 : R). replace (2 + 1) with 3 by lra. exact D.
    + split; [split; [discriminate|contradiction]|]. split; [discriminate|]. intros largest _ L D. destruct (J largest H ltac:(lia) L) as [y Hy]; [|discriminate]. change (INR 3) with (2 + 1 : R). replace (2 + 1) with 3 by lra. exact D.
  - assert (N : ~ positive_definite 3 (mget (rotational_inertia b))) by (intros P; apply A in P as [l P]; discriminate). split; [split; [intros _; exact N|reflexivity]|]. split; [discriminate|]. intros; contradiction.
  - assert (N : ~ positive_definite 3 (mget (rotational_inertia b))) by (intros P; apply A in P as [l P]; discriminate). exfalso. apply B in N. discriminate.
Qed.

Section Body.
Variables (b : inertia R) (g : point) (c : cloud) (body : rigid_body R).
Hypothesis Shape : shape 3 3 (rotational_inertia b).
Hypothesis Built : rigid_body_new b g = Ok body.
Hypothesis Particles : describes b c.
Hypothesis Mass : mass b <> 0.
Lemma built : exists inv, body = {| rb_inertia := b; rb_inverse := inv; rb_gravity := g |} /\ equal 3 3 (product 3 (mget (rotational_inertia b)) (mget inv)) unit_matrix /\ equal 3 3 (product 3 (mget inv) (mget (rotational_inertia b))) unit_matrix.
Proof.
  revert Built. unfold rigid_body_new. destruct (negb _ || negb _)%bool; [discriminate|]. destruct (cholesky 3 _) as [l|e|]; try discriminate. destruct (mat_inverse 3 _) as [i|e|] eqn:E; try discriminate. intros H. injection H as <-. destruct (C78_inverse 3 _ i Shape E) as (_ & E1 & E2). exists i. auto.
Qed.

(** ** Newton's laws *)
(** The accelerations computed are the only ones for which mass times acceleration of all the particles, less gravity's share, adds up to
    the force, and their moments about the body's origin to the torque. *)
Theorem C151_newton q w load a alpha : unit_quaternion q ->
  (obeys_newton c g q w load a alpha <-> a = ba_linear (accelerations body q w load) /\ alpha = ba_angular (accelerations body q w load)).
Proof. intros U. destruct built as (inv & E & I1 & I2). rewrite E. apply (newton_iff b inv g c Particles Mass I1 I2 _ _ _ _ _ U). Qed.

Section Motion.
Variables (load : R -> wrench R) (x : R -> list R).
Hypothesis Moves : body_motion body load x.
Hypothesis Start : unit_quaternion (facing_of (x 0)).
(** Along a motion by the state derivative the orientation stays a rotation and every particle moves by Newton's laws: the velocity read from
    the state is the rate of change of its place, and its acceleration obeys the laws. *)
Theorem C151_particles t : unit_quaternion (facing_of (x t)) /\
  exists a alpha, obeys_newton c g (facing_of (x t)) (rate_of (x t)) (load t) a alpha /\ forall r, changes (fun s => particle_place (x s) r) t (particle_velocity (x t) r) /\
    changes (fun s => particle_velocity (x s) r) t (particle_acceleration (facing_of (x t)) (rate_of (x t)) a alpha r).
Proof.
  destruct built as (inv & E & I1 & I2). revert Moves. rewrite E. intros Mo. split; [eapply facing_unit; eauto|]. eexists _, _. split; [eapply newton_along; eauto|]. intros r. split; [eapply place_changes; eauto|eapply velocity_changes; eauto].
Qed.
(** Momentum changes by the force and the weight, its moment about the world's origin by theirs, energy by the power of force and torque. *)
Theorem C151_momentum t : let q := facing_of (x t) in
  changes (fun s => particle_momentum c (x s)) t (together (transform_point q (force (load t))) (multiple (mass b) g)) /\
  changes (fun s => particle_spin c (x s)) t (together (together (outer (origin_of (x t)) (transform_point q (force (load t)))) (transform_point q (torque (load t))))
    (outer (total_point (fun p => multiple (fst p) (particle_place (x t) (snd p))) c) g)) /\
  is_derive (fun s => particle_energy c g (x s)) t (inner (speed_of (x t)) (transform_point q (force (load t))) + inner (transform_point q (rate_of (x t))) (transform_point q (torque (load t)))).
Proof.
  destruct built as (inv & E & I1 & I2). revert Moves. rewrite E. intros Mo. cbv zeta. split; [eapply momentum_changes; eauto|]. split; [eapply spin_changes; eauto|eapply energy_changes; eauto].
Qed.
(** A body left alone keeps its energy; without gravity also its momentum and the moment of it. *)
Theorem C151_conserved t : (forall s, load s = Wrench (0, 0, 0) (0, 0, 0)) ->
  particle_energy c g (x t) = particle_energy c g (x 0) /\ (g = (0, 0, 0) -> particle_momentum c (x t) = particle_momentum c (x 0) /\ particle_spin c (x t) = particle_spin c (x 0)).
Proof.
  intros Free. split.
  - apply (still_constant (fun s => particle_energy c g (x s))). intros s. pose proof (proj2 (proj2 (C151_momentum s))) as H. cbv zeta in H. rewrite Free in H. cbn [force torque] in H. rewrite transform_zero in H.
    match type of H with is_derive _ _ ?d => replace d with 0 in H; [exact H|] end. generalize (speed_of (x s)) (transform_point (facing_of (x s)) (rate_of (x s))). intros [[? ?] ?] [[? ?] ?]. cbn. ring.
  - intros G. destruct built as (inv & E & I1 & I2). revert Moves. rewrite E. intros Mo. split; [eapply momentum_kept; eauto|eapply spin_kept; eauto].
Qed.
End Motion.

(** ** One tick *)
(** The tick is the midpoint rule for Newton's laws: it reads the acceleration at the start, goes half way with it, and moves the whole state
    by the velocity, rate and acceleration there; the orientation is composed with the turn and stays a rotation. *)
Theorem C151_step (q : quaternion R) (p v w : point) load h : unit_quaternion q -> plain (multiple (h / 2) w) ->
  exists a alpha a' alpha', let half_facing := attitude_step q w (h / 2) in let half_rate := together w (multiple (h / 2) alpha) in
    obeys_newton c g q w load a alpha /\ unit_quaternion half_facing /\
    equal 3 3 (mget (to_rotation_matrix half_facing)) (product 3 (mget (to_rotation_matrix q)) (matrix_exp 3 (cross_matrix (multiple (h / 2) w)))) /\
    obeys_newton c g half_facing half_rate load a' alpha' /\
    let after := stepped body (FreeJoint (SE3 q p) (Twist v w)) load h in
    se3_translation (fj_pose after) = together p (multiple h (together v (multiple (h / 2) a))) /\ linear (fj_velocity after) = together v (multiple h a') /\
    angular (fj_velocity after) = together w (multiple h alpha') /\
    (plain (multiple h half_rate) -> unit_quaternion (se3_rotation (fj_pose after)) /\
      equal 3 3 (mget (to_rotation_matrix (se3_rotation (fj_pose after)))) (product 3 (mget (to_rotation_matrix q)) (matrix_exp 3 (cross_matrix (multiple h half_rate))))).
Proof.
  intros U P. destruct (C114_step q w (h / 2) U P) as [U2 E2]. set (first := accelerations body q w load). set (second := accelerations body (attitude_step q w (h / 2)) (together w (multiple (h / 2) (ba_angular first))) load).
  exists (ba_linear first), (ba_angular first), (ba_linear second), (ba_angular second). cbv zeta. split; [apply (C151_newton q w load _ _ U); split; reflexivity|]. split; [exact U2|]. split; [exact E2|].
  split; [apply (C151_newton _ _ load _ _ U2); split; reflexivity|]. unfold stepped. cbn [fj_pose fj_velocity se3_rotation se3_translation linear angular]. change (mul h half) with (h / 2). fold first. rewrite !add3_R, !Proofs.Quaternion.scale3_R. fold second.
  split; [reflexivity|]. split; [reflexivity|]. split; [reflexivity|]. intros P2. apply C114_step; assumption.
Qed.
Lemma still_step (q : quaternion R) h : attitude_step q (0, 0, 0) h = q.
Proof.
  rewrite step_R. replace (multiple h (0, 0, 0)) with (0, 0, 0) by (cbn; apply point_eq; ring). rewrite from_scaled_axis_small.
  - rewrite length_origin. replace (from_scalar_vector _ _) with (@quat_identity R Rnum); [apply mul_identity_r|]. unfold from_scalar_vector, multiple, quat_identity. cbn. rnum. f_equal; field.
  - rewrite length_origin. apply small_bound.
Qed.
Lemma carried_origin m : carried m (0, 0, 0) = (0, 0, 0).
Proof. unfold carried, times, bsum, coordinate. cbn. apply point_eq; ring. Qed.
Lemma carried_multiple m k u : carried m (multiple k u) = multiple k (carried m u).
Proof. destruct u as [[x y] z]. unfold carried, times, bsum, coordinate. cbn. apply point_eq; ring. Qed.
Lemma falling q : accelerations body q (0, 0, 0) (Wrench (0, 0, 0) (0, 0, 0)) = {| ba_linear := g; ba_angular := (0, 0, 0) |}.
Proof.
  destruct built as (inv & E & _). rewrite E, accelerations_R. cbv zeta. cbn [force torque]. rewrite carried_origin.
  assert (Z : forall u : point, outer u (0, 0, 0) = (0, 0, 0) /\ outer (0, 0, 0) u = (0, 0, 0)) by (intros [[x y] z]; cbn; split; apply point_eq; ring). rewrite !(proj1 (Z _)), !(proj2 (Z _)).
  assert (Y : forall k, multiple k (0, 0, 0) = (0, 0, 0)) by (intros k; cbn; apply point_eq; ring). assert (X : forall u, together u (0, 0, 0) = u /\ together (0, 0, 0) u = u) by (intros [[x y] z]; cbn; split; apply point_eq; ring).
  repeat first [rewrite Y | rewrite (proj1 (X _)) | rewrite (proj2 (X _)) | rewrite carried_origin | rewrite (proj1 (Z _)) | rewrite (proj2 (Z _)) | rewrite transform_zero]. reflexivity.
Qed.
(** Let go without spin, the body is after any number of ticks exactly where a falling body is. *)
Theorem C151_fall q p v h n : Nat.iter n (fun s => stepped body s (Wrench (0, 0, 0) (0, 0, 0)) h) (FreeJoint (SE3 q p) (Twist v (0, 0, 0))) =
  FreeJoint (SE3 q (together p (together (multiple (INR n * h) v) (multiple ((INR n * h) * (INR n * h) / 2) g)))) (Twist (together v (multiple (INR n * h) g)) (0, 0, 0)).
Proof.
  induction n as [|n IH].
  - cbn [Nat.iter nat_rect INR]. clear. f_equal; f_equal; [|]; symmetry; flatg; lra.
  - cbn [Nat.iter nat_rect]. unfold Nat.iter in IH. rewrite IH. unfold stepped. cbn [fj_pose fj_velocity se3_rotation se3_translation linear angular]. change (mul h half) with (h / 2). rewrite !add3_R, !Proofs.Quaternion.scale3_R, falling. cbn [ba_linear ba_angular].
    replace (together (0, 0, 0) (multiple (h / 2) (0, 0, 0))) with (0, 0, 0) by (cbn; apply point_eq; ring). rewrite !still_step, falling. cbn [ba_linear ba_angular]. rewrite S_INR. clear. f_equal; f_equal; flatg; field.
Qed.
Lemma spinning axis j tau : center_of_mass b = (0, 0, 0) -> carried (mget (rotational_inertia b)) axis = multiple j axis -> j <> 0 ->
  forall u k, accelerations body u (multiple k axis) (Wrench (0, 0, 0) (multiple tau axis)) = {| ba_linear := g; ba_angular := multiple (tau / j) axis |}.
Proof.
  intros C0 Ax J. intros u k. destruct built as (inv & E & I1 & I2). rewrite E, accelerations_R. cbv zeta. cbn [force torque]. rewrite C0, carried_multiple, Ax.
    assert (IA : carried (mget inv) axis = multiple (/ j) axis). { assert (H : carried (mget inv) (carried (mget (rotational_inertia b)) axis) = axis) by (apply inv_I; exact I2). rewrite Ax, carried_multiple in H. rewrite <- H at 2. generalize (carried (mget inv) axis). intros [[? ?] ?]. cbn. apply point_eq; field; exact J. }
    assert (Tq : together (together (multiple tau axis) (multiple (-1) (outer (0, 0, 0) (0, 0, 0)))) (multiple (-1) (outer (multiple k axis) (multiple k (multiple j axis)))) = multiple tau axis) by (clear; flatg). rewrite Tq, carried_multiple, IA, transform_zero.
    assert (Zr : together (outer (multiple tau (multiple (/ j) axis)) (0, 0, 0)) (outer (multiple k axis) (outer (multiple k axis) (0, 0, 0))) = (0, 0, 0)) by (clear; flatg). rewrite Zr, transform_zero. f_equal; clear; flatg; unfold Rdiv; ring.
Qed.
(** Spinning about an axis of the body through its balance point and the origin, with a steady torque about that axis, the tick is exact: the
    rate and the angle are those of a steadily accelerated wheel, and the origin falls. *)
Theorem C151_spin axis j q p v w tau h : center_of_mass b = (0, 0, 0) -> carried (mget (rotational_inertia b)) axis = multiple j axis -> j <> 0 -> unit_quaternion q ->
  plain (multiple (h * w + h * h / 2 * (tau / j)) axis) ->
  let after := stepped body (FreeJoint (SE3 q p) (Twist v (multiple w axis))) (Wrench (0, 0, 0) (multiple tau axis)) h in
  angular (fj_velocity after) = multiple (w + h * (tau / j)) axis /\ linear (fj_velocity after) = together v (multiple h g) /\
  se3_translation (fj_pose after) = together p (together (multiple h v) (multiple (h * h / 2) g)) /\ unit_quaternion (se3_rotation (fj_pose after)) /\
  equal 3 3 (mget (to_rotation_matrix (se3_rotation (fj_pose after)))) (product 3 (mget (to_rotation_matrix q)) (matrix_exp 3 (cross_matrix (multiple (h * w + h * h / 2 * (tau / j)) axis)))).
Proof.
  intros C0 Ax J U P. pose proof (fun u k => spinning axis j tau C0 Ax J u k) as Acc.
  cbv zeta. unfold stepped. cbn [fj_pose fj_velocity se3_rotation se3_translation linear angular]. change (mul h half) with (h / 2). rewrite !add3_R, !Proofs.Quaternion.scale3_R, Acc. cbn [ba_linear ba_angular].
  assert (K : together (multiple w axis) (multiple (h / 2) (multiple (tau / j) axis)) = multiple (w + h / 2 * (tau / j)) axis) by (clear; flatg). rewrite K, Acc. cbn [ba_linear ba_angular].
  assert (L : multiple h (multiple (w + h / 2 * (tau / j)) axis) = multiple (h * w + h * h / 2 * (tau / j)) axis) by (clear - J; flatg; field; exact J).
  split; [clear; flatg|]. split; [reflexivity|]. split; [clear; flatg; field|]. rewrite <- L in P |- *. apply C114_step; assumption.
Qed.
End Body.

(** ** The thirteen numbers *)
(** The squared length of the four orientation numbers never changes along a motion, whatever it is at the start. *)
Theorem C151_norm (body : rigid_body R) load x t : body_motion body load x -> quat_norm_squared (facing_of (x t)) = quat_norm_squared (facing_of (x 0)).
Proof. intros Mo. destruct body as [b inv g]. apply (norm_constant b inv g load x Mo). Qed.
(** The derivative reads only the direction of the four orientation numbers: place changes by the velocity, the four numbers by half their
    product with the rate, velocity and rate by the accelerations for the orientation scaled to unit length. *)
Theorem C151_derivative (body : rigid_body R) (q : quaternion R) k p v w load : unit_quaternion q -> / IZR (2^52) < k ->
  let x := list3 p ++ [k * qw q; k * qx q; k * qy q; k * qz q] ++ list3 v ++ list3 w in
  let turn := quat_mul q (from_scalar_vector 0 w) in
  state_derivative body x load = list3 v ++ [k / 2 * qw turn; k / 2 * qx turn; k / 2 * qy turn; k / 2 * qz turn] ++
    list3 (ba_linear (accelerations body q w load)) ++ list3 (ba_angular (accelerations body q w load)).
Proof.
  intros U K. cbv zeta. assert (Kp : 0 < k). { pose proof (Rinv_0_lt_compat (IZR (2^52)) ltac:(apply IZR_lt; reflexivity)). lra. } destruct body as [b inv g]. destruct p as [[p0 p1] p2], v as [[v0 v1] v2], w as [[w0 w1] w2]. cbn [list3 app].
  set (x := [p0; p1; p2; k * qw q; k * qx q; k * qy q; k * qz q; v0; v1; v2; w0; w1; w2]).
  assert (F : facing_of x = quat_scale q k). { unfold facing_of, x, quat_scale. cbn [nth]. rnum. f_equal; ring. }
  assert (Tn : quat_try_normalized (facing_of x) = Some q).
  { rewrite F. unfold quat_try_normalized. assert (N : quat_norm (quat_scale q k) = k). { unfold quat_norm. replace (quat_norm_squared (quat_scale q k)) with (k * k * quat_norm_squared q) by (unfold quat_norm_squared, quat_scale; cbn [qw qx qy qz]; rnum; ring). rewrite (proj1 (unit_is q) U) || rewrite (proj2 (unit_is q) U). rnum. rewrite Rmult_1_r. apply sqrt_square. lra. }
    rewrite N. rnum. unfold Rleb. destruct (Rle_dec k (/ IZR (2^52))); [lra|]. cbn [negb orb]. f_equal. destruct q as [a0 a1 a2 a3]. unfold quat_scale. cbn [qw qx qy qz]. rnum. f_equal; field; lra. }
  rewrite (derivative_shape b inv g x load q Tn). unfold so3_from_quaternion. rewrite (normalized_unit q U). change (rate_of x) with (w0, w1, w2). rewrite F. cbn [nth x]. unfold x. cbn [nth]. cbv zeta. cbn [app].
  do 3 (apply (f_equal2 cons); [reflexivity|]). unfold quat_scale, quat_mul, from_scalar_vector. cbn [qw qx qy qz]. rnum. do 4 (apply (f_equal2 cons); [field|]). reflexivity.
Qed.
(** Only when the four numbers are all but zero is the whole derivative zero, and then it is, however fast the body moves. *)
Theorem C151_unreadable (body : rigid_body R) (x : list R) load :
  qw (facing_of x) * qw (facing_of x) + qx (facing_of x) * qx (facing_of x) + qy (facing_of x) * qy (facing_of x) + qz (facing_of x) * qz (facing_of x) <= / IZR (2^52) * / IZR (2^52) ->
  state_derivative body x load = repeat 0 13.
Proof.
  intros H. destruct body as [b inv g]. apply derivative_unreadable. unfold quat_try_normalized. destruct (quat_norm_square (facing_of x)) as [N S]. rewrite <- S in H. set (n := quat_norm _) in *. clearbody n. rnum. unfold Rleb. destruct (Rle_dec n (/ IZR (2^52))) as [L|L]; [cbn; reflexivity|]. exfalso.
  assert (E : 0 < / IZR (2^52)) by (apply Rinv_0_lt_compat, IZR_lt; reflexivity). apply Rnot_le_lt in L. pose proof (Rmult_gt_0_lt_compat (/ IZR (2^52)) n (/ IZR (2^52)) n). lra.
Qed.
(** Writing a state into thirteen numbers and reading it back gives the state. *)
Theorem C151_round_trip (s : free_joint R) : unit_se3 (fj_pose s) -> free_joint_from_state_vector (state_vector_from_free_joint s) = Some s /\ List.length (state_vector_from_free_joint s) = 13%nat /\
  origin_of (state_vector_from_free_joint s) = se3_translation (fj_pose s) /\ facing_of (state_vector_from_free_joint s) = se3_rotation (fj_pose s) /\
  speed_of (state_vector_from_free_joint s) = linear (fj_velocity s) /\ rate_of (state_vector_from_free_joint s) = angular (fj_velocity s).
Proof.
  intros U. pose proof (C109_round_trip s U) as R. destruct s as [[[a0 a1 a2 a3] [[p0 p1] p2]] [[[l0 l1] l2] [[w0 w1] w2]]]. split; [exact R|]. repeat split.
Qed.

(** A thin body is refused although its rotational inertia is positive definite and has an inverse: the test is on the size of the determinant. *)
Lemma diagonal_definite x y z : 0 < x -> 0 < y -> 0 < z -> positive_definite 3 (mget [[x; 0; 0]; [0; y; 0]; [0; 0; z]]).
Proof.
  intros X Y Z v (i & Hi & Hv). unfold dot_product, times, bsum, mget. cbn [nth]. match goal with |- 0 < ?e => replace e with (x * (v 0%nat * v 0%nat) + y * (v 1%nat * v 1%nat) + z * (v 2%nat * v 2%nat)) by (cbn; ring) end.
  pose proof (Rle_0_sqr (v 0%nat)) as A. pose proof (Rle_0_sqr (v 1%nat)) as B. pose proof (Rle_0_sqr (v 2%nat)) as C. unfold Rsqr in *. pose proof (Rmult_le_pos x _ (Rlt_le _ _ X) A). pose proof (Rmult_le_pos y _ (Rlt_le _ _ Y) B). pose proof (Rmult_le_pos z _ (Rlt_le _ _ Z) C).
  pose proof (Rsqr_pos_lt _ Hv) as P. unfold Rsqr in P. three i; [pose proof (Rmult_lt_0_compat x _ X P)|pose proof (Rmult_lt_0_compat y _ Y P)|pose proof (Rmult_lt_0_compat z _ Z P)]; lra.
Qed.
Lemma thin_size : 0 < / 10 ^ 16 < / IZR (2^52).
Proof. split; [apply Rinv_0_lt_compat, pow_lt; lra|]. apply Rinv_lt_contravar; [apply Rmult_lt_0_compat; [apply IZR_lt; reflexivity|apply pow_lt; lra]|]. replace (10 ^ 16) with (IZR (10 ^ 16)) by (change (10 ^ 16)%Z with (10 ^ Z.of_nat 16)%Z; rewrite <- pow_IZR; reflexivity). apply IZR_lt. reflexivity. Qed.
Theorem C151_thin_refuted g : exists b, from_diagonal_inertia (T := R) 1 (0, 0, 0) (1, 1, / 10 ^ 16) = Ok b /\ positive_definite 3 (mget (rotational_inertia b)) /\ det 3 (mget (rotational_inertia b)) <> 0 /\
  rigid_body_new b g = Err (DyLinalg LaSingular).
Proof.
  pose proof thin_size as [E1 E2]. set (e := / 10 ^ 16) in *. clearbody e. set (m := [[1; 0; 0]; [0; 1; 0]; [0; 0; e]]). exists (Inertia 1 (0, 0, 0) m).
  assert (Pd : positive_definite 3 (mget m)) by (apply diagonal_definite; lra).
  assert (Sh : shape 3 3 m) by (split; [reflexivity|]; intros i Hi; three i; reflexivity). assert (Sy : symmetric 3 (mget m)) by (intros i j Hi Hj; three i; three j; reflexivity).
  assert (Dt : det 3 (mget m) = e) by (unfold det, m, mget; cbn; rnum; ring).
  split; [|split; [exact Pd|split; [cbn [rotational_inertia]; rewrite Dt; lra|]]].
  - destruct (proj2 (C108_diagonal 1 (0, 0, 0) (1, 1, e))) as [b Hb]; [split; [lra|]; intros i Hi; three i; cbn; lra|]. rewrite Hb. revert Hb. unfold from_diagonal_inertia, inertia_new. repeat (match goal with |- (if ?x then _ else _) = _ -> _ => destruct x; [discriminate|] end). intros H. rewrite <- H. reflexivity.
  - destruct (proj2 (proj1 (C79_accepts 3 m Sh Sy)) Pd) as [l Hl]. unfold rigid_body_new. destruct g as [[g0 g1] g2]. cbn [rotational_inertia]. replace (inertia_is_finite _) with true by reflexivity. cbn [is_finite3]. rnum. cbn [negb orb andb]. rewrite Hl.
    unfold mat_inverse, inverse_3x3. rewrite <- (C77_determinant 3 m Sh) in Dt. change (determinant 3 m) with (determinant_3x3 m) in Dt. rewrite Dt.
    replace (det_near_singular e (max_abs m) 3) with true; [reflexivity|].
    symmetry. destruct (Props.Lu.max_abs_spec 3 3 m Sh) as (M0 & M1 & _). specialize (M1 0%nat 0%nat ltac:(lia) ltac:(lia)). change (mget m 0 0) with 1 in M1. rewrite Rabs_R1 in M1. set (k := max_abs m) in *. clearbody k. unfold det_near_singular, of_nat. rnum. apply Rleb_true. rewrite Rabs_right by lra.
    replace (powi k (Z.of_nat 3)) with (k ^ 3) by (cbn; rnum; ring). pose proof (pow_R1_Rle k 3 M1) as K. change (IZR (Z.of_nat 3)) with 3. pose proof (Rmult_le_compat_l (/ IZR (2^52) * 3) 1 (k ^ 3) ltac:(lra) K). lra.
Qed.

Definition six_corners : cloud := [(1, (1, 0, 0)); (1, (-1, 0, 0)); (1, (0, 1, 0)); (1, (0, -1, 0)); (1, (0, 0, 1)); (1, (0, 0, -1))].
Definition jack : inertia R := Inertia 6 (0, 0, 0) [[4; 0; 0]; [0; 4; 0]; [0; 0; 4]].
Definition jack_motion (s : R) : list R := [0; 0; - (5 * (s * s)); cos (s * s / 4); 0; 0; sin (s * s / 4); 0; 0; - (10 * s); 0; 0; s].
Lemma jack_shape : shape 3 3 (rotational_inertia jack).
Proof. split; [reflexivity|]. intros i Hi. three i; reflexivity. Qed.
Lemma jack_built : exists body, rigid_body_new jack (0, 0, -10) = Ok body.
Proof.
  destruct (C151_new jack (0, 0, -10) jack_shape) as (_ & _ & H); [intros i j Hi Hj; three i; three j; reflexivity|]. apply (H 4).
  - apply diagonal_definite; lra.
  - intros i j Hi Hj. three i; three j; cbn; rewrite Rabs_right; lra.
  - replace (det 3 _) with 64 by (unfold det, jack, mget; cbn; rnum; ring). rewrite Rabs_right by lra. assert (/ IZR (2^52) < / 16) by (apply Rinv_lt_contravar; [apply Rmult_lt_0_compat; [lra|apply IZR_lt; reflexivity]|apply IZR_lt; reflexivity]). lra.
Qed.
(** The six corners of a jack, dropped from rest with a steady torque about z. *)
Example C151_example : shape 3 3 (rotational_inertia jack) /\ describes jack six_corners /\ mass jack <> 0 /\ carried (mget (rotational_inertia jack)) (0, 0, 1) = multiple 4 (0, 0, 1) /\
  exists body, rigid_body_new jack (0, 0, -10) = Ok body /\ body_motion body (fun _ => Wrench (0, 0, 0) (0, 0, 4)) jack_motion /\ unit_quaternion (facing_of (jack_motion 0)).
Proof.
  assert (Ax : carried (mget (rotational_inertia jack)) (0, 0, 1) = multiple 4 (0, 0, 1)) by (unfold carried, times, bsum, coordinate; cbn; apply point_eq; ring).
  split; [apply jack_shape|]. split.
  { split; [cbn; ring|]. split; [cbn; apply point_eq; ring|]. intros i j Hi Hj. unfold spread, displaced. cbn [total fold_right fst snd center_of_mass six_corners jack]. unfold together, multiple, inner, coordinate. three i; three j; cbn; ring. }
  split; [cbn; lra|]. split; [exact Ax|]. destruct jack_built as [body Hb]. exists body. split; [exact Hb|]. split.
  - intros t i Hi. revert t. change (forall t : R, is_derive (fun s => nth i (jack_motion s) 0) t (nth i (state_derivative body (jack_motion t) (Wrench (0, 0, 0) (0, 0, 4))) 0)). intros t. assert (U : unit_quaternion (Quat (cos (t * t / 4)) 0 0 (sin (t * t / 4)))). { unfold unit_quaternion. cbn [qw qx qy qz]. pose proof (sin2_cos2 (t * t / 4)) as Q. unfold Rsqr in Q. lra. }
    pose proof (C151_derivative body _ 1 (0, 0, - (5 * (t * t))) (0, 0, - (10 * t)) (0, 0, t) (Wrench (0, 0, 0) (0, 0, 4)) U ltac:(rewrite <- Rinv_1; apply Rinv_lt_contravar; [rewrite Rmult_1_l; apply IZR_lt; reflexivity|apply IZR_lt; reflexivity])) as D. cbv zeta in D.
    pose proof (spinning jack (0, 0, -10) body jack_shape Hb (0, 0, 1) 4 4 eq_refl Ax ltac:(lra) (Quat (cos (t * t / 4)) 0 0 (sin (t * t / 4))) t) as Acc.
    replace (multiple t (0, 0, 1)) with (0, 0, t) in Acc by (unfold multiple; apply point_eq; ring). replace (multiple 4 (0, 0, 1)) with (0, 0, 4) in Acc by (unfold multiple; apply point_eq; ring). replace (multiple (4 / 4) (0, 0, 1)) with (0, 0, 1) in Acc by (unfold multiple; apply point_eq; field).
    rewrite Acc in D. cbn [ba_linear ba_angular qw qx qy qz list3 app] in D. rewrite !Rmult_1_l in D. change ([0; 0; - (5 * (t * t)); cos (t * t / 4); 0; 0; sin (t * t / 4); 0; 0; - (10 * t); 0; 0; t]) with (jack_motion t) in D. rewrite D. clear D Acc.
    assert (Q : quat_mul (Quat (cos (t * t / 4)) 0 0 (sin (t * t / 4))) (from_scalar_vector 0 (0, 0, t)) = Quat (- (sin (t * t / 4) * t)) 0 0 (cos (t * t / 4) * t)) by (unfold quat_mul, from_scalar_vector; cbn [qw qx qy qz]; rnum; f_equal; ring). rewrite Q. cbn [qw qx qy qz].
    do 13 (destruct i as [|i]; [unfold jack_motion; cbn [nth]; auto_derive; [exact Logic.I|]; match goal with |- @eq _ ?a ?b => change (@eq R a b) end; unfold Rdiv; field|]). lia.
  - unfold facing_of, jack_motion, unit_quaternion. cbn [nth qw qx qy qz]. replace (0 * 0 / 4) with 0 by field. rewrite cos_0, sin_0. lra.
Qed.

Print Assumptions C151_finite.
Print Assumptions C151_new.
Print Assumptions C151_newton.
Print Assumptions C151_particles.
Print Assumptions C151_momentum.
Print Assumptions C151_conserved.
Print Assumptions C151_step.
Print Assumptions C151_fall.
Print Assumptions C151_spin.
Print Assumptions C151_norm.
Print Assumptions C151_derivative.
Print Assumptions C151_unreadable.
Print Assumptions C151_round_trip.
Print Assumptions C151_thin_refuted.
Print Assumptions C151_example.
