(** C102 rotations of the plane, C103 rigid motions of the plane. *)
From Coq Require Import ZArith List Bool Arith Reals Lra Lia.
From Coquelicot Require Import Coquelicot.
From Verif Require Import Base.Scalar Base.RNum Base.Lists Base.Series Base.Trig Model.Vector Model.Matrix Model.Quaternion Model.Lie Spec.Matrix Spec.MatrixExp Spec.Hold Spec.Planar Proofs.Matrix Proofs.Algebra Proofs.Expm Proofs.Angle Proofs.Rotation Proofs.ExpIntegral Proofs.Duhamel Proofs.Planar.
Import ListNotations.
Local Open Scope R_scope.
Local Notation cos := Rtrigo_def.cos.
Local Notation sin := Rtrigo_def.sin.
Local Notation sqrt := R_sqrt.sqrt.

(** ** C102 *)
(** Rotations form a commutative group, their matrices multiply accordingly and act on points. *)
Theorem C102_group a b c : unit_so2 a -> unit_so2 b ->
  so2_compose (so2_compose a b) c = so2_compose a (so2_compose b c) /\ so2_compose a b = so2_compose b a /\
  so2_compose so2_identity a = a /\ so2_compose a (so2_inverse a) = so2_identity /\ unit_so2 (so2_compose a b) /\ unit_so2 (so2_inverse a).
Proof.
  intros A B. split; [apply compose_assoc|]. split; [apply compose_comm|]. split; [apply compose_identity|]. split; [apply compose_inverse, A|]. split; [apply compose_unit|apply inverse_unit]; assumption.
Qed.
Theorem C102_matrix a b p : unit_so2 a ->
  proper_turn (mget (so2_to_matrix a)) /\ equal 2 2 (mget (so2_to_matrix (so2_compose a b))) (product 2 (mget (so2_to_matrix a)) (mget (so2_to_matrix b))) /\
  equal_vectors 2 (planar (so2_act a p)) (times 2 (mget (so2_to_matrix a)) (planar p)).
Proof.
  intros A. split; [apply unit_proper, A|]. destruct a as [c s], b as [c' s'], p as [x y]. split.
  - intros i j Hi Hj. unfold so2_to_matrix. two i; two j; plane; cbn [so2_compose so2_cos so2_sin]; rnum; ring.
  - intros i Hi. unfold so2_to_matrix. two i; plane; cbn [so2_act so2_cos so2_sin fst snd]; rnum; ring.
Qed.
(** The exponential is the matrix exponential, the turn by the angle, and adds angles; the logarithm returns the angle in
    (-pi, pi] and inverts it.  All four jacobians are one because adding to the angle is composing. *)
Theorem C102_exponential t u :
  unit_so2 (so2_exp t) /\ equal 2 2 (mget (so2_to_matrix (so2_exp t))) (turn t) /\ equal 2 2 (mget (so2_to_matrix (so2_exp t))) (matrix_exp 2 (mget (so2_hat t))) /\
  so2_vee (so2_hat t) = t /\
  so2_exp (t + u) = so2_compose (so2_exp (so2_left_jacobian t * u)) (so2_exp t) /\ so2_exp (t + u) = so2_compose (so2_exp t) (so2_exp (so2_right_jacobian t * u)) /\
  so2_left_jacobian_inverse t * so2_left_jacobian t = 1 /\ so2_right_jacobian_inverse t * so2_right_jacobian t = 1.
Proof.
  split; [apply angle_unit|]. split; [apply angle_matrix|]. split; [eapply equal_trans; [apply angle_matrix|apply turn_exp]|]. split; [reflexivity|].
  unfold so2_left_jacobian, so2_right_jacobian, so2_left_jacobian_inverse, so2_right_jacobian_inverse, so2_exp. rnum. rewrite Rmult_1_l, !angle_sum, (Rplus_comm u t). repeat split; ring.
Qed.
Theorem C102_logarithm a t : (unit_so2 a -> - PI < so2_log a <= PI /\ so2_exp (so2_log a) = a) /\ (- PI < t <= PI -> so2_log (so2_exp t) = t).
Proof. split; [intros U; split; [apply log_range|apply unit_polar, U]|apply log_angle]. Qed.
(** Every rotation matrix comes back as the rotation it came from; what is accepted is a rotation within 30 eps of the
    matrix, and everything within 3 eps of a rotation is accepted. *)
Theorem C102_from_matrix m : (forall a, unit_so2 a -> so2_try_from_matrix (so2_to_matrix a) = Some a) /\
  (forall a, so2_try_from_matrix m = Some a -> unit_so2 a /\ forall i j, (i < 2)%nat -> (j < 2)%nat -> Rabs (mget m i j - mget (so2_to_matrix a) i j) <= 30 / IZR (2^52)) /\
  (forall r, proper_turn r -> (forall i j, (i < 2)%nat -> (j < 2)%nat -> Rabs (mget m i j - r i j) <= 3 / IZR (2^52)) -> exists a, so2_try_from_matrix m = Some a).
Proof.
  split; [apply so2_try_exact|]. split; [apply so2_try_accepted|]. intros r P N. destruct (proper_unit r P) as (a & U & E). apply (so2_try_near m a U). intros i j Hi Hj. rewrite <- E by auto. apply N; auto.
Qed.
(** Interpolation turns at constant speed through the shorter way from one rotation to the other. *)
Theorem C102_interpolate a b : unit_so2 a -> unit_so2 b -> exists angle theta,
  a = so2_from_angle angle /\ b = so2_from_angle (angle + theta) /\ - PI < theta <= PI /\ forall s, so2_interpolate a b s = so2_from_angle (angle + s * theta).
Proof.
  intros A B. destruct (so2_interpolate_R a b 0 A B) as (angle & theta & P & Q & T & _ & E & F). exists angle, theta. repeat (split; [assumption|]). intros s.
  destruct (so2_interpolate_R a b s A B) as (angle' & theta' & _ & _ & _ & G & E' & F'). rewrite G. congruence.
Qed.
Theorem C102_normalized a : so2_cos a <> 0 \/ so2_sin a <> 0 -> exists k, 0 < k /\ so2_normalized a = SO2 (k * so2_cos a) (k * so2_sin a) /\ unit_so2 (so2_normalized a).
Proof. apply so2_normalized_R. Qed.
Example C102_example : unit_so2 (SO2 (3 / 5) (4 / 5)) /\ unit_so2 (SO2 (-1) 0) /\ so2_cos (SO2 (3 / 5) (4 / 5)) <> 0 /\ - PI < 2 <= PI.
Proof. unfold unit_so2. cbn. pose proof PI2_3_2. unfold PI2 in *. repeat split; lra. Qed.

(** ** C103 *)
(** Rigid motions form a group, and their homogeneous matrices multiply accordingly and act on points. *)
Theorem C103_group a b c : unit_se2 a -> unit_se2 b ->
  se2_compose (se2_compose a b) c = se2_compose a (se2_compose b c) /\ se2_compose se2_identity a = a /\ se2_compose a se2_identity = a /\
  se2_compose a (se2_inverse a) = se2_identity /\ se2_compose (se2_inverse a) a = se2_identity /\ unit_se2 (se2_compose a b) /\ unit_se2 (se2_inverse a).
Proof.
  intros A B. split; [apply se2_assoc|]. split; [apply se2_identity_l|]. split; [apply se2_identity_l|]. split; [apply se2_inverses, A|]. split; [apply se2_inverses, A|]. apply se2_units; assumption.
Qed.
Theorem C103_matrix a b p : unit_se2 a ->
  rigid_motion (mget (se2_to_matrix a)) /\ equal 3 3 (mget (se2_to_matrix (se2_compose a b))) (product 3 (mget (se2_to_matrix a)) (mget (se2_to_matrix b))) /\
  equal_vectors 3 (lifted (se2_act a p)) (times 3 (mget (se2_to_matrix a)) (lifted p)) /\ forall v, se2_vee (se2_hat (T := R) v) = v.
Proof. intros A. split; [apply se2_rigid, A|]. split; [apply se2_product|]. split; [apply se2_action|]. intros [[x y] w]. reflexivity. Qed.
(** The exponential is the matrix exponential of the velocity's matrix: exactly when it turns by at least 30 eps or not at
    all, and within w^4 (|x| + |y|) otherwise. *)
Theorem C103_exponential x y w :
  (30 / IZR (2^52) <= Rabs w \/ w = 0 -> equal 3 3 (mget (se2_to_matrix (se2_exp (x, y, w)))) (matrix_exp 3 (mget (se2_hat (x, y, w))))) /\
  (Rabs w < 30 / IZR (2^52) -> forall i j, (i < 3)%nat -> (j < 3)%nat ->
     Rabs (mget (se2_to_matrix (se2_exp (x, y, w))) i j - matrix_exp 3 (mget (se2_hat (x, y, w))) i j) <= w ^ 4 * (Rabs x + Rabs y)).
Proof. split; [apply (se2_exp_exact (x, y, w))|apply se2_exp_near]. Qed.
(** The logarithm is a velocity whose exponential is the motion, turning by an angle in (-pi, pi]. *)
Theorem C103_logarithm a : unit_se2 a -> let w := snd (se2_log a) in - PI < w <= PI /\
  (30 / IZR (2^52) <= Rabs w \/ w = 0 -> equal 3 3 (matrix_exp 3 (mget (se2_hat (se2_log a)))) (mget (se2_to_matrix a)) /\ se2_exp (se2_log a) = a) /\
  (Rabs w < 30 / IZR (2^52) -> forall i j, (i < 3)%nat -> (j < 3)%nat ->
     Rabs (matrix_exp 3 (mget (se2_hat (se2_log a))) i j - mget (se2_to_matrix a) i j) <= w ^ 4 * (Rabs (fst (se2_translation a)) + Rabs (snd (se2_translation a)))).
Proof.
  intros U w. unfold w. split; [rewrite se2_log_angle; apply log_range|]. split.
  - intros L. assert (E : se2_exp (se2_log a) = a) by (apply se2_exp_log; [exact U|rewrite <- se2_log_angle; exact L]). split; [|exact E]. eapply equal_trans; [apply equal_sym, (se2_exp_exact _ L)|]. rewrite E. apply equal_refl.
  - rewrite se2_log_angle. apply se2_log_near, U.
Qed.
Theorem C103_round_trip x y w : - PI < w <= PI -> 30 / IZR (2^52) <= Rabs w \/ w = 0 -> se2_log (se2_exp (x, y, w)) = (x, y, w).
Proof. intros H [L| ->]; [apply se2_log_exp; assumption|apply se2_log_exp_straight]. Qed.
(** The adjoint carries a velocity seen in the moved frame to the same velocity seen in the fixed one. *)
Theorem C103_adjoint a v : unit_se2 a ->
  equal 3 3 (product 3 (mget (se2_to_matrix a)) (product 3 (mget (se2_hat v)) (mget (se2_to_matrix (se2_inverse a))))) (mget (se2_hat (of_vector (times 3 (mget (se2_adjoint a)) (coordinates3 v))))).
Proof.
  intros U. rewrite <- p_assoc. eapply equal_trans; [apply equal_product; [apply se2_adjoint_R, U|apply equal_refl]|]. rewrite p_assoc.
  assert (I : equal 3 3 (product 3 (mget (se2_to_matrix a)) (mget (se2_to_matrix (se2_inverse a)))) unit_matrix).
  { eapply equal_trans; [apply equal_sym, se2_product|]. rewrite (proj1 (se2_inverses a U)). intros i j Hi Hj. three i; three j; plane; cbn; rnum; reflexivity || ring. }
  eapply equal_trans; [apply equal_product; [apply equal_refl|exact I]|]. intros i j Hi Hj. unfold product. rewrite (bsum_ext 3 _ (fun k => if Nat.eqb k j then mget (se2_hat (of_vector (times 3 (mget (se2_adjoint a)) (coordinates3 v)))) i j else 0)).
  - apply bsum_delta. exact Hj.
  - intros k Hk. unfold unit_matrix. destruct (Nat.eqb_spec k j) as [->|]; ring.
Qed.
Theorem C103_from_matrix m : (forall a, unit_se2 a -> se2_try_from_matrix (se2_to_matrix a) = Some a) /\
  (forall a, se2_try_from_matrix m = Some a -> unit_se2 a /\ forall i j, (i < 3)%nat -> (j < 3)%nat -> Rabs (mget m i j - mget (se2_to_matrix a) i j) <= 30 / IZR (2^52)).
Proof. split; [apply se2_try_exact|apply se2_try_accepted]. Qed.
(** Interpolation follows one velocity from the first motion to the second. *)
Theorem C103_interpolate a b s : unit_se2 a -> unit_se2 b -> let v := se2_log (se2_compose (se2_inverse a) b) in
  se2_interpolate a b 0 = a /\ (30 / IZR (2^52) <= Rabs (snd v) \/ snd v = 0 -> se2_interpolate a b 1 = b) /\
  (30 / IZR (2^52) <= Rabs (s * snd v) \/ s * snd v = 0 -> equal 3 3 (mget (se2_to_matrix (se2_interpolate a b s))) (product 3 (mget (se2_to_matrix a)) (exp_at 3 (mget (se2_hat v)) s))).
Proof. intros A B v. destruct (se2_interpolate_ends a b A B) as [P Q]. split; [exact P|]. split; [exact Q|]. apply se2_interpolate_matrix; assumption. Qed.
(** The left jacobian is the integral of exp (s ad v) for s from 0 to 1, where ad v takes a velocity to its bracket with v;
    the right jacobian is that of -v.  Each inverse is the inverse wherever it exists. *)
Theorem C103_jacobian x y w : let v := (x, y, w) in
  (forall u, equal 3 3 (mget (se2_hat (of_vector (times 3 (se2_ad v) (coordinates3 u))))) (bracket 3 (mget (se2_hat v)) (mget (se2_hat u)))) /\
  (30 / IZR (2^52) <= Rabs w -> integral 3 3 (exp_at 3 (se2_ad v)) 1 (mget (se2_left_jacobian v)) /\ integral 3 3 (exp_at 3 (se2_ad (- x, - y, - w))) 1 (mget (se2_right_jacobian v))) /\
  (Rabs w < 30 / IZR (2^52) -> exists k, integral 3 3 (exp_at 3 (se2_ad v)) 1 k /\ forall i j, (i < 3)%nat -> (j < 3)%nat -> Rabs (mget (se2_left_jacobian v) i j - k i j) <= w ^ 4 * (1 + Rabs x + Rabs y)).
Proof.
  intros v. unfold v. split; [apply se2_ad_bracket|]. split; [|apply se2_jacobian_near].
  intros L. split; [apply se2_jacobian_large, L|]. apply (se2_jacobian_large (- x) (- y) (- w)). rewrite Rabs_Ropp. exact L.
Qed.
(** What the jacobians are for: as the velocity v changes by e u, the motion changes by the velocity J u, on the left for the
    left jacobian and on the right for the right one. *)
Definition se2_basis (l : nat) : matrix := mget (se2_hat (match l with O => (1, 0, 0) | S O => (0, 1, 0) | _ => (0, 0, 1) end)).
Lemma se2_basis_hat w : equal 3 3 (fun i k => bsum 3 (fun l => w l * se2_basis l i k)) (mget (se2_hat (of_vector w))).
Proof. intros i j Hi Hj. unfold se2_basis, of_vector. rewrite se2_hat_R. unfold bsum. rewrite !se2_hat_R. three i; three j; plane; ring. Qed.
Lemma bracket_ext n a a' b b' : equal n n a a' -> equal n n b b' -> equal n n (bracket n a b) (bracket n a' b').
Proof. intros A B i j Hi Hj. unfold bracket, minus_matrix. rewrite (equal_product n n n a a' b b' A B i j Hi Hj), (equal_product n n n b b' a a' B A i j Hi Hj). reflexivity. Qed.
Lemma of_coordinates v : of_vector (coordinates3 v) = v.
Proof. destruct v as [[x y] w]. reflexivity. Qed.
Lemma coordinates_of w : equal_vectors 3 (coordinates3 (of_vector w)) w.
Proof. intros i Hi. three i; reflexivity. Qed.
Theorem C103_jacobian_derivative x y w u i j : 30 / IZR (2^52) <= Rabs w -> (i < 3)%nat -> (j < 3)%nat -> let v := (x, y, w) in
  let moved := fun e => matrix_exp 3 (plus_matrix (mget (se2_hat v)) (scaled_matrix e (mget (se2_hat u)))) in
  is_derive (fun e => moved e i j) 0 (product 3 (mget (se2_hat (of_vector (times 3 (mget (se2_left_jacobian v)) (coordinates3 u))))) (moved 0) i j) /\
  is_derive (fun e => moved e i j) 0 (product 3 (moved 0) (mget (se2_hat (of_vector (times 3 (mget (se2_right_jacobian v)) (coordinates3 u))))) i j).
Proof.
  intros L Hi Hj v moved. destruct (C103_jacobian x y w) as (BR & JJ & _). destruct (JJ L) as [J J']. fold v in BR, J, J'.
  set (hat := fun w0 : vector => (fun i k => bsum 3 (fun l => w0 l * se2_basis l i k)) : matrix).
  assert (HV : equal 3 3 (hat (coordinates3 v)) (mget (se2_hat v))) by (unfold hat; eapply equal_trans; [apply se2_basis_hat|rewrite of_coordinates; apply equal_refl]).
  assert (HU : equal 3 3 (hat (coordinates3 u)) (mget (se2_hat u))) by (unfold hat; eapply equal_trans; [apply se2_basis_hat|rewrite of_coordinates; apply equal_refl]).
  assert (MV : forall e, equal 3 3 (matrix_exp 3 (plus_matrix (hat (coordinates3 v)) (scaled_matrix e (hat (coordinates3 u))))) (moved e)).
  { intros e. apply matrix_exp_ext. intros p q Hp Hq. unfold plus_matrix, scaled_matrix. rewrite HV, HU by auto. reflexivity. }
  assert (M0 : equal 3 3 (matrix_exp 3 (hat (coordinates3 v))) (moved 0)).
  { apply matrix_exp_ext. intros p q Hp Hq. unfold plus_matrix, scaled_matrix. rewrite HV by auto. ring. }
  assert (BV : forall w0, equal 3 3 (hat (times 3 (se2_ad v) w0)) (bracket 3 (hat (coordinates3 v)) (hat w0))).
  { intros w0. unfold hat at 1. eapply equal_trans; [apply se2_basis_hat|]. eapply equal_trans; [|apply bracket_ext; [apply equal_sym, HV|apply equal_sym, se2_basis_hat]]. eapply equal_trans; [|apply BR].
    replace (of_vector (times 3 (se2_ad v) w0)) with (of_vector (times 3 (se2_ad v) (coordinates3 (of_vector w0)))); [apply equal_refl|]. unfold of_vector at 1 3. apply triple_eq; apply bsum_ext; intros k Hk; rewrite coordinates_of by auto; reflexivity. }
  split; (evar_last; [eapply is_derive_ext; [intros e; apply (MV e i j Hi Hj)|]|]).
  - apply (left_trivialized 3 3 se2_basis (se2_ad v) _ (coordinates3 v) (coordinates3 u) BV J i j Hi Hj).
  - match goal with |- ?p = ?q => change (@eq R p q) end. apply (equal_product 3 3 3); auto. apply se2_basis_hat.
  - refine (right_trivialized 3 3 se2_basis (se2_ad (- x, - y, - w)) _ (coordinates3 v) (coordinates3 u) _ J' i j Hi Hj). intros w0 p q Hp Hq.
    pose proof (BV w0 p q Hp Hq) as B. unfold bracket, minus_matrix in *. unfold hat in B. transitivity (- (bsum 3 (fun l => times 3 (se2_ad v) w0 l * se2_basis l p q))).
    + rewrite <- Ropp_mult_distr_l_reverse || idtac. transitivity (-1 * bsum 3 (fun l => times 3 (se2_ad v) w0 l * se2_basis l p q)); [|ring]. rewrite <- bsum_scal. apply bsum_ext. intros l Hl. replace (times 3 (se2_ad (- x, - y, - w)) w0 l) with (- times 3 (se2_ad v) w0 l); [ring|]. unfold v, se2_ad. three l; plane; ring.
    + rewrite B. ring.
  - match goal with |- ?p = ?q => change (@eq R p q) end. apply (equal_product 3 3 3); auto. apply se2_basis_hat.
Qed.
Theorem C103_jacobian_inverse x y w : let v := (x, y, w) in
  (30 / IZR (2^52) <= Rabs w -> sin (w / 2) <> 0 ->
     equal 3 3 (product 3 (mget (se2_left_jacobian v)) (mget (se2_left_jacobian_inverse v))) unit_matrix /\ equal 3 3 (product 3 (mget (se2_right_jacobian v)) (mget (se2_right_jacobian_inverse v))) unit_matrix) /\
  (Rabs w < 30 / IZR (2^52) -> forall i j, (i < 3)%nat -> (j < 3)%nat ->
     Rabs (product 3 (mget (se2_left_jacobian v)) (mget (se2_left_jacobian_inverse v)) i j - unit_matrix i j) <= w ^ 4 * (1 + Rabs x + Rabs y)).
Proof.
  intros v. unfold v. split; [|apply se2_jacobian_inverse_near]. intros L S. split; [apply se2_jacobian_inverse_large; assumption|].
  apply (se2_jacobian_inverse_large (- x) (- y) (- w)); [rewrite Rabs_Ropp; exact L|]. replace (- w / 2) with (- (w / 2)) by field. rewrite sin_neg. lra.
Qed.
Example C103_example : unit_se2 (SE2 (SO2 (3 / 5) (4 / 5)) (2, -7)) /\ unit_se2 (SE2 (SO2 0 1) (1, 0)) /\ 30 / IZR (2^52) <= Rabs 1 /\ - PI < 1 <= PI /\ sin (1 / 2) <> 0 /\
  30 / IZR (2^52) <= Rabs (snd (se2_log (SE2 (SO2 0 1) (1, 0)))).
Proof.
  unfold unit_se2, unit_so2. cbn [se2_rotation so2_cos so2_sin]. pose proof PI2_3_2 as P. unfold PI2 in P. pose proof eps_bound as (_ & _ & S). fold small. rewrite Rabs_pos_eq by lra. repeat split; try lra.
  - assert (0 < sin (1 / 2)) by (apply sin_gt_0; lra). lra.
  - rewrite se2_log_angle. cbn [se2_rotation]. replace (SO2 0 1) with (so2_from_angle (T := R) (PI / 2)) by (apply so2_eq; cbn; rnum; [apply cos_PI2|apply sin_PI2]). rewrite log_angle by lra. rewrite Rabs_pos_eq; lra.
Qed.

Print Assumptions C102_group.
Print Assumptions C102_matrix.
Print Assumptions C102_exponential.
Print Assumptions C102_logarithm.
Print Assumptions C102_from_matrix.
Print Assumptions C102_interpolate.
Print Assumptions C102_normalized.
Print Assumptions C103_group.
Print Assumptions C103_matrix.
Print Assumptions C103_exponential.
Print Assumptions C103_logarithm.
Print Assumptions C103_round_trip.
Print Assumptions C103_adjoint.
Print Assumptions C103_from_matrix.
Print Assumptions C103_interpolate.
Print Assumptions C103_jacobian.
Print Assumptions C103_jacobian_derivative.
Print Assumptions C103_jacobian_inverse.
