(** Inertia: momentum, kinetic energy, bodies made of particles, and motion. *)
From Coq Require Import ZArith List Bool Arith Reals Lra Lia.
From Coquelicot Require Import Coquelicot.
From Verif Require Import Base.Scalar Base.RNum Base.Lists Base.Series Base.Deriv Model.Vector Model.Matrix Model.Quaternion Model.Lie Spec.Matrix Spec.Rotation Spec.Quaternion Spec.Planar Spec.Space Spec.Inertia Proofs.Matrix Proofs.Algebra Proofs.Expm Proofs.Flow Proofs.Quaternion Proofs.Rotation Proofs.Pairs Proofs.SpaceJacobian Proofs.MotionJacobian Proofs.Space Proofs.Screw.
Import ListNotations.
Local Open Scope R_scope.
Local Notation cos := Rtrigo_def.cos.
Local Notation sin := Rtrigo_def.sin.
Local Notation sqrt := R_sqrt.sqrt.
Local Notation length := Spec.Rotation.length.

Definition balance_velocity (b : inertia R) (v : twist R) : point := point_velocity (velocity_of v) (center_of_mass b).
Lemma momentum_R b v : momentum b v = Wrench (multiple (mass b) (balance_velocity b v)) (together (carried (mget (rotational_inertia b)) (angular v)) (outer (center_of_mass b) (multiple (mass b) (balance_velocity b v)))).
Proof. unfold momentum. rewrite !add3_R, !cross3_R, scale3_R, mat_vec_R. reflexivity. Qed.
Lemma bias_wrench_R b v : bias_wrench b v = cross_wrench v (momentum b v). Proof. reflexivity. Qed.
Lemma kinetic_energy_R b v : kinetic_energy b v = / 2 * power (velocity_of v) (wrench_of (momentum b v)).
Proof. unfold kinetic_energy. rewrite dot_wrench_R. reflexivity. Qed.
Lemma kinetic_energy_split b v : kinetic_energy b v = / 2 * mass b * inner (balance_velocity b v) (balance_velocity b v) + / 2 * inner (angular v) (carried (mget (rotational_inertia b)) (angular v)).
Proof.
  rewrite kinetic_energy_R, momentum_R. unfold balance_velocity, point_velocity, power, velocity_of, wrench_of. cbn [fst snd force torque]. generalize (carried (mget (rotational_inertia b)) (angular v)). intros k. destruct b as [m [[cx cy] cz] r], v as [[[lx ly] lz] [[wx wy] wz]], k as [[kx ky] kz]. cbn [mass center_of_mass linear angular]. unfold together, outer, inner, multiple. ring.
Qed.
Lemma bias_no_work b v : dot_wrench v (bias_wrench b v) = 0.
Proof. unfold bias_wrench. pose proof (cross_dual v v (momentum b v)) as H. rewrite cross_self in H. rewrite <- (Ropp_involutive (dot_wrench v _)), <- H. rewrite dot_wrench_R. unfold power, velocity_of, wrench_of, twist_zeros, zeros3. cbn [fst snd linear angular]. destruct (momentum b v) as [[[a c] d] [[e f] g]]. cbn [force torque]. unfold inner. rnum. ring. Qed.
Lemma inertia_about_R b p : equal 3 3 (mget (inertia_about b p)) (fun i j => mget (rotational_inertia b) i j + mass b * displaced (together p (multiple (-1) (center_of_mass b))) i j).
Proof.
  intros i j Hi Hj. unfold inertia_about. rewrite mget_mat_fn by auto. rewrite !sub3_R, !dot3_R. unfold displaced. rnum. f_equal. f_equal. f_equal. generalize (together p (multiple (-1) (center_of_mass b))). intros [[x y] z]. unfold vget, list3, coordinate. three i; three j; reflexivity.
Qed.
Lemma inertia_matrix_R b : equal 6 6 (mget (inertia_to_matrix b)) (fun i j =>
  if Nat.ltb i 3 then (if Nat.ltb j 3 then (if Nat.eqb i j then mass b else 0) else - (mass b * cross_matrix (center_of_mass b) i (j - 3)%nat))
  else (if Nat.ltb j 3 then mass b * cross_matrix (center_of_mass b) (i - 3)%nat j else mget (rotational_inertia b) (i - 3) (j - 3) + mass b * displaced (center_of_mass b) (i - 3)%nat (j - 3)%nat)).
Proof.
  assert (S : forall i j, (i < 3)%nat -> (j < 3)%nat -> mget (inertia_about b zeros3) i j = mget (rotational_inertia b) i j + mass b * displaced (center_of_mass b) i j).
  { intros i j Hi Hj. rewrite inertia_about_R by auto. f_equal. f_equal. unfold displaced, zeros3. destruct (center_of_mass b) as [[x y] z]. rnum. unfold together, multiple, inner, coordinate. three i; three j; cbn [Nat.eqb nth]; ring. }
  assert (K : forall i j, (i < 3)%nat -> (j < 3)%nat -> mget (skew3 (center_of_mass b)) i j = cross_matrix (center_of_mass b) i j) by (intros; apply skew3_R; auto).
  unfold inertia_to_matrix. revert S K. set (s := inertia_about b zeros3). set (k := skew3 _). clearbody s k. set (c := center_of_mass b). clearbody c. intros S K i j Hi Hj.
  assert (E : forall i j, (i < 6)%nat -> (j < 6)%nat -> mget (fold_left (fun entries i => fold_left (fun entries j => let offset := Rmult (mass b) (mget k i j) in mset (mset (mset entries i (j + 3)%nat (Ropp offset)) (i + 3)%nat j offset) (i + 3)%nat (j + 3)%nat (mget s i j)) (range 0 3) (mset entries i i (mass b))) (range 0 3) (mat_zeros 6 6)) i j =
    if Nat.ltb i 3 then (if Nat.ltb j 3 then (if Nat.eqb i j then mass b else 0) else - (mass b * mget k i (j - 3)%nat)) else (if Nat.ltb j 3 then mass b * mget k (i - 3)%nat j else mget s (i - 3)%nat (j - 3)%nat)).
  { clear. intros i j Hi Hj. six_i i; six_i j; reflexivity. }
  etransitivity; [apply E; auto|]. destruct (Nat.ltb_spec i 3), (Nat.ltb_spec j 3); rewrite ?K, ?S by lia; reflexivity.
Qed.
Lemma momentum_matrix b v : equal_vectors 6 (times 6 (mget (inertia_to_matrix b)) (six (velocity_of v))) (six (wrench_of (momentum b v))).
Proof.
  intros i Hi. rewrite (times_ext 6 _ _ _ _ i (fun k Hk => inertia_matrix_R b i k Hi Hk) (fun k _ => eq_refl)). rewrite momentum_R. unfold balance_velocity, point_velocity, wrench_of, velocity_of, carried. cbn [fst snd force torque].
  generalize (mget (rotational_inertia b)). intros r. destruct b as [m [[cx cy] cz] r0], v as [[[lx ly] lz] [[wx wy] wz]]. cbn [mass center_of_mass linear angular]. unfold times, bsum, six, displaced, cross_matrix, together, outer, multiple, inner, coordinate. cbn [fst snd]. six_i i; cbn [Nat.ltb Nat.leb Nat.eqb Nat.sub nth]; ring.
Qed.

(** ** Bodies made of particles *)
Lemma total_ext f g c : (forall x, f x = g x) -> total f c = total g c.
Proof. intros H. induction c as [|x c IH]; cbn; [reflexivity|]. rewrite H. f_equal. exact IH. Qed.
Lemma total_plus f g c : total (fun x => f x + g x) c = total f c + total g c.
Proof. unfold total. induction c as [|x c IH]; cbn [fold_right app]; [ring|]. rewrite IH. ring. Qed.
Lemma total_scale k f c : total (fun x => k * f x) c = k * total f c.
Proof. unfold total. induction c as [|x c IH]; cbn [fold_right app]; [ring|]. rewrite IH. ring. Qed.
Lemma total_app f c c' : total f (c ++ c') = total f c + total f c'.
Proof. unfold total. induction c as [|x c IH]; cbn [fold_right app]; [ring|]. rewrite IH. ring. Qed.
Lemma total_point_coordinate f c i : coordinate (total_point f c) i = total (fun x => coordinate (f x) i) c.
Proof. induction c as [|x c IH]; cbn [total_point total fold_right]; [destruct i as [|[|[|[|i]]]]; reflexivity|]. rewrite coordinate_together. unfold total_point, total in IH. rewrite IH. reflexivity. Qed.
Lemma total_moved f g c : total f (moved g c) = total (fun x => f (fst x, g (snd x))) c.
Proof. induction c as [|x c IH]; cbn; [reflexivity|]. unfold total, moved in IH. rewrite IH. reflexivity. Qed.
Lemma coordinate_multiple' k u i : coordinate (multiple k u) i = k * coordinate u i.
Proof. destruct u as [[x y] z]. unfold coordinate, multiple. destruct i as [|[|[|[|i]]]]; cbn; ring. Qed.

(** The rotational inertia about a point through the first moment *)
Lemma spread_shift c p q i j : (i < 3)%nat -> (j < 3)%nat ->
  let s := total_point (fun x => multiple (fst x) (snd x)) c in let d := together q (multiple (-1) p) in
  spread c q i j = spread c p i j + total fst c * displaced d i j - ((if Nat.eqb i j then 2 * (inner d s - total fst c * inner d p) else 0) - coordinate d i * (coordinate s j - total fst c * coordinate p j) - (coordinate s i - total fst c * coordinate p i) * coordinate d j).
Proof.
  intros Hi Hj. cbv zeta. induction c as [|[m x] c IH].
  - cbn [spread total total_point fold_right]. unfold spread. cbn [total fold_right]. unfold displaced, coordinate, inner. destruct p as [[px py] pz], q as [[qx qy] qz]. cbn. three i; three j; cbn; ring.
  - unfold spread in *. cbn [total total_point fold_right fst snd] in *. unfold total, total_point in IH. rewrite IH. clear IH. generalize (fold_right (fun x s => together (multiple (fst x) (snd x)) s) (0, 0, 0) c) (fold_right (fun x s => fst x + s) 0 c). intros s tm.
    generalize (fold_right (fun x0 s0 => fst x0 * displaced (together (snd x0) (multiple (-1) p)) i j + s0) 0 c). intros e.
    destruct p as [[px py] pz], q as [[qx qy] qz], x as [[xx xy] xz], s as [[sx sy] sz]. unfold displaced, together, multiple, inner, coordinate. three i; three j; cbn [Nat.eqb nth]; ring.
Qed.
Lemma spread_balance b c q i j : describes b c -> (i < 3)%nat -> (j < 3)%nat -> spread c q i j = mget (rotational_inertia b) i j + mass b * displaced (together q (multiple (-1) (center_of_mass b))) i j.
Proof.
  intros (M & S & I) Hi Hj. rewrite (spread_shift c (center_of_mass b) q) by auto. cbv zeta. rewrite <- S, <- M, <- I by auto. set (d := together _ _). clearbody d. rewrite !coordinate_multiple'. destruct d as [[dx dy] dz], (center_of_mass b) as [[cx cy] cz]. unfold inner, multiple. destruct (Nat.eqb i j); ring.
Qed.
Lemma cloud_inertia_about b c p : describes b c -> equal 3 3 (mget (inertia_about b p)) (spread c p).
Proof. intros D i j Hi Hj. rewrite inertia_about_R, (spread_balance b) by auto. reflexivity. Qed.
Lemma spread_carried c p w : carried (spread c p) w = total_point (fun x => multiple (fst x) (let d := together (snd x) (multiple (-1) p) in outer d (outer w d))) c.
Proof.
  induction c as [|[m x] c IH].
  - apply coordinate_inj. intros i Hi. rewrite carried_coordinate by auto. unfold spread, times, bsum. cbn [total fold_right total_point]. unfold coordinate. destruct w as [[a b] d]. three i; cbn; ring.
  - cbn [total_point fold_right fst snd]. unfold total_point in IH. rewrite <- IH. clear IH. apply coordinate_inj. intros i Hi. rewrite coordinate_together, !carried_coordinate by auto. unfold times, bsum, spread. cbn [total fold_right fst snd]. 
    set (d := together x (multiple (-1) p)). clearbody d. rewrite coordinate_multiple'.
    assert (O : coordinate (outer d (outer w d)) i = displaced d i 0%nat * coordinate w 0%nat + displaced d i 1%nat * coordinate w 1%nat + displaced d i 2%nat * coordinate w 2%nat).
    { destruct d as [[dx dy] dz], w as [[wx wy] wz]. unfold displaced, outer, inner, coordinate. three i; cbn [nth Nat.eqb]; ring. }
    rewrite O. unfold total. ring.
Qed.
(** Sums over the particles that appear in the momentum *)
Lemma linear_sum c v : total_point (fun x => multiple (fst x) (point_velocity v (snd x))) c = together (multiple (total fst c) (fst v)) (outer (snd v) (total_point (fun x => multiple (fst x) (snd x)) c)).
Proof.
  induction c as [|[m x] c IH]; cbn [total_point total fold_right fst snd].
  - destruct v as [[[a b] d] [[e f] g]]. cbn [fst snd]. unfold multiple, outer, together. apply point_eq; ring.
  - unfold total_point, total in IH. rewrite IH. unfold point_velocity. destruct v as [l w]. cbn [fst snd]. generalize (fold_right (fun x s => together (multiple (fst x) (snd x)) s) (0, 0, 0) c) (fold_right (fun x s => fst x + s) 0 c). intros s tm. flat.
Qed.
Lemma angular_sum c v : total_point (fun x => outer (snd x) (multiple (fst x) (point_velocity v (snd x)))) c = together (outer (total_point (fun x => multiple (fst x) (snd x)) c) (fst v)) (carried (spread c (0, 0, 0)) (snd v)).
Proof.
  rewrite spread_carried. induction c as [|[m x] c IH]; cbn [total_point fold_right fst snd].
  - destruct v as [[[a b] d] [[e f] g]]. cbn [fst snd]. unfold multiple, outer, together. apply point_eq; ring.
  - unfold total_point in IH. rewrite IH. unfold point_velocity. destruct v as [l w]. cbn [fst snd]. match goal with |- context [fold_right (fun x s => together (multiple (fst x) (snd x)) s) (0, 0, 0) c] => generalize (fold_right (fun x s => together (multiple (fst x) (snd x)) s) (0, 0, 0) c) end. match goal with |- context [fold_right ?f (0, 0, 0) c] => generalize (fold_right f (0, 0, 0) c) end. intros s t. flat.
Qed.
Lemma cloud_momentum b c v : describes b c ->
  force (momentum b v) = total_point (fun x => multiple (fst x) (point_velocity (velocity_of v) (snd x))) c /\
  torque (momentum b v) = total_point (fun x => outer (snd x) (multiple (fst x) (point_velocity (velocity_of v) (snd x)))) c.
Proof.
  intros D. pose proof D as (M & S & I). rewrite momentum_R. cbn [force torque]. rewrite linear_sum, angular_sum, <- S, <- M. unfold balance_velocity, point_velocity, velocity_of. cbn [fst snd]. split.
  - destruct v as [l w]. cbn [linear angular]. generalize (mass b) (center_of_mass b). intros m k. flat.
  - rewrite (carried_ext (spread c (0, 0, 0)) (fun i j => mget (rotational_inertia b) i j + mass b * displaced (center_of_mass b) i j)).
    + unfold carried, times, bsum. generalize (mget (rotational_inertia b)). intros r. destruct b as [m [[cx cy] cz] r0], v as [[[lx ly] lz] [[wx wy] wz]]. cbn [mass center_of_mass linear angular]. unfold displaced, together, outer, multiple, inner, coordinate. cbn [Nat.eqb nth]. apply point_eq; ring.
    + intros i j Hi Hj. rewrite (spread_balance b) by auto. f_equal. f_equal. unfold displaced. destruct (center_of_mass b) as [[x y] z]. unfold together, multiple, inner, coordinate. three i; three j; cbn [Nat.eqb nth]; ring.
Qed.
Lemma power_sum v c (f : R * point -> point) : inner (fst v) (total_point (fun x => multiple (fst x) (f x)) c) + inner (snd v) (total_point (fun x => outer (snd x) (multiple (fst x) (f x))) c) = total (fun x => fst x * inner (point_velocity v (snd x)) (f x)) c.
Proof.
  induction c as [|[m x] c IH]; cbn [total total_point fold_right fst snd].
  - destruct v as [[[a b] d] [[e f'] g]]. cbn [fst snd]. unfold inner. ring.
  - unfold total, total_point in IH. rewrite <- IH. clear IH. generalize (f (m, x)). intros y. repeat match goal with |- context [fold_right ?f (0, 0, 0) c] => generalize (fold_right f (0, 0, 0) c) end. intros s t. unfold point_velocity. destruct v as [l w]. cbn [fst snd].
    repeat match goal with p : point |- _ => destruct p as [[? ?] ?] end. unfold together, multiple, outer, inner. ring.
Qed.
Lemma cloud_kinetic_energy b c v : describes b c -> kinetic_energy b v = total (fun x => / 2 * fst x * inner (point_velocity (velocity_of v) (snd x)) (point_velocity (velocity_of v) (snd x))) c.
Proof.
  intros D. rewrite kinetic_energy_R. unfold power. destruct (cloud_momentum b c v D) as [F T]. unfold wrench_of at 1 2. cbn [fst snd]. rewrite F, T, power_sum, <- total_scale. apply total_ext. intros x. ring.
Qed.
Lemma total_point_app f c c' : total_point f (c ++ c') = together (total_point f c) (total_point f c').
Proof. apply coordinate_inj. intros i Hi. rewrite coordinate_together, !total_point_coordinate. apply total_app. Qed.
Lemma cloud_combined a b ca cb : mass a + mass b <> 0 -> describes a ca -> describes b cb -> describes (combined a b) (ca ++ cb).
Proof.
  intros N A B. pose proof A as (Ma & Sa & _). pose proof B as (Mb & Sb & _). unfold combined, describes. cbn [mass center_of_mass rotational_inertia]. rewrite !scale3_R, add3_R. rnum. set (c := multiple (1 / (mass a + mass b)) _).
  split; [rewrite total_app, Ma, Mb; reflexivity|]. split.
  - rewrite total_point_app, <- Sa, <- Sb. unfold c. rewrite multiple_multiple. replace ((mass a + mass b) * (1 / (mass a + mass b))) with 1 by (field; exact N). rewrite multiple_one. generalize (mass a) (mass b) (center_of_mass a) (center_of_mass b). intros. flat.
  - intros i j Hi Hj. unfold spread. rewrite total_app. change (mget (mat_add (inertia_about a c) (inertia_about b c)) i j = spread ca c i j + spread cb c i j). rewrite (mget_sum 3 3) by (try apply shape_mat_fn; auto).
    unfold plus_matrix. rewrite (cloud_inertia_about a ca c A i j Hi Hj), (cloud_inertia_about b cb c B i j Hi Hj). reflexivity.
Qed.

(** ** A body seen from another frame *)
Lemma rotated_carried q u : unit_quaternion q -> carried (mget (to_rotation_matrix q)) u = transform_point q u.
Proof. intros U. apply coordinate_inj. intros i Hi. rewrite carried_coordinate, rotated_coordinate by auto. reflexivity. Qed.
Lemma rotation_conjugate q i j : (i < 3)%nat -> (j < 3)%nat -> mget (to_rotation_matrix (T := R) (conjugate q)) i j = mget (to_rotation_matrix q) j i.
Proof. intros Hi Hj. unfold to_rotation_matrix, conjugate, mget. rnum. three i; three j; cbn [nth qw qx qy qz]; ring. Qed.
Lemma rotation_rows q : unit_quaternion q -> equal 3 3 (product 3 (mget (to_rotation_matrix q)) (transposed (mget (to_rotation_matrix q)))) unit_matrix.
Proof.
  intros U. destruct (rotation_matrix_proper _ (unit_conjugate _ U)) as [P _]. eapply equal_trans; [|exact P]. apply equal_product; intros i j Hi Hj; unfold transposed; rewrite rotation_conjugate by auto; reflexivity.
Qed.
Lemma transposed_carried q u : unit_quaternion q -> carried (transposed (mget (to_rotation_matrix q))) u = transform_point (conjugate q) u.
Proof. intros U. rewrite <- rotated_carried by (apply unit_conjugate, U). apply carried_ext. intros i j Hi Hj. rewrite rotation_conjugate by auto. reflexivity. Qed.
Lemma act_inertia_rotational a b : equal 3 3 (mget (rotational_inertia (act_inertia a b))) (product 3 (product 3 (mget (to_rotation_matrix (se3_rotation a))) (mget (rotational_inertia b))) (transposed (mget (to_rotation_matrix (se3_rotation a))))).
Proof.
  intros i j Hi Hj. unfold act_inertia, so3_to_matrix. cbn [rotational_inertia]. rewrite mget_mul by auto. apply bsum_ext. intros k Hk. rewrite mget_mul, mget_transpose by auto. reflexivity.
Qed.
Lemma act_momentum a b v : unit_se3 a -> momentum (act_inertia a b) (act_twist a v) = act_wrench a (momentum b v).
Proof.
  intros U. rewrite !momentum_R. assert (B : balance_velocity (act_inertia a b) (act_twist a v) = transform_point (se3_rotation a) (balance_velocity b v)) by (unfold balance_velocity; rewrite <- act_twist_point by exact U; reflexivity). rewrite B. rewrite act_wrench_R. cbn [force torque].
  assert (C : carried (mget (rotational_inertia (act_inertia a b))) (angular (act_twist a v)) = transform_point (se3_rotation a) (carried (mget (rotational_inertia b)) (angular v))).
  { rewrite (carried_ext _ _ _ (act_inertia_rotational a b)), !carried_product, transposed_carried, rotated_carried by exact U. f_equal. f_equal. rewrite act_twist_R. cbn [angular]. apply (rotate_back _ _ U). }
  rewrite C. change (mass (act_inertia a b)) with (mass b). change (center_of_mass (act_inertia a b)) with (se3_act a (center_of_mass b)). rewrite se3_act_R, !transform_together, !transform_multiple', <- rotate_outer by exact U. apply wrench_eq; cbn [force torque]; [reflexivity|]. rewrite transform_multiple'.
  generalize (transform_point (se3_rotation a) (balance_velocity b v)) (transform_point (se3_rotation a) (carried (mget (rotational_inertia b)) (angular v))) (transform_point (se3_rotation a) (center_of_mass b)) (se3_translation a) (mass b). intros. flat.
Qed.
Lemma act_energy a b v : unit_se3 a -> kinetic_energy (act_inertia a b) (act_twist a v) = kinetic_energy b v.
Proof. intros U. unfold kinetic_energy. rewrite act_momentum, act_power by exact U. reflexivity. Qed.
Lemma act_bias a b v : unit_se3 a -> bias_wrench (act_inertia a b) (act_twist a v) = act_wrench a (bias_wrench b v).
Proof. intros U. unfold bias_wrench. rewrite act_momentum, act_cross_wrench by exact U. reflexivity. Qed.
Lemma displaced_rotated q d : unit_quaternion q -> equal 3 3 (displaced (transform_point q d)) (product 3 (product 3 (mget (to_rotation_matrix q)) (displaced d)) (transposed (mget (to_rotation_matrix q)))).
Proof.
  intros U i j Hi Hj. unfold displaced at 1. rewrite rotate_inner, !rotated_coordinate by auto. pose proof (rotation_rows q U i j Hi Hj) as H. set (m := mget (to_rotation_matrix q)) in *. clearbody m.
  unfold product, transposed, times, bsum in *. replace (if Nat.eqb i j then inner d d else 0) with (inner d d * unit_matrix i j) by (unfold unit_matrix; destruct (Nat.eqb i j); ring). rewrite <- H. destruct d as [[x y] z]. unfold displaced, inner, coordinate. cbn [Nat.eqb nth]. ring.
Qed.
Lemma total_product a b (f : R * point -> matrix) c i j : total (fun x => product 3 (product 3 a (fun i j => fst x * f x i j)) b i j) c = product 3 (product 3 a (fun i j => total (fun x => fst x * f x i j) c)) b i j.
Proof.
  unfold product, bsum. induction c as [|x c IH]; cbn [total fold_right]; [ring|]. unfold total in IH. rewrite IH. unfold total. ring.
Qed.
Lemma total_times m (g : R * point -> point) c i : total (fun x => times 3 m (coordinate (g x)) i) c = times 3 m (coordinate (total_point g c)) i.
Proof. unfold times, bsum. rewrite !total_point_coordinate. induction c as [|x c IH]; cbn [total fold_right]; [ring|]. unfold total in *. rewrite IH. ring. Qed.
Lemma cloud_moved a b c : unit_se3 a -> describes b c -> describes (act_inertia a b) (moved (se3_act a) c).
Proof.
  intros U (M & S & I). split; [change (mass b = total fst (moved (se3_act a) c)); rewrite total_moved; exact M|]. split.
  - change (multiple (mass b) (se3_act a (center_of_mass b)) = total_point (fun x => multiple (fst x) (snd x)) (moved (se3_act a) c)). apply coordinate_inj. intros i Hi. rewrite total_point_coordinate, total_moved. cbn [fst snd]. rewrite se3_act_R, coordinate_multiple', coordinate_together.
    rewrite (total_ext _ (fun x => coordinate (transform_point (se3_rotation a) (multiple (fst x) (snd x))) i + coordinate (se3_translation a) i * fst x)) by (intros x; rewrite se3_act_R, coordinate_multiple', coordinate_together, transform_multiple', coordinate_multiple'; ring).
    rewrite total_plus, total_scale, <- M. rewrite Rmult_plus_distr_l. f_equal; [|ring]. rewrite <- coordinate_multiple', <- transform_multiple', S. rewrite rotated_coordinate by auto. rewrite <- total_times. apply total_ext. intros x. symmetry. apply rotated_coordinate; auto.
  - intros i j Hi Hj. rewrite act_inertia_rotational by auto. change (center_of_mass (act_inertia a b)) with (se3_act a (center_of_mass b)).
    rewrite (equal_product 3 3 3 _ _ _ _ (equal_product 3 3 3 _ _ _ _ (equal_refl 3 3 _) I) (equal_refl 3 3 _)) by auto. unfold spread. rewrite total_moved. rewrite <- total_product. apply total_ext. intros x. cbn [fst snd].
    rewrite !se3_act_R. replace (together (together (transform_point (se3_rotation a) (snd x)) (se3_translation a)) (multiple (-1) (together (transform_point (se3_rotation a) (center_of_mass b)) (se3_translation a)))) with (transform_point (se3_rotation a) (together (snd x) (multiple (-1) (center_of_mass b)))).
    + rewrite displaced_rotated by auto. unfold product, bsum. ring.
    + rewrite transform_together, transform_multiple'. generalize (transform_point (se3_rotation a) (snd x)) (transform_point (se3_rotation a) (center_of_mass b)) (se3_translation a). intros. flat.
Qed.
Lemma inverse_act_inertia_undo a b : unit_se3 a -> let c := inverse_act_inertia a (act_inertia a b) in mass c = mass b /\ center_of_mass c = center_of_mass b /\ equal 3 3 (mget (rotational_inertia c)) (mget (rotational_inertia b)).
Proof.
  intros U c. split; [reflexivity|]. split.
  - unfold c, inverse_act_inertia, act_inertia. cbn [center_of_mass]. rewrite <- se3_act_compose, (proj2 (se3_inverses a U)), se3_act_R. cbn [se3_identity se3_rotation se3_translation]. unfold so3_identity. rewrite transform_identity. apply together_zero.
  - eapply equal_trans; [apply act_inertia_rotational|]. cbn [se3_inverse se3_rotation]. unfold so3_inverse. set (m := mget (to_rotation_matrix (se3_rotation a))).
    assert (E : equal 3 3 (mget (to_rotation_matrix (conjugate (se3_rotation a)))) (transposed m)) by (intros i j Hi Hj; apply rotation_conjugate; auto).
    assert (E' : equal 3 3 (transposed (mget (to_rotation_matrix (conjugate (se3_rotation a))))) m) by (intros i j Hi Hj; unfold transposed; rewrite E by auto; reflexivity).
    assert (P : equal 3 3 (product 3 (transposed m) m) unit_matrix) by (apply (rotation_matrix_proper _ U)).
    eapply equal_trans; [apply equal_product; [apply equal_product; [exact E|apply act_inertia_rotational]|exact E']|]. fold m.
    rewrite <- !p_assoc. set (i0 := mget (rotational_inertia b)). rewrite (p_assoc 3 3 _ (transposed m) m). 
    eapply equal_trans; [apply equal_product; [|exact P]; apply equal_product; [exact P|apply equal_refl]|]. intros i j Hi Hj. rewrite product_unit_r by auto. apply product_unit_l, Hi.
Qed.

(** ** The equations of motion *)
Lemma times_derive (m : R -> matrix) (x : R -> vector) (dm : matrix) (dx : vector) (t : R) i : (forall k, (k < 3)%nat -> is_derive (fun s => m s i k) t (dm i k)) -> (forall k, (k < 3)%nat -> is_derive (fun s => x s k) t (dx k)) ->
  is_derive (fun s => times 3 (m s) (x s) i) t (times 3 dm (x t) i + times 3 (m t) dx i).
Proof.
  intros Hm Hx. unfold times.
  replace (bsum 3 (fun j => dm i j * x t j) + bsum 3 (fun j => m t i j * dx j)) with (bsum 3 (fun j => dm i j * x t j + m t i j * dx j)) by (unfold bsum; ring).
  apply (is_derive_sum 3 (fun j s => m s i j * x s j) (fun j => dm i j * x t j + m t i j * dx j) t). intros j Hj. apply (is_derive_mult (fun s => m s i j) (fun s => x s j) t (dm i j) (dx j)); [apply Hm, Hj|apply Hx, Hj|intros; apply Rmult_comm].
Qed.
Definition point_derive (p : R -> point) (t : R) (d : point) : Prop := forall i, (i < 3)%nat -> is_derive (fun s => coordinate (p s) i) t (coordinate d i).
Lemma outer_derive u v t du dv : point_derive u t du -> point_derive v t dv -> point_derive (fun s => outer (u s) (v s)) t (together (outer du (v t)) (outer (u t) dv)).
Proof.
  intros Hu Hv i Hi. apply (is_derive_ext (fun s => times 3 (cross_matrix (u s)) (coordinate (v s)) i)); [intros s; symmetry; apply outer_coordinate, Hi|].
  rewrite coordinate_together, !outer_coordinate by exact Hi. apply times_derive; [|exact Hv]. intros k Hk.
  pose proof (Hu 0%nat ltac:(lia)) as H0. pose proof (Hu 1%nat ltac:(lia)) as H1. pose proof (Hu 2%nat ltac:(lia)) as H2.
  assert (E : forall w : point, cross_matrix w i k = nth k (nth i [[0; - coordinate w 2%nat; coordinate w 1%nat]; [coordinate w 2%nat; 0; - coordinate w 0%nat]; [- coordinate w 1%nat; coordinate w 0%nat; 0]] []) 0) by (intros [[x y] z]; reflexivity).
  rewrite E. apply (is_derive_ext (fun s => nth k (nth i [[0; - coordinate (u s) 2%nat; coordinate (u s) 1%nat]; [coordinate (u s) 2%nat; 0; - coordinate (u s) 0%nat]; [- coordinate (u s) 1%nat; coordinate (u s) 0%nat; 0]] []) 0)); [intros s; symmetry; apply E|].
  three i; three k; cbn [nth]; first [apply (is_derive_const (V := R_NormedModule)) | assumption | apply (is_derive_opp (V := R_NormedModule)); assumption].
Qed.
(** The pose follows the body velocity. *)
Definition follows (pose : R -> se3 R) (v : twist R) (t : R) : Prop := forall i j, (i < 4)%nat -> (j < 4)%nat ->
  is_derive (fun s => mget (se3_to_matrix (pose s)) i j) t (product 4 (mget (se3_to_matrix (pose t))) (velocity_matrix (velocity_of v)) i j).
Lemma rotated_derive pose v t (f : R -> point) (df : point) : (forall s, unit_se3 (pose s)) -> follows pose v t -> point_derive f t df ->
  point_derive (fun s => transform_point (se3_rotation (pose s)) (f s)) t (transform_point (se3_rotation (pose t)) (together (outer (angular v) (f t)) df)).
Proof.
  intros U F D i Hi. rewrite transform_together, coordinate_together, !rotated_coordinate by (first [exact Hi|apply U]). apply (is_derive_ext (fun s => times 3 (mget (to_rotation_matrix (se3_rotation (pose s)))) (coordinate (f s)) i)); [intros s; symmetry; apply rotated_coordinate; [apply U|exact Hi]|].
  rewrite (times_ext 3 _ _ (coordinate (outer (angular v) (f t))) (times 3 (cross_matrix (angular v)) (coordinate (f t))) i (fun k _ => eq_refl) (fun k Hk => outer_coordinate _ _ k Hk)), <- times_product.
  apply times_derive; [|exact D]. intros k Hk. specialize (F i k ltac:(lia) ltac:(lia)). apply (is_derive_ext _ (fun s => mget (to_rotation_matrix (se3_rotation (pose s))) i k)) in F; [|intros s; rewrite se3_matrix_R by lia; unfold homogeneous, stacked; rewrite !(proj2 (Nat.ltb_lt _ 3)) by lia; reflexivity].
  replace (product 3 (mget (to_rotation_matrix (se3_rotation (pose t)))) (cross_matrix (angular v)) i k) with (product 4 (mget (se3_to_matrix (pose t))) (velocity_matrix (velocity_of v)) i k); [exact F|].
  unfold product, bsum. rewrite !se3_matrix_R by lia. unfold homogeneous, velocity_matrix, velocity_of, stacked, column, zero_matrix. cbn [fst snd]. rewrite !(proj2 (Nat.ltb_lt _ 3)) by lia. cbn [Nat.ltb Nat.leb Nat.sub]. ring.
Qed.
Lemma translation_derive pose v t : (forall s, unit_se3 (pose s)) -> follows pose v t -> point_derive (fun s => se3_translation (pose s)) t (transform_point (se3_rotation (pose t)) (linear v)).
Proof.
  intros U F i Hi. specialize (F i 3%nat ltac:(lia) ltac:(lia)). apply (is_derive_ext _ (fun s => coordinate (se3_translation (pose s)) i)) in F; [|intros s; rewrite se3_matrix_R by lia; unfold homogeneous, stacked; rewrite !(proj2 (Nat.ltb_lt i 3)) by lia; reflexivity].
  replace (coordinate (transform_point (se3_rotation (pose t)) (linear v)) i) with (product 4 (mget (se3_to_matrix (pose t))) (velocity_matrix (velocity_of v)) i 3%nat); [exact F|]. rewrite rotated_coordinate by (first [exact Hi|apply U]).
  unfold product, times, bsum. rewrite !se3_matrix_R by lia. unfold homogeneous, velocity_matrix, velocity_of, stacked, column, zero_matrix. cbn [fst snd]. rewrite !(proj2 (Nat.ltb_lt i 3)) by lia. cbn [Nat.ltb Nat.leb Nat.sub]. ring.
Qed.
Lemma together_derive u v t du dv : point_derive u t du -> point_derive v t dv -> point_derive (fun s => together (u s) (v s)) t (together du dv).
Proof. intros Hu Hv i Hi. rewrite coordinate_together. apply (is_derive_ext (fun s => coordinate (u s) i + coordinate (v s) i)); [intros s; symmetry; apply coordinate_together|]. apply (is_derive_plus (V := R_NormedModule)); [apply Hu, Hi|apply Hv, Hi]. Qed.
Lemma wrench_derive pose v t (w : R -> wrench R) (dw : wrench R) : (forall s, unit_se3 (pose s)) -> follows pose v t -> point_derive (fun s => force (w s)) t (force dw) -> point_derive (fun s => torque (w s)) t (torque dw) ->
  let d := act_wrench (pose t) (wrench_add dw (cross_wrench v (w t))) in
  point_derive (fun s => force (act_wrench (pose s) (w s))) t (force d) /\ point_derive (fun s => torque (act_wrench (pose s) (w s))) t (torque d).
Proof.
  intros U F Df Dt d. pose proof (rotated_derive pose v t _ _ U F Df) as Rf. pose proof (rotated_derive pose v t _ _ U F Dt) as Rt. pose proof (translation_derive pose v t U F) as P.
  pose proof (together_derive _ _ _ _ _ Rt (outer_derive _ _ _ _ _ P Rf)) as Rtt. unfold d. rewrite act_wrench_R, cross_wrench_R. unfold wrench_add. cbn [force torque]. rewrite !add3_R. split; intros i Hi.
  - rewrite together_comm. apply (is_derive_ext (fun s => coordinate (transform_point (se3_rotation (pose s)) (force (w s))) i)); [intros s; rewrite act_wrench_R; reflexivity|]. apply Rf, Hi.
  - apply (is_derive_ext (fun s => coordinate (together (transform_point (se3_rotation (pose s)) (torque (w s))) (outer (se3_translation (pose s)) (transform_point (se3_rotation (pose s)) (force (w s))))) i)); [intros s; rewrite act_wrench_R; reflexivity|].
    evar_last; [apply Rtt, Hi|]. cbv beta. f_equal. rewrite rotate_outer by apply U. rewrite !transform_together. 
    generalize (se3_translation (pose t)) (transform_point (se3_rotation (pose t)) (outer (angular v) (torque (w t)))) (transform_point (se3_rotation (pose t)) (torque dw)) (transform_point (se3_rotation (pose t)) (outer (linear v) (force (w t)))) (transform_point (se3_rotation (pose t)) (outer (angular v) (force (w t)))) (transform_point (se3_rotation (pose t)) (force dw)). intros. flat.
Qed.
Lemma carried_derive m u t du : point_derive u t du -> point_derive (fun s => carried m (u s)) t (carried m du).
Proof.
  intros D i Hi. apply (is_derive_ext (fun s => times 3 m (coordinate (u s)) i)); [intros s; symmetry; apply carried_coordinate, Hi|]. rewrite carried_coordinate by exact Hi. evar_last; [apply (times_derive (fun _ => m) (fun s => coordinate (u s)) (fun _ _ => 0) (coordinate du) t i); [intros k Hk; apply (is_derive_const (V := R_NormedModule))|exact D]|].
  match goal with |- ?x = ?y => change (@eq R x y) end. unfold times, bsum. ring.
Qed.
Lemma multiple_derive k u t du : point_derive u t du -> point_derive (fun s => multiple k (u s)) t (multiple k du).
Proof.
  intros D i Hi. rewrite coordinate_multiple'. apply (is_derive_ext (fun s => k * coordinate (u s) i)); [intros s; symmetry; apply coordinate_multiple'|]. apply is_derive_scal. apply D, Hi.
Qed.
Lemma constant_derive p t : point_derive (fun _ => p) t (0, 0, 0).
Proof. intros i Hi. replace (coordinate (0, 0, 0) i) with 0 by (three i; reflexivity). apply (is_derive_const (V := R_NormedModule)). Qed.
Lemma momentum_derive b (v : R -> twist R) t dv : point_derive (fun s => linear (v s)) t (linear dv) -> point_derive (fun s => angular (v s)) t (angular dv) ->
  point_derive (fun s => force (momentum b (v s))) t (force (momentum b dv)) /\ point_derive (fun s => torque (momentum b (v s))) t (torque (momentum b dv)).
Proof.
  intros Dl Da. assert (B : point_derive (fun s => multiple (mass b) (balance_velocity b (v s))) t (multiple (mass b) (balance_velocity b dv))).
  { apply multiple_derive. unfold balance_velocity, point_velocity, velocity_of. cbn [fst snd]. apply together_derive; [exact Dl|]. pose proof (outer_derive _ _ t _ _ Da (constant_derive (center_of_mass b) t)) as H. replace (outer (angular dv) (center_of_mass b)) with (together (outer (angular dv) (center_of_mass b)) (outer (angular (v t)) (0, 0, 0))); [exact H|]. destruct (angular (v t)) as [[x y] z]. generalize (outer (angular dv) (center_of_mass b)). intros. flat. }
  rewrite momentum_R. cbn [force torque]. split; intros i Hi.
  - apply (is_derive_ext (fun s => coordinate (multiple (mass b) (balance_velocity b (v s))) i)); [intros s; rewrite momentum_R; reflexivity|]. apply B, Hi.
  - apply (is_derive_ext (fun s => coordinate (together (carried (mget (rotational_inertia b)) (angular (v s))) (outer (center_of_mass b) (multiple (mass b) (balance_velocity b (v s))))) i)); [intros s; rewrite momentum_R; reflexivity|].
    revert i Hi. apply together_derive; [apply carried_derive, Da|]. pose proof (outer_derive _ _ t _ _ (constant_derive (center_of_mass b) t) B) as H. cbv beta in H. match goal with |- point_derive _ _ ?d => match type of H with point_derive _ _ ?e => replace d with e; [exact H|] end end.
    generalize (multiple (mass b) (balance_velocity b (v t))) (outer (center_of_mass b) (multiple (mass b) (balance_velocity b dv))). intros. flat.
Qed.
Lemma equation_of_motion b pose (v : R -> twist R) t dv : (forall s, unit_se3 (pose s)) -> follows pose (v t) t -> point_derive (fun s => linear (v s)) t (linear dv) -> point_derive (fun s => angular (v s)) t (angular dv) ->
  let d := act_wrench (pose t) (wrench_add (momentum b dv) (bias_wrench b (v t))) in
  point_derive (fun s => force (act_wrench (pose s) (momentum b (v s)))) t (force d) /\ point_derive (fun s => torque (act_wrench (pose s) (momentum b (v s)))) t (torque d).
Proof. intros U F Dl Da. destruct (momentum_derive b v t dv Dl Da) as [Mf Mt]. apply (wrench_derive pose (v t) t (fun s => momentum b (v s)) (momentum b dv)); assumption. Qed.
