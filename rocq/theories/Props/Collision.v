(** C150: the distance of spheres and capsules, and the query for the closest pair. *)
From Coq Require Import ZArith List Bool Arith Reals Lra Lia.
From Verif Require Import Base.Scalar Base.RNum Base.XNum Base.Lists Base.Series Model.Errors Model.Vector Model.Matrix Model.Quaternion Model.Lie Model.Drive Model.KinematicTree Model.Collision
  Spec.Space Spec.Matrix Spec.Rotation Spec.Quaternion Spec.Collision Proofs.Quaternion Proofs.Rotation Proofs.Space Proofs.Screw Proofs.Collision.
Import ListNotations.
Local Open Scope R_scope.
Local Notation sqrt := R_sqrt.sqrt.

(** ** The distance of two shapes *)
(** No two points of the two solids are nearer than the distance given, less what it may be too large by.  A distance that is not negative is
    that of some two points, and for one that is not positive the solids share a point. *)
Theorem C150_distance shape pose other other_pose : unit_se3 pose -> unit_se3 other_pose -> proper_shape shape -> proper_shape other ->
  measures (distance_to shape pose other other_pose) (too_large_by shape pose other other_pose) (occupies shape pose) (occupies other other_pose).
Proof. apply distance_measures. Qed.
(** Where it cannot be too large the sign tells whether the two overlap. *)
Theorem C150_overlap shape pose other other_pose : unit_se3 pose -> unit_se3 other_pose -> proper_shape shape -> proper_shape other -> too_large_by shape pose other other_pose = 0 ->
  (distance_to shape pose other other_pose <= 0 <-> exists p, occupies shape pose p /\ occupies other other_pose p).
Proof.
  intros U V P Q Z. destruct (distance_measures shape pose other other_pose U V P Q) as (A & _ & C). split; [exact C|]. intros (p & X & Y). specialize (A p p X Y). rewrite far_self, Z in A. lra.
Qed.
(** How much too large: no more than 2^-25 unless both are capsules, and for two capsules no more than 2^-26 over the length of the second axis. *)
Lemma two_26 : / IZR (2^52) = (/ IZR (2^26)) ^ 2 /\ 0 < / IZR (2^26).
Proof. split; [|apply Rinv_0_lt_compat, IZR_lt; reflexivity]. replace (2^52)%Z with (2^26 * 2^26)%Z by reflexivity. rewrite mult_IZR. field. apply IZR_neq. discriminate. Qed.
Lemma small_square x : 0 <= x -> x ^ 2 <= / IZR (2^52) -> x <= / IZR (2^26).
Proof. destruct two_26 as [-> P]. intros X H. apply Rnot_lt_le. intros L. nra. Qed.
Theorem C150_too_large shape pose other other_pose : proper_shape shape -> proper_shape other ->
  0 <= too_large_by shape pose other other_pose /\
  match other with
  | Sphere _ => too_large_by shape pose other other_pose <= / IZR (2^26)
  | Capsule _ h' => match shape with Sphere _ => too_large_by shape pose other other_pose <= / IZR (2^26) | Capsule _ _ => forall l, 0 < l <= 1 -> l <= 2 * h' -> too_large_by shape pose other other_pose <= / IZR (2^26) / l end
  end.
Proof.
  destruct two_26 as [_ P26]. intros P Q. unfold too_large_by, short. destruct shape as [r|r h], other as [r'|r' h']; cbn [proper_shape] in P, Q.
  - lra.
  - destruct (Rle_dec ((2 * h') ^ 2) (/ IZR (2 ^ 52))) as [S1|S1]; [pose proof (small_square (2 * h') ltac:(lra) S1)|]; lra.
  - destruct (Rle_dec ((2 * h) ^ 2) (/ IZR (2 ^ 52))) as [S1|S1]; [pose proof (small_square (2 * h) ltac:(lra) S1)|]; lra.
  - pose proof (length_nonneg (outer (upright pose) (upright other_pose))) as LN. set (s := length _) in *. cbv zeta.
    assert (Over : forall l x, 0 < l <= 1 -> x * l <= / IZR (2^26) -> x <= / IZR (2^26) / l). { intros l x L H. apply Rmult_le_reg_r with l; [lra|]. unfold Rdiv. rewrite Rmult_assoc, Rinv_l by lra. lra. }
    destruct (Rle_dec ((2 * h) ^ 2) (/ IZR (2 ^ 52))) as [S1|S1]; destruct (Rle_dec ((2 * h') ^ 2) (/ IZR (2 ^ 52))) as [S2|S2].
    + pose proof (small_square (2 * h) ltac:(lra) S1). pose proof (small_square (2 * h') ltac:(lra) S2). split; [lra|]. intros l L L'. apply Over; [exact L|]. assert (l <= / 2) by (assert (/ IZR (2^26) <= / 4) by (apply Rinv_le_contravar; [lra|apply IZR_le; discriminate]); lra). nra.
    + pose proof (small_square (2 * h) ltac:(lra) S1). split; [lra|]. intros l L L'. apply Over; [exact L|]. nra.
    + pose proof (small_square (2 * h') ltac:(lra) S2). split; [lra|]. intros l L L'. apply Over; [exact L|]. nra.
    + destruct (Rle_dec ((2 * h * (2 * h') * s) ^ 2) (/ IZR (2 ^ 52))) as [S3|S3].
      * assert (N : 0 <= 2 * h * s) by nra. split; [exact N|]. intros l L L'. apply Over; [exact L|]. apply small_square in S3; [nra|]. apply Rmult_le_pos; [nra|exact LN].
      * split; [lra|]. intros l L L'. apply Over; [exact L|]. lra.
Qed.
(** Both orders give the same. *)
Definition bare (shape : Primitive R) : Primitive R := match shape with Sphere _ => Sphere 0 | Capsule _ h => Capsule 0 h end.
Lemma distance_bare shape pose other other_pose : distance_to shape pose other other_pose = distance_to (bare shape) pose (bare other) other_pose - reach shape - reach other.
Proof.
  destruct shape, other; cbn [bare distance_to reach]; unfold sphere_sphere_distance, sphere_capsule_distance, capsule_capsule_distance; rnum; try ring.
  - destruct (capsule_segment other_pose half_length). ring.
  - destruct (capsule_segment pose half_length). ring.
  - destruct (capsule_segment pose half_length), (capsule_segment other_pose half_length0). destruct (closest_points_between_segments _ _ _ _). ring.
Qed.
Lemma bare_nonneg shape pose other other_pose : 0 <= distance_to (bare shape) pose (bare other) other_pose.
Proof.
  destruct shape, other; cbn [bare distance_to]; unfold sphere_sphere_distance, sphere_capsule_distance, capsule_capsule_distance; rnum.
  - rewrite norm3_R. pose proof (length_nonneg (sub3 (se3_translation pose) (se3_translation other_pose))). lra.
  - destruct (capsule_segment other_pose half_length) as [u v]. rewrite norm3_R. match goal with |- 0 <= length ?w - _ - _ => pose proof (length_nonneg w) end. lra.
  - destruct (capsule_segment pose half_length) as [u v]. rewrite norm3_R. match goal with |- 0 <= length ?w - _ - _ => pose proof (length_nonneg w) end. lra.
  - destruct (capsule_segment pose half_length), (capsule_segment other_pose half_length0). destruct (closest_points_between_segments _ _ _ _). rewrite norm3_R. match goal with |- 0 <= length ?w - _ - _ => pose proof (length_nonneg w) end. lra.
Qed.
Lemma bare_proper shape : proper_shape shape -> proper_shape (bare shape).
Proof. destruct shape; cbn; lra. Qed.
Lemma bare_too_large shape pose other other_pose : too_large_by (bare shape) pose (bare other) other_pose = too_large_by shape pose other other_pose.
Proof. destruct shape, other; reflexivity. Qed.
Theorem C150_symmetric shape pose other other_pose : unit_se3 pose -> unit_se3 other_pose -> proper_shape shape -> proper_shape other ->
  Rabs (distance_to shape pose other other_pose - distance_to other other_pose shape pose) <= Rmax (too_large_by shape pose other other_pose) (too_large_by other other_pose shape pose).
Proof.
  intros U V P Q. rewrite (distance_bare shape), (distance_bare other). apply bare_proper in P, Q. pose proof (distance_measures _ _ _ _ U V P Q) as (A & B & _). pose proof (distance_measures _ _ _ _ V U Q P) as (A' & B' & _).
  specialize (B (bare_nonneg shape pose other other_pose)). specialize (B' (bare_nonneg other other_pose shape pose)). destruct B as (p & q & X & Y & F), B' as (q' & p' & Y' & X' & F').
  specialize (A p' q' X' Y'). specialize (A' q p Y X). rewrite !bare_too_large in *. rewrite far_sym in A, A'. rewrite F in A'. rewrite F' in A.
  pose proof (Rmax_l (too_large_by shape pose other other_pose) (too_large_by other other_pose shape pose)). pose proof (Rmax_r (too_large_by shape pose other other_pose) (too_large_by other other_pose shape pose)). apply Rabs_le. lra.
Qed.
(** Moving both rigidly changes nothing. *)
Lemma act_difference g u v : together (se3_act g u) (multiple (-1) (se3_act g v)) = transform_point (se3_rotation g) (together u (multiple (-1) v)).
Proof. unfold se3_act, so3_act. rewrite !add3_R, transform_together, transform_multiple'. set (a := transform_point _ u). set (b := transform_point _ v). set (w := se3_translation g). clearbody a b w. flat. Qed.
Lemma act_toward g u v k : toward (se3_act g u) (se3_act g v) k = se3_act g (toward u v k).
Proof. unfold toward. rewrite act_difference. unfold se3_act, so3_act. rewrite !add3_R, !transform_together, !transform_multiple', transform_together, transform_multiple'. set (a := transform_point _ u). set (b := transform_point _ v). set (w := se3_translation g). clearbody a b w. flat. Qed.
Lemma closest_moved g p p' q q' : unit_se3 g -> let (x, y) := closest_points_between_segments p p' q q' in closest_points_between_segments (se3_act g p) (se3_act g p') (se3_act g q) (se3_act g q') = (se3_act g x, se3_act g y).
Proof.
  intros U. unfold closest_points_between_segments. rewrite !sub3_R, !dot3_R, !act_difference, !(rotate_inner (se3_rotation g) _ _ U). destruct (closest_parameters _ _ _ _ _) as [[s t]|]; [|reflexivity].
  rewrite !add3_R, !scale3_R. rewrite <- !act_difference. f_equal; apply act_toward.
Qed.
Lemma closest_point_moved g c p q : unit_se3 g -> closest_point_on_segment (se3_act g c) (se3_act g p) (se3_act g q) = se3_act g (closest_point_on_segment c p q).
Proof.
  intros U. unfold closest_point_on_segment. rewrite !sub3_R, !dot3_R, !act_difference, !(rotate_inner (se3_rotation g) _ _ U). destruct (leb _ _); [reflexivity|]. rewrite !add3_R, !scale3_R. rewrite <- !act_difference. apply act_toward.
Qed.
Lemma norm_moved g u v : unit_se3 g -> norm3 (sub3 (se3_act g u) (se3_act g v)) = norm3 (sub3 u v).
Proof. intros U. rewrite !sub3_R, !norm3_R. exact (far_act g u v U). Qed.
Theorem C150_moved g shape pose other other_pose : unit_se3 g -> distance_to shape (se3_compose g pose) other (se3_compose g other_pose) = distance_to shape pose other other_pose.
Proof.
  intros U. assert (Centre : forall a, se3_translation (se3_compose g a) = se3_act g (se3_translation a)) by (intros a; rewrite <- !act_centre; apply se3_act_compose).
  assert (Segment : forall a h, capsule_segment (se3_compose g a) h = (se3_act g (fst (capsule_segment a h)), se3_act g (snd (capsule_segment a h)))) by (intros a h; rewrite !segment_R; cbn [fst snd]; rewrite !se3_act_compose; reflexivity).
  destruct shape, other; cbn [distance_to]; unfold sphere_sphere_distance, sphere_capsule_distance, capsule_capsule_distance; rewrite ?Centre, ?Segment.
  - rewrite norm_moved by exact U. reflexivity.
  - destruct (capsule_segment other_pose half_length). cbn [fst snd]. rewrite closest_point_moved, norm_moved by exact U. reflexivity.
  - destruct (capsule_segment pose half_length). cbn [fst snd]. rewrite closest_point_moved, norm_moved by exact U. reflexivity.
  - destruct (capsule_segment pose half_length) as [u v], (capsule_segment other_pose half_length0) as [u' v']. cbn [fst snd]. pose proof (closest_moved g u v u' v' U) as X. destruct (closest_points_between_segments u v u' v') as [x y]. rewrite X, norm_moved by exact U. reflexivity.
Qed.

(** Two capsules that overlap, with a clearance of 0.4 reported: the second is 1.5e-8 long and at a wide angle to the first, but the product of
    the lengths and the sine is small, so they are taken to be parallel. *)
Theorem C150_parallel_refuted : exists shape pose other other_pose, unit_se3 pose /\ unit_se3 other_pose /\ proper_shape shape /\ proper_shape other /\
  (exists p, occupies shape pose p /\ occupies other other_pose p) /\ distance_to shape pose other other_pose = 4 / 10.
Proof.
  destruct two_26 as [E26 P26]. set (w := / IZR (2^26)) in *. set (k := 51 / 100 * w).
  exists (Capsule (3 / 10) (1 / 2)), (SE3 (Quat 1 0 0 0) (0, 0, 1 / 2)), (Capsule (3 / 10) k), (SE3 (Quat (4 / 5) (3 / 5) 0 0) (0, 28 / 100 - k * (24 / 25), 96 / 100 + k * (7 / 25))).
  assert (U : unit_se3 (SE3 (Quat 1 0 0 0) (0, 0, 1 / 2))) by (unfold unit_se3, unit_quaternion; cbn; lra).
  assert (V : unit_se3 (SE3 (Quat (4 / 5) (3 / 5) 0 0) (0, 28 / 100 - k * (24 / 25), 96 / 100 + k * (7 / 25)))) by (unfold unit_se3, unit_quaternion; cbn; lra).
  assert (K : 0 < k) by (unfold k; lra).
  assert (A1 : forall z, se3_act (SE3 (Quat 1 0 0 0) (0, 0, 1 / 2)) (0, 0, z) = (0, 0, 1 / 2 + z)). { intros z. unfold se3_act, so3_act. rewrite add3_R. cbn. rnum. apply point_eq; ring. }
  assert (A2 : forall z, se3_act (SE3 (Quat (4 / 5) (3 / 5) 0 0) (0, 28 / 100 - k * (24 / 25), 96 / 100 + k * (7 / 25))) (0, 0, z) = (0, 28 / 100 - (k + z) * (24 / 25), 96 / 100 + (k + z) * (7 / 25))). { intros z. unfold se3_act, so3_act. rewrite add3_R. cbn. rnum. apply point_eq; field. }
  split; [exact U|]. split; [exact V|]. split; [cbn; lra|]. split; [cbn; lra|]. split.
  - exists (0, 14 / 100, 96 / 100). rewrite !occupies_core by assumption. cbn [core reach].
    assert (Fin : sqrt ((14 / 100) * (14 / 100)) <= 3 / 10) by (rewrite sqrt_square by lra; lra).
    split; [exists (0, 0, 96 / 100); split; [exists (46 / 100); split; [lra|rewrite A1; apply point_eq; field]|]|exists (0, 28 / 100, 96 / 100); split; [exists (- k); split; [lra|rewrite A2; apply point_eq; field]|]];
      unfold far, length, together, multiple, inner; match goal with |- sqrt ?x <= _ => replace x with ((14 / 100) * (14 / 100)) by field; exact Fin end.
  - cbn [distance_to]. unfold capsule_capsule_distance. rewrite !segment_R, !A1, !A2. unfold closest_points_between_segments. rewrite !sub3_R, !dot3_R. unfold together, multiple. cbn [inner].
    match goal with |- context [closest_parameters ?a ?e ?b ?c ?f] => replace a with 1 by field; replace e with (4 * (k * k)) by field; replace b with (56 / 100 * k) by field; replace c with (- 96 / 100) by field; replace f with 0 by field end.
    assert (KK : k * k = 2601 / 10000 * / IZR (2^52)) by (rewrite E26; unfold k; field). assert (Eps : 0 < / IZR (2^52) < 1). { split; [apply Rinv_0_lt_compat, IZR_lt; reflexivity|]. rewrite <- Rinv_1. apply Rinv_lt_contravar; [|apply IZR_lt; reflexivity]. rewrite Rmult_1_l. apply IZR_lt. reflexivity. }
    assert (Par : closest_parameters 1 (4 * (k * k)) (56 / 100 * k) (- 96 / 100) 0 = Some (0, 0)).
    { unfold closest_parameters. rnum. rewrite (proj2 (Rleb_false 1 (/ IZR (2^52)))) by lra. cbn [andb]. rewrite (proj2 (Rleb_false (4 * (k * k)) (/ IZR (2^52)))) by (rewrite KK; lra).
      rewrite (proj2 (Rltb_false (/ IZR (2^52)) (1 * (4 * (k * k)) - 56 / 100 * k * (56 / 100 * k)))) by (replace (1 * (4 * (k * k)) - 56 / 100 * k * (56 / 100 * k)) with ((4 - 3136 / 10000) * (k * k)) by field; rewrite KK; lra). cbv zeta.
      replace ((56 / 100 * k * 0 + 0) / (4 * (k * k))) with 0 by (field; lra). rewrite (proj2 (Rltb_false 0 0)) by lra. rewrite (proj2 (Rltb_false 1 0)) by lra. reflexivity. }
    rewrite Par, !add3_R, !scale3_R, sub3_R, norm3_R. unfold together, multiple, length, inner. rnum. match goal with |- sqrt ?x - _ - _ = _ => replace x with (1 * 1) by field end. rewrite sqrt_square by lra. lra.
Qed.

(** ** Filling a query *)
Section AnyScalar.
Context {T : Type} {NT : Num T}.
Variables (max_self max_environment max_excluded : nat).
(** An accepted call adds its entry behind the others and returns its place; a refused one, when the list is full, changes nothing. *)
Theorem C150_attach (q : collision_query T) frame_index shape local_pose :
  ((List.length (cq_self q) < max_self)%nat /\ exists q', push_self_primitive max_self frame_index shape local_pose q = (q', Ok (self_primitive_count q)) /\ cq_self q' = cq_self q ++ [{| at_frame := frame_index; at_shape := shape; at_local := local_pose |}] /\
     nth_error (cq_self q') (self_primitive_count q) = Some {| at_frame := frame_index; at_shape := shape; at_local := local_pose |} /\ cq_environment q' = cq_environment q /\ cq_excluded q' = cq_excluded q /\ self_primitive_count q' = S (self_primitive_count q)) \/
  ((max_self <= List.length (cq_self q))%nat /\ push_self_primitive max_self frame_index shape local_pose q = (q, Err KiCollisionCapacityExceeded)).
Proof.
  unfold push_self_primitive. destruct (Nat.ltb (List.length (cq_self q)) max_self) eqn:L; [apply Nat.ltb_lt in L; left|apply Nat.ltb_ge in L; right; split; [exact L|reflexivity]]. split; [exact L|]. eexists. split; [reflexivity|]. cbn [cq_self cq_environment cq_excluded]. unfold self_primitive_count. cbn [cq_self].
  split; [reflexivity|]. split; [rewrite nth_error_app2, Nat.sub_diag by lia; reflexivity|]. split; [reflexivity|]. split; [reflexivity|]. rewrite app_length. cbn. lia.
Qed.
Theorem C150_surround (q : collision_query T) shape pose :
  ((List.length (cq_environment q) < max_environment)%nat /\ exists q', push_environment_primitive max_environment shape pose q = (q', Ok (environment_primitive_count q)) /\ cq_environment q' = cq_environment q ++ [{| ob_shape := shape; ob_pose := pose |}] /\
     nth_error (cq_environment q') (environment_primitive_count q) = Some {| ob_shape := shape; ob_pose := pose |} /\ cq_self q' = cq_self q /\ cq_excluded q' = cq_excluded q /\ environment_primitive_count q' = S (environment_primitive_count q)) \/
  ((max_environment <= List.length (cq_environment q))%nat /\ push_environment_primitive max_environment shape pose q = (q, Err KiCollisionCapacityExceeded)).
Proof.
  unfold push_environment_primitive. destruct (Nat.ltb (List.length (cq_environment q)) max_environment) eqn:L; [apply Nat.ltb_lt in L; left|apply Nat.ltb_ge in L; right; split; [exact L|reflexivity]]. split; [exact L|]. eexists. split; [reflexivity|]. cbn [cq_self cq_environment cq_excluded]. unfold environment_primitive_count. cbn [cq_environment].
  split; [reflexivity|]. split; [rewrite nth_error_app2, Nat.sub_diag by lia; reflexivity|]. split; [reflexivity|]. split; [reflexivity|]. rewrite app_length. cbn. lia.
Qed.
(** Leaving a pair out: in whichever order it is named, it is no longer looked at, and every other pair is as before. *)
Theorem C150_leave_out (q : collision_query T) first second :
  ((List.length (cq_excluded q) < max_excluded)%nat /\ exists q', exclude_pair max_excluded first second q = (q', Ok tt) /\ cq_self q' = cq_self q /\ cq_environment q' = cq_environment q /\
     ~ in_pair q' (SelfPrimitive first, SelfPrimitive second) /\ ~ in_pair q' (SelfPrimitive second, SelfPrimitive first) /\
     forall pair, pair <> (SelfPrimitive first, SelfPrimitive second) -> pair <> (SelfPrimitive second, SelfPrimitive first) -> (in_pair q' pair <-> in_pair q pair)) \/
  ((max_excluded <= List.length (cq_excluded q))%nat /\ exclude_pair max_excluded first second q = (q, Err KiCollisionCapacityExceeded)).
Proof.
  unfold exclude_pair. destruct (Nat.ltb (List.length (cq_excluded q)) max_excluded) eqn:L; [apply Nat.ltb_lt in L; left|apply Nat.ltb_ge in L; right; split; [exact L|reflexivity]]. split; [exact L|]. eexists. split; [reflexivity|]. cbn [cq_self cq_environment]. split; [reflexivity|]. split; [reflexivity|].
  cbn [in_pair]. unfold left_out. cbn [cq_self cq_excluded]. split; [intros [_ N]; apply N; left; apply in_or_app; right; left; reflexivity|]. split; [intros [_ N]; apply N; right; apply in_or_app; right; left; reflexivity|].
  intros [[i|i] [j|j]] N1 N2; cbn [in_pair]; unfold left_out; cbn [cq_self cq_environment cq_excluded]; try tauto. rewrite !in_app_iff. cbn [In]. split; [tauto|]. intros [H N]. split; [exact H|]. intros [[X|[X|[]]]|[X|[X|[]]]]; [tauto| |tauto|]; injection X as <- <-; [apply N1|apply N2]; reflexivity.
Qed.
(** After any calls whatever, each list holds what was asked for first, up to its capacity. *)
Theorem C150_filled (l : list (filling T)) : let q := fold_left (fill max_self max_environment max_excluded) l query_new in
  cq_self q = firstn max_self (asked_attached l) /\ cq_environment q = firstn max_environment (asked_obstacles l) /\ cq_excluded q = firstn max_excluded (asked_left_out l).
Proof.
  cbv zeta. assert (Step : forall A (n : nat) (pre : list A) x, (if Nat.ltb (List.length (firstn n pre)) n then firstn n pre ++ [x] else firstn n pre) = firstn n (pre ++ [x])).
  { intros A n pre x. rewrite firstn_length. destruct (Nat.ltb (Nat.min n (List.length pre)) n) eqn:E.
    - apply Nat.ltb_lt in E. assert (K : (List.length pre < n)%nat) by lia. rewrite (firstn_all2 pre) by lia. rewrite firstn_all2; [reflexivity|]. rewrite app_length. cbn. lia.
    - apply Nat.ltb_ge in E. rewrite firstn_app. replace (n - List.length pre)%nat with 0%nat by lia. cbn. rewrite app_nil_r. reflexivity. }
  rewrite <- (rev_involutive l). induction (rev l) as [|x r IH]; [cbn [rev fold_left]; rewrite !firstn_nil; auto|]. cbn [rev]. rewrite fold_left_app. unfold asked_attached, asked_obstacles, asked_left_out in *. rewrite !flat_map_app. cbn [fold_left flat_map]. rewrite !app_nil_r.
  destruct (fold_left _ (rev r) query_new) as [s e x']. cbn [cq_self cq_environment cq_excluded] in IH. destruct IH as (-> & -> & ->). destruct x; cbn [fill]; unfold push_self_primitive, push_environment_primitive, exclude_pair; cbn [cq_self cq_environment cq_excluded]; rewrite ?app_nil_r; rewrite <- Step;
    destruct (Nat.ltb _ _); cbn [fst cq_self cq_environment cq_excluded]; auto.
Qed.

(** ** The query *)
(** Refused exactly when some attached shape hangs on a frame the state does not have.  Otherwise a report: without a closest pair, when no pair
    looked at is nearer than the largest number, and then a clearance of zero; with one, a pair looked at and its distance. *)
Theorem C150_check (q : collision_query T) state :
  ((exists a, In a (cq_self q) /\ (List.length state <= at_frame a)%nat) <-> check state q = Err KiToolIndexOutOfRange) /\
  ((forall a, In a (cq_self q) -> (at_frame a < List.length state)%nat) -> exists r, check state q = Ok r /\
    (co_closest_pair r = None -> co_minimum_clearance r = zero /\ forall pair d, in_pair q pair -> pair_distance q state pair d -> ltb d max_value = false) /\
    (forall pair, co_closest_pair r = Some pair -> in_pair q pair /\ pair_distance q state pair (co_minimum_clearance r))).
Proof.
  destruct (check_any q state) as [[(a & I & N) E]|[F (r & E & C)]].
  - split; [split; [intros _; exact E|intros _; exists a; split; [exact I|unfold framed in N; lia]]|]. intros F. exfalso. apply N, F, I.
  - split; [split; [intros (a & I & L); specialize (F a I); unfold framed in F; lia|congruence]|]. intros _. exists r. split; [exact E|]. destruct (co_closest_pair r); split; intros; try discriminate; [injection H as <-|]; exact C.
Qed.
End AnyScalar.

(** Over the reals: the clearance is the least, and a report says clear exactly when no pair looked at is nearer than asked for. *)
Theorem C150_closest (q : collision_query R) state r : check state q = Ok r -> forall pair, co_closest_pair r = Some pair ->
  in_pair q pair /\ pair_distance q state pair (co_minimum_clearance r) /\ forall pair' d, in_pair q pair' -> pair_distance q state pair' d -> co_minimum_clearance r <= d.
Proof.
  intros E pair C. destruct (check_any q state) as [[_ X]|[_ (r' & E' & X)]]; [congruence|]. rewrite E in E'. injection E' as <-. rewrite C in X. split; [apply X|]. split; [apply X|]. exact (check_least q state r E pair C).
Qed.
Theorem C150_clear (q : collision_query R) state r required : check state q = Ok r -> required <= max_value ->
  (is_clear r required = true <-> forall pair d, in_pair q pair -> pair_distance q state pair d -> required <= d).
Proof.
  intros E M. destruct (check_any q state) as [[_ X]|[_ (r' & E' & X)]]; [congruence|]. rewrite E in E'. injection E' as <-. pose proof (check_least q state r E) as L. unfold is_clear. destruct (co_closest_pair r) as [pair|].
  - rnum. destruct X as [I D]. split.
    + intros H. apply Rleb_true in H. intros pair' d I' D'. specialize (L pair eq_refl pair' d I' D'). lra.
    + intros H. apply Rleb_true. exact (H pair _ I D).
  - split; [|reflexivity]. intros _ pair d I D. destruct X as [_ X]. specialize (X pair d I D). revert M X. rnum. intros M X. apply Rltb_false in X. lra.
Qed.
(** And then none of the attached solids comes nearer than asked for to another that is looked at, up to what a distance may be too large by. *)
Theorem C150_safe (q : collision_query R) state r required : check state q = Ok r -> required <= max_value -> is_clear r required = true ->
  forall s s' shape pose shape' pose', in_pair q (s, s') -> solid_of q state s shape pose -> solid_of q state s' shape' pose' -> unit_se3 pose -> unit_se3 pose' -> proper_shape shape -> proper_shape shape' ->
  forall x y, occupies shape pose x -> occupies shape' pose' y -> required - too_large_by shape pose shape' pose' <= far x y.
Proof.
  intros E M C s s' shape pose shape' pose' I S1 S2 U V P Q x y X Y. apply (C150_clear q state r required E M) with (pair := (s, s')) (d := distance_to shape pose shape' pose') in C; [|exact I|].
  - destruct (distance_measures shape pose shape' pose' U V P Q) as (A & _). specialize (A x y X Y). lra.
  - destruct s as [i|i], s' as [j|k]; cbn [in_pair] in I; try contradiction; cbn [solid_of pair_distance] in *.
    + destruct S1 as (a & f & Na & Ef & -> & ->), S2 as (b & g & Nb & Eg & -> & ->). exists a, b, f, g. auto.
    + destruct S1 as (a & f & Na & Ef & -> & ->), S2 as (o & No & -> & ->). exists a, o, f. auto.
Qed.

(** A distance that is not a number is not nearer than anything: two spheres about the same point, one with a radius that is not a number, are
    reported clear of each other whatever is asked for. *)
Theorem C150_unreadable_refuted : exists (q : collision_query XR) state r, check state q = Ok r /\ in_pair q (SelfPrimitive 0, Environment 0) /\ (forall required, is_clear r required = true) /\ co_minimum_clearance r = Fin 0.
Proof.
  set (here := SE3 (Quat (Fin 1) (Fin 0) (Fin 0) (Fin 0)) (Fin 0, Fin 0, Fin 0)).
  exists {| cq_self := [{| at_frame := 0; at_shape := Sphere XNaN; at_local := here |}]; cq_environment := [{| ob_shape := Sphere (Fin 1); ob_pose := here |}]; cq_excluded := [] |}, [here].
  eexists. split; [|split; [cbn; lia|split; [intros required|]]].
  - unfold check. cbn [numbered cq_self cq_environment List.length seq combine check_each placed nth_error ok_or bind at_frame at_local at_shape skipn Nat.add check_others check_obstacles fold_left ob_shape ob_pose distance_to]. unfold tighter. cbn [fst snd].
    unfold sphere_sphere_distance. set (n := norm3 _). assert (E : sub (sub n XNaN) (Fin 1) = XNaN) by (xnum; destruct n; reflexivity). rewrite E. xnum. cbn [bind snd fst]. reflexivity.
  - reflexivity.
  - reflexivity.
Qed.

(** ** Examples *)
(** The one of the documentation: spheres of 0.3 and 0.2, a metre apart, leave half a metre. *)
Example C150_example : let here := SE3 (Quat 1 0 0 0) (0, 0, 0) in let there := SE3 (Quat 1 0 0 0) (1, 0, 0) in
  unit_se3 here /\ unit_se3 there /\ proper_shape (Sphere (3 / 10)) /\ proper_shape (Sphere (2 / 10)) /\ too_large_by (Sphere (3 / 10)) here (Sphere (2 / 10)) there = 0 /\ distance_to (Sphere (3 / 10)) here (Sphere (2 / 10)) there = 1 / 2.
Proof.
  cbv zeta. split; [unfold unit_se3, unit_quaternion; cbn; lra|]. split; [unfold unit_se3, unit_quaternion; cbn; lra|]. split; [cbn; lra|]. split; [cbn; lra|]. split; [reflexivity|].
  cbn [distance_to]. unfold sphere_sphere_distance. rewrite sub3_R, norm3_R. unfold together, multiple, length, inner. cbn [se3_translation]. rnum. match goal with |- sqrt ?x - _ - _ = _ => replace x with (1 * 1) by field end. rewrite sqrt_square by lra. lra.
Qed.
(** A capsule upright at the origin and one lying across it at height 2: they cross at right angles, far from parallel, so nothing is lost. *)
Example C150_crossed_example : let here := SE3 (Quat 1 0 0 0) (0, 0, 0) in let there := SE3 (Quat (3 / 5) (4 / 5) 0 0) (0, 0, 2) in
  unit_se3 here /\ unit_se3 there /\ proper_shape (Capsule (1 / 4) 1) /\ proper_shape (Capsule (1 / 4) 1) /\ too_large_by (Capsule (1 / 4) 1) here (Capsule (1 / 4) 1) there = 0.
Proof.
  cbv zeta. split; [unfold unit_se3, unit_quaternion; cbn; lra|]. split; [unfold unit_se3, unit_quaternion; cbn; lra|]. split; [cbn; lra|]. split; [cbn; lra|].
  assert (Eps : / IZR (2^52) < 1 / 2). { apply Rlt_le_trans with (/ 2); [|lra]. apply Rinv_lt_contravar; [|apply IZR_lt; reflexivity]. apply Rmult_lt_0_compat; [lra|apply IZR_lt; reflexivity]. }
  cbn [too_large_by]. unfold short. destruct (Rle_dec ((2 * 1) ^ 2) (/ IZR (2 ^ 52))) as [A|_]; [lra|]. cbv zeta.
  set (s := length _). assert (S1 : s * s = (24 / 25) * (24 / 25)). { unfold s. rewrite length_sqr. unfold upright. cbn. rnum. field. }
  destruct (Rle_dec ((2 * 1 * (2 * 1) * s) ^ 2) (/ IZR (2 ^ 52))) as [A|_]; [|reflexivity]. exfalso. replace ((2 * 1 * (2 * 1) * s) ^ 2) with (16 * (s * s)) in A by ring. rewrite S1 in A. lra.
Qed.
(** A query that finds its pair: two spheres on the same frame, half a metre apart *)
Example C150_query_example : let here := SE3 (Quat 1 0 0 0) (0, 0, 0) in let there := SE3 (Quat 1 0 0 0) (1, 0, 0) in
  let q := {| cq_self := [{| at_frame := 0; at_shape := Sphere (3 / 10); at_local := here |}; {| at_frame := 0; at_shape := Sphere (2 / 10); at_local := there |}]; cq_environment := []; cq_excluded := [] |} in
  exists r, check [here] q = Ok r /\ co_closest_pair r = Some (SelfPrimitive 0, SelfPrimitive 1) /\ co_minimum_clearance r = 1 / 2 /\ is_clear r (1 / 4) = true.
Proof.
  intros here there q. assert (L : forall a, se3_compose here a = a). { intros a. exact (proj1 (se3_identity_l a)). }
  assert (D : distance_to (Sphere (3 / 10)) here (Sphere (2 / 10)) there = 1 / 2) by apply C150_example.
  assert (C : check [here] q = Ok {| co_minimum_clearance := 1 / 2; co_closest_pair := Some (SelfPrimitive 0, SelfPrimitive 1) |}).
  { unfold check, q. cbn [numbered cq_self cq_environment cq_excluded List.length seq combine check_each placed nth_error ok_or bind at_frame at_local at_shape skipn Nat.add check_others is_excluded existsb check_obstacles fold_left]. rewrite !L, D. unfold tighter. cbn [fst snd]. rnum.
    rewrite (proj2 (Rltb_true (1 / 2) _)); [reflexivity|]. apply Rlt_le_trans with 1; [lra|]. change (1 <= IZR (2^53 - 1) * IZR (2^971)). rewrite <- mult_IZR. apply IZR_le. apply Zle_bool_imp_le. reflexivity. }
  eexists. split; [exact C|]. split; [reflexivity|]. split; [reflexivity|]. unfold is_clear. cbn. rnum. apply Rleb_true. lra.
Qed.

Print Assumptions C150_distance.
Print Assumptions C150_overlap.
Print Assumptions C150_too_large.
Print Assumptions C150_symmetric.
Print Assumptions C150_moved.
Print Assumptions C150_parallel_refuted.
Print Assumptions C150_attach.
Print Assumptions C150_surround.
Print Assumptions C150_leave_out.
Print Assumptions C150_filled.
Print Assumptions C150_check.
Print Assumptions C150_closest.
Print Assumptions C150_clear.
Print Assumptions C150_safe.
Print Assumptions C150_unreadable_refuted.
Print Assumptions C150_example.
Print Assumptions C150_crossed_example.
Print Assumptions C150_query_example.
