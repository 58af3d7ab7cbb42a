(** C153: a tracked body's state: folding an error in and taking it out, and one IMU step. *)
From Coq Require Import ZArith Reals List Bool Arith Lia Lra Psatz.
From Coquelicot Require Import Coquelicot.
From Verif Require Import Base.Scalar Base.RNum Base.Lists Base.Series Model.Errors Model.Vector Model.Matrix Model.Quaternion Model.Lie Model.Ode Model.ErrorState.
From Verif Require Import Spec.Matrix Spec.MatrixExp Spec.Rotation Spec.Quaternion Spec.ErrorState Proofs.Matrix Proofs.Algebra Proofs.Rotation Proofs.Quaternion Proofs.Space Props.Quaternion Props.AttitudeStep.
Import ListNotations.
Local Open Scope R_scope.
Local Notation length := Spec.Rotation.length.
Local Notation exp := Rtrigo_def.exp.
Local Notation sqrt := R_sqrt.sqrt.
Local Notation scale3_R := Proofs.Quaternion.scale3_R.

Lemma part_R (e : list R) k : error_part e k = part e k.
Proof. unfold error_part, part, vget. rewrite Nat.add_1_r, <- plus_n_Sm, Nat.add_1_r. reflexivity. Qed.
Lemma exp_none : from_scaled_axis (0, 0, 0) = @quat_identity R Rnum.
Proof. rewrite from_scaled_axis_small by (rewrite length_coordinates_zero; apply small_bound). rewrite length_coordinates_zero. unfold from_scalar_vector, multiple, quat_identity. rnum. f_equal; field. Qed.
Lemma log_none : to_scaled_axis (@quat_identity R Rnum) = (0, 0, 0).
Proof.
  rewrite to_scaled_axis_R. destruct (Rlt_dec _ _) as [H|H].
  - replace (@quat_identity R Rnum) with (from_scalar_vector 1 (0, 0, 0)) by reflexivity. rewrite shortest_of, vector_of by lra. unfold multiple. apply point_eq; ring.
  - exfalso. apply H. replace (@quat_identity R Rnum) with (from_scalar_vector 1 (0, 0, 0)) by reflexivity. rewrite vector_of, length_coordinates_zero. apply small_bound.
Qed.
Lemma together_back (p q : point) : together p (together q (multiple (-1) p)) = q.
Proof. destruct p as [[? ?] ?], q as [[? ?] ?]. unfold together, multiple. apply point_eq; ring. Qed.
Lemma together_off (p q : point) : together (together p q) (multiple (-1) p) = q.
Proof. destruct p as [[? ?] ?], q as [[? ?] ?]. unfold together, multiple. apply point_eq; ring. Qed.
Lemma error_parts (p v r g a : point) : let e := list3 p ++ list3 v ++ list3 r ++ list3 g ++ list3 a in
  List.length e = 15%nat /\ part e 0 = p /\ part e 3 = v /\ part e 6 = r /\ part e 9 = g /\ part e 12 = a.
Proof. destruct p as [[? ?] ?], v as [[? ?] ?], r as [[? ?] ?], g as [[? ?] ?], a as [[? ?] ?]. repeat split. Qed.
Lemma error_list (e : list R) : List.length e = 15%nat -> e = list3 (part e 0) ++ list3 (part e 3) ++ list3 (part e 6) ++ list3 (part e 9) ++ list3 (part e 12).
Proof. intros L. do 16 (destruct e as [|? e]; try discriminate). reflexivity. Qed.

(** Folding an error in: four groups add on, and the facing is turned about the body's own axes, staying a rotation. *)
Theorem C153_fold s e : let t := plus_error s e in
  ns_position t = together (ns_position s) (part e 0) /\ ns_velocity t = together (ns_velocity s) (part e 3) /\
  ns_gyroscope_bias t = together (ns_gyroscope_bias s) (part e 9) /\ ns_accelerometer_bias t = together (ns_accelerometer_bias s) (part e 12) /\
  (unit_quaternion (ns_orientation s) -> plain (part e 6) -> unit_quaternion (ns_orientation t) /\
   equal 3 3 (mget (to_rotation_matrix (ns_orientation t))) (product 3 (mget (to_rotation_matrix (ns_orientation s))) (matrix_exp 3 (cross_matrix (part e 6))))).
Proof.
  unfold plus_error. cbn [ns_position ns_velocity ns_orientation ns_gyroscope_bias ns_accelerometer_bias]. rewrite !add3_R, !part_R. do 4 (split; [reflexivity|]). intros U P.
  unfold so3_compose, so3_exp. destruct (exp_plain _ P) as [U2 E]. split; [apply unit_mul; auto|]. eapply equal_trans; [apply rotation_matrix_mul; auto|]. apply equal_product; [apply equal_refl|apply E].
Qed.
(** Taking the error of one state from another and folding it in gives the state back; its turn is at most half a turn. *)
Theorem C153_back s r : unit_quaternion (ns_orientation s) -> unit_quaternion (ns_orientation r) ->
  let between := quat_mul (conjugate (ns_orientation r)) (ns_orientation s) in
  30 / IZR (2^52) <= length (quat_vec between) \/ between = quat_identity ->
  List.length (error_from s r) = 15%nat /\ length (part (error_from s r) 6) <= PI /\ same_state (plus_error r (error_from s r)) s.
Proof.
  intros Us Ur between H. unfold error_from. rewrite !sub3_R.
  destruct (error_parts (together (ns_position s) (multiple (-1) (ns_position r))) (together (ns_velocity s) (multiple (-1) (ns_velocity r)))
    (so3_log (so3_compose (so3_inverse (ns_orientation r)) (ns_orientation s))) (together (ns_gyroscope_bias s) (multiple (-1) (ns_gyroscope_bias r)))
    (together (ns_accelerometer_bias s) (multiple (-1) (ns_accelerometer_bias r)))) as (L & E0 & E1 & E2 & E3 & E4). cbv zeta in *.
  split; [exact L|]. unfold plus_error, same_state. cbn [ns_position ns_velocity ns_orientation ns_gyroscope_bias ns_accelerometer_bias]. rewrite !part_R, E0, E1, E2, E3, E4, !add3_R, !together_back.
  change (so3_log (so3_compose (so3_inverse (ns_orientation r)) (ns_orientation s))) with (to_scaled_axis between).
  assert (Ub : unit_quaternion between) by (apply unit_mul; [apply unit_conjugate|]; auto).
  assert (B : quat_mul (ns_orientation r) between = ns_orientation s).
  { unfold between. rewrite <- mul_assoc, (proj1 (conjugate_inverse _ Ur)). apply mul_identity_l. }
  destruct H as [H|H].
  - destruct (proj1 (C97_logarithm between Ub) H) as (A1 & A2 & _). split; [exact A1|]. do 4 (split; [reflexivity|]). unfold so3_compose, so3_exp.
    destruct A2 as [-> | ->]; [left; exact B|right]. rewrite <- B. destruct (ns_orientation r) as [w0 x0 y0 z0], between as [w1 x1 y1 z1]. unfold quat_mul, quat_neg. cbn [qw qx qy qz]. rnum. f_equal; ring.
  - rewrite H, log_none. split; [rewrite length_coordinates_zero; pose proof PI_RGT_0; lra|]. do 4 (split; [reflexivity|]). unfold so3_compose, so3_exp. rewrite exp_none, <- H. left. exact B.
Qed.
(** ... and the other way: the error of a state with an error folded in is that error, up to half a turn. *)
Theorem C153_forth s e : unit_quaternion (ns_orientation s) -> List.length e = 15%nat -> 120 / IZR (2^52) <= length (part e 6) <= PI \/ part e 6 = (0, 0, 0) ->
  error_from (plus_error s e) s = e.
Proof.
  intros U L H. unfold error_from, plus_error. cbn [ns_position ns_velocity ns_orientation ns_gyroscope_bias ns_accelerometer_bias]. rewrite !part_R, !add3_R, !sub3_R, !together_off.
  unfold so3_log, so3_compose, so3_inverse, so3_exp. rewrite <- mul_assoc, (proj2 (conjugate_inverse _ U)), mul_identity_l.
  rewrite (error_list e L) at 6. do 2 f_equal. f_equal. destruct H as [H|H]; [rewrite (proj1 (C97_round_trip _) H); reflexivity|rewrite H, exp_none, log_none; reflexivity].
Qed.

(** A turn too small for that comes back to within its cube, and the other twelve numbers exactly. *)
Theorem C153_forth_near s e : unit_quaternion (ns_orientation s) -> length (part e 6) < 120 / IZR (2^52) -> let back := error_from (plus_error s e) s in
  part back 0 = part e 0 /\ part back 3 = part e 3 /\ part back 9 = part e 9 /\ part back 12 = part e 12 /\
  length (together (part back 6) (multiple (-1) (part e 6))) <= length (part e 6) ^ 3.
Proof.
  intros U H. unfold error_from, plus_error. cbn [ns_position ns_velocity ns_orientation ns_gyroscope_bias ns_accelerometer_bias]. rewrite !part_R, !add3_R, !sub3_R, !together_off.
  unfold so3_log, so3_compose, so3_inverse, so3_exp. rewrite <- mul_assoc, (proj2 (conjugate_inverse _ U)), mul_identity_l.
  destruct (error_parts (part e 0) (part e 3) (to_scaled_axis (from_scaled_axis (part e 6))) (part e 9) (part e 12)) as (_ & E0 & E1 & E2 & E3 & E4). cbv zeta in *.
  rewrite E0, E1, E2, E3, E4. do 4 (split; [reflexivity|]). apply (proj2 (C97_round_trip _) H).
Qed.

(** One IMU step, as the time it takes varies: the body moves at its velocity, the velocity changes at the push read less its offset,
    turned into the world, with gravity added, and the facing turns at the rate read less its offset. *)
Theorem C153_motion s gyroscope accelerometer gravity : let at_ h := propagated s gyroscope accelerometer h gravity in
  let rate := together gyroscope (multiple (-1) (ns_gyroscope_bias s)) in
  let push := together (transform_point (ns_orientation s) (together accelerometer (multiple (-1) (ns_accelerometer_bias s)))) gravity in
  ns_position (at_ 0) = ns_position s /\ ns_velocity (at_ 0) = ns_velocity s /\
  (forall h k, (k < 3)%nat -> is_derive (fun t => coordinate (ns_position (at_ t)) k) h (coordinate (ns_velocity (at_ h)) k) /\
                is_derive (fun t => coordinate (ns_velocity (at_ t)) k) h (coordinate push k)) /\
  (forall h, unit_quaternion (ns_orientation s) -> plain (multiple h rate) -> unit_quaternion (ns_orientation (at_ h)) /\
     equal 3 3 (mget (to_rotation_matrix (ns_orientation (at_ h)))) (product 3 (mget (to_rotation_matrix (ns_orientation s))) (matrix_exp 3 (cross_matrix (multiple h rate))))) /\
  (forall h, ns_gyroscope_bias (at_ h) = ns_gyroscope_bias s /\ ns_accelerometer_bias (at_ h) = ns_accelerometer_bias s).
Proof.
  intros at_ rate push. unfold at_, propagated. cbn [ns_position ns_velocity ns_orientation ns_gyroscope_bias ns_accelerometer_bias].
  unfold so3_act. rewrite !sub3_R. rewrite !(add3_R (transform_point _ _)). fold push rate. rewrite !scale3_R, !add3_R. rnum.
  destruct s as [[[p1 p2] p3] [[v1 v2] v3] q bg ba]. cbn [ns_position ns_velocity ns_orientation ns_gyroscope_bias ns_accelerometer_bias] in *. generalize push. intros [[a1 a2] a3].
  split; [unfold together, multiple; apply point_eq; ring|]. split; [unfold together, multiple; apply point_eq; ring|]. split; [|split; [|auto]].
  - intros h k Hk. split.
    + rewrite (add3_R _ (scale3 _ h)), (scale3_R _ h). apply (is_derive_ext (fun t => coordinate (p1, p2, p3) k + t * coordinate (v1, v2, v3) k + t * t * / 2 * coordinate (a1, a2, a3) k)).
      { intros t. rewrite !add3_R, !scale3_R. unfold together, multiple, coordinate. match goal with |- @eq _ ?a ?b => change (@eq R a b) end. destruct k as [|[|[|k]]]; try lia; cbn [nth]; ring. }
      replace (coordinate (together (v1, v2, v3) (multiple h (a1, a2, a3))) k) with (coordinate (v1, v2, v3) k + h * coordinate (a1, a2, a3) k)
        by (unfold together, multiple, coordinate; destruct k as [|[|[|k]]]; try lia; cbn [nth]; ring).
      generalize (coordinate (p1, p2, p3) k) (coordinate (v1, v2, v3) k) (coordinate (a1, a2, a3) k). intros x y z. auto_derive; [exact I|]. match goal with |- @eq _ ?a ?b => change (@eq R a b) end. field.
    + apply (is_derive_ext (fun t => coordinate (v1, v2, v3) k + t * coordinate (a1, a2, a3) k)).
      { intros t. rewrite !add3_R, !scale3_R. unfold together, multiple, coordinate. match goal with |- @eq _ ?a ?b => change (@eq R a b) end. destruct k as [|[|[|k]]]; try lia; cbn [nth]; ring. }
      generalize (coordinate (v1, v2, v3) k) (coordinate (a1, a2, a3) k). intros x y. auto_derive; [exact I|]. match goal with |- @eq _ ?a ?b => change (@eq R a b) end. ring.
  - intros h U P. rewrite scale3_R. unfold so3_compose, so3_exp. destruct (exp_plain _ P) as [U2 E]. split; [apply unit_mul; auto|]. eapply equal_trans; [apply rotation_matrix_mul; auto|]. apply equal_product; [apply equal_refl|apply E].
Qed.
(** Held still against gravity with the offsets known, the state does not move. *)
Theorem C153_still s gravity h : unit_quaternion (ns_orientation s) -> ns_velocity s = (0, 0, 0) ->
  propagated s (ns_gyroscope_bias s) (together (inverse_transform_point (ns_orientation s) (multiple (-1) gravity)) (ns_accelerometer_bias s)) h gravity = s.
Proof.
  intros U V. unfold propagated. rewrite !sub3_R.
  assert (E : forall p : point, together p (multiple (-1) p) = (0, 0, 0)) by (intros [[? ?] ?]; unfold together, multiple; apply point_eq; ring).
  rewrite E. assert (A : forall a b : point, together (together a b) (multiple (-1) b) = a) by (intros [[? ?] ?] [[? ?] ?]; unfold together, multiple; apply point_eq; ring).
  rewrite A. unfold so3_act. assert (B : transform_point (ns_orientation s) (inverse_transform_point (ns_orientation s) (multiple (-1) gravity)) = multiple (-1) gravity).
  { destruct (C94_rotation _ U) as (_ & _ & _ & _ & _ & _ & _ & X). apply X. } rewrite B, !add3_R.
  assert (C : together (multiple (-1) gravity) gravity = (0, 0, 0)) by (destruct gravity as [[? ?] ?]; unfold together, multiple; apply point_eq; ring).
  rewrite C, V, !scale3_R. assert (D : forall k, multiple k (0, 0, 0) = (0, 0, 0)) by (intros; unfold multiple; apply point_eq; ring). rewrite !D.
  assert (F : forall p : point, together p (0, 0, 0) = p) by (intros [[? ?] ?]; unfold together; apply point_eq; ring). rewrite !F.
  unfold so3_compose, so3_exp. rewrite exp_none, mul_identity_r. rewrite <- V. destruct s. reflexivity.
Qed.
(** Any scalar: finite means every one of the sixteen numbers is. *)
Theorem C153_finite T (NT : Num T) (s : nominal_state T) : ns_is_finite s = true <-> forall x, In x (numbers s) -> is_finite x = true.
Proof.
  destruct s as [[[p1 p2] p3] [[v1 v2] v3] [w x y z] [[g1 g2] g3] [[a1 a2] a3]]. unfold ns_is_finite, numbers, is_finite3, vec_is_finite, list3. cbn. rewrite !andb_true_iff. split.
  - intros H u D. repeat destruct D as [<-|D]; tauto.
  - intros H. repeat split; apply H; tauto.
Qed.

(** A body on the move, tipped a third of a turn, with an error of three radians. *)
Example C153_example : let s := NominalState (1, 2, 3) (4, 5, 6) (Quat (/ 2) (/ 2) (/ 2) (/ 2)) (0, 0, 1) (1, 0, 0) in
  let e := [1; 1; 1; 2; 2; 2; 1; 2; -2; 3; 3; 3; 4; 4; 4] in
  unit_quaternion (ns_orientation s) /\ error_from (plus_error s e) s = e /\ plain (part e 6) /\ ns_position (plus_error s e) = (2, 3, 4) /\
  ns_velocity (propagated s (0, 0, 1) (1, 0, 0) 2 (0, 0, -10)) = (4, 5, -14).
Proof.
  intros s e. assert (U : unit_quaternion (ns_orientation s)) by (unfold unit_quaternion, s; cbn; field). split; [exact U|].
  assert (L : length (part e 6) = 3). { unfold part, e, length, inner. cbn [nth Nat.add]. replace (_ + _) with (Rsqr 3) by (unfold Rsqr; ring). apply sqrt_Rsqr. lra. }
  pose proof small_bound as B. assert (S47 : / IZR (2^47) <= / 1000) by (apply Rinv_le_contravar; [lra|apply IZR_le; lia]).
  split; [apply C153_forth; auto; left; rewrite L; replace (120 / IZR (2^52)) with (4 * small) by (unfold small; field; apply not_0_IZR; lia); pose proof (PI_ineq 1); pose proof PI2_3_2; lra|].
  split; [unfold plain; rewrite L; fold small; lra|]. split; [unfold plus_error, s; cbn [ns_position]; rewrite part_R, add3_R; unfold part, e, together; cbn [nth Nat.add]; apply point_eq; ring|].
  unfold propagated, s. cbn [ns_velocity ns_orientation ns_accelerometer_bias]. unfold so3_act. rewrite sub3_R, !add3_R, scale3_R. unfold together, multiple. rewrite transform_explicit. apply point_eq; field.
Qed.
Print Assumptions C153_fold.
Print Assumptions C153_back.
Print Assumptions C153_forth.
Print Assumptions C153_forth_near.
Print Assumptions C153_motion.
Print Assumptions C153_still.
Print Assumptions C153_finite.
