(** Attitude control: the error dynamics and the decay of the energy. *)
From Coq Require Import ZArith List Bool Arith Reals Lra Lia.
From Coquelicot Require Import Coquelicot.
From Verif Require Import Base.Scalar Base.RNum Base.Lists Base.Series Base.Deriv Model.Vector Model.Matrix Model.Quaternion Model.Lie Model.AttitudeControl Spec.Matrix Spec.Rotation Spec.Quaternion Spec.Space
  Proofs.Matrix Proofs.Algebra Proofs.Expm Proofs.Flow Proofs.Quaternion Proofs.Rotation Proofs.Pairs Proofs.SpaceJacobian Proofs.Space Proofs.Screw Proofs.Inertia Spec.AttitudeControl.
Import ListNotations.
Local Open Scope R_scope.
Local Notation cos := Rtrigo_def.cos.
Local Notation sin := Rtrigo_def.sin.
Local Notation sqrt := R_sqrt.sqrt.
Local Notation exp := Rtrigo_def.exp.
Local Notation length := Spec.Rotation.length.

(** ** The model in terms of rotations *)
Definition between (q d : quaternion R) : quaternion R := quat_mul (conjugate q) d.
Lemma between_unit q d : unit_quaternion q -> unit_quaternion d -> unit_quaternion (between q d).
Proof. intros A B. apply unit_mul; auto. apply unit_conjugate, A. Qed.
Lemma seen_between q d v : seen_rate q d v = transform_point (between q d) v.
Proof. unfold seen_rate, between, inverse_transform_point. rewrite transform_mul. reflexivity. Qed.
Lemma conjugate_matrix q i j : (i < 3)%nat -> (j < 3)%nat -> mget (to_rotation_matrix (conjugate q)) i j = mget (to_rotation_matrix q) j i.
Proof. intros Hi Hj. destruct q as [w x y z]. three i; three j; cbn; rnum; ring. Qed.
Lemma relative_read q d : unit_quaternion q -> unit_quaternion d -> shape 3 3 (relative_attitude q d) /\ equal 3 3 (mget (relative_attitude q d)) (mget (to_rotation_matrix (between q d))).
Proof.
  intros A B. split; [apply shape_mat_fn|]. intros i j Hi Hj. unfold relative_attitude. rewrite mget_mul by auto. unfold between. rewrite (rotation_matrix_mul _ d (unit_conjugate q A) B i j Hi Hj).
  unfold product. apply bsum_ext. intros k Hk. rewrite mget_transpose by auto. rewrite conjugate_matrix by auto. reflexivity.
Qed.
Lemma mat_vec3_R m v : mat_vec3 m v = applied (mget m) v.
Proof. unfold mat_vec3, applied, of_list3. rewrite !vget_mat_vec by lia. destruct v as [[x y] z]. reflexivity. Qed.
Lemma applied_ext m m' p : equal 3 3 m m' -> applied m p = applied m' p.
Proof. intros E. unfold applied, times, bsum. rewrite !E by lia. reflexivity. Qed.
Lemma relative_vec q d v : unit_quaternion q -> unit_quaternion d -> mat_vec3 (relative_attitude q d) v = seen_rate q d v.
Proof.
  intros A B. rewrite mat_vec3_R, (applied_ext _ _ _ (proj2 (relative_read q d A B))), seen_between. apply coordinate_inj. intros i Hi. rewrite (rotated_coordinate _ v i (between_unit q d A B) Hi). three i; reflexivity.
Qed.
Lemma error_read q d : unit_quaternion q -> unit_quaternion d -> attitude_error q d = multiple (- 2 * qw (between q d)) (quat_vec (between q d)).
Proof.
  intros A B. destruct (relative_read q d A B) as [SH E]. unfold attitude_error, error_of_relative. rewrite scale3_R. unfold so3_vee, mat_sub.
  rewrite !(mget_map2 sub 3 3) by (first [exact SH|apply shape_mat_fn|lia]). unfold transpose. rewrite !mget_mat_fn by lia. rewrite !E by lia. destruct (between q d) as [w x y z]. cbn. rnum. unfold multiple. apply point_eq; field.
Qed.

(** ** Derivatives *)
Lemma inner_changes u v t du dv : changes u t du -> changes v t dv -> is_derive (fun s => inner (u s) (v s)) t (inner du (v t) + inner (u t) dv).
Proof.
  intros A B. assert (E : forall a b : point, inner a b = bsum 3 (fun i => coordinate a i * coordinate b i)) by (intros [[x y] z] [[x' y'] z']; unfold bsum; cbn; ring).
  apply (is_derive_ext (fun s => bsum 3 (fun i => coordinate (u s) i * coordinate (v s) i))); [intros s; symmetry; apply E|].
  rewrite !E. replace (bsum 3 (fun i => coordinate du i * coordinate (v t) i) + bsum 3 (fun i => coordinate (u t) i * coordinate dv i)) with (bsum 3 (fun i => coordinate du i * coordinate (v t) i + coordinate (u t) i * coordinate dv i)) by (unfold bsum; ring).
  apply (is_derive_sum 3 (fun i s => coordinate (u s) i * coordinate (v s) i)). intros i Hi. apply (is_derive_mult (fun s => coordinate (u s) i) (fun s => coordinate (v s) i)); [apply A, Hi|apply B, Hi|intros; apply Rmult_comm].
Qed.
Lemma changes_ext u v t d : (forall s, u s = v s) -> changes u t d -> changes v t d.
Proof. intros E H i Hi. apply (is_derive_ext (fun s => coordinate (u s) i)); [intros s; rewrite E; reflexivity|apply H, Hi]. Qed.
Lemma turned_changes q t w f df : (forall s, unit_quaternion (q s)) -> turning q t w -> changes f t df ->
  changes (fun s => transform_point (q s) (f s)) t (transform_point (q t) (together (outer w (f t)) df)).
Proof.
  intros U F D i Hi. rewrite transform_together, coordinate_together, !rotated_coordinate by (first [exact Hi|apply U]). apply (is_derive_ext (fun s => times 3 (mget (to_rotation_matrix (q s))) (coordinate (f s)) i)); [intros s; symmetry; apply rotated_coordinate; [apply U|exact Hi]|].
  rewrite (times_ext 3 _ _ (coordinate (outer w (f t))) (times 3 (cross_matrix w) (coordinate (f t))) i (fun k _ => eq_refl) (fun k Hk => outer_coordinate _ _ k Hk)), <- times_product.
  apply times_derive; [|exact D]. intros k Hk. apply F; auto.
Qed.
Lemma returned_changes q t w f df : (forall s, unit_quaternion (q s)) -> turning q t w -> changes f t df ->
  changes (fun s => inverse_transform_point (q s) (f s)) t (together (inverse_transform_point (q t) df) (multiple (-1) (outer w (inverse_transform_point (q t) (f t))))).
Proof.
  intros U F D i Hi. assert (UC : forall s, unit_quaternion (conjugate (q s))) by (intros s; apply unit_conjugate, U). unfold inverse_transform_point.
  apply (is_derive_ext (fun s => times 3 (transposed (mget (to_rotation_matrix (q s)))) (coordinate (f s)) i)).
  { intros s. rewrite rotated_coordinate by auto. apply times_ext; [|intros k _; reflexivity]. intros k Hk. symmetry. apply conjugate_matrix; auto. }
  evar_last; [apply (times_derive (fun s => transposed (mget (to_rotation_matrix (q s)))) (fun s => coordinate (f s)) (transposed (product 3 (mget (to_rotation_matrix (q t))) (cross_matrix w))) (coordinate df)); [intros k Hk; apply F; auto|exact D]|].
  rewrite coordinate_together, coordinate_multiple', !rotated_coordinate, outer_coordinate by auto.
  rewrite (times_ext 3 (mget (to_rotation_matrix (conjugate (q t)))) (transposed (mget (to_rotation_matrix (q t)))) (coordinate df) (coordinate df) i) by (intros k Hk; first [apply conjugate_matrix; auto|reflexivity]).
  rewrite Rplus_comm. match goal with |- ?x = ?y => change (@eq R x y) end. f_equal.
  rewrite (times_ext 3 (cross_matrix w) (cross_matrix w) (coordinate (transform_point (conjugate (q t)) (f t))) (times 3 (transposed (mget (to_rotation_matrix (q t)))) (coordinate (f t))) i).
  - rewrite <- times_product. unfold times, product, transposed, bsum. destruct w as [[a b] c]. three i; cbn [cross_matrix nth]; ring.
  - intros k Hk. reflexivity.
  - intros k Hk. rewrite rotated_coordinate by auto. apply times_ext; [|intros l _; reflexivity]. intros l Hl. apply conjugate_matrix; auto.
Qed.
(** A vector of the target seen from the body *)
Lemma seen_changes q d t w wd f df : (forall s, unit_quaternion (q s)) -> (forall s, unit_quaternion (d s)) -> turning q t w -> turning d t wd -> changes f t df ->
  changes (fun s => seen_rate (q s) (d s) (f s)) t (together (seen_rate (q t) (d t) df) (multiple (-1) (outer (excess_rate (q t) (d t) w wd) (seen_rate (q t) (d t) (f t))))).
Proof.
  intros U V F G D. unfold seen_rate at 1. pose proof (returned_changes q t w _ _ U F (turned_changes d t wd f df V G D)) as H. cbv beta in H.
  match type of H with changes _ _ ?A => match goal with |- changes _ _ ?B => replace B with A; [exact H|] end end.
  unfold excess_rate. rewrite !seen_between. unfold inverse_transform_point. rewrite <- !transform_mul. fold (between (q t) (d t)). rewrite transform_together, <- (rotate_outer (between (q t) (d t))) by (apply between_unit; auto).
  generalize (transform_point (between (q t) (d t)) wd) (transform_point (between (q t) (d t)) (f t)) (transform_point (between (q t) (d t)) df). intros. flat.
Qed.
Lemma excess_changes q d t w dw wd dwd : (forall s, unit_quaternion (q s)) -> (forall s, unit_quaternion (d s)) -> turning q t (w t) -> turning d t (wd t) -> changes w t dw -> changes wd t dwd ->
  changes (fun s => excess_rate (q s) (d s) (w s) (wd s)) t (together dw (multiple (-1) (together (seen_rate (q t) (d t) dwd) (multiple (-1) (outer (w t) (seen_rate (q t) (d t) (wd t))))))).
Proof.
  intros U V F G W D. unfold excess_rate at 1. pose proof (together_derive _ _ _ _ _ W (multiple_derive (-1) _ _ _ (seen_changes q d t (w t) (wd t) wd dwd U V F G D))) as H.
  match type of H with point_derive _ _ ?A => match goal with |- changes _ _ ?B => replace B with A; [exact H|] end end. f_equal. f_equal. f_equal. f_equal. unfold excess_rate.
  generalize (seen_rate (q t) (d t) (wd t)) (w t). intros. flat.
Qed.
(** ** The controlled body *)
Lemma torque_R (c : attitude_controller R) q w d wd dwd : unit_quaternion q -> unit_quaternion d -> let j := mget (control_inertia c) in let e := excess_rate q d w wd in let seen := seen_rate q d wd in
  control_torque c q w d wd dwd = together (together (together (multiple (- attitude_gain c) (attitude_error q d)) (multiple (- rate_gain c) e)) (outer w (applied j w)))
    (multiple (-1) (applied j (together (outer w seen) (multiple (-1) (seen_rate q d dwd))))).
Proof.
  intros A B. cbv zeta. unfold control_torque. fold (attitude_error q d). rewrite !(relative_vec q d) by auto. rewrite !mat_vec3_R, !sub3_R, add3_R, !scale3_R, (cross3_R w (applied _ w)), (cross3_R w (seen_rate q d wd)). rnum. unfold excess_rate.
  generalize (applied (mget (control_inertia c)) (together (outer w (seen_rate q d wd)) (multiple (-1) (seen_rate q d dwd)))) (applied (mget (control_inertia c)) w) (seen_rate q d wd) (attitude_error q d). intros. flat.
Qed.
Lemma applied_together m u v : applied m (together u v) = together (applied m u) (applied m v).
Proof. destruct u as [[a b] c], v as [[x y] z]. unfold applied, times, bsum, together, coordinate. cbn [nth]. apply point_eq; ring. Qed.
Lemma applied_multiple m k u : applied m (multiple k u) = multiple k (applied m u).
Proof. destruct u as [[a b] c]. unfold applied, times, bsum, multiple, coordinate. cbn [nth]. apply point_eq; ring. Qed.
Lemma applied_symmetric m u v : symmetric 3 m -> inner u (applied m v) = inner v (applied m u).
Proof.
  intros S. pose proof (S 0%nat 1%nat ltac:(lia) ltac:(lia)) as A. pose proof (S 0%nat 2%nat ltac:(lia) ltac:(lia)) as B. pose proof (S 1%nat 2%nat ltac:(lia) ltac:(lia)) as C.
  destruct u as [[a b] c], v as [[x y] z]. unfold applied, times, bsum, inner, coordinate. cbn [nth]. unfold transposed in *. rewrite A, B, C. ring.
Qed.
(** The inertia times the derivative of the excess rate *)
Lemma error_dynamics (c : attitude_controller R) q w d wd dw dwd : unit_quaternion q -> unit_quaternion d ->
  euler_torque (mget (control_inertia c)) w dw = control_torque c q w d wd dwd ->
  applied (mget (control_inertia c)) (together dw (multiple (-1) (together (seen_rate q d dwd) (multiple (-1) (outer w (seen_rate q d wd)))))) =
  together (multiple (- attitude_gain c) (attitude_error q d)) (multiple (- rate_gain c) (excess_rate q d w wd)).
Proof.
  intros A B E. rewrite torque_R in E by auto. cbv zeta in E. unfold euler_torque in E. rewrite !applied_together, !applied_multiple, !applied_together, !applied_multiple in *.
  revert E. generalize (applied (mget (control_inertia c)) dw) (applied (mget (control_inertia c)) w) (applied (mget (control_inertia c)) (outer w (seen_rate q d wd))) (applied (mget (control_inertia c)) (seen_rate q d dwd)) (excess_rate q d w wd) (attitude_error q d).
  intros p1 p2 p3 p4 p5 p6 E. destruct p1 as [[? ?] ?], p2 as [[? ?] ?], p3 as [[? ?] ?], p4 as [[? ?] ?], p5 as [[? ?] ?], p6 as [[? ?] ?], w as [[? ?] ?]. unfold together, multiple, outer in *. injection E as E1 E2 E3. apply point_eq; lra.
Qed.
(** ** Misalignment *)
Lemma misalignment_R q d : unit_quaternion q -> unit_quaternion d -> let r := between q d in misalignment q d = 2 * inner (quat_vec r) (quat_vec r) /\ misalignment q d = 2 - 2 * qw r * qw r.
Proof.
  intros A B. cbv zeta. assert (U := between_unit q d A B). set (r := between q d) in *.
  assert (G : forall e, inner (together (transform_point q e) (multiple (-1) (transform_point d e))) (together (transform_point q e) (multiple (-1) (transform_point d e))) = 2 * inner e e - 2 * inner e (transform_point r e)).
  { intros e. replace (inner (together (transform_point q e) (multiple (-1) (transform_point d e))) (together (transform_point q e) (multiple (-1) (transform_point d e)))) with (inner (transform_point q e) (transform_point q e) - 2 * inner (transform_point q e) (transform_point d e) + inner (transform_point d e) (transform_point d e))
      by (generalize (transform_point q e) (transform_point d e); intros; flat).
    rewrite !rotate_inner by auto. replace (inner (transform_point q e) (transform_point d e)) with (inner e (transform_point r e)); [ring|].
    rewrite <- (rotate_inner q e (transform_point r e) A). f_equal. unfold r, between. rewrite <- transform_mul, <- mul_assoc, mul_conjugate, (proj1 (unit_is q) A). f_equal. change (Quat 1 0 0 0) with (quat_identity (T := R)). rewrite mul_identity_l. reflexivity. }
  assert (M : misalignment q d = 2 * inner (quat_vec r) (quat_vec r)).
  { unfold misalignment. rewrite !G. destruct r as [a b c e]. rewrite !transform_explicit. unfold unit_quaternion in U. cbn [qw qx qy qz] in U. unfold inner, quat_vec. cbn [qx qy qz].
    match goal with |- ?X = ?Y => replace X with ((6 - 2 * (3 * (a * a + b * b + c * c + e * e) - 4 * (b * b + c * c + e * e))) / 4) by field; rewrite U; field end. }
  split; [exact M|]. rewrite M. unfold unit_quaternion in U. unfold inner, quat_vec. lra.
Qed.
Lemma error_length q d : unit_quaternion q -> unit_quaternion d -> inner (attitude_error q d) (attitude_error q d) = misalignment q d * (2 - misalignment q d).
Proof. intros A B. rewrite error_read by auto. destruct (misalignment_R q d A B) as [M N]. rewrite inner_multiple_l, inner_multiple_r. rewrite N at 2. rewrite M. ring. Qed.
Lemma misalignment_range q d : unit_quaternion q -> unit_quaternion d -> 0 <= misalignment q d <= 2.
Proof. intros A B. destruct (misalignment_R q d A B) as [M N]. pose proof (inner_nonneg (quat_vec (between q d))). pose proof (Rle_0_sqr (qw (between q d))). unfold Rsqr in *. lra. Qed.
Lemma seen_sum q d : unit_quaternion q -> unit_quaternion d ->
  misalignment q d = (3 - (inner (1, 0, 0) (seen_rate q d (1, 0, 0)) + inner (0, 1, 0) (seen_rate q d (0, 1, 0)) + inner (0, 0, 1) (seen_rate q d (0, 0, 1)))) / 2 /\
  attitude_error q d = multiple (- / 2) (together (together (outer (1, 0, 0) (seen_rate q d (1, 0, 0))) (outer (0, 1, 0) (seen_rate q d (0, 1, 0)))) (outer (0, 0, 1) (seen_rate q d (0, 0, 1)))).
Proof.
  intros A B. rewrite error_read by auto. rewrite (proj1 (misalignment_R q d A B)). rewrite !seen_between. pose proof (between_unit q d A B) as U. destruct (between q d) as [a b c e]. rewrite !transform_explicit. unfold unit_quaternion in U. cbn [qw qx qy qz] in U. unfold quat_vec, inner, outer, together, multiple. cbn [qw qx qy qz]. split.
  - match goal with |- ?X = ?Y => replace Y with ((3 - (3 * (a * a + b * b + c * c + e * e) - 4 * (b * b + c * c + e * e))) / 2) by field; rewrite U; field end.
  - apply point_eq; field.
Qed.
Lemma seen_inner q d u v : unit_quaternion q -> unit_quaternion d -> inner (seen_rate q d u) (seen_rate q d v) = inner u v.
Proof. intros A B. rewrite !seen_between. apply rotate_inner, between_unit; auto. Qed.
Lemma seen_zero q d : seen_rate q d (0, 0, 0) = (0, 0, 0).
Proof. rewrite seen_between. apply transform_zero. Qed.
Lemma seen_fixed q d t w wd u : (forall s, unit_quaternion (q s)) -> (forall s, unit_quaternion (d s)) -> turning q t w -> turning d t wd ->
  changes (fun s => seen_rate (q s) (d s) u) t (multiple (-1) (outer (excess_rate (q t) (d t) w wd) (seen_rate (q t) (d t) u))).
Proof.
  intros U V F G. pose proof (seen_changes q d t w wd (fun _ => u) (0, 0, 0) U V F G (constant_derive u t)) as H. cbv beta in H. rewrite seen_zero in H.
  match type of H with changes _ _ ?A => match goal with |- changes _ _ ?B => replace B with A; [exact H|] end end. generalize (excess_rate (q t) (d t) w wd) (seen_rate (q t) (d t) u). intros. flat.
Qed.
Lemma misalignment_changes q d t w wd : (forall s, unit_quaternion (q s)) -> (forall s, unit_quaternion (d s)) -> turning q t w -> turning d t wd ->
  is_derive (fun s => misalignment (q s) (d s)) t (inner (excess_rate (q t) (d t) w wd) (attitude_error (q t) (d t))).
Proof.
  intros U V F G. eapply is_derive_ext; [intros s; symmetry; apply (proj1 (seen_sum (q s) (d s) (U s) (V s)))|].
  rewrite (proj2 (seen_sum (q t) (d t) (U t) (V t))).
  assert (S : forall u, is_derive (fun s => inner u (seen_rate (q s) (d s) u)) t (inner u (multiple (-1) (outer (excess_rate (q t) (d t) w wd) (seen_rate (q t) (d t) u))))).
  { intros u. pose proof (inner_changes (fun _ => u) _ t _ _ (constant_derive u t) (seen_fixed q d t w wd u U V F G)) as H. cbv beta in H. evar_last; [exact H|]. unfold inner at 1. destruct (seen_rate (q t) (d t) u) as [[? ?] ?]. rewrite !Rmult_0_l, !Rplus_0_l. reflexivity. }
  pose proof (is_derive_plus _ _ _ _ _ (is_derive_plus _ _ _ _ _ (S (1, 0, 0)) (S (0, 1, 0))) (S (0, 0, 1))) as P.
  pose proof (is_derive_scal _ t (- / 2) _ P) as Q. pose proof (is_derive_plus _ _ _ _ _ (is_derive_const (3 / 2) t) Q) as W.
  eapply is_derive_ext; [|evar_last; [exact W|]].
  - intros s. cbv beta. unfold plus, mult, scal; cbn; unfold mult; cbn. match goal with |- ?a = ?b => change (@eq R a b) end. field.
  - unfold plus, mult, scal, zero; cbn; unfold mult; cbn. generalize (excess_rate (q t) (d t) w wd) (seen_rate (q t) (d t) (1, 0, 0)) (seen_rate (q t) (d t) (0, 1, 0)) (seen_rate (q t) (d t) (0, 0, 1)).
    intros p1 p2 p3 p4. destruct p1 as [[? ?] ?], p2 as [[? ?] ?], p3 as [[? ?] ?], p4 as [[? ?] ?]. unfold inner, outer, together, multiple. match goal with |- ?a = ?b => change (@eq R a b) end. field.
Qed.
Definition error_rate (q d : quaternion R) (e : point) : point := multiple (/ 2) (together (multiple (3 - 2 * misalignment q d) e) (multiple (-1) (seen_rate q d e))).
Lemma seen_split q d e : let '(x, y, z) := e in seen_rate q d e = together (together (multiple x (seen_rate q d (1, 0, 0))) (multiple y (seen_rate q d (0, 1, 0)))) (multiple z (seen_rate q d (0, 0, 1))).
Proof. destruct e as [[x y] z]. rewrite !seen_between. destruct (between q d). rewrite !transform_explicit. unfold together, multiple. apply point_eq; ring. Qed.
Lemma error_changes q d t w wd : (forall s, unit_quaternion (q s)) -> (forall s, unit_quaternion (d s)) -> turning q t w -> turning d t wd ->
  changes (fun s => attitude_error (q s) (d s)) t (error_rate (q t) (d t) (excess_rate (q t) (d t) w wd)).
Proof.
  intros U V F G. eapply changes_ext; [intros s; symmetry; apply (proj2 (seen_sum (q s) (d s) (U s) (V s)))|].
  pose proof (multiple_derive (- / 2) _ _ _ (together_derive _ _ _ _ _ (together_derive _ _ _ _ _ (outer_derive _ _ _ _ _ (constant_derive (1, 0, 0) t) (seen_fixed q d t w wd (1, 0, 0) U V F G)) (outer_derive _ _ _ _ _ (constant_derive (0, 1, 0) t) (seen_fixed q d t w wd (0, 1, 0) U V F G))) (outer_derive _ _ _ _ _ (constant_derive (0, 0, 1) t) (seen_fixed q d t w wd (0, 0, 1) U V F G)))) as H. cbv beta in H.
  match type of H with point_derive _ _ ?A => match goal with |- changes _ _ ?B => replace B with A; [exact H|] end end.
  unfold error_rate. rewrite (proj1 (seen_sum (q t) (d t) (U t) (V t))). pose proof (seen_split (q t) (d t) (excess_rate (q t) (d t) w wd)) as S. destruct (excess_rate (q t) (d t) w wd) as [[x y] z]. rewrite S. clear.
  destruct (seen_rate (q t) (d t) (1, 0, 0)) as [[? ?] ?], (seen_rate (q t) (d t) (0, 1, 0)) as [[? ?] ?], (seen_rate (q t) (d t) (0, 0, 1)) as [[? ?] ?]. unfold inner, outer, together, multiple. apply point_eq; field.
Qed.
Lemma error_rate_bound q d e : unit_quaternion q -> unit_quaternion d -> inner (error_rate q d e) (error_rate q d e) <= 4 * inner e e.
Proof.
  intros A B. unfold error_rate. pose proof (misalignment_range q d A B) as M. pose proof (seen_inner q d e e A B) as S. set (m := misalignment q d) in *. set (s := seen_rate q d e) in *.
  pose proof (inner_nonneg (together e s)) as P. pose proof (inner_nonneg (together e (multiple (-1) s))) as Q.
  assert (P' : - inner e e <= inner e s) by (replace (inner (together e s) (together e s)) with (inner e e + 2 * inner e s + inner s s) in P by flat; lra).
  assert (Q' : inner e s <= inner e e) by (replace (inner (together e (multiple (-1) s)) (together e (multiple (-1) s))) with (inner e e - 2 * inner e s + inner s s) in Q by flat; lra).
  replace (inner (multiple (/ 2) (together (multiple (3 - 2 * m) e) (multiple (-1) s))) (multiple (/ 2) (together (multiple (3 - 2 * m) e) (multiple (-1) s)))) with (/ 4 * ((3 - 2 * m) * (3 - 2 * m) * inner e e - 2 * (3 - 2 * m) * inner e s + inner s s))
    by (generalize s; intros [[? ?] ?]; destruct e as [[? ?] ?]; unfold inner, together, multiple; field).
  rewrite S. pose proof (inner_nonneg e) as E. set (x := inner e e) in *. set (y := inner e s) in *. set (tau := 3 - 2 * m). assert (T : -1 <= tau <= 3) by (unfold tau; lra).
  destruct (Rle_dec 0 tau). { assert (tau * (y + x) >= 0) by (apply Rle_ge, Rmult_le_pos; lra). assert (tau * tau * x <= 9 * x) by (apply Rmult_le_compat_r; nra). assert (tau * x <= 3 * x) by (apply Rmult_le_compat_r; lra). lra. }
  assert (- tau * (x - y) >= 0) by (apply Rle_ge, Rmult_le_pos; lra). assert (tau * tau * x <= 9 * x) by (apply Rmult_le_compat_r; nra). assert (- tau * x <= 3 * x) by (apply Rmult_le_compat_r; lra). lra.
Qed.
(** ** The energy along a motion *)
Lemma applied_changes m u t du : changes u t du -> changes (fun s => applied m (u s)) t (applied m du).
Proof.
  intros H i Hi. assert (E : forall p, coordinate (applied m p) i = times 3 m (coordinate p) i) by (intros p; three i; reflexivity).
  apply (is_derive_ext (fun s => times 3 m (coordinate (u s)) i)); [intros s; symmetry; apply E|]. rewrite E. unfold times. apply (is_derive_sum 3 (fun k s => m i k * coordinate (u s) k)). intros k Hk. apply is_derive_scal. apply H, Hk.
Qed.
Definition size (m : matrix) : R := bsum 3 (fun i => bsum 3 (fun j => Rabs (m i j))).
Lemma size_nonneg m : 0 <= size m.
Proof. unfold size, bsum. pose proof (fun i j => Rabs_pos (m i j)). repeat apply Rplus_le_le_0_compat; auto; lra. Qed.
Lemma entry_bound a x y p q : x * x <= p -> y * y <= q -> x * (a * y) <= Rabs a * ((p + q) / 2).
Proof.
  intros X Y. assert (x * y <= (p + q) / 2) by (pose proof (Rle_0_sqr (x - y)); unfold Rsqr in *; lra). assert (- (x * y) <= (p + q) / 2) by (pose proof (Rle_0_sqr (x + y)); unfold Rsqr in *; lra).
  unfold Rabs. destruct (Rcase_abs a); nra.
Qed.
Lemma size_bound m u v : inner u (applied m v) <= size m * ((inner u u + inner v v) / 2).
Proof.
  destruct u as [[a b] c], v as [[x y] z]. unfold applied, times, size, bsum, inner, coordinate. cbn [nth].
  assert (forall r, In r [a; b; c] -> r * r <= a * a + b * b + c * c) by (intros r [<-|[<-|[<-|[]]]]; pose proof (Rle_0_sqr a); pose proof (Rle_0_sqr b); pose proof (Rle_0_sqr c); unfold Rsqr in *; lra).
  assert (forall r, In r [x; y; z] -> r * r <= x * x + y * y + z * z) by (intros r [<-|[<-|[<-|[]]]]; pose proof (Rle_0_sqr x); pose proof (Rle_0_sqr y); pose proof (Rle_0_sqr z); unfold Rsqr in *; lra).
  set (p := a * a + b * b + c * c) in *. set (q := x * x + y * y + z * z) in *.
  assert (K : forall i j r s, In r [a; b; c] -> In s [x; y; z] -> r * (m i j * s) <= Rabs (m i j) * ((p + q) / 2)) by (intros; apply entry_bound; auto).
  pose proof (K 0%nat 0%nat a x ltac:(cbn; auto) ltac:(cbn; auto)). pose proof (K 0%nat 1%nat a y ltac:(cbn; auto) ltac:(cbn; auto)). pose proof (K 0%nat 2%nat a z ltac:(cbn; auto) ltac:(cbn; auto)).
  pose proof (K 1%nat 0%nat b x ltac:(cbn; auto) ltac:(cbn; auto)). pose proof (K 1%nat 1%nat b y ltac:(cbn; auto) ltac:(cbn; auto)). pose proof (K 1%nat 2%nat b z ltac:(cbn; auto) ltac:(cbn; auto)).
  pose proof (K 2%nat 0%nat c x ltac:(cbn; auto) ltac:(cbn; auto)). pose proof (K 2%nat 1%nat c y ltac:(cbn; auto) ltac:(cbn; auto)). pose proof (K 2%nat 2%nat c z ltac:(cbn; auto) ltac:(cbn; auto)).
  lra.
Qed.
Lemma quadratic_point m u : dot_product 3 (coordinate u) (times 3 m (coordinate u)) = inner u (applied m u).
Proof. destruct u as [[a b] c]. unfold applied, times, dot_product, bsum, inner, coordinate. cbn [nth]. ring. Qed.
Lemma definite_nonneg m u : positive_definite 3 m -> 0 <= inner u (applied m u).
Proof.
  intros P. rewrite <- quadratic_point. destruct (zero_or u) as [->|N].
  - rewrite quadratic_point. unfold applied, times, bsum, inner, coordinate. cbn [nth]. lra.
  - left. apply P. destruct u as [[a b] c]. destruct (Req_dec a 0) as [->|]; [destruct (Req_dec b 0) as [->|]; [destruct (Req_dec c 0) as [->|]; [contradiction N; reflexivity|]|]|]; [exists 2%nat|exists 1%nat|exists 0%nat]; (split; [lia|assumption]).
Qed.
Lemma falls (f df : R -> R) t : 0 <= t -> (forall s, 0 <= s -> is_derive f s (df s) /\ df s <= 0) -> f t <= f 0.
Proof.
  intros T H. destruct (MVT_gen f 0 t df) as (c & [C1 C2] & E).
  - intros x. rewrite Rmin_left, Rmax_right by lra. intros X. apply H. lra.
  - intros x. rewrite Rmin_left, Rmax_right by lra. intros X. apply continuity_pt_filterlim. apply (ex_derive_continuous (V := R_NormedModule) f x). exists (df x). apply H. lra.
  - rewrite Rmin_left in C1 by lra. pose proof (proj2 (H c C1)). assert (df c * (t - 0) <= 0) by nra. lra.
Qed.
Section Motion.
  Variables (c : attitude_controller R) (q d : R -> quaternion R) (w wd dwd : R -> point).
  Let j := mget (control_inertia c).
  Hypothesis symmetric_inertia : symmetric 3 j.
  Hypothesis definite_inertia : positive_definite 3 j.
  Hypothesis gain_a : 0 < attitude_gain c.
  Hypothesis gain_r : 0 < rate_gain c.
  Hypothesis moves : tracking j (fun t => control_torque c (q t) (w t) (d t) (wd t) (dwd t)) q d w wd dwd.
  Let e t := excess_rate (q t) (d t) (w t) (wd t).
  Let r t := attitude_error (q t) (d t).
  Let psi t := misalignment (q t) (d t).
  Let V t := energy j (attitude_gain c) (q t) (d t) (w t) (wd t).
  Lemma unit_q t : unit_quaternion (q t). Proof. apply moves. Qed.
  Lemma unit_d t : unit_quaternion (d t). Proof. apply moves. Qed.
  Lemma excess_moves t : 0 <= t -> exists de, changes e t de /\ applied j de = together (multiple (- attitude_gain c) (r t)) (multiple (- rate_gain c) (e t)).
  Proof.
    intros T. destruct moves as [_ M]. destruct (M t T) as (F & G & D & dw & W & E).
    eexists. split; [exact (excess_changes q d t w dw wd (dwd t) unit_q unit_d F G W D)|]. apply error_dynamics; [apply unit_q|apply unit_d|exact E].
  Qed.
  Lemma energy_derive t : 0 <= t -> is_derive V t (- rate_gain c * inner (e t) (e t)).
  Proof.
    intros T. destruct (excess_moves t T) as (de & D & E). destruct moves as [_ M]. destruct (M t T) as (F & G & _).
    pose proof (is_derive_plus _ _ _ _ _ (is_derive_scal _ t (/ 2) _ (inner_changes _ _ t _ _ D (applied_changes j _ t _ D))) (is_derive_scal _ t (attitude_gain c) _ (misalignment_changes q d t (w t) (wd t) unit_q unit_d F G))) as H.
    eapply is_derive_ext; [|evar_last; [exact H|]].
    - intros s. cbv beta. unfold plus, scal; cbn; unfold mult; cbn. unfold V, energy. fold (e s). match goal with |- ?a = ?b => change (@eq R a b) end. field.
    - unfold plus, scal; cbn; unfold mult; cbn. fold (e t). fold (r t). rewrite (applied_symmetric j de (e t) symmetric_inertia), E. generalize (e t) (r t). intros [[? ?] ?] [[? ?] ?]. unfold inner, together, multiple. match goal with |- ?a = ?b => change (@eq R a b) end. field.
  Qed.
  Lemma energy_falls t : 0 <= t -> V t <= V 0.
  Proof. intros T. apply (falls V (fun t => - rate_gain c * inner (e t) (e t)) t T). intros s S. split; [apply energy_derive, S|]. pose proof (inner_nonneg (e s)). nra. Qed.
  Lemma energy_parts t : V t = inner (e t) (applied j (e t)) / 2 + attitude_gain c * psi t /\ 0 <= inner (e t) (applied j (e t)) /\ 0 <= psi t <= 2.
  Proof. split; [unfold V, energy; reflexivity|split; [exact (definite_nonneg j (e t) definite_inertia)|exact (misalignment_range (q t) (d t) (unit_q t) (unit_d t))]]. Qed.
  Lemma basin t : 0 <= t -> attitude_gain c * psi t <= V 0.
  Proof. intros T. pose proof (energy_falls t T). destruct (energy_parts t) as (A & B & _). lra. Qed.
  (** The energy with a share of the product of the two errors *)
  Let Wk k t := V t + k * inner (r t) (applied j (e t)).
  Lemma mixed_derive k t : 0 <= t -> is_derive (Wk k) t (- rate_gain c * inner (e t) (e t) + k * (inner (error_rate (q t) (d t) (e t)) (applied j (e t)) - attitude_gain c * inner (r t) (r t) - rate_gain c * inner (r t) (e t))).
  Proof.
    intros T. destruct (excess_moves t T) as (de & D & E). destruct moves as [_ M]. destruct (M t T) as (F & G & _).
    pose proof (is_derive_plus _ _ _ _ _ (energy_derive t T) (is_derive_scal _ t k _ (inner_changes _ _ t _ _ (error_changes q d t (w t) (wd t) unit_q unit_d F G) (applied_changes j _ t _ D)))) as H.
    eapply is_derive_ext; [|evar_last; [exact H|]].
    - intros s. reflexivity.
    - match goal with |- plus ?a ?b = _ => change (plus a b) with (a + b) end. cbv beta. fold (e t). fold (r t). rewrite E. generalize (applied j (e t)) (error_rate (q t) (d t) (e t)) (e t) (r t). intros [[? ?] ?] [[? ?] ?] [[? ?] ?] [[? ?] ?]. unfold inner, together, multiple. match goal with |- ?a = ?b => change (@eq R a b) end. ring.
  Qed.
  Lemma mixed_size u v : Rabs (inner u (applied j v)) <= (inner u (applied j u) + inner v (applied j v)) / 2.
  Proof.
    pose proof (definite_nonneg j (together u v) definite_inertia) as A. pose proof (definite_nonneg j (together u (multiple (-1) v)) definite_inertia) as B. pose proof (applied_symmetric j u v symmetric_inertia) as S.
    rewrite applied_together in A. rewrite applied_together, applied_multiple in B. revert A B S. generalize (applied j u) (applied j v). intros ju jv A B S.
    replace (inner (together u v) (together ju jv)) with (inner u ju + inner u jv + inner v ju + inner v jv) in A by flat.
    replace (inner (together u (multiple (-1) v)) (together ju (multiple (-1) jv))) with (inner u ju - inner u jv - inner v ju + inner v jv) in B by flat. apply Rabs_le. lra.
  Qed.
  Lemma decays v0 k b : V 0 <= v0 -> 0 < k -> k <= / 2 -> k * size j <= attitude_gain c / 2 ->
    k * (5 * size j / 2 + rate_gain c * rate_gain c / (2 * attitude_gain c)) <= rate_gain c / 2 ->
    0 < b -> b * (size j + 1) <= rate_gain c / 2 -> b <= k * (2 - v0 / attitude_gain c) / 4 -> forall t, 0 <= t -> V t <= 3 * V 0 * exp (- b * t).
  Proof.
    intros V0 K K1 K2 K3 B B1 B2 t T. set (a := attitude_gain c) in *. set (g := rate_gain c) in *. pose proof (size_nonneg j) as L. set (l := size j) in *.
    assert (near : forall s, 0 <= s -> V s / 2 <= Wk k s <= 3 / 2 * V s).
    { intros s S. pose proof (mixed_size (r s) (e s)) as X. pose proof (size_bound j (r s) (r s)) as Y. fold l in Y. pose proof (error_length (q s) (d s) (unit_q s) (unit_d s)) as Z. fold (r s) in Z. fold (psi s) in Z. destruct (energy_parts s) as (P & Q & Q'). fold a in P.
      assert (Z2 : inner (r s) (r s) <= 2 * psi s) by nra. assert (Y2 : inner (r s) (applied j (r s)) <= 2 * l * psi s) by nra.
      apply Rabs_le_between in X. set (x := inner (r s) (applied j (e s))) in *. set (y := inner (e s) (applied j (e s))) in *. unfold Wk. fold x. rewrite P.
      assert (U1 : k * x <= k * (l * psi s + y / 2)) by (apply Rmult_le_compat_l; lra). assert (U2 : k * (- (l * psi s + y / 2)) <= k * x) by (apply Rmult_le_compat_l; lra).
      assert (U3 : k * l * psi s <= a / 2 * psi s) by (apply Rmult_le_compat_r; lra). assert (U4 : k * (y / 2) <= / 2 * (y / 2)) by (apply Rmult_le_compat_r; lra). lra. }
    assert (drop : forall s, 0 <= s -> - g * inner (e s) (e s) + k * (inner (error_rate (q s) (d s) (e s)) (applied j (e s)) - a * inner (r s) (r s) - g * inner (r s) (e s)) <= - (2 * b) * V s).
    { intros s S. pose proof (error_length (q s) (d s) (unit_q s) (unit_d s)) as Z. fold (r s) in Z. fold (psi s) in Z. destruct (energy_parts s) as (P & Q & Q'). fold a in P. pose proof (basin s S) as Ba. fold a in Ba.
      pose proof (size_bound j (error_rate (q s) (d s) (e s)) (e s)) as X1. fold l in X1. pose proof (error_rate_bound (q s) (d s) (e s) (unit_q s) (unit_d s)) as X2. pose proof (size_bound j (e s) (e s)) as X3. fold l in X3.
      assert (X4 : - inner (r s) (e s) <= a / (2 * g) * inner (r s) (r s) + g / (2 * a) * inner (e s) (e s)).
      { pose proof (inner_nonneg (together (multiple (a / g) (r s)) (e s))) as N. replace (inner (together (multiple (a / g) (r s)) (e s)) (together (multiple (a / g) (r s)) (e s))) with (a / g * (a / g) * inner (r s) (r s) + 2 * (a / g) * inner (r s) (e s) + inner (e s) (e s)) in N by (generalize (r s) (e s); intros; flat).
        assert (AG : 0 < g / (2 * a)) by (apply Rdiv_lt_0_compat; lra). apply (Rmult_le_compat_l (g / (2 * a)) _ _ (Rlt_le _ _ AG)) in N. rewrite Rmult_0_r in N.
        replace (g / (2 * a) * (a / g * (a / g) * inner (r s) (r s) + 2 * (a / g) * inner (r s) (e s) + inner (e s) (e s))) with (a / (2 * g) * inner (r s) (r s) + inner (r s) (e s) + g / (2 * a) * inner (e s) (e s)) in N by (field; lra). lra. }
      pose proof (inner_nonneg (e s)) as E0. set (ee := inner (e s) (e s)) in *. set (rr := inner (r s) (r s)) in *. set (re := inner (r s) (e s)) in *. set (y := inner (e s) (applied j (e s))) in *. set (xx := inner (error_rate (q s) (d s) (e s)) (applied j (e s))) in *. set (nn := inner (error_rate (q s) (d s) (e s)) (error_rate (q s) (d s) (e s))) in *.
      assert (Y1 : xx <= 5 * l / 2 * ee) by nra.
      assert (Y2 : - g * re <= a / 2 * rr + g * g / (2 * a) * ee). { apply (Rmult_le_compat_l g) in X4; [|lra]. replace (g * (a / (2 * g) * rr + g / (2 * a) * ee)) with (a / 2 * rr + g * g / (2 * a) * ee) in X4 by (field; lra). lra. }
      assert (Y3 : k * (xx - a * rr - g * re) <= k * ((5 * l / 2 + g * g / (2 * a)) * ee - a / 2 * rr)) by (apply Rmult_le_compat_l; lra).
      assert (Y4 : k * (5 * l / 2 + g * g / (2 * a)) * ee <= g / 2 * ee) by (apply Rmult_le_compat_r; lra).
      assert (Y5 : (2 - v0 / a) * psi s <= rr). { rewrite Z. rewrite (Rmult_comm (psi s)). apply Rmult_le_compat_r; [lra|]. assert (psi s <= v0 / a) by (apply (Rmult_le_reg_l a); [lra|]; replace (a * (v0 / a)) with v0 by (field; lra); lra). lra. }
      assert (Y6 : k * (a / 2) * ((2 - v0 / a) * psi s) <= k * (a / 2) * rr) by (apply Rmult_le_compat_l; [apply Rmult_le_pos; lra|exact Y5]).
      assert (Y7 : 2 * b * (a * psi s) <= 2 * (k * (2 - v0 / a) / 4) * (a * psi s)) by (apply Rmult_le_compat_r; [apply Rmult_le_pos; lra|lra]).
      assert (Y8 : y / 2 <= l / 2 * ee) by lra. assert (Y9 : 2 * b * (y / 2) <= 2 * b * (l / 2 * ee)) by (apply Rmult_le_compat_l; lra). assert (Y10 : b * (l + 1) * ee <= g / 2 * ee) by (apply Rmult_le_compat_r; lra). assert (0 <= b * ee) by (apply Rmult_le_pos; lra). rewrite P. lra. }
    set (W := Wk k) in *. set (dW := fun s => - g * inner (e s) (e s) + k * (inner (error_rate (q s) (d s) (e s)) (applied j (e s)) - a * inner (r s) (r s) - g * inner (r s) (e s))).
    assert (F : W t * exp (b * t) <= W 0 * exp (b * 0)).
    { apply (falls (fun s => W s * exp (b * s)) (fun s => dW s * exp (b * s) + W s * (b * exp (b * s))) t T). intros s S. split.
      - apply (is_derive_mult W (fun s => exp (b * s))); [exact (mixed_derive k s S)| |intros; apply Rmult_comm]. auto_derive; [auto|]. match goal with |- ?x = ?y => change (@eq R x y) end. ring.
      - pose proof (drop s S) as D. fold (dW s) in D. destruct (near s S) as [N1 N2]. pose proof (exp_pos (b * s)) as X. destruct (energy_parts s) as (P & Q & Q'). assert (VP : 0 <= V s) by (rewrite P; nra).
        replace (dW s * exp (b * s) + W s * (b * exp (b * s))) with ((dW s + b * W s) * exp (b * s)) by ring. assert (b * W s <= b * (3 / 2 * V s)) by (apply Rmult_le_compat_l; lra). assert (0 <= b * V s) by (apply Rmult_le_pos; lra). assert (dW s + b * W s <= 0) by lra. nra. }
    rewrite Rmult_0_r, exp_0, Rmult_1_r in F. destruct (near t T) as [N1 _]. destruct (near 0 ltac:(lra)) as [_ N2].
    assert (X : W t = W t * exp (b * t) * exp (- b * t)) by (rewrite Rmult_assoc, <- exp_plus; replace (b * t + - b * t) with 0 by ring; rewrite exp_0; ring).
    pose proof (exp_pos (- b * t)). assert (W t <= 3 / 2 * V 0 * exp (- b * t)) by (rewrite X; apply Rmult_le_compat_r; lra). lra.
  Qed.
End Motion.
Lemma rates_exist (c : attitude_controller R) v0 : 0 < attitude_gain c -> 0 < rate_gain c -> v0 < 2 * attitude_gain c -> let l := size (mget (control_inertia c)) in exists k b,
  0 < k /\ k <= / 2 /\ k * l <= attitude_gain c / 2 /\ k * (5 * l / 2 + rate_gain c * rate_gain c / (2 * attitude_gain c)) <= rate_gain c / 2 /\
    0 < b /\ b * (l + 1) <= rate_gain c / 2 /\ b <= k * (2 - v0 / attitude_gain c) / 4.
Proof.
  intros A G H. cbv zeta. pose proof (size_nonneg (mget (control_inertia c))) as L. set (l := size _) in *. set (a := attitude_gain c) in *. set (g := rate_gain c) in *.
  assert (P : 0 < g * g / (2 * a)) by (apply Rdiv_lt_0_compat; nra). set (x := 5 * l / 2 + g * g / (2 * a)). assert (X : 0 < x) by (unfold x; lra).
  set (k := Rmin (/ 2) (Rmin (a / (2 * (l + 1))) (g / (2 * x)))). assert (K1 : k <= / 2) by apply Rmin_l. assert (K2 : k <= a / (2 * (l + 1))) by (eapply Rle_trans; [apply Rmin_r|apply Rmin_l]). assert (K3 : k <= g / (2 * x)) by (eapply Rle_trans; [apply Rmin_r|apply Rmin_r]).
  assert (K : 0 < k) by (repeat apply Rmin_glb_lt; [lra|apply Rdiv_lt_0_compat; lra|apply Rdiv_lt_0_compat; lra]).
  assert (D : 0 < 2 - v0 / a) by (assert (v0 / a < 2) by (apply (Rmult_lt_reg_l a); [lra|]; replace (a * (v0 / a)) with v0 by (field; lra); lra); lra).
  set (b := Rmin (g / (2 * (l + 1))) (k * (2 - v0 / a) / 4)). assert (B1 : b <= g / (2 * (l + 1))) by apply Rmin_l. assert (B2 : b <= k * (2 - v0 / a) / 4) by apply Rmin_r.
  assert (B : 0 < b) by (apply Rmin_glb_lt; [apply Rdiv_lt_0_compat; lra|nra]).
  exists k, b. repeat split; auto.
  - apply (Rmult_le_compat_r (l + 1)) in K2; [|lra]. replace (a / (2 * (l + 1)) * (l + 1)) with (a / 2) in K2 by (field; lra). lra.
  - apply (Rmult_le_compat_r x) in K3; [|lra]. replace (g / (2 * x) * x) with (g / 2) in K3 by (field; lra). exact K3.
  - apply (Rmult_le_compat_r (l + 1)) in B1; [|lra]. replace (g / (2 * (l + 1)) * (l + 1)) with (g / 2) in B1 by (field; lra). exact B1.
Qed.
