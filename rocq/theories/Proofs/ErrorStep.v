(** The error-state filter: how a nudge in the error shows after a step, to first order. *)
From Coq Require Import ZArith Reals List Bool Arith Lia Lra Psatz.
From Coquelicot Require Import Coquelicot.
From Verif Require Import Base.Scalar Base.RNum Base.Lists Base.Series Base.Det Model.Errors Model.Vector Model.Matrix Model.Quaternion Model.Lie Model.Kalman Model.ErrorState.
From Verif Require Import Spec.Matrix Spec.MatrixExp Spec.Rotation Spec.Quaternion Spec.ErrorState Proofs.Matrix Proofs.Algebra Proofs.Rotation Proofs.Quaternion Proofs.Space Props.Quaternion Props.AttitudeStep Props.NominalState Proofs.ErrorState.
Import ListNotations.
Local Open Scope R_scope.
Local Notation length := Spec.Rotation.length.
Local Notation scale3_R := Proofs.Quaternion.scale3_R.
Local Notation sqrt := R_sqrt.sqrt.

Lemma axis_outer u k : multiple (-1) (outer u (axis k)) = outer (axis k) u.
Proof. destruct u as [[a b] c]. unfold axis, outer, multiple. destruct k as [|[|k]]; apply point_eq; ring. Qed.
Lemma coordinate_multiple c v k : coordinate (multiple c v) k = c * coordinate v k.
Proof. destruct v as [[? ?] ?]. unfold coordinate, multiple. destruct k as [|[|[|[|k]]]]; cbn [nth]; ring. Qed.
Lemma times_ext n (m : nat -> nat -> R) u v i : (forall k, (k < n)%nat -> u k = v k) -> times n m u i = times n m v i.
Proof. intros H. unfold times. apply bsum_ext. intros k Hk. rewrite H by auto. reflexivity. Qed.
Lemma times_multiple n (m : nat -> nat -> R) c v i : times n m (fun k => c * v k) i = c * times n m v i.
Proof. unfold times. rewrite <- bsum_scal. apply bsum_ext. intros; ring. Qed.
Lemma times_axis (m : nat -> nat -> R) c i : (c < 3)%nat -> times 3 m (coordinate (axis c)) i = m i c.
Proof. intros H. unfold times, bsum, coordinate, axis. three c; cbn [nth]; ring. Qed.

Lemma transform_length r (v : point) : unit_quaternion r -> length (transform_point r v) = length v.
Proof. intros UR. destruct (C94_rotation r UR) as (_ & _ & _ & _ & H & _). apply H. Qed.
Lemma swept X w v : unit_quaternion X -> quat_mul (conjugate X) (quat_mul (from_scalar_vector w v) X) = from_scalar_vector w (transform_point (conjugate X) v).
Proof.
  intros UX. destruct X as [a b c d], v as [[x y] z]. unfold conjugate, from_scalar_vector. rewrite transform_explicit. unfold unit_quaternion in UX. cbn [qw qx qy qz] in *.
  unfold quat_mul. cbn [qw qx qy qz]. rnum. f_equal; [|ring..]. transitivity (w * (a * a + b * b + c * c + d * d)); [ring|rewrite UX; ring].
Qed.
Lemma back_exp v : from_scaled_axis (multiple (-1) v) = conjugate (from_scaled_axis v).
Proof.
  destruct (Rlt_dec (length v) small) as [L|L].
  - rewrite !from_scaled_axis_small; rewrite ?length_multiple, ?Rabs_left, ?Rmult_1_l by lra; try lra.
    replace (- -1 * length v) with (length v) by ring. destruct v as [[x y] z]. unfold conjugate, from_scalar_vector, multiple. cbn [qw qx qy qz]. rnum. f_equal; ring.
  - assert (E : length (multiple (-1) v) = length v) by (rewrite length_multiple, Rabs_left by lra; ring).
    rewrite !from_scaled_axis_large by (rewrite ?E; lra). rewrite E. unfold direction. rewrite E. destruct v as [[x y] z]. unfold conjugate, from_scalar_vector, multiple. cbn [qw qx qy qz]. rnum. f_equal; ring.
Qed.
Lemma log_derive (b : point) i : length b = 1 -> (i < 3)%nat ->
  is_derive (fun t => coordinate (to_scaled_axis (from_scalar_vector (1 - t * t / 8) (multiple (t / 2 - t ^ 3 / 48) b))) i) 0 (coordinate b i).
Proof.
  intros L Hi. apply (is_derive_ext_loc (fun t => 2 * (t / 2 - t ^ 3 / 48) * coordinate b i)).
  - apply near_zero. intros t B. pose proof small_bound as SB. assert (S47 : / IZR (2^47) <= / 1000) by (apply Rinv_le_contravar; [lra|apply IZR_le; lia]).
    assert (T : - small < t < small) by (apply Rabs_def2 in B; lra).
    rewrite to_scaled_axis_R, shortest_of, !vector_of by nra. rewrite length_multiple, L, Rmult_1_r.
    destruct (Rlt_dec _ _) as [K|K].
    + rewrite !coordinate_multiple. to_R. ring.
    + exfalso. apply K. replace (t / 2 - t ^ 3 / 48) with (t * (/ 2 - t * t / 48)) by field. rewrite Rabs_mult. assert (Q : 0 <= t * t <= 1) by nra.
      rewrite (Rabs_pos_eq (/ 2 - _)) by lra. pose proof (Rabs_pos t). nra.
  - generalize (coordinate b i). intros c. auto_derive; [exact I|]. to_R. field.
Qed.

Section Step.
  Variables (s : nominal_state R) (gyroscope accelerometer gravity : point) (h : R).
  Hypothesis U : unit_quaternion (ns_orientation s).
  Let q := ns_orientation s.
  Let rate := together gyroscope (multiple (-1) (ns_gyroscope_bias s)).
  Let push := together accelerometer (multiple (-1) (ns_accelerometer_bias s)).
  Let moved j t := propagated (plus_error s (nudge j t)) gyroscope accelerometer h gravity.
  Let base := propagated s gyroscope accelerometer h gravity.
  Let world j t := transform_point (ns_orientation (plus_error s (nudge j t))) (together accelerometer (multiple (-1) (ns_accelerometer_bias (plus_error s (nudge j t))))).
  Let pushed (j i : nat) : R := if (Nat.leb 6 j && Nat.ltb j 9)%bool then - times 3 (mget (to_rotation_matrix q)) (coordinate (outer push (axis (j - 6)))) i
    else if (Nat.leb 12 j && Nat.ltb j 15)%bool then - mget (to_rotation_matrix q) i (j - 12) else 0.
Lemma world_none j : (j < 15)%nat -> world j 0 = transform_point q push.
Proof.
  intros J. unfold world, plus_error. cbn [ns_orientation ns_accelerometer_bias]. rewrite !part_R, add3_R, !nudge_part by (cbn; tauto || exact J).
  assert (Z : forall p : point, together p (0, 0, 0) = p) by (intros [[? ?] ?]; unfold together; apply point_eq; ring).
  assert (M : forall v, multiple 0 v = (0, 0, 0)) by (intros [[? ?] ?]; unfold multiple; apply point_eq; ring).
  destruct (_ && _)%bool, (_ && _)%bool; rewrite ?M, ?Z; unfold so3_exp, so3_compose; rewrite exp_none, mul_identity_r; reflexivity.
Qed.
Lemma world_derive j i : (j < 15)%nat -> (i < 3)%nat -> is_derive (fun t => coordinate (world j t) i) 0 (pushed j i).
Proof.
  intros J Hi. unfold pushed.
  assert (Z : forall p : point, together p (0, 0, 0) = p) by (intros [[? ?] ?]; unfold together; apply point_eq; ring).
  destruct (Nat.leb 6 j && Nat.ltb j 9)%bool eqn:E1; [|destruct (Nat.leb 12 j && Nat.ltb j 15)%bool eqn:E2].
  - apply andb_true_iff in E1. destruct E1 as [A B]. apply Nat.leb_le in A. apply Nat.ltb_lt in B.
    apply (is_derive_ext (fun t => coordinate (transform_point q (transform_point (from_scaled_axis (multiple t (axis (j - 6)))) push)) i)).
    { intros t. unfold world, plus_error. cbn [ns_orientation ns_accelerometer_bias]. rewrite !part_R, add3_R, !nudge_part by (cbn; tauto || exact J).
      replace (Nat.leb 6 j && Nat.ltb j (6 + 3))%bool with true by (symmetry; apply andb_true_iff; split; [apply Nat.leb_le|apply Nat.ltb_lt]; lia).
      replace (Nat.leb 12 j && Nat.ltb j (12 + 3))%bool with false by (symmetry; apply andb_false_iff; left; apply Nat.leb_gt; lia). rewrite Z.
      unfold so3_compose, so3_exp. rewrite transform_mul. reflexivity. }
    evar_last; [apply rotated_derive with (d := outer (axis (j - 6)) push); [exact U|exact Hi|intros k Hk; apply turn_derive; lia]|].
    rewrite <- axis_outer. rewrite (times_ext 3 _ _ (fun k => -1 * coordinate (outer push (axis (j - 6))) k)) by (intros; apply coordinate_multiple).
    rewrite times_multiple. to_R. fold q. ring.
  - apply andb_true_iff in E2. destruct E2 as [A B]. apply Nat.leb_le in A. apply Nat.ltb_lt in B.
    apply (is_derive_ext (fun t => coordinate (transform_point q (together push (multiple (- t) (axis (j - 12))))) i)).
    { intros t. unfold world, plus_error. cbn [ns_orientation ns_accelerometer_bias]. rewrite !part_R, add3_R, !nudge_part by (cbn; tauto || exact J).
      replace (Nat.leb 6 j && Nat.ltb j (6 + 3))%bool with false by (symmetry; apply andb_false_iff; right; apply Nat.ltb_ge; lia).
      replace (Nat.leb 12 j && Nat.ltb j (12 + 3))%bool with true by (symmetry; apply andb_true_iff; split; [apply Nat.leb_le|apply Nat.ltb_lt]; lia).
      unfold so3_compose, so3_exp. rewrite exp_none, mul_identity_r. fold q. do 2 f_equal. unfold push. destruct accelerometer as [[? ?] ?], (ns_accelerometer_bias s) as [[? ?] ?], (axis (j - 12)) as [[? ?] ?]. unfold together, multiple. apply point_eq; ring. }
    evar_last; [apply rotated_derive with (d := multiple (-1) (axis (j - 12))); [exact U|exact Hi|]|].
    { intros k Hk. apply (is_derive_ext (fun t => coordinate push k + (- t) * coordinate (axis (j - 12)) k)); [intros t; rewrite coordinate_together, coordinate_multiple; reflexivity|].
      rewrite coordinate_multiple. generalize (coordinate push k) (coordinate (axis (j - 12)) k). intros a b. auto_derive; [exact I|]. to_R. ring. }
    rewrite (times_ext 3 _ _ (fun k => -1 * coordinate (axis (j - 12)) k)) by (intros; apply coordinate_multiple). rewrite times_multiple, times_axis by lia. to_R. fold q. ring.
  - apply (is_derive_ext (fun _ => coordinate (transform_point q push) i)); [|apply @is_derive_const].
    intros t. unfold world, plus_error. cbn [ns_orientation ns_accelerometer_bias]. rewrite !part_R, add3_R, !nudge_part by (cbn; tauto || exact J). cbn [Nat.add]. rewrite E1, E2, Z.
    unfold so3_compose, so3_exp. rewrite exp_none, mul_identity_r. reflexivity.
Qed.

  Let X := from_scaled_axis (multiple h rate).
  Hypothesis UX : unit_quaternion X.
  Let off j t := to_scaled_axis (quat_mul (conjugate (ns_orientation base)) (ns_orientation (moved j t))).
  Let turned (j i : nat) : R := if (Nat.leb 6 j && Nat.ltb j 9)%bool then mget (to_rotation_matrix (from_scaled_axis (multiple h (multiple (-1) rate)))) i (j - 6) else 0.
Lemma cancelled Y : quat_mul (conjugate (quat_mul q X)) (quat_mul q Y) = quat_mul (conjugate X) Y.
Proof. rewrite conjugate_mul, mul_assoc, <- (mul_assoc (conjugate q)), (proj2 (conjugate_inverse q U)), mul_identity_l. reflexivity. Qed.
Lemma off_unfold j t : (j < 15)%nat -> off j t = to_scaled_axis (quat_mul (conjugate X) (quat_mul (from_scaled_axis (if (Nat.leb 6 j && Nat.ltb j 9)%bool then multiple t (axis (j - 6)) else (0, 0, 0)))
    (from_scaled_axis (multiple h (together rate (if (Nat.leb 9 j && Nat.ltb j 12)%bool then multiple (- t) (axis (j - 9)) else (0, 0, 0))))))).
Proof.
  intros J. unfold off, base, moved, propagated, plus_error, so3_compose, so3_exp. cbn [ns_orientation ns_gyroscope_bias]. rewrite !part_R, add3_R, !sub3_R, !scale3_R, !nudge_part by (cbn; tauto || exact J).
  fold q. fold rate. fold X. rewrite mul_assoc, cancelled. cbn [Nat.add]. do 5 f_equal. unfold rate.
  destruct gyroscope as [[? ?] ?], (ns_gyroscope_bias s) as [[? ?] ?], (axis (j - 9)) as [[? ?] ?]. destruct (_ && _)%bool; unfold together, multiple; apply point_eq; ring.
Qed.
Lemma off_derive j i : (j < 15)%nat -> (i < 3)%nat -> (Nat.leb 9 j && Nat.ltb j 12)%bool = false -> is_derive (fun t => coordinate (off j t) i) 0 (turned j i).
Proof.
  intros J Hi N. assert (Z : forall p : point, together p (0, 0, 0) = p) by (intros [[? ?] ?]; unfold together; apply point_eq; ring). unfold turned.
  destruct (Nat.leb 6 j && Nat.ltb j 9)%bool eqn:E.
  - assert (J6 : (6 <= j < 9)%nat). { apply andb_true_iff in E. destruct E as [A B]. apply Nat.leb_le in A. apply Nat.ltb_lt in B. lia. }
    set (b := transform_point (conjugate X) (axis (j - 6))).
    assert (UC : unit_quaternion (conjugate X)) by (apply unit_conjugate; exact UX).
    apply (is_derive_ext_loc (fun t => coordinate (to_scaled_axis (from_scalar_vector (1 - t * t / 8) (multiple (t / 2 - t ^ 3 / 48) b))) i)).
    { apply near_zero. intros t B. rewrite (off_unfold j t J), E, N, Z. fold X. rewrite tiny_exp by exact B. rewrite swept by exact UX. rewrite transform_multiple'. reflexivity. }
    evar_last; [apply log_derive; [|exact Hi]|].
    + unfold b. rewrite transform_length by exact UC. pose proof (length_axis (j - 6) 1) as LA. rewrite Rabs_R1 in LA. rewrite <- LA. f_equal. destruct (axis (j - 6)) as [[? ?] ?]. unfold multiple. apply point_eq; ring.
    + unfold b. rewrite rotated by (auto; lia). rewrite times_axis by lia. replace (multiple h (multiple (-1) rate)) with (multiple (-1) (multiple h rate)) by (rewrite !multiple_multiple; f_equal; ring). rewrite back_exp. reflexivity.
  - apply (is_derive_ext (fun _ => 0)); [|apply @is_derive_const]. intros t. rewrite (off_unfold j t J), E, N, Z, exp_none, mul_identity_l. fold X. rewrite (proj2 (conjugate_inverse _ UX)), log_none. symmetry. apply coordinate_zero.
Qed.
(** When the body is not turning the offset of the gyroscope shows as the transition says. *)
Lemma off_still j i : rate = (0, 0, 0) -> (9 <= j < 12)%nat -> (i < 3)%nat -> is_derive (fun t => coordinate (off j t) i) 0 (if Nat.eqb (i + 9) j then - h else 0).
Proof.
  intros Z0 J Hi. set (g := fun t => coordinate (to_scaled_axis (from_scaled_axis (multiple t (axis (j - 9))))) i).
  assert (D : is_derive g (- h * 0) (coordinate (axis (j - 9)) i)).
  { rewrite Rmult_0_r. unfold g. apply (is_derive_ext_loc (fun t => coordinate (to_scaled_axis (from_scalar_vector (1 - t * t / 8) (multiple (t / 2 - t ^ 3 / 48) (axis (j - 9))))) i)).
    - apply near_zero. intros t B. rewrite tiny_exp by exact B. reflexivity.
    - apply log_derive; [|exact Hi]. pose proof (length_axis (j - 9) 1) as LA. rewrite Rabs_R1 in LA. rewrite <- LA. f_equal. destruct (axis (j - 9)) as [[? ?] ?]. unfold multiple. apply point_eq; ring. }
  apply (is_derive_ext (fun t => g (- h * t))).
  - intros t. rewrite off_unfold by lia. replace (Nat.leb 6 j && Nat.ltb j 9)%bool with false by (symmetry; apply andb_false_iff; right; apply Nat.ltb_ge; lia).
    replace (Nat.leb 9 j && Nat.ltb j 12)%bool with true by (symmetry; apply andb_true_iff; split; [apply Nat.leb_le|apply Nat.ltb_lt]; lia).
    unfold X. rewrite Z0. replace (multiple h (0, 0, 0)) with ((0, 0, 0) : point) by (unfold multiple; apply point_eq; ring). rewrite exp_none.
    replace (conjugate quat_identity) with (@quat_identity R Rnum) by (unfold conjugate, quat_identity; cbn [qw qx qy qz]; rnum; f_equal; ring). rewrite !mul_identity_l. unfold g. do 3 f_equal.
    destruct (axis (j - 9)) as [[? ?] ?]. unfold together, multiple. apply point_eq; ring.
  - evar_last; [apply (is_derive_comp g (fun t => - h * t)); [exact D|apply (is_derive_scal (fun t => t) 0 (- h) 1); apply @is_derive_id]|].
    unfold scal. cbn. unfold mult. cbn. to_R. rewrite coordinate_axis by lia. nat_case; ring.
Qed.
End Step.
