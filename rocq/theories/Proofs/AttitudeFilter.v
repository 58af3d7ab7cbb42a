(** The attitude filters: what a step turns by, and the tilt. *)
From Coq Require Import ZArith List Bool Arith Reals Lra Lia.
From Verif Require Import Base.Scalar Base.RNum Base.Lists Base.Series Model.Errors Model.Vector Model.Matrix Model.Quaternion Model.Lie Model.Ode Model.Kalman Model.AttitudeFilter Spec.Matrix Spec.Rotation Spec.Quaternion
  Proofs.Matrix Proofs.Quaternion Proofs.Rotation Proofs.Pairs Proofs.Slerp Proofs.SpaceJacobian Proofs.Space Proofs.Screw Spec.AttitudeFilter.
Import ListNotations.
Local Open Scope R_scope.
Local Notation cos := Rtrigo_def.cos.
Local Notation sin := Rtrigo_def.sin.
Local Notation acos := Ratan.acos.
Local Notation atan := Ratan.atan.
Local Notation sqrt := R_sqrt.sqrt.
Local Notation length := Spec.Rotation.length.

(** ** The turn of one step *)
Lemma scale_mul (p q : quaternion R) k : quat_scale (quat_mul p q) k = quat_mul p (quat_scale q k).
Proof. destruct p as [a b c d], q as [e f g h]. unfold quat_scale, quat_mul. cbn [qw qx qy qz]. rnum. apply quat_eq; cbn [qw qx qy qz]; ring. Qed.
Lemma normalized_mul (p q : quaternion R) : unit_quaternion p -> quat_normalized (quat_mul p q) = quat_mul p (quat_normalized q).
Proof. intros U. unfold quat_normalized. rewrite scale_mul. f_equal. f_equal. f_equal. unfold quat_norm. f_equal. rewrite norm_mul, (proj1 (unit_is p) U). ring. Qed.
Lemma turned_none n v : turned n 0 v = v.
Proof. unfold turned. rewrite cos_0, sin_0. generalize (inner n v). intros k. destruct n as [[a b] c], v as [[x y] z]. unfold together, multiple, outer. apply point_eq; ring. Qed.
Lemma atan_range r : 0 <= r -> r / (1 + r * r) <= atan r <= r.
Proof.
  intros [R0|<-]; [|rewrite atan_0; lra]. destruct (MVT_cor2 atan (fun x => / (1 + Rsqr x)) 0 r R0) as (c & E & C1 & C2); [intros c _; replace (/ (1 + Rsqr c)) with (/ (1 + c ^ 2)) by (f_equal; unfold Rsqr; ring); apply derivable_pt_lim_atan|].
  rewrite atan_0 in E. unfold Rsqr in E. replace (atan r) with (/ (1 + c * c) * r) by lra.
  assert (A : 1 <= 1 + c * c) by nra. assert (B : 1 + c * c <= 1 + r * r) by nra. assert (I1 : / (1 + r * r) <= / (1 + c * c)) by (apply Rinv_le_contravar; lra). assert (I2 : / (1 + c * c) <= 1) by (rewrite <- Rinv_1; apply Rinv_le_contravar; lra). unfold Rdiv. split; [rewrite (Rmult_comm r); apply Rmult_le_compat_r; lra|]. rewrite <- (Rmult_1_l r) at 2. apply Rmult_le_compat_r; lra.
Qed.
Lemma small_turn phi : 0 < length phi < small -> exists alpha, Rabs (alpha - length phi) <= length phi / 4 /\
  quat_normalized (from_scaled_axis phi) = from_scalar_vector (cos (alpha / 2)) (multiple (sin (alpha / 2)) (direction phi)).
Proof.
  intros [P L]. pose proof small_bound as [_ SB]. assert (SB2 : small < / 100) by (eapply Rlt_trans; [exact SB|]; apply Rinv_lt_contravar; lra).
  rewrite from_scaled_axis_small by exact L. set (x := length phi) in *. set (w := 1 - x * x / 8). set (s := (/ 2 - x * x / 48) * x). assert (X2 : 0 < x * x < / 10000) by nra. assert (W : 0 < w <= 1) by (unfold w; lra). set (r := s / w).
  assert (S0 : 0 < s) by (apply Rmult_lt_0_compat; lra). assert (R0 : 0 < r) by (apply Rdiv_lt_0_compat; lra).
  assert (RW : r * w = s) by (unfold r; field; lra). assert (R1 : r <= 9 / 16 * x) by (apply (Rmult_le_reg_r w); [lra|]; rewrite RW; unfold s, w; nra). assert (R2 : 15 / 32 * x <= r) by (apply (Rmult_le_reg_r w); [lra|]; rewrite RW; unfold s, w; nra).
  exists (2 * atan r). pose proof (atan_range r ltac:(lra)) as [A1 A2]. assert (RR : r * r < / 10) by nra.
  assert (A3 : 9 / 10 * r <= atan r) by (eapply Rle_trans; [|exact A1]; apply (Rmult_le_reg_r (1 + r * r)); [nra|]; replace (r / (1 + r * r) * (1 + r * r)) with r by (field; nra); nra).
  split; [apply Rabs_le; split; lra|]. replace (2 * atan r / 2) with (atan r) by field. rewrite cos_atan, sin_atan.
  assert (V : phi = multiple x (direction phi)). { unfold direction. fold x. destruct phi as [[a b] c]. unfold multiple. apply point_eq; field; lra. }
  assert (DU : inner (direction phi) (direction phi) = 1). { apply direction_unit. intros Z. revert P. unfold x. rewrite Z. rewrite (proj2 (length_zero (0, 0, 0)) eq_refl). lra. }
  unfold quat_normalized. assert (NQ : quat_norm (from_scalar_vector w (multiple (/ 2 - x * x / 48) phi)) = w * sqrt (1 + Rsqr r)).
  { unfold quat_norm. rewrite V. rewrite multiple_multiple. fold s. transitivity (sqrt (w * w * (1 + Rsqr r))).
    - rnum. f_equal. unfold quat_norm_squared, quat_dot, from_scalar_vector. destruct (direction phi) as [[a b] c]. unfold multiple, inner in *. cbn [qw qx qy qz]. rnum. transitivity (w * w + s * s * (a * a + b * b + c * c)); [ring|]. rewrite DU. unfold Rsqr. rewrite <- RW. ring.
    - rewrite sqrt_mult_alt by nra. rewrite sqrt_square by lra. reflexivity. }
  rewrite NQ. assert (Q : 0 < sqrt (1 + Rsqr r)) by (apply sqrt_lt_R0; unfold Rsqr; nra). rewrite V at 1. rewrite multiple_multiple. fold s. rewrite <- RW. rnum.
  destruct (direction phi) as [[a b] c]. unfold quat_scale, from_scalar_vector, multiple. cbn [qw qx qy qz]. rnum. apply quat_eq; cbn [qw qx qy qz]; field; split; lra.
Qed.
Lemma stepped_turn (q : quaternion R) rate h : unit_quaternion q -> exists p alpha, let phi := multiple h rate in
  stepped_orientation q rate h = quat_mul q p /\ unit_quaternion p /\ (forall v, transform_point p v = turned (direction phi) alpha v) /\
  Rabs (alpha - length phi) <= length phi / 4 /\ (small <= length phi -> alpha = length phi).
Proof.
  intros U. assert (E : stepped_orientation q rate h = quat_mul q (quat_normalized (from_scaled_axis (multiple h rate)))).
  { unfold stepped_orientation, so3_normalized, attitude_step, so3_compose, so3_exp. rewrite normalized_mul by exact U. rewrite scale3_R. reflexivity. }
  rewrite E. cbv zeta. set (phi := multiple h rate). pose proof (length_nonneg phi) as L0. destruct (Rle_lt_dec small (length phi)) as [L|L].
  - exists (quat_normalized (from_scaled_axis phi)), (length phi). pose proof small_bound as [SP _]. destruct (exp_large phi L) as [UE _]. rewrite (normalized_unit _ UE). split; [reflexivity|split; [exact UE|split]].
    + intros v. rewrite from_scaled_axis_large by exact L. apply turn_quaternion, direction_unit. intros Z. rewrite Z in L. rewrite (proj2 (length_zero (0, 0, 0)) eq_refl) in L. lra.
    + split; [rewrite Rminus_diag_eq, Rabs_R0 by reflexivity; lra|auto].
  - destruct (Rle_lt_dec (length phi) 0) as [Z|P].
    + assert (Z' : length phi = 0) by lra. exists (quat_identity (T := R)), 0. assert (I : quat_normalized (from_scaled_axis phi) = quat_identity (T := R)).
      { rewrite from_scaled_axis_small by exact L. rewrite Z'. apply length_zero in Z'. rewrite Z'. transitivity (quat_normalized (quat_identity (T := R))); [f_equal; unfold from_scalar_vector, multiple, quat_identity; rnum; f_equal; field|]. apply normalized_unit. unfold unit_quaternion; cbn; rnum; ring. }
      rewrite I. split; [reflexivity|]. split; [unfold unit_quaternion; cbn; rnum; ring|]. split; [|split].
      * intros v. rewrite turned_none. destruct v as [[x y] z]. unfold quat_identity. rnum. rewrite transform_explicit. apply point_eq; ring.
      * rewrite Z'. rewrite Rminus_diag_eq, Rabs_R0 by reflexivity. lra.
      * intros. lra.
    + destruct (small_turn phi (conj P L)) as (alpha & A & N). exists (quat_normalized (from_scaled_axis phi)), alpha.
      assert (D : inner (direction phi) (direction phi) = 1) by (apply direction_unit; intros Z; rewrite Z in P; rewrite (proj2 (length_zero (0, 0, 0)) eq_refl) in P; lra).
      split; [reflexivity|]. rewrite N. split; [|split; [|split; [exact A|lra]]].
      * pose proof (sin2_cos2 (alpha / 2)) as S. unfold Rsqr in S. destruct (direction phi) as [[a b] c]. unfold inner in D. unfold unit_quaternion, from_scalar_vector, multiple. cbn [qw qx qy qz]. transitivity (cos (alpha / 2) * cos (alpha / 2) + sin (alpha / 2) * sin (alpha / 2) * (a * a + b * b + c * c)); [ring|rewrite D; lra].
      * intros v. apply turn_quaternion, D.
Qed.
Lemma stepped_unit (q : quaternion R) rate h : unit_quaternion q -> unit_quaternion (stepped_orientation q rate h).
Proof. intros U. destruct (stepped_turn q rate h U) as (p & a & -> & P & _). apply unit_mul; auto. Qed.
Lemma turned_undo n angle p : inner n n = 1 -> turned n (- angle) (turned n angle p) = p.
Proof.
  intros U. rewrite <- (turn_quaternion n angle), <- (turn_quaternion n (- angle)) by exact U. rewrite <- transform_mul. replace (- angle / 2) with (- (angle / 2)) by field. rewrite cos_neg, sin_neg.
  replace (quat_mul _ _) with (quat_identity (T := R)); [destruct p as [[a b] c]; unfold quat_identity; rnum; rewrite transform_explicit; apply point_eq; ring|].
  pose proof (sin2_cos2 (angle / 2)) as S. unfold Rsqr in S. destruct n as [[x y] z]. unfold inner in U. unfold from_scalar_vector, multiple, quat_identity, quat_mul. cbn. rnum.
  set (s := sin (angle / 2)) in *. set (k := cos (angle / 2)) in *. f_equal; try ring. transitivity (s * s * (x * x + y * y + z * z) + k * k); [rewrite U; lra|ring].
Qed.
(** ** The angle between two directions *)
Lemma outer_length a b : inner a a = 1 -> inner b b = 1 -> inner (outer a b) (outer a b) = 1 - inner a b * inner a b.
Proof. intros A B. destruct a as [[x y] z], b as [[p q] r]. unfold inner, outer in *. transitivity ((x * x + y * y + z * z) * (p * p + q * q + r * r) - (x * p + y * q + z * r) * (x * p + y * q + z * r)); [ring|rewrite A, B; ring]. Qed.
Lemma cosine_range a b : inner a a = 1 -> inner b b = 1 -> -1 <= inner a b <= 1.
Proof. intros A B. pose proof (inner_nonneg (outer a b)) as N. rewrite outer_length in N by auto. split; nra. Qed.
Lemma outer_sine a b : inner a a = 1 -> inner b b = 1 -> length (outer a b) = sin (acos (inner a b)).
Proof. intros A B. unfold length. rewrite outer_length by auto. pose proof (cosine_range a b A B). rewrite sin_acos by lra. reflexivity. Qed.
Lemma swung a b alpha : inner a a = 1 -> inner b b = 1 -> outer a b <> (0, 0, 0) -> inner a (turned (direction (outer a b)) (- alpha) b) = cos (acos (inner a b) - alpha).
Proof.
  intros A B N. assert (D := direction_unit _ N). rewrite cos_minus, cos_acos by (apply cosine_range; auto). rewrite <- (outer_sine a b A B). rewrite turned_explicit by exact D. rewrite cos_neg, sin_neg.
  assert (L : length (outer a b) <> 0) by (intros Z; apply N, length_zero, Z). assert (L2 : length (outer a b) * length (outer a b) = inner (outer a b) (outer a b)) by (unfold length; apply sqrt_sqrt, inner_nonneg).
  unfold direction. set (l := length (outer a b)) in *. clearbody l. destruct a as [[x y] z], b as [[p q] r]. unfold inner, outer, together, multiple in *.
  match goal with |- ?X = ?Y => transitivity (cos alpha * (x * p + y * q + z * r) + sin alpha * (/ l) * (l * l)); [rewrite L2; ring|field; exact L] end.
Qed.
Lemma acos_cos_abs x : - PI <= x <= PI -> acos (cos x) = Rabs x.
Proof. intros H. unfold Rabs. destruct (Rcase_abs x). rewrite <- cos_neg. apply acos_cos. lra. apply acos_cos. lra. Qed.
(** ** Tilt after a step that turns against the cross product *)
Lemma seen_unit q u : unit_quaternion q -> inner u u = 1 -> inner (inverse_transform_point q u) (inverse_transform_point q u) = 1.
Proof. intros A B. unfold inverse_transform_point. rewrite rotate_inner; [exact B|apply unit_conjugate, A]. Qed.
Lemma direction_multiple k u : 0 < k -> direction (multiple k u) = direction u.
Proof.
  intros K. unfold direction. rewrite length_multiple, Rabs_pos_eq by lra. rewrite multiple_multiple. destruct (Req_dec (length u) 0) as [Z|N].
  - apply length_zero in Z. rewrite Z. unfold multiple. apply point_eq; ring.
  - f_equal. field. split; lra.
Qed.
Lemma conjugate_turn p n alpha : unit_quaternion p -> inner n n = 1 -> (forall v, transform_point p v = turned n alpha v) -> forall v, inverse_transform_point p v = turned n (- alpha) v.
Proof.
  intros U N H v. assert (E : v = transform_point p (turned n (- alpha) v)). { rewrite H. pose proof (turned_undo n (- alpha) v N) as X. rewrite Ropp_involutive in X. symmetry. exact X. }
  rewrite E at 1. apply transform_undo, U.
Qed.
(** [k] is the rate of the turn in units of the cross product of the two directions *)
Lemma tilt_step truth q up gain h : unit_quaternion truth -> unit_quaternion q -> inner up up = 1 ->
  let a := inverse_transform_point truth up in let b := inverse_transform_point q up in let c := outer a b in c <> (0, 0, 0) -> 0 < h * gain ->
  exists alpha, inner a (inverse_transform_point (stepped_orientation q (multiple gain c) h) up) = cos (tilt truth q up - alpha) /\
    Rabs (alpha - h * gain * length c) <= h * gain * length c / 4 /\ (small <= h * gain * length c -> alpha = h * gain * length c).
Proof.
  cbv zeta. intros UT UQ N C K. set (a := inverse_transform_point truth up) in *. set (b := inverse_transform_point q up) in *. assert (A1 : inner a a = 1) by (apply seen_unit; auto). assert (B1 : inner b b = 1) by (apply seen_unit; auto).
  destruct (stepped_turn q (multiple gain (outer a b)) h UQ) as (p & alpha & E & P & Tn & R1 & R2). cbv zeta in E, P, Tn, R1, R2. rewrite multiple_multiple in Tn, R1, R2. rewrite length_multiple, (Rabs_pos_eq (h * gain)) in R1 by lra. rewrite length_multiple, (Rabs_pos_eq (h * gain)) in R2 by lra. rewrite direction_multiple in Tn by exact K.
  exists alpha. split; [|auto]. rewrite E. unfold tilt. fold a b. rewrite <- (swung a b alpha A1 B1 C). f_equal.
  assert (X : inverse_transform_point (quat_mul q p) up = inverse_transform_point p b). { unfold b, inverse_transform_point. rewrite <- transform_mul. f_equal. destruct q as [w x y z], p as [w' x' y' z']. unfold conjugate, quat_mul. cbn [qw qx qy qz]. rnum. apply quat_eq; cbn [qw qx qy qz]; ring. }
  rewrite X. apply (conjugate_turn p (direction (outer a b)) alpha P (direction_unit _ C) Tn).
Qed.
(** The sine lies above its chord from zero *)
Lemma sine_chord x x0 : 0 < x <= x0 -> x0 <= PI -> sin x0 / x0 * x <= sin x.
Proof.
  intros [X0 X1] P. destruct (Req_dec x x0) as [->|N]; [right; field; lra|].
  destruct (MVT_cor2 sin cos 0 x X0) as (c1 & E1 & C1); [intros; apply derivable_pt_lim_sin|]. destruct (MVT_cor2 sin cos x x0 ltac:(lra)) as (c2 & E2 & C2); [intros; apply derivable_pt_lim_sin|].
  rewrite sin_0 in E1. assert (D : cos c2 < cos c1) by (apply cos_decreasing_1; lra). apply (Rmult_le_reg_l x0); [lra|]. replace (x0 * (sin x0 / x0 * x)) with (sin x0 * x) by (field; lra).
  replace (sin x0) with (cos c1 * x + cos c2 * (x0 - x)) by lra. replace (sin x) with (cos c1 * x) by lra. assert (cos c2 * ((x0 - x) * x) <= cos c1 * ((x0 - x) * x)) by (apply Rmult_le_compat_r; [nra|lra]). lra.
Qed.
