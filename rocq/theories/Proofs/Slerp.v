(** The angle between rotations and spherical interpolation. *)
From Coq Require Import ZArith List Bool Arith Reals Lra Lia.
From Verif Require Import Base.Scalar Base.RNum Base.Lists Base.Series Base.Trig Model.Vector Model.Matrix Model.Quaternion Spec.Matrix Spec.Rotation Spec.Quaternion Proofs.Matrix Proofs.Algebra Proofs.Quaternion Proofs.Angle Proofs.Rotation Proofs.Attitude.
Import ListNotations.
Local Open Scope R_scope.
Local Notation cos := Rtrigo_def.cos.
Local Notation sin := Rtrigo_def.sin.
Local Notation sqrt := R_sqrt.sqrt.
Local Notation acos := Ratan.acos.
Local Notation length := Spec.Rotation.length.

Lemma cos_inj a b : 0 <= a <= PI -> 0 <= b <= PI -> cos a = cos b -> a = b.
Proof.
  intros A B C. destruct (Rtotal_order a b) as [L|[E|L]]; [|exact E|]; exfalso.
  - pose proof (cos_decreasing_1 a b ltac:(lra) ltac:(lra) ltac:(lra) ltac:(lra) L). lra.
  - pose proof (cos_decreasing_1 b a ltac:(lra) ltac:(lra) ltac:(lra) ltac:(lra) L). lra.
Qed.
Lemma acos_spec d : 0 <= d <= 1 -> 0 <= acos d <= PI / 2 /\ cos (acos d) = d /\ 0 <= sin (acos d) /\ sin (acos d) * sin (acos d) = 1 - d * d.
Proof.
  intros D. pose proof PI_RGT_0. pose proof (acos_bound d) as B. assert (C : cos (acos d) = d) by (apply cos_acos; lra).
  assert (S : 0 <= sin (acos d)) by (apply sin_ge_0; lra). pose proof (sin2_cos2 (acos d)) as Q. unfold Rsqr in Q. rewrite C in Q. repeat split; try lra.
  destruct (Rle_dec (acos d) (PI / 2)); [assumption|]. exfalso. pose proof (cos_lt_0 (acos d) ltac:(lra) ltac:(lra)). lra.
Qed.
Lemma cos_decr a b : 0 <= a -> a <= b -> b <= PI -> cos b <= cos a.
Proof. intros. apply cos_decr_1; lra. Qed.

Lemma dot_relative (p q : quaternion R) : qw (quat_mul (conjugate p) q) = quat_dot p q.
Proof. destruct p as [w x y z], q as [w' x' y' z']. unfold quat_mul, conjugate, quat_dot. cbn [qw qx qy qz]. rnum. ring. Qed.
Lemma dot_bound (p q : quaternion R) : unit_quaternion p -> unit_quaternion q -> 0 <= Rabs (quat_dot p q) <= 1.
Proof.
  intros P Q. split; [apply Rabs_pos|]. rewrite <- dot_relative. change (Rabs (component (quat_mul (conjugate p) q) 0) <= 1). apply component_unit, unit_mul; [apply unit_conjugate|]; assumption.
Qed.
(** The angle is twice the arc between the quaternions, up to sign. *)
Lemma rotation_angle_R p q : unit_quaternion p -> unit_quaternion q -> rotation_angle_to p q = 2 * acos (Rabs (quat_dot p q)).
Proof.
  intros P Q. unfold rotation_angle_to. rnum. set (r := quat_mul (conjugate p) q).
  assert (U : unit_quaternion r) by (apply unit_mul; [apply unit_conjugate|]; assumption). rewrite vector_length. apply unit_split in U.
  assert (D : qw r = quat_dot p q) by apply dot_relative. rewrite <- D. destruct (dot_bound p q P Q) as [A B]. rewrite <- D in A, B. f_equal.
  destruct (acos_spec (Rabs (qw r)) (conj A B)) as (R1 & C & S0 & S). pose proof PI_RGT_0.
  rewrite <- (atan2_angle (acos (Rabs (qw r)))) by lra. rewrite C. f_equal.
  assert (K : Rabs (qw r) * Rabs (qw r) = qw r * qw r) by (unfold Rabs; destruct (Rcase_abs (qw r)); ring). pose proof (length_nonneg (quat_vec r)). rewrite K in S.
  apply Rsqr_inj; auto. unfold Rsqr. lra.
Qed.
Lemma quat_dot_sym (p q : quaternion R) : quat_dot p q = quat_dot q p.
Proof. unfold quat_dot. rnum. ring. Qed.
Lemma quat_dot_self (q : quaternion R) : unit_quaternion q -> quat_dot q q = 1.
Proof. intros U. exact U. Qed.
Lemma angle_range p q : unit_quaternion p -> unit_quaternion q -> 0 <= rotation_angle_to p q <= PI.
Proof. intros P Q. rewrite rotation_angle_R by assumption. destruct (acos_spec _ (dot_bound p q P Q)). lra. Qed.
Lemma angle_sym p q : unit_quaternion p -> unit_quaternion q -> rotation_angle_to p q = rotation_angle_to q p.
Proof. intros P Q. rewrite !rotation_angle_R by assumption. rewrite quat_dot_sym. reflexivity. Qed.
Lemma four_zero a b c d : a * a + (b * b + c * c + d * d) = 0 -> a = 0 /\ b = 0 /\ c = 0 /\ d = 0.
Proof. intros H. repeat split; nra. Qed.
Lemma angle_zero p q : unit_quaternion p -> unit_quaternion q -> rotation_angle_to p q = 0 <-> p = q \/ p = quat_neg q.
Proof.
  intros P Q. rewrite rotation_angle_R by assumption. destruct (acos_spec _ (dot_bound p q P Q)) as (R1 & C & _). split.
  - intros E. assert (Z : acos (Rabs (quat_dot p q)) = 0) by lra. rewrite Z, cos_0 in C.
    assert (D : quat_dot p q = 1 \/ quat_dot p q = -1) by (unfold Rabs in C; destruct (Rcase_abs _); [right|left]; lra).
    unfold unit_quaternion in P, Q. destruct p as [w x y z], q as [w' x' y' z']. unfold quat_dot in D. cbn [qw qx qy qz] in *. rnum. destruct D as [D|D]; [left|right].
    + assert (S : (w - w') * (w - w') + ((x - x') * (x - x') + (y - y') * (y - y') + (z - z') * (z - z')) = 0) by lra. apply four_zero in S. apply quat_eq; cbn [qw qx qy qz]; lra.
    + assert (S : (w + w') * (w + w') + ((x + x') * (x + x') + (y + y') * (y + y') + (z + z') * (z + z')) = 0) by lra. apply four_zero in S. unfold quat_neg. apply quat_eq; cbn [qw qx qy qz]; rnum; lra.
  - intros E. assert (D : Rabs (quat_dot p q) = 1).
    { destruct E as [->| ->]; [rewrite quat_dot_self by assumption; apply Rabs_R1|]. replace (quat_dot (quat_neg q) q) with (- quat_dot q q) by (unfold quat_dot, quat_neg; cbn [qw qx qy qz]; rnum; ring). rewrite quat_dot_self by assumption. rewrite Rabs_Ropp. apply Rabs_R1. }
    rewrite D. rewrite acos_1. ring.
Qed.
(** Against the rotation matrices: one plus twice the cosine of the angle is the trace of the relative rotation. *)
Lemma angle_trace p q : unit_quaternion p -> unit_quaternion q ->
  let relative := product 3 (transposed (mget (to_rotation_matrix p))) (mget (to_rotation_matrix q)) in
  1 + 2 * cos (rotation_angle_to p q) = relative 0%nat 0%nat + relative 1%nat 1%nat + relative 2%nat 2%nat.
Proof.
  intros P Q. rewrite rotation_angle_R by assumption. destruct (acos_spec _ (dot_bound p q P Q)) as (_ & C & _). rewrite cos_2a_cos, C. cbv zeta.
  assert (K : Rabs (quat_dot p q) * Rabs (quat_dot p q) = quat_dot p q * quat_dot p q) by (unfold Rabs; destruct (Rcase_abs _); ring).
  replace (2 * Rabs (quat_dot p q) * Rabs (quat_dot p q)) with (2 * (quat_dot p q * quat_dot p q)) by (rewrite <- K; ring). clear C K.
  destruct p as [w x y z], q as [w' x' y' z']. unfold unit_quaternion in P, Q. unfold quat_dot, product, transposed, bsum, to_rotation_matrix, mget. cbn [qw qx qy qz nth] in *. rnum.
  set (n := w * w + x * x + y * y + z * z) in *. set (n' := w' * w' + x' * x' + y' * y' + z' * z') in *.
  assert (E : (n - 1) * (3 - 4 * (x' * x' + y' * y' + z' * z')) + (n' - 1) * (3 - 4 * (x * x + y * y + z * z)) + 3 * (n - 1) * (n' - 1) + (n * n' - 1) = 0) by (rewrite P, Q; ring).
  match type of E with ?e = 0 => match goal with |- ?l = ?r => assert (F : l = r + e) by (unfold n, n'; ring); rewrite F, E; ring end end.
Qed.
(** Cauchy's inequality for the parts across [q] *)
Lemma across (p q r : quaternion R) : unit_quaternion p -> unit_quaternion q -> unit_quaternion r ->
  (quat_dot p r - quat_dot p q * quat_dot q r) * (quat_dot p r - quat_dot p q * quat_dot q r) <= (1 - quat_dot p q * quat_dot p q) * (1 - quat_dot q r * quat_dot q r).
Proof.
  intros P Q R.
  set (p' := quat_sub p (quat_scale q (quat_dot p q))). set (r' := quat_sub r (quat_scale q (quat_dot q r))).
  assert (C : quat_dot p' r' * quat_dot p' r' <= quat_dot p' p' * quat_dot r' r').
  { clear. destruct p' as [w x y z], r' as [w' x' y' z']. unfold quat_dot. cbn [qw qx qy qz]. rnum.
    assert (0 <= (w * x' - x * w') * (w * x' - x * w') + (w * y' - y * w') * (w * y' - y * w') + (w * z' - z * w') * (w * z' - z * w') + (x * y' - y * x') * (x * y' - y * x') + (x * z' - z * x') * (x * z' - z * x') + (y * z' - z * y') * (y * z' - z * y')) by (repeat apply Rplus_le_le_0_compat; apply Rle_0_sqr).
    lra. }
  assert (L : forall a b s t, quat_dot (quat_sub a (quat_scale q s)) (quat_sub b (quat_scale q t)) = quat_dot a b - t * quat_dot a q - s * quat_dot q b + s * t * quat_dot q q).
  { intros. destruct a, b, q. unfold quat_dot, quat_sub, quat_scale. cbn [Quaternion.qw Quaternion.qx Quaternion.qy Quaternion.qz]. rnum. ring. }
  unfold p', r' in C. rewrite !L, !quat_dot_self, (quat_dot_sym q p), (quat_dot_sym r q) in C by assumption. nra.
Qed.
Lemma dot_neg_l (p q : quaternion R) : quat_dot (quat_neg p) q = - quat_dot p q.
Proof. unfold quat_dot, quat_neg. cbn [qw qx qy qz]. rnum. ring. Qed.
Lemma dot_neg_r (p q : quaternion R) : quat_dot p (quat_neg q) = - quat_dot p q.
Proof. unfold quat_dot, quat_neg. cbn [qw qx qy qz]. rnum. ring. Qed.
Lemma angle_triangle p q r : unit_quaternion p -> unit_quaternion q -> unit_quaternion r -> rotation_angle_to p r <= rotation_angle_to p q + rotation_angle_to q r.
Proof.
  assert (W : forall p q r, unit_quaternion p -> unit_quaternion q -> unit_quaternion r -> 0 <= quat_dot p q -> 0 <= quat_dot q r -> rotation_angle_to p r <= rotation_angle_to p q + rotation_angle_to q r).
  { clear. intros p q r P Q R A B. rewrite !rotation_angle_R by assumption.
    destruct (acos_spec _ (dot_bound p q P Q)) as (R1 & C1 & S1 & T1). destruct (acos_spec _ (dot_bound q r Q R)) as (R2 & C2 & S2 & T2). destruct (acos_spec _ (dot_bound p r P R)) as (R3 & C3 & S3 & T3).
    pose proof (across p q r P Q R) as X. rewrite (Rabs_pos_eq (quat_dot p q)) in * by exact A. rewrite (Rabs_pos_eq (quat_dot q r)) in * by exact B.
    set (a := acos (quat_dot p q)) in *. set (b := acos (quat_dot q r)) in *. set (c := acos (Rabs (quat_dot p r))) in *.
    destruct (Rle_dec c (a + b)) as [|N]; [lra|exfalso]. pose proof PI_RGT_0.
    assert (L : cos c < cos (a + b)) by (apply cos_decreasing_1; lra). rewrite cos_plus, C1, C2, C3 in L. pose proof (Rle_abs (quat_dot p r)).
    assert (Y : quat_dot p q * quat_dot q r - sin a * sin b <= quat_dot p r); [|lra].
    assert (Y2 : (quat_dot p r - quat_dot p q * quat_dot q r) * (quat_dot p r - quat_dot p q * quat_dot q r) <= (sin a * sin b) * (sin a * sin b)) by (replace ((sin a * sin b) * (sin a * sin b)) with ((sin a * sin a) * (sin b * sin b)) by ring; rewrite T1, T2; exact X).
    assert (0 <= sin a * sin b) by nra. destruct (Rle_dec (quat_dot p q * quat_dot q r - sin a * sin b) (quat_dot p r)); [assumption|]. nra. }
  intros P Q R. assert (N : forall a b, unit_quaternion a -> unit_quaternion b -> rotation_angle_to (quat_neg a) b = rotation_angle_to a b /\ rotation_angle_to a (quat_neg b) = rotation_angle_to a b).
  { clear. intros a b A B. rewrite !rotation_angle_R by (auto using unit_neg). rewrite dot_neg_l, dot_neg_r, !Rabs_Ropp. auto. }
  destruct (Rle_dec 0 (quat_dot p q)); destruct (Rle_dec 0 (quat_dot q r)).
  - apply W; assumption.
  - rewrite <- (proj2 (N p r P R)), <- (proj2 (N q r Q R)). apply W; auto using unit_neg. rewrite dot_neg_r. lra.
  - rewrite <- (proj1 (N p r P R)), <- (proj1 (N p q P Q)). apply W; auto using unit_neg. rewrite dot_neg_l. lra.
  - rewrite <- (proj2 (N p q P Q)), <- (proj1 (N q r Q R)). apply W; auto using unit_neg; [rewrite dot_neg_r|rewrite dot_neg_l]; lra.
Qed.

(** ** Interpolation *)
Definition nearer (p q : quaternion R) : quaternion R := if Rltb (quat_dot p q) 0 then quat_neg q else q.
Lemma nearer_is p q : nearer p q = q \/ nearer p q = quat_neg q.
Proof. unfold nearer. destruct (Rltb _ _); auto. Qed.
Lemma nearer_unit p q : unit_quaternion q -> unit_quaternion (nearer p q).
Proof. intros U. destruct (nearer_is p q) as [->| ->]; [assumption|apply unit_neg, U]. Qed.
Lemma nearer_dot p q : quat_dot p (nearer p q) = Rabs (quat_dot p q).
Proof. unfold nearer. destruct (Rltb (quat_dot p q) 0) eqn:E; rcases; [rewrite dot_neg_r, Rabs_left|rewrite Rabs_pos_eq]; lra. Qed.
Definition mix (p q : quaternion R) (a b : R) : quaternion R := quat_add (quat_scale p a) (quat_scale q b).
Lemma mix_dot p q a b c d : quat_dot (mix p q a b) (mix p q c d) = a * c * quat_dot p p + (a * d + b * c) * quat_dot p q + b * d * quat_dot q q.
Proof. unfold mix, quat_dot, quat_add, quat_scale. cbn [qw qx qy qz]. rnum. ring. Qed.
Lemma mix_first p q : mix p q 1 0 = p.
Proof. unfold mix, quat_add, quat_scale. rnum. destruct p as [w x y z], q as [w' x' y' z']. cbn [qw qx qy qz]. apply quat_eq; cbn [qw qx qy qz]; ring. Qed.
Lemma mix_second p q : mix p q 0 1 = q.
Proof. unfold mix, quat_add, quat_scale. rnum. destruct p as [w x y z], q as [w' x' y' z']. cbn [qw qx qy qz]. apply quat_eq; cbn [qw qx qy qz]; ring. Qed.
Lemma normalized_unit q : unit_quaternion q -> quat_normalized q = q.
Proof. intros U. unfold quat_normalized. rewrite quat_norm_unit by exact U. rnum. rewrite Rinv_1. destruct q as [w x y z]. unfold quat_scale. cbn [qw qx qy qz]. rnum. apply quat_eq; cbn [qw qx qy qz]; ring. Qed.
Lemma normalized_is_unit q : 0 < quat_norm_squared q -> unit_quaternion (quat_normalized q).
Proof.
  intros P. apply unit_is. unfold quat_normalized. rewrite norm_scale. rnum. assert (Q : 0 < quat_norm q) by (apply sqrt_lt_R0, P). rewrite <- quat_norm_sqr. field. lra.
Qed.
Lemma normalized_dot (p q : quaternion R) : quat_dot p (quat_normalized q) = quat_dot p q / quat_norm q.
Proof. unfold quat_normalized, quat_dot, quat_scale. cbn [qw qx qy qz]. rnum. unfold Rdiv. ring. Qed.
Definition weight_start (d t : R) : R := if Rltb (1 - / IZR (2^52)) d then 1 - t else sin ((1 - t) * acos d) / sin (acos d).
Definition weight_end (d t : R) : R := if Rltb (1 - / IZR (2^52)) d then t else sin (t * acos d) / sin (acos d).
Lemma slerp_R p q t : slerp p q t = quat_normalized (mix p (nearer p q) (weight_start (Rabs (quat_dot p q)) t) (weight_end (Rabs (quat_dot p q)) t)).
Proof.
  unfold slerp, nearer, mix, weight_start, weight_end. rnum. destruct (Rltb (quat_dot p q) 0) eqn:E; rcases; [rewrite (Rabs_left (quat_dot p q)) by lra|rewrite (Rabs_pos_eq (quat_dot p q)) by lra]; destruct (Rltb _ _); reflexivity.
Qed.
Lemma acos_between d : 0 <= d <= 1 - / IZR (2^52) -> 0 < acos d <= PI / 2 /\ 0 < sin (acos d).
Proof.
  intros D. pose proof eps_small. destruct (acos_spec d ltac:(lra)) as (R1 & C & S & Q). assert (S' : 0 < sin (acos d)) by (destruct (Req_dec (sin (acos d)) 0) as [E|E]; [rewrite E in Q; nra|lra]).
  split; [|exact S']. split; [|lra]. destruct (Req_dec (acos d) 0) as [E|E]; [rewrite E, sin_0 in S'; lra|lra].
Qed.
Lemma arc_mix p q' s t : unit_quaternion p -> unit_quaternion q' -> 0 <= quat_dot p q' <= 1 - / IZR (2^52) -> let d := quat_dot p q' in
  quat_dot (mix p q' (weight_start d s) (weight_end d s)) (mix p q' (weight_start d t) (weight_end d t)) = cos ((t - s) * acos d).
Proof.
  intros P Q D d. unfold d. rewrite mix_dot, !quat_dot_self by assumption. unfold weight_start, weight_end. rewrite (proj2 (Rltb_false _ _)) by lra. fold d in D |- *.
  destruct (acos_between d D) as [A S]. destruct (acos_spec d ltac:(pose proof eps_small; lra)) as (_ & C & _ & T). set (a := acos d) in *.
  assert (E1 : sin ((1 - s) * a) = sin a * cos (s * a) - cos a * sin (s * a)) by (replace ((1 - s) * a) with (a - s * a) by ring; apply sin_minus).
  assert (E2 : sin ((1 - t) * a) = sin a * cos (t * a) - cos a * sin (t * a)) by (replace ((1 - t) * a) with (a - t * a) by ring; apply sin_minus).
  replace ((t - s) * a) with (t * a - s * a) by ring. rewrite cos_minus, E1, E2, C. set (ss := sin (s * a)). set (cs := cos (s * a)). set (st := sin (t * a)). set (ct := cos (t * a)). set (k := sin a) in *.
  apply (Rmult_eq_reg_r (k * k)); [|nra]. transitivity ((k * k) * cs * (k * ct) / k * 1 + (1 - d * d) * ss * st); [|rewrite <- T; field; lra]. field. lra.
Qed.
Lemma slerp_far p q t : unit_quaternion p -> unit_quaternion q -> Rabs (quat_dot p q) <= 1 - / IZR (2^52) ->
  slerp p q t = mix p (nearer p q) (weight_start (Rabs (quat_dot p q)) t) (weight_end (Rabs (quat_dot p q)) t) /\ unit_quaternion (slerp p q t).
Proof.
  intros P Q D. rewrite slerp_R. rewrite <- nearer_dot in *. assert (0 <= quat_dot p (nearer p q)) by (rewrite nearer_dot; apply Rabs_pos).
  assert (U : unit_quaternion (mix p (nearer p q) (weight_start (quat_dot p (nearer p q)) t) (weight_end (quat_dot p (nearer p q)) t))).
  { assert (X := arc_mix p (nearer p q) t t P (nearer_unit p q Q) ltac:(lra)). cbv zeta in X. replace ((t - t) * _) with 0 in X by ring. rewrite cos_0 in X. exact X. }
  rewrite normalized_unit by exact U. auto.
Qed.
Lemma angle_neg_r p q : unit_quaternion p -> unit_quaternion q -> rotation_angle_to p (nearer p q) = rotation_angle_to p q.
Proof. intros P Q. rewrite !rotation_angle_R by auto using nearer_unit. rewrite nearer_dot, Rabs_Rabsolu. reflexivity. Qed.
Lemma acos_cos_half a : 0 <= a <= PI / 2 -> acos (Rabs (cos a)) = a.
Proof.
  intros A. pose proof PI_RGT_0. assert (0 <= cos a) by (apply cos_ge_0; lra). rewrite Rabs_pos_eq by assumption. apply acos_cos. lra.
Qed.
Lemma slerp_speed p q s t : unit_quaternion p -> unit_quaternion q -> Rabs (quat_dot p q) <= 1 - / IZR (2^52) -> 0 <= s <= 1 -> 0 <= t <= 1 ->
  rotation_angle_to (slerp p q s) (slerp p q t) = Rabs (t - s) * rotation_angle_to p q.
Proof.
  intros P Q D S T. destruct (slerp_far p q s P Q D) as [E1 U1]. destruct (slerp_far p q t P Q D) as [E2 U2]. rewrite !rotation_angle_R by assumption. rewrite E1, E2, <- (nearer_dot p q).
  pose proof (Rabs_pos (quat_dot p q)). rewrite arc_mix by (auto using nearer_unit; rewrite ?nearer_dot; lra). rewrite nearer_dot.
  destruct (acos_between (Rabs (quat_dot p q)) (conj (Rabs_pos _) D)) as [A _]. set (a := acos (Rabs (quat_dot p q))) in *.
  replace (cos ((t - s) * a)) with (cos (Rabs (t - s) * a)). 2:{ unfold Rabs. destruct (Rcase_abs (t - s)); [|reflexivity]. replace (- (t - s) * a) with (- ((t - s) * a)) by ring. apply cos_neg. }
  rewrite acos_cos_half; [ring|]. assert (0 <= Rabs (t - s) <= 1) by (split; [apply Rabs_pos|apply Rabs_le; lra]). nra.
Qed.
(** Any nonnegative mixture lies on the arc between. *)
Lemma mix_between p q' a b : unit_quaternion p -> unit_quaternion q' -> 0 <= quat_dot p q' <= 1 -> 0 <= a -> 0 <= b -> 0 < a + b ->
  let r := quat_normalized (mix p q' a b) in unit_quaternion r /\ rotation_angle_to p r + rotation_angle_to r q' = rotation_angle_to p q'.
Proof.
  intros P Q D A B AB. set (d := quat_dot p q') in *.
  assert (N2 : quat_norm_squared (mix p q' a b) = a * a + 2 * (a * b) * d + b * b). { change (quat_norm_squared (mix p q' a b)) with (quat_dot (mix p q' a b) (mix p q' a b)). rewrite mix_dot, !quat_dot_self by assumption. fold d. ring. }
  assert (NP : 0 < quat_norm_squared (mix p q' a b)) by (rewrite N2; assert (0 <= a * b) by nra; assert (0 <= a * b * d) by nra; assert (0 < (a + b) * (a + b)) by nra; nra).
  cbv zeta. assert (U := normalized_is_unit _ NP). split; [exact U|]. rewrite !rotation_angle_R by assumption.
  assert (F : quat_dot p (mix p q' a b) = a + b * d). { rewrite <- (mix_first p q') at 1. rewrite mix_dot, !quat_dot_self by assumption. fold d. ring. }
  assert (G : quat_dot q' (mix p q' a b) = a * d + b). { rewrite <- (mix_second p q') at 1. rewrite mix_dot, !quat_dot_self by assumption. fold d. ring. }
  rewrite (quat_dot_sym (quat_normalized _) q'), !normalized_dot, F, G.
  assert (NN : 0 < quat_norm (mix p q' a b)) by (apply sqrt_lt_R0, NP). pose proof (quat_norm_sqr (mix p q' a b)) as SQ. rewrite N2 in SQ. set (n := quat_norm (mix p q' a b)) in *. clearbody n.
  pose proof (dot_bound p _ P U) as B1. rewrite normalized_dot, F in B1. pose proof (dot_bound q' _ Q U) as B2. rewrite normalized_dot, G in B2. fold d.
  assert (X0 : 0 <= (a + b * d) / n) by (apply Rmult_le_pos; [nra|left; apply Rinv_0_lt_compat, NN]). assert (Y0 : 0 <= (a * d + b) / n) by (apply Rmult_le_pos; [nra|left; apply Rinv_0_lt_compat, NN]).
  assert (NX : quat_norm (mix p q' a b) = n). { apply Rsqr_inj; [apply sqrt_pos|lra|]. unfold Rsqr. rewrite quat_norm_sqr, N2. lra. }
  rewrite NX in *. rewrite (Rabs_pos_eq _ X0) in *. rewrite (Rabs_pos_eq _ Y0) in *. rewrite (Rabs_pos_eq d) by lra.
  destruct (acos_spec _ B1) as (R1 & C1 & S1 & T1). destruct (acos_spec _ B2) as (R2 & C2 & S2 & T2). destruct (acos_spec d D) as (R3 & C3 & S3 & T3).
  set (x := acos ((a + b * d) / n)) in *. set (y := acos ((a * d + b) / n)) in *. set (z := acos d) in *. pose proof PI_RGT_0.
  assert (sin x = b * sin z / n). { apply Rsqr_inj; [assumption|apply Rmult_le_pos; [nra|left; apply Rinv_0_lt_compat, NN]|]. unfold Rsqr. rewrite T1. replace (b * sin z / n * (b * sin z / n)) with (b * b * (sin z * sin z) / (n * n)) by (field; lra). rewrite T3.
    replace ((a + b * d) / n * ((a + b * d) / n)) with ((a + b * d) * (a + b * d) / (n * n)) by (field; lra). apply (Rmult_eq_reg_r (n * n)); [|nra]. field_simplify; [|lra|lra]. replace (n ^ 2) with (n * n) by ring. rewrite SQ. ring. }
  assert (sin y = a * sin z / n). { apply Rsqr_inj; [assumption|apply Rmult_le_pos; [nra|left; apply Rinv_0_lt_compat, NN]|]. unfold Rsqr. rewrite T2. replace (a * sin z / n * (a * sin z / n)) with (a * a * (sin z * sin z) / (n * n)) by (field; lra). rewrite T3.
    replace ((a * d + b) / n * ((a * d + b) / n)) with ((a * d + b) * (a * d + b) / (n * n)) by (field; lra). apply (Rmult_eq_reg_r (n * n)); [|nra]. field_simplify; [|lra|lra]. replace (n ^ 2) with (n * n) by ring. rewrite SQ. ring. }
  assert (E : x + y = z); [|lra]. apply cos_inj; [lra|lra|]. rewrite cos_plus, C1, C2, C3, H0, H1. replace ((a + b * d) / n * ((a * d + b) / n) - b * sin z / n * (a * sin z / n)) with (((a + b * d) * (a * d + b) - a * b * (sin z * sin z)) / (n * n)) by (field; lra). rewrite T3.
  replace ((a + b * d) * (a * d + b) - a * b * (1 - d * d)) with (d * (n * n)) by (rewrite SQ; ring). field. lra.
Qed.
Lemma weights_nonneg d t : 0 <= d <= 1 -> 0 <= t <= 1 -> 0 <= weight_start d t /\ 0 <= weight_end d t /\ 0 < weight_start d t + weight_end d t.
Proof.
  intros D T. unfold weight_start, weight_end. destruct (Rltb _ d) eqn:E; rcases; [lra|]. destruct (acos_between d ltac:(lra)) as [A S]. pose proof PI_RGT_0. set (a := acos d) in *.
  assert (0 <= sin ((1 - t) * a)) by (apply sin_ge_0; nra). assert (0 <= sin (t * a)) by (apply sin_ge_0; nra). assert (I : 0 < / sin a) by (apply Rinv_0_lt_compat, S).
  assert (0 < sin ((1 - t) * a) + sin (t * a)).
  { destruct (Rle_dec t (1 / 2)) as [L|L]; [assert (0 < sin ((1 - t) * a)) by (apply sin_gt_0; nra)|assert (0 < sin (t * a)) by (apply sin_gt_0; nra)]; lra. }
  unfold Rdiv. repeat split; [nra|nra|]. rewrite <- Rmult_plus_distr_r. nra.
Qed.
Lemma slerp_between p q t : unit_quaternion p -> unit_quaternion q -> 0 <= t <= 1 ->
  unit_quaternion (slerp p q t) /\ rotation_angle_to p (slerp p q t) + rotation_angle_to (slerp p q t) q = rotation_angle_to p q.
Proof.
  intros P Q T. rewrite slerp_R. pose proof (dot_bound p q P Q) as D. destruct (weights_nonneg _ t D T) as (A & B & C). 
  destruct (mix_between p (nearer p q) (weight_start (Rabs (quat_dot p q)) t) (weight_end (Rabs (quat_dot p q)) t) P (nearer_unit p q Q) ltac:(rewrite nearer_dot; exact D) A B C) as [U E].
  split; [exact U|]. rewrite <- (angle_neg_r p q P Q), <- E. f_equal. set (r := quat_normalized _) in *. rewrite !rotation_angle_R by auto using nearer_unit.
  destruct (nearer_is p q) as [->| ->]; [reflexivity|]. rewrite dot_neg_r, Rabs_Ropp. reflexivity.
Qed.
Lemma slerp_ends p q : unit_quaternion p -> unit_quaternion q -> slerp p q 0 = p /\ slerp p q 1 = nearer p q.
Proof.
  intros P Q. rewrite !slerp_R. pose proof (dot_bound p q P Q) as D. set (d := Rabs (quat_dot p q)) in *. unfold weight_start, weight_end. destruct (Rltb _ d) eqn:E; rcases.
  - replace (1 - 0) with 1 by ring. replace (1 - 1) with 0 by ring. rewrite mix_first, mix_second. split; apply normalized_unit; auto using nearer_unit.
  - destruct (acos_between d ltac:(lra)) as [A S]. replace ((1 - 0) * acos d) with (acos d) by ring. replace ((1 - 1) * acos d) with 0 by ring. rewrite !Rmult_0_l, !Rmult_1_l, sin_0.
    replace (0 / sin (acos d)) with 0 by (field; lra). replace (sin (acos d) / sin (acos d)) with 1 by (field; lra). rewrite mix_first, mix_second. split; apply normalized_unit; auto using nearer_unit.
Qed.
