(** Euler angles. *)
From Coq Require Import ZArith List Bool Arith Reals Lra Lia.
From Verif Require Import Base.Scalar Base.RNum Base.Lists Base.Series Base.Trig Model.Vector Model.Matrix Model.Quaternion Spec.Matrix Spec.Rotation Spec.Quaternion Proofs.Matrix Proofs.Algebra Proofs.Quaternion Proofs.Angle Proofs.Rotation Proofs.Attitude.
Import ListNotations.
Local Open Scope R_scope.
Local Notation cos := Rtrigo_def.cos.
Local Notation sin := Rtrigo_def.sin.
Local Notation sqrt := R_sqrt.sqrt.
Local Notation asin := Ratan.asin.
Local Notation length := Spec.Rotation.length.

Definition about_x := from_scalar_vector (T := R). 
Lemma euler_product roll pitch yaw : from_euler_zyx roll pitch yaw =
  quat_mul (from_scalar_vector (cos (yaw / 2)) (multiple (sin (yaw / 2)) (0, 0, 1)))
    (quat_mul (from_scalar_vector (cos (pitch / 2)) (multiple (sin (pitch / 2)) (0, 1, 0))) (from_scalar_vector (cos (roll / 2)) (multiple (sin (roll / 2)) (1, 0, 0)))).
Proof.
  unfold from_euler_zyx. rnum. change (roll * / 2) with (roll / 2). change (pitch * / 2) with (pitch / 2). change (yaw * / 2) with (yaw / 2).
  unfold from_scalar_vector, multiple, quat_mul. cbn [qw qx qy qz]. rnum. apply quat_eq; cbn [qw qx qy qz]; ring.
Qed.
Lemma axis_x : inner (1, 0, 0) (1, 0, 0) = 1. Proof. unfold inner. ring. Qed.
Lemma axis_y : inner (0, 1, 0) (0, 1, 0) = 1. Proof. unfold inner. ring. Qed.
Lemma axis_z : inner (0, 0, 1) (0, 0, 1) = 1. Proof. unfold inner. ring. Qed.
Lemma euler_unit roll pitch yaw : unit_quaternion (from_euler_zyx roll pitch yaw).
Proof. rewrite euler_product. repeat apply unit_mul; apply turn_unit; [apply axis_z|apply axis_y|apply axis_x]. Qed.
Lemma euler_turns roll pitch yaw v : transform_point (from_euler_zyx roll pitch yaw) v = turned (0, 0, 1) yaw (turned (0, 1, 0) pitch (turned (1, 0, 0) roll v)).
Proof. rewrite euler_product, !transform_mul. rewrite (turn_quaternion (1, 0, 0) _ _ axis_x), (turn_quaternion (0, 1, 0) _ _ axis_y), (turn_quaternion (0, 0, 1) _ _ axis_z). reflexivity. Qed.
(** The first column and the last row of the matrix *)
Lemma euler_entries roll pitch yaw : let m := mget (to_rotation_matrix (from_euler_zyx roll pitch yaw)) in
  m 0%nat 0%nat = cos yaw * cos pitch /\ m 1%nat 0%nat = sin yaw * cos pitch /\ m 2%nat 0%nat = - sin pitch /\ m 2%nat 1%nat = cos pitch * sin roll /\ m 2%nat 2%nat = cos pitch * cos roll.
Proof.
  set (q := from_euler_zyx roll pitch yaw). assert (U : unit_quaternion q) by apply euler_unit. cbv zeta.
  assert (C : forall v i, (i < 3)%nat -> times 3 (mget (to_rotation_matrix q)) (coordinate v) i = coordinate (turned (0, 0, 1) yaw (turned (0, 1, 0) pitch (turned (1, 0, 0) roll v))) i).
  { intros v i Hi. rewrite (rotation_matrix_carries q v U i Hi). unfold q. rewrite euler_turns. reflexivity. }
  assert (E : forall v, turned (0, 0, 1) yaw (turned (0, 1, 0) pitch (turned (1, 0, 0) roll v)) = 
    let '(x, y, z) := v in let y1 := cos roll * y - sin roll * z in let z1 := sin roll * y + cos roll * z in let x2 := cos pitch * x + sin pitch * z1 in
    (cos yaw * x2 - sin yaw * y1, sin yaw * x2 + cos yaw * y1, - sin pitch * x + cos pitch * z1)).
  { intros [[x y] z]. rewrite (turned_explicit (1, 0, 0)), (turned_explicit (0, 1, 0)), (turned_explicit (0, 0, 1)) by (apply axis_x || apply axis_y || apply axis_z). unfold together, multiple, inner, outer. apply point_eq; ring. }
  set (m := mget (to_rotation_matrix q)) in *.
  pose proof (C (1, 0, 0) 0%nat ltac:(lia)) as A0. pose proof (C (1, 0, 0) 1%nat ltac:(lia)) as A1. pose proof (C (1, 0, 0) 2%nat ltac:(lia)) as A2. pose proof (C (0, 1, 0) 2%nat ltac:(lia)) as A3. pose proof (C (0, 0, 1) 2%nat ltac:(lia)) as A4. rewrite E in *.
  unfold times, bsum, coordinate in *. cbn [nth] in *. repeat split; lra.
Qed.
(** A proper rotation is determined by its first column and last row, away from the poles. *)
Lemma determined_by a b c d e f g h i : proper_entries a b c d e f g h i -> e * (1 - g * g) = i * a - g * (d * h) /\ b * (1 - g * g) = - (g * (h * a)) - d * i.
Proof. intros []. split; [rewrite pe_c in pe_e|rewrite pe_f in pe_b]; lra. Qed.
Lemma determined a b c d e f g h i b' c' e' f' : proper_entries a b c d e f g h i -> proper_entries a b' c' d e' f' g h i -> g * g <> 1 -> b = b' /\ c = c' /\ e = e' /\ f = f'.
Proof.
  intros P P' G. destruct (determined_by _ _ _ _ _ _ _ _ _ P) as [E B]. destruct (determined_by _ _ _ _ _ _ _ _ _ P') as [E' B'].
  assert (Ee : e = e') by (apply (Rmult_eq_reg_r (1 - g * g)); lra). assert (Eb : b = b') by (apply (Rmult_eq_reg_r (1 - g * g)); lra).
  destruct P as [], P' as []. rewrite Ee in *. rewrite Eb in *. repeat split; lra.
Qed.
(** ** Away from gimbal lock *)
Definition sine_pitch (q : quaternion R) : R := 2 * (qw q * qy q - qz q * qx q).
Lemma sine_pitch_entry q : mget (to_rotation_matrix q) 2 0 = - sine_pitch q.
Proof. unfold sine_pitch, to_rotation_matrix, mget. cbn [nth]. rnum. ring. Qed.
Lemma to_euler_R q : to_euler_zyx q = if Rle_dec (1 - small) (Rabs (sine_pitch q)) then
    (0, Rcopysign (PI / 2) (sine_pitch q), if Rlt_dec 0 (sine_pitch q) then - (2 * Ratan2 (qx q) (qw q)) else 2 * Ratan2 (qx q) (qw q))
  else (Ratan2 (mget (to_rotation_matrix q) 2 1) (mget (to_rotation_matrix q) 2 2), asin (sine_pitch q), Ratan2 (mget (to_rotation_matrix q) 1 0) (mget (to_rotation_matrix q) 0 0)).
Proof.
  unfold to_euler_zyx. rnum. fold (sine_pitch q). unfold small_angle. rnum. fold small. unfold Rleb, Rltb. destruct (Rle_dec _ _); [destruct (Rlt_dec _ _); reflexivity|].
  unfold to_rotation_matrix, mget. cbn [nth]. rnum. f_equal; [f_equal; f_equal; ring|]. f_equal; ring.
Qed.
Lemma polar_scaled k x y : 0 < k -> x * x + y * y = k * k -> k * cos (Ratan2 y x) = x /\ k * sin (Ratan2 y x) = y.
Proof.
  intros K H. destruct (polar_form x y) as [A B]. replace (hyp x y) with k in * by (unfold hyp; rewrite H; symmetry; apply sqrt_square; lra). lra.
Qed.
Lemma euler_matrix_away q : unit_quaternion q -> Rabs (sine_pitch q) < 1 - small -> let '(roll, pitch, yaw) := to_euler_zyx q in
  equal 3 3 (mget (to_rotation_matrix (from_euler_zyx roll pitch yaw))) (mget (to_rotation_matrix q)) /\ - (PI / 2) < pitch < PI / 2 /\ - PI < roll <= PI /\ - PI < yaw <= PI.
Proof.
  intros U H. pose proof small_bound as Sm. rewrite to_euler_R. destruct (Rle_dec _ _); [lra|].
  set (m := mget (to_rotation_matrix q)). set (s := sine_pitch q) in *. assert (P := proper_entries_of m (rotation_matrix_proper q U)).
  assert (G : m 2%nat 0%nat = - s) by apply sine_pitch_entry.
  assert (S1 : -1 < s < 1) by (revert H; unfold Rabs; destruct (Rcase_abs s); lra).
  assert (NS : - s * - s <> 1) by (clear - S1; nra).
  assert (As : sin (asin s) = s) by (apply sin_asin; lra). assert (Ac : cos (asin s) = sqrt (1 - s * s)) by (rewrite cos_asin by lra; unfold Rsqr; reflexivity).
  assert (K : 0 < sqrt (1 - s * s)) by (apply sqrt_lt_R0; nra). assert (K2 : sqrt (1 - s * s) * sqrt (1 - s * s) = 1 - s * s) by (apply sqrt_sqrt; nra).
  pose proof P as [].
  rewrite G in pe_r2, pe_c0.
  destruct (polar_scaled _ (m 2%nat 2%nat) (m 2%nat 1%nat) K ltac:(lra)) as [R1 R2]. destruct (polar_scaled _ (m 0%nat 0%nat) (m 1%nat 0%nat) K ltac:(lra)) as [Y1 Y2].
  set (roll := Ratan2 (m 2%nat 1%nat) (m 2%nat 2%nat)) in *. set (yaw := Ratan2 (m 1%nat 0%nat) (m 0%nat 0%nat)) in *.
  split; [|split; [|split; apply atan2_range]].
  - destruct (euler_entries roll (asin s) yaw) as (E0 & E1 & E2 & E3 & E4). set (m' := mget (to_rotation_matrix (from_euler_zyx roll (asin s) yaw))) in *. rewrite Ac in *. rewrite As in E2.
    assert (P' := proper_entries_of m' (rotation_matrix_proper _ (euler_unit roll (asin s) yaw))).
    assert (F0 : m' 0%nat 0%nat = m 0%nat 0%nat) by lra. assert (F1 : m' 1%nat 0%nat = m 1%nat 0%nat) by lra. assert (F2 : m' 2%nat 0%nat = m 2%nat 0%nat) by lra. assert (F3 : m' 2%nat 1%nat = m 2%nat 1%nat) by lra. assert (F4 : m' 2%nat 2%nat = m 2%nat 2%nat) by lra.
    rewrite F0, F1, F2, F3, F4 in P'. destruct (determined _ _ _ _ _ _ _ _ _ _ _ _ _ P' P) as (G1 & G2 & G3 & G4); [rewrite G; exact NS|].
    intros i j Hi Hj. three i; three j; assumption.
  - pose proof (asin_bound s) as B. destruct B as [B1 B2]. split.
    + destruct B1 as [B1|B1]; [exact B1|]. rewrite <- B1, sin_neg, sin_PI2 in As. lra.
    + destruct B2 as [B2|B2]; [exact B2|]. rewrite B2, sin_PI2 in As. lra.
Qed.
Lemma euler_round_trip roll pitch yaw : - PI < roll <= PI -> - (PI / 2) <= pitch <= PI / 2 -> - PI < yaw <= PI -> Rabs (sin pitch) < 1 - small ->
  to_euler_zyx (from_euler_zyx roll pitch yaw) = (roll, pitch, yaw).
Proof.
  intros R1 P1 Y1 H. pose proof small_bound. rewrite to_euler_R. destruct (euler_entries roll pitch yaw) as (E0 & E1 & E2 & E3 & E4).
  assert (S : sine_pitch (from_euler_zyx roll pitch yaw) = sin pitch) by (rewrite sine_pitch_entry in E2; lra). rewrite S.
  destruct (Rle_dec _ _); [lra|]. rewrite E0, E1, E3, E4. 
  assert (C : 0 < cos pitch). { assert (Sq : -1 < sin pitch < 1) by (revert H; unfold Rabs; destruct (Rcase_abs (sin pitch)); lra). pose proof (cos_ge_0 pitch ltac:(lra) ltac:(lra)) as [C|C]; [exact C|]. pose proof (sin2_cos2 pitch) as Q. unfold Rsqr in Q. rewrite <- C in Q. nra. }
  rewrite (Rmult_comm (sin yaw)), (Rmult_comm (cos yaw)). assert (N : forall t, cos t <> 0 \/ sin t <> 0). { intros t. destruct (Req_dec (cos t) 0); [right|left; assumption]. intros Z. pose proof (sin2_cos2 t) as Q. unfold Rsqr in Q. rewrite H1, Z in Q. lra. }
  rewrite !atan2_positive by auto. rewrite !atan2_angle by assumption. rewrite asin_sin by lra. reflexivity.
Qed.

(** ** At gimbal lock *)
Ltac four4 i := destruct i as [|[|[|[|i]]]]; [| | | |exfalso; lia].
Lemma Rabs_def2_le a b : Rabs a <= b -> - b <= a <= b.
Proof. unfold Rabs. destruct (Rcase_abs a); lra. Qed.
Lemma pole_near w x y z sg : (sg = 1 \/ sg = -1) -> w * w + x * x + y * y + z * z = 1 -> 1 - small <= sg * (2 * (w * y - z * x)) -> 
  forall u v, hyp w x * u = w -> hyp w x * v = x -> u * u + v * v = 1 ->
  let d := sqrt small in let k := sqrt 2 / 2 in Rabs (k * u - w) <= d /\ Rabs (k * v - x) <= d /\ Rabs (sg * (k * u) - y) <= 2 * d /\ Rabs (- sg * (k * v) - z) <= 2 * d.
Proof.
  intros SG U H u v E1 E2 UV. set (d := sqrt small). set (k := sqrt 2 / 2). cbv zeta. pose proof small_bound as Sm.
  assert (D2 : d * d = small) by (apply sqrt_sqrt; lra). assert (D0 : 0 < d) by (apply sqrt_lt_R0; lra).
  assert (K2 : k * k = / 2) by (unfold k; replace (sqrt 2 / 2 * (sqrt 2 / 2)) with (sqrt 2 * sqrt 2 / 4) by field; rewrite sqrt_sqrt by lra; field).
  assert (K0 : 0 < k) by (unfold k; pose proof (sqrt_lt_R0 2 ltac:(lra)); lra).
  pose proof (hyp_sqr w x) as R2. pose proof (hyp_pos w x) as R0. set (r := hyp w x) in *. clearbody r.
  assert (S2 : sg * sg = 1) by (destruct SG as [-> | ->]; ring).
  assert (Q : (y - sg * w) * (y - sg * w) + (z + sg * x) * (z + sg * x) <= small). { replace ((y - sg * w) * (y - sg * w) + (z + sg * x) * (z + sg * x)) with ((w * w + x * x) * (sg * sg) + (y * y + z * z) - sg * (2 * (w * y - z * x))) by ring. rewrite S2. lra. }
  assert (SQ : forall a b, 0 <= b -> a * a <= b * b -> Rabs a <= b). { intros a b B A. apply Rabs_le. split; nra. }
  set (e1 := y - sg * w) in *. set (e2 := z + sg * x) in *.
  assert (E1b : Rabs e1 <= d) by (apply SQ; [lra|rewrite D2; nra]). assert (E2b : Rabs e2 <= d) by (apply SQ; [lra|rewrite D2; nra]).
  assert (CS : Rabs (w * e1 - x * e2) <= r * d).
  { apply SQ; [nra|]. replace (r * d * (r * d)) with ((r * r) * (d * d)) by ring. rewrite R2, D2. assert (0 <= (w * e2 + x * e1) * (w * e2 + x * e1)) by apply Rle_0_sqr.
    assert ((w * w + x * x) * (e1 * e1 + e2 * e2) <= (w * w + x * x) * small) by (apply Rmult_le_compat_l; [nra|exact Q]). nra. }
  assert (DK : d <= k). { destruct (Rle_dec d k); [assumption|exfalso]. assert (S47 : / IZR (2^47) <= / 1000) by (apply Rinv_le_contravar; [lra|apply IZR_le; lia]). nra. }
  assert (RK : Rabs (r * r - k * k) <= d * (r + k)).
  { assert (X : 2 * (r * r - k * k) = - (2 * sg * (w * e1 - x * e2)) - (e1 * e1 + e2 * e2)).
    { rewrite R2, K2. assert (Y : y = sg * w + e1) by (unfold e1; ring). assert (Z : z = - (sg * x) + e2) by (unfold e2; ring).
      assert (YZ : y * y + z * z = (w * w + x * x) * (sg * sg) + 2 * sg * (w * e1 - x * e2) + (e1 * e1 + e2 * e2)) by (rewrite Y, Z; ring). rewrite S2 in YZ. lra. }
    assert (B : Rabs (2 * sg * (w * e1 - x * e2)) <= 2 * (r * d)). { rewrite !Rabs_mult. replace (Rabs sg) with 1 by (destruct SG as [-> | ->]; [rewrite Rabs_R1|rewrite Rabs_left by lra]; ring). rewrite (Rabs_pos_eq 2) by lra. lra. }
    assert (0 <= e1 * e1 + e2 * e2) by nra. rewrite <- D2 in Q. apply Rabs_le. apply Rabs_def2_le in B. nra. }
  assert (RK1 : Rabs (k - r) <= d).
  { rewrite Rabs_minus_sym. apply (Rmult_le_reg_r (r + k)); [lra|]. rewrite <- (Rabs_pos_eq (r + k)) at 1 by lra. rewrite <- Rabs_mult. replace ((r - k) * (r + k)) with (r * r - k * k) by ring. exact RK. }
  assert (U1 : Rabs u <= 1) by (apply SQ; nra). assert (V1 : Rabs v <= 1) by (apply SQ; nra).
  assert (W : Rabs (k * u - w) <= d). { replace (k * u - w) with ((k - r) * u) by (transitivity (k * u - r * u); [ring|rewrite E1; reflexivity]). rewrite Rabs_mult. pose proof (Rabs_pos u). pose proof (Rabs_pos (k - r)). nra. }
  assert (X : Rabs (k * v - x) <= d). { replace (k * v - x) with ((k - r) * v) by (transitivity (k * v - r * v); [ring|rewrite E2; reflexivity]). rewrite Rabs_mult. pose proof (Rabs_pos v). pose proof (Rabs_pos (k - r)). nra. }
  split; [exact W|]. split; [exact X|]. assert (AS : Rabs sg = 1) by (destruct SG as [-> | ->]; [apply Rabs_R1|rewrite Rabs_left by lra; ring]).
  split.
  - replace (sg * (k * u) - y) with (sg * (k * u - w) + - e1) by (unfold e1; ring). eapply Rle_trans; [apply Rabs_triang|]. rewrite Rabs_mult, Rabs_Ropp, AS. lra.
  - replace (- sg * (k * v) - z) with ((- sg) * (k * v - x) + - e2) by (unfold e2; ring). eapply Rle_trans; [apply Rabs_triang|]. rewrite Rabs_mult, !Rabs_Ropp, AS. lra.
Qed.
Lemma from_euler_pole sg a : (sg = 1 \/ sg = -1) -> from_euler_zyx 0 (sg * (PI / 2)) (- sg * (2 * a)) = Quat (sqrt 2 / 2 * cos a) (sqrt 2 / 2 * sin a) (sg * (sqrt 2 / 2 * cos a)) (- sg * (sqrt 2 / 2 * sin a)).
Proof.
  intros SG. unfold from_euler_zyx. rnum. rewrite Rmult_0_l, cos_0, sin_0.
  assert (Q2 : 0 < sqrt 2) by (apply sqrt_lt_R0; lra). assert (K : 1 / sqrt 2 = sqrt 2 / 2) by (apply (Rmult_eq_reg_r (2 * sqrt 2)); [|lra]; transitivity 2; [field; lra|]; replace (sqrt 2 / 2 * (2 * sqrt 2)) with (sqrt 2 * sqrt 2) by field; rewrite sqrt_sqrt; lra).
  destruct SG as [-> | ->].
  - replace (1 * (PI / 2) * / 2) with (PI / 4) by field. replace (- (1) * (2 * a) * / 2) with (- a) by field. rewrite cos_PI4, sin_PI4, cos_neg, sin_neg, K. apply quat_eq; cbn [qw qx qy qz]; ring.
  - replace (-1 * (PI / 2) * / 2) with (- (PI / 4)) by field. replace (- (-1) * (2 * a) * / 2) with a by field. rewrite cos_neg, sin_neg, cos_PI4, sin_PI4, K. apply quat_eq; cbn [qw qx qy qz]; ring.
Qed.
Lemma euler_pole q : unit_quaternion q -> 1 - small <= Rabs (sine_pitch q) -> let '(roll, pitch, yaw) := to_euler_zyx q in
  roll = 0 /\ (pitch = PI / 2 \/ pitch = - (PI / 2)) /\
  (forall k, (k < 4)%nat -> Rabs (component (from_euler_zyx roll pitch yaw) k - component q k) <= 2 * sqrt small) /\
  (Rabs (sine_pitch q) = 1 -> from_euler_zyx roll pitch yaw = q).
Proof.
  intros U H. pose proof small_bound as Sm. pose proof PI_RGT_0. rewrite to_euler_R. destruct (Rle_dec _ _); [|lra]. split; [reflexivity|].
  assert (exists sg, (sg = 1 \/ sg = -1) /\ Rabs (sine_pitch q) = sg * sine_pitch q /\ Rcopysign (PI / 2) (sine_pitch q) = sg * (PI / 2) /\ (if Rlt_dec 0 (sine_pitch q) then - (2 * Ratan2 (qx q) (qw q)) else 2 * Ratan2 (qx q) (qw q)) = - sg * (2 * Ratan2 (qx q) (qw q))) as (sg & SG & A & P & Y).
  { assert (Z : Rabs (sine_pitch q) <> 0). { assert (S47 : / IZR (2^47) <= / 1000) by (apply Rinv_le_contravar; [lra|apply IZR_le; lia]). lra. }
    unfold Rcopysign. destruct (Rlt_dec (sine_pitch q) 0) as [L|L].
    - exists (-1). split; [auto|]. rewrite (Rabs_left (sine_pitch q)) by lra. rewrite Rabs_pos_eq by lra. destruct (Rlt_dec _ _); [lra|]. repeat split; ring.
    - exists 1. split; [auto|]. rewrite (Rabs_pos_eq (sine_pitch q)) in * by lra. rewrite Rabs_pos_eq by lra. destruct (Rlt_dec _ _); [|lra]. repeat split; ring. }
  rewrite P, Y. split; [destruct SG as [-> | ->]; [left|right]; ring|]. rewrite from_euler_pole by exact SG. rewrite A in *. destruct (polar_form (qw q) (qx q)) as [F1 F2].
  set (al := Ratan2 (qx q) (qw q)) in *. pose proof (sin2_cos2 al) as Q. unfold Rsqr in Q.
  destruct (pole_near (qw q) (qx q) (qy q) (qz q) sg SG U H (cos al) (sin al) ltac:(auto) ltac:(auto) ltac:(lra)) as (N1 & N2 & N3 & N4). split.
  - assert (0 <= sqrt small) by apply sqrt_pos. intros k Hk. unfold component. four4 k; cbn [nth qw qx qy qz]; lra.
  - intros One. try rewrite A in One. destruct q as [w x y z]. unfold sine_pitch, unit_quaternion in *. cbn [qw qx qy qz] in *.
    assert (S2 : sg * sg = 1) by (destruct SG as [-> | ->]; ring).
    assert (Z : (y - sg * w) * (y - sg * w) + (z + sg * x) * (z + sg * x) = 0). { replace ((y - sg * w) * (y - sg * w) + (z + sg * x) * (z + sg * x)) with ((w * w + x * x) * (sg * sg) + (y * y + z * z) - sg * (2 * (w * y - z * x))) by ring. rewrite S2. lra. }
    destruct (squares_zero (y - sg * w) (z + sg * x) 0 ltac:(lra)) as (Y1 & Z1 & _). assert (Y0 : y = sg * w) by lra. assert (Z0 : z = - sg * x) by lra.
    assert (R : hyp w x = sqrt 2 / 2). { pose proof (hyp_sqr w x) as R2. pose proof (hyp_pos w x). pose proof (sqrt_sqrt 2 ltac:(lra)) as S. pose proof (sqrt_pos 2). apply Rsqr_inj; [assumption|lra|]. unfold Rsqr. rewrite R2. replace (sqrt 2 / 2 * (sqrt 2 / 2)) with (sqrt 2 * sqrt 2 / 4) by field. rewrite S. rewrite Y0, Z0 in U. replace (w * w + x * x + sg * w * (sg * w) + - sg * x * (- sg * x)) with ((w * w + x * x) * (1 + sg * sg)) in U by ring. rewrite S2 in U. lra. }
    rewrite R in F1, F2. rewrite <- F1, <- F2. rewrite Y0, Z0. reflexivity.
Qed.
