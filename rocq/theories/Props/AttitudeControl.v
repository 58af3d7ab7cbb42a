(** C136: the attitude controller. *)
From Coq Require Import ZArith List Bool Arith Reals Lra Lia.
From Coquelicot Require Import Coquelicot.
From Verif Require Import Base.Scalar Base.RNum Base.Lists Base.Series Model.Errors Model.Vector Model.Matrix Model.Lu Model.Cholesky Model.Quaternion Model.Lie Model.AttitudeControl Spec.Matrix Spec.Rotation Spec.Quaternion
  Proofs.Matrix Proofs.Quaternion Proofs.Rotation Proofs.Space Proofs.SpaceJacobian Proofs.Pairs Proofs.Inertia Props.Cholesky Props.Eigen Proofs.AttitudeControl Spec.AttitudeControl.
Import ListNotations.
Local Open Scope R_scope.
Local Notation cos := Rtrigo_def.cos.
Local Notation sin := Rtrigo_def.sin.
Local Notation exp := Rtrigo_def.exp.

(** ** C136 *)
(** A controller is built exactly from positive gains and a positive definite inertia; a bad gain is reported before a bad inertia. *)
Theorem C136_new (attitude rate : R) (inertia : mat R) : shape 3 3 inertia -> symmetric 3 (mget inertia) ->
  (forall c, attitude_controller_new attitude rate inertia = Ok c <-> 0 < attitude /\ 0 < rate /\ positive_definite 3 (mget inertia) /\ c = AttitudeController attitude rate inertia) /\
  (attitude_controller_new attitude rate inertia = Err AcNonPositiveGain <-> attitude <= 0 \/ rate <= 0) /\
  (attitude_controller_new attitude rate inertia = Err AcNonPositiveInertia <-> 0 < attitude /\ 0 < rate /\ ~ positive_definite 3 (mget inertia)).
Proof.
  intros H Sy. unfold attitude_controller_new. rewrite (exactly_symmetric 3 inertia Sy). pose proof (C79_accepts 3 inertia H Sy) as [A B]. change (@is_finite R _ attitude) with true. change (@is_finite R _ rate) with true. rewrite finite_real. cbn [negb orb].
  destruct (Rleb attitude 0) eqn:Ea; [apply Rleb_true in Ea|apply Rleb_false in Ea]; cbn [orb]; rnum; rewrite ?(proj2 (Rleb_true attitude 0) Ea), ?(proj2 (Rleb_false attitude 0) Ea); cbn [orb].
  1: { split; [|split]; [intros c; split; [discriminate|lra]|split; auto|split; [discriminate|lra]]. }
  destruct (Rleb rate 0) eqn:Er; [apply Rleb_true in Er|apply Rleb_false in Er].
  1: { split; [|split]; [intros c; split; [discriminate|lra]|split; auto|split; [discriminate|lra]]. }
  destruct (cholesky 3 inertia) as [l|e|] eqn:E.
  - assert (P : positive_definite 3 (mget inertia)) by (apply A; eauto). split; [|split].
    + intros c. split; [intros Q; injection Q as <-; auto|intros (_ & _ & _ & ->); reflexivity].
    + split; [discriminate|lra].
    + split; [discriminate|]. intros (_ & _ & N). contradiction.
  - assert (P : ~ positive_definite 3 (mget inertia)) by (intros P; apply A in P; destruct P; discriminate). split; [|split].
    + intros c. split; [discriminate|]. intros (_ & _ & N & _). contradiction.
    + split; [discriminate|lra].
    + split; auto.
  - exfalso. destruct (Classical_Prop.classic (positive_definite 3 (mget inertia))) as [P|P]; [apply A in P; destruct P; discriminate|apply B in P; discriminate].
Qed.
(** Over any scalar, anything not finite is reported first. *)
Theorem C136_non_finite {T} {NT : Num T} (attitude rate : T) inertia :
  attitude_controller_new attitude rate inertia = Err AcNonFinite <-> is_finite attitude = false \/ is_finite rate = false \/ mat_is_finite inertia = false.
Proof.
  unfold attitude_controller_new. destruct (is_finite attitude), (is_finite rate), (mat_is_finite inertia); cbn [negb orb]; try (split; auto; fail).
  split; [|intros [?|[?|?]]; discriminate]. repeat match goal with |- context [if ?b then _ else _] => destruct b end; try discriminate. destruct (cholesky 3 inertia); discriminate.
Qed.

(** The error is the sine of the angle the body is turned past the target, along the axis of the turn in the body's own frame. *)
Lemma turned_back n angle p : inner n n = 1 -> turned n angle (turned n (- angle) p) = p.
Proof.
  intros U. rewrite <- (turn_quaternion n angle), <- (turn_quaternion n (- angle)) by exact U. rewrite <- transform_mul. replace (- angle / 2) with (- (angle / 2)) by field. rewrite cos_neg, sin_neg.
  replace (quat_mul _ _) with (quat_identity (T := R)); [destruct p as [[a b] c]; unfold quat_identity; rnum; rewrite transform_explicit; apply point_eq; ring|].
  pose proof (sin2_cos2 (angle / 2)) as S. unfold Rsqr in S. destruct n as [[x y] z]. unfold inner in U. unfold from_scalar_vector, multiple, quat_identity, quat_mul. cbn. rnum.
  set (s := sin (angle / 2)) in *. set (k := cos (angle / 2)) in *. f_equal; try ring. transitivity (s * s * (x * x + y * y + z * z) + k * k); [rewrite U; lra|ring].
Qed.
Theorem C136_error q d n angle : unit_quaternion q -> unit_quaternion d -> inner n n = 1 -> (forall v, transform_point q v = transform_point d (turned n angle v)) ->
  attitude_error q d = multiple (sin angle) n /\ misalignment q d = 1 - cos angle.
Proof.
  intros A B N H. assert (S : forall v, seen_rate q d v = turned n (- angle) v).
  { intros v. unfold seen_rate. rewrite <- (turned_back n angle v N) at 1. rewrite <- H. apply transform_undo, A. }
  destruct (seen_sum q d A B) as [M E]. rewrite M, E, !S. rewrite !turned_explicit by exact N. rewrite cos_neg, sin_neg. destruct n as [[x y] z]. unfold inner, outer, together, multiple in *. split; [apply point_eq; field|].
  transitivity ((3 - (3 * cos angle + (1 - cos angle) * (x * x + y * y + z * z))) / 2); [field|rewrite N; field].
Qed.
(** So it is zero exactly when the body stands as the target does, or is half a turn away. *)
Lemma aligned_gap q d : unit_quaternion q -> unit_quaternion d -> misalignment q d = 0 <-> forall v, transform_point q v = transform_point d v.
Proof.
  intros A B. split.
  - intros M. unfold misalignment in M. set (g := fun e => together (transform_point q e) (multiple (-1) (transform_point d e))) in M.
    change ((inner (g (1, 0, 0)) (g (1, 0, 0)) + inner (g (0, 1, 0)) (g (0, 1, 0)) + inner (g (0, 0, 1)) (g (0, 0, 1))) / 4 = 0) in M.
    pose proof (inner_nonneg (g (1, 0, 0))). pose proof (inner_nonneg (g (0, 1, 0))). pose proof (inner_nonneg (g (0, 0, 1))).
    assert (Z : forall e, inner (g e) (g e) = 0 -> transform_point q e = transform_point d e).
    { intros e. unfold g. destruct (transform_point q e) as [[a b] c], (transform_point d e) as [[x y] z]. unfold inner, together, multiple. intros K.
      pose proof (Rle_0_sqr (a + -1 * x)). pose proof (Rle_0_sqr (b + -1 * y)). pose proof (Rle_0_sqr (c + -1 * z)). unfold Rsqr in *.
      assert (Ka : (a + -1 * x) * (a + -1 * x) = 0) by lra. assert (Kb : (b + -1 * y) * (b + -1 * y) = 0) by lra. assert (Kc : (c + -1 * z) * (c + -1 * z) = 0) by lra.
      apply Rsqr_0_uniq in Ka. apply Rsqr_0_uniq in Kb. apply Rsqr_0_uniq in Kc. apply point_eq; lra. }
    pose proof (Z (1, 0, 0) ltac:(lra)) as Z1. pose proof (Z (0, 1, 0) ltac:(lra)) as Z2. pose proof (Z (0, 0, 1) ltac:(lra)) as Z3.
    assert (L : forall p x y z, transform_point (T := R) p (x, y, z) = together (together (multiple x (transform_point p (1, 0, 0))) (multiple y (transform_point p (0, 1, 0)))) (multiple z (transform_point p (0, 0, 1)))).
    { intros [k1 k2 k3 k4] x y z. rewrite !transform_explicit. unfold together, multiple. apply point_eq; ring. }
    intros [[x y] z]. rewrite (L q), (L d), Z1, Z2, Z3. reflexivity.
  - intros H. unfold misalignment. rewrite !H. generalize (transform_point d (1, 0, 0)) (transform_point d (0, 1, 0)) (transform_point d (0, 0, 1)). intros [[? ?] ?] [[? ?] ?] [[? ?] ?]. unfold inner, together, multiple. field.
Qed.
Theorem C136_error_zero q d : unit_quaternion q -> unit_quaternion d ->
  attitude_error q d = (0, 0, 0) <-> (forall v, transform_point q v = transform_point d v) \/ exists n, inner n n = 1 /\ forall v, transform_point q v = transform_point d (turned n PI v).
Proof.
  intros A B. split.
  - intros E. pose proof (error_length q d A B) as L. rewrite E in L. replace (inner (0, 0, 0) (0, 0, 0)) with 0 in L by (unfold inner; ring). symmetry in L. apply Rmult_integral in L. destruct L as [L|L]; [left; apply aligned_gap; auto|right].
    destruct (misalignment_R q d A B) as [M1 M2]. set (r := between q d) in *. assert (W : qw r = 0) by (apply Rsqr_0_uniq; unfold Rsqr; lra). assert (N : inner (quat_vec r) (quat_vec r) = 1) by lra.
    exists (quat_vec r). split; [exact N|]. intros v.
    assert (S : forall u, seen_rate q d u = turned (quat_vec r) PI u).
    { intros u. rewrite seen_between. fold r. rewrite <- turn_quaternion by exact N. f_equal. rewrite cos_PI2, sin_PI2. destruct r as [k1 k2 k3 k4]. unfold from_scalar_vector, quat_vec, multiple in *. cbn in *. rewrite W. f_equal; ring. }
    assert (T : turned (quat_vec r) PI (turned (quat_vec r) PI v) = v).
    { transitivity (turned (quat_vec r) PI (turned (quat_vec r) (- PI) v)); [|apply turned_back, N]. f_equal. rewrite !turned_explicit by exact N. rewrite cos_neg, sin_neg, sin_PI. replace (- 0) with 0 by ring. reflexivity. }
    assert (D : forall u, transform_point d u = transform_point q (seen_rate q d u)).
    { intros u. unfold seen_rate, inverse_transform_point. rewrite <- transform_mul, mul_conjugate, (proj1 (unit_is q) A). rewrite <- transform_mul. change (Quat 1 0 0 0) with (quat_identity (T := R)). rewrite mul_identity_l. reflexivity. }
    rewrite D, S, T. reflexivity.
  - intros [H|(n & N & H)].
    + pose proof (error_length q d A B) as L. rewrite (proj2 (aligned_gap q d A B) H), Rmult_0_l in L. destruct (attitude_error q d) as [[a b] c]. unfold inner in L.
      pose proof (Rle_0_sqr a). pose proof (Rle_0_sqr b). pose proof (Rle_0_sqr c). unfold Rsqr in *. assert (Ka : a * a = 0) by lra. assert (Kb : b * b = 0) by lra. assert (Kc : c * c = 0) by lra. apply Rsqr_0_uniq in Ka. apply Rsqr_0_uniq in Kb. apply Rsqr_0_uniq in Kc. subst. reflexivity.
    + rewrite (proj1 (C136_error q d n PI A B N H)), sin_PI. destruct n as [[x y] z]. unfold multiple. apply point_eq; ring.
Qed.

(** A body under the controller's torque: the two gains act as a spring on the attitude error and as a damper on the excess rate,
    whatever the target is doing. *)
Theorem C136_dynamics (c : attitude_controller R) q d w wd dwd : let j := mget (control_inertia c) in
  tracking j (fun t => control_torque c (q t) (w t) (d t) (wd t) (dwd t)) q d w wd dwd -> forall t, 0 <= t ->
  exists de, changes (fun s => excess_rate (q s) (d s) (w s) (wd s)) t de /\
  applied j de = together (multiple (- attitude_gain c) (attitude_error (q t) (d t))) (multiple (- rate_gain c) (excess_rate (q t) (d t) (w t) (wd t))).
Proof. cbv zeta. intros M t T. exact (excess_moves c q d w wd dwd M t T). Qed.
(** The damper is all that changes the energy, so the energy only falls, and a body that starts with less energy than half a turn
    costs never gets to half a turn. *)
Theorem C136_energy (c : attitude_controller R) q d w wd dwd : let j := mget (control_inertia c) in
  symmetric 3 j -> positive_definite 3 j -> 0 < attitude_gain c -> 0 < rate_gain c ->
  tracking j (fun t => control_torque c (q t) (w t) (d t) (wd t) (dwd t)) q d w wd dwd ->
  let stored t := energy j (attitude_gain c) (q t) (d t) (w t) (wd t) in let e t := excess_rate (q t) (d t) (w t) (wd t) in
  (forall t, 0 <= t -> is_derive stored t (- rate_gain c * inner (e t) (e t))) /\
  (forall s t, 0 <= s <= t -> stored t <= stored s) /\
  (stored 0 < 2 * attitude_gain c -> forall t, 0 <= t -> misalignment (q t) (d t) <= stored 0 / attitude_gain c /\ misalignment (q t) (d t) < 2).
Proof.
  cbv zeta. intros Sy P A G M. set (V := fun t => energy _ _ (q t) (d t) (w t) (wd t)). split; [|split].
  - intros t T. exact (energy_derive c q d w wd dwd Sy M t T).
  - intros s t [S0 ST]. pose proof (falls (fun x => V (s + x)) (fun x => - rate_gain c * inner (excess_rate (q (s + x)) (d (s + x)) (w (s + x)) (wd (s + x))) (excess_rate (q (s + x)) (d (s + x)) (w (s + x)) (wd (s + x)))) (t - s) ltac:(lra)) as F. cbv beta in F.
    replace (s + (t - s)) with t in F by ring. rewrite Rplus_0_r in F. apply F. intros x X. split.
    + evar_last; [apply (is_derive_comp V (fun x => s + x)); [exact (energy_derive c q d w wd dwd Sy M (s + x) ltac:(lra))|auto_derive; auto]|]. unfold scal; cbn; unfold mult; cbn. match goal with |- ?a = ?b => change (@eq R a b) end. ring.
    + match goal with |- _ * inner ?a ?a <= 0 => pose proof (inner_nonneg a) end. nra.
  - intros Z t T. pose proof (basin c q d w wd dwd Sy P G M t T) as B. fold (V 0) in *. assert (misalignment (q t) (d t) <= V 0 / attitude_gain c) by (apply (Rmult_le_reg_l (attitude_gain c)); [lra|]; replace (attitude_gain c * (V 0 / attitude_gain c)) with (V 0) by (field; lra); exact B).
    split; [assumption|]. apply Rle_lt_trans with (V 0 / attitude_gain c); [assumption|]. apply (Rmult_lt_reg_l (attitude_gain c)); [lra|]. replace (attitude_gain c * (V 0 / attitude_gain c)) with (V 0) by (field; lra). lra.
Qed.
(** From everywhere below that level the error dies away exponentially, at one rate for all such starts and all targets. *)
Theorem C136_converges (attitude rate : R) (inertia : mat R) c level : shape 3 3 inertia -> symmetric 3 (mget inertia) ->
  attitude_controller_new attitude rate inertia = Ok c -> level < 2 * attitude ->
  exists b, 0 < b /\ forall q d w wd dwd,
  tracking (mget inertia) (fun t => control_torque c (q t) (w t) (d t) (wd t) (dwd t)) q d w wd dwd ->
  let start := energy (mget inertia) attitude (q 0) (d 0) (w 0) (wd 0) in let e t := excess_rate (q t) (d t) (w t) (wd t) in
  start <= level -> forall t, 0 <= t ->
  inner (e t) (applied (mget inertia) (e t)) / 2 + attitude * misalignment (q t) (d t) <= 3 * start * exp (- b * t) /\
  misalignment (q t) (d t) <= 3 * start / attitude * exp (- b * t).
Proof.
  intros H Sy Ec L. apply (C136_new attitude rate inertia H Sy) in Ec. destruct Ec as (A & G & P & ->). set (c := AttitudeController attitude rate inertia).
  destruct (rates_exist c level A G L) as (k & b & K0 & K1 & K2 & K3 & B0 & B1 & B2). exists b. split; [exact B0|]. intros q d w wd dwd M. cbv zeta. intros Z t T.
  pose proof (decays c q d w wd dwd Sy P A G M level k b Z K0 K1 K2 K3 B0 B1 B2 t T) as D. unfold energy at 1 in D. cbv zeta in D. cbn [attitude_gain control_inertia c] in D. split; [exact D|].
  assert (N : 0 <= inner (excess_rate (q t) (d t) (w t) (wd t)) (applied (mget inertia) (excess_rate (q t) (d t) (w t) (wd t)))) by (apply definite_nonneg, P).
  apply (Rmult_le_reg_l attitude); [exact A|]. match goal with |- _ <= attitude * (?x / attitude * ?y) => replace (attitude * (x / attitude * y)) with (x * y) by (field; lra) end. lra.
Qed.

(** A body of inertia [diag 1 2 3] standing still a quarter turn from its target is inside that region; and a body spinning up
    with its target is tracked. *)
Definition example_inertia : mat R := [[1; 0; 0]; [0; 2; 0]; [0; 0; 3]].
Definition example_turn (t : R) : quaternion R := Quat (cos (t * t)) 0 0 (sin (t * t)).
Lemma example_definite : symmetric 3 (mget example_inertia) /\ positive_definite 3 (mget example_inertia).
Proof.
  split; [intros i j Hi Hj; three i; three j; reflexivity|]. intros x (i & Hi & N). unfold dot_product, times, bsum, example_inertia, mget; cbn [nth]. cbn [nth].
  pose proof (Rle_0_sqr (x 0%nat)). pose proof (Rle_0_sqr (x 1%nat)). pose proof (Rle_0_sqr (x 2%nat)). unfold Rsqr in *. assert (0 < x i * x i) by (apply Rsqr_pos_lt, N). revert H2. three i; intros; lra.
Qed.
Example C136_example : exists c, attitude_controller_new 1 1 example_inertia = Ok c /\
  tracking (mget example_inertia) (fun t => control_torque c (example_turn t) (0, 0, 4 * t) (example_turn t) (0, 0, 4 * t) (0, 0, 4)) example_turn example_turn (fun t => (0, 0, 4 * t)) (fun t => (0, 0, 4 * t)) (fun _ => (0, 0, 4)) /\
  (let q := Quat (cos (PI / 4)) 0 0 (sin (PI / 4)) in unit_quaternion q /\ attitude_error q (quat_identity (T := R)) = (0, 0, 1) /\ energy (mget example_inertia) 1 q quat_identity (0, 0, 0) (0, 0, 0) < 2 * 1).
Proof.
  destruct example_definite as [Sy P]. assert (Sh : shape 3 3 example_inertia) by (split; [reflexivity|intros i Hi; three i; reflexivity]).
  exists (AttitudeController 1 1 example_inertia). split; [apply C136_new; auto; repeat split; auto; lra|]. split.
  - assert (U : forall t, unit_quaternion (example_turn t)). { intros t. unfold unit_quaternion, example_turn. cbn [qw qx qy qz]. pose proof (sin2_cos2 (t * t)) as S. unfold Rsqr in S. lra. }
    assert (Tn : forall t, turning example_turn t (0, 0, 4 * t)).
    { intros t i j Hi Hj. assert (S : sin (t * t) * sin (t * t) = 1 - cos (t * t) * cos (t * t)) by (pose proof (sin2_cos2 (t * t)) as S; unfold Rsqr in S; lra).
      three i; three j; unfold product, bsum, cross_matrix, example_turn, to_rotation_matrix, mget; cbn [nth qw qx qy qz]; rnum; auto_derive; auto; cbn; rnum;
      match goal with |- ?a = ?b => change (@eq R a b) end; set (s := sin (t * t)) in *; set (k := cos (t * t)) in *; ring [S]. }
    split; [auto|]. intros t T. split; [apply Tn|split; [apply Tn|split]].
    + intros i Hi. three i; cbn; auto_derive; auto; ring.
    + exists (0, 0, 4). split; [intros i Hi; three i; cbn; auto_derive; auto; ring|].
      rewrite torque_R by auto. cbv zeta. cbn [attitude_gain rate_gain control_inertia].
      assert (Se : forall v, seen_rate (example_turn t) (example_turn t) v = v) by (intros v; apply transform_undo, U). unfold excess_rate. rewrite !Se.
      assert (E0 : attitude_error (example_turn t) (example_turn t) = (0, 0, 0)) by (apply C136_error_zero; auto). rewrite E0. unfold euler_torque, applied, times, bsum, example_inertia, mget, together, multiple, outer, coordinate. cbn [nth]. apply point_eq; ring.
  - cbv zeta. set (q := Quat (cos (PI / 4)) 0 0 (sin (PI / 4))). assert (U : unit_quaternion q) by (unfold unit_quaternion, q; cbn [qw qx qy qz]; pose proof (sin2_cos2 (PI / 4)) as S; unfold Rsqr in S; lra).
    assert (I : unit_quaternion (quat_identity (T := R))) by (unfold unit_quaternion; cbn; rnum; ring).
    destruct (C136_error q quat_identity (0, 0, 1) (PI / 2) U I) as [E M]; [unfold inner; ring| |].
    { intros v. rewrite <- turn_quaternion by (unfold inner; ring). replace (PI / 2 / 2) with (PI / 4) by field. rewrite <- transform_mul, mul_identity_l. f_equal. unfold q, from_scalar_vector, multiple. cbn. rnum. f_equal; ring. }
    split; [exact U|]. rewrite E. unfold energy. rewrite M, sin_PI2, cos_PI2. split; [unfold multiple; apply point_eq; ring|].
    unfold excess_rate. rewrite seen_zero. unfold applied, times, bsum, together, multiple, inner, coordinate. cbn [nth]. lra.
Qed.
Print Assumptions C136_new.
Print Assumptions C136_non_finite.
Print Assumptions C136_error.
Print Assumptions C136_error_zero.
Print Assumptions C136_dynamics.
Print Assumptions C136_energy.
Print Assumptions C136_converges.
