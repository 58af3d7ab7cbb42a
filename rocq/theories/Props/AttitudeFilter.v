(** C137: the Mahony and Madgwick attitude filters. *)
From Coq Require Import ZArith List Bool Arith Reals Lra Lia.
From Coquelicot Require Import Rcomplements.
From Verif Require Import Base.Scalar Base.RNum Base.Lists Base.Series Model.Errors Model.Vector Model.Matrix Model.Quaternion Model.Lie Model.Ode Model.Kalman Model.AttitudeFilter Spec.Matrix Spec.MatrixExp Spec.Rotation Spec.Quaternion
  Proofs.Matrix Proofs.Algebra Proofs.Quaternion Proofs.Rotation Proofs.Pairs Proofs.Slerp Proofs.SpaceJacobian Proofs.Space Proofs.Screw Proofs.AttitudeFilter Props.AttitudeStep Spec.AttitudeFilter.
Import ListNotations.
Local Open Scope R_scope.
Local Notation cos := Rtrigo_def.cos.
Local Notation sin := Rtrigo_def.sin.
Local Notation sqrt := R_sqrt.sqrt.
Local Notation length := Spec.Rotation.length.

(** ** C137 *)
(** A step takes hold or leaves the filter alone, and only finite readings take hold; over any scalar. *)
Theorem C137_refused {T} {NT : Num T} (f : attitude_filter T) gyroscope accelerometer magnetometer timestep :
  let readings := (is_finite3 gyroscope && is_finite3 accelerometer && match magnetometer with Some m => is_finite3 m | None => true end && is_finite timestep)%bool in
  let holds step := match step f gyroscope accelerometer magnetometer timestep with
    | (g, Ok _) => readings = true /\ is_finite3 (af_bias g) = true /\ orientation_is_finite (af_orientation g) = true
    | (g, Err e) => g = f /\ e = EsNonFinite
    | (_, Panic) => False
    end in
  holds mahony_step /\ holds madgwick_step.
Proof.
  cbv zeta. unfold mahony_step, madgwick_step, readings_are_finite, filter_move.
  destruct (is_finite3 gyroscope), (is_finite3 accelerometer), (is_finite timestep), (match magnetometer with Some m => is_finite3 m | None => true end); cbn [andb negb]; try (split; auto; fail).
  split; match goal with |- context [(negb ?a || negb ?b)%bool] => destruct a eqn:A, b eqn:B end; cbn [negb orb]; auto.
Qed.

(** ** Histories *)
Inductive call := Step (gyroscope accelerometer : point) (magnetometer : option point) (timestep : R)
  | SetOrientation (q : quaternion R) | SetBias (b : point) | PullGain (k : R) | OffsetGain (k : R) | References (up north : point).
Definition after (step : attitude_filter R -> point -> point -> option point -> R -> attitude_filter R * Res unit EstimationError) (f : attitude_filter R) (c : call) : attitude_filter R :=
  match c with
  | Step g a m h => fst (step f g a m h)
  | SetOrientation q => set_orientation f q
  | SetBias b => set_bias f b
  | PullGain k => with_pull_gain f k
  | OffsetGain k => with_offset_gain f k
  | References u n => with_reference_directions f u n
  end.
Lemma move_unit f g c h : unit_quaternion (af_orientation f) -> unit_quaternion (af_orientation (fst (filter_move f g c h))) /\ af_upward (fst (filter_move f g c h)) = af_upward f /\ af_north (fst (filter_move f g c h)) = af_north f.
Proof. intros U. unfold filter_move. match goal with |- context [if ?b then _ else _] => destruct b end; cbn [fst af_orientation af_upward af_north]; auto. split; [apply stepped_unit, U|auto]. Qed.
Lemma references_frame (f : attitude_filter R) up north :
  with_reference_directions f up north = f \/ (let g := with_reference_directions f up north in frame (af_upward g) (af_north g) /\ af_orientation g = af_orientation f).
Proof.
  unfold with_reference_directions. destruct (zero_or up) as [->|N]; [rewrite try_direction_zero; auto|]. rewrite try_direction by exact N.
  rewrite sub3_R, dot3_R, scale3_R. set (l := together north (multiple (-1) (multiple (inner north (direction up)) (direction up)))).
  destruct (zero_or l) as [->|L]; [rewrite try_direction_zero; auto|]. rewrite try_direction by exact L. right. cbn [af_upward af_north af_orientation]. split; [|reflexivity].
  assert (D := direction_unit _ N). assert (DL := direction_unit _ L). split; [exact D|split; [exact DL|]]. unfold direction at 2. rewrite inner_multiple_r. replace (inner (direction up) l) with 0; [ring|].
  unfold l. set (n := direction up) in *. clearbody n. destruct n as [[x y] z], north as [[p q] r]. unfold inner, together, multiple in *. transitivity ((p * x + q * y + r * z) * (1 - (x * x + y * y + z * z))); [rewrite D; ring|ring].
Qed.
(** The orientation is a rotation and the two references are perpendicular directions after any history of calls. *)
Theorem C137_history f calls : unit_quaternion (af_orientation f) -> frame (af_upward f) (af_north f) ->
  (forall q, In (SetOrientation q) calls -> unit_quaternion q) ->
  forall step, step = mahony_step \/ step = madgwick_step ->
  let g := fold_left (after step) calls f in unit_quaternion (af_orientation g) /\ frame (af_upward g) (af_north g).
Proof.
  intros U F S step St. cbv zeta. revert f U F S. induction calls as [|c calls IH]; intros f U F S; [auto|]. cbn [fold_left].
  assert (H : unit_quaternion (af_orientation (after step f c)) /\ frame (af_upward (after step f c)) (af_north (after step f c))).
  { destruct c as [g a m h|q|b|k|k|u n]; cbn [after]; auto.
    - destruct St as [->| ->]; [unfold mahony_step|unfold madgwick_step]; (match goal with |- context [if ?b then _ else _] => destruct b end; [cbn [fst]; auto|]); cbv zeta;
      match goal with |- context [filter_move f g ?c h] => destruct (move_unit f g c h U) as (A & B & C) end; rewrite B, C; auto.
    - cbn. split; [apply S; left; reflexivity|exact F].
    - destruct (references_frame f u n) as [E|[E1 E2]]; [rewrite E; auto|rewrite E2; auto]. }
  apply IH; [apply H|apply H|]. intros q Q. apply S. right. exact Q.
Qed.
(** New references are taken when they are not along one line: up as given, and north the part of the one given across up. *)
Theorem C137_references (f : attitude_filter R) up north : let g := with_reference_directions f up north in
  (outer up north = (0, 0, 0) -> g = f) /\
  (outer up north <> (0, 0, 0) -> frame (af_upward g) (af_north g) /\ exists a b c, 0 < a /\ 0 < b /\ up = multiple a (af_upward g) /\ north = together (multiple b (af_north g)) (multiple c (af_upward g))).
Proof.
  cbv zeta. unfold with_reference_directions. destruct (zero_or up) as [->|N].
  - rewrite try_direction_zero. split; [auto|]. intros H. exfalso. apply H. destruct north as [[x y] z]. unfold outer. apply point_eq; ring.
  - rewrite try_direction by exact N. assert (D := direction_unit _ N). assert (LU : length up <> 0) by (intros Z; apply N, length_zero, Z). pose proof (length_nonneg up) as LP.
    assert (V : up = multiple (length up) (direction up)) by (unfold direction; destruct up as [[a b] c]; unfold multiple; apply point_eq; field; exact LU).
    rewrite sub3_R, dot3_R, scale3_R. set (l := together north (multiple (-1) (multiple (inner north (direction up)) (direction up)))).
    assert (NL : north = together l (multiple (inner north (direction up)) (direction up))) by (unfold l; generalize (multiple (inner north (direction up)) (direction up)); intros [[? ?] ?]; destruct north as [[? ?] ?]; unfold together, multiple; apply point_eq; ring).
    assert (OL : outer (direction up) north = outer (direction up) l) by (unfold l; generalize (inner north (direction up)); intros k; destruct (direction up) as [[? ?] ?]; destruct north as [[? ?] ?]; unfold outer, together, multiple; apply point_eq; ring).
    assert (PL : inner (direction up) l = 0). { unfold l. set (n := direction up) in *. clearbody n. destruct n as [[x y] z], north as [[p q] r]. unfold inner, together, multiple in *. transitivity ((p * x + q * y + r * z) * (1 - (x * x + y * y + z * z))); [ring|rewrite D; ring]. }
    assert (OU : forall k u v, outer (multiple k u) v = multiple k (outer u v)) by (intros k [[? ?] ?] [[? ?] ?]; unfold outer, multiple; apply point_eq; ring).
    destruct (zero_or l) as [Z|L].
    + rewrite Z, try_direction_zero. split; [auto|]. intros H. exfalso. apply H. rewrite V, OU, OL, Z. destruct (direction up) as [[? ?] ?]. unfold outer, multiple. apply point_eq; ring.
    + rewrite try_direction by exact L. cbn [af_upward af_north]. assert (LL : length l <> 0) by (intros Z; apply L, length_zero, Z). pose proof (length_nonneg l) as LP2. split.
      * intros H. exfalso. rewrite V, OU, OL in H. assert (HO : outer (direction up) l = (0, 0, 0)). { destruct (outer (direction up) l) as [[a b] c]. unfold multiple in H. injection H as H1 H2 H3. apply Rmult_integral in H1. apply Rmult_integral in H2. apply Rmult_integral in H3. apply point_eq; tauto. }
        assert (X : inner (outer (direction up) l) (outer (direction up) l) = inner (direction up) (direction up) * inner l l - inner (direction up) l * inner (direction up) l) by (destruct (direction up) as [[? ?] ?], l as [[? ?] ?]; unfold inner, outer; ring).
        rewrite HO, PL, D in X. apply LL. unfold length. replace (inner l l) with 0; [apply sqrt_0|]. unfold inner at 1 in X. lra.
      * intros _. split; [split; [exact D|split; [apply direction_unit, L|unfold direction at 2; rewrite inner_multiple_r, PL; ring]]|].
        exists (length up), (length l), (inner north (direction up)). split; [lra|split; [lra|split; [exact V|]]]. rewrite NL at 1. f_equal. unfold direction. destruct l as [[? ?] ?]. unfold multiple. apply point_eq; field; exact LL.
Qed.

(** ** Following the truth *)
Lemma outer_self u : outer u u = (0, 0, 0).
Proof. destruct u as [[a b] c]. unfold outer. apply point_eq; ring. Qed.
Lemma inverse_multiple (q : quaternion R) k u : inverse_transform_point q (multiple k u) = multiple k (inverse_transform_point q u).
Proof. unfold inverse_transform_point. apply transform_multiple'. Qed.
Lemma act_inverse (q : quaternion R) v : unit_quaternion q -> transform_point q (inverse_transform_point q v) = v.
Proof. intros U. unfold inverse_transform_point. rewrite <- transform_mul, mul_conjugate, (proj1 (unit_is q) U). destruct v as [[x y] z]. rewrite transform_explicit. apply point_eq; ring. Qed.
Lemma normalized_multiple k u : 0 < k -> inner u u = 1 -> try_normalized3 (multiple k u) = Some u.
Proof.
  intros K U. assert (N : multiple k u <> (0, 0, 0)). { intros Z. apply (f_equal (fun v => inner v v)) in Z. cbv beta in Z. rewrite inner_multiple_l, inner_multiple_r, U in Z. unfold inner in Z. nra. }
  rewrite try_direction by exact N. f_equal. rewrite direction_multiple by exact K. unfold direction, length. rewrite U, sqrt_1, Rinv_1. destruct u as [[a b] c]. unfold multiple. apply point_eq; ring.
Qed.
Lemma feels_nothing q up reading : unit_quaternion q -> inner up up = 1 -> feels q up reading -> accelerometer_correction q reading up = (0, 0, 0).
Proof.
  intros U N (s & S & ->). unfold accelerometer_correction. destruct S as [S|<-].
  - rewrite normalized_multiple by (auto; apply seen_unit; auto). rewrite cross3_R. apply outer_self.
  - replace (multiple 0 (inverse_transform_point q up)) with (0, 0, 0); [rewrite try_direction_zero; reflexivity|]. destruct (inverse_transform_point q up) as [[a b] c]. unfold multiple. apply point_eq; ring.
Qed.
Lemma senses_nothing q up north reading : unit_quaternion q -> frame up north -> senses q up north reading -> magnetometer_correction q reading up north = (0, 0, 0).
Proof.
  intros U (F1 & F2 & F3) S. destruct reading as [m|]; [|reflexivity]. destruct S as (h & v & H & ->). set (field := together (multiple h north) (multiple v up)). unfold magnetometer_correction.
  assert (IF : inner field field = h * h + v * v). { unfold field. destruct up as [[x y] z], north as [[p q'] r]. unfold inner, together, multiple in *. transitivity (h * h * (p * p + q' * q' + r * r) + v * v * (x * x + y * y + z * z) + 2 * h * v * (x * p + y * q' + z * r)); [ring|rewrite F1, F2, F3; ring]. }
  assert (IM : length (inverse_transform_point q field) = sqrt (h * h + v * v)). { unfold length, inverse_transform_point. rewrite rotate_inner by (apply unit_conjugate, U). rewrite IF. reflexivity. }
  rewrite try_normalized3_R, IM. destruct (Req_EM_T _ _) as [Z|Z]; [reflexivity|]. set (l := sqrt (h * h + v * v)) in *. assert (L0 : 0 <= l) by apply sqrt_pos. assert (LL : l * l = h * h + v * v) by (apply sqrt_sqrt; nra).
  change (so3_act q ?u) with (transform_point q u). cbv zeta. change (so3_act (so3_inverse q) ?u) with (inverse_transform_point q u). change (so3_act q ?u) with (transform_point q u).
  rewrite <- inverse_multiple. rewrite act_inverse by exact U. rewrite dot3_R. assert (V : inner (multiple (/ l) field) up = v / l).
  { rewrite inner_multiple_l. replace (inner field up) with v; [unfold Rdiv; ring|]. unfold field. destruct up as [[x y] z], north as [[p q'] r]. unfold inner, together, multiple in *. transitivity (h * (x * p + y * q' + z * r) + v * (x * x + y * y + z * z)); [rewrite F1, F3; ring|ring]. }
  rewrite V. rnum. assert (A : 1 - v / l * (v / l) = h / l * (h / l)) by (apply (Rmult_eq_reg_r (l * l)); [|nra]; replace ((1 - v / l * (v / l)) * (l * l)) with (l * l - v * v) by (field; exact Z); replace (h / l * (h / l) * (l * l)) with (h * h) by (field; exact Z); lra).
  rewrite A. assert (HL : 0 <= h / l) by (apply Rmult_le_pos; [exact H|left; apply Rinv_0_lt_compat; lra]).
  match goal with |- context [if ?b then sqrt ?x else 0] => assert (Q : (if b then sqrt x else 0) = h / l) end.
  { destruct (Rltb 0 (h / l * (h / l))) eqn:B; [apply sqrt_square, HL|apply Rltb_false in B; nra]. }
  rewrite Q. rewrite add3_R, !scale3_R. replace (together (multiple (h / l) north) (multiple (v / l) up)) with (multiple (/ l) field); [rewrite cross3_R; apply outer_self|].
  unfold field. destruct up as [[x y] z], north as [[p q'] r]. unfold together, multiple. apply point_eq; field; exact Z.
Qed.
Lemma correction_split q a m up north : correction q a m up north = together (accelerometer_correction q a up) (magnetometer_correction q m up north).
Proof. unfold correction. rewrite !add3_R. destruct (accelerometer_correction q a up) as [[x y] z], (magnetometer_correction q m up north) as [[p q'] r]. rnum. unfold together. apply point_eq; ring. Qed.
Lemma finite3_R (u : point) : is_finite3 u = true. Proof. destruct u as [[a b] c]. reflexivity. Qed.
Lemma move_R (f : attitude_filter R) g c h : filter_move f g c h = (let bias := together (af_bias f) (multiple (- (offset_gain f * h)) c) in
  (AttitudeFilter (stepped_orientation (af_orientation f) (together (together g (multiple (-1) bias)) (multiple (pull_gain f) c)) h) bias (pull_gain f) (offset_gain f) (af_upward f) (af_north f), Ok tt)).
Proof.
  unfold filter_move. rewrite finite3_R. change (orientation_is_finite ?q) with true. cbn [negb orb]. rewrite !sub3_R, add3_R, !scale3_R. rewrite !multiple_multiple. rnum. replace (-1 * h * offset_gain f) with (- (offset_gain f * h)) by ring. reflexivity.
Qed.
Lemma mahony_R (f : attitude_filter R) g a m h : mahony_step f g a m h = filter_move f g (correction (af_orientation f) a m (af_upward f) (af_north f)) h.
Proof. unfold mahony_step, readings_are_finite. rewrite !finite3_R. destruct m as [m|]; [rewrite finite3_R|]; reflexivity. Qed.
Lemma madgwick_R (f : attitude_filter R) g a m h : madgwick_step f g a m h = filter_move f g (direction (correction (af_orientation f) a m (af_upward f) (af_north f))) h.
Proof.
  unfold madgwick_step, readings_are_finite. rewrite !finite3_R. assert (E : (match m with None => true | Some m => is_finite3 m end) = true) by (destruct m as [m|]; [apply finite3_R|reflexivity]). rewrite E. cbn [negb andb]. change (is_finite h) with true. cbn [negb andb].
  cbv zeta. set (c := correction _ _ _ _ _). destruct (zero_or c) as [Z|N]; [rewrite Z, try_direction_zero|rewrite try_direction by exact N; reflexivity]. f_equal. unfold direction, multiple. rnum. apply point_eq; ring.
Qed.
Lemma direction_zero : direction (0, 0, 0) = (0, 0, 0). Proof. unfold direction, multiple. apply point_eq; ring. Qed.
(** From the true orientation and the true offset, readings of the true directions and rates keep both: one tick. *)
Lemma truthful_tick (f : attitude_filter R) rate a m h : unit_quaternion (af_orientation f) -> frame (af_upward f) (af_north f) -> plain (multiple h rate) ->
  feels (af_orientation f) (af_upward f) a -> senses (af_orientation f) (af_upward f) (af_north f) m ->
  forall step, step = mahony_step \/ step = madgwick_step -> exists q,
  step f (together rate (af_bias f)) a m h = (set_orientation f q, Ok tt) /\ unit_quaternion q /\
  equal 3 3 (mget (to_rotation_matrix q)) (product 3 (mget (to_rotation_matrix (af_orientation f))) (matrix_exp 3 (cross_matrix (multiple h rate)))).
Proof.
  intros U F P A M step St. destruct (C114_step (af_orientation f) rate h U P) as [U2 E]. exists (attitude_step (af_orientation f) rate h). split; [|auto].
  assert (C : correction (af_orientation f) a m (af_upward f) (af_north f) = (0, 0, 0)). { rewrite correction_split, feels_nothing, senses_nothing by (auto; apply F). unfold together. apply point_eq; ring. }
  assert (W : filter_move f (together rate (af_bias f)) (0, 0, 0) h = (set_orientation f (attitude_step (af_orientation f) rate h), Ok tt)).
  { rewrite move_R. cbv zeta. unfold set_orientation. f_equal. assert (B : together (af_bias f) (multiple (- (offset_gain f * h)) (0, 0, 0)) = af_bias f) by (destruct (af_bias f) as [[x y] z]; unfold together, multiple; apply point_eq; ring). rewrite B.
    assert (R : together (together (together rate (af_bias f)) (multiple (-1) (af_bias f))) (multiple (pull_gain f) (0, 0, 0)) = rate) by (destruct (af_bias f) as [[x y] z], rate as [[p q] r]; unfold together, multiple; apply point_eq; ring). rewrite R.
    f_equal. unfold stepped_orientation, so3_normalized. apply normalized_unit, U2. }
  destruct St as [->| ->]; [rewrite mahony_R, C; exact W|rewrite madgwick_R, C, direction_zero; exact W].
Qed.
Lemma matrix_point p q v : unit_quaternion p -> unit_quaternion q -> equal 3 3 (mget (to_rotation_matrix p)) (mget (to_rotation_matrix q)) -> transform_point p v = transform_point q v.
Proof. intros A B E. apply coordinate_inj. intros i Hi. rewrite !rotated_coordinate by auto. apply times_ext; [intros k Hk; apply E; auto|intros k Hk; reflexivity]. Qed.
Lemma matrix_inverse_point (p q : quaternion R) v : unit_quaternion p -> unit_quaternion q -> equal 3 3 (mget (to_rotation_matrix p)) (mget (to_rotation_matrix q)) -> inverse_transform_point p v = inverse_transform_point q v.
Proof. intros A B E. rewrite <- (act_inverse q v B) at 1. rewrite <- (matrix_point p q _ A B E). apply transform_undo, A. Qed.
(** The same along a motion of any length: a body turning at the rates [rate k] for the times [h k], sensed without error except
    for a steady offset that the filter knows. *)
Theorem C137_tracks step (f : nat -> attitude_filter R) (truth : nat -> quaternion R) (rate : nat -> point) (h : nat -> R) accelerometer magnetometer offset :
  step = mahony_step \/ step = madgwick_step ->
  unit_quaternion (af_orientation (f 0%nat)) -> frame (af_upward (f 0%nat)) (af_north (f 0%nat)) -> af_bias (f 0%nat) = offset ->
  equal 3 3 (mget (to_rotation_matrix (af_orientation (f 0%nat)))) (mget (to_rotation_matrix (truth 0%nat))) ->
  (forall k, f (S k) = fst (step (f k) (together (rate k) offset) (accelerometer k) (magnetometer k) (h k))) ->
  (forall k, unit_quaternion (truth k) /\ plain (multiple (h k) (rate k)) /\
    equal 3 3 (mget (to_rotation_matrix (truth (S k)))) (product 3 (mget (to_rotation_matrix (truth k))) (matrix_exp 3 (cross_matrix (multiple (h k) (rate k))))) /\
    feels (truth k) (af_upward (f 0%nat)) (accelerometer k) /\ senses (truth k) (af_upward (f 0%nat)) (af_north (f 0%nat)) (magnetometer k)) ->
  forall k, equal 3 3 (mget (to_rotation_matrix (af_orientation (f k)))) (mget (to_rotation_matrix (truth k))) /\ af_bias (f k) = offset.
Proof.
  intros St U F B E0 Next Tr k. enough (unit_quaternion (af_orientation (f k)) /\ af_upward (f k) = af_upward (f 0%nat) /\ af_north (f k) = af_north (f 0%nat) /\ equal 3 3 (mget (to_rotation_matrix (af_orientation (f k)))) (mget (to_rotation_matrix (truth k))) /\ af_bias (f k) = offset) by tauto.
  induction k as [|k (Uk & Ku & Kn & Ek & Bk)]; [auto 6|]. destruct (Tr k) as (UT & P & TE & A & M). rewrite Next.
  destruct (truthful_tick (f k) (rate k) (accelerometer k) (magnetometer k) (h k) Uk ltac:(rewrite Ku, Kn; exact F) P) with (step := step) as (q & S1 & S2 & S3); auto.
  - rewrite Ku. destruct A as (s & S0 & ->). exists s. split; [exact S0|]. f_equal. apply matrix_inverse_point; auto. apply equal_sym, Ek.
  - rewrite Ku, Kn. destruct (magnetometer k) as [m|]; [|exact I]. destruct M as (x & y & X & ->). exists x, y. split; [exact X|]. apply matrix_inverse_point; auto. apply equal_sym, Ek.
  - rewrite Bk in S1. rewrite S1. cbn [fst set_orientation af_orientation af_bias af_upward af_north]. split; [exact S2|split; [exact Ku|split; [exact Kn|split; [|exact Bk]]]].
    eapply equal_trans; [exact S3|]. eapply equal_trans; [|apply equal_sym, TE]. apply equal_product; [exact Ek|apply equal_refl].
Qed.

(** ** Coming level *)
Definition still (f : attitude_filter R) truth s := (af_bias f, multiple s (inverse_transform_point truth (af_upward f)), @None point).
Lemma still_correction (f : attitude_filter R) truth s : unit_quaternion truth -> inner (af_upward f) (af_upward f) = 1 -> 0 < s ->
  correction (af_orientation f) (multiple s (inverse_transform_point truth (af_upward f))) None (af_upward f) (af_north f) = outer (inverse_transform_point truth (af_upward f)) (inverse_transform_point (af_orientation f) (af_upward f)).
Proof.
  intros U N S. rewrite correction_split. unfold accelerometer_correction. rewrite normalized_multiple by (auto; apply seen_unit; auto). rewrite cross3_R. cbn [magnetometer_correction]. change (so3_act (so3_inverse (af_orientation f)) ?u) with (inverse_transform_point (af_orientation f) u).
  destruct (outer _ _) as [[x y] z]. unfold together. rnum. apply point_eq; ring.
Qed.
Lemma still_move (f : attitude_filter R) c h : offset_gain f = 0 -> fst (filter_move f (af_bias f) c h) = set_orientation f (stepped_orientation (af_orientation f) (multiple (pull_gain f) c) h).
Proof.
  intros Z. rewrite move_R. cbv zeta. cbn [fst]. unfold set_orientation. rewrite Z. assert (B : together (af_bias f) (multiple (- (0 * h)) c) = af_bias f) by (destruct (af_bias f) as [[x y] z], c as [[p q] r]; unfold together, multiple; apply point_eq; ring). rewrite B.
  assert (R : together (together (af_bias f) (multiple (-1) (af_bias f))) (multiple (pull_gain f) c) = multiple (pull_gain f) c) by (destruct (af_bias f) as [[x y] z], c as [[p q] r]; unfold together, multiple; apply point_eq; ring). rewrite R. reflexivity.
Qed.
Lemma tilt_range truth q up : unit_quaternion truth -> unit_quaternion q -> inner up up = 1 -> 0 <= tilt truth q up <= PI.
Proof. intros. apply acos_bound. Qed.
Lemma no_turn (q : quaternion R) up h : unit_quaternion q -> inverse_transform_point (stepped_orientation q (0, 0, 0) h) up = inverse_transform_point q up.
Proof.
  intros U. destruct (stepped_turn q (0, 0, 0) h U) as (p & a & E & P & Tn & A & _). cbv zeta in *. assert (Z : multiple h (0, 0, 0) = (0, 0, 0)) by (unfold multiple; apply point_eq; ring). rewrite Z in *.
  rewrite (proj2 (length_zero (0, 0, 0)) eq_refl) in A. assert (A0 : a = 0). { apply Rabs_le_between in A. lra. } subst a. rewrite E.
  assert (X : inverse_transform_point (quat_mul q p) up = inverse_transform_point p (inverse_transform_point q up)). { unfold inverse_transform_point. rewrite <- transform_mul. f_equal. destruct q as [w x y z], p as [w' x' y' z']. unfold conjugate, quat_mul. cbn [qw qx qy qz]. rnum. apply quat_eq; cbn [qw qx qy qz]; ring. }
  rewrite X. set (v := inverse_transform_point q up). assert (V : v = transform_point p v) by (rewrite Tn, turned_none; reflexivity). rewrite V at 1. apply transform_undo, P.
Qed.
(** A tilt less than a half turn, at a cross product of zero, is none. *)
Lemma level truth q up : unit_quaternion truth -> unit_quaternion q -> inner up up = 1 -> tilt truth q up < PI -> outer (inverse_transform_point truth up) (inverse_transform_point q up) = (0, 0, 0) -> tilt truth q up = 0.
Proof.
  intros A B N T Z. pose proof (outer_sine _ _ (seen_unit truth up A N) (seen_unit q up B N)) as S. rewrite Z, (proj2 (length_zero (0, 0, 0)) eq_refl) in S. fold (tilt truth q up) in S. pose proof (tilt_range truth q up A B N) as [T0 _]. destruct T0 as [T0|T0]; [|auto]. pose proof (sin_gt_0 _ T0 T). lra.
Qed.
Lemma mahony_level (f : attitude_filter R) truth s h : let g := fst (mahony_step f (af_bias f) (multiple s (inverse_transform_point truth (af_upward f))) None h) in
  unit_quaternion truth -> unit_quaternion (af_orientation f) -> inner (af_upward f) (af_upward f) = 1 -> 0 < s -> offset_gain f = 0 -> 0 < h * pull_gain f <= 1 -> tilt truth (af_orientation f) (af_upward f) < PI ->
  let t := tilt truth (af_orientation f) (af_upward f) in tilt truth (af_orientation g) (af_upward f) <= t - 3 / 4 * (h * pull_gain f) * sin t.
Proof.
  cbv zeta. intros UT UQ N S Z K L. rewrite mahony_R, still_correction by auto. rewrite still_move by exact Z. cbn [af_orientation set_orientation]. set (up := af_upward f) in *. set (q := af_orientation f) in *. pose proof (tilt_range truth q up UT UQ N) as [T0 T1].
  destruct (zero_or (outer (inverse_transform_point truth up) (inverse_transform_point q up))) as [C|C].
  - rewrite C. replace (multiple (pull_gain f) (0, 0, 0)) with (0, 0, 0) by (unfold multiple; apply point_eq; ring). unfold tilt at 1. rewrite no_turn by exact UQ. fold (tilt truth q up). rewrite (level truth q up UT UQ N L C). rewrite sin_0. lra.
  - destruct (tilt_step truth q up (pull_gain f) h UT UQ N C ltac:(lra)) as (alpha & E & R1 & _). rewrite outer_sine in R1 by (apply seen_unit; auto). fold (tilt truth q up) in R1. set (t := tilt truth q up) in *. set (k := h * pull_gain f) in *.
    assert (SN : 0 <= sin t) by (apply sin_ge_0; lra). assert (ST : sin t <= t) by (destruct T0 as [T0| <-]; [left; apply sin_lt_x, T0|rewrite sin_0; lra]). assert (KS : k * sin t <= t) by nra. assert (KP : 0 <= k * sin t) by (apply Rmult_le_pos; lra).
    apply Rabs_le_between in R1. unfold tilt at 1. rewrite E. rewrite acos_cos_abs by lra. apply Rabs_le. lra.
Qed.
(** A still body whose offset is known: the Mahony filter's tilt goes to zero geometrically from any start but upside down. *)
Theorem C137_mahony_levels (f : nat -> attitude_filter R) truth (strength : nat -> R) h : let up := af_upward (f 0%nat) in let k := h * pull_gain (f 0%nat) in let t n := tilt truth (af_orientation (f n)) up in
  unit_quaternion truth -> unit_quaternion (af_orientation (f 0%nat)) -> inner up up = 1 -> offset_gain (f 0%nat) = 0 -> 0 < k <= 1 -> 0 < t 0%nat < PI ->
  (forall n, 0 < strength n /\ f (S n) = fst (mahony_step (f n) (af_bias (f 0%nat)) (multiple (strength n) (inverse_transform_point truth up)) None h)) ->
  let ratio := 1 - 3 / 4 * k * (sin (t 0%nat) / t 0%nat) in 0 < ratio < 1 /\ forall n, 0 <= t n <= t 0%nat * ratio ^ n.
Proof.
  cbv zeta. set (up := af_upward (f 0%nat)). set (k := h * pull_gain (f 0%nat)). set (t := fun n => tilt truth (af_orientation (f n)) up). intros UT UQ N Z K T Next. change (tilt truth (af_orientation (f 0%nat)) up) with (t 0%nat) in *.
  set (c := sin (t 0%nat) / t 0%nat). assert (SP : 0 < sin (t 0%nat)) by (apply sin_gt_0; lra). assert (SX : sin (t 0%nat) < t 0%nat) by (apply sin_lt_x; lra). assert (C : 0 < c < 1) by (unfold c; split; [apply Rdiv_lt_0_compat; lra|apply Rmult_lt_reg_r with (t 0%nat); [lra|]; unfold Rdiv; rewrite Rmult_assoc, Rinv_l by lra; lra]).
  set (r := 1 - 3 / 4 * k * c). assert (KC : 0 < k * c <= 1) by (split; nra). assert (R01 : 0 < r < 1) by (unfold r; lra). split; [exact R01|].
  intros n. enough (unit_quaternion (af_orientation (f n)) /\ f n = set_orientation (f 0%nat) (af_orientation (f n)) /\ 0 <= t n <= t 0%nat * r ^ n) by tauto.
  induction n as [|n (Un & Fn & Tn)].
  - split; [exact UQ|]. split; [destruct (f 0%nat); reflexivity|]. cbn [pow]. lra.
  - destruct (Next n) as [Sn En]. assert (Gu : af_upward (f n) = up) by (rewrite Fn; reflexivity). assert (Gb : af_bias (f n) = af_bias (f 0%nat)) by (rewrite Fn; reflexivity). assert (Gz : offset_gain (f n) = 0) by (rewrite Fn; exact Z). assert (Gk : pull_gain (f n) = pull_gain (f 0%nat)) by (rewrite Fn; reflexivity).
    assert (RN : r ^ n <= 1) by (rewrite <- (pow1 n); apply pow_incr; lra). assert (Tm : t n <= t 0%nat) by nra.
    pose proof (mahony_level (f n) truth (strength n) h) as L. cbv zeta in L. rewrite Gu, Gb, Gz, Gk, <- En in L. fold k in L. specialize (L UT Un N Sn eq_refl K). change (tilt truth (af_orientation (f n)) up) with (t n) in L. change (tilt truth (af_orientation (f (S n))) up) with (t (S n)) in L. specialize (L ltac:(lra)).
    assert (US : unit_quaternion (af_orientation (f (S n))) /\ f (S n) = set_orientation (f 0%nat) (af_orientation (f (S n)))).
    { rewrite En. rewrite mahony_R. rewrite <- Gb, <- Gu. rewrite still_correction by (rewrite ?Gu; auto). rewrite still_move by exact Gz. match goal with |- context [af_orientation (set_orientation (f n) ?y)] => change (af_orientation (set_orientation (f n) y)) with y end. split; [apply stepped_unit, Un|]. match goal with |- _ = _ ?y => generalize y end. intros y. rewrite Fn. reflexivity. }
    split; [apply US|split; [apply US|]]. pose proof (tilt_range truth (af_orientation (f (S n))) up UT (proj1 US) N) as [Z0 _]. change (tilt truth (af_orientation (f (S n))) up) with (t (S n)) in Z0. split; [exact Z0|].
    assert (SC : c * t n <= sin (t n)). { destruct (proj1 Tn) as [P|E]; [apply sine_chord; lra|rewrite <- E, sin_0; lra]. }
    assert (X : t n - 3 / 4 * k * sin (t n) <= r * t n) by (unfold r; nra). cbn [pow]. assert (r * t n <= r * (t 0%nat * r ^ n)) by (apply Rmult_le_compat_l; lra). lra.
Qed.
(** The Madgwick filter's goes down by the same angle every tick until it is within that angle, and stays there. *)
Lemma madgwick_level (f : attitude_filter R) truth s h : let g := fst (madgwick_step f (af_bias f) (multiple s (inverse_transform_point truth (af_upward f))) None h) in let k := h * pull_gain f in
  unit_quaternion truth -> unit_quaternion (af_orientation f) -> inner (af_upward f) (af_upward f) = 1 -> 0 < s -> offset_gain f = 0 -> small <= k < PI -> tilt truth (af_orientation f) (af_upward f) < PI ->
  let t := tilt truth (af_orientation f) (af_upward f) in tilt truth (af_orientation g) (af_upward f) = if Req_EM_T t 0 then 0 else Rabs (t - k).
Proof.
  cbv zeta. intros UT UQ N S Z K L. rewrite madgwick_R, still_correction by auto. rewrite still_move by exact Z. cbn [af_orientation set_orientation]. set (up := af_upward f) in *. set (q := af_orientation f) in *. pose proof (tilt_range truth q up UT UQ N) as [T0 T1]. pose proof small_bound as [SB _].
  set (c := outer (inverse_transform_point truth up) (inverse_transform_point q up)) in *. pose proof (outer_sine _ _ (seen_unit truth up UT N) (seen_unit q up UQ N)) as OS. fold c in OS. fold (tilt truth q up) in OS.
  destruct (zero_or c) as [C|C].
  - rewrite C, direction_zero. replace (multiple (pull_gain f) (0, 0, 0)) with (0, 0, 0) by (unfold multiple; apply point_eq; ring). unfold tilt at 1. rewrite no_turn by exact UQ. fold (tilt truth q up). rewrite (level truth q up UT UQ N L C). destruct (Req_EM_T 0 0); [reflexivity|contradiction].
  - assert (LC : length c <> 0) by (intros E; apply C, length_zero, E). pose proof (length_nonneg c) as LP. assert (T2 : tilt truth q up <> 0) by (intros E; rewrite E, sin_0 in OS; contradiction). destruct (Req_EM_T (tilt truth q up) 0) as [|_]; [contradiction|].
    unfold direction. rewrite multiple_multiple. assert (EL : h * (pull_gain f * / length c) * length c = h * pull_gain f) by (field; exact LC). assert (K2 : 0 < h * (pull_gain f * / length c)) by (rewrite <- Rmult_assoc; apply Rmult_lt_0_compat; [lra|apply Rinv_0_lt_compat; lra]).
    destruct (tilt_step truth q up (pull_gain f * / length c) h UT UQ N C K2) as (alpha & E & _ & R2). fold c in E, R2. rewrite EL in R2. specialize (R2 ltac:(lra)). subst alpha. unfold tilt at 1. fold c. rewrite E. apply acos_cos_abs. lra.
Qed.
Theorem C137_madgwick_levels (f : nat -> attitude_filter R) truth (strength : nat -> R) h : let up := af_upward (f 0%nat) in let k := h * pull_gain (f 0%nat) in let t n := tilt truth (af_orientation (f n)) up in
  unit_quaternion truth -> unit_quaternion (af_orientation (f 0%nat)) -> inner up up = 1 -> offset_gain (f 0%nat) = 0 -> 30 / IZR (2^52) <= k < PI -> t 0%nat < PI ->
  (forall n, 0 < strength n /\ f (S n) = fst (madgwick_step (f n) (af_bias (f 0%nat)) (multiple (strength n) (inverse_transform_point truth up)) None h)) ->
  (forall n, k <= t n -> t (S n) = t n - k) /\ forall n, 0 <= t n <= Rmax (t 0%nat - INR n * k) k.
Proof.
  cbv zeta. set (up := af_upward (f 0%nat)). set (k := h * pull_gain (f 0%nat)). set (t := fun n => tilt truth (af_orientation (f n)) up). intros UT UQ N Z K T Next. change (tilt truth (af_orientation (f 0%nat)) up) with (t 0%nat) in *. fold small in K. pose proof small_bound as [SB _].
  assert (St : forall n, (unit_quaternion (af_orientation (f n)) /\ f n = set_orientation (f 0%nat) (af_orientation (f n))) /\ 0 <= t n < PI /\ t (S n) = (if Req_EM_T (t n) 0 then 0 else Rabs (t n - k))).
  { induction n as [|n IH].
    - assert (F0 : f 0%nat = set_orientation (f 0%nat) (af_orientation (f 0%nat))) by (destruct (f 0%nat); reflexivity). split; [auto|]. pose proof (tilt_range truth (af_orientation (f 0%nat)) up UT UQ N) as [T0 _]. change (tilt truth (af_orientation (f 0%nat)) up) with (t 0%nat) in T0. split; [lra|].
      destruct (Next 0%nat) as [Sn En]. pose proof (madgwick_level (f 0%nat) truth (strength 0%nat) h) as L. cbv zeta in L. fold up k in L. rewrite <- En in L. apply L; auto.
    - destruct IH as ((Un & Fn) & Tn & Es). destruct (Next n) as [Sn En]. assert (Gu : af_upward (f n) = up) by (rewrite Fn; reflexivity). assert (Gb : af_bias (f n) = af_bias (f 0%nat)) by (rewrite Fn; reflexivity). assert (Gz : offset_gain (f n) = 0) by (rewrite Fn; exact Z).
      assert (US : unit_quaternion (af_orientation (f (S n))) /\ f (S n) = set_orientation (f 0%nat) (af_orientation (f (S n)))).
      { rewrite En. rewrite madgwick_R. rewrite <- Gb, <- Gu. rewrite still_correction by (rewrite ?Gu; auto). rewrite still_move by exact Gz. match goal with |- context [af_orientation (set_orientation (f n) ?y)] => change (af_orientation (set_orientation (f n) y)) with y end. split; [apply stepped_unit, Un|]. match goal with |- _ = _ ?y => generalize y end. intros y. rewrite Fn. reflexivity. }
      split; [exact US|]. assert (T1 : 0 <= t (S n) < PI). { rewrite Es. destruct (Req_EM_T (t n) 0); [pose proof PI_RGT_0; lra|]. split; [apply Rabs_pos|apply Rabs_def1; lra]. } split; [exact T1|].
      destruct US as [Us Fs]. destruct (Next (S n)) as [Ss Ess]. pose proof (madgwick_level (f (S n)) truth (strength (S n)) h) as L. cbv zeta in L.
      assert (Hu : af_upward (f (S n)) = up) by (rewrite Fs; reflexivity). assert (Hb : af_bias (f (S n)) = af_bias (f 0%nat)) by (rewrite Fs; reflexivity). assert (Hz : offset_gain (f (S n)) = 0) by (rewrite Fs; exact Z). assert (Hk : pull_gain (f (S n)) = pull_gain (f 0%nat)) by (rewrite Fs; reflexivity).
      rewrite Hu, Hb, Hz, Hk, <- Ess in L. apply L; auto. apply T1. }
  split.
  - intros n Kn. destruct (St n) as (_ & _ & ->). destruct (Req_EM_T (t n) 0); [lra|]. apply Rabs_pos_eq. lra.
  - induction n as [|n IH].
    + split; [apply (St 0%nat)|]. change (INR 0) with 0. rewrite Rmult_0_l, Rminus_0_r. apply Rmax_l.
    + destruct (St n) as (_ & Tn & Es). split; [apply (St (S n))|]. rewrite Es. destruct (Req_EM_T (t n) 0); [eapply Rle_trans; [|apply Rmax_r]; lra|]. rewrite S_INR.
      destruct (Rle_lt_dec k (t n)) as [G|G]; [rewrite Rabs_pos_eq by lra|rewrite Rabs_left by lra; eapply Rle_trans; [|apply Rmax_r]; lra].
      destruct IH as [_ IH]. unfold Rmax in IH. destruct (Rle_dec _ _) in IH; [eapply Rle_trans; [|apply Rmax_r]; lra|eapply Rle_trans; [|apply Rmax_l]; lra].
Qed.

(** ** The magnetometer and the lean *)
(** In a level field the magnetometer's correction is a turn about the vertical. *)
Theorem C137_heading_partial q up north m : unit_quaternion q -> frame up north -> inner (transform_point q m) up = 0 ->
  exists k, magnetometer_correction q (Some m) up north = multiple k (inverse_transform_point q up).
Proof.
  intros U (F1 & F2 & F3) H. unfold magnetometer_correction. rewrite try_normalized3_R. destruct (Req_EM_T _ _) as [Z|Z]; [exists 0; destruct (inverse_transform_point q up) as [[a b] c]; unfold multiple; rnum; apply point_eq; ring|].
  cbv zeta. change (so3_act (so3_inverse q) ?u) with (inverse_transform_point q u). change (so3_act q ?u) with (transform_point q u). rewrite dot3_R, transform_multiple', inner_multiple_l, H, Rmult_0_r. rnum. rewrite Rmult_0_r, Rminus_0_r. rewrite (proj2 (Rltb_true 0 1)) by lra. rewrite sqrt_1.
  rewrite add3_R, !scale3_R, cross3_R. set (w := transform_point q m) in *. set (l := length m) in *.
  replace m with (inverse_transform_point q w) by (apply transform_undo, U). rewrite <- inverse_multiple. unfold inverse_transform_point. rewrite rotate_outer by (apply unit_conjugate, U).
  assert (X : exists k, outer (multiple (/ l) w) (together (multiple 1 north) (multiple 0 up)) = multiple k up).
  { exists (inner (outer (multiple (/ l) w) north) up). clear Z. clearbody l w. set (v := multiple (/ l) w). assert (V : inner v up = 0) by (unfold v; rewrite inner_multiple_l, H; ring). clearbody v. clear H w.
    replace (together (multiple 1 north) (multiple 0 up)) with north by (destruct north as [[? ?] ?], up as [[? ?] ?]; unfold together, multiple; apply point_eq; ring).
    (* outer v north is along up since both are across it: up x (v x north) = 0 *)
    assert (Y : outer up (outer v north) = (0, 0, 0)). { transitivity (together (multiple (inner up north) v) (multiple (- inner v up) north)); [destruct up as [[? ?] ?], v as [[? ?] ?], north as [[? ?] ?]; unfold outer, inner, together, multiple; apply point_eq; ring|]. rewrite F3, V. destruct v as [[? ?] ?], north as [[? ?] ?]; unfold together, multiple; apply point_eq; ring. }
    set (o := outer v north) in *. clearbody o. assert (W : outer (outer up o) up = together (multiple (inner up up) o) (multiple (- inner o up) up)) by (destruct up as [[? ?] ?], o as [[? ?] ?]; unfold outer, inner, together, multiple; apply point_eq; ring).
    rewrite Y, F1 in W. revert W. generalize (inner o up). clear. intros k W. destruct o as [[a b] c], up as [[x y] z]. unfold outer, together, multiple in *. injection W as W1 W2 W3. apply point_eq; lra. }
  destruct X as [k X]. exists k. rewrite X. apply (transform_multiple' (conjugate q)).
Qed.
(** In a field that dips it is not, and a body that is level and reads its accelerometer right is tipped. *)
Theorem C137_heading_refuted : exists f a m, unit_quaternion (af_orientation f) /\ frame (af_upward f) (af_north f) /\ feels (af_orientation f) (af_upward f) a /\
  tilt (af_orientation f) (af_orientation f) (af_upward f) = 0 /\ 0 < tilt (af_orientation f) (af_orientation (fst (mahony_step f (af_bias f) a (Some m) 1))) (af_upward f).
Proof.
  set (q := quat_identity (T := R)). set (up := ((0, 0, 1) : point)). set (north := ((1, 0, 0) : point)). exists (AttitudeFilter q (0, 0, 0) 1 0 up north), up, (0, 3, 4). cbn [af_orientation af_upward af_north af_bias].
  assert (U : unit_quaternion q) by (unfold unit_quaternion, q; cbn; rnum; ring). assert (F : frame up north) by (unfold frame, up, north, inner; repeat split; ring).
  assert (IT : forall v, inverse_transform_point q v = v) by (intros [[x y] z]; unfold inverse_transform_point, q, quat_identity, conjugate; cbn [qw qx qy qz]; rnum; rewrite transform_explicit; apply point_eq; ring).
  assert (TT : forall v, transform_point q v = v) by (intros [[x y] z]; unfold q, quat_identity; rnum; rewrite transform_explicit; apply point_eq; ring).
  split; [exact U|split; [exact F|]]. split; [exists 1; split; [lra|]; rewrite IT; unfold multiple, up; apply point_eq; ring|].
  assert (T0 : inner up up = 1) by apply F. split; [unfold tilt; rewrite IT, T0; apply acos_1|].
  rewrite mahony_R. cbn [af_orientation af_upward af_north]. assert (FE : feels q up up) by (exists 1; split; [lra|]; rewrite IT; unfold multiple, up; apply point_eq; ring). rewrite correction_split, (feels_nothing q up up U T0 FE).
  assert (M : magnetometer_correction q (Some (0, 3, 4)) up north = (12 / 25, 12 / 25, - (9 / 25))).
  { unfold magnetometer_correction. assert (L5 : length (0, 3, 4) = 5). { unfold length, inner. replace (0 * 0 + 3 * 3 + 4 * 4) with (5 * 5) by ring. apply sqrt_square. lra. } rewrite try_normalized3_R, L5. destruct (Req_EM_T 5 0); [lra|]. cbv zeta.
    change (so3_act (so3_inverse q) ?u) with (inverse_transform_point q u). change (so3_act q ?u) with (transform_point q u). rewrite TT, IT, dot3_R. replace (inner (multiple (/ 5) (0, 3, 4)) up) with (4 / 5) by (unfold inner, multiple, up; field). rnum. rewrite (proj2 (Rltb_true 0 _)) by lra.
    replace (1 - 4 / 5 * (4 / 5)) with (3 / 5 * (3 / 5)) by field. rewrite sqrt_square by lra. rewrite add3_R, !scale3_R, cross3_R. unfold outer, together, multiple, up, north. apply point_eq; field. }
  match goal with |- context [magnetometer_correction ?a ?b ?c ?d] => change (magnetometer_correction a b c d) with (magnetometer_correction q (Some (0, 3, 4)) up north) end. rewrite M, move_R. cbv zeta. cbn [fst af_orientation af_bias pull_gain offset_gain]. set (c := together (0, 0, 0) (12 / 25, 12 / 25, - (9 / 25))). assert (EC : c = (12 / 25, 12 / 25, - (9 / 25))) by (unfold c, together; apply point_eq; ring). clearbody c. subst c.
  match goal with |- context [stepped_orientation q ?r 1] => replace r with (12 / 25, 12 / 25, - (9 / 25)) by (unfold together, multiple; apply point_eq; field) end. set (c := (12 / 25, 12 / 25, - (9 / 25))).
  destruct (stepped_turn q c 1 U) as (p & alpha & E & P & Tn & _ & R2). cbv zeta in *. assert (E1 : multiple 1 c = c) by (unfold c, multiple; apply point_eq; ring). rewrite E1 in *.
  assert (IC : inner c c = 369 / 625) by (unfold c, inner; field). assert (LC : / 2 <= length c <= 1). { unfold length. rewrite IC. split; [rewrite <- (sqrt_square (/ 2)) by lra; apply sqrt_le_1_alt; lra|rewrite <- sqrt_1; apply sqrt_le_1_alt; lra]. }
  pose proof small_bound as [_ SB]. assert (SB2 : small < / 100) by (eapply Rlt_trans; [exact SB|]; apply Rinv_lt_contravar; lra). specialize (R2 ltac:(lra)). subst alpha. rewrite E. assert (Q1 : quat_mul q p = p) by apply mul_identity_l. rewrite Q1.
  assert (NC : c <> (0, 0, 0)) by (intros Z; rewrite Z in IC; unfold inner in IC; lra). assert (D := direction_unit _ NC). unfold tilt. rewrite IT, (conjugate_turn p _ _ P D Tn). rewrite turned_explicit by exact D.
  assert (DN : inner (direction c) up = - (9 / 25) / length c) by (unfold direction; rewrite inner_multiple_l; unfold c, inner, up; field; unfold c in LC; lra).
  assert (LL : length c * length c = 369 / 625) by (unfold length; rewrite sqrt_sqrt by (rewrite IC; lra); exact IC).
  rewrite cos_neg, sin_neg. set (x := cos (length c)). assert (X1 : x < 1). { unfold x. rewrite <- cos_0. apply cos_decreasing_1; pose proof PI2_1; lra. }
  match goal with |- 0 < Ratan.acos ?v => assert (V : v < 1); [|assert (B : -1 <= v)] end.
  - match goal with |- ?v < 1 => replace v with (x * inner up up + (1 - x) * (inner (direction c) up * inner (direction c) up)) end.
    + rewrite T0, DN. replace (- (9 / 25) / length c * (- (9 / 25) / length c)) with (81 / 625 / (length c * length c)) by (field; lra). rewrite LL. lra.
    + generalize (direction c) (sin (length c)). intros [[n1 n2] n3] s. unfold inner, outer, together, multiple, up. ring.
  - rewrite <- (turned_explicit (direction c) (length c) up D) || idtac. match goal with |- -1 <= ?v => replace v with (x * inner up up + (1 - x) * (inner (direction c) up * inner (direction c) up)) end.
    + rewrite T0, DN. replace (- (9 / 25) / length c * (- (9 / 25) / length c)) with (81 / 625 / (length c * length c)) by (field; lra). rewrite LL. pose proof (COS_bound (length c)). fold x in H. lra.
    + generalize (direction c) (sin (length c)). intros [[n1 n2] n3] s. unfold inner, outer, together, multiple, up. ring.
  - destruct (acos_bound (inner up up)) as [_ _]. match goal with |- 0 < Ratan.acos ?v => destruct (acos_bound v) as [[G|G] _]; [exact G|]; exfalso; apply (f_equal cos) in G; rewrite cos_0, cos_acos in G by lra; lra end.
Qed.

(** Two starts the theorems speak of *)
Example C137_example : let q := Quat (cos (PI / 4)) (sin (PI / 4)) 0 0 in let level := quat_identity (T := R) in let f := with_offset_gain (mahony_new q) 0 in
  unit_quaternion q /\ frame (af_upward f) (af_north f) /\ tilt level q (af_upward f) = PI / 2 /\ 0 < / 100 * pull_gain f <= 1 /\ 30 / IZR (2^52) <= / 100 * pull_gain (madgwick_new q) < PI /\
  feels q (af_upward f) (0, 1, 0) /\ senses q (af_upward f) (af_north f) (Some (3, 4, 0)).
Proof.
  cbv zeta. set (q := Quat (cos (PI / 4)) (sin (PI / 4)) 0 0). cbn [with_offset_gain mahony_new madgwick_new af_upward af_north pull_gain]. unfold upward_reference, north_reference. rnum.
  assert (S2 : sin (PI / 4) * sin (PI / 4) = / 2 /\ cos (PI / 4) * cos (PI / 4) = / 2 /\ sin (PI / 4) = cos (PI / 4)). { assert (Q : sin (PI / 4) = cos (PI / 4)) by (rewrite sin_PI4, cos_PI4; reflexivity). pose proof (sin2_cos2 (PI / 4)) as S. unfold Rsqr in S. rewrite Q in *. repeat split; lra. } destruct S2 as (Ss & Cc & SC).
  assert (U : unit_quaternion q) by (unfold unit_quaternion, q; cbn [qw qx qy qz]; lra).
  assert (IT : forall x y z, inverse_transform_point q (x, y, z) = (x, z, - y)). { intros x y z. unfold inverse_transform_point, q, conjugate. cbn [qw qx qy qz]. rnum. rewrite transform_explicit. rewrite SC in *. set (k := cos (PI / 4)) in *. apply point_eq; [transitivity (2 * (k * k) * x); [ring|rewrite Cc; field]|transitivity (2 * (k * k) * z); [ring|rewrite Cc; field]|transitivity (- 2 * (k * k) * y); [ring|rewrite Cc; field]]. }
  split; [exact U|]. split; [unfold frame, inner; repeat split; ring|]. split.
  - unfold tilt. rewrite IT. replace (inverse_transform_point (quat_identity (T := R)) (0, 0, 1)) with ((0, 0, 1) : point). 2: { unfold inverse_transform_point, quat_identity, conjugate. cbn [qw qx qy qz]. rnum. rewrite transform_explicit. apply point_eq; ring. }
    unfold inner. replace (0 * 0 + 0 * 1 + 1 * - 0) with 0 by ring. apply acos_0.
  - split; [lra|]. split; [pose proof PI2_1; unfold Rdiv; cbn [Z.pow Z.pow_pos Pos.iter Z.mul Pos.mul]; split; lra|].
    split; [exists 1; split; [lra|]; rewrite IT; unfold multiple; apply point_eq; ring|]. exists 3, 4. split; [lra|]. unfold together, multiple. transitivity (inverse_transform_point q (3, 0, 4)); [rewrite IT; apply point_eq; ring|]. f_equal. apply point_eq; ring.
Qed.
Print Assumptions C137_refused.
Print Assumptions C137_history.
Print Assumptions C137_references.
Print Assumptions C137_tracks.
Print Assumptions C137_mahony_levels.
Print Assumptions C137_madgwick_levels.
Print Assumptions C137_heading_partial.
Print Assumptions C137_heading_refuted.
