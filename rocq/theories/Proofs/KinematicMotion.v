(** What each kind of joint does to its frame, and how fast. *)
From Coq Require Import ZArith List Bool Arith Reals Lra Lia.
From Coquelicot Require Import Coquelicot.
From Verif Require Import Base.Scalar Base.RNum Base.Lists Model.Errors Model.Vector Model.Matrix Model.Quaternion Model.Lie Model.Drive Model.KinematicTree
  Spec.Matrix Spec.Rotation Spec.Quaternion Spec.Space Spec.KinematicTree Proofs.Quaternion Proofs.Slerp Proofs.Space Proofs.FrameMotion Proofs.KinematicTree.
Import ListNotations.
Local Open Scope R_scope.
Local Notation cos := Rtrigo_def.cos.
Local Notation sin := Rtrigo_def.sin.
Local Notation sqrt := R_sqrt.sqrt.
Local Notation length := Spec.Rotation.length.

Lemma tiny_pos : 0 < 30 / IZR (2^52).
Proof. apply Rdiv_lt_0_compat; [lra|]. apply IZR_lt. reflexivity. Qed.
Lemma small_angle_R : small_angle (T := R) = 30 / IZR (2^52).
Proof. reflexivity. Qed.
Lemma scaled_inner n d : inner n n = 1 -> inner (multiple d n) (multiple d n) = d * d.
Proof. intros U. rewrite inner_multiple_l, inner_multiple_r, U. ring. Qed.
(** The rotation of a turn by [d] about [n], in both branches *)
Lemma turn_large n d : inner n n = 1 -> 30 / IZR (2^52) <= Rabs d -> from_scaled_axis (scale3 n d) = from_scalar_vector (cos (d / 2)) (multiple (sin (d / 2)) n).
Proof.
  intros U H. pose proof tiny_pos as TP. rewrite scale3_R. unfold from_scaled_axis. rewrite dot3_R, (scaled_inner n d U). unfold small_angle_sq. rewrite small_angle_R. rnum.
  rewrite (proj2 (Rltb_false (d * d) _)).
  2: { replace (d * d) with (Rabs d * Rabs d) by (rewrite <- Rabs_mult; apply Rabs_pos_eq; nra). apply Rmult_le_compat; lra. }
  replace (sqrt (d * d)) with (Rabs d) by (symmetry; apply (sqrt_Rsqr_abs d)). unfold half. rnum.
  assert (NZ : d <> 0) by (intros ->; rewrite Rabs_R0 in H; lra).
  assert (C : cos (Rabs d * / 2) = cos (d / 2) /\ sin (Rabs d * / 2) / Rabs d * d = sin (d / 2)).
  { unfold Rabs. destruct (Rcase_abs d).
    - replace (- d * / 2) with (- (d / 2)) by field. rewrite cos_neg, sin_neg. split; [reflexivity|field; exact NZ].
    - replace (d * / 2) with (d / 2) by field. split; [reflexivity|field; exact NZ]. }
  destruct C as [C1 C2]. destruct n as [[x y] z]. unfold multiple, from_scalar_vector. apply quat_eq; cbn [qw qx qy qz]; [exact C1| | |]; rewrite <- C2; ring.
Qed.
Lemma turn_small n d : inner n n = 1 -> Rabs d < 30 / IZR (2^52) -> from_scaled_axis (scale3 n d) = from_scalar_vector (1 - d * d / 8) (multiple (d * (1 / 2 - d * d / 48)) n).
Proof.
  intros U H. pose proof (Rabs_pos d) as AP. rewrite scale3_R. unfold from_scaled_axis. rewrite dot3_R, (scaled_inner n d U). unfold small_angle_sq. rewrite small_angle_R. rnum.
  rewrite (proj2 (Rltb_true (d * d) _)).
  2: { replace (d * d) with (Rabs d * Rabs d) by (rewrite <- Rabs_mult; apply Rabs_pos_eq; nra). apply Rmult_le_0_lt_compat; lra. }
  unfold half, of_ratio. rnum. destruct n as [[x y] z]. unfold multiple, from_scalar_vector. apply quat_eq; cbn [qw qx qy qz]; field.
Qed.
Lemma turn_plain n d : inner n n = 1 -> d = 0 \/ 30 / IZR (2^52) <= Rabs d -> from_scaled_axis (scale3 n d) = from_scalar_vector (cos (d / 2)) (multiple (sin (d / 2)) n).
Proof.
  intros U [->|H]; [|apply turn_large; assumption]. rewrite turn_small by (try exact U; rewrite Rabs_R0; apply tiny_pos).
  replace (0 / 2) with 0 by field. rewrite cos_0, sin_0. destruct n as [[x y] z]. unfold multiple, from_scalar_vector. apply quat_eq; cbn [qw qx qy qz]; field.
Qed.
(** Turning about [n] leaves [n] where it is. *)
Lemma turn_axis c s n : inner n n = 1 -> c * c + s * s = 1 -> transform_point (from_scalar_vector c (multiple s n)) n = n.
Proof.
  intros U Q. rewrite transform_vector. rewrite inner_multiple_l, inner_multiple_r, inner_multiple_l, U. destruct n as [[x y] z]. unfold together, multiple, outer, inner in *. apply point_eq.
  - transitivity ((c * c + s * s) * x); [ring|rewrite Q; ring].
  - transitivity ((c * c + s * s) * y); [ring|rewrite Q; ring].
  - transitivity ((c * c + s * s) * z); [ring|rewrite Q; ring].
Qed.

(** ** The motion of a turning joint *)
Definition turn_motion (n a : point) (d : R) : se3 R := SE3 (so3_exp (scale3 n d)) (sub3 a (so3_act (so3_exp (scale3 n d)) a)).
Lemma turn_motion_unit n a d : inner n n = 1 -> d = 0 \/ 30 / IZR (2^52) <= Rabs d -> unit_se3 (turn_motion n a d).
Proof. intros U H. unfold unit_se3, turn_motion. cbn [se3_rotation]. unfold so3_exp. rewrite turn_plain by assumption. apply turn_unit, U. Qed.
Lemma turn_motion_acts n a d p : inner n n = 1 -> d = 0 \/ 30 / IZR (2^52) <= Rabs d -> se3_act (turn_motion n a d) p = together a (turned n d (together p (multiple (-1) a))).
Proof.
  intros U H. unfold se3_act, turn_motion, so3_act, so3_exp. cbn [se3_rotation se3_translation]. rewrite add3_R, sub3_R, turn_plain by assumption. rewrite <- (turn_quaternion n d _ U).
  set (q := from_scalar_vector _ _). rewrite transform_together, transform_multiple'. destruct (transform_point q p) as [[? ?] ?], (transform_point q a) as [[? ?] ?]. flat.
Qed.
Lemma near_large (d : R -> R) t : continuous d t -> 30 / IZR (2^52) < Rabs (d t) -> locally t (fun s => 30 / IZR (2^52) <= Rabs (d s)).
Proof.
  intros C H. assert (L : locally (d t) (fun y => 30 / IZR (2^52) < Rabs y)).
  { exists (mkposreal (Rabs (d t) - 30 / IZR (2^52)) ltac:(lra)). intros y Y. unfold ball, AbsRing_ball, abs, minus, plus, opp in Y. cbn in Y. unfold AbsRing_ball, abs, minus, plus, opp in Y. cbn in Y.
    pose proof (Rabs_triang_inv (d t) y) as T. rewrite Rabs_minus_sym in T. unfold Rminus in T. lra. }
  specialize (C _ L). unfold filtermap in C. eapply filter_imp; [|exact C]. intros s. cbv beta. lra.
Qed.
Lemma near_small (d : R -> R) t : continuous d t -> d t = 0 -> locally t (fun s => Rabs (d s) < 30 / IZR (2^52)).
Proof.
  intros C H. assert (L : locally (d t) (fun y => Rabs y < 30 / IZR (2^52))).
  { exists (mkposreal _ tiny_pos). intros y Y. rewrite H in Y. unfold ball, AbsRing_ball, abs, minus, plus, opp in Y. cbn in Y. unfold AbsRing_ball, abs, minus, plus, opp in Y. cbn in Y. rewrite Ropp_0, Rplus_0_r in Y. exact Y. }
  exact (C _ L).
Qed.
Lemma turn_spins n d t r : inner n n = 1 -> is_derive d t r -> d t = 0 \/ 30 / IZR (2^52) < Rabs (d t) -> spins (fun s => from_scaled_axis (scale3 n (d s))) t (multiple r n).
Proof.
  intros U D H. assert (CT : continuous d t) by (apply (ex_derive_continuous (V := R_NormedModule)); exists r; exact D).
  assert (V : from_scaled_axis (scale3 n (d t)) = from_scalar_vector (cos (d t / 2)) (multiple (sin (d t / 2)) n)) by (apply turn_plain; [exact U|destruct H; [left; assumption|right; lra]]).
  unfold spins. rewrite V.
  assert (Q : quat_scale (quat_mul (from_scalar_vector 0 (multiple r n)) (from_scalar_vector (cos (d t / 2)) (multiple (sin (d t / 2)) n))) (/ 2) =
    from_scalar_vector (- (r / 2) * sin (d t / 2)) (multiple (r / 2 * cos (d t / 2)) n)).
  { destruct n as [[x y] z]. unfold inner in U. unfold quat_scale, quat_mul, from_scalar_vector, multiple. cbn [qw qx qy qz]. rnum. apply quat_eq; cbn [qw qx qy qz]; try field.
    transitivity (- (r / 2) * sin (d t / 2) * (x * x + y * y + z * z)); [field|rewrite U; ring]. }
  rewrite Q.
  assert (K : exists c s : R -> R, is_derive c t (- (r / 2) * sin (d t / 2)) /\ is_derive s t (r / 2 * cos (d t / 2)) /\ locally t (fun u => from_scaled_axis (scale3 n (d u)) = from_scalar_vector (c u) (multiple (s u) n))).
  { destruct H as [Z|L].
    - exists (fun u => 1 - d u * d u / 8), (fun u => d u * (1 / 2 - d u * d u / 48)). rewrite Z. replace (0 / 2) with 0 by field. rewrite sin_0, cos_0. split; [|split].
      + eapply dto; [apply (dminus (fun _ => 1) (fun u => d u * d u / 8)); [apply dconst|]; apply (dmul (fun u => d u * d u) (fun _ => / 8)); [apply (dmul d d); exact D|apply dconst]|]. cbv beta. rewrite Z. ring.
      + eapply dto; [apply (dmul d (fun u => 1 / 2 - d u * d u / 48)); [exact D|]; apply (dminus (fun _ => 1 / 2) (fun u => d u * d u / 48)); [apply dconst|]; apply (dmul (fun u => d u * d u) (fun _ => / 48)); [apply (dmul d d); exact D|apply dconst]|]. cbv beta. rewrite Z. field.
      + eapply filter_imp; [|exact (near_small d t CT Z)]. intros u HU. apply turn_small; assumption.
    - exists (fun u => cos (d u / 2)), (fun u => sin (d u / 2)).
      assert (DH : is_derive (fun u => d u / 2) t (r / 2)) by (eapply dto; [apply (dmul d (fun _ => / 2)); [exact D|apply dconst]|cbv beta; field]).
      split; [|split].
      + eapply dto; [apply (is_derive_comp cos (fun u => d u / 2)); [apply is_derive_cos|exact DH]|]. unfold scal. cbn. unfold mult. cbn. ring.
      + eapply dto; [apply (is_derive_comp sin (fun u => d u / 2)); [apply is_derive_sin|exact DH]|]. unfold scal. cbn. unfold mult. cbn. ring.
      + eapply filter_imp; [|exact (near_large d t CT L)]. intros u HU. apply turn_large; assumption. }
  destruct K as (c & s & DC & DS & LO). destruct n as [[x y] z]. cbn [from_scalar_vector multiple] in *. unfold quat_changes. cbn [qw qx qy qz].
  assert (LO' : locally t (fun u => Quat (c u) (s u * x) (s u * y) (s u * z) = from_scaled_axis (scale3 (x, y, z) (d u)))) by (eapply filter_imp; [|exact LO]; intros u E; symmetry; exact E).
  assert (M : forall k, is_derive (fun u => s u * k) t (r / 2 * cos (d t / 2) * k)) by (intros k; eapply dto; [apply (dmul s (fun _ => k)); [exact DS|apply dconst]|cbv beta; ring]).
  split; [|split; [|split]].
  - exact (loc_ext (qw (T := R)) _ _ t _ LO' DC).
  - exact (loc_ext (qx (T := R)) _ _ t _ LO' (M x)).
  - exact (loc_ext (qy (T := R)) _ _ t _ LO' (M y)).
  - exact (loc_ext (qz (T := R)) _ _ t _ LO' (M z)).
Qed.
Lemma point_changes_const a t : point_changes (fun _ => a) t (0, 0, 0).
Proof. unfold point_changes. cbn [fst snd]. split; [apply dconst|split; apply dconst]. Qed.
Lemma point_changes_scale k p t d : point_changes p t d -> point_changes (fun s => multiple k (p s)) t (multiple k d).
Proof.
  intros (A & B & C). assert (G : forall u : point, fst (fst (multiple k u)) = k * fst (fst u) /\ snd (fst (multiple k u)) = k * snd (fst u) /\ snd (multiple k u) = k * snd u) by (intros [[? ?] ?]; auto).
  destruct (G d) as (E1 & E2 & E3). unfold point_changes. rewrite E1, E2, E3. split; [|split]; (eapply is_derive_ext; [intros s; symmetry; apply (G (p s))|]); apply is_derive_scal; assumption.
Qed.
Lemma turn_moving n a d t r : inner n n = 1 -> is_derive d t r -> d t = 0 \/ 30 / IZR (2^52) < Rabs (d t) ->
  moving (fun s => turn_motion n a (d s)) t (multiple (-1) (outer (multiple r n) (transform_point (se3_rotation (turn_motion n a (d t))) a))) (multiple r n).
Proof.
  intros U D H. pose proof (turn_spins n d t r U D H) as S. split; [apply turn_motion_unit; [exact U|destruct H; [left; assumption|right; lra]]|]. split; [exact S|].
  cbn [turn_motion se3_translation se3_rotation]. eapply point_changes_ext; [intros s; symmetry; apply sub3_R|].
  pose proof (point_changes_add _ _ _ _ _ (point_changes_const a t) (point_changes_scale (-1) _ _ _ (spins_transform _ (fun _ => a) t _ (0, 0, 0) S (point_changes_const a t)))) as P.
  rewrite transform_zero, together_zero, together_comm, together_zero in P. exact P.
Qed.
Definition slide_motion (n : point) (d : R) : se3 R := SE3 so3_identity (scale3 n d).
Lemma slide_moving n d t r : is_derive d t r -> moving (fun s => slide_motion n (d s)) t (multiple r n) (0, 0, 0).
Proof.
  intros D. split; [apply unit_identity|]. split.
  - exact (proj1 (proj2 (moving_const (SE3 so3_identity (0, 0, 0)) t unit_identity))).
  - cbn [slide_motion se3_translation]. eapply point_changes_ext; [intros s; symmetry; apply scale3_R|]. destruct n as [[x y] z]. unfold point_changes, multiple. cbn [fst snd].
    split; [|split]; (eapply dto; [apply (dmul d (fun _ => _)); [exact D|apply dconst]|cbv beta; ring]).
Qed.
Lemma slide_acts n d p : se3_act (slide_motion n d) p = together p (multiple d n).
Proof. unfold se3_act, slide_motion, so3_act, so3_identity. cbn [se3_rotation se3_translation]. rewrite add3_R, scale3_R, transform_identity. reflexivity. Qed.

(** ** The motion of a floating joint *)
Definition float_motion (x : point) (q : quaternion R) : se3 R := SE3 (quat_scale q (/ quat_norm q)) x.
Lemma scaled_unit q : 0 < quat_norm q -> unit_quaternion (quat_scale q (/ quat_norm q)).
Proof. intros H. apply unit_is. rewrite norm_scale, <- quat_norm_sqr. field. lra. Qed.
Lemma float_moving x q t v w : point_changes x t v -> quat_changes q t (quat_scale (quat_mul (q t) (from_scalar_vector 0 w)) (/ 2)) -> 0 < quat_norm (q t) ->
  moving (fun s => float_motion (x s) (q s)) t v (transform_point (quat_scale (q t) (/ quat_norm (q t))) w).
Proof.
  intros X Q N. assert (U := scaled_unit _ N). split; [exact U|]. cbn [float_motion se3_rotation se3_translation]. split; [|exact X].
  unfold spins. set (u := quat_scale (q t) (/ quat_norm (q t))) in *.
  replace (quat_mul (from_scalar_vector 0 (transform_point u w)) u) with (quat_mul u (from_scalar_vector 0 w)).
  2: { rewrite <- sandwich, mul_assoc, (proj2 (conjugate_inverse _ U)), mul_identity_r. reflexivity. }
  assert (NS : 0 < quat_norm_squared (q t)) by (rewrite <- quat_norm_sqr; nra).
  assert (D : is_derive (fun s => / quat_norm (q s)) t 0).
  { assert (G : is_derive (fun s => quat_norm_squared (q s)) t 0).
    { destruct Q as (Q1 & Q2 & Q3 & Q4). unfold quat_norm_squared. rnum. eapply dto; [derive|]. destruct (q t) as [a b c d], w as [[w1 w2] w3]. unfold quat_scale, quat_mul, from_scalar_vector. cbn [qw qx qy qz]. rnum. field. }
    assert (E : exists D, is_derive (fun y => / sqrt y) (quat_norm_squared (q t)) D).
    { eexists. auto_derive; [|reflexivity]. split; [exact NS|split; [|exact I]]. apply Rgt_not_eq, sqrt_lt_R0, NS. }
    destruct E as (D & E). eapply dto; [apply (is_derive_comp (fun y => / sqrt y) (fun s => quat_norm_squared (q s))); [exact E|exact G]|]. unfold scal. cbn. unfold mult. cbn. ring. }
  assert (M : forall (f : R -> R) df, is_derive f t df -> is_derive (fun s => f s * / quat_norm (q s)) t (df * / quat_norm (q t))).
  { intros f df F. eapply dto; [apply (dmul f (fun s => / quat_norm (q s))); [exact F|exact D]|cbv beta; ring]. }
  assert (E : quat_scale (quat_mul u (from_scalar_vector 0 w)) (/ 2) = quat_scale (quat_scale (quat_mul (q t) (from_scalar_vector 0 w)) (/ 2)) (/ quat_norm (q t))).
  { unfold u. generalize (/ quat_norm (q t)). intros k. destruct (q t) as [a b c d], w as [[w1 w2] w3]. unfold quat_scale, quat_mul, from_scalar_vector. cbn [qw qx qy qz]. rnum. apply quat_eq; cbn [qw qx qy qz]; ring. }
  rewrite E. destruct Q as (Q1 & Q2 & Q3 & Q4). unfold quat_changes. cbn [quat_scale qw qx qy qz]. rnum. split; [|split; [|split]]; apply M; assumption.
Qed.

(** ** The model's motion of a joint, over the reals *)
Definition floating_quaternion (q : list R) (off : nat) : quaternion R := Quat (nth (off + 3) q 0) (nth (off + 4) q 0) (nth (off + 5) q 0) (nth (off + 6) q 0).
Definition local_motion (q : list R) (off : nat) (j : joint R) : se3 R :=
  match jt_kind j with
  | Revolute | Continuous => turn_motion (jt_axis j) (jt_anchor j) (nth off q 0 - jt_zero_offset j)
  | Prismatic => slide_motion (jt_axis j) (nth off q 0 - jt_zero_offset j)
  | Fixed => se3_identity
  | Floating => float_motion (nth (off + 0) q 0, nth (off + 1) q 0, nth (off + 2) q 0) (floating_quaternion q off)
  end.
Lemma read_R (q : list R) i : (i < List.length q)%nat -> nth_error q i = Some (nth i q 0).
Proof. apply nth_error_nth'. Qed.
Lemma motion_R q off j : (off + readings_of j <= List.length q)%nat ->
  (has_orientation q off j -> joint_motion q off j = Ok (local_motion q off j)) /\ (~ has_orientation q off j -> joint_motion q off j = Err KiOrientationHasNoDirection).
Proof.
  unfold has_orientation, joint_motion, local_motion, readings_of. destruct (jt_kind j) eqn:K; intros L.
  1-3: rewrite (read_R q off) by lia; cbn [ok_or bind]; (split; [reflexivity|intros H; exfalso; apply H; discriminate]).
  - split; [reflexivity|intros H; exfalso; apply H; discriminate].
  - cbn [seq map]. rewrite !read_R by lia. unfold from_generalized_vectors, quat_from_array. fold (floating_quaternion q off). unfold quat_try_normalized. cbn [is_finite Rnum negb orb]. rnum.
    assert (EB : Rleb (quat_norm (floating_quaternion q off)) (/ IZR (2^52)) = true <-> ~ 1 / IZR (2^52) < quat_norm (floating_quaternion q off)).
    { rewrite Rleb_true. unfold Rdiv. rewrite Rmult_1_l. split; lra. }
    destruct (Rleb _ _) eqn:E; cbn [ok_or bind].
    + split; [intros H; exfalso; apply EB; auto|reflexivity].
    + split; [|].
      { intros H. unfold so3_from_quaternion. cbn [fj_pose]. rewrite normalized_unit; [rewrite Nat.add_0_r; reflexivity|]. apply scaled_unit. specialize (H eq_refl). eapply Rlt_trans; [|exact H]. apply Rdiv_lt_0_compat; [lra|apply IZR_lt; reflexivity]. }
      intros H. exfalso. apply H. intros _. destruct (Rlt_dec (1 / IZR (2^52)) (quat_norm (floating_quaternion q off))) as [G|G]; [exact G|]. apply EB in G. congruence.
Qed.
Definition needs_axis (j : joint R) : Prop := jt_kind j = Revolute \/ jt_kind j = Prismatic \/ jt_kind j = Continuous.
Lemma orientation_pos q off j : has_orientation q off j -> jt_kind j = Floating -> 0 < quat_norm (floating_quaternion q off).
Proof. intros H K. specialize (H K). fold (floating_quaternion q off) in H. eapply Rlt_trans; [|exact H]. apply Rdiv_lt_0_compat; [lra|apply IZR_lt; reflexivity]. Qed.
Lemma local_moves q off j p : (needs_axis j -> inner (jt_axis j) (jt_axis j) = 1) -> has_orientation q off j -> plain_turn q off j ->
  unit_se3 (local_motion q off j) /\ se3_act (local_motion q off j) p = joint_moves q off j p.
Proof.
  unfold needs_axis, plain_turn, joint_moves, local_motion. intros U O H. pose proof (orientation_pos q off j O) as OP.
  assert (D : nth off q 0 = jt_zero_offset j \/ 30 / IZR (2^52) <= Rabs (nth off q 0 - jt_zero_offset j) -> nth off q 0 - jt_zero_offset j = 0 \/ 30 / IZR (2^52) <= Rabs (nth off q 0 - jt_zero_offset j)) by (intros [E|E]; [left; lra|right; exact E]).
  destruct (jt_kind j) eqn:K; rewrite ?Nat.add_0_r.
  - split; [apply turn_motion_unit; auto|apply turn_motion_acts; auto].
  - split; [apply unit_identity|apply slide_acts].
  - split; [apply turn_motion_unit; auto|apply turn_motion_acts; auto].
  - split; [apply unit_identity|]. unfold se3_act, se3_identity, so3_act, so3_identity, zeros3. cbn [se3_rotation se3_translation]. rewrite add3_R, transform_identity. apply together_zero.
  - split; [apply scaled_unit, OP; reflexivity|]. unfold se3_act, float_motion, so3_act. cbn [se3_rotation se3_translation]. rewrite add3_R, together_comm. reflexivity.
Qed.
(** Stored axes have length one. *)
Lemma built_axes mj mc (t : tree R) : built mj mc t -> forall i j, nth_error (tr_joints t) i = Some j -> needs_axis j -> inner (jt_axis j) (jt_axis j) = 1.
Proof.
  induction 1 as [|t j parent t' B IH P]; [intros [|i] j; discriminate|]. intros i j'. destruct (push_cases mj mc j parent t) as [[F E]|[_ (e & E)]]; rewrite P in E; [|discriminate]. injection E as ->. cbn [tr_joints]. rewrite nth_error_snoc.
  destruct (Nat.eqb_spec i (List.length (tr_joints t))) as [_|_]; [|apply IH]. intros [= <-]. destruct F as (_ & _ & _ & _ & _ & F & _). unfold needs_axis. rewrite stored_kind. intros K. specialize (F K). unfold as_stored.
  rewrite try_normalized3_R in *. destruct (Req_EM_T (length (jt_axis j)) 0) as [Z|Z]; [congruence|]. assert (V := unit_of _ Z). destruct (jt_kind j); cbn [with_axis jt_axis]; try exact V; destruct K as [K|[K|K]]; discriminate.
Qed.
