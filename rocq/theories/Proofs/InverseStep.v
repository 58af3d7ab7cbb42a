(** More lemmas for C147, over the reals: how far a pass moves, and that a solve always answers. *)
From Coq Require Import ZArith List Bool Arith Reals Lra Lia.
From Verif Require Import Base.Scalar Base.RNum Base.Lists Base.Series Model.Errors Model.Vector Model.Matrix Model.Lu Model.Svd Model.Quaternion Model.Lie Model.Drive Model.Ode Model.KinematicTree Model.InverseKinematics
  Spec.Matrix Spec.Motion Spec.Rotation Spec.Quaternion Spec.Space Spec.KinematicTree Spec.InverseKinematics Proofs.Vector Proofs.Matrix Proofs.Svd Proofs.Algebra Proofs.Quaternion Proofs.Space Proofs.KinematicTree Proofs.KinematicMotion Proofs.KinematicJacobian Proofs.KinematicVelocity Proofs.InverseKinematics Props.AttitudeStep Proofs.Slerp Props.EstimationModels.
Import ListNotations.
Local Open Scope R_scope.
Local Notation length := List.length.

Lemma quotient_nonneg a b : 0 <= a -> 0 < b -> 0 <= a / b.
Proof. intros A C. apply Rmult_le_pos; [exact A|left; apply Rinv_0_lt_compat; exact C]. Qed.
Lemma norm_sum (u : list R) : norm u = R_sqrt.sqrt (bsum (length u) (fun k => nth k u 0 * nth k u 0)).
Proof. unfold norm, norm_squared. rnum. rewrite dot_sum by reflexivity. reflexivity. Qed.
Lemma limited_facts mj mc (t : tree R) st cap : built mj mc t -> length st = mc -> 0 <= cap ->
  let masked := fold_left (mask_joint st t) (seq 0 (tree_len t)) (vec_zeros mc) in
  length (limited_step mc st t cap) = mc /\ norm (limited_step mc st t cap) <= cap /\
  exists f, 0 <= f <= 1 /\ (norm masked <= cap -> f = 1) /\ (cap < norm masked -> f * norm masked = cap) /\ (forall k, nth k (limited_step mc st t cap) 0 = f * nth k masked 0).
Proof.
  intros B L C masked. assert (LM : length masked = mc) by (unfold masked; rewrite fold_length by (intros; apply mask_length); unfold vec_zeros; apply repeat_length).
  unfold limited_step. fold masked. rnum. destruct (Rltb cap (norm masked)) eqn:E1; rcases; cbn [andb].
  - destruct (Rltb 0 (norm masked)) eqn:E2; rcases; [|lra]. rewrite scale_length. split; [exact LM|]. split.
    + rewrite norm_sum, scale_length. erewrite bsum_ext by (intros k K; rewrite nth_scale; reflexivity).
      assert (S2 : bsum (length masked) (fun k => nth k masked 0 * (cap / norm masked) * (nth k masked 0 * (cap / norm masked))) = (cap / norm masked) ^ 2 * bsum (length masked) (fun k => nth k masked 0 * nth k masked 0)).
      { rewrite <- bsum_scal. apply bsum_ext. intros. ring. }
      rewrite S2, sqrt_mult_alt by (apply pow2_ge_0). rewrite <- norm_sum, sqrt_pow2 by (apply quotient_nonneg; lra). right. field. lra.
    + exists (cap / norm masked). split; [split; [apply quotient_nonneg; lra|apply Rmult_le_reg_r with (norm masked); [lra|]; unfold Rdiv; rewrite Rmult_assoc, Rinv_l; lra]|]. split; [lra|]. split; [intros _; field; lra|]. intros k. rewrite nth_scale. ring.
  - split; [exact LM|]. split; [lra|]. exists 1. split; [lra|]. split; [reflexivity|]. split; [lra|]. intros. ring.
Qed.

Lemma distance_triangle (x y z : list R) : length x = length y -> distance_between x z <= distance_between x y + distance_between y z.
Proof.
  intros L. unfold distance_between. rewrite <- L. set (n := length x). set (a := fun k => nth k x 0 - nth k y 0). set (b := fun k => nth k y 0 - nth k z 0).
  assert (SQ : forall f, bsum n (fun i => f i ^ 2) = square_norm n f) by (intros f; unfold square_norm, dot_product; apply bsum_ext; intros; ring).
  assert (EXP : bsum n (fun i => (nth i x 0 - nth i z 0) ^ 2) = square_norm n a + 2 * dot_product n a b + square_norm n b).
  { unfold square_norm, dot_product. rewrite <- bsum_scal, <- !bsum_plus. apply bsum_ext. intros i I. unfold a, b. ring. }
  rewrite EXP. change (bsum n (fun i => (nth i x 0 - nth i y 0) ^ 2)) with (bsum n (fun i => a i ^ 2)). change (bsum n (fun i => (nth i y 0 - nth i z 0) ^ 2)) with (bsum n (fun i => b i ^ 2)). rewrite !SQ.
  pose proof (square_norm_nonneg n a) as PA. pose proof (square_norm_nonneg n b) as PB. pose proof (cauchy_square n a b) as C.
  pose proof (R_sqrt.sqrt_pos (square_norm n a)). pose proof (R_sqrt.sqrt_pos (square_norm n b)).
  pose proof (R_sqrt.sqrt_sqrt _ PA) as SA. pose proof (R_sqrt.sqrt_sqrt _ PB) as SB.
  assert (D : dot_product n a b <= R_sqrt.sqrt (square_norm n a) * R_sqrt.sqrt (square_norm n b)).
  { destruct (Rle_lt_dec (dot_product n a b) 0) as [N|N]; [apply Rle_trans with 0; [exact N|apply Rmult_le_pos; auto]|]. apply Rsqr_incr_0_var; [unfold Rsqr|apply Rmult_le_pos; auto]. 
    replace (R_sqrt.sqrt (square_norm n a) * R_sqrt.sqrt (square_norm n b) * (R_sqrt.sqrt (square_norm n a) * R_sqrt.sqrt (square_norm n b))) with (R_sqrt.sqrt (square_norm n a) * R_sqrt.sqrt (square_norm n a) * (R_sqrt.sqrt (square_norm n b) * R_sqrt.sqrt (square_norm n b))) by ring. rewrite SA, SB. exact C. }
  rewrite <- (R_sqrt.sqrt_square (R_sqrt.sqrt (square_norm n a) + R_sqrt.sqrt (square_norm n b))) by lra. apply R_sqrt.sqrt_le_1_alt. nra.
Qed.

Section Pass.
  Variables (mj mc : nat) (t : tree R).
  Hypothesis B : built mj mc t.
  Lemma plain_offsets : no_floating t -> forall k, (k < tree_len t)%nat -> exists j, tree_joint t k = Some j /\ config_offset t k = Some k /\ velocity_offset t k = Some k.
  Proof.
    intros NF k K. destruct (tree_joint t k) as [j|] eqn:J; [|apply nth_error_None in J; unfold tree_len in K; lia]. exists j. split; [reflexivity|].
    assert (F : has_floating_base t = false). { destruct (has_floating_base t) eqn:F; [|reflexivity]. destruct (tree_joint t 0) as [j0|] eqn:J0; [|apply nth_error_None in J0; unfold tree_len in K; lia]. exfalso. apply (NF 0%nat j0 J0). apply (first_floating t j0 J0 F). }
    unfold config_offset, velocity_offset. rewrite F, (proj2 (Nat.leb_gt _ _) K). auto.
  Qed.
  Lemma next_close s q st : no_floating t -> length q = mc -> length st = mc -> (ik_respect_limits s = true -> inside_limits t q) ->
    forall k, Rabs (nth k (next_configuration s t q st) 0 - nth k q 0) <= Rabs (nth k st 0).
  Proof.
    intros NF L LS IN k. unfold next_configuration. set (moved := fold_left _ _ q). assert (LM : length moved = mc) by (unfold moved; rewrite fold_length by apply move_joint_length; exact L).
    destruct (Nat.lt_ge_cases k (tree_len t)) as [K|K].
    - destruct (plain_offsets NF k K) as (j & J & A & V). assert (M : nth k moved 0 = nth k q 0 + nth k st 0) by (apply (move_slot mj mc t B k j k k q st q L LS J A V (NF k j J))).
      destruct (ik_respect_limits s) eqn:RL.
      + rewrite (hold_slot mj mc t B s k j k moved LM J A (NF k j J) RL). rewrite M. unfold clamped. destruct (jt_limits j) as [[lower upper]|] eqn:LL.
        * specialize (IN eq_refl k j k lower upper J A (NF k j J) LL). unfold Rmin, Rmax. repeat destruct (Rle_dec _ _); unfold Rabs; repeat destruct (Rcase_abs _); lra.
        * right. f_equal. ring.
      + unfold hold_inside_limits. rewrite RL. cbn [negb]. rewrite M. right. f_equal. ring.
    - assert (N1 : nth k moved 0 = nth k q 0).
      { apply (move_other t). intros i j a n J A N. destruct (offset_some t i j J) as (_ & _ & _ & _ & I). destruct (plain_offsets NF i I) as (j' & J' & A' & _). rewrite A' in A. injection A as <-. rewrite J in J'. injection J' as <-. pose proof (NF i j J). unfold readings_of in N. destruct (jt_kind j); try congruence; lia. }
      assert (N2 : nth k (hold_inside_limits s t moved) 0 = nth k moved 0).
      { unfold hold_inside_limits. destruct (ik_respect_limits s); [|reflexivity]. apply (hold_other t). intros i j a J A _ _. destruct (offset_some t i j J) as (_ & _ & _ & _ & I). destruct (plain_offsets NF i I) as (j' & _ & A' & _). rewrite A' in A. injection A as <-. lia. }
      rewrite N2, N1, Rminus_diag_eq, Rabs_R0 by reflexivity. apply Rabs_pos.
  Qed.
  Lemma next_distance s q st cap : no_floating t -> length q = mc -> length st = mc -> (ik_respect_limits s = true -> inside_limits t q) -> norm st <= cap -> distance_between q (next_configuration s t q st) <= cap.
  Proof.
    intros NF L LS IN N. eapply Rle_trans; [|exact N]. rewrite norm_sum. unfold distance_between. rewrite L, LS. apply sqrt_le_1_alt. apply bsum_le. intros k K. pose proof (next_close s q st NF L LS IN k) as H.
    rewrite <- (Rabs_pos_eq (_ ^ 2)) by apply pow2_ge_0. rewrite <- RPow_abs. rewrite Rabs_minus_sym. rewrite <- (Rabs_pos_eq (nth k st 0 * nth k st 0)) by nra. rewrite Rabs_mult. pose proof (Rabs_pos (nth k (next_configuration s t q st) 0 - nth k q 0)). nra.
  Qed.

  (** *** Answers *)
  Lemma joint_step_ok j error bias weights threshold damping : check_weights weights (seq 0 (kj_columns j)) = Ok tt -> length bias = mc ->
    exists st, joint_step mc j error bias weights threshold damping = Ok st /\ length st = mc.
  Proof.
    intros W LB. unfold joint_step, weighted_transpose. rewrite W. cbn [bind]. set (w := mat_fn mc 6 _). set (base := mat_mul 6 mc 6 _ w).
    assert (OK : forall m : mat R, exists d, linalg (svd_of 6 6 m) = Ok d). { intros m. unfold svd_of. cbn [Nat.ltb Nat.leb]. replace (mat_is_finite m) with true by (symmetry; apply forallb_forall; reflexivity). cbn [negb linalg]. eauto. }
    destruct (OK base) as [d ->]. cbn [bind]. destruct (OK (mat_add base (mat_scale 6 6 (identity 6) (damping_squared (smallest_of d) threshold damping)))) as [d' ->]. cbn [bind]. eexists. split; [reflexivity|].
    assert (LV : forall v : list R, length (mat_vec mc 6 w v) = mc) by (intros; unfold mat_vec; apply from_fn_length). rewrite add_length; rewrite ?sub_length; rewrite ?LV; auto.
  Qed.
  Lemma bias_length objective q gain : length (secondary_bias mc objective t q gain) = mc.
  Proof.
    unfold secondary_bias. destruct objective; [apply repeat_length| |]; rewrite fold_length; try apply repeat_length; intros v m; unfold bias_joint;
      repeat match goal with |- context [match ?x with _ => _ end] => destruct x end; auto using set_nth_length.
  Qed.

  (** The wish *)
  Lemma bias_slot objective gain q i j a b n : length q = mc -> tree_joint t i = Some j -> config_offset t i = Some a -> velocity_offset t i = Some b -> (n < rates_of j)%nat -> jt_kind j <> Floating ->
    wished_rate objective j a q gain (nth (b + n) (secondary_bias mc objective t q gain) 0).
  Proof.
    intros L J A V N NFL. assert (n = 0)%nat as -> by (unfold rates_of in N; destruct (jt_kind j); try lia; congruence). rewrite Nat.add_0_r.
    assert (NZ : nth b (vec_zeros (T := R) mc) 0 = 0) by (unfold vec_zeros; apply nth_repeat).
    destruct (offset_some t i j J) as (_ & _ & _ & _ & I). destruct (config_room mj mc t i j a B J A) as [RO1 RO2]. destruct (velocity_room mj mc t i j b B J V) as [RV1 RV2].
    assert (LB : forall v m, length (bias_joint objective t q gain v m) = length v).
    { intros v m. unfold bias_joint. repeat match goal with |- context [match ?x with _ => _ end] => destruct x end; auto using set_nth_length. }
    assert (OTH : forall v m, (m < tree_len t)%nat -> m <> i -> nth b (bias_joint objective t q gain v m) 0 = nth b v 0).
    { intros v m M NE. unfold bias_joint. destruct (tree_joint t m) as [j'|] eqn:J'; [|reflexivity]. destruct (config_offset t m) as [a'|] eqn:A'; [|reflexivity]. destruct (velocity_offset t m) as [b'|] eqn:V'; [|reflexivity].
      assert (BB : b' <> b). { pose proof (velocity_apart mj mc t m j' b' i j b 0 0 B J' V' J V) as H. rewrite !Nat.add_0_r in H. apply H; auto; unfold rates_of; match goal with |- context [jt_kind ?x] => destruct (jt_kind x) end; lia. }
      repeat match goal with |- context [match ?x with _ => _ end] => destruct x end; try reflexivity; apply nth_set_nth_neq; exact BB. }
    assert (MINE : objective <> NoObjective -> exists v, length v = mc /\ nth b v 0 = 0 /\ nth b (secondary_bias mc objective t q gain) 0 = nth b (bias_joint objective t q gain v i) 0).
    { intros NO. unfold secondary_bias. exists (fold_left (bias_joint objective t q gain) (seq 0 i) (vec_zeros mc)). split; [rewrite fold_length by exact LB; unfold vec_zeros; apply repeat_length|].
      split; [rewrite fold_keeps; [exact NZ|]; intros v m M; apply in_seq in M; apply OTH; lia|].
      transitivity (nth b (fold_left (bias_joint objective t q gain) (seq 0 (tree_len t)) (vec_zeros mc)) 0); [destruct objective; [contradiction|reflexivity|reflexivity]|].
      replace (tree_len t) with (i + (1 + (tree_len t - i - 1)))%nat by lia. rewrite !seq_app, !fold_left_app. cbn [seq fold_left]. rewrite fold_keeps; [reflexivity|]. intros v m M. apply in_seq in M. apply OTH; lia. }
    assert (RR : readings_of j = 1%nat) by (unfold readings_of; destruct (jt_kind j); try reflexivity; congruence).
    assert (RT : rates_of j = 1%nat) by (unfold rates_of; destruct (jt_kind j); try reflexivity; congruence).
    unfold wished_rate. cbv zeta. destruct objective as [|reference|].
    - destruct (_ || _); exact NZ.
    - destruct (MINE ltac:(discriminate)) as (v & LV & VZ & ->). unfold bias_joint. rewrite J, A, V. destruct (_ || _); [exact VZ|]. rewrite (nth_error_nth' q 0) by lia. destruct (nth_error reference a) as [preferred|]; [|exact VZ].
      destruct (kind_eqb (jt_kind j) Continuous); rewrite nth_set_nth_eq by lia; rnum; [|reflexivity]. destruct (C134_wrap (preferred - nth a q 0)) as (z & E & BD). exists z. rewrite E in *. split; [exact BD|reflexivity].
    - destruct (MINE ltac:(discriminate)) as (v & LV & VZ & ->). unfold bias_joint. rewrite J, A, V. destruct (_ || _); [exact VZ|]. rewrite (nth_error_nth' q 0) by lia. destruct (jt_limits j) as [[lower upper]|]; [|exact VZ].
      rnum. destruct (Rltb lower upper) eqn:E; rcases; (split; intros HL); try lra. rewrite nth_set_nth_eq by lia. reflexivity.
  Qed.

  (** A floating joint's seven numbers after a step *)
  Lemma moved_place q st a b j : has_orientation q a j -> jt_kind j = Floating ->
    let turned := attitude_step (quat_scale (floating_quaternion q a) (/ quat_norm (floating_quaternion q a))) (nth (b + 3) st 0, nth (b + 4) st 0, nth (b + 5) st 0) 1 in
    moved_free q st a b = Some [nth a q 0 + nth b st 0; nth (a + 1) q 0 + nth (b + 1) st 0; nth (a + 2) q 0 + nth (b + 2) st 0; qw turned; qx turned; qy turned; qz turned].
  Proof.
    intros H K turned. pose proof (orientation_pos q a j H K) as P. specialize (H K). fold (floating_quaternion q a) in H.
    unfold moved_free, place_of, from_generalized_vectors, quat_from_array. rnum. fold (floating_quaternion q a). unfold quat_try_normalized. cbn [is_finite Rnum negb orb]. rnum.
    replace (Rleb (quat_norm (floating_quaternion q a)) (/ IZR (2 ^ 52))) with false by (symmetry; apply Rleb_false; unfold Rdiv in H; rewrite Rmult_1_l in H; lra).
    cbn [fj_pose se3_rotation se3_translation]. unfold so3_from_quaternion. rewrite normalized_unit by (apply scaled_unit; exact P). fold turned. unfold add3. cbn. rnum. rewrite !Nat.add_0_r. reflexivity.
  Qed.
  Lemma turned_norm u (w : point) : unit_quaternion u -> 1 / 2 <= quat_norm (attitude_step u w 1).
  Proof.
    intros U. apply unit_is in U. rewrite step_R. assert (N : 1 / 4 <= quat_norm_squared (quat_mul u (from_scaled_axis (multiple 1 w)))).
    { rewrite norm_mul, (norm_squares u), U. pose proof (proj1 (exp_norm (multiple 1 w))). assert (0 < 30 / IZR (2 ^ 52) <= 1 / 2). { split; [apply Rdiv_lt_0_compat; [lra|apply IZR_lt; reflexivity]|]. apply Rmult_le_reg_r with (IZR (2 ^ 52)); [apply IZR_lt; reflexivity|]. unfold Rdiv. rewrite Rmult_assoc, Rinv_l by (apply not_0_IZR; discriminate). change (2 ^ 52)%Z with 4503599627370496%Z. lra. }
      assert ((30 / IZR (2 ^ 52)) ^ 4 <= (1 / 2) ^ 4) by (apply pow_incr; lra). lra. }
    rewrite <- quat_norm_sqr in N. assert (0 <= quat_norm (quat_mul u (from_scaled_axis (multiple 1 w)))) by apply R_sqrt.sqrt_pos. nra.
  Qed.
  Lemma move_floating i j a b q st k : length q = mc -> tree_joint t i = Some j -> config_offset t i = Some a -> velocity_offset t i = Some b -> jt_kind j = Floating -> has_orientation q a j -> (k < 7)%nat ->
    exists place, moved_free q st a b = Some place /\ nth (a + k) (fold_left (move_joint t q st) (seq 0 (tree_len t)) q) 0 = nth k place 0.
  Proof.
    intros L J A V K H KK. pose proof (moved_place q st a b j H K) as MP. cbv zeta in MP. eexists. split; [exact MP|]. set (place := [_; _; _; _; _; _; _]) in *.
    destruct (offset_some t i j J) as (_ & _ & _ & _ & I). assert (RM : readings_of j = 7%nat) by (unfold readings_of; rewrite K; reflexivity). destruct (config_room mj mc t i j a B J A) as [RO1 RO2]. rewrite RM in RO1.
    apply (fold_writes 0 (move_joint t q st) (tree_len t) (a + k) i (fun _ => nth k place 0) I (move_joint_length t q st)).
    - intros v' m M N. unfold move_joint. destruct (tree_joint t m) as [j'|] eqn:J'; [|reflexivity]. destruct (config_offset t m) as [a'|] eqn:A'; [|reflexivity]. destruct (velocity_offset t m) as [b'|] eqn:V'; [|reflexivity].
      destruct (kind_eqb (jt_kind j') Floating) eqn:K'.
      + apply kind_eqb_spec in K'. destruct (floating_first mj mc t m j' B J' K') as [-> _]. destruct (floating_first mj mc t i j B J K) as [-> _]. contradiction.
      + destruct (nth_error v' a'); [|reflexivity]. destruct (nth_error st b'); [|reflexivity]. apply nth_set_nth_neq. intros E.
        apply (config_apart mj mc t m j' a' i j a 0 k B J' A' J A); [|lia|exact N|lia]. unfold readings_of. destruct (jt_kind j'); lia.
    - intros v' L'. unfold move_joint. rewrite J, A, V, K. cbn [kind_eqb]. rewrite MP.
      apply (fold_writes 0 (fun next slot => set_nth next (a + slot) (nth slot place 0)) 7 (a + k) k (fun _ => nth k place 0) KK).
      + intros; apply set_nth_length.
      + intros w o O NE. apply nth_set_nth_neq. lia.
      + intros w LW. apply nth_set_nth_eq. lia.
  Qed.
  Lemma hold_free s v i j a k : tree_joint t i = Some j -> config_offset t i = Some a -> jt_kind j = Floating -> (k < 7)%nat -> nth (a + k) (hold_inside_limits s t v) 0 = nth (a + k) v 0.
  Proof.
    intros J A K KK. unfold hold_inside_limits. destruct (ik_respect_limits s); [|reflexivity]. cbn [negb]. apply (hold_other t). intros i' j' a' J' A' K' _ E.
    apply (config_apart mj mc t i' j' a' i j a 0 k B J' A' J A); [unfold readings_of; destruct (jt_kind j'); lia|unfold readings_of; rewrite K; exact KK| |lia]. intros ->. congruence.
  Qed.
  Lemma hold_oriented s v : oriented t v -> oriented t (hold_inside_limits s t v).
  Proof.
    intros O i j a J A K. unfold has_orientation in O. rewrite !(hold_free s v i j a) by (auto; lia). exact (O i j a J A K).
  Qed.
  Lemma next_oriented s q st : length q = mc -> oriented t q -> oriented t (next_configuration s t q st).
  Proof.
    intros L O. apply hold_oriented. intros i j a J A K. destruct (offset_some t i j J) as (_ & b & _ & V & _).
    pose proof (moved_place q st a b j (O i j a J A) K) as MP. cbv zeta in MP. set (turned := attitude_step _ _ _) in MP.
    assert (C : forall k, (k < 7)%nat -> nth (a + k) (fold_left (move_joint t q st) (seq 0 (tree_len t)) q) 0 = nth k [nth a q 0 + nth b st 0; nth (a + 1) q 0 + nth (b + 1) st 0; nth (a + 2) q 0 + nth (b + 2) st 0; qw turned; qx turned; qy turned; qz turned] 0).
    { intros k KK. destruct (move_floating i j a b q st k L J A V K (O i j a J A) KK) as (place & E & ->). rewrite MP in E. injection E as <-. reflexivity. }
    rewrite !C by lia. cbn [nth]. assert (1 / 2 <= quat_norm turned). { apply turned_norm. apply scaled_unit. apply (orientation_pos q a j (O i j a J A) K). }
    replace (Quat (qw turned) (qx turned) (qy turned) (qz turned)) with turned by (destruct turned; reflexivity). eapply Rlt_le_trans; [|eassumption].
    apply Rmult_lt_reg_r with (IZR (2 ^ 52)); [apply IZR_lt; reflexivity|]. unfold Rdiv. rewrite Rmult_assoc, Rinv_l by (apply not_0_IZR; discriminate). change (2 ^ 52)%Z with 4503599627370496%Z. lra.
  Qed.
  Lemma loop_answers s k target : (k < tree_len t)%nat -> check_weights (ik_joint_weights s) (seq 0 (velocity_len t)) = Ok tt ->
    forall remaining iterations q, length q = mc -> oriented t q -> exists ended, ik_loop mj mc s t k target remaining iterations q = Ok ended /\ match ended with inl r => True | inr q' => length q' = mc /\ oriented t q' end.
  Proof.
    intros K W. induction remaining as [|remaining IH]; intros iterations q L O; cbn [ik_loop]; [exists (inr q); auto|].
    destruct (proj1 (forward_R mj mc t q B L) O) as (poses & F & PL). unfold errors_at. rewrite F. cbn [bind].
    assert (LP : length poses = tree_len t) by apply PL. rewrite (nth_error_nth' poses se3_identity) by lia. cbn [ok_or bind]. destruct (split_error _) as [pe oe].
    destruct (Scalar.leb pe _ && _); [eexists; split; [reflexivity|exact I]|].
    unfold step_at. destruct (jacobian_spec mj mc t poses k BodyAxes B LP K) as (J & -> & CJ & _). cbn [bind]. rewrite <- CJ in W.
    destruct (joint_step_ok J (task_error (nth k poses se3_identity) target) _ (ik_joint_weights s) (ik_singular_value_threshold s) (ik_maximum_damping s) W (bias_length (ik_secondary_objective s) q (ik_secondary_gain s))) as (st & -> & LS). cbn [bind].
    destruct (Scalar.leb (norm _) _); [eexists; split; [reflexivity|exact I]|]. apply IH; [rewrite next_length; exact L|]. apply next_oriented; auto.
  Qed.
End Pass.
