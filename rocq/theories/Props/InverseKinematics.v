(** C147: damped least squares inverse kinematics. *)
From Coq Require Import ZArith List Bool Arith Reals Lra Lia.
From Verif Require Import Base.Scalar Base.RNum Base.Lists Base.Series Model.Errors Model.Vector Model.Matrix Model.Lu Model.Svd Model.Quaternion Model.Lie Model.Drive Model.Kalman Model.Ode Model.KinematicTree Model.InverseKinematics
  Spec.Matrix Spec.Motion Spec.Rotation Spec.Quaternion Spec.Space Spec.KinematicTree Spec.InverseKinematics Proofs.Vector Proofs.Matrix Proofs.Quaternion Proofs.Space Proofs.KinematicTree Proofs.KinematicMotion Proofs.KinematicJacobian Proofs.KinematicVelocity Proofs.InverseKinematics Proofs.InverseStep
  Props.EstimationModels Props.KinematicTree.
Import ListNotations.
Local Open Scope R_scope.
Local Notation length := List.length.

(** ** Any scalar *)
Section AnyScalar.
Context {T : Type} {NT : Num T}.
Implicit Types (t : tree T) (s : ik T).

(** What is wrong with the request is found before anything is worked out, and the first thing wrong is what is reported. *)
Theorem C147_refusal mj mc s t k target seed e : first_problem (request_problems s t k target seed) e -> ik_solve mj mc s t k target seed = Err e.
Proof.
  unfold request_problems, ik_solve. cbn [first_problem]. assert (WC := check_weights_cases (ik_joint_weights s) (velocity_len t) 0). cbn [Nat.add] in WC.
  intros [[H ->]|[N [[H ->]|[NF [[H ->]|[_ []]]]]]].
  - rewrite (proj2 (Nat.leb_le _ _) H). reflexivity.
  - rewrite (proj2 (Nat.leb_gt _ _)) by lia. rewrite (proj2 (request_finite target seed) H). reflexivity.
  - rewrite (proj2 (Nat.leb_gt _ _)) by lia. destruct (negb (vec_is_finite seed) || _) eqn:F; [exfalso; apply NF, request_finite, F|].
    destruct WC as [[A _]|[_ ->]]; [|reflexivity]. exfalso. destruct H as (i & I & H). destruct (A i ltac:(lia)) as (w & E & L). destruct H as [H|H]; [congruence|]. rewrite (nth_error_nth _ _ _ E) in H. congruence.
Qed.

(** What a report says of the run: the seed was brought inside the limits and led there by passes; the residuals are those of the answer;
    the solve is Converged at the first configuration within the tolerances and nowhere else, Stalled where the next pass would hardly move, and
    out of budget when every pass allowed was made. *)
Theorem C147_report mj mc s t k target seed r : ik_solve mj mc s t k target seed = Ok r -> (0 < ik_maximum_iterations s)%nat ->
  let answer := ik_joint_positions r in
  residuals mj t k target answer (ik_position_error r) (ik_orientation_error r) /\
  match ik_termination r with
  | IkConverged => exists n, ik_iterations r = S n /\ (n < ik_maximum_iterations s)%nat /\ passes mj mc s t k target n (hold_inside_limits s t seed) answer /\
      within_tolerances s (ik_position_error r) (ik_orientation_error r)
  | IkStalled => exists n, ik_iterations r = S n /\ (n < ik_maximum_iterations s)%nat /\ passes mj mc s t k target n (hold_inside_limits s t seed) answer /\
      ~ within_tolerances s (ik_position_error r) (ik_orientation_error r) /\ exists next, pass mj mc s t k target answer next /\ too_short s answer next
  | IkIterationBudget => ik_iterations r = ik_maximum_iterations s /\ passes mj mc s t k target (ik_maximum_iterations s) (hold_inside_limits s t seed) answer
  end.
Proof.
  unfold ik_solve. intros H M. cbv zeta. destruct (Nat.leb _ _); [discriminate|]. destruct (negb _ || _); [discriminate|]. destruct (check_weights _ _); try discriminate. cbn [bind] in H.
  destruct (ik_loop mj mc s t k target (ik_maximum_iterations s) 0 (hold_inside_limits s t seed)) as [[r'|q]|e|] eqn:E; try discriminate; cbn [bind] in H.
  - injection H as <-. destruct (loop_cases _ _ _ _ _ _ _ _ _ _ E) as (n & L & P & I & R & [[-> W]|(-> & W & N)]); (split; [exact R|]); exists n; auto.
  - pose proof (loop_cases _ _ _ _ _ _ _ _ _ _ E) as P. cbn in P. rewrite (proj2 (Nat.ltb_lt _ _) M) in H. destruct (errors_at mj t k target q) as [[[state error] errors]|e|] eqn:F; try discriminate. cbn [bind snd] in H.
    injection H as <-. cbn. split; [exact (proj1 (errors_measured _ _ _ _ _ _ _ _ F))|]. auto.
Qed.

(** With no passes allowed nothing is measured, and the report still says the errors are zero. *)
Theorem C147_zero_budget_refuted mj mc s t k target seed : ik_maximum_iterations s = 0%nat -> (forall e, ~ first_problem (request_problems s t k target seed) e) ->
  exists r, ik_solve mj mc s t k target seed = Ok r /\ ik_joint_positions r = hold_inside_limits s t seed /\ ik_position_error r = zero /\ ik_orientation_error r = zero.
Proof.
  intros M N. unfold ik_solve. rewrite M. unfold request_problems in N. cbn [first_problem] in N.
  destruct (Nat.leb _ _) eqn:E1; [exfalso; apply Nat.leb_le in E1; eapply N; left; auto|]. apply Nat.leb_gt in E1.
  destruct (negb _ || _) eqn:E2; [exfalso; apply request_finite in E2; eapply N; right; split; [lia|]; left; auto|].
  destruct (check_weights_cases (ik_joint_weights s) (velocity_len t) 0) as [[_ ->]|[(i & I & H) _]].
  - cbn. eexists. split; [reflexivity|]. auto.
  - exfalso. eapply N. right. split; [lia|]. right. split; [intros F; apply request_finite in F; congruence|]. left. split; [exists i; split; [lia|exact H]|reflexivity].
Qed.
End AnyScalar.

(** ** The reals *)
Lemma solve_weights (s : ik R) (t : tree R) : (forall i, (i < velocity_len t)%nat -> exists w, nth_error (ik_joint_weights s) i = Some w /\ 0 < w) -> check_weights (ik_joint_weights s) (seq 0 (velocity_len t)) = Ok tt.
Proof.
  intros W. destruct (check_weights_cases (ik_joint_weights s) (velocity_len t) 0) as [[_ H]|[(i & I & H) _]]; [exact H|]. exfalso. destruct (W i ltac:(lia)) as (w & E & P). destruct H as [H|H]; [congruence|].
  rewrite (nth_error_nth _ _ _ E) in H. apply Rleb_true in H. rnum. lra.
Qed.
Section Answers.
Variables (mj mc : nat) (t : tree R).
Hypothesis B : built mj mc t.
(** Over the reals a sound request is always answered: no pass can run into an error of its own, singular arm or not. *)
Theorem C147_answers s k target seed : length seed = mc -> (k < tree_len t)%nat -> (forall i, (i < velocity_len t)%nat -> exists w, nth_error (ik_joint_weights s) i = Some w /\ 0 < w) ->
  (forall i j at_, tree_joint t i = Some j -> config_offset t i = Some at_ -> has_orientation seed at_ j) -> exists r, ik_solve mj mc s t k target seed = Ok r.
Proof.
  intros L K W O. unfold ik_solve. rewrite (proj2 (Nat.leb_gt _ _) K). replace (vec_is_finite seed) with true by (symmetry; apply forallb_forall; reflexivity).
  replace (pose_is_finite target) with true by (symmetry; apply pose_finite; reflexivity). cbn [negb orb]. pose proof (solve_weights s t W) as CW. rewrite CW. cbn [bind].
  destruct (loop_answers mj mc t B s k target K CW (ik_maximum_iterations s) 0 (hold_inside_limits s t seed)) as ([r|q] & -> & H).
  - rewrite hold_length. exact L.
  - apply (hold_oriented mj mc t B). exact O.
  - cbn. eauto.
  - cbn [bind]. destruct H as [LQ OQ]. destruct (Nat.ltb _ _); [|eauto]. unfold errors_at. destruct (proj1 (forward_R mj mc t q B LQ) OQ) as (poses & F & PL). rewrite F. cbn [bind].
    assert (LP : length poses = tree_len t) by apply PL. rewrite (nth_error_nth' poses se3_identity) by lia. cbn [ok_or bind]. eauto.
Qed.

Lemma passes_keep (P : list R -> Prop) s k target : (forall q q', P q -> pass mj mc s t k target q q' -> P q') -> forall n q q', passes mj mc s t k target n q q' -> P q -> P q'.
Proof. intros H n q q' S. induction S; auto. intros. apply IHS. eapply H; eauto. Qed.
Lemma solve_passes s k target seed r : ik_solve mj mc s t k target seed = Ok r -> exists n, (n <= ik_iterations r <= ik_maximum_iterations s)%nat /\ passes mj mc s t k target n (hold_inside_limits s t seed) (ik_joint_positions r).
Proof.
  intros H. destruct (Nat.eq_dec (ik_maximum_iterations s) 0) as [Z|NZ].
  - exists 0%nat. unfold ik_solve in H. destruct (Nat.leb _ _); [discriminate|]. destruct (negb _ || _); [discriminate|]. destruct (check_weights _ _); try discriminate. cbn [bind] in H. rewrite Z in H. cbn in H. injection H as <-. cbn. split; [lia|constructor].
  - destruct (C147_report mj mc s t k target seed r H ltac:(lia)) as [_ C]. destruct (ik_termination r).
    + destruct C as (n & I & L & P & _). exists n. split; [lia|exact P].
    + destruct C as (n & I & L & P & _). exists n. split; [lia|exact P].
    + destruct C as [I P]. exists (ik_maximum_iterations s). split; [lia|exact P].
Qed.
(** The answer is as long as the seed, and with the limits respected every joint that has them reads between them, wherever the seed was. *)
Theorem C147_limits s k target seed r : length seed = mc -> ik_solve mj mc s t k target seed = Ok r ->
  length (ik_joint_positions r) = mc /\ (ik_iterations r <= ik_maximum_iterations s)%nat /\ (ik_respect_limits s = true -> inside_limits t (ik_joint_positions r)).
Proof.
  intros L H. destruct (solve_passes s k target seed r H) as (n & I & P).
  apply (passes_keep (fun q => length q = mc /\ (ik_iterations r <= ik_maximum_iterations s)%nat /\ (ik_respect_limits s = true -> inside_limits t q)) s k target) with (2 := P).
  - intros q q' (LQ & _) (poses & pose & step & _ & _ & _ & ->). split; [rewrite next_length; exact LQ|]. split; [lia|]. intros RL. apply (hold_inside mj mc t B); [|exact RL]. rewrite fold_length by apply move_joint_length. exact LQ.
  - split; [rewrite hold_length; exact L|]. split; [lia|]. intros RL. apply (hold_inside mj mc t B); auto.
Qed.

(** What one pass does: the step worked out from the Jacobian of the tool in its own axes, the entries of joints that cannot move left out,
    is shortened to the longest allowed; each joint's reading changes by its entry and is brought back inside its limits. *)
Theorem C147_pass s k target q q' : length q = mc -> (forall i, (i < velocity_len t)%nat -> exists w, nth_error (ik_joint_weights s) i = Some w /\ 0 < w) -> 0 <= ik_maximum_step_norm s ->
  (forall i j at_, tree_joint t i = Some j -> config_offset t i = Some at_ -> has_orientation q at_ j) -> (k < tree_len t)%nat -> pass mj mc s t k target q q' ->
  exists poses J bias step kept f, forward_kinematics mj q t = Ok poses /\ geometric_jacobian mj mc poses k BodyAxes t = Ok J /\
    joint_step mc J (se3_log (se3_compose (se3_inverse (nth k poses se3_identity)) target)) bias (ik_joint_weights s) (ik_singular_value_threshold s) (ik_maximum_damping s) = Ok step /\
    length bias = mc /\ length step = mc /\ length kept = mc /\
    (forall i j at_ from, tree_joint t i = Some j -> config_offset t i = Some at_ -> velocity_offset t i = Some from -> forall n, (n < rates_of j)%nat ->
       nth (from + n) kept 0 = (if kind_eqb (jt_kind j) Fixed then 0 else nth (from + n) step 0) /\
       (jt_kind j <> Floating -> wished_rate (ik_secondary_objective s) j at_ q (ik_secondary_gain s) (nth (from + n) bias 0))) /\
    (forall n, (velocity_len t <= n)%nat -> nth n kept 0 = 0) /\
    0 <= f <= 1 /\ (norm kept <= ik_maximum_step_norm s -> f = 1) /\ (ik_maximum_step_norm s < norm kept -> f * norm kept = ik_maximum_step_norm s) /\
    (forall i j at_ from, tree_joint t i = Some j -> config_offset t i = Some at_ -> velocity_offset t i = Some from -> jt_kind j <> Floating ->
       nth at_ q' 0 = held (ik_respect_limits s) (jt_limits j) (nth at_ q 0 + f * nth from kept 0)) /\
    (forall i j at_ from, tree_joint t i = Some j -> config_offset t i = Some at_ -> velocity_offset t i = Some from -> jt_kind j = Floating ->
       let g n := f * nth (from + n) kept 0 in let now := floating_quaternion q at_ in
       let turned := quat_mul (quat_scale now (/ quat_norm now)) (from_scaled_axis (g 3%nat, g 4%nat, g 5%nat)) in
       (forall n, (n < 3)%nat -> nth (at_ + n) q' 0 = nth (at_ + n) q 0 + g n) /\ floating_quaternion q' at_ = turned).
Proof.
  intros L W C O K (poses & pose & step & F & PK & ST & ->). unfold step_at in ST.
  destruct (proj1 (forward_R mj mc t q B L) O) as (poses' & F' & PL). rewrite F in F'. injection F' as <-. assert (LP : length poses = tree_len t) by apply PL.
  destruct (jacobian_spec mj mc t poses k BodyAxes B LP K) as (J & EJ & CJ & _). rewrite EJ in ST. cbn [bind] in ST. set (bias := secondary_bias _ _ _ _ _) in ST.
  assert (LB : length bias = mc) by apply bias_length. pose proof (solve_weights s t W) as CW. rewrite <- CJ in CW.
  destruct (joint_step_ok mc J (se3_log (se3_compose (se3_inverse pose) target)) bias (ik_joint_weights s) (ik_singular_value_threshold s) (ik_maximum_damping s) CW LB) as (raw & ER & LR). rewrite ER in ST. cbn [bind] in ST. injection ST as <-.
  destruct (limited_facts mj mc t raw (ik_maximum_step_norm s) B LR C) as (LL & NL & f & FB & F1 & F2 & FE). set (kept := fold_left _ _ _) in *.
  assert (LK : length kept = mc) by (unfold kept; rewrite fold_length by (intros; apply mask_length); unfold vec_zeros; apply repeat_length).
  assert (PE : nth k poses se3_identity = pose) by (apply nth_error_nth; exact PK).
  assert (LZ : length (vec_zeros (T := R) mc) = mc) by (unfold vec_zeros; apply repeat_length).
  assert (NZ : forall n, nth n (vec_zeros (T := R) mc) 0 = 0) by (intros n; unfold vec_zeros; apply nth_repeat).
  exists poses, J, bias, raw, kept, f. split; [exact F|]. split; [exact EJ|]. split; [rewrite PE; exact ER|]. split; [exact LB|]. split; [exact LR|]. split; [exact LK|]. split.
  { intros i j at_ from JJ A V n N. split.
    - destruct (kind_eqb (jt_kind j) Fixed) eqn:KF.
      + unfold kept. rewrite (masked_other t); [apply NZ|]. intros i' j' b' n' J' V' K' N' E. apply kind_eqb_spec in KF.
        destruct (Nat.eq_dec i' i) as [->|NE]; [rewrite JJ in J'; injection J' as <-; contradiction|]. exact (velocity_apart mj mc t i' j' b' i j from n' n B J' V' JJ V N' N NE E).
      + unfold kept. apply (masked_slot mj mc t B raw i j from n); auto. intros E. rewrite E in KF. discriminate.
    - intros NFL. apply (bias_slot mj mc t B _ _ q i); auto. }
  split.
  { intros n N. unfold kept. rewrite (masked_other t); [apply NZ|]. intros i j b n' JJ V _ N' E. destruct (velocity_room mj mc t i j b B JJ V). lia. }
  split; [exact FB|]. split; [exact F1|]. split; [exact F2|]. split.
  { intros i j at_ from JJ A V NFL. assert (MV := move_slot mj mc t B i j at_ from q (limited_step mc raw t (ik_maximum_step_norm s)) q L LL JJ A V NFL). rewrite FE in MV.
    unfold next_configuration. set (moved := fold_left _ _ q) in *. assert (LM : length moved = mc) by (unfold moved; rewrite fold_length by apply move_joint_length; exact L).
    unfold held. destruct (ik_respect_limits s) eqn:RL.
    - rewrite (hold_slot mj mc t B s i j at_ moved LM JJ A NFL RL), MV. reflexivity.
    - unfold hold_inside_limits. rewrite RL. cbn [negb]. exact MV. }
  intros i j at_ from JJ A V FL. cbv zeta. set (lim := limited_step mc raw t (ik_maximum_step_norm s)) in *.
  pose proof (moved_place q lim at_ from j (O i j at_ JJ A) FL) as MP. cbv zeta in MP. rewrite AttitudeStep.step_R in MP. 
  assert (CC : forall n, (n < 7)%nat -> forall place, moved_free q lim at_ from = Some place -> nth (at_ + n) (next_configuration s t q lim) 0 = nth n place 0).
  { intros n N place E. unfold next_configuration. rewrite (hold_free mj mc t B s _ i j at_ n JJ A FL N). destruct (move_floating mj mc t B i j at_ from q lim n L JJ A V FL (O i j at_ JJ A) N) as (place' & E' & ->). rewrite E in E'. injection E' as <-. reflexivity. }
  specialize (fun n N => CC n N _ MP). split.
  - intros n N. rewrite CC by lia. rewrite <- FE. do 3 (destruct n as [|n]; [cbn [nth]; rewrite ?Nat.add_0_r; reflexivity|]). lia.
  - unfold floating_quaternion at 1. rewrite !CC by lia. cbn [nth]. rewrite !FE. unfold multiple. rewrite !Rmult_1_l. destruct (quat_mul _ _); reflexivity.
Qed.

(** A tree without a floating base: no pass moves the joints further, together, than the longest step, so the whole solve no further than that times
    the passes. *)
Theorem C147_bounded s k target seed r : no_floating t -> length seed = mc -> 0 <= ik_maximum_step_norm s -> ik_solve mj mc s t k target seed = Ok r ->
  distance_between (hold_inside_limits s t seed) (ik_joint_positions r) <= INR (ik_iterations r) * ik_maximum_step_norm s.
Proof.
  intros NF L C H. destruct (solve_passes s k target seed r H) as (n & I & P).
  apply Rle_trans with (INR n * ik_maximum_step_norm s); [|apply Rmult_le_compat_r; [exact C|apply le_INR; lia]]. clear I H.
  assert (Q : length (hold_inside_limits s t seed) = mc /\ (ik_respect_limits s = true -> inside_limits t (hold_inside_limits s t seed))) by (split; [rewrite hold_length; exact L|intros RL; apply (hold_inside mj mc t B); auto]).
  revert Q. induction P as [q|n q q' q'' pe oe RS NW PA NS PS IH]; intros [LQ IN].
  - cbn [INR]. rewrite Rmult_0_l. unfold distance_between. rewrite (bsum_ext _ _ (fun _ => 0)) by (intros; ring). rewrite bsum_0, R_sqrt.sqrt_0. lra.
  - assert (D : distance_between q q' <= ik_maximum_step_norm s /\ length q' = mc /\ (ik_respect_limits s = true -> inside_limits t q')).
    { destruct PA as (poses & pose & step & _ & _ & ST & ->). unfold step_at in ST. destruct (geometric_jacobian _ _ _ _ _ _) as [J| |]; try discriminate. cbn [bind] in ST. destruct (joint_step _ _ _ _ _ _ _) as [raw| |] eqn:ER; try discriminate. cbn [bind] in ST. injection ST as <-.
      assert (LR : length raw = mc). { unfold joint_step, weighted_transpose in ER. destruct (check_weights _ _); try discriminate. cbn [bind] in ER. destruct (linalg _); try discriminate. cbn [bind] in ER. destruct (linalg _); try discriminate. cbn [bind] in ER. injection ER as <-.
        assert (LV : forall a v, length (mat_vec (T := R) mc 6 a v) = mc) by (intros; unfold mat_vec; apply from_fn_length). rewrite add_length; rewrite ?sub_length; rewrite ?LV, ?bias_length; reflexivity. }
      destruct (limited_facts mj mc t raw (ik_maximum_step_norm s) B LR C) as (LL & NL & _). split; [apply (next_distance mj mc t B); auto|]. split; [rewrite next_length; exact LQ|].
      intros RL. apply (hold_inside mj mc t B); [|exact RL]. rewrite fold_length by apply move_joint_length. exact LQ. }
    destruct D as (D & LQ' & IN'). specialize (IH (conj LQ' IN')). pose proof (distance_triangle q q' q'' ltac:(lia)). rewrite S_INR. lra.
Qed.
End Answers.

(** ** A concrete case: the carried arm, asked to reach out of its limits *)
Lemma carried_arm_built : built 2 8 carried_arm.
Proof. apply C144_example. Qed.
Example C147_example : let s := ik_new (T := R) 8 in let target := SE3 quat_identity (3, 2, 1) in let seed := [0; 0; 0; 1; 0; 0; 0; 100] in
  exists r, ik_solve 2 8 s carried_arm 1 target seed = Ok r /\ (ik_iterations r <= 100)%nat /\ -3 <= nth 7 (ik_joint_positions r) 0 <= 3 /\ ik_solve 2 8 s carried_arm 2 target seed = Err KiToolIndexOutOfRange.
Proof.
  intros s target seed. pose proof carried_arm_built as B.
  destruct (C147_answers 2 8 carried_arm B s 1 target seed eq_refl ltac:(cbn; lia)) as [r E].
  - intros i I. exists 1. split; [|lra]. cbn in I. do 8 (destruct i as [|i]; [reflexivity|]). lia.
  - intros [|[|i]] j at_ J A; try (destruct i; discriminate J); injection J as <-; [|discriminate]. injection A as <-. intros _. apply one_orientation.
  - exists r. split; [exact E|]. destruct (C147_limits 2 8 carried_arm B s 1 target seed r eq_refl E) as (_ & I & N). split; [exact I|]. split; [|reflexivity].
    apply (N eq_refl 1%nat (with_axis (0, 0, 1) arm) 7%nat (-3) 3); try reflexivity. discriminate.
Qed.
Print Assumptions C147_refusal.
Print Assumptions C147_report.
Print Assumptions C147_zero_budget_refuted.
Print Assumptions C147_answers.
Print Assumptions C147_limits.
Print Assumptions C147_pass.
Print Assumptions C147_bounded.
Print Assumptions C147_example.
