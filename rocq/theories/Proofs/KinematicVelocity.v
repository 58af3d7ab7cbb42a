(** The velocity of every joint's frame is the sum of the columns along the chain that carries it. *)
From Coq Require Import ZArith List Bool Arith Reals Lra Lia.
From Coquelicot Require Import Coquelicot.
From Verif Require Import Base.Scalar Base.RNum Base.Lists Base.Series Model.Errors Model.Vector Model.Matrix Model.Lu Model.Quaternion Model.Lie Model.Drive Model.KinematicTree
  Spec.Matrix Spec.Rotation Spec.Quaternion Spec.Space Spec.KinematicTree Proofs.Matrix Proofs.Quaternion Proofs.Space Proofs.FrameMotion Proofs.KinematicTree Proofs.KinematicMotion Proofs.KinematicJacobian.
Import ListNotations.
Local Open Scope R_scope.

(** ** Which configurations are accepted, over the reals *)
Definition oriented (t : tree R) (q : list R) : Prop := forall i j off, nth_error (tr_joints t) i = Some j -> config_offset t i = Some off -> has_orientation q off j.
Lemma readable_R mj mc (t : tree R) q : built mj mc t -> List.length q = mc -> all_readable t q.
Proof.
  intros B L i j off J O k K. pose proof (config_fits mj mc t i j off B J O) as F. destruct (built_sound mj mc t B) as (_ & _ & C & _). exists (nth (off + k) q 0). split; [apply read_R; lia|right; reflexivity].
Qed.
Lemma motion_at mj mc (t : tree R) q i j off : built mj mc t -> List.length q = mc -> nth_error (tr_joints t) i = Some j -> config_offset t i = Some off ->
  (has_orientation q off j -> joint_motion q off j = Ok (local_motion q off j)) /\ (~ has_orientation q off j -> joint_motion q off j = Err KiOrientationHasNoDirection).
Proof.
  intros B L J O. apply motion_R. pose proof (config_fits mj mc t i j off B J O). destruct (built_sound mj mc t B) as (_ & _ & C & _). lia.
Qed.
Definition placed (t : tree R) (q : list R) (poses : list (se3 R)) : Prop :=
  List.length poses = tree_len t /\ forall i j off, nth_error (tr_joints t) i = Some j -> config_offset t i = Some off ->
    nth i poses se3_identity = se3_compose (se3_compose (hangs_from t poses i) (jt_origin j)) (local_motion q off j).
Lemma laid_placed mj mc t q poses : built mj mc t -> List.length q = mc -> oriented t q -> laid_out t q poses -> placed t q poses.
Proof.
  intros B L H [LL LA]. split; [exact LL|]. intros i j off J O. destruct (LA i j off ltac:(lia) J O) as (l & M & P). rewrite (proj1 (motion_at mj mc t q i j off B L J O) (H i j off J O)) in M. injection M as <-.
  apply nth_error_nth with (d := se3_identity) in P. exact P.
Qed.
Lemma forward_R mj mc t q : built mj mc t -> List.length q = mc ->
  (oriented t q -> exists poses, forward_kinematics mj q t = Ok poses /\ placed t q poses) /\ (~ oriented t q -> forward_kinematics mj q t = Err KiOrientationHasNoDirection).
Proof.
  intros B L. destruct (forward_cases mj mc t q (built_sound mj mc t B)) as [[N _]|[(RD & (m & j & off & J & O & K & E) & ->)|(RD & poses & -> & LA)]].
  - exfalso. apply N, (readable_R mj mc); assumption.
  - split; [|reflexivity]. intros H. rewrite (proj1 (motion_at mj mc t q m j off B L J O) (H m j off J O)) in E. discriminate.
  - split; [intros H; exists poses; split; [reflexivity|apply (laid_placed mj mc); assumption]|].
    intros N. exfalso. apply N. intros i j off J O K. destruct LA as [_ LA]. destruct (LA i j off ltac:(lia) J O) as (l & M & _).
    destruct (Rlt_dec (1 / IZR (2^52)) (quat_norm (floating_quaternion q off))) as [G|G]; [exact G|]. rewrite (proj2 (motion_at mj mc t q i j off B L J O)) in M; [discriminate|]. intros H. apply G, H, K.
Qed.

(** ** The chain of velocities *)
Section Motion.
  Context (mj mc : nat) (t : tree R) (B : built mj mc t) (q : R -> list R) (t0 : R) (rates : list R).
  Hypothesis lengths : forall s, List.length (q s) = mc.
  Hypothesis unit_origins : forall i j, nth_error (tr_joints t) i = Some j -> unit_se3 (jt_origin j).
  Hypothesis floating_origin : forall i j, nth_error (tr_joints t) i = Some j -> jt_kind j = Floating -> forall p, transform_point (se3_rotation (jt_origin j)) p = p.
  Hypothesis readings : forall i j off from, nth_error (tr_joints t) i = Some j -> config_offset t i = Some off -> velocity_offset t i = Some from ->
    has_orientation (q t0) off j /\ steady_turn (q t0) off j /\ reads_at_rates q t0 rates off from j.

  Lemma oriented_now : oriented t (q t0).
  Proof. intros i j off J O. destruct (velocity_offset_some t i (index_lt t i j J)) as (from & F). apply (readings i j off from J O F). Qed.
  Lemma oriented_near : locally t0 (fun s => oriented t (q s)).
  Proof.
    destruct (nth_error (tr_joints t) 0) as [j|] eqn:J.
    2: { apply filter_forall. intros s i j off J'. exfalso. apply nth_error_None in J. assert (List.length (tr_joints t) = 0%nat) by lia. apply length_zero_iff_nil in H. rewrite H in J'. destruct i; discriminate. }
    destruct (built_sound mj mc t B) as (_ & _ & _ & FL & _). destruct (config_offset_some t 0 (index_lt t 0 j J)) as (off & O), (velocity_offset_some t 0 (index_lt t 0 j J)) as (from & F).
    assert (ONE : forall s, has_orientation (q s) off j -> oriented t (q s)).
    { intros s H i j' off' J' O' K. destruct (FL i j' J' K) as [-> _]. rewrite J in J'. rewrite O in O'. injection J' as <-. injection O' as <-. apply H, K. }
    destruct (readings 0%nat j off from J O F) as (HO & _ & RD). destruct (kind_eqb (jt_kind j) Floating) eqn:KF.
    2: { apply filter_forall. intros s. apply ONE. intros K. rewrite K in KF. discriminate. }
    apply kind_eqb_spec in KF. pose proof (HO KF) as NQ. fold (floating_quaternion (q t0) off) in NQ. unfold reads_at_rates in RD. rewrite KF in RD. destruct RD as [_ RD]. set (d := quat_scale _ _) in RD.
    assert (QC : is_derive (fun s => quat_norm_squared (floating_quaternion (q s) off)) t0 (2 * (nth (off + 3) (q t0) 0 * component d 0 + nth (off + 4) (q t0) 0 * component d 1 + nth (off + 5) (q t0) 0 * component d 2 + nth (off + 6) (q t0) 0 * component d 3))).
    { pose proof (RD 0%nat ltac:(lia)) as R0. pose proof (RD 1%nat ltac:(lia)) as R1. pose proof (RD 2%nat ltac:(lia)) as R2. pose proof (RD 3%nat ltac:(lia)) as R3.
      replace (off + 3 + 0)%nat with (off + 3)%nat in R0 by lia. replace (off + 3 + 1)%nat with (off + 4)%nat in R1 by lia. replace (off + 3 + 2)%nat with (off + 5)%nat in R2 by lia. replace (off + 3 + 3)%nat with (off + 6)%nat in R3 by lia.
      unfold quat_norm_squared, floating_quaternion. cbn [qw qx qy qz]. rnum. eapply dto; [derive|]. ring. }
    assert (CT : continuous (fun s => quat_norm_squared (floating_quaternion (q s) off)) t0) by (apply (ex_derive_continuous (V := R_NormedModule)); eexists; exact QC).
    assert (EP : 0 < 1 / IZR (2^52)) by (apply Rdiv_lt_0_compat; [lra|apply IZR_lt; reflexivity]). set (e := 1 / IZR (2^52)) in *.
    assert (GT : e * e < quat_norm_squared (floating_quaternion (q t0) off)) by (rewrite <- quat_norm_sqr; nra).
    assert (L : locally (quat_norm_squared (floating_quaternion (q t0) off)) (fun y => e * e < y)).
    { clearbody e. assert (GP : 0 < quat_norm_squared (floating_quaternion (q t0) off) - e * e) by lra. exists (mkposreal _ GP). intros y Y. unfold ball in Y. cbn in Y. unfold AbsRing_ball, abs, minus, plus, opp in Y. cbn in Y. apply Rabs_def2 in Y. lra. }
    specialize (CT _ L). unfold filtermap in CT. eapply filter_imp; [|exact CT]. cbv beta. intros s H. apply ONE. intros _. fold (floating_quaternion (q s) off). fold e.
    destruct (Rlt_dec e (quat_norm (floating_quaternion (q s) off))) as [G|G]; [exact G|]. exfalso. rewrite <- quat_norm_sqr in H. pose proof (sqrt_pos (quat_norm_squared (floating_quaternion (q s) off))) as P. fold (quat_norm (floating_quaternion (q s) off)) in P. change (R_sqrt.sqrt (quat_norm_squared (floating_quaternion (q s) off))) with (quat_norm (floating_quaternion (q s) off)) in P. nra.
  Qed.
  Definition parent_frame (s : R) (k : nat) : se3 R := match nth_error (tr_parents t) k with Some (OnJoint p) => frame_of mj t (q s) p | _ => se3_identity end.
  Lemma frame_step s k j off : oriented t (q s) -> nth_error (tr_joints t) k = Some j -> config_offset t k = Some off ->
    frame_of mj t (q s) k = se3_compose (se3_compose (parent_frame s k) (jt_origin j)) (local_motion (q s) off j).
  Proof.
    intros H J O. destruct (proj1 (forward_R mj mc t (q s) B (lengths s)) H) as (poses & E & [_ P]). unfold parent_frame, frame_of. rewrite E. apply (P k j off J O).
  Qed.
  Definition state0 : list (se3 R) := match forward_kinematics mj (q t0) t with Ok poses => poses | _ => [] end.
  Lemma state0_frame k : nth k state0 se3_identity = frame_of mj t (q t0) k.
  Proof. unfold state0, frame_of. destruct (forward_kinematics _ _ _); try reflexivity; destruct k; reflexivity. Qed.
  Definition swept (y : point) (ch : list nat) : point * point := pair_sum (map (adds t state0 rates (fun p => p) y) ch).
  Lemma adds_id y i j from : nth_error (tr_joints t) i = Some j -> velocity_offset t i = Some from -> adds t state0 rates (fun p => p) y i = drive (joint_columns j (nth i state0 se3_identity) y) from rates.
  Proof. intros J F. unfold adds. rewrite J, F. f_equal. rewrite <- (map_id (joint_columns j (nth i state0 se3_identity) y)) at 2. apply map_ext. intros [u v]. reflexivity. Qed.
  Lemma swept_shift y y' ch : (forall i, In i ch -> (i < tree_len t)%nat) -> swept y' ch = (together (fst (swept y ch)) (outer (snd (swept y ch)) (together y' (multiple (-1) y))), snd (swept y ch)).
  Proof.
    induction ch as [|i ch IH]; intros H; [unfold swept; cbn; apply pair_eq; flat|]. specialize (IH (fun m M => H m (or_intror M))). unfold swept in *. cbn [map pair_sum fold_right] in *. fold (pair_sum (map (adds t state0 rates (fun p => p) y) ch)) in *. fold (pair_sum (map (adds t state0 rates (fun p => p) y') ch)) in *. rewrite IH.
    pose proof (H i (or_introl eq_refl)) as I. destruct (nth_error (tr_joints t) i) as [j|] eqn:J; [|apply nth_error_None in J; unfold tree_len in I; lia]. destruct (velocity_offset_some t i I) as (from & F). rewrite !(adds_id _ i j from J F).
    rewrite (drive_shift j (nth i state0 se3_identity) y y' from rates). cbn [fst snd]. generalize (drive (joint_columns j (nth i state0 se3_identity) y) from rates) (pair_sum (map (adds t state0 rates (fun p => p) y) ch)). intros [u v] [u' v']. cbn [fst snd]. apply pair_eq; flat.
  Qed.
  Lemma chain_in_tree k fuel : (k < tree_len t)%nat -> forall i, In i (chain t fuel k) -> (i < tree_len t)%nat.
  Proof. intros K i I. destruct (built_sound mj mc t B) as (_ & _ & _ & _ & PA). apply (chain_below t PA) in I. lia. Qed.
  Lemma frames_moving k : (k < tree_len t)%nat -> let v := swept (se3_translation (frame_of mj t (q t0) k)) (chain t mj k) in moving (fun s => frame_of mj t (q s) k) t0 (fst v) (snd v).
  Proof.
    destruct (built_sound mj mc t B) as (_ & LM & _ & FL & PA). induction k as [k IH] using (well_founded_induction lt_wf). intros K. cbv zeta.
    destruct (nth_error (tr_joints t) k) as [j|] eqn:J; [|apply nth_error_None in J; unfold tree_len in K; lia]. destruct (config_offset_some t k K) as (off & O), (velocity_offset_some t k K) as (from & F).
    destruct (readings k j off from J O F) as (HO & ST & RD).
    assert (NEAR : locally t0 (fun s => se3_compose (se3_compose (parent_frame s k) (jt_origin j)) (local_motion (q s) off j) = frame_of mj t (q s) k)).
    { eapply filter_imp; [|exact oriented_near]. intros s H. symmetry. apply frame_step; assumption. }
    assert (NOW := locally_singleton _ _ NEAR). cbv beta in NOW.
    (* the parent's velocity, at the point where this frame is *)
    set (y := se3_translation (frame_of mj t (q t0) k)) in *.
    set (rest := match nth_error (tr_parents t) k with Some (OnJoint p) => chain t mj p | _ => [] end).
    assert (PM : moving (fun s => parent_frame s k) t0 (fst (swept (se3_translation (parent_frame t0 k)) rest)) (snd (swept (se3_translation (parent_frame t0 k)) rest))).
    { unfold rest, parent_frame. destruct (nth_error (tr_parents t) k) as [[|p]|] eqn:P; [exact (moving_const se3_identity t0 unit_identity)| |exact (moving_const se3_identity t0 unit_identity)]. apply PA in P. exact (IH p P ltac:(lia)). }
    assert (RT : forall i, In i rest -> (i < tree_len t)%nat).
    { unfold rest. intros i I. destruct (nth_error (tr_parents t) k) as [[|p]|] eqn:P; try contradiction. apply PA in P. apply (chain_in_tree p mj ltac:(lia) i I). }
    assert (CH : chain t mj k = k :: rest).
    { destruct mj as [|n]; [lia|]. cbn [chain]. f_equal. unfold rest. destruct (nth_error (tr_parents t) k) as [[|p]|] eqn:P; auto. apply PA in P. apply (chain_fuel t PA); lia. }
    assert (FLO : jt_kind j = Floating -> forall p, transform_point (se3_rotation (se3_compose (parent_frame t0 k) (jt_origin j))) p = p).
    { intros KF p. destruct (FL k j J KF) as [-> W]. unfold parent_frame. rewrite W. rewrite (proj1 (se3_identity_l (jt_origin j))). apply (floating_origin 0 j J KF). }
    pose proof (pose_moving (fun s => parent_frame s k) (jt_origin j) q t0 _ _ off from rates j PM (unit_origins k j J) (built_axes mj mc t B k j J) HO ST RD FLO) as M. cbv zeta in M. cbv beta in M.
    rewrite NOW in M. fold y in M. apply (moving_ext_loc _ (fun s => frame_of mj t (q s) k) t0 _ _ NEAR) in M.
    rewrite CH. unfold swept at 1 2. cbn [map pair_sum fold_right fst snd]. fold (pair_sum (map (adds t state0 rates (fun p => p) y) rest)). fold (swept y rest). rewrite (swept_shift (se3_translation (parent_frame t0 k)) y rest RT). cbn [fst snd]. rewrite (adds_id y k j from J F), state0_frame.
    rewrite (together_comm (fst (drive _ _ _))), (together_comm (snd (drive _ _ _))). exact M.
  Qed.
End Motion.
