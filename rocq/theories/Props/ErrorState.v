(** C154: the error-state Kalman filter. *)
From Coq Require Import ZArith Reals List Bool Arith Lia Lra Psatz.
From Coquelicot Require Import Coquelicot.
From Verif Require Import Base.Scalar Base.RNum Base.Lists Base.Series Base.Det Model.Errors Model.Vector Model.Matrix Model.Lu Model.Cholesky Model.Dual Model.Quaternion Model.Lie Model.Kalman Model.ErrorState.
From Verif Require Import Spec.Matrix Spec.MatrixExp Spec.Kalman Spec.Rotation Spec.Quaternion Spec.ErrorState Proofs.Matrix Proofs.Algebra Proofs.Riccati Proofs.Kalman Proofs.Rotation Proofs.Quaternion Proofs.Space.
From Verif Require Import Props.Cholesky Props.Kalman Props.Quaternion Props.AttitudeStep Props.NominalState Proofs.ErrorState Proofs.ErrorStep.
Import ListNotations.
Local Open Scope R_scope.
Local Notation length := Spec.Rotation.length.
Local Notation scale3_R := Proofs.Quaternion.scale3_R.
Local Notation sqrt := R_sqrt.sqrt.

Lemma nth_part (e : list R) at_ k : (k < 3)%nat -> nth (at_ + k) e 0 = coordinate (part e at_) k.
Proof. intros H. unfold part, coordinate. three k; cbn [nth]; f_equal; lia. Qed.
Lemma nth_nudge j t i : (i < 15)%nat -> nth i (nudge j t) 0 = if Nat.eqb i j then t else 0.
Proof. intros H. unfold nudge. apply nth_from_fn. exact H. Qed.
Lemma delta_derive (c : bool) : is_derive (fun t => if c then t else 0) 0 (if c then 1 else 0).
Proof. destruct c; [apply @is_derive_id|apply @is_derive_const]. Qed.

Section Rows.
  Variables (f : error_filter R) (gyroscope accelerometer : point) (h : R).
  Let s := ef_state f.
  Ltac rows := unfold transition_entry, in_block, unit_matrix; cbn [Nat.leb Nat.ltb Nat.eqb andb Nat.sub Nat.add]; try ring; try reflexivity.
Lemma position_row i j : (i < 3)%nat -> (j < 15)%nat -> transition_entry f gyroscope accelerometer h i j = unit_matrix i j + h * unit_matrix (3 + i)%nat j.
Proof. intros Hi Hj. three i; (do 15 (destruct j as [|j]; [rows|])); lia. Qed.
Lemma velocity_row k j : (k < 3)%nat -> (j < 15)%nat -> transition_entry f gyroscope accelerometer h (3 + k) j = unit_matrix (3 + k)%nat j + h *
  (if (Nat.leb 6 j && Nat.ltb j 9)%bool then - times 3 (mget (to_rotation_matrix (ns_orientation s))) (coordinate (outer (together accelerometer (multiple (-1) (ns_accelerometer_bias s))) (axis (j - 6)))) k
    else if (Nat.leb 12 j && Nat.ltb j 15)%bool then - mget (to_rotation_matrix (ns_orientation s)) k (j - 12) else 0).
Proof. intros Hk Hj. unfold s. three k; (do 15 (destruct j as [|j]; [rows|])); lia. Qed.
Lemma turn_row k j : (k < 3)%nat -> (j < 15)%nat -> transition_entry f gyroscope accelerometer h (6 + k) j =
  if (Nat.leb 9 j && Nat.ltb j 12)%bool then - h * unit_matrix (6 + k + 3)%nat j
  else if (Nat.leb 6 j && Nat.ltb j 9)%bool then mget (to_rotation_matrix (from_scaled_axis (multiple h (multiple (-1) (together gyroscope (multiple (-1) (ns_gyroscope_bias s))))))) k (j - 6) else 0.
Proof. intros Hk Hj. unfold s. three k; (do 15 (destruct j as [|j]; [rows|])); lia. Qed.
Lemma offset_row i j : (9 <= i < 15)%nat -> (j < 15)%nat -> transition_entry f gyroscope accelerometer h i j = unit_matrix i j.
Proof. intros Hi Hj. do 9 (destruct i as [|i]; [lia|]). do 6 (destruct i as [|i]; [do 15 (destruct j as [|j]; [rows|]); lia|]). lia. Qed.
End Rows.

(** ** The transition *)
Theorem C154_transition (f : error_filter R) gyroscope accelerometer h : let s := ef_state f in
  let rate := together gyroscope (multiple (-1) (ns_gyroscope_bias s)) in
  unit_quaternion (ns_orientation s) -> plain (multiple h rate) ->
  let F := mget (error_state_transition f gyroscope accelerometer h) in
  let after x := propagated x gyroscope accelerometer h (ef_gravity f) in
  let shown i j t := nth i (error_from (after (plus_error s (nudge j t))) (after s)) 0 in
  forall i j, (i < 15)%nat -> (j < 15)%nat ->
  ((3 <= i)%nat -> ~ ((6 <= i < 9)%nat /\ (9 <= j < 12)%nat) -> is_derive (shown i j) 0 (F i j)) /\
  ((i < 3)%nat -> is_derive (shown i j) 0 (F i j + h / 2 * (F (3 + i)%nat j - unit_matrix (3 + i)%nat j))) /\
  ((6 <= i < 9)%nat -> (9 <= j < 12)%nat -> F i j = - h * unit_matrix (i + 3)%nat j /\ (rate = (0, 0, 0) -> is_derive (shown i j) 0 (F i j))).
Proof.
  intros s rate U P F after shown i j Hi Hj. destruct (transition_read f gyroscope accelerometer h) as [_ TR].
  assert (UX : unit_quaternion (from_scaled_axis (multiple h rate))) by (apply exp_plain, P).
  set (pushed := fun i => if (Nat.leb 6 j && Nat.ltb j 9)%bool then - times 3 (mget (to_rotation_matrix (ns_orientation s))) (coordinate (outer (together accelerometer (multiple (-1) (ns_accelerometer_bias s))) (axis (j - 6)))) i
    else if (Nat.leb 12 j && Nat.ltb j 15)%bool then - mget (to_rotation_matrix (ns_orientation s)) i (j - 12) else 0).
  set (world := fun t => transform_point (ns_orientation (plus_error s (nudge j t))) (together accelerometer (multiple (-1) (ns_accelerometer_bias (plus_error s (nudge j t)))))).
  assert (WD : forall k, (k < 3)%nat -> is_derive (fun t => coordinate (world t) k) 0 (pushed k)) by (intros k Hk; apply (world_derive s gyroscope accelerometer (ef_gravity f) h U j k Hj Hk)).
  assert (W0 : world 0 = transform_point (ns_orientation s) (together accelerometer (multiple (-1) (ns_accelerometer_bias s)))) by (apply (world_none s gyroscope accelerometer (ef_gravity f) h j Hj)).
  assert (PF : forall k, (k < 3)%nat -> F (3 + k)%nat j = unit_matrix (3 + k)%nat j + h * pushed k).
  { intros k Hk. unfold F. rewrite TR by lia. apply velocity_row; auto. }
  assert (AT : forall t k at_, (k < 3)%nat -> shown (at_ + k)%nat j t = coordinate (part (error_from (after (plus_error s (nudge j t))) (after s)) at_) k) by (intros; apply nth_part; auto).
  assert (PARTS : forall t, let e := error_from (after (plus_error s (nudge j t))) (after s) in
    part e 0 = together (together (together (part (nudge j t) 0) (multiple h (part (nudge j t) 3))) (multiple (h * h * / 2) (world t))) (multiple (- (h * h * / 2)) (world 0)) /\
    part e 3 = together (together (part (nudge j t) 3) (multiple h (world t))) (multiple (- h) (world 0)) /\
    part e 6 = to_scaled_axis (quat_mul (conjugate (ns_orientation (after s))) (ns_orientation (after (plus_error s (nudge j t))))) /\
    part e 9 = part (nudge j t) 9 /\ part e 12 = part (nudge j t) 12).
  { intros t. unfold error_from. rewrite !sub3_R.
    match goal with |- context [list3 ?a ++ list3 ?b ++ list3 ?c ++ list3 ?d ++ list3 ?e] => destruct (error_parts a b c d e) as (_ & E0 & E1 & E2 & E3 & E4) end. cbv zeta in *.
    rewrite E0, E1, E2, E3, E4. split; [|split; [|split; [reflexivity|]]].
    - rewrite W0. unfold after, propagated at 1. cbn [ns_position]. unfold so3_act. rewrite !sub3_R, !(add3_R (transform_point _ _)), !add3_R, !scale3_R. fold (world t). unfold propagated. cbn [ns_position]. unfold so3_act. rewrite !sub3_R, !add3_R, !scale3_R.
      unfold plus_error. cbn [ns_position ns_velocity]. rewrite !part_R, !add3_R. rnum.
      generalize (world t) (part (nudge j t) 0) (part (nudge j t) 3) (transform_point (ns_orientation s) (together accelerometer (multiple (-1) (ns_accelerometer_bias s)))).
      destruct (ef_gravity f) as [[? ?] ?], (ns_position s) as [[? ?] ?], (ns_velocity s) as [[? ?] ?]. intros [[? ?] ?] [[? ?] ?] [[? ?] ?] [[? ?] ?]. unfold together, multiple. apply point_eq; ring.
    - rewrite W0. unfold after, propagated at 1. cbn [ns_velocity]. unfold so3_act. rewrite !sub3_R, !(add3_R (transform_point _ _)), !add3_R, !scale3_R. fold (world t). unfold propagated. cbn [ns_velocity]. unfold so3_act. rewrite !sub3_R, !add3_R, !scale3_R.
      unfold plus_error. cbn [ns_velocity]. rewrite !part_R, !add3_R.
      generalize (world t) (part (nudge j t) 3) (transform_point (ns_orientation s) (together accelerometer (multiple (-1) (ns_accelerometer_bias s)))).
      destruct (ef_gravity f) as [[? ?] ?], (ns_velocity s) as [[? ?] ?]. intros [[? ?] ?] [[? ?] ?] [[? ?] ?]. unfold together, multiple. apply point_eq; ring.
    - unfold after, propagated, plus_error. cbn [ns_gyroscope_bias ns_accelerometer_bias]. rewrite !part_R, !add3_R, !together_off. auto. }
  assert (CN : forall t k at_, (k < 3)%nat -> (at_ + k < 15)%nat -> coordinate (part (nudge j t) at_) k = if Nat.eqb (at_ + k) j then t else 0).
  { intros t k at_ Hk HK. rewrite <- nth_part by exact Hk. apply nth_nudge, HK. }
  split; [|split].
  - intros I3 EX. destruct (Nat.lt_ge_cases i 6) as [I6|I6]; [|destruct (Nat.lt_ge_cases i 9) as [I9|I9]].
    + assert (IK : exists k, i = (3 + k)%nat /\ (k < 3)%nat) by (exists (i - 3)%nat; lia). destruct IK as (k & -> & Hk). rewrite PF by exact Hk.
      apply (is_derive_ext (fun t => (if Nat.eqb (3 + k) j then t else 0) + h * coordinate (world t) k + - h * coordinate (world 0) k)).
      { intros t. rewrite AT by exact Hk. rewrite (proj1 (proj2 (PARTS t))), !coordinate_together, !coordinate_multiple, CN by lia. reflexivity. }
      evar_last; [apply @is_derive_plus; [apply @is_derive_plus; [apply delta_derive|apply is_derive_scal, WD, Hk]|apply @is_derive_const]|].
      unfold unit_matrix. generalize (pushed k). intros pk. unfold plus, zero. cbn. to_R. ring.
    + assert (IK : exists k, i = (6 + k)%nat /\ (k < 3)%nat) by (exists (i - 6)%nat; lia). destruct IK as (k & -> & Hk).
      apply (is_derive_ext (fun t => coordinate (to_scaled_axis (quat_mul (conjugate (ns_orientation (after s))) (ns_orientation (after (plus_error s (nudge j t)))))) k)).
      { intros t. rewrite AT by exact Hk. rewrite (proj1 (proj2 (proj2 (PARTS t)))). reflexivity. }
      assert (N : (Nat.leb 9 j && Nat.ltb j 12)%bool = false) by (apply andb_false_iff; rewrite Nat.leb_gt, Nat.ltb_ge; lia).
      evar_last; [apply (off_derive s gyroscope accelerometer (ef_gravity f) h U UX j k Hj Hk N)|].
      unfold F. rewrite TR by lia. rewrite turn_row by auto. rewrite N. reflexivity.
    + assert (IK : exists k at_, i = (at_ + k)%nat /\ (k < 3)%nat /\ (at_ = 9 \/ at_ = 12)%nat) by (destruct (Nat.lt_ge_cases i 12); [exists (i - 9)%nat, 9%nat|exists (i - 12)%nat, 12%nat]; lia).
      destruct IK as (k & at_ & -> & Hk & A).
      apply (is_derive_ext (fun t => if Nat.eqb (at_ + k) j then t else 0)).
      { intros t. rewrite AT by exact Hk. rewrite <- CN by lia. destruct (PARTS t) as (_ & _ & _ & E3 & E4). destruct A as [-> | ->]; [rewrite E3|rewrite E4]; reflexivity. }
      evar_last; [apply delta_derive|]. unfold F. rewrite TR, offset_row by lia. reflexivity.
  - intros I3. rewrite PF by exact I3.
    apply (is_derive_ext (fun t => (if Nat.eqb i j then t else 0) + h * (if Nat.eqb (3 + i) j then t else 0) + (h * h * / 2) * coordinate (world t) i + - (h * h * / 2) * coordinate (world 0) i)).
    { intros t. change (shown i j t) with (shown (0 + i)%nat j t). rewrite AT by exact I3. rewrite (proj1 (PARTS t)), !coordinate_together, !coordinate_multiple, !CN by lia. reflexivity. }
    evar_last; [apply @is_derive_plus; [apply @is_derive_plus; [apply @is_derive_plus; [apply delta_derive|apply is_derive_scal, delta_derive]|apply is_derive_scal, WD, I3]|apply @is_derive_const]|].
    unfold F. rewrite TR, position_row by lia. unfold unit_matrix. generalize (pushed i). intros pk. unfold plus, zero. cbn. to_R. field.
  - intros I6 J9. assert (FE : F i j = - h * unit_matrix (i + 3)%nat j).
    { unfold F. rewrite TR by lia. replace i with (6 + (i - 6))%nat by lia. rewrite turn_row by lia. replace (Nat.leb 9 j && Nat.ltb j 12)%bool with true by (symmetry; apply andb_true_iff; rewrite Nat.leb_le, Nat.ltb_lt; lia). reflexivity. }
    split; [exact FE|]. intros R0. rewrite FE.
    assert (IK : exists k, i = (6 + k)%nat /\ (k < 3)%nat) by (exists (i - 6)%nat; lia). destruct IK as (k & -> & Hk).
    apply (is_derive_ext (fun t => coordinate (to_scaled_axis (quat_mul (conjugate (ns_orientation (after s))) (ns_orientation (after (plus_error s (nudge j t)))))) k)).
    { intros t. rewrite AT by exact Hk. rewrite (proj1 (proj2 (proj2 (PARTS t)))). reflexivity. }
    evar_last; [apply (off_still s gyroscope accelerometer (ef_gravity f) h U UX j k R0 J9 Hk)|].
    to_R. unfold unit_matrix. nat_case; try lia; ring.
Qed.
Print Assumptions C154_transition.
