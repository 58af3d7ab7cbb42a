(** The error-state filter: the slope of a sensor in the error, as the dual numbers give it. *)
From Coq Require Import ZArith Reals List Bool Arith Lia Lra Psatz.
From Coquelicot Require Import Coquelicot.
From Verif Require Import Base.Scalar Base.RNum Base.Lists Base.Series Base.Det Model.Errors Model.Vector Model.Matrix Model.Dual Model.Quaternion Model.Lie Model.Kalman Model.ErrorState.
From Verif Require Import Spec.Matrix Spec.MatrixExp Spec.Rotation Spec.Quaternion Spec.Derivative Spec.ErrorState Proofs.Matrix Proofs.Algebra Proofs.Rotation Proofs.Quaternion Proofs.Space Proofs.DiffAlg Proofs.Dual Proofs.Smooth.
From Verif Require Import Props.Quaternion Props.NominalState Proofs.ErrorState.
Import ListNotations.
Local Open Scope R_scope.
Local Notation scale3_R := Proofs.Quaternion.scale3_R.
Local Notation sqrt := R_sqrt.sqrt.

Definition tick (i j : nat) : R := if Nat.eqb i j then 1 else 0.
Lemma dual_same (a b : Dual R) : value a = value b -> deriv a = deriv b -> a = b.
Proof. destruct a, b. cbn. intros -> ->. reflexivity. Qed.
Lemma dual_exp_none a b c : @from_scaled_axis (Dual R) dual_num (mkDual 0 a, mkDual 0 b, mkDual 0 c) = Quat (mkDual 1 0) (mkDual 0 (a / 2)) (mkDual 0 (b / 2)) (mkDual 0 (c / 2)).
Proof.
  unfold from_scaled_axis.
  assert (L : @ltb (Dual R) dual_num (@dot3 (Dual R) dual_num (mkDual 0 a, mkDual 0 b, mkDual 0 c) (mkDual 0 a, mkDual 0 b, mkDual 0 c)) (@small_angle_sq (Dual R) dual_num) = true).
  { cbn. rnum. apply Rltb_true. assert (0 < 30 / IZR (2 ^ 52)) by (apply Rdiv_lt_0_compat; [lra|apply IZR_lt; reflexivity]). nra. }
  rewrite L. f_equal; apply dual_same; cbn; rnum; field.
Qed.
Lemma lift_unit (q : quaternion R) : unit_quaternion q -> @so3_from_quaternion (Dual R) dual_num (lift_quaternion q) = lift_quaternion q.
Proof.
  intros U. unfold so3_from_quaternion, quat_normalized, quat_scale.
  assert (N : @recip (Dual R) dual_num (@quat_norm (Dual R) dual_num (lift_quaternion q)) = mkDual 1 0).
  { assert (NN : @quat_norm (Dual R) dual_num (lift_quaternion q) = mkDual 1 0).
    { unfold quat_norm. assert (Q : @quat_norm_squared (Dual R) dual_num (lift_quaternion q) = mkDual 1 0).
      { unfold unit_quaternion in U. apply dual_same; cbn [quat_norm_squared lift_quaternion qw qx qy qz]; [transitivity (qw q * qw q + qx q * qx q + qy q * qy q + qz q * qz q); [cbn; rnum; ring|exact U]|cbn; rnum; ring]. }
      rewrite Q. apply dual_same; cbn; rnum; rewrite sqrt_1; field. }
    rewrite NN. change (@recip (Dual R) dual_num (mkDual 1 0)) with (@safe_div (Dual R) dual_base (@dual_constant R Rnum 1) (mkDual 1 0)). unfold safe_div.
    change (@eqb (Dual R) dual_base (mkDual 1 0) (@zero (Dual R) dual_base)) with (Reqb 1 0). rewrite (proj2 (Reqb_false 1 0)) by lra. apply dual_same; cbn; rnum; field. }
  rewrite N. destruct q as [w x y z]. unfold lift_quaternion. cbn [qw qx qy qz]. f_equal; apply dual_same; cbn; rnum; ring.
Qed.
Lemma seeded_part j at_ : (j < 15)%nat -> (at_ + 2 < 15)%nat -> @error_part (Dual R) dual_num (seeded_error j) at_ = (mkDual 0 (tick at_ j), mkDual 0 (tick (S at_) j), mkDual 0 (tick (S (S at_)) j)).
Proof.
  intros J A. assert (G : forall i, (i < 15)%nat -> @vget (Dual R) dual_num (seeded_error j) i = mkDual 0 (tick i j)).
  { intros i Hi. unfold vget, seeded_error, tick. destruct (Nat.eqb_spec i j) as [->|N].
    - rewrite nth_set_nth_eq by (rewrite repeat_length; exact J). reflexivity.
    - rewrite nth_set_nth_neq by auto. change (@zero (Dual R) dual_num) with (@dual_constant R Rnum 0). rewrite nth_repeat. reflexivity. }
  unfold error_part. replace (at_ + 1)%nat with (S at_) by lia. replace (at_ + 2)%nat with (S (S at_)) by lia. rewrite !G by lia. reflexivity.
Qed.

(** The state a sensor is shown: the numbers of the estimate, and how each moves with the error in place [j]. *)
Definition shown3 (p : point) (at_ j : nat) : vec3 (Dual R) := let '(x, y, z) := p in (mkDual x (tick at_ j), mkDual y (tick (S at_) j), mkDual z (tick (S (S at_)) j)).
Definition turning (q : quaternion R) (j : nat) : quaternion R := quat_mul q (Quat 0 (tick 6 j / 2) (tick 7 j / 2) (tick 8 j / 2)).
Lemma shown_state s j : unit_quaternion (ns_orientation s) -> (j < 15)%nat -> @plus_error (Dual R) dual_num (lifted_to_dual s) (seeded_error j) =
  let q := ns_orientation s in let d := turning q j in
  NominalState (shown3 (ns_position s) 0 j) (shown3 (ns_velocity s) 3 j) (Quat (mkDual (qw q) (qw d)) (mkDual (qx q) (qx d)) (mkDual (qy q) (qy d)) (mkDual (qz q) (qz d)))
    (shown3 (ns_gyroscope_bias s) 9 j) (shown3 (ns_accelerometer_bias s) 12 j).
Proof.
  intros U J. unfold plus_error, lifted_to_dual. cbn [ns_position ns_velocity ns_orientation ns_gyroscope_bias ns_accelerometer_bias]. rewrite lift_unit by exact U. rewrite !seeded_part by lia.
  unfold so3_exp. rewrite dual_exp_none.
  assert (A : forall p at_, @add3 (Dual R) dual_num (lift3 p) (mkDual 0 (tick at_ j), mkDual 0 (tick (S at_) j), mkDual 0 (tick (S (S at_)) j)) = shown3 p at_ j).
  { intros [[x y] z] at_. unfold shown3, lift3, add3, of_list3, vget. cbn. rnum. repeat match goal with |- (_, _) = (_, _) => apply f_equal2 end; apply dual_same; cbn; ring. }
  rewrite !A. f_equal. destruct (ns_orientation s) as [w x y z]. unfold so3_compose, lift_quaternion, turning, quat_mul. cbn [qw qx qy qz]. f_equal; apply dual_same; cbn; rnum; ring.
Qed.
Lemma turning_derive q j (component : quaternion R -> R) : (j < 15)%nat -> In component [@qw R; @qx R; @qy R; @qz R] ->
  is_derive (fun t => component (quat_mul q (from_scaled_axis (part (nudge j t) 6)))) 0 (component (turning q j)).
Proof.
  intros J C. assert (TN : forall i, tick i j = if Nat.eqb i j then 1 else 0) by reflexivity.
  destruct (Nat.leb 6 j && Nat.ltb j 9)%bool eqn:E.
  - assert (JK : exists k, j = (6 + k)%nat /\ (k < 3)%nat).
    { apply andb_true_iff in E. destruct E as [A B]. apply Nat.leb_le in A. apply Nat.ltb_lt in B. exists (j - 6)%nat. lia. }
    destruct JK as (k & -> & Hk).
    apply (is_derive_ext_loc (fun t => component (quat_mul q (from_scalar_vector (1 - t * t / 8) (multiple (t / 2 - t ^ 3 / 48) (axis k)))))).
    + apply near_zero. intros t B. rewrite nudge_part by (auto; cbn; tauto). cbn [Nat.add] in *. rewrite E. replace (S (S (S (S (S (S k))))) - 6)%nat with k by lia. rewrite tiny_exp by exact B. reflexivity.
    + destruct q as [w x y z]. unfold turning, tick, quat_mul, from_scalar_vector, axis, multiple.
      three k; (repeat destruct C as [<-|C]; try destruct C); cbn [qw qx qy qz Nat.eqb Nat.add]; rnum; (auto_derive; [exact I|]); to_R; field.
  - apply (is_derive_ext (fun _ => component q)).
    + intros t. rewrite nudge_part by (auto; cbn; tauto). cbn [Nat.add]. rewrite E, exp_none, mul_identity_r. reflexivity.
    + evar_last; [apply @is_derive_const|]. unfold turning. replace (tick 6 j) with 0 by (unfold tick; destruct (Nat.eqb_spec 6 j); [subst; discriminate|reflexivity]).
      replace (tick 7 j) with 0 by (unfold tick; destruct (Nat.eqb_spec 7 j); [subst; discriminate|reflexivity]). replace (tick 8 j) with 0 by (unfold tick; destruct (Nat.eqb_spec 8 j); [subst; discriminate|reflexivity]).
      destruct q as [w x y z]. unfold quat_mul. cbn [qw qx qy qz]. rnum. unfold zero. cbn. repeat destruct C as [<-|C]; try destruct C; cbn [qw qx qy qz]; to_R; field.
Qed.
(** The sixteen numbers a sensor reads, along a nudge. *)
Lemma numbers_derive s j i : unit_quaternion (ns_orientation s) -> (j < 15)%nat ->
  let D := nth i (numbers (@plus_error (Dual R) dual_num (lifted_to_dual s) (seeded_error j))) (mkDual 0 0) in
  value D = nth i (numbers (plus_error s (nudge j 0))) 0 /\ is_derive (fun t => nth i (numbers (plus_error s (nudge j t))) 0) 0 (deriv D).
Proof.
  intros U J. rewrite shown_state by auto. cbv zeta.
  assert (LIN : forall x c, is_derive (fun t => x + (if Nat.eqb c j then t else 0)) 0 (tick c j)).
  { intros x c. unfold tick. destruct (Nat.eqb c j).
    - auto_derive; [exact I|]. to_R. ring.
    - apply (is_derive_ext (fun _ => x)); [intros; to_R; ring|apply @is_derive_const]. }
  assert (N0 : forall c t, (c < 15)%nat -> nth c (nudge j t) 0 = if Nat.eqb c j then t else 0) by (intros; unfold nudge; apply nth_from_fn; auto).
  assert (Z0 : forall c : nat, (if Nat.eqb c j then 0 else 0) = 0) by (intros c; destruct (Nat.eqb c j); reflexivity).
  assert (T0 : part (nudge j 0) 6 = (0, 0, 0)) by (unfold part; rewrite !N0, !Z0 by lia; reflexivity).
  pose proof (turning_derive (ns_orientation s) j) as TD.
  destruct s as [[[p1 p2] p3] [[v1 v2] v3] q [[g1 g2] g3] [[a1 a2] a3]]. cbn [ns_position ns_velocity ns_orientation ns_gyroscope_bias ns_accelerometer_bias] in *.
  set (L := fun t => let u := quat_mul q (from_scaled_axis (part (nudge j t) 6)) in let n c := if Nat.eqb c j then t else 0 in
    [p1 + n 0%nat; p2 + n 1%nat; p3 + n 2%nat; v1 + n 3%nat; v2 + n 4%nat; v3 + n 5%nat; qw u; qx u; qy u; qz u; g1 + n 9%nat; g2 + n 10%nat; g3 + n 11%nat; a1 + n 12%nat; a2 + n 13%nat; a3 + n 14%nat]).
  assert (NE : forall t, numbers (plus_error (NominalState (p1, p2, p3) (v1, v2, v3) q (g1, g2, g3) (a1, a2, a3)) (nudge j t)) = L t).
  { intros t. unfold plus_error, numbers. cbn [ns_position ns_velocity ns_orientation ns_gyroscope_bias ns_accelerometer_bias]. unfold so3_compose, so3_exp. rewrite !part_R, !add3_R. unfold L.
    assert (PT : forall at_, (at_ + 2 < 15)%nat -> part (nudge j t) at_ = ((if Nat.eqb at_ j then t else 0), (if Nat.eqb (S at_) j then t else 0), (if Nat.eqb (S (S at_)) j then t else 0))) by (intros at_ H; unfold part; rewrite !N0 by lia; reflexivity).
    rewrite (PT 0%nat), (PT 3%nat), (PT 9%nat), (PT 12%nat) by lia. reflexivity. }
  split.
  - rewrite NE. unfold L. rewrite T0, exp_none, mul_identity_r. cbv zeta. rewrite !Z0, !Rplus_0_r. unfold numbers, shown3, list3. cbn [ns_position ns_velocity ns_orientation ns_gyroscope_bias ns_accelerometer_bias qw qx qy qz app].
    do 16 (destruct i as [|i]; [reflexivity|]). destruct i; reflexivity.
  - apply (is_derive_ext (fun t => nth i (L t) 0)); [intros t; rewrite NE; reflexivity|]. unfold L, numbers, shown3, list3. cbn [ns_position ns_velocity ns_orientation ns_gyroscope_bias ns_accelerometer_bias qw qx qy qz app].
    do 16 (destruct i as [|i]; [cbn [nth deriv]; lazymatch goal with |- is_derive _ _ (tick _ _) => apply LIN | |- is_derive _ _ (qw _) => apply (TD (@qw R) J); left; reflexivity | |- is_derive _ _ (qx _) => apply (TD (@qx R) J); right; left; reflexivity | |- is_derive _ _ (qy _) => apply (TD (@qy R) J); do 2 right; left; reflexivity | |- _ => apply (TD (@qz R) J); do 3 right; left; reflexivity end|]). destruct i; cbn [nth deriv]; apply (is_derive_const (K := R_AbsRing) (V := R_NormedModule) 0 0).
Qed.
