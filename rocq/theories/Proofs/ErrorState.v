(** The error-state filter: blocks of a matrix, the entries of the transition, and how a nudge in the error shows after a step. *)
From Coq Require Import ZArith Reals List Bool Arith Lia Lra Psatz.
From Coquelicot Require Import Coquelicot.
From Verif Require Import Base.Scalar Base.RNum Base.Lists Base.Series Base.Det Model.Errors Model.Vector Model.Matrix Model.Quaternion Model.Lie Model.Kalman Model.ErrorState.
From Verif Require Import Spec.Matrix Spec.MatrixExp Spec.Rotation Spec.Quaternion Spec.ErrorState Proofs.Matrix Proofs.Algebra Proofs.Rotation Proofs.Quaternion Proofs.Space Props.Quaternion Props.AttitudeStep Props.NominalState.
Import ListNotations.
Local Open Scope R_scope.
Local Notation length := Spec.Rotation.length.
Local Notation scale3_R := Proofs.Quaternion.scale3_R.
Local Notation sqrt := R_sqrt.sqrt.
Ltac to_R := match goal with |- @eq _ ?a ?b => change (@eq R a b) end.

(** ** Blocks *)
Definition in_block (top left i j : nat) : bool := (Nat.leb top i && Nat.ltb i (top + 3) && Nat.leb left j && Nat.ltb j (left + 3))%bool.
Lemma write_block_spec {T} {NT : Num T} n (m : mat T) top left b : shape n n m -> (top + 3 <= n)%nat -> (left + 3 <= n)%nat ->
  shape n n (write_block m top left b) /\
  forall i j, mget (write_block m top left b) i j = if in_block top left i j then mget b (i - top) (j - left) else mget m i j.
Proof.
  intros S Ht Hl. unfold write_block. cbn [range seq Nat.sub fold_left].
  split; [repeat apply shape_mset; exact S|]. intros i j.
  do 9 (rewrite (mget_mset n n) by (repeat apply shape_mset; auto; lia)). unfold in_block.
  destruct (Nat.leb_spec top i) as [A1|A1], (Nat.ltb_spec i (top + 3)) as [A2|A2], (Nat.leb_spec left j) as [B1|B1], (Nat.ltb_spec j (left + 3)) as [B2|B2]; cbn [andb];
    try (nat_case; reflexivity).
  assert (I : exists a, i = (top + a)%nat /\ (a < 3)%nat) by (exists (i - top)%nat; lia). assert (J : exists c, j = (left + c)%nat /\ (c < 3)%nat) by (exists (j - left)%nat; lia).
  destruct I as (a & -> & Ha), J as (c & -> & Hc). replace (top + a - top)%nat with a by lia. replace (left + c - left)%nat with c by lia.
  destruct a as [|[|[|a]]]; try lia; destruct c as [|[|[|c]]]; try lia; nat_case; reflexivity.
Qed.

Definition axis (k : nat) : point := match k with O => (1, 0, 0) | 1 => (0, 1, 0) | _ => (0, 0, 1) end.
Lemma coordinate_axis k i : (k < 3)%nat -> (i < 3)%nat -> coordinate (axis k) i = if Nat.eqb i k then 1 else 0.
Proof. intros A B. three k; three i; reflexivity. Qed.

(** ** The entries of the transition *)
Section Entries.
  Variables (f : error_filter R) (gyroscope accelerometer : point) (h : R).
  Let q := ns_orientation (ef_state f).
  Let rate := together gyroscope (multiple (-1) (ns_gyroscope_bias (ef_state f))).
  Let push := together accelerometer (multiple (-1) (ns_accelerometer_bias (ef_state f))).
  Definition transition_entry (i j : nat) : R :=
    if in_block 6 9 i j then (if Nat.eqb (i + 3) j then - h else 0)
    else if in_block 6 6 i j then mget (to_rotation_matrix (from_scaled_axis (multiple h (multiple (-1) rate)))) (i - 6) (j - 6)
    else if in_block 3 12 i j then - (h * mget (to_rotation_matrix q) (i - 3) (j - 12))
    else if in_block 3 6 i j then - (h * times 3 (mget (to_rotation_matrix q)) (coordinate (outer push (axis (j - 6)))) (i - 3)%nat)
    else if in_block 0 3 i j then (if Nat.eqb (i + 3) j then h else 0)
    else if Nat.eqb i j then 1 else 0.
Lemma block_range top left i j : in_block top left i j = true -> (top <= i < top + 3)%nat /\ (left <= j < left + 3)%nat.
Proof. unfold in_block. rewrite !andb_true_iff. intros [[[A B] C] D]. apply Nat.leb_le in A, C. apply Nat.ltb_lt in B, D. lia. Qed.
Lemma transition_read : shape 15 15 (error_state_transition f gyroscope accelerometer h) /\
    forall i j, (i < 15)%nat -> (j < 15)%nat -> mget (error_state_transition f gyroscope accelerometer h) i j = transition_entry i j.
Proof.
  unfold error_state_transition. rewrite !sub3_R. fold rate push q.
  set (b1 := mat_scale 3 3 (identity 3) h). set (b2 := mat_neg (mat_scale 3 3 (mat_mul 3 3 3 (so3_to_matrix q) (so3_hat push)) h)).
  set (b3 := mat_neg (mat_scale 3 3 (so3_to_matrix q) h)). set (b4 := so3_to_matrix _). set (b5 := mat_scale 3 3 (identity 3) (Scalar.neg h)).
  destruct (write_block_spec 15 (identity 15) 0 3 b1 (shape_identity 15) ltac:(lia) ltac:(lia)) as [S1 E1].
  destruct (write_block_spec 15 _ 3 6 b2 S1 ltac:(lia) ltac:(lia)) as [S2 E2]. destruct (write_block_spec 15 _ 3 12 b3 S2 ltac:(lia) ltac:(lia)) as [S3 E3].
  destruct (write_block_spec 15 _ 6 6 b4 S3 ltac:(lia) ltac:(lia)) as [S4 E4]. destruct (write_block_spec 15 _ 6 9 b5 S4 ltac:(lia) ltac:(lia)) as [S5 E5].
  split; [exact S5|]. intros i j Hi Hj. rewrite E5, E4, E3, E2, E1. unfold transition_entry.
  assert (SC : forall (m : mat R) s a c, (a < 3)%nat -> (c < 3)%nat -> mget (mat_scale 3 3 m s) a c = mget m a c * s) by (intros; unfold mat_scale; rewrite mget_mat_fn by auto; reflexivity).
  assert (SN : forall (m : mat R) s a c, (a < 3)%nat -> (c < 3)%nat -> mget (mat_neg (mat_scale 3 3 m s)) a c = - (mget m a c * s)).
  { intros. unfold mat_neg. rewrite (mget_map _ 3 3) by (auto; apply shape_mat_fn). rewrite SC by auto. reflexivity. }
  destruct (in_block 6 9 i j) eqn:B5; [|destruct (in_block 6 6 i j) eqn:B4; [|destruct (in_block 3 12 i j) eqn:B3; [|destruct (in_block 3 6 i j) eqn:B2; [|destruct (in_block 0 3 i j) eqn:B1]]]].
  - apply block_range in B5. unfold b5. rewrite SC by lia. rewrite mget_identity by lia. rnum. nat_case; ring.
  - unfold b4. unfold so3_to_matrix, so3_exp. rewrite neg3_R, scale3_R. reflexivity.
  - apply block_range in B3. unfold b3. rewrite SN by lia. unfold so3_to_matrix. ring.
  - apply block_range in B2. unfold b2. rewrite SN by lia. rewrite mget_mul by lia. unfold so3_to_matrix, times, product. rewrite (Rmult_comm h). do 2 f_equal. apply bsum_ext. intros k Hk. f_equal.
    assert (J : exists c, j = (6 + c)%nat /\ (c < 3)%nat) by (exists (j - 6)%nat; lia). destruct J as (c & -> & Hc). replace (6 + c - 6)%nat with c by lia.
    destruct push as [[x y] z]. unfold so3_hat, skew3, mget, vget. rnum. three c; three k; cbn; ring.
  - apply block_range in B1. unfold b1. rewrite SC by lia. rewrite mget_identity by lia. rnum. replace (i - 0)%nat with i by lia. nat_case; ring.
  - rewrite mget_identity by auto. reflexivity.
Qed.
End Entries.

(** ** A nudge in the error, seen after a step *)
Lemma nudge_part j t at_ : (j < 15)%nat -> In at_ [0; 3; 6; 9; 12]%nat ->
  part (nudge j t) at_ = if (Nat.leb at_ j && Nat.ltb j (at_ + 3))%bool then multiple t (axis (j - at_)) else (0, 0, 0).
Proof.
  intros J H. unfold part, nudge. repeat destruct H as [<-|H]; try destruct H; rewrite !nth_from_fn by lia;
    (do 15 (destruct j as [|j]; [cbn [Nat.eqb Nat.leb Nat.ltb Nat.add Nat.sub andb axis]; unfold multiple; apply point_eq; ring|])); lia.
Qed.
Lemma coordinate_together u v k : coordinate (together u v) k = coordinate u k + coordinate v k.
Proof. destruct u as [[? ?] ?], v as [[? ?] ?]. unfold coordinate, together. destruct k as [|[|[|k]]]; cbn [nth]; try ring. destruct k; cbn [nth]; ring. Qed.
Lemma coordinate_zero k : coordinate (0, 0, 0) k = 0.
Proof. unfold coordinate. destruct k as [|[|[|[|k]]]]; reflexivity. Qed.
Lemma length_axis k t : length (multiple t (axis k)) = Rabs t.
Proof.
  rewrite length_multiple. replace (length (axis k)) with 1; [ring|]. unfold length, inner, axis. destruct k as [|[|k]]; match goal with |- _ = sqrt ?x => replace x with 1 by ring end; rewrite sqrt_1; reflexivity.
Qed.
Lemma tiny_exp k t : Rabs t < small -> from_scaled_axis (multiple t (axis k)) = from_scalar_vector (1 - t * t / 8) (multiple (t / 2 - t ^ 3 / 48) (axis k)).
Proof.
  intros H. rewrite from_scaled_axis_small by (rewrite length_axis; exact H). rewrite length_axis. assert (A : Rabs t * Rabs t = t * t) by (rewrite <- Rabs_mult; apply Rabs_pos_eq; nra). rewrite A. f_equal.
  rewrite multiple_multiple. f_equal. field.
Qed.
Lemma near_zero (P : R -> Prop) : (forall t, Rabs t < small -> P t) -> locally 0 P.
Proof. intros H. exists (mkposreal small (proj1 small_bound)). intros t B. apply H. unfold ball in B. cbn in B. unfold AbsRing_ball, abs, minus, plus, opp in B. cbn in B. rewrite Ropp_0, Rplus_0_r in B. exact B. Qed.
Lemma turn_derive k u i : (k < 3)%nat -> (i < 3)%nat -> is_derive (fun t => coordinate (transform_point (from_scaled_axis (multiple t (axis k))) u) i) 0 (coordinate (outer (axis k) u) i).
Proof.
  intros Hk Hi. apply (is_derive_ext_loc (fun t => coordinate (transform_point (from_scalar_vector (1 - t * t / 8) (multiple (t / 2 - t ^ 3 / 48) (axis k))) u) i)).
  - apply near_zero. intros t B. rewrite tiny_exp by exact B. reflexivity.
  - destruct u as [[a b] c].
    assert (G : forall g : R -> R, (forall t, coordinate (transform_point (from_scalar_vector (1 - t * t / 8) (multiple (t / 2 - t ^ 3 / 48) (axis k))) (a, b, c)) i = g t) ->
      is_derive g 0 (coordinate (outer (axis k) (a, b, c)) i) -> is_derive (fun t => coordinate (transform_point (from_scalar_vector (1 - t * t / 8) (multiple (t / 2 - t ^ 3 / 48) (axis k))) (a, b, c)) i) 0 (coordinate (outer (axis k) (a, b, c)) i)).
    { intros g E D. apply (is_derive_ext g); [intros t; symmetry; apply E|exact D]. }
    three k; three i; unfold axis, outer, multiple, from_scalar_vector; (eapply G; [intros t; unfold axis, multiple, from_scalar_vector; rewrite transform_explicit; unfold coordinate; cbn [nth]; reflexivity|]);
      unfold coordinate; cbn [nth]; (auto_derive; [exact I|]); to_R; unfold outer, axis; field.
Qed.
Lemma rotated q v i : unit_quaternion q -> (i < 3)%nat -> coordinate (transform_point q v) i = times 3 (mget (to_rotation_matrix q)) (coordinate v) i.
Proof. intros U Hi. symmetry. apply rotation_matrix_carries; auto. Qed.
Lemma rotated_derive q (v : R -> point) (d : point) i : unit_quaternion q -> (i < 3)%nat -> (forall k, (k < 3)%nat -> is_derive (fun t => coordinate (v t) k) 0 (coordinate d k)) ->
  is_derive (fun t => coordinate (transform_point q (v t)) i) 0 (times 3 (mget (to_rotation_matrix q)) (coordinate d) i).
Proof.
  intros U Hi D. apply (is_derive_ext (fun t => times 3 (mget (to_rotation_matrix q)) (coordinate (v t)) i)); [intros t; symmetry; apply rotated; auto|].
  unfold times, bsum. set (m := mget (to_rotation_matrix q) i).
  pose proof (D 0%nat ltac:(lia)) as D0. pose proof (D 1%nat ltac:(lia)) as D1. pose proof (D 2%nat ltac:(lia)) as D2.
  evar_last; [apply (is_derive_plus (fun t => 0 + m 0%nat * coordinate (v t) 0%nat + m 1%nat * coordinate (v t) 1%nat) (fun t => m 2%nat * coordinate (v t) 2%nat));
    [apply (is_derive_plus (fun t => 0 + m 0%nat * coordinate (v t) 0%nat) (fun t => m 1%nat * coordinate (v t) 1%nat)); [apply (is_derive_plus (fun _ => 0) (fun t => m 0%nat * coordinate (v t) 0%nat)); [apply is_derive_const|apply is_derive_scal, D0]|apply is_derive_scal, D1]|apply is_derive_scal, D2]|].
  unfold plus, zero. cbn. to_R. ring.
Qed.
