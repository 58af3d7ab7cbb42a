(** Rigid motions of space: the group, its matrices, exponential and logarithm. *)
From Coq Require Import ZArith List Bool Arith Reals Lra Lia.
From Coquelicot Require Import Coquelicot.
From Verif Require Import Base.Scalar Base.RNum Base.Lists Base.Series Base.Deriv Model.Vector Model.Matrix Model.Quaternion Model.Lie Spec.Matrix Spec.MatrixExp Spec.Hold Spec.Rotation Spec.Quaternion Spec.Planar Spec.Space Proofs.Matrix Proofs.Algebra Proofs.Expm Proofs.Flow Proofs.Quaternion Proofs.Rotation Proofs.Pairs Proofs.ExpIntegral Proofs.SpaceJacobian Proofs.MotionJacobian.
Import ListNotations.
Local Open Scope R_scope.
Local Notation cos := Rtrigo_def.cos.
Local Notation sin := Rtrigo_def.sin.
Local Notation sqrt := R_sqrt.sqrt.
Local Notation length := Spec.Rotation.length.

Lemma se3_eq (a b : se3 R) : se3_rotation a = se3_rotation b -> se3_translation a = se3_translation b -> a = b.
Proof. destruct a, b. cbn. intros -> ->. reflexivity. Qed.
Ltac flat := repeat match goal with p : point |- _ => destruct p as [[? ?] ?] | p : vec3 R |- _ => destruct p as [[? ?] ?] end; unfold together, multiple, outer, inner; cbn [fst snd]; try (apply point_eq); try ring.
Lemma transform_together q u v : transform_point (T := R) q (together u v) = together (transform_point q u) (transform_point q v).
Proof. pose proof (transform_linear q 1 1 u v) as H. rewrite !multiple_one in H. exact H. Qed.
Lemma transform_zero q : transform_point (T := R) q (0, 0, 0) = (0, 0, 0).
Proof. destruct q. rewrite transform_explicit. apply point_eq; ring. Qed.
Lemma transform_multiple' q k u : transform_point (T := R) q (multiple k u) = multiple k (transform_point q u).
Proof. pose proof (transform_linear q k 0 u u) as H. destruct q, u as [[a b] c]. unfold multiple. rewrite !transform_explicit. apply point_eq; ring. Qed.
Lemma together_assoc u v w : together (together u v) w = together u (together v w). Proof. flat. Qed.
Lemma together_comm u v : together u v = together v u. Proof. flat. Qed.
Lemma together_zero u : together u (0, 0, 0) = u. Proof. flat. Qed.
Lemma together_neg u : together u (multiple (-1) u) = (0, 0, 0). Proof. flat. Qed.

Lemma se3_assoc a b c : se3_compose (T := R) (se3_compose a b) c = se3_compose a (se3_compose b c).
Proof.
  apply se3_eq; unfold se3_compose, so3_compose, so3_act; cbn [se3_rotation se3_translation]; [apply mul_assoc|]. rewrite !add3_R, transform_mul, transform_together, together_assoc. reflexivity.
Qed.
Lemma se3_identity_l a : se3_compose se3_identity a = a /\ se3_compose a (se3_identity (T := R)) = a.
Proof.
  split; apply se3_eq; unfold se3_compose, so3_compose, so3_act, se3_identity, so3_identity, zeros3; cbn [se3_rotation se3_translation]; rewrite ?mul_identity_l, ?mul_identity_r, ?add3_R, ?transform_identity; try reflexivity.
  - apply together_zero.
  - change (transform_point (se3_rotation a) (zero, zero, zero)) with (transform_point (se3_rotation a) (0, 0, 0)). rewrite transform_zero, together_comm. apply together_zero.
Qed.
Lemma conjugate_inverse q : unit_quaternion q -> quat_mul q (conjugate q) = quat_identity /\ quat_mul (conjugate q) q = quat_identity.
Proof. intros U. rewrite mul_conjugate, conjugate_mul_self, (proj1 (unit_is q) U). split; reflexivity. Qed.
Lemma se3_inverses a : unit_se3 a -> se3_compose a (se3_inverse a) = se3_identity /\ se3_compose (se3_inverse a) a = se3_identity.
Proof.
  intros U. destruct (conjugate_inverse _ U) as [A B]. split; apply se3_eq; unfold se3_compose, se3_inverse, so3_compose, so3_inverse, so3_act; cbn [se3_rotation se3_translation se3_identity]; try assumption; rewrite add3_R, neg3_R.
  - rewrite transform_multiple', <- transform_mul, A, transform_identity, together_comm. apply together_neg.
  - apply together_neg.
Qed.
Lemma se3_units a b : unit_se3 a -> unit_se3 b -> unit_se3 (se3_compose a b) /\ unit_se3 (se3_inverse a).
Proof. intros A B. split; [apply unit_mul; assumption|apply unit_conjugate; assumption]. Qed.
Lemma se3_act_compose a b p : se3_act (T := R) (se3_compose a b) p = se3_act a (se3_act b p).
Proof. unfold se3_act, se3_compose, so3_act, so3_compose. cbn [se3_rotation se3_translation]. rewrite !add3_R, transform_mul, transform_together, together_assoc. reflexivity. Qed.

(** ** Matrices *)
Ltac four_i i := destruct i as [|[|[|[|i]]]]; [| | | |exfalso; lia].
Lemma se3_matrix_R a : equal 4 4 (mget (se3_to_matrix a)) (homogeneous (mget (to_rotation_matrix (se3_rotation a))) (se3_translation a)).
Proof.
  destruct a as [q [[x y] z]]. unfold se3_to_matrix, so3_to_matrix. cbn [se3_rotation se3_translation]. set (r := to_rotation_matrix q). clearbody r. intros i j Hi Hj. unfold homogeneous, stacked, column, coordinate, unit_matrix. four_i i; four_i j; reflexivity.
Qed.
Lemma homogeneous_product m p m' p' : equal 4 4 (product 4 (homogeneous m p) (homogeneous m' p')) (stacked 3 (product 3 m m') (fun i _ => times 3 m (coordinate p') i + coordinate p i) unit_matrix).
Proof. intros i j Hi Hj. unfold homogeneous, product, times, bsum, stacked, column, unit_matrix. four_i i; four_i j; cbn [Nat.ltb Nat.leb Nat.sub Nat.eqb]; ring. Qed.
Lemma homogeneous_ext m m' p p' : equal 3 3 m m' -> p = p' -> equal 4 4 (homogeneous m p) (homogeneous m' p').
Proof. intros E -> i j Hi Hj. unfold homogeneous, stacked. destruct (Nat.ltb_spec i 3), (Nat.ltb_spec j 3); try reflexivity. apply E; auto. Qed.
Lemma stacked_ext4 a b c a' b' c' : equal 3 3 a a' -> (forall i, (i < 3)%nat -> b i 0%nat = b' i 0%nat) -> c 0%nat 0%nat = c' 0%nat 0%nat -> equal 4 4 (stacked 3 a b c) (stacked 3 a' b' c').
Proof.
  intros A B C i j Hi Hj. unfold stacked. destruct (Nat.ltb_spec i 3), (Nat.ltb_spec j 3); [apply A; auto|replace (j - 3)%nat with 0%nat by lia; auto|reflexivity|]. replace (i - 3)%nat with 0%nat by lia. replace (j - 3)%nat with 0%nat by lia. exact C.
Qed.
Lemma rotation_matrix_mul p q : unit_quaternion p -> unit_quaternion q -> equal 3 3 (mget (to_rotation_matrix (quat_mul p q))) (product 3 (mget (to_rotation_matrix p)) (mget (to_rotation_matrix q))).
Proof.
  intros P Q. assert (U := unit_mul p q P Q). apply carries_unique. intros v w C i Hi. rewrite <- (C i Hi). rewrite (rotation_matrix_carries _ v U i Hi), transform_mul.
  rewrite <- (rotation_matrix_carries p (transform_point q v) P i Hi). rewrite times_product. apply times_ext; [reflexivity|]. intros k Hk. apply (rotation_matrix_carries q v Q k Hk).
Qed.
Lemma coordinate_together u v i : coordinate (together u v) i = coordinate u i + coordinate v i.
Proof. destruct u as [[a b] c], v as [[d e] f]. unfold coordinate, together. destruct i as [|[|[|[|i]]]]; cbn; ring. Qed.
Lemma se3_product a b : unit_se3 a -> unit_se3 b -> equal 4 4 (mget (se3_to_matrix (se3_compose a b))) (product 4 (mget (se3_to_matrix a)) (mget (se3_to_matrix b))).
Proof.
  intros A B. eapply equal_trans; [apply se3_matrix_R|]. eapply equal_trans; [|apply equal_product; apply equal_sym, se3_matrix_R]. eapply equal_trans; [|apply equal_sym, homogeneous_product].
  unfold homogeneous. apply stacked_ext4; [apply rotation_matrix_mul; assumption| |reflexivity]. intros i Hi. unfold column, se3_compose, so3_act. cbn [se3_translation]. rewrite add3_R, coordinate_together. f_equal. symmetry. apply rotation_matrix_carries; assumption.
Qed.
Lemma se3_action a p : unit_se3 a -> equal_vectors 4 (appended (se3_act a p)) (times 4 (mget (se3_to_matrix a)) (appended p)).
Proof.
  intros U i Hi. rewrite (times_ext 4 _ (homogeneous (mget (to_rotation_matrix (se3_rotation a))) (se3_translation a)) _ (appended p) i (fun k Hk => se3_matrix_R a i k Hi Hk) (fun k _ => eq_refl)).
  assert (C := rotation_matrix_carries (se3_rotation a) p U). unfold se3_act, so3_act. rewrite add3_R. unfold homogeneous, times, bsum, stacked, column, unit_matrix, appended. four_i i; cbn [Nat.ltb Nat.leb Nat.sub Nat.eqb].
  4: ring.
  all: rewrite coordinate_together, <- C by lia; unfold times, bsum; ring.
Qed.
Lemma se3_space_motion a : unit_se3 a -> space_motion (mget (se3_to_matrix a)).
Proof. intros U. exists (mget (to_rotation_matrix (se3_rotation a))), (se3_translation a). split; [apply rotation_matrix_proper, U|apply se3_matrix_R]. Qed.
Lemma se3_hat_R (v : velocity) : equal 4 4 (mget (se3_hat v)) (velocity_matrix v).
Proof. destruct v as [[[x y] z] [[a b] c]]. intros i j Hi Hj. unfold velocity_matrix, stacked, cross_matrix, column, coordinate, zero_matrix, mget, se3_hat. cbn [fst snd]. rnum. four_i i; four_i j; reflexivity. Qed.
Lemma se3_vee_hat (v : velocity) : se3_vee (se3_hat (T := R) v) = v.
Proof. destruct v as [[[x y] z] [[a b] c]]. reflexivity. Qed.

(** ** The exponential *)
Definition carried (m : matrix) (p : point) : point := (times 3 m (coordinate p) 0%nat, times 3 m (coordinate p) 1%nat, times 3 m (coordinate p) 2%nat).
Lemma carried_coordinate m p : equal_vectors 3 (coordinate (carried m p)) (times 3 m (coordinate p)).
Proof. intros i Hi. three i; reflexivity. Qed.
Lemma carries_carried m p : carries m p (carried m p).
Proof. intros i Hi. symmetry. apply carried_coordinate, Hi. Qed.
Lemma velocity_product v m p : equal 4 4 (product 4 (velocity_matrix v) (homogeneous m p)) (stacked 3 (product 3 (cross_matrix (snd v)) m) (fun i _ => times 3 (cross_matrix (snd v)) (coordinate p) i + coordinate (fst v) i) zero_matrix).
Proof. intros i j Hi Hj. unfold velocity_matrix, homogeneous, product, times, bsum, stacked, column, unit_matrix, zero_matrix. four_i i; four_i j; cbn [Nat.ltb Nat.leb Nat.sub Nat.eqb]; ring. Qed.
Lemma motion_exp (v : velocity) : equal 4 4 (matrix_exp 4 (velocity_matrix v)) (homogeneous (matrix_exp 3 (cross_matrix (snd v))) (carried (exact_jacobian (snd v)) (fst v))).
Proof.
  destruct v as [rho phi]. cbn [fst snd].
  assert (E := exp_unique_1 4 (velocity_matrix (rho, phi)) (fun t => homogeneous (plus_matrix unit_matrix (product 3 (cross_matrix phi) (swept phi t))) (carried (swept phi t) rho))). apply equal_sym. eapply equal_trans; [|apply E].
  - destruct (swept_integral phi 1 ltac:(lra)) as [X _]. apply homogeneous_ext.
    + eapply equal_trans; [|exact X]. apply matrix_exp_ext. unfold exp_at. apply equal_sym, equal_scaled_one, equal_refl.
    + apply coordinate_inj. intros i Hi. rewrite !carried_coordinate by auto. apply times_ext; [|intros k _; reflexivity]. intros k Hk. symmetry. apply swept_one; auto.
  - intros t i j Hi Hj. rewrite velocity_product by auto. cbn [fst snd]. unfold homogeneous. destruct (Nat.ltb_spec i 3) as [I|I].
    + apply Nat.ltb_lt in I as I'. unfold stacked. rewrite I'. destruct (Nat.ltb_spec j 3) as [J|J].
      * unfold plus_matrix at 1. evar_last. { apply @is_derive_plus; [apply @is_derive_const|]. apply (derive_product 3 (cross_matrix phi) (swept phi) (plus_matrix unit_matrix (product 3 (cross_matrix phi) (swept phi t))) t i j I). intros k Hk. apply swept_derive; auto. } apply Rplus_0_l.
      * unfold column. apply (is_derive_ext (fun s => times 3 (swept phi s) (coordinate rho) i)). { intros s. symmetry. apply carried_coordinate, I. }
        evar_last. { apply (is_derive_sum 3 (fun k s => swept phi s i k * coordinate rho k) (fun k => (unit_matrix i k + product 3 (cross_matrix phi) (swept phi t) i k) * coordinate rho k)). intros k Hk. apply (is_derive_scal_l (fun s => swept phi s i k) t _ (coordinate rho k)). apply swept_derive; auto. }
        match goal with |- ?u = ?v => change (@eq R u v) end. rewrite (times_ext 3 _ (cross_matrix phi) _ (times 3 (swept phi t) (coordinate rho)) i (fun k _ => eq_refl) (carried_coordinate _ _)).
        rewrite <- times_product. rewrite (bsum_ext 3 _ (fun k => unit_matrix i k * coordinate rho k + product 3 (cross_matrix phi) (swept phi t) i k * coordinate rho k)) by (intros; ring). rewrite bsum_plus. fold (times 3 unit_matrix (coordinate rho) i). rewrite (times_unit 3 (coordinate rho) i I). unfold times. ring.
    + unfold stacked. rewrite (proj2 (Nat.ltb_ge i 3) I). destruct (Nat.ltb j 3); [apply @is_derive_const|]. unfold zero_matrix. apply @is_derive_const.
  - intros i j Hi Hj. rewrite (homogeneous_ext _ unit_matrix _ (0, 0, 0)).
    + unfold homogeneous, stacked, column, unit_matrix, coordinate. four_i i; four_i j; reflexivity.
    + intros p q Hp Hq. unfold plus_matrix. rewrite (equal_product 3 3 3 _ _ _ _ (equal_refl 3 3 _) (swept_zero phi) p q Hp Hq), p_zero_r. unfold zero_matrix. apply Rplus_0_r.
    + apply coordinate_inj. intros k Hk. rewrite carried_coordinate by auto. unfold times, bsum. rewrite !swept_zero by lia. unfold zero_matrix. three k; cbn; ring.
    + exact Hi.
    + exact Hj.
Qed.

(** ** What the code computes *)
Lemma mat_vec_R (m : mat R) (p : point) : of_list3 (mat_vec 3 3 m (list3 p)) = carried (mget m) p.
Proof. destruct p as [[x y] z]. unfold of_list3, mat_vec, list3, carried, times, bsum, coordinate, loop_sum, vget. cbn [from_fn map seq fold_left nth Nat.add app range Nat.sub]. cbn. rnum. apply point_eq; ring. Qed.
Lemma carried_ext m m' p : equal 3 3 m m' -> carried m p = carried m' p.
Proof. intros E. apply coordinate_inj. intros i Hi. rewrite !carried_coordinate by auto. apply times_ext; [intros k Hk; apply E; auto|intros k _; reflexivity]. Qed.
Lemma carried_product a b p : carried (product 3 a b) p = carried a (carried b p).
Proof. apply coordinate_inj. intros i Hi. rewrite !carried_coordinate by auto. rewrite times_product. apply times_ext; [intros; reflexivity|]. intros k Hk. symmetry. apply carried_coordinate, Hk. Qed.
Lemma carried_unit p : carried unit_matrix p = p.
Proof. apply coordinate_inj. intros i Hi. rewrite carried_coordinate by auto. apply times_unit, Hi. Qed.
Lemma carried_near a b p d i : (i < 3)%nat -> (forall i j, (i < 3)%nat -> (j < 3)%nat -> Rabs (a i j - b i j) <= d) -> Rabs (coordinate (carried a p) i - coordinate (carried b p) i) <= 3 * d * length p.
Proof.
  intros Hi H. rewrite !carried_coordinate by auto. unfold times, bsum.
  assert (K : forall k, (k < 3)%nat -> Rabs ((a i k - b i k) * coordinate p k) <= d * length p). { intros k Hk. rewrite Rabs_mult. apply Rmult_le_compat; auto using Rabs_pos, coordinate_bound. }
  pose proof (K 0%nat ltac:(lia)). pose proof (K 1%nat ltac:(lia)). pose proof (K 2%nat ltac:(lia)).
  match goal with |- Rabs ?u <= _ => replace u with ((a i 0%nat - b i 0%nat) * coordinate p 0%nat + (a i 1%nat - b i 1%nat) * coordinate p 1%nat + (a i 2%nat - b i 2%nat) * coordinate p 2%nat) by ring end.
  eapply Rle_trans; [apply Rabs_triang|]. eapply Rle_trans; [apply Rplus_le_compat_r, Rabs_triang|]. lra.
Qed.
Lemma se3_exp_R (rho phi : point) : se3_exp (rho, phi) = SE3 (from_scaled_axis phi) (carried (mget (left_jacobian_so3 phi)) rho).
Proof. unfold se3_exp, so3_exp. rewrite mat_vec_R. reflexivity. Qed.
Lemma se3_log_R a : se3_log a = (carried (mget (inverse_left_jacobian_so3 (to_scaled_axis (se3_rotation a)))) (se3_translation a), to_scaled_axis (se3_rotation a)).
Proof. unfold se3_log, so3_log. rewrite mat_vec_R. reflexivity. Qed.
Lemma length_origin : length (0, 0, 0) = 0.
Proof. apply length_zero. reflexivity. Qed.
Lemma exp_origin : from_scaled_axis (T := R) (0, 0, 0) = quat_identity.
Proof.
  pose proof small_bound. rewrite from_scaled_axis_small by (rewrite length_origin; lra). rewrite length_origin. unfold from_scalar_vector, multiple, quat_identity. rnum. f_equal; field.
Qed.
Lemma turning l : 0 <= l -> 2520 * / IZR (2^52) <= l ^ 6 -> 4 * small <= l.
Proof.
  intros L H. apply Rnot_lt_le. intros Q. pose proof power_52 as E. unfold small in Q. assert (B : l <= / 1000000) by (unfold Rdiv in Q; lra). assert (l ^ 6 <= (/ 1000000) ^ 6) by (apply pow_incr; lra).
  assert (P52 : / 10000000000000000 <= / IZR (2^52)). { apply Rinv_le_contravar; [apply IZR_lt; lia|apply IZR_le; lia]. } lra.
Qed.
Lemma rotation_exact (phi : point) : 2520 * / IZR (2^52) <= length phi ^ 6 \/ phi = (0, 0, 0) -> unit_quaternion (from_scaled_axis phi) /\ equal 3 3 (mget (to_rotation_matrix (from_scaled_axis phi))) (matrix_exp 3 (cross_matrix phi)).
Proof.
  intros [H| ->].
  - apply exp_large. pose proof (turning _ (length_nonneg phi) H). pose proof small_bound. lra.
  - rewrite exp_origin. split; [apply unit_identity|]. eapply equal_trans; [|apply cross_zero_exp]. intros i j Hi Hj. unfold to_rotation_matrix, quat_identity, mget, unit_matrix. rnum. three i; three j; cbn; ring.
Qed.
Definition turns_enough (phi : point) : Prop := 2520 * / IZR (2^52) <= length phi ^ 6 \/ phi = (0, 0, 0).
Lemma se3_exp_exact (v : velocity) : turns_enough (snd v) -> unit_se3 (se3_exp v) /\ equal 4 4 (mget (se3_to_matrix (se3_exp v))) (matrix_exp 4 (velocity_matrix v)).
Proof.
  intros H. destruct v as [rho phi]. cbn [snd] in H. destruct (rotation_exact phi H) as [U E]. rewrite se3_exp_R. split; [exact U|].
  eapply equal_trans; [apply se3_matrix_R|]. eapply equal_trans; [|apply equal_sym, motion_exp]. cbn [fst snd se3_rotation se3_translation]. apply homogeneous_ext; [exact E|]. apply carried_ext, left_jacobian_exact, H.
Qed.
Lemma se3_exp_near (v : velocity) i j : (i < 4)%nat -> (j < 4)%nat -> length (snd v) ^ 6 < 2520 * / IZR (2^52) ->
  Rabs (mget (se3_to_matrix (se3_exp v)) i j - matrix_exp 4 (velocity_matrix v) i j) <= (if Rlt_dec (length (snd v)) small then length (snd v) ^ 4 else 0) + length (snd v) ^ 5 * length (fst v).
Proof.
  intros Hi Hj H. destruct v as [rho phi]. cbn [fst snd] in *. rewrite se3_exp_R, se3_matrix_R, motion_exp by auto. cbn [fst snd se3_rotation se3_translation].
  pose proof (length_nonneg phi) as L. pose proof (length_nonneg rho) as L'. pose proof (pow_le _ 5 L) as P5. pose proof (pow_le _ 4 L) as P4. pose proof power_52 as E52.
  set (tail := if Rlt_dec (length phi) small then length phi ^ 4 else 0). assert (T : 0 <= tail) by (unfold tail; destruct (Rlt_dec _ _); lra).
  assert (L1 : length phi <= 1). { apply Rnot_lt_le. intros Q. assert (1 <= length phi ^ 6) by (apply pow_R1_Rle; lra). lra. } assert (P6 : length phi ^ 6 <= length phi ^ 5) by (apply power_le; [lra|lia]).
  assert (Z : 0 <= length phi ^ 5 * length rho) by (apply Rmult_le_pos; assumption).
  unfold homogeneous, stacked. destruct (Nat.ltb_spec i 3), (Nat.ltb_spec j 3); [| |rewrite Rminus_diag_eq, Rabs_R0 by reflexivity; lra..].
  - assert (B : Rabs (mget (to_rotation_matrix (from_scaled_axis phi)) i j - matrix_exp 3 (cross_matrix phi) i j) <= tail); [|lra].
    unfold tail. destruct (Rlt_dec _ _) as [A|A]; [apply exp_small; auto|]. destruct (exp_large phi ltac:(lra)) as [_ X]. rewrite X by auto. rewrite Rminus_diag_eq, Rabs_R0 by reflexivity. lra.
  - unfold column. eapply Rle_trans; [apply (carried_near _ _ rho (length phi ^ 5 / 720 + length phi ^ 6 / 5040)); auto; intros; apply left_jacobian_near; auto|].
    assert (3 * (length phi ^ 5 / 720 + length phi ^ 6 / 5040) * length rho <= length phi ^ 5 * length rho) by (apply Rmult_le_compat_r; lra). lra.
Qed.

(** ** The logarithm *)
Lemma jacobian_pair (phi : point) (p : point) : (15120 * / IZR (2^52) <= length phi ^ 6 /\ length phi <= PI) \/ phi = (0, 0, 0) ->
  carried (mget (left_jacobian_so3 phi)) (carried (mget (inverse_left_jacobian_so3 phi)) p) = p /\ carried (mget (inverse_left_jacobian_so3 phi)) (carried (mget (left_jacobian_so3 phi)) p) = p.
Proof.
  intros H. pose proof power_52 as E. assert (H1 : 15120 * / IZR (2^52) <= length phi ^ 6 \/ phi = (0, 0, 0)) by tauto. assert (H2 : 2520 * / IZR (2^52) <= length phi ^ 6 \/ phi = (0, 0, 0)) by (destruct H1; [left; lra|right; auto]).
  assert (H3 : phi = (0, 0, 0) \/ sin (length phi / 2) <> 0).
  { destruct H as [[A B]|A]; [right|left; exact A]. assert (N : phi <> (0, 0, 0)) by (intros ->; rewrite length_origin in A; lra). pose proof (length_pos phi N). apply Rgt_not_eq, sin_gt_0; lra. }
  destruct (exact_inverse phi H3) as [A B]. rewrite <- !carried_product. split; rewrite <- (carried_unit p) at 2; apply carried_ext.
  - eapply equal_trans; [apply equal_product; [apply left_jacobian_exact, H2|apply inverse_left_jacobian_exact, H1]|exact A].
  - eapply equal_trans; [apply equal_product; [apply inverse_left_jacobian_exact, H1|apply left_jacobian_exact, H2]|exact B].
Qed.
Lemma log_length q : unit_quaternion q -> length (to_scaled_axis q) <= PI.
Proof.
  intros U. pose proof PI2_3_2. unfold PI2 in *. pose proof small_bound as S. destruct (Rlt_dec (length (quat_vec q)) small) as [A|A].
  - rewrite to_scaled_axis_R. destruct (Rlt_dec _ _); [|lra]. rewrite length_multiple, vec_shortest_length, Rabs_pos_eq by lra.
    assert (/ IZR (2^47) <= / 1000) by (apply Rinv_le_contravar; [lra|apply IZR_le; lia]). lra.
  - destruct (log_large q U ltac:(lra)) as [_ L]. pose proof (half_angle_range q). lra.
Qed.
Lemma log_vector_large q : unit_quaternion q -> 2520 * / IZR (2^52) <= length (to_scaled_axis q) ^ 6 -> small <= length (quat_vec q).
Proof.
  intros U H. apply Rnot_lt_le. intros A. pose proof (turning _ (length_nonneg _) H) as B. rewrite to_scaled_axis_R in B. destruct (Rlt_dec _ _); [|lra]. rewrite length_multiple, vec_shortest_length, Rabs_pos_eq in B by lra. pose proof (length_nonneg (quat_vec q)). lra.
Qed.
Lemma log_no_vector q : quat_vec q = (0, 0, 0) -> to_scaled_axis q = (0, 0, 0).
Proof.
  intros H. pose proof small_bound. rewrite to_scaled_axis_R. destruct (Rlt_dec _ _) as [A|A]; [|exfalso; apply A; rewrite H, length_origin; lra].
  apply length_zero. rewrite length_multiple, vec_shortest_length, H, length_origin. ring.
Qed.
Lemma same_matrix a b : same_motion a b -> equal 4 4 (mget (se3_to_matrix a)) (mget (se3_to_matrix b)).
Proof.
  intros [T O]. eapply equal_trans; [apply se3_matrix_R|]. eapply equal_trans; [|apply equal_sym, se3_matrix_R]. apply homogeneous_ext; [|exact T]. destruct O as [->| ->]; intros i j Hi Hj; [reflexivity|]. unfold to_rotation_matrix, quat_neg, mget. rnum. three i; three j; cbn [nth qw qx qy qz]; ring.
Qed.
Lemma se3_exp_log a : unit_se3 a -> 15120 * / IZR (2^52) <= length (snd (se3_log a)) ^ 6 \/ quat_vec (se3_rotation a) = (0, 0, 0) -> same_motion (se3_exp (se3_log a)) a.
Proof.
  intros U H. rewrite se3_log_R in H |- *. cbn [snd] in H. rewrite se3_exp_R. set (phi := to_scaled_axis (se3_rotation a)) in *. pose proof (log_length _ U) as L. fold phi in L.
  destruct H as [H|H].
  - split; cbn [se3_rotation se3_translation]; [apply jacobian_pair; left; auto|]. pose proof power_52. destruct (log_large _ U (log_vector_large _ U ltac:(fold phi; lra))) as [E _]. fold phi in E. rewrite E. apply shortest_is.
  - assert (Z : phi = (0, 0, 0)) by (apply log_no_vector, H). split; cbn [se3_rotation se3_translation]; [apply jacobian_pair; right; exact Z|]. rewrite Z, exp_origin. destruct a as [[w x y z] t]. cbn [se3_rotation] in *. unfold quat_vec in H. cbn in H. injection H as -> -> ->.
    unfold unit_se3, unit_quaternion in U. cbn in U. assert (W : w * w = 1) by lra. assert (C : w = 1 \/ w = -1). { assert ((w - 1) * (w + 1) = 0) by lra. apply Rmult_integral in H as [H|H]; [left|right]; lra. }
    destruct C as [-> | ->]; [left|right]; unfold quat_identity, quat_neg; cbn; rnum; f_equal; ring.
Qed.
Lemma se3_log_exp (v : velocity) : (15120 * / IZR (2^52) <= length (snd v) ^ 6 /\ length (snd v) <= PI) \/ snd v = (0, 0, 0) -> se3_log (se3_exp v) = v.
Proof.
  intros H. destruct v as [rho phi]. cbn [snd] in H. rewrite se3_exp_R, se3_log_R. cbn [se3_rotation se3_translation]. assert (E : to_scaled_axis (from_scaled_axis phi) = phi).
  { destruct H as [[A B]| ->]; [|rewrite exp_origin; apply log_no_vector; reflexivity]. apply log_exp_exact. pose proof power_52. split; [apply turning; [apply length_nonneg|lra]|exact B]. }
  rewrite E. f_equal. apply jacobian_pair, H.
Qed.
Lemma se3_log_near a i : unit_se3 a -> (i < 3)%nat -> let v := se3_log a in length (snd v) ^ 6 < 15120 * / IZR (2^52) ->
  Rabs (coordinate (se3_translation (se3_exp v)) i - coordinate (se3_translation a) i) <= 3 * length (snd v) ^ 5 * length (se3_translation a).
Proof.
  intros U Hi v. unfold v. rewrite se3_log_R. cbn [snd]. intros H. rewrite se3_exp_R. cbn [se3_translation]. rewrite <- carried_product. rewrite <- (carried_unit (se3_translation a)) at 2.
  apply carried_near; auto. intros p q Hp Hq. apply (small_inverse _ p q Hp Hq H).
Qed.

(** ** Interpolation *)
Lemma multiple_zero u : multiple 0 u = (0, 0, 0). Proof. flat. Qed.
Lemma velocity_scaled v s : velocity_matrix (scale6 (T := R) v s) = velocity_matrix (multiple s (fst v), multiple s (snd v)).
Proof. unfold scale6. rewrite !scale3_R. reflexivity. Qed.
Lemma velocity_matrix_scaled v s : equal 4 4 (velocity_matrix (multiple s (fst v), multiple s (snd v))) (scaled_matrix s (velocity_matrix v)).
Proof. destruct v as [[[x y] z] [[a b] c]]. intros i j Hi Hj. unfold velocity_matrix, scaled_matrix, stacked, column, cross_matrix, coordinate, zero_matrix, multiple. cbn [fst snd]. four_i i; four_i j; cbn; ring. Qed.
Lemma se3_exp_zero : se3_exp (T := R) ((0, 0, 0), (0, 0, 0)) = se3_identity.
Proof.
  rewrite se3_exp_R, exp_origin. unfold se3_identity, so3_identity. f_equal. rewrite (carried_ext _ unit_matrix); [apply carried_unit|]. eapply equal_trans; [apply left_jacobian_exact; right; reflexivity|]. unfold exact_jacobian. eapply equal_trans; [apply (series3_ext (0, 0, 0) 1 _ _ 0 0); contradiction|]. intros i j _ _. unfold series3. ring.
Qed.
Lemma se3_relative a b : unit_se3 a -> unit_se3 b -> unit_se3 (se3_compose (se3_inverse a) b).
Proof. intros A B. apply se3_units; [apply (se3_units a b A B)|exact B]. Qed.
Lemma compose_same a b c : same_motion b c -> same_motion (se3_compose a b) (se3_compose a c).
Proof.
  intros [T O]. unfold same_motion, se3_compose, so3_compose, so3_act. cbn [se3_rotation se3_translation]. rewrite T. split; [reflexivity|]. destruct O as [->| ->]; [left; reflexivity|right]. apply quat_eq; destruct (se3_rotation a), (se3_rotation c); unfold quat_mul, quat_neg; cbn; rnum; ring.
Qed.
Lemma se3_interpolate_R a b s : se3_interpolate a b s = se3_compose a (se3_exp (let v := se3_log (se3_compose (se3_inverse a) b) in (multiple s (fst v), multiple s (snd v)))).
Proof. unfold se3_interpolate, scale6. rewrite !scale3_R. reflexivity. Qed.
Lemma se3_interpolate_ends a b : unit_se3 a -> unit_se3 b -> se3_interpolate a b 0 = a /\
  (let c := se3_compose (se3_inverse a) b in 15120 * / IZR (2^52) <= length (snd (se3_log c)) ^ 6 \/ quat_vec (se3_rotation c) = (0, 0, 0) -> same_motion (se3_interpolate a b 1) b).
Proof.
  intros A B. rewrite !se3_interpolate_R. cbv zeta. split.
  - rewrite !multiple_zero. transitivity (se3_compose a se3_identity); [f_equal; exact se3_exp_zero|apply se3_identity_l].
  - intros H. rewrite !multiple_one. replace (_, _) with (se3_log (se3_compose (se3_inverse a) b)) by (destruct (se3_log _); reflexivity).
    pose proof (compose_same a _ _ (se3_exp_log _ (se3_relative a b A B) H)) as S. replace (se3_compose a (se3_compose (se3_inverse a) b)) with b in S; [exact S|]. rewrite <- se3_assoc, (proj1 (se3_inverses a A)). symmetry. apply se3_identity_l.
Qed.
Lemma se3_interpolate_matrix a b s : unit_se3 a -> unit_se3 b -> let v := se3_log (se3_compose (se3_inverse a) b) in turns_enough (multiple s (snd v)) ->
  equal 4 4 (mget (se3_to_matrix (se3_interpolate a b s))) (product 4 (mget (se3_to_matrix a)) (exp_at 4 (velocity_matrix v) s)).
Proof.
  intros A B v H. rewrite se3_interpolate_R. cbv zeta. fold v. destruct (se3_exp_exact (multiple s (fst v), multiple s (snd v)) H) as [U E]. eapply equal_trans; [apply se3_product; assumption|]. apply equal_product; [apply equal_refl|].
  eapply equal_trans; [exact E|]. unfold exp_at. apply matrix_exp_ext, velocity_matrix_scaled.
Qed.

(** ** From a matrix *)
Definition upper_block (m : mat R) : mat R := [[mget m 0 0; mget m 0 1; mget m 0 2]; [mget m 1 0; mget m 1 1; mget m 1 2]; [mget m 2 0; mget m 2 1; mget m 2 2]].
Lemma upper_block_R m : equal 3 3 (mget (upper_block m)) (mget m).
Proof. intros i j Hi Hj. three i; three j; reflexivity. Qed.
Lemma se3_from_matrix_R m : se3_try_from_matrix m =
  if Rlt_dec small (Rabs (mget m 3 0)) then None else if Rlt_dec small (Rabs (mget m 3 1)) then None else if Rlt_dec small (Rabs (mget m 3 2)) then None else if Rlt_dec small (Rabs (mget m 3 3 - 1)) then None else
  match so3_try_from_matrix (upper_block m) with None => None | Some q => Some (SE3 q (mget m 0 3, mget m 1 3, mget m 2 3)) end.
Proof.
  unfold se3_try_from_matrix, upper_block. set (block := so3_try_from_matrix _). clearbody block. rnum. cbn [negb orb]. fold small. unfold Rltb. repeat destruct (Rlt_dec _ _); reflexivity.
Qed.
Definition last_row_near (m : matrix) : Prop := forall j, (j < 4)%nat -> Rabs (m 3%nat j - unit_matrix 3%nat j) <= small.
Lemma se3_from_matrix m : (last_row_near (mget m) /\ se3_try_from_matrix m = match so3_try_from_matrix (upper_block m) with None => None | Some q => Some (SE3 q (mget m 0 3, mget m 1 3, mget m 2 3)) end) \/ (~ last_row_near (mget m) /\ se3_try_from_matrix m = None).
Proof.
  rewrite se3_from_matrix_R. unfold last_row_near.
  destruct (Rlt_dec small (Rabs (mget m 3 0))) as [A|A]; [right; split; [intros H; specialize (H 0%nat ltac:(lia)); cbv [unit_matrix Nat.eqb] in H; rewrite Rminus_0_r in H; lra|reflexivity]|].
  destruct (Rlt_dec small (Rabs (mget m 3 1))) as [B|B]; [right; split; [intros H; specialize (H 1%nat ltac:(lia)); cbv [unit_matrix Nat.eqb] in H; rewrite Rminus_0_r in H; lra|reflexivity]|].
  destruct (Rlt_dec small (Rabs (mget m 3 2))) as [C|C]; [right; split; [intros H; specialize (H 2%nat ltac:(lia)); cbv [unit_matrix Nat.eqb] in H; rewrite Rminus_0_r in H; lra|reflexivity]|].
  destruct (Rlt_dec small (Rabs (mget m 3 3 - 1))) as [D|D]; [right; split; [intros H; specialize (H 3%nat ltac:(lia)); cbv [unit_matrix Nat.eqb] in H; lra|reflexivity]|].
  left. split; [|reflexivity]. intros j Hj. four_i j; cbv [unit_matrix Nat.eqb]; rewrite ?Rminus_0_r; lra.
Qed.
Lemma proper_ext a b : equal 3 3 a b -> proper_rotation b -> proper_rotation a.
Proof.
  intros E [P D]. split.
  - eapply equal_trans; [apply equal_product; [|exact E]|exact P]. intros i j Hi Hj. unfold transposed. apply E; auto.
  - rewrite <- D. unfold det, without, skip, bsum. cbn [Nat.ltb Nat.leb pow]. rewrite !E by lia. reflexivity.
Qed.
Lemma se3_from_matrix_proper m : proper_rotation (mget m) -> last_row_near (mget m) -> exists a, se3_try_from_matrix m = Some a /\ unit_se3 a /\ forall i j, (i < 3)%nat -> (j < 4)%nat -> mget (se3_to_matrix a) i j = mget m i j.
Proof.
  intros P L. destruct (se3_from_matrix m) as [[_ E]|[N _]]; [|contradiction]. destruct (so3_from_matrix_proper (upper_block m) (proper_ext _ _ (upper_block_R m) P)) as (q & Q & U & M). rewrite Q in E. eexists. split; [exact E|]. split; [exact U|].
  intros i j Hi Hj. rewrite se3_matrix_R by (auto; lia). cbn [se3_rotation se3_translation]. unfold homogeneous, stacked. rewrite (proj2 (Nat.ltb_lt i 3)) by lia. destruct (Nat.ltb_spec j 3).
  - rewrite M by auto. apply upper_block_R; auto.
  - assert (j = 3%nat) by lia. subst j. unfold column, coordinate. three i; reflexivity.
Qed.
Lemma se3_round_trip a : unit_se3 a -> exists b, se3_try_from_matrix (se3_to_matrix a) = Some b /\ unit_se3 b /\ se3_translation b = se3_translation a /\ equal 3 3 (mget (to_rotation_matrix (se3_rotation b))) (mget (to_rotation_matrix (se3_rotation a))).
Proof.
  intros U. destruct (se3_from_matrix_proper (se3_to_matrix a)) as (b & E & Ub & M).
  - eapply proper_ext; [|apply (rotation_matrix_proper _ U)]. intros i j Hi Hj. rewrite se3_matrix_R by lia. unfold homogeneous, stacked. rewrite !(proj2 (Nat.ltb_lt _ 3)) by lia. reflexivity.
  - intros j Hj. rewrite se3_matrix_R by lia. unfold homogeneous, stacked, unit_matrix. pose proof small_bound. four_i j; cbn; unfold unit_matrix; cbn; unfold Rminus; rewrite Rplus_opp_r, Rabs_R0; lra.
  - exists b. split; [exact E|]. split; [exact Ub|]. split.
    + apply coordinate_inj. intros i Hi. specialize (M i 3%nat Hi ltac:(lia)). rewrite !se3_matrix_R in M by lia. unfold homogeneous, stacked in M. rewrite (proj2 (Nat.ltb_lt i 3)) in M by lia. exact M.
    + intros i j Hi Hj. specialize (M i j Hi ltac:(lia)). rewrite !se3_matrix_R in M by lia. unfold homogeneous, stacked in M. rewrite !(proj2 (Nat.ltb_lt _ 3)) in M by lia. exact M.
Qed.
