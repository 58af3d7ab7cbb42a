(** C95 the quaternion exponential and logarithm. *)
From Coq Require Import ZArith List Bool Arith Reals Lra Lia.
From Coquelicot Require Import Coquelicot.
From Verif Require Import Base.Scalar Base.RNum Base.Lists Base.Series Base.Trig Model.Vector Model.Matrix Model.Quaternion Spec.Matrix Spec.MatrixExp Spec.Rotation Spec.Quaternion Proofs.Matrix Proofs.Algebra Proofs.Expm Proofs.Quaternion Proofs.Angle Proofs.Rotation Proofs.QuatExp.
Import ListNotations.
Local Open Scope R_scope.
Local Notation cos := Rtrigo_def.cos.
Local Notation sin := Rtrigo_def.sin.
Local Notation sqrt := R_sqrt.sqrt.
Local Notation exp := Rtrigo_def.exp.
Local Notation length := Spec.Rotation.length.

(** The left-multiplication matrix is multiplication. *)
Lemma left_matrix_is p q i : (i < 4)%nat -> component (quat_mul p q) i = times 4 (left_matrix p) (component q) i.
Proof. intros Hi. destruct p as [w x y z], q as [w' x' y' z']. unfold component, quat_mul, times, bsum, left_matrix. cbn [qw qx qy qz]. rnum. four i; cbn [nth]; ring. Qed.

(** Multiplying by exp q is the matrix exponential of multiplying by q: exactly once the vector part is 30 eps long, and
    within e^w |v|^4 below. *)
Theorem C95_exponential q :
  (30 / IZR (2^52) <= length (quat_vec q) -> equal 4 4 (left_matrix (quat_exp q)) (matrix_exp 4 (left_matrix q))) /\
  (length (quat_vec q) < 30 / IZR (2^52) -> forall i j, (i < 4)%nat -> (j < 4)%nat ->
     Rabs (left_matrix (quat_exp q) i j - matrix_exp 4 (left_matrix q) i j) <= exp (qw q) * length (quat_vec q) ^ 4).
Proof.
  fold small. split; [|apply exp_near]. intros H. rewrite quat_exp_large by exact H. replace (left_matrix q) with (left_matrix (from_scalar_vector (qw q) (quat_vec q))) by (rewrite vector_eq; reflexivity).
  apply exact_exp_left. intros E. rewrite E, length_coordinates_zero in H. pose proof small_bound. lra.
Qed.
(** q is the exponential of its logarithm: exactly when the vector part is at least 30 eps long or the scalar part is not
    positive, and within |q| (|v| / |q|)^3 otherwise.  A negative real number has no logarithm here. *)
Theorem C95_logarithm q :
  (quat_vec q <> (0, 0, 0) -> 30 / IZR (2^52) <= length (quat_vec q) \/ qw q <= 0 -> equal 4 4 (matrix_exp 4 (left_matrix (quat_log q))) (left_matrix q)) /\
  (0 < qw q -> length (quat_vec q) < 30 / IZR (2^52) -> forall i j, (i < 4)%nat -> (j < 4)%nat ->
     Rabs (matrix_exp 4 (left_matrix (quat_log q)) i j - left_matrix q i j) <= quat_norm q * (length (quat_vec q) / quat_norm q) ^ 3).
Proof.
  fold small. rewrite quat_log_R. split.
  - intros N H. replace (_ && _)%bool with false; [|symmetry; apply andb_false_iff; destruct H; [left|right]; apply Rltb_false; assumption].
    apply equal_sym. assert (E := exact_exp_log q N). rewrite <- E at 1. apply exact_exp_left. intros Z.
    rewrite Z in E. assert (W : length (quat_vec q) = length (quat_vec (exact_exp (ln (quat_norm q)) (0, 0, 0)))) by (rewrite E; reflexivity). unfold exact_exp in W. rewrite vector_of, length_multiple, length_coordinates_zero in W. apply N, length_zero. lra.
  - intros W H i j Hi Hj. rewrite (proj2 (Rltb_true _ _) H), (proj2 (Rltb_true _ _) W). cbn [andb].
    assert (NQ : q <> Quat 0 0 0 0) by (intros ->; cbn in W; lra). destruct (norm_polar q NQ) as [P Hy].
    destruct (Req_dec (length (quat_vec q)) 0) as [Z|NZ].
    + assert (Z' := Z). apply length_zero in Z'. rewrite Z'. unfold multiple. cbn [from_scalar_vector]. rewrite !Rmult_0_r. rewrite <- real_exp_left by auto. rewrite exp_ln by exact P.
      assert (E : Quat (quat_norm q) 0 0 0 = q). { rewrite <- Hy, Z. rewrite <- (vector_eq q) at 2. rewrite Z'. cbn. unfold hyp. rewrite Rmult_0_l, Rplus_0_r. apply quat_eq; cbn; try reflexivity. apply sqrt_Rsqr. lra. }
      rewrite E. unfold Rminus. rewrite Rplus_opp_r, Rabs_R0. apply Rmult_le_pos; [lra|]. apply pow_le. rewrite length_coordinates_zero. unfold Rdiv. lra.
    + assert (N : quat_vec q <> (0, 0, 0)) by (intros E; apply NZ, length_zero, E).
      rewrite <- exact_exp_left; auto.
      * apply left_matrix_near; auto. apply exact_exp_log_near; auto.
      * intros E. apply NZ. apply length_zero in E. rewrite length_multiple in E. apply Rmult_integral in E as [E|E]; [|exact E]. exfalso. apply Rabs_no_R0 in E; [exact E|]. apply Rinv_neq_0_compat. lra.
Qed.
(** The logarithm undoes the exponential while the vector part stays under half a turn. *)
Theorem C95_round_trip q : 30 / IZR (2^52) <= length (quat_vec q) < PI -> 30 / IZR (2^52) <= exp (qw q) * sin (length (quat_vec q)) \/ PI / 2 <= length (quat_vec q) ->
  quat_log (quat_exp q) = q.
Proof.
  fold small. intros [A B] H. pose proof small_bound. rewrite quat_exp_large by exact A. rewrite quat_log_exact_exp; auto; [apply vector_eq|]. intros E. rewrite E, length_coordinates_zero in A. lra.
Qed.
(** The threshold on the vector part does not scale with the quaternion: for the tiny (3 eps, 4 eps, 0, 0), at an angle of
    0.93 from the real axis, the logarithm's vector part is 0.8 long, and the exponential of the logarithm is off by more
    than a tenth in the scalar part. *)
Theorem C95_tiny_refuted : let eps := / IZR (2^52) in let q := Quat (3 * eps) (4 * eps) 0 0 in
  0 < qw q /\ quat_vec q <> (0, 0, 0) /\ qx (quat_log q) = 4 / 5 /\ qw (quat_exp (quat_log q)) >= 11 / 10 * qw q.
Proof.
  cbv zeta. set (eps := / IZR (2^52)). assert (E : 0 < eps) by (apply Rinv_0_lt_compat, IZR_lt; reflexivity). set (q := Quat (3 * eps) (4 * eps) 0 0).
  assert (L : length (quat_vec q) = 4 * eps). { unfold length, quat_vec, q, inner. cbn [qx qy qz]. replace (_ + _) with (Rsqr (4 * eps)) by (unfold Rsqr; ring). apply sqrt_Rsqr. lra. }
  assert (N : quat_norm q = 5 * eps). { unfold quat_norm, quat_norm_squared, q. cbn [qw qx qy qz]. rnum. replace (_ + _) with (Rsqr (5 * eps)) by (unfold Rsqr; ring). apply sqrt_Rsqr. lra. }
  assert (S : small = 30 * eps) by reflexivity.
  assert (Q : quat_log q = from_scalar_vector (ln (5 * eps)) (4 / 5, 0, 0)).
  { rewrite quat_log_R, L, N. rewrite (proj2 (Rltb_true _ _)) by lra. unfold q at 1. cbn [qw]. rewrite (proj2 (Rltb_true _ _)) by lra. cbn [andb]. f_equal. unfold quat_vec, q, multiple. cbn [qx qy qz]. apply point_eq; field; lra. }
  assert (L2 : length (4 / 5, 0, 0) = 4 / 5). { unfold length, inner. replace (_ + _) with (Rsqr (4 / 5)) by (unfold Rsqr; field). apply sqrt_Rsqr. lra. }
  split; [cbn; lra|]. split; [unfold quat_vec, q; cbn; intros Z; injection Z; lra|]. rewrite Q. split; [reflexivity|].
  rewrite quat_exp_large.
  - unfold exact_exp. rewrite !scalar_of, vector_of, L2, exp_ln by lra. pose proof (cos_taylor (4 / 5) ltac:(lra)) as [[A _] _]. unfold q. cbn [qw]. nra.
  - rewrite vector_of, L2. pose proof small_bound as SB. assert (S47 : / IZR (2^47) <= / 1000) by (apply Rinv_le_contravar; [lra|apply IZR_le; lia]). lra.
Qed.
Example C95_example : 30 / IZR (2^52) <= length (quat_vec (Quat 1 0 0 2)) < PI /\ PI / 2 <= length (quat_vec (Quat 1 0 0 2)) /\ quat_vec (Quat 1 0 0 2) <> (0, 0, 0).
Proof.
  assert (L : length (quat_vec (Quat 1 0 0 2)) = 2). { unfold length, quat_vec, inner. cbn [qx qy qz]. replace (_ + _) with (Rsqr 2) by (unfold Rsqr; ring). apply sqrt_Rsqr. lra. }
  rewrite L. pose proof small_bound as SB. fold small. assert (S47 : / IZR (2^47) <= / 1000) by (apply Rinv_le_contravar; [lra|apply IZR_le; lia]). pose proof PI2_3_2. pose proof PI_4.
  repeat split; try lra. unfold quat_vec. cbn. intros Z. injection Z. lra.
Qed.

Print Assumptions C95_exponential.
Print Assumptions C95_logarithm.
Print Assumptions C95_round_trip.
Print Assumptions C95_tiny_refuted.
