(** C104 jacobians of the rotations of space, C107 jacobians of the rigid motions of space. *)
From Coq Require Import ZArith List Bool Arith Reals Lra Lia.
From Coquelicot Require Import Coquelicot.
From Verif Require Import Base.Scalar Base.RNum Base.Lists Base.Series Model.Vector Model.Matrix Model.Quaternion Model.Lie Spec.Matrix Spec.MatrixExp Spec.Hold Spec.Rotation Spec.Quaternion Spec.Planar Spec.Space Proofs.Matrix Proofs.Algebra Proofs.Expm Proofs.Quaternion Proofs.Rotation Proofs.Trivialized Proofs.SpaceJacobian Proofs.MotionJacobian Proofs.Space Proofs.Screw.
Import ListNotations.
Local Open Scope R_scope.
Local Notation cos := Rtrigo_def.cos.
Local Notation sin := Rtrigo_def.sin.
Local Notation sqrt := R_sqrt.sqrt.
Local Notation length := Spec.Rotation.length.

Lemma integral_ext rows cols f dt g g' : integral rows cols f dt g -> equal rows cols g' g -> integral rows cols f dt g'.
Proof. intros H E i j Hi Hj. rewrite E by auto. apply H; auto. Qed.
Lemma length_reversed u : length (multiple (-1) u) = length u.
Proof. rewrite length_multiple, Rabs_left by lra. ring. Qed.
Lemma reversed_zero u : u = (0, 0, 0) -> multiple (-1) u = (0, 0, 0).
Proof. intros ->. unfold multiple. apply point_eq; ring. Qed.

(** ** C104 *)
(** The left jacobian at [phi] is the integral of exp (s [phi]x) for s from 0 to 1, the right one that of -phi: exactly once the
    angle is large enough for the closed form or zero, and within a fifth power of the angle below. *)
Theorem C104_integral phi :
  (2520 / IZR (2^52) <= length phi ^ 6 \/ phi = (0, 0, 0) ->
     integral 3 3 (exp_at 3 (cross_matrix phi)) 1 (mget (so3_left_jacobian phi)) /\ integral 3 3 (exp_at 3 (cross_matrix (multiple (-1) phi))) 1 (mget (so3_right_jacobian phi))) /\
  (exists l r, integral 3 3 (exp_at 3 (cross_matrix phi)) 1 l /\ integral 3 3 (exp_at 3 (cross_matrix (multiple (-1) phi))) 1 r /\ forall i j, (i < 3)%nat -> (j < 3)%nat ->
     Rabs (mget (so3_left_jacobian phi) i j - l i j) <= length phi ^ 5 / 720 + length phi ^ 6 / 5040 /\ Rabs (mget (so3_right_jacobian phi) i j - r i j) <= length phi ^ 5 / 720 + length phi ^ 6 / 5040).
Proof.
  unfold so3_left_jacobian, so3_right_jacobian. rewrite neg3_R. split.
  - intros H. split; (eapply integral_ext; [apply exact_jacobian_integral|apply left_jacobian_exact]); [exact H|]. rewrite length_reversed. destruct H as [H|H]; [left; exact H|right; apply reversed_zero, H].
  - exists (exact_jacobian phi), (exact_jacobian (multiple (-1) phi)). split; [apply exact_jacobian_integral|]. split; [apply exact_jacobian_integral|]. intros i j Hi Hj. split; [apply left_jacobian_near; auto|]. pose proof (left_jacobian_near (multiple (-1) phi) i j Hi Hj) as N. rewrite length_reversed in N. exact N.
Qed.
(** What the jacobians are for: as the rotation vector changes by e u, the rotation changes by the rotation vector J u, on the left
    for the left jacobian and on the right for the right one. *)
Definition point_basis (l : nat) : matrix := cross_matrix (match l with O => (1, 0, 0) | S O => (0, 1, 0) | _ => (0, 0, 1) end).
Theorem C104_derivative phi u i j : 2520 / IZR (2^52) <= length phi ^ 6 \/ phi = (0, 0, 0) -> (i < 3)%nat -> (j < 3)%nat ->
  let moved := fun e => matrix_exp 3 (plus_matrix (cross_matrix phi) (scaled_matrix e (cross_matrix u))) in
  is_derive (fun e => moved e i j) 0 (product 3 (cross_matrix (of_vector (times 3 (mget (so3_left_jacobian phi)) (coordinate u)))) (moved 0) i j) /\
  is_derive (fun e => moved e i j) 0 (product 3 (moved 0) (cross_matrix (of_vector (times 3 (mget (so3_right_jacobian phi)) (coordinate u)))) i j).
Proof.
  intros H Hi Hj. destruct (C104_integral phi) as [J _]. destruct (J H) as [Jl Jr].
  assert (C : forall p : point, of_vector (coordinate p) = p) by (intros [[x y] z]; reflexivity).
  pose proof (trivialized 3 3 point_basis (fun w => cross_matrix (of_vector w)) (cross_matrix phi) (cross_matrix (multiple (-1) phi)) (mget (so3_left_jacobian phi)) (mget (so3_right_jacobian phi)) (coordinate phi) (coordinate u)) as T. cbv beta zeta in T. rewrite !C in T. apply T; auto.
  - intros w p q Hp Hq. unfold point_basis, of_vector, bsum, cross_matrix. three p; three q; cbn [nth]; ring.
  - intros w p q Hp Hq. unfold of_vector, bracket, minus_matrix, product, times, bsum. destruct phi as [[x y] z]. unfold cross_matrix. three p; three q; cbn [nth]; ring.
  - intros p q Hp Hq. destruct phi as [[x y] z]. unfold multiple, cross_matrix. three p; three q; cbn [nth]; ring.
Qed.
(** Each inverse is the inverse of its jacobian wherever one exists (angles other than the nonzero multiples of 2 pi): exactly above
    the series threshold, and within a fifth power of the angle below. *)
Theorem C104_inverse phi :
  (15120 / IZR (2^52) <= length phi ^ 6 /\ sin (length phi / 2) <> 0 \/ phi = (0, 0, 0) ->
     equal 3 3 (product 3 (mget (so3_left_jacobian phi)) (mget (so3_left_jacobian_inverse phi))) unit_matrix /\ equal 3 3 (product 3 (mget (so3_left_jacobian_inverse phi)) (mget (so3_left_jacobian phi))) unit_matrix /\
     equal 3 3 (product 3 (mget (so3_right_jacobian phi)) (mget (so3_right_jacobian_inverse phi))) unit_matrix /\ equal 3 3 (product 3 (mget (so3_right_jacobian_inverse phi)) (mget (so3_right_jacobian phi))) unit_matrix) /\
  (length phi ^ 6 < 15120 / IZR (2^52) -> forall i j, (i < 3)%nat -> (j < 3)%nat ->
     Rabs (product 3 (mget (so3_left_jacobian phi)) (mget (so3_left_jacobian_inverse phi)) i j - unit_matrix i j) <= length phi ^ 5 /\
     Rabs (product 3 (mget (so3_right_jacobian phi)) (mget (so3_right_jacobian_inverse phi)) i j - unit_matrix i j) <= length phi ^ 5).
Proof.
  unfold so3_left_jacobian, so3_right_jacobian, so3_left_jacobian_inverse, so3_right_jacobian_inverse. rewrite neg3_R. split.
  - assert (G : forall p, 15120 / IZR (2^52) <= length p ^ 6 /\ sin (length p / 2) <> 0 \/ p = (0, 0, 0) -> equal 3 3 (product 3 (mget (left_jacobian_so3 p)) (mget (inverse_left_jacobian_so3 p))) unit_matrix /\ equal 3 3 (product 3 (mget (inverse_left_jacobian_so3 p)) (mget (left_jacobian_so3 p))) unit_matrix).
    { intros p H. pose proof power_52 as E. assert (H1 : 15120 * / IZR (2^52) <= length p ^ 6 \/ p = (0, 0, 0)) by tauto. assert (H2 : 2520 * / IZR (2^52) <= length p ^ 6 \/ p = (0, 0, 0)) by (destruct H1; [left; lra|right; auto]). assert (H3 : p = (0, 0, 0) \/ sin (length p / 2) <> 0) by tauto.
      destruct (exact_inverse p H3) as [A B]. split; (eapply equal_trans; [apply equal_product; (apply left_jacobian_exact, H2) || apply inverse_left_jacobian_exact, H1|assumption]). }
    intros H. destruct (G phi H) as [A B]. destruct (G (multiple (-1) phi)) as [C D]; [|auto]. rewrite length_reversed. destruct H as [H|H]; [left; exact H|right; apply reversed_zero, H].
  - intros H i j Hi Hj. split; [apply (small_inverse phi i j Hi Hj H)|]. pose proof (small_inverse (multiple (-1) phi) i j Hi Hj) as N. rewrite length_reversed in N. apply (N H).
Qed.
Example C104_example : 2520 / IZR (2^52) <= length (2, -1, 2) ^ 6 /\ 15120 / IZR (2^52) <= length (2, -1, 2) ^ 6 /\ sin (length (2, -1, 2) / 2) <> 0 /\ length (0, 0, / 10000) ^ 6 < 15120 / IZR (2^52).
Proof.
  assert (L : length (2, -1, 2) = 3). { unfold length, inner. replace (2 * 2 + -1 * -1 + 2 * 2) with (3 * 3) by ring. apply sqrt_square. lra. }
  assert (L' : length (0, 0, / 10000) = / 10000). { unfold length, inner. replace (0 * 0 + 0 * 0 + / 10000 * / 10000) with (/ 10000 * / 10000) by ring. apply sqrt_square. lra. }
  rewrite L, L'. pose proof power_52 as E. pose proof PI2_3_2. unfold PI2 in *. assert (S : 0 < sin (3 / 2)) by (apply sin_gt_0; lra). assert (/ 10000000000000000 <= / IZR (2^52)) by (apply Rinv_le_contravar; [apply IZR_lt; lia|apply IZR_le; lia]).
  unfold Rdiv in *. split; [lra|]. split; [lra|]. split; [lra|lra].
Qed.

(** ** C107 *)
(** The left jacobian at a velocity is the integral of exp (s ad v) for s from 0 to 1, where ad v takes a velocity to its bracket with
    v; the right jacobian is that of -v. *)
Definition reversed (v : velocity) : velocity := (multiple (-1) (fst v), multiple (-1) (snd v)).
Lemma neg6_R v : neg6 (T := R) v = reversed v.
Proof. unfold neg6. rewrite !neg3_R. reflexivity. Qed.
Lemma of_six_six v : of_six (six v) = v.
Proof. destruct v as [[[a b] c] [[d e] f]]. reflexivity. Qed.
Theorem C107_integral v :
  (forall u, equal 4 4 (velocity_matrix (of_six (times 6 (motion_ad v) (six u)))) (bracket 4 (velocity_matrix v) (velocity_matrix u))) /\
  (181440 / IZR (2^52) <= length (snd v) ^ 8 \/ snd v = (0, 0, 0) ->
     integral 6 6 (exp_at 6 (motion_ad v)) 1 (mget (se3_left_jacobian v)) /\ integral 6 6 (exp_at 6 (motion_ad (reversed v))) 1 (mget (se3_right_jacobian v))) /\
  (length (snd v) ^ 8 < 181440 / IZR (2^52) -> exists l r, integral 6 6 (exp_at 6 (motion_ad v)) 1 l /\ integral 6 6 (exp_at 6 (motion_ad (reversed v))) 1 r /\ forall i j, (i < 6)%nat -> (j < 6)%nat ->
     Rabs (mget (se3_left_jacobian v) i j - l i j) <= length (snd v) ^ 5 * (1 + length (fst v)) /\ Rabs (mget (se3_right_jacobian v) i j - r i j) <= length (snd v) ^ 5 * (1 + length (fst v))).
Proof.
  unfold se3_left_jacobian, se3_right_jacobian. rewrite neg6_R. split.
  - intros u. destruct v as [[[a b] c] [[d e] f]], u as [[[a' b'] c'] [[d' e'] f']]. intros i j Hi Hj. unfold velocity_matrix, of_six, motion_ad, six, bracket, minus_matrix, product, times, bsum, stacked, column, cross_matrix, coordinate, zero_matrix. cbn [fst snd]. four_i i; four_i j; cbn; ring.
  - split.
    + intros H. split; (eapply integral_ext; [apply exact_motion_integral|apply motion_jacobian_exact]); [exact H|]. cbn [reversed snd]. rewrite length_reversed. destruct H as [H|H]; [left; exact H|right; apply reversed_zero, H].
    + intros H. exists (exact_motion_jacobian v), (exact_motion_jacobian (reversed v)). split; [apply exact_motion_integral|]. split; [apply exact_motion_integral|]. intros i j Hi Hj. split; [apply motion_jacobian_near; auto|]. pose proof (motion_jacobian_near (reversed v) i j Hi Hj) as N. cbn [reversed fst snd] in N. rewrite !length_reversed in N. apply N, H.
Qed.
(** What the jacobians are for: as the velocity changes by e u, the motion changes by the velocity J u. *)
Definition velocity_basis (l : nat) : matrix := velocity_matrix (of_six (fun k => if Nat.eqb k l then 1 else 0)).
Theorem C107_derivative v u i j : 181440 / IZR (2^52) <= length (snd v) ^ 8 \/ snd v = (0, 0, 0) -> (i < 4)%nat -> (j < 4)%nat ->
  let moved := fun e => matrix_exp 4 (plus_matrix (velocity_matrix v) (scaled_matrix e (velocity_matrix u))) in
  is_derive (fun e => moved e i j) 0 (product 4 (velocity_matrix (of_six (times 6 (mget (se3_left_jacobian v)) (six u)))) (moved 0) i j) /\
  is_derive (fun e => moved e i j) 0 (product 4 (moved 0) (velocity_matrix (of_six (times 6 (mget (se3_right_jacobian v)) (six u)))) i j).
Proof.
  intros H Hi Hj. destruct (C107_integral v) as (BR & J & _). destruct (J H) as [Jl Jr].
  pose proof (trivialized 4 6 velocity_basis (fun w => velocity_matrix (of_six w)) (motion_ad v) (motion_ad (reversed v)) (mget (se3_left_jacobian v)) (mget (se3_right_jacobian v)) (six v) (six u)) as T. cbv beta zeta in T. rewrite !of_six_six in T. apply T; auto.
  - intros w p q Hp Hq. unfold velocity_basis, velocity_matrix, of_six, bsum, stacked, column, cross_matrix, coordinate, zero_matrix. cbn [fst snd]. four_i p; four_i q; cbn; ring.
  - intros w. pose proof (BR (of_six w)) as B. eapply equal_trans; [|exact B]. replace (of_six (times 6 (motion_ad v) w)) with (of_six (times 6 (motion_ad v) (six (of_six w)))); [apply equal_refl|]. unfold of_six. repeat f_equal; apply bsum_ext; intros k Hk; six_i k; reflexivity.
  - intros p q Hp Hq. unfold motion_ad, reversed, stacked. destruct v as [[[a b] c] [[d e] f]]. cbn [fst snd]. unfold multiple, cross_matrix. six_i p; six_i q; cbn; ring.
Qed.
Theorem C107_inverse v : let jl := mget (se3_left_jacobian v) in let il := mget (se3_left_jacobian_inverse v) in let jr := mget (se3_right_jacobian v) in let ir := mget (se3_right_jacobian_inverse v) in
  (15120 / IZR (2^52) <= length (snd v) ^ 6 /\ sin (length (snd v) / 2) <> 0 \/ snd v = (0, 0, 0) ->
     equal 6 6 (product 6 jl il) unit_matrix /\ equal 6 6 (product 6 il jl) unit_matrix /\ equal 6 6 (product 6 jr ir) unit_matrix /\ equal 6 6 (product 6 ir jr) unit_matrix) /\
  (length (snd v) ^ 6 < 15120 / IZR (2^52) -> forall i j, (i < 6)%nat -> (j < 6)%nat ->
     Rabs (product 6 jl il i j - unit_matrix i j) <= length (snd v) ^ 5 * (1 + 10 * length (fst v)) /\ Rabs (product 6 jr ir i j - unit_matrix i j) <= length (snd v) ^ 5 * (1 + 10 * length (fst v))).
Proof.
  unfold se3_left_jacobian, se3_right_jacobian, se3_left_jacobian_inverse, se3_right_jacobian_inverse. rewrite neg6_R. cbv zeta. split.
  - intros H. destruct (motion_inverse_exact v H) as [A B]. destruct (motion_inverse_exact (reversed v)) as [C D]; [|auto]. cbn [reversed snd]. rewrite length_reversed. destruct H as [H|H]; [left; exact H|right; apply reversed_zero, H].
  - intros H i j Hi Hj. split; [apply (motion_small_inverse v i j Hi Hj H)|]. pose proof (motion_small_inverse (reversed v) i j Hi Hj) as N. cbn [reversed fst snd] in N. rewrite !length_reversed in N. apply (N H).
Qed.
Example C107_example : 181440 / IZR (2^52) <= length (snd ((5, 0, -1), (2, -1, 2))) ^ 8 /\ 15120 / IZR (2^52) <= length (snd ((5, 0, -1), (2, -1, 2))) ^ 6 /\ sin (length (snd ((5, 0, -1), (2, -1, 2))) / 2) <> 0 /\ length (snd ((5, 0, -1), (0, 0, / 10000))) ^ 8 < 181440 / IZR (2^52).
Proof.
  cbn [snd]. destruct C104_example as (_ & A & B & _). assert (L : length (2, -1, 2) = 3). { unfold length, inner. replace (2 * 2 + -1 * -1 + 2 * 2) with (3 * 3) by ring. apply sqrt_square. lra. }
  assert (L' : length (0, 0, / 10000) = / 10000). { unfold length, inner. replace (0 * 0 + 0 * 0 + / 10000 * / 10000) with (/ 10000 * / 10000) by ring. apply sqrt_square. lra. }
  split; [rewrite L; pose proof power_52; unfold Rdiv; nra|]. split; [exact A|]. split; [exact B|]. rewrite L'. unfold Rdiv. assert (/ 10000000000000000 <= / IZR (2^52)) by (apply Rinv_le_contravar; [apply IZR_lt; lia|apply IZR_le; lia]). lra.
Qed.

Print Assumptions C104_integral.
Print Assumptions C104_derivative.
Print Assumptions C104_inverse.
Print Assumptions C107_integral.
Print Assumptions C107_derivative.
Print Assumptions C107_inverse.
