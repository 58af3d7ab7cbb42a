(** Rotations as exponentials of cross-product matrices. *)
From Coq Require Import ZArith List Bool Arith Reals Lra Lia.
From Coquelicot Require Import Coquelicot.
From Verif Require Import Base.Scalar Base.RNum Base.Lists Base.Series Base.Trig Model.Vector Model.Matrix Model.Quaternion Spec.Matrix Spec.MatrixExp Spec.Rotation Spec.Quaternion Proofs.Algebra Proofs.MatrixSeries Proofs.Flow Proofs.Expm Proofs.Quaternion Proofs.Angle.
Import ListNotations.
Local Open Scope R_scope.
Local Notation cos := Rtrigo_def.cos.
Local Notation sin := Rtrigo_def.sin.
Local Notation sqrt := R_sqrt.sqrt.
Local Notation length := Spec.Rotation.length.

(** A matrix function that starts at the unit matrix and follows F' = A F is the exponential. *)
Lemma exp_unique n (a : matrix) (f : R -> matrix) : (forall t i j, (i < n)%nat -> (j < n)%nat -> is_derive (fun s => f s i j) t (product n a (f t) i j)) ->
  equal n n (f 0) unit_matrix -> forall b, 0 <= b -> equal n n (f b) (matrix_exp n (scaled_matrix b a)).
Proof.
  intros D Z b B i j Hi Hj. rewrite <- (flow_exp n a b i j Hi Hj).
  rewrite (flow_trajectory n a (fun t k => f t k j) b B) by (try (intros t k T Hk; apply (D t k j)); auto). unfold times.
  rewrite (bsum_ext n _ (fun k => flow n a b i k * unit_matrix k j)) by (intros k Hk; rewrite Z by auto; reflexivity).
  unfold unit_matrix. rewrite (bsum_ext n _ (fun k => if Nat.eqb k j then flow n a b i j else 0)); [apply bsum_delta; auto|].
  intros k Hk. destruct (Nat.eqb_spec k j) as [->|]; ring.
Qed.

Lemma equal_scaled_one n a b : equal n n a b -> equal n n (scaled_matrix 1 a) b.
Proof. intros E i j Hi Hj. unfold scaled_matrix. rewrite E by auto. ring. Qed.

(** Turning about a unit vector [n]: the matrix whose columns are the turned axes *)
Definition turn_matrix (n : point) (angle : R) : matrix := fun i j =>
  cos angle * unit_matrix i j + (1 - cos angle) * (coordinate n i * coordinate n j) + sin angle * cross_matrix n i j.
Ltac three i := destruct i as [|[|[|i]]]; [| | |exfalso; lia].
Lemma turn_matrix_carries n angle p : inner n n = 1 -> carries (turn_matrix n angle) p (turned n angle p).
Proof.
  intros U i Hi. rewrite turned_explicit by exact U. destruct n as [[x y] z], p as [[a b] c]. unfold times, bsum, turn_matrix, unit_matrix, coordinate, cross_matrix, together, multiple, outer, inner.
  three i; cbn [nth Nat.eqb]; ring.
Qed.
Lemma turn_matrix_derive n angle i j : inner n n = 1 -> (i < 3)%nat -> (j < 3)%nat ->
  is_derive (fun s => turn_matrix n s i j) angle (product 3 (cross_matrix n) (turn_matrix n angle) i j).
Proof.
  intros U Hi Hj. unfold turn_matrix. auto_derive; [exact I|]. destruct n as [[x y] z]. unfold inner in U. unfold product, bsum, turn_matrix, unit_matrix, coordinate, cross_matrix.
  three i; three j; cbn [nth Nat.eqb]; first [ring|match goal with |- ?l = ?r => transitivity (r + sin angle * ((x * x + y * y + z * z) - 1)); [ring|rewrite U; ring] end].
Qed.
Lemma turn_matrix_zero n : equal 3 3 (turn_matrix n 0) unit_matrix.
Proof. intros i j _ _. unfold turn_matrix. rewrite cos_0, sin_0. ring. Qed.
Lemma cross_multiple k v i j : cross_matrix (multiple k v) i j = k * cross_matrix v i j.
Proof. destruct v as [[x y] z]. unfold cross_matrix, multiple. destruct i as [|[|[|i]]]; [| | |destruct i; destruct j; cbn [nth]; ring]; (destruct j as [|[|[|j]]]; [| | |destruct j; cbn [nth]; ring]); cbn [nth]; ring. Qed.
Lemma multiple_direction u : u <> (0, 0, 0) -> multiple (length u) (direction u) = u.
Proof. intros H. unfold direction. rewrite multiple_multiple, Rinv_r, multiple_one; [reflexivity|]. intros E. apply H, length_zero, E. Qed.
Lemma length_pos u : u <> (0, 0, 0) -> 0 < length u.
Proof. intros H. destruct (length_nonneg u) as [L|E]; [exact L|]. exfalso. apply H, length_zero. auto. Qed.
(** The exponential of the cross-product matrix of [phi] turns about [phi] by its length. *)
Lemma exp_cross phi : phi <> (0, 0, 0) -> equal 3 3 (turn_matrix (direction phi) (length phi)) (matrix_exp 3 (cross_matrix phi)).
Proof.
  intros H. eapply equal_trans; [apply (exp_unique 3 (cross_matrix (direction phi)))|].
  - intros t i j Hi Hj. apply turn_matrix_derive; auto. apply direction_unit, H.
  - apply turn_matrix_zero.
  - apply length_nonneg.
  - apply matrix_exp_ext. intros i j Hi Hj. unfold scaled_matrix. rewrite <- cross_multiple, multiple_direction by exact H. reflexivity.
Qed.
Lemma carries_unique (m m' : matrix) : (forall p q, carries m p q -> carries m' p q) -> equal 3 3 m m'.
Proof.
  intros H i j Hi Hj.
  set (e := match j with 0%nat => (1, 0, 0) | 1%nat => (0, 1, 0) | _ => (0, 0, 1) end : point).
  set (q := (m 0%nat j, m 1%nat j, m 2%nat j) : point).
  assert (C : carries m e q). { intros k Hk. unfold times, bsum, e, q, coordinate. three k; three j; cbn [nth]; ring. }
  apply H in C. specialize (C i Hi). unfold times, bsum, e, q, coordinate in C. three i; three j; cbn [nth] in C; lra.
Qed.
Lemma transform_turn_matrix q n angle : unit_quaternion q -> inner n n = 1 -> (forall v, transform_point q v = turned n angle v) -> equal 3 3 (mget (to_rotation_matrix q)) (turn_matrix n angle).
Proof.
  intros U N H. apply carries_unique. intros p r C i Hi. rewrite <- (C i Hi). rewrite (rotation_matrix_carries q p U i Hi), H. apply turn_matrix_carries; auto.
Qed.

(** ** Taylor bounds *)
Fixpoint factorial (n : nat) : Z := match n with O => 1 | S m => Z.of_nat n * factorial m end.
Lemma factorial_integer n : INR (fact n) = IZR (factorial n).
Proof. induction n as [|n IH]; [reflexivity|]. rewrite fact_simpl, mult_INR, IH, INR_IZR_INZ, <- mult_IZR. reflexivity. Qed.
Ltac factorials H := repeat rewrite factorial_integer in H; repeat match type of H with context [factorial ?n] => let v := eval vm_compute in (factorial n) in change (factorial n) with v in H end.
Lemma sin_taylor x : 0 <= x <= 4 ->
  x - x ^ 3 / 6 <= sin x <= x - x ^ 3 / 6 + x ^ 5 / 120 /\ x - x ^ 3 / 6 + x ^ 5 / 120 - x ^ 7 / 5040 <= sin x <= x - x ^ 3 / 6 + x ^ 5 / 120 - x ^ 7 / 5040 + x ^ 9 / 362880.
Proof.
  intros X. pose proof (pre_sin_bound x 0 ltac:(lra) ltac:(lra)) as [A B]. pose proof (pre_sin_bound x 1 ltac:(lra) ltac:(lra)) as [C D].
  unfold sin_approx in *. cbn [sum_f_R0 Nat.mul Nat.add] in *. unfold sin_term in *. factorials A; factorials B; factorials C; factorials D. cbn [pow Nat.mul Nat.add] in A, B, C, D. lra.
Qed.
Lemma cos_taylor x : -2 <= x <= 2 ->
  1 - x ^ 2 / 2 <= cos x <= 1 - x ^ 2 / 2 + x ^ 4 / 24 /\ 1 - x ^ 2 / 2 + x ^ 4 / 24 - x ^ 6 / 720 <= cos x <= 1 - x ^ 2 / 2 + x ^ 4 / 24 - x ^ 6 / 720 + x ^ 8 / 40320.
Proof.
  intros X. pose proof (pre_cos_bound x 0 ltac:(lra) ltac:(lra)) as [A B]. pose proof (pre_cos_bound x 1 ltac:(lra) ltac:(lra)) as [C D].
  unfold cos_approx in *. cbn [sum_f_R0 Nat.mul Nat.add] in *. unfold cos_term in *. factorials A; factorials B; factorials C; factorials D. cbn [pow Nat.mul Nat.add] in A, B, C, D. lra.
Qed.

(** ** The exponential map *)
Definition small : R := 30 / IZR (2^52).
Lemma small_bound : 0 < small < / IZR (2^47).
Proof. unfold small. split; [apply Rdiv_lt_0_compat; [lra|apply IZR_lt; reflexivity]|]. change (2^52)%Z with (32 * 2^47)%Z. rewrite mult_IZR. assert (0 < IZR (2^47)) by (apply IZR_lt; reflexivity). apply (Rmult_lt_reg_r (32 * IZR (2^47))); [lra|]. field_simplify; lra. Qed.
Lemma from_scaled_axis_large phi : small <= length phi -> from_scaled_axis phi = from_scalar_vector (cos (length phi / 2)) (multiple (sin (length phi / 2)) (direction phi)).
Proof.
  intros H. pose proof small_bound as S. unfold from_scaled_axis. rewrite dot3_R. unfold small_angle_sq, small_angle. rnum. fold small. fold (length phi).
  rewrite (proj2 (Rltb_false _ _)) by (rewrite <- length_sqr; nra).
  destruct phi as [[x y] z]. unfold direction, multiple, from_scalar_vector. set (l := length (x, y, z)) in *. change (l * / 2) with (l / 2).
  apply quat_eq; cbn [qw qx qy qz]; [reflexivity|field; lra..].
Qed.
Lemma from_scaled_axis_small phi : length phi < small -> from_scaled_axis phi = from_scalar_vector (1 - length phi * length phi / 8) (multiple (/ 2 - length phi * length phi / 48) phi).
Proof.
  intros H. pose proof small_bound as S. pose proof (length_nonneg phi). unfold from_scaled_axis. rewrite dot3_R. unfold small_angle_sq, small_angle. rnum. fold small.
  rewrite (proj2 (Rltb_true _ _)) by (rewrite <- length_sqr; nra). rewrite <- length_sqr.
  destruct phi as [[x y] z]. unfold multiple, from_scalar_vector. set (l := length (x, y, z)) in *.
  apply quat_eq; cbn [qw qx qy qz]; field.
Qed.
Lemma coordinate_bound u i : Rabs (coordinate u i) <= length u.
Proof.
  rewrite <- sqrt_Rsqr_abs. apply sqrt_le_1_alt. destruct u as [[x y] z]. unfold inner, coordinate, Rsqr. destruct i as [|[|[|i]]]; cbn [nth]; [nra..|destruct i; nra].
Qed.
(** Rotation matrices of nearby quaternions are near. *)
Lemma product_near x y x' y' d : Rabs x <= 1 -> Rabs y' <= 1 -> Rabs (x - x') <= d -> Rabs (y - y') <= d -> Rabs (x * y - x' * y') <= 2 * d.
Proof.
  intros A B C D. replace (x * y - x' * y') with (x * (y - y') + (x - x') * y') by ring. eapply Rle_trans; [apply Rabs_triang|]. rewrite !Rabs_mult.
  pose proof (Rabs_pos x). pose proof (Rabs_pos y'). pose proof (Rabs_pos (x - x')). pose proof (Rabs_pos (y - y')). nra.
Qed.
Lemma matrix_near (p q : quaternion R) d : (forall k, (k < 4)%nat -> Rabs (component p k) <= 1 /\ Rabs (component q k) <= 1 /\ Rabs (component p k - component q k) <= d) ->
  forall i j, (i < 3)%nat -> (j < 3)%nat -> Rabs (mget (to_rotation_matrix p) i j - mget (to_rotation_matrix q) i j) <= 8 * d.
Proof.
  intros H i j Hi Hj. destruct p as [w x y z], q as [w' x' y' z'].
  destruct (H 0%nat ltac:(lia)) as (W1 & W2 & W3). destruct (H 1%nat ltac:(lia)) as (X1 & X2 & X3). destruct (H 2%nat ltac:(lia)) as (Y1 & Y2 & Y3). destruct (H 3%nat ltac:(lia)) as (Z1 & Z2 & Z3). cbn in *. clear H.
  assert (P : forall a b a' b' e f e' f' k, Rabs (a * b - a' * b') <= 2 * d -> Rabs (e * f - e' * f') <= 2 * d -> (k = 1 \/ k = -1) -> Rabs (2 * (a * b + k * (e * f)) - 2 * (a' * b' + k * (e' * f'))) <= 8 * d).
  { intros a b a' b' e f e' f' k A B K. replace (2 * (a * b + k * (e * f)) - 2 * (a' * b' + k * (e' * f'))) with (2 * (a * b - a' * b') + (2 * k) * (e * f - e' * f')) by ring.
    eapply Rle_trans; [apply Rabs_triang|]. rewrite !Rabs_mult. replace (Rabs k) with 1 by (destruct K as [-> | ->]; [rewrite Rabs_R1|rewrite Rabs_left; lra]; ring).
    rewrite (Rabs_pos_eq 2) by lra. lra. }
  assert (N : forall a b a' b' e f e' f', Rabs (a * b - a' * b') <= 2 * d -> Rabs (e * f - e' * f') <= 2 * d -> Rabs (1 - 2 * (a * b + e * f) - (1 - 2 * (a' * b' + e' * f'))) <= 8 * d).
  { intros. rewrite <- Rabs_Ropp. specialize (P a b a' b' e f e' f' 1 H H0 ltac:(auto)). rewrite !Rmult_1_l in P. match goal with |- Rabs ?g <= _ => replace g with (2 * (a * b + e * f) - 2 * (a' * b' + e' * f')) by ring end. exact P. }
  assert (M : forall a b a' b' e f e' f', Rabs (a * b - a' * b') <= 2 * d -> Rabs (e * f - e' * f') <= 2 * d -> Rabs (2 * (a * b - e * f) - 2 * (a' * b' - e' * f')) <= 8 * d).
  { intros. specialize (P a b a' b' e f e' f' (-1) H H0 ltac:(auto)). match goal with |- Rabs ?g <= _ => match type of P with Rabs ?g' <= _ => replace g with g' by ring end end. exact P. }
  assert (L : forall a b a' b' e f e' f', Rabs (a * b - a' * b') <= 2 * d -> Rabs (e * f - e' * f') <= 2 * d -> Rabs (2 * (a * b + e * f) - 2 * (a' * b' + e' * f')) <= 8 * d).
  { intros. specialize (P a b a' b' e f e' f' 1 H H0 ltac:(auto)). rewrite !Rmult_1_l in P. exact P. }
  unfold to_rotation_matrix, mget. three i; three j; cbn [nth qw qx qy qz]; rnum; first [apply N|apply M|apply L]; apply product_near; assumption.
Qed.
Lemma component_unit q k : unit_quaternion q -> Rabs (component q k) <= 1.
Proof.
  intros U. unfold unit_quaternion in U. rewrite <- sqrt_1, <- sqrt_Rsqr_abs. apply sqrt_le_1_alt. unfold component, Rsqr. destruct k as [|[|[|[|k]]]]; cbn [nth]; [nra..|destruct k; nra].
Qed.
Lemma length_coordinates_zero : length (0, 0, 0) = 0.
Proof. apply length_zero. reflexivity. Qed.
Lemma cross_zero_exp : equal 3 3 unit_matrix (matrix_exp 3 (cross_matrix (0, 0, 0))).
Proof.
  eapply equal_trans; [apply (exp_unique 3 (cross_matrix (0, 0, 0)) (fun _ => unit_matrix)) with (b := 0)|].
  - intros t i j Hi Hj. replace (product 3 (cross_matrix (0, 0, 0)) unit_matrix i j) with 0; [auto_derive; auto|]. unfold product, bsum, cross_matrix. three i; three j; cbn [nth]; ring.
  - intros i j _ _. reflexivity.
  - lra.
  - apply matrix_exp_ext. intros i j Hi Hj. unfold scaled_matrix, cross_matrix. three i; three j; cbn [nth]; ring.
Qed.
Lemma exp_large phi : small <= length phi -> unit_quaternion (from_scaled_axis phi) /\ equal 3 3 (mget (to_rotation_matrix (from_scaled_axis phi))) (matrix_exp 3 (cross_matrix phi)).
Proof.
  intros H. pose proof small_bound. assert (N : phi <> (0, 0, 0)) by (intros ->; rewrite length_coordinates_zero in H; lra).
  rewrite from_scaled_axis_large by exact H. assert (U := turn_unit (direction phi) (length phi) (direction_unit phi N)). split; [exact U|].
  eapply equal_trans; [|apply exp_cross, N]. apply transform_turn_matrix; [exact U|apply direction_unit, N|]. intros v. apply turn_quaternion, direction_unit, N.
Qed.
Lemma coordinate_multiple k u i : coordinate (multiple k u) i = k * coordinate u i.
Proof. destruct u as [[x y] z]. unfold coordinate, multiple. destruct i as [|[|[|i]]]; cbn [nth]; [ring..|destruct i; ring]. Qed.
Lemma component_vector w v k : component (from_scalar_vector w v) k = match k with O => w | S k => coordinate v k end.
Proof. destruct v as [[x y] z]. unfold component, from_scalar_vector, coordinate. destruct k as [|[|[|[|k]]]]; cbn [nth qw qx qy qz]; try reflexivity; destruct k; reflexivity. Qed.
Lemma power_le x k m : 0 <= x <= 1 -> (k <= m)%nat -> x ^ m <= x ^ k.
Proof.
  intros X K. replace m with (k + (m - k))%nat by lia. rewrite pow_add. assert (0 <= x ^ k) by (apply pow_le; lra).
  assert (x ^ (m - k) <= 1) by (rewrite <- (pow1 (m - k)); apply pow_incr; lra). nra.
Qed.
Lemma exp_small phi : length phi < small -> Rabs (qw (from_scaled_axis phi) * qw (from_scaled_axis phi) + length (quat_vec (from_scaled_axis phi)) ^ 2 - 1) <= length phi ^ 4 /\
  forall i j, (i < 3)%nat -> (j < 3)%nat -> Rabs (mget (to_rotation_matrix (from_scaled_axis phi)) i j - matrix_exp 3 (cross_matrix phi) i j) <= length phi ^ 4.
Proof.
  intros H. pose proof small_bound as S. pose proof (length_nonneg phi) as P. rewrite from_scaled_axis_small by exact H.
  assert (S47 : / IZR (2^47) <= / 1000) by (apply Rinv_le_contravar; [lra|apply IZR_le; lia]). assert (PH : 0 < / 1000) by lra.
  assert (L : 0 <= length phi <= / 1000) by lra. clear H S.
  split.
  - replace (quat_vec (from_scalar_vector _ _)) with (multiple (/ 2 - length phi * length phi / 48) phi) by (destruct phi as [[x y] z]; reflexivity). replace (qw (from_scalar_vector _ _)) with (1 - length phi * length phi / 8) by (destruct phi as [[x y] z]; reflexivity).
    rewrite length_multiple. set (l := length phi) in *. assert (l * l <= 1) by nra. rewrite (Rabs_pos_eq (/ 2 - l * l / 48)) by lra. apply Rabs_le.
    match goal with |- context [?x - 1] => replace (x - 1) with (- l ^ 4 / 192 + l ^ 4 * (l * l) / 2304) by field end. assert (0 <= l ^ 4) by (apply pow_le; lra). assert (l * l <= 1) by nra. nra.
  - destruct (Req_dec (length phi) 0) as [Z|NZ].
    { intros i j Hi Hj. apply length_zero in Z. subst phi. rewrite <- cross_zero_exp by auto. rewrite length_coordinates_zero. unfold multiple, from_scalar_vector, to_rotation_matrix, mget, unit_matrix. rnum.
      match goal with |- Rabs ?x <= _ => replace x with 0 by (three i; three j; cbn [nth qw qx qy qz Nat.eqb]; field) end. rewrite Rabs_R0. apply pow_le. lra. }
    assert (N : phi <> (0, 0, 0)) by (intros E; apply NZ, length_zero, E).
    set (q := from_scalar_vector (cos (length phi / 2)) (multiple (sin (length phi / 2)) (direction phi))).
    assert (U : unit_quaternion q) by (apply turn_unit, direction_unit, N).
    assert (E : equal 3 3 (mget (to_rotation_matrix q)) (matrix_exp 3 (cross_matrix phi))).
    { eapply equal_trans; [|apply exp_cross, N]. apply transform_turn_matrix; [exact U|apply direction_unit, N|]. intros v. apply turn_quaternion, direction_unit, N. }
    intros i j Hi Hj. rewrite <- E by auto. eapply Rle_trans; [apply (matrix_near _ _ (length phi ^ 4 / 8))|lra]; auto.
    intros k Hk. assert (B : Rabs (component q k) <= 1) by (apply component_unit, U).
    assert (D : Rabs (component (from_scalar_vector (1 - length phi * length phi / 8) (multiple (/ 2 - length phi * length phi / 48) phi)) k - component q k) <= length phi ^ 4 / 8
      /\ Rabs (component (from_scalar_vector (1 - length phi * length phi / 8) (multiple (/ 2 - length phi * length phi / 48) phi)) k) <= 1); [|tauto].
    unfold q. rewrite !component_vector. destruct k as [|k].
    + pose proof (cos_taylor (length phi / 2) ltac:(lra)) as [[A1 A2] _]. set (l := length phi) in *.
      assert (P4 : 0 <= l ^ 4) by (apply pow_le; lra). replace ((l / 2) ^ 4) with (l ^ 4 / 16) in A2 by field. replace ((l / 2) ^ 2) with (l * l / 4) in * by field.
      split; apply Rabs_le; [lra|nra].
    + rewrite !coordinate_multiple. unfold direction. rewrite coordinate_multiple. pose proof (coordinate_bound phi k) as Cb. pose proof (sin_taylor (length phi / 2) ltac:(lra)) as [[A1 A2] _].
      set (l := length phi) in *. set (c := coordinate phi k) in *. assert (0 < l) by lra.
      assert (F : Rabs (/ 2 - l * l / 48 - sin (l / 2) / l) <= l ^ 4 / 8 ).
      { replace ((l / 2) ^ 5) with (l ^ 5 / 32) in A2 by field. replace ((l / 2) ^ 3) with (l ^ 3 / 8) in * by field.
        assert (P4 : 0 <= l ^ 4) by (apply pow_le; lra).
        assert (K : sin (l / 2) / l * l = sin (l / 2)) by (field; lra).
        assert (/ 2 - l * l / 48 <= sin (l / 2) / l). { apply (Rmult_le_reg_r l); [lra|]. rewrite K. nra. }
        assert (sin (l / 2) / l <= / 2 - l * l / 48 + l ^ 4 / 3840). { apply (Rmult_le_reg_r l); [lra|]. rewrite K. nra. }
        apply Rabs_le. lra. }
      split.
      * replace ((/ 2 - l * l / 48) * c - sin (l / 2) * (/ l * c)) with ((/ 2 - l * l / 48 - sin (l / 2) / l) * c) by (field; lra). rewrite Rabs_mult. assert (P4 : 0 <= l ^ 4) by (apply pow_le; lra). pose proof (Rabs_pos (/ 2 - l * l / 48 - sin (l / 2) / l)). pose proof (Rabs_pos c). nra.
      * rewrite Rabs_mult. rewrite (Rabs_pos_eq (/ 2 - l * l / 48)) by nra. pose proof (Rabs_pos c). nra.
Qed.

(** ** The logarithm *)
Lemma to_scaled_axis_R q : to_scaled_axis q = if Rlt_dec (length (quat_vec q)) small then multiple 2 (quat_vec (shortest q)) else multiple (2 * half_angle q) (direction (quat_vec (shortest q))).
Proof.
  pose proof small_bound as S. unfold to_scaled_axis. rnum. fold (shortest q). unfold half_angle, direction. rewrite vector_length. rewrite !(vec_shortest_length q). unfold small_angle. rnum. fold small. unfold Rltb.
  set (l := length (quat_vec q)) in *. destruct (Rlt_dec _ _); unfold multiple, quat_vec; apply point_eq; [ring..| | |]; field; lra.
Qed.
Lemma log_large q : unit_quaternion q -> small <= length (quat_vec q) ->
  from_scaled_axis (to_scaled_axis q) = shortest q /\ length (to_scaled_axis q) = 2 * half_angle q.
Proof.
  intros U H. pose proof small_bound as S. rewrite to_scaled_axis_R. destruct (Rlt_dec _ _); [lra|].
  assert (N : quat_vec (shortest q) <> (0, 0, 0)). { intros E. apply length_zero in E. rewrite vec_shortest_length in E. lra. }
  pose proof (half_angle_range q) as R. destruct (half_angle_polar q U) as [C Sn].
  assert (L : length (direction (quat_vec (shortest q))) = 1). { unfold length. rewrite (direction_unit _ N). apply sqrt_1. }
  assert (L2 : length (multiple (2 * half_angle q) (direction (quat_vec (shortest q)))) = 2 * half_angle q). { rewrite length_multiple, L, Rabs_pos_eq; lra. }
  assert (P : 0 < half_angle q). { destruct (Req_dec (half_angle q) 0) as [E|E]; [|lra]. rewrite E, sin_0, vec_shortest_length in Sn. lra. }
  split; [|exact L2].
  assert (Hs : small <= 2 * half_angle q). { pose proof (sin_lt_x (half_angle q) P). rewrite Sn, vec_shortest_length in H0. lra. }
  rewrite from_scaled_axis_large by (rewrite L2; exact Hs). rewrite L2. replace (2 * half_angle q / 2) with (half_angle q) by field. rewrite C, Sn.
  assert (D : direction (multiple (2 * half_angle q) (direction (quat_vec (shortest q)))) = direction (quat_vec (shortest q))).
  { unfold direction at 1. rewrite L2, multiple_multiple. rewrite Rinv_l by lra. apply multiple_one. }
  rewrite D, multiple_direction by exact N. destruct (shortest q). reflexivity.
Qed.
(** The logarithm undoes the exponential up to half a turn. *)
Lemma shortest_of w v : 0 <= w -> shortest (from_scalar_vector w v) = from_scalar_vector w v.
Proof. intros W. unfold shortest. replace (qw (from_scalar_vector w v)) with w by (destruct v as [[x y] z]; reflexivity). rewrite (proj2 (Rltb_false _ _)) by lra. reflexivity. Qed.
Lemma vector_of w (v : point) : quat_vec (from_scalar_vector w v) = v.
Proof. destruct v as [[x y] z]. reflexivity. Qed.
Lemma scalar_of w (v : point) : qw (from_scalar_vector w v) = w.
Proof. destruct v as [[x y] z]. reflexivity. Qed.
Lemma half_angle_of w v a : 0 <= a <= PI / 2 -> w = cos a -> length v = sin a -> half_angle (from_scalar_vector w v) = a.
Proof.
  intros A W V. assert (0 <= w) by (subst w; apply cos_ge_0; lra). unfold half_angle. rewrite shortest_of, vector_of, scalar_of by assumption. rewrite V, W.
  pose proof PI_RGT_0. apply atan2_angle; lra.
Qed.
Lemma length_direction u : u <> (0, 0, 0) -> length (direction u) = 1.
Proof. intros N. unfold length. rewrite (direction_unit _ N). apply sqrt_1. Qed.
Lemma direction_multiple k u : 0 < k -> u <> (0, 0, 0) -> direction (multiple k u) = direction u.
Proof.
  intros K N. unfold direction. rewrite length_multiple, multiple_multiple, Rabs_pos_eq by lra. f_equal. pose proof (length_pos u N). field. lra.
Qed.
Lemma length_difference a b u : length (together (multiple a u) (multiple (-1) (multiple b u))) = Rabs (a - b) * length u.
Proof. rewrite <- length_multiple. f_equal. destruct u as [[x y] z]. unfold together, multiple. apply point_eq; ring. Qed.
Lemma difference_self u : length (together u (multiple (-1) u)) = 0.
Proof. apply length_zero. destruct u as [[x y] z]. unfold together, multiple. apply point_eq; ring. Qed.
Lemma difference_multiple a u : length (together (multiple a u) (multiple (-1) u)) = Rabs (a - 1) * length u.
Proof. rewrite <- length_difference, multiple_one. reflexivity. Qed.
Lemma small_cubed l : 0 <= l < 4 * small -> l ^ 3 <= l / 1000000 /\ l < / 1000.
Proof.
  intros H. pose proof small_bound as S. assert (S47 : / IZR (2^47) <= / 4000000) by (apply Rinv_le_contravar; [lra|apply IZR_le; lia]).
  assert (0 <= l < / 1000000) by lra. split; [|lra]. replace (l ^ 3) with (l * (l * l)) by ring. assert (l * l <= l * / 1000000) by (apply Rmult_le_compat_l; lra). nra.
Qed.
Lemma log_exp_exact phi : 4 * small <= length phi <= PI -> to_scaled_axis (from_scaled_axis phi) = phi.
Proof.
  intros H. pose proof small_bound as S. pose proof PI_RGT_0. assert (N : phi <> (0, 0, 0)) by (intros ->; rewrite length_coordinates_zero in H; lra).
  rewrite from_scaled_axis_large by lra. rewrite to_scaled_axis_R. rewrite vector_of.
  assert (Sp : 0 < sin (length phi / 2)) by (apply sin_gt_0; lra).
  assert (L : length (multiple (sin (length phi / 2)) (direction phi)) = sin (length phi / 2)) by (rewrite length_multiple, (length_direction phi N), Rabs_pos_eq; lra).
  rewrite L. destruct (Rlt_dec _ _) as [B|B].
  - exfalso. assert (sin (2 * small) <= sin (length phi / 2)) by (apply sin_incr_1; lra).
    assert (S47 : / IZR (2^47) <= / 1000) by (apply Rinv_le_contravar; [lra|apply IZR_le; lia]).
    pose proof (sin_taylor (2 * small) ltac:(lra)) as [[A _] _]. assert (0 < small < / 1000) by lra. assert (small * small < / 1000) by nra. assert ((2 * small) ^ 3 / 6 <= small) by (replace ((2 * small) ^ 3 / 6) with (small * ((small * small) * (8 / 6))) by field; nra). lra.
  - rewrite (half_angle_of _ _ (length phi / 2)) by (auto; lra). rewrite shortest_of by (apply cos_ge_0; lra). rewrite vector_of.
    assert (ND : direction phi <> (0, 0, 0)) by (intros E; apply length_zero in E; rewrite (length_direction phi N) in E; lra).
    rewrite direction_multiple by auto. replace (2 * (length phi / 2)) with (length phi) by field.
    rewrite <- (direction_multiple (length phi) (direction phi)) by (auto; lra). rewrite multiple_direction by exact N. apply multiple_direction, N.
Qed.
Lemma log_exp_near phi : length phi < 4 * small -> length (together (to_scaled_axis (from_scaled_axis phi)) (multiple (-1) phi)) <= length phi ^ 3.
Proof.
  intros H. pose proof small_bound as S. pose proof (length_nonneg phi) as P. destruct (small_cubed (length phi) ltac:(lra)) as [C K].
  assert (P3 : 0 <= length phi ^ 3) by (apply pow_le; lra).
  assert (K2 : length phi * length phi <= / 1000) by nra.
  destruct (Rlt_dec (length phi) small) as [A|A].
  - rewrite from_scaled_axis_small by exact A. rewrite to_scaled_axis_R. rewrite vector_of, length_multiple, Rabs_pos_eq by lra.
    destruct (Rlt_dec _ _) as [B|B]; [|exfalso; nra]. rewrite shortest_of by lra. rewrite vector_of, multiple_multiple. rewrite difference_multiple.
    rewrite Rabs_left1 by nra. replace (length phi ^ 3) with (length phi * length phi * length phi) by ring. nra.
  - assert (N : phi <> (0, 0, 0)) by (intros ->; rewrite length_coordinates_zero in A; lra). rewrite from_scaled_axis_large by lra. rewrite to_scaled_axis_R, vector_of.
    pose proof PI2_1. assert (Sp : 0 < sin (length phi / 2)) by (apply sin_gt_0; lra).
    assert (L : length (multiple (sin (length phi / 2)) (direction phi)) = sin (length phi / 2)) by (rewrite length_multiple, (length_direction phi N), Rabs_pos_eq; lra).
    rewrite L. destruct (Rlt_dec _ _) as [B|B].
    + rewrite shortest_of by (apply cos_ge_0; lra). rewrite vector_of. replace (multiple (-1) phi) with (multiple (-1) (multiple (length phi) (direction phi))) by (rewrite multiple_direction by exact N; reflexivity). rewrite multiple_multiple, length_difference, (length_direction phi N), Rmult_1_r.
      pose proof (sin_taylor (length phi / 2) ltac:(lra)) as [[T _] _]. pose proof (sin_lt_x (length phi / 2) ltac:(lra)). replace ((length phi / 2) ^ 3) with (length phi ^ 3 / 8) in T by field. apply Rabs_le. lra.
    + rewrite (half_angle_of _ _ (length phi / 2)) by (auto; lra). rewrite shortest_of by (apply cos_ge_0; lra). rewrite vector_of.
      assert (ND : direction phi <> (0, 0, 0)) by (intros E; apply length_zero in E; rewrite (length_direction phi N) in E; lra).
      rewrite direction_multiple by auto. replace (2 * (length phi / 2)) with (length phi) by field.
      rewrite <- (direction_multiple (length phi) (direction phi)) by (auto; lra). rewrite multiple_direction by exact N. rewrite multiple_direction by exact N.
      rewrite difference_self. exact P3.
Qed.
Lemma vector_eq (q : quaternion R) : from_scalar_vector (qw q) (quat_vec q) = q.
Proof. destruct q. reflexivity. Qed.
Lemma log_small q : unit_quaternion q -> length (quat_vec q) < small -> forall k, (k < 4)%nat ->
  Rabs (component (from_scaled_axis (to_scaled_axis q)) k - component (shortest q) k) <= length (quat_vec q) ^ 3.
Proof.
  intros U H. pose proof small_bound as S. rewrite to_scaled_axis_R. destruct (Rlt_dec _ _); [|lra].
  pose proof (length_nonneg (quat_vec q)) as P. rewrite <- (vec_shortest_length q) in *. pose proof (shortest_nonneg q) as W. apply shortest_unit in U. apply unit_split in U.
  replace (component (shortest q)) with (component (from_scalar_vector (qw (shortest q)) (quat_vec (shortest q)))) by (rewrite vector_eq; reflexivity). set (v := quat_vec (shortest q)) in *. set (w := qw (shortest q)) in *.
  destruct (small_cubed (length v) ltac:(lra)) as [C K]. set (s := length v) in *. assert (P3 : 0 <= s ^ 3) by (apply pow_le; lra).
  assert (L : length (multiple 2 v) = 2 * s) by (rewrite length_multiple, Rabs_pos_eq; [reflexivity|lra]).
  assert (Q : s * s <= / 1000) by nra.
  assert (S4 : 0 <= s ^ 4 <= s ^ 3 / 1000) by (split; [apply pow_le; lra|replace (s ^ 4) with (s * s ^ 3) by ring; nra]).
  assert (W2 : w <= 1 - s * s / 2). { destruct (Rle_dec w (1 - s * s / 2)); [assumption|]. exfalso. nra. }
  assert (W1 : 1 - s * s / 2 - s ^ 4 / 2 <= w).
  { destruct (Rle_dec (1 - s * s / 2 - s ^ 4 / 2) w) as [|G]; [assumption|]. exfalso. assert (G' : w < 1 - s * s / 2 - s ^ 4 / 2) by lra. assert (B : w * w < (1 - s * s / 2 - s ^ 4 / 2) * (1 - s * s / 2 - s ^ 4 / 2)) by nra.
    replace ((1 - s * s / 2 - s ^ 4 / 2) * (1 - s * s / 2 - s ^ 4 / 2)) with (1 - s * s - s ^ 4 * (3 / 4 - s * s / 2 - s ^ 4 / 4)) in B by field. nra. }
  destruct (Rlt_dec (2 * s) small) as [A|A].
  - rewrite from_scaled_axis_small by (rewrite L; exact A). rewrite L, multiple_multiple. intros k Hk. rewrite !component_vector. destruct k as [|k]; [apply Rabs_le; lra|].
    rewrite coordinate_multiple. pose proof (coordinate_bound v k) as B. fold s in B. replace (_ - coordinate v k) with (- (s * s / 6) * coordinate v k) by field. rewrite Rabs_mult, Rabs_Ropp, Rabs_pos_eq by nra.
    replace (s ^ 3) with (s * s * s) by ring. pose proof (Rabs_pos (coordinate v k)). nra.
  - assert (N : v <> (0, 0, 0)). { intros E. apply length_zero in E. fold s in E. lra. }
    rewrite from_scaled_axis_large by (rewrite L; lra). rewrite L. rewrite direction_multiple by (auto; lra). replace (2 * s / 2) with s by field. intros k Hk. rewrite !component_vector. destruct k as [|k].
    + pose proof (cos_taylor s ltac:(lra)) as [[T1 T2] _]. apply Rabs_le. lra.
    + unfold direction. fold s. rewrite !coordinate_multiple. pose proof (coordinate_bound v k) as B. fold s in B. assert (0 < s) by lra.
      pose proof (sin_taylor s ltac:(lra)) as [[T1 _] _]. pose proof (sin_lt_x s ltac:(lra)) as T2. replace (sin s * (/ s * coordinate v k) - coordinate v k) with ((sin s - s) * (coordinate v k / s)) by (field; lra).
      rewrite Rabs_mult. assert (Rabs (coordinate v k / s) <= 1). { unfold Rdiv. rewrite Rabs_mult, (Rabs_pos_eq (/ s)) by (left; apply Rinv_0_lt_compat; lra). apply (Rmult_le_reg_r s); [lra|]. rewrite Rmult_assoc, Rinv_l by lra. lra. }
      rewrite Rabs_left by lra. pose proof (Rabs_pos (coordinate v k / s)). nra.
Qed.
