(** C154: the error-state Kalman filter, its steps and updates. *)
From Coq Require Import ZArith Reals List Bool Arith Lia Lra Psatz.
From Coquelicot Require Import Coquelicot.
From Verif Require Import Base.Scalar Base.RNum Base.Lists Base.Series Base.Det Model.Errors Model.Vector Model.Matrix Model.Lu Model.Cholesky Model.Svd Model.Dual Model.Quaternion Model.Lie Model.Kalman Model.ErrorState.
From Verif Require Import Spec.Matrix Spec.MatrixExp Spec.Kalman Spec.Rotation Spec.Quaternion Spec.Expr Spec.Derivative Spec.ErrorState Proofs.Matrix Proofs.Vector Proofs.Algebra Proofs.Riccati Proofs.Kalman Proofs.Rotation Proofs.Quaternion Proofs.Space.
From Verif Require Import Props.Matrix Props.Cholesky Props.Eigen Props.Kalman Props.Quaternion Props.NominalState Proofs.DiffAlg Proofs.Dual Proofs.Smooth Proofs.ErrorState Proofs.ErrorSensor.
Import ListNotations.
Local Open Scope R_scope.
Local Notation length := List.length.
Local Notation scale3_R := Proofs.Quaternion.scale3_R.
Local Notation sqrt := R_sqrt.sqrt.

(** A filter whose matrices have the sizes their types promise and can be covariances. *)
Definition tracking (m : nat) (f : error_filter R) : Prop :=
  shape 15 15 (ef_covariance f) /\ covariance_matrix 15 (mget (ef_covariance f)) /\ shape m m (ef_measurement_noise f) /\ covariance_matrix m (mget (ef_measurement_noise f)).
Definition settings {T} (f : error_filter T) := (ef_imu_noise f, ef_measurement_noise f, ef_gravity f, ef_mode f).

(** ** A step *)
Lemma bump_spec n (c : mat R) k a : shape n n c -> (k < n)%nat ->
  shape n n (bump c k a) /\ forall i j, mget (bump c k a) i j = mget c i j + if (Nat.eqb i k && Nat.eqb j k)%bool then a else 0.
Proof.
  intros S K. unfold bump. split; [apply shape_mset, S|]. intros i j. rewrite (mget_mset n n) by auto.
  destruct (Nat.eqb_spec i k) as [->|], (Nat.eqb_spec j k) as [->|]; cbn [andb]; rnum; ring.
Qed.
Lemma symmetrized_same n (m : mat R) a : shape n n m -> equal n n (mget m) a -> symmetric n a -> shape n n (symmetrized n m) /\ equal n n (mget (symmetrized n m)) a.
Proof.
  intros S E Y. assert (Y' : symmetric n (mget m)) by (apply (symmetric_ext n _ _ E Y)). rewrite (proj2 (C87_symmetrized_form n m S) Y'). auto.
Qed.
Lemma step_noise_covariance noise h : 0 <= h -> covariance_matrix 15 (step_noise noise h).
Proof.
  intros H. split.
  - intros i j Hi Hj. unfold transposed, step_noise. rewrite (Nat.eqb_sym i j). destruct (Nat.eqb_spec j i) as [->|]; reflexivity.
  - intros x. unfold quadratic, dot_product. apply bsum_nonneg. intros i Hi. unfold times.
    set (d := step_noise noise h i i).
    rewrite (bsum_ext 15 _ (fun k => if Nat.eqb k i then d * x i else 0)).
    + rewrite bsum_delta by exact Hi. assert (D : 0 <= d).
      { unfold d, step_noise. rewrite Nat.eqb_refl. repeat destruct (Nat.ltb _ _); try apply Rle_0_sqr; try lra; apply Rmult_le_pos; auto; apply Rle_0_sqr. }
      assert (0 <= x i * x i) by apply Rle_0_sqr. nra.
    + intros k Hk. unfold d, step_noise. rewrite (Nat.eqb_sym i k). destruct (Nat.eqb_spec k i) as [->|]; [rewrite Nat.eqb_refl; reflexivity|ring].
Qed.
Lemma noise_read noise h (c : mat R) : shape 15 15 c ->
  let d := fold_left (fun covariance offset =>
      let covariance := bump covariance (3 + offset) (accelerometer_noise_density noise * h * (accelerometer_noise_density noise * h)) in
      let covariance := bump covariance (6 + offset) (gyroscope_noise_density noise * h * (gyroscope_noise_density noise * h)) in
      let covariance := bump covariance (9 + offset) (gyroscope_bias_random_walk noise * gyroscope_bias_random_walk noise * h) in
      bump covariance (12 + offset) (accelerometer_bias_random_walk noise * accelerometer_bias_random_walk noise * h)) (range 0 3) c in
  shape 15 15 d /\ equal 15 15 (mget d) (plus_matrix (mget c) (step_noise noise h)).
Proof.
  intros S. cbn [range seq Nat.sub fold_left]. cbv zeta.
  assert (BS : forall (c' : mat R) k (a : R), shape 15 15 c' -> shape 15 15 (bump c' k a)) by (intros; apply shape_mset; auto).
  assert (BG : forall (c' : mat R) k (a : R) i j, shape 15 15 c' -> (k < 15)%nat -> mget (bump c' k a) i j = mget c' i j + if (Nat.eqb i k && Nat.eqb j k)%bool then a else 0) by (intros; apply (bump_spec 15); auto).
  split; [repeat apply BS; exact S|]. intros i j Hi Hj. rewrite !BG by (repeat apply BS; auto; lia).
  unfold plus_matrix, step_noise. generalize (mget c i j). intros e.
  destruct (Nat.eqb_spec i j) as [<-|N].
  - clear - Hi. do 15 (destruct i as [|i]; [cbn [Nat.eqb Nat.ltb Nat.leb Nat.add andb]; unfold Rsqr; ring|]). lia.
  - assert (Z : forall k : nat, (Nat.eqb i k && Nat.eqb j k)%bool = false) by (intros k; destruct (Nat.eqb_spec i k), (Nat.eqb_spec j k); auto; lia). rewrite !Z. ring.
Qed.
(** A step is never refused in exact arithmetic: the state moves, the covariance is carried along with the noise of the step added, and it
    stays a covariance. *)
Theorem C154_predict m f gyroscope accelerometer h : tracking m f ->
  let '(g, result) := ef_predict gyroscope accelerometer h f in
  result = Ok tt /\ ef_state g = propagated (ef_state f) gyroscope accelerometer h (ef_gravity f) /\
  (0 <= h -> equal 15 15 (mget (ef_covariance g)) (carried_covariance 15 (mget (error_state_transition f gyroscope accelerometer h)) (mget (ef_covariance f)) (step_noise (ef_imu_noise f) h)) /\ tracking m g) /\
  settings g = settings f /\ ef_innovation g = ef_innovation f /\ ef_spread g = ef_spread f.
Proof.
  intros (S1 & P1 & S2 & P2). unfold ef_predict, is_finite3. rewrite !finite_vec_always. change (is_finite h) with true. cbn [negb orb].
  set (F := error_state_transition f gyroscope accelerometer h). set (next := propagated _ _ _ _ _).
  assert (FN : ns_is_finite next = true) by (apply C153_finite; intros; reflexivity). rewrite FN, !finite_mat_always. cbn [negb orb].
  split; [reflexivity|]. split; [reflexivity|]. split; [|split; [reflexivity|split; reflexivity]]. intros H.
  destruct (mul_read 15 15 15 F (ef_covariance f) _ _ (equal_refl _ _ _) (equal_refl _ _ _)) as [A1 A2].
  destruct (mul_read 15 15 15 _ (transpose 15 15 F) _ _ A2 (transpose_read _ _ _ _ (equal_refl _ _ _))) as [B1 B2]. rewrite p_assoc in B2.
  destruct (noise_read (ef_imu_noise f) h _ B1) as [C1 C2]. cbv zeta in C1, C2.
  assert (E : equal 15 15 (plus_matrix (mget (mat_mul 15 15 15 (mat_mul 15 15 15 F (ef_covariance f)) (transpose 15 15 F))) (step_noise (ef_imu_noise f) h)) (carried_covariance 15 (mget F) (mget (ef_covariance f)) (step_noise (ef_imu_noise f) h))).
  { intros i j Hi Hj. unfold carried_covariance, plus_matrix. rewrite B2 by auto. reflexivity. }
  pose proof (carried_is_covariance 15 (mget F) _ _ P1 (step_noise_covariance (ef_imu_noise f) h H)) as CC.
  destruct (symmetrized_same 15 _ _ C1 (equal_trans _ _ _ _ _ C2 E) (proj1 CC)) as [D1 D2].
  cbn [ef_set ef_covariance]. unfold propagate_covariance. rnum. split; [exact D2|]. unfold tracking. cbn [ef_set ef_covariance ef_measurement_noise]. split; [exact D1|]. split; [|auto].
  split; [apply (symmetric_ext 15 _ _ D2 (proj1 CC))|]. intros x. rewrite (quadratic_ext 15 _ _ x D2). apply CC.
Qed.

(** ** A reading *)
Lemma jacobian_read {T} {NT : Num T} width (model : StateFn) (s : nominal_state T) : shape width 15 (measurement_jacobian width model s) /\
  forall i j, (i < width)%nat -> (j < 15)%nat -> mget (measurement_jacobian width model s) i j =
    deriv (nth i (model (Dual T) dual_num (@plus_error (Dual T) dual_num (lifted_to_dual s) (seeded_error j))) (dual_constant zero)).
Proof.
  unfold measurement_jacobian. set (out := fun column => model (Dual T) dual_num (@plus_error (Dual T) dual_num (lifted_to_dual s) (seeded_error column))).
  assert (ROW : forall column (m : mat T), (column < 15)%nat -> shape width 15 m -> let m' := fold_left (fun jacobian row => mset jacobian row column (deriv (nth row (out column) (dual_constant zero)))) (range 0 width) m in
    shape width 15 m' /\ forall i j, (i < width)%nat -> mget m' i j = if Nat.eqb j column then deriv (nth i (out column) (dual_constant zero)) else mget m i j).
  { intros column m Hc SM. cbv zeta. unfold range. rewrite Nat.sub_0_r.
    assert (G : forall n, (n <= width)%nat -> let m' := fold_left (fun jacobian row => mset jacobian row column (deriv (nth row (out column) (dual_constant zero)))) (seq 0 n) m in
      shape width 15 m' /\ forall i j, (i < width)%nat -> mget m' i j = if (Nat.ltb i n && Nat.eqb j column)%bool then deriv (nth i (out column) (dual_constant zero)) else mget m i j).
    { induction n as [|n IH]; intros Hn; [cbn; auto|]. rewrite seq_S, fold_left_app. cbn [fold_left Nat.add]. destruct (IH ltac:(lia)) as [S' E]. cbv zeta in *. split; [apply shape_mset, S'|].
      intros i j Hi. rewrite (mget_mset width 15) by (auto; lia). rewrite E by exact Hi.
      destruct (Nat.ltb_spec i n), (Nat.ltb_spec i (S n)), (Nat.eqb_spec j column), (Nat.eqb_spec i n); subst; cbn [andb]; try lia; reflexivity. }
    destruct (G width (le_n _)) as [S' E]. split; [exact S'|]. intros i j Hi. rewrite E by exact Hi. destruct (Nat.ltb_spec i width); [reflexivity|lia]. }
  assert (G : forall n, (n <= 15)%nat -> let m' := fold_left (fun jacobian column => fold_left (fun jacobian row => mset jacobian row column (deriv (nth row (out column) (dual_constant zero)))) (range 0 width) jacobian) (seq 0 n) (mat_zeros width 15) in
    shape width 15 m' /\ forall i j, (i < width)%nat -> (j < n)%nat -> mget m' i j = deriv (nth i (out j) (dual_constant zero))).
  { induction n as [|n IH]; intros Hn; [cbn; split; [apply shape_mat_fn|intros; lia]|]. rewrite seq_S, fold_left_app. cbn [fold_left Nat.add]. destruct (IH ltac:(lia)) as [S' E]. cbv zeta in *.
    destruct (ROW n _ ltac:(lia) S') as [S2 E2]. split; [exact S2|]. intros i j Hi Hj. rewrite E2 by exact Hi. destruct (Nat.eqb_spec j n) as [->|]; [reflexivity|]. apply E; auto; lia. }
  destruct (G 15%nat (le_n _)) as [S' E]. split; [exact S'|]. exact E.
Qed.
Lemma reset_read (e : list R) : shape 15 15 (reset_matrix e) /\ equal 15 15 (mget (reset_matrix e)) (reset_of (part e 6)).
Proof.
  unfold reset_matrix. destruct (write_block_spec 15 (identity 15) 6 6 (mat_sub (identity 3) (mat_scale 3 3 (so3_hat (error_part e 6)) half)) (shape_identity 15) ltac:(lia) ltac:(lia)) as [S E].
  split; [exact S|]. intros i j Hi Hj. rewrite E. unfold in_block, reset_of. cbn [Nat.add].
  destruct (Nat.leb 6 i && Nat.ltb i 9 && Nat.leb 6 j && Nat.ltb j 9)%bool eqn:B.
  - rewrite !andb_true_iff, !Nat.leb_le, !Nat.ltb_lt in B. rewrite (mget_sub 3 3) by (try apply shape_identity; try apply shape_mat_fn; lia). unfold minus_matrix, mat_scale.
    rewrite mget_mat_fn by lia. rewrite part_R, mget_identity by lia.
    assert (I : exists a, i = (6 + a)%nat /\ (a < 3)%nat) by (exists (i - 6)%nat; lia). assert (J : exists c, j = (6 + c)%nat /\ (c < 3)%nat) by (exists (j - 6)%nat; lia).
    destruct I as (a & -> & Ha), J as (c & -> & Hc). replace (6 + a - 6)%nat with a by lia. replace (6 + c - 6)%nat with c by lia.
    destruct (part e 6) as [[x y] z]. unfold so3_hat, skew3, mget, vget, unit_matrix, cross_matrix. rnum. three a; three c; cbn; field.
  - rewrite mget_identity by auto. unfold unit_matrix. rnum. ring.
Qed.
Lemma best_gain n m h p r k : symmetric n p -> symmetric m r -> let S := innovation_matrix n m h p r in let after := corrected_covariance n m h p r in
  solves_gain n m h p S k -> positive_definite m S ->
  (forall l, no_larger n (after k) (after l)) /\ (forall l, no_larger n (after l) (after k) -> equal n m l k) /\ no_larger n (after k) p.
Proof.
  intros P1 R1 S after G PD. split; [|split].
  - intros l x. unfold after. rewrite (gain_form n m _ _ _ k P1 R1 G x), (gain_square n m _ _ _ k P1 R1 G l x). pose proof (definite_nonneg m S PD) as N.
    match goal with |- _ <= _ + quadratic m _ ?y => specialize (N y) end. fold S. lra.
  - intros l H i j Hi Hj. set (x := fun q : nat => if Nat.eqb q i then 1 else 0). specialize (H x). unfold after in H.
    rewrite (gain_form n m _ _ _ k P1 R1 G x), (gain_square n m _ _ _ k P1 R1 G l x) in H. fold S in H.
    set (d := minus_vector (times n (transposed l) x) (times n (transposed k) x)) in H.
    assert (W : d j = l i j - k i j).
    { unfold d, minus_vector, times, x, transposed. f_equal.
      - transitivity (dot_product n (fun q => if Nat.eqb q i then 1 else 0) (fun q => l q j)); [apply bsum_ext; intros; ring|]. rewrite delta_dot; auto.
      - transitivity (dot_product n (fun q => if Nat.eqb q i then 1 else 0) (fun q => k q j)); [apply bsum_ext; intros; ring|]. rewrite delta_dot; auto. }
    destruct (Req_dec (d j) 0) as [Z|Z]; [lra|]. exfalso. specialize (PD d (ex_intro _ j (conj Hj Z))). change (0 < quadratic m S d) in PD. lra.
  - intros x. unfold after. rewrite (gain_form n m _ _ _ k P1 R1 G x). pose proof (definite_nonneg m S PD (times n (transposed k) x)). fold S. lra.
Qed.
(** How sure the filter is of a reading before it comes: [J P J' + N], with [J] the slope of the sensor in the error. *)
Definition expected_spread (m : nat) (model : StateFn) (noise : mat R) (f : error_filter R) : matrix :=
  let J := mget (measurement_jacobian m model (ef_state f)) in plus_matrix (product 15 J (product 15 (mget (ef_covariance f)) (transposed J))) (mget noise).
Lemma fold_in_cases m model residual noise f : shape 15 15 (ef_covariance f) -> covariance_matrix 15 (mget (ef_covariance f)) -> shape m m noise -> covariance_matrix m (mget noise) -> length residual = m ->
  let S := expected_spread m model noise f in let J := mget (measurement_jacobian m model (ef_state f)) in
  let after := corrected_covariance 15 m J (mget (ef_covariance f)) (mget noise) in
  (positive_definite m S /\ exists g spread k error, fold_in m model residual noise f = (g, Ok spread) /\ shape m m spread /\ equal m m (mget spread) S /\
    settings g = settings f /\ ef_innovation g = ef_innovation f /\ ef_spread g = ef_spread f /\ length error = 15%nat /\ equal_vectors 15 (vget error) (times m k (vget residual)) /\
    ef_state g = plus_error (ef_state f) error /\ shape 15 15 (ef_covariance g) /\
    equal 15 15 (mget (ef_covariance g)) (product 15 (reset_of (part error 6)) (product 15 (after k) (transposed (reset_of (part error 6))))) /\
    covariance_matrix 15 (mget (ef_covariance g)) /\
    (forall l, no_larger 15 (after k) (after l)) /\ (forall l, no_larger 15 (after l) (after k) -> equal 15 m l k) /\ no_larger 15 (after k) (mget (ef_covariance f))) \/
  (~ positive_definite m S /\ fold_in m model residual noise f = (f, Err EsNotPositiveDefinite)).
Proof.
  intros SP PP SN NN L S J after. unfold fold_in. rewrite finite_vec_always, finite_mat_always. cbn [negb].
  set (h := measurement_jacobian m model (ef_state f)) in *. set (s := spread_of_innovation 15 m h (ef_covariance f) noise). rewrite finite_mat_always. cbn [negb].
  destruct (spread_read 15 m h (ef_covariance f) noise SN) as [SS SE]. fold s in SS, SE. change (equal m m (mget s) S) in SE.
  assert (YS : symmetric m (mget s)) by (apply (symmetric_ext m _ _ SE); apply innovation_symmetric; [apply PP|apply NN]).
  destruct (C79_accepts m s SS YS) as [C1 C2].
  assert (PD : positive_definite m (mget s) <-> positive_definite m S).
  { split; intros Q x N; specialize (Q x N); [change (0 < quadratic m S x); rewrite <- (quadratic_ext m _ _ x SE)|change (0 < quadratic m (mget s) x); rewrite (quadratic_ext m _ _ x SE)]; exact Q. }
  destruct (cholesky m s) as [factor|e|] eqn:EC.
  - left. assert (PS : positive_definite m S) by (apply PD, C1; eauto). split; [exact PS|].
    destruct (gain_read 15 m h (ef_covariance f) noise factor SN (proj1 PP) (proj1 NN) EC) as [GS GE]. set (k := gain_of 15 m factor h (ef_covariance f)) in *.
    destruct (updated_read 15 m (ef_mode f) h (ef_covariance f) noise k SN GS (proj1 PP) (proj1 NN) GE) as [US UE].
    set (error := mat_vec 15 m k residual). set (u := updated_covariance 15 m (ef_mode f) k h (ef_covariance f) noise) in *.
    destruct (reset_read error) as [RS RE].
    destruct (mul_read 15 15 15 _ _ _ _ RE UE) as [A1 A2]. destruct (mul_read 15 15 15 _ _ _ _ A2 (transpose_read _ _ _ _ RE)) as [B1 B2]. rewrite p_assoc in B2.
    pose proof (outer_covariance 15 15 (reset_of (part error 6)) _ (corrected_is_covariance 15 m (mget h) _ _ (mget k) PP NN)) as CC.
    destruct (symmetrized_same 15 _ _ B1 B2 (proj1 CC)) as [D1 D2].
    destruct (best_gain 15 m (mget h) (mget (ef_covariance f)) (mget noise) (mget k) (proj1 PP) (proj1 NN) GE PS) as (G1 & G2 & G3).
    eexists _, s, (mget k), error. split; [reflexivity|]. cbn [ef_set inject_error_and_reset ef_state ef_covariance ef_innovation ef_spread settings].
    split; [exact SS|]. split; [exact SE|]. do 3 (split; [reflexivity|]). split; [apply mat_vec_length|]. split; [intros i Hi; apply vget_mat_vec; auto|]. split; [reflexivity|].
    split; [exact D1|]. split; [exact D2|]. split; [split; [apply (symmetric_ext 15 _ _ D2 (proj1 CC))|intros x; rewrite (quadratic_ext 15 _ _ x D2); apply CC]|]. auto.
  - right. split; [|reflexivity]. rewrite <- PD. intros Q. apply C1 in Q. destruct Q; discriminate.
  - exfalso. destruct (Classical_Prop.classic (positive_definite m (mget s))) as [Q|Q]; [apply C1 in Q; destruct Q; discriminate|apply C2 in Q; discriminate].
Qed.
(** A residual is folded in exactly when the spread expected of it is positive definite, and otherwise nothing at all changes. The error
    folded into the state is the gain applied to the residual, with the one gain no other beats in any direction; the covariance is what that
    gain leaves, carried over to the corrected facing. *)
Theorem C154_update m model residual f : tracking m f -> length residual = m ->
  let J := mget (measurement_jacobian m model (ef_state f)) in let S := expected_spread m model (ef_measurement_noise f) f in
  let after := corrected_covariance 15 m J (mget (ef_covariance f)) (mget (ef_measurement_noise f)) in
  let '(g, result) := ef_update_with_residual m model residual f in
  tracking m g /\ settings g = settings f /\
  (result = Ok tt <-> positive_definite m S) /\ (result = Err EsNotPositiveDefinite <-> ~ positive_definite m S) /\
  (~ positive_definite m S -> g = f) /\
  (positive_definite m S -> ef_innovation g = residual /\ shape m m (ef_spread g) /\ equal m m (mget (ef_spread g)) S /\ exists k error,
     length error = 15%nat /\ equal_vectors 15 (vget error) (times m k (vget residual)) /\ ef_state g = plus_error (ef_state f) error /\
     equal 15 15 (mget (ef_covariance g)) (product 15 (reset_of (part error 6)) (product 15 (after k) (transposed (reset_of (part error 6))))) /\
     (forall l, no_larger 15 (after k) (after l)) /\ (forall l, no_larger 15 (after l) (after k) -> equal 15 m l k) /\ no_larger 15 (after k) (mget (ef_covariance f))).
Proof.
  intros (SP & PP & SN & NN) L J S after. unfold ef_update_with_residual.
  destruct (fold_in_cases m model residual (ef_measurement_noise f) f SP PP SN NN L) as [(PD & g & spread & k & error & E & A1 & A2 & A3 & A4 & A5 & A6 & A7 & A8 & A9 & A10 & A11 & A12)|(PD & E)]; rewrite E; fold S in PD.
  - cbn [ef_set_innovation ef_innovation ef_spread ef_state ef_covariance].
    assert (MN : ef_measurement_noise g = ef_measurement_noise f) by (unfold settings in A3; injection A3; auto).
    split; [unfold tracking; cbn [ef_set_innovation ef_covariance ef_measurement_noise]; rewrite MN; auto|]. split; [exact A3|]. split; [tauto|]. split; [split; [discriminate|tauto]|]. split; [tauto|]. intros _.
    split; [reflexivity|]. split; [exact A1|]. split; [exact A2|]. exists k, error. auto.
  - split; [unfold tracking; auto|]. split; [reflexivity|]. split; [split; [discriminate|tauto]|]. split; [tauto|]. split; [auto|]. tauto.
Qed.
(** Noise uncertain in every direction is always enough. *)
Theorem C154_accepts m model residual f : tracking m f -> definite_covariance m (mget (ef_measurement_noise f)) -> length residual = m ->
  snd (ef_update_with_residual m model residual f) = Ok tt.
Proof.
  intros V D L. pose proof (C154_update m model residual f V L) as U. cbv zeta in U. destruct (ef_update_with_residual m model residual f) as [g r]. apply U.
  apply (proj2 (plus_definite m _ _ (outer_covariance m 15 (mget (measurement_jacobian m model (ef_state f))) _ (proj1 (proj2 V))) D)).
Qed.
(** A measurement is a residual against what the sensor should read, and a sensor other than the filter's own is folded in the same way with
    its own noise, leaving the record of the last innovation alone. *)
Theorem C154_residual m model z f : ef_update m model z f = ef_update_with_residual m model (vec_sub z (model R Rnum (ef_state f))) f.
Proof. unfold ef_update. rewrite finite_vec_always. reflexivity. Qed.
Theorem C154_other m model residual noise (f : error_filter R) :
  let '(a, ra) := ef_update_other m model residual noise f in let '(b, rb) := ef_update_with_residual m model residual (ef_set_measurement_noise f noise) in
  ra = rb /\ ef_state a = ef_state b /\ ef_covariance a = ef_covariance b /\ settings a = settings f /\ ef_innovation a = ef_innovation f /\ ef_spread a = ef_spread f.
Proof.
  unfold ef_update_other, ef_update_with_residual, fold_in. rewrite finite_vec_always, !finite_mat_always. cbn [negb ef_set_measurement_noise ef_configured ef_state ef_covariance ef_measurement_noise ef_mode].
  destruct (cholesky _ _); cbn [ef_set inject_error_and_reset ef_set_innovation ef_state ef_covariance ef_innovation ef_spread]; repeat split.
Qed.
(** Any scalar: readings that are not finite are refused and nothing changes, a step refused for a state or transition that is not finite
    changes nothing either, a refused update changes nothing, and settings never change. *)
Theorem C154_refused T (NT : Num T) (f : error_filter T) :
  (forall gyroscope accelerometer h, (forall x, In x (list3 gyroscope ++ list3 accelerometer ++ [h]) -> is_finite x = true) \/
     ef_predict gyroscope accelerometer h f = (f, Err EsNonFinite)) /\
  (forall gyroscope accelerometer h g r, ef_predict gyroscope accelerometer h f = (g, r) -> settings g = settings f /\ r <> Panic /\
     (g = f \/ ns_is_finite (ef_state g) = true) /\ (r = Ok tt -> ns_is_finite (ef_state g) = true /\ mat_is_finite (ef_covariance g) = true)) /\
  (forall m model residual, vec_is_finite residual = false -> ef_update_with_residual m model residual f = (f, Err EsNonFinite)) /\
  (forall m model z, vec_is_finite z = false -> ef_update m model z f = (f, Err EsNonFinite)) /\
  (forall m model residual g r, ef_update_with_residual m model residual f = (g, r) -> settings g = settings f /\ (r <> Ok tt -> g = f)) /\
  (forall m model residual noise g r, ef_update_other m model residual noise f = (g, r) -> settings g = settings f /\ ef_innovation g = ef_innovation f /\ ef_spread g = ef_spread f /\ (r <> Ok tt -> g = f)).
Proof.
  split; [|split; [|split; [|split; [|split]]]].
  - intros a b h. unfold ef_predict. destruct (is_finite3 a) eqn:A; [|right; reflexivity]. destruct (is_finite3 b) eqn:B; [|right; reflexivity]. destruct (is_finite h) eqn:H; [|right; reflexivity]. left.
    unfold is_finite3, vec_is_finite in A, B. rewrite forallb_forall in A, B. intros x I. rewrite !in_app_iff in I. destruct I as [I|[I|[<-|[]]]]; auto.
  - intros a b h g r. unfold ef_predict. destruct (_ || _)%bool; [intros [= <- <-]; split; [reflexivity|split; [discriminate|split; [auto|discriminate]]]|].
    destruct (ns_is_finite _) eqn:N; cbn [negb orb]; [|intros [= <- <-]; split; [reflexivity|split; [discriminate|split; [auto|discriminate]]]].
    destruct (mat_is_finite (error_state_transition _ _ _ _)); cbn [negb]; [|intros [= <- <-]; split; [reflexivity|split; [discriminate|split; [auto|discriminate]]]].
    cbn [ef_set ef_covariance]. destruct (mat_is_finite (propagate_covariance _ _ _ _)) eqn:M; cbn [negb]; intros [= <- <-]; (split; [reflexivity|]); (split; [discriminate|]); (split; [right; exact N|]); [auto|discriminate].
  - intros m model residual H. unfold ef_update_with_residual, fold_in. rewrite H. reflexivity.
  - intros m model z H. unfold ef_update. rewrite H. reflexivity.
  - intros m model residual g r. unfold ef_update_with_residual, fold_in. destruct (vec_is_finite residual); cbn [negb]; [|intros [= <- <-]; auto].
    destruct (mat_is_finite _); cbn [negb]; [|intros [= <- <-]; auto]. destruct (mat_is_finite _); cbn [negb]; [|intros [= <- <-]; auto].
    destruct (cholesky _ _); intros [= <- <-]; split; try reflexivity; auto; intros N; congruence.
  - intros m model residual noise g r. unfold ef_update_other, fold_in. destruct (vec_is_finite residual); cbn [negb]; [|intros [= <- <-]; auto].
    destruct (mat_is_finite _); cbn [negb]; [|intros [= <- <-]; auto]. destruct (mat_is_finite _); cbn [negb]; [|intros [= <- <-]; auto].
    destruct (cholesky _ _); intros [= <- <-]; (split; [reflexivity|]); (split; [reflexivity|]); (split; [reflexivity|]); auto; intros N; congruence.
Qed.
(** Lifting the covariance off zero: never refused in exact arithmetic, and afterwards no direction is surer than the floor allows. The
    spread along each of fifteen axes at right angles is what it was, or the floor where that is more. *)
Theorem C154_condition m floor f : tracking m f -> 0 <= floor -> let '(g, r) := condition_covariance floor f in
  r = Ok tt /\ tracking m g /\ ef_state g = ef_state f /\ settings g = settings f /\ (forall x, floor * square_norm 15 x <= quadratic 15 (mget (ef_covariance g)) x) /\
  exists v, orthonormal_columns 15 15 v /\ forall i k, (i < 15)%nat -> (k < 15)%nat ->
    times 15 (mget (ef_covariance g)) (column v k) i = Rmax (quadratic 15 (mget (ef_covariance f)) (column v k)) floor * v i k.
Proof.
  intros (S1 & P1 & S2 & P2) F. unfold condition_covariance. rewrite (proj2 (C87_symmetrized_form 15 _ S1) (proj1 P1)).
  destruct (C86_frame 15 _ S1 (proj1 P1)) as (d & E & O & _ & V & _). rewrite E. cbn [ef_set ef_state ef_covariance].
  destruct (C86_clamped 15 _ d floor S1 (proj1 P1) E) as (K & C & _). destruct (C86_clamped_symmetric 15 d floor) as [SC YC].
  split; [reflexivity|]. split; [|split; [reflexivity|split; [reflexivity|split; [exact C|exists (mget (eigenvectors d)); split; [exact O|intros i k Hi Hk; rewrite (K i k Hi Hk), (V k Hk); reflexivity]]]]]. unfold tracking. cbn [ef_set ef_covariance ef_measurement_noise]. split; [exact SC|]. split; [|auto].
  split; [intros i j Hi Hj; apply YC; auto|]. intros x. specialize (C x). change (0 <= dot_product 15 x (times 15 (mget (eigen_clamped 15 d floor)) x)). assert (0 <= square_norm 15 x) by (apply bsum_nonneg; intros; apply Rle_0_sqr). nra.
Qed.
(** How far off the filter is, measured against how sure it is. *)
Theorem C154_normalized m f truth w : tracking m f -> positive_definite 15 (mget (ef_covariance f)) -> inverse_of 15 (mget (ef_covariance f)) w ->
  exists r, normalized_estimation_error_squared truth f = Ok r /\ r = quadratic 15 w (vget (error_from truth (ef_state f))) /\ 0 <= r /\
  (unit_quaternion (ns_orientation truth) -> truth = ef_state f -> r = 0).
Proof.
  intros (S1 & P1 & _) PD I. unfold normalized_estimation_error_squared.
  assert (L : length (error_from truth (ef_state f)) = 15%nat).
  { unfold error_from. rewrite !app_length. repeat match goal with |- context [length (list3 ?v)] => replace (length (list3 v)) with 3%nat by (destruct v as [[? ?] ?]; reflexivity) end. reflexivity. }
  destruct (C129_normalized 15 _ _ w L S1 (proj1 P1) PD I) as (r & E & Q & N). exists r. split; [exact E|]. split; [exact Q|]. split; [exact N|]. intros U TE. rewrite Q.
  assert (Z : equal_vectors 15 (vget (error_from truth (ef_state f))) (fun _ => 0)).
  { rewrite <- TE. unfold error_from. assert (O : forall p : point, sub3 p p = (0, 0, 0)) by (intros p; rewrite sub3_R; destruct p as [[? ?] ?]; unfold together, multiple; apply point_eq; ring). rewrite !O.
    unfold so3_log, so3_compose, so3_inverse. rewrite (proj2 (conjugate_inverse _ U)), log_none. intros i Hi. unfold vget. do 15 (destruct i as [|i]; [reflexivity|]). lia. }
  unfold quadratic, dot_product. rewrite (bsum_ext 15 _ (fun _ => 0)); [apply bsum_0|]. intros i Hi. rewrite Z by exact Hi. ring.
Qed.

(** The innovation of the last reading, weighed: [r' w r] for the inverse [w] of the spread expected of it. *)
Theorem C154_innovation m model residual f w : tracking m f -> length residual = m -> let S := expected_spread m model (ef_measurement_noise f) f in
  positive_definite m S -> inverse_of m S w ->
  exists r, ef_normalized m (fst (ef_update_with_residual m model residual f)) = Ok r /\ r = quadratic m w (vget residual) /\ 0 <= r.
Proof.
  intros V L S PD I. pose proof (C154_update m model residual f V L) as U. cbv zeta in U. destruct (ef_update_with_residual m model residual f) as [g res].
  destruct U as (_ & _ & _ & _ & _ & U). destruct (U PD) as (U1 & U2 & U3 & _). cbn [fst]. unfold ef_normalized. rewrite U1.
  assert (YS : symmetric m S) by (apply innovation_symmetric; [apply V|apply (proj2 (proj2 (proj2 V)))]).
  apply C129_normalized; auto.
  - apply (symmetric_ext m _ _ U3 YS).
  - intros x N. specialize (PD x N). change (0 < quadratic m (mget (ef_spread g)) x). rewrite (quadratic_ext m _ _ x U3). exact PD.
  - destruct I as [I1 I2]. split; intros i j Hi Hj; [rewrite <- (I1 i j Hi Hj)|rewrite <- (I2 i j Hi Hj)]; apply product_ext; intros; auto.
Qed.
(** A sensor given by formulas in the sixteen numbers of a state: row [i] of the slope the filter works with is how reading [i] changes with
    each number of the error. *)
Theorem C154_slope es s i j : unit_quaternion (ns_orientation s) -> (j < 15)%nat -> (forall e, In e es -> smooth_at e (numbers s)) -> (i < length es)%nat ->
  let model := fun S NS (x : nominal_state S) => formulas es S NS (numbers x) in
  is_derive (fun t => nth i (model R Rnum (plus_error s (nudge j t))) 0) 0 (mget (measurement_jacobian (length es) model s) i j).
Proof.
  intros U J SM Hi model. rewrite (proj2 (jacobian_read (length es) model s)) by auto.
  set (dz := dual_constant zero). set (e := nth i es (EVar 0)).
  assert (NT : forall S (NS : Num S) x d, nth i (model S NS x) d = formula e S NS (numbers x)).
  { intros S NS x d. unfold model, formulas. rewrite (nth_indep _ d (formula (EVar 0) S NS (numbers x))) by (rewrite map_length; exact Hi). apply (map_nth (fun e => formula e S NS (numbers x))). }
  rewrite NT. apply (is_derive_ext (fun t => formula e R Rnum (numbers (plus_error s (nudge j t))))); [intros t; symmetry; apply NT|].
  set (D := numbers (@plus_error (Dual R) dual_num (lifted_to_dual s) (seeded_error j))).
  set (env := fun (t : R) (k : nat) => nth k (numbers (plus_error s (nudge j t))) 0).
  set (Env := fun (t : R) (k : nat) => mkDual (env t k) (deriv (nth k D (mkDual 0 0)))).
  assert (ND : forall k, value (nth k D (mkDual 0 0)) = env 0 k /\ is_derive (fun t => env t k) 0 (deriv (nth k D (mkDual 0 0)))) by (intros k; apply numbers_derive; auto).
  assert (N0 : numbers (plus_error s (nudge j 0)) = numbers s).
  { f_equal. assert (PZ : forall a, (a + 2 < 15)%nat -> error_part (nudge j 0) a = (0, 0, 0)).
    { intros a Ha. rewrite part_R. unfold part, nudge. rewrite !nth_from_fn by lia. repeat destruct (Nat.eqb _ _); reflexivity. }
    unfold plus_error. rewrite !PZ by lia. rewrite !add3_R. assert (Z : forall p : point, together p (0, 0, 0) = p) by (intros [[? ?] ?]; unfold together; apply point_eq; ring).
    rewrite !Z. unfold so3_compose, so3_exp. rewrite exp_none, mul_identity_r. destruct s; reflexivity. }
  assert (S0 : smooth (env 0) e) by (unfold env; rewrite N0; apply SM; apply nth_In; exact Hi).
  pose proof (eval_rep dual_base _ _ _ dual_diffalg env Env 0 ltac:(intros k; split; [apply filter_forall; reflexivity|apply ND]) e S0) as [_ H].
  change (@with_defaults _ dual_base) with (@dual_num R Rnum) in H.
  assert (Ed : @eval _ dual_num (Env 0) e = formula e (Dual R) dual_num D).
  { unfold formula. apply eval_ext. intros k. unfold Env. change (@zero (Dual R) dual_num) with (mkDual 0 0). destruct (ND k) as [V _]. rewrite <- V. destruct (nth k D (mkDual 0 0)); reflexivity. }
  rewrite Ed in H. exact H.
Qed.

(** ** Whole histories *)
Inductive action : Type :=
| Step (gyroscope accelerometer : point) (h : R)
| Reading (model : StateFn) (z : list R)
| Residual (model : StateFn) (r : list R)
| OtherSensor (width : nat) (model : StateFn) (r : list R) (noise : mat R)
| Condition (floor : R)
| Retune (noise : imu_noise R)
| Renoise (noise : mat R)
| Restate (s : nominal_state R).
Definition sensible (m : nat) (a : action) : Prop :=
  match a with
  | Step _ _ h => 0 <= h
  | Reading model z => length z = m /\ forall s, length (model R Rnum s) = m
  | Residual _ r => length r = m
  | OtherSensor width _ r noise => length r = width /\ shape width width noise /\ covariance_matrix width (mget noise)
  | Condition floor => 0 <= floor
  | Renoise noise => shape m m noise /\ covariance_matrix m (mget noise)
  | _ => True
  end.
Definition act (m : nat) (f : error_filter R) (a : action) : error_filter R :=
  match a with
  | Step gyroscope accelerometer h => fst (ef_predict gyroscope accelerometer h f)
  | Reading model z => fst (ef_update m model z f)
  | Residual model r => fst (ef_update_with_residual m model r f)
  | OtherSensor width model r noise => fst (ef_update_other width model r noise f)
  | Condition floor => fst (condition_covariance floor f)
  | Retune noise => ef_set_imu_noise f noise
  | Renoise noise => ef_set_measurement_noise f noise
  | Restate s => ef_set_nominal_state f s
  end.
(** Whatever is done to the filter, in any order and any number of times, its covariance stays one. *)
Theorem C154_history m actions f : tracking m f -> (forall a, In a actions -> sensible m a) -> tracking m (fold_left (act m) actions f).
Proof.
  revert f. induction actions as [|a rest IH]; intros f V S; [exact V|]. cbn [fold_left]. apply IH; [|intros; apply S; right; auto]. specialize (S a (or_introl eq_refl)).
  destruct a; cbn [act sensible] in *.
  - pose proof (C154_predict m f gyroscope accelerometer h V) as P. destruct (ef_predict gyroscope accelerometer h f). apply P, S.
  - rewrite C154_residual. destruct S as [L1 L2]. assert (L : length (vec_sub z (model R Rnum (ef_state f))) = m) by (unfold vec_sub; rewrite map2_length; rewrite ?L2; auto).
    pose proof (C154_update m model _ f V L) as P. cbv zeta in P. destruct (ef_update_with_residual _ _ _ f). apply P.
  - pose proof (C154_update m model _ f V S) as P. cbv zeta in P. destruct (ef_update_with_residual _ _ _ f). apply P.
  - destruct S as (L & S1 & S2). assert (V2 : tracking width (ef_set_measurement_noise f noise)) by (destruct V as (A & B & _); unfold tracking; cbn; auto).
    pose proof (C154_update width model _ _ V2 L) as P. pose proof (C154_other width model r noise f) as O. cbv zeta in P.
    destruct (ef_update_other _ _ _ _ f) as [a ra]. destruct (ef_update_with_residual _ _ _ _) as [b rb]. destruct O as (_ & _ & O2 & O3 & _). destruct P as ((A & B & _) & _).
    cbn [fst]. unfold tracking. rewrite O2. assert (MN : ef_measurement_noise a = ef_measurement_noise f) by (unfold settings in O3; injection O3; auto). rewrite MN. destruct V as (_ & _ & V3 & V4). auto.
  - pose proof (C154_condition m floor f V S) as P. destruct (condition_covariance floor f). apply P.
  - exact V.
  - destruct V as (A & B & _). unfold tracking. cbn. tauto.
  - exact V.
Qed.

Lemma identity_definite n : definite_covariance n (mget (identity n : mat R)).
Proof.
  split; [apply (symmetric_ext n _ _ (identity_read n)); intros i j Hi Hj; unfold transposed, unit_matrix; rewrite Nat.eqb_sym; reflexivity|].
  intros x (i & Hi & N). change (0 < quadratic n (mget (identity n : mat R)) x). rewrite (quadratic_ext n _ _ x (identity_read n)). unfold quadratic.
  rewrite (dot_ext n x x _ x) by (try (intros k Hk; reflexivity); intros k Hk; apply times_unit; auto).
  unfold dot_product. assert (G : forall k, (k < n)%nat -> 0 <= x k * x k) by (intros; apply Rle_0_sqr).
  assert (B : bsum n (fun k => if Nat.eqb k i then x i * x i else 0) <= bsum n (fun k => x k * x k)).
  { apply bsum_le. intros k Hk. destruct (Nat.eqb_spec k i) as [->|]; [apply Rle_refl|apply G; auto]. }
  rewrite bsum_delta in B by exact Hi. assert (0 < x i * x i) by (apply Rsqr_pos_lt; exact N). lra.
Qed.
(** A filter at rest, unsure of everything alike, with a sensor that reads how far along the first axis the body is. *)
Example C154_example : let s := NominalState (0, 0, 0) (0, 0, 0) (Quat (/ 2) (/ 2) (/ 2) (/ 2)) (0, 0, 0) (0, 0, 0) in
  let noise := {| gyroscope_noise_density := 1; accelerometer_noise_density := 1; gyroscope_bias_random_walk := 1; accelerometer_bias_random_walk := 1 |} in
  let f := ef_new 1 s (identity 15) noise (identity 1) in let model := fun S NS (x : nominal_state S) => formulas [EVar 0] S NS (numbers x) in
  tracking 1 f /\ unit_quaternion (ns_orientation s) /\ (forall e, In e [EVar 0] -> smooth_at e (numbers s)) /\ mget (measurement_jacobian 1 model s) 0 0 = 1 /\
  snd (ef_update 1 model [2] f) = Ok tt /\ sensible 1 (Reading model [2]) /\ sensible 1 (Step (0, 0, 1) (0, 0, 10) 1).
Proof.
  intros s noise f model. assert (V : tracking 1 f). { unfold tracking. cbn [f ef_new ef_covariance ef_measurement_noise]. split; [apply shape_identity|]. split; [apply definite_covariance_matrix, identity_definite|]. split; [apply shape_identity|]. apply definite_covariance_matrix, identity_definite. }
  assert (U : unit_quaternion (ns_orientation s)) by (unfold unit_quaternion, s; cbn; field).
  split; [exact V|]. split; [exact U|]. split; [intros e [<-|[]]; exact I|]. split; [|split; [|split]].
  - rewrite (proj2 (jacobian_read 1 model s)) by lia. unfold model, formulas, formula. cbn [map nth eval]. rewrite shown_state by (auto; lia). reflexivity.
  - rewrite C154_residual. apply C154_accepts; [exact V|apply identity_definite|reflexivity].
  - split; [reflexivity|]. intros x. reflexivity.
  - cbn. lra.
Qed.
Print Assumptions C154_predict.
Print Assumptions C154_update.
Print Assumptions C154_accepts.
Print Assumptions C154_residual.
Print Assumptions C154_other.
Print Assumptions C154_refused.
Print Assumptions C154_condition.
Print Assumptions C154_normalized.
Print Assumptions C154_innovation.
Print Assumptions C154_slope.
Print Assumptions C154_history.
