(** C132, C133: the unscented Kalman filter. *)
From Coq Require Import ZArith Reals List Bool Arith Lia Lra Psatz.
From Verif Require Import Base.Scalar Base.RNum Base.Lists Base.Series Model.Errors Model.Vector Model.Matrix Model.Lu Model.Cholesky Model.Kalman Model.Unscented.
From Verif Require Import Spec.Matrix Spec.Kalman Spec.Unscented Proofs.Matrix Proofs.Algebra Proofs.Expm Proofs.Riccati Proofs.Kalman Proofs.Unscented Props.Cholesky Props.Kalman.
Import ListNotations.
Local Open Scope R_scope.
Local Notation length := List.length.

Definition ukf_sized (n m : nat) (f : UnscentedKalmanFilter R) : Prop :=
  length (ukf_state f) = n /\ shape n n (ukf_covariance f) /\ shape n n (ukf_process_noise f) /\ shape m m (ukf_measurement_noise f) /\
  length (ukf_centre f) = n /\ shape n n (ukf_plus f) /\ shape n n (ukf_minus f).
Definition ukf_valid (n m : nat) (f : UnscentedKalmanFilter R) : Prop :=
  ukf_sized n m f /\ covariance_matrix n (mget (ukf_covariance f)) /\ covariance_matrix n (mget (ukf_process_noise f)) /\
  covariance_matrix m (mget (ukf_measurement_noise f)).
Definition same_tuning (f g : UnscentedKalmanFilter R) : Prop :=
  ukf_alpha g = ukf_alpha f /\ ukf_beta g = ukf_beta f /\ ukf_kappa g = ukf_kappa f /\ ukf_regularization g = ukf_regularization f.
Definition same_noise (f g : UnscentedKalmanFilter R) : Prop := ukf_process_noise g = ukf_process_noise f /\ ukf_measurement_noise g = ukf_measurement_noise f.
(** the points are some distance from the estimate; the middle point does not weigh so little that a covariance can go negative *)
Definition spreads (n : nat) (f : UnscentedKalmanFilter R) : Prop := 0 < spread_of n (ukf_alpha f) (ukf_kappa f).
Definition balanced (n : nat) (f : UnscentedKalmanFilter R) : Prop := 0 <= INR n * ukf_beta f + ukf_alpha f * ukf_alpha f * ukf_kappa f.
Definition outputs (n k : nat) (model : list R -> list R) : Prop := forall x, length x = n -> length (model x) = k.
Definition points_of (f : UnscentedKalmanFilter R) : cloud := cloud_of (ukf_centre f) (ukf_plus f) (ukf_minus f).
Definition average_of (n : nat) (f : UnscentedKalmanFilter R) (c : cloud) : vector :=
  average n (mean_weight n (ukf_alpha f) (ukf_kappa f)) (side_weight n (ukf_alpha f) (ukf_kappa f)) c.
Definition covary_of (n : nat) (f : UnscentedKalmanFilter R) : cloud -> vector -> cloud -> vector -> matrix :=
  covary n (spread_weight n (ukf_alpha f) (ukf_beta f) (ukf_kappa f)) (side_weight n (ukf_alpha f) (ukf_kappa f)).

Lemma of_Z_INR n : of_Z (Num := Rnum) (Z.of_nat n) = INR n.
Proof. cbn. rewrite <- INR_IZR_INZ. reflexivity. Qed.
Lemma weights_read n f : ukf_weights n f = (mean_weight n (ukf_alpha f) (ukf_kappa f), spread_weight n (ukf_alpha f) (ukf_beta f) (ukf_kappa f), side_weight n (ukf_alpha f) (ukf_kappa f)).
Proof. unfold ukf_weights, spread_factor. rewrite of_Z_INR. reflexivity. Qed.

(** ** Tuning *)
(** A scaling is taken exactly when the points end up some distance from the estimate; anything else is refused; a regularization when
    it is not negative. *)
Theorem C132_tuning n (f : UnscentedKalmanFilter R) alpha beta kappa regularization : (0 < n)%nat ->
  (alpha <> 0 /\ - INR n < kappa <-> exists g, ukf_with_scaling n alpha beta kappa f = Ok g) /\
  (~ (alpha <> 0 /\ - INR n < kappa) <-> ukf_with_scaling n alpha beta kappa f = Err EsInvalidTuning) /\
  (forall g, ukf_with_scaling n alpha beta kappa f = Ok g -> spreads n g /\ ukf_alpha g = alpha /\ ukf_beta g = beta /\ ukf_kappa g = kappa /\ ukf_regularization g = ukf_regularization f) /\
  (0 <= regularization <-> exists g, ukf_with_regularization regularization f = Ok g) /\
  (~ 0 <= regularization <-> ukf_with_regularization regularization f = Err EsInvalidTuning).
Proof.
  intros P. assert (E : alpha <> 0 /\ - INR n < kappa <-> 0 < spread_of n alpha kappa).
  { unfold spread_of. split; intros H.
    - destruct H. apply Rmult_lt_0_compat; [|lra]. apply Rsqr_pos_lt in H. exact H.
    - assert (alpha <> 0) by (intros ->; lra). split; [exact H0|]. apply Rsqr_pos_lt in H0. unfold Rsqr in H0. destruct (Rlt_or_le (- INR n) kappa) as [G|G]; [exact G|]. exfalso. nra. }
  rewrite E. unfold ukf_with_scaling, ukf_with_regularization, spread_factor. rewrite of_Z_INR. fold (spread_of n alpha kappa). 
  change (mul (mul alpha alpha) (add (INR n) kappa)) with (spread_of n alpha kappa).
  cbn [is_finite Rnum negb orb]. change (leb (spread_of n alpha kappa) zero) with (if Rle_dec (spread_of n alpha kappa) 0 then true else false).
  change (ltb regularization zero) with (if Rlt_dec regularization 0 then true else false).
  split; [|split; [|split; [|split]]].
  - destruct (Rle_dec _ _); split; intros H; try lra; [destruct H; discriminate|eauto].
  - destruct (Rle_dec _ _); split; intros H; try lra; [reflexivity|discriminate].
  - destruct (Rle_dec _ _); intros g H; [discriminate|]. injection H as <-. unfold spreads. cbn. split; [lra|auto].
  - destruct (Rlt_dec _ _); split; intros H; try lra; [destruct H; discriminate|eauto].
  - destruct (Rlt_dec _ _); split; intros H; try lra; [reflexivity|discriminate].
Qed.
Theorem C132_default n m x p q r : (0 < n)%nat -> spreads n (ukf_new n m x p q r) /\ balanced n (ukf_new n m x p q r).
Proof.
  intros P. pose proof (lt_0_INR n P). unfold spreads, balanced, spread_of. cbn. split; [|lra]. apply Rmult_lt_0_compat; lra.
Qed.

(** ** Predicting *)
Definition widened (n : nat) (f : UnscentedKalmanFilter R) : matrix :=
  plus_matrix (scaled_matrix (spread_of n (ukf_alpha f) (ukf_kappa f)) (mget (ukf_covariance f))) (scaled_matrix (ukf_regularization f) unit_matrix).

Lemma symmetrized_same n (a : mat R) : shape n n a -> symmetric n (mget a) -> shape n n (symmetrized n a) /\ equal n n (mget (symmetrized n a)) (mget a).
Proof. intros S Y. destruct (symmetrized_facts n a S) as (A & B & C). split; [exact A|]. apply polarization; auto. Qed.
Lemma covary_ext rows cols n w0 w c a a' d b b' : equal_vectors rows a a' -> equal_vectors cols b b' -> equal rows cols (covary n w0 w c a d b) (covary n w0 w c a' d b').
Proof. intros A B i k Hi Hk. unfold covary. rewrite (A i Hi), (B k Hk). reflexivity. Qed.
Lemma definite_iff n a b : equal n n a b -> (positive_definite n a <-> positive_definite n b).
Proof.
  intros E. split; intros Q x N; specialize (Q x N).
  - change (0 < quadratic n b x). rewrite <- (quadratic_ext n _ _ x E). exact Q.
  - change (0 < quadratic n a x). rewrite (quadratic_ext n _ _ x E). exact Q.
Qed.
Lemma cholesky_cases n (a : mat R) : shape n n a -> symmetric n (mget a) ->
  match cholesky n a with
  | Ok l => positive_definite n (mget a) /\ lower_triangular n (mget l) /\ equal n n (product n (mget l) (transposed (mget l))) (mget a)
  | Err _ => ~ positive_definite n (mget a) | Panic => False end.
Proof.
  intros S Y. destruct (C79_accepts n a S Y) as [A B]. destruct (cholesky n a) as [l|e|] eqn:E.
  - destruct (C79_factor n a l S Y E) as (F1 & _ & F2). split; [apply A; eauto|auto].
  - intros Q. apply A in Q. destruct Q; discriminate.
  - destruct (Classical_Prop.classic (positive_definite n (mget a))) as [Q|Q]; [apply A in Q; destruct Q; discriminate|apply B in Q; discriminate].
Qed.

(** Works exactly when the widened covariance can be factored; then the estimate is the weighted average of the model at the points one
    column of the factor either side of it, and the covariance is how those spread, on top of the process noise. *)
Theorem C132_predict n m (f : UnscentedKalmanFilter R) model : ukf_sized n m f -> symmetric n (mget (ukf_covariance f)) -> symmetric n (mget (ukf_process_noise f)) -> outputs n n model ->
  let '(g, result) := ukf_predict n model f in
  (result = Ok tt <-> positive_definite n (widened n f)) /\ (result = Err EsNotPositiveDefinite <-> ~ positive_definite n (widened n f)) /\
  (~ positive_definite n (widened n f) -> g = f) /\
  (positive_definite n (widened n f) -> ukf_sized n m g /\ same_tuning f g /\ same_noise f g /\
     exists l, lower_triangular n l /\ equal n n (product n l (transposed l)) (widened n f) /\
     ukf_centre g = model (ukf_state f) /\
     (forall j, (j < n)%nat -> exists p q, length p = n /\ length q = n /\
        (forall i, (i < n)%nat -> vget p i = vget (ukf_state f) i + l i j /\ vget q i = vget (ukf_state f) i - l i j) /\
        (forall i, (i < n)%nat -> mget (ukf_plus g) i j = vget (model p) i /\ mget (ukf_minus g) i j = vget (model q) i)) /\
     equal_vectors n (vget (ukf_state g)) (average_of n f (points_of g)) /\
     equal n n (mget (ukf_covariance g)) (plus_matrix (mget (ukf_process_noise f)) (covary_of n f (points_of g) (vget (ukf_state g)) (points_of g) (vget (ukf_state g))))).
Proof.
  intros (A & B & C & D & E & F & G) Y YQ M. unfold ukf_predict, offset_directions. rewrite finite_mat_always. cbn [negb].
  set (sc := mat_add _ _).
  assert (SS : shape n n sc) by (apply shape_map2; apply shape_scale).
  assert (SE : equal n n (mget sc) (widened n f)).
  { unfold sc. intros i j Hi Hj. rewrite (mget_add n n) by (auto; apply shape_scale). unfold plus_matrix, widened. rewrite !mget_scale by auto. unfold plus_matrix, scaled_matrix. rewrite identity_read by auto.
    unfold spread_factor. rewrite of_Z_INR. reflexivity. }
  assert (YS : symmetric n (mget sc)).
  { apply (symmetric_ext n _ _ SE). apply symmetric_plus; intros i j Hi Hj; unfold scaled_matrix, transposed; [rewrite Y by auto; reflexivity|]. unfold unit_matrix. rewrite (Nat.eqb_sym i j). reflexivity. }
  pose proof (cholesky_cases n sc SS YS) as CC. destruct (cholesky n sc) as [l|e|]; [| |destruct CC].
  - destruct CC as (PD & LT & LE). rewrite (definite_iff n _ _ SE) in PD. rewrite weights_read.
    set (pl := mat_fn n n _). set (mi := mat_fn n n _). rewrite !finite_vec_always, !finite_mat_always. cbn [negb orb ukf_set_points ukf_process_noise].
    set (w0 := mean_weight _ _ _). set (w1 := spread_weight _ _ _ _). set (w := side_weight _ _ _).
    destruct (mean_read n n w0 w (model (ukf_state f)) pl mi (M _ A)) as [ML ME]. set (me := weighted_mean _ _ _ _ _ _ _) in *.
    destruct (spread_sum_read n n n (ukf_process_noise f) w1 w (model (ukf_state f)) pl mi me (model (ukf_state f)) pl mi me C (M _ A) ML (M _ A) ML) as [CS CE].
    set (co := weighted_spread _ _ _ _ _ _ _ _ _ _ _ _ _ _) in *.
    destruct (symmetrized_same n co CS) as [CS' CE'].
    { apply (symmetric_ext n _ _ CE). apply symmetric_plus; [exact YQ|apply covary_symmetric]. }
    split; [tauto|]. split; [split; [discriminate|tauto]|]. split; [tauto|]. intros _.
    split; [exact (conj ML (conj CS' (conj C (conj D (conj (M _ A) (conj (shape_mat_fn _ _ _) (shape_mat_fn _ _ _)))))))|].
    split; [cbn; repeat split; reflexivity|]. split; [split; reflexivity|]. exists (mget l). split; [exact LT|]. split; [exact (equal_trans _ _ _ _ _ LE SE)|].
    split; [reflexivity|]. split; [|split; [exact ME|exact (equal_trans _ _ _ _ _ CE' CE)]].
    intros j Hj. exists (vec_add (ukf_state f) (column_of n l j)), (vec_sub (ukf_state f) (column_of n l j)).
    split; [rewrite add_length; rewrite ?column_of_length; auto|]. split; [rewrite sub_length; rewrite ?column_of_length; auto|].
    split; intros i Hi; [rewrite vget_add, vget_sub by (rewrite ?column_of_length; lia); rewrite vget_column by auto; auto|].
    cbn [ukf_set ukf_set_points ukf_plus ukf_minus]. unfold pl, mi. rewrite !mget_mat_fn by auto. auto.
  - rewrite (definite_iff n _ _ SE) in CC. split; [split; [discriminate|tauto]|]. split; [tauto|]. split; [auto|tauto].
Qed.

(** Whatever the model does (it need not be smooth, or continuous), the new covariance is a covariance, at least the process noise. *)
Theorem C132_covariance n m f model : (0 < n)%nat -> ukf_valid n m f -> spreads n f -> balanced n f -> outputs n n model ->
  ukf_valid n m (fst (ukf_predict n model f)) /\
  (snd (ukf_predict n model f) = Ok tt -> no_larger n (mget (ukf_process_noise f)) (mget (ukf_covariance (fst (ukf_predict n model f))))).
Proof.
  intros P V Sp Ba M. pose proof V as V0. destruct V0 as (SZ & [P1 P2] & [Q1 Q2] & R1). pose proof (C132_predict n m f model SZ P1 Q1 M) as U. destruct (ukf_predict n model f) as [g result].
  destruct U as (U1 & U2 & U3 & U4). cbn [fst snd]. destruct (Classical_Prop.classic (positive_definite n (widened n f))) as [D|D].
  - destruct (U4 D) as (SG & TG & [N1 N2] & l & _ & _ & _ & _ & ME & CE).
    assert (EE : equal n n (mget (ukf_covariance g)) (plus_matrix (mget (ukf_process_noise f)) (covary_of n f (points_of g) (average_of n f (points_of g)) (points_of g) (average_of n f (points_of g))))).
    { intros i j Hi Hj. rewrite CE by auto. unfold plus_matrix. f_equal. apply (covary_ext n n); auto. }
    destruct (cloud_covariance n (ukf_alpha f) (ukf_beta f) (ukf_kappa f) P Sp Ba n (points_of g)) as [X1 X2].
    assert (PL : forall x, quadratic n (mget (ukf_process_noise f)) x <= quadratic n (mget (ukf_covariance g)) x).
    { intros x. rewrite (quadratic_ext n _ _ x EE), quadratic_plus. specialize (X2 x). unfold covary_of, average_of. lra. }
    split; [|intros _; exact PL]. split; [exact SG|]. rewrite N1, N2. split; [|split; [split; auto|exact R1]].
    split; [apply (symmetric_ext n _ _ EE); apply symmetric_plus; auto|]. intros x. specialize (PL x). specialize (Q2 x). lra.
  - rewrite (U3 D). split; [exact V|]. intros H. apply U1 in H. contradiction.
Qed.

(** For an affine model the prediction is exact: the estimate goes through the model and the covariance is [a (p + e) a' + q], where [e] is
    what the regularization adds to [p]. *)
Theorem C132_affine n m f model (a : matrix) (b : vector) : (0 < n)%nat -> ukf_sized n m f -> symmetric n (mget (ukf_covariance f)) -> symmetric n (mget (ukf_process_noise f)) ->
  spreads n f -> outputs n n model -> (forall x, length x = n -> equal_vectors n (vget (model x)) (fun i => times n a (vget x) i + b i)) ->
  positive_definite n (widened n f) ->
  let g := fst (ukf_predict n model f) in
  equal_vectors n (vget (ukf_state g)) (fun i => times n a (vget (ukf_state f)) i + b i) /\
  equal n n (mget (ukf_covariance g)) (carried_covariance n a
    (plus_matrix (mget (ukf_covariance f)) (scaled_matrix (ukf_regularization f / spread_of n (ukf_alpha f) (ukf_kappa f)) unit_matrix)) (mget (ukf_process_noise f))).
Proof.
  intros P SZ YP YQ Sp M AF PD. pose proof (C132_predict n m f model SZ YP YQ M) as U. destruct (ukf_predict n model f) as [g result]. cbn [fst].
  destruct U as (_ & _ & _ & U). destruct (U PD) as (SG & TG & _ & l & _ & LE & CC & CP & ME & CE). clear U.
  destruct SZ as (A & _). set (s := spread_of n (ukf_alpha f) (ukf_kappa f)) in *. unfold spreads in Sp. fold s in Sp.
  set (w := side_weight n (ukf_alpha f) (ukf_kappa f)) in *.
  assert (W : w * (2 * s) = 1) by (unfold w, side_weight; fold s; field; lra).
  assert (W0 : mean_weight n (ukf_alpha f) (ukf_kappa f) = 1 - 2 * INR n * w) by (unfold mean_weight, w, side_weight; fold s; field; lra).
  set (x0 := fun i => times n a (vget (ukf_state f)) i + b i).
  assert (PP : forall i j, (i < n)%nat -> (j < n)%nat -> mget (ukf_plus g) i j = x0 i + product n a l i j /\ mget (ukf_minus g) i j = x0 i - product n a l i j).
  { intros i j Hi Hj. destruct (CP j Hj) as (p & q & LP & LQ & E1 & E2). destruct (E2 i Hi) as [-> ->]. rewrite (AF p LP i Hi), (AF q LQ i Hi). unfold x0, times, product.
    rewrite (bsum_ext n (fun k => a i k * vget p k) (fun k => a i k * vget (ukf_state f) k + a i k * l k j)) by (intros k Hk; rewrite (proj1 (E1 k Hk)); ring).
    rewrite (bsum_ext n (fun k => a i k * vget q k) (fun k => a i k * vget (ukf_state f) k - a i k * l k j)) by (intros k Hk; rewrite (proj2 (E1 k Hk)); ring).
    rewrite bsum_plus, bsum_minus. split; ring. }
  assert (ST : equal_vectors n (vget (ukf_state g)) x0).
  { intros i Hi. rewrite (ME i Hi). unfold average_of, average. fold w. cbn [points_of cloud_of middle_point plus_points minus_points]. rewrite CC, (AF _ A i Hi).
    rewrite (bsum_ext n _ (fun _ => 2 * w * x0 i)) by (intros j Hj; destruct (PP i j Hi Hj) as [-> ->]; ring). rewrite bsum_const, W0. unfold x0. ring. }
  split; [exact ST|]. intros i k Hi Hk. rewrite (CE i k Hi Hk). unfold carried_covariance, plus_matrix. rewrite Rplus_comm. f_equal.
  unfold covary_of, covary. fold w. cbn [points_of cloud_of middle_point plus_points minus_points]. rewrite CC, (AF _ A i Hi), (AF _ A k Hk), (ST i Hi), (ST k Hk). fold (x0 i) (x0 k).
  replace (spread_weight n (ukf_alpha f) (ukf_beta f) (ukf_kappa f) * (x0 i - x0 i) * (x0 k - x0 k)) with 0 by ring. rewrite Rplus_0_l.
  rewrite (bsum_ext n _ (fun j => 2 * w * (product n a l i j * transposed (product n a l) j k))) by (intros j Hj; destruct (PP i j Hi Hj) as [-> ->]; destruct (PP k j Hk Hj) as [-> ->]; unfold transposed; ring).
  rewrite bsum_scal. change (bsum n (fun j => product n a l i j * transposed (product n a l) j k)) with (product n (product n a l) (transposed (product n a l)) i k).
  assert (E3 : product n (product n a l) (transposed (product n a l)) i k = s * product n a (product n (plus_matrix (mget (ukf_covariance f)) (scaled_matrix (ukf_regularization f / s) unit_matrix)) (transposed a)) i k).
  { transitivity (product n a (product n (product n l (transposed l)) (transposed a)) i k).
    - rewrite t_product. rewrite <- !p_assoc. reflexivity.
    - unfold product at 1. rewrite (bsum_ext n _ (fun q => s * (a i q * product n (plus_matrix (mget (ukf_covariance f)) (scaled_matrix (ukf_regularization f / s) unit_matrix)) (transposed a) q k))).
      + rewrite bsum_scal. reflexivity.
      + intros q Hq. rewrite <- Rmult_assoc, (Rmult_comm s (a i q)), Rmult_assoc. f_equal. unfold product at 1. unfold product at 2. rewrite <- bsum_scal. apply bsum_ext. intros r Hr. rewrite (LE q r Hq Hr).
        unfold widened, plus_matrix, scaled_matrix. fold s. field. lra. }
  rewrite E3. unfold plus_matrix, scaled_matrix. transitivity (w * (2 * s) * product n a (product n (fun i j => mget (ukf_covariance f) i j + ukf_regularization f / s * unit_matrix i j) (transposed a)) i k); [ring|rewrite W; ring].
Qed.

(** ** Updating *)
(** what the sensor would read at each of the points *)
Definition readings (n m : nat) (f : UnscentedKalmanFilter R) (model : list R -> list R) : cloud :=
  {| middle_point := vget (model (ukf_centre f));
     plus_points := fun i j => vget (model (column_of n (ukf_plus f) j)) i; minus_points := fun i j => vget (model (column_of n (ukf_minus f) j)) i |}.
Definition reading_spread (n m : nat) (f : UnscentedKalmanFilter R) (model : list R -> list R) : matrix :=
  plus_matrix (mget (ukf_measurement_noise f))
    (covary_of n f (readings n m f model) (average_of n f (readings n m f model)) (readings n m f model) (average_of n f (readings n m f model))).
(** how the states go with the readings *)
Definition cross_spread (n m : nat) (f : UnscentedKalmanFilter R) (model : list R -> list R) : matrix :=
  covary_of n f (points_of f) (vget (ukf_state f)) (readings n m f model) (average_of n f (readings n m f model)).

Lemma cloud_ext_average rows n w0 w c d : equal_vectors rows (middle_point c) (middle_point d) -> equal rows n (plus_points c) (plus_points d) -> equal rows n (minus_points c) (minus_points d) ->
  equal_vectors rows (average n w0 w c) (average n w0 w d).
Proof. intros A B C i Hi. unfold average. rewrite (A i Hi). f_equal. apply bsum_ext. intros j Hj. rewrite (B i j Hi Hj), (C i j Hi Hj). reflexivity. Qed.
Lemma cloud_ext_covary rows cols n w0 w c a d b c' d' :
  equal_vectors rows (middle_point c) (middle_point c') -> equal rows n (plus_points c) (plus_points c') -> equal rows n (minus_points c) (minus_points c') ->
  equal_vectors cols (middle_point d) (middle_point d') -> equal cols n (plus_points d) (plus_points d') -> equal cols n (minus_points d) (minus_points d') ->
  equal rows cols (covary n w0 w c a d b) (covary n w0 w c' a d' b).
Proof.
  intros A B C D E F i k Hi Hk. unfold covary. rewrite (A i Hi), (D k Hk). f_equal. apply bsum_ext. intros j Hj.
  rewrite (B i j Hi Hj), (C i j Hi Hj), (E k j Hk Hj), (F k j Hk Hj). reflexivity.
Qed.

Lemma update_read n m f model residual : ukf_sized n m f -> symmetric n (mget (ukf_covariance f)) -> symmetric m (mget (ukf_measurement_noise f)) -> outputs n m model -> length residual = m ->
  let S := reading_spread n m f model in let '(g, result) := ukf_update_with_residual n m model residual f in
  match result with
  | Ok _ => positive_definite m S /\ ukf_sized n m g /\ same_tuning f g /\ same_noise f g /\ ukf_innovation g = residual /\ equal m m (mget (ukf_spread g)) S /\
      ukf_centre g = ukf_centre f /\ ukf_plus g = ukf_plus f /\ ukf_minus g = ukf_minus f /\
      exists k, equal m n (product m S (transposed k)) (transposed (cross_spread n m f model)) /\
      equal_vectors n (vget (ukf_state g)) (fun i => vget (ukf_state f) i + times m k (vget residual) i) /\
      equal n n (mget (ukf_covariance g)) (minus_matrix (mget (ukf_covariance f)) (product m k (product m S (transposed k))))
  | Err e => e = EsNotPositiveDefinite /\ ~ positive_definite m S /\ g = f
  | Panic => False
  end.
Proof.
  intros (A & B & C & D & E & F & G) YP YR M L S. unfold ukf_update_with_residual, measurement_sigma_points, fold_in. rewrite finite_vec_always. cbn [negb]. rewrite weights_read.
  set (pl := mat_fn m n _). set (mi := mat_fn m n _).
  set (w0 := mean_weight _ _ _). set (w1 := spread_weight _ _ _ _). set (w := side_weight _ _ _). set (ce := model (ukf_centre f)).
  assert (LC : length ce = m) by (apply M; exact E).
  destruct (mean_read n m w0 w ce pl mi LC) as [ML ME]. set (me := weighted_mean _ _ _ _ _ _ _) in *. rewrite !finite_vec_always, !finite_mat_always. cbn [negb orb]. cbv beta iota zeta. rewrite !finite_mat_always. cbn [negb orb].
  set (d := readings n m f model).
  assert (R1 : equal_vectors m (middle_point (cloud_of ce pl mi)) (middle_point d)) by (intros i Hi; reflexivity).
  assert (R2 : equal m n (plus_points (cloud_of ce pl mi)) (plus_points d)) by (intros i j Hi Hj; cbn [cloud_of plus_points]; unfold pl; rewrite mget_mat_fn by auto; reflexivity).
  assert (R3 : equal m n (minus_points (cloud_of ce pl mi)) (minus_points d)) by (intros i j Hi Hj; cbn [cloud_of minus_points]; unfold mi; rewrite mget_mat_fn by auto; reflexivity).
  assert (ME' : equal_vectors m (vget me) (average_of n f d)).
  { intros i Hi. rewrite (ME i Hi). apply (cloud_ext_average m); auto. }
  destruct (spread_sum_read n m m (ukf_measurement_noise f) w1 w ce pl mi me ce pl mi me D LC ML LC ML) as [SS SE]. set (sp := weighted_spread n m m _ _ _ _ _ _ _ _ _ _ _) in *.
  assert (SE' : equal m m (mget sp) S).
  { refine (equal_trans _ _ _ _ _ SE _). intros i j Hi Hj. unfold S, reading_spread, plus_matrix. f_equal. fold d.
    etransitivity; [apply (cloud_ext_covary m m); [exact R1|exact R2|exact R3|exact R1|exact R2|exact R3|exact Hi|exact Hj]|apply (covary_ext m m); auto]. }
  assert (YS : symmetric m S) by (apply symmetric_plus; [exact YR|apply covary_symmetric]).
  destruct (symmetrized_same m sp SS (symmetric_ext m _ _ SE' YS)) as [SS2 SE2].
  set (s := symmetrized m sp) in *. pose proof (equal_trans _ _ _ _ _ SE2 SE') as SEQ.
  destruct (spread_sum_read n n m (mat_zeros n m) w1 w (ukf_centre f) (ukf_plus f) (ukf_minus f) (ukf_state f) ce pl mi me (shape_zeros n m) E A LC ML) as [XS XE].
  set (x := weighted_spread n n m _ _ _ _ _ _ _ _ _ _ _) in *.
  assert (XE' : equal n m (mget x) (cross_spread n m f model)).
  { refine (equal_trans _ _ _ _ _ XE _). intros i j Hi Hj. unfold plus_matrix, mat_zeros. rewrite mget_mat_fn by auto. rnum. rewrite Rplus_0_l. unfold cross_spread. fold d.
    etransitivity; [apply (cloud_ext_covary n m) with (c' := points_of f) (d' := d); [intros ? ?; reflexivity|intros ? ? ? ?; reflexivity|intros ? ? ? ?; reflexivity|exact R1|exact R2|exact R3|exact Hi|exact Hj]|apply (covary_ext n m); [intros ? ?; reflexivity|exact ME'|exact Hi|exact Hj]]. }
  pose proof (cholesky_cases m s SS2 (symmetric_ext m _ _ SEQ YS)) as CC. destruct (cholesky m s) as [l|e|] eqn:EC; [| |destruct CC].
  - destruct CC as (PD & _). cbv beta iota zeta. split; [apply (definite_iff m _ _ SEQ); exact PD|].
    destruct (cholesky_solves m n s l (transpose n m x) SS2 (symmetric_ext m _ _ SEQ YS) EC) as [G1 G2]. set (kt := cholesky_solve_matrix m n l (transpose n m x)) in *.
    set (k := transpose m n kt).
    assert (KS : shape n m k) by (unfold k, transpose; apply shape_mat_fn).
    assert (KE : equal n m (mget k) (transposed (mget kt))) by (intros i j Hi Hj; unfold k; rewrite mget_transpose by auto; reflexivity).
    assert (GE : equal m n (product m S (transposed (mget k))) (transposed (cross_spread n m f model))).
    { intros i j Hi Hj. transitivity (product m (mget s) (mget kt) i j).
      - unfold product. apply bsum_ext. intros q Hq. rewrite (SEQ i q Hi Hq). f_equal. unfold transposed. rewrite (KE j q Hj Hq). reflexivity.
      - rewrite (G2 i j Hi Hj), mget_transpose by auto. unfold transposed. apply XE'; auto. }
    assert (VL : length (vec_add (ukf_state f) (mat_vec n m k residual)) = n) by (rewrite add_length; rewrite ?mat_vec_length; auto).
    assert (PS : shape n n (mat_mul n m n (mat_mul n m m k s) (transpose n m k))) by (unfold mat_mul; apply shape_mat_fn).
    assert (PE : equal n n (mget (mat_mul n m n (mat_mul n m m k s) (transpose n m k))) (product m (mget k) (product m S (transposed (mget k))))).
    { refine (equal_trans _ _ _ _ _ (proj2 (mul_read n m n _ _ _ _ (proj2 (mul_read n m m k s _ _ (equal_refl n m (mget k)) SEQ)) (transpose_read n m k _ (equal_refl n m (mget k))))) _). intros i j Hi Hj. rewrite p_assoc. reflexivity. }
    assert (CS : shape n n (mat_sub (ukf_covariance f) (mat_mul n m n (mat_mul n m m k s) (transpose n m k)))) by (apply shape_map2; auto).
    assert (CE : equal n n (mget (mat_sub (ukf_covariance f) (mat_mul n m n (mat_mul n m m k s) (transpose n m k)))) (minus_matrix (mget (ukf_covariance f)) (product m (mget k) (product m S (transposed (mget k)))))).
    { intros i j Hi Hj. rewrite (mget_sub n n) by auto. unfold minus_matrix. rewrite (PE i j Hi Hj). reflexivity. }
    destruct (symmetrized_same n _ CS (symmetric_ext n _ _ CE (symmetric_minus n _ _ YP (outer_symmetric n m (mget k) S YS)))) as [CS2 CE2].
    split; [exact (conj VL (conj CS2 (conj C (conj D (conj E (conj F G))))))|]. split; [cbn; repeat split; reflexivity|]. split; [split; reflexivity|]. split; [reflexivity|]. split; [exact SEQ|].
    split; [reflexivity|]. split; [reflexivity|]. split; [reflexivity|]. exists (mget k). split; [exact GE|]. split; [|exact (equal_trans _ _ _ _ _ CE2 CE)].
    intros i Hi. cbn [ukf_set ukf_set_innovation ukf_state]. rewrite vget_add by (rewrite ?mat_vec_length; lia). rewrite vget_mat_vec by auto. reflexivity.
  - rewrite (definite_iff m _ _ SEQ) in CC. cbv beta iota zeta. split; [reflexivity|]. split; [exact CC|reflexivity].
Qed.

(** the estimate and the covariance a successful prediction leaves, as far as its points go *)
Definition fresh (n : nat) (f : UnscentedKalmanFilter R) : Prop :=
  equal_vectors n (vget (ukf_state f)) (average_of n f (points_of f)) /\
  no_larger n (covary_of n f (points_of f) (average_of n f (points_of f)) (points_of f) (average_of n f (points_of f))) (mget (ukf_covariance f)).
Lemma predict_fresh n m f model : ukf_valid n m f -> outputs n n model -> snd (ukf_predict n model f) = Ok tt -> fresh n (fst (ukf_predict n model f)).
Proof.
  intros (SZ & [P1 P2] & [Q1 Q2] & R1) M O. pose proof (C132_predict n m f model SZ P1 Q1 M) as U. destruct (ukf_predict n model f) as [g result]. cbn [fst snd] in *.
  destruct U as (U1 & _ & _ & U). apply U1 in O. destruct (U O) as (_ & (T1 & T2 & T3 & _) & _ & l & _ & _ & _ & _ & ME & CE).
  unfold fresh, average_of, covary_of. rewrite T1, T2, T3. split; [exact ME|]. intros x. rewrite (quadratic_ext n _ _ x CE), quadratic_plus. specialize (Q2 x).
  match goal with |- ?u <= _ => assert (u = quadratic n (covary_of n f (points_of g) (vget (ukf_state g)) (points_of g) (vget (ukf_state g))) x) as -> end; [|lra].
  apply quadratic_ext. intros i j Hi Hj. symmetry. apply (covary_ext n n); auto.
Qed.

(** Right after a prediction, with any sensor: the measurement is taken exactly when [S] is positive definite, the gain solves [k S = cross], the
    estimate moves by [k] times the residual, and the covariance is still one, no larger than before. *)
Theorem C133_update n m f model residual : (0 < n)%nat -> ukf_valid n m f -> spreads n f -> balanced n f -> fresh n f -> outputs n m model -> length residual = m ->
  let S := reading_spread n m f model in let '(g, result) := ukf_update_with_residual n m model residual f in
  (result = Ok tt <-> positive_definite m S) /\ (result = Err EsNotPositiveDefinite <-> ~ positive_definite m S) /\ (~ positive_definite m S -> g = f) /\
  (positive_definite m S ->
     ukf_innovation g = residual /\ equal m m (mget (ukf_spread g)) S /\ ukf_valid n m g /\ no_larger n (mget (ukf_covariance g)) (mget (ukf_covariance f)) /\
     exists k, equal m n (product m S (transposed k)) (transposed (cross_spread n m f model)) /\
     equal_vectors n (vget (ukf_state g)) (fun i => vget (ukf_state f) i + times m k (vget residual) i) /\
     equal n n (mget (ukf_covariance g)) (minus_matrix (mget (ukf_covariance f)) (product m k (product m S (transposed k))))).
Proof.
  intros P (SZ & [P1 P2] & Q & [R1 R2]) Sp Ba [FE FL] M L S. pose proof (update_read n m f model residual SZ P1 R1 M L) as U. fold S in U. cbv zeta in U.
  destruct (ukf_update_with_residual n m model residual f) as [g result]. destruct result as [[]|e|]; [| |destruct U].
  - destruct U as (PD & SG & TG & [N1 N2] & I1 & I2 & _ & _ & _ & k & GE & XE & CE). split; [tauto|]. split; [split; [discriminate|tauto]|]. split; [tauto|]. intros _.
    split; [exact I1|]. split; [exact I2|].
    assert (YS : symmetric m S) by (apply symmetric_plus; [exact R1|apply covary_symmetric]).
    assert (FORM : forall x, quadratic n (mget (ukf_covariance g)) x = quadratic n (mget (ukf_covariance f)) x - quadratic m S (times n (transposed k) x)).
    { intros x. rewrite (quadratic_ext n _ _ x CE), quadratic_minus, outer_form. reflexivity. }
    split; [|split; [|exists k; auto]].
    + split; [exact SG|]. rewrite N1, N2. split; [|split; [exact Q|split; auto]].
      split; [apply (symmetric_ext n _ _ CE); apply symmetric_minus; [exact P1|apply outer_symmetric; exact YS]|].
      intros x. rewrite FORM. set (y := times n (transposed k) x).
      pose proof (cloud_joint n (ukf_alpha f) (ukf_beta f) (ukf_kappa f) P Sp Ba n m (points_of f) (readings n m f model) x (fun i => - y i)) as J.
      fold (average_of n f (points_of f)) in J. fold (average_of n f (readings n m f model)) in J. fold (covary_of n f) in J.
      set (Z := covary_of n f (readings n m f model) (average_of n f (readings n m f model)) (readings n m f model) (average_of n f (readings n m f model))) in J.
      assert (EQ : dot_product n x (times m (covary_of n f (points_of f) (average_of n f (points_of f)) (readings n m f model) (average_of n f (readings n m f model))) (fun i => - y i)) = - quadratic m S y).
      { rewrite dot_times. transitivity (dot_product m (times m S y) (fun i => - y i)).
        - apply dot_ext; [|intros ? ?; reflexivity]. intros i Hi. unfold y. rewrite <- times_product'. unfold times. apply bsum_ext. intros j Hj. f_equal.
          rewrite (GE i j Hi Hj). unfold transposed, cross_spread. apply (covary_ext n m); [intros ? ?; first [apply FE; assumption | symmetry; apply FE; assumption]|intros ? ?; reflexivity|exact Hj|exact Hi].
        - unfold quadratic, dot_product. replace (- bsum m (fun q => y q * times m S y q)) with (-1 * bsum m (fun q => y q * times m S y q)) by ring. rewrite <- bsum_scal. apply bsum_ext. intros; ring. }
      assert (NEG : quadratic m Z (fun i => - y i) = quadratic m Z y).
      { unfold quadratic, dot_product, times. apply bsum_ext. intros i _. replace (bsum m (fun q => Z i q * - y q)) with (-1 * bsum m (fun q => Z i q * y q)) by (rewrite <- bsum_scal; apply bsum_ext; intros; ring). ring. }
      rewrite EQ, NEG in J. specialize (FL x). assert (SQ : quadratic m S y = quadratic m (mget (ukf_measurement_noise f)) y + quadratic m Z y) by (unfold S, reading_spread; rewrite quadratic_plus; reflexivity).
      specialize (R2 y). lra.
    + intros x. rewrite FORM. pose proof (definite_nonneg m S PD (times n (transposed k) x)). lra.
  - destruct U as (-> & NP & ->). split; [split; [discriminate|tauto]|]. split; [tauto|]. split; [auto|tauto].
Qed.
(** An update with a measurement is the update with its difference from the average of the readings. *)
Theorem C133_residual n m f model z : ukf_sized n m f -> outputs n m model -> length z = m ->
  exists residual, length residual = m /\ equal_vectors m (vget residual) (fun i => vget z i - average_of n f (readings n m f model) i) /\
  ukf_update n m model z f = ukf_update_with_residual n m model residual f.
Proof.
  intros (A & B & C & D & E & F & G) M L. unfold ukf_update, ukf_update_with_residual, measurement_sigma_points. rewrite weights_read.
  set (pl := mat_fn m n _). set (mi := mat_fn m n _). set (w0 := mean_weight _ _ _). set (w := side_weight _ _ _). set (ce := model (ukf_centre f)).
  destruct (mean_read n m w0 w ce pl mi (M _ E)) as [ML ME]. set (me := weighted_mean _ _ _ _ _ _ _) in *.
  exists (vec_sub z me). split; [rewrite sub_length; lia|]. split; [|rewrite !finite_vec_always, !finite_mat_always; reflexivity].
  intros i Hi. rewrite vget_sub by lia. rewrite (ME i Hi). f_equal. apply (cloud_ext_average m); [intros ? ?; reflexivity| | |exact Hi]; intros a b Ha Hb; cbn [cloud_of plus_points minus_points readings]; unfold pl, mi; rewrite mget_mat_fn by auto; reflexivity.
Qed.
(** Noise in every channel is enough for the measurement to be taken. *)
Theorem C133_accepts n m f model residual : (0 < n)%nat -> ukf_valid n m f -> spreads n f -> balanced n f -> outputs n m model -> length residual = m ->
  definite_covariance m (mget (ukf_measurement_noise f)) -> snd (ukf_update_with_residual n m model residual f) = Ok tt.
Proof.
  intros P (SZ & [P1 P2] & Q & [R1 R2]) Sp Ba M L D. pose proof (update_read n m f model residual SZ P1 R1 M L) as U. cbv zeta in U.
  destruct (ukf_update_with_residual n m model residual f) as [g result]. destruct result as [[]|e|]; [reflexivity| |destruct U]. destruct U as (_ & NP & _). destruct NP.
  unfold reading_spread. intros x N. change (0 < quadratic m (plus_matrix (mget (ukf_measurement_noise f)) (covary_of n f (readings n m f model) (average_of n f (readings n m f model)) (readings n m f model) (average_of n f (readings n m f model)))) x).
  rewrite quadratic_plus. destruct D as [_ D]. specialize (D x N). change (0 < quadratic m (mget (ukf_measurement_noise f)) x) in D.
  destruct (cloud_covariance n (ukf_alpha f) (ukf_beta f) (ukf_kappa f) P Sp Ba m (readings n m f model)) as [_ X]. specialize (X x). unfold covary_of, average_of. lra.
Qed.

(** A filter that has never predicted takes the measurement and leaves the estimate where it was. *)
Theorem C133_unpredicted n m x p q r model residual (alpha beta kappa regularization : R) : (0 < n)%nat ->
  let f := ukf_tuned (ukf_new n m x p q r) alpha beta kappa regularization in
  ukf_valid n m f -> spreads n f -> outputs n m model -> length residual = m -> definite_covariance m (mget r) ->
  let '(g, result) := ukf_update_with_residual n m model residual f in
  result = Ok tt /\ equal_vectors n (vget (ukf_state g)) (vget x) /\ equal n n (mget (ukf_covariance g)) (mget p).
Proof.
  intros P f (SZ & [P1 P2] & Q & [R1 R2]) Sp M L D. pose proof (update_read n m f model residual SZ P1 R1 M L) as U. cbv zeta in U.
  destruct SZ as (A & _). cbn in A.
  assert (COL : forall j, (j < n)%nat -> column_of n (mat_fn n n (fun row _ => vget x row)) j = x).
  { intros j Hj. apply (nth_ext _ _ 0 0); [rewrite column_of_length; auto|]. rewrite column_of_length. intros i Hi. fold (vget (column_of n (mat_fn n n (fun row _ => vget x row)) j) i).
    change (vget (column_of n (mat_fn n n (fun row _ => vget x row)) j) i = vget x i). rewrite vget_column by auto. rewrite mget_mat_fn by auto. reflexivity. }
  set (s := spread_of n alpha kappa). unfold spreads in Sp. cbn in Sp. fold s in Sp. set (w := side_weight n alpha kappa).
  assert (W0 : mean_weight n alpha kappa = 1 - 2 * INR n * w) by (unfold mean_weight, w, side_weight; fold s; field; lra).
  set (d := readings n m f model) in *.
  assert (PD : forall i j, (j < n)%nat -> plus_points d i j = middle_point d i /\ minus_points d i j = middle_point d i).
  { intros i j Hj. unfold d, readings. cbn. rewrite COL by auto. auto. }
  assert (AV : forall i, average_of n f d i = middle_point d i).
  { intros i. unfold average_of, average. cbn [f ukf_tuned ukf_alpha ukf_kappa]. fold w. rewrite (bsum_ext n _ (fun _ => 2 * w * middle_point d i)) by (intros j Hj; destruct (PD i j Hj) as [-> ->]; ring). rewrite bsum_const, W0. ring. }
  assert (Z : forall c a i k, covary_of n f c a d (average_of n f d) i k = 0).
  { intros c a i k. unfold covary_of, covary. rewrite AV. rewrite (bsum_ext n _ (fun _ => 0)) by (intros j Hj; destruct (PD k j Hj) as [-> ->]; ring). rewrite bsum_0. ring. }
  assert (SE : equal m m (reading_spread n m f model) (mget r)) by (intros i j Hi Hj; unfold reading_spread, plus_matrix; fold d; rewrite Z; cbn [f ukf_tuned ukf_new ukf_measurement_noise]; ring).
  destruct (ukf_update_with_residual n m model residual f) as [g result]. destruct result as [[]|e|]; [|destruct U as (_ & NP & _); destruct NP; apply (definite_iff m _ _ SE), D|destruct U].
  destruct U as (PDS & _ & _ & _ & _ & _ & _ & _ & _ & k & GE & XE & CE). split; [reflexivity|].
  assert (KZ : equal n m k (fun _ _ => 0)).
  { intros i j Hi Hj. destruct (Req_dec (k i j) 0) as [G|G]; [exact G|]. exfalso. specialize (PDS (fun q => k i q) (ex_intro _ j (conj Hj G))).
    assert (dot_product m (fun q => k i q) (times m (reading_spread n m f model) (fun q => k i q)) = 0); [|lra].
    unfold dot_product. rewrite (bsum_ext m _ (fun _ => 0)); [apply bsum_0|]. intros t Ht.
    change (times m (reading_spread n m f model) (fun q => k i q) t) with (product m (reading_spread n m f model) (transposed k) t i). rewrite (GE t i Ht Hi). unfold transposed, cross_spread. fold d. rewrite Z. ring. }
  split.
  - intros i Hi. rewrite (XE i Hi). unfold times. rewrite (bsum_ext m _ (fun _ => 0)) by (intros j Hj; rewrite (KZ i j Hi Hj); ring). rewrite bsum_0. unfold f. cbn [ukf_tuned ukf_new ukf_state ukf_covariance]. ring.
  - intros i j Hi Hj. rewrite (CE i j Hi Hj). unfold minus_matrix, product. rewrite (bsum_ext m _ (fun _ => 0)) by (intros t Ht; rewrite (KZ i t Hi Ht); ring). rewrite bsum_0. unfold f. cbn [ukf_tuned ukf_new ukf_state ukf_covariance]. ring.
Qed.

(** ** A whole run: set the noises, predict, update if that worked, and put the state back in range *)
Inductive sighting := Nothing | Measured (model : list R -> list R) (z : list R) | Differenced (model : list R -> list R) (residual : list R).
Record cycle := { cy_process_noise : mat R; cy_measurement_noise : mat R; cy_process : list R -> list R; cy_seen : sighting; cy_wrap : list R -> list R }.
Definition run_cycle (n m : nat) (f : UnscentedKalmanFilter R) (c : cycle) : UnscentedKalmanFilter R :=
  let f := ukf_set_noise f (cy_process_noise c) (cy_measurement_noise c) in
  let '(f, predicted) := ukf_predict n (cy_process c) f in
  let f := match predicted with
           | Ok _ => match cy_seen c with
                     | Nothing => f | Measured model z => fst (ukf_update n m model z f) | Differenced model r => fst (ukf_update_with_residual n m model r f) end
           | _ => f end in
  ukf_set_state f (cy_wrap c (ukf_state f)).
Definition proper (n m : nat) (c : cycle) : Prop :=
  shape n n (cy_process_noise c) /\ covariance_matrix n (mget (cy_process_noise c)) /\ shape m m (cy_measurement_noise c) /\ covariance_matrix m (mget (cy_measurement_noise c)) /\
  outputs n n (cy_process c) /\ outputs n n (cy_wrap c) /\
  match cy_seen c with Nothing => True | Measured model z => outputs n m model /\ length z = m | Differenced model r => outputs n m model /\ length r = m end.
Lemma update_valid n m f model r : (0 < n)%nat -> ukf_valid n m f -> spreads n f -> balanced n f -> fresh n f -> outputs n m model -> length r = m ->
  let g := fst (ukf_update_with_residual n m model r f) in ukf_valid n m g /\ same_tuning f g.
Proof.
  intros P V Sp Ba Fr M L. pose proof (C133_update n m f model r P V Sp Ba Fr M L) as U. destruct V as (SZ & [P1 P2] & Q & R1). pose proof (update_read n m f model r SZ P1 (proj1 R1) M L) as W. cbv zeta in U, W.
  destruct (ukf_update_with_residual n m model r f) as [g result]. cbn [fst]. destruct U as (U1 & U2 & U3 & U4). destruct (Classical_Prop.classic (positive_definite m (reading_spread n m f model))) as [D|D].
  - split; [apply (U4 D)|]. apply U1 in D. subst result. apply W.
  - rewrite (U3 D). split; [split; [exact SZ|split; [split; auto|split; auto]]|]. repeat split; reflexivity.
Qed.
(** Whatever the models, noises and readings, the covariance stays symmetric and positive semidefinite, cycle after cycle. *)
Theorem C133_history n m cs : (0 < n)%nat -> forall f, ukf_valid n m f -> spreads n f -> balanced n f -> Forall (proper n m) cs ->
  ukf_valid n m (fold_left (run_cycle n m) cs f).
Proof.
  intros P. induction cs as [|c cs IH]; intros f V Sp Ba H; [exact V|]. inversion H as [|? ? H1 H2]; subst. cbn [fold_left].
  assert (G : ukf_valid n m (run_cycle n m f c) /\ same_tuning f (run_cycle n m f c)).
  { clear IH H H2. destruct H1 as (A & B & C & D & E & F & G). destruct V as ((V1 & V2 & V3 & V4 & V5) & V6 & V7 & V8). unfold run_cycle.
    set (f0 := ukf_set_noise f (cy_process_noise c) (cy_measurement_noise c)).
    assert (W : ukf_valid n m f0) by (split; [exact (conj V1 (conj V2 (conj A (conj C V5))))|split; [exact V6|split; [exact B|exact D]]]).
    assert (Sp0 : spreads n f0) by exact Sp. assert (Ba0 : balanced n f0) by exact Ba.
    pose proof (C132_covariance n m f0 (cy_process c) P W Sp0 Ba0 E) as [X _]. pose proof (predict_fresh n m f0 (cy_process c) W E) as Y.
    assert (T0 : same_tuning f (fst (ukf_predict n (cy_process c) f0))).
    { pose proof (C132_predict n m f0 (cy_process c) (proj1 W) (proj1 (proj1 (proj2 W))) (proj1 (proj1 (proj2 (proj2 W)))) E) as U. destruct (ukf_predict n (cy_process c) f0) as [g result]. cbn [fst].
      destruct U as (_ & _ & U3 & U4). destruct (Classical_Prop.classic (positive_definite n (widened n f0))) as [Q|Q]; [apply (U4 Q)|rewrite (U3 Q); repeat split; reflexivity]. }
    destruct (ukf_predict n (cy_process c) f0) as [g predicted]. cbn [fst snd] in X, Y, T0.
    assert (Sg : spreads n g) by (destruct T0 as (T1 & T2 & T3 & _); unfold spreads; rewrite T1, T3; exact Sp).
    assert (Bg : balanced n g) by (destruct T0 as (T1 & T2 & T3 & _); unfold balanced; rewrite T1, T2, T3; exact Ba).
    set (h := match predicted with Ok _ => _ | _ => _ end).
    assert (Z : ukf_valid n m h /\ same_tuning f h).
    { destruct predicted as [[]|e|]; [|split; [exact X|exact T0]..]. specialize (Y eq_refl). unfold h. destruct (cy_seen c) as [|model z|model r].
      - split; [exact X|exact T0].
      - destruct G as [G1 G2]. destruct (C133_residual n m g model z (proj1 X) G1 G2) as (r & L & _ & ->). destruct (update_valid n m g model r P X Sg Bg Y G1 L) as [Z1 Z2].
        split; [exact Z1|]. unfold same_tuning in *. intuition congruence.
      - destruct G as [G1 G2]. destruct (update_valid n m g model r P X Sg Bg Y G1 G2) as [Z1 Z2]. split; [exact Z1|]. unfold same_tuning in *. intuition congruence. }
    destruct Z as [((Z1 & Z2) & Z3) Z4]. split; [split; [split; [apply F; exact Z1|exact Z2]|exact Z3]|exact Z4]. }
  destruct G as [G (T1 & T2 & T3 & _)]. apply IH; auto; unfold spreads, balanced; rewrite T1, ?T2, T3; assumption.
Qed.

(** ** Affine models *)
Lemma affine_average n m f model c (a : matrix) (b : vector) : (forall x, length x = n -> equal_vectors m (vget (model x)) (fun i => times n a (vget x) i + b i)) -> spreads n f ->
  length (ukf_centre f) = n -> equal_vectors n (average_of n f (points_of f)) c -> equal_vectors m (average_of n f (readings n m f model)) (fun i => times n a c i + b i).
Proof.
  intros AF Sp L E i Hi. unfold spreads in Sp. set (s := spread_of n (ukf_alpha f) (ukf_kappa f)) in *. set (w := side_weight n (ukf_alpha f) (ukf_kappa f)) in *.
  assert (W0 : mean_weight n (ukf_alpha f) (ukf_kappa f) = 1 - 2 * INR n * w) by (unfold mean_weight, w, side_weight; fold s; field; lra).
  unfold average_of, average in *. fold w. fold w in E. cbn [points_of cloud_of readings middle_point plus_points minus_points] in *.
  rewrite (AF _ L i Hi). rewrite (bsum_ext n _ (fun j => w * times n a (column (mget (ukf_plus f)) j) i + (w * times n a (column (mget (ukf_minus f)) j) i + 2 * w * b i))).
  2:{ intros j Hj. rewrite !(AF _ (column_of_length n _ j) i Hi).
      assert (CE : forall q, times n a (vget (column_of n q j)) i = times n a (column (mget q) j) i) by (intros q; unfold times; apply bsum_ext; intros k Hk; rewrite vget_column by auto; reflexivity).
      rewrite !CE. ring. }
  rewrite !bsum_plus, bsum_const, W0.
  assert (ET : times n a c i = mean_weight n (ukf_alpha f) (ukf_kappa f) * times n a (vget (ukf_centre f)) i +
     bsum n (fun j => w * times n a (column (mget (ukf_plus f)) j) i + w * times n a (column (mget (ukf_minus f)) j) i)).
  { transitivity (bsum n (fun k => mean_weight n (ukf_alpha f) (ukf_kappa f) * (a i k * vget (ukf_centre f) k) + bsum n (fun j => w * (a i k * mget (ukf_plus f) k j) + w * (a i k * mget (ukf_minus f) k j)))).
    - unfold times. apply bsum_ext. intros k Hk. rewrite <- (E k Hk), Rmult_plus_distr_l, <- bsum_scal. f_equal; [ring|]. apply bsum_ext. intros; ring.
    - rewrite bsum_plus, bsum_scal, bsum_swap. f_equal. apply bsum_ext. intros j Hj. rewrite bsum_plus, !bsum_scal. reflexivity. }
  rewrite ET, bsum_plus, W0. ring.
Qed.
Lemma affine_covary rows n m f model c (a : matrix) (b : vector) d e : (forall x, length x = n -> equal_vectors m (vget (model x)) (fun i => times n a (vget x) i + b i)) ->
  length (ukf_centre f) = n -> equal rows m (covary_of n f d e (readings n m f model) (fun i => times n a c i + b i)) (product n (covary_of n f d e (points_of f) c) (transposed a)).
Proof.
  intros AF L i k Hi Hk. unfold covary_of. set (w1 := spread_weight _ _ _ _). set (w := side_weight _ _ _). unfold covary. cbn [points_of cloud_of readings middle_point plus_points minus_points].
  assert (CE : forall q j, times n a (vget (column_of n q j)) k = times n a (column (mget q) j) k) by (intros q j; unfold times; apply bsum_ext; intros r Hr; rewrite vget_column by auto; reflexivity).
  assert (LIN : forall u, times n a u k + b k - (times n a c k + b k) = bsum n (fun q => a k q * (u q - c q))) by (intros u; unfold times; rewrite (bsum_ext n (fun q => a k q * (u q - c q)) (fun q => a k q * u q - a k q * c q)) by (intros; ring); rewrite bsum_minus; ring).
  rewrite (bsum_ext n _ (fun j => bsum n (fun q => w * ((plus_points d i j - e i) * (mget (ukf_plus f) q j - c q) + (minus_points d i j - e i) * (mget (ukf_minus f) q j - c q)) * a k q))).
  2:{ intros j Hj. rewrite !(AF _ (column_of_length n _ j) k Hk), !CE, !LIN. rewrite Rmult_plus_distr_l, <- !Rmult_assoc, <- !bsum_scal, <- bsum_plus. apply bsum_ext. intros q Hq. unfold column. ring. }
  rewrite (AF _ L k Hk), LIN. rewrite bsum_swap, <- bsum_scal, <- bsum_plus. unfold product, transposed. apply bsum_ext. intros q Hq.
  rewrite (bsum_ext n (fun i0 => w * _ * a k q) (fun j => a k q * (w * ((plus_points d i j - e i) * (mget (ukf_plus f) q j - c q) + (minus_points d i j - e i) * (mget (ukf_minus f) q j - c q))))) by (intros; ring). rewrite bsum_scal. ring.
Qed.

(** With an affine sensor, right after a prediction, the update is the one of the linear filter, for the part of the covariance that the points
    show; that is all of it when there is no process noise (and no regularization), so the filter then agrees with the linear one. *)
Theorem C133_affine_partial n m f process (a : matrix) (b : vector) model (h : matrix) (o : vector) residual : (0 < n)%nat -> ukf_valid n m f -> spreads n f -> balanced n f ->
  positive_definite n (mget (ukf_covariance f)) -> ukf_regularization f = 0 -> (forall i j, (i < n)%nat -> (j < n)%nat -> mget (ukf_process_noise f) i j = 0) ->
  outputs n n process -> (forall x, length x = n -> equal_vectors n (vget (process x)) (fun i => times n a (vget x) i + b i)) ->
  outputs n m model -> (forall x, length x = n -> equal_vectors m (vget (model x)) (fun i => times n h (vget x) i + o i)) -> length residual = m ->
  definite_covariance m (mget (ukf_measurement_noise f)) ->
  let g := fst (ukf_predict n process f) in let u := fst (ukf_update_with_residual n m model residual g) in
  snd (ukf_predict n process f) = Ok tt /\ snd (ukf_update_with_residual n m model residual g) = Ok tt /\
  equal n n (mget (ukf_covariance g)) (carried_covariance n a (mget (ukf_covariance f)) (mget (ukf_process_noise f))) /\
  exists k, let P := mget (ukf_covariance g) in let R := mget (ukf_measurement_noise f) in
    solves_gain n m h P (innovation_matrix n m h P R) k /\
    equal_vectors n (vget (ukf_state u)) (fun i => times n a (vget (ukf_state f)) i + b i + times m k (vget residual) i) /\
    equal n n (mget (ukf_covariance u)) (corrected_covariance n m h P R k).
Proof.
  intros P V Sp Ba PD RE QZ MP AP MM AM L DR g u. pose proof V as V0. destruct V0 as (SZ & [P1 P2] & [Q1 Q2] & [R1 R2]).
  assert (WD : positive_definite n (widened n f)).
  { apply (definite_iff n _ (scaled_matrix (spread_of n (ukf_alpha f) (ukf_kappa f)) (mget (ukf_covariance f)))); [intros i j _ _; unfold widened, plus_matrix, scaled_matrix; rewrite RE; ring|].
    intros x N. specialize (PD x N). replace (dot_product n x (times n _ x)) with (spread_of n (ukf_alpha f) (ukf_kappa f) * dot_product n x (times n (mget (ukf_covariance f)) x)); [apply Rmult_lt_0_compat; auto|].
    unfold dot_product, times, scaled_matrix. rewrite <- bsum_scal. apply bsum_ext. intros i _. rewrite (bsum_ext n (fun k => spread_of n (ukf_alpha f) (ukf_kappa f) * _ * x k) (fun k => spread_of n (ukf_alpha f) (ukf_kappa f) * (mget (ukf_covariance f) i k * x k))) by (intros; ring). rewrite bsum_scal. ring. }
  destruct (C132_affine n m f process a b P SZ P1 Q1 Sp MP AP WD) as [ST CV]. fold g in ST, CV.
  pose proof (C132_predict n m f process SZ P1 Q1 MP) as U. pose proof (predict_fresh n m f process V MP) as FR. pose proof (C132_covariance n m f process P V Sp Ba MP) as [VG _].
  fold g in FR, VG. assert (G0 : fst (ukf_predict n process f) = g) by reflexivity. clearbody g. destruct (ukf_predict n process f) as [g' result]. cbn [fst snd] in *. subst g'. destruct U as (U1 & _ & _ & U4).
  destruct (U4 WD) as (SG & (T1 & T2 & T3 & T4) & [N1 N2] & l & _ & _ & _ & _ & ME & CE). specialize (FR (proj2 U1 WD)).
  split; [apply U1; exact WD|].
  assert (Sg : spreads n g) by (unfold spreads; rewrite T1, T3; exact Sp). assert (Bg : balanced n g) by (unfold balanced; rewrite T1, T2, T3; exact Ba).
  rewrite <- N2 in DR. pose proof (C133_accepts n m g model residual P VG Sg Bg MM L DR) as AC.
  pose proof VG as VG0. destruct VG0 as (_ & [PG1 PG2] & _ & [RG1 RG2]).
  pose proof (update_read n m g model residual SG PG1 RG1 MM L) as W. cbv zeta in W. fold u in AC |- *.
  assert (U0 : fst (ukf_update_with_residual n m model residual g) = u) by reflexivity. clearbody u. destruct (ukf_update_with_residual n m model residual g) as [u' res]. cbn [fst snd] in *. subst u' res.
  split; [reflexivity|]. split.
  { refine (equal_trans _ _ _ _ _ CV _). intros i j Hi Hj. unfold carried_covariance, plus_matrix. f_equal. unfold product. apply bsum_ext. intros q Hq. f_equal. apply bsum_ext. intros r Hr. unfold scaled_matrix. rewrite RE. unfold Rdiv. ring. }
  destruct W as (_ & SU & _ & _ & _ & _ & _ & _ & _ & k & GE & XE & UE).
  set (c := vget (ukf_state g)) in *.
  assert (LC : length (ukf_centre g) = n) by (destruct SG as (_ & _ & _ & _ & X & _); exact X).
  assert (AVG : equal_vectors n (average_of n g (points_of g)) c) by (intros i Hi; symmetry; apply (proj1 FR); auto).
  pose proof (affine_average n m g model c h o AM Sg LC AVG) as RA.
  assert (CG : equal n n (covary_of n g (points_of g) c (points_of g) c) (mget (ukf_covariance g))).
  { intros i j Hi Hj. rewrite (CE i j Hi Hj). unfold plus_matrix. rewrite (QZ i j Hi Hj). unfold covary_of. rewrite T1, T2, T3. ring. }
  assert (CR : equal n m (cross_spread n m g model) (product n (mget (ukf_covariance g)) (transposed h))).
  { intros i j Hi Hj. unfold cross_spread. fold c. transitivity (covary_of n g (points_of g) c (readings n m g model) (fun i => times n h c i + o i) i j).
    - apply (covary_ext n m); [intros ? ?; reflexivity|exact RA|exact Hi|exact Hj].
    - rewrite (affine_covary n n m g model c h o (points_of g) c AM LC i j Hi Hj). unfold product. apply bsum_ext. intros q Hq. rewrite (CG i q Hi Hq). reflexivity. }
  assert (SPE : equal m m (reading_spread n m g model) (innovation_matrix n m h (mget (ukf_covariance g)) (mget (ukf_measurement_noise f)))).
  { intros i j Hi Hj. unfold reading_spread, innovation_matrix, plus_matrix. rewrite N2, Rplus_comm. f_equal.
    transitivity (covary_of n g (readings n m g model) (fun i => times n h c i + o i) (readings n m g model) (fun i => times n h c i + o i) i j); [apply (covary_ext m m); auto|].
    rewrite (affine_covary m n m g model c h o (readings n m g model) _ AM LC i j Hi Hj). rewrite <- p_assoc. unfold product at 1. unfold product at 1. apply bsum_ext. intros q Hq. f_equal.
    transitivity (covary_of n g (points_of g) c (readings n m g model) (fun i => times n h c i + o i) q i).
    { unfold covary_of, covary. f_equal; [ring|]. apply bsum_ext. intros; ring. }
    rewrite (affine_covary n n m g model c h o (points_of g) c AM LC q i Hq Hi). unfold product, transposed. apply bsum_ext. intros r Hr. rewrite (CG q r Hq Hr). rewrite (PG1 q r Hq Hr). unfold transposed. ring. }
  exists k. cbv zeta. assert (SG1 : solves_gain n m h (mget (ukf_covariance g)) (innovation_matrix n m h (mget (ukf_covariance g)) (mget (ukf_measurement_noise f))) k).
  { intros i j Hi Hj. transitivity (product m (reading_spread n m g model) (transposed k) i j); [unfold product; apply bsum_ext; intros q Hq; rewrite (SPE i q Hi Hq); reflexivity|].
    rewrite (GE i j Hi Hj). unfold transposed. rewrite (CR j i Hj Hi). unfold product, transposed. apply bsum_ext. intros q Hq. rewrite (PG1 j q Hj Hq). unfold transposed. ring. }
  split; [exact SG1|]. split.
  - intros i Hi. rewrite (XE i Hi), (ST i Hi). reflexivity.
  - rewrite N2 in RG1. apply polarization.
    + apply (symmetric_ext n _ _ UE). apply symmetric_minus; [exact PG1|]. apply outer_symmetric. apply (symmetric_ext m _ _ SPE). apply innovation_symmetric; auto.
    + apply (proj1 (corrected_is_covariance n m h _ _ k (conj PG1 PG2) (conj RG1 (fun x => eq_ind _ (fun r => 0 <= quadratic m (mget r) x) (RG2 x) _ N2)))).
    + intros x. rewrite (quadratic_ext n _ _ x UE), quadratic_minus, outer_form, (gain_form n m _ _ _ k PG1 RG1 SG1 x). rewrite (quadratic_ext m _ _ _ SPE). reflexivity.
Qed.

(** ** Where it goes wrong: scalar models that change nothing and a sensor that reads the state *)
Definition scalar_ukf (p q r : R) : UnscentedKalmanFilter R := ukf_tuned (ukf_new 1 1 [0] [[p]] [[q]] [[r]]) 1 2 0 0.
Definition keep (x : list R) : list R := x.
Lemma scalar_matrix a (P : 0 <= a) : shape 1 1 [[a]] /\ covariance_matrix 1 (mget [[a]]).
Proof.
  assert (S : shape 1 1 [[a]]) by (split; [reflexivity|intros [|i] Hi; [reflexivity|lia]]). split; [exact S|]. split.
  - intros i j Hi Hj. assert (i = 0%nat) as -> by lia. assert (j = 0%nat) as -> by lia. reflexivity.
  - intros x. unfold quadratic, dot_product, times. cbn. nra.
Qed.
Lemma scalar_definite a : 0 < a -> definite_covariance 1 (mget [[a]]).
Proof. intros P. split; [apply scalar_matrix; lra|]. intros x (i & Hi & N). assert (i = 0%nat) as -> by lia. unfold dot_product, times. cbn. assert (0 < x 0%nat * x 0%nat) by (apply Rsqr_pos_lt; exact N). nra. Qed.
Lemma scalar_valid p q r : 0 <= p -> 0 <= q -> 0 <= r -> ukf_valid 1 1 (scalar_ukf p q r) /\ spreads 1 (scalar_ukf p q r) /\ balanced 1 (scalar_ukf p q r).
Proof.
  intros A B C. split; [|split; unfold spreads, balanced, spread_of; cbn; lra]. unfold ukf_valid, ukf_sized, scalar_ukf. cbn [ukf_tuned ukf_new ukf_state ukf_covariance ukf_process_noise ukf_measurement_noise ukf_centre ukf_plus ukf_minus].
  split; [|split; [apply scalar_matrix; auto|split; apply scalar_matrix; auto]].
  exact (conj eq_refl (conj (proj1 (scalar_matrix p A)) (conj (proj1 (scalar_matrix q B)) (conj (proj1 (scalar_matrix r C)) (conj eq_refl (conj (shape_mat_fn _ _ _) (shape_mat_fn _ _ _))))))).
Qed.
Lemma keep_outputs : outputs 1 1 keep.
Proof. intros x L. exact L. Qed.


Lemma cholesky_one a s : 0 < s -> a = s * s -> cholesky 1 [[a]] = Ok [[s]].
Proof.
  intros P ->. unfold cholesky, range. cbn. unfold cholesky_column. cbn. rewrite (proj2 (Rleb_false (s * s) 0)) by nra. do 3 f_equal. apply sqrt_square. lra.
Qed.
Lemma scalar_predicted q r : ukf_predict 1 keep (scalar_ukf 4 q r) = (ukf_set (ukf_set_points (scalar_ukf 4 q r) [0] [[2]] [[-2]]) [0] [[4 + q]], Ok tt).
Proof.
  unfold ukf_predict, offset_directions. rewrite finite_mat_always. cbn [negb].
  assert (E : mat_add (mat_scale 1 1 (ukf_covariance (scalar_ukf 4 q r)) (spread_factor 1 (ukf_alpha (scalar_ukf 4 q r)) (ukf_kappa (scalar_ukf 4 q r)))) (mat_scale 1 1 (identity 1) (ukf_regularization (scalar_ukf 4 q r))) = [[4]]) by (cbn; do 2 f_equal; ring).
  rewrite E, (cholesky_one 4 2) by lra. rewrite weights_read.
  assert (W0 : mean_weight 1 (ukf_alpha (scalar_ukf 4 q r)) (ukf_kappa (scalar_ukf 4 q r)) = 0) by (unfold mean_weight, spread_of; cbn; field; lra).
  assert (W1 : spread_weight 1 (ukf_alpha (scalar_ukf 4 q r)) (ukf_beta (scalar_ukf 4 q r)) (ukf_kappa (scalar_ukf 4 q r)) = 2) by (unfold spread_weight; rewrite W0; cbn; ring).
  assert (W : side_weight 1 (ukf_alpha (scalar_ukf 4 q r)) (ukf_kappa (scalar_ukf 4 q r)) = / 2) by (unfold side_weight, spread_of; cbn; field; lra).
  rewrite W0, W1, W. cbv zeta. rewrite !finite_vec_always, !finite_mat_always. cbn [negb orb].
  assert (PL : mat_fn 1 1 (fun row column => vget (keep (vec_add (ukf_state (scalar_ukf 4 q r)) (column_of 1 [[2]] column))) row) = [[2]]) by (cbn; do 2 f_equal; ring).
  assert (MI : mat_fn 1 1 (fun row column => vget (keep (vec_sub (ukf_state (scalar_ukf 4 q r)) (column_of 1 [[2]] column))) row) = [[-2]]) by (cbn; do 2 f_equal; ring).
  rewrite PL, MI. change (keep (ukf_state (scalar_ukf 4 q r))) with [0].
  assert (ME : weighted_mean 1 1 0 (/ 2) [0] [[2]] [[-2]] = [0]) by (cbn; f_equal; field). rewrite ME.
  assert (SP : weighted_spread 1 1 1 (ukf_process_noise (ukf_set_points (scalar_ukf 4 q r) [0] [[2]] [[-2]])) 2 (/ 2) [0] [[2]] [[-2]] [0] [0] [[2]] [[-2]] [0] = [[4 + q]]) by (cbn; do 2 f_equal; field).
  rewrite SP. reflexivity.
Qed.
(** any covariance [c] in place of the one predicted *)
Lemma scalar_updated q c f : f = ukf_set (ukf_set_points (scalar_ukf 4 q (9 / 4)) [0] [[2]] [[-2]]) [0] [[c]] \/
    f = ukf_set_innovation (ukf_set (ukf_set_points (scalar_ukf 4 q (9 / 4)) [0] [[2]] [[-2]]) [0] [[c]]) [0] [[25 / 4]] ->
  ukf_update_with_residual 1 1 keep [0] f = (ukf_set_innovation (ukf_set (ukf_set_points (scalar_ukf 4 q (9 / 4)) [0] [[2]] [[-2]]) [0] [[c - 64 / 25]]) [0] [[25 / 4]], Ok tt).
Proof.
  intros H. assert (F : ukf_alpha f = 1 /\ ukf_beta f = 2 /\ ukf_kappa f = 0 /\ ukf_centre f = [0] /\ ukf_plus f = [[2]] /\ ukf_minus f = [[-2]] /\ ukf_state f = [0] /\ ukf_measurement_noise f = [[9 / 4]] /\ ukf_covariance f = [[c]]) by (destruct H as [->| ->]; repeat split; reflexivity).
  destruct F as (F1 & F2 & F3 & F4 & F5 & F6 & F7 & F8 & F9).
  unfold ukf_update_with_residual, measurement_sigma_points, fold_in. rewrite weights_read, F1, F2, F3.
  assert (W0 : mean_weight 1 1 0 = 0) by (unfold mean_weight, spread_of; cbn; field; lra).
  assert (W1 : spread_weight 1 1 2 0 = 2) by (unfold spread_weight; rewrite W0; ring).
  assert (W : side_weight 1 1 0 = / 2) by (unfold side_weight, spread_of; cbn; field; lra).
  rewrite W0, W1, W, F4, F5, F6. cbv zeta. rewrite !finite_vec_always, !finite_mat_always. cbn [negb orb]. cbv beta iota. rewrite !finite_mat_always. cbn [negb orb]. cbn [ukf_set_innovation ukf_state ukf_covariance]. rewrite F7, F8, F9.
  change (mat_fn 1 1 (fun row column => vget (keep (column_of 1 [[2]] column)) row)) with [[2]].
  change (mat_fn 1 1 (fun row column => vget (keep (column_of 1 [[-2]] column)) row)) with [[-2]]. change (keep [0]) with [0].
  assert (ME : weighted_mean 1 1 0 (/ 2) [0] [[2]] [[-2]] = [0]) by (cbn; f_equal; field). rewrite ME.
  assert (SP : symmetrized 1 (weighted_spread 1 1 1 [[9 / 4]] 2 (/ 2) [0] [[2]] [[-2]] [0] [0] [[2]] [[-2]] [0]) = [[25 / 4]]) by (cbn; do 2 f_equal; field). rewrite SP.
  assert (SX : weighted_spread 1 1 1 (mat_zeros 1 1) 2 (/ 2) [0] [[2]] [[-2]] [0] [0] [[2]] [[-2]] [0] = [[4]]) by (cbn; do 2 f_equal; field). rewrite SX.
  rewrite (cholesky_one (25 / 4) (5 / 2)) by lra.
  assert (G : transpose 1 1 (cholesky_solve_matrix 1 1 [[5 / 2]] (transpose 1 1 [[4]])) = [[16 / 25]]) by (cbn; do 2 f_equal; field). rewrite G.
  assert (X : vec_add [0] (mat_vec 1 1 [[16 / 25]] [0]) = [0]) by (cbn; f_equal; ring).
  assert (C : symmetrized 1 (mat_sub [[c]] (mat_mul 1 1 1 (mat_mul 1 1 1 [[16 / 25]] [[25 / 4]]) (transpose 1 1 [[16 / 25]]))) = [[c - 64 / 25]]) by (cbn; do 2 f_equal; field).
  rewrite X, C. destruct H as [->| ->]; reflexivity.
Qed.

(** "The covariance stays one, whatever is done" fails for a second update after one prediction (two sensors, say): *)
Theorem C133_repeat_refuted : exists f model process residual, ukf_valid 1 1 f /\ spreads 1 f /\ balanced 1 f /\ outputs 1 1 process /\ outputs 1 1 model /\ length residual = 1%nat /\
  let g := fst (ukf_predict 1 process f) in let u := fst (ukf_update_with_residual 1 1 model residual g) in
  snd (ukf_predict 1 process f) = Ok tt /\ snd (ukf_update_with_residual 1 1 model residual g) = Ok tt /\ snd (ukf_update_with_residual 1 1 model residual u) = Ok tt /\
  mget (ukf_covariance (fst (ukf_update_with_residual 1 1 model residual u))) 0 0 < 0.
Proof.
  exists (scalar_ukf 4 0 (9 / 4)), keep, keep, [0]. destruct (scalar_valid 4 0 (9 / 4)) as (A & B & C); try lra. split; [exact A|]. split; [exact B|]. split; [exact C|].
  split; [exact keep_outputs|]. split; [exact keep_outputs|]. split; [reflexivity|]. cbv zeta. rewrite scalar_predicted. cbn [fst snd].
  rewrite (scalar_updated 0 (4 + 0) _ (or_introl eq_refl)). cbn [fst snd]. rewrite (scalar_updated 0 (4 + 0 - 64 / 25) _ (or_intror eq_refl)). cbn [fst snd].
  split; [reflexivity|]. split; [reflexivity|]. split; [reflexivity|]. cbn. lra.
Qed.
(** "For affine models the filter is the linear filter" fails when there is process noise: the readings are taken at points drawn before it. *)
Theorem C133_affine_refuted : exists (f : UnscentedKalmanFilter R) (l : KalmanFilter R), ukf_valid 1 1 f /\ spreads 1 f /\ balanced 1 f /\ valid 1 1 l /\
  kf_state l = ukf_state f /\ kf_covariance l = ukf_covariance f /\ kf_process_noise l = ukf_process_noise f /\ kf_measurement_noise l = ukf_measurement_noise f /\
  kf_transition l = [[1]] /\ kf_model l = [[1]] /\
  snd (kf_update 1 1 [0] (kf_predict 1 l)) = Ok tt /\
  mget (kf_covariance (fst (kf_update 1 1 [0] (kf_predict 1 l)))) 0 0 < mget (ukf_covariance (fst (ukf_update_with_residual 1 1 keep [0] (fst (ukf_predict 1 keep f))))) 0 0.
Proof.
  destruct (scalar_valid 4 (11 / 4) (9 / 4)) as (A & B & C); try lra.
  exists (scalar_ukf 4 (11 / 4) (9 / 4)), (kf_new 1 [0] [[4]] {| m_state_transition := [[1]]; m_measurement_model := [[1]]; m_process_noise := [[11 / 4]]; m_measurement_noise := [[9 / 4]] |}).
  split; [exact A|]. split; [exact B|]. split; [exact C|].
  split.
  { unfold valid, sized. cbn [kf_new kf_state kf_covariance kf_transition kf_model kf_process_noise kf_measurement_noise m_state_transition m_measurement_model m_process_noise m_measurement_noise].
    assert (S : forall a : R, shape 1 1 [[a]]) by (intros a; split; [reflexivity|intros [|i] Hi; [reflexivity|lia]]).
    split; [exact (conj eq_refl (conj (S _) (conj (S _) (conj (S _) (conj (S _) (S _))))))|]. split; [|split]; apply scalar_matrix; lra. }
  do 6 (split; [reflexivity|]). rewrite scalar_predicted. cbn [fst]. rewrite (scalar_updated (11 / 4) (4 + 11 / 4) _ (or_introl eq_refl)). cbn [fst].
  set (l := kf_predict 1 _). assert (L : kf_state l = [0] /\ kf_covariance l = [[27 / 4]] /\ kf_model l = [[1]] /\ kf_measurement_noise l = [[9 / 4]] /\ kf_mode l = Joseph).
  { unfold l. cbn. repeat split; do 2 f_equal; field. } destruct L as (L1 & L2 & L3 & L4 & L5).
  unfold kf_update. rewrite finite_vec_always. cbn [negb]. rewrite finite_mat_always. cbn [negb]. rewrite L1, L2, L3, L4.
  assert (S : spread_of_innovation 1 1 [[1]] [[27 / 4]] [[9 / 4]] = [[9]]) by (cbn; do 2 f_equal; field). rewrite S, (cholesky_one 9 3) by lra.
  cbn [fst snd kf_set kf_covariance kf_set_innovation kf_mode kf_state kf_measurement_noise]. split; [reflexivity|]. rewrite ?L1, ?L2, ?L4, ?L5.
  assert (G : gain_of 1 1 [[3]] [[1]] [[27 / 4]] = [[3 / 4]]) by (cbn; do 2 f_equal; field). rewrite G.
  assert (U : updated_covariance 1 1 Joseph [[3 / 4]] [[1]] [[27 / 4]] [[9 / 4]] = [[27 / 16]]) by (cbn; do 2 f_equal; field). rewrite U. cbn. lra.
Qed.

(** Any scalar: a refused call leaves the estimate, its covariance and the last innovation alone. *)
Theorem C133_refused T (NT : Num T) n m (model : list T -> list T) v (f g : UnscentedKalmanFilter T) r :
  ukf_predict n model f = (g, r) \/ ukf_update n m model v f = (g, r) \/ ukf_update_with_residual n m model v f = (g, r) -> r <> Ok tt ->
  ukf_state g = ukf_state f /\ ukf_covariance g = ukf_covariance f /\ ukf_innovation g = ukf_innovation f /\ ukf_spread g = ukf_spread f.
Proof.
  intros H N. assert (FO : forall c p q a z, fold_in n m c p q a z f = (g, r) -> ukf_state g = ukf_state f /\ ukf_covariance g = ukf_covariance f /\ ukf_innovation g = ukf_innovation f /\ ukf_spread g = ukf_spread f).
  { intros c p q a z. unfold fold_in. destruct (ukf_weights n f) as [[w0 w1] w]. destruct (_ || _); [intros [= <- <-]; auto|]. destruct (cholesky _ _); intros [= <- <-]; auto. destruct N. reflexivity. }
  destruct H as [H|[H|H]].
  - unfold ukf_predict in H. destruct (offset_directions n f); [|injection H as <- <-; auto..]. destruct (ukf_weights n f) as [[w0 w1] w]. destruct (_ || _) in H; [injection H as <- <-; auto|].
    destruct (_ || _) in H; injection H as <- <-; auto. destruct N. reflexivity.
  - unfold ukf_update in H. destruct (negb _); [injection H as <- <-; auto|]. destruct (measurement_sigma_points n m model f) as [[[[c p] q] a]|e|]; [apply (FO _ _ _ _ _ H)|injection H as <- <-; auto..].
  - unfold ukf_update_with_residual in H. destruct (negb _); [injection H as <- <-; auto|]. destruct (measurement_sigma_points n m model f) as [[[[c p] q] a]|e|]; [apply (FO _ _ _ _ _ H)|injection H as <- <-; auto..].
Qed.

Example C132_example : ukf_valid 1 1 (scalar_ukf 4 0 (9 / 4)) /\ spreads 1 (scalar_ukf 4 0 (9 / 4)) /\ balanced 1 (scalar_ukf 4 0 (9 / 4)) /\ outputs 1 1 keep /\
  snd (ukf_predict 1 keep (scalar_ukf 4 0 (9 / 4))) = Ok tt /\ fresh 1 (fst (ukf_predict 1 keep (scalar_ukf 4 0 (9 / 4)))).
Proof.
  destruct (scalar_valid 4 0 (9 / 4)) as (A & B & C); try lra. split; [exact A|]. split; [exact B|]. split; [exact C|]. split; [exact keep_outputs|].
  assert (O : snd (ukf_predict 1 keep (scalar_ukf 4 0 (9 / 4))) = Ok tt) by (rewrite scalar_predicted; reflexivity). split; [exact O|]. apply (predict_fresh 1 1); auto. exact keep_outputs.
Qed.
Example C133_example : Forall (proper 1 1) [{| cy_process_noise := [[/ 2]]; cy_measurement_noise := [[9 / 4]]; cy_process := keep; cy_seen := Measured keep [3]; cy_wrap := keep |};
    {| cy_process_noise := [[0]]; cy_measurement_noise := [[1]]; cy_process := map (fun x => x * x); cy_seen := Differenced (map sin) [1]; cy_wrap := map (fun x => - x) |}] /\
  positive_definite 1 (mget (ukf_covariance (scalar_ukf 4 0 (9 / 4)))) /\ definite_covariance 1 (mget (ukf_measurement_noise (scalar_ukf 4 0 (9 / 4)))) /\
  (forall x, length x = 1%nat -> equal_vectors 1 (vget (keep x)) (fun i => times 1 unit_matrix (vget x) i + 0)).
Proof.
  assert (MO : forall g : R -> R, outputs 1 1 (map g)) by (intros g x L; rewrite map_length; exact L).
  split; [constructor; [|constructor; [|constructor]]|split; [|split]].
  - destruct (scalar_matrix (/ 2)) as [A1 A2]; [lra|]. destruct (scalar_matrix (9 / 4)) as [B1 B2]; [lra|]. exact (conj A1 (conj A2 (conj B1 (conj B2 (conj keep_outputs (conj keep_outputs (conj keep_outputs eq_refl))))))).
  - destruct (scalar_matrix 0) as [A1 A2]; [lra|]. destruct (scalar_matrix 1) as [B1 B2]; [lra|]. exact (conj A1 (conj A2 (conj B1 (conj B2 (conj (MO _) (conj (MO _) (conj (MO _) eq_refl))))))).
  - apply scalar_definite. lra.
  - apply scalar_definite. lra.
  - intros x L i Hi. assert (i = 0%nat) as -> by lia. unfold times, unit_matrix, keep. cbn. ring.
Qed.

Print Assumptions C132_tuning.
Print Assumptions C132_default.
Print Assumptions C132_predict.
Print Assumptions C132_covariance.
Print Assumptions C132_affine.
Print Assumptions C133_update.
Print Assumptions C133_residual.
Print Assumptions C133_accepts.
Print Assumptions C133_unpredicted.
Print Assumptions C133_history.
Print Assumptions C133_affine_partial.
Print Assumptions C133_repeat_refuted.
Print Assumptions C133_affine_refuted.
Print Assumptions C133_refused.
