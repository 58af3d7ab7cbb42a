(** crates/multicalc/src/estimation/error_state_kalman_filter.rs, over any scalar.  The error has [ERROR_DIMENSION] = 15 numbers and
    [m] is MEASUREMENT_DIMENSION; the compile-time check that it is not zero is a hypothesis of the theorems that need it.  A method on
    [&mut self] gives back the filter it leaves and its result. *)
From Coq Require Import ZArith List Bool Arith.
From Verif Require Import Base.Scalar Base.Lists Model.Errors Model.Vector Model.Matrix Model.Lu Model.Cholesky Model.Svd Model.Dual Model.Quaternion Model.Lie Model.Kalman.
Import ListNotations.

(** error_state_kalman_filter.rs:45-56 *)
Record nominal_state (T : Type) := NominalState {
  ns_position : vec3 T; ns_velocity : vec3 T; ns_orientation : so3 T; ns_gyroscope_bias : vec3 T; ns_accelerometer_bias : vec3 T }.
Arguments NominalState {T}. Arguments ns_position {T}. Arguments ns_velocity {T}. Arguments ns_orientation {T}.
Arguments ns_gyroscope_bias {T}. Arguments ns_accelerometer_bias {T}.
(** error_state_kalman_filter.rs:337-340, trait NominalStateFn: code that runs over any scalar *)
Definition StateFn := forall S : Type, Num S -> nominal_state S -> list S.

Section State.
  Context {T : Type} {NT : Num T}.
  Local Open Scope num_scope.

  (** error_state_kalman_filter.rs:94-102 *)
  Definition ns_at_rest (orientation : so3 T) : nominal_state T := NominalState zeros3 zeros3 orientation zeros3 zeros3.
  (** error_state_kalman_filter.rs:158-162: three numbers of the error, from [at_] on *)
  Definition error_part (error : list T) (at_ : nat) : vec3 T := (vget error at_, vget error (at_ + 1), vget error (at_ + 2)).
  (** error_state_kalman_filter.rs:157-170 *)
  Definition plus_error (s : nominal_state T) (error : list T) : nominal_state T :=
    NominalState (add3 (ns_position s) (error_part error 0)) (add3 (ns_velocity s) (error_part error 3))
      (so3_compose (ns_orientation s) (so3_exp (error_part error 6)))
      (add3 (ns_gyroscope_bias s) (error_part error 9)) (add3 (ns_accelerometer_bias s) (error_part error 12)).
  (** error_state_kalman_filter.rs:202-225 *)
  Definition error_from (s reference : nominal_state T) : list T :=
    list3 (sub3 (ns_position s) (ns_position reference)) ++ list3 (sub3 (ns_velocity s) (ns_velocity reference)) ++
    list3 (so3_log (so3_compose (so3_inverse (ns_orientation reference)) (ns_orientation s))) ++
    list3 (sub3 (ns_gyroscope_bias s) (ns_gyroscope_bias reference)) ++ list3 (sub3 (ns_accelerometer_bias s) (ns_accelerometer_bias reference)).
  (** error_state_kalman_filter.rs:254-273 *)
  Definition propagated (s : nominal_state T) (gyroscope accelerometer : vec3 T) (timestep : T) (gravity : vec3 T) : nominal_state T :=
    let turn_rate := sub3 gyroscope (ns_gyroscope_bias s) in
    let proper_push := sub3 accelerometer (ns_accelerometer_bias s) in
    let world_push := add3 (so3_act (ns_orientation s) proper_push) gravity in
    NominalState
      (add3 (add3 (ns_position s) (scale3 (ns_velocity s) timestep)) (scale3 world_push (timestep * timestep * half)))
      (add3 (ns_velocity s) (scale3 world_push timestep))
      (so3_compose (ns_orientation s) (so3_exp (scale3 turn_rate timestep)))
      (ns_gyroscope_bias s) (ns_accelerometer_bias s).
  (** error_state_kalman_filter.rs:282-288, 293-298 *)
  Definition lift3 (v : vec3 T) : vec3 (Dual T) := let '(x, y, z) := v in (dual_constant x, dual_constant y, dual_constant z).
  Definition lift_quaternion (q : quaternion T) : quaternion (Dual T) :=
    Quat (dual_constant (qw q)) (dual_constant (qx q)) (dual_constant (qy q)) (dual_constant (qz q)).
  (** error_state_kalman_filter.rs:281-302 *)
  Definition lifted_to_dual (s : nominal_state T) : nominal_state (Dual T) :=
    NominalState (lift3 (ns_position s)) (lift3 (ns_velocity s))
      (@so3_from_quaternion (Dual T) dual_num (lift_quaternion (ns_orientation s)))
      (lift3 (ns_gyroscope_bias s)) (lift3 (ns_accelerometer_bias s)).
  (** error_state_kalman_filter.rs:306-316 *)
  Definition ns_is_finite (s : nominal_state T) : bool :=
    let q := ns_orientation s in
    (is_finite3 (ns_position s) && is_finite3 (ns_velocity s) && is_finite3 (ns_gyroscope_bias s) && is_finite3 (ns_accelerometer_bias s)
      && is_finite (qw q) && is_finite (qx q) && is_finite (qy q) && is_finite (qz q))%bool.
End State.

Section ErrorState.
  Context {T : Type} {NT : Num T}.
  Local Open Scope num_scope.

  (** error_state_kalman_filter.rs:348-357 *)
  Record imu_noise := {
    gyroscope_noise_density : T; accelerometer_noise_density : T; gyroscope_bias_random_walk : T; accelerometer_bias_random_walk : T }.
  (** error_state_kalman_filter.rs:441-450 *)
  Record error_filter := {
    ef_state : nominal_state T; ef_covariance : mat T; ef_imu_noise : imu_noise; ef_measurement_noise : mat T; ef_gravity : vec3 T;
    ef_innovation : list T; ef_spread : mat T; ef_mode : CovarianceUpdate }.
  (** error_state_kalman_filter.rs:461-483 *)
  Definition ef_new (m : nat) (state : nominal_state T) (covariance : mat T) (noise : imu_noise) (measurement_noise : mat T) : error_filter :=
    {| ef_state := state; ef_covariance := covariance; ef_imu_noise := noise; ef_measurement_noise := measurement_noise;
       ef_gravity := (zero, zero, of_ratio (-981) 100); ef_innovation := vec_zeros m; ef_spread := mat_zeros m m; ef_mode := Joseph |}.
  (** what the methods below assign *)
  Definition ef_set (f : error_filter) (state : nominal_state T) (covariance : mat T) : error_filter :=
    {| ef_state := state; ef_covariance := covariance; ef_imu_noise := ef_imu_noise f; ef_measurement_noise := ef_measurement_noise f;
       ef_gravity := ef_gravity f; ef_innovation := ef_innovation f; ef_spread := ef_spread f; ef_mode := ef_mode f |}.
  Definition ef_set_innovation (f : error_filter) (innovation : list T) (spread : mat T) : error_filter :=
    {| ef_state := ef_state f; ef_covariance := ef_covariance f; ef_imu_noise := ef_imu_noise f; ef_measurement_noise := ef_measurement_noise f;
       ef_gravity := ef_gravity f; ef_innovation := innovation; ef_spread := spread; ef_mode := ef_mode f |}.
  Definition ef_configured (f : error_filter) (noise : imu_noise) (measurement_noise : mat T) (gravity : vec3 T) (mode : CovarianceUpdate) : error_filter :=
    {| ef_state := ef_state f; ef_covariance := ef_covariance f; ef_imu_noise := noise; ef_measurement_noise := measurement_noise;
       ef_gravity := gravity; ef_innovation := ef_innovation f; ef_spread := ef_spread f; ef_mode := mode |}.
  (** error_state_kalman_filter.rs:487-490, 494-497, 500-502, 505-507, 510-515 *)
  Definition ef_with_mode (f : error_filter) (mode : CovarianceUpdate) := ef_configured f (ef_imu_noise f) (ef_measurement_noise f) (ef_gravity f) mode.
  Definition ef_with_gravity (f : error_filter) (gravity : vec3 T) := ef_configured f (ef_imu_noise f) (ef_measurement_noise f) gravity (ef_mode f).
  Definition ef_set_nominal_state (f : error_filter) (state : nominal_state T) := ef_set f state (ef_covariance f).
  Definition ef_set_imu_noise (f : error_filter) (noise : imu_noise) := ef_configured f noise (ef_measurement_noise f) (ef_gravity f) (ef_mode f).
  Definition ef_set_measurement_noise (f : error_filter) (noise : mat T) := ef_configured f (ef_imu_noise f) noise (ef_gravity f) (ef_mode f).

  (** error_state_kalman_filter.rs:923-934 *)
  Definition write_block (target : mat T) (top_row left_column : nat) (block : mat T) : mat T :=
    fold_left (fun target row => fold_left (fun target column =>
      mset target (top_row + row) (left_column + column) (mget block row column)) (range 0 3) target) (range 0 3) target.
  (** error_state_kalman_filter.rs:568-593 *)
  Definition error_state_transition (f : error_filter) (gyroscope accelerometer : vec3 T) (timestep : T) : mat T :=
    let turn_rate := sub3 gyroscope (ns_gyroscope_bias (ef_state f)) in
    let proper_push := sub3 accelerometer (ns_accelerometer_bias (ef_state f)) in
    let rotation := so3_to_matrix (ns_orientation (ef_state f)) in
    let push_sensitivity := mat_neg (mat_scale 3 3 (mat_mul 3 3 3 rotation (so3_hat proper_push)) timestep) in
    let bias_sensitivity := mat_neg (mat_scale 3 3 rotation timestep) in
    let turn_transfer := so3_to_matrix (so3_exp (scale3 (neg3 turn_rate) timestep)) in
    let transition := identity 15 in
    let transition := write_block transition 0 3 (mat_scale 3 3 (identity 3) timestep) in
    let transition := write_block transition 3 6 push_sensitivity in
    let transition := write_block transition 3 12 bias_sensitivity in
    let transition := write_block transition 6 6 turn_transfer in
    write_block transition 6 9 (mat_scale 3 3 (identity 3) (- timestep)).
  (** error_state_kalman_filter.rs:612-616: one [+=] on the diagonal *)
  Definition bump (covariance : mat T) (index : nat) (amount : T) : mat T := mset covariance index index (mget covariance index index + amount).
  (** error_state_kalman_filter.rs:596-620 *)
  Definition propagate_covariance (noise : imu_noise) (covariance transition : mat T) (timestep : T) : mat T :=
    let covariance := mat_mul 15 15 15 (mat_mul 15 15 15 transition covariance) (transpose 15 15 transition) in
    let velocity_noise := accelerometer_noise_density noise * timestep in
    let rotation_noise := gyroscope_noise_density noise * timestep in
    let gyroscope_walk := gyroscope_bias_random_walk noise in
    let accelerometer_walk := accelerometer_bias_random_walk noise in
    symmetrized 15 (fold_left (fun covariance offset =>
      let covariance := bump covariance (3 + offset) (velocity_noise * velocity_noise) in
      let covariance := bump covariance (6 + offset) (rotation_noise * rotation_noise) in
      let covariance := bump covariance (9 + offset) (gyroscope_walk * gyroscope_walk * timestep) in
      bump covariance (12 + offset) (accelerometer_walk * accelerometer_walk * timestep)) (range 0 3) covariance).
  (** error_state_kalman_filter.rs:524-556 *)
  Definition ef_predict (gyroscope accelerometer : vec3 T) (timestep : T) (f : error_filter) : error_filter * Res unit EstimationError :=
    if (negb (is_finite3 gyroscope) || negb (is_finite3 accelerometer) || negb (is_finite timestep))%bool then (f, Err EsNonFinite)
    else
      let transition := error_state_transition f gyroscope accelerometer timestep in
      let next := propagated (ef_state f) gyroscope accelerometer timestep (ef_gravity f) in
      if (negb (ns_is_finite next) || negb (mat_is_finite transition))%bool then (f, Err EsNonFinite)
      else
        let f := ef_set f next (propagate_covariance (ef_imu_noise f) (ef_covariance f) transition timestep) in
        if negb (mat_is_finite (ef_covariance f)) then (f, Err EsNonFinite) else (f, Ok tt).

  (** error_state_kalman_filter.rs:809-810: the seeded error of one pass *)
  Definition seeded_error (column : nat) : list (Dual T) := set_nth (repeat (dual_constant zero) 15) column (dual_variable zero).
  (** error_state_kalman_filter.rs:799-817; [width] is WIDTH *)
  Definition measurement_jacobian (width : nat) (model : StateFn) (s : nominal_state T) : mat T :=
    fold_left (fun jacobian column =>
      let outputs := model (Dual T) dual_num (@plus_error (Dual T) dual_num (lifted_to_dual s) (seeded_error column)) in
      fold_left (fun jacobian row => mset jacobian row column (deriv (nth row outputs (dual_constant zero)))) (range 0 width) jacobian)
      (range 0 15) (mat_zeros width 15).
  (** error_state_kalman_filter.rs:831-834 *)
  Definition reset_matrix (error : list T) : mat T :=
    write_block (identity 15) 6 6 (mat_sub (identity 3) (mat_scale 3 3 (so3_hat (error_part error 6)) half)).
  (** error_state_kalman_filter.rs:828-837 *)
  Definition inject_error_and_reset (error : list T) (f : error_filter) : error_filter :=
    let reset := reset_matrix error in
    ef_set f (plus_error (ef_state f) error) (mat_mul 15 15 15 (mat_mul 15 15 15 reset (ef_covariance f)) (transpose 15 15 reset)).
  (** error_state_kalman_filter.rs:745-794 *)
  Definition fold_in (width : nat) (model : StateFn) (residual : list T) (noise : mat T) (f : error_filter) : error_filter * Res (mat T) EstimationError :=
    if negb (vec_is_finite residual) then (f, Err EsNonFinite)
    else
      let h := measurement_jacobian width model (ef_state f) in
      if negb (mat_is_finite h) then (f, Err EsNonFinite)
      else
        let spread := spread_of_innovation 15 width h (ef_covariance f) noise in
        if negb (mat_is_finite spread) then (f, Err EsNonFinite)
        else
          match cholesky width spread with
          | Ok factor =>
              let gain := gain_of 15 width factor h (ef_covariance f) in
              let error := mat_vec 15 width gain residual in
              let f := ef_set f (ef_state f) (updated_covariance 15 width (ef_mode f) gain h (ef_covariance f) noise) in
              let f := inject_error_and_reset error f in
              (ef_set f (ef_state f) (symmetrized 15 (ef_covariance f)), Ok spread)
          | Err _ => (f, Err EsNotPositiveDefinite)
          | Panic => (f, Panic)
          end.
  (** error_state_kalman_filter.rs:703-716; [m] is MEASUREMENT_DIMENSION *)
  Definition ef_update_with_residual (m : nat) (model : StateFn) (residual : list T) (f : error_filter) : error_filter * Res unit EstimationError :=
    match fold_in m model residual (ef_measurement_noise f) f with
    | (f, Ok spread) => (ef_set_innovation f residual spread, Ok tt)
    | (f, Err e) => (f, Err e)
    | (f, Panic) => (f, Panic)
    end.
  (** error_state_kalman_filter.rs:634-647 *)
  Definition ef_update (m : nat) (model : StateFn) (measurement : list T) (f : error_filter) : error_filter * Res unit EstimationError :=
    if negb (vec_is_finite measurement) then (f, Err EsNonFinite)
    else ef_update_with_residual m model (vec_sub measurement (model T NT (ef_state f))) f.
  (** error_state_kalman_filter.rs:728-741; [width] is OTHER_DIMENSION *)
  Definition ef_update_other (width : nat) (model : StateFn) (residual : list T) (noise : mat T) (f : error_filter) : error_filter * Res unit EstimationError :=
    match fold_in width model residual noise f with
    | (f, Ok _) => (f, Ok tt)
    | (f, Err e) => (f, Err e)
    | (f, Panic) => (f, Panic)
    end.
  (** error_state_kalman_filter.rs:851-860 *)
  Definition condition_covariance (minimum_eigenvalue : T) (f : error_filter) : error_filter * Res unit EstimationError :=
    match symmetric_eigendecomposition 15 (symmetrized 15 (ef_covariance f)) with
    | Ok directions => (ef_set f (ef_state f) (eigen_clamped 15 directions minimum_eigenvalue), Ok tt)
    | Err _ => (f, Err EsNonFinite)
    | Panic => (f, Panic)
    end.
  (** error_state_kalman_filter.rs:889-896 *)
  Definition ef_normalized (m : nat) (f : error_filter) : Res T EstimationError := weighted_innovation m (ef_innovation f) (ef_spread f).
  (** error_state_kalman_filter.rs:908-919 *)
  Definition normalized_estimation_error_squared (truth : nominal_state T) (f : error_filter) : Res T EstimationError :=
    weighted_innovation 15 (error_from truth (ef_state f)) (ef_covariance f).
End ErrorState.
Arguments imu_noise : clear implicits.
Arguments error_filter : clear implicits.
