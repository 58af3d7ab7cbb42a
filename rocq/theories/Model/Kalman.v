(** crates/multicalc/src/estimation/{kalman_filter,extended_kalman_filter,unscented_kalman_filter,models}.rs, over any scalar.
    [n] is STATE_DIMENSION and [m] is MEASUREMENT_DIMENSION; the compile-time checks that neither is zero are hypotheses of the
    theorems that need them.  A method on [&mut self] gives back the filter it leaves and its result. *)
From Coq Require Import ZArith List Bool Arith.
From Verif Require Import Base.Scalar Base.Lists Model.Errors Model.Vector Model.Matrix Model.Lu Model.Cholesky Model.Derivative.
Import ListNotations.

(** crates/multicalc/src/error.rs:150-164, enum EstimationError *)
Inductive EstimationError :=
| EsNotPositiveDefinite | EsNonFinite | EsDiff (e : DiffError) | EsWeightsDegenerate | EsInvalidTuning | EsStateIndexOutOfRange.

(** kalman_filter.rs:22-33 *)
Inductive CovarianceUpdate := Joseph | Naive.

Section Kalman.
  Context {T : Type} {NT : Num T}.
  Local Open Scope num_scope.

  (** ** The part of an update that the linear and the extended filter share *)

  (** kalman_filter.rs:263-264, extended_kalman_filter.rs:350-352; [h] is the measurement matrix *)
  Definition spread_of_innovation (n m : nat) (h covariance noise : mat T) : mat T :=
    mat_add (mat_mul m n m (mat_mul m n n h covariance) (transpose m n h)) noise.
  (** kalman_filter.rs:271-277, extended_kalman_filter.rs:359-365: the gain, from the factor of the innovation covariance *)
  Definition gain_of (n m : nat) (factor h covariance : mat T) : mat T :=
    transpose m n (cholesky_solve_matrix m n factor (mat_mul m n n h (transpose n n covariance))).
  (** kalman_filter.rs:281-290, extended_kalman_filter.rs:369-378 *)
  Definition updated_covariance (n m : nat) (mode : CovarianceUpdate) (gain h covariance noise : mat T) : mat T :=
    let residual := mat_sub (identity n) (mat_mul n m n gain h) in
    match mode with
    | Joseph => mat_add (mat_mul n n n (mat_mul n n n residual covariance) (transpose n n residual))
                        (mat_mul n m n (mat_mul n m m gain noise) (transpose n m gain))
    | Naive => mat_mul n n n residual covariance
    end.
  (** kalman_filter.rs:320-328, extended_kalman_filter.rs:409-417, unscented_kalman_filter.rs:626-634 *)
  Definition weighted_innovation (m : nat) (innovation : list T) (spread : mat T) : Res T EstimationError :=
    match cholesky m spread with
    | Ok factor => Ok (dot innovation (cholesky_solve m factor innovation))
    | Err _ => Err EsNotPositiveDefinite
    | Panic => Panic
    end.

  (** ** kalman_filter.rs *)

  (** kalman_filter.rs:47-59 *)
  Record KalmanModel := { m_state_transition : mat T; m_measurement_model : mat T; m_process_noise : mat T; m_measurement_noise : mat T }.
  (** kalman_filter.rs:102-113 *)
  Record KalmanFilter := {
    kf_state : list T; kf_covariance : mat T; kf_transition : mat T; kf_model : mat T; kf_process_noise : mat T;
    kf_measurement_noise : mat T; kf_innovation : list T; kf_spread : mat T; kf_mode : CovarianceUpdate }.

  (** kalman_filter.rs:121-149 *)
  Definition kf_new (m : nat) (state : list T) (covariance : mat T) (model : KalmanModel) : KalmanFilter :=
    {| kf_state := state; kf_covariance := covariance; kf_transition := m_state_transition model; kf_model := m_measurement_model model;
       kf_process_noise := m_process_noise model; kf_measurement_noise := m_measurement_noise model;
       kf_innovation := vec_zeros m; kf_spread := mat_zeros m m; kf_mode := Joseph |}.
  (** kalman_filter.rs:177-180 *)
  Definition kf_with_mode (f : KalmanFilter) (mode : CovarianceUpdate) : KalmanFilter :=
    {| kf_state := kf_state f; kf_covariance := kf_covariance f; kf_transition := kf_transition f; kf_model := kf_model f;
       kf_process_noise := kf_process_noise f; kf_measurement_noise := kf_measurement_noise f;
       kf_innovation := kf_innovation f; kf_spread := kf_spread f; kf_mode := mode |}.
  (** what the methods below assign *)
  Definition kf_set (f : KalmanFilter) (state : list T) (covariance : mat T) : KalmanFilter :=
    {| kf_state := state; kf_covariance := covariance; kf_transition := kf_transition f; kf_model := kf_model f;
       kf_process_noise := kf_process_noise f; kf_measurement_noise := kf_measurement_noise f;
       kf_innovation := kf_innovation f; kf_spread := kf_spread f; kf_mode := kf_mode f |}.
  Definition kf_set_innovation (f : KalmanFilter) (innovation : list T) (spread : mat T) : KalmanFilter :=
    {| kf_state := kf_state f; kf_covariance := kf_covariance f; kf_transition := kf_transition f; kf_model := kf_model f;
       kf_process_noise := kf_process_noise f; kf_measurement_noise := kf_measurement_noise f;
       kf_innovation := innovation; kf_spread := spread; kf_mode := kf_mode f |}.
  Definition kf_set_model (f : KalmanFilter) (model : KalmanModel) : KalmanFilter :=
    {| kf_state := kf_state f; kf_covariance := kf_covariance f; kf_transition := m_state_transition model; kf_model := m_measurement_model model;
       kf_process_noise := m_process_noise model; kf_measurement_noise := m_measurement_noise model;
       kf_innovation := kf_innovation f; kf_spread := kf_spread f; kf_mode := kf_mode f |}.
  Definition kf_model_of (f : KalmanFilter) : KalmanModel :=
    {| m_state_transition := kf_transition f; m_measurement_model := kf_model f; m_process_noise := kf_process_noise f; m_measurement_noise := kf_measurement_noise f |}.
  (** kalman_filter.rs:183-185, 188-193, 196-201, 204-209, 212-217 *)
  Definition kf_set_state (f : KalmanFilter) (state : list T) : KalmanFilter := kf_set f state (kf_covariance f).
  Definition kf_set_transition (f : KalmanFilter) (x : mat T) : KalmanFilter :=
    kf_set_model f {| m_state_transition := x; m_measurement_model := kf_model f; m_process_noise := kf_process_noise f; m_measurement_noise := kf_measurement_noise f |}.
  Definition kf_set_process_noise (f : KalmanFilter) (x : mat T) : KalmanFilter :=
    kf_set_model f {| m_state_transition := kf_transition f; m_measurement_model := kf_model f; m_process_noise := x; m_measurement_noise := kf_measurement_noise f |}.
  Definition kf_set_measurement_model (f : KalmanFilter) (x : mat T) : KalmanFilter :=
    kf_set_model f {| m_state_transition := kf_transition f; m_measurement_model := x; m_process_noise := kf_process_noise f; m_measurement_noise := kf_measurement_noise f |}.
  Definition kf_set_measurement_noise (f : KalmanFilter) (x : mat T) : KalmanFilter :=
    kf_set_model f {| m_state_transition := kf_transition f; m_measurement_model := kf_model f; m_process_noise := kf_process_noise f; m_measurement_noise := x |}.

  (** kalman_filter.rs:238-242, and extended_kalman_filter.rs:258-259 with the jacobian as the transition *)
  Definition predicted_covariance (n : nat) (transition covariance noise : mat T) : mat T :=
    mat_add (mat_mul n n n (mat_mul n n n transition covariance) (transpose n n transition)) noise.
  (** kalman_filter.rs:222-225 *)
  Definition kf_predict (n : nat) (f : KalmanFilter) : KalmanFilter :=
    kf_set f (mat_vec n n (kf_transition f) (kf_state f)) (predicted_covariance n (kf_transition f) (kf_covariance f) (kf_process_noise f)).
  (** kalman_filter.rs:229-236; [c] is CONTROL_DIMENSION *)
  Definition kf_predict_with_control (n c : nat) (control_model : mat T) (control_input : list T) (f : KalmanFilter) : KalmanFilter :=
    kf_set f (vec_add (mat_vec n n (kf_transition f) (kf_state f)) (mat_vec n c control_model control_input))
      (predicted_covariance n (kf_transition f) (kf_covariance f) (kf_process_noise f)).

  (** kalman_filter.rs:252-292 *)
  Definition kf_update (n m : nat) (measurement : list T) (f : KalmanFilter) : KalmanFilter * Res unit EstimationError :=
    if negb (vec_is_finite measurement) then (f, Err EsNonFinite)
    else
      let h := kf_model f in
      let innovation := vec_sub measurement (mat_vec m n h (kf_state f)) in
      let spread := spread_of_innovation n m h (kf_covariance f) (kf_measurement_noise f) in
      let f := kf_set_innovation f innovation spread in
      if negb (mat_is_finite spread) then (f, Err EsNonFinite)
      else
        match cholesky m spread with
        | Ok factor =>
            let gain := gain_of n m factor h (kf_covariance f) in
            (kf_set f (vec_add (kf_state f) (mat_vec n m gain innovation))
               (updated_covariance n m (kf_mode f) gain h (kf_covariance f) (kf_measurement_noise f)), Ok tt)
        | Err _ => (f, Err EsNotPositiveDefinite)
        | Panic => (f, Panic)
        end.
  Definition kf_normalized (m : nat) (f : KalmanFilter) : Res T EstimationError := weighted_innovation m (kf_innovation f) (kf_spread f).

  (** ** extended_kalman_filter.rs *)

  (** extended_kalman_filter.rs:95-109 *)
  Record ExtendedKalmanFilter := {
    ekf_state : list T; ekf_covariance : mat T; ekf_process_noise : mat T; ekf_measurement_noise : mat T;
    ekf_innovation : list T; ekf_spread : mat T; ekf_mode : CovarianceUpdate; ekf_derivator : Derivator T }.
  (** extended_kalman_filter.rs:118-131, 142-171 *)
  Definition ekf_from_derivator (m : nat) (state : list T) (covariance process_noise measurement_noise : mat T) (d : Derivator T) : ExtendedKalmanFilter :=
    {| ekf_state := state; ekf_covariance := covariance; ekf_process_noise := process_noise; ekf_measurement_noise := measurement_noise;
       ekf_innovation := vec_zeros m; ekf_spread := mat_zeros m m; ekf_mode := Joseph; ekf_derivator := d |}.
  Definition ekf_new (m : nat) (state : list T) (covariance process_noise measurement_noise : mat T) : ExtendedKalmanFilter :=
    ekf_from_derivator m state covariance process_noise measurement_noise autodiff_multi.
  (** extended_kalman_filter.rs:206-209, 213-231 *)
  Definition ekf_with_mode (f : ExtendedKalmanFilter) (mode : CovarianceUpdate) : ExtendedKalmanFilter :=
    {| ekf_state := ekf_state f; ekf_covariance := ekf_covariance f; ekf_process_noise := ekf_process_noise f; ekf_measurement_noise := ekf_measurement_noise f;
       ekf_innovation := ekf_innovation f; ekf_spread := ekf_spread f; ekf_mode := mode; ekf_derivator := ekf_derivator f |}.
  Definition ekf_set (f : ExtendedKalmanFilter) (state : list T) (covariance : mat T) : ExtendedKalmanFilter :=
    {| ekf_state := state; ekf_covariance := covariance; ekf_process_noise := ekf_process_noise f; ekf_measurement_noise := ekf_measurement_noise f;
       ekf_innovation := ekf_innovation f; ekf_spread := ekf_spread f; ekf_mode := ekf_mode f; ekf_derivator := ekf_derivator f |}.
  Definition ekf_set_innovation (f : ExtendedKalmanFilter) (innovation : list T) (spread : mat T) : ExtendedKalmanFilter :=
    {| ekf_state := ekf_state f; ekf_covariance := ekf_covariance f; ekf_process_noise := ekf_process_noise f; ekf_measurement_noise := ekf_measurement_noise f;
       ekf_innovation := innovation; ekf_spread := spread; ekf_mode := ekf_mode f; ekf_derivator := ekf_derivator f |}.
  Definition ekf_set_noise (f : ExtendedKalmanFilter) (process_noise measurement_noise : mat T) : ExtendedKalmanFilter :=
    {| ekf_state := ekf_state f; ekf_covariance := ekf_covariance f; ekf_process_noise := process_noise; ekf_measurement_noise := measurement_noise;
       ekf_innovation := ekf_innovation f; ekf_spread := ekf_spread f; ekf_mode := ekf_mode f; ekf_derivator := ekf_derivator f |}.

  (** extended_kalman_filter.rs:242-261 *)
  Definition ekf_predict (n : nat) (process_model : VectorFn) (f : ExtendedKalmanFilter) : ExtendedKalmanFilter * Res unit EstimationError :=
    match jacobian (ekf_derivator f) process_model n (ekf_state f) with
    | Ok transition =>
        let propagated := process_model T NT (ekf_state f) in
        if negb (vec_is_finite propagated) || negb (mat_is_finite transition) then (f, Err EsNonFinite)
        else (ekf_set f propagated (predicted_covariance n transition (ekf_covariance f) (ekf_process_noise f)), Ok tt)
    | Err e => (f, Err (EsDiff e))
    | Panic => (f, Panic)
    end.
  (** extended_kalman_filter.rs:334-381 *)
  Definition ekf_update_with_residual (n m : nat) (measurement_model : VectorFn) (residual : list T) (f : ExtendedKalmanFilter) :
    ExtendedKalmanFilter * Res unit EstimationError :=
    if negb (vec_is_finite residual) then (f, Err EsNonFinite)
    else
      match jacobian (ekf_derivator f) measurement_model m (ekf_state f) with
      | Ok h =>
          let spread := spread_of_innovation n m h (ekf_covariance f) (ekf_measurement_noise f) in
          let f := ekf_set_innovation f residual spread in
          if negb (mat_is_finite spread) then (f, Err EsNonFinite)
          else
            match cholesky m spread with
            | Ok factor =>
                let gain := gain_of n m factor h (ekf_covariance f) in
                (ekf_set f (vec_add (ekf_state f) (mat_vec n m gain residual))
                   (updated_covariance n m (ekf_mode f) gain h (ekf_covariance f) (ekf_measurement_noise f)), Ok tt)
            | Err _ => (f, Err EsNotPositiveDefinite)
            | Panic => (f, Panic)
            end
      | Err e => (f, Err (EsDiff e))
      | Panic => (f, Panic)
      end.
  (** extended_kalman_filter.rs:273-286 *)
  Definition ekf_update (n m : nat) (measurement_model : VectorFn) (measurement : list T) (f : ExtendedKalmanFilter) :
    ExtendedKalmanFilter * Res unit EstimationError :=
    if negb (vec_is_finite measurement) then (f, Err EsNonFinite)
    else ekf_update_with_residual n m measurement_model (vec_sub measurement (measurement_model T NT (ekf_state f))) f.
  Definition ekf_normalized (m : nat) (f : ExtendedKalmanFilter) : Res T EstimationError := weighted_innovation m (ekf_innovation f) (ekf_spread f).

  (** ** models.rs *)

  (** models.rs:43-63, over any scalar (the code is generic over it); [timestep] is the f64 field already turned into the scalar *)
  Definition constant_turn (timestep : T) (state : list T) : list T :=
    let x := nth 0 state zero in let y := nth 1 state zero in let heading := nth 2 state zero in
    let speed := nth 3 state zero in let turn_rate := nth 4 state zero in
    let next_heading := heading + turn_rate * timestep in
    let '(next_x, next_y) :=
      if abs turn_rate >? of_ratio 1 1000000 then
        let radius := speed / turn_rate in
        (x + radius * (sin next_heading - sin heading), y + radius * (cos heading - cos next_heading))
      else (x + speed * cos heading * timestep, y + speed * sin heading * timestep) in
    [next_x; next_y; wrap_to_pi next_heading; speed; turn_rate].
  (** models.rs:104-111; [n] is STATE_DIMENSION *)
  Definition direct_new (n : nat) (indices : list nat) : Res (list nat) EstimationError :=
    if existsb (fun index => Nat.leb n index) indices then Err EsStateIndexOutOfRange else Ok indices.
  (** models.rs:124-134 *)
  Definition direct_eval (indices : list nat) (state : list T) : list T := map (fun index => nth index state zero) indices.
  (** models.rs:156-169 *)
  Definition wrapped_residual (m : nat) (measured predicted : list T) (angular : list nat) : list T :=
    from_fn m (fun component =>
      let difference := nth component measured zero - nth component predicted zero in
      if existsb (Nat.eqb component) angular then wrap_to_pi difference else difference).
End Kalman.
Arguments KalmanFilter : clear implicits.
Arguments KalmanModel : clear implicits.
Arguments ExtendedKalmanFilter : clear implicits.
