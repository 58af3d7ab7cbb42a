(** crates/multicalc/src/estimation/unscented_kalman_filter.rs, over any scalar.  [n] is STATE_DIMENSION and [m] is
    MEASUREMENT_DIMENSION.  The models are only ever evaluated at the filter's own scalar, so they are plain functions here.
    A method on [&mut self] gives back the filter it leaves and its result. *)
From Coq Require Import ZArith List Bool Arith.
From Verif Require Import Base.Scalar Base.Lists Model.Errors Model.Vector Model.Matrix Model.Lu Model.Cholesky Model.Kalman.
Import ListNotations.

Section Unscented.
  Context {T : Type} {NT : Num T}.
  Local Open Scope num_scope.

  (** unscented_kalman_filter.rs:72-90 *)
  Record UnscentedKalmanFilter := {
    ukf_state : list T; ukf_covariance : mat T; ukf_process_noise : mat T; ukf_measurement_noise : mat T;
    ukf_innovation : list T; ukf_spread : mat T; ukf_centre : list T; ukf_plus : mat T; ukf_minus : mat T;
    ukf_alpha : T; ukf_beta : T; ukf_kappa : T; ukf_regularization : T }.

  (** unscented_kalman_filter.rs:101-137 *)
  Definition ukf_new (n m : nat) (state : list T) (covariance process_noise measurement_noise : mat T) : UnscentedKalmanFilter :=
    let seeded := mat_fn n n (fun row _ => vget state row) in
    {| ukf_state := state; ukf_covariance := covariance; ukf_process_noise := process_noise; ukf_measurement_noise := measurement_noise;
       ukf_innovation := vec_zeros m; ukf_spread := mat_zeros m m; ukf_centre := state; ukf_plus := seeded; ukf_minus := seeded;
       ukf_alpha := of_ratio 1 1000; ukf_beta := two; ukf_kappa := zero; ukf_regularization := zero |}.

  (** unscented_kalman_filter.rs:231-233, and 177 with the new tuning *)
  Definition spread_factor (n : nat) (alpha kappa : T) : T := alpha * alpha * (of_Z (Z.of_nat n) + kappa).
  (** what the methods below assign *)
  Definition ukf_tuned (f : UnscentedKalmanFilter) (alpha beta kappa regularization : T) : UnscentedKalmanFilter :=
    {| ukf_state := ukf_state f; ukf_covariance := ukf_covariance f; ukf_process_noise := ukf_process_noise f; ukf_measurement_noise := ukf_measurement_noise f;
       ukf_innovation := ukf_innovation f; ukf_spread := ukf_spread f; ukf_centre := ukf_centre f; ukf_plus := ukf_plus f; ukf_minus := ukf_minus f;
       ukf_alpha := alpha; ukf_beta := beta; ukf_kappa := kappa; ukf_regularization := regularization |}.
  Definition ukf_set (f : UnscentedKalmanFilter) (state : list T) (covariance : mat T) : UnscentedKalmanFilter :=
    {| ukf_state := state; ukf_covariance := covariance; ukf_process_noise := ukf_process_noise f; ukf_measurement_noise := ukf_measurement_noise f;
       ukf_innovation := ukf_innovation f; ukf_spread := ukf_spread f; ukf_centre := ukf_centre f; ukf_plus := ukf_plus f; ukf_minus := ukf_minus f;
       ukf_alpha := ukf_alpha f; ukf_beta := ukf_beta f; ukf_kappa := ukf_kappa f; ukf_regularization := ukf_regularization f |}.
  Definition ukf_set_points (f : UnscentedKalmanFilter) (centre : list T) (plus minus : mat T) : UnscentedKalmanFilter :=
    {| ukf_state := ukf_state f; ukf_covariance := ukf_covariance f; ukf_process_noise := ukf_process_noise f; ukf_measurement_noise := ukf_measurement_noise f;
       ukf_innovation := ukf_innovation f; ukf_spread := ukf_spread f; ukf_centre := centre; ukf_plus := plus; ukf_minus := minus;
       ukf_alpha := ukf_alpha f; ukf_beta := ukf_beta f; ukf_kappa := ukf_kappa f; ukf_regularization := ukf_regularization f |}.
  Definition ukf_set_innovation (f : UnscentedKalmanFilter) (innovation : list T) (spread : mat T) : UnscentedKalmanFilter :=
    {| ukf_state := ukf_state f; ukf_covariance := ukf_covariance f; ukf_process_noise := ukf_process_noise f; ukf_measurement_noise := ukf_measurement_noise f;
       ukf_innovation := innovation; ukf_spread := spread; ukf_centre := ukf_centre f; ukf_plus := ukf_plus f; ukf_minus := ukf_minus f;
       ukf_alpha := ukf_alpha f; ukf_beta := ukf_beta f; ukf_kappa := ukf_kappa f; ukf_regularization := ukf_regularization f |}.
  (** unscented_kalman_filter.rs:213-225 (both setters at once) *)
  Definition ukf_set_noise (f : UnscentedKalmanFilter) (process_noise measurement_noise : mat T) : UnscentedKalmanFilter :=
    {| ukf_state := ukf_state f; ukf_covariance := ukf_covariance f; ukf_process_noise := process_noise; ukf_measurement_noise := measurement_noise;
       ukf_innovation := ukf_innovation f; ukf_spread := ukf_spread f; ukf_centre := ukf_centre f; ukf_plus := ukf_plus f; ukf_minus := ukf_minus f;
       ukf_alpha := ukf_alpha f; ukf_beta := ukf_beta f; ukf_kappa := ukf_kappa f; ukf_regularization := ukf_regularization f |}.
  (** unscented_kalman_filter.rs:208-210 *)
  Definition ukf_set_state (f : UnscentedKalmanFilter) (state : list T) : UnscentedKalmanFilter := ukf_set f state (ukf_covariance f).

  (** unscented_kalman_filter.rs:173-185 *)
  Definition ukf_with_scaling (n : nat) (alpha beta kappa : T) (f : UnscentedKalmanFilter) : Res UnscentedKalmanFilter EstimationError :=
    if negb (is_finite alpha) || negb (is_finite beta) || negb (is_finite kappa) then Err EsInvalidTuning
    else
      let spread := spread_factor n alpha kappa in
      if negb (is_finite spread) || (spread <=? zero) then Err EsInvalidTuning
      else Ok (ukf_tuned f alpha beta kappa (ukf_regularization f)).
  (** unscented_kalman_filter.rs:196-202 *)
  Definition ukf_with_regularization (regularization : T) (f : UnscentedKalmanFilter) : Res UnscentedKalmanFilter EstimationError :=
    if negb (is_finite regularization) || (regularization <? zero) then Err EsInvalidTuning
    else Ok (ukf_tuned f (ukf_alpha f) (ukf_beta f) (ukf_kappa f) regularization).

  (** unscented_kalman_filter.rs:238-244 *)
  Definition ukf_weights (n : nat) (f : UnscentedKalmanFilter) : T * T * T :=
    let spread := spread_factor n (ukf_alpha f) (ukf_kappa f) in
    let centre_mean := (spread - of_Z (Z.of_nat n)) / spread in
    (centre_mean, centre_mean + (one - ukf_alpha f * ukf_alpha f + ukf_beta f), one / (two * spread)).
  (** unscented_kalman_filter.rs:249-261 *)
  Definition offset_directions (n : nat) (f : UnscentedKalmanFilter) : Res (mat T) EstimationError :=
    let scaled := mat_add (mat_scale n n (ukf_covariance f) (spread_factor n (ukf_alpha f) (ukf_kappa f))) (mat_scale n n (identity n) (ukf_regularization f)) in
    if negb (mat_is_finite scaled) then Err EsNonFinite
    else match cholesky n scaled with Ok lower => Ok lower | Err _ => Err EsNotPositiveDefinite | Panic => Panic end.

  Definition column_of (rows : nat) (a : mat T) (column : nat) : list T := from_fn rows (fun row => mget a row column).
  (** unscented_kalman_filter.rs:638-645 *)
  Definition add_weighted_outer_product (rows cols : nat) (matrix : mat T) (weight : T) (left right : list T) : mat T :=
    mat_add matrix (mat_fn rows cols (fun row column => weight * vget left row * vget right column)).
  (** unscented_kalman_filter.rs:316-321 and 380-385: the weighted average of [n] pairs of points and their centre *)
  Definition weighted_mean (n rows : nat) (centre_mean side : T) (centre : list T) (plus minus : mat T) : list T :=
    fold_left (fun mean column => vec_add mean (vec_scale (vec_add (column_of rows plus column) (column_of rows minus column)) side))
      (seq 0 n) (vec_scale centre centre_mean).
  (** unscented_kalman_filter.rs:325-336 with twice the same points, 420-425 and 442-453 (the readings with themselves), 426-431 and
      454-457 (the states with the readings): the weighted sum of the products of the deviations, on top of [start] *)
  Definition weighted_spread (n rows cols : nat) (start : mat T) (centre_covariance side : T)
      (centre : list T) (plus minus : mat T) (mean : list T) (centre' : list T) (plus' minus' : mat T) (mean' : list T) : mat T :=
    fold_left (fun sum column =>
      let sum := add_weighted_outer_product rows cols sum side (vec_sub (column_of rows plus column) mean) (vec_sub (column_of cols plus' column) mean') in
      add_weighted_outer_product rows cols sum side (vec_sub (column_of rows minus column) mean) (vec_sub (column_of cols minus' column) mean'))
      (seq 0 n) (add_weighted_outer_product rows cols start centre_covariance (vec_sub centre mean) (vec_sub centre' mean')).

  (** unscented_kalman_filter.rs:275-345 *)
  Definition ukf_predict (n : nat) (process_model : list T -> list T) (f : UnscentedKalmanFilter) : UnscentedKalmanFilter * Res unit EstimationError :=
    match offset_directions n f with
    | Ok directions =>
        let '(centre_mean, centre_covariance, side) := ukf_weights n f in
        let centre := process_model (ukf_state f) in
        let plus := mat_fn n n (fun row column => vget (process_model (vec_add (ukf_state f) (column_of n directions column))) row) in
        let minus := mat_fn n n (fun row column => vget (process_model (vec_sub (ukf_state f) (column_of n directions column))) row) in
        let f := ukf_set_points f centre plus minus in
        if negb (vec_is_finite centre) || negb (mat_is_finite plus) || negb (mat_is_finite minus) then (f, Err EsNonFinite)
        else
          let mean := weighted_mean n n centre_mean side centre plus minus in
          let covariance := weighted_spread n n n (ukf_process_noise f) centre_covariance side centre plus minus mean centre plus minus mean in
          if negb (vec_is_finite mean) || negb (mat_is_finite covariance) then (f, Err EsNonFinite)
          else (ukf_set f mean (symmetrized n covariance), Ok tt)
    | Err e => (f, Err e)
    | Panic => (f, Panic)
    end.

  (** unscented_kalman_filter.rs:349-399 *)
  Definition measurement_sigma_points (n m : nat) (measurement_model : list T -> list T) (f : UnscentedKalmanFilter) :
    Res (list T * mat T * mat T * list T) EstimationError :=
    let '(centre_mean, _, side) := ukf_weights n f in
    let centre := measurement_model (ukf_centre f) in
    let plus := mat_fn m n (fun row column => vget (measurement_model (column_of n (ukf_plus f) column)) row) in
    let minus := mat_fn m n (fun row column => vget (measurement_model (column_of n (ukf_minus f) column)) row) in
    let mean := weighted_mean n m centre_mean side centre plus minus in
    if negb (vec_is_finite centre) || negb (mat_is_finite plus) || negb (mat_is_finite minus) || negb (vec_is_finite mean) then Err EsNonFinite
    else Ok (centre, plus, minus, mean).

  (** unscented_kalman_filter.rs:403-485 *)
  Definition fold_in (n m : nat) (centre : list T) (plus minus : mat T) (predicted residual : list T) (f : UnscentedKalmanFilter) :
    UnscentedKalmanFilter * Res unit EstimationError :=
    let '(_, centre_covariance, side) := ukf_weights n f in
    let spread := symmetrized m (weighted_spread n m m (ukf_measurement_noise f) centre_covariance side centre plus minus predicted centre plus minus predicted) in
    let cross := weighted_spread n n m (mat_zeros n m) centre_covariance side (ukf_centre f) (ukf_plus f) (ukf_minus f) (ukf_state f) centre plus minus predicted in
    if negb (mat_is_finite spread) || negb (mat_is_finite cross) then (f, Err EsNonFinite)
    else
      match cholesky m spread with
      | Ok factor =>
          let gain := transpose m n (cholesky_solve_matrix m n factor (transpose n m cross)) in
          let f := ukf_set_innovation f residual spread in
          (ukf_set f (vec_add (ukf_state f) (mat_vec n m gain residual))
             (symmetrized n (mat_sub (ukf_covariance f) (mat_mul n m n (mat_mul n m m gain spread) (transpose n m gain)))), Ok tt)
      | Err _ => (f, Err EsNotPositiveDefinite)
      | Panic => (f, Panic)
      end.
  (** unscented_kalman_filter.rs:500-521 *)
  Definition ukf_update (n m : nat) (measurement_model : list T -> list T) (measurement : list T) (f : UnscentedKalmanFilter) :
    UnscentedKalmanFilter * Res unit EstimationError :=
    if negb (vec_is_finite measurement) then (f, Err EsNonFinite)
    else
      match measurement_sigma_points n m measurement_model f with
      | Ok (centre, plus, minus, predicted) => fold_in n m centre plus minus predicted (vec_sub measurement predicted) f
      | Err e => (f, Err e)
      | Panic => (f, Panic)
      end.
  (** unscented_kalman_filter.rs:584-598 *)
  Definition ukf_update_with_residual (n m : nat) (measurement_model : list T -> list T) (residual : list T) (f : UnscentedKalmanFilter) :
    UnscentedKalmanFilter * Res unit EstimationError :=
    if negb (vec_is_finite residual) then (f, Err EsNonFinite)
    else
      match measurement_sigma_points n m measurement_model f with
      | Ok (centre, plus, minus, predicted) => fold_in n m centre plus minus predicted residual f
      | Err e => (f, Err e)
      | Panic => (f, Panic)
      end.
  (** unscented_kalman_filter.rs:626-634 *)
  Definition ukf_normalized (m : nat) (f : UnscentedKalmanFilter) : Res T EstimationError := weighted_innovation m (ukf_innovation f) (ukf_spread f).
End Unscented.
Arguments UnscentedKalmanFilter : clear implicits.
