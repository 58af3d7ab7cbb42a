(** crates/multicalc/src/estimation/{attitude_correction,mahony_filter,madgwick_filter}.rs, over any scalar. [MahonyFilter] and
    [MadgwickFilter] have the same six fields up to the names of the two gains and the same methods up to [step]; one record
    stands for both. A method on [&mut self] gives back the filter it leaves and its result. *)
From Coq Require Import ZArith List Bool Arith.
From Verif Require Import Base.Scalar Base.Lists Model.Errors Model.Vector Model.Matrix Model.Quaternion Model.Lie Model.Ode Model.Kalman.
Import ListNotations.

Section AttitudeFilter.
  Context {T : Type} {NT : Num T}.
  Local Open Scope num_scope.

  (** attitude_correction.rs:10-18 *)
  Definition upward_reference : vec3 T := (zero, zero, one).
  Definition north_reference : vec3 T := (one, zero, zero).
  (** attitude_correction.rs:22-33 *)
  Definition readings_are_finite (gyroscope accelerometer : vec3 T) (magnetometer : option (vec3 T)) (timestep : T) : bool :=
    (is_finite3 gyroscope && is_finite3 accelerometer && is_finite timestep
      && match magnetometer with None => true | Some m => is_finite3 m end)%bool.
  (** attitude_correction.rs:36-39 *)
  Definition orientation_is_finite (q : so3 T) : bool :=
    (is_finite (qw q) && is_finite (qx q) && is_finite (qy q) && is_finite (qz q))%bool.
  (** attitude_correction.rs:62-64: what the accelerometer adds *)
  Definition accelerometer_correction (orientation : so3 T) (accelerometer upward : vec3 T) : vec3 T :=
    match try_normalized3 accelerometer with
    | None => (zero, zero, zero)
    | Some measured => cross3 measured (so3_act (so3_inverse orientation) upward)
    end.
  (** attitude_correction.rs:66-78: what the magnetometer adds *)
  Definition magnetometer_correction (orientation : so3 T) (magnetometer : option (vec3 T)) (upward north : vec3 T) : vec3 T :=
    match magnetometer with
    | None => (zero, zero, zero)
    | Some reading =>
        match try_normalized3 reading with
        | None => (zero, zero, zero)
        | Some measured =>
            let in_world := so3_act orientation measured in
            let vertical := dot3 in_world upward in
            let across := one - vertical * vertical in
            let horizontal := if zero <? across then sqrt across else zero in
            let reference := add3 (scale3 north horizontal) (scale3 upward vertical) in
            cross3 measured (so3_act (so3_inverse orientation) reference)
        end
    end.
  (** attitude_correction.rs:53-81; a sensor that adds nothing is modelled as adding zero *)
  Definition correction (orientation : so3 T) (accelerometer : vec3 T) (magnetometer : option (vec3 T)) (upward north : vec3 T) : vec3 T :=
    add3 (add3 (zero, zero, zero) (accelerometer_correction orientation accelerometer upward)) (magnetometer_correction orientation magnetometer upward north).
  (** attitude_correction.rs:89-95 *)
  Definition stepped_orientation (orientation : so3 T) (rate : vec3 T) (timestep : T) : so3 T :=
    so3_normalized (attitude_step orientation rate timestep).

  (** mahony_filter.rs:61-74, madgwick_filter.rs:64-77: [pull_gain] is proportional_gain or correction_gain, [offset_gain] is
      integral_gain or bias_gain *)
  Record attitude_filter := AttitudeFilter {
    af_orientation : so3 T; af_bias : vec3 T; pull_gain : T; offset_gain : T; af_upward : vec3 T; af_north : vec3 T }.
  (** mahony_filter.rs:83-92 *)
  Definition mahony_new (q : so3 T) : attitude_filter :=
    AttitudeFilter q (zero, zero, zero) one (of_ratio 1 10) upward_reference north_reference.
  (** madgwick_filter.rs:86-95 *)
  Definition madgwick_new (q : so3 T) : attitude_filter :=
    AttitudeFilter q (zero, zero, zero) (of_ratio 1 10) (of_ratio 1 100) upward_reference north_reference.
  (** mahony_filter.rs:96-106, 132-139, madgwick_filter.rs:99-110, 136-143 *)
  Definition with_pull_gain (f : attitude_filter) (k : T) := AttitudeFilter (af_orientation f) (af_bias f) k (offset_gain f) (af_upward f) (af_north f).
  Definition with_offset_gain (f : attitude_filter) (k : T) := AttitudeFilter (af_orientation f) (af_bias f) (pull_gain f) k (af_upward f) (af_north f).
  Definition set_orientation (f : attitude_filter) (q : so3 T) := AttitudeFilter q (af_bias f) (pull_gain f) (offset_gain f) (af_upward f) (af_north f).
  Definition set_bias (f : attitude_filter) (b : vec3 T) := AttitudeFilter (af_orientation f) b (pull_gain f) (offset_gain f) (af_upward f) (af_north f).
  (** mahony_filter.rs:114-129, madgwick_filter.rs:118-133 *)
  Definition with_reference_directions (f : attitude_filter) (upward north : vec3 T) : attitude_filter :=
    match try_normalized3 upward with
    | None => f
    | Some upward =>
        let levelled := sub3 north (scale3 upward (dot3 north upward)) in
        match try_normalized3 levelled with
        | None => f
        | Some north => AttitudeFilter (af_orientation f) (af_bias f) (pull_gain f) (offset_gain f) upward north
        end
    end.
  (** mahony_filter.rs:170-186, madgwick_filter.rs:179-191: the part of [step] after the correction *)
  Definition filter_move (f : attitude_filter) (gyroscope correction : vec3 T) (timestep : T) : attitude_filter * Res unit EstimationError :=
    let bias := sub3 (af_bias f) (scale3 (scale3 correction (offset_gain f)) timestep) in
    let rate := add3 (sub3 gyroscope bias) (scale3 correction (pull_gain f)) in
    let orientation := stepped_orientation (af_orientation f) rate timestep in
    if (negb (is_finite3 bias) || negb (orientation_is_finite orientation))%bool then (f, Err EsNonFinite)
    else (AttitudeFilter orientation bias (pull_gain f) (offset_gain f) (af_upward f) (af_north f), Ok tt).
  (** mahony_filter.rs:149-187; 193-200 is the step with no magnetometer *)
  Definition mahony_step (f : attitude_filter) (gyroscope accelerometer : vec3 T) (magnetometer : option (vec3 T)) (timestep : T) : attitude_filter * Res unit EstimationError :=
    if negb (readings_are_finite gyroscope accelerometer magnetometer timestep) then (f, Err EsNonFinite)
    else filter_move f gyroscope (correction (af_orientation f) accelerometer magnetometer (af_upward f) (af_north f)) timestep.
  (** madgwick_filter.rs:153-192; 198-205 is the step with no magnetometer *)
  Definition madgwick_step (f : attitude_filter) (gyroscope accelerometer : vec3 T) (magnetometer : option (vec3 T)) (timestep : T) : attitude_filter * Res unit EstimationError :=
    if negb (readings_are_finite gyroscope accelerometer magnetometer timestep) then (f, Err EsNonFinite)
    else
      let c := correction (af_orientation f) accelerometer magnetometer (af_upward f) (af_north f) in
      let direction := match try_normalized3 c with Some d => d | None => (zero, zero, zero) end in
      filter_move f gyroscope direction timestep.
End AttitudeFilter.
Arguments attitude_filter : clear implicits.
