(** crates/multicalc/src/control/pid.rs, over any scalar. *)
From Coq Require Import ZArith List Bool.
From Verif Require Import Base.Scalar Model.Errors Model.Conditioning.

Section Pid.
  Context {T : Type} {NT : Num T}.
  Local Open Scope num_scope.
  Local Open Scope bool_scope.

  (** pid.rs:40-52 *)
  Record Pid := {
    pd_proportional_gain : T; pd_integral_gain : T; pd_derivative_gain : T; pd_timestep : T;
    pd_output_minimum : T; pd_output_maximum : T; pd_integral : T; pd_derivative_filter : OnePole T;
    pd_previous_measurement : T; pd_previous_error : T; pd_has_previous_measurement : bool
  }.

  (** [OnePoleLowPass::new(x)?] inside a method that returns a ControlError *)
  Definition signal_error {A} (r : Res A SignalError) : Res A ControlError :=
    match r with Ok a => Ok a | Err e => Err (CoSignal e) | Panic => Panic end.

  (** pid.rs:60-89 *)
  Definition pid_new (proportional_gain integral_gain derivative_gain timestep : T) : Res Pid ControlError :=
    if negb (is_finite proportional_gain) || negb (is_finite integral_gain) || negb (is_finite derivative_gain)
       || negb (is_finite timestep) then Err CoNonFinite
    else if timestep <=? zero then Err CoNonPositiveTimestep
    else
      match signal_error (one_pole_new one) with
      | Ok filter =>
          Ok {| pd_proportional_gain := proportional_gain; pd_integral_gain := integral_gain;
                pd_derivative_gain := derivative_gain; pd_timestep := timestep;
                pd_output_minimum := neg_infinity; pd_output_maximum := infinity; pd_integral := zero;
                pd_derivative_filter := filter; pd_previous_measurement := zero; pd_previous_error := zero;
                pd_has_previous_measurement := false |}
      | Err e => Err e
      | Panic => Panic
      end.

  (** pid.rs:95-105 *)
  Definition pid_with_output_limits (c : Pid) (minimum maximum : T) : Res Pid ControlError :=
    if is_nan minimum || is_nan maximum then Err CoNonFinite
    else if minimum >? maximum then Err CoInvalidOutputLimits
    else Ok {| pd_proportional_gain := pd_proportional_gain c; pd_integral_gain := pd_integral_gain c;
               pd_derivative_gain := pd_derivative_gain c; pd_timestep := pd_timestep c;
               pd_output_minimum := minimum; pd_output_maximum := maximum; pd_integral := pd_integral c;
               pd_derivative_filter := pd_derivative_filter c; pd_previous_measurement := pd_previous_measurement c;
               pd_previous_error := pd_previous_error c;
               pd_has_previous_measurement := pd_has_previous_measurement c |}.

  (** pid.rs:114-117 *)
  Definition pid_with_derivative_filter (c : Pid) (smoothing : T) : Res Pid ControlError :=
    match signal_error (one_pole_new smoothing) with
    | Ok filter =>
        Ok {| pd_proportional_gain := pd_proportional_gain c; pd_integral_gain := pd_integral_gain c;
              pd_derivative_gain := pd_derivative_gain c; pd_timestep := pd_timestep c;
              pd_output_minimum := pd_output_minimum c; pd_output_maximum := pd_output_maximum c;
              pd_integral := pd_integral c; pd_derivative_filter := filter;
              pd_previous_measurement := pd_previous_measurement c; pd_previous_error := pd_previous_error c;
              pd_has_previous_measurement := pd_has_previous_measurement c |}
    | Err e => Err e
    | Panic => Panic
    end.

  (** pid.rs:128-150; [OnePoleLowPass::value] (one_pole.rs:101-103) is its state *)
  Definition pid_set_gains (c : Pid) (proportional_gain integral_gain derivative_gain : T) : Res Pid ControlError :=
    if negb (is_finite proportional_gain) || negb (is_finite integral_gain) || negb (is_finite derivative_gain)
    then Err CoNonFinite
    else
      let integral :=
        if pd_has_previous_measurement c then
          let filtered_derivative := op_state (pd_derivative_filter c) in
          pd_integral c + (pd_proportional_gain c - proportional_gain) * pd_previous_error c
          + (pd_derivative_gain c - derivative_gain) * filtered_derivative
        else pd_integral c in
      Ok {| pd_proportional_gain := proportional_gain; pd_integral_gain := integral_gain;
            pd_derivative_gain := derivative_gain; pd_timestep := pd_timestep c;
            pd_output_minimum := pd_output_minimum c; pd_output_maximum := pd_output_maximum c;
            pd_integral := integral; pd_derivative_filter := pd_derivative_filter c;
            pd_previous_measurement := pd_previous_measurement c; pd_previous_error := pd_previous_error c;
            pd_has_previous_measurement := pd_has_previous_measurement c |}.

  (** pid.rs:162-182 *)
  Definition pid_resume_from (c : Pid) (output setpoint measurement : T) : Res Pid ControlError :=
    if negb (is_finite output) || negb (is_finite setpoint) || negb (is_finite measurement) then Err CoNonFinite
    else
      let error := setpoint - measurement in
      Ok {| pd_proportional_gain := pd_proportional_gain c; pd_integral_gain := pd_integral_gain c;
            pd_derivative_gain := pd_derivative_gain c; pd_timestep := pd_timestep c;
            pd_output_minimum := pd_output_minimum c; pd_output_maximum := pd_output_maximum c;
            pd_integral :=
              output - pd_proportional_gain c * error - pd_integral_gain c * error * pd_timestep c;
            pd_derivative_filter := one_pole_reset (pd_derivative_filter c);
            pd_previous_measurement := measurement; pd_previous_error := error;
            pd_has_previous_measurement := true |}.

  (** pid.rs:186-217 *)
  Definition pid_update (c : Pid) (setpoint measurement : T) : Pid * T :=
    let error := setpoint - measurement in
    let proportional_term := pd_proportional_gain c * error in
    let raw_derivative :=
      if pd_has_previous_measurement c then (pd_previous_measurement c - measurement) / pd_timestep c else zero in
    let '(filter, filtered) := one_pole_filter (pd_derivative_filter c) raw_derivative in
    let derivative_term := pd_derivative_gain c * filtered in
    let candidate_integral := pd_integral c + pd_integral_gain c * error * pd_timestep c in
    let unsaturated := proportional_term + candidate_integral + derivative_term in
    let output := min (max unsaturated (pd_output_minimum c)) (pd_output_maximum c) in
    let saturated_high := unsaturated >? pd_output_maximum c in
    let saturated_low := unsaturated <? pd_output_minimum c in
    let pushing_deeper := (saturated_high && (error >? zero)) || (saturated_low && (error <? zero)) in
    ({| pd_proportional_gain := pd_proportional_gain c; pd_integral_gain := pd_integral_gain c;
        pd_derivative_gain := pd_derivative_gain c; pd_timestep := pd_timestep c;
        pd_output_minimum := pd_output_minimum c; pd_output_maximum := pd_output_maximum c;
        pd_integral := if negb pushing_deeper then candidate_integral else pd_integral c;
        pd_derivative_filter := filter;
        pd_previous_measurement := measurement; pd_previous_error := error;
        pd_has_previous_measurement := true |}, output).

  (** pid.rs:220-226 *)
  Definition pid_reset (c : Pid) : Pid := {|
    pd_proportional_gain := pd_proportional_gain c; pd_integral_gain := pd_integral_gain c;
    pd_derivative_gain := pd_derivative_gain c; pd_timestep := pd_timestep c;
    pd_output_minimum := pd_output_minimum c; pd_output_maximum := pd_output_maximum c;
    pd_integral := zero; pd_derivative_filter := one_pole_reset (pd_derivative_filter c);
    pd_previous_measurement := zero; pd_previous_error := zero; pd_has_previous_measurement := false
  |}.
End Pid.
Arguments Pid T : clear implicits.
