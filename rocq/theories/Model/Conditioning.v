(** crates/multicalc/src/signal_processing/conditioning.rs and one_pole.rs *)
From Coq Require Import List Bool.
From Verif Require Import Base.Scalar Model.Errors.
Import ListNotations.

Section Conditioning.
  Context {T : Type} {NT : Num T}.
  Local Open Scope num_scope.

  (** conditioning.rs:31-36 *)
  Record Deadband := mkDeadband { db_threshold : T; db_recentered : bool }.
  (** conditioning.rs:75-86 *)
  Definition deadband_build (threshold : T) (recentered : bool) : Res Deadband SignalError :=
    if negb (is_finite threshold) then Err SigNonFinite
    else if threshold <? zero then Err SigNegativeThreshold
    else Ok (mkDeadband threshold recentered).
  (** conditioning.rs:44-46 *)
  Definition deadband_plain (threshold : T) := deadband_build threshold false.
  (** conditioning.rs:51-53 *)
  Definition deadband_recentered (threshold : T) := deadband_build threshold true.
  (** conditioning.rs:58-66 *)
  Definition deadband_apply (d : Deadband) (input : T) : T :=
    if abs input <=? db_threshold d then zero
    else if db_recentered d then input - copysign (db_threshold d) input
    else input.

  (** conditioning.rs:115-122 *)
  Record Hysteresis := mkHysteresis { hy_lower : T; hy_upper : T; hy_is_high : bool }.
  (** conditioning.rs:129-141 *)
  Definition hysteresis_new (lower upper : T) : Res Hysteresis SignalError :=
    if negb (is_finite lower) || negb (is_finite upper) then Err SigNonFinite
    else if lower >=? upper then Err SigThresholdsOutOfOrder
    else Ok (mkHysteresis lower upper false).
  (** conditioning.rs:146-153 *)
  Definition hysteresis_update (h : Hysteresis) (input : T) : Hysteresis * bool :=
    let is_high :=
      if input >? hy_upper h then true
      else if input <? hy_lower h then false
      else hy_is_high h in
    (mkHysteresis (hy_lower h) (hy_upper h) is_high, is_high).
  (** conditioning.rs:157-159 *)
  Definition hysteresis_reset (h : Hysteresis) : Hysteresis := mkHysteresis (hy_lower h) (hy_upper h) false.

  (** conditioning.rs:201-212 *)
  Record SlewRateLimiter := mkSlew {
    sl_rise : T; sl_fall : T; sl_timestep : T; sl_state : T; sl_initialized : bool }.
  (** conditioning.rs:220-237 *)
  Definition slew_new (rise fall timestep : T) : Res SlewRateLimiter SignalError :=
    if negb (is_finite rise) || negb (is_finite fall) || negb (is_finite timestep) then Err SigNonFinite
    else if timestep <=? zero then Err SigNonPositiveTimestep
    else if (rise <=? zero) || (fall <=? zero) then Err SigNonPositiveRate
    else Ok (mkSlew rise fall timestep zero false).
  (** conditioning.rs:242-244 *)
  Definition slew_symmetric (rate timestep : T) := slew_new rate rate timestep.
  (** conditioning.rs:249-269 *)
  Definition slew_filter (s : SlewRateLimiter) (target : T) : SlewRateLimiter * T :=
    if negb (sl_initialized s) then
      (mkSlew (sl_rise s) (sl_fall s) (sl_timestep s) target true, target)
    else
      let rise_step := sl_rise s * sl_timestep s in
      let fall_step := sl_fall s * sl_timestep s in
      let step := target - sl_state s in
      let state := sl_state s +
        (if step >? rise_step then rise_step
         else if step <? - fall_step then - fall_step
         else step) in
      (mkSlew (sl_rise s) (sl_fall s) (sl_timestep s) state (sl_initialized s), state).
  (** conditioning.rs:273-276 *)
  Definition slew_reset (s : SlewRateLimiter) : SlewRateLimiter :=
    mkSlew (sl_rise s) (sl_fall s) (sl_timestep s) zero false.

  (** one_pole.rs:32-36 *)
  Record OnePole := mkOnePole { op_smoothing : T; op_state : T; op_initialized : bool }.
  (** one_pole.rs:43-55 *)
  Definition one_pole_new (smoothing : T) : Res OnePole SignalError :=
    if negb (is_finite smoothing) then Err SigNonFinite
    else if (smoothing <? zero) || (smoothing >? one) then Err SigCoefficientOutOfRange
    else Ok (mkOnePole smoothing zero false).
  (** one_pole.rs:63-76 *)
  Definition one_pole_from_cutoff (cutoff_hz timestep : T) : Res OnePole SignalError :=
    if negb (is_finite cutoff_hz) || negb (is_finite timestep) then Err SigNonFinite
    else if timestep <=? zero then Err SigNonPositiveTimestep
    else if cutoff_hz <? zero then Err SigFrequencyOutOfRange
    else
      let a := two * pi * cutoff_hz * timestep in
      one_pole_new (a / (a + one)).
  (** one_pole.rs:81-89 *)
  Definition one_pole_filter (f : OnePole) (input : T) : OnePole * T :=
    let state :=
      if op_initialized f
      then op_smoothing f * input + (one - op_smoothing f) * op_state f
      else input in
    (mkOnePole (op_smoothing f) state true, state).
  (** one_pole.rs:93-96 *)
  Definition one_pole_reset (f : OnePole) : OnePole := mkOnePole (op_smoothing f) zero false.
End Conditioning.
Arguments Deadband T : clear implicits.
Arguments Hysteresis T : clear implicits.
Arguments SlewRateLimiter T : clear implicits.
Arguments OnePole T : clear implicits.
