(** crates/multicalc/src/plant: the rotor mixer and the rotor lag, over any scalar. *)
From Coq Require Import ZArith List Bool Arith.
From Verif Require Import Base.Scalar Base.Lists Model.Errors Model.Vector Model.Matrix.
Import ListNotations.

(** multirotor_mixing.rs:13-19 *)
Inductive RotorSpin := Clockwise | CounterClockwise.

Section Plant.
  Context {T : Type} {NT : Num T}.
  Local Open Scope num_scope.

  (** multirotor_mixing.rs:108-113 *)
  Record mixer := { allocation : mat T; distribution : mat T; minimum_thrust : T; maximum_thrust : T }.
  (** multirotor_mixing.rs:24-27 *)
  Record commands := { thrusts : list T; saturated : bool }.

  (** multirotor_mixing.rs:149-161; a position is the list of its three coordinates *)
  Definition layout (n : nat) (positions : list (list T)) (spins : list RotorSpin) (torque_per_thrust : T) : mat T :=
    mat_fn 4 n (fun row rotor =>
      let position := nth rotor positions [] in
      match row with
      | 0 => one
      | 1 => vget position 1
      | 2 => - vget position 0
      | _ => match nth rotor spins Clockwise with
             | Clockwise => torque_per_thrust
             | CounterClockwise => - torque_per_thrust
             end
      end).
  (** multirotor_mixing.rs:168-177: whether no entry of the round trip is off by more than the bar *)
  Definition round_trip_ok (round_trip : mat T) : bool :=
    forallb (fun row => forallb (fun col =>
      let wanted := if Nat.eqb row col then one else zero in
      negb (abs (mget round_trip row col - wanted) >? of_ratio 1 10000)) (seq 0 4)) (seq 0 4).
  (** multirotor_mixing.rs:128-185.  [pseudo_inverse] stands for [Matrix::pseudo_inverse] on a 4 x n matrix. *)
  Definition mixer_new (pseudo_inverse : mat T -> Res (mat T) LinalgError) (n : nat) (positions : list (list T)) (spins : list RotorSpin)
      (torque_per_thrust minimum maximum : T) : Res mixer PlantError :=
    if negb (is_finite torque_per_thrust) || negb (is_finite minimum) || negb (is_finite maximum)
       || existsb (fun position => negb (vec_is_finite position)) positions then Err PlNonFinite
    else if torque_per_thrust <=? zero then Err PlNonPositiveTorqueRatio
    else if maximum <=? minimum then Err PlInvalidThrustLimits
    else
      let a := layout n positions spins torque_per_thrust in
      match pseudo_inverse a with
      | Ok d =>
          if round_trip_ok (mat_mul 4 n 4 a d)
          then Ok {| allocation := a; distribution := d; minimum_thrust := minimum; maximum_thrust := maximum |}
          else Err PlRotorLayoutNotIndependent
      | Err e => Err (PlLinalg e)
      | Panic => Panic
      end.

  (** multirotor_mixing.rs:223-234, one rotor: its thrust and whether it hit a limit *)
  Definition limited (m : mixer) (value : T) : T * bool :=
    if value <? minimum_thrust m then (minimum_thrust m, true)
    else if value >? maximum_thrust m then (maximum_thrust m, true)
    else (value, false).
  (** multirotor_mixing.rs:215-237 *)
  Definition rotor_thrusts (n : nat) (m : mixer) (collective : T) (torque : list T) : commands :=
    let wanted := [collective; vget torque 0; vget torque 1; vget torque 2] in
    let share := mat_vec n 4 (distribution m) wanted in
    let each := from_fn n (fun rotor => limited m (vget share rotor)) in
    {| thrusts := map fst each; saturated := existsb snd each |}.
  (** multirotor_mixing.rs:244-250: force and torque *)
  Definition wrench (n : nat) (m : mixer) (ts : list T) : list T * list T :=
    let produced := mat_vec 4 n (allocation m) ts in
    ([zero; zero; vget produced 0], [vget produced 1; vget produced 2; vget produced 3]).

  (** multirotor_mixing.rs:264-296 *)
  Definition quadrotor_x (pseudo_inverse : mat T -> Res (mat T) LinalgError) (arm_length torque_per_thrust minimum maximum : T) : Res mixer PlantError :=
    if negb (is_finite arm_length) then Err PlNonFinite
    else if arm_length <=? zero then Err PlNonPositiveArmLength
    else
      let h := arm_length / sqrt two in
      mixer_new pseudo_inverse 4 [[h; - h; zero]; [- h; h; zero]; [h; h; zero]; [- h; - h; zero]]
        [Clockwise; Clockwise; CounterClockwise; CounterClockwise] torque_per_thrust minimum maximum.

  (** rotor_lag.rs:62-68 *)
  Record lag := { time_constant : T; timestep : T; carried_over : T; caught_up : T; lag_thrusts : list T }.
  (** rotor_lag.rs:84-105 *)
  Definition lag_new (n : nat) (tau dt : T) : Res lag PlantError :=
    if negb (is_finite tau) || negb (is_finite dt) then Err PlNonFinite
    else if tau <=? zero then Err PlNonPositiveTimeConstant
    else if dt <=? zero then Err PlNonPositiveTimestep
    else
      let ticks_of_lag := - dt / tau in
      Ok {| time_constant := tau; timestep := dt; carried_over := exp ticks_of_lag; caught_up := - expm1 ticks_of_lag;
            lag_thrusts := vec_zeros n |}.
  Definition with_state (l : lag) (ts : list T) : lag :=
    {| time_constant := time_constant l; timestep := timestep l; carried_over := carried_over l; caught_up := caught_up l; lag_thrusts := ts |}.
  (** rotor_lag.rs:110-115 *)
  Definition with_thrusts (l : lag) (ts : list T) : lag := with_state l ts.
  (** rotor_lag.rs:122-128 *)
  Definition stepped (n : nat) (l : lag) (commanded : list T) : lag :=
    with_state l (from_fn n (fun rotor => carried_over l * vget (lag_thrusts l) rotor + caught_up l * vget commanded rotor)).
  (** rotor_lag.rs:138-153 *)
  Definition stepped_over (n : nat) (l : lag) (commanded : list T) (dt : T) : lag :=
    let ticks_of_lag := - dt / time_constant l in
    let carried := exp ticks_of_lag in
    let caught := - expm1 ticks_of_lag in
    with_state l (from_fn n (fun rotor => carried * vget (lag_thrusts l) rotor + caught * vget commanded rotor)).
  (** rotor_lag.rs:157-159 *)
  Definition lag_rate (n : nat) (l : lag) (commanded : list T) : list T :=
    from_fn n (fun rotor => (vget commanded rotor - vget (lag_thrusts l) rotor) / time_constant l).
  (** rotor_lag.rs:184-186 *)
  Definition lag_reset (n : nat) (l : lag) : lag := with_state l (vec_zeros n).
End Plant.
