(** crates/multicalc/src/kinematics: differential_drive.rs, odometry.rs and unicycle.rs, over any scalar. *)
From Coq Require Import ZArith List Bool Arith.
From Verif Require Import Base.Scalar Base.Lists Model.Errors Model.Vector Model.Matrix Model.Quaternion Model.Lie.
Import ListNotations.

(** crates/multicalc/src/error.rs:96-131, enum KinematicsError *)
Inductive KinematicsError :=
| KiNonPositiveParameter | KiNonFinite | KiCapacityExceeded | KiJointCountMismatch | KiParentOutOfOrder | KiAxisHasNoDirection
| KiLimitsReversed | KiToolIndexOutOfRange | KiStateShapeMismatch | KiNonPositiveWeight | KiFloatingJointNotAtRoot
| KiConfigurationCapacityExceeded | KiOrientationHasNoDirection | KiContinuousJointHasLimits | KiStartCapacityExceeded
| KiCollisionCapacityExceeded | KiLinalg (e : LinalgError).

Section Drive.
  Context {T : Type} {NT : Num T}.
  Local Open Scope num_scope.

  (** differential_drive.rs:12-17, 22-28 *)
  Definition to_body (wheel_radius wheelbase left right : T) : T * T :=
    (wheel_radius * (right + left) * half, wheel_radius * (right - left) / wheelbase).
  Definition to_wheels (wheel_radius wheelbase linear angular : T) : T * T :=
    let half_span := angular * wheelbase * half in
    ((linear - half_span) / wheel_radius, (linear + half_span) / wheel_radius).

  (** differential_drive.rs:32-35, 39-42: WheelVelocities and WheelRotations; 49-52, 59-62: BodyTwist and BodyArc *)
  Record wheels := Wheels { wheel_left : T; wheel_right : T }.
  Record body := Body { body_linear : T; body_angular : T }.
  (** differential_drive.rs:89-94, 122-127, 155-160, 225-230 *)
  Definition wheels_zeros : wheels := Wheels zero zero.
  Definition body_zeros : body := Body zero zero.
  (** differential_drive.rs:164-166, 175-178, 184-187 *)
  Definition to_tangent (b : body) : vec3 T := (body_linear b, zero, body_angular b).
  Definition project_tangent (twist : vec3 T) : body := let '(linear, _, angular) := twist in Body linear angular.
  Definition tangent_slip (twist : vec3 T) : T := let '(_, lateral, _) := twist in lateral.
  (** differential_drive.rs:192-197 *)
  Definition integrate_over (b : body) (timestep : T) : body := Body (body_linear b * timestep) (body_angular b * timestep).

  (** differential_drive.rs:238-241 *)
  Record drive := Drive { wheel_radius : T; wheelbase : T }.
  (** differential_drive.rs:265-277 *)
  Definition drive_new (radius base : T) : Res drive KinematicsError :=
    if (negb (is_finite radius) || negb (is_finite base))%bool then Err KiNonFinite
    else if ((radius <=? zero) || (base <=? zero))%bool then Err KiNonPositiveParameter
    else Ok (Drive radius base).
  (** differential_drive.rs:296-299 and 317-325: the same map on velocities and on rotations; 304-312 and 330-338 *)
  Definition drive_forward (d : drive) (w : wheels) : body :=
    let '(linear, angular) := to_body (wheel_radius d) (wheelbase d) (wheel_left w) (wheel_right w) in Body linear angular.
  Definition drive_inverse (d : drive) (b : body) : wheels :=
    let '(l, r) := to_wheels (wheel_radius d) (wheelbase d) (body_linear b) (body_angular b) in Wheels l r.
  (** differential_drive.rs:343-345, 350-355 *)
  Definition wheel_rotations_from_travel (d : drive) (left_m right_m : T) : wheels :=
    Wheels (left_m / wheel_radius d) (right_m / wheel_radius d).
  Definition wheel_travel (d : drive) (w : wheels) : T * T := (wheel_left w * wheel_radius d, wheel_right w * wheel_radius d).

  (** odometry.rs:30-32 *)
  Definition integrate_arc (pose : se2 T) (arc : body) : se2 T :=
    se2_compose pose (se2_exp (body_linear arc, zero, body_angular arc)).
  (** differential_drive.rs:360-362 *)
  Definition odometry_step (d : drive) (pose : se2 T) (rotations : wheels) : se2 T := integrate_arc pose (drive_forward d rotations).
  (** odometry.rs:45-51 *)
  Definition odometry_eval (state : list T) : list T :=
    let pose := SE2 (so2_exp (vget state 2)) (vget state 0, vget state 1) in
    let next := se2_compose pose (se2_exp (vget state 3, zero, vget state 4)) in
    [fst (se2_translation next); snd (se2_translation next); so2_log (se2_rotation next)].

  (** unicycle.rs:40-49, 52-54: the field does not read the time *)
  Definition unicycle_derivative (b : body) (state : list T) : list T :=
    let velocity := body_linear b in
    let theta := vget state 2 in
    [velocity * cos theta; velocity * sin theta; body_angular b].
  Definition unicycle_field (b : body) (t : T) (state : list T) : list T := unicycle_derivative b state.
End Drive.
Arguments wheels : clear implicits.
Arguments body : clear implicits.
Arguments drive : clear implicits.
