(** crates/multicalc/src/control/geometric_attitude.rs, over any scalar. *)
From Coq Require Import ZArith List Bool Arith.
From Verif Require Import Base.Scalar Base.Lists Model.Errors Model.Vector Model.Matrix Model.Lu Model.Cholesky Model.Quaternion Model.Lie.
Import ListNotations.

(** error.rs:201-244, enum ControlError: the constructors returned by geometric_attitude.rs *)
Inductive AttitudeControlError := AcNonFinite | AcNonPositiveGain | AcNotSymmetricInertia | AcNonPositiveInertia.

Section AttitudeControl.
  Context {T : Type} {NT : Num T}.
  Local Open Scope num_scope.

  (** geometric_attitude.rs:42-46 *)
  Record attitude_controller := AttitudeController { attitude_gain : T; rate_gain : T; control_inertia : mat T }.
  (** geometric_attitude.rs:59-78 *)
  Definition attitude_controller_new (attitude rate : T) (inertia : mat T) : Res attitude_controller AttitudeControlError :=
    if (negb (is_finite attitude) || negb (is_finite rate) || negb (mat_is_finite inertia))%bool then Err AcNonFinite
    else if ((attitude <=? zero) || (rate <=? zero))%bool then Err AcNonPositiveGain
    else if negb (is_symmetric 3 inertia) then Err AcNotSymmetricInertia
    else match cholesky 3 inertia with
         | Ok _ => Ok (AttitudeController attitude rate inertia)
         | Err _ => Err AcNonPositiveInertia
         | Panic => Panic
         end.
  (** matrix times vector at size three *)
  Definition mat_vec3 (m : mat T) (v : vec3 T) : vec3 T := of_list3 (mat_vec 3 3 m (list3 v)).
  (** geometric_attitude.rs:88, 105 *)
  Definition relative_attitude (attitude desired : so3 T) : mat T :=
    mat_mul 3 3 3 (transpose 3 3 (so3_to_matrix attitude)) (so3_to_matrix desired).
  (** geometric_attitude.rs:89, 106 *)
  Definition error_of_relative (relative : mat T) : vec3 T :=
    scale3 (so3_vee (mat_sub (transpose 3 3 relative) relative)) half.
  (** geometric_attitude.rs:87-90 *)
  Definition attitude_error (attitude desired : so3 T) : vec3 T := error_of_relative (relative_attitude attitude desired).
  (** geometric_attitude.rs:97-123 *)
  Definition control_torque (c : attitude_controller) (attitude : so3 T) (body_rate : vec3 T) (desired_attitude : so3 T)
      (desired_body_rate desired_body_rate_derivative : vec3 T) : vec3 T :=
    let relative := relative_attitude attitude desired_attitude in
    let attitude_error := error_of_relative relative in
    let carried_rate := mat_vec3 relative desired_body_rate in
    let carried_rate_change := mat_vec3 relative desired_body_rate_derivative in
    let rate_error := sub3 body_rate carried_rate in
    let spin_resistance := cross3 body_rate (mat_vec3 (control_inertia c) body_rate) in
    let following := mat_vec3 (control_inertia c) (sub3 (cross3 body_rate carried_rate) carried_rate_change) in
    sub3 (add3 (sub3 (scale3 attitude_error (- attitude_gain c)) (scale3 rate_error (rate_gain c))) spin_resistance) following.
End AttitudeControl.
Arguments attitude_controller : clear implicits.
