(** A free rigid body and what the forces on it do to it.

    Models crates/multicalc/src/dynamics/rigid_body.rs over any scalar.  A [Vector<13, T>] is the list of its entries. *)
From Coq Require Import ZArith List Bool Arith.
From Verif Require Import Base.Scalar Base.Lists Model.Errors Model.Vector Model.Matrix Model.Lu Model.Cholesky Model.Quaternion Model.Lie Model.Ode.
Import ListNotations.

(** error.rs:249-256 *)
Inductive DynamicsError := DyNonFinite | DyNonPositiveInertia | DyLinalg (e : LinalgError).
(** rigid_body.rs:47-52 *)
Record rigid_body (T : Type) := { rb_inertia : inertia T; rb_inverse : mat T; rb_gravity : vec3 T }.
Arguments rb_inertia {T}. Arguments rb_inverse {T}. Arguments rb_gravity {T}.
(** rigid_body.rs:379-383 *)
Record body_acceleration (T : Type) := { ba_linear : vec3 T; ba_angular : vec3 T }.
Arguments ba_linear {T}. Arguments ba_angular {T}.

Section RigidBody.
  Context {T : Type} {NT : Num T}.
  Local Open Scope num_scope.

  (** rigid_body.rs:63-77 *)
  Definition rigid_body_new (b : inertia T) (gravity : vec3 T) : Res (rigid_body T) DynamicsError :=
    if negb (inertia_is_finite b) || negb (is_finite3 gravity) then Err DyNonFinite
    else match cholesky 3 (rotational_inertia b) with
    | Ok _ => match mat_inverse 3 (rotational_inertia b) with
              | Ok inverse => Ok {| rb_inertia := b; rb_inverse := inverse; rb_gravity := gravity |}
              | Err e => Err (DyLinalg e)
              | Panic => Panic
              end
    | Err _ => Err DyNonPositiveInertia
    | Panic => Panic
    end.
  Definition mat_vec3 (m : mat T) (v : vec3 T) : vec3 T := of_list3 (mat_vec 3 3 m (list3 v)).
  (** rigid_body.rs:138-167 *)
  Definition accelerations (body : rigid_body T) (orientation : so3 T) (angular_rate : vec3 T) (applied_wrench : wrench T) : body_acceleration T :=
    let mass := mass (rb_inertia body) in
    let balance_point := center_of_mass (rb_inertia body) in
    let rotational := rotational_inertia (rb_inertia body) in
    let force := force applied_wrench in
    let turn_about_balance_point := sub3 (torque applied_wrench) (cross3 balance_point force) in
    let spin_resistance := cross3 angular_rate (mat_vec3 rotational angular_rate) in
    let angular := mat_vec3 (rb_inverse body) (sub3 turn_about_balance_point spin_resistance) in
    let balance_point_acceleration := add3 (scale3 (so3_act orientation force) (one / mass)) (rb_gravity body) in
    let swing := add3 (cross3 angular balance_point) (cross3 angular_rate (cross3 angular_rate balance_point)) in
    {| ba_linear := sub3 balance_point_acceleration (so3_act orientation swing); ba_angular := angular |}.
  (** rigid_body.rs:222-257 *)
  Definition stepped (body : rigid_body T) (state : free_joint T) (applied_wrench : wrench T) (timestep : T) : free_joint T :=
    let orientation := se3_rotation (fj_pose state) in
    let position := se3_translation (fj_pose state) in
    let linear_velocity := linear (fj_velocity state) in
    let angular_rate := angular (fj_velocity state) in
    let h := timestep * half in
    let at_start := accelerations body orientation angular_rate applied_wrench in
    let half_way_orientation := attitude_step orientation angular_rate h in
    let half_way_linear_velocity := add3 linear_velocity (scale3 (ba_linear at_start) h) in
    let half_way_angular_rate := add3 angular_rate (scale3 (ba_angular at_start) h) in
    let half_way := accelerations body half_way_orientation half_way_angular_rate applied_wrench in
    let next_orientation := attitude_step orientation half_way_angular_rate timestep in
    let next_position := add3 position (scale3 half_way_linear_velocity timestep) in
    let next_linear_velocity := add3 linear_velocity (scale3 (ba_linear half_way) timestep) in
    let next_angular_rate := add3 angular_rate (scale3 (ba_angular half_way) timestep) in
    FreeJoint (SE3 next_orientation next_position) (Twist next_linear_velocity next_angular_rate).
  (** rigid_body.rs:303-333 *)
  Definition state_derivative (body : rigid_body T) (state : list T) (applied_wrench : wrench T) : list T :=
    let at_ := vget state in
    let stored := Quat (at_ 3%nat) (at_ 4%nat) (at_ 5%nat) (at_ 6%nat) in
    match quat_try_normalized stored with
    | None => vec_zeros 13
    | Some unit =>
        let angular_rate := (at_ 10%nat, at_ 11%nat, at_ 12%nat) in
        let acceleration := accelerations body (so3_from_quaternion unit) angular_rate applied_wrench in
        let '(Quat w x y z) := stored in
        let '(rate_x, rate_y, rate_z) := angular_rate in
        let facing := [half * (- x * rate_x - y * rate_y - z * rate_z); half * (w * rate_x + y * rate_z - z * rate_y);
                       half * (w * rate_y + z * rate_x - x * rate_z); half * (w * rate_z + x * rate_y - y * rate_x)] in
        [at_ 7%nat; at_ 8%nat; at_ 9%nat] ++ facing ++ list3 (ba_linear acceleration) ++ list3 (ba_angular acceleration)
    end.
  (** rigid_body.rs:341-353 *)
  Definition state_vector_from_free_joint (state : free_joint T) : list T :=
    let '(place, (w, x, y, z)) := generalized_position state in
    let '(lin, ang) := generalized_velocity state in
    list3 place ++ [w; x; y; z] ++ list3 lin ++ list3 ang.
  (** rigid_body.rs:360-373 *)
  Definition free_joint_from_state_vector (state : list T) : option (free_joint T) :=
    let at_ := vget state in
    from_generalized_vectors (at_ 0%nat, at_ 1%nat, at_ 2%nat) (at_ 3%nat, at_ 4%nat, at_ 5%nat, at_ 6%nat) ((at_ 7%nat, at_ 8%nat, at_ 9%nat), (at_ 10%nat, at_ 11%nat, at_ 12%nat)).
End RigidBody.
