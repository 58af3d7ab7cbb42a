(** A rigid body as the particles it is made of, moving in the world. *)
From Coq Require Import Reals List Arith.
From Coquelicot Require Import Coquelicot.
From Verif Require Import Base.Scalar Base.RNum Base.Series Model.Quaternion Model.Lie Model.RigidBody Spec.Space Spec.Matrix Spec.Rotation Spec.Quaternion Spec.Inertia Spec.AttitudeControl.
Import ListNotations.
Local Open Scope R_scope.

(** Reading the thirteen numbers: the place of the body's origin, its orientation, the velocity of the origin in world axes, the turning rate
    in body axes *)
Definition origin_of (x : list R) : point := (nth 0 x 0, nth 1 x 0, nth 2 x 0).
Definition facing_of (x : list R) : quaternion R := Quat (nth 3 x 0) (nth 4 x 0) (nth 5 x 0) (nth 6 x 0).
Definition speed_of (x : list R) : point := (nth 7 x 0, nth 8 x 0, nth 9 x 0).
Definition rate_of (x : list R) : point := (nth 10 x 0, nth 11 x 0, nth 12 x 0).
(** A motion of the body: at every time the thirteen numbers change as the state derivative says, under the load of that time *)
Definition body_motion (b : rigid_body R) (load : R -> wrench R) (x : R -> list R) : Prop :=
  forall t i, (i < 13)%nat -> is_derive (fun s => nth i (x s) 0) t (nth i (state_derivative b (x t) (load t)) 0).

(** Where the particle at [r] of the body is in the world, its velocity, and its acceleration when the origin picks up speed by [a] and the
    turning rate changes by [alpha] *)
Definition particle_place (x : list R) (r : point) : point := together (origin_of x) (transform_point (facing_of x) r).
Definition particle_velocity (x : list R) (r : point) : point := together (speed_of x) (transform_point (facing_of x) (outer (rate_of x) r)).
Definition particle_acceleration (q : quaternion R) (w a alpha r : point) : point :=
  together a (transform_point q (together (outer alpha r) (outer w (outer w r)))).
(** Newton's laws for all the particles together: what gravity leaves of mass times acceleration adds up to the force on the body, and its
    moments about the body's origin add up to the torque; force and torque are given in body axes *)
Definition obeys_newton (c : cloud) (g : point) (q : quaternion R) (w : point) (load : wrench R) (a alpha : point) : Prop :=
  let felt x := multiple (fst x) (together (particle_acceleration q w a alpha (snd x)) (multiple (-1) g)) in
  total_point felt c = transform_point q (force load) /\
  total_point (fun x => outer (transform_point q (snd x)) (felt x)) c = transform_point q (torque load).

(** Momentum, moment of momentum about the world's origin, and energy of the particles *)
Definition particle_momentum (c : cloud) (x : list R) : point := total_point (fun p => multiple (fst p) (particle_velocity x (snd p))) c.
Definition particle_spin (c : cloud) (x : list R) : point := total_point (fun p => outer (particle_place x (snd p)) (multiple (fst p) (particle_velocity x (snd p)))) c.
Definition particle_energy (c : cloud) (g : point) (x : list R) : R :=
  total (fun p => fst p * (/ 2 * inner (particle_velocity x (snd p)) (particle_velocity x (snd p)) - inner g (particle_place x (snd p)))) c.
