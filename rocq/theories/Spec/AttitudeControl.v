(** A turning rigid body following a turning target: kinematics, Euler's equation, and how far apart the two are. *)
From Coq Require Import Reals List Arith.
From Coquelicot Require Import Coquelicot.
From Verif Require Import Base.Scalar Base.RNum Base.Series Model.Matrix Model.Quaternion Spec.Matrix Spec.Rotation Spec.Quaternion.
Import ListNotations.
Local Open Scope R_scope.

(** A path of points has the derivative [d] at [t]. *)
Definition changes (p : R -> point) (t : R) (d : point) : Prop := forall i, (i < 3)%nat -> is_derive (fun s => coordinate (p s) i) t (coordinate d i).
(** A path of rotations turns, at time [t], at the rate [w] seen from the turning body. *)
Definition turning (q : R -> quaternion R) (t : R) (w : point) : Prop := forall i j, (i < 3)%nat -> (j < 3)%nat ->
  is_derive (fun s => mget (to_rotation_matrix (q s)) i j) t (product 3 (mget (to_rotation_matrix (q t))) (cross_matrix w) i j).
(** The matrix applied to a point *)
Definition applied (m : matrix) (p : point) : point := (times 3 m (coordinate p) 0%nat, times 3 m (coordinate p) 1%nat, times 3 m (coordinate p) 2%nat).
(** Euler's equation: a body of inertia [j] turning at the rate [w], which changes by [dw], is under this torque. *)
Definition euler_torque (j : matrix) (w dw : point) : point := together (applied j dw) (outer w (applied j w)).
(** The target's rate, given in the target's frame, seen from the body; and the body's rate past it. *)
Definition seen_rate (q target : quaternion R) (rate : point) : point := inverse_transform_point q (transform_point target rate).
Definition excess_rate (q target : quaternion R) (w rate : point) : point := together w (multiple (-1) (seen_rate q target rate)).
(** How far the axes of the body are from those of the target: a quarter of the sum of their squared distances *)
Definition misalignment (q target : quaternion R) : R :=
  let gap e := together (transform_point q e) (multiple (-1) (transform_point target e)) in
  (inner (gap (1, 0, 0)) (gap (1, 0, 0)) + inner (gap (0, 1, 0)) (gap (0, 1, 0)) + inner (gap (0, 0, 1)) (gap (0, 0, 1))) / 4.
(** The kinetic energy of the excess rate and the energy of a spring of stiffness [k] on the misalignment *)
Definition energy (j : matrix) (k : R) (q target : quaternion R) (w rate : point) : R :=
  let e := excess_rate q target w rate in inner e (applied j e) / 2 + k * misalignment q target.
(** A body of inertia [j] and its target, both turning, with the torque [torque t] on the body at every time from 0 on *)
Definition tracking (j : matrix) (torque : R -> point) (q d : R -> quaternion R) (w wd dwd : R -> point) : Prop :=
  (forall t, unit_quaternion (q t) /\ unit_quaternion (d t)) /\
  forall t, 0 <= t -> turning q t (w t) /\ turning d t (wd t) /\ changes wd t (dwd t) /\ exists dw, changes w t dw /\ euler_torque j (w t) dw = torque t.
