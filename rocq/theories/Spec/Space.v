(** Rigid motions of space: homogeneous matrices, velocities with their six coordinates, and their bracket. *)
From Coq Require Import Reals List Arith.
From Verif Require Import Base.Series Model.Quaternion Model.Lie Spec.Matrix Spec.Rotation Spec.Quaternion.
Import ListNotations.
Local Open Scope R_scope.

(** Two blocks on the diagonal, one above, nothing below *)
Definition stacked (n : nat) (a b c : matrix) : matrix := fun i j =>
  if Nat.ltb i n then (if Nat.ltb j n then a i j else b i (j - n)%nat) else (if Nat.ltb j n then 0 else c (i - n)%nat (j - n)%nat).
Definition column (p : point) : matrix := fun i _ => coordinate p i.
(** The four by four matrix of "apply [m], then shift by [p]", and a point with a one appended *)
Definition homogeneous (m : matrix) (p : point) : matrix := stacked 3 m (column p) unit_matrix.
Definition appended (p : point) : vector := fun i => if Nat.ltb i 3 then coordinate p i else 1.
(** A velocity: first the linear part, then the angular one; its six coordinates and its four by four matrix *)
Definition velocity := (point * point)%type.
Definition six (v : velocity) : vector := fun i => if Nat.ltb i 3 then coordinate (fst v) i else coordinate (snd v) (i - 3)%nat.
Definition of_six (w : vector) : velocity := ((w 0%nat, w 1%nat, w 2%nat), (w 3%nat, w 4%nat, w 5%nat)).
Definition velocity_matrix (v : velocity) : matrix := stacked 3 (cross_matrix (snd v)) (column (fst v)) zero_matrix.
(** The matrix taking a velocity to its bracket with [v] *)
Definition motion_ad (v : velocity) : matrix := stacked 3 (cross_matrix (snd v)) (cross_matrix (fst v)) (cross_matrix (snd v)).
(** A proper rotation and a shift *)
Definition space_motion (m : matrix) : Prop := exists r p, proper_rotation r /\ equal 4 4 m (homogeneous r p).
(** The stored quaternion has norm one. *)
Definition unit_se3 (a : se3 R) : Prop := unit_quaternion (se3_rotation a).
(** The same motion: equal shifts, and rotations that agree on every point *)
Definition same_motion (a b : se3 R) : Prop := se3_translation a = se3_translation b /\ (se3_rotation a = se3_rotation b \/ se3_rotation a = quat_neg (se3_rotation b)).
Definition velocity_of (t : twist R) : velocity := (linear t, angular t).
Definition wrench_of (w : wrench R) : velocity := (force w, torque w).
