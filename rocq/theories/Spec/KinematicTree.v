(** Kinematic trees: the trees that can be built, which numbers a joint reads, what a joint does to a point, and what it means for a moving
    frame to have a velocity. *)
From Coq Require Import Reals List Arith.
From Coquelicot Require Import Hierarchy Derive.
From Verif Require Import Base.Scalar Base.RNum Model.Errors Model.Quaternion Model.Lie Model.Drive Model.KinematicTree Spec.Matrix Spec.Rotation Spec.Quaternion Spec.Space.
Import ListNotations.

(** The trees some sequence of accepted joints leads to, from the empty one *)
Inductive built {T} {NT : Num T} (max_joints max_config : nat) : tree T -> Prop :=
| built_new : built max_joints max_config tree_new
| built_push t j parent t' : built max_joints max_config t -> push max_joints max_config j parent t = (t', Ok tt) -> built max_joints max_config t'.

(** How many numbers of a configuration, and of a list of rates, belong to a joint: a floating joint has a position and a quaternion, but
    three rates of its position and three of its orientation. *)
Definition readings_of {T} (j : joint T) : nat := match jt_kind j with Floating => 7 | _ => 1 end.
Definition rates_of {T} (j : joint T) : nat := match jt_kind j with Floating => 6 | _ => 1 end.
Definition total {A} (f : A -> nat) (l : list A) : nat := fold_right (fun a n => f a + n)%nat 0%nat l.

(** The numbers a joint holds, its limits apart *)
Definition numbers_of {T} (j : joint T) : list T :=
  let '(x, y, z) := se3_translation (jt_origin j) in let q := se3_rotation (jt_origin j) in let '(a, b, c) := jt_axis j in let '(d, e, f) := jt_anchor j in
  [x; y; z; qw q; qx q; qy q; qz q; a; b; c; d; e; f; jt_zero_offset j; jt_armature j; jt_damping j; jt_friction_loss j].
(** What a joint must satisfy to be accepted: there is room, its parent is already there, a floating joint is the first one and hangs from the
    world, its numbers are finite, its limits are in order and a continuous joint has none, and an axis it moves along or about has a direction. *)
Definition acceptable {T} {NT : Num T} (max_joints max_config : nat) (j : joint T) (parent : JointParent) (t : tree T) : Prop :=
  tree_len t <> max_joints /\ (forall i, parent = OnJoint i -> (i < tree_len t)%nat) /\ (jt_kind j = Floating -> tree_len t = 0%nat /\ parent = World) /\
  (forall x, In x (numbers_of j) -> is_finite x = true) /\
  (forall lower upper, jt_limits j = Some (lower, upper) -> is_finite lower = true /\ is_finite upper = true /\ Scalar.ltb upper lower = false /\ jt_kind j <> Continuous) /\
  (jt_kind j = Revolute \/ jt_kind j = Prismatic \/ jt_kind j = Continuous -> try_normalized3 (jt_axis j) <> None) /\
  (config_len t + readings_of j <= max_config)%nat.
(** What can be wrong with a joint, and how it is reported; the first that applies is. *)
Definition problems {T} {NT : Num T} (max_joints max_config : nat) (j : joint T) (parent : JointParent) (t : tree T) : list (Prop * KinematicsError) :=
  [ (tree_len t = max_joints, KiCapacityExceeded);
    (exists i, parent = OnJoint i /\ (tree_len t <= i)%nat, KiParentOutOfOrder);
    (jt_kind j = Floating /\ ~ (tree_len t = 0%nat /\ parent = World), KiFloatingJointNotAtRoot);
    (exists x, In x (numbers_of j) /\ is_finite x = false, KiNonFinite);
    (exists lower upper, jt_limits j = Some (lower, upper) /\ (is_finite lower = false \/ is_finite upper = false), KiNonFinite);
    (exists lower upper, jt_limits j = Some (lower, upper) /\ Scalar.ltb upper lower = true, KiLimitsReversed);
    (jt_kind j = Continuous /\ jt_limits j <> None, KiContinuousJointHasLimits);
    ((jt_kind j = Revolute \/ jt_kind j = Prismatic \/ jt_kind j = Continuous) /\ try_normalized3 (jt_axis j) = None, KiAxisHasNoDirection);
    ((max_config < config_len t + readings_of j)%nat, KiConfigurationCapacityExceeded) ].
Fixpoint first_problem {E} (l : list (Prop * E)) (e : E) : Prop :=
  match l with [] => False | (applies, e') :: rest => (applies /\ e = e') \/ (~ applies /\ first_problem rest e) end.
(** The joint as the tree keeps it: the same, with its axis brought to length one *)
Definition as_stored {T} {NT : Num T} (j : joint T) : joint T :=
  match jt_kind j with Fixed | Floating => j | _ => match try_normalized3 (jt_axis j) with Some axis => with_axis axis j | None => j end end.

(** The joints between [i] and the world, [i] included *)
Inductive carried_by {T} (t : tree T) : nat -> nat -> Prop :=
| carried_self i : carried_by t i i
| carried_up i parent k : nth_error (tr_parents t) i = Some (OnJoint parent) -> carried_by t parent k -> carried_by t i k.

(** Every number of the configuration that belongs to a joint which reads it is finite. *)
Definition finite_readings {T} {NT : Num T} (t : tree T) (configuration : list T) : Prop :=
  forall i j at_ k, nth_error (tr_joints t) i = Some j -> config_offset t i = Some at_ -> jt_kind j <> Fixed -> (k < readings_of j)%nat ->
    is_finite (nth (at_ + k) configuration zero) = true.
(** The frame joint [i] hangs from: its parent's, or the world's *)
Definition hangs_from {T} {NT : Num T} (t : tree T) (poses : list (se3 T)) (i : nat) : se3 T :=
  match nth_error (tr_parents t) i with Some (OnJoint parent) => nth parent poses se3_identity | _ => se3_identity end.

Local Open Scope R_scope.
(** Where the joint alone, read from place [at_] of the configuration on, takes a point of its own frame *)
Definition joint_moves (configuration : list R) (at_ : nat) (j : joint R) (p : point) : point :=
  let reading k := nth (at_ + k) configuration 0 in
  let displacement := reading 0%nat - jt_zero_offset j in
  match jt_kind j with
  | Revolute | Continuous => together (jt_anchor j) (turned (jt_axis j) displacement (together p (multiple (-1) (jt_anchor j))))
  | Prismatic => together p (multiple displacement (jt_axis j))
  | Fixed => p
  | Floating =>
      let q := Quat (reading 3%nat) (reading 4%nat) (reading 5%nat) (reading 6%nat) in
      together (reading 0%nat, reading 1%nat, reading 2%nat) (transform_point (quat_scale q (/ quat_norm q)) p)
  end.
(** A turn is none at all or at least 30 machine epsilons, below which the code takes a polynomial for the sine and cosine. *)
Definition plain_turn (configuration : list R) (at_ : nat) (j : joint R) : Prop :=
  match jt_kind j with
  | Revolute | Continuous => nth at_ configuration 0 = jt_zero_offset j \/ 30 / IZR (2^52) <= Rabs (nth at_ configuration 0 - jt_zero_offset j)
  | _ => True
  end.
(** The quaternion a floating joint reads is longer than a machine epsilon. *)
Definition has_orientation (configuration : list R) (at_ : nat) (j : joint R) : Prop :=
  jt_kind j = Floating ->
  1 / IZR (2^52) < quat_norm (Quat (nth (at_ + 3) configuration 0) (nth (at_ + 4) configuration 0) (nth (at_ + 5) configuration 0) (nth (at_ + 6) configuration 0)).

(** The velocity of a moving point *)
Definition velocity_at (p : R -> point) (t : R) (v : point) : Prop := forall i, (i < 3)%nat -> is_derive (fun s => coordinate (p s) i) t (coordinate v i).
(** The frame turns with the angular velocity [w] while its origin moves with [v]: so does every point attached to it. *)
Definition frame_velocity (frame : R -> se3 R) (t : R) (v w : point) : Prop :=
  forall p, velocity_at (fun s => se3_act (frame s) p) t (together v (outer w (transform_point (se3_rotation (frame t)) p))).
(** The readings of a joint change at the given rates: one number at its rate; the position of a floating joint at the first three, its
    quaternion as that of a body turning with the last three about its own axes. *)
Definition reads_at_rates (configuration : R -> list R) (t : R) (rates : list R) (at_ from : nat) (j : joint R) : Prop :=
  match jt_kind j with
  | Fixed => True
  | Floating =>
      let turning := quat_scale (quat_mul (Quat (nth (at_ + 3) (configuration t) 0) (nth (at_ + 4) (configuration t) 0) (nth (at_ + 5) (configuration t) 0) (nth (at_ + 6) (configuration t) 0))
        (Quat 0 (nth (from + 3) rates 0) (nth (from + 4) rates 0) (nth (from + 5) rates 0))) (/ 2) in
      (forall k, (k < 3)%nat -> is_derive (fun s => nth (at_ + k) (configuration s) 0) t (nth (from + k) rates 0)) /\
      (forall k, (k < 4)%nat -> is_derive (fun s => nth (at_ + 3 + k) (configuration s) 0) t (component turning k))
  | _ => is_derive (fun s => nth at_ (configuration s) 0) t (nth from rates 0)
  end.
(** Strictly away from the edge of the polynomial branch, so that a small change of the reading stays on the same side *)
Definition steady_turn (configuration : list R) (at_ : nat) (j : joint R) : Prop :=
  match jt_kind j with
  | Revolute | Continuous => nth at_ configuration 0 = jt_zero_offset j \/ 30 / IZR (2^52) < Rabs (nth at_ configuration 0 - jt_zero_offset j)
  | _ => True
  end.
(** The pose forward kinematics gives joint [k] *)
Definition frame_of (max_joints : nat) (t : tree R) (configuration : list R) (k : nat) : se3 R :=
  match forward_kinematics max_joints configuration t with Ok poses => nth k poses se3_identity | _ => se3_identity end.
