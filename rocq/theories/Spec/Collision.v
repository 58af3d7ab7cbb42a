(** Solids, and which pairs a collision query looks at. *)
From Coq Require Import Reals List Bool Arith.
From Verif Require Import Base.Scalar Base.RNum Model.Errors Model.Quaternion Model.Lie Model.Drive Model.KinematicTree Model.Collision Spec.Space Spec.Matrix Spec.Rotation Spec.Quaternion.
Import ListNotations.
Local Notation sqrt := R_sqrt.sqrt.

Local Open Scope R_scope.
Definition far (p q : point) : R := length (together p (multiple (-1) q)).
(** The points of a shape in its own frame: a ball about the origin, or everything within the radius of a piece of the z axis *)
Definition solid (shape : Primitive R) (p : point) : Prop :=
  match shape with
  | Sphere radius => far p (0, 0, 0) <= radius
  | Capsule radius half_length => exists z, - half_length <= z <= half_length /\ far p (0, 0, z) <= radius
  end.
(** The points it takes up in the world *)
Definition occupies (shape : Primitive R) (pose : se3 R) (p : point) : Prop := exists p', solid shape p' /\ p = se3_act pose p'.
Definition proper_shape (shape : Primitive R) : Prop :=
  match shape with Sphere radius => 0 <= radius | Capsule radius half_length => 0 <= radius /\ 0 <= half_length end.

(** What a distance says of two sets of points, when it may be too large by [e] *)
Definition measures (d e : R) (one other : point -> Prop) : Prop :=
  (forall p q, one p -> other q -> d - e <= far p q) /\ (0 <= d -> exists p q, one p /\ other q /\ far p q = d) /\ (d <= 0 -> exists p, one p /\ other p).
(** By how much the distance given for two shapes may be too large.  Nothing at all for most pairs.  A capsule whose axis is no longer than
    2^-26 is taken to end where it starts.  For two capsules whose axes, of lengths [l] and [l'] and with sine [s] of the angle between them,
    have [l l' s] no more than 2^-26, the axes are taken to be parallel. *)
Definition short (half_length : R) : bool := if Rle_dec ((2 * half_length) ^ 2) (/ IZR (2^52)) then true else false.
Definition upright (pose : se3 R) : point := transform_point (se3_rotation pose) (0, 0, 1).
Definition too_large_by (shape : Primitive R) (pose : se3 R) (other : Primitive R) (other_pose : se3 R) : R :=
  match shape, other with
  | Sphere _, Sphere _ => 0
  | Sphere _, Capsule _ half_length | Capsule _ half_length, Sphere _ => if short half_length then 2 * half_length else 0
  | Capsule _ h, Capsule _ h' =>
      if short h then (if short h' then 2 * h + 2 * h' else 2 * h)
      else if short h' then 2 * h'
      else let sine := length (outer (upright pose) (upright other_pose)) in
           if Rle_dec ((2 * h * (2 * h') * sine) ^ 2) (/ IZR (2^52)) then 2 * h * sine else 0
  end.

(** The pairs looked at, in order: every attached shape with those attached after it that are not left out, and with every obstacle *)
Definition left_out {T} (q : collision_query T) (i j : nat) : Prop := In (i, j) (cq_excluded q) \/ In (j, i) (cq_excluded q).
Definition in_pair {T} (q : collision_query T) (pair : CollisionSource * CollisionSource) : Prop :=
  match pair with
  | (SelfPrimitive i, SelfPrimitive j) => (i < j < List.length (cq_self q))%nat /\ ~ left_out q i j
  | (SelfPrimitive i, Environment k) => (i < List.length (cq_self q))%nat /\ (k < List.length (cq_environment q))%nat
  | _ => False
  end.
(** How far apart the two of a pair are where the tree's frames are *)
Definition pair_distance {T} {NT : Num T} (q : collision_query T) (state : list (se3 T)) (pair : CollisionSource * CollisionSource) (d : T) : Prop :=
  let at_ a frame := nth_error state (at_frame a) = Some frame in
  match pair with
  | (SelfPrimitive i, SelfPrimitive j) => exists a b f g, nth_error (cq_self q) i = Some a /\ nth_error (cq_self q) j = Some b /\ at_ a f /\ at_ b g /\
      d = distance_to (at_shape a) (se3_compose f (at_local a)) (at_shape b) (se3_compose g (at_local b))
  | (SelfPrimitive i, Environment k) => exists a o f, nth_error (cq_self q) i = Some a /\ nth_error (cq_environment q) k = Some o /\ at_ a f /\
      d = distance_to (at_shape a) (se3_compose f (at_local a)) (ob_shape o) (ob_pose o)
  | _ => False
  end.

(** The solid that a source of the query names *)
Definition solid_of (q : collision_query R) (state : list (se3 R)) (s : CollisionSource) (shape : Primitive R) (pose : se3 R) : Prop :=
  match s with
  | SelfPrimitive i => exists a f, nth_error (cq_self q) i = Some a /\ nth_error state (at_frame a) = Some f /\ shape = at_shape a /\ pose = se3_compose f (at_local a)
  | Environment k => exists o, nth_error (cq_environment q) k = Some o /\ shape = ob_shape o /\ pose = ob_pose o
  end.

(** Filling a query, one call after another *)
Inductive filling (T : Type) := Attach (frame_index : nat) (shape : Primitive T) (local_pose : se3 T) | Surround (shape : Primitive T) (pose : se3 T) | LeaveOut (first second : nat).
Arguments Attach {T}. Arguments Surround {T}. Arguments LeaveOut {T}.
Definition fill {T} (max_self max_environment max_excluded : nat) (q : collision_query T) (x : filling T) : collision_query T :=
  match x with
  | Attach frame_index shape local_pose => fst (push_self_primitive max_self frame_index shape local_pose q)
  | Surround shape pose => fst (push_environment_primitive max_environment shape pose q)
  | LeaveOut first second => fst (exclude_pair max_excluded first second q)
  end.
(** What was asked for, in order *)
Definition asked_attached {T} (l : list (filling T)) : list (attached T) := flat_map (fun x => match x with Attach f s p => [{| at_frame := f; at_shape := s; at_local := p |}] | _ => [] end) l.
Definition asked_obstacles {T} (l : list (filling T)) : list (obstacle T) := flat_map (fun x => match x with Surround s p => [{| ob_shape := s; ob_pose := p |}] | _ => [] end) l.
Definition asked_left_out {T} (l : list (filling T)) : list (nat * nat) := flat_map (fun x => match x with LeaveOut i j => [(i, j)] | _ => [] end) l.
