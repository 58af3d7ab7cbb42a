(** Spheres and capsules: how far apart two of them are, and the query over those attached to a kinematic tree and those around it.

    Models crates/multicalc/src/kinematics/collision.rs over any scalar.  The capacities MAX_SELF, MAX_ENVIRONMENT and MAX_EXCLUDED are
    arguments of the functions that fill the lists; a list holds the entries in use, without the filler behind them.  The state of a tree is
    the list of its poses, as in Model/KinematicTree.v. *)
From Coq Require Import ZArith List Bool Arith.
From Verif Require Import Base.Scalar Base.Lists Model.Errors Model.Vector Model.Matrix Model.Quaternion Model.Lie Model.Drive Model.KinematicTree.
Import ListNotations.

(** collision.rs:15-29 *)
Inductive Primitive (T : Type) := Sphere (radius : T) | Capsule (radius half_length : T).
Arguments Sphere {T}. Arguments Capsule {T}.
(** collision.rs:249-261 *)
Record attached (T : Type) := { at_frame : nat; at_shape : Primitive T; at_local : se3 T }.
Arguments at_frame {T}. Arguments at_shape {T}. Arguments at_local {T}.
Record obstacle (T : Type) := { ob_shape : Primitive T; ob_pose : se3 T }.
Arguments ob_shape {T}. Arguments ob_pose {T}.
(** collision.rs:264-270 *)
Inductive CollisionSource := SelfPrimitive (index : nat) | Environment (index : nat).
(** collision.rs:273-281 *)
Record collision_report (T : Type) := { co_minimum_clearance : T; co_closest_pair : option (CollisionSource * CollisionSource) }.
Arguments co_minimum_clearance {T}. Arguments co_closest_pair {T}.
(** collision.rs:326-339 *)
Record collision_query (T : Type) := { cq_self : list (attached T); cq_environment : list (obstacle T); cq_excluded : list (nat * nat) }.
Arguments cq_self {T}. Arguments cq_environment {T}. Arguments cq_excluded {T}.

Section Collision.
  Context {T : Type} {NT : Num T}.
  Local Open Scope num_scope.

  (** collision.rs:94-96 *)
  Definition capsule_axis (pose : se3 T) : vec3 T := so3_act (se3_rotation pose) (zero, zero, one).
  (** collision.rs:99-105 *)
  Definition capsule_segment (pose : se3 T) (half_length : T) : vec3 T * vec3 T :=
    let axis := capsule_axis pose in
    (sub3 (se3_translation pose) (scale3 axis half_length), add3 (se3_translation pose) (scale3 axis half_length)).
  (** collision.rs:118-120 and its likes: [.max(ZERO).min(ONE)] *)
  Definition onto_unit (x : T) : T := min (max x zero) one.
  (** collision.rs:109-123 *)
  Definition closest_point_on_segment (point start finish : vec3 T) : vec3 T :=
    let segment := sub3 finish start in
    let length_squared := dot3 segment segment in
    if length_squared <=? epsilon then start
    else
      let parameter := onto_unit (dot3 (sub3 point start) segment / length_squared) in
      add3 start (scale3 segment parameter).
  (** collision.rs:146-196: the two parameters, from the six products of the directions and the offset of the starts; [None] is the early
      return with both starts *)
  Definition closest_parameters (first_length_squared second_length_squared alignment first_offset second_offset : T) : option (T * T) :=
    if (first_length_squared <=? epsilon) && (second_length_squared <=? epsilon) then None
    else Some (
      if first_length_squared <=? epsilon then (zero, onto_unit (second_offset / second_length_squared))
      else if second_length_squared <=? epsilon then (onto_unit (- first_offset / first_length_squared), zero)
      else
        let denominator := first_length_squared * second_length_squared - alignment * alignment in
        let candidate := if denominator >? epsilon then onto_unit ((alignment * second_offset - first_offset * second_length_squared) / denominator) else zero in
        let second_candidate := (alignment * candidate + second_offset) / second_length_squared in
        if second_candidate <? zero then (onto_unit (- first_offset / first_length_squared), zero)
        else if second_candidate >? one then (onto_unit ((alignment - first_offset) / first_length_squared), one)
        else (candidate, second_candidate)).
  (** collision.rs:129-202 *)
  Definition closest_points_between_segments (first_start first_end second_start second_end : vec3 T) : vec3 T * vec3 T :=
    let first_direction := sub3 first_end first_start in
    let second_direction := sub3 second_end second_start in
    let start_offset := sub3 first_start second_start in
    match closest_parameters (dot3 first_direction first_direction) (dot3 second_direction second_direction) (dot3 first_direction second_direction)
            (dot3 first_direction start_offset) (dot3 second_direction start_offset) with
    | None => (first_start, second_start)
    | Some (first_parameter, second_parameter) => (add3 first_start (scale3 first_direction first_parameter), add3 second_start (scale3 second_direction second_parameter))
    end.

  (** collision.rs:205-213 *)
  Definition sphere_sphere_distance (first_pose : se3 T) (first_radius : T) (second_pose : se3 T) (second_radius : T) : T :=
    norm3 (sub3 (se3_translation first_pose) (se3_translation second_pose)) - first_radius - second_radius.
  (** collision.rs:217-231 *)
  Definition capsule_capsule_distance (first_pose : se3 T) (first_radius first_half_length : T) (second_pose : se3 T) (second_radius second_half_length : T) : T :=
    let (first_start, first_end) := capsule_segment first_pose first_half_length in
    let (second_start, second_end) := capsule_segment second_pose second_half_length in
    let (first_closest, second_closest) := closest_points_between_segments first_start first_end second_start second_end in
    norm3 (sub3 first_closest second_closest) - first_radius - second_radius.
  (** collision.rs:235-246 *)
  Definition sphere_capsule_distance (sphere_pose : se3 T) (sphere_radius : T) (capsule_pose : se3 T) (capsule_radius capsule_half_length : T) : T :=
    let (start, finish) := capsule_segment capsule_pose capsule_half_length in
    let centre := se3_translation sphere_pose in
    norm3 (sub3 centre (closest_point_on_segment centre start finish)) - sphere_radius - capsule_radius.
  (** collision.rs:48-90 *)
  Definition distance_to (shape : Primitive T) (pose : se3 T) (other : Primitive T) (other_pose : se3 T) : T :=
    match shape, other with
    | Sphere first, Sphere second => sphere_sphere_distance pose first other_pose second
    | Capsule first_radius first_half_length, Capsule second_radius second_half_length => capsule_capsule_distance pose first_radius first_half_length other_pose second_radius second_half_length
    | Sphere radius, Capsule capsule_radius half_length => sphere_capsule_distance pose radius other_pose capsule_radius half_length
    | Capsule capsule_radius half_length, Sphere radius => sphere_capsule_distance other_pose radius pose capsule_radius half_length
    end.

  (** collision.rs:285-288 *)
  Definition is_clear (report : collision_report T) (required_clearance : T) : bool :=
    match co_closest_pair report with None => true | Some _ => co_minimum_clearance report >=? required_clearance end.
  (** collision.rs:353-371 *)
  Definition query_new : collision_query T := {| cq_self := []; cq_environment := []; cq_excluded := [] |}.
  (** collision.rs:379-397 *)
  Definition push_self_primitive (max_self frame_index : nat) (shape : Primitive T) (local_pose : se3 T) (q : collision_query T) : collision_query T * Res nat KinematicsError :=
    let index := length (cq_self q) in
    if Nat.ltb index max_self
    then ({| cq_self := cq_self q ++ [{| at_frame := frame_index; at_shape := shape; at_local := local_pose |}]; cq_environment := cq_environment q; cq_excluded := cq_excluded q |}, Ok index)
    else (q, Err KiCollisionCapacityExceeded).
  (** collision.rs:403-416 *)
  Definition push_environment_primitive (max_environment : nat) (shape : Primitive T) (pose : se3 T) (q : collision_query T) : collision_query T * Res nat KinematicsError :=
    let index := length (cq_environment q) in
    if Nat.ltb index max_environment
    then ({| cq_self := cq_self q; cq_environment := cq_environment q ++ [{| ob_shape := shape; ob_pose := pose |}]; cq_excluded := cq_excluded q |}, Ok index)
    else (q, Err KiCollisionCapacityExceeded).
  (** collision.rs:423-431 *)
  Definition exclude_pair (max_excluded first second : nat) (q : collision_query T) : collision_query T * Res unit KinematicsError :=
    if Nat.ltb (length (cq_excluded q)) max_excluded
    then ({| cq_self := cq_self q; cq_environment := cq_environment q; cq_excluded := cq_excluded q ++ [(first, second)] |}, Ok tt)
    else (q, Err KiCollisionCapacityExceeded).
  (** collision.rs:434-443 *)
  Definition self_primitive_count (q : collision_query T) : nat := length (cq_self q).
  Definition environment_primitive_count (q : collision_query T) : nat := length (cq_environment q).
  (** collision.rs:445-451 *)
  Definition is_excluded (q : collision_query T) (first second : nat) : bool :=
    existsb (fun pair => (Nat.eqb (fst pair) first && Nat.eqb (snd pair) second) || (Nat.eqb (fst pair) second && Nat.eqb (snd pair) first)) (cq_excluded q).

  (** collision.rs:472-475, 481-484: the pose of an attached primitive *)
  Definition placed (state : list (se3 T)) (a : attached T) : Res (se3 T) KinematicsError :=
    bind (ok_or (nth_error state (at_frame a)) KiToolIndexOutOfRange) (fun frame => Ok (se3_compose frame (at_local a))).
  (** collision.rs:488-494, 501-507: a pair takes the place of the closest so far when it is closer *)
  Definition tighter (best : T * option (CollisionSource * CollisionSource)) (clearance : T) (pair : CollisionSource * CollisionSource) : T * option (CollisionSource * CollisionSource) :=
    if clearance <? fst best then (clearance, Some pair) else best.
  (** collision.rs:477-495: the primitives behind the first one, numbered *)
  Fixpoint check_others (q : collision_query T) (state : list (se3 T)) (first_index : nat) (first : attached T) (first_pose : se3 T) (others : list (nat * attached T))
    (best : T * option (CollisionSource * CollisionSource)) : Res (T * option (CollisionSource * CollisionSource)) KinematicsError :=
    match others with
    | [] => Ok best
    | (second_index, second) :: rest =>
        if is_excluded q first_index second_index then check_others q state first_index first first_pose rest best
        else bind (placed state second) (fun second_pose =>
          check_others q state first_index first first_pose rest
            (tighter best (distance_to (at_shape first) first_pose (at_shape second) second_pose) (SelfPrimitive first_index, SelfPrimitive second_index)))
    end.
  (** collision.rs:497-508 *)
  Definition check_obstacles (first_index : nat) (first : attached T) (first_pose : se3 T) (environment : list (nat * obstacle T))
    (best : T * option (CollisionSource * CollisionSource)) : T * option (CollisionSource * CollisionSource) :=
    fold_left (fun best (entry : nat * obstacle T) => let (obstacle_index, o) := entry in
      tighter best (distance_to (at_shape first) first_pose (ob_shape o) (ob_pose o)) (SelfPrimitive first_index, Environment obstacle_index)) environment best.
  Definition numbered {A} (l : list A) : list (nat * A) := combine (seq 0 (length l)) l.
  (** collision.rs:471-509 *)
  Fixpoint check_each (q : collision_query T) (state : list (se3 T)) (firsts : list (nat * attached T)) (best : T * option (CollisionSource * CollisionSource))
    : Res (T * option (CollisionSource * CollisionSource)) KinematicsError :=
    match firsts with
    | [] => Ok best
    | (first_index, first) :: rest =>
        bind (placed state first) (fun first_pose =>
        bind (check_others q state first_index first first_pose (skipn (first_index + 1) (numbered (cq_self q))) best) (fun closest : T * option (CollisionSource * CollisionSource) =>
        check_each q state rest (check_obstacles first_index first first_pose (numbered (cq_environment q)) closest)))
    end.
  (** collision.rs:458-519 *)
  Definition check (state : list (se3 T)) (q : collision_query T) : Res (collision_report T) KinematicsError :=
    bind (check_each q state (numbered (cq_self q)) (max_value, None)) (fun best : T * option (CollisionSource * CollisionSource) =>
    Ok {| co_minimum_clearance := match snd best with Some _ => fst best | None => zero end; co_closest_pair := snd best |}).
End Collision.
