(** Joints, kinematic trees, forward kinematics and the geometric Jacobian.

    Models crates/multicalc/src/kinematics/joint.rs, kinematic_tree.rs, kinematic_tree_state.rs and kinematic_jacobian.rs:1-178, over any scalar.
    MAX_JOINTS and MAX_CONFIG are arguments of the functions that read them.  A tree is the lists of its joints and parents in use
    ([joints[..length]], [parents[..length]]); the slots past [length] are never read.  The builder methods and getters of a joint are
    those of a record.  A [Vector<3, T>] is the triple of its components; the armature, damping and friction of a joint are kept as the
    code keeps them, but only [push] looks at them.  A KinematicTreeState is the list of its [length] poses. *)
From Coq Require Import ZArith List Bool Arith.
From Verif Require Import Base.Scalar Base.Lists Model.Errors Model.Vector Model.Matrix Model.Lu Model.Quaternion Model.Lie Model.Drive Model.Kalman.
Import ListNotations.

(** joint.rs:9-21 *)
Inductive JointKind := Revolute | Prismatic | Continuous | Fixed | Floating.
Definition kind_eqb (a b : JointKind) : bool :=
  match a, b with Revolute, Revolute | Prismatic, Prismatic | Continuous, Continuous | Fixed, Fixed | Floating, Floating => true | _, _ => false end.
(** joint.rs:25-30 *)
Inductive JointParent := World | OnJoint (index : nat).

(** joint.rs:45-55 *)
Record joint (T : Type) := { jt_kind : JointKind; jt_axis : vec3 T; jt_anchor : vec3 T; jt_origin : se3 T; jt_zero_offset : T; jt_limits : option (T * T);
  jt_armature : T; jt_damping : T; jt_friction_loss : T }.
Arguments jt_kind {T}. Arguments jt_axis {T}. Arguments jt_anchor {T}. Arguments jt_origin {T}. Arguments jt_zero_offset {T}. Arguments jt_limits {T}.
Arguments jt_armature {T}. Arguments jt_damping {T}. Arguments jt_friction_loss {T}.
(** kinematic_tree.rs:39-46 *)
Record tree (T : Type) := { tr_joints : list (joint T); tr_parents : list JointParent }.
Arguments tr_joints {T}. Arguments tr_parents {T}.
(** kinematic_jacobian.rs:14-20 *)
Inductive JacobianFrame := WorldAxes | BodyAxes.
(** kinematic_jacobian.rs:76-83; [kj_entries] has six rows and MAX_CONFIG columns *)
Record jacobian (T : Type) := { kj_entries : mat T; kj_columns : nat; kj_frame : JacobianFrame }.
Arguments kj_entries {T}. Arguments kj_columns {T}. Arguments kj_frame {T}.

Definition bind {A B E} (r : Res A E) (f : A -> Res B E) : Res B E := match r with Ok a => f a | Err e => Err e | Panic => Panic end.
Definition ok_or {A E} (o : option A) (e : E) : Res A E := match o with Some a => Ok a | None => Err e end.

Section Tree.
  Context {T : Type} {NT : Num T}.
  Local Open Scope num_scope.

  (** joint.rs:186-200 *)
  Definition joint_from_kind (kind : JointKind) (axis : vec3 T) (origin : se3 T) : joint T :=
    {| jt_kind := kind; jt_axis := axis; jt_anchor := zeros3; jt_origin := origin; jt_zero_offset := zero; jt_limits := None;
       jt_armature := zero; jt_damping := zero; jt_friction_loss := zero |}.
  (** joint.rs:78-80, 100-102, 122-124, 143-149, 173-179 *)
  Definition joint_revolute := joint_from_kind Revolute.
  Definition joint_continuous := joint_from_kind Continuous.
  Definition joint_prismatic := joint_from_kind Prismatic.
  Definition joint_fixed := joint_from_kind Fixed (one, zero, zero).
  Definition joint_floating := joint_from_kind Floating (one, zero, zero).
  (** joint.rs:183-185 *)
  Definition with_axis (axis : vec3 T) (j : joint T) : joint T :=
    {| jt_kind := jt_kind j; jt_axis := axis; jt_anchor := jt_anchor j; jt_origin := jt_origin j; jt_zero_offset := jt_zero_offset j; jt_limits := jt_limits j;
       jt_armature := jt_armature j; jt_damping := jt_damping j; jt_friction_loss := jt_friction_loss j |}.

  (** kinematic_tree.rs:65-71, 253-255 *)
  Definition tree_new : tree T := {| tr_joints := []; tr_parents := [] |}.
  Definition tree_len (t : tree T) : nat := length (tr_joints t).
  (** kinematic_tree.rs:94-100 *)
  Definition has_floating_base (t : tree T) : bool :=
    match tr_joints t with j :: _ => kind_eqb (jt_kind j) Floating | [] => false end.
  (** kinematic_tree.rs:109-118, 127-136 *)
  Definition config_offset (t : tree T) (index : nat) : option nat :=
    if Nat.leb (tree_len t) index then None else if has_floating_base t && Nat.ltb 0 index then Some (index + 6)%nat else Some index.
  Definition velocity_offset (t : tree T) (index : nat) : option nat :=
    if Nat.leb (tree_len t) index then None else if has_floating_base t && Nat.ltb 0 index then Some (index + 5)%nat else Some index.
  (** kinematic_tree.rs:142-150, 156-164 *)
  Definition config_len (t : tree T) : nat :=
    if Nat.eqb (tree_len t) 0 then 0 else if has_floating_base t then tree_len t + 6 else tree_len t.
  Definition velocity_len (t : tree T) : nat :=
    if Nat.eqb (tree_len t) 0 then 0 else if has_floating_base t then tree_len t + 5 else tree_len t.
  (** kinematic_tree.rs:227-231, 335-339 *)
  Definition config_width (k : JointKind) : nat := match k with Floating => 7 | _ => 1 end.

  (** kinematic_tree.rs:192-202 *)
  Definition joint_is_finite (j : joint T) : bool :=
    let '(w, x, y, z) := quat_as_array (se3_rotation (jt_origin j)) in
    is_finite3 (se3_translation (jt_origin j)) && forallb is_finite [w; x; y; z] && is_finite3 (jt_axis j) && is_finite3 (jt_anchor j) &&
    is_finite (jt_zero_offset j) && is_finite (jt_armature j) && is_finite (jt_damping j) && is_finite (jt_friction_loss j).
  (** kinematic_tree.rs:179-248; the tree is only written at the end, so a refused joint leaves it as it was *)
  Definition push (max_joints max_config : nat) (j : joint T) (parent : JointParent) (t : tree T) : tree T * Res unit KinematicsError :=
    let answer : Res (joint T) KinematicsError :=
      if Nat.eqb (tree_len t) max_joints then Err KiCapacityExceeded
      else if match parent with OnJoint index => Nat.leb (tree_len t) index | World => false end then Err KiParentOutOfOrder
      else if kind_eqb (jt_kind j) Floating && (negb (Nat.eqb (tree_len t) 0) || match parent with World => false | _ => true end) then Err KiFloatingJointNotAtRoot
      else if negb (joint_is_finite j) then Err KiNonFinite
      else bind (match jt_limits j with
        | Some (lower, upper) =>
            if negb (is_finite lower) || negb (is_finite upper) then Err KiNonFinite
            else if lower >? upper then Err KiLimitsReversed else Ok tt
        | None => Ok tt end) (fun _ =>
      if kind_eqb (jt_kind j) Continuous && match jt_limits j with Some _ => true | None => false end then Err KiContinuousJointHasLimits
      else bind (match jt_kind j with
        | Revolute | Prismatic | Continuous => bind (ok_or (try_normalized3 (jt_axis j)) KiAxisHasNoDirection) (fun axis => Ok (with_axis axis j))
        | Fixed | Floating => Ok j end) (fun j =>
      if Nat.ltb max_config (config_len t + config_width (jt_kind j)) then Err KiConfigurationCapacityExceeded else Ok j)) in
    match answer with
    | Ok j => ({| tr_joints := tr_joints t ++ [j]; tr_parents := tr_parents t ++ [parent] |}, Ok tt)
    | Err e => (t, Err e)
    | Panic => (t, Panic)
    end.
  (** kinematic_tree.rs:77-89 *)
  Fixpoint push_all (max_joints max_config : nat) (l : list (joint T * JointParent)) (t : tree T) : Res (tree T) KinematicsError :=
    match l with
    | [] => Ok t
    | (j, p) :: l => match push max_joints max_config j p t with (t', Ok _) => push_all max_joints max_config l t' | (_, Err e) => Err e | (_, Panic) => Panic end
    end.
  Definition try_from_joints (max_joints max_config : nat) (joints : list (joint T)) (parents : list JointParent) : Res (tree T) KinematicsError :=
    if negb (Nat.eqb (length joints) (length parents)) then Err KiJointCountMismatch
    else push_all max_joints max_config (combine joints parents) tree_new.

  (** kinematic_tree.rs:267-272, 277-282 *)
  Definition tree_joint (t : tree T) (index : nat) : option (joint T) := nth_error (tr_joints t) index.
  Definition tree_parent (t : tree T) (index : nat) : option JointParent := nth_error (tr_parents t) index.

  (** kinematic_tree.rs:340-347 *)
  Fixpoint check_slots (kind : JointKind) (configuration : list T) (offset : nat) (width : nat) : Res unit KinematicsError :=
    match width with
    | O => Ok tt
    | S rest =>
        bind (ok_or (nth_error configuration offset) KiNonFinite) (fun reading =>
        if negb (kind_eqb kind Fixed) && negb (is_finite reading) then Err KiNonFinite else check_slots kind configuration (S offset) rest)
    end.
  (** kinematic_tree.rs:327-348 *)
  Fixpoint check_readings (t : tree T) (configuration : list T) (indices : list nat) : Res unit KinematicsError :=
    match indices with
    | [] => Ok tt
    | index :: rest =>
        bind (ok_or (tree_joint t index) KiCapacityExceeded) (fun j =>
        bind (ok_or (config_offset t index) KiCapacityExceeded) (fun offset =>
        bind (check_slots (jt_kind j) configuration offset (config_width (jt_kind j))) (fun _ =>
        check_readings t configuration rest)))
    end.
  (** kinematic_tree.rs:366-397 *)
  Definition joint_motion (configuration : list T) (offset : nat) (j : joint T) : Res (se3 T) KinematicsError :=
    match jt_kind j with
    | Revolute | Continuous =>
        bind (ok_or (nth_error configuration offset) KiNonFinite) (fun reading =>
        let displacement := reading - jt_zero_offset j in
        let rotation := so3_exp (scale3 (jt_axis j) displacement) in
        Ok (SE3 rotation (sub3 (jt_anchor j) (so3_act rotation (jt_anchor j)))))
    | Prismatic =>
        bind (ok_or (nth_error configuration offset) KiNonFinite) (fun reading =>
        Ok (SE3 so3_identity (scale3 (jt_axis j) (reading - jt_zero_offset j))))
    | Fixed => Ok se3_identity
    | Floating =>
        let place := map (fun slot => nth_error configuration (offset + slot)) (seq 0 7) in
        match place with
        | [Some x; Some y; Some z; Some w; Some a; Some b; Some c] =>
            bind (ok_or (from_generalized_vectors (x, y, z) (w, a, b, c) (zeros3, zeros3)) KiOrientationHasNoDirection) (fun s => Ok (fj_pose s))
        | _ => Err KiNonFinite
        end
    end.
  (** kinematic_tree.rs:350-402; [poses] has MAX_JOINTS slots *)
  Fixpoint place_joints (t : tree T) (configuration : list T) (indices : list nat) (poses : list (se3 T)) : Res (list (se3 T)) KinematicsError :=
    match indices with
    | [] => Ok poses
    | index :: rest =>
        bind (ok_or (tree_joint t index) KiCapacityExceeded) (fun j =>
        bind (match tree_parent t index with
              | Some (OnJoint parent_index) => ok_or (nth_error poses parent_index) KiParentOutOfOrder
              | _ => Ok se3_identity end) (fun parent_pose =>
        bind (ok_or (config_offset t index) KiCapacityExceeded) (fun offset =>
        bind (joint_motion configuration offset j) (fun local =>
        if Nat.ltb index (length poses)
        then place_joints t configuration rest (set_nth poses index (se3_compose (se3_compose parent_pose (jt_origin j)) local))
        else Err KiCapacityExceeded))))
    end.
  (** kinematic_tree.rs:323-405 *)
  Definition forward_kinematics (max_joints : nat) (configuration : list T) (t : tree T) : Res (list (se3 T)) KinematicsError :=
    bind (check_readings t configuration (seq 0 (tree_len t))) (fun _ =>
    bind (place_joints t configuration (seq 0 (tree_len t)) (repeat se3_identity max_joints)) (fun poses =>
    Ok (firstn (tree_len t) poses))).

  (** kinematic_tree.rs:482-492: the walk from the tool to the world, at most MAX_JOINTS steps *)
  Fixpoint mark_chain (t : tree T) (steps : nat) (current : nat) (carries : list bool) : Res (list bool) KinematicsError :=
    match steps with
    | O => Ok carries
    | S rest =>
        if Nat.ltb current (length carries) then
          let carries := set_nth carries current true in
          match tree_parent t current with
          | Some (OnJoint parent_index) => mark_chain t rest parent_index carries
          | _ => Ok carries
          end
        else Err KiParentOutOfOrder
    end.
  (** kinematic_tree.rs:521-566: the (linear, angular) pairs a joint contributes *)
  Definition basis3 (axis : nat) : vec3 T := of_list3 (from_fn 3 (fun row => if Nat.eqb row axis then one else zero)).
  Definition joint_columns (j : joint T) (pose : se3 T) (tool_origin : vec3 T) : list (vec3 T * vec3 T) :=
    match jt_kind j with
    | Revolute | Continuous =>
        let axis_in_world := so3_act (se3_rotation pose) (jt_axis j) in
        let axis_point := se3_act pose (jt_anchor j) in
        [(cross3 axis_in_world (sub3 tool_origin axis_point), axis_in_world)]
    | Prismatic => [(so3_act (se3_rotation pose) (jt_axis j), zeros3)]
    | Floating =>
        let joint_origin := se3_translation pose in
        map (fun axis => (basis3 axis, zeros3)) (seq 0 3) ++
        map (fun axis => let direction := so3_act (se3_rotation pose) (basis3 axis) in (cross3 direction (sub3 tool_origin joint_origin), direction)) (seq 0 3)
    | Fixed => []
    end.
  (** kinematic_tree.rs:572-575 *)
  Definition in_frame (frame : JacobianFrame) (into_tool_axes : so3 T) (v : vec3 T) : vec3 T :=
    match frame with BodyAxes => so3_act into_tool_axes v | WorldAxes => v end.
  (** kinematic_tree.rs:576-582: one column written *)
  Definition write_column (column : nat) (entries : mat T) (v : vec3 T * vec3 T) : Res (mat T) KinematicsError :=
    if Nat.ltb column (length (nth 0 entries []))
    then Ok (map2 (fun row value => set_nth row column value) entries (list6 v))
    else Err KiCapacityExceeded.
  Fixpoint write_columns (column : nat) (vs : list (vec3 T * vec3 T)) (entries : mat T) : Res (mat T) KinematicsError :=
    match vs with [] => Ok entries | v :: rest => bind (write_column column entries v) (write_columns (S column) rest) end.
  (** kinematic_tree.rs:496-584 *)
  Fixpoint fill_columns (t : tree T) (state : list (se3 T)) (carries : list bool) (tool_origin : vec3 T) (frame : JacobianFrame) (into_tool_axes : so3 T)
    (indices : list nat) (entries : mat T) : Res (mat T) KinematicsError :=
    match indices with
    | [] => Ok entries
    | index :: rest =>
        bind (ok_or (nth_error carries index) KiCapacityExceeded) (fun carried =>
        if negb carried then fill_columns t state carries tool_origin frame into_tool_axes rest entries
        else
          bind (ok_or (tree_joint t index) KiCapacityExceeded) (fun j =>
          if kind_eqb (jt_kind j) Fixed then fill_columns t state carries tool_origin frame into_tool_axes rest entries
          else
            bind (ok_or (nth_error state index) KiStateShapeMismatch) (fun pose =>
            bind (ok_or (velocity_offset t index) KiCapacityExceeded) (fun offset =>
            bind (write_columns offset (map (fun v => (in_frame frame into_tool_axes (fst v), in_frame frame into_tool_axes (snd v))) (joint_columns j pose tool_origin)) entries) (fun entries =>
            fill_columns t state carries tool_origin frame into_tool_axes rest entries)))))
    end.
  (** kinematic_tree.rs:461-591 *)
  Definition geometric_jacobian (max_joints max_config : nat) (state : list (se3 T)) (tool_index : nat) (frame : JacobianFrame) (t : tree T) : Res (jacobian T) KinematicsError :=
    if Nat.leb (tree_len t) tool_index then Err KiToolIndexOutOfRange
    else if negb (Nat.eqb (length state) (tree_len t)) then Err KiStateShapeMismatch
    else
      bind (ok_or (nth_error state tool_index) KiToolIndexOutOfRange) (fun tool_pose =>
      bind (mark_chain t max_joints tool_index (repeat false max_joints)) (fun carries =>
      bind (fill_columns t state carries (se3_translation tool_pose) frame (so3_inverse (se3_rotation tool_pose)) (seq 0 (tree_len t)) (mat_zeros 6 max_config)) (fun entries =>
      Ok {| kj_entries := entries; kj_columns := velocity_len t; kj_frame := frame |}))).
  (** kinematic_tree.rs:640-648 *)
  Definition geometric_jacobian_at (max_joints max_config : nat) (configuration : list T) (tool_index : nat) (frame : JacobianFrame) (t : tree T) : Res (jacobian T) KinematicsError :=
    bind (forward_kinematics max_joints configuration t) (fun state => geometric_jacobian max_joints max_config state tool_index frame t).
  (** kinematic_jacobian.rs:176-178 *)
  Definition tool_twist (max_config : nat) (j : jacobian T) (joint_velocities : list T) : twist T :=
    let v := mat_vec 6 max_config (kj_entries j) joint_velocities in
    twist_from_vector ((vget v 0, vget v 1, vget v 2), (vget v 3, vget v 4, vget v 5)).
  (** kinematic_jacobian.rs:129-138 *)
  Definition jacobian_column (j : jacobian T) (index : nat) : option (twist T) :=
    if Nat.leb (kj_columns j) index then None
    else Some (twist_from_vector ((mget (kj_entries j) 0 index, mget (kj_entries j) 1 index, mget (kj_entries j) 2 index),
                                  (mget (kj_entries j) 3 index, mget (kj_entries j) 4 index, mget (kj_entries j) 5 index))).

  (** kinematic_tree.rs:690-738: what one joint adds to the squared distance; [a] and [b] have MAX_CONFIG entries, so a reading is there *)
  Definition place_of (configuration : list T) (offset : nat) : option (free_joint T) :=
    let g slot := nth (offset + slot) configuration zero in
    from_generalized_vectors (g 0%nat, g 1%nat, g 2%nat) (g 3%nat, g 4%nat, g 5%nat, g 6%nat) (zeros3, zeros3).
  Definition joint_distance_squared (a b : list T) (offset : nat) (j : joint T) : list T :=
    match jt_kind j with
    | Fixed => []
    | Continuous =>
        match nth_error a offset, nth_error b offset with
        | Some x, Some y => let difference := wrap_to_pi (x - y) in [difference * difference] | _, _ => [] end
    | Revolute | Prismatic =>
        match nth_error a offset, nth_error b offset with
        | Some x, Some y => let difference := x - y in [difference * difference] | _, _ => [] end
    | Floating =>
        match place_of a offset, place_of b offset with
        | Some s, Some r =>
            let position_difference := sub3 (se3_translation (fj_pose s)) (se3_translation (fj_pose r)) in
            let rotation_difference := so3_log (so3_compose (so3_inverse (se3_rotation (fj_pose s))) (se3_rotation (fj_pose r))) in
            [dot3 position_difference position_difference; dot3 rotation_difference rotation_difference]
        | _, _ => []
        end
    end.
  (** kinematic_tree.rs:677-741 *)
  Definition configuration_distance (a b : list T) (t : tree T) : T :=
    sqrt (fold_left (fun total index =>
      match tree_joint t index, config_offset t index with
      | Some j, Some offset => fold_left add (joint_distance_squared a b offset j) total
      | _, _ => total
      end) (seq 0 (tree_len t)) zero).
End Tree.
