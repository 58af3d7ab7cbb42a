(** Weighted inverses of the geometric Jacobian, damped least squares inverse kinematics and its multi-start wrapper.

    Models crates/multicalc/src/kinematics/kinematic_jacobian.rs:180-424, inverse_kinematics.rs and multi_start_inverse_kinematics.rs, over any
    scalar.  MAX_JOINTS, MAX_CONFIG and MAX_STARTS are arguments of the functions that read them.  The builder methods are those of a record.
    A [Vector<MAX_CONFIG, T>] is the list of its entries, and writing past its end does nothing, as [get_mut] answers [None].  The loops
    over [0..tree.len()] that [continue] when the tree has no such joint are folds over the indices.  The kept solutions of a MultiStartReport
    are the list of those in use, and the random source is any state with a function that draws from it. *)
From Coq Require Import ZArith List Bool Arith.
From Verif Require Import Base.Scalar Base.Lists Model.Errors Model.Vector Model.Matrix Model.Lu Model.Svd Model.Quaternion Model.Lie Model.Drive Model.Kalman Model.Ode Model.KinematicTree.
Import ListNotations.

(** kinematic_jacobian.rs:30-40 *)
Inductive SingularityKind := NotSingular | Positional | Rotational | Mixed.
(** inverse_kinematics.rs:16-24 *)
Inductive Termination := IkConverged | IkStalled | IkIterationBudget.
(** inverse_kinematics.rs:49-57 *)
Inductive SecondaryObjective (T : Type) := NoObjective | PreferredPosture (reference : list T) | JointLimitMargin.
Arguments NoObjective {T}. Arguments PreferredPosture {T}. Arguments JointLimitMargin {T}.
(** inverse_kinematics.rs:32-43 *)
Record ik_report (T : Type) := { ik_joint_positions : list T; ik_position_error : T; ik_orientation_error : T; ik_iterations : nat; ik_termination : Termination }.
Arguments ik_joint_positions {T}. Arguments ik_position_error {T}. Arguments ik_orientation_error {T}. Arguments ik_iterations {T}. Arguments ik_termination {T}.
(** inverse_kinematics.rs:76-88 *)
Record ik (T : Type) := { ik_position_tolerance : T; ik_orientation_tolerance : T; ik_maximum_iterations : nat; ik_singular_value_threshold : T;
  ik_maximum_damping : T; ik_maximum_step_norm : T; ik_minimum_step_norm : T; ik_respect_limits : bool; ik_joint_weights : list T;
  ik_secondary_objective : SecondaryObjective T; ik_secondary_gain : T }.
Arguments ik_position_tolerance {T}. Arguments ik_orientation_tolerance {T}. Arguments ik_maximum_iterations {T}. Arguments ik_singular_value_threshold {T}.
Arguments ik_maximum_damping {T}. Arguments ik_maximum_step_norm {T}. Arguments ik_minimum_step_norm {T}. Arguments ik_respect_limits {T}.
Arguments ik_joint_weights {T}. Arguments ik_secondary_objective {T}. Arguments ik_secondary_gain {T}.
(** multi_start_inverse_kinematics.rs:32-40, 235-239 *)
Record multi_start (T : Type) := { ms_solver : ik T; ms_distinct_threshold : T; ms_jitter_span : T }.
Arguments ms_solver {T}. Arguments ms_distinct_threshold {T}. Arguments ms_jitter_span {T}.
Record ms_report (T : Type) := { ms_solutions : list (ik_report T); ms_attempts : nat }.
Arguments ms_solutions {T}. Arguments ms_attempts {T}.

(** The [?] on a decomposition: its error becomes [KinematicsError::Linalg] *)
Definition linalg {A} (r : Res A LinalgError) : Res A KinematicsError :=
  match r with Ok a => Ok a | Err e => Err (KiLinalg e) | Panic => Panic end.

Section InverseKinematics.
  Context {T : Type} {NT : Num T}.
  Local Open Scope num_scope.

  (** kinematic_jacobian.rs:191-198 and inverse_kinematics.rs:263-271: the weights of the first [count] slots, one after another *)
  Fixpoint check_weights (weights : list T) (indices : list nat) : Res unit KinematicsError :=
    match indices with
    | [] => Ok tt
    | index :: rest =>
        bind (ok_or (nth_error weights index) KiNonPositiveWeight) (fun weight =>
        if weight <=? zero then Err KiNonPositiveWeight else check_weights weights rest)
    end.
  (** kinematic_jacobian.rs:187-210 *)
  Definition weighted_transpose (max_config : nat) (j : jacobian T) (weights : list T) : Res (mat T) KinematicsError :=
    bind (check_weights weights (seq 0 (kj_columns j))) (fun _ =>
    Ok (mat_fn max_config 6 (fun index row =>
      if Nat.leb (kj_columns j) index then zero
      else match nth_error weights index with Some weight => mget (kj_entries j) row index / weight | None => zero end))).
  (** the smallest singular value of a matrix whose own are the squares, as read in kinematic_jacobian.rs:245-246, 287-293 and inverse_kinematics.rs:474-481 *)
  Definition smallest_of (d : svd (T := T)) : T := sqrt (max (vget (singular_values d) 5) zero).
  (** kinematic_jacobian.rs:239-247 *)
  Definition smallest_singular_value (max_config : nat) (j : jacobian T) : Res T KinematicsError :=
    bind (linalg (svd_of 6 6 (mat_mul 6 max_config 6 (kj_entries j) (transpose 6 max_config (kj_entries j))))) (fun d => Ok (smallest_of d)).
  (** kinematic_jacobian.rs:285-326 *)
  Definition classify_singularity (max_config : nat) (j : jacobian T) (threshold : T) : Res SingularityKind KinematicsError :=
    bind (linalg (svd_of 6 6 (mat_mul 6 max_config 6 (kj_entries j) (transpose 6 max_config (kj_entries j))))) (fun d =>
    if smallest_of d >=? threshold then Ok NotSingular
    else
      let square row := mget (svd_right d) row 5 * mget (svd_right d) row 5 in
      let linear_squared := fold_left (fun total row => total + square row) (seq 0 3) zero in
      let angular_squared := fold_left (fun total row => total + square row) (seq 3 3) zero in
      let two_thirds := of_ratio 2 3 in
      let total := linear_squared + angular_squared in
      Ok (if total <=? zero then Mixed
          else if linear_squared >? two_thirds * total then Positional
          else if angular_squared >? two_thirds * total then Rotational
          else Mixed)).
  (** kinematic_jacobian.rs:360-369 *)
  Definition damped_pseudo_inverse (max_config : nat) (j : jacobian T) (weights : list T) (damping : T) : Res (mat T) KinematicsError :=
    bind (weighted_transpose max_config j weights) (fun w =>
    let damped := mat_add (mat_mul 6 max_config 6 (kj_entries j) w) (mat_scale 6 6 (identity 6) (damping * damping)) in
    bind (linalg (svd_of 6 6 damped)) (fun d => Ok (mat_mul max_config 6 6 w (svd_pseudo_inverse 6 6 d)))).
  (** kinematic_jacobian.rs:415-423 *)
  Definition null_space_projector (max_config : nat) (j : jacobian T) (weights : list T) (damping : T) : Res (mat T) KinematicsError :=
    bind (damped_pseudo_inverse max_config j weights damping) (fun inverse =>
    Ok (mat_sub (identity max_config) (mat_mul max_config 6 max_config inverse (kj_entries j)))).

  (** inverse_kinematics.rs:100-115 *)
  Definition ik_new (max_config : nat) : ik T :=
    {| ik_position_tolerance := of_ratio 1 1000000; ik_orientation_tolerance := of_ratio 1 1000000; ik_maximum_iterations := 100;
       ik_singular_value_threshold := of_ratio 1 1000; ik_maximum_damping := of_ratio 1 100; ik_maximum_step_norm := of_ratio 1 5;
       ik_minimum_step_norm := of_ratio 1 1000000000000; ik_respect_limits := true; ik_joint_weights := repeat one max_config;
       ik_secondary_objective := NoObjective; ik_secondary_gain := of_ratio 1 10 |}.

  (** inverse_kinematics.rs:424-438, one joint *)
  Definition hold_joint (t : tree T) (configuration : list T) (index : nat) : list T :=
    match tree_joint t index with
    | None => configuration
    | Some j =>
        if kind_eqb (jt_kind j) Floating then configuration
        else match jt_limits j, config_offset t index with
        | Some (lower, upper), Some config_at =>
            match nth_error configuration config_at with
            | Some slot => set_nth configuration config_at (min (max slot lower) upper)
            | None => configuration
            end
        | _, _ => configuration
        end
    end.
  (** inverse_kinematics.rs:415-440 *)
  Definition hold_inside_limits (s : ik T) (t : tree T) (configuration : list T) : list T :=
    if negb (ik_respect_limits s) then configuration else fold_left (hold_joint t) (seq 0 (tree_len t)) configuration.

  (** inverse_kinematics.rs:444-450 *)
  Definition split_error (task_error : vec6 T) : T * T := (norm3 (fst task_error), norm3 (snd task_error)).
  (** inverse_kinematics.rs:289: the error of the pose of the tool in its own frame *)
  Definition task_error (current target : se3 T) : vec6 T := se3_log (se3_compose (se3_inverse current) target).

  (** inverse_kinematics.rs:482-487 *)
  Definition damping_squared (smallest threshold maximum_damping : T) : T :=
    if smallest >=? threshold then zero
    else let ratio := smallest / threshold in maximum_damping * maximum_damping * (one - ratio * ratio).
  (** inverse_kinematics.rs:457-499 *)
  Definition joint_step (max_config : nat) (j : jacobian T) (error : vec6 T) (bias weights : list T) (threshold maximum_damping : T) : Res (list T) KinematicsError :=
    let entries := kj_entries j in
    bind (weighted_transpose max_config j weights) (fun w =>
    let base := mat_mul 6 max_config 6 entries w in
    bind (linalg (svd_of 6 6 base)) (fun base_svd =>
    let damping := damping_squared (smallest_of base_svd) threshold maximum_damping in
    let damped := mat_add base (mat_scale 6 6 (identity 6) damping) in
    bind (linalg (svd_of 6 6 damped)) (fun damped_svd =>
    let task_step := mat_vec max_config 6 w (svd_solve 6 6 damped_svd (list6 error)) in
    let projected := mat_vec max_config 6 w (svd_solve 6 6 damped_svd (mat_vec 6 max_config entries bias)) in
    Ok (vec_add task_step (vec_sub bias projected))))).

  (** inverse_kinematics.rs:516-557, one joint *)
  Definition bias_joint (objective : SecondaryObjective T) (t : tree T) (configuration : list T) (gain : T) (bias : list T) (index : nat) : list T :=
    match tree_joint t index, config_offset t index, velocity_offset t index with
    | Some j, Some config_at, Some velocity_at =>
        if kind_eqb (jt_kind j) Fixed || kind_eqb (jt_kind j) Floating then bias
        else match nth_error configuration config_at with
        | None => bias
        | Some reading =>
            match objective with
            | NoObjective => bias
            | PreferredPosture reference =>
                match nth_error reference config_at with
                | Some preferred =>
                    if kind_eqb (jt_kind j) Continuous then set_nth bias velocity_at (gain * wrap_to_pi (preferred - reading))
                    else set_nth bias velocity_at (gain * (preferred - reading))
                | None => bias
                end
            | JointLimitMargin =>
                match jt_limits j with
                | Some (lower, upper) =>
                    if upper >? lower then set_nth bias velocity_at (gain * ((lower + upper) * half - reading) / (upper - lower)) else bias
                | None => bias
                end
            end
        end
    | _, _, _ => bias
    end.
  (** inverse_kinematics.rs:504-560 *)
  Definition secondary_bias (max_config : nat) (objective : SecondaryObjective T) (t : tree T) (configuration : list T) (gain : T) : list T :=
    match objective with
    | NoObjective => vec_zeros max_config
    | _ => fold_left (bias_joint objective t configuration gain) (seq 0 (tree_len t)) (vec_zeros max_config)
    end.

  (** inverse_kinematics.rs:573-594, one joint *)
  Definition mask_joint (step : list T) (t : tree T) (masked : list T) (index : nat) : list T :=
    match tree_joint t index, velocity_offset t index with
    | Some j, Some velocity_at =>
        if kind_eqb (jt_kind j) Fixed then masked
        else
          let width := if kind_eqb (jt_kind j) Floating then 6%nat else 1%nat in
          fold_left (fun masked offset =>
            match nth_error step (velocity_at + offset) with Some src => set_nth masked (velocity_at + offset) src | None => masked end) (seq 0 width) masked
    | _, _ => masked
    end.
  (** inverse_kinematics.rs:566-602 *)
  Definition limited_step (max_config : nat) (step : list T) (t : tree T) (maximum_step_norm : T) : list T :=
    let masked := fold_left (mask_joint step t) (seq 0 (tree_len t)) (vec_zeros max_config) in
    let n := norm masked in
    if (n >? maximum_step_norm) && (n >? zero) then vec_scale masked (maximum_step_norm / n) else masked.

  (** inverse_kinematics.rs:337-374: a floating joint's seven numbers after the step, when those before it have a direction *)
  Definition moved_free (configuration step : list T) (config_at velocity_at : nat) : option (list T) :=
    match place_of configuration config_at with
    | None => None
    | Some current_free =>
        let g slot := nth (velocity_at + slot) step zero in
        let new_position := add3 (se3_translation (fj_pose current_free)) (g 0%nat, g 1%nat, g 2%nat) in
        let new_orientation := attitude_step (se3_rotation (fj_pose current_free)) (g 3%nat, g 4%nat, g 5%nat) one in
        let '(position, (w, x, y, z)) := generalized_position (FreeJoint (SE3 new_orientation new_position) twist_zeros) in
        Some (list3 position ++ [w; x; y; z])
    end.
  (** inverse_kinematics.rs:326-379, one joint *)
  Definition move_joint (t : tree T) (configuration step next : list T) (index : nat) : list T :=
    match tree_joint t index, config_offset t index, velocity_offset t index with
    | Some j, Some config_at, Some velocity_at =>
        if kind_eqb (jt_kind j) Floating then
          match moved_free configuration step config_at velocity_at with
          | None => next
          | Some place => fold_left (fun next slot => set_nth next (config_at + slot) (nth slot place zero)) (seq 0 7) next
          end
        else match nth_error next config_at, nth_error step velocity_at with
        | Some dst, Some change => set_nth next config_at (dst + change)
        | _, _ => next
        end
    | _, _, _ => next
    end.
  (** inverse_kinematics.rs:324-381 *)
  Definition next_configuration (s : ik T) (t : tree T) (configuration step : list T) : list T :=
    hold_inside_limits s t (fold_left (move_joint t configuration step) (seq 0 (tree_len t)) configuration).

  (** inverse_kinematics.rs:282-290, 398-402: where the tool is at a configuration, and the two sizes of its error *)
  Definition errors_at (max_joints : nat) (t : tree T) (tool_index : nat) (target : se3 T) (configuration : list T)
    : Res (list (se3 T) * vec6 T * (T * T)) KinematicsError :=
    bind (forward_kinematics max_joints configuration t) (fun state =>
    bind (ok_or (nth_error state tool_index) KiToolIndexOutOfRange) (fun current =>
    let error := task_error current target in Ok (state, error, split_error error))).
  (** inverse_kinematics.rs:304-322: the step taken at a configuration *)
  Definition step_at (max_joints max_config : nat) (s : ik T) (t : tree T) (tool_index : nat) (state : list (se3 T)) (error : vec6 T) (configuration : list T)
    : Res (list T) KinematicsError :=
    bind (geometric_jacobian max_joints max_config state tool_index BodyAxes t) (fun j =>
    let bias := secondary_bias max_config (ik_secondary_objective s) t configuration (ik_secondary_gain s) in
    bind (joint_step max_config j error bias (ik_joint_weights s) (ik_singular_value_threshold s) (ik_maximum_damping s)) (fun step =>
    Ok (limited_step max_config step t (ik_maximum_step_norm s)))).
  (** inverse_kinematics.rs:280-394: [remaining] passes are left and [iterations] have been made; [inl] is the report of a pass that ends the
      solve, [inr] the configuration when the passes run out *)
  Fixpoint ik_loop (max_joints max_config : nat) (s : ik T) (t : tree T) (tool_index : nat) (target : se3 T) (remaining iterations : nat) (configuration : list T)
    : Res (ik_report T + list T) KinematicsError :=
    match remaining with
    | O => Ok (inr configuration)
    | S remaining =>
        let iterations := S iterations in
        bind (errors_at max_joints t tool_index target configuration) (fun found =>
        let '(state, error, (position_error, orientation_error)) := found in
        let report termination := {| ik_joint_positions := configuration; ik_position_error := position_error; ik_orientation_error := orientation_error;
                                     ik_iterations := iterations; ik_termination := termination |} in
        if (position_error <=? ik_position_tolerance s) && (orientation_error <=? ik_orientation_tolerance s) then Ok (inl (report IkConverged))
        else
          bind (step_at max_joints max_config s t tool_index state error configuration) (fun step =>
          let next := next_configuration s t configuration step in
          if norm (vec_sub next configuration) <=? ik_minimum_step_norm s then Ok (inl (report IkStalled))
          else ik_loop max_joints max_config s t tool_index target remaining iterations next))
    end.
  (** inverse_kinematics.rs:252-262 *)
  Definition pose_is_finite (target : se3 T) : bool :=
    let '(w, x, y, z) := quat_as_array (se3_rotation target) in is_finite3 (se3_translation target) && forallb is_finite [w; x; y; z].
  (** inverse_kinematics.rs:242-412 *)
  Definition ik_solve (max_joints max_config : nat) (s : ik T) (t : tree T) (tool_index : nat) (target : se3 T) (seed : list T) : Res (ik_report T) KinematicsError :=
    if Nat.leb (tree_len t) tool_index then Err KiToolIndexOutOfRange
    else if negb (vec_is_finite seed) || negb (pose_is_finite target) then Err KiNonFinite
    else
      bind (check_weights (ik_joint_weights s) (seq 0 (velocity_len t))) (fun _ =>
      bind (ik_loop max_joints max_config s t tool_index target (ik_maximum_iterations s) 0 (hold_inside_limits s t seed)) (fun ended =>
      match ended with
      | inl report => Ok report
      | inr configuration =>
          let report errors := {| ik_joint_positions := configuration; ik_position_error := fst errors; ik_orientation_error := snd errors;
                                  ik_iterations := ik_maximum_iterations s; ik_termination := IkIterationBudget |} in
          if Nat.ltb 0 (ik_maximum_iterations s)
          then bind (errors_at max_joints t tool_index target configuration) (fun found => Ok (report (snd found)))
          else Ok (report (zero, zero))
      end)).

  (** multi_start_inverse_kinematics.rs:57-63 *)
  Definition ms_new (max_config : nat) : multi_start T :=
    {| ms_solver := ik_new max_config; ms_distinct_threshold := of_ratio 1 1000; ms_jitter_span := pi |}.
  (** multi_start_inverse_kinematics.rs:244-257 *)
  Definition ms_empty : ms_report T := {| ms_solutions := []; ms_attempts := 0 |}.
  (** multi_start_inverse_kinematics.rs:263-280 *)
  Definition ms_insert (max_starts : nat) (t : tree T) (candidate : ik_report T) (distinct_threshold : T) (solutions : list (ik_report T)) : list (ik_report T) :=
    if existsb (fun existing => configuration_distance (ik_joint_positions existing) (ik_joint_positions candidate) t <? distinct_threshold) solutions then solutions
    else if Nat.ltb (length solutions) max_starts then solutions ++ [candidate] else solutions.
  (** multi_start_inverse_kinematics.rs:139-143, 178-182: one start *)
  Definition ms_start (max_joints max_config max_starts : nat) (m : multi_start T) (t : tree T) (tool_index : nat) (target : se3 T) (seed : list T) (report : ms_report T)
    : Res (ms_report T) KinematicsError :=
    bind (ik_solve max_joints max_config (ms_solver m) t tool_index target seed) (fun attempt =>
    Ok {| ms_solutions := match ik_termination attempt with
            | IkConverged => ms_insert max_starts t attempt (ms_distinct_threshold m) (ms_solutions report)
            | _ => ms_solutions report end;
          ms_attempts := S (ms_attempts report) |}).
  (** multi_start_inverse_kinematics.rs:138-145 *)
  Fixpoint ms_run (max_joints max_config max_starts : nat) (m : multi_start T) (t : tree T) (tool_index : nat) (target : se3 T) (seeds : list (list T)) (report : ms_report T)
    : Res (ms_report T) KinematicsError :=
    match seeds with
    | [] => Ok report
    | seed :: rest => bind (ms_start max_joints max_config max_starts m t tool_index target seed report) (ms_run max_joints max_config max_starts m t tool_index target rest)
    end.
  (** multi_start_inverse_kinematics.rs:127-146 *)
  Definition solve_from_seeds (max_joints max_config max_starts : nat) (m : multi_start T) (t : tree T) (tool_index : nat) (target : se3 T) (seeds : list (list T))
    : Res (ms_report T) KinematicsError :=
    if Nat.ltb max_starts (length seeds) then Err KiStartCapacityExceeded
    else ms_run max_joints max_config max_starts m t tool_index target seeds ms_empty.

  Section Seeded.
    Context {Rng : Type}.
    Variable next_unit : Rng -> T * Rng.
    (** multi_start_inverse_kinematics.rs:203-222, one joint *)
    Definition jitter_joint (t : tree T) (base_seed : list T) (jitter_span : T) (st : list T * Rng) (index : nat) : list T * Rng :=
      let (seed, source) := st in
      match tree_joint t index, config_offset t index with
      | Some j, Some offset =>
          if kind_eqb (jt_kind j) Fixed || kind_eqb (jt_kind j) Floating then st
          else match nth_error base_seed offset with
          | None => st
          | Some base_reading =>
              let (draw, source) := next_unit source in
              let reading := match jt_limits j with
                | Some (lower, upper) => lower + draw * (upper - lower)
                | None => base_reading + (draw * two - one) * jitter_span end in
              (set_nth seed offset reading, source)
          end
      | _, _ => st
      end.
    (** multi_start_inverse_kinematics.rs:190-225 *)
    Definition jittered_seed (t : tree T) (base_seed : list T) (jitter_span : T) (source : Rng) : list T * Rng :=
      fold_left (jitter_joint t base_seed jitter_span) (seq 0 (tree_len t)) (base_seed, source).
    (** multi_start_inverse_kinematics.rs:172-183: [draw] starts have been made and [count] are left *)
    Fixpoint ms_seeded (max_joints max_config max_starts : nat) (m : multi_start T) (t : tree T) (tool_index : nat) (target : se3 T) (base_seed : list T)
      (count draw : nat) (source : Rng) (report : ms_report T) : Res (ms_report T) KinematicsError * Rng :=
      match count with
      | O => (Ok report, source)
      | S count =>
          let (seed, source) := if Nat.eqb draw 0 then (base_seed, source) else jittered_seed t base_seed (ms_jitter_span m) source in
          match ms_start max_joints max_config max_starts m t tool_index target seed report with
          | Ok report => ms_seeded max_joints max_config max_starts m t tool_index target base_seed count (S draw) source report
          | Err e => (Err e, source)
          | Panic => (Panic, source)
          end
      end.
    (** multi_start_inverse_kinematics.rs:156-185 *)
    Definition solve_seeded (max_joints max_config max_starts : nat) (m : multi_start T) (t : tree T) (tool_index : nat) (target : se3 T) (base_seed : list T)
      (count : nat) (source : Rng) : Res (ms_report T) KinematicsError * Rng :=
      if Nat.ltb max_starts count then (Err KiStartCapacityExceeded, source)
      else ms_seeded max_joints max_config max_starts m t tool_index target base_seed count 0 source ms_empty.
  End Seeded.

  (** multi_start_inverse_kinematics.rs:313-323 *)
  Definition closer (t : tree T) (reference : list T) (best : option (ik_report T * T)) (solution : ik_report T) : option (ik_report T * T) :=
    let distance := configuration_distance (ik_joint_positions solution) reference t in
    match best with
    | Some (_, best_distance) => if distance <? best_distance then Some (solution, distance) else best
    | None => Some (solution, distance)
    end.
  (** multi_start_inverse_kinematics.rs:308-325; the code keeps the index of the best, here it is the solution at that index *)
  Definition closest_to (t : tree T) (reference : list T) (report : ms_report T) : option (ik_report T) :=
    option_map fst (fold_left (closer t reference) (ms_solutions report) None).
End InverseKinematics.
