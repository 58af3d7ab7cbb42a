(** crates/multicalc/src/motion/motion_profile.rs and polyline_path.rs, over any scalar. *)
From Coq Require Import ZArith List Bool Arith.
From Verif Require Import Base.Scalar Base.Lists Model.Errors Model.Vector.
Import ListNotations.

Section Motion.
  Context {T : Type} {NT : Num T}.
  Local Open Scope num_scope.

  (** motion_profile.rs:16-20 *)
  Record Limits := { li_speed : T; li_acceleration : T; li_jerk : option T }.

  (** motion_profile.rs:28: the closure [positive] *)
  Definition limit_positive (value : T) : bool := (is_finite value && (zero <? value))%bool.

  (** motion_profile.rs:27-44 *)
  Definition limits_try_new (speed acceleration : T) (jerk : option T) : Res Limits MotionError :=
    if (negb (limit_positive speed) || negb (limit_positive acceleration))%bool then Err MoLimitNotPositive
    else match jerk with
         | Some jerk_limit =>
             if negb (limit_positive jerk_limit) then Err MoLimitNotPositive
             else Ok {| li_speed := speed; li_acceleration := acceleration; li_jerk := jerk |}
         | None => Ok {| li_speed := speed; li_acceleration := acceleration; li_jerk := jerk |}
         end.

  (** motion_profile.rs:68-76 *)
  Inductive Strategy := Automatic | Trapezoidal | JerkLimited.

  (** motion_profile.rs:80-89 *)
  Record MotionState := { ms_position : T; ms_velocity : T; ms_acceleration : T; ms_jerk : T }.

  (** motion_profile.rs:93-99 *)
  Record Phase := {
    ph_duration : T; ph_jerk : T; ph_position : T; ph_velocity : T; ph_acceleration : T
  }.

  (** motion_profile.rs:144-148; the seven phases are a list *)
  Record Profile := { pr_phases : list Phase; pr_duration : T; pr_distance : T }.

  (** motion_profile.rs:181-184: the position after [elapsed] of a phase, and 274-277, the same expression *)
  Definition advance_position (position velocity acceleration jerk elapsed : T) : T :=
    position + velocity * elapsed + acceleration * elapsed * elapsed * half
    + jerk * elapsed * elapsed * elapsed / of_Z 6.
  (** motion_profile.rs:185-186 and 278-280 *)
  Definition advance_velocity (velocity acceleration jerk elapsed : T) : T :=
    velocity + acceleration * elapsed + jerk * elapsed * elapsed * half.

  (** motion_profile.rs:168-188, the loop; [plan] lists (duration, jerk, acceleration) *)
  Fixpoint phase_plan (plan : list (T * T * T)) (sign total position velocity : T)
    : list Phase * T * T :=
    match plan with
    | [] => ([], total, position)
    | (duration, jerk, acceleration) :: rest =>
        let start_acceleration := acceleration * sign in
        let signed_jerk := jerk * sign in
        let '(phases, t, d) :=
          phase_plan rest sign (total + duration)
            (advance_position position velocity start_acceleration signed_jerk duration)
            (advance_velocity velocity start_acceleration signed_jerk duration) in
        ({| ph_duration := duration; ph_jerk := signed_jerk; ph_position := position;
            ph_velocity := velocity; ph_acceleration := start_acceleration |} :: phases, t, d)
    end.

  (** motion_profile.rs:157-195 *)
  Definition from_phase_plan (plan : list (T * T * T)) (sign : T) : Profile :=
    let '(phases, t, d) := phase_plan plan sign zero zero zero in
    {| pr_phases := phases; pr_duration := t; pr_distance := d |}.

  (** motion_profile.rs:213-217 *)
  Definition peak_speed (p : Profile) : T :=
    match nth_error (pr_phases p) 3 with Some cruise => ph_velocity cruise | None => zero end.

  (** motion_profile.rs:222-228 *)
  Definition phase_durations (p : Profile) : list T :=
    map (fun index => match nth_error (pr_phases p) index with Some ph => ph_duration ph | None => zero end) (seq 0 7).

  (** motion_profile.rs:240-255 *)
  Definition stretched_to (p : Profile) (duration : T) : Profile :=
    if (negb (is_finite duration) || (duration <=? pr_duration p) || (pr_duration p <=? zero))%bool then p
    else
      let scale := duration / pr_duration p in
      {| pr_phases := map (fun ph =>
           {| ph_duration := ph_duration ph * scale;
              ph_jerk := ph_jerk ph / (scale * scale * scale);
              ph_position := ph_position ph;
              ph_velocity := ph_velocity ph / scale;
              ph_acceleration := ph_acceleration ph / (scale * scale) |}) (pr_phases p);
         pr_duration := duration; pr_distance := pr_distance p |}.

  (** motion_profile.rs:268-286, the loop *)
  Fixpoint state_loop (phases : list Phase) (phase_start clamped : T) : option MotionState :=
    match phases with
    | [] => None
    | ph :: rest =>
        let phase_end := phase_start + ph_duration ph in
        if phase_end >? clamped then
          let elapsed := clamped - phase_start in
          Some {| ms_position := advance_position (ph_position ph) (ph_velocity ph) (ph_acceleration ph)
                                   (ph_jerk ph) elapsed;
                  ms_velocity := advance_velocity (ph_velocity ph) (ph_acceleration ph) (ph_jerk ph) elapsed;
                  ms_acceleration := ph_acceleration ph + ph_jerk ph * elapsed;
                  ms_jerk := ph_jerk ph |}
        else state_loop rest phase_end clamped
    end.

  (** motion_profile.rs:262-295 *)
  Definition state_at (p : Profile) (time : T) : Res MotionState MotionError :=
    if negb (is_finite time) then Err MoNonFinite
    else match state_loop (pr_phases p) zero (min (max time zero) (pr_duration p)) with
         | Some state => Ok state
         | None => Ok {| ms_position := pr_distance p; ms_velocity := zero; ms_acceleration := zero; ms_jerk := zero |}
         end.

  (** motion_profile.rs:300-307 *)
  Definition plan_still (sign : T) : Profile := from_phase_plan (repeat (zero, zero, zero) 7) sign.

  (** motion_profile.rs:313-352 *)
  Definition plan_trapezoidal (distance : T) (limits : Limits) (sign : T) : Profile :=
    let acceleration_limit := li_acceleration limits in
    let speed_reachable := sqrt (distance * acceleration_limit) in
    let peak := min (li_speed limits) speed_reachable in
    if peak <=? zero then plan_still sign
    else
      let acceleration_time := peak / acceleration_limit in
      let cruise_time := max ((distance - peak * acceleration_time) / peak) zero in
      from_phase_plan
        [(zero, zero, zero); (acceleration_time, zero, acceleration_limit); (zero, zero, zero);
         (cruise_time, zero, zero); (zero, zero, zero); (acceleration_time, zero, - acceleration_limit);
         (zero, zero, zero)] sign.

  (** motion_profile.rs:359-367 *)
  Definition acceleration_ramp (peak acceleration_limit jerk_limit : T) : T * T :=
    if peak * jerk_limit >=? acceleration_limit * acceleration_limit then
      let jerk_time := acceleration_limit / jerk_limit in
      (jerk_time, max (peak / acceleration_limit - jerk_time) zero)
    else (sqrt (peak / jerk_limit), zero).

  (** motion_profile.rs:383-391: the peak velocity the displacement allows *)
  Definition jerk_speed_reachable (distance acceleration_limit jerk_limit : T) : T :=
    let speed_triangular := cbrt (distance * distance * jerk_limit / of_Z 4) in
    if speed_triangular * jerk_limit <? acceleration_limit * acceleration_limit then speed_triangular
    else
      let ratio := acceleration_limit * acceleration_limit / jerk_limit in
      (- ratio + sqrt (ratio * ratio + acceleration_limit * distance * of_Z 4)) * half.

  (** motion_profile.rs:373-432 *)
  Definition plan_jerk_limited (distance : T) (limits : Limits) (jerk_limit sign : T) : Profile :=
    let acceleration_limit := li_acceleration limits in
    let peak := min (li_speed limits) (jerk_speed_reachable distance acceleration_limit jerk_limit) in
    if peak <=? zero then plan_still sign
    else
      let '(jerk_time, hold_time) := acceleration_ramp peak acceleration_limit jerk_limit in
      let ramp_time := jerk_time + jerk_time + hold_time in
      let cruise_time := max ((distance - peak * ramp_time) / peak) zero in
      let peak_acceleration := jerk_limit * jerk_time in
      from_phase_plan
        [(jerk_time, jerk_limit, zero); (hold_time, zero, peak_acceleration);
         (jerk_time, - jerk_limit, peak_acceleration); (cruise_time, zero, zero);
         (jerk_time, - jerk_limit, zero); (hold_time, zero, - peak_acceleration);
         (jerk_time, jerk_limit, - peak_acceleration)] sign.

  (** motion_profile.rs:504-521; the planner is its limits and strategy *)
  Definition plan (limits : Limits) (strategy : Strategy) (distance : T) : Res Profile MotionError :=
    if negb (is_finite distance) then Err MoNonFinite
    else
      let magnitude := abs distance in
      let sign := if distance <? zero then - one else one in
      match strategy, li_jerk limits with
      | JerkLimited, None => Err MoJerkLimitRequired
      | Trapezoidal, _ | Automatic, None => Ok (plan_trapezoidal magnitude limits sign)
      | Automatic, Some jerk_limit | JerkLimited, Some jerk_limit =>
          Ok (plan_jerk_limited magnitude limits jerk_limit sign)
      end.

  (** motion_profile.rs:565-568 *)
  Record Synchronized := { sy_axes : list Profile; sy_duration : T }.

  (** motion_profile.rs:652-655 *)
  Definition slowest_duration (axes : list Profile) : T :=
    fold_left (fun longest axis => max longest (pr_duration axis)) axes zero.
  (** motion_profile.rs:659-668 *)
  Definition stretched_axes (axes : list Profile) (target : T) : list Profile :=
    map (fun axis => stretched_to axis target) axes.

  (** motion_profile.rs:575-581 *)
  Definition from_profiles (axes : list Profile) : Synchronized :=
    let slowest := slowest_duration axes in
    {| sy_axes := stretched_axes axes slowest; sy_duration := slowest |}.

  (** motion_profile.rs:587-601 *)
  Definition try_from_profiles_over (axes : list Profile) (duration : T) : Res Synchronized MotionError :=
    if (negb (is_finite duration) || (duration <=? zero))%bool then Err MoDurationNotPositive
    else
      let target := max duration (slowest_duration axes) in
      Ok {| sy_axes := stretched_axes axes target; sy_duration := target |}.

  (** motion_profile.rs:619-648: the state of every axis; the four vectors of [SynchronizedState] are kept
      together as one list of states *)
  Fixpoint synchronized_states (axes : list Profile) (time : T) : Res (list MotionState) MotionError :=
    match axes with
    | [] => Ok []
    | axis :: rest =>
        match state_at axis time with
        | Ok state =>
            match synchronized_states rest time with
            | Ok states => Ok (state :: states)
            | Err e => Err e
            | Panic => Panic
            end
        | Err e => Err e
        | Panic => Panic
        end
    end.
  Definition synchronized_state_at (s : Synchronized) (time : T) : Res (list MotionState) MotionError :=
    synchronized_states (sy_axes s) time.

  (** polyline_path.rs:10-15 *)
  Inductive EndOfPath := Stop | Loop.

  (** polyline_path.rs:19-24 *)
  Record Projection := { pj_point : list T; pj_segment : nat; pj_arc_length : T; pj_distance : T }.

  (** polyline_path.rs:84-89; both arrays have MAX_POINTS slots *)
  Record Path := {
    pa_points : list (list T); pa_cumulative : list T; pa_length : nat; pa_end : EndOfPath
  }.

  (** polyline_path.rs:105-112 *)
  Definition path_new (max_points dimension : nat) : Path := {|
    pa_points := repeat (vec_zeros dimension) max_points; pa_cumulative := repeat zero max_points;
    pa_length := 0; pa_end := Stop
  |}.

  (** polyline_path.rs:135-147: the loop over the pairs of neighbouring waypoints, writing slots from [index] on;
      zipped with the slots, it stops where they end *)
  Fixpoint fill_slots (previous : list T) (following : list (list T)) (index : nat) (acc : T)
      (points : list (list T)) (cumulative : list T) : list (list T) * list T :=
    match following with
    | [] => (points, cumulative)
    | b :: rest =>
        let acc := acc + norm (vec_sub b previous) in
        fill_slots b rest (S index) acc (set_nth points index b) (set_nth cumulative index acc)
    end.

  (** polyline_path.rs:118-151.  [path.points[0]] is in bounds: a first point exists, so MAX_POINTS is not zero. *)
  Definition path_try_from_points (max_points dimension : nat) (points : list (list T)) : Res Path MotionError :=
    if Nat.ltb max_points (length points) then Err MoCapacityExceeded
    else if existsb (fun point => negb (vec_is_finite point)) points then Err MoNonFinite
    else
      let path := path_new max_points dimension in
      match points with
      | [] => Ok path
      | first_point :: rest =>
          let '(slots, cumulative) :=
            fill_slots first_point rest 1 zero (set_nth (pa_points path) 0 first_point)
              (set_nth (pa_cumulative path) 0 zero) in
          Ok {| pa_points := slots; pa_cumulative := cumulative; pa_length := length points; pa_end := pa_end path |}
      end.

  (** polyline_path.rs:157-195 *)
  Definition path_push (max_points : nat) (path : Path) (point : list T) : Res Path MotionError :=
    if Nat.eqb (pa_length path) max_points then Err MoCapacityExceeded
    else if negb (vec_is_finite point) then Err MoNonFinite
    else
      let acc :=
        if Nat.eqb (pa_length path) 0 then Some zero
        else
          let last_index := (pa_length path - 1)%nat in
          match nth_error (pa_points path) last_index, nth_error (pa_cumulative path) last_index with
          | Some last_point, Some last_cumulative => Some (last_cumulative + norm (vec_sub point last_point))
          | _, _ => None
          end in
      match acc, nth_error (pa_points path) (pa_length path), nth_error (pa_cumulative path) (pa_length path) with
      | Some acc, Some _, Some _ =>
          Ok {| pa_points := set_nth (pa_points path) (pa_length path) point;
                pa_cumulative := set_nth (pa_cumulative path) (pa_length path) acc;
                pa_length := S (pa_length path); pa_end := pa_end path |}
      | _, _, _ => Err MoCapacityExceeded
      end.

  (** polyline_path.rs:200-203 *)
  Definition path_with_end_of_path (path : Path) (mode : EndOfPath) : Path := {|
    pa_points := pa_points path; pa_cumulative := pa_cumulative path; pa_length := pa_length path; pa_end := mode
  |}.

  (** polyline_path.rs:221-223: [get(..length)] is [None] when the length exceeds the slots *)
  Definition waypoints (path : Path) : list (list T) :=
    if Nat.leb (pa_length path) (length (pa_points path)) then firstn (pa_length path) (pa_points path) else [].

  (** polyline_path.rs:227-236 *)
  Definition total_arc_length (path : Path) : T :=
    if Nat.eqb (pa_length path) 0 then zero
    else match nth_error (pa_cumulative path) (pa_length path - 1) with Some t => t | None => zero end.

  (** polyline_path.rs:260-297, the loop over [windows(2)]; [Err MoOutOfSync] as the early return *)
  Fixpoint closest_loop (cumulative : list T) (query a : list T) (following : list (list T)) (segment_index : nat)
      (best : option Projection) : Res (option Projection) MotionError :=
    match following with
    | [] => Ok best
    | b :: rest =>
        let direction := vec_sub b a in
        let denominator := norm_squared direction in
        let segment_length := norm direction in
        let '(candidate, parameter) :=
          if denominator =? zero then (a, zero)
          else
            let parameter := min (max (dot (vec_sub query a) direction / denominator) zero) one in
            (vec_add a (vec_scale direction parameter), parameter) in
        let distance := norm (vec_sub query candidate) in
        let improved := match best with Some current => distance <? pj_distance current | None => true end in
        if improved then
          match nth_error cumulative segment_index with
          | None => Err MoOutOfSync
          | Some arc =>
              closest_loop cumulative query b rest (S segment_index)
                (Some {| pj_point := candidate; pj_segment := segment_index;
                         pj_arc_length := arc + segment_length * parameter; pj_distance := distance |})
          end
        else closest_loop cumulative query b rest (S segment_index) best
    end.

  (** polyline_path.rs:242-299 *)
  Definition closest_point (path : Path) (query : list T) : Res Projection MotionError :=
    match waypoints path with
    | [] => Err MoPathTooShort
    | first :: rest =>
        if Nat.eqb (pa_length path) 1 then
          Ok {| pj_point := first; pj_segment := 0; pj_arc_length := zero; pj_distance := norm (vec_sub query first) |}
        else
          match closest_loop (pa_cumulative path) query first rest 0 None with
          | Ok (Some best) => Ok best
          | Ok None => Err MoPathTooShort
          | Err e => Err e
          | Panic => Panic
          end
    end.

  (** polyline_path.rs:337-357, the loop over [windows(2)]; [None] when it runs off the end *)
  Fixpoint lookahead_loop (cumulative : list T) (target : T) (a : list T) (following : list (list T))
      (segment_index : nat) : Res (option (list T)) MotionError :=
    match following with
    | [] => Ok None
    | b :: rest =>
        let direction := vec_sub b a in
        let segment_length := norm direction in
        if segment_length =? zero then lookahead_loop cumulative target b rest (S segment_index)
        else
          match nth_error cumulative segment_index with
          | None => Err MoOutOfSync
          | Some arc_length =>
              if arc_length + segment_length >=? target then
                let parameter := (target - arc_length) / segment_length in
                Ok (Some (vec_add a (vec_scale direction parameter)))
              else lookahead_loop cumulative target b rest (S segment_index)
          end
    end.

  (** polyline_path.rs:305-359 *)
  Definition lookahead_point (path : Path) (from_arc_length lookahead : T) : Res (list T) MotionError :=
    match waypoints path with
    | [] => Err MoPathTooShort
    | first :: rest =>
        if Nat.eqb (pa_length path) 1 then Ok first
        else
          let last := List.last rest first in
          let total := total_arc_length path in
          let target := from_arc_length + lookahead in
          let walk target :=
            match lookahead_loop (pa_cumulative path) target first rest 0 with
            | Ok (Some point) => Ok point
            | Ok None => Ok last
            | Err e => Err e
            | Panic => Panic
            end in
          match pa_end path with
          | Stop => if target >=? total then Ok last else walk target
          | Loop => if zero <? total then walk (target - total * floor (target / total)) else Ok first
          end
    end.
End Motion.
