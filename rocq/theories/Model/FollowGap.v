(** crates/multicalc/src/control/follow_the_gap.rs, over any scalar.
    A scan [&[T; BEAMS]] is a list; [BEAMS] is passed as [beams].  [BodyTwist] (kinematics/differential_drive.rs:49-52)
    is its two fields, [fo_linear] and [fo_angular]. *)
From Coq Require Import ZArith List Bool Arith.
From Verif Require Import Base.Scalar Model.Errors Model.Mapping.
Import ListNotations.

Section FollowGap.
  Context {T : Type} {NT : Num T}.
  Local Open Scope num_scope.
  Local Open Scope bool_scope.

  (** follow_the_gap.rs:28-49 *)
  Record Follower := {
    fg_field_of_view : T; fg_maximum_range : T; fg_chassis_width : T; fg_free_range_threshold : T;
    fg_cruise_speed : T; fg_steering_gain : T; fg_goal_bias : T; fg_stopping_distance : T;
    fg_clear_distance : T; fg_frontal_half_angle : T
  }.
  (** follow_the_gap.rs:53-60 *)
  Record FollowOutput := {
    fo_linear : T; fo_angular : T; fo_heading : T; fo_gap_start : nat; fo_gap_end : nat;
    fo_minimum_clearance : T; fo_blocked : bool
  }.
  (** follow_the_gap.rs:66-75 *)
  Definition stopped (minimum_clearance : T) : FollowOutput := {|
    fo_linear := zero; fo_angular := zero; fo_heading := zero; fo_gap_start := 0; fo_gap_end := 0;
    fo_minimum_clearance := minimum_clearance; fo_blocked := true |}.

  (** follow_the_gap.rs:135-183 *)
  Definition follower_try_new (beams : nat)
      (field_of_view maximum_range chassis_width free_range_threshold cruise_speed : T) : Res Follower ControlError :=
    if Nat.ltb beams 2 then Err CoInvalidBeamCount
    else if negb (is_finite field_of_view) || negb (is_finite maximum_range) || negb (is_finite chassis_width)
            || negb (is_finite free_range_threshold) || negb (is_finite cruise_speed) then Err CoNonFinite
    else if (field_of_view <=? zero) || (field_of_view >? two_pi) then Err CoInvalidFieldOfView
    else if (maximum_range <=? zero) || (free_range_threshold <=? zero) || (free_range_threshold >? maximum_range)
         then Err CoNonPositiveRange
    else if (chassis_width <=? zero) || (chassis_width * half >=? maximum_range) then Err CoNonPositiveChassisWidth
    else if cruise_speed <=? zero then Err CoNonPositiveSpeed
    else Ok {|
      fg_field_of_view := field_of_view; fg_maximum_range := maximum_range; fg_chassis_width := chassis_width;
      fg_free_range_threshold := free_range_threshold; fg_cruise_speed := cruise_speed;
      fg_steering_gain := of_ratio 3 2; fg_goal_bias := of_ratio 1 2;
      fg_stopping_distance := chassis_width * half; fg_clear_distance := maximum_range;
      fg_frontal_half_angle := field_of_view / of_ratio 4 1 |}.

  (** follow_the_gap.rs:189-198 *)
  Definition with_steering_gain (c : Follower) (steering_gain : T) : Res Follower ControlError :=
    if negb (is_finite steering_gain) then Err CoNonFinite
    else if steering_gain <=? zero then Err CoNonPositiveSpeed
    else Ok {|
      fg_field_of_view := fg_field_of_view c; fg_maximum_range := fg_maximum_range c;
      fg_chassis_width := fg_chassis_width c; fg_free_range_threshold := fg_free_range_threshold c;
      fg_cruise_speed := fg_cruise_speed c; fg_steering_gain := steering_gain; fg_goal_bias := fg_goal_bias c;
      fg_stopping_distance := fg_stopping_distance c; fg_clear_distance := fg_clear_distance c;
      fg_frontal_half_angle := fg_frontal_half_angle c |}.
  (** follow_the_gap.rs:204-213 *)
  Definition with_goal_bias (c : Follower) (goal_bias : T) : Res Follower ControlError :=
    if negb (is_finite goal_bias) then Err CoNonFinite
    else if goal_bias <? zero then Err CoNegativeGoalBias
    else Ok {|
      fg_field_of_view := fg_field_of_view c; fg_maximum_range := fg_maximum_range c;
      fg_chassis_width := fg_chassis_width c; fg_free_range_threshold := fg_free_range_threshold c;
      fg_cruise_speed := fg_cruise_speed c; fg_steering_gain := fg_steering_gain c; fg_goal_bias := goal_bias;
      fg_stopping_distance := fg_stopping_distance c; fg_clear_distance := fg_clear_distance c;
      fg_frontal_half_angle := fg_frontal_half_angle c |}.
  (** follow_the_gap.rs:220-234 *)
  Definition with_speed_scaling (c : Follower) (stopping_distance clear_distance : T) : Res Follower ControlError :=
    if negb (is_finite stopping_distance) || negb (is_finite clear_distance) then Err CoNonFinite
    else if (stopping_distance <? zero) || (stopping_distance >=? clear_distance) then Err CoInvalidSpeedScaling
    else Ok {|
      fg_field_of_view := fg_field_of_view c; fg_maximum_range := fg_maximum_range c;
      fg_chassis_width := fg_chassis_width c; fg_free_range_threshold := fg_free_range_threshold c;
      fg_cruise_speed := fg_cruise_speed c; fg_steering_gain := fg_steering_gain c; fg_goal_bias := fg_goal_bias c;
      fg_stopping_distance := stopping_distance; fg_clear_distance := clear_distance;
      fg_frontal_half_angle := fg_frontal_half_angle c |}.
  (** follow_the_gap.rs:241-250 *)
  Definition with_frontal_half_angle (c : Follower) (frontal_half_angle : T) : Res Follower ControlError :=
    if negb (is_finite frontal_half_angle) then Err CoNonFinite
    else if (frontal_half_angle <=? zero) || (frontal_half_angle >? fg_field_of_view c * half) then Err CoInvalidFieldOfView
    else Ok {|
      fg_field_of_view := fg_field_of_view c; fg_maximum_range := fg_maximum_range c;
      fg_chassis_width := fg_chassis_width c; fg_free_range_threshold := fg_free_range_threshold c;
      fg_cruise_speed := fg_cruise_speed c; fg_steering_gain := fg_steering_gain c; fg_goal_bias := fg_goal_bias c;
      fg_stopping_distance := fg_stopping_distance c; fg_clear_distance := fg_clear_distance c;
      fg_frontal_half_angle := frontal_half_angle |}.

  (** follow_the_gap.rs:427-432 *)
  Definition sanitized_range (c : Follower) (beam_ranges : list T) (index : nat) : T :=
    match nth_error beam_ranges index with
    | Some range =>
        if is_finite range && (range >? zero) then min range (fg_maximum_range c) else fg_maximum_range c
    | None => fg_maximum_range c
    end.
  (** follow_the_gap.rs:437-442 *)
  Definition beam_angle_unchecked (beams : nat) (c : Follower) (index : nat) : T :=
    beam_angle_across (fg_field_of_view c) beams index.
  (** [index.checked_sub(1)] *)
  Definition checked_pred (index : nat) : option nat := match index with O => None | S i => Some i end.
  (** [index.checked_add(1).filter(|&index| index < BEAMS)] *)
  Definition next_beam (beams index : nat) : option nat := if Nat.ltb (S index) beams then Some (S index) else None.

  (** follow_the_gap.rs:453-463 *)
  Definition gap_width (beams : nat) (c : Follower) (beam_ranges : list T) (start end_ : nat) : option T :=
    match checked_pred start with
    | None => None
    | Some before =>
        match next_beam beams end_ with
        | None => None
        | Some after =>
            let range_a := sanitized_range c beam_ranges before in
            let range_b := sanitized_range c beam_ranges after in
            let separation := beam_angle_unchecked beams c after - beam_angle_unchecked beams c before in
            let squared := range_a * range_a + range_b * range_b - two * range_a * range_b * cos separation in
            Some (sqrt (max squared zero))
        end
    end.
  (** follow_the_gap.rs:474-485 *)
  Definition aim_bounds (beams : nat) (c : Follower) (beam_ranges : list T) (start end_ : nat) : T * T :=
    let half_width := fg_chassis_width c * half in
    let inset index := atan (half_width / sanitized_range c beam_ranges index) in
    let low := beam_angle_unchecked beams c start
               + match checked_pred start with None => zero | Some i => inset i end in
    let high := beam_angle_unchecked beams c end_
                - match next_beam beams end_ with None => zero | Some i => inset i end in
    (low, high).

  (** the variables of the sweep in [compute]: best score, best gap (start, end, aim), start of the open stretch *)
  Record Sweep := { sw_best_score : T; sw_best_gap : option (nat * nat * T); sw_run_start : option nat }.
  (** follow_the_gap.rs:332-377, one turn of the loop *)
  Definition sweep_step (beams : nat) (c : Follower) (beam_ranges : list T) (goal_angle : T) (w : Sweep) (index : nat) : Sweep :=
    let is_free := Nat.ltb index beams && (sanitized_range c beam_ranges index >=? fg_free_range_threshold c) in
    match is_free, sw_run_start w with
    | true, None => {| sw_best_score := sw_best_score w; sw_best_gap := sw_best_gap w; sw_run_start := Some index |}
    | false, Some start =>
        let end_ := Nat.pred index in
        let w := {| sw_best_score := sw_best_score w; sw_best_gap := sw_best_gap w; sw_run_start := None |} in
        if match gap_width beams c beam_ranges start end_ with
           | Some width => width <? fg_chassis_width c
           | None => false
           end then w
        else
          let '(low, high) := aim_bounds beams c beam_ranges start end_ in
          let aim :=
            if low >? high then (beam_angle_unchecked beams c start + beam_angle_unchecked beams c end_) * half
            else min (max goal_angle low) high in
          let score := max (high - low) zero - fg_goal_bias c * abs (aim - goal_angle) in
          let wins :=
            match sw_best_gap w with
            | None => true
            | Some (_, _, best_aim) =>
                (score >? sw_best_score w) || ((score =? sw_best_score w) && (abs aim <? abs best_aim))
            end in
          if wins then {| sw_best_score := score; sw_best_gap := Some (start, end_, aim); sw_run_start := None |} else w
    | _, _ => w
    end.

  (** follow_the_gap.rs:301-416 *)
  Definition follower_compute (beams : nat) (c : Follower) (beam_ranges : list T) (goal_angle : T)
      : Res FollowOutput ControlError :=
    if negb (is_finite goal_angle) then Err CoNonFinite
    else
      let minimum_clearance :=
        fold_left (fun m index =>
          let range := sanitized_range c beam_ranges index in if range <? m then range else m)
          (seq 0 beams) (fg_maximum_range c) in
      let w :=
        fold_left (sweep_step beams c beam_ranges goal_angle) (seq 0 (S beams))
          {| sw_best_score := neg_infinity; sw_best_gap := None; sw_run_start := None |} in
      match sw_best_gap w with
      | None => Ok (stopped minimum_clearance)
      | Some (gap_start, gap_end, heading) =>
          let frontal_clearance :=
            fold_left (fun m index =>
              let range := sanitized_range c beam_ranges index in
              if (abs (beam_angle_unchecked beams c index) <=? fg_frontal_half_angle c) && (range <? m) then range else m)
              (seq 0 beams) (fg_maximum_range c) in
          let span := fg_clear_distance c - fg_stopping_distance c in
          let speed_scale := min (max ((frontal_clearance - fg_stopping_distance c) / span) zero) one in
          Ok {| fo_linear := fg_cruise_speed c * speed_scale; fo_angular := fg_steering_gain c * heading;
                fo_heading := heading; fo_gap_start := gap_start; fo_gap_end := gap_end;
                fo_minimum_clearance := minimum_clearance; fo_blocked := false |}
      end.
End FollowGap.
Arguments Follower T : clear implicits.
Arguments FollowOutput T : clear implicits.
