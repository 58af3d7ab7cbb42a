(** Occupancy maps and the beams of a range scan.

    Models crates/multicalc/src/mapping/occupancy_grid.rs and mapping/scan_geometry.rs.

    Cell indices and sizes are integers: the code's usize and isize arithmetic does not wrap as long
    as a map has at most isize::MAX columns and rows, which the theorems that need it assume.
    [to_usize x] is [x.to_f64() as usize]; a whole number compared with zero after [to_f64] compares
    the same before it, because that conversion is exact for f32 and f64. *)
From Coq Require Import ZArith List Bool.
From Verif Require Import Base.Scalar Base.Lists Model.Errors.
Import ListNotations.

(** What an implementor of the trait OccupancyMap supplies, occupancy_grid.rs:17-36. *)
Record OccupancyMap (T : Type) := {
  om_columns : Z; om_rows : Z; om_resolution : T; om_origin : T * T; om_is_occupied : Z -> Z -> bool
}.
Arguments om_columns {T}. Arguments om_rows {T}. Arguments om_resolution {T}. Arguments om_origin {T}. Arguments om_is_occupied {T}.

Section Map.
  Context {T : Type} {NT : Num T}.
  Local Open Scope num_scope.

  (** occupancy_grid.rs:78-91, cell_of, as (row, column) *)
  Definition cell_of (m : OccupancyMap T) (point : T * T) : option (Z * Z) :=
    let column := floor ((fst point - fst (om_origin m)) / om_resolution m) in
    let row := floor ((snd point - snd (om_origin m)) / om_resolution m) in
    if (column <? zero) || (row <? zero) then None
    else
      let row := to_usize row in
      let column := to_usize column in
      if (Z.ltb column (om_columns m) && Z.ltb row (om_rows m))%bool then Some (row, column) else None.

  (** occupancy_grid.rs:630-632, axis_step *)
  Definition axis_step (component : T) : Z := if component >? zero then 1%Z else (-1)%Z.

  (** occupancy_grid.rs:635-649, boundary_distance *)
  Definition boundary_distance (start_axis direction_axis : T) (index step : Z) (lowest_corner_axis resolution : T) : T :=
    if direction_axis =? zero then infinity
    else
      let next_index := if Z.ltb 0 step then Z.add index 1 else index in
      let boundary := lowest_corner_axis + of_Z next_index * resolution in
      (boundary - start_axis) / direction_axis.

  (** occupancy_grid.rs:653-662, clamp_index.  [floored as isize] in the last branch is below
      [length], so it is the same number as [floored as usize]. *)
  Definition clamp_index (value : T) (length : Z) : Z :=
    let floored := floor value in
    if floored <? zero then 0%Z
    else if Z.leb length (to_usize floored) then Z.sub length 1
    else to_usize floored.

  (** occupancy_grid.rs:594-620, one pass of the loop over the two axes *)
  Definition entry_axis (start step low high : T) (near_far : T * T) : option (T * T) :=
    let '(near, far) := near_far in
    if step =? zero then
      if (start <? low) || (start >? high) then None else Some (near, far)
    else
      let inverse := one / step in
      let first := (low - start) * inverse in
      let second := (high - start) * inverse in
      let '(first, second) := if first >? second then (second, first) else (first, second) in
      Some (max near first, min far second).

  (** occupancy_grid.rs:580-626, entry_distance *)
  Definition entry_distance (m : OccupancyMap T) (start_position direction : T * T) : option T :=
    let lowest := om_origin m in
    let highest := (fst lowest + of_Z (om_columns m) * om_resolution m,
                    snd lowest + of_Z (om_rows m) * om_resolution m) in
    match entry_axis (fst start_position) (fst direction) (fst lowest) (fst highest) (neg_infinity, infinity) with
    | None => None
    | Some near_far =>
        match entry_axis (snd start_position) (snd direction) (snd lowest) (snd highest) near_far with
        | None => None
        | Some (near, far) =>
            if (near >? far) || (far <? zero) then None else Some (max near zero)
        end
    end.

  (** occupancy_grid.rs:207-234, the loop of cast_ray.  [fuel] bounds the passes; [None] means the
      bound was reached before the loop returned. *)
  Fixpoint ray_loop (fuel : nat) (m : OccupancyMap T) (maximum_range : T) (step_column step_row : Z) (stride_column stride_row : T)
      (column row : Z) (next_column next_row entered : T) : option (option T) :=
    match fuel with
    | O => None
    | S fuel =>
        if entered >? maximum_range then Some None
        else if (Z.ltb column 0 || Z.ltb row 0)%bool then Some None
        else if (Z.leb (om_columns m) column || Z.leb (om_rows m) row)%bool then Some None
        else if om_is_occupied m row column then Some (Some entered)
        else if next_column <? next_row then
          ray_loop fuel m maximum_range step_column step_row stride_column stride_row
            (Z.add column step_column) row (next_column + stride_column) next_row next_column
        else
          ray_loop fuel m maximum_range step_column step_row stride_column stride_row
            column (Z.add row step_row) next_column (next_row + stride_row) next_row
    end.

  (** occupancy_grid.rs:151-235, cast_ray, given a bound on the passes of its loop *)
  Definition cast_ray_within (fuel : nat) (m : OccupancyMap T) (start_position : T * T) (bearing maximum_range : T) : option (option T) :=
    if (Z.eqb (om_columns m) 0 || Z.eqb (om_rows m) 0)%bool then Some None
    else
      let direction := (cos bearing, sin bearing) in
      match entry_distance m start_position direction with
      | None => Some None
      | Some entry =>
          if entry >? maximum_range then Some None
          else
            let point := (fst start_position + entry * fst direction, snd start_position + entry * snd direction) in
            let lowest := om_origin m in
            let resolution := om_resolution m in
            let column := clamp_index ((fst point - fst lowest) / resolution) (om_columns m) in
            let row := clamp_index ((snd point - snd lowest) / resolution) (om_rows m) in
            let step_column := axis_step (fst direction) in
            let step_row := axis_step (snd direction) in
            let stride_column := if fst direction =? zero then infinity else resolution / abs (fst direction) in
            let stride_row := if snd direction =? zero then infinity else resolution / abs (snd direction) in
            let next_column := boundary_distance (fst start_position) (fst direction) column step_column (fst lowest) resolution in
            let next_row := boundary_distance (snd start_position) (snd direction) row step_row (snd lowest) resolution in
            ray_loop fuel m maximum_range step_column step_row stride_column stride_row column row next_column next_row entry
      end.

  (** cast_ray: the loop has one pass per cell step and a last one that returns *)
  Definition cast_ray (m : OccupancyMap T) (start_position : T * T) (bearing maximum_range : T) : option T :=
    match cast_ray_within (S (Z.to_nat (om_columns m + om_rows m)%Z)) m start_position bearing maximum_range with
    | Some answer => answer
    | None => None
    end.
End Map.

(** occupancy_grid.rs:478-486, DynamicOccupancyGrid *)
Record Grid (T : Type) := {
  gr_columns : Z; gr_rows : Z; gr_resolution : T; gr_origin : T * T; gr_cells : list bool
}.
Arguments gr_columns {T}. Arguments gr_rows {T}. Arguments gr_resolution {T}. Arguments gr_origin {T}. Arguments gr_cells {T}.

(** usize::MAX + 1 *)
Definition usize_limit : Z := (2 ^ 64)%Z.

Section Grid.
  Context {T : Type} {NT : Num T}.
  Local Open Scope num_scope.

  (** occupancy_grid.rs:500-525, try_new.  That memory for the cells can be had is not modelled. *)
  Definition grid_try_new (columns rows : Z) (resolution : T) (origin : T * T) : Res (Grid T) MappingError :=
    if (Z.eqb columns 0 || Z.eqb rows 0)%bool then Err MpEmptyGrid
    else if Z.leb usize_limit (columns * rows)%Z then Err MpGridTooLarge
    else if negb (is_finite resolution) || negb (is_finite (fst origin)) || negb (is_finite (snd origin)) then Err MpNonFinite
    else if resolution <=? zero then Err MpNonPositiveResolution
    else Ok {| gr_columns := columns; gr_rows := rows; gr_resolution := resolution; gr_origin := origin;
               gr_cells := repeat false (Z.to_nat (columns * rows)%Z) |}.

  (** occupancy_grid.rs:531-533, index_of *)
  Definition index_of (g : Grid T) (row column : Z) : option Z :=
    if (Z.ltb row (gr_rows g) && Z.ltb column (gr_columns g))%bool then Some (row * gr_columns g + column)%Z else None.

  (** occupancy_grid.rs:554-559, is_occupied *)
  Definition grid_is_occupied (g : Grid T) (row column : Z) : bool :=
    match index_of g row column with
    | Some index => nth (Z.to_nat index) (gr_cells g) false
    | None => false
    end.

  (** occupancy_grid.rs:537-560, the map a grid is *)
  Definition grid_map (g : Grid T) : OccupancyMap T :=
    {| om_columns := gr_columns g; om_rows := gr_rows g; om_resolution := gr_resolution g;
       om_origin := gr_origin g; om_is_occupied := grid_is_occupied g |}.

  Definition with_cells (g : Grid T) (cells : list bool) : Grid T :=
    {| gr_columns := gr_columns g; gr_rows := gr_rows g; gr_resolution := gr_resolution g; gr_origin := gr_origin g; gr_cells := cells |}.

  (** occupancy_grid.rs:564-571, set_cell *)
  Definition set_cell (g : Grid T) (row column : Z) (occupied : bool) : Grid T :=
    match index_of g row column with
    | Some index => with_cells g (set_nth (gr_cells g) (Z.to_nat index) occupied)
    | None => g
    end.

  (** occupancy_grid.rs:573-575, clear *)
  Definition grid_clear (g : Grid T) : Grid T := with_cells g (map (fun _ => false) (gr_cells g)).

  (** occupancy_grid.rs:247-251, occupy_point *)
  Definition occupy_point (g : Grid T) (point : T * T) : Grid T :=
    match cell_of (grid_map g) point with
    | Some (row, column) => set_cell g row column true
    | None => g
    end.

  (** occupancy_grid.rs:330-337, the samples of one edge, in order *)
  Definition edge_samples (resolution : T) (start stop : T * T) : list (T * T) :=
    let step := of_ratio 4 10 * resolution in
    let length := hypot (fst stop - fst start) (snd stop - snd start) in
    let samples := to_usize (max (ceil (length / step)) one) in
    map (fun sample =>
           let fraction := of_nat sample / of_Z samples in
           (fst start + fraction * (fst stop - fst start), snd start + fraction * (snd stop - snd start)))
        (seq 0 (S (Z.to_nat samples))).

  (** occupancy_grid.rs:314-339, occupy_polyline *)
  Definition occupy_polyline (g : Grid T) (polyline : list (T * T)) (closed : bool) : Grid T :=
    let count := length polyline in
    let edges := if closed then count else (count - 1)%nat in
    fold_left (fun g index =>
      match nth_error polyline index, nth_error polyline ((index + 1) mod Nat.max count 1)%nat with
      | Some start, Some stop => fold_left occupy_point (edge_samples (gr_resolution g) start stop) g
      | _, _ => g
      end) (seq 0 edges) g.

  (** occupancy_grid.rs:389-396, the loop of occupy_circle; [None] when [fuel] passes did not end it *)
  Fixpoint circle_loop (fuel : nat) (center : T * T) (radius step angle : T) (g : Grid T) : option (Grid T) :=
    match fuel with
    | O => None
    | S fuel =>
        if angle <? two_pi then
          circle_loop fuel center radius step (angle + step)
            (occupy_point g (fst center + radius * cos angle, snd center + radius * sin angle))
        else Some g
    end.

  (** occupancy_grid.rs:387-397, occupy_circle *)
  Definition occupy_circle (fuel : nat) (g : Grid T) (center : T * T) (radius : T) : option (Grid T) :=
    let step := max (of_ratio 4 10 * gr_resolution g / radius) (of_ratio 1 1000) in
    circle_loop fuel center radius step zero g.
End Grid.

(** scan_geometry.rs:35-43, ScanGeometry; NUM_BEAMS is an argument of the functions *)
Record Scan (T : Type) := { sc_field_of_view : T; sc_minimum_range : T; sc_maximum_range : T }.
Arguments sc_field_of_view {T}. Arguments sc_minimum_range {T}. Arguments sc_maximum_range {T}.

Section ScanGeometry.
  Context {T : Type} {NT : Num T}.
  Local Open Scope num_scope.

  (** scan_geometry.rs:55-73, try_new *)
  Definition scan_try_new (num_beams : nat) (field_of_view maximum_range : T) : Res (Scan T) MappingError :=
    if Nat.ltb num_beams 2 then Err MpTooFewBeams
    else if negb (is_finite field_of_view) || negb (is_finite maximum_range) then Err MpNonFinite
    else if (field_of_view <=? zero) || (field_of_view >? two_pi) then Err MpInvalidFieldOfView
    else if maximum_range <=? zero then Err MpNonPositiveRange
    else Ok {| sc_field_of_view := field_of_view; sc_minimum_range := zero; sc_maximum_range := maximum_range |}.

  (** scan_geometry.rs:94-103, with_minimum_range *)
  Definition scan_with_minimum_range (s : Scan T) (minimum_range : T) : Res (Scan T) MappingError :=
    if negb (is_finite minimum_range) then Err MpNonFinite
    else if (minimum_range <? zero) || (minimum_range >=? sc_maximum_range s) then Err MpInvalidRangeLimits
    else Ok {| sc_field_of_view := sc_field_of_view s; sc_minimum_range := minimum_range; sc_maximum_range := sc_maximum_range s |}.

  (** scan_geometry.rs:150-153, angle_increment *)
  Definition angle_increment (num_beams : nat) (s : Scan T) : T := sc_field_of_view s / of_nat (num_beams - 1).

  (** scan_geometry.rs:184-186, range_is_valid *)
  Definition range_is_valid (s : Scan T) (range : T) : bool :=
    is_finite range && (range >=? sc_minimum_range s) && (range <=? sc_maximum_range s).

  (** scan_geometry.rs:300-303, beam_angle_across *)
  Definition beam_angle_across (field_of_view : T) (num_beams index : nat) : T :=
    let span := of_nat (num_beams - 1) in
    - field_of_view * half + field_of_view * of_nat index / span.

  (** scan_geometry.rs:210-212, beam_angle *)
  Definition beam_angle (num_beams : nat) (s : Scan T) (index : nat) : option T :=
    if Nat.ltb index num_beams then Some (beam_angle_across (sc_field_of_view s) num_beams index) else None.

  (** scan_geometry.rs:248-264, nearest_beam_index *)
  Definition nearest_beam_index (num_beams : nat) (s : Scan T) (angle : T) : option nat :=
    let half_the_arc := sc_field_of_view s * half in
    if negb (is_finite angle) || (angle <? - half_the_arc) || (angle >? half_the_arc) then None
    else
      let steps := round ((angle + half_the_arc) / angle_increment num_beams s) in
      if steps <? zero then Some O
      else Some (Z.to_nat (Z.min (to_usize steps) (Z.of_nat (num_beams - 1)))).
End ScanGeometry.
