(** Planning the smoothest path through waypoints.

    Models crates/multicalc/src/motion/minimum_snap.rs and polynomial/construction.rs:287-334, 403-426 over any scalar.  A [Vector] is the
    list of its entries, a polynomial the list of its coefficients.  The three sizes of the planner's type are the arguments
    [max_segments], [max_free] and [dimension]. *)
From Coq Require Import ZArith List Bool Arith.
From Verif Require Import Base.Scalar Base.Lists Model.Errors Model.Vector Model.Matrix Model.Lu Model.Polynomial Model.Piecewise.
Import ListNotations.

(** error.rs:305-328: the constructors this file returns *)
Inductive SnapError := SnapPathTooShort | SnapCapacityExceeded | SnapSegmentCountMismatch | SnapDurationNotPositive | SnapNonFinite | SnapWorkspaceTooSmall
  | SnapLinalg (e : LinalgError) | SnapPolynomial (e : PolynomialError).

Section MinimumSnap.
  Context {T : Type} {NT : Num T}.
  Local Open Scope num_scope.

  (** construction.rs:317-319: how many copies of the term [order] derivatives leave *)
  Definition ways_down (column order : nat) : T := fold_left (fun ways step => ways * of_nat (column - step)) (seq 0 order) one.
  (** construction.rs:287-326 *)
  Definition endpoint_mapping (span : T) : mat T :=
    let mapping := mset (mat_zeros 8 8) 0 0 one in
    let '(mapping, _, _) := fold_left (fun '(mapping, ways, span_raised) order =>
      let ways := ways * of_nat order in
      let span_raised := span_raised * span in
      (mset mapping order order (ways / span_raised), ways, span_raised)) (range 1 4) (mapping, one, one) in
    let mapping := fold_left (fun mapping column => mset mapping 4 column one) (range 0 8) mapping in
    let '(mapping, _) := fold_left (fun '(mapping, span_raised) order =>
      let span_raised := span_raised * span in
      (fold_left (fun mapping column => mset mapping (4 + order) column (ways_down column order / span_raised)) (range order 8) mapping, span_raised))
      (range 1 4) (mapping, one) in
    mapping.
  (** construction.rs:330-334 *)
  Definition endpoint_mapping_inverse (span : T) : Res (mat T) LinalgError := mat_inverse 8 (endpoint_mapping span).
  (** construction.rs:403-426 *)
  Definition septic_from_endpoint_derivatives (start end_ : list T) (span : T) : Res (list T) PolynomialError :=
    if (negb (is_finite span) || existsb (fun value => negb (is_finite value)) (start ++ end_))%bool then Err PoNonFinite
    else if span <=? zero then Err PoSpanNotPositive
    else match endpoint_mapping_inverse span with
         | Ok inverse => Ok (mat_vec 8 8 inverse (start ++ end_))
         | Err e => Err (PoLinalg e)
         | Panic => Panic
         end.

  (** minimum_snap.rs:19-26 *)
  Record boundary := { bd_velocity : list T; bd_acceleration : list T; bd_jerk : list T }.
  (** minimum_snap.rs:41-43 *)
  Definition boundary_finite (b : boundary) : bool := (vec_is_finite (bd_velocity b) && vec_is_finite (bd_acceleration b) && vec_is_finite (bd_jerk b))%bool.
  (** minimum_snap.rs:46-52 *)
  Definition at_order (b : boundary) (order : nat) : list T :=
    match order with 1 => bd_velocity b | 2 => bd_acceleration b | _ => bd_jerk b end.
  (** minimum_snap.rs:56-61 *)
  Inductive endpoint_derivative := Fixed (value : list T) | Free (row : nat).
  (** minimum_snap.rs:65-71; the subtraction saturates *)
  Definition ways_after_four_derivatives (index : nat) : T := fold_left (fun product step => product * of_nat (index - step)) (seq 0 4) one.
  (** minimum_snap.rs:77-90 *)
  Definition snap_cost : mat T :=
    fold_left (fun cost row => fold_left (fun cost column =>
      mset cost row column (ways_after_four_derivatives row * ways_after_four_derivatives column / of_nat (row + column - 7)))
      (range 4 8) cost) (range 4 8) (mat_zeros 8 8).
  (** minimum_snap.rs:206-229 *)
  Definition classify (dimension : nat) (start end_ : boundary) (waypoints : list (list T)) (segments waypoint order : nat) : endpoint_derivative :=
    if Nat.eqb order 0 then Fixed (nth waypoint waypoints (vec_zeros dimension))
    else if Nat.eqb waypoint 0 then Fixed (at_order start order)
    else if Nat.eqb waypoint segments then Fixed (at_order end_ order)
    else Free (3 * (waypoint - 1) + (order - 1)).
  (** minimum_snap.rs:306-322: what one column of a free row adds to the system *)
  Definition add_column (dimension : nat) (free_row : nat) (entry : T) (column : endpoint_derivative) (st : mat T * mat T) : mat T * mat T :=
    let '(reduced, known_side) := st in
    match column with
    | Free free_column => (mset reduced free_row free_column (mget reduced free_row free_column + entry), known_side)
    | Fixed value => (reduced, fold_left (fun known_side axis => mset known_side free_row axis (mget known_side free_row axis - entry * vget value axis)) (seq 0 dimension) known_side)
    end.
  (** minimum_snap.rs:285-286 *)
  Definition in_endpoint_terms (inverse : mat T) (duration : T) : mat T :=
    mat_mul 8 8 8 (mat_mul 8 8 8 (transpose 8 8 inverse) (mat_scale 8 8 snap_cost (powi duration (-7)))) inverse.
  (** minimum_snap.rs:288-324: the rows of one segment *)
  Definition add_segment (dimension : nat) (kind : nat -> nat -> endpoint_derivative) (segment : nat) (terms : mat T) (st : mat T * mat T) : mat T * mat T :=
    fold_left (fun st local_row =>
      match kind (segment + Nat.div local_row 4)%nat (Nat.modulo local_row 4) with
      | Fixed _ => st
      | Free free_row => fold_left (fun st local_column =>
          add_column dimension free_row (mget terms local_row local_column) (kind (segment + Nat.div local_column 4)%nat (Nat.modulo local_column 4)) st) (seq 0 8) st
      end) (seq 0 8) st.
  (** minimum_snap.rs:281-325: the loop over the segments, from [segment] on *)
  Fixpoint assemble (dimension : nat) (kind : nat -> nat -> endpoint_derivative) (segment : nat) (durations : list T) (st : mat T * mat T) : Res (mat T * mat T) SnapError :=
    match durations with
    | [] => Ok st
    | duration :: rest =>
        match endpoint_mapping_inverse duration with
        | Ok inverse => assemble dimension kind (S segment) rest (add_segment dimension kind segment (in_endpoint_terms inverse duration) st)
        | Err e => Err (SnapLinalg e)
        | Panic => Panic
        end
    end.
  (** minimum_snap.rs:329-336 *)
  Definition snap_system (max_free free_count : nat) (reduced : mat T) : mat T :=
    fold_left (fun system row => mset system row row one) (range free_count max_free)
      (mat_scale max_free max_free (mat_add reduced (transpose max_free max_free reduced)) half).
  (** minimum_snap.rs:93-102: the four values of a waypoint along one axis *)
  Definition along_one_axis (block : list (list T)) (axis : nat) : list T := map (fun vector => vget vector axis) block.
  (** minimum_snap.rs:348-366; the last block, held on its own in the code, is the one at the last waypoint: the four values at a waypoint, from the solve where they are free *)
  Definition waypoint_block (dimension : nat) (kind : nat -> nat -> endpoint_derivative) (solved : mat T) (waypoint : nat) : list (list T) :=
    from_fn 4 (fun order => match kind waypoint order with Fixed value => value | Free row => from_fn dimension (fun axis => mget solved row axis) end).
  (** minimum_snap.rs:374-396: the pieces of one segment, axis by axis *)
  Fixpoint segment_pieces (axes : list nat) (start_block end_block : list (list T)) (duration : T) : Res (list (list T)) SnapError :=
    match axes with
    | [] => Ok []
    | axis :: axes =>
        match septic_from_endpoint_derivatives (along_one_axis start_block axis) (along_one_axis end_block axis) duration with
        | Ok piece => match segment_pieces axes start_block end_block duration with Ok pieces => Ok (piece :: pieces) | Err e => Err e | Panic => Panic end
        | Err e => Err (SnapPolynomial e)
        | Panic => Panic
        end
    end.
  Fixpoint all_pieces (dimension : nat) (blocks : nat -> list (list T)) (segment : nat) (durations : list T) : Res (list (list (list T))) SnapError :=
    match durations with
    | [] => Ok []
    | duration :: rest =>
        match segment_pieces (seq 0 dimension) (blocks segment) (blocks (S segment)) duration with
        | Ok pieces => match all_pieces dimension blocks (S segment) rest with Ok others => Ok (pieces :: others) | Err e => Err e | Panic => Panic end
        | Err e => Err e
        | Panic => Panic
        end
    end.
  (** minimum_snap.rs:241-403 *)
  Definition plan (max_segments max_free dimension : nat) (start end_ : boundary) (waypoints : list (list T)) (durations : list T) : Res (Piecewise T) SnapError :=
    if Nat.ltb (length waypoints) 2 then Err SnapPathTooShort
    else
      let segments := (length waypoints - 1)%nat in
      if Nat.ltb max_segments segments then Err SnapCapacityExceeded
      else if negb (Nat.eqb (length durations) segments) then Err SnapSegmentCountMismatch
      else if existsb (fun duration => negb (is_finite duration) || (duration <=? zero))%bool durations then Err SnapDurationNotPositive
      else if (existsb (fun waypoint => negb (vec_is_finite waypoint)) waypoints || negb (boundary_finite start) || negb (boundary_finite end_))%bool then Err SnapNonFinite
      else
        let free_count := (3 * (segments - 1))%nat in
        if Nat.ltb max_free free_count then Err SnapWorkspaceTooSmall
        else
          let kind := classify dimension start end_ waypoints segments in
          match assemble dimension kind 0 durations (mat_zeros max_free max_free, mat_zeros max_free dimension) with
          | Err e => Err e
          | Panic => Panic
          | Ok (reduced, known_side) =>
              let solved :=
                if Nat.eqb free_count 0 then Ok (mat_zeros max_free dimension)
                else match lu_decompose max_free (snap_system max_free free_count reduced) with
                     | Ok f => Ok (lu_solve_matrix max_free dimension f known_side)
                     | Err e => Err (SnapLinalg e)
                     | Panic => Panic
                     end in
              match solved with
              | Err e => Err e
              | Panic => Panic
              | Ok solved =>
                  match all_pieces dimension (waypoint_block dimension kind solved) 0 durations with
                  | Err e => Err e
                  | Panic => Panic
                  | Ok pieces =>
                      match piecewise_try_from_pieces max_segments pieces durations with
                      | Ok path => Ok path
                      | Err e => Err (SnapPolynomial e)
                      | Panic => Panic
                      end
                  end
              end
          end.

  (** minimum_snap.rs:449-459: the loop over the pairs; the slots written so far, and how it ended *)
  Fixpoint fill_durations (speed : T) (waypoints : list (list T)) (durations : list T) : list T * Res unit SnapError :=
    match waypoints, durations with
    | from :: ((end_ :: _) as rest), slot :: slots =>
        let distance := norm (vec_sub end_ from) in
        if distance <=? zero then (durations, Err SnapDurationNotPositive)
        else let '(slots, answer) := fill_durations speed rest slots in (distance / speed :: slots, answer)
    | _, _ => (durations, Ok tt)
    end.
  (** minimum_snap.rs:431-460; what is left in [durations], and the answer *)
  Definition durations_from_average_speed (waypoints : list (list T)) (average_speed : T) (durations : list T) : list T * Res unit SnapError :=
    if Nat.ltb (length waypoints) 2 then (durations, Err SnapPathTooShort)
    else if negb (Nat.eqb (length durations) (length waypoints - 1)) then (durations, Err SnapSegmentCountMismatch)
    else if (negb (is_finite average_speed) || (average_speed <=? zero))%bool then (durations, Err SnapDurationNotPositive)
    else if existsb (fun waypoint => negb (vec_is_finite waypoint)) waypoints then (durations, Err SnapNonFinite)
    else fill_durations average_speed waypoints durations.
End MinimumSnap.
