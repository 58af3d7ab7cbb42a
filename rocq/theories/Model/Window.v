(** crates/multicalc/src/signal_processing/window.rs and savitzky_golay.rs *)
From Coq Require Import ZArith List Bool.
From Verif Require Import Base.Scalar Model.Errors Model.Summation.
Import ListNotations.

Section Window.
  Context {T : Type} {NT : Num T}.
  Local Open Scope num_scope.

  (** The ring buffer shared by the three filters: window.rs:28-35, 121-128, savitzky_golay.rs:52-58.
      The const generic WINDOW is the argument [w] of the functions; [length samples = w]. *)
  Record Ring := mkRing { rg_samples : list T; rg_next : nat; rg_initialized : bool }.

  (** The empty buffer: window.rs:45-49, 142-146 *)
  Definition ring_new (w : nat) : Ring := mkRing (repeat zero w) 0 false.

  (** [reset]: window.rs:67-71, 164-168 *)
  Definition ring_reset (w : nat) (r : Ring) : Ring := mkRing (repeat zero w) 0 false.

  (** window.rs:192-206; also savitzky_golay.rs:100-107, which has the same text *)
  Definition ring_push (w : nat) (r : Ring) (input : T) : Ring :=
    if rg_initialized r then
      mkRing (set_nth (rg_samples r) (rg_next r) input) ((rg_next r + 1) mod w) (rg_initialized r)
    else mkRing (repeat input w) 0 true.

  (** MovingAverage::new, window.rs:41-50 *)
  Definition moving_average_new (w : nat) : Res Ring SignalError :=
    if Nat.eqb w 0 then Err SigWindowTooShort else Ok (ring_new w).
  (** MovingAverage::value, window.rs:76-82 *)
  Definition moving_average_value (w : nat) (r : Ring) : T :=
    fold_left (fun total sample => total + sample) (rg_samples r) zero / of_nat w.
  (** MovingAverage::filter, window.rs:55-63 *)
  Definition moving_average_filter (w : nat) (r : Ring) (input : T) : Ring * T :=
    let r := ring_push w r input in (r, moving_average_value w r).

  (** RunningMedian::new, window.rs:135-147 *)
  Definition running_median_new (w : nat) : Res Ring SignalError :=
    if Nat.eqb w 0 then Err SigWindowTooShort
    else if Nat.eqb (w mod 2) 0 then Err SigWindowEvenLength
    else Ok (ring_new w).

  (** window.rs:179-184: the inner loop and the final store, recursive on [slot].  An index out of range
      would be a panic in Rust; [nth]'s default is never reached because [slot <= placed < WINDOW]. *)
  Fixpoint median_place (sorted : list T) (moving : T) (slot : nat) : list T :=
    match slot with
    | O => set_nth sorted 0 moving
    | S below =>
        if nth below sorted zero >? moving
        then median_place (set_nth sorted slot (nth below sorted zero)) moving below
        else set_nth sorted slot moving
    end.
  (** window.rs:177-185: the outer loop, [placed] from 1 to WINDOW-1 *)
  Definition median_sort (w : nat) (samples : list T) : list T :=
    fold_left (fun sorted placed => median_place sorted (nth placed sorted zero) placed)
              (seq 1 (w - 1)) samples.
  (** RunningMedian::value, window.rs:173-187 *)
  Definition running_median_value (w : nat) (r : Ring) : T :=
    nth (w / 2) (median_sort w (rg_samples r)) zero.
  (** RunningMedian::filter, window.rs:152-160 *)
  Definition running_median_filter (w : nat) (r : Ring) (input : T) : Ring * T :=
    let r := ring_push w r input in (r, running_median_value w r).

  (** savitzky_golay.rs:52-67 *)
  Record SavGol := mkSavGol {
    sg_ring : Ring; sg_smoothing : list T; sg_first : list T; sg_second : list T; sg_delay : T }.

  (** savitzky_golay.rs:167-170: the matrix that is fitted, as a list of rows *)
  Definition savgol_fit (w terms read_position : nat) : list (list T) :=
    map (fun sample =>
           map (fun term => powi (of_nat sample - of_nat read_position) (Z.of_nat term)) (seq 0 terms))
        (seq 0 w).

  (** element (i, j) of a matrix given as rows *)
  Definition mat_at (m : list (list T)) (i j : nat) : T := nth j (nth i m []) zero.

  (** savitzky_golay.rs:153-199.  [pseudo_inverse] (linear_algebra/svd.rs:211) is a parameter here: it takes
      the rows of the fitted matrix and returns the rows of the inverse. *)
  Definition savgol_build (pseudo_inverse : list (list T) -> Res (list (list T)) LinalgError)
      (w terms : nat) (timestep : T) (read_position : nat) : Res SavGol SignalError :=
    if negb (is_finite timestep) then Err SigNonFinite
    else if timestep <=? zero then Err SigNonPositiveTimestep
    else if Nat.eqb w 0 || Nat.eqb terms 0 then Err SigWindowTooShort
    else if Nat.ltb w terms then Err SigPolynomialOrderTooHigh
    else
      match pseudo_inverse (savgol_fit w terms read_position) with
      | Panic => Panic
      | Err e => Err (SigLinalg e)
      | Ok inverse =>
          Ok (mkSavGol (ring_new w)
            (map (fun sample => mat_at inverse 0 sample) (seq 0 w))
            (map (fun sample => if Nat.leb 2 terms then mat_at inverse 1 sample / timestep else zero) (seq 0 w))
            (map (fun sample => if Nat.leb 3 terms
                                then two * mat_at inverse 2 sample / (timestep * timestep) else zero) (seq 0 w))
            (of_nat (w - 1 - read_position) * timestep))
      end.

  (** savitzky_golay.rs:77-82 *)
  Definition savgol_centered pinv (w terms : nat) (timestep : T) : Res SavGol SignalError :=
    if Nat.eqb (w mod 2) 0 then Err SigWindowEvenLength
    else savgol_build pinv w terms timestep ((w - 1) / 2).
  (** savitzky_golay.rs:92-94.  [WINDOW - 1] overflows for a window of zero: a panic (in a debug build; a
      wrapped index in a release build).  The overflow is evaluated before [build] checks anything. *)
  Definition savgol_latest pinv (w terms : nat) (timestep : T) : Res SavGol SignalError :=
    match w with
    | O => Panic
    | S read_position => savgol_build pinv w terms timestep read_position
    end.

  (** savitzky_golay.rs:204-211 *)
  Definition savgol_weighted_sum (w : nat) (r : Ring) (weights : list T) : T :=
    fold_left (fun total position =>
                 total + nth position weights zero * nth ((rg_next r + position) mod w) (rg_samples r) zero)
              (seq 0 w) zero.
  (** savitzky_golay.rs:123-139 *)
  Definition savgol_value (w : nat) (s : SavGol) : T := savgol_weighted_sum w (sg_ring s) (sg_smoothing s).
  Definition savgol_first_derivative (w : nat) (s : SavGol) : T := savgol_weighted_sum w (sg_ring s) (sg_first s).
  Definition savgol_second_derivative (w : nat) (s : SavGol) : T := savgol_weighted_sum w (sg_ring s) (sg_second s).
  (** savitzky_golay.rs:99-109 *)
  Definition savgol_filter (w : nat) (s : SavGol) (input : T) : SavGol * T :=
    let s := mkSavGol (ring_push w (sg_ring s) input) (sg_smoothing s) (sg_first s) (sg_second s) (sg_delay s) in
    (s, savgol_value w s).
  (** savitzky_golay.rs:114-118 *)
  Definition savgol_reset (w : nat) (s : SavGol) : SavGol :=
    mkSavGol (ring_new w) (sg_smoothing s) (sg_first s) (sg_second s) (sg_delay s).
End Window.
Arguments Ring T : clear implicits.
Arguments SavGol T : clear implicits.
