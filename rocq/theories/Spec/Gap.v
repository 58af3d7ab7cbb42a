(** What a scan shows, and which gap a gap follower should choose. *)
From Coq Require Import List Reals.
From Verif Require Import Base.XNum.
Local Open Scope R_scope.

(** A gap follower's settings, as real numbers. *)
Record settings := {
  beams : nat; field_of_view : R; maximum_range : R; chassis_width : R; free_range_threshold : R;
  cruise_speed : R; steering_gain : R; goal_bias : R; stopping_distance : R; clear_distance : R;
  frontal_half_angle : R
}.

Section Gap.
  Context (c : settings) (scan : list XR).

  (** A reading that is a positive number, capped at the sensor's range; anything else is empty space. *)
  Definition seen (i : nat) : R :=
    match nth_error scan i with
    | Some (Fin r) => if Rlt_dec 0 r then Rmin r (maximum_range c) else maximum_range c
    | _ => maximum_range c
    end.
  (** Beams fan out evenly from the right edge to the left edge. *)
  Definition direction (i : nat) : R := - (field_of_view c / 2) + field_of_view c * INR i / (INR (beams c) - 1).
  Definition open (i : nat) : Prop := (i < beams c)%nat /\ free_range_threshold c <= seen i.
  (** A stretch of open beams that cannot be extended. *)
  Definition gap (s e : nat) : Prop :=
    (s <= e < beams c)%nat /\ (forall i, (s <= i <= e)%nat -> open i) /\
    (forall i, S i = s -> ~ open i) /\ ~ open (S e).
  (** Where the obstacle that beam [i] hit stands, in the plane. *)
  Definition obstacle (i : nat) : R * R := (seen i * cos (direction i), seen i * sin (direction i)).
  Definition distance (p q : R * R) : R := sqrt ((fst p - fst q) * (fst p - fst q) + (snd p - snd q) * (snd p - snd q)).
  (** The robot fits: no two obstacles on both sides, or they stand at least a robot's width apart. *)
  Definition fits (s e : nat) : Prop :=
    forall before, S before = s -> (S e < beams c)%nat -> chassis_width c <= distance (obstacle before) (obstacle (S e)).
  Definition admissible (s e : nat) : Prop := gap s e /\ fits s e.

  (** The safe directions of a gap: an edge with an obstacle is pulled in by the angle a half width makes there. *)
  Definition margin (i : nat) : R := atan (chassis_width c / 2 / seen i).
  Definition low (s : nat) : R := match s with O => direction s | S before => direction s + margin before end.
  Definition high (e : nat) : R := if Nat.ltb (S e) (beams c) then direction e - margin (S e) else direction e.
  Definition aim (goal : R) (s e : nat) : R :=
    if Rle_dec (low s) (high e) then Rmin (Rmax goal (low s)) (high e) else (direction s + direction e) / 2.
  (** Wide is good, pointing away from the goal is bad. *)
  Definition score (goal : R) (s e : nat) : R :=
    Rmax (high e - low s) 0 - goal_bias c * Rabs (aim goal s e - goal).
  (** The beams that count as ahead. *)
  Definition ahead (i : nat) : Prop := (i < beams c)%nat /\ Rabs (direction i) <= frontal_half_angle c.
End Gap.
