(** Driving in the plane: which way a rolling body moves, and how the points of it move. *)
From Coq Require Import Reals List Arith.
From Coquelicot Require Import Coquelicot.
From Verif Require Import Base.Scalar Base.RNum Model.Quaternion Model.Lie Model.Drive.
Import ListNotations.
Local Open Scope R_scope.

(** The pose standing at (x, y) and facing along [heading] *)
Definition pose_at (x y heading : R) : se2 R := SE2 (SO2 (Rtrigo_def.cos heading) (Rtrigo_def.sin heading)) (x, y).
(** From time 0 to time [h] the body always moves at [speed] straight ahead and turns at the rate [turn]. *)
Definition rolls (speed turn : R) (x y heading : R -> R) (h : R) : Prop := forall t, 0 <= t <= h ->
  is_derive x t (speed * Rtrigo_def.cos (heading t)) /\ is_derive y t (speed * Rtrigo_def.sin (heading t)) /\ is_derive heading t turn.
(** The velocity, seen by the body, of its point [(px, py)] (ahead, to the left) when it moves ahead at [speed] and turns at
    the rate [turn] *)
Definition velocity_of_point (speed turn px py : R) : R * R := (speed - turn * py, turn * px).
(** Neither of the two roundings of a tiny turn is in play. *)
Definition clear_turn (angle : R) : Prop := 30 / IZR (2^52) <= Rabs angle \/ angle = 0.
