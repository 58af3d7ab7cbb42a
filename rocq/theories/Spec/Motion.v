(** What a motion is, and what it means for one to respect limits: the words the motion properties are stated in. *)
From Coq Require Import Reals List Arith.
From Coquelicot Require Import Coquelicot.
From Verif Require Import Base.Series.
Import ListNotations.
Local Open Scope R_scope.

(** At rest at 0 at time 0, and at rest at [distance] at time [duration]. *)
Definition rest_to_rest (position velocity : R -> R) (duration distance : R) : Prop :=
  position 0 = 0 /\ velocity 0 = 0 /\ position duration = distance /\ velocity duration = 0.

(** A motion over [0, duration] whose speed and acceleration stay within limits.  The acceleration may jump, so its
    limit is on how fast the velocity changes. *)
Definition speed_limited (speed acceleration : R) (position velocity : R -> R) (duration : R) : Prop :=
  forall t, 0 <= t <= duration ->
    is_derive position t (velocity t) /\ Rabs (velocity t) <= speed /\
    forall u, 0 <= u <= duration -> Rabs (velocity u - velocity t) <= acceleration * Rabs (u - t).

(** One whose jerk stays within a limit too: the acceleration is the derivative of the velocity, is bounded, vanishes
    at both ends and changes no faster than the jerk allows. *)
Definition jerk_limited (speed acceleration jerk : R) (position velocity accel : R -> R) (duration : R) : Prop :=
  accel 0 = 0 /\ accel duration = 0 /\
  forall t, 0 <= t <= duration ->
    is_derive position t (velocity t) /\ is_derive velocity t (accel t) /\
    Rabs (velocity t) <= speed /\ Rabs (accel t) <= acceleration /\
    forall u, 0 <= u <= duration -> Rabs (accel u - accel t) <= jerk * Rabs (u - t).

(** Distance between two points given by their coordinates. *)
Definition distance_between (p q : list R) : R :=
  R_sqrt.sqrt (bsum (length p) (fun i => (nth i p 0 - nth i q 0) ^ 2)).

(** [x] is the point a fraction [lambda] of the way from [a] to [b]. *)
Definition along (a b : list R) (lambda : R) (x : list R) : Prop :=
  length x = length a /\ forall i, nth i x 0 = nth i a 0 + lambda * (nth i b 0 - nth i a 0).

(** The straight piece number [k] of a polyline, and the length of the pieces before it. *)
Definition piece (points : list (list R)) (k : nat) (a b : list R) : Prop :=
  nth_error points k = Some a /\ nth_error points (S k) = Some b.
Definition length_before (points : list (list R)) (k : nat) : R :=
  bsum k (fun i => distance_between (nth i points []) (nth (S i) points [])).

(** [x] lies on the polyline, on piece [k], having travelled [s] from the start. *)
Definition on_path (points : list (list R)) (k : nat) (s : R) (x : list R) : Prop :=
  exists a b lambda, piece points k a b /\ 0 <= lambda <= 1 /\ along a b lambda x /\
    s = length_before points k + lambda * distance_between a b.
