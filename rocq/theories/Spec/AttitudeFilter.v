(** Sensors on a turning body, and how far its estimated up is from the real one. *)
From Coq Require Import Reals List Arith.
From Verif Require Import Base.Scalar Base.RNum Model.Quaternion Spec.Matrix Spec.Rotation Spec.Quaternion.
Import ListNotations.
Local Open Scope R_scope.

(** An accelerometer on a body standing at [truth], not speeding up (or falling freely, with [strength] zero) *)
Definition feels (truth : quaternion R) (up reading : point) : Prop :=
  exists strength, 0 <= strength /\ reading = multiple strength (inverse_transform_point truth up).
(** A magnetometer on a body standing at [truth], in a field with no part across [up] and [north], and none to the south; or none *)
Definition senses (truth : quaternion R) (up north : point) (reading : option point) : Prop :=
  match reading with
  | None => True
  | Some m => exists ahead above, 0 <= ahead /\ m = inverse_transform_point truth (together (multiple ahead north) (multiple above up))
  end.
(** Two perpendicular directions *)
Definition frame (up north : point) : Prop := inner up up = 1 /\ inner north north = 1 /\ inner up north = 0.
(** The angle between the real and the estimated up, both as the body sees them *)
Definition tilt (truth estimate : quaternion R) (up : point) : R :=
  Ratan.acos (inner (inverse_transform_point truth up) (inverse_transform_point estimate up)).
(** The same orientation *)
Definition same_turn (p q : quaternion R) : Prop := forall v, transform_point p v = transform_point q v.
