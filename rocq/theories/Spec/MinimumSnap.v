(** Paths made of pieces that follow one another in time, and the snap they cost. *)
From Coq Require Import List Reals.
From Coquelicot Require Import Coquelicot.
From Verif Require Import Base.Series Spec.Polynomial Spec.Piecewise.
Import ListNotations.
Local Open Scope R_scope.

(** [F k r t] is the [r]-th derivative at time [t] of the [k]-th piece of a path along one axis: four times differentiable on the span of the
    piece, the fourth derivative continuous there. *)
Definition piece_path (spans : list R) (F : nat -> nat -> R -> R) : Prop :=
  forall k, (k < length spans)%nat -> forall t, piece_start spans k <= t <= piece_start spans (S k) ->
    (forall r, (r < 4)%nat -> is_derive (F k r) t (F k (S r) t)) /\ continuous (F k 4%nat) t.
(** The path is at each waypoint when it should be, its first three derivatives run on where two pieces meet, and they are the given ones at
    the start and at the end. *)
Definition passes (spans : list R) (waypoint : nat -> R) (leaving arriving : nat -> R) (F : nat -> nat -> R -> R) : Prop :=
  (forall k, (k < length spans)%nat -> F k 0%nat (piece_start spans k) = waypoint k /\ F k 0%nat (piece_start spans (S k)) = waypoint (S k)) /\
  (forall k r, (S k < length spans)%nat -> (1 <= r <= 3)%nat -> F k r (piece_start spans (S k)) = F (S k) r (piece_start spans (S k))) /\
  (forall r, (1 <= r <= 3)%nat -> F 0%nat r 0 = leaving r /\ F (length spans - 1)%nat r (curve_end spans) = arriving r).
(** The square of the fourth derivative added up along the whole path *)
Definition snap (spans : list R) (F : nat -> nat -> R -> R) : R :=
  bsum (length spans) (fun k => RInt (fun t => F k 4%nat t ^ 2) (piece_start spans k) (piece_start spans (S k))).
(** The derivatives of the pieces of a piecewise polynomial along one axis *)
Definition planned (pieces : list (list (list R))) (spans : list R) (axis k r : nat) (t : R) : R :=
  Derive_n (fun u => value_at (nth axis (nth k pieces []) []) (along spans k u)) r t.
