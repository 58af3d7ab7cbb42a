(** Integrals along curves. *)
From Coq Require Import List Reals.
From Coquelicot Require Import Coquelicot.
From Verif Require Import Base.Series Model.Errors.
Local Open Scope R_scope.

(** the trapezoidal sum of [g] against the changes of [h] over the nodes [t 0 .. t n] *)
Definition stieltjes (g h : R -> R) (t : nat -> R) (n : nat) : R :=
  bsum n (fun k => (h (t (S k)) - h (t k)) * (g (t k) + g (t (S k))) / 2).
(** [rate] is the derivative of [h] on [a, b], continuous and at most [G] in size; [g] is continuous and changes at most [L] times as fast
    as its argument *)
Definition tame (g h rate : R -> R) (a b L G : R) : Prop :=
  (forall t, a <= t <= b -> is_derive h t (rate t) /\ continuous rate t /\ Rabs (rate t) <= G /\ continuous g t) /\
  (forall s t, a <= s <= b -> a <= t <= b -> Rabs (g s - g t) <= L * Rabs (s - t)).
(** the flux across the curve (x, y) of a field whose components along it are [f] and [g]: the field against the normal (y', -x') *)
Definition flux_across (f g dx dy : R -> R) (a b : R) : R := RInt (fun t => f t * dy t - g t * dx t) a b.
(** with [n] panels the result is within [C / n] of the truth *)
Definition converges_to (result : nat -> Res R IntegrateError) (truth C : R) : Prop :=
  forall n, (0 < n)%nat -> exists v, result n = Ok v /\ Rabs (v - truth) <= C / INR n.
