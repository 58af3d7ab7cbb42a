(** Differential equations [y' = f t y] in [n] unknowns, and how smooth a right-hand side is. *)
From Coq Require Import Reals List Arith.
From Coquelicot Require Import Coquelicot.
From Verif Require Import Base.Series.
Import ListNotations.
Local Open Scope R_scope.

(** [y] solves the equation at every time between [a] and [b]. *)
Definition solves (n : nat) (f : R -> list R -> list R) (y : R -> list R) (a b : R) : Prop :=
  forall t, a < t < b -> length (y t) = n /\ forall i, (i < n)%nat -> is_derive (fun s => nth i (y s) 0) t (nth i (f t (y t)) 0).

(** The right-hand side gives [n] numbers for [n] numbers. *)
Definition same_size (n : nat) (f : R -> list R -> list R) : Prop := forall t y, length y = n -> length (f t y) = n.

(** The homogeneous polynomial of degree [k] in [m] variables whose coefficients are [c]. *)
Fixpoint form (m k : nat) (c : list nat -> R) (v : nat -> R) : R :=
  match k with O => c [] | S k => bsum m (fun j => v j * form m k (fun js => c (j :: js)) v) end.

(** The state moved by the first [n] components of [v]; the component number [n] is what the time moves by. *)
Definition shifted (n : nat) (y : list R) (v : nat -> R) : list R := map (fun i => nth i y 0 + v i) (seq 0 n).
(** Taylor's formula at [(t, y)]: within [radius], the right-hand side is a polynomial of degree below [p] up to [bound] times
    the [p]-th power of the distance. *)
Definition taylor (n p : nat) (f : R -> list R -> list R) (t : R) (y : list R) (c : nat -> list nat -> R) (bound radius : R) : Prop :=
  forall v r i, (forall j, (j <= n)%nat -> Rabs (v j) <= r) -> r <= radius -> (i < n)%nat ->
    Rabs (nth i (f (t + v n) (shifted n y v)) 0 - bsum p (fun k => form (S n) k (c i) v)) <= bound * r ^ p.
(** [p] times smooth along a curve: Taylor's formula holds at each of its points with the same bounds. *)
Definition smooth_along (n p : nat) (f : R -> list R -> list R) (y : R -> list R) (a b : R) : Prop :=
  exists bound radius, 0 < radius /\ forall t, a <= t <= b -> exists c,
    (forall i js, (i < n)%nat -> (length js < p)%nat -> Rabs (c i js) <= bound) /\ taylor n p f t (y t) c bound radius.
