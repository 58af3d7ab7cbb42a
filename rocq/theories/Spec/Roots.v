(** What root properties talk about. *)
From Coq Require Import List Reals Sorted.
From Coquelicot Require Import Coquelicot.
From Verif Require Import Base.Series Spec.Polynomial.
Import ListNotations.
Local Open Scope R_scope.

(** [roots] lists every real zero of the polynomial [c], each as often as its multiplicity, in increasing order:
    what is left after dividing by the factors (x - r) is a polynomial without real zeros. *)
Definition all_real_roots (c roots : list R) : Prop :=
  Sorted Rle roots /\
  exists g : list R, (forall x, value_at g x <> 0) /\ forall x, value_at c x = product_of_factors roots x * value_at g x.

(** [roots] holds exactly the real zeros, in increasing order; nothing is said about repeats. *)
Definition exactly_the_zeros (c roots : list R) : Prop :=
  Sorted Rle roots /\ forall x, In x roots <-> value_at c x = 0.

(** [roots] lists the distinct real zeros in the half-open range, in increasing order. *)
Definition distinct_roots_in (c : list R) (lower upper : R) (roots : list R) : Prop :=
  Sorted Rlt roots /\ forall x, In x roots <-> (lower < x <= upper /\ value_at c x = 0).

(** The points reached by halving the range again and again. *)
Definition halving_point (lower upper x : R) : Prop :=
  exists (i j : nat), x = lower + (upper - lower) * (INR i / 2 ^ j).

(** [x] is a zero of the polynomial and of its derivative. *)
Definition repeated_zero (c : list R) (x : R) : Prop := value_at c x = 0 /\ Derive (value_at c) x = 0.
