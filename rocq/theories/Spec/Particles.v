(** Weights on a row of sources, what it means to pick one by a number, and a cloud of weighted points. *)
From Coq Require Import Reals List Sorting.
From Flocq Require Import Core.Raux.
From Verif Require Import Base.Series.
Import ListNotations.
Local Open Scope R_scope.

(** a source of random numbers: the generator after [k] draws, and the draw that comes next *)
Definition later {T Rng} (draw : Rng -> T * Rng) (k : nat) (g : Rng) : Rng := Nat.iter k (fun g => snd (draw g)) g.
Definition nth_draw {T Rng} (draw : Rng -> T * Rng) (k : nat) (g : Rng) : T := fst (draw (later draw k g)).

Definition weight (w : list R) (i : nat) : R := nth i w 0.
(** weights that are not negative and sum to one *)
Definition distribution (w : list R) : Prop := (forall i, 0 <= weight w i) /\ bsum (length w) (weight w) = 1.
(** the weight of the sources before [i] *)
Definition before (w : list R) (i : nat) : R := bsum i (weight w).
(** lay the sources end to end on [0, 1), each as long as its weight: [x] falls on the stretch of source [i] *)
Definition falls_on (w : list R) (x : R) (i : nat) : Prop := (i < length w)%nat /\ before w i <= x < before w (S i).
(** the first source at which the running weight reaches [x] *)
Definition first_to_reach (w : nat -> R) (n : nat) (x : R) (i : nat) : Prop :=
  (i < n)%nat /\ x <= bsum (S i) w /\ forall j, (j < i)%nat -> bsum (S j) w < x.
(** how often source [i] was picked *)
Definition picked (l : list nat) (i : nat) : R := INR (count_occ Nat.eq_dec l i).
(** how many copies of source [i] [count] picks should hold, and the fraction that does not make a whole copy *)
Definition share (w : list R) (count i : nat) : R := INR count * weight w i.
Definition fraction (w : list R) (count i : nat) : R := share w count i - IZR (Zfloor (share w count i)).

(** ** Reweighting by a likelihood *)

(** a weight of zero counts as the smallest positive number [least], so that no particle is ruled out for good by underflow *)
Definition prior (least : R) (w : list R) (i : nat) : R := if Req_EM_T (weight w i) 0 then least else weight w i.
(** Bayes' rule *)
Definition posterior (least : R) (w : list R) (likelihood : nat -> R) (i : nat) : R :=
  prior least w i * likelihood i / bsum (length w) (fun j => prior least w j * likelihood j).
(** the weights, as a list *)
Definition posteriors (least : R) (w : list R) (likelihood : nat -> R) : list R := map (posterior least w likelihood) (seq 0 (length w)).
(** coordinate [j] of the weighted mean of a cloud *)
Definition weighted_mean (w : list R) (cloud : list (list R)) (j : nat) : R := bsum (length w) (fun i => weight w i * nth j (nth i cloud nil) 0).
