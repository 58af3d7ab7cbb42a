(** A cloud of points: one in the middle and [n] pairs around it, with weights; what it averages to and how it spreads. *)
From Coq Require Import Reals List.
From Verif Require Import Base.Series Spec.Matrix.
Local Open Scope R_scope.

(** the [j]-th outer points are the [j]-th columns *)
Record cloud := { middle_point : vector; plus_points : matrix; minus_points : matrix }.
(** with weight [w0] on the middle point and [w] on every other *)
Definition average (n : nat) (w0 w : R) (c : cloud) : vector :=
  fun i => w0 * middle_point c i + bsum n (fun j => w * (plus_points c i j + minus_points c i j)).
(** how the deviations of one cloud from [a] go with those of another from [b] *)
Definition covary (n : nat) (w0 w : R) (c : cloud) (a : vector) (d : cloud) (b : vector) : matrix :=
  fun i k => w0 * (middle_point c i - a i) * (middle_point d k - b k) +
    bsum n (fun j => w * ((plus_points c i j - a i) * (plus_points d k j - b k) + (minus_points c i j - a i) * (minus_points d k j - b k))).

(** The usual weights of the unscented transform, for [lambda = alpha^2 (n + kappa) - n]. *)
Definition spread_of (n : nat) (alpha kappa : R) : R := alpha * alpha * (INR n + kappa).
Definition mean_weight (n : nat) (alpha kappa : R) : R := (spread_of n alpha kappa - INR n) / spread_of n alpha kappa.
Definition spread_weight (n : nat) (alpha beta kappa : R) : R := mean_weight n alpha kappa + (1 - alpha * alpha + beta).
Definition side_weight (n : nat) (alpha kappa : R) : R := 1 / (2 * spread_of n alpha kappa).
