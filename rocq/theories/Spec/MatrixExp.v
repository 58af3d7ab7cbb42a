(** The exponential of a matrix by its series, and the largest absolute column sum. *)
From Coq Require Import Reals List Arith.
From Coquelicot Require Import Coquelicot.
From Verif Require Import Base.Series Spec.Matrix.
Local Open Scope R_scope.

(** I + A + A^2/2! + A^3/3! + ... *)
Definition matrix_exp (n : nat) (a : matrix) : matrix := fun i j => Series (fun k => power n a k i j / INR (fact k)).
Fixpoint largest (n : nat) (f : nat -> R) : R := match n with O => 0 | S n => Rmax (largest n f) (f n) end.
Definition column_norm (n : nat) (a : matrix) : R := largest n (fun j => bsum n (fun i => Rabs (a i j))).
