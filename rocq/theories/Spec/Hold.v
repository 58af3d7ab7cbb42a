(** Continuous linear systems: trajectories under a held input, and the matrices whose exponentials describe them. *)
From Coq Require Import Reals Arith.
From Coquelicot Require Import Coquelicot.
From Verif Require Import Base.Series Spec.Matrix Spec.MatrixExp.
Local Open Scope R_scope.

(** x' = A x + B u for a constant u, from time zero to [dt] *)
Definition trajectory (n m : nat) (a b : matrix) (u : vector) (dt : R) (x : R -> vector) : Prop :=
  forall t i, 0 <= t <= dt -> (i < n)%nat -> is_derive (fun s => x s i) t (times n a (x t) i + times m b u i).
(** [[A, B], [0, 0]] *)
Definition with_input (n : nat) (a b : matrix) : matrix := fun i j => if Nat.ltb i n then if Nat.ltb j n then a i j else b i (j - n)%nat else 0.
(** [[-A, Q], [0, A']] *)
Definition with_noise (n : nat) (a q : matrix) : matrix := fun i j =>
  if Nat.ltb i n then if Nat.ltb j n then - a i j else q i (j - n)%nat else if Nat.ltb j n then 0 else a (j - n)%nat (i - n)%nat.
(** Every entry of the matrix is the integral of the corresponding entry. *)
Definition integral (rows cols : nat) (f : R -> matrix) (dt : R) (g : matrix) : Prop :=
  forall i j, (i < rows)%nat -> (j < cols)%nat -> is_RInt (fun t => f t i j) 0 dt (g i j).
(** The exponential over [t]. *)
Definition exp_at (n : nat) (a : matrix) (t : R) : matrix := matrix_exp n (scaled_matrix t a).
