(** What a least squares fit is about: the cost of a point, and residuals whose squares do not overflow. *)
From Coq Require Import Reals List Arith.
From Verif Require Import Base.Series Spec.Matrix.
Local Open Scope R_scope.

(** the residuals at a point, and half the sum of their squares *)
Definition residual_of (f : list R -> list R) (p : list R) : vector := fun i => nth i (f p) 0.
Definition cost (f : list R -> list R) (m : nat) (p : list R) : R := square_norm m (residual_of f p) / 2.
(** small enough for the library's norm to be the plain one *)
Definition moderate (largest : R) (l : list R) : Prop := forall v, In v l -> Rabs v < R_sqrt.sqrt largest / INR (length l).
