(** What polynomial properties talk about. *)
From Coq Require Import List Reals.
From Verif Require Import Base.Series.
Import ListNotations.
Local Open Scope R_scope.

(** The polynomial function with the given coefficients: the sum of c_k x^k. [bsum n f] is f 0 + ... + f (n-1). *)
Definition value_at (c : list R) (x : R) : R := bsum (length c) (fun k => nth k c 0 * x ^ k).

(** [n] is the degree: the last non-zero coefficient is the one of x^n. *)
Definition has_degree (c : list R) (n : nat) : Prop := nth n c 0 <> 0 /\ forall k, (n < k)%nat -> nth k c 0 = 0.

(** A function that some list of [n] coefficients represents. *)
Definition fits (n : nat) (f : R -> R) : Prop := exists c, length c = n /\ forall x, value_at c x = f x.

(** The product of (x - r) over a list. *)
Definition product_of_factors (roots : list R) (x : R) : R := fold_right (fun r acc => (x - r) * acc) 1 roots.
