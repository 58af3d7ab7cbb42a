(** Exact sums, for the properties of the accumulators. *)
From Coq Require Import Reals List.
Import ListNotations.
Local Open Scope R_scope.

Fixpoint exact_sum (l : list R) : R := match l with [] => 0 | x :: l => x + exact_sum l end.
Definition exact_abs_sum (l : list R) : R := exact_sum (map Rabs l).
