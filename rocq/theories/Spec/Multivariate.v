(** What the properties of polynomials in several variables talk about. *)
From Coq Require Import List Reals NArith.
From Verif Require Import Model.Multivariate.
Import ListNotations.
Local Open Scope R_scope.

(** x_1^e_1 * ... * x_n^e_n *)
Fixpoint monomial (xs : list R) (es : list N) : R :=
  match xs, es with
  | x :: xs, e :: es => x ^ N.to_nat e * monomial xs es
  | _, _ => 1
  end.
(** The sum of coefficient times powers over the terms. *)
Fixpoint sum_of_terms (terms : list (Term R)) (xs : list R) : R :=
  match terms with
  | [] => 0
  | t :: terms => coefficient t * monomial xs (exponents t) + sum_of_terms terms xs
  end.

(** Every term names [n] variables. *)
Definition names (n : nat) (terms : list (Term R)) : Prop := forall t, In t terms -> length (exponents t) = n.
(** No power is above [most]. *)
Definition powers_up_to (most : N) (terms : list (Term R)) : Prop :=
  forall t e, In t terms -> In e (exponents t) -> (e <= most)%N.
