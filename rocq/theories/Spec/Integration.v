(** What the composite rules promise. *)
From Coq Require Import Reals ZArith List Arith.
From Coquelicot Require Import Coquelicot.
From Verif Require Import Base.Scalar Base.XNum Base.Lists Base.Series Model.Integration.
Import ListNotations.
Local Open Scope R_scope.

(** How many steps make one panel of a rule, and below which degree it is exact *)
Definition panel_size (m : IterativeMethod) : nat := match m with Booles => 4 | Simpsons => 3 | Trapezoidal => 1 end.
Definition rule_order (m : IterativeMethod) : nat := match m with Booles => 6 | Simpsons => 4 | Trapezoidal => 2 end.
(** [f] has [p] derivatives on the interval, the last bounded by [bound]. *)
Definition smooth_on (p : nat) (f : R -> R) (a b bound : R) : Prop :=
  forall x, a <= x <= b -> (forall k, (k <= p)%nat -> ex_derive_n f k x) /\ Rabs (Derive_n f p x) <= bound.
(** The polynomial with coefficients [c] below degree [p], and its integral *)
Definition polynomial (p : nat) (c : nat -> R) (x : R) : R := bsum p (fun k => c k * x ^ k).
Definition polynomial_integral (p : nat) (c : nat -> R) (a b : R) : R := bsum p (fun k => c k * (b ^ S k - a ^ S k) / INR (S k)).
(** The integrals up to infinity and over the whole line *)
Definition integral_upwards (f : R -> R) (a I : R) : Prop :=
  (forall b, a <= b -> ex_RInt f a b) /\ is_lim (fun b => RInt f a b) p_infty I.
Definition integral_whole_line (f : R -> R) (I : R) : Prop :=
  exists right left, integral_upwards f 0 right /\ integral_upwards (fun x => f (- x)) 0 left /\ I = right + left.
(** The iterated integral over the levels, (variable, limits) from the outermost in *)
Fixpoint iterated (f : list R -> R) (levels : list (nat * (R * R))) (point : list R) : R :=
  match levels with
  | [] => f point
  | (v, (a, b)) :: inner => RInt (fun x => iterated f inner (set_nth point v x)) a b
  end.
(** [f] is a polynomial of degree below [p] in variable [v]. *)
Definition polynomial_in (p v : nat) (f : list R -> R) : Prop :=
  forall point, exists k, forall x, f (set_nth point v x) = polynomial p k x.
(** Limits an integral can be taken between *)
Definition proper (limits : XR * XR) : Prop :=
  match limits with
  | (Fin a, Fin b) => a < b
  | (Fin _, PInf) | (NInf, Fin _) | (NInf, PInf) => True
  | _ => False
  end.
(** The places a rule with [n] steps samples *)
Fixpoint from {T} {NT : Num T} (n : nat) (x delta : T) : list T := match n with O => [] | S n => let x := add x delta in x :: from n x delta end.
Definition sample_places {T} {NT : Num T} (n : nat) (a b : T) : list T := a :: from (n - 1) a (div (sub b a) (of_Z (Z.of_nat n))) ++ [b].
