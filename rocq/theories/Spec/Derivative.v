(** Derivatives of functions of one and of several variables, and how far a nested difference looks. *)
From Coq Require Import List Reals.
From Coquelicot Require Import Coquelicot.
From Verif Require Import Base.Scalar Base.RNum Base.Lists Model.Derivative Spec.Expr.
Import ListNotations.
Local Open Scope R_scope.

(** [p] with coordinate [i] replaced *)
Definition moved (p : list R) (i : nat) (v : R) : list R := set_nth p i v.
(** the slice of [f] through [p] along coordinate [i] *)
Definition slice (f : list R -> R) (p : list R) (i : nat) : R -> R := fun v => f (moved p i v).
(** the partial derivative with respect to coordinate [i] *)
Definition partial_of (i : nat) (f : list R -> R) : list R -> R := fun p => Derive (slice f p i) (nth i p 0).
Definition has_partial (i : nat) (f : list R -> R) (p : list R) : Prop := ex_derive (slice f p i) (nth i p 0).
(** the partial derivatives with respect to the listed coordinates, the last one first *)
Fixpoint partials (idx : list nat) (f : list R -> R) : list R -> R :=
  match idx with [] => f | i :: rest => partial_of i (partials rest f) end.

(** the points on the line through [p] along [v] *)
Definition line (p v : list R) (t : R) : list R := from_fn (List.length p) (fun k => nth k p 0 + t * nth k v 0).

(** how far from the point a difference of the given order samples: the steps of its levels added up *)
Fixpoint reach (multiplier step : R) (order : nat) : R :=
  match order with O => 0 | S order => step + reach multiplier (multiplier * step) order end.

(** the squares of those steps added up *)
Fixpoint squared_steps (multiplier step : R) (order : nat) : R :=
  match order with O => 0 | S order => step ^ 2 + squared_steps multiplier (multiplier * step) order end.
(** the range sampled around [x] when the reach is [H] *)
Definition in_reach (mode : FiniteDifferenceMode) (x H y : R) : Prop :=
  match mode with Forward => x <= y <= x + H | Backward => x - H <= y <= x | Central => x - H <= y <= x + H end.
(** the box around [p] with half-width [H] *)
Definition in_box (p : list R) (H : R) (q : list R) : Prop :=
  List.length q = List.length p /\ forall i, Rabs (nth i q 0 - nth i p 0) <= H.
(** every partial derivative on the way to [partials idx f] exists at [q] *)
Definition differentiable (idx : list nat) (f : list R -> R) (q : list R) : Prop :=
  forall front i back, idx = front ++ i :: back -> has_partial i (partials back f) q.

(** a formula read as a function of one variable (its variable 0) or of the listed ones, over any scalar *)
Definition formula1 (e : expr) (S : Type) (NS : Num S) (x : S) : S := eval (fun i => match i with O => x | _ => zero end) e.
Definition formula (e : expr) (S : Type) (NS : Num S) (p : list S) : S := eval (fun i => nth i p zero) e.
Definition formulas (es : list expr) (S : Type) (NS : Num S) (p : list S) : list S := map (fun e => formula e S NS p) es.
Definition smooth_at1 (e : expr) (x : R) : Prop := smooth (fun i => match i with O => x | _ => 0 end) e.
Definition smooth_at (e : expr) (p : list R) : Prop := smooth (fun i => nth i p 0) e.
