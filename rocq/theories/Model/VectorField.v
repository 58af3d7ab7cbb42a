(** crates/multicalc/src/vector_field/ *)
From Coq Require Import ZArith List Bool.
From Verif Require Import Base.Scalar Base.Lists Model.Errors Model.Derivative Model.Integration.
Import ListNotations.

(** the [?] operator *)
Definition and_then {A B E} (r : Res A E) (k : A -> Res B E) : Res B E :=
  match r with Ok a => k a | Err e => Err e | Panic => Panic end.

(** iterative_integration.rs:11 *)
Definition DEFAULT_TOTAL_ITERATIONS : nat := 120.

Section VectorField.
  Context {T : Type} {NT : Num T}.
  Local Open Scope num_scope.

  (** curl.rs:35-55 *)
  Definition curl_3d (d : Derivator T) (field : VectorFn) (point : list T) : Res (list T) DiffError :=
    let partial c i k := and_then (first_partial_derivative d (component field c) i point) k in
    partial 2 1 (fun zy => partial 1 2 (fun yz =>
    partial 0 2 (fun xz => partial 2 0 (fun zx =>
    partial 1 0 (fun yx => partial 0 1 (fun xy =>
      Ok [zy - yz; xz - zx; yx - xy])))))).
  (** curl.rs:83-93 *)
  Definition curl_2d (d : Derivator T) (field : VectorFn) (point : list T) : Res T DiffError :=
    let partial c i k := and_then (first_partial_derivative d (component field c) i point) k in
    partial 1 0 (fun yx => partial 0 1 (fun xy => Ok (yx - xy))).
  (** divergence.rs:34-46 *)
  Definition divergence_3d (d : Derivator T) (field : VectorFn) (point : list T) : Res T DiffError :=
    let partial c i k := and_then (first_partial_derivative d (component field c) i point) k in
    partial 0 0 (fun xx => partial 1 1 (fun yy => partial 2 2 (fun zz => Ok (xx + yy + zz)))).
  (** divergence.rs:75-85 *)
  Definition divergence_2d (d : Derivator T) (field : VectorFn) (point : list T) : Res T DiffError :=
    let partial c i k := and_then (first_partial_derivative d (component field c) i point) k in
    partial 0 0 (fun xx => partial 1 1 (fun yy => Ok (xx + yy))).

  (** ** line_integral.rs: a field is a list of functions of the position, a curve a list of functions of the parameter *)
  Definition field_at (field : list (list T -> T)) (idx : nat) (point : list T) : T := nth idx field (fun _ => zero) point.

  (** line_integral.rs:7-16 *)
  Definition curve_point (curve : list (T -> T)) (parameter : T) : list T := map (fun f => f parameter) curve.
  (** line_integral.rs:51-62: one pass of the loop on (parameter, ans, left, left_value) *)
  Definition line_step (field : list (list T -> T)) (curve : list (T -> T)) (delta : T) (idx : nat)
      (st : T * T * list T * T) : T * T * list T * T :=
    let '(parameter, ans, before, before_value) := st in
    let after := curve_point curve (parameter + delta) in
    let after_value := field_at field idx after in
    (parameter + delta, ans + (nth idx after zero - nth idx before zero) * (before_value + after_value) / two, after, after_value).
  (** line_integral.rs:20-65 *)
  Definition get_partial (field : list (list T -> T)) (curve : list (T -> T)) (limit : T * T) (iterations : nat) (idx : nat) :
      Res T IntegrateError :=
    if Nat.eqb iterations 0 then Err InIterationsZero
    else if negb (fst limit <? snd limit) then Err InLimitsIllDefined
    else
      let delta := (snd limit - fst limit) / of_nat iterations in
      let before := curve_point curve (fst limit) in
      let '(_, ans, _, _) := Nat.iter iterations (line_step field curve delta idx) (fst limit, zero, before, field_at field idx before) in
      Ok ans.
  (** line_integral.rs:111-137, 180-212; 92-103 and 161-172 with the default number of iterations *)
  Definition line_integral_2d_custom (field : list (list T -> T)) (curve : list (T -> T)) (limit : T * T) (iterations : nat) :=
    and_then (get_partial field curve limit iterations 0) (fun a =>
    and_then (get_partial field curve limit iterations 1) (fun b => Ok (a + b))).
  Definition line_integral_3d_custom (field : list (list T -> T)) (curve : list (T -> T)) (limit : T * T) (iterations : nat) :=
    and_then (get_partial field curve limit iterations 0) (fun a =>
    and_then (get_partial field curve limit iterations 1) (fun b =>
    and_then (get_partial field curve limit iterations 2) (fun c => Ok (a + b + c)))).
  Definition line_integral_2d (field : list (list T -> T)) (curve : list (T -> T)) (limit : T * T) :=
    line_integral_2d_custom field curve limit DEFAULT_TOTAL_ITERATIONS.
  Definition line_integral_3d (field : list (list T -> T)) (curve : list (T -> T)) (limit : T * T) :=
    line_integral_3d_custom field curve limit DEFAULT_TOTAL_ITERATIONS.

  (** flux_integral.rs:56-75, 90-115; 37-48 and 77-88 with the default number of iterations *)
  Definition flux_integral_2d_custom (field : list (list T -> T)) (curve : list (T -> T)) (limit : T * T) (iterations : nat) :=
    and_then (get_partial field curve limit iterations 0) (fun a =>
    and_then (get_partial field curve limit iterations 1) (fun b => Ok (a - b))).
  Definition flux_integral_3d_custom (field : list (list T -> T)) (curve : list (T -> T)) (limit : T * T) (iterations : nat) :=
    and_then (get_partial field curve limit iterations 0) (fun a =>
    and_then (get_partial field curve limit iterations 1) (fun b =>
    and_then (get_partial field curve limit iterations 2) (fun c => Ok (a - b - c)))).
  Definition flux_integral_2d (field : list (list T -> T)) (curve : list (T -> T)) (limit : T * T) :=
    flux_integral_2d_custom field curve limit DEFAULT_TOTAL_ITERATIONS.
End VectorField.
