(** crates/multicalc/src/numerical_derivative/.

    A [ScalarFn], [ScalarFnN] or [VectorFn] is code generic over the scalar (function.rs:13-32): a function that works for every
    [Num].  Arrays are lists; the number of variables is the length of the point.  Derivators carry no state. *)
From Coq Require Import ZArith List Bool.
From Verif Require Import Base.Scalar Base.Lists Model.Errors Model.Dual Model.HyperDual Model.Jet Model.Matrix.
Import ListNotations.

(** function.rs:13-16, 19-22, 28-31 *)
Definition ScalarFn := forall S : Type, Num S -> S -> S.
Definition ScalarFnN := forall S : Type, Num S -> list S -> S.
Definition VectorFn := forall S : Type, Num S -> list S -> list S.
(** function.rs:36-58 *)
Definition component (func : VectorFn) (index : nat) : ScalarFnN := fun S NS point => nth index (func S NS point) zero.

(** mode.rs:7-15 *)
Inductive FiniteDifferenceMode := Forward | Backward | Central.

(** [for &idx in idx_to_differentiate { if idx >= NUM_VARS { return Err(IndexOutOfRange) } }] *)
Definition in_range (idx : list nat) (num_vars : nat) : bool := forallb (fun i => Nat.ltb i num_vars) idx.

(** derivator.rs:68-135, trait DerivatorMultiVariable: [d_differentiate] is [differentiate] and [d_column] is
    [jacobian_column] *)
Record Derivator (T : Type) := {
  d_differentiate : ScalarFnN -> list nat -> list T -> Res T DiffError;
  d_column : VectorFn -> nat -> list T -> Res (list T) DiffError
}.
Arguments d_differentiate {T}. Arguments d_column {T}.

Section Derivative.
  Context {T : Type} {NT : Num T}.
  Local Open Scope num_scope.

  (** ** autodiff.rs *)

  (** autodiff.rs:14 *)
  Definition MAX_ORDER : nat := 6.
  (** autodiff.rs:65-75 *)
  Definition autodiff_single (order : nat) (func : ScalarFn) (point : T) : Res T DiffError :=
    match order with
    | 0 => Err DiOrderZero
    | 1 => Ok (deriv (func _ dual_num (dual_variable point)))
    | 2 => Ok (eps1eps2 (func _ hyper_num (hyper_variable point)))
    | _ =>
        if Nat.leb order MAX_ORDER then
          match jet_derivative (func _ (jet_num (MAX_ORDER + 1)) (jet_variable (MAX_ORDER + 1) point)) order with
          | Some d => Ok d
          | None => Panic
          end
        else Err DiOrderUnsupported
    end.

  (** autodiff.rs:160-163, and 214-215 *)
  Definition dual_seed (i : nat) (point : list T) : list (Dual T) :=
    set_nth (map dual_constant point) i (dual_variable (nth i point zero)).
  (** autodiff.rs:168-173 *)
  Definition hyper_seed (i j : nat) (point : list T) : list (HyperDual T) :=
    let seed := map hyper_constant point in
    let h := nth i seed (hyper_constant zero) in
    let seed := set_nth seed i (mkHyper (real h) one (eps2 h) (eps1eps2 h)) in
    let h := nth j seed (hyper_constant zero) in
    set_nth seed j (mkHyper (real h) (eps1 h) one (eps1eps2 h)).
  (** autodiff.rs:182-191 *)
  Definition triple_seed (i j k : nat) (point : list T) : list (Dual (HyperDual T)) :=
    from_fn (length point) (fun idx =>
      let a := if Nat.eqb idx i then one else zero in
      let b := if Nat.eqb idx j then one else zero in
      let seed_k := if Nat.eqb idx k then one else zero in
      mkDual (mkHyper (nth idx point zero) a b zero) (mkHyper seed_k zero zero zero)).
  (** autodiff.rs:140-198 *)
  Definition autodiff_differentiate (func : ScalarFnN) (idx : list nat) (point : list T) : Res T DiffError :=
    match idx with
    | [] => Err DiOrderZero
    | _ =>
        if negb (in_range idx (length point)) then Err DiIndexOutOfRange
        else match idx with
             | [i] => Ok (deriv (func _ dual_num (dual_seed i point)))
             | [i; j] => Ok (eps1eps2 (func _ hyper_num (hyper_seed i j point)))
             | [i; j; k] => Ok (eps1eps2 (deriv (func _ (@dual_num (HyperDual T) hyper_num) (triple_seed i j k point))))
             | _ => Err DiOrderUnsupported
             end
    end.
  (** autodiff.rs:200-219 *)
  Definition autodiff_column (func : VectorFn) (col : nat) (point : list T) : Res (list T) DiffError :=
    if Nat.leb (length point) col then Err DiIndexOutOfRange
    else Ok (map deriv (func _ dual_num (dual_seed col point))).
  Definition autodiff_multi : Derivator T :=
    {| d_differentiate := autodiff_differentiate; d_column := autodiff_column |}.

  (** ** mode.rs and finite_difference.rs *)

  (** mode.rs:39-44 *)
  Definition default_step_size (mode : FiniteDifferenceMode) : T :=
    match mode with Forward | Backward => sqrt epsilon | Central => cbrt epsilon end.
  (** finite_difference.rs:14-22 *)
  Definition offsets (method : FiniteDifferenceMode) : T * T * T :=
    match method with
    | Forward => (zero, one, one)
    | Backward => (- one, zero, one)
    | Central => (- one, one, two)
    end.
  (** finite_difference.rs:24-34 *)
  Record FiniteDifferenceConfig := mkFD { step_size : T; method : FiniteDifferenceMode; step_size_multiplier : T }.
  (** finite_difference.rs:36-46; mode.rs:53 *)
  Definition fd_default : FiniteDifferenceConfig := mkFD (default_step_size Central) Central (of_ratio 10 1).
  (** finite_difference.rs:60-68 *)
  Definition check_step_size (c : FiniteDifferenceConfig) : option DiffError :=
    if step_size c =? zero then Some DiStepSizeZero
    else if (negb (is_finite (step_size c)) || (step_size c <? zero))%bool then Some DiInvalidStepSize
    else None.

  (** finite_difference.rs:96-110; the recursion is on the order, which is at least 1 (order 0 is refused before) *)
  Fixpoint fd_diff (c : FiniteDifferenceConfig) (order : nat) (func : T -> T) (point step : T) : T :=
    let '(lower, upper, denom) := offsets (method c) in
    match order with
    | S (S _ as previous) =>
        let next := step_size_multiplier c * step in
        let low := fd_diff c previous func (point + lower * step) next in
        let high := fd_diff c previous func (point + upper * step) next in
        (high - low) / (denom * step)
    | _ =>
        let low := func (point + lower * step) in
        let high := func (point + upper * step) in
        (high - low) / (denom * step)
    end.
  (** finite_difference.rs:115-121 *)
  Definition finite_difference_single (c : FiniteDifferenceConfig) (order : nat) (func : ScalarFn) (point : T) : Res T DiffError :=
    match order with
    | 0 => Err DiOrderZero
    | _ => match check_step_size c with
           | Some e => Err e
           | None => Ok (fd_diff c order (func T NT) point (step_size c))
           end
    end.

  (** [let mut p = *point; p[var] += by] *)
  Definition shift (point : list T) (var : nat) (by_ : T) : list T := set_nth point var (nth var point zero + by_).
  (** finite_difference.rs:148-173; [rev_idx] lists the variables from index [order - 1] down to index 0, so its length is the
      order and its head the variable of this level *)
  Fixpoint fd_diff_multi (c : FiniteDifferenceConfig) (func : list T -> T) (rev_idx : list nat) (point : list T) (step : T) : T :=
    let '(lower, upper, denom) := offsets (method c) in
    match rev_idx with
    | [] => zero                       (* not reached: order 0 is refused before *)
    | [var] => (func (shift point var (upper * step)) - func (shift point var (lower * step))) / (denom * step)
    | var :: rest =>
        let low_point := shift point var (lower * step) in
        let high_point := shift point var (upper * step) in
        let next := step_size_multiplier c * step in
        let low := fd_diff_multi c func rest low_point next in
        let high := fd_diff_multi c func rest high_point next in
        (high - low) / (denom * step)
    end.
  (** finite_difference.rs:179-204 *)
  Definition fd_differentiate (c : FiniteDifferenceConfig) (func : ScalarFnN) (idx : list nat) (point : list T) : Res T DiffError :=
    match idx with
    | [] => Err DiOrderZero
    | _ =>
        match check_step_size c with
        | Some e => Err e
        | None =>
            if negb (in_range idx (length point)) then Err DiIndexOutOfRange
            else Ok (fd_diff_multi c (func T NT) (rev idx) point (step_size c))
        end
    end.
  (** finite_difference.rs:206-235 *)
  Definition fd_column (c : FiniteDifferenceConfig) (func : VectorFn) (col : nat) (point : list T) : Res (list T) DiffError :=
    match check_step_size c with
    | Some e => Err e
    | None =>
        if Nat.leb (length point) col then Err DiIndexOutOfRange
        else
          let '(lower, upper, denom) := offsets (method c) in
          let step := step_size c in
          let low := func T NT (shift point col (lower * step)) in
          let high := func T NT (shift point col (upper * step)) in
          Ok (from_fn (length low) (fun row => (nth row high zero - nth row low zero) / (denom * step)))
    end.
  Definition finite_difference_multi (c : FiniteDifferenceConfig) : Derivator T :=
    {| d_differentiate := fd_differentiate c; d_column := fd_column c |}.

  (** ** derivator.rs, mod.rs: the shorthands *)

  (** derivator.rs:41-57, for either single-variable derivator *)
  Definition first_derivative (differentiate : nat -> ScalarFn -> T -> Res T DiffError) (func : ScalarFn) (point : T) :=
    differentiate 1 func point.
  Definition second_derivative_of (differentiate : nat -> ScalarFn -> T -> Res T DiffError) (func : ScalarFn) (point : T) :=
    differentiate 2 func point.
  (** derivator.rs:100-118 *)
  Definition first_partial_derivative (d : Derivator T) (func : ScalarFnN) (i : nat) (point : list T) : Res T DiffError :=
    d_differentiate d func [i] point.
  Definition second_partial_derivative (d : Derivator T) (func : ScalarFnN) (i j : nat) (point : list T) : Res T DiffError :=
    d_differentiate d func [i; j] point.
  (** mod.rs:45-47, 64-66, 91-97 *)
  Definition derivative (func : ScalarFn) (point : T) : T := deriv (func _ dual_num (dual_variable point)).
  Definition second_derivative (func : ScalarFn) (point : T) : T := eps1eps2 (func _ hyper_num (hyper_variable point)).
  Definition partial (func : ScalarFnN) (i : nat) (point : list T) : Res T DiffError :=
    first_partial_derivative autodiff_multi func i point.

  (** ** jacobian.rs *)

  (** jacobian.rs:73-98; [num_funcs] is NUM_FUNCS *)
  Definition write_column (result : list (list T)) (n : nat) (column : list T) : list (list T) :=
    fold_left (fun result row => mset result row n (nth row column zero)) (seq 0 (length column)) result.
  Definition jacobian (d : Derivator T) (func : VectorFn) (num_funcs : nat) (point : list T) : Res (list (list T)) DiffError :=
    if Nat.eqb num_funcs 0 then Err DiEmptyFunctionSet
    else fold_left (fun acc n =>
           match acc with
           | Ok result =>
               match d_column d func n point with
               | Ok column => Ok (write_column result n column)
               | Err e => Err e
               | Panic => Panic
               end
           | other => other
           end) (seq 0 (length point)) (Ok (mat_zeros num_funcs (length point))).
  (** jacobian.rs:113-143: one growing vector per row *)
  Definition push_column (result : list (list T)) (column : list T) : list (list T) :=
    fold_left (fun result row => set_nth result row (nth row result [] ++ [nth row column zero])) (seq 0 (length column)) result.
  Definition jacobian_on_heap (d : Derivator T) (func : VectorFn) (num_funcs : nat) (point : list T) : Res (list (list T)) DiffError :=
    if Nat.eqb num_funcs 0 then Err DiEmptyFunctionSet
    else fold_left (fun acc n =>
           match acc with
           | Ok result =>
               match d_column d func n point with
               | Ok column => Ok (push_column result column)
               | Err e => Err e
               | Panic => Panic
               end
           | other => other
           end) (seq 0 (length point)) (Ok (repeat [] num_funcs)).

  (** ** hessian.rs *)

  (** hessian.rs:69-95: the matrix starts out NaN and a cell is computed when it still is; also
      quadratic_approximation.rs:181-193 *)
  Definition hessian_cell (d : Derivator T) (func : ScalarFnN) (point : list T)
      (acc : Res (list (list T)) DiffError) (cell : nat * nat) : Res (list (list T)) DiffError :=
    match acc with
    | Ok result =>
        let '(row, col) := cell in
        if is_nan (mget result row col) then
          match second_partial_derivative d func row col point with
          | Ok value => Ok (mset (mset result row col value) col row value)
          | Err e => Err e
          | Panic => Panic
          end
        else Ok result
    | other => other
    end.
  Definition hessian (d : Derivator T) (func : ScalarFnN) (point : list T) : Res (list (list T)) DiffError :=
    let n := length point in
    fold_left (hessian_cell d func point) (list_prod (seq 0 n) (seq 0 n)) (Ok (mat_fn n n (fun _ _ => nan))).
End Derivative.
Arguments FiniteDifferenceConfig : clear implicits.
