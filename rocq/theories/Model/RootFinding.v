(** crates/multicalc/src/root_finding: bisection, Brent and scalar Newton, over any scalar.

    The function whose root is sought is any function on the scalar: the library's [ScalarFn] at the
    solver's scalar type.  Loops [for iter in 1..=max_iterations] recurse on the iterations left. *)
From Coq Require Import ZArith List Bool Arith.
From Verif Require Import Base.Scalar Model.Errors.
Import ListNotations.

(** root_finding/mod.rs:26-33, 38-47 *)
Inductive RootTermination := ResidualTolerance | StepTolerance | BracketWidth.
Record RootReport (T : Type) := mkReport {
  root : T; residual : T; iterations : nat; termination : RootTermination }.
Arguments mkReport {T}. Arguments root {T}. Arguments residual {T}. Arguments iterations {T}.
Arguments termination {T}.

Section RootFinding.
  Context {T : Type} {NT : Num T}.
  Local Open Scope num_scope.
  Notation Result := (Res (RootReport T) SolveError).

  (** root_finding/mod.rs:68-70 *)
  Definition same_sign (a b : T) : bool := Bool.eqb (a >=? zero) (b >=? zero).

  (** bisection.rs:30-34; Brent's settings are the same three (brent.rs:29-33) *)
  Record Settings := mkSettings { xtol : T; ftol : T; max_iterations : nat }.
  (** bisection.rs:50-57, brent.rs:49-56 *)
  Definition default_settings : Settings := mkSettings epsilon_x4 epsilon_x4 100.

  (** bisection.rs:121-155 *)
  Fixpoint bisect_loop (f : T -> T) (s : Settings) (budget iter : nat) (lower value_lower upper : T) : Result :=
    match budget with
    | O => Err (SoDidNotConverge (max_iterations s))
    | S budget =>
        let mid := lower + (upper - lower) * half in
        let fmid := f mid in
        if negb (is_finite fmid) then Err SoNonFinite
        else if abs fmid <=? ftol s then Ok (mkReport mid fmid iter ResidualTolerance)
        else if upper - lower <=? xtol s * (one + abs mid) then Ok (mkReport mid fmid iter BracketWidth)
        else if same_sign fmid value_lower then bisect_loop f s budget (S iter) mid fmid upper
        else bisect_loop f s budget (S iter) lower value_lower mid
    end.

  (** bisection.rs:86-156 *)
  Definition bisection (f : T -> T) (s : Settings) (a b : T) : Result :=
    let value_a := f a in
    let value_b := f b in
    if negb (is_finite value_a) || negb (is_finite value_b) then Err SoNonFinite
    else if value_a =? zero then Ok (mkReport a value_a 0 ResidualTolerance)
    else if value_b =? zero then Ok (mkReport b value_b 0 ResidualTolerance)
    else if same_sign value_a value_b then Err SoInvalidBracket
    else
      let '(lower, value_lower, upper) := if a <=? b then (a, value_a, b) else (b, value_b, a) in
      bisect_loop f s (max_iterations s) 1 lower value_lower upper.

  (** brent.rs:233-245 *)
  Definition inverse_quadratic_interpolation (a f_at_a b f_at_b point_c f_at_c : T) : T :=
    let s_a := a * f_at_b * f_at_c / ((f_at_a - f_at_b) * (f_at_a - f_at_c)) in
    let s_b := b * f_at_a * f_at_c / ((f_at_b - f_at_a) * (f_at_b - f_at_c)) in
    let s_c := point_c * f_at_a * f_at_b / ((f_at_c - f_at_a) * (f_at_c - f_at_b)) in
    s_a + s_b + s_c.

  (** The locals of Brent's loop. *)
  Record BrentState := mkBrent {
    ba : T; bfa : T; bb : T; bfb : T; bc : T; bfc : T; prev_step : T; mflag : bool }.

  (** brent.rs:147-178: the next trial point, and whether it is a bisection *)
  Definition brent_trial (tol : T) (st : BrentState) : T * bool :=
    let a := ba st in let b := bb st in let point_c := bc st in
    let trial :=
      if negb (bfa st =? bfc st) && negb (bfb st =? bfc st)
      then inverse_quadratic_interpolation a (bfa st) b (bfb st) point_c (bfc st)
      else b - bfb st * (b - a) / (bfb st - bfa st) in
    let bound1 := a * half * half * three + b * half * half in
    let bound2 := b in
    let '(min_b, max_b) := if bound1 <=? bound2 then (bound1, bound2) else (bound2, bound1) in
    let condition1 := (trial <? min_b) || (trial >? max_b) in
    let condition2 := mflag st && (abs (trial - b) >=? abs (b - point_c) * half) in
    let condition3 := negb (mflag st) && (abs (trial - b) >=? abs (point_c - prev_step st) * half) in
    let condition4 := mflag st && (abs (b - point_c) <? tol) in
    let condition5 := negb (mflag st) && (abs (point_c - prev_step st) <? tol) in
    if negb (is_finite trial) || condition1 || condition2 || condition3 || condition4 || condition5
    then (a * half + b * half, true)
    else (trial, false).

  (** brent.rs:185-200: store the trial, then order the ends by residual *)
  Definition brent_update (st : BrentState) (trial f_at_trial : T) (flag : bool) : BrentState :=
    let '(a, fa, b, fb) :=
      if same_sign (bfa st) f_at_trial then (trial, f_at_trial, bb st, bfb st)
      else (ba st, bfa st, trial, f_at_trial) in
    let '(a, fa, b, fb) := if abs fa <? abs fb then (b, fb, a, fa) else (a, fa, b, fb) in
    mkBrent a fa b fb (bb st) (bfb st) (bc st) flag.

  (** brent.rs:126-145 and 203-221, the two convergence tests; [iter] is the count they report *)
  Definition brent_done (s : Settings) (st : BrentState) (iter : nat) : option (RootReport T) :=
    let tol := xtol s * (one + abs (bb st)) in
    let midpoint := (ba st - bb st) * half in
    if abs (bfb st) <=? ftol s then Some (mkReport (bb st) (bfb st) iter ResidualTolerance)
    else if (abs midpoint <=? tol) || (abs (bb st - ba st) <=? tol)
    then Some (mkReport (bb st) (bfb st) iter BracketWidth)
    else None.

  (** brent.rs:125-226 *)
  Fixpoint brent_loop (f : T -> T) (s : Settings) (budget iter : nat) (st : BrentState) : Result :=
    match budget with
    | O => Err (SoDidNotConverge (max_iterations s))
    | S budget =>
        match brent_done s st (iter - 1) with
        | Some r => Ok r
        | None =>
            let '(trial, flag) := brent_trial (xtol s * (one + abs (bb st))) st in
            let f_at_trial := f trial in
            if negb (is_finite f_at_trial) then Err SoNonFinite
            else
              let st' := brent_update st trial f_at_trial flag in
              match brent_done s st' iter with
              | Some r => Ok r
              | None => brent_loop f s budget (S iter) st'
              end
        end
    end.

  (** brent.rs:85-227 *)
  Definition brent (f : T -> T) (s : Settings) (a b : T) : Result :=
    let f_at_a := f a in
    let f_at_b := f b in
    if negb (is_finite f_at_a) || negb (is_finite f_at_b) then Err SoNonFinite
    else if f_at_a =? zero then Ok (mkReport a f_at_a 0 ResidualTolerance)
    else if f_at_b =? zero then Ok (mkReport b f_at_b 0 ResidualTolerance)
    else if same_sign f_at_a f_at_b then Err SoInvalidBracket
    else
      let '(a, fa, b, fb) := if abs f_at_a <? abs f_at_b then (b, f_at_b, a, f_at_a) else (a, f_at_a, b, f_at_b) in
      brent_loop f s (max_iterations s) 1 (mkBrent a fa b fb a fa (b - a) true).

  (** newton.rs:10 *)
  Definition MAX_BACKTRACK : nat := 20.

  (** The points at which the solver called the function, in order, with its answer. *)
  Definition Traced (A : Type) : Type := list T * A.

  (** newton.rs:160-178, the backtracking loop.  [fuel] bounds the recursion; [None] is running out of it, and
      the theorems show that it never happens. *)
  Fixpoint newton_search (fuel : nat) (f : T -> T) (backtracking : bool) (x residual step alpha : T) (tries : nat)
    : Traced (option (Res (T * T) SolveError)) :=
    match fuel with
    | O => ([], None)
    | S fuel =>
        let candidate := x - alpha * step in
        let trial := f candidate in
        if negb backtracking then
          ([candidate], Some (if negb (is_finite trial) then Err SoNonFinite else Ok (candidate, trial)))
        else if (is_finite trial && (abs trial <? abs residual)) || (MAX_BACKTRACK <=? tries)%nat then
          ([candidate], Some (if negb (is_finite trial) then Err SoNonFinite else Ok (candidate, trial)))
        else
          let '(tr, r) := newton_search fuel f backtracking x residual step (alpha * half) (S tries) in
          (candidate :: tr, r)
    end.

  (** newton.rs:138-197.  [derivative] is the derivator's answer at a point, an error included. *)
  Fixpoint newton_loop (fuel : nat) (f : T -> T) (derivative : T -> Res T DiffError) (s : Settings)
    (backtracking : bool) (budget iter : nat) (x residual : T) : Traced (option Result) :=
    match budget with
    | O => ([], Some (Err (SoDidNotConverge (max_iterations s))))
    | S budget =>
        if abs residual <=? ftol s then ([], Some (Ok (mkReport x residual iter ResidualTolerance)))
        else
          match derivative x with
          | Panic => ([], Some Panic)
          | Err e => ([], Some (Err (SoDiff e)))
          | Ok d =>
              if negb (is_finite d) then ([], Some (Err SoNonFinite))
              else if d =? zero then ([], Some (Err (SoLinalg LaSingular)))
              else
                match newton_search fuel f backtracking x residual (residual / d) one 0 with
                | (tr, Some (Ok (x_new, residual_new))) =>
                    let step_taken := abs (x_new - x) in
                    if step_taken <=? xtol s * (one + abs x_new)
                    then (tr, Some (Ok (mkReport x_new residual_new iter StepTolerance)))
                    else
                      let '(tr', r) := newton_loop fuel f derivative s backtracking budget (S iter) x_new residual_new in
                      (tr ++ tr', r)
                | (tr, Some (Err e)) => (tr, Some (Err e))
                | (tr, Some Panic) => (tr, Some Panic)
                | (tr, None) => (tr, None)
                end
          end
    end.

  (** newton.rs:124-198 *)
  Definition newton (fuel : nat) (f : T -> T) (derivative : T -> Res T DiffError) (s : Settings) (backtracking : bool)
    (initial_guess : T) : Traced (option Result) :=
    let residual := f initial_guess in
    if negb (is_finite residual) then ([initial_guess], Some (Err SoNonFinite))
    else
      let '(tr, r) := newton_loop fuel f derivative s backtracking (max_iterations s) 1 initial_guess residual in
      (initial_guess :: tr, r).
End RootFinding.
Arguments Settings : clear implicits.
