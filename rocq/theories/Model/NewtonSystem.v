(** crates/multicalc/src/root_finding/newton_system.rs, over any scalar.

    The number of unknowns N is the length of the initial guess. *)
From Coq Require Import ZArith List Bool Arith.
From Verif Require Import Base.Scalar Base.Lists Model.Errors Model.Vector Model.Matrix Model.Lu Model.Qr Model.Derivative Model.RootFinding.
Import ListNotations.

(** root_finding/mod.rs:52-61 *)
Record RootReportN (T : Type) := mkReportN { root_n : list T; residual_norm : T; iterations_n : nat; termination_n : RootTermination }.
Arguments mkReportN {T}. Arguments root_n {T}. Arguments residual_norm {T}. Arguments iterations_n {T}. Arguments termination_n {T}.

(** newton_system.rs:46-52 *)
Record NewtonSystem (T : Type) := { ns_derivator : Derivator T; ns_xtol : T; ns_ftol : T; ns_max_iterations : nat; ns_backtracking : bool }.
Arguments ns_derivator {T}. Arguments ns_xtol {T}. Arguments ns_ftol {T}. Arguments ns_max_iterations {T}. Arguments ns_backtracking {T}.

Section NewtonSystem.
  Context {T : Type} {NT : Num T}.
  Local Open Scope num_scope.

  (** newton_system.rs:13 *)
  Definition MAX_BACKTRACK_N : nat := 20.
  (** newton_system.rs:77-86; [new] and [default] (54-72) are this with the autodiff and the default derivator *)
  Definition ns_from_derivator (d : Derivator T) : NewtonSystem T :=
    {| ns_derivator := d; ns_xtol := epsilon_x30; ns_ftol := epsilon_x30; ns_max_iterations := 100; ns_backtracking := false |}.
  (** newton_system.rs:90-93 *)
  Definition ns_with_xtol (s : NewtonSystem T) (xtol : T) : NewtonSystem T :=
    {| ns_derivator := ns_derivator s; ns_xtol := xtol; ns_ftol := ns_ftol s; ns_max_iterations := ns_max_iterations s; ns_backtracking := ns_backtracking s |}.
  (** newton_system.rs:97-100 *)
  Definition ns_with_ftol (s : NewtonSystem T) (ftol : T) : NewtonSystem T :=
    {| ns_derivator := ns_derivator s; ns_xtol := ns_xtol s; ns_ftol := ftol; ns_max_iterations := ns_max_iterations s; ns_backtracking := ns_backtracking s |}.
  (** newton_system.rs:104-107 *)
  Definition ns_with_max_iterations (s : NewtonSystem T) (max_iterations : nat) : NewtonSystem T :=
    {| ns_derivator := ns_derivator s; ns_xtol := ns_xtol s; ns_ftol := ns_ftol s; ns_max_iterations := max_iterations; ns_backtracking := ns_backtracking s |}.
  (** newton_system.rs:112-115 *)
  Definition ns_with_backtracking (s : NewtonSystem T) (backtracking : bool) : NewtonSystem T :=
    {| ns_derivator := ns_derivator s; ns_xtol := ns_xtol s; ns_ftol := ns_ftol s; ns_max_iterations := ns_max_iterations s; ns_backtracking := backtracking |}.

  (** newton_system.rs:169-194, the line search; [remaining] is MAX_BACKTRACK minus [tries].  The answer is alpha, the point, its
      residual and the residual's norm. *)
  Fixpoint ns_line (s : NewtonSystem T) (f : VectorFn) (x step : list T) (fnorm alpha : T) (remaining : nat) : Res (T * list T * list T * T) SolveError :=
    let candidate := map2 (fun a b => a + alpha * b) x step in
    let trial := f T NT candidate in
    let trial_finite := vec_is_finite trial in
    let trial_fnorm := if trial_finite then enorm trial else infinity in
    if negb (ns_backtracking s) then
      if negb trial_finite then Err SoNonFinite else Ok (alpha, candidate, trial, trial_fnorm)
    else if (trial_finite && (trial_fnorm <? fnorm)) || Nat.eqb remaining 0 then
      if negb trial_finite then Err SoNonFinite else Ok (alpha, candidate, trial, trial_fnorm)
    else match remaining with S remaining => ns_line s f x step fnorm (alpha * half) remaining | O => Panic (* not reached *) end.

  (** newton_system.rs:145-214, the loop; [budget] passes remain, of which the next is number [iter] *)
  Fixpoint ns_loop (s : NewtonSystem T) (f : VectorFn) (budget iter : nat) (x residual : list T) (fnorm : T) : Res (RootReportN T) SolveError :=
    match budget with
    | O => Err (SoDidNotConverge (ns_max_iterations s))
    | S budget =>
        if fnorm <=? ns_ftol s then Ok (mkReportN x fnorm iter ResidualTolerance)
        else
          match jacobian (ns_derivator s) f (length x) x with
          | Panic => Panic
          | Err e => Err (SoDiff e)
          | Ok j =>
              if negb (mat_is_finite j) then Err SoNonFinite
              else
                match mat_solve (length x) j (vec_neg residual) with
                | Panic => Panic
                | Err e => Err (SoLinalg e)
                | Ok step =>
                    match ns_line s f x step fnorm one MAX_BACKTRACK_N with
                    | Panic => Panic
                    | Err e => Err e
                    | Ok (alpha, x_new, residual_new, fnorm_new) =>
                        let step_norm := alpha * enorm step in
                        let xnorm := enorm x_new in
                        if step_norm <=? ns_xtol s * (one + xnorm)
                        then Ok (mkReportN x_new fnorm_new iter StepTolerance)
                        else ns_loop s f budget (S iter) x_new residual_new fnorm_new
                    end
                end
          end
    end.

  (** newton_system.rs:124-215 *)
  Definition ns_solve (s : NewtonSystem T) (f : VectorFn) (initial_guess : list T) : Res (RootReportN T) SolveError :=
    let residual := f T NT initial_guess in
    if negb (vec_is_finite residual) then Err SoNonFinite
    else ns_loop s f (ns_max_iterations s) 1 initial_guess residual (enorm residual).
End NewtonSystem.
