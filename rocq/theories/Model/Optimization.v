(** crates/multicalc/src/optimization/mod.rs, crates/multicalc/src/optimization/gauss_newton.rs,
    crates/multicalc/src/optimization/levenberg_marquardt.rs and crates/multicalc/src/optimization/trust_region.rs, over any scalar.

    [m] is the number of residuals (the const generic M); the number of parameters N is the length of the initial guess. *)
From Coq Require Import ZArith List Bool Arith.
From Verif Require Import Base.Scalar Base.Lists Model.Errors Model.Vector Model.Matrix Model.Lu Model.Cholesky Model.Qr Model.Derivative.
Import ListNotations.

(** mod.rs:28-37 *)
Inductive TerminationReason := Ftol | Xtol | Gtol.
(** mod.rs:42-51 *)
Record MinimizationReport (T : Type) := { solution : list T; objective_function : T; evaluations : nat; termination : TerminationReason }.
Arguments solution {T}. Arguments objective_function {T}. Arguments evaluations {T}. Arguments termination {T}.

(** gauss_newton.rs:43-50 *)
Record GaussNewton (T : Type) := { gn_derivator : Derivator T; gn_ftol : T; gn_xtol : T; gn_gtol : T; gn_patience : nat; gn_backtracking : bool }.
Arguments gn_derivator {T}. Arguments gn_ftol {T}. Arguments gn_xtol {T}. Arguments gn_gtol {T}. Arguments gn_patience {T}. Arguments gn_backtracking {T}.
(** levenberg_marquardt.rs:39-47 *)
Record LevenbergMarquardt (T : Type) := { lm_derivator : Derivator T; lm_ftol : T; lm_xtol : T; lm_gtol : T; lm_stepbound : T; lm_patience : nat; lm_scale_diag : bool }.
Arguments lm_derivator {T}. Arguments lm_ftol {T}. Arguments lm_xtol {T}. Arguments lm_gtol {T}. Arguments lm_stepbound {T}. Arguments lm_patience {T}. Arguments lm_scale_diag {T}.
(** levenberg_marquardt.rs:155-164, the variables kept from one pass to the next *)
Record lm_state (T : Type) := { lm_x : list T; lm_residuals : list T; lm_fnorm : T; lm_diag : list T; lm_delta : T; lm_xnorm : T; lm_par : T; lm_evaluations : nat; lm_first : bool }.
Arguments lm_x {T}. Arguments lm_residuals {T}. Arguments lm_fnorm {T}. Arguments lm_diag {T}. Arguments lm_delta {T}. Arguments lm_xnorm {T}. Arguments lm_par {T}.
Arguments lm_evaluations {T}. Arguments lm_first {T}.

Section Optimization.
  Context {T : Type} {NT : Num T}.
  Local Open Scope num_scope.

  (** mod.rs:60-72 *)
  Definition report (x : list T) (residual_norm : T) (evals : nat) (reason : TerminationReason) : MinimizationReport T :=
    {| solution := x; objective_function := half * residual_norm * residual_norm; evaluations := evals; termination := reason |}.

  (** ** gauss_newton.rs *)

  (** gauss_newton.rs:13 *)
  Definition MAX_BACKTRACK : nat := 20.
  (** gauss_newton.rs:73-83 *)
  Definition gn_from_derivator (d : Derivator T) : GaussNewton T :=
    {| gn_derivator := d; gn_ftol := epsilon_x30; gn_xtol := epsilon_x30; gn_gtol := epsilon_x30; gn_patience := 100; gn_backtracking := false |}.
  (** gauss_newton.rs:164-170; [norms] is column_norms *)
  Definition gn_gradient (grad : list T) (fnorm : T) (norms : list T) : T :=
    fold_left (fun gnorm col => if negb (vget norms col =? zero) then pmax gnorm (abs (vget grad col / (fnorm * vget norms col))) else gnorm)
      (seq 0 (length norms)) zero.
  (** gauss_newton.rs:184-212; [remaining] is MAX_BACKTRACK minus [tries].  The answer is alpha, the point, its residuals, their norm and the
      count of evaluations. *)
  Fixpoint gn_line (s : GaussNewton T) (f : VectorFn) (x step : list T) (fnorm alpha : T) (remaining evals : nat) : Res (T * list T * list T * T * nat) SolveError :=
    let candidate := map2 (fun a b => a - alpha * b) x step in
    let trial := f T NT candidate in
    let evals := S evals in
    let finite := vec_is_finite trial in
    let candidate_fnorm := if finite then enorm trial else infinity in
    if negb (gn_backtracking s) then
      if negb finite then Err SoNonFinite else Ok (alpha, candidate, trial, candidate_fnorm, evals)
    else if (finite && (candidate_fnorm <? fnorm)) || Nat.eqb remaining 0 then
      if negb finite then Err SoNonFinite else Ok (alpha, candidate, trial, candidate_fnorm, evals)
    else match remaining with S remaining => gn_line s f x step fnorm (alpha * half) remaining evals | O => Panic (* not reached *) end.
  (** gauss_newton.rs:151-227, the loop; [remaining] passes remain *)
  Fixpoint gn_loop (s : GaussNewton T) (f : VectorFn) (m : nat) (remaining : nat) (x residuals : list T) (fnorm : T) (evals : nat)
    : Res (MinimizationReport T) SolveError :=
    match remaining with
    | O => Err (SoDidNotConverge evals)
    | S remaining =>
        match jacobian (gn_derivator s) f m x with
        | Panic => Panic
        | Err e => Err (SoDiff e)
        | Ok j =>
            if negb (mat_is_finite j) then Err SoNonFinite
            else match qr_decompose m (length x) j with
            | Panic => Panic
            | Err e => Err (SoLinalg e)
            | Ok qr =>
                if fnorm =? zero then Ok (report x fnorm evals Gtol)
                else
                  let grad := mat_vec (length x) m (transpose m (length x) j) residuals in
                  if gn_gradient grad fnorm (column_norms qr) <=? gn_gtol s then Ok (report x fnorm evals Gtol)
                  else match solve_least_squares m (length x) qr residuals with
                  | Panic => Panic
                  | Err e => Err (SoLinalg e)
                  | Ok step =>
                      match gn_line s f x step fnorm one MAX_BACKTRACK evals with
                      | Panic => Panic
                      | Err e => Err e
                      | Ok (alpha, x_new, residuals_new, fnorm_new, evals) =>
                          let step_norm := alpha * enorm step in
                          let xnorm := enorm x_new in
                          if step_norm <=? gn_xtol s * xnorm then Ok (report x_new fnorm_new evals Xtol)
                          else if abs (fnorm - fnorm_new) <=? gn_ftol s * fnorm then Ok (report x_new fnorm_new evals Ftol)
                          else gn_loop s f m remaining x_new residuals_new fnorm_new evals
                      end
                  end
            end
        end
    end.
  (** gauss_newton.rs:129-229 *)
  Definition gn_minimize (s : GaussNewton T) (f : VectorFn) (m : nat) (initial_guess : list T) : Res (MinimizationReport T) SolveError :=
    let residuals := f T NT initial_guess in
    if negb (vec_is_finite residuals) then Err SoNonFinite
    else gn_loop s f m (gn_patience s) initial_guess residuals (enorm residuals) 1.

  (** ** trust_region.rs *)

  (** trust_region.rs:31-32 *)
  Definition scaled (n : nat) (diag entries : list T) : list T := from_fn n (fun j => vget diag j * vget entries j).
  (** trust_region.rs:53-55 and 118-120 *)
  Definition boundary_normal (n : nat) (d : damped (T := T)) (diag scaled_step : list T) (dxnorm : T) : list T :=
    from_fn n (fun j => vget diag (nth j (d_permutation d) O) * (vget scaled_step (nth j (d_permutation d) O) / dxnorm)).
  (** trust_region.rs:57-64 *)
  Definition forward_solve (n : nat) (d : damped (T := T)) (w : list T) : list T :=
    fold_left (fun w j =>
      let sum := fold_left (fun sum i => sum + mget (triangular d) i j * vget w i) (seq 0 j) zero in
      set_nth w j ((vget w j - sum) / mget (triangular d) j j)) (seq 0 n) w.
  (** trust_region.rs:70-77 *)
  Definition scaled_gradient (n : nat) (d : damped (T := T)) (diag : list T) : list T :=
    from_fn n (fun j => fold_left (fun sum i => sum + mget (triangular d) i j * vget (qt_b d) i) (seq 0 (S j)) zero / vget diag (nth j (d_permutation d) O)).
  (** trust_region.rs:91-132, one pass and those after it; [remaining] counts the passes after this one.  The answer is the damping and the step. *)
  Fixpoint lmpar_loop (n : nat) (d : damped (T := T)) (diag : list T) (delta : T) (remaining : nat) (parl paru par boundary_err : T) : T * list T :=
    let par := if par =? zero then pmax min_positive (of_ratio 1 1000 * paru) else par in
    let sqrt_par := sqrt par in
    let '(step, fac) := solve_with_diagonal n d (from_fn n (fun j => sqrt_par * vget diag j)) in
    let scaled_step := scaled n diag step in
    let dxnorm := enorm scaled_step in
    let previous_boundary_err := boundary_err in
    let boundary_err := dxnorm - delta in
    if (abs boundary_err <=? of_ratio 1 10 * delta)
       || ((parl =? zero) && (boundary_err <=? previous_boundary_err) && (previous_boundary_err <? zero))
       || Nat.eqb remaining 0
    then (par, step)
    else
      let temp := enorm (damped_factor_solve n fac (boundary_normal n d diag scaled_step dxnorm)) in
      if temp =? zero then (par, step)
      else
        let parc := ((boundary_err / delta) / temp) / temp in
        let parl := if boundary_err >? zero then pmax parl par else parl in
        let paru := if boundary_err >? zero then paru else pmin paru par in
        match remaining with S remaining => lmpar_loop n d diag delta remaining parl paru (pmax parl (par + parc)) boundary_err | O => (par, step) (* not reached *) end.
  (** trust_region.rs:20-135 *)
  Definition lmpar (n : nat) (d : damped (T := T)) (diag : list T) (delta initial_lambda : T) : T * list T :=
    let dwarf := min_positive in
    let gauss_newton := fst (solve_with_zero_diagonal n d) in
    let full_rank := is_non_singular n d in
    let dxnorm := enorm (scaled n diag gauss_newton) in
    let boundary_err := dxnorm - delta in
    if boundary_err <=? of_ratio 1 10 * delta then (zero, gauss_newton)
    else
      let parl := if full_rank then
                    let temp := enorm (forward_solve n d (boundary_normal n d diag (scaled n diag gauss_newton) dxnorm)) in
                    ((boundary_err / delta) / temp) / temp
                  else zero in
      let gnorm := enorm (scaled_gradient n d diag) in
      let paru := gnorm / delta in
      let paru := if paru =? zero then dwarf / pmin delta (of_ratio 1 10) else paru in
      let par := pmin (pmax initial_lambda parl) paru in
      let par := if par =? zero then gnorm / dxnorm else par in
      lmpar_loop n d diag delta 9 parl paru par boundary_err.

  (** ** levenberg_marquardt.rs *)

  (** levenberg_marquardt.rs:15 *)
  Definition MAX_TRUST_REGION_TRIALS : nat := 100.
  (** levenberg_marquardt.rs:73-84 *)
  Definition lm_from_derivator (d : Derivator T) : LevenbergMarquardt T :=
    {| lm_derivator := d; lm_ftol := epsilon_x30; lm_xtol := epsilon_x30; lm_gtol := epsilon_x30; lm_stepbound := hundred; lm_patience := 100; lm_scale_diag := true |}.
  (** levenberg_marquardt.rs:220-224 *)
  Definition actual_reduction (fnorm fnorm1 : T) : T :=
    if of_ratio 1 10 * fnorm1 <? fnorm then one - (fnorm1 / fnorm) * (fnorm1 / fnorm) else - one.
  (** levenberg_marquardt.rs:239-258: the new radius and damping *)
  Definition adjusted (fnorm fnorm1 actred dirder ratio delta pnorm par : T) : T * T :=
    let tenth := of_ratio 1 10 in
    if ratio <=? of_ratio 1 4 then
      let temp := if actred >=? zero then half
                  else let denom := dirder + half * actred in
                       if negb (denom =? zero) then half * dirder / denom else half in
      let temp := if (tenth * fnorm1 >=? fnorm) || (temp <? tenth) then tenth else temp in
      (temp * pmin delta (pnorm / tenth), par / temp)
    else if (par =? zero) || (ratio >=? of_ratio 3 4) then (pnorm / half, half * par)
    else (delta, par).
  (** levenberg_marquardt.rs:200-280, the trials of one pass; the answer is the state after the pass, or what [minimize] returns *)
  Fixpoint lm_trials (s : LevenbergMarquardt T) (f : VectorFn) (d : damped (T := T)) (remaining : nat) (st : lm_state T)
    : lm_state T + Res (MinimizationReport T) SolveError :=
    match remaining with
    | O => inl st
    | S remaining =>
        let n := length (lm_x st) in
        let '(par, step) := lmpar n d (lm_diag st) (lm_delta st) (lm_par st) in
        let pnorm := enorm (scaled n (lm_diag st) step) in
        let delta := if lm_first st then pmin (lm_delta st) pnorm else lm_delta st in
        let x_new := map2 sub (lm_x st) step in
        let residuals_new := f T NT x_new in
        let evals := S (lm_evaluations st) in
        if negb (vec_is_finite residuals_new) then inr (Err SoNonFinite)
        else
          let fnorm := lm_fnorm st in
          let fnorm1 := enorm residuals_new in
          let actred := actual_reduction fnorm fnorm1 in
          let temp1 := a_x_norm n d step / fnorm in
          let temp2 := (sqrt par * pnorm) / fnorm in
          let prered := temp1 * temp1 + (temp2 * temp2) / half in
          let dirder := - (temp1 * temp1 + temp2 * temp2) in
          let ratio := if negb (prered =? zero) then actred / prered else zero in
          let '(delta, par) := adjusted fnorm fnorm1 actred dirder ratio delta pnorm par in
          let accepted := ratio >=? of_ratio 1 10000 in
          let x := if accepted then x_new else lm_x st in
          let residuals := if accepted then residuals_new else lm_residuals st in
          let fnorm := if accepted then fnorm1 else fnorm in
          let xnorm := if accepted then enorm (scaled n (lm_diag st) x_new) else lm_xnorm st in
          if (abs actred <=? lm_ftol s) && (prered <=? lm_ftol s) && (half * ratio <=? one) then inr (Ok (report x fnorm evals Ftol))
          else if delta <=? lm_xtol s * xnorm then inr (Ok (report x fnorm evals Xtol))
          else
            let st := {| lm_x := x; lm_residuals := residuals; lm_fnorm := fnorm; lm_diag := lm_diag st; lm_delta := delta; lm_xnorm := xnorm;
                         lm_par := par; lm_evaluations := evals; lm_first := false |} in
            if accepted then inl st else lm_trials s f d remaining st
    end.
  (** levenberg_marquardt.rs:173-187, on the first pass *)
  Definition lm_begin (s : LevenbergMarquardt T) (d : damped (T := T)) (st : lm_state T) : lm_state T :=
    if lm_first st then
      let diag := map (fun c => if c =? zero then one else c) (d_column_norms d) in
      let xnorm := enorm (scaled (length (lm_x st)) diag (lm_x st)) in
      let delta := lm_stepbound s * xnorm in
      {| lm_x := lm_x st; lm_residuals := lm_residuals st; lm_fnorm := lm_fnorm st; lm_diag := diag;
         lm_delta := if delta =? zero then lm_stepbound s else delta; lm_xnorm := xnorm; lm_par := lm_par st;
         lm_evaluations := lm_evaluations st; lm_first := true |}
    else st.
  (** levenberg_marquardt.rs:193-198 *)
  Definition lm_grow (s : LevenbergMarquardt T) (d : damped (T := T)) (st : lm_state T) : lm_state T :=
    if lm_scale_diag s then
      {| lm_x := lm_x st; lm_residuals := lm_residuals st; lm_fnorm := lm_fnorm st; lm_diag := map2 pmax (lm_diag st) (d_column_norms d);
         lm_delta := lm_delta st; lm_xnorm := lm_xnorm st; lm_par := lm_par st; lm_evaluations := lm_evaluations st; lm_first := lm_first st |}
    else st.
  (** levenberg_marquardt.rs:166-282, the loop; [remaining] passes remain *)
  Fixpoint lm_loop (s : LevenbergMarquardt T) (f : VectorFn) (m remaining : nat) (st : lm_state T) : Res (MinimizationReport T) SolveError :=
    match remaining with
    | O => Err (SoDidNotConverge (lm_evaluations st))
    | S remaining =>
        let n := length (lm_x st) in
        match jacobian (lm_derivator s) f m (lm_x st) with
        | Panic => Panic
        | Err e => Err (SoDiff e)
        | Ok j =>
            if negb (mat_is_finite j) then Err SoNonFinite
            else match qr_decompose m n j with
            | Panic => Panic
            | Err e => Err (SoLinalg e)
            | Ok qr =>
                let d := into_damped m n qr (lm_residuals st) in
                let st := lm_begin s d st in
                if max_a_t_b_scaled n d (lm_fnorm st) <=? lm_gtol s then Ok (report (lm_x st) (lm_fnorm st) (lm_evaluations st) Gtol)
                else match lm_trials s f d MAX_TRUST_REGION_TRIALS (lm_grow s d st) with
                | inr answer => answer
                | inl st => lm_loop s f m remaining st
                end
            end
        end
    end.
  (** levenberg_marquardt.rs:133-285 *)
  Definition lm_minimize (s : LevenbergMarquardt T) (f : VectorFn) (m : nat) (initial_guess : list T) : Res (MinimizationReport T) SolveError :=
    let residuals := f T NT initial_guess in
    if negb (vec_is_finite residuals) then Err SoNonFinite
    else lm_loop s f m (lm_patience s)
           {| lm_x := initial_guess; lm_residuals := residuals; lm_fnorm := enorm residuals; lm_diag := repeat zero (length initial_guess);
              lm_delta := zero; lm_xnorm := zero; lm_par := zero; lm_evaluations := 1; lm_first := true |}.
End Optimization.
