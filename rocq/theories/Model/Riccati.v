(** crates/multicalc/src/linear_algebra/lyapunov.rs and riccati.rs, and control/lqr.rs, over any scalar. *)
From Coq Require Import ZArith List Bool Arith.
From Verif Require Import Base.Scalar Base.Lists Model.Errors Model.Vector Model.Matrix Model.Lu Model.Cholesky.
Import ListNotations.

Section Riccati.
  Context {T : Type} {NT : Num T}.
  Local Open Scope num_scope.

  (** lyapunov.rs:65-71: the pairs are read from the matrix being written *)
  Definition average_pairs (n : nat) (next : mat T) : mat T :=
    fold_left (fun next row =>
      fold_left (fun next column =>
        let averaged := (mget next row column + mget next column row) * half in
        mset (mset next row column averaged) column row averaged) (range (row + 1) n) next) (range 0 n) next.

  (** lyapunov.rs:60-86, with [remaining] passes to go after [pass] of them; when none is remaining, lines 88-90 *)
  Fixpoint lyapunov_passes (n : nat) (remaining pass : nat) (total power : mat T) : Res (mat T) LinalgError :=
    match remaining with
    | O => Err (LaDidNotConverge pass)
    | S remaining =>
        let increment := mat_mul n n n (mat_mul n n n (transpose n n power) total) power in
        let total := average_pairs n (mat_add total increment) in
        let increment_size := frobenius_norm increment in
        let total_size := frobenius_norm total in
        if (negb (mat_is_finite total) || negb (is_finite increment_size) || negb (is_finite total_size))%bool
        then Err (LaDidNotConverge (pass + 1))
        else if increment_size <=? epsilon_x30 * max total_size one then Ok total
        else lyapunov_passes n remaining (pass + 1) total (mat_mul n n n power power)
    end.

  (** lyapunov.rs:46-91; [MAXIMUM_PASSES] is 64, line 15 *)
  Definition solve_discrete_lyapunov (n : nat) (a state_cost : mat T) : Res (mat T) LinalgError :=
    if (negb (mat_is_finite a) || negb (mat_is_finite state_cost))%bool then Err LaNonFinite
    else if negb (is_symmetric n state_cost) then Err LaNotSymmetric
    else lyapunov_passes n 64 0 state_cost a.

  (** riccati.rs:74-107: the matrices reached and the passes taken, when the loop is remaining *)
  Fixpoint riccati_passes (n : nat) (remaining pass : nat) (state cost reach : mat T) : Res (mat T * nat) LinalgError :=
    match remaining with
    | O => Ok (cost, pass)
    | S remaining =>
        match mat_inverse n (mat_add (identity n) (mat_mul n n n reach cost)) with
        | Ok coupling =>
            let folded := mat_mul n n n coupling state in
            let cost_increment := mat_mul n n n (mat_mul n n n (transpose n n state) cost) folded in
            let reach_increment := mat_mul n n n (mat_mul n n n state (mat_mul n n n coupling reach)) (transpose n n state) in
            let state := mat_mul n n n state folded in
            let cost := symmetrized n (mat_add cost cost_increment) in
            let reach := symmetrized n (mat_add reach reach_increment) in
            let increment_size := frobenius_norm cost_increment in
            let cost_size := frobenius_norm cost in
            if (negb (mat_is_finite cost) || negb (mat_is_finite reach) || negb (mat_is_finite state)
                || negb (is_finite increment_size) || negb (is_finite cost_size))%bool
            then Err (LaDidNotConverge (pass + 1))
            else if increment_size <=? epsilon_x30 * max cost_size one then Ok (cost, (pass + 1)%nat)
            else riccati_passes n remaining (pass + 1) state cost reach
        | Err e => Err e
        | Panic => Panic
        end
    end.

  (** riccati.rs:109-126 *)
  Definition riccati_check (n m : nat) (a b state_cost input_cost cost : mat T) (passes_taken : nat) : Res (mat T) LinalgError :=
    let input_weight := mat_add input_cost (mat_mul m n m (mat_mul m n n (transpose n m b) cost) b) in
    match cholesky m input_weight with
    | Ok factor =>
        let coupling_term := mat_mul m n n (mat_mul m n n (transpose n m b) cost) a in
        let correction := mat_mul n m n (transpose m n coupling_term) (cholesky_solve_matrix m n factor coupling_term) in
        let residual := mat_add (mat_sub (mat_sub (mat_mul n n n (mat_mul n n n (transpose n n a) cost) a) cost) correction) state_cost in
        let allowed := sqrt epsilon * max (frobenius_norm cost) one in
        if (negb (mat_is_finite residual) || (frobenius_norm residual >? allowed))%bool
        then Err (LaDidNotConverge passes_taken) else Ok cost
    | Err e => Err e
    | Panic => Panic
    end.

  (** riccati.rs:52-127; [MAXIMUM_PASSES] is 64, line 17 *)
  Definition solve_discrete_riccati (n m : nat) (a b state_cost input_cost : mat T) : Res (mat T) LinalgError :=
    if (negb (mat_is_finite a) || negb (mat_is_finite b) || negb (mat_is_finite state_cost) || negb (mat_is_finite input_cost))%bool
    then Err LaNonFinite
    else if (negb (is_symmetric n state_cost) || negb (is_symmetric m input_cost))%bool then Err LaNotSymmetric
    else
      match cholesky m input_cost with
      | Ok factor =>
          let reach := mat_mul n m n b (cholesky_solve_matrix m n factor (transpose n m b)) in
          match riccati_passes n 64 0 a state_cost reach with
          | Ok (cost, passes_taken) => riccati_check n m a b state_cost input_cost cost passes_taken
          | Err e => Err e
          | Panic => Panic
          end
      | Err e => Err e
      | Panic => Panic
      end.

  (** lqr.rs:43-48 *)
  Record lqr := { lqr_gain : mat T; lqr_closed_loop : mat T; lqr_cost_to_go : mat T; lqr_state_cost : mat T }.

  (** lqr.rs:69-91 *)
  Definition lqr_new (n m : nat) (state_transition input_model state_cost input_cost : mat T) : Res lqr ControlError :=
    match solve_discrete_riccati n m state_transition input_model state_cost input_cost with
    | Ok cost_to_go =>
        let input_weight := mat_add input_cost (mat_mul m n m (mat_mul m n n (transpose n m input_model) cost_to_go) input_model) in
        let coupling := mat_mul m n n (mat_mul m n n (transpose n m input_model) cost_to_go) state_transition in
        match cholesky m input_weight with
        | Ok factor =>
            let gain := cholesky_solve_matrix m n factor coupling in
            Ok {| lqr_gain := gain; lqr_closed_loop := mat_sub state_transition (mat_mul n m n input_model gain);
                  lqr_cost_to_go := cost_to_go; lqr_state_cost := state_cost |}
        | Err e => Err (CoLinalg e)
        | Panic => Panic
        end
    | Err e => Err (CoLinalg e)
    | Panic => Panic
    end.
  (** lqr.rs:114-116, 124-131 *)
  Definition lqr_control (n m : nat) (c : lqr) (state : list T) : list T := vec_neg (mat_vec m n (lqr_gain c) state).
  Definition lqr_control_tracking (n m : nat) (c : lqr) (state reference feedforward : list T) : list T :=
    vec_sub feedforward (mat_vec m n (lqr_gain c) (vec_sub state reference)).
  (** lqr.rs:150-155 *)
  Definition lqr_certify_stability (n : nat) (c : lqr) : Res (mat T) ControlError :=
    match solve_discrete_lyapunov n (lqr_closed_loop c) (lqr_state_cost c) with
    | Ok certificate =>
        match cholesky n certificate with Ok _ => Ok certificate | Err e => Err (CoLinalg e) | Panic => Panic end
    | Err e => Err (CoLinalg e)
    | Panic => Panic
    end.
End Riccati.
