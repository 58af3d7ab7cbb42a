(** crates/multicalc/src/ode/{rk4,rk45,tableau,exponential_map}.rs, over any scalar.

    The right-hand side is a pure function; the observer's calls are the list of what it was handed, oldest first. *)
From Coq Require Import ZArith List Bool Arith.
From Verif Require Import Base.Scalar Base.Lists Model.Errors Model.Vector Model.Quaternion Model.Lie.
Import ListNotations.

Section Ode.
  Context {T : Type} {NT : Num T}.
  Local Open Scope num_scope.

  (** ** rk4.rs *)

  (** rk4.rs:24-41 *)
  Definition rk4_step (f : T -> list T -> list T) (time : T) (state : list T) (timestep : T) : list T :=
    let h := half * timestep in
    let stage1 := f time state in
    let stage2 := f (time + h) (vec_add state (vec_scale stage1 h)) in
    let stage3 := f (time + h) (vec_add state (vec_scale stage2 h)) in
    let stage4 := f (time + timestep) (vec_add state (vec_scale stage3 timestep)) in
    let sixth := timestep / of_ratio 6 1 in
    vec_add state
      (vec_scale (vec_add (vec_add (vec_add stage1 (vec_scale stage2 two)) (vec_scale stage3 two)) stage4) sixth).

  (** rk4.rs:68-90: the nodes handed to the observer after the first, and the final state *)
  Fixpoint rk4_loop (f : T -> list T -> list T) (time : T) (state : list T) (timestep : T) (steps : nat)
    : list (T * list T) * list T :=
    match steps with
    | O => ([], state)
    | S steps =>
        let state := rk4_step f time state timestep in
        let time := time + timestep in
        let '(nodes, final) := rk4_loop f time state timestep steps in
        ((time, state) :: nodes, final)
    end.
  Definition rk4_integrate (f : T -> list T -> list T) (time : T) (state : list T) (timestep : T) (steps : nat)
    : list (T * list T) * list T :=
    let '(nodes, final) := rk4_loop f time state timestep steps in ((time, state) :: nodes, final).

  (** ** tableau.rs; every constant is one division of two small whole numbers *)

  (** tableau.rs:4-7 *)
  Definition NODE2 : T := of_ratio 1 5.
  Definition NODE3 : T := of_ratio 3 10.
  Definition NODE4 : T := of_ratio 4 5.
  Definition NODE5 : T := of_ratio 8 9.
  (** tableau.rs:10-24 *)
  Definition STAGE_A21 : T := of_ratio 1 5.
  Definition STAGE_A31 : T := of_ratio 3 40.
  Definition STAGE_A32 : T := of_ratio 9 40.
  Definition STAGE_A41 : T := of_ratio 44 45.
  Definition STAGE_A42 : T := of_ratio (-56) 15.
  Definition STAGE_A43 : T := of_ratio 32 9.
  Definition STAGE_A51 : T := of_ratio 19372 6561.
  Definition STAGE_A52 : T := of_ratio (-25360) 2187.
  Definition STAGE_A53 : T := of_ratio 64448 6561.
  Definition STAGE_A54 : T := of_ratio (-212) 729.
  Definition STAGE_A61 : T := of_ratio 9017 3168.
  Definition STAGE_A62 : T := of_ratio (-355) 33.
  Definition STAGE_A63 : T := of_ratio 46732 5247.
  Definition STAGE_A64 : T := of_ratio 49 176.
  Definition STAGE_A65 : T := of_ratio (-5103) 18656.
  (** tableau.rs:27-31 *)
  Definition WEIGHT1 : T := of_ratio 35 384.
  Definition WEIGHT3 : T := of_ratio 500 1113.
  Definition WEIGHT4 : T := of_ratio 125 192.
  Definition WEIGHT5 : T := of_ratio (-2187) 6784.
  Definition WEIGHT6 : T := of_ratio 11 84.
  (** tableau.rs:34-39 *)
  Definition ERROR1 : T := of_ratio 71 57600.
  Definition ERROR3 : T := of_ratio (-71) 16695.
  Definition ERROR4 : T := of_ratio 71 1920.
  Definition ERROR5 : T := of_ratio (-17253) 339200.
  Definition ERROR6 : T := of_ratio 22 525.
  Definition ERROR7 : T := of_ratio (-1) 40.

  (** ** rk45.rs *)

  (** rk45.rs:9-23 *)
  Record ode_step := {
    time_start : T; time_end : T; state_start : list T; state_end : list T;
    derivative_start : list T; derivative_end : list T }.

  (** rk45.rs:28-42 *)
  Definition interpolate (s : ode_step) (time : T) : list T :=
    let h := time_end s - time_start s in
    let frac := (time - time_start s) / h in
    let frac2 := frac * frac in
    let frac3 := frac2 * frac in
    let three := of_ratio 3 1 in
    let h00 := two * frac3 - three * frac2 + one in
    let h10 := frac3 - two * frac2 + frac in
    let h01 := - two * frac3 + three * frac2 in
    let h11 := frac3 - frac2 in
    vec_add (vec_add (vec_add (vec_scale (state_start s) h00) (vec_scale (derivative_start s) (h10 * h)))
                     (vec_scale (state_end s) h01)) (vec_scale (derivative_end s) (h11 * h)).

  (** rk45.rs:50-57; [with_rtol] and the others (80-115) set one field each *)
  Record rk45 := { rk_rtol : T; rk_atol : T; rk_first_step : T; rk_min_step : T; rk_max_step : T; rk_max_steps : nat }.
  (** rk45.rs:60-69, with the given limit on the number of attempts (the default one is 100000, which is 10^5 here so
      that the unary number is not written out) *)
  Definition rk45_default : rk45 :=
    {| rk_rtol := of_ratio 1 1000000; rk_atol := of_ratio 1 1000000000; rk_first_step := zero; rk_min_step := zero;
       rk_max_step := infinity; rk_max_steps := 10 ^ 5 |}.

  (** rk45.rs:121-143 *)
  Definition error_norm (n : nat) (err state_start state_end : list T) (atol rtol : T) : T :=
    if Nat.eqb n 0 then zero
    else
      let sum := fold_left (fun sum x =>
        let '(err_i, (a, b)) := x in
        let scale := atol + rtol * max (abs a) (abs b) in
        let ratio := err_i / scale in
        sum + ratio * ratio) (combine err (combine state_start state_end)) zero in
      sqrt (sum / of_nat n).
  (** rk45.rs:148-164 *)
  Definition scaled_norm (n : nat) (vector y : list T) (atol rtol : T) : T :=
    if Nat.eqb n 0 then zero
    else
      let sum := fold_left (fun sum x =>
        let '(err_i, a) := x in
        let scale := atol + rtol * abs a in
        let ratio := err_i / scale in
        sum + ratio * ratio) (combine vector y) zero in
      sqrt (sum / of_nat n).

  (** rk45.rs:172-242: the fifth-order state, the error estimate and the last stage *)
  Definition dopri_step (f : T -> list T -> list T) (time : T) (y : list T) (h : T) (stage1 : list T)
    : list T * list T * list T :=
    let a21 := STAGE_A21 * h in
    let a31 := STAGE_A31 * h in
    let a32 := STAGE_A32 * h in
    let a41 := STAGE_A41 * h in
    let a42 := STAGE_A42 * h in
    let a43 := STAGE_A43 * h in
    let a51 := STAGE_A51 * h in
    let a52 := STAGE_A52 * h in
    let a53 := STAGE_A53 * h in
    let a54 := STAGE_A54 * h in
    let a61 := STAGE_A61 * h in
    let a62 := STAGE_A62 * h in
    let a63 := STAGE_A63 * h in
    let a64 := STAGE_A64 * h in
    let a65 := STAGE_A65 * h in
    let stage2 := f (time + NODE2 * h) (vec_add y (vec_scale stage1 a21)) in
    let stage3 := f (time + NODE3 * h) (vec_add (vec_add y (vec_scale stage1 a31)) (vec_scale stage2 a32)) in
    let stage4 := f (time + NODE4 * h)
      (vec_add (vec_add (vec_add y (vec_scale stage1 a41)) (vec_scale stage2 a42)) (vec_scale stage3 a43)) in
    let stage5 := f (time + NODE5 * h)
      (vec_add (vec_add (vec_add (vec_add y (vec_scale stage1 a51)) (vec_scale stage2 a52)) (vec_scale stage3 a53))
               (vec_scale stage4 a54)) in
    let stage6 := f (time + h)
      (vec_add (vec_add (vec_add (vec_add (vec_add y (vec_scale stage1 a61)) (vec_scale stage2 a62)) (vec_scale stage3 a63))
                        (vec_scale stage4 a64)) (vec_scale stage5 a65)) in
    let state5 := vec_add y (vec_scale
      (vec_add (vec_add (vec_add (vec_add (vec_scale stage1 WEIGHT1) (vec_scale stage3 WEIGHT3)) (vec_scale stage4 WEIGHT4))
                        (vec_scale stage5 WEIGHT5)) (vec_scale stage6 WEIGHT6)) h) in
    let stage7 := f (time + h) state5 in
    let err := vec_scale
      (vec_add (vec_add (vec_add (vec_add (vec_add (vec_scale stage1 ERROR1) (vec_scale stage3 ERROR3))
                                          (vec_scale stage4 ERROR4)) (vec_scale stage5 ERROR5))
                        (vec_scale stage6 ERROR6)) (vec_scale stage7 ERROR7)) h in
    (state5, err, stage7).

  (** rk45.rs:252-293 *)
  Definition select_initial_step (n : nat) (c : rk45) (f : T -> list T -> list T) (time_start : T)
      (state_start derivative_start : list T) (dir span : T) : T :=
    if rk_first_step c >? zero then dir * min (min (rk_first_step c) (rk_max_step c)) span
    else
      let norm0 := scaled_norm n state_start state_start (rk_atol c) (rk_rtol c) in
      let norm1 := scaled_norm n derivative_start state_start (rk_atol c) (rk_rtol c) in
      let step0 :=
        if ((norm0 <? of_ratio 1 100000) || (norm1 <? of_ratio 1 100000))%bool then of_ratio 1 1000000
        else of_ratio 1 100 * norm0 / norm1 in
      let state_end := vec_add state_start (vec_scale derivative_start (dir * step0)) in
      let derivative_end := f (time_start + dir * step0) state_end in
      let norm2 := scaled_norm n (vec_sub derivative_end derivative_start) state_start (rk_atol c) (rk_rtol c) / step0 in
      let step1 :=
        if max norm1 norm2 <=? of_ratio 1 1000000000000000
        then max (step0 * of_ratio 1 1000) (of_ratio 1 1000000)
        else powf (of_ratio 1 100 / max norm1 norm2) (one / of_ratio 6 1) in
      dir * min (min (of_ratio 100 1 * step0) step1) (min span (rk_max_step c)).

  (** the variables of the loop at rk45.rs:340-349 *)
  Record rk_state := { rs_time : T; rs_y : list T; rs_stage1 : list T; rs_h : T; rs_err_prev : T; rs_kahan : T }.
  (** rk45.rs:389-400: the next step size *)
  Definition next_step_size (c : rk45) (h err err_prev : T) (accept : bool) : T :=
    let err_i := max err (of_ratio 1 10000000000) in
    let factor := of_ratio 9 10 * powf err_i (- of_ratio 17 100) * powf err_prev (of_ratio 4 100) in
    let factor := min (max factor (of_ratio 2 10)) (of_ratio 10 1) in
    let factor := if negb accept then min factor one else factor in
    let h := h * factor in
    if abs h >? rk_max_step c then copysign (rk_max_step c) h else h.
  (** rk45.rs:351-408, with [remaining] attempts to go after [steps] of them: the steps handed to the observer and the
      answer *)
  Fixpoint rk45_loop (n : nat) (c : rk45) (f : T -> list T -> list T) (time_final : T) (remaining steps : nat) (s : rk_state)
    : list ode_step * Res (list T) IntegrateError :=
    match remaining with
    | O => ([], Err (InDidNotConverge steps))
    | S remaining =>
        let left := time_final - rs_time s in
        let h := if abs (rs_h s) >? abs left then left else rs_h s in
        let '(state5, err_vec, stage7) := dopri_step f (rs_time s) (rs_y s) h (rs_stage1 s) in
        if (negb (vec_is_finite state5) || negb (vec_is_finite err_vec))%bool then ([], Err InNonFinite)
        else
          let err := error_norm n err_vec (rs_y s) state5 (rk_atol c) (rk_rtol c) in
          let accept := err <=? one in
          let after (next : rk_state) : list ode_step * Res (list T) IntegrateError :=
            if ((rk_min_step c >? zero) && (abs (rs_h next) <? rk_min_step c))%bool then ([], Err InStepSizeTooSmall)
            else rk45_loop n c f time_final remaining (S steps) next in
          if accept then
            let delta := h - rs_kahan s in
            let tnew := rs_time s + delta in
            let kahan := (tnew - rs_time s) - delta in
            let step := {| time_start := rs_time s; time_end := tnew; state_start := rs_y s; state_end := state5;
                           derivative_start := rs_stage1 s; derivative_end := stage7 |} in
            if abs (time_final - tnew) <=? epsilon * (one + abs time_final) then ([step], Ok state5)
            else
              let '(later, answer) := after
                {| rs_time := tnew; rs_y := state5; rs_stage1 := stage7; rs_h := next_step_size c h err (rs_err_prev s) true;
                   rs_err_prev := max err (of_ratio 1 10000); rs_kahan := kahan |} in
              (step :: later, answer)
          else
            after {| rs_time := rs_time s; rs_y := rs_y s; rs_stage1 := rs_stage1 s;
                     rs_h := next_step_size c h err (rs_err_prev s) false; rs_err_prev := rs_err_prev s;
                     rs_kahan := rs_kahan s |}
    end.
  (** rk45.rs:318-409 *)
  Definition for_each_step (n : nat) (c : rk45) (f : T -> list T -> list T) (time_start : T) (state_start : list T)
      (time_final : T) : list ode_step * Res (list T) IntegrateError :=
    if (negb (is_finite time_start) || negb (is_finite time_final) || (time_start =? time_final))%bool
    then ([], Err InLimitsIllDefined)
    else
      let span := abs (time_final - time_start) in
      let dir := if time_final >? time_start then one else - one in
      let stage1 := f time_start state_start in
      if (negb (vec_is_finite state_start) || negb (vec_is_finite stage1))%bool then ([], Err InNonFinite)
      else
        rk45_loop n c f time_final (rk_max_steps c) 0
          {| rs_time := time_start; rs_y := state_start; rs_stage1 := stage1;
             rs_h := select_initial_step n c f time_start state_start stage1 dir span;
             rs_err_prev := of_ratio 1 10000; rs_kahan := zero |}.
  (** rk45.rs:412-423 *)
  Definition solve (n : nat) (c : rk45) (f : T -> list T -> list T) (time_start : T) (state_start : list T) (time_final : T)
    : Res (list T) IntegrateError := snd (for_each_step n c f time_start state_start time_final).

  (** rk45.rs:468-472 *)
  Definition in_step (s : ode_step) (time_query : T) : bool :=
    if time_end s >=? time_start s then ((time_query >=? time_start s) && (time_query <=? time_end s))%bool
    else ((time_query <=? time_start s) && (time_query >=? time_end s))%bool.
  (** rk45.rs:466-480, one step: the samples written while the queries fall in the step, and the queries left over *)
  Fixpoint sample_step (s : ode_step) (queries : list T) : list (list T) * list T :=
    match queries with
    | [] => ([], [])
    | q :: rest =>
        if in_step s q then let '(samples, later) := sample_step s rest in (interpolate s q :: samples, later)
        else ([], queries)
    end.
  Fixpoint sample_steps (steps : list ode_step) (queries : list T) : list (list T) * list T :=
    match steps with
    | [] => ([], queries)
    | s :: steps =>
        let '(samples, queries) := sample_step s queries in
        let '(later, queries) := sample_steps steps queries in
        (samples ++ later, queries)
    end.
  (** rk45.rs:445-486; [out] has the length of [times], which is the test of lines 456-458, and on an error what has been
      written to it is not part of the model *)
  Definition solve_on_grid (n : nat) (c : rk45) (f : T -> list T -> list T) (time_start : T) (state_start : list T)
      (times : list T) : Res (list (list T)) IntegrateError :=
    match times with
    | [] => Ok []
    | _ =>
        let time_final := last times zero in
        let '(steps, answer) := for_each_step n c f time_start state_start time_final in
        match answer with
        | Ok _ =>
            let '(samples, queries) := sample_steps steps times in
            if negb (Nat.eqb (length queries) 0) then Err InLimitsIllDefined else Ok samples
        | Err e => Err e
        | Panic => Panic
        end
    end.

  (** ** exponential_map.rs *)

  (** exponential_map.rs:53-59, 89-97 *)
  Definition attitude_step (orientation : so3 T) (angular_rate : vec3 T) (timestep : T) : so3 T :=
    so3_compose orientation (so3_exp (scale3 angular_rate timestep)).
  Definition attitude_step_with_angular_acceleration (orientation : so3 T) (angular_rate angular_acceleration : vec3 T)
      (timestep : T) : so3 T :=
    let half_way_rate := add3 angular_rate (scale3 angular_acceleration (timestep * half)) in
    so3_compose orientation (so3_exp (scale3 half_way_rate timestep)).
  (** exponential_map.rs:153-169: the nodes after the first and the answer *)
  Fixpoint attitude_loop (angular_rate_at : T -> so3 T -> vec3 T) (time : T) (orientation : so3 T) (timestep : T) (steps : nat)
    : list (T * so3 T) * Res (so3 T) IntegrateError :=
    match steps with
    | O => ([], Ok orientation)
    | S steps =>
        let h := timestep * half in
        let rate_at_start := angular_rate_at time orientation in
        if negb (is_finite3 rate_at_start) then ([], Err InNonFinite)
        else
          let half_way := attitude_step orientation rate_at_start h in
          let half_way_rate := angular_rate_at (time + h) half_way in
          if negb (is_finite3 half_way_rate) then ([], Err InNonFinite)
          else
            let orientation := attitude_step orientation half_way_rate timestep in
            let time := time + timestep in
            let '(nodes, answer) := attitude_loop angular_rate_at time orientation timestep steps in
            ((time, orientation) :: nodes, answer)
    end.
  (** exponential_map.rs:132-170 *)
  Definition integrate_attitude (angular_rate_at : T -> so3 T -> vec3 T) (time : T) (start : so3 T) (timestep : T) (steps : nat)
    : list (T * so3 T) * Res (so3 T) IntegrateError :=
    if negb (is_finite timestep) then ([], Err InNonFinite)
    else if timestep <=? zero then ([], Err InNonPositiveTimestep)
    else
      let '(nodes, answer) := attitude_loop angular_rate_at time start timestep steps in
      ((time, start) :: nodes, answer).
End Ode.
Arguments ode_step T : clear implicits.
Arguments rk45 T : clear implicits.
Arguments rk_state T : clear implicits.
