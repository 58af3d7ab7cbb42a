(** crates/multicalc/src/numerical_integration/ and gaussian_tables/mod.rs.

    A sampled integrand is a function to [Res T IntegrateError]: the closures the code passes only overwrite the slot of the
    integrated variable before each sample, so they are functions of the sample.  Iteration counts, [u64] in the code, are
    naturals. *)
From Coq Require Import ZArith NArith List Bool.
From Verif Require Import Base.Scalar Base.Lists Model.Errors Model.Summation Model.GaussTables.
Import ListNotations.

(** mode.rs:1-22; summation.rs, enum SummationMethod *)
Inductive IterativeMethod := Booles | Simpsons | Trapezoidal.
Inductive GaussianQuadratureMethod := GaussLegendre | GaussHermite | GaussLaguerre.
Inductive SummationMethod := Pairwise | Kahan.

Section Integration.
  Context {T : Type} {NT : Num T}.
  Local Open Scope num_scope.
  Definition sampled := Res T IntegrateError.

  (** ** integrator.rs *)

  (** integrator.rs:6-11 *)
  Inductive Domain := Finite (a b : T) | LowerToInf (a : T) | UpperToInf (b : T) | BothInf.
  (** integrator.rs:17-29 *)
  Definition classify (limit : T * T) : Res Domain IntegrateError :=
    let '(a, b) := limit in
    if (is_nan a || is_nan b)%bool then Err InLimitsIllDefined
    else match is_finite a, is_finite b with
         | true, true => if a <? b then Ok (Finite a b) else Err InLimitsIllDefined
         | true, false => if b >? zero then Ok (LowerToInf a) else Err InLimitsIllDefined
         | false, true => if a <? zero then Ok (UpperToInf b) else Err InLimitsIllDefined
         | false, false => if ((a <? zero) && (b >? zero))%bool then Ok BothInf else Err InLimitsIllDefined
         end.
  (** integrator.rs:35-41 *)
  Definition check_finite (sample : T) : sampled := if is_finite sample then Ok sample else Err InNonFinite.
  (** integrator.rs:48-55 *)
  Definition t_bounds (domain : Domain) : T * T :=
    match domain with
    | Finite a b => (a, b)
    | LowerToInf _ | UpperToInf _ => (zero, one - epsilon)
    | BothInf => (epsilon, one - epsilon)
    end.
  (** integrator.rs:60-83 *)
  Definition map_sample (domain : Domain) (sample : T) : T * T :=
    match domain with
    | Finite _ _ => (sample, one)
    | LowerToInf a => let one_minus_t := one - sample in (a + sample / one_minus_t, one / (one_minus_t * one_minus_t))
    | UpperToInf b => let one_minus_t := one - sample in (b - sample / one_minus_t, one / (one_minus_t * one_minus_t))
    | BothInf => let angle := pi * (sample - half) in let cos_angle := cos angle in (tan angle, pi / (cos_angle * cos_angle))
    end.

  (** ** iterative_integration.rs *)

  (** iterative_integration.rs:14-21 *)
  Record iterative := { total_iterations : nat; integration_method : IterativeMethod; summation : SummationMethod }.
  (** iterative_integration.rs:25-31 *)
  Definition iterative_default : iterative := {| total_iterations := 120; integration_method := Booles; summation := Pairwise |}.
  (** u64::next_multiple_of *)
  Definition next_multiple_of (n m : nat) : nat := let r := Nat.modulo n m in if Nat.eqb r 0 then n else (n + (m - r))%nat.
  (** iterative_integration.rs:42-58 *)
  Definition iterative_from_parameters (iterations : nat) (method : IterativeMethod) : iterative :=
    {| total_iterations :=
         if (N.of_nat iterations <=? 12000)%N then
           match method with
           | Booles => next_multiple_of iterations 4
           | Simpsons => next_multiple_of iterations 3
           | Trapezoidal => iterations
           end
         else iterations;
       integration_method := method; summation := Pairwise |}.
  (** iterative_integration.rs:216-219 *)
  Definition with_kahan_summation (c : iterative) : iterative :=
    {| total_iterations := total_iterations c; integration_method := integration_method c; summation := Kahan |}.
  (** iterative_integration.rs:68-72: the first ill-defined limit's error *)
  Fixpoint check_domains (limits : list (T * T)) : option IntegrateError :=
    match limits with
    | [] => None
    | l :: limits => match classify l with Ok _ => check_domains limits | Err e => Some e | Panic => None end
    end.
  (** iterative_integration.rs:63-75 *)
  Definition iterative_check (c : iterative) (limits : list (T * T)) : option IntegrateError :=
    if Nat.eqb (total_iterations c) 0 then Some InIterationsZero else check_domains limits.

  (** summation.rs, Acc: the total after adding every term in order *)
  Definition total (method : SummationMethod) (terms : list T) : T :=
    match method with Pairwise => pairwise_of terms | Kahan => kahan_of terms end.
  (** The inner loop of the three rules, iterative_integration.rs:113-124, 147-156, 179-182: the terms added, the weight of the
      sample after number [iter] being [next iter] *)
  Fixpoint walk (count iter : nat) (point delta multiplier : T) (next : nat -> T) (g : T -> sampled) : Res (list T) IntegrateError :=
    match count with
    | O => Ok []
    | S count =>
        let point := point + delta in
        match g point with
        | Ok v => match walk count (S iter) point delta (next iter) next g with
                  | Ok rest => Ok (multiplier * v :: rest)
                  | Err e => Err e
                  | Panic => Panic
                  end
        | Err e => Err e
        | Panic => Panic
        end
    end.
  (** The terms of a rule: the first sample and the last, each through [ends], and the walk between *)
  Definition gather (iterations : nat) (lower upper delta : T) (ends : T -> T) (multiplier : T) (next : nat -> T) (g : T -> sampled)
    : Res (list T) IntegrateError :=
    match g lower with
    | Ok v =>
        match walk (iterations - 1) 0 lower delta multiplier next g with
        | Ok mid => match g upper with Ok w => Ok (ends v :: mid ++ [ends w]) | Err e => Err e | Panic => Panic end
        | Err e => Err e
        | Panic => Panic
        end
    | Err e => Err e
    | Panic => Panic
    end.
  Definition finish (r : Res (list T) IntegrateError) (f : list T -> T) : sampled :=
    match r with Ok l => Ok (f l) | Err e => Err e | Panic => Panic end.
  Definition step_size (iterations : nat) (lower upper : T) : T := (upper - lower) / of_Z (Z.of_nat iterations).
  (** iterative_integration.rs:98-128 *)
  Definition booles_next (iter : nat) : T :=
    if negb (Nat.eqb (Nat.modulo (iter + 2) 2) 0) then of_Z 32
    else if Nat.eqb (Nat.modulo (iter + 2) 4) 0 then of_Z 14 else of_Z 12.
  Definition booles (iterations : nat) (lower upper : T) (g : T -> sampled) (s : SummationMethod) : sampled :=
    let delta := step_size iterations lower upper in
    finish (gather iterations lower upper delta (fun v => of_Z 7 * v) (of_Z 32) booles_next g) (fun terms => two * delta * total s terms / of_Z 45).
  (** iterative_integration.rs:131-161 *)
  Definition simpsons_next (iter : nat) : T := if Nat.eqb (Nat.modulo (iter + 2) 3) 0 then two else of_Z 3.
  Definition simpsons (iterations : nat) (lower upper : T) (g : T -> sampled) (s : SummationMethod) : sampled :=
    let delta := step_size iterations lower upper in
    finish (gather iterations lower upper delta (fun v => v) (of_Z 3) simpsons_next g) (fun terms => of_Z 3 * delta * total s terms / of_Z 8).
  (** iterative_integration.rs:164-187 *)
  Definition trapezoidal (iterations : nat) (lower upper : T) (g : T -> sampled) (s : SummationMethod) : sampled :=
    let delta := step_size iterations lower upper in
    finish (gather iterations lower upper delta (fun v => v) two (fun _ => two) g) (fun terms => half * delta * total s terms).
  (** iterative_integration.rs:81-95 *)
  Definition integrate_rule (c : iterative) (lower upper : T) (g : T -> sampled) : sampled :=
    match integration_method c with
    | Booles => booles (total_iterations c) lower upper g (summation c)
    | Simpsons => simpsons (total_iterations c) lower upper g (summation c)
    | Trapezoidal => trapezoidal (total_iterations c) lower upper g (summation c)
    end.
  (** The samples over a domain: as they are when finite, otherwise weighted by [dx/dt] and checked *)
  Definition over_domain (c : iterative) (domain : Domain) (g : T -> sampled) : sampled :=
    match domain with
    | Finite a b => integrate_rule c a b g
    | _ => let '(lower, upper) := t_bounds domain in
           integrate_rule c lower upper (fun sample =>
             let '(x, jacobian) := map_sample domain sample in
             match g x with Ok v => check_finite (v * jacobian) | Err e => Err e | Panic => Panic end)
    end.
  (** The innermost integral, whose infinite domains check only the weighted sample *)
  Definition over_domain_inner (c : iterative) (domain : Domain) (f : T -> T) : sampled :=
    match domain with
    | Finite a b => integrate_rule c a b (fun x => check_finite (f x))
    | _ => let '(lower, upper) := t_bounds domain in
           integrate_rule c lower upper (fun sample =>
             let '(x, jacobian) := map_sample domain sample in check_finite (f x * jacobian))
    end.
  (** iterative_integration.rs:227-283; [limits] holds the limits of the levels from the outermost in, the code's array reversed;
      no limits at all index out of bounds *)
  Fixpoint single_levels (c : iterative) (f : T -> T) (limits : list (T * T)) : sampled :=
    match limits with
    | [] => Panic
    | limit :: inner =>
        match classify limit with
        | Ok domain =>
            match inner with
            | [] => over_domain_inner c domain f
            | _ => match single_levels c f inner with
                   | Ok v => match domain with
                             | Finite a b => integrate_rule c a b (fun _ => check_finite v)
                             | _ => let '(lower, upper) := t_bounds domain in
                                    integrate_rule c lower upper (fun sample => check_finite (v * snd (map_sample domain sample)))
                             end
                   | Err e => Err e
                   | Panic => Panic
                   end
            end
        | Err e => Err e
        | Panic => Panic
        end
    end.
  (** iterative_integration.rs:327-334 *)
  Definition iterative_single (c : iterative) (f : T -> T) (limits : list (T * T)) : sampled :=
    match iterative_check c limits with Some e => Err e | None => single_levels c f (rev limits) end.
  (** mod.rs:61-66; integrator.rs:103-109 *)
  Definition integral (f : T -> T) (limits : T * T) : sampled := iterative_single iterative_default f [limits].
  (** iterative_integration.rs:376-465; the levels are (variable, limit), from the outermost in *)
  Fixpoint multi_levels (c : iterative) (f : list T -> T) (levels : list (nat * (T * T))) (point : list T) : sampled :=
    match levels with
    | [] => Panic
    | (var, limit) :: inner =>
        match classify limit with
        | Ok domain =>
            match inner with
            | [] => over_domain_inner c domain (fun x => f (set_nth point var x))
            | _ => over_domain c domain (fun x => multi_levels c f inner (set_nth point var x))
            end
        | Err e => Err e
        | Panic => Panic
        end
    end.
  (** iterative_integration.rs:506-530 *)
  Definition iterative_multi (c : iterative) (variables : list nat) (f : list T -> T) (limits : list (T * T)) (point : list T) : sampled :=
    match iterative_check c limits with
    | Some e => Err e
    | None => if forallb (fun i => Nat.ltb i (List.length point)) variables then multi_levels c f (rev (combine variables limits)) point
              else Err InIndexOutOfRange
    end.

  (** ** gaussian_tables/mod.rs and gaussian_integration.rs *)

  Definition literal (d : decimal) : T := of_ratio (fst d) (10 ^ snd d).
  (** gaussian_tables/mod.rs:28-42 *)
  Definition nodes (method : GaussianQuadratureMethod) (order : nat) : Res (list (decimal * decimal)) IntegrateError :=
    let table := match method with GaussLegendre => legendre | GaussHermite => hermite | GaussLaguerre => laguerre end in
    if (Nat.eqb order 0 || Nat.ltb 30 order)%bool then Err InQuadratureOrderOutOfRange
    else match nth_error table order with Some t => Ok t | None => Panic end.
  (** gaussian_integration.rs:15-21 *)
  Record gaussian := { order : nat; quadrature : GaussianQuadratureMethod }.
  (** gaussian_integration.rs:57-67 *)
  Definition limits_ok (method : GaussianQuadratureMethod) (limit : T * T) : bool :=
    match method with
    | GaussLegendre => is_finite (fst limit) && is_finite (snd limit) && (fst limit <? snd limit)
    | GaussHermite => (fst limit =? neg_infinity) && (snd limit =? infinity)
    | GaussLaguerre => (fst limit =? zero) && (snd limit =? infinity)
    end%bool.
  (** The loops of the integrators: the weighted sum of the samples at the given places *)
  Fixpoint weighted (table : list (decimal * decimal)) (place : T -> T) (g : T -> sampled) (ans : T) : sampled :=
    match table with
    | [] => Ok ans
    | (weight, abscissa) :: table =>
        match g (place (literal abscissa)) with
        | Ok v => weighted table place g (ans + literal weight * v)
        | Err e => Err e
        | Panic => Panic
        end
    end.
  (** gaussian_integration.rs:122-130, 150-156: one level; on a finite interval the nodes are mapped and the sum scaled *)
  Definition gauss_level (method : GaussianQuadratureMethod) (table : list (decimal * decimal)) (limit : T * T) (g : T -> sampled) : sampled :=
    match method with
    | GaussLegendre =>
        let '(a, b) := limit in
        let h := (b - a) * half in
        let mid := (b + a) * half in
        match weighted table (fun x => h * x + mid) g zero with Ok v => Ok (h * v) | Err e => Err e | Panic => Panic end
    | _ => weighted table (fun x => x) g zero
    end.
  (** gaussian_integration.rs:113-164, limits from the outermost in *)
  Fixpoint gauss_single_levels (method : GaussianQuadratureMethod) (table : list (decimal * decimal)) (f : T -> T) (limits : list (T * T)) : sampled :=
    match limits with
    | [] => Panic
    | limit :: inner =>
        match inner with
        | [] => gauss_level method table limit (fun x => check_finite (f x))
        | _ => match gauss_single_levels method table f inner with
               | Ok v => gauss_level method table limit (fun _ => Ok v)
               | Err e => Err e
               | Panic => Panic
               end
        end
    end.
  (** gaussian_integration.rs:202-216 *)
  Definition gaussian_single (c : gaussian) (f : T -> T) (limits : list (T * T)) : sampled :=
    match nodes (quadrature c) (order c) with
    | Ok table => if forallb (limits_ok (quadrature c)) limits then gauss_single_levels (quadrature c) table f (rev limits) else Err InLimitsIllDefined
    | Err e => Err e
    | Panic => Panic
    end.
  (** gaussian_integration.rs:253-332 *)
  Fixpoint gauss_multi_levels (method : GaussianQuadratureMethod) (table : list (decimal * decimal)) (f : list T -> T)
      (levels : list (nat * (T * T))) (point : list T) : sampled :=
    match levels with
    | [] => Panic
    | (var, limit) :: inner =>
        gauss_level method table limit (fun x =>
          match inner with
          | [] => check_finite (f (set_nth point var x))
          | _ => gauss_multi_levels method table f inner (set_nth point var x)
          end)
    end.
  (** gaussian_integration.rs:373-403 *)
  Definition gaussian_multi (c : gaussian) (variables : list nat) (f : list T -> T) (limits : list (T * T)) (point : list T) : sampled :=
    match nodes (quadrature c) (order c) with
    | Ok table =>
        if forallb (limits_ok (quadrature c)) limits then
          if forallb (fun i => Nat.ltb i (List.length point)) variables then gauss_multi_levels (quadrature c) table f (rev (combine variables limits)) point
          else Err InIndexOutOfRange
        else Err InLimitsIllDefined
    | Err e => Err e
    | Panic => Panic
    end.
End Integration.
Arguments Domain T : clear implicits.
Arguments sampled T : clear implicits.
