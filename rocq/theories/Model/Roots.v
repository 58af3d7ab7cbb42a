(** crates/multicalc/src/polynomial/roots.rs, over any scalar. *)
From Coq Require Import ZArith List Bool Arith.
From Verif Require Import Base.Scalar Base.Lists Model.Errors Model.Polynomial.
Import ListNotations.

Section Roots.
  Context {T : Type} {NT : Num T}.
  Local Open Scope num_scope.
  Notation Poly := (list T).

  (** A [RealRoots<MAX_ROOTS>] (roots.rs:17-21) is the list of the roots recorded so far, at most MAX_ROOTS of
      them; [as_slice] (67-69) is that list and [len] (74-76) its length. *)
  (** roots.rs:40-45 *)
  Definition roots_push (capacity : nat) (roots : list T) (value : T) : list T :=
    if Nat.ltb (length roots) capacity then roots ++ [value] else roots.
  (** roots.rs:52-60: work the value at [index] back into place *)
  Fixpoint sort_back (values : list T) (index : nat) : list T :=
    match index with
    | O => values
    | S below =>
        let previous := nth below values zero in
        let current := nth index values zero in
        if previous <=? current then values
        else sort_back (set_nth (set_nth values below current) index previous) below
    end.
  (** roots.rs:49-62 *)
  Definition sort_ascending (values : list T) : list T :=
    fold_left sort_back (seq 1 (length values - 1)) values.

  (** roots.rs:90-101 *)
  Definition roots_check (p : Poly) (highest : T) : Res unit PolynomialError :=
    if negb (poly_is_finite p) then Err PoNonFinite
    else if highest =? zero then Err PoLeadingCoefficientZero
    else Ok tt.

  (** roots.rs:120-127 *)
  Definition linear_roots (constant linear : T) : Res (list T) PolynomialError :=
    match roots_check [constant; linear] linear with
    | Err e => Err e
    | Panic => Panic
    | Ok _ => Ok (roots_push 1 [] (- constant / linear))
    end.

  (** roots.rs:148-171 *)
  Definition quadratic_roots (constant linear quadratic : T) : Res (list T) PolynomialError :=
    match roots_check [constant; linear; quadratic] quadratic with
    | Err e => Err e
    | Panic => Panic
    | Ok _ =>
        let discriminant := linear * linear - of_ratio 4 1 * quadratic * constant in
        if discriminant <? zero then Ok []
        else
          let combined := - half * (linear + copysign (sqrt discriminant) linear) in
          let roots :=
            if combined =? zero then roots_push 2 (roots_push 2 [] zero) zero
            else roots_push 2 (roots_push 2 [] (combined / quadratic)) (constant / combined) in
          Ok (sort_ascending roots)
    end.

  (** roots.rs:201-208 *)
  Definition cubic_slide (quadratic cubic : T) : T := - quadratic / (three * cubic).
  Definition cubic_reduced_linear (linear quadratic cubic : T) : T :=
    (three * cubic * linear - quadratic * quadratic) / (three * cubic * cubic).
  Definition cubic_reduced_constant (constant linear quadratic cubic : T) : T :=
    (two * quadratic * quadratic * quadratic - of_ratio 9 1 * cubic * quadratic * linear
     + of_ratio 27 1 * cubic * cubic * constant)
    / (of_ratio 27 1 * cubic * cubic * cubic).
  (** roots.rs:210-234: the three cases, before sorting *)
  Definition cubic_cases (reduced_linear reduced_constant slide : T) : list T :=
    if reduced_linear =? zero then roots_push 3 [] (cbrt (- reduced_constant) + slide)
    else if of_ratio 4 1 * powi reduced_linear 3 + of_ratio 27 1 * reduced_constant * reduced_constant <=? zero then
      let radius := two * sqrt (- reduced_linear / three) in
      let cosine := (three * reduced_constant) / (two * reduced_linear) * sqrt (- three / reduced_linear) in
      let angle := acos (min (max cosine (- one)) one) in
      fold_left (fun roots step =>
        let turn := two * pi * of_nat step / three in
        roots_push 3 roots (radius * cos (angle / three - turn) + slide)) (seq 0 3) []
    else
      let half_constant := - reduced_constant * half in
      let spread := sqrt (reduced_constant * reduced_constant / of_ratio 4 1
                          + powi reduced_linear 3 / of_ratio 27 1) in
      roots_push 3 [] (cbrt (half_constant + spread) + cbrt (half_constant - spread) + slide).
  (** roots.rs:191-237 *)
  Definition cubic_roots (constant linear quadratic cubic : T) : Res (list T) PolynomialError :=
    match roots_check [constant; linear; quadratic; cubic] cubic with
    | Err e => Err e
    | Panic => Panic
    | Ok _ =>
        Ok (sort_ascending (cubic_cases (cubic_reduced_linear linear quadratic cubic)
              (cubic_reduced_constant constant linear quadratic cubic) (cubic_slide quadratic cubic)))
    end.

  (** roots.rs:267-277 *)
  Definition quartic_slide (cubic quartic : T) : T := - cubic / (of_ratio 4 1 * quartic).
  Definition quartic_reduced_quadratic (quadratic cubic quartic : T) : T :=
    (of_ratio 8 1 * quartic * quadratic - three * cubic * cubic) / (of_ratio 8 1 * quartic * quartic).
  Definition quartic_reduced_linear (linear quadratic cubic quartic : T) : T :=
    (cubic * cubic * cubic - of_ratio 4 1 * quartic * cubic * quadratic + of_ratio 8 1 * quartic * quartic * linear)
    / (of_ratio 8 1 * quartic * quartic * quartic).
  Definition quartic_reduced_constant (constant linear quadratic cubic quartic : T) : T :=
    (- three * powi cubic 4 + of_ratio 256 1 * powi quartic 3 * constant
     - of_ratio 64 1 * quartic * quartic * cubic * linear
     + of_ratio 16 1 * quartic * cubic * cubic * quadratic)
    / (of_ratio 256 1 * powi quartic 4).
  (** roots.rs:282-291: only even powers *)
  Definition quartic_even (reduced_quadratic reduced_constant slide : T) : Res (list T) PolynomialError :=
    match quadratic_roots reduced_constant reduced_quadratic one with
    | Err e => Err e
    | Panic => Panic
    | Ok squares =>
        Ok (fold_left (fun roots square =>
              if square >=? zero then
                let root := sqrt square in
                roots_push 4 (roots_push 4 roots (root + slide)) (- root + slide)
              else roots) squares [])
    end.
  (** roots.rs:296-317: two quadratics *)
  Definition quartic_split (reduced_quadratic reduced_linear reduced_constant slide : T) : Res (list T) PolynomialError :=
    match cubic_roots (- reduced_linear * reduced_linear)
            (two * reduced_quadratic * reduced_quadratic - of_ratio 8 1 * reduced_constant)
            (of_ratio 8 1 * reduced_quadratic) (of_ratio 8 1) with
    | Err e => Err e
    | Panic => Panic
    | Ok helper =>
        let largest := last helper zero in
        let separation := sqrt (two * largest) in
        let shared := reduced_quadratic * half + largest in
        let apart := reduced_linear / (two * separation) in
        let add_roots roots factor_roots := fold_left (fun roots root => roots_push 4 roots (root + slide)) factor_roots roots in
        match quadratic_roots (shared + apart) (- separation) one with
        | Err e => Err e
        | Panic => Panic
        | Ok first =>
            match quadratic_roots (shared - apart) separation one with
            | Err e => Err e
            | Panic => Panic
            | Ok second => Ok (add_roots (add_roots [] first) second)
            end
        end
    end.
  (** roots.rs:257-320 *)
  Definition quartic_roots (constant linear quadratic cubic quartic : T) : Res (list T) PolynomialError :=
    match roots_check [constant; linear; quadratic; cubic; quartic] quartic with
    | Err e => Err e
    | Panic => Panic
    | Ok _ =>
        let slide := quartic_slide cubic quartic in
        let reduced_quadratic := quartic_reduced_quadratic quadratic cubic quartic in
        let reduced_linear := quartic_reduced_linear linear quadratic cubic quartic in
        let reduced_constant := quartic_reduced_constant constant linear quadratic cubic quartic in
        match (if reduced_linear =? zero then quartic_even reduced_quadratic reduced_constant slide
               else quartic_split reduced_quadratic reduced_linear reduced_constant slide) with
        | Err e => Err e
        | Panic => Panic
        | Ok roots => Ok (sort_ascending roots)
        end
    end.

  (** roots.rs:335-353: [power] counts down to the divisor's degree *)
  Fixpoint remainder_loop (divisor : Poly) (divisor_degree : nat) (divisor_highest : T) (power : nat) (working : Poly) : Poly :=
    match power with
    | O => working
    | S power =>
        if Nat.ltb power divisor_degree then working
        else
          let highest := nth power working zero in
          if highest =? zero then remainder_loop divisor divisor_degree divisor_highest power working
          else
            let share := highest / divisor_highest in
            let working := subtract_shifted working divisor (power - divisor_degree) share in
            remainder_loop divisor divisor_degree divisor_highest power (set_nth working power zero)
    end.
  (** roots.rs:326-354 *)
  Definition remainder (dividend divisor : Poly) : option Poly :=
    match poly_degree divisor with
    | None => None
    | Some divisor_degree =>
        match poly_coefficient divisor divisor_degree with
        | None => None
        | Some divisor_highest => Some (remainder_loop divisor divisor_degree divisor_highest (length dividend) dividend)
        end
    end.

  (** roots.rs:365-385 *)
  Definition sign_changes (chain : list Poly) (point : T) : nat :=
    fst (fold_left (fun '(changes, previous_positive) polynomial =>
           let value := poly_evaluate polynomial point in
           if value =? zero then (changes, previous_positive)
           else
             let positive := value >? zero in
             ((match previous_positive with
               | Some previous => if negb (Bool.eqb previous positive) then S changes else changes
               | None => changes
               end), Some positive)) chain (O, None)).

  (** roots.rs:401-417 *)
  Definition cauchy_root_bound (p : Poly) : Res T PolynomialError :=
    if negb (poly_is_finite p) then Err PoNonFinite
    else
      match poly_degree p with
      | None => Err PoLeadingCoefficientZero
      | Some degree =>
          match poly_coefficient p degree with
          | None => Err PoLeadingCoefficientZero
          | Some highest =>
              Ok (one + fold_left (fun largest c => max largest (abs (c / highest))) (firstn degree p) zero)
          end
      end.

  (** roots.rs:448-466: the last two entries are [previous] and [current]; [room] entries may still be added *)
  Fixpoint chain_loop (room : nat) (previous current : Poly) : list Poly :=
    match room with
    | O => []
    | S room =>
        match remainder previous current with
        | None => []
        | Some next => if poly_is_zero next then [] else poly_neg next :: chain_loop room current (poly_neg next)
        end
    end.
  (** roots.rs:424-468: the chain array up to its [length].  With a single entry the loop's [chain.get(length - 2)]
      would underflow; that only happens for a polynomial of degree zero with room for more entries, where the code evaluates
      [length - 2] with [length = 1]: a panic in a debug build.  *)
  Definition root_counting_chain (p : Poly) : Res (list Poly) PolynomialError :=
    if negb (poly_is_finite p) then Err PoNonFinite
    else
      match poly_degree p with
      | None => Err PoLeadingCoefficientZero
      | Some O => if Nat.ltb 1 (length p) then Panic else Ok [p]
      | Some (S _) => Ok (p :: poly_derivative p :: chain_loop (length p - 2) p (poly_derivative p))
      end.

  (** roots.rs:487-490 *)
  Definition count_between (chain : list Poly) (lower upper : T) : nat :=
    (sign_changes chain lower - sign_changes chain upper)%nat.
  Definition count_real_roots (p : Poly) (lower upper : T) : Res nat PolynomialError :=
    match root_counting_chain p with
    | Err e => Err e
    | Panic => Panic
    | Ok chain => Ok (count_between chain lower upper)
    end.

  (** roots.rs:357-362 *)
  Definition add_range (capacity : nat) (pending : list (T * T)) (range : T * T) : list (T * T) :=
    if Nat.ltb (length pending) capacity then pending ++ [range] else pending.

  (** roots.rs:559-574: close in on a single root.  [remaining] is what is left of the budget; the answer is the root
      and the budget remaining, or None when the budget is gone. *)
  Fixpoint close_in (chain : list Poly) (tolerance : T) (remaining : nat) (low high : T) : option (T * nat) :=
    if high - low >? tolerance then
      match remaining with
      | O => None
      | S remaining =>
          let middle := (low + high) * half in
          if Nat.eqb (count_between chain low middle) 1 then close_in chain tolerance remaining low middle
          else close_in chain tolerance remaining middle high
      end
    else Some ((low + high) * half, remaining).

  (** roots.rs:548-597.  The waiting list is a stack whose last entry is taken first.  [fuel] bounds the rounds of
      the outer loop; [None] is running out of fuel, which never happens (Proofs/Roots.v). *)
  Fixpoint roots_loop (fuel : nat) (capacity : nat) (chain : list Poly) (tolerance : T) (budget : nat)
      (pending : list (T * T)) (roots : list T) (remaining : nat) : option (Res (list T) PolynomialError) :=
    match fuel with
    | O => None
    | S fuel =>
        match rev pending with
        | [] => Some (Ok (sort_ascending roots))
        | (range_lower, range_upper) :: below =>
            let pending := rev below in
            if Nat.eqb (count_between chain range_lower range_upper) 1 then
              match close_in chain tolerance remaining range_lower range_upper with
              | None => Some (Err (PoDidNotConverge budget))
              | Some (root, remaining) => roots_loop fuel capacity chain tolerance budget pending (roots_push capacity roots root) remaining
              end
            else
              match remaining with
              | O => Some (Err (PoDidNotConverge budget))
              | S remaining =>
                  let middle := (range_lower + range_upper) * half in
                  let add pending piece_lower piece_upper :=
                    if Nat.ltb 0 (count_between chain piece_lower piece_upper)
                    then add_range capacity pending (piece_lower, piece_upper) else pending in
                  roots_loop fuel capacity chain tolerance budget
                    (add (add pending range_lower middle) middle range_upper) roots remaining
              end
        end
    end.
  (** roots.rs:518-600 *)
  Definition real_roots_in (p : Poly) (lower upper tolerance : T) (maximum_bisections : nat)
    : option (Res (list T) PolynomialError) :=
    if negb (is_finite lower) || negb (is_finite upper) || negb (is_finite tolerance) then Some (Err PoNonFinite)
    else if tolerance <=? zero then Some (Err PoToleranceNotPositive)
    else if lower >? upper then Some (Err PoRangeReversed)
    else
      match root_counting_chain p with
      | Err e => Some (Err e)
      | Panic => Some Panic
      | Ok chain =>
          let pending := if Nat.ltb 0 (count_between chain lower upper) then add_range (length p) [] (lower, upper) else [] in
          roots_loop (2 * maximum_bisections + 3) (length p) chain tolerance maximum_bisections pending [] maximum_bisections
      end.
End Roots.
