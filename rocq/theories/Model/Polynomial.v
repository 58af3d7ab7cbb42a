(** crates/multicalc/src/polynomial/polynomial.rs and construction.rs, over any scalar.

    A [Polynomial<COEFFICIENT_COUNT>] is the list of its coefficients, lowest power first; its length is
    COEFFICIENT_COUNT.  Where the code names the size of an output, the size is an argument. *)
From Coq Require Import ZArith List Bool Arith.
From Verif Require Import Base.Scalar Base.Lists Model.Errors.
Import ListNotations.

Section Polynomial.
  Context {T : Type} {NT : Num T}.
  Local Open Scope num_scope.
  Notation Poly := (list T).

  (** polynomial.rs:70-74 *)
  Definition poly_zeros (n : nat) : Poly := repeat zero n.
  (** polynomial.rs:102-104 *)
  Definition poly_coefficient (p : Poly) (power : nat) : option T := nth_error p power.
  (** polynomial.rs:120-124: the last index whose coefficient is not zero *)
  Fixpoint poly_degree (p : Poly) : option nat :=
    match p with
    | [] => None
    | c :: rest =>
        match poly_degree rest with
        | Some k => Some (S k)
        | None => if negb (c =? zero) then Some O else None
        end
    end.
  (** polynomial.rs:136-138 *)
  Definition poly_leading_coefficient (p : Poly) : option T :=
    match poly_degree p with Some power => poly_coefficient p power | None => None end.
  (** polynomial.rs:150-154 *)
  Definition poly_is_zero (p : Poly) : bool := forallb (fun c => c =? zero) p.
  (** polynomial.rs:166-170 *)
  Definition poly_is_finite (p : Poly) : bool := forallb is_finite p.
  (** polynomial.rs:191-208 *)
  Definition poly_try_resize (other : nat) (p : Poly) : option Poly :=
    if existsb (fun c => negb (c =? zero)) (skipn other p) then None
    else Some (firstn other p ++ repeat zero (other - length p)).

  (** polynomial.rs:224-230 *)
  Definition poly_evaluate (p : Poly) (x : T) : T :=
    fold_left (fun accumulator coefficient => mul_add accumulator x coefficient) (rev p) zero.

  (** polynomial.rs:254-263: one coefficient's sweep over the orders, highest first *)
  Definition derivative_sweep (orders : nat) (x : T) (result : list T) (coefficient : T) : list T :=
    let result := fold_left (fun result order =>
                    set_nth result order (mul_add (nth order result zero) x (nth (order - 1) result zero)))
                  (rev (seq 1 (orders - 1))) result in
    set_nth result 0 (mul_add (nth 0 result zero) x coefficient).
  (** polynomial.rs:266-273: the [order]-th entry times 1*2*...*order, multiplied up from the left *)
  Fixpoint factorial_scale (order : nat) (scale : T) (result : list T) : list T :=
    match result with
    | [] => []
    | slot :: rest =>
        let scale := if Nat.ltb 0 order then scale * of_nat order else scale in
        slot * scale :: factorial_scale (S order) scale rest
    end.
  (** polynomial.rs:252-275 *)
  Definition poly_evaluate_with_derivatives (orders : nat) (p : Poly) (x : T) : list T :=
    factorial_scale 0 one (fold_left (derivative_sweep orders x) (rev p) (repeat zero orders)).

  (** polynomial.rs:285-293 *)
  Definition poly_derivative (p : Poly) : Poly :=
    from_fn (length p) (fun power =>
      match poly_coefficient p (power + 1) with
      | Some above => above * of_nat (power + 1)
      | None => zero
      end).
  (** polynomial.rs:306-315 *)
  Definition poly_nth_derivative (order : nat) (p : Poly) : Poly :=
    if Nat.leb (length p) order then poly_zeros (length p)
    else Nat.iter order poly_derivative p.

  (** polynomial.rs:334-338 *)
  Fixpoint integral_loop (p : Poly) (power : nat) (lower upper lower_power upper_power total : T) : T :=
    match p with
    | [] => total
    | coefficient :: rest =>
        integral_loop rest (S power) lower upper (lower_power * lower) (upper_power * upper)
          (total + coefficient * (upper_power - lower_power) / of_nat (power + 1))
    end.
  (** polynomial.rs:330-340 *)
  Definition poly_definite_integral (p : Poly) (lower upper : T) : T :=
    integral_loop p 0 lower upper lower upper zero.

  (** polynomial.rs:352-357 *)
  Definition poly_scale (p : Poly) (factor : T) : Poly := map (fun c => c * factor) p.

  (** polynomial.rs:382-391: one term of the product *)
  Definition add_term (product : Res Poly PolynomialError) (power : nat) (term : T) : Res Poly PolynomialError :=
    match product with
    | Ok product =>
        match nth_error product power with
        | Some slot => Ok (set_nth product power (slot + term))
        | None => if negb (term =? zero) then Err PoDegreeOverflow else Ok product
        end
    | other => other
    end.
  (** polynomial.rs:377-393 *)
  Definition poly_multiply_into (out : nat) (p other : Poly) : Res Poly PolynomialError :=
    fold_left (fun product left =>
      fold_left (fun product right => add_term product (fst left + fst right)%nat (snd left * snd right))
        (combine (seq 0 (length other)) other) product)
      (combine (seq 0 (length p)) p) (Ok (poly_zeros out)).

  (** polynomial.rs:411-425 *)
  Definition compose_step (out : nat) (inner : Poly) (accumulator : Res Poly PolynomialError) (coefficient : T)
    : Res Poly PolynomialError :=
    match accumulator with
    | Ok accumulator => add_term (poly_multiply_into out accumulator inner) 0 coefficient
    | other => other
    end.
  Definition poly_compose_into (out : nat) (p inner : Poly) : Res Poly PolynomialError :=
    fold_left (compose_step out inner) (rev p) (Ok (poly_zeros out)).

  (** polynomial.rs:474-478, roots.rs:334-338: take [share] times the divisor off the working copy *)
  Definition subtract_shifted (working divisor : Poly) (quotient_power : nat) (share : T) : Poly :=
    fold_left (fun working d =>
      let at_ := (quotient_power + fst d)%nat in
      match nth_error working at_ with
      | Some slot => set_nth working at_ (slot - share * snd d)
      | None => working
      end) (combine (seq 0 (length divisor)) divisor) working.

  (** polynomial.rs:461-483: [power] counts down to the divisor's degree *)
  Fixpoint divide_loop (divisor : Poly) (divisor_degree : nat) (divisor_leading : T) (power : nat)
      (working quotient : Poly) : Res (Poly * Poly) PolynomialError :=
    match power with
    | O => Ok (working, quotient)
    | S power =>
        if Nat.ltb power divisor_degree then Ok (working, quotient)
        else
          let leading := nth power working zero in
          if leading =? zero then divide_loop divisor divisor_degree divisor_leading power working quotient
          else
            let share := leading / divisor_leading in
            let quotient_power := (power - divisor_degree)%nat in
            match nth_error quotient quotient_power with
            | None => Err PoDegreeOverflow
            | Some slot =>
                let quotient := set_nth quotient quotient_power (slot + share) in
                let working := subtract_shifted working divisor quotient_power share in
                divide_loop divisor divisor_degree divisor_leading power (set_nth working power zero) quotient
            end
    end.
  (** polynomial.rs:486-494: copy the powers below the divisor's degree *)
  Fixpoint copy_remainder (power : nat) (rest : Poly) (remainder : Res Poly PolynomialError) : Res Poly PolynomialError :=
    match rest, remainder with
    | [], r => r
    | c :: rest, Ok remainder =>
        if Nat.ltb power (length remainder) then copy_remainder (S power) rest (Ok (set_nth remainder power c))
        else if negb (c =? zero) then Err PoDegreeOverflow
        else copy_remainder (S power) rest (Ok remainder)
    | _, r => r
    end.
  (** polynomial.rs:447-496 *)
  Definition poly_divide (quotient_size remainder_size : nat) (p divisor : Poly) : Res (Poly * Poly) PolynomialError :=
    match poly_degree divisor with
    | None => Err PoLeadingCoefficientZero
    | Some divisor_degree =>
        match poly_coefficient divisor divisor_degree with
        | None => Err PoLeadingCoefficientZero
        | Some divisor_leading =>
            match divide_loop divisor divisor_degree divisor_leading (length p) p (poly_zeros quotient_size) with
            | Ok (working, quotient) =>
                match copy_remainder 0 (firstn divisor_degree working) (Ok (poly_zeros remainder_size)) with
                | Ok remainder => Ok (quotient, remainder)
                | Err e => Err e
                | Panic => Panic
                end
            | Err e => Err e
            | Panic => Panic
            end
        end
    end.

  (** polynomial.rs:515-527: one synthetic division; the quotient and what is left *)
  Definition synthetic_divide (offset : T) (working : Poly) : Poly * T :=
    fold_left (fun '(quotient, carry) power =>
      let carry := mul_add carry offset (nth power working zero) in
      ((match power with O => quotient | S lower => set_nth quotient lower carry end), carry))
      (rev (seq 0 (length working))) (poly_zeros (length working), zero).
  (** polynomial.rs:509-531 *)
  Definition poly_shift_argument (p : Poly) (offset : T) : Poly :=
    fst (fold_left (fun '(shifted, working) slot =>
           let '(quotient, carry) := synthetic_divide offset working in (set_nth shifted slot carry, quotient))
         (seq 0 (length p)) (poly_zeros (length p), p)).

  (** polynomial.rs:544-552 *)
  Fixpoint scale_argument_loop (power_of_factor factor : T) (p : Poly) : Poly :=
    match p with
    | [] => []
    | c :: rest => c * power_of_factor :: scale_argument_loop (power_of_factor * factor) factor rest
    end.
  Definition poly_scale_argument (p : Poly) (factor : T) : Poly := scale_argument_loop one factor p.
  (** polynomial.rs:569-573 *)
  Definition poly_reverse (p : Poly) : Poly := rev p.

  (** polynomial.rs:589-594, 609-614, 628-633, 663-668; both operands have the same size *)
  Definition poly_add (p q : Poly) : Poly := map (fun '(a, b) => a + b) (combine p q).
  Definition poly_sub (p q : Poly) : Poly := map (fun '(a, b) => a - b) (combine p q).
  Definition poly_neg (p : Poly) : Poly := map neg p.
  Definition poly_div (p : Poly) (divisor : T) : Poly := map (fun c => c / divisor) p.

  (** construction.rs:26-37: in place, [power] from 0 to [raised_degree] *)
  Definition multiply_in_a_root (coefficients : Poly) (raised_degree : nat) (root : T) : Poly :=
    fst (fold_left (fun '(coefficients, carried) power =>
           let current := nth power coefficients zero in
           (set_nth coefficients power (carried - root * current), current))
         (seq 0 (S raised_degree)) (coefficients, zero)).

  (** construction.rs:43-55 *)
  Definition sample_range (nodes : list T) : Res (T * T) PolynomialError :=
    match nodes with
    | [] => Err PoEmpty
    | first :: _ =>
        let '(smallest, largest) := fold_left (fun '(s, l) node => (min s node, max l node)) nodes (first, first) in
        let half_width := (largest - smallest) * half in
        if half_width =? zero then Err PoDuplicateNode else Ok ((smallest + largest) * half, half_width)
    end.

  (** construction.rs:70-87 *)
  Definition poly_from_roots (n : nat) (roots : list T) : Res Poly PolynomialError :=
    if existsb (fun r => negb (is_finite r)) roots then Err PoNonFinite
    else if Nat.leb n (length roots) then Err PoDegreeOverflow
    else Ok (fold_left (fun coefficients ir => multiply_in_a_root coefficients (fst ir + 1) (snd ir))
               (combine (seq 0 (length roots)) roots) (set_nth (poly_zeros n) 0 one)).

  (** construction.rs:105-116; a jet is the list of its coefficients (Model/Jet.v) *)
  Definition poly_from_jet (n : nat) (jet : list T) : Res Poly PolynomialError :=
    if Nat.ltb n (length jet) then Err PoDegreeOverflow
    else Ok (jet ++ repeat zero (n - length jet)).

  (** construction.rs:132-146 *)
  Definition chebyshev_nodes (n : nat) (lower upper : T) : list T :=
    let centre := (lower + upper) * half in
    let half_width := (upper - lower) * half in
    from_fn n (fun index =>
      let step := (n - 1 - index)%nat in
      let angle := (two * of_nat step + one) * pi / (two * of_nat n) in
      centre + half_width * cos angle).

  (** construction.rs:192-204: one pass over the table *)
  Definition bend_pass (n order : nat) (normalized table : list T) : Res (list T) PolynomialError :=
    fold_left (fun table index =>
      match table with
      | Ok table =>
          let gap := nth (index + order) normalized zero - nth index normalized zero in
          if gap =? zero then Err PoDuplicateNode
          else Ok (set_nth table index ((nth (index + 1) table zero - nth index table zero) / gap))
      | other => other
      end) (seq 0 (n - order)) (Ok table).
  (** construction.rs:186-208: the first entry of every pass *)
  Definition bends_of (n : nat) (normalized values : list T) : Res (list T * list T) PolynomialError :=
    fold_left (fun st order =>
      match st with
      | Ok (table, bends) =>
          match bend_pass n order normalized table with
          | Ok table => Ok (table, set_nth bends order (nth 0 table zero))
          | Err e => Err e
          | Panic => Panic
          end
      | other => other
      end) (seq 1 (n - 1)) (Ok (values, set_nth (poly_zeros n) 0 (nth 0 values zero))).
  (** construction.rs:212-222 *)
  Definition fold_bends (n : nat) (normalized bends : list T) : Poly :=
    fold_left (fun coefficients step =>
      let c := multiply_in_a_root coefficients (n - 1 - step) (nth step normalized zero) in
      set_nth c 0 (nth 0 c zero + nth step bends zero))
      (rev (seq 0 (n - 1))) (set_nth (poly_zeros n) 0 (nth (n - 1) bends zero)).
  (** construction.rs:161-228; [nodes] and [values] have the polynomial's size [n] *)
  Definition poly_from_points (n : nat) (nodes values : list T) : Res Poly PolynomialError :=
    if existsb (fun v => negb (is_finite v)) (nodes ++ values) then Err PoNonFinite
    else if Nat.leb n 1 then Ok values
    else
      match sample_range nodes with
      | Err e => Err e
      | Panic => Panic
      | Ok (centre, half_width) =>
          let normalized := map (fun node => (node - centre) / half_width) nodes in
          match bends_of n normalized values with
          | Err e => Err e
          | Panic => Panic
          | Ok (_, bends) =>
              Ok (poly_shift_argument (poly_scale_argument (fold_bends n normalized bends) (one / half_width)) (- centre))
          end
      end.

  (** construction.rs:354-379 *)
  Definition cubic_from_endpoint_derivatives (start_value start_slope end_value end_slope span : T)
    : Res Poly PolynomialError :=
    if existsb (fun v => negb (is_finite v)) [start_value; start_slope; end_value; end_slope; span] then Err PoNonFinite
    else if span <=? zero then Err PoSpanNotPositive
    else
      let start_rise := start_slope * span in
      let end_rise := end_slope * span in
      Ok [start_value; start_rise;
          - three * start_value - two * start_rise + three * end_value - end_rise;
          two * start_value + start_rise - two * end_value + end_rise].
End Polynomial.
