(** crates/multicalc/src/polynomial/multivariate.rs, over any scalar.

    A [MultivariatePolynomial<VARIABLES, MAX_TERMS>] is the list of its terms in use ([terms[..length]]); the slots
    past [length] are not modelled, since every method reads through [terms()] or below [length].  MAX_TERMS is an
    argument where it matters.  Exponents (u32) are [N]. *)
From Coq Require Import ZArith NArith List Bool Arith.
From Verif Require Import Base.Scalar Base.Lists Model.Errors Model.Polynomial.
Import ListNotations.

(** i32::MAX and u32::MAX *)
Definition i32_max : N := 2147483647.
Definition u32_max : N := 4294967295.
(** u32::checked_add, u32::saturating_add *)
Definition u32_checked_add (a b : N) : option N := if N.leb (a + b) u32_max then Some (a + b)%N else None.
Definition u32_saturating_add (a b : N) : N := N.min (a + b) u32_max.

(** [PartialEq] of two exponent arrays *)
Fixpoint exponents_eqb (a b : list N) : bool :=
  match a, b with
  | [], [] => true
  | x :: a, y :: b => (N.eqb x y && exponents_eqb a b)%bool
  | _, _ => false
  end.

Section Multivariate.
  Context {T : Type} {NT : Num T}.
  Local Open Scope num_scope.

  (** multivariate.rs:19-23 *)
  Record Term := { coefficient : T; exponents : list N }.
  Notation MPoly := (list Term).

  (** multivariate.rs:10-12 *)
  Definition raise (value : T) (exponent : N) : T := powi value (Z.of_N (N.min exponent i32_max)).

  (** multivariate.rs:146-158 *)
  Definition mp_push (max_terms : nat) (result : MPoly) (term : Term) : Res MPoly PolynomialError :=
    if negb (is_finite (coefficient term)) then Err PoNonFinite
    else if Nat.ltb (length result) max_terms then Ok (result ++ [term])
    else Err PoCapacityExceeded.
  (** [for term in terms { result.push(term)?; }] *)
  Fixpoint push_all (max_terms : nat) (terms : list Term) (result : MPoly) : Res MPoly PolynomialError :=
    match terms with
    | [] => Ok result
    | term :: terms =>
        match mp_push max_terms result term with
        | Ok result => push_all max_terms terms result
        | Err e => Err e
        | Panic => Panic
        end
    end.
  (** multivariate.rs:114-122 *)
  Definition mp_try_from_terms (max_terms : nat) (terms : list Term) : Res MPoly PolynomialError :=
    push_all max_terms terms [].
  (** multivariate.rs:129-139 *)
  Definition mp_try_from_array (terms : list Term) : Res MPoly PolynomialError :=
    if existsb (fun t => negb (is_finite (coefficient t))) terms then Err PoNonFinite else Ok terms.

  (** multivariate.rs:205-208: one term's value *)
  Fixpoint term_product (product : T) (variables : list T) (exps : list N) : T :=
    match variables, exps with
    | value :: variables, exponent :: exps => term_product (product * raise value exponent) variables exps
    | _, _ => product
    end.
  (** multivariate.rs:202-212 *)
  Definition mp_evaluate (p : MPoly) (variables : list T) : T :=
    fold_left (fun total term => total + term_product (coefficient term) variables (exponents term)) p zero.

  (** multivariate.rs:230-249.  The loop's [?] leaves at the first push that fails; the terms pushed before it
      depend on nothing else, so the loop is a list of terms followed by [push_all]. *)
  Definition derivative_term (variable : nat) (term : Term) : list Term :=
    let exponent := nth variable (exponents term) 0%N in
    if N.eqb exponent 0 then []
    else [{| coefficient := coefficient term * of_Z (Z.of_N exponent);
             exponents := set_nth (exponents term) variable (exponent - 1)%N |}].
  Definition mp_partial_derivative (variables max_terms : nat) (p : MPoly) (variable : nat) : Res MPoly PolynomialError :=
    if Nat.leb variables variable then Err PoVariableOutOfRange
    else push_all max_terms (flat_map (derivative_term variable) p) [].

  (** multivariate.rs:267-277: the product for one variable of one term *)
  Fixpoint gradient_product (product : T) (other variable : nat) (values : list T) (exps : list N) : T :=
    match values, exps with
    | value :: values, power :: exps =>
        let power := if Nat.eqb other variable then (power - 1)%N else power in
        gradient_product (product * raise value power) (S other) variable values exps
    | _, _ => product
    end.
  (** multivariate.rs:258-281 *)
  Definition gradient_variable (values : list T) (term : Term) (totals : list T) (variable : nat) : list T :=
    let exponent := nth variable (exponents term) 0%N in
    if N.eqb exponent 0 then totals
    else
      let product := gradient_product (coefficient term * of_Z (Z.of_N exponent)) 0 variable values (exponents term) in
      set_nth totals variable (nth variable totals zero + product).
  Definition gradient_term (values : list T) (totals : list T) (term : Term) : list T :=
    fold_left (gradient_variable values term) (seq 0 (length (exponents term))) totals.
  (** multivariate.rs:256-283 *)
  Definition mp_gradient_at (variables : nat) (p : MPoly) (values : list T) : list T :=
    fold_left (gradient_term values) p (repeat zero variables).

  (** multivariate.rs:294-306 *)
  Fixpoint antiderivative_loop (max_terms variable : nat) (p : MPoly) (result : MPoly) : Res MPoly PolynomialError :=
    match p with
    | [] => Ok result
    | term :: rest =>
        let exponent := nth variable (exponents term) 0%N in
        match u32_checked_add exponent 1 with
        | None => Err PoDegreeOverflow
        | Some raised =>
            match mp_push max_terms result
                    {| coefficient := coefficient term / of_Z (Z.of_N raised);
                       exponents := set_nth (exponents term) variable raised |} with
            | Ok result => antiderivative_loop max_terms variable rest result
            | Err e => Err e
            | Panic => Panic
            end
        end
    end.
  (** multivariate.rs:289-307 *)
  Definition mp_partial_antiderivative (variables max_terms : nat) (p : MPoly) (variable : nat) : Res MPoly PolynomialError :=
    if Nat.leb variables variable then Err PoVariableOutOfRange
    else antiderivative_loop max_terms variable p [].

  (** multivariate.rs:395-405: put a term with the kept ones *)
  Fixpoint merge_term (kept : MPoly) (term : Term) : MPoly :=
    match kept with
    | [] => [term]
    | existing :: kept =>
        if exponents_eqb (exponents existing) (exponents term)
        then {| coefficient := coefficient existing + coefficient term; exponents := exponents existing |} :: kept
        else existing :: merge_term kept term
    end.
  (** multivariate.rs:389-424.  The code compacts in place: the kept terms are the front of the same array, and
      a slot is written only after the term it held was read. *)
  Definition mp_collect_like_terms (p : MPoly) : MPoly :=
    filter (fun term => negb (coefficient term =? zero)) (fold_left merge_term p []).

  (** multivariate.rs:320-337 *)
  Definition substitute_term (variable : nat) (value : T) (term : Term) : Term :=
    let exponent := nth variable (exponents term) 0%N in
    {| coefficient := coefficient term * raise value exponent; exponents := set_nth (exponents term) variable 0%N |}.
  Definition mp_substitute (variables max_terms : nat) (p : MPoly) (variable : nat) (value : T) : Res MPoly PolynomialError :=
    if Nat.leb variables variable then Err PoVariableOutOfRange
    else
      match push_all max_terms (map (substitute_term variable value) p) [] with
      | Ok result => Ok (mp_collect_like_terms result)
      | Err e => Err e
      | Panic => Panic
      end.

  (** multivariate.rs:343-353 *)
  Definition mp_add_into (out : nat) (p other : MPoly) : Res MPoly PolynomialError :=
    match push_all out (p ++ other) [] with
    | Ok result => Ok (mp_collect_like_terms result)
    | Err e => Err e
    | Panic => Panic
    end.

  (** multivariate.rs:369-374: add the powers, variable by variable *)
  Fixpoint add_exponents (a b : list N) : option (list N) :=
    match a, b with
    | x :: a, y :: b =>
        match u32_checked_add x y, add_exponents a b with
        | Some s, Some rest => Some (s :: rest)
        | _, _ => None
        end
    | a, _ => Some a
    end.
  (** multivariate.rs:366-378 *)
  Fixpoint multiply_loop (out : nat) (pairs : list (Term * Term)) (result : MPoly) : Res MPoly PolynomialError :=
    match pairs with
    | [] => Ok result
    | (left_, right_) :: pairs =>
        match add_exponents (exponents left_) (exponents right_) with
        | None => Err PoDegreeOverflow
        | Some exps =>
            match mp_push out result {| coefficient := coefficient left_ * coefficient right_; exponents := exps |} with
            | Ok result => multiply_loop out pairs result
            | Err e => Err e
            | Panic => Panic
            end
        end
    end.
  (** multivariate.rs:361-381 *)
  Definition mp_multiply_into (out : nat) (p other : MPoly) : Res MPoly PolynomialError :=
    match multiply_loop out (list_prod p other) [] with
    | Ok result => Ok (mp_collect_like_terms result)
    | Err e => Err e
    | Panic => Panic
    end.

  (** multivariate.rs:429-444 *)
  Definition mp_total_degree (p : MPoly) : option N :=
    fold_left (fun largest term =>
      let total := fold_left u32_saturating_add (exponents term) 0%N in
      Some (match largest with Some previous => N.max previous total | None => total end)) p None.
  (** multivariate.rs:449-460 *)
  Definition mp_degree_in (variables : nat) (p : MPoly) (variable : nat) : option N :=
    if (Nat.leb variables variable || Nat.eqb (length p) 0)%bool then None
    else Some (fold_left (fun largest term => N.max largest (nth variable (exponents term) 0%N)) p 0%N).

  (** multivariate.rs:479-491; [n] is COEFFICIENT_COUNT *)
  Fixpoint to_univariate_loop (p : MPoly) (coefficients : list T) : Res (list T) PolynomialError :=
    match p with
    | [] => Ok coefficients
    | term :: rest =>
        let power := N.to_nat (nth 0 (exponents term) 0%N) in
        match nth_error coefficients power with
        | Some slot => to_univariate_loop rest (set_nth coefficients power (slot + coefficient term))
        | None => Err PoDegreeOverflow
        end
    end.
  Definition mp_to_univariate (n : nat) (p : MPoly) : Res (list T) PolynomialError :=
    to_univariate_loop p (repeat zero n).

  (** multivariate.rs:497-509 *)
  Fixpoint from_univariate_loop (max_terms power : nat) (polynomial : list T) (result : MPoly) : Res MPoly PolynomialError :=
    match polynomial with
    | [] => Ok result
    | c :: rest =>
        if c =? zero then from_univariate_loop max_terms (S power) rest result
        else if N.ltb u32_max (N.of_nat power) then Err PoDegreeOverflow
        else
          match mp_push max_terms result {| coefficient := c; exponents := [N.of_nat power] |} with
          | Ok result => from_univariate_loop max_terms (S power) rest result
          | Err e => Err e
          | Panic => Panic
          end
    end.
  Definition mp_from_univariate (max_terms : nat) (polynomial : list T) : Res MPoly PolynomialError :=
    from_univariate_loop max_terms 0 polynomial [].
End Multivariate.
Arguments Term : clear implicits.
