(** crates/multicalc/src/polynomial/piecewise.rs, over any scalar.

    A [PiecewisePolynomial<MAX_PIECES, COEFFICIENTS_PER_PIECE, DIMENSION>] is the list of its pieces in use and the
    list of their spans, both of length [length]; the unused slots of the two arrays are not modelled, since no
    method reads them.  A piece is the list of its DIMENSION polynomials (Model/Polynomial.v), a Vector the list of
    its components. *)
From Coq Require Import ZArith List Bool Arith.
From Verif Require Import Base.Scalar Base.Lists Model.Errors Model.Polynomial.
Import ListNotations.

Section Piecewise.
  Context {T : Type} {NT : Num T}.
  Local Open Scope num_scope.

  (** piecewise.rs:42-51 *)
  Record Piecewise := { pw_pieces : list (list (list T)); pw_spans : list T }.

  (** piecewise.rs:66-94 *)
  Definition piecewise_try_from_pieces (max_pieces : nat) (pieces : list (list (list T))) (spans : list T)
    : Res Piecewise PolynomialError :=
    if (Nat.eqb (length pieces) 0 || Nat.eqb (length spans) 0)%bool then Err PoEmpty
    else if (negb (Nat.eqb (length pieces) (length spans)) || Nat.ltb max_pieces (length pieces))%bool
    then Err PoCapacityExceeded
    else if existsb (fun span => (negb (is_finite span) || (span <=? zero))%bool) spans then Err PoSpanNotPositive
    else Ok {| pw_pieces := pieces; pw_spans := spans |}.

  (** piecewise.rs:99-108 *)
  Definition piecewise_piece_count (c : Piecewise) : nat := length (pw_pieces c).
  (** piecewise.rs:113-119 *)
  Definition piecewise_total_span (c : Piecewise) : T := fold_left add (pw_spans c) zero.
  (** piecewise.rs:124-129, 134-143 *)
  Definition piecewise_span (c : Piecewise) (piece : nat) : option T := nth_error (pw_spans c) piece.
  Definition piecewise_piece_polynomial (c : Piecewise) (piece axis : nat) : option (list T) :=
    match nth_error (pw_pieces c) piece with Some p => nth_error p axis | None => None end.

  (** piecewise.rs:159-164: the walk over the pieces; [None] when it runs off the end *)
  Fixpoint locate_walk (spans : list T) (index : nat) (covered parameter : T) : option (nat * T) :=
    match spans with
    | [] => None
    | span :: rest =>
        if parameter <? covered + span then Some (index, (parameter - covered) / span)
        else locate_walk rest (S index) (covered + span) parameter
    end.
  (** piecewise.rs:150-166 *)
  Definition piecewise_locate (c : Piecewise) (parameter : T) : option (nat * T) :=
    if Nat.eqb (length (pw_pieces c)) 0 then None
    else if parameter <=? zero then Some (O, zero)
    else match locate_walk (pw_spans c) 0 zero parameter with
         | Some found => Some found
         | None => Some ((length (pw_pieces c) - 1)%nat, one)
         end.

  (** piecewise.rs:172-181 *)
  Definition piecewise_evaluate (c : Piecewise) (parameter : T) : Res (list T) PolynomialError :=
    match piecewise_locate c parameter with
    | None => Err PoEmpty
    | Some (piece, along) =>
        match nth_error (pw_pieces c) piece with
        | None => Err PoEmpty
        | Some polynomials => Ok (map (fun p => poly_evaluate p along) polynomials)
        end
    end.

  (** piecewise.rs:212-223: one row per order, each with one more factor of the span *)
  Fixpoint gather_orders (order remaining : nat) (span span_raised : T) (per_axis : list (list T)) : list (list T) :=
    match remaining with
    | O => []
    | S remaining =>
        let span_raised := if Nat.ltb 0 order then span_raised * span else span_raised in
        let converted := one / span_raised in
        map (fun orders => nth order orders zero * converted) per_axis
        :: gather_orders (S order) remaining span span_raised per_axis
    end.
  (** piecewise.rs:190-225 *)
  Definition piecewise_evaluate_with_derivatives (orders : nat) (c : Piecewise) (parameter : T)
    : Res (list (list T)) PolynomialError :=
    match piecewise_locate c parameter with
    | None => Err PoEmpty
    | Some (piece, along) =>
        match nth_error (pw_pieces c) piece, nth_error (pw_spans c) piece with
        | Some polynomials, Some span =>
            Ok (gather_orders 0 orders span one (map (fun p => poly_evaluate_with_derivatives orders p along) polynomials))
        | _, _ => Err PoEmpty
        end
    end.

  (** piecewise.rs:279-298: the loop over the pieces *)
  Fixpoint integral_walk (pieces : list (list (list T))) (spans : list T) (wanted_start wanted_end covered : T)
      (areas : list T) : list T :=
    match pieces, spans with
    | polynomials :: pieces, span :: spans =>
        let piece_start := covered in
        let covered := covered + span in
        let start := max wanted_start piece_start in
        let end_ := min wanted_end covered in
        let areas :=
          if end_ <=? start then areas
          else
            let along_start := (start - piece_start) / span in
            let along_end := (end_ - piece_start) / span in
            map (fun '(slot, p) => slot + poly_definite_integral p along_start along_end * span)
              (combine areas polynomials) in
        integral_walk pieces spans wanted_start wanted_end covered areas
    | _, _ => areas
    end.
  (** piecewise.rs:259-307; [dimension] is DIMENSION *)
  Definition piecewise_definite_integral (dimension : nat) (c : Piecewise) (lower upper : T)
    : Res (list T) PolynomialError :=
    if Nat.eqb (length (pw_pieces c)) 0 then Err PoEmpty
    else
      let flipped := upper <? lower in
      let '(wanted_start, wanted_end) := if flipped then (upper, lower) else (lower, upper) in
      let total := piecewise_total_span c in
      let wanted_start := min (max wanted_start zero) total in
      let wanted_end := min (max wanted_end zero) total in
      let areas := integral_walk (pw_pieces c) (pw_spans c) wanted_start wanted_end zero (repeat zero dimension) in
      Ok (if flipped then map neg areas else areas).

  (** piecewise.rs:359-382; [n] is COEFFICIENTS_PER_PIECE *)
  Definition piecewise_nth_derivative (n order : nat) (c : Piecewise) : Piecewise :=
    {| pw_pieces := map (fun '(piece, span) =>
         let span_raised := Nat.iter (Nat.min order n) (fun raised => raised * span) one in
         let converted := one / span_raised in
         map (fun p => poly_scale (poly_nth_derivative order p) converted) piece)
         (combine (pw_pieces c) (pw_spans c));
       pw_spans := pw_spans c |}.
  (** piecewise.rs:334-336 *)
  Definition piecewise_derivative (n : nat) (c : Piecewise) : Piecewise := piecewise_nth_derivative n 1 c.
End Piecewise.
Arguments Piecewise : clear implicits.
