(** The scalar interface.

    Models the trait [Numeric] of crates/multicalc/src/scalar/numeric.rs:11-441.
    A record [Num T] holds what an implementor of the trait supplies; the default methods that no
    implementor overrides ([safe_div], [powi], [wrap_to_pi], [to_radians], [to_degrees]) are
    functions on top of it.  Comparisons are booleans because PartialOrd on floats is partial: a
    comparison with NaN is [false]. *)
From Coq Require Import ZArith List Bool.
Import ListNotations.

Class Num (T : Type) := {
  (* constants, numeric.rs:27-73 *)
  zero : T; one : T; two : T; three : T; half : T; ten : T; hundred : T; one_eighty : T;
  pi : T; two_pi : T;
  epsilon : T; epsilon_x4 : T; epsilon_x30 : T;
  nan : T; infinity : T; neg_infinity : T; max_value : T; min_positive : T;
  (* conversions, numeric.rs:80-85: [of_Z] is from_u64/from_usize; [of_ratio n d] is from_f64 of the
     decimal literal n/d (both exactly representable, so that one correctly rounded division gives
     the literal); [to_usize] is the saturating cast [to_f64() as usize] *)
  of_Z : Z -> T; of_ratio : Z -> Z -> T; to_usize : T -> Z;
  (* arithmetic, numeric.rs:17-25 *)
  add : T -> T -> T; sub : T -> T -> T; mul : T -> T -> T; div : T -> T -> T; neg : T -> T;
  (* methods, numeric.rs:87-441 *)
  abs : T -> T; sqrt : T -> T; cbrt : T -> T; sin : T -> T; cos : T -> T; tan : T -> T;
  exp : T -> T; log : T -> T; expm1 : T -> T; ln_1p : T -> T; log2 : T -> T; log10 : T -> T;
  atan2 : T -> T -> T;
  copysign : T -> T -> T; floor : T -> T; ceil : T -> T; round : T -> T; trunc : T -> T;
  (* [clamp x lo hi]; [None] is a panic *)
  clamp : T -> T -> T -> option T;
  signum : T -> T; max : T -> T -> T; min : T -> T -> T;
  atan : T -> T; asin : T -> T; acos : T -> T; sinh : T -> T; cosh : T -> T; tanh : T -> T;
  hypot : T -> T -> T; powf : T -> T -> T; mul_add : T -> T -> T -> T; recip : T -> T;
  is_nan : T -> bool; is_finite : T -> bool; is_infinite : T -> bool;
  (* PartialEq, PartialOrd *)
  eqb : T -> T -> bool; ltb : T -> T -> bool; leb : T -> T -> bool
}.

Declare Scope num_scope.
Delimit Scope num_scope with num.
Infix "+" := add : num_scope.
Infix "-" := sub : num_scope.
Infix "*" := mul : num_scope.
Infix "/" := div : num_scope.
Notation "- x" := (neg x) : num_scope.
Infix "=?" := eqb : num_scope.
Infix "<?" := ltb : num_scope.
Infix "<=?" := leb : num_scope.
(* Rust's [a > b] and [a >= b] *)
Notation "x >? y" := (ltb y x) : num_scope.
Notation "x >=? y" := (leb y x) : num_scope.

Section Derived.
  Context {T : Type} {NT : Num T}.
  Local Open Scope num_scope.

  Definition of_nat (n : nat) : T := of_Z (Z.of_nat n).

  (** numeric.rs:419-433 *)
  Definition safe_div (x y : T) : T :=
    if y =? zero then
      if is_nan x then nan
      else if x <? zero then neg_infinity
      else if zero <? x then infinity
      else nan
    else x / y.

  (** numeric.rs:396-404, the loop of [powi] on [unsigned_abs]; structural on the exponent's bits *)
  Fixpoint powi_loop (exponent : positive) (base acc : T) : T :=
    match exponent with
    | xH => acc * base
    | xO e => powi_loop e (base * base) acc
    | xI e => powi_loop e (base * base) (acc * base)
    end.

  (** numeric.rs:391-407 *)
  Definition powi (x : T) (n : Z) : T :=
    match n with
    | Z0 => one
    | Zpos e => powi_loop e x one
    | Zneg e => one / powi_loop e x one
    end.

  (** numeric.rs:284-286 *)
  Definition wrap_to_pi (x : T) : T := x - two_pi * round (x / two_pi).
  (** numeric.rs:298-300 *)
  Definition to_radians (x : T) : T := x / one_eighty * pi.
  (** numeric.rs:312-314 *)
  Definition to_degrees (x : T) : T := x / pi * one_eighty.

  (** numeric.rs:253-255, 263-265: the default [max] and [min] *)
  Definition default_max (x y : T) : T := if x >? y then x else y.
  Definition default_min (x y : T) : T := if x <? y then x else y.

  (** numeric.rs:237-245 *)
  Definition default_signum (x : T) : T :=
    if x <? zero then - one else if x >? zero then one else zero.
  (** numeric.rs:318-320, 324-326, 330-332 *)
  Definition default_atan (x : T) : T := atan2 x one.
  Definition default_asin (x : T) : T := atan2 x (sqrt (one - x * x)).
  Definition default_acos (x : T) : T := atan2 (sqrt (one - x * x)) x.
  (** numeric.rs:336-338, 342-344, 348-350 *)
  Definition default_sinh (x : T) : T := (exp x - exp (- x)) * half.
  Definition default_cosh (x : T) : T := (exp x + exp (- x)) * half.
  Definition default_tanh (x : T) : T := safe_div (default_sinh x) (default_cosh x).
  (** numeric.rs:354-364 *)
  Definition default_hypot (x y : T) : T :=
    let a := abs x in
    let b := abs y in
    let '(mx, mn) := if a >? b then (a, b) else (b, a) in
    if mx =? zero then zero
    else
      let ratio := mn / mx in
      mx * sqrt (one + ratio * ratio).
  (** numeric.rs:369-371, 375-377, 381-383 *)
  Definition default_powf (x n : T) : T := exp (n * log x).
  Definition default_mul_add (x a b : T) : T := x * a + b.
  Definition default_recip (x : T) : T := safe_div one x.

  (** A plain sum from the left starting at ZERO, as the many accumulation loops of the library do. *)
  Definition sum_list (l : list T) : T := fold_left add l zero.
End Derived.

(** The instance whose fields with a default body in the trait (numeric.rs:237-383) are those bodies,
    and whose other fields are [B]'s.  The defaults do not read the fields they replace. *)
Definition with_defaults {T : Type} (B : Num T) : Num T := {|
  zero := zero; one := one; two := two; three := three; half := half; ten := ten;
  hundred := hundred; one_eighty := one_eighty; pi := pi; two_pi := two_pi;
  epsilon := epsilon; epsilon_x4 := epsilon_x4; epsilon_x30 := epsilon_x30;
  nan := nan; infinity := infinity; neg_infinity := neg_infinity; max_value := max_value;
  min_positive := min_positive; of_Z := of_Z; of_ratio := of_ratio; to_usize := to_usize;
  add := add; sub := sub; mul := mul; div := div; neg := neg;
  abs := abs; sqrt := sqrt; cbrt := cbrt; sin := sin; cos := cos; tan := tan;
  exp := exp; log := log; expm1 := expm1; ln_1p := ln_1p; log2 := log2; log10 := log10;
  atan2 := atan2; copysign := copysign; floor := floor; ceil := ceil; round := round;
  trunc := trunc; clamp := clamp;
  signum := default_signum; max := default_max; min := default_min;
  atan := default_atan; asin := default_asin; acos := default_acos; sinh := default_sinh;
  cosh := default_cosh; tanh := default_tanh; hypot := default_hypot; powf := default_powf;
  mul_add := default_mul_add; recip := default_recip;
  is_nan := is_nan; is_finite := is_finite; is_infinite := is_infinite;
  eqb := eqb; ltb := ltb; leb := leb
|}.
