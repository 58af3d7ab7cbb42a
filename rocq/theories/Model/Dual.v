(** crates/multicalc/src/scalar/dual.rs: forward-mode dual numbers, over any scalar. *)
From Coq Require Import ZArith List Bool.
From Verif Require Import Base.Scalar.

(** dual.rs:18-23 *)
Record Dual (T : Type) := mkDual { value : T; deriv : T }.
Arguments mkDual {T}. Arguments value {T}. Arguments deriv {T}.

Section Dual.
  Context {T : Type} {NT : Num T}.
  Local Open Scope num_scope.
  Notation D := (Dual T).

  (** dual.rs:36-41, 46-51 *)
  Definition dual_constant (v : T) : D := mkDual v zero.
  Definition dual_variable (v : T) : D := mkDual v one.

  (** dual.rs:57-62, 68-73 *)
  Definition dual_add (x y : D) : D := mkDual (value x + value y) (deriv x + deriv y).
  Definition dual_sub (x y : D) : D := mkDual (value x - value y) (deriv x - deriv y).
  (** dual.rs:80-85 *)
  Definition dual_mul (x y : D) : D :=
    mkDual (value x * value y) (value x * deriv y + deriv x * value y).
  (** dual.rs:93-98 *)
  Definition dual_div (x y : D) : D :=
    mkDual (value x / value y)
           ((deriv x * value y - value x * deriv y) / (value y * value y)).
  (** dual.rs:104-109 *)
  Definition dual_neg (x : D) : D := mkDual (- value x) (- deriv x).
  (** dual.rs:248-258 *)
  Definition dual_abs (x : D) : D :=
    mkDual (abs (value x)) (if value x <? zero then - deriv x else deriv x).
  (** dual.rs:261-267, 270-276 *)
  Definition dual_sqrt (x : D) : D :=
    let root := sqrt (value x) in mkDual root (deriv x / (two * root)).
  Definition dual_cbrt (x : D) : D :=
    let root := cbrt (value x) in mkDual root (deriv x / (three * root * root)).
  (** dual.rs:278-283, 285-290, 292-298 *)
  Definition dual_sin (x : D) : D := mkDual (sin (value x)) (cos (value x) * deriv x).
  Definition dual_cos (x : D) : D := mkDual (cos (value x)) (- sin (value x) * deriv x).
  Definition dual_tan (x : D) : D :=
    let tan_val := tan (value x) in mkDual tan_val ((one + tan_val * tan_val) * deriv x).
  (** dual.rs:300-306, 308-315 *)
  Definition dual_exp (x : D) : D :=
    let exp_val := exp (value x) in mkDual exp_val (exp_val * deriv x).
  Definition dual_expm1 (x : D) : D :=
    let exp_val := exp (value x) in
    let em1 := expm1 (value x) in
    mkDual em1 (exp_val * deriv x).
  (** dual.rs:318-323, 326-331, 334-339, 342-347 *)
  Definition dual_log (x : D) : D := mkDual (log (value x)) (deriv x / value x).
  Definition dual_ln_1p (x : D) : D := mkDual (ln_1p (value x)) (deriv x / (value x + one)).
  Definition dual_log2 (x : D) : D := mkDual (log2 (value x)) (deriv x / value x / log two).
  Definition dual_log10 (x : D) : D := mkDual (log10 (value x)) (deriv x / value x / log ten).
  (** dual.rs:352-358 *)
  Definition dual_atan2 (y x : D) : D :=
    let denom := value y * value y + value x * value x in
    mkDual (atan2 (value y) (value x)) ((value x * deriv y - value y * deriv x) / denom).
  (** dual.rs:362-368 *)
  Definition dual_copysign (x s : D) : D :=
    let same := Bool.eqb (value x <? zero) (value s <? zero) in
    mkDual (copysign (value x) (value s)) (if same then deriv x else - deriv x).
  (** dual.rs:371-376, 380-385, 389-394, 399-404 *)
  Definition dual_floor (x : D) : D := mkDual (floor (value x)) zero.
  Definition dual_ceil (x : D) : D := mkDual (ceil (value x)) zero.
  Definition dual_round (x : D) : D := mkDual (round (value x)) zero.
  Definition dual_trunc (x : D) : D := mkDual (trunc (value x)) zero.
  (** dual.rs:411-425.  The bounds are plain scalars. *)
  Definition dual_clamp (x : D) (mn mx : T) : D :=
    if value x <? mn then mkDual mn zero
    else if mx <? value x then mkDual mx zero
    else x.

  (** dual.rs:157-446 (impl Numeric), with the trait's defaults for the methods it leaves out; the
      comparisons are dual.rs:143-155.  The interface's [clamp] has bounds of the same type as the
      number; they are read through their values, which is what passing a plain scalar does.
      [to_usize] is a cast only plain floats have; it reads the value. *)
  Definition dual_base : Num D := {|
    zero := dual_constant zero; one := dual_constant one; two := dual_constant two;
    three := dual_constant three; half := dual_constant half; ten := dual_constant ten;
    hundred := dual_constant hundred; one_eighty := dual_constant one_eighty;
    pi := dual_constant pi; two_pi := dual_constant two_pi;
    epsilon := dual_constant epsilon; epsilon_x4 := dual_constant epsilon_x4;
    epsilon_x30 := dual_constant epsilon_x30; nan := dual_constant nan;
    infinity := dual_constant infinity; neg_infinity := dual_constant neg_infinity;
    max_value := dual_constant max_value; min_positive := dual_constant min_positive;
    of_Z n := dual_constant (of_Z n); of_ratio n d := dual_constant (of_ratio n d);
    to_usize x := to_usize (value x);
    add := dual_add; sub := dual_sub; mul := dual_mul; div := dual_div; neg := dual_neg;
    abs := dual_abs; sqrt := dual_sqrt; cbrt := dual_cbrt; sin := dual_sin; cos := dual_cos;
    tan := dual_tan; exp := dual_exp; log := dual_log; expm1 := dual_expm1; ln_1p := dual_ln_1p;
    log2 := dual_log2; log10 := dual_log10; atan2 := dual_atan2; copysign := dual_copysign;
    floor := dual_floor; ceil := dual_ceil; round := dual_round; trunc := dual_trunc;
    clamp x mn mx := Some (dual_clamp x (value mn) (value mx));
    (* replaced by the defaults *)
    signum x := x; max x _ := x; min x _ := x; atan x := x; asin x := x; acos x := x;
    sinh x := x; cosh x := x; tanh x := x; hypot x _ := x; powf x _ := x; mul_add x _ _ := x;
    recip x := x;
    is_nan x := is_nan (value x); is_finite x := is_finite (value x);
    is_infinite x := is_infinite (value x);
    eqb x y := value x =? value y; ltb x y := value x <? value y; leb x y := value x <=? value y
  |}.
  Definition dual_num : Num D := with_defaults dual_base.
End Dual.
