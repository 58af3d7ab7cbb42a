(** crates/multicalc/src/scalar/hyper_dual.rs: second-order dual numbers, over any scalar. *)
From Coq Require Import ZArith List Bool.
From Verif Require Import Base.Scalar.

(** hyper_dual.rs:20-29 *)
Record HyperDual (T : Type) := mkHyper { real : T; eps1 : T; eps2 : T; eps1eps2 : T }.
Arguments mkHyper {T}. Arguments real {T}. Arguments eps1 {T}. Arguments eps2 {T}.
Arguments eps1eps2 {T}.

Section HyperDual.
  Context {T : Type} {NT : Num T}.
  Local Open Scope num_scope.
  Notation H := (HyperDual T).

  (** hyper_dual.rs:47-54, 61-68 *)
  Definition hyper_constant (v : T) : H := mkHyper v zero zero zero.
  Definition hyper_variable (v : T) : H := mkHyper v one one zero.

  (** hyper_dual.rs:76-83 *)
  Definition hyper_chain (x : H) (val deriv1 deriv2 : T) : H :=
    mkHyper val (deriv1 * eps1 x) (deriv1 * eps2 x)
            (deriv1 * eps1eps2 x + deriv2 * eps1 x * eps2 x).
  (** hyper_dual.rs:88-91, the private reciprocal used by division *)
  Definition hyper_inv (x : H) : H :=
    let inv := one / real x in hyper_chain x inv (- (inv * inv)) (two * inv * inv * inv).

  (** hyper_dual.rs:97-104, 110-117 *)
  Definition hyper_add (x y : H) : H :=
    mkHyper (real x + real y) (eps1 x + eps1 y) (eps2 x + eps2 y) (eps1eps2 x + eps1eps2 y).
  Definition hyper_sub (x y : H) : H :=
    mkHyper (real x - real y) (eps1 x - eps1 y) (eps2 x - eps2 y) (eps1eps2 x - eps1eps2 y).
  (** hyper_dual.rs:125-135 *)
  Definition hyper_mul (x y : H) : H :=
    mkHyper (real x * real y)
            (real x * eps1 y + eps1 x * real y)
            (real x * eps2 y + eps2 x * real y)
            (real x * eps1eps2 y + eps1 x * eps2 y + eps2 x * eps1 y + eps1eps2 x * real y).
  (** hyper_dual.rs:143-145 *)
  Definition hyper_div (x y : H) : H := hyper_mul x (hyper_inv y).
  (** hyper_dual.rs:151-158 *)
  Definition hyper_neg (x : H) : H := mkHyper (- real x) (- eps1 x) (- eps2 x) (- eps1eps2 x).
  (** hyper_dual.rs:334-337 *)
  Definition hyper_abs (x : H) : H :=
    let sign := if real x <? zero then - one else one in
    hyper_chain x (abs (real x)) sign zero.
  (** hyper_dual.rs:340-345, 348-353 *)
  Definition hyper_sqrt (x : H) : H :=
    let root := sqrt (real x) in
    let deriv1 := one / (two * root) in
    let deriv2 := - (deriv1 / (two * real x)) in
    hyper_chain x root deriv1 deriv2.
  Definition hyper_cbrt (x : H) : H :=
    let root := cbrt (real x) in
    let deriv1 := one / (three * root * root) in
    let deriv2 := - (two * deriv1 * deriv1 / root) in
    hyper_chain x root deriv1 deriv2.
  (** hyper_dual.rs:355-357, 359-361, 363-367 *)
  Definition hyper_sin (x : H) : H := hyper_chain x (sin (real x)) (cos (real x)) (- sin (real x)).
  Definition hyper_cos (x : H) : H :=
    hyper_chain x (cos (real x)) (- sin (real x)) (- cos (real x)).
  Definition hyper_tan (x : H) : H :=
    let tan_val := tan (real x) in
    let sec2 := one + tan_val * tan_val in
    hyper_chain x tan_val sec2 (two * tan_val * sec2).
  (** hyper_dual.rs:369-372, 374-378 *)
  Definition hyper_exp (x : H) : H :=
    let exp_val := exp (real x) in hyper_chain x exp_val exp_val exp_val.
  Definition hyper_expm1 (x : H) : H :=
    let exp_val := exp (real x) in
    let em1 := expm1 (real x) in
    hyper_chain x em1 exp_val exp_val.
  (** hyper_dual.rs:381-387, 390-393, 396-403, 406-413 *)
  Definition hyper_log (x : H) : H :=
    hyper_chain x (log (real x)) (one / real x) (- (one / (real x * real x))).
  Definition hyper_ln_1p (x : H) : H :=
    let xp1 := real x + one in
    hyper_chain x (ln_1p (real x)) (one / xp1) (- (one / (xp1 * xp1))).
  Definition hyper_log2 (x : H) : H :=
    let ln2 := log two in
    hyper_chain x (log2 (real x)) (one / real x / ln2) (- (one / (real x * real x)) / ln2).
  Definition hyper_log10 (x : H) : H :=
    let ln10 := log ten in
    hyper_chain x (log10 (real x)) (one / real x / ln10) (- (one / (real x * real x)) / ln10).
  (** hyper_dual.rs:421-441 *)
  Definition hyper_atan2 (y x : H) : H :=
    let y_real := real y in
    let x_real := real x in
    let r_sq := x_real * x_real + y_real * y_real in
    let r_fourth := r_sq * r_sq in
    let f_y := x_real / r_sq in
    let f_x := - y_real / r_sq in
    let f_yy := - (two * x_real * y_real) / r_fourth in
    let f_xx := (two * x_real * y_real) / r_fourth in
    let f_xy := (y_real * y_real - x_real * x_real) / r_fourth in
    mkHyper (atan2 y_real x_real)
            (f_y * eps1 y + f_x * eps1 x)
            (f_y * eps2 y + f_x * eps2 x)
            (f_y * eps1eps2 y + f_x * eps1eps2 x + f_yy * eps1 y * eps2 y + f_xx * eps1 x * eps2 x
             + f_xy * (eps1 y * eps2 x + eps2 y * eps1 x)).
  (** hyper_dual.rs:445-452 *)
  Definition hyper_copysign (x s : H) : H :=
    let sign_scale := if Bool.eqb (real x <? zero) (real s <? zero) then one else - one in
    hyper_chain x (copysign (real x) (real s)) sign_scale zero.
  (** hyper_dual.rs:455-462, 465-472, 476-483, 488-495 *)
  Definition hyper_floor (x : H) : H := mkHyper (floor (real x)) zero zero zero.
  Definition hyper_ceil (x : H) : H := mkHyper (ceil (real x)) zero zero zero.
  Definition hyper_round (x : H) : H := mkHyper (round (real x)) zero zero zero.
  Definition hyper_trunc (x : H) : H := mkHyper (trunc (real x)) zero zero zero.
  (** hyper_dual.rs:502-520 *)
  Definition hyper_clamp (x : H) (mn mx : T) : H :=
    if real x <? mn then mkHyper mn zero zero zero
    else if mx <? real x then mkHyper mx zero zero zero
    else x.

  (** hyper_dual.rs:206-539 (impl Numeric) with the trait's defaults for the rest; comparisons are
      hyper_dual.rs:192-204.  See Model/Dual.v for [clamp] and [to_usize]. *)
  Definition hyper_base : Num H := {|
    zero := hyper_constant zero; one := hyper_constant one; two := hyper_constant two;
    three := hyper_constant three; half := hyper_constant half; ten := hyper_constant ten;
    hundred := hyper_constant hundred; one_eighty := hyper_constant one_eighty;
    pi := hyper_constant pi; two_pi := hyper_constant two_pi;
    epsilon := hyper_constant epsilon; epsilon_x4 := hyper_constant epsilon_x4;
    epsilon_x30 := hyper_constant epsilon_x30; nan := hyper_constant nan;
    infinity := hyper_constant infinity; neg_infinity := hyper_constant neg_infinity;
    max_value := hyper_constant max_value; min_positive := hyper_constant min_positive;
    of_Z n := hyper_constant (of_Z n); of_ratio n d := hyper_constant (of_ratio n d);
    to_usize x := to_usize (real x);
    add := hyper_add; sub := hyper_sub; mul := hyper_mul; div := hyper_div; neg := hyper_neg;
    abs := hyper_abs; sqrt := hyper_sqrt; cbrt := hyper_cbrt; sin := hyper_sin; cos := hyper_cos;
    tan := hyper_tan; exp := hyper_exp; log := hyper_log; expm1 := hyper_expm1;
    ln_1p := hyper_ln_1p; log2 := hyper_log2; log10 := hyper_log10; atan2 := hyper_atan2;
    copysign := hyper_copysign; floor := hyper_floor; ceil := hyper_ceil; round := hyper_round;
    trunc := hyper_trunc; clamp x mn mx := Some (hyper_clamp x (real mn) (real mx));
    (* replaced by the defaults *)
    signum x := x; max x _ := x; min x _ := x; atan x := x; asin x := x; acos x := x;
    sinh x := x; cosh x := x; tanh x := x; hypot x _ := x; powf x _ := x; mul_add x _ _ := x;
    recip x := x;
    is_nan x := is_nan (real x); is_finite x := is_finite (real x);
    is_infinite x := is_infinite (real x);
    eqb x y := real x =? real y; ltb x y := real x <? real y; leb x y := real x <=? real y
  |}.
  Definition hyper_num : Num H := with_defaults hyper_base.
End HyperDual.
