(** IEEE 754 instances of the scalar interface: f64 (and f32), bit for bit, from Flocq.

    Functions that IEEE 754 does not fix are taken from a record [Libm] of arbitrary functions, so a
    theorem about [f64num lm] holds for every implementation of them. *)
From Coq Require Import ZArith Reals Bool Lia Lra.
From Flocq Require Import Core IEEE754.BinarySingleNaN.
From Verif Require Import Base.Scalar.
Local Open Scope Z_scope.

Record Libm (T : Type) := {
  lm_cbrt : T -> T; lm_sin : T -> T; lm_cos : T -> T; lm_tan : T -> T; lm_exp : T -> T; lm_log : T -> T;
  lm_expm1 : T -> T; lm_log1p : T -> T; lm_atan2 : T -> T -> T; lm_atan : T -> T; lm_asin : T -> T;
  lm_acos : T -> T; lm_sinh : T -> T; lm_cosh : T -> T; lm_tanh : T -> T; lm_hypot : T -> T -> T;
  lm_pow : T -> T -> T; lm_log2 : T -> T; lm_log10 : T -> T
}.
Arguments lm_cbrt {T}. Arguments lm_sin {T}. Arguments lm_cos {T}. Arguments lm_tan {T}.
Arguments lm_exp {T}. Arguments lm_log {T}. Arguments lm_expm1 {T}. Arguments lm_log1p {T}.
Arguments lm_atan2 {T}. Arguments lm_atan {T}. Arguments lm_asin {T}. Arguments lm_acos {T}.
Arguments lm_sinh {T}. Arguments lm_cosh {T}. Arguments lm_tanh {T}. Arguments lm_hypot {T}.
Arguments lm_pow {T}. Arguments lm_log2 {T}. Arguments lm_log10 {T}.

Section Float.
  Context (prec emax : Z).
  Context {Hp : Prec_gt_0 prec} {He : Prec_lt_emax prec emax}.
  Notation fl := (binary_float prec emax).

  (** Integer times a power of two, rounded to nearest even: [m as f64] when [e = 0]. *)
  Definition fof (m e : Z) : fl := binary_normalize prec emax Hp He mode_NE m e false.

  Definition fsign (x : fl) : bool := Bsign x.
  Definition fcopysign (x s : fl) : fl := if Bsign s then Bopp (Babs x) else Babs x.
  (** libm::fmax, libm::fmin: the operand that is not NaN *)
  Definition fmax (x y : fl) : fl :=
    if BinarySingleNaN.is_nan x then y
    else if BinarySingleNaN.is_nan y then x else if Bltb x y then y else x.
  Definition fmin (x y : fl) : fl :=
    if BinarySingleNaN.is_nan x then y
    else if BinarySingleNaN.is_nan y then x else if Bltb y x then y else x.
  (** core's f64::clamp: asserts [min <= max], which fails for NaN too *)
  Definition fclamp (x lo hi : fl) : option fl :=
    if Bleb lo hi then
      let x := if Bltb x lo then lo else x in
      Some (if Bltb hi x then hi else x)
    else None.
  (** [x as usize]: NaN to 0, saturating *)
  Definition fto_usize (x : fl) : Z :=
    match x with
    | B754_zero _ => 0
    | B754_infinity true => 0
    | B754_infinity false => 2 ^ 64 - 1
    | B754_nan => 0
    | B754_finite _ _ _ _ => Z.min (Z.max 0 (Btrunc x)) (2 ^ 64 - 1)
    end.
  Definition fsignum (x : fl) : fl :=
    if BinarySingleNaN.is_nan x then B754_nan else fcopysign (fof 1 0) x.

  Definition fnum (pi_m pi_e : Z) (lm : Libm fl) : Num fl := {|
    zero := B754_zero false; one := fof 1 0; two := fof 2 0; three := fof 3 0; half := fof 1 (-1);
    ten := fof 10 0; hundred := fof 100 0; one_eighty := fof 180 0;
    pi := fof pi_m pi_e; two_pi := fof pi_m (pi_e + 1);
    epsilon := fof 1 (1 - prec); epsilon_x4 := fof 4 (1 - prec); epsilon_x30 := fof 30 (1 - prec);
    nan := B754_nan; infinity := B754_infinity false; neg_infinity := B754_infinity true;
    max_value := fof (2 ^ prec - 1) (emax - prec); min_positive := fof 1 (2 - emax);
    of_Z n := fof n 0; of_ratio n d := Bdiv mode_NE (fof n 0) (fof d 0); to_usize := fto_usize;
    add := Bplus mode_NE; sub := Bminus mode_NE; mul := Bmult mode_NE; div := Bdiv mode_NE;
    neg := Bopp; abs := Babs; sqrt := Bsqrt mode_NE; cbrt := lm_cbrt lm;
    sin := lm_sin lm; cos := lm_cos lm; tan := lm_tan lm; exp := lm_exp lm; log := lm_log lm;
    expm1 := lm_expm1 lm; ln_1p := lm_log1p lm; log2 := lm_log2 lm; log10 := lm_log10 lm;
    atan2 := lm_atan2 lm;
    copysign := fcopysign;
    floor := Bnearbyint mode_DN; ceil := Bnearbyint mode_UP;
    round := Bnearbyint mode_NA; trunc := Bnearbyint mode_ZR;
    clamp := fclamp; signum := fsignum; max := fmax; min := fmin;
    atan := lm_atan lm; asin := lm_asin lm; acos := lm_acos lm; sinh := lm_sinh lm;
    cosh := lm_cosh lm; tanh := lm_tanh lm; hypot := lm_hypot lm; powf := lm_pow lm;
    mul_add := Bfma mode_NE; recip x := Bdiv mode_NE (fof 1 0) x;
    is_nan := BinarySingleNaN.is_nan; is_finite := BinarySingleNaN.is_finite;
    is_infinite x := match x with B754_infinity _ => true | _ => false end;
    eqb := Beqb; ltb := Bltb; leb := Bleb
  |}.
End Float.

#[global] Instance prec53 : Prec_gt_0 53 := eq_refl.
#[global] Instance prec_lt53 : Prec_lt_emax 53 1024 := eq_refl.
#[global] Instance prec24 : Prec_gt_0 24 := eq_refl.
#[global] Instance prec_lt24 : Prec_lt_emax 24 128 := eq_refl.

Notation f64 := (binary_float 53 1024).
Notation f32 := (binary_float 24 128).

(** PI is 0x400921FB54442D18 (f64) and 0x40490FDB (f32). *)
Definition f64num (lm : Libm f64) : Num f64 := fnum 53 1024 7074237752028440 (-51) lm.
Definition f32num (lm : Libm f32) : Num f32 := fnum 24 128 13176795 (-22) lm.

Definition F64 (m e : Z) : f64 := fof 53 1024 m e.
Definition F32 (m e : Z) : f32 := fof 24 128 m e.

(** Flocq's finiteness test, under a name that does not clash with the interface's. *)
Notation ffinite := (@BinarySingleNaN.is_finite _ _).
