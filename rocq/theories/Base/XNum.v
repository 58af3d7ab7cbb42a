(** Exact reals with the IEEE infinities and NaN.

    Rounding is ignored, as in [Rnum], but the infinities and NaN follow IEEE 754: a comparison with
    NaN is false, [max]/[min] return the operand that is not NaN, an operation with no value is NaN.
    There is one zero, so [x / 0] takes its sign from [x] (a positive zero divisor).  Functions of
    an infinite argument with a limit return the limit; the others (sin, powf ...) return NaN. *)
From Coq Require Import ZArith Reals Lra Lia Bool.
From Flocq Require Import Core.Raux.
From Verif Require Import Base.Scalar Base.RNum.
Local Open Scope R_scope.

Inductive XR := Fin (r : R) | PInf | NInf | XNaN.

Definition xneg (x : XR) : XR := match x with Fin r => Fin (- r) | PInf => NInf | NInf => PInf | XNaN => XNaN end.
Definition xadd (x y : XR) : XR :=
  match x, y with
  | XNaN, _ | _, XNaN => XNaN
  | Fin a, Fin b => Fin (a + b)
  | PInf, NInf | NInf, PInf => XNaN
  | PInf, _ | _, PInf => PInf
  | NInf, _ | _, NInf => NInf
  end.
(** The infinity whose sign is that of [r] times [s]'s. *)
Definition xsigned (positive : bool) (r : R) : XR :=
  if Req_EM_T r 0 then XNaN else if Rlt_dec 0 r then (if positive then PInf else NInf) else (if positive then NInf else PInf).
Definition xmul (x y : XR) : XR :=
  match x, y with
  | XNaN, _ | _, XNaN => XNaN
  | Fin a, Fin b => Fin (a * b)
  | PInf, Fin b => xsigned true b
  | NInf, Fin b => xsigned false b
  | Fin a, PInf => xsigned true a
  | Fin a, NInf => xsigned false a
  | PInf, PInf | NInf, NInf => PInf
  | PInf, NInf | NInf, PInf => NInf
  end.
Definition xdiv (x y : XR) : XR :=
  match x, y with
  | XNaN, _ | _, XNaN => XNaN
  | Fin a, Fin b => if Req_EM_T b 0 then xsigned true a else Fin (a / b)
  | Fin _, _ => Fin 0
  | PInf, Fin b => if Rlt_dec b 0 then NInf else PInf
  | NInf, Fin b => if Rlt_dec b 0 then PInf else NInf
  | _, _ => XNaN
  end.
Definition xlt (x y : XR) : bool :=
  match x, y with
  | XNaN, _ | _, XNaN => false
  | Fin a, Fin b => Rltb a b
  | NInf, NInf => false | NInf, _ => true | _, NInf => false
  | PInf, _ => false | _, PInf => true
  end.
Definition xle (x y : XR) : bool :=
  match x, y with
  | XNaN, _ | _, XNaN => false
  | Fin a, Fin b => Rleb a b
  | NInf, _ => true | _, NInf => false
  | _, PInf => true | PInf, _ => false
  end.
Definition xeq (x y : XR) : bool :=
  match x, y with
  | Fin a, Fin b => Reqb a b
  | PInf, PInf | NInf, NInf => true
  | _, _ => false
  end.
Definition xis_nan (x : XR) : bool := match x with XNaN => true | _ => false end.
Definition xmax (x y : XR) : XR := if xis_nan x then y else if xis_nan y then x else if xlt x y then y else x.
Definition xmin (x y : XR) : XR := if xis_nan x then y else if xis_nan y then x else if xlt y x then y else x.
(** A real function with the values it takes at the two infinities. *)
Definition lift (f : R -> R) (at_neg at_pos : XR) (x : XR) : XR :=
  match x with Fin r => Fin (f r) | PInf => at_pos | NInf => at_neg | XNaN => XNaN end.
Definition lift2 (f : R -> R -> R) (x y : XR) : XR := match x, y with Fin a, Fin b => Fin (f a b) | _, _ => XNaN end.
Definition xsqrt (x : XR) : XR :=
  match x with Fin r => if Rlt_dec r 0 then XNaN else Fin (R_sqrt.sqrt r) | PInf => PInf | _ => XNaN end.
Definition xlog (f : R -> R) (x : XR) : XR :=
  match x with Fin r => if Rlt_dec r 0 then XNaN else if Req_EM_T r 0 then NInf else Fin (f r) | PInf => PInf | _ => XNaN end.
Definition xhypot (x y : XR) : XR :=
  match x, y with
  | PInf, _ | NInf, _ | _, PInf | _, NInf => PInf
  | XNaN, _ | _, XNaN => XNaN
  | Fin a, Fin b => Fin (R_sqrt.sqrt (a * a + b * b))
  end.

#[global] Instance Xnum : Num XR := {|
  zero := Fin 0; one := Fin 1; two := Fin 2; three := Fin 3; half := Fin (/2); ten := Fin 10;
  hundred := Fin 100; one_eighty := Fin 180; pi := Fin PI; two_pi := Fin (PI * 2);
  epsilon := Fin epsilon; epsilon_x4 := Fin epsilon_x4; epsilon_x30 := Fin epsilon_x30;
  nan := XNaN; infinity := PInf; neg_infinity := NInf;
  max_value := Fin max_value; min_positive := Fin min_positive;
  of_Z n := Fin (IZR n); of_ratio n d := Fin (IZR n / IZR d);
  to_usize x := match x with Fin r => to_usize r | PInf => two64m1 | NInf | XNaN => 0%Z end;
  add := xadd; sub x y := xadd x (xneg y); mul := xmul; div := xdiv; neg := xneg;
  abs := lift Rabs PInf PInf; sqrt := xsqrt; cbrt := lift Rcbrt NInf PInf;
  sin := lift Rtrigo_def.sin XNaN XNaN; cos := lift Rtrigo_def.cos XNaN XNaN; tan := lift Rtrigo1.tan XNaN XNaN;
  exp := lift Rtrigo_def.exp (Fin 0) PInf; log := xlog ln;
  expm1 := lift (fun x => Rtrigo_def.exp x - 1) (Fin (-1)) PInf; ln_1p x := xlog ln (xadd (Fin 1) x);
  log2 := xlog (fun x => ln x / ln 2); log10 := xlog (fun x => ln x / ln 10);
  atan2 := lift2 Ratan2;
  copysign x s := match s with
                  | Fin r => lift (fun x => Rcopysign x r) (if Rlt_dec r 0 then NInf else PInf) (if Rlt_dec r 0 then NInf else PInf) x
                  | NInf => lift (fun x => - Rabs x) NInf NInf x
                  | _ => lift Rabs PInf PInf x
                  end;
  floor := lift (fun x => IZR (Zfloor x)) NInf PInf; ceil := lift (fun x => IZR (Zceil x)) NInf PInf;
  round := lift Rround_away NInf PInf; trunc := lift (fun x => IZR (Ztrunc x)) NInf PInf;
  clamp x lo hi := if xle lo hi then
                     let x := if xlt x lo then lo else x in
                     Some (if xlt hi x then hi else x)
                   else None;
  signum := lift Rsignum (Fin (-1)) (Fin 1); max := xmax; min := xmin;
  atan := lift Ratan.atan (Fin (- (PI / 2))) (Fin (PI / 2)); asin := lift Ratan.asin XNaN XNaN; acos := lift Ratan.acos XNaN XNaN;
  sinh := lift Rtrigo_def.sinh NInf PInf; cosh := lift Rtrigo_def.cosh PInf PInf; tanh := lift Rtrigo_def.tanh (Fin (-1)) (Fin 1);
  hypot := xhypot; powf := lift2 Rpower;
  mul_add x a b := xadd (xmul x a) b; recip x := xdiv (Fin 1) x;
  is_nan := xis_nan;
  is_finite x := match x with Fin _ => true | _ => false end;
  is_infinite x := match x with PInf | NInf => true | _ => false end;
  eqb := xeq; ltb := xlt; leb := xle
|}.

(** Turn the interface's operations at [XR] on finite values into real ones. *)
Ltac xnum :=
  cbn [zero one two three half ten hundred one_eighty pi two_pi nan infinity neg_infinity
       of_Z of_ratio to_usize add sub mul div neg abs sqrt cbrt sin cos tan exp log
       copysign floor ceil round trunc clamp signum max min hypot
       mul_add recip is_nan is_finite is_infinite eqb ltb leb Rnum Xnum
       xadd xneg xmul xlt xle xeq xis_nan lift lift2 xhypot] in *.

Lemma xdiv_fin a b : b <> 0 -> xdiv (Fin a) (Fin b) = Fin (a / b).
Proof. intros H. cbn. destruct (Req_EM_T b 0); [contradiction|reflexivity]. Qed.
Lemma xmax_fin a b : xmax (Fin a) (Fin b) = Fin (Rmax a b).
Proof. unfold xmax. cbn. destruct (Rltb a b) eqn:E; rcases; f_equal; [rewrite Rmax_right|rewrite Rmax_left]; lra. Qed.
Lemma xmin_fin a b : xmin (Fin a) (Fin b) = Fin (Rmin a b).
Proof. unfold xmin. cbn. destruct (Rltb b a) eqn:E; rcases; f_equal; [rewrite Rmin_right|rewrite Rmin_left]; lra. Qed.
