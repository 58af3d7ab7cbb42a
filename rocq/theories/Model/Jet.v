(** crates/multicalc/src/scalar/jet.rs: truncated Taylor series, over any scalar.

    A [Jet<T, N>] is the list of its [N] coefficients.  [N] is a parameter of the operations; with
    [N = 0] the code does not compile past [constant] (it indexes an empty array), so theorems ask
    for [N] at least one.  Reads are [nth _ _ zero]; every index the code reads is below [N]. *)
From Coq Require Import ZArith List Bool.
From Verif Require Import Base.Scalar Base.Lists.
Import ListNotations.

Definition Jet (T : Type) := list T.

Section Jet.
  Context {T : Type} {NT : Num T} (N : nat).
  Local Open Scope num_scope.
  Notation J := (Jet T).
  Notation "a .[ k ]" := (nth k a zero) (at level 1, format "a .[ k ]").

  (** An accumulation loop [for i in l { acc += f(i) }]. *)
  Definition accumulate (l : list nat) (f : nat -> T) (acc : T) : T :=
    fold_left (fun acc i => acc + f i) l acc.
  (** An accumulation loop [for i in l { acc -= f(i) }]. *)
  Definition deduct (l : list nat) (f : nat -> T) (acc : T) : T :=
    fold_left (fun acc i => acc - f i) l acc.

  (** jet.rs:35-39, 45-51 *)
  Definition jet_constant (v : T) : J := set_nth (repeat zero N) 0 v.
  Definition jet_variable (v : T) : J := set_nth (set_nth (repeat zero N) 0 v) 1 one.
  (** jet.rs:56-58, 63-65; [None] is the out-of-range panic *)
  Definition jet_value (a : J) : T := a.[0].
  Definition jet_coefficient (a : J) (k : nat) : option T := nth_error a k.
  (** jet.rs:70-76 *)
  Definition jet_derivative (a : J) (k : nat) : option T :=
    let factorial := fold_left (fun f i => f * of_nat i) (seq 2 (k - 1)) one in
    match nth_error a k with Some c => Some (factorial * c) | None => None end.

  (** jet.rs:82-86, 92-96 *)
  Definition jet_add (a b : J) : J := from_fn N (fun k => a.[k] + b.[k]).
  Definition jet_sub (a b : J) : J := from_fn N (fun k => a.[k] - b.[k]).
  (** jet.rs:103-113 *)
  Definition jet_mul (a b : J) : J :=
    from_fn N (fun k => accumulate (seq 0 (S k)) (fun i => a.[i] * b.[k - i]) zero).
  (** jet.rs:121-132; the loop starts at 0 *)
  Definition jet_div_step (a b quot : J) (k : nat) : T :=
    deduct (seq 0 k) (fun i => quot.[i] * b.[k - i]) a.[k] / b.[0].
  Definition jet_div (a b : J) : J :=
    fold_left (fun quot k => set_nth quot k (jet_div_step a b quot k)) (seq 0 N) (repeat zero N).
  (** jet.rs:138-142 *)
  Definition jet_neg (a : J) : J := from_fn N (fun k => - a.[k]).

  (** An array of zeros with its first cell set. *)
  Definition start (v : T) : J := set_nth (repeat zero N) 0 v.

  (** jet.rs:194-214: two arrays filled together *)
  Definition sin_cos_step (c : J) (out : J * J) (k : nat) : J * J :=
    let '(sn, cs) := out in
    let weighted i := of_nat i * c.[i] in
    let sin_acc := accumulate (seq 1 k) (fun i => weighted i * cs.[k - i]) zero in
    let cos_acc := accumulate (seq 1 k) (fun i => weighted i * sn.[k - i]) zero in
    let kth := of_nat k in
    (set_nth sn k (sin_acc / kth), set_nth cs k (- (cos_acc / kth))).
  Definition jet_sin_cos (c : J) : J * J :=
    fold_left (sin_cos_step c) (seq 1 (N - 1)) (start (sin c.[0]), start (cos c.[0])).

  (** jet.rs:254-263 *)
  Definition jet_abs (a : J) : J :=
    let sign := if a.[0] <? zero then - one else one in from_fn N (fun k => sign * a.[k]).
  (** jet.rs:267-279 *)
  Definition jet_sqrt (a : J) : J :=
    fill N (fun out k =>
      let acc := accumulate (seq 1 (k - 1)) (fun i => out.[i] * out.[k - i]) zero in
      (a.[k] - acc) / (two * out.[0])) (start (sqrt a.[0])).
  (** jet.rs:292-319: [out] and its square [w] filled together *)
  Definition cbrt_step (a : J) (three_u0_sq : T) (st : J * J) (k : nat) : J * J :=
    let '(out, w) := st in
    let power_sum := accumulate (seq 1 (k - 1)) (fun i => out.[i] * out.[k - i]) zero in
    let acc := accumulate (seq 1 (k - 1)) (fun i => out.[i] * w.[k - i]) (out.[0] * power_sum) in
    let out' := set_nth out k ((a.[k] - acc) / three_u0_sq) in
    (out', set_nth w k (power_sum + two * out'.[0] * out'.[k])).
  Definition jet_cbrt (a : J) : J :=
    let u0 := cbrt a.[0] in
    let w0 := u0 * u0 in
    fst (fold_left (cbrt_step a (w0 + two * w0)) (seq 1 (N - 1)) (start u0, start w0)).
  (** jet.rs:322-324, 327-329, 332-335 *)
  Definition jet_sin (a : J) : J := fst (jet_sin_cos a).
  Definition jet_cos (a : J) : J := snd (jet_sin_cos a).
  Definition jet_tan (a : J) : J := let (s, c) := jet_sin_cos a in jet_div s c.
  (** jet.rs:339-351 *)
  Definition jet_exp (a : J) : J :=
    fill N (fun out k =>
      accumulate (seq 1 k) (fun i => of_nat i * a.[i] * out.[k - i]) zero / of_nat k)
      (start (exp a.[0])).
  (** jet.rs:354-359 *)
  Definition jet_expm1 (a : J) : J := set_nth (jet_exp a) 0 (expm1 a.[0]).
  (** jet.rs:363-375, 379-392 *)
  Definition log_step (a : J) (denom : T) (out : J) (k : nat) : T :=
    let acc := accumulate (seq 1 (k - 1)) (fun j => of_nat j * out.[j] * a.[k - j]) zero in
    (a.[k] - acc / of_nat k) / denom.
  Definition jet_log (a : J) : J := fill N (log_step a a.[0]) (start (log a.[0])).
  Definition jet_ln_1p (a : J) : J := fill N (log_step a (a.[0] + one)) (start (ln_1p a.[0])).
  (** jet.rs:395-402, 405-412 *)
  Definition jet_log2 (a : J) : J := let ln2 := log two in map (fun x => x / ln2) (jet_log a).
  Definition jet_log10 (a : J) : J := let ln10 := log ten in map (fun x => x / ln10) (jet_log a).
  (** jet.rs:418-438 *)
  Definition atan2_step (y x w out : J) (k : nat) : T :=
    let acc := accumulate (seq 0 k)
                 (fun i => of_nat (k - i) * (x.[i] * y.[k - i] - y.[i] * x.[k - i])) zero in
    let acc := deduct (seq 1 (k - 1)) (fun i => w.[i] * of_nat (k - i) * out.[k - i]) acc in
    acc / (of_nat k * w.[0]).
  Definition jet_atan2 (y x : J) : J :=
    let w := jet_add (jet_mul x x) (jet_mul y y) in
    fill N (atan2_step y x w) (start (atan2 y.[0] x.[0])).
  (** jet.rs:442-451 *)
  Definition jet_copysign (a s : J) : J :=
    let sign_scale := if Bool.eqb (a.[0] <? zero) (s.[0] <? zero) then one else - one in
    set_nth (from_fn N (fun k => sign_scale * a.[k])) 0 (copysign a.[0] s.[0]).
  (** jet.rs:455-457, 461-463, 467-469, 474-476 *)
  Definition jet_floor (a : J) : J := jet_constant (floor a.[0]).
  Definition jet_ceil (a : J) : J := jet_constant (ceil a.[0]).
  Definition jet_round (a : J) : J := jet_constant (round a.[0]).
  Definition jet_trunc (a : J) : J := jet_constant (trunc a.[0]).
  (** jet.rs:483-491 *)
  Definition jet_clamp (a : J) (mn mx : T) : J :=
    if a.[0] <? mn then jet_constant mn
    else if mx <? a.[0] then jet_constant mx
    else a.

  (** jet.rs:217-512 (impl Numeric) with the trait's defaults for the rest; comparisons are
      jet.rs:176-188.  See Model/Dual.v for [clamp] and [to_usize]. *)
  Definition jet_base : Num J := {|
    zero := jet_constant zero; one := jet_constant one; two := jet_constant two;
    three := jet_constant three; half := jet_constant half; ten := jet_constant ten;
    hundred := jet_constant hundred; one_eighty := jet_constant one_eighty;
    pi := jet_constant pi; two_pi := jet_constant two_pi;
    epsilon := jet_constant epsilon; epsilon_x4 := jet_constant epsilon_x4;
    epsilon_x30 := jet_constant epsilon_x30; nan := jet_constant nan;
    infinity := jet_constant infinity; neg_infinity := jet_constant neg_infinity;
    max_value := jet_constant max_value; min_positive := jet_constant min_positive;
    of_Z n := jet_constant (of_Z n); of_ratio n d := jet_constant (of_ratio n d);
    to_usize x := to_usize (jet_value x);
    add := jet_add; sub := jet_sub; mul := jet_mul; div := jet_div; neg := jet_neg;
    abs := jet_abs; sqrt := jet_sqrt; cbrt := jet_cbrt; sin := jet_sin; cos := jet_cos;
    tan := jet_tan; exp := jet_exp; log := jet_log; expm1 := jet_expm1; ln_1p := jet_ln_1p;
    log2 := jet_log2; log10 := jet_log10; atan2 := jet_atan2; copysign := jet_copysign;
    floor := jet_floor; ceil := jet_ceil; round := jet_round; trunc := jet_trunc;
    clamp x mn mx := Some (jet_clamp x (jet_value mn) (jet_value mx));
    (* replaced by the defaults *)
    signum x := x; max x _ := x; min x _ := x; atan x := x; asin x := x; acos x := x;
    sinh x := x; cosh x := x; tanh x := x; hypot x _ := x; powf x _ := x; mul_add x _ _ := x;
    recip x := x;
    is_nan x := is_nan (jet_value x); is_finite x := is_finite (jet_value x);
    is_infinite x := is_infinite (jet_value x);
    eqb x y := jet_value x =? jet_value y; ltb x y := jet_value x <? jet_value y;
    leb x y := jet_value x <=? jet_value y
  |}.
  Definition jet_num : Num J := with_defaults jet_base.
End Jet.
