(** crates/multicalc/src/random.rs *)
From Coq Require Import ZArith List Bool.
From Flocq Require Import IEEE754.BinarySingleNaN.
From Verif Require Import Base.Scalar Base.FNum.
Local Open Scope Z_scope.

(** Rust's u64 and u32 as integers reduced modulo 2^64 and 2^32. *)
Definition u64 (x : Z) : Z := x mod 2 ^ 64.
Definition u32 (x : Z) : Z := x mod 2 ^ 32.

(** random.rs:144 *)
Definition PCG_MULTIPLIER : Z := 6364136223846793005.
(** random.rs:149, 0xda3e39cb94b95bdb *)
Definition DEFAULT_STREAM : Z := 15726070495360670683.

(** u32::rotate_right *)
Definition rotate_right32 (x r : Z) : Z :=
  Z.lor (Z.shiftr x (r mod 32)) (u32 (Z.shiftl x ((32 - r mod 32) mod 32))).

Section Pcg.
  Context {T : Type}.

  (** random.rs:86-90 *)
  Record Pcg32 := mkPcg { state : Z; increment : Z; cache : option T }.

  (** random.rs:116-130 *)
  Definition next_u32 (g : Pcg32) : Z * Pcg32 :=
    let previous := state g in
    let g' := mkPcg (u64 (u64 (previous * PCG_MULTIPLIER) + increment g)) (increment g) (cache g) in
    let xorshifted := u32 (Z.shiftr (Z.lxor (Z.shiftr previous 18) previous) 27) in
    let rotation := u32 (Z.shiftr previous 59) in
    (rotate_right32 xorshifted rotation, g').

  (** random.rs:21-23 *)
  Definition next_u64 (g : Pcg32) : Z * Pcg32 :=
    let (hi, g1) := next_u32 g in
    let (lo, g2) := next_u32 g1 in
    (Z.lor (Z.shiftl hi 32) lo, g2).

  (** random.rs:102-112; [stream << 1] drops the top bit *)
  Definition with_stream (seed stream : Z) : Pcg32 :=
    let g := mkPcg 0 (Z.lor (u64 (Z.shiftl stream 1)) 1) None in
    let (_, g1) := next_u32 g in
    let g2 := mkPcg (u64 (state g1 + seed)) (increment g1) (cache g1) in
    let (_, g3) := next_u32 g2 in
    g3.

  (** random.rs:95-97 *)
  Definition new (seed : Z) : Pcg32 := with_stream seed DEFAULT_STREAM.

  (** random.rs:132-138 *)
  Definition set_cache (g : Pcg32) (v : T) : Pcg32 := mkPcg (state g) (increment g) (Some v).
  Definition get_cache (g : Pcg32) : option T * Pcg32 :=
    (cache g, mkPcg (state g) (increment g) None).
End Pcg.
Arguments Pcg32 T : clear implicits.

(** random.rs:67-70 *)
Definition next_unit_f64 (g : Pcg32 f64) : f64 * Pcg32 f64 :=
  let (w, g') := next_u64 g in
  (Bmult mode_NE (F64 (Z.shiftr w 11) 0) (Bdiv mode_NE (F64 1 0) (F64 (Z.shiftl 1 53) 0)), g').

(** random.rs:76-78 *)
Definition next_unit_f32 (g : Pcg32 f32) : f32 * Pcg32 f32 :=
  let (w, g') := next_u32 g in
  (Bmult mode_NE (F32 (Z.shiftr w 8) 0) (Bdiv mode_NE (F32 1 0) (F32 (Z.shiftl 1 24) 0)), g').

Section Normal.
  Context {T : Type} {NT : Num T}.
  (** the scalar's own uniform draw, [RandomScalar::next_unit] *)
  Variable next_unit : Pcg32 T -> T * Pcg32 T.
  Local Open Scope num_scope.

  (** random.rs:40-50: the rejection loop; [None] means the fuel ran out before a pair was accepted *)
  Fixpoint polar_loop (fuel : nat) (g : Pcg32 T) : option (T * Pcg32 T) :=
    match fuel with
    | O => None
    | S fuel =>
        let (ux, g1) := next_unit g in
        let x_draw := two * ux - one in
        let (uy, g2) := next_unit g1 in
        let y_draw := two * uy - one in
        let radius_squared := powi x_draw 2%Z + powi y_draw 2%Z in
        if (zero <? radius_squared) && (radius_squared <? one) then
          let scale := sqrt (- two * log radius_squared / radius_squared) in
          Some (x_draw * scale, set_cache g2 (y_draw * scale))
        else polar_loop fuel g2
    end.

  (** random.rs:35-51 *)
  Definition standard_normal (fuel : nat) (g : Pcg32 T) : option (T * Pcg32 T) :=
    let (c, g1) := get_cache g in
    match c with
    | Some cached => Some (cached, g1)
    | None => polar_loop fuel g1
    end.
End Normal.
