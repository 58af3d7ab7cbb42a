(** crates/multicalc/src/linear_algebra/expm.rs and discretization/mod.rs, over any scalar. *)
From Coq Require Import ZArith List Bool Arith.
From Verif Require Import Base.Scalar Base.Lists Model.Errors Model.Vector Model.Matrix Model.Lu.
Import ListNotations.

Section Expm.
  Context {T : Type} {NT : Num T}.
  Local Open Scope num_scope.

  (** expm.rs:27-37 *)
  Definition one_norm (n : nat) (m : mat T) : T :=
    fold_left (fun nrm j =>
      let col := fold_left (fun col i => col + abs (mget m i j)) (seq 0 n) zero in
      if col >? nrm then col else nrm) (seq 0 n) zero.

  (** expm.rs:38-44: the [while] loop, [None] when it has not ended after [fuel] turns.  The counter is an i32 in the code:
      it overflows after 2^31 turns, which only a loop that never ends takes. *)
  Fixpoint halvings (fuel : nat) (scaled : T) (squares : nat) : option nat :=
    if scaled >? half
    then match fuel with O => None | S fuel => halvings fuel (scaled * half) (S squares) end
    else Some squares.

  (** expm.rs:47-53: [coef[k]]; the ratio is one f64 division of two small whole numbers *)
  Fixpoint pade_coefficient (k : nat) : T :=
    match k with
    | O => one
    | S p => pade_coefficient p * of_ratio (6 - Z.of_nat p) ((Z.of_nat p + 1) * (12 - Z.of_nat p))
    end.

  (** expm.rs:54-66: the powers A^0 ... A^6 and the two sums, after the terms below [k] *)
  Fixpoint pade_sums (n : nat) (a : mat T) (k : nat) : mat T * mat T * mat T :=
    match k with
    | O => (identity n, mat_zeros n n, mat_zeros n n)
    | S k =>
        let '(apow, num, den) := pade_sums n a k in
        let c := pade_coefficient k in
        let num := mat_add num (mat_scale n n apow c) in
        let den := mat_add den (mat_scale n n apow (if Nat.even k then c else - c)) in
        ((if Nat.ltb k 6 then mat_mul n n n apow a else apow), num, den)
    end.

  (** expm.rs:69-71 *)
  Fixpoint squared (n : nat) (times : nat) (m : mat T) : mat T :=
    match times with O => m | S times => squared n times (mat_mul n n n m m) end.

  (** expm.rs:45-75, once [squares] is known *)
  Definition expm_with (n squares : nat) (m : mat T) : Res (mat T) LinalgError :=
    let a := mat_scale n n m (powi half (Z.of_nat squares)) in
    let '(_, num, den) := pade_sums n a 7 in
    match lu_decompose n den with
    | Ok f =>
        let result := squared n squares (lu_solve_matrix n n f num) in
        if mat_is_finite result then Ok result else Err LaNonFinite
    | Err e => Err e
    | Panic => Panic
    end.

  (** expm.rs:22-76; [None] when the scaling loop takes more than [fuel] turns *)
  Definition expm (fuel n : nat) (m : mat T) : option (Res (mat T) LinalgError) :=
    if negb (mat_is_finite m) then Some (Err LaNonFinite)
    else match halvings fuel (one_norm n m) 0 with None => None | Some squares => Some (expm_with n squares m) end.

  (** discretization/mod.rs:41-50 *)
  Definition zoh_block (n m : nat) (a b : mat T) (timestep : T) : mat T :=
    mat_fn (n + m) (n + m) (fun i j =>
      if (Nat.ltb i n && Nat.ltb j n)%bool then mget a i j * timestep
      else if Nat.ltb i n then mget b i (j - n) * timestep
      else zero).
  (** discretization/mod.rs:32-55 *)
  Definition zoh (fuel n m : nat) (a b : mat T) (timestep : T) : option (Res (mat T * mat T) LinalgError) :=
    if (negb (is_finite timestep) || (timestep <? zero))%bool then Some (Err LaInvalidTimestep)
    else match expm fuel (n + m) (zoh_block n m a b timestep) with
         | Some (Ok e) => Some (Ok (mat_fn n n (fun i j => mget e i j), mat_fn n m (fun i j => mget e i (n + j)%nat)))
         | Some (Err e) => Some (Err e)
         | Some Panic => Some Panic
         | None => None
         end.

  (** discretization/mod.rs:83-94 *)
  Definition van_loan_block (n : nat) (a process_noise : mat T) (timestep : T) : mat T :=
    mat_fn (2 * n) (2 * n) (fun i j =>
      if (Nat.ltb i n && Nat.ltb j n)%bool then - mget a i j * timestep
      else if Nat.ltb i n then mget process_noise i (j - n) * timestep
      else if Nat.leb n j then mget a (j - n) (i - n) * timestep
      else zero).
  (** discretization/mod.rs:74-101 *)
  Definition van_loan (fuel n : nat) (a process_noise : mat T) (timestep : T) : option (Res (mat T * mat T) LinalgError) :=
    if (negb (is_finite timestep) || (timestep <? zero))%bool then Some (Err LaInvalidTimestep)
    else match expm fuel (2 * n) (van_loan_block n a process_noise timestep) with
         | Some (Ok e) =>
             let g12 := mat_fn n n (fun i j => mget e i (n + j)%nat) in
             let g22 := mat_fn n n (fun i j => mget e (n + i)%nat (n + j)%nat) in
             let f := transpose n n g22 in
             Some (Ok (f, mat_mul n n n f g12))
         | Some (Err e) => Some (Err e)
         | Some Panic => Some Panic
         | None => None
         end.

  (** discretization/mod.rs:117-159; the compiler refuses a size other than 2, 3 or 4 *)
  Definition white_noise_entry (dim : nat) (timestep : T) (i j : nat) : T :=
    let timestep2 := timestep * timestep in
    let timestep3 := timestep2 * timestep in
    let timestep4 := timestep3 * timestep in
    let timestep5 := timestep4 * timestep in
    let timestep6 := timestep5 * timestep in
    match dim, i, j with
    | 2, 0, 0 => timestep4 * of_ratio 1 4
    | 2, 0, 1 | 2, 1, 0 => timestep3 * half
    | 2, 1, 1 => timestep2
    | 3, 0, 0 => timestep4 * of_ratio 1 4
    | 3, 0, 1 | 3, 1, 0 => timestep3 * half
    | 3, 0, 2 | 3, 2, 0 => timestep2 * half
    | 3, 1, 1 => timestep2
    | 3, 1, 2 | 3, 2, 1 => timestep
    | 3, 2, 2 => one
    | 4, 0, 0 => timestep6 / of_Z 36
    | 4, 0, 1 | 4, 1, 0 => timestep5 / of_Z 12
    | 4, 0, 2 | 4, 2, 0 => timestep4 / of_Z 6
    | 4, 0, 3 | 4, 3, 0 => timestep3 / of_Z 6
    | 4, 1, 1 => timestep4 * of_ratio 1 4
    | 4, 1, 2 | 4, 2, 1 => timestep3 * half
    | 4, 1, 3 | 4, 3, 1 => timestep2 * half
    | 4, 2, 2 => timestep2
    | 4, 2, 3 | 4, 3, 2 => timestep
    | 4, 3, 3 => one
    | _, _, _ => zero
    end.
  Definition q_discrete_white_noise (dim : nat) (timestep variance : T) : mat T :=
    mat_fn dim dim (fun i j => white_noise_entry dim timestep i j * variance).
End Expm.
