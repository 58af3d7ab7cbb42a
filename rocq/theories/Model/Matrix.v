(** crates/multicalc/src/linear_algebra/matrix.rs, over any scalar.

    A [Matrix<ROWS, COLS, T>] is the list of its rows, each the list of its entries.  The sizes, which the compiler
    carries in the type, are arguments where the code reads them.  Reading or writing an entry outside the matrix panics
    in the code; here the read gives zero and the write changes nothing, and the proofs show that the modelled functions
    stay inside. *)
From Coq Require Import ZArith List Bool Arith.
From Verif Require Import Base.Scalar Base.Lists Model.Vector.
Import ListNotations.

Section Matrix.
  Context {T : Type} {NT : Num T}.
  Local Open Scope num_scope.

  Definition mat := list (list T).

  (** matrix.rs:636-644, [m[(row, column)]] *)
  Definition mget (m : mat) (row column : nat) : T := nth column (nth row m []) zero.
  (** matrix.rs:647-653, [m[(row, column)] = value] *)
  Definition mset (m : mat) (row column : nat) (value : T) : mat := set_nth m row (set_nth (nth row m []) column value).
  (** [v[i]] of a vector *)
  Definition vget (v : list T) (i : nat) : T := nth i v zero.

  (** matrix.rs:47-51 *)
  Definition mat_fn (rows cols : nat) (f : nat -> nat -> T) : mat := from_fn rows (fun row => from_fn cols (f row)).

  (** matrix.rs:104-106 *)
  Definition mat_get (m : mat) (row column : nat) : option T :=
    match nth_error m row with Some r => nth_error r column | None => None end.
  (** matrix.rs:143-148 *)
  Definition try_from_row_slice (rows cols : nat) (slice : list T) : option mat :=
    if Nat.eqb (length slice) (rows * cols)
    then Some (mat_fn rows cols (fun row column => vget slice (row * cols + column))) else None.
  (** matrix.rs:160-162, 177-179 *)
  Definition try_row (m : mat) (row : nat) : option (list T) := nth_error m row.
  Definition try_column (rows cols : nat) (m : mat) (column : nat) : option (list T) :=
    if Nat.ltb column cols then Some (from_fn rows (fun row => mget m row column)) else None.

  (** matrix.rs:191-193 *)
  Definition mat_zeros (rows cols : nat) : mat := mat_fn rows cols (fun _ _ => zero).
  (** matrix.rs:204-206; also [m * scalar], 712-718 *)
  Definition mat_scale (rows cols : nat) (m : mat) (scalar : T) : mat :=
    mat_fn rows cols (fun row column => mget m row column * scalar).
  (** matrix.rs:216-218 *)
  Definition transpose (rows cols : nat) (m : mat) : mat := mat_fn cols rows (fun row column => mget m column row).
  (** matrix.rs:235-242 *)
  Definition frobenius_norm (m : mat) : T := sqrt (fold_left (fun acc x => acc + x * x) (concat m) zero).
  (** matrix.rs:253-255 *)
  Definition mat_is_finite (m : mat) : bool := forallb is_finite (concat m).
  (** matrix.rs:260-268; the two nested loops visit the entries in row-major order *)
  Definition max_abs (m : mat) : T := fold_left (fun best x => max best (abs x)) (concat m) zero.
  (** matrix.rs:273-275 *)
  Definition det_near_singular (det scale : T) (n : nat) : bool :=
    abs det <=? epsilon * of_nat n * powi scale (Z.of_nat n).

  (** matrix.rs:288-295 *)
  Definition from_diagonal (n : nat) (diag : list T) : mat :=
    from_fn n (fun i => set_nth (repeat zero n) i (vget diag i)).
  (** matrix.rs:306-308 *)
  Definition diagonal (n : nat) (m : mat) : list T := from_fn n (fun i => mget m i i).
  (** matrix.rs:378-380 *)
  Definition identity (n : nat) : mat := from_diagonal n (repeat one n).
  (** matrix.rs:422-424 *)
  Definition trace (n : nat) (m : mat) : T := fold_left (fun acc i => acc + mget m i i) (seq 0 n) zero.

  (** [for i in low..high] *)
  Definition range (low high : nat) : list nat := seq low (high - low).

  (** matrix.rs:329-341: [false] at the first pair that differs too much, [true] if none does *)
  Definition is_symmetric (n : nat) (m : mat) : bool :=
    forallb (fun row =>
      forallb (fun column =>
        let upper := mget m row column in
        let lower := mget m column row in
        let scale := max (max (abs upper) (abs lower)) one in
        negb (abs (upper - lower) >? epsilon_x30 * scale)) (range (row + 1) n)) (range 0 n).

  (** matrix.rs:358-368 *)
  Definition symmetrized (n : nat) (m : mat) : mat :=
    fold_left (fun result row =>
      fold_left (fun result column =>
        let average := (mget m row column + mget m column row) * half in
        mset (mset result row column average) column row average) (range (row + 1) n) result) (range 0 n) m.

  (** matrix.rs:656-674, 677-695, 698-709 *)
  Definition mat_add (a b : mat) : mat := map2 (map2 add) a b.
  Definition mat_sub (a b : mat) : mat := map2 (map2 sub) a b.
  Definition mat_neg (a : mat) : mat := map (map neg) a.
  (** matrix.rs:721-727 *)
  Definition mat_div (rows cols : nat) (m : mat) (scalar : T) : mat :=
    mat_fn rows cols (fun i j => safe_div (mget m i j) scalar).

  (** [let mut acc = ZERO; for k in 0..n { acc += f(k) }] *)
  Definition loop_sum (n : nat) (f : nat -> T) : T := fold_left (fun acc k => acc + f k) (seq 0 n) zero.
  (** matrix.rs:730-744 *)
  Definition mat_mul (rows inner cols : nat) (a b : mat) : mat :=
    mat_fn rows cols (fun row column => loop_sum inner (fun k => mget a row k * mget b k column)).
  (** matrix.rs:747-761 *)
  Definition mat_vec (rows cols : nat) (a : mat) (v : list T) : list T :=
    from_fn rows (fun row => loop_sum cols (fun column => mget a row column * vget v column)).

  (** matrix.rs:623-626, for any scalar: the code has it for f64 alone *)
  Definition symmetric_positive_definite (n : nat) (entries : list T) : mat :=
    let factor := mat_fn n n (fun row column => vget entries (row * n + column)) in
    mat_add (mat_mul n n n factor (transpose n n factor)) (from_diagonal n (repeat (of_ratio 1 4) n)).
End Matrix.
Arguments mat T : clear implicits.
