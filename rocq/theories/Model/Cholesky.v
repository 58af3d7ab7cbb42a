(** crates/multicalc/src/linear_algebra/cholesky.rs, over any scalar. *)
From Coq Require Import ZArith List Bool Arith.
From Verif Require Import Base.Scalar Base.Lists Model.Errors Model.Vector Model.Matrix Model.Lu.
Import ListNotations.

Section Cholesky.
  Context {T : Type} {NT : Num T}.
  Local Open Scope num_scope.

  (** cholesky.rs:45-63, one pass of the loop over [j] *)
  Definition cholesky_column (n : nat) (m : mat T) (j : nat) (lower : mat T) : Res (mat T) LinalgError :=
    let diag := fold_left (fun diag k => diag - mget lower j k * mget lower j k) (range 0 j) (mget m j j) in
    if diag <=? zero then Err LaNotPositiveDefinite
    else
      let ljj := sqrt diag in
      let lower := mset lower j j ljj in
      Ok (fold_left (fun lower i =>
            let sum := fold_left (fun sum k => sum - mget lower i k * mget lower j k) (range 0 j) (mget m i j) in
            mset lower i j (sum / ljj)) (range (j + 1) n) lower).

  Fixpoint cholesky_columns (n : nat) (m : mat T) (js : list nat) (lower : mat T) : Res (mat T) LinalgError :=
    match js with
    | [] => Ok lower
    | j :: js =>
        match cholesky_column n m j lower with Ok lower => cholesky_columns n m js lower | Err e => Err e | Panic => Panic end
    end.

  (** cholesky.rs:41-67; the factor is the whole of the Rust record *)
  Definition cholesky (n : nat) (m : mat T) : Res (mat T) LinalgError :=
    cholesky_columns n m (range 0 n) (mat_zeros n n).

  (** cholesky.rs:85-91 *)
  Definition cholesky_determinant (n : nat) (lower : mat T) : T :=
    fold_left (fun det i => det * (mget lower i i * mget lower i i)) (range 0 n) one.

  (** cholesky.rs:110-116 *)
  Definition forward_division (n : nat) (l : nat -> nat -> T) (x : list T) : list T :=
    fold_left (fun x i => set_nth x i (fold_left (fun sum j => sum - l i j * vget x j) (range 0 i) (vget x i) / l i i))
      (range 0 n) x.

  (** cholesky.rs:106-128 *)
  Definition cholesky_solve (n : nat) (lower : mat T) (b : list T) : list T :=
    let x := from_fn n (fun i => vget b i) in
    let x := forward_division n (mget lower) x in
    back_substitution n (fun i j => mget lower j i) x.

  (** cholesky.rs:142-152, 167-169 *)
  Definition cholesky_solve_matrix (n k : nat) (lower : mat T) (b : mat T) : mat T :=
    solve_columns n k (cholesky_solve n lower) b.
  Definition cholesky_inverse (n : nat) (lower : mat T) : mat T := cholesky_solve_matrix n n lower (identity n).
End Cholesky.
