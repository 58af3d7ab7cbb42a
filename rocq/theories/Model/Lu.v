(** crates/multicalc/src/linear_algebra/lu.rs, and the determinant and inverse of matrix.rs, over any scalar. *)
From Coq Require Import ZArith List Bool Arith.
From Verif Require Import Base.Scalar Base.Lists Model.Errors Model.Vector Model.Matrix.
Import ListNotations.

Section Lu.
  Context {T : Type} {NT : Num T}.
  Local Open Scope num_scope.

  (** lu.rs:19-26 *)
  Record lu := { lu_matrix : mat T; lu_perm : list nat; lu_sign : T }.

  (** [slice.swap(i, j)] *)
  Definition swap {A} (d : A) (l : list A) (i j : nat) : list A := set_nth (set_nth l i (nth j l d)) j (nth i l d).

  (** lu.rs:72-80 *)
  Definition pivot_search (n k : nat) (a : mat T) : nat * T :=
    fold_left (fun st i =>
      let '(pivot, best) := st in
      let magnitude := abs (mget a i k) in
      if magnitude >? best then (i, magnitude) else (pivot, best)) (range (k + 1) n) (k, abs (mget a k k)).

  (** lu.rs:91-98 *)
  Definition eliminate (n k : nat) (a : mat T) : mat T :=
    fold_left (fun a i =>
      let factor := mget a i k / mget a k k in
      let a := mset a i k factor in
      fold_left (fun a j =>
        let pivot_row := mget a k j in
        mset a i j (mget a i j - factor * pivot_row)) (range (k + 1) n) a) (range (k + 1) n) a.

  (** lu.rs:70-99, one pass of the loop over [k] *)
  Definition lu_step (n k : nat) (f : lu) (smallest_pivot : T) : Res (lu * T) LinalgError :=
    let a := lu_matrix f in
    let '(pivot, best) := pivot_search n k a in
    if best =? zero then Err LaSingular
    else
      let smallest_pivot := min smallest_pivot best in
      let '(a, perm, sign) :=
        if negb (Nat.eqb pivot k) then (swap [] a k pivot, swap O (lu_perm f) k pivot, - lu_sign f)
        else (a, lu_perm f, lu_sign f) in
      Ok ({| lu_matrix := eliminate n k a; lu_perm := perm; lu_sign := sign |}, smallest_pivot).

  Fixpoint lu_steps (n : nat) (ks : list nat) (f : lu) (smallest_pivot : T) : Res (lu * T) LinalgError :=
    match ks with
    | [] => Ok (f, smallest_pivot)
    | k :: ks =>
        match lu_step n k f smallest_pivot with
        | Ok (f, smallest_pivot) => lu_steps n ks f smallest_pivot
        | Err e => Err e
        | Panic => Panic
        end
    end.

  (** lu.rs:64-109 *)
  Definition factor_lu (n : nat) (m : mat T) : Res (lu * T) LinalgError :=
    lu_steps n (range 0 n) {| lu_matrix := m; lu_perm := from_fn n (fun i => i); lu_sign := one |} max_value.

  (** lu.rs:50-57 *)
  Definition lu_decompose (n : nat) (m : mat T) : Res lu LinalgError :=
    let scale := max_abs m in
    match factor_lu n m with
    | Ok (f, smallest_pivot) => if smallest_pivot <=? epsilon * scale then Err LaIllConditioned else Ok f
    | Err e => Err e
    | Panic => Panic
    end.

  (** lu.rs:60-62 *)
  Definition lu_for_determinant (n : nat) (m : mat T) : Res lu LinalgError :=
    match factor_lu n m with Ok (f, _) => Ok f | Err e => Err e | Panic => Panic end.

  (** lu.rs:135-145, 148-156 *)
  Definition lu_lower (n : nat) (f : lu) : mat T :=
    mat_fn n n (fun row column =>
      if Nat.eqb row column then one else if Nat.ltb column row then mget (lu_matrix f) row column else zero).
  Definition lu_upper (n : nat) (f : lu) : mat T :=
    mat_fn n n (fun row column => if Nat.leb row column then mget (lu_matrix f) row column else zero).

  (** lu.rs:174-180 *)
  Definition lu_determinant (n : nat) (f : lu) : T :=
    fold_left (fun det i => det * mget (lu_matrix f) i i) (range 0 n) (lu_sign f).

  (** lu.rs:201-207; [sum] starts at [x[i]] and takes off the products with [x[0], ..., x[i-1]] *)
  Definition forward_substitution (n : nat) (l : nat -> nat -> T) (x : list T) : list T :=
    fold_left (fun x i => set_nth x i (fold_left (fun sum j => sum - l i j * vget x j) (range 0 i) (vget x i)))
      (range 0 n) x.
  (** lu.rs:210-216 *)
  Definition back_substitution (n : nat) (u : nat -> nat -> T) (x : list T) : list T :=
    fold_left (fun x i =>
      set_nth x i (fold_left (fun sum j => sum - u i j * vget x j) (range (i + 1) n) (vget x i) / u i i))
      (rev (range 0 n)) x.

  (** lu.rs:196-219 *)
  Definition lu_solve (n : nat) (f : lu) (b : list T) : list T :=
    let x := from_fn n (fun i => vget b (nth i (lu_perm f) O)) in
    let x := forward_substitution n (mget (lu_matrix f)) x in
    back_substitution n (mget (lu_matrix f)) x.

  (** lu.rs:233-243 and cholesky.rs:142-152; every cell of [result] is written, from the column's solution *)
  Definition solve_columns (n k : nat) (solve : list T -> list T) (b : mat T) : mat T :=
    fold_left (fun result col =>
      let x := solve (from_fn n (fun row => mget b row col)) in
      fold_left (fun result row => mset result row col (vget x row)) (range 0 n) result) (range 0 k) (mat_zeros n k).
  Definition lu_solve_matrix (n k : nat) (f : lu) (b : mat T) : mat T := solve_columns n k (lu_solve n f) b.
  (** lu.rs:258-260 *)
  Definition lu_inverse (n : nat) (f : lu) : mat T := lu_solve_matrix n n f (identity n).

  (** lu.rs:128-130 *)
  Definition mat_solve (n : nat) (m : mat T) (b : list T) : Res (list T) LinalgError :=
    match lu_decompose n m with Ok f => Ok (lu_solve n f b) | Err e => Err e | Panic => Panic end.

  (** ** matrix.rs, determinants and inverses *)

  (** matrix.rs:465-467 *)
  Definition determinant_2x2 (m : mat T) : T := mget m 0 0 * mget m 1 1 - mget m 0 1 * mget m 1 0.
  (** matrix.rs:486-491 *)
  Definition determinant_3x3 (m : mat T) : T :=
    mget m 0 0 * (mget m 1 1 * mget m 2 2 - mget m 1 2 * mget m 2 1)
      - mget m 0 1 * (mget m 1 0 * mget m 2 2 - mget m 1 2 * mget m 2 0)
      + mget m 0 2 * (mget m 1 0 * mget m 2 1 - mget m 1 1 * mget m 2 0).
  (** matrix.rs:531-550; [minors m r s] is the array built from rows [r] and [s] *)
  Definition minors (m : mat T) (r s : nat) : list T :=
    [mget m r 0 * mget m s 1 - mget m r 1 * mget m s 0;
     mget m r 0 * mget m s 2 - mget m r 2 * mget m s 0;
     mget m r 0 * mget m s 3 - mget m r 3 * mget m s 0;
     mget m r 1 * mget m s 2 - mget m r 2 * mget m s 1;
     mget m r 1 * mget m s 3 - mget m r 3 * mget m s 1;
     mget m r 2 * mget m s 3 - mget m r 3 * mget m s 2].
  Definition row_pair_minors (m : mat T) : list T * list T := (minors m 0 1, minors m 2 3).
  (** matrix.rs:554-559 *)
  Definition determinant_4x4 (m : mat T) : T :=
    let '(top, bottom) := row_pair_minors m in
    vget top 0 * vget bottom 5 - vget top 1 * vget bottom 4 + vget top 2 * vget bottom 3
      + vget top 3 * vget bottom 2 - vget top 4 * vget bottom 1 + vget top 5 * vget bottom 0.

  (** matrix.rs:395-407 *)
  Definition determinant (n : nat) (m : mat T) : T :=
    match n with
    | 0 => one
    | 1 => mget m 0 0
    | 2 => determinant_2x2 m
    | 3 => determinant_3x3 m
    | 4 => determinant_4x4 m
    | _ => match lu_for_determinant n m with Ok f => lu_determinant n f | _ => zero end
    end.

  (** matrix.rs:454-461 *)
  Definition inverse_1x1 (m : mat T) : Res (mat T) LinalgError :=
    let value := mget m 0 0 in
    if det_near_singular value (abs value) 1 then Err LaSingular else Ok (mset m 0 0 (one / value)).

  (** matrix.rs:470-482 *)
  Definition inverse_2x2 (m : mat T) : Res (mat T) LinalgError :=
    let determinant := determinant_2x2 m in
    if det_near_singular determinant (max_abs m) 2 then Err LaSingular
    else
      let scale := one / determinant in
      Ok [[mget m 1 1 * scale; - mget m 0 1 * scale]; [- mget m 1 0 * scale; mget m 0 0 * scale]].

  (** matrix.rs:518-522 and 599-603: every entry of the adjugate times [scale] *)
  Definition scaled_adjugate (adjugate : mat T) (scale : T) : mat T := map (map (fun entry => entry * scale)) adjugate.

  (** matrix.rs:494-524 *)
  Definition inverse_3x3 (m : mat T) : Res (mat T) LinalgError :=
    let determinant := determinant_3x3 m in
    if det_near_singular determinant (max_abs m) 3 then Err LaSingular
    else
      let scale := one / determinant in
      let e := mget m in
      Ok (scaled_adjugate
        [[e 1 1 * e 2 2 - e 1 2 * e 2 1; e 0 2 * e 2 1 - e 0 1 * e 2 2; e 0 1 * e 1 2 - e 0 2 * e 1 1];
         [e 1 2 * e 2 0 - e 1 0 * e 2 2; e 0 0 * e 2 2 - e 0 2 * e 2 0; e 0 2 * e 1 0 - e 0 0 * e 1 2];
         [e 1 0 * e 2 1 - e 1 1 * e 2 0; e 0 1 * e 2 0 - e 0 0 * e 2 1; e 0 0 * e 1 1 - e 0 1 * e 1 0]] scale).

  (** matrix.rs:562-605 *)
  Definition inverse_4x4 (m : mat T) : Res (mat T) LinalgError :=
    let '(top, bottom) := row_pair_minors m in
    let t := vget top in
    let b := vget bottom in
    let determinant := t 0 * b 5 - t 1 * b 4 + t 2 * b 3 + t 3 * b 2 - t 4 * b 1 + t 5 * b 0 in
    if det_near_singular determinant (max_abs m) 4 then Err LaSingular
    else
      let scale := one / determinant in
      let e := mget m in
      Ok (scaled_adjugate
        [[e 1 1 * b 5 - e 1 2 * b 4 + e 1 3 * b 3;
          - e 0 1 * b 5 + e 0 2 * b 4 - e 0 3 * b 3;
          e 3 1 * t 5 - e 3 2 * t 4 + e 3 3 * t 3;
          - e 2 1 * t 5 + e 2 2 * t 4 - e 2 3 * t 3];
         [- e 1 0 * b 5 + e 1 2 * b 2 - e 1 3 * b 1;
          e 0 0 * b 5 - e 0 2 * b 2 + e 0 3 * b 1;
          - e 3 0 * t 5 + e 3 2 * t 2 - e 3 3 * t 1;
          e 2 0 * t 5 - e 2 2 * t 2 + e 2 3 * t 1];
         [e 1 0 * b 4 - e 1 1 * b 2 + e 1 3 * b 0;
          - e 0 0 * b 4 + e 0 1 * b 2 - e 0 3 * b 0;
          e 3 0 * t 4 - e 3 1 * t 2 + e 3 3 * t 0;
          - e 2 0 * t 4 + e 2 1 * t 2 - e 2 3 * t 0];
         [- e 1 0 * b 3 + e 1 1 * b 1 - e 1 2 * b 0;
          e 0 0 * b 3 - e 0 1 * b 1 + e 0 2 * b 0;
          - e 3 0 * t 3 + e 3 1 * t 1 - e 3 2 * t 0;
          e 2 0 * t 3 - e 2 1 * t 1 + e 2 2 * t 0]] scale).

  (** matrix.rs:608-611 *)
  Definition inverse_lu (n : nat) (m : mat T) : Res (mat T) LinalgError :=
    match lu_decompose n m with Ok f => Ok (lu_inverse n f) | Err e => Err e | Panic => Panic end.

  (** matrix.rs:442-451 *)
  Definition mat_inverse (n : nat) (m : mat T) : Res (mat T) LinalgError :=
    match n with
    | 0 => Ok m
    | 1 => inverse_1x1 m
    | 2 => inverse_2x2 m
    | 3 => inverse_3x3 m
    | 4 => inverse_4x4 m
    | _ => inverse_lu n m
    end.
End Lu.
Arguments lu T : clear implicits.
