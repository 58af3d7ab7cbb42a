(** crates/multicalc/src/linear_algebra/svd.rs and symmetric_eigendecomposition.rs, over any scalar. *)
From Coq Require Import ZArith List Bool Arith.
From Verif Require Import Base.Scalar Base.Lists Model.Errors Model.Vector Model.Matrix Model.Lu.
Import ListNotations.

Section Svd.
  Context {T : Type} {NT : Num T}.
  Local Open Scope num_scope.

  (** svd.rs:105-108 and symmetric_eigendecomposition.rs:99-102: the tangent and the cosine of the rotation *)
  Definition rotation_tangent (alpha beta gamma : T) : T :=
    let zeta := (beta - alpha) / (two * gamma) in
    let sign := if zeta <? zero then - one else one in
    sign / (abs zeta + sqrt (one + zeta * zeta)).
  Definition rotation_cosine (tan : T) : T := one / sqrt (one + tan * tan).

  (** svd.rs:110-121 and symmetric_eigendecomposition.rs:124-129: columns [p] and [q] of a matrix, rotated *)
  Definition rotate_columns (rows : nat) (m : mat T) (p q : nat) (cos sin : T) : mat T :=
    fold_left (fun m i =>
      let old := mget m i p in
      let other := mget m i q in
      mset (mset m i p (cos * old - sin * other)) i q (sin * old + cos * other)) (range 0 rows) m.

  (** [Vector::from_fn(|row| m[(row, column)])] *)
  Definition column_of (rows : nat) (m : mat T) (column : nat) : list T := from_fn rows (fun row => mget m row column).

  (** the variables of the sweeps: [lefts], [rights] and, within a sweep, [off_max] *)
  Record sweep := { sw_left : mat T; sw_right : mat T; sw_off : T }.
  (** svd.rs:88-121, one pair of columns *)
  Definition svd_pair (rows cols p : nat) (s : sweep) (q : nat) : sweep :=
    let alpha := norm_squared (column_of rows (sw_left s) p) in
    let beta := norm_squared (column_of rows (sw_left s) q) in
    let gamma := dot (column_of rows (sw_left s) p) (column_of rows (sw_left s) q) in
    if (alpha =? zero) || (beta =? zero) then s
    else
      let scale := sqrt (alpha * beta) in
      let off := abs gamma / scale in
      let off_max := if off >? sw_off s then off else sw_off s in
      if abs gamma <=? epsilon * scale then {| sw_left := sw_left s; sw_right := sw_right s; sw_off := off_max |}
      else
        let tan := rotation_tangent alpha beta gamma in
        let cos := rotation_cosine tan in
        let sin := cos * tan in
        {| sw_left := rotate_columns rows (sw_left s) p q cos sin; sw_right := rotate_columns cols (sw_right s) p q cos sin;
           sw_off := off_max |}.
  (** svd.rs:85-123, one sweep *)
  Definition svd_sweep (rows cols : nat) (lefts rights : mat T) : sweep :=
    fold_left (fun s p => fold_left (svd_pair rows cols p) (range (p + 1) cols) s) (range 0 cols)
      {| sw_left := lefts; sw_right := rights; sw_off := zero |}.
  (** svd.rs:83-127: at most [sweeps] of them, and whether the last one found nothing lefts to do *)
  Fixpoint svd_sweeps (rows cols sweeps : nat) (lefts rights : mat T) : mat T * mat T * bool :=
    match sweeps with
    | O => (lefts, rights, false)
    | S sweeps =>
        let s := svd_sweep rows cols lefts rights in
        if sw_off s <=? epsilon then (sw_left s, sw_right s, true) else svd_sweeps rows cols sweeps (sw_left s) (sw_right s)
    end.

  (** svd.rs:130-139: the lengths of the columns, and the columns divided by them *)
  Definition divide_column (rows : nat) (m : mat T) (k : nat) (d : T) : mat T :=
    fold_left (fun m i => mset m i k (mget m i k / d)) (range 0 rows) m.
  Definition svd_lengths (rows cols : nat) (lefts : mat T) : mat T * list T :=
    fold_left (fun st k =>
      let '(lefts, values) := st in
      let sigma := norm (column_of rows lefts k) in
      let values := set_nth values k sigma in
      (if sigma >? zero then divide_column rows lefts k sigma else lefts, values)) (range 0 cols) (lefts, vec_zeros cols).

  (** svd.rs:143-148 and symmetric_eigendecomposition.rs:145-150: where the largest of the values from [k] on is *)
  Definition top_value (n k : nat) (values : list T) : nat :=
    fold_left (fun top j => if vget values j >? vget values top then j else top) (range (k + 1) n) k.
  (** svd.rs:153-162: columns [k] and [top] of a matrix exchanged, entry by entry in the code, row by row here *)
  Definition swap_columns (m : mat T) (k top : nat) : mat T := map (fun row => swap zero row k top) m.
  (** svd.rs:143-163, one pass *)
  Definition svd_sort_step (cols : nat) (st : mat T * list T * mat T) (k : nat) : mat T * list T * mat T :=
    let '(lefts, values, rights) := st in
    let top := top_value cols k values in
    if negb (Nat.eqb top k) then (swap_columns lefts k top, swap zero values k top, swap_columns rights k top) else st.

  (** svd.rs:168-176 and symmetric_eigendecomposition.rs:166-174: the row of the largest entry of a column *)
  Definition largest_row (rows : nat) (m : mat T) (k : nat) : nat :=
    fst (fold_left (fun st i =>
      let '(row, best) := st in
      let magnitude := abs (mget m i k) in
      if magnitude >? best then (i, magnitude) else (row, best)) (range 0 rows) (O, zero)).
  Definition negate_column (rows : nat) (m : mat T) (k : nat) : mat T :=
    fold_left (fun m i => mset m i k (- mget m i k)) (range 0 rows) m.
  (** svd.rs:168-184, one pass *)
  Definition svd_sign_step (rows cols : nat) (st : mat T * mat T) (k : nat) : mat T * mat T :=
    let '(lefts, rights) := st in
    if mget lefts (largest_row rows lefts k) k <? zero then (negate_column rows lefts k, negate_column cols rights k) else st.

  (** svd.rs:18-25 *)
  Record svd := { svd_left : mat T; singular_values : list T; svd_right : mat T }.
  (** svd.rs:71-192; [settled] is whether the sweeps ended before the limit, which the code does not report *)
  Definition svd_found (rows cols : nat) (m : mat T) : svd * bool :=
    let '(lefts, rights, settled) := svd_sweeps rows cols 60 m (identity cols) in
    let '(lefts, values) := svd_lengths rows cols lefts in
    let '(lefts, values, rights) := fold_left (svd_sort_step cols) (range 0 cols) (lefts, values, rights) in
    let '(lefts, rights) := fold_left (svd_sign_step rows cols) (range 0 cols) (lefts, rights) in
    ({| svd_left := lefts; singular_values := values; svd_right := rights |}, settled).
  Definition svd_of (rows cols : nat) (m : mat T) : Res svd LinalgError :=
    if Nat.ltb rows cols then Err LaUnderdetermined
    else if negb (mat_is_finite m) then Err LaNonFinite
    else Ok (fst (svd_found rows cols m)).

  (** svd.rs:247-255 *)
  Definition svd_rank (cols : nat) (d : svd) (tol : T) : nat :=
    fold_left (fun count k => if vget (singular_values d) k >? tol then S count else count) (range 0 cols) O.
  (** svd.rs:266-276 *)
  Definition svd_condition (cols : nat) (d : svd) : T :=
    if Nat.eqb cols 0 then infinity
    else
      let smallest := vget (singular_values d) (cols - 1) in
      if smallest <=? zero then infinity else vget (singular_values d) 0 / smallest.
  (** svd.rs:280-285 *)
  Definition svd_default_tol (rows cols : nat) (d : svd) : T :=
    if Nat.eqb cols 0 then zero else of_nat (Nat.max rows cols) * epsilon * vget (singular_values d) 0.
  (** svd.rs:288-299 *)
  Definition pseudo_inverse_tol (rows cols : nat) (d : svd) (tol : T) : mat T :=
    mat_fn cols rows (fun i j =>
      fold_left (fun acc k =>
        let sigma := vget (singular_values d) k in
        if sigma >? tol then acc + mget (svd_right d) i k * mget (svd_left d) j k / sigma else acc) (range 0 cols) zero).
  (** svd.rs:314-316 *)
  Definition svd_pseudo_inverse (rows cols : nat) (d : svd) : mat T := pseudo_inverse_tol rows cols d (svd_default_tol rows cols d).
  (** svd.rs:211-217 *)
  Definition pseudo_inverse (rows cols : nat) (m : mat T) : Res (mat T) LinalgError :=
    if Nat.leb cols rows then
      match svd_of rows cols m with Ok d => Ok (svd_pseudo_inverse rows cols d) | Err e => Err e | Panic => Panic end
    else
      match svd_of cols rows (transpose rows cols m) with
      | Ok d => Ok (transpose rows cols (svd_pseudo_inverse cols rows d))
      | Err e => Err e
      | Panic => Panic
      end.
  (** svd.rs:331-342 *)
  Definition svd_solve (rows cols : nat) (d : svd) (b : list T) : list T :=
    let tol := svd_default_tol rows cols d in
    let z := fold_left (fun z k =>
      let sigma := vget (singular_values d) k in
      if sigma >? tol then set_nth z k (dot (column_of rows (svd_left d) k) b / sigma) else z) (range 0 cols) (vec_zeros cols) in
    mat_vec cols cols (svd_right d) z.

  (** ** symmetric_eigendecomposition.rs *)

  (** the variables of the sweeps: [working], [eigenvectors] and, within a sweep, [off_max] *)
  Record eigen_sweep := { es_working : mat T; es_vectors : mat T; es_off : T }.
  (** symmetric_eigendecomposition.rs:112-122 *)
  Definition rotate_others (n : nat) (m : mat T) (p q : nat) (cos sin : T) : mat T :=
    fold_left (fun m i =>
      if Nat.eqb i p || Nat.eqb i q then m
      else
        let old := mget m i p in
        let other := mget m i q in
        let m := mset m i p (cos * old - sin * other) in
        let m := mset m p i (mget m i p) in
        let m := mset m i q (sin * old + cos * other) in
        mset m q i (mget m i q)) (range 0 n) m.
  (** symmetric_eigendecomposition.rs:89-129, one pair *)
  Definition eigen_pair (n : nat) (threshold : T) (p : nat) (s : eigen_sweep) (q : nat) : eigen_sweep :=
    let w := es_working s in
    let off_diagonal := mget w p q in
    let off_max := max (es_off s) (abs off_diagonal) in
    if abs off_diagonal <=? threshold then {| es_working := w; es_vectors := es_vectors s; es_off := off_max |}
    else
      let alpha := mget w p p in
      let beta := mget w q q in
      let gamma := off_diagonal in
      let tan := rotation_tangent alpha beta gamma in
      let cos := rotation_cosine tan in
      let sin := tan * cos in
      let w := mset w p p (alpha - tan * gamma) in
      let w := mset w q q (beta + tan * gamma) in
      let w := mset w p q zero in
      let w := mset w q p zero in
      {| es_working := rotate_others n w p q cos sin; es_vectors := rotate_columns n (es_vectors s) p q cos sin; es_off := off_max |}.
  (** symmetric_eigendecomposition.rs:86-131 *)
  Definition eigen_one_sweep (n : nat) (threshold : T) (working vectors : mat T) : eigen_sweep :=
    fold_left (fun s p => fold_left (eigen_pair n threshold p) (range (p + 1) n) s) (range 0 n)
      {| es_working := working; es_vectors := vectors; es_off := zero |}.
  (** symmetric_eigendecomposition.rs:84-135, and whether the last sweep found nothing lefts to do *)
  Fixpoint eigen_sweeps (n sweeps : nat) (threshold : T) (working vectors : mat T) : mat T * mat T * bool :=
    match sweeps with
    | O => (working, vectors, false)
    | S sweeps =>
        let s := eigen_one_sweep n threshold working vectors in
        if es_off s <=? threshold then (es_working s, es_vectors s, true)
        else eigen_sweeps n sweeps threshold (es_working s) (es_vectors s)
    end.
  (** symmetric_eigendecomposition.rs:145-160, one pass *)
  Definition eigen_sort_step (n : nat) (st : list T * mat T) (k : nat) : list T * mat T :=
    let '(values, vectors) := st in
    let top := top_value n k values in
    if negb (Nat.eqb top k) then (swap zero values k top, swap_columns vectors k top) else st.
  (** symmetric_eigendecomposition.rs:166-179, one pass *)
  Definition eigen_sign_step (n : nat) (vectors : mat T) (k : nat) : mat T :=
    if mget vectors (largest_row n vectors k) k <? zero then negate_column n vectors k else vectors.

  (** symmetric_eigendecomposition.rs:19-24 *)
  Record eigen := { eigenvalues : list T; eigenvectors : mat T }.
  (** symmetric_eigendecomposition.rs:55-186; the loop for the largest entry is [max_abs] *)
  Definition eigen_found (n : nat) (m : mat T) : eigen * bool :=
    let threshold := epsilon * max_abs m in
    let '(working, vectors, settled) := eigen_sweeps n 60 threshold m (identity n) in
    let values := from_fn n (fun index => mget working index index) in
    let '(values, vectors) := fold_left (eigen_sort_step n) (range 0 n) (values, vectors) in
    let vectors := fold_left (eigen_sign_step n) (range 0 n) vectors in
    ({| eigenvalues := values; eigenvectors := vectors |}, settled).
  Definition symmetric_eigendecomposition (n : nat) (m : mat T) : Res eigen LinalgError :=
    if negb (mat_is_finite m) then Err LaNonFinite
    else if negb (is_symmetric n m) then Err LaNotSymmetric
    else Ok (fst (eigen_found n m)).

  (** symmetric_eigendecomposition.rs:212-218 *)
  Definition eigen_determinant (n : nat) (d : eigen) : T :=
    fold_left (fun product index => product * vget (eigenvalues d) index) (range 0 n) one.
  (** symmetric_eigendecomposition.rs:232-250 *)
  Definition eigen_condition (n : nat) (d : eigen) : T :=
    if Nat.eqb n 0 then infinity
    else
      let '(largest, smallest) := fold_left (fun st index =>
        let '(largest, smallest) := st in
        let magnitude := abs (vget (eigenvalues d) index) in
        (max largest magnitude, min smallest magnitude)) (range 0 n) (zero, infinity) in
      if smallest <=? zero then infinity else largest / smallest.
  (** symmetric_eigendecomposition.rs:263-269 *)
  Definition eigen_positive_definite (n : nat) (d : eigen) : bool :=
    if Nat.eqb n 0 then true else vget (eigenvalues d) (n - 1) >? zero.
  (** symmetric_eigendecomposition.rs:286-307 *)
  Definition eigen_clamped (n : nat) (d : eigen) (minimum_eigenvalue : T) : mat T :=
    let raised := from_fn n (fun index => max (vget (eigenvalues d) index) minimum_eigenvalue) in
    fold_left (fun result row =>
      fold_left (fun result column =>
        let sum := loop_sum n (fun k => mget (eigenvectors d) row k * vget raised k * mget (eigenvectors d) column k) in
        mset (mset result row column sum) column row sum) (range row n) result) (range 0 n) (mat_zeros n n).
End Svd.
