(** crates/multicalc/src/linear_algebra/qr.rs, over any scalar. *)
From Coq Require Import ZArith List Bool Arith.
From Verif Require Import Base.Scalar Base.Lists Model.Errors Model.Vector Model.Matrix Model.Lu Model.Cholesky.
Import ListNotations.

Section Qr.
  Context {T : Type} {NT : Num T}.
  Local Open Scope num_scope.

  (** qr.rs:18-69.  The running state is (small_sum, mid_sum, large_sum, small_max, large_max). *)
  Record bands := { small_sum : T; mid_sum : T; large_sum : T; small_max : T; large_max : T }.
  Definition enorm_step (rdwarf agiant : T) (s : bands) (value : T) : bands :=
    let a := abs value in
    if (a >? rdwarf) && (a <? agiant) then
      {| small_sum := small_sum s; mid_sum := mid_sum s + a * a; large_sum := large_sum s;
         small_max := small_max s; large_max := large_max s |}
    else if a >? rdwarf then
      if a >? large_max s then
        let ratio := large_max s / a in
        {| small_sum := small_sum s; mid_sum := mid_sum s; large_sum := one + large_sum s * ratio * ratio;
           small_max := small_max s; large_max := a |}
      else
        let ratio := a / large_max s in
        {| small_sum := small_sum s; mid_sum := mid_sum s; large_sum := large_sum s + ratio * ratio;
           small_max := small_max s; large_max := large_max s |}
    else if negb (a =? zero) then
      if a >? small_max s then
        let ratio := small_max s / a in
        {| small_sum := one + small_sum s * ratio * ratio; mid_sum := mid_sum s; large_sum := large_sum s;
           small_max := a; large_max := large_max s |}
      else
        let ratio := a / small_max s in
        {| small_sum := small_sum s + ratio * ratio; mid_sum := mid_sum s; large_sum := large_sum s;
           small_max := small_max s; large_max := large_max s |}
    else s.
  Definition enorm (values : list T) : T :=
    let rdwarf := sqrt min_positive in
    let rgiant := sqrt max_value in
    let agiant := rgiant / of_nat (length values) in
    let s := fold_left (enorm_step rdwarf agiant) values
               {| small_sum := zero; mid_sum := zero; large_sum := zero; small_max := zero; large_max := zero |} in
    if negb (large_sum s =? zero) then large_max s * sqrt (large_sum s + (mid_sum s / large_max s) / large_max s)
    else if negb (mid_sum s =? zero) then
      if small_max s <=? mid_sum s then
        sqrt (mid_sum s * (one + (small_max s / mid_sum s) * (small_max s * small_sum s)))
      else sqrt (small_max s * ((mid_sum s / small_max s) + (small_max s * small_sum s)))
    else small_max s * sqrt (small_sum s).

  (** qr.rs:74-76, 81-83 *)
  Definition pmax (a b : T) : T := if b >? a then b else a.
  Definition pmin (a b : T) : T := if b <? a then b else a.

  (** qr.rs:93-102 *)
  Record qr := { packed : mat T; r_diag : list T; column_norms : list T; permutation : list nat }.

  (** rows [from] to [rows - 1] of column [j] *)
  Definition tail_column (rows from j : nat) (m : mat T) : list T := map (fun i => mget m i j) (range from rows).

  (** qr.rs:152-165, the state of the loop over [j]; [reference_norm] is a local of [decompose] *)
  Record qr_state := { q_packed : mat T; q_diag : list T; q_reference : list T; q_permutation : list nat }.

  (** qr.rs:154-159 *)
  Definition qr_pivot (cols j : nat) (diag : list T) : nat :=
    fold_left (fun kmax k => if vget diag k >? vget diag kmax then k else kmax) (range j cols) j.
  (** qr.rs:160-167 *)
  Definition qr_exchange (rows cols j : nat) (s : qr_state) : qr_state :=
    let kmax := qr_pivot cols j (q_diag s) in
    if negb (Nat.eqb kmax j) then
      {| q_packed := map (fun row => swap zero row j kmax) (q_packed s);
         q_diag := set_nth (q_diag s) kmax (vget (q_diag s) j);
         q_reference := set_nth (q_reference s) kmax (vget (q_reference s) j);
         q_permutation := swap O (q_permutation s) j kmax |}
    else s.

  (** qr.rs:195-198 and 247-259, 291-304, 338-351: [target -= (v . target / pivot) v] over rows [j] to [rows - 1],
      for the vector [v] in column [j] of [packed] and a column given by its getter *)
  Definition reflected_sum (rows j : nat) (packed : mat T) (get : nat -> T) : T :=
    fold_left (fun sum i => sum + mget packed i j * get i) (range j rows) zero.

  (** qr.rs:186-213, one pass of the loop over [k] *)
  Definition qr_reflect (rows j : nat) (s : qr_state) (k : nat) : qr_state :=
    let factor := reflected_sum rows j (q_packed s) (fun i => mget (q_packed s) i k) / mget (q_packed s) j j in
    let packed := fold_left (fun packed i =>
          let reflected := mget packed i k - factor * mget packed i j in
          mset packed i k reflected) (range j rows) (q_packed s) in
    if negb (vget (q_diag s) k =? zero) then
      let ratio := mget packed j k / vget (q_diag s) k in
      let diag_k := vget (q_diag s) k * sqrt (pmax zero (one - ratio * ratio)) in
      let relative := diag_k / vget (q_reference s) k in
      if of_ratio 5 100 * relative * relative <=? epsilon then
        let norm := enorm (tail_column rows (j + 1) k packed) in
        {| q_packed := packed; q_diag := set_nth (q_diag s) k norm; q_reference := set_nth (q_reference s) k norm;
           q_permutation := q_permutation s |}
      else
        {| q_packed := packed; q_diag := set_nth (q_diag s) k diag_k; q_reference := q_reference s;
           q_permutation := q_permutation s |}
    else
      {| q_packed := packed; q_diag := q_diag s; q_reference := q_reference s; q_permutation := q_permutation s |}.

  (** qr.rs:152-217, one pass of the loop over [j] *)
  Definition qr_step (rows cols : nat) (s : qr_state) (j : nat) : qr_state :=
    let s := qr_exchange rows cols j s in
    let ajnorm := enorm (tail_column rows j j (q_packed s)) in
    if ajnorm =? zero then
      {| q_packed := q_packed s; q_diag := set_nth (q_diag s) j (- ajnorm); q_reference := q_reference s;
         q_permutation := q_permutation s |}
    else
      let ajnorm := if mget (q_packed s) j j <? zero then - ajnorm else ajnorm in
      let packed := fold_left (fun packed i => mset packed i j (mget packed i j / ajnorm)) (range j rows) (q_packed s) in
      let packed := mset packed j j (mget packed j j + one) in
      let s := fold_left (qr_reflect rows j) (range (j + 1) cols)
                 {| q_packed := packed; q_diag := q_diag s; q_reference := q_reference s; q_permutation := q_permutation s |} in
      {| q_packed := q_packed s; q_diag := set_nth (q_diag s) j (- ajnorm); q_reference := q_reference s;
         q_permutation := q_permutation s |}.

  (** qr.rs:123-225 *)
  Definition qr_decompose (rows cols : nat) (a : mat T) : Res qr LinalgError :=
    if Nat.ltb rows cols then Err LaUnderdetermined
    else
      let norms := from_fn cols (fun j => enorm (tail_column rows 0 j a)) in
      let s := fold_left (qr_step rows cols) (range 0 cols)
                 {| q_packed := a; q_diag := norms; q_reference := norms; q_permutation := from_fn cols (fun j => j) |} in
      Ok {| packed := q_packed s; r_diag := q_diag s; column_norms := norms; permutation := q_permutation s |}.

  (** qr.rs:229-239 *)
  Definition qr_triangular (cols : nat) (f : qr) : mat T :=
    mat_fn cols cols (fun row col =>
      if Nat.eqb row col then vget (r_diag f) row else if Nat.ltb row col then mget (packed f) row col else zero).

  (** qr.rs:247-259, one reflector applied to column [col] *)
  Definition orthogonal_step (rows : nat) (f : qr) (col : nat) (q : mat T) (j : nat) : mat T :=
    let pivot := mget (packed f) j j in
    if pivot =? zero then q
    else
      let factor := reflected_sum rows j (packed f) (fun i => mget q i col) / pivot in
      fold_left (fun q i => mset q i col (mget q i col - factor * mget (packed f) i j)) (range j rows) q.
  (** qr.rs:243-262 *)
  Definition qr_orthogonal (rows cols : nat) (f : qr) : mat T :=
    fold_left (fun q col => fold_left (orthogonal_step rows f col) (rev (range 0 cols)) q) (range 0 cols)
      (mat_fn rows cols (fun row col => if Nat.eqb row col then one else zero)).

  (** qr.rs:289-304 and 337-351 *)
  Definition transform_step (rows : nat) (f : qr) (b : list T) (j : nat) : list T :=
    let pivot := mget (packed f) j j in
    if pivot =? zero then b
    else
      let factor := reflected_sum rows j (packed f) (vget b) / pivot in
      fold_left (fun b i => set_nth b i (vget b i - factor * mget (packed f) i j)) (range j rows) b.
  Definition qr_transform (rows cols : nat) (f : qr) (b : list T) : list T :=
    fold_left (transform_step rows f) (range 0 cols) b.

  (** qr.rs:315-324, one pass of the loop over rows, from the last up *)
  Fixpoint qr_back (cols : nat) (f : qr) (threshold : T) (qtb : list T) (rows : list nat) (y : list T) : option (list T) :=
    match rows with
    | [] => Some y
    | row :: rows =>
        if abs (vget (r_diag f) row) <=? threshold then None
        else
          let acc := fold_left (fun acc col => acc - mget (packed f) row col * vget y col) (range (row + 1) cols) (vget qtb row) in
          qr_back cols f threshold qtb rows (set_nth y row (acc / vget (r_diag f) row))
    end.
  (** qr.rs:327-330 and 470-473; [y] has one entry per column *)
  Definition unpermute (cols : nat) (perm : list nat) (y : list T) : list T :=
    fold_left (fun x j => set_nth x (nth j perm O) (vget y j)) (range 0 cols) (repeat zero cols).
  (** qr.rs:288-332 *)
  Definition solve_least_squares (rows cols : nat) (f : qr) (b : list T) : Res (list T) LinalgError :=
    let qtb := qr_transform rows cols f b in
    let threshold := if Nat.eqb cols 0 then zero
                     else epsilon * of_nat (Nat.max rows cols) * abs (vget (r_diag f) 0) in
    match qr_back cols f threshold qtb (rev (range 0 cols)) (repeat zero cols) with
    | None => Err LaSingular
    | Some y => Ok (unpermute cols (permutation f) y)
    end.

  (** qr.rs:373-383 *)
  Record damped := { triangular : mat T; qt_b : list T; d_permutation : list nat; d_column_norms : list T }.
  (** qr.rs:336-364 *)
  Definition into_damped (rows cols : nat) (f : qr) (b : list T) : damped :=
    {| triangular := qr_triangular cols f;
       qt_b := from_fn cols (fun i => vget (qr_transform rows cols f b) i);
       d_permutation := permutation f; d_column_norms := column_norms f |}.

  (** qr.rs:535-541 *)
  Record damped_factor := { factor : mat T; s_diag : list T }.

  (** qr.rs:419-450, the state of one elimination: the matrix, [work], [s_diag] and [qtbpj] *)
  Record givens := { g_factor : mat T; g_work : list T; g_diag : list T; g_extra : T }.
  (** qr.rs:427-435 *)
  Definition rotation (f s : T) : T * T :=
    let quarter := of_ratio 25 100 in
    if abs s <=? abs f then
      let tan := s / f in
      let cos := half / sqrt (quarter + quarter * tan * tan) in
      (cos * tan, cos)
    else
      let cotan := f / s in
      let sin := half / sqrt (quarter + quarter * cotan * cotan) in
      (sin, sin * cotan).
  (** qr.rs:423-449 *)
  Definition givens_step (n : nat) (g : givens) (k : nat) : givens :=
    if vget (g_diag g) k =? zero then g
    else
      let '(sin, cos) := rotation (mget (g_factor g) k k) (vget (g_diag g) k) in
      let fac := mset (g_factor g) k k (cos * mget (g_factor g) k k + sin * vget (g_diag g) k) in
      let wak := vget (g_work g) k in
      let temp := cos * wak + sin * g_extra g in
      let extra := - sin * wak + cos * g_extra g in
      let work := set_nth (g_work g) k temp in
      let '(fac, diag) := fold_left (fun st i =>
            let '(fac, diag) := st in
            let rotated := cos * mget fac i k + sin * vget diag i in
            let diag := set_nth diag i (- sin * mget fac i k + cos * vget diag i) in
            (mset fac i k rotated, diag)) (range (k + 1) n) (fac, g_diag g) in
      {| g_factor := fac; g_work := work; g_diag := diag; g_extra := extra |}.
  (** qr.rs:409-453, one pass of the loop over [j]; the state's [g_extra] is only used inside a pass *)
  Definition damped_step (n : nat) (d : damped) (diag saved : list T) (g : givens) (j : nat) : givens :=
    let pivot := nth j (d_permutation d) O in
    let g :=
      if negb (vget diag pivot =? zero) then
        let sd := fold_left (fun sd i => set_nth sd i zero) (range j n) (g_diag g) in
        let sd := set_nth sd j (vget diag pivot) in
        fold_left (givens_step n) (range j n) {| g_factor := g_factor g; g_work := g_work g; g_diag := sd; g_extra := zero |}
      else g in
    {| g_factor := mset (g_factor g) j j (vget saved j); g_work := g_work g;
       g_diag := set_nth (g_diag g) j (mget (g_factor g) j j); g_extra := g_extra g |}.

  (** qr.rs:392-396 *)
  Definition mirrored (n : nat) (m : mat T) : mat T :=
    fold_left (fun m j => fold_left (fun m i => mset m i j (mget m j i)) (range (j + 1) n) m) (range 0 n) m.
  (** qr.rs:456-464 *)
  Definition zero_tail (n : nat) (sd : list T) (work : list T) : nat * list T :=
    fold_left (fun st j =>
      let '(nsing, work) := st in
      let nsing := if (vget sd j =? zero) && Nat.eqb nsing n then j else nsing in
      (nsing, if Nat.ltb nsing n then set_nth work j zero else work)) (range 0 n) (n, work).
  (** qr.rs:465-472 *)
  Definition damped_back (nsing : nat) (fac : mat T) (sd work : list T) : list T :=
    fold_left (fun work j =>
      let sum := fold_left (fun sum i => sum + mget fac i j * vget work i) (range (j + 1) nsing) zero in
      set_nth work j ((vget work j - sum) / vget sd j)) (rev (range 0 nsing)) work.
  (** qr.rs:389-476 *)
  Definition solve_with_diagonal (n : nat) (d : damped) (diag : list T) : list T * damped_factor :=
    let fac := mirrored n (triangular d) in
    let saved := from_fn n (fun j => mget fac j j) in
    let g := fold_left (damped_step n d diag saved) (range 0 n)
               {| g_factor := fac; g_work := qt_b d; g_diag := repeat zero n; g_extra := zero |} in
    let '(nsing, work) := zero_tail n (g_diag g) (g_work g) in
    let work := damped_back nsing (g_factor g) (g_diag g) work in
    (unpermute n (d_permutation d) work, {| factor := g_factor g; s_diag := g_diag g |}).
  (** qr.rs:479-481 *)
  Definition solve_with_zero_diagonal (n : nat) (d : damped) : list T * damped_factor :=
    solve_with_diagonal n d (repeat zero n).

  (** qr.rs:487-503 *)
  Definition max_a_t_b_scaled (n : nat) (d : damped) (b_norm : T) : T :=
    if b_norm =? zero then zero
    else
      fold_left (fun result j =>
        let pivot := nth j (d_permutation d) O in
        if negb (vget (d_column_norms d) pivot =? zero) then
          let sum := fold_left (fun sum i => sum + mget (triangular d) i j * (vget (qt_b d) i / b_norm)) (range 0 (j + 1)) zero in
          pmax result (abs (sum / vget (d_column_norms d) pivot))
        else result) (range 0 n) zero.
  (** qr.rs:508-517 *)
  Definition a_x_norm (n : nat) (d : damped) (x : list T) : T :=
    enorm (fold_left (fun w j =>
      let x_perm := vget x (nth j (d_permutation d) O) in
      fold_left (fun w i => set_nth w i (vget w i + mget (triangular d) i j * x_perm)) (range 0 (j + 1)) w)
      (range 0 n) (repeat zero n)).
  (** qr.rs:521-527 *)
  Definition is_non_singular (n : nat) (d : damped) : bool :=
    if Nat.eqb n 0 then true
    else
      let threshold := epsilon * of_nat n * abs (mget (triangular d) 0 0) in
      forallb (fun j => threshold <? abs (mget (triangular d) j j)) (range 0 n).

  (** qr.rs:548-561 *)
  Definition damped_factor_solve (n : nat) (f : damped_factor) (rhs : list T) : list T :=
    fold_left (fun rhs j =>
      let rhs := set_nth rhs j (if negb (vget (s_diag f) j =? zero) then vget rhs j / vget (s_diag f) j else zero) in
      let temp := vget rhs j in
      fold_left (fun rhs i => set_nth rhs i (vget rhs i - mget (factor f) i j * temp)) (range (j + 1) n) rhs)
      (range 0 n) rhs.
End Qr.
