(** The textbook second-order difference equation. *)
From Coq Require Import List Reals.
Import ListNotations.
Local Open Scope R_scope.

(** the entry [k] before entry [n], zero before the start *)
Definition lag (l : list R) (n k : nat) : R := if Nat.ltb n k then 0 else nth (n - k) l 0.

(** [ys] answers [xs] *)
Definition difference_equation (b0 b1 b2 a1 a2 : R) (xs ys : list R) : Prop :=
  length ys = length xs /\
  forall n, (n < length xs)%nat ->
    nth n ys 0 = b0 * lag xs n 0 + b1 * lag xs n 1 + b2 * lag xs n 2 - a1 * lag ys n 1 - a2 * lag ys n 2.

(** pointwise sum and multiple of sequences *)
Definition seq_add (l m : list R) : list R := map (fun p => fst p + snd p) (combine l m).
Definition seq_scale (c : R) (l : list R) : list R := map (fun x => c * x) l.

(** The complex number x + iy is a pole: a zero of z^2 + a1 z + a2. *)
Definition is_pole (a1 a2 x y : R) : Prop := x * x - y * y + a1 * x + a2 = 0 /\ 2 * x * y + a1 * y = 0.
