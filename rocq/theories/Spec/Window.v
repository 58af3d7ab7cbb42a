(** What a window filter sees. *)
From Coq Require Import List Reals.
From Verif Require Import Base.Series.
Import ListNotations.

(** The last [w] entries of [w] copies of the first sample followed by all samples: the time before the first
    sample counts as the first sample. *)
Definition last_window {T : Type} (w : nat) (first : T) (samples : list T) : list T :=
  skipn (length samples) (repeat first w ++ samples).

(** The mean of a list of reals. *)
Definition mean (l : list R) : R := (fold_right Rplus 0 l / INR (length l))%R.

(** How many entries satisfy a test. *)
Definition count {T : Type} (test : T -> bool) (l : list T) : nat := length (filter test l).

(** [x] is a generalised inverse of the [m] by [n] matrix [a] (rows): a x a = a.  The Moore-Penrose
    pseudo-inverse is one. *)
Definition generalized_inverse (m n : nat) (a x : list (list R)) : Prop :=
  let entry mat i j := nth j (nth i mat []) 0%R in
  forall i j, (i < m)%nat -> (j < n)%nat ->
    Series.bsum n (fun k => Series.bsum m (fun l => (entry a i k * entry x k l * entry a l j)%R)) = entry a i j.
