(** What is said about decompositions into directions and scales. *)
From Coq Require Import Reals Arith.
From Verif Require Import Base.Series Spec.Matrix.
Local Open Scope R_scope.

(** The Moore-Penrose inverse of a [rows x cols] matrix: the four conditions that single it out. *)
Definition moore_penrose (rows cols : nat) (a p : matrix) : Prop :=
  equal rows cols (product rows (product cols a p) a) a /\
  equal cols rows (product cols (product rows p a) p) p /\
  symmetric rows (product cols a p) /\
  symmetric cols (product rows p a).

(** Of the vectors that bring [a x] closest to [b], the shortest. *)
Definition shortest_least_squares (rows cols : nat) (a : matrix) (b x : vector) : Prop :=
  forall y,
    square_norm rows (fun i => times cols a x i - b i) <= square_norm rows (fun i => times cols a y i - b i) /\
    (square_norm rows (fun i => times cols a y i - b i) = square_norm rows (fun i => times cols a x i - b i) ->
      square_norm cols x <= square_norm cols y).

(** The matrix put together from directions and scales: the sum over [k] of [s k] times the product of column [k] of
    [u] with column [k] of [v]. *)
Definition composed (n : nat) (u : matrix) (s : vector) (v : matrix) : matrix :=
  fun i j => bsum n (fun k => u i k * s k * v j k).
Definition falling (n : nat) (s : vector) : Prop := forall i j, (i <= j < n)%nat -> s j <= s i.
