(** What is said about matrices, for matrices of real numbers seen as functions of row and column. *)
From Coq Require Import Reals List Arith.
From Verif Require Import Base.Series.
Local Open Scope R_scope.

(** A matrix as the library stores it: a list of [rows] rows of [cols] entries each. *)
Definition shape {T : Type} (rows cols : nat) (m : list (list T)) : Prop :=
  length m = rows /\ forall i, (i < rows)%nat -> length (nth i m nil) = cols.

Definition matrix := nat -> nat -> R.
Definition vector := nat -> R.

(** The product of an [_ x n] matrix with an [n x _] one, and with a vector of length [n]. *)
Definition product (n : nat) (a b : matrix) : matrix := fun i j => bsum n (fun k => a i k * b k j).
Definition times (n : nat) (a : matrix) (x : vector) : vector := fun i => bsum n (fun k => a i k * x k).
Definition transposed (a : matrix) : matrix := fun i j => a j i.
Definition unit_matrix : matrix := fun i j => if Nat.eqb i j then 1 else 0.
Definition dot_product (n : nat) (x y : vector) : R := bsum n (fun k => x k * y k).
Definition square_norm (n : nat) (x : vector) : R := dot_product n x x.

Definition equal (rows cols : nat) (a b : matrix) : Prop :=
  forall i j, (i < rows)%nat -> (j < cols)%nat -> a i j = b i j.
Definition equal_vectors (n : nat) (x y : vector) : Prop := forall i, (i < n)%nat -> x i = y i.
Definition symmetric (n : nat) (a : matrix) : Prop := equal n n a (transposed a).

(** Some vector other than zero is sent to zero. *)
Definition singular (n : nat) (a : matrix) : Prop :=
  exists x, (exists i, (i < n)%nat /\ x i <> 0) /\ equal_vectors n (times n a x) (fun _ => 0).
Definition positive_definite (n : nat) (a : matrix) : Prop :=
  forall x, (exists i, (i < n)%nat /\ x i <> 0) -> 0 < dot_product n x (times n a x).

Definition unit_lower_triangular (n : nat) (l : matrix) : Prop :=
  forall i j, (i < n)%nat -> (j < n)%nat -> (i = j -> l i j = 1) /\ ((i < j)%nat -> l i j = 0).
Definition lower_triangular (n : nat) (l : matrix) : Prop :=
  forall i j, (i < n)%nat -> (j < n)%nat -> (i < j)%nat -> l i j = 0.
Definition upper_triangular (n : nat) (u : matrix) : Prop :=
  forall i j, (i < n)%nat -> (j < n)%nat -> (j < i)%nat -> u i j = 0.

(** Distinct columns are orthogonal and each has length one. *)
Definition column (a : matrix) (j : nat) : vector := fun i => a i j.
Definition orthonormal_columns (rows cols : nat) (q : matrix) : Prop :=
  forall i j, (i < cols)%nat -> (j < cols)%nat -> dot_product rows (column q i) (column q j) = if Nat.eqb i j then 1 else 0.

(** Every column is short enough for its squares to be added without scaling: its length is below [sqrt largest / rows]. *)
Definition columns_below (largest : R) (rows cols : nat) (a : matrix) : Prop :=
  forall j, (j < cols)%nat -> square_norm rows (column a j) < largest / (INR rows * INR rows).

(** The determinant, expanded along the first column: the matrix left when row [i] and the first column are struck
    out is [without i a]. *)
Definition skip (i r : nat) : nat := if Nat.ltb r i then r else S r.
Definition without (i : nat) (a : matrix) : matrix := fun r c => a (skip i r) (S c).
Fixpoint det (n : nat) (a : matrix) : R :=
  match n with
  | O => 1
  | S m => bsum n (fun i => (-1) ^ i * a i O * det m (without i a))
  end.

(** Sums, differences, multiples and powers of matrices; the quadratic form [x' a x]; the sum of the squared entries. *)
Definition plus_matrix (a b : matrix) : matrix := fun i j => a i j + b i j.
Definition minus_matrix (a b : matrix) : matrix := fun i j => a i j - b i j.
Definition scaled_matrix (c : R) (a : matrix) : matrix := fun i j => c * a i j.
Definition zero_matrix : matrix := fun _ _ => 0.
Fixpoint power (n : nat) (a : matrix) (k : nat) : matrix := match k with O => unit_matrix | S k => product n (power n a k) a end.
Definition quadratic (n : nat) (a : matrix) (x : vector) : R := dot_product n x (times n a x).
Definition squares_sum (n : nat) (a : matrix) : R := bsum n (fun i => bsum n (fun j => a i j * a i j)).
Definition positive_semidefinite (n : nat) (a : matrix) : Prop := forall x, 0 <= quadratic n a x.
(** [Q + A'QA + ... + (A^(k-1))' Q A^(k-1)] *)
Fixpoint discounted (n : nat) (a q : matrix) (k : nat) : matrix :=
  match k with O => zero_matrix | S k => plus_matrix (discounted n a q k) (product n (transposed (power n a k)) (product n q (power n a k))) end.
