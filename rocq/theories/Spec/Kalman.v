(** What is said about estimates and their covariances. *)
From Coq Require Import Reals List.
From Verif Require Import Base.Series Spec.Matrix.
Import ListNotations.
Local Open Scope R_scope.

Definition minus_vector (x y : vector) : vector := fun i => x i - y i.
Definition inverse_of (n : nat) (a b : matrix) : Prop :=
  equal n n (product n a b) unit_matrix /\ equal n n (product n b a) unit_matrix.
(** a matrix that can be the covariance of something *)
Definition covariance_matrix (n : nat) (p : matrix) : Prop := symmetric n p /\ positive_semidefinite n p.
(** ... of something uncertain in every direction *)
Definition definite_covariance (n : nat) (p : matrix) : Prop := symmetric n p /\ positive_definite n p.
(** no direction is more uncertain under [p] than under [q] *)
Definition no_larger (n : nat) (p q : matrix) : Prop := forall x, quadratic n p x <= quadratic n q x.

(** The covariance of the error left after correcting an estimate of covariance [p] by [l (z - h x)], where [z] measures [h x] with
    noise of covariance [r]: [(I - lh) p (I - lh)' + l r l']. *)
Definition corrected_covariance (n m : nat) (h p r l : matrix) : matrix :=
  let t := minus_matrix unit_matrix (product m l h) in
  plus_matrix (product n t (product n p (transposed t))) (product m l (product m r (transposed l))).
(** [f p f' + q] *)
Definition carried_covariance (n : nat) (f p q : matrix) : matrix := plus_matrix (product n f (product n p (transposed f))) q.

(** The disagreement of [x] with an estimate [x0] of inverse covariance [info] and with a reading [z] of [h x] whose noise has
    inverse covariance [weight]: what a weighted least squares fit minimises. *)
Definition misfit (n m : nat) (info : matrix) (x0 : vector) (h weight : matrix) (z : vector) (x : vector) : R :=
  quadratic n info (minus_vector x x0) + quadratic m weight (minus_vector z (times n h x)).

(** One tick of a linear system: the motion [f] with a known push, the inverse covariance of its noise, what is measured, the
    inverse covariance of the measurement noise and the reading. *)
Record tick := { motion : matrix; push : vector; motion_weight : matrix; sensor : matrix; sensor_weight : matrix; reading : vector }.
(** The disagreement of a whole history of states [x0 :: xs] with the motions and the readings. *)
Fixpoint history_misfit (n m : nat) (x0 : vector) (ticks : list tick) (xs : list vector) : R :=
  match ticks, xs with
  | t :: ticks, x :: xs =>
      quadratic n (motion_weight t) (minus_vector x (fun i => times n (motion t) x0 i + push t i)) +
      quadratic m (sensor_weight t) (minus_vector (reading t) (times n (sensor t) x)) +
      history_misfit n m x ticks xs
  | _, _ => 0
  end.
