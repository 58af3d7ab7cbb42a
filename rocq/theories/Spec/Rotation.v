(** Rotations of space: vectors as triples of reals, proper rotation matrices, turning about an axis. *)
From Coq Require Import Reals List Arith.
From Verif Require Import Base.Series Spec.Matrix.
Import ListNotations.
Local Open Scope R_scope.

Definition point := (R * R * R)%type.
Definition coordinate (p : point) : vector := fun i => let '(x, y, z) := p in nth i [x; y; z] 0.
Definition inner (u v : point) : R := let '(ux, uy, uz) := u in let '(vx, vy, vz) := v in ux * vx + uy * vy + uz * vz.
Definition outer (u v : point) : point :=
  let '(ux, uy, uz) := u in let '(vx, vy, vz) := v in (uy * vz - uz * vy, uz * vx - ux * vz, ux * vy - uy * vx).
Definition length (u : point) : R := sqrt (inner u u).
Definition together (u v : point) : point :=
  let '(ux, uy, uz) := u in let '(vx, vy, vz) := v in (ux + vx, uy + vy, uz + vz).
Definition multiple (k : R) (u : point) : point := let '(x, y, z) := u in (k * x, k * y, k * z).

(** An orthogonal matrix of determinant one. *)
Definition proper_rotation (m : matrix) : Prop := equal 3 3 (product 3 (transposed m) m) unit_matrix /\ det 3 m = 1.
(** [q] is [p] carried by the matrix. *)
Definition carries (m : matrix) (p q : point) : Prop := equal_vectors 3 (times 3 m (coordinate p)) (coordinate q).

(** [p] turned by [angle] about the unit vector [n], counterclockwise as seen from the tip of [n]: the part along [n] stays,
    the part across turns in its plane. *)
Definition turned (n : point) (angle : R) (p : point) : point :=
  let across := together p (multiple (- inner n p) n) in
  together (multiple (inner n p) n) (together (multiple (cos angle) across) (multiple (sin angle) (outer n across))).

(** The matrix of the cross product with [v] *)
Definition cross_matrix (v : point) : matrix := fun i j =>
  let '(x, y, z) := v in nth j (nth i [[0; - z; y]; [z; 0; - x]; [- y; x; 0]] []) 0.
