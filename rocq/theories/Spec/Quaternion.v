(** Unit quaternions and when two quaternions stand for the same rotation. *)
From Coq Require Import Reals List.
From Verif Require Import Base.Scalar Base.RNum Model.Quaternion Spec.Matrix Spec.Rotation.
Import ListNotations.
Local Open Scope R_scope.

Definition unit_quaternion (q : quaternion R) : Prop := qw q * qw q + qx q * qx q + qy q * qy q + qz q * qz q = 1.
(** The components in the order w, x, y, z *)
Definition component (q : quaternion R) (i : nat) : R := nth i [qw q; qx q; qy q; qz q] 0.
(** The points [q] sends where the turn by [angle] about the unit vector [n] sends them *)
Definition turns (q : quaternion R) (n : point) (angle : R) : Prop := forall v, transform_point q v = turned n angle v.
(** Left multiplication by [q] as a matrix on the four components *)
Definition left_matrix (q : quaternion R) : matrix := fun i j =>
  let '(Quat w x y z) := q in nth j (nth i [[w; - x; - y; - z]; [x; w; - z; y]; [y; z; w; - x]; [z; - y; x; w]] []) 0.
