(** Rigid motions of the plane: turns, homogeneous matrices, and the bracket of two velocities. *)
From Coq Require Import Reals List Arith.
From Verif Require Import Base.Series Model.Quaternion Model.Lie Spec.Matrix.
Import ListNotations.
Local Open Scope R_scope.

Definition entries (rows : list (list R)) : matrix := fun i j => nth j (nth i rows []) 0.
Definition planar (p : R * R) : vector := fun i => nth i [fst p; snd p] 0.
(** A point of the plane with a one appended. *)
Definition lifted (p : R * R) : vector := fun i => nth i [fst p; snd p; 1] 0.
(** The counterclockwise turn by an angle *)
Definition turn (angle : R) : matrix := entries [[cos angle; - sin angle]; [sin angle; cos angle]].
Definition proper_turn (m : matrix) : Prop := equal 2 2 (product 2 (transposed m) m) unit_matrix /\ det 2 m = 1.
(** A turn and a shift: the last row is (0, 0, 1). *)
Definition rigid_motion (m : matrix) : Prop := proper_turn m /\ m 2%nat 0%nat = 0 /\ m 2%nat 1%nat = 0 /\ m 2%nat 2%nat = 1.
(** The commutator of two matrices *)
Definition bracket (n : nat) (a b : matrix) : matrix := minus_matrix (product n a b) (product n b a).

(** The stored cosine and sine are those of an angle. *)
Definition unit_so2 (a : so2 R) : Prop := so2_cos a * so2_cos a + so2_sin a * so2_sin a = 1.
Definition unit_se2 (a : se2 R) : Prop := unit_so2 (se2_rotation a).
(** The three numbers of a planar velocity (x, y, turn), as a vector and back *)
Definition coordinates3 (v : (R * R * R)) : vector := fun i => let '(x, y, z) := v in nth i [x; y; z] 0.
Definition of_vector (v : vector) : (R * R * R) := (v 0%nat, v 1%nat, v 2%nat).
(** The matrix taking a planar velocity to its bracket with [v] *)
Definition se2_ad (v : (R * R * R)) : matrix := let '(x, y, w) := v in entries [[0; - w; y]; [w; 0; - x]; [0; 0; 0]].
