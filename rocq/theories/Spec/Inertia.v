(** Velocities and loads of a rigid body at a point, power, and bodies made of point masses. *)
From Coq Require Import Reals List Arith.
From Verif Require Import Base.Series Base.RNum Model.Matrix Model.Quaternion Model.Lie Spec.Matrix Spec.Rotation Spec.Space.
Import ListNotations.
Local Open Scope R_scope.

(** The velocity of the particle at [p] of a body moving with [v], given at the origin *)
Definition point_velocity (v : velocity) (p : point) : point := together (fst v) (outer (snd v) p).
(** The moment about [p] of a load (force, torque), given at the origin *)
Definition moment (w : velocity) (p : point) : point := together (snd w) (multiple (-1) (outer p (fst w))).
Definition power (v w : velocity) : R := inner (fst v) (fst w) + inner (snd v) (snd w).

(** Point masses: the mass and the place of each *)
Definition cloud := list (R * point).
Definition total (f : R * point -> R) (c : cloud) : R := fold_right (fun x s => f x + s) 0 c.
Definition total_point (f : R * point -> point) (c : cloud) : point := fold_right (fun x s => together (f x) s) (0, 0, 0) c.
(** One unit of mass displaced by [d]: the matrix of w -> d x (w x d) *)
Definition displaced (d : point) : matrix := fun i j => (if Nat.eqb i j then inner d d else 0) - coordinate d i * coordinate d j.
(** The rotational inertia of the particles about [p] *)
Definition spread (c : cloud) (p : point) : matrix := fun i j => total (fun x => fst x * displaced (together (snd x) (multiple (-1) p)) i j) c.
(** The mass, balance point and rotational inertia are those of the particles. *)
Definition describes (b : inertia R) (c : cloud) : Prop :=
  mass b = total fst c /\ multiple (mass b) (center_of_mass b) = total_point (fun x => multiple (fst x) (snd x)) c /\
  equal 3 3 (mget (rotational_inertia b)) (spread c (center_of_mass b)).
(** The particles after a motion *)
Definition moved (f : point -> point) (c : cloud) : cloud := map (fun x => (fst x, f (snd x))) c.
