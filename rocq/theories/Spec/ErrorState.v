(** The error of a tracked body: where its fifteen numbers sit, states that say the same, nudging one number. *)
From Coq Require Import Reals List Bool Arith.
From Verif Require Import Base.Scalar Base.RNum Base.Lists Model.Quaternion Model.ErrorState Spec.Matrix Spec.MatrixExp Spec.Rotation Spec.Quaternion.
Import ListNotations.
Local Open Scope R_scope.

(** Three numbers of an error, from the given place on: position 0, velocity 3, turn 6, turn-rate offset 9, push offset 12 *)
Definition part (e : list R) (at_ : nat) : point := (nth at_ e 0, nth (S at_) e 0, nth (S (S at_)) e 0).
(** Equal but for the sign of the quaternion, which stands for the same facing *)
Definition same_state (a b : nominal_state R) : Prop :=
  ns_position a = ns_position b /\ ns_velocity a = ns_velocity b /\ ns_gyroscope_bias a = ns_gyroscope_bias b /\
  ns_accelerometer_bias a = ns_accelerometer_bias b /\ (ns_orientation a = ns_orientation b \/ ns_orientation a = quat_neg (ns_orientation b)).
(** The error that is [t] in one place and zero elsewhere *)
Definition nudge (j : nat) (t : R) : list R := from_fn 15 (fun i => if Nat.eqb i j then t else 0).
(** The sixteen numbers of a state, in the order a sensor formula reads them *)
Definition numbers {T} (s : nominal_state T) : list T :=
  let q := ns_orientation s in
  list3 (ns_position s) ++ list3 (ns_velocity s) ++ [qw q; qx q; qy q; qz q] ++ list3 (ns_gyroscope_bias s) ++ list3 (ns_accelerometer_bias s).
(** What a step adds to the covariance: white noise on the push and the turn rate, random walks on the two offsets *)
Definition step_noise (noise : imu_noise R) (h : R) : matrix := fun i j =>
  if Nat.eqb i j then
    (if Nat.ltb i 3 then 0 else if Nat.ltb i 6 then (accelerometer_noise_density noise * h)² else if Nat.ltb i 9 then (gyroscope_noise_density noise * h)²
     else if Nat.ltb i 12 then (gyroscope_bias_random_walk noise)² * h else (accelerometer_bias_random_walk noise)² * h)
  else 0.
(** The unit matrix, less half the cross product matrix of a turn in the block of the turn *)
Definition reset_of (turn : point) : matrix := fun i j =>
  unit_matrix i j - (if (Nat.leb 6 i && Nat.ltb i 9 && Nat.leb 6 j && Nat.ltb j 9)%bool then cross_matrix turn (i - 6)%nat (j - 6)%nat / 2 else 0).
