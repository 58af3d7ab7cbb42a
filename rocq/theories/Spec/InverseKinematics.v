(** Inverse kinematics: what a residual is, what can be wrong with a request, what a run is, and what the limits and the least squares step are. *)
From Coq Require Import Reals List Bool Arith.
From Verif Require Import Base.Scalar Base.RNum Base.Series Model.Errors Model.Vector Model.Matrix Model.Svd Model.Quaternion Model.Lie Model.Drive Model.KinematicTree Model.InverseKinematics Spec.Matrix Spec.KinematicTree.
Import ListNotations.

(** The residuals at a configuration: the lengths of the two halves of the logarithm of what takes the tool's pose to the target. *)
Definition residuals {T} {NT : Num T} (max_joints : nat) (t : tree T) (tool_index : nat) (target : se3 T) (configuration : list T) (position orientation : T) : Prop :=
  exists poses pose, forward_kinematics max_joints configuration t = Ok poses /\ nth_error poses tool_index = Some pose /\
    position = norm3 (fst (se3_log (se3_compose (se3_inverse pose) target))) /\ orientation = norm3 (snd (se3_log (se3_compose (se3_inverse pose) target))).
Definition within_tolerances {T} {NT : Num T} (s : ik T) (position orientation : T) : Prop :=
  Scalar.leb position (ik_position_tolerance s) = true /\ Scalar.leb orientation (ik_orientation_tolerance s) = true.

(** What can be wrong with a request, and how it is reported; the first that applies is. *)
Definition numbers_of_pose {T} (p : se3 T) : list T :=
  let '(x, y, z) := se3_translation p in let q := se3_rotation p in [x; y; z; qw q; qx q; qy q; qz q].
Definition request_problems {T} {NT : Num T} (s : ik T) (t : tree T) (tool_index : nat) (target : se3 T) (seed : list T) : list (Prop * KinematicsError) :=
  [ ((tree_len t <= tool_index)%nat, KiToolIndexOutOfRange);
    (exists x, In x (seed ++ numbers_of_pose target) /\ is_finite x = false, KiNonFinite);
    (exists k, (k < velocity_len t)%nat /\ (nth_error (ik_joint_weights s) k = None \/ Scalar.leb (nth k (ik_joint_weights s) zero) zero = true), KiNonPositiveWeight) ].

(** One pass: from a configuration the step worked out there, from the pose of the tool, leads to the next. *)
Definition pass {T} {NT : Num T} (max_joints max_config : nat) (s : ik T) (t : tree T) (tool_index : nat) (target : se3 T) (q q' : list T) : Prop :=
  exists poses pose step, forward_kinematics max_joints q t = Ok poses /\ nth_error poses tool_index = Some pose /\
    step_at max_joints max_config s t tool_index poses (se3_log (se3_compose (se3_inverse pose) target)) q = Ok step /\ q' = next_configuration s t q step.
(** The change of the configuration is no longer than the minimum. *)
Definition too_short {T} {NT : Num T} (s : ik T) (q q' : list T) : Prop := Scalar.leb (Vector.norm (Vector.vec_sub q' q)) (ik_minimum_step_norm s) = true.
(** [n] passes lead from one configuration to another, none of them from a configuration within the tolerances and none too short. *)
Inductive passes {T} {NT : Num T} (max_joints max_config : nat) (s : ik T) (t : tree T) (tool_index : nat) (target : se3 T) : nat -> list T -> list T -> Prop :=
| passes_none q : passes max_joints max_config s t tool_index target 0 q q
| passes_more n q q' q'' position orientation : residuals max_joints t tool_index target q position orientation -> ~ within_tolerances s position orientation ->
    pass max_joints max_config s t tool_index target q q' -> ~ too_short s q q' -> passes max_joints max_config s t tool_index target n q' q'' ->
    passes max_joints max_config s t tool_index target (S n) q q''.

Local Open Scope R_scope.
(** Every joint that has limits reads between them; a floating joint has no such reading. *)
Definition inside_limits (t : tree R) (configuration : list R) : Prop :=
  forall i j at_ lower upper, tree_joint t i = Some j -> config_offset t i = Some at_ -> jt_kind j <> Floating -> jt_limits j = Some (lower, upper) ->
    lower <= nth at_ configuration 0 <= upper.
Definition no_floating (t : tree R) : Prop := forall i j, tree_joint t i = Some j -> jt_kind j <> Floating.

(** Weighted lengths, and the damped least squares step: of all changes [x] of the joints, the one with the least sum of the squared error
    [J x - e] and [damping] times the squared distance, weighted, from the wish [b]; with no damping, of all that leave no error the one nearest [b]. *)
Definition weighted (n : nat) (w : vector) (x : vector) : R := bsum n (fun k => w k * (x k * x k)).
Definition squared_error (rows n : nat) (J : matrix) (e x : vector) : R := square_norm rows (fun i => times n J x i - e i).
Definition damped_least_squares (rows n : nat) (J : matrix) (w : vector) (damping : R) (e b x : vector) : Prop :=
  (0 < damping -> forall y, squared_error rows n J e x + damping * weighted n w (fun k => x k - b k) <= squared_error rows n J e y + damping * weighted n w (fun k => y k - b k)) /\
  (damping = 0 -> squared_error rows n J e x = 0 /\ forall y, squared_error rows n J e y = 0 -> weighted n w (fun k => x k - b k) <= weighted n w (fun k => y k - b k)).

(** The rate a secondary objective wishes for one joint whose reading sits at [at_]: towards the reference, the shortest way round for a
    joint that turns for ever; or towards the middle of the limits, the further the narrower they are. *)
Definition wished_rate (objective : SecondaryObjective R) (j : joint R) (at_ : nat) (configuration : list R) (gain rate : R) : Prop :=
  let reading := nth at_ configuration 0 in
  if kind_eqb (jt_kind j) Fixed || kind_eqb (jt_kind j) Floating then rate = 0
  else match objective with
  | NoObjective => rate = 0
  | PreferredPosture reference =>
      match nth_error reference at_ with
      | None => rate = 0
      | Some preferred =>
          if kind_eqb (jt_kind j) Continuous then exists turns : Z, - PI <= preferred - reading - 2 * PI * IZR turns <= PI /\ rate = gain * (preferred - reading - 2 * PI * IZR turns)
          else rate = gain * (preferred - reading)
      end
  | JointLimitMargin =>
      match jt_limits j with
      | None => rate = 0
      | Some (lower, upper) => (lower < upper -> rate = gain * ((lower + upper) / 2 - reading) / (upper - lower)) /\ (lower = upper -> rate = 0)
      end
  end.
(** The reading a joint is left with: inside its limits when they are to be respected. *)
Definition held (respect : bool) (limits : option (R * R)) (reading : R) : R :=
  match respect, limits with true, Some (lower, upper) => Rmin (Rmax reading lower) upper | _, _ => reading end.

(** The six by six matrix [J W^-1 J' + damping I] that inverse kinematics decomposes. *)
Definition damped_gram (n : nat) (J : matrix) (w : vector) (damping : R) : matrix :=
  fun i r => bsum n (fun k => J i k * J r k / w k) + (if Nat.eqb i r then damping else 0).
(** The library's decomposition of a square matrix comes to rest within its sweeps, and none of the singular values it finds is so small that
    solving leaves it out. *)
Definition settles (n : nat) (g : matrix) : Prop := exists d, svd_found n n (mat_fn n n g) = (d, true).
Definition well_solved (n : nat) (g : matrix) : Prop := exists d, svd_found n n (mat_fn n n g) = (d, true) /\
  INR n * / 2 ^ 52 * nth 0 (singular_values d) 0 < nth (n - 1) (singular_values d) 0.
(** The squared length, each joint over its weight, of the joint rates that a push [y] on the tool would drive. *)
Definition felt (n : nat) (J : matrix) (w y : vector) : R := bsum n (fun k => times 6 (transposed J) y k * times 6 (transposed J) y k / w k).
(** [s] is, but for some parts in [2^52], the least length a push of length one is felt with: the smallest singular value. *)
Definition least_felt (n : nat) (J : matrix) (w : vector) (s : R) : Prop :=
  0 <= s /\ (exists y, square_norm 6 y = 1 /\ felt n J w y <= s * s) /\ forall y, (1 - 6 * / 2 ^ 52) * (s * s) * square_norm 6 y <= felt n J w y.
(** What was decomposed is exact: the left columns are orthogonal and every singular value is nought or too large to be left out. *)
Definition cleanly_solved (n : nat) (g : matrix) : Prop := exists d, svd_of n n (mat_fn n n g) = Ok d /\
  (forall p q, (p < n)%nat -> (q < n)%nat -> p <> q -> dot_product n (column (mget (svd_left d)) p) (column (mget (svd_left d)) q) = 0) /\
  (forall k, (k < n)%nat -> nth k (singular_values d) 0 = 0 \/ INR n * / 2 ^ 52 * nth 0 (singular_values d) 0 < nth k (singular_values d) 0).
(** How much of a direction is along the axes, and how much about them. *)
Definition along (y : vector) : R := y 0%nat * y 0%nat + y 1%nat * y 1%nat + y 2%nat * y 2%nat.
Definition about (y : vector) : R := y 3%nat * y 3%nat + y 4%nat * y 4%nat + y 5%nat * y 5%nat.
(** Of all joint rates that bring the tool closest to a twist [e], those with the least weighted effort. *)
Definition weighted_least_squares (rows n : nat) (J : matrix) (w : vector) (e x : vector) : Prop :=
  forall y, squared_error rows n J e x <= squared_error rows n J e y /\ (squared_error rows n J e y = squared_error rows n J e x -> weighted n w x <= weighted n w y).
