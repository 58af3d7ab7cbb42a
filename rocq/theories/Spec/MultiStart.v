(** How far apart two configurations are, which answers a run from several starts keeps, and what its drawn starts are. *)
From Coq Require Import Reals List Bool Arith.
From Verif Require Import Base.Scalar Base.RNum Model.Errors Model.Quaternion Model.Lie Model.Drive Model.KinematicTree Model.InverseKinematics Spec.Matrix Spec.Rotation Spec.Quaternion Spec.Space Spec.KinematicTree.
Import ListNotations.
Local Notation length := List.length.
Local Notation cos := Rtrigo_def.cos.
Local Notation sin := Rtrigo_def.sin.

(** [l] is [l'] with some of its entries left out. *)
Inductive subsequence {A} : list A -> list A -> Prop :=
| subsequence_none : subsequence [] []
| subsequence_keep x l l' : subsequence l l' -> subsequence (x :: l) (x :: l')
| subsequence_skip x l l' : subsequence l l' -> subsequence l (x :: l').
Definition converged {T} (r : ik_report T) : bool := match ik_termination r with IkConverged => true | _ => false end.
(** The second answer counts as the same branch as the first. *)
Definition same_branch {T} {NT : Num T} (t : tree T) (threshold : T) (r r' : ik_report T) : Prop :=
  Scalar.ltb (configuration_distance (ik_joint_positions r) (ik_joint_positions r') t) threshold = true.

(** The [n]-th number a source gives, counted from none, and the source after [n] numbers *)
Fixpoint source_after {Rng T : Type} (next_unit : Rng -> T * Rng) (n : nat) (source : Rng) : Rng :=
  match n with O => source | S n => source_after next_unit n (snd (next_unit source)) end.
Definition drawn {Rng T : Type} (next_unit : Rng -> T * Rng) (n : nat) (source : Rng) : T := fst (next_unit (source_after next_unit n source)).
Definition moves {T} (j : joint T) : bool := negb (kind_eqb (jt_kind j) Fixed || kind_eqb (jt_kind j) Floating).
(** How many of the first [i] joints move *)
Definition moving_before {T} (t : tree T) (i : nat) : nat := length (filter (@moves T) (firstn i (tr_joints t))).
(** What a number drawn from [0, 1) makes of a joint's reading: the place that far along its limits, or that far along the span about the reading *)
Definition redrawn {T} {NT : Num T} (j : joint T) (reading span u : T) : T :=
  match jt_limits j with Some (lower, upper) => add lower (mul u (sub upper lower)) | None => add reading (mul (sub (mul u two) one) span) end.
(** [seed] is [base] with every moving joint redrawn, each from a number of its own, in their order, beginning with the [first] the source gives. *)
Definition redraws {T Rng} {NT : Num T} (next_unit : Rng -> T * Rng) (source : Rng) (first : nat) (t : tree T) (span : T) (base seed : list T) : Prop :=
  length seed = length base /\
  (forall i j at_, tree_joint t i = Some j -> config_offset t i = Some at_ -> moves j = true ->
     nth at_ seed zero = redrawn j (nth at_ base zero) span (drawn next_unit (first + moving_before t i) source)) /\
  (forall k, (forall i j at_, tree_joint t i = Some j -> config_offset t i = Some at_ -> moves j = true -> at_ <> k) -> nth k seed zero = nth k base zero).

Local Open Scope R_scope.
(** The angle [turn] between two orientations, at most half a turn.  Below 30 machine epsilons the code takes twice the sine of its half instead. *)
Definition turned_apart (p q : quaternion R) (measured : R) : Prop :=
  exists turn, 0 <= turn <= PI /\ cos (turn / 2) = Rabs (qw p * qw q + qx p * qx q + qy p * qy q + qz p * qz q) / (quat_norm p * quat_norm q) /\
    measured = if Rlt_dec (sin (turn / 2)) (30 / IZR (2^52)) then 2 * sin (turn / 2) else turn.
(** What a joint whose readings start at [at_] adds to the squared distance of two configurations *)
Definition apart (a b : list R) (at_ : nat) (j : joint R) (squared : R) : Prop :=
  let x k := nth (at_ + k) a 0 in let y k := nth (at_ + k) b 0 in
  match jt_kind j with
  | Fixed => squared = 0
  | Revolute | Prismatic => squared = (x 0%nat - y 0%nat) ^ 2
  | Continuous => exists turns : Z, - PI <= x 0%nat - y 0%nat - 2 * PI * IZR turns <= PI /\ squared = (x 0%nat - y 0%nat - 2 * PI * IZR turns) ^ 2
  | Floating =>
      (has_orientation a at_ j /\ has_orientation b at_ j -> exists turn,
         turned_apart (Quat (x 3%nat) (x 4%nat) (x 5%nat) (x 6%nat)) (Quat (y 3%nat) (y 4%nat) (y 5%nat) (y 6%nat)) turn /\
         squared = (x 0%nat - y 0%nat) ^ 2 + (x 1%nat - y 1%nat) ^ 2 + (x 2%nat - y 2%nat) ^ 2 + turn ^ 2) /\
      (~ (has_orientation a at_ j /\ has_orientation b at_ j) -> squared = 0)
  end.
