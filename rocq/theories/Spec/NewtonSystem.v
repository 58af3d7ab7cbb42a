(** What Newton's method for a system of equations is: one move, and a run of moves that did not stop.

    [f] is the system, [slopes] the matrix of its derivatives at a point or an error, [solved a b] the solution of the linear system with
    matrix [a] and right side [b] or an error, and [size] the norm. *)
From Coq Require Import List Arith.
From Verif Require Import Base.Scalar Model.Errors.
Import ListNotations.

Section NewtonSpec.
  Context {T : Type} {NT : Num T}.
  Local Open Scope num_scope.
  Variables (f : list T -> list T) (slopes : list T -> Res (list (list T)) DiffError) (solved : list (list T) -> list T -> Res (list T) LinalgError) (size : list T -> T).
  Variables (xtol ftol : T) (damped : bool).

  Definition all_finite (l : list T) : Prop := forall v, In v l -> is_finite v = true.
  (** one halved [k] times *)
  Fixpoint halving (k : nat) : T := match k with O => one | S k => halving k * half end.
  (** [y] plus [a] times [step], number by number *)
  Definition along (y step : list T) (a : T) : list T := map (fun p => fst p + a * snd p) (combine y step).
  (** the residual there is finite and smaller than the residual at [y] *)
  Definition better (y p : list T) : Prop := all_finite (f p) /\ (size (f p) <? size (f y)) = true.

  (** the Newton step from [y]: the solution of slopes * step = - residual *)
  Definition newton_step (y step : list T) : Prop :=
    exists j, slopes y = Ok j /\ (forall row, In row j -> all_finite row) /\ solved j (map neg (f y)) = Ok step.
  (** the point tried at length [a]: the full step when not damped; when damped the first halving that lowers the residual, or the
      twentieth when none does *)
  Definition chosen (y step : list T) (k : nat) : Prop :=
    if damped then (k <= 20)%nat /\ (forall i, (i < k)%nat -> ~ better y (along y step (halving i))) /\ (better y (along y step (halving k)) \/ k = 20%nat)
    else k = 0%nat.
  (** one move, from a point whose residual is above the tolerance; [a] is the length taken *)
  Definition move (y step : list T) (a : T) (x : list T) : Prop :=
    (size (f y) <=? ftol) = false /\ newton_step y step /\ exists k, chosen y step k /\ a = halving k /\ x = along y step a /\ all_finite (f x).
  Definition small_step (step : list T) (a : T) (x : list T) : bool := a * size step <=? xtol * (one + size x).

  (** [k] moves from one point to another, none with a step below the tolerance *)
  Inductive run : nat -> list T -> list T -> Prop :=
  | run_none x : run 0 x x
  | run_more k x y step a z : run k x y -> move y step a z -> small_step step a z = false -> run (S k) x z.
End NewtonSpec.
