(** What the properties of the random generator mean. *)
From Coq Require Import ZArith NArith Reals.
From Verif Require Import Base.Scalar Model.Random.
Local Open Scope Z_scope.

(** A 64-bit argument. *)
Definition is_u64 (x : Z) : Prop := 0 <= x < 2 ^ 64.

(** The generator after [n] raw draws, and the [n]-th raw draw (counted from 0). *)
Definition after {T} (n : N) (g : Pcg32 T) : Pcg32 T := N.iter n (fun g => snd (next_u32 g)) g.
Definition draw {T} (n : N) (g : Pcg32 T) : Z := fst (next_u32 (after n g)).

(** Marsaglia's polar method on a pair of uniform draws, stated on its own. *)
Section Polar.
  Context {T : Type} {NT : Num T}.
  Local Open Scope num_scope.
  Definition centred (u : T) : T := two * u - one.
  Definition radius2 (u v : T) : T := powi (centred u) 2%Z + powi (centred v) 2%Z.
  Definition accepted (u v : T) : bool := (zero <? radius2 u v) && (radius2 u v <? one).
  Definition polar_scale (u v : T) : T := sqrt (- two * log (radius2 u v) / radius2 u v).
  Definition first_normal (u v : T) : T := centred u * polar_scale u v.
  Definition second_normal (u v : T) : T := centred v * polar_scale u v.
End Polar.

(** The generator after [k] uniform draws, and the [k]-th uniform draw. *)
Section UnitSequence.
  Context {T : Type}.
  Variable next_unit : Pcg32 T -> T * Pcg32 T.
  Definition units_after (k : nat) (g : Pcg32 T) : Pcg32 T := Nat.iter k (fun g => snd (next_unit g)) g.
  Definition unit_draw (k : nat) (g : Pcg32 T) : T := fst (next_unit (units_after k g)).
End UnitSequence.
