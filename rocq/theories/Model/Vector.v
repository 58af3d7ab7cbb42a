(** crates/multicalc/src/linear_algebra/vector.rs, over any scalar.

    A [Vector<N, T>] is the list of its N components.  The compiler keeps the sizes of two operands equal; here the
    componentwise operations stop at the shorter list, and the theorems only put vectors of one size together. *)
From Coq Require Import ZArith List Bool.
From Verif Require Import Base.Scalar Base.Lists.
Import ListNotations.

Section Vector.
  Context {T : Type} {NT : Num T}.
  Local Open Scope num_scope.

  Fixpoint map2 {A B C} (f : A -> B -> C) (u : list A) (v : list B) : list C :=
    match u, v with a :: u, b :: v => f a b :: map2 f u v | _, _ => [] end.

  (** vector.rs:180-182 *)
  Definition vec_zeros (n : nat) : list T := repeat zero n.
  (** vector.rs:193-195 *)
  Definition vec_scale (u : list T) (scalar : T) : list T := map (fun a => a * scalar) u.
  (** vector.rs:364-371, 382-389, 400-407 *)
  Definition vec_add (u v : list T) : list T := map2 add u v.
  Definition vec_sub (u v : list T) : list T := map2 sub u v.
  Definition vec_neg (u : list T) : list T := map neg u.
  (** vector.rs:418-425 *)
  Definition vec_div (u : list T) (scalar : T) : list T := map (fun a => safe_div a scalar) u.
  (** vector.rs:212-218 *)
  Definition dot (u v : list T) : T := fold_left (fun sum ab => sum + fst ab * snd ab) (combine u v) zero.
  (** vector.rs:228-230, 240-242, 253-255 *)
  Definition norm_squared (u : list T) : T := dot u u.
  Definition norm (u : list T) : T := sqrt (norm_squared u).
  Definition vec_is_finite (u : list T) : bool := forallb is_finite u.
  (** vector.rs:264-266 *)
  Definition normalized (u : list T) : list T := vec_div u (norm u).
  (** vector.rs:279-285 *)
  Definition try_normalized (u : list T) : option (list T) :=
    let n := norm u in if (is_nan n || (n =? zero))%bool then None else Some (vec_div u n).

  (** vector.rs:437-445; the three components are spelled out because the size is fixed by the type *)
  Definition cross3 (u v : T * T * T) : T * T * T :=
    let '(ux, uy, uz) := u in
    let '(vx, vy, vz) := v in
    (uy * vz - uz * vy, uz * vx - ux * vz, ux * vy - uy * vx).
  (** vector.rs:476-480 *)
  Definition cross2 (u v : T * T) : T := fst u * snd v - snd u * fst v.
End Vector.
