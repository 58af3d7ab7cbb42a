(** What the properties of curves made of pieces talk about. *)
From Coq Require Import List Reals.
From Verif Require Import Base.Series.
Import ListNotations.
Local Open Scope R_scope.

(** Where piece [k] starts on the shared parameter: the spans before it added up.  Piece [k] covers
    [piece_start spans k, piece_start spans (S k)). *)
Definition piece_start (spans : list R) (k : nat) : R := bsum k (fun i => nth i spans 0).
Definition covers (spans : list R) (k : nat) (u : R) : Prop :=
  (k < length spans)%nat /\ piece_start spans k <= u < piece_start spans (S k).
Definition curve_end (spans : list R) : R := piece_start spans (length spans).

(** How far along piece [k] the parameter [u] sits, from 0 at its start to 1 at its end. *)
Definition along (spans : list R) (k : nat) (u : R) : R := (u - piece_start spans k) / nth k spans 0.

(** The nearest parameter inside the curve. *)
Definition inside (spans : list R) (u : R) : R := Rmin (Rmax u 0) (curve_end spans).
