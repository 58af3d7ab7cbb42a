(** What the mapping theorems are stated with: squares of the plane, beams, histories of writes. *)
From Coq Require Import ZArith Reals List.
From Flocq Require Import Core.Raux.
Import ListNotations.
Local Open Scope R_scope.

(** The writes a grid takes. *)
Inductive grid_write := SetCell (row column : Z) (occupied : bool) | Clear.

(** What was last written to a cell since the last clear; newest write first. *)
Fixpoint last_mark (newest_first : list grid_write) (row column : Z) : bool :=
  match newest_first with
  | [] => false
  | Clear :: _ => false
  | SetCell r c occupied :: older =>
      if (Z.eqb r row && Z.eqb c column)%bool then occupied else last_mark older row column
  end.

(** The square of side [res] with index [(row, column)] in a lattice whose lowest corner is [(ox, oy)]. *)
Definition in_half_open (ox oy res : R) (row column : Z) (p : R * R) : Prop :=
  ox + IZR column * res <= fst p < ox + (IZR column + 1) * res /\
  oy + IZR row * res <= snd p < oy + (IZR row + 1) * res.
Definition in_interior (ox oy res : R) (row column : Z) (p : R * R) : Prop :=
  ox + IZR column * res < fst p < ox + (IZR column + 1) * res /\
  oy + IZR row * res < snd p < oy + (IZR row + 1) * res.
Definition in_closed (ox oy res : R) (row column : Z) (p : R * R) : Prop :=
  ox + IZR column * res <= fst p <= ox + (IZR column + 1) * res /\
  oy + IZR row * res <= snd p <= oy + (IZR row + 1) * res.

(** The half-open rectangle of [columns] by [rows] squares. *)
Definition in_map (ox oy res : R) (columns rows : Z) (p : R * R) : Prop :=
  ox <= fst p < ox + IZR columns * res /\ oy <= snd p < oy + IZR rows * res.

(** A beam fired from a point along a bearing, after a distance. *)
Definition beam (start : R * R) (bearing distance : R) : R * R :=
  (fst start + distance * cos bearing, snd start + distance * sin bearing).

(** Two points lie in the same square of the lattice or in two that share an edge or a corner. *)
Definition neighbours (ox oy res : R) (p q : R * R) : Prop :=
  exists row column row' column', in_half_open ox oy res row column p /\ in_half_open ox oy res row' column' q /\
    (Z.abs (row - row') <= 1)%Z /\ (Z.abs (column - column') <= 1)%Z.

(** Every two consecutive members of a list are related. *)
Definition chained {A} (r : A -> A -> Prop) (l : list A) : Prop :=
  forall k x y, nth_error l k = Some x -> nth_error l (S k) = Some y -> r x y.

(** The point a fraction of the way from one point to another. *)
Definition between (p q : R * R) (t : R) : R * R := (fst p + t * (fst q - fst p), snd p + t * (snd q - snd p)).

(** The edges of a polyline: consecutive points, and the last joined to the first when closed. *)
Fixpoint consecutive {A} (l : list A) : list (A * A) :=
  match l with
  | a :: ((b :: _) as rest) => (a, b) :: consecutive rest
  | _ => []
  end.
Definition polyline_edges {A} (l : list A) (closed : bool) : list (A * A) :=
  consecutive l ++ match l with a :: _ => if closed then [(last l a, a)] else [] | [] => [] end.

(** The point of a circle at an angle. *)
Definition on_circle (center : R * R) (radius angle : R) : R * R :=
  (fst center + radius * cos angle, snd center + radius * sin angle).

(** The direction of beam [i] of [n] spread evenly over an arc centred straight ahead. *)
Definition even_beam (arc : R) (n i : nat) : R := - (arc / 2) + INR i * (arc / INR (n - 1)).

(** What the samples of an edge are to be: from end to end, without a gap. *)
Definition unbroken (ox oy res : R) (start stop : R * R) (ps : list (R * R)) : Prop :=
  hd_error ps = Some start /\ last ps start = stop /\
  (forall p, In p ps -> exists t, 0 <= t <= 1 /\ p = between start stop t) /\
  chained (neighbours ox oy res) ps /\
  (forall t, 0 <= t <= 1 -> exists p, In p ps /\ neighbours ox oy res p (between start stop t)).

(** What the angles of the samples of a rim are to be: all the way round, without a gap, closing. *)
Definition closes (ox oy res : R) (center : R * R) (radius : R) (angles : list R) : Prop :=
  hd_error angles = Some 0 /\ (forall a, In a angles -> 0 <= a < 2 * PI) /\
  chained (neighbours ox oy res) (map (on_circle center radius) angles) /\
  neighbours ox oy res (on_circle center radius (last angles 0)) (on_circle center radius 0) /\
  (forall a, 0 <= a <= 2 * PI -> exists b, In b angles /\ neighbours ox oy res (on_circle center radius b) (on_circle center radius a)).
