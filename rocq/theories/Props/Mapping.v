(** Occupancy maps, beams across them and the beams of a scan: C34 to C41. *)
From Coq Require Import ZArith Reals Lra Lia Psatz List Bool.
From Flocq Require Import Core.Raux IEEE754.BinarySingleNaN.
From Verif Require Import Base.Scalar Base.RNum Base.XNum Base.FNum Base.Lists Model.Errors Model.Mapping Spec.Mapping Proofs.Mapping.
Import ListNotations.
Local Open Scope R_scope.

Lemma is_ok {A E} (x : Res A E) : match x with Ok _ => true | _ => false end = true -> exists a, x = Ok a.
Proof. destruct x; try discriminate. eauto. Qed.

(** * C34: a grid is a map from cells to flags *)

(** One write to a grid. *)
Definition apply_write {T} (g : Grid T) (w : grid_write) : Grid T :=
  match w with SetCell row column occupied => set_cell g row column occupied | Clear => grid_clear g end.
(** Indices are unsigned. *)
Definition unsigned_write (w : grid_write) : Prop :=
  match w with SetCell row column _ => (0 <= row)%Z /\ (0 <= column)%Z | Clear => True end.

(** For any scalar: after any writes to a new grid, a cell reads what was last written to it since
    the last clear, and a cell off the grid reads free; the writes leave the rest of the grid alone. *)
Theorem C34_grid : forall (T : Type) (NT : Num T) (columns rows : Z) (resolution : T) (origin : T * T) (g : Grid T) (writes : list grid_write),
  (0 <= columns)%Z -> (0 <= rows)%Z -> grid_try_new columns rows resolution origin = Ok g ->
  List.Forall unsigned_write writes ->
  let h := fold_left apply_write writes g in
  (gr_columns h = columns /\ gr_rows h = rows /\ gr_resolution h = resolution /\ gr_origin h = origin) /\
  forall row column, (0 <= row)%Z -> (0 <= column)%Z ->
    grid_is_occupied h row column = (Z.ltb row rows && Z.ltb column columns && last_mark (rev writes) row column)%bool.
Proof.
  intros T NT columns rows resolution origin g writes HC HR Hg Hw. apply try_new_ok in Hg; try assumption.
  destruct Hg as (Ok & E1 & E2 & E3 & E4 & Free & _). cbv zeta.
  revert Hw. induction writes as [|w writes IH] using rev_ind; intros Hw.
  - cbn. split; [auto|]. intros. rewrite Free, andb_false_r. reflexivity.
  - apply List.Forall_app in Hw. destruct Hw as [Hw H1]. inversion H1 as [|? ? Hu _]; subst. specialize (IH Hw). destruct IH as ((F1 & F2 & F3 & F4) & IH).
    rewrite fold_left_app, rev_app_distr. cbn [fold_left rev app].
    assert (Ok' : grid_ok (fold_left apply_write writes g)).
    { clear - Ok. revert g Ok. induction writes as [|[r c b|] ws IH]; intros g Ok; cbn; [assumption|apply IH, set_cell_ok, Ok|apply IH, clear_ok, Ok]. }
    set (h := fold_left apply_write writes g) in *. destruct w as [r c b|]; cbn [apply_write last_mark].
    + destruct (set_cell_shape h r c b) as (G1 & G2 & G3 & G4). split; [repeat split; congruence|].
      intros row column Hr Hc. destruct Hu. rewrite set_cell_reads by assumption. rewrite IH by assumption. rewrite F1, F2.
      destruct (Z.eqb r row && Z.eqb c column)%bool; destruct (Z.ltb row (gr_rows g)); destruct (Z.ltb column (gr_columns g)); reflexivity.
    + split; [cbn; auto|]. intros. rewrite clear_reads, andb_false_r. reflexivity.
Qed.

(** Exactly which grids are refused: an empty one, one of 2^64 cells or more, and a cell size or
    corner that is not finite, or a cell size that is not positive. *)
Theorem C34_accepts : forall (columns rows : Z) (resolution x y : XR), (0 <= columns)%Z -> (0 <= rows)%Z ->
  (exists g, grid_try_new columns rows resolution (x, y) = Ok g) <->
  (0 < columns)%Z /\ (0 < rows)%Z /\ (columns * rows < 2 ^ 64)%Z /\
  (exists r, resolution = Fin r /\ 0 < r) /\ (exists u, x = Fin u) /\ (exists v, y = Fin v).
Proof.
  intros columns rows res x y HC HR. unfold grid_try_new. cbn [fst snd].
  destruct (Z.eqb_spec columns 0) as [->|Nc]; [split; [intros [g H]; discriminate|lia]|].
  destruct (Z.eqb_spec rows 0) as [->|Nr]; [split; [intros [g H]; discriminate|lia]|]. cbn [orb].
  unfold usize_limit. destruct (Z.leb_spec (2 ^ 64) (columns * rows)); [split; [intros [g Hg]; discriminate|lia]|].
  destruct res as [r| | |]; cbn; try (split; [intros [g Hg]; discriminate|intros (_ & _ & _ & (r & E & _) & _); discriminate]).
  destruct x as [u| | |]; cbn; try (split; [intros [g Hg]; discriminate|intros (_ & _ & _ & _ & (r' & E) & _); discriminate]).
  destruct y as [v| | |]; cbn; try (split; [intros [g Hg]; discriminate|intros (_ & _ & _ & _ & _ & (r' & E)); discriminate]).
  destruct (Rleb r 0) eqn:E.
  - apply Rleb_true in E. split; [intros [g Hg]; discriminate|]. intros (_ & _ & _ & (r' & Er & Hr) & _). injection Er as <-. lra.
  - apply Rleb_false in E. split; [|eauto]. intros _. repeat split; eauto; lia.
Qed.

Example C34_example :
  exists g, grid_try_new 3 2 (Fin (1 / 2)) (Fin 0, Fin (-1)) = Ok g /\
  let h := fold_left apply_write [SetCell 1 2 true; SetCell 0 0 true; SetCell 5 1 true; SetCell 0 0 false] g in
  grid_is_occupied h 1 2 = true /\ grid_is_occupied h 0 0 = false /\ grid_is_occupied h 5 1 = false /\
  grid_is_occupied (apply_write h Clear) 1 2 = false.
Proof.
  eexists. split.
  - unfold grid_try_new. cbn. rewrite (proj2 (Rleb_false (1 / 2) 0)) by lra. reflexivity.
  - cbn. repeat split.
Qed.

(** * C35: the cell holding a point *)

(** With exact arithmetic, the cell returned is the one whose half-open square holds the point ... *)
Theorem C35_cell_of : forall (m : OccupancyMap R) (p : R * R) (row column : Z),
  0 < om_resolution m -> (om_columns m < 2 ^ 64)%Z -> (om_rows m < 2 ^ 64)%Z ->
  (cell_of m p = Some (row, column) <->
   (0 <= row < om_rows m)%Z /\ (0 <= column < om_columns m)%Z /\
   in_half_open (fst (om_origin m)) (snd (om_origin m)) (om_resolution m) row column p).
Proof. intros. apply cell_of_R; [assumption| |]; unfold two64m1; lia. Qed.

(** ... and none is returned exactly when the point is off the map. *)
Theorem C35_none : forall (m : OccupancyMap R) (p : R * R),
  0 < om_resolution m -> (om_columns m < 2 ^ 64)%Z -> (om_rows m < 2 ^ 64)%Z ->
  (cell_of m p = None <-> ~ in_map (fst (om_origin m)) (snd (om_origin m)) (om_resolution m) (om_columns m) (om_rows m) p).
Proof.
  intros m p Hres HC HR. pose proof (fun r c => C35_cell_of m p r c Hres HC HR) as H. set (res := om_resolution m) in *.
  split.
  - intros E [[A B] [C D]]. rewrite E in H.
    set (c := Zfloor ((fst p - fst (om_origin m)) / res)). set (r := Zfloor ((snd p - snd (om_origin m)) / res)).
    assert (I : in_half_open (fst (om_origin m)) (snd (om_origin m)) res r c p) by (apply in_half_open_index; auto).
    pose proof I as [[I1 I2] [I3 I4]].
    enough (None = Some (r, c)) by discriminate. apply H.
    assert (F : forall k o x n, o <= x < o + IZR n * res -> o + IZR k * res <= x < o + (IZR k + 1) * res -> (0 <= k < n)%Z).
    { intros k o x n [F1 F2] [F3 F4]. split; [assert (-1 < k)%Z; [|lia]|]; apply lt_IZR; cbn; nra. }
    split; [apply (F r (snd (om_origin m)) (snd p)); split; assumption|]. split; [apply (F c (fst (om_origin m)) (fst p)); split; assumption|exact I].
  - intros N. destruct (cell_of m p) as [[r c]|]; [|reflexivity]. exfalso. apply N.
    destruct (proj1 (H r c) eq_refl) as (Hr & Hc & [A B] & [C D]).
    assert (IZR r + 1 <= IZR (om_rows m)) by (rewrite <- plus_IZR; apply IZR_le; lia).
    assert (IZR c + 1 <= IZR (om_columns m)) by (rewrite <- plus_IZR; apply IZR_le; lia).
    assert (0 <= IZR r) by (apply IZR_le; lia). assert (0 <= IZR c) by (apply IZR_le; lia).
    split; split; nra.
Qed.

(** A point with an infinite coordinate is off the map. *)
Theorem C35_infinite : forall (m : OccupancyMap XR) (x y : XR) (res ox oy : R),
  om_resolution m = Fin res -> om_origin m = (Fin ox, Fin oy) -> 0 < res -> (om_columns m < 2 ^ 64)%Z -> (om_rows m < 2 ^ 64)%Z ->
  x = PInf \/ x = NInf \/ y = PInf \/ y = NInf -> cell_of m (x, y) = None.
Proof.
  intros m x y res ox oy Er Eo Hres HC HR H. unfold cell_of. rewrite Er, Eo. cbn [fst snd].
  assert (Dp : div (sub PInf (Fin ox)) (Fin res) = PInf /\ div (sub PInf (Fin oy)) (Fin res) = PInf).
  { cbn. destruct (Rlt_dec res 0); [lra|auto]. }
  assert (Dn : div (sub NInf (Fin ox)) (Fin res) = NInf /\ div (sub NInf (Fin oy)) (Fin res) = NInf).
  { cbn. destruct (Rlt_dec res 0); [lra|auto]. }
  destruct Dp as [D1 D2], Dn as [D3 D4].
  destruct H as [-> | [-> | [-> | ->]]]; rewrite ?D1, ?D2, ?D3, ?D4.
  - cbn [floor Xnum lift ltb zero xlt orb to_usize]. destruct (xlt _ _); [reflexivity|]. destruct (Z.ltb_spec two64m1 (om_columns m)); [unfold two64m1 in *; lia|reflexivity].
  - reflexivity.
  - cbn [floor Xnum lift ltb zero xlt orb to_usize]. rewrite orb_false_r. destruct (xlt _ _); [reflexivity|]. destruct (Z.ltb_spec two64m1 (om_rows m)); [unfold two64m1 in *; lia|]. rewrite andb_false_r. reflexivity.
  - cbn [floor Xnum lift ltb zero xlt orb]. rewrite orb_true_r. reflexivity.
Qed.

(** The full claim, false: a coordinate that is not a number gives none.  In f64 the point (NaN, NaN)
    falls in the corner cell of every grid that can be built. *)
Theorem C35_nan_refuted : forall (lm : Libm f64) (columns rows : Z) (resolution : f64) (origin : f64 * f64) (g : Grid f64),
  (0 <= columns)%Z -> (0 <= rows)%Z -> @grid_try_new f64 (f64num lm) columns rows resolution origin = Ok g ->
  @cell_of f64 (f64num lm) (grid_map g) (B754_nan, B754_nan) = Some (0%Z, 0%Z).
Proof.
  intros lm columns rows res origin g HC HR H. pose proof (try_new_ok (NT := f64num lm) columns rows res origin g HC HR H) as ((Pc & Pr & _) & _).
  unfold cell_of. cbn [grid_map om_origin om_resolution om_columns om_rows fst snd].
  assert (E : forall a b : f64, @floor f64 (f64num lm) (@div f64 (f64num lm) (@sub f64 (f64num lm) B754_nan a) b) = B754_nan).
  { intros [| | |] [| | |]; reflexivity. }
  rewrite !E. cbn. destruct (Z.ltb_spec 0 (gr_columns g)); [|lia]. destruct (Z.ltb_spec 0 (gr_rows g)); [|lia]. reflexivity.
Qed.

Example C35_example :
  let m := {| om_columns := 4; om_rows := 4; om_resolution := 1 / 2; om_origin := (-1, -1); om_is_occupied := fun _ _ => false |} in
  cell_of m (-1, -1 / 2) = Some (1%Z, 0%Z) /\ cell_of m (1, 1) = None /\
  forall lm, exists g, @grid_try_new f64 (f64num lm) 4 4 (F64 1 (-1)) (F64 (-1) 0, F64 (-1) 0) = Ok g.
Proof.
  intros m. split; [|split].
  - apply C35_cell_of; cbn; try lra; try lia. repeat split; try lia; cbn; lra.
  - apply C35_none; cbn; try lra; try lia. intros [[A B] _]. cbn in *. lra.
  - intros lm. apply is_ok. vm_compute. reflexivity.
Qed.

(** * C36: casting a ray finishes *)

(** For any scalar at all, with any arithmetic: [columns + rows] cell steps, and so one more pass of
    the loop, are always enough, and [cast_ray] gives the answer reached then. *)
Theorem C36_finishes : forall (T : Type) (NT : Num T) (m : OccupancyMap T) (start : T * T) (bearing maximum_range : T),
  (0 <= om_columns m)%Z -> (0 <= om_rows m)%Z ->
  forall passes, (om_columns m + om_rows m < Z.of_nat passes)%Z ->
    cast_ray_within passes m start bearing maximum_range = Some (cast_ray m start bearing maximum_range).
Proof.
  intros T NT m start bearing mx HC HR passes Hp. destruct (cast_ray_ends m start bearing mx HC HR) as [a Ha].
  unfold cast_ray. rewrite (Ha passes) by assumption. rewrite Ha by lia. reflexivity.
Qed.

Definition demo_room (occupied : Z -> Z -> bool) : OccupancyMap XR :=
  {| om_columns := 4; om_rows := 4; om_resolution := Fin (1 / 2); om_origin := (Fin 0, Fin 0); om_is_occupied := occupied |}.
Example C36_example : forall occupied maximum_range,
  cast_ray_within 9 (demo_room occupied) (XNaN, NInf) XNaN maximum_range = Some (cast_ray (demo_room occupied) (XNaN, NInf) XNaN maximum_range).
Proof. intros. apply C36_finishes; cbn; lia. Qed.

(** * C37: the first obstacle *)

(** With exact arithmetic (and the infinities the code uses for a beam along an axis). *)
Theorem C37_first_obstacle : forall (m : OccupancyMap XR) (sx sy ox oy res bearing : R) (maximum_range : XR),
  om_resolution m = Fin res -> om_origin m = (Fin ox, Fin oy) -> 0 < res ->
  (0 <= om_columns m < 2 ^ 63)%Z -> (0 <= om_rows m < 2 ^ 63)%Z ->
  let in_range d := match maximum_range with Fin limit => d <= limit | PInf | XNaN => True | NInf => False end in
  let occupied row column := (0 <= row < om_rows m)%Z /\ (0 <= column < om_columns m)%Z /\ om_is_occupied m row column = true in
  match cast_ray m (Fin sx, Fin sy) (Fin bearing) maximum_range with
  | Some distance => exists d, distance = Fin d /\ 0 <= d /\ in_range d /\
      (exists row column, occupied row column /\ in_closed ox oy res row column (beam (sx, sy) bearing d)) /\
      (forall u row column, 0 <= u < d -> occupied row column -> ~ in_interior ox oy res row column (beam (sx, sy) bearing u))
  | None => forall u row column, 0 <= u -> in_range u -> occupied row column -> ~ in_interior ox oy res row column (beam (sx, sy) bearing u)
  end.
Proof.
  intros m sx sy ox oy res bearing mx Er Eo Hres HC HR in_range occupied.
  assert (Rg : forall d, unlimited_by mx d <-> in_range d).
  { intros d. unfold unlimited_by, in_range. destruct mx as [l| | |]; cbn; try tauto; [rewrite Rltb_false; tauto|split; [discriminate|tauto]]. }
  pose proof (C36_finishes XR Xnum m (Fin sx, Fin sy) (Fin bearing) mx ltac:(lia) ltac:(lia) (S (Z.to_nat (om_columns m + om_rows m))) ltac:(lia)) as E.
  apply (cast_ray_within_X m ox oy res sx sy bearing mx) in E; try assumption; [|unfold two64m1; lia|unfold two64m1; lia].
  destruct (cast_ray m (Fin sx, Fin sy) (Fin bearing) mx) as [distance|]; cbn [good_answer] in E.
  - destruct E as (d & -> & Hd & L & (row & column & Hr & Hc & Ho & Hin) & Before). exists d. split; [reflexivity|]. split; [assumption|]. split; [apply Rg; assumption|]. split.
    + exists row, column. split; [repeat split; assumption || apply Hr || apply Hc|exact Hin].
    + intros u r c Hu (H1 & H2 & H3). apply Before; assumption.
  - intros u row column Hu Hl (H1 & H2 & H3). apply (E u); try assumption. apply Rg. assumption.
Qed.

(** A beam that starts on an occupied cell reads zero. *)
Theorem C37_starts_blocked : forall (m : OccupancyMap XR) (sx sy ox oy res bearing limit : R) (row column : Z),
  om_resolution m = Fin res -> om_origin m = (Fin ox, Fin oy) -> 0 < res ->
  (0 <= om_columns m < 2 ^ 63)%Z -> (0 <= om_rows m < 2 ^ 63)%Z -> 0 <= limit ->
  (0 <= row < om_rows m)%Z -> (0 <= column < om_columns m)%Z -> om_is_occupied m row column = true ->
  in_half_open ox oy res row column (sx, sy) ->
  cast_ray m (Fin sx, Fin sy) (Fin bearing) (Fin limit) = Some (Fin 0).
Proof.
  intros m sx sy ox oy res bearing limit row column Er Eo Hres HC HR Hl Hr Hc Ho Hin. unfold cast_ray.
  rewrite (cast_ray_within_start m ox oy res sx sy bearing (Fin limit) _ row column); try assumption; [reflexivity|unfold two64m1; lia|unfold two64m1; lia|].
  unfold unlimited_by. cbn. apply Rltb_false. assumption.
Qed.

(** For any scalar at all: a distance is only returned when the map has an occupied cell, and it does
    not compare above the range asked for. *)
Theorem C37_any_scalar : forall (T : Type) (NT : Num T) (m : OccupancyMap T) (start : T * T) (bearing maximum_range distance : T),
  cast_ray m start bearing maximum_range = Some distance ->
  ltb maximum_range distance = false /\
  exists row column, (0 <= row < om_rows m)%Z /\ (0 <= column < om_columns m)%Z /\ om_is_occupied m row column = true.
Proof.
  intros T NT m start bearing mx d. unfold cast_ray, cast_ray_within. destruct (_ || _)%bool; [discriminate|].
  destruct (entry_distance _ _ _) as [e|]; [|discriminate]. destruct (ltb mx e); [discriminate|]. cbn zeta.
  destruct (ray_loop _ _ _ _ _ _ _ _ _ _ _ _) as [a|] eqn:E; [|discriminate]. intros ->. exact (ray_loop_found _ _ _ _ _ _ _ _ _ _ _ _ _ E).
Qed.

(** The example of the documentation: a wall up the third column, met 0.75 from where the beam starts. *)
Example C37_example :
  let m := demo_room (fun _ column => Z.eqb column 2) in
  cast_ray m (Fin (1 / 4), Fin (1 / 4)) (Fin 0) (Fin 4) = Some (Fin (3 / 4)) /\
  cast_ray m (Fin (1 / 4), Fin (1 / 4)) (Fin 0) (Fin (1 / 2)) = None.
Proof.
  intros m.
  assert (H : forall limit, 0 <= limit -> limit <> 3 / 4 -> cast_ray m (Fin (1 / 4), Fin (1 / 4)) (Fin 0) (Fin limit) = if Rltb limit (3 / 4) then None else Some (Fin (3 / 4))).
  { intros limit Hl Hne. pose proof (C37_first_obstacle m (1 / 4) (1 / 4) 0 0 (1 / 2) 0 (Fin limit) eq_refl eq_refl ltac:(lra) ltac:(cbn; lia) ltac:(cbn; lia)) as P. cbv zeta in P.
    assert (B : forall u, beam (1 / 4, 1 / 4) 0 u = (1 / 4 + u, 1 / 4)) by (intros; unfold beam; rewrite cos_0, sin_0; cbn [fst snd]; f_equal; ring).
    destruct (cast_ray m (Fin (1 / 4), Fin (1 / 4)) (Fin 0) (Fin limit)) as [d|].
    - destruct P as (d' & -> & H0 & H1 & (row & column & (_ & _ & Ho) & [[A1 A2] _]) & Before). cbn in Ho. apply Z.eqb_eq in Ho. subst column.
      rewrite B in *. cbn [fst snd] in *.
      assert (d' = 3 / 4) as ->.
      { destruct (Rle_lt_or_eq_dec (3 / 4) d' ltac:(lra)) as [Lt|]; [|lra]. exfalso.
        set (u := (3 / 4 + Rmin d' (5 / 4)) / 2).
        assert (Um : 3 / 4 < Rmin d' (5 / 4)) by (apply Rmin_glb_lt; lra). pose proof (Rmin_l d' (5 / 4)). pose proof (Rmin_r d' (5 / 4)).
        apply (Before u 0%Z 2%Z); [unfold u; lra|repeat split; cbn; lia|]. rewrite B. unfold in_interior. cbn [fst snd]. unfold u. split; split; lra. }
      rewrite (proj2 (Rltb_false _ _)) by lra. reflexivity.
    - destruct (Rltb limit (3 / 4)) eqn:E; [reflexivity|]. apply Rltb_false in E. exfalso.
      assert (Lt : 3 / 4 < limit) by lra. set (u := (3 / 4 + Rmin limit (5 / 4)) / 2).
      assert (Um : 3 / 4 < Rmin limit (5 / 4)) by (apply Rmin_glb_lt; lra). pose proof (Rmin_l limit (5 / 4)). pose proof (Rmin_r limit (5 / 4)).
      apply (P u 0%Z 2%Z); [unfold u; lra|unfold u; lra|repeat split; cbn; lia|]. rewrite B. unfold in_interior. cbn [fst snd]. unfold u. split; split; lra. }
  rewrite !H by lra. rewrite (proj2 (Rltb_false 4 (3 / 4))) by lra. rewrite (proj2 (Rltb_true (1 / 2) (3 / 4))) by lra. auto.
Qed.

(** * C38 and C39: drawing leaves no gap *)

(** A grid that was made and then written to, in any way. *)
Definition built (g : Grid R) : Prop := exists columns rows resolution origin g0 writes,
  (0 <= columns)%Z /\ (0 <= rows)%Z /\ grid_try_new columns rows resolution origin = Ok g0 /\
  List.Forall unsigned_write writes /\ g = fold_left apply_write writes g0.

Lemma built_ok g : built g -> grid_ok g /\ 0 < gr_resolution g /\ (gr_columns g <= two64m1)%Z /\ (gr_rows g <= two64m1)%Z.
Proof.
  intros (columns & rows & res & origin & g0 & writes & HC & HR & E & Hw & ->).
  pose proof (C34_grid R Rnum columns rows res origin g0 writes HC HR E Hw) as ((E1 & E2 & E3 & E4) & _). rewrite E1, E2, E3.
  pose proof (try_new_ok columns rows res origin g0 HC HR E) as (Ok & C1 & C2 & _ & _ & _ & L).
  split; [|split; [|split]].
  - clear - Ok. revert g0 Ok. induction writes as [|[r c b|] ws IH]; intros g Ok; cbn; [assumption|apply IH, set_cell_ok, Ok|apply IH, clear_ok, Ok].
  - unfold grid_try_new in E. destruct (_ || _)%bool; [discriminate|]. destruct (Z.leb _ _); [discriminate|]. cbn in E.
    destruct (Rleb res 0) eqn:F; [discriminate|]. apply Rleb_false in F. assumption.
  - destruct Ok as (P1 & P2 & _). rewrite C1, C2 in *. unfold usize_limit, two64m1 in *. nia.
  - destruct Ok as (P1 & P2 & _). rewrite C1, C2 in *. unfold usize_limit, two64m1 in *. nia.
Qed.

(** With exact arithmetic: each edge is sampled from end to end in points of which two consecutive
    ones fall in the same or in neighbouring cells, and exactly the cells of those points are added. *)
Theorem C38_polyline : forall (g : Grid R) (polyline : list (R * R)) (closed : bool),
  built g ->
  (forall p q, In (p, q) (polyline_edges polyline closed) ->
     R_sqrt.sqrt ((fst q - fst p) * (fst q - fst p) + (snd q - snd p) * (snd q - snd p)) <= 4 / 10 * gr_resolution g * IZR (2 ^ 64 - 1)) ->
  let h := occupy_polyline g polyline closed in
  (gr_columns h = gr_columns g /\ gr_rows h = gr_rows g /\ gr_resolution h = gr_resolution g /\ gr_origin h = gr_origin g) /\
  exists samples : (R * R) * (R * R) -> list (R * R),
    (forall p q, In (p, q) (polyline_edges polyline closed) ->
       unbroken (fst (gr_origin g)) (snd (gr_origin g)) (gr_resolution g) p q (samples (p, q))) /\
    forall row column, (0 <= row < gr_rows g)%Z -> (0 <= column < gr_columns g)%Z ->
      (grid_is_occupied h row column = true <->
       grid_is_occupied g row column = true \/
       exists edge point, In edge (polyline_edges polyline closed) /\ In point (samples edge) /\
         in_half_open (fst (gr_origin g)) (snd (gr_origin g)) (gr_resolution g) row column point).
Proof.
  intros g polyline closed B Hlen h. destruct (built_ok g B) as (Ok & Hres & HC & HR).
  set (samples := fun e : (R * R) * (R * R) => edge_samples (gr_resolution g) (fst e) (snd e)).
  assert (D : drawn g h (fun p => exists e, In e (polyline_edges polyline closed) /\ In p (samples e))).
  { unfold h. rewrite occupy_polyline_edges. generalize (polyline_edges polyline closed). clear Hlen h B. intros es.
    assert (G : forall g', grid_ok g' -> same_shape g g' ->
      drawn g' (fold_left (fun g e => fold_left occupy_point (edge_samples (gr_resolution g) (fst e) (snd e)) g) es g') (fun p => exists e, In e es /\ In p (samples e))).
    { induction es as [|e es IH]; intros g' Ok' Sh; cbn [fold_left].
      - apply drawn_ext with (2 := drawn_nothing g' Ok'). intros p. split; [intros []|intros (e & [] & _)].
      - destruct Sh as (S1 & S2 & S3 & S4).
        pose proof (occupy_points_drawn (edge_samples (gr_resolution g') (fst e) (snd e)) g' Ok' ltac:(rewrite S3; assumption) ltac:(rewrite S1; assumption) ltac:(rewrite S2; assumption)) as D1.
        pose proof D1 as (Ok1 & (T1 & T2 & T3 & T4) & _).
        pose proof (IH (fold_left occupy_point (edge_samples (gr_resolution g') (fst e) (snd e)) g') Ok1 ltac:(repeat split; congruence)) as D2.
        apply drawn_ext with (2 := drawn_trans _ _ _ _ _ D1 D2). intros p. unfold samples at 2. rewrite S3. split.
        + intros [Hp|(f & Hf & Hp)]; [exists e; split; [left; reflexivity|exact Hp]|exists f; split; [right; assumption|exact Hp]].
        + intros (f & [<-|Hf] & Hp); [left; exact Hp|right; exists f; auto]. }
    apply G; [assumption|repeat split]. }
  destruct D as (_ & (S1 & S2 & S3 & S4) & Hd). split; [auto|]. exists samples. split.
  - intros p q Hpq. unfold samples. cbn [fst snd]. apply edge_samples_unbroken; [assumption|]. apply Hlen. assumption.
  - intros row column Hr Hc. rewrite Hd by assumption. split.
    + intros [Ho|(p & (e & He & Hp) & Hin)]; [left; assumption|right; exists e, p; auto].
    + intros [Ho|(e & p & He & Hp & Hin)]; [left; assumption|right; exists p; split; [exists e; auto|assumption]].
Qed.

(** With exact arithmetic and a radius of at most a thousand cells: the rim is sampled all the way
    round in points of which two consecutive ones, and the last and the first, fall in the same or in
    neighbouring cells, and exactly the cells of those points are added.  Missing: larger radii, where
    it is false. *)
Theorem C39_circle_partial : forall (g : Grid R) (center : R * R) (radius : R),
  built g -> Rabs radius <= 1000 * gr_resolution g ->
  exists h angles, (forall passes, (8000 < Z.of_nat passes)%Z -> occupy_circle passes g center radius = Some h) /\
    (gr_columns h = gr_columns g /\ gr_rows h = gr_rows g /\ gr_resolution h = gr_resolution g /\ gr_origin h = gr_origin g) /\
    closes (fst (gr_origin g)) (snd (gr_origin g)) (gr_resolution g) center radius angles /\
    forall row column, (0 <= row < gr_rows g)%Z -> (0 <= column < gr_columns g)%Z ->
      (grid_is_occupied h row column = true <->
       grid_is_occupied g row column = true \/
       exists angle, In angle angles /\
         in_half_open (fst (gr_origin g)) (snd (gr_origin g)) (gr_resolution g) row column (on_circle center radius angle)).
Proof.
  intros g center radius B Hr. destruct (built_ok g B) as (Ok & Hres & HC & HR).
  destruct (occupy_circle_R g center radius) as (n & Hn & _ & Hb & Hrun).
  set (angles := map (fun k => INR k * circle_step (gr_resolution g) radius) (seq 0 n)).
  pose proof (occupy_points_drawn (map (fun k => on_circle center radius (INR k * circle_step (gr_resolution g) radius)) (seq 0 n)) g Ok Hres HC HR) as (_ & Sh & D).
  eexists. exists angles. split; [exact Hrun|]. split; [exact Sh|]. split; [apply circle_closes; assumption|].
  intros row column H1 H2. rewrite D by assumption. split.
  - intros [Ho|(p & Hp & Hin)]; [left; assumption|]. apply in_map_iff in Hp. destruct Hp as (k & <- & Hk).
    right. exists (INR k * circle_step (gr_resolution g) radius). split; [|exact Hin]. unfold angles. apply in_map_iff. eauto.
  - intros [Ho|(a & Ha & Hin)]; [left; assumption|]. apply in_map_iff in Ha. destruct Ha as (k & <- & Hk).
    right. exists (on_circle center radius (INR k * circle_step (gr_resolution g) radius)). split; [|exact Hin]. apply in_map_iff. eauto.
Qed.

(** The claim for every radius, refuted: a rim of radius 10000 cells runs through a patch of the
    plane two cells wide and two high, and drawing it marks none of them. *)
Theorem C39_circle_refuted :
  exists (g h : Grid R) (center : R * R) (radius angle : R),
    built g /\ (forall passes, (8000 < Z.of_nat passes)%Z -> occupy_circle passes g center radius = Some h) /\
    in_map (fst (gr_origin g)) (snd (gr_origin g)) (gr_resolution g) (gr_columns g) (gr_rows g) (on_circle center radius angle) /\
    forall row column, (0 <= row)%Z -> (0 <= column)%Z -> grid_is_occupied h row column = false.
Proof.
  set (g := {| gr_columns := 2; gr_rows := 2; gr_resolution := 1; gr_origin := (9999, 4); gr_cells := repeat false 4 |}).
  assert (Eg : grid_try_new 2 2 1 (9999, 4) = Ok g). { unfold grid_try_new. cbn. rdecide. reflexivity. }
  assert (B : built g). { exists 2%Z, 2%Z, 1, (9999, 4), g, []. repeat split; try lia; auto. }
  destruct (built_ok g B) as (Ok & Hres & HC & HR).
  destruct (occupy_circle_R g (0, 0) 10000) as (n & Hn & _ & Hb & Hrun). cbn [gr_resolution g] in Hb, Hrun.
  assert (Es : circle_step 1 10000 = 1 / 1000). { unfold circle_step. rewrite Rmax_right; lra. }
  rewrite Es in *.
  pose proof (occupy_points_drawn (map (fun k => on_circle (0, 0) 10000 (INR k * (1 / 1000))) (seq 0 n)) g Ok Hres HC HR) as D.
  set (h := fold_left occupy_point (map (fun k => on_circle (0, 0) 10000 (INR k * (1 / 1000))) (seq 0 n)) g) in *.
  exists g, h, (0, 0), 10000, (1 / 2000). split; [assumption|]. split; [exact Hrun|].
  pose proof PI_RGT_0. pose proof PI2_3_2 as Hpi. pose proof PI_4.
  assert (Sb : forall x, 0 < x <= 1 / 1000 -> 9 / 10 * x <= Rtrigo_def.sin x <= x).
  { intros x Hx. pose proof (sin_lt_x x ltac:(lra)). split; [|lra].
    pose proof (pre_sin_bound x 0 ltac:(lra) ltac:(lra)) as [L _]. unfold sin_approx, sum_f_R0, sin_term in L. cbn in L. nra. }
  assert (Cb : 9999 <= 10000 * Rtrigo_def.cos (1 / 2000)).
  { pose proof (pre_cos_bound (1 / 2000) 0 ltac:(lra) ltac:(lra)) as [L _]. unfold cos_approx, sum_f_R0, cos_term in L. cbn in L. lra. }
  split.
  - unfold in_map, on_circle. cbn [g gr_origin gr_resolution gr_columns gr_rows fst snd]. pose proof (COS_bound (1 / 2000)). pose proof (Sb (1 / 2000) ltac:(lra)). split; lra.
  - destruct D as (_ & (S1 & S2 & S3 & S4) & D). intros row column Hr0 Hc0.
    destruct (grid_is_occupied h row column) eqn:E; [exfalso|reflexivity].
    assert (Rng : (0 <= row < 2)%Z /\ (0 <= column < 2)%Z).
    { unfold grid_is_occupied, index_of in E. rewrite S1, S2 in E. cbn [g gr_rows gr_columns] in E.
      destruct (Z.ltb_spec row 2); [|discriminate]. destruct (Z.ltb_spec column 2); [|discriminate]. lia. }
    destruct Rng as [Hr Hc]. apply D in E; try assumption. destruct E as [E|(p & Hp & Hin)].
    { rewrite (proj2 (C34_grid R Rnum 2 2 1 (9999, 4) g [] ltac:(lia) ltac:(lia) Eg (List.Forall_nil _)) row column Hr0 Hc0 : grid_is_occupied g row column = _) in E.
      cbn [rev last_mark] in E. rewrite andb_false_r in E. discriminate. }
    apply in_map_iff in Hp. destruct Hp as (k & <- & Hk). apply in_seq in Hk. unfold in_half_open, on_circle in Hin. cbn [g gr_origin gr_resolution fst snd] in Hin.
    set (a := INR k * (1 / 1000)) in *.
    assert (0 <= IZR row <= 1) by (split; apply IZR_le; lia). assert (0 <= IZR column <= 1) by (split; apply IZR_le; lia).
    assert (Hsin : 4 <= 10000 * Rtrigo_def.sin a < 6) by lra. assert (Hcos : 9999 <= 10000 * Rtrigo_def.cos a) by lra.
    assert (A2 : a < PI * 2). { apply Rle_lt_trans with (2 := proj1 Hb). unfold a. apply Rmult_le_compat_r; [lra|]. apply le_INR. lia. }
    destruct k as [|k]. { unfold a in Hsin. cbn [INR] in Hsin. rewrite Rmult_0_l, sin_0 in Hsin. lra. }
    assert (A1 : 1 / 1000 <= a). { unfold a. rewrite S_INR. pose proof (pos_INR k). lra. }
    destruct (Rle_or_lt a (PI / 2)) as [L|L].
    + pose proof (Sb (1 / 1000) ltac:(lra)).
      assert (Rtrigo_def.sin (1 / 1000) <= Rtrigo_def.sin a) by (apply sin_incr_1; lra). lra.
    + destruct (Rle_or_lt a PI) as [L2|L2].
      * assert (Rtrigo_def.cos a <= 0) by (apply cos_le_0; lra). lra.
      * assert (Rtrigo_def.sin a <= 0) by (apply sin_le_0; lra). lra.
Qed.

Example C38_example : exists g, built g /\ gr_resolution g = 1 /\
  (forall p q, In (p, q) (polyline_edges [(0, 0); (3, 4)] true) ->
     R_sqrt.sqrt ((fst q - fst p) * (fst q - fst p) + (snd q - snd p) * (snd q - snd p)) <= 4 / 10 * gr_resolution g * IZR (2 ^ 64 - 1)) /\
  grid_is_occupied (occupy_polyline g [(0, 0); (3, 4)] true) 4 3 = true.
Proof.
  set (g := {| gr_columns := 5; gr_rows := 5; gr_resolution := 1; gr_origin := (0, 0); gr_cells := repeat false 25 |}).
  assert (Eg : grid_try_new 5 5 1 (0, 0) = Ok g). { unfold grid_try_new. cbn. rdecide. reflexivity. }
  assert (B : built g). { exists 5%Z, 5%Z, 1, (0, 0), g, []. repeat split; try lia; auto. }
  assert (L : forall p q, In (p, q) (polyline_edges [(0, 0); (3, 4)] true) ->
     R_sqrt.sqrt ((fst q - fst p) * (fst q - fst p) + (snd q - snd p) * (snd q - snd p)) <= 4 / 10 * gr_resolution g * IZR (2 ^ 64 - 1)).
  { intros p q [E|[E|[]]]; injection E as <- <-; cbn [fst snd g gr_resolution];
      match goal with |- R_sqrt.sqrt ?x <= _ => replace x with (5 * 5) by ring end; rewrite sqrt_square by lra; (apply Rle_trans with (4 / 10 * 1 * IZR 13); [lra|apply Rmult_le_compat_l; [lra|apply IZR_le; lia]]). }
  exists g. split; [assumption|]. split; [reflexivity|]. split; [exact L|].
  destruct (C38_polyline g [(0, 0); (3, 4)] true B L) as (_ & samples & U & D). apply D; cbn; try lia. right.
  exists ((0, 0), (3, 4)), (3, 4). split; [left; reflexivity|].
  destruct (U (0, 0) (3, 4) (or_introl eq_refl)) as (Hd & Hl & _). split.
  - destruct (samples ((0, 0), (3, 4))) as [|x l]; [discriminate|]. rewrite <- Hl.
    destruct (exists_last (l := x :: l) ltac:(discriminate)) as (l' & y & ->). rewrite last_last. apply in_or_app. right. left. reflexivity.
  - unfold in_half_open. cbn [fst snd]. split; split; lra.
Qed.
Example C39_example : exists g, built g /\ Rabs 7 <= 1000 * gr_resolution g.
Proof.
  set (g := {| gr_columns := 5; gr_rows := 5; gr_resolution := 1; gr_origin := (0, 0); gr_cells := repeat false 25 |}).
  assert (Eg : grid_try_new 5 5 1 (0, 0) = Ok g). { unfold grid_try_new. cbn. rdecide. reflexivity. }
  exists g. split; [exists 5%Z, 5%Z, 1, (0, 0), g, []; repeat split; try lia; auto|]. cbn. rewrite Rabs_pos_eq; lra.
Qed.

(** * C40 and C41: beams and their numbers *)

(** With exact arithmetic: the beams are spread evenly from edge to edge of the arc ... *)
Theorem C40_beam_angles : forall (num_beams : nat) (field_of_view maximum_range : R) (s : Scan R) (i : nat),
  scan_try_new num_beams field_of_view maximum_range = Ok s ->
  beam_angle num_beams s i = (if Nat.ltb i num_beams then Some (even_beam field_of_view num_beams i) else None) /\
  even_beam field_of_view num_beams 0 = - (field_of_view / 2) /\ even_beam field_of_view num_beams (num_beams - 1) = field_of_view / 2 /\
  even_beam field_of_view num_beams (S i) - even_beam field_of_view num_beams i = angle_increment num_beams s /\ 0 < angle_increment num_beams s.
Proof.
  intros n fov mx s i H. unfold scan_try_new in H. destruct (Nat.ltb_spec n 2); [discriminate|]. cbn in H.
  destruct (Rleb fov 0 || Rltb (PI * 2) fov)%bool eqn:F; [discriminate|]. apply orb_false_iff in F. destruct F as [F _]. apply Rleb_false in F.
  destruct (Rleb mx 0); [discriminate|]. injection H as <-.
  assert (N : 1 <= INR (n - 1)) by (rewrite minus_INR by lia; assert (2 <= INR n) by (apply (le_INR 2); lia); cbn; lra).
  unfold beam_angle, beam_angle_across, angle_increment, even_beam, of_nat. cbn [sc_field_of_view]. rnum. rewrite <- !INR_IZR_INZ. rewrite S_INR. cbn [INR].
  split; [destruct (Nat.ltb i n); [f_equal; field; lra|reflexivity]|]. repeat split; try (field; lra). apply Rdiv_lt_0_compat; lra.
Qed.

(** ... the number of a beam's own direction is that beam, the number of any direction in the arc is
    that of a nearest beam, and outside the arc there is none. *)
Theorem C40_nearest : forall (num_beams : nat) (field_of_view maximum_range : R) (s : Scan R),
  scan_try_new num_beams field_of_view maximum_range = Ok s -> (Z.of_nat num_beams < 2 ^ 64)%Z ->
  (forall i, (i < num_beams)%nat -> nearest_beam_index num_beams s (even_beam field_of_view num_beams i) = Some i) /\
  (forall angle, - (field_of_view / 2) <= angle <= field_of_view / 2 ->
     exists i, nearest_beam_index num_beams s angle = Some i /\ (i < num_beams)%nat /\
       forall j, (j < num_beams)%nat -> Rabs (angle - even_beam field_of_view num_beams i) <= Rabs (angle - even_beam field_of_view num_beams j)) /\
  (forall angle, angle < - (field_of_view / 2) \/ field_of_view / 2 < angle -> nearest_beam_index num_beams s angle = None).
Proof.
  intros n fov mx s H Hm. unfold scan_try_new in H. destruct (Nat.ltb_spec n 2) as [|Hn]; [discriminate|]. cbn in H.
  destruct (Rleb fov 0 || Rltb (PI * 2) fov)%bool eqn:F; [discriminate|]. apply orb_false_iff in F. destruct F as [F _]. apply Rleb_false in F.
  destruct (Rleb mx 0); [discriminate|]. injection H as <-. set (s := {| sc_field_of_view := fov; sc_minimum_range := 0; sc_maximum_range := mx |}).
  assert (E : forall a, nearest_beam_index n s a = _) by (intros a; apply nearest_R; [assumption|unfold two64m1; lia|exact F]). cbn [sc_field_of_view s] in E.
  assert (N : 1 <= INR (n - 1)) by (rewrite minus_INR by lia; assert (2 <= INR n) by (apply (le_INR 2); lia); cbn; lra).
  assert (Nearest : forall angle, - (fov / 2) <= angle <= fov / 2 ->
     exists i, nearest_beam_index n s angle = Some i /\ (i < n)%nat /\ forall j, (j < n)%nat -> Rabs (angle - even_beam fov n i) <= Rabs (angle - even_beam fov n j)).
  { intros a Ha. rewrite E. rewrite (proj2 (Rltb_false a _)) by lra. rewrite (proj2 (Rltb_false (fov / 2) _)) by lra. cbn [orb]. eexists. split; [reflexivity|].
    split; [apply (nearest_best n fov a _ 0%nat Hn F Ha ltac:(lia) eq_refl)|]. intros j Hj. apply (nearest_best n fov a _ j Hn F Ha Hj eq_refl). }
  split; [|split; [exact Nearest|]].
  - intros i Hi. assert (In01 : - (fov / 2) <= even_beam fov n i <= fov / 2).
    { unfold even_beam. pose proof (pos_INR i). assert (INR i <= INR (n - 1)) by (apply le_INR; lia).
      assert (0 < fov / INR (n - 1)) by (apply Rdiv_lt_0_compat; lra). assert (INR (n - 1) * (fov / INR (n - 1)) = fov) by (field; lra). split; nra. }
    destruct (Nearest _ In01) as (k & Ek & Hk & Best). rewrite Ek. f_equal. specialize (Best i Hi). replace (even_beam fov n i - even_beam fov n i) with 0 in Best by ring. rewrite Rabs_R0 in Best.
    pose proof (Rabs_pos (even_beam fov n i - even_beam fov n k)) as Ap.
    assert (Z0 : even_beam fov n i - even_beam fov n k = 0). { destruct (Req_dec (even_beam fov n i - even_beam fov n k) 0) as [|Nz]; [assumption|]. pose proof (Rabs_pos_lt _ Nz). lra. }
    unfold even_beam in Z0. assert (0 < fov / INR (n - 1)) by (apply Rdiv_lt_0_compat; lra). apply INR_eq. nra.
  - intros a Ha. rewrite E. destruct Ha as [Ha|Ha]; [rewrite (proj2 (Rltb_true a _)) by lra; reflexivity|].
    rewrite (proj2 (Rltb_true (fov / 2) a)) by lra. rewrite orb_true_r. reflexivity.
Qed.

(** For any scalar: a number that is returned is that of a beam, and a direction that is not finite
    has none. *)
Theorem C40_any_scalar : forall (T : Type) (NT : Num T) (num_beams : nat) (s : Scan T) (angle : T),
  (1 <= num_beams)%nat ->
  (forall i, nearest_beam_index num_beams s angle = Some i -> (i < num_beams)%nat) /\
  (is_finite angle = false -> nearest_beam_index num_beams s angle = None).
Proof.
  intros T NT n s a Hn. unfold nearest_beam_index. split.
  - intros i. destruct (_ || _)%bool; [discriminate|]. destruct (ltb _ _); injection 1 as <-; lia.
  - intros ->. reflexivity.
Qed.

(** Exactly which scans are refused. *)
Theorem C40_accepts : forall (num_beams : nat) (field_of_view maximum_range : XR),
  (exists s, scan_try_new num_beams field_of_view maximum_range = Ok s) <->
  (2 <= num_beams)%nat /\ (exists fov, field_of_view = Fin fov /\ 0 < fov <= 2 * PI) /\ (exists range, maximum_range = Fin range /\ 0 < range).
Proof.
  intros n fov mx. unfold scan_try_new. destruct (Nat.ltb_spec n 2); [split; [intros [s Hs]; discriminate|lia]|].
  destruct fov as [f| | |]; cbn; try (split; [intros [s Hs]; discriminate|intros (_ & (r & E & _) & _); discriminate]).
  destruct mx as [m| | |]; cbn; try (split; [intros [s Hs]; discriminate|intros (_ & _ & (r & E & _)); discriminate]).
  destruct (Rleb f 0 || Rltb (PI * 2) f)%bool eqn:F.
  - split; [intros [s Hs]; discriminate|]. intros (_ & (r & E & Hr) & _). injection E as <-. apply orb_true_iff in F. rewrite Rleb_true, Rltb_true in F. lra.
  - apply orb_false_iff in F. rewrite Rleb_false, Rltb_false in F. destruct (Rleb m 0) eqn:M.
    + apply Rleb_true in M. split; [intros [s Hs]; discriminate|]. intros (_ & _ & (r & E & Hr)). injection E as <-. lra.
    + apply Rleb_false in M. split; [|eauto]. intros _. split; [assumption|]. split; [exists f; split; [reflexivity|lra]|exists m; split; [reflexivity|lra]].
Qed.

Example C40_example :
  let s := {| sc_field_of_view := 1; sc_minimum_range := 0; sc_maximum_range := 4 |} in
  scan_try_new 5 1 4 = Ok s /\ beam_angle 5 s 1 = Some (- 1 / 4) /\ nearest_beam_index 5 s (- 1 / 5) = Some 1%nat.
Proof.
  intros s. pose proof PI2_3_2. assert (E : scan_try_new 5 1 4 = Ok s). { unfold scan_try_new. cbn. rdecide. reflexivity. }
  split; [exact E|]. split.
  - rewrite (proj1 (C40_beam_angles 5 1 4 s 1 E)). cbn [Nat.ltb Nat.leb]. unfold even_beam. cbn. f_equal. lra.
  - destruct (C40_nearest 5 1 4 s E ltac:(lia)) as (_ & Near & _). destruct (Near (-1 / 5) ltac:(lra)) as (i & -> & Hi & Best). f_equal.
    specialize (Best 1%nat ltac:(lia)). unfold even_beam in Best. cbn [INR Nat.sub] in Best.
    destruct i as [|[|[|[|[|]]]]]; [|reflexivity| | | |lia]; exfalso; cbn [INR] in Best;
      rewrite (Rabs_pos_eq (-1 / 5 - (- (1 / 2) + 1 * (1 / (1 + 1 + 1 + 1))))) in Best by lra; unfold Rabs in Best; destruct (Rcase_abs _) in Best; lra.
Qed.

(** The claim in f64, refuted: four beams over 0.1 radians; the direction computed for the last beam
    lies a rounding error outside the arc, so it has no number. *)
Theorem C41_round_trip_refuted : forall lm : Libm f64,
  let fov := @of_ratio f64 (f64num lm) 1 10 in
  exists s angle, @scan_try_new f64 (f64num lm) 4 fov (F64 4 0) = Ok s /\
    @beam_angle f64 (f64num lm) 4 s 3 = Some angle /\ @nearest_beam_index f64 (f64num lm) 4 s angle = None.
Proof.
  intros lm fov. set (s := {| sc_field_of_view := fov; sc_minimum_range := @zero f64 (f64num lm); sc_maximum_range := F64 4 0 |}).
  exists s, (@beam_angle_across f64 (f64num lm) fov 4 3). split; [|split; [reflexivity|]].
  - unfold scan_try_new. replace (@is_finite f64 (f64num lm) fov) with true by (vm_compute; reflexivity).
    replace (@is_finite f64 (f64num lm) (F64 4 0)) with true by (vm_compute; reflexivity).
    replace (@leb f64 (f64num lm) fov (@zero f64 (f64num lm))) with false by (vm_compute; reflexivity).
    replace (@ltb f64 (f64num lm) (@two_pi f64 (f64num lm)) fov) with false by (vm_compute; reflexivity).
    replace (@leb f64 (f64num lm) (F64 4 0) (@zero f64 (f64num lm))) with false by (vm_compute; reflexivity). reflexivity.
  - vm_compute. reflexivity.
Qed.

Print Assumptions C34_grid.
Print Assumptions C34_accepts.
Print Assumptions C35_cell_of.
Print Assumptions C35_none.
Print Assumptions C35_infinite.
Print Assumptions C35_nan_refuted.
Print Assumptions C36_finishes.
Print Assumptions C37_first_obstacle.
Print Assumptions C37_starts_blocked.
Print Assumptions C37_any_scalar.
Print Assumptions C38_polyline.
Print Assumptions C39_circle_partial.
Print Assumptions C39_circle_refuted.
Print Assumptions C40_beam_angles.
Print Assumptions C40_nearest.
Print Assumptions C40_any_scalar.
Print Assumptions C40_accepts.
Print Assumptions C41_round_trip_refuted.
