(** Lemmas behind the mapping theorems. *)
From Coq Require Import ZArith Reals Lra Lia Psatz List Bool.
From Flocq Require Import Core.Raux.
From Verif Require Import Base.Scalar Base.RNum Base.XNum Base.Lists Model.Errors Model.Mapping Spec.Mapping.
Import ListNotations.
Local Open Scope R_scope.

(** * Cells *)
Lemma Zfloor_spec x k : IZR k <= x < IZR k + 1 <-> Zfloor x = k.
Proof.
  split.
  - intros H. apply Zfloor_imp. rewrite plus_IZR. exact H.
  - intros <-. pose proof (Zfloor_lb x). pose proof (Zfloor_ub x). lra.
Qed.

Lemma cell_index o res x k : 0 < res -> o + IZR k * res <= x < o + (IZR k + 1) * res <-> Zfloor ((x - o) / res) = k.
Proof.
  intros H. rewrite <- Zfloor_spec.
  assert (E : (x - o) / res * res = x - o) by (field; lra).
  split; intros [A B]; split.
  - apply Rmult_le_reg_r with res; lra.
  - apply Rmult_lt_reg_r with res; lra.
  - apply Rmult_le_compat_r with (r := res) in A; lra.
  - apply Rmult_lt_compat_r with (r := res) in B; lra.
Qed.

Lemma in_half_open_index ox oy res r c p : 0 < res ->
  in_half_open ox oy res r c p <-> Zfloor ((snd p - oy) / res) = r /\ Zfloor ((fst p - ox) / res) = c.
Proof. intros H. unfold in_half_open. rewrite !cell_index by assumption. tauto. Qed.

Lemma two64m1_val : two64m1 = 18446744073709551615%Z. Proof. reflexivity. Qed.

Lemma to_usize_IZR k : (0 <= k <= two64m1)%Z -> @to_usize R Rnum (IZR k) = k.
Proof. intros H. cbn [to_usize Rnum]. rewrite Ztrunc_IZR. lia. Qed.
Lemma to_usize_big k : (0 <= k)%Z -> @to_usize R Rnum (IZR k) = Z.min k two64m1.
Proof. intros H. cbn [to_usize Rnum]. rewrite Ztrunc_IZR. lia. Qed.

Lemma cell_of_R (m : OccupancyMap R) p r c :
  0 < om_resolution m -> (om_columns m <= two64m1)%Z -> (om_rows m <= two64m1)%Z ->
  cell_of m p = Some (r, c) <->
  (0 <= r < om_rows m)%Z /\ (0 <= c < om_columns m)%Z /\ in_half_open (fst (om_origin m)) (snd (om_origin m)) (om_resolution m) r c p.
Proof.
  intros H HC HR. rewrite in_half_open_index by assumption. unfold cell_of.
  change (@floor R Rnum) with (fun x => IZR (Zfloor x)). cbv beta. cbn [ltb zero sub div Rnum].
  set (cc := Zfloor ((fst p - fst (om_origin m)) / om_resolution m)). set (rr := Zfloor ((snd p - snd (om_origin m)) / om_resolution m)).
  destruct (Rltb (IZR cc) 0 || Rltb (IZR rr) 0) eqn:E.
  - split; [discriminate|]. intros ((? & ?) & (? & ?) & <- & <-).
    apply orb_true_iff in E. rewrite !Rltb_true in E. destruct E as [E|E]; apply lt_IZR in E; lia.
  - apply orb_false_iff in E. rewrite !Rltb_false in E. destruct E as [E1 E2]. apply le_IZR in E1, E2.
    rewrite !to_usize_big by assumption.
    destruct (Z.ltb_spec (Z.min cc two64m1) (om_columns m)); [destruct (Z.ltb_spec (Z.min rr two64m1) (om_rows m))|]; cbn [andb].
    + split; [injection 1 as <- <-; lia|]. intros (? & ? & <- & <-). repeat f_equal; lia.
    + split; [discriminate|]. intros (? & ? & <- & <-); lia.
    + split; [discriminate|]. intros (? & ? & <- & <-); lia.
Qed.

(** * Grids *)
Section Grid.
  Context {T : Type} {NT : Num T}.

  (** What every reachable grid satisfies. *)
  Definition grid_ok (g : Grid T) : Prop :=
    (0 < gr_columns g)%Z /\ (0 < gr_rows g)%Z /\ Z.of_nat (length (gr_cells g)) = (gr_columns g * gr_rows g)%Z.

  Lemma try_new_ok columns rows res origin (g : Grid T) : (0 <= columns)%Z -> (0 <= rows)%Z ->
    grid_try_new columns rows res origin = Ok g ->
    grid_ok g /\ gr_columns g = columns /\ gr_rows g = rows /\ gr_resolution g = res /\ gr_origin g = origin /\
    (forall r c, grid_is_occupied g r c = false) /\ (columns * rows < usize_limit)%Z.
  Proof.
    intros HC HR. unfold grid_try_new. destruct (Z.eqb_spec columns 0); [discriminate|]. destruct (Z.eqb_spec rows 0); [discriminate|].
    cbn [orb]. destruct (Z.leb_spec usize_limit (columns * rows)); [discriminate|].
    destruct (_ || _); [discriminate|]. destruct (leb _ _); [discriminate|]. injection 1 as <-. cbn.
    repeat split; auto; cbn; try lia.
    - rewrite repeat_length. nia.
    - intros r c. unfold grid_is_occupied, index_of. cbn. destruct (_ && _); [|reflexivity].
      destruct (Nat.lt_ge_cases (Z.to_nat (r * columns + c)) (Z.to_nat (columns * rows))).
      + apply nth_repeat.
      + apply nth_overflow. rewrite repeat_length. lia.
  Qed.

  Lemma set_cell_ok (g : Grid T) r c b : grid_ok g -> grid_ok (set_cell g r c b).
  Proof. intros H. unfold set_cell. destruct (index_of g r c); [|exact H]. destruct H as (? & ? & ?). repeat split; auto. cbn. rewrite set_nth_length. assumption. Qed.
  Lemma clear_ok (g : Grid T) : grid_ok g -> grid_ok (grid_clear g).
  Proof. intros (? & ? & ?). repeat split; auto. cbn. rewrite map_length. assumption. Qed.

  Lemma set_cell_shape (g : Grid T) r c b : gr_columns (set_cell g r c b) = gr_columns g /\ gr_rows (set_cell g r c b) = gr_rows g /\
    gr_resolution (set_cell g r c b) = gr_resolution g /\ gr_origin (set_cell g r c b) = gr_origin g.
  Proof. unfold set_cell. destruct (index_of g r c); auto. Qed.

  Lemma set_cell_reads (g : Grid T) r c b row column : grid_ok g -> (0 <= r)%Z -> (0 <= c)%Z -> (0 <= row)%Z -> (0 <= column)%Z ->
    grid_is_occupied (set_cell g r c b) row column =
    if (Z.eqb r row && Z.eqb c column && Z.ltb row (gr_rows g) && Z.ltb column (gr_columns g))%bool then b else grid_is_occupied g row column.
  Proof.
    intros (HC & HR & HL) Hr Hc H1 H2. unfold grid_is_occupied, set_cell.
    destruct (index_of g r c) as [i|] eqn:I; unfold index_of in *; cbn [gr_rows gr_columns with_cells].
    - destruct (Z.ltb_spec r (gr_rows g)); [|discriminate]. destruct (Z.ltb_spec c (gr_columns g)); [|discriminate]. cbn [andb] in I. injection I as <-.
      destruct (Z.ltb_spec row (gr_rows g)); destruct (Z.ltb_spec column (gr_columns g)); cbn [andb]; rewrite ?andb_false_r; try reflexivity.
      rewrite !andb_true_r. destruct (Z.eqb_spec r row) as [->|Ne]; [destruct (Z.eqb_spec c column) as [->|Ne]|]; cbn [andb].
      + cbn [gr_cells]. apply nth_set_nth_eq. nia.
      + cbn [gr_cells]. apply nth_set_nth_neq. nia.
      + cbn [gr_cells]. apply nth_set_nth_neq. intros E. apply Z2Nat.inj in E; [|nia|nia]. nia.
    - destruct (Z.ltb_spec row (gr_rows g)); destruct (Z.ltb_spec column (gr_columns g)); cbn [andb]; rewrite ?andb_false_r; try reflexivity.
      destruct (Z.eqb_spec r row) as [->|Ne]; [destruct (Z.eqb_spec c column) as [->|Ne]|]; cbn [andb]; try reflexivity.
      destruct (Z.ltb_spec row (gr_rows g)); [|lia]. destruct (Z.ltb_spec column (gr_columns g)); [|lia]. discriminate.
  Qed.

  Lemma clear_reads (g : Grid T) row column : grid_is_occupied (grid_clear g) row column = false.
  Proof.
    unfold grid_is_occupied, grid_clear, index_of. cbn. destruct (_ && _); [|reflexivity].
    generalize (Z.to_nat (row * gr_columns g + column)). intros k. revert k. induction (gr_cells g); intros [|k]; cbn; auto.
  Qed.
End Grid.

(** * The walk of a beam *)
Section WalkAny.
  Context {T : Type} {NT : Num T}.

  (** How many more moves along one axis keep the index on the map. *)
  Definition moves_left (size index step : Z) : Z :=
    if (index <? 0)%Z then 0%Z else if (0 <? step)%Z then (size - index)%Z else (index + 1)%Z.

  Lemma ray_loop_ends (m : OccupancyMap T) mx sc sr stc str : (sc = 1 \/ sc = -1)%Z -> (sr = 1 \/ sr = -1)%Z ->
    forall fuel c r nc nr e,
    (Z.max 0 (moves_left (om_columns m) c sc) + Z.max 0 (moves_left (om_rows m) r sr) < Z.of_nat fuel)%Z ->
    exists a, ray_loop fuel m mx sc sr stc str c r nc nr e = Some a.
  Proof.
    intros Hc Hr. induction fuel as [|fuel IH]; intros c r nc nr e H; [lia|]. cbn [ray_loop].
    destruct (ltb mx e); [eauto|].
    destruct (Z.ltb_spec c 0); [cbn [orb]; eauto|]. destruct (Z.ltb_spec r 0); [cbn [orb]; eauto|]. cbn [orb].
    destruct (Z.leb_spec (om_columns m) c); [cbn [orb]; eauto|]. destruct (Z.leb_spec (om_rows m) r); [cbn [orb]; eauto|]. cbn [orb].
    destruct (om_is_occupied m r c); [eauto|].
    unfold moves_left in *. destruct (Z.ltb_spec c 0); [lia|]. destruct (Z.ltb_spec r 0); [lia|].
    destruct (ltb nc nr); apply IH.
    - destruct (Z.ltb_spec r 0); [lia|]. destruct Hc as [-> | ->]; cbn [Z.ltb Z.compare] in *.
      + destruct (Z.ltb_spec (c + 1) 0); lia.
      + destruct (Z.ltb_spec (c + -1) 0); lia.
    - destruct (Z.ltb_spec c 0); [lia|]. destruct Hr as [-> | ->]; cbn [Z.ltb Z.compare] in *.
      + destruct (Z.ltb_spec (r + 1) 0); lia.
      + destruct (Z.ltb_spec (r + -1) 0); lia.
  Qed.

  Lemma ray_loop_more (m : OccupancyMap T) mx sc sr stc str a : forall fuel more c r nc nr e, (fuel <= more)%nat ->
    ray_loop fuel m mx sc sr stc str c r nc nr e = Some a -> ray_loop more m mx sc sr stc str c r nc nr e = Some a.
  Proof.
    induction fuel as [|fuel IH]; intros more c r nc nr e Hm; [discriminate|]. destruct more as [|more]; [lia|]. cbn [ray_loop].
    repeat match goal with |- context [if ?b then _ else _] => destruct b end; auto; apply IH; lia.
  Qed.

  Lemma ray_loop_found (m : OccupancyMap T) mx sc sr stc str d : forall fuel c r nc nr e,
    ray_loop fuel m mx sc sr stc str c r nc nr e = Some (Some d) ->
    ltb mx d = false /\ exists row column, (0 <= row < om_rows m)%Z /\ (0 <= column < om_columns m)%Z /\ om_is_occupied m row column = true.
  Proof.
    induction fuel as [|fuel IH]; intros c r nc nr e; cbn [ray_loop]; [discriminate|].
    destruct (ltb mx e) eqn:L; [discriminate|].
    destruct (Z.ltb_spec c 0); [cbn [orb]; discriminate|]. destruct (Z.ltb_spec r 0); [cbn [orb]; discriminate|]. cbn [orb].
    destruct (Z.leb_spec (om_columns m) c); [cbn [orb]; discriminate|]. destruct (Z.leb_spec (om_rows m) r); [cbn [orb]; discriminate|]. cbn [orb].
    destruct (om_is_occupied m r c) eqn:Occ.
    - injection 1 as <-. split; [assumption|]. exists r, c. repeat split; assumption.
    - destruct (ltb nc nr); apply IH.
  Qed.

  Lemma axis_step_unit (d : T) : (axis_step d = 1 \/ axis_step d = -1)%Z.
  Proof. unfold axis_step. destruct (ltb _ _); auto. Qed.

  Lemma clamp_index_below (v : T) n : (0 < n)%Z -> (clamp_index v n < n)%Z.
  Proof. intros H. unfold clamp_index. destruct (ltb _ _); [lia|]. destruct (Z.leb_spec n (to_usize (floor v))); lia. Qed.

  Lemma cast_ray_ends (m : OccupancyMap T) start bearing mx : (0 <= om_columns m)%Z -> (0 <= om_rows m)%Z ->
    exists a, forall fuel, (om_columns m + om_rows m < Z.of_nat fuel)%Z -> cast_ray_within fuel m start bearing mx = Some a.
  Proof.
    intros HC HR. unfold cast_ray_within. destruct (_ || _) eqn:Z0; [eauto|].
    destruct (entry_distance _ _ _) as [e|]; [|eauto]. destruct (ltb mx e); [eauto|].
    cbn zeta. match goal with |- context [ray_loop _ m mx ?sc ?sr ?stc ?str ?c ?r ?nc ?nr e] =>
      destruct (ray_loop_ends m mx sc sr stc str (axis_step_unit _) (axis_step_unit _) (S (Z.to_nat (om_columns m + om_rows m))) c r nc nr e) as [a Ha] end.
    - apply orb_false_iff in Z0. destruct Z0 as [Z1 Z2]. apply Z.eqb_neq in Z1, Z2.
      assert (M : forall v n s, (0 < n)%Z -> (Z.max 0 (moves_left n (clamp_index v n) s) <= n)%Z).
      { intros v n s Hn. pose proof (clamp_index_below v n Hn). unfold moves_left. destruct (Z.ltb_spec (clamp_index v n) 0); [lia|]. destruct (_ <? _)%Z; lia. }
      match goal with |- (Z.max 0 (moves_left _ (clamp_index ?v _) ?s) + Z.max 0 (moves_left _ (clamp_index ?v' _) ?s') < _)%Z =>
        pose proof (M v (om_columns m) s ltac:(lia)); pose proof (M v' (om_rows m) s' ltac:(lia)) end. lia.
    - exists a. intros fuel Hf. apply ray_loop_more with (2 := Ha). lia.
  Qed.
End WalkAny.

(** * The walk, exactly *)
(** Whether a distance is within the range asked for; a NaN range is no limit. *)
Definition unlimited_by (mx : XR) (u : R) : Prop := xlt mx (Fin u) = false.

Lemma unlimited_lt mx e u : xlt mx (Fin e) = true -> unlimited_by mx u -> u < e.
Proof.
  unfold unlimited_by. destruct mx as [M| | |]; cbn; try discriminate.
  rewrite Rltb_true, Rltb_false. lra.
Qed.

Section Axis.
  (** One axis of a beam: start [s], component [d], lattice origin [o], cell [res]. *)
  Variables (s d o res : R).
  Hypothesis Hres : 0 < res.

  Definition edge_ahead (i : Z) : XR :=
    if Req_EM_T d 0 then PInf else Fin ((o + IZR (if Rlt_dec 0 d then i + 1 else i) * res - s) / d).
  Definition step_of : Z := if Rlt_dec 0 d then 1%Z else (-1)%Z.

  Lemma axis_step_R : axis_step (Fin d) = step_of.
  Proof. unfold axis_step, step_of. cbn. unfold Rltb. destruct (Rlt_dec 0 d); reflexivity. Qed.

  Lemma boundary_distance_X i : boundary_distance (Fin s) (Fin d) i (axis_step (Fin d)) (Fin o) (Fin res) = edge_ahead i.
  Proof.
    unfold boundary_distance, edge_ahead. rewrite axis_step_R. unfold step_of. cbn [eqb zero Xnum xeq]. unfold Reqb.
    destruct (Req_EM_T d 0); [reflexivity|]. destruct (Rlt_dec 0 d); cbn [Z.ltb Z.compare]; xnum; rewrite xdiv_fin by assumption; reflexivity.
  Qed.

  Lemma edge_next i : d <> 0 -> add (edge_ahead i) (div (Fin res) (abs (Fin d))) = edge_ahead (i + step_of).
  Proof.
    intros H. unfold edge_ahead, step_of. destruct (Req_EM_T d 0); [contradiction|]. xnum.
    rewrite xdiv_fin by (apply Rabs_no_R0; assumption). destruct (Rlt_dec 0 d).
    - rewrite Rabs_pos_eq by lra. cbn. f_equal. rewrite !plus_IZR. field. assumption.
    - rewrite Rabs_left by lra. cbn. f_equal. rewrite plus_IZR. field. assumption.
  Qed.

  Definition slab (i : Z) (u : R) : Prop := o + IZR i * res <= s + u * d <= o + (IZR i + 1) * res.

  Lemma edge_inf i : edge_ahead i = PInf -> d = 0.
  Proof. unfold edge_ahead. destruct (Req_EM_T d 0); [auto|discriminate]. Qed.
  Lemma edge_fin i : d <> 0 -> exists n, edge_ahead i = Fin n.
  Proof. unfold edge_ahead. destruct (Req_EM_T d 0); [contradiction|eauto]. Qed.
  Lemma edge_not i : edge_ahead i <> NInf /\ edge_ahead i <> XNaN.
  Proof. unfold edge_ahead. destruct (Req_EM_T d 0); split; discriminate. Qed.

  Lemma edge_point i n : edge_ahead i = Fin n -> d <> 0 /\ s + n * d = o + IZR (if Rlt_dec 0 d then i + 1 else i) * res.
  Proof. unfold edge_ahead. destruct (Req_EM_T d 0); [discriminate|]. injection 1 as <-. split; [assumption|]. field. assumption. Qed.

  Lemma edge_after i e : slab i e -> xle (Fin e) (edge_ahead i) = true.
  Proof.
    intros [A B]. destruct (edge_ahead i) as [n| | |] eqn:E; cbn; [|reflexivity|destruct (edge_not i); contradiction|destruct (edge_not i); contradiction].
    apply Rleb_true. apply edge_point in E. destruct E as [Hd E]. destruct (Rlt_dec 0 d).
    - rewrite plus_IZR in E. apply Rmult_le_reg_r with d; lra.
    - assert (d < 0) by lra. destruct (Rle_or_lt e n); [assumption|]. exfalso.
      assert (n * d > e * d) by nra. lra.
  Qed.

  Lemma slab_stays i e u : slab i e -> e <= u -> xle (Fin u) (edge_ahead i) = true -> slab i u.
  Proof.
    intros [A B] H L. unfold slab. destruct (edge_ahead i) as [n| | |] eqn:E; cbn in L; try discriminate.
    - apply Rleb_true in L. apply edge_point in E. destruct E as [Hd E]. destruct (Rlt_dec 0 d).
      + rewrite plus_IZR in E. assert (e * d <= u * d) by nra. assert (u * d <= n * d) by nra. lra.
      + assert (d < 0) by lra. assert (e * d >= u * d) by nra. assert (u * d >= n * d) by nra. lra.
    - apply edge_inf in E. rewrite E in *. rewrite Rmult_0_r in *. lra.
  Qed.

  Lemma slab_next i n : edge_ahead i = Fin n -> slab (i + step_of) n.
  Proof.
    intros E. apply edge_point in E. destruct E as [Hd E]. unfold slab, step_of. destruct (Rlt_dec 0 d); rewrite plus_IZR in *; cbn; split; nra.
  Qed.

  Definition on_axis (size i : Z) : Prop := (0 <= i < size)%Z \/ (i = size /\ 0 < d) \/ (i = (-1)%Z /\ d < 0).

  Lemma on_axis_next size i : (0 <= i < size)%Z -> d <> 0 -> on_axis size (i + step_of).
  Proof.
    intros H Hd. unfold on_axis, step_of. destruct (Rlt_dec 0 d).
    - destruct (Z.eq_dec (i + 1) size); [right; left; split; [assumption|lra]|left; lia].
    - destruct (Z.eq_dec i 0); [right; right; split; [lia|lra]|left; lia].
  Qed.

  Lemma off_axis size i e u : on_axis size i -> slab i e -> ~ (0 <= i < size)%Z -> e <= u -> 
    s + u * d <= o \/ o + IZR size * res <= s + u * d.
  Proof.
    intros [H|[[-> H]|[-> H]]] [A B] N L; [contradiction| |].
    - right. nra.
    - left. cbn in B. nra.
  Qed.
End Axis.

Lemma index_apart res o x i j : 0 < res -> o + IZR i * res <= x <= o + (IZR i + 1) * res ->
  o + IZR j * res < x < o + (IZR j + 1) * res -> i = j.
Proof.
  intros H [A B] [C D].
  assert (IZR i < IZR j + 1) by nra. assert (IZR j < IZR i + 1) by nra.
  rewrite <- plus_IZR in *. apply lt_IZR in H0, H1. lia.
Qed.

Section Walk.
  Variables (m : OccupancyMap XR) (sx sy ox oy res bearing : R) (mx : XR).
  Hypothesis Hres : 0 < res.
  Let dx := Rtrigo_def.cos bearing.
  Let dy := Rtrigo_def.sin bearing.

  Lemma not_both : dx <> 0 \/ dy <> 0.
  Proof using.
    destruct (Req_EM_T dx 0) as [E|]; [right|left; assumption]. intros E'.
    pose proof (sin2_cos2 bearing) as H. unfold Rsqr, dx, dy in *. rewrite E, E' in H. lra.
  Qed.

  Definition beam_free (u : R) : Prop := forall row column,
    (0 <= row < om_rows m)%Z -> (0 <= column < om_columns m)%Z -> om_is_occupied m row column = true ->
    ~ in_interior ox oy res row column (beam (sx, sy) bearing u).

  Definition good_answer (a : option XR) : Prop :=
    match a with
    | Some d => exists t, d = Fin t /\ 0 <= t /\ unlimited_by mx t /\
        (exists row column, (0 <= row < om_rows m)%Z /\ (0 <= column < om_columns m)%Z /\ om_is_occupied m row column = true /\
           in_closed ox oy res row column (beam (sx, sy) bearing t)) /\
        forall u, 0 <= u < t -> beam_free u
    | None => forall u, 0 <= u -> unlimited_by mx u -> beam_free u
    end.

  Lemma ray_loop_good : forall fuel c r e a,
    0 <= e -> slab sx dx ox res c e -> slab sy dy oy res r e ->
    on_axis dx (om_columns m) c -> on_axis dy (om_rows m) r ->
    (forall u, 0 <= u < e -> beam_free u) ->
    ray_loop fuel m mx (step_of dx) (step_of dy)
      (if Req_EM_T dx 0 then PInf else div (Fin res) (abs (Fin dx))) (if Req_EM_T dy 0 then PInf else div (Fin res) (abs (Fin dy)))
      c r (edge_ahead sx dx ox res c) (edge_ahead sy dy oy res r) (Fin e) = Some a ->
    good_answer a.
  Proof using Hres.
    induction fuel as [|fuel IH]; intros c r e a He Sc Sr Oc Or Free; [discriminate|]. cbn [ray_loop].
    cbn [ltb Xnum] in *. destruct (xlt mx (Fin e)) eqn:L.
    { injection 1 as <-. intros u Hu Hl. apply Free. split; [assumption|]. apply (unlimited_lt mx); assumption. }
    assert (Out : ~ (0 <= c < om_columns m)%Z \/ ~ (0 <= r < om_rows m)%Z -> good_answer None).
    { intros O u Hu Hl. destruct (Rlt_or_le u e) as [Lt|Ge]; [apply Free; lra|].
      intros row column Hr Hc _ [[I1 I2] [I3 I4]]. cbn [fst snd beam] in I1, I2, I3, I4. fold dx in I1, I2. fold dy in I3, I4.
      assert (IZR row + 1 <= IZR (om_rows m)) by (rewrite <- plus_IZR; apply IZR_le; lia).
      assert (IZR column + 1 <= IZR (om_columns m)) by (rewrite <- plus_IZR; apply IZR_le; lia).
      assert (0 <= IZR row) by (apply IZR_le; lia). assert (0 <= IZR column) by (apply IZR_le; lia).
      destruct O as [O|O].
      - destruct (off_axis sx dx ox res _ _ _ u Oc Sc O Ge); nra.
      - destruct (off_axis sy dy oy res _ _ _ u Or Sr O Ge); nra. }
    destruct (Z.ltb_spec c 0). { cbn [orb]. injection 1 as <-. apply Out. lia. }
    destruct (Z.ltb_spec r 0). { cbn [orb]. injection 1 as <-. apply Out. lia. }
    cbn [orb]. destruct (Z.leb_spec (om_columns m) c). { cbn [orb]. injection 1 as <-. apply Out. lia. }
    destruct (Z.leb_spec (om_rows m) r). { cbn [orb]. injection 1 as <-. apply Out. lia. }
    cbn [orb]. destruct (om_is_occupied m r c) eqn:Occ.
    { injection 1 as <-. exists e. split; [reflexivity|]. split; [assumption|]. split; [exact L|]. split; [|exact Free].
      exists r, c. split; [lia|]. split; [lia|]. split; [assumption|]. split; assumption. }
    assert (Stay : forall n, e <= n -> slab sx dx ox res c n -> slab sy dy oy res r n ->
                   (forall u, e <= u <= n -> slab sx dx ox res c u /\ slab sy dy oy res r u) -> forall u, 0 <= u < n -> beam_free u).
    { intros n Hn _ _ Hs u Hu. destruct (Rlt_or_le u e) as [Lt|Ge]; [apply Free; lra|].
      destruct (Hs u ltac:(lra)) as [S1 S2]. intros row column Hr Hc Ho [I1 I2]. cbn [fst snd beam] in I1, I2.
      assert (c = column) by (apply (index_apart res ox (sx + u * dx)); assumption).
      assert (r = row) by (apply (index_apart res oy (sy + u * dy)); assumption). subst. congruence. }
    pose proof (edge_after sx dx ox res c e Sc) as Ac. pose proof (edge_after sy dy oy res r e Sr) as Ar.
    destruct (xlt (edge_ahead sx dx ox res c) (edge_ahead sy dy oy res r)) eqn:Cmp.
    - destruct (edge_ahead sx dx ox res c) as [n| | |] eqn:En; try discriminate; [|cbn in Cmp; destruct (edge_ahead sy dy oy res r); discriminate].
      pose proof (edge_point _ _ _ _ _ _ En) as [Hd _]. cbn in Ac. apply Rleb_true in Ac.
      assert (Lr : forall u, u <= n -> xle (Fin u) (edge_ahead sy dy oy res r) = true).
      { intros u Hu. destruct (edge_ahead sy dy oy res r) as [k| | |]; cbn in *; try discriminate; [|reflexivity]. apply Rltb_true in Cmp. apply Rleb_true. lra. }
      assert (Sl : forall u, e <= u <= n -> slab sx dx ox res c u /\ slab sy dy oy res r u).
      { intros u Hu. split; [apply (slab_stays _ _ _ _ c e); try assumption; [lra|rewrite En; cbn; apply Rleb_true; lra]|apply (slab_stays _ _ _ _ r e); try assumption; [lra|apply Lr; lra]]. }
      destruct (Sl n ltac:(lra)) as [Sn1 Sn2].
      rewrite <- En. destruct (Req_EM_T dx 0) as [?|_]; [contradiction|]. rewrite edge_next by assumption. rewrite En.
      intros G. apply (IH _ _ n a) with (7 := G).
      + lra.
      + apply slab_next; assumption.
      + assumption.
      + apply on_axis_next; [lia|assumption].
      + assumption.
      + apply (Stay n Ac); assumption.
    - destruct (edge_ahead sy dy oy res r) as [n| | |] eqn:En.
      + pose proof (edge_point _ _ _ _ _ _ En) as [Hd _]. cbn in Ar. apply Rleb_true in Ar.
        assert (Lc : forall u, u <= n -> xle (Fin u) (edge_ahead sx dx ox res c) = true).
        { intros u Hu. destruct (edge_ahead sx dx ox res c) as [k| | |]; cbn in *; try discriminate; [|reflexivity]. apply Rltb_false in Cmp. apply Rleb_true. lra. }
        assert (Sl : forall u, e <= u <= n -> slab sx dx ox res c u /\ slab sy dy oy res r u).
        { intros u Hu. split; [apply (slab_stays _ _ _ _ c e); try assumption; [lra|apply Lc; lra]|apply (slab_stays _ _ _ _ r e); try assumption; [lra|rewrite En; cbn; apply Rleb_true; lra]]. }
        destruct (Sl n ltac:(lra)) as [Sn1 Sn2].
        rewrite <- En. destruct (Req_EM_T dy 0) as [?|_]; [contradiction|]. rewrite edge_next by assumption. rewrite En.
        intros G. apply (IH _ _ n a) with (7 := G).
        * lra.
        * assumption.
        * apply slab_next; assumption.
        * assumption.
        * apply on_axis_next; [lia|assumption].
        * apply (Stay n Ar); assumption.
      + exfalso. apply edge_inf in En. destruct not_both as [Hx|Hy]; [|contradiction].
        destruct (edge_fin sx dx ox res c Hx) as [k Ek]. rewrite Ek in Cmp. discriminate.
      + destruct (edge_not sy dy oy res r) as [? ?]; contradiction.
      + destruct (edge_not sy dy oy res r) as [? ?]; contradiction.
  Qed.
End Walk.

Lemma entry_axis_moving s d low high near far : d <> 0 -> low <= high ->
  exists f l, entry_axis (Fin s) (Fin d) (Fin low) (Fin high) (near, far) = Some (xmax near (Fin f), xmin far (Fin l)) /\
    (forall u, low <= s + u * d <= high <-> f <= u <= l).
Proof.
  intros Hd Hl. unfold entry_axis. cbn [eqb zero Xnum xeq]. rewrite (proj2 (Reqb_false d 0) Hd).
  cbn zeta. xnum. rewrite xdiv_fin by assumption. cbn [xmul]. set (a := (low + - s) * (1 / d)). set (b := (high + - s) * (1 / d)).
  assert (Ea : a * d = low - s) by (unfold a; field; assumption). assert (Eb : b * d = high - s) by (unfold b; field; assumption).
  cbn [xlt]. destruct (Rltb b a) eqn:E; [apply Rltb_true in E|apply Rltb_false in E].
  - exists b, a. split; [reflexivity|]. assert (d < 0) by nra. intros u. split; intros [? ?]; split; nra.
  - exists a, b. split; [reflexivity|]. intros u. destruct (Rlt_or_le 0 d) as [P|P].
    + split; intros [? ?]; split; nra.
    + assert (d < 0) by lra. assert (low = high) by nra. subst high. assert (a = b) by nra.
      split; intros [? ?]; split; nra.
Qed.

Lemma entry_axis_still s low high nf :
  entry_axis (Fin s) (Fin 0) (Fin low) (Fin high) nf = if (Rltb s low || Rltb high s)%bool then None else Some nf.
Proof. unfold entry_axis. destruct nf. cbn. rewrite (proj2 (Reqb_true 0 0) eq_refl). reflexivity. Qed.

Lemma entry_distance_X (m : OccupancyMap XR) ox oy res sx sy dx dy :
  om_resolution m = Fin res -> om_origin m = (Fin ox, Fin oy) -> 0 < res -> (0 < om_columns m)%Z -> (0 < om_rows m)%Z ->
  dx <> 0 \/ dy <> 0 ->
  let closed u := ox <= sx + u * dx <= ox + IZR (om_columns m) * res /\ oy <= sy + u * dy <= oy + IZR (om_rows m) * res in
  match entry_distance m (Fin sx, Fin sy) (Fin dx, Fin dy) with
  | Some e => exists t, e = Fin t /\ 0 <= t /\ closed t /\ (forall u, 0 <= u < t -> ~ closed u)
  | None => forall u, 0 <= u -> ~ closed u
  end.
Proof.
  intros Eres Eo Hres HC HR Hd closed. unfold entry_distance, closed. rewrite Eres, Eo. cbn [fst snd].
  assert (HC' : 0 < IZR (om_columns m)) by (apply IZR_lt; assumption). assert (HR' : 0 < IZR (om_rows m)) by (apply IZR_lt; assumption).
  cbn [mul add of_Z Xnum xmul xadd neg_infinity infinity].
  set (hx := ox + IZR (om_columns m) * res). set (hy := oy + IZR (om_rows m) * res).
  assert (ox < hx) by (unfold hx; nra). assert (oy < hy) by (unfold hy; nra). clear closed.
  destruct (Req_EM_T dx 0) as [->|Nx].
  - rewrite entry_axis_still. destruct (Rltb sx ox || Rltb hx sx)%bool eqn:E.
    + intros u _ [[A B] _]. rewrite Rmult_0_r, Rplus_0_r in *. apply orb_true_iff in E. rewrite !Rltb_true in E. lra.
    + apply orb_false_iff in E. rewrite !Rltb_false in E.
      destruct Hd as [?|Hd]; [lra|]. destruct (entry_axis_moving sy dy oy hy NInf PInf Hd ltac:(lra)) as (f & l & -> & Cl).
      unfold xmax, xmin. cbn [xis_nan xlt]. cbn [ltb zero Xnum xlt].
      destruct (Rltb l f || Rltb l 0)%bool eqn:E2.
      * intros u Hu [_ Hy]. apply Cl in Hy. apply orb_true_iff in E2. rewrite !Rltb_true in E2. lra.
      * apply orb_false_iff in E2. rewrite !Rltb_false in E2. cbn [max Xnum]. rewrite xmax_fin. exists (Rmax f 0). split; [reflexivity|]. split; [apply Rmax_r|]. split.
        { split; [rewrite Rmult_0_r; lra|]. apply Cl. unfold Rmax. destruct (Rle_dec f 0); lra. }
        intros u Hu [_ Hy]. apply Cl in Hy. unfold Rmax in Hu. destruct (Rle_dec f 0); lra.
  - destruct (entry_axis_moving sx dx ox hx NInf PInf Nx ltac:(lra)) as (f & l & -> & Cl).
    unfold xmax, xmin. cbn [xis_nan xlt].
    destruct (Req_EM_T dy 0) as [->|Ny].
    + rewrite entry_axis_still. destruct (Rltb sy oy || Rltb hy sy)%bool eqn:E.
      * intros u _ [_ [A B]]. rewrite Rmult_0_r, Rplus_0_r in *. apply orb_true_iff in E. rewrite !Rltb_true in E. lra.
      * apply orb_false_iff in E. rewrite !Rltb_false in E. cbn [ltb zero Xnum xlt].
        destruct (Rltb l f || Rltb l 0)%bool eqn:E2.
        -- intros u Hu [Hx _]. apply Cl in Hx. apply orb_true_iff in E2. rewrite !Rltb_true in E2. lra.
        -- apply orb_false_iff in E2. rewrite !Rltb_false in E2. cbn [max Xnum]. rewrite xmax_fin. exists (Rmax f 0). split; [reflexivity|]. split; [apply Rmax_r|]. split.
           { split; [|rewrite Rmult_0_r; lra]. apply Cl. unfold Rmax. destruct (Rle_dec f 0); lra. }
           intros u Hu [Hx _]. apply Cl in Hx. unfold Rmax in Hu. destruct (Rle_dec f 0); lra.
    + destruct (entry_axis_moving sy dy oy hy (Fin f) (Fin l) Ny ltac:(lra)) as (f' & l' & -> & Cl').
      rewrite xmax_fin, xmin_fin. cbn [ltb zero Xnum xlt]. destruct (Rltb (Rmin l l') (Rmax f f') || Rltb (Rmin l l') 0)%bool eqn:E2.
      * intros u Hu [Hx Hy]. apply Cl in Hx. apply Cl' in Hy. apply orb_true_iff in E2. rewrite !Rltb_true in E2.
        unfold Rmin, Rmax in E2. destruct (Rle_dec l l'), (Rle_dec f f'); lra.
      * apply orb_false_iff in E2. rewrite !Rltb_false in E2. cbn [max Xnum]. rewrite xmax_fin. exists (Rmax (Rmax f f') 0). split; [reflexivity|]. split; [apply Rmax_r|].
        assert (f <= Rmax f f' /\ f' <= Rmax f f' /\ Rmin l l' <= l /\ Rmin l l' <= l') by (repeat split; [apply Rmax_l|apply Rmax_r|apply Rmin_l|apply Rmin_r]).
        assert (Rmax f f' <= Rmax (Rmax f f') 0 <= Rmin l l') by (split; [apply Rmax_l|unfold Rmax at 1; destruct (Rle_dec (Rmax f f') 0); lra]).
        split; [split; [apply Cl|apply Cl']; lra|].
        intros u Hu [Hx Hy]. apply Cl in Hx. apply Cl' in Hy. unfold Rmax in Hu. destruct (Rle_dec f f'); [destruct (Rle_dec f' 0)|destruct (Rle_dec f 0)]; lra.
Qed.

(** The index a beam enters at: the closed slab of that index holds the point. *)
Lemma clamp_index_X o res x n : 0 < res -> (0 < n)%Z -> (n <= two64m1)%Z -> o <= x <= o + IZR n * res ->
  let i := clamp_index (Fin ((x - o) / res)) n in
  (0 <= i < n)%Z /\ o + IZR i * res <= x <= o + (IZR i + 1) * res.
Proof.
  intros H Hn Hm Hx i. unfold i, clamp_index. cbn [floor Xnum lift]. set (k := Zfloor ((x - o) / res)).
  assert (K : o + IZR k * res <= x < o + (IZR k + 1) * res) by (apply cell_index; [assumption|reflexivity]).
  assert (K0 : (0 <= k)%Z). { assert (-1 < k)%Z; [|lia]. apply lt_IZR. cbn. nra. }
  assert (Kn : (k <= n)%Z). { apply le_IZR. nra. }
  cbn [ltb zero Xnum xlt]. destruct (Rltb (IZR k) 0) eqn:E. { apply Rltb_true, lt_IZR in E. lia. }
  cbn [to_usize Xnum]. rewrite to_usize_IZR by lia. destruct (Z.leb_spec n k).
  - assert (k = n) by lia. split; [lia|]. rewrite minus_IZR. subst n. nra.
  - split; [lia|]. lra.
Qed.

Lemma cast_ray_within_X (m : OccupancyMap XR) ox oy res sx sy bearing mx fuel a :
  om_resolution m = Fin res -> om_origin m = (Fin ox, Fin oy) -> 0 < res ->
  (0 <= om_columns m <= two64m1)%Z -> (0 <= om_rows m <= two64m1)%Z ->
  cast_ray_within fuel m (Fin sx, Fin sy) (Fin bearing) mx = Some a -> good_answer m sx sy ox oy res bearing mx a.
Proof.
  intros Eres Eo Hres HC HR. unfold cast_ray_within.
  destruct (Z.eqb_spec (om_columns m) 0). { cbn [orb]. injection 1 as <-. intros u _ _ row column Hr Hc. lia. }
  destruct (Z.eqb_spec (om_rows m) 0). { cbn [orb]. injection 1 as <-. intros u _ _ row column Hr Hc. lia. }
  cbn [orb]. cbn [cos sin Xnum lift]. set (dx := Rtrigo_def.cos bearing). set (dy := Rtrigo_def.sin bearing).
  pose proof (entry_distance_X m ox oy res sx sy dx dy Eres Eo Hres ltac:(lia) ltac:(lia) (not_both bearing)) as En.
  cbv zeta in En. assert (Inner : forall u, ~ (ox <= sx + u * dx <= ox + IZR (om_columns m) * res /\ oy <= sy + u * dy <= oy + IZR (om_rows m) * res) -> beam_free m sx sy ox oy res bearing u).
  { intros u N row column Hr Hc _ [[I1 I2] [I3 I4]]. apply N. cbn [fst snd beam] in *.
    assert (IZR row + 1 <= IZR (om_rows m)) by (rewrite <- plus_IZR; apply IZR_le; lia).
    assert (IZR column + 1 <= IZR (om_columns m)) by (rewrite <- plus_IZR; apply IZR_le; lia).
    assert (0 <= IZR row) by (apply IZR_le; lia). assert (0 <= IZR column) by (apply IZR_le; lia).
    fold dx in I1, I2. fold dy in I3, I4. repeat split; nra. }
  destruct (entry_distance m (Fin sx, Fin sy) (Fin dx, Fin dy)) as [e|].
  2: { injection 1 as <-. intros u Hu _. apply Inner, En, Hu. }
  destruct En as (t & -> & Ht & (Cx & Cy) & Before).
  cbn [ltb Xnum]. destruct (xlt mx (Fin t)) eqn:L.
  { injection 1 as <-. intros u Hu Hl. apply Inner, Before. split; [assumption|]. apply (unlimited_lt mx); assumption. }
  rewrite Eres, Eo. cbn [fst snd]. rewrite !axis_step_R.
  assert (P : forall s d o, div (sub (add (Fin s) (mul (Fin t) (Fin d))) (Fin o)) (Fin res) = Fin ((s + t * d - o) / res)).
  { intros. cbn [div sub add mul Xnum xadd xmul xneg]. rewrite xdiv_fin by lra. reflexivity. }
  rewrite !P. cbn zeta.
  destruct (clamp_index_X ox res (sx + t * dx) (om_columns m) Hres ltac:(lia) ltac:(lia) Cx) as [Ic Sc].
  destruct (clamp_index_X oy res (sy + t * dy) (om_rows m) Hres ltac:(lia) ltac:(lia) Cy) as [Ir Sr].
  set (c := clamp_index _ (om_columns m)) in *. set (r := clamp_index _ (om_rows m)) in *.
  rewrite <- !axis_step_R, !boundary_distance_X, !axis_step_R.
  intros G. apply (ray_loop_good m sx sy ox oy res bearing mx Hres fuel c r t a).
  - assumption.
  - exact Sc.
  - exact Sr.
  - left. assumption.
  - left. assumption.
  - intros u Hu. apply Inner, Before, Hu.
  - rewrite <- G. f_equal; cbn [eqb zero Xnum xeq]; unfold Reqb; fold dx; fold dy;
      [destruct (Req_EM_T dx 0)|destruct (Req_EM_T dy 0)]; reflexivity.
Qed.

(** A beam that starts in an occupied cell is stopped at once. *)
Lemma cast_ray_within_start (m : OccupancyMap XR) ox oy res sx sy bearing mx fuel row column :
  om_resolution m = Fin res -> om_origin m = (Fin ox, Fin oy) -> 0 < res ->
  (0 <= om_columns m <= two64m1)%Z -> (0 <= om_rows m <= two64m1)%Z ->
  (0 <= row < om_rows m)%Z -> (0 <= column < om_columns m)%Z -> in_half_open ox oy res row column (sx, sy) ->
  om_is_occupied m row column = true -> unlimited_by mx 0 ->
  cast_ray_within (S fuel) m (Fin sx, Fin sy) (Fin bearing) mx = Some (Some (Fin 0)).
Proof.
  intros Eres Eo Hres HC HR Hr Hc In Occ L. unfold cast_ray_within.
  destruct (Z.eqb_spec (om_columns m) 0); [lia|]. destruct (Z.eqb_spec (om_rows m) 0); [lia|].
  cbn [orb]. cbn [cos sin Xnum lift]. set (dx := Rtrigo_def.cos bearing). set (dy := Rtrigo_def.sin bearing).
  pose proof (entry_distance_X m ox oy res sx sy dx dy Eres Eo Hres ltac:(lia) ltac:(lia) (not_both bearing)) as En. cbv zeta in En.
  assert (C0 : ox <= sx + 0 * dx <= ox + IZR (om_columns m) * res /\ oy <= sy + 0 * dy <= oy + IZR (om_rows m) * res).
  { destruct In as [[A B] [C D]]. cbn [fst snd] in *.
    assert (IZR row + 1 <= IZR (om_rows m)) by (rewrite <- plus_IZR; apply IZR_le; lia).
    assert (IZR column + 1 <= IZR (om_columns m)) by (rewrite <- plus_IZR; apply IZR_le; lia).
    assert (0 <= IZR row) by (apply IZR_le; lia). assert (0 <= IZR column) by (apply IZR_le; lia).
    rewrite !Rmult_0_l, !Rplus_0_r. repeat split; nra. }
  destruct (entry_distance m (Fin sx, Fin sy) (Fin dx, Fin dy)) as [e|].
  2: { exfalso. exact (En 0 (Rle_refl 0) C0). }
  destruct En as (t & -> & Ht & _ & Before).
  assert (t = 0) as ->. { destruct (Rlt_or_le 0 t) as [P|]; [|lra]. exfalso. exact (Before 0 (conj (Rle_refl 0) P) C0). }
  cbn [ltb Xnum]. unfold unlimited_by in L. rewrite L. rewrite Eres, Eo. cbn [fst snd ray_loop].
  assert (P : forall s d o, div (sub (add (Fin s) (mul (Fin 0) (Fin d))) (Fin o)) (Fin res) = Fin ((s - o) / res)).
  { intros. cbn [div sub add mul Xnum xadd xmul xneg]. rewrite xdiv_fin by lra. f_equal. field. lra. }
  rewrite !P. cbn zeta. cbn [ltb Xnum]. rewrite L.
  apply in_half_open_index in In; [|assumption]. cbn [fst snd] in In. destruct In as [Ir Ic].
  assert (Cl : forall v k len, Zfloor v = k -> (0 <= k < len)%Z -> (len <= two64m1)%Z -> clamp_index (Fin v) len = k).
  { intros v k len E Hk Hn. unfold clamp_index. cbn [floor Xnum lift]. rewrite E. cbn [ltb zero Xnum xlt].
    destruct (Rltb (IZR k) 0) eqn:E0. { apply Rltb_true, lt_IZR in E0. lia. }
    cbn [to_usize Xnum]. rewrite to_usize_IZR by lia. destruct (Z.leb_spec len k); lia. }
  rewrite (Cl _ _ _ Ic) by lia. rewrite (Cl _ _ _ Ir) by lia.
  destruct (Z.ltb_spec column 0); [lia|]. destruct (Z.ltb_spec row 0); [lia|].
  destruct (Z.leb_spec (om_columns m) column); [lia|]. destruct (Z.leb_spec (om_rows m) row); [lia|]. cbn [orb].
  rewrite Occ. reflexivity.
Qed.

(** * Drawing *)
Definition same_shape {T} (g g' : Grid T) : Prop :=
  gr_columns g' = gr_columns g /\ gr_rows g' = gr_rows g /\ gr_resolution g' = gr_resolution g /\ gr_origin g' = gr_origin g.

(** What drawing a set of points does to a grid. *)
Definition drawn (g g' : Grid R) (points : R * R -> Prop) : Prop :=
  grid_ok g' /\ same_shape g g' /\
  forall row column, (0 <= row < gr_rows g)%Z -> (0 <= column < gr_columns g)%Z ->
    (grid_is_occupied g' row column = true <->
     grid_is_occupied g row column = true \/
     exists p, points p /\ in_half_open (fst (gr_origin g)) (snd (gr_origin g)) (gr_resolution g) row column p).

Lemma drawn_trans g g1 g2 P Q : drawn g g1 P -> drawn g1 g2 Q -> drawn g g2 (fun p => P p \/ Q p).
Proof.
  intros (_ & (A1 & A2 & A3 & A4) & D1) (O & (B1 & B2 & B3 & B4) & D2). split; [assumption|]. split; [repeat split; congruence|].
  intros row column Hr Hc. rewrite A1, A2, A3, A4 in *. rewrite D2, D1 by assumption. split.
  - intros [[H|(p & H1 & H2)]|(p & H1 & H2)]; [left; assumption|right; exists p; auto|right; exists p; auto].
  - intros [H|(p & [H1|H1] & H2)]; [left; left; assumption|left; right; exists p; auto|right; exists p; auto].
Qed.
Lemma drawn_ext g g' (P Q : R * R -> Prop) : (forall p, P p <-> Q p) -> drawn g g' P -> drawn g g' Q.
Proof. intros E (A & B & D). split; [assumption|]. split; [assumption|]. intros row column Hr Hc. rewrite D by assumption.
  split; (intros [H|(p & H1 & H2)]; [left; assumption|right; exists p; split; [apply E; assumption|assumption]]). Qed.
Lemma drawn_nothing g : grid_ok g -> drawn g g (fun _ => False).
Proof. intros H. split; [assumption|]. split; [repeat split|]. intros row column _ _. split; [auto|]. intros [Ho|(p & [] & _)]; assumption. Qed.

Lemma occupy_point_drawn (g : Grid R) p : grid_ok g -> 0 < gr_resolution g -> (gr_columns g <= two64m1)%Z -> (gr_rows g <= two64m1)%Z ->
  drawn g (occupy_point g p) (fun q => q = p).
Proof.
  intros Ok Hres HC HR. unfold occupy_point. pose proof (fun r c => cell_of_R (grid_map g) p r c Hres HC HR) as Cell.
  cbn [grid_map om_rows om_columns om_origin om_resolution] in Cell.
  destruct (cell_of (grid_map g) p) as [[r c]|].
  - destruct (proj1 (Cell r c) eq_refl) as (Hr & Hc & Hin). split; [apply set_cell_ok; assumption|]. split; [apply set_cell_shape|].
    intros row column Hrow Hcol. rewrite set_cell_reads by (try assumption; lia).
    destruct (Z.ltb_spec row (gr_rows g)); [|lia]. destruct (Z.ltb_spec column (gr_columns g)); [|lia]. rewrite !andb_true_r.
    destruct (Z.eqb_spec r row) as [->|Ne]; [destruct (Z.eqb_spec c column) as [->|Ne]|]; cbn [andb].
    + split; [intros _; right; exists p; auto|auto].
    + split; [auto|]. intros [?|(q & -> & Hq)]; [assumption|]. exfalso. apply Ne.
      assert (E : Some (row, c) = Some (row, column)) by (apply Cell; repeat split; try lia; apply Hq). congruence.
    + split; [auto|]. intros [?|(q & -> & Hq)]; [assumption|]. exfalso. apply Ne.
      assert (E : Some (r, c) = Some (row, column)) by (apply Cell; repeat split; try lia; apply Hq). congruence.
  - split; [assumption|]. split; [repeat split|]. intros row column Hrow Hcol. split; [auto|].
    intros [?|(q & -> & Hq)]; [assumption|]. discriminate (proj2 (Cell row column) (conj Hrow (conj Hcol Hq))).
Qed.

Lemma occupy_points_drawn ps : forall g, grid_ok g -> 0 < gr_resolution g -> (gr_columns g <= two64m1)%Z -> (gr_rows g <= two64m1)%Z ->
  drawn g (fold_left occupy_point ps g) (fun q => In q ps).
Proof.
  induction ps as [|p ps IH]; intros g Ok Hres HC HR; cbn [fold_left].
  - apply drawn_nothing; assumption.
  - pose proof (occupy_point_drawn g p Ok Hres HC HR) as D. pose proof D as (Ok' & (E1 & E2 & E3 & E4) & _).
    apply drawn_ext with (P := fun q => q = p \/ In q ps). { intros q. cbn. split; (intros [->|Hq]; [left; reflexivity|right; assumption]). }
    apply drawn_trans with (1 := D). apply IH; try assumption; rewrite ?E1, ?E2, ?E3; assumption.
Qed.

Lemma list_as_seq {A} (l : list A) d : l = map (fun i => nth i l d) (seq 0 (length l)).
Proof.
  induction l as [|a l IH]; [reflexivity|]. cbn [length seq map nth]. f_equal. rewrite <- seq_shift, map_map. exact IH.
Qed.
Lemma fold_left_map {A B C} (f : A -> C -> A) (h : B -> C) l : forall a, fold_left f (map h l) a = fold_left (fun a b => f a (h b)) l a.
Proof. induction l; intros; cbn; auto. Qed.
Lemma fold_left_ext_in {A B} (f h : A -> B -> A) l : (forall a b, In b l -> f a b = h a b) -> forall a, fold_left f l a = fold_left h l a.
Proof. induction l as [|b l IH]; intros H a; cbn; [reflexivity|]. rewrite H by (left; reflexivity). apply IH. intros; apply H; right; assumption. Qed.

Lemma consecutive_length {A} (l : list A) : length (consecutive l) = (length l - 1)%nat.
Proof. induction l as [|a [|b l] IH]; try reflexivity. cbn [consecutive length] in *. rewrite IH. lia. Qed.
Lemma consecutive_nth {A} (l : list A) d : forall i, (S i < length l)%nat -> nth i (consecutive l) (d, d) = (nth i l d, nth (S i) l d).
Proof.
  induction l as [|a [|b l] IH]; intros i H; cbn [length] in H; try lia.
  destruct i as [|i]; [reflexivity|]. change (nth (S i) (consecutive (a :: b :: l)) (d, d)) with (nth i (consecutive (b :: l)) (d, d)).
  rewrite IH by (cbn; lia). reflexivity.
Qed.
Lemma last_nth {A} (l : list A) d : last l d = nth (length l - 1) l d.
Proof.
  induction l as [|a [|b l] IH]; try reflexivity. change (last (a :: b :: l) d) with (last (b :: l) d). rewrite IH.
  cbn [length]. replace (S (S (length l)) - 1)%nat with (S (S (length l) - 1)) by lia. reflexivity.
Qed.

Lemma edges_length {A} (l : list A) closed : length (polyline_edges l closed) = if closed then length l else (length l - 1)%nat.
Proof.
  unfold polyline_edges. rewrite app_length, consecutive_length. destruct l as [|a l]; [destruct closed; reflexivity|].
  destruct closed; cbn [length]; lia.
Qed.
Lemma edges_nth {A} (l : list A) closed d i : (i < length (polyline_edges l closed))%nat ->
  nth i (polyline_edges l closed) (d, d) = (nth i l d, nth ((i + 1) mod Nat.max (length l) 1) l d) /\ (i < length l)%nat.
Proof.
  intros H. rewrite edges_length in H. unfold polyline_edges.
  destruct l as [|a l]; [destruct closed; cbn in H; lia|]. set (n := length (a :: l)) in *. assert (1 <= n)%nat by (cbn in n; lia).
  replace (Nat.max n 1) with n by lia.
  destruct (Nat.lt_ge_cases (S i) n) as [L|L].
  - rewrite app_nth1 by (rewrite consecutive_length; fold n; lia). rewrite consecutive_nth by assumption.
    rewrite Nat.mod_small by lia. rewrite Nat.add_1_r. split; [reflexivity|lia].
  - destruct closed; [|lia]. assert (i = n - 1)%nat by lia. subst i.
    rewrite app_nth2 by (rewrite consecutive_length; fold n; lia). rewrite consecutive_length. fold n. rewrite Nat.sub_diag.
    replace (n - 1 + 1)%nat with n by lia. rewrite Nat.mod_same by lia.
    change (nth 0 [(last (a :: l) a, a)] (d, d)) with (last (a :: l) a, a). change (nth 0 (a :: l) d) with a. rewrite last_nth. fold n. split; [|lia].
    f_equal. apply nth_indep. lia.
Qed.

Lemma occupy_polyline_edges (g : Grid R) l closed :
  occupy_polyline g l closed =
  fold_left (fun g e => fold_left occupy_point (edge_samples (gr_resolution g) (fst e) (snd e)) g) (polyline_edges l closed) g.
Proof.
  unfold occupy_polyline. rewrite (list_as_seq (polyline_edges l closed) ((0, 0), (0, 0))). rewrite fold_left_map, edges_length.
  apply fold_left_ext_in. intros h i Hi. apply in_seq in Hi.
  destruct (edges_nth l closed (0, 0) i ltac:(rewrite edges_length; lia)) as [E L]. rewrite E. cbn [fst snd].
  rewrite (nth_error_nth' l (0, 0)) by assumption.
  assert (L' : ((i + 1) mod Nat.max (length l) 1 < length l)%nat) by (replace (Nat.max (length l) 1) with (length l) by lia; apply Nat.mod_upper_bound; lia).
  rewrite (nth_error_nth' l (0, 0)) by exact L'. reflexivity.
Qed.

(** Points no further than a cell apart along each axis. *)
Lemma near_neighbours ox oy res p q : 0 < res -> Rabs (fst p - fst q) <= res -> Rabs (snd p - snd q) <= res -> neighbours ox oy res p q.
Proof.
  intros H Hx Hy. exists (Zfloor ((snd p - oy) / res)), (Zfloor ((fst p - ox) / res)), (Zfloor ((snd q - oy) / res)), (Zfloor ((fst q - ox) / res)).
  split; [apply in_half_open_index; auto|]. split; [apply in_half_open_index; auto|].
  assert (F : forall a b o, Rabs (a - b) <= res -> (Z.abs (Zfloor ((a - o) / res) - Zfloor ((b - o) / res)) <= 1)%Z).
  { intros a b o Hab. apply Rabs_le_inv in Hab.
    assert (E : (a - o) / res - (b - o) / res = (a - b) / res) by (field; lra).
    assert (-1 <= (a - b) / res <= 1).
    { split; [apply Rmult_le_reg_r with res; [assumption|]|apply Rmult_le_reg_r with res; [assumption|]]; unfold Rdiv; rewrite Rmult_assoc, Rinv_l by lra; lra. }
    set (u := (a - o) / res) in *. set (v := (b - o) / res) in *.
    pose proof (Zfloor_lb u). pose proof (Zfloor_ub u). pose proof (Zfloor_lb v). pose proof (Zfloor_ub v).
    assert (Zfloor u < Zfloor v + 2)%Z by (apply lt_IZR; rewrite plus_IZR; lra).
    assert (Zfloor v < Zfloor u + 2)%Z by (apply lt_IZR; rewrite plus_IZR; lra). lia. }
  split; apply F; assumption.
Qed.

Lemma edge_samples_unbroken ox oy res start stop : 0 < res ->
  R_sqrt.sqrt ((fst stop - fst start) * (fst stop - fst start) + (snd stop - snd start) * (snd stop - snd start)) <= 4 / 10 * res * IZR two64m1 ->
  unbroken ox oy res start stop (edge_samples res start stop).
Proof.
  intros Hres Hlen. unfold edge_samples. cbn [hypot of_ratio mul sub div ceil max one add Rnum].
  set (len := R_sqrt.sqrt _) in *. set (w := fst stop - fst start) in *. set (h := snd stop - snd start) in *.
  assert (Hw : Rabs w <= len).
  { unfold len. rewrite <- sqrt_Rsqr_abs. apply sqrt_le_1_alt. unfold Rsqr. nra. }
  assert (Hh : Rabs h <= len).
  { unfold len. rewrite <- sqrt_Rsqr_abs. apply sqrt_le_1_alt. unfold Rsqr. nra. }
  set (q := len / (4 / 10 * res)) in *.
  assert (Hq : q <= IZR two64m1).
  { unfold q. apply Rmult_le_reg_r with (4 / 10 * res); [lra|]. unfold Rdiv at 1. rewrite Rmult_assoc, Rinv_l by lra. lra. }
  set (n := Z.max (Zceil q) 1).
  assert (Hn : to_usize (Rmax (IZR (Zceil q)) 1) = n).
  { replace (Rmax (IZR (Zceil q)) 1) with (IZR n).
    - apply to_usize_IZR. split; [lia|]. unfold n. apply Z.max_lub; [|rewrite two64m1_val; lia]. apply Zceil_glb. exact Hq.
    - unfold n, Rmax. destruct (Rle_dec (IZR (Zceil q)) 1) as [L|L].
      + apply le_IZR in L. rewrite Z.max_r by lia. reflexivity.
      + rewrite Z.max_l; [reflexivity|]. apply Z.lt_le_incl, lt_IZR. lra. }
  rewrite Hn. assert (1 <= n)%Z by (unfold n; lia). assert (Nr : 1 <= IZR n) by (apply IZR_le; assumption).
  assert (Hqn : q <= IZR n). { apply Rle_trans with (IZR (Zceil q)); [apply Zceil_ub|apply IZR_le; unfold n; lia]. }
  assert (Hln : len <= 4 / 10 * res * IZR n).
  { unfold q in Hqn. apply Rmult_le_compat_r with (r := 4 / 10 * res) in Hqn; [|lra]. unfold Rdiv at 1 in Hqn. rewrite Rmult_assoc, Rinv_l in Hqn by lra. lra. }
  set (f := fun sample : nat => between start stop (INR sample / IZR n)).
  assert (Em : map (fun sample : nat => (fst start + of_nat sample / of_Z n * w, snd start + of_nat sample / of_Z n * h)) (seq 0 (S (Z.to_nat n)))
               = map f (seq 0 (S (Z.to_nat n)))).
  { apply map_ext. intros k. unfold f, between, of_nat. cbn [of_Z Rnum]. rewrite INR_IZR_INZ. reflexivity. }
  change (unbroken ox oy res start stop (map (fun sample : nat => (fst start + of_nat sample / of_Z n * w, snd start + of_nat sample / of_Z n * h)) (seq 0 (S (Z.to_nat n))))).
  rewrite Em.
  assert (Nn : INR (Z.to_nat n) = IZR n) by (rewrite INR_IZR_INZ, Z2Nat.id by lia; reflexivity).
  assert (Near : forall s t, Rabs (s - t) * IZR n <= 1 -> neighbours ox oy res (between start stop s) (between start stop t)).
  { intros s t Hst. apply near_neighbours; [assumption| |]; unfold between; cbn [fst snd]; fold w; fold h.
    - replace (fst start + s * w - (fst start + t * w)) with ((s - t) * w) by ring. rewrite Rabs_mult. pose proof (Rabs_pos (s - t)). pose proof (Rabs_pos w).
      assert (Rabs (s - t) * Rabs w <= Rabs (s - t) * (4 / 10 * res * IZR n)) by (apply Rmult_le_compat_l; lra). nra.
    - replace (snd start + s * h - (snd start + t * h)) with ((s - t) * h) by ring. rewrite Rabs_mult. pose proof (Rabs_pos (s - t)). pose proof (Rabs_pos h).
      assert (Rabs (s - t) * Rabs h <= Rabs (s - t) * (4 / 10 * res * IZR n)) by (apply Rmult_le_compat_l; lra). nra. }
  split; [|split; [|split; [|split]]].
  - cbn [seq map hd_error]. unfold f, between. cbn [INR]. unfold Rdiv. rewrite Rmult_0_l, !Rmult_0_l, !Rplus_0_r. destruct start; reflexivity.
  - rewrite last_nth, map_length, seq_length. replace (S (Z.to_nat n) - 1)%nat with (Z.to_nat n) by lia.
    rewrite (nth_indep _ start (f 0%nat)) by (rewrite map_length, seq_length; lia). rewrite map_nth, seq_nth by lia. cbn [Nat.add].
    unfold f. rewrite Nn. unfold between, Rdiv. rewrite Rinv_r by lra. destruct stop as [x y]. cbn [fst snd]. f_equal; ring.
  - intros p Hp. apply in_map_iff in Hp. destruct Hp as (k & <- & Hk). apply in_seq in Hk. exists (INR k / IZR n). split; [|reflexivity].
    assert (INR k <= IZR n) by (rewrite <- Nn; apply le_INR; lia). pose proof (pos_INR k).
    split; [apply Rmult_le_pos; [lra|left; apply Rinv_0_lt_compat; lra]|]. apply Rmult_le_reg_r with (IZR n); [lra|]. unfold Rdiv. rewrite Rmult_assoc, Rinv_l by lra. lra.
  - intros k x y Hx Hy. rewrite nth_error_map in Hx, Hy.
    destruct (nth_error (seq 0 (S (Z.to_nat n))) k) as [a|] eqn:Ea; [|discriminate]. destruct (nth_error (seq 0 (S (Z.to_nat n))) (S k)) as [b|] eqn:Eb; [|discriminate].
    injection Hx as <-. injection Hy as <-.
    assert (Lb : (S k < S (Z.to_nat n))%nat). { rewrite <- (seq_length (S (Z.to_nat n)) 0). apply nth_error_Some. congruence. }
    apply nth_error_nth with (d := 0%nat) in Ea, Eb. rewrite seq_nth in Ea by lia. rewrite seq_nth in Eb by lia. cbn [Nat.add] in Ea, Eb. subst a b. unfold f. apply Near.
    rewrite S_INR. replace (INR k / IZR n - (INR k + 1) / IZR n) with (- / IZR n) by (field; lra). rewrite Rabs_Ropp, Rabs_pos_eq by (left; apply Rinv_0_lt_compat; lra).
    rewrite Rinv_l by lra. lra.
  - intros t Ht. set (k := Zfloor (t * IZR n)). pose proof (Zfloor_lb (t * IZR n)) as K1. pose proof (Zfloor_ub (t * IZR n)) as K2. fold k in K1, K2.
    assert (K0 : (0 <= k)%Z) by (apply Zfloor_lub; nra).
    assert (Kn : (k <= n)%Z). { apply le_IZR. nra. }
    exists (f (Z.to_nat k)). split; [apply List.in_map, in_seq; lia|]. apply Near. rewrite INR_IZR_INZ, Z2Nat.id by lia.
    replace (Rabs (IZR k / IZR n - t) * IZR n) with (Rabs (IZR k - t * IZR n)).
    + rewrite Rabs_left1 by lra. lra.
    + rewrite <- (Rabs_pos_eq (IZR n)) at 3 by lra. rewrite <- Rabs_mult. f_equal. field. lra.
Qed.

(** * Circles *)
Lemma circle_loop_R center radius step : 0 < step -> forall n fuel angle g, (n < fuel)%nat ->
  (n <> O -> angle + INR (n - 1) * step < PI * 2) -> PI * 2 <= angle + INR n * step ->
  circle_loop fuel center radius step angle g =
  Some (fold_left occupy_point (map (fun k => on_circle center radius (angle + INR k * step)) (seq 0 n)) g).
Proof.
  intros Hs. induction n as [|n IH]; intros fuel angle g Hf Hlo Hhi; (destruct fuel as [|fuel]; [lia|]); cbn [circle_loop]; rnum.
  - cbn [INR] in Hhi. rewrite (proj2 (Rltb_false _ _)) by lra. reflexivity.
  - specialize (Hlo ltac:(discriminate)). replace (S n - 1)%nat with n in Hlo by lia. pose proof (pos_INR n).
    rewrite (proj2 (Rltb_true _ _)) by nra. rewrite IH.
    + cbn [seq map fold_left]. do 2 f_equal; [|unfold on_circle; cbn [INR]; rewrite Rmult_0_l, Rplus_0_r; reflexivity].
      rewrite <- seq_shift, map_map. apply map_ext. intros k. rewrite S_INR. f_equal. ring.
    + lia.
    + intros Hn. replace (angle + step + INR (n - 1) * step) with (angle + INR n * step); [assumption|].
      rewrite minus_INR by lia. cbn [INR]. ring.
    + rewrite S_INR in Hhi. lra.
Qed.

Definition circle_step (res radius : R) : R := Rmax (4 / 10 * res / radius) (1 / 1000).

Lemma circle_step_pos res radius : 1 / 1000 <= circle_step res radius.
Proof. apply Rmax_r. Qed.

Lemma occupy_circle_R (g : Grid R) center radius : exists n, (1 <= n)%nat /\ (Z.of_nat n <= 8000)%Z /\
  INR (n - 1) * circle_step (gr_resolution g) radius < PI * 2 <= INR n * circle_step (gr_resolution g) radius /\
  forall fuel, (8000 < Z.of_nat fuel)%Z -> occupy_circle fuel g center radius =
    Some (fold_left occupy_point (map (fun k => on_circle center radius (INR k * circle_step (gr_resolution g) radius)) (seq 0 n)) g).
Proof.
  set (step := circle_step (gr_resolution g) radius). pose proof (circle_step_pos (gr_resolution g) radius) as Hs. fold step in Hs.
  pose proof PI_4. pose proof PI_RGT_0. set (q := PI * 2 / step).
  assert (Eq : q * step = PI * 2) by (unfold q; field; lra).
  assert (Q : 0 < q <= 8000) by (split; nra).
  pose proof (Zceil_ub q). assert (Zc : IZR (Zceil q) < q + 1).
  { pose proof (Zceil_lb q) as L. lra. }
  assert (1 <= Zceil q)%Z. { assert (0 < Zceil q)%Z; [|lia]. apply lt_IZR. lra. }
  assert (Zceil q <= 8000)%Z. { apply Zceil_glb. lra. }
  exists (Z.to_nat (Zceil q)). split; [lia|]. split; [lia|].
  assert (En : INR (Z.to_nat (Zceil q)) = IZR (Zceil q)) by (rewrite INR_IZR_INZ, Z2Nat.id by lia; reflexivity).
  assert (B : INR (Z.to_nat (Zceil q) - 1) * step < PI * 2 <= INR (Z.to_nat (Zceil q)) * step).
  { rewrite minus_INR by lia. rewrite En. cbn [INR]. split; nra. }
  split; [exact B|]. intros fuel Hf. unfold occupy_circle. cbn [max mul div of_ratio Rnum zero]. fold (circle_step (gr_resolution g) radius). fold step.
  rewrite (circle_loop_R center radius step ltac:(lra) (Z.to_nat (Zceil q)) fuel 0 g); [|lia|intros; lra|lra].
  do 2 f_equal. apply map_ext. intros k. f_equal. ring.
Qed.

Lemma sin_cos_near a b : Rabs (Rtrigo_def.cos a - Rtrigo_def.cos b) <= Rabs (a - b) /\ Rabs (Rtrigo_def.sin a - Rtrigo_def.sin b) <= Rabs (a - b).
Proof.
  split.
  - destruct (MVT_abs Rtrigo_def.cos (fun x => - Rtrigo_def.sin x) b a) as (c & E & _).
    { intros c _. apply derivable_pt_lim_cos. }
    rewrite E. rewrite Rabs_Ropp. pose proof (SIN_bound c). pose proof (Rabs_pos (a - b)).
    assert (Rabs (Rtrigo_def.sin c) <= 1) by (apply Rabs_le; lra). nra.
  - destruct (MVT_abs Rtrigo_def.sin Rtrigo_def.cos b a) as (c & E & _).
    { intros c _. apply derivable_pt_lim_sin. }
    rewrite E. pose proof (COS_bound c). pose proof (Rabs_pos (a - b)).
    assert (Rabs (Rtrigo_def.cos c) <= 1) by (apply Rabs_le; lra). nra.
Qed.

Lemma circle_near ox oy res center radius a b : 0 < res -> Rabs radius * Rabs (a - b) <= res ->
  neighbours ox oy res (on_circle center radius a) (on_circle center radius b).
Proof.
  intros H Hab. destruct (sin_cos_near a b) as [C S0]. pose proof (Rabs_pos radius).
  apply near_neighbours; [assumption| |]; unfold on_circle; cbn [fst snd].
  - replace (fst center + radius * Rtrigo_def.cos a - (fst center + radius * Rtrigo_def.cos b)) with (radius * (Rtrigo_def.cos a - Rtrigo_def.cos b)) by ring.
    rewrite Rabs_mult. nra.
  - replace (snd center + radius * Rtrigo_def.sin a - (snd center + radius * Rtrigo_def.sin b)) with (radius * (Rtrigo_def.sin a - Rtrigo_def.sin b)) by ring.
    rewrite Rabs_mult. nra.
Qed.

(** The angular step moves at most one cell along the rim. *)
Lemma circle_step_short res radius : 0 < res -> Rabs radius <= 1000 * res -> Rabs radius * circle_step res radius <= res.
Proof.
  intros H Hr. unfold circle_step. pose proof (Rabs_pos radius).
  unfold Rmax. destruct (Rle_dec _ _); [lra|].
  destruct (Req_dec radius 0) as [->|Nz]; [rewrite Rabs_R0; lra|].
  destruct (Rlt_or_le radius 0) as [Neg|Pos].
  - exfalso. apply n. pose proof (Rinv_lt_0_compat radius Neg).
    unfold Rdiv. nra.
  - rewrite Rabs_pos_eq by assumption. replace (radius * (4 / 10 * res / radius)) with (4 / 10 * res) by (field; assumption). lra.
Qed.

Lemma circle_closes ox oy res center radius n : 0 < res -> Rabs radius <= 1000 * res -> (1 <= n)%nat ->
  INR (n - 1) * circle_step res radius < PI * 2 <= INR n * circle_step res radius ->
  closes ox oy res center radius (map (fun k => INR k * circle_step res radius) (seq 0 n)).
Proof.
  intros Hres Hr Hn. set (step := circle_step res radius). intros [Hlo Hhi].
  assert (Hs : 1 / 1000 <= step) by apply circle_step_pos.
  assert (Short : Rabs radius * step <= res) by (apply circle_step_short; assumption).
  pose proof (Rabs_pos radius).
  assert (Near : forall a b, Rabs (a - b) <= step -> neighbours ox oy res (on_circle center radius a) (on_circle center radius b)).
  { intros a b Hab. apply circle_near; [assumption|]. nra. }
  split; [|split; [|split; [|split]]].
  - destruct n as [|n]; [lia|]. cbn. f_equal. ring.
  - intros a Ha. apply in_map_iff in Ha. destruct Ha as (k & <- & Hk). apply in_seq in Hk. pose proof (pos_INR k).
    assert (INR k <= INR (n - 1)) by (apply le_INR; lia). split; nra.
  - intros k x y Hx Hy. rewrite map_map, nth_error_map in Hx, Hy.
    destruct (nth_error (seq 0 n) k) as [a|] eqn:Ea; [|discriminate]. destruct (nth_error (seq 0 n) (S k)) as [b|] eqn:Eb; [|discriminate].
    injection Hx as <-. injection Hy as <-.
    assert (Lb : (S k < n)%nat). { rewrite <- (seq_length n 0). apply nth_error_Some. congruence. }
    apply nth_error_nth with (d := 0%nat) in Ea, Eb. rewrite seq_nth in Ea by lia. rewrite seq_nth in Eb by lia. cbn [Nat.add] in Ea, Eb. subst a b.
    apply Near. rewrite S_INR. replace (INR k * step - (INR k + 1) * step) with (- step) by ring. rewrite Rabs_Ropp, Rabs_pos_eq by lra. lra.
  - rewrite last_nth, map_length, seq_length. rewrite (nth_indep _ 0 ((fun k => INR k * step) 0%nat)) by (rewrite map_length, seq_length; lia).
    rewrite (map_nth (fun k => INR k * step)), seq_nth by lia. cbn [Nat.add].
    replace (on_circle center radius 0) with (on_circle center radius (PI * 2)).
    + apply Near. assert (INR n = INR (n - 1) + 1) by (rewrite minus_INR by lia; cbn; ring). apply Rabs_le. nra.
    + unfold on_circle. replace (PI * 2) with (0 + 2 * INR 1 * PI) by (cbn; ring). rewrite cos_period, sin_period. reflexivity.
  - intros a Ha. set (j := Zfloor (a / step)). pose proof (Zfloor_lb (a / step)) as J1. pose proof (Zfloor_ub (a / step)) as J2. fold j in J1, J2.
    assert (Ea : a / step * step = a) by (field; lra).
    assert (J0 : (0 <= j)%Z) by (apply Zfloor_lub; apply Rmult_le_reg_r with step; lra).
    destruct (Z_lt_le_dec j (Z.of_nat n)) as [Lt|Ge].
    + exists (INR (Z.to_nat j) * step). split; [apply (List.in_map (fun k => INR k * step)), in_seq; lia|]. apply Near.
      rewrite INR_IZR_INZ, Z2Nat.id by lia. apply Rabs_le. nra.
    + exists (INR (n - 1) * step). split; [apply (List.in_map (fun k => INR k * step)), in_seq; lia|]. apply Near.
      assert (INR n = INR (n - 1) + 1) by (rewrite minus_INR by lia; cbn; ring).
      apply IZR_le in Ge. rewrite <- INR_IZR_INZ in Ge. apply Rabs_le. nra.
Qed.

(** * Scans *)
Lemma round_nonneg x : 0 <= x -> Rround_away x = IZR (Zfloor (x + /2)).
Proof. intros H. unfold Rround_away. destruct (Rlt_dec x 0); [lra|reflexivity]. Qed.

Lemma nearest_R n (s : Scan R) angle : (2 <= n)%nat -> (Z.of_nat n <= two64m1)%Z -> 0 < sc_field_of_view s ->
  nearest_beam_index n s angle =
  if Rltb angle (- (sc_field_of_view s / 2)) || Rltb (sc_field_of_view s / 2) angle then None
  else Some (Z.to_nat (Z.min (Zfloor ((angle + sc_field_of_view s / 2) / (sc_field_of_view s / INR (n - 1)) + /2)) (Z.of_nat (n - 1)))).
Proof.
  intros Hn Hm Hf. unfold nearest_beam_index, angle_increment, of_nat. rnum. rewrite <- INR_IZR_INZ.
  change (sc_field_of_view s * / 2) with (sc_field_of_view s / 2).
  destruct (Rltb angle (- (sc_field_of_view s / 2))) eqn:E1; [reflexivity|]. destruct (Rltb (sc_field_of_view s / 2) angle) eqn:E2; [reflexivity|]. cbn [negb orb].
  apply Rltb_false in E1, E2. assert (N : 1 <= INR (n - 1)) by (rewrite minus_INR by lia; assert (2 <= INR n) by (apply (le_INR 2); assumption); cbn; lra).
  assert (P : 0 <= (angle + sc_field_of_view s / 2) / (sc_field_of_view s / INR (n - 1))).
  { apply Rmult_le_pos; [lra|]. left. apply Rinv_0_lt_compat. apply Rdiv_lt_0_compat; lra. }
  set (x := (angle + _) / _) in *. rewrite round_nonneg by assumption.
  assert (Z0 : (0 <= Zfloor (x + / 2))%Z) by (apply Zfloor_lub; lra).
  rewrite (proj2 (Rltb_false _ _)) by (apply IZR_le; assumption).
  pose proof (to_usize_big _ Z0) as U. cbn [to_usize Rnum] in U. rewrite U. do 2 f_equal. lia.
Qed.

Lemma nearest_best n arc a i j : (2 <= n)%nat -> 0 < arc -> - (arc / 2) <= a <= arc / 2 -> (j < n)%nat ->
  i = Z.to_nat (Z.min (Zfloor ((a + arc / 2) / (arc / INR (n - 1)) + /2)) (Z.of_nat (n - 1))) ->
  (i < n)%nat /\ Rabs (a - even_beam arc n i) <= Rabs (a - even_beam arc n j).
Proof.
  intros Hn Ha Hb Hj Ei. assert (N : 1 <= INR (n - 1)) by (rewrite minus_INR by lia; assert (2 <= INR n) by (apply (le_INR 2); assumption); cbn; lra).
  set (inc := arc / INR (n - 1)) in *. assert (Hi : 0 < inc) by (apply Rdiv_lt_0_compat; lra).
  set (x := (a + arc / 2) / inc) in *. assert (Ex : x * inc = a + arc / 2) by (unfold x; field; lra).
  assert (En : INR (n - 1) * inc = arc) by (unfold inc; field; lra).
  assert (X : 0 <= x <= INR (n - 1)) by (split; nra).
  set (k := Zfloor (x + / 2)) in *. pose proof (Zfloor_lb (x + / 2)) as K1. pose proof (Zfloor_ub (x + / 2)) as K2. fold k in K1, K2.
  assert (K0 : (0 <= k)%Z) by (apply Zfloor_lub; lra).
  assert (Kn : (k <= Z.of_nat (n - 1))%Z). { assert (k < Z.of_nat (n - 1) + 1)%Z; [|lia]. apply lt_IZR. rewrite plus_IZR, <- INR_IZR_INZ. lra. }
  rewrite Z.min_l in Ei by assumption. split; [lia|].
  assert (Ik : INR i = IZR k) by (subst i; rewrite INR_IZR_INZ, Z2Nat.id by lia; reflexivity).
  unfold even_beam. fold inc.
  replace (a - (- (arc / 2) + INR i * inc)) with ((x - INR i) * inc) by (rewrite Rmult_minus_distr_r, Ex; ring).
  replace (a - (- (arc / 2) + INR j * inc)) with ((x - INR j) * inc) by (rewrite Rmult_minus_distr_r, Ex; ring).
  rewrite !Rabs_mult. apply Rmult_le_compat_r; [apply Rabs_pos|]. rewrite Ik.
  destruct (Nat.eq_dec j i) as [->|Ne]; [rewrite Ik; lra|].
  assert (D : INR j <= IZR k - 1 \/ IZR k + 1 <= INR j).
  { rewrite <- Ik. destruct (Nat.lt_ge_cases j i); [left|right].
    - assert (INR (S j) <= INR i) by (apply le_INR; lia). rewrite S_INR in *. lra.
    - assert (INR (S i) <= INR j) by (apply le_INR; lia). rewrite S_INR in *. lra. }
  apply Rle_trans with (/2); [apply Rabs_le; lra|]. destruct D; [rewrite Rabs_pos_eq by lra|rewrite Rabs_left1 by lra]; lra.
Qed.
