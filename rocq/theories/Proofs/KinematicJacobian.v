(** The columns of the Jacobian are the velocities the joints give the tool. *)
From Coq Require Import ZArith List Bool Arith Reals Lra Lia.
From Coquelicot Require Import Coquelicot.
From Verif Require Import Base.Scalar Base.RNum Base.Lists Base.Series Model.Errors Model.Vector Model.Matrix Model.Lu Model.Quaternion Model.Lie Model.Drive Model.KinematicTree
  Spec.Matrix Spec.Rotation Spec.Quaternion Spec.Space Spec.KinematicTree Proofs.Matrix Proofs.Quaternion Proofs.Space Proofs.FrameMotion Proofs.KinematicTree Proofs.KinematicMotion.
Import ListNotations.
Local Open Scope R_scope.

Lemma pair_eq (a a' b b' : point) : a = a' -> b = b' -> (a, b) = (a', b').
Proof. intros -> ->. reflexivity. Qed.
(** The columns weighted with their rates *)
Fixpoint drive (cols : list (point * point)) (from : nat) (rates : list R) : point * point :=
  match cols with
  | [] => ((0, 0, 0), (0, 0, 0))
  | (l, a) :: rest => let r := nth from rates 0 in let d := drive rest (S from) rates in (together (multiple r l) (fst d), together (multiple r a) (snd d))
  end.
Lemma basis3_R : basis3 0 = (1, 0, 0) :> point /\ basis3 1 = (0, 1, 0) :> point /\ basis3 2 = (0, 0, 1) :> point.
Proof. repeat split. Qed.
Lemma columns_R j pose y : joint_columns j pose y =
  match jt_kind j with
  | Revolute | Continuous => let a := transform_point (se3_rotation pose) (jt_axis j) in [(outer a (together y (multiple (-1) (se3_act pose (jt_anchor j)))), a)]
  | Prismatic => [(transform_point (se3_rotation pose) (jt_axis j), (0, 0, 0))]
  | Fixed => []
  | Floating =>
      let e k : point := nth k [(1, 0, 0); (0, 1, 0); (0, 0, 1)] (0, 0, 0) in
      [(e 0%nat, (0, 0, 0)); (e 1%nat, (0, 0, 0)); (e 2%nat, (0, 0, 0))] ++
      map (fun k => let a := transform_point (se3_rotation pose) (e k) in (outer a (together y (multiple (-1) (se3_translation pose))), a)) [0%nat; 1%nat; 2%nat]
  end.
Proof.
  unfold joint_columns. destruct (jt_kind j); cbn [seq map app nth]; rewrite ?cross3_R, ?sub3_R; reflexivity.
Qed.
Lemma drive_shift j pose y y' from rates : let d := drive (joint_columns j pose y) from rates in
  drive (joint_columns j pose y') from rates = (together (fst d) (outer (snd d) (together y' (multiple (-1) y))), snd d).
Proof.
  cbv zeta. rewrite !columns_R. destruct (jt_kind j); cbn [map app nth drive fst snd].
  1-3: destruct (transform_point (se3_rotation pose) (jt_axis j)) as [[a b] c], (se3_act pose (jt_anchor j)) as [[o1 o2] o3]; apply pair_eq; flat.
  - apply pair_eq; flat.
  - destruct (transform_point (se3_rotation pose) (1, 0, 0)) as [[a1 a2] a3], (transform_point (se3_rotation pose) (0, 1, 0)) as [[b1 b2] b3], (transform_point (se3_rotation pose) (0, 0, 1)) as [[c1 c2] c3], (se3_translation pose) as [[o1 o2] o3]. apply pair_eq; flat.
Qed.
Lemma unit_outer q u v : unit_quaternion q -> outer (transform_point q u) (transform_point q v) = transform_point q (outer u v).
Proof. intros U. rewrite transform_outer, (proj1 (unit_is q) U), multiple_one. reflexivity. Qed.

(** ** One joint *)
Definition local_velocity (configuration : list R) (off : nat) (rates : list R) (from : nat) (j : joint R) : point * point :=
  let l := local_motion configuration off j in
  match jt_kind j with
  | Revolute | Continuous => let w := multiple (nth from rates 0) (jt_axis j) in (multiple (-1) (outer w (transform_point (se3_rotation l) (jt_anchor j))), w)
  | Prismatic => (multiple (nth from rates 0) (jt_axis j), (0, 0, 0))
  | Fixed => ((0, 0, 0), (0, 0, 0))
  | Floating => ((nth (from + 0) rates 0, nth (from + 1) rates 0, nth (from + 2) rates 0), transform_point (se3_rotation l) (nth (from + 3) rates 0, nth (from + 4) rates 0, nth (from + 5) rates 0))
  end.
Lemma local_moving (q : R -> list R) t rates off from j : (needs_axis j -> inner (jt_axis j) (jt_axis j) = 1) -> has_orientation (q t) off j -> steady_turn (q t) off j ->
  reads_at_rates q t rates off from j -> let d := local_velocity (q t) off rates from j in moving (fun s => local_motion (q s) off j) t (fst d) (snd d).
Proof.
  intros U O H D. pose proof (orientation_pos (q t) off j O) as OP. unfold needs_axis, steady_turn, reads_at_rates, local_velocity, local_motion in *.
  assert (DD : is_derive (fun s => nth off (q s) 0) t (nth from rates 0) -> is_derive (fun s => nth off (q s) 0 - jt_zero_offset j) t (nth from rates 0)).
  { intros E. eapply dto; [apply (dminus (fun s => nth off (q s) 0) (fun _ => jt_zero_offset j)); [exact E|apply dconst]|ring]. }
  assert (DS : nth off (q t) 0 = jt_zero_offset j \/ 30 / IZR (2^52) < Rabs (nth off (q t) 0 - jt_zero_offset j) -> nth off (q t) 0 - jt_zero_offset j = 0 \/ 30 / IZR (2^52) < Rabs (nth off (q t) 0 - jt_zero_offset j)) by (intros [E|E]; [left; lra|right; exact E]).
  destruct (jt_kind j) eqn:K; cbn [fst snd].
  - apply (turn_moving (jt_axis j) (jt_anchor j) (fun s => nth off (q s) 0 - jt_zero_offset j)); auto.
  - apply (slide_moving (jt_axis j) (fun s => nth off (q s) 0 - jt_zero_offset j)); auto.
  - apply (turn_moving (jt_axis j) (jt_anchor j) (fun s => nth off (q s) 0 - jt_zero_offset j)); auto.
  - apply moving_const. apply unit_identity.
  - cbn [float_motion se3_rotation]. apply (float_moving (fun s => (nth (off + 0) (q s) 0, nth (off + 1) (q s) 0, nth (off + 2) (q s) 0)) (fun s => floating_quaternion (q s) off)); [| |apply OP; reflexivity].
    + destruct D as [D _]. unfold point_changes. cbn [fst snd]. split; [apply D; lia|split; apply D; lia].
    + destruct D as [_ D]. fold (floating_quaternion (q t) off) in D. change (from_scalar_vector 0 (nth (from + 3) rates 0, nth (from + 4) rates 0, nth (from + 5) rates 0)) with (Quat 0 (nth (from + 3) rates 0) (nth (from + 4) rates 0) (nth (from + 5) rates 0)).
      set (d := quat_scale _ _) in *. unfold quat_changes, floating_quaternion. cbn [qw qx qy qz].
      assert (G : forall k c, (k < 4)%nat -> component d k = c -> is_derive (fun s => nth (off + (3 + k)) (q s) 0) t c).
      { intros k c Hk <-. replace (off + (3 + k))%nat with (off + 3 + k)%nat by lia. apply (D k Hk). }
      split; [|split; [|split]]; [exact (G 0%nat _ ltac:(lia) eq_refl)|exact (G 1%nat _ ltac:(lia) eq_refl)|exact (G 2%nat _ ltac:(lia) eq_refl)|exact (G 3%nat _ ltac:(lia) eq_refl)].
Qed.
(** The columns are the local velocity seen from the frame the joint sits in. *)
Lemma columns_local g l j (configuration : list R) off rates from : unit_se3 g -> l = local_motion configuration off j -> (needs_axis j -> inner (jt_axis j) (jt_axis j) = 1) -> has_orientation configuration off j -> plain_turn configuration off j ->
  (jt_kind j = Floating -> forall p, transform_point (se3_rotation g) p = p) ->
  let pose := se3_compose g l in let d := local_velocity configuration off rates from j in
  drive (joint_columns j pose (se3_translation pose)) from rates = (transform_point (se3_rotation g) (fst d), transform_point (se3_rotation g) (snd d)).
Proof.
  intros UG -> U O H FL. cbv zeta. rewrite columns_R. pose proof (local_moves configuration off j (jt_anchor j) U O H) as [UL AC].
  assert (AX : jt_kind j = Revolute \/ jt_kind j = Continuous -> transform_point (se3_rotation (local_motion configuration off j)) (jt_axis j) = jt_axis j).
  { intros K. assert (E : local_motion configuration off j = turn_motion (jt_axis j) (jt_anchor j) (nth off configuration 0 - jt_zero_offset j)) by (unfold local_motion; destruct K as [-> | ->]; reflexivity). rewrite E.
    assert (V : inner (jt_axis j) (jt_axis j) = 1) by (apply U; unfold needs_axis; tauto). unfold turn_motion, so3_exp. cbn [se3_rotation]. rewrite turn_plain; [|exact V|].
    - apply turn_axis; [exact V|]. pose proof (sin2_cos2 ((nth off configuration 0 - jt_zero_offset j) / 2)) as Q. unfold Rsqr in Q. lra.
    - unfold plain_turn in H. destruct K as [K|K]; rewrite K in H; (destruct H as [E'|E']; [left; lra|right; exact E']). }
  set (l := local_motion configuration off j) in *.
  assert (RC : forall p, transform_point (se3_rotation (se3_compose g l)) p = transform_point (se3_rotation g) (transform_point (se3_rotation l) p)) by (intros p; cbn [se3_compose se3_rotation]; apply transform_mul).
  assert (TC : se3_translation (se3_compose g l) = together (transform_point (se3_rotation g) (se3_translation l)) (se3_translation g)) by (cbn [se3_compose se3_translation]; apply add3_R).
  assert (ARM : jt_kind j = Revolute \/ jt_kind j = Continuous -> together (se3_translation (se3_compose g l)) (multiple (-1) (se3_act (se3_compose g l) (jt_anchor j))) = multiple (-1) (transform_point (se3_rotation g) (transform_point (se3_rotation l) (jt_anchor j)))).
  { intros K. rewrite se3_act_compose. unfold se3_act, so3_act. rewrite !add3_R, TC. rewrite transform_together. set (a := transform_point (se3_rotation g) (transform_point (se3_rotation l) (jt_anchor j))). set (b := transform_point (se3_rotation g) (se3_translation l)). clearbody a b. generalize (se3_translation g). intros c. flat. }
  unfold local_velocity. fold l. cbv zeta. destruct (jt_kind j) eqn:K; cbn [drive map app nth fst snd].
  - rewrite ARM by auto. rewrite !RC, AX by auto. rewrite <- (transform_multiple' _ (nth from rates 0) (jt_axis j)), (transform_multiple' (se3_rotation g) (-1)), <- (unit_outer _ _ _ UG), transform_multiple'.
    generalize (transform_point (se3_rotation g) (jt_axis j)) (transform_point (se3_rotation g) (transform_point (se3_rotation l) (jt_anchor j))). intros u v. apply pair_eq; flat.
  - rewrite RC. replace (transform_point (se3_rotation l) (jt_axis j)) with (jt_axis j); [|unfold l, local_motion; rewrite K; cbn [slide_motion se3_rotation]; symmetry; apply transform_identity].
    rewrite transform_multiple', transform_zero. generalize (transform_point (se3_rotation g) (jt_axis j)). intros u. apply pair_eq; flat.
  - rewrite ARM by auto. rewrite !RC, AX by auto. rewrite <- (transform_multiple' _ (nth from rates 0) (jt_axis j)), (transform_multiple' (se3_rotation g) (-1)), <- (unit_outer _ _ _ UG), transform_multiple'.
    generalize (transform_point (se3_rotation g) (jt_axis j)) (transform_point (se3_rotation g) (transform_point (se3_rotation l) (jt_anchor j))). intros u v. apply pair_eq; flat.
  - rewrite !transform_zero. reflexivity.
  - specialize (FL eq_refl). rewrite !RC, !FL. replace (from + 0)%nat with from by lia. replace (from + 1)%nat with (S from) by lia. replace (from + 2)%nat with (S (S from)) by lia. replace (from + 3)%nat with (S (S (S from))) by lia.
    replace (from + 4)%nat with (S (S (S (S from)))) by lia. replace (from + 5)%nat with (S (S (S (S (S from))))) by lia.
    rewrite together_neg. set (q := se3_rotation l). set (r0 := nth from rates 0). set (r1 := nth (S from) rates 0). set (r2 := nth (S (S from)) rates 0). set (r3 := nth _ rates 0). set (r4 := nth _ rates 0). set (r5 := nth _ rates 0).
    replace (r3, r4, r5) with (together (multiple r3 (1, 0, 0)) (together (multiple r4 (0, 1, 0)) (multiple r5 (0, 0, 1)))) by (unfold together, multiple; apply point_eq; ring).
    rewrite !transform_together, !transform_multiple'. generalize (transform_point q (1, 0, 0)) (transform_point q (0, 1, 0)) (transform_point q (0, 0, 1)). intros a b c. apply pair_eq; flat.
Qed.
(** A frame hung on a moving one *)
Lemma pose_moving (P : R -> se3 R) (o : se3 R) (q : R -> list R) t vP wP off from rates j :
  moving P t vP wP -> unit_se3 o -> (needs_axis j -> inner (jt_axis j) (jt_axis j) = 1) -> has_orientation (q t) off j -> steady_turn (q t) off j -> reads_at_rates q t rates off from j ->
  (jt_kind j = Floating -> forall p, transform_point (se3_rotation (se3_compose (P t) o)) p = p) ->
  let F := fun s => se3_compose (se3_compose (P s) o) (local_motion (q s) off j) in
  let d := drive (joint_columns j (F t) (se3_translation (F t))) from rates in
  moving F t (together (together vP (outer wP (together (se3_translation (F t)) (multiple (-1) (se3_translation (P t)))))) (fst d)) (together wP (snd d)).
Proof.
  intros MP UO U O H D FL. cbv zeta.
  assert (PT : plain_turn (q t) off j) by (unfold steady_turn, plain_turn in *; destruct (jt_kind j); auto; (destruct H; [left; assumption|right; lra])).
  pose proof (moving_compose _ _ _ _ _ _ _ MP (moving_const o t UO)) as MG. pose proof (local_moving q t rates off from j U O H D) as ML. cbv zeta in ML.
  pose proof (moving_compose _ _ _ _ _ _ _ MG ML) as MF. cbv beta in MF. rewrite !transform_zero, !together_zero in MF.
  pose proof (columns_local (se3_compose (P t) o) (local_motion (q t) off j) j (q t) off rates from (proj1 MG) eq_refl U O PT FL) as CL. cbv zeta in CL. cbv beta. rewrite CL. cbn [fst snd].
  match goal with MF : moving ?f t ?v ?w |- moving ?f' t ?v' ?w' => replace v' with v; [exact MF|] end.
  cbn [se3_compose se3_translation se3_rotation]. unfold so3_act, so3_compose. rewrite !add3_R.
  generalize (transform_point (se3_rotation (P t)) (se3_translation o)) (transform_point (quat_mul (se3_rotation (P t)) (se3_rotation o)) (se3_translation (local_motion (q t) off j)))
    (transform_point (quat_mul (se3_rotation (P t)) (se3_rotation o)) (fst (local_velocity (q t) off rates from j))) (se3_translation (P t)). intros a b c e. flat.
Qed.

(** ** Writing the columns *)
(** The sum of a row of [e] against the rates *)
Definition row_sum (mc : nat) (e : mat R) (rates : list R) (row : nat) : R := bsum mc (fun c => mget e row c * nth c rates 0).
Definition empty_from (c0 : nat) (e : mat R) : Prop := forall row c, (row < 6)%nat -> (c0 <= c)%nat -> mget e row c = 0.
Lemma list6_six (v : point * point) row : (row < 6)%nat -> nth row (list6 v) 0 = six v row.
Proof. intros H. destruct v as [[[a b] c] [[d e] f]]. do 6 (destruct row as [|row]; [reflexivity|]). lia. Qed.
Lemma length_list6 (v : point * point) : List.length (list6 v) = 6%nat.
Proof. destruct v as [[[a b] c] [[d e] f]]. reflexivity. Qed.
Lemma write_column_spec mc e c v rates : shape 6 mc e -> empty_from c e -> (c < mc)%nat ->
  exists e', write_column c e v = Ok e' /\ shape 6 mc e' /\ empty_from (S c) e' /\ forall row, (row < 6)%nat -> row_sum mc e' rates row = row_sum mc e rates row + six v row * nth c rates 0.
Proof.
  intros [L K] Z C. unfold write_column. rewrite (K 0%nat) by lia. rewrite (proj2 (Nat.ltb_lt _ _) C). eexists. split; [reflexivity|].
  assert (E : forall row k, (row < 6)%nat -> mget (map2 (fun r value => set_nth r c value) e (list6 v)) row k = if Nat.eqb k c then six v row else mget e row k).
  { intros row k H. unfold mget. rewrite (nth_map2 _ [] 0) by (rewrite ?length_list6; lia). destruct (Nat.eqb_spec k c) as [->|N]; [rewrite nth_set_nth_eq by (rewrite K; auto); apply list6_six, H|rewrite nth_set_nth_neq by auto; reflexivity]. }
  split; [|split].
  - split; [rewrite map2_length; rewrite ?length_list6; auto|]. intros i Hi. rewrite (nth_map2 _ [] 0) by (rewrite ?length_list6; lia). rewrite set_nth_length. auto.
  - intros row k H KK. rewrite E by exact H. destruct (Nat.eqb_spec k c); [lia|]. apply Z; [exact H|lia].
  - intros row H. unfold row_sum. rewrite <- (bsum_delta mc c (six v row * nth c rates 0) C), <- bsum_plus. apply bsum_ext. intros k Hk. rewrite E by exact H. destruct (Nat.eqb_spec k c) as [->|N]; [rewrite (Z row c) by auto|]; ring.
Qed.
Lemma six_pair (u u' : point) i : (i < 6)%nat -> six (u, u') i = if Nat.ltb i 3 then coordinate u i else coordinate u' (i - 3)%nat.
Proof. reflexivity. Qed.
Lemma coordinate_multiple k u i : coordinate (multiple k u) i = k * coordinate u i.
Proof. destruct u as [[a b] c]. unfold coordinate, multiple. destruct i as [|[|[|[|i]]]]; cbn; ring. Qed.
Lemma write_columns_spec mc rates : forall vs e c, shape 6 mc e -> empty_from c e -> (c + List.length vs <= mc)%nat ->
  exists e', write_columns c vs e = Ok e' /\ shape 6 mc e' /\ empty_from (c + List.length vs) e' /\ forall row, (row < 6)%nat -> row_sum mc e' rates row = row_sum mc e rates row + six (drive vs c rates) row.
Proof.
  induction vs as [|v vs IH]; intros e c S Z C; cbn [write_columns List.length drive] in *.
  - exists e. rewrite Nat.add_0_r. split; [reflexivity|split; [exact S|split; [exact Z|]]]. intros row H. assert (X : six ((0, 0, 0), (0, 0, 0)) row = 0) by (do 6 (destruct row as [|row]; [reflexivity|]); lia). rewrite X. ring.
  - destruct (write_column_spec mc e c v rates S Z ltac:(lia)) as (e1 & -> & S1 & Z1 & E1). cbn [bind]. destruct (IH e1 (Datatypes.S c) S1 Z1 ltac:(lia)) as (e2 & -> & S2 & Z2 & E2). exists e2. split; [reflexivity|split; [exact S2|split; [replace (c + Datatypes.S (List.length vs))%nat with (Datatypes.S c + List.length vs)%nat by lia; exact Z2|]]].
    intros row H. rewrite E2, E1 by exact H. destruct v as [l a]. rewrite !six_pair by exact H. destruct (drive vs (Datatypes.S c) rates) as [dl da]. cbn [fst snd]. rewrite six_pair by exact H. destruct (Nat.ltb row 3); rewrite coordinate_together, coordinate_multiple; ring.
Qed.
Lemma columns_count (j : joint R) pose y : List.length (joint_columns j pose y) = match jt_kind j with Floating => 6%nat | Fixed => 0%nat | _ => 1%nat end.
Proof. unfold joint_columns. destruct (jt_kind j); reflexivity. Qed.
Definition both (g : point -> point) (v : point * point) : point * point := (g (fst v), g (snd v)).
(** What joint [i] adds to the velocity of a tool at [y], the columns first sent through [g] *)
Definition adds (t : tree R) (state : list (se3 R)) (rates : list R) (g : point -> point) (y : point) (i : nat) : point * point :=
  match nth_error (tr_joints t) i, velocity_offset t i with
  | Some j, Some from => drive (map (both g) (joint_columns j (nth i state se3_identity) y)) from rates
  | _, _ => ((0, 0, 0), (0, 0, 0))
  end.
Lemma fill_spec mj mc (t : tree R) state carries y frame into rates : built mj mc t -> List.length state = tree_len t -> List.length carries = mj ->
  forall n i e, (i + n = tree_len t)%nat -> shape 6 mc e -> (forall from, velocity_offset t i = Some from -> empty_from from e) ->
  exists e', fill_columns t state carries y frame into (seq i n) e = Ok e' /\ shape 6 mc e' /\
    forall row, (row < 6)%nat -> row_sum mc e' rates row = row_sum mc e rates row + bsum n (fun k => if nth (i + k) carries false then six (adds t state rates (in_frame frame into) y (i + k)) row else 0).
Proof.
  intros B LS LC. destruct (built_sound mj mc t B) as (_ & LM & CM & _). pose proof (velocity_len_le mj mc t B) as VM.
  induction n as [|n IH]; intros i e E S Z.
  - exists e. split; [reflexivity|split; [exact S|]]. intros row H. cbn [bsum]. ring.
  - cbn [seq fill_columns]. assert (I : (i < tree_len t)%nat) by lia. rewrite (nth_error_nth' carries false) by lia. cbn [ok_or bind].
    destruct (nth_error (tr_joints t) i) as [j|] eqn:J; [|apply nth_error_None in J; unfold tree_len in I; lia]. destruct (velocity_offset_some t i I) as (from & F). specialize (Z from F).
    assert (NX : forall from', velocity_offset t (Datatypes.S i) = Some from' -> from' = (from + rates_of j)%nat) by (intros from' F'; apply (velocity_next mj mc t i j from from' B J F F')).
    assert (ST : forall e', empty_from (from + rates_of j) e' -> forall from', velocity_offset t (Datatypes.S i) = Some from' -> empty_from from' e') by (intros e' H from' F'; rewrite (NX from' F'); exact H).
    assert (SHIFT : forall f : nat -> R, bsum (Datatypes.S n) (fun k => f (i + k)%nat) = f i + bsum n (fun k => f (Datatypes.S i + k)%nat)).
    { intros f. rewrite bsum_first, Nat.add_0_r. f_equal. apply bsum_ext. intros k _. f_equal. lia. }
    assert (SAME : empty_from (from + rates_of j) e) by (intros row c H C; apply Z; [exact H|lia]).
    destruct (nth i carries false) eqn:CA; cbn [negb].
    + unfold tree_joint. rewrite J. cbn [ok_or bind]. destruct (kind_eqb (jt_kind j) Fixed) eqn:KF.
      * apply kind_eqb_spec in KF. destruct (IH (Datatypes.S i) e ltac:(lia) S (ST e SAME)) as (e' & -> & S' & R'). exists e'. split; [reflexivity|split; [exact S'|]]. intros row H. rewrite R' by exact H.
        rewrite (SHIFT (fun m => if nth m carries false then six (adds t state rates (in_frame frame into) y m) row else 0)). rewrite CA. unfold adds at 2. rewrite J, F, columns_R, KF. cbn [map drive]. replace (six ((0, 0, 0), (0, 0, 0)) row) with 0 by (do 6 (destruct row as [|row]; [reflexivity|]); lia). ring.
      * rewrite (nth_error_nth' state se3_identity) by lia. cbn [ok_or bind]. rewrite F. cbn [ok_or bind]. fold (both (in_frame frame into)).
        change (fun v : vec3 R * vec3 R => (in_frame frame into (fst v), in_frame frame into (snd v))) with (both (in_frame frame into)).
        set (vs := map (both (in_frame frame into)) (joint_columns j (nth i state se3_identity) y)).
        assert (LV : List.length vs = rates_of j) by (unfold vs; rewrite map_length, columns_count; unfold rates_of; destruct (jt_kind j); try reflexivity; discriminate).
        pose proof (velocity_fits mj mc t i j from B J F) as FIT. assert (FF : (from + List.length vs <= mc)%nat) by (rewrite LV; lia). destruct (write_columns_spec mc rates vs e from S Z FF) as (e1 & W1 & S1 & Z1 & E1). match goal with |- context [write_columns from ?x e] => change (write_columns from x e) with (write_columns from vs e) end. rewrite W1. cbn [bind].
        assert (Z2 : empty_from (from + rates_of j) e1) by (rewrite <- LV; exact Z1). destruct (IH (Datatypes.S i) e1 ltac:(lia) S1 (ST e1 Z2)) as (e' & -> & S' & R'). exists e'. split; [reflexivity|split; [exact S'|]]. intros row H. rewrite R', E1 by exact H.
        rewrite (SHIFT (fun m => if nth m carries false then six (adds t state rates (in_frame frame into) y m) row else 0)). rewrite CA. unfold adds at 2. rewrite J, F. fold vs. ring.
    + destruct (IH (Datatypes.S i) e ltac:(lia) S (ST e SAME)) as (e' & -> & S' & R'). exists e'. split; [reflexivity|split; [exact S'|]]. intros row H. rewrite R' by exact H.
      rewrite (SHIFT (fun m => if nth m carries false then six (adds t state rates (in_frame frame into) y m) row else 0)). rewrite CA. ring.
Qed.
(** The sum over the marked joints is the sum along the chain. *)
Definition pair_sum (l : list (point * point)) : point * point := fold_right (fun d acc => (together (fst d) (fst acc), together (snd d) (snd acc))) ((0, 0, 0), (0, 0, 0)) l.
Lemma six_sum l row : (row < 6)%nat -> six (pair_sum l) row = fold_right (fun d acc => six d row + acc) 0 l.
Proof.
  intros H. induction l as [|d l IH]; cbn [pair_sum fold_right]; [do 6 (destruct row as [|row]; [reflexivity|]); lia|]. fold (pair_sum l). rewrite <- IH. destruct d as [u v], (pair_sum l) as [u' v']. cbn [fst snd]. rewrite !six_pair by exact H. destruct (Nat.ltb row 3); apply coordinate_together.
Qed.
Lemma chain_sum (t : tree R) n (f : nat -> R) : (forall i p, nth_error (tr_parents t) i = Some (OnJoint p) -> (p < i)%nat) -> forall fuel k, (k < n)%nat ->
  bsum n (fun i => if existsb (Nat.eqb i) (chain t fuel k) then f i else 0) = fold_right (fun i acc => f i + acc) 0 (chain t fuel k).
Proof.
  intros PA. induction fuel as [|fuel IH]; intros k K; cbn [chain fold_right]; [cbn; apply bsum_0|].
  set (rest := match nth_error (tr_parents t) k with Some (OnJoint p) => chain t fuel p | _ => [] end).
  assert (NI : existsb (Nat.eqb k) rest = false).
  { destruct (existsb (Nat.eqb k) rest) eqn:X; [|reflexivity]. apply existsb_exists in X. destruct X as (m & M & EQ). apply Nat.eqb_eq in EQ. subst m. unfold rest in M. destruct (nth_error (tr_parents t) k) as [[|p]|] eqn:P; try contradiction. apply PA in P. apply (chain_below t PA) in M. lia. }
  assert (R : bsum n (fun i => if existsb (Nat.eqb i) rest then f i else 0) = fold_right (fun i acc => f i + acc) 0 rest).
  { unfold rest. destruct (nth_error (tr_parents t) k) as [[|p]|] eqn:P; try (cbn; apply bsum_0). apply PA in P. apply IH. lia. }
  rewrite <- R, <- (bsum_delta n k (f k) K), <- bsum_plus. apply bsum_ext. intros i Hi. cbn [existsb]. destruct (Nat.eqb_spec i k) as [->|N]; cbn [orb]; [rewrite NI; ring|ring].
Qed.
Lemma of_six_six (v : point * point) : of_six (six v) = v.
Proof. destruct v as [[[a b] c] [[d e] f]]. reflexivity. Qed.
Lemma jacobian_spec mj mc (t : tree R) state k frame : built mj mc t -> List.length state = tree_len t -> (k < tree_len t)%nat ->
  exists J, geometric_jacobian mj mc state k frame t = Ok J /\ kj_columns J = velocity_len t /\ kj_frame J = frame /\
    forall rates, let tool := nth k state se3_identity in
      velocity_of (tool_twist mc J rates) = pair_sum (map (adds t state rates (in_frame frame (so3_inverse (se3_rotation tool))) (se3_translation tool)) (chain t mj k)).
Proof.
  intros B LS K. unfold geometric_jacobian. rewrite (proj2 (Nat.leb_gt _ _) K), LS, Nat.eqb_refl. cbn [negb]. rewrite (nth_error_nth' state se3_identity) by lia. cbn [ok_or bind].
  destruct (built_sound mj mc t B) as (_ & LM & CM & _ & PA). destruct (mark_chain_spec t PA mj mj k (repeat false mj) (repeat_length _ _) ltac:(lia)) as (carries & -> & LC & EC). cbn [bind].
  set (tool := nth k state se3_identity). set (into := so3_inverse (se3_rotation tool)).
  assert (Z0 : empty_from 0 (mat_zeros 6 mc)).
  { intros row c _ _. unfold mget, mat_zeros, mat_fn. destruct (Nat.lt_ge_cases row 6) as [Hr|Hr]; [|rewrite (nth_overflow (from_fn _ _)) by (rewrite from_fn_length; lia); destruct c; reflexivity].
    rewrite nth_from_fn by exact Hr. destruct (Nat.lt_ge_cases c mc) as [Hc|Hc]; [rewrite nth_from_fn by exact Hc; reflexivity|apply nth_overflow; rewrite from_fn_length; exact Hc]. }
  assert (FS : forall rates, exists e', fill_columns t state carries (se3_translation tool) frame into (seq 0 (tree_len t)) (mat_zeros 6 mc) = Ok e' /\ shape 6 mc e' /\
    forall row, (row < 6)%nat -> row_sum mc e' rates row = row_sum mc (mat_zeros 6 mc) rates row + bsum (tree_len t) (fun m => if nth (0 + m) carries false then six (adds t state rates (in_frame frame into) (se3_translation tool) (0 + m)) row else 0)).
  { intros rates. apply (fill_spec mj mc t state carries (se3_translation tool) frame into rates B LS LC (tree_len t) 0 (mat_zeros 6 mc) eq_refl (shape_zeros 6 mc)). intros from _ row c H _. apply Z0; [exact H|lia]. }
  destruct (FS []) as (e & E & SE & _). rewrite E. cbn [bind]. eexists. split; [reflexivity|]. cbn [kj_columns kj_frame]. split; [reflexivity|split; [reflexivity|]]. intros rates. cbv zeta.
  destruct (FS rates) as (e' & E' & _ & RS). rewrite E in E'. injection E' as <-. rewrite <- (of_six_six (pair_sum _)).
  unfold velocity_of, tool_twist, twist_from_vector. cbn [kj_entries linear angular fst snd]. rewrite !vget_mat_vec by lia. unfold of_six.
  assert (X : forall row, (row < 6)%nat -> times mc (mget e) (vget rates) row = six (pair_sum (map (adds t state rates (in_frame frame into) (se3_translation tool)) (chain t mj k))) row).
  { intros row H. change (times mc (mget e) (vget rates) row) with (row_sum mc e rates row). rewrite RS by exact H.
    replace (row_sum mc (mat_zeros 6 mc) rates row) with 0 by (unfold row_sum; symmetry; rewrite <- (bsum_0 mc); apply bsum_ext; intros c _; rewrite (Z0 row c) by (auto; lia); ring).
    rewrite six_sum by exact H. rewrite Rplus_0_l. transitivity (bsum (tree_len t) (fun m => if existsb (Nat.eqb m) (chain t mj k) then six (adds t state rates (in_frame frame into) (se3_translation tool) m) row else 0)).
    - apply bsum_ext. intros m Hm. cbn [Nat.add]. rewrite EC. assert (RF : nth m (repeat false mj) false = false) by (clear; revert m; induction mj as [|n IH]; intros [|m]; cbn; auto). rewrite RF. reflexivity.
    - rewrite (chain_sum t (tree_len t) _ PA mj k K). clear. induction (chain t mj k) as [|m l IH]; cbn; [reflexivity|rewrite IH; reflexivity]. }
  rewrite !X by lia. reflexivity.
Qed.
