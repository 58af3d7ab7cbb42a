(** C66, C67, C74: follow the gap. *)
From Coq Require Import ZArith List Bool Arith Reals Lra Lia.
From Flocq Require Import Core IEEE754.BinarySingleNaN.
From Verif Require Import Base.Scalar Base.RNum Base.XNum Base.FNum Base.FloatOps Model.Errors Model.Mapping Model.FollowGap Spec.Gap Proofs.FollowGap.
Import ListNotations.
Local Open Scope R_scope.

(** Every follower a caller can hold. *)
Inductive follower {T : Type} {NT : Num T} (n : nat) : Follower T -> Prop :=
| fw_new fov range chassis threshold cruise c :
    follower_try_new n fov range chassis threshold cruise = Ok c -> follower n c
| fw_gain c gain c' : follower n c -> with_steering_gain c gain = Ok c' -> follower n c'
| fw_bias c bias c' : follower n c -> with_goal_bias c bias = Ok c' -> follower n c'
| fw_scaling c stop clear c' : follower n c -> with_speed_scaling c stop clear = Ok c' -> follower n c'
| fw_frontal c angle c' : follower n c -> with_frontal_half_angle c angle = Ok c' -> follower n c'.

Lemma fin_of (x : XR) : negb (is_finite x) = false -> exists r, x = Fin r.
Proof. destruct x; cbn; try discriminate. eauto. Qed.
Ltac fins := repeat match goal with
  | H : (_ || _)%bool = false |- _ => apply orb_false_elim in H; destruct H
  | H : negb (is_finite ?x) = false |- _ => apply fin_of in H; destruct H as [? ->]
  end.
Ltac checked H := match type of H with (if ?b then _ else _) = _ => destruct b eqn:?; [discriminate H |] end.

Lemma follower_settings n c : follower n c -> exists k, settings_of n c k /\ valid k.
Proof.
  induction 1 as [fov range chassis threshold cruise c H | c g c' F IH H | c g c' F IH H | c a b c' F IH H | c a c' F IH H].
  - unfold follower_try_new in H. destruct (Nat.ltb_spec n 2); [discriminate |].
    destruct fov as [fov | | |]; try discriminate H. destruct range as [range | | |]; try discriminate H.
    destruct chassis as [chassis | | |]; try discriminate H. destruct threshold as [threshold | | |]; try discriminate H.
    destruct cruise as [cruise | | |]; try discriminate H. xnum. cbn [negb orb] in H. do 4 (checked H). fins.
    injection H as <-. rcases.
    exists {| beams := n; field_of_view := fov; maximum_range := range; chassis_width := chassis; free_range_threshold := threshold;
       cruise_speed := cruise; steering_gain := 3 / 2; goal_bias := 1 / 2; stopping_distance := chassis * / 2;
       clear_distance := range; frontal_half_angle := fov / (4 / 1) |}.
    split.
    + repeat split; try reflexivity. apply (xdiv_fin _ (4 / 1)). lra.
    + unfold valid. cbn. repeat split; try lra; try assumption.
  - destruct IH as (k & S & V). unfold with_steering_gain in H. do 2 (checked H). fins. injection H as <-. xnum. rcases.
    exists {| beams := beams k; field_of_view := field_of_view k; maximum_range := maximum_range k; chassis_width := chassis_width k;
       free_range_threshold := free_range_threshold k; cruise_speed := cruise_speed k; steering_gain := x; goal_bias := goal_bias k;
       stopping_distance := stopping_distance k; clear_distance := clear_distance k; frontal_half_angle := frontal_half_angle k |}.
    unfold settings_of, valid in *. cbn. intuition (auto; try lra).
  - destruct IH as (k & S & V). unfold with_goal_bias in H. do 2 (checked H). fins. injection H as <-. xnum. rcases.
    exists {| beams := beams k; field_of_view := field_of_view k; maximum_range := maximum_range k; chassis_width := chassis_width k;
       free_range_threshold := free_range_threshold k; cruise_speed := cruise_speed k; steering_gain := steering_gain k; goal_bias := x;
       stopping_distance := stopping_distance k; clear_distance := clear_distance k; frontal_half_angle := frontal_half_angle k |}.
    unfold settings_of, valid in *. cbn. intuition (auto; try lra).
  - destruct IH as (k & S & V). unfold with_speed_scaling in H. do 2 (checked H). fins. injection H as <-. xnum. rcases.
    exists {| beams := beams k; field_of_view := field_of_view k; maximum_range := maximum_range k; chassis_width := chassis_width k;
       free_range_threshold := free_range_threshold k; cruise_speed := cruise_speed k; steering_gain := steering_gain k; goal_bias := goal_bias k;
       stopping_distance := x0; clear_distance := x; frontal_half_angle := frontal_half_angle k |}.
    unfold settings_of, valid in *. cbn. intuition (auto; try lra).
  - destruct IH as (k & S & V). unfold with_frontal_half_angle in H. do 2 (checked H). fins. injection H as <-.
    assert (E : fg_field_of_view c = Fin (field_of_view k)) by apply S. rewrite E in *. xnum. rcases.
    exists {| beams := beams k; field_of_view := field_of_view k; maximum_range := maximum_range k; chassis_width := chassis_width k;
       free_range_threshold := free_range_threshold k; cruise_speed := cruise_speed k; steering_gain := steering_gain k; goal_bias := goal_bias k;
       stopping_distance := stopping_distance k; clear_distance := clear_distance k; frontal_half_angle := x |}.
    unfold settings_of, valid in *. cbn. intuition (auto; try lra).
Qed.
Lemma settings_unique n c k k' : settings_of n c k -> settings_of n c k' -> k = k'.
Proof.
  destruct k, k'. unfold settings_of. cbn. intuition. f_equal; congruence.
Qed.
Lemma follower_valid n c k : follower n c -> settings_of n c k -> valid k.
Proof. intros F S. destruct (follower_settings n c F) as (k' & S' & V). rewrite (settings_unique n c k k'); auto. Qed.

(** ** C66 *)

(** Unless blocked, the gap chosen is a stretch of open beams that cannot be extended and that the robot fits
    through, no other such gap scores more, ties go to the straighter aim and then to the right.  Blocked means
    that there is no such gap, and is a full stop.  Readings may be anything, NaN and infinities included. *)
Theorem C66_choice : forall n c k (scan : list XR) goal out,
  follower n c -> settings_of n c k -> follower_compute n c scan (Fin goal) = Ok out ->
  let s := fo_gap_start out in
  let e := fo_gap_end out in
  (fo_blocked out = false ->
     admissible k scan s e /\ fo_heading out = Fin (aim k scan goal s e) /\
     forall s' e', admissible k scan s' e' ->
       score k scan goal s' e' <= score k scan goal s e /\
       (score k scan goal s' e' = score k scan goal s e ->
          Rabs (aim k scan goal s e) <= Rabs (aim k scan goal s' e') /\
          (Rabs (aim k scan goal s e) = Rabs (aim k scan goal s' e') -> (s <= s')%nat))) /\
  (fo_blocked out = true ->
     (forall s' e', ~ admissible k scan s' e') /\
     fo_linear out = Fin 0 /\ fo_angular out = Fin 0 /\ fo_heading out = Fin 0).
Proof.
  intros n c k scan goal out F S H. pose proof (follower_valid _ _ _ F S) as V.
  pose proof (sweep_ok n c k scan goal S V (Datatypes.S n) (le_n _)) as [_ I].
  assert (EN : beams k = n) by apply S.
  unfold follower_compute in H. cbn [is_finite Xnum negb] in H. change (@neg_infinity XR Xnum) with NInf in H.
  set (w := fold_left (sweep_step n c scan (Fin goal)) (seq 0 (Datatypes.S n)) _) in *.
  assert (L : forall s e, admissible k scan s e -> (Datatypes.S e < Datatypes.S n)%nat).
  { intros s e [[[_ Q] _] _]. lia. }
  destruct (sw_best_gap w) as [[[s e] a] |]; injection H as <-; cbn.
  - split; [intros _ | discriminate]. destruct I as (A & _ & -> & _ & B). split; [exact A |]. split; [reflexivity |].
    intros s' e' A'. destruct (B s' e' A' (L _ _ A')) as [P | [P [Q | [Q Q']]]]; split; try lra; intros E; split; try lra; intros; lia || lra.
  - split; [discriminate | intros _]. split; [| auto]. intros s' e' A'. exact (I s' e' A' (L _ _ A')).
Qed.

(** Every finite goal gets an answer, whatever the scan; no other goal does. *)
Theorem C66_answers : forall n c scan goal, follower n c ->
  (exists out, follower_compute n c scan (Fin goal) = Ok out) /\
  (forall g : XR, g = PInf \/ g = NInf \/ g = XNaN -> follower_compute n c scan g = Err CoNonFinite).
Proof.
  intros n c scan goal F. split.
  - unfold follower_compute. cbn [is_finite Xnum negb]. destruct (sw_best_gap _) as [[[s e] a] |]; eexists; reflexivity.
  - intros g [-> | [-> | ->]]; reflexivity.
Qed.

(** The heading points into the chosen gap. *)
Theorem C66_heading_in_gap : forall n c k (scan : list XR) goal out,
  follower n c -> settings_of n c k -> follower_compute n c scan (Fin goal) = Ok out -> fo_blocked out = false ->
  exists heading, fo_heading out = Fin heading /\
    direction k (fo_gap_start out) <= heading <= direction k (fo_gap_end out).
Proof.
  intros n c k scan goal out F S H B. pose proof (follower_valid _ _ _ F S) as V.
  destruct (C66_choice n c k scan goal out F S H) as [K _]. destruct (K B) as (A & -> & _). eexists. split; [reflexivity |].
  destruct A as [[[L _] _] _]. set (s := fo_gap_start out) in *. set (e := fo_gap_end out) in *.
  assert (D : direction k s <= direction k e).
  { destruct (Nat.eq_dec s e) as [-> |]; [lra |]. left. apply direction_mono; [exact V | lia]. }
  unfold aim. destruct (Rle_dec (low k scan s) (high k scan e)) as [Q |]; [| lra].
  assert (direction k s <= low k scan s).
  { unfold low. destruct s as [| b]; [lra |]. pose proof (margin_pos k scan V b). lra. }
  assert (high k scan e <= direction k e).
  { unfold high. destruct (Nat.ltb _ _); [| lra]. pose proof (margin_pos k scan V (Datatypes.S e)). lra. }
  unfold Rmin, Rmax. destruct (Rle_dec goal _), (Rle_dec _ (high k scan e)); lra.
Qed.

(** What [try_new] accepts, and the settings that result. *)
Theorem C66_accepts : forall n fov range chassis threshold cruise,
  ((2 <= n)%nat /\ 0 < fov <= 2 * PI /\ 0 < threshold <= range /\ 0 < chassis < 2 * range /\ 0 < cruise) <->
  exists c, follower_try_new n (Fin fov) (Fin range) (Fin chassis) (Fin threshold) (Fin cruise) = Ok c /\
    settings_of n c {| beams := n; field_of_view := fov; maximum_range := range; chassis_width := chassis;
      free_range_threshold := threshold; cruise_speed := cruise; steering_gain := 3 / 2; goal_bias := 1 / 2;
      stopping_distance := chassis / 2; clear_distance := range; frontal_half_angle := fov / 4 |}.
Proof.
  intros n fov range chassis threshold cruise. split.
  - intros (N & Hf & Ht & Hc & Hv). unfold follower_try_new. destruct (Nat.ltb_spec n 2); [lia |].
    xnum. cbn [negb orb]. rdecide. cbn [orb]. rdecide. cbn [orb]. rdecide. cbn [orb]. rdecide. eexists. split; [reflexivity |].
    repeat split; try reflexivity. cbn. destruct (Req_EM_T (4 / 1) 0); [lra |]. f_equal. field.
  - intros (c & H & S). assert (V : valid _) by exact (follower_valid n c _ (fw_new _ _ _ _ _ _ _ H) S).
    unfold valid in V. cbn in V. tauto.
Qed.

Definition c31 : settings := {| beams := 4; field_of_view := 3; maximum_range := 4; chassis_width := 1 / 2;
  free_range_threshold := 2; cruise_speed := 1; steering_gain := 3 / 2; goal_bias := 1 / 2;
  stopping_distance := 1 / 4; clear_distance := 4; frontal_half_angle := 3 / 4 |}.
(** Four beams, an obstacle one metre away in the second, a NaN in the first: the gap of beams 2 and 3 is open. *)
Example C66_example : exists c, follower 4 c /\ settings_of 4 c c31 /\
  admissible c31 [XNaN; Fin 1; PInf; Fin 3] 2 3.
Proof.
  pose proof PI2_3_2.
  destruct (proj1 (C66_accepts 4 3 4 (1/2) 2 1)) as (c & H1 & S); [repeat split; lra || lia |].
  exists c. split; [exact (fw_new _ _ _ _ _ _ _ H1) |]. split.
  - unfold settings_of in *. cbn in S |- *. repeat split; try tauto.
    destruct S as (_ & _ & _ & _ & _ & _ & _ & _ & -> & _). f_equal. lra.
  - assert (seen c31 [XNaN; Fin 1; PInf; Fin 3] 1 = 1).
    { unfold seen. cbn. destruct (Rlt_dec 0 1); [| lra]. unfold Rmin. destruct (Rle_dec 1 4); lra. }
    assert (seen c31 [XNaN; Fin 1; PInf; Fin 3] 3 = 3).
    { unfold seen. cbn. destruct (Rlt_dec 0 3); [| lra]. unfold Rmin. destruct (Rle_dec 3 4); lra. }
    split.
    + unfold gap, open. cbn [beams c31]. split; [lia |]. split; [| split].
      * intros i Hi. split; [lia |]. destruct (Nat.eq_dec i 3) as [-> |]; [rewrite H2; cbn; lra |].
        replace i with 2%nat by lia. unfold seen. cbn. lra.
      * intros i Hi [_ Q]. replace i with 1%nat in Q by lia. rewrite H0 in Q. cbn in Q. lra.
      * intros [Q _]. lia.
    + intros b _ L. cbn in L. lia.
Qed.

(** ** C67 *)

(** The forward speed ramps between the two distances with the nearest cleaned reading ahead, and stays within
    [0, cruise]; the turn rate is the gain times the heading; the clearance reported is the smallest cleaned reading. *)
Theorem C67_speed : forall n c k (scan : list XR) goal out,
  follower n c -> settings_of n c k -> follower_compute n c scan (Fin goal) = Ok out ->
  exists speed heading clearance,
    fo_linear out = Fin speed /\ fo_heading out = Fin heading /\ fo_angular out = Fin (steering_gain k * heading) /\
    0 <= speed <= cruise_speed k /\
    (fo_blocked out = false ->
       ((exists i, ahead k i /\ seen k scan i <= stopping_distance k) -> speed = 0) /\
       (clear_distance k <= maximum_range k -> (forall i, ahead k i -> clear_distance k <= seen k scan i) -> speed = cruise_speed k) /\
       (forall i, ahead k i -> (forall j, ahead k j -> seen k scan i <= seen k scan j) ->
          stopping_distance k <= seen k scan i <= clear_distance k ->
          speed = cruise_speed k * ((seen k scan i - stopping_distance k) / (clear_distance k - stopping_distance k)))) /\
    fo_minimum_clearance out = Fin clearance /\ (forall i, (i < n)%nat -> clearance <= seen k scan i) /\
    (exists i, (i < n)%nat /\ clearance = seen k scan i).
Proof.
  intros n c k scan goal out F S H. pose proof (follower_valid _ _ _ F S) as V.
  assert (EN : beams k = n) by apply S.
  unfold follower_compute in H. change (negb (is_finite (Fin goal))) with false in H. cbv iota in H.
  destruct (smallest_ok n c k scan S V (fun _ => True) (fun _ => true) n ltac:(tauto)) as (mc & EM & M0 & M1 & M2).
  cbn [andb] in EM. rewrite EM in H. clear EM.
  destruct (smallest_ok n c k scan S V (fun i => Rabs (direction k i) <= frontal_half_angle k)
     (fun i => leb (abs (beam_angle_unchecked n c i)) (fg_frontal_half_angle c)) n) as (fc & EF & F0 & F1 & F2).
  { intros i. rewrite (angle_ok n c k S V). assert (fg_frontal_half_angle c = Fin (frontal_half_angle k)) as -> by apply S.
    cbn [leb abs Xnum lift xle]. unfold Rleb. destruct (Rle_dec _ _); split; intros; try discriminate; tauto. }
  assert (MC : (forall i, (i < n)%nat -> mc <= seen k scan i) /\ exists i, (i < n)%nat /\ mc = seen k scan i).
  { split; [intros; apply M1; auto |]. destruct M2 as [M2 | (i & Hi & _ & E)]; [| eauto].
    assert (N0 : (0 < n)%nat) by (destruct V; lia). exists 0%nat. split; [exact N0 |].
    specialize (M1 0%nat N0 Logic.I). pose proof (seen_bounds k scan V 0). lra. }
  destruct (sw_best_gap _) as [[[s e] a] |] eqn:BG; [cbv zeta in EF; rewrite EF in H |]; injection H as <-; cbn [fo_linear fo_angular fo_heading fo_blocked fo_minimum_clearance stopped].
  2:{ exists 0, 0, mc. destruct V as (_ & _ & _ & _ & V & _).
      split; [reflexivity |]. split; [reflexivity |]. split; [cbn; f_equal; ring |]. split; [lra |].
      split; [discriminate |]. split; [reflexivity | exact MC]. }
  pose proof (sweep_ok n c k scan goal S V (Datatypes.S n) (le_n _)) as [_ I].
  change (@neg_infinity XR Xnum) with NInf in BG. rewrite BG in I. destruct I as (_ & _ & -> & _).
  clear EF BG. destruct S as (_ & _ & _ & _ & _ & -> & -> & _ & -> & -> & _).
  set (st := stopping_distance k) in *. set (cl := clear_distance k) in *.
  assert (Hsc : 0 <= st < cl) by apply V. assert (Hcr : 0 < cruise_speed k) by apply V.
  set (q := (fc - st) / (cl - st)).
  exists (cruise_speed k * Rmin (Rmax q 0) 1), (aim k scan goal s e), mc.
  split.
  { change (xmul (Fin (cruise_speed k)) (xmin (xmax (xdiv (Fin (fc - st)) (Fin (cl - st))) (Fin 0)) (Fin 1)) =
      Fin (cruise_speed k * Rmin (Rmax q 0) 1)). rewrite xdiv_fin by lra. fold q. rewrite xmax_fin, xmin_fin. reflexivity. }
  split; [reflexivity |]. split; [reflexivity |].
  assert (Hq : 0 <= Rmin (Rmax q 0) 1 <= 1). { unfold Rmin, Rmax. destruct (Rle_dec q 0), (Rle_dec _ 1); lra. }
  split; [split; [apply Rmult_le_pos; lra | rewrite <- (Rmult_1_r (cruise_speed k)) at 2; apply Rmult_le_compat_l; lra] |].
  assert (QM : q * (cl - st) = fc - st) by (unfold q; field; lra).
  split; [intros _ | split; [reflexivity | exact MC]].
  split; [| split].
  - intros (i & [Hi Ai] & Le). specialize (F1 i ltac:(lia) Ai).
    assert (q <= 0) by nra. rewrite (Rmax_right q 0), Rmin_left by lra. ring.
  - intros R A. assert (cl <= fc). { destruct F2 as [-> | (i & Hi & Ai & ->)]; [exact R |]. apply A. split; [lia | exact Ai]. }
    assert (1 <= q) by nra. rewrite Rmax_left, Rmin_right by lra. ring.
  - intros i [Hi Ai] Small Rg. assert (fc = seen k scan i) as E.
    { apply Rle_antisym; [apply F1; [lia | exact Ai] |]. destruct F2 as [-> | (j & Hj & Aj & ->)].
      - apply seen_bounds. exact V.
      - apply Small. split; [lia | exact Aj]. }
    assert (0 <= q <= 1) by (rewrite E in QM; nra). rewrite Rmax_left, Rmin_left by lra. unfold q. rewrite E. reflexivity.
Qed.

(** The clear distance is not checked against the sensor's range, and readings are capped at that range: with
    a clear distance beyond it, the follower never reaches its cruise speed however empty the scan. *)
Theorem C67_full_speed_refuted : exists c k, follower 3 c /\ settings_of 3 c k /\ clear_distance k = 8 /\ cruise_speed k = 1 /\
  exists out, follower_compute 3 c [Fin 100; Fin 100; Fin 100] (Fin 0) = Ok out /\ fo_blocked out = false /\
    exists speed, fo_linear out = Fin speed /\ speed < 1.
Proof.
  pose proof PI2_3_2.
  destruct (proj1 (C66_accepts 3 3 4 1 2 1)) as (c0 & H1 & S0); [repeat split; lra || lia |].
  assert (F0 := fw_new 3 _ _ _ _ _ _ H1).
  assert (W : exists c, with_speed_scaling c0 (Fin 1) (Fin 8) = Ok c /\ settings_of 3 c {| beams := 3; field_of_view := 3; maximum_range := 4;
     chassis_width := 1; free_range_threshold := 2; cruise_speed := 1; steering_gain := 3 / 2; goal_bias := 1 / 2;
     stopping_distance := 1; clear_distance := 8; frontal_half_angle := 3 / 4 |}).
  { unfold with_speed_scaling. xnum. cbn [negb orb]. rdecide. cbn [orb]. rdecide. eexists. split; [reflexivity |].
    unfold settings_of in *. cbn in S0 |- *. tauto. }
  destruct W as (c & W & S). assert (F : follower 3 c) by (eapply fw_scaling; [exact F0 | exact W]).
  exists c. eexists. split; [exact F |]. split; [exact S |]. split; [reflexivity |]. split; [reflexivity |].
  set (k := {| beams := 3; field_of_view := 3; maximum_range := 4;
     chassis_width := 1; free_range_threshold := 2; cruise_speed := 1; steering_gain := 3 / 2; goal_bias := 1 / 2;
     stopping_distance := 1; clear_distance := 8; frontal_half_angle := 3 / 4 |}) in *.
  set (scan := [Fin 100; Fin 100; Fin 100]).
  destruct (C66_answers 3 c scan 0 F) as [[out O] _]. exists out. split; [exact O |].
  assert (Sn : forall i, seen k scan i = 4).
  { intros i. unfold seen, scan. destruct i as [| [| [| i]]]; cbn [nth_error maximum_range k];
      try (destruct i; reflexivity); destruct (Rlt_dec 0 100); try reflexivity; unfold Rmin; destruct (Rle_dec 100 4); lra. }
  destruct (C66_choice 3 c k scan 0 out F S O) as [_ C].
  assert (B : fo_blocked out = false).
  { destruct (fo_blocked out) eqn:B; [| reflexivity]. exfalso. destruct (C eq_refl) as [C0 _]. apply (C0 0 2)%nat. split.
    - unfold gap, open. cbn [beams k]. split; [lia |]. split; [| split].
      + intros i Hi. split; [lia |]. rewrite Sn. cbn. lra.
      + intros; discriminate.
      + intros [Q _]. lia.
    - intros b Hb. discriminate. }
  split; [exact B |].
  destruct (C67_speed 3 c k scan 0 out F S O) as (v & h & cl & E & _ & _ & _ & K & _). exists v. split; [exact E |].
  destruct (K B) as (_ & _ & K3). rewrite (K3 1%nat).
  - rewrite Sn. cbn. lra.
  - split; [cbn; lia |]. unfold direction. cbn. rewrite Rabs_pos_eq; lra.
  - intros. rewrite !Sn. lra.
  - rewrite Sn. cbn. lra.
Qed.

Lemma mult_share (x y : f64) : ffinite x = true -> 0 <= B2R x -> Bleb (F64 0 0) y = true -> Bleb y (F64 1 0) = true ->
  Bleb (F64 0 0) (Bmult mode_NE x y) = true /\ Bleb (Bmult mode_NE x y) x = true.
Proof.
  intros Fx Px L0 L1.
  assert (Fy : ffinite y = true). { clear Fx Px. destruct y as [s | s | | s m e B]; try reflexivity; exfalso; [| vm_compute in L0; discriminate].
    destruct s; [vm_compute in L0 | vm_compute in L1]; discriminate. }
  assert (F0 : ffinite (F64 0 0) = true) by reflexivity. assert (F1 : ffinite (F64 1 0) = true) by reflexivity.
  rewrite Bleb_correct in L0, L1 by assumption.
  assert (Y : 0 <= B2R y <= 1).
  { split.
    - replace 0 with (B2R (F64 0 0)) by reflexivity. destruct (Rle_bool_spec (B2R (F64 0 0)) (B2R y)); [assumption | discriminate].
    - replace 1 with (B2R (F64 1 0)) by (vm_compute; field). destruct (Rle_bool_spec (B2R y) (B2R (F64 1 0))); [assumption | discriminate]. }
  pose proof (Bmult_correct 53 1024 _ _ mode_NE x y) as M.
  set (rnd := Generic_fmt.round radix2 (SpecFloat.fexp 53 1024) (round_mode mode_NE) (B2R x * B2R y)) in *.
  assert (R0 : 0 <= rnd <= B2R x).
  { split.
    - unfold rnd. rewrite <- (round_0 radix2 (SpecFloat.fexp 53 1024) (round_mode mode_NE)). apply round_le; [typeclasses eauto | typeclasses eauto |].
      apply Rmult_le_pos; lra.
    - apply round_le_generic; [typeclasses eauto | typeclasses eauto | apply generic_format_B2R |].
      rewrite <- (Rmult_1_r (B2R x)) at 2. apply Rmult_le_compat_l; lra. }
  rewrite Rlt_bool_true in M.
  2:{ rewrite Rabs_pos_eq by lra. apply Rle_lt_trans with (B2R x); [lra |].
      rewrite <- (Rabs_pos_eq (B2R x)) by lra. apply abs_B2R_lt_emax. }
  destruct M as (M1 & M2 & _). rewrite Fx, Fy in M2. cbn in M2.
  split; rewrite Bleb_correct by assumption; rewrite M1; apply Rle_bool_true; [replace (B2R (F64 0 0)) with 0 by reflexivity |]; lra.
Qed.

(** The speed limits also hold in f64 with its rounding, for any scan and goal whatever. *)
Theorem C67_speed_f64 : forall (lm : Libm f64) n c scan goal out,
  let NT := f64num lm in
  follower n c -> follower_compute n c scan goal = Ok out ->
  Bleb (F64 0 0) (fo_linear out) = true /\ Bleb (fo_linear out) (fg_cruise_speed c) = true.
Proof.
  intros lm n c scan goal out NT F H.
  assert (CR : ffinite (fg_cruise_speed c) = true /\ 0 <= B2R (fg_cruise_speed c)).
  { clear H. induction F as [fov range chassis threshold cruise c H | c g c' F IH H | c g c' F IH H | c a b c' F IH H | c a c' F IH H].
    - unfold follower_try_new in H. do 6 (checked H).
      assert (E : cruise = fg_cruise_speed c).
      { exact (f_equal (fun r => match r with Ok c => fg_cruise_speed c | _ => cruise end) H). }
      rewrite <- E. clear E H. repeat match goal with H : (_ || _)%bool = false |- _ => apply orb_false_elim in H; destruct H end.
      assert (Fc : ffinite cruise = true). { apply negb_false_iff. assumption. }
      split; [exact Fc |]. 
      match goal with H : leb cruise zero = false |- _ => change (Bleb cruise (F64 0 0) = false) in H; rewrite Bleb_correct in H by auto;
        revert H; destruct (Rle_bool_spec (B2R cruise) (B2R (F64 0 0))) as [Q | Q]; [discriminate | intros _] end.
      replace (B2R (F64 0 0)) with 0 in Q by reflexivity. lra.
    - unfold with_steering_gain in H. do 2 (checked H). injection H as <-. exact IH.
    - unfold with_goal_bias in H. do 2 (checked H). injection H as <-. exact IH.
    - unfold with_speed_scaling in H. do 2 (checked H). injection H as <-. exact IH.
    - unfold with_frontal_half_angle in H. do 2 (checked H). injection H as <-. exact IH. }
  destruct CR as [Fc Pc].
  assert (E : exists u, fo_linear out = F64 0 0 \/
     fo_linear out = Bmult mode_NE (fg_cruise_speed c) (fmin 53 1024 (fmax 53 1024 u (F64 0 0)) (F64 1 0))).
  { unfold follower_compute in H. checked H.
    destruct (sw_best_gap (fold_left _ _ _)) as [[[s e] a] |].
    - eexists. right. exact (eq_sym (f_equal (fun r => match r with Ok o => fo_linear o | _ => fo_linear out end) H)).
    - exists (F64 0 0). left. exact (eq_sym (f_equal (fun r => match r with Ok o => fo_linear o | _ => fo_linear out end) H)). }
  destruct E as (u & [-> | ->]).
  - split; [reflexivity |]. rewrite Bleb_correct by auto. apply Rle_bool_true. replace (B2R (F64 0 0)) with 0 by reflexivity. exact Pc.
  - destruct (flimit 53 1024 u (F64 0 0) (F64 1 0)) as [A B]; [reflexivity | reflexivity | reflexivity |].
    apply mult_share; assumption.
Qed.

(** Half way between the two distances is half speed. *)
Example C67_example : exists c, follower 4 c /\ settings_of 4 c c31 /\ ahead c31 1 /\ ahead c31 2 /\ ~ ahead c31 0 /\
  seen c31 [Fin (-1); Fin 9; Fin (17/8); XNaN] 2 = 17 / 8 /\ seen c31 [Fin (-1); Fin 9; Fin (17/8); XNaN] 1 = 4.
Proof.
  destruct C66_example as (c & F & S & _). exists c. split; [exact F |]. split; [exact S |].
  unfold ahead, direction, seen. cbn. repeat split; try lia.
  - rewrite Rabs_left; lra.
  - rewrite Rabs_right; lra.
  - intros [_ Q]. revert Q. rewrite Rabs_left; lra.
  - destruct (Rlt_dec 0 (17 / 8)); [| lra]. unfold Rmin. destruct (Rle_dec (17 / 8) 4); lra.
  - destruct (Rlt_dec 0 9); [| lra]. unfold Rmin. destruct (Rle_dec 9 4); lra.
Qed.

(** ** C74 *)

(** A point straight ahead along a heading. *)
Definition along (heading t : R) : R * R := (t * Rtrigo_def.cos heading, t * Rtrigo_def.sin heading).

Lemma ray_clearance r h a b t : 0 < r -> 0 < h -> 0 <= t ->
  Ratan.atan (h / r) <= Rabs (a - b) <= PI ->
  h * r / R_sqrt.sqrt (h * h + r * r) <= distance (r * Rtrigo_def.cos a, r * Rtrigo_def.sin a) (along b t).
Proof.
  intros Hr Hh Ht D. unfold along. rewrite distance_cosines.
  set (dl := Rabs (a - b)) in *.
  assert (CE : Rtrigo_def.cos (b - a) = Rtrigo_def.cos dl).
  { unfold dl, Rabs. destruct (Rcase_abs (a - b)); [f_equal; ring | rewrite <- cos_neg; f_equal; ring]. }
  rewrite CE. assert (P : 0 < h * h + r * r) by nra.
  pose proof (sqrt_lt_R0 _ P) as SP. set (q := R_sqrt.sqrt (h * h + r * r)) in *.
  assert (QQ : q * q = h * h + r * r) by (apply sqrt_sqrt; lra).
  apply Rsqr_incr_0_var; [| apply sqrt_pos].
  unfold Rsqr. rewrite sqrt_sqrt by apply Rmax_r.
  apply Rle_trans with (r * r + t * t - 2 * r * t * Rtrigo_def.cos dl); [| apply Rmax_l].
  assert (EQ : h * r / q * (h * r / q) = h * h * (r * r) / (h * h + r * r)) by (rewrite <- QQ; field; lra).
  rewrite EQ.
  assert (B1 : h * h * (r * r) / (h * h + r * r) <= r * r).
  { apply Rmult_le_reg_r with (h * h + r * r); [lra |]. unfold Rdiv. rewrite Rmult_assoc, Rinv_l by lra. nra. }
  set (cs := Rtrigo_def.cos dl). destruct (Rle_lt_dec cs 0) as [N | N].
  - assert (0 <= t * t) by nra. assert (0 <= r * t * (- cs)) by (apply Rmult_le_pos; [nra | lra]). nra.
  - (* the nearest point is t = r cos, at distance r sin *)
    assert (r * r * (1 - cs * cs) <= r * r + t * t - 2 * r * t * cs).
    { pose proof (Rle_0_sqr (t - r * cs)) as Q. unfold Rsqr in Q. nra. }
    assert (cs <= Rtrigo_def.cos (Ratan.atan (h / r))).
    { unfold cs. pose proof (atan_bound (h / r)).
      assert (0 < Ratan.atan (h / r)). { rewrite <- atan_0. apply atan_increasing. apply Rdiv_lt_0_compat; lra. }
      apply cos_decr_1; lra. }
    rewrite cos_atan in H0. set (k := R_sqrt.sqrt (1 + Rsqr (h / r))) in *.
    assert (KP : 0 < k). { apply sqrt_lt_R0. pose proof (Rle_0_sqr (h / r)). lra. }
    assert (KK : k * k = (h * h + r * r) / (r * r)).
    { unfold k. rewrite sqrt_sqrt by (pose proof (Rle_0_sqr (h / r)); lra). unfold Rsqr. field. lra. }
    assert (cs * cs <= r * r / (h * h + r * r)).
    { apply Rle_trans with (1 / k * (1 / k)). { apply Rmult_le_compat; lra. }
      replace (1 / k * (1 / k)) with (/ (k * k)) by (field; lra). rewrite KK. right. field. split; nra. }
    assert (h * h * (r * r) / (h * h + r * r) = r * r * (1 - r * r / (h * h + r * r))) by (field; lra).
    rewrite H2. nra.
Qed.

(** When the margins leave room, driving straight along the heading passes each of the two obstacles at the edges of the
    gap at a distance of at least half the width w times r / sqrt(w^2 + r^2), r being how far away the obstacle was
    seen.  Missing: half the width itself (below). *)
Theorem C74_edge_clearance_partial : forall n c k (scan : list XR) goal out heading,
  follower n c -> settings_of n c k -> field_of_view k <= PI ->
  follower_compute n c scan (Fin goal) = Ok out -> fo_blocked out = false -> fo_heading out = Fin heading ->
  low k scan (fo_gap_start out) <= high k scan (fo_gap_end out) ->
  forall edge t, (S edge = fo_gap_start out \/ (edge = S (fo_gap_end out) /\ (edge < n)%nat)) -> 0 <= t ->
  let w := chassis_width k / 2 in
  let r := seen k scan edge in
  w * r / R_sqrt.sqrt (w * w + r * r) <= distance (obstacle k scan edge) (along heading t).
Proof.
  intros n c k scan goal out heading F S FOV H B HE LH edge t Ed Ht w r.
  pose proof (follower_valid _ _ _ F S) as V. assert (EN : beams k = n) by apply S.
  destruct (C66_choice n c k scan goal out F S H) as [K _]. destruct (K B) as (A & E & _). rewrite E in HE. injection HE as <-.
  destruct (C66_heading_in_gap n c k scan goal out F S H B) as (h' & E' & HB). rewrite E in E'. injection E' as <-.
  set (s := fo_gap_start out) in *. set (e := fo_gap_end out) in *. clear E K H B.
  assert (AB : low k scan s <= aim k scan goal s e <= high k scan e).
  { unfold aim. destruct (Rle_dec _ _); [| lra]. unfold Rmin, Rmax. destruct (Rle_dec goal _), (Rle_dec _ (high k scan e)); lra. }
  unfold obstacle. apply ray_clearance; auto.
  - apply seen_bounds; exact V.
  - unfold w. destruct V as (_ & _ & _ & V & _). lra.
  - assert (DR : forall i, (i < n)%nat -> - (field_of_view k / 2) <= direction k i <= field_of_view k / 2).
    { intros i Hi. unfold direction. rewrite EN. destruct V as (V1 & V2 & _).
      assert (INR i <= INR n - 1). { replace (INR n - 1) with (INR (n - 1)) by (rewrite minus_INR by lia; cbn; lra). apply le_INR. lia. }
      pose proof (pos_INR i). pose proof (le_INR 2 n ltac:(lia)) as L2. cbn in L2.
      assert (0 <= INR i / (INR n - 1) <= 1).
      { split; [apply Rmult_le_pos; [lra | left; apply Rinv_0_lt_compat; lra] |].
        apply Rmult_le_reg_r with (INR n - 1); [lra |]. unfold Rdiv. rewrite Rmult_assoc, Rinv_l by lra. lra. }
      replace (field_of_view k * INR i / (INR n - 1)) with (field_of_view k * (INR i / (INR n - 1))) by (field; lra). nra. }
    assert (GE : (s <= e < n)%nat). { destruct A as [[A _] _]. lia. }
    pose proof (margin_pos k scan V edge) as MP. unfold margin in MP. fold w r in MP.
    destruct Ed as [Es | [Es Le]].
    + pose proof (DR edge ltac:(lia)). pose proof (DR e ltac:(lia)).
      assert (direction k edge < direction k s) by (apply direction_mono; [exact V | lia]).
      assert (LS : low k scan s = direction k s + Ratan.atan (w / r)) by (rewrite <- Es; reflexivity).
      fold r. rewrite Rabs_left; lra.
    + pose proof (DR edge Le). pose proof (DR s ltac:(lia)).
      assert (direction k e < direction k edge) by (apply direction_mono; [exact V | lia]).
      assert (HS : high k scan e = direction k e - Ratan.atan (w / r)).
      { unfold high. rewrite EN. rewrite <- Es. destruct (Nat.ltb_spec edge n); [reflexivity | lia]. }
      fold r. rewrite Rabs_right; lra.
Qed.

(** Half the width is not kept clear: with margins that fit, a robot two metres wide is sent past an obstacle
    within less than one metre. *)
Theorem C74_half_width_refuted : exists c k, follower 5 c /\ settings_of 5 c k /\ chassis_width k = 2 /\
  exists out heading, follower_compute 5 c [Fin 1; Fin 4; Fin 4; Fin 4; Fin 4] (Fin 0) = Ok out /\ fo_blocked out = false /\
    fo_gap_start out = 1%nat /\
    fo_heading out = Fin heading /\ low k [Fin 1; Fin 4; Fin 4; Fin 4; Fin 4] (fo_gap_start out) <= high k [Fin 1; Fin 4; Fin 4; Fin 4; Fin 4] (fo_gap_end out) /\
    exists t, 0 <= t /\ distance (obstacle k [Fin 1; Fin 4; Fin 4; Fin 4; Fin 4] 0) (along heading t) < 1.
Proof.
  pose proof PI2_3_2. pose proof PI_4 as P4.
  destruct (proj1 (C66_accepts 5 (2 * PI / 3) 4 2 2 1)) as (c & H1 & S0); [repeat split; lra || lia |].
  assert (F := fw_new 5 _ _ _ _ _ _ H1). exists c. eexists. split; [exact F |]. split; [exact S0 |]. split; [reflexivity |].
  set (k := {| beams := 5; field_of_view := 2 * PI / 3 |}) in *. set (scan := [Fin 1; Fin 4; Fin 4; Fin 4; Fin 4]).
  destruct (C66_answers 5 c scan 0 F) as [[out O] _].
  destruct (C66_choice 5 c k scan 0 out F S0 O) as [C1 C2].
  assert (s0 : seen k scan 0 = 1). { unfold seen, scan. cbn. destruct (Rlt_dec 0 1); [| lra]. unfold Rmin. destruct (Rle_dec 1 4); lra. }
  assert (si : forall i, (1 <= i)%nat -> seen k scan i = 4).
  { intros i Hi. unfold seen, scan. destruct i as [| [| [| [| [| i]]]]]; try lia; cbn [nth_error maximum_range k];
      try (destruct i; reflexivity); destruct (Rlt_dec 0 4); try reflexivity; unfold Rmin; destruct (Rle_dec 4 4); lra. }
  assert (A : admissible k scan 1 4).
  { split.
    - unfold gap, open. cbn [beams k]. split; [lia |]. split; [| split].
      + intros i Hi. split; [lia |]. rewrite si by lia. cbn. lra.
      + intros i Hi [_ Q]. replace i with 0%nat in Q by lia. rewrite s0 in Q. cbn in Q. lra.
      + intros [Q _]. lia.
    - intros b _ Q. cbn in Q. lia. }
  assert (B : fo_blocked out = false).
  { destruct (fo_blocked out) eqn:B; [| reflexivity]. exfalso. destruct (C2 eq_refl) as [C0 _]. exact (C0 _ _ A). }
  destruct (C1 B) as (A' & HE & _).
  assert (U : fo_gap_start out = 1%nat /\ fo_gap_end out = 4%nat).
  { destruct A' as [(G1 & G2 & G3 & G4) _]. cbn [beams k] in G1. set (s := fo_gap_start out) in *. set (e := fo_gap_end out) in *.
    assert (OP : forall i, (1 <= i <= 4)%nat -> open k scan i).
    { intros i Hi. split; [cbn; lia |]. rewrite si by lia. cbn. lra. }
    assert (s <> 0)%nat. { intros E. destruct (G2 s ltac:(lia)) as [_ Q]. rewrite E, s0 in Q. cbn in Q. lra. }
    assert (e = 4)%nat. { destruct (Nat.eq_dec e 4); auto. exfalso. apply G4. apply OP. lia. }
    split; auto. destruct (Nat.eq_dec s 1); auto. exfalso. apply (G3 (s - 1)%nat); [lia |]. apply OP. lia. }
  destruct U as [U1 U2]. rewrite U1, U2 in HE. clear A'.
  assert (d0 : direction k 0 = - (PI / 3)) by (unfold direction; cbn; field).
  assert (d1 : direction k 1 = - (PI / 6)) by (unfold direction; cbn; field).
  assert (d4 : direction k 4 = PI / 3) by (unfold direction; cbn; field).
  assert (lo : low k scan 1 = - (PI / 6) + PI / 4).
  { unfold low. rewrite d1. unfold margin. rewrite s0. cbn. replace (2 / 2 / 1) with 1 by field. rewrite atan_1. reflexivity. }
  assert (hi : high k scan 4 = PI / 3). { unfold high. cbn. exact d4. }
  assert (HA : aim k scan 0 1 4 = - (PI / 6) + PI / 4).
  { unfold aim. rewrite lo, hi. destruct (Rle_dec _ _); [| lra]. rewrite Rmax_right, Rmin_left by lra. reflexivity. }
  exists out, (aim k scan 0 1 4). split; [exact O |]. split; [exact B |]. split; [exact U1 |]. split; [exact HE |].
  rewrite U1, U2, lo, hi. split; [lra |].
  set (dl := 5 * PI / 12). assert (CP : 0 < Rtrigo_def.cos dl) by (unfold dl; apply cos_gt_0; lra).
  exists (Rtrigo_def.cos dl). split; [lra |].
  unfold obstacle, along. rewrite distance_cosines, s0, HA, d0.
  replace (- (PI / 6) + PI / 4 - - (PI / 3)) with dl by (unfold dl; field).
  rewrite <- sqrt_1 at 4. apply sqrt_lt_1_alt.
  pose proof (COS_bound dl). unfold Rmax. destruct (Rle_dec _ 0); nra.
Qed.

Example C74_example : exists c k, follower 5 c /\ settings_of 5 c k /\ field_of_view k <= PI /\
  low k [Fin 1; Fin 4; Fin 4; Fin 4; Fin 4] 1 <= high k [Fin 1; Fin 4; Fin 4; Fin 4; Fin 4] 4.
Proof.
  pose proof PI2_3_2. destruct (proj1 (C66_accepts 5 2 4 2 2 1)) as (c & H1 & S0); [repeat split; lra || lia |].
  assert (F := fw_new 5 _ _ _ _ _ _ H1). exists c. eexists. split; [exact F |]. split; [exact S0 |]. cbn [field_of_view].
  split; [lra |]. unfold low, high, margin.
  assert (E : seen {| beams := 5; field_of_view := 2; maximum_range := 4; chassis_width := 2; free_range_threshold := 2;
     cruise_speed := 1; steering_gain := 3 / 2; goal_bias := 1 / 2; stopping_distance := 2 / 2; clear_distance := 4;
     frontal_half_angle := 2 / 4 |} [Fin 1; Fin 4; Fin 4; Fin 4; Fin 4] 0 = 1).
  { unfold seen. cbn. destruct (Rlt_dec 0 1); [| lra]. unfold Rmin. destruct (Rle_dec 1 4); lra. }
  rewrite E. unfold direction. cbn. replace (2 / 2 / 1) with 1 by field. rewrite atan_1. pose proof PI_4. lra.
Qed.

Print Assumptions C66_choice.
Print Assumptions C66_answers.
Print Assumptions C66_heading_in_gap.
Print Assumptions C66_accepts.
Print Assumptions C67_speed.
Print Assumptions C67_speed_f64.
Print Assumptions C67_full_speed_refuted.
Print Assumptions C74_edge_clearance_partial.
Print Assumptions C74_half_width_refuted.
