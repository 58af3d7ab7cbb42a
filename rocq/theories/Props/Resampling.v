(** C138: drawing a fresh cloud from a weighted one. *)
From Coq Require Import ZArith Reals List Bool Arith Lia Lra Sorting.
From Flocq Require Import Core.Raux.
From Coquelicot Require Import Hierarchy RInt Rcomplements.
From Verif Require Import Base.Scalar Base.Lists Base.RNum Base.Series Model.Errors Model.Vector Model.Matrix Model.ParticleFilter Proofs.Resampling Spec.Particles.
Import ListNotations.
Local Open Scope R_scope.

(** For any scalar, any weights (NaN among them) and any draws: no scheme fails, every pick is a source, and each scheme takes the
    draws it says, one after the other; an empty list of weights changes nothing. *)
Theorem C138_in_range T (NT : Num T) Rng (next_unit : Rng -> T * Rng) scheme (weights : list T) g indices :
  (weights = [] -> resample_indices next_unit scheme weights g indices = Some (indices, g)) /\
  (weights <> [] -> length weights = length indices ->
    exists l g', resample_indices next_unit scheme weights g indices = Some (l, g') /\ length l = length indices /\
      Forall (fun i => (i < length weights)%nat) l /\
      (scheme = Systematic \/ scheme = Stratified -> StronglySorted le l) /\
      exists k, g' = later next_unit k g /\ match scheme with Systematic => k = 1%nat | Stratified | Multinomial => k = length indices | Residual => (k <= length indices)%nat end).
Proof. split; [intros ->; reflexivity|apply indices_total]. Qed.

Lemma not_empty w : distribution w -> w <> [] /\ (0 < length w)%nat.
Proof. intros [_ S]. destruct w; [cbn in S; lra|]. split; [discriminate|cbn; lia]. Qed.

Section Picks.
  Context {Rng : Type}.
  Variable next_unit : Rng -> R * Rng.
  (** a uniform draw is at least zero and below one *)
  Definition in_unit : Prop := forall g, 0 <= fst (next_unit g) < 1.

  (** The evenly spaced picks: pick [k] is the source on whose stretch [(offset + k) / count] falls; source [i] gets its share
      rounded down or up, and gets its share on average over the offset. *)
Theorem C138_systematic w g indices : distribution w -> in_unit -> length indices = length w ->
    exists l g', resample_indices next_unit Systematic w g indices = Some (l, g') /\ length l = length w /\
      (forall k, (k < length w)%nat -> falls_on w ((nth_draw next_unit 0 g + INR k) / INR (length w)) (nth k l 0%nat)) /\
      forall i, (i < length w)%nat -> Rabs (picked l i - share w (length w) i) < 1.
  Proof.
    intros D U L. destruct (not_empty w D) as [N P]. unfold resample_indices. destruct w as [|w0 ws] eqn:EW; [congruence|]. rewrite <- EW in *. clear EW w0 ws.
    unfold systematic. destruct (next_unit g) as [o g1] eqn:E. rewrite L.
    assert (O : 0 <= o < 1) by (specialize (U g); rewrite E in U; exact U).
    assert (B1 : vget w 0 = before w 1) by (unfold before; cbn; unfold weight, vget; cbn; ring). rewrite B1.
    destruct (walk_falls w D P (repeat o (length w)) 0 0) as (l & -> & A & F); [intros u Hu; apply repeat_spec in Hu; subst; exact O|rewrite repeat_length; lia|exact P|cbn; lra|].
    rewrite repeat_length in *. exists l, g1. split; [reflexivity|]. split; [exact A|].
    assert (EN : nth_draw next_unit 0 g = o) by (unfold nth_draw; cbn; rewrite E; reflexivity). rewrite EN.
    assert (F' : forall k, (k < length w)%nat -> falls_on w ((o + INR k) / INR (length w)) (nth k l 0%nat)).
    { intros k Hk. specialize (F k Hk). rewrite (nth_indep _ 0 o), nth_repeat in F by (rewrite repeat_length; exact Hk). exact F. }
    split; [exact F'|]. intros i Hi. rewrite (times_between w l (fun k => (o + INR k) / INR (length w)) i D A); [|intros k Hk; apply F'; lia|exact Hi].
    assert (Q : forall x, 0 <= x <= 1 -> let c := INR (number (length w) (fun k => Rltb ((o + INR k) / INR (length w)) x)) in INR (length w) * x - o <= c < INR (length w) * x - o + 1).
    { intros x Hx. apply number_even; [intros j Hj; rewrite Rltb_true; apply position_below; exact P|].
      assert (0 <= INR (length w)) by apply pos_INR. nra. }
    pose proof (Q _ (before_one w (S i) D Hi)) as Q1. pose proof (Q _ (before_one w i D ltac:(lia))) as Q0. cbv zeta in Q0, Q1.
    rewrite before_S in Q1. unfold share. rewrite before_S. apply Rabs_def1; lra.
  Qed.

  (** One pick inside each of the evenly spaced strata: source [i] is within two of its share. *)
Theorem C138_stratified w g indices : distribution w -> in_unit -> length indices = length w ->
    exists l g', resample_indices next_unit Stratified w g indices = Some (l, g') /\ length l = length w /\
      (forall k, (k < length w)%nat -> falls_on w ((nth_draw next_unit k g + INR k) / INR (length w)) (nth k l 0%nat)) /\
      forall i, (i < length w)%nat -> Rabs (picked l i - share w (length w) i) < 2.
  Proof.
    intros D U L. destruct (not_empty w D) as [N P]. unfold resample_indices. destruct w as [|w0 ws] eqn:EW; [congruence|]. rewrite <- EW in *. clear EW w0 ws.
    unfold stratified. rewrite L. destruct (draws_spec next_unit (length w) g) as (A1 & A2 & A3). destruct (draws _ _ _) as [os g1]. cbn [fst snd] in *.
    assert (O : forall k, 0 <= nth_draw next_unit k g < 1) by (intros k; apply U).
    assert (B1 : vget w 0 = before w 1) by (unfold before; cbn; unfold weight, vget; cbn; ring). rewrite B1.
    destruct (walk_falls w D P os 0 0) as (l & -> & A & F); [|lia|exact P|cbn; lra|].
    { intros u Hu. apply (In_nth _ _ 0) in Hu as (k & Hk & <-). rewrite A3 by lia. apply O. }
    exists l, g1. split; [reflexivity|]. split; [lia|]. rewrite A1 in *.
    assert (F' : forall k, (k < length w)%nat -> falls_on w ((nth_draw next_unit k g + INR k) / INR (length w)) (nth k l 0%nat)).
    { intros k Hk. specialize (F k Hk). rewrite A3 in F by exact Hk. exact F. }
    split; [exact F'|]. intros i Hi. rewrite (times_between w l (fun k => (nth_draw next_unit k g + INR k) / INR (length w)) i D A); [|intros k Hk; apply F'; lia|exact Hi].
    assert (Q : forall x, 0 <= x <= 1 -> let c := INR (number (length w) (fun k => Rltb ((nth_draw next_unit k g + INR k) / INR (length w)) x)) in INR (length w) * x - 1 < c < INR (length w) * x + 1).
    { intros x Hx. apply number_strata.
      - intros j Hj. rewrite Rltb_true, position_below by exact P. specialize (O j). lra.
      - assert (0 <= INR (length w)) by apply pos_INR. nra. }
    pose proof (Q _ (before_one w (S i) D Hi)) as Q1. pose proof (Q _ (before_one w i D ltac:(lia))) as Q0. cbv zeta in Q0, Q1.
    rewrite before_S in Q1. unfold share. rewrite before_S. apply Rabs_def1; lra.
  Qed.

  (** Independent picks: pick [k] is the first source at which the running weight reaches the [k]-th draw. *)
Theorem C138_multinomial w g indices : distribution w -> in_unit -> length indices = length w ->
    exists l g', resample_indices next_unit Multinomial w g indices = Some (l, g') /\ length l = length w /\
      forall k, (k < length w)%nat -> first_to_reach (weight w) (length w) (nth_draw next_unit k g) (nth k l 0%nat).
  Proof.
    intros D U L. destruct (not_empty w D) as [N P]. unfold resample_indices. destruct w as [|w0 ws] eqn:EW; [congruence|]. rewrite <- EW in *. clear EW w0 ws.
    unfold multinomial. rewrite L. destruct (draws_spec next_unit (length w) g) as (A1 & A2 & A3). destruct (draws _ _ _) as [os g1]. cbn [fst snd] in *.
    eexists _, _. split; [reflexivity|]. split; [rewrite map_length; exact A1|]. intros k Hk.
    rewrite (nth_indep _ 0%nat (draw_from_weights w 0)) by (rewrite map_length; lia). rewrite map_nth, A3 by exact Hk.
    set (d := nth_draw next_unit k g). assert (DR : 0 <= d < 1) by apply U.
    pose proof (reach_spec w 0 zero d (weight w) eq_refl (fun k _ => eq_refl) ltac:(intros; lia)) as R.
    unfold draw_from_weights. destruct (reach w 0 zero d) as [i|]; [exact R|]. exfalso. specialize (R (length w - 1)%nat ltac:(cbn; lia)).
    replace (S (length w - 1)) with (length w) in R by lia. destruct D as [_ D]. rewrite D in R. lra.
  Qed.

  (** The residual scheme: the whole copies of every share first, then one draw for each slot left, on the fractions. *)
Theorem C138_residual w g indices : distribution w -> in_unit -> length indices = length w ->
    exists laid drawn g', resample_indices next_unit Residual w g indices = Some (laid ++ drawn, g') /\ length (laid ++ drawn) = length w /\
      (forall i, (i < length w)%nat -> picked laid i = IZR (Zfloor (share w (length w) i)) /\ picked laid i <= picked (laid ++ drawn) i) /\
      INR (length drawn) = bsum (length w) (fraction w (length w)) /\ g' = later next_unit (length drawn) g /\
      forall k, (k < length drawn)%nat -> first_to_reach (fun i => fraction w (length w) i / INR (length drawn)) (length w) (nth_draw next_unit k g) (nth k drawn 0%nat).
  Proof.
    intros D U L. destruct (not_empty w D) as [N P]. unfold resample_indices. destruct w as [|w0 ws] eqn:EW; [congruence|]. rewrite <- EW in *. clear EW w0 ws.
    unfold residual. rewrite L, of_nat_R, fold_fraction. cbn [zero Rnum]. rewrite Rplus_0_l.
    assert (PN : 0 <= INR (length w)) by apply pos_INR.
    assert (TOT : bsum (length w) (fun i => INR (length w) * weight w i) = INR (length w)).
    { rewrite bsum_scal. destruct D as [_ D]. rewrite D. ring. }
    assert (FL : bsum (length w) (fun i => IZR (Zfloor (INR (length w) * weight w i))) <= INR (length w)).
    { apply Rle_trans with (bsum (length w) (fun i => INR (length w) * weight w i)); [|lra]. apply bsum_le. intros i _. apply Zfloor_lb. }
    destruct (lay_times (INR (length w)) w PN (proj1 D) (length w) 0 FL) as [LL LT]. set (laid := lay _ _ _ _) in *.
    assert (LLE : (length laid <= length w)%nat) by (apply INR_le; rewrite LL; exact FL).
    assert (FS : INR (length w - length laid) = bsum (length w) (fraction w (length w))).
    { rewrite minus_INR, LL by exact LLE. transitivity (bsum (length w) (fun i => INR (length w) * weight w i) - bsum (length w) (fun i => IZR (Zfloor (INR (length w) * weight w i)))); [lra|]. rewrite <- bsum_minus. reflexivity. }
    change (fun i => INR (length w) * weight w i - IZR (Zfloor (INR (length w) * weight w i))) with (fraction w (length w)). rewrite <- FS.
    destruct (draws_spec next_unit (length w - length laid) g) as (A1 & A2 & A3). destruct (draws _ _ _) as [os g1]. cbn [fst snd] in *.
    set (c := INR (length w)). set (s := INR (length w - length laid)) in *.
    exists laid, (map (draw_from_remainders w c s) os), g1. split; [reflexivity|]. rewrite app_length, !map_length, A1.
    split; [lia|]. split; [|split; [reflexivity|split; [exact A2|]]].
    - intros i Hi. split; [apply (LT i Hi)|]. unfold picked. rewrite count_occ_app. apply le_INR. lia.
    - intros k Hk. rewrite (nth_indep _ 0%nat (draw_from_remainders w c s 0)) by (rewrite map_length; lia). rewrite map_nth, A3 by exact Hk.
      set (d := nth_draw next_unit k g). assert (DR : 0 <= d < 1) by apply U. assert (SP : 0 < s) by (apply lt_0_INR; lia).
      pose proof (reach_spec (map (fun x => ((c * x - floor (c * x)) / s)%num) w) 0 zero d (fun i => fraction w (length w) i / s) eq_refl) as RS.
      rewrite map_length in RS. specialize (RS ltac:(intros j Hj; rewrite (nth_indep _ 0 ((fun x : R => ((c * x - floor (c * x)) / s)%num) 0)) by (rewrite map_length; exact Hj); rewrite (map_nth (fun x : R => ((c * x - floor (c * x)) / s)%num)); reflexivity) ltac:(intros; lia)).
      unfold draw_from_remainders. destruct (reach _ _ _ _) as [i|]; [exact RS|]. exfalso. specialize (RS (length w - 1)%nat ltac:(cbn; lia)).
      replace (S (length w - 1)) with (length w) in RS by lia.
      rewrite (bsum_ext _ _ (fun i => / s * fraction w (length w) i)) in RS by (intros; unfold Rdiv; ring). rewrite bsum_scal, <- FS in RS.
      rewrite Rinv_l in RS by lra. lra.
  Qed.

  (** A source of weight zero is never picked by the evenly spaced and the stratified scheme, and by the others only on a draw of
      exactly zero. *)
Theorem C138_zero_weight_partial w g indices l g' i k scheme : distribution w -> in_unit -> length indices = length w ->
    resample_indices next_unit scheme w g indices = Some (l, g') -> (k < length w)%nat -> nth k l 0%nat = i -> weight w i = 0 ->
    (scheme = Multinomial \/ scheme = Residual) /\ i = 0%nat /\ exists j, nth_draw next_unit j g = 0.
  Proof.
    intros D U L E Hk <- Z. set (i := nth k l 0%nat) in *.
    assert (nof : forall x, ~ falls_on w x i). { intros x (_ & A & B). rewrite before_S, Z in B. lra. }
    assert (nor : forall (v : nat -> R) n x, v i = 0 -> first_to_reach v n x i -> 0 <= x -> i = 0%nat /\ x = 0).
    { intros v n x V (A & B & C) X. destruct i as [|i']; [split; [reflexivity|]; cbn in B; rewrite V in B; lra|].
      specialize (C i' ltac:(lia)). cbn [bsum] in B, C. rewrite V in B. lra. }
    destruct scheme.
    - destruct (C138_systematic w g indices D U L) as (l' & g'' & E' & _ & F & _). rewrite E in E'. injection E' as <- <-. destruct (nof _ (F k Hk)).
    - destruct (C138_stratified w g indices D U L) as (l' & g'' & E' & _ & F & _). rewrite E in E'. injection E' as <- <-. destruct (nof _ (F k Hk)).
    - destruct (C138_multinomial w g indices D U L) as (l' & g'' & E' & _ & F). rewrite E in E'. injection E' as <- <-.
      destruct (nor _ _ _ Z (F k Hk) (proj1 (U _))) as [A B]. eauto.
    - destruct (C138_residual w g indices D U L) as (laid & drawn & g'' & E' & LE & LA & _ & _ & F). rewrite E in E'. injection E' as -> _.
      destruct (not_empty w D) as [_ P].
      destruct (Nat.lt_ge_cases k (length laid)) as [H|H].
      + exfalso. assert (In i laid) by (unfold i; rewrite app_nth1 by exact H; apply nth_In; exact H).
        assert (Hi : (i < length w)%nat).
        { destruct (C138_in_range R Rnum Rng next_unit Residual w g indices) as [_ Q]. destruct (Q (proj1 (not_empty w D)) (eq_sym L)) as (l2 & g2 & E2 & _ & FA & _).
          rewrite E in E2. injection E2 as <- _. rewrite Forall_forall in FA. apply FA. apply in_or_app. auto. }
        destruct (LA i Hi) as [Q _]. unfold share in Q. rewrite Z, Rmult_0_r, Zfloor_IZR in Q.
        apply (count_occ_In Nat.eq_dec) in H0. unfold picked in Q. apply INR_eq with (m := 0%nat) in Q. lia.
      + rewrite app_length in LE. assert (EI : i = nth (k - length laid) drawn 0%nat) by (unfold i; apply app_nth2; exact H).
        pose proof (F (k - length laid)%nat ltac:(lia)) as FF. rewrite <- EI in FF.
        destruct (nor (fun i => fraction w (length w) i / INR (length drawn)) _ _ ltac:(cbv beta; unfold fraction, share; rewrite Z, Rmult_0_r, Zfloor_IZR; unfold Rdiv; ring) FF (proj1 (U _))) as [A B]. eauto.
  Qed.
End Picks.

(** On average over the offset, the evenly spaced picks hold each source exactly its share of times. *)
Theorem C138_unbiased w i : distribution w -> (i < length w)%nat ->
  is_RInt (fun offset => match resample_indices (fun _ : unit => (offset, tt)) Systematic w tt (repeat O (length w)) with Some (l, _) => picked l i | None => 0 end) 0 1 (share w (length w) i).
Proof.
  intros D Hi. destruct (not_empty w D) as [N P].
  assert (E : share w (length w) i = minus (INR (length w) * before w (S i)) (INR (length w) * before w i)) by (unfold share, minus, plus, opp; cbn -[before]; rewrite before_S; ring).
  rewrite E. apply (is_RInt_ext (fun u => minus (IZR (Zceil (INR (length w) * before w (S i) - u))) (IZR (Zceil (INR (length w) * before w i - u))))).
  2: { apply (is_RInt_minus (V := R_NormedModule)); apply ceil_average. }
  rewrite Rmin_left, Rmax_right by lra. intros u Hu.
  assert (U : in_unit (fun _ : unit => (u, tt))) by (intros g; cbn; lra).
  destruct (C138_systematic (fun _ : unit => (u, tt)) w tt (repeat O (length w)) D U ltac:(apply repeat_length)) as (l & g' & -> & A & F & _).
  rewrite (times_between w l (fun k => (u + INR k) / INR (length w)) i D A); [|intros k Hk; apply F; lia|exact Hi].
  assert (Q : forall x, 0 <= x <= 1 -> IZR (Zceil (INR (length w) * x - u)) = INR (number (length w) (fun k => Rltb ((u + INR k) / INR (length w)) x))).
  { intros x Hx. rewrite (INR_IZR_INZ (number _ _)). f_equal. apply Zceil_imp. rewrite minus_IZR, <- INR_IZR_INZ.
    assert (R : INR (length w) * x - u <= INR (number (length w) (fun k => Rltb ((u + INR k) / INR (length w)) x)) < INR (length w) * x - u + 1); [|lra].
    apply number_even; [intros j Hj; rewrite Rltb_true; apply position_below; exact P|]. assert (0 <= INR (length w)) by apply pos_INR. nra. }
  rewrite !Q by (apply before_one; [exact D|lia]). reflexivity.
Qed.

(** With the independent and the residual picks, a draw of zero picks the first source even when its weight is zero. *)
Theorem C138_zero_weight_refuted : ~ forall (scheme : ResamplingScheme) (w : list R) (next_unit : unit -> R * unit) indices l g' i,
  distribution w -> in_unit next_unit -> length indices = length w -> resample_indices next_unit scheme w tt indices = Some (l, g') -> weight w i = 0 -> ~ In i l.
Proof.
  intros H. assert (D : distribution [0; 1]).
  { split; [intros [|[|[|i]]]; unfold weight; cbn; lra|cbn; unfold weight; cbn; ring]. }
  assert (R1 : @resample_indices R Rnum unit (fun _ => (0, tt)) Multinomial [0; 1] tt [0; 0]%nat = Some ([0; 0]%nat, tt)).
  { cbn. unfold draw_from_weights. cbn. destruct (Rleb 0 (0 + 0)) eqn:E; [reflexivity|apply Rleb_false in E; lra]. }
  apply (H Multinomial [0; 1] (fun _ => (0, tt)) [0; 0]%nat [0; 0]%nat tt 0%nat D ltac:(intros g; cbn; lra) eq_refl R1 eq_refl). left. reflexivity.
Qed.

Definition half_unit : unit -> R * unit := fun _ => (1/2, tt).
Example C138_example : distribution [1/2; 0; 1/4; 1/4] /\ in_unit half_unit /\
  exists l, resample_indices half_unit Systematic [1/2; 0; 1/4; 1/4] tt [0; 0; 0; 0]%nat = Some (l, tt) /\ picked l 0 = 2 /\ picked l 1 = 0.
Proof.
  assert (D : distribution [1/2; 0; 1/4; 1/4]).
  { split; [intros [|[|[|[|[|i]]]]]; unfold weight; cbn; lra|cbn; unfold weight; cbn; lra]. }
  assert (U : in_unit half_unit) by (intros g; unfold half_unit; cbn; lra).
  split; [exact D|]. split; [exact U|]. destruct (C138_systematic half_unit _ tt [0; 0; 0; 0]%nat D U eq_refl) as (l & [] & A & L & F & _).
  assert (pick : forall k i, (k < 4)%nat -> falls_on [1/2; 0; 1/4; 1/4] ((1/2 + INR k) / INR 4) i -> nth k l 0%nat = i).
  { intros k i Hk Q. apply (falls_unique _ _ _ _ (proj1 D) (F k Hk) Q). }
  exists l. split; [exact A|].
  assert (P0 : nth 0 l 0%nat = 0%nat) by (apply pick; [lia|]; unfold falls_on, before; split; [cbn; lia|]; cbn; unfold weight; cbn; lra).
  assert (P1 : nth 1 l 0%nat = 0%nat) by (apply pick; [lia|]; unfold falls_on, before; split; [cbn; lia|]; cbn; unfold weight; cbn; lra).
  assert (P2 : nth 2 l 0%nat = 2%nat) by (apply pick; [lia|]; unfold falls_on, before; split; [cbn; lia|]; cbn; unfold weight; cbn; lra).
  assert (P3 : nth 3 l 0%nat = 3%nat) by (apply pick; [lia|]; unfold falls_on, before; split; [cbn; lia|]; cbn; unfold weight; cbn; lra).
  destruct l as [|a [|b [|c [|d [|e l]]]]]; try discriminate L. cbn in P0, P1, P2, P3. subst. unfold picked. cbn. lra.
Qed.

Print Assumptions C138_in_range.
Print Assumptions C138_systematic.
Print Assumptions C138_stratified.
Print Assumptions C138_multinomial.
Print Assumptions C138_residual.
Print Assumptions C138_zero_weight_partial.
Print Assumptions C138_unbiased.
Print Assumptions C138_zero_weight_refuted.
Print Assumptions C138_example.
