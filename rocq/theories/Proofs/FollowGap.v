(** Lemmas behind Props/FollowGap.v. *)
From Coq Require Import ZArith List Bool Arith Reals Lra Lia.
From Verif Require Import Base.Scalar Base.RNum Base.XNum Model.Errors Model.Mapping Model.FollowGap Spec.Gap.
Import ListNotations.
Local Open Scope R_scope.

(** A follower whose fields are these settings. *)
Definition settings_of (n : nat) (c : Follower XR) (k : settings) : Prop :=
  beams k = n /\ fg_field_of_view c = Fin (field_of_view k) /\ fg_maximum_range c = Fin (maximum_range k) /\
  fg_chassis_width c = Fin (chassis_width k) /\ fg_free_range_threshold c = Fin (free_range_threshold k) /\
  fg_cruise_speed c = Fin (cruise_speed k) /\ fg_steering_gain c = Fin (steering_gain k) /\
  fg_goal_bias c = Fin (goal_bias k) /\ fg_stopping_distance c = Fin (stopping_distance k) /\
  fg_clear_distance c = Fin (clear_distance k) /\ fg_frontal_half_angle c = Fin (frontal_half_angle k).
Definition valid (k : settings) : Prop :=
  (2 <= beams k)%nat /\ 0 < field_of_view k <= 2 * PI /\ 0 < free_range_threshold k <= maximum_range k /\
  0 < chassis_width k < 2 * maximum_range k /\ 0 < cruise_speed k /\ 0 < steering_gain k /\ 0 <= goal_bias k /\
  0 <= stopping_distance k < clear_distance k /\ 0 < frontal_half_angle k <= field_of_view k / 2.

Lemma distance_cosines a b al be :
  distance (a * Rtrigo_def.cos al, a * Rtrigo_def.sin al) (b * Rtrigo_def.cos be, b * Rtrigo_def.sin be) =
  R_sqrt.sqrt (Rmax (a * a + b * b - 2 * a * b * Rtrigo_def.cos (be - al)) 0).
Proof.
  unfold distance. cbn [fst snd]. rewrite cos_minus.
  pose proof (sin2_cos2 al) as A. pose proof (sin2_cos2 be) as B. unfold Rsqr in *.
  set (x := Rtrigo_def.cos al) in *. set (y := Rtrigo_def.sin al) in *. set (u := Rtrigo_def.cos be) in *. set (v := Rtrigo_def.sin be) in *.
  assert (E : a * a + b * b - 2 * a * b * (u * x + v * y) =
              (a * x - b * u) * (a * x - b * u) + (a * y - b * v) * (a * y - b * v)).
  { transitivity (a * a * (y * y + x * x) + b * b * (v * v + u * u) - 2 * a * b * (u * x + v * y)); [rewrite A, B; ring | ring]. }
  rewrite E. rewrite Rmax_left; [reflexivity |].
  pose proof (Rle_0_sqr (a * x - b * u)). pose proof (Rle_0_sqr (a * y - b * v)). unfold Rsqr in *. lra.
Qed.

Section Follow.
  Context (n : nat) (c : Follower XR) (k : settings) (scan : list XR) (goal : R).
  Hypothesis Hs : settings_of n c k.
  Hypothesis Hv : valid k.

  Notation seen := (seen k scan).
  Notation direction := (direction k).
  Notation open := (open k scan).
  Notation admissible := (admissible k scan).
  Notation aim := (aim k scan goal).
  Notation score := (score k scan goal).

  Ltac fields := destruct Hs as (Ebeams & Efov & Emax & Ech & Eth & Ecr & Egain & Ebias & Estop & Eclear & Efront).

  Lemma open_dec i : {open i} + {~ open i}.
  Proof.
    unfold Gap.open. destruct (lt_dec i (beams k)) as [H |]; [| right; tauto].
    destruct (Rle_dec (free_range_threshold k) (seen i)); [left | right]; tauto.
  Qed.
  Lemma seen_bounds i : 0 < seen i <= maximum_range k.
  Proof.
    destruct Hv as (_ & _ & V & _). unfold Gap.seen. destruct (nth_error scan i) as [[r | | |] |]; try lra.
    destruct (Rlt_dec 0 r); [| lra]. unfold Rmin. destruct (Rle_dec _ _); lra.
  Qed.
  Lemma sanitized_ok i : sanitized_range c scan i = Fin (seen i).
  Proof.
    fields. unfold sanitized_range, Gap.seen. rewrite Emax. destruct (nth_error scan i) as [[r | | |] |]; try reflexivity.
    cbn [is_finite Xnum andb ltb zero xlt]. unfold Rltb. destruct (Rlt_dec 0 r); [| reflexivity].
    exact (xmin_fin r (maximum_range k)).
  Qed.
  Lemma angle_ok i : beam_angle_unchecked n c i = Fin (direction i).
  Proof.
    fields. destruct Hv as (V & _). unfold beam_angle_unchecked, beam_angle_across, Gap.direction, of_nat. rewrite Efov, Ebeams in *.
    assert (1 < INR n). { pose proof (le_INR 2 n V). cbn in *. lra. }
    change (xadd (xmul (xneg (Fin (field_of_view k))) (Fin (/2)))
       (xdiv (Fin (field_of_view k * IZR (Z.of_nat i))) (Fin (IZR (Z.of_nat (n - 1))))) =
       Fin (- (field_of_view k / 2) + field_of_view k * INR i / (INR n - 1))).
    rewrite <- !INR_IZR_INZ, minus_INR by lia. cbn [INR].
    rewrite xdiv_fin by lra. cbn. f_equal. field. lra.
  Qed.
  Lemma direction_mono i j : (i < j)%nat -> direction i < direction j.
  Proof.
    intros H. destruct Hv as (V & F & _). unfold Gap.direction. pose proof (le_INR 2 _ V) as L. cbn in L. apply lt_INR in H.
    assert (field_of_view k * INR i / (INR (beams k) - 1) < field_of_view k * INR j / (INR (beams k) - 1)); [| lra].
    unfold Rdiv. apply Rmult_lt_compat_r; [apply Rinv_0_lt_compat; lra |]. apply Rmult_lt_compat_l; lra.
  Qed.
  Lemma margin_pos i : 0 < margin k scan i < PI / 2.
  Proof.
    unfold margin. pose proof (seen_bounds i). destruct Hv as (_ & _ & _ & V & _).
    assert (0 < chassis_width k / 2 / seen i) by (apply Rdiv_lt_0_compat; lra).
    pose proof (atan_bound (chassis_width k / 2 / seen i)). split; [| lra].
    rewrite <- atan_0. apply atan_increasing. assumption.
  Qed.

  Lemma free_ok i : Nat.ltb i n && leb (fg_free_range_threshold c) (sanitized_range c scan i) = true <-> open i.
  Proof.
    rewrite sanitized_ok. fields. rewrite Eth. cbn [leb Xnum xle]. unfold Gap.open. rewrite Ebeams.
    rewrite andb_true_iff, Nat.ltb_lt. unfold Rleb. destruct (Rle_dec _ _); split; intros [A B]; try discriminate; try tauto.
  Qed.
  Lemma width_ok s e :
    match gap_width n c scan s e with Some width => ltb width (fg_chassis_width c) | None => false end = false
    <-> fits k scan s e.
  Proof.
    unfold gap_width, fits. destruct s as [| before]; cbn [checked_pred].
    { split; auto. intros _ b Hb. discriminate. }
    unfold next_beam. fields. rewrite <- Ebeams. destruct (Nat.ltb_spec (S e) (beams k)) as [L | L].
    2:{ split; auto. intros _ b _ H. lia. }
    rewrite Ebeams, !sanitized_ok, !angle_ok, Ech.
    set (d1 := direction before). set (d2 := direction (S e)).
    assert (E : ltb (sqrt (max (sub (add (mul (Fin (seen before)) (Fin (seen before))) (mul (Fin (seen (S e))) (Fin (seen (S e)))))
        (mul (mul (mul two (Fin (seen before))) (Fin (seen (S e)))) (cos (sub (Fin d2) (Fin d1))))) zero)) (Fin (chassis_width k))
      = Rltb (distance (obstacle k scan before) (obstacle k scan (S e))) (chassis_width k)).
    { unfold obstacle. fold d1 d2. rewrite distance_cosines.
      set (q := seen before * seen before + seen (S e) * seen (S e) - 2 * seen before * seen (S e) * Rtrigo_def.cos (d2 - d1)).
      change (xlt (xsqrt (xmax (Fin q) (Fin 0))) (Fin (chassis_width k)) = Rltb (R_sqrt.sqrt (Rmax q 0)) (chassis_width k)).
      rewrite xmax_fin. unfold xsqrt. destruct (Rlt_dec (Rmax q 0) 0) as [B |]; [| reflexivity].
      pose proof (Rmax_r q 0). lra. }
    cbv zeta. rewrite E. split.
    - intros H b Hb _. injection Hb as ->. rcases. lra.
    - intros H. specialize (H before eq_refl ltac:(lia)). unfold Rltb. destruct (Rlt_dec _ _); [lra | reflexivity].
  Qed.
  Lemma bounds_ok s e : aim_bounds n c scan s e = (Fin (low k scan s), Fin (high k scan e)).
  Proof.
    unfold aim_bounds, low, high, next_beam, margin. fields. rewrite Ech, !angle_ok, <- Ebeams.
    assert (I : forall i, atan (div (mul (Fin (chassis_width k)) half) (sanitized_range c scan i)) =
                Fin (Ratan.atan (chassis_width k / 2 / seen i))).
    { intros i. rewrite sanitized_ok. pose proof (seen_bounds i).
      change (lift Ratan.atan (Fin (- (PI / 2))) (Fin (PI / 2)) (xdiv (Fin (chassis_width k * / 2)) (Fin (seen i))) =
              Fin (Ratan.atan (chassis_width k / 2 / seen i))).
      rewrite xdiv_fin by lra. reflexivity. }
    f_equal.
    - destruct s as [| b]; cbn [checked_pred]; [| rewrite I; reflexivity]. cbn. f_equal. ring.
    - destruct (Nat.ltb (S e) (beams k)); [rewrite I; reflexivity |]. cbn. f_equal. ring.
  Qed.
  Lemma aim_ok s e :
    (if ltb (Fin (high k scan e)) (Fin (low k scan s))
     then mul (add (beam_angle_unchecked n c s) (beam_angle_unchecked n c e)) half
     else min (max (Fin goal) (Fin (low k scan s))) (Fin (high k scan e))) = Fin (aim s e).
  Proof.
    rewrite !angle_ok. cbn [ltb Xnum xlt]. unfold Gap.aim, Rltb. destruct (Rlt_dec _ _), (Rle_dec _ _); try lra.
    - reflexivity.
    - change (xmin (xmax (Fin goal) (Fin (low k scan s))) (Fin (high k scan e)) = Fin (Rmin (Rmax goal (low k scan s)) (high k scan e))).
      rewrite xmax_fin, xmin_fin. reflexivity.
  Qed.
  Lemma score_ok s e :
    sub (max (sub (Fin (high k scan e)) (Fin (low k scan s))) zero)
        (mul (fg_goal_bias c) (abs (sub (Fin (aim s e)) (Fin goal)))) = Fin (score s e).
  Proof.
    fields. rewrite Ebias.
    change (xadd (xmax (Fin (high k scan e - low k scan s)) (Fin 0)) (xneg (Fin (goal_bias k * Rabs (aim s e - goal)))) = Fin (score s e)).
    rewrite xmax_fin. reflexivity.
  Qed.

  (** the chosen gap beats the other *)
  Definition better (s e s' e' : nat) : Prop :=
    score s' e' < score s e \/
    (score s' e' = score s e /\
       (Rabs (aim s e) < Rabs (aim s' e') \/ (Rabs (aim s e) = Rabs (aim s' e') /\ (s <= s')%nat))).

  Definition inv (m : nat) (w : Sweep) : Prop :=
    match sw_run_start w with
    | Some s => (s < m)%nat /\ (forall i, (s <= i < m)%nat -> open i) /\ (forall i, S i = s -> ~ open i)
    | None => forall i, S i = m -> ~ open i
    end /\
    match sw_best_gap w with
    | None => forall s e, admissible s e -> (S e < m)%nat -> False
    | Some (s, e, a) =>
        admissible s e /\ (S e < m)%nat /\ a = Fin (aim s e) /\ sw_best_score w = Fin (score s e) /\
        forall s' e', admissible s' e' -> (S e' < m)%nat -> better s e s' e'
    end.

  Lemma gap_unique s s' e : gap k scan s e -> gap k scan s' e -> s = s'.
  Proof.
    intros (B & O & L & _) (B' & O' & L' & _). destruct (lt_eq_lt_dec s s') as [[H | H] | H]; [| exact H |]; exfalso.
    - destruct s' as [| p]; [lia |]. apply (L' p eq_refl). apply O. lia.
    - destruct s as [| p]; [lia |]. apply (L p eq_refl). apply O'. lia.
  Qed.

  Lemma step_ok m w : (m <= n)%nat -> inv m w -> inv (S m) (sweep_step n c scan (Fin goal) w m).
  Proof.
    intros Hm [R B]. unfold sweep_step.
    assert (FREE := free_ok m).
    destruct (Nat.ltb m n && leb (fg_free_range_threshold c) (sanitized_range c scan m)) eqn:Fr.
    - (* open beam: nothing ends here *)
      assert (Om : open m) by (apply FREE; reflexivity).
      assert (BB : match sw_best_gap w with
        | None => forall s e, admissible s e -> (S e < S m)%nat -> False
        | Some (s, e, a) => admissible s e /\ (S e < S m)%nat /\ a = Fin (aim s e) /\ sw_best_score w = Fin (score s e) /\
           forall s' e', admissible s' e' -> (S e' < S m)%nat -> better s e s' e' end).
      { assert (X : forall s e, admissible s e -> (S e < S m)%nat -> (S e < m)%nat).
        { intros s e [(_ & _ & _ & G) _] H. destruct (Nat.eq_dec (S e) m) as [E | E]; [| lia]. rewrite E in G. tauto. }
        destruct (sw_best_gap w) as [[[s e] a] |].
        - destruct B as (B1 & B2 & B3 & B4 & B5). split; [exact B1 |]. split; [lia |]. split; [exact B3 |]. split; [exact B4 |]. intros. apply B5; eauto.
        - intros s e A H. apply (B s e); eauto. }
      destruct (sw_run_start w) as [s |] eqn:RS.
      + split; [| exact BB]. rewrite RS. destruct R as (R1 & R2 & R3). split; [lia |]. split; [| exact R3].
        intros i Hi. destruct (Nat.eq_dec i m) as [-> |]; [exact Om | apply R2; lia].
      + split; [| exact BB]. cbn [sw_run_start]. split; [lia |]. split; [| exact R].
        intros i Hi. replace i with m by lia. exact Om.
    - assert (Cm : ~ open m). { intros H. apply FREE in H. discriminate. }
      destruct (sw_run_start w) as [s |] eqn:RS.
      + (* the stretch [s, m-1] ends *)
        destruct R as (R1 & R2 & R3). destruct m as [| e]; [lia |]. cbn [Nat.pred].
        assert (G : gap k scan s e).
        { split; [| split; [| split; auto]].
          - split; [lia |]. apply (R2 e). lia.
          - intros i Hi. apply R2. lia. }
        assert (U : forall s' e', admissible s' e' -> (S e' < S (S e))%nat -> (S e' < S e)%nat \/ (s' = s /\ e' = e)).
        { intros s' e' A H. destruct (Nat.eq_dec e' e) as [-> |]; [right | left; lia]. split; auto.
          apply (gap_unique s' s e); [apply A | exact G]. }
        set (w0 := {| sw_best_score := _; sw_best_gap := _; sw_run_start := None |}).
        assert (KEEP : (forall s' e', admissible s' e' -> s' = s /\ e' = e ->
                 match sw_best_gap w with None => False | Some (s1, e1, _) => better s1 e1 s e end) -> inv (S (S e)) w0).
        { intros K. split; [cbn; intros i Hi; injection Hi as ->; exact Cm |]. cbn [sw_best_gap sw_best_score w0].
          destruct (sw_best_gap w) as [[[s1 e1] a] |].
          - destruct B as (B1 & B2 & B3 & B4 & B5). split; [exact B1 |]. split; [lia |]. split; [exact B3 |]. split; [exact B4 |].
            intros s' e' A H. destruct (U s' e' A H) as [L | [-> ->]]; [apply B5; auto | apply (K s e); auto].
          - intros s' e' A H. destruct (U s' e' A H) as [L | E]; [apply (B s' e'); auto | apply (K s' e'); auto]. }
        pose proof (width_ok s e) as W.
        destruct (match gap_width n c scan s e with Some width => ltb width (fg_chassis_width c) | None => false end) eqn:WE.
        { apply KEEP. intros s' e' A [-> ->]. exfalso. destruct A as [_ A]. apply W in A. discriminate. }
        assert (A0 : admissible s e) by (split; [exact G | apply W; reflexivity]).
        rewrite bounds_ok, aim_ok, score_ok. cbn [sw_best_gap sw_best_score w0].
        assert (NEW : (forall s' e', admissible s' e' -> (S e' < S e)%nat -> better s e s' e') ->
           inv (S (S e)) {| sw_best_score := Fin (score s e); sw_best_gap := Some (s, e, Fin (aim s e)); sw_run_start := None |}).
        { intros K. split; [cbn; intros i Hi; injection Hi as ->; exact Cm |]. cbn [sw_best_gap sw_best_score].
          split; [exact A0 |]. split; [lia |]. split; [reflexivity |]. split; [reflexivity |]. intros s' e' A H. destruct (U s' e' A H) as [L | [-> ->]]; [apply K; auto |].
          right. split; [reflexivity |]. right. auto. }
        destruct (sw_best_gap w) as [[[s1 e1] a] |] eqn:BG.
        * destruct B as (B1 & B2 & B3 & B4 & B5). rewrite B4, B3.
          assert (s1 <= s)%nat.
          { destruct B1 as [(Q1 & _ & _ & Q4) _]. destruct (le_lt_dec s (S e1)); [| lia]. exfalso. apply Q4, R2. lia. }
          cbn [ltb eqb abs Xnum xlt xeq lift].
          destruct (Rltb (score s1 e1) (score s e)) eqn:C1; cbn [orb].
          { apply NEW. rcases. intros s' e' A H'. left. destruct (B5 s' e' A H') as [P | [P _]]; lra. }
          destruct (Reqb (score s e) (score s1 e1)) eqn:C2; cbn [andb].
          { destruct (Rltb (Rabs (aim s e)) (Rabs (aim s1 e1))) eqn:C3.
            - apply NEW. rcases. intros s' e' A H'. destruct (B5 s' e' A H') as [P | [P [Q | [Q _]]]].
              + left. lra.
              + right. split; [lra |]. left. lra.
              + right. split; [lra |]. left. lra.
            - apply KEEP. intros s' e' A [-> ->]. rcases. right. split; [lra |].
              destruct (Rle_lt_or_eq_dec _ _ C3); [left; lra | right; split; [lra | exact H]]. }
          { apply KEEP. intros s' e' A [-> ->]. rcases. left. lra. }
        * apply NEW. intros s' e' A H. exfalso. exact (B s' e' A H).
      + (* blocked and no stretch open *)
        split; [rewrite RS; intros i Hi; injection Hi as ->; exact Cm |].
        assert (X : forall s e, admissible s e -> (S e < S m)%nat -> (S e < m)%nat).
        { intros s e [(G1 & G2 & _ & _) _] H. destruct (Nat.eq_dec (S e) m) as [E | E]; [| lia]. exfalso. apply (R e E). apply G2. lia. }
        destruct (sw_best_gap w) as [[[s e] a] |].
        * destruct B as (B1 & B2 & B3 & B4 & B5). split; [exact B1 |]. split; [lia |]. split; [exact B3 |]. split; [exact B4 |]. intros. apply B5; eauto.
        * intros s e A H. apply (B s e); eauto.
  Qed.

  Lemma sweep_ok m : (m <= S n)%nat ->
    inv m (fold_left (sweep_step n c scan (Fin goal)) (seq 0 m)
       {| sw_best_score := NInf; sw_best_gap := None; sw_run_start := None |}).
  Proof.
    induction m as [| m IH]; intros H.
    - split; cbn; [intros; discriminate |]. intros. lia.
    - rewrite seq_S, fold_left_app. cbn [fold_left plus]. apply step_ok; [lia | apply IH; lia].
  Qed.

  (** the smallest cleaned reading among the beams that count *)
  Lemma smallest_ok (P : nat -> Prop) (p : nat -> bool) m :
    (forall i, p i = true <-> P i) ->
    exists v, fold_left (fun m index => let range := sanitized_range c scan index in
                 if p index && ltb range m then range else m) (seq 0 m) (fg_maximum_range c) = Fin v /\
      v <= maximum_range k /\ (forall i, (i < m)%nat -> P i -> v <= seen i) /\
      (v = maximum_range k \/ exists i, (i < m)%nat /\ P i /\ v = seen i).
  Proof.
    intros HP. fields. induction m as [| m IH].
    - exists (maximum_range k). cbn. rewrite Emax. repeat split; [lra | intros; lia | auto].
    - rewrite seq_S, fold_left_app. destruct IH as (v & -> & V0 & V1 & V2). cbn [fold_left plus]. rewrite sanitized_ok.
      cbn [ltb Xnum xlt]. destruct (p m) eqn:Pm; cbn [andb].
      + apply HP in Pm. destruct (Rltb (seen m) v) eqn:C; rcases.
        * exists (seen m). pose proof (seen_bounds m). repeat split; [lra | | right; exists m; repeat split; auto].
          intros i Hi Pi. destruct (Nat.eq_dec i m) as [-> |]; [lra |]. specialize (V1 i ltac:(lia) Pi). lra.
        * exists v. repeat split; auto.
          -- intros i Hi Pi. destruct (Nat.eq_dec i m) as [-> |]; [lra |]. apply V1; auto. lia.
          -- destruct V2 as [E | (i & Hi & Q)]; [left; exact E | right; exists i; split; [lia | exact Q]].
      + exists v. repeat split; auto.
        * intros i Hi Pi. destruct (Nat.eq_dec i m) as [-> |]; [apply HP in Pi; congruence |]. apply V1; auto. lia.
        * destruct V2 as [E | (i & Hi & Q)]; [left; exact E | right; exists i; split; [lia | exact Q]].
  Qed.
End Follow.
