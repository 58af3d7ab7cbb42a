(** Lemmas for C138: the walk along the weights, counting picks, the pieces of the residual scheme. *)
From Coq Require Import ZArith Reals List Bool Arith Lia Lra Sorting.
From Flocq Require Import Core.Raux.
From Coquelicot Require Import Hierarchy RInt Rcomplements.
From Verif Require Import Base.Scalar Base.Lists Base.RNum Base.Series Model.Errors Model.Vector Model.Matrix Model.ParticleFilter Spec.Particles.
Import ListNotations.
Local Open Scope R_scope.

(** ** Any scalar: the indices are in range *)
Section AnyScalar.
  Context {T : Type} {NT : Num T} {Rng : Type}.
  Variable next_unit : Rng -> T * Rng.

  Lemma draws_spec draw count : forall g : Rng, length (fst (draws draw count g)) = count /\ snd (draws draw count g) = later draw count g /\
    forall k (d : T), (k < count)%nat -> nth k (fst (draws draw count g)) d = nth_draw draw k g.
  Proof.
    assert (LS : forall k g, later draw (S k) g = later draw k (snd (draw g))).
    { induction k; intros g; [reflexivity|]. change (later draw (S (S k)) g) with (snd (draw (later draw (S k) g))). rewrite IHk. reflexivity. }
    induction count as [|c IH]; intros g; [repeat split; intros; lia|]. cbn [draws].
    destruct (draw g) as [x g1] eqn:E. destruct (IH g1) as (L & S' & N). destruct (draws draw c g1) as [xs g2] eqn:E2. cbn [fst snd] in *.
    assert (G1 : g1 = snd (draw g)) by (rewrite E; reflexivity).
    split; [cbn; lia|]. split; [rewrite LS, <- G1; exact S'|]. intros [|k] d Hk; [cbn; unfold nth_draw; cbn; rewrite E; reflexivity|].
    cbn [nth]. rewrite N by lia. unfold nth_draw. rewrite LS, <- G1. reflexivity.
  Qed.

  Lemma advance_range fuel : forall count (weights : list T) p source running, length weights = count -> (source < count)%nat ->
    exists s r, advance fuel count weights p source running = Some (s, r) /\ (source <= s < count)%nat.
  Proof.
    induction fuel as [|fuel IH]; intros count weights p source running L Hs; cbn [advance]; [eauto|].
    destruct (p >=? running)%num; cbn [andb]; [|eauto]. destruct (Nat.ltb_spec (source + 1) count) as [H|H]; [|eauto].
    destruct (nth_error weights (source + 1)) as [w|] eqn:E; [|apply nth_error_None in E; lia].
    destruct (IH count weights p (source + 1)%nat (running + w)%num L H) as (s & r & A & B). exists s, r. split; [exact A|lia].
  Qed.

  Lemma walk_range offsets : forall count (weights : list T) step source running, length weights = count -> (source < count)%nat ->
    exists l, walk count weights offsets step source running = Some l /\ length l = length offsets /\
      Forall (fun i => (source <= i < count)%nat) l /\ StronglySorted le l.
  Proof.
    induction offsets as [|o offsets IH]; intros count weights step source running L Hs; cbn [walk]; [exists []; repeat split; constructor|].
    destruct (advance_range count count weights ((o + of_nat step) / of_nat count)%num source running L Hs) as (s & r & -> & B).
    destruct (IH count weights (S step) s r L ltac:(lia)) as (l & -> & A & F & O). exists (s :: l).
    split; [reflexivity|]. split; [cbn; lia|]. split; [constructor; [lia|]; revert F; apply Forall_impl; intros; lia|].
    constructor; [exact O|]. revert F. apply Forall_impl. intros; lia.
  Qed.

  Lemma reach_range steps : forall source running (d : T) i, reach steps source running d = Some i -> (source <= i < source + length steps)%nat.
  Proof.
    induction steps as [|s steps IH]; intros source running d i H; cbn [reach length] in *; [discriminate|].
    destruct (running + s >=? d)%num; [injection H as <-; lia|]. apply IH in H. lia.
  Qed.
  Lemma draw_weights_range (weights : list T) d : weights <> [] -> (draw_from_weights weights d < length weights)%nat.
  Proof.
    intros N. unfold draw_from_weights. destruct (reach _ _ _ _) eqn:E; [apply reach_range in E; lia|]. destruct weights; [congruence|cbn; lia].
  Qed.
  Lemma draw_remainders_range (weights : list T) c r d : weights <> [] -> (draw_from_remainders weights c r d < length weights)%nat.
  Proof.
    intros N. unfold draw_from_remainders. destruct (reach _ _ _ _) eqn:E; [apply reach_range in E; rewrite map_length in E; lia|]. destruct weights; [congruence|cbn; lia].
  Qed.

  Lemma copies_room room : forall laid target : T, (copies room laid target <= room)%nat.
  Proof. induction room; intros; cbn; [lia|]. destruct (_ <? _)%num; [|lia]. specialize (IHroom (laid + one)%num target). lia. Qed.
  Lemma lay_range c (weights : list T) : forall room source, (length (lay c room weights source) <= room)%nat /\
    Forall (fun i => (source <= i < source + length weights)%nat) (lay c room weights source).
  Proof.
    induction weights as [|w weights IH]; intros room source; cbn [lay length]; [split; [lia|constructor]|].
    set (k := copies _ _ _). assert (K : (k <= room)%nat) by apply copies_room.
    destruct (IH (room - k)%nat (S source)) as [A B]. split; [rewrite app_length, repeat_length; lia|].
    apply Forall_app. split; [apply Forall_forall; intros i Hi; apply repeat_spec in Hi; lia|].
    revert B. apply Forall_impl. intros; lia.
  Qed.

  Lemma indices_total scheme (weights : list T) g indices : weights <> [] -> length weights = length indices ->
    exists l g', resample_indices next_unit scheme weights g indices = Some (l, g') /\ length l = length indices /\
      Forall (fun i => (i < length weights)%nat) l /\
      (scheme = Systematic \/ scheme = Stratified -> StronglySorted le l) /\
      exists k, g' = later next_unit k g /\ match scheme with Systematic => k = 1%nat | Stratified | Multinomial => k = length indices | Residual => (k <= length indices)%nat end.
  Proof.
    intros N L. unfold resample_indices. destruct weights as [|w0 ws] eqn:EW; [congruence|]. rewrite <- EW in *. clear EW w0 ws.
    assert (P : (0 < length indices)%nat) by (destruct weights; [congruence|cbn in L; lia]).
    destruct scheme.
    - unfold systematic. destruct (next_unit g) as [o g1] eqn:E.
      destruct (walk_range (repeat o (length indices)) (length indices) weights 0 0 (vget weights 0) L P) as (l & -> & A & F & O).
      rewrite repeat_length in A. exists l, g1. split; [reflexivity|]. split; [exact A|]. split; [revert F; apply Forall_impl; intros; lia|]. split; [auto|].
      exists 1%nat. cbn. rewrite E. auto.
    - unfold stratified. destruct (draws_spec next_unit (length indices) g) as (A1 & A2 & _). destruct (draws _ _ _) as [os g1]. cbn [fst snd] in *.
      destruct (walk_range os (length indices) weights 0 0 (vget weights 0) L P) as (l & -> & A & F & O).
      exists l, g1. split; [reflexivity|]. split; [lia|]. split; [revert F; apply Forall_impl; intros; lia|]. split; [auto|]. eauto.
    - unfold multinomial. destruct (draws_spec next_unit (length indices) g) as (A1 & A2 & _). destruct (draws _ _ _) as [os g1]. cbn [fst snd] in *.
      eexists _, _. split; [reflexivity|]. split; [rewrite map_length; exact A1|]. split; [|split; [intros [D|D]; discriminate|eauto]].
      apply Forall_forall. intros i Hi. apply in_map_iff in Hi as (d & <- & _). apply draw_weights_range. exact N.
    - unfold residual. set (c := of_nat _). destruct (lay_range c weights (length indices) 0) as [LA LB]. set (laid := lay _ _ _ _) in *.
      destruct (draws_spec next_unit (length indices - length laid) g) as (A1 & A2 & _). destruct (draws _ _ _) as [os g1]. cbn [fst snd] in *.
      eexists _, _. split; [reflexivity|]. split; [rewrite app_length, map_length; lia|]. split; [|split; [intros [D|D]; discriminate|]].
      + apply Forall_app. split; [revert LB; apply Forall_impl; intros; lia|].
        apply Forall_forall. intros i Hi. apply in_map_iff in Hi as (d & <- & _). apply draw_remainders_range. exact N.
      + eexists. split; [exact A2|lia].
  Qed.
End AnyScalar.

(** ** Exact arithmetic: where the walk stops *)
Lemma of_nat_R n : @of_nat R Rnum n = INR n. Proof. unfold of_nat. cbn. symmetry. apply INR_IZR_INZ. Qed.
Lemma weight_out w i : (length w <= i)%nat -> weight w i = 0.
Proof. intros H. apply nth_overflow. exact H. Qed.
Lemma before_S w i : before w (S i) = before w i + weight w i. Proof. reflexivity. Qed.
Lemma before_mono w i j : (forall k, 0 <= weight w k) -> (i <= j)%nat -> before w i <= before w j.
Proof. intros W H. induction H; [lra|]. rewrite before_S. specialize (W m). lra. Qed.
Lemma before_one w i : distribution w -> (i <= length w)%nat -> 0 <= before w i <= 1.
Proof. intros [W S] H. split; [apply (before_mono w 0 i W); lia|]. rewrite <- S. apply (before_mono w i (length w) W H). Qed.
Lemma falls_unique w x i j : (forall k, 0 <= weight w k) -> falls_on w x i -> falls_on w x j -> i = j.
Proof.
  intros W (A & B & C) (D & E & F). destruct (Nat.lt_trichotomy i j) as [H|[H|H]]; auto; exfalso.
  - pose proof (before_mono w (S i) j W ltac:(lia)). lra.
  - pose proof (before_mono w (S j) i W ltac:(lia)). lra.
Qed.

Lemma advance_falls w p : distribution w -> p < 1 -> forall fuel source, (source < length w)%nat -> (length w <= fuel + source + 1)%nat -> before w source <= p ->
  exists s, advance fuel (length w) w p source (before w (S source)) = Some (s, before w (S s)) /\ falls_on w p s /\ (source <= s)%nat.
Proof.
  intros D P. induction fuel as [|fuel IH]; intros source Hs Hf B; cbn [advance].
  - exists source. split; [reflexivity|]. split; [|lia]. split; [exact Hs|]. split; [exact B|]. replace (S source) with (length w) by lia. destruct D as [_ D]. unfold before. rewrite D. exact P.
  - cbn [leb Rnum]. destruct (Rleb (before w (S source)) p) eqn:E; cbn [andb].
    + apply Rleb_true in E. destruct (Nat.ltb_spec (source + 1) (length w)) as [H|H].
      * rewrite (nth_error_nth' w 0) by lia. destruct (IH (S source) ltac:(lia) ltac:(lia) E) as (s & A & F & G). exists s.
        rewrite Nat.add_1_r. change (before w (S source) + nth (S source) w 0)%num with (before w (S (S source))). split; [exact A|]. split; [exact F|lia].
      * exfalso. replace (S source) with (length w) in E by lia. destruct D as [_ D]. unfold before in E. rewrite D in E. lra.
    + apply Rleb_false in E. exists source. split; [reflexivity|]. split; [|lia]. repeat split; auto.
Qed.

Lemma walk_falls w : distribution w -> (0 < length w)%nat -> forall offsets step source,
  (forall u, In u offsets -> 0 <= u < 1) -> (step + length offsets <= length w)%nat -> (source < length w)%nat -> before w source * INR (length w) <= INR step ->
  exists l, walk (length w) w offsets step source (before w (S source)) = Some l /\ length l = length offsets /\
    forall k, (k < length offsets)%nat -> falls_on w ((nth k offsets 0 + INR (step + k)) / INR (length w)) (nth k l 0%nat).
Proof.
  intros D P. assert (PN : 0 < INR (length w)) by (apply lt_0_INR; exact P).
  induction offsets as [|u offsets IH]; intros step source U L Hs B; cbn [walk]; [exists []; repeat split; intros; cbn in *; lia|].
  rewrite !of_nat_R. cbn [add div Rnum]. destruct (U u (or_introl eq_refl)) as [U0 U1]. cbn [length] in L.
  set (p := (u + INR step) / INR (length w)).
  assert (P1 : p < 1). { unfold p. apply Rlt_div_l; [lra|]. rewrite Rmult_1_l. apply Rlt_le_trans with (INR (S step)); [rewrite S_INR; lra|]. apply le_INR. lia. }
  assert (P0 : before w source <= p). { unfold p. apply Rle_div_r; [lra|]. lra. }
  destruct (advance_falls w p D P1 (length w) source Hs ltac:(lia) P0) as (s & -> & F & G).
  destruct (IH (S step) s) as (l & -> & A & K); [intros; apply U; right; auto|lia|apply F| |].
  { destruct F as (_ & F & _). unfold p in F. apply (Rmult_le_compat_r (INR (length w))) in F; [|lra]. rewrite S_INR.
    unfold Rdiv in F. rewrite Rmult_assoc, Rinv_l, Rmult_1_r in F by lra. lra. }
  exists (s :: l). split; [reflexivity|]. split; [cbn; lia|]. intros [|k] Hk; [cbn [nth]; rewrite Nat.add_0_r; exact F|].
  cbn [nth length] in *. replace (step + S k)%nat with (S step + k)%nat by lia. apply K. lia.
Qed.

(** ** Counting *)
Fixpoint number (n : nat) (P : nat -> bool) : nat := match n with O => O | S n => (number n P + if P n then 1 else 0)%nat end.
Lemma number_first n P : number (S n) P = ((if P O then 1 else 0) + number n (fun j => P (S j)))%nat.
Proof. induction n; [cbn; lia|]. change (number (S (S n)) P) with (number (S n) P + if P (S n) then 1 else 0)%nat. rewrite IHn. cbn. lia. Qed.
Lemma number_ext n P Q : (forall j, (j < n)%nat -> P j = Q j) -> number n P = number n Q.
Proof. induction n; intros H; [reflexivity|]. cbn. rewrite IHn, H by auto. reflexivity. Qed.
Lemma number_full n P : (forall j, (j < n)%nat -> P j = true) -> number n P = n.
Proof. induction n; intros H; [reflexivity|]. cbn. rewrite IHn, H by auto. lia. Qed.
Lemma number_split n P Q : (forall j, (j < n)%nat -> P j = true -> Q j = true) -> number n Q = (number n P + number n (fun j => Q j && negb (P j)))%nat.
Proof.
  induction n; intros H; [reflexivity|]. cbn. rewrite IHn by auto. specialize (H n ltac:(lia)). destruct (P n), (Q n); cbn; try lia; specialize (H eq_refl); discriminate.
Qed.
Lemma count_number l i : count_occ Nat.eq_dec l i = number (length l) (fun j => Nat.eqb (nth j l 0%nat) i).
Proof.
  induction l as [|a l IH]; [reflexivity|]. cbn [length]. rewrite number_first. cbn [nth]. rewrite <- IH. cbn [count_occ].
  destruct (Nat.eq_dec a i) as [->|N]; [rewrite Nat.eqb_refl; lia|]. apply Nat.eqb_neq in N. rewrite N. lia.
Qed.

Lemma number_even n P y : (forall j, (j < n)%nat -> P j = true <-> INR j < y) -> -1 < y <= INR n -> y <= INR (number n P) < y + 1.
Proof.
  revert y. induction n; intros y H Y; [cbn in *; lra|]. cbn [number]. destruct (P n) eqn:E.
  - apply H in E; [|lia]. rewrite number_full. { rewrite Nat.add_1_r. rewrite S_INR in *. lra. }
    intros j Hj. apply H; [lia|]. assert (INR j < INR n) by (apply lt_INR; exact Hj). lra.
  - rewrite Nat.add_0_r. apply IHn; [auto|]. split; [lra|]. destruct (Rle_dec y (INR n)); [lra|]. exfalso. assert (P n = true) by (apply H; [lia|lra]). congruence.
Qed.
Lemma number_strata n P y : (forall j, (j < n)%nat -> (P j = true -> INR j < y) /\ (INR j + 1 <= y -> P j = true)) -> 0 <= y <= INR n -> y - 1 < INR (number n P) < y + 1.
Proof.
  revert y. induction n; intros y H Y; [cbn in *; lra|]. cbn [number].
  assert (full : INR n < y -> number n P = n).
  { intros K. apply number_full. intros j Hj. apply H; [lia|]. assert (INR (S j) <= INR n) by (apply le_INR; lia). rewrite S_INR in *. lra. }
  destruct (P n) eqn:E.
  - apply H in E; [|lia]. rewrite full by exact E. rewrite Nat.add_1_r. rewrite S_INR in *. lra.
  - rewrite Nat.add_0_r. destruct (Rle_dec y (INR n)) as [K|K].
    + apply IHn; [auto|lra].
    + rewrite full by lra. assert (~ INR n + 1 <= y). { intros Q. apply H in Q; [congruence|lia]. } lra.
Qed.

(** the picks that fall on one stretch are those below its end and not below its start *)
Lemma times_between w l (pos : nat -> R) i : distribution w -> length l = length w -> (forall k, (k < length l)%nat -> falls_on w (pos k) (nth k l 0%nat)) -> (i < length w)%nat ->
  picked l i = INR (number (length w) (fun k => Rltb (pos k) (before w (S i)))) - INR (number (length w) (fun k => Rltb (pos k) (before w i))).
Proof.
  intros D L F Hi. unfold picked. rewrite count_number, L.
  rewrite (number_split (length w) (fun k => Rltb (pos k) (before w i)) (fun k => Rltb (pos k) (before w (S i)))).
  2: { intros j _ H. apply Rltb_true in H. apply Rltb_true. destruct D as [W _]. specialize (W i). rewrite before_S. lra. }
  rewrite plus_INR.
  assert (E : number (length w) (fun j => Nat.eqb (nth j l 0%nat) i) = number (length w) (fun j => Rltb (pos j) (before w (S i)) && negb (Rltb (pos j) (before w i)))).
  { apply number_ext. intros j Hj. specialize (F j ltac:(lia)). apply eq_true_iff_eq. rewrite andb_true_iff, negb_true_iff, Nat.eqb_eq, Rltb_true, Rltb_false. split.
    - intros <-. destruct F as (_ & F). lra.
    - intros K. apply (falls_unique w (pos j)); [apply D|exact F|]. split; [exact Hi|lra]. }
  rewrite E. lra.
Qed.
Lemma position_below n j u x : (0 < n)%nat -> (u + INR j) / INR n < x <-> INR j < INR n * x - u.
Proof.
  intros H. assert (P : 0 < INR n) by (apply lt_0_INR; exact H). split; intros K.
  - apply Rlt_div_l in K; [lra|exact P].
  - apply Rlt_div_l; [exact P|lra].
Qed.

(** ** The average of a rounded-up value over one period *)
Lemma ceil_average b : is_RInt (fun u => IZR (Zceil (b - u))) 0 1 b.
Proof.
  set (k := Zceil b). assert (K : IZR k - 1 < b <= IZR k).
  { split; [|apply Zceil_ub]. unfold k. pose proof (Zceil_lb b). lra. }
  set (t := b - (IZR k - 1)). assert (T0 : 0 < t <= 1) by (unfold t; lra).
  assert (E : @plus (NormedModule.AbelianGroup R_AbsRing R_NormedModule) ((t - 0) * IZR k) ((1 - t) * (IZR k - 1)) = b) by (unfold plus; cbn; unfold t; ring).
  refine (eq_ind _ (fun v => is_RInt (fun u => IZR (Zceil (b - u))) 0 1 v) _ _ E).
  apply (is_RInt_Chasles (V := R_NormedModule) _ 0 t 1).
  - apply (is_RInt_ext (fun _ => IZR k)); [|apply (is_RInt_const 0 t (IZR k))].
    rewrite Rmin_left, Rmax_right by lra. intros x Hx. f_equal. symmetry. apply Zceil_imp. rewrite minus_IZR. unfold t in Hx. lra.
  - apply (is_RInt_ext (fun _ => IZR k - 1)); [|apply (is_RInt_const t 1 (IZR k - 1))].
    rewrite Rmin_left, Rmax_right by lra. intros x Hx. rewrite <- minus_IZR. f_equal. symmetry. apply Zceil_imp. rewrite !minus_IZR. unfold t in Hx. lra.
Qed.

(** ** Picking by the running weight *)
Lemma reach_spec steps : forall source acc d (before : nat -> R), acc = bsum source before -> (forall k, (k < length steps)%nat -> nth k steps 0 = before (source + k)%nat) ->
  (forall j, (j < source)%nat -> bsum (S j) before < d) ->
  match reach steps source acc d with
  | Some i => first_to_reach before (source + length steps) d i
  | None => forall j, (j < source + length steps)%nat -> bsum (S j) before < d
  end.
Proof.
  induction steps as [|s steps IH]; intros source acc d b A E J; cbn [reach length]; [intros j Hj; apply J; lia|].
  cbn [leb add Rnum]. assert (ES : s = b source). { specialize (E 0%nat ltac:(cbn; lia)). cbn in E. rewrite Nat.add_0_r in E. exact E. }
  assert (EA : acc + s = bsum (S source) b) by (cbn [bsum]; rewrite A, ES; ring). rewrite EA.
  destruct (Rleb d (bsum (S source) b)) eqn:Q.
  - apply Rleb_true in Q. split; [lia|]. split; [exact Q|exact J].
  - apply Rleb_false in Q. replace (source + S (length steps))%nat with (S source + length steps)%nat by lia. apply IH; [reflexivity| |].
    + intros k Hk. specialize (E (S k) ltac:(cbn; lia)). cbn in E. rewrite E. f_equal. lia.
    + intros j Hj. destruct (Nat.eq_dec j source) as [->|]; [exact Q|apply J; lia].
Qed.

(** ** Laying down whole copies *)
Lemma copies_floor room : forall laid z, (0 <= laid <= z)%Z -> (z - laid <= Z.of_nat room)%Z -> copies room (IZR laid) (IZR z) = Z.to_nat (z - laid).
Proof.
  induction room as [|room IH]; intros laid z H R; cbn [copies]; [f_equal; lia|]. cbn [ltb Rnum]. destruct (Rltb (IZR laid) (IZR z)) eqn:E.
  - apply Rltb_true, lt_IZR in E. cbn [add one Rnum]. rewrite <- plus_IZR, IH by lia. lia.
  - apply Rltb_false, le_IZR in E. replace z with laid by lia. rewrite Z.sub_diag. reflexivity.
Qed.
Lemma repeat_times a k i : count_occ Nat.eq_dec (repeat a k) i = if Nat.eqb a i then k else 0%nat.
Proof. induction k; cbn; [destruct (Nat.eqb a i); reflexivity|]. rewrite IHk. destruct (Nat.eq_dec a i) as [->|N]; [rewrite Nat.eqb_refl; reflexivity|]. apply Nat.eqb_neq in N. rewrite N. reflexivity. Qed.
Lemma lay_times c (w : list R) : 0 <= c -> (forall i, 0 <= weight w i) -> forall room source, bsum (length w) (fun i => IZR (Zfloor (c * weight w i))) <= INR room ->
  INR (length (lay c room w source)) = bsum (length w) (fun i => IZR (Zfloor (c * weight w i))) /\
  forall i, (i < length w)%nat -> picked (lay c room w source) (source + i) = IZR (Zfloor (c * weight w i)).
Proof.
  intros C. induction w as [|a w IH]; intros W room source R; cbn [lay length]; [split; [reflexivity|intros; lia]|].
  cbn [length] in R. rewrite bsum_first in *. cbn [mul floor zero Rnum].
  assert (W' : forall i, 0 <= weight w i) by (intros i; exact (W (S i))).
  change (weight (a :: w) 0) with a in *. assert (A0 : 0 <= a) by exact (W O).
  set (z := Zfloor (c * a)) in *.
  assert (Z0 : (0 <= z)%Z). { unfold z. rewrite <- (Zfloor_IZR 0). apply Zfloor_le. nra. }
  assert (REST : 0 <= bsum (length w) (fun i => IZR (Zfloor (c * weight (a :: w) (S i))))).
  { apply bsum_nonneg. intros i _. apply IZR_le. rewrite <- (Zfloor_IZR 0). apply Zfloor_le. specialize (W (S i)). nra. }
  assert (ZR : (z <= Z.of_nat room)%Z). { apply le_IZR. rewrite <- INR_IZR_INZ. lra. }
  replace (copies room 0 (IZR z)) with (Z.to_nat z) by (rewrite (copies_floor room 0 z) by lia; f_equal; lia).
  destruct (IH W' (room - Z.to_nat z)%nat (S source)) as [L TI].
  { rewrite minus_INR by lia. rewrite (INR_IZR_INZ (Z.to_nat z)), Z2Nat.id by lia.
    change (fun i => IZR (Zfloor (c * weight w i))) with (fun i => IZR (Zfloor (c * weight (a :: w) (S i)))). lra. }
  split.
  - rewrite app_length, repeat_length, plus_INR, L, (INR_IZR_INZ (Z.to_nat z)), Z2Nat.id by lia. reflexivity.
  - intros i Hi. unfold picked. rewrite count_occ_app, repeat_times, plus_INR. destruct i as [|i].
    + rewrite Nat.add_0_r, Nat.eqb_refl, (INR_IZR_INZ (Z.to_nat z)), Z2Nat.id by lia. unfold weight at 1. cbn [nth].
      replace (count_occ _ _ _) with 0%nat; [unfold z; cbn; ring|]. symmetry. apply count_occ_not_In. intros Q.
      destruct (lay_range c w (room - Z.to_nat z) (S source)) as [_ F]. rewrite Forall_forall in F. specialize (F _ Q). lia.
    + replace (Nat.eqb source (source + S i)) with false by (symmetry; apply Nat.eqb_neq; lia).
      replace (source + S i)%nat with (S source + i)%nat by lia. fold (picked (lay c (room - Z.to_nat z) w (S source)) (S source + i)).
      rewrite TI by lia. cbn [INR]. rewrite Rplus_0_l. reflexivity.
Qed.
Lemma fold_fraction c (w : list R) : forall acc, fold_left (fun sum x => (sum + (c * x - floor (c * x)))%num) w acc = acc + bsum (length w) (fun i => c * weight w i - IZR (Zfloor (c * weight w i))).
Proof.
  induction w as [|a w IH]; intros acc; cbn [fold_left length]; [cbn; ring|]. rewrite IH, bsum_first. cbn [add sub mul floor Rnum]. change (weight (a :: w) 0) with a.
  change (fun i => c * weight (a :: w) (S i) - IZR (Zfloor (c * weight (a :: w) (S i)))) with (fun i => c * weight w i - IZR (Zfloor (c * weight w i))). ring.
Qed.
