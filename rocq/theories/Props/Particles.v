(** C139, C140: the particle filter. *)
From Coq Require Import ZArith Reals List Bool Arith Lia Lra Sorting Classical.
From Flocq Require Import Core.Raux.
From Coquelicot Require Import Hierarchy RInt.
From Verif Require Import Base.Scalar Base.Lists Base.RNum Base.XNum Base.Series Model.Errors Model.Vector Model.Matrix Model.Lu Model.Cholesky Model.Kalman Model.ParticleFilter
  Proofs.Vector Proofs.Matrix Proofs.Resampling Proofs.Particles Props.Cholesky Props.Unscented Props.Resampling Spec.Matrix Spec.Particles.
Import ListNotations.
Local Open Scope R_scope.
Local Notation exp := Rtrigo_def.exp.

Lemma constant_map {A B} (c : B) (l : list A) : map (fun _ => c) l = repeat c (length l).
Proof. induction l; cbn; congruence. Qed.
Lemma repeat_map {A B} (f : A -> B) x k : map f (repeat x k) = repeat (f x) k.
Proof. induction k; cbn; congruence. Qed.
Lemma constant_sum n c : bsum n (fun _ => c) = INR n * c.
Proof. induction n; [cbn; ring|]. rewrite S_INR. cbn. rewrite IHn. ring. Qed.
Lemma even_distribution n : (0 < n)%nat -> distribution (repeat (/ INR n) n).
Proof.
  intros P. assert (PN : 0 < INR n) by (apply lt_0_INR; exact P).
  assert (W : forall i, (i < n)%nat -> weight (repeat (/ INR n) n) i = / INR n).
  { intros i Hi. unfold weight. rewrite (nth_indep _ 0 (/ INR n)) by (rewrite repeat_length; exact Hi). apply nth_repeat. }
  split.
  - intros i. destruct (Nat.lt_ge_cases i n) as [H|H]; [rewrite W by exact H; apply Rlt_le, Rinv_0_lt_compat, PN|rewrite weight_out by (rewrite repeat_length; exact H); lra].
  - rewrite repeat_length, (bsum_ext _ _ (fun _ => / INR n)) by exact W. rewrite constant_sum. field. lra.
Qed.
Lemma one_over n : (0 < n)%nat -> (@div XR Xnum one (of_nat n)) = Fin (/ INR n).
Proof.
  intros P. unfold of_nat. cbn [one of_Z div Xnum]. rewrite xdiv_fin by (apply not_0_IZR; lia). f_equal. rewrite INR_IZR_INZ. field. apply not_0_IZR. lia.
Qed.

(** ** C139: the weights *)
Section Filter.
  Context {Rng : Type}.
  Variable nu : Rng -> R * Rng.
  Variable nn : Rng -> XR * Rng.

  (** a filter whose weights are finite, not negative and sum to one, one for each particle *)
  Definition ready (f : ParticleFilter XR Rng) (w : list R) : Prop :=
    pf_weights f = map Fin w /\ distribution w /\ length (pf_particles f) = length w.
  (** the parts a step does not touch *)
  Definition same_tuning (f g : ParticleFilter XR Rng) : Prop :=
    pf_process_noise_factor g = pf_process_noise_factor f /\ pf_resampling g = pf_resampling f /\
    pf_resample_threshold g = pf_resample_threshold f /\ pf_roughening g = pf_roughening f.
  (** what a resampling does to a cloud: equal weights, as many particles as before, the chosen particles (jittered only if asked
      for), and the sources chosen are those of C138 *)
  Definition refreshed (f : ParticleFilter XR Rng) (w : list R) (f' : ParticleFilter XR Rng) : Prop :=
    exists l g', resample_indices nu (pf_resampling f) w (pf_random f) (repeat O (length w)) = Some (l, g') /\
      ready f' (repeat (/ INR (length w)) (length w)) /\ same_tuning f f' /\
      (xlt (Fin 0) (pf_roughening f) = false -> pf_particles f' = map (fun i => nth i (pf_particles f) []) l /\ pf_random f' = g').

Theorem C139_resample n f w : ready f w -> exists f', pf_resample (lifted nu) nn n f = Some f' /\ refreshed f w f'.
  Proof.
    intros (W & D & L). destruct (not_empty w D) as [N P].
    destruct (C138_in_range R Rnum Rng nu (pf_resampling f) w (pf_random f) (repeat O (length w))) as [_ Q].
    destruct (Q N ltac:(rewrite repeat_length; reflexivity)) as (l & g' & E & LL & FA & _). rewrite repeat_length in LL.
    unfold pf_resample. rewrite W, L, indices_lifted by (try rewrite repeat_length; auto). rewrite E.
    rewrite gather_total by (rewrite L; exact FA). cbn [ltb Xnum zero].
    set (c := map _ l). pose proof (roughen_length nn n (pf_roughening f) (c, g')) as RL.
    rewrite constant_map, map_length, one_over, <- repeat_map by exact P.
    assert (CL : length c = length w) by (unfold c; rewrite map_length; exact LL).
    assert (RD : forall ps g, length ps = length w -> ready (pf_with_cloud f ps (map Fin (repeat (/ INR (length w)) (length w))) g) (repeat (/ INR (length w)) (length w))).
    { intros ps g H. split; [reflexivity|]. split; [apply even_distribution, P|]. cbn. rewrite repeat_length. exact H. }
    destruct (xlt (Fin 0) (pf_roughening f)) eqn:ER.
    - destruct (roughen nn n (pf_roughening f) (c, g')) as [ps g2]. cbn [fst] in RL. eexists. split; [reflexivity|]. exists l, g'. split; [exact E|].
      split; [apply RD; lia|]. split; [repeat split|]. congruence.
    - eexists. split; [reflexivity|]. exists l, g'. split; [exact E|]. split; [apply RD; exact CL|]. split; [repeat split|]. intros _. split; reflexivity.
  Qed.

  Lemma log_weights_read (score : nat -> list XR -> XR) f w like : ready f w -> (forall i, (i < length w)%nat -> 0 <= like i) ->
    (forall i, (i < length w)%nat -> score i (nth i (pf_particles f) []) = log_of (like i)) ->
    map2 (fun weight ip => (recoverable_log_weight weight + score (fst ip) (snd ip))%num) (pf_weights f) (combine (seq 0 (length (pf_particles f))) (pf_particles f))
    = map (fun i => log_of (prior least w i * like i)) (seq 0 (length w)).
  Proof.
    intros (W & [D _] & L) K H. rewrite W, (scored_by_index _ w (pf_particles f) [] L). apply map_ext_in. intros i Hi. apply in_seq in Hi.
    cbn [fst snd]. destruct (recoverable_prior w i (D i)) as [-> PP]. rewrite H by lia. apply log_of_mul; [exact PP|apply K; lia].
  Qed.

  (** Bayes' rule: the new weights are the old ones times the likelihoods, scaled to sum to one; a displayed zero counts as the
      smallest positive number.  The cloud is refreshed exactly when the new weights leave too few effective samples.  If no particle
      is possible the update is refused and nothing changes. *)
Theorem C139_bayes n score f w like : ready f w -> (forall i, (i < length w)%nat -> 0 <= like i) ->
    (forall i, (i < length w)%nat -> score i (nth i (pf_particles f) []) = log_of (like i)) ->
    ((forall i, (i < length w)%nat -> like i = 0) -> pf_update_with_log_weights (lifted nu) nn n score f = (f, Err EsWeightsDegenerate)) /\
    ((exists i, (i < length w)%nat /\ 0 < like i) ->
      let w' := posteriors least w like in
      let f' := pf_with_cloud f (pf_particles f) (map Fin w') (pf_random f) in
      ready f' w' /\
      snd (pf_update_with_log_weights (lifted nu) nn n score f) = Ok tt /\
      let few := xlt (Fin (/ bsum (length w) (fun i => posterior least w like i * posterior least w like i))) (pf_resample_threshold f) in
      (few = false -> fst (pf_update_with_log_weights (lifted nu) nn n score f) = f') /\
      (few = true -> refreshed f' w' (fst (pf_update_with_log_weights (lifted nu) nn n score f)))).
  Proof.
    intros RF K H. pose proof RF as (W & D & L). unfold pf_update_with_log_weights. rewrite (log_weights_read score f w like RF K H).
    set (v := fun i => prior least w i * like i). unfold normalize_and_resample, largest_log_weight. change (@neg_infinity XR Xnum) with NInf. rewrite <- log_of_0.
    assert (PR : forall i, 0 < prior least w i) by (intros i; apply recoverable_prior, D).
    assert (V0 : forall i, In i (seq 0 (length w)) -> 0 <= v i) by (intros i Hi; apply in_seq in Hi; unfold v; specialize (PR i); specialize (K i ltac:(lia)); nra).
    destruct (largest_log v (seq 0 (length w)) V0 0 (Rle_refl 0)) as (M & E & M0 & MV & MC).
    change (fun i : nat => log_of (prior least w i * like i)) with (fun i : nat => log_of (v i)). rewrite E. split.
    - intros Z. replace M with 0; [rewrite log_of_0; reflexivity|]. destruct MC as [->|(i & Hi & <-)]; [reflexivity|]. apply in_seq in Hi. unfold v. rewrite Z by lia. ring.
    - intros (i0 & I0 & P0). destruct (posterior_distribution w like (proj1 D) K ltac:(eauto)) as (SP & DP & LP). cbv zeta.
      assert (MP : 0 < M). { apply Rlt_le_trans with (v i0); [apply Rmult_lt_0_compat; auto|]. apply MV, in_seq. lia. }
      rewrite (log_of_pos M MP). cbn [is_finite Xnum negb].
      rewrite map_map, (map_ext_in (fun x => Scalar.exp (log_of (v x) - Fin (ln M))%num) (fun i => Fin (v i / M))) by (intros i Hi; apply exp_log_of; auto).
      rewrite (sum_fin (fun i => v i / M)). set (S := bsum (length w) (fun i => v i / M)).
      assert (SE : S = bsum (length w) v / M). { unfold S. rewrite (bsum_ext _ _ (fun i => / M * v i)) by (intros; unfold Rdiv; ring). rewrite bsum_scal. unfold Rdiv. ring. }
      assert (S0 : 0 < S). { rewrite SE. apply Rmult_lt_0_compat; [exact SP|apply Rinv_0_lt_compat, MP]. }
      cbn [leb is_finite Xnum xle negb zero]. replace (Rleb S 0) with false by (symmetry; apply Rleb_false; exact S0). cbn [orb].
      rewrite map_map, (map_ext (fun x => (Fin (v x / M) / Fin S)%num) (fun i => Fin (posterior least w like i))).
      2: { intros i. cbn [div Xnum]. rewrite xdiv_fin by lra. f_equal. rewrite SE. unfold posterior. fold (v i). change (fun j => prior least w j * like j) with v. field. split; [|lra]. unfold v. lra. }
      rewrite <- (map_map (posterior least w like) Fin). fold (posteriors least w like). set (w' := posteriors least w like) in *.
      set (f' := pf_with_cloud f (pf_particles f) (map Fin w') (pf_random f)).
      assert (RF' : ready f' w') by (split; [reflexivity|split; [exact DP|cbn; lia]]).
      split; [exact RF'|].
      assert (EE : effective_sample_size (pf_weights f') = Fin (/ bsum (length w) (fun i => posterior least w like i * posterior least w like i))).
      { cbn [f' pf_with_cloud pf_weights]. unfold effective_sample_size. change (@zero XR Xnum) with (Fin 0). rewrite sum_squares_fin, LP.
        rewrite (bsum_ext _ _ (fun i => posterior least w like i * posterior least w like i)).
        2: { intros i Hi. unfold weight, w', posteriors. rewrite (nth_indep _ 0 (posterior least w like 0)) by (rewrite map_length, seq_length; exact Hi). rewrite map_nth, seq_nth by exact Hi. reflexivity. }
        assert (Q : 0 < bsum (length w) (fun i => posterior least w like i * posterior least w like i)).
        { destruct (distribution_squares w' DP) as (_ & Q & _). rewrite LP in Q. rewrite (bsum_ext _ _ (fun i => weight w' i * weight w' i)); [exact Q|].
          intros i Hi. unfold weight, w', posteriors. rewrite (nth_indep _ 0 (posterior least w like 0)) by (rewrite map_length, seq_length; exact Hi). rewrite map_nth, seq_nth by exact Hi. reflexivity. }
        cbn [div one Xnum]. rewrite xdiv_fin by lra. f_equal. unfold Rdiv. ring. }
      rewrite EE. cbn [ltb Xnum]. change (pf_resample_threshold f') with (pf_resample_threshold f).
      destruct (xlt _ (pf_resample_threshold f)) eqn:EF.
      + destruct (C139_resample n f' w' RF') as (f2 & -> & Q). split; [reflexivity|]. split; [discriminate|]. intros _. exact Q.
      + split; [reflexivity|]. split; [reflexivity|discriminate].
  Qed.

  (** The effective number of samples lies between one and the number of particles, and is the latter for equal weights. *)
Theorem C139_effective f w : ready f w -> exists e, effective_sample_size (pf_weights f) = Fin e /\ 1 <= e <= INR (length w) /\
    ((forall i, (i < length w)%nat -> weight w i = / INR (length w)) -> e = INR (length w)).
  Proof.
    intros (W & D & L). destruct (distribution_squares w D) as (A & B & C). set (q := bsum _ _) in *. exists (/ q). unfold effective_sample_size.
    rewrite W. change (@zero XR Xnum) with (Fin 0). rewrite sum_squares_fin. fold q. cbn [div one Xnum]. rewrite xdiv_fin by lra. split; [f_equal; unfold Rdiv; ring|].
    split; [split|].
    - rewrite <- Rinv_1 at 1. apply Rinv_le_contravar; lra.
    - apply (Rmult_le_reg_l q); [lra|]. rewrite Rinv_r by lra. lra.
    - intros H. destruct (not_empty w D) as [_ P]. assert (PN : 0 < INR (length w)) by (apply lt_0_INR; exact P).
      unfold q. rewrite (bsum_ext _ _ (fun _ => / INR (length w) * / INR (length w))) by (intros i Hi; rewrite H by exact Hi; reflexivity). rewrite constant_sum. field. lra.
  Qed.

  (** ** Histories *)
  Inductive step := Predict (model : list XR -> list XR) | Update (score : nat -> list XR -> XR) | Resample
                  | SetNoise (noise : mat XR) | SetScheme (s : ResamplingScheme) | SetThreshold (t : XR) | SetRoughening (r : XR).
  Definition run (n : nat) (f : ParticleFilter XR Rng) (s : step) : option (ParticleFilter XR Rng) :=
    match s with
    | Predict model => Some (fst (pf_predict nn n model f))
    | Update score => match pf_update_with_log_weights (lifted nu) nn n score f with (f', Panic) => None | (f', _) => Some f' end
    | Resample => pf_resample (lifted nu) nn n f
    | SetNoise noise => match pf_set_process_noise n noise f with (f', Panic) => None | (f', _) => Some f' end
    | SetScheme s => Some (pf_with_resampling s f) | SetThreshold t => Some (pf_with_resample_threshold t f) | SetRoughening r => Some (pf_with_roughening r f)
    end.
  Fixpoint runs (n : nat) (f : ParticleFilter XR Rng) (l : list step) : option (ParticleFilter XR Rng) :=
    match l with [] => Some f | s :: l => match run n f s with Some f => runs n f l | None => None end end.

  Lemma pinf_wins l : In PInf l -> ~ In XNaN l -> forall a, a <> XNaN -> fold_left (fun largest x => if (x >? largest)%num then x else largest) l a = PInf.
  Proof.
    assert (S : forall l, ~ In XNaN l -> fold_left (fun largest x => if (x >? largest)%num then x else largest) l PInf = PInf).
    { induction l0 as [|x l0 IH]; intros N; [reflexivity|]. cbn [fold_left]. replace (x >? PInf)%num with false by (destruct x; reflexivity). apply IH. intros Q. apply N. right. exact Q. }
    induction l as [|x l IH]; intros I N a A; [destruct I|]. cbn [fold_left]. destruct I as [->|I].
    - destruct a; try (cbn; apply S; intros Q; apply N; right; exact Q). congruence.
    - apply IH; [exact I|intros Q; apply N; right; exact Q|]. destruct (x >? a)%num; [|exact A]. intros ->. apply N. left. reflexivity.
  Qed.
  Lemma panic_free_cholesky n (m : mat XR) : match cholesky n m with Panic => False | _ => True end.
  Proof.
    unfold cholesky. generalize (@mat_zeros XR Xnum n n). generalize (range 0 n). induction l as [|j l IH]; intros a; cbn; [exact I|].
    unfold cholesky_column. destruct (_ <=? _)%num; [exact I|]. apply IH.
  Qed.

  (** Whatever is done to a filter with good weights — as long as no score is NaN — nothing panics, and it stays a filter of as many
      particles with good weights. *)
Theorem C139_history n l : (forall score, In (Update score) l -> forall i p, score i p <> XNaN) -> forall f w, ready f w ->
    exists f' w', runs n f l = Some f' /\ ready f' w' /\ length w' = length w.
  Proof.
    induction l as [|s l IH]; intros NS f w RF; [exists f, w; auto|]. cbn [runs].
    assert (ST : exists f1 w1, run n f s = Some f1 /\ ready f1 w1 /\ length w1 = length w).
    { pose proof RF as (W & D & L). destruct s as [model|score| |noise|sc|t|r]; cbn [run].
      - unfold pf_predict. pose proof (propagate_spec nn n model (pf_process_noise_factor f) (pf_particles f) (pf_random f)) as (A & _). destruct (propagate _ _ _ _ _ _) as [ps g].
        eexists _, w. split; [reflexivity|]. split; [|reflexivity]. split; [exact W|]. split; [exact D|]. cbn [fst pf_with_cloud pf_particles] in *. lia.
      - specialize (NS score (or_introl eq_refl)).
        destruct (classic (exists i, (i < length w)%nat /\ score i (nth i (pf_particles f) []) = PInf)) as [(i0 & I0 & E0)|NP].
        + assert (Q : pf_update_with_log_weights (lifted nu) nn n score f = (f, Err EsWeightsDegenerate)).
          { unfold pf_update_with_log_weights, normalize_and_resample, largest_log_weight. rewrite W, (scored_by_index _ w (pf_particles f) [] L). rewrite pinf_wins; [reflexivity| | |discriminate].
            - apply in_map_iff. exists i0. split; [|apply in_seq; lia]. cbn [fst snd]. rewrite E0. destruct (recoverable_prior w i0 (proj1 D i0)) as [-> _]. reflexivity.
            - intros Q. apply in_map_iff in Q as (i & Q & _). cbn [fst snd] in Q. destruct (recoverable_prior w i (proj1 D i)) as [E _]. rewrite E in Q.
              specialize (NS i (nth i (pf_particles f) [])). destruct (score i _); cbn in Q; congruence. }
          rewrite Q. exists f, w. auto.
        + set (like := fun i => match score i (nth i (pf_particles f) []) with Fin x => exp x | _ => 0 end).
          assert (K : forall i, (i < length w)%nat -> 0 <= like i). { intros i _. unfold like. destruct (score i _); try lra. apply Rlt_le, exp_pos. }
          assert (H : forall i, (i < length w)%nat -> score i (nth i (pf_particles f) []) = log_of (like i)).
          { intros i Hi. unfold like. destruct (score i (nth i (pf_particles f) [])) as [x| | |] eqn:E.
            - rewrite log_of_pos, ln_exp by apply exp_pos. reflexivity.
            - destruct NP. eauto.
            - rewrite log_of_0. reflexivity.
            - destruct (NS i _ E). }
          destruct (C139_bayes n score f w like RF K H) as [Z P]. destruct (classic (exists i, (i < length w)%nat /\ 0 < like i)) as [E|E].
          * destruct (P E) as (RF' & OK & A & B). destruct (posterior_distribution w like (proj1 D) K E) as (_ & _ & LP).
            destruct (pf_update_with_log_weights _ _ _ _ _) as [f1 r]. cbn [fst snd] in *. rewrite OK.
            destruct (xlt _ (pf_resample_threshold f)).
            -- destruct (B eq_refl) as (l1 & g1 & _ & R1 & _). exists f1, (repeat (/ INR (length (posteriors least w like))) (length (posteriors least w like))). rewrite repeat_length. auto.
            -- rewrite (A eq_refl). exists (pf_with_cloud f (pf_particles f) (map Fin (posteriors least w like)) (pf_random f)), (posteriors least w like). auto.
          * rewrite Z; [exists f, w; auto|]. intros i Hi. destruct (K i Hi) as [Q|<-]; [destruct E; eauto|reflexivity].
      - destruct (C139_resample n f w RF) as (f1 & -> & l1 & g1 & _ & R1 & _). exists f1, (repeat (/ INR (length w)) (length w)). rewrite repeat_length. auto.
      - unfold pf_set_process_noise. pose proof (panic_free_cholesky n noise) as Q. destruct (cholesky n noise); [| |destruct Q]; eexists _, w; (split; [reflexivity|split; [split; [exact W|split; [exact D|exact L]]|reflexivity]]).
      - eexists _, w. split; [reflexivity|]. split; [|reflexivity]. split; [exact W|split; [exact D|exact L]].
      - eexists _, w. split; [reflexivity|]. split; [|reflexivity]. split; [exact W|split; [exact D|exact L]].
      - eexists _, w. split; [reflexivity|]. split; [|reflexivity]. split; [exact W|split; [exact D|exact L]]. }
    destruct ST as (f1 & w1 & -> & R1 & L1). destruct (IH ltac:(intros; apply NS; right; auto) f1 w1 R1) as (f2 & w2 & A & B & C). exists f2, w2. rewrite A. split; [reflexivity|]. split; [exact B|lia].
  Qed.

  (** One NaN weight refuses every later update, until the caller resamples. *)
Theorem C139_nan_stays n score f : length (pf_particles f) = length (pf_weights f) -> In XNaN (pf_weights f) ->
    snd (pf_update_with_log_weights (lifted nu) nn n score f) = Err EsWeightsDegenerate /\ In XNaN (pf_weights (fst (pf_update_with_log_weights (lifted nu) nn n score f))).
  Proof.
    intros L I. unfold pf_update_with_log_weights. set (lw := map2 _ _ _).
    assert (IN : In XNaN lw).
    { unfold lw. clear lw. apply (In_nth _ _ XNaN) in I as (k & Hk & E). assert (G : forall us vs k, length us = length vs -> (k < length us)%nat -> nth k us XNaN = XNaN ->
        In XNaN (map2 (fun weight (ip : nat * list XR) => (recoverable_log_weight weight + score (fst ip) (snd ip))%num) us vs)).
      { clear. induction us as [|u us IH]; intros [|v vs] [|k] L H E; cbn [length nth map2] in *; try lia; [left; rewrite E; reflexivity|right; apply (IH vs k); lia || exact E]. }
      apply (G _ _ k); [rewrite combine_length, seq_length; lia|exact Hk|exact E]. }
    unfold normalize_and_resample. destruct (is_finite (largest_log_weight lw)) eqn:F; cbn [negb]; [|split; [reflexivity|exact I]].
    set (m := largest_log_weight lw) in *.
    assert (IW : In XNaN (map (fun x => Scalar.exp (x - m)%num) lw)) by (apply in_map_iff; exists XNaN; split; [destruct m; reflexivity|exact IN]).
    set (ws := map _ lw) in *.
    assert (SN : sum_list ws = XNaN).
    { unfold sum_list. generalize (@zero XR Xnum). revert IW. clear. induction ws as [|x ws IH]; intros I a; [destruct I|]. destruct I as [->|I].
      - cbn [fold_left]. replace (a + XNaN)%num with XNaN by (destruct a; reflexivity). clear. induction ws as [|x ws IH]; [reflexivity|]. exact IH.
      - cbn [fold_left]. apply IH, I. }
    rewrite SN. cbn [leb is_finite Xnum xle negb orb]. split; [reflexivity|exact IW].
  Qed.
End Filter.

(** A refused update does not in general leave the filter as it was: one NaN score spoils the weights, and later updates with good
    scores are refused too. *)
Definition start_filter : ParticleFilter XR unit :=
  {| pf_particles := [[Fin 0]; [Fin 1]]; pf_weights := [Fin (1/2); Fin (1/2)]; pf_process_noise_factor := [[Fin 1]]; pf_resampling := Systematic;
     pf_resample_threshold := Fin 1; pf_roughening := Fin 0; pf_random := tt |}.
Definition fixed_unit : unit -> R * unit := fun _ => (1/2, tt).
Definition fixed_normal : unit -> XR * unit := fun _ => (Fin 0, tt).
Lemma start_ready : ready start_filter [1/2; 1/2].
Proof. split; [reflexivity|]. split; [|reflexivity]. split; [intros [|[|[|i]]]; unfold weight; cbn; lra|cbn; unfold weight; cbn; lra]. Qed.
Theorem C139_refused_refuted : exists (f : ParticleFilter XR unit) w n score, ready f w /\
  snd (pf_update_with_log_weights (lifted fixed_unit) fixed_normal n score f) = Err EsWeightsDegenerate /\
  fst (pf_update_with_log_weights (lifted fixed_unit) fixed_normal n score f) <> f /\
  forall score', snd (pf_update_with_log_weights (lifted fixed_unit) fixed_normal n score' (fst (pf_update_with_log_weights (lifted fixed_unit) fixed_normal n score f))) = Err EsWeightsDegenerate.
Proof.
  exists start_filter, [1/2; 1/2], 1%nat, (fun i _ => if Nat.eqb i 0 then Fin 0 else XNaN). split; [exact start_ready|].
  assert (R1 : recoverable_log_weight (Fin (1/2)) = Fin (ln (1/2))).
  { unfold recoverable_log_weight. cbn. unfold Reqb, xlog. destruct (Req_EM_T (1/2) 0); [lra|]. destruct (Rlt_dec (1/2) 0); [lra|]. destruct (Req_EM_T (1/2) 0); [lra|reflexivity]. }
  set (r := pf_update_with_log_weights _ _ _ _ start_filter).
  assert (E : r = (pf_with_cloud start_filter (pf_particles start_filter) [Fin (exp (ln (1/2) + 0 + - (ln (1/2) + 0))); XNaN] tt, Err EsWeightsDegenerate)).
  { unfold r, pf_update_with_log_weights. cbn [start_filter pf_weights pf_particles length seq combine map2 fst snd Nat.eqb]. rewrite R1. cbn [add Xnum xadd].
    unfold normalize_and_resample, largest_log_weight. cbn. reflexivity. }
  rewrite E. cbn [fst snd]. split; [reflexivity|]. split; [intros Q; apply (f_equal (@pf_weights XR unit)) in Q; discriminate Q|].
  intros score'. apply C139_nan_stays; [reflexivity|]. right. left. reflexivity.
Qed.

Example C139_example : ready start_filter [1/2; 1/2] /\ in_unit fixed_unit /\ (exists i, (i < 2)%nat /\ 0 < (fun i => if Nat.eqb i 0 then 3 else 1) i) /\
  posterior least [1/2; 1/2] (fun i => if Nat.eqb i 0 then 3 else 1) 0 = 3/4.
Proof.
  split; [exact start_ready|]. split; [intros g; unfold fixed_unit; cbn; lra|]. split; [exists 0%nat; cbn; split; [lia|lra]|].
  unfold posterior, prior, weight. cbn. destruct (Req_EM_T (1/2) 0); [lra|]. field.
Qed.

(** ** C140: the cloud, the likelihood and the estimates *)

(** Prediction, for any scalar: particle [i] becomes the model's answer plus the noise factor times the next [n] normal draws; the
    weights and the tuning stay; the call reports NonFinite exactly when some particle is no longer finite, and keeps it. *)
Theorem C140_predict T (NT : Num T) Rng (normal : Rng -> T * Rng) n model (f : ParticleFilter T Rng) :
  let g := fst (pf_predict normal n model f) in
  length (pf_particles g) = length (pf_particles f) /\
  (forall i, (i < length (pf_particles f))%nat -> nth i (pf_particles g) [] =
    vec_add (model (nth i (pf_particles f) [])) (mat_vec n n (pf_process_noise_factor f) (map (fun k => nth_draw normal (i * n + k) (pf_random f)) (seq 0 n)))) /\
  pf_weights g = pf_weights f /\ pf_random g = later normal (length (pf_particles f) * n) (pf_random f) /\
  pf_process_noise_factor g = pf_process_noise_factor f /\ pf_resampling g = pf_resampling f /\ pf_resample_threshold g = pf_resample_threshold f /\ pf_roughening g = pf_roughening f /\
  snd (pf_predict normal n model f) = if forallb (fun p => forallb is_finite p) (pf_particles g) then Ok tt else Err EsNonFinite.
Proof.
  cbv zeta. unfold pf_predict. pose proof (propagate_spec normal n model (pf_process_noise_factor f) (pf_particles f) (pf_random f)) as (A & B & C).
  destruct (propagate _ _ _ _ _ _) as [ps g]. cbn [fst snd pf_with_cloud pf_particles pf_weights pf_random pf_process_noise_factor pf_resampling pf_resample_threshold pf_roughening] in *. repeat split; auto.
Qed.

(** The measurement update is the scored update with the likelihood of what the model says each particle would have measured; a
    measurement that is not finite is refused and nothing changes. *)
Theorem C140_update T (NT : Num T) Rng (next_unit normal : Rng -> T * Rng) n model likelihood z (f : ParticleFilter T Rng) :
  length (pf_weights f) = length (pf_particles f) ->
  pf_update next_unit normal n model likelihood z f =
    if forallb is_finite z then pf_update_with_log_weights next_unit normal n (fun _ p => likelihood (model p) z) f else (f, Err EsNonFinite).
Proof.
  intros L. unfold pf_update, vec_is_finite. destruct (forallb is_finite z); [|reflexivity]. cbn [negb]. unfold pf_update_with_log_weights.
  rewrite <- (indexed_map2 (fun weight particle => (recoverable_log_weight weight + likelihood (model particle) z)%num) (pf_weights f) (pf_particles f) 0). reflexivity.
Qed.

(** Building a filter: an empty cloud and a covariance that is not positive definite are refused; otherwise the particles are the
    mean plus a square root of the covariance times normal draws, equally weighted. *)
Theorem C140_new Rng (normal : Rng -> R * Rng) n count mean (p q : mat R) g : shape n n p -> symmetric n (mget p) -> shape n n q -> symmetric n (mget q) ->
  (count = 0%nat -> pf_from_random normal n count mean p q g = Err EsWeightsDegenerate) /\
  ((0 < count)%nat -> ~ (positive_definite n (mget p) /\ positive_definite n (mget q)) -> pf_from_random normal n count mean p q g = Err EsNotPositiveDefinite) /\
  ((0 < count)%nat -> positive_definite n (mget p) -> positive_definite n (mget q) ->
    exists f l, pf_from_random normal n count mean p q g = Ok f /\
      lower_triangular n (mget l) /\ equal n n (product n (mget l) (transposed (mget l))) (mget p) /\
      lower_triangular n (mget (pf_process_noise_factor f)) /\ equal n n (product n (mget (pf_process_noise_factor f)) (transposed (mget (pf_process_noise_factor f)))) (mget q) /\
      length (pf_particles f) = count /\
      (forall i, (i < count)%nat -> nth i (pf_particles f) [] = vec_add mean (mat_vec n n l (map (fun k => nth_draw normal (i * n + k) g) (seq 0 n)))) /\
      pf_weights f = repeat (/ INR count) count /\ distribution (pf_weights f) /\ pf_random f = later normal (count * n) g /\
      pf_resampling f = Systematic /\ pf_resample_threshold f = INR count / 2 /\ pf_roughening f = 0).
Proof.
  intros SP YP SQ YQ. pose proof (cholesky_cases n p SP YP) as CP. pose proof (cholesky_cases n q SQ YQ) as CQ.
  split; [intros ->; reflexivity|]. unfold pf_from_random. split.
  - intros P N. destruct count as [|c]; [lia|]. destruct (cholesky n p); [|reflexivity|destruct CP]. destruct (cholesky n q); [|reflexivity|destruct CQ]. destruct N. split; [apply CP|apply CQ].
  - intros P DP DQ. destruct count as [|c]; [lia|]. destruct (cholesky n p) as [lp| |]; [|destruct (CP DP)|destruct CP]. destruct (cholesky n q) as [lq| |]; [|destruct (CQ DQ)|destruct CQ].
    pose proof (scatter_spec normal n mean lp (S c) g) as (A & B & C). destruct (scatter normal n (S c) mean lp g) as [ps g1]. cbn [fst snd] in *.
    eexists _, lp. split; [reflexivity|]. cbn [pf_process_noise_factor pf_particles pf_weights pf_random pf_resampling pf_resample_threshold pf_roughening].
    assert (E : (one / of_nat (S c))%num = / INR (S c)) by (rewrite of_nat_R; cbn [div one Rnum]; unfold Rdiv; ring). rewrite E.
    destruct CP as (_ & CP1 & CP2). destruct CQ as (_ & CQ1 & CQ2).
    repeat (split; [first [assumption|reflexivity|apply even_distribution; lia]|]). split; [|reflexivity].
    rewrite of_nat_R. cbn [mul half Rnum]. unfold Rdiv. reflexivity.
Qed.

(** The Gaussian log-likelihood is minus half the squared mismatch in units of the noise covariance: for the [x] with [noise x =
    mismatch], minus half the mismatch times [x].  It is largest, zero, exactly at a perfect match. *)
Theorem C140_gaussian m (noise : mat R) : shape m m noise -> symmetric m (mget noise) ->
  (~ positive_definite m (mget noise) -> gaussian_new m noise = Err EsNotPositiveDefinite) /\
  (positive_definite m (mget noise) -> exists factor, gaussian_new m noise = Ok factor /\
    forall predicted z, let r := fun i => vget z i - vget predicted i in
      (forall x, equal_vectors m (times m (mget noise) x) r -> gaussian_log_weight m factor predicted z = - (1/2) * dot_product m r x) /\
      gaussian_log_weight m factor predicted z <= 0 /\
      (gaussian_log_weight m factor predicted z = 0 <-> equal_vectors m (vget predicted) (vget z))).
Proof.
  intros S Y. pose proof (cholesky_cases m noise S Y) as C. unfold gaussian_new. split.
  - intros N. destruct (cholesky m noise); [destruct N; apply C|reflexivity|destruct C].
  - intros PD. destruct (cholesky m noise) as [l| |] eqn:E; [|destruct (C PD)|destruct C]. exists l. split; [reflexivity|]. intros predicted z. set (r := fun i => vget z i - vget predicted i).
    set (b := from_fn m (fun i => (vget z i - vget predicted i)%num)).
    assert (BL : length b = m) by apply from_fn_length.
    destruct (C80_solve m noise l b S Y E BL) as (SL & SE & SU). set (x0 := cholesky_solve m l b) in *.
    assert (BR : equal_vectors m (vget b) r) by (intros i Hi; unfold b; rewrite vget_from_fn by exact Hi; reflexivity).
    assert (V : gaussian_log_weight m l predicted z = - (1/2) * dot_product m r (vget x0)).
    { unfold gaussian_log_weight. fold b. fold x0. rewrite (dot_sum b x0) by lia. rewrite BL. cbn [mul neg half Rnum]. unfold dot_product.
      rewrite (bsum_ext m (fun i => nth i b 0 * nth i x0 0) (fun k => r k * vget x0 k)) by (intros i Hi; rewrite <- (BR i Hi); reflexivity). unfold Rdiv. ring. }
    assert (AN : equal_vectors m (times m (mget noise) (vget x0)) r) by (intros i Hi; rewrite SE by exact Hi; apply BR, Hi).
    assert (Q : dot_product m r (vget x0) = dot_product m (vget x0) (times m (mget noise) (vget x0))).
    { unfold dot_product. apply bsum_ext. intros i Hi. rewrite AN by exact Hi. ring. }
    split; [|split].
    + intros x Hx. rewrite V. f_equal. unfold dot_product. apply bsum_ext. intros i Hi. f_equal. symmetry. apply SU; [|exact Hi]. intros k Hk. rewrite Hx by exact Hk. symmetry. apply BR, Hk.
    + rewrite V, Q. destruct (classic (exists i, (i < m)%nat /\ vget x0 i <> 0)) as [N|N]; [specialize (PD _ N); lra|].
      assert (Z : dot_product m (vget x0) (times m (mget noise) (vget x0)) = 0); [|rewrite Z; lra]. unfold dot_product. rewrite (bsum_ext _ _ (fun _ => 0)); [apply bsum_0|].
      intros i Hi. destruct (Req_dec (vget x0 i) 0) as [->|K]; [ring|destruct N; eauto].
    + rewrite V, Q. split.
      * intros Z. destruct (classic (exists i, (i < m)%nat /\ vget x0 i <> 0)) as [N|N]; [specialize (PD _ N); lra|]. intros i Hi.
        assert (r i = 0); [|unfold r in H; lra]. rewrite <- AN by exact Hi. unfold times. rewrite (bsum_ext _ _ (fun _ => 0)); [apply bsum_0|].
        intros k Hk. destruct (Req_dec (vget x0 k) 0) as [->|K]; [ring|destruct N; eauto].
      * intros EV. rewrite <- Q. unfold dot_product. rewrite (bsum_ext _ _ (fun _ => 0)); [rewrite bsum_0; ring|]. intros i Hi. unfold r. rewrite (EV i Hi). ring.
Qed.

(** ** The estimates, in exact arithmetic *)
Lemma vget_vec_add (u v : list R) j : length u = length v -> vget (vec_add u v) j = vget u j + vget v j.
Proof.
  intros L. unfold vget, vec_add. cbn [zero Rnum]. revert v j L. induction u as [|a u IH]; intros [|b v] [|j] L; cbn in *; try lia; try lra. apply IH. lia.
Qed.
Lemma mean_fold n j (l : list (list R * R)) : (forall p, In p l -> length (fst p) = n) -> forall acc, length acc = n ->
  vget (fold_left (fun acc pw => vec_add acc (vec_scale (fst pw) (snd pw))) l acc) j = vget acc j + fold_left (fun s pw => s + nth j (fst pw) 0 * snd pw) l 0 /\
  length (fold_left (fun acc pw => vec_add acc (vec_scale (fst pw) (snd pw))) l acc) = n.
Proof.
  assert (G : forall (l : list (list R * R)) c, fold_left (fun s pw => s + nth j (fst pw) 0 * snd pw) l c = c + fold_left (fun s pw => s + nth j (fst pw) 0 * snd pw) l 0).
  { intros k. induction k as [|a k IH]; intros c; cbn; [ring|]. rewrite IH, (IH (0 + _)). ring. }
  induction l as [|[p w] l IH]; intros H acc L; cbn [fold_left]; [split; [ring|exact L]|].
  assert (LP : length p = n) by (apply (H (p, w)); left; reflexivity). cbn [fst snd].
  assert (LS : length acc = length (vec_scale p w)) by (unfold vec_scale; rewrite map_length; lia).
  destruct (IH ltac:(intros; apply H; right; auto) (vec_add acc (vec_scale p w))) as [A B]; [unfold vec_add; rewrite map2_length; auto|].
  split; [|exact B]. rewrite A, (vget_vec_add _ _ j LS), (G l (0 + _)).
  assert (E : vget (vec_scale p w) j = nth j p 0 * w). { unfold vget, vec_scale. cbn [zero mul Rnum]. replace 0 with ((fun a => a * w) 0) at 1 by ring. apply (map_nth (fun a => a * w)). }
  rewrite E. ring.
Qed.
Lemma fold_combine (f : list R -> R -> R) : forall (ps : list (list R)) (w : list R), length ps = length w ->
  fold_left (fun s pw => s + f (fst pw) (snd pw)) (combine ps w) 0 = bsum (length w) (fun i => f (nth i ps []) (weight w i)).
Proof.
  assert (G : forall (l : list (list R * R)) c, fold_left (fun s pw => s + f (fst pw) (snd pw)) l c = c + fold_left (fun s pw => s + f (fst pw) (snd pw)) l 0).
  { intros k. induction k as [|a k IH]; intros c; cbn; [ring|]. rewrite IH, (IH (0 + _)). ring. }
  induction ps as [|p ps IH]; intros [|x w] L; cbn [length] in L; try lia; [reflexivity|]. cbn [combine fold_left length]. rewrite G, IH, bsum_first by lia. cbn [fst snd nth weight]. unfold weight. cbn [nth]. ring.
Qed.

(** The mean is the weighted mean of the particles. *)
Theorem C140_mean Rng n (f : ParticleFilter R Rng) : length (pf_particles f) = length (pf_weights f) -> (forall p, In p (pf_particles f) -> length p = n) ->
  length (pf_mean n f) = n /\ forall j, (j < n)%nat -> vget (pf_mean n f) j = weighted_mean (pf_weights f) (pf_particles f) j.
Proof.
  intros L H. assert (HC : forall p, In p (combine (pf_particles f) (pf_weights f)) -> length (fst p) = n) by (intros [p w] I; apply H; exact (in_combine_l _ _ _ _ I)).
  assert (ZL : length (@vec_zeros R Rnum n) = n) by apply repeat_length. split.
  - exact (proj2 (mean_fold n 0 _ HC _ ZL)).
  - intros j Hj. unfold pf_mean. rewrite (proj1 (mean_fold n j _ HC _ ZL)). rewrite (fold_combine (fun p w => nth j p 0 * w)) by exact L.
    unfold vec_zeros. rewrite vget_repeat by exact Hj. cbn [zero Rnum]. rewrite Rplus_0_l. unfold weighted_mean. apply bsum_ext. intros; ring.
Qed.

(** The most likely state is the first of the heaviest particles. *)
Theorem C140_heaviest Rng (f : ParticleFilter R Rng) : pf_weights f <> [] ->
  exists best, (best < length (pf_weights f))%nat /\ maximum_a_posteriori_state f = nth best (pf_particles f) [] /\
    (forall i, (i < length (pf_weights f))%nat -> weight (pf_weights f) i <= weight (pf_weights f) best) /\
    (forall i, (i < best)%nat -> weight (pf_weights f) i < weight (pf_weights f) best).
Proof.
  intros N. set (w := pf_weights f) in *. exists (heaviest w). unfold maximum_a_posteriori_state. fold w.
  assert (P : (0 < length w)%nat) by (destruct w; [congruence|cbn; lia]).
  assert (Q : forall l s b, (b <= s)%nat -> (s = 0%nat -> b = 0%nat) -> (b < s \/ s = 0)%nat -> (forall k, (k < length l)%nat -> weight l k = weight w (s + k)) ->
    (forall i, (i < s)%nat -> weight w i <= weight w b) -> (forall i, (i < b)%nat -> weight w i < weight w b) ->
    let r := fold_left (fun '(best, best_weight) '(index, x) => if (x >? best_weight)%num then (index, x) else (best, best_weight)) (combine (seq s (length l)) l) (b, weight w b) in
    (fst r < s + length l \/ fst r = 0)%nat /\ (forall i, (i < s + length l)%nat -> weight w i <= weight w (fst r)) /\ (forall i, (i < fst r)%nat -> weight w i < weight w (fst r))).
  { induction l as [|x l IH]; intros s b B S0 BS H A C.
    - cbn. rewrite Nat.add_0_r. split; [destruct BS; [left; lia|right; apply S0; auto]|]. split; [exact A|exact C].
    - cbn [length seq combine fold_left]. assert (X : x = weight w s) by (specialize (H 0%nat ltac:(cbn; lia)); rewrite Nat.add_0_r in H; exact H).
      replace (s + S (length l))%nat with (S s + length l)%nat by lia.
      assert (H' : forall k, (k < length l)%nat -> weight l k = weight w (S s + k)) by (intros k Hk; specialize (H (S k) ltac:(cbn; lia)); rewrite <- Nat.add_succ_comm in H; exact H).
      cbn [ltb Rnum]. destruct (Rltb (weight w b) x) eqn:E.
      + apply Rltb_true in E. rewrite X. apply IH; [lia|lia|lia|exact H'| |].
        * intros i Hi. destruct (Nat.eq_dec i s) as [->|]; [lra|]. specialize (A i ltac:(lia)). lra.
        * intros i Hi. specialize (A i Hi). lra.
      + apply Rltb_false in E. apply IH; [lia|lia|lia|exact H'| |exact C].
        intros i Hi. destruct (Nat.eq_dec i s) as [->|]; [lra|]. apply A. lia. }
  specialize (Q w 0%nat 0%nat ltac:(lia) ltac:(auto) ltac:(auto) ltac:(intros; reflexivity) ltac:(intros; lia) ltac:(intros; lia)). cbv zeta in Q.
  change (fold_left _ (combine (seq 0 (length w)) w) (0%nat, weight w 0)) with (fold_left (fun '(best, best_weight) '(index, x) => if (x >? best_weight)%num then (index, x) else (best, best_weight)) (combine (seq 0 (length w)) w) (0%nat, vget w 0)) in Q.
  fold (heaviest w) in Q. destruct Q as (A & B & C). split; [cbn in A; destruct A; lia|]. split; [reflexivity|]. split; [intros i Hi; apply B; lia|exact C].
Qed.

(** Resampling by the evenly spaced picks does not move the estimate on average over the offset. *)
Definition weights_of_resampled (offset : R) (n : nat) (f : ParticleFilter R unit) : option (ParticleFilter R unit) :=
  pf_resample (fun _ => (offset, tt)) (fun _ => (0, tt)) n f.
Lemma is_RInt_bsum k (f : nat -> R -> R) (v : nat -> R) a b : (forall i, (i < k)%nat -> is_RInt (f i) a b (v i)) -> is_RInt (fun x => bsum k (fun i => f i x)) a b (bsum k v).
Proof.
  induction k as [|k IH]; intros H; cbn [bsum].
  - pose proof (is_RInt_const (V := R_NormedModule) a b 0) as Q. refine (eq_ind _ (fun z : R => is_RInt (fun _ => 0) a b z) Q _ _). unfold scal. cbn. unfold mult. cbn. ring.
  - apply (is_RInt_plus (V := R_NormedModule)); [apply IH; auto|apply H; lia].
Qed.
Lemma sum_picked (v : nat -> R) k l : Forall (fun i => (i < k)%nat) l -> bsum (length l) (fun j => v (nth j l 0%nat)) = bsum k (fun i => picked l i * v i).
Proof.
  induction 1 as [|i l Hi _ IH].
  - cbn [length bsum]. rewrite (bsum_ext _ _ (fun _ => 0)) by (intros; unfold picked; cbn; ring). symmetry. apply bsum_0.
  - cbn [length]. rewrite bsum_first. cbn [nth]. rewrite IH. rewrite <- (bsum_delta k i (v i) Hi), <- bsum_plus. apply bsum_ext. intros j Hj. unfold picked. cbn [count_occ].
    destruct (Nat.eq_dec i j) as [->|NE]; [rewrite Nat.eqb_refl, S_INR; ring|]. replace (Nat.eqb j i) with false by (symmetry; apply Nat.eqb_neq; lia). ring.
Qed.
Theorem C140_resample_mean n (f : ParticleFilter R unit) j : distribution (pf_weights f) -> length (pf_particles f) = length (pf_weights f) -> (forall p, In p (pf_particles f) -> length p = n) ->
  pf_resampling f = Systematic -> pf_roughening f = 0 -> (j < n)%nat ->
  is_RInt (fun offset => match weights_of_resampled offset n f with Some g => vget (pf_mean n g) j | None => 0 end) 0 1 (vget (pf_mean n f) j).
Proof.
  intros D L H RS RO Hj. set (w := pf_weights f) in *. destruct (not_empty w D) as [N P]. assert (PN : 0 < INR (length w)) by (apply lt_0_INR; exact P).
  destruct (C140_mean unit n f L H) as [_ EM]. rewrite (EM j Hj). fold w.
  set (v := fun i => nth j (nth i (pf_particles f) []) 0).
  assert (T : weighted_mean w (pf_particles f) j = bsum (length w) (fun i => share w (length w) i * (v i / INR (length w)))).
  { unfold weighted_mean. apply bsum_ext. intros i Hi. unfold share, v. field. lra. }
  rewrite T. apply (is_RInt_ext (fun u => bsum (length w) (fun i => (match resample_indices (fun _ : unit => (u, tt)) Systematic w tt (repeat O (length w)) with Some (l, _) => picked l i | None => 0 end) * (v i / INR (length w))))).
  2: { apply is_RInt_bsum. intros i Hi. pose proof (is_RInt_scal (V := R_NormedModule) _ 0 1 (v i / INR (length w)) _ (C138_unbiased w i D Hi)) as Q.
       replace (share w (length w) i * (v i / INR (length w))) with (scal (V := R_NormedModule) (v i / INR (length w)) (share w (length w) i)) by (unfold scal; cbn; unfold mult; cbn; ring).
       revert Q. apply is_RInt_ext. intros x _. unfold scal. cbn -[resample_indices]. unfold mult. cbn -[resample_indices]. apply Rmult_comm. }
  rewrite Rmin_left, Rmax_right by lra. intros u Hu.
  destruct (C138_in_range R Rnum unit (fun _ => (u, tt)) Systematic w tt (repeat O (length w))) as [_ Q].
  destruct (Q N ltac:(rewrite repeat_length; reflexivity)) as (l & [] & E & LL & FA & _). rewrite repeat_length in LL. rewrite E.
  unfold weights_of_resampled, pf_resample. rewrite RS. fold w. destruct (pf_random f). rewrite L, E. rewrite gather_total by (rewrite L; exact FA).
  rewrite RO. cbn [ltb zero Rnum]. replace (Rltb 0 0) with false by (symmetry; apply Rltb_false; lra).
  set (g := pf_with_cloud _ _ _ _).
  assert (GW : pf_weights g = repeat (/ INR (length w)) (length w)).
  { cbn [g pf_with_cloud pf_weights]. rewrite constant_map, of_nat_R. cbn [div one Rnum]. f_equal. unfold Rdiv. ring. }
  assert (GP : pf_particles g = map (fun i => nth i (pf_particles f) []) l) by reflexivity.
  destruct (C140_mean unit n g) as [_ EG].
  { rewrite GW, GP, map_length, repeat_length. exact LL. }
  { intros p. rewrite GP. intros I. apply in_map_iff in I as (i & <- & I). apply H, nth_In. rewrite L. rewrite Forall_forall in FA. apply FA, I. }
  rewrite (EG j Hj). unfold weighted_mean. rewrite GW, GP, repeat_length.
  transitivity (bsum (length w) (fun i => picked l i * (v i / INR (length w)))); [apply bsum_ext; intros; reflexivity|].
  rewrite <- (sum_picked (fun i => v i / INR (length w)) (length w) l FA), LL. apply bsum_ext. intros i Hi.
  assert (W : weight (repeat (/ INR (length w)) (length w)) i = / INR (length w)). { unfold weight. rewrite (nth_indep _ 0 (/ INR (length w))) by (rewrite repeat_length; exact Hi). apply nth_repeat. }
  rewrite W. rewrite (nth_indep (map _ l) [] (nth 0 (pf_particles f) [])) by (rewrite map_length; lia).
  rewrite (map_nth (fun i => nth i (pf_particles f) []) l 0%nat i). unfold v, Rdiv. ring.
Qed.

Definition small_cloud : ParticleFilter R unit :=
  {| pf_particles := [[0]; [1]; [3]]; pf_weights := [1/2; 1/4; 1/4]; pf_process_noise_factor := [[1]]; pf_resampling := Systematic;
     pf_resample_threshold := 2; pf_roughening := 0; pf_random := tt |}.
Example C140_example : distribution (pf_weights small_cloud) /\ length (pf_particles small_cloud) = length (pf_weights small_cloud) /\
  (forall p, In p (pf_particles small_cloud) -> length p = 1%nat) /\ weighted_mean (pf_weights small_cloud) (pf_particles small_cloud) 0 = 1 /\
  exists factor, gaussian_new 1 [[4]] = Ok factor /\ gaussian_log_weight 1 factor [1] [3] = - (1/2).
Proof.
  split; [split; [intros [|[|[|[|i]]]]; unfold weight; cbn; lra|cbn; unfold weight; cbn; lra]|]. split; [reflexivity|].
  split; [intros p [<-|[<-|[<-|[]]]]; reflexivity|]. split; [unfold weighted_mean, weight; cbn; lra|].
  assert (PD : positive_definite 1 (mget [[4]])).
  { intros x (i & Hi & Nx). replace i with 0%nat in Nx by lia. unfold dot_product, times. cbn. assert (0 < x 0%nat * x 0%nat) by (apply Rsqr_pos_lt in Nx; exact Nx). lra. }
  assert (S1 : shape 1 1 [[4]]) by (split; [reflexivity|intros [|i] Hi; [reflexivity|lia]]).
  assert (Y1 : symmetric 1 (mget [[4]])) by (intros [|i] [|j] Hi Hj; try lia; reflexivity).
  destruct (C140_gaussian 1 [[4]] S1 Y1) as [_ G]. destruct (G PD) as (factor & E & K). exists factor. split; [exact E|].
  destruct (K [1] [3]) as (A & _). rewrite (A (fun _ => 1/2)).
  - unfold dot_product. cbn. lra.
  - intros [|i] Hi; [|lia]. unfold times. cbn. lra.
Qed.

Print Assumptions C139_resample.
Print Assumptions C139_bayes.
Print Assumptions C139_effective.
Print Assumptions C139_history.
Print Assumptions C139_nan_stays.
Print Assumptions C139_refused_refuted.
Print Assumptions C139_example.
Print Assumptions C140_predict.
Print Assumptions C140_update.
Print Assumptions C140_new.
Print Assumptions C140_gaussian.
Print Assumptions C140_mean.
Print Assumptions C140_heaviest.
Print Assumptions C140_resample_mean.
Print Assumptions C140_example.
