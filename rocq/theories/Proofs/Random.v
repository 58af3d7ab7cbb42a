From Coq Require Import ZArith NArith Lia List Bool Znumtheory Reals Lra.
From Flocq Require Import Core IEEE754.BinarySingleNaN.
From Verif Require Import Base.Scalar Base.FNum Base.HullDobell Model.Random Spec.Random.
Local Open Scope Z_scope.

Lemma iter_S {A} (f : A -> A) n x : Nat.iter (S n) f x = f (Nat.iter n f x).
Proof. reflexivity. Qed.

Lemma lor_range n a b : 0 <= n -> 0 <= a < 2 ^ n -> 0 <= b < 2 ^ n -> 0 <= Z.lor a b < 2 ^ n.
Proof.
  intros Hn Ha Hb. split; [apply Z.lor_nonneg; lia|].
  destruct (Z.eq_dec (Z.lor a b) 0) as [E|E]; [rewrite E; lia|].
  apply Z.log2_lt_pow2; [pose proof (proj2 (Z.lor_nonneg a b)); lia|].
  rewrite Z.log2_lor by lia.
  destruct (Z.eq_dec n 0) as [->|Hn0].
  { assert (a = 0) by (change (2^0) with 1 in *; lia). assert (b = 0) by (change (2^0) with 1 in *; lia).
    subst. exfalso. apply E. reflexivity. }
  apply Z.max_lub_lt.
  - destruct (Z.eq_dec a 0) as [->|]; [cbn; lia|]. apply Z.log2_lt_pow2; lia.
  - destruct (Z.eq_dec b 0) as [->|]; [cbn; lia|]. apply Z.log2_lt_pow2; lia.
Qed.

Lemma u32_range x : 0 <= u32 x < 2 ^ 32.
Proof. apply Z.mod_pos_bound. reflexivity. Qed.
Lemma u64_range x : 0 <= u64 x < 2 ^ 64.
Proof. apply Z.mod_pos_bound. reflexivity. Qed.

Lemma shiftr_range n x r : 0 <= r -> 0 <= x < 2 ^ n -> 0 <= Z.shiftr x r < 2 ^ n.
Proof.
  intros Hr Hx. rewrite Z.shiftr_div_pow2 by exact Hr.
  assert (0 < 2 ^ r) by (apply Z.pow_pos_nonneg; lia).
  split; [apply Z.div_pos; lia|].
  apply Z.le_lt_trans with x; [|lia]. apply Z.div_le_upper_bound; nia.
Qed.

Lemma rotate_range x r : 0 <= x < 2 ^ 32 -> 0 <= rotate_right32 x r < 2 ^ 32.
Proof.
  intros Hx. unfold rotate_right32. apply lor_range; [lia| |apply u32_range].
  apply shiftr_range; [|exact Hx]. apply Z.mod_pos_bound. lia.
Qed.

Section Pcg.
  Context {T : Type}.
  Implicit Types g : Pcg32 T.

  Lemma next_u32_range g : 0 <= fst (next_u32 g) < 2 ^ 32.
  Proof. cbn [next_u32 fst]. apply rotate_range, u32_range. Qed.

  Lemma next_u64_words g :
    fst (next_u64 g) = fst (next_u32 g) * 2 ^ 32 + fst (next_u32 (snd (next_u32 g))) /\
    snd (next_u64 g) = snd (next_u32 (snd (next_u32 g))).
  Proof.
    unfold next_u64. pose proof (next_u32_range g) as H1.
    destruct (next_u32 g) as [hi g1]. cbn [fst snd] in *.
    pose proof (next_u32_range g1) as H2. destruct (next_u32 g1) as [lo g2]. cbn [fst snd] in *.
    split; [|reflexivity].
    assert (L : Z.land (Z.shiftl hi 32) lo = 0).
    { apply Z.bits_inj'. intros i Hi. rewrite Z.land_spec, Z.bits_0.
      destruct (Z.lt_ge_cases i 32).
      - rewrite Z.shiftl_spec_low by lia. reflexivity.
      - replace (Z.testbit lo i) with false; [apply andb_false_r|].
        symmetry. destruct (Z.eq_dec lo 0) as [->|]; [apply Z.bits_0|].
        apply Z.bits_above_log2; [lia|]. apply Z.lt_le_trans with 32; [|lia].
        apply Z.log2_lt_pow2; lia. }
    rewrite <- Z.lxor_lor by exact L. rewrite <- Z.add_nocarry_lxor by exact L.
    rewrite Z.shiftl_mul_pow2 by lia. reflexivity.
  Qed.

  Lemma next_u64_range g : 0 <= fst (next_u64 g) < 2 ^ 64.
  Proof.
    rewrite (proj1 (next_u64_words g)).
    pose proof (next_u32_range g). pose proof (next_u32_range (snd (next_u32 g))).
    change (2 ^ 64) with (2 ^ 32 * 2 ^ 32). nia.
  Qed.

  (** the state's rule *)
  Definition adv g := snd (next_u32 g).

  Lemma adv_state g : state (adv g) = u64 (PCG_MULTIPLIER * state g + increment g).
  Proof.
    unfold adv. cbn [next_u32 snd state]. unfold u64.
    rewrite Zplus_mod_idemp_l. f_equal. ring.
  Qed.
  Lemma adv_incr g : increment (adv g) = increment g. Proof. reflexivity. Qed.
  Lemma adv_cache g : cache (adv g) = cache g. Proof. reflexivity. Qed.

  Lemma after_iter n g : after n g = Nat.iter (N.to_nat n) adv g.
  Proof. unfold after. rewrite N2Nat.inj_iter. reflexivity. Qed.

  Lemma iter_incr n g : increment (Nat.iter n adv g) = increment g.
  Proof. induction n; [reflexivity|]. rewrite ?iter_S. rewrite adv_incr. exact IHn. Qed.
  Lemma iter_cache n g : cache (Nat.iter n adv g) = cache g.
  Proof. induction n; [reflexivity|]. rewrite ?iter_S. rewrite adv_cache. exact IHn. Qed.

  Lemma iter_state n g : is_u64 (state g) ->
    state (Nat.iter n adv g) = u64 (Nat.iter n (lstep PCG_MULTIPLIER (increment g)) (state g)).
  Proof.
    intros Hs. induction n as [|n IH].
    - cbn. symmetry. apply Z.mod_small. exact Hs.
    - rewrite ?iter_S. rewrite adv_state, iter_incr, IH.
      change (Nat.iter (S n) (lstep PCG_MULTIPLIER (increment g)) (state g))
        with (lstep PCG_MULTIPLIER (increment g) (Nat.iter n (lstep PCG_MULTIPLIER (increment g)) (state g))).
      unfold u64, lstep. rewrite <- Zplus_mod_idemp_l, Zmult_mod_idemp_r, Zplus_mod_idemp_l. reflexivity.
  Qed.

  Definition wf g := is_u64 (state g) /\ is_u64 (increment g) /\ increment g mod 2 = 1.

  Lemma adv_wf g : wf g -> wf (adv g).
  Proof.
    intros (H1 & H2 & H3). split; [|split].
    - rewrite adv_state. apply u64_range.
    - rewrite adv_incr. exact H2.
    - rewrite adv_incr. exact H3.
  Qed.
  Lemma iter_wf n g : wf g -> wf (Nat.iter n adv g).
  Proof. intros H. induction n; [exact H|]. rewrite ?iter_S. apply adv_wf, IHn. Qed.
  Lemma after_wf n g : wf g -> wf (after n g).
  Proof. rewrite after_iter. apply iter_wf. Qed.

  Lemma after_add n m g : after (n + m) g = after n (after m g).
  Proof. rewrite !after_iter, N2Nat.inj_add. apply iter_plus. Qed.

  Definition incr_of (stream : Z) : Z := Z.lor (u64 (Z.shiftl stream 1)) 1.

  Lemma incr_of_val stream : incr_of stream = 2 * (stream mod 2 ^ 63) + 1.
  Proof.
    unfold incr_of, u64. rewrite Z.shiftl_mul_pow2 by lia.
    change (2 ^ 64) with (2 ^ 63 * 2 ^ 1). rewrite Zmult_mod_distr_r.
    set (w := stream mod 2 ^ 63). change (2 ^ 1) with 2.
    rewrite (Z.mul_comm w 2).
    assert (L : Z.land (2 * w) 1 = 0).
    { change 1 with (Z.ones 1) at 1. rewrite Z.land_ones by lia. change (2^1) with 2.
      rewrite Z.mul_comm. apply Z_mod_mult. }
    rewrite <- Z.lxor_lor by exact L. rewrite <- Z.add_nocarry_lxor by exact L. reflexivity.
  Qed.

  Lemma incr_of_wf stream : is_u64 (incr_of stream) /\ incr_of stream mod 2 = 1.
  Proof.
    rewrite incr_of_val. pose proof (Z.mod_pos_bound stream (2 ^ 63) eq_refl) as H.
    split.
    - unfold is_u64. change (2 ^ 64) with (2 * 2 ^ 63). lia.
    - rewrite Z.add_comm, Z.mul_comm, Z_mod_plus_full. reflexivity.
  Qed.

  Lemma with_stream_eq seed stream : @with_stream T seed stream =
    adv (mkPcg (u64 (state (@adv (mkPcg 0 (incr_of stream) None)) + seed)) (incr_of stream) None).
  Proof. reflexivity. Qed.

  Lemma with_stream_wf seed stream : wf (@with_stream T seed stream).
  Proof.
    rewrite with_stream_eq. apply adv_wf. split; [|apply incr_of_wf].
    cbn [state]. apply u64_range.
  Qed.

  Lemma mult_mod4 : PCG_MULTIPLIER mod 4 = 1. Proof. reflexivity. Qed.

  Lemma cong_u64 x y : u64 x = u64 y <-> (2 ^ 64 | x - y).
  Proof.
    unfold u64. split; intros H.
    - apply Z.mod_divide; [lia|]. rewrite Zminus_mod, H, Z.sub_diag. reflexivity.
    - apply Z.mod_divide in H; [|lia]. destruct (Zmod_divides (x - y) (2^64)) as [K _]; [lia|].
      destruct (K H) as [q Hq]. replace x with (y + q * 2 ^ 64) by lia. apply Z_mod_plus_full.
  Qed.

  Lemma iter_eq_base n g : wf g -> (Nat.iter n adv g = g <-> (2 ^ 64 | Z.of_nat n)).
  Proof.
    intros (H1 & H2 & H3).
    rewrite <- (iter_cong PCG_MULTIPLIER (increment g) mult_mod4 H3 n (state g) 64) by lia.
    rewrite <- cong_u64. rewrite <- iter_state by exact H1.
    assert (E : u64 (state g) = state g) by (apply Z.mod_small; exact H1). rewrite E.
    split; intros H.
    - rewrite H. reflexivity.
    - pose proof (iter_incr n g) as Hi. pose proof (iter_cache n g) as Hcc.
      destruct (Nat.iter n adv g), g; cbn in *. subst. reflexivity.
  Qed.

  Lemma iter_eq n m g : wf g -> (n <= m)%nat ->
    (Nat.iter n adv g = Nat.iter m adv g <-> (2 ^ 64 | Z.of_nat m - Z.of_nat n)).
  Proof.
    intros Hg Hnm. replace m with ((m - n) + n)%nat by lia. rewrite iter_plus.
    replace (Z.of_nat (m - n + n) - Z.of_nat n) with (Z.of_nat (m - n)) by lia.
    rewrite <- (iter_eq_base (m - n) _ (iter_wf n g Hg)).
    split; intros H; symmetry; exact H.
  Qed.

  Lemma after_eq n m g : wf g ->
    (after n g = after m g <-> (n mod 2 ^ 64 = m mod 2 ^ 64)%N).
  Proof.
    intros Hg. rewrite !after_iter.
    assert (K : (2 ^ 64 | Z.of_N m - Z.of_N n) <-> (n mod 2 ^ 64 = m mod 2 ^ 64)%N).
    { rewrite <- cong_u64. unfold u64.
      rewrite <- (N2Z.inj_iff (n mod 2^64) (m mod 2^64)), !N2Z.inj_mod.
      change (Z.of_N (2^64)) with (2^64). split; congruence. }
    rewrite <- K.
    destruct (Nat.le_gt_cases (N.to_nat n) (N.to_nat m)) as [Hle|Hgt].
    - rewrite iter_eq by assumption. rewrite !N_nat_Z. reflexivity.
    - split; intros H.
      + symmetry in H. apply iter_eq in H; [|assumption|lia]. rewrite !N_nat_Z in H.
        rewrite <- Z.divide_opp_r. replace (- (Z.of_N m - Z.of_N n)) with (Z.of_N n - Z.of_N m) by ring. exact H.
      + symmetry. apply iter_eq; [assumption|lia|]. rewrite !N_nat_Z.
        rewrite <- Z.divide_opp_r. replace (- (Z.of_N n - Z.of_N m)) with (Z.of_N m - Z.of_N n) by ring. exact H.
  Qed.

  Lemma after_surj g y : wf g -> is_u64 y ->
    exists n, (n < 2 ^ 64)%N /\ state (after n g) = y.
  Proof.
    intros (H1 & H2 & H3) Hy.
    destruct (iter_surj PCG_MULTIPLIER (increment g) mult_mod4 H3 64 (state g) y) as [n [Hn Hd]].
    exists (N.of_nat n). split.
    - apply N2Z.inj_lt. rewrite nat_N_Z. exact Hn.
    - rewrite after_iter, Nat2N.id, iter_state by exact H1.
      apply (cong_u64 _ y) in Hd. rewrite Hd. apply Z.mod_small. exact Hy.
  Qed.

  (** every word is drawn *)
  Lemma u32_small x : 0 <= x < 2 ^ 32 -> u32 x = x.
  Proof. apply Z.mod_small. Qed.

  Lemma output_onto w : 0 <= w < 2 ^ 32 -> exists s, is_u64 s /\
    forall i c, fst (next_u32 (mkPcg s i c : Pcg32 T)) = w.
  Proof.
    intros Hw. set (v := Z.lxor w (Z.shiftr w 18)).
    assert (Hv : 0 <= v < 2 ^ 32).
    { split; [apply Z.lxor_nonneg; split; intros; [apply Z.shiftr_nonneg|]; lia|].
      destruct (Z.eq_dec v 0) as [->|]; [lia|].
      assert (0 <= v) by (apply Z.lxor_nonneg; split; intros; [apply Z.shiftr_nonneg|]; lia).
      apply Z.log2_lt_pow2; [lia|].
      assert (Hs : 0 <= Z.shiftr w 18 < 2 ^ 32) by (apply shiftr_range; lia).
      apply Z.le_lt_trans with (Z.max (Z.log2 w) (Z.log2 (Z.shiftr w 18))); [apply Z.log2_lxor; lia|].
      apply Z.max_lub_lt.
      - destruct (Z.eq_dec w 0) as [->|]; [cbn; lia|]. apply Z.log2_lt_pow2; lia.
      - destruct (Z.eq_dec (Z.shiftr w 18) 0) as [->|]; [cbn; lia|]. apply Z.log2_lt_pow2; lia. }
    exists (Z.shiftl v 27). assert (Hsh : Z.shiftl v 27 = v * 2 ^ 27) by (apply Z.shiftl_mul_pow2; lia).
    split; [unfold is_u64; rewrite Hsh; split; [lia|]; change (2^64) with (2^32 * 2^32); nia|].
    intros i c. cbn [next_u32 fst state].
    assert (R : Z.shiftr (Z.shiftl v 27) 59 = 0).
    { rewrite Z.shiftr_div_pow2 by lia. rewrite Hsh. apply Z.div_small.
      change (2^59) with (2^32 * 2^27). nia. }
    rewrite R.
    assert (X : Z.shiftr (Z.lxor (Z.shiftr (Z.shiftl v 27) 18) (Z.shiftl v 27)) 27 = w).
    { rewrite Z.shiftr_lxor. rewrite Z.shiftr_shiftr by lia.
      rewrite (Z.add_comm 18 27). rewrite <- Z.shiftr_shiftr by lia.
      rewrite !Z.shiftr_shiftl_l by lia. rewrite Z.sub_diag, Z.shiftl_0_r.
      change (Z.shiftl v (0 - 18)) with (Z.shiftr v 18).
      unfold v. rewrite Z.shiftr_lxor, Z.shiftr_shiftr by lia.
      replace (Z.shiftr w (18 + 18)) with 0.
      - rewrite Z.lxor_0_r. rewrite (Z.lxor_comm w (Z.shiftr w 18)), <- Z.lxor_assoc, Z.lxor_nilpotent.
        apply Z.lxor_0_l.
      - symmetry. rewrite Z.shiftr_div_pow2 by lia. apply Z.div_small.
        change (2 ^ (18+18)) with (2^32 * 16). lia. }
    rewrite X, u32_small by exact Hw. unfold rotate_right32.
    change (u32 0 mod 32) with 0. change ((32 - 0) mod 32) with 0.
    rewrite Z.shiftr_0_r, Z.shiftl_0_r, u32_small by exact Hw. apply Z.lor_diag.
  Qed.

  Lemma word_drawn g w : wf g -> 0 <= w < 2 ^ 32 -> exists n, (n < 2 ^ 64)%N /\ draw n g = w.
  Proof.
    intros Hg Hw. destruct (output_onto w Hw) as [s [Hs Ho]].
    destruct (after_surj g s Hg Hs) as [n [Hn He]]. exists n. split; [exact Hn|].
    unfold draw. rewrite <- (Ho (increment (after n g)) (cache (after n g))), <- He.
    destruct (after n g); reflexivity.
  Qed.

  (** streams *)
  Lemma streams_alias seed stream :
    @with_stream T seed (u64 (stream + 2 ^ 63)) = with_stream seed stream.
  Proof.
    rewrite !with_stream_eq. assert (E : incr_of (u64 (stream + 2^63)) = incr_of stream).
    { rewrite !incr_of_val. do 2 f_equal. unfold u64.
      rewrite <- Znumtheory.Zmod_div_mod; [|lia|lia|exists 2; reflexivity].
      replace (stream + 2^63) with (stream + 1 * 2^63) by ring. apply Z_mod_plus_full. }
    rewrite E. reflexivity.
  Qed.

  Lemma streams_differ seed stream seed' stream' n m :
    stream mod 2 ^ 63 <> stream' mod 2 ^ 63 ->
    after n (@with_stream T seed stream) <> after m (with_stream seed' stream').
  Proof.
    intros Hne H. apply (f_equal increment) in H. rewrite !after_iter, !iter_incr in H.
    rewrite !with_stream_eq in H. rewrite !adv_incr in H. cbn [increment] in H.
    rewrite !incr_of_val in H. lia.
  Qed.
End Pcg.

(** * Uniform draws *)
Section Units.
  Context (prec emax : Z) {Hp : Prec_gt_0 prec} {He : Prec_lt_emax prec emax}.
  Local Open Scope R_scope.

  Lemma fof_exact m e : (emax > 1)%Z -> (Z.abs m < 2 ^ prec)%Z -> (3 - emax - prec <= e)%Z ->
    (e <= emax - prec)%Z ->
    B2R (fof prec emax m e) = (IZR m * bpow radix2 e)%R /\ ffinite (fof prec emax m e) = true.
  Proof.
    intros Hemax Hm He1 He2. unfold fof.
    pose proof (binary_normalize_correct prec emax Hp He mode_NE m e false) as H; cbv zeta in H.
    assert (Hg : generic_format radix2 (SpecFloat.fexp prec emax) (F2R (Float radix2 m e))).
    { apply generic_format_FLT. exists (Float radix2 m e); [reflexivity|exact Hm|].
      cbn. unfold SpecFloat.emin. lia. }
    rewrite round_generic in H; [|auto with typeclass_instances|exact Hg].
    rewrite Rlt_bool_true in H.
    - destruct H as (H1 & H2 & _). split; [|exact H2]. rewrite H1. reflexivity.
    - unfold F2R. cbn. rewrite Rabs_mult, (Rabs_pos_eq (bpow radix2 e)) by apply bpow_ge_0.
      apply Rlt_le_trans with (IZR (2 ^ prec) * bpow radix2 e).
      + apply Rmult_lt_compat_r; [apply bpow_gt_0|]. rewrite <- abs_IZR. apply IZR_lt, Hm.
      + change (IZR (2 ^ prec)) with (IZR (Zpower radix2 prec)).
        rewrite IZR_Zpower by (unfold Prec_gt_0 in Hp; lia). rewrite <- bpow_plus. apply bpow_le. lia.
  Qed.

  (** dividing one by 2^prec and multiplying a prec-bit integer by it are exact *)
  Lemma unit_exact k : (emax > prec + 3)%Z -> (0 <= k < 2 ^ prec)%Z ->
    let u := Bmult mode_NE (fof prec emax k 0) (Bdiv mode_NE (fof prec emax 1 0) (fof prec emax (2 ^ prec) 0)) in
    B2R u = IZR k / IZR (2 ^ prec) /\ ffinite u = true.
  Proof.
    intros Hem Hk u. assert (Hp' : (0 < prec)%Z) by exact Hp.
    assert (P : IZR (2 ^ prec) = bpow radix2 prec).
    { change (2 ^ prec)%Z with (Zpower radix2 prec). apply IZR_Zpower. lia. }
    assert (one_ok : B2R (fof prec emax 1 0) = 1 /\ ffinite (fof prec emax 1 0) = true).
    { destruct (fof_exact 1 0) as [A B]; try lia.
      - apply (Zpow_facts.Zpower_gt_1 2 prec); lia.
      - split; [rewrite A; cbn; ring|exact B]. }
    assert (two_ok : B2R (fof prec emax (2^prec) 0) = bpow radix2 prec /\ ffinite (fof prec emax (2^prec) 0) = true).
    { pose proof (binary_normalize_correct prec emax Hp He mode_NE (2^prec) 0 false) as H; cbv zeta in H.
      fold (fof prec emax (2^prec) 0) in H.
      assert (Hf : F2R (Float radix2 (2^prec) 0) = bpow radix2 prec).
      { unfold F2R; cbn [Fnum Fexp]. rewrite P. cbn. ring. }
      rewrite Hf in H. rewrite round_generic in H; [|auto with typeclass_instances|].
      - rewrite Rlt_bool_true in H.
        + destruct H as (A & B & _). split; assumption.
        + rewrite Rabs_pos_eq by apply bpow_ge_0. apply bpow_lt. lia.
      - apply generic_format_bpow. unfold SpecFloat.fexp, SpecFloat.emin. lia. }
    assert (k_ok : B2R (fof prec emax k 0) = IZR k /\ ffinite (fof prec emax k 0) = true).
    { destruct (fof_exact k 0) as [A B]; try lia. split; [rewrite A; cbn; ring|exact B]. }
    assert (div_ok : B2R (Bdiv mode_NE (fof prec emax 1 0) (fof prec emax (2^prec) 0)) = bpow radix2 (- prec)
       /\ ffinite (Bdiv mode_NE (fof prec emax 1 0) (fof prec emax (2^prec) 0)) = true).
    { pose proof (Bdiv_correct prec emax Hp He mode_NE (fof prec emax 1 0) (fof prec emax (2^prec) 0)) as H; cbv zeta in H.
      destruct two_ok as [t1 t2]. destruct one_ok as [o1 o2].
      rewrite t1, o1 in H. specialize (H (Rgt_not_eq _ _ (bpow_gt_0 _ _))).
      assert (Hq : 1 / bpow radix2 prec = bpow radix2 (- prec)).
      { rewrite bpow_opp. unfold Rdiv. ring. }
      rewrite Hq in H. rewrite round_generic in H; [|auto with typeclass_instances|].
      - rewrite Rlt_bool_true in H.
        + destruct H as (A & B & _). rewrite o2 in B. split; assumption.
        + rewrite Rabs_pos_eq by apply bpow_ge_0. apply bpow_lt. lia.
      - apply generic_format_bpow. unfold SpecFloat.fexp, SpecFloat.emin. lia. }
    destruct k_ok as [k1 k2]. destruct div_ok as [d1 d2].
    pose proof (Bmult_correct prec emax Hp He mode_NE (fof prec emax k 0)
       (Bdiv mode_NE (fof prec emax 1 0) (fof prec emax (2^prec) 0))) as H; cbv zeta in H.
    fold u in H. rewrite k1, d1, k2, d2 in H.
    assert (Hg : generic_format radix2 (SpecFloat.fexp prec emax) (IZR k * bpow radix2 (- prec))).
    { apply generic_format_FLT. exists (Float radix2 k (- prec)); [reflexivity| |].
      - cbn [Fnum]. change (Zpower radix2 prec) with (2^prec)%Z. lia.
      - cbn [Fexp]. unfold SpecFloat.emin. lia. }
    rewrite round_generic in H; [|auto with typeclass_instances|exact Hg].
    assert (Hlt : IZR k * bpow radix2 (- prec) < 1).
    { rewrite bpow_opp, <- P. apply Rmult_lt_reg_r with (IZR (2^prec)).
      - rewrite P. apply bpow_gt_0.
      - rewrite Rmult_assoc, Rinv_l, Rmult_1_r, Rmult_1_l by (rewrite P; apply Rgt_not_eq, bpow_gt_0).
        apply IZR_lt. lia. }
    assert (Hge : 0 <= IZR k * bpow radix2 (- prec)).
    { apply Rmult_le_pos; [apply IZR_le; lia|apply bpow_ge_0]. }
    rewrite Rlt_bool_true in H.
    - destruct H as (A & B & _). split; [|exact B]. rewrite A, bpow_opp, P. reflexivity.
    - rewrite Rabs_pos_eq by exact Hge. apply Rlt_le_trans with 1; [exact Hlt|].
      change 1 with (bpow radix2 0). apply bpow_le. lia.
  Qed.
End Units.

Lemma unit_f64 (g : Pcg32 f64) :
  let k := fst (next_u64 g) / 2 ^ 11 in
  (0 <= k < 2 ^ 53)%Z /\
  ffinite (fst (next_unit_f64 g)) = true /\
  B2R (fst (next_unit_f64 g)) = (IZR k / IZR (2 ^ 53))%R /\
  snd (next_unit_f64 g) = snd (next_u64 g).
Proof.
  intros k. unfold next_unit_f64. pose proof (next_u64_range g) as H. unfold k.
  destruct (next_u64 g) as [w g']. cbn [fst snd] in *.
  rewrite Z.shiftr_div_pow2 by lia.
  assert (Hk : 0 <= w / 2 ^ 11 < 2 ^ 53).
  { split; [apply Z.div_pos; lia|]. apply Z.div_lt_upper_bound; [lia|]. exact (proj2 H). }
  split; [exact Hk|].
  destruct (unit_exact 53 1024 (w / 2^11) ltac:(lia) Hk) as [A B].
  change (Z.shiftl 1 53) with (2 ^ 53)%Z. unfold F64.
  split; [exact B|]. split; [exact A|reflexivity].
Qed.

Lemma unit_f32 (g : Pcg32 f32) :
  let k := fst (next_u32 g) / 2 ^ 8 in
  (0 <= k < 2 ^ 24)%Z /\
  ffinite (fst (next_unit_f32 g)) = true /\
  B2R (fst (next_unit_f32 g)) = (IZR k / IZR (2 ^ 24))%R /\
  snd (next_unit_f32 g) = snd (next_u32 g).
Proof.
  intros k. unfold next_unit_f32. pose proof (next_u32_range g) as H. unfold k.
  destruct (next_u32 g) as [w g']. cbn [fst snd] in *.
  rewrite Z.shiftr_div_pow2 by lia.
  assert (Hk : 0 <= w / 2 ^ 8 < 2 ^ 24).
  { split; [apply Z.div_pos; lia|]. apply Z.div_lt_upper_bound; [lia|]. exact (proj2 H). }
  split; [exact Hk|].
  destruct (unit_exact 24 128 (w / 2^8) ltac:(lia) Hk) as [A B].
  change (Z.shiftl 1 24) with (2 ^ 24)%Z. unfold F32.
  split; [exact B|]. split; [exact A|reflexivity].
Qed.

(** * Normal draws *)
Section Normal.
  Context {T : Type} {NT : Num T}.
  Variable next_unit : Pcg32 T -> T * Pcg32 T.

  Definition pair_at (g : Pcg32 T) : T * T * Pcg32 T :=
    let (u, g1) := next_unit g in let (v, g2) := next_unit g1 in (u, v, g2).

  Lemma polar_step fuel g : polar_loop next_unit (S fuel) g =
    let '(u, v, g2) := pair_at g in
    if accepted u v then Some (first_normal u v, set_cache g2 (second_normal u v))
    else polar_loop next_unit fuel g2.
  Proof.
    unfold pair_at. cbn [polar_loop]. destruct (next_unit g) as [u g1].
    destruct (next_unit g1) as [v g2]. reflexivity.
  Qed.

  (** the generator after [k] pairs *)
  Fixpoint pairs_after (k : nat) (g : Pcg32 T) : Pcg32 T :=
    match k with O => g | S k => pairs_after k (snd (pair_at g)) end.

  Lemma polar_spec : forall fuel g r g',
    polar_loop next_unit fuel g = Some (r, g') <->
    exists k, (k < fuel)%nat /\
      (forall j, (j < k)%nat -> accepted (fst (fst (pair_at (pairs_after j g)))) (snd (fst (pair_at (pairs_after j g)))) = false) /\
      let '(u, v, g2) := pair_at (pairs_after k g) in
      accepted u v = true /\ r = first_normal u v /\ g' = set_cache g2 (second_normal u v).
  Proof.
    induction fuel as [|fuel IH]; intros g r g'.
    - split; [discriminate|]. intros [k [Hk _]]. lia.
    - rewrite polar_step. destruct (pair_at g) as [[u v] g2] eqn:E.
      destruct (accepted u v) eqn:A.
      + split.
        * intros H. inversion H; subst. exists O. split; [lia|]. split; [intros; lia|].
          cbn [pairs_after]. rewrite E. auto.
        * intros [k [Hk [Hrej Hacc]]]. destruct k as [|k].
          -- cbn [pairs_after] in Hacc. rewrite E in Hacc. destruct Hacc as (_ & -> & ->). reflexivity.
          -- specialize (Hrej O ltac:(lia)). cbn [pairs_after] in Hrej. rewrite E in Hrej. cbn in Hrej. congruence.
      + rewrite IH. split.
        * intros [k [Hk [Hrej Hacc]]]. exists (S k). split; [lia|]. split.
          -- intros [|j] Hj; cbn [pairs_after]; rewrite E; cbn [fst snd]; [exact A|]. apply Hrej. lia.
          -- cbn [pairs_after]. rewrite E. cbn [snd]. exact Hacc.
        * intros [k [Hk [Hrej Hacc]]]. destruct k as [|k].
          -- cbn [pairs_after] in Hacc. rewrite E in Hacc. destruct Hacc. congruence.
          -- exists k. split; [lia|]. split.
             ++ intros j Hj. specialize (Hrej (S j) ltac:(lia)). cbn [pairs_after] in Hrej. rewrite E in Hrej. exact Hrej.
             ++ cbn [pairs_after] in Hacc. rewrite E in Hacc. exact Hacc.
  Qed.
End Normal.

Section Normal2.
  Context {T : Type} {NT : Num T}.
  Variable next_unit : Pcg32 T -> T * Pcg32 T.

  Lemma pair_at_units g : pair_at next_unit g = (unit_draw next_unit 0 g, unit_draw next_unit 1 g, units_after next_unit 2 g).
  Proof.
    unfold pair_at, unit_draw, units_after. cbn.
    destruct (next_unit g) as [u g1] eqn:E1. cbn. destruct (next_unit g1) as [v g2]. reflexivity.
  Qed.
  Lemma units_after_add j k g : units_after next_unit j (units_after next_unit k g) = units_after next_unit (j + k) g.
  Proof. unfold units_after. symmetry. apply iter_plus. Qed.
  Lemma unit_draw_add j k g : unit_draw next_unit j (units_after next_unit k g) = unit_draw next_unit (j + k) g.
  Proof. unfold unit_draw. rewrite units_after_add. reflexivity. Qed.
  Lemma pairs_after_units k : forall g, pairs_after next_unit k g = units_after next_unit (2 * k) g.
  Proof.
    induction k as [|k IH]; intros g; [reflexivity|].
    cbn [pairs_after]. rewrite IH, pair_at_units. cbn [snd]. rewrite units_after_add. f_equal. lia.
  Qed.

  Lemma polar_units fuel g r g' :
    polar_loop next_unit fuel g = Some (r, g') <->
    exists k, (k < fuel)%nat /\
      (forall j, (j < k)%nat ->
         accepted (unit_draw next_unit (2 * j) g) (unit_draw next_unit (2 * j + 1) g) = false) /\
      let u := unit_draw next_unit (2 * k) g in
      let v := unit_draw next_unit (2 * k + 1) g in
      accepted u v = true /\ r = first_normal u v /\
      g' = set_cache (units_after next_unit (2 * k + 2) g) (second_normal u v).
  Proof.
    rewrite polar_spec.
    assert (P : forall j, pair_at next_unit (pairs_after next_unit j g) =
       (unit_draw next_unit (2 * j) g, unit_draw next_unit (2 * j + 1) g, units_after next_unit (2 * j + 2) g)).
    { intros j. rewrite pairs_after_units, pair_at_units, !unit_draw_add, units_after_add.
      replace (0 + 2 * j)%nat with (2 * j)%nat by lia. replace (1 + 2 * j)%nat with (2 * j + 1)%nat by lia.
      replace (2 + 2 * j)%nat with (2 * j + 2)%nat by lia. reflexivity. }
    split; intros [k [Hk [Hrej Hacc]]]; exists k; split; try exact Hk; split.
    - intros j Hj. specialize (Hrej j Hj). rewrite P in Hrej. exact Hrej.
    - rewrite P in Hacc. exact Hacc.
    - intros j Hj. rewrite P. apply Hrej, Hj.
    - rewrite P. exact Hacc.
  Qed.
End Normal2.

Lemma next_u64_after {T} (g : Pcg32 T) : snd (next_u64 g) = after 2 g.
Proof. rewrite (proj2 (next_u64_words g)). reflexivity. Qed.

Lemma units_after_f64 k (g : Pcg32 f64) : units_after next_unit_f64 k g = after (2 * N.of_nat k) g.
Proof.
  induction k as [|k IH]; [reflexivity|].
  unfold units_after in *. rewrite iter_S, IH.
  destruct (unit_f64 (after (2 * N.of_nat k) g)) as (_ & _ & _ & ->).
  rewrite next_u64_after, <- after_add. f_equal. lia.
Qed.
Lemma units_after_f32 k (g : Pcg32 f32) : units_after next_unit_f32 k g = after (N.of_nat k) g.
Proof.
  induction k as [|k IH]; [reflexivity|].
  unfold units_after in *. rewrite iter_S, IH.
  destruct (unit_f32 (after (N.of_nat k) g)) as (_ & _ & _ & ->).
  change (snd (next_u32 (after (N.of_nat k) g))) with (after 1 (after (N.of_nat k) g)).
  rewrite <- after_add. f_equal. lia.
Qed.

Lemma after_cache {T} n (g : Pcg32 T) : cache (after n g) = cache g.
Proof. rewrite after_iter. apply iter_cache. Qed.
