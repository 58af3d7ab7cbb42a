From Coq Require Import ZArith Lia List Bool Reals Lra Permutation Arith.
From Flocq Require Import Core IEEE754.BinarySingleNaN Plus_error Relative.
From Verif Require Import Base.Scalar Base.RNum Base.FNum Base.FloatOps Model.Summation Spec.Summation.
Import ListNotations.
Local Open Scope nat_scope.

Lemma testbit_nat_clear occ k j : (0 <= occ)%Z ->
  Z.testbit (Z.clearbit occ (Z.of_nat k)) (Z.of_nat j) = Z.testbit occ (Z.of_nat j) && negb (k =? j).
Proof.
  intros H. rewrite Z.clearbit_eqb by lia. f_equal. f_equal.
  destruct (Nat.eqb_spec k j); destruct (Z.eqb_spec (Z.of_nat k) (Z.of_nat j)); auto; lia.
Qed.
Lemma testbit_nat_set occ k j : (0 <= occ)%Z ->
  Z.testbit (Z.setbit occ (Z.of_nat k)) (Z.of_nat j) = (k =? j) || Z.testbit occ (Z.of_nat j).
Proof.
  intros H. rewrite Z.setbit_eqb by lia. f_equal.
  destruct (Nat.eqb_spec k j); destruct (Z.eqb_spec (Z.of_nat k) (Z.of_nat j)); auto; lia.
Qed.
Lemma clearbit_val occ k : (0 <= occ)%Z -> Z.testbit occ (Z.of_nat k) = true ->
  Z.clearbit occ (Z.of_nat k) = (occ - 2 ^ Z.of_nat k)%Z.
Proof.
  intros H Hb. unfold Z.clearbit. rewrite Z.shiftl_1_l.
  symmetry. apply Z.sub_nocarry_ldiff. apply Z.bits_inj'. intros i Hi.
  rewrite Z.ldiff_spec, Z.bits_0, Z.pow2_bits_eqb by lia.
  destruct (Z.eqb_spec (Z.of_nat k) i); [subst; rewrite Hb; reflexivity|reflexivity].
Qed.
Lemma setbit_val occ k : (0 <= occ)%Z -> Z.testbit occ (Z.of_nat k) = false ->
  Z.setbit occ (Z.of_nat k) = (occ + 2 ^ Z.of_nat k)%Z.
Proof.
  intros H Hb. unfold Z.setbit. rewrite Z.shiftl_1_l.
  assert (L : Z.land occ (2 ^ Z.of_nat k) = 0%Z).
  { apply Z.bits_inj'. intros i Hi. rewrite Z.land_spec, Z.bits_0, Z.pow2_bits_eqb by lia.
    destruct (Z.eqb_spec (Z.of_nat k) i); [subst; rewrite Hb; reflexivity|apply andb_false_r]. }
  rewrite <- Z.lxor_lor by exact L. symmetry. apply Z.add_nocarry_lxor. exact L.
Qed.
Lemma clearbit_nonneg occ k : (0 <= occ)%Z -> (0 <= Z.clearbit occ (Z.of_nat k))%Z.
Proof.
  intros H. unfold Z.clearbit. apply Z.ldiff_nonneg. left. exact H.
Qed.
Lemma setbit_nonneg occ k : (0 <= occ)%Z -> (0 <= Z.setbit occ (Z.of_nat k))%Z.
Proof. intros H. unfold Z.setbit. apply Z.lor_nonneg. split; [exact H|]. apply Z.shiftl_nonneg. lia. Qed.
Lemma testbit_high occ k : (0 <= occ < 2 ^ Z.of_nat LEVELS)%Z -> LEVELS <= k ->
  Z.testbit occ (Z.of_nat k) = false.
Proof.
  intros H Hk. destruct (Z.eq_dec occ 0) as [->|]; [apply Z.bits_0|].
  apply Z.bits_above_log2; [lia|]. apply Z.lt_le_trans with (Z.of_nat LEVELS); [|lia].
  apply Z.log2_lt_pow2; lia.
Qed.

(** * Ghost contents of the slots *)
Section Ghost.
  Context {A : Type}.
  Implicit Types f : nat -> list A.

  Lemma flat_map_ext_in f f' l : (forall k, In k l -> f k = f' k) -> flat_map f l = flat_map f' l.
  Proof.
    induction l as [|x l IH]; intros H; [reflexivity|]. cbn. rewrite H by (left; reflexivity).
    rewrite IH; [reflexivity|]. intros k Hk. apply H. right. exact Hk.
  Qed.

  (** Changing the contents of one slot. *)
  Lemma flat_map_update f f' k l : NoDup l -> In k l -> (forall j, j <> k -> f j = f' j) ->
    Permutation (flat_map f l ++ f' k) (flat_map f' l ++ f k).
  Proof.
    intros Hnd Hin Heq. induction Hnd as [|x l Hx Hnd IH]; [destruct Hin|].
    cbn. destruct (Nat.eq_dec x k) as [->|Hne].
    - rewrite (flat_map_ext_in f f' l).
      + rewrite <- !app_assoc. rewrite Permutation_app_comm, <- app_assoc.
        rewrite (Permutation_app_comm (f' k) (f k)). rewrite app_assoc.
        rewrite Permutation_app_comm. reflexivity.
      + intros j Hj. apply Heq. intros ->. contradiction.
    - destruct Hin as [->|Hin]; [contradiction|]. rewrite (Heq x Hne), <- !app_assoc.
      apply Permutation_app_head, IH, Hin.
  Qed.
End Ghost.

(** * The generic invariant *)
Section Generic.
  Context {T : Type} {NT : Num T}.
  (** [approx d v l]: [v] is a sum of the terms [l] in which each term goes through at most [d] additions. *)
  Variable approx : nat -> T -> list T -> Prop.
  Hypothesis approx_nil : approx 0 zero [].
  Hypothesis approx_one : forall x, approx 0 x [x].
  Hypothesis approx_merge : forall d v l w m, approx d v l -> approx d w m -> approx (S d) (add v w) (l ++ m).
  Hypothesis approx_mono : forall d v l, approx d v l -> approx (S d) v l.
  Hypothesis approx_perm : forall d v l l', Permutation l l' -> approx d v l -> approx d v l'.

  Lemma approx_le d d' v l : d <= d' -> approx d v l -> approx d' v l.
  Proof. induction 1; auto. Qed.

  Definition slots (gs : nat -> list T) (occ : Z) (k : nat) : list T :=
    if Z.testbit occ (Z.of_nat k) then gs k else [].

  Definition Inv (a : PairwiseSum) (terms : list T) (blocks : nat) : Prop :=
    block_count a < BLOCK /\ length (tree a) = LEVELS /\ occupied a = Z.of_nat blocks /\
    length terms = BLOCK * blocks + block_count a /\
    exists gb gs,
      approx (block_count a) (block_sum a) gb /\
      (forall k, k < LEVELS -> Z.testbit (occupied a) (Z.of_nat k) = true ->
         approx (BLOCK + k) (nth k (tree a) zero) (gs k)) /\
      Permutation terms (gb ++ flat_map (slots gs (occupied a)) (seq 0 LEVELS)).

  Lemma carry_spec tr gs : forall steps level occ v gv lv occ' v',
    level + steps = LEVELS -> (0 <= occ)%Z ->
    approx (BLOCK + level) v gv ->
    (forall k, k < LEVELS -> Z.testbit occ (Z.of_nat k) = true -> approx (BLOCK + k) (nth k tr zero) (gs k)) ->
    carry steps level tr occ v = (lv, occ', v') ->
    lv <= LEVELS /\ (0 <= occ')%Z /\
    (occ' + 2 ^ Z.of_nat lv = occ + 2 ^ Z.of_nat level)%Z /\
    (lv < LEVELS -> Z.testbit occ' (Z.of_nat lv) = false) /\
    (forall k, Z.testbit occ' (Z.of_nat k) = true -> Z.testbit occ (Z.of_nat k) = true) /\
    exists gv', approx (BLOCK + lv) v' gv' /\
      Permutation (gv' ++ flat_map (slots gs occ') (seq 0 LEVELS)) (gv ++ flat_map (slots gs occ) (seq 0 LEVELS)).
  Proof.
    induction steps as [|steps IH]; intros level occ v gv lv occ' v' Hl Hocc Hv Hgs Hc; cbn [carry] in Hc.
    - inversion Hc; subst. split; [lia|]. split; [assumption|]. split; [reflexivity|]. split; [lia|].
      split; [auto|]. exists gv. auto.
    - destruct (Z.testbit occ (Z.of_nat level)) eqn:Hb.
      + assert (Hlt : level < LEVELS) by lia.
        specialize (IH (S level) (Z.clearbit occ (Z.of_nat level)) (add (nth level tr zero) v)
                       (gs level ++ gv) lv occ' v').
        destruct IH as (I1 & I2 & I3 & I4 & I5 & gv' & I6 & I7).
        * lia.
        * apply clearbit_nonneg, Hocc.
        * replace (BLOCK + S level) with (S (BLOCK + level)) by lia. apply approx_merge; [apply Hgs; assumption|assumption].
        * intros k Hk Hkb. rewrite testbit_nat_clear in Hkb by exact Hocc.
          apply andb_true_iff in Hkb as [Hkb _]. apply Hgs; assumption.
        * exact Hc.
        * split; [exact I1|]. split; [exact I2|]. split.
          { rewrite I3, clearbit_val by assumption. rewrite Nat2Z.inj_succ, Z.pow_succ_r by lia. lia. }
          split; [exact I4|]. split.
          { intros k Hk. apply I5 in Hk. rewrite testbit_nat_clear in Hk by exact Hocc.
            apply andb_true_iff in Hk. apply Hk. }
          exists gv'. split; [exact I6|]. rewrite I7.
          pose proof (flat_map_update (slots gs occ) (slots gs (Z.clearbit occ (Z.of_nat level))) level (seq 0 LEVELS)) as U.
          assert (S1 : slots gs (Z.clearbit occ (Z.of_nat level)) level = []).
          { unfold slots. rewrite testbit_nat_clear, Nat.eqb_refl by exact Hocc. cbn. rewrite andb_false_r. reflexivity. }
          assert (S2 : slots gs occ level = gs level) by (unfold slots; rewrite Hb; reflexivity).
          rewrite S1, S2, app_nil_r in U. rewrite U.
          { rewrite (Permutation_app_comm (gs level) gv). rewrite <- app_assoc. apply Permutation_app_head.
            apply Permutation_app_comm. }
          { apply seq_NoDup. }
          { apply in_seq. lia. }
          { intros j Hj. unfold slots. rewrite testbit_nat_clear by exact Hocc.
            destruct (Nat.eqb_spec level j); [lia|]. cbn. rewrite andb_true_r. reflexivity. }
      + inversion Hc; subst. split; [lia|]. split; [assumption|]. split; [reflexivity|]. split; [auto|].
        split; [auto|]. exists gv. auto.
  Qed.

  Lemma add_inv a terms blocks x :
    Inv a terms blocks -> (Z.of_nat blocks + 1 < 2 ^ Z.of_nat LEVELS)%Z ->
    exists blocks', Inv (pairwise_add a x) (terms ++ [x]) blocks'.
  Proof.
    intros (H1 & H2 & H3 & H4 & gb & gs & H5 & H6 & H7) Hb.
    unfold pairwise_add.
    assert (Hbs : approx (S (block_count a)) (add (block_sum a) x) (gb ++ [x])).
    { apply approx_merge; [exact H5|]. apply approx_le with 0; [lia|apply approx_one]. }
    destruct (Nat.eqb_spec (S (block_count a)) BLOCK) as [E|E].
    - exists (S blocks). unfold push. cbn [tree occupied block_sum block_count].
      destruct (carry LEVELS 0 (tree a) (occupied a) (add (block_sum a) x)) as [[lv occ'] v'] eqn:Hc.
      destruct (carry_spec (tree a) gs LEVELS 0 (occupied a) (add (block_sum a) x) (gb ++ [x]) lv occ' v')
        as (I1 & I2 & I3 & I4 & I5 & gv' & I6 & I7); auto.
      { lia. }
      { rewrite Nat.add_0_r, <- E. exact Hbs. }
      change (2 ^ Z.of_nat 0)%Z with 1%Z in I3.
      assert (Hlv : lv < LEVELS).
      { destruct (Nat.eq_dec lv LEVELS) as [->|]; [|lia]. exfalso. lia. }
      destruct (Nat.eqb_spec lv LEVELS) as [|_]; [lia|]. specialize (I4 Hlv).
      unfold Inv. cbn [tree occupied block_sum block_count].
      split; [unfold BLOCK; lia|]. split; [rewrite set_nth_length; exact H2|].
      split; [rewrite setbit_val by assumption; lia|].
      split; [rewrite app_length, H4; cbn [length]; lia|].
      exists [], (fun k => if k =? lv then gv' else gs k).
      split; [exact approx_nil|]. split.
      { intros k Hk Hkb. rewrite testbit_nat_set in Hkb by exact I2.
        destruct (Nat.eqb_spec k lv) as [->|Hne].
        - rewrite nth_set_nth_eq by lia. exact I6.
        - rewrite nth_set_nth_neq by lia. apply H6; [exact Hk|]. apply I5.
          destruct (Nat.eqb_spec lv k); [lia|]. exact Hkb. }
      cbn [app].
      pose proof (flat_map_update (slots gs occ')
         (slots (fun k => if k =? lv then gv' else gs k) (Z.setbit occ' (Z.of_nat lv))) lv (seq 0 LEVELS)) as U.
      assert (S1 : slots gs occ' lv = []) by (unfold slots; rewrite I4; reflexivity).
      assert (S2 : slots (fun k => if k =? lv then gv' else gs k) (Z.setbit occ' (Z.of_nat lv)) lv = gv').
      { unfold slots. rewrite testbit_nat_set, Nat.eqb_refl by exact I2. reflexivity. }
      rewrite S1, S2, app_nil_r in U. rewrite <- U.
      + rewrite H7. rewrite Permutation_app_comm. rewrite app_assoc. rewrite (Permutation_app_comm [x] gb).
        rewrite <- I7. apply Permutation_app_comm.
      + apply seq_NoDup.
      + apply in_seq. lia.
      + intros j Hj. unfold slots. rewrite testbit_nat_set by exact I2.
        destruct (Nat.eqb_spec lv j); [lia|]. destruct (Nat.eqb_spec j lv); [lia|]. reflexivity.
    - exists blocks. unfold Inv. cbn [tree occupied block_sum block_count].
      split; [lia|]. split; [exact H2|]. split; [exact H3|].
      split; [rewrite app_length, H4; cbn [length]; lia|].
      exists (gb ++ [x]), gs. split; [exact Hbs|]. split; [exact H6|].
      rewrite H7. rewrite <- !app_assoc. apply Permutation_app_head. apply Permutation_app_comm.
  Qed.

  Lemma new_inv : Inv pairwise_new [] 0.
  Proof.
    unfold Inv, pairwise_new. cbn [tree occupied block_sum block_count].
    split; [unfold BLOCK; lia|]. split; [reflexivity|]. split; [reflexivity|]. split; [reflexivity|].
    exists [], (fun _ => []). split; [exact approx_nil|]. split; [intros k _ H; rewrite Z.bits_0 in H; discriminate|].
    reflexivity.
  Qed.

  Lemma run_inv terms : (Z.of_nat (length terms) < Z.of_nat BLOCK * (2 ^ Z.of_nat LEVELS - 1))%Z ->
    exists blocks, Inv (pairwise_run terms) terms blocks.
  Proof.
    unfold pairwise_run. induction terms as [|x l IH] using rev_ind; intros Hlen.
    - exists 0. exact new_inv.
    - rewrite fold_left_app. cbn [fold_left]. rewrite app_length in Hlen. cbn [length] in Hlen.
      destruct IH as [blocks HI]; [lia|].
      apply add_inv with (x := x) in HI; [exact HI|].
      destruct HI as (_ & _ & _ & H4 & _). rewrite H4 in Hlen. nia.
  Qed.

  Lemma bit_length_above occ k : (0 <= occ)%Z -> bit_length occ <= k -> Z.testbit occ (Z.of_nat k) = false.
  Proof.
    intros Ho Hk. unfold bit_length in Hk. destruct (Z.eqb_spec occ 0) as [->|Hne]; [apply Z.bits_0|].
    apply Z.bits_above_log2; [lia|]. pose proof (Z.log2_nonneg occ). lia.
  Qed.

  Lemma total_spec a terms blocks : Inv a terms blocks -> (Z.of_nat blocks < 2 ^ Z.of_nat LEVELS)%Z ->
    approx (BLOCK + bit_length (Z.of_nat blocks)) (pairwise_total a) terms.
  Proof.
    intros (H1 & H2 & H3 & H4 & gb & gs & H5 & H6 & H7) Hb.
    unfold pairwise_total. rewrite H3 in *.
    assert (Htop : bit_length (Z.of_nat blocks) <= LEVELS).
    { unfold bit_length. destruct (Z.eqb_spec (Z.of_nat blocks) 0); [lia|].
      assert (Z.log2 (Z.of_nat blocks) < Z.of_nat LEVELS)%Z by (apply Z.log2_lt_pow2; lia).
      pose proof (Z.log2_nonneg (Z.of_nat blocks)). lia. }
    set (occ := Z.of_nat blocks) in *.
    assert (L : forall n, n <= LEVELS -> approx (BLOCK + n)
      (fold_left (fun sum level => if Z.testbit occ (Z.of_nat level) then add sum (nth level (tree a) zero) else sum)
         (seq 0 n) (block_sum a)) (gb ++ flat_map (slots gs occ) (seq 0 n))).
    { induction n as [|n IH]; intros Hn.
      - cbn [seq fold_left flat_map]. rewrite app_nil_r. apply approx_le with (block_count a); [lia|exact H5].
      - rewrite seq_S, fold_left_app, flat_map_app. cbn [fold_left flat_map Nat.add].
        rewrite app_nil_r, app_assoc. unfold slots at 2.
        replace (BLOCK + S n) with (S (BLOCK + n)) by lia.
        destruct (Z.testbit occ (Z.of_nat n)) eqn:Hbit.
        + apply approx_merge; [apply IH; lia|]. apply H6; [lia|exact Hbit].
        + rewrite app_nil_r. apply approx_mono, IH. lia. }
    apply approx_perm with (gb ++ flat_map (slots gs occ) (seq 0 (bit_length occ))); [|apply L; exact Htop].
    rewrite H7. apply Permutation_app_head.
    replace LEVELS with (bit_length occ + (LEVELS - bit_length occ)) by lia.
    rewrite seq_app, flat_map_app.
    rewrite (flat_map_ext_in (slots gs occ) (fun _ => []) (seq (0 + bit_length occ) (LEVELS - bit_length occ))).
    - assert (E : forall l, flat_map (fun _ : nat => @nil T) l = []) by (induction l; auto).
      rewrite E, app_nil_r. reflexivity.
    - intros k Hk. apply in_seq in Hk. unfold slots. rewrite bit_length_above; [reflexivity|apply Nat2Z.is_nonneg|lia].
  Qed.

  Lemma pairwise_approx terms :
    (Z.of_nat (length terms) < Z.of_nat BLOCK * (2 ^ Z.of_nat LEVELS - 1))%Z ->
    approx (BLOCK + bit_length (Z.of_nat (length terms) / Z.of_nat BLOCK)) (pairwise_of terms) terms.
  Proof.
    intros Hlen. destruct (run_inv terms Hlen) as [blocks HI].
    pose proof HI as (H1 & _ & _ & H4 & _).
    replace (Z.of_nat (length terms) / Z.of_nat BLOCK)%Z with (Z.of_nat blocks).
    - apply total_spec; [exact HI|]. rewrite H4 in Hlen. nia.
    - rewrite H4. rewrite Nat2Z.inj_add, Nat2Z.inj_mul, Z.add_comm, Z.mul_comm, Z.div_add by (unfold BLOCK; lia).
      rewrite Z.div_small by lia. reflexivity.
  Qed.
End Generic.

Local Open Scope R_scope.
Lemma exact_sum_app l m : exact_sum (l ++ m) = exact_sum l + exact_sum m.
Proof. induction l; cbn; [ring|]. rewrite IHl. ring. Qed.
Lemma exact_sum_perm l m : Permutation l m -> exact_sum l = exact_sum m.
Proof. induction 1; cbn; lra. Qed.
Lemma exact_abs_sum_pos l : 0 <= exact_abs_sum l.
Proof. unfold exact_abs_sum. induction l; cbn; [lra|]. pose proof (Rabs_pos a). lra. Qed.
Lemma exact_abs_sum_app l m : exact_abs_sum (l ++ m) = exact_abs_sum l + exact_abs_sum m.
Proof. unfold exact_abs_sum. rewrite map_app. apply exact_sum_app. Qed.
Lemma exact_sum_abs_le l : Rabs (exact_sum l) <= exact_abs_sum l.
Proof.
  unfold exact_abs_sum. induction l; cbn; [rewrite Rabs_R0; lra|].
  apply Rle_trans with (1 := Rabs_triang _ _). lra.
Qed.

(** * Exactness over R, with no bound on the number of terms *)
Section Exact.
  Definition rs (tr : list R) (occ : Z) (n : nat) : R :=
    exact_sum (map (fun k => if Z.testbit occ (Z.of_nat k) then nth k tr 0 else 0) (seq 0 n)).

  Lemma exact_sum_update (f f' : nat -> R) k l : NoDup l -> In k l -> (forall j, j <> k -> f j = f' j) ->
    exact_sum (map f l) + f' k = exact_sum (map f' l) + f k.
  Proof.
    intros Hnd Hin Heq. induction Hnd as [|x l Hx Hnd IH]; [destruct Hin|].
    cbn. destruct (Nat.eq_dec x k) as [->|Hne].
    - replace (map f' l) with (map f l); [ring|]. apply map_ext_in. intros j Hj. apply Heq. intros ->. contradiction.
    - destruct Hin as [->|Hin]; [contradiction|]. rewrite (Heq x Hne). specialize (IH Hin). lra.
  Qed.

  Lemma carry_exact tr : forall steps level occ v lv occ' v',
    (level + steps = LEVELS)%nat -> (0 <= occ)%Z ->
    carry steps level tr occ v = (lv, occ', v') ->
    (lv <= LEVELS)%nat /\ (0 <= occ')%Z /\
    (forall k, Z.testbit occ' (Z.of_nat k) = true -> Z.testbit occ (Z.of_nat k) = true) /\
    (forall k, (k < lv)%nat -> (level <= k)%nat -> Z.testbit occ' (Z.of_nat k) = false) /\
    (level <= lv)%nat /\
    ((lv < LEVELS)%nat -> Z.testbit occ' (Z.of_nat lv) = false) /\
    v' + rs tr occ' LEVELS = v + rs tr occ LEVELS.
  Proof.
    induction steps as [|steps IH]; intros level occ v lv occ' v' Hl Hocc Hc; cbn [carry] in Hc.
    - inversion Hc; subst. repeat split; auto; try lia.
    - destruct (Z.testbit occ (Z.of_nat level)) eqn:Hb.
      + apply IH in Hc; [|lia|apply clearbit_nonneg, Hocc].
        destruct Hc as (I1 & I2 & I3 & I4 & I5 & I6 & I7).
        split; [exact I1|]. split; [exact I2|]. split.
        { intros k Hk. apply I3 in Hk. rewrite testbit_nat_clear in Hk by exact Hocc. apply andb_true_iff in Hk. apply Hk. }
        split.
        { intros k Hk1 Hk2. destruct (Nat.eq_dec k level) as [->|]; [|apply I4; lia].
          destruct (Z.testbit occ' (Z.of_nat level)) eqn:E; [|reflexivity].
          apply I3 in E. rewrite testbit_nat_clear, Nat.eqb_refl in E by exact Hocc. rewrite andb_false_r in E. discriminate. }
        split; [lia|]. split; [exact I6|]. rewrite I7. unfold rs.
        pose proof (exact_sum_update
          (fun k => if Z.testbit occ (Z.of_nat k) then nth k tr 0 else 0)
          (fun k => if Z.testbit (Z.clearbit occ (Z.of_nat level)) (Z.of_nat k) then nth k tr 0 else 0)
          level (seq 0 LEVELS)) as U. cbv beta in U.
        rewrite Hb in U. rewrite testbit_nat_clear, Nat.eqb_refl, andb_false_r in U by exact Hocc.
        rnum. rewrite Rplus_0_r in U. rewrite U.
        { ring. }
        { apply seq_NoDup. }
        { apply in_seq. lia. }
        { intros j Hj. rewrite testbit_nat_clear by exact Hocc. destruct (Nat.eqb_spec level j); [lia|].
          cbn [negb]. rewrite andb_true_r. reflexivity. }
      + inversion Hc; subst. repeat split; auto; try lia.
  Qed.

  Definition InvR (a : @PairwiseSum R) (terms : list R) : Prop :=
    length (tree a) = LEVELS /\ (0 <= occupied a < 2 ^ Z.of_nat LEVELS)%Z /\
    block_sum a + rs (tree a) (occupied a) LEVELS = exact_sum terms.

  Lemma occ_bound occ : (0 <= occ)%Z -> (forall k, (LEVELS <= k)%nat -> Z.testbit occ (Z.of_nat k) = false) ->
    (occ < 2 ^ Z.of_nat LEVELS)%Z.
  Proof.
    intros H Hb. destruct (Z.eq_dec occ 0) as [->|]; [reflexivity|].
    apply Z.log2_lt_pow2; [lia|]. destruct (Z.lt_ge_cases (Z.log2 occ) (Z.of_nat LEVELS)) as [|Hge]; [assumption|].
    exfalso. specialize (Hb (Z.to_nat (Z.log2 occ)) ltac:(lia)).
    rewrite Z2Nat.id in Hb by apply Z.log2_nonneg. rewrite Z.bit_log2 in Hb by lia. discriminate.
  Qed.

  Lemma add_exact a terms x : InvR a terms -> InvR (pairwise_add a x) (terms ++ [x]).
  Proof.
    intros (H1 & H2 & H3). unfold pairwise_add.
    destruct (Nat.eqb_spec (S (block_count a)) BLOCK) as [E|E].
    - unfold push. cbn [tree occupied block_sum block_count].
      destruct (carry LEVELS 0 (tree a) (occupied a) (add (block_sum a) x)) as [[lv occ'] v'] eqn:Hc.
      apply carry_exact in Hc; [|lia|lia]. destruct Hc as (I1 & I2 & I3 & I4 & I5 & I6 & I7).
      set (lv' := if (lv =? LEVELS)%nat then Nat.pred LEVELS else lv).
      assert (Hlv : (lv' < LEVELS)%nat /\ Z.testbit occ' (Z.of_nat lv') = false).
      { unfold lv'. destruct (Nat.eqb_spec lv LEVELS) as [->|Hne].
        - split; [unfold LEVELS; lia|]. apply I4; unfold LEVELS; lia.
        - split; [lia|]. apply I6. lia. }
      destruct Hlv as [Hlv Hbit].
      unfold InvR. cbn [tree occupied block_sum].
      split; [rewrite set_nth_length; exact H1|].
      split.
      { split; [apply setbit_nonneg, I2|]. apply occ_bound; [apply setbit_nonneg, I2|].
        intros k Hk. rewrite testbit_nat_set by exact I2. destruct (Nat.eqb_spec lv' k); [lia|].
        cbn [orb]. destruct (Z.testbit occ' (Z.of_nat k)) eqn:Eb; [|reflexivity].
        apply I3 in Eb. rewrite testbit_high in Eb; [discriminate|exact H2|exact Hk]. }
      rewrite exact_sum_app. cbn [exact_sum]. rewrite <- H3.
      pose proof (exact_sum_update
          (fun k => if Z.testbit occ' (Z.of_nat k) then nth k (tree a) 0 else 0)
          (fun k => if Z.testbit (Z.setbit occ' (Z.of_nat lv')) (Z.of_nat k) then nth k (set_nth (tree a) lv' v') 0 else 0)
          lv' (seq 0 LEVELS)) as U. cbv beta in U.
      rewrite Hbit, testbit_nat_set, Nat.eqb_refl in U by exact I2. cbn [orb] in U.
      rewrite nth_set_nth_eq in U by lia.
      unfold rs in *. rnum. rewrite Rplus_0_r in U. rewrite <- U.
      + lra.
      + apply seq_NoDup.
      + apply in_seq. lia.
      + intros j Hj. rewrite testbit_nat_set by exact I2. destruct (Nat.eqb_spec lv' j); [lia|].
        cbn [orb]. rewrite nth_set_nth_neq by lia. reflexivity.
    - unfold InvR. cbn [tree occupied block_sum]. split; [exact H1|]. split; [exact H2|].
      rewrite exact_sum_app. cbn [exact_sum]. rnum. rewrite <- H3. ring.
  Qed.

  Lemma run_exact terms : InvR (pairwise_run terms) terms.
  Proof.
    unfold pairwise_run. induction terms as [|x l IH] using rev_ind.
    - split; [reflexivity|]. split; [cbn; lia|]. cbn [fold_left]. unfold pairwise_new, rs. cbn [block_sum tree occupied].
      rewrite (map_ext_in _ (fun _ => 0)); [|intros k _; rewrite Z.bits_0; reflexivity].
      assert (E : forall l : list nat, exact_sum (map (fun _ => 0) l) = 0) by (induction l; cbn; lra).
      rewrite E. rnum. cbn. ring.
    - rewrite fold_left_app. cbn [fold_left]. apply add_exact, IH.
  Qed.

  Lemma total_exact a terms : InvR a terms -> pairwise_total a = exact_sum terms.
  Proof.
    intros (H1 & H2 & H3). rewrite <- H3. unfold pairwise_total.
    assert (L : forall n, fold_left (fun sum level => if Z.testbit (occupied a) (Z.of_nat level) then add sum (nth level (tree a) zero) else sum)
         (seq 0 n) (block_sum a) = block_sum a + rs (tree a) (occupied a) n).
    { induction n as [|n IH]; [unfold rs; cbn; ring|].
      rewrite seq_S, fold_left_app, IH. cbn [fold_left Nat.add]. unfold rs.
      rewrite seq_S, map_app, exact_sum_app. cbn [map exact_sum Nat.add].
      destruct (Z.testbit (occupied a) (Z.of_nat n)); rnum; ring. }
    rewrite L. f_equal.
    assert (Htop : (bit_length (occupied a) <= LEVELS)%nat).
    { unfold bit_length. destruct (Z.eqb_spec (occupied a) 0); [lia|].
      assert (Z.log2 (occupied a) < Z.of_nat LEVELS)%Z by (apply Z.log2_lt_pow2; lia).
      pose proof (Z.log2_nonneg (occupied a)). lia. }
    unfold rs. replace LEVELS with (bit_length (occupied a) + (LEVELS - bit_length (occupied a)))%nat by lia.
    rewrite seq_app, map_app, exact_sum_app.
    rewrite (map_ext_in _ (fun _ => 0) (seq (0 + bit_length (occupied a)) _)).
    - assert (E : forall l : list nat, exact_sum (map (fun _ => 0) l) = 0) by (induction l; cbn; lra).
      rewrite E. ring.
    - intros k Hk. apply in_seq in Hk. rewrite bit_length_above; [reflexivity|lia|lia].
  Qed.

  Lemma pairwise_exact terms : pairwise_of terms = exact_sum terms.
  Proof. apply total_exact, run_exact. Qed.

  Lemma kahan_exact terms : kahan_of terms = exact_sum terms.
  Proof.
    unfold kahan_of, kahan_total.
    assert (L : forall l k, compensation k = 0 -> compensation (fold_left kahan_add l k) = 0 /\
       ksum (fold_left kahan_add l k) = ksum k + exact_sum l).
    { induction l as [|x l IH]; intros k Hk; cbn [fold_left exact_sum]; [split; [exact Hk|ring]|].
      destruct (IH (kahan_add k x)) as [A B].
      - unfold kahan_add. cbn [compensation]. rnum. ring.
      - split; [exact A|]. rewrite B. unfold kahan_add. cbn [ksum]. rnum. rewrite Hk. ring. }
    destruct (L terms (@kahan_new R Rnum) eq_refl) as [_ ->]. unfold kahan_new. rnum. cbn [ksum]. ring.
  Qed.
End Exact.

(** * Rounding error over IEEE floats *)
Section Error.
  Context (prec emax : Z).
  Context {Hp : Prec_gt_0 prec} {He : Prec_lt_emax prec emax}.
  Context (pm pe : Z) (lm : Libm (binary_float prec emax)).
  Notation fl := (binary_float prec emax).
  #[local] Instance NF : Num fl := fnum prec emax pm pe lm.
  Definition uu : R := bpow radix2 (- prec).

  Definition fapprox (d : nat) (v : fl) (l : list fl) : Prop :=
    ffinite v = true ->
    Forall (fun x => ffinite x = true) l /\
    Rabs (B2R v - exact_sum (map B2R l)) <= ((1 + uu) ^ d - 1) * exact_abs_sum (map B2R l).

  Lemma uu_pos : 0 < uu. Proof. apply bpow_gt_0. Qed.
  Lemma pow_ge1 d : 1 <= (1 + uu) ^ d.
  Proof. apply pow_R1_Rle. pose proof uu_pos. lra. Qed.

  Lemma fapprox_nil : fapprox 0 (zero : fl) [].
  Proof.
    intros _. split; [constructor|]. cbn. unfold exact_abs_sum. cbn.
    rewrite Rminus_0_r, Rabs_R0. lra.
  Qed.
  Lemma fapprox_one x : fapprox 0 x [x].
  Proof.
    intros H. split; [constructor; [exact H|constructor]|]. cbn. unfold exact_abs_sum. cbn.
    replace (B2R x - (B2R x + 0)) with 0 by ring. rewrite Rabs_R0. lra.
  Qed.
  Lemma fapprox_mono d v l : fapprox d v l -> fapprox (S d) v l.
  Proof.
    intros H Hf. destruct (H Hf) as [A B]. split; [exact A|]. apply Rle_trans with (1 := B).
    apply Rmult_le_compat_r; [apply exact_abs_sum_pos|]. cbn [pow].
    pose proof (pow_ge1 d). pose proof uu_pos. nra.
  Qed.
  Lemma fapprox_perm d v l l' : Permutation l l' -> fapprox d v l -> fapprox d v l'.
  Proof.
    intros P H Hf. destruct (H Hf) as [A B]. split.
    - apply Forall_forall. intros x Hx. rewrite Forall_forall in A. apply A.
      apply Permutation_in with l'; [apply Permutation_sym, P|exact Hx].
    - unfold exact_abs_sum in *. rewrite <- (exact_sum_perm _ _ (Permutation_map B2R P)).
      rewrite <- (exact_sum_perm _ _ (Permutation_map Rabs (Permutation_map B2R P))). exact B.
  Qed.
  Lemma fapprox_merge d v l w m : fapprox d v l -> fapprox d w m -> fapprox (S d) (add v w) (l ++ m).
  Proof.
    intros Hv Hw Hf. change (add v w) with (Bplus mode_NE v w) in *.
    pose proof (fplus_error prec emax v w Hf) as Herr.
    destruct (fplus_finite prec emax v w Hf) as (Fv & Fw & _).
    destruct (Hv Fv) as [Al Bl]. destruct (Hw Fw) as [Am Bm].
    split; [apply Forall_app; auto|].
    rewrite map_app, exact_sum_app, exact_abs_sum_app. fold uu in Herr.
    set (sl := exact_sum (map B2R l)) in *. set (sm := exact_sum (map B2R m)) in *.
    set (al := exact_abs_sum (map B2R l)) in *. set (am := exact_abs_sum (map B2R m)) in *.
    set (V := B2R v) in *. set (W := B2R w) in *. set (Z := B2R (Bplus mode_NE v w)) in *.
    assert (Hsl : Rabs sl <= al) by apply exact_sum_abs_le.
    assert (Hsm : Rabs sm <= am) by apply exact_sum_abs_le.
    assert (Hal : 0 <= al) by apply exact_abs_sum_pos. assert (Ham : 0 <= am) by apply exact_abs_sum_pos.
    pose proof uu_pos as Hu. pose proof (pow_ge1 d) as Hq. cbn [pow]. set (q := (1 + uu) ^ d) in *.
    assert (T1 : Rabs (V + W - (sl + sm)) <= (q - 1) * (al + am)).
    { replace (V + W - (sl + sm)) with ((V - sl) + (W - sm)) by ring.
      apply Rle_trans with (1 := Rabs_triang _ _). lra. }
    assert (T2 : Rabs (V + W) <= q * (al + am)).
    { replace (V + W) with ((V + W - (sl + sm)) + (sl + sm)) by ring.
      apply Rle_trans with (1 := Rabs_triang _ _).
      pose proof (Rabs_triang sl sm). lra. }
    replace (Z - (sl + sm)) with ((Z - (V + W)) + (V + W - (sl + sm))) by ring.
    apply Rle_trans with (1 := Rabs_triang _ _).
    apply Rle_trans with (uu * (q * (al + am)) + (q - 1) * (al + am)).
    - apply Rplus_le_compat; [|exact T1]. apply Rle_trans with (1 := Herr).
      apply Rmult_le_compat_l; lra.
    - apply Req_le. ring.
  Qed.

  Lemma pairwise_error terms :
    (Z.of_nat (length terms) < Z.of_nat BLOCK * (2 ^ Z.of_nat LEVELS - 1))%Z ->
    fapprox (BLOCK + bit_length (Z.of_nat (length terms) / Z.of_nat BLOCK)) (pairwise_of terms) terms.
  Proof.
    apply pairwise_approx.
    - exact fapprox_nil.
    - exact fapprox_one.
    - exact fapprox_merge.
    - exact fapprox_mono.
    - exact fapprox_perm.
  Qed.
End Error.
