(** Linear congruential sequences modulo a power of two: the Hull-Dobell theorem.
    Pure number theory, independent of the library. *)
From Coq Require Import ZArith Lia Znumtheory Arith.
Local Open Scope Z_scope.

Lemma iter_plus {A} (f : A -> A) m n x : Nat.iter (m + n) f x = Nat.iter m f (Nat.iter n f x).
Proof. induction m as [|m IH]; [reflexivity|]. cbn. f_equal. exact IH. Qed.

Section LCG.
  Variables a c : Z.
  Hypothesis Ha : a mod 4 = 1.
  Hypothesis Hc : c mod 2 = 1.

  Definition lstep (x : Z) := a * x + c.

  Fixpoint geo (n : nat) : Z := match n with O => 0 | S n => 1 + a * geo n end.

  Lemma a_odd : exists q, a = 4 * q + 1.
  Proof. exists (a / 4). rewrite (Z.div_mod a 4) at 1; lia. Qed.

  Lemma apow_mod4 n : exists q, a ^ Z.of_nat n = 4 * q + 1.
  Proof.
    induction n as [|n [q IH]].
    - exists 0; reflexivity.
    - destruct a_odd as [p Hp]. rewrite Nat2Z.inj_succ, Z.pow_succ_r by lia. rewrite IH.
      rewrite Hp. exists (4*p*q + p + q). ring.
  Qed.

  Lemma geo_add n m : geo (n + m) = geo n + a ^ Z.of_nat n * geo m.
  Proof.
    induction n as [|n IH].
    - cbn [geo Nat.add]. rewrite Z.pow_0_r. ring.
    - cbn [geo Nat.add]. rewrite IH, Nat2Z.inj_succ, Z.pow_succ_r by lia. ring.
  Qed.

  Lemma iter_geo n x : Nat.iter n lstep x = x + ((a - 1) * x + c) * geo n.
  Proof.
    induction n as [|n IH].
    - cbn. ring.
    - change (Nat.iter (S n) lstep x) with (lstep (Nat.iter n lstep x)).
      rewrite IH. unfold lstep. cbn [geo].
      replace (a * (x + ((a - 1) * x + c) * geo n) + c)
        with (x + ((a-1)*x + c) * (1 + a * geo n)) by ring. reflexivity.
  Qed.

  Lemma geo_double n : exists q, geo (n + n) = 2 * (2 * q + 1) * geo n.
  Proof.
    destruct (apow_mod4 n) as [q Hq]. exists q. rewrite geo_add, Hq. ring.
  Qed.

  Lemma geo_odd n : exists q, geo (S (n + n)) = 2 * q + 1.
  Proof.
    destruct (geo_double n) as [q Hq]. cbn [geo]. rewrite Hq. exists (a * (2*q+1) * geo n). ring.
  Qed.

  Lemma odd_cancel q z k : 0 <= k -> (2 ^ k | (2 * q + 1) * z) -> (2 ^ k | z).
  Proof.
    intros Hk H. apply Z.gauss with (m := 2 * q + 1); [exact H|].
    apply Zgcd_1_rel_prime, rel_prime_sym.
    revert k Hk H. intros k Hk _.
    pattern k. apply natlike_ind; [| |exact Hk].
    - rewrite Z.pow_0_r. apply rel_prime_sym, rel_prime_1.
    - intros j Hj IH. rewrite Z.pow_succ_r by lia. apply rel_prime_mult; [|exact IH].
      apply bezout_rel_prime. apply Bezout_intro with 1 (- q). ring.
  Qed.

  (** The two-adic valuation of the geometric sum is that of its length. *)
  Lemma geo_div : forall n k, 0 <= k -> (2 ^ k | geo n) <-> (2 ^ k | Z.of_nat n).
  Proof.
    intros n. induction n as [n IH] using lt_wf_ind. intros k Hk.
    destruct (Nat.eq_dec n 0) as [->|Hn].
    { cbn. split; intros; apply Z.divide_0_r. }
    destruct (Z.eq_dec k 0) as [->|Hk0].
    { rewrite Z.pow_0_r. split; intros; apply Z.divide_1_l. }
    destruct (Nat.Even_or_Odd n) as [[m Hm]|[m Hm]].
    - assert (E : n = (m + m)%nat) by lia. subst n. rewrite E in *. clear E.
      destruct (geo_double m) as [q Hq]. rewrite Hq.
      assert (Hm2 : (m < m + m)%nat) by lia.
      specialize (IH m Hm2 (k - 1) ltac:(lia)).
      assert (Hpow : 2 ^ k = 2 * 2 ^ (k - 1)).
      { rewrite <- Z.pow_succ_r by lia. f_equal. lia. }
      rewrite Nat2Z.inj_add. rewrite Hpow.
      replace (2 * (2 * q + 1) * geo m) with (2 * ((2 * q + 1) * geo m)) by ring.
      replace (Z.of_nat m + Z.of_nat m) with (2 * Z.of_nat m) by ring.
      rewrite (Z.mul_divide_cancel_l (2 ^ (k-1)) ((2 * q + 1) * geo m) 2) by lia.
      rewrite (Z.mul_divide_cancel_l (2 ^ (k-1)) (Z.of_nat m) 2) by lia.
      rewrite <- IH. split; intros H.
      + apply odd_cancel in H; [exact H|lia].
      + apply Z.divide_mul_r, H.
    - assert (E : n = S (m + m)) by lia. subst n. rewrite E in *. clear E.
      destruct (geo_odd m) as [q Hq]. rewrite Hq.
      assert (D : forall z, (2 ^ k | 2 * z + 1) -> False).
      { intros z [w Hw].
        replace (2 ^ k) with (2 * 2 ^ (k - 1)) in Hw
          by (rewrite <- Z.pow_succ_r by lia; f_equal; lia).
        lia. }
      split; intros H; exfalso.
      + exact (D _ H).
      + apply (D (Z.of_nat m)). replace (2 * Z.of_nat m + 1) with (Z.of_nat (S (m + m))) by lia. exact H.
  Qed.

  Lemma increment_odd x : exists q, (a - 1) * x + c = 2 * q + 1.
  Proof.
    destruct a_odd as [p Hp]. exists (2 * p * x + c / 2).
    rewrite (Z.div_mod c 2) at 1 by lia. rewrite Hc, Hp. ring.
  Qed.

  Lemma iter_cong n x k : 0 <= k ->
    (2 ^ k | Nat.iter n lstep x - x) <-> (2 ^ k | Z.of_nat n).
  Proof.
    intros Hk. rewrite iter_geo. rewrite <- geo_div by exact Hk.
    destruct (increment_odd x) as [q Hq]. rewrite Hq.
    replace (x + (2 * q + 1) * geo n - x) with ((2 * q + 1) * geo n) by ring.
    split; intros H.
    - apply odd_cancel in H; assumption.
    - apply Z.divide_mul_r, H.
  Qed.

  (** Every residue modulo 2^k is hit within 2^k steps. *)
  Lemma iter_surj : forall k x y, exists n, Z.of_nat n < 2 ^ Z.of_nat k /\
     (2 ^ Z.of_nat k | Nat.iter n lstep x - y).
  Proof.
    induction k as [|k IH]; intros x y.
    - exists O. split; [reflexivity|]. apply Z.divide_1_l.
    - destruct (IH x y) as [n [Hn Hd]].
      rewrite Nat2Z.inj_succ, Z.pow_succ_r by lia.
      set (P := 2 ^ Z.of_nat k) in *. assert (HP : 0 < P) by (apply Z.pow_pos_nonneg; lia).
      destruct Hd as [w Hw].
      destruct (Z.Even_or_Odd w) as [[v Hv]|[v Hv]].
      + exists n. split; [lia|]. exists v. rewrite Hw, Hv. ring.
      + exists (n + Z.to_nat P)%nat. split; [rewrite Nat2Z.inj_add, Z2Nat.id; lia|].
        replace (n + Z.to_nat P)%nat with (Z.to_nat P + n)%nat by lia.
        rewrite iter_plus.
        set (z := Nat.iter n lstep x) in *.
        assert (H1 : (P | Nat.iter (Z.to_nat P) lstep z - z)).
        { apply iter_cong; [lia|]. rewrite Z2Nat.id by lia. apply Z.divide_refl. }
        assert (H2 : ~ (2 * P | Nat.iter (Z.to_nat P) lstep z - z)).
        { intros H. replace (2 * P) with (2 ^ (Z.succ (Z.of_nat k))) in H
            by (rewrite Z.pow_succ_r by lia; reflexivity).
          apply iter_cong in H; [|lia]. rewrite Z2Nat.id in H by lia.
          rewrite Z.pow_succ_r in H by lia. fold P in H. destruct H as [t Ht].
          assert (t < 1) by nia. assert (0 < t) by nia. lia. }
        destruct H1 as [t Ht].
        destruct (Z.Even_or_Odd t) as [[s Hs]|[s Hs]].
        { exfalso. apply H2. exists s. rewrite Ht, Hs. ring. }
        exists (s + v + 1).
        replace (Nat.iter (Z.to_nat P) lstep z - y)
          with ((Nat.iter (Z.to_nat P) lstep z - z) + (z - y)) by ring.
        rewrite Ht, Hw, Hs, Hv. ring.
  Qed.
End LCG.
