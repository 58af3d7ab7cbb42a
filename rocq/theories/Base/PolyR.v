(** Real polynomials as coefficient lists: evaluation, Taylor coefficients, degree, identity. *)
From Coq Require Import List Arith Lia Reals Lra FinFun.
From Coquelicot Require Import Coquelicot.
From Verif Require Import Base.Lists Base.Series.
Import ListNotations.
Local Open Scope R_scope.

Fixpoint peval (c : list R) (x : R) : R := match c with [] => 0 | a :: c => a + x * peval c x end.
Notation cf c k := (nth k c 0).

Lemma peval_bsum c x : peval c x = bsum (length c) (fun k => cf c k * x ^ k).
Proof.
  induction c as [|a c IH]; [reflexivity|]. cbn [peval length]. rewrite bsum_first. cbn [nth pow]. rewrite IH, Rmult_1_r. f_equal.
  rewrite <- bsum_scal. apply bsum_ext. intros i _. ring.
Qed.
Lemma peval_bsum_le n c x : (length c <= n)%nat -> peval c x = bsum n (fun k => cf c k * x ^ k).
Proof.
  intros H. rewrite peval_bsum. replace n with (length c + (n - length c))%nat by lia. rewrite bsum_shift.
  rewrite (bsum_ext (n - length c) _ (fun _ => 0)), bsum_0; [ring|]. intros i _. rewrite nth_overflow by lia. ring.
Qed.
Lemma peval_app a b x : peval (a ++ b) x = peval a x + x ^ length a * peval b x.
Proof. induction a; cbn; [ring|rewrite IHa; ring]. Qed.
Lemma peval_repeat0 n x : peval (repeat 0 n) x = 0.
Proof. induction n; cbn; [reflexivity|rewrite IHn; ring]. Qed.
Lemma peval_set_nth c : forall i v x, (i < length c)%nat -> peval (set_nth c i v) x = peval c x + (v - cf c i) * x ^ i.
Proof.
  induction c as [|a c IH]; intros [|i] v x H; cbn in *; try lia; [ring|]. rewrite IH by lia. ring.
Qed.
Lemma nth_repeat0 n k : nth k (repeat 0 n) 0 = 0.
Proof. revert k. induction n; intros [|k]; cbn; auto. Qed.
Lemma peval_ext a b x : (forall k, cf a k = cf b k) -> peval a x = peval b x.
Proof.
  intros H. rewrite (peval_bsum_le (Nat.max (length a) (length b)) a), (peval_bsum_le (Nat.max (length a) (length b)) b) by lia.
  apply bsum_ext. intros; rewrite H; reflexivity.
Qed.
Lemma peval_map_scale c f x : peval (map (fun a => a * f) c) x = peval c x * f.
Proof. induction c; cbn; [ring|rewrite IHc; ring]. Qed.
Lemma peval_opp c x : peval (map Ropp c) x = - peval c x.
Proof. induction c; cbn; [ring|rewrite IHc; ring]. Qed.

(** Taylor coefficients at a point *)
Fixpoint tay (k : nat) (c : list R) (x : R) : R :=
  match c with
  | [] => 0
  | a :: c => match k with O => a + x * tay 0 c x | S j => x * tay k c x + tay j c x end
  end.
Lemma tay_0 c x : tay 0 c x = peval c x.
Proof. induction c; cbn; [reflexivity|rewrite IHc; ring]. Qed.
Lemma tay_over c : forall k x, (length c <= k)%nat -> tay k c x = 0.
Proof.
  induction c as [|a c IH]; intros k x H; [reflexivity|]. cbn in H. destruct k as [|k]; [lia|]. cbn. rewrite !IH by lia. ring.
Qed.
Lemma peval_shift c x h : peval c (x + h) = bsum (length c) (fun k => tay k c x * h ^ k).
Proof.
  assert (G : forall n, (length c <= n)%nat -> peval c (x + h) = bsum n (fun k => tay k c x * h ^ k)).
  { induction c as [|a c IH]; intros n Hn.
    - cbn [peval]. rewrite (bsum_ext n _ (fun _ => 0)), bsum_0; [reflexivity|]. intros; cbn; ring.
    - cbn [length] in Hn. destruct n as [|n]; [lia|]. cbn [peval].
      rewrite bsum_first. cbn [tay pow].
      rewrite (bsum_ext n _ (fun k => x * (tay (S k) c x * h ^ S k) + h * (tay k c x * h ^ k))) by (intros; cbn [pow]; ring).
      rewrite bsum_plus, !bsum_scal. rewrite <- (IH n) by lia.
      pose proof (bsum_first n (fun k => tay k c x * h ^ k)) as B. cbn beta in B. rewrite <- IH in B by lia. cbn [pow] in B. cbn [pow].
      replace (peval c (x + h)) with (tay 0 c x * 1 + bsum n (fun i => tay (S i) c x * (h * h ^ i))) at 1 by (symmetry; exact B).
      rewrite Rmult_plus_distr_r. replace (peval c (x + h)) with (tay 0 c x * 1 + bsum n (fun i => tay (S i) c x * (h * h ^ i))) at 2 by (symmetry; exact B). ring_simplify.
      rewrite B. ring. }
  apply G. lia.
Qed.
Lemma is_derive_tay c : forall k x, is_derive (tay k c) x (INR (S k) * tay (S k) c x).
Proof.
  induction c as [|a c IH]; intros k x.
  - apply (is_derive_ext (fun _ => 0)); [reflexivity|]. auto_derive; [exact I|]. cbn. ring.
  - destruct k as [|k].
    + apply (is_derive_ext (fun x => a + x * tay 0 c x)); [reflexivity|]. cbn [tay].
      auto_derive; [exists (INR 1 * tay 1 c x); apply IH|]. replace (Derive (fun x0 => tay 0 c x0) x) with (INR 1 * tay 1 c x) by (symmetry; apply is_derive_unique, IH). cbn. ring.
    + apply (is_derive_ext (fun x => x * tay (S k) c x + tay k c x)); [reflexivity|]. cbn [tay].
      auto_derive. { split; [exists (INR (S (S k)) * tay (S (S k)) c x); apply IH|]. split; [|exact I]. exists (INR (S k) * tay (S k) c x); apply IH. }
      replace (Derive (fun x0 => tay (S k) c x0) x) with (INR (S (S k)) * tay (S (S k)) c x) by (symmetry; apply is_derive_unique, IH).
      replace (Derive (fun x0 => tay k c x0) x) with (INR (S k) * tay (S k) c x) by (symmetry; apply is_derive_unique, IH). rewrite !S_INR. ring.
Qed.
Lemma is_derive_n_peval c k x : is_derive_n (peval c) k x (INR (fact k) * tay k c x).
Proof.
  revert x. induction k as [|k IH]; intros x.
  - cbn [is_derive_n fact INR]. rewrite tay_0. ring.
  - cbn [is_derive_n]. apply (is_derive_ext (fun x => INR (fact k) * tay k c x)).
    + intros t. symmetry. apply is_derive_n_unique. apply IH.
    + replace (INR (fact (S k)) * tay (S k) c x) with (INR (fact k) * (INR (S k) * tay (S k) c x)).
      2: { rewrite fact_simpl, mult_INR. ring. }
      apply (is_derive_scal (tay k c)). apply is_derive_tay.
Qed.
Lemma is_derive_peval c x : is_derive (peval c) x (tay 1 c x).
Proof. pose proof (is_derive_tay c 0 x) as H. replace (INR 1 * tay 1 c x) with (tay 1 c x) in H by (cbn; ring).
  apply (is_derive_ext (tay 0 c)); [apply tay_0|exact H]. Qed.
Lemma continuity_peval c : continuity (peval c).
Proof. intros x. apply continuity_pt_filterlim. apply (ex_derive_continuous (peval c) x). eexists. apply is_derive_peval. Qed.

(** Synthetic division by x - o: the quotient has the same length, its last coefficient is zero. *)
Fixpoint sdiv (o : R) (c : list R) : list R * R :=
  match c with [] => ([], 0) | a :: c => let '(q, r) := sdiv o c in (r :: q, a + o * r) end.
Lemma sdiv_rem o c : snd (sdiv o c) = peval c o.
Proof. induction c as [|a c IH]; [reflexivity|]. cbn. destruct (sdiv o c) as [q r]. cbn in *. rewrite IH. reflexivity. Qed.
Lemma sdiv_length o c : length (fst (sdiv o c)) = length c.
Proof. induction c as [|a c IH]; [reflexivity|]. cbn. destruct (sdiv o c) as [q r]. cbn in *. lia. Qed.
Lemma sdiv_tay o c : forall k, tay k (fst (sdiv o c)) o = tay (S k) c o.
Proof.
  induction c as [|a c IH]; intros k; [reflexivity|]. cbn [sdiv]. pose proof (sdiv_rem o c) as R0. destruct (sdiv o c) as [q r]. cbn [fst snd] in *.
  destruct k as [|k]; cbn [tay]; rewrite ?IH; [rewrite R0, <- tay_0; ring|reflexivity].
Qed.
Lemma sdiv_eval o c x : peval c x = (x - o) * peval (fst (sdiv o c)) x + peval c o.
Proof.
  induction c as [|a c IH]; [cbn; ring|]. cbn [sdiv peval]. pose proof (sdiv_rem o c) as R0. destruct (sdiv o c) as [q r]. cbn [fst snd peval] in *.
  rewrite IH, R0. ring.
Qed.
Lemma sdiv_last o a c : exists q, fst (sdiv o (a :: c)) = q ++ [0] /\ length q = length c.
Proof.
  revert a. induction c as [|b c IH]; intros a; [exists []; auto|]. destruct (IH b) as (q & E & L).
  cbn [sdiv] in *. destruct (sdiv o c) as [q' r]. cbn [fst] in *. exists ((b + o * r) :: q). split; [cbn; rewrite E; reflexivity|cbn; lia].
Qed.

(** A polynomial with as many distinct zeros as coefficients has only zero coefficients. *)
Lemma roots_zero_aux : forall n c roots, length c = n -> NoDup roots -> (length c <= length roots)%nat -> (forall r, In r roots -> peval c r = 0) ->
  forall x, peval c x = 0.
Proof.
  induction n as [|n IH]; intros c roots E ND L Z x.
  - destruct c; [reflexivity|discriminate].
  - destruct c as [|a c]; [discriminate|]. destruct roots as [|o roots]; [cbn in L; lia|].
    destruct (sdiv_last o a c) as (q & Eq & Lq). inversion ND as [|? ? Ni ND']; subst.
    rewrite (sdiv_eval o), Eq, peval_app, (Z o) by (left; reflexivity). rewrite (IH q roots); auto; [cbn; ring|cbn in E; lia|cbn in *; lia|].
    intros r Hr. pose proof (Z r (or_intror Hr)) as Zr. rewrite (sdiv_eval o), Z, Rplus_0_r in Zr by (left; reflexivity).
    rewrite Eq, peval_app in Zr. cbn in Zr. assert (r <> o) by (intros ->; contradiction).
    apply Rmult_integral in Zr. destruct Zr as [Zr|Zr]; [lra|]. lra.
Qed.
Lemma peval_tail_zero a c : (forall x, peval (a :: c) x = 0) -> a = 0 /\ forall x, peval c x = 0.
Proof.
  intros H. assert (A : a = 0) by (specialize (H 0); cbn in H; lra). split; [exact A|]. subst a.
  apply (roots_zero_aux (length c) c (map INR (seq 1 (length c)))); auto.
  - apply Coq.Logic.FinFun.Injective_map_NoDup; [intros m n; apply INR_eq|apply seq_NoDup].
  - rewrite map_length, seq_length. lia.
  - intros r Hr. apply in_map_iff in Hr. destruct Hr as (m & <- & Hm). apply in_seq in Hm. specialize (H (INR m)). cbn in H.
    assert (INR m <> 0) by (apply not_0_INR; lia). assert (M : INR m * peval c (INR m) = 0) by lra. apply Rmult_integral in M. tauto.
Qed.
Lemma peval_zero_coeffs c : (forall x, peval c x = 0) -> forall k, cf c k = 0.
Proof.
  induction c as [|a c IH]; intros H k; [destruct k; reflexivity|]. destruct (peval_tail_zero a c H) as [A C].
  destruct k; [exact A|cbn; auto].
Qed.
Lemma roots_zero c roots : NoDup roots -> (length c <= length roots)%nat -> (forall r, In r roots -> peval c r = 0) -> forall k, cf c k = 0.
Proof. intros ND L Z. apply peval_zero_coeffs. apply (roots_zero_aux (length c) c roots); auto. Qed.

Definition padd (a b : list R) : list R := from_fn (Nat.max (length a) (length b)) (fun k => cf a k + cf b k).
Lemma cf_from_fn n f k : cf (from_fn n f) k = if Nat.ltb k n then f k else 0.
Proof.
  destruct (Nat.ltb_spec k n); [rewrite nth_from_fn by lia; reflexivity|]. apply nth_overflow. rewrite from_fn_length. lia.
Qed.
Lemma cf_padd a b k : cf (padd a b) k = cf a k + cf b k.
Proof.
  unfold padd. rewrite cf_from_fn. destruct (Nat.ltb_spec k (Nat.max (length a) (length b))); [reflexivity|].
  rewrite !nth_overflow by lia. ring.
Qed.
Lemma peval_padd a b x : peval (padd a b) x = peval a x + peval b x.
Proof.
  rewrite (peval_bsum_le (Nat.max (length a) (length b)) (padd a b)) by (unfold padd; rewrite from_fn_length; lia).
  rewrite (peval_bsum_le (Nat.max (length a) (length b)) a), (peval_bsum_le (Nat.max (length a) (length b)) b) by lia.
  rewrite <- bsum_plus. apply bsum_ext. intros. rewrite cf_padd. ring.
Qed.
Lemma cf_opp c k : cf (map Ropp c) k = - cf c k.
Proof. revert k; induction c; intros [|k]; cbn; auto; try ring. Qed.
Lemma cf_scale c f k : cf (map (fun a => a * f) c) k = cf c k * f.
Proof. revert k; induction c; intros [|k]; cbn; auto; try ring. Qed.

(** Two lists with the same values have the same coefficients. *)
Lemma peval_eq_coeffs a b : (forall x, peval a x = peval b x) -> forall k, cf a k = cf b k.
Proof.
  intros H k. assert (Z : cf (padd a (map Ropp b)) k = 0).
  { apply peval_zero_coeffs. intros x. rewrite peval_padd, peval_opp, H. ring. }
  rewrite cf_padd, cf_opp in Z. lra.
Qed.

(** Degree *)
Definition deg_lt (c : list R) (n : nat) : Prop := forall k, (n <= k)%nat -> cf c k = 0.
Definition deg_eq (c : list R) (n : nat) : Prop := cf c n <> 0 /\ deg_lt c (S n).
Lemma deg_lt_length c : deg_lt c (length c).
Proof. intros k H. apply nth_overflow. exact H. Qed.
Lemma deg_lt_weaken c n m : (n <= m)%nat -> deg_lt c n -> deg_lt c m.
Proof. intros H D k Hk. apply D. lia. Qed.
Lemma deg_find c : (forall k, cf c k = 0) \/ exists n, deg_eq c n.
Proof.
  induction c as [|a c [Z|(n & N & D)]]; [left; intros [|k]; reflexivity| |].
  - destruct (Req_dec a 0) as [->|A]; [left; intros [|k]; auto; apply Z|]. right. exists 0%nat. split; [exact A|]. intros [|k] Hk; [lia|]. apply Z.
  - right. exists (S n). split; [exact N|]. intros [|k] Hk; [lia|]. apply (D k). lia.
Qed.
Lemma deg_eq_unique c n m : deg_eq c n -> deg_eq c m -> n = m.
Proof.
  intros [N1 D1] [N2 D2]. destruct (lt_eq_lt_dec n m) as [[H|H]|H]; auto; exfalso; [apply N2, D1|apply N1, D2]; lia.
Qed.
Lemma deg_eq_lt c n m : deg_eq c n -> deg_lt c m -> (n < m)%nat.
Proof. intros [N _] D. destruct (le_lt_dec m n); auto. exfalso. apply N, D. exact l. Qed.
(** a polynomial of degree below n, in n coefficients *)
Definition resize (n : nat) (c : list R) : list R := from_fn n (fun k => cf c k).
Lemma resize_length n c : length (resize n c) = n.
Proof. apply from_fn_length. Qed.
Lemma cf_resize n c : deg_lt c n -> forall k, cf (resize n c) k = cf c k.
Proof. intros D k. unfold resize. rewrite cf_from_fn. destruct (Nat.ltb_spec k n); auto. symmetry. apply D. lia. Qed.

(** Product *)
Fixpoint pmul (a b : list R) : list R :=
  match a with [] => [] | x :: a => padd (map (fun y => y * x) b) (0 :: pmul a b) end.
Lemma peval_pmul a b x : peval (pmul a b) x = peval a x * peval b x.
Proof. induction a as [|y a IH]; [cbn; ring|]. cbn [pmul]. rewrite peval_padd, peval_map_scale. cbn [peval]. rewrite IH. ring. Qed.
Lemma cf_pmul a b k : cf (pmul a b) k = bsum (S k) (fun i => cf a i * cf b (k - i)).
Proof.
  revert k. induction a as [|x a IH]; intros k.
  - cbn [pmul]. rewrite (bsum_ext (S k) _ (fun _ => 0)), bsum_0; [destruct k; reflexivity|]. intros [|i] _; cbn; ring.
  - cbn [pmul]. rewrite cf_padd, cf_scale. rewrite bsum_first. cbn [nth]. rewrite Nat.sub_0_r, (Rmult_comm x). f_equal.
    destruct k as [|k]; [reflexivity|]. cbn [nth]. rewrite IH. apply bsum_ext. intros i _. reflexivity.
Qed.
Lemma deg_eq_pmul a b n m : deg_eq a n -> deg_eq b m -> deg_eq (pmul a b) (n + m).
Proof.
  intros [Na Da] [Nb Db]. split.
  - rewrite cf_pmul. rewrite (bsum_ext _ _ (fun i => if Nat.eqb i n then cf a n * cf b m else 0)).
    + rewrite bsum_delta by lia. apply Rmult_integral_contrapositive; auto.
    + intros i Hi. destruct (Nat.eqb_spec i n) as [->|Ne]; [replace (n + m - n)%nat with m by lia; reflexivity|].
      destruct (le_lt_dec i n); [rewrite (Db (n + m - i)%nat) by lia; ring|rewrite (Da i) by lia; ring].
  - intros k Hk. rewrite cf_pmul. rewrite (bsum_ext _ _ (fun _ => 0)); [apply bsum_0|]. intros i Hi.
    destruct (le_lt_dec i n); [rewrite (Db (k - i)%nat) by lia; ring|rewrite (Da i) by lia; ring].
Qed.
Lemma deg_eq_ext a b n : (forall k, cf a k = cf b k) -> deg_eq a n -> deg_eq b n.
Proof. intros E [N D]. split; [rewrite <- E; exact N|]. intros k H. rewrite <- E. apply D, H. Qed.
Lemma deg_lt_ext a b n : (forall k, cf a k = cf b k) -> deg_lt a n -> deg_lt b n.
Proof. intros E D k H. rewrite <- E. apply D, H. Qed.
Lemma deg_lt_padd a b n : deg_lt a n -> deg_lt b n -> deg_lt (padd a b) n.
Proof. intros A B k H. rewrite cf_padd, A, B by auto. ring. Qed.
Lemma deg_lt_opp a n : deg_lt a n -> deg_lt (map Ropp a) n.
Proof. intros A k H. rewrite cf_opp, A by auto. ring. Qed.
