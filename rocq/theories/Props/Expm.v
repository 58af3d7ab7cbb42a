(** C92: the matrix exponential. *)
From Coq Require Import ZArith Reals List Bool Arith Lia Lra Psatz FunctionalExtensionality.
From Coquelicot Require Import Coquelicot.
From Flocq Require Import Core BinarySingleNaN.
From Verif Require Import Base.Scalar Base.RNum Base.FNum Base.FloatOps Base.Lists Base.Series Model.Errors Model.Vector Model.Matrix Model.Lu Model.Expm.
From Verif Require Import Spec.Matrix Spec.MatrixExp Proofs.Matrix Proofs.Lu Proofs.Algebra Proofs.Lyapunov Proofs.MatrixSeries Proofs.Pade Proofs.Expm.
Import ListNotations.
Local Open Scope R_scope.

(** In exact arithmetic every call on a matrix of at most 2^50 rows ends and is accepted; every column sum of its distance from the exponential is the largest column sum of the exponential times (1 + 2^-53)^m - 1, where m is at most the larger of one and four times the largest column sum of the matrix. *)
Theorem C92_accurate n m : INR n <= 2 ^ 50 -> shape n n m ->
  exists turns, forall fuel, (turns <= fuel)%nat -> exists r, expm fuel n m = Some (Ok r) /\ shape n n r /\
    exists k, INR k <= Rmax 1 (4 * column_norm n (mget m)) /\
      column_norm n (minus_matrix (mget r) (matrix_exp n (mget m))) <= column_norm n (matrix_exp n (mget m)) * ((1 + / 2 ^ 53) ^ k - 1).
Proof.
  intros Sz Sm. destruct (expm_spec n m Sz Sm) as (s & _ & (turns & T) & B & K). exists turns. intros fuel F. destruct (expm_with_spec n s m Sz Sm B) as (r & P & Z & E & Sr & Er & DZ & ZD & DP).
  exists r. rewrite (T fuel F), E. split; [reflexivity|]. split; [exact Sr|]. exists (2 ^ s)%nat. split; [exact K|].
  assert (PW : 0 <= (1 + / 2 ^ 53) ^ (2 ^ s) - 1). { pose proof (pow_R1_Rle (1 + / 2 ^ 53) (2 ^ s)). assert (0 < / 2 ^ 53) by (apply Rinv_0_lt_compat, pow_lt; lra). specialize (H ltac:(lra)). lra. }
  apply norm_le; [apply Rmult_le_pos; [apply column_norm_nonneg|exact PW]|].
  pose proof (exp_unscaled n s (mget m)) as Q.
  eapply bounded_ext; [|apply (approximant_power n _ B Z DZ ZD P DP (2 ^ s) (column_norm n (matrix_exp n (mget m)))); [apply column_norm_nonneg|]].
  - intros i j Hi Hj. unfold minus_matrix. rewrite Er, Q by auto. reflexivity.
  - eapply bounded_ext; [apply equal_sym, Q|apply bounded_norm].
Qed.
Lemma accurate_any n m fuel r : INR n <= 2 ^ 50 -> shape n n m -> expm fuel n m = Some (Ok r) -> shape n n r /\
  exists k, INR k <= Rmax 1 (4 * column_norm n (mget m)) /\ bounded n (minus_matrix (mget r) (matrix_exp n (mget m))) (column_norm n (matrix_exp n (mget m)) * ((1 + / 2 ^ 53) ^ k - 1)).
Proof.
  intros Sz Sm H. destruct (expm_spec n m Sz Sm) as (s & U & _). destruct (C92_accurate n m Sz Sm) as (turns & T). destruct (T (fuel + turns)%nat ltac:(lia)) as (r' & E & Sr & k & K & A).
  assert (r' = r). { apply U in E. apply U in H. rewrite <- E in H. congruence. } subst r'. split; [exact Sr|]. exists k. split; [exact K|]. eapply bounded_le; [exact A|apply bounded_norm].
Qed.
(** So up to a column sum of 2^40 the relative error is below 2^-50 times that sum (or 2^-52 for a small matrix). *)
Theorem C92_relative n m fuel r : INR n <= 2 ^ 50 -> shape n n m -> column_norm n (mget m) <= 2 ^ 40 -> expm fuel n m = Some (Ok r) ->
  column_norm n (minus_matrix (mget r) (matrix_exp n (mget m))) <= / 2 ^ 50 * Rmax (/ 4) (column_norm n (mget m)) * column_norm n (matrix_exp n (mget m)).
Proof.
  intros Sz Sm C H. destruct (expm_spec n m Sz Sm) as (s & U & _). destruct (C92_accurate n m Sz Sm) as (turns & T). destruct (T (fuel + turns)%nat ltac:(lia)) as (r' & E & _ & k & K & A).
  assert (r' = r). { apply U in E. apply U in H. rewrite <- E in H. congruence. } subst r'. eapply Rle_trans; [exact A|]. rewrite Rmult_comm. apply Rmult_le_compat_r; [apply column_norm_nonneg|].
  set (x := / 2 ^ 53). assert (P53 : 2 ^ 53 = 8 * 2 ^ 50) by (replace 53%nat with (3 + 50)%nat by lia; rewrite pow_add; lra). assert (P50 : 2 ^ 50 = 1024 * 2 ^ 40) by (replace 50%nat with (10 + 40)%nat by lia; rewrite pow_add; lra).
  assert (0 < 2 ^ 40) by (apply pow_lt; lra). assert (X : / 2 ^ 50 = 8 * x) by (unfold x; rewrite P53; field; lra). rewrite X. set (w := Rmax (/ 4) (column_norm n (mget m))).
  assert (KW : INR k <= 4 * w). { eapply Rle_trans; [exact K|]. unfold w. apply Rmax_lub; [pose proof (Rmax_l (/ 4) (column_norm n (mget m))); lra|pose proof (Rmax_r (/ 4) (column_norm n (mget m))); lra]. }
  assert (W : w <= 2 ^ 40) by (unfold w; apply Rmax_lub; [apply Rle_trans with 1; [lra|apply pow_R1_Rle; lra]|exact C]).
  assert (X0 : 0 < x) by (apply Rinv_0_lt_compat, pow_lt; lra). assert (XW : x * 2 ^ 40 <= / 8192). { assert (XX : x * 2 ^ 53 = 1) by (apply Rinv_l; rewrite P53; lra). rewrite P53, P50 in XX. lra. }
  assert (KX : INR k * x <= / 2048) by nra.
  assert (G : forall j, INR j * x <= / 2048 -> (1 + x) ^ j - 1 <= 2 * (INR j * x)).
  { induction j as [|j IH]; intros J; [cbn; lra|]. rewrite S_INR in *. cbn [pow]. specialize (IH ltac:(nra)). pose proof (pos_INR j). nra. }
  specialize (G k KX). pose proof (Rmax_l (/ 4) (column_norm n (mget m))). fold w in H1. nra.
Qed.

(** The exponential of the opposite matrix is exactly the inverse. *)
Lemma numer_opposite n X : equal n n (series n (scaled_matrix (-1) X) numer) (series n X denom).
Proof.
  intros i j Hi Hj. rewrite (series_finite n (scaled_matrix (-1) X) numer 7 numer_high), (series_finite n X denom 7 denom_high). apply bsum_ext. intros k Hk. rewrite (power_scaled n (-1) X k i j Hi Hj). unfold scaled_matrix, denom.
  replace ((-1) ^ k) with (if Nat.even k then 1 else -1); [ring|]. clear. induction k as [|k IH]; [reflexivity|]. cbn [pow]. rewrite <- IH, Nat.even_succ, <- Nat.negb_even. destruct (Nat.even k); cbn; lra.
Qed.
Lemma denom_opposite n X : equal n n (series n (scaled_matrix (-1) X) denom) (series n X numer).
Proof.
  apply equal_sym. eapply equal_trans; [|apply numer_opposite]. apply series_matrix_ext. intros i j Hi Hj. unfold scaled_matrix. ring.
Qed.
Lemma power_inverse n a b k : equal n n (product n a b) unit_matrix -> equal n n (product n (power n a k) (power n b k)) unit_matrix.
Proof.
  intros H. induction k as [|k IH]; [intros i j Hi Hj; apply product_unit_l; auto|]. eapply equal_trans; [apply equal_product; [apply equal_refl|apply power_left]|]. cbn [power].
  rewrite p_assoc. rewrite <- (p_assoc n n a b). rewrite (middle n n _ _ _ _ H), unit_inside_l. exact IH.
Qed.
Lemma opposite_norm n a : column_norm n (scaled_matrix (-1) a) = column_norm n a.
Proof. unfold column_norm. f_equal. extensionality j. apply bsum_ext. intros i Hi. unfold scaled_matrix. rewrite Rabs_mult, Rabs_left by lra. ring. Qed.
Theorem C92_inverse n m m' fuel fuel' r r' : INR n <= 2 ^ 50 -> shape n n m -> shape n n m' ->
  equal n n (mget m') (scaled_matrix (-1) (mget m)) -> expm fuel n m = Some (Ok r) -> expm fuel' n m' = Some (Ok r') ->
  equal n n (product n (mget r) (mget r')) unit_matrix /\ equal n n (product n (mget r') (mget r)) unit_matrix.
Proof.
  revert m m' fuel fuel' r r'. enough (G : forall m m' fuel fuel' r r', INR n <= 2 ^ 50 -> shape n n m -> shape n n m' ->
    equal n n (mget m') (scaled_matrix (-1) (mget m)) -> expm fuel n m = Some (Ok r) -> expm fuel' n m' = Some (Ok r') -> equal n n (product n (mget r) (mget r')) unit_matrix).
  { intros m m' fuel fuel' r r' Sz Sm Sm' O E E'. split; [apply (G m m' fuel fuel'); auto|apply (G m' m fuel' fuel); auto]. intros i j Hi Hj. unfold scaled_matrix. rewrite O by auto. unfold scaled_matrix. ring. }
  intros m m' fuel fuel' r r' Sz Sm Sm' O E E'.
  assert (NE : one_norm n m' = one_norm n m). { rewrite !one_norm_spec, <- (opposite_norm n (mget m)). unfold column_norm. apply largest_ext. intros j Hj. apply bsum_ext. intros i Hi. rewrite O by auto. reflexivity. }
  unfold expm in E, E'. rewrite finite_always in E, E'. cbn [negb] in E, E'. rewrite NE in E'.
  destruct (halvings fuel (one_norm n m) 0) as [s|] eqn:H; [|discriminate E]. destruct (halvings fuel' (one_norm n m) 0) as [s'|] eqn:H'; [|discriminate E'].
  assert (s' = s) by (eapply halvings_same; eauto). subst s'.
  assert (B : bounded n (scaled_matrix ((/ 2) ^ s) (mget m)) (/ 2)).
  { destruct (halvings_spec _ _ _ _ H) as (k & -> & _ & B & _). cbn [Nat.add]. rewrite one_norm_spec in B. eapply bounded_le; [|apply bounded_scaled, bounded_norm]. rewrite Rabs_pos_eq by (apply pow_le; lra). lra. }
  set (X := scaled_matrix ((/ 2) ^ s) (mget m)) in *.
  assert (OX : equal n n (scaled_matrix ((/ 2) ^ s) (mget m')) (scaled_matrix (-1) X)) by (intros i j Hi Hj; unfold X, scaled_matrix; rewrite O by auto; unfold scaled_matrix; ring).
  assert (B' : bounded n (scaled_matrix ((/ 2) ^ s) (mget m')) (/ 2)).
  { eapply bounded_ext; [apply equal_sym, OX|]. eapply bounded_le; [|apply bounded_scaled, B]. rewrite Rabs_left by lra. lra. }
  destruct (expm_with_spec n s m Sz Sm B) as (r1 & P & Z & E1 & Sr & Er & DZ & ZD & DP). destruct (expm_with_spec n s m' Sz Sm' B') as (r2 & P' & Z' & E1' & Sr' & Er' & DZ' & ZD' & DP').
  assert (r1 = r) by congruence. assert (r2 = r') by congruence. subst r1 r2.
  assert (NP : equal n n (product n (series n X numer) P') (series n X denom)).
  { eapply equal_trans; [apply product_left, equal_sym; eapply equal_trans; [apply series_matrix_ext, OX|apply denom_opposite]|]. eapply equal_trans; [exact DP'|]. eapply equal_trans; [apply series_matrix_ext, OX|apply numer_opposite]. }
  assert (PP : equal n n (product n P P') unit_matrix).
  { apply (cancel n X Z ZD). rewrite <- p_assoc. eapply equal_trans; [apply product_left, DP|]. eapply equal_trans; [exact NP|]. intros i j Hi Hj. symmetry. apply product_unit_r; auto. }
  eapply equal_trans; [apply equal_product; [exact Er|exact Er']|]. apply power_inverse, PP.
Qed.
(** It commutes with the matrix, and with every matrix that does. *)
Lemma commutes_power n a c k : equal n n (product n a c) (product n c a) -> equal n n (product n (power n a k) c) (product n c (power n a k)).
Proof.
  intros H. induction k as [|k IH]; [intros i j Hi Hj; cbn [power]; rewrite product_unit_l, product_unit_r; auto|]. cbn [power]. rewrite p_assoc. eapply equal_trans; [apply equal_product; [apply equal_refl|exact H]|]. rewrite <- !p_assoc. apply product_left, IH.
Qed.
Lemma commutes_series n X c d m : (forall k, (m <= k)%nat -> d k = 0) -> equal n n (product n X c) (product n c X) -> equal n n (product n (series n X d) c) (product n c (series n X d)).
Proof.
  intros D H i j Hi Hj. unfold product. rewrite (bsum_ext n (fun k => series n X d i k * c k j) (fun k => bsum m (fun l => d l * (power n X l i k * c k j)))).
  2:{ intros k Hk. rewrite (series_finite n X d m D), Rmult_comm, <- bsum_scal. apply bsum_ext. intros; ring. }
  rewrite (bsum_ext n (fun k => c i k * series n X d k j) (fun k => bsum m (fun l => d l * (c i k * power n X l k j)))).
  2:{ intros k Hk. rewrite (series_finite n X d m D), <- bsum_scal. apply bsum_ext. intros; ring. }
  rewrite (bsum_swap n m), (bsum_swap n m). apply bsum_ext. intros l Hl. rewrite !bsum_scal. f_equal. apply (commutes_power n X c l H i j Hi Hj).
Qed.
Theorem C92_commutes n m fuel r c : INR n <= 2 ^ 50 -> shape n n m -> expm fuel n m = Some (Ok r) ->
  equal n n (product n (mget m) c) (product n c (mget m)) -> equal n n (product n (mget r) c) (product n c (mget r)).
Proof.
  intros Sz Sm E H. destruct (expm_spec n m Sz Sm) as (s & U & _ & B & _). destruct (expm_with_spec n s m Sz Sm B) as (r1 & P & Z & E1 & Sr & Er & DZ & ZD & DP). apply U in E. assert (r1 = r) by congruence. subst r1.
  set (X := scaled_matrix ((/ 2) ^ s) (mget m)) in *.
  assert (XC : equal n n (product n X c) (product n c X)). { unfold X. rewrite p_scaled_l, p_scaled_r. intros i j Hi Hj. unfold scaled_matrix. rewrite H by auto. reflexivity. }
  assert (PC : equal n n (product n P c) (product n c P)).
  { apply (cancel n X Z ZD). rewrite <- !p_assoc. eapply equal_trans; [apply product_left, DP|]. eapply equal_trans; [apply (commutes_series n X c numer 7 numer_high XC)|]. apply equal_sym. eapply equal_trans; [apply product_left, (commutes_series n X c denom 7 denom_high XC)|]. rewrite p_assoc. apply equal_product; [apply equal_refl|exact DP]. }
  eapply equal_trans; [apply product_left, Er|]. eapply equal_trans; [apply commutes_power, PC|]. apply equal_product; [apply equal_refl|apply equal_sym, Er].
Qed.
(** The exponential of a symmetric matrix is symmetric. *)
Lemma power_symmetric n a k : equal n n (transposed a) a -> equal n n (transposed (power n a k)) (power n a k).
Proof.
  intros H. induction k as [|k IH]; [intros i j Hi Hj; unfold transposed; cbn; unfold unit_matrix; rewrite Nat.eqb_sym; reflexivity|]. eapply equal_trans; [|apply equal_sym, power_left]. cbn [power]. rewrite t_product. apply equal_product; auto.
Qed.
Theorem C92_symmetric n m fuel r : INR n <= 2 ^ 50 -> shape n n m -> expm fuel n m = Some (Ok r) -> symmetric n (mget m) -> symmetric n (mget r).
Proof.
  intros Sz Sm E H. destruct (expm_spec n m Sz Sm) as (s & U & _ & B & _). destruct (expm_with_spec n s m Sz Sm B) as (r1 & P & Z & E1 & Sr & Er & DZ & ZD & DP). apply U in E. assert (r1 = r) by congruence. subst r1.
  set (X := scaled_matrix ((/ 2) ^ s) (mget m)) in *.
  assert (XT : equal n n (transposed X) X). { intros i j Hi Hj. unfold X, transposed, scaled_matrix. f_equal. rewrite (H i j) by auto. reflexivity. }
  assert (ST : forall d, (forall k, (7 <= k)%nat -> d k = 0) -> equal n n (transposed (series n X d)) (series n X d)).
  { intros d D i j Hi Hj. unfold transposed. rewrite !(series_finite n X d 7 D). apply bsum_ext. intros k Hk. f_equal. apply (power_symmetric n X k XT i j Hi Hj). }
  assert (PD : equal n n (product n P (series n X denom)) (series n X numer)).
  { eapply equal_trans; [apply (approximant_commutes n X B Z ZD P DP denom denom_ok)|exact DP]. }
  assert (PT : equal n n (transposed P) P).
  { apply (cancel n X Z ZD). eapply equal_trans; [|apply equal_sym, DP]. eapply equal_trans; [apply product_left, equal_sym, (ST denom denom_high)|]. rewrite <- t_product. eapply equal_trans; [|apply (ST numer numer_high)]. intros i j Hi Hj. apply (PD j i Hj Hi). }
  intros i j Hi Hj. rewrite Er by auto. unfold transposed. rewrite Er by auto. symmetry. apply (power_symmetric n P _ PT i j Hi Hj).
Qed.
(** What the matrix generates preserves exactly what the matrix leaves fixed: when M'J + JM = 0, also E'JE = J. A skew-symmetric matrix (J the identity) gives an orthogonal one, a Hamiltonian matrix a symplectic one. *)
Lemma power_turns n X J k : equal n n (product n (transposed X) J) (scaled_matrix (-1) (product n J X)) ->
  equal n n (product n (transposed (power n X k)) J) (scaled_matrix ((-1) ^ k) (product n J (power n X k))).
Proof.
  intros H. induction k as [|k IH].
  - intros i j Hi Hj. cbn [power pow]. unfold scaled_matrix. rewrite product_unit_r by auto. rewrite Rmult_1_l. transitivity (product n unit_matrix J i j); [|apply product_unit_l; auto]. apply product_ext; auto. intros l Hl. unfold transposed, unit_matrix. rewrite Nat.eqb_sym. reflexivity.
  - cbn [power pow]. rewrite t_product, p_assoc. eapply equal_trans; [apply equal_product; [apply equal_refl|exact IH]|]. rewrite p_scaled_r, <- p_assoc.
    intros i j Hi Hj. unfold scaled_matrix. rewrite (product_left n _ _ (power n X k) H i j Hi Hj), p_scaled_l, p_assoc. unfold scaled_matrix.
    assert (Q : product n J (product n X (power n X k)) i j = product n J (product n (power n X k) X) i j) by (apply product_ext; auto; intros l Hl; apply (power_comm n X k l j Hl Hj)). rewrite Q. ring.
Qed.
Lemma series_turns n X J (c d : nat -> R) : (forall k, (7 <= k)%nat -> c k = 0) -> (forall k, (7 <= k)%nat -> d k = 0) -> (forall k, c k * (-1) ^ k = d k) ->
  equal n n (product n (transposed X) J) (scaled_matrix (-1) (product n J X)) -> equal n n (product n (transposed (series n X c)) J) (product n J (series n X d)).
Proof.
  intros C D CD H i j Hi Hj. unfold product, transposed. rewrite (bsum_ext n (fun k => series n X c k i * J k j) (fun k => bsum 7 (fun l => c l * (power n X l k i * J k j)))).
  2:{ intros k Hk. rewrite (series_finite n X c 7 C), Rmult_comm, <- bsum_scal. apply bsum_ext. intros; ring. }
  rewrite (bsum_ext n (fun k => J i k * series n X d k j) (fun k => bsum 7 (fun l => d l * (J i k * power n X l k j)))).
  2:{ intros k Hk. rewrite (series_finite n X d 7 D), <- bsum_scal. apply bsum_ext. intros; ring. }
  rewrite (bsum_swap n 7), (bsum_swap n 7). apply bsum_ext. intros l Hl. rewrite !bsum_scal. pose proof (power_turns n X J l H i j Hi Hj) as P. unfold product, transposed, scaled_matrix in P. rewrite P, <- CD. ring.
Qed.
Lemma minus_one_pow k : (-1) ^ k = if Nat.even k then 1 else -1.
Proof. induction k as [|k IH]; [reflexivity|]. cbn [pow]. rewrite IH, Nat.even_succ, <- Nat.negb_even. destruct (Nat.even k); cbn; lra. Qed.
Theorem C92_preserves n m fuel r J : INR n <= 2 ^ 50 -> shape n n m -> expm fuel n m = Some (Ok r) ->
  equal n n (plus_matrix (product n (transposed (mget m)) J) (product n J (mget m))) zero_matrix ->
  equal n n (product n (transposed (mget r)) (product n J (mget r))) J.
Proof.
  intros Sz Sm E H. destruct (expm_spec n m Sz Sm) as (s & U & _ & B & _). destruct (expm_with_spec n s m Sz Sm B) as (r1 & P & Z & E1 & Sr & Er & DZ & ZD & DP). apply U in E. assert (r1 = r) by congruence. subst r1.
  set (X := scaled_matrix ((/ 2) ^ s) (mget m)) in *. set (D := series n X denom) in *. set (N := series n X numer) in *.
  assert (XJ : equal n n (product n (transposed X) J) (scaled_matrix (-1) (product n J X))).
  { unfold X. rewrite t_scaled, p_scaled_l, p_scaled_r. intros i j Hi Hj. specialize (H i j Hi Hj). unfold plus_matrix, zero_matrix in H. unfold scaled_matrix. replace (product n (transposed (mget m)) J i j) with (- product n J (mget m) i j) by lra. ring. }
  assert (DJ : equal n n (product n (transposed D) J) (product n J N)).
  { apply series_turns; auto using denom_high, numer_high. intros k. rewrite minus_one_pow. unfold denom. destruct (Nat.even k); ring. }
  assert (NJ : equal n n (product n (transposed N) J) (product n J D)).
  { apply series_turns; auto using denom_high, numer_high. intros k. rewrite minus_one_pow. unfold denom. ring. }
  assert (PD : equal n n (product n P D) N). { eapply equal_trans; [apply (approximant_commutes n X B Z ZD P DP denom denom_ok)|exact DP]. }
  assert (PN : equal n n P (product n N Z)).
  { eapply equal_trans; [|apply product_left, PD]. rewrite p_assoc. intros i j Hi Hj. rewrite <- (product_unit_r n P i j Hj) at 1. apply product_ext; auto. intros; symmetry; apply DZ; auto. }
  assert (PJ : equal n n (product n (transposed P) (product n J P)) J).
  { eapply equal_trans; [apply product_left with (a' := transposed (product n N Z)); intros i j Hi Hj; apply (PN j i Hj Hi)|]. rewrite t_product, p_assoc, <- (p_assoc n n (transposed N) J P).
    eapply equal_trans; [apply equal_product; [apply equal_refl|]; eapply equal_trans; [apply product_left, NJ|]; rewrite p_assoc; eapply equal_trans; [apply equal_product; [apply equal_refl|exact DP]|]; apply equal_sym, DJ|].
    rewrite <- p_assoc, <- t_product. intros i j Hi Hj. transitivity (product n unit_matrix J i j); [|apply product_unit_l; auto]. apply product_ext; auto. intros l Hl. unfold transposed. rewrite (DZ l i Hl Hi). unfold unit_matrix. rewrite Nat.eqb_sym. reflexivity. }
  assert (PK : forall k, equal n n (product n (transposed (power n P k)) (product n J (power n P k))) J).
  { induction k as [|k IH].
    - cbn [power]. intros i j Hi Hj. transitivity (product n unit_matrix J i j); [|apply product_unit_l; auto]. apply product_ext; auto. { intros l Hl. unfold transposed, unit_matrix. rewrite Nat.eqb_sym. reflexivity. } intros l Hl. apply product_unit_r; auto.
    - cbn [power]. rewrite t_product. replace (product n (product n (transposed P) (transposed (power n P k))) (product n J (product n (power n P k) P))) with (product n (transposed P) (product n (product n (transposed (power n P k)) (product n J (power n P k))) P)) by (rewrite !p_assoc; reflexivity).
      eapply equal_trans; [|exact PJ]. rewrite (middle n n _ _ _ _ IH). apply equal_refl. }
  eapply equal_trans; [|apply (PK (2 ^ s)%nat)]. apply equal_product; [intros i j Hi Hj; apply (Er j i Hj Hi)|]. apply equal_product; [apply equal_refl|exact Er].
Qed.
(** The exponential of zero is the identity. *)
Theorem C92_zero n m fuel : INR n <= 2 ^ 50 -> shape n n m -> equal n n (mget m) zero_matrix -> exists r, expm fuel n m = Some (Ok r) /\ equal n n (mget r) unit_matrix.
Proof.
  intros Sz Sm H. assert (NZ : one_norm n m = 0).
  { rewrite one_norm_spec. apply Rle_antisym; [|apply column_norm_nonneg]. apply norm_le; [lra|]. intros j Hj. rewrite (bsum_ext n _ (fun _ => 0)) by (intros i Hi; rewrite H by auto; apply Rabs_R0). rewrite bsum_0. lra. }
  assert (E : expm fuel n m = Some (expm_with n 0 m)). { unfold expm. rewrite finite_always, NZ. cbn [negb]. assert (T : halvings fuel 0 0 = Some 0%nat) by (destruct fuel; cbn [halvings]; change (ltb half 0) with (Rltb (/ 2) 0); rdecide; reflexivity). rewrite T. reflexivity. }
  assert (B : bounded n (scaled_matrix ((/ 2) ^ 0) (mget m)) (/ 2)).
  { eapply bounded_le; [|apply bounded_scaled, bounded_norm]. rewrite <- one_norm_spec, NZ. lra. }
  destruct (expm_with_spec n 0 m Sz Sm B) as (r & P & Z & E1 & Sr & Er & DZ & ZD & DP). exists r. split; [congruence|]. eapply equal_trans; [exact Er|]. change (2 ^ 0)%nat with 1%nat. eapply equal_trans; [apply power_one|].
  set (X := scaled_matrix ((/ 2) ^ 0) (mget m)) in *.
  assert (PZ : forall k, (0 < k)%nat -> equal n n (power n X k) zero_matrix).
  { intros k K. destruct k as [|k]; [lia|]. intros i j Hi Hj. cbn [power]. unfold product. rewrite (bsum_ext n _ (fun _ => 0)); [apply bsum_0|]. intros l Hl. unfold X, scaled_matrix. rewrite H by auto. unfold zero_matrix. ring. }
  assert (SZ : forall d, (forall k, (7 <= k)%nat -> d k = 0) -> d 0%nat = 1 -> equal n n (series n X d) unit_matrix).
  { intros d D D0 i j Hi Hj. rewrite (series_finite n X d 7 D), bsum_first, D0. rewrite (bsum_ext 6 _ (fun _ => 0)) by (intros k Hk; rewrite PZ by (auto; lia); unfold zero_matrix; ring). rewrite bsum_0. cbn [power]. ring. }
  apply (cancel n X Z ZD). eapply equal_trans; [exact DP|]. eapply equal_trans; [apply (SZ numer numer_high eq_refl)|]. apply equal_sym. eapply equal_trans; [apply product_left, (SZ denom denom_high)|]; [unfold denom; cbn; lra|]. intros i j Hi Hj. apply product_unit_l; auto.
Qed.

(** Any scalar: a matrix with a value that is not finite is refused, and an answer has finite entries only. *)
Theorem C92_finite {T} {NT : Num T} fuel n (m : mat T) : (mat_is_finite m = false -> expm fuel n m = Some (Err LaNonFinite)) /\
  (forall r, expm fuel n m = Some (Ok r) -> mat_is_finite m = true /\ mat_is_finite r = true).
Proof.
  unfold expm. split; [intros ->; reflexivity|]. intros r. destruct (mat_is_finite m); cbn [negb]; [|discriminate]. destruct (halvings fuel (one_norm n m) 0) as [s|]; [|discriminate]. intros H. split; auto. injection H as H. unfold expm_with in H.
  destruct (pade_sums n _ 7) as [[? num] den]. destruct (lu_decompose n den) as [f| |]; try discriminate H. destruct (mat_is_finite (squared _ _ _)) eqn:F; [|discriminate H]. injection H as <-. exact F.
Qed.

(** In f64 the scaling loop ends within 1025 turns unless a column's sum overflows to infinity; then it never ends. *)
Lemma half_value : B2R (F64 1 (-1)) = / 2.
Proof. rewrite <- (SF2R_B2SF _ _ (F64 1 (-1))). vm_compute (B2SF _). unfold SF2R, Defs.F2R. cbn. lra. Qed.
Lemma halve_down (lm : Libm f64) (x : f64) k : ffinite x = true -> 0 <= B2R x -> (0 <= k <= 1024)%Z -> B2R x <= bpow radix2 k ->
  let y := @mul f64 (f64num lm) x (@half f64 (f64num lm)) in ffinite y = true /\ 0 <= B2R y <= bpow radix2 (k - 1).
Proof.
  intros F P K L. cbv zeta. change (@half f64 (f64num lm)) with (F64 1 (-1)). change (@mul f64 (f64num lm) x (F64 1 (-1))) with (Bmult mode_NE x (F64 1 (-1)) : f64).
  pose proof (Bmult_correct 53 1024 prec53 prec_lt53 mode_NE x (F64 1 (-1))) as C. rewrite half_value in C.
  assert (D : 0 <= B2R x * / 2 <= bpow radix2 (k - 1)). { split; [lra|]. replace (k - 1)%Z with (k + -1)%Z by lia. rewrite bpow_plus. change (bpow radix2 (-1)) with (/ 2). lra. }
  assert (V : Valid_exp (SpecFloat.fexp 53 1024)) by (apply (fexp_correct 53 1024 prec53)).
  set (w := Generic_fmt.round radix2 (SpecFloat.fexp 53 1024) (round_mode mode_NE) (B2R x * / 2)) in *.
  assert (W : 0 <= w <= bpow radix2 (k - 1)).
  { split; [apply round_ge_generic; [exact V|apply valid_rnd_round_mode|apply generic_format_0|apply D]|]. apply round_le_generic; [exact V|apply valid_rnd_round_mode| |apply D].
    apply generic_format_bpow. unfold SpecFloat.fexp, SpecFloat.emin. lia. }
  rewrite Rlt_bool_true in C.
  - destruct C as (C1 & C2 & _). rewrite C1. split; [|exact W]. eapply eq_trans; [exact C2|]. rewrite F. reflexivity.
  - rewrite Rabs_pos_eq by apply W. apply Rle_lt_trans with (bpow radix2 (k - 1)); [apply W|]. apply bpow_lt. lia.
Qed.
Lemma halvings_f64 (lm : Libm f64) : forall k (x : f64) s, ffinite x = true -> 0 <= B2R x -> (k <= 1025)%nat -> B2R x <= bpow radix2 (Z.of_nat k - 1) ->
  @halvings f64 (f64num lm) k x s <> None.
Proof.
  induction k as [|k IH]; intros x s F P K L; cbn [halvings]; change (@half f64 (f64num lm)) with (F64 1 (-1)).
  - replace (@ltb f64 (f64num lm) (F64 1 (-1)) x) with false; [discriminate|]. symmetry. change (@ltb f64 (f64num lm) (F64 1 (-1)) x) with (Bltb (F64 1 (-1)) x). rewrite Bltb_correct by auto. apply Rlt_bool_false. rewrite half_value. cbn in L. lra.
  - destruct (@ltb f64 (f64num lm) _ x); [|discriminate]. destruct (halve_down lm x (Z.of_nat k) F P ltac:(lia)) as [F' P'].
    + eapply Rle_trans; [exact L|]. apply bpow_le. lia.
    + apply IH; [exact F'|apply P'|lia|apply P'].
Qed.
Lemma halvings_more {T} {NT : Num T} : forall k k' x s, (k <= k')%nat -> halvings k x s <> None -> halvings k' x s <> None.
Proof.
  induction k as [|k IH]; intros k' x s L H; cbn [halvings] in H; destruct k' as [|k']; cbn [halvings]; try lia; destruct (ltb half x); try congruence; try discriminate. apply (IH k'); auto. lia.
Qed.
Lemma halvings_infinite (lm : Libm f64) k : forall s, @halvings f64 (f64num lm) k (B754_infinity false) s = None.
Proof.
  induction k as [|k IH]; intros s; cbn [halvings]; change (@half f64 (f64num lm)) with (F64 1 (-1)); replace (@ltb f64 (f64num lm) (F64 1 (-1)) (B754_infinity false)) with true by (vm_compute; reflexivity); [reflexivity|].
  replace (@mul f64 (f64num lm) (B754_infinity false) (F64 1 (-1))) with (B754_infinity false : f64) by (vm_compute; reflexivity). apply IH.
Qed.
Theorem C92_ends (lm : Libm f64) fuel n (m : mat f64) : (1025 <= fuel)%nat ->
  @expm f64 (f64num lm) fuel n m = None <-> @mat_is_finite f64 (f64num lm) m = true /\ @one_norm f64 (f64num lm) n m = B754_infinity false.
Proof.
  intros F. unfold expm. destruct (mat_is_finite m); cbn [negb]; [|split; [discriminate|intros [H _]; discriminate H]].
  set (x := one_norm n m). split.
  - intros H. split; [reflexivity|]. destruct (@halvings f64 (f64num lm) fuel x 0) eqn:E; [discriminate H|].
    assert (D : forall z, @halvings f64 (f64num lm) 1025 x 0 = z -> z = None). { intros z <-. destruct (halvings 1025 x 0) eqn:Q; auto. exfalso. refine (halvings_more 1025 fuel x 0%nat F _ E). rewrite Q. discriminate. }
    specialize (D _ eq_refl). clear E H F. clearbody x. destruct x as [b|b| |b mx ex B].
    + exfalso. revert D. apply halvings_f64; try reflexivity; [cbn; lra|]. apply bpow_ge_0.
    + destruct b; [|reflexivity]. exfalso. revert D. change 1025%nat with (S 1024). generalize 1024%nat. intros k. cbn [halvings]. change (@half f64 (f64num lm)) with (F64 1 (-1)). replace (@ltb f64 (f64num lm) (F64 1 (-1)) (B754_infinity true)) with false by (vm_compute; reflexivity). discriminate.
    + exfalso. revert D. change 1025%nat with (S 1024). generalize 1024%nat. intros k. cbn [halvings]. change (@half f64 (f64num lm)) with (F64 1 (-1)). replace (@ltb f64 (f64num lm) (F64 1 (-1)) B754_nan) with false by (vm_compute; reflexivity). discriminate.
    + exfalso. destruct (Rle_dec 0 (B2R (B754_finite b mx ex B : f64))) as [P|P].
      * revert D. apply halvings_f64; auto. apply Rlt_le. change (Z.of_nat 1025 - 1)%Z with 1024%Z. pose proof (abs_B2R_lt_emax 53 1024 (B754_finite b mx ex B)) as A. apply Rabs_def2 in A. apply A.
      * revert D. change 1025%nat with (S 1024). generalize 1024%nat. intros k. cbn [halvings]. change (@half f64 (f64num lm)) with (F64 1 (-1)). change (@ltb f64 (f64num lm) (F64 1 (-1)) (B754_finite b mx ex B)) with (Bltb (F64 1 (-1)) (B754_finite b mx ex B)). rewrite Bltb_correct by reflexivity. rewrite Rlt_bool_false; [discriminate|]. rewrite half_value. lra.
  - intros [_ H]. rewrite H, halvings_infinite. reflexivity.
Qed.
(** The documentation says a call returns a matrix or an error; this finite matrix gets neither. *)
Theorem C92_returns_refuted (lm : Libm f64) : let big := F64 (2 ^ 53 - 1) 971 in
  @mat_is_finite f64 (f64num lm) [[big; F64 0 0]; [big; F64 0 0]] = true /\ forall fuel, @expm f64 (f64num lm) fuel 2 [[big; F64 0 0]; [big; F64 0 0]] = None.
Proof.
  intros big. assert (F : @mat_is_finite f64 (f64num lm) [[big; F64 0 0]; [big; F64 0 0]] = true) by (vm_compute; reflexivity). split; [exact F|]. intros fuel. unfold expm. rewrite F. cbn [negb].
  replace (@one_norm f64 (f64num lm) 2 [[big; F64 0 0]; [big; F64 0 0]]) with (B754_infinity false : f64) by (vm_compute; reflexivity). rewrite halvings_infinite. reflexivity.
Qed.

(** The hypotheses are met: a rotation generator of a full turn's quarter, and its opposite. *)
Example C92_example : shape 2 2 [[0; -3]; [3; 0]] /\ INR 2 <= 2 ^ 50 /\ column_norm 2 (mget [[0; -3]; [3; 0]]) = 3 /\ column_norm 2 (mget [[0; -3]; [3; 0]]) <= 2 ^ 40 /\
  (exists fuel r, expm fuel 2 [[0; -3]; [3; 0]] = Some (Ok r)) /\ equal 2 2 (mget [[0; 3]; [-3; 0]]) (scaled_matrix (-1) (mget [[0; -3]; [3; 0]])).
Proof.
  assert (S : shape 2 2 [[0; -3]; [3; 0]]) by (split; [reflexivity|intros i Hi; destruct i as [|[|]]; try lia; reflexivity]). assert (N : column_norm 2 (mget [[0; -3]; [3; 0]]) = 3).
  { unfold column_norm. cbn. rewrite Rabs_R0, (Rabs_left (-3)), (Rabs_pos_eq 3) by lra. unfold Rmax. repeat destruct (Rle_dec _ _); lra. }
  assert (Z : INR 2 <= 2 ^ 50) by (replace 50%nat with (1 + 49)%nat by lia; rewrite pow_add; pose proof (pow_R1_Rle 2 49 ltac:(lra)); cbn [INR]; lra).
  split; [exact S|]. split; [exact Z|]. split; [exact N|]. split; [rewrite N; replace 40%nat with (2 + 38)%nat by lia; rewrite pow_add; pose proof (pow_R1_Rle 2 38 ltac:(lra)); lra|]. split.
  - destruct (C92_accurate 2 _ Z S) as (t & H). destruct (H t (Nat.le_refl t)) as (r & E & _). eauto.
  - intros i j Hi Hj. destruct i as [|[|i]]; [| |lia]; (destruct j as [|[|j]]; [| |lia]); unfold scaled_matrix; cbn; lra.
Qed.

Print Assumptions C92_accurate.
Print Assumptions C92_relative.
Print Assumptions C92_inverse.
Print Assumptions C92_commutes.
Print Assumptions C92_symmetric.
Print Assumptions C92_preserves.
Print Assumptions C92_zero.
Print Assumptions C92_finite.
Print Assumptions C92_ends.
Print Assumptions C92_returns_refuted.
