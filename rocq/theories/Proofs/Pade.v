(** The sixth diagonal Pade approximant of the exponential of a small matrix, and its repeated squaring. *)
From Coq Require Import ZArith Reals List Arith Lia Lra Psatz FunctionalExtensionality.
From Coquelicot Require Import Coquelicot.
From Verif Require Import Base.Scalar Base.RNum Base.Series Spec.Matrix Spec.MatrixExp Proofs.Matrix Proofs.Algebra Proofs.MatrixSeries.
Local Open Scope R_scope.

(** The coefficients of the numerator; those of the denominator alternate in sign. *)
Definition numer (k : nat) : R :=
  match k with 0%nat => 1 | 1%nat => / 2 | 2%nat => 5 / 44 | 3%nat => / 66 | 4%nat => / 792 | 5%nat => / 15840 | 6%nat => / 665280 | _ => 0 end.
Definition denom (k : nat) : R := (if Nat.even k then 1 else -1) * numer k.
Lemma numer_high k : (7 <= k)%nat -> numer k = 0.
Proof. intros H. do 7 (destruct k as [|k]; [lia|]). reflexivity. Qed.
Lemma denom_high k : (7 <= k)%nat -> denom k = 0.
Proof. intros H. unfold denom. rewrite numer_high by auto. ring. Qed.

(** What the product of denominator and exponential has left after the numerator. *)
Definition rest (k : nat) : R := conv denom (exponent 1) k - numer k.
Lemma fact_step k : INR (fact (S k)) = INR (S k) * INR (fact k).
Proof. rewrite fact_simpl, mult_INR. reflexivity. Qed.
Lemma fact0 : INR (fact 0) = 1. Proof. reflexivity. Qed.
Lemma fact1 : INR (fact 1) = 1. Proof. rewrite fact_step, fact0. rewrite INR_IZR_INZ. cbn [Z.of_nat Pos.of_succ_nat Pos.succ]. lra. Qed.
Lemma fact2 : INR (fact 2) = 2. Proof. rewrite fact_step, fact1. rewrite INR_IZR_INZ. cbn [Z.of_nat Pos.of_succ_nat Pos.succ]. lra. Qed.
Lemma fact3 : INR (fact 3) = 6. Proof. rewrite fact_step, fact2. rewrite INR_IZR_INZ. cbn [Z.of_nat Pos.of_succ_nat Pos.succ]. lra. Qed.
Lemma fact4 : INR (fact 4) = 24. Proof. rewrite fact_step, fact3. rewrite INR_IZR_INZ. cbn [Z.of_nat Pos.of_succ_nat Pos.succ]. lra. Qed.
Lemma fact5 : INR (fact 5) = 120. Proof. rewrite fact_step, fact4. rewrite INR_IZR_INZ. cbn [Z.of_nat Pos.of_succ_nat Pos.succ]. lra. Qed.
Lemma fact6 : INR (fact 6) = 720. Proof. rewrite fact_step, fact5. rewrite INR_IZR_INZ. cbn [Z.of_nat Pos.of_succ_nat Pos.succ]. lra. Qed.
Lemma fact7 : INR (fact 7) = 5040. Proof. rewrite fact_step, fact6. rewrite INR_IZR_INZ. cbn [Z.of_nat Pos.of_succ_nat Pos.succ]. lra. Qed.
Lemma fact8 : INR (fact 8) = 40320. Proof. rewrite fact_step, fact7. rewrite INR_IZR_INZ. cbn [Z.of_nat Pos.of_succ_nat Pos.succ]. lra. Qed.
Lemma fact9 : INR (fact 9) = 362880. Proof. rewrite fact_step, fact8. rewrite INR_IZR_INZ. cbn [Z.of_nat Pos.of_succ_nat Pos.succ]. lra. Qed.
Lemma fact10 : INR (fact 10) = 3628800. Proof. rewrite fact_step, fact9. rewrite INR_IZR_INZ. cbn [Z.of_nat Pos.of_succ_nat Pos.succ]. lra. Qed.
Lemma fact11 : INR (fact 11) = 39916800. Proof. rewrite fact_step, fact10. rewrite INR_IZR_INZ. cbn [Z.of_nat Pos.of_succ_nat Pos.succ]. lra. Qed.
Lemma fact12 : INR (fact 12) = 479001600. Proof. rewrite fact_step, fact11. rewrite INR_IZR_INZ. cbn [Z.of_nat Pos.of_succ_nat Pos.succ]. lra. Qed.
Lemma fact13 : INR (fact 13) = 6227020800. Proof. rewrite fact_step, fact12. rewrite INR_IZR_INZ. cbn [Z.of_nat Pos.of_succ_nat Pos.succ]. lra. Qed.
Lemma rest_low k : (k < 13)%nat -> rest k = 0.
Proof.
  intros H. unfold rest, conv, exponent. do 13 (destruct k as [|k]; [cbn [bsum Nat.sub]; unfold denom; cbn [numer Nat.even]; rewrite ?pow1, ?fact0, ?fact1, ?fact2, ?fact3, ?fact4, ?fact5, ?fact6, ?fact7, ?fact8, ?fact9, ?fact10, ?fact11, ?fact12; lra|]). lia.
Qed.
(** From the thirteenth on. *)
Definition tail_term (m : nat) : R :=
  let x := INR m in / 665280 * ((x + 1) * (x + 2) * (x + 3) * (x + 4) * (x + 5) * (x + 6)) / (INR (fact (7 + m)) * ((x + 8) * (x + 9) * (x + 10) * (x + 11) * (x + 12) * (x + 13))).
Lemma rest_high m : rest (13 + m) = tail_term m.
Proof.
  unfold rest. rewrite numer_high by lia. rewrite Rminus_0_r. unfold conv. replace (S (13 + m)) with (7 + (7 + m))%nat by lia. rewrite bsum_shift.
  rewrite (bsum_ext (7 + m) _ (fun _ => 0)) by (intros i Hi; rewrite denom_high by lia; ring). rewrite bsum_0, Rplus_0_r. cbn [bsum]. unfold denom. cbn [numer Nat.even].
  replace (13 + m - 0)%nat with (S (S (S (S (S (S (7 + m))))))) by lia. replace (13 + m - 1)%nat with (S (S (S (S (S (7 + m)))))) by lia. replace (13 + m - 2)%nat with (S (S (S (S (7 + m))))) by lia.
  replace (13 + m - 3)%nat with (S (S (S (7 + m)))) by lia. replace (13 + m - 4)%nat with (S (S (7 + m))) by lia. replace (13 + m - 5)%nat with (S (7 + m)) by lia. replace (13 + m - 6)%nat with (7 + m)%nat by lia.
  unfold exponent, tail_term. rewrite !pow1. rewrite !fact_step. pose proof (INR_fact_lt_0 (7 + m)) as F. set (f := INR (fact (7 + m))) in *. rewrite !S_INR, plus_INR. pose proof (pos_INR m). set (x := INR m) in *. replace (INR 7) with 7 by (cbn; lra). field. repeat split; lra.
Qed.
Lemma tail_pos m : 0 < tail_term m.
Proof. unfold tail_term. pose proof (INR_fact_lt_0 (7 + m)). pose proof (pos_INR m). apply Rdiv_lt_0_compat; [|apply Rmult_lt_0_compat; auto]; repeat apply Rmult_lt_0_compat; lra. Qed.
Lemma tail_next m : tail_term (S m) <= / 2 * tail_term m.
Proof.
  assert (E : tail_term (S m) = (INR m + 7) / ((INR m + 1) * (INR m + 14)) * tail_term m).
  { unfold tail_term. replace (7 + S m)%nat with (S (7 + m)) by lia. rewrite fact_step. pose proof (INR_fact_lt_0 (7 + m)). pose proof (pos_INR m). rewrite !S_INR, plus_INR. replace (INR 7) with 7 by (cbn; lra). field. repeat split; lra. }
  rewrite E. apply Rmult_le_compat_r; [left; apply tail_pos|]. pose proof (pos_INR m). set (x := INR m) in *. apply Rmult_le_reg_r with ((x + 1) * (x + 14)); [nra|]. unfold Rdiv. rewrite Rmult_assoc, Rinv_l by nra. nra.
Qed.
Definition tail_first : R := 720 * 720 / (479001600 * 6227020800).
Lemma tail_zero : tail_term 0 = tail_first.
Proof. unfold tail_term, tail_first. cbn [Nat.add]. rewrite fact7. cbn [INR]. field. Qed.
Lemma tail_le m : tail_term m <= tail_first * (/ 2) ^ m.
Proof. induction m as [|m IH]; [rewrite tail_zero; cbn; lra|]. pose proof (tail_next m). cbn [pow]. lra. Qed.
Lemma series_skip (g : nat -> R) m (l : R) : (0 < m)%nat -> (forall k, (k < m)%nat -> g k = 0) -> is_series (fun k => g (m + k)%nat) l -> is_series g l.
Proof.
  intros M Z H. apply (is_series_decr_n (V := R_NormedModule) g m); auto.
  assert (Q : l + - sum_n g (pred m) = l). { rewrite <- bsum_sum_n. replace (S (pred m)) with m by lia. rewrite (bsum_ext m g (fun _ => 0)) by auto. rewrite bsum_0. ring. }
  exact (eq_ind l (fun v => is_series (fun k => g (m + k)%nat) v) H _ (eq_sym Q)).
Qed.
(** Summed at one half. *)
Lemma rest_sum : ex_series (fun k => Rabs (rest k) * (/ 2) ^ k) /\ 0 <= Series (fun k => Rabs (rest k) * (/ 2) ^ k) <= tail_first * (/ 2) ^ 13 * (4 / 3).
Proof.
  set (g := fun k => match Nat.ltb k 13 with true => 0 | false => tail_first * (/ 2) ^ 13 * (/ 4) ^ (k - 13) end).
  assert (G : is_series g (tail_first * (/ 2) ^ 13 * (4 / 3))).
  { apply (series_skip g 13); [lia|intros k Hk; unfold g; destruct (Nat.ltb_spec k 13); [reflexivity|lia]|]. apply (is_series_ext (fun m => scal (tail_first * (/ 2) ^ 13) ((/ 4) ^ m))).
    - intros m. unfold g. destruct (Nat.ltb_spec (13 + m) 13); [lia|]. replace (13 + m - 13)%nat with m by lia. reflexivity.
    - replace (4 / 3) with (/ (1 - / 4)) by lra. apply (is_series_scal (tail_first * (/ 2) ^ 13) (fun m => (/ 4) ^ m)). apply is_series_geom. rewrite Rabs_pos_eq; lra. }
  assert (T0 : 0 < tail_first) by (unfold tail_first; apply Rdiv_lt_0_compat; lra).
  assert (L : forall k, 0 <= Rabs (rest k) * (/ 2) ^ k <= g k).
  { intros k. split; [apply Rmult_le_pos; [apply Rabs_pos|apply pow_le; lra]|]. unfold g. destruct (Nat.ltb_spec k 13) as [H|H]; [rewrite rest_low by auto; rewrite Rabs_R0; lra|].
    replace k with (13 + (k - 13))%nat at 1 2 by lia. set (m := (k - 13)%nat). rewrite rest_high, Rabs_pos_eq by (left; apply tail_pos). pose proof (tail_le m) as T. rewrite pow_add. replace ((/ 4) ^ m) with ((/ 2) ^ m * (/ 2) ^ m) by (rewrite <- Rpow_mult_distr; f_equal; lra).
    assert (0 < (/ 2) ^ m) by (apply pow_lt; lra). assert (0 < (/ 2) ^ 13) by (apply pow_lt; lra). set (u := (/ 2) ^ m) in *. set (v := (/ 2) ^ 13) in *. assert (0 < v * u) by nra. nra. }
  assert (E : ex_series (fun k => Rabs (rest k) * (/ 2) ^ k)).
  { apply (ex_series_le (V := R_CompleteNormedModule) _ g); [|exists (tail_first * (/ 2) ^ 13 * (4 / 3)); exact G]. intros k. destruct (L k) as [L1 L2]. change (Rabs (Rabs (rest k) * (/ 2) ^ k) <= g k). rewrite Rabs_pos_eq; auto. }
  split; [exact E|]. split; [|rewrite <- (is_series_unique _ _ G); apply Series_le; [exact L|exists (tail_first * (/ 2) ^ 13 * (4 / 3)); exact G]].
  rewrite <- (is_series_unique (fun _ => 0) 0) by (apply (is_series_finite (fun _ => 0) 0); auto). apply Series_le; [|exact E]. intros k. split; [lra|apply L].
Qed.

(** ** A matrix of norm at most one half *)
Definition pade_error : R := / 2 ^ 53.
Section Small.
  Variables (n : nat) (X : matrix).
  Hypothesis XB : bounded n X (/ 2).
  Let half_pos : 0 <= / 2. Proof. lra. Qed.
  Let N := series n X numer.
  Let D := series n X denom.
  Let E := series n X (exponent 1).
  Lemma numer_ok : admits (/ 2) numer. Proof. apply (admits_finite _ _ 7). apply numer_high. Qed.
  Lemma denom_ok : admits (/ 2) denom. Proof. apply (admits_finite _ _ 7). apply denom_high. Qed.
  Lemma exponent_ok t : admits (/ 2) (exponent t). Proof. apply admits_exponent. Qed.
  (** The denominator is close to the identity, so it sends only zero to zero. *)
  Definition away : R := 285 / 1000.
  Lemma denom_near : bounded n (minus_matrix D unit_matrix) away.
  Proof.
    set (g := fun k => denom k - if Nat.eqb k 0 then 1 else 0). assert (Gz : forall k, (7 <= k)%nat -> g k = 0) by (intros k Hk; unfold g; rewrite denom_high by auto; destruct k; [lia|cbn; ring]).
    assert (A1 : admits (/ 2) (fun k => if Nat.eqb k 0 then 1 else 0)) by (apply (admits_finite _ _ 1); intros [|k] Hk; [lia|reflexivity]).
    assert (Q : equal n n (series n X g) (minus_matrix D unit_matrix)).
    { eapply equal_trans; [apply (series_minus n X (/ 2) half_pos XB denom); [apply denom_ok|exact A1]|]. intros i j Hi Hj. unfold minus_matrix. rewrite (series_one n X i j Hi Hj). reflexivity. }
    apply (bounded_ext n _ _ _ Q). assert (Ag : admits (/ 2) g) by (apply (admits_finite _ _ 7); exact Gz). apply bounded_le with (2 := series_bounded n X (/ 2) half_pos XB g Ag).
    rewrite (is_series_unique _ _ (is_series_finite (fun k => Rabs (g k) * (/ 2) ^ k) 7 (fun k Hk => ltac:(cbv beta; rewrite (Gz k Hk), Rabs_R0; ring)))).
    cbn [bsum]. unfold g, denom. cbn [Nat.even numer Nat.eqb]. unfold away. 
    rewrite (Rabs_pos_eq (1 * 1 - 1)), (Rabs_left (-1 * / 2 - 0)), (Rabs_pos_eq (1 * (5 / 44) - 0)), (Rabs_left (-1 * / 66 - 0)), (Rabs_pos_eq (1 * / 792 - 0)), (Rabs_left (-1 * / 15840 - 0)), (Rabs_pos_eq (1 * / 665280 - 0)) by lra. cbn [pow]. lra.
  Qed.
  Lemma denom_lower x : bsum n (fun i => Rabs (x i)) * (1 - away) <= bsum n (fun i => Rabs (times n D x i)).
  Proof.
    set (G := minus_matrix D unit_matrix). assert (B : bsum n (fun i => Rabs (times n G x i)) <= away * bsum n (fun i => Rabs (x i))).
    { apply Rle_trans with (bsum n (fun i => bsum n (fun k => Rabs (G i k) * Rabs (x k)))).
      - apply bsum_le. intros i Hi. unfold times. apply Rle_trans with (1 := bsum_abs n _). right. apply bsum_ext. intros; apply Rabs_mult.
      - rewrite bsum_swap. rewrite <- bsum_scal. apply bsum_le. intros k Hk. rewrite (bsum_ext n _ (fun i => Rabs (x k) * Rabs (G i k))) by (intros; ring). rewrite bsum_scal, Rmult_comm. apply Rmult_le_compat_r; [apply Rabs_pos|]. apply denom_near; auto. }
    assert (T : bsum n (fun i => Rabs (x i)) <= bsum n (fun i => Rabs (times n D x i)) + bsum n (fun i => Rabs (times n G x i))).
    { rewrite <- bsum_plus. apply bsum_le. intros i Hi. assert (Q : x i = times n D x i - times n G x i).
      { unfold G. assert (V : times n (minus_matrix D unit_matrix) x i = times n D x i - times n unit_matrix x i) by (unfold times; rewrite <- bsum_minus; apply bsum_ext; intros; unfold minus_matrix; ring). rewrite V, times_unit by auto. ring. }
      rewrite Q at 1. unfold Rminus. apply Rle_trans with (1 := Rabs_triang _ _). rewrite Rabs_Ropp. lra. }
    lra.
  Qed.
  Lemma denom_kernel x : equal_vectors n (times n D x) (fun _ => 0) -> forall i, (i < n)%nat -> x i = 0.
  Proof.
    intros H i Hi. pose proof (denom_lower x) as L. rewrite (bsum_ext n (fun i => Rabs (times n D x i)) (fun _ => 0)) in L by (intros k Hk; rewrite H by auto; apply Rabs_R0). rewrite bsum_0 in L. unfold away in L.
    assert (Rabs (x i) <= bsum n (fun k => Rabs (x k))). { rewrite <- (bsum_delta n i (Rabs (x i))) at 1 by auto. apply bsum_le. intros k Hk. destruct (Nat.eqb_spec k i) as [->|Nk]; [lra|apply Rabs_pos]. }
    pose proof (Rabs_pos (x i)). assert (Z : Rabs (x i) = 0) by lra. destruct (Req_dec (x i) 0) as [Q|Q]; auto. apply Rabs_no_R0 in Q. lra.
  Qed.
  Variable Z : matrix.
  Hypothesis DZ : equal n n (product n D Z) unit_matrix.
  Hypothesis ZD : equal n n (product n Z D) unit_matrix.
  Variable P : matrix.
  Hypothesis DP : equal n n (product n D P) N.
  Lemma inverse_bounded : bounded n Z (/ (1 - away)).
  Proof.
    intros j Hj. pose proof (denom_lower (fun i => Z i j)) as L. rewrite (bsum_ext n (fun i => Rabs (times n D (fun i0 => Z i0 j) i)) (fun i => Rabs (unit_matrix i j))) in L by (intros i Hi; f_equal; apply (DZ i j Hi Hj)).
    pose proof (bounded_unit n j Hj) as U. apply Rmult_le_reg_r with (1 - away); [unfold away; lra|]. rewrite Rinv_l by (unfold away; lra). lra.
  Qed.
  Lemma cancel a b : equal n n (product n D a) (product n D b) -> equal n n a b.
  Proof.
    intros H. assert (U : forall c, equal n n (product n Z (product n D c)) c). { intros c. rewrite <- p_assoc. eapply equal_trans; [apply product_left; exact ZD|]. intros i j Hi Hj. apply product_unit_l; auto. }
    eapply equal_trans; [apply equal_sym, U|]. eapply equal_trans; [|apply U]. apply equal_product; auto. apply equal_refl.
  Qed.
  (** How far the approximant is from the exponential. *)
  Lemma approximant_close : bounded n (minus_matrix P E) (/ (1 - away) * (tail_first * (/ 2) ^ 13 * (4 / 3))).
  Proof.
    destruct rest_sum as [RE [RS0 RS1]]. assert (AR : admits (/ 2) rest) by exact RE.
    assert (Q : equal n n (product n D (minus_matrix P E)) (scaled_matrix (-1) (series n X rest))).
    { rewrite p_minus_r. assert (S1 : equal n n (product n D E) (series n X (conv denom (exponent 1)))) by (apply (series_product n X (/ 2) half_pos XB); [apply denom_ok|apply exponent_ok]).
      assert (S2 : equal n n (series n X rest) (minus_matrix (series n X (conv denom (exponent 1))) N)) by (apply (series_minus n X (/ 2) half_pos XB); [apply admits_conv; auto; [apply denom_ok|apply exponent_ok]|apply numer_ok]).
      intros i j Hi Hj. unfold scaled_matrix. rewrite (S2 i j Hi Hj). unfold minus_matrix. rewrite (S1 i j Hi Hj), (DP i j Hi Hj). ring. }
    assert (W : equal n n (minus_matrix P E) (product n Z (scaled_matrix (-1) (series n X rest)))).
    { apply cancel. eapply equal_trans; [exact Q|]. rewrite <- p_assoc. apply equal_sym. eapply equal_trans; [apply product_left; exact DZ|]. intros i j Hi Hj. apply product_unit_l; auto. }
    apply (bounded_ext n _ _ _ (equal_sym _ _ _ _ W)). apply bounded_product; [left; apply Rinv_0_lt_compat; unfold away; lra|apply inverse_bounded|].
    apply bounded_le with (Rabs (-1) * Series (fun k => Rabs (rest k) * (/ 2) ^ k)); [rewrite Rabs_left by lra; lra|]. apply bounded_scaled. apply (series_bounded n X (/ 2) half_pos XB rest AR).
  Qed.
  (** Relative to the exponential. *)
  Definition off : matrix := product n (series n X (exponent (-1))) (minus_matrix P E).
  Lemma exp_inverse : equal n n (product n E (series n X (exponent (-1)))) unit_matrix.
  Proof.
    eapply equal_trans; [apply (exponent_product n X (/ 2) half_pos XB)|]. replace (1 + -1) with 0 by ring. eapply equal_trans; [|apply (series_one n X)]. rewrite (series_ext n X (exponent 0) (fun k => if Nat.eqb k 0 then 1 else 0)); [apply equal_refl|].
    intros [|k]; unfold exponent; cbn [Nat.eqb]; [cbn; field|]. rewrite pow_i by lia. unfold Rdiv. ring.
  Qed.
  Lemma off_bounded : bounded n off pade_error.
  Proof.
    assert (E2 : exp (/ 2) <= 2). { assert (H : exp (/ 2) * exp (/ 2) <= 3) by (rewrite <- exp_plus; replace (/ 2 + / 2) with 1 by lra; apply exp_le_3). pose proof (exp_pos (/ 2)). nra. }
    apply bounded_le with (exp (/ 2) * (/ (1 - away) * (tail_first * (/ 2) ^ 13 * (4 / 3)))).
    - apply Rle_trans with (2 * (/ (1 - away) * (tail_first * (/ 2) ^ 13 * (4 / 3)))).
      + apply Rmult_le_compat_r; [|exact E2]. assert (0 < / (1 - away)) by (apply Rinv_0_lt_compat; unfold away; lra). assert (0 < tail_first) by (unfold tail_first; apply Rdiv_lt_0_compat; lra). assert (0 < (/ 2) ^ 13) by (apply pow_lt; lra). repeat apply Rmult_le_pos; lra.
      + unfold pade_error, away, tail_first. assert (I13 : (/ 2) ^ 13 = / 8192) by (rewrite pow_inv; f_equal; cbn [pow]; lra). assert (I53 : 2 ^ 53 = 9007199254740992) by (rewrite (pow_IZR 2 53); f_equal; reflexivity). rewrite I13, I53. lra.
    - apply bounded_product; [left; apply exp_pos| |apply approximant_close]. apply bounded_le with (2 := series_bounded n X (/ 2) half_pos XB (exponent (-1)) (exponent_ok (-1))). rewrite exponent_sum. rewrite Rabs_left by lra. right. apply f_equal. lra.
  Qed.
  Lemma approximant_product : equal n n P (product n E (plus_matrix unit_matrix off)).
  Proof.
    rewrite p_plus_r. unfold off. rewrite <- p_assoc. intros i j Hi Hj. unfold plus_matrix. rewrite product_unit_r by auto.
    rewrite (product_left n _ _ (minus_matrix P E) exp_inverse i j Hi Hj). rewrite product_unit_l by auto. unfold minus_matrix. ring.
  Qed.
  (** Everything here commutes with every power series of X. *)
  Definition commutes (a b : matrix) : Prop := equal n n (product n a b) (product n b a).
  Lemma inverse_commutes c : admits (/ 2) c -> commutes Z (series n X c).
  Proof.
    intros A. assert (C : commutes D (series n X c)) by (apply (series_commute n X (/ 2) half_pos XB); auto; apply denom_ok). unfold commutes in *. apply cancel.
    eapply equal_trans; [rewrite <- p_assoc; apply product_left, DZ|]. eapply equal_trans; [intros i j Hi Hj; apply product_unit_l; auto|]. rewrite <- p_assoc. apply equal_sym. eapply equal_trans; [apply product_left, C|]. rewrite p_assoc. eapply equal_trans; [apply equal_product; [apply equal_refl|exact DZ]|]. intros i j Hi Hj. apply product_unit_r; auto.
  Qed.
  Lemma approximant_commutes c : admits (/ 2) c -> commutes P (series n X c).
  Proof.
    intros A. unfold commutes. apply cancel. rewrite <- !p_assoc. assert (C : commutes D (series n X c)) by (apply (series_commute n X (/ 2) half_pos XB); auto; apply denom_ok).
    eapply equal_trans; [apply product_left, DP|]. eapply equal_trans; [apply (series_commute n X (/ 2) half_pos XB); auto; apply numer_ok|]. apply equal_sym. eapply equal_trans; [apply product_left, C|]. rewrite p_assoc. apply equal_product; [apply equal_refl|exact DP].
  Qed.
  Lemma commutes_minus a b c : commutes a c -> commutes b c -> commutes (minus_matrix a b) c.
  Proof. intros H K i j Hi Hj. rewrite p_minus_l, p_minus_r. unfold minus_matrix. rewrite (H i j Hi Hj), (K i j Hi Hj). reflexivity. Qed.
  Lemma commutes_product a b c : commutes a c -> commutes b c -> commutes (product n a b) c.
  Proof.
    intros H K. unfold commutes. rewrite p_assoc. eapply equal_trans; [apply equal_product; [apply equal_refl|exact K]|]. rewrite <- p_assoc. eapply equal_trans; [apply product_left, H|]. rewrite p_assoc. apply equal_refl.
  Qed.
  Lemma off_commutes : commutes off E.
  Proof.
    apply commutes_product; [apply (series_commute n X (/ 2) half_pos XB); apply exponent_ok|]. apply commutes_minus; [apply approximant_commutes, exponent_ok|]. intros i j Hi Hj. reflexivity.
  Qed.
  Lemma factor_commutes : commutes (plus_matrix unit_matrix off) E.
  Proof. intros i j Hi Hj. rewrite p_plus_l, p_plus_r. unfold plus_matrix. rewrite product_unit_l, product_unit_r by auto. rewrite (off_commutes i j Hi Hj). reflexivity. Qed.
  Lemma power_of_product a b k : commutes b a -> equal n n (power n (product n a b) k) (product n (power n a k) (power n b k)).
  Proof.
    intros C. induction k as [|k IH]; [cbn; intros i j Hi Hj; rewrite product_unit_l by auto; reflexivity|]. cbn [power]. eapply equal_trans; [apply product_left, IH|]. rewrite !p_assoc.
    assert (CK : commutes (power n b k) a).
    { clear IH. induction k as [|k IH]; [cbn; intros i j Hi Hj; rewrite product_unit_l, product_unit_r by auto; reflexivity|]. cbn [power]. apply commutes_product; auto. }
    apply equal_product; [apply equal_refl|]. rewrite <- !p_assoc. apply product_left. exact CK.
  Qed.
  Lemma near_one_power F phi k : 0 <= phi -> bounded n F phi -> bounded n (minus_matrix (power n (plus_matrix unit_matrix F) k) unit_matrix) ((1 + phi) ^ k - 1).
  Proof.
    intros Hp B. induction k as [|k IH]; [cbn; intros j Hj; rewrite (bsum_ext n _ (fun _ => 0)); [rewrite bsum_0; lra|]; intros; unfold minus_matrix; rewrite Rminus_eq_0; apply Rabs_R0|].
    cbn [power]. set (Y := power n (plus_matrix unit_matrix F) k) in *.
    assert (Q : equal n n (plus_matrix (minus_matrix Y unit_matrix) (product n Y F)) (minus_matrix (product n Y (plus_matrix unit_matrix F)) unit_matrix)).
    { intros i j Hi Hj. rewrite p_plus_r. unfold plus_matrix, minus_matrix. rewrite product_unit_r by auto. ring. }
    apply (bounded_ext n _ _ _ Q). apply bounded_le with ((1 + phi) ^ k - 1 + (1 + phi) ^ k * phi); [cbn [pow]; lra|]. apply bounded_plus; auto. apply bounded_product; auto; [apply pow_le; lra|].
    assert (V : equal n n (plus_matrix (minus_matrix Y unit_matrix) unit_matrix) Y) by (intros i j Hi Hj; unfold plus_matrix, minus_matrix; ring). apply (bounded_ext n _ _ _ V). apply bounded_le with ((1 + phi) ^ k - 1 + 1); [lra|]. apply bounded_plus; auto. apply bounded_unit.
  Qed.
  Lemma exp_power k : equal n n (power n E k) (series n X (exponent (INR k))).
  Proof.
    induction k as [|k IH].
    - cbn [power INR]. apply equal_sym. eapply equal_trans; [|apply (series_one n X)]. rewrite (series_ext n X (exponent 0) (fun k => if Nat.eqb k 0 then 1 else 0)); [apply equal_refl|].
      intros [|k]; unfold exponent; cbn [Nat.eqb]; [cbn; field|]. rewrite pow_i by lia. unfold Rdiv. ring.
    - cbn [power]. eapply equal_trans; [apply product_left, IH|]. rewrite S_INR. apply (exponent_product n X (/ 2) half_pos XB).
  Qed.
  (** Repeated multiplication. *)
  Lemma approximant_power k c : 0 <= c -> bounded n (series n X (exponent (INR k))) c -> bounded n (minus_matrix (power n P k) (series n X (exponent (INR k)))) (c * ((1 + pade_error) ^ k - 1)).
  Proof.
    intros C0 C. set (L := plus_matrix unit_matrix off).
    assert (Q : equal n n (product n (power n E k) (minus_matrix (power n L k) unit_matrix)) (minus_matrix (power n P k) (series n X (exponent (INR k))))).
    { rewrite p_minus_r. intros i j Hi Hj. unfold minus_matrix. rewrite product_unit_r, (exp_power k i j Hi Hj) by auto. f_equal.
      rewrite <- (power_of_product E L k factor_commutes i j Hi Hj). apply (power_ext n _ _ k (equal_sym _ _ _ _ approximant_product) i j Hi Hj). }
    apply (bounded_ext n _ _ _ Q). apply bounded_product; auto; [apply (bounded_ext n _ _ _ (equal_sym _ _ _ _ (exp_power k))); auto|]. apply near_one_power; [|apply off_bounded]. unfold pade_error. left. apply Rinv_0_lt_compat, pow_lt. lra.
  Qed.
End Small.
