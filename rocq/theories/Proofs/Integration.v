(** Composite rules as sums over panels, and how a rule exact for polynomials fares on smooth functions. *)
From Coq Require Import Reals ZArith List Arith Bool Lia Lra Psatz.
From Coquelicot Require Import Coquelicot.
From Verif Require Import Base.Scalar Base.RNum Base.Lists Base.Series Model.Errors Model.Summation Model.GaussTables Model.Integration Spec.Summation Spec.Integration Props.Summation.
Import ListNotations.
Local Open Scope R_scope.

(** ** Polynomials about another point *)
Lemma poly_shift p : forall (c : nat -> R) x0, exists d : nat -> R, forall x, bsum p (fun k => c k * x ^ k) = bsum p (fun k => d k * (x - x0) ^ k).
Proof.
  induction p as [|p IH]; intros c x0; [exists c; reflexivity|]. destruct (IH (fun k => c (S k)) x0) as (d & D).
  exists (fun k => match k with O => c O + (if Nat.eqb p 0 then 0 else x0 * d O) | S j => d j + (if Nat.ltb (S j) p then x0 * d (S j) else 0) end).
  intros x. rewrite !bsum_first. cbn [pow]. rewrite (bsum_ext p (fun i => c (S i) * (x * x ^ i)) (fun i => x * (c (S i) * x ^ i))) by (intros; ring). rewrite bsum_scal, D.
  set (y := x - x0). replace x with (y + x0) by (unfold y; ring). clearbody y. rewrite Rmult_plus_distr_r.
  rewrite (bsum_ext p (fun i => (d i + (if Nat.ltb (S i) p then x0 * d (S i) else 0)) * (y * y ^ i)) (fun i => y * (d i * y ^ i) + (if Nat.ltb (S i) p then x0 * d (S i) else 0) * y ^ S i)) by (intros; cbn [pow]; ring).
  rewrite bsum_plus, bsum_scal.
  assert (E : x0 * bsum p (fun k => d k * y ^ k) = (if Nat.eqb p 0 then 0 else x0 * d O) + bsum p (fun i => (if Nat.ltb (S i) p then x0 * d (S i) else 0) * y ^ S i)).
  { destruct p as [|p]; [cbn; ring|]. cbn [Nat.eqb]. rewrite bsum_first. cbn [bsum]. destruct (Nat.ltb_spec (S p) (S p)); [lia|].
    rewrite (bsum_ext p (fun i => (if Nat.ltb (S i) (S p) then x0 * d (S i) else 0) * y ^ S i) (fun i => x0 * (d (S i) * y ^ S i))); [rewrite bsum_scal; cbn [pow]; ring|].
    intros i Hi. destruct (Nat.ltb_spec (S i) (S p)); [ring|lia]. }
  rewrite E. ring.
Qed.
Lemma poly_integral p (c : nat -> R) x0 a b :
  is_RInt (fun x => bsum p (fun k => c k * (x - x0) ^ k)) a b (bsum p (fun k => c k * (b - x0) ^ S k / INR (S k)) - bsum p (fun k => c k * (a - x0) ^ S k / INR (S k))).
Proof.
  apply (is_RInt_derive (V := R_CompleteNormedModule) (fun x => bsum p (fun k => c k * (x - x0) ^ S k / INR (S k)))).
  - intros x _. induction p as [|p IH]; cbn [bsum]; [apply (is_derive_const (K := R_AbsRing) (V := R_NormedModule) 0)|].
    apply (is_derive_plus (fun x => bsum p (fun k => c k * (x - x0) ^ S k / INR (S k))) (fun x => c p * (x - x0) ^ S p / INR (S p))); [apply IH|].
    assert (INR (S p) <> 0) by (apply not_0_INR; lia).
    evar_last; [auto_derive; [exact I|reflexivity]|]. match goal with |- ?x = ?y => change (@eq R x y) end. cbn [Nat.pred]. rewrite ?Nat.sub_0_r. change (match p with O => 1 | S _ => INR p + 1 end) with (INR (S p)). set (N := INR (S p)) in *. clearbody N. unfold Rminus. field. auto.
  - intros x _. apply (ex_derive_continuous (V := R_NormedModule)). induction p as [|p IH]; cbn [bsum]; [auto_derive; exact I|].
    apply (ex_derive_plus (V := R_NormedModule) (fun x => bsum p (fun k => c k * (x - x0) ^ k)) (fun x => c p * (x - x0) ^ p)); [apply IH|auto_derive; exact I].
Qed.

(** ** One panel *)
Lemma bsum_abs_le n f g : (forall i, (i < n)%nat -> Rabs (f i) <= g i) -> Rabs (bsum n f) <= bsum n g.
Proof.
  induction n as [|n IH]; intros H; cbn [bsum]; [rewrite Rabs_R0; lra|]. eapply Rle_trans; [apply Rabs_triang|]. apply Rplus_le_compat; [apply IH; auto|apply H; lia].
Qed.
(** Weights [om] at [0 .. q] exact for polynomials of degree below [p] *)
Definition exact_weights (p q : nat) (om : nat -> R) : Prop :=
  (forall i, 0 <= om i) /\ (0 < p)%nat /\ forall k, (k < p)%nat -> bsum (S q) (fun i => om i * INR i ^ k) = INR q ^ S k / INR (S k).
Lemma panel_error p q om f x0 d (c : nat -> R) E : exact_weights p q om -> 0 <= d -> ex_RInt f x0 (x0 + INR q * d) ->
  (forall x, x0 <= x <= x0 + INR q * d -> Rabs (f x - bsum p (fun k => c k * (x - x0) ^ k)) <= E) ->
  Rabs (d * bsum (S q) (fun i => om i * f (x0 + INR i * d)) - RInt f x0 (x0 + INR q * d)) <= 2 * (INR q * d) * E.
Proof.
  intros (Wp & Hp & W) Hd Hf He. set (P := fun x => bsum p (fun k => c k * (x - x0) ^ k)). fold P in He. pose proof (pos_INR q) as Pq.
  pose proof (poly_integral p c x0 x0 (x0 + INR q * d)) as IP. fold P in IP. set (vP := bsum p _ - bsum p _) in IP.
  assert (EP : d * bsum (S q) (fun i => om i * P (x0 + INR i * d)) = vP).
  { unfold vP, P. rewrite (bsum_ext p (fun k => c k * (x0 - x0) ^ S k / INR (S k)) (fun _ => 0)) by (intros k _; replace (x0 - x0) with 0 by ring; cbn [pow]; unfold Rdiv; ring). rewrite bsum_0, Rminus_0_r.
    rewrite <- bsum_scal. rewrite (bsum_ext (S q) _ (fun i => bsum p (fun k => c k * d ^ S k * (om i * INR i ^ k)))).
    - rewrite bsum_swap. apply bsum_ext. intros k Hk. rewrite bsum_scal, W by auto. replace (x0 + INR q * d - x0) with (INR q * d) by ring. rewrite Rpow_mult_distr. field. apply not_0_INR. lia.
    - intros i _. rewrite <- bsum_scal, <- bsum_scal. apply bsum_ext. intros k _. replace (x0 + INR i * d - x0) with (INR i * d) by ring. rewrite Rpow_mult_distr. cbn [pow]. ring. }
  assert (L : x0 <= x0 + INR q * d) by nra.
  assert (ID : Rabs (RInt f x0 (x0 + INR q * d) - vP) <= INR q * d * E).
  { pose proof (RInt_correct _ _ _ Hf) as If. pose proof (is_RInt_minus (V := R_NormedModule) _ _ _ _ _ _ If IP) as Im.
    pose proof (norm_RInt_le_const (V := R_NormedModule) _ x0 (x0 + INR q * d) _ E L (fun x Hx => He x Hx) Im) as N. cbn in N. unfold minus, plus, opp in N. cbn in N. replace (x0 + INR q * d - x0) with (INR q * d) in N by ring. exact N. }
  assert (S1 : Rabs (d * bsum (S q) (fun i => om i * f (x0 + INR i * d)) - vP) <= INR q * d * E).
  { rewrite <- EP, <- Rmult_minus_distr_l, <- bsum_minus, Rabs_mult, (Rabs_pos_eq d) by auto. replace (INR q * d * E) with (d * (INR q * E)) by ring. apply Rmult_le_compat_l; [auto|].
    assert (Wq : bsum (S q) om = INR q). { pose proof (W O Hp) as W0. cbn [pow INR] in W0. rewrite (bsum_ext (S q) _ om) in W0 by (intros; ring). rewrite W0. field. }
    rewrite <- Wq, Rmult_comm, <- bsum_scal. apply bsum_abs_le. intros i Hi. rewrite <- Rmult_minus_distr_l, Rabs_mult, (Rabs_pos_eq (om i)) by auto. rewrite (Rmult_comm E). apply Rmult_le_compat_l; auto. apply He.
    assert (0 <= INR i <= INR q) by (split; [apply pos_INR|apply le_INR; lia]). nra. }
  replace (_ - _) with ((d * bsum (S q) (fun i => om i * f (x0 + INR i * d)) - vP) - (RInt f x0 (x0 + INR q * d) - vP)) by ring. unfold Rminus at 1. eapply Rle_trans; [apply Rabs_triang|]. rewrite Rabs_Ropp. lra.
Qed.
(** ** Many panels *)
Lemma panels_error p q om f a d m E : exact_weights p q om -> 0 <= d -> (forall x, a <= x <= a + INR (m * q) * d -> continuous f x) ->
  (forall x0, a <= x0 -> x0 + INR q * d <= a + INR (m * q) * d -> exists c : nat -> R, forall x, x0 <= x <= x0 + INR q * d -> Rabs (f x - bsum p (fun k => c k * (x - x0) ^ k)) <= E) ->
  Rabs (bsum m (fun j => d * bsum (S q) (fun i => om i * f (a + INR (j * q + i) * d))) - RInt f a (a + INR (m * q) * d)) <= 2 * (INR (m * q) * d) * E.
Proof.
  intros W Hd. induction m as [|m IH]; intros Hc He; [cbn [bsum Nat.mul INR]; rewrite Rmult_0_l, Rplus_0_r, RInt_point; cbn; unfold zero; cbn; rewrite Rminus_0_r, Rabs_R0; lra|].
  pose proof (pos_INR q). pose proof (pos_INR (m * q)). assert (M : INR (S m * q) = INR (m * q) + INR q) by (rewrite <- plus_INR; f_equal; lia). pose proof (Rmult_le_pos _ _ H0 Hd). pose proof (Rmult_le_pos _ _ H Hd).
  assert (Ex : forall u v, a <= u -> u <= v -> v <= a + INR (S m * q) * d -> ex_RInt f u v). { intros u v U V X. apply (ex_RInt_continuous (V := R_CompleteNormedModule)). intros x. rewrite Rmin_left, Rmax_right by lra. intros Hx. apply Hc. lra. }
  match goal with |- context [bsum (S m) ?F] => change (bsum (S m) F) with (bsum m F + F m) end. cbv beta. set (x0 := a + INR (m * q) * d).
  assert (C : RInt f a (a + INR (S m * q) * d) = RInt f a x0 + RInt f x0 (x0 + INR q * d)).
  { symmetry. replace (a + INR (S m * q) * d) with (x0 + INR q * d) by (unfold x0; rewrite M; ring). apply (RInt_Chasles (V := R_CompleteNormedModule)); apply Ex; unfold x0; rewrite ?M; lra. }
  rewrite C.
  assert (I1 : Rabs (bsum m (fun j => d * bsum (S q) (fun i => om i * f (a + INR (j * q + i) * d))) - RInt f a x0) <= 2 * (INR (m * q) * d) * E).
  { apply IH; [intros x Hx; apply Hc; rewrite M; lra|]. intros x1 X1 X2. apply He; [auto|]. rewrite M. lra. }
  destruct (He x0 ltac:(unfold x0; lra) ltac:(unfold x0; rewrite M; lra)) as (c & Hcx).
  pose proof (panel_error p q om f x0 d c E W Hd ltac:(apply Ex; unfold x0; rewrite ?M; lra) Hcx) as I2.
  replace (bsum (S q) (fun i => om i * f (a + INR (m * q + i) * d))) with (bsum (S q) (fun i => om i * f (x0 + INR i * d))); [|apply bsum_ext; intros i _; f_equal; f_equal; unfold x0; rewrite plus_INR; ring].
  match goal with |- Rabs (?u + ?v - (?w + ?z)) <= _ => replace (u + v - (w + z)) with ((u - w) + (v - z)) by ring end. eapply Rle_trans; [apply Rabs_triang|]. rewrite M. lra.
Qed.

(** ** The three rules *)
Definition rule_weight (m : IterativeMethod) (i : nat) : R :=
  match m with
  | Booles => nth i [14/45; 64/45; 24/45; 64/45; 14/45] 0
  | Simpsons => nth i [3/8; 9/8; 9/8; 3/8] 0
  | Trapezoidal => nth i [1/2; 1/2] 0
  end.
Lemma rule_exact m : exact_weights (rule_order m) (panel_size m) (rule_weight m).
Proof.
  split; [|split; [destruct m; cbn; lia|]].
  - intros i. destruct m; cbn [rule_weight]; do 5 (destruct i as [|i]; [cbn; lra|]); destruct i; cbn; lra.
  - intros k Hk. destruct m; cbn [rule_order panel_size] in *; do 6 (destruct k as [|k]; [first [lia|cbn [bsum rule_weight nth INR pow]; field]|]); lia.
Qed.
Section Rules.
  Variable h : R -> R.
  Let g (x : R) : sampled R := Ok (h x).
  Lemma walk_ok (next : nat -> R) delta : forall count iter point multiplier,
    walk count iter point delta multiplier next g =
    Ok (map (fun k => (match k with O => multiplier | S j => next (iter + j)%nat end) * h (point + INR (S k) * delta)) (seq 0 count)).
  Proof.
    induction count as [|count IH]; intros iter point multiplier; cbn [walk seq map]; [reflexivity|]. unfold g at 1. rewrite IH. rnum. f_equal. f_equal; [f_equal; f_equal; cbn; ring|].
    rewrite <- seq_shift, map_map. apply map_ext. intros k. rewrite (S_INR (S k)). replace (point + delta + INR (S k) * delta) with (point + (INR (S k) + 1) * delta) by ring. f_equal. destruct k as [|k]; [rewrite Nat.add_0_r; reflexivity|]. f_equal. lia.
  Qed.
  Lemma exact_sum_app l l' : exact_sum (l ++ l') = exact_sum l + exact_sum l'.
  Proof. induction l as [|x l IH]; cbn; [ring|rewrite IH; ring]. Qed.
  Lemma exact_sum_seq f s n : exact_sum (map f (seq s n)) = bsum n (fun k => f (s + k)%nat).
  Proof. revert s. induction n as [|n IH]; intros s; [reflexivity|]. cbn [seq map exact_sum]. rewrite IH, bsum_first, Nat.add_0_r. f_equal. apply bsum_ext. intros k _. f_equal. lia. Qed.
  Lemma total_exact s terms : total s terms = exact_sum terms.
  Proof. destruct s; [apply C06_pairwise_exact|apply C06_kahan_exact]. Qed.
  Lemma gather_ok n a b delta ends multiplier next s (k : R -> R) :
    finish (gather n a b delta ends multiplier next g) (fun terms => k (total s terms)) =
    Ok (k (ends (h a) + bsum (n - 1) (fun i => (match i with O => multiplier | S j => next j end) * h (a + INR (S i) * delta)) + ends (h b))).
  Proof.
    unfold gather. unfold g at 1. rewrite walk_ok. unfold g at 1. cbn [finish]. do 2 f_equal. rewrite total_exact. cbn [exact_sum]. rewrite exact_sum_app, exact_sum_seq. cbn [exact_sum].
    rewrite (bsum_ext (n - 1) _ (fun i => (match i with O => multiplier | S j => next j end) * h (a + INR (S i) * delta))); [ring|]. intros i _. cbn [Nat.add]. destruct i; reflexivity.
  Qed.
  Lemma boole_panels (u : nat -> R) m : (0 < m)%nat ->
    7 * u O + bsum (4 * m - 1) (fun i => (match i with O => 32 | S j => booles_next j end) * u (S i)) + 7 * u (4 * m)%nat =
    bsum m (fun j => 7 * u (j * 4)%nat + 32 * u (j * 4 + 1)%nat + 12 * u (j * 4 + 2)%nat + 32 * u (j * 4 + 3)%nat + 7 * u (j * 4 + 4)%nat).
  Proof.
    destruct m as [|m]; [lia|]. intros _. induction m as [|m IH].
    - cbn. ring.
    - change (bsum (S (S m)) ?F) with (bsum (S m) F + F (S m)). rewrite <- IH. replace (4 * S (S m) - 1)%nat with (S (S (S (S (4 * S m - 1))))) by lia. cbn [bsum].
      replace (4 * S m - 1)%nat with (S (4 * m + 2)) by lia. unfold booles_next. rnum.
      assert (D : forall i q r d, (i = d * q + r -> r < d -> i mod d = r)%nat) by (intros i q r d -> L; rewrite Nat.add_comm, Nat.mul_comm, Nat.mod_add by lia; apply Nat.mod_small; lia).
      rewrite (D (4 * m + 2 + 2) (2 * m + 2) 0 2)%nat by lia. rewrite (D (4 * m + 2 + 2) (m + 1) 0 4)%nat by lia.
      rewrite (D (S (4 * m + 2) + 2) (2 * m + 2) 1 2)%nat by lia. rewrite (D (S (S (4 * m + 2)) + 2) (2 * m + 3) 0 2)%nat by lia. rewrite (D (S (S (4 * m + 2)) + 2) (m + 1) 2 4)%nat by lia.
      rewrite (D (S (S (S (4 * m + 2))) + 2) (2 * m + 3) 1 2)%nat by lia. cbn [Nat.eqb negb].
      replace (S (S (4 * m + 2))) with (4 * S m)%nat by lia. replace (S (4 * S m)) with (S m * 4 + 1)%nat by lia. replace (S (S m * 4 + 1)) with (S m * 4 + 2)%nat by lia. replace (S (S m * 4 + 2)) with (S m * 4 + 3)%nat by lia. replace (4 * S (S m))%nat with (S m * 4 + 4)%nat by lia. replace (4 * S m)%nat with (S m * 4)%nat by lia. ring.
  Qed.
  Lemma simpson_panels (u : nat -> R) m : (0 < m)%nat ->
    u O + bsum (3 * m - 1) (fun i => (match i with O => 3 | S j => simpsons_next j end) * u (S i)) + u (3 * m)%nat =
    bsum m (fun j => u (j * 3)%nat + 3 * u (j * 3 + 1)%nat + 3 * u (j * 3 + 2)%nat + u (j * 3 + 3)%nat).
  Proof.
    destruct m as [|m]; [lia|]. intros _. induction m as [|m IH].
    - cbn. ring.
    - change (bsum (S (S m)) ?F) with (bsum (S m) F + F (S m)). rewrite <- IH. replace (3 * S (S m) - 1)%nat with (S (S (S (3 * S m - 1)))) by lia. cbn [bsum].
      replace (3 * S m - 1)%nat with (S (3 * m + 1)) by lia. unfold simpsons_next. rnum.
      assert (D : forall i q r d, (i = d * q + r -> r < d -> i mod d = r)%nat) by (intros i q r d -> L; rewrite Nat.add_comm, Nat.mul_comm, Nat.mod_add by lia; apply Nat.mod_small; lia).
      rewrite (D (3 * m + 1 + 2) (m + 1) 0 3)%nat by lia. rewrite (D (S (3 * m + 1) + 2) (m + 1) 1 3)%nat by lia. rewrite (D (S (S (3 * m + 1)) + 2) (m + 1) 2 3)%nat by lia. cbn [Nat.eqb negb].
      replace (S (S (3 * m + 1))) with (3 * S m)%nat by lia. replace (S (3 * S m)) with (S m * 3 + 1)%nat by lia. replace (S (S m * 3 + 1)) with (S m * 3 + 2)%nat by lia. replace (3 * S (S m))%nat with (S m * 3 + 3)%nat by lia. replace (3 * S m)%nat with (S m * 3)%nat by lia. ring.
  Qed.
  Lemma trapezoid_panels (u : nat -> R) m : (0 < m)%nat ->
    u O + bsum (m - 1) (fun i => (match i with O => 2 | S j => 2 end) * u (S i)) + u m = bsum m (fun j => u j + u (j + 1)%nat).
  Proof.
    destruct m as [|m]; [lia|]. intros _. induction m as [|m IH].
    - cbn. ring.
    - change (bsum (S (S m)) ?F) with (bsum (S m) F + F (S m)). rewrite <- IH. replace (S (S m) - 1)%nat with (S (S m - 1)) by lia. cbn [bsum]. replace (S m - 1)%nat with m by lia. rewrite Nat.add_1_r. destruct m; ring.
  Qed.
  (** A rule whose count fills whole panels is the sum of its panels. *)
  Lemma rule_panels c m a b : total_iterations c = (m * panel_size (integration_method c))%nat -> (0 < m)%nat ->
    let d := (b - a) / INR (total_iterations c) in let q := panel_size (integration_method c) in
    integrate_rule c a b g = Ok (bsum m (fun j => d * bsum (S q) (fun i => rule_weight (integration_method c) i * h (a + INR (j * q + i) * d)))).
  Proof.
    intros En Hm d q. assert (Q : (0 < q)%nat) by (unfold q; destruct (integration_method c); cbn; lia).
    assert (Dn : INR (total_iterations c) <> 0) by (apply not_0_INR; rewrite En; fold q; nia). assert (Sd : step_size (total_iterations c) a b = d) by (unfold step_size, d; rnum; rewrite <- INR_IZR_INZ; reflexivity).
    assert (Hb : b = a + INR (m * q) * d) by (unfold d, q; rewrite En in *; field; exact Dn).
    set (u := fun i => h (a + INR i * d)). assert (Ua : h a = u O) by (unfold u; f_equal; cbn; ring). assert (Ub : h b = u (m * q)%nat) by (unfold u; f_equal; exact Hb).
    unfold integrate_rule. subst q. destruct (integration_method c); cbn [panel_size] in *; unfold booles, simpsons, trapezoidal; rewrite Sd.
    - rewrite (gather_ok _ a b d (fun v => mul (of_Z 7) v) (of_Z 32) booles_next (summation c) (fun t => div (mul (mul two d) t) (of_Z 45))). rewrite Ua, Ub, En. replace (m * 4)%nat with (4 * m)%nat by lia. rnum. pose proof (boole_panels u m Hm) as B. subst u. cbv beta in *. rewrite B. f_equal. rewrite <- bsum_scal.
      unfold Rdiv. rewrite Rmult_comm, <- bsum_scal. apply bsum_ext. intros j _. cbn [bsum rule_weight nth]. rewrite Nat.add_0_r. field.
    - rewrite (gather_ok _ a b d (fun v => v) (of_Z 3) simpsons_next (summation c) (fun t => div (mul (mul (of_Z 3) d) t) (of_Z 8))). rewrite Ua, Ub, En. replace (m * 3)%nat with (3 * m)%nat by lia. rnum. pose proof (simpson_panels u m Hm) as B. subst u. cbv beta in *. rewrite B. f_equal. rewrite <- bsum_scal.
      unfold Rdiv. rewrite Rmult_comm, <- bsum_scal. apply bsum_ext. intros j _. cbn [bsum rule_weight nth]. rewrite Nat.add_0_r. field.
    - rewrite (gather_ok _ a b d (fun v => v) two (fun _ => two) (summation c) (fun t => mul (mul half d) t)). rewrite Ua, Ub, En, Nat.mul_1_r. rnum. pose proof (trapezoid_panels u m Hm) as B. subst u. cbv beta in *. rewrite B. f_equal. rewrite <- bsum_scal.
      apply bsum_ext. intros j _. cbn [bsum rule_weight nth]. rewrite Nat.add_0_r, Nat.mul_1_r. field.
  Qed.
End Rules.

(** ** Taylor's formula on a panel *)
Lemma sum_bsum f n : sum_f_R0 f n = bsum (S n) f.
Proof. induction n as [|n IH]; [cbn; ring|]. cbn [sum_f_R0]. rewrite IH. reflexivity. Qed.
Lemma taylor_panel p f a b M x0 H : (0 < p)%nat -> smooth_on p f a b M -> a <= x0 -> 0 <= H -> x0 + H <= b ->
  exists c : nat -> R, forall x, x0 <= x <= x0 + H -> Rabs (f x - bsum p (fun k => c k * (x - x0) ^ k)) <= M * H ^ p / INR (fact p).
Proof.
  intros Hp Sm Ha HH Hb. destruct p as [|n]; [lia|]. exists (fun k => Derive_n f k x0 / INR (fact k)). intros x Hx.
  assert (M0 : 0 <= M) by (eapply Rle_trans; [apply Rabs_pos|apply (Sm x); lra]).
  assert (F0 : forall k, 0 < INR (fact k)) by (intros; apply lt_0_INR, lt_O_fact).
  assert (Nonneg : 0 <= M * H ^ S n / INR (fact (S n))) by (apply Rmult_le_pos; [apply Rmult_le_pos; [auto|apply pow_le; auto]|apply Rlt_le, Rinv_0_lt_compat, F0]).
  destruct (Req_dec x x0) as [->|Ne].
  - rewrite bsum_first. rewrite (bsum_ext n _ (fun _ => 0)) by (intros i _; replace (x0 - x0) with 0 by ring; cbn [pow]; ring). rewrite bsum_0. cbn [Derive_n fact INR pow]. replace (f x0 - (f x0 / 1 * 1 + 0)) with 0 by field. rewrite Rabs_R0. exact Nonneg.
  - destruct (Taylor_Lagrange f n x0 x ltac:(lra)) as (z & Hz & E); [intros t Ht k Hk; apply (Sm t); [lra|auto]|].
    rewrite E, sum_bsum. rewrite (bsum_ext (S n) (fun k => Derive_n f k x0 / INR (fact k) * (x - x0) ^ k) (fun k => (x - x0) ^ k / INR (fact k) * Derive_n f k x0)) by (intros k _; field; apply Rgt_not_eq, F0).
    match goal with |- Rabs (?s + ?r - ?s) <= _ => replace (s + r - s) with r by ring end. rewrite Rabs_mult. unfold Rdiv at 1. rewrite Rabs_mult, (Rabs_pos_eq (/ _)) by (apply Rlt_le, Rinv_0_lt_compat, F0).
    rewrite Rabs_pos_eq by (apply pow_le; lra). replace (M * H ^ S n / INR (fact (S n))) with (H ^ S n * / INR (fact (S n)) * M) by (unfold Rdiv; ring).
    apply Rmult_le_compat; [apply Rmult_le_pos; [apply pow_le; lra|apply Rlt_le, Rinv_0_lt_compat, F0]|apply Rabs_pos| |apply (Sm z); lra].
    apply Rmult_le_compat_r; [apply Rlt_le, Rinv_0_lt_compat, F0|]. apply pow_incr. lra.
Qed.
