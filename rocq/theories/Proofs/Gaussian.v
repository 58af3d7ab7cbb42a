(** The moments of [exp (-x)] over the half line and of [exp (-x^2)] over the line. *)
From Coq Require Import Reals List Arith Lia Lra Psatz.
From Coquelicot Require Import Coquelicot.
From Verif Require Import Spec.Integration.
Local Open Scope R_scope.

Lemma exp_beats_power k x : 0 < x -> x ^ k * exp (- x) <= INR (fact (S k)) / x.
Proof.
  intros H. pose proof (exp_ge_taylor x (S k) ltac:(lra)) as T. assert (P : x ^ S k / INR (fact (S k)) <= exp x).
  { eapply Rle_trans; [|exact T]. rewrite tech5. assert (0 <= sum_f_R0 (fun k0 => x ^ k0 / INR (fact k0)) k); [|lra]. apply cond_pos_sum. intros n. apply Rmult_le_pos; [apply pow_le; lra|apply Rlt_le, Rinv_0_lt_compat, INR_fact_lt_0]. }
  pose proof (INR_fact_lt_0 (S k)) as F. pose proof (exp_pos x). rewrite exp_Ropp. apply Rmult_le_reg_r with (x * exp x); [nra|].
  replace (x ^ k * / exp x * (x * exp x)) with (x ^ S k) by (cbn [pow]; field; lra). replace (INR (fact (S k)) / x * (x * exp x)) with (INR (fact (S k)) * exp x) by (field; lra).
  apply Rmult_le_reg_r with (/ INR (fact (S k))); [apply Rinv_0_lt_compat; lra|]. replace (INR (fact (S k)) * exp x * / INR (fact (S k))) with (exp x) by (field; lra). exact P.
Qed.
Lemma vanish (f : R -> R) C : (forall x, 1 <= x -> 0 <= f x <= C / x) -> is_lim f p_infty 0.
Proof.
  intros H. apply (is_lim_le_le_loc (fun _ => 0) (fun x => C * / x)).
  - exists 1. intros x Hx. apply H. lra.
  - apply is_lim_const.
  - replace (Finite 0) with (Rbar_mult C 0) by (cbn; f_equal; ring). apply (is_lim_scal_l (fun x => / x) C p_infty 0). apply (is_lim_Rinv_0_p_infty) || (replace (Finite 0) with (Rbar_inv p_infty) by reflexivity; apply is_lim_inv; [apply is_lim_id|discriminate]).
Qed.
Lemma power_exp_lim k : is_lim (fun b => b ^ k * exp (- b)) p_infty 0.
Proof. apply (vanish _ (INR (fact (S k)))). intros x Hx. split; [apply Rmult_le_pos; [apply pow_le; lra|left; apply exp_pos]|apply exp_beats_power; lra]. Qed.
Lemma power_gauss_lim k : is_lim (fun b => b ^ k * exp (- b ^ 2)) p_infty 0.
Proof.
  apply (vanish _ (INR (fact (S k)))). intros x Hx. split; [apply Rmult_le_pos; [apply pow_le; lra|left; apply exp_pos]|].
  eapply Rle_trans; [|apply exp_beats_power; lra]. apply Rmult_le_compat_l; [apply pow_le; lra|]. destruct (Req_dec x 1) as [->|]; [right; f_equal; ring|left; apply exp_increasing; cbn; nra].
Qed.

(** ** The half line *)
Lemma continuous_pe k x : continuous (fun x => x ^ k * exp (- x)) x.
Proof. apply (ex_derive_continuous (V := R_NormedModule)). auto_derive. exact I. Qed.
Lemma continuous_pg k x : continuous (fun x => x ^ k * exp (- x ^ 2)) x.
Proof. apply (ex_derive_continuous (V := R_NormedModule)). auto_derive. exact I. Qed.
Lemma ex_cont (f : R -> R) a b : (forall x, continuous f x) -> ex_RInt f a b.
Proof. intros H. apply (ex_RInt_continuous (V := R_CompleteNormedModule)). intros; apply H. Qed.
Lemma RInt_two (f g : R -> R) u v a b : (forall x, continuous f x) -> (forall x, continuous g x) -> RInt (fun x => u * f x - v * g x) a b = u * RInt f a b - v * RInt g a b.
Proof.
  intros F Gc. transitivity (minus (scal u (RInt f a b)) (scal v (RInt g a b))); [|reflexivity].
  rewrite <- !(RInt_scal (V := R_CompleteNormedModule)) by (apply ex_cont; assumption). apply (RInt_minus (V := R_CompleteNormedModule) (fun x => scal u (f x)) (fun x => scal v (g x))); apply ex_cont; intros; apply (continuous_scal_r (V := R_NormedModule)); auto.
Qed.
Lemma parts_e k b : RInt (fun x => x ^ S k * exp (- x)) 0 b = INR (S k) * RInt (fun x => x ^ k * exp (- x)) 0 b - b ^ S k * exp (- b).
Proof.
  assert (E : is_RInt (fun x => INR (S k) * (x ^ k * exp (- x)) - x ^ S k * exp (- x)) 0 b (b ^ S k * exp (- b) - 0)).
  { replace (b ^ S k * exp (- b) - 0) with (minus (b ^ S k * exp (- b)) (0 ^ S k * exp (- 0))) by (unfold minus, plus, opp; cbn; ring).
    apply (is_RInt_derive (fun x => x ^ S k * exp (- x))); intros x _.
    - evar_last; [auto_derive; [exact I|reflexivity]|]. rewrite S_INR. cbn [pred pow]. match goal with |- ?x = ?y => change (@eq R x y) end. change (match k with O => 1 | S _ => INR k + 1 end) with (INR (S k)). rewrite S_INR. ring.
    - apply (continuous_minus (V := R_NormedModule)); [apply (continuous_scal_r (V := R_NormedModule)), continuous_pe|apply continuous_pe]. }
  apply (is_RInt_unique (V := R_CompleteNormedModule)) in E. pose proof (RInt_two (fun x => x ^ k * exp (- x)) (fun x => x ^ S k * exp (- x)) (INR (S k)) 1 0 b (continuous_pe k) (continuous_pe (S k))) as L.
  rewrite (RInt_ext _ (fun x => INR (S k) * (x ^ k * exp (- x)) - x ^ S k * exp (- x))) in L by (intros; match goal with |- ?x = ?y => change (@eq R x y) end; ring). rewrite E in L. lra.
Qed.
Lemma laguerre_moment k : integral_upwards (fun x => x ^ k * exp (- x)) 0 (INR (fact k)).
Proof.
  split; [intros; apply ex_cont, continuous_pe|]. induction k as [|k IH].
  - apply (is_lim_ext (fun b => 1 - b ^ 0 * exp (- b))).
    + intros b. symmetry. apply is_RInt_unique. replace (1 - b ^ 0 * exp (- b)) with (minus (- exp (- b)) (- exp (- 0))) by (unfold minus, plus, opp; cbn; rewrite Ropp_0, exp_0; ring).
      apply (is_RInt_derive (fun x => - exp (- x))); intros x _; [auto_derive; [exact I|cbn; ring]|apply (continuous_pe 0)].
    + replace (Finite (INR (fact 0))) with (Finite (1 - 0)) by (cbn; f_equal; ring). apply (is_lim_minus' (fun _ => 1)); [apply is_lim_const|apply power_exp_lim].
  - apply (is_lim_ext (fun b => INR (S k) * RInt (fun x => x ^ k * exp (- x)) 0 b - b ^ S k * exp (- b))); [intros b; symmetry; apply parts_e|].
    replace (INR (fact (S k))) with (INR (S k) * INR (fact k) - 0) by (rewrite fact_simpl, mult_INR; ring).
    apply is_lim_minus'; [apply (is_lim_scal_l (fun b => RInt (fun x => x ^ k * exp (- x)) 0 b) (INR (S k)) p_infty (INR (fact k))), IH|apply power_exp_lim].
Qed.

(** ** The line *)
Definition G (x : R) : R := RInt (fun t => exp (- t ^ 2)) 0 x.
Definition H (x : R) : R := RInt (fun t => exp (- x ^ 2 * (1 + t ^ 2)) / (1 + t ^ 2)) 0 1.
Lemma sq1 t : 0 < 1 + t ^ 2. Proof. nra. Qed.
Lemma cont_g x : continuous (fun t => exp (- t ^ 2)) x.
Proof. apply (ex_derive_continuous (V := R_NormedModule)). auto_derive. exact I. Qed.
Lemma G_derive x : is_derive G x (exp (- x ^ 2)).
Proof. apply (is_derive_RInt (fun t => exp (- t ^ 2)) G 0 x); [exists (mkposreal 1 ltac:(lra)); intros y _; apply (RInt_correct (V := R_CompleteNormedModule)), ex_cont, cont_g|apply cont_g]. Qed.
Lemma G_scaled x : RInt (fun t => - 2 * x * exp (- x ^ 2 * (1 + t ^ 2))) 0 1 = - 2 * exp (- x ^ 2) * G x.
Proof.
  transitivity (RInt (fun t => scal (- 2 * exp (- x ^ 2)) (scal x (exp (- (x * t + 0) ^ 2)))) 0 1).
  - apply RInt_ext. intros t _. unfold scal; cbn; unfold mult; cbn. replace (- (x * (x * 1)) * (1 + t * (t * 1))) with (- (x * (x * 1)) + - ((x * t + 0) * ((x * t + 0) * 1))) by ring. rewrite exp_plus. ring.
  - assert (C : forall z, continuous (fun t => scal x (exp (- (x * t + 0) ^ 2))) z) by (intros z; apply (ex_derive_continuous (V := R_NormedModule)); unfold scal; cbn; unfold mult; cbn; auto_derive; exact I).
    rewrite (RInt_scal (V := R_CompleteNormedModule) (fun t => scal x (exp (- (x * t + 0) ^ 2)))) by (apply ex_cont, C).
    pose proof (RInt_comp_lin (V := R_CompleteNormedModule) (fun t => exp (- t ^ 2)) x 0 0 1 ltac:(apply ex_cont, cont_g)) as L. cbv beta in L. unfold G. replace (x * 0 + 0) with 0 in L by ring. replace (x * 1 + 0) with x in L by ring.
    change (- 2 * exp (- x ^ 2) * RInt (fun t => scal x (exp (- (x * t + 0) ^ 2))) 0 1 = - 2 * exp (- x ^ 2) * RInt (fun t => exp (- t ^ 2)) 0 x). f_equal. exact L.
Qed.
Lemma H_derive x : is_derive H x (- 2 * exp (- x ^ 2) * G x).
Proof.
  assert (D : forall u t, is_derive (fun u => exp (- u ^ 2 * (1 + t ^ 2)) / (1 + t ^ 2)) u (- 2 * u * exp (- u ^ 2 * (1 + t ^ 2)))) by (intros u t; pose proof (sq1 t); auto_derive; [nra|]; cbn; field; nra).
  rewrite <- G_scaled. evar_last.
  - apply (is_derive_RInt_param (fun u t => exp (- u ^ 2 * (1 + t ^ 2)) / (1 + t ^ 2)) 0 1 x).
    + exists (mkposreal 1 ltac:(lra)). intros u _ t _. eexists. apply D.
    + intros t _. apply (continuity_2d_pt_ext (fun u v => (- 2 * u) * exp ((- 1 * (u * u)) * (1 + v * v)))).
      * intros u v. symmetry. etransitivity; [apply is_derive_unique, D|]. f_equal. f_equal. ring.
      * apply continuity_2d_pt_mult; [apply continuity_2d_pt_mult; [apply continuity_2d_pt_const|apply continuity_2d_pt_id1]|].
        apply (continuity_1d_2d_pt_comp exp); [apply derivable_continuous_pt, derivable_pt_exp|].
        apply continuity_2d_pt_mult; [apply continuity_2d_pt_mult; [apply continuity_2d_pt_const|apply continuity_2d_pt_mult; apply continuity_2d_pt_id1]|].
        apply continuity_2d_pt_plus; [apply continuity_2d_pt_const|apply continuity_2d_pt_mult; apply continuity_2d_pt_id2].
    + exists (mkposreal 1 ltac:(lra)). intros u _. apply ex_cont. intros t. apply (ex_derive_continuous (V := R_NormedModule)). auto_derive. nra.
  - apply RInt_ext. intros t _. apply is_derive_unique, D.
Qed.
Lemma H0 : H 0 = PI / 4.
Proof.
  unfold H. apply is_RInt_unique. replace (PI / 4) with (minus (atan 1) (atan 0)) by (unfold minus, plus, opp; cbn; rewrite atan_1, atan_0; ring).
  apply (is_RInt_derive atan); intros t _; pose proof (sq1 t).
  - evar_last; [apply is_derive_atan|]. unfold Rsqr. match goal with |- ?x = ?y => change (@eq R x y) end. replace (- 0 ^ 2 * (1 + t ^ 2)) with 0 by ring. rewrite exp_0. field. nra.
  - apply (ex_derive_continuous (V := R_NormedModule)). auto_derive. nra.
Qed.
Lemma H_bounds x : 0 <= H x <= exp (- x ^ 2).
Proof.
  assert (E : ex_RInt (fun t => exp (- x ^ 2 * (1 + t ^ 2)) / (1 + t ^ 2)) 0 1) by (apply ex_cont; intros t; apply (ex_derive_continuous (V := R_NormedModule)); auto_derive; nra).
  unfold H. split.
  - apply RInt_ge_0; [lra|exact E|]. intros t _. pose proof (sq1 t). apply Rmult_le_pos; [left; apply exp_pos|left; apply Rinv_0_lt_compat; lra].
  - replace (exp (- x ^ 2)) with (RInt (fun _ => exp (- x ^ 2)) 0 1) by (rewrite RInt_const; unfold scal; cbn; unfold mult; cbn; ring).
    apply RInt_le; [lra|exact E|apply ex_RInt_const|]. intros t _. pose proof (sq1 t). pose proof (exp_pos (- x ^ 2)).
    apply Rle_trans with (exp (- x ^ 2) / (1 + t ^ 2)).
    + apply Rmult_le_compat_r; [left; apply Rinv_0_lt_compat; lra|]. destruct (Req_dec (x * t) 0) as [Z|Z]; [right; f_equal; assert (x * t * (x * t) = 0) by (rewrite Z; ring); nra|left; apply exp_increasing]. assert (0 < (x * t) * (x * t)) by nra. nra.
    + apply Rmult_le_reg_r with (1 + t ^ 2); [lra|]. unfold Rdiv. rewrite Rmult_assoc, Rinv_l by lra. nra.
Qed.
Lemma GH x : G x * G x + H x = PI / 4.
Proof.
  set (K := fun x => G x * G x + H x). assert (D : forall x, is_derive K x 0).
  { intros y. unfold K. evar_last; [apply (is_derive_plus (V := R_NormedModule)); [apply (is_derive_mult (K := R_AbsRing)); [apply G_derive|apply G_derive|intros; apply Rmult_comm]|apply H_derive]|]. unfold plus, mult; cbn. ring. }
  change (K x = PI / 4). replace (PI / 4) with (K 0) by (unfold K; rewrite H0; unfold G; rewrite RInt_point; unfold zero; cbn; ring).
  destruct (MVT_gen K 0 x (fun _ => 0)) as (c & _ & E); [intros; apply D| |lra]. intros y _. apply continuity_pt_filterlim. apply (ex_derive_continuous (V := R_NormedModule)). exists 0. apply D.
Qed.
Lemma G_nonneg x : 0 <= x -> 0 <= G x.
Proof. intros Hx. apply RInt_ge_0; [lra|apply ex_cont, cont_g|]. intros; left; apply exp_pos. Qed.
Lemma G_lim : is_lim G p_infty (sqrt PI / 2).
Proof.
  assert (E : sqrt PI / 2 = sqrt (PI / 4 - 0)). { rewrite Rminus_0_r. rewrite sqrt_div_alt by lra. f_equal. replace 4 with (2 * 2) by ring. rewrite sqrt_square; lra. }
  rewrite E. apply (is_lim_ext_loc (fun x => sqrt (PI / 4 - H x))).
  - exists 0. intros x Hx. rewrite <- (GH x). replace (G x * G x + H x - H x) with (G x * G x) by ring. apply sqrt_square, G_nonneg. lra.
  - apply (filterlim_comp _ _ _ (fun x => PI / 4 - H x) sqrt (Rbar_locally' p_infty) (locally (PI / 4 - 0)) (locally (sqrt (PI / 4 - 0)))); [|apply continuity_pt_filterlim, continuity_pt_sqrt; pose proof PI_RGT_0; lra].
    change (is_lim (fun x => PI / 4 - H x) p_infty (PI / 4 - 0)).
    apply (is_lim_minus' (fun _ => PI / 4)); [apply is_lim_const|]. apply (is_lim_le_le_loc (fun _ => 0) (fun b => b ^ 0 * exp (- b ^ 2))); [|apply is_lim_const|apply power_gauss_lim].
    exists 0. intros x _. replace (x ^ 0) with 1 by reflexivity. rewrite Rmult_1_l. apply H_bounds.
Qed.
Lemma parts_g k b : RInt (fun x => x ^ S (S k) * exp (- x ^ 2)) 0 b = INR (S k) / 2 * RInt (fun x => x ^ k * exp (- x ^ 2)) 0 b - b ^ S k * exp (- b ^ 2) / 2.
Proof.
  assert (E : is_RInt (fun x => INR (S k) * (x ^ k * exp (- x ^ 2)) - 2 * (x ^ S (S k) * exp (- x ^ 2))) 0 b (b ^ S k * exp (- b ^ 2) - 0)).
  { replace (b ^ S k * exp (- b ^ 2) - 0) with (minus (b ^ S k * exp (- b ^ 2)) (0 ^ S k * exp (- 0 ^ 2))) by (unfold minus, plus, opp; cbn; ring).
    apply (is_RInt_derive (fun x => x ^ S k * exp (- x ^ 2))); intros x _.
    - evar_last; [auto_derive; [exact I|reflexivity]|]. cbn [pred pow]. match goal with |- ?x = ?y => change (@eq R x y) end. change (match k with O => 1 | S _ => INR k + 1 end) with (INR (S k)). cbn [INR]. ring.
    - apply (continuous_minus (V := R_NormedModule)); [apply (continuous_scal_r (V := R_NormedModule)), continuous_pg|apply (continuous_scal_r (V := R_NormedModule)), continuous_pg]. }
  apply (is_RInt_unique (V := R_CompleteNormedModule)) in E. rewrite (RInt_two (fun x => x ^ k * exp (- x ^ 2)) (fun x => x ^ S (S k) * exp (- x ^ 2))) in E by (intros; apply continuous_pg). lra.
Qed.
(** [even j] is the moment of [x^(2j)] over the half line. *)
Definition even (j : nat) : R := INR (fact (2 * j)) / (4 ^ j * INR (fact j)).
Lemma even_step j : even (S j) = INR (2 * j + 1) / 2 * even j.
Proof.
  unfold even. replace (2 * S j)%nat with (S (S (2 * j))) by lia. rewrite !fact_simpl, !mult_INR. cbn [pow]. pose proof (INR_fact_neq_0 j). rewrite !S_INR, !plus_INR, !mult_INR. change (INR 1) with 1. change (INR 2) with 2. assert (0 <= INR j) by apply pos_INR. field. repeat split; try lra. apply pow_nonzero; lra.
Qed.
Definition half_moment (k : nat) : R := if Nat.even k then sqrt PI / 2 * even (Nat.div2 k) else INR (fact (Nat.div2 k)) / 2.
Lemma half_moment_step k : half_moment (S (S k)) = INR (S k) / 2 * half_moment k.
Proof.
  unfold half_moment. cbn [Nat.even Nat.div2]. destruct (Nat.even k) eqn:E.
  - rewrite even_step. apply Nat.even_spec in E. destruct E as (j & ->). rewrite (Nat.div2_double j). replace (S (2 * j)) with (2 * j + 1)%nat by lia. ring.
  - assert (O : Nat.odd k = true) by (unfold Nat.odd; rewrite E; reflexivity). apply Nat.odd_spec in O. destruct O as (j & ->). replace (2 * j + 1)%nat with (S (2 * j)) by lia. rewrite Nat.div2_succ_double, fact_simpl, mult_INR, !S_INR, mult_INR. change (INR 2) with 2. field.
Qed.
Lemma gauss_half k : is_lim (fun b => RInt (fun x => x ^ k * exp (- x ^ 2)) 0 b) p_infty (half_moment k).
Proof.
  enough (P : is_lim (fun b => RInt (fun x => x ^ k * exp (- x ^ 2)) 0 b) p_infty (half_moment k) /\ is_lim (fun b => RInt (fun x => x ^ S k * exp (- x ^ 2)) 0 b) p_infty (half_moment (S k))) by apply P.
  induction k as [|k [IH IH1]].
  - split.
    + apply (is_lim_ext G); [intros b; apply RInt_ext; intros; cbn; ring|]. replace (half_moment 0) with (sqrt PI / 2) by (unfold half_moment, even; cbn; field). apply G_lim.
    + apply (is_lim_ext (fun b => 1 / 2 - / 2 * (b ^ 0 * exp (- b ^ 2)))).
      * intros b. symmetry. apply is_RInt_unique. replace (1 / 2 - / 2 * (b ^ 0 * exp (- b ^ 2))) with (minus (- / 2 * exp (- b ^ 2)) (- / 2 * exp (- 0 ^ 2))) by (unfold minus, plus, opp; cbn; replace (- (0 * (0 * 1))) with 0 by ring; rewrite exp_0; field).
        apply (is_RInt_derive (fun x => - / 2 * exp (- x ^ 2))); intros x _; [auto_derive; [exact I|cbn; field]|apply (continuous_pg 1)].
      * replace (half_moment 1) with (1 / 2 - / 2 * 0) by (unfold half_moment; cbn; field). apply (is_lim_minus' (fun _ => 1 / 2)); [apply is_lim_const|]. apply (is_lim_scal_l (fun b => b ^ 0 * exp (- b ^ 2)) (/ 2) p_infty 0), power_gauss_lim.
  - split; [exact IH1|]. rewrite half_moment_step. apply (is_lim_ext (fun b => INR (S k) / 2 * RInt (fun x => x ^ k * exp (- x ^ 2)) 0 b - / 2 * (b ^ S k * exp (- b ^ 2)))); [intros b; rewrite parts_g; field|].
    replace (INR (S k) / 2 * half_moment k) with (INR (S k) / 2 * half_moment k - / 2 * 0) by ring. apply is_lim_minus'.
    + apply (is_lim_scal_l (fun b => RInt (fun x => x ^ k * exp (- x ^ 2)) 0 b) (INR (S k) / 2) p_infty (half_moment k)), IH.
    + apply (is_lim_scal_l (fun b => b ^ S k * exp (- b ^ 2)) (/ 2) p_infty 0), power_gauss_lim.
Qed.
Definition hermite_value (k : nat) : R := if Nat.even k then sqrt PI * even (Nat.div2 k) else 0.
Lemma gauss_left k : is_lim (fun b => RInt (fun x => (- x) ^ k * exp (- (- x) ^ 2)) 0 b) p_infty ((- 1) ^ k * half_moment k).
Proof.
  apply (is_lim_ext (fun b => (- 1) ^ k * RInt (fun x => x ^ k * exp (- x ^ 2)) 0 b)).
  - intros b. rewrite <- (RInt_scal (V := R_CompleteNormedModule) (fun x => x ^ k * exp (- x ^ 2))) by (apply ex_cont, continuous_pg). apply RInt_ext. intros x _. unfold scal; cbn -[pow]; unfold mult; cbn -[pow]. replace ((- x) ^ 2) with (x ^ 2) by ring. replace (- x) with (- 1 * x) by ring. rewrite Rpow_mult_distr. ring.
  - apply (is_lim_scal_l (fun b => RInt (fun x => x ^ k * exp (- x ^ 2)) 0 b) ((- 1) ^ k) p_infty (half_moment k)), gauss_half.
Qed.
Lemma hermite_moment k : integral_whole_line (fun x => x ^ k * exp (- x ^ 2)) (hermite_value k).
Proof.
  exists (half_moment k), ((- 1) ^ k * half_moment k). split; [split; [intros; apply ex_cont, continuous_pg|apply gauss_half]|]. split; [split; [|apply gauss_left]|].
  - intros b _. apply ex_cont. intros x. apply (ex_derive_continuous (V := R_NormedModule)). auto_derive. exact I.
  - unfold hermite_value, half_moment. destruct (Nat.even k) eqn:E.
    + apply Nat.even_spec in E. destruct E as (j & ->). rewrite pow_1_even. field.
    + assert (O : Nat.odd k = true) by (unfold Nat.odd; rewrite E; reflexivity). apply Nat.odd_spec in O. destruct O as (j & ->). replace (2 * j + 1)%nat with (S (2 * j)) by lia. rewrite pow_1_odd. field.
Qed.
