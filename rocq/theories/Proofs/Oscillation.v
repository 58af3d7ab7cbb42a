(** What a stable filter makes of an input that approaches a steady oscillation. *)
From Coq Require Import ZArith List Bool Reals Lra Lia.
From Verif Require Import Base.Scalar Base.RNum Base.Trig Base.Stream Model.Errors Model.Summation Model.Biquad
  Spec.Biquad Proofs.Biquad.
Import ListNotations.
Local Open Scope R_scope.

(** the output at sample [n] for the input sequence [u] *)
Definition out_at (c : BiquadCoefficients R) (u : nat -> R) (n : nat) : R :=
  snd (biquad_filter (brun (biquad_new c) (map u (seq 0 n))) (u n)).

Lemma out_at_run c u N : bout (biquad_new c) (map u (seq 0 N)) = map (out_at c u) (seq 0 N).
Proof.
  induction N as [|N IH]; [reflexivity|]. rewrite seq_S, !map_app. cbn [map plus].
  rewrite outputs_snoc, IH. reflexivity.
Qed.

(** A trajectory the filter can follow for ever. *)
Definition steady (c : BiquadCoefficients R) (X Y : nat -> R) : Prop :=
  forall n, Y (S (S n)) + a1 c * Y (S n) + a2 c * Y n = b0 c * X (S (S n)) + b1 c * X (S n) + b2 c * X n.

Definition approaches (u X : nat -> R) : Prop :=
  exists K r, 0 <= r < 1 /\ forall n, Rabs (u n - X n) <= K * r ^ n.

Lemma pow_sqr_le r n : 0 <= r -> 0 <= r ^ n. Proof. apply pow_le. Qed.

Lemma biquad_approaches c X Y u : is_stable c = true -> steady c X Y -> approaches u X -> approaches (out_at c u) Y.
Proof.
  intros Hs HS (K & r & Hr & Hu).
  destruct (stable_rho c Hs) as (rho & Hrho & Hq & Hp).
  set (p := a1 c) in *. set (q := a2 c) in *.
  set (Q := QQ p q rho). set (L := lam p q rho).
  assert (LP : 0 < L) by (apply lam_pos; assumption).
  assert (K0 : 0 <= K). { specialize (Hu 0%nat). cbn in Hu. pose proof (Rabs_pos (u 0%nat - X 0%nat)). lra. }
  set (C := (1 + / ((1 - rho) / rho)) * Q (b1 c - p * b0 c) (b2 c - q * b0 c)).
  assert (CP : 0 <= C).
  { apply Rmult_le_pos; [|apply QQ_nonneg; assumption].
    assert (0 < / ((1 - rho) / rho)) by (apply Rinv_0_lt_compat, Rdiv_lt_0_compat; lra). lra. }
  (* the steady state of the two memories *)
  set (S1 := fun n => Y n - b0 c * X n).
  set (S2 := fun n => S1 (S n) - b1 c * X n + p * Y n).
  assert (HS2 : forall n, S2 (S n) = b2 c * X n - q * Y n).
  { intros n. unfold S2, S1. pose proof (HS n) as E. fold p q in E. lra. }
  set (d1 := fun n => bq_s1 (brun (biquad_new c) (map u (seq 0 n))) - S1 n).
  set (d2 := fun n => bq_s2 (brun (biquad_new c) (map u (seq 0 n))) - S2 n).
  set (e := fun n => u n - X n).
  assert (Hd : forall n, d1 (S n) = - p * d1 n + d2 n + (b1 c - p * b0 c) * e n /\
                         d2 (S n) = - q * d1 n + (b2 c - q * b0 c) * e n).
  { intros n. unfold d1 at 1, d2 at 2. rewrite seq_S, map_app. cbn [map plus]. rewrite state_after_snoc.
    set (s := brun (biquad_new c) (map u (seq 0 n))).
    assert (Ec : bq_coef s = c) by (apply brun_coef; reflexivity).
    destruct (biquad_step_state s (u n)) as (E1 & E2 & _). rewrite Ec in E1, E2. fold p q in E1, E2.
    unfold d1, d2. fold s. rewrite E1, E2. rewrite HS2. unfold e. split; [|unfold S1; ring].
    assert (E : S1 (S n) = S2 n + b1 c * X n - p * Y n) by (unfold S2; ring). rewrite E. unfold S1. ring. }
  set (t := (1 + Rmax rho (r * r)) / 2).
  assert (T1 : rho < t) by (unfold t; pose proof (Rmax_l rho (r * r)); lra).
  assert (T2 : r * r <= t).
  { unfold t. pose proof (Rmax_r rho (r * r)). pose proof (Rmax_l rho (r*r)).
    assert (Rmax rho (r * r) < 1) by (apply Rmax_lub_lt; nra). lra. }
  assert (T3 : t < 1). { unfold t. assert (Rmax rho (r * r) < 1) by (apply Rmax_lub_lt; nra). lra. }
  set (D := Q (d1 0%nat) (d2 0%nat) + C * (K * K) / (t - rho)).
  assert (DP : C * (K * K) / (t - rho) >= 0).
  { apply Rle_ge, Rmult_le_pos; [apply Rmult_le_pos; [exact CP|nra]|]. left. apply Rinv_0_lt_compat. lra. }
  assert (Q0 : 0 <= Q (d1 0%nat) (d2 0%nat)) by (apply QQ_nonneg; assumption).
  assert (D1 : C * (K * K) <= (t - rho) * D).
  { unfold D. rewrite Rmult_plus_distr_l. replace ((t - rho) * (C * (K * K) / (t - rho))) with (C * (K * K)) by (field; lra).
    assert (0 <= (t - rho) * Q (d1 0%nat) (d2 0%nat)) by (apply Rmult_le_pos; lra). lra. }
  assert (Inv : forall n, Q (d1 n) (d2 n) <= D * t ^ n).
  { induction n as [|n IH].
    - cbn [pow]. unfold D. lra.
    - destruct (Hd n) as [-> ->]. eapply Rle_trans; [apply (QQ_step p q rho Hrho Hq Hp)|]. fold Q C.
      assert (E1 : e n * e n <= K * K * t ^ n).
      { assert (A : Rabs (e n) <= K * r ^ n) by apply Hu.
        apply Rle_trans with ((K * r ^ n) * (K * r ^ n)).
        - replace (e n * e n) with (Rabs (e n) * Rabs (e n)) by (unfold Rabs; destruct (Rcase_abs (e n)); ring).
          pose proof (Rabs_pos (e n)). apply Rmult_le_compat; lra.
        - replace (K * r ^ n * (K * r ^ n)) with (K * K * (r * r) ^ n) by (rewrite Rpow_mult_distr; ring).
          apply Rmult_le_compat_l; [nra|]. apply pow_incr. split; [nra|lra]. }
      assert (C * (e n * e n) <= C * (K * K * t ^ n)) by (apply Rmult_le_compat_l; assumption).
      assert (P : 0 <= t ^ n) by (apply pow_le; lra).
      assert (C * (K * K) * t ^ n <= (t - rho) * D * t ^ n) by (apply Rmult_le_compat_r; assumption).
      assert (rho * Q (d1 n) (d2 n) <= rho * (D * t ^ n)) by (apply Rmult_le_compat_l; [lra|assumption]).
      cbn [pow]. lra. }
  assert (D0 : 0 <= D) by (unfold D; lra).
  set (st := R_sqrt.sqrt t).
  assert (ST : st * st = t) by (apply sqrt_sqrt; lra).
  assert (ST0 : 0 <= st) by apply sqrt_pos.
  assert (STr : r <= st). { apply Rnot_lt_le. intros A. assert (st * st < r * r) by nra. lra. }
  set (B := R_sqrt.sqrt (D / L)).
  assert (BB : B * B = D / L). { apply sqrt_sqrt. apply Rmult_le_pos; [exact D0|left; apply Rinv_0_lt_compat; lra]. }
  assert (B0 : 0 <= B) by apply sqrt_pos.
  exists (B + Rabs (b0 c) * K), st. split; [split; [exact ST0|nra]|].
  intros n. assert (P : 0 <= st ^ n) by (apply pow_le; exact ST0).
  assert (Hd1 : Rabs (d1 n) <= B * st ^ n).
  { pose proof (QQ_lower p q rho Hrho Hq Hp (d1 n) (d2 n)) as A. fold Q L in A.
    assert (0 <= d2 n / rho * (d2 n / rho)) by apply Rle_0_sqr.
    assert (L * (d1 n * d1 n) <= L * ((B * st ^ n) * (B * st ^ n))).
    { replace (L * ((B * st ^ n) * (B * st ^ n))) with (L * (B * B) * (st ^ n * st ^ n)) by ring.
      rewrite BB, <- Rpow_mult_distr, ST. replace (L * (D / L)) with D by (field; lra).
      specialize (Inv n). nra. }
    assert (d1 n * d1 n <= (B * st ^ n) * (B * st ^ n)) by (apply Rmult_le_reg_l with L; assumption).
    assert (0 <= B * st ^ n) by (apply Rmult_le_pos; assumption).
    apply Rabs_le. split; nra. }
  unfold out_at. set (s := brun (biquad_new c) (map u (seq 0 n))).
  assert (Ec : bq_coef s = c) by (apply brun_coef; reflexivity).
  destruct (biquad_step_state s (u n)) as (_ & _ & E). rewrite E, Ec.
  replace (b0 c * u n + bq_s1 s - Y n) with (d1 n + b0 c * e n) by (unfold d1, e, S1; fold s; ring).
  eapply Rle_trans; [apply Rabs_triang|]. rewrite Rabs_mult, Rmult_plus_distr_r.
  apply Rplus_le_compat; [exact Hd1|]. rewrite Rmult_assoc. apply Rmult_le_compat_l; [apply Rabs_pos|].
  eapply Rle_trans; [apply Hu|]. apply Rmult_le_compat_l; [exact K0|]. apply pow_incr. lra.
Qed.

(** The sinusoid the response formulas predict is a steady trajectory. *)
Lemma weighted_cos c0 c1 c2 w th : let re := c0 + c1 * Rtrigo_def.cos w + c2 * Rtrigo_def.cos (2 * w) in
  let im := - (c1 * Rtrigo_def.sin w + c2 * Rtrigo_def.sin (2 * w)) in
  c0 * Rtrigo_def.cos th + c1 * Rtrigo_def.cos (th - w) + c2 * Rtrigo_def.cos (th - 2 * w) =
  hyp re im * Rtrigo_def.cos (th + Ratan2 im re).
Proof.
  cbv zeta. set (re := c0 + _ + _). set (im := - _).
  destruct (polar_form re im) as [E1 E2]. rewrite cos_plus, !cos_minus.
  replace (hyp re im * (Rtrigo_def.cos th * Rtrigo_def.cos (Ratan2 im re) - Rtrigo_def.sin th * Rtrigo_def.sin (Ratan2 im re)))
    with (Rtrigo_def.cos th * (hyp re im * Rtrigo_def.cos (Ratan2 im re)) - Rtrigo_def.sin th * (hyp re im * Rtrigo_def.sin (Ratan2 im re))) by ring.
  rewrite <- E1, <- E2. unfold re, im. ring.
Qed.

Definition wave (amp w ph : R) (n : nat) : R := amp * Rtrigo_def.cos (w * INR n + ph).

Lemma stable_response_nonzero c f : is_stable c = true ->
  let '(_, _, or_, oi) := response_parts c f in hyp or_ oi <> 0.
Proof.
  intros Hs. unfold response_parts. rnum. set (w := 2 * PI * f * bq_timestep c).
  intros H. apply hyp_0 in H as [H1 H2].
  pose proof (proj1 (stable_poles c) Hs) as P.
  specialize (P (Rtrigo_def.cos w) (Rtrigo_def.sin w)).
  rewrite cos_2a in H1. rewrite sin_2a in H2.
  pose proof (sin2_cos2 w) as SC. unfold Rsqr in SC.
  set (co := Rtrigo_def.cos w) in *. set (si := Rtrigo_def.sin w) in *.
  assert (is_pole (a1 c) (a2 c) co si).
  { split.
    - (* z^2 times the conjugate of the vanishing sum *)
      replace (co * co - si * si + a1 c * co + a2 c) with
        ((co * co - si * si) * (1 + a1 c * co + a2 c * (co * co - si * si)) + 2 * si * co * (a1 c * si + a2 c * (2 * si * co))
         + a1 c * co * (1 - (si * si + co * co)) + a2 c * (1 - (si * si + co * co)) * (1 + si * si + co * co)) by ring.
      rewrite H1, SC. replace (a1 c * si + a2 c * (2 * si * co)) with 0 by lra. ring.
    - replace (2 * co * si + a1 c * si) with
        (2 * si * co * (1 + a1 c * co + a2 c * (co * co - si * si)) - (co * co - si * si) * (a1 c * si + a2 c * (2 * si * co))
         + a1 c * si * (1 - (si * si + co * co))) by ring.
      rewrite H1, SC. replace (a1 c * si + a2 c * (2 * si * co)) with 0 by lra. ring. }
  specialize (P H). lra.
Qed.

Lemma wave_steady c f amp ph : is_stable c = true ->
  steady c (wave amp (2 * PI * f * bq_timestep c) ph)
           (wave (amp * magnitude_at c f) (2 * PI * f * bq_timestep c) (ph + phase_at c f)).
Proof.
  intros Hs n. pose proof (stable_response_nonzero c f Hs) as NZ.
  unfold magnitude_at, phase_at, wave. unfold response_parts in *. rnum.
  set (w := 2 * PI * f * bq_timestep c) in *.
  set (br := b0 c + _ + _). set (bi := - (b1 c * _ + _)).
  set (ar := 1 + _ + _) in *. set (ai := - (a1 c * _ + _)) in *.
  change (R_sqrt.sqrt (br * br + bi * bi)) with (hyp br bi). change (R_sqrt.sqrt (ar * ar + ai * ai)) with (hyp ar ai).
  set (th := Ratan2 bi br - Ratan2 ai ar).
  set (x := w * INR (S (S n)) + ph).
  assert (N1 : w * INR (S n) = x - ph - w) by (unfold x; rewrite !S_INR; ring).
  assert (N0 : w * INR n = x - ph - 2 * w) by (unfold x; rewrite !S_INR; ring).
  rewrite N1, N0.
  pose proof (weighted_cos (b0 c) (b1 c) (b2 c) w x) as B. cbv zeta in B. fold br bi in B.
  pose proof (weighted_cos 1 (a1 c) (a2 c) w (x + th)) as A. cbv zeta in A. fold ar ai in A.
  replace (w * INR (S (S n)) + (ph + th)) with (x + th) by (unfold x; ring).
  replace (x - ph - w + (ph + th)) with (x + th - w) by ring.
  replace (x - ph - 2 * w + (ph + th)) with (x + th - 2 * w) by ring.
  replace (x - ph - w + ph) with (x - w) by ring.
  replace (x - ph - 2 * w + ph) with (x - 2 * w) by ring.
  replace (x + th + Ratan2 ai ar) with (x + Ratan2 bi br) in A by (unfold th; ring).
  set (g := hyp br bi / hyp ar ai).
  replace (amp * g * Rtrigo_def.cos (x + th) + a1 c * (amp * g * Rtrigo_def.cos (x + th - w)) + a2 c * (amp * g * Rtrigo_def.cos (x + th - 2 * w)))
    with (amp * g * (1 * Rtrigo_def.cos (x + th) + a1 c * Rtrigo_def.cos (x + th - w) + a2 c * Rtrigo_def.cos (x + th - 2 * w))) by ring.
  rewrite A.
  replace (b0 c * (amp * Rtrigo_def.cos x) + b1 c * (amp * Rtrigo_def.cos (x - w)) + b2 c * (amp * Rtrigo_def.cos (x - 2 * w)))
    with (amp * (b0 c * Rtrigo_def.cos x + b1 c * Rtrigo_def.cos (x - w) + b2 c * Rtrigo_def.cos (x - 2 * w))) by ring.
  rewrite B. unfold g. field. exact NZ.
Qed.

Lemma cascade_oscillation dt f : forall cs u amp ph,
  Forall (fun c => bq_timestep c = dt) cs -> cascade_is_stable (cascade_new cs) = true ->
  approaches u (wave amp (2 * PI * f * dt) ph) ->
  exists v, (forall N, outputs cascade_filter (cascade_new cs) (map u (seq 0 N)) = map v (seq 0 N)) /\
    approaches v (wave (amp * fold_left (fun g c => g * magnitude_at c f) cs 1) (2 * PI * f * dt)
                       (ph + fold_left (fun g c => g + phase_at c f) cs 0)).
Proof.
  induction cs as [|c cs IH]; intros u amp ph HT HS Hu.
  - exists u. split; [intros N; apply cascade_nil|]. cbn [fold_left]. rewrite Rmult_1_r, Rplus_0_r. exact Hu.
  - inversion HT as [|? ? Tc HT']; subst. cbn in HS. apply andb_true_iff in HS as [S1 S2].
    pose proof (biquad_approaches c _ _ u S1 (wave_steady c f amp ph S1) Hu) as Hv.
    destruct (IH (out_at c u) _ _ HT' S2 Hv) as (v & Ev & Av). exists v. split.
    + intros N. change (cascade_new (c :: cs)) with (biquad_new c :: cascade_new cs).
      rewrite cascade_compose, out_at_run. apply Ev.
    + cbn [fold_left].
      assert (M : forall l g, fold_left (fun g c => g * magnitude_at c f) l g = g * fold_left (fun g c => g * magnitude_at c f) l 1).
      { clear. induction l as [|c l IH]; intros g; cbn [fold_left]; [ring|]. rewrite IH, (IH (1 * _)). ring. }
      assert (P : forall l g, fold_left (fun g c => g + phase_at c f) l g = g + fold_left (fun g c => g + phase_at c f) l 0).
      { clear. induction l as [|c l IH]; intros g; cbn [fold_left]; [ring|]. rewrite IH, (IH (0 + _)). ring. }
      rewrite M, P, Rmult_1_l, Rplus_0_l, <- Rmult_assoc, <- Rplus_assoc. exact Av.
Qed.
