(** C19-C25, C70: biquads and cascades of them. *)
From Coq Require Import ZArith List Bool Reals Lra Lia.
From Verif Require Import Base.Scalar Base.RNum Base.Trig Base.Stream Model.Errors Model.Summation Model.Biquad
  Spec.Stream Spec.Biquad Proofs.Summation Proofs.Biquad Proofs.Oscillation.
Import ListNotations.
Local Open Scope R_scope.

(** ** C19 *)
Theorem C19_difference_equation : forall (c : BiquadCoefficients R) (xs : list R),
  difference_equation (b0 c) (b1 c) (b2 c) (a1 c) (a2 c) xs (outputs biquad_filter (biquad_new c) xs).
Proof. intros c xs. apply (biquad_memory c xs). Qed.

(** After any history of samples and resets the filter continues exactly as a new one fed only the samples since the
    last reset, for every kind of number. *)
Theorem C19_reset_forgets : forall (T : Type) (NT : Num T) (c : BiquadCoefficients T) (hist : list (event T)),
  replay biquad_filter biquad_reset (biquad_new c) hist =
  state_after biquad_filter (biquad_new c) (since_reset hist).
Proof. intros. apply biquad_replay. Qed.

Example C19_example :
  outputs biquad_filter (biquad_new (mkCoef 1 2 3 (-1) (/2) 1)) [1; 0; 0; 0] = [1; 3; 11/2; 4].
Proof. unfold outputs. cbn. rnum. rlist. Qed.

(** ** C20 *)
Lemma seq_lin_add l m : seq_lin 1 1 l m = seq_add l m.
Proof. apply map_ext. intros []. cbn. ring. Qed.
Lemma combine_map_same {A} (l : list A) : combine l l = map (fun x => (x, x)) l.
Proof. induction l; cbn; congruence. Qed.
Lemma seq_lin_scale k l : seq_lin k 0 l l = seq_scale k l.
Proof. unfold seq_lin, seq_scale. rewrite combine_map_same, map_map. apply map_ext. intros. cbn. ring. Qed.

Theorem C20_cascade_linear : forall (cs : list (BiquadCoefficients R)) (xs ys : list R) (k : R),
  length xs = length ys ->
  let out := outputs cascade_filter (cascade_new cs) in
  out (seq_add xs ys) = seq_add (out xs) (out ys) /\ out (seq_scale k xs) = seq_scale k (out xs).
Proof.
  intros cs xs ys k L. cbv zeta. split.
  - rewrite <- !seq_lin_add. rewrite <- (lin_cascade_new 1 1 cs) at 1. apply cascade_run_lin; auto.
  - rewrite <- !seq_lin_scale. rewrite <- (lin_cascade_new k 0 cs) at 1. apply cascade_run_lin; auto.
Qed.

Theorem C20_biquad_linear : forall (c : BiquadCoefficients R) (xs ys : list R) (k : R),
  length xs = length ys ->
  let out := outputs biquad_filter (biquad_new c) in
  out (seq_add xs ys) = seq_add (out xs) (out ys) /\ out (seq_scale k xs) = seq_scale k (out xs).
Proof.
  intros c xs ys k L. cbv zeta. rewrite <- !cascade_single_run.
  apply (C20_cascade_linear [c] xs ys k L).
Qed.

(** Each channel of a multi-channel filter is a single filter of its own, fed its own component. *)
Lemma multi_step {T} {NT : Num T} (z : T) k : forall chs v, length v = length chs -> (k < length chs)%nat ->
  length (fst (multi_filter chs v)) = length chs /\
  forall d, nth k (fst (multi_filter chs v)) d = fst (biquad_filter (nth k chs d) (nth k v z)) /\
            nth k (snd (multi_filter chs v)) z = snd (biquad_filter (nth k chs d) (nth k v z)).
Proof.
  induction k as [|k IH]; intros [|ch chs] [|x v] L Hk; cbn in Hk; try lia; try discriminate; cbn [multi_filter].
  - assert (G : forall chs v, length v = length chs -> length (fst (@multi_filter T NT chs v)) = length chs).
    { clear. induction chs as [|ch chs IH]; intros [|x v] L; try discriminate; [reflexivity|]. cbn [multi_filter].
      injection L as L. specialize (IH _ L). destruct (biquad_filter ch x). destruct (multi_filter chs v). cbn in *. lia. }
    injection L as L. specialize (G _ _ L). destruct (biquad_filter ch x) as [ch' y] eqn:E. destruct (multi_filter chs v) as [chs' ys].
    cbn [fst snd nth length] in *. split; [lia|]. intros d. rewrite E. split; reflexivity.
  - injection L as L. destruct (IH chs v L ltac:(lia)) as [I1 I2].
    destruct (biquad_filter ch x) as [ch' y] eqn:E. destruct (multi_filter chs v) as [chs' ys].
    cbn [fst snd nth length] in *. split; [lia|]. exact I2.
Qed.

Theorem C20_channels_independent : forall (T : Type) (NT : Num T) (z : T) (n k : nat) (c : BiquadCoefficients T)
    (inputs : list (list T)),
  (k < n)%nat -> Forall (fun v => length v = n) inputs ->
  map (fun v => nth k v z) (outputs multi_filter (multi_new n c) inputs) =
  outputs biquad_filter (biquad_new c) (map (fun v => nth k v z) inputs).
Proof.
  intros T NT z n k c inputs Hk HF.
  assert (G : forall chs, length chs = n ->
    map (fun v => nth k v z) (outputs multi_filter chs inputs) =
    outputs biquad_filter (nth k chs (biquad_new c)) (map (fun v => nth k v z) inputs)).
  { induction inputs as [|v vs IH]; intros chs L; [reflexivity|].
    inversion HF as [|? ? Lv HF']; subst. cbn [map]. rewrite !outputs_cons. cbn [map].
    destruct (multi_step z k chs v) as [L2 E]; [congruence|lia|].
    destruct (E (biquad_new c)) as [E1 E2]. rewrite E2. f_equal. rewrite IH; [rewrite E1; reflexivity|assumption|congruence]. }
  rewrite G by apply repeat_length.
  replace (nth k (multi_new n c) (biquad_new c)) with (biquad_new c); [reflexivity|].
  unfold multi_new. symmetry. apply nth_repeat.
Qed.

Example C20_example :
  map (fun v => nth 1 v 0) (outputs multi_filter (multi_new 2 (mkCoef 1 1 0 0 0 1)) [[1; 2]; [3; 4]]) = [2; 6].
Proof. unfold outputs. cbn. rnum. rlist. Qed.

(** ** C21 *)
Theorem C21_stable_iff_poles_inside : forall c : BiquadCoefficients R,
  is_stable c = true <-> (forall x y, is_pole (a1 c) (a2 c) x y -> x * x + y * y < 1).
Proof. apply stable_poles. Qed.

Theorem C21_stable_bounded : forall c : BiquadCoefficients R, is_stable c = true ->
  exists K r, 0 <= r < 1 /\ forall M xs, (forall x, In x xs -> Rabs x <= M) -> 0 <= M ->
    (forall y, In y (outputs biquad_filter (biquad_new c) xs) -> Rabs y <= K * M) /\
    (forall n, Rabs (nth (length xs + n) (outputs biquad_filter (biquad_new c) (xs ++ repeat 0 (S n))) 0) <= K * M * r ^ n).
Proof.
  intros c Hs. destruct (stable_bounded c Hs) as (K & r & K0 & Hr & H). exists K, r. split; [exact Hr|].
  intros M xs HM M0. split; [apply (H M xs 0%nat HM M0)|].
  intros n. apply (H M xs n HM M0).
  replace (repeat 0 (S n)) with (repeat 0 n ++ [0]) by (rewrite <- repeat_cons; reflexivity).
  rewrite app_assoc, outputs_app, app_nth2; rewrite outputs_length, app_length, repeat_length; [|lia].
  rewrite Nat.sub_diag, outputs_cons. left. reflexivity.
Qed.

Example C21_example : is_stable (mkCoef 1 0 0 (-1) (/2) 1) = true /\ is_stable (mkCoef 1 0 0 (-2) 1 1) = false.
Proof.
  split; unfold is_stable; cbn; rnum.
  - apply andb_true_iff. split; apply Rltb_true; rewrite Rabs_lt_iff; lra.
  - apply andb_false_iff. left. apply Rltb_false. rewrite Rabs_pos_eq; lra.
Qed.

(** ** C22 *)
Lemma design_ok d f Q dt c : design_build d f Q dt = Ok c ->
  0 < dt /\ 0 < Q /\ 0 < f /\ f * dt < /2 /\ 0 < 2 * PI * f * dt < PI /\ bq_timestep c = dt.
Proof.
  unfold design_build, check_design. rnum. cbn [negb orb].
  destruct (Rleb dt 0) eqn:E1; [discriminate|]. destruct (Rleb Q 0) eqn:E2; [discriminate|].
  destruct (Rleb f 0) eqn:E3; [discriminate|]. cbn [orb].
  destruct (Rleb (/2) (f * dt)) eqn:E4; [discriminate|]. rcases.
  assert (0 < f * dt) by nra. pose proof PI_RGT_0.
  destruct d; intros H'; injection H' as <-; cbn [bq_timestep from_unnormalized]; repeat split; try lra; try nra.
Qed.

(** with [alpha] positive the designs' common denominator is stable *)
Lemma denominator_stable f0 f1 f2 w al dt : 0 < al -> 0 < w < PI ->
  is_stable (from_unnormalized f0 f1 f2 (1 + al) (- (2 * Rtrigo_def.cos w)) (1 - al) dt) = true.
Proof.
  intros A W. apply stable_iff. cbn [from_unnormalized a1 a2]. rnum. rewrite !Rabs_lt_iff.
  assert (S : 0 < Rtrigo_def.sin w) by (apply sin_gt_0; lra).
  pose proof (sin2_cos2 w) as SC. unfold Rsqr in SC.
  assert (C : -1 < Rtrigo_def.cos w < 1) by (split; nra).
  set (co := Rtrigo_def.cos w) in *.
  assert (P : 0 < / (1 + al)) by (apply Rinv_0_lt_compat; lra).
  assert (E : (1 + al) * / (1 + al) = 1) by (apply Rinv_r; lra).
  unfold Rdiv. set (i := / (1 + al)) in *. repeat split; nra.
Qed.

Theorem C22_low_and_high_pass_stable : forall f Q dt (c : BiquadCoefficients R),
  low_pass f Q dt = Ok c \/ high_pass f Q dt = Ok c -> is_stable c = true.
Proof.
  intros f Q dt c H.
  assert (A : 0 < 2 * PI * f * dt < PI /\ 0 < Q) by (destruct H as [H|H]; apply design_ok in H; tauto).
  destruct A as [W Q0].
  assert (AL : 0 < Rtrigo_def.sin (2 * PI * f * dt) / (2 * Q)).
  { apply Rdiv_lt_0_compat; [apply sin_gt_0; lra|lra]. }
  destruct H as [H|H]; unfold low_pass, high_pass, design_build in H;
    destruct (check_design f Q dt); try discriminate; injection H as <-; rnum; apply denominator_stable; assumption.
Qed.

(** The claim of the documentation, "anything from one of the four design functions is always stable", fails for a
    band-pass and for a notch of low quality factor. *)
Theorem C22_designs_stable_refuted :
  exists f Q dt, (exists c : BiquadCoefficients R, band_pass f Q dt = Ok c /\ is_stable c = false) /\
                 (exists c : BiquadCoefficients R, notch f Q dt = Ok c /\ is_stable c = false).
Proof.
  exists (/4), (3/8), 1.
  assert (CK : check_design (/4) (3/8) 1 = None).
  { unfold check_design. rnum. cbn [negb orb].
    replace (Rleb 1 0) with false by (symmetry; apply Rleb_false; lra).
    replace (Rleb (3/8) 0) with false by (symmetry; apply Rleb_false; lra).
    replace (Rleb (/4) 0) with false by (symmetry; apply Rleb_false; lra).
    replace (Rleb (/2) (/4 * 1)) with false by (symmetry; apply Rleb_false; lra). reflexivity. }
  assert (TN : Rtrigo1.tan (2 * PI * / 4 * 1 / (2 * (3 / 8))) = - R_sqrt.sqrt 3).
  { replace (2 * PI * / 4 * 1 / (2 * (3 / 8))) with (2 * (PI / 3)) by field. apply tan_2PI3. }
  assert (U : forall f0 f1 f2 g, is_stable (from_unnormalized f0 f1 f2 (1 + - R_sqrt.sqrt 3) g (1 - - R_sqrt.sqrt 3) 1) = false).
  { intros. destruct (is_stable _) eqn:E; [|reflexivity]. apply stable_iff in E as [E _].
    cbn [from_unnormalized a2] in E. rnum. apply Rabs_lt_iff in E as [E _].
    assert (S3 : R_sqrt.sqrt 3 * R_sqrt.sqrt 3 = 3) by (apply sqrt_sqrt; lra).
    pose proof (sqrt_pos 3). assert (1 < R_sqrt.sqrt 3) by nra.
    assert (D : (1 - - R_sqrt.sqrt 3) / (1 + - R_sqrt.sqrt 3) * (R_sqrt.sqrt 3 - 1) = - (1 + R_sqrt.sqrt 3)) by (field; lra).
    set (z := (1 - - R_sqrt.sqrt 3) / (1 + - R_sqrt.sqrt 3)) in *. nra. }
  split; unfold band_pass, notch, design_build; rewrite CK; rnum; rewrite TN; eexists; (split; [reflexivity|apply U]).
Qed.

(** What does hold: the designs are stable when the width asked for fits, in particular when twice the centre frequency
    times the timestep is below the quality factor. *)
Theorem C22_designs_stable_partial : forall f Q dt (c : BiquadCoefficients R),
  band_pass f Q dt = Ok c \/ notch f Q dt = Ok c ->
  (0 < Rtrigo1.tan (2 * PI * f * dt / (2 * Q)) -> is_stable c = true) /\ (2 * f * dt < Q -> is_stable c = true).
Proof.
  intros f Q dt c H.
  assert (A : 0 < 2 * PI * f * dt < PI /\ 0 < Q) by (destruct H as [H|H]; apply design_ok in H; tauto).
  destruct A as [W Q0].
  assert (G : 0 < Rtrigo1.tan (2 * PI * f * dt / (2 * Q)) -> is_stable c = true).
  { intros AL. destruct H as [H|H]; unfold band_pass, notch, design_build in H;
      destruct (check_design f Q dt); try discriminate; injection H as <-; rnum; apply denominator_stable; assumption. }
  split; [exact G|]. intros L. apply G. apply tan_gt_0.
  - apply Rdiv_lt_0_compat; lra.
  - apply Rmult_lt_reg_r with (2 * Q); [lra|]. unfold Rdiv. rewrite Rmult_assoc, Rinv_l, Rmult_1_r by lra.
    pose proof PI_RGT_0. nra.
Qed.

Example C22_example : exists c : BiquadCoefficients R, notch 180 4 (/1000) = Ok c /\ is_stable c = true.
Proof.
  destruct (notch 180 4 (/1000)) as [c|e|] eqn:E.
  - exists c. split; [reflexivity|]. apply (C22_designs_stable_partial 180 4 (/1000) c (or_intror E)). lra.
  - exfalso. unfold notch, design_build, check_design in E. rnum. cbn [negb orb] in E.
    replace (Rleb (/1000) 0) with false in E by (symmetry; apply Rleb_false; lra).
    replace (Rleb 4 0) with false in E by (symmetry; apply Rleb_false; lra).
    replace (Rleb 180 0) with false in E by (symmetry; apply Rleb_false; lra).
    replace (Rleb (/2) (180 * /1000)) with false in E by (symmetry; apply Rleb_false; lra). discriminate.
  - exfalso. unfold notch, design_build in E. destruct (check_design _ _ _); discriminate.
Qed.

(** ** C23 *)
Lemma magnitude_dc c : magnitude_at c 0 = Rabs (b0 c + b1 c + b2 c) / Rabs (1 + a1 c + a2 c).
Proof.
  unfold magnitude_at, response_parts. rnum.
  replace (2 * PI * 0 * bq_timestep c) with 0 by ring. rewrite Rmult_0_r, cos_0, sin_0.
  fold (hyp (b0 c + b1 c * 1 + b2 c * 1) (- (b1 c * 0 + b2 c * 0))).
  fold (hyp (1 + a1 c * 1 + a2 c * 1) (- (a1 c * 0 + a2 c * 0))).
  f_equal; unfold hyp; rewrite <- sqrt_Rsqr_abs; f_equal; unfold Rsqr; ring.
Qed.
Lemma magnitude_nyquist c : 0 < bq_timestep c ->
  magnitude_at c (/ (2 * bq_timestep c)) = Rabs (b0 c - b1 c + b2 c) / Rabs (1 - a1 c + a2 c).
Proof.
  intros H. unfold magnitude_at, response_parts. rnum.
  replace (2 * PI * / (2 * bq_timestep c) * bq_timestep c) with PI by (field; lra).
  rewrite cos_2PI, sin_2PI, cos_PI, sin_PI.
  f_equal; rewrite <- sqrt_Rsqr_abs; f_equal; unfold Rsqr; ring.
Qed.

(** at the design frequency z = e^{-i w} satisfies 1 + z^2 = 2 cos w z *)
Lemma magnitude_centre f0 f1 f2 g0 g1 g2 dt f : g0 <> 0 -> let w := 2 * PI * f * dt in
  magnitude_at (from_unnormalized f0 f1 f2 g0 g1 g2 dt) f =
  hyp (f0 + f1 * Rtrigo_def.cos w + f2 * Rtrigo_def.cos (2 * w)) (f1 * Rtrigo_def.sin w + f2 * Rtrigo_def.sin (2 * w)) /
  hyp (g0 + g1 * Rtrigo_def.cos w + g2 * Rtrigo_def.cos (2 * w)) (g1 * Rtrigo_def.sin w + g2 * Rtrigo_def.sin (2 * w)).
Proof.
  intros G. cbv zeta. unfold magnitude_at, response_parts, from_unnormalized. cbn [b0 b1 b2 a1 a2 bq_timestep]. rnum.
  set (w := 2 * PI * f * dt).
  match goal with |- R_sqrt.sqrt (?a * ?a + ?b * ?b) / R_sqrt.sqrt (?c * ?c + ?d * ?d) = _ =>
    change (hyp a b / hyp c d = hyp (f0 + f1 * Rtrigo_def.cos w + f2 * Rtrigo_def.cos (2 * w)) (f1 * Rtrigo_def.sin w + f2 * Rtrigo_def.sin (2 * w)) /
  hyp (g0 + g1 * Rtrigo_def.cos w + g2 * Rtrigo_def.cos (2 * w)) (g1 * Rtrigo_def.sin w + g2 * Rtrigo_def.sin (2 * w))) end.
  assert (HN : forall x y, hyp x (- y) = hyp x y) by (intros; unfold hyp; f_equal; ring).
  rewrite !HN.
  replace (f0 / g0 + f1 / g0 * Rtrigo_def.cos w + f2 / g0 * Rtrigo_def.cos (2 * w)) with (/ g0 * (f0 + f1 * Rtrigo_def.cos w + f2 * Rtrigo_def.cos (2 * w))) by (field; exact G).
  replace (f1 / g0 * Rtrigo_def.sin w + f2 / g0 * Rtrigo_def.sin (2 * w)) with (/ g0 * (f1 * Rtrigo_def.sin w + f2 * Rtrigo_def.sin (2 * w))) by (field; exact G).
  replace (1 + g1 / g0 * Rtrigo_def.cos w + g2 / g0 * Rtrigo_def.cos (2 * w)) with (/ g0 * (g0 + g1 * Rtrigo_def.cos w + g2 * Rtrigo_def.cos (2 * w))) by (field; exact G).
  replace (g1 / g0 * Rtrigo_def.sin w + g2 / g0 * Rtrigo_def.sin (2 * w)) with (/ g0 * (g1 * Rtrigo_def.sin w + g2 * Rtrigo_def.sin (2 * w))) by (field; exact G).
  rewrite !hyp_scale.
  assert (A : 0 < Rabs (/ g0)) by (apply Rabs_pos_lt, Rinv_neq_0_compat, G).
  destruct (Req_dec (hyp (g0 + g1 * Rtrigo_def.cos w + g2 * Rtrigo_def.cos (2 * w)) (g1 * Rtrigo_def.sin w + g2 * Rtrigo_def.sin (2 * w))) 0) as [Z|Z].
  - rewrite Z, Rmult_0_r. unfold Rdiv. rewrite Rinv_0. ring.
  - field. split; [exact Z|lra].
Qed.

Lemma ratio_one x : x <> 0 -> Rabs x / Rabs x = 1.
Proof. intros H. apply Rinv_r. apply Rabs_no_R0, H. Qed.

Lemma angle_facts w : 0 < w < PI -> 0 < Rtrigo_def.sin w /\ -1 < Rtrigo_def.cos w < 1 /\
  Rtrigo_def.sin w * Rtrigo_def.sin w + Rtrigo_def.cos w * Rtrigo_def.cos w = 1.
Proof.
  intros W. assert (0 < Rtrigo_def.sin w) by (apply sin_gt_0; lra).
  pose proof (sin2_cos2 w) as SC. unfold Rsqr in SC. repeat split; try lra; nra.
Qed.

(** A low-pass: gain one at zero frequency, the quality factor at the cutoff, nothing at half the sampling rate. *)
Theorem C23_low_pass_gains : forall f Q dt (c : BiquadCoefficients R), low_pass f Q dt = Ok c ->
  magnitude_at c 0 = 1 /\ magnitude_at c f = Q /\ magnitude_at c (/ (2 * dt)) = 0.
Proof.
  intros f Q dt c H. pose proof (design_ok _ _ _ _ _ H) as (D & Q0 & F & FD & W & TS).
  unfold low_pass, design_build in H. destruct (check_design f Q dt); [discriminate|]. injection H as <-. rnum.
  set (w := 2 * PI * f * dt) in *. destruct (angle_facts w W) as (S & C & SC).
  set (al := Rtrigo_def.sin w / (2 * Q)). assert (AL : 0 < al) by (apply Rdiv_lt_0_compat; lra).
  split; [|split].
  - rewrite magnitude_dc. unfold from_unnormalized; cbn [b0 b1 b2 a1 a2]; rnum. 
    set (co := Rtrigo_def.cos w) in *.
    replace ((1 - co) * / 2 / (1 + al) + (1 - co) / (1 + al) + (1 - co) * / 2 / (1 + al)) with (2 * (1 - co) / (1 + al)) by (field; lra).
    replace (1 + - (2 * co) / (1 + al) + (1 - al) / (1 + al)) with (2 * (1 - co) / (1 + al)) by (field; lra).
    apply ratio_one. apply Rmult_integral_contrapositive. split; [lra|apply Rinv_neq_0_compat; lra].
  - rewrite magnitude_centre by lra. fold w. rewrite cos_2a, sin_2a.
    set (co := Rtrigo_def.cos w) in *. set (si := Rtrigo_def.sin w) in *.
    replace ((1 - co) * / 2 + (1 - co) * co + (1 - co) * / 2 * (co * co - si * si)) with (si * si * co)
      by (replace (co * co - si * si) with (2 * (co * co) - 1) by lra; replace (si * si) with (1 - co * co) by lra; field).
    replace ((1 - co) * si + (1 - co) * / 2 * (2 * si * co)) with (si * si * si)
      by (replace (si * si * si) with (si * (1 - co * co)) by (replace (1 - co * co) with (si * si) by lra; ring); field).
    replace (1 + al + - (2 * co) * co + (1 - al) * (co * co - si * si)) with (2 * al * si * si)
      by (replace (1 + al + - (2 * co) * co + (1 - al) * (co * co - si * si)) with (1 - (si * si + co * co) + al * (1 - (si * si + co * co)) + 2 * al * si * si) by ring; rewrite SC; ring).
    replace (- (2 * co) * si + (1 - al) * (2 * si * co)) with (2 * al * si * (- co)) by ring.
    rewrite !hyp_scale.
    assert (H1 : hyp si (- co) = 1). { unfold hyp. replace (si * si + - co * - co) with 1 by lra. apply sqrt_1. }
    assert (H2 : hyp co si = 1). { unfold hyp. replace (co * co + si * si) with 1 by lra. apply sqrt_1. }
    rewrite H1, H2, !Rabs_pos_eq by (unfold al in *; nra). unfold al. field. split; lra.
  - rewrite <- TS at 2. rewrite magnitude_nyquist by (cbn; lra). unfold from_unnormalized; cbn [b0 b1 b2 a1 a2]; rnum.
    replace (_ - _ + _) with 0 at 1 by (field; lra). rewrite Rabs_R0. unfold Rdiv. ring.
Qed.

(** A high-pass: the mirror image. *)
Theorem C23_high_pass_gains : forall f Q dt (c : BiquadCoefficients R), high_pass f Q dt = Ok c ->
  magnitude_at c 0 = 0 /\ magnitude_at c f = Q /\ magnitude_at c (/ (2 * dt)) = 1.
Proof.
  intros f Q dt c H. pose proof (design_ok _ _ _ _ _ H) as (D & Q0 & F & FD & W & TS).
  unfold high_pass, design_build in H. destruct (check_design f Q dt); [discriminate|]. injection H as <-. rnum.
  set (w := 2 * PI * f * dt) in *. destruct (angle_facts w W) as (S & C & SC).
  set (al := Rtrigo_def.sin w / (2 * Q)). assert (AL : 0 < al) by (apply Rdiv_lt_0_compat; lra).
  split; [|split].
  - rewrite magnitude_dc. unfold from_unnormalized; cbn [b0 b1 b2 a1 a2]; rnum.
    replace (_ / _ + _ + _) with 0 at 1 by (field; lra). rewrite Rabs_R0. unfold Rdiv. ring.
  - rewrite magnitude_centre by lra. fold w. rewrite cos_2a, sin_2a.
    set (co := Rtrigo_def.cos w) in *. set (si := Rtrigo_def.sin w) in *.
    replace ((1 + co) * / 2 + - (1 + co) * co + (1 + co) * / 2 * (co * co - si * si)) with (si * si * - co)
      by (replace (co * co - si * si) with (2 * (co * co) - 1) by lra; replace (si * si) with (1 - co * co) by lra; field).
    replace (- (1 + co) * si + (1 + co) * / 2 * (2 * si * co)) with (si * si * - si)
      by (replace (si * si * - si) with (- si * (1 - co * co)) by (replace (1 - co * co) with (si * si) by lra; ring); field).
    replace (1 + al + - (2 * co) * co + (1 - al) * (co * co - si * si)) with (2 * al * si * si)
      by (replace (1 + al + - (2 * co) * co + (1 - al) * (co * co - si * si)) with (1 - (si * si + co * co) + al * (1 - (si * si + co * co)) + 2 * al * si * si) by ring; rewrite SC; ring).
    replace (- (2 * co) * si + (1 - al) * (2 * si * co)) with (2 * al * si * (- co)) by ring.
    rewrite !hyp_scale.
    assert (H1 : hyp si (- co) = 1). { unfold hyp. replace (si * si + - co * - co) with 1 by lra. apply sqrt_1. }
    assert (H2 : hyp (- co) (- si) = 1). { unfold hyp. replace (- co * - co + - si * - si) with 1 by lra. apply sqrt_1. }
    rewrite H1, H2, !Rabs_pos_eq by (unfold al in *; nra). unfold al. field. split; lra.
  - rewrite <- TS at 2. rewrite magnitude_nyquist by (cbn; lra). unfold from_unnormalized; cbn [b0 b1 b2 a1 a2]; rnum.
    set (co := Rtrigo_def.cos w) in *.
    fold al. replace ((1 + co) * / 2 / (1 + al) - - (1 + co) / (1 + al) + (1 + co) * / 2 / (1 + al)) with (2 * (1 + co) / (1 + al)) by (field; lra).
    replace (1 - - (2 * co) / (1 + al) + (1 - al) / (1 + al)) with (2 * (1 + co) / (1 + al)) by (field; lra).
    apply ratio_one. apply Rmult_integral_contrapositive. split; [lra|apply Rinv_neq_0_compat; lra].
Qed.

(** A band-pass passes its centre and removes the two ends; a notch removes its centre and passes the two ends, whenever
    the quality factor leaves the weights defined ([1 + alpha] not zero; the centre of a band-pass also needs [alpha] not zero). *)
Theorem C23_band_pass_gains : forall f Q dt (c : BiquadCoefficients R), band_pass f Q dt = Ok c ->
  Rtrigo1.tan (2 * PI * f * dt / (2 * Q)) <> 0 -> Rtrigo1.tan (2 * PI * f * dt / (2 * Q)) <> -1 ->
  magnitude_at c 0 = 0 /\ magnitude_at c f = 1 /\ magnitude_at c (/ (2 * dt)) = 0.
Proof.
  intros f Q dt c H A0 A1. pose proof (design_ok _ _ _ _ _ H) as (D & Q0 & F & FD & W & TS).
  unfold band_pass, design_build in H. destruct (check_design f Q dt); [discriminate|]. injection H as <-. rnum.
  set (w := 2 * PI * f * dt) in *. destruct (angle_facts w W) as (S & C & SC).
  set (al := Rtrigo1.tan (w / (2 * Q))) in *.
  assert (G0 : 1 + al <> 0) by lra.
  split; [|split].
  - rewrite magnitude_dc. unfold from_unnormalized; cbn [b0 b1 b2 a1 a2]; rnum.
    replace (_ / _ + _ + _) with 0 at 1 by (field; lra). rewrite Rabs_R0. unfold Rdiv. ring.
  - rewrite magnitude_centre by exact G0. fold w. rewrite cos_2a, sin_2a.
    set (co := Rtrigo_def.cos w) in *. set (si := Rtrigo_def.sin w) in *.
    replace (al + 0 * co + - al * (co * co - si * si)) with (2 * al * si * si)
      by (replace (al + 0 * co + - al * (co * co - si * si)) with (al * (1 - (si * si + co * co)) + 2 * al * si * si) by ring; rewrite SC; ring).
    replace (0 * si + - al * (2 * si * co)) with (2 * al * si * - co) by ring.
    replace (1 + al + - (2 * co) * co + (1 - al) * (co * co - si * si)) with (2 * al * si * si)
      by (replace (1 + al + - (2 * co) * co + (1 - al) * (co * co - si * si)) with (1 - (si * si + co * co) + al * (1 - (si * si + co * co)) + 2 * al * si * si) by ring; rewrite SC; ring).
    replace (- (2 * co) * si + (1 - al) * (2 * si * co)) with (2 * al * si * (- co)) by ring.
    apply Rinv_r. intros E. apply hyp_0 in E as [E _].
    apply Rmult_integral in E as [E|E]; [|lra]. apply Rmult_integral in E as [E|E]; [|lra]. apply Rmult_integral in E as [E|E]; lra.
  - rewrite <- TS at 2. rewrite magnitude_nyquist by (cbn; lra). unfold from_unnormalized; cbn [b0 b1 b2 a1 a2]; rnum.
    replace (_ - _ + _) with 0 at 1 by (field; lra). rewrite Rabs_R0. unfold Rdiv. ring.
Qed.

Theorem C23_notch_gains : forall f Q dt (c : BiquadCoefficients R), notch f Q dt = Ok c ->
  Rtrigo1.tan (2 * PI * f * dt / (2 * Q)) <> -1 ->
  magnitude_at c 0 = 1 /\ magnitude_at c f = 0 /\ magnitude_at c (/ (2 * dt)) = 1.
Proof.
  intros f Q dt c H A1. pose proof (design_ok _ _ _ _ _ H) as (D & Q0 & F & FD & W & TS).
  unfold notch, design_build in H. destruct (check_design f Q dt); [discriminate|]. injection H as <-. rnum.
  set (w := 2 * PI * f * dt) in *. destruct (angle_facts w W) as (S & C & SC).
  set (al := Rtrigo1.tan (w / (2 * Q))) in *.
  assert (G0 : 1 + al <> 0) by lra.
  split; [|split].
  - rewrite magnitude_dc. unfold from_unnormalized; cbn [b0 b1 b2 a1 a2]; rnum. set (co := Rtrigo_def.cos w) in *.
    replace (1 / (1 + al) + - (2 * co) / (1 + al) + 1 / (1 + al)) with (2 * (1 - co) / (1 + al)) by (field; lra).
    replace (1 + - (2 * co) / (1 + al) + (1 - al) / (1 + al)) with (2 * (1 - co) / (1 + al)) by (field; lra).
    apply ratio_one. apply Rmult_integral_contrapositive. split; [lra|apply Rinv_neq_0_compat; lra].
  - rewrite magnitude_centre by exact G0. fold w. rewrite cos_2a, sin_2a.
    set (co := Rtrigo_def.cos w) in *. set (si := Rtrigo_def.sin w) in *.
    replace (1 + - (2 * co) * co + 1 * (co * co - si * si)) with 0 by lra.
    replace (- (2 * co) * si + 1 * (2 * si * co)) with 0 by ring.
    replace (hyp 0 0) with 0 by (symmetry; apply hyp_0; auto). unfold Rdiv. ring.
  - rewrite <- TS at 2. rewrite magnitude_nyquist by (cbn; lra). unfold from_unnormalized; cbn [b0 b1 b2 a1 a2]; rnum. set (co := Rtrigo_def.cos w) in *.
    fold al. replace (1 / (1 + al) - - (2 * co) / (1 + al) + 1 / (1 + al)) with (2 * (1 + co) / (1 + al)) by (field; lra).
    replace (1 - - (2 * co) / (1 + al) + (1 - al) / (1 + al)) with (2 * (1 + co) / (1 + al)) by (field; lra).
    apply ratio_one. apply Rmult_integral_contrapositive. split; [lra|apply Rinv_neq_0_compat; lra].
Qed.

(** ** C24 *)
Lemma stable_dc c : is_stable c = true -> dc_defined c.
Proof. intros H. apply stable_iff in H as [H1 H2]. unfold dc_defined. rewrite Rabs_lt_iff in H1, H2. lra. Qed.

Theorem C24_settle_biquad : forall (s : Biquad R) (v : R) (n : nat), 1 + a1 (bq_coef s) + a2 (bq_coef s) <> 0 ->
  let c := bq_coef s in
  let settled := v * ((b0 c + b1 c + b2 c) / (1 + a1 c + a2 c)) in
  outputs biquad_filter (biquad_settle_to s v) (repeat v n) = repeat settled n /\
  bq_last (biquad_settle_to s v) = settled /\ bq_coef (biquad_settle_to s v) = c.
Proof.
  intros s v n H. cbv zeta. destruct (settle_fixed s v H) as [E1 E2]. cbv zeta in *.
  split; [|split; [exact E1|reflexivity]].
  destruct (fixed_point_run biquad_filter _ v _ E2 n) as [F _]. rewrite F, E1. reflexivity.
Qed.

Theorem C24_settle_cascade : forall (ss : list (Biquad R)) (v : R) (n : nat),
  Forall (fun s => 1 + a1 (bq_coef s) + a2 (bq_coef s) <> 0) ss ->
  let gain := fold_left (fun g s => g * ((b0 (bq_coef s) + b1 (bq_coef s) + b2 (bq_coef s)) / (1 + a1 (bq_coef s) + a2 (bq_coef s)))) ss 1 in
  outputs cascade_filter (cascade_settle_to ss v) (repeat v n) = repeat (v * gain) n.
Proof.
  intros ss v n H. cbv zeta.
  destruct (cascade_settle_fixed ss v H) as [E _].
  destruct (fixed_point_run cascade_filter _ v _ E n) as [F _]. rewrite F. f_equal.
  assert (G : forall l x y, fold_left (fun acc s => acc * dc_gain (bq_coef s)) l (x * y) = x * fold_left (fun acc s => acc * dc_gain (bq_coef s)) l y).
  { clear. induction l as [|s l IH]; intros x y; cbn [fold_left]; [reflexivity|]. rewrite <- IH. f_equal. ring. }
  rewrite <- (Rmult_1_r v) at 1. rewrite G. reflexivity.
Qed.

(** A stable filter always has a defined zero-frequency gain. *)
Theorem C24_stable_settles : forall c : BiquadCoefficients R, is_stable c = true -> 1 + a1 c + a2 c <> 0.
Proof. exact stable_dc. Qed.

Example C24_example :
  outputs biquad_filter (biquad_settle_to (biquad_new (mkCoef 1 0 0 (-/2) 0 1)) 3) [3; 3] = [6; 6].
Proof.
  destruct (C24_settle_biquad (biquad_new (mkCoef 1 0 0 (-/2) 0 1)) 3 2) as [E _]; cbn; [lra|].
  cbn in E. rewrite E. rlist.
Qed.

(** ** C25 *)
Theorem C25_cascade_is_composition : forall (T : Type) (NT : Num T) (cs : list (BiquadCoefficients T)) (xs : list T),
  outputs cascade_filter (cascade_new cs) xs =
  fold_left (fun signal c => outputs biquad_filter (biquad_new c) signal) cs xs.
Proof.
  intros T NT cs. induction cs as [|c cs IH]; intros xs; [apply cascade_nil|].
  change (cascade_new (c :: cs)) with (biquad_new c :: cascade_new cs). rewrite cascade_compose. apply IH.
Qed.

Theorem C25_set_section : forall (T : Type) (NT : Num T) (ss : list (Biquad T)) (i : nat) (c : BiquadCoefficients T),
  let (ss', r) := cascade_set_section ss i c in
  ((i < length ss)%nat -> r = Ok tt /\ length ss' = length ss /\
     forall j d, (j < length ss)%nat ->
       nth j ss' d = if Nat.eqb j i
                     then mkBiquad c (bq_s1 (nth i ss d)) (bq_s2 (nth i ss d)) (bq_last (nth i ss d))
                     else nth j ss d) /\
  ((length ss <= i)%nat -> r = Err SigSectionIndexOutOfRange /\ ss' = ss).
Proof.
  intros T NT ss i c. unfold cascade_set_section.
  destruct (nth_error ss i) as [s|] eqn:E.
  - assert (L : (i < length ss)%nat) by (apply nth_error_Some; congruence).
    split; [|lia]. intros _. split; [reflexivity|]. split; [apply set_nth_length|].
    intros j d Hj. destruct (Nat.eqb_spec j i) as [->|N].
    + rewrite nth_set_nth_eq by exact L. rewrite (nth_error_nth ss i d E). reflexivity.
    + rewrite nth_set_nth_neq by auto. reflexivity.
  - assert (L : (length ss <= i)%nat) by (apply nth_error_None; exact E).
    split; [lia|]. intros _. split; reflexivity.
Qed.

Example C25_example : outputs cascade_filter (cascade_new [mkCoef 2 0 0 0 0 1; mkCoef 0 1 0 0 0 1]) [1; 5; 7] = [0; 2; 10].
Proof. unfold outputs. cbn. rnum. rlist. Qed.

(** ** C70 *)
Theorem C70_steady_oscillation : forall (cs : list (BiquadCoefficients R)) (dt f amplitude phase : R),
  Forall (fun c => bq_timestep c = dt) cs -> cascade_is_stable (cascade_new cs) = true ->
  let input n := amplitude * Rtrigo_def.cos (2 * PI * f * (INR n * dt) + phase) in
  exists K r, 0 <= r < 1 /\ forall N n, (n < N)%nat ->
    let output := nth n (outputs cascade_filter (cascade_new cs) (map input (seq 0 N))) 0 in
    Rabs (output - amplitude * cascade_magnitude_at (cascade_new cs) f *
                     Rtrigo_def.cos (2 * PI * f * (INR n * dt) + phase + cascade_phase_at (cascade_new cs) f)) <= K * r ^ n.
Proof.
  intros cs dt f amp ph HT HS input.
  assert (Hu : approaches input (wave amp (2 * PI * f * dt) ph)).
  { exists 0, 0. split; [lra|]. intros n. unfold input, wave.
    replace (2 * PI * f * (INR n * dt)) with (2 * PI * f * dt * INR n) by ring.
    replace (_ - _) with 0 by ring. rewrite Rabs_R0. lra. }
  destruct (cascade_oscillation dt f cs input amp ph HT HS Hu) as (v & Ev & K & r & Hr & Hv).
  exists K, r. split; [exact Hr|]. intros N n Hn. cbv zeta. rewrite Ev.
  replace (nth n (map v (seq 0 N)) 0) with (v n).
  2:{ rewrite (nth_indep _ 0 (v 0%nat)) by (rewrite map_length, seq_length; exact Hn).
      rewrite map_nth, seq_nth by exact Hn. reflexivity. }
  specialize (Hv n). unfold wave in Hv.
  assert (FM : forall l g, fold_left (fun g s => (g * magnitude_at (bq_coef s) f)) (cascade_new l) g = fold_left (fun g c => g * magnitude_at c f) l g).
  { clear. induction l as [|c l IH]; intros g; [reflexivity|]. cbn. apply IH. }
  assert (FP : forall l g, fold_left (fun g s => (g + phase_at (bq_coef s) f)) (cascade_new l) g = fold_left (fun g c => g + phase_at c f) l g).
  { clear. induction l as [|c l IH]; intros g; [reflexivity|]. cbn. apply IH. }
  unfold cascade_magnitude_at, cascade_phase_at. rnum. rewrite FM, FP.
  replace (2 * PI * f * (INR n * dt) + ph + fold_left (fun g c => g + phase_at c f) cs 0)
    with (2 * PI * f * dt * INR n + (ph + fold_left (fun g c => g + phase_at c f) cs 0)) by ring.
  exact Hv.
Qed.

Example C70_example : Forall (fun c : BiquadCoefficients R => bq_timestep c = 1) [mkCoef 1 0 0 (-/2) 0 1; mkCoef 1 1 0 (-1) (/2) 1] /\
  cascade_is_stable (cascade_new [mkCoef 1 0 0 (-/2) 0 1; mkCoef 1 1 0 (-1) (/2) 1]) = true.
Proof.
  split; [repeat constructor|]. cbn [cascade_new map cascade_is_stable forallb biquad_new bq_coef].
  rewrite !andb_true_iff; repeat split; unfold is_stable; rnum; cbn [a1 a2]; apply andb_true_iff; split; apply Rltb_true; rewrite Rabs_lt_iff; lra.
Qed.

Print Assumptions C19_difference_equation.
Print Assumptions C20_cascade_linear.
Print Assumptions C20_channels_independent.
Print Assumptions C21_stable_iff_poles_inside.
Print Assumptions C21_stable_bounded.
Print Assumptions C22_designs_stable_refuted.
Print Assumptions C22_designs_stable_partial.
Print Assumptions C23_low_pass_gains.
Print Assumptions C23_notch_gains.
Print Assumptions C24_settle_cascade.
Print Assumptions C25_set_section.
Print Assumptions C70_steady_oscillation.
