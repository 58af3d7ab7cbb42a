(** C30 - C33: deadband, hysteresis, slew limiter, one-pole low-pass. *)
From Coq Require Import ZArith List Bool Reals Lra Lia.
From Flocq Require Import Core IEEE754.BinarySingleNaN.
From Verif Require Import Base.Scalar Base.RNum Base.FNum Base.FloatOps Model.Errors Model.Conditioning Spec.Stream
  Proofs.Conditioning Props.Random.
Import ListNotations.
Local Open Scope R_scope.

(** ** C30 *)

(** Every non-negative threshold is accepted and nothing else. *)
Theorem C30_deadband_accepts : forall thr : R,
  (0 <= thr -> deadband_plain thr = Ok (mkDeadband thr false) /\ deadband_recentered thr = Ok (mkDeadband thr true)) /\
  (thr < 0 -> deadband_plain thr = Err SigNegativeThreshold /\ deadband_recentered thr = Err SigNegativeThreshold).
Proof.
  intros thr. unfold deadband_plain, deadband_recentered, deadband_build. rnum. cbn [negb].
  split; intros H; destruct (Rltb thr 0) eqn:E; rcases; try lra; auto.
Qed.

Theorem C30_deadband_plain : forall (thr x : R) d, deadband_plain thr = Ok d ->
  let y := deadband_apply d x in
  (Rabs x <= thr -> y = 0) /\ (thr < Rabs x -> y = x).
Proof. intros thr x d H. destruct (deadband_law thr false d x H) as (A & B & _). split; auto. Qed.

Theorem C30_deadband_recentered : forall (thr x : R) d, deadband_recentered thr = Ok d ->
  let y := deadband_apply d x in
  (Rabs x <= thr -> y = 0) /\
  (thr < x -> y = x - thr) /\ (x < - thr -> y = x + thr).
Proof.
  intros thr x d H. destruct (deadband_build_ok thr true d H) as [T0 _].
  destruct (deadband_law thr true d x H) as (A & _ & C & _).
  cbv zeta. split; [exact A|]. split; intros K.
  - rewrite (Rabs_right x) in C by lra. destruct (C K eq_refl) as [C1 C2]. revert C1 C2. unfold Rabs. destruct (Rcase_abs _); nra.
  - rewrite (Rabs_left x) in C by lra. destruct (C ltac:(lra) eq_refl) as [C1 C2]. revert C1 C2. unfold Rabs. destruct (Rcase_abs _); nra.
Qed.

(** The re-centred form leaves zero smoothly: outputs are never further apart than inputs. *)
Theorem C30_deadband_recentered_continuous : forall (thr : R) d x y, deadband_recentered thr = Ok d ->
  Rabs (deadband_apply d x - deadband_apply d y) <= Rabs (x - y).
Proof. intros. apply (deadband_lipschitz thr); assumption. Qed.

(** In f64, rounding included: exact zero in the band, unchanged outside for the plain form; the result is
    finite, never larger than the input, never of the opposite sign. *)
Theorem C30_deadband_f64 : forall (lm : Libm f64) (thr x : f64) rec d,
  @deadband_build f64 (f64num lm) thr rec = Ok d -> ffinite x = true ->
  let y := @deadband_apply f64 (f64num lm) d x in
  (Rabs (B2R x) <= B2R thr -> y = B754_zero false) /\
  (B2R thr < Rabs (B2R x) -> rec = false -> y = x) /\
  ffinite y = true /\ 0 <= B2R x * B2R y /\ Rabs (B2R y) <= Rabs (B2R x).
Proof. intros lm thr x rec d H Fx. exact (deadband_float 53 1024 _ _ lm thr rec d x H Fx). Qed.

Example C30_example : exists d, deadband_recentered (1/10) = Ok d /\
  deadband_apply d (1/2) = 2/5 /\ deadband_apply d (-1/2) = -2/5 /\ deadband_apply d (1/20) = 0.
Proof.
  exists (mkDeadband (1/10) true). split; [apply C30_deadband_accepts; lra|].
  assert (H : deadband_recentered (1/10) = Ok (mkDeadband (1/10) true)) by (apply C30_deadband_accepts; lra).
  repeat split.
  - destruct (C30_deadband_recentered _ (1/2) _ H) as (_ & -> & _); lra.
  - destruct (C30_deadband_recentered _ (-1/2) _ H) as (_ & _ & ->); lra.
  - destruct (C30_deadband_recentered _ (1/20) _ H) as (-> & _ & _); [reflexivity|]. rewrite Rabs_right; lra.
Qed.
Example C30_example_f64 : exists d, @deadband_build f64 (f64num some_libm) (F64 1 (-3)) true = Ok d /\
  B2SF (@deadband_apply f64 (f64num some_libm) d (F64 3 0)) = B2SF (F64 23 (-3)).
Proof. exists (mkDeadband (F64 1 (-3)) true). split; [reflexivity|vm_compute; reflexivity]. Qed.

(** ** C31: for any scalar, NaN samples included.  The answer after a history is set by the last sample since the
    last reset that was outside the thresholds, and is no if there was none. *)
Theorem C31_hysteresis : forall (T : Type) (NT : Num T) (lower upper : T) h0 (hist : list (event T)),
  hysteresis_new lower upper = Ok h0 ->
  let answer := hy_is_high (replay hysteresis_update hysteresis_reset h0 hist) in
  let outside x := ltb upper x = true \/ ltb x lower = true in
  (forall before x after, since_reset hist = before ++ x :: after -> Forall (fun z => ~ outside z) after ->
     (ltb upper x = true -> answer = true) /\
     (ltb x lower = true -> ltb upper x = false -> answer = false)) /\
  (Forall (fun z => ~ outside z) (since_reset hist) -> answer = false).
Proof.
  intros T NT lower upper h0 hist H. cbv zeta.
  assert (E : h0 = mkHysteresis lower upper false).
  { unfold hysteresis_new in H. destruct (_ || _); [discriminate|]. destruct (leb upper lower); inversion H. reflexivity. }
  subst h0. rewrite (hysteresis_history (mkHysteresis lower upper false)) by reflexivity.
  cbn [hy_lower hy_upper hy_is_high].
  set (out := fun x : T => (ltb upper x || ltb x lower)%bool).
  assert (F : forall l, Forall (fun z => ~ (ltb upper z = true \/ ltb z lower = true)) l ->
              forall r, find out (rev l ++ r) = find out r).
  { induction l as [|a l IH] using rev_ind; intros HF r; [reflexivity|].
    apply Forall_app in HF as [HF Ha]. inversion Ha as [|? ? Ha' _]; subst.
    rewrite rev_app_distr. cbn [rev app find].
    assert (O : out a = false). { unfold out. destruct (ltb upper a), (ltb a lower); auto; exfalso; auto. }
    rewrite O. apply IH; assumption. }
  split.
  - intros before x after -> HF.
    replace (rev (before ++ x :: after)) with (rev after ++ x :: rev before)
      by (rewrite rev_app_distr; cbn; rewrite <- app_assoc; reflexivity).
    rewrite (F after HF). cbn [find]. unfold out. split.
    + intros U. rewrite U. cbn [orb]. exact U.
    + intros L U. rewrite U, L. cbn [orb]. exact U.
  - intros HF. specialize (F _ HF []). rewrite app_nil_r in F. rewrite F. reflexivity.
Qed.

Theorem C31_hysteresis_accepts : forall lower upper : R,
  (lower < upper -> hysteresis_new lower upper = Ok (mkHysteresis lower upper false)) /\
  (upper <= lower -> hysteresis_new lower upper = Err SigThresholdsOutOfOrder).
Proof.
  intros l u. unfold hysteresis_new. rnum. cbn [negb orb].
  split; intros H; destruct (Rleb u l) eqn:E; rcases; try lra; reflexivity.
Qed.

(** NaN in the middle of a run holds the answer. *)
Example C31_example : exists h0, @hysteresis_new f64 (f64num some_libm) (F64 1 (-1)) (F64 3 (-1)) = Ok h0 /\
  hy_is_high (replay (@hysteresis_update f64 (f64num some_libm)) hysteresis_reset h0
     [Sample (F64 0 0); Reset; Sample (F64 2 0); Sample B754_nan; Sample (F64 1 0)]) = true.
Proof. exists (mkHysteresis (F64 1 (-1)) (F64 3 (-1)) false). split; [reflexivity|vm_compute; reflexivity]. Qed.

(** ** C32 *)
Theorem C32_slew_first_sample : forall (T : Type) (NT : Num T) (rise fall dt : T) s0 hist t,
  slew_new rise fall dt = Ok s0 -> since_reset hist = [] ->
  snd (slew_filter (replay slew_filter slew_reset s0 hist) t) = t.
Proof.
  intros T NT rise fall dt s0 hist t H E.
  assert (I0 : sl_initialized s0 = false).
  { unfold slew_new in H. destruct (_ || _ || _)%bool; [discriminate|]. destruct (leb dt zero); [discriminate|].
    destruct (_ || _)%bool; inversion H. reflexivity. }
  assert (I : sl_initialized (replay slew_filter slew_reset s0 hist) = false).
  { revert E. induction hist as [|e h IH] using rev_ind; intros E; [exact I0|].
    rewrite replay_snoc. rewrite since_reset_snoc in E. destruct e; [|reflexivity].
    destruct (since_reset h); discriminate. }
  unfold slew_filter at 1. rewrite I. reflexivity.
Qed.

(** The output after each further sample: from the previous output toward the target, at most the rate times the
    timestep, never beyond the target, and short of it only when at full rate. *)
Theorem C32_slew_step : forall (rise fall dt : R) s0 hist t,
  slew_new rise fall dt = Ok s0 -> since_reset hist <> [] ->
  let s := replay slew_filter slew_reset s0 hist in
  let previous := sl_state s in
  let y := snd (slew_filter s t) in
  (previous <= t -> previous <= y <= t /\ y <= previous + rise * dt /\ (y = t \/ y = previous + rise * dt)) /\
  (t <= previous -> t <= y <= previous /\ previous - fall * dt <= y /\ (y = t \/ y = previous - fall * dt)) /\
  sl_state (fst (slew_filter s t)) = y.
Proof.
  intros rise fall dt s0 hist t H E. cbv zeta.
  destruct (slew_new_ok _ _ _ _ H) as (Hr & Hf & Hd & ->).
  destruct (slew_replay_params (mkSlew rise fall dt 0 false) hist) as (Er & Ef & Ed).
  pose proof (slew_replay_init (mkSlew rise fall dt 0 false) hist eq_refl) as Ei.
  set (s := replay _ _ _ hist) in *. cbn [sl_rise sl_fall sl_timestep] in Er, Ef, Ed.
  destruct (since_reset hist); [congruence|]. cbn [negb] in Ei.
  assert (Pr : 0 < rise * dt) by nra. assert (Pf : 0 < fall * dt) by nra.
  destruct (slew_step s t) as [Ey Es]; rewrite ?Er, ?Ef, ?Ed; auto.
  rewrite Es, Ey, Er, Ef, Ed. cbn [sl_state]. split; [|split]; [| |reflexivity]; intros; rle; try lra.
Qed.

(** A constant target is reached once the samples fed could have covered the distance, and then held for ever. *)
Theorem C32_slew_arrives : forall (rise fall dt : R) s0 hist t n,
  slew_new rise fall dt = Ok s0 -> since_reset hist <> [] ->
  let previous := sl_state (replay slew_filter slew_reset s0 hist) in
  t - previous <= INR n * (rise * dt) -> previous - t <= INR n * (fall * dt) ->
  sl_state (replay slew_filter slew_reset s0 (hist ++ repeat (Sample t) n)) = t.
Proof.
  intros rise fall dt s0 hist t n H E. cbv zeta.
  destruct (slew_new_ok _ _ _ _ H) as (Hr & Hf & Hd & ->).
  destruct (slew_replay_params (mkSlew rise fall dt 0 false) hist) as (Er & Ef & Ed).
  pose proof (slew_replay_init (mkSlew rise fall dt 0 false) hist eq_refl) as Ei.
  unfold replay at 3. rewrite fold_left_app. fold (replay slew_filter slew_reset (mkSlew rise fall dt 0 false) hist).
  set (s := replay _ _ _ hist) in *. cbn [sl_rise sl_fall sl_timestep] in Er, Ef, Ed.
  destruct (since_reset hist); [congruence|]. cbn [negb] in Ei.
  intros H1 H2.
  fold (replay slew_filter slew_reset s (repeat (Sample t) n)).
  rewrite slew_constant by (rewrite ?Er, ?Ef, ?Ed; auto). cbn [sl_state]. rewrite Er, Ef, Ed.
  rle; lra.
Qed.

Theorem C32_slew_accepts : forall rise fall dt : R,
  (0 < rise /\ 0 < fall /\ 0 < dt <-> slew_new rise fall dt = Ok (mkSlew rise fall dt 0 false)) /\
  slew_symmetric rise dt = slew_new rise rise dt.
Proof.
  intros. split; [|reflexivity]. unfold slew_new. rnum. cbn [negb orb]. split.
  - intros (? & ? & ?).
    destruct (Rleb dt 0) eqn:E1, (Rleb rise 0) eqn:E2, (Rleb fall 0) eqn:E3; rcases; try lra. reflexivity.
  - destruct (Rleb dt 0) eqn:E1, (Rleb rise 0) eqn:E2, (Rleb fall 0) eqn:E3; cbn [orb]; try discriminate; rcases; auto.
Qed.

(** Rising at 1 per second in steps of 1/10 s: 1/10 after one further sample, at the target after 20. *)
Example C32_example : exists s0, slew_new 1 2 (1/10) = Ok s0 /\
  snd (slew_filter (replay slew_filter slew_reset s0 [Sample 0]) 2) = 1/10 /\
  sl_state (replay slew_filter slew_reset s0 ([Sample 0] ++ repeat (Sample 2) 20)) = 2.
Proof.
  assert (H : slew_new 1 2 (1/10) = Ok (mkSlew 1 2 (1/10) 0 false)) by (apply C32_slew_accepts; lra).
  assert (E : sl_state (replay slew_filter slew_reset (mkSlew 1 2 (1/10) 0 false) [Sample 0]) = 0) by reflexivity.
  eexists. split; [exact H|]. split.
  - destruct (C32_slew_step _ _ _ _ [Sample 0] 2 H ltac:(discriminate)) as [K _]. rewrite E in K. lra.
  - apply (C32_slew_arrives _ _ _ _ [Sample 0] 2 20 H ltac:(discriminate)); rewrite E; cbn; lra.
Qed.

(** ** C33 *)
Theorem C33_one_pole_accepts : forall sm : R,
  (0 <= sm <= 1 -> one_pole_new sm = Ok (mkOnePole sm 0 false)) /\
  (sm < 0 \/ 1 < sm -> one_pole_new sm = Err SigCoefficientOutOfRange).
Proof.
  intros sm. unfold one_pole_new. rnum. cbn [negb].
  split; intros H; destruct (Rltb sm 0) eqn:E1, (Rltb 1 sm) eqn:E2; rcases; cbn [orb]; try lra; reflexivity.
Qed.

(** Every non-negative cut-off with a positive timestep gives a filter with the documented smoothing, below one. *)
Theorem C33_one_pole_from_cutoff : forall fc dt : R, 0 < dt -> 0 <= fc ->
  let a := 2 * PI * fc * dt in
  one_pole_from_cutoff fc dt = one_pole_new (a / (a + 1)) /\
  one_pole_from_cutoff fc dt = Ok (mkOnePole (a / (a + 1)) 0 false) /\ 0 <= a / (a + 1) < 1.
Proof.
  intros fc dt Hd Hf. cbv zeta. pose proof (one_pole_from_cutoff_ok fc dt Hd Hf) as E. rewrite E.
  assert (Ha : 0 <= 2 * PI * fc * dt) by (pose proof PI_RGT_0; assert (0 <= PI * fc) by nra; nra).
  set (a := 2 * PI * fc * dt) in *.
  assert (B : 0 <= a / (a + 1) < 1).
  { split; [apply Rmult_le_pos; [lra|left; apply Rinv_0_lt_compat; lra]|].
    apply Rmult_lt_reg_r with (a+1); [lra|]. unfold Rdiv. rewrite Rmult_assoc, Rinv_l by lra. lra. }
  repeat split; try apply B. symmetry. apply C33_one_pole_accepts. lra.
Qed.

(** Whatever the history, the output lies between any bounds on the samples since the last reset. *)
Theorem C33_one_pole_range : forall (sm : R) f0 hist lo hi, one_pole_new sm = Ok f0 ->
  since_reset hist <> [] -> Forall (fun x => lo <= x <= hi) (since_reset hist) ->
  lo <= op_state (replay one_pole_filter one_pole_reset f0 hist) <= hi.
Proof.
  intros sm f0 hist lo hi H E HF. destruct (one_pole_new_ok _ _ H) as [Hs ->].
  pose proof (one_pole_range (mkOnePole sm 0 false) hist lo hi Hs eq_refl HF) as K. cbv zeta in K.
  destruct (since_reset hist); [congruence|]. apply K.
Qed.

(** The first sample after a reset comes straight out, and with a smoothing of one so does every sample. *)
Theorem C33_one_pole_passes : forall (sm : R) f0 hist x, one_pole_new sm = Ok f0 ->
  since_reset hist = [] \/ sm = 1 ->
  snd (one_pole_filter (replay one_pole_filter one_pole_reset f0 hist) x) = x.
Proof.
  intros sm f0 hist x H K. destruct (one_pole_new_ok _ _ H) as [Hs ->]. unfold one_pole_filter at 1. cbn [snd].
  rewrite one_pole_replay_smoothing. cbn [op_smoothing]. rnum.
  destruct K as [K| ->].
  - pose proof (one_pole_range (mkOnePole sm 0 false) hist 0 0 Hs eq_refl) as Q. rewrite K in Q.
    rewrite Q by constructor. reflexivity.
  - destruct (op_initialized _); ring.
Qed.

(** A constant input closes the same fraction of the gap at each sample. *)
Theorem C33_one_pole_converges : forall (sm : R) f0 hist c n, one_pole_new sm = Ok f0 ->
  since_reset hist <> [] ->
  op_state (replay one_pole_filter one_pole_reset f0 (hist ++ repeat (Sample c) n)) - c
    = (1 - sm) ^ n * (op_state (replay one_pole_filter one_pole_reset f0 hist) - c).
Proof.
  intros sm f0 hist c n H E. destruct (one_pole_new_ok _ _ H) as [Hs ->].
  assert (HF : exists b, Forall (fun x => - b <= x <= b) (since_reset hist)).
  { generalize (since_reset hist). induction l as [|a l [b IH]].
    - exists 0. constructor.
    - exists (Rmax b (Rabs a)). constructor.
      + unfold Rmax; destruct (Rle_dec b (Rabs a)); unfold Rabs in *; destruct (Rcase_abs a); lra.
      + eapply Forall_impl; [|exact IH]. cbn. intros z Hz. pose proof (Rmax_l b (Rabs a)). lra. }
  destruct HF as [b HF].
  pose proof (one_pole_range (mkOnePole sm 0 false) hist _ _ Hs eq_refl HF) as K. cbv zeta in K.
  unfold replay at 1. rewrite fold_left_app.
  fold (replay one_pole_filter one_pole_reset (mkOnePole sm 0 false) hist).
  destruct (since_reset hist); [congruence|]. destruct K as [K _].
  pose proof (one_pole_constant _ c n K) as Q. rewrite one_pole_replay_smoothing in Q. exact Q.
Qed.

Example C33_example : exists f0, one_pole_new (1/4) = Ok f0 /\
  op_state (replay one_pole_filter one_pole_reset f0 [Sample 7; Reset; Sample 0; Sample 4]) = 1 /\
  op_state (replay one_pole_filter one_pole_reset f0 ([Sample 8] ++ repeat (Sample 4) 2)) - 4 = 9/16 * 4.
Proof.
  assert (H : one_pole_new (1/4) = Ok (mkOnePole (1/4) 0 false)) by (apply C33_one_pole_accepts; lra).
  eexists. split; [exact H|]. split.
  - cbn. lra.
  - rewrite (C33_one_pole_converges _ _ [Sample 8] 4 2 H ltac:(discriminate)). cbn. lra.
Qed.

Print Assumptions C30_deadband_accepts.
Print Assumptions C30_deadband_plain.
Print Assumptions C30_deadband_recentered.
Print Assumptions C30_deadband_recentered_continuous.
Print Assumptions C30_deadband_f64.
Print Assumptions C31_hysteresis.
Print Assumptions C31_hysteresis_accepts.
Print Assumptions C32_slew_first_sample.
Print Assumptions C32_slew_step.
Print Assumptions C32_slew_arrives.
Print Assumptions C32_slew_accepts.
Print Assumptions C33_one_pole_accepts.
Print Assumptions C33_one_pole_from_cutoff.
Print Assumptions C33_one_pole_range.
Print Assumptions C33_one_pole_passes.
Print Assumptions C33_one_pole_converges.
