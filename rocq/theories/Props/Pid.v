(** C62 - C65, C73: the PID controller. *)
From Coq Require Import ZArith List Bool Reals Lra Lia.
From Flocq Require Import Core IEEE754.BinarySingleNaN.
From Verif Require Import Base.Scalar Base.RNum Base.XNum Base.FNum Base.FloatOps Model.Errors Model.Conditioning Model.Pid
  Spec.Stream Spec.Control Proofs.Pid.
Import ListNotations.
Local Open Scope R_scope.

(** ** C62 *)

(** Every output lies within the limits last asked for: any calls in any order, any floats fed in. *)
Theorem C62_output_in_limits_f64 : forall (lm : Libm f64) (lo hi : f64) c setpoint measurement,
  @controller f64 (f64num lm) (fun _ => True) lo hi c ->
  let output := snd (@pid_update f64 (f64num lm) c setpoint measurement) in
  Bleb lo output = true /\ Bleb output hi = true.
Proof.
  intros lm lo hi c sp m C. destruct (limits_sane 53 1024 _ _ _ _ lm _ _ _ _ C) as (A & B & D).
  destruct (@controller_limits _ (f64num lm) _ _ _ _ C) as [E F].
  unfold pid_update. destruct (one_pole_filter _ _) as [f y]. cbn [snd]. rewrite E, F. apply (flimit 53 1024); auto.
Qed.
Theorem C62_output_in_limits_f32 : forall (lm : Libm f32) (lo hi : f32) c setpoint measurement,
  @controller f32 (f32num lm) (fun _ => True) lo hi c ->
  let output := snd (@pid_update f32 (f32num lm) c setpoint measurement) in
  Bleb lo output = true /\ Bleb output hi = true.
Proof.
  intros lm lo hi c sp m C. destruct (limits_sane 24 128 _ _ _ _ lm _ _ _ _ C) as (A & B & D).
  destruct (@controller_limits _ (f32num lm) _ _ _ _ C) as [E F].
  unfold pid_update. destruct (one_pole_filter _ _) as [f y]. cbn [snd]. rewrite E, F. apply (flimit 24 128); auto.
Qed.

Lemma ok_ex {A E} (x : Res A E) (P : A -> Prop) : match x with Ok r => P r | _ => False end -> exists r, x = Ok r /\ P r.
Proof. destruct x; try contradiction. eauto. Qed.

(** A NaN measurement with limits -1 and 1 drives the output to the lower limit, and 100 to the upper. *)
Example C62_example : forall lm : Libm f64,
  let NT := f64num lm in
  exists c0 c, pid_new (F64 1 0) (F64 0 0) (F64 0 0) (F64 1 0) = Ok c0 /\
    pid_with_output_limits c0 (F64 (-1) 0) (F64 1 0) = Ok c /\
    controller (fun _ => True) (F64 (-1) 0) (F64 1 0) c /\
    Beqb (snd (pid_update c (F64 0 0) (B754_nan : f64))) (F64 (-1) 0) = true /\ Beqb (snd (pid_update c (F64 100 0) (F64 0 0))) (F64 1 0) = true.
Proof.
  intros lm NT.
  destruct (ok_ex (pid_new (F64 1 0) (F64 0 0) (F64 0 0) (F64 1 0)) (fun c0 => match pid_with_output_limits c0 (F64 (-1) 0) (F64 1 0) with
    | Ok c => Beqb (snd (pid_update c (F64 0 0) (B754_nan : f64))) (F64 (-1) 0) = true /\ Beqb (snd (pid_update c (F64 100 0) (F64 0 0))) (F64 1 0) = true
    | _ => False end)) as (c0 & A & H).
  { vm_compute. split; reflexivity. }
  destruct (pid_with_output_limits c0 _ _) as [c | |] eqn:B; try contradiction.
  exists c0, c. split; [exact A |]. split; [exact B |]. split; [| exact H].
  exact (ctl_limits _ _ _ _ _ _ _ (ctl_new _ _ _ _ _ _ A) B).
Qed.

(** ** C63 *)

(** The integral is held exactly when the command without limits is beyond a limit and the error has the
    sign of that limit; otherwise it takes one step of gain * error * timestep.  Exact arithmetic,
    any finite history. *)
Theorem C63_integral : forall lo hi c setpoint measurement,
  controller finite lo hi c ->
  exists integral gain timestep command integral',
    pd_integral c = Fin integral /\ pd_integral_gain c = Fin gain /\ pd_timestep c = Fin timestep /\
    unlimited_command c (Fin setpoint) (Fin measurement) (Fin command) /\
    pd_integral (fst (pid_update c (Fin setpoint) (Fin measurement))) = Fin integral' /\
    let error := setpoint - measurement in
    let beyond_high := xlt hi (Fin command) = true in
    let beyond_low := xlt (Fin command) lo = true in
    ((beyond_high /\ 0 < error) \/ (beyond_low /\ error < 0) -> integral' = integral) /\
    (~ ((beyond_high /\ 0 < error) \/ (beyond_low /\ error < 0)) -> integral' = integral + gain * error * timestep).
Proof.
  intros lo hi c sp m C.
  destruct (controller_wf _ _ _ C) as (SN & kp & ki & kd & dt & I & s & x & init & pm & pe & hp & -> & D & S).
  set (u := demand kp ki kd dt I s x init pm hp sp m).
  exists I, ki, dt, u, (if deeper lo hi u (sp - m) then I else I + ki * (sp - m) * dt).
  do 3 (split; [reflexivity |]). split; [apply unlimited_ex; lra |].
  split; [rewrite update_st by lra; reflexivity |]. cbv zeta. unfold deeper.
  destruct (xlt hi (Fin u)), (xlt (Fin u) lo), (Rltb 0 (sp - m)) eqn:P, (Rltb (sp - m) 0) eqn:Q; cbn; rcases;
    split; intros H; try reflexivity; exfalso;
    first [ apply H; tauto | destruct H as [[H1 H2] | [H1 H2]]; try discriminate; lra ].
Qed.

(** The same in f64 with its rounding, for any history at all, wherever the command without limits is a number. *)
Theorem C63_integral_f64 : forall (lm : Libm f64) (lo hi : f64) c setpoint measurement command,
  let NT := f64num lm in
  controller (fun _ => True) lo hi c ->
  unlimited_command c setpoint measurement command -> ffinite command = true ->
  let error := Bminus mode_NE setpoint measurement in
  let integral' := pd_integral (fst (pid_update c setpoint measurement)) in
  let pushing := (Bltb hi command = true /\ Bltb (F64 0 0) error = true) \/
                 (Bltb command lo = true /\ Bltb error (F64 0 0) = true) in
  (pushing -> integral' = pd_integral c) /\
  (~ pushing -> integral' =
     Bplus mode_NE (pd_integral c) (Bmult mode_NE (Bmult mode_NE (pd_integral_gain c) error) (pd_timestep c))).
Proof.
  intros lm lo hi c sp m u NT C (free & Fr & U) Fu. destruct (controller_limits _ _ _ _ C) as [E F].
  unfold pid_with_output_limits in Fr.
  change (@is_nan f64 NT neg_infinity) with false in Fr. change (@is_nan f64 NT infinity) with false in Fr. cbn [orb] in Fr.
  change (@ltb f64 NT infinity neg_infinity) with false in Fr. cbn iota in Fr. inversion Fr as [G]. subst free. clear Fr.
  revert U. unfold pid_update.
  cbn [pd_proportional_gain pd_integral_gain pd_derivative_gain pd_timestep pd_output_minimum pd_output_maximum
       pd_integral pd_derivative_filter pd_previous_measurement pd_previous_error pd_has_previous_measurement].
  destruct (one_pole_filter _ _) as [f y]. cbn [snd fst pd_integral]. rewrite E, F.
  change (@sub f64 NT) with (@Bminus 53 1024 _ _ mode_NE). change (@add f64 NT) with (@Bplus 53 1024 _ _ mode_NE).
  change (@mul f64 NT) with (@Bmult 53 1024 _ _ mode_NE).
  match goal with |- min (max ?v _) _ = _ -> _ => set (w := v) end.
  intros U. assert (w = u) as ->.
  { clearbody w. subst u. revert Fu. change (@max f64 NT) with (@fmax 53 1024). change (@min f64 NT) with (@fmin 53 1024).
    unfold fmin, fmax. destruct w as [b | b | | b mm ee B]; cbn; try destruct b; cbn; intros K; try reflexivity; discriminate. }
  change (@zero f64 NT) with (F64 0 0). change (@ltb f64 NT) with (@Bltb 53 1024).
  destruct (Bltb hi u), (Bltb u lo), (Bltb (F64 0 0) (Bminus mode_NE sp m)), (Bltb (Bminus mode_NE sp m) (F64 0 0));
    cbn; split; intros H; try reflexivity; exfalso;
    first [ apply H; tauto | destruct H as [[H1 H2] | [H1 H2]]; discriminate ].
Qed.

Definition step (c : Pid XR) (p : R * R) : Pid XR * XR := pid_update c (Fin (fst p)) (Fin (snd p)).
Definition run (c : Pid XR) (h : list (event (R * R))) : Pid XR := replay step pid_reset c h.

(** Consequence: with non-negative gains and no derivative action the integral itself never leaves the limits,
    however long the output stays saturated. *)
Theorem C63_never_winds_up : forall kp ki dt lo hi c0 c (h : list (event (R * R))),
  0 <= kp -> 0 <= ki -> lo <= 0 <= hi ->
  pid_new (Fin kp) (Fin ki) (Fin 0) (Fin dt) = Ok c0 -> pid_with_output_limits c0 (Fin lo) (Fin hi) = Ok c ->
  exists integral, pd_integral (run c h) = Fin integral /\ lo <= integral <= hi.
Proof.
  intros kp ki dt lo hi c0 c h Kp Ki L N W.
  assert (W0 : c = st kp ki 0 dt (Fin lo) (Fin hi) 0 1 0 false 0 0 false /\ 0 < dt).
  { unfold pid_new in N. cbn in N. destruct (Rleb dt 0) eqn:D; [discriminate |].
    destruct (Rltb 1 0) eqn:X; [rcases; lra |]. destruct (Rltb 1 1) eqn:X1; [rcases; lra |]. cbn in N.
    injection N as <-. unfold pid_with_output_limits in W. cbn in W. destruct (Rltb hi lo); [discriminate |].
    injection W as <-. rcases. split; [reflexivity | lra]. }
  destruct W0 as [-> D]. clear N W.
  assert (K : exists I s x init pm pe hp, run (st kp ki 0 dt (Fin lo) (Fin hi) 0 1 0 false 0 0 false) h =
             st kp ki 0 dt (Fin lo) (Fin hi) I s x init pm pe hp /\ lo <= I <= hi).
  { induction h as [| e h IH] using rev_ind; [do 7 eexists; split; [reflexivity | lra] |].
    unfold run in *. rewrite replay_snoc. destruct IH as (I & s & x & init & pm & pe & hp & -> & HI).
    destruct e as [[sp m] |].
    - unfold step. cbn [fst snd]. rewrite update_st by lra. cbn [fst]. do 7 eexists. split; [reflexivity |].
      unfold demand, deeper. cbn [xlt]. set (D0 := filtered _ _ _ _).
      assert (0 <= sp - m -> 0 <= kp * (sp - m) /\ 0 <= ki * (sp - m) * dt).
      { intros P. split; [apply Rmult_le_pos; auto | repeat apply Rmult_le_pos; lra]. }
      assert (sp - m <= 0 -> kp * (sp - m) <= 0 /\ ki * (sp - m) * dt <= 0).
      { intros P. assert (0 <= kp * (m - sp)) by (apply Rmult_le_pos; lra).
        assert (0 <= ki * (m - sp) * dt) by (repeat apply Rmult_le_pos; lra). lra. }
      destruct (Rltb hi _) eqn:A, (Rltb 0 (sp - m)) eqn:B, (Rltb _ lo) eqn:CC, (Rltb (sp - m) 0) eqn:E; cbn; rcases;
        try lra; destruct (Rle_lt_dec 0 (sp - m)); lra.
    - do 7 eexists. split; [reflexivity | lra]. }
  destruct K as (I & s & x & init & pm & pe & hp & -> & HI). exists I. split; [reflexivity | exact HI].
Qed.

(** With a negative integral gain the sign of the error is the wrong test: the output sits at its upper
    limit and the integral grows for ever. *)
Theorem C63_negative_gain_refuted : exists c0 c,
  pid_new (Fin 0) (Fin (-1)) (Fin 0) (Fin 1) = Ok c0 /\ pid_with_output_limits c0 (Fin (-1)) (Fin 1) = Ok c /\
  forall n, let now := run c (repeat (Sample (0, 1)) n) in
    snd (step now (0, 1)) = Fin 1 /\ pd_integral now = Fin (INR n).
Proof.
  exists (st 0 (-1) 0 1 NInf PInf 0 1 0 false 0 0 false), (st 0 (-1) 0 1 (Fin (-1)) (Fin 1) 0 1 0 false 0 0 false).
  split. { unfold pid_new. cbn. rdecide. cbn. rdecide. reflexivity. }
  split. { unfold pid_with_output_limits. cbn. rdecide. reflexivity. }
  intros n. cbv zeta.
  assert (K : exists x init pm pe hp, run (st 0 (-1) 0 1 (Fin (-1)) (Fin 1) 0 1 0 false 0 0 false) (repeat (Sample (0, 1)) n)
     = st 0 (-1) 0 1 (Fin (-1)) (Fin 1) (INR n) 1 x init pm pe hp).
  { induction n as [| n IH]; [do 5 eexists; reflexivity |].
    destruct IH as (x & init & pm & pe & hp & IH). replace (S n) with (n + 1)%nat by lia. rewrite repeat_app. cbn [repeat].
    unfold run in *. rewrite replay_snoc, IH. unfold step. cbn [fst snd]. rewrite update_st by lra. cbn [fst].
    do 5 eexists. unfold deeper, demand. cbn [xlt]. pose proof (pos_INR n).
    set (D0 := filtered _ _ _ _). rewrite plus_INR. cbn [INR].
    destruct (Rltb 1 _) eqn:A, (Rltb 0 (0 - 1)) eqn:B, (Rltb _ (-1)) eqn:C, (Rltb (0 - 1) 0) eqn:E; cbn; rcases; try lra;
      f_equal; f_equal; lra. }
  destruct K as (x & init & pm & pe & hp & ->). split; [| reflexivity].
  unfold step. cbn [fst snd]. rewrite update_st by lra. cbn [snd]. unfold demand. rewrite xmax_fin, xmin_fin. f_equal.
  pose proof (pos_INR n). rewrite Rmax_left, Rmin_right; lra.
Qed.

Example C63_example : exists c0 c, pid_new (Fin 1) (Fin 1) (Fin 0) (Fin 1) = Ok c0 /\
  pid_with_output_limits c0 (Fin (-1)) (Fin 1) = Ok c /\
  pd_integral (run c [Sample (1/4, 0); Sample (1, 0)]) = Fin (1/4) /\
  controller finite (Fin (-1)) (Fin 1) (run c [Sample (1/4, 0)]).
Proof.
  exists (st 1 1 0 1 NInf PInf 0 1 0 false 0 0 false), (st 1 1 0 1 (Fin (-1)) (Fin 1) 0 1 0 false 0 0 false).
  assert (A : pid_new (Fin 1) (Fin 1) (Fin 0) (Fin 1) = Ok (st 1 1 0 1 NInf PInf 0 1 0 false 0 0 false)).
  { unfold pid_new. cbn. rdecide. cbn. rdecide. reflexivity. }
  assert (B : pid_with_output_limits (st 1 1 0 1 NInf PInf 0 1 0 false 0 0 false) (Fin (-1)) (Fin 1)
     = Ok (st 1 1 0 1 (Fin (-1)) (Fin 1) 0 1 0 false 0 0 false)).
  { unfold pid_with_output_limits. cbn. rdecide. reflexivity. }
  repeat split; auto.
  - unfold run, replay. cbn [fold_left]. unfold step. cbn [fst snd]. rewrite update_st by lra. cbn [fst].
    unfold demand, deeper, filtered, raw. cbn [xlt]. rdecide. cbn [andb orb]. rewrite update_st by lra. cbn [fst].
    unfold demand, deeper, filtered, raw. cbn [xlt]. rdecide. cbn. f_equal; lra.
  - unfold run, replay. cbn [fold_left]. unfold step. apply ctl_update; try (eexists; reflexivity).
    eapply ctl_limits; [eapply ctl_new; exact A | exact B].
Qed.

(** ** C64 *)

(** Whatever the controller did before, after a handover at (output, setpoint, measurement) the next update with
    that pair returns that output if it lies within the limits.  Exact arithmetic. *)
Theorem C64_handover_partial : forall lo hi c c' output setpoint measurement,
  controller finite lo hi c -> xle lo (Fin output) = true -> xle (Fin output) hi = true ->
  pid_resume_from c (Fin output) (Fin setpoint) (Fin measurement) = Ok c' ->
  snd (pid_update c' (Fin setpoint) (Fin measurement)) = Fin output.
Proof.
  intros lo hi c c' o sp m C L1 L2 H.
  destruct (controller_wf _ _ _ C) as (SN & kp & ki & kd & dt & I & s & x & init & pm & pe & hp & -> & D & S).
  unfold pid_resume_from in H. cbn in H. inversion H. subst c'.
  change (snd (pid_update (st kp ki kd dt lo hi (o + - (kp * (sp + - m)) + - (ki * (sp + - m) * dt)) s 0 false m (sp + - m) true)
     (Fin sp) (Fin m)) = Fin o).
  rewrite update_st by lra. cbn [snd]. unfold demand, filtered, raw.
  replace (kp * (sp - m) + (o + - (kp * (sp + - m)) + - (ki * (sp + - m) * dt) + ki * (sp - m) * dt) + kd * ((m - m) / dt)) with o
    by (field; lra).
  destruct (limited o lo hi SN) as (_ & _ & K & _). apply K; assumption.
Qed.
(** [resume_from] accepts every finite handover. *)
Theorem C64_accepts : forall c output setpoint measurement, exists c',
  pid_resume_from c (Fin output) (Fin setpoint) (Fin measurement) = Ok c'.
Proof. intros. eexists. reflexivity. Qed.

(** In f64 the rounding is visible: proportional gain 2^54, handed a command of 1 at error 1, answers 0. *)
Theorem C64_handover_f64_refuted : forall lm : Libm f64,
  let NT := f64num lm in
  exists c c', pid_new (F64 1 54) (F64 0 0) (F64 0 0) (F64 1 0) = Ok c /\
    pid_resume_from c (F64 1 0) (F64 1 0) (F64 0 0) = Ok c' /\
    Beqb (snd (pid_update c' (F64 1 0) (F64 0 0))) (F64 0 0) = true.
Proof.
  intros lm NT.
  destruct (ok_ex (pid_new (F64 1 54) (F64 0 0) (F64 0 0) (F64 1 0)) (fun c => match pid_resume_from c (F64 1 0) (F64 1 0) (F64 0 0) with
    | Ok c' => Beqb (snd (pid_update c' (F64 1 0) (F64 0 0))) (F64 0 0) = true | _ => False end)) as (c & A & H).
  { vm_compute. reflexivity. }
  apply ok_ex in H. destruct H as (c' & B & H). exists c, c'. auto.
Qed.

Example C64_example : exists c0 c c', pid_new (Fin 2) (Fin 3) (Fin 5) (Fin (1/10)) = Ok c0 /\
  pid_with_output_limits c0 (Fin (-1)) (Fin 1) = Ok c /\
  pid_resume_from (run c [Sample (4, 1); Sample (4, 2)]) (Fin (1/2)) (Fin 4) (Fin 2) = Ok c' /\
  snd (pid_update c' (Fin 4) (Fin 2)) = Fin (1/2).
Proof.
  assert (A : pid_new (Fin 2) (Fin 3) (Fin 5) (Fin (1/10)) = Ok (st 2 3 5 (1/10) NInf PInf 0 1 0 false 0 0 false)).
  { unfold pid_new. cbn. rdecide. cbn. rdecide. reflexivity. }
  assert (B : pid_with_output_limits (st 2 3 5 (1/10) NInf PInf 0 1 0 false 0 0 false) (Fin (-1)) (Fin 1)
     = Ok (st 2 3 5 (1/10) (Fin (-1)) (Fin 1) 0 1 0 false 0 0 false)).
  { unfold pid_with_output_limits. cbn. rdecide. reflexivity. }
  set (c := st 2 3 5 (1/10) (Fin (-1)) (Fin 1) 0 1 0 false 0 0 false) in *.
  destruct (C64_accepts (run c [Sample (4, 1); Sample (4, 2)]) (1/2) 4 2) as [c' H].
  do 2 eexists. exists c'. split; [exact A |]. split; [exact B |].
  split; [exact H |]. apply (C64_handover_partial (Fin (-1)) (Fin 1) (run c [Sample (4, 1); Sample (4, 2)])); auto.
  - unfold run, replay. cbn [fold_left]. unfold step.
    do 2 (apply ctl_update; try (eexists; reflexivity)).
    eapply ctl_limits; [eapply ctl_new; exact A | exact B].
  - cbn. rdecide. reflexivity.
  - cbn. rdecide. reflexivity.
Qed.

(** ** C65 *)

(** What the next command really changes by, when the gains change between two updates: the proportional and
    derivative changes act on what moved since the last update, the integral change on the whole error. *)
Theorem C65_step_partial : forall lo hi c kp' ki' kd' c' setpoint0 measurement0 setpoint measurement,
  controller finite lo hi c ->
  let c1 := fst (pid_update c (Fin setpoint0) (Fin measurement0)) in
  pid_set_gains c1 (Fin kp') (Fin ki') (Fin kd') = Ok c' ->
  exists kp ki kd dt rate0 rate old,
    pd_proportional_gain c = Fin kp /\ pd_integral_gain c = Fin ki /\ pd_derivative_gain c = Fin kd /\ pd_timestep c = Fin dt /\
    op_state (pd_derivative_filter c1) = Fin rate0 /\
    op_state (pd_derivative_filter (fst (pid_update c1 (Fin setpoint) (Fin measurement)))) = Fin rate /\
    unlimited_command c1 (Fin setpoint) (Fin measurement) (Fin old) /\
    unlimited_command c' (Fin setpoint) (Fin measurement) (Fin (old
      + (kp' - kp) * ((setpoint - measurement) - (setpoint0 - measurement0))
      + (ki' - ki) * (setpoint - measurement) * dt
      + (kd' - kd) * (rate - rate0))).
Proof.
  intros lo hi c kp' ki' kd' c' sp0 m0 sp m C c1 G.
  destruct (controller_wf _ _ _ C) as (SN & kp & ki & kd & dt & I & s & x & init & pm & pe & hp & -> & D & S).
  subst c1. revert G. rewrite !update_st by lra. cbn [fst]. intros G.
  set (I1 := if deeper _ _ _ _ then _ else _) in *. set (r0 := filtered _ _ _ _) in *.
  unfold pid_set_gains in G. cbn in G. inversion G. subst c'. clear G.
  match goal with |- context [unlimited_command {| pd_proportional_gain := _ |}] => idtac end.
  change {| pd_proportional_gain := Fin kp'; pd_integral_gain := Fin ki'; pd_derivative_gain := Fin kd'; pd_timestep := Fin dt;
    pd_output_minimum := lo; pd_output_maximum := hi;
    pd_integral := Fin (I1 + (kp + - kp') * (sp0 - m0) + (kd + - kd') * r0);
    pd_derivative_filter := mkOnePole (Fin s) (Fin r0) true; pd_previous_measurement := Fin m0;
    pd_previous_error := Fin (sp0 - m0); pd_has_previous_measurement := true |}
   with (st kp' ki' kd' dt lo hi (I1 + (kp + - kp') * (sp0 - m0) + (kd + - kd') * r0) s r0 true m0 (sp0 - m0) true).
  exists kp, ki, kd, dt, r0, (filtered s r0 true (raw dt m0 true m)), (demand kp ki kd dt I1 s r0 true m0 true sp m).
  do 5 (split; [reflexivity |]). split; [rewrite update_st by lra; reflexivity |].
  split; [apply unlimited_ex; lra |].
  match goal with |- unlimited_command _ _ _ (Fin ?v) =>
    replace v with (demand kp' ki' kd' dt (I1 + (kp + - kp') * (sp0 - m0) + (kd + - kd') * r0) s r0 true m0 true sp m)
      by (unfold demand; ring) end.
  apply unlimited_ex; lra.
Qed.

(** So a loop that has come to rest (the same pair twice, no derivative smoothing left over) carries on at the same
    command through any change of the proportional and derivative gains. *)
Theorem C65_at_rest_partial : forall lo hi c kp' ki kd' c' setpoint measurement,
  controller finite lo hi c -> op_smoothing (pd_derivative_filter c) = Fin 1 -> pd_integral_gain c = Fin ki ->
  let c1 := fst (pid_update c (Fin setpoint) (Fin measurement)) in
  let c2 := fst (pid_update c1 (Fin setpoint) (Fin measurement)) in
  pid_set_gains c2 (Fin kp') (Fin ki) (Fin kd') = Ok c' ->
  exists old, unlimited_command c2 (Fin setpoint) (Fin measurement) (Fin old) /\
              unlimited_command c' (Fin setpoint) (Fin measurement) (Fin old) /\
              snd (pid_update c' (Fin setpoint) (Fin measurement)) = snd (pid_update c2 (Fin setpoint) (Fin measurement)).
Proof.
  intros lo hi c kp' ki kd' c' sp m C SM KI c1 c2 G.
  destruct (controller_wf _ _ _ C) as (SN & kp & ki0 & kd & dt & I & s & x & init & pm & pe & hp & -> & D & S).
  cbn in SM, KI. inversion SM. inversion KI. subst s ki0. clear SM KI.
  subst c2 c1. revert G. rewrite !update_st by lra. cbn [fst]. rewrite !update_st by lra. cbn [fst].
  set (I1 := if deeper _ _ (demand kp ki kd dt I _ _ _ _ _ _ _) _ then _ else _) in *.
  set (r1 := filtered 1 x init _) in *.
  set (I2 := if deeper _ _ (demand kp ki kd dt I1 _ _ _ _ _ _ _) _ then _ else _) in *.
  replace (filtered 1 r1 true (raw dt m true m)) with 0 by (unfold filtered, raw; field; lra).
  intros G. unfold pid_set_gains in G. cbn in G. inversion G. subst c'. clear G.
  change {| pd_proportional_gain := Fin kp'; pd_integral_gain := Fin ki; pd_derivative_gain := Fin kd'; pd_timestep := Fin dt;
    pd_output_minimum := lo; pd_output_maximum := hi;
    pd_integral := Fin (I2 + (kp + - kp') * (sp - m) + (kd + - kd') * 0);
    pd_derivative_filter := mkOnePole (Fin 1) (Fin 0) true; pd_previous_measurement := Fin m;
    pd_previous_error := Fin (sp - m); pd_has_previous_measurement := true |}
   with (st kp' ki kd' dt lo hi (I2 + (kp + - kp') * (sp - m) + (kd + - kd') * 0) 1 0 true m (sp - m) true).
  exists (demand kp ki kd dt I2 1 0 true m true sp m).
  assert (E : demand kp' ki kd' dt (I2 + (kp + - kp') * (sp - m) + (kd + - kd') * 0) 1 0 true m true sp m =
          demand kp ki kd dt I2 1 0 true m true sp m) by (unfold demand, filtered, raw; field; lra).
  split; [apply unlimited_ex; lra |]. split; [rewrite <- E; apply unlimited_ex; lra |].
  rewrite !update_st by lra. cbn [snd]. rewrite E. reflexivity.
Qed.

(** A new integral gain does step the output: at a constant error of 1 with all gains zero the command is 0, and the
    first update after setting only the integral gain to 1 returns 1. *)
Theorem C65_integral_gain_refuted : forall lm : Libm f64,
  let NT := f64num lm in
  exists c c', pid_new (F64 0 0) (F64 0 0) (F64 0 0) (F64 1 0) = Ok c /\
    let c1 := fst (pid_update c (F64 1 0) (F64 0 0)) in
    pid_set_gains c1 (F64 0 0) (F64 1 0) (F64 0 0) = Ok c' /\
    Beqb (snd (pid_update c1 (F64 1 0) (F64 0 0))) (F64 0 0) = true /\
    Beqb (snd (pid_update c' (F64 1 0) (F64 0 0))) (F64 1 0) = true.
Proof.
  intros lm NT.
  destruct (ok_ex (pid_new (F64 0 0) (F64 0 0) (F64 0 0) (F64 1 0)) (fun c =>
    let c1 := fst (pid_update c (F64 1 0) (F64 0 0)) in
    match pid_set_gains c1 (F64 0 0) (F64 1 0) (F64 0 0) with
    | Ok c' => Beqb (snd (pid_update c1 (F64 1 0) (F64 0 0))) (F64 0 0) = true /\ Beqb (snd (pid_update c' (F64 1 0) (F64 0 0))) (F64 1 0) = true | _ => False end)) as (c & A & H).
  { vm_compute. split; reflexivity. }
  apply ok_ex in H. destruct H as (c' & B & H). exists c, c'. auto.
Qed.
(** So does a new derivative gain, once the measurement stops moving: the command the old gains would have given is 0,
    the new ones give 1 although the error is zero throughout. *)
Theorem C65_derivative_gain_refuted : forall lm : Libm f64,
  let NT := f64num lm in
  exists c c', pid_new (F64 0 0) (F64 0 0) (F64 0 0) (F64 1 0) = Ok c /\
    let c1 := fst (pid_update (fst (pid_update c (F64 0 0) (F64 0 0))) (F64 1 0) (F64 1 0)) in
    pid_set_gains c1 (F64 0 0) (F64 0 0) (F64 1 0) = Ok c' /\
    Beqb (snd (pid_update c1 (F64 1 0) (F64 1 0))) (F64 0 0) = true /\
    Beqb (snd (pid_update c' (F64 1 0) (F64 1 0))) (F64 1 0) = true.
Proof.
  intros lm NT.
  destruct (ok_ex (pid_new (F64 0 0) (F64 0 0) (F64 0 0) (F64 1 0)) (fun c =>
    let c1 := fst (pid_update (fst (pid_update c (F64 0 0) (F64 0 0))) (F64 1 0) (F64 1 0)) in
    match pid_set_gains c1 (F64 0 0) (F64 0 0) (F64 1 0) with
    | Ok c' => Beqb (snd (pid_update c1 (F64 1 0) (F64 1 0))) (F64 0 0) = true /\ Beqb (snd (pid_update c' (F64 1 0) (F64 1 0))) (F64 1 0) = true | _ => False end)) as (c & A & H).
  { vm_compute. split; reflexivity. }
  apply ok_ex in H. destruct H as (c' & B & H). exists c, c'. auto.
Qed.

Example C65_example : exists c c', pid_new (Fin 2) (Fin 3) (Fin 5) (Fin 1) = Ok c /\
  controller finite NInf PInf c /\ op_smoothing (pd_derivative_filter c) = Fin 1 /\
  let c2 := run c [Sample (1, 0); Sample (1, 0)] in
  pid_set_gains c2 (Fin 7) (Fin 3) (Fin (-1)) = Ok c' /\
  snd (step c2 (1, 0)) = Fin 11 /\ snd (step c' (1, 0)) = Fin 11.
Proof.
  assert (A : pid_new (Fin 2) (Fin 3) (Fin 5) (Fin 1) = Ok (st 2 3 5 1 NInf PInf 0 1 0 false 0 0 false)).
  { unfold pid_new. cbn. rdecide. cbn. rdecide. reflexivity. }
  do 2 eexists. split; [exact A |]. split; [exact (ctl_new finite _ _ _ _ _ A) |]. split; [reflexivity |]. cbv zeta.
  assert (R : run (st 2 3 5 1 NInf PInf 0 1 0 false 0 0 false) [Sample (1, 0); Sample (1, 0)] =
              st 2 3 5 1 NInf PInf 6 1 0 true 0 1 true).
  { unfold run, replay. cbn [fold_left]. unfold step. cbn [fst snd]. rewrite !update_st by lra. cbn [fst].
    rewrite !update_st by lra. cbn [fst]. unfold filtered, raw, deeper. cbn. unfold st. repeat f_equal; field. }
  rewrite R. split; [reflexivity |]. unfold step. cbn [fst snd]. split.
  - rewrite update_st by lra. cbn. unfold demand, filtered, raw. f_equal. field.
  - change (snd (pid_update (st 7 3 (-1) 1 NInf PInf (6 + (2 + -7) * 1 + (5 + - (-1)) * 0) 1 0 true 0 1 true) (Fin 1) (Fin 0)) = Fin 11).
    rewrite update_st by lra. cbn. unfold demand, filtered, raw. f_equal. field.
Qed.

(** ** C73 *)

Lemma run_keeps kp ki kd dt s lo hi h : dt <> 0 -> exists I x init pm pe hp,
  run (st kp ki kd dt lo hi 0 s 0 false 0 0 false) h = st kp ki kd dt lo hi I s x init pm pe hp.
Proof.
  intros D. induction h as [| e h IH] using rev_ind; [do 6 eexists; reflexivity |].
  unfold run in *. rewrite replay_snoc. destruct IH as (I & x & init & pm & pe & hp & ->). destruct e as [p |].
  - unfold step. rewrite update_st by exact D. do 6 eexists. reflexivity.
  - do 6 eexists. reflexivity.
Qed.

(** Inside its limits the controller is the PID formula over everything since the last reset. *)
Theorem C73_formula : forall kp ki kd dt s lo hi c0 c1 c (h : list (event (R * R))) sample,
  pid_new (Fin kp) (Fin ki) (Fin kd) (Fin dt) = Ok c0 -> pid_with_derivative_filter c0 (Fin s) = Ok c1 ->
  pid_with_output_limits c1 lo hi = Ok c ->
  let history := sample :: rev (since_reset h) in
  (forall n, (n < length history)%nat ->
     xle lo (Fin (pid_formula kp ki kd dt s (skipn n history))) = true /\
     xle (Fin (pid_formula kp ki kd dt s (skipn n history))) hi = true) ->
  snd (step (run c h) sample) = Fin (pid_formula kp ki kd dt s history).
Proof.
  intros kp ki kd dt s lo hi c0 c1 c h sample N Fl W.
  assert (W0 : c = st kp ki kd dt lo hi 0 s 0 false 0 0 false /\ 0 < dt /\ sane lo hi).
  { unfold pid_new in N. cbn in N. destruct (Rleb dt 0) eqn:D; [discriminate |].
    destruct (Rltb 1 0) eqn:X; [rcases; lra |]. destruct (Rltb 1 1) eqn:X1; [rcases; lra |]. cbn in N. injection N as <-.
    unfold pid_with_derivative_filter in Fl. destruct (signal_error _) as [f | e |] eqn:E; try discriminate.
    apply smoothing_ok in E as (s1 & E1 & S2 & ->). inversion E1. subst s1. injection Fl as <-.
    unfold pid_with_output_limits in W. destruct (is_nan lo || is_nan hi) eqn:N1; [discriminate |].
    apply orb_false_elim in N1 as [N1 N2]. destruct (ltb hi lo) eqn:L; [discriminate |]. inversion W. rcases.
    split; [reflexivity | split; [lra | repeat split; auto]]. }
  destruct W0 as (-> & D & SN). clear N Fl W. cbv zeta. intros B.
  set (sum l := fold_right Rplus 0 (map (fun p : R * R => fst p - snd p) l)).
  assert (form : forall (p : R * R) (l : list (R * R)), pid_formula kp ki kd dt s (p :: l) =
     demand kp ki kd dt (ki * dt * sum l) s (smoothed s (fall_rates dt (map snd l)))
       (match l with [] => false | _ => true end) (match l with [] => 0 | q :: _ => snd q end)
       (match l with [] => false | _ => true end) (fst p) (snd p)).
  { intros [a b] l. unfold pid_formula, demand, sum. cbn [map fst snd hd fold_right fall_rates].
    destruct l as [| [a1 b1] l]; cbn [map snd filtered raw fall_rates smoothed fold_right]; ring. }
  assert (rate : forall (p : R * R) (l : list (R * R)), smoothed s (fall_rates dt (map snd (p :: l))) =
     filtered s (smoothed s (fall_rates dt (map snd l))) (match l with [] => false | _ => true end)
       (raw dt (match l with [] => 0 | q :: _ => snd q end) (match l with [] => false | _ => true end) (snd p))).
  { intros [a b] l. cbn [map snd fall_rates]. destruct l as [| [a1 b1] l]; reflexivity. }
  assert (K : exists pe,
     run (st kp ki kd dt lo hi 0 s 0 false 0 0 false) h =
     (let l := rev (since_reset h) in
      st kp ki kd dt lo hi (ki * dt * sum l) s (smoothed s (fall_rates dt (map snd l)))
         (match l with [] => false | _ => true end) (match l with [] => 0 | q :: _ => snd q end)
         pe (match l with [] => false | _ => true end))).
  { assert (B' : forall n, (n < length (rev (since_reset h)))%nat ->
       xle lo (Fin (pid_formula kp ki kd dt s (skipn n (rev (since_reset h))))) = true /\
       xle (Fin (pid_formula kp ki kd dt s (skipn n (rev (since_reset h))))) hi = true).
    { intros n Hn. apply (B (S n)). cbn. lia. }
    clear B. induction h as [| e h IH] using rev_ind.
    - exists 0. cbn. f_equal. ring.
    - rewrite since_reset_snoc in *. unfold run in *. rewrite replay_snoc. destruct e as [p |].
      + rewrite rev_app_distr in *. cbn [rev app] in *.
        destruct IH as [pe ->]. { intros n Hn. apply (B' (S n)). cbn. lia. }
        set (l := rev (since_reset h)) in *. unfold step. rewrite update_st by lra. cbn [fst]. cbv zeta.
        rewrite <- form, <- rate. exists (fst p - snd p). f_equal.
        destruct (B' O ltac:(cbn; lia)) as [B1 B2]. cbn [skipn] in B1, B2.
        assert (deeper lo hi (pid_formula kp ki kd dt s (p :: l)) (fst p - snd p) = false) as ->.
        { unfold deeper. destruct lo as [a | | |], hi as [b | | |]; cbn in *; try discriminate; rcases;
            repeat match goal with |- context [Rltb ?u ?v] => destruct (Rltb u v) eqn:?; cbn end; rcases; try reflexivity; lra. }
        unfold sum. cbn [map fold_right]. ring.
      + cbn [rev]. cbv zeta. exists 0. unfold sum. cbn [map fold_right]. replace (ki * dt * 0) with 0 by ring.
        destruct (run_keeps kp ki kd dt s lo hi h ltac:(lra)) as (I & x & init & pm & pe & hp & E). unfold run in E.
        rewrite E. reflexivity. }
  destruct K as [pe ->]. cbv zeta. unfold step. rewrite update_st by lra. cbn [snd]. rewrite <- form.
  destruct (B O ltac:(cbn; lia)) as [B1 B2]. cbn [skipn] in B1, B2.
  destruct (limited (pid_formula kp ki kd dt s (sample :: rev (since_reset h))) lo hi SN) as (_ & _ & Q & _). apply Q; assumption.
Qed.

Example C73_example : exists c0 c1 c, pid_new (Fin 1) (Fin 2) (Fin 1) (Fin (1/2)) = Ok c0 /\
  pid_with_derivative_filter c0 (Fin (1/2)) = Ok c1 /\ pid_with_output_limits c1 NInf PInf = Ok c /\
  snd (step (run c [Sample (9, 9); Reset; Sample (2, 0)]) (2, 1)) = Fin 3.
Proof.
  assert (A : pid_new (Fin 1) (Fin 2) (Fin 1) (Fin (1/2)) = Ok (st 1 2 1 (1/2) NInf PInf 0 1 0 false 0 0 false)).
  { unfold pid_new. cbn. rdecide. cbn. rdecide. reflexivity. }
  assert (B : pid_with_derivative_filter (st 1 2 1 (1/2) NInf PInf 0 1 0 false 0 0 false) (Fin (1/2)) =
     Ok (st 1 2 1 (1/2) NInf PInf 0 (1/2) 0 false 0 0 false)).
  { unfold pid_with_derivative_filter, one_pole_new. cbn. rdecide. cbn. rdecide. reflexivity. }
  do 3 eexists. split; [exact A |]. split; [exact B |]. split; [reflexivity |].
  rewrite (C73_formula 1 2 1 (1/2) (1/2) NInf PInf _ _ _ _ _ A B eq_refl).
  - f_equal. unfold pid_formula. cbn. field.
  - intros n _. split; reflexivity.
Qed.

Print Assumptions C62_output_in_limits_f64.
Print Assumptions C62_output_in_limits_f32.
Print Assumptions C63_integral.
Print Assumptions C63_integral_f64.
Print Assumptions C63_never_winds_up.
Print Assumptions C63_negative_gain_refuted.
Print Assumptions C64_handover_partial.
Print Assumptions C64_accepts.
Print Assumptions C64_handover_f64_refuted.
Print Assumptions C65_step_partial.
Print Assumptions C65_at_rest_partial.
Print Assumptions C65_integral_gain_refuted.
Print Assumptions C65_derivative_gain_refuted.
Print Assumptions C73_formula.
