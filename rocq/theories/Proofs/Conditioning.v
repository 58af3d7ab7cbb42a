From Coq Require Import ZArith List Bool Reals Lra Lia.
From Flocq Require Import Core IEEE754.BinarySingleNaN.
From Verif Require Import Base.Scalar Base.RNum Base.FNum Base.FloatOps Model.Errors Model.Conditioning Spec.Stream.
Import ListNotations.
Local Open Scope R_scope.

Lemma Rcopysign_cases t x : 0 <= t -> Rcopysign t x = if Rlt_dec x 0 then - t else t.
Proof. intros H. unfold Rcopysign. rewrite Rabs_pos_eq by lra. reflexivity. Qed.

Lemma deadband_build_ok thr rec (d : Deadband R) : deadband_build thr rec = Ok d ->
  0 <= thr /\ d = mkDeadband thr rec.
Proof.
  unfold deadband_build. rnum. cbn [negb]. destruct (Rltb thr 0) eqn:E; intros H; inversion H. rcases. auto.
Qed.

Lemma deadband_law thr rec (d : Deadband R) x : deadband_build thr rec = Ok d ->
  let y := deadband_apply d x in
  (Rabs x <= thr -> y = 0) /\
  (thr < Rabs x -> rec = false -> y = x) /\
  (thr < Rabs x -> rec = true -> 0 < x * y /\ Rabs y = Rabs x - thr) /\
  0 <= x * y /\ Rabs y <= Rabs x.
Proof.
  intros H. apply deadband_build_ok in H as [H ->]. cbv zeta.
  unfold deadband_apply; cbn [db_threshold db_recentered]. rnum. rewrite (Rcopysign_cases thr x H).
  destruct (Rleb (Rabs x) thr) eqn:E; rcases.
  - repeat split; intros; try lra. rewrite Rabs_R0. apply Rabs_pos.
  - destruct rec.
    + destruct (Rlt_dec x 0) as [N|N].
      * rewrite (Rabs_left x N) in *. rewrite (Rabs_left (x - - thr)) by lra. repeat split; intros; try discriminate; try lra; nra.
      * rewrite (Rabs_right x) in * by lra. rewrite (Rabs_right (x - thr)) by lra. repeat split; intros; try discriminate; try lra; nra.
    + repeat split; intros; try discriminate; try lra. nra.
Qed.

Lemma deadband_lipschitz thr (d : Deadband R) x y : deadband_recentered thr = Ok d ->
  Rabs (deadband_apply d x - deadband_apply d y) <= Rabs (x - y).
Proof.
  intros H. apply deadband_build_ok in H as [H ->].
  unfold deadband_apply; cbn [db_threshold db_recentered]. rnum. rewrite !(Rcopysign_cases thr _ H).
  destruct (Rleb (Rabs x) thr) eqn:E1, (Rleb (Rabs y) thr) eqn:E2; rcases;
  destruct (Rlt_dec x 0), (Rlt_dec y 0); unfold Rabs in *; repeat destruct (Rcase_abs _); lra.
Qed.

(** hysteresis: law-free *)
Section Hyst.
  Context {T : Type} {NT : Num T}.
  Local Open Scope num_scope.

  Lemma hysteresis_history (h0 : Hysteresis T) (hist : list (event T)) :
    hy_is_high h0 = false ->
    replay hysteresis_update hysteresis_reset h0 hist =
      mkHysteresis (hy_lower h0) (hy_upper h0)
        match find (fun x => (x >? hy_upper h0) || (x <? hy_lower h0)) (rev (since_reset hist)) with
        | None => false
        | Some x => x >? hy_upper h0
        end.
  Proof.
    intros H0. induction hist as [|e hist IH] using rev_ind.
    - destruct h0; cbn in *. subst. reflexivity.
    - rewrite replay_snoc, since_reset_snoc. destruct e as [x|].
      + rewrite rev_app_distr. cbn [rev app find]. rewrite IH.
        unfold hysteresis_update; cbn [fst hy_lower hy_upper hy_is_high].
        destruct (x >? hy_upper h0) eqn:E; cbn [orb]; [rewrite E; reflexivity|].
        destruct (x <? hy_lower h0); [rewrite E|]; reflexivity.
      + rewrite IH. reflexivity.
  Qed.
End Hyst.

(** slew *)
Lemma slew_new_ok rise fall dt (s : SlewRateLimiter R) : slew_new rise fall dt = Ok s ->
  0 < rise /\ 0 < fall /\ 0 < dt /\ s = mkSlew rise fall dt 0 false.
Proof.
  unfold slew_new. rnum. cbn [negb orb].
  destruct (Rleb dt 0) eqn:E; [discriminate|].
  destruct (Rleb rise 0) eqn:E1, (Rleb fall 0) eqn:E2; cbn [orb]; intros H; inversion H; rcases; auto.
Qed.

Lemma slew_replay_params (s : SlewRateLimiter R) h :
  let s' := replay slew_filter slew_reset s h in
  sl_rise s' = sl_rise s /\ sl_fall s' = sl_fall s /\ sl_timestep s' = sl_timestep s.
Proof.
  induction h as [|e h IH] using rev_ind; cbv zeta; [auto|].
  rewrite replay_snoc. cbv zeta in IH. destruct e as [x|]; [|exact IH].
  unfold slew_filter. destruct (negb _); exact IH.
Qed.

Lemma slew_replay_init (s : SlewRateLimiter R) h : sl_initialized s = false ->
  sl_initialized (replay slew_filter slew_reset s h) = negb (match since_reset h with [] => true | _ => false end).
Proof.
  intros H0. induction h as [|e h IH] using rev_ind; [exact H0|].
  rewrite replay_snoc, since_reset_snoc. destruct e as [x|]; [|reflexivity].
  unfold slew_filter at 1. destruct (sl_initialized (replay slew_filter slew_reset s h)) eqn:E;
    cbn [negb fst sl_initialized]; rewrite ?E; destruct (since_reset h); reflexivity.
Qed.

Lemma slew_step (s : SlewRateLimiter R) t :
  0 < sl_rise s -> 0 < sl_fall s -> 0 < sl_timestep s -> sl_initialized s = true ->
  let y := snd (slew_filter s t) in
  y = (if Rle_dec (sl_state s) t then Rmin (sl_state s + sl_rise s * sl_timestep s) t
       else Rmax (sl_state s - sl_fall s * sl_timestep s) t) /\
  fst (slew_filter s t) = mkSlew (sl_rise s) (sl_fall s) (sl_timestep s) y true.
Proof.
  intros Hr Hf Ht Hi. unfold slew_filter. rewrite Hi. cbn [negb]. cbv zeta. cbn [fst snd]. rnum.
  split; [|reflexivity].
  assert (0 < sl_rise s * sl_timestep s) by nra. assert (0 < sl_fall s * sl_timestep s) by nra.
  unfold Rmin, Rmax.
  rdestruct; repeat destruct (Rle_dec _ _); try lra; repeat match goal with H : _ = true |- _ => revert H | H : _ = false |- _ => revert H end; intros; try lra.
Qed.

Lemma slew_constant (s : SlewRateLimiter R) t n :
  0 < sl_rise s -> 0 < sl_fall s -> 0 < sl_timestep s -> sl_initialized s = true ->
  replay slew_filter slew_reset s (repeat (Sample t) n) =
  mkSlew (sl_rise s) (sl_fall s) (sl_timestep s)
    (if Rle_dec (sl_state s) t then Rmin (sl_state s + INR n * (sl_rise s * sl_timestep s)) t
       else Rmax (sl_state s - INR n * (sl_fall s * sl_timestep s)) t) true.
Proof.
  intros Hr Hf Ht Hi.
  assert (Pr : 0 < sl_rise s * sl_timestep s) by nra. assert (Pf : 0 < sl_fall s * sl_timestep s) by nra.
  induction n as [|n IH].
  - destruct s as [r f d st i]; cbn in *. subst i. f_equal.
    destruct (Rle_dec st t); unfold Rmin, Rmax; destruct (Rle_dec _ _); lra.
  - replace (repeat (Sample t) (S n)) with (repeat (Sample t) n ++ [Sample t])
      by (rewrite <- repeat_cons; reflexivity).
    rewrite replay_snoc, IH.
    match goal with |- fst (slew_filter ?s1 t) = _ => pose proof (slew_step s1 t Hr Hf Ht eq_refl) as E end.
    cbv zeta in E. destruct E as [E ->].
    rewrite E. cbn [sl_rise sl_fall sl_timestep sl_state]. f_equal.
    rewrite S_INR.
    assert (0 <= INR n * (sl_rise s * sl_timestep s)) by (apply Rmult_le_pos; [apply pos_INR|lra]).
    assert (0 <= INR n * (sl_fall s * sl_timestep s)) by (apply Rmult_le_pos; [apply pos_INR|lra]).
    rle; lra.
Qed.

(** one-pole *)
Lemma one_pole_new_ok sm (f : OnePole R) : one_pole_new sm = Ok f ->
  0 <= sm <= 1 /\ f = mkOnePole sm 0 false.
Proof.
  unfold one_pole_new. rnum. cbn [negb].
  destruct (Rltb sm 0) eqn:E1, (Rltb 1 sm) eqn:E2; cbn [orb]; intros H; inversion H; rcases; auto.
Qed.

Lemma one_pole_from_cutoff_ok fc dt : 0 < dt -> 0 <= fc ->
  one_pole_from_cutoff fc dt = Ok (mkOnePole (2 * PI * fc * dt / (2 * PI * fc * dt + 1)) 0 false).
Proof.
  intros Hd Hf. unfold one_pole_from_cutoff, one_pole_new. rnum. cbn [negb orb].
  destruct (Rleb dt 0) eqn:E; rcases; [lra|]. destruct (Rltb fc 0) eqn:E1; rcases; [lra|].
  assert (Ha : 0 <= 2 * PI * fc * dt) by (pose proof PI_RGT_0; assert (0 <= PI * fc) by nra; nra).
  set (a := 2 * PI * fc * dt) in *.
  destruct (Rltb (a / (a + 1)) 0) eqn:E2; rcases.
  { exfalso. assert (0 <= a / (a+1)); [|lra]. apply Rmult_le_pos; [lra|]. left. apply Rinv_0_lt_compat. lra. }
  destruct (Rltb 1 (a / (a + 1))) eqn:E3; rcases.
  { exfalso. assert (a / (a+1) <= 1); [|lra]. apply Rmult_le_reg_r with (a+1); [lra|]. unfold Rdiv. rewrite Rmult_assoc, Rinv_l by lra. lra. }
  reflexivity.
Qed.

Lemma one_pole_replay_smoothing (f : OnePole R) h : op_smoothing (replay one_pole_filter one_pole_reset f h) = op_smoothing f.
Proof. induction h as [|[x|] h IH] using rev_ind; [reflexivity| |]; rewrite replay_snoc; exact IH. Qed.

Lemma one_pole_range (f : OnePole R) h lo hi :
  0 <= op_smoothing f <= 1 -> op_initialized f = false ->
  Forall (fun x => lo <= x <= hi) (since_reset h) ->
  let f' := replay one_pole_filter one_pole_reset f h in
  match since_reset h with
  | [] => op_initialized f' = false
  | _ => op_initialized f' = true /\ lo <= op_state f' <= hi
  end.
Proof.
  intros Hs Hi. induction h as [|e h IH] using rev_ind; cbv zeta.
  - intros _. exact Hi.
  - rewrite replay_snoc, since_reset_snoc. destruct e as [x|].
    + intros HF. apply Forall_app in HF as [HF Hx]. inversion Hx as [|? ? Hx' _]; subst.
      specialize (IH HF). cbv zeta in IH.
      pose proof (one_pole_replay_smoothing f h) as Es.
      set (g := replay one_pole_filter one_pole_reset f h) in *.
      destruct (since_reset h) as [|a l].
      * cbn [app]. unfold one_pole_filter. rewrite IH. cbn. auto.
      * cbn [app]. destruct IH as [Ii Ir]. unfold one_pole_filter. rewrite Ii. cbn [fst op_initialized op_state].
        rewrite Es. rnum. split; [reflexivity|]. nra.
    + intros _. reflexivity.
Qed.

Lemma one_pole_constant (f : OnePole R) c n :
  op_initialized f = true ->
  op_state (replay one_pole_filter one_pole_reset f (repeat (Sample c) n)) - c
    = (1 - op_smoothing f) ^ n * (op_state f - c).
Proof.
  intros Hi. 
  assert (H : op_initialized (replay one_pole_filter one_pole_reset f (repeat (Sample c) n)) = true /\
    op_state (replay one_pole_filter one_pole_reset f (repeat (Sample c) n)) - c
    = (1 - op_smoothing f) ^ n * (op_state f - c)); [|apply H].
  induction n as [|n [Ii IH]]; [cbn; split; [exact Hi|lra]|].
  replace (repeat (Sample c) (S n)) with (repeat (Sample c) n ++ [Sample c]) by (rewrite <- repeat_cons; reflexivity).
  rewrite replay_snoc. pose proof (one_pole_replay_smoothing f (repeat (Sample c) n)) as Es.
  set (g := replay _ _ _ _) in *. unfold one_pole_filter. cbn [fst op_initialized op_state].
  rewrite Ii, Es. split; [reflexivity|]. rnum. cbn [pow].
  replace (op_state g) with (c + (1 - op_smoothing f) ^ n * (op_state f - c)) by lra. ring.
Qed.

(** deadband in floats *)
Section DeadbandFloat.
  Context (prec emax : Z).
  Context {Hp : Prec_gt_0 prec} {He : Prec_lt_emax prec emax}.
  Context (pm pe : Z) (lm : Libm (binary_float prec emax)).
  Notation fl := (binary_float prec emax).
  Local Instance NF : Num fl := fnum prec emax pm pe lm.
  Notation rnd := (Generic_fmt.round radix2 (SpecFloat.fexp prec emax) (round_mode mode_NE)).

  Lemma Bleb_finite (x y : fl) : ffinite x = true -> ffinite y = true -> Bleb x y = Rle_bool (B2R x) (B2R y).
  Proof. apply Bleb_correct. Qed.

  Lemma deadband_float thr rec (d : Deadband fl) (x : fl) :
    deadband_build thr rec = Ok d -> ffinite x = true ->
    let y := deadband_apply d x in
    (Rabs (B2R x) <= B2R thr -> y = B754_zero false) /\
    (B2R thr < Rabs (B2R x) -> rec = false -> y = x) /\
    ffinite y = true /\ 0 <= B2R x * B2R y /\ Rabs (B2R y) <= Rabs (B2R x).
  Proof.
    unfold deadband_build. cbn [is_finite ltb zero NF fnum].
    destruct (BinarySingleNaN.is_finite thr) eqn:Ft; cbn [negb]; [|discriminate].
    destruct (Bltb thr (B754_zero false)) eqn:Lt; [discriminate|].
    intros H Fx. inversion H; subst d; clear H. cbv zeta.
    assert (T0 : 0 <= B2R thr).
    { rewrite Bltb_correct in Lt by auto. cbn in Lt. destruct (Rlt_bool_spec (B2R thr) 0); [discriminate|lra]. }
    unfold deadband_apply. cbn [db_threshold db_recentered leb abs zero sub copysign NF fnum].
    assert (Fa : ffinite (Babs x) = true) by (rewrite is_finite_Babs; exact Fx).
    rewrite Bleb_correct by auto. rewrite B2R_Babs.
    destruct (Rle_bool_spec (Rabs (B2R x)) (B2R thr)) as [L|L].
    - cbn. repeat split; intros; try lra; auto. rewrite Rabs_R0. apply Rabs_pos.
    - destruct rec.
      2:{ repeat split; intros; auto; try lra. nra. }
      assert (C : B2R (fcopysign prec emax thr x) = (if Rlt_dec (B2R x) 0 then - B2R thr else B2R thr) /\
                  ffinite (fcopysign prec emax thr x) = true).
      { assert (Nz : B2R x <> 0) by (intros Z; rewrite Z, Rabs_R0 in L; lra).
        assert (Sg : Bsign x = if Rlt_dec (B2R x) 0 then true else false).
        { destruct x as [s|s| |s m e B]; cbn in Nz, Fx |- *; try discriminate; [lra|].
          destruct s; destruct (Rlt_dec _ 0) as [Q|Q]; auto; exfalso.
          - apply Q. apply F2R_lt_0. cbn. lia.
          - assert (0 < F2R (Float radix2 (Z.pos m) e)) by (apply F2R_gt_0; cbn; lia). unfold F2R in *. cbn in *. lra. }
        unfold fcopysign. rewrite Sg.
        destruct (Rlt_dec (B2R x) 0).
        - rewrite B2R_Bopp, B2R_Babs, is_finite_Bopp, is_finite_Babs, Rabs_pos_eq by lra. auto.
        - rewrite B2R_Babs, is_finite_Babs, Rabs_pos_eq by lra. auto. }
      destruct C as [C Fc].
      set (c := fcopysign prec emax thr x) in *.
      pose proof (Bminus_correct prec emax Hp He mode_NE x c Fx Fc) as K. cbv zeta in K.
      assert (Fx' : generic_format radix2 (SpecFloat.fexp prec emax) (B2R x)) by apply generic_format_B2R.
      assert (Bx : Rabs (B2R x) < bpow radix2 emax) by apply abs_B2R_lt_emax.
      assert (V : Valid_exp (SpecFloat.fexp prec emax)) by apply fexp_correct, Hp.
      rewrite C in K. set (z := rnd (B2R x - _)) in *.
      assert (Z : 0 <= B2R x * z /\ Rabs z <= Rabs (B2R x)).
      { clear K. destruct (Rlt_dec (B2R x) 0) as [N|N].
        - rewrite (Rabs_left _ N) in L.
          assert (z <= 0) by (apply round_le_generic; [exact V|apply valid_rnd_round_mode|apply generic_format_0|lra]).
          assert (B2R x <= z) by (apply round_ge_generic; [exact V|apply valid_rnd_round_mode|exact Fx'|lra]).
          split; [nra|]. rewrite (Rabs_left1 z), (Rabs_left (B2R x)) by lra. lra.
        - rewrite (Rabs_right (B2R x)) in L by lra.
          assert (0 <= z) by (apply round_ge_generic; [exact V|apply valid_rnd_round_mode|apply generic_format_0|lra]).
          assert (z <= B2R x) by (apply round_le_generic; [exact V|apply valid_rnd_round_mode|exact Fx'|lra]).
          split; [nra|]. rewrite !Rabs_right by lra. lra. }
      rewrite Rlt_bool_true in K by (apply Rle_lt_trans with (2 := Bx); apply Z).
      destruct K as (K1 & K2 & _).
      repeat split; intros; try lra; try discriminate; auto; rewrite K1; apply Z.
  Qed.
End DeadbandFloat.
