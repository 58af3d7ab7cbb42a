(** C57, C58, C59 and C72: planned moves. *)
From Coq Require Import ZArith Reals Lra Lia List Bool Psatz.
From Coquelicot Require Import Coquelicot.
From Verif Require Import Base.Scalar Base.RNum Base.Lists Base.Series Model.Errors Model.Vector Model.Motion Spec.Motion
  Proofs.Motion Proofs.MotionOptimal.
Import ListNotations.
Local Open Scope R_scope.

Lemma limits_accepted vm am jerk lim : limits_try_new vm am jerk = Ok lim ->
  0 < vm /\ 0 < am /\ (forall jm, jerk = Some jm -> 0 < jm) /\
  lim = {| li_speed := vm; li_acceleration := am; li_jerk := jerk |}.
Proof.
  unfold limits_try_new, limit_positive. rnum. cbn [andb].
  destruct (Rltb 0 vm) eqn:E1; cbn [negb orb]; [| discriminate].
  destruct (Rltb 0 am) eqn:E2; cbn [negb orb]; [| discriminate].
  destruct jerk as [jm |].
  - destruct (Rltb 0 jm) eqn:E3; cbn [negb]; [| discriminate]. intros Q; inversion Q. rcases.
    repeat split; auto. intros j' E; inversion E; subst; auto.
  - intros Q; inversion Q. rcases. repeat split; auto. discriminate.
Qed.

(** The direction of a move. *)
Definition direction (d : R) : R := if Rltb d 0 then - (1) else 1.
Lemma direction_unit d : unit_sign (direction d).
Proof. unfold direction, unit_sign. destruct (Rltb d 0); lra. Qed.
Lemma direction_abs d : Rabs d * direction d = d.
Proof.
  unfold direction. destruct (Rltb d 0) eqn:E; rcases.
  - rewrite Rabs_left by lra. ring.
  - rewrite Rabs_pos_eq by lra. ring.
Qed.

(** Everything the planner settles, whichever shape it picks. *)
Lemma plan_cases vm am jerk lim strategy d p : limits_try_new vm am jerk = Ok lim -> plan lim strategy d = Ok p ->
  exists top, sound p d top am (match strategy, jerk with Trapezoidal, _ | _, None => 0 | _, Some jm => jm end) /\
    0 <= top <= vm /\ Rabs (peak_speed p) = top /\ (d = 0 -> pr_duration p = 0) /\
    match strategy, jerk with
    | Trapezoidal, _ | _, None =>
        (d = 0 /\ pr_duration p = 0) \/
        exists at_ ct, 0 < at_ /\ 0 <= ct /\ am * at_ <= vm /\ (ct = 0 \/ am * at_ = vm) /\
          am * at_ * (at_ + ct) = Rabs d /\ pr_duration p = at_ + ct + at_
    | _, Some j =>
        smooth_acc (pr_phases p) 0 /\
        ((d = 0 /\ pr_duration p = 0) \/
         exists jt ht ct, 0 < jt /\ 0 <= ht /\ 0 <= ct /\ j * jt <= am /\ (ht = 0 \/ j * jt = am) /\
          j * jt * (jt + ht) <= vm /\ (ct = 0 \/ j * jt * (jt + ht) = vm) /\
          j * jt * (jt + ht) * (jt + jt + ht + ct) = Rabs d /\ pr_duration p = 2 * (jt + jt + ht) + ct)
    end.
Proof.
  intros HL HP. destruct (limits_accepted _ _ _ _ HL) as (Hv & Ha & Hj & ->). clear HL.
  pose proof (direction_unit d) as Hs. pose proof (direction_abs d) as Hd.
  assert (Hat : forall c, unit_sign c -> forall x, 0 <= x -> Rabs (x * c) = x).
  { intros c [-> | ->] x Hx; [rewrite Rmult_1_r | replace (x * -1) with (- x) by ring; rewrite Rabs_Ropp]; apply Rabs_pos_eq; auto. }
  assert (PS : forall sg, peak_speed (plan_still sg) = 0).
  { intros sg. unfold plan_still, peak_speed, from_phase_plan. cbn. unfold advance_velocity. rnum. field. }
  assert (TR : forall jl, p = plan_trapezoidal (Rabs d) {| li_speed := vm; li_acceleration := am; li_jerk := jl |} (direction d) ->
    exists top, sound p d top am 0 /\ 0 <= top <= vm /\ Rabs (peak_speed p) = top /\ (d = 0 -> pr_duration p = 0) /\
    ((d = 0 /\ pr_duration p = 0) \/
        exists at_ ct, 0 < at_ /\ 0 <= ct /\ am * at_ <= vm /\ (ct = 0 \/ am * at_ = vm) /\
          am * at_ * (at_ + ct) = Rabs d /\ pr_duration p = at_ + ct + at_)).
  { intros jl ->. destruct (Req_dec d 0) as [Z | Z].
    - exists 0. subst d. rewrite Rabs_R0, trapezoidal_still by auto. rewrite PS, Rabs_R0.
      split; [apply still_sound; lra |]. split; [lra |]. split; [reflexivity |].
      split; [intros _; apply still_duration |]. left. split; [reflexivity | apply still_duration].
    - assert (0 < Rabs d) by (apply Rabs_pos_lt; auto).
      destruct (trapezoidal_shape (Rabs d) vm am jl (direction d)) as (at_ & ct & T1 & T2 & T3 & T4 & T5 & T6 & T7 & T8); auto.
      rewrite Hd in T6. exists (am * at_). assert (0 <= am * at_) by nra.
      split; [exact T6 |]. split; [lra |]. split; [rewrite T8; auto |]. split; [tauto |].
      right. exists at_, ct. auto 10. }
  assert (JK : forall jl j, 0 < j -> p = plan_jerk_limited (Rabs d) {| li_speed := vm; li_acceleration := am; li_jerk := jl |} j (direction d) ->
    exists top, sound p d top am j /\ 0 <= top <= vm /\ Rabs (peak_speed p) = top /\ (d = 0 -> pr_duration p = 0) /\
    (smooth_acc (pr_phases p) 0 /\
        ((d = 0 /\ pr_duration p = 0) \/
         exists jt ht ct, 0 < jt /\ 0 <= ht /\ 0 <= ct /\ j * jt <= am /\ (ht = 0 \/ j * jt = am) /\
          j * jt * (jt + ht) <= vm /\ (ct = 0 \/ j * jt * (jt + ht) = vm) /\
          j * jt * (jt + ht) * (jt + jt + ht + ct) = Rabs d /\ pr_duration p = 2 * (jt + jt + ht) + ct))).
  { intros jl j Hjp ->. destruct (Req_dec d 0) as [Z | Z].
    - exists 0. subst d. rewrite Rabs_R0, jerk_still by auto. rewrite PS, Rabs_R0.
      split; [apply still_sound; lra |]. split; [lra |]. split; [reflexivity |].
      split; [intros _; apply still_duration |]. split; [apply still_acc |].
      left. split; [reflexivity | apply still_duration].
    - assert (0 < Rabs d) by (apply Rabs_pos_lt; auto).
      destruct (jerk_shape (Rabs d) vm am jl j (direction d)) as (jt & ht & ct & T1 & T2 & T3 & T4 & T5 & T6 & T7 & T8 & T9 & T10 & T11 & T12); auto.
      rewrite Hd in T9. exists (j * jt * (jt + ht)). assert (0 <= j * jt * (jt + ht)) by (apply Rmult_le_pos; nra).
      split; [exact T9 |]. split; [lra |]. split; [rewrite T12; auto |]. split; [tauto |]. split; [exact T10 |].
      right. exists jt, ht, ct. auto 12. }
  unfold plan in HP. rnum. cbn [negb li_jerk] in HP. fold (direction d) in HP.
  destruct strategy, jerk as [jm |]; inversion HP as [E]; clear HP; try (rewrite E).
  - apply (JK (Some jm)); auto.
  - apply (TR None); auto.
  - apply (TR (Some jm)); auto.
  - apply (TR None); auto.
  - apply (JK (Some jm)); auto.
Qed.

(** A sound profile gives a smooth motion. *)
Lemma clamp_derive (f df : R -> R) t : (forall x, is_derive f x (df x)) -> df 0 = 0 ->
  is_derive (fun x => f (Rmax x 0)) t (df (Rmax t 0)).
Proof.
  intros D Z. apply (derive_glue _ (fun _ => f 0) f 0).
  - intros x Hx. rewrite Rmax_right by lra. reflexivity.
  - intros x Hx. rewrite Rmax_left by lra. reflexivity.
  - reflexivity.
  - intros Ht. rewrite Rmax_right by lra. rewrite Z. apply (is_derive_const (V := R_NormedModule)).
  - intros Ht. rewrite Rmax_left by lra. apply D.
Qed.

Lemma velocity_change p d vm am jm t u : sound p d vm am jm -> 0 <= t <= u ->
  is_RInt (fun x => Acc (pr_phases p) 0 (Rmax x 0)) t u (Vel (pr_phases p) 0 (Rmax u 0) - Vel (pr_phases p) 0 (Rmax t 0)).
Proof.
  intros H Ht. rewrite !Rmax_left by lra.
  apply (is_RInt_ext (Acc (pr_phases p) 0)).
  - intros x Hx. rewrite Rmin_left, Rmax_right in Hx by lra. rewrite Rmax_left by lra. reflexivity.
  - apply (RInt_Chasles_R _ t 0 u (- (Vel (pr_phases p) 0 t - 0)) (Vel (pr_phases p) 0 u - 0)).
    + apply (is_RInt_swap (V := R_NormedModule)). apply (Acc_integral _ 0 0 d); [apply H | lra].
    + apply (Acc_integral _ 0 0 d); [apply H | lra].
    + ring.
Qed.
Lemma acceleration_change p d vm am jm t u : sound p d vm am jm -> smooth_acc (pr_phases p) 0 -> 0 <= t <= u ->
  is_RInt (fun x => Jrk (pr_phases p) 0 (Rmax x 0)) t u (Acc (pr_phases p) 0 (Rmax u 0) - Acc (pr_phases p) 0 (Rmax t 0)).
Proof.
  intros H Ha Ht. rewrite !Rmax_left by lra.
  apply (is_RInt_ext (Jrk (pr_phases p) 0)).
  - intros x Hx. rewrite Rmin_left, Rmax_right in Hx by lra. rewrite Rmax_left by lra. reflexivity.
  - apply (RInt_Chasles_R _ t 0 u (- (Acc (pr_phases p) 0 t - 0)) (Acc (pr_phases p) 0 u - 0)).
    + apply (is_RInt_swap (V := R_NormedModule)). apply (Jrk_integral _ 0 0 d 0); [apply H | exact Ha | lra].
    + apply (Jrk_integral _ 0 0 d 0); [apply H | exact Ha | lra].
    + ring.
Qed.

Lemma integral_bound (f : R -> R) (t u r m : R) : t <= u -> (forall x, Rabs (f x) <= m) -> is_RInt f t u r -> Rabs r <= m * (u - t).
Proof.
  intros L B H. rewrite Rmult_comm. apply (norm_RInt_le_const (V := R_NormedModule) f t u r m L); [| exact H].
  intros x _. apply B.
Qed.

Lemma sound_limits p d vm am jm x : 0 <= vm -> 0 <= am -> 0 <= jm -> sound p d vm am jm ->
  Rabs (Vel (pr_phases p) 0 (Rmax x 0)) <= vm /\ Rabs (Acc (pr_phases p) 0 (Rmax x 0)) <= am /\
  Rabs (Jrk (pr_phases p) 0 (Rmax x 0)) <= jm.
Proof. intros A B C H. apply chain_within; auto; [apply H | apply H | apply Rmax_r]. Qed.

Lemma lipschitz_velocity p d vm am jm t u : 0 <= vm -> 0 <= am -> 0 <= jm -> sound p d vm am jm -> 0 <= t -> 0 <= u ->
  Rabs (Vel (pr_phases p) 0 (Rmax u 0) - Vel (pr_phases p) 0 (Rmax t 0)) <= am * Rabs (u - t).
Proof.
  intros A B C H. revert t u. assert (G : forall t u, 0 <= t <= u ->
     Rabs (Vel (pr_phases p) 0 (Rmax u 0) - Vel (pr_phases p) 0 (Rmax t 0)) <= am * (u - t)).
  { intros t u Ht. eapply integral_bound; [| | eapply velocity_change; eauto]; [lra |]. intros x. apply (sound_limits p d vm am jm x A B C H). }
  intros t u Ht Hu. destruct (Rle_dec t u) as [L | L].
  - rewrite (Rabs_pos_eq (u - t)) by lra. apply G. lra.
  - rewrite Rabs_minus_sym, (Rabs_left1 (u - t)) by lra. replace (- (u - t)) with (t - u) by ring. apply G. lra.
Qed.
Lemma lipschitz_acceleration p d vm am jm t u : 0 <= vm -> 0 <= am -> 0 <= jm -> sound p d vm am jm ->
  smooth_acc (pr_phases p) 0 -> 0 <= t -> 0 <= u ->
  Rabs (Acc (pr_phases p) 0 (Rmax u 0) - Acc (pr_phases p) 0 (Rmax t 0)) <= jm * Rabs (u - t).
Proof.
  intros A B C H Ha. revert t u. assert (G : forall t u, 0 <= t <= u ->
     Rabs (Acc (pr_phases p) 0 (Rmax u 0) - Acc (pr_phases p) 0 (Rmax t 0)) <= jm * (u - t)).
  { intros t u Ht. eapply integral_bound; [| | eapply acceleration_change; eauto]; [lra |]. intros x. apply (sound_limits p d vm am jm x A B C H). }
  intros t u Ht Hu. destruct (Rle_dec t u) as [L | L].
  - rewrite (Rabs_pos_eq (u - t)) by lra. apply G. lra.
  - rewrite Rabs_minus_sym, (Rabs_left1 (u - t)) by lra. replace (- (u - t)) with (t - u) by ring. apply G. lra.
Qed.

Lemma sound_ends p d vm am jm : sound p d vm am jm ->
  rest_to_rest (fun t => Pos (pr_phases p) d 0 (Rmax t 0)) (fun t => Vel (pr_phases p) 0 (Rmax t 0)) (pr_duration p) d.
Proof.
  intros H. pose proof (sound_duration _ _ _ _ _ H) as N.
  destruct (smooth_start _ _ _ _ 0 (so_smooth _ _ _ _ _ H)) as [S1 S2].
  destruct (chain_total _ (so_positive _ _ _ _ _ H) d 0 (pr_duration p)) as (C1 & C2 & _).
  { rewrite (so_duration _ _ _ _ _ H). lra. }
  unfold rest_to_rest. rewrite (Rmax_left 0 0), (Rmax_left (pr_duration p) 0) by lra. auto.
Qed.

(** C57.  What [state_at] reports at every time, before, during and after the move: it is at rest at 0 up to time 0
    and at rest at the displacement from the duration on; position, velocity and (when jerk-limited) acceleration are
    each the integral of the next, so they are continuous; and no limit is exceeded at any time. *)
Theorem C57_move : forall vm am jerk limits strategy d profile,
  limits_try_new vm am jerk = Ok limits -> plan limits strategy d = Ok profile ->
  exists position velocity acceleration jrk : R -> R,
    (forall t, state_at profile t = Ok {| ms_position := position t; ms_velocity := velocity t;
                                          ms_acceleration := acceleration t; ms_jerk := jrk t |}) /\
    0 <= pr_duration profile /\ pr_distance profile = d /\
    rest_to_rest position velocity (pr_duration profile) d /\
    (forall t, t <= 0 -> position t = 0 /\ velocity t = 0) /\
    (forall t, pr_duration profile <= t -> position t = d /\ velocity t = 0) /\
    (forall t, is_derive position t (velocity t)) /\
    (forall t u, 0 <= t <= u -> is_RInt acceleration t u (velocity u - velocity t)) /\
    (forall t u, Rabs (velocity u - velocity t) <= am * Rabs (u - t)) /\
    (forall t, Rabs (velocity t) <= vm /\ Rabs (acceleration t) <= am) /\
    match strategy, jerk with
    | Trapezoidal, _ | _, None => True
    | _, Some jm =>
        acceleration 0 = 0 /\ acceleration (pr_duration profile) = 0 /\
        (forall t, is_derive velocity t (acceleration t)) /\
        (forall t u, 0 <= t <= u -> is_RInt jrk t u (acceleration u - acceleration t)) /\
        (forall t u, Rabs (acceleration u - acceleration t) <= jm * Rabs (u - t)) /\
        (forall t, Rabs (jrk t) <= jm)
    end.
Proof.
  intros vm am jerk lim strategy d p HL HP.
  destruct (plan_cases _ _ _ _ _ _ _ HL HP) as (top & HS & Ht & _ & _ & HC).
  destruct (limits_accepted _ _ _ _ HL) as (Hv & Ha & Hj & _).
  set (jm := match strategy, jerk with Trapezoidal, _ | _, None => 0 | _, Some jm => jm end) in HS.
  assert (Hjm : 0 <= jm). { unfold jm. destruct strategy, jerk as [j |]; try lra; specialize (Hj j eq_refl); lra. }
  pose proof (sound_duration _ _ _ _ _ HS) as HD. pose proof (sound_ends _ _ _ _ _ HS) as HR.
  set (l := pr_phases p) in *.
  exists (fun t => Pos l d 0 (Rmax t 0)), (fun t => Vel l 0 (Rmax t 0)), (fun t => Acc l 0 (Rmax t 0)), (fun t => Jrk l 0 (Rmax t 0)).
  assert (S1 : Pos l d 0 0 = 0 /\ Vel l 0 0 = 0) by (apply (smooth_start _ 0 0 d); apply HS).
  assert (clampl : forall f : R -> R, forall m, (forall t u, 0 <= t -> 0 <= u -> Rabs (f (Rmax u 0) - f (Rmax t 0)) <= m * Rabs (u - t)) ->
     0 <= m -> forall t u, Rabs (f (Rmax u 0) - f (Rmax t 0)) <= m * Rabs (u - t)).
  { intros f m G Hm t u. specialize (G (Rmax t 0) (Rmax u 0) (Rmax_r _ _) (Rmax_r _ _)).
    assert (E : forall z, Rmax (Rmax z 0) 0 = Rmax z 0) by (intros; apply Rmax_left; apply Rmax_r). rewrite !E in G.
    eapply Rle_trans; [exact G |]. apply Rmult_le_compat_l; [exact Hm |]. rle; lra. }
  split. { intros t. rewrite (sound_state _ _ _ _ _ t HS). reflexivity. }
  split; [exact HD |]. split; [apply HS |]. split; [exact HR |].
  split. { intros t Hle. rewrite Rmax_right by lra. exact S1. }
  split. { intros t Hle. rewrite Rmax_left by lra.
    destruct (chain_total _ (so_positive _ _ _ _ _ HS) d 0 t) as (C1 & C2 & _); [rewrite <- (so_duration _ _ _ _ _ HS); lra |]. auto. }
  split. { intros t. apply (clamp_derive (Pos l d 0) (Vel l 0)); [| apply S1]. intros x. apply (Pos_derive _ 0 0). apply HS. }
  split. { intros t u Htu. eapply velocity_change; eauto. }
  split. { apply (clampl (Vel l 0)); [| lra]. intros. eapply lipschitz_velocity; [| | | exact HS | |]; lra. }
  split. { intros t. destruct (sound_limits p d top am jm t) as (L1 & L2 & L3); auto; try lra. fold l in L1, L2. split; lra. }
  assert (JF : smooth_acc l 0 ->
        Acc l 0 (Rmax 0 0) = 0 /\ Acc l 0 (Rmax (pr_duration p) 0) = 0 /\
        (forall t, is_derive (fun t => Vel l 0 (Rmax t 0)) t (Acc l 0 (Rmax t 0))) /\
        (forall t u, 0 <= t <= u -> is_RInt (fun t => Jrk l 0 (Rmax t 0)) t u (Acc l 0 (Rmax u 0) - Acc l 0 (Rmax t 0))) /\
        (forall t u, Rabs (Acc l 0 (Rmax u 0) - Acc l 0 (Rmax t 0)) <= jm * Rabs (u - t)) /\
        (forall t, Rabs (Jrk l 0 (Rmax t 0)) <= jm)).
  { intros HA. pose proof (smooth_acc_start _ _ _ _ _ 0 (so_smooth _ _ _ _ _ HS) HA) as A0. fold l in A0.
    split; [rewrite Rmax_left by lra; exact A0 |].
    split. { rewrite Rmax_left by lra.
      destruct (chain_total _ (so_positive _ _ _ _ _ HS) d 0 (pr_duration p)) as (_ & _ & C3 & _); [rewrite <- (so_duration _ _ _ _ _ HS); lra |]. exact C3. }
    split. { intros t. apply (clamp_derive (Vel l 0) (Acc l 0)); [| exact A0]. intros x. apply (Vel_derive _ 0 0 d 0); [apply HS | exact HA]. }
    split. { intros t u Htu. eapply acceleration_change; eauto. }
    split. { apply (clampl (Acc l 0)); [| exact Hjm]. intros. eapply lipschitz_acceleration; [| | | exact HS | | |]; try lra. exact HA. }
    intros t. destruct (sound_limits p d top am jm t) as (L1 & L2 & L3); auto; lra. }
  destruct strategy, jerk as [j |]; try exact I; apply JF; apply HC.
Qed.

(** Moving the other way mirrors the move. *)
Theorem C57_mirror : forall vm am jerk limits strategy d there back t,
  limits_try_new vm am jerk = Ok limits -> plan limits strategy d = Ok there -> plan limits strategy (- d) = Ok back ->
  pr_duration back = pr_duration there /\
  exists s s', state_at there t = Ok s /\ state_at back t = Ok s' /\
    ms_position s' = - ms_position s /\ ms_velocity s' = - ms_velocity s /\
    ms_acceleration s' = - ms_acceleration s /\ ms_jerk s' = - ms_jerk s.
Proof.
  intros vm am jerk lim strategy d p q t HL HP HQ.
  destruct (plan_cases _ _ _ _ _ _ _ HL HP) as (top & HS & _). destruct (plan_cases _ _ _ _ _ _ _ HL HQ) as (top' & HS' & _).
  destruct (Req_dec d 0) as [Z | Z].
  - subst d. rewrite Ropp_0 in HQ. rewrite HP in HQ. inversion HQ; subst q. split; [reflexivity |].
    destruct (plan_cases _ _ _ _ _ _ _ HL HP) as (_ & _ & _ & _ & HD & _). specialize (HD eq_refl).
    exists (moment (pr_phases p) 0 (Rmax t 0)), (moment (pr_phases p) 0 (Rmax t 0)).
    rewrite (sound_state _ _ _ _ _ t HS).
    destruct (chain_total _ (so_positive _ _ _ _ _ HS) 0 0 (Rmax t 0)) as (C1 & C2 & C3 & C4).
    { rewrite <- (so_duration _ _ _ _ _ HS), HD. apply Rmax_r. }
    unfold moment; cbn. rewrite C1, C2, C3, C4. repeat split; ring.
  - assert (E : q = neg_profile p \/ p = neg_profile q).
    { assert (ED : direction (- d) = - direction d /\ (direction d = 1 \/ direction (- d) = 1)).
      { unfold direction. destruct (Rltb d 0) eqn:E1; destruct (Rltb (- d) 0) eqn:E2; rcases; lra. }
      unfold plan in HP, HQ. rnum. cbn [negb] in HP, HQ. fold (direction d) in HP. fold (direction (- d)) in HQ.
      rewrite Rabs_Ropp in HQ. destruct ED as [ED _]. rewrite ED in HQ. left.
      destruct strategy, (li_jerk lim) as [jm |]; inversion HP; inversion HQ;
        first [apply plan_jerk_neg | apply plan_trapezoidal_neg]. }
    assert (F : forall a b, b = neg_profile a -> pr_duration b = pr_duration a /\
       forall s, state_at a t = Ok s -> state_at b t = Ok (negate s)).
    { intros a b ->. split; [reflexivity |]. intros s Es. rewrite state_at_neg, Es. reflexivity. }
    destruct E as [E | E]; destruct (F _ _ E) as [F1 F2].
    + split; [exact F1 |]. pose proof (sound_state _ _ _ _ _ t HS) as Es. eexists; eexists.
      split; [exact Es |]. split; [apply F2; exact Es |]. unfold negate; cbn. auto.
    + split; [symmetry; exact F1 |]. pose proof (sound_state _ _ _ _ _ t HS') as Es. eexists; eexists.
      split; [apply F2; exact Es |]. split; [exact Es |]. unfold negate; cbn. rewrite !Ropp_involutive. auto.
Qed.

(** The peak speed is the largest the move reaches. *)
Theorem C57_peak_speed : forall vm am jerk limits strategy d profile,
  limits_try_new vm am jerk = Ok limits -> plan limits strategy d = Ok profile ->
  Rabs (peak_speed profile) <= vm /\
  (exists t s, state_at profile t = Ok s /\ ms_velocity s = peak_speed profile) /\
  forall t s, state_at profile t = Ok s -> Rabs (ms_velocity s) <= Rabs (peak_speed profile).
Proof.
  intros vm am jerk lim strategy d p HL HP.
  destruct (plan_cases _ _ _ _ _ _ _ HL HP) as (top & HS & Ht & Hp & _ & HC).
  destruct (limits_accepted _ _ _ _ HL) as (Hv & Ha & Hj & _).
  set (jm := match strategy, jerk with Trapezoidal, _ | _, None => 0 | _, Some jm => jm end) in HS.
  assert (Hjm : 0 <= jm). { unfold jm. destruct strategy, jerk as [j |]; try lra; specialize (Hj j eq_refl); lra. }
  rewrite Hp. split; [lra |]. split.
  - unfold peak_speed in *. destruct (nth_error (pr_phases p) 3) as [ph |] eqn:E.
    + set (t := fold_left Rplus (map ph_duration (firstn 3 (pr_phases p))) 0).
      assert (N : 0 <= t).
      { unfold t. apply fold_plus_ge. apply Forall_map. pose proof (so_positive _ _ _ _ _ HS) as Q.
        apply List.Forall_forall. intros x Hx. rewrite List.Forall_forall in Q. apply Q.
        rewrite <- (firstn_skipn 3 (pr_phases p)). apply in_or_app. auto. }
      exists t. eexists. split; [apply (sound_state _ _ _ _ _ t HS) |]. cbn. rewrite Rmax_left by exact N.
      apply (Vel_at_phase _ 3 0 0 d); [apply HS | exact E].
    + exists 0. eexists. split; [apply (sound_state _ _ _ _ _ 0 HS) |]. cbn. rewrite Rmax_left by lra.
      apply (smooth_start _ 0 0 d). apply HS.
  - intros t s Es. rewrite (sound_state _ _ _ _ _ t HS) in Es. inversion Es; subst s. cbn.
    apply (sound_limits p d top am jm t); auto; lra.
Qed.

(** What is refused: limits that are not positive, a displacement or a time that is not finite, and a jerk-limited
    shape without a jerk limit; nothing else.  For any scalar. *)
Theorem C57_refusals : forall (T : Type) (NT : Num T),
  (forall vm am jerk,
     (exists limits, @limits_try_new T NT vm am jerk = Ok limits) <->
     (is_finite vm = true /\ ltb zero vm = true) /\ (is_finite am = true /\ ltb zero am = true) /\
     (forall jm, jerk = Some jm -> is_finite jm = true /\ ltb zero jm = true)) /\
  (forall vm am jerk e, @limits_try_new T NT vm am jerk = Err e -> e = MoLimitNotPositive) /\
  (forall limits strategy d, (exists profile, @plan T NT limits strategy d = Ok profile) <->
     is_finite d = true /\ ~ (strategy = JerkLimited /\ li_jerk limits = None)) /\
  (forall limits strategy d, is_finite d = false -> @plan T NT limits strategy d = Err MoNonFinite) /\
  (forall limits d, is_finite d = true -> li_jerk limits = None -> @plan T NT limits JerkLimited d = Err MoJerkLimitRequired) /\
  (forall profile t, (exists s, @state_at T NT profile t = Ok s) <-> is_finite t = true) /\
  (forall profile t, is_finite t = false -> @state_at T NT profile t = Err MoNonFinite).
Proof.
  intros T NT. split; [| split; [| split; [| split; [| split; [| split]]]]].
  - intros vm am jerk. unfold limits_try_new, limit_positive. split.
    + intros [lim E]. destruct (is_finite vm), (ltb zero vm), (is_finite am), (ltb zero am); cbn in E; try discriminate.
      destruct jerk as [j |]; [destruct (is_finite j) eqn:E1, (ltb zero j) eqn:E2; cbn in E; try discriminate |];
        repeat split; intros; try discriminate; inversion H; subst; auto.
    + intros ((-> & ->) & (-> & ->) & H). cbn. destruct jerk as [j |]; [| eauto].
      destruct (H j eq_refl) as [-> ->]. cbn. eauto.
  - intros vm am jerk e. unfold limits_try_new. destruct (_ || _)%bool; [congruence |].
    destruct jerk as [j |]; [destruct (negb _); congruence | congruence].
  - intros lim strategy d. unfold plan. destruct (is_finite d); cbn [negb].
    + destruct strategy, (li_jerk lim) eqn:E; split; try (intros _; split; [reflexivity | intros [? ?]; discriminate]); intros H; eauto.
      * destruct H; discriminate.
      * exfalso. apply H. auto.
    + split; intros [? ?]; discriminate.
  - intros lim strategy d E. unfold plan. rewrite E. reflexivity.
  - intros lim d E E'. unfold plan. rewrite E, E'. reflexivity.
  - intros p t. unfold state_at. destruct (is_finite t); cbn [negb].
    + split; [reflexivity |]. intros _. destruct (state_loop _ _ _); eauto.
    + split; [intros [? ?]; discriminate | discriminate].
  - intros p t E. unfold state_at. rewrite E. reflexivity.
Qed.

(** Limits 2 and 1, ten units away: seven seconds, with a cruise of three. *)
Example C57_example : exists limits profile,
  limits_try_new 2 1 None = Ok limits /\ plan limits Automatic (-10) = Ok profile /\ pr_duration profile = 7.
Proof.
  assert (HL : limits_try_new 2 1 None = Ok {| li_speed := 2; li_acceleration := 1; li_jerk := None |}).
  { unfold limits_try_new, limit_positive. rnum. rdecide. reflexivity. }
  eexists; eexists. split; [exact HL |]. split; [reflexivity |].
  destruct (plan_cases _ _ _ _ Automatic (-10) _ HL eq_refl) as (top & _ & _ & _ & _ & [[E _] | (at_ & ct & T1 & T2 & T3 & T4 & T5 & T6)]); [lra |].
  rewrite T6. rewrite Rabs_left in T5 by lra. destruct T4 as [-> | T4]; [nra |].
  assert (at_ = 2) by lra. subst at_. lra.
Qed.

(** * C58 and C72: nothing finishes sooner *)
Lemma mirrored_speed p v T d V A : rest_to_rest p v T d -> speed_limited V A p v T ->
  rest_to_rest (fun t => - p t) (fun t => - v t) T (- d) /\ speed_limited V A (fun t => - p t) (fun t => - v t) T.
Proof.
  intros (R1 & R2 & R3 & R4) H. split; [unfold rest_to_rest; rewrite R1, R2, R3, R4; repeat split; ring |].
  intros t Ht. destruct (H t Ht) as (D & B & L). split; [apply (is_derive_opp (V := R_NormedModule)); exact D |].
  split; [rewrite Rabs_Ropp; exact B |]. intros u Hu. replace (- v u - - v t) with (- (v u - v t)) by ring.
  rewrite Rabs_Ropp. apply L. exact Hu.
Qed.
Lemma mirrored_jerk p v a T d V A J : rest_to_rest p v T d -> jerk_limited V A J p v a T ->
  rest_to_rest (fun t => - p t) (fun t => - v t) T (- d) /\ jerk_limited V A J (fun t => - p t) (fun t => - v t) (fun t => - a t) T.
Proof.
  intros (R1 & R2 & R3 & R4) (A0 & A1 & H). split; [unfold rest_to_rest; rewrite R1, R2, R3, R4; repeat split; ring |].
  split; [rewrite A0; ring |]. split; [rewrite A1; ring |].
  intros t Ht. destruct (H t Ht) as (D & D2 & B & B2 & L).
  split; [apply (is_derive_opp (V := R_NormedModule)); exact D |]. split; [apply (is_derive_opp (V := R_NormedModule)); exact D2 |].
  split; [rewrite Rabs_Ropp; exact B |]. split; [rewrite Rabs_Ropp; exact B2 |].
  intros u Hu. replace (- a u - - a t) with (- (a u - a t)) by ring. rewrite Rabs_Ropp. apply L. exact Hu.
Qed.

(** C58.  The trapezoidal move is one of the motions within its speed and acceleration limits, and none of them
    covers the displacement from rest to rest in less time. *)
Theorem C58_trapezoidal_fastest : forall vm am jerk limits strategy d profile,
  limits_try_new vm am jerk = Ok limits -> (strategy = Trapezoidal \/ strategy = Automatic /\ jerk = None) ->
  plan limits strategy d = Ok profile ->
  (exists position velocity : R -> R,
     (forall t, exists s, state_at profile t = Ok s /\ ms_position s = position t /\ ms_velocity s = velocity t) /\
     rest_to_rest position velocity (pr_duration profile) d /\ speed_limited vm am position velocity (pr_duration profile)) /\
  forall (position velocity : R -> R) duration, 0 <= duration ->
    rest_to_rest position velocity duration d -> speed_limited vm am position velocity duration ->
    pr_duration profile <= duration.
Proof.
  intros vm am jerk lim strategy d p HL HT HP. split.
  - destruct (C57_move _ _ _ _ _ _ _ HL HP) as (pos & vel & acc & jrk & H1 & H2 & H3 & H4 & H5 & H6 & H7 & H8 & H9 & H10 & _).
    exists pos, vel. split; [| split; [exact H4 |]].
    + intros t. eexists. split; [apply H1 |]. auto.
    + intros t Ht. split; [apply H7 |]. split; [apply H10 |]. intros u Hu. apply H9.
  - intros pos vel T Tp HR HS.
    destruct (plan_cases _ _ _ _ _ _ _ HL HP) as (top & _ & _ & _ & _ & HC).
    destruct (limits_accepted _ _ _ _ HL) as (Hv & Ha & Hj & _).
    assert (HC' : (d = 0 /\ pr_duration p = 0) \/
        exists at_ ct, 0 < at_ /\ 0 <= ct /\ am * at_ <= vm /\ (ct = 0 \/ am * at_ = vm) /\
          am * at_ * (at_ + ct) = Rabs d /\ pr_duration p = at_ + ct + at_).
    { destruct HT as [-> | [-> ->]]; exact HC. }
    destruct HC' as [[_ E] | (at_ & ct & T1 & T2 & T3 & T4 & T5 & T6)]; [lra |]. rewrite T6.
    destruct (Rle_dec 0 d) as [L | L].
    + rewrite Rabs_pos_eq in T5 by lra. eapply trapezoid_fastest; eauto.
    + rewrite Rabs_left in T5 by lra. destruct (mirrored_speed _ _ _ _ _ _ HR HS) as [HR' HS'].
      eapply trapezoid_fastest; eauto.
Qed.

(** C72.  The same for the seven-phase move, among the motions within the jerk limit too. *)
Theorem C72_jerk_limited_fastest : forall vm am jm limits strategy d profile,
  limits_try_new vm am (Some jm) = Ok limits -> strategy <> Trapezoidal -> plan limits strategy d = Ok profile ->
  (exists position velocity acceleration : R -> R,
     (forall t, exists s, state_at profile t = Ok s /\ ms_position s = position t /\ ms_velocity s = velocity t /\
        ms_acceleration s = acceleration t) /\
     rest_to_rest position velocity (pr_duration profile) d /\
     jerk_limited vm am jm position velocity acceleration (pr_duration profile)) /\
  forall (position velocity acceleration : R -> R) duration, 0 <= duration ->
    rest_to_rest position velocity duration d -> jerk_limited vm am jm position velocity acceleration duration ->
    pr_duration profile <= duration.
Proof.
  intros vm am jm lim strategy d p HL HT HP. split.
  - destruct (C57_move _ _ _ _ _ _ _ HL HP) as (pos & vel & acc & jrk & H1 & H2 & H3 & H4 & H5 & H6 & H7 & H8 & H9 & H10 & HJ).
    assert (HJ' : acc 0 = 0 /\ acc (pr_duration p) = 0 /\ (forall t, is_derive vel t (acc t)) /\
      (forall t u, 0 <= t <= u -> is_RInt jrk t u (acc u - acc t)) /\
      (forall t u, Rabs (acc u - acc t) <= jm * Rabs (u - t)) /\ (forall t, Rabs (jrk t) <= jm)).
    { destruct strategy; [exact HJ | congruence | exact HJ]. }
    destruct HJ' as (J1 & J2 & J3 & J4 & J5 & J6).
    exists pos, vel, acc. split; [| split; [exact H4 |]].
    + intros t. eexists. split; [apply H1 |]. auto.
    + split; [exact J1 |]. split; [exact J2 |].
      intros t Ht. split; [apply H7 |]. split; [apply J3 |]. split; [apply H10 |]. split; [apply H10 |]. intros u Hu. apply J5.
  - intros pos vel acc T Tp HR HS.
    destruct (plan_cases _ _ _ _ _ _ _ HL HP) as (top & _ & _ & _ & _ & HC).
    destruct (limits_accepted _ _ _ _ HL) as (Hv & Ha & Hj & _). specialize (Hj jm eq_refl).
    assert (HC' : (d = 0 /\ pr_duration p = 0) \/
         exists jt ht ct, 0 < jt /\ 0 <= ht /\ 0 <= ct /\ jm * jt <= am /\ (ht = 0 \/ jm * jt = am) /\
          jm * jt * (jt + ht) <= vm /\ (ct = 0 \/ jm * jt * (jt + ht) = vm) /\
          jm * jt * (jt + ht) * (jt + jt + ht + ct) = Rabs d /\ pr_duration p = 2 * (jt + jt + ht) + ct).
    { destruct strategy; [apply HC | congruence | apply HC]. }
    destruct HC' as [[_ E] | (jt & ht & ct & T1 & T2 & T3 & T4 & T5 & T6 & T7 & T8 & T9)]; [lra |]. rewrite T9.
    destruct (Rle_dec 0 d) as [L | L].
    + rewrite Rabs_pos_eq in T8 by lra. eapply scurve_fastest; eauto.
    + rewrite Rabs_left in T8 by lra. destruct (mirrored_jerk _ _ _ _ _ _ _ _ HR HS) as [HR' HS'].
      eapply scurve_fastest; eauto.
Qed.

Example C58_example : exists limits profile,
  limits_try_new 2 1 (Some 2) = Ok limits /\ plan limits Trapezoidal 10 = Ok profile /\ pr_duration profile = 7.
Proof.
  assert (HL : limits_try_new 2 1 (Some 2) = Ok {| li_speed := 2; li_acceleration := 1; li_jerk := Some 2 |}).
  { unfold limits_try_new, limit_positive. rnum. rdecide. reflexivity. }
  eexists; eexists. split; [exact HL |]. split; [reflexivity |].
  destruct (plan_cases _ _ _ _ Trapezoidal 10 _ HL eq_refl) as (top & _ & _ & _ & _ & [[E _] | (at_ & ct & T1 & T2 & T3 & T4 & T5 & T6)]); [lra |].
  rewrite T6. rewrite Rabs_pos_eq in T5 by lra. destruct T4 as [-> | T4]; [nra |].
  assert (at_ = 2) by lra. subst at_. lra.
Qed.
(** With a jerk limit of 2 as well it takes half a second more. *)
Example C72_example : exists limits profile,
  limits_try_new 2 1 (Some 2) = Ok limits /\ plan limits Automatic 10 = Ok profile /\ pr_duration profile = 7.5.
Proof.
  assert (HL : limits_try_new 2 1 (Some 2) = Ok {| li_speed := 2; li_acceleration := 1; li_jerk := Some 2 |}).
  { unfold limits_try_new, limit_positive. rnum. rdecide. reflexivity. }
  eexists; eexists. split; [exact HL |]. split; [reflexivity |].
  destruct (plan_cases _ _ _ _ Automatic 10 _ HL eq_refl) as (top & _ & _ & _ & _ & _ & [[E _] | (jt & ht & ct & T1 & T2 & T3 & T4 & T5 & T6 & T7 & T8 & T9)]); [lra |].
  rewrite T9. rewrite Rabs_pos_eq in T8 by lra.
  assert (jt <= 1 / 2) by lra.
  destruct T5 as [-> | T5].
  - exfalso. destruct T7 as [-> | T7]; [nra |]. assert (jt * jt <= 1 / 4) by nra. nra.
  - assert (jt = 1 / 2) by lra. subst jt. destruct T7 as [-> | T7]; [exfalso; nra |].
    assert (ht = 3 / 2) by lra. subst ht. lra.
Qed.

(** * C59: stretching *)

(** The profiles a caller can hold: planned ones, and those stretched from them. *)
Inductive obtained : Profile (T := R) -> Prop :=
| by_planning : forall vm am jerk limits strategy d p,
    limits_try_new vm am jerk = Ok limits -> plan limits strategy d = Ok p -> obtained p
| by_stretching : forall p duration, obtained p -> obtained (stretched_to p duration).

Lemma stretched_cases p T : 
  (T <= pr_duration p \/ pr_duration p <= 0) /\ stretched_to p T = p \/
  (0 < pr_duration p < T /\ stretched_to p T =
     {| pr_phases := map (stretch (T / pr_duration p)) (pr_phases p);
        pr_duration := pr_duration p * (T / pr_duration p); pr_distance := pr_distance p |}).
Proof.
  unfold stretched_to. rnum. cbn [negb orb].
  destruct (Rleb T (pr_duration p)) eqn:E1; rcases; cbn [orb]; [left; split; [lra | reflexivity] |].
  destruct (Rleb (pr_duration p) 0) eqn:E2; rcases; [left; split; [lra | reflexivity] |].
  right. split; [lra |]. f_equal. field. lra.
Qed.

Lemma obtained_sound p : obtained p -> exists vm am jm, 0 <= vm /\ 0 <= am /\ 0 <= jm /\ sound p (pr_distance p) vm am jm.
Proof.
  induction 1 as [vm am jerk lim strategy d p HL HP | p T Hp IH].
  - destruct (plan_cases _ _ _ _ _ _ _ HL HP) as (top & HS & Ht & _).
    destruct (limits_accepted _ _ _ _ HL) as (Hv & Ha & Hj & _).
    exists top, am. eexists. split; [lra |]. split; [lra |]. split; [| rewrite (so_distance _ _ _ _ _ HS); exact HS].
    destruct strategy, jerk as [j |]; try lra; specialize (Hj j eq_refl); lra.
  - destruct IH as (vm & am & jm & H1 & H2 & H3 & HS).
    destruct (stretched_cases p T) as [[_ ->] | [L ->]]; [exists vm, am, jm; auto |].
    assert (K : 0 < T / pr_duration p) by (apply Rdiv_lt_0_compat; lra). set (k := T / pr_duration p) in *.
    exists (vm / k), (am / (k * k)), (jm / (k * k * k)).
    assert (I1 : 0 < / k) by (apply Rinv_0_lt_compat; auto). assert (I2 : 0 < / (k * k)) by (apply Rinv_0_lt_compat; nra).
    assert (I3 : 0 < / (k * k * k)) by (apply Rinv_0_lt_compat; apply Rmult_lt_0_compat; nra).
    split; [unfold Rdiv; nra |]. split; [unfold Rdiv; nra |]. split; [unfold Rdiv; nra |].
    cbn [pr_distance]. apply stretch_sound; auto.
Qed.

Theorem C59_stretched : forall p T, obtained p -> 0 < pr_duration p < T ->
  let s := T / pr_duration p in
  let q := stretched_to p T in
  pr_duration q = T /\ pr_distance q = pr_distance p /\
  forall t, exists a, state_at p (t / s) = Ok a /\
    state_at q t = Ok {| ms_position := ms_position a; ms_velocity := ms_velocity a / s;
                         ms_acceleration := ms_acceleration a / s ^ 2; ms_jerk := ms_jerk a / s ^ 3 |}.
Proof.
  intros p T Hp L s q. destruct (obtained_sound p Hp) as (vm & am & jm & H1 & H2 & H3 & HS).
  unfold q. destruct (stretched_cases p T) as [[Q _] | [_ ->]]; [lra |]. fold s.
  assert (K : 0 < s) by (apply Rdiv_lt_0_compat; lra).
  split; [cbn; unfold s; field; lra |]. split; [reflexivity |].
  intros t. exists (moment (pr_phases p) (pr_distance p) (Rmax (t / s) 0)). split; [apply (sound_state _ _ _ _ _ _ HS) |].
  rewrite (sound_state _ _ _ _ _ t (stretch_sound _ _ _ _ _ s K HS)). f_equal. unfold moment at 1. cbn [pr_phases].
  destruct (stretch_chain s (pr_phases p) K (pr_distance p) 0 (Rmax t 0)) as (E1 & E2 & E3 & E4).
  rewrite Rmult_0_l in E1, E2, E3, E4. rewrite E1, E2, E3, E4.
  assert (E : Rmax t 0 / s = Rmax (t / s) 0).
  { assert (I1 : 0 < / s) by (apply Rinv_0_lt_compat; auto). unfold Rdiv. destruct (Rle_dec 0 t) as [G | G].
    - rewrite !Rmax_left; auto. nra.
    - rewrite !Rmax_right; try lra. nra. }
  rewrite E. unfold moment; cbn [ms_position ms_velocity ms_acceleration ms_jerk]. f_equal; field; lra.
Qed.

(** So a limit that held still holds. *)
Theorem C59_limits_kept : forall p T vm am jm, obtained p ->
  (forall t s, state_at p t = Ok s -> Rabs (ms_velocity s) <= vm /\ Rabs (ms_acceleration s) <= am /\ Rabs (ms_jerk s) <= jm) ->
  forall t s, state_at (stretched_to p T) t = Ok s ->
    Rabs (ms_velocity s) <= vm /\ Rabs (ms_acceleration s) <= am /\ Rabs (ms_jerk s) <= jm.
Proof.
  intros p T vm am jm Hp B t s Es.
  destruct (stretched_cases p T) as [[_ E] | [L _]]; [rewrite E in Es; eauto |].
  destruct (C59_stretched p T Hp L) as (_ & _ & H). destruct (H t) as (a & Ea & Eq). rewrite Eq in Es. inversion Es; subst s; clear Es.
  cbn [ms_velocity ms_acceleration ms_jerk]. destruct (B _ _ Ea) as (B1 & B2 & B3).
  set (k := T / pr_duration p) in *.
  assert (K : 1 <= k).
  { unfold k. apply (Rmult_le_reg_r (pr_duration p)); [lra |]. replace (T / pr_duration p * pr_duration p) with T by (field; lra). lra. }
  assert (G : forall n x m, Rabs x <= m -> Rabs (x / k ^ n) <= m).
  { intros n x m Hx. assert (1 <= k ^ n) by (apply pow_R1_Rle; auto). unfold Rdiv. rewrite Rabs_mult, Rabs_inv, (Rabs_pos_eq (k ^ n)) by lra.
    assert (0 < / k ^ n <= 1). { split; [apply Rinv_0_lt_compat; lra |]. rewrite <- Rinv_1. apply Rinv_le_contravar; lra. }
    pose proof (Rabs_pos x). nra. }
  pose proof (G 1%nat _ _ B1) as G1. rewrite pow_1 in G1.
  split; [exact G1 |]. split; [exact (G 2%nat _ _ B2) | exact (G 3%nat _ _ B3)].
Qed.

(** Any other request leaves the profile as it is. *)
Theorem C59_unchanged : forall (T : Type) (NT : Num T) (p : Profile (T := T)) duration,
  is_finite duration = false \/ leb duration (pr_duration p) = true \/ leb (pr_duration p) zero = true ->
  stretched_to p duration = p.
Proof.
  intros T NT p duration H. unfold stretched_to.
  destruct H as [-> | [-> | ->]]; cbn [negb orb]; rewrite ?orb_true_r; reflexivity.
Qed.

Lemma obtained_end p : obtained p -> 0 <= pr_duration p /\ forall t, pr_duration p <= t ->
  state_at p t = Ok {| ms_position := pr_distance p; ms_velocity := 0; ms_acceleration := 0; ms_jerk := 0 |}.
Proof.
  intros Hp. destruct (obtained_sound p Hp) as (vm & am & jm & H1 & H2 & H3 & HS).
  pose proof (sound_duration _ _ _ _ _ HS) as N. split; [exact N |]. intros t L. rewrite (sound_state _ _ _ _ _ t HS). f_equal.
  destruct (chain_total _ (so_positive _ _ _ _ _ HS) (pr_distance p) 0 (Rmax t 0)) as (C1 & C2 & C3 & C4).
  { rewrite <- (so_duration _ _ _ _ _ HS). rewrite Rmax_left; lra. }
  unfold moment. rewrite C1, C2, C3, C4. reflexivity.
Qed.

Lemma slowest_spec axes : 0 <= slowest_duration axes /\
  (forall axis, List.In axis axes -> pr_duration axis <= slowest_duration axes) /\
  (slowest_duration axes = 0 \/ exists axis, List.In axis axes /\ pr_duration axis = slowest_duration axes).
Proof.
  unfold slowest_duration. rnum.
  assert (G : forall l a, 0 <= a -> a <= fold_left (fun longest axis => Rmax longest (pr_duration axis)) l a /\
    (forall axis, List.In axis l -> pr_duration axis <= fold_left (fun longest axis => Rmax longest (pr_duration axis)) l a) /\
    (fold_left (fun longest axis => Rmax longest (pr_duration axis)) l a = a \/
     exists axis, List.In axis l /\ pr_duration axis = fold_left (fun longest axis => Rmax longest (pr_duration axis)) l a)).
  { induction l as [| x r IH]; intros a Ha; cbn [fold_left List.In].
    - split; [lra |]. split; [tauto | auto].
    - pose proof (Rmax_l a (pr_duration x)). pose proof (Rmax_r a (pr_duration x)).
      destruct (IH (Rmax a (pr_duration x)) ltac:(lra)) as (I1 & I2 & I3).
      split; [lra |]. split.
      + intros axis [<- | Hin]; [lra | auto].
      + destruct I3 as [I3 | (axis & I3 & I4)]; [| right; eauto].
        rewrite I3. unfold Rmax. destruct (Rle_dec a (pr_duration x)); [right; eauto | auto]. }
  destruct (G axes 0 ltac:(lra)) as (G1 & G2 & G3). auto.
Qed.

(** Synchronised axes take the duration of the slowest (or the requested one, when that is longer), each of them that
    moves at all takes exactly that long, and at the end every axis is on its own target, at rest. *)
Theorem C59_synchronized : forall axes, List.Forall obtained axes ->
  (let s := from_profiles axes in
   (forall axis, List.In axis axes -> pr_duration axis <= sy_duration s) /\
   (sy_duration s = 0 \/ exists axis, List.In axis axes /\ pr_duration axis = sy_duration s)) /\
  (forall T s, try_from_profiles_over axes T = Ok s -> 0 < T /\ T <= sy_duration s /\
   (forall axis, List.In axis axes -> pr_duration axis <= sy_duration s) /\
   (sy_duration s = T \/ exists axis, List.In axis axes /\ pr_duration axis = sy_duration s)) /\
  (forall T, 0 < T -> exists s, try_from_profiles_over axes T = Ok s) /\
  (forall s, (s = from_profiles axes \/ exists T, try_from_profiles_over axes T = Ok s) ->
   length (sy_axes s) = length axes /\
   (forall i axis, nth_error axes i = Some axis -> exists axis', nth_error (sy_axes s) i = Some axis' /\
      pr_distance axis' = pr_distance axis /\ (0 < pr_duration axis -> pr_duration axis' = sy_duration s)) /\
   forall t, sy_duration s <= t ->
     synchronized_state_at s t =
       Ok (map (fun axis => {| ms_position := pr_distance axis; ms_velocity := 0; ms_acceleration := 0; ms_jerk := 0 |}) axes)).
Proof.
  intros axes HA. destruct (slowest_spec axes) as (S0 & S1 & S2).
  split; [cbn; auto |].
  split.
  { intros T s. unfold try_from_profiles_over. rnum. cbn [negb orb].
    destruct (Rleb T 0) eqn:E; rcases; [discriminate |]. intros Q; inversion Q; clear Q. cbn [sy_duration].
    pose proof (Rmax_l T (slowest_duration axes)). pose proof (Rmax_r T (slowest_duration axes)).
    split; [lra |]. split; [lra |]. split; [intros axis Hin; specialize (S1 axis Hin); lra |].
    unfold Rmax. destruct (Rle_dec T (slowest_duration axes)); [| auto].
    destruct S2 as [S2 | S2]; [left; lra | auto]. }
  split.
  { intros T HT. unfold try_from_profiles_over. rnum. cbn [negb orb]. destruct (Rleb T 0) eqn:E; rcases; [lra | eauto]. }
  assert (G : forall target, slowest_duration axes <= target ->
    let s := {| sy_axes := stretched_axes axes target; sy_duration := target |} in
    length (sy_axes s) = length axes /\
   (forall i axis, nth_error axes i = Some axis -> exists axis', nth_error (sy_axes s) i = Some axis' /\
      pr_distance axis' = pr_distance axis /\ (0 < pr_duration axis -> pr_duration axis' = sy_duration s)) /\
   forall t, sy_duration s <= t ->
     synchronized_state_at s t =
       Ok (map (fun axis => {| ms_position := pr_distance axis; ms_velocity := 0; ms_acceleration := 0; ms_jerk := 0 |}) axes)).
  { intros target Ht s. unfold s, stretched_axes; cbn [sy_axes sy_duration].
    assert (ST : forall axis, List.In axis axes -> pr_distance (stretched_to axis target) = pr_distance axis /\
      (0 < pr_duration axis -> pr_duration (stretched_to axis target) = target) /\ pr_duration (stretched_to axis target) <= target).
    { intros axis Hin. specialize (S1 axis Hin). destruct (stretched_cases axis target) as [[Q ->] | [Q ->]].
      - split; [reflexivity |]. split; [intros; lra | lra].
      - cbn. split; [reflexivity |]. assert (E : pr_duration axis * (target / pr_duration axis) = target) by (field; lra).
        rewrite E. split; [reflexivity | lra]. }
    split; [apply map_length |]. split.
    - intros i axis Hi. exists (stretched_to axis target). split; [rewrite nth_error_map, Hi; reflexivity |].
      apply nth_error_In in Hi. destruct (ST axis Hi) as (A1 & A2 & _). auto.
    - intros t L. unfold synchronized_state_at; cbn [sy_axes].
      assert (I : forall l, (forall axis, List.In axis l -> List.In axis axes) ->
        synchronized_states (map (fun axis => stretched_to axis target) l) t =
        Ok (map (fun axis => {| ms_position := pr_distance axis; ms_velocity := 0; ms_acceleration := 0; ms_jerk := 0 |}) l)).
      { induction l as [| axis r IH]; intros Hsub; cbn [map synchronized_states]; [reflexivity |].
        assert (Hin : List.In axis axes) by (apply Hsub; left; reflexivity).
        destruct (ST axis Hin) as (A1 & _ & A2).
        assert (Ho : obtained (stretched_to axis target)).
        { constructor. rewrite List.Forall_forall in HA. auto. }
        destruct (obtained_end _ Ho) as [_ E]. rewrite E by lra. rewrite IH by (intros; apply Hsub; right; auto).
        rewrite A1. reflexivity. }
      apply I. auto. }
  intros s [-> | [T HT]].
  - apply G. lra.
  - unfold try_from_profiles_over in HT. rnum. cbn [negb orb] in HT. destruct (Rleb T 0); [discriminate |].
    inversion HT. apply G. apply Rmax_r.
Qed.

Example C59_example : exists p, obtained p /\ 0 < pr_duration p < 14 /\
  pr_duration (stretched_to p 14) = 14 /\ List.Forall obtained [p; stretched_to p 14].
Proof.
  destruct C57_example as (lim & p & HL & HP & E). exists p.
  assert (O : obtained p) by (econstructor; eauto). split; [exact O |]. split; [lra |].
  split; [apply C59_stretched; [exact O | lra] |]. repeat constructor; auto.
Qed.

Print Assumptions C57_move.
Print Assumptions C57_mirror.
Print Assumptions C57_peak_speed.
Print Assumptions C57_refusals.
Print Assumptions C58_trapezoidal_fastest.
Print Assumptions C72_jerk_limited_fastest.
Print Assumptions C59_stretched.
Print Assumptions C59_limits_kept.
Print Assumptions C59_unchanged.
Print Assumptions C59_synchronized.
