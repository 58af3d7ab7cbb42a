(** Lemmas behind Props/Pid.v. *)
From Coq Require Import ZArith List Bool Reals Lra Lia.
From Flocq Require Import Core IEEE754.BinarySingleNaN.
From Verif Require Import Base.Scalar Base.RNum Base.XNum Base.FNum Base.FloatOps Model.Errors Model.Conditioning Model.Pid
  Spec.Control.
Import ListNotations.
Local Open Scope R_scope.

Ltac res H := match type of H with context [if ?b then _ else _] => destruct b eqn:?; try discriminate H end.

(** ** Limits of a reachable controller *)
Section Any.
  Context {T : Type} {NT : Num T} (allowed : T -> Prop).
  Lemma controller_limits lo hi c : controller allowed lo hi c -> pd_output_minimum c = lo /\ pd_output_maximum c = hi.
  Proof.
    induction 1 as [kp ki kd dt c H | lo hi c lo' hi' c' C IH H | lo hi c s c' C IH H | lo hi c kp ki kd c' C IH H
      | lo hi c o sp m c' C IH H | lo hi c sp m C IH | lo hi c C IH].
    - unfold pid_new in H. res H. res H. destruct (signal_error _); try discriminate. inversion H. auto.
    - unfold pid_with_output_limits in H. res H. res H. inversion H. auto.
    - unfold pid_with_derivative_filter in H. destruct (signal_error _); try discriminate. inversion H. auto.
    - unfold pid_set_gains in H. res H. inversion H. auto.
    - unfold pid_resume_from in H. res H. inversion H. auto.
    - exact IH.
    - exact IH.
  Qed.
End Any.

(** ** Floats *)
Section Float.
  Context (prec emax : Z) (Hp : Prec_gt_0 prec) (He : Prec_lt_emax prec emax) (pm pe : Z).
  Notation fl := (binary_float prec emax).
  Context (lm : Libm fl).
  #[local] Instance NF : Num fl := fnum prec emax pm pe lm.

  Lemma limits_sane (allowed : fl -> Prop) lo hi c : controller allowed lo hi c ->
    notnan prec emax lo /\ notnan prec emax hi /\ Bleb lo hi = true.
  Proof.
    induction 1 as [kp ki kd dt c H | lo hi c lo' hi' c' C IH H | | | | |]; try assumption.
    - repeat split; reflexivity.
    - unfold pid_with_output_limits in H. res H. res H.
      apply orb_false_elim in Heqb. destruct Heqb as [N1 N2]. repeat split; auto.
      apply fnlt_le; auto.
  Qed.
End Float.

(** ** Exact arithmetic *)
Definition finite (x : XR) : Prop := exists r, x = Fin r.

Definition st (kp ki kd dt : R) (lo hi : XR) (I s x : R) (init : bool) (pm pe : R) (hp : bool) : Pid XR := {|
  pd_proportional_gain := Fin kp; pd_integral_gain := Fin ki; pd_derivative_gain := Fin kd; pd_timestep := Fin dt;
  pd_output_minimum := lo; pd_output_maximum := hi; pd_integral := Fin I;
  pd_derivative_filter := mkOnePole (Fin s) (Fin x) init; pd_previous_measurement := Fin pm;
  pd_previous_error := Fin pe; pd_has_previous_measurement := hp |}.

(** one update with finite state and finite input *)
Definition raw (dt pm : R) (hp : bool) (m : R) : R := if hp then (pm - m) / dt else 0.
Definition filtered (s x : R) (init : bool) (r : R) : R := if init then s * r + (1 - s) * x else r.
Definition demand (kp ki kd dt I s x : R) (init : bool) (pm : R) (hp : bool) (sp m : R) : R :=
  kp * (sp - m) + (I + ki * (sp - m) * dt) + kd * filtered s x init (raw dt pm hp m).
Definition deeper (lo hi : XR) (u e : R) : bool :=
  (xlt hi (Fin u) && Rltb 0 e) || (xlt (Fin u) lo && Rltb e 0).

Lemma update_st kp ki kd dt lo hi I s x init pm pe hp sp m : dt <> 0 ->
  pid_update (st kp ki kd dt lo hi I s x init pm pe hp) (Fin sp) (Fin m) =
  (let u := demand kp ki kd dt I s x init pm hp sp m in
   let D := filtered s x init (raw dt pm hp m) in
   (st kp ki kd dt lo hi (if deeper lo hi u (sp - m) then I else I + ki * (sp - m) * dt) s D true m (sp - m) true,
    xmin (xmax (Fin u) lo) hi)).
Proof.
  intros Hdt. unfold pid_update, st, demand, deeper.
  cbn [pd_proportional_gain pd_integral_gain pd_derivative_gain pd_timestep pd_output_minimum pd_output_maximum
       pd_integral pd_derivative_filter pd_previous_measurement pd_previous_error pd_has_previous_measurement].
  unfold one_pole_filter. cbn [op_smoothing op_state op_initialized].
  replace (if hp then div (sub (Fin pm) (Fin m)) (Fin dt) else zero) with (Fin (raw dt pm hp m)).
  2:{ destruct hp; cbn [raw]; [| reflexivity].
      change (div (sub (Fin pm) (Fin m)) (Fin dt)) with (xdiv (Fin (pm + - m)) (Fin dt)). rewrite xdiv_fin by exact Hdt. reflexivity. }
  set (r := raw dt pm hp m).
  replace (if init then add (mul (Fin s) (Fin r)) (mul (sub one (Fin s)) (Fin x)) else Fin r) with (Fin (filtered s x init r))
    by (destruct init; reflexivity).
  set (D := filtered s x init r).
  assert (EQ : add (add (mul (Fin kp) (sub (Fin sp) (Fin m)))
         (add (Fin I) (mul (mul (Fin ki) (sub (Fin sp) (Fin m))) (Fin dt)))) (mul (Fin kd) (Fin D))
     = Fin (kp * (sp - m) + (I + ki * (sp - m) * dt) + kd * D)) by reflexivity.
  rewrite EQ. cbv zeta. f_equal. f_equal.
  change (sub (Fin sp) (Fin m)) with (Fin (sp - m)).
  change (ltb zero (Fin (sp - m))) with (Rltb 0 (sp - m)). change (ltb (Fin (sp - m)) zero) with (Rltb (sp - m) 0).
  change (@ltb XR Xnum) with xlt. destruct (_ || _); reflexivity.
Qed.

(** reachable controllers have that form *)
Definition sane (lo hi : XR) : Prop := xis_nan lo = false /\ xis_nan hi = false /\ xlt hi lo = false.
Definition wf (lo hi : XR) (c : Pid XR) : Prop :=
  sane lo hi /\ exists kp ki kd dt I s x init pm pe hp,
    c = st kp ki kd dt lo hi I s x init pm pe hp /\ 0 < dt /\ 0 <= s <= 1.

Lemma not_finite_err (x : XR) : negb (is_finite x) = false -> exists r, x = Fin r.
Proof. destruct x; cbn; try discriminate. eauto. Qed.
Lemma smoothing_ok (x : XR) f : signal_error (one_pole_new x) = Ok f ->
  exists s, x = Fin s /\ 0 <= s <= 1 /\ f = mkOnePole (Fin s) (Fin 0) false.
Proof.
  unfold one_pole_new, signal_error. destruct (negb (is_finite x)) eqn:F; [discriminate |].
  destruct (not_finite_err x F) as [s ->]. xnum. destruct (Rltb s 0) eqn:A; [discriminate |].
  destruct (Rltb 1 s) eqn:B; [discriminate |]. cbn. intros H. rcases. inversion H. exists s. repeat split; auto; lra.
Qed.
Lemma controller_wf lo hi c : controller finite lo hi c -> wf lo hi c.
Proof.
  induction 1 as [kp ki kd dt c H | lo hi c lo' hi' c' C IH H | lo hi c s c' C IH H | lo hi c kp ki kd c' C IH H
    | lo hi c o sp m c' C IH H | lo hi c sp m C IH Fs Fm | lo hi c C IH].
  - split; [repeat split |]. unfold pid_new in H.
    destruct (_ || _ || _ || _) eqn:F in H; [discriminate |].
    apply orb_false_elim in F as [F F4]. apply orb_false_elim in F as [F F3]. apply orb_false_elim in F as [F1 F2].
    apply not_finite_err in F1 as [a ->]. apply not_finite_err in F2 as [b ->].
    apply not_finite_err in F3 as [d ->]. apply not_finite_err in F4 as [t ->].
    destruct (leb (Fin t) zero) eqn:L; [discriminate |]. cbn in L.
    destruct (signal_error _) as [f | e |] eqn:S; try discriminate.
    apply smoothing_ok in S as (s & S1 & S2 & ->). inversion S1. subst s. inversion H. subst c. rcases.
    exists a, b, d, t, 0, 1, 0, false, 0, 0, false. repeat split; lra.
  - destruct IH as (_ & kp & ki & kd & dt & I & s & x & init & pm & pe & hp & -> & D & S).
    unfold pid_with_output_limits in H. destruct (is_nan lo' || is_nan hi') eqn:N1; [discriminate |].
    apply orb_false_elim in N1 as [N1 N2]. destruct (ltb hi' lo') eqn:L; [discriminate |]. inversion H. subst c'.
    split; [repeat split; auto |].
    exists kp, ki, kd, dt, I, s, x, init, pm, pe, hp. repeat split; auto; lra.
  - destruct IH as (SN & kp & ki & kd & dt & I & s0 & x & init & pm & pe & hp & -> & D & S). split; [exact SN |].
    unfold pid_with_derivative_filter in H. destruct (signal_error _) as [f | e |] eqn:E; try discriminate.
    apply smoothing_ok in E as (s1 & -> & S2 & ->). inversion H. subst c'.
    exists kp, ki, kd, dt, I, s1, 0, false, pm, pe, hp. repeat split; auto; lra.
  - destruct IH as (SN & kp0 & ki0 & kd0 & dt & I & s & x & init & pm & pe & hp & -> & D & S). split; [exact SN |].
    unfold pid_set_gains in H. destruct (_ || _ || _) eqn:F in H; [discriminate |].
    apply orb_false_elim in F as [F F3]. apply orb_false_elim in F as [F1 F2].
    apply not_finite_err in F1 as [a ->]. apply not_finite_err in F2 as [b ->]. apply not_finite_err in F3 as [d ->].
    inversion H. subst c'.
    exists a, b, d, dt, (if hp then I + (kp0 - a) * pe + (kd0 - d) * x else I), s, x, init, pm, pe, hp.
    split; [unfold st; cbn; destruct hp; reflexivity | split; [lra | exact S]].
  - destruct IH as (SN & kp & ki & kd & dt & I & s & x & init & pm & pe & hp & -> & D & S). split; [exact SN |].
    unfold pid_resume_from in H. destruct (_ || _ || _) eqn:F in H; [discriminate |].
    apply orb_false_elim in F as [F F3]. apply orb_false_elim in F as [F1 F2].
    apply not_finite_err in F1 as [a ->]. apply not_finite_err in F2 as [b ->]. apply not_finite_err in F3 as [d ->].
    inversion H. subst c'.
    exists kp, ki, kd, dt, (a - kp * (b - d) - ki * (b - d) * dt), s, 0, false, d, (b - d), true.
    split; [reflexivity | split; [lra | exact S]].
  - destruct IH as (SN & kp & ki & kd & dt & I & s & x & init & pm & pe & hp & -> & D & S). split; [exact SN |].
    destruct Fs as [a ->], Fm as [b ->]. rewrite update_st by lra. cbn [fst].
    do 11 eexists. split; [reflexivity | split; [lra | exact S]].
  - destruct IH as (SN & kp & ki & kd & dt & I & s & x & init & pm & pe & hp & -> & D & S). split; [exact SN |].
    exists kp, ki, kd, dt, 0, s, 0, false, 0, 0, false. split; [reflexivity | split; [lra | exact S]].
Qed.

Lemma unlimited_st kp ki kd dt lo hi I s x init pm pe hp sp m u : dt <> 0 ->
  unlimited_command (st kp ki kd dt lo hi I s x init pm pe hp) (Fin sp) (Fin m) u ->
  u = Fin (demand kp ki kd dt I s x init pm hp sp m).
Proof.
  intros D (free & F & <-). unfold pid_with_output_limits in F. cbn in F. inversion F. subst free.
  change {| pd_proportional_gain := Fin kp; pd_integral_gain := Fin ki; pd_derivative_gain := Fin kd; pd_timestep := Fin dt;
    pd_output_minimum := NInf; pd_output_maximum := PInf; pd_integral := Fin I;
    pd_derivative_filter := mkOnePole (Fin s) (Fin x) init; pd_previous_measurement := Fin pm;
    pd_previous_error := Fin pe; pd_has_previous_measurement := hp |} with (st kp ki kd dt NInf PInf I s x init pm pe hp).
  rewrite update_st by exact D. reflexivity.
Qed.
Lemma unlimited_ex kp ki kd dt lo hi I s x init pm pe hp sp m : dt <> 0 ->
  unlimited_command (st kp ki kd dt lo hi I s x init pm pe hp) (Fin sp) (Fin m)
    (Fin (demand kp ki kd dt I s x init pm hp sp m)).
Proof.
  intros D. exists (st kp ki kd dt NInf PInf I s x init pm pe hp). split; [reflexivity |].
  rewrite update_st by exact D. reflexivity.
Qed.

(** limiting, in the extended reals *)
Lemma limited u lo hi : sane lo hi ->
  let v := xmin (xmax (Fin u) lo) hi in
  xle lo v = true /\ xle v hi = true /\
  (xle lo (Fin u) = true -> xle (Fin u) hi = true -> v = Fin u) /\
  (xlt hi (Fin u) = true -> v = hi) /\ (xlt (Fin u) lo = true -> v = lo).
Proof.
  intros (Nl & Nh & L). unfold xmin, xmax.
  destruct lo as [l | | |], hi as [h | | |]; cbn in *; try discriminate; rcases;
    repeat match goal with
    | |- context [Rltb ?a ?b] => destruct (Rltb a b) eqn:?; cbn
    | |- context [Rleb ?a ?b] => destruct (Rleb a b) eqn:?; cbn
    end; rcases; repeat split; intros; try discriminate; auto; try lra.
Qed.
