(** No admissible motion beats the planner: upper bounds on how far a motion within limits can get. *)
From Coq Require Import Reals Lra Lia List Bool Psatz.
From Coquelicot Require Import Coquelicot.
From Verif Require Import Spec.Motion.
Local Open Scope R_scope.

Lemma growth (f df g dg : R -> R) (a b : R) : a <= b ->
  (forall t, a <= t <= b -> is_derive f t (df t)) -> (forall t, a <= t <= b -> is_derive g t (dg t)) ->
  (forall t, a <= t <= b -> df t <= dg t) -> f b - f a <= g b - g a.
Proof.
  intros L Hf Hg H.
  destruct (MVT_gen (fun x => g x - f x) a b (fun x => dg x - df x)) as (c & Hc & E).
  - intros x Hx. rewrite Rmin_left, Rmax_right in Hx by lra.
    apply (is_derive_minus (V := R_NormedModule)); [apply Hg; lra | apply Hf; lra].
  - intros x Hx. rewrite Rmin_left, Rmax_right in Hx by lra.
    apply continuity_pt_filterlim. apply (ex_derive_continuous (fun x => g x - f x)).
    exists (dg x - df x). apply (is_derive_minus (V := R_NormedModule)); [apply Hg; lra | apply Hf; lra].
  - rewrite Rmin_left, Rmax_right in Hc by lra. specialize (H c Hc). nra.
Qed.

Lemma growth_to (f df g dg : R -> R) (a b k : R) : a <= b ->
  (forall t, a <= t <= b -> is_derive f t (df t)) -> (forall t, a <= t <= b -> is_derive g t (dg t)) ->
  (forall t, a <= t <= b -> df t <= dg t) -> g b - g a = k -> f b - f a <= k.
Proof. intros. subst k. eapply growth; eauto. Qed.

(** A weighted sum of position and velocity changes at the weighted acceleration. *)
Lemma weighted_derive p v a m t : is_derive p t (v t) -> is_derive v t a ->
  is_derive (fun x => p x + (m - x) * v x) t ((m - t) * a).
Proof.
  intros Hp Hv.
  evar_last.
  - apply (is_derive_plus (V := R_NormedModule)); [exact Hp |].
    apply (is_derive_mult (fun x => m - x) v t (-1) a); [auto_derive; auto; ring | exact Hv | intros; apply Rmult_comm].
  - unfold plus, mult; simpl. ring.
Qed.

Section Moves.
  Variables (p v : R -> R) (T d V A : R).
  Hypothesis HT : 0 <= T.
  Hypothesis rest : rest_to_rest p v T d.
  Hypothesis lim : speed_limited V A p v T.

  Lemma speed_early t : 0 <= t <= T -> v t <= A * t /\ v t <= V.
  Proof.
    intros Ht. destruct rest as (R1 & R2 & R3 & R4).
    destruct (lim 0 ltac:(lra)) as (_ & _ & H). specialize (H t Ht). rewrite R2 in H.
    destruct (lim t Ht) as (_ & H2 & _). apply Rabs_le_between in H2.
    rewrite (Rabs_pos_eq (t - 0)) in H by lra. apply Rabs_le_between in H. lra.
  Qed.
  Lemma speed_late t : 0 <= t <= T -> v t <= A * (T - t).
  Proof.
    intros Ht. destruct rest as (R1 & R2 & R3 & R4).
    destruct (lim T ltac:(lra)) as (_ & _ & H). specialize (H t Ht). rewrite R4 in H.
    rewrite (Rabs_left1 (t - T)) in H by lra. apply Rabs_le_between in H. lra.
  Qed.

  Lemma trapezoid_bound tau : 0 <= tau -> 2 * tau <= T -> d <= A * tau * tau + V * (T - 2 * tau).
  Proof.
    intros H0 H1. destruct rest as (R1 & R2 & R3 & R4).
    assert (D : forall t, 0 <= t <= T -> is_derive p t (v t)) by (intros t Ht; apply lim; auto).
    assert (G1 : p tau - p 0 <= A * tau * tau / 2).
    { apply (growth_to p v (fun x => A * x * x / 2) (fun x => A * x)); [ | | | | cbv beta; field]; auto.
      - intros; apply D; lra.
      - intros; auto_derive; auto; field.
      - intros; apply speed_early; lra. }
    assert (G2 : p (T - tau) - p tau <= V * (T - 2 * tau)).
    { apply (growth_to p v (fun x => V * x) (fun x => V)); [ | | | | cbv beta; field]; try lra.
      - intros; apply D; lra.
      - intros; auto_derive; auto; ring.
      - intros; apply speed_early; lra. }
    assert (G3 : p T - p (T - tau) <= A * tau * tau / 2).
    { apply (growth_to p v (fun x => - (A * (T - x) * (T - x) / 2)) (fun x => A * (T - x))); [ | | | | cbv beta; field]; try lra.
      - intros; apply D; lra.
      - intros; auto_derive; auto; field.
      - intros; apply speed_late; lra. }
    lra.
  Qed.

  (** The three-phase shape is the fastest. *)
  Lemma trapezoid_fastest at_ ct : 0 < at_ -> 0 <= ct -> 0 < A -> A * at_ <= V -> ct = 0 \/ A * at_ = V ->
    A * at_ * (at_ + ct) = d -> at_ + ct + at_ <= T.
  Proof.
    intros Hat Hct HA HV C E. destruct (Rle_dec (at_ + ct + at_) T) as [L | L]; auto. exfalso.
    assert (P : 0 < A * at_) by (apply Rmult_lt_0_compat; auto).
    destruct (Rle_dec (2 * at_) T) as [L2 | L2].
    - destruct C as [C | C]; [lra |].
      pose proof (trapezoid_bound at_ ltac:(lra) L2) as B. rewrite <- C in B. nra.
    - pose proof (trapezoid_bound (T / 2) ltac:(lra) ltac:(lra)) as B.
      replace (V * (T - 2 * (T / 2))) with 0 in B by field.
      assert (A * (T / 2) * (T / 2) < A * at_ * at_).
      { assert (T / 2 < at_) by lra. assert (T / 2 * (T / 2) < at_ * at_) by nra. nra. }
      nra.
  Qed.
End Moves.

(** * With a jerk limit *)

(** Around its middle, a weight that changes sign there gains at most what full jerk gains. *)
Lemma turn_gain (f a : R -> R) (m h J : R) : 0 <= h ->
  (forall t, m - h <= t <= m + h -> is_derive f t ((m - t) * a t)) ->
  (forall t u, m - h <= t <= m + h -> m - h <= u <= m + h -> Rabs (a u - a t) <= J * Rabs (u - t)) ->
  f (m + h) - f (m - h) <= 2 * J * h * h * h / 3.
Proof.
  intros H0 D L.
  set (G := fun s => f (m + s) - f (m - s)).
  assert (E : G h - G 0 <= 2 * J * h * h * h / 3).
  { apply (growth_to G (fun s => s * (a (m - s) - a (m + s))) (fun s => 2 * J * s * s * s / 3) (fun s => 2 * J * s * s)); [ | | | | cbv beta; field]; auto.
    - intros s Hs. unfold G. evar_last.
      + apply (is_derive_minus (V := R_NormedModule)).
        * apply (is_derive_comp f (fun s => m + s)); [apply D; lra | auto_derive; auto; reflexivity].
        * apply (is_derive_comp f (fun s => m - s)); [apply D; lra | auto_derive; auto; reflexivity].
      + unfold minus, plus, opp, scal; simpl. unfold mult; simpl. ring.
    - intros s Hs. auto_derive; auto. field.
    - intros s Hs. specialize (L (m + s) (m - s) ltac:(lra) ltac:(lra)).
      apply Rabs_le_between in L. rewrite (Rabs_left1 (m - s - (m + s))) in L by lra. nra. }
  unfold G in E. replace (m + 0) with m in E by ring. replace (m - 0) with m in E by ring. lra.
Qed.

Section JerkMoves.
  Variables (p v a : R -> R) (T d V A J : R).
  Hypothesis HT : 0 <= T.
  Hypothesis rest : rest_to_rest p v T d.
  Hypothesis lim : jerk_limited V A J p v a T.

  Lemma acc_early t : 0 <= t <= T -> a t <= J * t /\ a t <= A.
  Proof.
    intros Ht. destruct lim as (A0 & A1 & H).
    destruct (H 0 ltac:(lra)) as (_ & _ & _ & _ & H1). specialize (H1 t Ht). rewrite A0 in H1.
    destruct (H t Ht) as (_ & _ & _ & H2 & _). apply Rabs_le_between in H2.
    rewrite (Rabs_pos_eq (t - 0)) in H1 by lra. apply Rabs_le_between in H1. lra.
  Qed.

  (** The first part of a ramp: jerk up for [t1], then hold to [t2]. *)
  Lemma ramp_gain m t1 t2 : 0 <= t1 -> t1 <= t2 -> t2 <= m -> t2 <= T -> (t1 = t2 \/ A = J * t1) ->
    let F x := p x + (m - x) * v x in
    F t2 - F 0 <= J * (m * t1 * t1 / 2 - t1 * t1 * t1 / 3) + J * t1 * (m * (t2 - t1) - (t2 * t2 - t1 * t1) / 2).
  Proof.
    intros H0 H1 H2 H3 C F. destruct lim as (A0 & A1 & H).
    assert (D : forall t, 0 <= t <= T -> is_derive F t ((m - t) * a t)).
    { intros t Ht. destruct (H t Ht) as (D1 & D2 & _). apply weighted_derive; auto. }
    assert (G1 : F t1 - F 0 <= J * (m * t1 * t1 / 2 - t1 * t1 * t1 / 3)).
    { apply (growth_to F (fun t => (m - t) * a t) (fun x => J * (m * x * x / 2 - x * x * x / 3)) (fun x => (m - x) * (J * x))); [ | | | | cbv beta; field]; auto.
      - intros t Ht. apply D. lra.
      - intros t Ht. auto_derive; auto. field.
      - intros t Ht. apply Rmult_le_compat_l; [lra |]. apply acc_early. lra. }
    assert (G2 : F t2 - F t1 <= J * t1 * (m * (t2 - t1) - (t2 * t2 - t1 * t1) / 2)).
    { destruct C as [<- | C]; [apply Req_le; field |].
      apply (growth_to F (fun t => (m - t) * a t) (fun x => J * t1 * (m * x - x * x / 2)) (fun x => (m - x) * (J * t1))); [ | | | | cbv beta; field]; auto.
      - intros t Ht. apply D. lra.
      - intros t Ht. auto_derive; auto. field.
      - intros t Ht. apply Rmult_le_compat_l; [lra |]. rewrite <- C. apply acc_early. lra. }
    lra.
  Qed.

  Lemma turn_gain_here m h : 0 <= h -> 0 <= m - h -> m + h <= T ->
    let F x := p x + (m - x) * v x in F (m + h) - F (m - h) <= 2 * J * h * h * h / 3.
  Proof.
    intros H0 H1 H2 F. destruct lim as (A0 & A1 & H). apply (turn_gain F a); auto.
    - intros t Ht. destruct (H t ltac:(lra)) as (D1 & D2 & _). apply weighted_derive; auto.
    - intros t u Ht Hu. destruct (H t ltac:(lra)) as (_ & _ & _ & _ & L). apply L. lra.
  Qed.

  (** How far a ramp to full speed can get. *)
  Lemma ramp_bound jt ht : 0 <= jt -> 0 <= ht -> jt + jt + ht <= T -> (ht = 0 \/ J * jt = A) ->
    J * jt * (jt + ht) = V -> p (jt + jt + ht) - p 0 <= V * (jt + jt + ht) / 2.
  Proof.
    intros H0 H1 H2 C E. set (m := 3 / 2 * jt + ht).
    assert (C' : jt = jt + ht \/ A = J * jt) by (destruct C; [left | right]; lra).
    pose proof (ramp_gain m jt (jt + ht) ltac:(lra) ltac:(lra) ltac:(unfold m; lra) ltac:(lra) C') as G1.
    pose proof (turn_gain_here m (jt / 2) ltac:(lra) ltac:(unfold m; lra) ltac:(unfold m; lra)) as G2.
    cbv zeta beta in G1, G2.
    replace (m + jt / 2) with (jt + jt + ht) in G2 by (unfold m; field).
    replace (m - jt / 2) with (jt + ht) in G2 by (unfold m; field).
    destruct rest as (R1 & R2 & R3 & R4). rewrite R2 in G1.
    destruct lim as (_ & _ & H). destruct (H (jt + jt + ht) ltac:(lra)) as (_ & _ & B & _).
    apply Rabs_le_between in B.
    assert (B' : jt / 2 * v (jt + jt + ht) <= jt / 2 * V) by (apply Rmult_le_compat_l; lra).
    set (x := v (jt + jt + ht)) in *. set (y := p (jt + jt + ht)) in *. set (z := p (jt + ht)) in *. set (w := v (jt + ht)) in *.
    assert (S1 : y + (m - (jt + jt + ht)) * x - p 0 <=
      J * (m * jt * jt / 2 - jt * jt * jt / 3) + J * jt * (m * (jt + ht - jt) - ((jt + ht) * (jt + ht) - jt * jt) / 2)
      + 2 * J * (jt / 2) * (jt / 2) * (jt / 2) / 3) by lra.
    replace (m - (jt + jt + ht)) with (- (jt / 2)) in S1 by (unfold m; field).
    assert (S2 : J * (m * jt * jt / 2 - jt * jt * jt / 3) + J * jt * (m * (jt + ht - jt) - ((jt + ht) * (jt + ht) - jt * jt) / 2)
      + 2 * J * (jt / 2) * (jt / 2) * (jt / 2) / 3 = V * (jt + jt + ht) / 2 - jt / 2 * V).
    { rewrite <- E. unfold m. field. }
    lra.
  Qed.
End JerkMoves.

(** A motion run backwards is a motion. *)
Lemma reversed p v a T d V A J : 0 <= T -> rest_to_rest p v T d -> jerk_limited V A J p v a T ->
  let p' t := d - p (T - t) in let v' t := v (T - t) in let a' t := - a (T - t) in
  rest_to_rest p' v' T d /\ jerk_limited V A J p' v' a' T.
Proof.
  intros HT (R1 & R2 & R3 & R4) (A0 & A1 & H) p' v' a'. unfold p', v', a'.
  assert (Z0 : T - T = 0) by ring. assert (Z1 : T - 0 = T) by ring.
  split; [unfold rest_to_rest; rewrite Z0, Z1, R1, R2, R3, R4; repeat split; ring |].
  split; [rewrite Z1, A1; ring |]. split; [rewrite Z0, A0; ring |].
  intros t Ht. destruct (H (T - t) ltac:(lra)) as (D1 & D2 & B1 & B2 & L).
  split; [| split; [| split; [exact B1 | split; [rewrite Rabs_Ropp; exact B2 |]]]].
  - evar_last.
    + apply (is_derive_minus (V := R_NormedModule)); [apply (is_derive_const (V := R_NormedModule)) |].
      apply (is_derive_comp p (fun s => T - s)); [exact D1 | auto_derive; auto; reflexivity].
    + unfold minus, plus, opp, scal, zero; simpl. unfold mult; simpl. ring.
  - evar_last.
    + apply (is_derive_comp v (fun s => T - s)); [exact D2 | auto_derive; auto; reflexivity].
    + unfold scal; simpl. unfold mult; simpl. ring.
  - intros u Hu. specialize (L (T - u) ltac:(lra)).
    replace (- a (T - u) - - a (T - t)) with (- (a (T - u) - a (T - t))) by ring.
    replace (T - u - (T - t)) with (- (u - t)) in L by ring. rewrite Rabs_Ropp. rewrite (Rabs_Ropp (u - t)) in L. exact L.
Qed.

(** Without a cruise: jerk up for [t1], hold, and turn around the middle of the move. *)
Lemma no_cruise_bound p v a T d V A J t1 : 0 <= T -> rest_to_rest p v T d -> jerk_limited V A J p v a T ->
  0 <= t1 -> 4 * t1 <= T -> (T = 4 * t1 \/ A = J * t1) -> d <= J * t1 * (T / 2) * (T / 2 - t1).
Proof.
  intros HT rest lim H0 H1 C.
  destruct (reversed _ _ _ _ _ _ _ _ HT rest lim) as [rest' lim'].
  assert (C' : t1 = T / 2 - t1 \/ A = J * t1) by (destruct C; [left | right]; lra).
  pose proof (ramp_gain _ _ _ _ _ _ _ HT lim (T / 2) t1 (T / 2 - t1) H0 ltac:(lra) ltac:(lra) ltac:(lra) C') as G1.
  pose proof (ramp_gain _ _ _ _ _ _ _ HT lim' (T / 2) t1 (T / 2 - t1) H0 ltac:(lra) ltac:(lra) ltac:(lra) C') as G2.
  pose proof (turn_gain_here _ _ _ _ _ _ _ lim (T / 2) t1 H0 ltac:(lra) ltac:(lra)) as G3.
  cbv zeta beta in G1, G2, G3.
  replace (T - (T / 2 - t1)) with (T / 2 + t1) in G2 by field. rewrite Rminus_0_r in G2.
  destruct rest as (R1 & R2 & R3 & R4). rewrite R1, R2 in G1. rewrite R3, R4 in G2.
  set (b := J * (T / 2 * t1 * t1 / 2 - t1 * t1 * t1 / 3)) in *.
  set (c := J * t1 * (T / 2 * (T / 2 - t1 - t1) - ((T / 2 - t1) * (T / 2 - t1) - t1 * t1) / 2)) in *.
  assert (E : b + c + (b + c) + 2 * J * t1 * t1 * t1 / 3 = J * t1 * (T / 2) * (T / 2 - t1)) by (unfold b, c; field).
  rewrite <- E. lra.
Qed.

(** The seven-phase shape is the fastest. *)
Lemma scurve_fastest p v a T d V A J jt ht ct : 0 <= T -> rest_to_rest p v T d -> jerk_limited V A J p v a T ->
  0 < J -> 0 < jt -> 0 <= ht -> 0 <= ct -> J * jt <= A -> (ht = 0 \/ J * jt = A) ->
  J * jt * (jt + ht) <= V -> (ct = 0 \/ J * jt * (jt + ht) = V) ->
  J * jt * (jt + ht) * (jt + jt + ht + ct) = d -> 2 * (jt + jt + ht) + ct <= T.
Proof.
  intros HT rest lim HJ Hjt Hht Hct HA CA HV CV E.
  destruct (Rle_dec (2 * (jt + jt + ht) + ct) T) as [L | L]; auto. exfalso.
  assert (P1 : 0 < J * jt) by (apply Rmult_lt_0_compat; auto).
  assert (P2 : 0 < J * jt * (jt + ht)) by (apply Rmult_lt_0_compat; lra).
  destruct (Rle_dec (2 * (jt + jt + ht)) T) as [L2 | L2].
  - destruct CV as [CV | CV]; [lra |].
    destruct (reversed _ _ _ _ _ _ _ _ HT rest lim) as [rest' lim'].
    set (R0 := jt + jt + ht) in *.
    assert (B1 : p R0 - p 0 <= V * R0 / 2).
    { apply (ramp_bound p v a T d V A J HT rest lim jt ht); auto; try lra; unfold R0 in *; lra. }
    assert (B2 : (d - p (T - R0)) - (d - p (T - 0)) <= V * R0 / 2).
    { apply (ramp_bound _ _ _ T d V A J HT rest' lim' jt ht); auto; try lra; unfold R0 in *; lra. }
    rewrite Rminus_0_r in B2.
    assert (B3 : p (T - R0) - p R0 <= V * (T - 2 * R0)).
    { destruct lim as (_ & _ & H).
      apply (growth_to p v (fun x => V * x) (fun x => V)); [ | | | | cbv beta; field]; try lra.
      - intros t Ht. apply H. unfold R0 in *. lra.
      - intros; auto_derive; auto; ring.
      - intros t Ht. assert (Ht' : 0 <= t <= T) by (unfold R0 in *; lra). destruct (H t Ht') as (_ & _ & B & _). apply Rabs_le_between in B. lra. }
    destruct rest as (R1 & R2 & R3 & R4). rewrite R1 in B1. rewrite R3 in B2.
    assert (d <= V * (T - R0)) by lra. nra.
  - assert (X : exists t1, 0 <= t1 /\ t1 <= jt /\ 4 * t1 <= T /\ (T = 4 * t1 \/ A = J * t1) /\ t1 * (T / 2 - t1) <= jt * (jt + ht)).
    { destruct (Rle_dec (4 * jt) T) as [L3 | L3].
      - exists jt. split; [lra |]. split; [lra |]. split; [lra |]. split; [right; destruct CA; lra | apply Rmult_le_compat_l; lra].
      - exists (T / 4). split; [lra |]. split; [lra |]. split; [lra |]. split; [left; lra |]. assert (T / 4 * (T / 4) <= jt * jt) by nra. nra. }
    destruct X as (t1 & X0 & X1 & X2 & X3 & X4).
    pose proof (no_cruise_bound _ _ _ _ _ _ _ _ _ HT rest lim X0 X2 X3) as B.
    replace (J * t1 * (T / 2) * (T / 2 - t1)) with (J * (t1 * (T / 2 - t1)) * (T / 2)) in B by ring.
    assert (Y1 : J * (t1 * (T / 2 - t1)) <= J * jt * (jt + ht)) by nra.
    assert (Y2 : J * (t1 * (T / 2 - t1)) * (T / 2) <= J * jt * (jt + ht) * (T / 2)) by (apply Rmult_le_compat_r; lra).
    nra.
Qed.
