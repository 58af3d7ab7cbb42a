From Coq Require Import ZArith List Bool Reals Lra Lia.
From Verif Require Import Base.Scalar Base.RNum Base.Stream Model.Errors Model.Summation Model.Biquad
  Spec.Stream Spec.Biquad Proofs.Summation.
Import ListNotations.
Local Open Scope R_scope.

Notation brun := (state_after biquad_filter).
Notation bout := (outputs biquad_filter).

(** ** Difference equation *)
Lemma lag_new n l x k : n = length l -> lag (l ++ [x]) n (S k) = lag l n (S k).
Proof.
  intros ->. unfold lag. destruct (Nat.ltb_spec (length l) (S k)); [reflexivity|].
  rewrite app_nth1 by lia. reflexivity.
Qed.
Lemma lag_old l x n k : (n < length l)%nat -> lag (l ++ [x]) n k = lag l n k.
Proof. intros H. unfold lag. destruct (Nat.ltb_spec n k); [reflexivity|]. apply app_nth1. lia. Qed.
Lemma lag_0 n l x : n = length l -> lag (l ++ [x]) n 0 = x.
Proof. intros ->. unfold lag. cbn [Nat.ltb Nat.leb]. rewrite Nat.sub_0_r, app_nth2, Nat.sub_diag by lia. reflexivity. Qed.
Lemma lag_S l n k : lag l (S n) (S k) = lag l n k.
Proof. reflexivity. Qed.

Lemma brun_coef c xs (s : Biquad R) : bq_coef s = c -> bq_coef (brun s xs) = c.
Proof. intros H. induction xs as [|x xs IH] using rev_ind; [exact H|]. rewrite state_after_snoc. cbn. exact IH. Qed.

Lemma biquad_memory (c : BiquadCoefficients R) xs :
  let ys := bout (biquad_new c) xs in
  let s := brun (biquad_new c) xs in
  let n := length xs in
  bq_s1 s = b1 c * lag xs n 1 - a1 c * lag ys n 1 + b2 c * lag xs n 2 - a2 c * lag ys n 2 /\
  bq_s2 s = b2 c * lag xs n 1 - a2 c * lag ys n 1 /\
  difference_equation (b0 c) (b1 c) (b2 c) (a1 c) (a2 c) xs ys.
Proof.
  cbv zeta. induction xs as [|x xs IH] using rev_ind.
  - cbn. unfold difference_equation, lag. cbn. repeat split; try lra. intros; lia.
  - destruct IH as (I1 & I2 & IL & ID).
    rewrite state_after_snoc, outputs_snoc, app_length. cbn [length]. rewrite Nat.add_1_r.
    set (s := brun (biquad_new c) xs) in *. set (ys := bout (biquad_new c) xs) in *.
    assert (Ec : bq_coef s = c) by (apply brun_coef; reflexivity).
    unfold biquad_filter. cbn [fst snd bq_s1 bq_s2]. rewrite Ec. rnum.
    set (y := b0 c * x + bq_s1 s).
    remember (length xs) as n eqn:Hx. assert (Hy : n = length ys) by congruence.
    rewrite !lag_S, !lag_0, !lag_new by assumption.
    split; [rewrite I2; ring|]. split; [reflexivity|].
    split; [rewrite !app_length; cbn; lia|].
    intros m Hm. rewrite app_length in Hm. cbn in Hm.
    destruct (Nat.eq_dec m n) as [E|E].
    + subst m. rewrite !lag_0, !lag_new by assumption.
      rewrite app_nth2 by lia. replace (n - length ys)%nat with 0%nat by lia. cbn [nth].
      unfold y. rewrite I1. ring.
    + rewrite !lag_old by lia. rewrite app_nth1 by lia. apply ID. lia.
Qed.

(** Any history with resets leaves what the samples since the last reset leave. *)
Lemma biquad_replay {T} {NT : Num T} (c : BiquadCoefficients T) h :
  replay biquad_filter biquad_reset (biquad_new c) h = state_after biquad_filter (biquad_new c) (since_reset h).
Proof.
  assert (K : forall l, bq_coef (state_after biquad_filter (biquad_new c) l) = c).
  { induction l as [|x l IH] using rev_ind; [reflexivity|]. rewrite state_after_snoc. exact IH. }
  induction h as [|e h IH] using rev_ind; [reflexivity|].
  rewrite replay_snoc, since_reset_snoc. destruct e.
  - rewrite IH, state_after_snoc. reflexivity.
  - rewrite IH. unfold biquad_reset. rewrite K. reflexivity.
Qed.

(** ** Linearity.  A combination of states: [p s + q t]. *)
Definition lin_state (p q : R) (s t : Biquad R) : Biquad R :=
  mkBiquad (bq_coef s) (p * bq_s1 s + q * bq_s1 t) (p * bq_s2 s + q * bq_s2 t) (p * bq_last s + q * bq_last t).

Lemma biquad_lin p q s t x y : bq_coef s = bq_coef t ->
  biquad_filter (lin_state p q s t) (p * x + q * y) =
  (lin_state p q (fst (biquad_filter s x)) (fst (biquad_filter t y)),
   p * snd (biquad_filter s x) + q * snd (biquad_filter t y)).
Proof.
  intros E. unfold biquad_filter, lin_state. cbn [bq_coef bq_s1 bq_s2 bq_last fst snd]. rewrite <- E. rnum.
  f_equal; [f_equal|]; ring.
Qed.

Definition seq_lin (p q : R) (l m : list R) : list R := map (fun z => p * fst z + q * snd z) (combine l m).

Fixpoint lin_cascade (p q : R) (ss ts : list (Biquad R)) : list (Biquad R) :=
  match ss, ts with
  | s :: ss, t :: ts => lin_state p q s t :: lin_cascade p q ss ts
  | _, _ => []
  end.

Lemma cascade_lin p q ss : forall ts x y, map bq_coef ss = map bq_coef ts ->
  cascade_filter (lin_cascade p q ss ts) (p * x + q * y) =
  (lin_cascade p q (fst (cascade_filter ss x)) (fst (cascade_filter ts y)),
   p * snd (cascade_filter ss x) + q * snd (cascade_filter ts y)).
Proof.
  induction ss as [|s ss IH]; intros [|t ts] x y E; try discriminate; [reflexivity|].
  injection E as E1 E2. cbn [lin_cascade cascade_filter].
  rewrite (biquad_lin p q s t x y E1).
  destruct (biquad_filter s x) as [s' u], (biquad_filter t y) as [t' v]. cbn [fst snd].
  rewrite IH by assumption.
  destruct (cascade_filter ss u) as [ss' o], (cascade_filter ts v) as [ts' o']. reflexivity.
Qed.

Lemma cascade_coef ss : forall x, map bq_coef (fst (cascade_filter ss x)) = map (@bq_coef R) ss.
Proof.
  induction ss as [|s ss IH]; intros x; [reflexivity|]. cbn [cascade_filter].
  specialize (IH (snd (biquad_filter s x))).
  destruct (biquad_filter s x) as [s' u] eqn:E. cbn [snd] in IH.
  destruct (cascade_filter ss u) as [ss' o]. cbn [fst map] in *. rewrite IH. f_equal.
  unfold biquad_filter in E. inversion E. reflexivity.
Qed.

Lemma cascade_run_lin p q : forall xs ys ss ts, length xs = length ys -> map bq_coef ss = map bq_coef ts ->
  outputs cascade_filter (lin_cascade p q ss ts) (seq_lin p q xs ys) =
  seq_lin p q (outputs cascade_filter ss xs) (outputs cascade_filter ts ys).
Proof.
  induction xs as [|x xs IH]; intros [|y ys] ss ts L E; try discriminate; [reflexivity|].
  change (seq_lin p q (x :: xs) (y :: ys)) with ((p * x + q * y) :: seq_lin p q xs ys).
  rewrite !outputs_cons, cascade_lin by assumption. cbn [fst snd].
  rewrite IH by (rewrite ?cascade_coef; auto). reflexivity.
Qed.

Lemma lin_cascade_new p q cs : lin_cascade p q (cascade_new cs) (cascade_new cs) = cascade_new cs.
Proof.
  induction cs as [|c cs IH]; [reflexivity|]. cbn. fold (cascade_new cs). rewrite IH.
  unfold lin_state, biquad_new. cbn. f_equal. f_equal; ring.
Qed.

Lemma cascade_single s x : cascade_filter [s] x = ([fst (biquad_filter s x)], snd (biquad_filter (T:=R) s x)).
Proof. cbn. destruct (biquad_filter s x). reflexivity. Qed.

Lemma cascade_single_run xs : forall s, outputs cascade_filter [s] xs = outputs (biquad_filter (T:=R)) s xs.
Proof.
  induction xs as [|x xs IH]; intros s; [reflexivity|]. rewrite !outputs_cons, cascade_single. cbn [fst snd].
  rewrite IH. reflexivity.
Qed.

(** ** A cascade is the composition of its sections *)
Lemma cascade_compose {T} {NT : Num T} : forall xs (s : Biquad T) ss,
  outputs cascade_filter (s :: ss) xs = outputs cascade_filter ss (outputs biquad_filter s xs).
Proof.
  induction xs as [|x xs IH]; intros s ss; [reflexivity|].
  rewrite !outputs_cons. cbn [cascade_filter].
  destruct (biquad_filter s x) as [s' u] eqn:E. cbn [fst snd].
  destruct (cascade_filter ss u) as [ss' o] eqn:E'. cbn [fst snd]. rewrite IH. reflexivity.
Qed.
Lemma cascade_nil {T} {NT : Num T} : forall xs, outputs (@cascade_filter T NT) [] xs = xs.
Proof. induction xs as [|x xs IH]; [reflexivity|]. rewrite outputs_cons. cbn [cascade_filter fst snd]. rewrite IH. reflexivity. Qed.

(** ** settle_to *)
Definition dc_defined (c : BiquadCoefficients R) : Prop := 1 + a1 c + a2 c <> 0.
Definition dc_gain (c : BiquadCoefficients R) : R := (b0 c + b1 c + b2 c) / (1 + a1 c + a2 c).

Lemma settle_fixed s v : dc_defined (bq_coef s) ->
  let s' := biquad_settle_to s v in
  bq_last s' = v * dc_gain (bq_coef s) /\ biquad_filter s' v = (s', bq_last s').
Proof.
  intros D. unfold dc_defined in D. cbv zeta. unfold biquad_filter, biquad_settle_to, dc_gain. cbn [bq_coef bq_s1 bq_s2 bq_last]. rnum.
  split; [field; exact D|]. f_equal; [f_equal|]; field; exact D.
Qed.

Lemma cascade_settle_fixed ss : forall v, Forall (fun s => dc_defined (bq_coef s)) ss ->
  let ss' := cascade_settle_to ss v in
  cascade_filter ss' v = (ss', fold_left (fun acc s => acc * dc_gain (bq_coef s)) ss v) /\
  map bq_coef ss' = map bq_coef ss.
Proof.
  induction ss as [|s ss IH]; intros v HF; [split; reflexivity|]. cbv zeta in *.
  inversion HF as [|? ? D HF']; subst. cbn [cascade_settle_to cascade_filter fold_left].
  destruct (settle_fixed s v D) as [El Ef]. rewrite Ef, El.
  destruct (IH (v * dc_gain (bq_coef s)) HF') as [E1 E2]. rewrite E1. split; [reflexivity|].
  cbn [map]. rewrite E2. reflexivity.
Qed.

Lemma fixed_point_run {S} (step : S -> R -> S * R) s v o : step s v = (s, o) -> forall n,
  outputs step s (repeat v n) = repeat o n /\ state_after step s (repeat v n) = s.
Proof.
  intros E. induction n as [|n [I1 I2]]; [split; reflexivity|]. cbn [repeat].
  rewrite outputs_cons, state_after_cons, E. cbn [fst snd]. rewrite I1, I2. split; reflexivity.
Qed.

(** ** Stability *)
Lemma stable_iff c : is_stable c = true <-> Rabs (a2 c) < 1 /\ Rabs (a1 c) < 1 + a2 c.
Proof. unfold is_stable. rnum. rewrite andb_true_iff, !Rltb_true. reflexivity. Qed.

Lemma Rabs_lt_iff x y : Rabs x < y <-> - y < x < y.
Proof. split; [intros H; unfold Rabs in H; destruct (Rcase_abs x); lra|intros H; unfold Rabs; destruct (Rcase_abs x); lra]. Qed.

Lemma stable_poles c : is_stable c = true <-> (forall x y, is_pole (a1 c) (a2 c) x y -> x * x + y * y < 1).
Proof.
  rewrite stable_iff, !Rabs_lt_iff. set (p := a1 c). set (q := a2 c). split.
  - intros [[Q1 Q2] [P1 P2]] x y [E1 E2].
    destruct (Req_dec y 0) as [->|Ny].
    + assert (-1 < x < 1); [|nra]. split.
      * destruct (Rlt_le_dec (-1) x) as [|L]; [assumption|exfalso].
        assert ((x + 1) * (x + q) >= 0) by nra. nra.
      * destruct (Rlt_le_dec x 1) as [|L]; [assumption|exfalso].
        assert ((x - 1) * (x - q) >= 0) by nra. nra.
    + assert (X : p = -2 * x) by (apply Rmult_eq_reg_r with y; [lra|exact Ny]). nra.
  - intros H. destruct (Rlt_le_dec (p * p) (4 * q)) as [L|L].
    + (* complex pair *)
      assert (Hy : 0 < q - p * p / 4) by lra.
      pose proof (sqrt_sqrt (q - p * p / 4) ltac:(lra)) as Sq.
      specialize (H (- p / 2) (R_sqrt.sqrt (q - p * p / 4))).
      assert (q < 1). { assert (K : is_pole p q (- p / 2) (R_sqrt.sqrt (q - p * p / 4))); [split; nra|]. specialize (H K). nra. }
      assert (0 < q) by nra. repeat split; try lra; nra.
    + set (d := R_sqrt.sqrt (p * p - 4 * q)).
      assert (Sd : d * d = p * p - 4 * q) by (apply sqrt_sqrt; lra).
      pose proof (H ((- p + d) / 2) 0) as H1. pose proof (H ((- p - d) / 2) 0) as H2.
      assert (K1 : is_pole p q ((- p + d) / 2) 0) by (split; nra).
      assert (K2 : is_pole p q ((- p - d) / 2) 0) by (split; nra).
      specialize (H1 K1). specialize (H2 K2).
      set (r := (- p + d) / 2) in *. set (s := (- p - d) / 2) in *.
      assert (R1 : -1 < r < 1) by (split; nra). assert (R2 : -1 < s < 1) by (split; nra).
      assert (Ep : p = - (r + s)) by (unfold r, s; lra). assert (Eq : q = r * s) by (unfold r, s; nra).
      rewrite Ep, Eq. assert (0 < (1 - r) * (1 - s)) by nra. assert (0 < (1 + r) * (1 + s)) by nra.
      repeat split; try lra; nra.
Qed.

(** A quadratic form that each step shrinks. *)
Section Lyapunov.
  Variables (p q rho : R).
  Hypothesis (Hrho : 0 < rho < 1) (Hq : Rabs q <= rho * rho) (Hp : Rabs p * rho < rho * rho + q).
  Let al1 := p / rho.
  Let al2 := q / (rho * rho).
  Definition QQ (u v : R) : R := (1 + al2) * (u * u + (v / rho) * (v / rho)) - 2 * al1 * u * (v / rho).

  Lemma al_bounds : -1 <= al2 <= 1 /\ Rabs al1 < 1 + al2.
  Proof.
    assert (0 < rho * rho) by nra. unfold al2, al1. split.
    - split; apply Rmult_le_reg_r with (rho * rho); auto; unfold Rdiv; rewrite ?Rmult_assoc, ?Rinv_l by lra;
        unfold Rabs in Hq; destruct (Rcase_abs q); lra.
    - unfold Rdiv. rewrite Rabs_mult, (Rabs_pos_eq (/ rho)) by (left; apply Rinv_0_lt_compat; lra).
      apply Rmult_lt_reg_r with (rho * rho); auto.
      replace (Rabs p * / rho * (rho * rho)) with (Rabs p * rho) by (field; lra).
      replace ((1 + q * / (rho * rho)) * (rho * rho)) with (rho * rho + q) by (field; lra). exact Hp.
  Qed.

  Definition lam := 1 + al2 - Rabs al1.
  Lemma lam_pos : 0 < lam. Proof. unfold lam. pose proof al_bounds. lra. Qed.

  Lemma QQ_lower u v : lam * (u * u + (v / rho) * (v / rho)) <= QQ u v.
  Proof.
    unfold QQ, lam. set (w := v / rho). destruct al_bounds as [_ B].
    assert (Rabs al1 * (u * u + w * w) >= 2 * al1 * u * w); [|nra].
    unfold Rabs. destruct (Rcase_abs al1).
    - assert (0 <= - al1 * ((u + w) * (u + w))) by (apply Rmult_le_pos; [lra|apply Rle_0_sqr]). nra.
    - assert (0 <= al1 * ((u - w) * (u - w))) by (apply Rmult_le_pos; [lra|apply Rle_0_sqr]). nra.
  Qed.
  Lemma QQ_nonneg u v : 0 <= QQ u v.
  Proof. pose proof (QQ_lower u v). pose proof lam_pos. assert (0 <= u * u + (v/rho)*(v/rho)) by nra. nra. Qed.

  Lemma QQ_contract u v : QQ (- p * u + v) (- q * u) <= rho * rho * QQ u v.
  Proof.
    destruct al_bounds as [[B1 B2] B3].
    assert (E : QQ (- p * u + v) (- q * u) = rho * rho * (QQ u v - (1 - al2) * ((1 + al2) * (1 + al2) - al1 * al1) * (u * u))).
    { unfold QQ, al1, al2. field. lra. }
    rewrite E. assert (0 <= (1 + al2) * (1 + al2) - al1 * al1).
    { unfold Rabs in B3. destruct (Rcase_abs al1); nra. }
    assert (0 <= (1 - al2) * ((1 + al2) * (1 + al2) - al1 * al1) * (u * u)).
    { apply Rmult_le_pos; [apply Rmult_le_pos; lra|nra]. }
    assert (0 < rho * rho) by nra. nra.
  Qed.

  (** the square of a sum, weighted *)
  Lemma QQ_add u v u' v' e : 0 < e -> QQ (u + u') (v + v') <= (1 + e) * QQ u v + (1 + / e) * QQ u' v'.
  Proof.
    intros He. pose proof (QQ_nonneg (e * u - u') (e * v - v')) as N.
    assert (E : QQ (e * u - u') (e * v - v') = e * ((1 + e) * QQ u v + (1 + / e) * QQ u' v' - QQ (u + u') (v + v'))).
    { unfold QQ. field. split; lra. }
    rewrite E in N. 
    assert (0 <= (1 + e) * QQ u v + (1 + / e) * QQ u' v' - QQ (u + u') (v + v')); [|lra].
    apply Rmult_le_reg_l with e; [exact He|]. lra.
  Qed.

  (** a step with input, where [x <= M] in size *)
  Lemma QQ_step u v g h x : QQ (- p * u + v + g * x) (- q * u + h * x) <= rho * QQ u v + (1 + / ((1 - rho) / rho)) * QQ g h * (x * x).
  Proof.
    assert (He : 0 < (1 - rho) / rho) by (apply Rdiv_lt_0_compat; lra).
    eapply Rle_trans; [apply (QQ_add _ _ _ _ _ He)|].
    replace (1 + (1 - rho) / rho) with (/ rho) by (field; lra).
    assert (E : QQ (g * x) (h * x) = QQ g h * (x * x)) by (unfold QQ; field; lra).
    rewrite E. apply Rplus_le_compat; [|lra].
    pose proof (QQ_contract u v) as C. apply Rmult_le_reg_l with rho; [lra|].
    rewrite <- Rmult_assoc, Rinv_r, Rmult_1_l by lra. lra.
  Qed.
End Lyapunov.

Lemma stable_rho c : is_stable c = true -> exists rho,
  0 < rho < 1 /\ Rabs (a2 c) <= rho * rho /\ Rabs (a1 c) * rho < rho * rho + a2 c.
Proof.
  intros H. apply stable_iff in H as [H2 H1]. set (q := a2 c) in *. set (p := a1 c) in *.
  set (d := Rmin ((1 - Rabs q) / 2) ((1 + q - Rabs p) / 4)).
  assert (D1 : 0 < d) by (unfold d, Rmin; destruct (Rle_dec _ _); lra).
  assert (D2 : d <= (1 - Rabs q) / 2) by apply Rmin_l.
  assert (D3 : d <= (1 + q - Rabs p) / 4) by apply Rmin_r.
  pose proof (Rabs_pos q). pose proof (Rabs_pos p).
  exists (1 - d). repeat split; try lra; nra.
Qed.

Lemma biquad_step_state (s : Biquad R) x : let c := bq_coef s in
  bq_s1 (fst (biquad_filter s x)) = - a1 c * bq_s1 s + bq_s2 s + (b1 c - a1 c * b0 c) * x /\
  bq_s2 (fst (biquad_filter s x)) = - a2 c * bq_s1 s + (b2 c - a2 c * b0 c) * x /\
  snd (biquad_filter s x) = b0 c * x + bq_s1 s.
Proof. cbv zeta. unfold biquad_filter. cbn. rnum. repeat split; ring. Qed.

(** Bounded input gives bounded output, and zeros after it give a geometrically decaying output. *)
Lemma stable_bounded c : is_stable c = true -> exists K r, 0 <= K /\ 0 <= r < 1 /\
  forall M xs n, (forall x, In x xs -> Rabs x <= M) -> 0 <= M ->
    (forall y, In y (bout (biquad_new c) xs) -> Rabs y <= K * M) /\
    (forall y, In y (bout (brun (biquad_new c) (xs ++ repeat 0 n)) [0]) -> Rabs y <= K * M * r ^ n).
Proof.
  intros Hs. destruct (stable_rho c Hs) as (rho & Hr & Hq & Hp).
  set (p := a1 c) in *. set (q := a2 c) in *.
  set (Q := QQ p q rho). set (L := lam p q rho).
  assert (LP : 0 < L) by (apply lam_pos; assumption).
  set (C := (1 + / ((1 - rho) / rho)) * Q (b1 c - p * b0 c) (b2 c - q * b0 c)).
  assert (CP : 0 <= C).
  { apply Rmult_le_pos; [|apply QQ_nonneg; assumption].
    assert (0 < / ((1 - rho) / rho)) by (apply Rinv_0_lt_compat, Rdiv_lt_0_compat; lra). lra. }
  set (B := R_sqrt.sqrt (C / (1 - rho) / L)).
  assert (Bsq : B * B = C / (1 - rho) / L).
  { apply sqrt_sqrt. apply Rmult_le_pos; [apply Rmult_le_pos; [exact CP|]|]; left; apply Rinv_0_lt_compat; lra. }
  assert (BP : 0 <= B) by apply sqrt_pos.
  assert (Inv : forall M xs, (forall x, In x xs -> Rabs x <= M) -> 0 <= M ->
     let s := brun (biquad_new c) xs in
     Q (bq_s1 s) (bq_s2 s) <= C / (1 - rho) * (M * M)).
  { intros M xs HM M0. cbv zeta. induction xs as [|x xs IH] using rev_ind.
    - assert (Z0 : Q 0 0 = 0) by (unfold Q, QQ; field; lra).
      change (Q 0 0 <= C / (1 - rho) * (M * M)). rewrite Z0.
      apply Rmult_le_pos; [apply Rmult_le_pos; [exact CP|left; apply Rinv_0_lt_compat; lra]|nra].
    - rewrite state_after_snoc. set (s := brun (biquad_new c) xs) in *.
      assert (Ec : bq_coef s = c) by (apply brun_coef; reflexivity).
      destruct (biquad_step_state s x) as (E1 & E2 & _). rewrite Ec in E1, E2. rewrite E1, E2.
      fold p q. eapply Rle_trans; [apply (QQ_step p q rho Hr Hq Hp)|]. fold Q C.
      assert (IH' : Q (bq_s1 s) (bq_s2 s) <= C / (1 - rho) * (M * M)).
      { apply IH. intros z Hz. apply HM. apply in_or_app. left. exact Hz. }
      assert (X : x * x <= M * M).
      { assert (Rabs x <= M) by (apply HM; apply in_or_app; right; left; reflexivity).
        unfold Rabs in H. destruct (Rcase_abs x); nra. }
      assert (C * (x * x) <= C * (M * M)) by nra.
      replace (C / (1 - rho) * (M * M)) with (rho * (C / (1 - rho) * (M * M)) + C * (M * M)) by (field; lra).
      nra. }
  assert (Bound : forall s W, Q (bq_s1 s) (bq_s2 s) <= L * (W * W) -> 0 <= W -> Rabs (bq_s1 s) <= W).
  { intros s W H W0. pose proof (QQ_lower p q rho Hr Hq Hp (bq_s1 s) (bq_s2 s)) as K. fold Q L in K.
    assert (0 <= bq_s2 s / rho * (bq_s2 s / rho)) by apply Rle_0_sqr.
    assert (L * (bq_s1 s * bq_s1 s) <= L * (W * W)) by nra.
    assert (bq_s1 s * bq_s1 s <= W * W) by (apply Rmult_le_reg_l with L; assumption).
    apply Rabs_le. split; nra. }
  exists (Rabs (b0 c) + B), (R_sqrt.sqrt rho).
  assert (S1 : R_sqrt.sqrt rho * R_sqrt.sqrt rho = rho) by (apply sqrt_sqrt; lra).
  assert (S0 : 0 <= R_sqrt.sqrt rho) by apply sqrt_pos.
  pose proof (Rabs_pos (b0 c)).
  split; [lra|]. split; [split; [exact S0|nra]|].
  intros M xs n HM M0. split.
  - intros y Hy.
    assert (Hsplit : exists xs1 x xs2, xs = xs1 ++ x :: xs2 /\ y = snd (biquad_filter (brun (biquad_new c) xs1) x)).
    { clear - Hy. revert Hy. generalize (biquad_new c). induction xs as [|x xs IH]; intros s Hy; [destruct Hy|].
      rewrite outputs_cons in Hy. destruct Hy as [<-|Hy].
      - exists [], x, xs. split; reflexivity.
      - destruct (IH _ Hy) as (xs1 & x1 & xs2 & -> & ->). exists (x :: xs1), x1, xs2.
        split; [reflexivity|]. rewrite state_after_cons. reflexivity. }
    destruct Hsplit as (xs1 & x & xs2 & -> & ->).
    assert (Ec : bq_coef (brun (biquad_new c) xs1) = c) by (apply brun_coef; reflexivity).
    destruct (biquad_step_state (brun (biquad_new c) xs1) x) as (_ & _ & ->). rewrite Ec.
    assert (Rabs (bq_s1 (brun (biquad_new c) xs1)) <= B * M).
    { apply Bound; [|nra]. eapply Rle_trans; [apply Inv with (M := M); [|exact M0]|].
      - intros z Hz. apply HM. apply in_or_app. left. exact Hz.
      - replace (L * (B * M * (B * M))) with (L * (B * B) * (M * M)) by ring. rewrite Bsq.
        right. field. split; lra. }
    eapply Rle_trans; [apply Rabs_triang|]. rewrite Rabs_mult.
    assert (Rabs x <= M) by (apply HM; apply in_or_app; right; left; reflexivity).
    nra.
  - intros y Hy. rewrite outputs_cons in Hy. destruct Hy as [<-|[]].
    set (s := brun (biquad_new c) (xs ++ repeat 0 n)).
    assert (Ec : bq_coef s = c) by (apply brun_coef; reflexivity).
    destruct (biquad_step_state s 0) as (_ & _ & E). rewrite E, Ec.
    rewrite Rmult_0_r, Rplus_0_l.
    assert (Dec : Q (bq_s1 s) (bq_s2 s) <= rho ^ n * (C / (1 - rho) * (M * M))).
    { clear - Inv HM M0 Hr Hq Hp. subst s. induction n as [|n IH].
      - cbn [repeat pow]. rewrite app_nil_r, Rmult_1_l. apply Inv; assumption.
      - replace (repeat 0 (S n)) with (repeat 0 n ++ [0]) by (rewrite <- repeat_cons; reflexivity).
        rewrite app_assoc, state_after_snoc. set (s := brun (biquad_new c) (xs ++ repeat 0 n)) in *.
        assert (Ec : bq_coef s = c) by (apply brun_coef; reflexivity).
        destruct (biquad_step_state s 0) as (E1 & E2 & _). rewrite Ec in E1, E2. rewrite E1, E2. fold p q.
        rewrite !Rmult_0_r, !Rplus_0_r.
        pose proof (QQ_contract p q rho Hr Hq Hp (bq_s1 s) (bq_s2 s)) as K. fold Q in K.
        pose proof (QQ_nonneg p q rho Hr Hq Hp (bq_s1 s) (bq_s2 s)) as N. fold Q in N.
        eapply Rle_trans; [exact K|]. apply Rle_trans with (rho * Q (bq_s1 s) (bq_s2 s)); [apply Rmult_le_compat_r; [exact N|nra]|].
        cbn [pow]. rewrite Rmult_assoc. apply Rmult_le_compat_l; [lra|exact IH]. }
    apply Rle_trans with (B * M * R_sqrt.sqrt rho ^ n).
    + apply Bound; [|repeat apply Rmult_le_pos; auto; apply pow_le; exact S0].
      eapply Rle_trans; [exact Dec|]. right.
      replace (L * (B * M * R_sqrt.sqrt rho ^ n * (B * M * R_sqrt.sqrt rho ^ n)))
        with (L * (B * B) * (M * M) * (R_sqrt.sqrt rho ^ n * R_sqrt.sqrt rho ^ n)) by ring.
      rewrite Bsq, <- Rpow_mult_distr, S1. field. split; lra.
    + apply Rmult_le_compat_r; [apply pow_le; exact S0|]. nra.
Qed.
