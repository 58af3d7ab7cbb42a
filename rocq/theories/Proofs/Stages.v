(** Explicit Runge-Kutta methods started beside a solution: the stages move by no more than a multiple of the distance, and the
    errors of the steps add up. *)
From Coq Require Import Reals List Arith Lia Lra Psatz.
From Coquelicot Require Import Coquelicot.
From Verif Require Import Base.Series Spec.Ode Proofs.Expansion Proofs.Order.
Import ListNotations.
Local Open Scope R_scope.

Lemma bsum_term n f i : (forall j, (j < n)%nat -> 0 <= f j) -> (i < n)%nat -> f i <= bsum n f.
Proof.
  induction n as [|n IH]; intros H Hi; [lia|]. cbn [bsum]. pose proof (H n ltac:(lia)). destruct (Nat.eq_dec i n) as [->|N].
  - pose proof (bsum_nonneg n f ltac:(intros; apply H; lia)). lra.
  - specialize (IH ltac:(intros; apply H; lia) ltac:(lia)). lra.
Qed.
Lemma bsum_abs n f : Rabs (bsum n f) <= bsum n (fun i => Rabs (f i)).
Proof. induction n as [|n IH]; cbn [bsum]; [rewrite Rabs_R0; lra|]. eapply Rle_trans; [apply Rabs_triang|]. lra. Qed.
Lemma bsum_bounded n f M : (forall i, (i < n)%nat -> Rabs (f i) <= M) -> Rabs (bsum n f) <= INR n * M.
Proof. induction n as [|n IH]; intros H; cbn [bsum]; [rewrite Rabs_R0; cbn; lra|]. eapply Rle_trans; [apply Rabs_triang|]. rewrite S_INR. pose proof (H n ltac:(lia)). specialize (IH ltac:(intros; apply H; lia)). lra. Qed.

Lemma form_bound m k : forall c v M, (forall j, (j < m)%nat -> Rabs (v j) <= 1) -> 0 <= M -> (forall js, length js = k -> Rabs (c js) <= M) -> Rabs (form m k c v) <= M * INR m ^ k.
Proof.
  induction k as [|k IH]; intros c v M Hv HM Hc; cbn [form]; [rewrite pow_O, Rmult_1_r; apply Hc; reflexivity|].
  replace (M * INR m ^ S k) with (INR m * (M * INR m ^ k)) by (cbn; ring). apply bsum_bounded. intros j Hj. rewrite Rabs_mult.
  assert (X : Rabs (form m k (fun js => c (j :: js)) v) <= M * INR m ^ k) by (apply IH; auto; intros; apply Hc; cbn; lia). pose proof (Rabs_pos (form m k (fun js => c (j :: js)) v)). pose proof (Hv j Hj). pose proof (Rabs_pos (v j)). nra.
Qed.
Lemma form_diff m k : forall c u w M d, (forall j, (j < m)%nat -> Rabs (u j) <= 1) -> (forall j, (j < m)%nat -> Rabs (w j) <= 1) -> (forall j, (j < m)%nat -> Rabs (u j - w j) <= d) -> 0 <= d -> 0 <= M ->
  (forall js, length js = k -> Rabs (c js) <= M) -> Rabs (form m k c u - form m k c w) <= M * INR k * INR m ^ k * d.
Proof.
  induction k as [|k IH]; intros c u w M d Hu Hw Hd D0 HM Hc; cbn [form]; [rewrite Rminus_diag_eq by reflexivity; rewrite Rabs_R0; cbn; lra|].
  rewrite <- bsum_minus. rewrite S_INR. replace (M * (INR k + 1) * INR m ^ S k * d) with (INR m * (M * INR k * INR m ^ k * d + d * (M * INR m ^ k))) by (cbn; ring). apply bsum_bounded. intros j Hj.
  set (a := form m k _ u). set (b := form m k _ w). replace (u j * a - w j * b) with (u j * (a - b) + (u j - w j) * b) by ring. eapply Rle_trans; [apply Rabs_triang|]. rewrite !Rabs_mult.
  assert (X : Rabs (a - b) <= M * INR k * INR m ^ k * d) by (apply IH; auto; intros; apply Hc; cbn; lia).
  assert (Y : Rabs b <= M * INR m ^ k) by (apply form_bound; auto; intros; apply Hc; cbn; lia).
  pose proof (Rabs_pos (u j)). pose proof (Rabs_pos (a - b)). pose proof (Rabs_pos (u j - w j)). pose proof (Rabs_pos b). pose proof (Hu j Hj). pose proof (Hd j Hj).
  apply Rplus_le_compat; [nra|]. apply Rmult_le_compat; auto.
Qed.

Section Stability.
Context {P : Type}.
Variables (m p : nat) (c : P -> nat -> list nat -> R) (F : P -> vec -> vec) (M radius : R).
Hypothesis Hc : forall q i js, (i < m)%nat -> (length js < p)%nat -> Rabs (c q i js) <= M.
Hypothesis Hr : 0 < radius.
Hypothesis HM : 0 <= M.
Hypothesis HF : forall q v r i, (forall j, (j < m)%nat -> Rabs (v j) <= r) -> r <= radius -> (i < m)%nat -> Rabs (F q v i - bsum p (fun k => form m k (c q i) v)) <= M * r ^ p.

Let reach := Rmin 1 radius.
Definition size_bound : R := bsum p (fun k => M * INR m ^ k) + M.
Definition slope : R := bsum p (fun k => M * INR k * INR m ^ k).
Lemma size_bound_pos : 0 <= size_bound.
Proof. unfold size_bound. pose proof (bsum_nonneg p (fun k => M * INR m ^ k) ltac:(intros; apply Rmult_le_pos; [auto|apply pow_le, pos_INR])). lra. Qed.
Lemma slope_pos : 0 <= slope.
Proof. unfold slope. apply bsum_nonneg. intros. apply Rmult_le_pos; [apply Rmult_le_pos; [auto|apply pos_INR]|apply pow_le, pos_INR]. Qed.
Lemma F_bound q v i : (forall j, (j < m)%nat -> Rabs (v j) <= reach) -> (i < m)%nat -> Rabs (F q v i) <= size_bound.
Proof.
  intros Hv Hi. pose proof (Rmin_l 1 radius) as R1. pose proof (Rmin_r 1 radius) as R2. fold reach in R1, R2. assert (0 < reach) by (apply Rmin_glb_lt; lra).
  pose proof (HF q v reach i Hv R2 Hi) as E. replace (F q v i) with ((F q v i - bsum p (fun k => form m k (c q i) v)) + bsum p (fun k => form m k (c q i) v)) by ring.
  eapply Rle_trans; [apply Rabs_triang|]. unfold size_bound. rewrite Rplus_comm. apply Rplus_le_compat.
  - eapply Rle_trans; [apply bsum_abs|]. apply bsum_le. intros k Hk. apply form_bound; [intros; eapply Rle_trans; [apply Hv; auto|auto]|auto|]. intros; apply Hc; [auto|lia].
  - eapply Rle_trans; [apply E|]. rewrite <- (Rmult_1_r M) at 2. apply Rmult_le_compat_l; [auto|]. apply pow_le_1; lra.
Qed.
Lemma F_diff q u w i r d : (forall j, (j < m)%nat -> Rabs (u j) <= r) -> (forall j, (j < m)%nat -> Rabs (w j) <= r) -> (forall j, (j < m)%nat -> Rabs (u j - w j) <= d) -> 0 <= d -> r <= reach -> (i < m)%nat ->
  Rabs (F q u i - F q w i) <= slope * d + 2 * (M * r ^ p).
Proof.
  intros Hu Hw Hd D0 Rr Hi. pose proof (Rmin_l 1 radius) as R1. pose proof (Rmin_r 1 radius) as R2. fold reach in R1, R2.
  pose proof (HF q u r i Hu ltac:(lra) Hi) as E1. pose proof (HF q w r i Hw ltac:(lra) Hi) as E2.
  assert (X : Rabs (bsum p (fun k => form m k (c q i) u) - bsum p (fun k => form m k (c q i) w)) <= slope * d).
  { rewrite <- bsum_minus. eapply Rle_trans; [apply bsum_abs|]. unfold slope. rewrite Rmult_comm, <- bsum_scal. apply bsum_le. intros k Hk. rewrite Rmult_comm. apply form_diff; auto.
    - intros; eapply Rle_trans; [apply Hu; auto|lra].
    - intros; eapply Rle_trans; [apply Hw; auto|lra].
    - intros; apply Hc; [auto|lia]. }
  set (a := bsum p _) in *. set (b := bsum p (fun k => form m k (c q i) w)) in *. replace (F q u i - F q w i) with ((F q u i - a) - (F q w i - b) + (a - b)) by ring.
  eapply Rle_trans; [apply Rabs_triang|]. assert (Rabs (F q u i - a - (F q w i - b)) <= Rabs (F q u i - a) + Rabs (F q w i - b)) by (unfold Rminus at 1; eapply Rle_trans; [apply Rabs_triang|]; rewrite Rabs_Ropp; lra). lra.
Qed.

Variables (A : nat -> nat -> R) (N : nat).
Let alpha := bsum N (fun s => bsum s (fun r => Rabs (A s r))).
Lemma alpha_pos : 0 <= alpha.
Proof. apply bsum_nonneg. intros. apply bsum_nonneg. intros; apply Rabs_pos. Qed.
Lemma stage_sum s (x : nat -> R) B : (s < N)%nat -> 0 <= B -> (forall r, (r < s)%nat -> Rabs (x r) <= B) -> Rabs (bsum s (fun r => A s r * x r)) <= alpha * B.
Proof.
  intros Hs HB Hx. eapply Rle_trans; [apply bsum_abs|]. apply Rle_trans with (bsum s (fun r => Rabs (A s r)) * B).
  - rewrite Rmult_comm, <- bsum_scal. apply bsum_le. intros r Hr'. rewrite Rabs_mult, Rmult_comm. apply Rmult_le_compat_r; [apply Rabs_pos|auto].
  - apply Rmult_le_compat_r; [auto|]. apply (bsum_term N (fun s => bsum s (fun r => Rabs (A s r)))); [intros; apply bsum_nonneg; intros; apply Rabs_pos|auto].
Qed.
Let spread := 1 + alpha * size_bound.
Let step_max := reach / spread.
Lemma spread_pos : 1 <= spread.
Proof. unfold spread. pose proof alpha_pos. pose proof size_bound_pos. nra. Qed.
Lemma step_max_pos : 0 < step_max.
Proof. pose proof spread_pos. unfold step_max. apply Rdiv_lt_0_compat; [apply Rmin_glb_lt; lra|lra]. Qed.
Definition stages_of q h (ev : vec) (k : nat -> nat -> R) := forall s i, (s < N)%nat -> (i < m)%nat -> k s i = F q (fun j => ev j + h * bsum s (fun r => A s r * k r j)) i.
Lemma argument_size h ev E (k : nat -> nat -> R) s : Rabs h <= step_max -> E <= Rabs h -> (forall j, (j < m)%nat -> Rabs (ev j) <= E) -> (s < N)%nat -> (forall r i, (r < s)%nat -> (i < m)%nat -> Rabs (k r i) <= size_bound) ->
  forall j, (j < m)%nat -> Rabs (ev j + h * bsum s (fun r => A s r * k r j)) <= spread * Rabs h.
Proof.
  intros Hh HE Hev Hs Hk j Hj. eapply Rle_trans; [apply Rabs_triang|]. rewrite Rabs_mult. pose proof (stage_sum s (fun r => k r j) size_bound Hs size_bound_pos ltac:(intros; apply Hk; auto)). pose proof (Hev j Hj). pose proof (Rabs_pos h). unfold spread. nra.
Qed.
Lemma spread_reach h : Rabs h <= step_max -> spread * Rabs h <= reach.
Proof. intros Hh. pose proof spread_pos. apply Rle_trans with (spread * step_max); [apply Rmult_le_compat_l; lra|]. right. unfold step_max. field. lra. Qed.
Lemma stages_bounded q h ev E k : Rabs h <= step_max -> E <= Rabs h -> (forall j, (j < m)%nat -> Rabs (ev j) <= E) -> stages_of q h ev k -> forall s i, (s < N)%nat -> (i < m)%nat -> Rabs (k s i) <= size_bound.
Proof.
  intros Hh HE Hev Hk. induction s as [s IH] using lt_wf_ind. intros i Hs Hi. rewrite Hk by auto. apply F_bound; [|auto]. intros j Hj. eapply Rle_trans; [|apply spread_reach; exact Hh]. apply (argument_size h ev E); auto. intros r a Hr' Ha. apply IH; lia || auto.
Qed.
Lemma stability : exists K, 0 <= K /\ forall q h ev E k k0, Rabs h <= step_max -> 0 <= E <= Rabs h -> (forall j, (j < m)%nat -> Rabs (ev j) <= E) -> stages_of q h ev k -> stages_of q h (fun _ => 0) k0 ->
  forall s i, (s < N)%nat -> (i < m)%nat -> Rabs (k s i - k0 s i) <= K * (E + Rabs h ^ p).
Proof.
  assert (X : forall n, (n <= N)%nat -> exists K, 0 <= K /\ forall q h ev E k k0, Rabs h <= step_max -> 0 <= E <= Rabs h -> (forall j, (j < m)%nat -> Rabs (ev j) <= E) -> stages_of q h ev k -> stages_of q h (fun _ => 0) k0 ->
    forall s i, (s < n)%nat -> (i < m)%nat -> Rabs (k s i - k0 s i) <= K * (E + Rabs h ^ p)).
  2:{ destruct (X N ltac:(lia)) as (K & HK & H). exists K. split; auto. }
  induction n as [|n IH]; intros Hn; [exists 0; split; [lra|intros; lia]|]. destruct IH as (K & HK & H); [lia|].
  pose proof alpha_pos. pose proof slope_pos. pose proof spread_pos. pose proof (pow_le spread p ltac:(lra)).
  exists (K + (slope * (1 + alpha * K) + 2 * (M * spread ^ p))). split; [assert (0 <= alpha * K) by (apply Rmult_le_pos; auto); assert (0 <= M * spread ^ p) by (apply Rmult_le_pos; auto); nra|].
  intros q h ev E k k0 Hh HE Hev Hk Hk0 s i Hs Hi. pose proof (Rabs_pos h) as Ph. pose proof (pow_le (Rabs h) p Ph) as Pp.
  assert (Z0 : 0 <= slope * (1 + alpha * K) + 2 * (M * spread ^ p)) by (assert (0 <= alpha * K) by (apply Rmult_le_pos; auto); assert (0 <= M * spread ^ p) by (apply Rmult_le_pos; auto); nra).
  destruct (Nat.eq_dec s n) as [->|Ne].
  - rewrite Hk, Hk0 by (auto; lia). eapply Rle_trans; [apply (F_diff q _ _ i (spread * Rabs h) (E + Rabs h * (alpha * (K * (E + Rabs h ^ p)))))|]; auto.
    + apply (argument_size h ev E); auto; try lra; try lia. intros r a Hr' Ha. apply (stages_bounded q h ev E); auto; try lra; lia.
    + apply (argument_size h (fun _ => 0) E); auto; try lra; try lia; [intros; rewrite Rabs_R0; lra|]. intros r a Hr' Ha. apply (stages_bounded q h (fun _ => 0) E); auto; try lra; [intros; rewrite Rabs_R0; lra|lia].
    + intros j Hj. replace (ev j + h * bsum n (fun r => A n r * k r j) - (0 + h * bsum n (fun r => A n r * k0 r j))) with (ev j + h * bsum n (fun r => A n r * (k r j - k0 r j))).
      2:{ rewrite (bsum_ext n (fun r => A n r * (k r j - k0 r j)) (fun r => A n r * k r j - A n r * k0 r j)) by (intros; ring). rewrite bsum_minus. ring. }
      eapply Rle_trans; [apply Rabs_triang|]. rewrite Rabs_mult. apply Rplus_le_compat; [auto|]. apply Rmult_le_compat_l; [auto|]. apply (stage_sum n (fun r => k r j - k0 r j)); [lia|apply Rmult_le_pos; lra|]. intros r Hr'. apply (H q h ev E); auto; lia.
    + apply Rplus_le_le_0_compat; [lra|]. repeat apply Rmult_le_pos; lra.
    + apply spread_reach; auto.
    + rewrite Rpow_mult_distr. assert (Rabs h <= 1). { pose proof (spread_reach h Hh). pose proof (Rmin_l 1 radius) as R1. fold reach in R1. nra. }
      assert (Q : Rabs h * (alpha * (K * (E + Rabs h ^ p))) <= alpha * K * (E + Rabs h ^ p)). { assert (0 <= alpha * K * (E + Rabs h ^ p)) by (apply Rmult_le_pos; [apply Rmult_le_pos; auto|lra]). nra. }
      assert (Q2 : slope * (E + Rabs h * (alpha * (K * (E + Rabs h ^ p)))) <= slope * ((1 + alpha * K) * (E + Rabs h ^ p))) by (apply Rmult_le_compat_l; [auto|lra]).
      assert (Q3 : 0 <= K * (E + Rabs h ^ p)) by (apply Rmult_le_pos; lra). assert (Q4 : 0 <= M * spread ^ p * E) by (apply Rmult_le_pos; [apply Rmult_le_pos; auto|lra]). nra.
  - pose proof (H q h ev E k k0 Hh HE Hev Hk Hk0 s i ltac:(lia) Hi). nra.
Qed.
End Stability.

(** ** Errors adding up *)
Lemma pow_exp x k : 0 <= x -> (1 + x) ^ k <= exp (INR k * x).
Proof.
  intros Hx. induction k as [|k IH]; [rewrite Rmult_0_l, exp_0; cbn; lra|]. rewrite S_INR. replace ((INR k + 1) * x) with (INR k * x + x) by ring. rewrite exp_plus. cbn [pow]. rewrite Rmult_comm. apply Rmult_le_compat; [apply pow_le; lra|lra|auto|].
  destruct (Req_dec x 0) as [->|N]; [rewrite exp_0; lra|]. left. apply exp_ineq1. lra.
Qed.
Lemma error_growth p K C T : (2 <= p)%nat -> 0 <= K -> 0 <= C -> 0 <= T -> exists G d, 0 <= G /\ 0 < d <= 1 /\ forall h (e : nat -> R) n, 0 < h <= d -> INR n * h <= T -> e 0%nat = 0 ->
  (forall k, (k < n)%nat -> 0 <= e k <= h -> 0 <= e (S k) <= (1 + h * K) * e k + C * h ^ S p) -> forall k, (k <= n)%nat -> 0 <= e k <= G * h ^ p.
Proof.
  intros Hp HK HC HT. set (G := C * T * exp (K * T)). assert (0 <= G) by (apply Rmult_le_pos; [apply Rmult_le_pos; auto|left; apply exp_pos]). exists G, (/ (1 + G)). split; [auto|].
  assert (0 < / (1 + G)) by (apply Rinv_0_lt_compat; lra). assert (D1 : / (1 + G) <= 1) by (rewrite <- Rinv_1; apply Rinv_le_contravar; lra). split; [lra|].
  intros h e n Hh HnT E0 Hstep.
  assert (Small : G * h ^ p <= h). { destruct p as [|[|p']]; [lia|lia|]. assert (h ^ p' <= 1) by (apply pow_le_1; lra). pose proof (pow_le h p' ltac:(lra)). assert (G * h <= 1). { apply Rle_trans with (G * / (1 + G)); [apply Rmult_le_compat_l; lra|]. apply (Rmult_le_reg_r (1 + G)); [lra|]. rewrite Rmult_assoc, Rinv_l by lra. lra. } cbn [pow].
    replace (G * (h * (h * h ^ p'))) with ((G * h) * h ^ p' * h) by ring. assert (0 <= G * h) by (apply Rmult_le_pos; lra). assert (G * h * h ^ p' <= 1) by nra. nra. }
  assert (Claim : forall k, (k <= n)%nat -> 0 <= e k <= C * h ^ S p * INR k * (1 + h * K) ^ k).
  { pose proof (pow_le h (S p) ltac:(lra)) as Hp1. assert (0 <= h * K) by (apply Rmult_le_pos; lra).
    assert (Bound : forall k, (k <= n)%nat -> C * h ^ S p * INR k * (1 + h * K) ^ k <= G * h ^ p).
    { intros k Hk. assert (INR k * h <= T). { eapply Rle_trans; [|exact HnT]. apply Rmult_le_compat_r; [lra|]. apply le_INR; auto. }
      assert ((1 + h * K) ^ k <= exp (K * T)). { eapply Rle_trans; [apply pow_exp; auto|]. destruct (Req_dec (INR k * (h * K)) (K * T)) as [->|Nq]; [lra|]. left. apply exp_increasing. assert (INR k * (h * K) <= K * T) by (replace (INR k * (h * K)) with (K * (INR k * h)) by ring; apply Rmult_le_compat_l; auto). lra. }
      unfold G. pose proof (pow_le h p ltac:(lra)). pose proof (pow_le (1 + h * K) k ltac:(lra)).
      replace (C * h ^ S p * INR k * (1 + h * K) ^ k) with (C * h ^ p * ((INR k * h) * (1 + h * K) ^ k)) by (cbn; ring). replace (C * T * exp (K * T) * h ^ p) with (C * h ^ p * (T * exp (K * T))) by ring. apply Rmult_le_compat_l; [apply Rmult_le_pos; auto|]. apply Rmult_le_compat; auto. apply Rmult_le_pos; [apply pos_INR|lra]. }
    induction k as [|k IH]; intros Hk; [rewrite E0; cbn; lra|]. specialize (IH ltac:(lia)). pose proof (Bound k ltac:(lia)). pose proof (Hstep k ltac:(lia) ltac:(lra)) as S1. split; [lra|]. eapply Rle_trans; [apply S1|].
    rewrite S_INR. cbn [pow]. assert (P1 : 1 <= (1 + h * K) ^ k) by (apply pow_R1_Rle; lra). set (w := (1 + h * K) ^ k) in *. set (H5 := h * h ^ p) in *. change (h ^ S p) with H5 in *.
    assert ((1 + h * K) * e k <= (1 + h * K) * (C * H5 * INR k * w)) by (apply Rmult_le_compat_l; lra). assert (C * H5 <= C * H5 * ((1 + h * K) * w)) by (rewrite <- (Rmult_1_r (C * H5)) at 1; apply Rmult_le_compat_l; [apply Rmult_le_pos; auto|nra]). nra. }
  intros k Hk. specialize (Claim k Hk). split; [lra|]. eapply Rle_trans; [apply Claim|].
  assert (INR k * h <= T). { eapply Rle_trans; [|exact HnT]. apply Rmult_le_compat_r; [lra|]. apply le_INR; auto. } assert (0 <= h * K) by (apply Rmult_le_pos; lra).
  assert ((1 + h * K) ^ k <= exp (K * T)). { eapply Rle_trans; [apply pow_exp; auto|]. destruct (Req_dec (INR k * (h * K)) (K * T)) as [->|Nq]; [lra|]. left. apply exp_increasing. assert (INR k * (h * K) <= K * T) by (replace (INR k * (h * K)) with (K * (INR k * h)) by ring; apply Rmult_le_compat_l; auto). lra. }
  unfold G. pose proof (pow_le h p ltac:(lra)). pose proof (pow_le (1 + h * K) k ltac:(lra)).
  replace (C * h ^ S p * INR k * (1 + h * K) ^ k) with (C * h ^ p * ((INR k * h) * (1 + h * K) ^ k)) by (cbn; ring). replace (C * T * exp (K * T) * h ^ p) with (C * h ^ p * (T * exp (K * T))) by ring. apply Rmult_le_compat_l; [apply Rmult_le_pos; auto|]. apply Rmult_le_compat; auto. apply Rmult_le_pos; [apply pos_INR|lra].
Qed.
