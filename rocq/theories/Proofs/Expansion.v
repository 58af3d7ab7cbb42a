(** Expansions in powers of a small number, uniform over a family. *)
From Coq Require Import Reals List Arith Lia Lra Psatz FunctionalExtensionality.
From Coquelicot Require Import Coquelicot.
From Verif Require Import Base.Series Spec.Ode.
Import ListNotations.
Local Open Scope R_scope.

Section Family.
Context {P : Type}.
Implicit Types (a b : P -> R -> R) (u w : P -> nat -> R).

Definition bounded_to (p : nat) u : Prop := exists M, 0 <= M /\ forall q j, (j < p)%nat -> Rabs (u q j) <= M.
Definition near (p : nat) a u : Prop :=
  exists C d, 0 <= C /\ 0 < d <= 1 /\ forall q h, Rabs h <= d -> Rabs (a q h - bsum p (fun j => u q j * h ^ j)) <= C * Rabs h ^ p.
Definition expands (p : nat) a u : Prop := bounded_to p u /\ near p a u.

Lemma pow_le_1 h k : 0 <= h <= 1 -> 0 <= h ^ k <= 1.
Proof. intros H. induction k as [|k IH]; cbn; [lra|]. nra. Qed.
Lemma pow_anti h k l : 0 <= h <= 1 -> (l <= k)%nat -> h ^ k <= h ^ l.
Proof. intros H L. replace k with (l + (k - l))%nat by lia. rewrite pow_add. pose proof (pow_le_1 h (k - l) H). pose proof (pow_le_1 h l H). nra. Qed.
Lemma Rabs_bsum n f : Rabs (bsum n f) <= bsum n (fun i => Rabs (f i)).
Proof. induction n as [|n IH]; cbn [bsum]; [rewrite Rabs_R0; lra|]. eapply Rle_trans; [apply Rabs_triang|lra]. Qed.
Lemma bsum_const n c : bsum n (fun _ => c) = INR n * c.
Proof. induction n as [|n IH]; [cbn; lra|]. cbn [bsum]. rewrite IH, S_INR. ring. Qed.
Lemma poly_bound p (u : nat -> R) M h : 0 <= M -> (forall j, (j < p)%nat -> Rabs (u j) <= M) -> Rabs h <= 1 -> Rabs (bsum p (fun j => u j * h ^ j)) <= INR p * M.
Proof.
  intros HM H Hh. eapply Rle_trans; [apply Rabs_bsum|]. rewrite <- bsum_const. apply bsum_le. intros j Hj. rewrite Rabs_mult, <- RPow_abs.
  pose proof (pow_le_1 (Rabs h) j (conj (Rabs_pos h) Hh)). pose proof (H j Hj). pose proof (Rabs_pos (u j)). nra.
Qed.
Lemma tail_bound p (u : nat -> R) k M h : 0 <= M -> (forall j, (k <= j < k + p)%nat -> Rabs (u j) <= M) -> Rabs h <= 1 ->
  Rabs (bsum p (fun j => u (k + j)%nat * h ^ (k + j))) <= INR p * M * Rabs h ^ k.
Proof.
  intros HM H Hh. rewrite (bsum_ext p _ (fun j => h ^ k * (u (k + j)%nat * h ^ j))) by (intros; rewrite pow_add; ring).
  rewrite bsum_scal, Rabs_mult, <- RPow_abs. pose proof (poly_bound p (fun j => u (k + j)%nat) M h HM ltac:(intros; apply H; lia) Hh).
  pose proof (pow_le_1 (Rabs h) k (conj (Rabs_pos h) Hh)). nra.
Qed.

Lemma expands_ext p a b u w : (exists d, 0 < d /\ forall q h, Rabs h <= d -> a q h = b q h) -> (forall q j, (j < p)%nat -> u q j = w q j) -> expands p a u -> expands p b w.
Proof.
  intros (d0 & D0 & Ha) Hu ((M & HM & HB) & C & d & HC & Hd & H). split.
  - exists M. split; [auto|]. intros q j Hj. rewrite <- Hu by auto. auto.
  - exists C, (Rmin d0 d). split; [auto|]. split; [split; [apply Rmin_glb_lt; lra|eapply Rle_trans; [apply Rmin_r|lra]]|].
    intros q h Hh. rewrite <- Ha by (eapply Rle_trans; [apply Hh|apply Rmin_l]). rewrite (bsum_ext p _ (fun j => u q j * h ^ j)) by (intros; rewrite Hu; auto). apply H. eapply Rle_trans; [apply Hh|apply Rmin_r].
Qed.
Lemma expands_same p a b u w : (forall q h, a q h = b q h) -> (forall q j, (j < p)%nat -> u q j = w q j) -> expands p a u -> expands p b w.
Proof. intros Ha. apply expands_ext. exists 1. split; [lra|auto]. Qed.

Lemma expands_const p (c : P -> R) M : (forall q, Rabs (c q) <= M) -> expands p (fun q _ => c q) (fun q j => if Nat.eqb j 0 then c q else 0).
Proof.
  intros H. split.
  - exists (Rmax M 0). split; [apply Rmax_r|]. intros q j Hj. destruct (Nat.eqb j 0); [eapply Rle_trans; [apply H|apply Rmax_l]|rewrite Rabs_R0; apply Rmax_r].
  - exists (Rmax M 0), 1. split; [apply Rmax_r|]. split; [lra|]. intros q h Hh. destruct p as [|p].
    + cbn [bsum]. cbn [pow]. rewrite Rminus_0_r, Rmult_1_r. eapply Rle_trans; [apply H|apply Rmax_l].
    + rewrite bsum_first. rewrite (bsum_ext p _ (fun _ => 0)) by (intros; cbn; ring). rewrite bsum_0. cbn [Nat.eqb pow]. replace (c q - (c q * 1 + 0)) with 0 by ring. rewrite Rabs_R0.
      apply Rmult_le_pos; [apply Rmax_r|apply Rmult_le_pos; [apply Rabs_pos|apply pow_le, Rabs_pos]].
Qed.
Lemma expands_plus p a b u w : expands p a u -> expands p b w -> expands p (fun q h => a q h + b q h) (fun q j => u q j + w q j).
Proof.
  intros ((M & HM & HB) & C & d & HC & Hd & H) ((M' & HM' & HB') & C' & d' & HC' & Hd' & H'). split.
  - exists (M + M'). split; [lra|]. intros q j Hj. eapply Rle_trans; [apply Rabs_triang|]. pose proof (HB q j Hj). pose proof (HB' q j Hj). lra.
  - exists (C + C'), (Rmin d d'). split; [lra|]. split; [split; [apply Rmin_glb_lt; lra|eapply Rle_trans; [apply Rmin_l|lra]]|]. intros q h Hh.
    pose proof (H q h ltac:(eapply Rle_trans; [apply Hh|apply Rmin_l])). pose proof (H' q h ltac:(eapply Rle_trans; [apply Hh|apply Rmin_r])).
    rewrite (bsum_ext p _ (fun j => u q j * h ^ j + w q j * h ^ j)) by (intros; ring). rewrite bsum_plus.
    replace (a q h + b q h - _) with ((a q h - bsum p (fun j => u q j * h ^ j)) + (b q h - bsum p (fun j => w q j * h ^ j))) by ring.
    eapply Rle_trans; [apply Rabs_triang|]. lra.
Qed.
Lemma triangle_sum p (g : nat -> nat -> R) : bsum p (fun j => bsum (p - j) (g j)) = bsum p (fun m => bsum (S m) (fun j => g j (m - j)%nat)).
Proof.
  induction p as [|p IH]; [reflexivity|]. change (bsum (S p) (fun j => bsum (S p - j) (g j))) with (bsum p (fun j => bsum (S p - j) (g j)) + bsum (S p - p) (g p)). rewrite (Nat.sub_succ_l p p), Nat.sub_diag by lia.
  rewrite (bsum_ext p _ (fun j => bsum (p - j) (g j) + g j (p - j)%nat)) by (intros j Hj; rewrite Nat.sub_succ_l by lia; reflexivity).
  rewrite bsum_plus, IH. change (bsum (S p) (fun m => bsum (S m) (fun j => g j (m - j)%nat))) with (bsum p (fun m => bsum (S m) (fun j => g j (m - j)%nat)) + bsum (S p) (fun j => g j (p - j)%nat)).
  cbn [bsum]. rewrite Nat.sub_diag. ring.
Qed.
Lemma expands_mult p a b u w : expands p a u -> expands p b w -> expands p (fun q h => a q h * b q h) (fun q j => conv (u q) (w q) j).
Proof.
  intros ((M & HM & HB) & C & d & HC & Hd & H) ((M' & HM' & HB') & C' & d' & HC' & Hd' & H').
  set (m := INR p). assert (Pm : 0 <= m) by apply pos_INR. split.
  - exists (m * (M * M')). split; [apply Rmult_le_pos; [exact Pm|apply Rmult_le_pos; auto]|]. intros q j Hj. unfold conv. eapply Rle_trans; [apply Rabs_bsum|]. apply Rle_trans with (bsum (S j) (fun _ => M * M')).
    + apply bsum_le. intros i Hi. rewrite Rabs_mult. apply Rmult_le_compat; try apply Rabs_pos; [apply HB; lia|apply HB'; lia].
    + rewrite bsum_const. apply Rmult_le_compat_r; [apply Rmult_le_pos; auto|]. apply le_INR. lia.
  - exists (m * (M * (m * M')) + m * M * C' + C * (m * M') + C * C'), (Rmin d d').
    split; [assert (0 <= m * M) by nra; assert (0 <= m * M') by nra; assert (0 <= m * (M * (m * M'))) by (apply Rmult_le_pos; [auto|apply Rmult_le_pos; auto]); nra|].
    split; [split; [apply Rmin_glb_lt; lra|eapply Rle_trans; [apply Rmin_l|lra]]|]. intros q h Hh.
    assert (H1 := H q h ltac:(eapply Rle_trans; [apply Hh|apply Rmin_l])). assert (H2 := H' q h ltac:(eapply Rle_trans; [apply Hh|apply Rmin_r])).
    assert (Hh1 : Rabs h <= 1) by (eapply Rle_trans; [apply Hh|eapply Rle_trans; [apply Rmin_l|lra]]).
    set (A := bsum p (fun j => u q j * h ^ j)) in *. set (B := bsum p (fun j => w q j * h ^ j)) in *.
    assert (HA : Rabs A <= m * M) by (apply poly_bound; auto). assert (HB2 : Rabs B <= m * M') by (apply poly_bound; auto).
    assert (X : Rabs (A * B - bsum p (fun j => conv (u q) (w q) j * h ^ j)) <= m * (M * (m * M')) * Rabs h ^ p).
    { replace (bsum p (fun j => conv (u q) (w q) j * h ^ j)) with (bsum p (fun j => bsum (p - j) (fun k => u q j * h ^ j * (w q k * h ^ k)))).
      2:{ rewrite (triangle_sum p (fun j k => u q j * h ^ j * (w q k * h ^ k))). apply bsum_ext. intros k Hk. unfold conv. rewrite Rmult_comm, <- bsum_scal. apply bsum_ext. intros i Hi. replace (h ^ k) with (h ^ i * h ^ (k - i)) by (rewrite <- pow_add; f_equal; lia). ring. }
      replace (A * B) with (bsum p (fun j => u q j * h ^ j * B)) by (unfold A; rewrite Rmult_comm, <- bsum_scal; apply bsum_ext; intros; ring).
      rewrite <- bsum_minus. eapply Rle_trans; [apply Rabs_bsum|]. unfold m at 1. rewrite !Rmult_assoc, <- bsum_const. apply bsum_le. intros j Hj.
      rewrite bsum_scal, <- Rmult_minus_distr_l, Rabs_mult. unfold B. replace p with ((p - j) + j)%nat at 1 by lia. rewrite bsum_shift.
      match goal with |- _ * Rabs ?z <= _ => replace z with (bsum j (fun i => w q (p - j + i)%nat * h ^ (p - j + i))) by ring end.
      pose proof (tail_bound j (w q) (p - j) M' h HM' ltac:(intros; apply HB'; lia) Hh1) as T. rewrite Rabs_mult, <- RPow_abs.
      replace (Rabs h ^ p) with (Rabs h ^ j * Rabs h ^ (p - j)) by (rewrite <- pow_add; f_equal; lia).
      pose proof (HB q j Hj) as E. pose proof (pow_le (Rabs h) j (Rabs_pos h)). pose proof (pow_le (Rabs h) (p - j) (Rabs_pos h)). assert (INR j <= m) by (apply le_INR; lia). pose proof (pos_INR j).
      apply Rle_trans with (M * Rabs h ^ j * (INR j * M' * Rabs h ^ (p - j))).
      - apply Rmult_le_compat; auto using Rabs_pos; [apply Rmult_le_pos; [apply Rabs_pos|auto]|apply Rmult_le_compat_r; auto].
      - replace (M * (m * (M' * (Rabs h ^ j * Rabs h ^ (p - j))))) with (M * Rabs h ^ j * (m * M' * Rabs h ^ (p - j))) by ring. apply Rmult_le_compat_l; [apply Rmult_le_pos; auto|]. apply Rmult_le_compat_r; [auto|]. apply Rmult_le_compat_r; auto. }
    set (Z := bsum p (fun j => conv (u q) (w q) j * h ^ j)) in *.
    replace (a q h * b q h - Z) with ((A * B - Z) + A * (b q h - B) + (a q h - A) * B + (a q h - A) * (b q h - B)) by ring.
    pose proof (pow_le (Rabs h) p (Rabs_pos h)) as Hp. pose proof (pow_le_1 (Rabs h) p (conj (Rabs_pos h) Hh1)) as Hp1.
    eapply Rle_trans; [apply Rabs_triang|]. eapply Rle_trans; [apply Rplus_le_compat_r; eapply Rle_trans; [apply Rabs_triang|apply Rplus_le_compat_r, Rabs_triang]|]. rewrite !Rabs_mult.
    assert (Rabs A * Rabs (b q h - B) <= m * M * (C' * Rabs h ^ p)) by (apply Rmult_le_compat; auto using Rabs_pos).
    assert (Rabs (a q h - A) * Rabs B <= C * Rabs h ^ p * (m * M')) by (apply Rmult_le_compat; auto using Rabs_pos).
    assert (Rabs (a q h - A) * Rabs (b q h - B) <= C * Rabs h ^ p * (C' * Rabs h ^ p)) by (apply Rmult_le_compat; auto using Rabs_pos).
    assert (C * Rabs h ^ p * (C' * Rabs h ^ p) <= C * C' * Rabs h ^ p).
    { replace (C * Rabs h ^ p * (C' * Rabs h ^ p)) with ((C * C') * (Rabs h ^ p * Rabs h ^ p)) by ring. apply Rmult_le_compat_l; [apply Rmult_le_pos; auto|]. nra. }
    lra.
Qed.
Lemma expands_scal p (c : P -> R) M a u : (forall q, Rabs (c q) <= M) -> expands p a u -> expands p (fun q h => c q * a q h) (fun q j => c q * u q j).
Proof.
  intros HM H. eapply expands_same; [intros; reflexivity| |apply (expands_mult p _ _ _ _ (expands_const p c M HM) H)].
  intros q j Hj. unfold conv. rewrite bsum_first. cbn [Nat.eqb]. rewrite (bsum_ext j _ (fun _ => 0)) by (intros; ring). rewrite bsum_0, Nat.sub_0_r. ring.
Qed.
Lemma expands_zero p : expands p (fun (_ : P) _ => 0) (fun _ _ => 0).
Proof. eapply expands_same; [| |apply (expands_const p (fun _ => 0) 0)]; [reflexivity|intros q j _; cbn; destruct (Nat.eqb j 0); reflexivity|intros; rewrite Rabs_R0; lra]. Qed.
Lemma expands_bsum p m (a : nat -> P -> R -> R) (u : nat -> P -> nat -> R) : (forall i, (i < m)%nat -> expands p (a i) (u i)) -> expands p (fun q h => bsum m (fun i => a i q h)) (fun q j => bsum m (fun i => u i q j)).
Proof. induction m as [|m IH]; intros H; cbn [bsum]; [apply expands_zero|]. apply expands_plus; auto. Qed.
Lemma expands_remainder p a : (exists C d, 0 < d /\ forall q h, Rabs h <= d -> Rabs (a q h) <= C * Rabs h ^ p) -> expands p a (fun _ _ => 0).
Proof.
  intros (C & d & Hd & H). split; [exists 0; split; [lra|]; intros; rewrite Rabs_R0; lra|]. exists (Rmax C 0), (Rmin d 1). split; [apply Rmax_r|]. split; [split; [apply Rmin_glb_lt; lra|apply Rmin_r]|]. intros q h Hh.
  rewrite (bsum_ext p _ (fun _ => 0)) by (intros; ring). rewrite bsum_0, Rminus_0_r. eapply Rle_trans; [apply H; eapply Rle_trans; [apply Hh|apply Rmin_l]|]. apply Rmult_le_compat_r; [apply pow_le, Rabs_pos|apply Rmax_l].
Qed.
Lemma expands_rest p a u : expands p a u -> exists C d, 0 <= C /\ 0 < d <= 1 /\ forall q h, Rabs h <= d -> Rabs (a q h - bsum p (fun j => u q j * h ^ j)) <= C * Rabs h ^ p.
Proof. intros (_ & H). exact H. Qed.
(** Less is known from more. *)
Lemma expands_weaken p a u : expands (S p) a u -> expands p a u.
Proof.
  intros ((M & HM & HB) & C & d & HC & Hd & H). split; [exists M; split; [auto|]; intros; apply HB; lia|].
  exists (C + M), d. split; [lra|]. split; [auto|]. intros q h Hh. pose proof (H q h Hh) as X. cbn [bsum] in X.
  replace (a q h - bsum p (fun j => u q j * h ^ j)) with ((a q h - (bsum p (fun j => u q j * h ^ j) + u q p * h ^ p)) + u q p * h ^ p) by ring.
  eapply Rle_trans; [apply Rabs_triang|]. rewrite Rabs_mult, <- RPow_abs. cbn [pow] in X. pose proof (HB q p ltac:(lia)). pose proof (pow_le (Rabs h) p (Rabs_pos h)). pose proof (Rabs_pos h).
  assert (C * (Rabs h * Rabs h ^ p) <= C * Rabs h ^ p) by (apply Rmult_le_compat_l; [auto|nra]). nra.
Qed.
Lemma expands_weaken_to p k a u : (k <= p)%nat -> expands p a u -> expands k a u.
Proof. induction p as [|p IH]; intros K H; [replace k with O by lia; auto|]. destruct (Nat.eq_dec k (S p)); [subst; auto|]. apply IH; [lia|]. apply expands_weaken, H. Qed.
(** Multiplication by the small number. *)
Definition shift u : P -> nat -> R := fun q j => match j with O => 0 | S j => u q j end.
Lemma expands_shift p a u : expands p a u -> expands (S p) (fun q h => h * a q h) (shift u).
Proof.
  intros ((M & HM & HB) & C & d & HC & Hd & H). split.
  - exists M. split; [auto|]. intros q [|j] Hj; cbn; [rewrite Rabs_R0; auto|apply HB; lia].
  - exists C, d. split; [auto|]. split; [auto|]. intros q h Hh. rewrite bsum_first. cbn [shift]. rewrite (bsum_ext p _ (fun j => h * (u q j * h ^ j))) by (intros; cbn; ring). rewrite bsum_scal.
    replace (h * a q h - (0 * h ^ 0 + _)) with (h * (a q h - bsum p (fun j => u q j * h ^ j))) by ring. rewrite Rabs_mult. cbn [pow]. pose proof (H q h Hh). pose proof (Rabs_pos h). nra.
Qed.
(** From the derivative to the function. *)
Lemma expands_integral p a u (g : P -> R -> R) d0 : 0 < d0 -> (forall q h, Rabs h <= d0 -> is_derive (g q) h (a q h)) -> (forall q, g q 0 = 0) -> expands p a u ->
  expands (S p) g (shift (fun q j => u q j / INR (S j))).
Proof.
  intros D0 Hg G0 ((M & HM & HB) & C & d & HC & Hd & H). split.
  - exists M. split; [auto|]. intros q [|j] Hj; cbn [shift]; [rewrite Rabs_R0; auto|]. unfold Rdiv. rewrite Rabs_mult. pose proof (HB q j ltac:(lia)). assert (1 <= INR (S j)) by (apply (le_INR 1); lia).
    rewrite (Rabs_pos_eq (/ INR (S j))) by (left; apply Rinv_0_lt_compat; lra). assert (/ INR (S j) <= 1) by (rewrite <- Rinv_1; apply Rinv_le_contravar; lra). assert (0 < / INR (S j)) by (apply Rinv_0_lt_compat; lra). pose proof (Rabs_pos (u q j)). nra.
  - exists C, (Rmin d0 d). split; [auto|]. split; [split; [apply Rmin_glb_lt; lra|eapply Rle_trans; [apply Rmin_r|lra]]|]. intros q h Hh.
    set (P0 := fun h => bsum (S p) (fun j => shift (fun q j => u q j / INR (S j)) q j * h ^ j)). change (Rabs (g q h - P0 h) <= C * Rabs h ^ S p).
    assert (E0 : forall h, P0 h = bsum p (fun j => u q j / INR (S j) * h ^ S j)) by (intros; unfold P0; rewrite bsum_first; cbn [shift]; ring).
    assert (DP : forall s, is_derive P0 s (bsum p (fun j => u q j * s ^ j))).
    { intros s. apply is_derive_ext with (fun h => bsum p (fun j => u q j / INR (S j) * h ^ S j)); [intros; symmetry; apply E0|].
      apply (is_derive_bsum p (fun h j => u q j / INR (S j) * h ^ S j)). intros j Hj. evar_last; [auto_derive; [exact I|reflexivity]|]. match goal with |- ?x = ?y => change (@eq R x y) end. cbn [Nat.pred]. rewrite ?Nat.sub_0_r. field. apply (not_0_INR (S j)). lia. }
    assert (N0 : P0 0 = 0). { rewrite E0. rewrite (bsum_ext p _ (fun _ => 0)) by (intros; cbn; ring). apply bsum_0. }
    destruct (MVT_abs (fun s => g q s - P0 s) (fun s => a q s - bsum p (fun j => u q j * s ^ j)) 0 h) as (c & E & Hc).
    { intros s Hs. apply is_derive_Reals. apply (is_derive_minus (g q) P0); [|apply DP]. apply Hg.
      assert (Rabs s <= Rabs h) by (unfold Rmin, Rmax in Hs; destruct (Rle_dec 0 h); unfold Rabs; destruct (Rcase_abs s), (Rcase_abs h); lra). pose proof (Rmin_l d0 d). lra. }
    cbv beta in E. rewrite G0, N0, !Rminus_0_r in E. rewrite E.
    assert (Rabs c <= Rabs h) by (unfold Rmin, Rmax in Hc; destruct (Rle_dec 0 h); unfold Rabs; destruct (Rcase_abs c), (Rcase_abs h); lra).
    pose proof (H q c ltac:(pose proof (Rmin_r d0 d); lra)). cbn [pow]. pose proof (Rabs_pos h).
    assert (Rabs c ^ p <= Rabs h ^ p) by (apply pow_incr; split; [apply Rabs_pos|auto]). pose proof (pow_le (Rabs c) p (Rabs_pos c)).
    replace (C * (Rabs h * Rabs h ^ p)) with (C * Rabs h ^ p * Rabs h) by ring. apply Rmult_le_compat_r; [auto|]. nra.
Qed.
End Family.
