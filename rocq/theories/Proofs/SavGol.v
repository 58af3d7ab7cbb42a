(** Savitzky-Golay filtering of polynomials, given a generalised inverse. *)
From Coq Require Import ZArith List Bool Arith Reals Lra Lia FinFun.
From Coquelicot Require Import Coquelicot.
From Verif Require Import Base.Scalar Base.Lists Base.RNum Base.Series Base.PolyR Model.Errors Model.Summation Model.Window Spec.Window Spec.Stream Spec.Polynomial
  Proofs.DiffAlg Proofs.Window Proofs.Polynomial.
Import ListNotations.
Local Open Scope R_scope.

Lemma powi_nat (x : R) (n : nat) : powi x (Z.of_nat n) = x ^ n.
Proof.
  destruct n as [|n]; [reflexivity|]. unfold powi. cbn [Z.of_nat]. rewrite powi_loop_R, SuccNat2Pos.id_succ. rnum. ring.
Qed.
Lemma savgol_fit_at w terms rp l k : (l < w)%nat -> (k < terms)%nat ->
  nth k (nth l (savgol_fit w terms rp) []) 0 = (INR l - INR rp) ^ k.
Proof.
  intros Hl Hk. unfold savgol_fit. fold (from_fn w (fun sample => map (fun term => powi (sub (of_nat sample) (of_nat rp)) (Z.of_nat term)) (seq 0 terms))).
  rewrite nth_from_fn by auto. fold (from_fn terms (fun term => powi (sub (@of_nat R Rnum l) (of_nat rp)) (Z.of_nat term))).
  rewrite nth_from_fn by auto. rewrite powi_nat, !of_nat_INR. reflexivity.
Qed.

(** the inverse recovers the coefficients of what was sampled *)
Lemma inverse_recovers w terms rp X (c : nat -> R) : (terms <= w)%nat -> generalized_inverse w terms (savgol_fit w terms rp) X ->
  forall k, (k < terms)%nat ->
  bsum w (fun l => nth l (nth k X []) 0 * bsum terms (fun j => (INR l - INR rp) ^ j * c j)) = c k.
Proof.
  intros Hw G. unfold generalized_inverse in G. cbv beta zeta in G. set (e k := bsum w (fun l => nth l (nth k X []) 0 * bsum terms (fun j => (INR l - INR rp) ^ j * c j))).
  assert (Z : forall k, cf (from_fn terms (fun k => e k - c k)) k = 0).
  { apply (roots_zero _ (map (fun l => INR l - INR rp) (seq 0 w))).
    - apply Injective_map_NoDup; [|apply seq_NoDup]. intros a b E. apply INR_eq. lra.
    - rewrite from_fn_length, map_length, seq_length. lia.
    - intros r Hr. apply in_map_iff in Hr. destruct Hr as (i & <- & Hi). apply in_seq in Hi.
      rewrite peval_bsum, from_fn_length.
      rewrite (bsum_ext _ _ (fun k => (INR i - INR rp) ^ k * e k - (INR i - INR rp) ^ k * c k)) by (intros k Hk; rewrite nth_from_fn by auto; ring).
      rewrite bsum_minus.
      rewrite (bsum_ext _ (fun k => (INR i - INR rp) ^ k * e k) (fun k => bsum terms (fun j => bsum w (fun l => (INR i - INR rp) ^ k * nth l (nth k X []) 0 * (INR l - INR rp) ^ j) * c j))).
      + rewrite bsum_swap.
        rewrite (bsum_ext terms (fun j => bsum terms _) (fun j => (INR i - INR rp) ^ j * c j)); [ring|].
        intros j Hj. specialize (G i j ltac:(lia) Hj). rewrite (savgol_fit_at w terms rp i j) in G by lia. rewrite <- G. rewrite (Rmult_comm (bsum _ _)), <- bsum_scal. apply bsum_ext. intros k Hk. rewrite Rmult_comm. f_equal.
        apply bsum_ext. intros l Hl. rewrite !savgol_fit_at by lia. reflexivity.
      + intros k Hk. unfold e. rewrite <- bsum_scal.
        rewrite (bsum_ext w _ (fun l => bsum terms (fun j => (INR i - INR rp) ^ k * nth l (nth k X []) 0 * (INR l - INR rp) ^ j * c j))).
        * rewrite bsum_swap. apply bsum_ext. intros j Hj. rewrite (Rmult_comm (bsum _ _)), <- bsum_scal. apply bsum_ext. intros; ring.
        * intros l Hl. rewrite <- Rmult_assoc, <- bsum_scal. apply bsum_ext. intros; ring. }
  intros k Hk. specialize (Z k). rewrite nth_from_fn in Z by auto. fold (e k). lra.
Qed.

Lemma savgol_replay w (s0 : SavGol R) hist :
  sg_ring s0 = ring_new w ->
  let s := replay (savgol_filter w) (savgol_reset w) s0 hist in
  sg_ring s = fold_left (ring_push w) (since_reset hist) (ring_new w) /\
  sg_smoothing s = sg_smoothing s0 /\ sg_first s = sg_first s0 /\ sg_second s = sg_second s0 /\ sg_delay s = sg_delay s0.
Proof.
  intros R0. cbv zeta. induction hist as [|e h IH] using rev_ind; [cbn; auto|].
  rewrite replay_snoc, since_reset_snoc. destruct IH as (I1 & I2 & I3 & I4 & I5). destruct e; [|cbn; auto].
  cbn [savgol_filter fst sg_ring sg_smoothing sg_first sg_second sg_delay]. rewrite I1, fold_left_app. auto.
Qed.
Lemma last_window_full {T} w (f : T) l d j : (w <= length l)%nat -> nth j (last_window w f l) d = nth (length l - w + j) l d.
Proof.
  intros H. unfold last_window. rewrite skipn_app, repeat_length. rewrite skipn_all2 by (rewrite repeat_length; lia). cbn [app].
  generalize (length l - w)%nat as n. clear. revert j. induction l as [|a l IH]; intros j [|n]; cbn; auto. destruct j; reflexivity.
Qed.
Lemma weighted_sum_bsum w r weights : savgol_weighted_sum w r weights = bsum w (fun p => nth p weights 0 * nth ((rg_next r + p) mod w) (rg_samples r) 0).
Proof.
  unfold savgol_weighted_sum. rnum. induction w as [|w IH] using nat_ind; [reflexivity|].
  (* the modulus is fixed: generalise the loop bound *)
  clear IH. assert (G : forall n, fold_left (fun total position => total + nth position weights 0 * nth ((rg_next r + position) mod S w) (rg_samples r) 0) (seq 0 n) 0 =
    bsum n (fun p => nth p weights 0 * nth ((rg_next r + p) mod S w) (rg_samples r) 0)).
  { induction n as [|n IHn]; [reflexivity|]. rewrite seq_S, fold_left_app, IHn. reflexivity. }
  apply G.
Qed.

Theorem savgol_exact pinv w terms dt rp s0 hist P t :
  (forall a x, pinv a = Ok x -> generalized_inverse w terms a x) ->
  savgol_build pinv w terms dt rp = Ok s0 -> (rp < w)%nat ->
  (length P <= terms)%nat -> (w <= length (since_reset hist))%nat ->
  (forall j, (j < w)%nat -> nth (length (since_reset hist) - w + j) (since_reset hist) 0 = peval P (t - INR (w - 1 - j) * dt)) ->
  let s := replay (savgol_filter w) (savgol_reset w) s0 hist in
  sg_delay s = INR (w - 1 - rp) * dt /\
  savgol_value w s = peval P (t - sg_delay s) /\
  savgol_first_derivative w s = tay 1 P (t - sg_delay s) /\
  savgol_second_derivative w s = 2 * tay 2 P (t - sg_delay s).
Proof.
  intros G B Hrp LP Lw Smp. unfold savgol_build in B. cbn [is_finite Rnum negb] in B. rnum.
  destruct (Rleb dt 0) eqn:Edt; [discriminate|]. apply Rleb_false in Edt.
  destruct (Nat.eqb_spec w 0) as [|Nw]; [lia|]. destruct (Nat.eqb_spec terms 0) as [|Nt]; [discriminate|]. cbn [orb] in B.
  destruct (Nat.ltb_spec w terms) as [|Hwt]; [discriminate|]. destruct (pinv (savgol_fit w terms rp)) as [X|e|] eqn:EX; try discriminate.
  apply G in EX. injection B as <-. cbv zeta. set (s0 := mkSavGol _ _ _ _ _).
  destruct (savgol_replay w s0 hist eq_refl) as (I1 & I2 & I3 & I4 & I5). set (s := replay _ _ s0 hist) in *.
  assert (Del : sg_delay s = INR (w - 1 - rp) * dt) by (rewrite I5; exact (f_equal (fun z => z * dt) (of_nat_INR (w - 1 - rp)))).
  split; [exact Del|]. set (tr := t - sg_delay s).
  destruct (since_reset hist) as [|x xs] eqn:Eh; [cbn in Lw; lia|]. rewrite <- Eh in *.
  destruct (ring_window w x xs (ring_new w) ltac:(lia) eq_refl) as (J1 & J2 & J3 & J4). rewrite <- Eh, <- I1 in *.
  (* what the window holds, in the fitted matrix's terms *)
  assert (Win : forall j, (j < w)%nat -> nth ((rg_next (sg_ring s) + j) mod w) (rg_samples (sg_ring s)) 0 = bsum terms (fun k => (INR j - INR rp) ^ k * (tay k P tr * dt ^ k))).
  { intros j Hj. pose proof (chron_nth w (sg_ring s) j J2 J3 Hj) as C. rnum. rewrite <- C, J4. rewrite last_window_full by auto. rewrite Smp by auto.
    assert (Et : t - INR (w - 1 - j) * dt = tr + (INR j - INR rp) * dt).
    { unfold tr. rewrite Del, !minus_INR by lia. ring. }
    rewrite Et, peval_shift. replace terms with (length P + (terms - length P))%nat by lia. rewrite bsum_shift.
    rewrite (bsum_ext (terms - length P) _ (fun _ => 0)), bsum_0, Rplus_0_r by (intros i _; rewrite tay_over by lia; ring).
    apply bsum_ext. intros k _. rewrite Rpow_mult_distr. ring. }
  assert (Out : forall k, (k < terms)%nat -> bsum w (fun l => nth l (nth k X []) 0 * nth ((rg_next (sg_ring s) + l) mod w) (rg_samples (sg_ring s)) 0) = tay k P tr * dt ^ k).
  { intros k Hk. rewrite <- (inverse_recovers w terms rp X (fun k => tay k P tr * dt ^ k) Hwt EX k Hk). apply bsum_ext. intros l Hl. rewrite Win by auto. reflexivity. }
  unfold savgol_value, savgol_first_derivative, savgol_second_derivative. rewrite !weighted_sum_bsum, I2, I3, I4. 
  change (sg_smoothing s0) with (from_fn w (fun sample => nth sample (nth 0 X []) 0)).
  change (sg_first s0) with (from_fn w (fun sample => if Nat.leb 2 terms then nth sample (nth 1 X []) 0 / dt else 0)).
  change (sg_second s0) with (from_fn w (fun sample => if Nat.leb 3 terms then 2 * nth sample (nth 2 X []) 0 / (dt * dt) else 0)).
  split; [|split].
  - rewrite <- tay_0. replace (tay 0 P tr) with (tay 0 P tr * dt ^ 0) by (cbn; ring). rewrite <- Out by lia. apply bsum_ext. intros l Hl.
    rewrite nth_from_fn by auto. reflexivity.
  - destruct (Nat.leb_spec 2 terms) as [H2|H2].
    + replace (tay 1 P tr) with (/ dt * (tay 1 P tr * dt ^ 1)) by (field; lra). rewrite <- Out by lia. rewrite <- bsum_scal. apply bsum_ext. intros l Hl.
      rewrite nth_from_fn by auto. unfold Rdiv. ring.
    + rewrite tay_over by lia. rewrite (bsum_ext _ _ (fun _ => 0)), bsum_0; [reflexivity|]. intros l Hl.
      rewrite nth_from_fn by auto. ring.
  - destruct (Nat.leb_spec 3 terms) as [H2|H2].
    + replace (2 * tay 2 P tr) with (2 / (dt * dt) * (tay 2 P tr * dt ^ 2)) by (field; lra). rewrite <- Out by lia. rewrite <- bsum_scal. apply bsum_ext. intros l Hl.
      rewrite nth_from_fn by auto. unfold Rdiv. ring.
    + rewrite tay_over by lia. rewrite (bsum_ext _ _ (fun _ => 0)), bsum_0; [ring|]. intros l Hl.
      rewrite nth_from_fn by auto. ring.
Qed.
