(** C28: Savitzky-Golay filters reproduce polynomials. *)
From Coq Require Import ZArith List Bool Arith Reals Lra Lia.
From Coquelicot Require Import Coquelicot.
From Verif Require Import Base.Scalar Base.Lists Base.RNum Base.Series Base.PolyR Model.Errors Model.Summation Model.Window Spec.Window Spec.Stream Spec.Polynomial
  Proofs.Window Proofs.Polynomial Proofs.SavGol.
Import ListNotations.
Local Open Scope R_scope.

(** [t] is the time of the newest sample, and the samples still in the window were taken from the polynomial [P]
    at the timestep [dt].  What was fed or reset before does not matter.
    The linear-algebra routine the constructor calls is a parameter: all that is assumed is that what it returns
    is a generalised inverse of the matrix it was given.  That assumption is what makes the theorem partial: the
    routine itself is an iterative decomposition, outside the model. *)
Theorem C28_reproduces_polynomials_partial :
  forall (pinv : list (list R) -> Res (list (list R)) LinalgError) (w terms : nat) (dt : R) (s0 : SavGol R)
         (hist : list (event R)) (P : list R) (t : R),
  (forall a x, pinv a = Ok x -> generalized_inverse w terms a x) ->
  savgol_centered pinv w terms dt = Ok s0 \/ savgol_latest pinv w terms dt = Ok s0 ->
  (length P <= terms)%nat ->
  (w <= length (since_reset hist))%nat ->
  (forall j, (j < w)%nat -> nth (length (since_reset hist) - w + j) (since_reset hist) 0 = value_at P (t - INR (w - 1 - j) * dt)) ->
  let s := replay (savgol_filter w) (savgol_reset w) s0 hist in
  savgol_value w s = value_at P (t - sg_delay s) /\
  is_derive (value_at P) (t - sg_delay s) (savgol_first_derivative w s) /\
  is_derive_n (value_at P) 2 (t - sg_delay s) (savgol_second_derivative w s).
Proof.
  intros pinv w terms dt s0 hist P t G B LP Lw Smp. cbv zeta.
  assert (B' : exists rp, (rp < w)%nat /\ savgol_build pinv w terms dt rp = Ok s0).
  { destruct B as [B|B].
    - unfold savgol_centered in B. destruct (Nat.eqb (w mod 2) 0) eqn:E; [discriminate|]. exists ((w - 1) / 2)%nat. split; [|exact B].
      destruct w; [cbn in E; discriminate|]. apply Nat.div_lt_upper_bound; lia.
    - unfold savgol_latest in B. destruct w as [|rp]; [discriminate|]. exists rp. split; [lia|exact B]. }
  destruct B' as (rp & Hrp & B'). clear B.
  assert (Smp' : forall j, (j < w)%nat -> nth (length (since_reset hist) - w + j) (since_reset hist) 0 = peval P (t - INR (w - 1 - j) * dt))
    by (intros j Hj; rewrite Smp by auto; apply value_at_peval).
  destruct (savgol_exact pinv w terms dt rp s0 hist P t G B' Hrp LP Lw Smp') as (_ & V & D1 & D2).
  rewrite V, D1, D2. split; [symmetry; apply value_at_peval|]. split.
  - apply (is_derive_ext (peval P)); [intros; symmetry; apply value_at_peval|]. apply is_derive_peval.
  - apply (is_derive_n_ext (peval P)); [intros; symmetry; apply value_at_peval|].
    replace (2 * tay 2 P (t - _)) with (INR (fact 2) * tay 2 P (t - sg_delay (replay (savgol_filter w) (savgol_reset w) s0 hist))) by (cbn; ring). apply is_derive_n_peval.
Qed.
(** Where in the window the filter reports: half a window back, or now. *)
Theorem C28_delay : forall (pinv : list (list R) -> Res (list (list R)) LinalgError) (w terms : nat) (dt : R) (s0 : SavGol R),
  (savgol_centered pinv w terms dt = Ok s0 -> sg_delay s0 = INR ((w - 1) / 2) * dt) /\
  (savgol_latest pinv w terms dt = Ok s0 -> sg_delay s0 = 0).
Proof.
  assert (H : forall pinv w terms dt rp (s0 : SavGol R), savgol_build pinv w terms dt rp = Ok s0 -> sg_delay s0 = INR (w - 1 - rp) * dt).
  { intros pinv w terms dt rp s0 B. unfold savgol_build in B. destruct (negb _); [discriminate|]. destruct (leb _ _); [discriminate|].
    destruct (_ || _)%bool; [discriminate|]. destruct (Nat.ltb _ _); [discriminate|]. destruct (pinv _); try discriminate. injection B as <-.
    exact (f_equal (fun z => z * dt) (of_nat_INR (w - 1 - rp))). }
  intros pinv w terms dt s0. split.
  - unfold savgol_centered. destruct (Nat.eqb_spec (w mod 2) 0) as [|E]; [discriminate|]. intros B. rewrite (H _ _ _ _ _ _ B). do 2 f_equal.
    assert (Hm : (w mod 2 = 1)%nat) by (pose proof (Nat.mod_upper_bound w 2); lia). pose proof (Nat.div_mod w 2 ltac:(lia)) as D.
    assert (E2 : (w - 1 = w / 2 * 2)%nat) by lia. rewrite E2, Nat.div_mul by lia. lia.
  - unfold savgol_latest. destruct w as [|rp]; [discriminate|]. intros B. rewrite (H _ _ _ _ _ _ B). replace (S rp - 1 - rp)%nat with 0%nat by lia. cbn. ring.
Qed.
(** Three samples, a straight line: a real inverse and a real filter meeting the hypotheses. *)
Definition line_inverse : list (list R) := [[1/3; 1/3; 1/3]; [-1/2; 0; 1/2]].
Lemma line_generalized : generalized_inverse 3 2 (savgol_fit 3 2 1) line_inverse.
Proof.
  unfold generalized_inverse. cbv zeta. intros i j Hi Hj.
  assert (Hi' : i = 0%nat \/ i = 1%nat \/ i = 2%nat) by lia. assert (Hj' : j = 0%nat \/ j = 1%nat) by lia.
  cbn [bsum]. rewrite !savgol_fit_at by lia. unfold line_inverse.
  destruct Hi' as [-> | [-> | ->]], Hj' as [-> | ->]; cbn; field.
Qed.
Example C28_example :
  (forall a x, (if list_eq_dec (list_eq_dec Req_EM_T) a (savgol_fit 3 2 1) then Ok line_inverse else Err (LaDidNotConverge 0)) = Ok x -> generalized_inverse 3 2 a x) /\
  exists s0, savgol_centered (fun a => if list_eq_dec (list_eq_dec Req_EM_T) a (savgol_fit 3 2 1) then Ok line_inverse else Err (LaDidNotConverge 0)) 3 2 1 = Ok s0 /\
  savgol_value 3 (replay (savgol_filter 3) (savgol_reset 3) s0 [Sample 40; Sample 5; Sample 7; Sample 9]) = 7.
Proof.
  assert (G : forall a x, (if list_eq_dec (list_eq_dec Req_EM_T) a (savgol_fit 3 2 1) then Ok line_inverse else Err (LaDidNotConverge 0)) = Ok x -> generalized_inverse 3 2 a x).
  { intros a x. destruct (list_eq_dec (list_eq_dec Req_EM_T) a (savgol_fit 3 2 1)) as [->|]; [|discriminate]. intros E. injection E as <-. apply line_generalized. }
  split; [exact G|].
  set (pinv := fun a => if list_eq_dec (list_eq_dec Req_EM_T) a (savgol_fit 3 2 1) then Ok line_inverse else Err (LaDidNotConverge 0)).
  assert (B : exists s0, savgol_centered pinv 3 2 1 = Ok s0).
  { unfold savgol_centered, savgol_build. cbn [Nat.eqb Nat.modulo Nat.divmod fst snd Nat.sub is_finite Rnum negb orb Nat.ltb Nat.leb Nat.div]. rnum. rewrite (proj2 (Rleb_false 1 0)) by lra.
    unfold pinv. destruct (list_eq_dec (list_eq_dec Req_EM_T) (savgol_fit 3 2 1) (savgol_fit 3 2 1)) as [_|N]; [|exfalso; apply N; reflexivity]. eauto. }
  destruct B as (s0 & B). exists s0. split; [exact B|].
  destruct (C28_reproduces_polynomials_partial pinv 3 2 1 s0 [Sample 40; Sample 5; Sample 7; Sample 9] [5; 2] 2 G (or_introl B)) as (V & _).
  - cbn. lia.
  - cbn. lia.
  - intros j Hj. assert (Hj' : j = 0%nat \/ j = 1%nat \/ j = 2%nat) by lia. destruct Hj' as [-> | [-> | ->]]; unfold value_at; cbn; ring.
  - rewrite V. rewrite (proj2 (proj2 (proj2 (proj2 (savgol_replay 3 s0 [Sample 40; Sample 5; Sample 7; Sample 9] ltac:(unfold savgol_centered, savgol_build in B; revert B; cbn [Nat.eqb Nat.modulo Nat.divmod fst snd Nat.sub is_finite Rnum negb orb Nat.ltb Nat.leb Nat.div]; rnum; destruct (Rleb 1 0); [discriminate|]; destruct (pinv _); try discriminate; intros B; injection B as <-; reflexivity)))))).
    rewrite (proj1 (C28_delay pinv 3 2 1 s0) B). unfold value_at. cbn. ring.
Qed.
Print Assumptions C28_reproduces_polynomials_partial.
Print Assumptions C28_delay.
