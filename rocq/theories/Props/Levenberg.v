(** C142: the Levenberg-Marquardt solver. *)
From Coq Require Import ZArith Reals List Bool Arith Lia Lra Permutation.
From Verif Require Import Base.Scalar Base.Lists Base.RNum Base.Series Base.Det Model.Errors Model.Vector Model.Matrix Model.Lu Model.Cholesky Model.Qr Model.Dual Model.Derivative Model.Optimization
  Proofs.Matrix Proofs.Qr Proofs.Optimization Proofs.Levenberg Props.Qr Props.Damped Props.Derivative Props.GaussNewton Spec.Expr Spec.Derivative Spec.Matrix Spec.Optimization.
Import ListNotations.
Local Open Scope R_scope.

(** For any scalar, NaN and infinity included: no run panics; a report names a point of the right size with finite residuals, its objective
    is that of this point, it says which test stopped the run and that test holds, and both it and the failure to converge stay within the
    budget of passes, 100 trials each. *)
Theorem C142_report T (NT : Num T) (s : LevenbergMarquardt T) f m x0 : (forall p, jacobian (lm_derivator s) f m p <> Panic) ->
  match lm_minimize s f m x0 with
  | Ok r => lm_truthful s f m r /\ length (solution r) = length x0 /\ (1 <= evaluations r <= 1 + 100 * lm_patience s)%nat
  | Err (SoDidNotConverge k) => (1 + lm_patience s <= k <= 1 + 100 * lm_patience s)%nat
  | Err _ => True
  | Panic => False
  end.
Proof.
  intros NP. unfold lm_minimize. destruct (vec_is_finite (f T NT x0)) eqn:F; cbn [negb]; [|exact I].
  match goal with |- context [lm_loop s f m _ ?st] => exact (lm_loop_spec s f m (length x0) NP (lm_patience s) st (conj eq_refl (conj eq_refl (conj F eq_refl))) ltac:(discriminate)) end.
Qed.
(** Residuals that are not finite at the start, and more parameters than residuals, are refused. *)
Theorem C142_refused T (NT : Num T) (s : LevenbergMarquardt T) f m x0 :
  (vec_is_finite (f T NT x0) = false -> lm_minimize s f m x0 = Err SoNonFinite) /\
  (vec_is_finite (f T NT x0) = true -> (m < length x0)%nat -> (0 < lm_patience s)%nat -> forall j, jacobian (lm_derivator s) f m x0 = Ok j ->
    lm_minimize s f m x0 = Err (if mat_is_finite j then SoLinalg LaUnderdetermined else SoNonFinite)).
Proof.
  unfold lm_minimize. split; [intros ->; reflexivity|]. intros -> L P j J. cbn [negb]. destruct (lm_patience s); [lia|]. cbn [lm_loop lm_x]. rewrite J.
  destruct (mat_is_finite j); [|reflexivity]. cbn [negb]. unfold qr_decompose. replace (Nat.ltb m (length x0)) with true by (symmetry; apply Nat.ltb_lt; exact L). reflexivity.
Qed.

(** ** The answer is never worse than the start *)
Theorem C142_never_worse (s : LevenbergMarquardt R) f m x0 r : (forall p, jacobian (lm_derivator s) f m p <> Panic) ->
  lm_minimize s f m x0 = Ok r -> enorm (f R Rnum (solution r)) <= enorm (f R Rnum x0).
Proof.
  intros NP E. pose proof (C142_report R Rnum s f m x0 NP) as P. rewrite E in P. destruct P as [(_ & OB & _) _].
  unfold lm_minimize in E. destruct (negb _); [discriminate|].
  match type of E with lm_loop s f m _ ?st = _ => pose proof (loop_descend s f m (lm_patience s) st (enorm_nonneg _)) as D end. rewrite E in D. cbn [not_above lm_fnorm] in D.
  destruct D as (fn & B & O). rewrite OB in O. cbn [half mul Rnum] in O. pose proof (enorm_nonneg (f R Rnum (solution r))). nra.
Qed.
(** In terms of the cost, for residuals whose squares do not overflow. *)
Theorem C142_cost (s : LevenbergMarquardt R) f m x0 r : (forall p, jacobian (lm_derivator s) f m p <> Panic) ->
  lm_minimize s f m x0 = Ok r -> let x := solution r in length (f R Rnum x0) = m -> length (f R Rnum x) = m -> moderate max_value (f R Rnum x0) -> moderate max_value (f R Rnum x) ->
  objective_function r = cost (f R Rnum) m x /\ cost (f R Rnum) m x <= cost (f R Rnum) m x0.
Proof.
  intros NP E x L0 L1 M0 M1. pose proof (C142_never_worse s f m x0 r NP E) as W. pose proof (C142_report R Rnum s f m x0 NP) as P. rewrite E in P. destruct P as [(_ & OB & _) _].
  fold x in OB, W. rewrite !enorm_moderate in W by assumption. rewrite L0, L1 in W. rewrite OB, enorm_moderate, L1 by assumption. cbn [half mul Rnum]. unfold cost.
  change (residual_of (f R Rnum) ?p) with (vget (f R Rnum p)).
  pose proof (square_norm_nonneg m (vget (f R Rnum x))) as N1. pose proof (square_norm_nonneg m (vget (f R Rnum x0))) as N0. split.
  - rewrite Rmult_assoc, sqrt_sqrt by exact N1. lra.
  - apply Rmult_le_compat_r; [lra|]. apply sqrt_le_0; assumption.
Qed.

(** ** Stopping on the gradient *)
Theorem C142_gradient (s : LevenbergMarquardt R) f m x0 r : (forall p, jacobian (lm_derivator s) f m p <> Panic) -> lm_minimize s f m x0 = Ok r ->
  let x := solution r in termination r = Gtol -> 0 <= lm_gtol s -> length (f R Rnum x) = m -> moderate max_value (f R Rnum x) ->
  exists j, jacobian (lm_derivator s) f m x = Ok j /\
    (shape m (length x) j -> columns_below max_value m (length x) (mget j) -> forall c, (c < length x)%nat ->
      Rabs (dot_product m (column (mget j) c) (residual_of (f R Rnum) x)) <=
        lm_gtol s * R_sqrt.sqrt (square_norm m (residual_of (f R Rnum) x)) * R_sqrt.sqrt (square_norm m (column (mget j) c))).
Proof.
  intros NP E x TR G L M. pose proof (C142_report R Rnum s f m x0 NP) as P. rewrite E in P. destruct P as [(F & _ & P) _]. rewrite TR in P. fold x in P, F.
  destruct P as (j & qr & J & _ & Q & A). exists j. split; [exact J|]. intros S B c Hc.
  assert (EN : enorm (f R Rnum x) = R_sqrt.sqrt (square_norm m (residual_of (f R Rnum) x))) by (rewrite enorm_moderate by exact M; rewrite L; reflexivity).
  set (nc := R_sqrt.sqrt (square_norm m (column (mget j) c))). set (bn := R_sqrt.sqrt (square_norm m (residual_of (f R Rnum) x))) in *.
  assert (N0 : 0 <= bn) by apply sqrt_pos. assert (C0 : 0 <= nc) by apply sqrt_pos.
  assert (CS : bn = 0 \/ nc = 0 -> dot_product m (column (mget j) c) (residual_of (f R Rnum) x) = 0).
  { intros H. unfold dot_product. rewrite (bsum_ext _ _ (fun _ => 0)); [apply bsum_0|]. intros i Hi. destruct H as [H|H]; apply sqrt_eq_0 in H; try apply square_norm_nonneg.
    - pose proof (square_norm_ge m (residual_of (f R Rnum) x) i Hi). assert (Z : residual_of (f R Rnum) x i = 0) by (apply Rsqr_0_uniq; unfold Rsqr; pose proof (Rle_0_sqr (residual_of (f R Rnum) x i)); unfold Rsqr in *; lra). rewrite Z. ring.
    - pose proof (square_norm_ge m (column (mget j) c) i Hi). assert (Z : column (mget j) c i = 0) by (apply Rsqr_0_uniq; unfold Rsqr; pose proof (Rle_0_sqr (column (mget j) c i)); unfold Rsqr in *; lra). rewrite Z. ring. }
  destruct (Req_dec bn 0) as [Zb|Zb]; [rewrite CS, Zb, Rabs_R0 by auto; lra|]. destruct (Req_dec nc 0) as [Zc|Zc]; [rewrite CS, Zc, Rabs_R0 by auto; lra|].
  cbn [leb Rnum] in A. apply Rleb_true in A. rewrite EN in A. destruct (norms_length _ _ _ _ Q) as [_ LM].
  destruct (C83_gradient m (length x) j qr (f R Rnum x) LM S B Q L bn Zb) as (_ & K & _). specialize (K c Hc).
  assert (NZ : square_norm m (column (mget j) c) <> 0) by (intros Z; apply Zc; unfold nc; rewrite Z; apply sqrt_0). specialize (K NZ). fold nc in K. fold (length x) in A.
  assert (GV : times m (transposed (mget j)) (vget (f R Rnum x)) c = dot_product m (column (mget j) c) (residual_of (f R Rnum) x)) by reflexivity.
  rewrite GV in K. assert (PB : 0 < bn * nc) by (apply Rmult_lt_0_compat; lra).
  replace (dot_product m (column (mget j) c) (residual_of (f R Rnum) x) / bn / nc) with (dot_product m (column (mget j) c) (residual_of (f R Rnum) x) * / (bn * nc)) in K by (field; lra).
  rewrite Rabs_mult, (Rabs_right (/ (bn * nc))) in K by (apply Rle_ge, Rlt_le, Rinv_0_lt_compat, PB).
  assert (K2 := Rle_trans _ _ _ K A). apply (Rmult_le_compat_r (bn * nc)) in K2; [|lra]. rewrite Rmult_assoc, Rinv_l in K2 by lra. lra.
Qed.

(** ** The trial step *)
Section Step.
  Variables (m n : nat) (a : mat R) (qr0 : @qr R) (b diag : list R) (delta start : R).
  Hypothesis Hl : (n <= m)%nat.
  Hypothesis Ha : shape m n a.
  Hypothesis Hb : columns_below max_value m n (mget a).
  Hypothesis Hq : qr_decompose m n a = Ok qr0.
  Hypothesis Hr : length b = m.
  Hypothesis Hd : forall i, (i < n)%nat -> 0 < vget diag i.
  Hypothesis Hdelta : 0 < delta.
  Hypothesis Hstart : 0 <= start.
  (** only the zero vector is sent to zero *)
  Definition independent : Prop := forall y, equal_vectors m (times n (mget a) y) (fun _ => 0) -> equal_vectors n y (fun _ => 0).
  (** the squared length in the scaling of the parameters, and what the linear model leaves *)
  Definition scaled_length (q : vector) : R := square_norm n (fun i => vget diag i * q i).
  Definition remainder (q : vector) : R := square_norm m (fun i => times n (mget a) q i - vget b i).
  Notation out := (lmpar n (into_damped m n qr0 b) diag delta start).

  Lemma normal_expand (dg p : vector) k : (k < n)%nat -> times n (damped_normal m (mget a) dg) p k = times m (transposed (mget a)) (times n (mget a) p) k + dg k * dg k * p k.
  Proof.
    intros Hk. unfold times, damped_normal. rewrite (bsum_ext n _ (fun j => product m (transposed (mget a)) (mget a) k j * p j + (if Nat.eqb j k then dg k * dg k * p k else 0))).
    - rewrite bsum_plus, bsum_delta by exact Hk. f_equal. unfold product, transposed. rewrite (bsum_ext n _ (fun j => bsum m (fun r => mget a r k * (mget a r j * p j)))).
      + rewrite bsum_swap. apply bsum_ext. intros r Hr'. rewrite bsum_scal. reflexivity.
      + intros j Hj. rewrite Rmult_comm, <- bsum_scal. apply bsum_ext. intros; ring.
    - intros j Hj. rewrite (Nat.eqb_sym k j). destruct (Nat.eqb_spec j k) as [->|]; ring.
  Qed.
  (** the damping is not negative, the step has the right size and solves the damped normal equations, unless there is no damping and the
      columns are dependent *)
Theorem C142_step : 0 <= fst out /\ length (snd out) = n /\ (fst out = 0 -> enorm (scaled n diag (snd out)) <= 11 / 10 * delta) /\
    (0 < fst out \/ independent -> forall k, (k < n)%nat ->
      times m (transposed (mget a)) (fun i => times n (mget a) (vget (snd out)) i - vget b i) k + fst out * (vget diag k * vget diag k) * vget (snd out) k = 0).
  Proof.
    assert (SUB : forall u k, times m (transposed (mget a)) (fun i => times n (mget a) u i - vget b i) k = times m (transposed (mget a)) (times n (mget a) u) k - times m (transposed (mget a)) (vget b) k).
    { intros u k. unfold times at 1 3 5. rewrite <- bsum_minus. apply bsum_ext. intros; ring. }
    destruct (lmpar_settled n (into_damped m n qr0 b) diag delta start Hdelta Hstart) as [(A & B & C)|[A B]].
    - rewrite A. split; [lra|]. split; [apply lmpar_length|]. split; [intros _; exact C|]. intros H k Hk. destruct H as [H|H]; [lra|].
      rewrite B, SUB. unfold solve_with_zero_diagonal.
      destruct (C83_solution m n a qr0 b (repeat 0 n) Hl Ha Hb Hq Hr (C83_regular m n a (repeat 0 n) (or_intror H))) as (_ & E & _). cbn [zero Rnum].
      specialize (E k Hk). rewrite normal_expand in E by exact Hk. assert (Z : vget (repeat 0 n) k = 0) by (unfold vget; apply nth_repeat). rewrite Z in E. lra.
    - split; [lra|]. split; [apply lmpar_length|]. split; [intros Z; lra|]. intros _ k Hk. rewrite SUB.
      set (l := fst out) in *. set (dg := from_fn n (fun j => R_sqrt.sqrt l * vget diag j)) in *.
      assert (DG : forall i, (i < n)%nat -> vget dg i = R_sqrt.sqrt l * vget diag i) by (intros i Hi; unfold dg; rewrite vget_from_fn by exact Hi; reflexivity).
      assert (NZ : forall i, (i < n)%nat -> vget dg i <> 0). { intros i Hi. rewrite DG by exact Hi. pose proof (sqrt_lt_R0 l A). pose proof (Hd i Hi). apply Rgt_not_eq, Rmult_lt_0_compat; assumption. }
      destruct (C83_solution m n a qr0 b dg Hl Ha Hb Hq Hr (C83_regular m n a dg (or_introl NZ))) as (_ & E & _). rewrite <- B in E.
      specialize (E k Hk). rewrite normal_expand in E by exact Hk. rewrite DG in E by exact Hk.
      replace (R_sqrt.sqrt l * vget diag k * (R_sqrt.sqrt l * vget diag k)) with (R_sqrt.sqrt l * R_sqrt.sqrt l * (vget diag k * vget diag k)) in E by ring.
      rewrite sqrt_sqrt in E by lra. lra.
  Qed.

  Lemma adjoint (u : vector) (w : vector) : bsum n (fun k => u k * times m (transposed (mget a)) w k) = bsum m (fun i => times n (mget a) u i * w i).
  Proof.
    unfold times, transposed. rewrite (bsum_ext n _ (fun k => bsum m (fun i => u k * (mget a i k * w i)))) by (intros; rewrite bsum_scal; reflexivity).
    rewrite bsum_swap. apply bsum_ext. intros i Hi. rewrite (Rmult_comm (bsum n _)), <- bsum_scal. apply bsum_ext. intros; ring.
  Qed.
  Lemma step_dot (p : vector) (l : R) (u : vector) : (forall k, (k < n)%nat -> times m (transposed (mget a)) (fun i => times n (mget a) p i - vget b i) k + l * (vget diag k * vget diag k) * p k = 0) ->
    bsum m (fun i => times n (mget a) u i * (times n (mget a) p i - vget b i)) + l * bsum n (fun k => vget diag k * u k * (vget diag k * p k)) = 0.
  Proof.
    intros H. rewrite <- adjoint, <- bsum_scal, <- bsum_plus. rewrite (bsum_ext n _ (fun _ => 0)); [apply bsum_0|]. intros k Hk. specialize (H k Hk).
    replace (u k * times m (transposed (mget a)) (fun i => times n (mget a) p i - vget b i) k + l * (vget diag k * u k * (vget diag k * p k)))
      with (u k * (times m (transposed (mget a)) (fun i => times n (mget a) p i - vget b i) k + l * (vget diag k * vget diag k) * p k)) by ring. rewrite H. ring.
  Qed.
  (** no step within the same distance leaves less of the linear model *)
Theorem C142_best q : 0 < fst out \/ independent -> scaled_length q <= scaled_length (vget (snd out)) -> remainder (vget (snd out)) <= remainder q.
  Proof.
    intros H LE. destruct C142_step as (L0 & _ & _ & NE). specialize (NE H). set (p := vget (snd out)) in *. set (l := fst out) in *.
    pose proof (step_dot p l (fun k => q k - p k) NE) as D.
    assert (T : forall i, times n (mget a) (fun k => q k - p k) i = times n (mget a) q i - times n (mget a) p i).
    { intros i. unfold times. rewrite <- bsum_minus. apply bsum_ext. intros; ring. }
    assert (E1 : remainder q = remainder p + (2 * bsum m (fun i => times n (mget a) (fun k => q k - p k) i * (times n (mget a) p i - vget b i)) + square_norm m (fun i => times n (mget a) (fun k => q k - p k) i))).
    { unfold remainder, square_norm, dot_product. rewrite <- bsum_scal, <- !bsum_plus. apply bsum_ext. intros i Hi. rewrite T. ring. }
    assert (E2 : scaled_length q = scaled_length p + (2 * bsum n (fun k => vget diag k * (q k - p k) * (vget diag k * p k)) + square_norm n (fun k => vget diag k * (q k - p k)))).
    { unfold scaled_length, square_norm, dot_product. rewrite <- bsum_scal, <- !bsum_plus. apply bsum_ext. intros; ring. }
    pose proof (square_norm_nonneg m (fun i => times n (mget a) (fun k => q k - p k) i)). pose proof (square_norm_nonneg n (fun k => vget diag k * (q k - p k))). nra.
  Qed.
  (** what the step takes off the linear model *)
Theorem C142_reduction : 0 < fst out \/ independent ->
    remainder (fun _ => 0) - remainder (vget (snd out)) = square_norm m (times n (mget a) (vget (snd out))) + 2 * fst out * scaled_length (vget (snd out)).
  Proof.
    intros H. destruct C142_step as (L0 & _ & _ & NE). specialize (NE H). set (p := vget (snd out)) in *. set (l := fst out) in *.
    pose proof (step_dot p l p NE) as D.
    assert (Z : forall i, times n (mget a) (fun _ => 0) i = 0) by (intros i; unfold times; rewrite (bsum_ext n _ (fun _ => 0)) by (intros; ring); apply bsum_0).
    assert (E : remainder (fun _ => 0) = remainder p + (-2 * bsum m (fun i => times n (mget a) p i * (times n (mget a) p i - vget b i)) + square_norm m (times n (mget a) p))).
    { unfold remainder, square_norm, dot_product. rewrite <- bsum_scal, <- !bsum_plus. apply bsum_ext. intros i Hi. rewrite Z. ring. }
    rewrite E. unfold scaled_length, square_norm, dot_product in *. lra.
  Qed.
  (** the reduction a trial is measured against is that one, relative to the residuals *)
Theorem C142_promised : 0 < fst out \/ independent -> remainder (fun _ => 0) <> 0 -> moderate max_value b ->
    square_norm m (times n (mget a) (vget (snd out))) < max_value / (INR n * INR n) -> moderate max_value (scaled n diag (snd out)) ->
    promised n (into_damped m n qr0 b) diag (snd out) (fst out) (enorm b) = (remainder (fun _ => 0) - remainder (vget (snd out))) / remainder (fun _ => 0).
  Proof.
    intros H NZ MB SA MS. rewrite (C142_reduction H). destruct C142_step as (L0 & _ & _ & _).
    assert (Z : remainder (fun _ => 0) = square_norm m (vget b)).
    { unfold remainder, square_norm, dot_product. apply bsum_ext. intros i Hi. assert (Z : times n (mget a) (fun _ => 0) i = 0) by (unfold times; rewrite (bsum_ext n _ (fun _ => 0)) by (intros; ring); apply bsum_0). rewrite Z. ring. }
    rewrite Z in *. pose proof (square_norm_nonneg m (vget b)) as NB.
    unfold promised. rewrite (C83_length m n a qr0 b Hl Ha Hb Hq Hr (snd out) SA). rewrite !enorm_moderate by assumption. rewrite Hr.
    assert (SL : square_norm (length (scaled n diag (snd out))) (vget (scaled n diag (snd out))) = scaled_length (vget (snd out))).
    { unfold scaled. rewrite from_fn_length. unfold scaled_length, square_norm, dot_product. apply bsum_ext. intros i Hi. rewrite vget_from_fn by exact Hi. reflexivity. }
    rewrite SL. pose proof (square_norm_nonneg n (fun i => vget diag i * vget (snd out) i)) as NS. fold (scaled_length (vget (snd out))) in NS.
    pose proof (square_norm_nonneg m (times n (mget a) (vget (snd out)))) as NA. cbn [div mul add half sqrt Rnum].
    set (B2 := square_norm m (vget b)) in *. set (A2 := square_norm m (times n (mget a) (vget (snd out)))) in *. set (S2 := scaled_length (vget (snd out))) in *. set (l := fst out) in *.
    assert (SB : R_sqrt.sqrt B2 * R_sqrt.sqrt B2 = B2) by (apply sqrt_sqrt; exact NB). assert (SAa : R_sqrt.sqrt A2 * R_sqrt.sqrt A2 = A2) by (apply sqrt_sqrt; exact NA).
    assert (SS : R_sqrt.sqrt S2 * R_sqrt.sqrt S2 = S2) by (apply sqrt_sqrt; exact NS). assert (SLl : R_sqrt.sqrt l * R_sqrt.sqrt l = l) by (apply sqrt_sqrt; exact L0).
    assert (NQ : R_sqrt.sqrt B2 <> 0) by (intros Q; apply NZ; rewrite <- SB, Q; ring).
    transitivity ((R_sqrt.sqrt A2 * R_sqrt.sqrt A2 + 2 * (R_sqrt.sqrt l * R_sqrt.sqrt l) * (R_sqrt.sqrt S2 * R_sqrt.sqrt S2)) / (R_sqrt.sqrt B2 * R_sqrt.sqrt B2)); [field; exact NQ|rewrite SB, SAa, SS, SLl; reflexivity].
  Qed.
End Step.

(** ** The radius, the damping and the scaling of a run *)
(** what [C142_step] asks of the radius, the damping and the scaling *)
Definition sound_state (n : nat) (st : lm_state R) : Prop :=
  length (lm_x st) = n /\ length (lm_diag st) = n /\ (forall i, (i < n)%nat -> 0 < vget (lm_diag st) i) /\ 0 < lm_delta st /\ 0 <= lm_par st /\ 0 <= lm_xnorm st.
Lemma adjusted_sound (fn fn1 act dir rt delta pn par : R) : 0 <= delta -> 0 <= pn -> 0 <= par -> dir <= 0 ->
  let out := adjusted fn fn1 act dir rt delta pn par in 0 <= fst out /\ 0 <= snd out.
Proof.
  intros D P Q DR. cbv zeta. unfold adjusted. rnum. destruct (Rleb rt (1 / 4)).
  - match goal with |- context [if (_ || Rltb ?t _)%bool then _ else _] => set (t0 := t) end.
    set (t1 := if (_ || _)%bool then 1 / 10 else t0). cbn [fst snd].
    assert (T : 1 / 10 <= t1). { unfold t1. destruct (Rltb t0 (1 / 10)) eqn:E; [rewrite orb_true_r; lra|]. rcases. destruct (_ || _)%bool; lra. }
    split.
    + apply Rmult_le_pos; [lra|]. destruct (pmin_cases delta (pn / (1 / 10))) as [-> | ->]; [exact D|apply div_nonneg; lra].
    + apply div_nonneg; lra.
  - destruct (_ || _)%bool; cbn [fst snd]; [split; [apply div_nonneg; lra|lra]|split; assumption].
Qed.
(** A trial keeps them: a radius that falls to zero ends the run. *)
Theorem C142_kept (s : LevenbergMarquardt R) f d n : 0 <= lm_xtol s -> forall remaining st, sound_state n st ->
  match lm_trials s f d remaining st with inl st' => sound_state n st' | inr _ => True end.
Proof.
  intros X. induction remaining as [|remaining IH]; intros st OK; cbn [lm_trials]; [exact OK|]. pose proof OK as (L & LD & DP & DE & PA & XN).
  rewrite L. pose proof (lmpar_length n d (lm_diag st) (lm_delta st) (lm_par st)) as LS. pose proof (lmpar_settled n d (lm_diag st) (lm_delta st) (lm_par st) DE PA) as SE.
  destruct (lmpar n d (lm_diag st) (lm_delta st) (lm_par st)) as [par step] eqn:LP. cbn [snd] in LS.
  assert (P0 : 0 <= par) by (cbn [fst] in SE; destruct SE as [(A & _)|[A _]]; cbn [fst] in A; lra). clear SE.
  destruct (vec_is_finite _); cbn [negb]; [|exact I].
  set (pnorm := enorm (scaled n (lm_diag st) step)). assert (PN : 0 <= pnorm) by apply enorm_nonneg.
  set (delta0 := if lm_first st then _ else _). assert (D0 : 0 <= delta0) by (unfold delta0; destruct (lm_first st); [destruct (pmin_cases (lm_delta st) pnorm) as [-> | ->]; lra|lra]).
  set (dir := neg _). assert (DR : dir <= 0).
  { unfold dir. rnum. match goal with |- - (?u * ?u + ?v * ?v) <= 0 => pose proof (Rle_0_sqr u); pose proof (Rle_0_sqr v) end. unfold Rsqr in *. lra. }
  match goal with |- context [adjusted ?fn ?fn1 ?act dir ?rt delta0 pnorm par] => pose proof (adjusted_sound fn fn1 act dir rt delta0 pnorm par D0 PN P0 DR) as [A1 A2]; set (rt0 := rt) in *; destruct (adjusted fn fn1 act dir rt0 delta0 pnorm par) as [delta2 par2] end.
  cbn [fst snd] in A1, A2. destruct (_ && _ && _)%bool; [exact I|].
  set (tk := (of_ratio 1 10000 <=? rt0)%num). set (x2 := if tk then _ else lm_x st). set (xn2 := if tk then _ else lm_xnorm st).
  assert (XN2 : 0 <= xn2) by (unfold xn2; destruct tk; [apply enorm_nonneg|exact XN]).
  assert (LX2 : length x2 = n) by (unfold x2; destruct tk; [rewrite map2_length; lia|exact L]).
  destruct (delta2 <=? lm_xtol s * xn2)%num eqn:XT; [exact I|]. cbn [leb mul Rnum] in XT. apply Rleb_false in XT.
  assert (D2 : 0 < delta2) by (assert (0 <= lm_xtol s * xn2) by (apply Rmult_le_pos; assumption); lra).
  match goal with |- context [if tk then inl ?st2 else _] => assert (OK2 : sound_state n st2) by (repeat split; auto) end.
  destruct tk; [exact OK2|]. apply IH. exact OK2.
Qed.
(** The first pass sets them up, and the scaling only grows. *)
Theorem C142_begun (s : LevenbergMarquardt R) m n a qr0 b st : qr_decompose m n a = Ok qr0 -> length (lm_x st) = n -> 0 < lm_stepbound s -> 0 <= lm_par st ->
  (lm_first st = false -> sound_state n st) ->
  let d := into_damped m n qr0 b in sound_state n (lm_grow s d (lm_begin s d st)) /\
    (lm_first st = false -> forall i, (i < n)%nat -> vget (lm_diag st) i <= vget (lm_diag (lm_grow s d (lm_begin s d st))) i).
Proof.
  intros Q L SB P0 SN d. assert (CN : length (d_column_norms d) = n /\ forall i, (i < n)%nat -> 0 <= vget (d_column_norms d) i).
  { unfold d. cbn [into_damped d_column_norms]. unfold qr_decompose in Q. destruct (Nat.ltb m n); [discriminate|]. injection Q as <-. cbn [column_norms]. split; [apply from_fn_length|].
    intros i Hi. rewrite vget_from_fn by exact Hi. apply enorm_nonneg. }
  destruct CN as [CL CP].
  assert (B : sound_state n (lm_begin s d st)).
  { unfold lm_begin. destruct (lm_first st); [|apply SN; reflexivity]. unfold sound_state. cbn [lm_x lm_diag lm_delta lm_par lm_xnorm].
    set (dg := map _ _). repeat split; auto.
    - unfold dg. rewrite map_length. exact CL.
    - intros i Hi. unfold dg, vget. rewrite (nth_indep _ _ ((fun c : R => if (c =? zero)%num then one else c) zero)) by (rewrite map_length; lia). rewrite (map_nth (fun c : R => if (c =? zero)%num then one else c)).
      change (nth i (d_column_norms d) zero) with (vget (d_column_norms d) i). specialize (CP i Hi). rnum. destruct (Reqb _ 0) eqn:Z; rcases; lra.
    - pose proof (enorm_nonneg (scaled (length (lm_x st)) dg (lm_x st))). rnum. destruct (Reqb _ 0) eqn:Z; rcases; [exact SB|]. assert (0 <= lm_stepbound s * enorm (scaled (length (lm_x st)) dg (lm_x st))) by (apply Rmult_le_pos; lra). lra.
    - apply enorm_nonneg. }
  assert (G : forall st1, sound_state n st1 -> sound_state n (lm_grow s d st1) /\ forall i, (i < n)%nat -> vget (lm_diag st1) i <= vget (lm_diag (lm_grow s d st1)) i).
  { intros st1 (L1 & LD & DP & R0). unfold lm_grow. destruct (lm_scale_diag s); [|split; [repeat split; try apply R0; auto|intros; lra]].
    assert (E : forall i, (i < n)%nat -> vget (map2 pmax (lm_diag st1) (d_column_norms d)) i = pmax (vget (lm_diag st1) i) (vget (d_column_norms d) i)).
    { intros i Hi. unfold vget. rewrite (nth_map2 _ zero zero) by lia. reflexivity. }
    split.
    - unfold sound_state. cbn [lm_x lm_diag lm_delta lm_par lm_xnorm]. split; [exact L1|]. split; [rewrite map2_length; lia|]. split; [|exact R0].
      intros i Hi. rewrite E by exact Hi. eapply Rlt_le_trans; [apply DP, Hi|apply pmax_le].
    - intros i Hi. cbn [lm_diag]. rewrite E by exact Hi. apply pmax_le. }
  destruct (G _ B) as [G1 G2]. split; [exact G1|]. intros F i Hi. specialize (G2 i Hi). unfold lm_begin in G2 at 1. rewrite F in G2. exact G2.
Qed.

(** ** Concrete cases *)
(** the valley that misleads backtracking is descended or left alone *)
Definition valley_lm : LevenbergMarquardt R :=
  {| lm_derivator := autodiff_multi; lm_ftol := / 1000000; lm_xtol := epsilon_x30; lm_gtol := epsilon_x30; lm_stepbound := 100; lm_patience := 100; lm_scale_diag := true |}.
Example C142_example :
  (forall r, lm_minimize valley_lm valley 1 [0 : R] = Ok r -> enorm (valley R Rnum (solution r)) <= 1) /\
  (exists qr0, qr_decompose 3 2 sample = Ok qr0 /\ shape 3 2 sample /\ columns_below max_value 3 2 (mget sample) /\
    forall delta start, 0 < delta -> 0 <= start -> let out := lmpar 2 (into_damped 3 2 qr0 [1; 2; 4]) [1; 2] delta start in
      forall q, scaled_length 2 [1; 2] q <= scaled_length 2 [1; 2] (vget (snd out)) -> remainder 3 2 sample [1; 2; 4] (vget (snd out)) <= remainder 3 2 sample [1; 2; 4] q) /\
  sound_state 1 (lm_begin valley_lm (into_damped 1 1 {| packed := [[1]]; r_diag := [1]; permutation := [0%nat]; column_norms := [1] |} [1])
    {| lm_x := [0]; lm_residuals := [1]; lm_fnorm := 1; lm_diag := [0]; lm_delta := 0; lm_xnorm := 0; lm_par := 0; lm_evaluations := 1; lm_first := true |}).
Proof.
  split; [|split].
  - intros r E. rewrite <- (Rabs_R1). rewrite <- (one_norm 1) by (rewrite Rabs_R1; lra).
    replace [1] with (valley R Rnum [0]) by (rewrite valley_value; f_equal; lra). apply (C142_never_worse valley_lm valley 1 [0] r); [intros p; apply C141_autodiff_total|exact E].
  - destruct sample_ok as [S B]. destruct (C81_factor 3 2 sample ltac:(lia) S B) as (qr0 & E & _). exists qr0. split; [exact E|]. split; [exact S|]. split; [exact B|]. intros delta start D P out q.
    apply (C142_best 3 2 sample qr0 [1; 2; 4] [1; 2] delta start); auto; [intros [|[|i]] Hi; try lia; cbn; lra|].
    right. intros y Hy. pose proof (Hy 0%nat ltac:(lia)) as H0. pose proof (Hy 1%nat ltac:(lia)) as H1. unfold times, sample in H0, H1. cbn in H0, H1. intros [|[|i]] Hi; try lia; lra.
  - unfold lm_begin. cbn [lm_first]. assert (Z : enorm (scaled 1 (map (fun c : R => if (c =? zero)%num then one else c) [1]) [0]) = 0).
    { unfold scaled, from_fn, vget. cbn [map seq]. match goal with |- enorm [?v] = 0 => replace v with 0 by (cbn; ring) end. rewrite one_norm; rewrite Rabs_R0; lra. }
    unfold sound_state. cbn [lm_x lm_diag lm_delta lm_par lm_xnorm into_damped d_column_norms column_norms length]. change (length [0]) with 1%nat. rewrite Z. repeat split.
    + intros [|i] Hi; [|lia]. cbn. destruct (Reqb 1 0) eqn:Q; rcases; lra.
    + cbn. replace (100 * 0) with 0 by ring. destruct (Reqb 0 0) eqn:Q; rcases; lra.
    + cbn. lra.
    + lra.
Qed.

Print Assumptions C142_report.
Print Assumptions C142_refused.
Print Assumptions C142_never_worse.
Print Assumptions C142_cost.
Print Assumptions C142_gradient.
Print Assumptions C142_step.
Print Assumptions C142_best.
Print Assumptions C142_reduction.
Print Assumptions C142_promised.
Print Assumptions C142_kept.
Print Assumptions C142_begun.
Print Assumptions C142_example.
