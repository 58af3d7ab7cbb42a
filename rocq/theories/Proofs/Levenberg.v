(** Lemmas about the Levenberg-Marquardt solver of Model/Optimization.v. *)
From Coq Require Import ZArith Reals List Bool Arith Lia Lra.
From Verif Require Import Base.Scalar Base.Lists Base.RNum Base.Series Model.Errors Model.Vector Model.Matrix Model.Lu Model.Cholesky Model.Qr Model.Derivative Model.Optimization
  Proofs.Matrix Proofs.Qr Proofs.Optimization Spec.Matrix Spec.Optimization.
Import ListNotations.

(** ** Any scalar *)
Section Any.
  Context {T : Type} {NT : Num T}.
  Local Open Scope num_scope.

  (** the reduction the linear model promises, relative to the cost, and whether a trial is taken *)
  Definition promised (n : nat) (d : damped (T := T)) (diag step : list T) (par fnorm : T) : T :=
    let along := a_x_norm n d step / fnorm in
    let damping := (sqrt par * enorm (scaled n diag step)) / fnorm in
    along * along + (damping * damping) / half.
  Definition gain (actual predicted : T) : T := if negb (predicted =? zero) then actual / predicted else zero.
  Definition taken (actual predicted : T) : bool := gain actual predicted >=? of_ratio 1 10000.

  (** one trial from [y] with damped system [d] ends at [x] *)
  Definition lm_moves (f : VectorFn) (d : damped (T := T)) (y x : list T) (actual predicted : T) : Prop :=
    exists diag delta start, let '(par, step) := lmpar (length y) d diag delta start in
      vec_is_finite (f T NT y) = true /\ vec_is_finite (f T NT (map2 sub y step)) = true /\
      actual = actual_reduction (enorm (f T NT y)) (enorm (f T NT (map2 sub y step))) /\
      predicted = promised (length y) d diag step par (enorm (f T NT y)) /\
      x = (if taken actual predicted then map2 sub y step else y).

  (** a report tells the truth about the point it names *)
  Definition lm_truthful (s : LevenbergMarquardt T) (f : VectorFn) (m : nat) (r : MinimizationReport T) : Prop :=
    let x := solution r in let res := f T NT x in
    vec_is_finite res = true /\ objective_function r = half * enorm res * enorm res /\
    match termination r with
    | Gtol => exists j qr, jacobian (lm_derivator s) f m x = Ok j /\ mat_is_finite j = true /\ qr_decompose m (length x) j = Ok qr /\
        (max_a_t_b_scaled (length x) (into_damped m (length x) qr res) (enorm res) <=? lm_gtol s) = true
    | Ftol => exists y j qr actual predicted, jacobian (lm_derivator s) f m y = Ok j /\ mat_is_finite j = true /\ qr_decompose m (length y) j = Ok qr /\
        lm_moves f (into_damped m (length y) qr (f T NT y)) y x actual predicted /\
        (abs actual <=? lm_ftol s) = true /\ (predicted <=? lm_ftol s) = true /\ (half * gain actual predicted <=? one) = true
    | Xtol => exists delta diag, (delta <=? lm_xtol s * enorm (scaled (length x) diag x)) = true
    end.

  Definition st_ok (f : VectorFn) (n : nat) (st : lm_state T) : Prop :=
    length (lm_x st) = n /\ lm_residuals st = f T NT (lm_x st) /\ vec_is_finite (f T NT (lm_x st)) = true /\ lm_fnorm st = enorm (f T NT (lm_x st)).
  Definition st_norm (st : lm_state T) : Prop := exists diag, lm_xnorm st = enorm (scaled (length (lm_x st)) diag (lm_x st)).

  Lemma unpermute_length n perm (y : list T) : length (unpermute n perm y) = n.
  Proof.
    unfold unpermute. assert (G : forall l (a : list T), length a = n -> length (fold_left (fun x j => set_nth x (nth j perm O) (vget y j)) l a) = n).
    { induction l as [|j l IH]; intros a L; [exact L|]. cbn [fold_left]. apply IH. rewrite set_nth_length. exact L. }
    apply G. apply repeat_length.
  Qed.
  Lemma solve_length n d (diag : list T) : length (fst (solve_with_diagonal n d diag)) = n.
  Proof. unfold solve_with_diagonal. cbv zeta. destruct (zero_tail _ _ _). cbn [fst]. apply unpermute_length. Qed.
  Lemma lmpar_loop_length n d (diag : list T) delta remaining : forall parl paru par err, length (snd (lmpar_loop n d diag delta remaining parl paru par err)) = n.
  Proof.
    induction remaining as [|remaining IH]; intros parl paru par err; cbn [lmpar_loop];
    match goal with |- context [solve_with_diagonal n d ?g] => pose proof (solve_length n d g) as L; destruct (solve_with_diagonal n d g) as [step fac] end; cbn [fst] in L.
    - destruct (_ || _ || _); [exact L|]. destruct (_ =? _); exact L.
    - destruct (_ || _ || _); [exact L|]. destruct (_ =? _); [exact L|]. apply IH.
  Qed.
  Lemma lmpar_length n d (diag : list T) delta start : length (snd (lmpar n d diag delta start)) = n.
  Proof. unfold lmpar. destruct (_ <=? _); [apply solve_length|apply lmpar_loop_length]. Qed.

  (** the trials keep the state truthful, and end in a truthful report or for lack of finite residuals *)
  Variables (s : LevenbergMarquardt T) (f : VectorFn) (m : nat).
  Lemma trials_spec y j qr : jacobian (lm_derivator s) f m y = Ok j -> mat_is_finite j = true -> qr_decompose m (length y) j = Ok qr ->
    forall remaining st, lm_x st = y -> st_ok f (length y) st -> st_norm st ->
    match lm_trials s f (into_damped m (length y) qr (f T NT y)) remaining st with
    | inl st' => st_ok f (length y) st' /\ st_norm st' /\ (lm_evaluations st + Nat.min 1 remaining <= lm_evaluations st' <= lm_evaluations st + remaining)%nat
    | inr (Ok r) => lm_truthful s f m r /\ length (solution r) = length y /\ (lm_evaluations st < evaluations r <= lm_evaluations st + remaining)%nat
    | inr (Err e) => e = SoNonFinite
    | inr Panic => False
    end.
  Proof.
    intros J FJ Q. set (d := into_damped m (length y) qr (f T NT y)).
    induction remaining as [|remaining IH]; intros st Y (L & RS & FI & FN) SN; cbn [lm_trials].
    { repeat split; auto; lia. }
    rewrite L. pose proof (lmpar_length (length y) d (lm_diag st) (lm_delta st) (lm_par st)) as LS.
    destruct (lmpar (length y) d (lm_diag st) (lm_delta st) (lm_par st)) as [par step] eqn:LP. cbn [snd] in LS.
    destruct (vec_is_finite (f T NT (map2 sub (lm_x st) step))) eqn:FX; cbn [negb]; [|reflexivity].
    set (pnorm := enorm (scaled (length y) (lm_diag st) step)). set (delta0 := if lm_first st then _ else _).
    set (x1 := map2 sub (lm_x st) step) in *. set (fn1 := enorm (f T NT x1)). set (act := actual_reduction (lm_fnorm st) fn1).
    set (t1 := a_x_norm (length y) d step / lm_fnorm st). set (t2 := (sqrt par * pnorm) / lm_fnorm st).
    set (pre := t1 * t1 + (t2 * t2) / half).
    assert (PE : pre = promised (length y) d (lm_diag st) step par (lm_fnorm st)) by reflexivity.
    fold (gain act pre). destruct (adjusted _ _ _ _ _ _ _ _) as [delta2 par2]. fold (taken act pre).
    assert (L1 : length x1 = length y) by (unfold x1; rewrite map2_length; lia).
    assert (MV : lm_moves f d y (if taken act pre then x1 else lm_x st) act pre).
    { assert (E1 : map2 sub y step = x1) by (unfold x1; rewrite Y; reflexivity). assert (E2 : lm_fnorm st = enorm (f T NT y)) by (rewrite FN, Y; reflexivity).
      exists (lm_diag st), (lm_delta st), (lm_par st). rewrite LP, E1, <- E2, <- PE. rewrite Y in FI |- *. repeat (split; [first [assumption|reflexivity]|]). reflexivity. }
    set (x2 := if taken act pre then x1 else lm_x st) in *.
    assert (X2 : length x2 = length y /\ vec_is_finite (f T NT x2) = true /\ (if taken act pre then fn1 else lm_fnorm st) = enorm (f T NT x2) /\
                 (if taken act pre then f T NT x1 else lm_residuals st) = f T NT x2 /\
                 exists diag, (if taken act pre then enorm (scaled (length y) (lm_diag st) x1) else lm_xnorm st) = enorm (scaled (length x2) diag x2)).
    { unfold x2. destruct (taken act pre); repeat split; auto. exists (lm_diag st). rewrite L1. reflexivity. }
    destruct X2 as (X2a & X2b & X2c & X2d & X2e). rewrite X2c.
    destruct ((abs act <=? lm_ftol s) && (pre <=? lm_ftol s) && (half * gain act pre <=? one)) eqn:FT.
    { apply andb_true_iff in FT as [FT F3]. apply andb_true_iff in FT as [F1 F2].
      unfold lm_truthful, report. cbn [solution termination objective_function evaluations]. repeat split; auto; try lia. exists y, j, qr, act, pre. repeat split; auto. }
    destruct (delta2 <=? lm_xtol s * _) eqn:XT.
    { unfold lm_truthful, report. cbn [solution termination objective_function evaluations]. repeat split; auto; try lia. destruct X2e as [dg DG]. exists delta2, dg. rewrite <- DG. exact XT. }
    destruct (taken act pre) eqn:TK.
    { cbn [lm_evaluations]. repeat split; auto; try lia. }
    match goal with |- context [lm_trials s f d remaining ?st2] => specialize (IH st2 Y) end.
    specialize (IH ltac:(repeat split; auto)). specialize (IH X2e). cbn [lm_evaluations] in IH.
    destruct (lm_trials s f d remaining _) as [st'|[r|e|]]; auto.
    - destruct IH as (I1 & I2 & I3). split; [exact I1|]. split; [exact I2|lia].
    - destruct IH as (I1 & I2 & I3). split; [exact I1|]. split; [exact I2|lia].
  Qed.

  Lemma lm_loop_spec n : (forall p, jacobian (lm_derivator s) f m p <> Panic) -> forall remaining st, st_ok f n st -> (lm_first st = false -> st_norm st) ->
    match lm_loop s f m remaining st with
    | Ok r => lm_truthful s f m r /\ length (solution r) = n /\ (lm_evaluations st <= evaluations r <= lm_evaluations st + 100 * remaining)%nat
    | Err (SoDidNotConverge k) => (lm_evaluations st + remaining <= k <= lm_evaluations st + 100 * remaining)%nat
    | Err _ => True
    | Panic => False
    end.
  Proof.
    intros NP. induction remaining as [|remaining IH]; intros st OK SN; cbn [lm_loop]; [lia|]. pose proof OK as (L & RS & FI & FN).
    destruct (jacobian (lm_derivator s) f m (lm_x st)) as [j|e|] eqn:J; [|exact I|destruct (NP _ J)].
    destruct (mat_is_finite j) eqn:FJ; cbn [negb]; [|exact I].
    destruct (qr_decompose m (length (lm_x st)) j) as [qr|e|] eqn:Q; [|exact I|unfold qr_decompose in Q; destruct (Nat.ltb m _); discriminate].
    rewrite RS. set (d := into_damped m (length (lm_x st)) qr (f T NT (lm_x st))).
    assert (B : lm_x (lm_begin s d st) = lm_x st /\ lm_residuals (lm_begin s d st) = lm_residuals st /\ lm_fnorm (lm_begin s d st) = lm_fnorm st /\ lm_evaluations (lm_begin s d st) = lm_evaluations st /\ st_norm (lm_begin s d st)).
    { unfold lm_begin. destruct (lm_first st); repeat split; auto. eexists. reflexivity. }
    destruct B as (B1 & B2 & B3 & B4 & B5). rewrite B1, B3, B4.
    destruct (_ <=? lm_gtol s) eqn:G.
    { unfold lm_truthful, report. cbn [solution termination objective_function evaluations]. rewrite FN. repeat split; auto; try lia. exists j, qr. rewrite FN in G. auto. }
    set (st1 := lm_grow s d (lm_begin s d st)).
    assert (C : lm_x st1 = lm_x st /\ lm_residuals st1 = lm_residuals st /\ lm_fnorm st1 = lm_fnorm st /\ lm_evaluations st1 = lm_evaluations st /\ st_norm st1).
    { unfold st1, lm_grow. destruct (lm_scale_diag s); repeat split; auto. }
    destruct C as (C1 & C2 & C3 & C4 & C5).
    pose proof (trials_spec (lm_x st) j qr J FJ Q MAX_TRUST_REGION_TRIALS st1 C1) as TR. fold d in TR. unfold MAX_TRUST_REGION_TRIALS in *.
    specialize (TR ltac:(unfold st_ok; rewrite C1, C2, C3; auto) C5). rewrite C4 in TR.
    destruct (lm_trials s f d 100 st1) as [st'|[r|e|]]; [|destruct TR as (T1 & T2 & T3); repeat split; try apply T1; try lia|subst e; exact I|exact TR].
    destruct TR as (T1 & T2 & T3). rewrite L in T1. specialize (IH st' T1 (fun _ => T2)).
    change (Nat.min 1 100) with 1%nat in T3.
    destruct (lm_loop s f m remaining st') as [r|[k| | | |]|]; auto; [destruct IH as (I1 & I2 & I3); split; [exact I1|]; split; [exact I2|lia]|lia].
  Qed.
End Any.

(** ** Exact arithmetic *)
Local Open Scope R_scope.
Lemma taken_lowers (fn fn1 pre : R) : 0 <= fn -> 0 <= fn1 -> 0 <= pre -> taken (actual_reduction fn fn1) pre = true -> fn1 < fn.
Proof.
  intros F F1 P H. unfold taken, gain in H. rnum. destruct (Reqb pre 0) eqn:Z; cbn [negb] in H.
  { apply Rleb_true in H. lra. }
  apply Reqb_false in Z. apply Rleb_true in H. assert (A : 0 < actual_reduction fn fn1).
  { destruct (Rlt_dec 0 (actual_reduction fn fn1)) as [|N]; [assumption|exfalso]. assert (0 < / pre) by (apply Rinv_0_lt_compat; lra). unfold Rdiv in H. nra. }
  unfold actual_reduction in A. rnum. destruct (Rltb (1 / 10 * fn1) fn) eqn:E; [|lra]. apply Rltb_true in E.
  assert (0 < fn) by lra. destruct (Rlt_dec fn1 fn) as [|N]; [assumption|exfalso].
  assert (1 <= fn1 / fn). { apply Rmult_le_reg_r with fn; [assumption|]. unfold Rdiv. rewrite Rmult_assoc, Rinv_l by lra. lra. } nra.
Qed.
Lemma promised_nonneg n d (diag step : list R) par fn : 0 <= promised n d diag step par fn.
Proof. unfold promised. rnum. pose proof (Rle_0_sqr (a_x_norm n d step / fn)). pose proof (Rle_0_sqr (R_sqrt.sqrt par * enorm (scaled n diag step) / fn)). unfold Rsqr in *. lra. Qed.

Section Descent.
  Variables (s : LevenbergMarquardt R) (f : VectorFn) (m : nat).
  Definition not_above (fn : R) (answer : Res (MinimizationReport R) SolveError) : Prop :=
    match answer with Ok r => exists fn', 0 <= fn' <= fn /\ objective_function r = / 2 * fn' * fn' | _ => True end.
  Lemma not_above_le a b answer : a <= b -> not_above a answer -> not_above b answer.
  Proof. intros L. destruct answer as [r| |]; auto. intros (fn & B & E). exists fn. split; [lra|exact E]. Qed.
  Lemma trials_descend d : forall remaining st, 0 <= lm_fnorm st ->
    match lm_trials s f d remaining st with
    | inl st' => 0 <= lm_fnorm st' <= lm_fnorm st
    | inr answer => not_above (lm_fnorm st) answer
    end.
  Proof.
    induction remaining as [|remaining IH]; intros st F0; cbn [lm_trials]; [lra|].
    destruct (lmpar (length (lm_x st)) d (lm_diag st) (lm_delta st) (lm_par st)) as [par step].
    destruct (vec_is_finite _); cbn [negb]; [|exact I].
    set (n := length (lm_x st)). set (pnorm := enorm (scaled n (lm_diag st) step)). set (x1 := map2 sub (lm_x st) step). set (fn1 := enorm (f R Rnum x1)). set (act := actual_reduction (lm_fnorm st) fn1).
    set (t1 := (a_x_norm n d step / lm_fnorm st)%num). set (t2 := ((sqrt par * pnorm) / lm_fnorm st)%num).
    set (pre := (t1 * t1 + (t2 * t2) / half)%num).
    assert (PE : pre = promised n d (lm_diag st) step par (lm_fnorm st)) by reflexivity.
    fold (gain act pre). destruct (adjusted _ _ _ _ _ _ _ _) as [delta2 par2]. fold (taken act pre).
    assert (F1 : 0 <= fn1) by apply enorm_nonneg.
    set (fn2 := if taken act pre then fn1 else lm_fnorm st).
    assert (F2 : 0 <= fn2 <= lm_fnorm st).
    { unfold fn2. destruct (taken act pre) eqn:TK; [|lra]. apply taken_lowers in TK; try lra. rewrite PE. apply promised_nonneg. }
    destruct (_ && _ && _)%bool; [exists fn2; split; [exact F2|reflexivity]|].
    destruct (delta2 <=? _)%num; [exists fn2; split; [exact F2|reflexivity]|].
    match goal with |- context [if taken act pre then inl ?st2 else _] => set (st2' := st2) end. assert (E2 : lm_fnorm st2' = fn2) by reflexivity.
    destruct (taken act pre); [rewrite E2; exact F2|].
    specialize (IH st2' ltac:(lra)). rewrite E2 in IH. destruct (lm_trials s f d remaining st2') as [st'|answer]; [lra|]. apply (not_above_le fn2); [lra|exact IH].
  Qed.
  Lemma loop_descend : forall remaining st, 0 <= lm_fnorm st -> not_above (lm_fnorm st) (lm_loop s f m remaining st).
  Proof.
    induction remaining as [|remaining IH]; intros st F0; cbn [lm_loop]; [exact I|].
    destruct (jacobian _ _ _ _) as [j| |]; try exact I. destruct (mat_is_finite j); cbn [negb]; [|exact I].
    destruct (qr_decompose _ _ _) as [qr| |]; try exact I. set (d := into_damped _ _ _ _).
    assert (B : lm_fnorm (lm_begin s d st) = lm_fnorm st) by (unfold lm_begin; destruct (lm_first st); reflexivity).
    destruct (_ <=? _)%num; [exists (lm_fnorm st); split; [lra|cbn [report objective_function]; rewrite B; reflexivity]|].
    assert (C : lm_fnorm (lm_grow s d (lm_begin s d st)) = lm_fnorm st) by (unfold lm_grow; destruct (lm_scale_diag s); exact B).
    pose proof (trials_descend d MAX_TRUST_REGION_TRIALS (lm_grow s d (lm_begin s d st))) as K. rewrite C in K. specialize (K F0).
    destruct (lm_trials _ _ _ _ _) as [st'|answer]; [|exact K]. apply (not_above_le (lm_fnorm st')); [lra|apply IH; lra].
  Qed.
End Descent.

(** the damping [lmpar] settles on is never negative, and its step comes from the damped solve with the square root of it *)
Definition settled (n : nat) (d : damped (T := R)) (diag : list R) (out : R * list R) : Prop :=
  0 < fst out /\ snd out = fst (solve_with_diagonal n d (from_fn n (fun j => R_sqrt.sqrt (fst out) * vget diag j))).
Lemma pmax_le (a b : R) : a <= pmax a b /\ b <= pmax a b.
Proof. unfold pmax. rnum. destruct (Rltb a b) eqn:E; rcases; lra. Qed.
Lemma pmin_cases (a b : R) : pmin a b = a \/ pmin a b = b.
Proof. unfold pmin. rnum. destruct (Rltb b a); auto. Qed.
Lemma min_positive_pos : 0 < (min_positive : R).
Proof. cbn [min_positive Rnum]. apply Rinv_0_lt_compat. apply IZR_lt. reflexivity. Qed.
Ltac pick := match goal with |- settled _ _ _ (if ?c then _ else _) => destruct c end.
Lemma lmpar_loop_settled n d diag delta : forall remaining parl paru par err, 0 <= parl -> 0 <= par -> settled n d diag (lmpar_loop n d diag delta remaining parl paru par err).
Proof.
  induction remaining as [|remaining IH]; intros parl paru par err PL P0; cbn [lmpar_loop].
  - set (par' := if (par =? zero)%num then pmax min_positive (of_ratio 1 1000 * paru)%num else par).
    assert (PP : 0 < par') by (unfold par'; destruct (par =? zero)%num eqn:Z; [eapply Rlt_le_trans; [apply min_positive_pos|apply pmax_le]|cbn [eqb zero Rnum] in Z; apply Reqb_false in Z; lra]).
    match goal with |- context [solve_with_diagonal n d ?g] => assert (ST : settled n d diag (par', fst (solve_with_diagonal n d g))) by (split; [exact PP|reflexivity]); destruct (solve_with_diagonal n d g) as [step fac] end; cbn [fst] in ST.
    pick; [exact ST|]. pick; exact ST.
  - set (par' := if (par =? zero)%num then pmax min_positive (of_ratio 1 1000 * paru)%num else par).
    assert (PP : 0 < par') by (unfold par'; destruct (par =? zero)%num eqn:Z; [eapply Rlt_le_trans; [apply min_positive_pos|apply pmax_le]|cbn [eqb zero Rnum] in Z; apply Reqb_false in Z; lra]).
    match goal with |- context [solve_with_diagonal n d ?g] => assert (ST : settled n d diag (par', fst (solve_with_diagonal n d g))) by (split; [exact PP|reflexivity]); destruct (solve_with_diagonal n d g) as [step fac] end; cbn [fst] in ST.
    pick; [exact ST|]. pick; [exact ST|]. apply IH.
    + destruct (_ >? _)%num; [|exact PL]. pose proof (pmax_le parl par'). lra.
    + match goal with |- 0 <= pmax ?a ?b => assert (0 <= a); [|apply Rle_trans with a; [assumption|exact (proj1 (pmax_le a b))]] end.
      destruct (_ >? _)%num; [|exact PL]. pose proof (pmax_le parl par'). lra.
Qed.
Lemma div_nonneg a b : 0 <= a -> 0 <= b -> 0 <= a / b.
Proof. intros A B. destruct (Req_dec b 0) as [->|]; [unfold Rdiv; rewrite Rinv_0; lra|]. apply Rmult_le_pos; [exact A|]. left. apply Rinv_0_lt_compat. lra. Qed.
Lemma lmpar_settled n d diag delta start : 0 < delta -> 0 <= start ->
  let out := lmpar n d diag delta start in
  (fst out = 0 /\ snd out = fst (solve_with_zero_diagonal n d) /\ enorm (scaled n diag (snd out)) <= 11 / 10 * delta) \/ settled n d diag out.
Proof.
  intros D S0. cbv zeta. unfold lmpar. rnum. destruct (Rleb _ _) eqn:E; rcases.
  { left. cbn [fst snd]. repeat split; lra. }
  right. apply lmpar_loop_settled.
  - destruct (is_non_singular n d); [|lra]. repeat (apply div_nonneg; [|first [apply enorm_nonneg|lra]]). lra.
  - set (parl := if is_non_singular n d then _ else _). set (u := enorm (scaled_gradient n d diag) / delta). set (paru := if Reqb u 0 then _ else u).
    assert (U : 0 <= paru).
    { unfold paru. destruct (Reqb u 0).
      - apply div_nonneg; [left; exact min_positive_pos|]. destruct (pmin_cases delta (1 / 10)) as [-> | ->]; lra.
      - apply div_nonneg; [apply enorm_nonneg|lra]. }
    assert (V : 0 <= pmin (pmax start parl) paru). { pose proof (pmax_le start parl). destruct (pmin_cases (pmax start parl) paru) as [-> | ->]; lra. }
    match goal with |- 0 <= (if ?c then _ else _) => destruct c end; [apply div_nonneg; apply enorm_nonneg|exact V].
Qed.
