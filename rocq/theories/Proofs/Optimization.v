(** Lemmas on the least squares solvers. *)
From Coq Require Import ZArith Reals List Bool Arith Lia Lra Permutation.
From Verif Require Import Base.Scalar Base.Lists Base.RNum Base.Series Base.Det Model.Errors Model.Vector Model.Matrix Model.Lu Model.Cholesky Model.Qr Model.Derivative Model.Optimization
  Proofs.Matrix Proofs.Lu Proofs.Qr Proofs.Damped Props.Qr Props.Damped Spec.Matrix Spec.Optimization.
Import ListNotations.
Local Open Scope R_scope.

(** ** Any scalar *)
Section Any.
  Context {T : Type} {NT : Num T}.
  Local Open Scope num_scope.

  Definition halved (k : nat) (alpha : T) : T := Nat.iter k (fun a => a * half) alpha.
  Lemma halved_in k alpha : halved (S k) alpha = halved k (alpha * half).
  Proof. induction k as [|k IH]; [reflexivity|]. change (halved (S (S k)) alpha) with (halved (S k) alpha * half). rewrite IH. reflexivity. Qed.
  (** the point reached with step length [alpha] *)
  Definition shifted (x step : list T) (alpha : T) : list T := map2 (fun a b => a - alpha * b) x step.

  (** the residuals at the trial lower the norm *)
  Definition lowers (f : VectorFn) (fnorm : T) (p : list T) : bool := vec_is_finite (f T NT p) && (enorm (f T NT p) <? fnorm).
  Lemma line_spec (s : GaussNewton T) f x step fnorm : forall left alpha evals,
    match gn_line s f x step fnorm alpha left evals with
    | Ok (a, xn, rn, fn, e) => exists k, (k <= left)%nat /\ a = halved k alpha /\ e = (evals + S k)%nat /\ (gn_backtracking s = false -> k = 0%nat) /\
        xn = shifted x step a /\ rn = f T NT xn /\ vec_is_finite rn = true /\ fn = enorm rn /\
        (gn_backtracking s = true -> (forall i, (i < k)%nat -> lowers f fnorm (shifted x step (halved i alpha)) = false) /\ (lowers f fnorm xn = true \/ k = left))
    | Err e => e = SoNonFinite
    | Panic => False
    end.
  Proof.
    induction left as [|left IH]; intros alpha evals; cbn [gn_line].
    - fold (shifted x step alpha). set (p := shifted x step alpha). destruct (vec_is_finite (f T NT p)) eqn:F; cbn [andb negb].
      + destruct (gn_backtracking s) eqn:B; cbn [negb].
        * rewrite orb_true_r. exists 0%nat. repeat split; auto; try lia.
        * exists 0%nat. repeat split; auto; try lia; intros; congruence.
      + destruct (gn_backtracking s); cbn [negb]; [rewrite Nat.eqb_refl; reflexivity|reflexivity].
    - fold (shifted x step alpha). set (p := shifted x step alpha). destruct (gn_backtracking s) eqn:B; cbn [negb].
      + cbn [Nat.eqb]. rewrite orb_false_r. destruct (vec_is_finite (f T NT p)) eqn:F; cbn [andb negb].
        * destruct (enorm (f T NT p) <? fnorm) eqn:L.
          -- exists 0%nat. repeat split; auto; try lia. left. unfold lowers. rewrite F, L. reflexivity.
          -- specialize (IH (alpha * half) (S evals)). destruct (gn_line s f x step fnorm (alpha * half) left (S evals)) as [[[[[a xn] rn] fn] e]|e|]; auto.
             destruct IH as (k & A1 & A2 & A3 & A4 & A5 & A6 & A7 & A8 & A9). exists (S k). rewrite halved_in. repeat (split; [first [assumption|lia|congruence]|]).
             intros _. destruct (A9 eq_refl) as [Q1 Q2]. split; [|destruct Q2; [left; assumption|right; lia]].
             intros [|i] Hi; [unfold lowers; cbn [halved Nat.iter nat_rect]; fold p; rewrite F, L; reflexivity|]. rewrite halved_in. apply Q1. lia.
        * specialize (IH (alpha * half) (S evals)). destruct (gn_line s f x step fnorm (alpha * half) left (S evals)) as [[[[[a xn] rn] fn] e]|e|]; auto.
          destruct IH as (k & A1 & A2 & A3 & A4 & A5 & A6 & A7 & A8 & A9). exists (S k). rewrite halved_in. repeat (split; [first [assumption|lia|congruence]|]).
          intros _. destruct (A9 eq_refl) as [Q1 Q2]. split; [|destruct Q2; [left; assumption|right; lia]].
          intros [|i] Hi; [unfold lowers; cbn [halved Nat.iter nat_rect]; fold p; rewrite F; reflexivity|]. rewrite halved_in. apply Q1. lia.
      + destruct (vec_is_finite (f T NT p)) eqn:F; cbn [negb]; [|reflexivity]. exists 0%nat. repeat split; auto; try lia; intros; congruence.
  Qed.

  (** [x] came out of [y] by one Gauss-Newton step *)
  Definition gn_moves (s : GaussNewton T) (f : VectorFn) (m : nat) (y x step : list T) (alpha : T) : Prop :=
    vec_is_finite (f T NT y) = true /\ exists j qr, jacobian (gn_derivator s) f m y = Ok j /\ mat_is_finite j = true /\ qr_decompose m (length y) j = Ok qr /\
      solve_least_squares m (length y) qr (f T NT y) = Ok step /\ x = shifted y step alpha /\
      exists k, (k <= 20)%nat /\ alpha = halved k one /\ (gn_backtracking s = false -> k = 0%nat) /\
        (gn_backtracking s = true -> (forall i, (i < k)%nat -> lowers f (enorm (f T NT y)) (shifted y step (halved i one)) = false) /\
          (lowers f (enorm (f T NT y)) x = true \/ k = 20%nat)).
  (** a report tells the truth about the point it names *)
  Definition gn_truthful (s : GaussNewton T) (f : VectorFn) (m : nat) (r : MinimizationReport T) : Prop :=
    let x := solution r in let res := f T NT x in
    vec_is_finite res = true /\ objective_function r = half * enorm res * enorm res /\
    match termination r with
    | Gtol => exists j qr, jacobian (gn_derivator s) f m x = Ok j /\ mat_is_finite j = true /\ qr_decompose m (length x) j = Ok qr /\
        ((enorm res =? zero) = true \/ (gn_gradient (mat_vec (length x) m (transpose m (length x) j) res) (enorm res) (column_norms qr) <=? gn_gtol s) = true)
    | Xtol => exists y step alpha, gn_moves s f m y x step alpha /\ (alpha * enorm step <=? gn_xtol s * enorm x) = true
    | Ftol => exists y step alpha, gn_moves s f m y x step alpha /\ (abs (enorm (f T NT y) - enorm res) <=? gn_ftol s * enorm (f T NT y)) = true
    end.
  Definition per_pass (s : GaussNewton T) : nat := if gn_backtracking s then 21 else 1.
  Lemma loop_spec (s : GaussNewton T) f m : (forall p, jacobian (gn_derivator s) f m p <> Panic) -> forall left x evals,
    vec_is_finite (f T NT x) = true ->
    match gn_loop s f m left x (f T NT x) (enorm (f T NT x)) evals with
    | Ok r => gn_truthful s f m r /\ (evals <= evaluations r <= evals + left * per_pass s)%nat
    | Err (SoDidNotConverge k) => (evals + left <= k <= evals + left * per_pass s)%nat
    | Err _ => True
    | Panic => False
    end.
  Proof.
    intros NP. induction left as [|left IH]; intros x evals F; cbn [gn_loop]; [lia|].
    destruct (jacobian (gn_derivator s) f m x) as [j|e|] eqn:J; [|exact I|exact (NP x J)].
    destruct (mat_is_finite j) eqn:MF; cbn [negb]; [|exact I].
    destruct (qr_decompose m (length x) j) as [qr|e|] eqn:Q; [|exact I|unfold qr_decompose in Q; destruct (Nat.ltb m (length x)); discriminate].
    destruct (enorm (f T NT x) =? zero) eqn:Z.
    { split; [|cbn [report evaluations]; lia]. unfold gn_truthful, report. cbn [solution termination objective_function]. split; [exact F|]. split; [reflexivity|]. exists j, qr. auto. }
    destruct (_ <=? gn_gtol s) eqn:G.
    { split; [|cbn [report evaluations]; lia]. unfold gn_truthful, report. cbn [solution termination objective_function]. split; [exact F|]. split; [reflexivity|]. exists j, qr. auto. }
    destruct (solve_least_squares m (length x) qr (f T NT x)) as [step|e|] eqn:L; [|exact I|unfold solve_least_squares in L; destruct (qr_back _ _ _ _ _ _); discriminate].
    pose proof (line_spec s f x step (enorm (f T NT x)) MAX_BACKTRACK one evals) as LS. unfold MAX_BACKTRACK in *.
    destruct (gn_line s f x step (enorm (f T NT x)) one 20 evals) as [[[[[a xn] rn] fn] e]|e|]; [|subst e; exact I|exact LS].
    destruct LS as (k & A1 & A2 & A3 & A4 & A5 & A6 & A7 & A8 & A9). subst rn fn.
    assert (M : gn_moves s f m x xn step a) by (split; [exact F|]; exists j, qr; repeat (split; [assumption|]); exists k; auto).
    assert (PP : (S k <= per_pass s)%nat) by (unfold per_pass; destruct (gn_backtracking s); [lia|rewrite A4 by reflexivity; lia]).
    destruct (_ <=? gn_xtol s * enorm xn) eqn:X.
    { split; [|cbn [report evaluations]; lia]. unfold gn_truthful, report. cbn [solution termination objective_function]. split; [exact A7|]. split; [reflexivity|]. exists x, step, a. auto. }
    destruct (_ <=? gn_ftol s * _) eqn:Y.
    { split; [|cbn [report evaluations]; lia]. unfold gn_truthful, report. cbn [solution termination objective_function]. split; [exact A7|]. split; [reflexivity|]. exists x, step, a. auto. }
    specialize (IH xn e A7). destruct (gn_loop s f m left xn (f T NT xn) (enorm (f T NT xn)) e) as [r|[c| | | | ]|]; auto; [destruct IH; split; [assumption|lia]|lia].
  Qed.
End Any.

(** ** Exact arithmetic *)
Lemma step_bands rdwarf agiant s (v : R) : 0 <= small_max s /\ 0 <= large_max s -> 0 <= small_max (enorm_step rdwarf agiant s v) /\ 0 <= large_max (enorm_step rdwarf agiant s v).
Proof.
  intros [A B]. unfold enorm_step. rnum. pose proof (Rabs_pos v).
  repeat match goal with |- context [if ?c then _ else _] => destruct c end; cbn [small_max large_max]; split; assumption.
Qed.
Lemma enorm_nonneg (l : list R) : 0 <= enorm l.
Proof.
  unfold enorm. match goal with |- context [fold_left ?g l ?a] => assert (B : 0 <= small_max (fold_left g l a) /\ 0 <= large_max (fold_left g l a)) end.
  { match goal with |- context [enorm_step ?a ?b] => generalize a b end. intros a b.
    assert (G : forall s, 0 <= small_max s /\ 0 <= large_max s -> 0 <= small_max (fold_left (enorm_step a b) l s) /\ 0 <= large_max (fold_left (enorm_step a b) l s)).
    { induction l as [|v l IH]; intros s H; [exact H|]. cbn [fold_left]. apply IH, step_bands, H. }
    apply G. cbn. lra. }
  cbv zeta. set (s := fold_left _ l _) in *. destruct B as [B1 B2]. rnum.
  destruct (negb (Reqb (large_sum s) 0)); [apply Rmult_le_pos; [exact B2|apply sqrt_pos]|].
  destruct (negb (Reqb (mid_sum s) 0)); [destruct (Rleb _ _); apply sqrt_pos|]. apply Rmult_le_pos; [exact B1|apply sqrt_pos].
Qed.
Lemma sum_squares_norm (l : list R) : sum_squares l = square_norm (length l) (vget l).
Proof.
  induction l as [|v l IH]; [reflexivity|]. cbn [sum_squares fold_right length]. fold (sum_squares l). rewrite IH. unfold square_norm, dot_product. rewrite bsum_first. reflexivity.
Qed.
Lemma enorm_moderate (l : list R) : moderate max_value l -> enorm l = R_sqrt.sqrt (square_norm (length l) (vget l)).
Proof. intros M. rewrite enorm_exact by exact M. rewrite sum_squares_norm. reflexivity. Qed.
Lemma square_norm_nonneg n x : 0 <= square_norm n x.
Proof. apply bsum_nonneg. intros. apply Rle_0_sqr. Qed.
Lemma square_norm_ge n x i : (i < n)%nat -> x i * x i <= square_norm n x.
Proof.
  intros Hi. unfold square_norm, dot_product. rewrite <- (bsum_delta n i (x i * x i) Hi). apply bsum_le. intros k Hk.
  destruct (Nat.eqb_spec k i) as [->|]; [lra|apply Rle_0_sqr].
Qed.
Lemma max_value_pos : 0 < (max_value : R).
Proof. pose proof max_value_large. lra. Qed.
Lemma moderate_norm (l : list R) : square_norm (length l) (vget l) < max_value / (INR (length l) * INR (length l)) -> moderate max_value l.
Proof.
  intros H v I. apply (In_nth _ _ 0) in I as (i & Hi & <-). pose proof (square_norm_ge (length l) (vget l) i Hi) as Q. unfold vget in Q at 1 2. cbn [zero Rnum] in Q.
  assert (P : 0 < INR (length l)) by (apply lt_0_INR; lia).
  apply Rsqr_incrst_0; [|apply Rabs_pos|]. 
  - rewrite <- Rsqr_abs. unfold Rsqr. replace (R_sqrt.sqrt max_value / INR (length l) * (R_sqrt.sqrt max_value / INR (length l))) with (R_sqrt.sqrt max_value * R_sqrt.sqrt max_value / (INR (length l) * INR (length l))) by (field; lra).
    rewrite sqrt_sqrt by (pose proof max_value_pos; lra). eapply Rle_lt_trans; [exact Q|exact H].
  - apply Rlt_le, Rdiv_lt_0_compat; [apply sqrt_lt_R0, max_value_pos|exact P].
Qed.
