(** C155: Newton's method for systems of equations. *)
From Coq Require Import ZArith Reals List Bool Arith Lia Lra.
From Coquelicot Require Import Coquelicot.
From Verif Require Import Base.Scalar Base.Lists Base.RNum Base.Series Base.Det.
From Verif Require Import Model.Errors Model.Vector Model.Matrix Model.Lu Model.Qr Model.Derivative Model.RootFinding Model.NewtonSystem.
From Verif Require Import Spec.Matrix Spec.Expr Spec.Derivative Spec.Optimization Spec.NewtonSystem.
From Verif Require Import Proofs.Matrix Proofs.Lu Proofs.Optimization Proofs.NewtonSystem Props.Lu Props.Derivative.
Import ListNotations.
Local Open Scope R_scope.

(** the moves and runs of a solver on a system in [n] unknowns *)
Definition moves {T} {NT : Num T} (s : NewtonSystem T) (f : VectorFn) (n : nat) : list T -> list T -> T -> list T -> Prop :=
  move (f T NT) (jacobian (ns_derivator s) f n) (mat_solve n) enorm (ns_ftol s) (ns_backtracking s).
Definition runs {T} {NT : Num T} (s : NewtonSystem T) (f : VectorFn) (n : nat) : nat -> list T -> list T -> Prop :=
  run (f T NT) (jacobian (ns_derivator s) f n) (mat_solve n) enorm (ns_xtol s) (ns_ftol s) (ns_backtracking s).

(** Any scalar.  An answer is the end of a run of Newton moves, reports the residual's norm and the passes made, and stopped for the
    reason it gives; each error names what happened at the end of such a run. *)
Theorem C155_outcome T (NT : Num T) (s : NewtonSystem T) (f : VectorFn) guess :
  let F := f T NT in let n := length guess in let budget := ns_max_iterations s in
  (forall y, jacobian (ns_derivator s) f n y <> Panic) ->
  match ns_solve s f guess with
  | Ok r => all_finite (F (root_n r)) /\ residual_norm r = enorm (F (root_n r)) /\
      exists k y, runs s f n k guess y /\ (k < budget)%nat /\ iterations_n r = S k /\
        match termination_n r with
        | ResidualTolerance => root_n r = y /\ leb (residual_norm r) (ns_ftol s) = true
        | StepTolerance => exists step a, moves s f n y step a (root_n r) /\ small_step enorm (ns_xtol s) step a (root_n r) = true
        | BracketWidth => False
        end
  | Err (SoDidNotConverge k) => k = budget /\ exists y, runs s f n budget guess y
  | Err (SoDiff e) => exists k y, runs s f n k guess y /\ (k < budget)%nat /\ leb (enorm (F y)) (ns_ftol s) = false /\ jacobian (ns_derivator s) f n y = Err e
  | Err (SoLinalg e) => exists k y j, runs s f n k guess y /\ (k < budget)%nat /\ leb (enorm (F y)) (ns_ftol s) = false /\
      jacobian (ns_derivator s) f n y = Ok j /\ mat_solve n j (map neg (F y)) = Err e
  | Err SoNonFinite => ~ all_finite (F guess) \/ exists k y j, runs s f n k guess y /\ (k < budget)%nat /\ leb (enorm (F y)) (ns_ftol s) = false /\
      jacobian (ns_derivator s) f n y = Ok j /\
      (~ (forall row, In row j -> all_finite row) \/
       exists step i, mat_solve n j (map neg (F y)) = Ok step /\ chosen F enorm (ns_backtracking s) y step i /\ ~ all_finite (F (along y step (halving i))))
  | Err SoInvalidBracket => False
  | Panic => False
  end.
Proof.
  intros F n budget NP. unfold ns_solve. fold F. destruct (vec_is_finite (F guess)) eqn:V; cbn [negb]; [|left; apply not_finite, V].
  assert (G : forall left k x, (k + left = budget)%nat -> runs s f n k guess x -> length x = n -> all_finite (F x) ->
    match ns_loop s f left (S k) x (F x) (enorm (F x)) with
    | Ok r => all_finite (F (root_n r)) /\ residual_norm r = enorm (F (root_n r)) /\
        exists k y, runs s f n k guess y /\ (k < budget)%nat /\ iterations_n r = S k /\
          match termination_n r with
          | ResidualTolerance => root_n r = y /\ leb (residual_norm r) (ns_ftol s) = true
          | StepTolerance => exists step a, moves s f n y step a (root_n r) /\ small_step enorm (ns_xtol s) step a (root_n r) = true
          | BracketWidth => False
          end
    | Err (SoDidNotConverge k) => k = budget /\ exists y, runs s f n budget guess y
    | Err (SoDiff e) => exists k y, runs s f n k guess y /\ (k < budget)%nat /\ leb (enorm (F y)) (ns_ftol s) = false /\ jacobian (ns_derivator s) f n y = Err e
    | Err (SoLinalg e) => exists k y j, runs s f n k guess y /\ (k < budget)%nat /\ leb (enorm (F y)) (ns_ftol s) = false /\
        jacobian (ns_derivator s) f n y = Ok j /\ mat_solve n j (map neg (F y)) = Err e
    | Err SoNonFinite => exists k y j, runs s f n k guess y /\ (k < budget)%nat /\ leb (enorm (F y)) (ns_ftol s) = false /\
        jacobian (ns_derivator s) f n y = Ok j /\
        (~ (forall row, In row j -> all_finite row) \/
         exists step i, mat_solve n j (map neg (F y)) = Ok step /\ chosen F enorm (ns_backtracking s) y step i /\ ~ all_finite (F (along y step (halving i))))
    | Err SoInvalidBracket => False
    | Panic => False
    end).
  { induction left as [|left IH]; intros k x K R L A; cbn [ns_loop].
    { split; [reflexivity|]. exists x. replace budget with k by lia. exact R. }
    destruct (leb (enorm (F x)) (ns_ftol s)) eqn:E.
    { cbn [root_n residual_norm iterations_n termination_n]. split; [exact A|]. split; [reflexivity|]. exists k, x. repeat split; auto; lia. }
    rewrite L. destruct (jacobian (ns_derivator s) f n x) as [j|e|] eqn:J; [|exists k, x; repeat split; auto; lia|exact (NP x J)].
    destruct (mat_is_finite j) eqn:MF; cbn [negb].
    2: { exists k, x, j. repeat split; auto; [lia|]. left. intros H. apply rows_finite in H. congruence. }
    change (vec_neg (F x)) with (map neg (F x)).
    destruct (mat_solve n j (map neg (F x))) as [step|e|] eqn:S; [|exists k, x, j; repeat split; auto; lia|exact (mat_solve_answers _ _ _ S)].
    pose proof (@ns_line_spec T NT s f x step 20 0 eq_refl (fun _ => eq_refl) ltac:(intros; lia)) as LS. cbn [halving] in LS. unfold MAX_BACKTRACK_N. fold F in LS.
    destruct (ns_line s f x step (enorm (F x)) one 20) as [[[[a xn] rn] fn]|e|]; [| |exact LS].
    2: { destruct LS as (-> & i & C & W). exists k, x, j. repeat split; auto; [lia|]. right. exists step, i. auto. }
    destruct LS as (i & C & -> & -> & -> & -> & W). set (a := halving i) in *. set (xn := along x step a) in *.
    assert (M : moves s f n x step a xn).
    { split; [exact E|]. split; [exists j; split; [exact J|]; split; [apply rows_finite, MF|exact S]|]. exists i. auto. }
    destruct (leb _ (mul (ns_xtol s) _)) eqn:Q.
    { cbn [root_n residual_norm iterations_n termination_n]. split; [exact W|]. split; [reflexivity|]. exists k, x. split; [exact R|]. split; [lia|]. split; [reflexivity|]. exists step, a. split; [exact M|exact Q]. }
    apply IH; [lia|apply (run_more _ _ _ _ _ _ _ k guess x step a xn R M Q)| |exact W].
    unfold xn. rewrite along_length; [exact L|]. rewrite L. apply (mat_solve_length _ _ _ _ S). }
  specialize (G budget 0%nat guess eq_refl (run_none _ _ _ _ _ _ _ guess) eq_refl (proj1 (finite_iff _) V)).
  fold budget. destruct (ns_loop s f budget 1 guess (F guess) (enorm (F guess))) as [r|[k| | |e|e]|]; auto.
Qed.

Lemma chosen_unique T (NT : Num T) (F : list T -> list T) size damped y step k k' : chosen F size damped y step k -> chosen F size damped y step k' -> k = k'.
Proof.
  unfold chosen. destruct damped; [|congruence]. intros (A & B & C) (A' & B' & C'). destruct (Nat.lt_trichotomy k k') as [H|[H|H]]; [|exact H|].
  - destruct C as [C| ->]; [destruct (B' k H C)|lia].
  - destruct C' as [C'| ->]; [destruct (B k' H C')|lia].
Qed.
Lemma solve_along T (NT : Num T) (s : NewtonSystem T) (f : VectorFn) guess : all_finite (f T NT guess) -> forall k y,
  runs s f (length guess) k guess y -> (k <= ns_max_iterations s)%nat ->
  length y = length guess /\ all_finite (f T NT y) /\ ns_solve s f guess = ns_loop s f (ns_max_iterations s - k) (S k) y (f T NT y) (enorm (f T NT y)).
Proof.
  intros FG k y R. remember guess as g0 eqn:EG in R at 2. induction R as [x|k x y step a z R IH M Q]; intros K; subst x.
  { split; [reflexivity|]. split; [exact FG|]. rewrite Nat.sub_0_r. unfold ns_solve. apply finite_iff in FG. rewrite FG. reflexivity. }
  destruct (IH eq_refl ltac:(lia)) as (L & FY & ->). clear IH. destruct M as (E & (j & J & FJ & S) & i & C & -> & -> & FZ).
  assert (LS : length step = length y) by (rewrite L; apply (mat_solve_length _ _ _ _ S)).
  split; [rewrite along_length by exact LS; exact L|]. split; [exact FZ|].
  replace (ns_max_iterations s - k)%nat with (Datatypes.S (ns_max_iterations s - Datatypes.S k)) by lia. cbn [ns_loop]. rewrite E, L, J. apply rows_finite in FJ. rewrite FJ. cbn [negb].
  change (vec_neg (f T NT y)) with (map neg (f T NT y)). rewrite S.
  pose proof (@ns_line_spec T NT s f y step 20 0 eq_refl (fun _ => eq_refl) ltac:(intros; lia)) as LN. cbn [halving] in LN. unfold MAX_BACKTRACK_N.
  destruct (ns_line s f y step (enorm (f T NT y)) one 20) as [[[[a xn] rn] fn]|e|]; [| |destruct LN].
  - destruct LN as (i' & C' & -> & -> & -> & -> & _). rewrite (chosen_unique _ _ _ _ _ _ _ _ _ C' C). unfold small_step in Q. rewrite Q. reflexivity.
  - destruct LN as (_ & i' & C' & W). rewrite (chosen_unique _ _ _ _ _ _ _ _ _ C' C) in W. contradiction.
Qed.

(** Any scalar.  Conversely, a run within the budget decides the answer: where it reaches a residual within the tolerance, or makes a move
    below the step tolerance, that is the answer; and where it uses up the budget, that is the error. *)
Theorem C155_found T (NT : Num T) (s : NewtonSystem T) (f : VectorFn) guess k y : let F := f T NT in let n := length guess in let budget := ns_max_iterations s in
  all_finite (F guess) -> runs s f n k guess y ->
  ((k < budget)%nat -> leb (enorm (F y)) (ns_ftol s) = true ->
     exists r, ns_solve s f guess = Ok r /\ root_n r = y /\ residual_norm r = enorm (F y) /\ iterations_n r = S k /\ termination_n r = ResidualTolerance) /\
  (forall step a x, (k < budget)%nat -> moves s f n y step a x -> small_step enorm (ns_xtol s) step a x = true ->
     exists r, ns_solve s f guess = Ok r /\ root_n r = x /\ residual_norm r = enorm (F x) /\ iterations_n r = S k /\ termination_n r = StepTolerance) /\
  (k = budget -> ns_solve s f guess = Err (SoDidNotConverge budget)).
Proof.
  intros F n budget FG R. split; [|split].
  - intros K E. destruct (solve_along T NT s f guess FG k y R ltac:(fold budget; lia)) as (_ & _ & ->). fold budget.
    destruct (budget - k)%nat eqn:B; [lia|]. cbn [ns_loop]. fold F. rewrite E. eexists. repeat split.
  - intros step a x K M Q. destruct (solve_along T NT s f guess FG k y R ltac:(fold budget; lia)) as (L & FY & ->). fold budget.
    destruct (budget - k)%nat eqn:B; [lia|]. destruct M as (E & (j & J & FJ & S) & i & C & -> & -> & FZ). cbn [ns_loop]. rewrite E, L. fold n. rewrite J.
    apply rows_finite in FJ. rewrite FJ. cbn [negb]. change (vec_neg (f T NT y)) with (map neg (f T NT y)). rewrite S.
    pose proof (@ns_line_spec T NT s f y step 20 0 eq_refl (fun _ => eq_refl) ltac:(intros; lia)) as LN. cbn [halving] in LN. unfold MAX_BACKTRACK_N.
    destruct (ns_line s f y step (enorm (f T NT y)) one 20) as [[[[a xn] rn] fn]|e|]; [| |destruct LN].
    + destruct LN as (i' & C' & -> & -> & -> & -> & _). rewrite (chosen_unique _ _ _ _ _ _ _ _ _ C' C). unfold small_step in Q. rewrite Q. eexists. repeat split.
    + destruct LN as (_ & i' & C' & W). rewrite (chosen_unique _ _ _ _ _ _ _ _ _ C' C) in W. contradiction.
  - intros ->. destruct (solve_along T NT s f guess FG budget y R (le_n _)) as (_ & _ & ->). fold budget. rewrite Nat.sub_diag. reflexivity.
Qed.

(** The settings: the stated defaults, and each builder changes its own setting only. *)
Theorem C155_settings (d : Derivator R) (s : NewtonSystem R) xtol ftol limit damped :
  let s0 := ns_from_derivator d in
  ns_derivator s0 = d /\ ns_xtol s0 = 30 / 2 ^ 52 /\ ns_ftol s0 = 30 / 2 ^ 52 /\ ns_max_iterations s0 = 100%nat /\ ns_backtracking s0 = false /\
  ns_with_xtol (ns_with_ftol (ns_with_max_iterations (ns_with_backtracking s damped) limit) ftol) xtol =
    {| ns_derivator := ns_derivator s; ns_xtol := xtol; ns_ftol := ftol; ns_max_iterations := limit; ns_backtracking := damped |} /\
  ns_with_backtracking (ns_with_max_iterations (ns_with_ftol (ns_with_xtol s xtol) ftol) limit) damped =
    {| ns_derivator := ns_derivator s; ns_xtol := xtol; ns_ftol := ftol; ns_max_iterations := limit; ns_backtracking := damped |}.
Proof. intros s0. rewrite (pow_IZR 2 52). repeat split. Qed.

(** Exact arithmetic. *)
Lemma vec_finite_R (l : list R) : vec_is_finite l = true.
Proof. apply forallb_forall. intros. reflexivity. Qed.
Lemma mat_finite_R (m : mat R) : mat_is_finite m = true.
Proof. apply forallb_forall. intros. reflexivity. Qed.
Lemma enorm_zeros (l : list R) : l <> [] -> (forall v, In v l -> v = 0) -> enorm l = 0.
Proof.
  intros N Z. rewrite enorm_moderate.
  - replace (square_norm (length l) (vget l)) with 0; [apply sqrt_0|]. symmetry. rewrite <- (bsum_0 (length l)). unfold square_norm, dot_product. apply bsum_ext. intros k Hk.
    replace (vget l k) with 0; [ring|]. symmetry. apply Z, nth_In, Hk.
  - intros v I. rewrite (Z v I), Rabs_R0. apply Rdiv_lt_0_compat; [apply sqrt_lt_R0; change (0 < IZR (2 ^ 53 - 1) * IZR (2 ^ 971)); apply Rmult_lt_0_compat; apply IZR_lt; reflexivity|]. apply lt_0_INR. destruct l; [congruence|cbn; lia].
Qed.
Lemma nth_along (y step : list R) a i : length step = length y -> (i < length y)%nat -> nth i (along y step a) 0 = nth i y 0 + a * nth i step 0.
Proof.
  revert step i. induction y as [|v y IH]; intros [|w step] i L H; cbn [length] in *; try lia. destruct i as [|i]; [reflexivity|].
  cbn [nth]. apply (IH step i); lia.
Qed.
Lemma halving_R k : @halving R Rnum k = / 2 ^ k.
Proof. induction k as [|k IH]; cbn [halving pow]; [cbn; rewrite Rinv_1; reflexivity|]. rewrite IH. cbn [mul half Rnum]. rnum. field. apply pow_nonzero; lra. Qed.

(** A move takes x + a * step, where the step is the one solution of (derivatives of F at x) * step = - F(x), the derivatives being
    those of the formulas. *)
Theorem C155_step (s : NewtonSystem R) es y step a x : let n := length y in let F := formulas es R Rnum in
  es <> [] -> length es = n -> (forall e, In e es -> smooth_at e y) -> ns_derivator s = autodiff_multi -> moves s (formulas es) n y step a x ->
  (forall i, (i < n)%nat -> nth i x 0 = nth i y 0 + a * nth i step 0) /\ length x = n /\
  exists J : matrix,
    (forall row col e, nth_error es row = Some e -> (col < n)%nat -> is_derive (slice (formula e R Rnum) y col) (nth col y 0) (J row col)) /\
    equal_vectors n (times n J (fun k => nth k step 0)) (fun i => - nth i (F y) 0) /\
    forall z, equal_vectors n (times n J z) (fun i => - nth i (F y) 0) -> equal_vectors n z (fun k => nth k step 0).
Proof.
  intros n F NE LE SM D (_ & (j & J & _ & S) & k & C & -> & -> & _). rewrite D in J.
  destruct (C123_jacobian_exact es y NE SM) as (J' & A & _ & SH & DV). rewrite LE in *. rewrite J in A. injection A as <-. fold n in SH.
  assert (LF : length (map neg (F y)) = n) by (unfold F, formulas; rewrite !map_length; exact LE).
  pose proof (mat_solve_length _ _ _ _ S) as LS. destruct (C76_solve n j _ step SH LF S) as (_ & T1 & T2).
  assert (NG : forall i, (i < n)%nat -> vget (map neg (F y)) i = - nth i (F y) 0).
  { intros i Hi. unfold vget. rewrite (nth_indep _ _ (@neg R Rnum 0)) by lia. exact (map_nth (@neg R Rnum) (F y) 0 i). }
  split; [|split].
  - intros i Hi. apply nth_along; [exact LS|exact Hi].
  - apply along_length. exact LS.
  - exists (mget j). split; [exact DV|]. split; [intros i Hi; rewrite <- NG by auto; apply T1, Hi|].
    intros z Hz. apply T2. intros i Hi. rewrite NG by auto. apply Hz, Hi.
Qed.

(** Damped, every move lowers the norm of the residual unless twenty halvings did not; not damped, the whole step is taken. *)
Theorem C155_falls (s : NewtonSystem R) (f : VectorFn) n y step a x : moves s f n y step a x ->
  (exists k, (k <= 20)%nat /\ a = / 2 ^ k) /\
  (ns_backtracking s = false -> a = 1) /\
  (ns_backtracking s = true -> enorm (f R Rnum x) < enorm (f R Rnum y) \/
     a = / 2 ^ 20 /\ forall k, (k < 20)%nat -> enorm (f R Rnum y) <= enorm (f R Rnum (along y step (/ 2 ^ k)))).
Proof.
  intros (_ & _ & k & C & -> & -> & _). unfold chosen in C. destruct (ns_backtracking s).
  - destruct C as (K & W & B). split; [exists k; split; [exact K|apply halving_R]|]. split; [discriminate|]. intros _.
    destruct B as [[_ B]| ->]; [left; apply Rltb_true; exact B|]. right. split; [apply halving_R|]. intros i Hi. rewrite <- halving_R.
    destruct (Rle_or_lt (enorm (f R Rnum y)) (enorm (f R Rnum (along y step (halving i))))) as [|Q]; [assumption|]. exfalso. apply (W i Hi).
    split; [intros v _; reflexivity|apply Rltb_true; exact Q].
  - subst k. split; [exists 0%nat; split; [lia|apply halving_R]|]. split; [intros _; rewrite halving_R; cbn; field|discriminate].
Qed.

(** A linear system is solved exactly within two passes, damped or not. *)
Theorem C155_affine (s : NewtonSystem R) (f : VectorFn) n (A : mat R) (b guess : list R) : (0 < n)%nat -> length guess = n -> shape n n A ->
  (forall p, length p = n -> length (f R Rnum p) = n /\ forall i, (i < n)%nat -> nth i (f R Rnum p) 0 = times n (mget A) (fun k => nth k p 0) i + nth i b 0) ->
  (forall p, length p = n -> jacobian (ns_derivator s) f n p = Ok A) -> (exists g, lu_decompose n A = Ok g) ->
  0 <= ns_ftol s -> (2 <= ns_max_iterations s)%nat ->
  exists r, ns_solve s f guess = Ok r /\ (iterations_n r <= 2)%nat /\ length (root_n r) = n /\
    (root_n r = guess /\ enorm (f R Rnum guess) <= ns_ftol s \/
     residual_norm r = 0 /\ forall i, (i < n)%nat -> times n (mget A) (fun k => nth k (root_n r) 0) i + nth i b 0 = 0).
Proof.
  intros N0 LG SH HF HJ [g LU] FT MX. unfold ns_solve. rewrite vec_finite_R. cbn [negb].
  destruct (ns_max_iterations s) as [|[|m]] eqn:EM; [lia|lia|]. cbn [ns_loop]. rewrite LG. set (F := f R Rnum) in *.
  destruct (leb (enorm (F guess)) (ns_ftol s)) eqn:E.
  { eexists. split; [reflexivity|]. cbn. split; [lia|]. split; [exact LG|]. left. split; [reflexivity|]. apply Rleb_true. exact E. }
  rewrite (HJ _ LG), mat_finite_R. cbn [negb]. change (vec_neg (F guess)) with (map neg (F guess)).
  destruct (HF _ LG) as [LF VF].
  destruct (mat_solve n A (map neg (F guess))) as [step|e|] eqn:S; [|unfold mat_solve in S; rewrite LU in S; discriminate|unfold mat_solve in S; rewrite LU in S; discriminate].
  pose proof (mat_solve_length _ _ _ _ S) as LS. destruct (C76_solve n A _ step SH ltac:(rewrite map_length; exact LF) S) as (_ & T1 & _).
  set (p := along guess step 1). assert (LP : length p = n) by (unfold p; rewrite along_length; congruence).
  assert (VP : forall i, (i < n)%nat -> nth i p 0 = nth i guess 0 + nth i step 0).
  { intros i Hi. unfold p. rewrite nth_along by (rewrite LG; auto). ring. }
  destruct (HF _ LP) as [LFP VFP].
  assert (Z : forall i, (i < n)%nat -> nth i (F p) 0 = 0).
  { intros i Hi. rewrite VFP by auto. specialize (T1 i Hi). unfold vget in T1 at 2. cbn [zero Rnum] in T1.
    rewrite (nth_indep _ 0 (@neg R Rnum 0)) in T1 by (rewrite map_length, LF; exact Hi). rewrite (map_nth (@neg R Rnum) (F guess) 0 i), VF in T1 by auto. cbn [neg Rnum] in T1.
    replace (times n (mget A) (fun k => nth k p 0) i) with (times n (mget A) (fun k => nth k guess 0) i + times n (mget A) (vget step) i); [rewrite T1; ring|].
    unfold times. rewrite <- bsum_plus. apply bsum_ext. intros k Hk. rewrite VP by auto. unfold vget. cbn [zero Rnum]. ring. }
  assert (EZ : enorm (F p) = 0).
  { apply enorm_zeros; [destruct (F p); [cbn in LFP; lia|discriminate]|]. intros v I. apply (In_nth _ _ 0) in I as (i & Hi & <-). apply Z. lia. }
  assert (PX : ns_line s f guess step (enorm (F guess)) one MAX_BACKTRACK_N = Ok (1, p, F p, 0)).
  { pose proof (@ns_line_spec R Rnum s f guess step 20 0 eq_refl (fun _ => eq_refl) ltac:(intros; lia)) as L. cbn [halving] in L. fold F in L. unfold MAX_BACKTRACK_N.
    destruct (ns_line s f guess step (enorm (F guess)) one 20) as [[[[a xn] rn] fn]|e|]; [|destruct L as (_ & k & _ & Q); exfalso; apply Q; intros v _; reflexivity|destruct L].
    destruct L as (k & C & -> & -> & -> & -> & _). assert (k = 0)%nat as ->; [|change (@halving R Rnum 0) with 1; fold p; rewrite EZ; reflexivity].
    unfold chosen in C. destruct (ns_backtracking s); [|exact C]. destruct C as (_ & W & _). destruct k as [|k]; [reflexivity|]. exfalso. apply (W 0%nat); [lia|].
    split; [intros v _; reflexivity|]. change (@halving R Rnum 0) with 1. fold p. apply Rltb_true. rewrite EZ. apply Rleb_false in E. lra. }
  rewrite PX. destruct (leb _ (mul (ns_xtol s) _)) eqn:Q.
  { eexists. split; [reflexivity|]. cbn. split; [lia|]. split; [exact LP|]. right. split; [reflexivity|]. intros i Hi. rewrite <- VFP by auto. apply Z, Hi. }
  replace (leb 0 (ns_ftol s)) with true by (symmetry; apply Rleb_true; exact FT).
  eexists. split; [reflexivity|]. cbn. split; [lia|]. split; [exact LP|]. right. split; [reflexivity|]. intros i Hi. rewrite <- VFP by auto. apply Z, Hi.
Qed.

(** x1 + x1 = 4 and x0 + x1 = 3, from any point *)
Definition lines : list expr := [EBin BSub (EBin BAdd (EVar 1) (EVar 1)) (ELit 4 1); EBin BSub (EBin BAdd (EVar 0) (EVar 1)) (ELit 3 1)].
Example C155_example : let s := ns_with_backtracking (ns_from_derivator autodiff_multi) true in
  exists r, ns_solve s (formulas lines) [10; 20] = Ok r /\ root_n r = [1; 2].
Proof.
  intros s. assert (V : forall p : list R, length p = 2%nat -> exists a b, p = [a; b]).
  { intros [|a [|b [|c p]]] L; try discriminate. eauto. }
  destruct (C155_affine s (formulas lines) 2 sample [-4; -3] [10; 20]) as (r & A & _ & L & [[B C]|[_ B]]).
  - lia.
  - reflexivity.
  - apply sample_shape.
  - intros p L. split; [reflexivity|]. destruct (V p L) as (a & b & ->). unfold times, sample, lines. intros [|[|i]] H; [| |lia]; cbn; field.
  - intros p L. destruct (V p L) as (a & b & ->). unfold sample, s. cbn. replace (0 + 0 - 0) with 0 by ring. replace (1 + 1 - 0) with 2 by ring. replace (1 + 0 - 0) with 1 by ring. replace (0 + 1 - 0) with 1 by ring. reflexivity.
  - destruct sample_factored as (f & E & _). eauto.
  - unfold s. cbn. apply Rmult_le_pos; [lra|]. left. apply Rinv_0_lt_compat, IZR_lt. reflexivity.
  - unfold s. cbn. lia.
  - exfalso. revert C. rewrite enorm_moderate.
    + apply Rlt_not_le. apply Rlt_le_trans with (R_sqrt.sqrt 1).
      * rewrite sqrt_1. unfold s. cbn. apply Rmult_lt_reg_r with (IZR (2 ^ 52)); [apply IZR_lt; reflexivity|]. unfold Rdiv. rewrite Rmult_assoc, Rinv_l by (apply not_0_IZR; discriminate). rewrite Rmult_1_r, Rmult_1_l. apply IZR_lt. reflexivity.
      * apply sqrt_le_1_alt. unfold square_norm, dot_product, lines. cbn. lra.
    + apply moderate_norm. unfold square_norm, dot_product, lines. cbn -[max_value]. change max_value with (IZR (2 ^ 53 - 1) * IZR (2 ^ 971)). rewrite <- mult_IZR.
      apply Rlt_le_trans with (IZR (10000 * 4) / 4); [cbn; lra|]. apply Rmult_le_compat; [apply IZR_le; discriminate|lra|apply IZR_le; discriminate|cbn; lra].
  - exists r. split; [exact A|]. destruct (V _ L) as (a & b & E). rewrite E in *. pose proof (B 0%nat ltac:(lia)) as B0. pose proof (B 1%nat ltac:(lia)) as B1.
    unfold times, sample in B0, B1. cbn in B0, B1. f_equal; [|f_equal]; lra.
Qed.

Print Assumptions C155_outcome.
Print Assumptions C155_found.
Print Assumptions C155_settings.
Print Assumptions C155_step.
Print Assumptions C155_falls.
Print Assumptions C155_affine.
