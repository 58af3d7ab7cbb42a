(** C141: the Gauss-Newton solver. *)
From Coq Require Import ZArith Reals List Bool Arith Lia Lra Permutation.
From Coquelicot Require Import Hierarchy Derive Rcomplements.
From Verif Require Import Base.Scalar Base.Lists Base.RNum Base.Series Base.Det Model.Errors Model.Vector Model.Matrix Model.Lu Model.Cholesky Model.Qr Model.Dual Model.Derivative Model.Optimization
  Proofs.Matrix Proofs.Qr Proofs.Optimization Props.Qr Props.Damped Props.Derivative Spec.Expr Spec.Derivative Spec.Matrix Spec.Optimization.
Import ListNotations.
Local Open Scope R_scope.

(** For any scalar, NaN and infinity included: no run panics; a report names a point with finite residuals, its objective is that of
    this point, it says which test stopped the run and that test holds there, and both it and the failure to converge stay within the
    budget of passes, 21 evaluations each with backtracking and one without. *)
Theorem C141_report T (NT : Num T) (s : GaussNewton T) f m x0 : (forall p, jacobian (gn_derivator s) f m p <> Panic) ->
  match gn_minimize s f m x0 with
  | Ok r => gn_truthful s f m r /\ (1 <= evaluations r <= 1 + gn_patience s * (if gn_backtracking s then 21 else 1))%nat
  | Err (SoDidNotConverge k) => (1 + gn_patience s <= k <= 1 + gn_patience s * (if gn_backtracking s then 21 else 1))%nat
  | Err _ => True
  | Panic => False
  end.
Proof.
  intros NP. unfold gn_minimize. destruct (vec_is_finite (f T NT x0)) eqn:F; cbn [negb]; [|exact I].
  exact (loop_spec s f m NP (gn_patience s) x0 1 F).
Qed.
(** The hypothesis holds for automatic differentiation. *)
Theorem C141_autodiff_total T (NT : Num T) f m p : jacobian (T := T) autodiff_multi f m p <> Panic.
Proof.
  unfold jacobian. destruct (Nat.eqb m 0); [discriminate|]. match goal with |- fold_left ?g ?l ?a <> _ => set (step := g); set (l0 := l); assert (A : a <> Panic) by discriminate; generalize dependent a end.
  induction l0 as [|n l IH]; intros acc A; cbn [fold_left]; [exact A|]. apply IH. unfold step. destruct acc as [r|e|]; [|discriminate|contradiction].
  unfold autodiff_multi, d_column, autodiff_column. destruct (Nat.leb (length p) n); discriminate.
Qed.
(** Residuals that are not finite at the start, and more parameters than residuals, are refused. *)
Theorem C141_refused T (NT : Num T) (s : GaussNewton T) f m x0 :
  (vec_is_finite (f T NT x0) = false -> gn_minimize s f m x0 = Err SoNonFinite) /\
  (vec_is_finite (f T NT x0) = true -> (m < length x0)%nat -> (0 < gn_patience s)%nat -> forall j, jacobian (gn_derivator s) f m x0 = Ok j ->
    gn_minimize s f m x0 = Err (if mat_is_finite j then SoLinalg LaUnderdetermined else SoNonFinite)).
Proof.
  unfold gn_minimize. split; [intros ->; reflexivity|]. intros -> L P j J. cbn [negb]. destruct (gn_patience s); [lia|]. cbn [gn_loop]. rewrite J.
  destruct (mat_is_finite j); [|reflexivity]. cbn [negb]. unfold qr_decompose. replace (Nat.ltb m (length x0)) with true by (symmetry; apply Nat.ltb_lt; exact L). reflexivity.
Qed.

Lemma gradient_fold (grad norms : list R) (b : R) l : forall a,
  let r := fold_left (fun gnorm col => if negb (vget norms col =? zero)%num then pmax gnorm (abs (vget grad col / (b * vget norms col)))%num else gnorm) l a in
  a <= r /\ (forall c, In c l -> vget norms c <> 0 -> Rabs (vget grad c / (b * vget norms c)) <= r) /\
  ((forall c, In c l -> vget grad c = 0) -> 0 <= a -> r = a).
Proof.
  induction l as [|c l IH]; intros a; cbn [fold_left]; [cbv zeta; split; [lra|]; split; [intros c []|reflexivity]|].
  cbv zeta in *. set (a' := if negb (vget norms c =? zero)%num then _ else a). destruct (IH a') as (A & B & C).
  assert (K : a <= a' /\ (vget norms c <> 0 -> Rabs (vget grad c / (b * vget norms c)) <= a')).
  { unfold a'. rnum. destruct (Reqb (vget norms c) 0) eqn:E; cbn [negb].
    - apply Reqb_true in E. split; [lra|contradiction].
    - unfold pmax. rnum. destruct (Rltb a (Rabs (vget grad c / (b * vget norms c)))) eqn:F; rcases; split; intros; lra. }
  split; [lra|]. split.
  - intros c' [<-|I] N; [specialize (proj2 K N); lra|apply B; auto].
  - intros Z P. assert (a' = a).
    { unfold a'. rnum. destruct (negb (Reqb (vget norms c) 0)); [|reflexivity]. unfold pmax. rnum. rewrite (Z c) by (left; reflexivity). unfold Rdiv. rewrite Rmult_0_l, Rabs_R0.
      replace (Rltb a 0) with false by (symmetry; apply Rltb_false; lra). reflexivity. }
    rewrite H in *. apply C; [intros; apply Z; right; assumption|exact P].
Qed.
Lemma norms_length (rows cols : nat) (a : mat R) f : qr_decompose rows cols a = Ok f -> length (column_norms f) = cols /\ (cols <= rows)%nat.
Proof. unfold qr_decompose. destruct (Nat.ltb_spec rows cols); [discriminate|]. intros E. injection E as <-. cbn [column_norms]. split; [apply from_fn_length|lia]. Qed.
Lemma norms_value (rows cols : nat) (a : mat R) f : shape rows cols a -> columns_below max_value rows cols (mget a) -> qr_decompose rows cols a = Ok f ->
  forall c, (c < cols)%nat -> vget (column_norms f) c = R_sqrt.sqrt (square_norm rows (column (mget a) c)).
Proof.
  intros S B E c Hc. destruct (norms_length _ _ _ _ E) as [_ L].
  destruct (damped_parts rows cols a f (repeat 0 rows) L S B E (repeat_length _ _)) as (_ & _ & _ & _ & _ & _ & _ & Q). apply Q, Hc.
Qed.

(** Stopping on the gradient means that every column of the jacobian is, to the tolerance, at a right angle to the residuals. *)
Theorem C141_gradient (s : GaussNewton R) f m x0 r : gn_minimize s f m x0 = Ok r -> (forall p, jacobian (gn_derivator s) f m p <> Panic) ->
  let x := solution r in termination r = Gtol -> 0 <= gn_gtol s -> length (f R Rnum x) = m -> moderate max_value (f R Rnum x) ->
  exists j, jacobian (gn_derivator s) f m x = Ok j /\
    (shape m (length x) j -> columns_below max_value m (length x) (mget j) -> forall c, (c < length x)%nat ->
      Rabs (dot_product m (column (mget j) c) (residual_of (f R Rnum) x)) <=
        gn_gtol s * R_sqrt.sqrt (square_norm m (residual_of (f R Rnum) x)) * R_sqrt.sqrt (square_norm m (column (mget j) c))).
Proof.
  intros E NP x TR G L M. pose proof (C141_report R Rnum s f m x0 NP) as P. rewrite E in P. destruct P as [(F & _ & P) _]. rewrite TR in P. fold x in P, F.
  destruct P as (j & qr & J & _ & Q & A). exists j. split; [exact J|]. intros S B c Hc.
  assert (EN : enorm (f R Rnum x) = R_sqrt.sqrt (square_norm m (residual_of (f R Rnum) x))) by (rewrite enorm_moderate by exact M; rewrite L; reflexivity).
  assert (N0 : 0 <= R_sqrt.sqrt (square_norm m (residual_of (f R Rnum) x))) by apply sqrt_pos. assert (C0 := sqrt_pos (square_norm m (column (mget j) c))).
  assert (NV := norms_value m (length x) j qr S B Q c Hc). destruct (norms_length _ _ _ _ Q) as [NL LM].
  rewrite EN in A. set (b := R_sqrt.sqrt (square_norm m (residual_of (f R Rnum) x))) in *. set (nc := R_sqrt.sqrt (square_norm m (column (mget j) c))) in *.
  assert (CZ : nc = 0 -> dot_product m (column (mget j) c) (residual_of (f R Rnum) x) = 0).
  { intros Z. unfold nc in Z. apply sqrt_eq_0 in Z; [|apply square_norm_nonneg]. unfold dot_product. rewrite (bsum_ext _ _ (fun _ => 0)); [apply bsum_0|].
    intros i Hi. pose proof (square_norm_ge m (column (mget j) c) i Hi). assert (column (mget j) c i = 0) by (apply Rsqr_0_uniq; unfold Rsqr; pose proof (Rle_0_sqr (column (mget j) c i)); unfold Rsqr in *; lra). rewrite H0. ring. }
  destruct A as [A|A].
  - cbn [eqb zero Rnum] in A. apply Reqb_true in A. rewrite A. rewrite Rmult_0_r, Rmult_0_l.
    assert (Z : dot_product m (column (mget j) c) (residual_of (f R Rnum) x) = 0); [|rewrite Z, Rabs_R0; lra].
    unfold b in A. apply sqrt_eq_0 in A; [|apply square_norm_nonneg]. unfold dot_product. rewrite (bsum_ext _ _ (fun _ => 0)); [apply bsum_0|].
    intros i Hi. pose proof (square_norm_ge m (residual_of (f R Rnum) x) i Hi). assert (residual_of (f R Rnum) x i = 0) by (apply Rsqr_0_uniq; unfold Rsqr; pose proof (Rle_0_sqr (residual_of (f R Rnum) x i)); unfold Rsqr in *; lra). rewrite H0. ring.
  - cbn [leb Rnum] in A. apply Rleb_true in A. unfold gn_gradient in A. rewrite NL in A.
    match type of A with fold_left _ _ _ <= _ => destruct (gradient_fold (mat_vec (length x) m (transpose m (length x) j) (f R Rnum x)) (column_norms qr) b (seq 0 (length x)) 0) as (_ & K & _) end.
    cbv zeta in K. specialize (K c ltac:(apply in_seq; lia)). rewrite NV in K.
    destruct (Req_dec nc 0) as [Z|Z]; [rewrite (CZ Z), Rabs_R0, Z; lra|]. specialize (K Z).
    assert (GV : vget (mat_vec (length x) m (transpose m (length x) j) (f R Rnum x)) c = dot_product m (column (mget j) c) (residual_of (f R Rnum) x)).
    { rewrite vget_mat_vec by exact Hc. unfold times, dot_product. apply bsum_ext. intros k Hk. rewrite mget_transpose by (auto; lia). reflexivity. }
    rewrite GV in K. destruct (Req_dec b 0) as [Zb|Zb].
    + assert (Z2 : dot_product m (column (mget j) c) (residual_of (f R Rnum) x) = 0); [|rewrite Z2, Rabs_R0, Zb; lra].
      unfold b in Zb. apply sqrt_eq_0 in Zb; [|apply square_norm_nonneg]. unfold dot_product. rewrite (bsum_ext _ _ (fun _ => 0)); [apply bsum_0|].
      intros i Hi. pose proof (square_norm_ge m (residual_of (f R Rnum) x) i Hi). assert (residual_of (f R Rnum) x i = 0) by (apply Rsqr_0_uniq; unfold Rsqr; pose proof (Rle_0_sqr (residual_of (f R Rnum) x i)); unfold Rsqr in *; lra). rewrite H0. ring.
    + assert (PB : 0 < b * nc) by (apply Rmult_lt_0_compat; lra).
      unfold Rdiv in K. rewrite Rabs_mult, (Rabs_right (/ (b * nc))) in K by (apply Rle_ge, Rlt_le, Rinv_0_lt_compat, PB).
      assert (K2 : Rabs (dot_product m (column (mget j) c) (residual_of (f R Rnum) x)) * / (b * nc) <= gn_gtol s) by (eapply Rle_trans; [exact K|exact A]).
      apply (Rmult_le_compat_r (b * nc)) in K2; [|lra]. rewrite Rmult_assoc, Rinv_l in K2 by lra. lra.
Qed.

(** With automatic differentiation and a tolerance of zero that is a stationary point: every partial derivative of the cost is zero. *)
Theorem C141_stationary (s : GaussNewton R) es x0 r : es <> [] -> gn_derivator s = autodiff_multi -> gn_gtol s = 0 ->
  let f := formulas es in let x := solution r in
  gn_minimize s f (length es) x0 = Ok r -> (forall p, jacobian (gn_derivator s) f (length es) p <> Panic) -> termination r = Gtol ->
  (forall e, In e es -> smooth_at e x) -> moderate max_value (f R Rnum x) ->
  (forall j, jacobian autodiff_multi f (length es) x = Ok j -> columns_below max_value (length es) (length x) (mget j)) ->
  forall c, (c < length x)%nat -> is_derive (slice (cost (f R Rnum) (length es)) x c) (nth c x 0) 0.
Proof.
  intros NE DV G0 f x E NP TR SM M CB c Hc.
  destruct (C141_gradient s f (length es) x0 r E NP TR ltac:(lra) ltac:(unfold f, formulas; rewrite map_length; reflexivity) M) as (j & J & Q). fold x in J, Q. rewrite DV in J.
  destruct (C123_jacobian_exact es x NE SM) as (j' & J' & _ & S & DE). fold f in J'. rewrite J in J'. injection J' as <-.
  specialize (Q S (CB j J) c Hc). rewrite G0, !Rmult_0_l in Q.
  assert (Z : dot_product (length es) (column (mget j) c) (residual_of (f R Rnum) x) = 0) by (pose proof (Rabs_pos (dot_product (length es) (column (mget j) c) (residual_of (f R Rnum) x))); apply Rabs_eq_0; lra).
  assert (MX : moved x c (nth c x 0) = x). { unfold moved. clear. revert c. induction x as [|a x IH]; intros [|c]; cbn; try reflexivity. rewrite IH. reflexivity. }
  assert (DD : is_derive (fun v => bsum (length es) (fun i => residual_of (f R Rnum) (moved x c v) i * residual_of (f R Rnum) (moved x c v) i)) (nth c x 0)
     (bsum (length es) (fun i => mget j i c * residual_of (f R Rnum) x i + residual_of (f R Rnum) x i * mget j i c))).
  { apply (is_derive_bsum (length es) (fun v i => residual_of (f R Rnum) (moved x c v) i * residual_of (f R Rnum) (moved x c v) i)). intros i Hi.
    destruct (nth_error es i) as [e|] eqn:EE; [|apply nth_error_None in EE; lia].
    assert (RF : forall p, residual_of (f R Rnum) p i = formula e R Rnum p).
    { intros p. unfold residual_of, f, formulas. rewrite (nth_indep _ 0 (formula e R Rnum p)) by (rewrite map_length; exact Hi). rewrite (map_nth (fun e => formula e R Rnum p)). rewrite (nth_error_nth es i e EE). reflexivity. }
    pose proof (DE i c e EE Hc) as D1. rewrite (RF x).
    apply (is_derive_ext (fun v => formula e R Rnum (moved x c v) * formula e R Rnum (moved x c v))); [intros t; rewrite RF; reflexivity|].
    pose proof (is_derive_mult (slice (formula e R Rnum) x c) (slice (formula e R Rnum) x c) (nth c x 0) _ _ D1 D1) as D2.
    unfold slice in D2. rewrite MX in D2. exact D2. }
  unfold slice, cost, square_norm, dot_product.
  apply (is_derive_ext (fun v => / 2 * (bsum (length es) (fun i => residual_of (f R Rnum) (moved x c v) i * residual_of (f R Rnum) (moved x c v) i)))).
  { intros t. apply Rmult_comm. }
  pose proof (is_derive_scal _ _ (/ 2) _ DD) as D3.
  assert (V : / 2 * bsum (length es) (fun i => mget j i c * residual_of (f R Rnum) x i + residual_of (f R Rnum) x i * mget j i c) = 0).
  { rewrite (bsum_ext _ _ (fun i => 2 * (column (mget j) c i * residual_of (f R Rnum) x i))) by (intros; unfold column; ring). rewrite bsum_scal. fold (dot_product (length es) (column (mget j) c) (residual_of (f R Rnum) x)). rewrite Z. ring. }
  rewrite V in D3. exact D3.
Qed.

(** ** Affine residuals *)
Section Affine.
  Variables (m n : nat) (a : mat R) (c : vector).
  (** the residuals [a x + c] *)
  Definition affine (f : VectorFn) : Prop := forall x, length x = n -> f R Rnum x = from_fn m (fun i => times n (mget a) (vget x) i + c i).
  Hypothesis Ha : shape m n a.
  Hypothesis Hb : columns_below max_value m n (mget a).
  Hypothesis Hl : (n <= m)%nat.

  Lemma shifted_get (x step : list R) alpha i : length x = n -> length step = n -> (i < n)%nat -> vget (shifted x step alpha) i = vget x i - alpha * vget step i.
  Proof. intros L1 L2 Hi. unfold shifted, vget. cbn [zero Rnum]. rewrite (nth_map2 _ 0 0) by lia. reflexivity. Qed.
  Lemma affine_shift f x step alpha i : affine f -> length x = n -> length step = n -> (i < m)%nat ->
    vget (f R Rnum (shifted x step alpha)) i = vget (f R Rnum x) i - alpha * times n (mget a) (vget step) i.
  Proof.
    intros A L1 L2 Hi. rewrite (A _ L1), (A (shifted x step alpha)) by (unfold shifted; rewrite map2_length; lia). rewrite !vget_from_fn by exact Hi.
    unfold times. rewrite (bsum_ext n _ (fun k => mget a i k * vget x k - alpha * (mget a i k * vget step k))) by (intros k Hk; rewrite shifted_get by auto; ring).
    rewrite bsum_minus, bsum_scal. ring.
  Qed.
  Lemma affine_length f x : affine f -> length x = n -> length (f R Rnum x) = m.
  Proof. intros A L. rewrite (A x L). apply from_fn_length. Qed.

  (** the only point of least cost *)
  Definition the_best (f : VectorFn) (x : list R) : Prop := length x = n /\ forall y, length y = n -> y = x \/ cost (f R Rnum) m x < cost (f R Rnum) m y.

  Lemma full_step_best f qr x step : affine f -> length x = n -> qr_decompose m n a = Ok qr -> solve_least_squares m n qr (f R Rnum x) = Ok step ->
    length step = n /\ the_best f (shifted x step 1).
  Proof.
    intros A L Q E. destruct (C82_least m n a qr (f R Rnum x) step Hl Ha Hb Q (affine_length f x A L) E) as [LS B]. cbv beta zeta in B.
    split; [exact LS|]. assert (LX : length (shifted x step 1) = n) by (unfold shifted; rewrite map2_length; lia). split; [exact LX|].
    intros y Ly. set (d := fun k => vget x k - vget y k).
    assert (CE : forall q, length q = n -> cost (f R Rnum) m q = square_norm m (fun i => times n (mget a) (fun k => vget x k - vget q k) i - vget (f R Rnum x) i) / 2).
    { intros q Lq. unfold cost. f_equal. unfold square_norm, dot_product. apply bsum_ext. intros i Hi.
      assert (EQ : residual_of (f R Rnum) q i = - (times n (mget a) (fun k => vget x k - vget q k) i - vget (f R Rnum x) i)).
      { unfold residual_of. change (nth i (f R Rnum q) 0) with (vget (f R Rnum q) i). rewrite (A q Lq), (A x L), !vget_from_fn by exact Hi. unfold times.
        rewrite (bsum_ext n (fun k => mget a i k * (vget x k - vget q k)) (fun k => mget a i k * vget x k - mget a i k * vget q k)) by (intros; ring). rewrite bsum_minus. ring. }
      rewrite EQ. ring. }
    rewrite (CE y Ly), (CE _ LX).
    assert (SE : square_norm m (fun i => times n (mget a) (fun k => vget x k - vget (shifted x step 1) k) i - vget (f R Rnum x) i) = square_norm m (fun i => times n (mget a) (vget step) i - vget (f R Rnum x) i)).
    { unfold square_norm, dot_product. apply bsum_ext. intros i Hi. assert (EQ : times n (mget a) (fun k => vget x k - vget (shifted x step 1) k) i = times n (mget a) (vget step) i).
      { unfold times. apply bsum_ext. intros k Hk. rewrite shifted_get by auto. ring. } rewrite EQ. reflexivity. }
    rewrite SE. destruct (B d) as [EQ|LT]; [left|right; unfold d in LT; lra].
    apply (nth_ext _ _ 0 0); [lia|]. intros k Hk. change (vget y k = vget (shifted x step 1) k). rewrite shifted_get by (auto; lia). rewrite <- (EQ k ltac:(lia)). unfold d. ring.
  Qed.

  (** at the best point the gradient is zero *)
  Lemma best_gradient f x : affine f -> the_best f x -> forall k, (k < n)%nat -> times m (transposed (mget a)) (vget (f R Rnum x)) k = 0.
  Proof.
    intros A [L B] k Hk. set (g := times m (transposed (mget a)) (vget (f R Rnum x)) k). destruct (Req_dec g 0) as [|N]; [assumption|exfalso].
    set (e := from_fn n (fun i => if Nat.eqb i k then 1 else 0)). set (q := square_norm m (column (mget a) k)).
    assert (LE : length e = n) by apply from_fn_length.
    assert (AE : forall i, times n (mget a) (vget e) i = mget a i k).
    { intros i. unfold times. rewrite (bsum_ext n _ (fun j => if Nat.eqb j k then mget a i k else 0)); [apply bsum_delta, Hk|]. intros j Hj. unfold e. rewrite vget_from_fn by exact Hj. destruct (Nat.eqb_spec j k) as [->|]; ring. }
    assert (CO : forall t, cost (f R Rnum) m (shifted x e t) = cost (f R Rnum) m x - t * g + t * t * q / 2).
    { intros t. unfold cost, square_norm, dot_product. rewrite (bsum_ext m _ (fun i => residual_of (f R Rnum) x i * residual_of (f R Rnum) x i + (-2 * t * (mget a i k * vget (f R Rnum x) i) + t * t * (mget a i k * mget a i k)))).
      - rewrite !bsum_plus, !bsum_scal. unfold g, q, times, transposed, square_norm, dot_product, column. lra.
      - intros i Hi. unfold residual_of. change (nth i (f R Rnum (shifted x e t)) 0) with (vget (f R Rnum (shifted x e t)) i). rewrite affine_shift, AE by auto. unfold vget. cbn [zero Rnum]. ring. }
    assert (Q0 : 0 <= q) by apply square_norm_nonneg.
    destruct (B (shifted x e (g / (q + 1)))) as [EQ|LT]; [unfold shifted; rewrite map2_length; lia| |].
    - apply (f_equal (fun l => vget l k)) in EQ. rewrite shifted_get in EQ by auto. unfold e in EQ. rewrite vget_from_fn, Nat.eqb_refl in EQ by exact Hk.
      assert (g / (q + 1) <> 0) by (apply Rmult_integral_contrapositive_currified; [exact N|apply Rinv_neq_0_compat; lra]). lra.
    - rewrite CO in LT. replace (cost (f R Rnum) m x - g / (q + 1) * g + g / (q + 1) * (g / (q + 1)) * q / 2) with (cost (f R Rnum) m x - g * g * ((q + 2) / (2 * (q + 1) * (q + 1)))) in LT by (field; lra).
      assert (0 < g * g) by (apply Rsqr_pos_lt in N; exact N). assert (0 < (q + 2) / (2 * (q + 1) * (q + 1))) by (apply Rdiv_lt_0_compat; [lra|nra]). nra.
  Qed.

  Lemma finite_R (l : list R) : vec_is_finite l = true.
  Proof. unfold vec_is_finite. induction l; [reflexivity|exact IHl]. Qed.
  Lemma finite_mat_R (l : mat R) : mat_is_finite l = true.
  Proof. unfold mat_is_finite. apply (finite_R (concat l)). Qed.
  Lemma enorm_vs_cost f x y : affine f -> length x = n -> length y = n -> square_norm m (residual_of (f R Rnum) x) < max_value / (INR m * INR m) ->
    cost (f R Rnum) m y < cost (f R Rnum) m x -> enorm (f R Rnum y) < enorm (f R Rnum x).
  Proof.
    intros A L1 L2 H LT. unfold cost in LT. rewrite !enorm_moderate; try (apply moderate_norm; rewrite affine_length by auto; change (vget (f R Rnum ?z)) with (residual_of (f R Rnum) z); lra).
    - rewrite !affine_length by auto. apply sqrt_lt_1; [apply square_norm_nonneg|apply square_norm_nonneg|]. change (square_norm m (residual_of (f R Rnum) y) < square_norm m (residual_of (f R Rnum) x)). lra.
  Qed.
End Affine.

(** Affine residuals are solved in one step: with the exact jacobian and at least two passes the answer is the only point of least cost,
    unless the gradient test already takes the starting point or the columns are too close to dependent. *)
Theorem C141_affine (s : GaussNewton R) f m n a c x0 : shape m n a -> columns_below max_value m n (mget a) -> (n <= m)%nat -> affine m n a c f -> length x0 = n ->
  (forall x, length x = n -> jacobian (gn_derivator s) f m x = Ok a) -> (2 <= gn_patience s)%nat -> 0 <= gn_gtol s ->
  square_norm m (residual_of (f R Rnum) x0) < max_value / (INR m * INR m) ->
  match gn_minimize s f m x0 with
  | Ok r => solution r = x0 /\ termination r = Gtol \/ the_best m n f (solution r)
  | Err e => e = SoLinalg LaSingular
  | Panic => False
  end.
Proof.
  intros Ha Hb Hl A L J P G NB. unfold gn_minimize. rewrite finite_R. cbn [negb]. destruct (gn_patience s) as [|[|left]]; [lia|lia|]. clear P.
  destruct (proj2 (C81_refuses (T := R) m n a) Hl) as [qr Q].
  cbn [gn_loop]. rewrite L, (J x0 L), finite_mat_R, Q. cbn [negb].
  destruct (enorm (f R Rnum x0) =? zero)%num; [left; auto|].
  destruct (_ <=? gn_gtol s)%num eqn:GT; [left; auto|].
  pose proof (C82_refuses m n a qr (f R Rnum x0) Hl Ha Hb Q (affine_length m n a c f x0 A L)) as [NP SE].
  destruct (solve_least_squares m n qr (f R Rnum x0)) as [step|e|] eqn:SL; [|f_equal; apply (SE e); reflexivity|destruct (NP eq_refl)].
  destruct (full_step_best m n a c Ha Hb Hl f qr x0 step A L Q SL) as [LS BE].
  assert (GZ : forall x, length x = n -> (forall k, (k < n)%nat -> times m (transposed (mget a)) (vget (f R Rnum x)) k = 0) ->
    gn_gradient (mat_vec n m (transpose m n a) (f R Rnum x)) (enorm (f R Rnum x)) (column_norms qr) = 0).
  { intros x Lx Z. unfold gn_gradient. destruct (norms_length _ _ _ _ Q) as [NL _]. rewrite NL.
    destruct (gradient_fold (mat_vec n m (transpose m n a) (f R Rnum x)) (column_norms qr) (enorm (f R Rnum x)) (seq 0 n) 0) as (_ & _ & K). apply K; [|lra].
    intros k Hk. apply in_seq in Hk. rewrite vget_mat_vec by lia. rewrite <- (Z k) by lia. unfold times. apply bsum_ext. intros i Hi. rewrite mget_transpose by lia. reflexivity. }
  assert (LN : gn_line s f x0 step (enorm (f R Rnum x0)) one MAX_BACKTRACK 1 = Ok (1, shifted x0 step 1, f R Rnum (shifted x0 step 1), enorm (f R Rnum (shifted x0 step 1)), 2%nat)).
  { unfold MAX_BACKTRACK. cbn [gn_line]. fold (shifted x0 step (one : R)). rewrite finite_R. cbn [negb andb]. cbn [one Rnum]. destruct (negb (gn_backtracking s)); [reflexivity|].
    replace (ltb _ _) with true; [reflexivity|]. symmetry. cbn [ltb Rnum]. apply Rltb_true. destruct BE as [LB BE].
    apply (enorm_vs_cost m n a c f x0 (shifted x0 step 1) A L LB NB). destruct (BE x0 L) as [EQ|LT]; [|exact LT]. exfalso.
    rewrite GZ in GT; [cbn [leb Rnum] in GT; apply Rleb_false in GT; lra|exact L|]. apply (best_gradient m n a c Hl f x0 A). rewrite EQ. split; [exact LB|exact BE]. }
  rewrite LN. destruct (_ <=? gn_xtol s * _)%num; [right; exact BE|]. destruct (_ <=? gn_ftol s * _)%num; [right; exact BE|].
  destruct BE as [LB BE]. cbn [gn_loop]. rewrite LB, (J _ LB), finite_mat_R, Q. cbn [negb].
  destruct (enorm _ =? zero)%num; [right; split; assumption|].
  rewrite GZ; [|exact LB|apply (best_gradient m n a c Hl f _ A); split; assumption].
  replace (0 <=? gn_gtol s)%num with true by (symmetry; cbn [leb Rnum]; apply Rleb_true; exact G). right. split; assumption.
Qed.

(** ** Backtracking *)

(** In exact arithmetic a step taken with backtracking lowers the norm of the residuals, or none of the 21 trials from the full step down
    to its 2^20th part did. *)
Theorem C141_backtracking_partial (s : GaussNewton R) f m y x step alpha : gn_backtracking s = true -> gn_moves s f m y x step alpha ->
  enorm (f R Rnum x) < enorm (f R Rnum y) \/
  (alpha = / 2 ^ 20 /\ forall k, (k <= 20)%nat -> enorm (f R Rnum y) <= enorm (f R Rnum (shifted y step (/ 2 ^ k)))).
Proof.
  intros B (_ & j & qr & _ & _ & _ & _ & X & k & K & AL & _ & H). destruct (H B) as [H1 H2]. clear H.
  assert (HV : forall i, halved i (one : R) = / 2 ^ i). { induction i as [|i IH]; [cbn; lra|]. change (halved (S i) (one : R)) with (halved i (one : R) * / 2). rewrite IH. cbn [pow]. rewrite Rinv_mult. ring. }
  assert (LW : forall (fn : R) (p : list R), lowers f fn p = true <-> enorm (f R Rnum p) < fn).
  { intros fn p. unfold lowers. rewrite finite_R. cbn [andb]. cbn [ltb Rnum]. split; intros; apply Rltb_true; assumption. }
  destruct (Rlt_dec (enorm (f R Rnum x)) (enorm (f R Rnum y))) as [|N]; [left; assumption|right].
  destruct H2 as [H2|H2]; [apply LW in H2; contradiction|]. subst k. rewrite HV in AL. split; [exact AL|]. intros i Hi.
  destruct (Nat.eq_dec i 20) as [->|]; [rewrite <- AL, <- X; lra|]. specialize (H1 i ltac:(lia)). rewrite HV in H1.
  destruct (Rle_dec (enorm (f R Rnum y)) (enorm (f R Rnum (shifted y step (/ 2 ^ i))))) as [|Q]; [assumption|]. exfalso.
  assert (lowers f (enorm (f R Rnum y)) (shifted y step (/ 2 ^ i)) = true) by (apply LW; lra). congruence.
Qed.

(** The second case is met, and then the answer is worse than the start although it says that the cost stopped decreasing: the residual
    [1 + x + 2^21 x^2] from zero, with the tolerance on the cost at one millionth. *)
Definition valley : VectorFn := fun S NS p => [(one + nth 0 p zero + of_Z (2 ^ 21) * nth 0 p zero * nth 0 p zero)%num].
Definition valley_solver : GaussNewton R :=
  {| gn_derivator := autodiff_multi; gn_ftol := / 1000000; gn_xtol := epsilon_x30; gn_gtol := epsilon_x30; gn_patience := 100; gn_backtracking := true |}.
Lemma one_norm (v : R) : Rabs v <= 3000000 -> enorm [v] = Rabs v.
Proof.
  intros B. rewrite enorm_moderate.
  - unfold square_norm, dot_product. cbn. rewrite Rplus_0_l. fold (Rsqr v). apply sqrt_Rsqr_abs.
  - intros w [<-|[]]. cbn [length INR]. unfold Rdiv. rewrite Rinv_1, Rmult_1_r. eapply Rle_lt_trans; [exact B|].
    apply Rsqr_incrst_0; [|lra|apply sqrt_pos]. rewrite Rsqr_sqrt by (pose proof max_value_pos; lra).
    unfold Rsqr. cbn [max_value Rnum]. apply Rlt_le_trans with (IZR (2 ^ 53 - 1) * 1).
    + rewrite Rmult_1_r, <- mult_IZR. apply IZR_lt. reflexivity.
    + apply Rmult_le_compat_l; [apply IZR_le; intros Q; discriminate Q|]. apply IZR_le. intros Q; vm_compute in Q; discriminate Q.
Qed.
Lemma one_step (b : R) : exists qr, qr_decompose 1 1 [[1 : R]] = Ok qr /\ solve_least_squares 1 1 qr [b] = Ok [b] /\ vget (column_norms qr) 0 = 1.
Proof.
  assert (SH : shape 1 1 [[1 : R]]) by (split; [reflexivity|]; intros [|i] Hi; [reflexivity|lia]).
  assert (CB : columns_below max_value 1 1 (mget [[1 : R]])).
  { intros [|j] Hj; [|lia]. unfold square_norm, dot_product, column. cbn. pose proof max_value_large. lra. }
  destruct (C81_factor 1 1 [[1 : R]] (le_n 1) SH CB) as (f & E & P & QO & RU & PR & SO). exists f. split; [exact E|].
  split.
  - pose proof (C82_refuses 1 1 [[1 : R]] f [b] (le_n 1) SH CB E eq_refl) as [NP SE].
    destruct (solve_least_squares 1 1 f [b]) as [x|e|] eqn:SL; [| |destruct (NP eq_refl)].
    + destruct (C82_least 1 1 [[1 : R]] f [b] x (le_n 1) SH CB E eq_refl SL) as [LX B]. cbv beta zeta in B.
      destruct x as [|v [|]]; try discriminate LX. f_equal. f_equal. destruct (B (fun _ => b)) as [EQ|LT]; [symmetry; apply (EQ 0%nat); lia|].
      unfold square_norm, dot_product, times in LT. cbn in LT. exfalso. pose proof (Rle_0_sqr (v - b)). unfold Rsqr in *. nra.
    + exfalso. destruct (proj1 (SE e) eq_refl) as (_ & i & Hi & T). assert (i = 0)%nat by lia. subst i. unfold too_small in T.
      specialize (PR 0%nat 0%nat ltac:(lia) ltac:(lia)). unfold product in PR. cbn [bsum] in PR.
      assert (NZ : mget (qr_triangular 1 f) 0 0 <> 0).
      { intros Z. rewrite Z in PR. apply Permutation_sym, Permutation_length_1_inv in P. rewrite P in PR. cbn in PR. lra. }
      apply Rabs_pos_lt in NZ. cbn [Nat.max INR] in T. assert (/ IZR (2 ^ 52) < 1). { rewrite <- Rinv_1. apply Rinv_lt_contravar; [rewrite Rmult_1_l|]; apply IZR_lt; reflexivity. } nra.
  - rewrite (norms_value 1 1 [[1 : R]] f SH CB E 0%nat ltac:(lia)). unfold square_norm, dot_product, column. cbn. rewrite Rplus_0_l, Rmult_1_l. apply sqrt_1.
Qed.
Lemma valley_value (x : R) : valley R Rnum [x] = [1 + x + 2097152 * x * x].
Proof. reflexivity. Qed.
Lemma valley_jacobian : jacobian autodiff_multi valley 1 [0 : R] = Ok [[1 : R]].
Proof. unfold jacobian. cbn. do 3 f_equal. ring. Qed.
Theorem C141_backtracking_refuted : exists r, gn_minimize valley_solver valley 1 [0 : R] = Ok r /\ termination r = Ftol /\
  cost (valley R Rnum) 1 [0] < objective_function r /\ objective_function r = cost (valley R Rnum) 1 (solution r).
Proof.
  destruct (one_step (1 + 0 + 2097152 * 0 * 0)) as (qr & Q & SL & CN).
  assert (EN0 : enorm (valley R Rnum [0]) = 1). { rewrite valley_value, one_norm; [rewrite Rabs_right; lra|rewrite Rabs_right; lra]. }
  assert (EV : forall k, (k <= 20)%nat -> let a := / 2 ^ k in enorm (valley R Rnum [0 - a * (1 + 0 + 2097152 * 0 * 0)]) = 1 - a + 2097152 * a * a /\ 1 < 1 - a + 2097152 * a * a).
  { intros k Hk a. assert (A1 : / 2 ^ 20 <= a <= 1).
    { unfold a. split; [apply Rinv_le_contravar; [apply pow_lt; lra|apply Rle_pow; [lra|exact Hk]]|]. rewrite <- Rinv_1. apply Rinv_le_contravar; [lra|]. apply pow_R1_Rle. lra. }
    assert (B1 : / 2 ^ 20 = / 1048576) by (f_equal; ring). rewrite B1 in A1.
    rewrite valley_value. replace (1 + (0 - a * (1 + 0 + 2097152 * 0 * 0)) + 2097152 * (0 - a * (1 + 0 + 2097152 * 0 * 0)) * (0 - a * (1 + 0 + 2097152 * 0 * 0))) with (1 - a + 2097152 * a * a) by ring.
    assert (1 < 1 - a + 2097152 * a * a) by nra. split; [|assumption]. rewrite one_norm; [rewrite Rabs_right; lra|rewrite Rabs_right by lra]. nra. }
  unfold gn_minimize. rewrite finite_R. cbn [negb]. change (gn_patience valley_solver) with 100%nat. cbn [gn_loop]. change (gn_derivator valley_solver) with (@autodiff_multi R Rnum). rewrite valley_jacobian, finite_mat_R. change (length [0]) with 1%nat. rewrite Q, EN0. cbn [negb].
  replace (1 =? zero)%num with false by (symmetry; apply Reqb_false; cbn [zero Rnum]; lra).
  assert (GN : gn_gradient (mat_vec 1 1 (transpose 1 1 [[1 : R]]) (valley R Rnum [0])) 1 (column_norms qr) = 1).
  { unfold gn_gradient. rewrite (proj1 (norms_length _ _ _ _ Q)). cbn [seq fold_left]. rewrite CN. replace (1 =? zero)%num with false by (symmetry; apply Reqb_false; cbn [zero Rnum]; lra). cbn [negb].
    rewrite vget_mat_vec by lia. unfold times. cbn [bsum]. rewrite mget_transpose by lia. rewrite valley_value. unfold pmax, mget, vget. cbn.
    replace ((0 + 1 * (1 + 0 + 2097152 * 0 * 0)) / (1 * 1)) with 1 by field. rewrite Rabs_R1. replace (Rltb 0 1) with true by (symmetry; apply Rltb_true; lra). reflexivity. }
  rewrite GN. assert (EP : 0 < 30 / IZR (2 ^ 52) < / 2097152).
  { assert (LP : 62914560 < IZR (2 ^ 52)) by (apply IZR_lt; reflexivity). split; [apply Rdiv_lt_0_compat; lra|]. apply Rmult_lt_reg_r with (IZR (2 ^ 52) * 2097152); [lra|].
    replace (30 / IZR (2 ^ 52) * (IZR (2 ^ 52) * 2097152)) with 62914560 by (field; lra). replace (/ 2097152 * (IZR (2 ^ 52) * 2097152)) with (IZR (2 ^ 52)) by (field). exact LP. }
  replace (1 <=? gn_gtol valley_solver)%num with false by (symmetry; apply Rleb_false; cbn [valley_solver gn_gtol epsilon_x30 Rnum]; lra).
  rewrite valley_value, SL. set (v := 1 + 0 + 2097152 * 0 * 0) in *.
  pose proof (line_spec valley_solver valley [0] [v] 1 MAX_BACKTRACK one 1) as LS. destruct (gn_line valley_solver valley [0] [v] 1 one MAX_BACKTRACK 1) as [[[[[al xn] rn] fn] ev]|e|] eqn:GL; [| |destruct LS].
  - destruct LS as (k & K & AL & _ & _ & X & RN & _ & FN & H). destruct (H eq_refl) as [_ H2].
    assert (HV : forall i, halved i (one : R) = / 2 ^ i). { induction i as [|i IH]; [cbn; lra|]. change (halved (S i) (one : R)) with (halved i (one : R) * / 2). rewrite IH. cbn [pow]. rewrite Rinv_mult. ring. }
    rewrite HV in AL. destruct (EV k K) as [E1 E2]. rewrite <- AL in E1, E2. assert (XN : xn = [0 - al * v]) by (rewrite X; reflexivity).
    assert (KK : k = 20%nat). { destruct H2 as [H2|H2]; [exfalso|exact H2]. unfold lowers in H2. rewrite finite_R in H2. cbn [andb ltb Rnum] in H2. apply Rltb_true in H2. rewrite XN in H2. unfold v in *. lra. }
    subst k. rewrite <- XN in E1. assert (B1 : al = / 1048576) by (rewrite AL; f_equal; ring).
    assert (FV : fn = 1 + / 1048576) by (rewrite FN, RN; unfold v in *; rewrite E1, B1; lra).
    assert (XV : xn = [- / 1048576]) by (rewrite XN, B1; unfold v; f_equal; lra).
    assert (ENX : enorm xn = / 1048576) by (rewrite XV, one_norm; rewrite Rabs_Ropp, Rabs_right; lra).
    assert (ENS : enorm [v] = 1) by (unfold v; rewrite one_norm; rewrite Rabs_right; lra).
    rewrite ENX, ENS, FV.
    replace (al * 1 <=? gn_xtol valley_solver * / 1048576)%num with false by (symmetry; apply Rleb_false; cbn [valley_solver gn_xtol epsilon_x30 mul Rnum]; rewrite B1; lra).
    match goal with |- context [if ?c then _ else _] => replace c with true end.
    2: { symmetry. apply Rleb_true. cbn [valley_solver gn_ftol abs sub mul Rnum]. rewrite Rabs_left by lra. lra. }
    eexists. split; [reflexivity|]. cbn [report termination objective_function solution]. split; [reflexivity|]. rewrite XV. unfold cost, square_norm, dot_product, residual_of. rewrite !valley_value. cbn. split; lra.
  - exfalso. clear - GL. assert (GF : forall left al ev, exists w, gn_line valley_solver valley [0] [v] 1 al left ev = Ok w); [|destruct (GF MAX_BACKTRACK one 1%nat) as [w W]; rewrite W in GL; discriminate GL].
    clear GL. induction left as [|left IH]; intros al ev; cbn [gn_line]; rewrite !finite_R; cbn [negb andb Nat.eqb orb].
    + cbn [valley_solver gn_backtracking negb]. rewrite orb_true_r. eauto.
    + cbn [valley_solver gn_backtracking negb]. destruct (_ <? _)%num; cbn [orb]; eauto.
Qed.

(** ** A concrete case *)
(** the residual [x - 3] from zero, without tolerances *)
Definition ramp : VectorFn := fun S NS p => [(nth 0 p zero - of_Z 3)%num].
Definition ramp_solver : GaussNewton R :=
  {| gn_derivator := autodiff_multi; gn_ftol := 0; gn_xtol := 0; gn_gtol := 0; gn_patience := 2; gn_backtracking := false |}.
Lemma ramp_jacobian (x : R) : jacobian autodiff_multi ramp 1 [x] = Ok [[1 : R]].
Proof. unfold jacobian. cbn. do 3 f_equal. ring. Qed.
Example C141_example :
  (shape 1 1 [[1 : R]] /\ columns_below max_value 1 1 (mget [[1 : R]]) /\ affine 1 1 [[1]] (fun _ => -3) ramp /\
   (forall x, length x = 1%nat -> jacobian (gn_derivator ramp_solver) ramp 1 x = Ok [[1 : R]]) /\
   square_norm 1 (residual_of (ramp R Rnum) [0]) < max_value / (INR 1 * INR 1)) /\
  exists r, gn_minimize ramp_solver ramp 1 [0 : R] = Ok r /\ solution r = [3] /\ objective_function r = 0.
Proof.
  assert (SH : shape 1 1 [[1 : R]]) by (split; [reflexivity|]; intros [|i] Hi; [reflexivity|lia]).
  assert (CB : columns_below max_value 1 1 (mget [[1 : R]])).
  { intros [|j] Hj; [|lia]. unfold square_norm, dot_product, column. cbn. pose proof max_value_large. lra. }
  assert (AF : affine 1 1 [[1]] (fun _ => -3) ramp). { intros [|x [|]] L; try discriminate L. apply (nth_ext _ _ 0 0); [reflexivity|]. intros [|i] Hi; [|cbn in Hi; lia]. unfold times, mget, vget. cbn. lra. }
  assert (JA : forall x, length x = 1%nat -> jacobian (gn_derivator ramp_solver) ramp 1 x = Ok [[1 : R]]).
  { intros [|x [|]] L; try discriminate L. apply ramp_jacobian. }
  assert (NB : square_norm 1 (residual_of (ramp R Rnum) [0]) < max_value / (INR 1 * INR 1)).
  { replace (square_norm 1 (residual_of (ramp R Rnum) [0])) with 9 by (unfold square_norm, dot_product, residual_of; cbn; ring). cbn [INR]. pose proof max_value_large. lra. }
  split; [repeat (split; [assumption|]); assumption|].
  assert (NE : gn_minimize ramp_solver ramp 1 [0 : R] <> Err (SoLinalg LaSingular)).
  { unfold gn_minimize. rewrite finite_R. cbn [negb]. change (gn_patience ramp_solver) with 2%nat. cbn [gn_loop].
    rewrite (JA [0] eq_refl), finite_mat_R. cbn [negb length]. change (ramp R Rnum [0]) with [0 - 3]. destruct (one_step (0 - 3)) as (qr & Q & SL & _). rewrite Q.
    destruct (_ =? zero)%num; [discriminate|]. destruct (_ <=? gn_gtol _)%num; [discriminate|]. rewrite SL.
    unfold MAX_BACKTRACK. cbn [gn_line map2]. rewrite finite_R. cbn [negb gn_backtracking ramp_solver].
    destruct (_ <=? gn_xtol _ * _)%num; [discriminate|]. destruct (_ <=? gn_ftol _ * _)%num; [discriminate|].
    cbn [gn_loop length]. change (gn_derivator _) with (gn_derivator ramp_solver). rewrite (JA [_] eq_refl), finite_mat_R, Q. cbn [negb].
    destruct (_ =? zero)%num eqn:Z; [discriminate|]. exfalso. cbn [eqb zero Rnum] in Z. apply Reqb_false in Z. apply Z.
    match goal with |- enorm ?l = 0 => change l with [0 - 1 * (0 - 3) - 3] end. replace (0 - 1 * (0 - 3) - 3) with 0 by ring. rewrite one_norm; rewrite Rabs_R0; lra. }
  pose proof (C141_affine ramp_solver ramp 1 1 [[1 : R]] (fun _ => -3) [0] SH CB (le_n 1) AF eq_refl JA (le_n 2) (Rle_refl 0) NB) as K.
  assert (NP : forall p, jacobian (gn_derivator ramp_solver) ramp 1 p <> Panic).
  { intros p. apply C141_autodiff_total. }
  pose proof (C141_report R Rnum ramp_solver ramp 1 [0] NP) as RP.
  destruct (gn_minimize ramp_solver ramp 1 [0]) as [r|e|] eqn:E; [|rewrite K in NE; destruct (NE eq_refl)|destruct K]. exists r. split; [reflexivity|].
  destruct RP as [(_ & OB & _) _].
  assert (SO : solution r = [3]).
  { destruct K as [[K1 K2]|[K1 K2]].
    - exfalso. destruct (C141_gradient ramp_solver ramp 1 [0] r E NP K2 (Rle_refl 0)) as (j & J & H); [rewrite K1; reflexivity| |].
      + rewrite K1. apply moderate_norm. cbn [length]. change (length (ramp R Rnum [0])) with 1%nat. exact NB.
      + rewrite K1 in J, H. rewrite (JA [0] eq_refl) in J. injection J as <-. specialize (H SH CB 0%nat ltac:(cbn; lia)). cbn [ramp_solver gn_gtol] in H. rewrite !Rmult_0_l in H.
        unfold dot_product, column, residual_of in H. cbn in H. replace (0 + 1 * (0 - 3)) with (-3) in H by ring. rewrite Rabs_left in H; lra.
    - destruct (K2 [3] eq_refl) as [EQ|LT]; [symmetry; exact EQ|exfalso]. assert (0 <= cost (ramp R Rnum) 1 (solution r)) by (unfold cost; pose proof (square_norm_nonneg 1 (residual_of (ramp R Rnum) (solution r))); lra).
      unfold cost at 2 in LT. unfold square_norm, dot_product, residual_of in LT. cbn in LT. lra. }
  split; [exact SO|]. rewrite OB, SO. change (ramp R Rnum [3]) with [3 - 3]. replace (3 - 3) with 0 by ring. rewrite one_norm; rewrite Rabs_R0; [cbn; ring|lra].
Qed.

Print Assumptions C141_report.
Print Assumptions C141_autodiff_total.
Print Assumptions C141_refused.
Print Assumptions C141_gradient.
Print Assumptions C141_stationary.
Print Assumptions C141_affine.
Print Assumptions C141_backtracking_partial.
Print Assumptions C141_backtracking_refuted.
Print Assumptions C141_example.
