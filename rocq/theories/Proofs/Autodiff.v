(** Automatic differentiation of formulas: seeds, mixed partial derivatives and their symmetry. *)
From Coq Require Import ZArith List Bool Reals Lra Lia Arith.
From Coquelicot Require Import Coquelicot.
From Verif Require Import Base.Scalar Base.RNum Base.Lists Base.Deriv Base.Series Model.Errors Model.Dual Model.HyperDual Model.Jet Model.Derivative
  Spec.Expr Spec.Derivative Proofs.Value Proofs.Smooth Proofs.Derivative.
Import ListNotations.
Local Open Scope R_scope.
Local Notation length := List.length.

(** exchanging the two directions of a hyper-dual number *)
Definition swapped (h : HyperDual R) : HyperDual R := mkHyper (real h) (eps2 h) (eps1 h) (eps1eps2 h).
Lemma swap_values : Values (@hyper_base R Rnum) (@hyper_base R Rnum) swapped (fun _ => True).
Proof.
  split; intros; try reflexivity;
    repeat match goal with h : HyperDual R |- _ => destruct h end.
  all: cbn; rnum; unfold swapped; cbn; rnum; try reflexivity.
  all: try (f_equal; unfold Rdiv; ring).
  all: unfold hyper_mul, hyper_div, hyper_inv, hyper_abs, hyper_sqrt, hyper_cbrt, hyper_sin, hyper_cos, hyper_tan, hyper_exp, hyper_expm1, hyper_log,
    hyper_ln_1p, hyper_log2, hyper_log10, hyper_atan2, hyper_copysign, hyper_mul, hyper_inv, hyper_chain; cbn; rnum; f_equal; unfold Rdiv; ring.
Qed.

Lemma swap_eval e env : swapped (@eval _ hyper_num env e) = @eval _ hyper_num (fun i => swapped (env i)) e.
Proof. apply (values_eval hyper_base hyper_base swapped _ swap_values). auto. Qed.

(** ** seeds *)
Lemma formula_moved e p i v : (i < length p)%nat -> formula e R Rnum (moved p i v) = eval (fun k => if Nat.eqb k i then v else nth k p 0) e.
Proof.
  intros I. unfold formula. apply eval_ext. intros k. change (@zero R Rnum) with 0. destruct (Nat.eqb_spec k i) as [->|N]; [apply moved_eq; auto|apply moved_neq; auto].
Qed.
Lemma nth_dual_seed i (p : list R) k : (i < length p)%nat ->
  nth k (dual_seed i p) (@zero _ dual_num) = (if Nat.eqb k i then dual_variable (nth k p 0) else dual_constant (nth k p 0)).
Proof.
  intros I. unfold dual_seed. destruct (Nat.eqb_spec k i) as [->|N].
  - rewrite nth_set_nth_eq by (rewrite map_length; auto). reflexivity.
  - rewrite nth_set_nth_neq by auto. change (@zero (Dual R) dual_num) with (dual_constant (NT := Rnum) 0). apply map_nth.
Qed.
Theorem first_partial e p i : smooth_at e p -> (i < length p)%nat ->
  is_derive (slice (formula e R Rnum) p i) (nth i p 0) (deriv (formula e _ dual_num (dual_seed i p))).
Proof.
  intros S I. destruct (dual_partial e (fun k => nth k p 0) i S) as [_ D]. cbv zeta in D.
  unfold formula at 2. rewrite (eval_ext _ _ e (fun k => nth_dual_seed i p k I)).
  revert D. apply is_derive_ext. intros v. unfold slice. rewrite formula_moved by auto. reflexivity.
Qed.

Lemma nth_hyper_seed i j (p : list R) k : (i < length p)%nat -> (j < length p)%nat ->
  nth k (hyper_seed i j p) (@zero _ hyper_num) = mkHyper (nth k p 0) (if Nat.eqb k i then 1 else 0) (if Nat.eqb k j then 1 else 0) 0.
Proof.
  intros I J. unfold hyper_seed. cbv zeta. set (q := map hyper_constant p).
  assert (L : length q = length p) by (unfold q; apply map_length).
  assert (Q : forall d, nth d q (hyper_constant 0) = mkHyper (nth d p 0) 0 0 0) by (intros d; unfold q; rewrite (map_nth hyper_constant); reflexivity).
  change (@zero (HyperDual R) hyper_num) with (hyper_constant (NT := Rnum) 0). change (@zero R Rnum) with 0. change (@one R Rnum) with 1.
  rewrite !Q. cbn [real eps2 eps1eps2].
  destruct (Nat.eqb_spec k j) as [->|NJ].
  - rewrite nth_set_nth_eq by (rewrite set_nth_length; lia). destruct (Nat.eqb_spec j i) as [->|NI].
    + rewrite nth_set_nth_eq by lia. reflexivity.
    + rewrite nth_set_nth_neq by auto. rewrite Q. reflexivity.
  - rewrite nth_set_nth_neq by auto. destruct (Nat.eqb_spec k i) as [->|NI].
    + rewrite nth_set_nth_eq by lia. reflexivity.
    + rewrite nth_set_nth_neq by auto. apply Q.
Qed.
Lemma Derive_shift g a : Derive g a = Derive (fun s => g (a + s)) 0.
Proof.
  unfold Derive. f_equal. apply Lim_ext. intros h. rewrite Rplus_0_l, Rplus_0_r. reflexivity.
Qed.
Lemma second_partial_hyper e p i j : smooth_at e p -> (i < length p)%nat -> (j < length p)%nat ->
  is_derive (slice (partial_of i (formula e R Rnum)) p j) (nth j p 0) (eps1eps2 (formula e _ hyper_num (hyper_seed i j p))).
Proof.
  intros S I J. set (x := fun k => nth k p 0). set (a := fun k => if Nat.eqb k i then 1 else 0). set (b := fun k => if Nat.eqb k j then 1 else 0).
  destruct (hyper_directional e x a b S) as (_ & _ & _ & D).
  unfold formula at 2. rewrite (eval_ext _ _ e (fun k => nth_hyper_seed i j p k I J)).
  change (is_derive (slice (partial_of i (formula e R Rnum)) p j) (nth j p 0) (eps1eps2 (@eval _ hyper_num (fun k => mkHyper (x k) (a k) (b k) 0) e))).
  revert D. generalize (eps1eps2 (@eval _ hyper_num (fun k => mkHyper (x k) (a k) (b k) 0) e)). intros v D.
  apply (is_derive_ext (fun w => (fun t => Derive (fun s => eval (fun k => x k + s * a k + t * b k) e) 0) (w + - nth j p 0))).
  - intros w. unfold slice at 1, partial_of. rewrite (Derive_shift _ (nth i (moved p j w) 0)). apply Derive_ext. intros s. unfold slice.
    unfold formula. apply eval_ext. intros k. change (@zero R Rnum) with 0. unfold x, a, b.
    destruct (Nat.eqb_spec k i) as [->|NI].
    + rewrite moved_eq by (rewrite moved_length; auto). destruct (Nat.eqb_spec i j) as [->|NJ]; [rewrite moved_eq by auto; ring|rewrite moved_neq by auto; ring].
    + rewrite moved_neq by auto. destruct (Nat.eqb_spec k j) as [->|NJ]; [rewrite moved_eq by auto; ring|rewrite moved_neq by auto; ring].
  - apply (is_derive_eq _ _ (v * (1 + 0))); [|ring].
    apply (is_derive_chain (fun t => Derive (fun s => eval (fun k => x k + s * a k + t * b k) e) 0) (fun w => w + - nth j p 0)).
    + cbv beta. replace (nth j p 0 + - nth j p 0) with 0 by ring. exact D.
    + apply (is_derive_sum (fun w => w) (fun _ => - nth j p 0)). apply is_derive_var. apply is_derive_cst.
Qed.
Lemma second_partial_swap e p i j : (i < length p)%nat -> (j < length p)%nat ->
  eps1eps2 (formula e _ hyper_num (hyper_seed i j p)) = eps1eps2 (formula (e) _ hyper_num (hyper_seed j i (p : list R))).
Proof.
  intros I J. unfold formula. rewrite (eval_ext _ _ e (fun k => nth_hyper_seed i j p k I J)), (eval_ext _ _ e (fun k => nth_hyper_seed j i p k J I)).
  match goal with |- _ = eps1eps2 ?r => change (eps1eps2 r) with (eps1eps2 (swapped r)) end. rewrite swap_eval. reflexivity.
Qed.

(** ** the derivative along a direction is linear in the direction *)
Definition mixed (alpha beta : R) (h : HyperDual R) : Dual R := mkDual (real h) (alpha * eps1 h + beta * eps2 h).
Lemma mixed_values alpha beta : Values (@hyper_base R Rnum) (@dual_base R Rnum) (mixed alpha beta) (fun _ => True).
Proof.
  split; intros; try reflexivity;
    repeat match goal with h : HyperDual R |- _ => destruct h end.
  all: cbn; rnum; unfold mixed; cbn; rnum; try reflexivity.
  all: try (f_equal; unfold Rdiv; ring).
  all: unfold hyper_mul, hyper_div, hyper_inv, hyper_abs, hyper_sqrt, hyper_cbrt, hyper_sin, hyper_cos, hyper_tan, hyper_exp, hyper_expm1, hyper_log,
    hyper_ln_1p, hyper_log2, hyper_log10, hyper_atan2, hyper_copysign, hyper_mul, hyper_inv, hyper_chain, 
    dual_mul, dual_div, dual_abs, dual_sqrt, dual_cbrt, dual_sin, dual_cos, dual_tan, dual_exp, dual_expm1, dual_log,
    dual_ln_1p, dual_log2, dual_log10, dual_atan2, dual_copysign; cbn; rnum; f_equal; unfold Rdiv; try rewrite !Rinv_mult; try ring.
  all: try (unfold dual_constant, dual_add, dual_sub, dual_neg, dual_floor, dual_ceil, dual_round, dual_trunc; cbn; rnum; f_equal; ring).
  all: repeat match goal with |- context [if ?b then _ else _] => destruct b end; try ring.
  - destruct (Req_dec real 0) as [->|N]; [rewrite Rinv_0; ring|field; auto].
  - replace (real * real + real0 * real0) with (real0 * real0 + real * real) by ring. ring.
Qed.
Lemma mixed_eval alpha beta (x a b : nat -> R) e :
  @eval _ dual_num (fun k => mkDual (x k) (alpha * a k + beta * b k)) e = mixed alpha beta (@eval _ hyper_num (fun k => mkHyper (x k) (a k) (b k) 0) e).
Proof. symmetry. apply (values_eval hyper_base dual_base (mixed alpha beta) _ (mixed_values alpha beta)). auto. Qed.
(** the derivative of a formula at [x] along [a], as dual arithmetic gives it *)
Definition along (e : expr) (x a : nat -> R) : R := deriv (@eval _ dual_num (fun k => mkDual (x k) (a k)) e).
Lemma along_ext e x a b : (forall k, a k = b k) -> along e x a = along e x b.
Proof. intros H. unfold along. f_equal. apply eval_ext. intros k. rewrite H. reflexivity. Qed.
Lemma along_linear e x a b alpha beta : along e x (fun k => alpha * a k + beta * b k) = alpha * along e x a + beta * along e x b.
Proof.
  assert (A : along e x a = along e x (fun k => 1 * a k + 0 * b k)) by (apply along_ext; intros; ring).
  assert (B : along e x b = along e x (fun k => 0 * a k + 1 * b k)) by (apply along_ext; intros; ring).
  rewrite A, B. unfold along. rewrite !mixed_eval. cbn [mixed deriv]. ring.
Qed.
Definition delta (i k : nat) : R := if Nat.eqb k i then 1 else 0.
Lemma along_sum e x n : forall (a : nat -> R), (forall k, (n <= k)%nat -> a k = 0) -> along e x a = bsum n (fun i => a i * along e x (delta i)).
Proof.
  induction n as [|n IH]; intros a H; cbn [bsum].
  - rewrite (along_ext e x a (fun k => 0 * a k + 0 * a k)), along_linear by (intros k; rewrite H by lia; ring). ring.
  - rewrite (along_ext e x a (fun k => 1 * (if Nat.eqb k n then 0 else a k) + a n * delta n k)).
    + rewrite along_linear, (IH (fun k => if Nat.eqb k n then 0 else a k)).
      * rewrite Rmult_1_l. f_equal. apply bsum_ext. intros i I. destruct (Nat.eqb_spec i n); [lia|reflexivity].
      * intros k K. destruct (Nat.eqb_spec k n); auto. apply H. lia.
    + intros k. unfold delta. destruct (Nat.eqb_spec k n) as [->|]; ring.
Qed.
Lemma along_seed e p i : (i < length p)%nat -> along e (fun k => nth k p 0) (delta i) = deriv (formula e _ dual_num (dual_seed i p)).
Proof.
  intros I. unfold along, formula. f_equal. apply eval_ext. intros k. rewrite nth_dual_seed by auto. unfold delta.
  destruct (Nat.eqb k i); reflexivity.
Qed.
Lemma nth_line p v t k : length v = length p -> nth k (line p v t) 0 = nth k p 0 + t * nth k v 0.
Proof.
  intros L. unfold line. destruct (Nat.lt_ge_cases k (length p)) as [K|K]; [rewrite nth_from_fn; auto|].
  rewrite !nth_overflow by (rewrite ?from_fn_length; lia). ring.
Qed.
Lemma line_line p v s t : length v = length p -> line (line p v s) v t = line p v (s + t).
Proof.
  intros L. apply nth_ext with (d := 0) (d' := 0). unfold line; rewrite !from_fn_length; auto. intros k K.
  assert (Ll : length (line p v s) = length p) by (unfold line; apply from_fn_length).
  rewrite !nth_line by congruence. ring.
Qed.
Theorem directional e p v : length v = length p -> smooth_at e p ->
  is_derive (fun t => formula e R Rnum (line p v t)) 0 (bsum (length p) (fun i => nth i v 0 * deriv (formula e _ dual_num (dual_seed i p)))).
Proof.
  intros L S. destruct (dual_directional e (fun k => nth k p 0) (fun k => nth k v 0) S) as [_ D]. cbv zeta in D.
  fold (along e (fun k => nth k p 0) (fun k => nth k v 0)) in D.
  rewrite (along_sum e _ (length p)) in D by (intros k K; apply nth_overflow; lia).
  rewrite (bsum_ext (length p) _ (fun i => nth i v 0 * deriv (formula e _ dual_num (dual_seed i p)))) in D.
  - revert D. apply is_derive_ext. intros t. apply eval_ext. intros k. change (@zero R Rnum) with 0. symmetry. apply nth_line. auto.
  - intros i I. rewrite along_seed; auto.
Qed.

(** ** second derivatives along directions *)
Definition along2 (e : expr) (x a b : nat -> R) : R := eps1eps2 (@eval _ hyper_num (fun k => mkHyper (x k) (a k) (b k) 0) e).
Lemma along2_ext e x a b a' b' : (forall k, a k = a' k) -> (forall k, b k = b' k) -> along2 e x a b = along2 e x a' b'.
Proof. intros A B. unfold along2. f_equal. apply eval_ext. intros k. rewrite A, B. reflexivity. Qed.
Lemma along2_swap e x a b : along2 e x a b = along2 e x b a.
Proof.
  unfold along2. match goal with |- _ = eps1eps2 ?r => change (eps1eps2 r) with (eps1eps2 (swapped r)) end. rewrite swap_eval. reflexivity.
Qed.
Lemma along2_derive e x a b : smooth x e -> is_derive (fun t => along e (fun k => x k + t * b k) a) 0 (along2 e x a b).
Proof.
  intros S. destruct (hyper_directional e x a b S) as (_ & _ & _ & D).
  apply (is_derive_ext_loc (fun t => Derive (fun s => eval (fun i => x i + s * a i + t * b i) e) 0)); [|exact D].
  assert (N : locally 0 (fun t => smooth (fun k => x k + t * b k) e)).
  { apply smooth_near; [intros i; eexists; apply line_rep|]. apply (smooth_ext x); auto. intros k. ring. }
  revert N. apply filter_imp. intros t St. destruct (dual_directional e (fun k => x k + t * b k) a St) as [_ G]. cbv zeta in G.
  apply is_derive_unique in G. unfold along. rewrite <- G. apply Derive_ext. intros s. apply eval_ext. intros k. ring.
Qed.
Lemma along2_linear e x a a' b alpha beta : smooth x e ->
  along2 e x (fun k => alpha * a k + beta * a' k) b = alpha * along2 e x a b + beta * along2 e x a' b.
Proof.
  intros S. pose proof (along2_derive e x (fun k => alpha * a k + beta * a' k) b S) as D.
  apply is_derive_unique in D. rewrite <- D. apply is_derive_unique.
  apply (is_derive_ext (fun t => alpha * along e (fun k => x k + t * b k) a + beta * along e (fun k => x k + t * b k) a')).
  - intros t. symmetry. apply along_linear.
  - apply (is_derive_sum (fun t => alpha * along e (fun k => x k + t * b k) a) (fun t => beta * along e (fun k => x k + t * b k) a'));
      apply (is_derive_scal (fun t => along e (fun k => x k + t * b k) _) 0); apply along2_derive; auto.
Qed.
Lemma along2_sum e x b n : smooth x e -> forall (a : nat -> R), (forall k, (n <= k)%nat -> a k = 0) -> along2 e x a b = bsum n (fun i => a i * along2 e x (delta i) b).
Proof.
  intros S. induction n as [|n IH]; intros a H; cbn [bsum].
  - rewrite (along2_ext e x a b (fun k => 0 * a k + 0 * a k) b), along2_linear by (auto; intros k; rewrite H by lia; ring). ring.
  - rewrite (along2_ext e x a b (fun k => 1 * (if Nat.eqb k n then 0 else a k) + a n * delta n k) b).
    + rewrite along2_linear, (IH (fun k => if Nat.eqb k n then 0 else a k)) by
        (auto; intros k K; destruct (Nat.eqb_spec k n); auto; apply H; lia).
      rewrite Rmult_1_l. f_equal. apply bsum_ext. intros i I. destruct (Nat.eqb_spec i n); [lia|reflexivity].
    + intros k. unfold delta. destruct (Nat.eqb_spec k n) as [->|]; ring.
    + auto.
Qed.
Lemma along2_seed e p i j : (i < length p)%nat -> (j < length p)%nat ->
  along2 e (fun k => nth k p 0) (delta i) (delta j) = eps1eps2 (formula e _ hyper_num (hyper_seed i j p)).
Proof. intros I J. unfold along2, formula. f_equal. apply eval_ext. intros k. rewrite nth_hyper_seed by auto. reflexivity. Qed.
Theorem directional2 e p v : length v = length p -> smooth_at e p ->
  is_derive (Derive (fun t => formula e R Rnum (line p v t))) 0
    (bsum (length p) (fun i => nth i v 0 * bsum (length p) (fun j => nth j v 0 * eps1eps2 (formula e _ hyper_num (hyper_seed i j p))))).
Proof.
  intros L S. set (x := fun k => nth k p 0). set (w := fun k => nth k v 0).
  assert (Z : forall k, (length p <= k)%nat -> w k = 0) by (intros k K; apply nth_overflow; lia).
  destruct (hyper_directional e x w w S) as (_ & _ & _ & D). fold (along2 e x w w) in D.
  rewrite (along2_sum e x w (length p) S w Z) in D.
  rewrite (bsum_ext (length p) _ (fun i => nth i v 0 * bsum (length p) (fun j => nth j v 0 * eps1eps2 (formula e _ hyper_num (hyper_seed i j p))))) in D.
  - revert D. apply is_derive_ext. intros t. symmetry. rewrite Derive_shift. apply Derive_ext. intros s. apply eval_ext. intros k.
    change (@zero R Rnum) with 0. rewrite nth_line by auto. unfold x, w. ring.
  - intros i I. change (nth i v 0) with (w i). apply f_equal. rewrite along2_swap, (along2_sum e x (delta i) (length p) S w Z). apply bsum_ext. intros j J.
    rewrite along2_swap. unfold x. rewrite along2_seed by auto. reflexivity.
Qed.
