(** C90: the discrete Riccati equation.  C91: the linear quadratic regulator. *)
From Coq Require Import ZArith Reals List Bool Arith Lia Lra Psatz FunctionalExtensionality.
From Verif Require Import Base.Scalar Base.RNum Base.Lists Base.Series Base.Det Model.Errors Model.Vector Model.Matrix Model.Lu Model.Cholesky Model.Riccati.
From Verif Require Import Spec.Matrix Proofs.Matrix Proofs.Lu Proofs.Cholesky Proofs.Qr Proofs.Svd Proofs.Pinv Proofs.Algebra Proofs.Lyapunov Proofs.Riccati.
From Verif Require Import Props.Lu Props.Cholesky Props.Matrix Props.Eigen Props.Lyapunov.
Import ListNotations.
Local Open Scope R_scope.

(** [R + B'PB] and [B'PA]. *)
Definition input_weight (n : nat) (b r p : matrix) : matrix := plus_matrix r (product n (transposed b) (product n p b)).
Definition coupling (n : nat) (a b p : matrix) : matrix := product n (transposed b) (product n p a).
(** What is left of [A'PA - P - (B'PA)'K + Q = 0] where [(R + B'PB) K = B'PA]. *)
Definition equation_rest (n m : nat) (a b q p k : matrix) : matrix :=
  plus_matrix (minus_matrix (minus_matrix (product n (transposed a) (product n p a)) p) (product m (transposed (coupling n a b p)) k)) q.
(** How far off an answer may be. *)
Definition allowed_rest (n : nat) (p : matrix) : R := / 2 ^ 26 * Rmax (R_sqrt.sqrt (squares_sum n p)) 1.
(** The cost of playing [u] in state [x] and going on at cost [x'Px] from where that leads. *)
Definition cost_of_input (n m : nat) (a b r p : matrix) (x u : vector) : R :=
  quadratic m r u + quadratic n p (fun i => times n a x i + times m b u i).

Lemma sandwich_read n k l (b p a : mat R) : shape n k b -> shape n n p -> shape n l a ->
  equal k l (mget (mat_mul k n l (mat_mul k n n (transpose n k b) p) a)) (product n (transposed (mget b)) (product n (mget p) (mget a))).
Proof.
  intros Sb Sp Sa i j Hi Hj. rewrite mget_mul by auto. rewrite <- p_assoc. apply product_ext; [|intros x Hx; reflexivity]. intros x Hx. rewrite mget_mul by auto. apply product_ext; [|intros y Hy; reflexivity].
  intros y Hy. apply mget_transpose; auto.
Qed.
Lemma weight_read n m (b r p : mat R) : shape n m b -> shape m m r -> shape n n p ->
  shape m m (mat_add r (mat_mul m n m (mat_mul m n n (transpose n m b) p) b)) /\
  equal m m (mget (mat_add r (mat_mul m n m (mat_mul m n n (transpose n m b) p) b))) (input_weight n (mget b) (mget r) (mget p)).
Proof.
  intros Sb Sr Sp. split; [apply shape_map2; auto; apply shape_mat_fn|]. eapply equal_trans; [apply mget_add; auto; apply shape_mat_fn|].
  intros i j Hi Hj. unfold input_weight, plus_matrix. f_equal. apply sandwich_read; auto.
Qed.
Lemma sqrt_epsilon : R_sqrt.sqrt (/ IZR (2 ^ 52)) = / 2 ^ 26.
Proof.
  change (2 ^ 52)%Z with (2 ^ Z.of_nat 52)%Z. rewrite <- (pow_IZR 2 52). rewrite <- (sqrt_square (/ 2 ^ 26)) by (left; apply Rinv_0_lt_compat, pow_lt; lra). f_equal. rewrite <- Rinv_mult, <- pow_add. reflexivity.
Qed.

(** What the check at the end leaves. *)
Lemma check_spec n m (a b q r p : mat R) k pp : shape n n a -> shape n m b -> shape n n q -> shape m m r -> symmetric m (mget r) -> shape n n p -> symmetric n (mget p) ->
  riccati_check n m a b q r p k = Ok pp -> pp = p /\
  exists f, cholesky m (mat_add r (mat_mul m n m (mat_mul m n n (transpose n m b) p) b)) = Ok f /\
    let gain := cholesky_solve_matrix m n f (mat_mul m n n (mat_mul m n n (transpose n m b) p) a) in
    shape m n gain /\ equal m n (product m (input_weight n (mget b) (mget r) (mget p)) (mget gain)) (coupling n (mget a) (mget b) (mget p)) /\
    R_sqrt.sqrt (squares_sum n (equation_rest n m (mget a) (mget b) (mget q) (mget p) (mget gain))) <= allowed_rest n (mget p).
Proof.
  intros Sa Sb Sq Sr Yr Sp Yp E. unfold riccati_check in E. destruct (cholesky m _) as [f|e|] eqn:C; try discriminate E. destruct (weight_read n m b r p Sb Sr Sp) as [SW EW].
  assert (YW : symmetric m (mget (mat_add r (mat_mul m n m (mat_mul m n n (transpose n m b) p) b)))) by (apply (weight_symmetric n m (mget b) (mget r) (mget p)); auto).
  rewrite finite_always in E. cbn [negb orb] in E. cbv zeta in E. set (cp := mat_mul m n n (mat_mul m n n (transpose n m b) p) a) in *. set (gain := cholesky_solve_matrix m n f cp) in *.
  destruct (cholesky_solves m n _ f cp SW YW C) as [SG EG]. fold gain in SG, EG.
  match type of E with context [ltb ?x ?y] => change (ltb x y) with (Rltb (R_sqrt.sqrt (/ IZR (2 ^ 52)) * Rmax (frobenius_norm p) 1) (frobenius_norm (mat_add (mat_sub (mat_sub (mat_mul n n n (mat_mul n n n (transpose n n a) p) a) p) (mat_mul n m n (transpose m n cp) gain)) q))) in E end.
  destruct (Rltb _ _) eqn:L; [discriminate E|]. injection E as <-. split; [reflexivity|]. exists f. split; [reflexivity|]. fold cp. fold gain. split; [exact SG|]. split.
  - eapply equal_trans; [|eapply equal_trans; [exact EG|apply sandwich_read; auto]]. intros i j Hi Hj. apply product_ext; [intros l Hl; symmetry; apply EW; auto|intros l Hl; reflexivity].
  - rcases. rewrite sqrt_epsilon in L. rewrite (frobenius_squares n p) in L by auto. unfold allowed_rest. apply Rle_trans with (2 := L). clear L.
    rewrite (frobenius_squares n) by (apply shape_map2; auto; apply shape_map2; [apply shape_map2; auto; apply shape_mat_fn|apply shape_mat_fn]).
    right. change (frobenius n (equation_rest n m (mget a) (mget b) (mget q) (mget p) (mget gain)) = frobenius n (mget (mat_add (mat_sub (mat_sub (mat_mul n n n (mat_mul n n n (transpose n n a) p) a) p) (mat_mul n m n (transpose m n cp) gain)) q))).
    apply frobenius_ext. intros i j Hi Hj. unfold equation_rest, plus_matrix, minus_matrix, mat_add, mat_sub.
    rewrite (mget_map2 add n n) by (auto; try (apply shape_map2; [apply shape_map2; auto; apply shape_mat_fn|apply shape_mat_fn])).
    rewrite (mget_map2 sub n n) by (auto; try apply shape_mat_fn; apply shape_map2; auto; apply shape_mat_fn). rewrite (mget_map2 sub n n) by (auto; apply shape_mat_fn). rnum.
    f_equal. f_equal; [f_equal; symmetry; apply sandwich_read; auto|]. rewrite mget_mul by auto. apply product_ext; [|intros x Hx; reflexivity].
    intros x Hx. rewrite mget_transpose by auto. unfold transposed. symmetry. apply sandwich_read; auto.
Qed.

Lemma riccati_enters n m (a b q r p : mat R) : shape n n a -> shape n m b -> shape n n q -> shape m m r -> symmetric n (mget q) -> symmetric m (mget r) ->
  positive_semidefinite n (mget q) -> solve_discrete_riccati n m a b q r = Ok p ->
  positive_definite m (mget r) /\ shape n n p /\ symmetric n (mget p) /\ (forall x, quadratic n (mget q) x <= quadratic n (mget p) x) /\ exists k, riccati_check n m a b q r p k = Ok p.
Proof.
  intros Sa Sb Sq Sr Yq Yr PQ E. unfold solve_discrete_riccati in E. rewrite !finite_always in E. cbn [negb orb] in E. rewrite !exactly_symmetric in E by auto. cbn [negb orb] in E.
  destruct (cholesky m r) as [f|e|] eqn:C; try discriminate E.
  assert (PR : positive_definite m (mget r)) by (apply (C79_accepts m r Sr Yr); eauto). split; [exact PR|].
  assert (PSR : positive_semidefinite m (mget r)).
  { intros x. destruct (Req_dec (square_norm m x) 0) as [Z|Z].
    - rewrite (quadratic_vec m _ x (fun _ => 0)) by (intros i Hi; apply (square_norm_zero m x); auto). unfold quadratic, dot_product. rewrite (bsum_ext m _ (fun _ => 0)) by (intros; ring). rewrite bsum_0. lra.
    - assert (NZ : exists i, (i < m)%nat /\ x i <> 0).
      { apply Classical_Prop.NNPP. intros N. apply Z. unfold square_norm, dot_product. rewrite (bsum_ext m _ (fun _ => 0)); [apply bsum_0|]. intros i Hi. destruct (Req_dec (x i) 0) as [->|Q]; [ring|]. exfalso. apply N. exists i. auto. }
      left. apply (PR x NZ). }
  set (reach := mat_mul n m n b (cholesky_solve_matrix m n f (transpose n m b))) in *.
  destruct (cholesky_solves m n r f (transpose n m b) Sr Yr C) as [SS ES].
  assert (St : riccati_state n (mget q) a q reach).
  { split; [exact Sa|]. split; [exact Sq|]. split; [apply shape_mat_fn|]. split; [|intros x; lra]. intros x. rewrite (quadratic_ext n (mget reach) (product m (mget b) (mget (cholesky_solve_matrix m n f (transpose n m b)))) x) by (intros i j Hi Hj; unfold reach; apply mget_mul; auto).
    apply (reach_start n m (mget b) (mget r)); auto. eapply equal_trans; [exact ES|]. intros i j Hi Hj. apply mget_transpose; auto. }
  pose proof (riccati_passes_spec n (mget q) PQ 64 0 a q reach St) as H. destruct (riccati_passes n 64 0 a q reach) as [[pp k]|e|]; try discriminate E.
  destruct (H ltac:(lia)) as (Sp & Yp & L). destruct (check_spec n m a b q r pp k p Sa Sb Sq Sr Yr Sp Yp E) as [-> _]. split; [exact Sp|]. split; [exact Yp|]. split; [exact L|]. exists k. exact E.
Qed.
Lemma definite_from_ok m w f : shape m m w -> symmetric m (mget w) -> cholesky m w = Ok f -> positive_definite m (mget w).
Proof. intros S Y E. apply (C79_accepts m w S Y). eauto. Qed.

(** An accepted answer is symmetric, its form is at least the state cost's, the weight it is solved with is positive
    definite, and put back into the equation it leaves no more than 2^-26 max(|P|, 1). *)
Theorem C90_result n m a b q r p : shape n n a -> shape n m b -> shape n n q -> shape m m r -> symmetric n (mget q) -> symmetric m (mget r) ->
  positive_semidefinite n (mget q) -> solve_discrete_riccati n m a b q r = Ok p ->
  positive_definite m (mget r) /\ shape n n p /\ symmetric n (mget p) /\ (forall x, quadratic n (mget q) x <= quadratic n (mget p) x) /\
  positive_definite m (input_weight n (mget b) (mget r) (mget p)) /\
  exists k, equal m n (product m (input_weight n (mget b) (mget r) (mget p)) k) (coupling n (mget a) (mget b) (mget p)) /\
    R_sqrt.sqrt (squares_sum n (equation_rest n m (mget a) (mget b) (mget q) (mget p) k)) <= allowed_rest n (mget p).
Proof.
  intros Sa Sb Sq Sr Yq Yr PQ E. destruct (riccati_enters n m a b q r p Sa Sb Sq Sr Yq Yr PQ E) as (PR & Sp & Yp & L & k & C). destruct (check_spec n m a b q r p k p Sa Sb Sq Sr Yr Sp Yp C) as (_ & f & F & G). cbv zeta in G. destruct G as (SG & EG & RG).
  destruct (weight_read n m b r p Sb Sr Sp) as [SW EW].
  assert (YW : symmetric m (mget (mat_add r (mat_mul m n m (mat_mul m n n (transpose n m b) p) b)))) by (apply (weight_symmetric n m (mget b) (mget r) (mget p)); auto).
  split; [exact PR|]. split; [exact Sp|]. split; [exact Yp|]. split; [exact L|]. split; [|eauto].
  intros x Nx. pose proof (definite_from_ok m _ f SW YW F x Nx) as D. change (0 < quadratic m (input_weight n (mget b) (mget r) (mget p)) x). rewrite <- (quadratic_ext m _ _ x EW). exact D.
Qed.
(** Refusals. *)
Theorem C90_refuses {T} {NT : Num T} n m (a b q r : mat T) :
  ((exists x, In x (concat a ++ concat b ++ concat q ++ concat r) /\ is_finite x = false) -> solve_discrete_riccati n m a b q r = Err LaNonFinite) /\
  ((forall x, In x (concat a ++ concat b ++ concat q ++ concat r) -> is_finite x = true) ->
   (is_symmetric n q && is_symmetric m r = false)%bool -> solve_discrete_riccati n m a b q r = Err LaNotSymmetric) /\
  ((forall x, In x (concat a ++ concat b ++ concat q ++ concat r) -> is_finite x = true) ->
   (is_symmetric n q && is_symmetric m r = true)%bool -> cholesky m r = Err LaNotPositiveDefinite -> solve_discrete_riccati n m a b q r = Err LaNotPositiveDefinite).
Proof.
  assert (A : (forall x, In x (concat a ++ concat b ++ concat q ++ concat r) -> is_finite x = true) -> mat_is_finite a = true /\ mat_is_finite b = true /\ mat_is_finite q = true /\ mat_is_finite r = true).
  { intros F. unfold mat_is_finite. rewrite !forallb_forall. repeat split; intros x Hx; apply F; rewrite !in_app_iff; auto. }
  unfold solve_discrete_riccati. split; [|split].
  - intros (x & Hx & F). destruct (negb (mat_is_finite a) || negb (mat_is_finite b) || negb (mat_is_finite q) || negb (mat_is_finite r))%bool eqn:N; [reflexivity|]. exfalso.
    rewrite !orb_false_iff, !negb_false_iff in N. destruct N as (((N1 & N2) & N3) & N4). unfold mat_is_finite in *. rewrite forallb_forall in N1, N2, N3, N4. rewrite !in_app_iff in Hx.
    assert (is_finite x = true) by (destruct Hx as [Hx|[Hx|[Hx|Hx]]]; auto). congruence.
  - intros F S. destruct (A F) as (-> & -> & -> & ->). cbn [negb orb]. rewrite <- negb_andb, S. reflexivity.
  - intros F S C. destruct (A F) as (-> & -> & -> & ->). cbn [negb orb]. rewrite <- negb_andb, S, C. reflexivity.
Qed.

(** ** The regulator *)
Definition designed (n m : nat) (a b q r : mat R) (c : lqr) : Prop :=
  shape n n a /\ shape n m b /\ shape n n q /\ shape m m r /\ symmetric n (mget q) /\ symmetric m (mget r) /\ positive_semidefinite n (mget q) /\ lqr_new n m a b q r = Ok c.
(** The gain solves [(R + B'PB) K = B'PA], the closed loop is [A - BK], and the cost to go is the Riccati answer. *)
Theorem C91_design n m a b q r c : designed n m a b q r c ->
  solve_discrete_riccati n m a b q r = Ok (lqr_cost_to_go c) /\ shape m n (lqr_gain c) /\ shape n n (lqr_closed_loop c) /\ lqr_state_cost c = q /\
  equal m n (product m (input_weight n (mget b) (mget r) (mget (lqr_cost_to_go c))) (mget (lqr_gain c))) (coupling n (mget a) (mget b) (mget (lqr_cost_to_go c))) /\
  equal n n (mget (lqr_closed_loop c)) (minus_matrix (mget a) (product m (mget b) (mget (lqr_gain c)))) /\
  R_sqrt.sqrt (squares_sum n (equation_rest n m (mget a) (mget b) (mget q) (mget (lqr_cost_to_go c)) (mget (lqr_gain c)))) <= allowed_rest n (mget (lqr_cost_to_go c)).
Proof.
  intros (Sa & Sb & Sq & Sr & Yq & Yr & PQ & E). unfold lqr_new in E. destruct (solve_discrete_riccati n m a b q r) as [p|e|] eqn:S; try discriminate E.
  destruct (riccati_enters n m a b q r p Sa Sb Sq Sr Yq Yr PQ S) as (PR & Sp & Yp & L & k & C). destruct (check_spec n m a b q r p k p Sa Sb Sq Sr Yr Sp Yp C) as (_ & f & F & G). cbv zeta in G. destruct G as (SG & EG & RG).
  cbv zeta in E. rewrite F in E. injection E as <-. cbn [lqr_gain lqr_closed_loop lqr_cost_to_go lqr_state_cost].
  split; [reflexivity|]. split; [exact SG|]. split; [apply shape_map2; auto; apply shape_mat_fn|]. split; [reflexivity|]. split; [exact EG|]. split; [|exact RG].
  intros i j Hi Hj. unfold mat_sub. rewrite (mget_map2 sub n n) by (auto; apply shape_mat_fn). rewrite mget_mul by auto. reflexivity.
Qed.
Lemma control_read n m c x : shape m n (lqr_gain c) -> length x = n -> equal_vectors m (vget (lqr_control n m c x)) (fun i => - times n (mget (lqr_gain c)) (vget x) i).
Proof.
  intros S Lx i Hi. unfold lqr_control, vec_neg, vget. rewrite (nth_indep _ _ (neg zero)) by (rewrite map_length; unfold mat_vec, from_fn; rewrite map_length, seq_length; auto). rewrite map_nth. change (neg (vget (mat_vec m n (lqr_gain c) x) i) = - times n (mget (lqr_gain c)) (vget x) i).
  rewrite vget_mat_vec by auto. reflexivity.
Qed.
Lemma gain_facts n m a b q r c : designed n m a b q r c -> symmetric n (mget (lqr_cost_to_go c)) /\ shape m n (lqr_gain c) /\
  (forall x u, cost_of_input n m (mget a) (mget b) (mget r) (mget (lqr_cost_to_go c)) x u =
     cost_of_input n m (mget a) (mget b) (mget r) (mget (lqr_cost_to_go c)) x (fun i => - times n (mget (lqr_gain c)) x i) +
     quadratic m (input_weight n (mget b) (mget r) (mget (lqr_cost_to_go c))) (fun i => u i + times n (mget (lqr_gain c)) x i)) /\
  (forall x, Rabs (quadratic n (mget q) x + cost_of_input n m (mget a) (mget b) (mget r) (mget (lqr_cost_to_go c)) x (fun i => - times n (mget (lqr_gain c)) x i) - quadratic n (mget (lqr_cost_to_go c)) x)
     <= allowed_rest n (mget (lqr_cost_to_go c)) * square_norm n x).
Proof.
  intros D. destruct (C91_design n m a b q r c D) as (S & SG & _ & _ & EG & _ & RG). destruct D as (Sa & Sb & Sq & Sr & Yq & Yr & PQ & E).
  destruct (C90_result n m a b q r _ Sa Sb Sq Sr Yq Yr PQ S) as (_ & Sp & Yp & _ & PW & _).
  set (p := mget (lqr_cost_to_go c)) in *. set (k := mget (lqr_gain c)) in *. set (w := input_weight n (mget b) (mget r) p) in *.
  assert (EW : equal m m w (plus_matrix (mget r) (product n (transposed (mget b)) (product n p (mget b))))) by apply equal_refl.
  split; [exact Yp|]. split; [exact SG|]. split.
  - intros x u. unfold cost_of_input. pose proof (complete_square n m (mget a) (mget b) (mget r) p w k Yp Yr EW EG x u) as C1. pose proof (complete_square n m (mget a) (mget b) (mget r) p w k Yp Yr EW EG x (fun i => - times n k x i)) as C2. unfold input_form in C1, C2. rewrite C1, C2.
    rewrite (quadratic_vec m w (fun i => - times n k x i + times n k x i) (fun _ => 0)); [|intros i Hi; ring].
    assert (Z : quadratic m w (fun _ => 0) = 0) by (unfold quadratic, dot_product; rewrite (bsum_ext m _ (fun _ => 0)) by (intros; ring); apply bsum_0). rewrite Z. ring.
  - intros x. pose proof (residual_form n m (mget a) (mget b) (mget q) (mget r) p w k Yp Yr EW EG x) as RF. unfold input_form in RF. unfold cost_of_input. rewrite <- RF.
    apply Rle_trans with (1 := quadratic_bound n _ x). apply Rmult_le_compat_r; [apply square_norm_nonneg|]. exact RG.
Qed.
(** The control returned is the one input that costs least now and from the next state on, at every state; and what that
    costs agrees with the cost to go up to 2^-26 max(|P|, 1) |x|^2. *)
Theorem C91_optimal n m a b q r c x : designed n m a b q r c -> length x = n ->
  length (lqr_control n m c x) = m /\
  (forall u, cost_of_input n m (mget a) (mget b) (mget r) (mget (lqr_cost_to_go c)) (vget x) (vget (lqr_control n m c x)) <= cost_of_input n m (mget a) (mget b) (mget r) (mget (lqr_cost_to_go c)) (vget x) u) /\
  (forall u, cost_of_input n m (mget a) (mget b) (mget r) (mget (lqr_cost_to_go c)) (vget x) u = cost_of_input n m (mget a) (mget b) (mget r) (mget (lqr_cost_to_go c)) (vget x) (vget (lqr_control n m c x)) ->
     equal_vectors m u (vget (lqr_control n m c x))) /\
  Rabs (quadratic n (mget q) (vget x) + cost_of_input n m (mget a) (mget b) (mget r) (mget (lqr_cost_to_go c)) (vget x) (vget (lqr_control n m c x)) - quadratic n (mget (lqr_cost_to_go c)) (vget x))
    <= allowed_rest n (mget (lqr_cost_to_go c)) * square_norm n (vget x).
Proof.
  intros D Lx. destruct (gain_facts n m a b q r c D) as (Yp & SG & CS & RB). destruct (C91_design n m a b q r c D) as (S & _). pose proof D as (Sa & Sb & Sq & Sr & Yq & Yr & PQ & _).
  destruct (C90_result n m a b q r _ Sa Sb Sq Sr Yq Yr PQ S) as (_ & _ & _ & _ & PW & _).
  pose proof (control_read n m c x SG Lx) as CR. set (k := mget (lqr_gain c)) in *. set (p := mget (lqr_cost_to_go c)) in *.
  assert (V : cost_of_input n m (mget a) (mget b) (mget r) p (vget x) (vget (lqr_control n m c x)) = cost_of_input n m (mget a) (mget b) (mget r) p (vget x) (fun i => - times n k (vget x) i)).
  { unfold cost_of_input. f_equal; [apply quadratic_vec; exact CR|]. apply quadratic_vec. intros i Hi. f_equal. apply times_ext; [intros l Hl; reflexivity|exact CR]. }
  assert (NN : forall v, 0 <= quadratic m (input_weight n (mget b) (mget r) p) v /\ (quadratic m (input_weight n (mget b) (mget r) p) v = 0 -> equal_vectors m v (fun _ => 0))).
  { intros v. destruct (Classical_Prop.classic (exists i, (i < m)%nat /\ v i <> 0)) as [N|N].
    - pose proof (PW v N) as G. fold (quadratic m (input_weight n (mget b) (mget r) p) v) in G. split; [lra|intros Z; lra].
    - assert (Z : equal_vectors m v (fun _ => 0)) by (intros i Hi; destruct (Req_dec (v i) 0) as [Q|Q]; auto; exfalso; apply N; eauto). split; [|auto]. rewrite (quadratic_vec m _ v (fun _ => 0) Z). unfold quadratic, dot_product. rewrite (bsum_ext m _ (fun _ => 0)) by (intros; ring). rewrite bsum_0. lra. }
  split; [unfold lqr_control, vec_neg, mat_vec, from_fn; rewrite !map_length, seq_length; reflexivity|]. rewrite V. split; [|split].
  - intros u. rewrite (CS (vget x) u). destruct (NN (fun i => u i + times n k (vget x) i)) as [N0 _]. lra.
  - intros u Q. rewrite (CS (vget x) u) in Q. destruct (NN (fun i => u i + times n k (vget x) i)) as [_ N1]. specialize (N1 ltac:(lra)). intros i Hi. rewrite CR by auto. specialize (N1 i Hi). cbv beta in N1. lra.
  - apply RB.
Qed.
Lemma vget_sum (u v : list R) i : (i < length u)%nat -> (i < length v)%nat -> vget (vec_add u v) i = vget u i + vget v i.
Proof. intros H K. unfold vec_add, vget. rewrite (nth_map2 add zero zero zero) by auto. reflexivity. Qed.
Lemma vget_difference (u v : list R) i : (i < length u)%nat -> (i < length v)%nat -> vget (vec_sub u v) i = vget u i - vget v i.
Proof. intros H K. unfold vec_sub, vget. rewrite (nth_map2 sub zero zero zero) by auto. reflexivity. Qed.
(** Applying the control is the closed loop. *)
Theorem C91_closed_loop n m a b q r c x : designed n m a b q r c -> length x = n ->
  equal_vectors n (vget (vec_add (mat_vec n n a x) (mat_vec n m b (lqr_control n m c x)))) (times n (mget (lqr_closed_loop c)) (vget x)).
Proof.
  intros D Lx. destruct (C91_design n m a b q r c D) as (_ & SG & _ & _ & _ & CL & _). pose proof D as (Sa & Sb & _). pose proof (control_read n m c x SG Lx) as CR.
  intros i Hi. rewrite vget_sum by (unfold mat_vec, from_fn; rewrite map_length, seq_length; auto).
  rewrite !vget_mat_vec by auto. rewrite (times_ext n (mget (lqr_closed_loop c)) (minus_matrix (mget a) (product m (mget b) (mget (lqr_gain c)))) (vget x) (vget x) i); [|intros l Hl; apply CL; auto|intros l Hl; reflexivity].
  rewrite (times_ext m (mget b) (mget b) _ (fun l => - times n (mget (lqr_gain c)) (vget x) l) i); [|intros l Hl; reflexivity|exact CR].
  assert (E1 : times n (minus_matrix (mget a) (product m (mget b) (mget (lqr_gain c)))) (vget x) i = times n (mget a) (vget x) i - times n (product m (mget b) (mget (lqr_gain c))) (vget x) i).
  { unfold times. rewrite <- bsum_minus. apply bsum_ext. intros. unfold minus_matrix. ring. }
  rewrite E1, times_product'. 
  assert (E2 : forall y, times m (mget b) (fun l => - y l) i = - times m (mget b) y i).
  { intros y. unfold times. replace (- bsum m (fun k => mget b i k * y k)) with ((-1) * bsum m (fun k => mget b i k * y k)) by ring. rewrite <- bsum_scal. apply bsum_ext. intros; ring. }
  rewrite (E2 (times n (mget (lqr_gain c)) (vget x))). ring.
Qed.
(** Tracking is the feedforward on top of the control for the error; with a feedforward that carries the reference
    along, the error moves by the closed loop. *)
Theorem C91_tracking n m a b q r c x ref ff : designed n m a b q r c -> length x = n -> length ref = n -> length ff = m ->
  equal_vectors m (vget (lqr_control_tracking n m c x ref ff)) (fun i => vget ff i + vget (lqr_control n m c (vec_sub x ref)) i) /\
  equal_vectors n (fun i => (times n (mget a) (vget x) i + times m (mget b) (vget (lqr_control_tracking n m c x ref ff)) i) - (times n (mget a) (vget ref) i + times m (mget b) (vget ff) i))
    (times n (mget (lqr_closed_loop c)) (fun i => vget x i - vget ref i)).
Proof.
  intros D Lx Lr Lf. assert (Ld : length (vec_sub x ref) = n) by (unfold vec_sub; rewrite map2_length; lia).
  assert (Rd : equal_vectors n (vget (vec_sub x ref)) (fun i => vget x i - vget ref i)).
  { intros i Hi. apply vget_difference; lia. }
  destruct (C91_design n m a b q r c D) as (_ & SG & _ & _ & _ & CL & _). pose proof D as (Sa & Sb & _). pose proof (control_read n m c _ SG Ld) as CR.
  assert (T : equal_vectors m (vget (lqr_control_tracking n m c x ref ff)) (fun i => vget ff i + vget (lqr_control n m c (vec_sub x ref)) i)).
  { intros i Hi. rewrite CR by auto. unfold lqr_control_tracking. rewrite vget_difference by (unfold mat_vec, from_fn; rewrite ?map_length, ?seq_length; lia). rewrite vget_mat_vec by auto. reflexivity. }
  split; [exact T|]. intros i Hi. pose proof (C91_closed_loop n m a b q r c (vec_sub x ref) D Ld i Hi) as H.
  rewrite vget_sum in H by (unfold mat_vec, from_fn; rewrite ?map_length, ?seq_length; lia). rewrite !vget_mat_vec in H by auto.
  rewrite (times_ext n (mget (lqr_closed_loop c)) (mget (lqr_closed_loop c)) _ _ i (fun l Hl => eq_refl) Rd) in H. rewrite <- H.
  rewrite (times_ext n (mget a) (mget a) _ _ i (fun l Hl => eq_refl) Rd). rewrite times_minus. rewrite (times_ext m (mget b) (mget b) _ _ i (fun l Hl => eq_refl) T). rewrite times_plus. ring.
Qed.
(** With a state cost of at least [q0 |x|^2] and an answer accepted with room to spare, the loop settles: every state
    shrinks geometrically under the closed loop. *)
Theorem C91_settles n m a b q r c q0 : designed n m a b q r c -> (forall x, q0 * square_norm n x <= quadratic n (mget q) x) -> allowed_rest n (mget (lqr_cost_to_go c)) < q0 ->
  exists rho k0, 0 <= rho < 1 /\ forall x k, square_norm n (times n (power n (mget (lqr_closed_loop c)) k) x) <= k0 * rho ^ k * square_norm n x.
Proof.
  intros D QL Room. destruct (gain_facts n m a b q r c D) as (Yp & SG & CS & RB). destruct (C91_design n m a b q r c D) as (S & _ & _ & _ & _ & CL & _). pose proof D as (Sa & Sb & Sq & Sr & Yq & Yr & PQ & _).
  destruct (C90_result n m a b q r _ Sa Sb Sq Sr Yq Yr PQ S) as (PR & _ & _ & L & _ & _). set (p := mget (lqr_cost_to_go c)) in *.
  assert (A0 : 0 < allowed_rest n p) by (unfold allowed_rest; pose proof (Rmax_r (R_sqrt.sqrt (squares_sum n p)) 1); assert (0 < / 2 ^ 26) by (apply Rinv_0_lt_compat, pow_lt; lra); nra).
  apply (energy_decay n (mget (lqr_closed_loop c)) p q0 (q0 - allowed_rest n p)); [lra|lra|intros x; specialize (QL x); specialize (L x); lra|].
  intros x. specialize (RB x). specialize (QL x). pose proof (Rle_trans _ _ _ (Rle_abs _) RB) as RB'. clear RB. rename RB' into RB. unfold cost_of_input in RB.
  assert (N : 0 <= quadratic m (mget r) (fun i => - times n (mget (lqr_gain c)) x i)).
  { set (v := fun i => - times n (mget (lqr_gain c)) x i). destruct (Classical_Prop.classic (exists i, (i < m)%nat /\ v i <> 0)) as [N|N]; [left; apply (PR v N)|].
    rewrite (quadratic_vec m _ v (fun _ => 0)) by (intros i Hi; destruct (Req_dec (v i) 0) as [Q|Q]; auto; exfalso; apply N; eauto). unfold quadratic, dot_product. rewrite (bsum_ext m _ (fun _ => 0)) by (intros; ring). rewrite bsum_0. lra. }
  assert (E : quadratic n p (fun i => times n (mget a) x i + times m (mget b) (fun i0 => - times n (mget (lqr_gain c)) x i0) i) = quadratic n p (times n (mget (lqr_closed_loop c)) x)).
  { apply quadratic_vec. intros i Hi. rewrite (times_ext n (mget (lqr_closed_loop c)) (minus_matrix (mget a) (product m (mget b) (mget (lqr_gain c)))) x x i); [|intros l Hl; apply CL; auto|intros l Hl; reflexivity].
    assert (E1 : times n (minus_matrix (mget a) (product m (mget b) (mget (lqr_gain c)))) x i = times n (mget a) x i - times n (product m (mget b) (mget (lqr_gain c))) x i).
    { unfold times. rewrite <- bsum_minus. apply bsum_ext. intros. unfold minus_matrix. ring. }
    rewrite E1, times_product'. assert (E2 : forall y, times m (mget b) (fun l => - y l) i = - times m (mget b) y i).
    { intros y. unfold times. replace (- bsum m (fun k => mget b i k * y k)) with ((-1) * bsum m (fun k => mget b i k * y k)) by ring. rewrite <- bsum_scal. apply bsum_ext. intros; ring. }
    rewrite (E2 (times n (mget (lqr_gain c)) x)). ring. }
  rewrite <- E. lra.
Qed.
(** The certificate: symmetric, positive definite, and every fact of C89 about it. *)
Theorem C91_certificate n m a b q r c p : designed n m a b q r c -> lqr_certify_stability n c = Ok p ->
  solve_discrete_lyapunov n (lqr_closed_loop c) q = Ok p /\ shape n n p /\ symmetric n (mget p) /\ positive_definite n (mget p) /\
  forall x, 0 <= quadratic n (lyapunov_residual n (mget (lqr_closed_loop c)) (mget q) (mget p)) x <=
    30 / 2 ^ 52 * Rmax (R_sqrt.sqrt (squares_sum n (mget p))) 1 * square_norm n (times n (mget (lqr_closed_loop c)) x).
Proof.
  intros D E. destruct (C91_design n m a b q r c D) as (_ & _ & SC & SQ & _). pose proof D as (Sa & Sb & Sq & Sr & Yq & Yr & PQ & _). unfold lqr_certify_stability in E. rewrite SQ in E.
  destruct (solve_discrete_lyapunov n (lqr_closed_loop c) q) as [p'|e|] eqn:S; try discriminate E. destruct (cholesky n p') as [f|e|] eqn:C; try discriminate E. injection E as ->.
  destruct (C89_result n _ q p SC Sq Yq S) as (Sp & Yp & _). split; [reflexivity|]. split; [exact Sp|]. split; [exact Yp|]. split; [apply (definite_from_ok n p f); auto|]. apply (C89_residual n _ q p SC Sq Yq PQ S).
Qed.

(** ** One state, one input *)
Lemma shape_one (x : R) : shape 1 1 [[x]].
Proof. split; [reflexivity|intros i Hi; destruct i; [reflexivity|lia]]. Qed.
Lemma shape_one_inv (m : mat R) : shape 1 1 m -> m = [[mget m 0 0]].
Proof.
  intros [S1 S2]. destruct m as [|row [|? ?]]; try discriminate S1. specialize (S2 0%nat ltac:(lia)). cbn in S2. destruct row as [|x [|? ?]]; try discriminate S2. reflexivity.
Qed.
Lemma mul_one (x y : R) : mat_mul 1 1 1 [[x]] [[y]] = [[x * y]].
Proof. unfold mat_mul, mat_fn, from_fn, loop_sum, mget. cbn [seq map fold_left nth]. rnum. f_equal. f_equal. ring. Qed.
Lemma transpose_one (x : R) : transpose 1 1 [[x]] = [[x]]. Proof. reflexivity. Qed.
Lemma symmetric_one (x : R) : symmetric 1 (mget [[x]]).
Proof. intros i j Hi Hj. assert (i = 0)%nat by lia. assert (j = 0)%nat by lia. subst. reflexivity. Qed.
Lemma symmetrized_one (x : R) : symmetrized 1 [[x]] = [[x]]. Proof. reflexivity. Qed.
Lemma frobenius_one (x : R) : frobenius_norm [[x]] = Rabs x.
Proof. rewrite (frobenius_squares 1) by apply shape_one. unfold squares_sum, mget. cbn [bsum nth]. rewrite !Rplus_0_l. apply sqrt_Rsqr_abs. Qed.
Lemma definite_one (x : R) : 0 < x -> positive_definite 1 (mget [[x]]).
Proof. intros P y (i & Hi & Ny). assert (i = 0)%nat by lia. subst i. unfold dot_product, times, mget. cbn [bsum nth]. assert (0 < y 0%nat * y 0%nat) by nra. nra. Qed.
Lemma solve_one (r x : R) : 0 < r -> exists f, cholesky 1 [[r]] = Ok f /\ cholesky_solve_matrix 1 1 f [[x]] = [[x / r]].
Proof.
  intros P. destruct (proj2 (proj1 (C79_accepts 1 [[r]] (shape_one r) (symmetric_one r))) (definite_one r P)) as [f E]. exists f. split; [exact E|].
  destruct (cholesky_solves 1 1 [[r]] f [[x]] (shape_one r) (symmetric_one r) E) as [S D]. rewrite (shape_one_inv _ S). specialize (D 0%nat 0%nat ltac:(lia) ltac:(lia)). unfold product in D. cbn [bsum] in D. change (mget [[r]] 0 0) with r in D. change (mget [[x]] 0 0) with x in D.
  f_equal. f_equal. apply (Rmult_eq_reg_l r); [|lra]. unfold Rdiv. rewrite (Rmult_comm x), <- Rmult_assoc, Rinv_r by lra. lra.
Qed.
Lemma inverse_one (x : R) : 0 < x -> mat_inverse 1 [[x]] = Ok [[/ x]].
Proof.
  intros P. destruct (C78_accepts 1 [[x]] x (shape_one x)) as [y E]; [lia| | |].
  - intros i j Hi Hj. assert (i = 0)%nat by lia. assert (j = 0)%nat by lia. subst. change (mget [[x]] 0 0) with x. rewrite Rabs_pos_eq; lra.
  - rewrite <- C77_determinant by apply shape_one. change (determinant 1 [[x]]) with x. rewrite Rabs_pos_eq by lra. cbn [INR pow]. assert (/ IZR (2 ^ 52) < 1) by (rewrite <- Rinv_1; apply Rinv_lt_contravar; [rewrite Rmult_1_l; apply IZR_lt; reflexivity|apply IZR_lt; reflexivity]). nra.
  - rewrite E. destruct (C78_inverse 1 [[x]] y (shape_one x) E) as (S & D & _). rewrite (shape_one_inv y S). specialize (D 0%nat 0%nat ltac:(lia) ltac:(lia)). unfold product, unit_matrix in D. cbn [bsum Nat.eqb] in D. change (mget [[x]] 0 0) with x in D.
    f_equal. f_equal. f_equal. apply (Rmult_eq_reg_l x); [|lra]. rewrite Rinv_r by lra. lra.
Qed.
Lemma riccati_one (a b q r : R) : 0 <= q -> 0 < r ->
  let c := a * q * (/ (1 + b * (b / r) * q) * a) in let p := q + c in
  c <= 30 / IZR (2 ^ 52) -> Rabs (a * p * a - p - b * p * a * (b * p * a / (r + b * p * b)) + q) <= / 2 ^ 26 ->
  lqr_new 1 1 [[a]] [[b]] [[q]] [[r]] = Ok {| lqr_gain := [[b * p * a / (r + b * p * b)]]; lqr_closed_loop := [[a - b * (b * p * a / (r + b * p * b))]]; lqr_cost_to_go := [[p]]; lqr_state_cost := [[q]] |}.
Proof.
  intros Q P c p Hc Hr. assert (G : 0 <= b * (b / r) * q).
  { apply Rmult_le_pos; auto. unfold Rdiv. rewrite <- Rmult_assoc. apply Rmult_le_pos; [nra|left; apply Rinv_0_lt_compat; auto]. }
  assert (C0 : 0 <= c). { unfold c. assert (0 < / (1 + b * (b / r) * q)) by (apply Rinv_0_lt_compat; lra). set (y := / _) in *. replace (a * q * (y * a)) with (q * y * (a * a)) by ring. apply Rmult_le_pos; [nra|nra]. }
  assert (P0 : 0 <= p) by (unfold p; lra). assert (W0 : 0 < r + b * p * b) by nra.
  assert (S : solve_discrete_riccati 1 1 [[a]] [[b]] [[q]] [[r]] = Ok [[p]]).
  { unfold solve_discrete_riccati. rewrite !finite_always. cbn [negb orb]. rewrite !exactly_symmetric by apply symmetric_one. cbn [negb orb]. destruct (solve_one r b P) as (f & -> & F). rewrite transpose_one, F, mul_one.
    change 64%nat with (Datatypes.S 63). generalize 63%nat. intros l. cbn [riccati_passes]. rewrite mul_one. change (mat_add (identity 1) [[b * (b / r) * q]]) with [[1 + b * (b / r) * q]]. rewrite inverse_one by lra.
    cbv zeta. repeat (rewrite mul_one || rewrite transpose_one). rewrite !finite_always. fold c. change (mat_add [[q]] [[c]]) with [[q + c]]. rewrite symmetrized_one. fold p.
    change (is_finite (frobenius_norm [[c]])) with true. change (is_finite (frobenius_norm [[p]])) with true. cbn [negb orb].
    match goal with |- context [leb ?x ?y] => change (leb x y) with (Rleb (frobenius_norm [[c]]) (30 / IZR (2 ^ 52) * Rmax (frobenius_norm [[p]]) 1)) end.
    assert (L : Rleb (frobenius_norm [[c]]) (30 / IZR (2 ^ 52) * Rmax (frobenius_norm [[p]]) 1) = true).
    { destruct (Rleb _ _) eqn:E; rcases; [reflexivity|]. exfalso. apply (Rlt_not_le _ _ E). rewrite !frobenius_one, (Rabs_pos_eq c) by lra. pose proof (Rmax_r (Rabs p) 1). assert (0 < 30 / IZR (2 ^ 52)) by (apply Rdiv_lt_0_compat; [lra|apply IZR_lt; reflexivity]). nra. }
    rewrite L. unfold riccati_check. repeat (rewrite mul_one || rewrite transpose_one). change (mat_add [[r]] [[b * p * b]]) with [[r + b * p * b]]. destruct (solve_one (r + b * p * b) (b * p * a) W0) as (g & -> & F'). rewrite F'.
    repeat (rewrite mul_one || rewrite transpose_one). cbv zeta. repeat (rewrite mul_one || rewrite transpose_one). change (mat_sub [[a * p * a]] [[p]]) with [[a * p * a - p]].
    match goal with |- context [mat_sub [[?x]] [[?y]]] => change (mat_sub [[x]] [[y]]) with [[x - y]] end. match goal with |- context [mat_add [[?x]] [[q]]] => change (mat_add [[x]] [[q]]) with [[x + q]] end.
    rewrite finite_always. cbn [negb orb]. match goal with |- context [ltb ?x ?y] => change (ltb x y) with (Rltb (R_sqrt.sqrt (/ IZR (2 ^ 52)) * Rmax (frobenius_norm [[p]]) 1) y) end.
    destruct (Rltb _ _) eqn:E; rcases; [|reflexivity]. exfalso. apply (Rlt_not_le _ _ E). rewrite sqrt_epsilon, !frobenius_one. pose proof (Rmax_r (Rabs p) 1). assert (0 < / 2 ^ 26) by (apply Rinv_0_lt_compat, pow_lt; lra). apply Rle_trans with (1 := Hr). nra. }
  unfold lqr_new. rewrite S. cbv zeta. repeat (rewrite mul_one || rewrite transpose_one). change (mat_add [[r]] [[b * p * b]]) with [[r + b * p * b]]. destruct (solve_one (r + b * p * b) (b * p * a) W0) as (g & -> & F'). rewrite F', mul_one. reflexivity.
Qed.
Lemma designed_one a b q r c : 0 <= q -> lqr_new 1 1 [[a]] [[b]] [[q]] [[r]] = Ok c -> designed 1 1 [[a]] [[b]] [[q]] [[r]] c.
Proof.
  intros Q E. repeat (split; [apply shape_one||apply symmetric_one|]). split; [|exact E]. intros x. unfold quadratic, dot_product, times, mget. cbn [bsum nth]. nra.
Qed.
(** "Checks that the loop this controller closes actually settles" and "failing to find one is the verdict that the loop
    does not settle" fail for a small state cost: a state that grows by half every step and that no input reaches is
    certified. *)
Theorem C91_certificate_refuted : exists a b q r c p, designed 1 1 a b q r c /\ positive_definite 1 (mget q) /\ lqr_certify_stability 1 c = Ok p /\
  forall k, square_norm 1 (times 1 (power 1 (mget (lqr_closed_loop c)) k) (fun _ => 1)) = (9 / 4) ^ k.
Proof.
  pose proof tiny_pos as U. assert (U1 : tiny * 2 ^ 60 = 1) by (apply Rinv_l; apply pow_nonzero; lra).
  exists [[3 / 2]], [[0]], [[tiny]], [[1]]. eexists. exists [[tiny + 3 / 2 * tiny * (3 / 2)]]. split; [apply designed_one; [lra|]; apply riccati_one; [lra|lra| |]|].
  - replace (1 + 0 * (0 / 1) * tiny) with 1 by lra. rewrite Rinv_1, Rmult_1_l.
    assert (B : 30 / IZR (2 ^ 52) = 30 * 256 * tiny). { change (IZR (2 ^ 52)) with (IZR (2 ^ Z.of_nat 52)). rewrite <- (pow_IZR 2 52). apply (Rmult_eq_reg_r (2 ^ 52)); [|apply pow_nonzero; lra]. unfold Rdiv. rewrite Rmult_assoc, Rinv_l by (apply pow_nonzero; lra). replace (2 ^ 60) with (256 * 2 ^ 52) in U1 by ring. lra. }
    rewrite B. lra.
  - replace (1 + 0 * (0 / 1) * tiny) with 1 by lra. rewrite Rinv_1, Rmult_1_l. rewrite !Rmult_0_l. rewrite Rabs_pos_eq by nra.
    assert (B : / 2 ^ 26 = 2 ^ 34 * tiny). { unfold tiny. apply (Rmult_eq_reg_r (2 ^ 60)); [|apply pow_nonzero; lra]. rewrite Rmult_assoc, Rinv_l by (apply pow_nonzero; lra). replace (2 ^ 60) with (2 ^ 26 * 2 ^ 34) by (rewrite <- pow_add; reflexivity). rewrite <- Rmult_assoc, Rinv_l by (apply pow_nonzero; lra). ring. }
    rewrite B. assert (16 <= 2 ^ 34) by (replace 34%nat with (4 + 30)%nat by lia; rewrite pow_add; pose proof (pow_R1_Rle 2 30); lra). nra.
  - cbn [lqr_closed_loop]. replace (3 / 2 - 0 * _) with (3 / 2) by ring. split; [apply definite_one; exact U|]. split.
    + unfold lqr_certify_stability. cbn [lqr_closed_loop lqr_state_cost]. replace (3 / 2 - 0 * _) with (3 / 2) by ring. rewrite tiny_accepted. destruct (solve_one (tiny + 3 / 2 * tiny * (3 / 2)) 0 ltac:(nra)) as (f & -> & _). reflexivity.
    + apply growing.
Qed.
(** A state that keeps one part in 2^30 each step, unit costs: the design is accepted, the gain is not zero, and the room
    asked for by C91_settles is there. *)
Example C90_example : exists c, designed 1 1 [[/ 2 ^ 30]] [[1]] [[1]] [[1]] c /\ (exists p, solve_discrete_riccati 1 1 [[/ 2 ^ 30]] [[1]] [[1]] [[1]] = Ok p) /\ mget (lqr_gain c) 0 0 > 0 /\ allowed_rest 1 (mget (lqr_cost_to_go c)) < 1.
Proof.
  set (e := / 2 ^ 30). assert (E0 : 0 < e) by (apply Rinv_0_lt_compat, pow_lt; lra). assert (E1 : e * 2 ^ 30 = 1) by (apply Rinv_l, pow_nonzero; lra).
  assert (E2 : e * e * 2 ^ 52 <= 1).
  { replace (2 ^ 52) with (2 ^ 30 * 2 ^ 22) by (rewrite <- pow_add; reflexivity). replace (e * e * (2 ^ 30 * 2 ^ 22)) with ((e * 2 ^ 30) * (e * 2 ^ 22)) by ring. rewrite E1, Rmult_1_l. rewrite <- E1. apply Rmult_le_compat_l; [lra|]. apply Rle_pow; [lra|lia]. }
  set (d := 30 / IZR (2 ^ 52)). assert (D : d = 30 * / 2 ^ 52) by (unfold d; change (IZR (2 ^ 52)) with (IZR (2 ^ Z.of_nat 52)); rewrite <- (pow_IZR 2 52); reflexivity).
  assert (I52 : / 2 ^ 52 * 2 ^ 52 = 1) by (apply Rinv_l, pow_nonzero; lra). assert (P52 : 0 < / 2 ^ 52) by (apply Rinv_0_lt_compat, pow_lt; lra).
  assert (E3 : e * e <= / 2 ^ 52). { apply Rmult_le_reg_r with (2 ^ 52); [apply pow_lt; lra|]. lra. }
  assert (Es : / 2 ^ 52 <= / 2 ^ 26 * / 4). { rewrite <- Rinv_mult. apply Rinv_le_contravar; [apply Rmult_lt_0_compat; [apply pow_lt; lra|lra]|]. replace (2 ^ 52) with (2 ^ 26 * 2 ^ 26) by (rewrite <- pow_add; reflexivity). apply Rmult_le_compat_l; [apply pow_le; lra|]. replace 26%nat with (2 + 24)%nat by lia. rewrite pow_add. pose proof (pow_R1_Rle 2 24). lra. }
  assert (P26 : 0 < / 2 ^ 26) by (apply Rinv_0_lt_compat, pow_lt; lra). assert (L26 : / 2 ^ 26 <= / 16). { apply Rinv_le_contravar; [lra|]. replace 26%nat with (4 + 22)%nat by lia. rewrite pow_add. pose proof (pow_R1_Rle 2 22). lra. }
  set (c := e * 1 * (/ (1 + 1 * (1 / 1) * 1) * e)). assert (C : c = e * e / 2) by (unfold c; field). set (p := 1 + c).
  assert (P1 : 1 <= p <= 1 + / 32) by (unfold p; rewrite C; split; nra).
  assert (N : lqr_new 1 1 [[e]] [[1]] [[1]] [[1]] = Ok {| lqr_gain := [[1 * p * e / (1 + 1 * p * 1)]]; lqr_closed_loop := [[e - 1 * (1 * p * e / (1 + 1 * p * 1))]]; lqr_cost_to_go := [[p]]; lqr_state_cost := [[1]] |}).
  { apply (riccati_one e 1 1 1); [lra|lra| |]; fold c; fold p.
    - fold d. rewrite D. rewrite C. lra.
    - replace (e * p * e - p - 1 * p * e * (1 * p * e / (1 + 1 * p * 1)) + 1) with (e * e * (p - p * p / (1 + p)) + (1 - p)) by (field; lra). assert (C' : 1 - p = - (e * e / 2)) by (unfold p; lra). rewrite C'. clear C'.
      assert (F : p * p / (1 + p) = p - p / (1 + p)) by (field; lra). rewrite F. assert (G : 0 <= p / (1 + p) <= 1) by (split; [apply le_over; lra|apply over_le; lra]). apply Rabs_le. split; nra. }
  eexists. split; [apply designed_one; [lra|exact N]|]. split; [|split].
  - unfold lqr_new in N. destruct (solve_discrete_riccati 1 1 [[e]] [[1]] [[1]] [[1]]) as [pp|x|]; [eauto|discriminate N|discriminate N].
  - cbn [lqr_gain]. unfold mget. cbn [nth]. apply Rlt_gt, Rdiv_lt_0_compat; nra.
  - cbn [lqr_cost_to_go]. unfold allowed_rest. rewrite <- (frobenius_squares 1) by apply shape_one. rewrite frobenius_one, Rabs_pos_eq by lra. rewrite Rmax_left by lra. nra.
Qed.

Print Assumptions C90_result.
Print Assumptions C90_refuses.
Print Assumptions C91_design.
Print Assumptions C91_optimal.
Print Assumptions C91_closed_loop.
Print Assumptions C91_tracking.
Print Assumptions C91_settles.
Print Assumptions C91_certificate.
Print Assumptions C91_certificate_refuted.
Print Assumptions C90_example.
