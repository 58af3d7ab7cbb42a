(** C89: the discrete Lyapunov equation. *)
From Coq Require Import ZArith Reals List Bool Arith Lia Lra Psatz.
From Verif Require Import Base.Scalar Base.RNum Base.Lists Base.Series Model.Errors Model.Vector Model.Matrix Model.Riccati.
From Verif Require Import Spec.Matrix Proofs.Matrix Proofs.Qr Proofs.Svd Proofs.Algebra Proofs.Lyapunov Props.Eigen.
Import ListNotations.
Local Open Scope R_scope.

(** What is left of the equation [A'PA - P + Q = 0]. *)
Definition lyapunov_residual n a q p : matrix := plus_matrix (minus_matrix (product n (transposed a) (product n p a)) p) q.

Lemma lyapunov_enters n (a q : mat R) : shape n n a -> shape n n q -> symmetric n (mget q) ->
  solve_discrete_lyapunov n a q = lyapunov_passes n 64 0 q a /\ lyapunov_state n (mget a) (mget q) 0 q a.
Proof.
  intros Sa Sq Y. unfold solve_discrete_lyapunov. rewrite !finite_always. cbn [negb orb]. rewrite exactly_symmetric by auto. cbn [negb]. split; [reflexivity|].
  split; [exact Sq|]. split; [exact Sa|]. change (2 ^ 0)%nat with 1%nat. split; apply equal_sym; [apply discounted_one|apply power_one].
Qed.
Lemma residual_ext n a q p p' : equal n n p p' -> equal n n (lyapunov_residual n a q p) (lyapunov_residual n a q p').
Proof.
  intros H i j Hi Hj. unfold lyapunov_residual, plus_matrix, minus_matrix. rewrite H by auto. f_equal. f_equal. apply product_ext; auto. intros k Hk. apply product_ext; auto.
Qed.

(** An accepted answer is symmetric and is the sum of the first [N] terms of [Q + A'QA + (A^2)'QA^2 + ...], [N] a
    power of two up to 2^64; what it leaves of the equation is exactly the next term, and that is small next to the
    answer. *)
Theorem C89_result n a q p : shape n n a -> shape n n q -> symmetric n (mget q) -> solve_discrete_lyapunov n a q = Ok p ->
  shape n n p /\ symmetric n (mget p) /\ exists k, (1 <= k <= 64)%nat /\
  equal n n (mget p) (discounted n (mget a) (mget q) (2 ^ k)) /\
  equal n n (lyapunov_residual n (mget a) (mget q) (mget p)) (product n (transposed (power n (mget a) (2 ^ k))) (product n (mget q) (power n (mget a) (2 ^ k)))).
Proof.
  intros Sa Sq Y E. destruct (lyapunov_enters n a q Sa Sq Y) as [E1 St]. rewrite E1 in E. pose proof (lyapunov_passes_spec n (mget a) (mget q) Y 64 0 q a St) as H. rewrite E in H.
  destruct H as (k & K & S & D & _). split; [exact S|]. split.
  - intros i j Hi Hj. unfold transposed. rewrite !D by auto. apply discounted_symmetric; auto.
  - exists (Datatypes.S k). split; [lia|]. split; [exact D|]. eapply equal_trans; [apply residual_ext, D|apply discounted_residual].
Qed.
(** A cost that is never negative: neither is what is left of the equation, and at every state it is at most
    30*2^-52 max(|P|, 1) times the square of where the state goes. *)
Lemma discounted_nonneg n a q k : positive_semidefinite n q -> positive_semidefinite n (discounted n a q k).
Proof.
  intros H x. induction k as [|k IH]; [cbn; unfold quadratic, dot_product, times, zero_matrix; rewrite (bsum_ext n _ (fun _ => 0)); [rewrite bsum_0; lra|]; intros; rewrite (bsum_ext n _ (fun _ => 0)) by (intros; ring); rewrite bsum_0; ring|].
  cbn [discounted]. rewrite quadratic_plus, quadratic_sandwich. pose proof (H (times n (power n a k) x)). lra.
Qed.
Theorem C89_residual n a q p : shape n n a -> shape n n q -> symmetric n (mget q) -> positive_semidefinite n (mget q) -> solve_discrete_lyapunov n a q = Ok p ->
  forall x, 0 <= quadratic n (lyapunov_residual n (mget a) (mget q) (mget p)) x <=
    30 / 2 ^ 52 * Rmax (R_sqrt.sqrt (squares_sum n (mget p))) 1 * square_norm n (times n (mget a) x).
Proof.
  intros Sa Sq Y PS E x. destruct (lyapunov_enters n a q Sa Sq Y) as [E1 St]. rewrite E1 in E. pose proof (lyapunov_passes_spec n (mget a) (mget q) Y 64 0 q a St) as H. rewrite E in H.
  destruct H as (k & K & S & D & B). set (A := mget a) in *. set (Q := mget q) in *. set (m := (2 ^ k)%nat) in *. set (P := power n A m) in *.
  assert (R : quadratic n (lyapunov_residual n A Q (mget p)) x = quadratic n Q (times n (power n A (2 ^ Datatypes.S k)) x)).
  { rewrite (quadratic_ext n _ _ x (residual_ext n A Q _ _ D)). unfold lyapunov_residual. rewrite (quadratic_ext n _ _ x (discounted_residual n A Q (2 ^ Datatypes.S k))). apply quadratic_sandwich. }
  rewrite R. split; [apply PS|]. set (y := times n A x).
  assert (I : quadratic n Q (times n (power n A (2 ^ Datatypes.S k)) x) <= quadratic n (product n (transposed P) (product n (discounted n A Q m) P)) y).
  { rewrite quadratic_sandwich. assert (M1 : (1 <= m)%nat) by (unfold m; clear; induction k; cbn; lia). destruct m as [|m'] eqn:Em; [lia|]. cbn [discounted]. rewrite quadratic_plus, quadratic_sandwich.
    pose proof (discounted_nonneg n A Q m' PS (times n P y)) as N0.
    assert (V : equal_vectors n (times n (power n A m') (times n P y)) (times n (power n A (2 ^ Datatypes.S k)) x)).
    { intros i Hi. unfold y. rewrite <- !times_assoc. apply times_ext; [|intros l Hl; reflexivity]. intros l Hl. replace (2 ^ Datatypes.S k)%nat with (m' + Datatypes.S m' + 1)%nat by (cbn [Nat.pow]; rewrite <- Em; unfold m in *; lia).
      rewrite <- (power_plus n A (m' + Datatypes.S m') 1 i l Hi Hl).
      apply product_ext; [intros r Hr; apply (power_plus n A m' (Datatypes.S m')); auto|intros r Hr; symmetry; apply (power_one n A r l); auto]. }
    assert (W : quadratic n Q (times n (power n A m') (times n P y)) = quadratic n Q (times n (power n A (2 ^ Datatypes.S k)) x)).
    { unfold quadratic. apply dot_ext; [exact V|]. intros i Hi. apply times_ext; auto. }
    lra. }
  apply Rle_trans with (1 := I). pose proof (quadratic_bound n (product n (transposed P) (product n (discounted n A Q m) P)) y) as QB.
  apply Rle_trans with (1 := Rle_trans _ _ _ (Rle_abs _) QB). apply Rmult_le_compat_r; [apply square_norm_nonneg|]. apply Rle_trans with (1 := B). rewrite (pow_IZR 2 52). right. reflexivity.
Qed.
(** The certificate: with a cost of at least [q0 |x|^2], an answer accepted with room to spare is an energy that every
    step lowers, and repeated application of [A] shrinks every direction geometrically. *)
Theorem C89_certificate n a q p q0 : shape n n a -> shape n n q -> symmetric n (mget q) -> solve_discrete_lyapunov n a q = Ok p ->
  0 < q0 -> (forall x, q0 * square_norm n x <= quadratic n (mget q) x) ->
  30 / 2 ^ 52 * Rmax (R_sqrt.sqrt (squares_sum n (mget p))) 1 * squares_sum n (mget a) < q0 ->
  (forall x, q0 * square_norm n x <= quadratic n (mget p) x) /\
  (forall x, (exists i, (i < n)%nat /\ x i <> 0) -> quadratic n (mget p) (times n (mget a) x) < quadratic n (mget p) x) /\
  exists rho c, 0 <= rho < 1 /\ forall x k, square_norm n (times n (power n (mget a) k) x) <= c * rho ^ k * square_norm n x.
Proof.
  intros Sa Sq Y E Q0 QL Room.
  assert (PS : positive_semidefinite n (mget q)) by (intros x; specialize (QL x); pose proof (square_norm_nonneg n x); nra).
  pose proof (C89_residual n a q p Sa Sq Y PS E) as Res. destruct (C89_result n a q p Sa Sq Y E) as (Sp & Yp & k & K & D & _).
  set (A := mget a) in *. set (P := mget p) in *. set (tol := 30 / 2 ^ 52 * Rmax (R_sqrt.sqrt (squares_sum n P)) 1) in *.
  assert (T0 : 0 <= tol). { unfold tol. pose proof (Rmax_r (R_sqrt.sqrt (squares_sum n P)) 1). assert (0 < 30 / 2 ^ 52) by (apply Rdiv_lt_0_compat; [lra|apply pow_lt; lra]). nra. }
  set (delta := tol * squares_sum n A) in *.
  assert (Low : forall x, q0 * square_norm n x <= quadratic n P x).
  { intros x. rewrite (quadratic_ext n _ _ x D). destruct (2 ^ k)%nat as [|N] eqn:Z; [exfalso; clear - Z; assert (1 <= 2 ^ k)%nat by (clear; induction k; cbn; lia); lia|].
    replace (Datatypes.S N) with (1 + N)%nat by lia. rewrite (quadratic_ext n _ _ x (discounted_split n A (mget q) 1 N)). rewrite quadratic_plus, (quadratic_ext n _ _ x (discounted_one n A (mget q))), quadratic_sandwich.
    pose proof (discounted_nonneg n A (mget q) N PS (times n (power n A 1) x)). specialize (QL x). lra. }
  assert (Step : forall x, quadratic n P (times n A x) <= quadratic n P x - (q0 - delta) * square_norm n x).
  { intros x. destruct (Res x) as [_ R]. unfold lyapunov_residual in R. rewrite quadratic_plus, quadratic_minus, quadratic_sandwich in R. specialize (QL x).
    pose proof (times_bound n A x) as TB. assert (tol * square_norm n (times n A x) <= delta * square_norm n x) by (unfold delta; nra). lra. }
  split; [exact Low|]. split.
  - intros x (i & Hi & Nx). specialize (Step x). assert (0 < square_norm n x).
    { destruct (square_norm_nonneg n x) as [|Z]; auto. exfalso. apply Nx. apply (square_norm_zero n x); auto. }
    nra.
  - apply (energy_decay n A P q0 (q0 - delta)); auto. lra.
Qed.
(** The doc comment's "a solution exists only when repeated application of A shrinks every direction, so DidNotConverge
    is the verdict that it does not" fails for a small cost: the settling test compares with one. *)
Definition tiny : R := / 2 ^ 60.
Lemma tiny_pos : 0 < tiny. Proof. apply Rinv_0_lt_compat, pow_lt; lra. Qed.
Lemma tiny_accepted : solve_discrete_lyapunov 1 [[3 / 2]] [[tiny]] = Ok [[tiny + 3 / 2 * tiny * (3 / 2)]].
Proof.
  pose proof tiny_pos as U. assert (U1 : tiny * 2 ^ 60 = 1) by (apply Rinv_l; apply pow_nonzero; lra). generalize dependent tiny. intros u U U1.
  assert (Sa : shape 1 1 [[3 / 2]]) by (split; [reflexivity|intros i Hi; destruct i; [reflexivity|lia]]). assert (Sq : shape 1 1 [[u]]) by (split; [reflexivity|intros i Hi; destruct i; [reflexivity|lia]]).
  destruct (lyapunov_enters 1 [[3 / 2]] [[u]] Sa Sq) as [-> St]. { intros i j Hi Hj. assert (i = 0)%nat by lia. assert (j = 0)%nat by lia. subst. reflexivity. }
  change 64%nat with (Datatypes.S 63). generalize 63%nat. intros l. cbn [lyapunov_passes]. rewrite finite_always. change (is_finite _) with true. change (is_finite _) with true. cbn [negb orb].
  assert (I : mat_mul 1 1 1 (mat_mul 1 1 1 (transpose 1 1 [[3 / 2]]) [[u]]) [[3 / 2]] = [[3 / 2 * u * (3 / 2)]]).
  { unfold mat_mul, transpose, mat_fn, from_fn, loop_sum, mget. cbn [seq map fold_left nth]. rnum. f_equal. f_equal. ring. }
  rewrite I. assert (A : average_pairs 1 (mat_add [[u]] [[3 / 2 * u * (3 / 2)]]) = [[u + 3 / 2 * u * (3 / 2)]]) by reflexivity. rewrite A.
  match goal with |- context [leb ?x ?y] => change (leb x y) with (Rleb x (30 / IZR (2 ^ 52) * Rmax (frobenius_norm [[u + 3 / 2 * u * (3 / 2)]]) 1)) end.
  destruct (Rleb _ _) eqn:E; rcases; [reflexivity|]. exfalso. apply (Rlt_not_le _ _ E). clear E.
  assert (Fr : forall z, 0 <= z -> frobenius_norm [[z]] = z). { intros z Hz. unfold frobenius_norm. cbn [concat app fold_left]. rnum. rewrite Rplus_0_l. apply sqrt_square. auto. }
  rewrite !Fr by nra. pose proof (Rmax_r (u + 3 / 2 * u * (3 / 2)) 1) as M. set (mx := Rmax _ _) in *.
  assert (B : 30 / IZR (2 ^ 52) = 30 * 256 * u). { change (IZR (2 ^ 52)) with (IZR (2 ^ Z.of_nat 52)). rewrite <- (pow_IZR 2 52). apply (Rmult_eq_reg_r (2 ^ 52)); [|apply pow_nonzero; lra]. unfold Rdiv. rewrite Rmult_assoc, Rinv_l by (apply pow_nonzero; lra). replace (2 ^ 60) with (256 * 2 ^ 52) in U1 by ring. lra. }
  rewrite B. nra.
Qed.
Lemma growing : forall k, square_norm 1 (times 1 (power 1 (mget [[3 / 2]]) k) (fun _ => 1)) = (9 / 4) ^ k.
Proof.
  induction k as [|k IH]; [cbn; ring|].
  assert (E : times 1 (power 1 (mget [[3 / 2]]) (Datatypes.S k)) (fun _ => 1) 0%nat = 3 / 2 * times 1 (power 1 (mget [[3 / 2]]) k) (fun _ => 1) 0%nat).
  { rewrite iterate_step by lia. unfold times at 1. cbn [bsum]. unfold mget. cbn [nth]. ring. }
  unfold square_norm, dot_product in *. cbn [bsum] in *. rewrite E. cbn [pow]. nra.
Qed.
Theorem C89_verdict_refuted : exists (a q p : mat R), positive_definite 1 (mget q) /\ solve_discrete_lyapunov 1 a q = Ok p /\
  forall k, square_norm 1 (times 1 (power 1 (mget a) k) (fun _ => 1)) = (9 / 4) ^ k.
Proof.
  pose proof tiny_pos as U.
  exists [[3 / 2]], [[tiny]], [[tiny + 3 / 2 * tiny * (3 / 2)]]. split; [|split].
  - intros x (i & Hi & Nx). assert (i = 0)%nat by lia. subst i. cbn. assert (0 < x 0%nat * x 0%nat) by nra. nra.
  - apply tiny_accepted.
  - apply growing.
Qed.
(** A map that shrinks lengths by a fixed factor is accepted. *)
Lemma discounted_size n a q r k : squares_sum n a <= r -> r < 1 -> frobenius n (discounted n a q k) * (1 - r) <= frobenius n q * (1 - r ^ k) /\ forall m, frobenius n (power n a (S m)) * frobenius n (power n a (S m)) <= r ^ S m.
Proof.
  intros A R. pose proof (squares_sum_nonneg n a) as A0.
  assert (PW : forall m, frobenius n (power n a (S m)) * frobenius n (power n a (S m)) <= r ^ S m).
  { induction m as [|m IH].
    - rewrite (frobenius_ext n _ _ (power_one n a)), frobenius_sqr. cbn. lra.
    - cbn [power] in *. rewrite frobenius_sqr in *. apply Rle_trans with (1 := product_bound n _ a). cbn [pow] in *. pose proof (squares_sum_nonneg n (product n (power n a m) a)). nra. }
  split; [|exact PW]. induction k as [|k IH].
  - cbn [discounted pow]. assert (Z : frobenius n zero_matrix = 0). { unfold frobenius, squares_sum, zero_matrix. rewrite (bsum_ext n _ (fun _ => 0)); [rewrite bsum_0; apply sqrt_0|]. intros. rewrite (bsum_ext n _ (fun _ => 0)) by (intros; ring). apply bsum_0. } rewrite Z. lra.
  - cbn [discounted]. pose proof (frobenius_plus n (discounted n a q k) (product n (transposed (power n a k)) (product n q (power n a k)))) as T.
    assert (L : frobenius n (product n (transposed (power n a k)) (product n q (power n a k))) <= frobenius n q * r ^ k).
    { destruct k as [|k].
      - rewrite (frobenius_ext n _ q); [cbn; lra|]. intros i j Hi Hj. cbn [power]. rewrite t_unit, product_unit_l, product_unit_r by auto. reflexivity.
      - pose proof (frobenius_product n (transposed (power n a (S k))) (product n q (power n a (S k)))) as P1. pose proof (frobenius_product n q (power n a (S k))) as P2. rewrite frobenius_transposed in P1. specialize (PW k).
        pose proof (frobenius_nonneg n q) as Q0. set (w := frobenius n (power n a (S k))) in *. pose proof (frobenius_nonneg n (power n a (S k))) as W0. fold w in W0.
        apply Rle_trans with (1 := P1). apply Rle_trans with (w * (frobenius n q * w)); [apply Rmult_le_compat_l; auto|]. nra. }
    cbn [pow]. assert (frobenius n (plus_matrix (discounted n a q k) (product n (transposed (power n a k)) (product n q (power n a k)))) * (1 - r) <= (frobenius n (discounted n a q k) + frobenius n q * r ^ k) * (1 - r)) by (apply Rmult_le_compat_r; lra).
    nra.
Qed.
Theorem C89_accepts n a q r k : shape n n a -> shape n n q -> symmetric n (mget q) -> squares_sum n (mget a) <= r -> r < 1 -> (k < 64)%nat ->
  r ^ (2 ^ k) * R_sqrt.sqrt (squares_sum n (mget q)) <= 30 / 2 ^ 52 * (1 - r) -> exists p, solve_discrete_lyapunov n a q = Ok p.
Proof.
  intros Sa Sq Y A R K B. destruct (lyapunov_enters n a q Sa Sq Y) as [-> St]. pose proof (lyapunov_passes_spec n (mget a) (mget q) Y 64 0 q a St) as H.
  destruct (lyapunov_passes n 64 0 q a) as [p|e|]; [eauto| |contradiction]. exfalso. destruct H as [_ H]. specialize (H k ltac:(lia)).
  set (aa := mget a) in *. set (qq := mget q) in *. set (m := (2 ^ k)%nat) in *.
  destruct (discounted_size n aa qq r m A R) as [DS PW]. pose proof (squares_sum_nonneg n aa) as A0.
  assert (M1 : exists m', m = Datatypes.S m') by (exists (m - 1)%nat; assert (1 <= m)%nat by (unfold m; clear; induction k; cbn; lia); lia). destruct M1 as [m' M1]. specialize (PW m'). rewrite <- M1 in PW.
  change (R_sqrt.sqrt (squares_sum n (product n (transposed (power n aa m)) (product n (discounted n aa qq m) (power n aa m))))) with (frobenius n (product n (transposed (power n aa m)) (product n (discounted n aa qq m) (power n aa m)))) in H.
  pose proof (frobenius_product n (transposed (power n aa m)) (product n (discounted n aa qq m) (power n aa m))) as P1. pose proof (frobenius_product n (discounted n aa qq m) (power n aa m)) as P2. rewrite frobenius_transposed in P1.
  set (w := frobenius n (power n aa m)) in *. set (d := frobenius n (discounted n aa qq m)) in *.
  assert (W0 : 0 <= w) by apply frobenius_nonneg. assert (D0 : 0 <= d) by apply frobenius_nonneg.
  change (R_sqrt.sqrt (squares_sum n qq)) with (frobenius n qq) in B. pose proof (frobenius_nonneg n qq) as Q0.
  assert (RM : 0 <= r ^ m) by (apply pow_le; lra).
  assert (I : frobenius n (product n (transposed (power n aa m)) (product n (discounted n aa qq m) (power n aa m))) <= r ^ m * d).
  { apply Rle_trans with (1 := P1). apply Rle_trans with (w * (d * w)); [apply Rmult_le_compat_l; auto|]. nra. }
  assert (I2 : r ^ m * d * (1 - r) <= r ^ m * frobenius n qq).
  { replace (r ^ m * d * (1 - r)) with (r ^ m * (d * (1 - r))) by ring. apply Rmult_le_compat_l; auto. apply Rle_trans with (1 := DS). assert (0 <= frobenius n qq * r ^ m) by (apply Rmult_le_pos; auto). lra. }
  assert (I3 : r ^ m * d <= 30 / 2 ^ 52) by (apply Rmult_le_reg_r with (1 - r); lra).
  pose proof (Rmax_r (R_sqrt.sqrt (squares_sum n (discounted n aa qq (2 ^ Datatypes.S k)))) 1) as MX. rewrite (pow_IZR 2 52) in I3. set (mx := Rmax _ _) in *. change (IZR (2 ^ Z.of_nat 52)) with (IZR (2 ^ 52)) in I3.
  assert (0 < 30 / IZR (2 ^ 52)) by (apply Rdiv_lt_0_compat; [lra|apply IZR_lt; reflexivity]). nra.
Qed.
(** Refusals, for any scalar. *)
Theorem C89_refuses {T} {NT : Num T} n (a q : mat T) :
  ((exists x, In x (concat a ++ concat q) /\ is_finite x = false) -> solve_discrete_lyapunov n a q = Err LaNonFinite) /\
  ((forall x, In x (concat a ++ concat q) -> is_finite x = true) -> is_symmetric n q = false -> solve_discrete_lyapunov n a q = Err LaNotSymmetric) /\
  ((forall x, In x (concat a ++ concat q) -> is_finite x = true) -> is_symmetric n q = true ->
   (exists p, solve_discrete_lyapunov n a q = Ok p) \/ exists k, (1 <= k <= 64)%nat /\ solve_discrete_lyapunov n a q = Err (LaDidNotConverge k)).
Proof.
  unfold solve_discrete_lyapunov, mat_is_finite. split; [|split].
  - intros (x & Hx & F). destruct (forallb is_finite (concat a)) eqn:E1, (forallb is_finite (concat q)) eqn:E2; try reflexivity. exfalso.
    rewrite forallb_forall in E1, E2. apply in_app_or in Hx. destruct Hx as [Hx|Hx]; [rewrite (E1 x Hx) in F|rewrite (E2 x Hx) in F]; discriminate F.
  - intros F Y. assert (E1 : forallb is_finite (concat a) = true) by (apply forallb_forall; intros x Hx; apply F, in_or_app; auto). assert (E2 : forallb is_finite (concat q) = true) by (apply forallb_forall; intros x Hx; apply F, in_or_app; auto). rewrite E1, E2, Y. reflexivity.
  - intros F Y. assert (E1 : forallb is_finite (concat a) = true) by (apply forallb_forall; intros x Hx; apply F, in_or_app; auto). assert (E2 : forallb is_finite (concat q) = true) by (apply forallb_forall; intros x Hx; apply F, in_or_app; auto). rewrite E1, E2, Y. cbn [negb orb].
    assert (G : forall l p total pow, (1 <= p + l <= 64)%nat -> (exists r, lyapunov_passes n l p total pow = Ok r) \/ exists k, (1 <= k <= 64)%nat /\ lyapunov_passes n l p total pow = Err (LaDidNotConverge k)).
    { induction l as [|l IH]; intros p total pow Hp; [right; exists p; split; [lia|reflexivity]|]. cbn [lyapunov_passes]. cbv zeta.
      match goal with |- context [if ?c then Err _ else _] => destruct c end; [right; exists (p + 1)%nat; split; [lia|reflexivity]|].
      match goal with |- context [if ?c then Ok _ else _] => destruct c end; [left; eauto|]. apply IH. lia. }
    apply G. lia.
Qed.
(** A state that keeps half of itself each step, with unit cost, meets the hypotheses. *)
Example C89_example : exists p, solve_discrete_lyapunov 1 [[/ 2]] [[1]] = Ok p /\ squares_sum 1 (mget [[/ 2]]) = / 4 /\ symmetric 1 (mget [[1]]) /\ positive_semidefinite 1 (mget [[1]]).
Proof.
  assert (Sa : shape 1 1 [[/ 2]]) by (split; [reflexivity|intros i Hi; destruct i; [reflexivity|lia]]). assert (Sq : shape 1 1 [[1]]) by (split; [reflexivity|intros i Hi; destruct i; [reflexivity|lia]]).
  assert (Y : symmetric 1 (mget [[1]])) by (intros i j Hi Hj; assert (i = 0)%nat by lia; assert (j = 0)%nat by lia; subst; reflexivity).
  assert (S4 : squares_sum 1 (mget [[/ 2]]) = / 4) by (unfold squares_sum, mget; cbn [bsum nth]; lra).
  destruct (C89_accepts 1 [[/ 2]] [[1]] (/ 4) 5 Sa Sq Y) as [p E]; [lra|lra|lia| |exists p; split; [exact E|split; [exact S4|split; [exact Y|]]]].
  - assert (Q1 : squares_sum 1 (mget [[1]]) = 1) by (unfold squares_sum, mget; cbn [bsum nth]; lra). rewrite Q1, sqrt_1, Rmult_1_r. change (2 ^ 5)%nat with 32%nat.
    assert (H : / 4 = / 2 ^ 2) by (cbn; lra). rewrite H, pow_inv, <- pow_mult. change (2 * 32)%nat with (52 + 12)%nat. rewrite pow_add. rewrite Rinv_mult.
    assert (0 < / 2 ^ 52) by (apply Rinv_0_lt_compat, pow_lt; lra). assert (/ 2 ^ 12 <= 1) by (rewrite <- Rinv_1; apply Rinv_le_contravar; [lra|cbn; lra]). assert (0 < / 2 ^ 12) by (apply Rinv_0_lt_compat, pow_lt; lra). unfold Rdiv.
    replace (30 * / 2 ^ 52 * (1 - / 2 ^ 2)) with (/ 2 ^ 52 * (30 * (1 - / 2 ^ 2))) by ring. apply Rmult_le_compat_l; [lra|]. apply Rle_trans with 1; [lra|]. cbn. lra.
  - intros x. unfold quadratic, dot_product, times, mget. cbn [bsum nth]. nra.
Qed.

Print Assumptions C89_result.
Print Assumptions C89_residual.
Print Assumptions C89_certificate.
Print Assumptions C89_verdict_refuted.
Print Assumptions C89_accepts.
Print Assumptions C89_refuses.
Print Assumptions C89_example.
