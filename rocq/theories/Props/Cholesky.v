(** C79-C80: the Cholesky factorization. *)
From Coq Require Import ZArith Reals List Bool Arith Lia Lra.
From Flocq Require Import Core IEEE754.BinarySingleNaN.
From Verif Require Import Base.Scalar Base.RNum Base.FNum Base.Lists Base.Series Base.Det.
From Verif Require Import Model.Errors Model.Vector Model.Matrix Model.Lu Model.Cholesky Spec.Matrix Proofs.Matrix Proofs.Lu Proofs.Cholesky.
Import ListNotations.
Local Open Scope R_scope.

(** A symmetric matrix is accepted exactly when it is positive definite, and refused as not positive definite otherwise. *)
Theorem C79_accepts n m : shape n n m -> symmetric n (mget m) ->
  ((exists l, cholesky n m = Ok l) <-> positive_definite n (mget m)) /\
  (cholesky n m = Err LaNotPositiveDefinite <-> ~ positive_definite n (mget m)).
Proof.
  intros H Sy. pose proof (cholesky_spec n m) as C. destruct (cholesky n m) as [l|e|] eqn:E; [|destruct C as [-> C]|destruct C].
  - pose proof (placed_definite n m l C Sy) as D. split; split; intros Q; auto. exists l; auto. discriminate. contradiction.
  - specialize (C Sy). split; split; intros Q; auto. destruct Q; discriminate. contradiction.
Qed.
(** The factor is lower triangular with a positive diagonal, and times its transpose it is the matrix. *)
Theorem C79_factor n m l : shape n n m -> symmetric n (mget m) -> cholesky n m = Ok l ->
  lower_triangular n (mget l) /\ (forall i, (i < n)%nat -> 0 < mget l i i) /\
  equal n n (product n (mget l) (transposed (mget l))) (mget m).
Proof.
  intros H Sy E. pose proof (cholesky_spec n m) as C. rewrite E in C. split; [|split].
  - intros i j Hi Hj L. apply (placed_zero _ _ _ _ C); auto.
  - apply (placed_positive _ _ _ _ C).
  - apply (placed_full _ _ _ C Sy).
Qed.
(** Only the lower triangle is read: matrices that agree on it have the same factor. *)
Theorem C79_reads_lower n m m' l : shape n n m -> shape n n m' ->
  (forall i j, (i < n)%nat -> (j <= i)%nat -> mget m i j = mget m' i j) -> cholesky n m = Ok l -> cholesky n m' = Ok l.
Proof.
  intros H H' A E. rewrite <- E. unfold cholesky. generalize (mat_zeros n n : mat R). 
  assert (R : forall j, In j (range 0 n) -> (j < n)%nat) by (intros j Hj; apply in_range in Hj; lia). revert R.
  induction (range 0 n) as [|j js IH]; intros R l0; [reflexivity|]. cbn [cholesky_columns].
  replace (cholesky_column n m' j l0) with (cholesky_column n m j l0).
  { destruct (cholesky_column n m j l0); auto. apply IH. intros k Hk. apply R. right; exact Hk. }
  assert (Hj : (j < n)%nat) by (apply R; left; reflexivity).
  unfold cholesky_column. rewrite (A j j) by lia. match goal with |- (if ?c then _ else _) = _ => destruct c end; auto. f_equal.
  match goal with |- fold_left ?f ?r ?a = fold_left ?g ?r ?a => assert (G : forall is l1, (forall i, In i is -> (j < i < n)%nat) -> fold_left f is l1 = fold_left g is l1) end.
  { induction is as [|i is IHl]; intros l1 Hl; auto. cbn [fold_left]. rewrite (A i j).
    - apply IHl. intros k Hk. apply Hl. right; exact Hk.
    - apply Hl. left; reflexivity.
    - assert (j < i < n)%nat by (apply Hl; left; reflexivity). lia. }
  apply G. intros i Hi. apply in_range in Hi. lia.
Qed.

(** What it solves is solved, by the only solution. *)
Theorem C80_solve n m l b : shape n n m -> symmetric n (mget m) -> cholesky n m = Ok l -> length b = n ->
  length (cholesky_solve n l b) = n /\ equal_vectors n (times n (mget m) (vget (cholesky_solve n l b))) (vget b) /\
  forall y, equal_vectors n (times n (mget m) y) (vget b) -> equal_vectors n y (vget (cholesky_solve n l b)).
Proof.
  intros H Sy E L. pose proof (cholesky_spec n m) as C. rewrite E in C.
  destruct (placed_solve n m l C b Sy L) as [S1 S2]. split; [exact S1|]. split; [exact S2|].
  intros y Hy i Hi. pose proof (placed_definite n m l C Sy) as D.
  destruct (Req_dec (y i) (vget (cholesky_solve n l b) i)) as [|N]; auto. exfalso.
  set (x := cholesky_solve n l b) in *.
  assert (Z : 0 < dot_product n (fun k => y k - vget x k) (times n (mget m) (fun k => y k - vget x k))).
  { apply D. exists i. split; auto. lra. }
  unfold dot_product in Z. rewrite (bsum_ext n _ (fun _ => 0)) in Z. rewrite bsum_0 in Z. lra.
  intros k Hk. replace (times n (mget m) (fun k0 => y k0 - vget x k0) k) with 0; [ring|]. unfold times.
  rewrite (bsum_ext n _ (fun q => mget m k q * y q - mget m k q * vget x q)) by (intros; ring). rewrite bsum_minus.
  specialize (Hy k Hk). specialize (S2 k Hk). unfold times in Hy, S2. lra.
Qed.
Theorem C80_inverse n m l : shape n n m -> symmetric n (mget m) -> cholesky n m = Ok l ->
  equal n n (product n (mget m) (mget (cholesky_inverse n l))) unit_matrix /\
  equal n n (product n (mget (cholesky_inverse n l)) (mget m)) unit_matrix.
Proof.
  intros H Sy E. pose proof (cholesky_spec n m) as C. rewrite E in C.
  assert (R : equal n n (product n (mget m) (mget (cholesky_inverse n l))) unit_matrix).
  { intros i j Hi Hj. destruct (solve_columns_spec n n (cholesky_solve n l) (identity n)) as [C1 C2].
    destruct (placed_solve n m l C (from_fn n (fun row => mget (identity n) row j)) Sy (from_fn_length _ _)) as [_ D]. specialize (D i Hi).
    rewrite vget_from_fn, mget_identity in D by auto. transitivity (if Nat.eqb i j then 1 else 0); [|reflexivity].
    change (if Nat.eqb i j then 1 else 0) with (if Nat.eqb i j then one else zero : R). rewrite <- D. apply bsum_ext. intros k Hk.
    unfold cholesky_inverse, cholesky_solve_matrix. rewrite C2 by auto. reflexivity. }
  split; [exact R|]. apply right_left_inverse; auto.
  intros v K i Hi. destruct (Req_dec (v i) 0) as [|N]; auto. exfalso.
  pose proof (placed_definite n m l C Sy v (ex_intro _ i (conj Hi N))) as P.
  unfold dot_product in P. rewrite (bsum_ext n _ (fun _ => 0)) in P. rewrite bsum_0 in P. lra. intros k Hk. rewrite K by auto. ring.
Qed.
Theorem C80_determinant n m l : shape n n m -> symmetric n (mget m) -> cholesky n m = Ok l ->
  cholesky_determinant n l = det n (mget m) /\ 0 < det n (mget m).
Proof.
  intros H Sy E. pose proof (cholesky_spec n m) as C. rewrite E in C. split; [apply (placed_det n m l C Sy)|].
  rewrite <- (placed_det n m l C Sy). unfold cholesky_determinant, range. rewrite Nat.sub_0_r.
  assert (G : forall k s, (k <= n)%nat -> 0 < s -> 0 < fold_left (fun det i => mul det (mul (mget l i i) (mget l i i))) (seq 0 k) s).
  { induction k as [|k IH]; intros s Hk Hs; [exact Hs|]. rewrite seq_S, fold_left_app. cbn [fold_left]. rnum.
    apply Rmult_lt_0_compat; [apply IH; auto; lia|]. pose proof (placed_positive _ _ _ _ C k ltac:(lia)). cbn [plus]. apply Rmult_lt_0_compat; lra. }
  apply G; auto. cbn. lra.
Qed.

(** ** Concrete cases *)
Definition sample : mat R := [[4; 2]; [2; 3]].
Lemma sample_ok : shape 2 2 sample /\ symmetric 2 (mget sample) /\ positive_definite 2 (mget sample).
Proof.
  split; [split; [reflexivity|]; intros [|[|i]] H; try reflexivity; lia|]. split.
  - intros [|[|i]] [|[|j]] Hi Hj; try lia; reflexivity.
  - intros x (i & Hi & N). unfold dot_product, times, sample. cbn. 
    replace (0 + x 0%nat * (0 + 4 * x 0%nat + 2 * x 1%nat) + x 1%nat * (0 + 2 * x 0%nat + 3 * x 1%nat))
      with ((2 * x 0%nat + x 1%nat)² + 2 * (x 1%nat)²) by (unfold Rsqr; ring).
    pose proof (Rle_0_sqr (2 * x 0%nat + x 1%nat)). pose proof (Rle_0_sqr (x 1%nat)).
    destruct (Req_dec (x 1%nat) 0) as [E|E].
    + assert (x 0%nat <> 0) by (destruct i as [|[|i]]; [exact N|destruct (N E)|lia]). 
      assert (0 < (2 * x 0%nat + x 1%nat)²) by (apply Rsqr_pos_lt; rewrite E; lra). lra.
    + pose proof (Rsqr_pos_lt _ E). lra.
Qed.
Example C79_example : exists l, shape 2 2 sample /\ symmetric 2 (mget sample) /\ cholesky 2 sample = Ok l.
Proof.
  destruct sample_ok as (A & B & C). destruct (proj2 (proj1 (C79_accepts 2 sample A B)) C) as [l E]. exists l. auto.
Qed.
Example C80_example : exists l, shape 2 2 sample /\ symmetric 2 (mget sample) /\ cholesky 2 sample = Ok l /\ length [8; 8] = 2%nat.
Proof. destruct C79_example as (l & A & B & C). exists l. auto. Qed.
(** A 1 x 1 matrix holding NaN is accepted: the test for a positive radicand does not refuse it. *)
Example C79_not_a_number lm : match @cholesky _ (f64num lm) 1 [[B754_nan]] with Ok _ => True | _ => False end.
Proof. vm_compute. exact I. Qed.

Print Assumptions C79_accepts.
Print Assumptions C79_factor.
Print Assumptions C79_reads_lower.
Print Assumptions C80_solve.
Print Assumptions C80_inverse.
Print Assumptions C80_determinant.
