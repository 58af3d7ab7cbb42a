(** C86: the eigenvalues and eigenvectors of a symmetric matrix. *)
From Coq Require Import ZArith Reals List Bool Arith Lia Lra Psatz.
From Verif Require Import Base.Scalar Base.RNum Base.Lists Base.Series Base.Det Model.Errors Model.Vector Model.Matrix Model.Lu Model.Svd Spec.Matrix Spec.Svd.
From Verif Require Import Proofs.Matrix Proofs.Lu Proofs.Qr Proofs.Svd Proofs.Pinv Proofs.Eigen.
Import ListNotations.
Local Open Scope R_scope.

Lemma exactly_symmetric n (m : mat R) : symmetric n (mget m) -> is_symmetric n m = true.
Proof.
  intros H. unfold is_symmetric. apply forallb_forall. intros row Hr. apply in_range in Hr. apply forallb_forall. intros column Hc. apply in_range in Hc.
  cbv zeta. rewrite (H row column) by lia. unfold transposed. change (sub (mget m column row) (mget m column row)) with (mget m column row - mget m column row). rewrite Rminus_diag_eq by reflexivity.
  match goal with |- negb (ltb ?a ?b) = true => change (ltb a b) with (Rltb a b); change a with (epsilon_x30 (T := R) * Rmax (Rmax (Rabs (mget m column row)) (Rabs (mget m column row))) 1) end.
  change (abs 0) with (Rabs 0). rewrite Rabs_R0. destruct (Rltb _ _) eqn:E; [|reflexivity]. rcases. exfalso.
  assert (0 <= epsilon_x30 (T := R) * Rmax (Rmax (Rabs (mget m column row)) (Rabs (mget m column row))) 1).
  { apply Rmult_le_pos; [unfold epsilon_x30; rnum; pose proof epsilon_pos as P; unfold epsilon in P; cbn in P; lra|]. apply Rle_trans with 1; [lra|apply Rmax_r]. }
  lra.
Qed.
Lemma finite_real (m : mat R) : mat_is_finite m = true.
Proof. unfold mat_is_finite. apply forallb_forall. intros x _. reflexivity. Qed.
Lemma eigen_facts n m : shape n n m -> symmetric n (mget m) -> exists d settled, eigen_found n m = (d, settled) /\ symmetric_eigendecomposition n m = Ok d /\
  spectrum n (mget m) (settled = true) (epsilon * max_abs m) (eigenvalues d) (eigenvectors d) /\ ordered n n (eigenvalues d) /\
  forall k, (k < n)%nat -> positive_peak n (eigenvectors d) k.
Proof.
  intros S Y. pose proof (eigen_spec n m S Y) as F. cbv zeta in F. unfold symmetric_eigendecomposition. rewrite finite_real, exactly_symmetric by auto. cbn [negb].
  destruct (eigen_found n m) as [d settled]. exists d, settled. auto.
Qed.
Lemma found_threshold n m (M : R) : shape n n m -> 0 <= M -> (forall i j, (i < n)%nat -> (j < n)%nat -> Rabs (mget m i j) <= M) -> 0 <= epsilon * max_abs m <= / 2 ^ 52 * M.
Proof.
  intros S M0 B. destruct (max_abs_spec n m M S B M0) as [X1 X2]. replace (/ 2 ^ 52) with (epsilon (Num := Rnum)) by (rnum; rewrite (pow_IZR 2 52); reflexivity). pose proof epsilon_pos. split; nra.
Qed.

(** Every symmetric matrix is taken apart: the columns returned are orthonormal, so are the rows, each value is the
    matrix's form along its column, the values fall, they add up to the trace, and the entry of the largest size in
    each column is positive. *)
Theorem C86_frame n m : shape n n m -> symmetric n (mget m) -> exists d, symmetric_eigendecomposition n m = Ok d /\
  let v := mget (eigenvectors d) in let lambda := vget (eigenvalues d) in
  orthonormal_columns n n v /\ orthonormal_columns n n (transposed v) /\
  (forall k, (k < n)%nat -> lambda k = dot_product n (column v k) (times n (mget m) (column v k))) /\
  falling n lambda /\ bsum n lambda = bsum n (fun i => mget m i i) /\
  (forall k, (k < n)%nat -> exists r, (r < n)%nat /\ 0 < v r k /\ forall i, (i < n)%nat -> Rabs (v i k) <= v r k).
Proof.
  intros S Y. destruct (eigen_facts n m S Y) as (d & st & _ & E & ((F1 & F2 & F3) & L & Fm & _) & O & P). exists d. split; [exact E|]. cbv zeta.
  split; [exact F3|]. split; [exact F2|]. split; [exact Fm|]. split; [intros i j Hij; apply O; lia|]. split.
  - rewrite <- (trace_spec n (mget m) (eigenvectors d) (conj F1 (conj F2 F3))). apply bsum_ext. exact Fm.
  - intros k Hk. destruct (P k Hk ltac:(lia)) as (r & R1 & R2). exists r. split; auto. split; auto.
    destruct (Rlt_or_le 0 (mget (eigenvectors d) r k)) as [|Q]; auto. exfalso. specialize (F3 k k Hk Hk). rewrite Nat.eqb_refl in F3. unfold dot_product, column in F3.
    rewrite (bsum_ext n _ (fun _ => 0)) in F3; [rewrite bsum_0 in F3; lra|]. intros i Hi. specialize (R2 i Hi). pose proof (Rabs_pos (mget (eigenvectors d) i k)). assert (Rabs (mget (eigenvectors d) i k) = 0) by lra.
    destruct (Req_dec (mget (eigenvectors d) i k) 0) as [->|N]; [ring|]. apply Rabs_no_R0 in N. lra.
Qed.
(** When the sweeps settle before the limit of sixty, each column is an eigenvector of its value and the matrix is the
    one put together from them, to within [n] and [n^2] parts in [2^52] of the size of the entries. *)
Theorem C86_eigenpairs n m d M : shape n n m -> symmetric n (mget m) -> eigen_found n m = (d, true) ->
  (forall i j, (i < n)%nat -> (j < n)%nat -> Rabs (mget m i j) <= M) ->
  symmetric_eigendecomposition n m = Ok d /\
  let v := mget (eigenvectors d) in let lambda := vget (eigenvalues d) in
  (forall i k, (i < n)%nat -> (k < n)%nat -> Rabs (times n (mget m) (column v k) i - lambda k * v i k) <= INR n * / 2 ^ 52 * M) /\
  (forall i j, (i < n)%nat -> (j < n)%nat -> Rabs (mget m i j - composed n v lambda v i j) <= INR n * INR n * / 2 ^ 52 * M).
Proof.
  intros S Y E B. destruct (eigen_facts n m S Y) as (d' & st & E' & E2 & (F & L & Fm & Sm) & O & P). rewrite E in E'. injection E' as <- <-. split; [exact E2|]. cbv zeta.
  destruct n as [|n]; [split; intros; lia|]. assert (M0 : 0 <= M) by (pose proof (B 0%nat 0%nat ltac:(lia) ltac:(lia)); pose proof (Rabs_pos (mget m 0 0)); lra).
  destruct (found_threshold _ m M S M0 B) as [T0 T1]. set (thr := epsilon * max_abs m) in *. pose proof (pos_INR n) as N0. rewrite S_INR. split.
  - intros i k Hi Hk. pose proof (residual_column (Datatypes.S n) (mget m) (eigenvectors d) F (eigenvalues d) thr Fm (Sm eq_refl) k i Hk Hi) as Q. rewrite S_INR in Q. apply Rle_trans with (1 := Q). nra.
  - intros i j Hi Hj. pose proof (residual_matrix (Datatypes.S n) (mget m) (eigenvectors d) F (eigenvalues d) thr Fm (Sm eq_refl) i j Hi Hj) as Q. rewrite S_INR in Q. apply Rle_trans with (1 := Q).
    assert ((INR n + 1 - 1) * thr <= (INR n + 1) * (/ 2 ^ 52 * M)) by nra. nra.
Qed.
(** With one or two rows they always settle. *)
Theorem C86_two n m : (n <= 2)%nat -> shape n n m -> symmetric n (mget m) -> exists d, eigen_found n m = (d, true).
Proof.
  intros H S Y. assert (E : snd (eigen_found n m) = true).
  { rewrite eigen_found_settled. assert (T0 : 0 <= epsilon * max_abs m) by (apply Rmult_le_pos; [pose proof epsilon_pos; lra|apply max_abs_nonneg]).
    set (thr := epsilon * max_abs m) in *.
    destruct n as [|[|[|]]]; try lia.
    - change 60%nat with (Datatypes.S 59). rewrite eigen_sweeps_next. cbv zeta. change (es_off (eigen_one_sweep 0 thr m (identity 0))) with 0. destruct (Rleb 0 thr) eqn:E; rcases; [reflexivity|lra].
    - change 60%nat with (Datatypes.S 59). rewrite eigen_sweeps_next. cbv zeta. change (es_off (eigen_one_sweep 1 thr m (identity 1))) with 0. destruct (Rleb 0 thr) eqn:E; rcases; [reflexivity|lra].
    - apply eigen_two; auto. apply identity_in_frame; auto. }
  destruct (eigen_found n m) as [d st]. cbn [snd] in E. subst st. eauto.
Qed.
Lemma smallest_value n d : eigen_positive_definite n d = true <-> (n = 0%nat \/ 0 < vget (eigenvalues d) (n - 1)).
Proof.
  unfold eigen_positive_definite. destruct (Nat.eqb_spec n 0) as [->|N]; [tauto|]. change (ltb zero (vget (eigenvalues d) (n - 1))) with (Rltb 0 (vget (eigenvalues d) (n - 1))).
  destruct (Rltb _ _) eqn:E; rcases; split; auto; try discriminate. intros [|]; [lia|lra].
Qed.
(** The test for positive definite passes exactly when every value is positive.  It passes for every matrix that is
    positive definite; and when the sweeps settled and the smallest value is more than [n^2] parts in [2^52] of the
    entries above zero, what passes is positive definite. *)
Theorem C86_positive_definite n m d : shape n n m -> symmetric n (mget m) -> symmetric_eigendecomposition n m = Ok d ->
  (eigen_positive_definite n d = true <-> forall k, (k < n)%nat -> 0 < vget (eigenvalues d) k) /\
  (positive_definite n (mget m) -> eigen_positive_definite n d = true) /\
  (forall M, eigen_found n m = (d, true) -> (forall i j, (i < n)%nat -> (j < n)%nat -> Rabs (mget m i j) <= M) ->
    INR n * / 2 ^ 52 * M < vget (eigenvalues d) (n - 1) -> positive_definite n (mget m)).
Proof.
  intros S Y E. destruct (eigen_facts n m S Y) as (d' & st & E' & E2 & (F & L & Fm & Sm) & O & P). rewrite E in E2. injection E2 as <-.
  assert (Q : eigen_positive_definite n d = true <-> forall k, (k < n)%nat -> 0 < vget (eigenvalues d) k).
  { rewrite smallest_value. split.
    - intros [->|H] k Hk; [lia|]. pose proof (O k (n - 1)%nat ltac:(lia) ltac:(lia)). lra.
    - intros H. destruct n; [auto|]. right. apply H. lia. }
  split; [exact Q|]. split.
  - intros PD. apply Q. intros k Hk. rewrite Fm by auto. apply PD. destruct F as (_ & _ & F3). specialize (F3 k k Hk Hk). rewrite Nat.eqb_refl in F3.
    (* a column of length one has an entry that is not zero *)
    assert (D : forall j, (forall i, (i < j)%nat -> col (eigenvectors d) k i = 0) \/ exists i, (i < j)%nat /\ col (eigenvectors d) k i <> 0).
    { induction j as [|j IH]; [left; intros; lia|]. destruct IH as [IH|(i & Hi & N)]; [|right; exists i; split; [lia|auto]].
      destruct (Req_dec (col (eigenvectors d) k j) 0) as [Z|N]; [left; intros i Hi; destruct (Nat.eq_dec i j) as [->|]; auto; apply IH; lia|right; exists j; auto]. }
    destruct (D n) as [Z|X]; [|exact X]. exfalso. unfold dot_product in F3. rewrite (bsum_ext n _ (fun _ => 0)) in F3; [rewrite bsum_0 in F3; lra|]. intros i Hi. specialize (Z i Hi). unfold col in Z. unfold column. rewrite Z. ring.
  - intros M Ef B G. rewrite Ef in E'. injection E' as <-. intros x [i [Hi Nx]].
    assert (M0 : 0 <= M) by (pose proof (B i i Hi Hi); pose proof (Rabs_pos (mget m i i)); lra). destruct (found_threshold n m M S M0 B) as [T0 T1].
    pose proof (form_lower n (mget m) (eigenvectors d) Y F (eigenvalues d) _ T0 Fm (Sm eq_refl) x (vget (eigenvalues d) (n - 1)) ltac:(intros k Hk; apply O; lia)) as LB.
    assert (NP : 0 < square_norm n x). { destruct (square_norm_nonneg n x) as [Hp|Hz]; auto. symmetry in Hz. exfalso. apply Nx. apply (square_norm_zero n x Hz i Hi). }
    unfold form in LB. apply Rlt_le_trans with (2 := LB). apply Rmult_lt_0_compat; auto. pose proof (pos_INR n). nra.
Qed.
(** Raising the values to a floor gives a matrix that is symmetric to the last bit, whatever the scalar; every column is
    an eigenvector of it with the raised value, and its form is nowhere below the floor: it is positive definite when
    the floor is positive. *)
Theorem C86_clamped_symmetric {T} {NT : Num T} n (d : eigen (T := T)) floor : shape n n (eigen_clamped n d floor) /\
  forall i j, (i < n)%nat -> (j < n)%nat -> mget (eigen_clamped n d floor) i j = mget (eigen_clamped n d floor) j i.
Proof.
  destruct (clamped_spec n d floor) as [S C]. split; [exact S|]. intros i j Hi Hj. destruct (Nat.le_ge_cases i j) as [L|L].
  - destruct (C i j ltac:(lia)) as [-> ->]. reflexivity.
  - destruct (C j i ltac:(lia)) as [-> ->]. reflexivity.
Qed.
Lemma clamped_composed n (d : eigen) floor i j : (i < n)%nat -> (j < n)%nat ->
  mget (eigen_clamped n d floor) i j = composed n (mget (eigenvectors d)) (fun k => Rmax (vget (eigenvalues d) k) floor) (mget (eigenvectors d)) i j.
Proof.
  intros Hi Hj. assert (G : forall i j, (i <= j < n)%nat -> clamped_entry n d floor i j = composed n (mget (eigenvectors d)) (fun k => Rmax (vget (eigenvalues d) k) floor) (mget (eigenvectors d)) i j).
  { intros a b H. unfold clamped_entry. rewrite loop_sum_bsum. apply bsum_ext. intros k Hk. rewrite vget_from_fn by auto. reflexivity. }
  destruct (clamped_spec n d floor) as [_ C]. destruct (Nat.le_ge_cases i j) as [L|L].
  - destruct (C i j ltac:(lia)) as [-> _]. apply G. lia.
  - destruct (C j i ltac:(lia)) as [_ ->]. rewrite G by lia. unfold composed. apply bsum_ext. intros; ring.
Qed.
Theorem C86_clamped n m d floor : shape n n m -> symmetric n (mget m) -> symmetric_eigendecomposition n m = Ok d ->
  let c := mget (eigen_clamped n d floor) in let v := mget (eigenvectors d) in
  (forall i k, (i < n)%nat -> (k < n)%nat -> times n c (column v k) i = Rmax (vget (eigenvalues d) k) floor * v i k) /\
  (forall x, floor * square_norm n x <= dot_product n x (times n c x)) /\
  (0 < floor -> positive_definite n c).
Proof.
  intros S Y E. destruct (eigen_facts n m S Y) as (d' & st & E' & E2 & (F & L & Fm & Sm) & O & P). rewrite E in E2. injection E2 as <-. cbv zeta.
  set (r := fun k => Rmax (vget (eigenvalues d) k) floor).
  assert (TE : forall x i, (i < n)%nat -> times n (mget (eigen_clamped n d floor)) x i = times n (composed n (mget (eigenvectors d)) r (mget (eigenvectors d))) x i).
  { intros x i Hi. apply times_ext; [intros k Hk; apply clamped_composed; auto|intros k Hk; reflexivity]. }
  assert (FL : forall x, floor * square_norm n x <= dot_product n x (times n (mget (eigen_clamped n d floor)) x)).
  { intros x. rewrite (dot_ext n x x _ (times n (composed n (mget (eigenvectors d)) r (mget (eigenvectors d))) x)) by (intros i Hi; auto).
    apply (composed_form n (eigenvectors d) r F x floor). intros k Hk. apply Rmax_r. }
  split; [|split; [exact FL|]].
  - intros i k Hi Hk. rewrite TE by auto. apply (composed_column n (eigenvectors d) r F k i Hk).
  - intros FP x [i [Hi Nx]]. apply Rlt_le_trans with (2 := FL x). apply Rmult_lt_0_compat; auto.
    destruct (square_norm_nonneg n x) as [Hp|Hz]; auto. symmetry in Hz. exfalso. apply Nx. apply (square_norm_zero n x Hz i Hi).
Qed.
(** Only a matrix with an entry that is not finite, or that is not symmetric, is refused. *)
Theorem C86_refuses {T} {NT : Num T} n (m : mat T) :
  ((exists x, In x (concat m) /\ is_finite x = false) -> symmetric_eigendecomposition n m = Err LaNonFinite) /\
  ((forall x, In x (concat m) -> is_finite x = true) -> is_symmetric n m = false -> symmetric_eigendecomposition n m = Err LaNotSymmetric) /\
  ((forall x, In x (concat m) -> is_finite x = true) -> is_symmetric n m = true -> exists d, symmetric_eigendecomposition n m = Ok d).
Proof.
  unfold symmetric_eigendecomposition, mat_is_finite. split; [|split].
  - intros (x & Hx & F). destruct (forallb _ _) eqn:E; [|reflexivity]. rewrite forallb_forall in E. rewrite (E x Hx) in F. discriminate F.
  - intros F ->. assert (E : forallb is_finite (concat m) = true) by (apply forallb_forall; auto). rewrite E. reflexivity.
  - intros F ->. assert (E : forallb is_finite (concat m) = true) by (apply forallb_forall; auto). rewrite E. cbn [negb]. eexists. reflexivity.
Qed.
Example C86_example : exists n m d, shape n n m /\ symmetric n (mget m) /\ eigen_found n m = (d, true) /\ mget m 0 1 = 1 /\
  (forall i j, (i < n)%nat -> (j < n)%nat -> Rabs (mget m i j) <= 3) /\ n = 2%nat.
Proof.
  assert (S : shape 2 2 [[2; 1]; [1; 3]]) by (split; [reflexivity|intros i Hi; destruct i as [|[|]]; try lia; reflexivity]).
  assert (Y : symmetric 2 (mget [[2; 1]; [1; 3]])) by (intros i j Hi Hj; destruct i as [|[|]], j as [|[|]]; try lia; reflexivity).
  destruct (C86_two 2 [[2; 1]; [1; 3]] ltac:(lia) S Y) as [d E]. exists 2%nat, [[2; 1]; [1; 3]], d. split; [exact S|]. split; [exact Y|]. split; [exact E|]. split; [reflexivity|]. split; [|reflexivity].
  intros i j Hi Hj. destruct i as [|[|]], j as [|[|]]; try lia; unfold mget; cbn; rewrite Rabs_right; lra.
Qed.

Print Assumptions C86_frame.
Print Assumptions C86_eigenpairs.
Print Assumptions C86_two.
Print Assumptions C86_positive_definite.
Print Assumptions C86_clamped_symmetric.
Print Assumptions C86_clamped.
Print Assumptions C86_refuses.
Print Assumptions C86_example.
