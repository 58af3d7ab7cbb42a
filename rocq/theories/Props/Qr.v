(** C81-C82: the column-pivoted QR factorization and least squares. *)
From Coq Require Import ZArith Reals List Bool Arith Lia Lra Permutation.
From Flocq Require Import Core IEEE754.BinarySingleNaN.
From Verif Require Import Base.Scalar Base.RNum Base.FNum Base.Lists Base.Series Base.Det.
From Verif Require Import Model.Errors Model.Vector Model.Matrix Model.Lu Model.Qr Spec.Matrix Proofs.Matrix Proofs.Lu Proofs.Qr.
Import ListNotations.
Local Open Scope R_scope.

Lemma factors rows cols a : (cols <= rows)%nat -> shape rows cols a -> columns_below max_value rows cols (mget a) ->
  exists f, qr_decompose rows cols a = Ok f /\
  (exists s, ready rows cols a cols s /\ packed f = q_packed s /\ r_diag f = q_diag s /\ permutation f = q_permutation s) /\
  forall c, (c < cols)%nat -> vget (column_norms f) c = R_sqrt.sqrt (square_norm rows (column (mget a) c)).
Proof. intros H S B. apply decompose_spec; auto. Qed.

(** A matrix with at least as many rows as columns factors: the columns of [a], taken in the order given, are those of
    [q * r], with the columns of [q] orthonormal and [r] upper triangular with its diagonal falling in size. *)
Theorem C81_factor rows cols a : (cols <= rows)%nat -> shape rows cols a -> columns_below max_value rows cols (mget a) ->
  exists f, qr_decompose rows cols a = Ok f /\ Permutation (permutation f) (seq 0 cols) /\
  let q := mget (qr_orthogonal rows cols f) in let r := mget (qr_triangular cols f) in
  orthonormal_columns rows cols q /\ upper_triangular cols r /\
  equal rows cols (product cols q r) (fun i j => mget a i (nth j (permutation f) 0%nat)) /\
  forall i j, (i <= j < cols)%nat -> Rabs (r j j) <= Rabs (r i i).
Proof.
  intros H S B. destruct (factors rows cols a H S B) as (f & E & (s & Q & Ep & Ed & Em) & N). exists f. split; [exact E|].
  split; [apply (perm_ok rows cols a f s Q Em)|]. cbv zeta. split; [|split; [|split]].
  - intros i j Hi Hj. apply (orthonormal rows cols a f s H Q Ep); auto.
  - intros i j Hi Hj L. rewrite triangular_spec by auto. unfold upper. nat_case. reflexivity.
  - intros i j Hi Hj. apply (factor_product rows cols a f s H Q Ep Ed Em); auto.
  - intros i j Hij. rewrite !triangular_spec by lia. apply (upper_sorted rows cols a f s H Q Ep Ed); auto.
Qed.
(** One with fewer rows than columns is refused, whatever its entries, and nothing else is. *)
Theorem C81_refuses {T} {NT : Num T} rows cols (a : mat T) :
  ((rows < cols)%nat -> qr_decompose rows cols a = Err LaUnderdetermined) /\
  ((cols <= rows)%nat -> exists f, qr_decompose rows cols a = Ok f).
Proof. unfold qr_decompose. split; intros H; nat_case. reflexivity. eexists. reflexivity. Qed.

(** The pivot order is a rearrangement of the columns and the triangle is a triangle for every scalar, also when the
    entries are not numbers. *)
Section Any.
  Context {T : Type} {NT : Num T}.
  Lemma pivot_range cols k d : (k < cols)%nat -> (k <= qr_pivot cols k d < cols)%nat.
  Proof.
    intros Hk. unfold qr_pivot. assert (G : forall l m, (k <= m < cols)%nat -> (forall i, In i l -> (k <= i < cols)%nat) ->
      (k <= fold_left (fun kmax k => if ltb (vget d kmax) (vget d k) then k else kmax) l m < cols)%nat).
    { induction l as [|i l IH]; intros m Hm Hl; [exact Hm|]. cbn [fold_left]. apply IH.
      destruct (ltb _ _); auto. apply Hl. left; reflexivity. intros j Hj. apply Hl. right; exact Hj. }
    apply G. lia. intros i Hi. apply in_range in Hi. lia.
  Qed.
  Lemma reflect_permutation rows j l : forall s, q_permutation (fold_left (qr_reflect rows j) l s) = q_permutation s.
  Proof.
    induction l as [|k l IH]; intros s; [reflexivity|]. cbn [fold_left]. rewrite IH. unfold qr_reflect.
    destruct (negb _); [|reflexivity]. destruct (leb _ epsilon); reflexivity.
  Qed.
  Lemma step_permutation rows cols s k : (k < cols)%nat -> Permutation (q_permutation s) (seq 0 cols) ->
    Permutation (q_permutation (qr_step rows cols s k)) (seq 0 cols).
  Proof.
    intros Hk P. assert (X : Permutation (q_permutation (qr_exchange rows cols k s)) (seq 0 cols)).
    { unfold qr_exchange. pose proof (pivot_range cols k (q_diag s) Hk). destruct (negb _); auto. cbn [q_permutation]. apply permutation_swap; auto; lia. }
    unfold qr_step. cbv zeta. set (s1 := qr_exchange rows cols k s) in *. destruct (eqb _ zero); cbn [q_permutation]; auto.
    rewrite reflect_permutation. exact X.
  Qed.
Theorem C81_any_scalar rows cols (a : mat T) f : qr_decompose rows cols a = Ok f ->
    Permutation (permutation f) (seq 0 cols) /\
    (forall i j, (i < cols)%nat -> (j < cols)%nat -> (j < i)%nat -> mget (qr_triangular cols f) i j = zero).
  Proof.
    unfold qr_decompose. destruct (Nat.ltb rows cols); [discriminate|]. intros E. injection E as <-. split.
    - cbn [permutation]. apply (for_loop (fun _ s => Permutation (q_permutation s) (seq 0 cols))).
      + lia.
      + cbn [q_permutation]. unfold from_fn. rewrite map_id. apply Permutation_refl.
      + intros k s Hk P. apply step_permutation; auto. lia.
    - intros i j Hi Hj L. unfold qr_triangular. rewrite mget_mat_fn by auto. nat_case. reflexivity.
  Qed.
End Any.

(** ** Least squares *)
(** How small a diagonal entry of the triangle may be, next to the first. *)
Definition too_small (rows cols : nat) (r : matrix) (i : nat) : Prop :=
  Rabs (r i i) <= / IZR (2 ^ 52) * INR (Nat.max rows cols) * Rabs (r O O).
Lemma solve_cases rows cols a f b s : (cols <= rows)%nat -> ready rows cols a cols s -> packed f = q_packed s -> r_diag f = q_diag s ->
  permutation f = q_permutation s -> length b = rows ->
  match solve_least_squares rows cols f b with
  | Ok x => length x = cols /\ (forall i, (i < cols)%nat -> ~ too_small rows cols (mget (qr_triangular cols f)) i) /\
            forall i, (i < cols)%nat -> bsum cols (fun j => upper f i j * permuted f (vget x) j) = vget (qr_transform rows cols f b) i
  | Err e => e = LaSingular /\ exists i, (i < cols)%nat /\ too_small rows cols (mget (qr_triangular cols f)) i
  | Panic => False
  end.
Proof.
  intros H Q Ep Ed Em L. unfold solve_least_squares.
  set (thr := if Nat.eqb cols 0 then zero else _).
  assert (TS : forall i, (i < cols)%nat -> too_small rows cols (mget (qr_triangular cols f)) i <-> Rabs (upper f i i) <= thr).
  { intros i Hi. unfold too_small. rewrite !triangular_spec by lia. unfold thr. nat_case. change (vget (r_diag f) 0) with (upper f 0 0). unfold of_nat. rnum. rewrite <- INR_IZR_INZ. reflexivity. }
  assert (TP : 0 <= thr).
  { unfold thr. destruct (Nat.eqb_spec cols 0); unfold of_nat; rnum; [lra|]. apply Rmult_le_pos; [|apply Rabs_pos]. apply Rmult_le_pos; [|rewrite <- INR_IZR_INZ; apply pos_INR].
    left. apply Rinv_0_lt_compat. apply IZR_lt. reflexivity. }
  pose proof (qr_back_spec rows cols f H thr (qr_transform rows cols f b) cols TP (repeat zero cols) (le_n _) (repeat_length _ _)) as K.
  specialize (K ltac:(intros; lia)). unfold range in *. rewrite Nat.sub_0_r. destruct (qr_back _ _ _ _ _ _) as [y|].
  - destruct K as [K1 K2]. destruct (unpermute_spec cols (permutation f) y (perm_ok rows cols a f s Q Em)) as [U1 U2]. split; auto. split.
    + intros i Hi N. apply TS in N; auto. destruct (K2 i Hi). lra.
    + intros i Hi. rewrite <- (proj2 (K2 i Hi)). apply bsum_ext. intros j Hj. unfold permuted. rewrite U2 by auto. reflexivity.
  - split; auto. destruct K as (i & Hi & K). exists i. split; auto. apply TS; auto.
Qed.

(** What comes back is the one vector whose residual is shortest. *)
Theorem C82_least rows cols a f b x : (cols <= rows)%nat -> shape rows cols a -> columns_below max_value rows cols (mget a) ->
  qr_decompose rows cols a = Ok f -> length b = rows -> solve_least_squares rows cols f b = Ok x ->
  length x = cols /\
  let residual y := square_norm rows (fun i => times cols (mget a) y i - vget b i) in
  forall y, equal_vectors cols y (vget x) \/ residual (vget x) < residual y.
Proof.
  intros H S B E L K. destruct (factors rows cols a H S B) as (f' & E' & (s & Q & Ep & Ed & Em) & N).
  rewrite E in E'. injection E' as <-. pose proof (solve_cases rows cols a f b s H Q Ep Ed Em L) as C. rewrite K in C.
  destruct C as (C1 & C2 & C3). split; [exact C1|]. cbv beta zeta. intros y.
  rewrite !(residual_norm rows cols a f s H Q Ep Ed Em b) by auto.
  set (u := qr_transform rows cols f b) in *.
  rewrite (bsum_ext cols (fun i => (bsum cols (fun j => upper f i j * permuted f (vget x) j) - vget u i) * _) (fun _ => 0)) by (intros i Hi; rewrite C3 by auto; ring).
  rewrite bsum_0. set (w := fun i => bsum cols (fun j => upper f i j * permuted f y j) - vget u i).
  change (bsum cols (fun i => _ * _)) with (bsum cols (fun i => w i * w i)).
  pose proof (bsum_nonneg cols (fun i => w i * w i) (fun i _ => Rle_0_sqr (w i))) as P.
  destruct (Req_dec (bsum cols (fun i => w i * w i)) 0) as [Z|Z]; [left|right; lra].
  assert (W : forall i, (i < cols)%nat -> w i = 0). { intros i Hi. apply Rsqr_0_uniq. apply (bsum_zero_terms cols (fun i => w i * w i) (fun i _ => Rle_0_sqr (w i)) Z i Hi). }
  assert (D : forall i, (i < cols)%nat -> upper f i i <> 0).
  { intros i Hi Z0. apply (C2 i Hi). unfold too_small. rewrite !triangular_spec by lia. rewrite Z0, Rabs_R0.
    apply Rmult_le_pos; [|apply Rabs_pos]. apply Rmult_le_pos; [|apply pos_INR]. left. apply Rinv_0_lt_compat. apply IZR_lt. reflexivity. }
  pose proof (upper_kernel cols (upper f) (fun j => permuted f y j - permuted f (vget x) j) D) as UK.
  assert (V : forall j, (j < cols)%nat -> permuted f y j = permuted f (vget x) j).
  { intros j Hj. cut (permuted f y j - permuted f (vget x) j = 0); [lra|]. apply UK; auto. intros i Hi.
    rewrite (bsum_ext cols _ (fun j => upper f i j * permuted f y j - upper f i j * permuted f (vget x) j)).
    - rewrite bsum_minus, C3 by auto. specialize (W i Hi). unfold w in W. lra.
    - intros c Hc. unfold upper. nat_case; ring. }
  intros i Hi. pose proof (perm_ok rows cols a f s Q Em) as PM.
  assert (I : In i (permutation f)). { apply (Permutation_in i (Permutation_sym PM)). apply in_seq. lia. }
  destruct (In_nth _ _ 0%nat I) as (j & Hj & <-). apply V. rewrite (Permutation_length PM), seq_length in Hj. exact Hj.
Qed.
(** It is refused, as singular, exactly when some diagonal entry of the triangle is too small next to the first. *)
Theorem C82_refuses rows cols a f b : (cols <= rows)%nat -> shape rows cols a -> columns_below max_value rows cols (mget a) ->
  qr_decompose rows cols a = Ok f -> length b = rows ->
  solve_least_squares rows cols f b <> Panic /\
  forall e, solve_least_squares rows cols f b = Err e <->
    e = LaSingular /\ exists i, (i < cols)%nat /\ too_small rows cols (mget (qr_triangular cols f)) i.
Proof.
  intros H S B E L. destruct (factors rows cols a H S B) as (f' & E' & (s & Q & Ep & Ed & Em) & N).
  rewrite E in E'. injection E' as <-. pose proof (solve_cases rows cols a f b s H Q Ep Ed Em L) as C.
  destruct (solve_least_squares rows cols f b) as [x|e|]; [| |destruct C]; split; try discriminate; intros e0; split.
  - discriminate.
  - intros (-> & i & Hi & T). destruct C as (_ & C & _). destruct (C i Hi T).
  - intros K. injection K as <-. exact C.
  - intros (-> & _). destruct C as [-> _]. reflexivity.
Qed.
(** So a matrix whose columns are linearly dependent is always refused. *)
Theorem C82_rank_deficient rows cols a f b y : (cols <= rows)%nat -> shape rows cols a -> columns_below max_value rows cols (mget a) ->
  qr_decompose rows cols a = Ok f -> length b = rows ->
  (exists i, (i < cols)%nat /\ y i <> 0) -> equal_vectors rows (times cols (mget a) y) (fun _ => 0) ->
  solve_least_squares rows cols f b = Err LaSingular.
Proof.
  intros H S B E L (i & Hi & N) Z. destruct (C82_refuses rows cols a f b H S B E L) as [C1 C2].
  destruct (solve_least_squares rows cols f b) as [x|e|] eqn:K; [|f_equal; apply (C2 e); reflexivity|destruct (C1 eq_refl)].
  exfalso. destruct (C82_least rows cols a f b x H S B E L K) as [_ C]. cbv beta zeta in C.
  destruct (C (fun j => vget x j + y j)) as [Q|Q].
  - specialize (Q i Hi). lra.
  - revert Q. apply Rle_not_lt. right. unfold square_norm, dot_product. apply bsum_ext. intros r Hr.
    replace (times cols (mget a) (fun j => vget x j + y j) r) with (times cols (mget a) (vget x) r); [reflexivity|].
    specialize (Z r Hr). unfold times in *. symmetry. rewrite (bsum_ext cols _ (fun k => mget a r k * vget x k + mget a r k * y k)) by (intros; ring).
    rewrite bsum_plus. lra.
Qed.

(** ** Concrete cases *)
(** the line [x0 + x1 t] through three points *)
Definition sample : mat R := [[1; 0]; [1; 1]; [1; 2]].
Lemma max_value_large : 1000 < (max_value : R).
Proof.
  rnum. apply Rlt_le_trans with (IZR (2 ^ 53 - 1) * 1); [rewrite Rmult_1_r; apply IZR_lt; reflexivity|].
  apply Rmult_le_compat_l; [apply IZR_le; intros Q; discriminate Q|]. apply IZR_le. intros Q; vm_compute in Q; discriminate Q.
Qed.
Lemma sample_ok : shape 3 2 sample /\ columns_below max_value 3 2 (mget sample).
Proof.
  split; [split; [reflexivity|]; intros [|[|[|i]]] H; try reflexivity; lia|].
  pose proof max_value_large. intros [|[|j]] Hj; try lia; unfold square_norm, dot_product, column, sample; cbn; lra.
Qed.
Lemma sample_solved f b : qr_decompose 3 2 sample = Ok f -> length b = 3%nat -> exists x, solve_least_squares 3 2 f b = Ok x.
Proof.
  intros E L. destruct sample_ok as [S B]. assert (H : (2 <= 3)%nat) by lia.
  destruct (C82_refuses 3 2 sample f b H S B E L) as [C1 C2].
  destruct (solve_least_squares 3 2 f b) as [x|e|]; [eauto| |destruct (C1 eq_refl)]. exfalso.
  destruct (proj1 (C2 e) eq_refl) as (_ & i & Hi & T). clear C1 C2.
  destruct (C81_factor 3 2 sample H S B) as (f' & E' & P & QO & RU & PR & SO). rewrite E in E'. injection E' as <-.
  unfold too_small in T. set (q := mget (qr_orthogonal 3 2 f)) in *. set (r := mget (qr_triangular 2 f)) in *.
  assert (R10 : r 1%nat 0%nat = 0) by (apply RU; lia).
  pose proof (QO 0%nat 0%nat ltac:(lia) ltac:(lia)) as Q00. pose proof (QO 0%nat 1%nat ltac:(lia) ltac:(lia)) as Q01.
  pose proof (QO 1%nat 1%nat ltac:(lia) ltac:(lia)) as Q11.
  clearbody q r. unfold dot_product, column in Q00, Q01, Q11. cbn [bsum Nat.eqb] in Q00, Q01, Q11.
  set (p0 := nth 0 (permutation f) 0%nat) in *. set (p1 := nth 1 (permutation f) 0%nat) in *.
  assert (C : forall i, (i < 3)%nat -> q i 0%nat * r 0%nat 0%nat = mget sample i p0).
  { intros k Hk. specialize (PR k 0%nat Hk ltac:(lia)). unfold product in PR. cbn [bsum] in PR. rewrite R10 in PR. fold p0 in PR. lra. }
  assert (D : forall i, (i < 3)%nat -> q i 0%nat * r 0%nat 1%nat + q i 1%nat * r 1%nat 1%nat = mget sample i p1).
  { intros k Hk. specialize (PR k 1%nat Hk ltac:(lia)). unfold product in PR. cbn [bsum] in PR. fold p1 in PR. lra. }
  assert (N0 : r 0%nat 0%nat * r 0%nat 0%nat = bsum 3 (fun i => mget sample i p0 * mget sample i p0)).
  { rewrite (bsum_ext 3 _ (fun i => (r 0%nat 0%nat * r 0%nat 0%nat) * (q i 0%nat * q i 0%nat))) by (intros k Hk; rewrite <- !C by auto; ring).
    rewrite bsum_scal. cbn [bsum]. rewrite Q00. ring. }
  assert (N1 : r 0%nat 0%nat * r 0%nat 1%nat = bsum 3 (fun i => mget sample i p0 * mget sample i p1)).
  { rewrite (bsum_ext 3 _ (fun i => (r 0%nat 0%nat * r 0%nat 1%nat) * (q i 0%nat * q i 0%nat) + r 0%nat 0%nat * r 1%nat 1%nat * (q i 0%nat * q i 1%nat))) by (intros k Hk; rewrite <- C, <- D by auto; ring).
    rewrite bsum_plus, !bsum_scal. cbn [bsum]. rewrite Q00, Q01. ring. }
  assert (N2 : r 0%nat 1%nat * r 0%nat 1%nat + r 1%nat 1%nat * r 1%nat 1%nat = bsum 3 (fun i => mget sample i p1 * mget sample i p1)).
  { rewrite (bsum_ext 3 _ (fun i => (r 0%nat 1%nat * r 0%nat 1%nat) * (q i 0%nat * q i 0%nat) + (r 1%nat 1%nat * r 1%nat 1%nat * (q i 1%nat * q i 1%nat) + 2 * r 0%nat 1%nat * r 1%nat 1%nat * (q i 0%nat * q i 1%nat)))) by (intros k Hk; rewrite <- D by auto; ring).
    rewrite !bsum_plus, !bsum_scal. cbn [bsum]. rewrite Q00, Q01, Q11. ring. }
  assert (PP : (p0 = 0 /\ p1 = 1 \/ p0 = 1 /\ p1 = 0)%nat).
  { pose proof (Permutation_length P) as LP. rewrite seq_length in LP. pose proof (permutation_lt _ 2 0 P ltac:(lia)). pose proof (permutation_lt _ 2 1 P ltac:(lia)).
    pose proof (proj1 (NoDup_nth (permutation f) 0%nat) (Permutation_NoDup (Permutation_sym P) (seq_NoDup _ _)) 0%nat 1%nat ltac:(lia) ltac:(lia)).
    unfold p0, p1. lia. }
  clear C D PR.
  assert (T2 : r i i * r i i <= / 1000 * (r 0%nat 0%nat * r 0%nat 0%nat)).
  { assert (T' : Rabs (r i i) <= / 1000 * Rabs (r 0%nat 0%nat)).
    { eapply Rle_trans; [exact T|]. apply Rmult_le_compat_r; [apply Rabs_pos|]. change (Nat.max 3 2) with 3%nat. cbn [INR].
      apply Rle_trans with (/ IZR 4096 * (1 + 1 + 1)); [|lra]. apply Rmult_le_compat_r; [lra|]. apply Rinv_le_contravar; [apply IZR_lt; reflexivity|apply IZR_le; intros Q; discriminate Q]. }
    pose proof (Rabs_pos (r i i)). pose proof (Rabs_pos (r 0%nat 0%nat)).
    replace (r i i * r i i) with (Rabs (r i i) * Rabs (r i i)) by (rewrite <- Rabs_mult; apply Rabs_pos_eq, Rle_0_sqr).
    replace (r 0%nat 0%nat * r 0%nat 0%nat) with (Rabs (r 0%nat 0%nat) * Rabs (r 0%nat 0%nat)) by (rewrite <- Rabs_mult; apply Rabs_pos_eq, Rle_0_sqr).
    nra. }
  clear - Hi T2 N0 N1 N2 PP. unfold sample in *.
  destruct PP as [[-> ->] | [-> ->]]; cbn in N0, N1, N2; destruct i as [|[|i]]; try lia; nra.
Qed.
Example C81_example : shape 3 2 sample /\ columns_below max_value 3 2 (mget sample).
Proof. apply sample_ok. Qed.
Example C82_example : exists f x, shape 3 2 sample /\ columns_below max_value 3 2 (mget sample) /\ qr_decompose 3 2 sample = Ok f /\
  solve_least_squares 3 2 f [1; 3; 5] = Ok x.
Proof.
  destruct sample_ok as [S B]. destruct (C81_factor 3 2 sample ltac:(lia) S B) as (f & E & _).
  destruct (sample_solved f [1; 3; 5] E eq_refl) as [x X]. exists f, x. auto.
Qed.
(** two equal columns *)
Example C82_rank_deficient_example : let a := [[1; 1]; [2; 2]; [0; 0]] in
  shape 3 2 a /\ columns_below max_value 3 2 (mget a) /\
  equal_vectors 3 (times 2 (mget a) (fun i => if Nat.eqb i 0 then 1 else -1)) (fun _ => 0).
Proof.
  cbv zeta. split; [split; [reflexivity|]; intros [|[|[|i]]] H; try reflexivity; lia|]. split.
  - pose proof max_value_large. intros [|[|j]] Hj; try lia; unfold square_norm, dot_product, column; cbn; lra.
  - intros [|[|[|i]]] Hi; try lia; unfold times; cbn; lra.
Qed.

Print Assumptions C81_factor.
Print Assumptions C81_refuses.
Print Assumptions C81_any_scalar.
Print Assumptions C82_least.
Print Assumptions C82_refuses.
Print Assumptions C82_rank_deficient.
