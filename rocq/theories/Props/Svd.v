(** C84-C85: the singular value decomposition and the pseudo-inverse. *)
From Coq Require Import ZArith Reals List Bool Arith Lia Lra Psatz.
From Verif Require Import Base.Scalar Base.RNum Base.Lists Base.Series Base.Det Model.Errors Model.Vector Model.Matrix Model.Lu Model.Svd Spec.Matrix Spec.Svd.
From Verif Require Import Proofs.Matrix Proofs.Lu Proofs.Qr Proofs.Svd Proofs.Pinv.
Import ListNotations.
Local Open Scope R_scope.

Lemma finite_real (m : mat R) : mat_is_finite m = true.
Proof. unfold mat_is_finite. apply forallb_forall. intros x _. reflexivity. Qed.
Lemma svd_ok rows cols (m : mat R) : (cols <= rows)%nat -> svd_of rows cols m = Ok (fst (svd_found rows cols m)).
Proof. intros H. unfold svd_of. rewrite finite_real. destruct (Nat.ltb_spec rows cols); [lia|reflexivity]. Qed.

Lemma svd_facts rows cols m : (cols <= rows)%nat -> shape rows cols m -> exists d settled, svd_found rows cols m = (d, settled) /\ svd_of rows cols m = Ok d /\
  triple rows cols (mget m) (settled = true) epsilon (svd_left d) (singular_values d) (svd_right d) /\ ordered cols cols (singular_values d) /\
  forall k, (k < cols)%nat -> positive_peak rows (svd_left d) k.
Proof.
  intros H S. pose proof (svd_spec rows cols m S) as F. rewrite svd_ok by auto. cbv zeta in F. destruct (svd_found rows cols m) as [d settled]. exists d, settled. auto.
Qed.

(** A matrix with at least as many rows as columns is taken apart exactly: put together again from the left columns,
    the values and the right columns it is the matrix it was.  The right columns are orthonormal, so are the rows they
    form, the values fall and none is negative, each left column has length one, or is zero where its value is zero,
    and the entry of the largest size in each left column is not negative. *)
Theorem C84_factor rows cols m : (cols <= rows)%nat -> shape rows cols m ->
  exists d, svd_of rows cols m = Ok d /\
  let u := mget (svd_left d) in let s := vget (singular_values d) in let v := mget (svd_right d) in
  equal rows cols (composed cols u s v) (mget m) /\
  orthonormal_columns cols cols v /\ orthonormal_columns cols cols (transposed v) /\
  falling cols s /\ (forall k, (k < cols)%nat -> 0 <= s k) /\
  (forall k, (k < cols)%nat -> (0 < s k -> square_norm rows (column u k) = 1) /\ (s k = 0 -> equal_vectors rows (column u k) (fun _ => 0))) /\
  (forall k, (k < cols)%nat -> (0 < rows)%nat -> exists r, (r < rows)%nat /\ forall i, (i < rows)%nat -> Rabs (u i k) <= u r k).
Proof.
  intros H S. destruct (svd_facts rows cols m H S) as (d & st & _ & E & (T1 & T2 & T3 & T4 & T5 & T6 & T7 & T8) & O & P). exists d. split; [exact E|].
  cbv zeta. split; [exact T4|]. split; [exact T6|]. split; [exact T5|]. split; [intros i j Hij; apply O; lia|].
  split; [intros k Hk; apply T7; auto|]. split.
  - intros k Hk. destruct (T7 k Hk) as (S0 & S1 & S2). split; [apply S2|]. intros Z i Hi. apply S1; auto.
  - intros k Hk. apply P; auto.
Qed.
(** When the sweeps settle before the limit of sixty, the left columns are orthogonal to one part in [2^52]. *)
Theorem C84_left_columns rows cols m d : (cols <= rows)%nat -> shape rows cols m -> svd_found rows cols m = (d, true) ->
  svd_of rows cols m = Ok d /\
  forall p q, (p < cols)%nat -> (q < cols)%nat -> p <> q -> Rabs (dot_product rows (column (mget (svd_left d)) p) (column (mget (svd_left d)) q)) <= / 2 ^ 52.
Proof.
  intros H S E. destruct (svd_facts rows cols m H S) as (d' & st & E' & E2 & (T1 & T2 & T3 & T4 & T5 & T6 & T7 & T8) & O & P). rewrite E in E'. injection E' as <- <-.
  split; [exact E2|]. intros p q Hp Hq N. replace (/ 2 ^ 52) with (epsilon (Num := Rnum)); [apply T8; auto|]. rnum. f_equal. rewrite (pow_IZR 2 52). reflexivity.
Qed.
(** With one or two columns they always settle, at the latest in the second sweep. *)
Theorem C84_two_columns rows cols m : (cols <= 2)%nat -> (cols <= rows)%nat -> shape rows cols m -> exists d, svd_found rows cols m = (d, true).
Proof.
  intros C H S. assert (E : snd (svd_found rows cols m) = true).
  { rewrite svd_found_settled. destruct cols as [|[|[|]]]; try lia.
    - change 60%nat with (Datatypes.S 59). rewrite sweeps_next. cbv zeta. destruct (sweep_settled rows 0 m (identity 0)) as [_ Q]; [intros; lia|]. destruct (Rleb _ _) eqn:E; rcases; [reflexivity|lra].
    - change 60%nat with (Datatypes.S 59). rewrite sweeps_next. cbv zeta. destruct (sweep_settled rows 1 m (identity 1)) as [_ Q]; [intros; lia|]. destruct (Rleb _ _) eqn:E; rcases; [reflexivity|lra].
    - apply two_columns; auto. }
  destruct (svd_found rows cols m) as [d st]. cbn [snd] in E. subst st. eauto.
Qed.
(** Fewer rows than columns, or an entry that is not finite, and there is an error; otherwise there is none. *)
Theorem C84_refuses {T} {NT : Num T} rows cols (m : mat T) :
  ((rows < cols)%nat -> svd_of rows cols m = Err LaUnderdetermined) /\
  ((cols <= rows)%nat -> (exists x, In x (concat m) /\ is_finite x = false) -> svd_of rows cols m = Err LaNonFinite) /\
  ((cols <= rows)%nat -> (forall x, In x (concat m) -> is_finite x = true) -> exists d, svd_of rows cols m = Ok d).
Proof.
  unfold svd_of, mat_is_finite. split; [|split]; intros H; destruct (Nat.ltb_spec rows cols); try lia; auto.
  - intros (x & Hx & F). destruct (forallb _ _) eqn:E; [|reflexivity]. rewrite forallb_forall in E. rewrite (E x Hx) in F. discriminate F.
  - intros F. assert (E : forallb is_finite (concat m) = true) by (apply forallb_forall; auto). rewrite E. cbn [negb]. eexists. reflexivity.
Qed.
(** The left columns are said to be orthonormal. For a matrix whose columns are not independent they are not: those of
    the zero matrix are zero. *)
Theorem C84_orthonormal_left_refuted : exists rows cols m d, (cols <= rows)%nat /\ shape rows cols m /\ svd_of rows cols m = Ok d /\
  ~ orthonormal_columns rows cols (mget (svd_left d)).
Proof.
  exists 1%nat, 1%nat, [[0]]. assert (S : shape 1 1 [[0]]) by (split; [reflexivity|intros i Hi; destruct i; [reflexivity|lia]]).
  destruct (C84_factor 1 1 [[0]] ltac:(lia) S) as (d & E & F). cbv zeta in F. exists d. split; [lia|]. split; [exact S|]. split; [exact E|]. intros O.
  destruct F as (F1 & F2 & F3 & F4 & F5 & F6 & F7). specialize (F1 0%nat 0%nat ltac:(lia) ltac:(lia)). unfold composed in F1. cbn in F1.
  specialize (O 0%nat 0%nat ltac:(lia) ltac:(lia)). unfold dot_product, column in O. cbn in O.
  specialize (F2 0%nat 0%nat ltac:(lia) ltac:(lia)). unfold dot_product, column in F2. cbn in F2.
  destruct (F6 0%nat ltac:(lia)) as [_ Z]. set (u := mget (svd_left d) 0 0) in *. set (v := mget (svd_right d) 0 0) in *. set (s := vget (singular_values d) 0) in *.
  assert (SZ : s = 0). { assert (u <> 0) by (intros Q; rewrite Q in O; lra). assert (v <> 0) by (intros Q; rewrite Q in F2; lra).
    assert (u * s * v = 0) by lra. apply Rmult_integral in H1. destruct H1 as [H1|H1]; [|lra]. apply Rmult_integral in H1. lra. }
  specialize (Z SZ 0%nat ltac:(lia)). unfold column in Z. fold u in Z. rewrite Z in O. lra.
Qed.
Example C84_example : exists rows cols m d, (cols <= rows)%nat /\ shape rows cols m /\ svd_found rows cols m = (d, true) /\
  0 < vget (singular_values d) 1 /\ mget m 0 0 = 1 /\ mget m 0 1 = 2.
Proof.
  exists 3%nat, 2%nat, [[1; 2]; [3; 4]; [5; 6]]. assert (S : shape 3 2 [[1; 2]; [3; 4]; [5; 6]]) by (split; [reflexivity|intros i Hi; destruct i as [|[|[|]]]; try lia; reflexivity]).
  destruct (C84_two_columns 3 2 _ ltac:(lia) ltac:(lia) S) as [d E]. exists d. split; [lia|]. split; [exact S|]. split; [exact E|].
  destruct (C84_factor 3 2 _ ltac:(lia) S) as (d' & E' & F). destruct (C84_left_columns 3 2 _ d ltac:(lia) S E) as [E2 _]. rewrite E' in E2. injection E2 as ->. cbv zeta in F.
  destruct F as (F1 & F2 & F3 & F4 & F5 & F6 & F7).
  destruct (F5 1%nat ltac:(lia)) as [P|Z]; [split; auto|exfalso].
  (* with the second value zero the columns would be parallel *)
  assert (G : forall i j, (i < 3)%nat -> (j < 2)%nat -> mget (svd_left d) i 0 * vget (singular_values d) 0 * mget (svd_right d) j 0 = mget [[1; 2]; [3; 4]; [5; 6]] i j).
  { intros i j Hi Hj. rewrite <- (F1 i j Hi Hj). unfold composed. cbn [bsum]. rewrite <- Z. ring. }
  pose proof (G 0%nat 0%nat ltac:(lia) ltac:(lia)) as G1. pose proof (G 0%nat 1%nat ltac:(lia) ltac:(lia)) as G2. pose proof (G 1%nat 0%nat ltac:(lia) ltac:(lia)) as G3. pose proof (G 1%nat 1%nat ltac:(lia) ltac:(lia)) as G4.
  unfold mget in G1, G2, G3, G4. cbn [nth] in G1, G2, G3, G4.
  set (u0 := nth 0 (nth 0 (svd_left d) []) _) in *. set (u1 := nth 0 (nth 1 (svd_left d) []) _) in *. set (s := vget (singular_values d) 0) in *. set (v0 := nth 0 (nth 0 (svd_right d) []) _) in *. set (v1 := nth 0 (nth 1 (svd_right d) []) _) in *.
  assert ((u0 * s * v0) * (u1 * s * v1) = (u0 * s * v1) * (u1 * s * v0)) by ring. rewrite G1, G2, G3, G4 in H. lra.
Qed.

(** ** The pseudo-inverse *)
Lemma tol_pos rows cols m d small : triple rows cols (mget m) small epsilon (svd_left d) (singular_values d) (svd_right d) -> 0 <= svd_default_tol rows cols d.
Proof.
  intros (T1 & T2 & T3 & T4 & T5 & T6 & T7 & T8). unfold svd_default_tol. destruct (Nat.eqb_spec cols 0) as [_|N]; [rnum; lra|].
  destruct (T7 0%nat ltac:(lia)) as (S0 & _). pose proof epsilon_pos. change (mul (mul (of_nat (Nat.max rows cols)) epsilon) (vget (singular_values d) 0))
    with (of_nat (Nat.max rows cols) * epsilon * vget (singular_values d) 0).
  apply Rmult_le_pos; [apply Rmult_le_pos; [|lra]|auto]. unfold of_nat. rnum. rewrite <- INR_IZR_INZ. apply pos_INR.
Qed.
Lemma tol_value rows cols (d : svd) : (0 < cols <= rows)%nat -> svd_default_tol rows cols d = INR rows * / 2 ^ 52 * vget (singular_values d) 0.
Proof.
  intros H. unfold svd_default_tol. destruct (Nat.eqb_spec cols 0) as [|_]; [lia|]. rewrite Nat.max_l by lia. unfold of_nat. rnum. rewrite <- INR_IZR_INZ. rewrite (pow_IZR 2 52). reflexivity.
Qed.
(** The four conditions single out one matrix, and it solves least squares with the shortest solution. *)
Theorem C85_conditions rows cols a p : moore_penrose rows cols a p ->
  (forall q, moore_penrose rows cols a q -> equal cols rows q p) /\ forall b, shortest_least_squares rows cols a b (times rows p b).
Proof. intros M. split; [intros q Q; apply (penrose_unique rows cols a q p); auto|]. intros b. apply penrose_least_squares; auto. Qed.
(** When the left columns are orthogonal and every value is zero or above the cut, the pseudo-inverse is exactly the
    Moore-Penrose inverse, and [solve] gives the shortest least squares solution. *)
Theorem C85_exact rows cols m d : (0 < cols <= rows)%nat -> shape rows cols m -> svd_of rows cols m = Ok d ->
  (forall p q, (p < cols)%nat -> (q < cols)%nat -> p <> q -> dot_product rows (column (mget (svd_left d)) p) (column (mget (svd_left d)) q) = 0) ->
  (forall k, (k < cols)%nat -> vget (singular_values d) k = 0 \/ INR rows * / 2 ^ 52 * vget (singular_values d) 0 < vget (singular_values d) k) ->
  exists p, pseudo_inverse rows cols m = Ok p /\ shape cols rows p /\ moore_penrose rows cols (mget m) (mget p) /\
  forall b, length b = rows -> equal_vectors cols (vget (svd_solve rows cols d b)) (times rows (mget p) (vget b)) /\
    shortest_least_squares rows cols (mget m) (vget b) (vget (svd_solve rows cols d b)).
Proof.
  intros H S E O D. unfold pseudo_inverse. destruct (svd_facts rows cols m ltac:(lia) S) as (d' & st & _ & E2 & T & _). rewrite E in E2. injection E2 as <-.
  rewrite E. destruct (Nat.leb_spec cols rows); [|lia]. pose proof (tol_pos rows cols m d _ T) as T0. pose proof (tol_value rows cols d H) as TV.
  exists (svd_pseudo_inverse rows cols d). split; [reflexivity|]. split; [apply shape_mat_fn|].
  assert (MP : moore_penrose rows cols (mget m) (mget (svd_pseudo_inverse rows cols d))).
  { apply (pseudo_exact rows cols (mget m) _ _ _ d T T0); [exact O|]. intros k Hk L. rewrite TV in L. destruct (D k Hk); lra. }
  split; [exact MP|]. intros b HB.
  assert (SE : equal_vectors cols (vget (svd_solve rows cols d b)) (times rows (mget (svd_pseudo_inverse rows cols d)) (vget b))).
  { intros i Hi. apply (solve_spec rows cols _ d b i eq_refl HB Hi). }
  split; [exact SE|]. intros y. destruct (penrose_least_squares rows cols _ _ MP (vget b) y) as [L1 L2].
  assert (TE : equal_vectors rows (times cols (mget m) (vget (svd_solve rows cols d b))) (times cols (mget m) (times rows (mget (svd_pseudo_inverse rows cols d)) (vget b)))).
  { intros i Hi. apply times_ext; auto. }
  assert (RE : square_norm rows (fun i => times cols (mget m) (vget (svd_solve rows cols d b)) i - vget b i) = square_norm rows (fun i => times cols (mget m) (times rows (mget (svd_pseudo_inverse rows cols d)) (vget b)) i - vget b i)).
  { apply dot_ext; intros i Hi; rewrite TE by auto; reflexivity. }
  rewrite RE. split; [exact L1|]. intros Q. rewrite (dot_ext cols _ _ _ _ SE SE : square_norm cols (vget (svd_solve rows cols d b)) = _). apply L2. exact Q.
Qed.
(** One rotation makes two columns exactly orthogonal, so with two columns that do not meet in an angle within one part
    in [2^52] of a right one, this is so. *)
Theorem C85_two_columns rows m d : (2 <= rows)%nat -> shape rows 2 m -> svd_of rows 2 m = Ok d ->
  (let overlap := dot_product rows (column (mget m) 0) (column (mget m) 1) in
   overlap = 0 \/ / 2 ^ 52 * R_sqrt.sqrt (square_norm rows (column (mget m) 0) * square_norm rows (column (mget m) 1)) < Rabs overlap) ->
  forall p q, (p < 2)%nat -> (q < 2)%nat -> p <> q -> dot_product rows (column (mget (svd_left d)) p) (column (mget (svd_left d)) q) = 0.
Proof.
  intros H S E O. destruct (two_columns rows m S) as [_ C]. cbv zeta in C, O.
  assert (Z : dot_product rows (col (fst (fst (svd_sweeps rows 2 60 m (identity 2)))) 0) (col (fst (fst (svd_sweeps rows 2 60 m (identity 2)))) 1) = 0).
  { destruct C as [[C1 C2]|C]; auto. rewrite C1. destruct O as [O|O]; [exact O|]. exfalso. unfold overlaps in C2. rnum. unfold epsilon in C2; cbn in C2.
    change (col m 0) with (column (mget m) 0) in C2. change (col m 1) with (column (mget m) 1) in C2. rewrite (pow_IZR 2 52) in O. change (2 ^ Z.of_nat 52)%Z with 4503599627370496%Z in O. lra. }
  assert (X : True -> forall p q, (p < q < 2)%nat -> overlap_at_most 0 rows (fst (fst (svd_sweeps rows 2 60 m (identity 2)))) p q).
  { intros _ p q Hpq. replace p with 0%nat by lia. replace q with 1%nat by lia. unfold overlap_at_most. rewrite Z, Rabs_R0. lra. }
  pose proof (svd_spec_at rows 2 m True 0 ltac:(lra) S X) as F. cbv zeta in F. rewrite svd_ok in E by lia. destruct (svd_found rows 2 m) as [d' st]. cbn [fst] in *. injection E as ->.
  destruct F as ((T1 & T2 & T3 & T4 & T5 & T6 & T7 & T8) & _). intros p q Hp Hq N. specialize (T8 I p q Hp Hq N). change (col (svd_left d)) with (column (mget (svd_left d))) in T8.
  unfold Rabs in T8. destruct (Rcase_abs _) in T8; lra.
Qed.
(** Whenever the sweeps settle, taking the matrix, its pseudo-inverse and the matrix again gives the matrix back to
    within [2 rows cols] parts in [2^52] of the largest value, and the product of the matrix with its pseudo-inverse is
    exactly symmetric. *)
Theorem C85_settled rows cols m d : (0 < cols <= rows)%nat -> shape rows cols m -> svd_found rows cols m = (d, true) ->
  exists p, pseudo_inverse rows cols m = Ok p /\ shape cols rows p /\ symmetric rows (product cols (mget m) (mget p)) /\
  forall i j, (i < rows)%nat -> (j < cols)%nat ->
    Rabs (product rows (product cols (mget m) (mget p)) (mget m) i j - mget m i j) <= 2 * INR rows * INR cols * / 2 ^ 52 * vget (singular_values d) 0.
Proof.
  intros H S E. unfold pseudo_inverse. destruct (svd_facts rows cols m ltac:(lia) S) as (d' & st & E' & E2 & T & O & _). rewrite E in E'. injection E' as <- <-.
  rewrite E2. destruct (Nat.leb_spec cols rows); [|lia]. pose proof (tol_pos rows cols m d _ T) as T0. pose proof (tol_value rows cols d H) as TV.
  exists (svd_pseudo_inverse rows cols d). split; [reflexivity|]. split; [apply shape_mat_fn|]. split; [apply (AP_symmetric rows cols (mget m) _ _ _ d T)|].
  { exact T0. }
  intros i j Hi Hj. pose proof (APA_close rows cols (mget m) _ _ _ d T T0 i j Hi Hj) as B.
  specialize (B ltac:(pose proof epsilon_pos; lra) O eq_refl). eapply Rle_trans; [exact B|]. rewrite TV.
  replace (epsilon (Num := Rnum)) with (/ 2 ^ 52) by (rnum; rewrite (pow_IZR 2 52); reflexivity).
  assert (S0 : 0 <= vget (singular_values d) 0) by (destruct T as (_ & _ & _ & _ & _ & _ & T7 & _); apply T7; lia).
  assert (L : INR cols <= INR rows) by (apply le_INR; lia). pose proof (pos_INR cols) as C0. assert (Q : 0 < / 2 ^ 52) by (apply Rinv_0_lt_compat; apply pow_lt; lra).
  set (e := / 2 ^ 52) in *. set (s := vget (singular_values d) 0) in *. assert (0 <= e * s) by nra. assert (0 <= (INR rows - INR cols) * INR cols * (e * s)) by (apply Rmult_le_pos; [apply Rmult_le_pos; lra|auto]). nra.
Qed.
(** Of a matrix with more columns than rows it is the transposed pseudo-inverse of the transposed matrix; and the
    transposed Moore-Penrose inverse of the transposed matrix is the Moore-Penrose inverse. *)
Theorem C85_wide rows cols m : (rows < cols)%nat -> shape rows cols m ->
  (exists q, pseudo_inverse cols rows (Matrix.transpose rows cols m) = Ok q /\ pseudo_inverse rows cols m = Ok (Matrix.transpose rows cols q)) /\
  forall p, moore_penrose cols rows (mget (Matrix.transpose rows cols m)) p -> moore_penrose rows cols (mget m) (transposed p).
Proof.
  intros H S. split.
  - unfold pseudo_inverse. destruct (Nat.leb_spec cols rows); [lia|]. destruct (Nat.leb_spec rows cols); [|lia]. rewrite !svd_ok by lia. eauto.
  - intros p M. apply penrose_transposed. destruct M as (M1 & M2 & M3 & M4).
    assert (E : forall i j, (i < cols)%nat -> (j < rows)%nat -> mget (Matrix.transpose rows cols m) i j = transposed (mget m) i j) by (intros; rewrite mget_transpose by auto; reflexivity).
    assert (PE : forall i j, (i < rows)%nat -> (j < rows)%nat -> product cols p (mget (Matrix.transpose rows cols m)) i j = product cols p (transposed (mget m)) i j) by (intros; apply product_ext; auto).
    assert (EP : forall i j, (i < cols)%nat -> product rows (mget (Matrix.transpose rows cols m)) p i j = product rows (transposed (mget m)) p i j) by (intros; apply product_ext; auto).
    split; [|split; [|split]].
    + intros i j Hi Hj. rewrite <- E by auto. rewrite <- M1 by auto. apply product_ext; intros; [rewrite EP by auto; reflexivity|rewrite E by auto; reflexivity].
    + intros i j Hi Hj. rewrite <- M2 by auto. apply product_ext; intros; [rewrite PE by auto; reflexivity|reflexivity].
    + intros i j Hi Hj. unfold transposed at 2. rewrite <- !EP by auto. apply M3; auto.
    + intros i j Hi Hj. unfold transposed at 2. rewrite <- !PE by auto. apply M4; auto.
Qed.
Example C85_example : exists rows m d, (2 <= rows)%nat /\ shape rows 2 m /\ svd_of rows 2 m = Ok d /\
  (forall p q, (p < 2)%nat -> (q < 2)%nat -> p <> q -> dot_product rows (column (mget (svd_left d)) p) (column (mget (svd_left d)) q) = 0) /\ 
  dot_product rows (column (mget m) 0) (column (mget m) 1) = 44.
Proof.
  exists 3%nat, [[1; 2]; [3; 4]; [5; 6]]. assert (S : shape 3 2 [[1; 2]; [3; 4]; [5; 6]]) by (split; [reflexivity|intros i Hi; destruct i as [|[|[|]]]; try lia; reflexivity]).
  assert (D : dot_product 3 (column (mget [[1; 2]; [3; 4]; [5; 6]]) 0) (column (mget [[1; 2]; [3; 4]; [5; 6]]) 1) = 44) by (unfold dot_product, column, mget; cbn; lra).
  destruct (svd_facts 3 2 _ ltac:(lia) S) as (d & st & _ & E & _). exists d. split; [lia|]. split; [exact S|]. split; [exact E|]. split; [|exact D].
  apply (C85_two_columns 3 [[1; 2]; [3; 4]; [5; 6]] d); auto. cbv zeta. right. rewrite D. rewrite Rabs_right by lra.
  replace (square_norm 3 (column (mget [[1; 2]; [3; 4]; [5; 6]]) 0)) with 35 by (unfold square_norm, dot_product, column, mget; cbn; lra).
  replace (square_norm 3 (column (mget [[1; 2]; [3; 4]; [5; 6]]) 1)) with 56 by (unfold square_norm, dot_product, column, mget; cbn; lra).
  assert (Q : R_sqrt.sqrt (35 * 56) < 45). { apply Rlt_le_trans with (R_sqrt.sqrt (45 * 45)); [apply sqrt_lt_1; lra|rewrite sqrt_square; lra]. }
  assert (P0 : 0 <= R_sqrt.sqrt (35 * 56)) by apply sqrt_pos.
  assert (B : / 2 ^ 52 <= / 2). { apply Rinv_le_contravar; [lra|]. apply Rle_trans with (2 ^ 1); [lra|]. apply Rle_pow; [lra|lia]. }
  assert (0 < / 2 ^ 52) by (apply Rinv_0_lt_compat; apply pow_lt; lra). nra.
Qed.

Print Assumptions C84_factor.
Print Assumptions C84_left_columns.
Print Assumptions C84_two_columns.
Print Assumptions C84_refuses.
Print Assumptions C84_orthonormal_left_refuted.
Print Assumptions C84_example.
Print Assumptions C85_conditions.
Print Assumptions C85_exact.
Print Assumptions C85_two_columns.
Print Assumptions C85_settled.
Print Assumptions C85_wide.
Print Assumptions C85_example.
