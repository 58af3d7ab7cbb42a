(** C83: damped least squares on one factorization. *)
From Coq Require Import ZArith Reals List Bool Arith Lia Lra Permutation.
From Verif Require Import Base.Scalar Base.RNum Base.Lists Base.Series Base.Det.
From Verif Require Import Model.Errors Model.Vector Model.Matrix Model.Lu Model.Qr Spec.Matrix Proofs.Matrix Proofs.Lu Proofs.Qr Proofs.Damped Props.Qr.
Import ListNotations.
Local Open Scope R_scope.

(** the damped normal equations: [a^T a + d^2] *)
Definition damped_normal (rows : nat) (a : matrix) (d : vector) : matrix :=
  fun i j => product rows (transposed a) a i j + (if Nat.eqb i j then d i * d i else 0).

Section Problem.
  Variables (rows cols : nat) (a : mat R) (f : @qr R) (b : list R) (diag : list R).
  Hypothesis Hrc : (cols <= rows)%nat.
  Hypothesis Ha : shape rows cols a.
  Hypothesis Hb : columns_below max_value rows cols (mget a).
  Hypothesis Hf : qr_decompose rows cols a = Ok f.
  Hypothesis Hl : length b = rows.
  Notation d := (into_damped rows cols f b).
  Notation p := (fun j => nth j (permutation f) 0%nat).

  Lemma damped_parts : shape cols cols (triangular d) /\ upper_triangular cols (mget (triangular d)) /\ length (qt_b d) = cols /\
    Permutation (d_permutation d) (seq 0 cols) /\
    (forall i j, (i < cols)%nat -> (j < cols)%nat -> bsum cols (fun r => mget (triangular d) r i * mget (triangular d) r j) = product rows (transposed (mget a)) (mget a) (p i) (p j)) /\
    (forall i, (i < cols)%nat -> bsum cols (fun r => mget (triangular d) r i * vget (qt_b d) r) = times rows (transposed (mget a)) (vget b) (p i)) /\
    (forall z, square_norm rows (times cols (mget a) z) = square_norm cols (fun r => bsum cols (fun j => mget (triangular d) r j * z (p j)))) /\
    (forall c, (c < cols)%nat -> vget (d_column_norms d) c = R_sqrt.sqrt (square_norm rows (column (mget a) c))).
  Proof.
    destruct (factors rows cols a Hrc Ha Hb) as (f' & E' & (s & Q & Ep & Ed & Em) & N). rewrite Hf in E'. injection E' as <-.
    assert (TS : forall i j, (i < cols)%nat -> (j < cols)%nat -> mget (triangular d) i j = upper f i j) by (intros; apply triangular_spec; auto).
    split; [apply shape_mat_fn|]. split.
    { intros i j Hi Hj L. rewrite TS by auto. unfold upper. nat_case. reflexivity. }
    split; [apply from_fn_length|]. split; [apply (perm_ok rows cols a f s Q Em)|]. split; [|split; [|split]].
    - intros i j Hi Hj. rewrite (bsum_ext cols _ (fun r => upper f r i * upper f r j)) by (intros r Hr; rewrite !TS by auto; reflexivity).
      apply (triangle_gram rows cols a f s Hrc Q Ep Ed Em); auto.
    - intros i Hi. transitivity (bsum cols (fun r => upper f r i * vget (qr_transform rows cols f b) r)).
      + apply bsum_ext. intros r Hr. rewrite TS by auto. cbn [into_damped qt_b]. rewrite vget_from_fn by auto. reflexivity.
      + apply (triangle_right rows cols a f s Hrc Q Ep Ed Em); auto.
    - intros z. unfold square_norm.
      rewrite (dot_ext rows _ _ _ _ (times_backward rows cols a f s Hrc Q Ep Ed Em z) (times_backward rows cols a f s Hrc Q Ep Ed Em z)).
      rewrite backward_dot by (apply (all_good rows cols a f s Q Ep)). unfold dot_product.
      replace rows with (cols + (rows - cols))%nat by lia. rewrite bsum_shift.
      rewrite (bsum_ext (rows - cols) _ (fun _ => 0)).
      2:{ intros i Hi. rewrite (bsum_ext cols _ (fun _ => 0)). rewrite bsum_0. ring. intros j Hj. unfold upper. nat_case. ring. }
      rewrite bsum_0, Rplus_0_r. apply bsum_ext. intros i Hi.
      rewrite (bsum_ext cols _ (fun j => mget (triangular d) i j * z (p j))) by (intros j Hj; rewrite TS by auto; unfold permuted; ring). reflexivity.
    - exact N.
  Qed.
  Lemma reindex (c : nat) : (c < cols)%nat -> exists j, (j < cols)%nat /\ p j = c.
  Proof.
    intros Hc. destruct damped_parts as (_ & _ & _ & P & _). cbn [into_damped d_permutation] in P.
    assert (I : In c (permutation f)) by (apply (Permutation_in c (Permutation_sym P)), in_seq; lia).
    destruct (In_nth _ _ 0%nat I) as (j & Hj & E). exists j. split; auto. rewrite (Permutation_length P), seq_length in Hj. exact Hj.
  Qed.
  Lemma perm_inj i j : (i < cols)%nat -> (j < cols)%nat -> p i = p j -> i = j.
  Proof.
    intros Hi Hj E. destruct damped_parts as (_ & _ & _ & P & _). cbn [into_damped d_permutation] in P.
    apply (proj1 (NoDup_nth (permutation f) 0%nat)); auto; try (rewrite (Permutation_length P), seq_length; auto).
    eapply Permutation_NoDup; [apply Permutation_sym, P|apply seq_NoDup].
  Qed.
  Lemma normal_permuted i j : (i < cols)%nat -> (j < cols)%nat ->
    bsum cols (fun r => mget (triangular d) r i * mget (triangular d) r j) + (if Nat.eqb i j then vget diag (p i) * vget diag (p i) else 0) =
    damped_normal rows (mget a) (vget diag) (p i) (p j).
  Proof.
    intros Hi Hj. destruct damped_parts as (_ & _ & _ & _ & G & _). rewrite G by auto. unfold damped_normal. f_equal.
    destruct (Nat.eqb_spec i j) as [->|N]; [rewrite Nat.eqb_refl; reflexivity|].
    destruct (Nat.eqb_spec (p i) (p j)) as [E|]; auto. destruct (N (perm_inj i j Hi Hj E)).
  Qed.
  Lemma regular_permuted : ~ singular cols (damped_normal rows (mget a) (vget diag)) ->
    ~ singular cols (fun i j => bsum cols (fun r => mget (triangular d) r i * mget (triangular d) r j) + (if Nat.eqb i j then vget diag (p i) * vget diag (p i) else 0)).
  Proof.
    intros N (v & (k & Hk & V) & K). apply N.
    destruct damped_parts as (_ & _ & _ & P & _). destruct (unpermute_spec cols (permutation f) (from_fn cols v) P) as [U1 U2].
    set (z := unpermute cols (permutation f) (from_fn cols v)) in *.
    assert (ZE : forall j, (j < cols)%nat -> vget z (p j) = v j) by (intros j Hj; rewrite U2, vget_from_fn by auto; reflexivity).
    exists (vget z). split.
    - exists (p k). split; [apply permutation_lt; auto|]. rewrite ZE by auto. exact V.
    - intros c Hc. destruct (reindex c Hc) as (i & Hi & <-). rewrite <- (K i Hi). unfold times.
      rewrite <- (bsum_permuted cols (permutation f) (fun c => damped_normal rows (mget a) (vget diag) (p i) c * vget z c) P).
      apply bsum_ext. intros j Hj. rewrite normal_permuted by auto. rewrite ZE by auto. reflexivity.
  Qed.

  (** The solution of the damped normal equations, and the only one, whenever they have only one. *)
Theorem C83_solution : ~ singular cols (damped_normal rows (mget a) (vget diag)) ->
    let x := fst (solve_with_diagonal cols d diag) in
    length x = cols /\
    equal_vectors cols (times cols (damped_normal rows (mget a) (vget diag)) (vget x)) (times rows (transposed (mget a)) (vget b)) /\
    forall y, equal_vectors cols (times cols (damped_normal rows (mget a) (vget diag)) y) (times rows (transposed (mget a)) (vget b)) -> equal_vectors cols y (vget x).
  Proof.
    intros N. cbv zeta. destruct damped_parts as (P1 & P2 & P3 & P4 & P5 & P6 & _).
    pose proof (regular_diagonal cols d diag P1 P2 P3 P4 (regular_permuted N)) as RD.
    destruct (solve_factor cols d diag P1 P2 P3 P4) as [F1 F2]. destruct (F2 RD) as [L S]. clear F2.
    set (x := fst (solve_with_diagonal cols d diag)) in *.
    assert (E : equal_vectors cols (times cols (damped_normal rows (mget a) (vget diag)) (vget x)) (times rows (transposed (mget a)) (vget b))).
    { intros c Hc. destruct (reindex c Hc) as (i & Hi & <-). rewrite <- P6, <- S by auto. unfold times.
      rewrite <- (bsum_permuted cols (permutation f) (fun c => damped_normal rows (mget a) (vget diag) (p i) c * vget x c) P4).
      apply bsum_ext. intros j Hj. rewrite F1 by auto. rewrite <- normal_permuted by auto. reflexivity. }
    split; auto. split; auto. intros y Hy i Hi. destruct (Req_dec (y i) (vget x i)) as [|NE]; auto. exfalso. apply N.
    exists (fun k => y k - vget x k). split; [exists i; split; auto; lra|]. intros k Hk. specialize (E k Hk). specialize (Hy k Hk).
    unfold times in *. rewrite (bsum_ext cols _ (fun j => damped_normal rows (mget a) (vget diag) k j * y j - damped_normal rows (mget a) (vget diag) k j * vget x j)) by (intros; ring).
    rewrite bsum_minus. lra.
  Qed.
  (** The triangle that comes with it: its square is the damped normal matrix in the pivot order, and its own solve is
      the forward substitution. *)
Theorem C83_triangle : let s := triangle (snd (solve_with_diagonal cols d diag)) in
    upper_triangular cols s /\
    equal cols cols (product cols (transposed s) s) (fun i j => damped_normal rows (mget a) (vget diag) (p i) (p j)) /\
    (~ singular cols (damped_normal rows (mget a) (vget diag)) -> forall rhs, length rhs = cols ->
      equal_vectors cols (times cols (transposed s) (vget (damped_factor_solve cols (snd (solve_with_diagonal cols d diag)) rhs))) (vget rhs)).
  Proof.
    cbv zeta. destruct damped_parts as (P1 & P2 & P3 & P4 & P5 & P6 & _).
    destruct (solve_factor cols d diag P1 P2 P3 P4) as [F1 F2]. split; [|split].
    - intros i j Hi Hj L. unfold triangle. nat_case. reflexivity.
    - intros i j Hi Hj. rewrite <- normal_permuted by auto. apply F1; auto.
    - intros N rhs L. pose proof (regular_diagonal cols d diag P1 P2 P3 P4 (regular_permuted N)) as RD.
      destruct (factor_solve_spec cols (snd (solve_with_diagonal cols d diag)) rhs L) as [_ S].
      { intros r Hr. specialize (RD r Hr). unfold triangle in RD. revert RD. nat_case. auto. }
      intros c Hc. apply S; auto.
  Qed.
  (** The equations have only one solution when every damping entry is nonzero, and when the columns are independent. *)
Theorem C83_regular : (forall i, (i < cols)%nat -> vget diag i <> 0) \/
    (forall y, equal_vectors rows (times cols (mget a) y) (fun _ => 0) -> equal_vectors cols y (fun _ => 0)) ->
    ~ singular cols (damped_normal rows (mget a) (vget diag)).
  Proof.
    clear. intros H (y & (k & Hk & N) & K).
    assert (E : square_norm rows (times cols (mget a) y) + bsum cols (fun i => (vget diag i * y i) * (vget diag i * y i)) = 0).
    { rewrite <- (bsum_0 cols). rewrite (bsum_ext cols (fun _ => 0) (fun i => y i * times cols (damped_normal rows (mget a) (vget diag)) y i)) by (intros i Hi; rewrite K by auto; ring).
      unfold times, damped_normal.
      rewrite (bsum_ext cols (fun i => y i * bsum cols _) (fun i => bsum cols (fun j => y i * (product rows (transposed (mget a)) (mget a) i j * y j)) + (vget diag i * y i) * (vget diag i * y i))).
      2:{ intros i Hi. rewrite <- bsum_scal.
          rewrite (bsum_ext cols _ (fun j => y i * (product rows (transposed (mget a)) (mget a) i j * y j) + (if Nat.eqb j i then (vget diag i * y i) * (vget diag i * y i) else 0))).
          - rewrite bsum_plus. rewrite bsum_delta by auto. reflexivity.
          - intros j Hj. rewrite (Nat.eqb_sym i j). destruct (Nat.eqb_spec j i) as [->|]; ring. }
      rewrite bsum_plus. f_equal. unfold square_norm, dot_product, product, transposed.
      rewrite (bsum_ext cols _ (fun i => bsum rows (fun r => y i * mget a r i * bsum cols (fun j => mget a r j * y j)))).
      - rewrite bsum_swap. apply bsum_ext. intros r Hr. rewrite <- bsum_scal. apply bsum_ext. intros; ring.
      - intros i Hi. rewrite (bsum_ext cols _ (fun j => bsum rows (fun r => y i * mget a r i * (mget a r j * y j)))).
        + rewrite bsum_swap. apply bsum_ext. intros r Hr. apply bsum_scal.
        + intros j Hj. rewrite (Rmult_comm (bsum _ _)), <- !bsum_scal. apply bsum_ext. intros; ring. }
    pose proof (bsum_nonneg rows (fun i => times cols (mget a) y i * times cols (mget a) y i) (fun i _ => Rle_0_sqr _)) as N1.
    pose proof (bsum_nonneg cols (fun i => (vget diag i * y i) * (vget diag i * y i)) (fun i _ => Rle_0_sqr _)) as N2.
    unfold square_norm, dot_product in E. cbv beta in N1, N2. assert (B1 : bsum cols (fun i => (vget diag i * y i) * (vget diag i * y i)) = 0) by lra.
    assert (B2 : bsum rows (fun i => times cols (mget a) y i * times cols (mget a) y i) = 0) by lra. destruct H as [H|H].
    - pose proof (bsum_zero_terms cols (fun i => (vget diag i * y i) * (vget diag i * y i)) (fun i _ => Rle_0_sqr (vget diag i * y i)) B1 k Hk) as Z.
      apply Rsqr_0_uniq in Z. apply Rmult_integral in Z. destruct Z; [destruct (H k Hk); auto|contradiction].
    - apply N. apply (H y); auto. intros i Hi. apply Rsqr_0_uniq.
      apply (bsum_zero_terms rows (fun i => times cols (mget a) y i * times cols (mget a) y i) (fun i _ => Rle_0_sqr (times cols (mget a) y i)) B2 i Hi).
  Qed.

  (** The length of [a x]. *)
Theorem C83_length x : square_norm rows (times cols (mget a) (vget x)) < max_value / (INR cols * INR cols) ->
    a_x_norm cols d x = R_sqrt.sqrt (square_norm rows (times cols (mget a) (vget x))).
  Proof.
    destruct damped_parts as (P1 & P2 & P3 & P4 & _ & _ & P7 & _). rewrite P7. intros B. unfold a_x_norm.
    match goal with |- enorm ?z = _ => assert (G : length z = cols /\ forall i, (i < cols)%nat -> vget z i = bsum cols (fun j => mget (triangular d) i j * vget x (p j))) end.
    { apply (for_loop (fun k (z : list R) => length z = cols /\ forall i, (i < cols)%nat -> vget z i = bsum k (fun j => mget (triangular d) i j * vget x (p j)))).
      - lia.
      - split; [apply repeat_length|]. intros i Hi. unfold vget. rewrite nth_repeat. reflexivity.
      - intros k z Hk [Z1 Z2].
        match goal with |- length ?w = _ /\ _ => enough (G : length w = cols /\ forall i, vget w i = if Nat.ltb i (k + 1) then vget z i + mget (triangular d) i k * vget x (p k) else vget z i) end.
        { destruct G as [G1 G2]. split; auto. intros i Hi. rewrite G2, Z2 by auto. cbn [bsum]. destruct (Nat.ltb_spec i (k + 1)); auto.
          rewrite (P2 i k) by lia. ring. }
        apply (for_loop (fun m (w : list R) => length w = cols /\ forall i, vget w i = if Nat.ltb i m then vget z i + mget (triangular d) i k * vget x (p k) else vget z i)).
        + lia.
        + split; auto.
        + intros m w Hm [W1 W2]. split; [rewrite set_nth_length; auto|]. intros i. rewrite vget_set' by lia. rewrite !W2.
          cbn [into_damped d_permutation]. nat_case; subst; try reflexivity; lia. }
    match goal with |- enorm ?z = _ => set (w := z) in * end. destruct G as [G1 G2].
    set (v := fun r => bsum cols (fun j => mget (triangular d) r j * vget x (p j))) in *.
    assert (E : w = tail_column cols 0 0 (map (fun v => [v]) w)).
    { unfold tail_column, range. rewrite Nat.sub_0_r, <- G1. clear. induction w as [|y w IH]; [reflexivity|].
      cbn [length seq map]. f_equal. rewrite <- seq_shift, map_map. rewrite IH at 1. apply map_ext. intros i. reflexivity. }
    assert (C : equal_vectors cols (col (map (fun v => [v]) w) 0) v).
    { intros i Hi. unfold col, mget. rewrite (nth_indep _ nil [0]) by (rewrite map_length; lia). rewrite (map_nth (fun v => [v]) w 0 i). apply G2; auto. }
    assert (SN : square_norm cols (col (map (fun v => [v]) w) 0) = square_norm cols v) by (apply dot_ext; exact C).
    rewrite E. rewrite (enorm_tail cols cols (le_n _)) by (try lia; rewrite SN; exact B). rewrite tail2_0, SN. reflexivity.
  Qed.

  (** The largest of [|a_j . b| / (b_norm |a_j|)] over the columns [a_j] that are not zero, and zero if there are none. *)
Theorem C83_gradient b_norm : b_norm <> 0 ->
    let slope j := Rabs (times rows (transposed (mget a)) (vget b) j / b_norm / R_sqrt.sqrt (square_norm rows (column (mget a) j))) in
    let nonzero j := square_norm rows (column (mget a) j) <> 0 in
    let r := max_a_t_b_scaled cols d b_norm in
    0 <= r /\ (forall j, (j < cols)%nat -> nonzero j -> slope j <= r) /\ (r = 0 \/ exists j, (j < cols)%nat /\ nonzero j /\ r = slope j).
  Proof.
    intros NB. cbv zeta. destruct damped_parts as (P1 & P2 & P3 & P4 & _ & P6 & _ & P8).
    set (slope := fun j => Rabs (times rows (transposed (mget a)) (vget b) j / b_norm / R_sqrt.sqrt (square_norm rows (column (mget a) j)))).
    set (nonzero := fun j => square_norm rows (column (mget a) j) <> 0).
    assert (SQ : forall j, (j < cols)%nat -> vget (d_column_norms d) j = 0 <-> ~ nonzero j).
    { intros j Hj. rewrite P8 by auto. unfold nonzero. assert (0 <= square_norm rows (column (mget a) j)) by (apply bsum_nonneg; intros; apply Rle_0_sqr).
      split. intros Z N. apply N. apply sqrt_eq_0; auto. intros N. destruct (Req_dec (square_norm rows (column (mget a) j)) 0) as [->|]; [apply sqrt_0|contradiction]. }
    unfold max_a_t_b_scaled. rnum. rdecide.
    match goal with |- 0 <= ?r /\ _ => enough (G : 0 <= r /\ (forall j, (j < cols)%nat -> nonzero (p j) -> slope (p j) <= r) /\ (r = 0 \/ exists j, (j < cols)%nat /\ nonzero (p j) /\ r = slope (p j))) end.
    { destruct G as (G1 & G2 & G3). split; auto. split.
      - intros j Hj. destruct (reindex j Hj) as (i & Hi & <-). apply G2; auto.
      - destruct G3 as [|(j & Hj & G3)]; [left; auto|right; exists (p j); split; auto]. apply permutation_lt; auto. }
    apply (for_loop (fun k r => 0 <= r /\ (forall j, (j < k)%nat -> nonzero (p j) -> slope (p j) <= r) /\ (r = 0 \/ exists j, (j < k)%nat /\ nonzero (p j) /\ r = slope (p j)))).
    - lia.
    - split; [lra|]. split; [intros; lia|auto].
    - intros k r Hk (R1 & R2 & R3). cbn [d_permutation into_damped].
      assert (PK : (p k < cols)%nat) by (apply permutation_lt; auto; lia).
      change (column_norms f) with (d_column_norms d). destruct (Reqb (vget (d_column_norms d) (p k)) 0) eqn:E; cbn [negb]; rcases.
      + apply (proj1 (SQ (p k) PK)) in E. split; auto. split.
        * intros j Hj N. destruct (Nat.eq_dec j k) as [->|]; [contradiction|]. apply R2; auto. lia.
        * destruct R3 as [|(j & Hj & R3)]; [left; auto|right; exists j; split; auto].
      + assert (N : nonzero (p k)) by (intros Z; apply E; apply SQ; auto).
        assert (SE : Rabs (fold_left (fun sum i => sum + mget (triangular d) i k * (vget (qt_b d) i / b_norm)) (range 0 (k + 1)) 0 / vget (d_column_norms d) (p k)) = slope (p k)).
        { unfold slope. rewrite P8 by auto. rewrite <- P6 by lia. f_equal. f_equal.
          unfold range. rewrite Nat.sub_0_r. rewrite (fold_add_bsum 0 (k + 1) (fun i => mget (triangular d) i k * (vget (qt_b d) i / b_norm))).
          rewrite Rplus_0_l. unfold Rdiv at 2. rewrite (Rmult_comm (bsum _ _)), <- bsum_scal. symmetry.
          rewrite (bsum_mono_zero (k + 1) cols) by (try lia; intros i Hi; rewrite (P2 i k) by lia; ring). apply bsum_ext. intros i Hi. cbn [plus]. field. auto. }
        unfold into_damped in *. cbn [triangular qt_b d_column_norms d_permutation] in *. rewrite SE. unfold pmax. rnum.
        destruct (Rltb r (slope (p k))) eqn:C; rcases.
        * split; [lra|]. split; [|right; exists k; split; auto].
          intros j Hj Nj. destruct (Nat.eq_dec j k) as [->|]; [lra|]. specialize (R2 j ltac:(lia) Nj). lra.
        * split; auto. split.
          -- intros j Hj Nj. destruct (Nat.eq_dec j k) as [->|]; [lra|]. apply R2; auto. lia.
          -- destruct R3 as [|(j & Hj & R3)]; [left; auto|right; exists j; split; auto].
  Qed.

  (** The rank test: every entry on the diagonal of the triangle, the last one included, stands out against the first; then the columns
      are independent. *)
Theorem C83_non_singular : (is_non_singular cols d = true <->
      forall j, (j < cols)%nat -> / IZR (2 ^ 52) * INR cols * Rabs (mget (triangular d) 0 0) < Rabs (mget (triangular d) j j)) /\
    (is_non_singular cols d = true -> forall y, equal_vectors rows (times cols (mget a) y) (fun _ => 0) -> equal_vectors cols y (fun _ => 0)).
  Proof.
    assert (A : is_non_singular cols d = true <-> forall j, (j < cols)%nat -> / IZR (2 ^ 52) * INR cols * Rabs (mget (triangular d) 0 0) < Rabs (mget (triangular d) j j)).
    { unfold is_non_singular. destruct (Nat.eqb_spec cols 0) as [Z|NZ]; [split; [intros _ j Hj; lia|reflexivity]|].
      rewrite forallb_forall. unfold of_nat. rnum. rewrite <- INR_IZR_INZ. split.
      - intros H j Hj. apply Rltb_true. apply H. unfold range. apply in_seq. lia.
      - intros H j Hj. unfold range in Hj. apply in_seq in Hj. apply Rltb_true, H. lia. }
    split; [exact A|]. intros E y Hy. pose proof (proj1 A E) as D. destruct damped_parts as (P1 & P2 & P3 & P4 & _ & _ & P7 & _).
    assert (S0 : square_norm cols (fun r => bsum cols (fun j => mget (triangular d) r j * y (p j))) = 0).
    { rewrite <- P7. unfold square_norm, dot_product. rewrite (bsum_ext rows _ (fun _ => 0)); [apply bsum_0|]. intros i Hi. rewrite Hy by exact Hi. ring. }
    assert (Z : forall j, (j < cols)%nat -> y (p j) = 0).
    { apply (upper_kernel cols (mget (triangular d)) (fun j => y (p j))).
      - intros i Hi Q. specialize (D i Hi). rewrite Q, Rabs_R0 in D.
        assert (0 <= / IZR (2 ^ 52) * INR cols * Rabs (mget (triangular d) 0 0)) by (apply Rmult_le_pos; [apply Rmult_le_pos; [left; apply Rinv_0_lt_compat; apply IZR_lt; reflexivity|apply pos_INR]|apply Rabs_pos]). lra.
      - intros i Hi. set (w := fun r => bsum cols (fun j => mget (triangular d) r j * y (p j))) in *.
        rewrite (bsum_ext cols _ (fun j => mget (triangular d) i j * y (p j))).
        + change (w i = 0). apply Rsqr_0_uniq. exact (bsum_zero_terms cols (fun r => w r * w r) (fun r _ => Rle_0_sqr (w r)) S0 i Hi).
        + intros j Hj. destruct (Nat.ltb_spec j i); [rewrite (P2 i j) by auto; ring|reflexivity]. }
    intros c Hc. destruct (reindex c Hc) as (j & Hj & <-). apply Z, Hj.
  Qed.
End Problem.

(** ** Concrete cases: a line through three points, damped and undamped *)
Example C83_example : exists f, qr_decompose 3 2 sample = Ok f /\ shape 3 2 sample /\ columns_below max_value 3 2 (mget sample) /\
  ~ singular 2 (damped_normal 3 (mget sample) (vget [1; 2])) /\ ~ singular 2 (damped_normal 3 (mget sample) (vget [0; 0])).
Proof.
  destruct sample_ok as [S B]. destruct (C81_factor 3 2 sample ltac:(lia) S B) as (f & E & _). exists f. split; auto. split; auto. split; auto. split.
  - apply C83_regular. left. intros [|[|i]] Hi; try lia; cbn; lra.
  - apply C83_regular. right. intros y Hy. pose proof (Hy 0%nat ltac:(lia)) as H0. pose proof (Hy 1%nat ltac:(lia)) as H1. unfold times, sample in H0, H1. cbn in H0, H1.
    intros [|[|i]] Hi; try lia; lra.
Qed.

Print Assumptions C83_solution.
Print Assumptions C83_triangle.
Print Assumptions C83_regular.
Print Assumptions C83_length.
Print Assumptions C83_gradient.
Print Assumptions C83_non_singular.
