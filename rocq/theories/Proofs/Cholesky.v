(** The Cholesky factorization over R. *)
From Coq Require Import ZArith Reals List Bool Arith Lia Lra.
From Verif Require Import Base.Scalar Base.RNum Base.Lists Base.Series Base.Det.
From Verif Require Import Model.Errors Model.Vector Model.Matrix Model.Lu Model.Cholesky Spec.Matrix Proofs.Matrix Proofs.Lu.
Import ListNotations.
Local Open Scope R_scope.

Lemma forward_division_spec n (l : nat -> nat -> R) x : length x = n -> (forall i, (i < n)%nat -> l i i <> 0) ->
  length (forward_division n l x) = n /\
  forall i, (i < n)%nat -> bsum (S i) (fun j => l i j * vget (forward_division n l x) j) = vget x i.
Proof.
  intros L D. unfold forward_division.
  match goal with |- length ?r = n /\ _ => enough (W : length r = n /\ (forall i, (i < n)%nat ->
     if Nat.ltb i n then bsum (S i) (fun j => l i j * vget r j) = vget x i else vget r i = vget x i)) end.
  { destruct W as [W1 W2]. split; auto. intros i Hi. specialize (W2 i Hi). destruct (Nat.ltb_spec i n); [exact W2|lia]. }
  apply (for_loop (fun k (y : list R) => length y = n /\ (forall i, (i < n)%nat ->
     if Nat.ltb i k then bsum (S i) (fun j => l i j * vget y j) = vget x i else vget y i = vget x i))).
  - lia.
  - split; [exact L|]. intros i Hi. reflexivity.
  - intros k y Hk [Ly W]. split. rewrite set_nth_length; auto. intros i Hi.
    rewrite (bsum_ext (S i) _ (fun j => l i j * (if Nat.eqb j k then _ else vget y j))) by (intros j Hj; rewrite (vget_set n) by lia; reflexivity).
    rewrite (vget_set n) by lia.
    destruct (Nat.eqb_spec i k) as [->|N].
    + destruct (Nat.ltb_spec k (S k)); [|lia]. cbn [bsum]. rewrite Nat.eqb_refl.
      rewrite (bsum_ext k _ (fun j => l k j * vget y j)) by (intros j Hj; destruct (Nat.eqb_spec j k); [lia|reflexivity]).
      change (fold_left (fun sum j => sub sum (mul (l k j) (vget y j))) (range 0 k) (vget y k))
        with (fold_left (fun sum j => sum - l k j * vget y j) (range 0 k) (vget y k)).
      rewrite fold_sub_range0. specialize (W k Hi). destruct (Nat.ltb_spec k k); [lia|]. rnum. rewrite W. field. auto.
    + specialize (W i Hi). destruct (Nat.ltb_spec i (S k)), (Nat.ltb_spec i k); try lia; auto.
      rewrite (bsum_ext (S i) _ (fun j => l i j * vget y j)) by (intros j Hj; destruct (Nat.eqb_spec j k); [lia|reflexivity]). exact W.
Qed.

(** Scaling rows from the bottom and adding earlier rows: the determinant of a triangular matrix times another. *)
Lemma det_row_scaled n p c a : (p < n)%nat -> det n (fun i j => if Nat.eqb i p then c * a i j else a i j) = c * det n a.
Proof.
  intros Hp. rewrite (det_row n p c 0 a a). ring. exact Hp. intros i j Hi Hj. split; intros E; nat_case. auto. ring.
Qed.
Lemma det_row_sum n p k (c : nat -> R) a : (k <= p < n)%nat ->
  det n (fun i j => if Nat.eqb i p then a i j + bsum k (fun q => c q * a q j) else a i j) = det n a.
Proof.
  induction k as [|k IH]; intros H.
  - apply det_ext. intros i j Hi Hj. cbn. destruct (Nat.eqb i p); ring.
  - rewrite <- IH by lia.
    rewrite <- (det_row_added n p k (c k) (fun i j => if Nat.eqb i p then a i j + bsum k (fun q => c q * a q j) else a i j)) by lia.
    apply det_ext. intros i j Hi Hj. unfold row_added. nat_case; try reflexivity. cbn [bsum]. ring.
Qed.
Lemma det_lower_times n l a : lower_triangular n l -> det n (product n l a) = bprod n (fun i => l i i) * det n a.
Proof.
  intros H.
  assert (G : forall k, (k <= n)%nat -> det n (fun i j => if Nat.ltb i k then a i j else product n l a i j) * bprod k (fun i => l i i) =
     det n (product n l a)).
  { induction k as [|k IH]; intros Hk.
    - cbn [bprod]. rewrite Rmult_1_r. reflexivity.
    - rewrite <- IH by lia. cbn [bprod]. rewrite (Rmult_comm (bprod k _)), <- Rmult_assoc. f_equal.
      transitivity (l k k * det n (fun i j => if Nat.ltb i (S k) then a i j else product n l a i j)); [ring|].
      rewrite <- det_row_scaled with (p := k) by lia.
      rewrite <- (det_row_sum n k k (l k)) by lia. apply det_ext. intros i j Hi Hj. nat_case; try reflexivity.
      unfold product. rewrite (bsum_split n k) by lia.
      rewrite (bsum_ext (n - (k + 1)) _ (fun _ => 0)) by (intros q Hq; rewrite H by lia; ring). rewrite bsum_0.
      rewrite (bsum_ext k _ (fun q => l k q * a q j)) by (intros q Hq; nat_case; auto). subst. ring. }
  rewrite <- (G n (le_n n)). rewrite Rmult_comm. f_equal. apply det_ext. intros i j Hi Hj. nat_case. reflexivity.
Qed.

Section Factor.
  Variables (n : nat) (m : mat R).

  (** the first [k] columns of the factor are in place and the others still zero *)
  Record placed (k : nat) (l : mat R) : Prop := {
    placed_shape : shape n n l;
    placed_zero : forall i j, (i < n)%nat -> (j < n)%nat -> (k <= j \/ i < j)%nat -> mget l i j = 0;
    placed_positive : forall j, (j < k)%nat -> 0 < mget l j j;
    placed_product : forall i j, (i < n)%nat -> (j < k)%nat -> (j <= i)%nat ->
      bsum (S j) (fun q => mget l i q * mget l j q) = mget m i j
  }.
  Definition radicand (l : mat R) (j : nat) : R := mget m j j - bsum j (fun k => mget l j k * mget l j k).

  Lemma placed_start : placed 0 (mat_zeros n n).
  Proof.
    split. apply shape_zeros. 2,3: intros; lia.
    intros i j Hi Hj _. unfold mat_zeros. rewrite mget_mat_fn by auto. reflexivity.
  Qed.

  Lemma placed_step k l : (k < n)%nat -> placed k l ->
    match cholesky_column n m k l with
    | Ok l' => 0 < radicand l k /\ placed (S k) l'
    | Err e => e = LaNotPositiveDefinite /\ radicand l k <= 0
    | Panic => False
    end.
  Proof.
    intros Hk [P1 P2 P3 P4]. unfold cholesky_column.
    change (fold_left (fun diag q => sub diag (mul (mget l k q) (mget l k q))) (range 0 k) (mget m k k))
      with (fold_left (fun diag q => diag - mget l k q * mget l k q) (range 0 k) (mget m k k)).
    rewrite fold_sub_range0. fold (radicand l k). rnum. destruct (Rleb (radicand l k) 0) eqn:E; rcases; [auto|].
    split; [lra|]. set (d := R_sqrt.sqrt (radicand l k)).
    assert (Dp : 0 < d) by (apply sqrt_lt_R0; lra). assert (Dd : d * d = radicand l k) by (apply sqrt_sqrt; lra).
    match goal with |- placed _ ?r => enough (W : shape n n r /\ forall i j, (i < n)%nat -> (j < n)%nat ->
      mget r i j = if (Nat.eqb j k && Nat.leb k i && Nat.ltb i n)%bool then (if Nat.eqb i k then d else (mget m i k - bsum k (fun q => mget l i q * mget l k q)) / d) else mget l i j) end.
    { destruct W as [W1 W2].
      match goal with |- placed _ ?r => set (l' := r) in * end.
      assert (W3 : forall i j, (i < n)%nat -> (j < k)%nat -> mget l' i j = mget l i j).
      { intros i j Hi Hj. rewrite W2 by lia. nat_case; cbn [andb]; try reflexivity; lia. }
      split; auto.
      - intros i j Hi Hj O. rewrite W2 by auto. nat_case; cbn [andb]; try lia; apply P2; lia.
      - intros j Hj. destruct (Nat.eq_dec j k) as [->|]; [|rewrite W3 by lia; apply P3; lia].
        rewrite W2 by auto. nat_case; cbn [andb]; try lia; exact Dp.
      - intros i j Hi Hj Hij. destruct (Nat.eq_dec j k) as [->|].
        + cbn [bsum]. rewrite (bsum_ext k _ (fun q => mget l i q * mget l k q)) by (intros q Hq; rewrite !W3 by lia; reflexivity).
          rewrite !W2 by auto. nat_case; cbn [andb]; try lia.
          * subst. rewrite Dd. unfold radicand. ring.
          * field. lra.
        + rewrite <- P4 by lia. apply bsum_ext. intros q Hq. rewrite !W3 by lia. reflexivity. }
    apply (for_loop (fun k' (r : mat R) => shape n n r /\ forall i j, (i < n)%nat -> (j < n)%nat ->
      mget r i j = if (Nat.eqb j k && Nat.leb k i && Nat.ltb i k')%bool then (if Nat.eqb i k then d else (mget m i k - bsum k (fun q => mget l i q * mget l k q)) / d) else mget l i j)).
    - lia.
    - split; [apply shape_mset; auto|]. intros i j Hi Hj. rewrite (mget_mset n n) by auto. nat_case; cbn [andb]; try lia; reflexivity.
    - intros q r Hq [R1 R2]. split; [apply shape_mset; auto|]. intros i j Hi Hj. rewrite (mget_mset n n) by (auto; lia).
      change (fold_left (fun sum k0 => sub sum (mul (mget r q k0) (mget r k k0))) (range 0 k) (mget m q k))
        with (fold_left (fun sum k0 => sum - mget r q k0 * mget r k k0) (range 0 k) (mget m q k)).
      rewrite fold_sub_range0.
      rewrite (bsum_ext k _ (fun q' => mget l q q' * mget l k q')) by (intros q' Hq'; rewrite !R2 by lia; nat_case; cbn [andb]; try lia; reflexivity).
      rewrite R2 by auto. destruct (Nat.eqb_spec i q) as [->|], (Nat.eqb_spec j k) as [->|]; cbn [andb];
        nat_case; cbn [andb]; try lia; reflexivity.
  Qed.

  (** a radicand is the quadratic form at some vector *)
  Lemma radicand_form k l : symmetric n (mget m) -> (k < n)%nat -> placed k l ->
    exists x, x k = 1 /\ dot_product n x (times n (mget m) x) = radicand l k.
  Proof.
    intros Sy Hk [P1 P2 P3 P4].
    set (u := fun i j => if Nat.ltb i k then mget l j i else if Nat.eqb i j then 1 else 0).
    set (e := from_fn (S k) (fun i => if Nat.eqb i k then 1 else 0)).
    destruct (back_spec (S k) u e) as [B1 B2].
    { apply from_fn_length. }
    { intros i Hi. unfold u. nat_case; try lra. assert (0 < mget l i i) by (apply P3; lia). lra. }
    set (y := back_substitution (S k) u e) in *.
    exists (fun i => if Nat.leb i k then vget y i else 0).
    assert (Y : vget y k = 1).
    { specialize (B2 k ltac:(lia)). unfold e in B2. rewrite vget_from_fn, Nat.eqb_refl in B2 by lia. cbn [bsum] in B2.
      rewrite (bsum_ext k _ (fun _ => 0)) in B2 by (intros j Hj; nat_case; ring). rewrite bsum_0 in B2. unfold u in B2.
      revert B2. nat_case. intros B2. lra. }
    assert (Z : forall q, (q < k)%nat -> bsum (S k) (fun j => mget l j q * vget y j) = 0).
    { intros q Hq. specialize (B2 q ltac:(lia)). unfold e in B2. rewrite vget_from_fn in B2 by lia.
      replace (Nat.eqb q k) with false in B2 by (symmetry; apply Nat.eqb_neq; lia). rewrite <- B2. apply bsum_ext.
      intros j Hj. unfold u. nat_case; try reflexivity. rewrite P2 by lia. ring. }
    split. { rewrite Nat.leb_refl. exact Y. }
    unfold dot_product, times.
    rewrite (bsum_mono_zero (S k) n) by (auto; intros i Hi; nat_case; ring).
    rewrite (bsum_ext (S k) _ (fun i => bsum (S k) (fun j => mget m i j * vget y j * vget y i))).
    2:{ intros i Hi. rewrite (bsum_mono_zero (S k) n) by (auto; intros j Hj; nat_case; ring). rewrite <- bsum_scal.
        apply bsum_ext. intros j Hj. nat_case. ring. }
    (* the leading block *)
    assert (Q : forall i j, (i < S k)%nat -> (j < S k)%nat -> mget m i j =
      bsum k (fun q => mget l i q * mget l j q) + (if (Nat.eqb i k && Nat.eqb j k)%bool then radicand l k else 0)).
    { assert (Q' : forall i j, (i < S k)%nat -> (j <= i)%nat -> mget m i j =
        bsum k (fun q => mget l i q * mget l j q) + (if (Nat.eqb i k && Nat.eqb j k)%bool then radicand l k else 0)).
      { intros i j Hi Hj. destruct (Nat.eq_dec j k) as [->|].
        - replace i with k by lia. rewrite Nat.eqb_refl. cbn [andb]. unfold radicand. ring.
        - replace (Nat.eqb j k) with false by (symmetry; apply Nat.eqb_neq; auto). rewrite andb_false_r, Rplus_0_r.
          rewrite <- P4 by lia. symmetry. apply bsum_mono_zero; [lia|]. intros q Hq. rewrite (P2 j q) by lia. ring. }
      intros i j Hi Hj. destruct (Nat.le_gt_cases j i); [apply Q'; auto|].
      rewrite Sy by lia. unfold transposed. rewrite (Q' j i) by lia. rewrite andb_comm. f_equal. apply bsum_ext. intros; ring. }
    rewrite (bsum_ext (S k) _ (fun i => bsum k (fun q => mget l i q * vget y i * bsum (S k) (fun j => mget l j q * vget y j))
      + (if Nat.eqb i k then radicand l k else 0))).
    2:{ intros i Hi. rewrite (bsum_ext (S k) _ (fun j => bsum k (fun q => mget l i q * vget y i * (mget l j q * vget y j)) +
          (if (Nat.eqb i k && Nat.eqb j k)%bool then radicand l k else 0) * vget y j * vget y i)).
        2:{ intros j Hj. rewrite Q by auto. rewrite !Rmult_plus_distr_r. f_equal.
            rewrite Rmult_assoc, Rmult_comm, <- bsum_scal. apply bsum_ext. intros; ring. }
        rewrite bsum_plus, bsum_swap. f_equal.
        - apply bsum_ext. intros q Hq. rewrite <- bsum_scal. reflexivity.
        - cbn [bsum]. rewrite (bsum_ext k _ (fun _ => 0)) by (intros j Hj; replace (Nat.eqb j k) with false by (symmetry; apply Nat.eqb_neq; lia); rewrite andb_false_r; ring).
          rewrite bsum_0, Nat.eqb_refl, andb_true_r, Y. destruct (Nat.eqb_spec i k) as [->|]; [rewrite Y|]; ring. }
    rewrite bsum_plus. rewrite (bsum_ext (S k) _ (fun _ => 0)).
    2:{ intros i Hi. rewrite (bsum_ext k _ (fun _ => 0)) by (intros q Hq; rewrite Z by auto; ring). apply bsum_0. }
    rewrite bsum_0. cbn [bsum]. rewrite Nat.eqb_refl.
    rewrite (bsum_ext k _ (fun _ => 0)) by (intros j Hj; nat_case; reflexivity). rewrite bsum_0. ring.
  Qed.

  Lemma placed_steps d : forall k l, (k + d = n)%nat -> placed k l ->
    match cholesky_columns n m (seq k d) l with
    | Ok l' => placed n l'
    | Err e => e = LaNotPositiveDefinite /\ (symmetric n (mget m) -> ~ positive_definite n (mget m))
    | Panic => False
    end.
  Proof.
    induction d as [|d IH]; intros k l Hk P; cbn [seq cholesky_columns].
    - replace n with k by lia. exact P.
    - pose proof (placed_step k l ltac:(lia) P) as Q. destruct (cholesky_column n m k l) as [l'|e|]; [|destruct Q as [-> Q]|exact Q].
      + apply IH; [lia|tauto].
      + split; auto. intros Sy PD. destruct (radicand_form k l Sy ltac:(lia) P) as (x & Hx & E).
        assert (0 < dot_product n x (times n (mget m) x)) by (apply PD; exists k; split; [lia|rewrite Hx; lra]). lra.
  Qed.
  Lemma cholesky_spec :
    match cholesky n m with
    | Ok l => placed n l
    | Err e => e = LaNotPositiveDefinite /\ (symmetric n (mget m) -> ~ positive_definite n (mget m))
    | Panic => False
    end.
  Proof. unfold cholesky, range. apply placed_steps. lia. apply placed_start. Qed.

  Section Done.
    Variable l : mat R.
    Hypothesis P : placed n l.
    Lemma placed_full : symmetric n (mget m) -> equal n n (product n (mget l) (transposed (mget l))) (mget m).
    Proof.
      intros Sy.
      assert (Q : forall i j, (i < n)%nat -> (j <= i)%nat -> product n (mget l) (transposed (mget l)) i j = mget m i j).
      { intros i j Hi Hj. rewrite <- (placed_product _ _ P i j) by lia. apply bsum_mono_zero; [lia|].
        intros q Hq. unfold transposed. rewrite (placed_zero _ _ P j q) by lia. ring. }
      intros i j Hi Hj. destruct (Nat.le_gt_cases j i); [apply Q; auto|]. rewrite Sy by auto. unfold transposed at 2.
      rewrite <- (Q j i) by lia. apply bsum_ext. intros; unfold transposed; ring.
    Qed.
    Lemma placed_nonzero i : (i < n)%nat -> mget l i i <> 0.
    Proof. intros Hi. pose proof (placed_positive _ _ P i Hi). lra. Qed.

    Lemma placed_solve b : symmetric n (mget m) -> length b = n ->
      length (cholesky_solve n l b) = n /\ equal_vectors n (times n (mget m) (vget (cholesky_solve n l b))) (vget b).
    Proof.
      intros Sy L. unfold cholesky_solve. set (b' := from_fn n (fun i => vget b i)).
      destruct (forward_division_spec n (mget l) b' (from_fn_length _ _) placed_nonzero) as [F1 F2].
      set (y := forward_division n (mget l) b') in *.
      destruct (back_spec n (fun i j => mget l j i) y F1 placed_nonzero) as [B1 B2].
      set (x := back_substitution n (fun i j => mget l j i) y) in *. split; [exact B1|].
      intros i Hi. rewrite (times_ext n (mget m) (product n (mget l) (transposed (mget l))) (vget x) (vget x)).
      2:{ intros k Hk. rewrite placed_full; auto. } 2:{ intros k Hk. reflexivity. }
      rewrite times_product.
      rewrite (times_ext n (mget l) (mget l) _ (vget y)).
      2:{ reflexivity. }
      2:{ intros k Hk. rewrite <- B2 by auto. apply bsum_ext. intros j Hj. unfold transposed. nat_case; try reflexivity.
          rewrite (placed_zero _ _ P j k) by lia. ring. }
      transitivity (vget b' i); [|unfold b'; rewrite vget_from_fn; auto].
      rewrite <- F2 by auto. apply bsum_mono_zero; [lia|]. intros q Hq. rewrite (placed_zero _ _ P i q) by lia. ring.
    Qed.

    Lemma placed_form x : symmetric n (mget m) ->
      dot_product n x (times n (mget m) x) = square_norm n (times n (transposed (mget l)) x).
    Proof.
      intros Sy. unfold square_norm, dot_product.
      rewrite (bsum_ext n _ (fun i => bsum n (fun q => mget l i q * x i * times n (transposed (mget l)) x q))).
      - rewrite bsum_swap. apply bsum_ext. intros q Hq. unfold times at 2. unfold transposed at 2.
        rewrite Rmult_comm, <- bsum_scal. apply bsum_ext. intros; ring.
      - intros i Hi. rewrite (times_ext n (mget m) (product n (mget l) (transposed (mget l))) x x).
        2:{ intros k Hk. rewrite placed_full; auto. } 2:{ intros k Hk. reflexivity. }
        rewrite times_product. unfold times at 1. rewrite <- bsum_scal. apply bsum_ext. intros; ring.
    Qed.

    Lemma placed_definite : symmetric n (mget m) -> positive_definite n (mget m).
    Proof.
      intros Sy x (i & Hi & N). rewrite placed_form by auto.
      assert (G : 0 <= square_norm n (times n (transposed (mget l)) x)).
      { apply bsum_nonneg. intros. apply Rle_0_sqr. }
      destruct G as [G|G]; auto. exfalso. apply N.
      apply (upper_kernel n (transposed (mget l)) x); auto. { intros j Hj. apply placed_nonzero; auto. }
      intros j Hj. assert (Z : times n (transposed (mget l)) x j = 0).
      { apply Rsqr_0_uniq. symmetry in G. revert G. unfold square_norm, dot_product. generalize (times n (transposed (mget l)) x). intros v.
        clear -Hj. induction n as [|k IH]; [lia|]. cbn [bsum]. intros G.
        assert (0 <= bsum k (fun k0 => v k0 * v k0)) by (apply bsum_nonneg; intros; apply Rle_0_sqr).
        pose proof (Rle_0_sqr (v k)). unfold Rsqr in *. destruct (Nat.eq_dec j k) as [->|]; [lra|]. apply IH; [lia|lra]. }
      transitivity (times n (transposed (mget l)) x j); [|exact Z]. apply bsum_ext. intros q Hq. unfold transposed. nat_case; try reflexivity. rewrite (placed_zero _ _ P q j) by lia. ring.
    Qed.

    Lemma placed_det : symmetric n (mget m) -> cholesky_determinant n l = det n (mget m).
    Proof.
      intros Sy. rewrite (det_ext n (mget m) (product n (mget l) (transposed (mget l)))).
      2:{ intros i j Hi Hj. rewrite placed_full; auto. }
      rewrite det_lower_times by (intros i j Hi Hj Hij; apply (placed_zero _ _ P); auto).
      rewrite det_upper by (intros i j Hi Hj Hij; apply (placed_zero _ _ P); auto).
      unfold cholesky_determinant.
      assert (G : forall k s, fold_left (fun det i => mul det (mul (mget l i i) (mget l i i))) (seq 0 k) s =
        s * (bprod k (fun i => mget l i i) * bprod k (fun i => transposed (mget l) i i))).
      { clear. induction k as [|k IH]; intros s. cbn [seq fold_left bprod]; ring. rewrite seq_S, fold_left_app, IH. cbn [fold_left bprod]. rnum. unfold transposed. cbn [plus]. ring. }
      unfold range. rewrite Nat.sub_0_r, G. change (1 * (bprod n (fun i => mget l i i) * bprod n (fun i => transposed (mget l) i i)) =
        bprod n (fun i => mget l i i) * bprod n (fun i => transposed (mget l) i i)). ring.
    Qed.
  End Done.
End Factor.
