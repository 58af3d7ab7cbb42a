(** The LU factorization: what each loop leaves behind, and over R the invariant of the factorization. *)
From Coq Require Import ZArith Reals List Bool Arith Lia Lra Permutation.
From Verif Require Import Base.Scalar Base.RNum Base.Lists Base.Series Base.Det.
From Verif Require Import Model.Errors Model.Vector Model.Matrix Model.Lu Spec.Matrix Proofs.Matrix.
Import ListNotations.

Lemma swap_length {A} (d : A) l i j : length (swap d l i j) = length l.
Proof. unfold swap. rewrite !set_nth_length. reflexivity. Qed.
Lemma nth_swap {A} (d : A) l i j k : i < length l -> j < length l -> nth k (swap d l i j) d = nth (exchange i j k) l d.
Proof.
  intros Hi Hj. unfold swap, exchange. destruct (Nat.eqb_spec k j) as [->|N].
  - rewrite nth_set_nth_eq by (rewrite set_nth_length; auto). destruct (Nat.eqb_spec j i) as [->|]; reflexivity.
  - rewrite nth_set_nth_neq by auto. destruct (Nat.eqb_spec k i) as [->|]; [apply nth_set_nth_eq; auto|apply nth_set_nth_neq; auto].
Qed.
Lemma exchange_lt p q i n : p < n -> q < n -> i < n -> exchange p q i < n.
Proof. unfold exchange. intros. destruct (Nat.eqb i p), (Nat.eqb i q); auto. Qed.
Lemma exchange_exchange p q i : exchange p q (exchange p q i) = i.
Proof. unfold exchange. nat_case. Qed.

Lemma permutation_swap (l : list nat) i j n : i < n -> j < n -> Permutation l (seq 0 n) -> Permutation (swap 0 l i j) (seq 0 n).
Proof.
  intros Hi Hj H. assert (Ln : length l = n) by (rewrite (Permutation_length H), seq_length; reflexivity).
  apply NoDup_Permutation_bis.
  - apply NoDup_nth with (d := 0). rewrite swap_length. intros a b Ha Hb E. rewrite !nth_swap in E by lia.
    assert (D : NoDup l) by (apply (Permutation_NoDup (Permutation_sym H)), seq_NoDup).
    rewrite NoDup_nth with (d := 0) in D. apply D in E; try (apply exchange_lt; lia).
    rewrite <- (exchange_exchange i j a), <- (exchange_exchange i j b), E. reflexivity.
  - rewrite swap_length, seq_length. lia.
  - intros x Hx. destruct (In_nth _ _ 0 Hx) as (k & Hk & <-). rewrite swap_length in Hk. rewrite nth_swap by lia.
    apply (Permutation_in _ H). apply nth_In. apply exchange_lt; lia.
Qed.
Lemma permutation_onto (l : list nat) n i : Permutation l (seq 0 n) -> i < n -> exists k, k < n /\ nth k l 0 = i.
Proof.
  intros H Hi. assert (I : In i l) by (apply (Permutation_in _ (Permutation_sym H)), in_seq; lia).
  destruct (In_nth _ _ 0 I) as (k & Hk & E). exists k. split; auto. rewrite (Permutation_length H), seq_length in Hk. exact Hk.
Qed.
Lemma permutation_lt (l : list nat) n i : Permutation l (seq 0 n) -> i < n -> nth i l 0 < n.
Proof.
  intros H Hi. assert (I : In (nth i l 0) (seq 0 n)).
  { apply (Permutation_in _ H), nth_In. rewrite (Permutation_length H), seq_length. auto. }
  apply in_seq in I. lia.
Qed.

Section Any.
  Context {T : Type} {NT : Num T}.

  Lemma mget_swap (m : mat T) n i j r c : length m = n -> i < n -> j < n -> mget (swap [] m i j) r c = mget m (exchange i j r) c.
  Proof. intros L Hi Hj. unfold mget. rewrite nth_swap by lia. reflexivity. Qed.
  Lemma shape_swap n c (m : mat T) i j : shape n c m -> i < n -> j < n -> shape n c (swap [] m i j).
  Proof.
    intros [H K] Hi Hj. split. rewrite swap_length; auto. intros r Hr. rewrite nth_swap by lia. apply K. apply exchange_lt; auto.
  Qed.

  (** The entries after elimination in column [k]. *)
  Definition eliminated (k : nat) (a : nat -> nat -> T) (i j : nat) : T :=
    if Nat.ltb k i then
      if Nat.ltb j k then a i j
      else if Nat.eqb j k then div (a i k) (a k k)
      else sub (a i j) (mul (div (a i k) (a k k)) (a k j))
    else a i j.

  Lemma eliminate_spec n k (a : mat T) : shape n n a -> k < n ->
    shape n n (eliminate n k a) /\ forall i j, i < n -> j < n -> mget (eliminate n k a) i j = eliminated k (mget a) i j.
  Proof.
    intros Ha Hk. unfold eliminate.
    match goal with |- shape _ _ ?r /\ _ => enough (L : shape n n r /\ forall i j, i < n -> j < n ->
      mget r i j = if Nat.ltb i n then eliminated k (mget a) i j else mget a i j) end.
    { destruct L as [L1 L2]. split; [exact L1|]. intros i j Hi Hj. rewrite L2 by auto. destruct (Nat.ltb_spec i n); [reflexivity|lia]. }
    apply (for_loop (fun r x => shape n n x /\ forall i j, i < n -> j < n ->
      mget x i j = if Nat.ltb i r then eliminated k (mget a) i j else mget a i j)).
    - lia.
    - split; auto. intros i j Hi Hj. unfold eliminated. nat_case; auto.
    - intros r x Hr [Hx Ex].
      set (factor := div (mget x r k) (mget x k k)).
      assert (Ef : factor = div (mget a r k) (mget a k k)).
      { unfold factor. rewrite !Ex by lia. unfold eliminated. nat_case; auto. }
      set (x1 := mset x r k factor). assert (H1 : shape n n x1) by (apply shape_mset; auto).
      assert (E1 : forall i j, i < n -> j < n -> mget x1 i j = if (Nat.eqb i r && Nat.eqb j k)%bool then factor else mget x i j).
      { intros. unfold x1. rewrite (mget_mset n n) by (auto; lia). reflexivity. }
      match goal with |- shape _ _ ?r' /\ _ => enough (L : shape n n r' /\ forall i j, i < n -> j < n ->
        mget r' i j = if (Nat.eqb i r && Nat.ltb k j && Nat.ltb j n)%bool then sub (mget a r j) (mul factor (mget a k j)) else mget x1 i j) end.
      { destruct L as [L1 L2]. split; [exact L1|]. intros i j Hi Hj. rewrite L2, E1, Ex by auto. unfold eliminated.
        destruct (Nat.eqb_spec i r) as [->|]; [rewrite <- ?Ef|]; cbn [andb]; nat_case; cbn [andb]; try lia; auto. }
      apply (for_loop (fun c y => shape n n y /\ forall i j, i < n -> j < n ->
        mget y i j = if (Nat.eqb i r && Nat.ltb k j && Nat.ltb j c)%bool then sub (mget a r j) (mul factor (mget a k j)) else mget x1 i j)).
      + lia.
      + split; auto. intros i j Hi Hj. destruct (Nat.eqb_spec i r); cbn [andb]; auto. nat_case; auto.
      + intros c y Hc [Hy Ey]. split. apply shape_mset; auto. intros i j Hi Hj. rewrite (mget_mset n n) by (auto; lia).
        destruct (Nat.eqb_spec i r) as [->|Nr]; cbn [andb].
        2:{ rewrite Ey by auto. destruct (Nat.eqb_spec i r); [lia|reflexivity]. }
        destruct (Nat.eqb_spec j c) as [->|Nc].
        * rewrite !Ey by lia. rewrite Nat.eqb_refl. destruct (Nat.ltb_spec k c), (Nat.ltb_spec c c), (Nat.ltb_spec c (S c)), (Nat.eqb_spec k r); try lia. cbn [andb].
          rewrite !E1, !Ex by lia. destruct (Nat.eqb_spec r r), (Nat.eqb_spec c k), (Nat.eqb_spec k r), (Nat.ltb_spec r r), (Nat.ltb_spec k r); try lia. cbn [andb].
          f_equal. f_equal. unfold eliminated. destruct (Nat.ltb_spec k k); [lia|]. reflexivity.
        * rewrite Ey, Nat.eqb_refl by auto. cbn [andb]. destruct (Nat.ltb_spec k j), (Nat.ltb_spec j c), (Nat.ltb_spec j (S c)); try lia; reflexivity.
  Qed.
End Any.

Local Open Scope R_scope.

(** ** The pivot *)
Lemma pivot_search_spec n k (a : mat R) : (k < n)%nat ->
  let '(p, best) := pivot_search n k a in
  (k <= p < n)%nat /\ best = Rabs (mget a p k) /\ forall i, (k <= i < n)%nat -> Rabs (mget a i k) <= best.
Proof.
  intros Hk. unfold pivot_search.
  match goal with |- let '(p, best) := ?r in _ => enough (L : (k <= fst r < n)%nat /\ snd r = Rabs (mget a (fst r) k) /\
    forall i, (k <= i < n)%nat -> Rabs (mget a i k) <= snd r) by (destruct r as [p best]; exact L) end.
  apply (for_loop (fun m (st : nat * R) => (k <= fst st < n)%nat /\ snd st = Rabs (mget a (fst st) k) /\
    forall i, (k <= i < m)%nat -> Rabs (mget a i k) <= snd st)).
  - lia.
  - cbn. repeat split; auto; try lia. intros i Hi. replace i with k by lia. apply Rle_refl.
  - intros i [p best] Hi (P1 & P2 & P3). cbn [fst snd] in *. rnum.
    destruct (Rltb best (Rabs (mget a i k))) eqn:E; rcases; cbn [fst snd]; repeat split; auto; try lia.
    + intros j Hj. destruct (Nat.eq_dec j i) as [->|]; [apply Rle_refl|]. assert (Rabs (mget a j k) <= best) by (apply P3; lia). lra.
    + intros j Hj. destruct (Nat.eq_dec j i) as [->|]; [lra|]. apply P3; lia.
Qed.

(** ** The invariant *)
Section Factor.
  Variable n : nat.
  Variable A : matrix.

  (** the partly reduced matrix: below the diagonal its first [k] columns are zero *)
  Definition reduced (k : nat) (a : matrix) : matrix := fun i j => if Nat.ltb j (Nat.min i k) then 0 else a i j.

  Record inv (k : nat) (f : lu R) (smallest : R) : Prop := {
    inv_shape : shape n n (lu_matrix f);
    inv_perm : Permutation (lu_perm f) (seq 0 n);
    inv_sign : lu_sign f = 1 \/ lu_sign f = -1;
    inv_product : forall i j, (i < n)%nat -> (j < n)%nat ->
      A (nth i (lu_perm f) 0%nat) j = reduced k (mget (lu_matrix f)) i j
        + bsum (Nat.min i k) (fun l => mget (lu_matrix f) i l * reduced k (mget (lu_matrix f)) l j);
    inv_multipliers : forall i l, (i < n)%nat -> (l < Nat.min i k)%nat -> Rabs (mget (lu_matrix f) i l) <= 1;
    inv_diagonal : forall l, (l < k)%nat -> mget (lu_matrix f) l l <> 0;
    inv_smallest : forall l, (l < k)%nat -> smallest <= Rabs (mget (lu_matrix f) l l);
    inv_attained : smallest = max_value \/ exists l, (l < k)%nat /\ smallest = Rabs (mget (lu_matrix f) l l);
    inv_det : lu_sign f * det n (reduced k (mget (lu_matrix f))) = det n A
  }.

  Lemma inv_start m : shape n n m -> (forall i j, (i < n)%nat -> (j < n)%nat -> A i j = mget m i j) ->
    inv 0 {| lu_matrix := m; lu_perm := from_fn n (fun i => i); lu_sign := 1 |} max_value.
  Proof.
    intros Hm E. constructor; cbn [lu_matrix lu_perm lu_sign]; auto; try lia.
    - unfold from_fn. rewrite map_id. apply Permutation_refl.
    - intros i j Hi Hj. rewrite nth_from_fn by auto. rewrite Nat.min_0_r. cbn. unfold reduced. rewrite Nat.min_0_r. cbn.
      rewrite Rplus_0_r. apply E; auto.
    - rewrite Rmult_1_l. apply det_ext. intros i j Hi Hj. unfold reduced. rewrite Nat.min_0_r. cbn. symmetry. apply E; auto.
  Qed.

  (** adding multiples of row [k] to the rows from [k+1] to [m] *)
  Definition rows_added (k m : nat) (c : nat -> R) (a : matrix) : matrix :=
    fun i j => if (Nat.ltb k i && Nat.ltb i m)%bool then a i j + c i * a k j else a i j.
  Lemma det_rows_added k m c a : (k < n)%nat -> (m <= n)%nat -> det n (rows_added k m c a) = det n a.
  Proof.
    intros Hk. induction m as [|m IH]; intros Hm.
    - apply det_ext. intros i j Hi Hj. unfold rows_added. destruct (Nat.ltb k i); reflexivity.
    - rewrite <- IH by lia. destruct (Nat.ltb_spec k m).
      + rewrite <- (det_row_added n m k (c m) (rows_added k m c a)) by lia. apply det_ext.
        intros i j Hi Hj. unfold row_added, rows_added. destruct (Nat.eqb_spec i m) as [->|];
        nat_case; cbn [andb]; try lia; auto.
      + apply det_ext. intros i j Hi Hj. unfold rows_added. nat_case; cbn [andb]; try lia; auto.
  Qed.

  (** the part of the step after the pivot is in place *)
  Lemma inv_eliminate k f smallest : (k < n)%nat -> inv k f smallest -> mget (lu_matrix f) k k <> 0 ->
    (forall i, (k <= i < n)%nat -> Rabs (mget (lu_matrix f) i k) <= Rabs (mget (lu_matrix f) k k)) ->
    inv (S k) {| lu_matrix := eliminate n k (lu_matrix f); lu_perm := lu_perm f; lu_sign := lu_sign f |}
      (Rmin smallest (Rabs (mget (lu_matrix f) k k))).
  Proof.
    intros Hk I Hp Hm. destruct I as [I1 I2 I3 I4 I5 I6 I7 I8 I9]. set (a := lu_matrix f) in *.
    destruct (eliminate_spec n k a I1 Hk) as [S1 S2]. set (a' := eliminate n k a) in *.
    assert (Ered : forall i j, (i < n)%nat -> (j < n)%nat -> reduced (S k) (mget a') i j =
      rows_added k n (fun i => - (mget a i k / mget a k k)) (reduced k (mget a)) i j).
    { intros i j Hi Hj. unfold reduced, rows_added. rewrite S2 by auto. unfold eliminated. rnum.
      destruct (Nat.ltb_spec k i).
      - destruct (Nat.ltb_spec i n); [|lia]. cbn [andb]. rewrite (Nat.min_r i k), (Nat.min_r i (S k)), (Nat.min_r k k) by lia.
        destruct (Nat.ltb_spec j (S k)), (Nat.ltb_spec j k), (Nat.eqb_spec j k); try lia; subst; try lra. field. auto.
      - cbn [andb]. rewrite !(Nat.min_l i) by lia. reflexivity. }
    constructor; cbn [lu_matrix lu_perm lu_sign]; fold a a'; auto.
    - intros i j Hi Hj. rewrite I4 by auto. rewrite Ered by auto. unfold rows_added.
      assert (Erow : forall l, (l <= k)%nat -> reduced (S k) (mget a') l j = reduced k (mget a) l j).
      { intros l Hl. rewrite Ered by lia. unfold rows_added. destruct (Nat.ltb_spec k l); [lia|reflexivity]. }
      destruct (Nat.ltb_spec k i).
      + destruct (Nat.ltb_spec i n); [|lia]. cbn [andb]. rewrite (Nat.min_r i k), (Nat.min_r i (S k)) by lia. cbn [bsum].
        rewrite Erow by lia. rewrite (S2 i k) by lia. unfold eliminated at 1. destruct (Nat.ltb_spec k i); [|lia].
        destruct (Nat.ltb_spec k k); [lia|]. rewrite Nat.eqb_refl.
        rewrite (bsum_ext k (fun l => mget a' i l * _) (fun l => mget a i l * reduced k (mget a) l j)).
        2:{ intros l Hl. rewrite Erow, S2 by lia. unfold eliminated. destruct (Nat.ltb_spec k i), (Nat.ltb_spec l k); try lia. reflexivity. }
        rnum. lra.
      + cbn [andb]. rewrite !(Nat.min_l i) by lia. f_equal. apply bsum_ext. intros l Hl. rewrite Erow, S2 by lia.
        unfold eliminated. destruct (Nat.ltb_spec k i); [lia|reflexivity].
    - intros i l Hi Hl. rewrite S2 by lia. unfold eliminated. destruct (Nat.ltb_spec k i).
      + destruct (Nat.ltb_spec l k). apply I5; lia. destruct (Nat.eqb_spec l k); [|lia]. rnum. subst l.
        apply Rmult_le_reg_r with (Rabs (mget a k k)). apply Rabs_pos_lt; auto.
        rewrite <- Rabs_mult. replace (mget a i k / mget a k k * mget a k k) with (mget a i k) by (field; auto).
        rewrite Rmult_1_l. apply Hm. lia.
      + apply I5; lia.
    - intros l Hl. rewrite S2 by lia. unfold eliminated. destruct (Nat.ltb_spec k l); [lia|].
      destruct (Nat.eq_dec l k) as [->|]; auto. apply I6; lia.
    - intros l Hl. rewrite S2 by lia. unfold eliminated. destruct (Nat.ltb_spec k l); [lia|].
      destruct (Nat.eq_dec l k) as [->|]. apply Rmin_r. eapply Rle_trans; [apply Rmin_l|apply I7; lia].
    - assert (D : forall l, (l <= k)%nat -> mget a' l l = mget a l l).
      { intros l Hl. rewrite S2 by lia. unfold eliminated. destruct (Nat.ltb_spec k l); [lia|reflexivity]. }
      unfold Rmin. destruct (Rle_dec smallest (Rabs (mget a k k))).
      + destruct I8 as [->|(l & Hl & ->)]; auto. right. exists l. split; [lia|]. rewrite D by lia. reflexivity.
      + right. exists k. split; [lia|]. rewrite D by lia. reflexivity.
    - rewrite <- I9. f_equal. rewrite <- (det_rows_added k n (fun i => - (mget a i k / mget a k k)) (reduced k (mget a))) by lia.
      apply det_ext. exact Ered.
  Qed.

  Lemma inv_swap k f smallest p : (k <= p < n)%nat -> p <> k -> inv k f smallest ->
    inv k {| lu_matrix := swap [] (lu_matrix f) k p; lu_perm := swap 0%nat (lu_perm f) k p; lu_sign := - lu_sign f |} smallest.
  Proof.
    intros Hp Np I. destruct I as [I1 I2 I3 I4 I5 I6 I7 I8 I9]. set (a := lu_matrix f) in *.
    assert (Lp : length (lu_perm f) = n) by (rewrite (Permutation_length I2), seq_length; reflexivity).
    assert (La : length a = n) by (destruct I1; auto).
    assert (G : forall i j, mget (swap [] a k p) i j = mget a (exchange k p i) j) by (intros; apply (mget_swap a n); auto; lia).
    assert (X : forall i, (i < k)%nat -> exchange k p i = i) by (intros i Hi; unfold exchange; nat_case).
    assert (Xk : forall i, (k <= i)%nat -> (k <= exchange k p i)%nat) by (intros i Hi; unfold exchange; nat_case).
    assert (Mn : forall i, Nat.min (exchange k p i) k = Nat.min i k).
    { intros i. destruct (Nat.lt_ge_cases i k). rewrite X by auto; reflexivity. specialize (Xk i H). lia. }
    assert (R : forall i j, reduced k (mget (swap [] a k p)) i j = reduced k (mget a) (exchange k p i) j).
    { intros i j. unfold reduced. rewrite G, Mn. reflexivity. }
    constructor; cbn [lu_matrix lu_perm lu_sign]; fold a.
    - apply shape_swap; auto; lia.
    - apply permutation_swap; auto; lia.
    - destruct I3; lra.
    - intros i j Hi Hj. rewrite nth_swap by lia. rewrite I4 by (auto; apply exchange_lt; lia). rewrite R, Mn. f_equal.
      apply bsum_ext. intros l Hl. rewrite G, R, (X l) by lia. reflexivity.
    - intros i l Hi Hl. rewrite G. apply I5. apply exchange_lt; lia. rewrite Mn; auto.
    - intros l Hl. rewrite G, X by auto. apply I6; auto.
    - intros l Hl. rewrite G, X by auto. apply I7; auto.
    - destruct I8 as [->|(l & Hl & E)]; auto. right. exists l. split; auto. rewrite G, X by auto. exact E.
    - rewrite <- I9. rewrite (det_ext n _ (swapped k p (reduced k (mget a)))) by (intros i j Hi Hj; apply R).
      rewrite det_swapped by lia. ring.
  Qed.
End Factor.

(** ** Triangular systems *)
Lemma bsum_split n i f : (i < n)%nat -> bsum n f = bsum i f + f i + bsum (n - (i + 1)) (fun j => f (i + 1 + j)%nat).
Proof.
  intros H. replace n with (i + 1 + (n - (i + 1)))%nat at 1 by lia. rewrite bsum_shift, Nat.add_1_r. reflexivity.
Qed.

Lemma forward_spec n (l : nat -> nat -> R) x : length x = n ->
  length (forward_substitution n l x) = n /\
  forall i, (i < n)%nat -> vget (forward_substitution n l x) i + bsum i (fun j => l i j * vget (forward_substitution n l x) j) = vget x i.
Proof.
  intros L. unfold forward_substitution.
  match goal with |- length ?r = n /\ _ => enough (W : length r = n /\ (forall i, (i < n)%nat ->
     if Nat.ltb i n then vget r i + bsum i (fun j => l i j * vget r j) = vget x i else vget r i = vget x i)) end.
  { destruct W as [W1 W2]. split; auto. intros i Hi. specialize (W2 i Hi). destruct (Nat.ltb_spec i n); [exact W2|lia]. }
  apply (for_loop (fun k (y : list R) => length y = n /\ (forall i, (i < n)%nat ->
     if Nat.ltb i k then vget y i + bsum i (fun j => l i j * vget y j) = vget x i else vget y i = vget x i))).
  - lia.
  - split; [exact L|]. intros i Hi. reflexivity.
  - intros k y Hk [Ly W]. split. rewrite set_nth_length; auto. intros i Hi.
    rewrite (bsum_ext i _ (fun j => l i j * (if Nat.eqb j k then _ else vget y j))) by (intros j Hj; rewrite (vget_set n) by lia; reflexivity).
    rewrite (vget_set n) by lia.
    destruct (Nat.eqb_spec i k) as [->|N].
    + destruct (Nat.ltb_spec k (S k)); [|lia].
      rewrite (bsum_ext k _ (fun j => l k j * vget y j)) by (intros j Hj; destruct (Nat.eqb_spec j k); [lia|reflexivity]).
      change (fold_left (fun sum j => sub sum (mul (l k j) (vget y j))) (range 0 k) (vget y k))
        with (fold_left (fun sum j => sum - l k j * vget y j) (range 0 k) (vget y k)).
      rewrite fold_sub_range0. specialize (W k Hi). destruct (Nat.ltb_spec k k); [lia|]. lra.
    + specialize (W i Hi). destruct (Nat.ltb_spec i (S k)), (Nat.ltb_spec i k); try lia; auto.
      rewrite (bsum_ext i _ (fun j => l i j * vget y j)) by (intros j Hj; destruct (Nat.eqb_spec j k); [lia|reflexivity]). exact W.
Qed.

Lemma back_spec n (u : nat -> nat -> R) x : length x = n -> (forall i, (i < n)%nat -> u i i <> 0) ->
  length (back_substitution n u x) = n /\
  forall i, (i < n)%nat -> bsum n (fun j => (if Nat.ltb j i then 0 else u i j) * vget (back_substitution n u x) j) = vget x i.
Proof.
  intros L D. unfold back_substitution.
  match goal with |- length ?r = n /\ _ => enough (W : length r = n /\ (forall i, (i < n)%nat ->
     if Nat.leb 0 i then bsum n (fun j => (if Nat.ltb j i then 0 else u i j) * vget r j) = vget x i else vget r i = vget x i)) end.
  { exact W. }
  apply (for_down (fun k (y : list R) => length y = n /\ (forall i, (i < n)%nat ->
     if Nat.leb k i then bsum n (fun j => (if Nat.ltb j i then 0 else u i j) * vget y j) = vget x i else vget y i = vget x i))).
  - split; auto. intros i Hi. destruct (Nat.leb_spec n i); [lia|reflexivity].
  - intros k y Hk [Ly W]. split. rewrite set_nth_length; auto. intros i Hi.
    rewrite (bsum_ext n _ (fun j => (if Nat.ltb j i then 0 else u i j) * (if Nat.eqb j k then _ else vget y j)))
      by (intros j Hj; rewrite (vget_set n) by lia; reflexivity).
    rewrite (vget_set n) by lia.
    destruct (Nat.eqb_spec i k) as [->|N].
    + destruct (Nat.leb_spec k k); [|lia]. rewrite (bsum_split n k) by lia.
      rewrite (bsum_ext k _ (fun _ => 0)) by (intros j Hj; destruct (Nat.ltb_spec j k); [ring|lia]). rewrite bsum_0.
      destruct (Nat.ltb_spec k k); [lia|]. rewrite Nat.eqb_refl.
      rewrite (bsum_ext (n - (k + 1)) _ (fun j => u k (k + 1 + j)%nat * vget y (k + 1 + j)%nat)).
      2:{ intros j Hj. destruct (Nat.ltb_spec (k + 1 + j) k), (Nat.eqb_spec (k + 1 + j) k); try lia. reflexivity. }
      unfold range. change (fold_left (fun sum j => sub sum (mul (u k j) (vget y j))) (seq (k + 1) (n - (k + 1))) (vget y k))
        with (fold_left (fun sum j => sum - u k j * vget y j) (seq (k + 1) (n - (k + 1))) (vget y k)).
      rewrite (fold_sub_bsum (k + 1) (n - (k + 1)) (fun j => u k j * vget y j)). rnum.
      specialize (W k Hi). destruct (Nat.leb_spec (S k) k); [lia|]. rewrite W. field. auto.
    + specialize (W i Hi). destruct (Nat.leb_spec k i), (Nat.leb_spec (S k) i); try lia; auto.
      rewrite <- W. apply bsum_ext. intros j Hj. destruct (Nat.ltb_spec j i), (Nat.eqb_spec j k); try lia; ring.
Qed.

(** a triangular matrix without zeros on the diagonal sends only zero to zero *)
Lemma upper_kernel n u x : (forall i, (i < n)%nat -> u i i <> 0) ->
  (forall i, (i < n)%nat -> bsum n (fun j => (if Nat.ltb j i then 0 else u i j) * x j) = 0) -> forall i, (i < n)%nat -> x i = 0.
Proof.
  intros D H. assert (G : forall d i, (n - i <= d)%nat -> (i < n)%nat -> x i = 0); [|intros i Hi; apply (G n); lia].
  induction d as [|d IH]; intros i Hd Hi; [lia|]. specialize (H i Hi). rewrite (bsum_split n i) in H by lia.
  rewrite (bsum_ext i _ (fun _ => 0)) in H by (intros j Hj; destruct (Nat.ltb_spec j i); [ring|lia]). rewrite bsum_0 in H.
  rewrite (bsum_ext (n - (i + 1)) _ (fun _ => 0)) in H by (intros j Hj; rewrite (IH (i + 1 + j)%nat) by lia; ring). rewrite bsum_0 in H.
  destruct (Nat.ltb_spec i i); [lia|]. apply Rmult_eq_reg_l with (u i i); auto. lra.
Qed.
Lemma lower_kernel n l x : (forall i, (i < n)%nat -> x i + bsum i (fun j => l i j * x j) = 0) -> forall i, (i < n)%nat -> x i = 0.
Proof.
  intros H i. induction i as [i IH] using lt_wf_ind. intros Hi. specialize (H i Hi).
  rewrite (bsum_ext i _ (fun _ => 0)) in H by (intros j Hj; rewrite IH by lia; ring). rewrite bsum_0 in H. lra.
Qed.

(** a matrix whose first [k] columns are zero below the diagonal *)
Lemma det_block k : forall n v, (k <= n)%nat -> (forall i j, (i < n)%nat -> (j < k)%nat -> (j < i)%nat -> v i j = 0) ->
  det n v = bprod k (fun i => v i i) * det (n - k) (fun i j => v (k + i)%nat (k + j)%nat).
Proof.
  induction k as [|k IH]; intros n v Hk H. { cbn. rewrite Nat.sub_0_r, Rmult_1_l. reflexivity. }
  destruct n as [|n]; [lia|]. rewrite bprod_first. cbn [det]. rewrite bsum_first.
  rewrite (bsum_ext n _ (fun _ => 0)). 2:{ intros i Hi. rewrite (H (S i) 0%nat) by lia. ring. }
  rewrite bsum_0, (IH n).
  - unfold without, skip. cbn. ring.
  - lia.
  - intros i j Hi Hj Hij. unfold without, skip. cbn. apply H; lia.
Qed.
Lemma det_zero_column n v : (0 < n)%nat -> (forall i, (i < n)%nat -> v i 0%nat = 0) -> det n v = 0.
Proof.
  intros Hn H. destruct n; [lia|]. cbn [det]. rewrite (bsum_ext _ _ (fun _ => 0)), bsum_0; auto. intros i Hi. rewrite H by auto. ring.
Qed.

(** ** The factorization *)
Section Steps.
  Variable n : nat.
  Variable A : matrix.

  (** what the invariant says about the matrix times a vector *)
  Lemma inv_times k f s x i : inv n A k f s -> (i < n)%nat ->
    times n A x (nth i (lu_perm f) 0%nat) = times n (reduced k (mget (lu_matrix f))) x i
      + bsum (Nat.min i k) (fun l => mget (lu_matrix f) i l * times n (reduced k (mget (lu_matrix f))) x l).
  Proof.
    intros I Hi. unfold times.
    rewrite (bsum_ext n _ (fun j => reduced k (mget (lu_matrix f)) i j * x j
      + bsum (Nat.min i k) (fun l => mget (lu_matrix f) i l * reduced k (mget (lu_matrix f)) l j * x j))).
    2:{ intros j Hj. rewrite (inv_product _ _ _ _ _ I) by auto. rewrite Rmult_plus_distr_r. f_equal.
        rewrite Rmult_comm, <- bsum_scal. apply bsum_ext. intros; ring. }
    rewrite bsum_plus. f_equal. rewrite bsum_swap. apply bsum_ext. intros l Hl. rewrite <- bsum_scal. apply bsum_ext. intros; ring.
  Qed.

  (** no pivot in column [k]: the matrix is singular *)
  Lemma inv_no_pivot k f s : (k < n)%nat -> inv n A k f s -> (forall i, (k <= i < n)%nat -> mget (lu_matrix f) i k = 0) ->
    singular n A /\ det n A = 0.
  Proof.
    intros Hk I Z. set (a := lu_matrix f) in *. split.
    - (* solve the triangle for the vector that ends in one at [k] *)
      set (c := from_fn k (fun i => - mget a i k)).
      destruct (back_spec k (mget a) c (from_fn_length _ _)) as [Lx Hx]. { intros i Hi. apply (inv_diagonal _ _ _ _ _ I); auto. }
      set (y := back_substitution k (mget a) c) in *.
      set (x := fun i => if Nat.ltb i k then vget y i else if Nat.eqb i k then 1 else 0).
      assert (K : forall i, (i < n)%nat -> times n (reduced k (mget a)) x i = 0).
      { intros i Hi. unfold times. rewrite (bsum_mono_zero (S k) n) by (try lia; intros j Hj; unfold x; nat_case; ring).
        cbn [bsum]. unfold x at 2. rewrite Nat.eqb_refl. destruct (Nat.ltb_spec k k); [lia|].
        assert (Rk : reduced k (mget a) i k = mget a i k) by (unfold reduced; destruct (Nat.ltb_spec k (Nat.min i k)); [lia|reflexivity]).
        rewrite Rk. destruct (Nat.lt_ge_cases i k).
        - specialize (Hx i H0). unfold c in Hx at 1. rewrite vget_from_fn in Hx by auto.
          rewrite (bsum_ext k _ (fun j => (if Nat.ltb j i then 0 else mget a i j) * vget y j)). rewrite Hx. ring.
          intros j Hj. unfold reduced, x. rewrite (Nat.min_l i k) by lia. destruct (Nat.ltb_spec j k); [reflexivity|lia].
        - rewrite Z by lia. rewrite (bsum_ext k _ (fun _ => 0)), bsum_0. ring.
          intros j Hj. unfold reduced. rewrite (Nat.min_r i k) by lia. destruct (Nat.ltb_spec j k); [ring|lia]. }
      exists x. split.
      + exists k. split; auto. unfold x. rewrite Nat.eqb_refl. destruct (Nat.ltb_spec k k); [lia|]. lra.
      + intros i Hi. destruct (permutation_onto _ n i (inv_perm _ _ _ _ _ I) Hi) as (r & Hr & <-).
        rewrite (inv_times k f s x r I Hr). fold a. rewrite K by auto. rewrite (bsum_ext _ _ (fun _ => 0)), bsum_0. ring.
        intros l Hl. rewrite K by lia. ring.
    - rewrite <- (inv_det _ _ _ _ _ I). fold a. rewrite (det_block k n); [|lia|].
      2:{ intros i j Hi Hj Hij. unfold reduced. destruct (Nat.ltb_spec j (Nat.min i k)); [reflexivity|lia]. }
      rewrite (det_zero_column (n - k)); [ring|lia|]. intros i Hi. unfold reduced. rewrite Nat.add_0_r.
      destruct (Nat.ltb_spec k (Nat.min (k + i) k)); [lia|]. apply Z. lia.
  Qed.

  Lemma inv_step k f s : (k < n)%nat -> inv n A k f s ->
    match lu_step n k f s with
    | Ok (f', s') => inv n A (S k) f' s'
    | Err e => e = LaSingular /\ singular n A /\ det n A = 0
    | Panic => False
    end.
  Proof.
    intros Hk I. unfold lu_step. pose proof (pivot_search_spec n k (lu_matrix f) Hk) as P.
    destruct (pivot_search n k (lu_matrix f)) as [p best]. destruct P as (P1 & P2 & P3). rnum.
    destruct (Reqb best 0) eqn:E; rcases.
    - split; auto. apply (inv_no_pivot k f s Hk I). intros i Hi. specialize (P3 i Hi).
      destruct (Req_dec (mget (lu_matrix f) i k) 0) as [|N]; auto. pose proof (Rabs_pos_lt _ N). lra.
    - destruct (Nat.eqb_spec p k) as [->|N]; cbn [negb].
      + subst best. apply (inv_eliminate n A k f s Hk I). intros C. rewrite C, Rabs_R0 in E. lra. exact P3.
      + pose proof (inv_swap n A k f s p P1 N I) as J.
        assert (G : forall i j, mget (swap [] (lu_matrix f) k p) i j = mget (lu_matrix f) (exchange k p i) j)
          by (intros; apply (mget_swap _ n); [destruct (inv_shape _ _ _ _ _ I); auto|lia|lia]).
        assert (Gk : mget (swap [] (lu_matrix f) k p) k k = mget (lu_matrix f) p k) by (rewrite G; unfold exchange; rewrite Nat.eqb_refl; reflexivity).
        rewrite P2, <- Gk. apply (inv_eliminate n A k _ s Hk J); cbn [lu_matrix].
        * rewrite Gk. intros C. rewrite P2, C, Rabs_R0 in E. lra.
        * intros i Hi. rewrite Gk, G, <- P2. apply P3. unfold exchange. nat_case.
  Qed.

  Lemma inv_steps m : forall k f s, (k + m = n)%nat -> inv n A k f s ->
    match lu_steps n (seq k m) f s with
    | Ok (f', s') => inv n A n f' s'
    | Err e => e = LaSingular /\ singular n A /\ det n A = 0
    | Panic => False
    end.
  Proof.
    induction m as [|m IH]; intros k f s E I; cbn. replace n with k at 2 by lia. exact I.
    pose proof (inv_step k f s ltac:(lia) I) as St. destruct (lu_step n k f s) as [[f' s']|e|]; auto. apply IH; auto. lia.
  Qed.
End Steps.

Lemma factor_spec n m : shape n n m ->
  match factor_lu n m with
  | Ok (f, s) => inv n (mget m) n f s
  | Err e => e = LaSingular /\ singular n (mget m) /\ det n (mget m) = 0
  | Panic => False
  end.
Proof.
  intros H. unfold factor_lu, range. rewrite Nat.sub_0_r. apply inv_steps; auto. apply inv_start; auto.
Qed.

Section Done.
  Context (n : nat) (A : matrix) (f : lu R) (s : R) (I : inv n A n f s).

  Lemma done_lower i j : (i < n)%nat -> (j < n)%nat -> mget (lu_lower n f) i j = if Nat.eqb i j then 1 else if Nat.ltb j i then mget (lu_matrix f) i j else 0.
  Proof. intros. unfold lu_lower. rewrite mget_mat_fn by auto. reflexivity. Qed.
  Lemma done_upper i j : (i < n)%nat -> (j < n)%nat -> mget (lu_upper n f) i j = if Nat.leb i j then mget (lu_matrix f) i j else 0.
  Proof. intros. unfold lu_upper. rewrite mget_mat_fn by auto. reflexivity. Qed.
  Lemma done_reduced i j : (i < n)%nat -> (j < n)%nat -> reduced n (mget (lu_matrix f)) i j = mget (lu_upper n f) i j.
  Proof. intros. rewrite done_upper by auto. unfold reduced. nat_case; auto. Qed.

  Lemma done_product i j : (i < n)%nat -> (j < n)%nat ->
    product n (mget (lu_lower n f)) (mget (lu_upper n f)) i j = A (nth i (lu_perm f) 0%nat) j.
  Proof.
    intros Hi Hj. rewrite (inv_product _ _ _ _ _ I) by auto. rewrite Nat.min_l by lia.
    unfold product. rewrite (bsum_split n i) by auto.
    rewrite (bsum_ext (n - (i + 1)) _ (fun _ => 0)), bsum_0.
    2:{ intros l Hl. rewrite done_lower by lia. nat_case. ring. }
    rewrite (bsum_ext i _ (fun l => mget (lu_matrix f) i l * reduced n (mget (lu_matrix f)) l j)).
    2:{ intros l Hl. rewrite done_lower, done_reduced by lia. nat_case. reflexivity. }
    rewrite done_lower, Nat.eqb_refl, done_reduced by lia. ring.
  Qed.

  Lemma done_nonsingular x : equal_vectors n (times n A x) (fun _ => 0) -> forall i, (i < n)%nat -> x i = 0.
  Proof.
    intros H. apply (upper_kernel n (mget (lu_matrix f))).
    - intros i Hi. apply (inv_diagonal _ _ _ _ _ I); auto.
    - intros i Hi.
      assert (K : forall i, (i < n)%nat -> times n (reduced n (mget (lu_matrix f))) x i = 0).
      { apply (lower_kernel n (mget (lu_matrix f))). intros r Hr.
        pose proof (inv_times n A n f s x r I Hr) as E. rewrite Nat.min_l in E by lia. rewrite <- E.
        apply H. apply permutation_lt; auto. apply (inv_perm _ _ _ _ _ I). }
      transitivity (times n (reduced n (mget (lu_matrix f))) x i); [|exact (K i Hi)]. apply bsum_ext. intros j Hj. unfold reduced. rewrite Nat.min_l by lia. reflexivity.
  Qed.

  Lemma done_solve b : length b = n -> length (lu_solve n f b) = n /\ equal_vectors n (times n A (vget (lu_solve n f b))) (vget b).
  Proof.
    intros Lb. unfold lu_solve. set (x0 := from_fn n _). assert (L0 : length x0 = n) by apply from_fn_length.
    destruct (forward_spec n (mget (lu_matrix f)) x0 L0) as [L1 H1]. set (y := forward_substitution _ _ _) in *.
    destruct (back_spec n (mget (lu_matrix f)) y L1) as [L2 H2]. { intros i Hi. apply (inv_diagonal _ _ _ _ _ I); auto. }
    set (z := back_substitution _ _ _) in *. split; auto. intros i Hi.
    destruct (permutation_onto _ n i (inv_perm _ _ _ _ _ I) Hi) as (r & Hr & <-).
    rewrite (inv_times n A n f s (vget z) r I Hr).
    assert (K : forall i, (i < n)%nat -> times n (reduced n (mget (lu_matrix f))) (vget z) i = vget y i).
    { intros j Hj. rewrite <- H2 by auto. apply bsum_ext. intros l Hl. unfold reduced. rewrite Nat.min_l by lia. reflexivity. }
    rewrite K by auto. rewrite Nat.min_l by lia.
    rewrite (bsum_ext r _ (fun l => mget (lu_matrix f) r l * vget y l)) by (intros l Hl; rewrite K by lia; reflexivity).
    rewrite H1 by auto. unfold x0. rewrite vget_from_fn by auto. reflexivity.
  Qed.

  Lemma done_det : lu_determinant n f = det n A.
  Proof.
    rewrite <- (inv_det _ _ _ _ _ I), (det_ext n _ (mget (lu_upper n f))) by (intros i j; apply done_reduced).
    rewrite det_upper.
    2:{ intros i j Hi Hj Hij. rewrite done_upper by auto. nat_case. reflexivity. }
    unfold lu_determinant, range. rewrite Nat.sub_0_r.
    assert (G : forall m, (m <= n)%nat -> fold_left (fun d i => mul d (mget (lu_matrix f) i i)) (seq 0 m) (lu_sign f) = lu_sign f * bprod m (fun i => mget (lu_upper n f) i i)).
    { induction m as [|m IH]; intros Hm; [cbn; ring|]. rewrite seq_S, fold_left_app, IH by lia. cbn. rewrite done_upper by lia. nat_case. ring. }
    apply G. lia.
  Qed.
  Lemma done_det_nonzero : det n A <> 0.
  Proof.
    rewrite <- (inv_det _ _ _ _ _ I), (det_ext n _ (mget (lu_upper n f))) by (intros i j; apply done_reduced).
    rewrite det_upper by (intros i j Hi Hj Hij; rewrite done_upper by auto; nat_case; reflexivity).
    apply Rmult_integral_contrapositive_currified. destruct (inv_sign _ _ _ _ _ I) as [-> | ->]; lra.
    apply bprod_nonzero. intros i Hi. rewrite done_upper by auto. nat_case. apply (inv_diagonal _ _ _ _ _ I); auto.
  Qed.
End Done.

(** the columns solved one by one *)
Lemma solve_columns_spec {T} {NT : Num T} n k (solve : list T -> list T) b :
  shape n k (solve_columns n k solve b) /\
  forall i j, (i < n)%nat -> (j < k)%nat -> mget (solve_columns n k solve b) i j = vget (solve (from_fn n (fun row => mget b row j))) i.
Proof.
  unfold solve_columns. set (sol := fun j => solve (from_fn n (fun row => mget b row j))).
  match goal with |- shape _ _ ?r /\ _ => enough (L : shape n k r /\ forall i j, (i < n)%nat -> (j < k)%nat ->
    if Nat.ltb j k then mget r i j = vget (sol j) i else True) end.
  { destruct L as [L1 L2]. split; [exact L1|]. intros i j Hi Hj. specialize (L2 i j Hi Hj). destruct (Nat.ltb_spec j k); [exact L2|lia]. }
  apply (for_loop (fun c x => shape n k x /\ forall i j, (i < n)%nat -> (j < k)%nat -> if Nat.ltb j c then mget x i j = vget (sol j) i else True)).
  - lia.
  - split. apply shape_zeros. intros i j Hi Hj. exact Logic.I.
  - intros c x Hc [Hx Ex]. fold (sol c).
    match goal with |- shape _ _ ?r /\ _ => enough (L : shape n k r /\ forall i j, (i < n)%nat -> (j < k)%nat ->
      mget r i j = if (Nat.eqb j c && Nat.ltb i n)%bool then vget (sol c) i else mget x i j) end.
    { destruct L as [L1 L2]. split; [exact L1|]. intros i j Hi Hj. rewrite L2 by auto. specialize (Ex i j Hi Hj).
      destruct (Nat.ltb_spec j (S c)), (Nat.ltb_spec j c), (Nat.eqb_spec j c), (Nat.ltb_spec i n); cbn [andb]; try lia; auto. subst; auto. }
    apply (for_loop (fun r y => shape n k y /\ forall i j, (i < n)%nat -> (j < k)%nat ->
      mget y i j = if (Nat.eqb j c && Nat.ltb i r)%bool then vget (sol c) i else mget x i j)).
    + lia.
    + split; auto. intros i j Hi Hj. destruct (Nat.eqb j c); reflexivity.
    + intros r y Hr [Hy Ey]. split. apply shape_mset; auto. intros i j Hi Hj. rewrite (mget_mset n k) by (auto; lia). rewrite Ey by auto.
      destruct (Nat.eqb_spec i r), (Nat.eqb_spec j c), (Nat.ltb_spec i (S r)), (Nat.ltb_spec i r); cbn [andb]; try lia; subst; auto.
Qed.

(** a right inverse of a matrix that sends only zero to zero is a left inverse *)
Lemma right_left_inverse n a x : (forall v, equal_vectors n (times n a v) (fun _ => 0) -> forall i, (i < n)%nat -> v i = 0) ->
  equal n n (product n a x) unit_matrix -> equal n n (product n x a) unit_matrix.
Proof.
  intros K H i j Hi Hj.
  assert (Z : (fun r => product n x a r j - unit_matrix r j) i = 0).
  { apply (K (fun r => product n x a r j - unit_matrix r j)); auto. intros r Hr. unfold times.
    rewrite (bsum_ext n _ (fun l => a r l * product n x a l j - a r l * unit_matrix l j)) by (intros; ring). rewrite bsum_minus.
    change (product n a (product n x a) r j - product n a unit_matrix r j = 0).
    rewrite <- product_assoc, product_unit_r by auto.
    rewrite (product_ext n _ unit_matrix a a r j); auto. rewrite product_unit_l by auto. ring. }
  cbv beta in Z. lra.
Qed.
