(** Reading and writing matrices, loops over ranges, and what the matrix operations compute over R. *)
From Coq Require Import ZArith Reals List Bool Arith Lia Lra.
From Verif Require Import Base.Scalar Base.RNum Base.Lists Base.Series Model.Vector Model.Matrix Spec.Matrix.
Import ListNotations.

(** ** Loops *)
Lemma for_range {A} (P : nat -> A -> Prop) (f : A -> nat -> A) n : forall s a,
  P s a -> (forall i x, s <= i < s + n -> P i x -> P (S i) (f x i)) -> P (s + n) (fold_left f (seq s n) a).
Proof.
  induction n as [|n IH]; intros s a H0 HS; cbn. rewrite Nat.add_0_r. exact H0.
  replace (s + S n) with (S s + n) by lia. apply IH. apply HS; auto; lia. intros i x Hi. apply HS; lia.
Qed.
(** [for i in low..high]: an invariant that holds before the first pass and is kept by each holds after the last. *)
Lemma for_loop {A} (P : nat -> A -> Prop) (f : A -> nat -> A) low high a : low <= high ->
  P low a -> (forall i x, low <= i < high -> P i x -> P (S i) (f x i)) -> P high (fold_left f (range low high) a).
Proof.
  intros L H0 HS. unfold range. replace high with (low + (high - low)) at 1 by lia. apply for_range; auto.
  intros i x Hi. apply HS. lia.
Qed.
(** [for i in (0..high).rev()] *)
Lemma for_down {A} (P : nat -> A -> Prop) (f : A -> nat -> A) high : forall a,
  P high a -> (forall i x, i < high -> P (S i) x -> P i (f x i)) -> P 0 (fold_left f (rev (range 0 high)) a).
Proof.
  unfold range. rewrite Nat.sub_0_r. induction high as [|n IH]; intros a H0 HS. exact H0.
  rewrite seq_S, rev_app_distr. cbn. apply IH. apply HS; auto. intros i x Hi. apply HS. lia.
Qed.
Lemma range_S low high : low <= high -> range low (S high) = range low high ++ [high].
Proof. intros H. unfold range. replace (S high - low) with (S (high - low)) by lia. rewrite seq_S. f_equal. f_equal. lia. Qed.
Lemma range_nil low high : high <= low -> range low high = [].
Proof. intros H. unfold range. replace (high - low) with 0 by lia. reflexivity. Qed.
Lemma in_range low high i : In i (range low high) <-> low <= i < high.
Proof. unfold range. rewrite in_seq. lia. Qed.

Section Any.
  Context {T : Type} {NT : Num T}.

  Lemma nth_mset (m : mat T) i j v k : nth k (mset m i j v) [] = if Nat.eqb k i then (if Nat.ltb i (length m) then set_nth (nth i m []) j v else []) else nth k m [].
  Proof.
    unfold mset. destruct (Nat.eqb_spec k i) as [->|N].
    - destruct (Nat.ltb_spec i (length m)). apply nth_set_nth_eq; auto. apply nth_overflow. rewrite set_nth_length. lia.
    - apply nth_set_nth_neq. auto.
  Qed.
  Lemma shape_mset rows cols (m : mat T) i j v : shape rows cols m -> shape rows cols (mset m i j v).
  Proof.
    intros [H K]. split. unfold mset. rewrite set_nth_length. exact H.
    intros k Hk. rewrite nth_mset. destruct (Nat.eqb_spec k i) as [->|]; [|apply K; auto].
    destruct (Nat.ltb_spec i (length m)); [|lia]. rewrite set_nth_length. apply K; auto.
  Qed.
  Lemma mget_mset rows cols (m : mat T) i j v r c : shape rows cols m -> i < rows -> j < cols ->
    mget (mset m i j v) r c = if (Nat.eqb r i && Nat.eqb c j)%bool then v else mget m r c.
  Proof.
    intros [H K] Hi Hj. unfold mget. rewrite nth_mset. destruct (Nat.eqb_spec r i) as [->|]; [|reflexivity].
    destruct (Nat.ltb_spec i (length m)); [|lia]. cbn [andb].
    destruct (Nat.eqb_spec c j) as [->|]. apply nth_set_nth_eq. rewrite K; auto. apply nth_set_nth_neq. auto.
  Qed.

  Lemma shape_mat_fn rows cols (f : nat -> nat -> T) : shape rows cols (mat_fn rows cols f).
  Proof.
    unfold mat_fn. split. apply from_fn_length. intros i Hi. rewrite nth_from_fn by auto. apply from_fn_length.
  Qed.
  Lemma mget_mat_fn rows cols f i j : i < rows -> j < cols -> mget (mat_fn rows cols f) i j = f i j.
  Proof. intros Hi Hj. unfold mget, mat_fn. rewrite nth_from_fn by auto. apply nth_from_fn. auto. Qed.

  Lemma mat_ext rows cols (m m' : mat T) : shape rows cols m -> shape rows cols m' ->
    (forall i j, i < rows -> j < cols -> mget m i j = mget m' i j) -> m = m'.
  Proof.
    intros [H K] [H' K'] E. apply nth_ext with (d := []) (d' := []); [congruence|]. intros i Hi.
    apply nth_ext with (d := zero) (d' := zero). rewrite K, K'; auto; lia.
    intros j Hj. apply E. lia. rewrite K in Hj; lia.
  Qed.

  Lemma vget_from_fn n (f : nat -> T) i : i < n -> vget (from_fn n f) i = f i.
  Proof. intros. unfold vget. apply nth_from_fn; auto. Qed.
  Lemma vget_set n (v : list T) i x k : length v = n -> i < n -> vget (set_nth v i x) k = if Nat.eqb k i then x else vget v k.
  Proof.
    intros L H. unfold vget. destruct (Nat.eqb_spec k i) as [->|]. apply nth_set_nth_eq. lia. apply nth_set_nth_neq. auto.
  Qed.
  Lemma vec_ext n (u v : list T) : length u = n -> length v = n -> (forall i, i < n -> vget u i = vget v i) -> u = v.
  Proof. intros L K H. apply nth_ext with (d := zero) (d' := zero). congruence. intros i Hi. apply H. lia. Qed.

  Lemma nth_map_mat (f : T -> T) (m : mat T) i : nth i (map (map f) m) [] = map f (nth i m []).
  Proof. change ([] : list T) with (map f []) at 1. apply map_nth. Qed.
  Lemma nth_map2 {A B C} (f : A -> B -> C) da db dc : forall u v i, i < length u -> i < length v ->
    nth i (map2 f u v) dc = f (nth i u da) (nth i v db).
  Proof. induction u; intros [|b v] [|i] H K; cbn in *; try lia; auto. apply IHu; lia. Qed.
  Lemma map2_length {A B C} (f : A -> B -> C) : forall u v, length u = length v -> length (map2 f u v) = length u.
  Proof. induction u; intros [|b v] H; cbn in *; try discriminate; auto. Qed.
  Lemma shape_map2 (f : T -> T -> T) rows cols (a b : mat T) : shape rows cols a -> shape rows cols b -> shape rows cols (map2 (map2 f) a b).
  Proof.
    intros [H K] [H' K']. split. rewrite map2_length; congruence. intros i Hi.
    rewrite (nth_map2 _ [] []) by lia. rewrite map2_length by (rewrite K, K'; auto). apply K; auto.
  Qed.
  Lemma mget_map2 (f : T -> T -> T) rows cols (a b : mat T) i j : shape rows cols a -> shape rows cols b -> i < rows -> j < cols ->
    mget (map2 (map2 f) a b) i j = f (mget a i j) (mget b i j).
  Proof.
    intros [H K] [H' K'] Hi Hj. unfold mget. rewrite (nth_map2 _ [] []) by lia. apply nth_map2; [rewrite K|rewrite K']; auto.
  Qed.
  Lemma shape_map (f : T -> T) rows cols (a : mat T) : shape rows cols a -> shape rows cols (map (map f) a).
  Proof. intros [H K]. split. rewrite map_length. auto. intros i Hi. rewrite nth_map_mat, map_length. auto. Qed.
  Lemma mget_map (f : T -> T) rows cols (a : mat T) i j : shape rows cols a -> i < rows -> j < cols -> mget (map (map f) a) i j = f (mget a i j).
  Proof.
    intros [H K] Hi Hj. unfold mget. rewrite nth_map_mat. rewrite nth_indep with (d' := f zero). apply map_nth.
    rewrite map_length, K; auto.
  Qed.

  Lemma nth_repeat_z n i : nth i (repeat zero n) zero = (zero : T).
  Proof. revert i. induction n; intros [|i]; cbn; auto. Qed.
  Lemma shape_from_diagonal n (d : list T) : shape n n (from_diagonal n d).
  Proof.
    unfold from_diagonal. split. apply from_fn_length. intros i Hi. rewrite nth_from_fn by auto. rewrite set_nth_length. apply repeat_length.
  Qed.
  Lemma mget_from_diagonal n d i j : i < n -> j < n -> mget (from_diagonal n d) i j = if Nat.eqb i j then vget d i else zero.
  Proof.
    intros Hi Hj. unfold mget, from_diagonal. rewrite nth_from_fn by auto. destruct (Nat.eqb_spec i j) as [->|].
    apply nth_set_nth_eq. rewrite repeat_length; auto. rewrite nth_set_nth_neq by auto. apply nth_repeat_z.
  Qed.
  Lemma vget_repeat n (x : T) i : i < n -> vget (repeat x n) i = x.
  Proof. revert i. induction n; intros [|i] H; cbn; try lia; auto. apply (IHn i). lia. Qed.
  Lemma mget_identity n i j : i < n -> j < n -> mget (identity n) i j = if Nat.eqb i j then one else zero.
  Proof. intros Hi Hj. unfold identity. rewrite mget_from_diagonal by auto. destruct (Nat.eqb i j); auto. apply vget_repeat. auto. Qed.
  Lemma shape_identity n : shape n n (identity n : mat T).
  Proof. apply shape_from_diagonal. Qed.
  Lemma mget_transpose rows cols m i j : i < cols -> j < rows -> mget (transpose rows cols m) i j = mget m j i.
  Proof. intros. unfold transpose. rewrite mget_mat_fn by auto. reflexivity. Qed.
  Lemma shape_zeros rows cols : shape rows cols (mat_zeros rows cols : mat T).
  Proof. apply shape_mat_fn. Qed.

  (** every entry of [concat m] is an entry of the matrix *)
  Lemma in_concat_mat rows cols (m : mat T) x : shape rows cols m -> In x (concat m) <-> exists i j, i < rows /\ j < cols /\ mget m i j = x.
  Proof.
    intros [H K]. rewrite in_concat. split.
    - intros (r & Hr & Hx). destruct (In_nth _ _ [] Hr) as (i & Hi & Ei). destruct (In_nth _ _ zero Hx) as (j & Hj & Ej).
      exists i, j. split; [lia|]. subst r. rewrite K in Hj by lia. split; auto.
    - intros (i & j & Hi & Hj & <-). exists (nth i m []). split. apply nth_In. lia. apply nth_In. rewrite K; auto.
  Qed.

  Lemma symmetrized_spec n (m : mat T) : shape n n m ->
    shape n n (symmetrized n m) /\
    forall i j, i < n -> j < n ->
      mget (symmetrized n m) i j =
      if Nat.eqb i j then mget m i j
      else if Nat.ltb i j then mul (add (mget m i j) (mget m j i)) half else mul (add (mget m j i) (mget m i j)) half.
  Proof.
    intros Hm. unfold symmetrized.
    set (av := fun i j => mul (add (mget m i j) (mget m j i)) half).
    set (target := fun i j => if Nat.eqb i j then mget m i j else if Nat.ltb i j then av i j else av j i).
    match goal with |- shape _ _ ?r /\ _ => enough (L : shape n n r /\ forall i j, i < n -> j < n ->
      mget r i j = if Nat.ltb (Nat.min i j) n then target i j else mget m i j) end.
    { destruct L as [L1 L2]. split; [exact L1|]. intros i j Hi Hj. rewrite L2 by auto.
      destruct (Nat.ltb_spec (Nat.min i j) n); [reflexivity|lia]. }
    apply (for_loop (fun r a => shape n n a /\ forall i j, i < n -> j < n ->
      mget a i j = if Nat.ltb (Nat.min i j) r then target i j else mget m i j)).
    - lia.
    - split; auto.
    - intros r a Hr [Ha Ea].
      assert (L : shape n n (fold_left (fun result column => mset (mset result r column (av r column)) column r (av r column)) (range (r + 1) n) a) /\
        forall i j, i < n -> j < n ->
          mget (fold_left (fun result column => mset (mset result r column (av r column)) column r (av r column)) (range (r + 1) n) a) i j =
          if (Nat.eqb (Nat.min i j) r && Nat.ltb r (Nat.max i j) && Nat.ltb (Nat.max i j) n)%bool then target i j else mget a i j).
      { apply (for_loop (fun c x => shape n n x /\ forall i j, i < n -> j < n ->
          mget x i j = if (Nat.eqb (Nat.min i j) r && Nat.ltb r (Nat.max i j) && Nat.ltb (Nat.max i j) c)%bool then target i j else mget a i j)).
        - lia.
        - split; auto. intros i j Hi Hj. destruct (Nat.eqb_spec (Nat.min i j) r), (Nat.ltb_spec r (Nat.max i j)), (Nat.ltb_spec (Nat.max i j) (r + 1)); cbn; auto; lia.
        - intros c x Hc [Hx Ex]. split. { apply shape_mset, shape_mset; auto. }
          intros i j Hi Hj. rewrite (mget_mset n n) by (auto using shape_mset; lia). rewrite (mget_mset n n) by (auto; lia). rewrite Ex by auto.
          unfold target.
          destruct (Nat.eqb_spec i c), (Nat.eqb_spec j r), (Nat.eqb_spec i r), (Nat.eqb_spec j c); cbn [andb]; try lia;
          destruct (Nat.eqb_spec (Nat.min i j) r), (Nat.ltb_spec r (Nat.max i j)), (Nat.ltb_spec (Nat.max i j) (S c)), (Nat.ltb_spec (Nat.max i j) c); cbn [andb];
          try lia; try reflexivity;
          destruct (Nat.eqb_spec i j), (Nat.ltb_spec i j); try lia; subst; try reflexivity. }
      destruct L as [L1 L2]. split; [exact L1|]. intros i j Hi Hj. unfold av in L2 at 1. rewrite L2, Ea by auto.
      destruct (Nat.ltb_spec (Nat.min i j) (S r)), (Nat.ltb_spec (Nat.min i j) r), (Nat.eqb_spec (Nat.min i j) r), (Nat.ltb_spec r (Nat.max i j)), (Nat.ltb_spec (Nat.max i j) n); cbn [andb]; try lia; try reflexivity.
      unfold target. destruct (Nat.eqb_spec i j); [reflexivity|lia].
  Qed.
End Any.

Local Open Scope R_scope.
(** ** Over R *)
Lemma loop_sum_bsum n (f : nat -> R) : loop_sum n f = bsum n f.
Proof.
  unfold loop_sum. induction n; [reflexivity|]. rewrite seq_S, fold_left_app, IHn. reflexivity.
Qed.
Lemma fold_sub_bsum low n (f : nat -> R) s : fold_left (fun sum j => sum - f j) (seq low n) s = s - bsum n (fun i => f (low + i)%nat).
Proof.
  induction n; [cbn; lra|]. rewrite seq_S, fold_left_app, IHn. cbn. lra.
Qed.
Lemma fold_sub_range0 n (f : nat -> R) s : fold_left (fun sum j => sum - f j) (range 0 n) s = s - bsum n f.
Proof. unfold range. rewrite Nat.sub_0_r, fold_sub_bsum. reflexivity. Qed.
Lemma mget_mul rows inner cols a b i j : (i < rows)%nat -> (j < cols)%nat ->
  mget (mat_mul rows inner cols a b) i j = product inner (mget a) (mget b) i j.
Proof. intros. unfold mat_mul. rewrite mget_mat_fn by auto. apply loop_sum_bsum. Qed.
Lemma vget_mat_vec rows cols a v i : (i < rows)%nat -> vget (mat_vec rows cols a v) i = times cols (mget a) (vget v) i.
Proof. intros. unfold mat_vec. rewrite vget_from_fn by auto. apply loop_sum_bsum. Qed.

Lemma product_ext n a a' b b' i j : (forall k, (k < n)%nat -> a i k = a' i k) -> (forall k, (k < n)%nat -> b k j = b' k j) ->
  product n a b i j = product n a' b' i j.
Proof. intros H K. apply bsum_ext. intros k Hk. rewrite H, K by auto. reflexivity. Qed.
Lemma times_ext n a a' x x' i : (forall k, (k < n)%nat -> a i k = a' i k) -> equal_vectors n x x' -> times n a x i = times n a' x' i.
Proof. intros H K. apply bsum_ext. intros k Hk. rewrite H, K by auto. reflexivity. Qed.
Lemma product_assoc n m a b c i j : product m (product n a b) c i j = product n a (product m b c) i j.
Proof.
  unfold product. rewrite (bsum_ext m _ (fun k => bsum n (fun l => a i l * b l k * c k j))).
  2:{ intros k Hk. rewrite Rmult_comm, <- bsum_scal. apply bsum_ext. intros; ring. }
  rewrite bsum_swap. apply bsum_ext. intros l Hl. rewrite <- bsum_scal. apply bsum_ext. intros; ring.
Qed.
Lemma times_product n m a b x i : times m (product n a b) x i = times n a (times m b x) i.
Proof. exact (product_assoc n m a b (fun k _ => x k) i 0%nat). Qed.
Lemma product_unit_l n a i j : (i < n)%nat -> product n unit_matrix a i j = a i j.
Proof.
  intros H. unfold product, unit_matrix. rewrite (bsum_ext n _ (fun k => if Nat.eqb k i then a i j else 0)).
  apply bsum_delta; auto. intros k Hk. rewrite (Nat.eqb_sym i k). destruct (Nat.eqb_spec k i) as [->|]; ring.
Qed.
Lemma product_unit_r n a i j : (j < n)%nat -> product n a unit_matrix i j = a i j.
Proof.
  intros H. unfold product, unit_matrix. rewrite (bsum_ext n _ (fun k => if Nat.eqb k j then a i j else 0)).
  apply bsum_delta; auto. intros k Hk. destruct (Nat.eqb_spec k j) as [->|]; ring.
Qed.
Lemma times_unit n x i : (i < n)%nat -> times n unit_matrix x i = x i.
Proof. intros. exact (product_unit_l n (fun k _ => x k) i 0%nat H). Qed.
Lemma product_transposed n a b i j : product n (transposed b) (transposed a) i j = transposed (product n a b) i j.
Proof. unfold product, transposed. apply bsum_ext. intros; ring. Qed.
Lemma bsum_mono_zero n m f : (n <= m)%nat -> (forall i, (n <= i < m)%nat -> f i = 0) -> bsum m f = bsum n f.
Proof.
  intros H E. replace m with (n + (m - n))%nat by lia. rewrite bsum_shift, (bsum_ext (m - n) _ (fun _ => 0)), bsum_0. ring.
  intros i Hi. apply E. lia.
Qed.
