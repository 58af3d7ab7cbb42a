(** The column-pivoted QR factorization and least squares over R. *)
From Coq Require Import ZArith Reals List Bool Arith Lia Lra Permutation.
From Verif Require Import Base.Scalar Base.RNum Base.Lists Base.Series Base.Det.
From Verif Require Import Model.Errors Model.Vector Model.Matrix Model.Lu Model.Cholesky Model.Qr Spec.Matrix Proofs.Matrix Proofs.Lu Proofs.Cholesky.
Import ListNotations.
Local Open Scope R_scope.

(** ** The norm *)
Definition sum_squares (l : list R) : R := fold_right (fun x s => x * x + s) 0 l.
Lemma sum_squares_nonneg l : 0 <= sum_squares l.
Proof. induction l as [|x l IH]; cbn [sum_squares fold_right]; [lra|]. pose proof (Rle_0_sqr x). unfold Rsqr, sum_squares in *. lra. Qed.

Definition bands_ok (s : bands) : Prop := large_sum s = 0 /\ 0 <= mid_sum s /\ 0 <= small_sum s /\ 0 <= small_max s.
Definition bands_total (s : bands) : R := mid_sum s + small_max s * small_max s * small_sum s.
Lemma enorm_step_spec w agiant s x : Rabs x < agiant -> bands_ok s ->
  bands_ok (enorm_step w agiant s x) /\ bands_total (enorm_step w agiant s x) = bands_total s + x * x.
Proof.
  intros Bx (L1 & L2 & L3 & L4).
  assert (X2 : Rabs x * Rabs x = x * x) by (rewrite <- Rabs_mult; apply Rabs_pos_eq, Rle_0_sqr). pose proof (Rabs_pos x) as X0.
  unfold bands_ok, bands_total, enorm_step. rnum. set (a := Rabs x) in *.
  destruct (Rltb w a) eqn:E1; cbn [andb].
  { replace (Rltb a agiant) with true by (symmetry; apply Rltb_true; exact Bx). cbn [large_sum mid_sum small_sum small_max].
    split; [|lra]. pose proof (Rle_0_sqr a). unfold Rsqr in *. repeat (split; [lra|]). lra. }
  destruct (Reqb a 0) eqn:E2; cbn [negb]; rcases.
  { split; [repeat (split; [assumption|]); lra|]. rewrite E2 in X2. lra. }
  destruct (Rltb (small_max s) a) eqn:E3; rcases; cbn [large_sum mid_sum small_sum small_max].
  { assert (Q : 0 <= small_sum s * (small_max s / a) * (small_max s / a)).
    { rewrite Rmult_assoc. apply Rmult_le_pos; [lra|]. apply Rle_0_sqr. }
    split; [repeat (split; [lra|]); lra|].
    replace (a * a * (1 + small_sum s * (small_max s / a) * (small_max s / a))) with (a * a + small_max s * small_max s * small_sum s) by (field; lra). lra. }
  { assert (P : 0 < small_max s) by lra. pose proof (Rle_0_sqr (a / small_max s)). unfold Rsqr in *.
    split; [repeat (split; [lra|]); lra|].
    replace (small_max s * small_max s * (small_sum s + a / small_max s * (a / small_max s))) with (a * a + small_max s * small_max s * small_sum s) by (field; lra). lra. }
Qed.
Lemma enorm_fold w agiant l : forall s, (forall x, In x l -> Rabs x < agiant) -> bands_ok s ->
  bands_ok (fold_left (enorm_step w agiant) l s) /\ bands_total (fold_left (enorm_step w agiant) l s) = bands_total s + sum_squares l.
Proof.
  induction l as [|x l IH]; intros s B K; cbn [fold_left sum_squares fold_right]. { split; [assumption|lra]. }
  destruct (enorm_step_spec w agiant s x) as [S1 S2]; [apply B; left; reflexivity|exact K|].
  destruct (IH (enorm_step w agiant s x)) as [A1 A2]; [intros y Hy; apply B; right; exact Hy|exact S1|].
  split; auto. rewrite A2, S2. fold (sum_squares l). lra.
Qed.
Lemma enorm_exact (l : list R) : (forall x, In x l -> Rabs x < R_sqrt.sqrt max_value / INR (length l)) -> enorm l = R_sqrt.sqrt (sum_squares l).
Proof.
  intros B. unfold enorm, of_nat. rnum. rewrite <- INR_IZR_INZ.
  destruct (enorm_fold (R_sqrt.sqrt min_positive) (R_sqrt.sqrt max_value / INR (length l)) l
    {| small_sum := 0; mid_sum := 0; large_sum := 0; small_max := 0; large_max := 0 |}) as [(A1 & A2 & A3 & A4) A5]; auto.
  { unfold bands_ok. cbn. lra. }
  unfold bands_total in A5 at 2. cbn [mid_sum small_sum small_max] in A5. unfold bands_total in A5. rnum.
  match goal with |- context [large_sum ?r] => set (s := r) in * end.
  rewrite A1. replace (Reqb 0 0) with true by (symmetry; apply Reqb_true; reflexivity). cbn [negb].
  destruct (Reqb (mid_sum s) 0) eqn:E; rcases; cbn [negb].
  - rewrite E in A5. rewrite <- (sqrt_square (small_max s)) at 1 by exact A4. rewrite <- sqrt_mult; [|apply Rmult_le_pos; exact A4|exact A3]. f_equal. lra.
  - destruct (Rleb (small_max s) (mid_sum s)) eqn:E2; rcases; f_equal.
    + replace (mid_sum s * (1 + small_max s / mid_sum s * (small_max s * small_sum s))) with (mid_sum s + small_max s * small_max s * small_sum s) by (field; lra). lra.
    + replace (small_max s * (mid_sum s / small_max s + small_max s * small_sum s)) with (mid_sum s + small_max s * small_max s * small_sum s) by (field; lra). lra.
Qed.

(** ** Reflections *)
Definition mirror (n : nat) (v : vector) (p : R) (x : vector) : vector := fun i => x i - dot_product n v x / p * v i.
Definition good (n j : nat) (v : vector) : Prop := (forall i, (i < j)%nat -> v i = 0) /\ square_norm n v = 2 * v j.

Lemma bsum_zero_terms n f : (forall i, (i < n)%nat -> 0 <= f i) -> bsum n f = 0 -> forall i, (i < n)%nat -> f i = 0.
Proof.
  induction n as [|n IH]; intros P Z i Hi; [lia|]. cbn in Z. assert (0 <= bsum n f) by (apply bsum_nonneg; auto).
  assert (0 <= f n) by auto. destruct (Nat.eq_dec i n) as [->|]; [lra|]. apply IH; auto; [lra|lia].
Qed.
Lemma good_zero n j v : good n j v -> v j = 0 -> forall i, (i < n)%nat -> v i = 0.
Proof.
  intros [_ G] E i Hi. apply Rsqr_0_uniq. apply (bsum_zero_terms n (fun k => v k * v k)); auto.
  intros; apply Rle_0_sqr. unfold square_norm, dot_product in G. rewrite G, E. ring.
Qed.
Lemma dot_comm n x y : dot_product n x y = dot_product n y x.
Proof. apply bsum_ext. intros; ring. Qed.
Lemma dot_ext n x x' y y' : equal_vectors n x x' -> equal_vectors n y y' -> dot_product n x y = dot_product n x' y'.
Proof. intros H K. apply bsum_ext. intros i Hi. rewrite H, K; auto. Qed.
Lemma dot_minus_scaled n x y c v : dot_product n x (fun i => y i - c * v i) = dot_product n x y - c * dot_product n x v.
Proof. unfold dot_product. rewrite <- bsum_scal, <- bsum_minus. apply bsum_ext. intros; ring. Qed.
Lemma mirror_ext n v v' p x x' : equal_vectors n v v' -> equal_vectors n x x' -> equal_vectors n (mirror n v p x) (mirror n v' p x').
Proof. intros H K i Hi. unfold mirror. rewrite (dot_ext n v v' x x'), H, K by auto. reflexivity. Qed.
Lemma mirror_dot n j v x y : good n j v -> dot_product n (mirror n v (v j) x) (mirror n v (v j) y) = dot_product n x y.
Proof.
  intros G. destruct (Req_dec (v j) 0) as [E|E].
  - apply dot_ext; intros i Hi; unfold mirror; rewrite (good_zero n j v G E i Hi); ring.
  - destruct G as [_ G]. unfold mirror. rewrite dot_minus_scaled. rewrite (dot_comm n _ y), (dot_comm n _ v).
    rewrite !dot_minus_scaled. fold (square_norm n v). rewrite G, (dot_comm n y x), (dot_comm n y v). field. exact E.
Qed.
Lemma mirror_twice n j v x : good n j v -> equal_vectors n (mirror n v (v j) (mirror n v (v j) x)) x.
Proof.
  intros G i Hi. destruct (Req_dec (v j) 0) as [E|E].
  - unfold mirror at 1. rewrite (good_zero n j v G E i Hi). unfold mirror. rewrite (good_zero n j v G E i Hi). ring.
  - destruct G as [_ G]. unfold mirror. rewrite dot_minus_scaled. fold (square_norm n v). rewrite G. field. exact E.
Qed.
Lemma mirror_above n j v p x i : good n j v -> (i < j)%nat -> mirror n v p x i = x i.
Proof. intros [G _] Hi. unfold mirror. rewrite G by auto. ring. Qed.
Lemma mirror_linear n v p c x y : equal_vectors n (mirror n v p (fun i => c * x i + y i)) (fun i => c * mirror n v p x i + mirror n v p y i).
Proof.
  intros i Hi. unfold mirror.
  replace (dot_product n v (fun i0 => c * x i0 + y i0)) with (c * dot_product n v x + dot_product n v y).
  - unfold Rdiv. ring.
  - unfold dot_product. rewrite <- bsum_scal, <- bsum_plus. apply bsum_ext. intros; ring.
Qed.
(** nothing at or below row [j]: nothing happens *)
Lemma mirror_none n j v p x : good n j v -> (forall i, (j <= i < n)%nat -> x i = 0) -> equal_vectors n (mirror n v p x) x.
Proof.
  intros [G _] Z i Hi. unfold mirror. replace (dot_product n v x) with 0. unfold Rdiv; ring.
  symmetry. unfold dot_product. rewrite (bsum_ext n _ (fun _ => 0)). apply bsum_0. intros k Hk.
  destruct (Nat.lt_ge_cases k j). rewrite G by auto; ring. rewrite Z by lia. ring.
Qed.

(** the reflector stored in column [j] *)
Definition stored (m : mat R) (j : nat) : vector := fun i => if Nat.ltb i j then 0 else mget m i j.
Lemma stored_pivot m j : stored m j j = mget m j j.
Proof. unfold stored. rewrite Nat.ltb_irrefl. reflexivity. Qed.

Fixpoint forward (rows k : nat) (m : mat R) (x : vector) : vector :=
  match k with O => x | S j => mirror rows (stored m j) (mget m j j) (forward rows j m x) end.
Fixpoint backward (rows k : nat) (m : mat R) (x : vector) : vector :=
  match k with O => x | S j => backward rows j m (mirror rows (stored m j) (mget m j j) x) end.

Section Reflectors.
  Variables (rows : nat) (m : mat R).
  Notation ok k := (forall j, (j < k)%nat -> good rows j (stored m j)).

  Lemma forward_ext_vec k : forall x y, equal_vectors rows x y -> equal_vectors rows (forward rows k m x) (forward rows k m y).
  Proof. induction k as [|k IH]; intros x y H; cbn; auto. apply mirror_ext. intros i Hi; reflexivity. auto. Qed.
  Lemma backward_ext_vec k : forall x y, equal_vectors rows x y -> equal_vectors rows (backward rows k m x) (backward rows k m y).
  Proof. induction k as [|k IH]; intros x y H; cbn; auto. apply IH. apply mirror_ext; auto. intros i Hi; reflexivity. Qed.
  Lemma forward_dot k : ok k -> forall x y, dot_product rows (forward rows k m x) (forward rows k m y) = dot_product rows x y.
  Proof.
    induction k as [|k IH]; intros G x y; cbn; auto. rewrite <- stored_pivot. rewrite (mirror_dot rows k) by (apply G; lia).
    apply IH. intros; apply G; lia.
  Qed.
  Lemma backward_dot k : ok k -> forall x y, dot_product rows (backward rows k m x) (backward rows k m y) = dot_product rows x y.
  Proof.
    induction k as [|k IH]; intros G x y; cbn; auto. rewrite IH by (intros; apply G; lia). rewrite <- stored_pivot.
    apply (mirror_dot rows k). apply G; lia.
  Qed.
  Lemma forward_backward k : ok k -> forall x, equal_vectors rows (forward rows k m (backward rows k m x)) x.
  Proof.
    induction k as [|k IH]; intros G x i Hi; cbn; auto.
    transitivity (mirror rows (stored m k) (mget m k k) (mirror rows (stored m k) (mget m k k) x) i).
    - apply mirror_ext; [intros q Hq; reflexivity|apply IH; intros; apply G; lia|exact Hi].
    - rewrite <- stored_pivot. apply (mirror_twice rows k); auto.
  Qed.
  Lemma backward_forward k : ok k -> forall x, equal_vectors rows (backward rows k m (forward rows k m x)) x.
  Proof.
    induction k as [|k IH]; intros G x i Hi; cbn; auto.
    transitivity (backward rows k m (forward rows k m x) i).
    - apply backward_ext_vec; auto. intros q Hq. rewrite <- stored_pivot. apply (mirror_twice rows k); auto.
    - apply IH; auto.
  Qed.
  Lemma backward_linear k : forall c x y, equal_vectors rows (backward rows k m (fun i => c * x i + y i)) (fun i => c * backward rows k m x i + backward rows k m y i).
  Proof.
    induction k as [|k IH]; intros c x y i Hi; cbn; auto.
    rewrite (backward_ext_vec k _ _ (mirror_linear rows (stored m k) (mget m k k) c x y)) by auto. apply IH; auto.
  Qed.
  Lemma backward_zero k : equal_vectors rows (backward rows k m (fun _ => 0)) (fun _ => 0).
  Proof.
    induction k as [|k IH]; intros i Hi; cbn; auto. rewrite (backward_ext_vec k _ (fun _ => 0)); auto.
    intros q Hq. unfold mirror, dot_product. rewrite (bsum_ext rows _ (fun _ => 0)) by (intros; ring). rewrite bsum_0. unfold Rdiv. ring.
  Qed.
  Lemma backward_sum k N (c : nat -> R) (x : nat -> vector) i : (i < rows)%nat ->
    backward rows k m (fun r => bsum N (fun q => c q * x q r)) i = bsum N (fun q => c q * backward rows k m (x q) i).
  Proof.
    intros Hi. induction N as [|N IH]; cbn [bsum]. apply (backward_zero k i Hi).
    rewrite (backward_ext_vec k _ (fun r => c N * x N r + bsum N (fun q => c q * x q r))) by (auto; intros q Hq; ring).
    rewrite backward_linear by auto. rewrite IH. ring.
  Qed.
End Reflectors.
Lemma forward_ext rows m m' k : (forall i j, (i < rows)%nat -> (j < k)%nat -> mget m i j = mget m' i j) -> (k <= rows)%nat ->
  forall x, equal_vectors rows (forward rows k m x) (forward rows k m' x).
Proof.
  induction k as [|k IH]; intros H Hk x i Hi; cbn; auto. rewrite (H k k) by lia. apply mirror_ext; auto.
  - intros q Hq. unfold stored. rewrite H by lia. reflexivity.
  - apply IH; auto. lia.
Qed.

Lemma fold_add_range low high (f : nat -> R) s : (low <= high)%nat ->
  fold_left (fun sum i => sum + f i) (range low high) s = s + bsum high (fun i => if Nat.ltb i low then 0 else f i).
Proof.
  intros H. 
  apply (for_loop (fun k (x : R) => x = s + bsum k (fun i => if Nat.ltb i low then 0 else f i))); auto.
  - rewrite (bsum_ext low _ (fun _ => 0)) by (intros; nat_case; auto). rewrite bsum_0. ring.
  - intros i x Hi ->. cbn [bsum]. nat_case. ring.
Qed.
Lemma reflected_sum_dot rows j (m : mat R) get : (j <= rows)%nat -> reflected_sum rows j m get = dot_product rows (stored m j) get.
Proof.
  intros H. unfold reflected_sum. change (fold_left (fun sum i => sum + mget m i j * get i) (range j rows) 0 = dot_product rows (stored m j) get).
  rewrite (fold_add_range j rows (fun i => mget m i j * get i) 0 H), Rplus_0_l. apply bsum_ext. intros i Hi. unfold stored. nat_case; ring.
Qed.

(** ** The factorization *)
Lemma column_update {T} {NT : Num T} rows cols (m : mat T) low c (h : mat T -> nat -> T) :
  shape rows cols m -> (c < cols)%nat -> (low <= rows)%nat ->
  (forall m' i, (low <= i < rows)%nat -> (forall c', (c' < cols)%nat -> mget m' i c' = mget m i c') -> h m' i = h m i) ->
  shape rows cols (fold_left (fun m i => mset m i c (h m i)) (range low rows) m) /\
  forall i j, (i < rows)%nat -> (j < cols)%nat ->
    mget (fold_left (fun m i => mset m i c (h m i)) (range low rows) m) i j = if (Nat.eqb j c && Nat.leb low i)%bool then h m i else mget m i j.
Proof.
  intros H Hc Hl Hh.
  match goal with |- shape _ _ ?r /\ _ => enough (L : shape rows cols r /\ forall i j, (i < rows)%nat -> (j < cols)%nat ->
    mget r i j = if (Nat.eqb j c && Nat.leb low i && Nat.ltb i rows)%bool then h m i else mget m i j) end.
  { destruct L as [L1 L2]. split; auto. intros i j Hi Hj. rewrite L2 by auto. destruct (Nat.ltb_spec i rows); [|lia]. rewrite andb_true_r. reflexivity. }
  apply (for_loop (fun k (x : mat T) => shape rows cols x /\ forall i j, (i < rows)%nat -> (j < cols)%nat ->
    mget x i j = if (Nat.eqb j c && Nat.leb low i && Nat.ltb i k)%bool then h m i else mget m i j)).
  - exact Hl.
  - split; auto. intros i j Hi Hj. nat_case; cbn [andb]; try reflexivity; lia.
  - intros k x Hk [X1 X2]. split; [apply shape_mset; auto|]. intros i j Hi Hj. rewrite (mget_mset rows cols) by (auto; lia).
    rewrite (Hh x k) by (auto; intros c' Hc'; rewrite X2 by lia; nat_case; cbn [andb]; try reflexivity; lia).
    rewrite X2 by auto. destruct (Nat.eqb_spec i k) as [->|]; nat_case; cbn [andb]; try reflexivity; lia.
Qed.

Definition col (m : mat R) (c : nat) : vector := fun i => mget m i c.
Definition tail2 (n from : nat) (x : vector) : R := bsum n (fun i => if Nat.ltb i from then 0 else x i * x i).
Lemma tail2_nonneg n from x : 0 <= tail2 n from x.
Proof. apply bsum_nonneg. intros. nat_case; try lra. apply Rle_0_sqr. Qed.
Lemma tail2_ext n from x y : (forall i, (from <= i < n)%nat -> x i = y i) -> tail2 n from x = tail2 n from y.
Proof. intros H. apply bsum_ext. intros i Hi. nat_case; auto. rewrite H by lia. reflexivity. Qed.
Lemma tail2_S n k x : (k < n)%nat -> tail2 n k x = x k * x k + tail2 n (S k) x.
Proof.
  intros H. unfold tail2. rewrite <- (bsum_delta n k (x k * x k)) by auto. rewrite <- bsum_plus. apply bsum_ext. intros i Hi.
  destruct (Nat.eqb_spec i k) as [->|]; nat_case; ring.
Qed.
Lemma tail2_0 n x : tail2 n 0 x = square_norm n x.
Proof. reflexivity. Qed.
Lemma tail2_le n from x : tail2 n from x <= square_norm n x.
Proof. apply bsum_le. intros i Hi. nat_case; try lra. apply Rle_0_sqr. Qed.
Lemma tail2_zero n from x : tail2 n from x = 0 -> forall i, (from <= i < n)%nat -> x i = 0.
Proof.
  intros Z i Hi. apply Rsqr_0_uniq.
  pose proof (bsum_zero_terms n (fun i => if Nat.ltb i from then 0 else x i * x i)) as Q.
  specialize (Q ltac:(intros q Hq; cbv beta; destruct (Nat.ltb q from); [apply Rle_refl|apply Rle_0_sqr]) Z i ltac:(lia)). cbv beta in Q. revert Q. nat_case. auto.
Qed.
Lemma tail2_mirror n from k v x : (from <= k)%nat -> good n k v -> tail2 n from (mirror n v (v k) x) = tail2 n from x.
Proof.
  intros F G. assert (D : forall y, square_norm n y = bsum n (fun i => if Nat.ltb i from then y i * y i else 0) + tail2 n from y).
  { intros y. unfold tail2. rewrite <- bsum_plus. apply bsum_ext. intros i Hi. nat_case; ring. }
  pose proof (D x) as D1. pose proof (D (mirror n v (v k) x)) as D2. unfold square_norm in D2. rewrite (mirror_dot n k) in D2 by auto.
  rewrite (bsum_ext n _ (fun i => if Nat.ltb i from then x i * x i else 0)) in D2.
  - unfold square_norm in D1. lra.
  - intros i Hi. nat_case; auto. rewrite (mirror_above n k) by (auto; lia). reflexivity.
Qed.

Lemma sum_squares_tail rows from (f : nat -> R) : (from <= rows)%nat ->
  sum_squares (map f (range from rows)) = tail2 rows from f.
Proof.
  intros H. unfold range, tail2. replace rows with (from + (rows - from))%nat at 2 by lia. generalize (rows - from)%nat as d. intros d.
  rewrite bsum_shift. rewrite (bsum_ext from _ (fun _ => 0)) by (intros; nat_case; auto). rewrite bsum_0, Rplus_0_l.
  rewrite (bsum_ext d _ (fun i => f (from + i)%nat * f (from + i)%nat)) by (intros; nat_case; auto).
  clear H. revert from. induction d as [|d IH]; intros from; [reflexivity|]. rewrite bsum_first. cbn [seq map sum_squares fold_right].
  fold (sum_squares (map f (seq (S from) d))). rewrite IH, Nat.add_0_r. f_equal. apply bsum_ext. intros i Hi. replace (S from + i)%nat with (from + S i)%nat by lia. reflexivity.
Qed.

Lemma vget_set' (v : list R) i x k : (i < length v)%nat -> vget (set_nth v i x) k = if Nat.eqb k i then x else vget v k.
Proof. intros H. apply (vget_set (length v)); auto. Qed.

Lemma shape_swap_columns rows cols (m : mat R) p q : shape rows cols m -> (p < cols)%nat -> (q < cols)%nat ->
  shape rows cols (map (fun row => swap 0 row p q) m) /\
  forall i j, (i < rows)%nat -> (j < cols)%nat -> mget (map (fun row => swap 0 row p q) m) i j = mget m i (exchange p q j).
Proof.
  intros [H1 H2] Hp Hq.
  assert (N : forall i, (i < rows)%nat -> nth i (map (fun row => swap 0 row p q) m) [] = swap 0 (nth i m []) p q).
  { intros i Hi. rewrite (nth_indep _ [] (swap 0 [] p q)) by (rewrite map_length; lia). apply (map_nth (fun row => swap 0 row p q)). }
  split.
  - split. rewrite map_length; auto. intros i Hi. rewrite N by auto. rewrite swap_length. auto.
  - intros i j Hi Hj. unfold mget, vget. rewrite N by auto. change (@zero R Rnum) with 0. rewrite nth_swap; auto; rewrite H2; auto.
Qed.

Section Factorize.
  Variables (rows cols : nat) (a : mat R).
  Hypothesis Hrc : (cols <= rows)%nat.
  Hypothesis Ha : shape rows cols a.
  (** no column is long enough for the norm to leave its middle and small bands *)
  Hypothesis Hb : forall c, (c < cols)%nat -> square_norm rows (col a c) < max_value / (INR rows * INR rows).

  Lemma enorm_tail m from c : (from <= rows)%nat -> square_norm rows (col m c) < max_value / (INR rows * INR rows) ->
    enorm (tail_column rows from c m) = R_sqrt.sqrt (tail2 rows from (col m c)).
  Proof.
    intros F B. unfold tail_column. rewrite enorm_exact.
    - f_equal. apply sum_squares_tail; auto.
    - intros x Hx. apply in_map_iff in Hx. destruct Hx as (i & <- & Hi). apply in_range in Hi.
      rewrite map_length. unfold range. rewrite seq_length.
      assert (P : 0 < INR rows) by (apply lt_0_INR; lia).
      assert (P' : 0 < INR (rows - from)) by (apply lt_0_INR; lia).
      assert (M : 0 < max_value) by (change (0 < IZR (2 ^ 53 - 1) * IZR (2 ^ 971)); apply Rmult_lt_0_compat; apply IZR_lt; reflexivity).
      apply Rlt_le_trans with (R_sqrt.sqrt max_value / INR rows).
      2:{ apply Rmult_le_compat_l. apply sqrt_pos. apply Rinv_le_contravar; auto. apply le_INR. lia. }
      assert (S : R_sqrt.sqrt max_value / INR rows = R_sqrt.sqrt (max_value / (INR rows * INR rows))).
      { rewrite sqrt_div_alt by (apply Rmult_lt_0_compat; auto). rewrite sqrt_square by lra. reflexivity. }
      rewrite S. rewrite <- sqrt_Rsqr_abs. apply sqrt_lt_1_alt. split. apply Rle_0_sqr. eapply Rle_lt_trans; [|exact B].
      unfold square_norm, dot_product, Rsqr. fold (col m c i). 
      rewrite <- (bsum_delta rows i (col m c i * col m c i)) by lia. apply bsum_le. intros k Hk.
      destruct (Nat.eqb_spec k i) as [->|]; [lra|apply Rle_0_sqr].
  Qed.

  Definition work (k : nat) (m : mat R) (d : list R) (c : nat) : vector := fun i =>
    if Nat.ltb c k then (if Nat.ltb i c then mget m i c else if Nat.eqb i c then vget d c else 0) else mget m i c.

  Record ready (k : nat) (s : qr_state) : Prop := {
    rd_shape : shape rows cols (q_packed s);
    rd_length : length (q_diag s) = cols;
    rd_perm : Permutation (q_permutation s) (seq 0 cols);
    rd_good : forall j, (j < k)%nat -> good rows j (stored (q_packed s) j);
    rd_work : forall c, (c < cols)%nat -> equal_vectors rows (work k (q_packed s) (q_diag s) c)
      (forward rows k (q_packed s) (col a (nth c (q_permutation s) 0%nat)));
    rd_diag : forall c, (k < c < cols)%nat -> 0 <= vget (q_diag s) c /\ vget (q_diag s) c * vget (q_diag s) c = tail2 rows k (col (q_packed s) c);
    rd_sorted : forall j c, (j < k)%nat -> (j <= c < cols)%nat ->
      tail2 rows j (work k (q_packed s) (q_diag s) c) <= vget (q_diag s) j * vget (q_diag s) j
  }.
  Definition diagonal_ready (k : nat) (s : qr_state) : Prop :=
    (k < cols)%nat -> 0 <= vget (q_diag s) k /\ vget (q_diag s) k * vget (q_diag s) k = tail2 rows k (col (q_packed s) k).

  Lemma ready_bound k s c : ready k s -> (k <= c < cols)%nat -> square_norm rows (col (q_packed s) c) < max_value / (INR rows * INR rows).
  Proof.
    intros H Hc. pose proof (rd_work _ _ H c ltac:(lia)) as W.
    replace (square_norm rows (col (q_packed s) c)) with (square_norm rows (col a (nth c (q_permutation s) 0%nat))).
    - apply Hb. apply permutation_lt. apply (rd_perm _ _ H). lia.
    - unfold square_norm. rewrite <- (forward_dot rows (q_packed s) k (rd_good _ _ H)). symmetry. apply dot_ext.
      all: intros i Hi; rewrite <- W by auto; unfold work; nat_case; reflexivity.
  Qed.

  Lemma pivot_spec k d : (k < cols)%nat -> (k <= qr_pivot cols k d < cols)%nat /\
    forall c, (k <= c < cols)%nat -> vget d c <= vget d (qr_pivot cols k d).
  Proof.
    intros Hk. unfold qr_pivot.
    match goal with |- (k <= ?r < cols)%nat /\ _ => enough (L : (k <= r < cols)%nat /\ forall c, (k <= c < cols)%nat -> vget d c <= vget d r) end; auto.
    apply (for_loop (fun e (r : nat) => (k <= r < cols)%nat /\ forall c, (k <= c < e)%nat -> vget d c <= vget d r)).
    - lia.
    - split; [lia|]. intros; lia.
    - intros e r He [R1 R2]. rnum. destruct (Rltb (vget d r) (vget d e)) eqn:E; rcases; split; try lia.
      + intros c Hc. destruct (Nat.eq_dec c e) as [->|]; [lra|]. specialize (R2 c ltac:(lia)). lra.
      + intros c Hc. destruct (Nat.eq_dec c e) as [->|]; [lra|]. apply R2. lia.
  Qed.

  Lemma exchange_same p i : exchange p p i = i.
  Proof. unfold exchange. destruct (Nat.eqb_spec i p); auto. Qed.
  Lemma exchange_spec k s : (k < cols)%nat -> shape rows cols (q_packed s) -> length (q_diag s) = cols ->
    Permutation (q_permutation s) (seq 0 cols) ->
    let p := qr_pivot cols k (q_diag s) in let s' := qr_exchange rows cols k s in
    shape rows cols (q_packed s') /\ length (q_diag s') = cols /\ Permutation (q_permutation s') (seq 0 cols) /\
    (forall i c, (i < rows)%nat -> (c < cols)%nat -> mget (q_packed s') i c = mget (q_packed s) i (exchange k p c)) /\
    (forall c, (c < cols)%nat -> c <> k -> vget (q_diag s') c = vget (q_diag s) (exchange k p c)) /\
    (forall c, (c < cols)%nat -> nth c (q_permutation s') 0%nat = nth (exchange k p c) (q_permutation s) 0%nat).
  Proof.
    intros Hk S L P. cbv zeta. destruct (pivot_spec k (q_diag s) Hk) as [P1 P2]. set (p := qr_pivot cols k (q_diag s)) in *.
    unfold qr_exchange. fold p. assert (LP : length (q_permutation s) = cols) by (rewrite (Permutation_length P), seq_length; auto).
    destruct (Nat.eqb_spec p k) as [E|N]; cbn [negb q_packed q_diag q_permutation].
    - rewrite E. repeat (split; [assumption|]). split; [|split]; intros; rewrite exchange_same; reflexivity.
    - destruct (shape_swap_columns rows cols (q_packed s) k p S Hk ltac:(lia)) as [S1 S2]. change (@zero R Rnum) with 0.
      split; [exact S1|]. split; [rewrite set_nth_length; auto|]. split; [apply permutation_swap; auto; lia|]. split; [exact S2|]. split.
      + intros c Hc Nc. rewrite vget_set' by lia. unfold exchange. nat_case; reflexivity.
      + intros c Hc. apply nth_swap; lia.
  Qed.

  Lemma ready_exchange k s : (k < cols)%nat -> ready k s -> diagonal_ready k s ->
    ready k (qr_exchange rows cols k s) /\
    forall c, (k <= c < cols)%nat -> tail2 rows k (col (q_packed (qr_exchange rows cols k s)) c) <= tail2 rows k (col (q_packed (qr_exchange rows cols k s)) k).
  Proof.
    intros Hk [R1 R2 R3 R4 R5 R6 R7] DK. destruct (pivot_spec k (q_diag s) Hk) as [P1 P2].
    destruct (exchange_spec k s Hk R1 R2 R3) as (E1 & E2 & E3 & E4 & E5 & E6). cbv zeta in *.
    set (p := qr_pivot cols k (q_diag s)) in *. set (s' := qr_exchange rows cols k s) in *.
    assert (DA : forall c, (k <= c < cols)%nat -> 0 <= vget (q_diag s) c /\ vget (q_diag s) c * vget (q_diag s) c = tail2 rows k (col (q_packed s) c)).
    { intros c Hc. destruct (Nat.eq_dec c k) as [->|]; [apply DK; auto|apply R6; lia]. }
    assert (XL : forall c, (c < k)%nat -> exchange k p c = c) by (intros c Hc; unfold exchange; nat_case; auto).
    assert (XB : forall c, (c < cols)%nat -> (exchange k p c < cols)%nat) by (intros c Hc; apply exchange_lt; auto; lia).
    assert (XK : forall c, (k <= c < cols)%nat -> (k <= exchange k p c < cols)%nat) by (intros c Hc; unfold exchange; nat_case; lia).
    assert (CL : forall i c, (i < rows)%nat -> (c < k)%nat -> mget (q_packed s') i c = mget (q_packed s) i c).
    { intros i c Hi Hc. rewrite E4 by lia. rewrite XL by auto. reflexivity. }
    assert (T : forall f c, (c < cols)%nat -> tail2 rows f (col (q_packed s') c) = tail2 rows f (col (q_packed s) (exchange k p c))).
    { intros f c Hc. apply tail2_ext. intros i Hi. unfold col. apply E4; lia. }
    assert (WK : forall c, (c < cols)%nat -> equal_vectors rows (work k (q_packed s') (q_diag s') c) (work k (q_packed s) (q_diag s) (exchange k p c))).
    { intros c Hc i Hi. unfold work. destruct (Nat.ltb_spec c k).
      - rewrite XL by auto. destruct (Nat.ltb_spec c k); [|lia]. rewrite CL, E5, XL by (auto; lia). reflexivity.
      - destruct (Nat.ltb_spec (exchange k p c) k); [pose proof (XK c ltac:(lia)); lia|]. apply E4; auto. }
    split.
    - split; auto.
      + intros j Hj. destruct (R4 j Hj) as [G1 G2]. split.
        * intros i Hi. unfold stored. nat_case. reflexivity.
        * rewrite stored_pivot, CL by lia. rewrite stored_pivot in G2. rewrite <- G2. apply dot_ext; intros i Hi; unfold stored; rewrite CL by lia; reflexivity.
      + intros c Hc i Hi. rewrite WK, R5 by auto. rewrite E6 by auto. apply forward_ext; auto; [|lia]. intros q j Hq Hj. rewrite CL; auto.
      + intros c Hc. rewrite T, E5 by lia. apply DA. apply XK. lia.
      + intros j c Hj Hc. rewrite E5, XL by lia. rewrite (tail2_ext rows j _ (work k (q_packed s) (q_diag s) (exchange k p c))) by (intros i Hi; apply WK; lia).
        apply R7; auto. unfold exchange. nat_case; lia.
    - intros c Hc. rewrite !T by lia. assert (EK : exchange k p k = p) by (unfold exchange; nat_case; auto). rewrite EK.
      specialize (P2 (exchange k p c) (XK c Hc)). destruct (DA (exchange k p c) (XK c Hc)) as [D1 D2], (DA p P1) as [D3 D4].
      rewrite <- D2, <- D4. apply Rmult_le_compat; auto.
  Qed.

  (** one pass over a later column *)
  Lemma reflect_spec k s c : (k < c < cols)%nat -> shape rows cols (q_packed s) -> length (q_diag s) = cols ->
    good rows k (stored (q_packed s) k) ->
    square_norm rows (col (q_packed s) c) < max_value / (INR rows * INR rows) ->
    0 <= vget (q_diag s) c -> vget (q_diag s) c * vget (q_diag s) c = tail2 rows k (col (q_packed s) c) ->
    let s' := qr_reflect rows k s c in
    shape rows cols (q_packed s') /\ length (q_diag s') = cols /\ q_permutation s' = q_permutation s /\
    (forall i j, (i < rows)%nat -> (j < cols)%nat -> mget (q_packed s') i j =
      if Nat.eqb j c then mirror rows (stored (q_packed s) k) (mget (q_packed s) k k) (col (q_packed s) c) i else mget (q_packed s) i j) /\
    (forall j, (j < cols)%nat -> j <> c -> vget (q_diag s') j = vget (q_diag s) j) /\
    0 <= vget (q_diag s') c /\ vget (q_diag s') c * vget (q_diag s') c = tail2 rows (S k) (col (q_packed s') c).
  Proof.
    intros Hc H1 H2 G B D0 D1. cbv zeta. unfold qr_reflect. rewrite reflected_sum_dot by lia.
    set (fac := div _ (mget (q_packed s) k k)).
    destruct (column_update rows cols (q_packed s) k c (fun m i => sub (mget m i c) (mul fac (mget m i k)))) as [U1 U2]; auto; try lia.
    { intros m' i Hi E. rewrite !E by lia. reflexivity. }
    set (m2 := fold_left _ (range k rows) (q_packed s)) in *.
    change (fold_left (fun packed i => mset packed i c (sub (mget packed i c) (mul fac (mget packed i k)))) (range k rows) (q_packed s)) with m2.
    assert (M : forall i j, (i < rows)%nat -> (j < cols)%nat -> mget m2 i j =
      if Nat.eqb j c then mirror rows (stored (q_packed s) k) (mget (q_packed s) k k) (col (q_packed s) c) i else mget (q_packed s) i j).
    { intros i j Hi Hj. rewrite U2 by auto. destruct (Nat.eqb_spec j c) as [->|]; cbn [andb]; auto.
      change (mirror rows (stored (q_packed s) k) (mget (q_packed s) k k) (col (q_packed s) c) i) with (mget (q_packed s) i c - fac * stored (q_packed s) k i).
      unfold stored at 1. nat_case; rnum; ring. }
    assert (TN : tail2 rows (S k) (col m2 c) = tail2 rows k (col (q_packed s) c) - mget m2 k c * mget m2 k c).
    { rewrite <- (tail2_mirror rows k k (stored (q_packed s) k) (col (q_packed s) c)) by auto.
      rewrite (tail2_S rows k) by lia. rewrite stored_pivot.
      rewrite (tail2_ext rows (S k) (col m2 c) (mirror rows (stored (q_packed s) k) (mget (q_packed s) k k) (col (q_packed s) c))).
      - rewrite M by lia. rewrite Nat.eqb_refl. ring.
      - intros i Hi. unfold col at 1. rewrite M by lia. rewrite Nat.eqb_refl. reflexivity. }
    pose proof (tail2_nonneg rows (S k) (col m2 c)) as TP.
    assert (B2 : square_norm rows (col m2 c) < max_value / (INR rows * INR rows)).
    { eapply Rle_lt_trans; [|exact B]. right. unfold square_norm at 2. rewrite <- (mirror_dot rows k (stored (q_packed s) k)) by auto.
      rewrite stored_pivot. apply dot_ext; intros i Hi; unfold col at 1; rewrite M by lia; rewrite Nat.eqb_refl; reflexivity. }
    clearbody m2. rnum.
    destruct (Reqb (vget (q_diag s) c) 0) eqn:E; rcases; cbn [negb q_packed q_diag q_permutation].
    - repeat (split; [assumption|]). split; [reflexivity|]. split; [exact M|]. split; [reflexivity|]. split; [exact D0|].
      rewrite D1, TN. pose proof (tail2_nonneg rows (S k) (col m2 c)). rewrite TN in H. rewrite E in D1. 
      pose proof (Rle_0_sqr (mget m2 k c)). unfold Rsqr in *. lra.
    - set (r := vget (q_diag s) c) in *. set (x := mget m2 k c) in *.
      assert (RP : 0 < r) by lra.
      assert (LE : (x / r) * (x / r) <= 1).
      { replace ((x / r) * (x / r)) with (x * x / (r * r)) by (field; lra). apply Rmult_le_reg_r with (r * r). nra.
        unfold Rdiv. rewrite Rmult_assoc, Rinv_l, Rmult_1_r, Rmult_1_l by nra. lra. }
      assert (SQ : r * R_sqrt.sqrt (pmax 0 (1 - x / r * (x / r))) = R_sqrt.sqrt (tail2 rows (S k) (col m2 c))).
      { unfold pmax. rnum. replace (if Rltb 0 (1 - x / r * (x / r)) then 1 - x / r * (x / r) else 0) with (1 - x / r * (x / r)) by (rdestruct; lra).
        rewrite TN, <- D1. rewrite <- (sqrt_square r) at 1 by lra. rewrite <- sqrt_mult by nra. f_equal. field. lra. }
      rewrite SQ. destruct (Rleb _ _); cbn [q_packed q_diag q_permutation].
      + rewrite (Nat.add_1_r k), enorm_tail by (auto; lia).
        split; [assumption|]. split; [rewrite set_nth_length; auto|]. split; [reflexivity|]. split; [exact M|].
        split; [intros j Hj Nj; rewrite vget_set' by lia; nat_case; reflexivity|].
        rewrite !vget_set' by lia. rewrite Nat.eqb_refl. split; [apply sqrt_pos|apply sqrt_sqrt; auto].
      + split; [assumption|]. split; [rewrite set_nth_length; auto|]. split; [reflexivity|]. split; [exact M|].
        split; [intros j Hj Nj; rewrite vget_set' by lia; nat_case; reflexivity|].
        rewrite !vget_set' by lia. rewrite Nat.eqb_refl. split; [apply sqrt_pos|apply sqrt_sqrt; auto].
  Qed.

  Lemma reflect_all k s : (k < cols)%nat -> shape rows cols (q_packed s) -> length (q_diag s) = cols ->
    good rows k (stored (q_packed s) k) ->
    (forall c, (k < c < cols)%nat -> square_norm rows (col (q_packed s) c) < max_value / (INR rows * INR rows) /\
      0 <= vget (q_diag s) c /\ vget (q_diag s) c * vget (q_diag s) c = tail2 rows k (col (q_packed s) c)) ->
    let s' := fold_left (qr_reflect rows k) (range (k + 1) cols) s in
    shape rows cols (q_packed s') /\ length (q_diag s') = cols /\ q_permutation s' = q_permutation s /\
    (forall i j, (i < rows)%nat -> (j < cols)%nat -> mget (q_packed s') i j =
      if Nat.ltb k j then mirror rows (stored (q_packed s) k) (mget (q_packed s) k k) (col (q_packed s) j) i else mget (q_packed s) i j) /\
    (forall j, (j <= k)%nat -> vget (q_diag s') j = vget (q_diag s) j) /\
    (forall c, (k < c < cols)%nat -> 0 <= vget (q_diag s') c /\ vget (q_diag s') c * vget (q_diag s') c = tail2 rows (S k) (col (q_packed s') c)).
  Proof.
    intros Hk H1 H2 G HC. cbv zeta.
    match goal with |- shape _ _ (q_packed ?r) /\ _ => enough (L : shape rows cols (q_packed r) /\ length (q_diag r) = cols /\ q_permutation r = q_permutation s /\
      (forall i j, (i < rows)%nat -> (j < cols)%nat -> mget (q_packed r) i j =
        if (Nat.ltb k j && Nat.ltb j cols)%bool then mirror rows (stored (q_packed s) k) (mget (q_packed s) k k) (col (q_packed s) j) i else mget (q_packed s) i j) /\
      (forall j, (j < cols)%nat -> (j <= k \/ cols <= j)%nat -> vget (q_diag r) j = vget (q_diag s) j) /\
      (forall c, (k < c < cols)%nat -> 0 <= vget (q_diag r) c /\ vget (q_diag r) c * vget (q_diag r) c = tail2 rows (S k) (col (q_packed r) c))) end.
    { destruct L as (L1 & L2 & L3 & L4 & L5 & L6). repeat (split; [assumption|]). split; [|split; [|exact L6]].
      - intros i j Hi Hj. rewrite L4 by auto. nat_case; cbn [andb]; reflexivity.
      - intros j Hj. apply L5; lia. }
    apply (for_loop (fun e (r : qr_state) => shape rows cols (q_packed r) /\ length (q_diag r) = cols /\ q_permutation r = q_permutation s /\
      (forall i j, (i < rows)%nat -> (j < cols)%nat -> mget (q_packed r) i j =
        if (Nat.ltb k j && Nat.ltb j e)%bool then mirror rows (stored (q_packed s) k) (mget (q_packed s) k k) (col (q_packed s) j) i else mget (q_packed s) i j) /\
      (forall j, (j < cols)%nat -> (j <= k \/ e <= j)%nat -> vget (q_diag r) j = vget (q_diag s) j) /\
      (forall c, (k < c < e)%nat -> 0 <= vget (q_diag r) c /\ vget (q_diag r) c * vget (q_diag r) c = tail2 rows (S k) (col (q_packed r) c)))).
    - lia.
    - repeat (split; [assumption || reflexivity|]). split; [|split].
      + intros i j Hi Hj. nat_case; cbn [andb]; try reflexivity; lia.
      + reflexivity.
      + intros c Hc. lia.
    - intros e r He (L1 & L2 & L3 & L4 & L5 & L6).
      assert (K : equal_vectors rows (stored (q_packed r) k) (stored (q_packed s) k)).
      { intros i Hi. unfold stored. rewrite L4 by lia. nat_case; cbn [andb]; reflexivity. }
      assert (KK : mget (q_packed r) k k = mget (q_packed s) k k) by (rewrite L4 by lia; nat_case; cbn [andb]; reflexivity).
      assert (C : equal_vectors rows (col (q_packed r) e) (col (q_packed s) e)).
      { intros i Hi. unfold col. rewrite L4 by lia. nat_case; cbn [andb]; reflexivity. }
      destruct (HC e ltac:(lia)) as (C1 & C2 & C3).
      destruct (reflect_spec k r e) as (R1 & R2 & R3 & R4 & R5 & R6 & R7); auto; try lia.
      { destruct G as [G1 G2]. split. { intros i Hi. rewrite K by lia. auto. }
        rewrite K by lia. rewrite <- G2. apply dot_ext; auto. }
      { replace (square_norm rows (col (q_packed r) e)) with (square_norm rows (col (q_packed s) e)); auto. apply dot_ext; intros i Hi; symmetry; auto. }
      { rewrite L5 by lia. exact C2. }
      { rewrite L5 by lia. rewrite C3. apply tail2_ext. intros i Hi. symmetry. apply C. lia. }
      repeat (split; [assumption || congruence|]). split; [|split].
      + intros i j Hi Hj. rewrite R4 by auto. destruct (Nat.eqb_spec j e) as [->|].
        * nat_case; cbn [andb]. rewrite KK. apply mirror_ext; auto.
        * rewrite L4 by auto. nat_case; cbn [andb]; try reflexivity; lia.
      + intros j Hj O. rewrite R5 by lia. apply L5; lia.
      + intros c Hc. destruct (Nat.eq_dec c e) as [->|]; [split; assumption|]. rewrite R5 by lia. destruct (L6 c ltac:(lia)) as [A1 A2].
        split; auto. rewrite A2. apply tail2_ext. intros i Hi. unfold col. rewrite R4 by lia. nat_case. reflexivity.
  Qed.

  Lemma step_spec k s : (k < cols)%nat -> ready k s -> diagonal_ready k s ->
    ready (S k) (qr_step rows cols s k) /\ diagonal_ready (S k) (qr_step rows cols s k).
  Proof.
    intros Hk Q0 DK. destruct (ready_exchange k s Hk Q0 DK) as [Q MX]. unfold qr_step. set (s1 := qr_exchange rows cols k s) in *.
    clearbody s1. clear Q0 DK s. pose proof (ready_bound k s1 k Q ltac:(lia)) as BK.
    rewrite enorm_tail by (auto; lia). set (t := tail2 rows k (col (q_packed s1) k)) in *.
    assert (T0 : 0 <= t) by apply tail2_nonneg.
    destruct Q as [R1 R2 R3 R4 R5 R6 R7] eqn:QE. rnum. destruct (Reqb (R_sqrt.sqrt t) 0) eqn:E; rcases.
    - (* nothing left *)
      apply sqrt_eq_0 in E; auto.
      assert (TZ : forall c, (k <= c < cols)%nat -> forall i, (k <= i < rows)%nat -> mget (q_packed s1) i c = 0).
      { intros c Hc. apply (tail2_zero rows k (col (q_packed s1) c)). specialize (MX c Hc). pose proof (tail2_nonneg rows k (col (q_packed s1) c)). lra. }
      rewrite E, sqrt_0, Ropp_0.
      assert (SZ : forall i, (i < rows)%nat -> stored (q_packed s1) k i = 0).
      { intros i Hi. unfold stored. destruct (Nat.ltb_spec i k); [reflexivity|apply TZ; lia]. }
      assert (DS : forall j, vget (set_nth (q_diag s1) k 0) j = if Nat.eqb j k then 0 else vget (q_diag s1) j) by (intros j; apply vget_set'; lia).
      assert (WS : forall c, (c < cols)%nat -> equal_vectors rows (work (S k) (q_packed s1) (set_nth (q_diag s1) k 0) c) (work k (q_packed s1) (q_diag s1) c)).
      { intros c Hc i Hi. unfold work. rewrite DS. destruct (Nat.eq_dec c k) as [->|].
        - rewrite Nat.eqb_refl. nat_case; auto; symmetry; apply TZ; lia.
        - nat_case; auto. }
      assert (FS : forall x, equal_vectors rows (forward rows (S k) (q_packed s1) x) (forward rows k (q_packed s1) x)).
      { intros x i Hi. cbn [forward]. unfold mirror. rewrite SZ by auto. ring. }
      split.
      + split; cbn [q_packed q_diag q_permutation]; auto.
        * rewrite set_nth_length; auto.
        * intros j Hj. destruct (Nat.eq_dec j k) as [->|]; [|apply R4; lia]. split. { intros i Hi. unfold stored. nat_case. reflexivity. }
          rewrite SZ by lia. unfold square_norm, dot_product. rewrite (bsum_ext rows _ (fun _ => 0)) by (intros i Hi; rewrite SZ by auto; ring). rewrite bsum_0. ring.
        * intros c Hc i Hi. rewrite WS, FS by auto. apply R5; auto.
        * intros c Hc. rewrite DS. nat_case. destruct (R6 c ltac:(lia)) as [A1 A2]. split; auto. rewrite A2. rewrite (tail2_S rows k) by lia.
          unfold col at 1 2. rewrite TZ by lia. ring.
        * intros j c Hj Hc. rewrite DS. rewrite (tail2_ext rows j _ (work k (q_packed s1) (q_diag s1) c)) by (intros i Hi; apply WS; lia).
          destruct (Nat.eqb_spec j k) as [->|]; [|apply R7; lia].
          assert (Z : tail2 rows k (work k (q_packed s1) (q_diag s1) c) = 0).
          { unfold tail2. transitivity (bsum rows (fun _ => 0)); [|apply bsum_0]. apply bsum_ext. intros i Hi. nat_case; auto.
            unfold work. nat_case; rewrite TZ by lia; ring. }
          rewrite Z. lra.
      + intros Hk1. cbn [q_packed q_diag]. rewrite DS. nat_case. destruct (R6 (S k) ltac:(lia)) as [A1 A2]. split; auto. rewrite A2. rewrite (tail2_S rows k) by lia.
        unfold col at 1 2. rewrite TZ by lia. ring.
    - (* a reflection *)
      assert (TP : 0 < R_sqrt.sqrt t) by (pose proof (sqrt_pos t); lra).
      assert (TP' : 0 < t). { destruct T0 as [|Z]; auto. rewrite <- Z, sqrt_0 in TP. lra. }
      set (sg := if Rltb (mget (q_packed s1) k k) 0 then - R_sqrt.sqrt t else R_sqrt.sqrt t).
      assert (SG : sg * sg = t) by (unfold sg; pose proof (sqrt_sqrt t T0); destruct (Rltb _ _); lra).
      assert (SN : sg <> 0) by (intros Z; rewrite Z in SG; lra).
      assert (SP : 0 <= mget (q_packed s1) k k / sg).
      { unfold sg. destruct (Rltb (mget (q_packed s1) k k) 0) eqn:E2; rcases.
        - replace (mget (q_packed s1) k k / - R_sqrt.sqrt t) with ((- mget (q_packed s1) k k) * / R_sqrt.sqrt t) by (field; lra).
          apply Rmult_le_pos; [lra|]. left. apply Rinv_0_lt_compat; auto.
        - apply Rmult_le_pos; [lra|]. left. apply Rinv_0_lt_compat; auto. }
      destruct (column_update rows cols (q_packed s1) k k (fun m i => mget m i k / sg)) as [U1 U2]; auto; try lia.
      { intros m' i Hi EE. rewrite EE by lia. reflexivity. }
      change (fold_left (fun packed i => mset packed i k (mget packed i k / sg)) (range k rows) (q_packed s1))
        with (fold_left (fun m i => mset m i k ((fun m i => mget m i k / sg) m i)) (range k rows) (q_packed s1)).
      set (m1 := fold_left _ (range k rows) (q_packed s1)) in *.
      set (m2 := mset m1 k k (mget m1 k k + 1)).
      assert (M2s : shape rows cols m2) by (apply shape_mset; auto).
      assert (M2 : forall i j, (i < rows)%nat -> (j < cols)%nat -> mget m2 i j =
        if (Nat.eqb j k && Nat.leb k i)%bool then mget (q_packed s1) i k / sg + (if Nat.eqb i k then 1 else 0) else mget (q_packed s1) i j).
      { intros i j Hi Hj. unfold m2. rewrite (mget_mset rows cols) by (auto; lia). rewrite !U2 by lia.
        destruct (Nat.eqb_spec i k) as [->|], (Nat.eqb_spec j k) as [->|]; nat_case; cbn [andb]; try reflexivity; try lia; ring. }
      assert (V : equal_vectors rows (stored m2 k) (fun i => if Nat.ltb i k then 0 else mget (q_packed s1) i k / sg + (if Nat.eqb i k then 1 else 0))).
      { intros i Hi. unfold stored. rewrite M2 by lia. rewrite Nat.eqb_refl. nat_case; cbn [andb]; reflexivity. }
      set (akk := mget (q_packed s1) k k) in *.
      assert (VK : stored m2 k k = akk / sg + 1) by (rewrite V by lia; rewrite Nat.ltb_irrefl, Nat.eqb_refl; reflexivity).
      assert (TD : bsum rows (fun i => if Nat.ltb i k then 0 else mget (q_packed s1) i k * mget (q_packed s1) i k) = t) by reflexivity.
      assert (GK : good rows k (stored m2 k)).
      { split. { intros i Hi. unfold stored. nat_case. reflexivity. }
        rewrite VK. unfold square_norm. rewrite (dot_ext rows _ _ _ _ V V). unfold dot_product.
        rewrite (bsum_ext rows _ (fun i => / (sg * sg) * (if Nat.ltb i k then 0 else mget (q_packed s1) i k * mget (q_packed s1) i k) +
          (if Nat.eqb i k then 2 * (akk / sg) + 1 else 0))).
        2:{ intros i Hi. destruct (Nat.eqb_spec i k) as [->|]; nat_case; try lia; try ring; fold akk; field; auto. }
        rewrite bsum_plus, bsum_scal, TD, bsum_delta by lia. rewrite SG. field. split; lra. }
      assert (MK : mget m2 k k = akk / sg + 1) by (rewrite <- stored_pivot; exact VK).
      assert (CO : forall c, (c < cols)%nat -> c <> k -> equal_vectors rows (col m2 c) (col (q_packed s1) c)).
      { intros c Hc Nc i Hi. unfold col. rewrite M2 by lia. nat_case; cbn [andb]; reflexivity. }
      destruct (reflect_all k {| q_packed := m2; q_diag := q_diag s1; q_reference := q_reference s1; q_permutation := q_permutation s1 |})
        as (F1 & F2 & F3 & F4 & F5 & F6); cbn [q_packed q_diag q_permutation]; auto.
      { intros c Hc. destruct (R6 c Hc) as [A1 A2]. split; [|split; [exact A1|]].
        - pose proof (ready_bound k s1 c Q ltac:(lia)) as BC. replace (square_norm rows (col m2 c)) with (square_norm rows (col (q_packed s1) c)); auto.
          apply dot_ext; intros i Hi; symmetry; apply CO; lia.
        - rewrite A2. apply tail2_ext. intros i Hi. symmetry. apply CO; lia. }
      cbn [q_packed q_diag q_permutation] in F3, F4, F5. fold m2.
      match goal with |- context [fold_left (qr_reflect rows k) ?l ?x] => set (s2 := fold_left (qr_reflect rows k) l x) in * end.
      (* the reflector and the earlier columns stay *)
      assert (CL : forall i c, (i < rows)%nat -> (c < k)%nat -> mget (q_packed s2) i c = mget (q_packed s1) i c).
      { intros i c Hi Hc. rewrite F4 by lia. nat_case. rewrite M2 by lia. nat_case; cbn [andb]; reflexivity. }
      assert (ST : equal_vectors rows (stored (q_packed s2) k) (stored m2 k)).
      { intros i Hi. unfold stored. rewrite F4 by lia. nat_case; reflexivity. }
      assert (PK : mget (q_packed s2) k k = mget m2 k k) by (rewrite F4 by lia; nat_case; reflexivity).
      assert (DS : forall j, vget (set_nth (q_diag s2) k (- sg)) j = if Nat.eqb j k then - sg else vget (q_diag s2) j) by (intros j; apply vget_set'; lia).
      (* the pivot column is reduced *)
      assert (RED : equal_vectors rows (mirror rows (stored m2 k) (mget m2 k k) (col (q_packed s1) k))
         (fun i => if Nat.ltb i k then mget (q_packed s1) i k else if Nat.eqb i k then - sg else 0)).
      { intros i Hi. unfold mirror.
        assert (DP : dot_product rows (stored m2 k) (col (q_packed s1) k) = sg + akk).
        { rewrite (dot_ext rows _ _ _ (col (q_packed s1) k) V) by (intros q Hq; reflexivity). unfold dot_product.
          rewrite (bsum_ext rows _ (fun i => / sg * (if Nat.ltb i k then 0 else mget (q_packed s1) i k * mget (q_packed s1) i k) +
            (if Nat.eqb i k then akk else 0))).
          2:{ intros q Hq. unfold col. destruct (Nat.eqb_spec q k) as [->|]; nat_case; try lia; fold akk; field; auto. }
          rewrite bsum_plus, bsum_scal, TD, bsum_delta by lia. rewrite <- SG. field. auto. }
        rewrite DP, MK. replace ((sg + akk) / (akk / sg + 1)) with sg.
        2:{ replace (akk / sg + 1) with ((sg + akk) * / sg) by (field; auto). field. split; auto.
            intros Z. assert (akk / sg + 1 = 0) by (replace (akk / sg + 1) with ((sg + akk) * / sg) by (field; auto); rewrite Z; ring). lra. }
        rewrite V by auto. unfold col. destruct (Nat.eqb_spec i k) as [->|]; nat_case; try ring; fold akk; field; auto. }
      (* what the new state holds is the reflection of what the old one held *)
      assert (WM : forall c, (c < cols)%nat -> equal_vectors rows (work (S k) (q_packed s2) (set_nth (q_diag s2) k (- sg)) c)
        (mirror rows (stored m2 k) (mget m2 k k) (work k (q_packed s1) (q_diag s1) c))).
      { intros c Hc i Hi. destruct (Nat.lt_trichotomy c k) as [L|[->|L]].
        - rewrite (mirror_none rows k) by (auto; intros q Hq; unfold work; nat_case; auto).
          unfold work. rewrite DS, CL by lia. rewrite F5 by lia. nat_case; reflexivity.
        - transitivity (mirror rows (stored m2 k) (mget m2 k k) (col (q_packed s1) k) i).
          2:{ apply mirror_ext; auto. intros q Hq; reflexivity. intros q Hq. unfold work. nat_case; reflexivity. }
          rewrite RED by auto. unfold work. rewrite DS, Nat.eqb_refl. rewrite F4 by lia. nat_case; cbn [andb]; try reflexivity.
          rewrite M2 by lia. nat_case; cbn [andb]; try reflexivity; lia.
        - transitivity (mirror rows (stored m2 k) (mget m2 k k) (col m2 c) i).
          + unfold work. destruct (Nat.ltb_spec c (S k)); [lia|]. rewrite F4 by lia. destruct (Nat.ltb_spec k c); [reflexivity|lia].
          + apply mirror_ext; auto. intros q Hq; reflexivity. intros q Hq. rewrite CO by lia. unfold work. nat_case; reflexivity. }
      assert (PD : mget m2 k k = stored m2 k k) by (rewrite stored_pivot; reflexivity).
      split.
      + split; cbn [q_packed q_diag q_permutation]; auto.
        * rewrite set_nth_length; auto.
        * rewrite F3. exact R3.
        * intros j Hj. destruct (Nat.eq_dec j k) as [->|].
          -- destruct GK as [G1 G2]. split. { intros i Hi. unfold stored. nat_case. reflexivity. }
             rewrite ST by lia. rewrite <- G2. apply dot_ext; auto.
          -- destruct (R4 j ltac:(lia)) as [G1 G2]. split. { intros i Hi. unfold stored. nat_case. reflexivity. }
             rewrite stored_pivot, CL by lia. rewrite stored_pivot in G2. rewrite <- G2.
             apply dot_ext; intros i Hi; unfold stored; rewrite CL by lia; reflexivity.
        * intros c Hc i Hi. rewrite WM by auto. cbn [forward]. rewrite PK. apply mirror_ext; auto. { intros q Hq. symmetry. apply ST; auto. }
          intros q Hq. rewrite R5 by auto. rewrite F3. apply forward_ext; auto; [|lia]. intros i' j' Hi' Hj'. symmetry. apply CL; auto.
        * intros c Hc. rewrite DS. nat_case. apply F6. lia.
        * intros j c Hj Hc. rewrite DS.
          rewrite (tail2_ext rows j _ (mirror rows (stored m2 k) (stored m2 k k) (work k (q_packed s1) (q_diag s1) c))) by (intros i Hi; rewrite WM by lia; rewrite PD; reflexivity).
          rewrite (tail2_mirror rows j k) by (auto; lia). destruct (Nat.eqb_spec j k) as [->|].
          -- replace (- sg * - sg) with t by lra. rewrite (tail2_ext rows k _ (col (q_packed s1) c)) by (intros i Hi; unfold work; nat_case; reflexivity). apply MX. lia.
          -- rewrite F5 by lia. apply R7; lia.
      + intros Hk1. cbn [q_packed q_diag]. rewrite DS. nat_case. apply F6. lia.
  Qed.

  Lemma decompose_spec : exists f, qr_decompose rows cols a = Ok f /\
    (exists s, ready cols s /\ packed f = q_packed s /\ r_diag f = q_diag s /\ permutation f = q_permutation s) /\
    forall c, (c < cols)%nat -> vget (column_norms f) c = R_sqrt.sqrt (square_norm rows (col a c)).
  Proof.
    unfold qr_decompose. destruct (Nat.ltb_spec rows cols); [lia|]. eexists. split; [reflexivity|]. cbn [packed r_diag permutation column_norms].
    set (norms := from_fn cols (fun j => enorm (tail_column rows 0 j a))).
    assert (NS : forall c, (c < cols)%nat -> vget norms c = R_sqrt.sqrt (square_norm rows (col a c))).
    { intros c Hc. unfold norms. rewrite vget_from_fn by auto. rewrite enorm_tail by (auto; lia). reflexivity. }
    split; [|exact NS].
    set (s0 := {| q_packed := a; q_diag := norms; q_reference := norms; q_permutation := from_fn cols (fun j => j) |}).
    exists (fold_left (qr_step rows cols) (range 0 cols) s0). split; [|repeat split].
    assert (D : forall c, (c < cols)%nat -> 0 <= vget norms c /\ vget norms c * vget norms c = tail2 rows 0 (col a c)).
    { intros c Hc. rewrite NS by auto. split; [apply sqrt_pos|]. rewrite tail2_0. apply sqrt_sqrt. apply tail2_nonneg with (from := 0%nat). }
    assert (PS : from_fn cols (fun j => j) = seq 0 cols) by (unfold from_fn; apply map_id).
    apply (for_loop (fun k s => ready k s /\ diagonal_ready k s)).
    - lia.
    - split.
      + split; cbn [s0 q_packed q_diag q_permutation]; auto; try (intros; lia).
        * apply from_fn_length.
        * rewrite PS. apply Permutation_refl.
        * intros c Hc i Hi. cbn [forward]. unfold work. destruct (Nat.ltb_spec c 0); [lia|]. rewrite PS, seq_nth by auto. reflexivity.
        * intros c Hc. apply D. lia.
      + intros H0. apply D; auto.
    - intros i x Hi [Q1 Q2]. apply step_spec; auto. lia.
  Qed.
End Factorize.

(** ** The factors *)
Lemma bsum_list n f : bsum n f = fold_right Rplus 0 (map f (seq 0 n)).
Proof.
  induction n as [|n IH]; [reflexivity|]. rewrite seq_S, map_app, fold_right_app. cbn [bsum map fold_right]. rewrite IH.
  assert (G : forall l s, fold_right Rplus s l = fold_right Rplus 0 l + s) by (induction l as [|x l IHl]; intros s; cbn; [ring|rewrite IHl; ring]).
  rewrite (G _ (f (0 + n)%nat + 0)). cbn [plus]. ring.
Qed.
Lemma bsum_permuted n perm f : Permutation perm (seq 0 n) -> bsum n (fun j => f (nth j perm 0%nat)) = bsum n f.
Proof.
  intros P. rewrite !bsum_list. assert (L : length perm = n) by (rewrite (Permutation_length P), seq_length; auto).
  replace (map (fun j => f (nth j perm 0%nat)) (seq 0 n)) with (map f perm).
  - apply (Permutation_map f) in P. induction P; cbn; try congruence; lra.
  - rewrite <- L at 1. clear. induction perm as [|x perm IH]; [reflexivity|]. cbn [length seq map nth]. f_equal. rewrite IH, <- seq_shift, map_map. reflexivity.
Qed.

Lemma unpermute_spec cols perm (y : list R) : Permutation perm (seq 0 cols) -> length (unpermute cols perm y) = cols /\
  forall j, (j < cols)%nat -> vget (unpermute cols perm y) (nth j perm 0%nat) = vget y j.
Proof.
  intros PM. unfold unpermute. assert (LP : length perm = cols) by (rewrite (Permutation_length PM), seq_length; auto).
  apply (for_loop (fun k (x : list R) => length x = cols /\ forall j, (j < k)%nat -> vget x (nth j perm 0%nat) = vget y j)).
  - lia.
  - split; [apply repeat_length|]. intros; lia.
  - intros k x Hk [X1 X2]. split; [rewrite set_nth_length; auto|]. intros j Hj.
    rewrite vget_set' by (rewrite X1; apply permutation_lt; auto; lia).
    destruct (Nat.eqb_spec (nth j perm 0%nat) (nth k perm 0%nat)) as [E|N].
    + assert (j = k). { apply (proj1 (NoDup_nth perm 0%nat)); auto; try lia. eapply Permutation_NoDup; [apply Permutation_sym, PM|apply seq_NoDup]. }
      subst. reflexivity.
    + apply X2. destruct (Nat.eq_dec j k) as [->|]; [destruct (N eq_refl)|lia].
Qed.

Section Factors.
  Variables (rows cols : nat) (a : mat R) (f : @qr R) (s : @qr_state R).
  Hypothesis Hrc : (cols <= rows)%nat.
  Hypothesis Q : ready rows cols a cols s.
  Hypothesis Ep : packed f = q_packed s.
  Hypothesis Ed : r_diag f = q_diag s.
  Hypothesis Em : permutation f = q_permutation s.

  Definition upper (i j : nat) : R := if Nat.eqb i j then vget (r_diag f) i else if Nat.ltb i j then mget (packed f) i j else 0.
  Lemma triangular_spec i j : (i < cols)%nat -> (j < cols)%nat -> mget (qr_triangular cols f) i j = upper i j.
  Proof. intros Hi Hj. unfold qr_triangular. rewrite mget_mat_fn by auto. reflexivity. Qed.
  Lemma work_upper c i : (c < cols)%nat -> work cols (q_packed s) (q_diag s) c i = upper i c.
  Proof. intros Hc. unfold work, upper. rewrite Ep, Ed. destruct (Nat.ltb_spec c cols); [|lia]. nat_case; subst; reflexivity. Qed.

  Notation P := (packed f).
  Lemma all_good j : (j < cols)%nat -> good rows j (stored P j).
  Proof. rewrite Ep. apply (rd_good _ _ _ _ _ Q). Qed.

  (** the permuted column is the reflected column of the triangle *)
  Lemma column_backward c : (c < cols)%nat -> equal_vectors rows (backward rows cols P (fun i => upper i c)) (col a (nth c (permutation f) 0%nat)).
  Proof.
    intros Hc i Hi. rewrite (backward_ext_vec rows P cols _ (forward rows cols P (col a (nth c (permutation f) 0%nat)))) by (auto; intros q Hq; rewrite Ep, Em, <- (rd_work _ _ _ _ _ Q c Hc q Hq), work_upper; auto).
    apply backward_forward; auto. apply all_good.
  Qed.

  Lemma orthogonal_step_spec c q j : (c < cols)%nat -> (j < cols)%nat -> shape rows cols q ->
    shape rows cols (orthogonal_step rows f c q j) /\
    forall i c', (i < rows)%nat -> (c' < cols)%nat -> mget (orthogonal_step rows f c q j) i c' =
      if Nat.eqb c' c then mirror rows (stored P j) (mget P j j) (col q c) i else mget q i c'.
  Proof.
    intros Hc Hj S. unfold orthogonal_step. rnum. destruct (Reqb (mget P j j) 0) eqn:E; rcases.
    - split; auto. intros i c' Hi Hc'. destruct (Nat.eqb_spec c' c) as [->|]; auto. unfold mirror.
      rewrite (good_zero rows j (stored P j) (all_good j Hj)) by (auto; rewrite stored_pivot; auto). unfold col. ring.
    - rewrite reflected_sum_dot by lia. set (fac := dot_product rows (stored P j) (fun i => mget q i c) / mget P j j).
      destruct (column_update rows cols q j c (fun m i => mget m i c - fac * mget P i j)) as [U1 U2]; auto; try lia.
      { intros m' i Hi EE. rewrite EE by lia. reflexivity. }
      split; [exact U1|]. intros i c' Hi Hc'. rewrite U2 by auto. destruct (Nat.eqb_spec c' c) as [->|]; cbn [andb]; auto.
      change (mirror rows (stored P j) (mget P j j) (col q c) i) with (mget q i c - fac * stored P j i).
      unfold stored. nat_case; ring.
  Qed.
  Definition unit_vector (c : nat) : vector := fun i => if Nat.eqb i c then 1 else 0.
  Lemma orthogonal_column c q : (c < cols)%nat -> shape rows cols q ->
    let r := fold_left (orthogonal_step rows f c) (rev (range 0 cols)) q in
    shape rows cols r /\ equal_vectors rows (col r c) (backward rows cols P (col q c)) /\
    forall i c', (i < rows)%nat -> (c' < cols)%nat -> c' <> c -> mget r i c' = mget q i c'.
  Proof.
    intros Hc S. cbv zeta.
    apply (for_down (fun k (r : mat R) => shape rows cols r /\ equal_vectors rows (backward rows k P (col r c)) (backward rows cols P (col q c)) /\
      forall i c', (i < rows)%nat -> (c' < cols)%nat -> c' <> c -> mget r i c' = mget q i c')).
    - split; auto. split; auto. intros i Hi; reflexivity.
    - intros k r Hk (R1 & R2 & R3). destruct (orthogonal_step_spec c r k Hc Hk R1) as [O1 O2]. split; auto. split.
      + intros i Hi. rewrite <- R2 by auto. cbn [backward]. apply backward_ext_vec; auto. intros q' Hq'. unfold col at 1. rewrite O2, Nat.eqb_refl by auto. reflexivity.
      + intros i c' Hi Hc' N. rewrite O2 by auto. nat_case. auto.
  Qed.
  Lemma orthogonal_spec : shape rows cols (qr_orthogonal rows cols f) /\
    forall c, (c < cols)%nat -> equal_vectors rows (col (qr_orthogonal rows cols f) c) (backward rows cols P (unit_vector c)).
  Proof.
    unfold qr_orthogonal. set (q0 := mat_fn rows cols _).
    match goal with |- shape _ _ ?r /\ _ => enough (L : shape rows cols r /\ (forall c, (c < cols)%nat -> equal_vectors rows (col r c) (backward rows cols P (unit_vector c))) /\
      forall c, (cols <= c < cols)%nat -> equal_vectors rows (col r c) (unit_vector c)) end. { tauto. }
    apply (for_loop (fun k (r : mat R) => shape rows cols r /\ (forall c, (c < k)%nat -> equal_vectors rows (col r c) (backward rows cols P (unit_vector c))) /\
      forall c, (k <= c < cols)%nat -> equal_vectors rows (col r c) (unit_vector c))).
    - lia.
    - split; [apply shape_mat_fn|]. split; [intros; lia|]. intros c Hc i Hi. unfold col, q0. rewrite mget_mat_fn by lia. reflexivity.
    - intros k r Hk (R1 & R2 & R3). destruct (orthogonal_column k r ltac:(lia) R1) as (O1 & O2 & O3). split; auto. split.
      + intros c Hc i Hi. destruct (Nat.eq_dec c k) as [->|].
        * rewrite O2 by auto. apply backward_ext_vec; auto. apply R3. lia.
        * unfold col. rewrite O3 by lia. apply R2; auto. lia.
      + intros c Hc i Hi. unfold col. rewrite O3 by lia. apply R3; auto. lia.
  Qed.
  Lemma orthonormal c c' : (c < cols)%nat -> (c' < cols)%nat ->
    dot_product rows (col (qr_orthogonal rows cols f) c) (col (qr_orthogonal rows cols f) c') = if Nat.eqb c c' then 1 else 0.
  Proof.
    intros Hc Hc'. destruct orthogonal_spec as [_ O]. rewrite (dot_ext rows _ _ _ _ (O c Hc) (O c' Hc')).
    rewrite backward_dot by apply all_good. unfold dot_product, unit_vector.
    rewrite (bsum_ext rows _ (fun i => if Nat.eqb i c then (if Nat.eqb c c' then 1 else 0) else 0)) by (intros i Hi; destruct (Nat.eqb_spec i c) as [->|]; ring).
    apply bsum_delta. lia.
  Qed.
  Lemma factor_product i j : (i < rows)%nat -> (j < cols)%nat ->
    product cols (mget (qr_orthogonal rows cols f)) (mget (qr_triangular cols f)) i j = mget a i (nth j (permutation f) 0%nat).
  Proof.
    intros Hi Hj. destruct orthogonal_spec as [_ O]. fold (col a (nth j (permutation f) 0%nat) i).
    rewrite <- column_backward by auto. unfold product.
    rewrite (bsum_ext cols _ (fun q => upper q j * backward rows cols P (unit_vector q) i)).
    2:{ intros q Hq. rewrite triangular_spec by auto. rewrite <- O by auto. unfold col. ring. }
    rewrite <- (backward_sum rows P cols cols (fun q => upper q j) unit_vector i Hi). apply backward_ext_vec; auto.
    intros r Hr. unfold unit_vector. rewrite (bsum_ext cols _ (fun q => if Nat.eqb q r then upper r j else 0)).
    2:{ intros q Hq. rewrite (Nat.eqb_sym r q). destruct (Nat.eqb_spec q r) as [->|]; ring. }
    destruct (Nat.lt_ge_cases r cols). apply bsum_delta; auto.
    rewrite (bsum_ext cols _ (fun _ => 0)) by (intros q Hq; nat_case; auto). rewrite bsum_0. unfold upper. nat_case. reflexivity.
  Qed.
  Lemma upper_sorted i j : (i <= j < cols)%nat -> Rabs (upper j j) <= Rabs (upper i i).
  Proof.
    intros H. apply Rsqr_le_abs_0. pose proof (rd_sorted _ _ _ _ _ Q i j ltac:(lia) ltac:(lia)) as S.
    unfold Rsqr. replace (upper i i) with (vget (q_diag s) i) by (unfold upper; rewrite Nat.eqb_refl, Ed; reflexivity).
    eapply Rle_trans; [|exact S]. rewrite <- work_upper by lia. unfold tail2.
    set (w := work cols (q_packed s) (q_diag s) j). rewrite <- (bsum_delta rows j (w j * w j)) by lia. apply bsum_le. intros k Hk.
    destruct (Nat.eqb_spec k j) as [->|]; nat_case; try lra. apply Rle_0_sqr.
  Qed.

  (** ** Least squares *)
  Lemma transform_step_spec b j : (j < cols)%nat -> length b = rows ->
    length (transform_step rows f b j) = rows /\ equal_vectors rows (vget (transform_step rows f b j)) (mirror rows (stored P j) (mget P j j) (vget b)).
  Proof.
    intros Hj L. unfold transform_step. rnum. destruct (Reqb (mget P j j) 0) eqn:E; rcases.
    - split; auto. intros i Hi. unfold mirror. rewrite (good_zero rows j (stored P j) (all_good j Hj)) by (auto; rewrite stored_pivot; auto). ring.
    - rewrite reflected_sum_dot by lia. set (fac := dot_product rows (stored P j) (vget b) / mget P j j).
      match goal with |- length ?r = _ /\ _ => enough (W : length r = rows /\ forall i, (i < rows)%nat -> vget r i = if (Nat.leb j i && Nat.ltb i rows)%bool then vget b i - fac * mget P i j else vget b i) end.
      { destruct W as [W1 W2]. split; auto. intros i Hi. rewrite W2 by auto.
        change (mirror rows (stored P j) (mget P j j) (vget b) i) with (vget b i - fac * stored P j i). unfold stored. nat_case; cbn [andb]; ring. }
      apply (for_loop (fun k (r : list R) => length r = rows /\ forall i, (i < rows)%nat -> vget r i = if (Nat.leb j i && Nat.ltb i k)%bool then vget b i - fac * mget P i j else vget b i)).
      + lia.
      + split; auto. intros i Hi. nat_case; cbn [andb]; try reflexivity; lia.
      + intros k r Hk [R1 R2]. split; [rewrite set_nth_length; auto|]. intros i Hi. rewrite vget_set' by lia. rewrite !R2 by lia.
        destruct (Nat.eqb_spec i k) as [->|]; nat_case; cbn [andb]; try reflexivity; lia.
  Qed.
  Lemma transform_spec b : length b = rows -> length (qr_transform rows cols f b) = rows /\
    equal_vectors rows (vget (qr_transform rows cols f b)) (forward rows cols P (vget b)).
  Proof.
    intros L. unfold qr_transform.
    apply (for_loop (fun k (r : list R) => length r = rows /\ equal_vectors rows (vget r) (forward rows k P (vget b)))).
    - lia.
    - split; auto. intros i Hi; reflexivity.
    - intros k r Hk [R1 R2]. destruct (transform_step_spec r k ltac:(lia) R1) as [T1 T2]. split; auto.
      intros i Hi. rewrite T2 by auto. cbn [forward]. apply mirror_ext; auto. intros q Hq; reflexivity.
  Qed.

  Lemma back_row row y : (row < cols)%nat -> bsum cols (fun j => upper row j * vget y j) =
    upper row row * vget y row + bsum (cols - (row + 1)) (fun j => mget P row (row + 1 + j)%nat * vget y (row + 1 + j)%nat).
  Proof.
    intros H. rewrite (bsum_split cols row) by auto.
    rewrite (bsum_ext row _ (fun _ => 0)) by (intros j Hj; unfold upper; nat_case; ring). rewrite bsum_0.
    rewrite (bsum_ext (cols - (row + 1)) _ (fun j => mget P row (row + 1 + j)%nat * vget y (row + 1 + j)%nat)) by (intros j Hj; unfold upper; nat_case; ring).
    ring.
  Qed.
  Lemma qr_back_spec threshold qtb k : 0 <= threshold -> forall y, (k <= cols)%nat -> length y = cols ->
    (forall i, (k <= i < cols)%nat -> threshold < Rabs (upper i i) /\ bsum cols (fun j => upper i j * vget y j) = vget qtb i) ->
    match qr_back cols f threshold qtb (rev (seq 0 k)) y with
    | Some y' => length y' = cols /\ forall i, (i < cols)%nat -> threshold < Rabs (upper i i) /\ bsum cols (fun j => upper i j * vget y' j) = vget qtb i
    | None => exists i, (i < cols)%nat /\ Rabs (upper i i) <= threshold
    end.
  Proof.
    intros TP. induction k as [|k IH]; intros y Hk L H.
    - cbn. split; auto. intros i Hi. apply H. lia.
    - rewrite seq_S, rev_app_distr. cbn [rev app qr_back plus]. rnum.
      assert (UK : upper k k = vget (r_diag f) k) by (unfold upper; rewrite Nat.eqb_refl; reflexivity).
      destruct (Rleb (Rabs (vget (r_diag f) k)) threshold) eqn:E; rcases.
      + exists k. split; [lia|]. rewrite UK. exact E.
      + apply IH; [lia|rewrite set_nth_length; auto|]. intros i Hi.
        assert (S : forall j, vget (set_nth y k ((fold_left (fun acc col => acc - mget P k col * vget y col) (range (k + 1) cols) (vget qtb k)) / vget (r_diag f) k)) j =
          if Nat.eqb j k then (vget qtb k - bsum (cols - (k + 1)) (fun j => mget P k (k + 1 + j)%nat * vget y (k + 1 + j)%nat)) / upper k k else vget y j).
        { intros j. rewrite vget_set' by lia. unfold range. rewrite (fold_sub_bsum (k + 1) (cols - (k + 1)) (fun j => mget P k j * vget y j)). rewrite UK. reflexivity. }
        rnum. match type of S with forall j, vget ?x j = _ => set (z := x) in * end. destruct (Nat.eq_dec i k) as [->|].
        * split; [rewrite UK; lra|]. rewrite back_row by lia.
          rewrite (S k), Nat.eqb_refl. rewrite (bsum_ext (cols - (k + 1)) (fun j => mget P k (k + 1 + j)%nat * vget z (k + 1 + j)%nat) (fun j => mget P k (k + 1 + j)%nat * vget y (k + 1 + j)%nat)) by (intros j Hj; rewrite S; nat_case; reflexivity).
          field. rewrite UK. intros Z. rewrite Z, Rabs_R0 in E. lra.
        * destruct (H i ltac:(lia)) as [A1 A2]. split; auto. rewrite <- A2. rewrite !back_row by lia. rewrite S. nat_case. f_equal.
          apply bsum_ext. intros j Hj. rewrite S. nat_case. reflexivity.
  Qed.

  (** the residual, in the coordinates of the factors *)
  Definition permuted (z : vector) : vector := fun j => z (nth j (permutation f) 0%nat).
  Lemma perm_ok : Permutation (permutation f) (seq 0 cols).
  Proof. rewrite Em. apply (rd_perm _ _ _ _ _ Q). Qed.
  Lemma times_backward z : equal_vectors rows (times cols (mget a) z)
    (backward rows cols P (fun r => bsum cols (fun j => permuted z j * upper r j))).
  Proof.
    intros i Hi. rewrite (backward_sum rows P cols cols (permuted z) (fun j r => upper r j) i Hi).
    rewrite (bsum_ext cols _ (fun j => (fun c => mget a i c * z c) (nth j (permutation f) 0%nat))).
    - rewrite (bsum_permuted cols (permutation f) (fun c => mget a i c * z c) perm_ok). reflexivity.
    - intros j Hj. rewrite column_backward by auto. unfold permuted, col. ring.
  Qed.
  Lemma residual_norm b z : length b = rows ->
    square_norm rows (fun i => times cols (mget a) z i - vget b i) =
    bsum cols (fun i => (bsum cols (fun j => upper i j * permuted z j) - vget (qr_transform rows cols f b) i) *
                        (bsum cols (fun j => upper i j * permuted z j) - vget (qr_transform rows cols f b) i)) +
    tail2 rows cols (vget (qr_transform rows cols f b)).
  Proof.
    intros L. destruct (transform_spec b L) as [T1 T2]. set (t := qr_transform rows cols f b) in *.
    set (w := fun r => bsum cols (fun j => permuted z j * upper r j)).
    assert (E : equal_vectors rows (fun i => times cols (mget a) z i - vget b i) (backward rows cols P (fun i => (-1) * vget t i + w i))).
    { intros i Hi. rewrite backward_linear by auto. rewrite times_backward by auto. fold w.
      rewrite (backward_ext_vec rows P cols (vget t) (forward rows cols P (vget b))) by (auto; intros q Hq; apply T2; auto).
      rewrite backward_forward by (auto; apply all_good). ring. }
    unfold square_norm. rewrite (dot_ext rows _ _ _ _ E E). rewrite backward_dot by apply all_good.
    unfold dot_product, tail2.
    replace rows with (cols + (rows - cols))%nat at 1 2 by lia. rewrite !bsum_shift.
    rewrite (bsum_ext cols (fun i => if Nat.ltb i cols then 0 else vget t i * vget t i) (fun _ => 0)) by (intros i Hi; nat_case; reflexivity).
    rewrite bsum_0, Rplus_0_l. f_equal.
    - apply bsum_ext. intros i Hi. assert (WE : w i = bsum cols (fun j => upper i j * permuted z j)) by (apply bsum_ext; intros; ring). rewrite WE. ring.
    - apply bsum_ext. intros i Hi. assert (WE : w (cols + i)%nat = 0).
      { unfold w. rewrite (bsum_ext cols _ (fun _ => 0)). apply bsum_0. intros j Hj. unfold upper. nat_case. ring. }
      rewrite WE. nat_case. ring.
  Qed.
  (** the triangle keeps every scalar product of the columns, and of a column with a vector *)
  Lemma triangle_bsum (x : vector) c : (c < cols)%nat -> dot_product rows (fun i => upper i c) x = bsum cols (fun r => upper r c * x r).
  Proof.
    intros Hc. unfold dot_product. replace rows with (cols + (rows - cols))%nat by lia. rewrite bsum_shift.
    rewrite (bsum_ext (rows - cols) _ (fun _ => 0)) by (intros i Hi; unfold upper; nat_case; ring). rewrite bsum_0. ring.
  Qed.
  Lemma triangle_gram c c' : (c < cols)%nat -> (c' < cols)%nat -> bsum cols (fun r => upper r c * upper r c') =
    dot_product rows (col a (nth c (permutation f) 0%nat)) (col a (nth c' (permutation f) 0%nat)).
  Proof.
    intros Hc Hc'. rewrite <- (dot_ext rows _ _ _ _ (column_backward c Hc) (column_backward c' Hc')).
    rewrite backward_dot by apply all_good. symmetry. apply triangle_bsum; auto.
  Qed.
  Lemma triangle_right b c : (c < cols)%nat -> length b = rows -> bsum cols (fun r => upper r c * vget (qr_transform rows cols f b) r) =
    dot_product rows (col a (nth c (permutation f) 0%nat)) (vget b).
  Proof.
    intros Hc L. destruct (transform_spec b L) as [T1 T2].
    rewrite <- (dot_ext rows _ _ _ _ (column_backward c Hc) (backward_forward rows P cols all_good (vget b))).
    rewrite backward_dot by apply all_good. rewrite <- triangle_bsum by auto. apply dot_ext; intros i Hi; auto.
  Qed.
End Factors.
