(** The doubling passes of the Lyapunov solver. *)
From Coq Require Import ZArith Reals List Bool Arith Lia Lra Psatz FunctionalExtensionality.
From Verif Require Import Base.Scalar Base.RNum Base.Lists Base.Series Model.Errors Model.Vector Model.Matrix Model.Riccati.
From Verif Require Import Spec.Matrix Proofs.Matrix Proofs.Qr Proofs.Svd Proofs.Algebra.
Import ListNotations.

Section Any.
  Context {T : Type} {NT : Num T}.
  Lemma average_pairs_spec n (m : mat T) : shape n n m ->
    shape n n (average_pairs n m) /\
    forall i j, i < n -> j < n ->
      mget (average_pairs n m) i j =
      if Nat.eqb i j then mget m i j
      else if Nat.ltb i j then mul (add (mget m i j) (mget m j i)) half else mul (add (mget m j i) (mget m i j)) half.
  Proof.
    intros Hm. unfold average_pairs.
    set (av := fun i j => mul (add (mget m i j) (mget m j i)) half).
    set (target := fun i j => if Nat.eqb i j then mget m i j else if Nat.ltb i j then av i j else av j i).
    match goal with |- shape _ _ ?r /\ _ => enough (L : shape n n r /\ forall i j, i < n -> j < n ->
      mget r i j = if Nat.ltb (Nat.min i j) n then target i j else mget m i j) end.
    { destruct L as [L1 L2]. split; [exact L1|]. intros i j Hi Hj. rewrite L2 by auto.
      destruct (Nat.ltb_spec (Nat.min i j) n); [reflexivity|lia]. }
    apply (for_loop (fun r a => shape n n a /\ forall i j, i < n -> j < n ->
      mget a i j = if Nat.ltb (Nat.min i j) r then target i j else mget m i j)).
    - lia.
    - split; auto.
    - intros r a Hr [Ha Ea].
      match goal with |- shape _ _ ?x /\ _ => assert (L : shape n n x /\
        forall i j, i < n -> j < n ->
          mget x i j =
          if (Nat.eqb (Nat.min i j) r && Nat.ltb r (Nat.max i j) && Nat.ltb (Nat.max i j) n)%bool then target i j else mget a i j) end.
      { apply (for_loop (fun c x => shape n n x /\ forall i j, i < n -> j < n ->
          mget x i j = if (Nat.eqb (Nat.min i j) r && Nat.ltb r (Nat.max i j) && Nat.ltb (Nat.max i j) c)%bool then target i j else mget a i j)).
        - lia.
        - split; auto. intros i j Hi Hj. destruct (Nat.eqb_spec (Nat.min i j) r), (Nat.ltb_spec r (Nat.max i j)), (Nat.ltb_spec (Nat.max i j) (r + 1)); cbn; auto; lia.
        - intros c x Hc [Hx Ex].
          assert (E1 : mget x r c = mget m r c).
          { rewrite Ex, Ea by lia. destruct (Nat.ltb_spec (Nat.max r c) c); [lia|]. rewrite !andb_false_r. destruct (Nat.ltb_spec (Nat.min r c) r); [lia|reflexivity]. }
          assert (E2 : mget x c r = mget m c r).
          { rewrite Ex, Ea by lia. destruct (Nat.ltb_spec (Nat.max c r) c); [lia|]. rewrite !andb_false_r. destruct (Nat.ltb_spec (Nat.min c r) r); [lia|reflexivity]. }
          cbv zeta. rewrite E1, E2. fold (av r c). split. { apply shape_mset, shape_mset; auto. }
          intros i j Hi Hj. rewrite (mget_mset n n) by (auto using shape_mset; lia). rewrite (mget_mset n n) by (auto; lia). rewrite Ex by auto.
          unfold target.
          destruct (Nat.eqb_spec i c), (Nat.eqb_spec j r), (Nat.eqb_spec i r), (Nat.eqb_spec j c); cbn [andb]; try lia;
          destruct (Nat.eqb_spec (Nat.min i j) r), (Nat.ltb_spec r (Nat.max i j)), (Nat.ltb_spec (Nat.max i j) (S c)), (Nat.ltb_spec (Nat.max i j) c); cbn [andb];
          try lia; try reflexivity;
          destruct (Nat.eqb_spec i j), (Nat.ltb_spec i j); try lia; subst; try reflexivity. }
      destruct L as [L1 L2]. split; [exact L1|]. intros i j Hi Hj. rewrite L2, Ea by auto.
      destruct (Nat.ltb_spec (Nat.min i j) (S r)), (Nat.ltb_spec (Nat.min i j) r), (Nat.eqb_spec (Nat.min i j) r), (Nat.ltb_spec r (Nat.max i j)), (Nat.ltb_spec (Nat.max i j) n); cbn [andb]; try lia; try reflexivity.
      unfold target. destruct (Nat.eqb_spec i j); [reflexivity|lia].
  Qed.
End Any.

Local Open Scope R_scope.
Lemma average_symmetric n (m : mat R) : shape n n m -> symmetric n (mget m) -> equal n n (mget (average_pairs n m)) (mget m).
Proof.
  intros S Y i j Hi Hj. destruct (average_pairs_spec n m S) as [_ E]. rewrite E by auto. pose proof (Y i j Hi Hj) as Q. unfold transposed in Q. rnum.
  destruct (Nat.eqb i j); [reflexivity|]. destruct (Nat.ltb i j); rewrite Q; field.
Qed.
Lemma frobenius_squares n (m : mat R) : shape n n m -> frobenius_norm m = R_sqrt.sqrt (squares_sum n (mget m)).
Proof.
  intros [S1 S2]. unfold frobenius_norm. rnum. unfold squares_sum. f_equal. rewrite <- S1.
  assert (F : forall (l : list R) s, fold_left (fun acc x => acc + x * x) l s = s + fold_right (fun x acc => x * x + acc) 0 l) by (induction l as [|x l IH]; intros s; cbn; [ring|rewrite IH; ring]).
  assert (A : forall l l' : list R, fold_right (fun x acc => x * x + acc) 0 (l ++ l') = fold_right (fun x acc => x * x + acc) 0 l + fold_right (fun x acc => x * x + acc) 0 l') by (induction l as [|x l IH]; intros l'; cbn; [ring|rewrite IH; ring]).
  assert (W : forall l : list R, fold_right (fun x acc => x * x + acc) 0 l = bsum (length l) (fun j => vget l j * vget l j)) by (induction l as [|x l IH]; [reflexivity|]; cbn [length fold_right]; rewrite bsum_first, IH; reflexivity).
  rewrite F, Rplus_0_l.
  assert (G : forall (l : mat R), (forall r, In r l -> length r = n) -> fold_right (fun x acc => x * x + acc) 0 (concat l) = bsum (length l) (fun i => bsum n (fun j => mget l i j * mget l i j))).
  { induction l as [|r l IH]; intros H; [reflexivity|]. cbn [concat length]. rewrite A, bsum_first, IH by (intros; apply H; right; auto). rewrite W, (H r) by (left; auto). reflexivity. }
  rewrite <- S1 in G, S2. apply G. intros r Hr. destruct (In_nth _ _ [] Hr) as (i & Hi & <-). apply S2. lia.
Qed.

Lemma discounted_split n a q p k : equal n n (discounted n a q (p + k))
  (plus_matrix (discounted n a q p) (product n (transposed (power n a p)) (product n (discounted n a q k) (power n a p)))).
Proof.
  induction k as [|k IH]; [rewrite Nat.add_0_r; cbn [discounted]; autorewrite with mats; intros i j _ _; unfold plus_matrix, zero_matrix; ring|].
  rewrite Nat.add_succ_r. cbn [discounted]. intros i j Hi Hj. unfold plus_matrix at 1. rewrite IH by auto. autorewrite with mats. unfold plus_matrix. rewrite Rplus_assoc. f_equal. f_equal.
  (* A^(p+k) = A^k A^p *)
  assert (E : equal n n (power n a (p + k)) (product n (power n a k) (power n a p))) by (rewrite Nat.add_comm; apply equal_sym, power_plus).
  rewrite (product_ext n (transposed (power n a (p + k))) (product n (transposed (power n a p)) (transposed (power n a k))) _ (product n q (product n (power n a k) (power n a p)))).
  - rewrite !p_assoc. reflexivity.
  - intros l Hl. rewrite <- t_product. apply (E l i); auto.
  - intros l Hl. apply product_ext; auto.
Qed.
Lemma discounted_one n a q : equal n n (discounted n a q 1) q.
Proof.
  intros i j Hi Hj. cbn. unfold plus_matrix, zero_matrix. rewrite t_unit, product_unit_l by auto. rewrite product_unit_r by auto. ring.
Qed.
Lemma sandwich_symmetric n a q : symmetric n q -> symmetric n (product n (transposed a) (product n q a)).
Proof.
  intros S i j Hi Hj. rewrite <- (t_twice a) at 2. rewrite !t_product, t_twice, p_assoc. apply product_ext; auto. intros k Hk. apply product_ext; auto.
Qed.
Lemma discounted_symmetric n a q k : symmetric n q -> symmetric n (discounted n a q k).
Proof.
  intros S. induction k as [|k IH]; [intros i j _ _; reflexivity|]. cbn [discounted]. intros i j Hi Hj. rewrite t_plus. unfold plus_matrix.
  rewrite (IH i j Hi Hj). f_equal. apply sandwich_symmetric; auto.
Qed.
Lemma discounted_residual n a q k : equal n n (plus_matrix (minus_matrix (product n (transposed a) (product n (discounted n a q k) a)) (discounted n a q k)) q)
  (product n (transposed (power n a k)) (product n q (power n a k))).
Proof.
  intros i j Hi Hj. pose proof (discounted_split n a q 1 k i j Hi Hj) as S. change (1 + k)%nat with (Datatypes.S k) in S. cbn [discounted] in S. unfold plus_matrix in S at 1 2.
  pose proof (discounted_one n a q i j Hi Hj) as O. cbn [discounted] in O. rewrite O in S.
  rewrite (product_ext n (transposed (power n a 1)) (transposed a) _ (product n (discounted n a q k) a)) in S.
  - unfold plus_matrix, minus_matrix. lra.
  - intros l Hl. apply (power_one n a l i); auto.
  - intros l Hl. apply product_ext; auto. intros r Hr. apply (power_one n a r j); auto.
Qed.

(** ** The passes *)
Definition lyapunov_state n (a q : matrix) p (total power : mat R) : Prop :=
  shape n n total /\ shape n n power /\ equal n n (mget total) (discounted n a q (2 ^ p)) /\ equal n n (mget power) (Spec.Matrix.power n a (2 ^ p)).
Definition next_increment n (total power : mat R) : mat R := mat_mul n n n (mat_mul n n n (transpose n n power) total) power.
Definition next_total n (total power : mat R) : mat R := average_pairs n (mat_add total (next_increment n total power)).
Lemma increment_spec n (total power : mat R) : shape n n power -> shape n n total -> shape n n (next_increment n total power) /\
  equal n n (mget (next_increment n total power)) (product n (transposed (mget power)) (product n (mget total) (mget power))).
Proof.
  intros S1 S2. split; [apply shape_mat_fn|]. intros i j Hi Hj. unfold next_increment. rewrite mget_mul by auto. rewrite <- p_assoc. apply product_ext; auto.
  intros k Hk. rewrite mget_mul by auto. apply product_ext; auto. intros l Hl. apply mget_transpose; auto.
Qed.
Lemma lyapunov_next n a q p total power : symmetric n q -> lyapunov_state n a q p total power ->
  lyapunov_state n a q (S p) (next_total n total power) (mat_mul n n n power power) /\
  equal n n (mget (next_increment n total power)) (product n (transposed (Spec.Matrix.power n a (2 ^ p))) (product n (discounted n a q (2 ^ p)) (Spec.Matrix.power n a (2 ^ p)))).
Proof.
  intros Y (S1 & S2 & E1 & E2). destruct (increment_spec n total power S2 S1) as [S3 E3]. set (P := Spec.Matrix.power n a (2 ^ p)) in *. set (D := discounted n a q (2 ^ p)) in *.
  assert (I : equal n n (mget (next_increment n total power)) (product n (transposed P) (product n D P))).
  { intros i j Hi Hj. rewrite E3 by auto. apply product_ext; [intros k Hk; apply E2; auto|]. intros k Hk. apply product_ext; auto. }
  split; [|exact I]. assert (A : equal n n (mget (mat_add total (next_increment n total power))) (discounted n a q (2 ^ S p))).
  { intros i j Hi Hj. unfold mat_add. rewrite (mget_map2 add n n) by auto. rewrite I, E1 by auto. replace (2 ^ S p)%nat with (2 ^ p + 2 ^ p)%nat by (cbn; lia). symmetry. apply discounted_split; auto. }
  assert (SA : shape n n (mat_add total (next_increment n total power))) by (apply shape_map2; auto).
  assert (YA : symmetric n (mget (mat_add total (next_increment n total power)))).
  { intros i j Hi Hj. unfold transposed. rewrite !A by auto. apply discounted_symmetric; auto. }
  split; [apply average_pairs_spec; auto|]. split; [apply shape_mat_fn|]. split.
  - intros i j Hi Hj. unfold next_total. rewrite average_symmetric by auto. apply A; auto.
  - intros i j Hi Hj. rewrite mget_mul by auto. replace (2 ^ S p)%nat with (2 ^ p + 2 ^ p)%nat by (cbn; lia). rewrite <- (power_plus n a (2 ^ p) (2 ^ p) i j Hi Hj). apply product_ext; auto.
Qed.
Lemma finite_always (m : mat R) : mat_is_finite m = true.
Proof. unfold mat_is_finite. apply forallb_forall. reflexivity. Qed.
(** What an accepted answer is, and what every other outcome is. *)
Lemma lyapunov_passes_spec n a q : symmetric n q -> forall remaining p total power, lyapunov_state n a q p total power ->
  match lyapunov_passes n remaining p total power with
  | Ok r => exists k, (p <= k < p + remaining)%nat /\ shape n n r /\ equal n n (mget r) (discounted n a q (2 ^ S k)) /\
      R_sqrt.sqrt (squares_sum n (product n (transposed (Spec.Matrix.power n a (2 ^ k))) (product n (discounted n a q (2 ^ k)) (Spec.Matrix.power n a (2 ^ k))))) <=
        30 / IZR (2 ^ 52) * Rmax (R_sqrt.sqrt (squares_sum n (mget r))) 1
  | Err e => e = LaDidNotConverge (p + remaining) /\ forall k, (p <= k < p + remaining)%nat ->
      30 / IZR (2 ^ 52) * Rmax (R_sqrt.sqrt (squares_sum n (discounted n a q (2 ^ S k)))) 1 <
      R_sqrt.sqrt (squares_sum n (product n (transposed (Spec.Matrix.power n a (2 ^ k))) (product n (discounted n a q (2 ^ k)) (Spec.Matrix.power n a (2 ^ k)))))
  | Panic => False
  end.
Proof.
  intros Y. induction remaining as [|remaining IH]; intros p total power Hs.
  { cbn. rewrite Nat.add_0_r. split; auto. intros k Hk. lia. }
  destruct (lyapunov_next n a q p total power Y Hs) as [Nx I].
  assert (SI : shape n n (next_increment n total power)) by apply shape_mat_fn. assert (ST : shape n n (next_total n total power)) by apply Nx.
  cbn [lyapunov_passes]. fold (next_increment n total power). cbv zeta. fold (next_total n total power). rewrite finite_always. change (is_finite (frobenius_norm (next_increment n total power))) with true. change (is_finite (frobenius_norm (next_total n total power))) with true. cbn [negb orb].
  match goal with |- context [leb ?x ?y] => change (leb x y) with (Rleb (frobenius_norm (next_increment n total power)) (30 / IZR (2 ^ 52) * Rmax (frobenius_norm (next_total n total power)) 1)) end.
  rewrite (frobenius_squares n _ SI), (frobenius_squares n _ ST). rewrite (squares_sum_ext n _ _ I).
  destruct (Rleb _ _) eqn:E; rcases.
  - exists p. split; [lia|]. split; [exact ST|]. split; [apply Nx|exact E].
  - specialize (IH (p + 1)%nat (next_total n total power) (mat_mul n n n power power)). rewrite Nat.add_1_r in *. specialize (IH Nx).
    destruct (lyapunov_passes n remaining (S p) _ _) as [r|e|]; [| |exact IH].
    + destruct IH as (k & K & R). exists k. split; [lia|exact R].
    + destruct IH as [-> IH]. split; [f_equal; lia|]. intros k Hk. destruct (Nat.eq_dec k p) as [->|]; [|apply IH; lia].
      destruct Nx as (_ & _ & N3 & _). rewrite (squares_sum_ext n _ _ N3) in E. lra.
Qed.
Lemma over_le a b c : 0 < c -> a <= b * c -> a / c <= b.
Proof. intros C H. apply Rmult_le_reg_r with c; auto. unfold Rdiv. rewrite Rmult_assoc, Rinv_l by lra. lra. Qed.
Lemma le_over a b c : 0 < c -> a * c <= b -> a <= b / c.
Proof. intros C H. apply Rmult_le_reg_r with c; auto. unfold Rdiv. rewrite Rmult_assoc, Rinv_l by lra. lra. Qed.
Lemma iterate_step n a x k i : (i < n)%nat -> times n (power n a (S k)) x i = times n a (times n (power n a k) x) i.
Proof. intros Hi. rewrite <- times_assoc. apply times_ext; [|intros l Hl; reflexivity]. intros l Hl. apply power_left; auto. Qed.
(** An energy that every step lowers by at least [d |x|^2] makes every direction shrink geometrically. *)
Lemma energy_decay n A P q0 d : 0 < q0 -> 0 < d -> (forall x, q0 * square_norm n x <= quadratic n P x) ->
  (forall x, quadratic n P (times n A x) <= quadratic n P x - d * square_norm n x) ->
  exists rho c, 0 <= rho < 1 /\ forall x k, square_norm n (times n (power n A k) x) <= c * rho ^ k * square_norm n x.
Proof.
  intros Q0 C0 Low Step. set (F := Rmax (R_sqrt.sqrt (squares_sum n P)) 1). set (c := Rmin d 1).
    assert (F1 : 1 <= F) by apply Rmax_r. assert (c0 : 0 < c <= 1) by (unfold c; split; [apply Rmin_glb_lt; lra|apply Rmin_r]).
    assert (cF : 0 < c / F <= 1) by (split; [apply Rdiv_lt_0_compat; lra|apply over_le; lra]).
    exists (1 - c / F), (F / q0). split; [lra|]. intros x.
    assert (Up : forall z, quadratic n P z <= F * square_norm n z).
    { intros z. pose proof (quadratic_bound n P z) as B. pose proof (Rle_abs (quadratic n P z)). pose proof (Rmax_l (R_sqrt.sqrt (squares_sum n P)) 1). pose proof (square_norm_nonneg n z). fold F in H0. nra. }
    assert (Geo : forall j, quadratic n P (times n (power n A j) x) <= (1 - c / F) ^ j * (F * square_norm n x)).
    { induction j as [|j IH].
      - cbn [power pow]. rewrite Rmult_1_l. apply Rle_trans with (2 := Up x). right. apply dot_ext; [intros i Hi; apply times_unit; auto|]. intros i Hi. apply times_ext; auto. intros l Hl. apply times_unit; auto.
      - set (z := times n (power n A j) x) in *.
        assert (ZE : quadratic n P (times n (power n A (Datatypes.S j)) x) = quadratic n P (times n A z)).
        { unfold quadratic. apply dot_ext; [intros i Hi; apply iterate_step; auto|]. intros i Hi. apply times_ext; auto. intros l Hl. apply iterate_step; auto. }
        rewrite ZE. specialize (Step z). pose proof (square_norm_nonneg n z) as Z0. pose proof (Up z) as Uz.
        assert (C1 : c <= d) by apply Rmin_l.
        assert (G : quadratic n P z * (c / F) <= c * square_norm n z). { replace (quadratic n P z * (c / F)) with (c * (quadratic n P z / F)) by (unfold Rdiv; ring). apply Rmult_le_compat_l; [lra|]. apply over_le; lra. }
        cbn [pow]. rewrite Rmult_assoc. assert (S2 : quadratic n P (times n A z) <= (1 - c / F) * quadratic n P z) by nra.
        apply Rle_trans with (1 := S2). apply Rmult_le_compat_l; lra. }
    intros j. specialize (Geo j). specialize (Low (times n (power n A j) x)). replace (F / q0 * (1 - c / F) ^ j * square_norm n x) with ((1 - c / F) ^ j * (F * square_norm n x) / q0) by (field; lra).
    apply le_over; [lra|]. lra.
Qed.
