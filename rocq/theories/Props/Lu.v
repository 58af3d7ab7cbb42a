(** C75-C78: the LU factorization, linear systems, determinants and inverses. *)
From Coq Require Import ZArith Reals List Bool Arith Lia Lra Permutation.
From Flocq Require Import Core IEEE754.BinarySingleNaN.
From Verif Require Import Base.Scalar Base.RNum Base.FNum Base.Lists Base.Series Base.Det.
From Verif Require Import Model.Errors Model.Vector Model.Matrix Model.Lu Spec.Matrix Proofs.Matrix Proofs.Lu.
Import ListNotations.
Local Open Scope R_scope.

Lemma fold_max_spec (l : list R) : forall s, 0 <= s ->
  let r := fold_left (fun best x => Rmax best (Rabs x)) l s in
  s <= r /\ (forall x, In x l -> Rabs x <= r) /\ (r = s \/ exists x, In x l /\ Rabs x = r).
Proof.
  induction l as [|y l IH]; intros s Hs; cbn. { split; [lra|]. split; [tauto|auto]. }
  destruct (IH (Rmax s (Rabs y))) as (A & B & C). { eapply Rle_trans; [exact Hs|apply Rmax_l]. }
  set (r := fold_left _ _ _) in *. pose proof (Rmax_l s (Rabs y)). pose proof (Rmax_r s (Rabs y)). split; [lra|]. split.
  - intros x [->|Hx]; [lra|auto].
  - destruct C as [->|(x & Hx & E)]; [|right; exists x; auto]. unfold Rmax. destruct (Rle_dec s (Rabs y)); auto.
    right. exists y. auto.
Qed.
Lemma max_abs_spec rows cols m : shape rows cols m ->
  0 <= max_abs m /\ (forall i j, (i < rows)%nat -> (j < cols)%nat -> Rabs (mget m i j) <= max_abs m) /\
  (max_abs m = 0 \/ exists i j, (i < rows)%nat /\ (j < cols)%nat /\ Rabs (mget m i j) = max_abs m).
Proof.
  intros H. destruct (fold_max_spec (concat m) 0 (Rle_refl 0)) as (A & B & C).
  change (fold_left (fun best x => Rmax best (Rabs x)) (concat m) 0) with (max_abs m) in *. split; [lra|]. split.
  - intros i j Hi Hj. apply B. apply (in_concat_mat rows cols); auto. exists i, j. auto.
  - destruct C as [C|(x & Hx & E)]; auto. right. apply (in_concat_mat rows cols) in Hx; auto.
    destruct Hx as (i & j & Hi & Hj & <-). exists i, j. auto.
Qed.

(** ** C75: the factorization *)

(** Row [i] of the permuted matrix is row [p_i] of [m]; it is the product of a unit lower triangular matrix, no
    entry of which exceeds one, with an upper triangular one, whose pivots all exceed 2^-52 times every entry of [m]. *)
Theorem C75_factor n m f : shape n n m -> lu_decompose n m = Ok f ->
  let lower := mget (lu_lower n f) in
  let upper := mget (lu_upper n f) in
  Permutation (lu_perm f) (seq 0 n) /\
  unit_lower_triangular n lower /\ upper_triangular n upper /\
  (forall i j, (i < n)%nat -> (j < n)%nat -> product n lower upper i j = mget m (nth i (lu_perm f) 0%nat) j) /\
  (forall i j, (i < n)%nat -> (j < n)%nat -> Rabs (lower i j) <= 1) /\
  (forall k i j, (k < n)%nat -> (i < n)%nat -> (j < n)%nat -> / IZR (2 ^ 52) * Rabs (mget m i j) < Rabs (upper k k)).
Proof.
  intros H E. unfold lu_decompose in E. pose proof (factor_spec n m H) as F.
  destruct (factor_lu n m) as [[g s]|e|]; try discriminate E. rnum.
  destruct (Rleb s (/ IZR (2 ^ 52) * max_abs m)) eqn:S; [discriminate E|]. apply Rleb_false in S. injection E as <-.
  destruct (max_abs_spec n n m H) as (_ & M & _). cbv zeta. split; [apply (inv_perm _ _ _ _ _ F)|]. split; [|split; [|split; [|split]]].
  - intros i j Hi Hj. rewrite done_lower by auto. split. intros ->. rewrite Nat.eqb_refl. reflexivity.
    intros L. nat_case. reflexivity.
  - intros i j Hi Hj L. rewrite done_upper by auto. nat_case. reflexivity.
  - intros i j Hi Hj. apply (done_product n (mget m) g s F); auto.
  - intros i j Hi Hj. rewrite done_lower by auto. nat_case. rewrite Rabs_R1; lra.
    apply (inv_multipliers _ _ _ _ _ F); lia. rewrite Rabs_R0; lra.
  - intros k i j Hk Hi Hj. rewrite done_upper by auto. nat_case. pose proof (inv_smallest _ _ _ _ _ F k Hk).
    assert (0 < / IZR (2 ^ 52)) by (apply Rinv_0_lt_compat, IZR_lt; reflexivity).
    assert (/ IZR (2 ^ 52) * Rabs (mget m i j) <= / IZR (2 ^ 52) * max_abs m) by (apply Rmult_le_compat_l; [lra|auto]). lra.
Qed.

(** It is refused as singular exactly when it is, and as badly conditioned exactly when a pivot of the factorization
    is at most 2^-52 times the largest entry. *)
Theorem C75_refuses n m : shape n n m ->
  (lu_decompose n m = Err LaSingular <-> singular n (mget m)) /\
  (forall f, lu_for_determinant n m = Ok f ->
    (forall i j, (i < n)%nat -> (j < n)%nat -> Rabs (mget m i j) <= IZR (2 ^ 53 - 1) * IZR (2 ^ 971)) ->
    (lu_decompose n m = Err LaIllConditioned <->
     exists k i j, (k < n)%nat /\ (i < n)%nat /\ (j < n)%nat /\ Rabs (mget (lu_upper n f) k k) <= / IZR (2 ^ 52) * Rabs (mget m i j))) /\
  (forall e, lu_decompose n m = Err e -> e = LaSingular \/ e = LaIllConditioned) /\
  lu_decompose n m <> Panic.
Proof.
  intros H. unfold lu_decompose, lu_for_determinant. pose proof (factor_spec n m H) as F.
  destruct (factor_lu n m) as [[g s]|e|]; [|destruct F as (-> & Sg & _)|destruct F].
  - rnum. set (sc := / IZR (2 ^ 52) * max_abs m).
    assert (NS : ~ singular n (mget m)).
    { intros (x & (i & Hi & Nx) & K). apply Nx. apply (done_nonsingular n (mget m) g s F x K i Hi). }
    assert (P : 0 < / IZR (2 ^ 52)) by (apply Rinv_0_lt_compat, IZR_lt; reflexivity).
    split; [|split; [|split]].
    + split; [destruct (Rleb s sc); discriminate|tauto].
    + intros f E B. injection E as <-. destruct (max_abs_spec n n m H) as (M0 & M1 & M2).
      assert (D : forall k, (k < n)%nat -> mget (lu_upper n g) k k = mget (lu_matrix g) k k) by (intros k Hk; rewrite done_upper by auto; nat_case; auto).
      destruct (Rleb s sc) eqn:S; [apply Rleb_true in S|apply Rleb_false in S]; unfold sc in S; split; intros Q; try discriminate Q; auto.
      * destruct (inv_attained _ _ _ _ _ F) as [A|(l & Hl & A)].
        { exfalso. change (s = IZR (2 ^ 53 - 1) * IZR (2 ^ 971)) in A.
          assert (Big : 0 < IZR (2 ^ 53 - 1) * IZR (2 ^ 971)) by (apply Rmult_lt_0_compat; apply IZR_lt; reflexivity).
          assert (max_abs m <= IZR (2 ^ 53 - 1) * IZR (2 ^ 971)).
          { destruct M2 as [->|(i & j & Hi & Hj & <-)]; [lra|auto]. }
          assert (/ IZR (2 ^ 52) * max_abs m <= / 2 * max_abs m).
          { apply Rmult_le_compat_r; auto. apply Rinv_le_contravar; [lra|apply IZR_le; discriminate]. }
          lra. }
        destruct M2 as [Z|(i & j & Hi & Hj & E)].
        { exfalso. rewrite Z, Rmult_0_r in S. rewrite A in S. pose proof (Rabs_pos_lt _ (inv_diagonal _ _ _ _ _ F l Hl)). lra. }
        exists l, i, j. repeat split; auto. rewrite D, E, <- A by auto. exact S.
      * exfalso. destruct Q as (k & i & j & Hk & Hi & Hj & Q). rewrite D in Q by auto. pose proof (inv_smallest _ _ _ _ _ F k Hk).
        assert (/ IZR (2 ^ 52) * Rabs (mget m i j) <= / IZR (2 ^ 52) * max_abs m) by (apply Rmult_le_compat_l; [lra|auto]). lra.
    + intros e E. destruct (Rleb s sc); [injection E as <-; auto|discriminate].
    + destruct (Rleb s sc); discriminate.
  - split; [tauto|]. split; [intros f E; discriminate|]. split; [|discriminate]. intros e E. injection E as <-. auto.
Qed.

(** ** C76: linear systems *)
Theorem C76_solve n m b x : shape n n m -> length b = n -> mat_solve n m b = Ok x ->
  length x = n /\ equal_vectors n (times n (mget m) (vget x)) (vget b) /\
  forall y, equal_vectors n (times n (mget m) y) (vget b) -> equal_vectors n y (vget x).
Proof.
  intros H L E. unfold mat_solve, lu_decompose in E. pose proof (factor_spec n m H) as F.
  destruct (factor_lu n m) as [[g s]|e|]; try discriminate E. destruct (leb s _); [discriminate E|]. injection E as <-.
  destruct (done_solve n (mget m) g s F b L) as [L1 L2]. split; [exact L1|]. split; [exact L2|].
  intros y Hy i Hi. assert (Z : (fun k => y k - vget (lu_solve n g b) k) i = 0).
  { apply (done_nonsingular n (mget m) g s F (fun k => y k - vget (lu_solve n g b) k)); auto. intros r Hr. unfold times.
    rewrite (bsum_ext n _ (fun k => mget m r k * y k - mget m r k * vget (lu_solve n g b) k)) by (intros; ring).
    rewrite bsum_minus. specialize (Hy r Hr). specialize (L2 r Hr). unfold times in Hy, L2. lra. }
  cbv beta in Z. lra.
Qed.

(** Several right-hand sides at once. *)
Theorem C76_solve_matrix n k m f b : shape n n m -> lu_decompose n m = Ok f ->
  shape n k (lu_solve_matrix n k f b) /\ equal n k (product n (mget m) (mget (lu_solve_matrix n k f b))) (mget b).
Proof.
  intros H E. unfold lu_decompose in E. pose proof (factor_spec n m H) as F.
  destruct (factor_lu n m) as [[g s]|e|]; try discriminate E. destruct (leb s _); [discriminate E|]. injection E as <-.
  destruct (solve_columns_spec n k (lu_solve n g) b) as [C1 C2]. split; [exact C1|]. intros i j Hi Hj.
  destruct (done_solve n (mget m) g s F (from_fn n (fun row => mget b row j)) (from_fn_length _ _)) as [_ D]. specialize (D i Hi).
  rewrite vget_from_fn in D by auto. rewrite <- D. apply bsum_ext. intros l Hl. unfold lu_solve_matrix. rewrite C2 by auto. reflexivity.
Qed.

(** ** C77: the determinant, at every size *)
Theorem C77_determinant n m : shape n n m -> determinant n m = det n (mget m).
Proof.
  intros H. unfold determinant. do 5 (destruct n as [|n]; [cbn; try reflexivity; rnum; unfold without, skip; cbn; ring|]).
  unfold lu_for_determinant. pose proof (factor_spec _ m H) as F.
  destruct (factor_lu _ m) as [[g s]|e|]; [|destruct F as (_ & _ & ->); reflexivity|destruct F].
  apply (done_det _ (mget m) g s F).
Qed.
(** It is zero exactly when some vector other than zero is sent to zero. *)
Theorem C77_zero n m : shape n n m -> (determinant n m = 0 <-> singular n (mget m)).
Proof.
  intros H. rewrite C77_determinant by auto. pose proof (factor_spec n m H) as F.
  destruct (factor_lu n m) as [[g s]|e|]; [|tauto|destruct F]. split.
  - intros Z. destruct (done_det_nonzero n (mget m) g s F Z).
  - intros (x & (i & Hi & Nx) & K). destruct (Nx (done_nonsingular n (mget m) g s F x K i Hi)).
Qed.
(** The determinant of a factorization is that of the matrix. *)
Theorem C77_factored n m f : shape n n m -> lu_decompose n m = Ok f -> lu_determinant n f = det n (mget m).
Proof.
  intros H E. unfold lu_decompose in E. pose proof (factor_spec n m H) as F.
  destruct (factor_lu n m) as [[g s]|e|]; try discriminate E. destruct (leb s _); [discriminate E|]. injection E as <-.
  apply (done_det n (mget m) g s F).
Qed.

(** ** C78: the inverse, at every size *)
Lemma powi_nat_pos (x : R) (k : nat) : 0 <= x -> (k <= 4)%nat -> 0 <= powi x (Z.of_nat k).
Proof.
  intros H K. do 5 (destruct k as [|k]; [cbn; rnum; repeat apply Rmult_le_pos; lra|]). lia.
Qed.
Lemma near_singular_zero scale n : 0 <= scale -> (n <= 4)%nat -> det_near_singular 0 scale n = true.
Proof.
  intros H K. unfold det_near_singular. pose proof (powi_nat_pos scale n H K) as P. unfold of_nat. rnum. apply Rleb_true. rewrite Rabs_R0.
  apply Rmult_le_pos; auto. apply Rmult_le_pos. left. apply Rinv_0_lt_compat, IZR_lt. reflexivity. apply IZR_le. lia.
Qed.

Lemma inverse_two_sided n m x : shape n n m -> det n (mget m) <> 0 -> equal n n (product n (mget m) x) unit_matrix ->
  equal n n (product n x (mget m)) unit_matrix.
Proof.
  intros H D. apply right_left_inverse. intros v K i Hi. pose proof (factor_spec n m H) as F.
  destruct (factor_lu n m) as [[g s]|e|]; [|tauto|destruct F]. apply (done_nonsingular n (mget m) g s F v K i Hi).
Qed.

Theorem C78_inverse n m x : shape n n m -> mat_inverse n m = Ok x ->
  shape n n x /\ equal n n (product n (mget m) (mget x)) unit_matrix /\ equal n n (product n (mget x) (mget m)) unit_matrix.
Proof.
  intros H E.
  enough (G : shape n n x /\ det n (mget m) <> 0 /\ equal n n (product n (mget m) (mget x)) unit_matrix).
  { destruct G as (G1 & G2 & G3). split; [exact G1|]. split; [exact G3|]. apply inverse_two_sided; auto. }
  unfold mat_inverse in E. rewrite <- C77_determinant by auto.
  destruct n as [|[|[|[|[|n]]]]].
  - injection E as <-. split; auto. split; [cbn; lra|]. intros i j Hi; lia.
  - unfold inverse_1x1 in E. destruct (det_near_singular _ _ 1) eqn:S; [discriminate E|]. injection E as <-.
    assert (N : mget m 0 0 <> 0). { intros C. rewrite C in S. cbn [abs Rnum] in S. rewrite Rabs_R0, (near_singular_zero 0 1 (Rle_refl 0)) in S by lia. discriminate. }
    split; [apply shape_mset; auto|]. split; [exact N|]. intros i j Hi Hj. replace i with 0%nat by lia. replace j with 0%nat by lia.
    unfold product. cbn [bsum]. rewrite (mget_mset 1 1) by (auto; lia). cbn. field. exact N.
  - unfold inverse_2x2 in E. destruct (max_abs_spec 2 2 m H) as (M0 & _).
    destruct (det_near_singular (determinant_2x2 m) (max_abs m) 2) eqn:S; [discriminate E|]. injection E as <-.
    assert (N : determinant_2x2 m <> 0). { intros C. rewrite C, near_singular_zero in S by (auto; lia). discriminate. }
    split. { split; auto. intros i Hi. destruct i as [|[|i]]; try lia; reflexivity. } split; [exact N|].
    unfold determinant_2x2 in N. rnum. intros i j Hi Hj.
    destruct i as [|[|i]]; try lia; destruct j as [|[|j]]; try lia; cbn; unfold determinant_2x2; rnum; field; exact N.
  - unfold inverse_3x3 in E. destruct (max_abs_spec 3 3 m H) as (M0 & _).
    destruct (det_near_singular (determinant_3x3 m) (max_abs m) 3) eqn:S; [discriminate E|]. injection E as <-.
    assert (N : determinant_3x3 m <> 0). { intros C. rewrite C, near_singular_zero in S by (auto; lia). discriminate. }
    split. { split; auto. intros i Hi. destruct i as [|[|[|i]]]; try lia; reflexivity. } split; [exact N|].
    unfold determinant_3x3 in N. rnum. intros i j Hi Hj.
    destruct i as [|[|[|i]]]; try lia; destruct j as [|[|[|j]]]; try lia; cbn; unfold determinant_3x3; rnum; field; exact N.
  - unfold inverse_4x4 in E. destruct (max_abs_spec 4 4 m H) as (M0 & _). cbn [row_pair_minors] in E.
    match type of E with context [det_near_singular ?d _ _] => change d with (determinant_4x4 m) in E end.
    destruct (det_near_singular (determinant_4x4 m) (max_abs m) 4) eqn:S; [discriminate E|].
    assert (N : determinant_4x4 m <> 0). { intros C. rewrite C, near_singular_zero in S by (auto; lia). discriminate. }
    injection E as <-.
    split. { split; auto. intros i Hi. destruct i as [|[|[|[|i]]]]; try lia; reflexivity. } split; [exact N|].
    cbn in N. rnum. intros i j Hi Hj.
    destruct i as [|[|[|[|i]]]]; try lia; destruct j as [|[|[|[|j]]]]; try lia; cbn; unfold determinant_4x4; cbn; rnum; field; exact N.
  - unfold inverse_lu in E. destruct (lu_decompose _ m) as [f|e|] eqn:D; try discriminate E. injection E as <-.
    destruct (C76_solve_matrix _ (S (S (S (S (S n))))) m f (identity (S (S (S (S (S n)))))) H D) as [C1 C2]. split; [exact C1|]. split.
    + rewrite C77_determinant by auto. unfold lu_decompose in D. pose proof (factor_spec _ m H) as F.
      destruct (factor_lu _ m) as [[g s]|e|]; try discriminate D. apply (done_det_nonzero _ _ _ _ F).
    + intros i j Hi Hj. unfold lu_inverse. rewrite C2 by auto. rewrite mget_identity by auto. reflexivity.
Qed.

(** A singular matrix is refused as singular. *)
Theorem C78_refuses n m : shape n n m -> singular n (mget m) -> mat_inverse n m = Err LaSingular.
Proof.
  intros H Sg. pose proof (proj2 (C77_zero n m H) Sg) as D. unfold mat_inverse. destruct (max_abs_spec n n m H) as (M0 & _).
  destruct n as [|[|[|[|[|n]]]]].
  - cbn in D. lra.
  - cbn in D. unfold inverse_1x1. rewrite D, near_singular_zero; auto. cbn. rewrite Rabs_R0. lra.
  - cbn [determinant] in D. unfold inverse_2x2. rewrite D, near_singular_zero; auto.
  - cbn [determinant] in D. unfold inverse_3x3. rewrite D, near_singular_zero; auto.
  - cbn [determinant] in D. unfold inverse_4x4. cbn [row_pair_minors]. 
    match goal with |- context [det_near_singular ?d _ _] => change d with (determinant_4x4 m) end. rewrite D, near_singular_zero; auto.
  - unfold inverse_lu. rewrite (proj2 (proj1 (C75_refuses _ m H)) Sg). reflexivity.
Qed.
(** Up to 4 x 4, one is accepted when its determinant exceeds 2^-52 n (largest entry)^n; a 1 x 1 when it is not zero. *)
Theorem C78_accepts n m largest : shape n n m -> (1 <= n <= 4)%nat ->
  (forall i j, (i < n)%nat -> (j < n)%nat -> Rabs (mget m i j) <= largest) ->
  / IZR (2 ^ 52) * INR n * largest ^ n < Rabs (det n (mget m)) -> exists x, mat_inverse n m = Ok x.
Proof.
  intros H Hn B D. rewrite <- C77_determinant in D by auto. destruct (max_abs_spec n n m H) as (M0 & M1 & M2).
  assert (Hl : max_abs m <= largest).
  { destruct M2 as [->|(i & j & Hi & Hj & <-)]; [|auto]. specialize (B 0%nat 0%nat ltac:(lia) ltac:(lia)). pose proof (Rabs_pos (mget m 0 0)). lra. }
  assert (P : 0 < / IZR (2 ^ 52)) by (apply Rinv_0_lt_compat, IZR_lt; reflexivity).
  assert (G : forall s, 0 <= s <= largest -> det_near_singular (determinant n m) s n = false).
  { intros s Hs. unfold det_near_singular, of_nat. rnum. apply Rleb_false. eapply Rle_lt_trans; [|exact D].
    replace (powi s (Z.of_nat n)) with (s ^ n).
    2:{ destruct n as [|[|[|[|[|n]]]]]; try lia; cbn; rnum; ring. }
    rewrite <- INR_IZR_INZ. apply Rmult_le_compat_l. apply Rmult_le_pos; [lra|apply pos_INR]. apply pow_incr. exact Hs. }
  unfold mat_inverse. destruct n as [|[|[|[|[|n]]]]]; try lia.
  - unfold inverse_1x1. rewrite (G (abs (mget m 0 0))). eauto. cbn. split; [apply Rabs_pos|apply B; lia].
  - unfold inverse_2x2. change (determinant_2x2 m) with (determinant 2 m). rewrite (G (max_abs m)); eauto.
  - unfold inverse_3x3. change (determinant_3x3 m) with (determinant 3 m). rewrite (G (max_abs m)); eauto.
  - unfold inverse_4x4. cbn [row_pair_minors].
    match goal with |- context [det_near_singular ?d _ _] => change d with (determinant 4 m) end. rewrite (G (max_abs m)); eauto.
Qed.

(** ** Any scalar *)
Section Any.
  Context {T : Type} {NT : Num T}.

  Lemma pivot_search_range n k (a : mat T) : (k < n)%nat -> (k <= fst (pivot_search n k a) < n)%nat.
  Proof.
    intros H. unfold pivot_search.
    apply (for_loop (fun i (st : nat * T) => (k <= fst st < n)%nat)); [lia|cbn; lia|].
    intros i [p b] Hi Hp. cbn. destruct (ltb _ _); cbn in *; lia.
  Qed.
  Lemma lu_step_any n k (f : lu T) s : (k < n)%nat -> shape n n (lu_matrix f) -> Permutation (lu_perm f) (seq 0 n) ->
    match lu_step n k f s with
    | Ok (g, _) => shape n n (lu_matrix g) /\ Permutation (lu_perm g) (seq 0 n)
    | Err e => e = LaSingular
    | Panic => False
    end.
  Proof.
    intros Hk Hs Hp. unfold lu_step. pose proof (pivot_search_range n k (lu_matrix f) Hk) as P.
    destruct (pivot_search n k (lu_matrix f)) as [p b]. cbn [fst] in P. destruct (eqb b zero); [reflexivity|].
    destruct (Nat.eqb p k) eqn:E; cbn [negb lu_matrix lu_perm].
    - split; [apply eliminate_spec|]; auto.
    - split; [apply eliminate_spec; [apply shape_swap|]|apply permutation_swap]; auto; lia.
  Qed.
  Lemma lu_steps_any n : forall ks (f : lu T) s, (forall k, In k ks -> (k < n)%nat) -> shape n n (lu_matrix f) -> Permutation (lu_perm f) (seq 0 n) ->
    match lu_steps n ks f s with
    | Ok (g, _) => shape n n (lu_matrix g) /\ Permutation (lu_perm g) (seq 0 n)
    | Err e => e = LaSingular
    | Panic => False
    end.
  Proof.
    induction ks as [|k ks IH]; intros f s Hk Hs Hp; cbn [lu_steps]; [auto|].
    pose proof (lu_step_any n k f s (Hk k (or_introl eq_refl)) Hs Hp) as Q.
    destruct (lu_step n k f s) as [[g s']|e|]; auto. destruct Q as [Q1 Q2]. apply IH; auto. intros k' K. apply Hk. right; exact K.
  Qed.

  (** Whatever the arithmetic does, no index is out of range and the rows are only permuted. *)
Theorem C75_any_scalar n (m : mat T) : shape n n m ->
    lu_decompose n m <> Panic /\
    forall f, lu_decompose n m = Ok f -> Permutation (lu_perm f) (seq 0 n) /\
      (forall i j, (i < n)%nat -> (j < n)%nat -> (i = j -> mget (lu_lower n f) i j = one) /\ ((i < j)%nat -> mget (lu_lower n f) i j = zero)) /\
      (forall i j, (i < n)%nat -> (j < n)%nat -> (j < i)%nat -> mget (lu_upper n f) i j = zero).
  Proof.
    intros H. unfold lu_decompose, factor_lu.
    pose proof (lu_steps_any n (range 0 n) {| lu_matrix := m; lu_perm := from_fn n (fun i => i); lu_sign := one |} max_value) as Q.
    specialize (Q (fun k K => proj2 (proj1 (in_range 0 n k) K)) H). cbn [lu_perm] in Q.
    unfold from_fn in Q at 1. rewrite map_id in Q. specialize (Q (Permutation_refl _)).
    unfold from_fn at 1 2. rewrite map_id. unfold from_fn in Q; rewrite map_id in Q.
    destruct (lu_steps n (range 0 n) _ max_value) as [[g s]|e|]; [|split; discriminate|destruct Q].
    destruct Q as [Q1 Q2]. split. { destruct (leb s _); discriminate. }
    intros f E. destruct (leb s _); [discriminate E|]. injection E as <-. split; [exact Q2|]. split.
    - intros i j Hi Hj. unfold lu_lower. rewrite mget_mat_fn by auto. split; intros L; nat_case; reflexivity.
    - intros i j Hi Hj L. unfold lu_upper. rewrite mget_mat_fn by auto. nat_case. reflexivity.
  Qed.
End Any.

(** ** Concrete cases *)
Definition sample : mat R := [[0; 2]; [1; 1]].
Lemma sample_shape : shape 2 2 sample.
Proof. split; [reflexivity|]. intros [|[|i]] H; try reflexivity; lia. Qed.
Lemma pivot_search_sample0 : pivot_search 2 0 sample = (1%nat, 1).
Proof.
  unfold pivot_search, sample. cbn. rewrite Rabs_R0, Rabs_R1. rdecide. reflexivity.
Qed.
Lemma sample_factored : exists f, lu_decompose 2 sample = Ok f /\ lu_perm f = [1; 0]%nat.
Proof.
  unfold lu_decompose, factor_lu. change (range 0 2) with [0; 1]%nat. cbn [lu_steps]. unfold lu_step at 1. cbn [lu_matrix].
  rewrite pivot_search_sample0. rnum. replace (Reqb 1 0) with false by (symmetry; apply Reqb_false; lra).
  cbn [Nat.eqb negb lu_perm lu_sign].
  set (g := eliminate 2 0 _).
  assert (G : mget g 1 1 = 2). { unfold g, sample. cbn. field. }
  unfold lu_step. cbn [lu_matrix]. unfold pivot_search. change (range (1 + 1) 2) with (@nil nat). cbn [fold_left].
  rewrite G. rnum. rewrite (Rabs_pos_eq 2) by lra. replace (Reqb 2 0) with false by (symmetry; apply Reqb_false; lra).
  cbn [Nat.eqb negb lu_perm lu_sign].
  assert (M : max_abs sample = 2). { unfold max_abs, sample. cbn. rewrite Rabs_R0, Rabs_R1, (Rabs_pos_eq 2) by lra. unfold Rmax. repeat destruct (Rle_dec _ _); lra. }
  rewrite M. match goal with |- context [Rleb ?a ?b] => replace (Rleb a b) with false end.
  - eexists. split; [reflexivity|]. reflexivity.
  - symmetry. apply Rleb_false. assert (/ IZR (2 ^ 52) * 2 <= / 4 * 2).
    { apply Rmult_le_compat_r; [lra|]. apply Rinv_le_contravar; [lra|apply IZR_le; discriminate]. }
    apply Rmin_glb_lt; [|lra]. apply Rmin_glb_lt; [|lra].
    assert (1 <= max_value). { change (IZR 1 <= IZR (2 ^ 53 - 1) * IZR (2 ^ 971)). rewrite <- mult_IZR. apply IZR_le. discriminate. }
    lra.
Qed.
Example C75_example : exists f, shape 2 2 sample /\ lu_decompose 2 sample = Ok f /\ lu_perm f = [1; 0]%nat.
Proof. destruct sample_factored as (f & E & P). exists f. split; [apply sample_shape|auto]. Qed.
Example C75_refuses_example : shape 2 2 [[1; 2]; [2; 4]] /\ singular 2 (mget [[1; 2]; [2; 4]]).
Proof.
  split. { split; [reflexivity|]. intros [|[|i]] H; try reflexivity; lia. }
  exists (fun i => match i with O => 2 | _ => -1 end). split. { exists 0%nat. split; [lia|lra]. }
  intros [|[|i]] H; try lia; unfold times; cbn; ring.
Qed.
Example C76_example : exists x, shape 2 2 sample /\ length [3; 4] = 2%nat /\ mat_solve 2 sample [3; 4] = Ok x.
Proof.
  destruct sample_factored as (f & E & P). eexists. split; [apply sample_shape|]. split; [reflexivity|].
  unfold mat_solve. rewrite E. reflexivity.
Qed.
Example C77_example : determinant 2 sample = -2 /\ determinant 5 (from_diagonal 5 [1; 2; 3; 4; 5]) = 120.
Proof.
  split; [cbn; ring|]. rewrite C77_determinant by apply shape_from_diagonal.
  rewrite det_upper. cbn. ring. intros i j Hi Hj L. rewrite mget_from_diagonal by auto. nat_case. reflexivity.
Qed.
Example C78_example : exists x, shape 2 2 sample /\ mat_inverse 2 sample = Ok x.
Proof.
  destruct (C78_accepts 2 sample 2 sample_shape) as (x & E); [lia| | |].
  - intros [|[|i]] [|[|j]] Hi Hj; try lia; cbn; rewrite Rabs_pos_eq; lra.
  - cbn [det]. unfold sample. cbn. unfold without, skip; cbn.
    assert (/ IZR (2 ^ 52) <= / 100). { apply Rinv_le_contravar; [lra|apply IZR_le; discriminate]. }
    match goal with |- _ < Rabs ?e => replace e with (-2) by ring end. rewrite Rabs_left by lra. cbn in H. lra.
  - exists x. split; [apply sample_shape|exact E].
Qed.
(** A 1 x 1 matrix holding NaN is accepted: no test refuses a pivot that is not a number. *)
Example C75_not_a_number lm : match @lu_decompose _ (f64num lm) 1 [[B754_nan]] with Ok _ => True | _ => False end.
Proof. vm_compute. exact I. Qed.

Print Assumptions C75_factor.
Print Assumptions C75_refuses.
Print Assumptions C75_any_scalar.
Print Assumptions C76_solve.
Print Assumptions C76_solve_matrix.
Print Assumptions C77_determinant.
Print Assumptions C77_zero.
Print Assumptions C77_factored.
Print Assumptions C78_inverse.
Print Assumptions C78_refuses.
Print Assumptions C78_accepts.
