(** The matrix exponential's scaling, approximant and squaring. *)
From Coq Require Import ZArith Reals List Bool Arith Lia Lra Psatz FunctionalExtensionality Permutation.
From Coquelicot Require Import Coquelicot.
From Verif Require Import Base.Scalar Base.RNum Base.Lists Base.Series Base.Det Model.Errors Model.Vector Model.Matrix Model.Lu Model.Expm.
From Verif Require Import Spec.Matrix Spec.MatrixExp Proofs.Matrix Proofs.Lu Proofs.Algebra Proofs.Lyapunov Proofs.SavGol Proofs.MatrixSeries Proofs.Pade.
From Verif Require Import Props.Lu.
Import ListNotations.
Local Open Scope R_scope.

Lemma one_norm_spec n (m : mat R) : one_norm n m = column_norm n (mget m).
Proof.
  assert (C : forall k j, fold_left (fun col i => col + Rabs (mget m i j)) (seq 0 k) 0 = bsum k (fun i => Rabs (mget m i j))).
  { intros k j. induction k as [|k IH]; [reflexivity|]. rewrite seq_S, fold_left_app. cbn [fold_left]. rewrite IH. reflexivity. }
  pose (step := fun (nrm : R) (j : nat) => if Rltb nrm (bsum n (fun i => Rabs (mget m i j))) then bsum n (fun i => Rabs (mget m i j)) else nrm).
  assert (E : one_norm n m = fold_left step (seq 0 n) 0).
  { unfold one_norm. assert (Q : forall l x, fold_left (fun (nrm : R) j => let col := fold_left (fun col i => col + Rabs (mget m i j)) (seq 0 n) 0 in if Rltb nrm col then col else nrm) l x = fold_left step l x).
    { induction l as [|j l IH]; intros x; [reflexivity|]. simpl. rewrite IH, C. reflexivity. }
    apply Q. }
  rewrite E. unfold column_norm. generalize n at 1 2. induction n0 as [|k IH]; [reflexivity|]. rewrite seq_S, fold_left_app, IH. cbn [fold_left largest Nat.add]. unfold step at 1. destruct (Rltb _ _) eqn:L; rcases; [rewrite Rmax_right by lra; reflexivity|rewrite Rmax_left by lra; reflexivity].
Qed.
Lemma halvings_spec fuel : forall (x : R) s t, halvings fuel x s = Some t ->
  exists k, t = (s + k)%nat /\ (k <= fuel)%nat /\ x * (/ 2) ^ k <= / 2 /\ ((0 < k)%nat -> / 2 < x * (/ 2) ^ (k - 1)).
Proof.
  induction fuel as [|fuel IH]; intros x s t H; cbn [halvings] in H; change (ltb half x) with (Rltb (/ 2) x) in H; destruct (Rltb (/ 2) x) eqn:E; rcases; try discriminate H.
  - injection H as <-. exists 0%nat. repeat split; try lia. cbn. lra.
  - change (x * half)%num with (x * / 2) in H. destruct (IH _ _ _ H) as (k & -> & K & B & A). exists (S k). split; [lia|]. split; [lia|]. split; [cbn [pow]; lra|]. intros _. replace (S k - 1)%nat with k by lia. destruct k as [|k]; [cbn; lra|]. specialize (A ltac:(lia)). replace (S k - 1)%nat with k in A by lia. cbn [pow]. lra.
  - injection H as <-. exists 0%nat. repeat split; try lia. cbn. lra.
Qed.
Lemma halvings_end (x : R) : exists k, forall fuel s, (k <= fuel)%nat -> exists t, halvings fuel x s = Some t.
Proof.
  assert (G : forall k y, y * (/ 2) ^ k <= / 2 -> forall fuel s, (k <= fuel)%nat -> exists t, halvings fuel y s = Some t).
  { induction k as [|k IH]; intros y B fuel s F.
    - exists s. destruct fuel; cbn [halvings]; change (ltb half y) with (Rltb (/ 2) y); destruct (Rltb (/ 2) y) eqn:E; rcases; auto; cbn in B; lra.
    - destruct fuel as [|fuel]; [lia|]. cbn [halvings]. destruct (ltb half y); [|eauto]. apply IH; [|lia]. change (y * half)%num with (y * / 2). cbn [pow] in B. lra. }
  destruct (Rle_dec x 0) as [N|N]; [exists 0%nat; apply G; cbn; lra|].
  destruct (pow_lt_1_zero (/ 2) ltac:(rewrite Rabs_pos_eq; lra) (/ (2 * x)) ltac:(apply Rinv_0_lt_compat; lra)) as [k K]. exists k. apply G. specialize (K k (Nat.le_refl k)). rewrite Rabs_pos_eq in K by (apply pow_le; lra).
  apply Rmult_le_reg_l with (/ x); [apply Rinv_0_lt_compat; lra|]. rewrite <- Rmult_assoc, Rinv_l by lra. rewrite Rinv_mult in K. lra.
Qed.
Lemma pade_coefficient_spec k : (k <= 6)%nat -> pade_coefficient k = numer k.
Proof.
  intros H. do 7 (destruct k as [|k]; [cbn [pade_coefficient numer Z.of_nat Pos.of_succ_nat Pos.succ]; rnum; simpl Z.sub; simpl Z.add; simpl Z.mul; lra|]). lia.
Qed.
Lemma mget_scale n k (m : mat R) s : equal n k (mget (mat_scale n k m s)) (scaled_matrix s (mget m)).
Proof. intros i j Hi Hj. unfold mat_scale. rewrite mget_mat_fn by auto. unfold scaled_matrix. rnum. ring. Qed.
Lemma shape_scale n k (m : mat R) s : shape n k (mat_scale n k m s).
Proof. apply shape_mat_fn. Qed.
Lemma mget_sum n k (a b : mat R) : shape n k a -> shape n k b -> equal n k (mget (mat_add a b)) (plus_matrix (mget a) (mget b)).
Proof. intros Sa Sb i j Hi Hj. unfold mat_add. rewrite (mget_map2 add n k) by auto. reflexivity. Qed.
Lemma pade_sums_spec n (a : mat R) : forall k, (k <= 7)%nat -> let '(apow, num, den) := pade_sums n a k in
  shape n n apow /\ shape n n num /\ shape n n den /\ equal n n (mget apow) (power n (mget a) (Nat.min k 6)) /\
  equal n n (mget num) (fun i j => bsum k (fun l => numer l * power n (mget a) l i j)) /\ equal n n (mget den) (fun i j => bsum k (fun l => denom l * power n (mget a) l i j)).
Proof.
  induction k as [|k IH]; intros Hk.
  - cbn [pade_sums]. split; [apply shape_identity|]. split; [apply shape_zeros|]. split; [apply shape_zeros|]. split; [intros i j Hi Hj; rewrite mget_identity by auto; reflexivity|].
    split; intros i j Hi Hj; unfold mat_zeros; rewrite mget_mat_fn by auto; reflexivity.
  - cbn [pade_sums]. specialize (IH ltac:(lia)). destruct (pade_sums n a k) as [[apow num] den]. destruct IH as (S1 & S2 & S3 & E1 & E2 & E3). rewrite pade_coefficient_spec by lia. rewrite Nat.min_l in E1 by lia.
    split; [destruct (Nat.ltb k 6); [apply shape_mat_fn|auto]|]. split; [apply shape_map2; auto; apply shape_mat_fn|]. split; [apply shape_map2; auto; apply shape_mat_fn|]. split; [|split].
    + destruct (Nat.ltb_spec k 6) as [L|L].
      * rewrite Nat.min_l by lia. intros i j Hi Hj. rewrite mget_mul by auto. cbn [power]. apply product_ext; auto.
      * rewrite Nat.min_r by lia. replace k with 6%nat in E1 by lia. exact E1.
    + intros i j Hi Hj. rewrite (mget_sum n n num _ S2 (shape_scale _ _ _ _) i j Hi Hj). unfold plus_matrix. rewrite (mget_scale n n _ _ i j Hi Hj). unfold scaled_matrix. cbn [bsum]. rewrite E2, E1 by auto. reflexivity.
    + intros i j Hi Hj. rewrite (mget_sum n n den _ S3 (shape_scale _ _ _ _) i j Hi Hj). unfold plus_matrix. rewrite (mget_scale n n _ _ i j Hi Hj). unfold scaled_matrix. cbn [bsum]. rewrite E3, E1 by auto. unfold denom at 3. destruct (Nat.even k); rnum; ring.
Qed.
Lemma pade_sums_series n (a : mat R) : let '(apow, num, den) := pade_sums n a 7 in
  shape n n num /\ shape n n den /\ equal n n (mget num) (series n (mget a) numer) /\ equal n n (mget den) (series n (mget a) denom).
Proof.
  pose proof (pade_sums_spec n a 7 (Nat.le_refl 7)) as H. destruct (pade_sums n a 7) as [[apow num] den]. destruct H as (_ & S2 & S3 & _ & E2 & E3). split; [exact S2|]. split; [exact S3|].
  split; intros i j Hi Hj; [rewrite E2 by auto; rewrite (series_finite n (mget a) numer 7); [reflexivity|apply numer_high]|rewrite E3 by auto; rewrite (series_finite n (mget a) denom 7); [reflexivity|apply denom_high]].
Qed.
Lemma squared_spec n : forall s (m : mat R), shape n n m -> shape n n (squared n s m) /\ equal n n (mget (squared n s m)) (power n (mget m) (2 ^ s)).
Proof.
  induction s as [|s IH]; intros m S; cbn [squared].
  - split; [exact S|]. apply equal_sym, power_one.
  - destruct (IH (mat_mul n n n m m) ltac:(apply shape_mat_fn)) as [I1 I2]. split; [exact I1|]. eapply equal_trans; [exact I2|]. rewrite Nat.pow_succ_r'. replace (2 * 2 ^ s)%nat with (2 ^ s + 2 ^ s)%nat by lia.
    assert (Q : equal n n (mget (mat_mul n n n m m)) (power n (mget m) 2)). { intros i j Hi Hj. rewrite mget_mul by auto. cbn [power]. apply product_ext; auto. intros k Hk. symmetry. apply product_unit_l; auto. }
    eapply equal_trans; [apply power_ext, Q|]. clear. generalize (2 ^ s)%nat. induction n0 as [|k IH]; [apply equal_refl|]. cbn [power Nat.add]. rewrite Nat.add_succ_r. cbn [power]. eapply equal_trans; [apply product_left, IH|].
    eapply equal_trans; [apply (power_plus n (mget m) (k + k) 2)|]. replace (k + k + 2)%nat with (S (S (k + k))) by lia. cbn [power]. apply equal_refl.
Qed.

(** ** The denominator is never refused *)
Lemma bsum_const n x : bsum n (fun _ => x) = INR n * x.
Proof. induction n as [|m IH]; cbn [bsum]; [cbn; ring|rewrite IH, S_INR; ring]. Qed.
Section Accepted.
  Variables (n : nat) (den : mat R) (c : R).
  Hypothesis S : shape n n den.
  Hypothesis C0 : 0 < c.
  Hypothesis lower : forall x, bsum n (fun i => Rabs (x i)) * c <= bsum n (fun i => Rabs (times n (mget den) x i)).
  Lemma abs_below x i : (i < n)%nat -> Rabs (x i) <= bsum n (fun k => Rabs (x k)).
  Proof. intros Hi. rewrite <- (bsum_delta n i (Rabs (x i))) at 1 by auto. apply bsum_le. intros k Hk. destruct (Nat.eqb_spec k i) as [->|Nk]; [lra|apply Rabs_pos]. Qed.
  Lemma kernel_trivial x : equal_vectors n (times n (mget den) x) (fun _ => 0) -> forall i, (i < n)%nat -> x i = 0.
  Proof.
    intros H i Hi. pose proof (lower x) as L. rewrite (bsum_ext n (fun i => Rabs (times n (mget den) x i)) (fun _ => 0)) in L by (intros k Hk; rewrite H by auto; apply Rabs_R0). rewrite bsum_0 in L.
    pose proof (abs_below x i Hi). pose proof (Rabs_pos (x i)). assert (Z : Rabs (x i) = 0) by nra. destruct (Req_dec (x i) 0) as [Q|Q]; auto. apply Rabs_no_R0 in Q. lra.
  Qed.
  Lemma pivots_bounded f s : inv n (mget den) n f s -> forall k, (k < n)%nat -> c <= INR n * Rabs (mget (lu_upper n f) k k).
  Proof.
    intros I k Hk. set (L := mget (lu_lower n f)). set (U := mget (lu_upper n f)).
    (* the vector the upper triangle sends to its k-th pivot *)
    set (rhs := fun i => L i k * U k k).
    assert (X : exists x, equal_vectors n (fun i => times n (mget den) x (nth i (lu_perm f) 0%nat)) rhs).
    { pose proof (inv_perm _ _ _ _ _ I) as Pm.
      set (b := from_fn n (fun row => fold_left (fun acc i => if Nat.eqb (nth i (lu_perm f) 0%nat) row then rhs i else acc) (seq 0 n) 0)).
      destruct (done_solve n (mget den) f s I b (from_fn_length _ _)) as [_ D]. exists (vget (lu_solve n f b)). intros i Hi. pose proof (permutation_lt _ _ i Pm Hi) as Hp. rewrite (D _ Hp). unfold b. rewrite vget_from_fn by auto.
      assert (ND : NoDup (lu_perm f)) by (apply (Permutation_NoDup (Permutation_sym Pm)), seq_NoDup). assert (Len : length (lu_perm f) = n) by (rewrite (Permutation_length Pm); apply seq_length).
      assert (G : forall m acc, (m <= n)%nat -> fold_left (fun acc i0 => if Nat.eqb (nth i0 (lu_perm f) 0%nat) (nth i (lu_perm f) 0%nat) then rhs i0 else acc) (seq 0 m) acc = if Nat.ltb i m then rhs i else acc).
      { induction m as [|m IH]; intros acc Hm; [reflexivity|]. rewrite seq_S, fold_left_app. cbn [fold_left Nat.add]. rewrite IH by lia.
        destruct (Nat.eqb_spec (nth m (lu_perm f) 0%nat) (nth i (lu_perm f) 0%nat)) as [Q|Q].
        - assert (m = i) by (apply (proj1 (NoDup_nth (lu_perm f) 0%nat) ND); lia || auto). subst m. destruct (Nat.ltb_spec i (Datatypes.S i)); [reflexivity|lia].
        - destruct (Nat.ltb_spec i m), (Nat.ltb_spec i (Datatypes.S m)); try lia; auto. exfalso. apply Q. f_equal. lia. }
      rewrite G by lia. destruct (Nat.ltb_spec i n); [reflexivity|lia]. }
    destruct X as [x X].
    assert (UX : forall i, (i < n)%nat -> times n U x i = if Nat.eqb i k then U k k else 0).
    { assert (Z : forall i, (i < n)%nat -> (fun i => times n U x i - (if Nat.eqb i k then U k k else 0)) i = 0).
      { apply (lower_kernel n (mget (lu_matrix f))). intros i Hi. specialize (X i Hi). cbv beta in X. unfold rhs in X.
        assert (T : times n (mget den) x (nth i (lu_perm f) 0%nat) = times n L (times n U x) i).
        { rewrite <- times_product. unfold times. apply bsum_ext. intros j Hj. rewrite <- (done_product n (mget den) f s I i j Hi Hj). reflexivity. }
        rewrite T in X. unfold times at 1 in X. rewrite (bsum_split n i) in X by auto.
        rewrite (bsum_ext (n - (i + 1)) _ (fun _ => 0)) in X by (intros j Hj; unfold L; rewrite (done_lower n f) by lia; destruct (Nat.eqb_spec i (i + 1 + j)); [lia|]; destruct (Nat.ltb_spec (i + 1 + j) i); [lia|ring]). rewrite bsum_0 in X.
        assert (LD : L i i = 1) by (unfold L; rewrite (done_lower n f) by lia; rewrite Nat.eqb_refl; reflexivity). rewrite LD in X.
        rewrite (bsum_ext i (fun j => mget (lu_matrix f) i j * _) (fun j => L i j * times n U x j - L i j * (if Nat.eqb j k then U k k else 0))).
        2:{ intros j Hj. unfold L. rewrite (done_lower n f) by lia. destruct (Nat.eqb_spec i j); [lia|]. destruct (Nat.ltb_spec j i); [ring|lia]. }
        rewrite bsum_minus. 
        assert (W : bsum i (fun j => L i j * (if Nat.eqb j k then U k k else 0)) + (if Nat.eqb i k then U k k else 0) = L i k * U k k).
        { destruct (Nat.eqb_spec i k) as [->|N].
          - rewrite (bsum_ext k _ (fun _ => 0)) by (intros j Hj; destruct (Nat.eqb_spec j k); [lia|ring]). rewrite bsum_0, LD. ring.
          - destruct (Nat.lt_ge_cases k i) as [G|G].
            + rewrite (bsum_ext i _ (fun j => if Nat.eqb j k then L i k * U k k else 0)) by (intros j Hj; destruct (Nat.eqb_spec j k) as [->|]; ring). rewrite bsum_delta by auto. ring.
            + rewrite (bsum_ext i _ (fun _ => 0)) by (intros j Hj; destruct (Nat.eqb_spec j k); [lia|ring]). rewrite bsum_0. unfold L. rewrite (done_lower n f) by lia. destruct (Nat.eqb_spec i k); [lia|]. destruct (Nat.ltb_spec k i); [lia|ring]. }
        lra. }
      intros i Hi. specialize (Z i Hi). cbv beta in Z. lra. }
    assert (UD : forall i, (i < n)%nat -> U i i <> 0).
    { intros i Hi. unfold U. rewrite (done_upper n f) by auto. rewrite Nat.leb_refl. apply (inv_diagonal _ _ _ _ _ I); auto. }
    assert (UL : forall i j, (i < n)%nat -> (j < n)%nat -> (j < i)%nat -> U i j = 0).
    { intros i j Hi Hj Lt. unfold U. rewrite (done_upper n f) by auto. destruct (Nat.leb_spec i j); [lia|reflexivity]. }
    assert (XZ : forall d i, (n - i <= d)%nat -> (k < i < n)%nat -> x i = 0).
    { induction d as [|d IH]; intros i Hd Hi; [lia|]. pose proof (UX i ltac:(lia)) as Q. destruct (Nat.eqb_spec i k); [lia|]. unfold times in Q. rewrite (bsum_split n i) in Q by lia.
      rewrite (bsum_ext i _ (fun _ => 0)) in Q by (intros j Hj; rewrite UL by lia; ring). rewrite bsum_0 in Q. rewrite (bsum_ext (n - (i + 1)) _ (fun _ => 0)) in Q by (intros j Hj; rewrite (IH (i + 1 + j)%nat) by lia; ring). rewrite bsum_0 in Q.
      apply Rmult_eq_reg_l with (U i i); [lra|apply UD; lia]. }
    assert (XK : x k = 1).
    { pose proof (UX k Hk) as Q. rewrite Nat.eqb_refl in Q. unfold times in Q. rewrite (bsum_split n k) in Q by lia.
      rewrite (bsum_ext k _ (fun _ => 0)) in Q by (intros j Hj; rewrite UL by lia; ring). rewrite bsum_0 in Q. rewrite (bsum_ext (n - (k + 1)) _ (fun _ => 0)) in Q by (intros j Hj; rewrite (XZ n (k + 1 + j)%nat) by lia; ring). rewrite bsum_0 in Q.
      apply Rmult_eq_reg_l with (U k k); [lra|apply UD; auto]. }
    pose proof (lower x) as LW. pose proof (abs_below x k Hk) as AB. rewrite XK, Rabs_R1 in AB.
    assert (LB : forall i, (i < n)%nat -> Rabs (L i k) <= 1).
    { intros i Hi. unfold L. rewrite (done_lower n f) by auto. destruct (Nat.eqb_spec i k); [rewrite Rabs_R1; lra|]. destruct (Nat.ltb_spec k i); [|rewrite Rabs_R0; lra]. apply (inv_multipliers _ _ _ _ _ I); lia. }
    assert (UB : bsum n (fun i => Rabs (times n (mget den) x i)) <= bsum n (fun _ => Rabs (U k k))).
    { apply bsum_le. intros r Hr. destruct (permutation_onto _ _ r (inv_perm _ _ _ _ _ I) Hr) as (i & Hi & <-). specialize (X i Hi). cbv beta in X. rewrite X. unfold rhs. rewrite Rabs_mult. pose proof (LB i Hi). pose proof (Rabs_pos (U k k)). nra. }
    rewrite bsum_const in UB. nra.
  Qed.
  Lemma never_refused b : (forall i j, (i < n)%nat -> (j < n)%nat -> Rabs (mget den i j) <= b) -> 1 <= b <= 2 -> INR n * (2 * b) < c * 2 ^ 52 -> exists f, lu_decompose n den = Ok f.
  Proof.
    intros B B1 N. unfold lu_decompose. pose proof (factor_spec n den S) as F. destruct (factor_lu n den) as [[f s]|e|]; [| |destruct F].
    - match goal with |- context [leb ?x ?y] => change (leb x y) with (Rleb s (/ IZR (2 ^ 52) * max_abs den)) end. destruct (Rleb _ _) eqn:E; [|eauto]. exfalso. rcases.
      destruct (max_abs_spec n n den S) as (M0 & M1 & M2). assert (MB : max_abs den <= b). { destruct M2 as [->|(i & j & Hi & Hj & <-)]; [lra|auto]. }
      assert (P52 : 0 < 2 ^ 52) by (apply pow_lt; lra). change (2 ^ 52)%Z with (2 ^ Z.of_nat 52)%Z in E. rewrite <- (pow_IZR 2 52) in E.
      assert (I52 : / 2 ^ 52 * 2 ^ 52 = 1) by (apply Rinv_l; lra). assert (Q52 : 0 < / 2 ^ 52) by (apply Rinv_0_lt_compat; auto).
      destruct (inv_attained _ _ _ _ _ F) as [Mx|(l & Hl & Q)].
      + assert (2 <= s). { rewrite Mx. change (max_value : R) with (IZR (2 ^ 53 - 1) * IZR (2 ^ 971)). assert (1 <= IZR (2 ^ 971)) by (apply IZR_le; discriminate). assert (2 <= IZR (2 ^ 53 - 1)) by (apply IZR_le; discriminate). nra. }
        assert (/ 2 ^ 52 <= 1). { rewrite <- Rinv_1. apply Rinv_le_contravar; [lra|]. apply pow_R1_Rle. lra. } nra.
      + pose proof (pivots_bounded f s F l Hl) as PB. rewrite (done_upper n f) in PB by auto. rewrite Nat.leb_refl in PB. rewrite <- Q in PB. pose proof (pos_INR n).
        assert (s <= / 2 ^ 52 * b) by nra. assert (c <= INR n * (/ 2 ^ 52 * b)) by nra. assert (c * 2 ^ 52 <= INR n * b) by (apply Rle_trans with (INR n * (/ 2 ^ 52 * b) * 2 ^ 52); [apply Rmult_le_compat_r; lra|]; right; rewrite <- (Rmult_1_r (INR n * b)), <- I52; ring). nra.
    - exfalso. destruct F as (_ & (x & (i & Hi & Nx) & K) & _). apply Nx. apply (kernel_trivial x K i Hi).
  Qed.
End Accepted.

(** ** One call *)
Lemma matrix_exp_ext n a b : equal n n a b -> equal n n (matrix_exp n a) (matrix_exp n b).
Proof. intros H i j Hi Hj. unfold matrix_exp. apply Series_ext. intros k. rewrite (power_ext n a b k H i j Hi Hj). reflexivity. Qed.
Lemma series_matrix_ext n a b c : equal n n a b -> equal n n (series n a c) (series n b c).
Proof. intros H i j Hi Hj. unfold series. apply Series_ext. intros k. rewrite (power_ext n a b k H i j Hi Hj). reflexivity. Qed.
Definition sized (n : nat) : Prop := INR n <= 2 ^ 50.
Lemma expm_with_spec n s (m : mat R) : sized n -> shape n n m -> bounded n (scaled_matrix ((/ 2) ^ s) (mget m)) (/ 2) ->
  let X := scaled_matrix ((/ 2) ^ s) (mget m) in
  exists r P Z, expm_with n s m = Ok r /\ shape n n r /\ equal n n (mget r) (power n P (2 ^ s)) /\
    equal n n (product n (series n X denom) Z) unit_matrix /\ equal n n (product n Z (series n X denom)) unit_matrix /\ equal n n (product n (series n X denom) P) (series n X numer).
Proof.
  intros Sz Sm XB X. unfold expm_with. change (@half R Rnum) with (/ 2). rewrite powi_nat. set (a := mat_scale n n m ((/ 2) ^ s)).
  assert (EX : equal n n (mget a) X) by apply mget_scale.
  pose proof (pade_sums_series n a) as H. destruct (pade_sums n a 7) as [[apow num] den]. destruct H as (S2 & S3 & E2 & E3).
  assert (E2' : equal n n (mget num) (series n X numer)) by (eapply equal_trans; [exact E2|apply series_matrix_ext, EX]).
  assert (E3' : equal n n (mget den) (series n X denom)) by (eapply equal_trans; [exact E3|apply series_matrix_ext, EX]).
  destruct (never_refused n den (1 - away) S3 ltac:(unfold away; lra)) with (b := 1 + away) as [f F].
  - intros x. pose proof (denom_lower n X XB x) as L. rewrite (bsum_ext n (fun i => Rabs (times n (mget den) x i)) (fun i => Rabs (times n (series n X denom) x i))); [exact L|]. intros i Hi. f_equal. apply bsum_ext. intros j Hj. rewrite E3' by auto. reflexivity.
  - intros i j Hi Hj. rewrite E3' by auto. pose proof (bounded_entry _ _ _ i j (denom_near n X XB) Hi Hj) as B. unfold minus_matrix in B. pose proof (bounded_entry _ _ _ i j (bounded_unit n) Hi Hj) as B2.
    replace (series n X denom i j) with ((series n X denom i j - unit_matrix i j) + unit_matrix i j) by ring. eapply Rle_trans; [apply Rabs_triang|]. lra.
  - unfold away. lra.
  - unfold sized in Sz. pose proof (pos_INR n). replace (2 ^ 52) with (4 * 2 ^ 50) by (replace 52%nat with (2 + 50)%nat by lia; rewrite pow_add; lra). assert (0 < 2 ^ 50) by (apply pow_lt; lra). unfold away. nra.
  - rewrite F. destruct (C76_solve_matrix n n den f num S3 F) as [C1 C2]. destruct (C76_solve_matrix n n den f (identity n) S3 F) as [_ C3].
    destruct (squared_spec n s _ C1) as [Q1 Q2]. rewrite finite_always. exists (squared n s (lu_solve_matrix n n f num)), (mget (lu_solve_matrix n n f num)), (mget (lu_solve_matrix n n f (identity n))).
    split; [reflexivity|]. split; [exact Q1|]. split; [exact Q2|].
    assert (DZ : equal n n (product n (series n X denom) (mget (lu_solve_matrix n n f (identity n)))) unit_matrix).
    { eapply equal_trans; [apply product_left, equal_sym, E3'|]. eapply equal_trans; [exact C3|]. intros i j Hi Hj. rewrite mget_identity by auto. reflexivity. }
    split; [exact DZ|]. split; [apply right_left_inverse; [apply (denom_kernel n X XB)|exact DZ]|].
    eapply equal_trans; [apply product_left, equal_sym, E3'|]. eapply equal_trans; [exact C2|exact E2'].
Qed.
Lemma halvings_same (x : R) fuel fuel' s s' : halvings fuel x 0 = Some s -> halvings fuel' x 0 = Some s' -> s' = s.
Proof.
  revert fuel' s s'. generalize 0%nat. revert x. induction fuel as [|fuel IH]; intros x z fuel' s s' H H'; destruct fuel' as [|fuel']; cbn [halvings] in H, H'; destruct (ltb half x); try discriminate H; try discriminate H'; try congruence. eapply IH; eauto.
Qed.
Lemma expm_spec n (m : mat R) : sized n -> shape n n m -> exists s, (forall fuel out, expm fuel n m = Some out -> out = expm_with n s m) /\
  (exists turns, forall fuel, (turns <= fuel)%nat -> expm fuel n m = Some (expm_with n s m)) /\
  bounded n (scaled_matrix ((/ 2) ^ s) (mget m)) (/ 2) /\ INR (2 ^ s) <= Rmax 1 (4 * column_norm n (mget m)).
Proof.
  intros Sz Sm. destruct (halvings_end (one_norm n m)) as [k K]. destruct (K k 0%nat (Nat.le_refl k)) as [t T]. destruct (halvings_spec _ _ _ _ T) as (s & -> & _ & B & A). rewrite one_norm_spec in *. cbn [Nat.add] in T.
  assert (U : forall fuel t, halvings fuel (column_norm n (mget m)) 0 = Some t -> t = s).
  { intros fuel t H. eapply halvings_same; eauto. }
  exists s. unfold expm. rewrite finite_always. cbn [negb]. rewrite one_norm_spec. split; [|split; [|split]].
  - intros fuel out. destruct (halvings fuel _ 0) as [t|] eqn:E; intros H; [|discriminate H]. injection H as <-. rewrite (U _ _ E). reflexivity.
  - exists k. intros fuel F. destruct (K fuel 0%nat F) as [t E]. rewrite E, (U _ _ E). reflexivity.
  - eapply bounded_le; [|apply bounded_scaled, bounded_norm]. rewrite Rabs_pos_eq by (apply pow_le; lra). lra.
  - rewrite pow_INR. replace (INR 2) with 2 by (cbn; lra). destruct s as [|s]; [eapply Rle_trans; [|apply Rmax_l]; cbn; lra|]. eapply Rle_trans; [|apply Rmax_r]. specialize (A ltac:(lia)). replace (S s - 1)%nat with s in A by lia.
    assert (P : (/ 2) ^ s * 2 ^ s = 1) by (rewrite <- Rpow_mult_distr, Rinv_l by lra; apply pow1). assert (0 < 2 ^ s) by (apply pow_lt; lra). cbn [pow].
    assert (/ 2 * 2 ^ s < column_norm n (mget m) * (/ 2) ^ s * 2 ^ s) by (apply Rmult_lt_compat_r; auto). rewrite Rmult_assoc, P in H0. lra.
Qed.
Lemma exp_unscaled n s a : equal n n (series n (scaled_matrix ((/ 2) ^ s) a) (exponent (INR (2 ^ s)))) (matrix_exp n a).
Proof.
  eapply equal_trans; [apply equal_sym, exp_of_scaled|]. apply matrix_exp_ext. intros i j Hi Hj. unfold scaled_matrix. rewrite pow_INR. replace (INR 2) with 2 by (cbn; lra).
  rewrite <- Rmult_assoc, <- Rpow_mult_distr, Rinv_r by lra. rewrite pow1. ring.
Qed.
