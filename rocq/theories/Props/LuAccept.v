(** C75: when the LU factorization is sure to succeed. *)
From Coq Require Import ZArith Reals List Bool Arith Lia Lra Permutation.
From Verif Require Import Base.Scalar Base.RNum Base.Lists Base.Series Base.Det Model.Errors Model.Vector Model.Matrix Model.Lu Spec.Matrix Proofs.Matrix Proofs.Lu Props.Lu.
Import ListNotations.
Local Open Scope R_scope.

Lemma bsum_abs n f : Rabs (bsum n f) <= bsum n (fun i => Rabs (f i)).
Proof. induction n as [|n IH]; cbn [bsum]; [rewrite Rabs_R0; lra|]. eapply Rle_trans; [apply Rabs_triang|]. lra. Qed.
Lemma triangular_below n l y z : unit_lower_triangular n l -> equal_vectors n (times n l y) (times n l z) -> equal_vectors n y z.
Proof.
  intros L E. assert (G : forall m i, (i < m)%nat -> (i < n)%nat -> y i = z i).
  { induction m as [|m IH]; intros i Hm Hi; [lia|]. destruct (Nat.eq_dec i m) as [->|]; [|apply IH; lia].
    pose proof (E m Hi) as Q. unfold times in Q. replace n with (m + S (n - S m))%nat in Q by lia. rewrite !bsum_shift, !bsum_first in Q. rewrite Nat.add_0_r in Q.
    rewrite (bsum_ext m (fun k => l m k * y k) (fun k => l m k * z k)) in Q by (intros k Hk; rewrite (IH k) by lia; reflexivity).
    rewrite (bsum_ext _ (fun i => l m (m + S i)%nat * y (m + S i)%nat) (fun _ => 0)) in Q by (intros k Hk; rewrite (proj2 (L m (m + S k)%nat Hi ltac:(lia))) by lia; ring).
    rewrite (bsum_ext _ (fun i => l m (m + S i)%nat * z (m + S i)%nat) (fun _ => 0)) in Q by (intros k Hk; rewrite (proj2 (L m (m + S k)%nat Hi ltac:(lia))) by lia; ring).
    rewrite bsum_0, (proj1 (L m m Hi Hi) eq_refl) in Q. lra. }
  intros i Hi. apply (G (S i)); lia.
Qed.
Lemma triangular_above n u x k : upper_triangular n u -> (forall i, (i < n)%nat -> u i i <> 0) -> (k < n)%nat -> equal_vectors n (times n u x) (fun i => if Nat.eqb i k then 1 else 0) ->
  u k k * x k = 1.
Proof.
  intros U D Hk E. assert (Row : forall i, (i < n)%nat -> times n u x i = u i i * x i + bsum (n - S i) (fun j => u i (S i + j)%nat * x (S i + j)%nat)).
  { intros i Hi. unfold times. replace n with (i + S (n - S i))%nat at 1 by lia. rewrite bsum_shift, bsum_first. rewrite (bsum_ext i _ (fun _ => 0)) by (intros j Hj; rewrite U by lia; ring).
    rewrite bsum_0, Nat.add_0_r. rewrite (bsum_ext _ (fun j => u i (i + S j)%nat * x (i + S j)%nat) (fun j => u i (S i + j)%nat * x (S i + j)%nat)) by (intros j Hj; replace (i + S j)%nat with (S i + j)%nat by lia; reflexivity). ring. }
  assert (Z : forall m i, (n - m <= i)%nat -> (k < i)%nat -> (i < n)%nat -> x i = 0).
  { induction m as [|m IH]; intros i H1 H2 H3; [lia|]. pose proof (E i H3) as Q. rewrite Row in Q by exact H3.
    rewrite (bsum_ext _ _ (fun _ => 0)) in Q by (intros j Hj; rewrite (IH (S i + j)%nat) by lia; ring). rewrite bsum_0 in Q. destruct (Nat.eqb_spec i k); [lia|].
    apply (Rmult_eq_reg_l (u i i)); [lra|apply D, H3]. }
  pose proof (E k Hk) as Q. rewrite Row, Nat.eqb_refl in Q by exact Hk. rewrite (bsum_ext _ _ (fun _ => 0)) in Q by (intros j Hj; rewrite (Z n (S k + j)%nat) by lia; ring). rewrite bsum_0 in Q. lra.
Qed.

(** A matrix whose inverse is small enough against its own entries is factored: with the absolute values in each row of the inverse adding up to at most [bound],
    [bound * 2^-52] times any entry has to stay below one. *)
Theorem C75_accepts n m inverse bound : shape n n m ->
  equal n n (product n (mget m) inverse) unit_matrix -> equal n n (product n inverse (mget m)) unit_matrix ->
  (forall i, (i < n)%nat -> bsum n (fun j => Rabs (inverse i j)) <= bound) ->
  (forall i j, (i < n)%nat -> (j < n)%nat -> Rabs (mget m i j) <= IZR (2 ^ 53 - 1) * IZR (2 ^ 971) /\ bound * / IZR (2 ^ 52) * Rabs (mget m i j) < 1) ->
  exists f, lu_decompose n m = Ok f.
Proof.
  intros H Ri Le Hb Hm. destruct (C75_refuses n m H) as (Sing & Ill & Only & NoPanic).
  assert (NS : ~ singular n (mget m)).
  { intros (x & (i & Hi & Nx) & K). apply Nx. transitivity (times n inverse (times n (mget m) x) i).
    - rewrite <- times_product. rewrite (times_ext n _ unit_matrix x x) by (try (intros k Hk; apply Le; auto); intros k _; reflexivity). symmetry. apply times_unit, Hi.
    - rewrite (times_ext n inverse inverse _ (fun _ => 0)) by (try exact K; reflexivity). unfold times. rewrite (bsum_ext n _ (fun _ => 0)) by (intros; ring). apply bsum_0. }
  destruct (lu_decompose n m) as [f|e|] eqn:E; [exists f; reflexivity| |destruct (NoPanic eq_refl)]. exfalso.
  destruct (Only e eq_refl) as [->| ->]; [apply NS, Sing; reflexivity|].
  unfold lu_decompose in E. unfold lu_for_determinant in Ill. pose proof (factor_spec n m H) as F. destruct (factor_lu n m) as [[g s]|e|]; [|destruct F as (_ & Sg & _); destruct (NS Sg)|destruct F].
  destruct (proj1 (Ill g eq_refl (fun i j Hi Hj => proj1 (Hm i j Hi Hj))) eq_refl) as (k & a & b & Hk & Ha & Hb' & Small).
  pose proof (inv_perm _ _ _ _ _ F) as Perm. set (p := lu_perm g) in *. assert (Lp : length p = n) by (rewrite (Permutation_length Perm), seq_length; reflexivity).
  assert (ND : NoDup p) by (apply (Permutation_NoDup (Permutation_sym Perm)), seq_NoDup).
  set (lower := mget (lu_lower n g)). set (upper := mget (lu_upper n g)).
  assert (Tl : unit_lower_triangular n lower). { intros i j Hi Hj. unfold lower. rewrite done_lower by auto. split; [intros ->; rewrite Nat.eqb_refl; reflexivity|]. intros L. nat_case. reflexivity. }
  assert (Tu : upper_triangular n upper). { intros i j Hi Hj L. unfold upper. rewrite done_upper by auto. nat_case. reflexivity. }
  assert (Du : forall i, (i < n)%nat -> upper i i <> 0). { intros i Hi. unfold upper. rewrite done_upper by auto. nat_case. apply (inv_diagonal _ _ _ _ _ F), Hi. }
  assert (One : forall i j, (i < n)%nat -> (j < n)%nat -> Rabs (lower i j) <= 1).
  { intros i j Hi Hj. unfold lower. rewrite done_lower by auto. nat_case; [rewrite Rabs_R1; lra| |rewrite Rabs_R0; lra]. apply (inv_multipliers _ _ _ _ _ F); lia. }
  set (v := fun q => bsum n (fun i => if Nat.eqb (nth i p 0%nat) q then lower i k else 0)).
  assert (Vp : forall i, (i < n)%nat -> v (nth i p 0%nat) = lower i k).
  { intros i Hi. unfold v. rewrite (bsum_ext n _ (fun i' => if Nat.eqb i' i then lower i k else 0)); [apply bsum_delta, Hi|]. intros i' Hi'.
    destruct (Nat.eqb_spec i' i) as [->|N]; [rewrite Nat.eqb_refl; reflexivity|]. destruct (Nat.eqb_spec (nth i' p 0%nat) (nth i p 0%nat)) as [C|]; [|reflexivity]. exfalso. apply N. apply (proj1 (NoDup_nth p 0%nat) ND); auto; lia. }
  assert (V1 : forall q, (q < n)%nat -> Rabs (v q) <= 1).
  { intros q Hq. assert (I : In q p) by (apply (Permutation_in _ (Permutation_sym Perm)), in_seq; lia). destruct (In_nth p q 0%nat I) as (i & Hi & <-). rewrite Vp by lia. apply One; lia. }
  set (x := times n inverse v).
  assert (Mx : equal_vectors n (times n (mget m) x) v).
  { intros i Hi. unfold x. rewrite <- times_product. rewrite (times_ext n _ unit_matrix v v) by (try (intros j Hj; apply Ri; auto); intros j _; reflexivity). apply times_unit, Hi. }
  assert (Pin : forall i, (i < n)%nat -> (nth i p 0%nat < n)%nat).
  { intros i Hi. assert (I : In (nth i p 0%nat) (seq 0 n)) by (apply (Permutation_in _ Perm), nth_In; lia). apply in_seq in I. lia. }
  assert (Ux : equal_vectors n (times n upper x) (fun i => if Nat.eqb i k then 1 else 0)).
  { apply (triangular_below n lower); [exact Tl|]. intros i Hi. rewrite <- times_product.
    rewrite (times_ext n _ (fun i j => mget m (nth i p 0%nat) j) x x) by (try (intros j Hj; apply (done_product n (mget m) g s F); auto); intros j _; reflexivity).
    change (times n (fun i j => mget m (nth i p 0%nat) j) x i) with (times n (mget m) x (nth i p 0%nat)). rewrite Mx by (apply Pin, Hi). rewrite Vp by exact Hi.
    unfold times. rewrite (bsum_ext n _ (fun j => if Nat.eqb j k then lower i k else 0)); [symmetry; apply bsum_delta, Hk|]. intros j Hj. destruct (Nat.eqb_spec j k) as [->|]; ring. }
  pose proof (triangular_above n upper x k Tu Du Hk Ux) as Q.
  assert (Xk : Rabs (x k) <= bound).
  { eapply Rle_trans; [|apply (Hb k Hk)]. eapply Rle_trans; [apply bsum_abs|]. apply bsum_le. intros j Hj. rewrite Rabs_mult. pose proof (V1 j Hj). pose proof (Rabs_pos (inverse k j)). pose proof (Rabs_pos (v j)). nra. }
  assert (Q' : Rabs (upper k k) * Rabs (x k) = 1) by (rewrite <- Rabs_mult, Q; apply Rabs_R1).
  fold upper in Small. destruct (Hm a b Ha Hb') as [_ Room]. pose proof (Rabs_pos (upper k k)). pose proof (Rabs_pos (x k)).
  assert (Pe : 0 < / IZR (2 ^ 52)) by (apply Rinv_0_lt_compat, IZR_lt; reflexivity). pose proof (Rabs_pos (mget m a b)).
  assert (1 <= bound * Rabs (upper k k)) by nra. assert (0 <= bound) by lra. assert (bound * Rabs (upper k k) <= bound * (/ IZR (2 ^ 52) * Rabs (mget m a b))) by (apply Rmult_le_compat_l; auto). lra.
Qed.
Print Assumptions C75_accepts.
