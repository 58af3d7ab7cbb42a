(** Finite sums and truncated power series over R. *)
From Coq Require Import Reals Lra Lia List Arith.
From Coquelicot Require Import Coquelicot.
From Verif Require Import Base.Deriv.
Import ListNotations.
Local Open Scope R_scope.

Fixpoint bsum (n : nat) (f : nat -> R) : R :=
  match n with O => 0 | S n => bsum n f + f n end.

Lemma bsum_ext n f g : (forall i, (i < n)%nat -> f i = g i) -> bsum n f = bsum n g.
Proof. induction n; cbn; intros H; auto. rewrite IHn, H; auto. Qed.
Lemma bsum_plus n f g : bsum n (fun i => f i + g i) = bsum n f + bsum n g.
Proof. induction n; cbn; lra. Qed.
Lemma bsum_minus n f g : bsum n (fun i => f i - g i) = bsum n f - bsum n g.
Proof. induction n; cbn; lra. Qed.
Lemma bsum_scal n c f : bsum n (fun i => c * f i) = c * bsum n f.
Proof. induction n; cbn; [|rewrite IHn]; lra. Qed.
Lemma bsum_0 n : bsum n (fun _ => 0) = 0.
Proof. induction n; cbn; lra. Qed.
Lemma bsum_first n f : bsum (S n) f = f 0%nat + bsum n (fun i => f (S i)).
Proof. induction n; [cbn; lra|]. change (bsum (S (S n)) f) with (bsum (S n) f + f (S n)). rewrite IHn. cbn. lra. Qed.
Lemma bsum_rev n f : bsum (S n) f = bsum (S n) (fun i => f (n - i)%nat).
Proof.
  revert f. induction n; intros f. reflexivity.
  change (bsum (S (S n)) f) with (bsum (S n) f + f (S n)). rewrite (bsum_first (S n) (fun i => f (S n - i)%nat)).
  rewrite IHn. replace (S n - 0)%nat with (S n) by lia. rewrite Rplus_comm. f_equal.
Qed.
Lemma bsum_delta n k c : (k < n)%nat -> bsum n (fun i => if Nat.eqb i k then c else 0) = c.
Proof.
  induction n; intros H; [lia|]. cbn. destruct (Nat.eq_dec k n) as [->|Ne].
  - rewrite Nat.eqb_refl. rewrite (bsum_ext _ _ (fun _ => 0)), bsum_0. ring.
    intros i Hi. destruct (Nat.eqb_spec i n); [lia|reflexivity].
  - rewrite IHn by lia. destruct (Nat.eqb_spec n k); [lia|ring].
Qed.
Lemma bsum_shift n m f : bsum (n + m) f = bsum n f + bsum m (fun i => f (n + i)%nat).
Proof. induction m; [rewrite Nat.add_0_r; cbn; lra|]. rewrite Nat.add_succ_r. cbn. rewrite IHm. lra. Qed.
Lemma bsum_nonneg n f : (forall i, (i < n)%nat -> 0 <= f i) -> 0 <= bsum n f.
Proof. induction n; cbn; intros H; [lra|]. assert (0 <= bsum n f) by (apply IHn; auto). assert (0 <= f n) by auto. lra. Qed.
Lemma bsum_le n f g : (forall i, (i < n)%nat -> f i <= g i) -> bsum n f <= bsum n g.
Proof. induction n; cbn; intros H; [lra|]. assert (bsum n f <= bsum n g) by auto. assert (f n <= g n) by auto. lra. Qed.
Lemma bsum_swap n m (f : nat -> nat -> R) :
  bsum n (fun i => bsum m (fun j => f i j)) = bsum m (fun j => bsum n (fun i => f i j)).
Proof.
  induction n; cbn. rewrite bsum_0. reflexivity. rewrite IHn, <- bsum_plus. reflexivity.
Qed.

(** ** Series *)
Definition conv (a b : nat -> R) (k : nat) : R := bsum (S k) (fun i => a i * b (k - i)%nat).
Definition D (a : nat -> R) (k : nat) : R := INR (S k) * a (S k).
Definition agree (k : nat) (a b : nat -> R) : Prop := forall i, (i <= k)%nat -> a i = b i.

Lemma conv_ext k a a' b b' : agree k a a' -> agree k b b' -> conv a b k = conv a' b' k.
Proof. intros H K. apply bsum_ext. intros i Hi. rewrite H, K by lia. reflexivity. Qed.
Lemma conv_comm a b k : conv a b k = conv b a k.
Proof.
  unfold conv. rewrite bsum_rev. apply bsum_ext. intros i Hi.
  replace (k - (k - i))%nat with i by lia. ring.
Qed.
Lemma conv_0 a b : conv a b 0 = a 0%nat * b 0%nat.
Proof. unfold conv. cbn. ring. Qed.
Lemma conv_S a b k : conv a b (S k) = a 0%nat * b (S k) + conv (fun i => a (S i)) b k.
Proof. unfold conv. rewrite bsum_first. f_equal. Qed.
Lemma conv_plus_l a b c k : conv (fun i => a i + b i) c k = conv a c k + conv b c k.
Proof. unfold conv. rewrite <- bsum_plus. apply bsum_ext. intros; ring. Qed.
Lemma conv_plus_r a b c k : conv c (fun i => a i + b i) k = conv c a k + conv c b k.
Proof. unfold conv. rewrite <- bsum_plus. apply bsum_ext. intros; ring. Qed.
Lemma conv_scal_l s a c k : conv (fun i => s * a i) c k = s * conv a c k.
Proof. unfold conv. rewrite <- bsum_scal. apply bsum_ext. intros; ring. Qed.
Lemma conv_scal_r s a c k : conv c (fun i => s * a i) k = s * conv c a k.
Proof. rewrite conv_comm, conv_scal_l, conv_comm. reflexivity. Qed.
Lemma conv_assoc k : forall a b c, conv (conv a b) c k = conv a (conv b c) k.
Proof.
  induction k; intros a b c.
  - rewrite !conv_0. ring.
  - rewrite !conv_S, conv_0.
    rewrite (conv_ext k _ (fun i => a 0%nat * b (S i) + conv (fun j => a (S j)) b i) c c).
    + rewrite conv_plus_l, conv_scal_l, IHk. ring.
    + intros i Hi. apply conv_S.
    + intros i Hi. reflexivity.
Qed.
Lemma conv_one a k : conv a (fun i => if Nat.eqb i 0 then 1 else 0) k = a k.
Proof.
  unfold conv. rewrite (bsum_ext _ _ (fun i => if Nat.eqb i k then a k else 0)).
  - apply bsum_delta. lia.
  - intros i Hi. destruct (Nat.eqb_spec i k) as [->|N]. rewrite Nat.sub_diag. cbn. ring.
    destruct (Nat.eqb_spec (k - i) 0); [lia|ring].
Qed.

Lemma leibniz a b k : D (conv a b) k = conv (D a) b k + conv a (D b) k.
Proof.
  assert (E1 : conv (D a) b k = bsum (S (S k)) (fun i => INR i * a i * b (S k - i)%nat)).
  { rewrite bsum_first. unfold conv, D. cbn [INR]. rewrite Rmult_0_l, Rmult_0_l, Rplus_0_l. reflexivity. }
  assert (E2 : conv a (D b) k = bsum (S (S k)) (fun i => INR (S k - i) * a i * b (S k - i)%nat)).
  { change (bsum (S (S k)) ?f) with (bsum (S k) f + f (S k)). cbv beta. rewrite Nat.sub_diag. cbn [INR].
    rewrite !Rmult_0_l, Rplus_0_r. unfold conv, D. apply bsum_ext. intros i Hi.
    replace (S k - i)%nat with (S (k - i)) by lia. ring. }
  rewrite E1, E2, <- bsum_plus. unfold D, conv. rewrite <- bsum_scal. apply bsum_ext. intros i Hi.
  assert (I : INR (S k) = INR i + INR (S k - i)). { rewrite <- plus_INR. f_equal. lia. }
  rewrite I. ring.
Qed.

(** The entry of highest order of a product. *)
Lemma conv_last a b k : conv a b k = bsum k (fun i => a i * b (k - i)%nat) + a k * b 0%nat.
Proof. unfold conv. cbn. rewrite Nat.sub_diag. reflexivity. Qed.

Lemma conv_cancel b a a' k : b 0%nat <> 0 -> (forall i, (i <= k)%nat -> conv a b i = conv a' b i) -> agree k a a'.
Proof.
  intros N H i. induction i as [i IH] using lt_wf_ind. intros Hi.
  pose proof (H i Hi) as E. rewrite !conv_last in E.
  rewrite (bsum_ext i (fun j => a j * _) (fun j => a' j * b (i - j)%nat)) in E by (intros j Hj; rewrite (IH j) by lia; reflexivity).
  apply Rmult_eq_reg_r with (b 0%nat); auto. lra.
Qed.

(** ** Families of series *)
Lemma is_derive_bsum n (f : R -> nat -> R) (d : nat -> R) y :
  (forall i, (i < n)%nat -> is_derive (fun z => f z i) y (d i)) -> is_derive (fun z => bsum n (f z)) y (bsum n d).
Proof.
  induction n; cbn; intros H. apply is_derive_cst.
  apply (is_derive_sum (fun z => bsum n (f z)) (fun z => f z n)); auto.
Qed.
Lemma is_derive_conv k (a b : R -> nat -> R) (a' b' : nat -> R) y :
  (forall i, (i <= k)%nat -> is_derive (fun z => a z i) y (a' i)) ->
  (forall i, (i <= k)%nat -> is_derive (fun z => b z i) y (b' i)) ->
  is_derive (fun z => conv (a z) (b z) k) y (conv a' (b y) k + conv (a y) b' k).
Proof.
  intros H K. unfold conv at 2 3. rewrite <- bsum_plus. unfold conv.
  apply (is_derive_bsum (S k) (fun z i => a z i * b z (k - i)%nat)). intros i Hi.
  eapply is_derive_eq. { apply (is_derive_prod (fun z => a z i) (fun z => b z (k - i)%nat)). apply H; lia. apply K; lia. }
  ring.
Qed.

(** A family [A] of which each coefficient below order [N - 1] differentiates to the next. *)
Definition tower (N : nat) (A : R -> nat -> R) (y : R) : Prop :=
  forall k, (S k < N)%nat -> is_derive (fun z => A z k) y (D (A y) k).

Lemma tower_D N A y k : tower N A y -> (S (S k) < N)%nat -> is_derive (fun z => D (A z) k) y (D (D (A y)) k).
Proof.
  intros H Hk. unfold D at 1. eapply is_derive_eq.
  { apply (is_derive_prod (fun _ => INR (S k)) (fun z => A z (S k))). apply is_derive_cst. apply H. lia. }
  unfold D. ring.
Qed.
Lemma tower_conv_k A B y k :
  (forall i, (i <= k)%nat -> is_derive (fun z => A z i) y (D (A y) i)) ->
  (forall i, (i <= k)%nat -> is_derive (fun z => B z i) y (D (B y) i)) ->
  is_derive (fun z => conv (A z) (B z) k) y (D (conv (A y) (B y)) k).
Proof. intros H K. rewrite leibniz. apply is_derive_conv; auto. Qed.
Lemma tower_conv N A B y : tower N A y -> tower N B y -> tower N (fun z => conv (A z) (B z)) y.
Proof. intros H K k Hk. apply tower_conv_k; intros; [apply H|apply K]; lia. Qed.

(** A family determined order by order by a linear differential equation is a tower as soon as its
    lowest coefficient is. *)
Lemma tower_ode {I : Type} (N : nat) (U : I -> R -> nat -> R) (B : R -> nat -> R) (W : I -> R -> nat -> R) (y : R) :
  (forall i k, (S k < N)%nat -> locally y (fun z => conv (D (U i z)) (B z) k = W i z k)) ->
  B y 0%nat <> 0 -> tower N B y ->
  (forall i, (1 < N)%nat -> is_derive (fun z => U i z 0%nat) y (D (U i y) 0)) ->
  (forall i k, (S (S k) < N)%nat ->
     (forall j l, (l <= k)%nat -> is_derive (fun z => U j z l) y (D (U j y) l)) ->
     is_derive (fun z => W i z k) y (D (W i y) k)) ->
  forall i, tower N (U i) y.
Proof.
  intros R0 NB TB U0 HW.
  assert (G : forall k, (S k < N)%nat -> forall i, is_derive (fun z => U i z k) y (D (U i y) k)).
  { induction k as [k IH] using lt_wf_ind. intros Hk i. destruct k as [|k]; [apply U0; lia|].
    assert (IH' : forall j l, (l <= k)%nat -> is_derive (fun z => U j z l) y (D (U j y) l)) by (intros; apply IH; lia).
    assert (CB : continuous (fun z => B z 0%nat) y). { eapply derive_cont. apply TB. lia. }
    pose proof (locally_neq _ _ _ CB NB) as LB.
    pose proof (R0 i k ltac:(lia)) as Rk.
    apply (is_derive_ext_loc (fun z => (W i z k - bsum k (fun j => D (U i z) j * B z (k - j)%nat)) / (INR (S k) * B z 0%nat))).
    - generalize (filter_and _ _ LB Rk). apply filter_imp. intros z [Zb E]. rewrite <- E, conv_last.
      unfold D at 2. match goal with |- @eq _ ?a ?b => change (@eq R a b) end. field. split; auto. apply not_0_INR. lia.
    - assert (Hn : INR (S k) <> 0) by (apply not_0_INR; lia).
      pose proof (HW i k ltac:(lia) IH') as DW.
      assert (DS : is_derive (fun z => bsum k (fun j => D (U i z) j * B z (k - j)%nat)) y
        (bsum k (fun j => D (D (U i y)) j * B y (k - j)%nat + D (U i y) j * D (B y) (k - j)%nat))).
      { apply (is_derive_bsum k (fun z j => D (U i z) j * B z (k - j)%nat)). intros j Hj.
        eapply is_derive_eq.
        { apply (is_derive_prod (fun z => D (U i z) j) (fun z => B z (k - j)%nat)).
          - unfold D. apply (is_derive_prod (fun _ => INR (S j)) (fun z => U i z (S j))). apply is_derive_cst. apply IH'. lia.
          - apply TB. lia. }
        unfold D at 1 2. unfold D. ring. }
      assert (DB : is_derive (fun z => INR (S k) * B z 0%nat) y (0 * B y 0%nat + INR (S k) * D (B y) 0)).
      { apply (is_derive_prod (fun _ => INR (S k)) (fun z => B z 0%nat)). apply is_derive_cst. apply TB. lia. }
      eapply is_derive_eq.
      { apply (is_derive_quot (fun z => W i z k - bsum k (fun j => D (U i z) j * B z (k - j)%nat)) (fun z => INR (S k) * B z 0%nat)).
        - apply (is_derive_diff (fun z => W i z k)); eauto.
        - exact DB.
        - apply Rmult_integral_contrapositive_currified; auto. }
      (* the equation at orders k and S k *)
      pose proof (locally_singleton _ _ Rk) as Ek. cbv beta in Ek.
      pose proof (locally_singleton _ _ (R0 i (S k) ltac:(lia))) as Ek1. cbv beta in Ek1.
      assert (L : D (W i y) k = conv (D (D (U i y))) (B y) k + conv (D (U i y)) (D (B y)) k).
      { rewrite <- leibniz. unfold D at 1 3. rewrite <- Ek1. reflexivity. }
      rewrite L. rewrite <- Ek. rewrite !conv_last.
      rewrite bsum_plus. replace (D (B y) (0)%nat) with (D (B y) 0) by reflexivity.
      set (s1 := bsum k (fun j => D (D (U i y)) j * _)). set (s2 := bsum k (fun j => D (U i y) j * D (B y) _)).
      set (s3 := bsum k (fun j => D (U i y) j * B y _)). unfold D. field. auto. }
  intros i k Hk. apply G; auto.
Qed.
