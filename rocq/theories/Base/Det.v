(** Determinants: linear in each row, changed in sign by a swap of rows, the product of the diagonal for a triangular
    matrix. *)
From Coq Require Import Reals Lra Lia List Arith.
From Verif Require Import Base.Series Spec.Matrix.
Local Open Scope R_scope.

Lemma det_ext n : forall a b, equal n n a b -> det n a = det n b.
Proof.
  induction n as [|n IH]; intros a b H; [reflexivity|]. cbn [det]. apply bsum_ext. intros i Hi.
  rewrite (H i 0%nat) by lia. f_equal. apply IH. intros r c Hr Hc. unfold without, skip.
  destruct (Nat.ltb_spec r i); apply H; lia.
Qed.

Lemma skip_ne i r : skip i r <> i.
Proof. unfold skip. destruct (Nat.ltb_spec r i); lia. Qed.
Lemma skip_lt i r n : (i <= n)%nat -> (r < n)%nat -> (skip i r < S n)%nat.
Proof. unfold skip. destruct (Nat.ltb_spec r i); lia. Qed.
(** the place of row [p] among the rows left when row [i] is struck out *)
Definition place (i p : nat) : nat := if Nat.ltb p i then p else (p - 1)%nat.
Lemma skip_place i p : p <> i -> skip i (place i p) = p.
Proof. unfold skip, place. intros. destruct (Nat.ltb_spec p i); [destruct (Nat.ltb_spec p i)|destruct (Nat.ltb_spec (p - 1) i)]; lia. Qed.
Lemma place_lt i p n : p <> i -> (i < S n)%nat -> (p < S n)%nat -> (place i p < n)%nat.
Proof. unfold place. destruct (Nat.ltb_spec p i); lia. Qed.
Lemma skip_inj i r s : skip i r = skip i s -> r = s.
Proof. unfold skip. destruct (Nat.ltb_spec r i), (Nat.ltb_spec s i); lia. Qed.

(** [c] is [a] and [b] outside row [p], where it is [s a + t b]. *)
Definition row_combination (n p : nat) (s t : R) (a b c : matrix) : Prop :=
  forall i j, (i < n)%nat -> (j < n)%nat ->
    (i <> p -> c i j = a i j /\ c i j = b i j) /\ (i = p -> c i j = s * a i j + t * b i j).

Lemma det_row n : forall p s t a b c, (p < n)%nat -> row_combination n p s t a b c -> det n c = s * det n a + t * det n b.
Proof.
  induction n as [|n IH]; intros p s t a b c Hp H; [lia|]. cbn [det].
  rewrite <- !bsum_scal, <- bsum_plus. apply bsum_ext. intros i Hi.
  destruct (Nat.eq_dec i p) as [->|Ne].
  - destruct (H p 0%nat ltac:(lia) ltac:(lia)) as [_ E]. rewrite E by reflexivity.
    assert (F : forall r k, (r < n)%nat -> (k < n)%nat -> c (skip p r) (S k) = a (skip p r) (S k) /\ c (skip p r) (S k) = b (skip p r) (S k)).
    { intros r k Hr Hk. destruct (H (skip p r) (S k) ltac:(apply skip_lt; lia) ltac:(lia)) as [F _]. exact (F (skip_ne p r)). }
    assert (Fa : det n (without p c) = det n (without p a)) by (apply det_ext; intros r k Hr Hk; apply F; auto).
    assert (Fb : det n (without p c) = det n (without p b)) by (apply det_ext; intros r k Hr Hk; apply F; auto).
    rewrite <- Fa, <- Fb. ring.
  - destruct (H i 0%nat ltac:(lia) ltac:(lia)) as [E _]. destruct (E Ne) as [E1 E2].
    rewrite (IH (place i p) s t (without i a) (without i b) (without i c)).
    { rewrite E1 at 1. replace (b i 0%nat) with (a i 0%nat) by lra. ring. }
    { apply place_lt; lia. }
    intros r k Hr Hk. unfold without. destruct (H (skip i r) (S k) ltac:(apply skip_lt; lia) ltac:(lia)) as [F G]. split.
    + intros N. apply F. intros C. apply N. apply (skip_inj i). rewrite skip_place by lia. exact C.
    + intros ->. apply G. apply skip_place; lia.
Qed.

(** swapping two rows *)
Definition exchange (p q i : nat) : nat := if Nat.eqb i p then q else if Nat.eqb i q then p else i.
Definition swapped (p q : nat) (a : matrix) : matrix := fun i j => a (exchange p q i) j.

Lemma sgn_S i : (-1) ^ S i = - (-1) ^ i.
Proof. cbn. ring. Qed.

Lemma bsum_two n f g p : (S p < n)%nat -> (forall i, (i < n)%nat -> i <> p -> i <> S p -> f i = g i) ->
  f p = g (S p) -> f (S p) = g p -> bsum n f = bsum n g.
Proof.
  intros Hn H H1 H2. replace n with (p + (2 + (n - S (S p))))%nat by lia. rewrite !bsum_shift. f_equal; [|f_equal].
  - apply bsum_ext. intros i Hi. apply H; lia.
  - cbn [bsum]. rewrite Nat.add_0_r, Nat.add_1_r. lra.
  - apply bsum_ext. intros i Hi. apply H; lia.
Qed.

Lemma exchange_adjacent p i : exchange p (S p) i = if Nat.eqb i p then S p else if Nat.eqb i (S p) then p else i.
Proof. reflexivity. Qed.

Ltac nat_case1 x y tac :=
  lazymatch x with
  | context [Nat.eqb] => fail | context [Nat.ltb] => fail | context [Nat.leb] => fail
  | _ => lazymatch y with
         | context [Nat.eqb] => fail | context [Nat.ltb] => fail | context [Nat.leb] => fail | _ => tac x y
         end
  end.
Ltac nat_case := repeat match goal with
  | |- context [Nat.eqb ?x ?y] => nat_case1 x y ltac:(fun x y => destruct (Nat.eqb_spec x y))
  | |- context [Nat.ltb ?x ?y] => nat_case1 x y ltac:(fun x y => destruct (Nat.ltb_spec x y))
  | |- context [Nat.leb ?x ?y] => nat_case1 x y ltac:(fun x y => destruct (Nat.leb_spec x y))
  end; try lia.

Lemma det_adjacent n : forall p a, (S p < n)%nat -> det n (swapped p (S p) a) = - det n a.
Proof.
  induction n as [|n IH]; intros p a Hp; [lia|]. cbn [det].
  replace (- bsum (S n) (fun i => (-1) ^ i * a i 0%nat * det n (without i a)))
    with (bsum (S n) (fun i => - ((-1) ^ i * a i 0%nat * det n (without i a))))
    by (rewrite (bsum_ext _ _ (fun i => -1 * ((-1) ^ i * a i 0%nat * det n (without i a)))) by (intros; ring); rewrite bsum_scal; ring).
  apply (bsum_two (S n) _ _ p Hp).
  - intros i Hi N1 N2. unfold swapped at 1. rewrite exchange_adjacent.
    destruct (Nat.eqb_spec i p); [lia|]. destruct (Nat.eqb_spec i (S p)); [lia|].
    rewrite (det_ext n _ (swapped (place i p) (S (place i p)) (without i a))).
    + rewrite IH. ring. unfold place. nat_case.
    + intros r c Hr Hc. unfold without, swapped, exchange, skip, place. f_equal. nat_case.
  - cbv beta. unfold swapped at 1. rewrite exchange_adjacent, Nat.eqb_refl, sgn_S.
    rewrite (det_ext n _ (without (S p) a)); [ring|].
    intros r c Hr Hc. unfold without, swapped, exchange, skip. f_equal. nat_case.
  - cbv beta. unfold swapped at 1. rewrite exchange_adjacent. destruct (Nat.eqb_spec (S p) p); [lia|]. rewrite Nat.eqb_refl, sgn_S.
    rewrite (det_ext n _ (without p a)); [ring|].
    intros r c Hr Hc. unfold without, swapped, exchange, skip. f_equal. nat_case.
Qed.

Lemma det_swapped n p q a : (p < q)%nat -> (q < n)%nat -> det n (swapped p q a) = - det n a.
Proof.
  intros Hpq Hq. assert (Hk : exists k, (q = p + S k)%nat) by (exists (q - p - 1)%nat; lia).
  destruct Hk as [k ->]. clear Hpq. revert a Hq. induction k as [|k IH]; intros a Hq.
  - replace (p + 1)%nat with (S p) by lia. apply det_adjacent. lia.
  - replace (p + S (S k))%nat with (S (p + S k)) by lia.
    rewrite (det_ext n _ (swapped (p + S k) (S (p + S k)) (swapped p (p + S k) (swapped (p + S k) (S (p + S k)) a)))).
    + rewrite det_adjacent, IH, det_adjacent by lia. ring.
    + intros i j Hi Hj. unfold swapped, exchange. f_equal. nat_case.
Qed.

Lemma det_equal_rows n p q a : (p < n)%nat -> (q < n)%nat -> p <> q -> (forall j, (j < n)%nat -> a p j = a q j) -> det n a = 0.
Proof.
  intros Hp Hq N H.
  assert (W : forall p q, (p < q)%nat -> (q < n)%nat -> (forall j, (j < n)%nat -> a p j = a q j) -> det n a = 0).
  { clear. intros p q Hp Hq H. pose proof (det_swapped n p q a Hp Hq) as E.
    rewrite (det_ext n _ a) in E; [lra|]. intros i j Hi Hj. unfold swapped, exchange.
    destruct (Nat.eqb_spec i p) as [->|]; [symmetry; apply H; lia|]. destruct (Nat.eqb_spec i q) as [->|]; [apply H; lia|reflexivity]. }
  destruct (Nat.lt_ge_cases p q). apply (W p q); auto. apply (W q p); try lia. intros. symmetry. auto.
Qed.

(** adding a multiple of another row *)
Definition row_added (p q : nat) (c : R) (a : matrix) : matrix :=
  fun i j => if Nat.eqb i p then a i j + c * a q j else a i j.
Lemma det_row_added n p q c a : (p < n)%nat -> (q < n)%nat -> p <> q -> det n (row_added p q c a) = det n a.
Proof.
  intros Hp Hq N. rewrite (det_row n p 1 c a (fun i j => if Nat.eqb i p then a q j else a i j)); auto.
  - rewrite (det_equal_rows n p q (fun i j => if Nat.eqb i p then a q j else a i j)); auto; [lra|].
    intros j Hj. cbv beta. rewrite Nat.eqb_refl. destruct (Nat.eqb_spec q p); [lia|reflexivity].
  - intros i j Hi Hj. unfold row_added. split.
    + intros Ne. apply Nat.eqb_neq in Ne. rewrite Ne. split; reflexivity.
    + intros ->. rewrite Nat.eqb_refl. ring.
Qed.

Fixpoint bprod (n : nat) (f : nat -> R) : R := match n with O => 1 | S n => bprod n f * f n end.
Lemma bprod_ext n f g : (forall i, (i < n)%nat -> f i = g i) -> bprod n f = bprod n g.
Proof. induction n; cbn; intros H; auto. rewrite IHn, H; auto. Qed.
Lemma bprod_first n f : bprod (S n) f = f 0%nat * bprod n (fun i => f (S i)).
Proof. induction n; [cbn; lra|]. change (bprod (S (S n)) f) with (bprod (S n) f * f (S n)). rewrite IHn. cbn. lra. Qed.
Lemma bprod_0 n f i : (i < n)%nat -> f i = 0 -> bprod n f = 0.
Proof.
  induction n; intros Hi H; [lia|]. cbn. destruct (Nat.eq_dec i n) as [->|]. rewrite H; ring. rewrite IHn by (auto; lia). ring.
Qed.
Lemma bprod_nonzero n f : (forall i, (i < n)%nat -> f i <> 0) -> bprod n f <> 0.
Proof.
  induction n; cbn; intros H; [lra|]. apply Rmult_integral_contrapositive_currified. apply IHn. intros; apply H; lia. apply H; lia.
Qed.

Lemma det_upper n : forall u, upper_triangular n u -> det n u = bprod n (fun i => u i i).
Proof.
  induction n as [|n IH]; intros u H; [reflexivity|]. rewrite bprod_first. cbn [det]. rewrite bsum_first.
  rewrite (bsum_ext n _ (fun _ => 0)).
  2:{ intros i Hi. rewrite (H (S i) 0%nat) by lia. ring. }
  rewrite bsum_0, IH. { unfold without, skip. cbn. ring. }
  intros i j Hi Hj Hij. unfold without, skip. cbn. apply H; lia.
Qed.
