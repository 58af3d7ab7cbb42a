(** Finite differences: mean values and accuracy. *)
From Coq Require Import ZArith List Bool Reals Lra Lia Arith.
From Coquelicot Require Import Coquelicot.
From Verif Require Import Base.Scalar Base.RNum Base.Lists Base.Deriv Model.Errors Model.Derivative Spec.Derivative.
Import ListNotations.
Local Open Scope R_scope.
Local Notation length := List.length.

(** ** growth *)
Lemma mono_from_0 (F F' : R -> R) h : (forall t, 0 <= t <= h -> is_derive F t (F' t)) -> (forall t, 0 <= t <= h -> 0 <= F' t) -> 0 <= h -> F 0 <= F h.
Proof.
  intros D P H. destruct (MVT_gen F 0 h F') as (c & [C1 C2] & E).
  - intros t. rewrite Rmin_left, Rmax_right by lra. intros. apply D. lra.
  - intros t. rewrite Rmin_left, Rmax_right by lra. intros T. apply derivable_continuous_pt. exists (F' t). apply is_derive_Reals, D. exact T.
  - rewrite Rmin_left in C1 by lra. rewrite Rmax_right in C2 by lra. pose proof (Rmult_le_pos (F' c) (h - 0) (P c (conj C1 C2)) ltac:(lra)). lra.
Qed.
Lemma grow (F F' : R -> R) c k h : (forall t, 0 <= t <= h -> is_derive F t (F' t)) -> F 0 = 0 ->
  (forall t, 0 <= t <= h -> Rabs (F' t) <= c * t ^ k) -> 0 <= h -> Rabs (F h) <= c * h ^ (S k) / INR (S k).
Proof.
  intros D F0 B H.
  assert (K : INR (S k) <> 0) by (apply not_0_INR; lia).
  assert (P : forall t, is_derive (fun s => c * s ^ S k / INR (S k)) t (c * t ^ k)).
  { intros t. apply (is_derive_eq _ _ (c * (INR (S k) * 1 * t ^ Init.Nat.pred (S k)) / INR (S k))).
    - unfold Rdiv. apply (is_derive_ext (fun s => scal (c * / INR (S k)) (s ^ S k))).
      { intros s. unfold scal; cbn -[pow INR]; unfold mult; cbn -[pow INR]. ring. }
      apply (is_derive_eq _ _ (scal (c * / INR (S k)) (INR (S k) * 1 * t ^ Init.Nat.pred (S k)))).
      + apply is_derive_scal. apply (is_derive_pow (fun s => s) (S k) t 1). apply is_derive_var.
      + unfold scal; cbn -[pow INR]; unfold mult; cbn -[pow INR]. ring.
    - cbn [Init.Nat.pred]. field. exact K. }
  assert (Z : 0 ^ S k = 0) by (cbn; ring).
  apply Rabs_le. split.
  - pose proof (mono_from_0 (fun t => c * t ^ S k / INR (S k) + F t) (fun t => c * t ^ k + F' t) h) as M. cbv beta in M.
    rewrite Z, F0 in M. assert (X : c * 0 / INR (S k) + 0 = 0) by (field; exact K). rewrite X in M.
    cut (0 <= c * h ^ S k / INR (S k) + F h); [lra|]. apply M; auto.
    + intros t T. apply (is_derive_sum (fun t => c * t ^ S k / INR (S k)) F); auto.
    + intros t T. pose proof (B t T) as Q. apply Rabs_le_between in Q. lra.
  - pose proof (mono_from_0 (fun t => c * t ^ S k / INR (S k) - F t) (fun t => c * t ^ k - F' t) h) as M. cbv beta in M.
    rewrite Z, F0 in M. assert (X : c * 0 / INR (S k) - 0 = 0) by (field; exact K). rewrite X in M.
    cut (0 <= c * h ^ S k / INR (S k) - F h); [lra|]. apply M; auto.
    + intros t T. apply (is_derive_diff (fun t => c * t ^ S k / INR (S k)) F); auto.
    + intros t T. pose proof (B t T) as Q. apply Rabs_le_between in Q. lra.
Qed.

(** ** the derivative tower *)
Lemma Derive_n_S f n x : Derive_n f (S n) x = Derive_n (Derive f) n x.
Proof. change (Derive f) with (Derive_n f 1). rewrite Derive_n_comp. replace (n + 1)%nat with (S n) by lia. reflexivity. Qed.
Lemma ex_derive_n_S f n x : ex_derive_n f (S n) x -> ex_derive_n (Derive f) n x.
Proof.
  destruct n as [|n]; cbn [ex_derive_n]; [auto|]. intros E. apply (ex_derive_ext (Derive_n f (S n))); auto. intros t. apply Derive_n_S.
Qed.

Section Nested.
  Context (l u m : R).
  (** the difference of order [n], without the special case at order 1 *)
  Fixpoint nested (n : nat) (f : R -> R) (x h : R) : R :=
    match n with O => f x | S n => (nested n f (x + u * h) (m * h) - nested n f (x + l * h) (m * h)) / ((u - l) * h) end.
  Definition near (x H y : R) : Prop := x + l * H <= y <= x + u * H.
  Hypothesis (L : l <= 0) (U : 0 <= u) (LU : l < u) (M : 0 < m).

  Lemma reach_pos n : forall h, 0 < h -> 0 <= reach m h n.
  Proof. induction n; intros h H; cbn [reach]; [lra|]. pose proof (IHn (m * h) ltac:(apply Rmult_lt_0_compat; lra)). lra. Qed.
  Lemma near_trans x a b y z : near x a y -> near y b z -> near x (a + b) z.
  Proof. unfold near. intros [] []. rewrite !Rmult_plus_distr_l. lra. Qed.
  Lemma near_self x H : 0 <= H -> near x H x.
  Proof. intros. unfold near. pose proof (Rmult_le_pos u H U ltac:(lra)). pose proof (Rmult_le_pos (- l) H ltac:(lra) ltac:(lra)). lra. Qed.
  Lemma near_end x h : 0 < h -> near x h (x + u * h) /\ near x h (x + l * h).
  Proof. intros. unfold near. pose proof (Rmult_le_pos u h U ltac:(lra)). pose proof (Rmult_le_pos (- l) h ltac:(lra) ltac:(lra)). lra. Qed.
  Lemma near_larger x a b y : near x a y -> 0 <= a <= b -> near x b y.
  Proof.
    unfold near. intros [] []. pose proof (Rmult_le_pos u (b - a) U ltac:(lra)). pose proof (Rmult_le_pos (- l) (b - a) ltac:(lra) ltac:(lra)). lra.
  Qed.
  Lemma mh h : 0 < h -> 0 < m * h. Proof. intros. apply Rmult_lt_0_compat; lra. Qed.

  Lemma nested_derive n : forall f f' x h, 0 < h -> (forall y, near x (reach m h n) y -> is_derive f y (f' y)) ->
    is_derive (fun x => nested n f x h) x (nested n f' x h).
  Proof.
    induction n as [|n IH]; intros f f' x h H D; cbn [nested].
    - apply D. apply near_self. cbn. lra.
    - assert (K : (u - l) * h <> 0) by (apply Rmult_integral_contrapositive; split; lra).
      assert (S1 : forall s, near x h (x + s * h) -> is_derive (fun x => nested n f (x + s * h) (m * h)) x (nested n f' (x + s * h) (m * h))).
      { intros s N. replace (nested n f' (x + s * h) (m * h)) with (nested n f' (x + s * h) (m * h) * 1) by ring.
        apply (is_derive_chain (fun x => nested n f x (m * h)) (fun x => x + s * h)).
        - apply IH; [apply mh; lra|]. intros y Y. apply D. cbn [reach]. apply (near_trans _ _ _ _ _ N Y).
        - evar_last. apply (is_derive_sum (fun x => x) (fun _ => s * h)). apply is_derive_var. apply is_derive_cst. ring. }
      destruct (near_end x h H) as [E1 E2]. pose proof (S1 u E1) as P. pose proof (S1 l E2) as Q.
      unfold Rdiv. replace ((nested n f' (x + u * h) (m * h) - nested n f' (x + l * h) (m * h)) * / ((u - l) * h)) with
        ((nested n f' (x + u * h) (m * h) - nested n f' (x + l * h) (m * h)) * / ((u - l) * h) + (nested n f (x + u * h) (m * h) - nested n f (x + l * h) (m * h)) * 0) by ring.
      apply (is_derive_prod (fun x => nested n f (x + u * h) (m * h) - nested n f (x + l * h) (m * h)) (fun _ => / ((u - l) * h))).
      + apply (is_derive_diff (fun x => nested n f (x + u * h) (m * h)) (fun x => nested n f (x + l * h) (m * h))); auto.
      + apply is_derive_cst.
  Qed.

  Theorem nested_mean n : forall f x h, 0 < h ->
    (forall y k, near x (reach m h n) y -> (k <= n)%nat -> ex_derive_n f k y) ->
    exists xi, near x (reach m h n) xi /\ nested n f x h = Derive_n f n xi.
  Proof.
    induction n as [|n IH]; intros f x h H D.
    - exists x. split; [apply near_self; cbn; lra|reflexivity].
    - cbn [nested reach]. pose proof (near_end x h H) as [E1 E2]. pose proof (mh h H) as MH.
      assert (lt : x + l * h < x + u * h) by (pose proof (Rmult_lt_0_compat (u - l) h ltac:(lra) H); lra).
      assert (DD : forall y, near x h y -> is_derive (fun x => nested n f x (m * h)) y (nested n (Derive f) y (m * h))).
      { intros y Y. apply nested_derive; auto. intros z Z. apply Derive_correct. apply (D z 1%nat); [|lia].
        cbn [reach]. apply (near_trans _ _ _ _ _ Y Z). }
      destruct (MVT_gen (fun x => nested n f x (m * h)) (x + l * h) (x + u * h) (fun y => nested n (Derive f) y (m * h))) as (c & C & E).
      + intros y. rewrite Rmin_left, Rmax_right by lra. intros Y. apply DD. unfold near. lra.
      + intros y. rewrite Rmin_left, Rmax_right by lra. intros Y. apply derivable_continuous_pt. eexists. apply is_derive_Reals, DD. unfold near. lra.
      + rewrite Rmin_left, Rmax_right in C by lra.
        destruct (IH (Derive f) c (m * h) MH) as (xi & X & V).
        { intros y k Y K. apply ex_derive_n_S. apply D; [|lia]. cbn [reach]. apply (near_trans _ _ _ _ _ C Y). }
        exists xi. split; [apply (near_trans _ _ _ _ _ C X)|]. rewrite E, V, (Derive_n_S f n). field.
        split; [lra|]. pose proof (Rmult_lt_0_compat (u - l) h ltac:(lra) H). nra.
  Qed.
End Nested.

(** ** accuracy of one level *)
Lemma is_derive_along (G : R -> R) d x s t : is_derive G (x + s * t) d -> is_derive (fun t => G (x + s * t)) t (s * d).
Proof.
  intros D. apply (is_derive_eq _ _ (d * s)); [|ring]. apply (is_derive_chain G (fun t => x + s * t)); auto.
  apply (is_derive_eq _ _ (0 + (0 * t + s * 1))); [|ring]. apply (is_derive_sum (fun _ => x) (fun t => s * t)). apply is_derive_cst.
  apply (is_derive_prod (fun _ => s) (fun t => t)). apply is_derive_cst. apply is_derive_var.
Qed.
Lemma is_derive_lin c t : is_derive (fun t : R => t * c) t c.
Proof. apply (is_derive_eq _ _ (1 * c + t * 0)); [|ring]. apply (is_derive_prod (fun t => t) (fun _ => c)). apply is_derive_var. apply is_derive_cst. Qed.

Lemma one_sided G G1 G2 x s h B : Rabs s = 1 ->
  (forall t, 0 <= t <= h -> is_derive G (x + s * t) (G1 (x + s * t))) ->
  (forall t, 0 <= t <= h -> is_derive G1 (x + s * t) (G2 (x + s * t))) ->
  (forall t, 0 <= t <= h -> Rabs (G2 (x + s * t)) <= B) -> 0 <= h ->
  Rabs (G (x + s * h) - G x - s * h * G1 x) <= B * h ^ 2 / 2.
Proof.
  intros S1 D1 D2 BB H.
  assert (X0 : x + s * 0 = x) by ring.
  assert (A1 : forall t, 0 <= t <= h -> Rabs (G1 (x + s * t) - G1 x) <= B * t ^ 1).
  { intros t T. pose proof (grow (fun t => G1 (x + s * t) - G1 x) (fun t => s * G2 (x + s * t) - 0) B 0 t) as P. cbv beta in P.
    replace (B * t ^ 1) with (B * t ^ 1 / INR 1) by (cbn; field). apply P.
    - intros r Rr. apply (is_derive_diff (fun t => G1 (x + s * t)) (fun _ => G1 x)). apply is_derive_along, D2; lra. apply is_derive_cst.
    - rewrite X0. ring.
    - intros r Rr. rewrite Rminus_0_r, Rabs_mult, S1. cbn [pow]. rewrite Rmult_1_l, Rmult_1_r. apply BB. lra.
    - lra. }
  pose proof (grow (fun t => G (x + s * t) - G x - t * (s * G1 x)) (fun t => s * G1 (x + s * t) - 0 - s * G1 x) B 1 h) as P. cbv beta in P.
  replace (INR 2) with 2 in P by (cbn; ring). replace (s * h * G1 x) with (h * (s * G1 x)) by ring. apply P; auto.
  - intros t T. apply (is_derive_diff (fun t => G (x + s * t) - G x) (fun t => t * (s * G1 x))).
    + apply (is_derive_diff (fun t => G (x + s * t)) (fun _ => G x)). apply is_derive_along, D1; lra. apply is_derive_cst.
    + apply is_derive_lin.
  - rewrite X0. ring.
  - intros t T. replace (s * G1 (x + s * t) - 0 - s * G1 x) with (s * (G1 (x + s * t) - G1 x)) by ring. rewrite Rabs_mult, S1, Rmult_1_l. apply A1. exact T.
Qed.

Lemma two_sided G G1 G2 G3 x h B :
  (forall y, x - h <= y <= x + h -> is_derive G y (G1 y)) -> (forall y, x - h <= y <= x + h -> is_derive G1 y (G2 y)) ->
  (forall y, x - h <= y <= x + h -> is_derive G2 y (G3 y)) -> (forall y, x - h <= y <= x + h -> Rabs (G3 y) <= B) -> 0 <= h ->
  Rabs (G (x + h) - G (x - h) - 2 * h * G1 x) <= B * h ^ 3 / 3.
Proof.
  intros D1 D2 D3 BB H.
  assert (X1 : forall t, x + 1 * t = x + t) by (intros; ring). assert (X2 : forall t, x + -1 * t = x - t) by (intros; ring).
  assert (Z1 : x + 0 = x) by ring. assert (Z2 : x - 0 = x) by ring.
  assert (pm : forall (F F' : R -> R) t, is_derive F (x + t) (F' (x + t)) -> is_derive (fun t => F (x + t)) t (F' (x + t))).
  { intros F F' t Q. pose proof (is_derive_along F (F' (x + t)) x 1 t) as W. rewrite X1, Rmult_1_l in W. specialize (W Q). revert W. apply is_derive_ext. intros r. rewrite X1. reflexivity. }
  assert (mm : forall (F F' : R -> R) t, is_derive F (x - t) (F' (x - t)) -> is_derive (fun t => F (x - t)) t (- F' (x - t))).
  { intros F F' t Q. pose proof (is_derive_along F (F' (x - t)) x (-1) t) as W. rewrite X2 in W. specialize (W Q).
    replace (- F' (x - t)) with (-1 * F' (x - t)) by ring. revert W. apply is_derive_ext. intros r. rewrite X2. reflexivity. }
  assert (A2 : forall t, 0 <= t <= h -> Rabs (G2 (x + t) - G2 (x - t)) <= 2 * B * t ^ 1).
  { intros t T. pose proof (grow (fun t => G2 (x + t) - G2 (x - t)) (fun t => G3 (x + t) - - G3 (x - t)) (2 * B) 0 t) as P. cbv beta in P.
    replace (2 * B * t ^ 1) with (2 * B * t ^ 1 / INR 1) by (cbn; field). apply P; try lra.
    - intros r Rr. apply (is_derive_diff (fun t => G2 (x + t)) (fun t => G2 (x - t))). apply pm, D3; lra. apply mm, D3; lra.
    - rewrite Z1, Z2. ring.
    - intros r Rr. cbn [pow]. pose proof (BB (x + r) ltac:(lra)) as U. pose proof (BB (x - r) ltac:(lra)) as V. apply Rabs_le_between in U. apply Rabs_le_between in V. apply Rabs_le. lra. }
  assert (A1 : forall t, 0 <= t <= h -> Rabs (G1 (x + t) + G1 (x - t) - 2 * G1 x) <= B * t ^ 2).
  { intros t T. pose proof (grow (fun t => G1 (x + t) + G1 (x - t) - 2 * G1 x) (fun t => G2 (x + t) + - G2 (x - t) - 0) (2 * B) 1 t) as P. cbv beta in P.
    replace (B * t ^ 2) with (2 * B * t ^ 2 / INR 2) by (cbn; field). apply P; try lra.
    - intros r Rr. apply (is_derive_diff (fun t => G1 (x + t) + G1 (x - t)) (fun _ => 2 * G1 x)); [|apply is_derive_cst].
      apply (is_derive_sum (fun t => G1 (x + t)) (fun t => G1 (x - t))). apply pm, D2; lra. apply mm, D2; lra.
    - rewrite Z1, Z2. ring.
    - intros r Rr. rewrite Rminus_0_r. apply A2. lra. }
  pose proof (grow (fun t => G (x + t) - G (x - t) - t * (2 * G1 x)) (fun t => G1 (x + t) - - G1 (x - t) - 2 * G1 x) B 2 h) as P. cbv beta in P.
  replace (INR 3) with 3 in P by (cbn; ring). replace (2 * h * G1 x) with (h * (2 * G1 x)) by ring. apply P; auto.
  - intros t T. apply (is_derive_diff (fun t => G (x + t) - G (x - t)) (fun t => t * (2 * G1 x))); [|apply is_derive_lin].
    apply (is_derive_diff (fun t => G (x + t)) (fun t => G (x - t))). apply pm, D1; lra. apply mm, D1; lra.
  - rewrite Z1, Z2. ring.
  - intros t T. replace (G1 (x + t) - - G1 (x - t) - 2 * G1 x) with (G1 (x + t) + G1 (x - t) - 2 * G1 x) by ring. apply A1. exact T.
Qed.

Section Accuracy.
  Context (m : R) (M : 0 < m).
  Lemma nested_bounded l u n f x h B : l <= 0 -> 0 <= u -> l < u -> 0 < h -> (forall y k, near l u x (reach m h n) y -> (k <= n)%nat -> ex_derive_n f k y) ->
    (forall y, near l u x (reach m h n) y -> Rabs (Derive_n f n y) <= B) -> Rabs (nested l u m n f x h) <= B.
  Proof. intros L U LU H D BB. destruct (nested_mean l u m L U LU M n f x h H D) as (xi & X & E). rewrite E. apply BB. exact X. Qed.

  Lemma one_sided_error l u n : (l = 0 /\ u = 1) \/ (l = -1 /\ u = 0) -> forall f x h B, 0 < h ->
    (forall y k, near l u x (reach m h n) y -> (k <= S n)%nat -> ex_derive_n f k y) ->
    (forall y, near l u x (reach m h n) y -> Rabs (Derive_n f (S n) y) <= B) ->
    Rabs (nested l u m n f x h - Derive_n f n x) <= B / 2 * reach m h n.
  Proof.
    intros LU. assert (L : l <= 0) by (destruct LU as [[-> ->]|[-> ->]]; lra). assert (U : 0 <= u) by (destruct LU as [[-> ->]|[-> ->]]; lra).
    assert (L1 : l < u) by (destruct LU as [[-> ->]|[-> ->]]; lra).
    induction n as [|n IH]; intros f x h B H D BB.
    - cbn [nested reach Derive_n]. rewrite Rminus_eq_0, Rabs_R0. lra.
    - assert (MH : 0 < m * h) by (apply Rmult_lt_0_compat; lra).
      pose proof (IH (Derive f) x (m * h) B MH) as I1. cbn [reach] in *.
      assert (NX : near l u x h x) by (apply near_self; lra).
      rewrite (Derive_n_S f n).
      set (G := fun y => nested l u m n f y (m * h)). set (G1 := fun y => nested l u m n (Derive f) y (m * h)).
      set (G2 := fun y => nested l u m n (Derive (Derive f)) y (m * h)).
      assert (DG : forall y, near l u x h y -> is_derive G y (G1 y)).
      { intros y Y. unfold G, G1. apply nested_derive; auto. intros z Z. apply Derive_correct. apply (D z 1%nat); [|lia]. apply (near_trans _ _ _ _ _ _ _ Y Z). }
      assert (DG1 : forall y, near l u x h y -> is_derive G1 y (G2 y)).
      { intros y Y. unfold G1, G2. apply nested_derive; auto. intros z Z. apply Derive_correct. apply (D z 2%nat); [|lia]. apply (near_trans _ _ _ _ _ _ _ Y Z). }
      assert (BG : forall y, near l u x h y -> Rabs (G2 y) <= B).
      { intros y Y. unfold G2. apply nested_bounded; auto.
        - intros z k Z K. apply ex_derive_n_S, ex_derive_n_S. apply D; [|lia]. apply (near_trans _ _ _ _ _ _ _ Y Z).
        - intros z Z. rewrite <- !Derive_n_S. apply BB. apply (near_trans _ _ _ _ _ _ _ Y Z). }
      assert (I2 : Rabs (G1 x - Derive_n (Derive f) n x) <= B / 2 * reach m (m * h) n).
      { apply I1.
        - intros z k Z K. apply ex_derive_n_S. apply D; [|lia]. apply (near_trans _ _ _ _ _ _ _ NX Z).
        - intros z Z. rewrite <- Derive_n_S. apply BB. apply (near_trans _ _ _ _ _ _ _ NX Z). }
      assert (I3 : Rabs ((G (x + u * h) - G (x + l * h)) / ((u - l) * h) - G1 x) <= B / 2 * h).
      { destruct LU as [[-> ->]|[-> ->]].
        - pose proof (one_sided G G1 G2 x 1 h B Rabs_R1) as O.
          replace ((G (x + 1 * h) - G (x + 0 * h)) / ((1 - 0) * h) - G1 x) with ((G (x + 1 * h) - G x - 1 * h * G1 x) / h) by (replace (x + 0 * h) with x by ring; field; lra).
          unfold Rdiv at 1. rewrite Rabs_mult, (Rabs_right (/ h)) by (apply Rle_ge, Rlt_le, Rinv_0_lt_compat; lra).
          apply (Rmult_le_reg_r h); [lra|]. rewrite Rmult_assoc, Rinv_l, Rmult_1_r by lra.
          replace (B / 2 * h * h) with (B * h ^ 2 / 2) by field.
          apply O; try lra; intros t T; [apply DG|apply DG1|apply BG]; unfold near; lra.
        - assert (S1 : Rabs (-1) = 1) by (rewrite Rabs_left; lra). pose proof (one_sided G G1 G2 x (-1) h B S1) as O.
          replace ((G (x + 0 * h) - G (x + -1 * h)) / ((0 - -1) * h) - G1 x) with (- ((G (x + -1 * h) - G x - -1 * h * G1 x) / h)) by (replace (x + 0 * h) with x by ring; field; lra).
          rewrite Rabs_Ropp. unfold Rdiv at 1. rewrite Rabs_mult, (Rabs_right (/ h)) by (apply Rle_ge, Rlt_le, Rinv_0_lt_compat; lra).
          apply (Rmult_le_reg_r h); [lra|]. rewrite Rmult_assoc, Rinv_l, Rmult_1_r by lra.
          replace (B / 2 * h * h) with (B * h ^ 2 / 2) by field.
          apply O; try lra; intros t T; [apply DG|apply DG1|apply BG]; unfold near; lra. }
      cbn [nested]. fold G. change (nested l u m n f (x + u * h) (m * h)) with (G (x + u * h)). change (nested l u m n f (x + l * h) (m * h)) with (G (x + l * h)).
      replace ((G (x + u * h) - G (x + l * h)) / ((u - l) * h) - Derive_n (Derive f) n x) with
        (((G (x + u * h) - G (x + l * h)) / ((u - l) * h) - G1 x) + (G1 x - Derive_n (Derive f) n x)) by ring.
      eapply Rle_trans; [apply Rabs_triang|]. lra.
  Qed.

  Lemma central_error n : forall f x h B, 0 < h ->
    (forall y k, near (-1) 1 x (reach m h n) y -> (k <= S (S n))%nat -> ex_derive_n f k y) ->
    (forall y, near (-1) 1 x (reach m h n) y -> Rabs (Derive_n f (S (S n)) y) <= B) ->
    Rabs (nested (-1) 1 m n f x h - Derive_n f n x) <= B / 6 * squared_steps m h n.
  Proof.
    assert (L : -1 <= 0) by lra. assert (U : 0 <= 1) by lra. assert (L1 : -1 < 1) by lra.
    induction n as [|n IH]; intros f x h B H D BB.
    - cbn [nested squared_steps Derive_n]. rewrite Rminus_eq_0, Rabs_R0. lra.
    - assert (MH : 0 < m * h) by (apply Rmult_lt_0_compat; lra).
      pose proof (IH (Derive f) x (m * h) B MH) as I1. cbn [reach squared_steps] in *.
      assert (NX : near (-1) 1 x h x) by (apply near_self; lra).
      rewrite (Derive_n_S f n).
      set (G := fun y => nested (-1) 1 m n f y (m * h)). set (G1 := fun y => nested (-1) 1 m n (Derive f) y (m * h)).
      set (G2 := fun y => nested (-1) 1 m n (Derive (Derive f)) y (m * h)). set (G3 := fun y => nested (-1) 1 m n (Derive (Derive (Derive f))) y (m * h)).
      assert (DG : forall y, near (-1) 1 x h y -> is_derive G y (G1 y)).
      { intros y Y. unfold G, G1. apply nested_derive; auto. intros z Z. apply Derive_correct. apply (D z 1%nat); [|lia]. apply (near_trans _ _ _ _ _ _ _ Y Z). }
      assert (DG1 : forall y, near (-1) 1 x h y -> is_derive G1 y (G2 y)).
      { intros y Y. unfold G1, G2. apply nested_derive; auto. intros z Z. apply Derive_correct. apply (D z 2%nat); [|lia]. apply (near_trans _ _ _ _ _ _ _ Y Z). }
      assert (DG2 : forall y, near (-1) 1 x h y -> is_derive G2 y (G3 y)).
      { intros y Y. unfold G2, G3. apply nested_derive; auto. intros z Z. apply Derive_correct. apply (D z 3%nat); [|lia]. apply (near_trans _ _ _ _ _ _ _ Y Z). }
      assert (BG : forall y, near (-1) 1 x h y -> Rabs (G3 y) <= B).
      { intros y Y. unfold G3. apply nested_bounded; auto.
        - intros z k Z K. do 3 apply ex_derive_n_S. apply D; [|lia]. apply (near_trans _ _ _ _ _ _ _ Y Z).
        - intros z Z. rewrite <- !Derive_n_S. apply BB. apply (near_trans _ _ _ _ _ _ _ Y Z). }
      assert (I2 : Rabs (G1 x - Derive_n (Derive f) n x) <= B / 6 * squared_steps m (m * h) n).
      { apply I1.
        - intros z k Z K. apply ex_derive_n_S. apply D; [|lia]. apply (near_trans _ _ _ _ _ _ _ NX Z).
        - intros z Z. rewrite <- Derive_n_S. apply BB. apply (near_trans _ _ _ _ _ _ _ NX Z). }
      assert (I3 : Rabs ((G (x + 1 * h) - G (x + -1 * h)) / ((1 - -1) * h) - G1 x) <= B / 6 * h ^ 2).
      { pose proof (two_sided G G1 G2 G3 x h B) as O.
        replace ((G (x + 1 * h) - G (x + -1 * h)) / ((1 - -1) * h) - G1 x) with ((G (x + h) - G (x - h) - 2 * h * G1 x) / (2 * h))
          by (replace (x + 1 * h) with (x + h) by ring; replace (x + -1 * h) with (x - h) by ring; field; lra).
        unfold Rdiv at 1. rewrite Rabs_mult, (Rabs_right (/ (2 * h))) by (apply Rle_ge, Rlt_le, Rinv_0_lt_compat; lra).
        apply (Rmult_le_reg_r (2 * h)); [lra|]. rewrite Rmult_assoc, Rinv_l, Rmult_1_r by lra.
        replace (B / 6 * h ^ 2 * (2 * h)) with (B * h ^ 3 / 3) by field.
        apply O; try lra; intros y Y; [apply DG|apply DG1|apply DG2|apply BG]; unfold near; lra. }
      cbn [nested]. fold G. change (nested (-1) 1 m n f (x + 1 * h) (m * h)) with (G (x + 1 * h)). change (nested (-1) 1 m n f (x + -1 * h) (m * h)) with (G (x + -1 * h)).
      replace ((G (x + 1 * h) - G (x + -1 * h)) / ((1 - -1) * h) - Derive_n (Derive f) n x) with
        (((G (x + 1 * h) - G (x + -1 * h)) / ((1 - -1) * h) - G1 x) + (G1 x - Derive_n (Derive f) n x)) by ring.
      eapply Rle_trans; [apply Rabs_triang|]. lra.
  Qed.
End Accuracy.

(** ** the code computes the nested difference *)
Definition lower_of (mode : FiniteDifferenceMode) : R := match mode with Forward => 0 | _ => -1 end.
Definition upper_of (mode : FiniteDifferenceMode) : R := match mode with Backward => 0 | _ => 1 end.
Lemma offsets_R mode : offsets (T := R) mode = (lower_of mode, upper_of mode, upper_of mode - lower_of mode).
Proof. destruct mode; cbn; rnum; repeat f_equal; ring. Qed.
Lemma fd_diff_nested (c : FiniteDifferenceConfig R) n f : forall x h,
  fd_diff c (S n) f x h = nested (lower_of (method c)) (upper_of (method c)) (step_size_multiplier c) (S n) f x h.
Proof.
  induction n as [|n IH]; intros x h.
  - cbn [fd_diff nested]. rewrite offsets_R. rnum. reflexivity.
  - change (fd_diff c (S (S n)) f x h) with (let '(lower, upper, denom) := offsets (T := R) (method c) in
      let next := (step_size_multiplier c * h)%num in
      ((fd_diff c (S n) f (x + upper * h) next - fd_diff c (S n) f (x + lower * h) next) / (denom * h))%num).
    rewrite offsets_R. rnum. rewrite !IH. reflexivity.
Qed.

Lemma in_reach_near mode x H y : in_reach mode x H y <-> near (lower_of mode) (upper_of mode) x H y.
Proof. unfold in_reach, near, lower_of, upper_of. destruct mode; split; intros; lra. Qed.

(** ** several variables *)
Lemma moved_length p i v : length (moved p i v) = length p. Proof. apply set_nth_length. Qed.
Lemma moved_eq p i v : (i < length p)%nat -> nth i (moved p i v) 0 = v. Proof. apply nth_set_nth_eq. Qed.
Lemma moved_neq p i j v : i <> j -> nth j (moved p i v) 0 = nth j p 0. Proof. apply nth_set_nth_neq. Qed.
Lemma moved_moved p i v w : moved (moved p i v) i w = moved p i w.
Proof. revert i. induction p as [|a p IH]; intros [|i]; cbn; auto. unfold moved in *. cbn. f_equal. apply IH. Qed.
Lemma moved_comm p i j v w : i <> j -> moved (moved p i v) j w = moved (moved p j w) i v.
Proof. revert i j. induction p as [|a p IH]; intros [|i] [|j] N; cbn; auto; try congruence. unfold moved in *. cbn. f_equal. apply IH. congruence. Qed.
Lemma moved_self p i : moved p i (nth i p 0) = p.
Proof. revert i. induction p as [|a p IH]; intros [|i]; cbn; auto. unfold moved in *. cbn. f_equal. apply IH. Qed.
Lemma shift_moved (p : list R) i s : shift p i s = moved p i (nth i p 0 + s). Proof. reflexivity. Qed.
Lemma shift_after_move p v w t s : (v < length p)%nat ->
  shift (moved p v t) w s = moved (shift p w s) v (t + (if Nat.eq_dec w v then s else 0)).
Proof.
  intros V. rewrite !shift_moved. destruct (Nat.eq_dec w v) as [->|N].
  - rewrite moved_eq, !moved_moved by auto. reflexivity.
  - rewrite moved_neq by auto. rewrite Rplus_0_r. apply moved_comm. auto.
Qed.
Lemma shift_nth (p : list R) v w s : (v < length p)%nat -> nth v (shift p w s) 0 = nth v p 0 + (if Nat.eq_dec w v then s else 0).
Proof. intros V. rewrite shift_moved. destruct (Nat.eq_dec w v) as [->|N]. rewrite moved_eq; auto. rewrite moved_neq by auto. ring. Qed.
Lemma in_box_shift p w s H : Rabs s <= H -> in_box p H (shift p w s).
Proof.
  intros B. split; [rewrite shift_moved; apply moved_length|]. intros i. destruct (Nat.lt_ge_cases i (length p)) as [L|L].
  - rewrite shift_nth by auto. destruct (Nat.eq_dec w i); [|replace (nth i p 0 + 0 - nth i p 0) with 0 by ring; rewrite Rabs_R0; pose proof (Rabs_pos s); lra].
    replace (nth i p 0 + s - nth i p 0) with s by ring. exact B.
  - rewrite !nth_overflow; [|lia|rewrite shift_moved, moved_length; lia]. rewrite Rminus_eq_0, Rabs_R0. pose proof (Rabs_pos s). lra.
Qed.
Lemma in_box_trans p a q b r : in_box p a q -> in_box q b r -> in_box p (a + b) r.
Proof.
  intros [L1 B1] [L2 B2]. split; [congruence|]. intros i. replace (nth i r 0 - nth i p 0) with ((nth i r 0 - nth i q 0) + (nth i q 0 - nth i p 0)) by ring.
  eapply Rle_trans; [apply Rabs_triang|]. pose proof (B1 i). pose proof (B2 i). lra.
Qed.
Lemma in_box_self p H : 0 <= H -> in_box p H p.
Proof. intros. split; auto. intros. rewrite Rminus_eq_0, Rabs_R0. exact H0. Qed.

(** the partial derivatives with respect to the listed coordinates, the first one first *)
Fixpoint chain (idx : list nat) (f : list R -> R) : list R -> R := match idx with [] => f | i :: rest => chain rest (partial_of i f) end.
Lemma chain_snoc l i f : chain (l ++ [i]) f = partial_of i (chain l f).
Proof. revert f. induction l as [|a l IH]; intros f; cbn [chain app]; auto. Qed.
Lemma chain_rev idx f : chain (rev idx) f = partials idx f.
Proof. induction idx as [|i idx IH]; cbn [rev partials]; auto. rewrite chain_snoc, IH. reflexivity. Qed.

Section NestedMulti.
  Context (l u m : R) (L : -1 <= l <= 0) (U : 0 <= u <= 1) (LU : l < u) (M : 0 < m).
  Fixpoint nested_multi (idx : list nat) (f : list R -> R) (p : list R) (h : R) : R :=
    match idx with
    | [] => f p
    | v :: rest => (nested_multi rest f (shift p v (u * h)) (m * h) - nested_multi rest f (shift p v (l * h)) (m * h)) / ((u - l) * h)
    end.
  Lemma step_in_box p v s h : -1 <= s <= 1 -> 0 < h -> in_box p h (shift p v (s * h)).
  Proof. intros S H. apply in_box_shift. rewrite Rabs_mult, (Rabs_right h) by lra. rewrite <- (Rmult_1_l h) at 2. apply Rmult_le_compat_r; [lra|]. apply Rabs_le. lra. Qed.

  Lemma nested_multi_derive rest : forall f v p h, 0 < h -> (v < length p)%nat ->
    (forall q, in_box p (reach m h (length rest)) q -> has_partial v f q) ->
    is_derive (slice (fun p => nested_multi rest f p h) p v) (nth v p 0) (nested_multi rest (partial_of v f) p h).
  Proof.
    induction rest as [|w rest IH]; intros f v p h H V D.
    - cbn [nested_multi]. apply Derive_correct. apply D. apply in_box_self. cbn. lra.
    - assert (MH : 0 < m * h) by (apply Rmult_lt_0_compat; lra).
      assert (S1 : forall s, -1 <= s <= 1 -> is_derive (fun t => nested_multi rest f (shift (moved p v t) w (s * h)) (m * h)) (nth v p 0)
                 (nested_multi rest (partial_of v f) (shift p w (s * h)) (m * h))).
      { intros s S. set (del := if Nat.eq_dec w v then s * h else 0).
        apply (is_derive_ext (fun t => slice (fun p => nested_multi rest f p (m * h)) (shift p w (s * h)) v (t + del))).
        { intros t. unfold slice. rewrite (shift_after_move p v w t (s * h) V). reflexivity. }
        apply (is_derive_eq _ _ (nested_multi rest (partial_of v f) (shift p w (s * h)) (m * h) * (1 + 0))); [|ring].
        apply (is_derive_chain (slice (fun p => nested_multi rest f p (m * h)) (shift p w (s * h)) v) (fun t => t + del)).
        - pose proof (shift_nth p v w (s * h) V) as E. fold del in E. cbv beta. rewrite <- E. apply IH; auto.
          + rewrite shift_moved, moved_length. exact V.
          + intros q Q. apply D. cbn [length reach]. apply (in_box_trans p h (shift p w (s * h))); auto. apply step_in_box; auto.
        - apply (is_derive_sum (fun t => t) (fun _ => del)). apply is_derive_var. apply is_derive_cst. }
      cbn [nested_multi]. unfold slice at 1. cbn [nested_multi].
      apply (is_derive_eq _ _ ((nested_multi rest (partial_of v f) (shift p w (u * h)) (m * h) - nested_multi rest (partial_of v f) (shift p w (l * h)) (m * h)) * / ((u - l) * h)
         + (nested_multi rest f (shift (moved p v (nth v p 0)) w (u * h)) (m * h) - nested_multi rest f (shift (moved p v (nth v p 0)) w (l * h)) (m * h)) * 0)); [|unfold Rdiv; ring].
      unfold Rdiv.
      apply (is_derive_prod (fun t => nested_multi rest f (shift (moved p v t) w (u * h)) (m * h) - nested_multi rest f (shift (moved p v t) w (l * h)) (m * h)) (fun _ => / ((u - l) * h))).
      + apply (is_derive_diff (fun t => nested_multi rest f (shift (moved p v t) w (u * h)) (m * h)) (fun t => nested_multi rest f (shift (moved p v t) w (l * h)) (m * h))); apply S1; lra.
      + apply is_derive_cst.
  Qed.

  (** the partial derivatives the chain passes through *)
  Fixpoint chain_ok (idx : list nat) (f : list R -> R) (q : list R) : Prop :=
    match idx with [] => True | i :: rest => has_partial i f q /\ chain_ok rest (partial_of i f) q end.
  Theorem nested_multi_mean idx : forall f p h, 0 < h -> List.Forall (fun i => (i < length p)%nat) idx ->
    (forall q, in_box p (reach m h (length idx)) q -> chain_ok idx f q) ->
    exists q, in_box p (reach m h (length idx)) q /\ nested_multi idx f p h = chain idx f q.
  Proof.
    induction idx as [|v rest IH]; intros f p h H R D.
    - exists p. split; [apply in_box_self; cbn; lra|reflexivity].
    - assert (MH : 0 < m * h) by (apply Rmult_lt_0_compat; lra). inversion_clear R as [|? ? V R'].
      set (t0 := nth v p 0). set (phi := fun t => nested_multi rest f (moved p v t) (m * h)).
      set (dphi := fun t => nested_multi rest (partial_of v f) (moved p v t) (m * h)).
      assert (BX : forall t, t0 + l * h <= t <= t0 + u * h -> in_box p h (moved p v t)).
      { intros t T. replace t with (t0 + (t - t0)) by ring. change (moved p v (t0 + (t - t0))) with (shift p v (t - t0)). apply in_box_shift. apply Rabs_le.
        pose proof (Rmult_le_compat_r h u 1 ltac:(lra) ltac:(lra)). pose proof (Rmult_le_compat_r h (-1) l ltac:(lra) ltac:(lra)). lra. }
      assert (DD : forall t, t0 + l * h <= t <= t0 + u * h -> is_derive phi t (dphi t)).
      { intros t T. pose proof (nested_multi_derive rest f v (moved p v t) (m * h) MH) as P. rewrite moved_length, moved_eq in P by auto.
        specialize (P V). assert (Q : forall q, in_box (moved p v t) (reach m (m * h) (length rest)) q -> has_partial v f q).
        { intros q Q. apply (D q). cbn [length reach]. apply (in_box_trans _ _ _ _ _ (BX t T) Q). }
        specialize (P Q). revert P. apply is_derive_ext. intros s. unfold slice. rewrite moved_moved. reflexivity. }
      assert (lt : t0 + l * h < t0 + u * h) by (pose proof (Rmult_lt_0_compat (u - l) h ltac:(lra) H); lra).
      destruct (MVT_gen phi (t0 + l * h) (t0 + u * h) dphi) as (c & C & E).
      + intros y. rewrite Rmin_left, Rmax_right by lra. intros Y. apply DD. lra.
      + intros y. rewrite Rmin_left, Rmax_right by lra. intros Y. apply derivable_continuous_pt. eexists. apply is_derive_Reals, DD. lra.
      + rewrite Rmin_left, Rmax_right in C by lra.
        destruct (IH (partial_of v f) (moved p v c) (m * h) MH) as (q & Q & W).
        { eapply List.Forall_impl; [|exact R']. intros i. rewrite moved_length. auto. }
        { intros q Q. apply (D q). cbn [length reach]. apply (in_box_trans _ _ _ _ _ (BX c C) Q). }
        exists q. split; [cbn [length reach]; apply (in_box_trans _ _ _ _ _ (BX c C) Q)|].
        cbn [nested_multi chain]. change (shift p v (u * h)) with (moved p v (t0 + u * h)). change (shift p v (l * h)) with (moved p v (t0 + l * h)).
        change (nested_multi rest f (moved p v (t0 + u * h)) (m * h)) with (phi (t0 + u * h)). change (nested_multi rest f (moved p v (t0 + l * h)) (m * h)) with (phi (t0 + l * h)).
        rewrite E. unfold dphi. rewrite W. field. split; [lra|]. pose proof (Rmult_lt_0_compat (u - l) h ltac:(lra) H). lra.
  Qed.
End NestedMulti.
Lemma fd_multi_nested (c : FiniteDifferenceConfig R) f idx : idx <> [] -> forall p h,
  fd_diff_multi c f idx p h = nested_multi (lower_of (method c)) (upper_of (method c)) (step_size_multiplier c) idx f p h.
Proof.
  induction idx as [|v rest IH]; intros N p h; [congruence|]. destruct rest as [|w rest].
  - cbn [fd_diff_multi nested_multi]. rewrite offsets_R. rnum. reflexivity.
  - change (fd_diff_multi c f (v :: w :: rest) p h) with (let '(lower, upper, denom) := offsets (T := R) (method c) in
      let next := (step_size_multiplier c * h)%num in
      ((fd_diff_multi c f (w :: rest) (shift p v (upper * h)) next - fd_diff_multi c f (w :: rest) (shift p v (lower * h)) next) / (denom * h))%num).
    rewrite offsets_R. rnum. rewrite !IH by congruence. reflexivity.
Qed.
Lemma chain_ok_rev idx f q : differentiable idx f q -> chain_ok (rev idx) f q.
Proof.
  assert (G : forall l i f, chain_ok l f q -> has_partial i (chain l f) q -> chain_ok (l ++ [i]) f q).
  { induction l as [|a l IH]; intros i g A B; cbn [app chain_ok chain] in *; [split; auto|]. destruct A. split; auto. }
  induction idx as [|i idx IH]; intros D; cbn [rev]; [exact Logic.I|]. apply G.
  - apply IH. intros a j b E. apply (D (i :: a) j b). rewrite E. reflexivity.
  - rewrite chain_rev. apply (D [] i idx eq_refl).
Qed.
