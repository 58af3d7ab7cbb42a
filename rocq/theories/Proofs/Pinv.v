(** The pseudo-inverse put together from a decomposition. *)
From Coq Require Import ZArith Reals List Bool Arith Lia Lra Psatz.
From Verif Require Import Base.Scalar Base.RNum Base.Lists Base.Series Base.Det Model.Errors Model.Vector Model.Matrix Model.Lu Model.Svd Spec.Matrix Spec.Svd.
From Verif Require Import Proofs.Matrix Proofs.Lu Proofs.Qr Proofs.Svd Proofs.Roots.
Import ListNotations.
Local Open Scope R_scope.

Lemma bsum_const n c : bsum n (fun _ => c) = INR n * c.
Proof. induction n as [|n IH]; [cbn; ring|]. rewrite S_INR. cbn [bsum]. rewrite IH. ring. Qed.

(** ** What the four conditions give *)
Lemma equal_trans rows cols a b c : equal rows cols a b -> equal rows cols b c -> equal rows cols a c.
Proof. intros H K i j Hi Hj. rewrite H, K by auto. reflexivity. Qed.
Lemma dot_plus n x y : square_norm n (fun i => x i + y i) = square_norm n x + 2 * dot_product n x y + square_norm n y.
Proof. unfold square_norm, dot_product. rewrite <- bsum_scal, <- !bsum_plus. apply bsum_ext. intros; ring. Qed.
Lemma dot_transposed rows cols a x y : dot_product rows (times cols a x) y = dot_product cols x (times rows (transposed a) y).
Proof.
  unfold dot_product, times, transposed. rewrite (bsum_ext rows _ (fun i => bsum cols (fun k => a i k * x k * y i))) by (intros; rewrite Rmult_comm, <- bsum_scal; apply bsum_ext; intros; ring).
  rewrite bsum_swap. apply bsum_ext. intros k Hk. rewrite <- bsum_scal. apply bsum_ext. intros; ring.
Qed.
Section Penrose.
  Variables (rows cols : nat) (a p : matrix).
  Hypothesis MP : moore_penrose rows cols a p.
  Let AP := product cols a p.
  Let PA := product rows p a.
  Lemma times_AP x i : times rows AP x i = times cols a (times rows p x) i.
  Proof. apply times_product. Qed.
  (** the residual is orthogonal to everything [a] reaches *)
  Lemma residual_orthogonal b z : dot_product rows (times cols a z) (fun i => times cols a (times rows p b) i - b i) = 0.
  Proof.
    destruct MP as (M1 & M2 & M3 & M4).
    assert (E : equal_vectors rows (times cols a z) (times rows AP (times cols a z))).
    { intros i Hi. rewrite <- times_product. apply times_ext; [|intros k Hk; reflexivity]. intros k Hk. symmetry. apply M1; auto. }
    set (w := times cols a z) in *.
    assert (D : dot_product rows (times rows AP w) b = dot_product rows w (times rows AP b)).
    { rewrite dot_transposed. apply dot_ext; [intros i Hi; reflexivity|]. intros i Hi. apply times_ext; [|intros k Hk; reflexivity]. intros k Hk. symmetry. apply M3; auto. }
    unfold dot_product at 1. rewrite (bsum_ext rows _ (fun k => w k * times rows AP b k - w k * b k)).
    - rewrite bsum_minus. fold (dot_product rows w (times rows AP b)). fold (dot_product rows w b). rewrite <- D.
      rewrite (dot_ext rows w (times rows AP w) b b) by (auto; intros i Hi; reflexivity). ring.
    - intros k Hk. rewrite times_AP. ring.
  Qed.
  Lemma penrose_least_squares b : shortest_least_squares rows cols a b (times rows p b).
  Proof.
    intros y. set (x := times rows p b).
    assert (S : square_norm rows (fun i => times cols a y i - b i) = square_norm rows (fun i => times cols a x i - b i) + square_norm rows (times cols a (fun k => y k - x k))).
    { assert (Q : equal_vectors rows (fun i => times cols a y i - b i) (fun i => (times cols a x i - b i) + times cols a (fun k => y k - x k) i)).
      { intros i Hi. unfold times. rewrite (bsum_ext cols (fun k => a i k * (y k - x k)) (fun k => a i k * y k - a i k * x k)) by (intros; ring). rewrite bsum_minus. ring. }
      transitivity (square_norm rows (fun i => (times cols a x i - b i) + times cols a (fun k => y k - x k) i)); [apply dot_ext; exact Q|].
      rewrite dot_plus. rewrite (dot_comm rows (fun i => times cols a x i - b i)). unfold x at 3. rewrite residual_orthogonal. ring. }
    split; [pose proof (square_norm_nonneg rows (times cols a (fun k => y k - x k))); lra|].
    intros E. rewrite E in S. assert (Z : square_norm rows (times cols a (fun k => y k - x k)) = 0) by lra.
    pose proof (square_norm_zero rows _ Z) as AZ. destruct MP as (M1 & M2 & M3 & M4).
    (* x is PA x, and PA (y - x) = 0 *)
    assert (X : equal_vectors cols x (times cols PA x)).
    { intros i Hi. unfold x at 2. rewrite <- times_product. apply times_ext; [|intros k Hk; reflexivity]. intros k Hk. symmetry. apply M2; auto. }
    assert (PZ : equal_vectors cols (times cols PA (fun k => y k - x k)) (fun _ => 0)).
    { intros i Hi. unfold PA. rewrite times_product. unfold times at 1. rewrite (bsum_ext rows _ (fun _ => 0)); [apply bsum_0|]. intros k Hk. rewrite AZ by auto. ring. }
    assert (D : dot_product cols x (fun k => y k - x k) = 0).
    { rewrite (dot_ext cols x (times cols PA x) _ (fun k => y k - x k)) by (auto; intros i Hi; reflexivity). rewrite dot_transposed.
      rewrite (dot_ext cols x x _ (fun _ => 0)); [unfold dot_product; rewrite (bsum_ext cols _ (fun _ => 0)) by (intros; ring); apply bsum_0|intros i Hi; reflexivity|].
      intros i Hi. rewrite <- (PZ i Hi). apply times_ext; [|intros k Hk; reflexivity]. intros k Hk. symmetry. apply M4; auto. }
    assert (N : square_norm cols y = square_norm cols x + square_norm cols (fun k => y k - x k)).
    { assert (Q : square_norm cols y = square_norm cols (fun k => x k + (y k - x k))) by (apply dot_ext; intros k Hk; ring). rewrite Q, dot_plus, D. ring. }
    pose proof (square_norm_nonneg cols (fun k => y k - x k)). lra.
  Qed.
End Penrose.
Lemma penrose_unique rows cols a p q : moore_penrose rows cols a p -> moore_penrose rows cols a q -> equal cols rows p q.
Proof.
  intros (P1 & P2 & P3 & P4) (Q1 & Q2 & Q3 & Q4) i j Hi Hj.
  (* p = p a p = p (a p)' ... = p a q, q = q a q = p a q *)
  assert (AP : equal rows rows (product cols a p) (product cols a q)).
  { intros r c Hr Hc. transitivity (product rows (product cols a q) (product cols a p) r c).
    - rewrite <- (product_assoc rows cols (product cols a q) a p). symmetry. apply product_ext; auto.
    - transitivity (product rows (product cols a p) (product cols a q) c r).
      + unfold product at 1 4. apply bsum_ext. intros k Hk. rewrite (Q3 r k) by auto. rewrite (P3 k c) by auto. unfold transposed. ring.
      + rewrite <- (product_assoc rows cols (product cols a p) a q). rewrite (Q3 r c) by auto. unfold transposed. apply product_ext; auto. }
  assert (PA : equal cols cols (product rows p a) (product rows q a)).
  { intros r c Hr Hc. transitivity (product cols (product rows p a) (product rows q a) r c).
    - rewrite product_assoc. apply product_ext; [auto|]. intros k Hk. rewrite <- (product_assoc cols rows a q a). symmetry. apply Q1; auto.
    - transitivity (product cols (product rows q a) (product rows p a) c r).
      + unfold product at 1 4. apply bsum_ext. intros k Hk. rewrite (P4 r k) by auto. rewrite (Q4 k c) by auto. unfold transposed. ring.
      + rewrite product_assoc. rewrite (Q4 r c) by auto. unfold transposed.
        apply product_ext; [auto|]. intros k Hk. rewrite <- (product_assoc cols rows a p a). apply P1; auto. }
  transitivity (product cols (product rows p a) p i j); [symmetry; apply P2; auto|].
  transitivity (product cols (product rows q a) p i j); [apply product_ext; [intros; apply PA; auto|auto]|].
  transitivity (product cols (product rows q a) q i j); [|apply Q2; auto].
  rewrite !product_assoc. apply product_ext; [auto|]. intros k Hk. apply AP; auto.
Qed.
Lemma penrose_transposed rows cols a p : moore_penrose cols rows (transposed a) p -> moore_penrose rows cols a (transposed p).
Proof.
  intros (P1 & P2 & P3 & P4). split; [|split; [|split]].
  - intros i j Hi Hj. transitivity (transposed a j i); [|reflexivity]. rewrite <- (P1 j i) by auto. unfold product, transposed.
    rewrite (bsum_ext rows _ (fun k => bsum cols (fun l => a i l * p k l * a k j))) by (intros; rewrite Rmult_comm, <- bsum_scal; apply bsum_ext; intros; ring).
    rewrite bsum_swap. apply bsum_ext. intros k Hk. rewrite Rmult_comm, <- bsum_scal. apply bsum_ext. intros; ring.
  - intros i j Hi Hj. unfold transposed. rewrite <- (P2 j i) by auto. unfold product, transposed.
    rewrite (bsum_ext cols _ (fun k => bsum rows (fun l => p l i * a l k * p j k))) by (intros; rewrite Rmult_comm, <- bsum_scal; apply bsum_ext; intros; ring).
    rewrite bsum_swap. apply bsum_ext. intros k Hk. rewrite Rmult_comm, <- bsum_scal. apply bsum_ext. intros; ring.
  - intros i j Hi Hj. pose proof (P4 i j Hi Hj) as E. unfold product, transposed in *. rewrite (bsum_ext cols _ (fun k => p j k * a i k)) by (intros; ring). rewrite <- E. apply bsum_ext. intros; ring.
  - intros i j Hi Hj. pose proof (P3 i j Hi Hj) as E. unfold product, transposed in *. rewrite (bsum_ext rows _ (fun k => a k j * p k i)) by (intros; ring). rewrite <- E. apply bsum_ext. intros; ring.
Qed.

(** ** The sum over the directions kept *)
Section Sum.
  Variables (rows cols : nat) (A : matrix) (small : Prop) (eps tol : R) (d : svd (T := R)).
  Let U := svd_left d.
  Let V := svd_right d.
  Let sg := singular_values d.
  Hypothesis T : triple rows cols A small eps U sg V.
  Hypothesis T0 : 0 <= tol.
  Let on (k : nat) : R := if Rltb tol (vget sg k) then 1 else 0.
  Let inv (k : nat) : R := if Rltb tol (vget sg k) then / vget sg k else 0.
  Let P := mget (pseudo_inverse_tol rows cols d tol).
  Lemma pseudo_spec i j : (i < cols)%nat -> (j < rows)%nat -> P i j = composed cols (mget V) inv (mget U) i j.
  Proof.
    intros Hi Hj. unfold P, pseudo_inverse_tol. rewrite mget_mat_fn by auto. unfold composed.
    assert (G : forall n acc, fold_left (fun acc k => if ltb tol (vget (singular_values d) k) then acc + mget V i k * mget U j k / vget (singular_values d) k else acc) (range 0 n) acc = acc + bsum n (fun k => mget V i k * inv k * mget U j k)).
    { induction n as [|n IH]; intros acc; [cbn; ring|]. unfold range. rewrite Nat.sub_0_r, seq_S, fold_left_app. unfold range in IH. rewrite Nat.sub_0_r in IH. rewrite IH. cbn [fold_left Nat.add bsum].
      unfold inv, sg. change (ltb tol (vget (singular_values d) n)) with (Rltb tol (vget (singular_values d) n)). destruct (Rltb tol (vget (singular_values d) n)); [unfold Rdiv; ring|ring]. }
    etransitivity; [exact (G cols 0)|]. ring.
  Qed.
  Lemma on_inv k : (k < cols)%nat -> vget sg k * inv k = on k.
  Proof. intros Hk. unfold on, inv. destruct (Rltb tol (vget sg k)) eqn:E; rcases; [field; lra|ring]. Qed.
  Lemma A_spec i j : (i < rows)%nat -> (j < cols)%nat -> A i j = composed cols (mget U) (vget sg) (mget V) i j.
  Proof. intros. symmetry. apply T; auto. Qed.
  Lemma V_columns k l : (k < cols)%nat -> (l < cols)%nat -> bsum cols (fun r => mget V r k * mget V r l) = if Nat.eqb k l then 1 else 0.
  Proof. intros Hk Hl. destruct T as (_ & _ & _ & _ & _ & O & _). apply (O k l); auto. Qed.
  (** composing with a matrix between whose columns everything is known *)
  Lemma composed_product n m x s y z t w (G : nat -> nat -> R) i j : (forall k l, (k < cols)%nat -> (l < m)%nat -> bsum n (fun r => y r k * z r l) = G k l) ->
    product n (composed cols x s y) (composed m z t w) i j = bsum cols (fun k => x i k * s k * bsum m (fun l => G k l * t l * w j l)).
  Proof.
    intros H. unfold product, composed.
    rewrite (bsum_ext n _ (fun r => bsum cols (fun k => bsum m (fun l => x i k * s k * (t l * w j l) * (y r k * z r l))))).
    - rewrite bsum_swap. apply bsum_ext. intros k Hk. rewrite bsum_swap. rewrite <- bsum_scal. apply bsum_ext. intros l Hl. rewrite bsum_scal, H by auto. ring.
    - intros r Hr. rewrite Rmult_comm, <- bsum_scal. apply bsum_ext. intros k Hk. rewrite Rmult_comm, <- bsum_scal. apply bsum_ext. intros; ring.
  Qed.
  Lemma sum_delta (f : nat -> R) k : (k < cols)%nat -> bsum cols (fun l => (if Nat.eqb k l then 1 else 0) * f l) = f k.
  Proof. intros Hk. rewrite (bsum_ext cols _ (fun l => if Nat.eqb l k then f k else 0)); [apply bsum_delta; auto|]. intros l Hl. rewrite Nat.eqb_sym. destruct (Nat.eqb_spec l k) as [->|]; ring. Qed.
  Lemma AP_spec i j : (i < rows)%nat -> (j < rows)%nat -> product cols A P i j = composed cols (mget U) on (mget U) i j.
  Proof.
    intros Hi Hj. rewrite (product_ext cols A (composed cols (mget U) (vget sg) (mget V)) P (composed cols (mget V) inv (mget U))) by (intros; first [apply A_spec; solve [auto]|apply pseudo_spec; solve [auto]]).
    rewrite (composed_product cols cols _ _ _ _ _ _ (fun k l => if Nat.eqb k l then 1 else 0) i j V_columns). unfold composed. apply bsum_ext. intros k Hk.
    rewrite (bsum_ext cols _ (fun l => (if Nat.eqb k l then 1 else 0) * (inv l * mget U j l))) by (intros; ring). rewrite sum_delta by auto. rewrite <- on_inv by auto. ring.
  Qed.
  Lemma AP_symmetric : symmetric rows (product cols A P).
  Proof. intros i j Hi Hj. unfold transposed. rewrite !AP_spec by auto. unfold composed. apply bsum_ext. intros; ring. Qed.
  Let G (k l : nat) : R := dot_product rows (col U k) (col U l).
  Lemma U_columns k l : (k < cols)%nat -> (l < cols)%nat -> bsum rows (fun r => mget U r k * mget U r l) = G k l.
  Proof. reflexivity. Qed.
  Lemma PA_spec i j : (i < cols)%nat -> (j < cols)%nat -> product rows P A i j = bsum cols (fun k => mget V i k * inv k * bsum cols (fun l => G k l * vget sg l * mget V j l)).
  Proof.
    intros Hi Hj. rewrite (product_ext rows P (composed cols (mget V) inv (mget U)) A (composed cols (mget U) (vget sg) (mget V))) by (intros; first [apply pseudo_spec; solve [auto]|apply A_spec; solve [auto]]).
    apply (composed_product rows cols). apply U_columns.
  Qed.
  Lemma APA_spec i j : (i < rows)%nat -> (j < cols)%nat -> product rows (product cols A P) A i j = bsum cols (fun k => mget U i k * on k * bsum cols (fun l => G k l * vget sg l * mget V j l)).
  Proof.
    intros Hi Hj. rewrite (product_ext rows _ (composed cols (mget U) on (mget U)) A (composed cols (mget U) (vget sg) (mget V))) by (intros; first [apply AP_spec; solve [auto]|apply A_spec; solve [auto]]).
    apply (composed_product rows cols). apply U_columns.
  Qed.
  Lemma entry_bound (m : mat R) n k i : (i < n)%nat -> square_norm n (col m k) <= 1 -> Rabs (mget m i k) <= 1.
  Proof.
    intros Hi H. assert (mget m i k * mget m i k <= 1).
    { apply Rle_trans with (2 := H). unfold square_norm, dot_product. rewrite <- (bsum_delta n i (mget m i k * mget m i k) Hi) at 1. apply bsum_le. intros l Hl. unfold col. destruct (Nat.eqb_spec l i) as [->|]; nra. }
    apply Rabs_le. split; nra.
  Qed.
  Lemma U_bound k i : (k < cols)%nat -> (i < rows)%nat -> Rabs (mget U i k) <= 1.
  Proof.
    intros Hk Hi. destruct T as (_ & _ & _ & _ & _ & _ & S & _). destruct (S k Hk) as (S0 & S1 & S2). destruct S0 as [S0|S0].
    - apply (entry_bound U rows k i Hi). rewrite S2 by auto. lra.
    - rewrite S1 by auto. rewrite Rabs_R0. lra.
  Qed.
  Lemma V_bound k i : (k < cols)%nat -> (i < cols)%nat -> Rabs (mget V i k) <= 1.
  Proof. intros Hk Hi. apply (entry_bound V cols k i Hi). unfold square_norm. change (col V k) with (column (mget V) k). destruct T as (_ & _ & _ & _ & _ & O & _). rewrite O, Nat.eqb_refl by auto. lra. Qed.
  Lemma G_diagonal k : (k < cols)%nat -> on k = 1 -> G k k = 1.
  Proof.
    intros Hk O. destruct T as (_ & _ & _ & _ & _ & _ & S & _). destruct (S k Hk) as (S0 & S1 & S2). apply S2. unfold on in O. destruct (Rltb tol (vget sg k)) eqn:E; rcases; lra.
  Qed.
  (** a triple product is close to the matrix *)
  Lemma APA_close i j : (i < rows)%nat -> (j < cols)%nat -> 0 <= eps -> ordered cols cols sg -> small ->
    Rabs (product rows (product cols A P) A i j - A i j) <= INR cols * (INR cols * eps * vget sg 0 + tol).
  Proof.
    intros Hi Hj E0 O Sm. destruct T as (_ & _ & _ & _ & _ & _ & S & GS).
    rewrite APA_spec, A_spec by auto. unfold composed. rewrite <- bsum_minus.
    rewrite (bsum_ext cols _ (fun k => mget U i k * bsum cols (fun l => (on k * G k l - if Nat.eqb k l then 1 else 0) * vget sg l * mget V j l))).
    2:{ intros k Hk. rewrite (bsum_ext cols (fun l => (on k * G k l - (if Nat.eqb k l then 1 else 0)) * vget sg l * mget V j l) (fun l => on k * (G k l * vget sg l * mget V j l) - (if Nat.eqb k l then 1 else 0) * (vget sg l * mget V j l))) by (intros; ring).
        rewrite bsum_minus, bsum_scal, sum_delta by auto. ring. }
    eapply Rle_trans; [apply Rabs_bsum|]. rewrite <- (bsum_const cols (INR cols * eps * vget sg 0 + tol)). apply bsum_le. intros k Hk. rewrite Rabs_mult.
    assert (S0P : 0 <= vget sg 0) by (apply S; lia).
    rewrite <- (Rmult_1_l (INR cols * eps * vget sg 0 + tol)). apply Rmult_le_compat; try apply Rabs_pos; [apply U_bound; auto|].
    eapply Rle_trans; [apply Rabs_bsum|].
    apply Rle_trans with (bsum cols (fun l => eps * vget sg 0 + if Nat.eqb l k then tol else 0)).
    2:{ rewrite bsum_plus, bsum_const, bsum_delta by auto. lra. }
    apply bsum_le. intros l Hl. rewrite !Rabs_mult. rewrite (Rabs_right (vget sg l)) by (destruct (S l Hl); lra).
    assert (SL : 0 <= vget sg l <= vget sg 0) by (split; [apply S; auto|apply O; lia]).
    assert (VB : Rabs (mget V j l) <= 1) by (apply V_bound; auto). pose proof (Rabs_pos (mget V j l)) as VB0.
    apply Rle_trans with (Rabs (on k * G k l - (if Nat.eqb k l then 1 else 0)) * vget sg l).
    { rewrite <- (Rmult_1_r (Rabs (on k * G k l - (if Nat.eqb k l then 1 else 0)) * vget sg l)) at 2. apply Rmult_le_compat_l; auto. apply Rmult_le_pos; [apply Rabs_pos|lra]. }
    rewrite (Nat.eqb_sym l k). destruct (Nat.eqb_spec k l) as [->|N].
    - assert (C : on l = 1 \/ (on l = 0 /\ vget sg l <= tol)) by (unfold on; destruct (Rltb tol (vget sg l)) eqn:E; rcases; auto).
      destruct C as [C|[C C']].
      + rewrite C, (G_diagonal l Hl C). replace (1 * 1 - 1) with 0 by ring. rewrite Rabs_R0. nra.
      + rewrite C. replace (0 * G l l - 1) with (-1) by ring. rewrite Rabs_left by lra. nra.
    - specialize (GS Sm k l Hk Hl N). fold (G k l) in GS. pose proof (Rabs_pos (G k l)) as GP.
      assert (C : Rabs (on k * G k l - 0) <= Rabs (G k l)).
      { rewrite Rminus_0_r, Rabs_mult. unfold on. destruct (Rltb tol (vget sg k)); [rewrite Rabs_R1; lra|rewrite Rabs_R0; nra]. }
      pose proof (Rabs_pos (on k * G k l - 0)). apply Rle_trans with (eps * vget sg 0); [apply Rmult_le_compat; lra|lra].
  Qed.
  (** with orthogonal left columns and nothing but zeros dropped, it is the Moore-Penrose inverse *)
  Lemma pseudo_exact : (forall k l, (k < cols)%nat -> (l < cols)%nat -> k <> l -> G k l = 0) -> (forall k, (k < cols)%nat -> vget sg k <= tol -> vget sg k = 0) ->
    moore_penrose rows cols A P.
  Proof.
    intros GO D. assert (OS : forall k, (k < cols)%nat -> on k * vget sg k = vget sg k).
    { intros k Hk. unfold on. destruct (Rltb tol (vget sg k)) eqn:E; rcases; [ring|]. rewrite D by auto. ring. }
    assert (GD : forall k (f : nat -> R), (k < cols)%nat -> bsum cols (fun l => G k l * f l) = G k k * f k).
    { intros k f Hk. rewrite (bsum_ext cols _ (fun l => if Nat.eqb l k then G k k * f k else 0)); [apply bsum_delta; auto|]. intros l Hl. destruct (Nat.eqb_spec l k) as [->|]; [reflexivity|]. rewrite GO by auto. ring. }
    assert (GS : forall k, (k < cols)%nat -> G k k * vget sg k = vget sg k).
    { intros k Hk. unfold on in *. specialize (G_diagonal k Hk). unfold on. destruct (Rltb tol (vget sg k)) eqn:E; rcases; intros Q; [rewrite Q by auto; ring|rewrite D by auto; ring]. }
    assert (PAS : forall i j, (i < cols)%nat -> (j < cols)%nat -> product rows P A i j = bsum cols (fun k => on k * (mget V i k * mget V j k))).
    { intros i j Hi Hj. rewrite PA_spec by auto. apply bsum_ext. intros k Hk. rewrite (bsum_ext cols _ (fun l => G k l * (vget sg l * mget V j l))) by (intros; ring). rewrite GD by auto.
      replace (mget V i k * inv k * (G k k * (vget sg k * mget V j k))) with (mget V i k * inv k * mget V j k * (G k k * vget sg k)) by ring. rewrite GS by auto. rewrite <- on_inv by auto. ring. }
    split; [|split; [|split]].
    - intros i j Hi Hj. rewrite APA_spec, A_spec by auto. unfold composed. apply bsum_ext. intros k Hk.
      rewrite (bsum_ext cols _ (fun l => G k l * (vget sg l * mget V j l))) by (intros; ring). rewrite GD by auto.
      replace (mget U i k * on k * (G k k * (vget sg k * mget V j k))) with (mget U i k * mget V j k * (on k * (G k k * vget sg k))) by ring. rewrite GS, OS by auto. ring.
    - intros i j Hi Hj. rewrite (product_ext cols _ (composed cols (mget V) on (mget V)) P (composed cols (mget V) inv (mget U))).
      + rewrite (composed_product cols cols _ _ _ _ _ _ (fun k l => if Nat.eqb k l then 1 else 0) i j V_columns). rewrite pseudo_spec by auto. unfold composed. apply bsum_ext. intros k Hk.
        rewrite (bsum_ext cols _ (fun l => (if Nat.eqb k l then 1 else 0) * (inv l * mget U j l))) by (intros; ring). rewrite sum_delta by auto. unfold on, inv. destruct (Rltb _ _); ring.
      + intros k Hk. rewrite PAS by auto. unfold composed. apply bsum_ext. intros; ring.
      + intros k Hk. apply pseudo_spec; auto.
    - apply AP_symmetric.
    - intros i j Hi Hj. unfold transposed. rewrite !PAS by auto. apply bsum_ext. intros; ring.
  Qed.
  Lemma solve_spec b i : tol = svd_default_tol rows cols d -> length b = rows -> (i < cols)%nat -> vget (svd_solve rows cols d b) i = times rows P (vget b) i.
  Proof.
    intros ET HB Hi. unfold svd_solve. rewrite vget_mat_vec by auto. set (z := fold_left _ _ _).
    assert (Z : forall k, (k < cols)%nat -> vget z k = inv k * dot_product rows (col U k) (vget b)).
    { assert (L : length z = cols /\ forall k, (k < cols)%nat -> vget z k = if Nat.ltb k cols then inv k * dot_product rows (col U k) (vget b) else 0).
      { unfold z. apply (for_loop (fun n (z : list R) => length z = cols /\ forall k, (k < cols)%nat -> vget z k = if Nat.ltb k n then inv k * dot_product rows (col U k) (vget b) else 0)).
        - lia.
        - split; [apply repeat_length|]. intros k Hk. cbn. unfold vget, vec_zeros. rewrite nth_repeat. reflexivity.
        - intros n x Hn [X1 X2]. cbv zeta. rewrite <- ET. change (ltb tol (vget (singular_values d) n)) with (Rltb tol (vget sg n)).
          assert (DE : dot (column_of rows (svd_left d) n) b = dot_product rows (col U n) (vget b)).
          { assert (BE : b = column_of rows (map (fun x => [x]) b) 0).
            { apply (vec_ext rows); [auto|unfold column_of, from_fn; rewrite map_length, seq_length; lia|]. intros k Hk. unfold column_of. rewrite vget_from_fn by lia. unfold mget, vget.
              rewrite (nth_indep _ nil [0]) by (rewrite map_length; lia). rewrite (map_nth (fun x => [x]) b 0). reflexivity. }
            rewrite BE at 1. rewrite dot_columns. apply dot_ext; [intros k Hk; reflexivity|]. intros k Hk.
            transitivity (vget (column_of rows (map (fun x => [x]) b) 0) k); [unfold column_of; rewrite vget_from_fn by auto; reflexivity|rewrite <- BE; reflexivity]. }
          rewrite DE. split; [destruct (Rltb tol (vget sg n)); [rewrite set_nth_length|]; auto|]. intros k Hk.
          destruct (Nat.ltb_spec k (S n)) as [L|L].
          + destruct (Nat.eq_dec k n) as [->|N].
            * unfold inv. destruct (Rltb tol (vget sg n)); [rewrite vget_set' by lia; rewrite Nat.eqb_refl; unfold sg; rnum; unfold Rdiv; ring|]. rewrite X2 by auto. rewrite Nat.ltb_irrefl. ring.
            * assert (XK : vget x k = inv k * dot_product rows (col U k) (vget b)) by (rewrite X2 by auto; destruct (Nat.ltb_spec k n); [reflexivity|lia]).
              destruct (Rltb tol (vget sg n)); [rewrite vget_set' by lia; destruct (Nat.eqb_spec k n); [lia|]|]; auto.
          + assert (XK : vget x k = 0) by (rewrite X2 by auto; destruct (Nat.ltb_spec k n); [lia|reflexivity]).
            destruct (Rltb tol (vget sg n)); [rewrite vget_set' by lia; destruct (Nat.eqb_spec k n); [lia|]|]; auto. }
      intros k Hk. destruct L as [_ L]. rewrite L by auto. destruct (Nat.ltb_spec k cols); [reflexivity|lia]. }
    unfold times. rewrite (bsum_ext rows _ (fun j => bsum cols (fun k => mget V i k * inv k * (mget U j k * vget b j)))).
    - rewrite bsum_swap. apply bsum_ext. intros k Hk. rewrite Z by auto. rewrite bsum_scal. unfold dot_product, col. fold V. ring.
    - intros j Hj. rewrite pseudo_spec by auto. unfold composed. rewrite Rmult_comm, <- bsum_scal. apply bsum_ext. intros; ring.
  Qed.
End Sum.
