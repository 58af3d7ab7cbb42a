(** The jacobians of rigid motions of space. *)
From Coq Require Import ZArith List Bool Arith Reals Lra Lia.
From Coquelicot Require Import Coquelicot.
From Verif Require Import Base.Scalar Base.RNum Base.Lists Base.Series Base.Deriv Model.Vector Model.Matrix Model.Quaternion Model.Lie Spec.Matrix Spec.MatrixExp Spec.Hold Spec.Rotation Spec.Space Proofs.Matrix Proofs.Algebra Proofs.Expm Proofs.Quaternion Proofs.Rotation Proofs.ExpIntegral Proofs.SpaceJacobian.
Import ListNotations.
Local Open Scope R_scope.
Local Notation cos := Rtrigo_def.cos.
Local Notation sin := Rtrigo_def.sin.
Local Notation sqrt := R_sqrt.sqrt.
Local Notation length := Spec.Rotation.length.

Ltac six_i i := destruct i as [|[|[|[|[|[|i]]]]]]; [| | | | | |exfalso; lia].
Lemma stacked_product a b c a' b' c' : equal 6 6 (product 6 (stacked 3 a b c) (stacked 3 a' b' c')) (stacked 3 (product 3 a a') (plus_matrix (product 3 a b') (product 3 b c')) (product 3 c c')).
Proof. intros i j Hi Hj. unfold product, bsum, plus_matrix, stacked. six_i i; six_i j; cbn [Nat.ltb Nat.leb Nat.sub]; ring. Qed.
Lemma stacked_ext a b c a' b' c' : equal 3 3 a a' -> equal 3 3 b b' -> equal 3 3 c c' -> equal 6 6 (stacked 3 a b c) (stacked 3 a' b' c').
Proof.
  intros A B C i j Hi Hj. unfold stacked. destruct (Nat.ltb_spec i 3), (Nat.ltb_spec j 3); [apply A|apply B|reflexivity|apply C]; lia.
Qed.
Lemma stacked_unit : equal 6 6 (stacked 3 unit_matrix zero_matrix unit_matrix) unit_matrix.
Proof. intros i j Hi Hj. six_i i; six_i j; reflexivity. Qed.

(** ** The coupling of the linear with the angular part *)
Definition couple (rho phi : point) (k1 k2 k3 k4 k5 : R) : matrix :=
  let p := cross_matrix rho in let f := cross_matrix phi in fun i j =>
  k1 * p i j + k2 * (product 3 f p i j + product 3 p f i j) + k3 * product 3 (product 3 f p) f i j +
  k4 * (product 3 (product 3 f f) p i j + product 3 (product 3 p f) f i j - 3 * product 3 (product 3 f p) f i j) +
  k5 * (product 3 (product 3 (product 3 f p) f) f i j + product 3 (product 3 (product 3 f f) p) f i j).
Ltac entry9 i j := unfold couple, series3, plus_matrix, product, bsum, inner, cross_matrix, unit_matrix; three i; three j; cbn [nth Nat.eqb].
Lemma couple_step rho phi k1 k2 k3 k4 k5 g0 : equal 3 3
  (plus_matrix (product 3 (cross_matrix phi) (couple rho phi k1 k2 k3 k4 k5)) (product 3 (cross_matrix rho) (series3 phi g0 (k1 - inner phi phi * k4) k2)))
  (couple rho phi g0 (k1 - inner phi phi * k4) (4 * k2 - 2 * inner phi phi * k5) k2 (k3 / 2 - k4)).
Proof. intros i j Hi Hj. destruct rho as [[u v] w], phi as [[x y] z]. entry9 i j; field. Qed.
Lemma couple_straight rho k1 k2 k3 k4 k5 : equal 3 3 (couple rho (0, 0, 0) k1 k2 k3 k4 k5) (scaled_matrix k1 (cross_matrix rho)).
Proof. intros i j Hi Hj. unfold scaled_matrix. destruct rho as [[u v] w]. entry9 i j; ring. Qed.
Definition coupled (rho phi : point) (t : R) : matrix :=
  let l := length phi in let q := inner phi phi in let a := sin (t * l) / l in let c := cos (t * l) in
  couple rho phi (t * t / 2) ((t - a) / q) (t * (t - a) / q) (- ((1 - t * t * q / 2 - c) / (q * q)))
    (- ((t * (1 - t * t * q / 2 - c) / (q * q) - 3 * ((t - a - t * t * t * q / 6) / (q * q))) / 2)).
Lemma couple_derive rho phi t (k1 k2 k3 k4 k5 : R -> R) d1 d2 d3 d4 d5 i j :
  is_derive k1 t d1 -> is_derive k2 t d2 -> is_derive k3 t d3 -> is_derive k4 t d4 -> is_derive k5 t d5 ->
  is_derive (fun s => couple rho phi (k1 s) (k2 s) (k3 s) (k4 s) (k5 s) i j) t (couple rho phi d1 d2 d3 d4 d5 i j).
Proof.
  intros D1 D2 D3 D4 D5. unfold couple.
  assert (S : forall (k : R -> R) d x, is_derive k t d -> is_derive (fun s => k s * x) t (d * x)). { intros k d x D. evar_last; [apply (is_derive_scal_l k t d x D)|reflexivity]. }
  repeat apply @is_derive_plus; auto.
Qed.
Lemma coupled_derive rho phi t i j : (i < 3)%nat -> (j < 3)%nat ->
  is_derive (fun s => coupled rho phi s i j) t (plus_matrix (product 3 (cross_matrix phi) (coupled rho phi t)) (product 3 (cross_matrix rho) (swept phi t)) i j).
Proof.
  intros Hi Hj. destruct (zero_or phi) as [->|N].
  - apply (is_derive_ext (fun s => scaled_matrix (s * s / 2) (cross_matrix rho) i j)). { intros s. symmetry. apply couple_straight; auto. }
    unfold scaled_matrix. evar_last. { auto_derive; trivial. }
    match goal with |- ?u = ?v => change (@eq R u v) end. unfold coupled, plus_matrix. rewrite (equal_product 3 3 3 _ _ _ _ (equal_refl 3 3 _) (couple_straight rho _ _ _ _ _) i j Hi Hj). unfold swept. rewrite (equal_product 3 3 3 _ _ _ _ (equal_refl 3 3 _) (series3_ext (0, 0, 0) t _ _ 0 0 ltac:(contradiction)) i j Hi Hj). unfold scaled_matrix. destruct rho as [[u v] w]. entry9 i j; field.
  - destruct (nonzero_inner phi N) as (P & Q & S). evar_last.
    { unfold coupled. apply (couple_derive rho phi t (fun t => t * t / 2) (fun t => (t - sin (t * length phi) / length phi) / inner phi phi) (fun t => t * (t - sin (t * length phi) / length phi) / inner phi phi) (fun t => - ((1 - t * t * inner phi phi / 2 - cos (t * length phi)) / (inner phi phi * inner phi phi)))); auto_derive; trivial; reflexivity. }
    match goal with |- ?u = ?v => change (@eq R u v) end. unfold swept, coupled. set (l := length phi) in *. set (a := sin (t * l) / l). set (c := cos (t * l)). set (q := inner phi phi) in *.
    match goal with |- _ = plus_matrix (product 3 _ (couple rho phi ?k1 ?k2 ?k3 ?k4 ?k5)) (product 3 _ (series3 phi t ?g1 ?g2)) i j => replace g1 with (k1 - inner phi phi * k4) by (fold q; field; lra); rewrite (couple_step rho phi k1 k2 k3 k4 k5 t i j Hi Hj) end.
    fold q. f_equal.
    all: clearbody l; unfold a, c; clear a c; rewrite ?Q; set (si := sin (t * l)); set (co := cos (t * l)); try (field; lra).
Qed.
Lemma coupled_zero rho phi : equal 3 3 (coupled rho phi 0) zero_matrix.
Proof. intros i j Hi Hj. unfold coupled, couple. rewrite (Rmult_0_l (length phi)), sin_0, cos_0. unfold zero_matrix, Rdiv. ring. Qed.
Definition motion_integral (v : velocity) (t : R) : matrix := stacked 3 (swept (snd v) t) (coupled (fst v) (snd v) t) (swept (snd v) t).
Lemma stacked_derive (a b c : R -> matrix) da db dc t i j : (i < 6)%nat -> (j < 6)%nat ->
  (forall i j, (i < 3)%nat -> (j < 3)%nat -> is_derive (fun s => a s i j) t (da i j)) -> (forall i j, (i < 3)%nat -> (j < 3)%nat -> is_derive (fun s => b s i j) t (db i j)) ->
  (forall i j, (i < 3)%nat -> (j < 3)%nat -> is_derive (fun s => c s i j) t (dc i j)) -> is_derive (fun s => stacked 3 (a s) (b s) (c s) i j) t (stacked 3 da db dc i j).
Proof.
  intros Hi Hj A B C. unfold stacked. destruct (Nat.ltb_spec i 3), (Nat.ltb_spec j 3); [apply A|apply B|apply @is_derive_const|apply C]; lia.
Qed.
Lemma motion_integral_R v b : 0 <= b -> integral 6 6 (exp_at 6 (motion_ad v)) b (motion_integral v b).
Proof.
  intros B. refine (proj2 (integral_unique 6 (motion_ad v) (motion_integral v) _ _ b B)).
  - intros t i j Hi Hj. unfold motion_integral, motion_ad. rewrite stacked_product by auto. destruct v as [rho phi]. cbn [fst snd]. evar_last.
    { apply (stacked_derive (swept phi) (coupled rho phi) (swept phi)); auto; intros; [apply swept_derive|apply coupled_derive|apply swept_derive]; auto. }
    match goal with |- ?u = ?v => change (@eq R u v) end. rewrite <- stacked_unit by auto. unfold stacked, zero_matrix. destruct (Nat.ltb i 3), (Nat.ltb j 3); ring.
  - intros i j Hi Hj. unfold motion_integral. etransitivity; [apply stacked_ext; [apply swept_zero|apply coupled_zero|apply swept_zero|auto|auto]|]. unfold stacked, zero_matrix. destruct (Nat.ltb i 3), (Nat.ltb j 3); reflexivity.
Qed.

(** ** What the code computes *)
Definition coeff3 (l : R) : R := if Rltb (l * l) (sqrt (sqrt (20160 * / IZR (2^52)))) then - 1 / 24 + l * l / 720 else exact3 l.
Definition coeff5 (l : R) : R := if Rltb (l * l) (sqrt (sqrt (181440 * / IZR (2^52)))) then - 1 / 120 + l * l / 5040 else exact5 l.
Lemma q_matrix_R rho phi : let l := length phi in
  equal 3 3 (mget (q_matrix_se3 rho phi)) (couple rho phi (/ 2) (coeff2 l) (coeff2 l) (- coeff3 l) (- ((coeff3 l - 3 * coeff5 l) / 2))).
Proof.
  intros l i j Hi Hj. unfold q_matrix_se3, small_angle_se3_sq. cbv zeta. rewrite dot3_R.
  repeat (rewrite ?(mget_sum 3 3) by (auto; shapes); rewrite ?(mget_difference 3 3) by (auto; shapes); unfold plus_matrix, minus_matrix; rewrite ?mget_scale by auto; unfold scaled_matrix).
  assert (M2 : forall a b a' b', equal 3 3 (mget (skew3 a)) a' -> equal 3 3 (mget (skew3 b)) b' -> equal 3 3 (mget (mat_mul 3 3 3 (skew3 a) (skew3 b))) (product 3 a' b')) by (intros; apply mget_product; auto).
  repeat match goal with |- context [mget (mat_mul 3 3 3 ?a ?b) i j] =>
    let H := fresh in eassert (H : equal 3 3 (mget (mat_mul 3 3 3 a b)) _) by (repeat first [apply mget_product|apply skew3_R]); rewrite (H i j Hi Hj); clear H end.
  rewrite !skew3_R by auto.
  rnum. change (sqrt (inner phi phi)) with (length phi). rewrite theta_sq. fold l. unfold couple, coeff2, coeff3, coeff5, exact2, exact3, exact5.
  replace (20160 / 1) with 20160 by field. replace (2520 / 1) with 2520 by field. replace (181440 / 1) with 181440 by field. replace (24 / 1) with 24 by field. replace (6 / 1) with 6 by field. replace (120 / 1) with 120 by field. replace (720 / 1) with 720 by field. replace (5040 / 1) with 5040 by field.
  change (Ropp (IZR 1)) with (IZR (-1)). replace (3 / 1) with 3 by field. replace (l * l * / 2) with (l * l / 2) by reflexivity. replace (l * l * (l * l)) with (l * l * l * l) by ring. 
  match goal with |- context [if ?b then 1 / 6 - _ else ?e] => set (c2 := if b then 1 / 6 - l * l / 120 else e) end.
  match goal with |- context [if ?b then - 1 / 24 + _ else ?e] => set (c3 := if b then - 1 / 24 + l * l / 720 else e) end.
  match goal with |- context [if ?b then - 1 / 120 + _ else ?e] => set (c5 := if b then - 1 / 120 + l * l / 5040 else e) end.
  field.
Qed.
Lemma couple_ext rho phi k1 k2 k3 k4 k5 l2 l3 l4 l5 : (phi <> (0, 0, 0) -> k2 = l2 /\ k3 = l3 /\ k4 = l4 /\ k5 = l5) -> equal 3 3 (couple rho phi k1 k2 k3 k4 k5) (couple rho phi k1 l2 l3 l4 l5).
Proof.
  intros H. destruct (zero_or phi) as [->|N]; [eapply equal_trans; [apply couple_straight|apply equal_sym, couple_straight]|]. destruct (H N) as (-> & -> & -> & ->). apply equal_refl.
Qed.
Definition exact_couple (rho phi : point) : matrix := let l := length phi in couple rho phi (/ 2) (exact2 l) (exact2 l) (- exact3 l) (- ((exact3 l - 3 * exact5 l) / 2)).
Lemma coupled_one rho phi : equal 3 3 (coupled rho phi 1) (exact_couple rho phi).
Proof.
  unfold coupled, exact_couple. replace (1 * 1 / 2) with (/ 2) by field. rewrite Rmult_1_l. apply couple_ext. intros N. destruct (nonzero_inner phi N) as (P & Q & S). rewrite Q. unfold exact2, exact3, exact5. repeat split; field; lra.
Qed.
Lemma coeff35_near l : 0 < l -> Rabs (coeff3 l - exact3 l) <= l ^ 4 / 40320 /\ Rabs (coeff5 l - exact5 l) <= l ^ 4 / 362880 /\
  (20160 * / IZR (2^52) <= l ^ 8 -> coeff3 l = exact3 l) /\ (181440 * / IZR (2^52) <= l ^ 8 -> coeff5 l = exact5 l).
Proof.
  intros L. pose proof power_52 as E. assert (P4 : 0 <= l ^ 4) by (apply pow_le; lra). assert (P2 : 0 <= l * l) by nra. unfold coeff3, coeff5.
  assert (Z1 : Rabs (exact3 l - exact3 l) <= l ^ 4 / 40320) by (rewrite Rminus_diag_eq, Rabs_R0 by reflexivity; lra). assert (Z2 : Rabs (exact5 l - exact5 l) <= l ^ 4 / 362880) by (rewrite Rminus_diag_eq, Rabs_R0 by reflexivity; lra).
  assert (B : forall v, v <= / 100000000 -> l * l * (l * l) * (l * l) * (l * l) < v -> 0 < l <= 2).
  { intros v V D. split; [exact L|]. apply Rnot_lt_le. intros Q. assert (4 <= l * l) by nra. assert (16 <= l * l * (l * l)) by nra. assert (64 <= l * l * (l * l) * (l * l)) by nra. nra. }
  repeat split; intros.
  - destruct (Rltb _ _) eqn:D; [|exact Z1]. apply Rltb_true, fourth_below in D; [|lra|lra]. apply B in D; [|lra]. destruct (exact_near l D) as (_ & _ & A & _). exact A.
  - destruct (Rltb _ _) eqn:D; [|exact Z2]. apply Rltb_true, fourth_below in D; [|lra|lra]. apply B in D; [|lra]. destruct (exact_near l D) as (_ & _ & _ & A). exact A.
  - destruct (Rltb _ _) eqn:D; [|reflexivity]. apply Rltb_true, fourth_below in D; [|lra|lra]. replace (l * l * (l * l) * (l * l) * (l * l)) with (l ^ 8) in D by ring. lra.
  - destruct (Rltb _ _) eqn:D; [|reflexivity]. apply Rltb_true, fourth_below in D; [|lra|lra]. replace (l * l * (l * l) * (l * l) * (l * l)) with (l ^ 8) in D by ring. lra.
Qed.
Lemma larger_power l : 0 <= l -> 181440 * / IZR (2^52) <= l ^ 8 -> 15120 * / IZR (2^52) <= l ^ 6.
Proof.
  intros L H. pose proof power_52 as E. destruct (Rle_lt_dec (15120 * / IZR (2^52)) (l ^ 6)) as [A|A]; [exact A|exfalso].
  assert (B : l <= 1). { apply Rnot_lt_le. intros Q. assert (1 <= l ^ 6) by (apply pow_R1_Rle; lra). lra. }
  assert (l ^ 8 <= l ^ 6) by (apply power_le; [lra|lia]). lra.
Qed.
Lemma q_matrix_exact rho phi : 181440 * / IZR (2^52) <= length phi ^ 8 \/ phi = (0, 0, 0) -> equal 3 3 (mget (q_matrix_se3 rho phi)) (exact_couple rho phi).
Proof.
  intros H. eapply equal_trans; [apply q_matrix_R|]. apply couple_ext. intros N. destruct H as [H|H]; [|contradiction]. pose proof (length_pos phi N) as P. pose proof (larger_power _ (length_nonneg phi) H) as G. pose proof power_52.
  destruct (coeff35_near _ P) as (_ & _ & A & B). destruct (coeff_near _ P) as (_ & _ & _ & C). rewrite A, B, C by lra. auto.
Qed.
Lemma blocks_R (c t : mat R) : equal 6 6 (mget (blocks c t)) (stacked 3 (mget c) (mget t) (mget c)).
Proof. intros i j Hi Hj. unfold blocks. rewrite mget_mat_fn by auto. unfold stacked. six_i i; six_i j; reflexivity. Qed.
Definition exact_motion_jacobian (v : velocity) : matrix := stacked 3 (exact_jacobian (snd v)) (exact_couple (fst v) (snd v)) (exact_jacobian (snd v)).
Lemma exact_motion_integral v : integral 6 6 (exp_at 6 (motion_ad v)) 1 (exact_motion_jacobian v).
Proof.
  intros i j Hi Hj. unfold exact_motion_jacobian. replace (stacked 3 _ _ _ i j) with (motion_integral v 1 i j); [apply (motion_integral_R v 1); auto; lra|].
  apply stacked_ext; auto; [apply swept_one|apply coupled_one|apply swept_one].
Qed.
Lemma motion_jacobian_exact v : 181440 * / IZR (2^52) <= length (snd v) ^ 8 \/ snd v = (0, 0, 0) -> equal 6 6 (mget (left_jacobian_se3 v)) (exact_motion_jacobian v).
Proof.
  intros H. destruct v as [rho phi]. unfold left_jacobian_se3. eapply equal_trans; [apply blocks_R|]. cbn [snd] in H. assert (J : equal 3 3 (mget (left_jacobian_so3 phi)) (exact_jacobian phi)).
  { apply left_jacobian_exact. destruct H as [H|H]; [left|right; exact H]. pose proof (larger_power _ (length_nonneg phi) H). pose proof power_52. lra. }
  apply stacked_ext; cbn [fst snd]; auto. apply q_matrix_exact, H.
Qed.
(** Entries of products *)
Lemma product_entry a b u v : 0 <= u -> (forall i j, (i < 3)%nat -> (j < 3)%nat -> Rabs (a i j) <= u) -> (forall i j, (i < 3)%nat -> (j < 3)%nat -> Rabs (b i j) <= v) ->
  forall i j, (i < 3)%nat -> (j < 3)%nat -> Rabs (product 3 a b i j) <= 3 * (u * v).
Proof.
  intros U A B i j Hi Hj. assert (M : forall k, (k < 3)%nat -> Rabs (a i k * b k j) <= u * v). { intros k Hk. rewrite Rabs_mult. apply Rmult_le_compat; auto using Rabs_pos. }
  unfold product, bsum. pose proof (M 0%nat ltac:(lia)). pose proof (M 1%nat ltac:(lia)). pose proof (M 2%nat ltac:(lia)).
  eapply Rle_trans; [apply Rabs_triang|]. eapply Rle_trans; [apply Rplus_le_compat_r; apply Rabs_triang|]. eapply Rle_trans; [apply Rplus_le_compat_r, Rplus_le_compat_r; apply Rabs_triang|]. rewrite ?Rabs_R0. lra.
Qed.
Lemma couple_bound rho phi k2 k3 k4 k5 l r d2 d3 d4 d5 : length phi <= l -> length rho <= r -> Rabs k2 <= d2 -> Rabs k3 <= d3 -> Rabs k4 <= d4 -> Rabs k5 <= d5 -> forall i j, (i < 3)%nat -> (j < 3)%nat ->
  Rabs (couple rho phi 0 k2 k3 k4 k5 i j) <= r * (6 * l * d2 + 9 * l ^ 2 * d3 + 45 * l ^ 2 * d4 + 54 * l ^ 3 * d5).
Proof.
  intros L R2 D2 D3 D4 D5 i j Hi Hj. pose proof (length_nonneg phi) as PL. pose proof (length_nonneg rho) as PR.
  assert (F : forall i j, (i < 3)%nat -> (j < 3)%nat -> Rabs (cross_matrix phi i j) <= l) by (intros; eapply Rle_trans; [apply cross_entry; auto|exact L]).
  assert (G : forall i j, (i < 3)%nat -> (j < 3)%nat -> Rabs (cross_matrix rho i j) <= r) by (intros; eapply Rle_trans; [apply cross_entry; auto|exact R2]).
  assert (FP := product_entry _ _ l r ltac:(lra) F G). assert (PF := product_entry _ _ r l ltac:(lra) G F). assert (FF := product_entry _ _ l l ltac:(lra) F F).
  assert (N2 : 0 <= l * l) by nra. assert (N1 : 0 <= l * r) by nra. assert (N3 : 0 <= r * l) by nra.
  assert (FPF := product_entry _ _ (3 * (l * r)) l ltac:(lra) FP F). assert (FFP := product_entry _ _ (3 * (l * l)) r ltac:(lra) FF G). assert (PFF := product_entry _ _ (3 * (r * l)) l ltac:(lra) PF F).
  assert (N4 : 0 <= l * r * l) by nra. assert (N5 : 0 <= l * l * r) by nra.
  assert (FPFF := product_entry _ _ (3 * (3 * (l * r) * l)) l ltac:(lra) FPF F). assert (FFPF := product_entry _ _ (3 * (3 * (l * l) * r)) l ltac:(lra) FFP F).
  specialize (FP i j Hi Hj). specialize (PF i j Hi Hj). specialize (FPF i j Hi Hj). specialize (FFP i j Hi Hj). specialize (PFF i j Hi Hj). specialize (FPFF i j Hi Hj). specialize (FFPF i j Hi Hj).
  unfold couple. set (fp := product 3 (cross_matrix phi) (cross_matrix rho) i j) in *. set (pf := product 3 (cross_matrix rho) (cross_matrix phi) i j) in *. set (fpf := product 3 (product 3 (cross_matrix phi) (cross_matrix rho)) (cross_matrix phi) i j) in *.
  set (ffp := product 3 (product 3 (cross_matrix phi) (cross_matrix phi)) (cross_matrix rho) i j) in *. set (pff := product 3 (product 3 (cross_matrix rho) (cross_matrix phi)) (cross_matrix phi) i j) in *.
  set (fpff := product 3 (product 3 (product 3 (cross_matrix phi) (cross_matrix rho)) (cross_matrix phi)) (cross_matrix phi) i j) in *. set (ffpf := product 3 (product 3 (product 3 (cross_matrix phi) (cross_matrix phi)) (cross_matrix rho)) (cross_matrix phi) i j) in *. clearbody fp pf fpf ffp pff fpff ffpf.
  assert (T : forall k d x y, Rabs k <= d -> Rabs x <= y -> Rabs (k * x) <= d * y). { intros. rewrite Rabs_mult. apply Rmult_le_compat; auto using Rabs_pos. }
  assert (X2 := T k2 d2 (fp + pf) (3 * (l * r) + 3 * (r * l)) D2 ltac:(eapply Rle_trans; [apply Rabs_triang|lra])).
  assert (X3 := T k3 d3 fpf _ D3 FPF).
  assert (X4 := T k4 d4 (ffp + pff - 3 * fpf) (3 * (3 * (l * l) * r) + 3 * (3 * (r * l) * l) + 3 * (3 * (3 * (l * r) * l))) D4 ltac:(unfold Rminus; eapply Rle_trans; [apply Rabs_triang|]; rewrite Rabs_Ropp, Rabs_mult, (Rabs_pos_eq 3) by lra; pose proof (Rabs_triang ffp pff); lra)).
  assert (X5 := T k5 d5 (fpff + ffpf) (3 * (3 * (3 * (l * r) * l) * l) + 3 * (3 * (3 * (l * l) * r) * l)) D5 ltac:(eapply Rle_trans; [apply Rabs_triang|lra])).
  rewrite Rmult_0_l, Rplus_0_l. eapply Rle_trans; [apply Rabs_triang|]. eapply Rle_trans; [apply Rplus_le_compat_r; apply Rabs_triang|]. eapply Rle_trans; [apply Rplus_le_compat_r, Rplus_le_compat_r; apply Rabs_triang|].
  eapply Rle_trans; [apply Rplus_le_compat; [apply Rplus_le_compat; [apply Rplus_le_compat; [exact X2|exact X3]|exact X4]|exact X5]|]. right. ring.
Qed.
Lemma couple_minus rho phi k1 k2 k3 k4 k5 l2 l3 l4 l5 i j : couple rho phi k1 k2 k3 k4 k5 i j - couple rho phi k1 l2 l3 l4 l5 i j = couple rho phi 0 (k2 - l2) (k3 - l3) (k4 - l4) (k5 - l5) i j.
Proof. unfold couple. ring. Qed.
Lemma q_matrix_near rho phi i j : (i < 3)%nat -> (j < 3)%nat -> length phi ^ 8 < 181440 * / IZR (2^52) -> Rabs (mget (q_matrix_se3 rho phi) i j - exact_couple rho phi i j) <= length phi ^ 5 * length rho.
Proof.
  intros Hi Hj H. pose proof (length_nonneg phi) as L0. pose proof (length_nonneg rho) as R0'. destruct (zero_or phi) as [->|N].
  { rewrite q_matrix_exact by auto. rewrite Rminus_diag_eq, Rabs_R0 by reflexivity. apply Rmult_le_pos; [apply pow_le|]; auto. }
  pose proof (length_pos phi N) as P. rewrite q_matrix_R by auto. unfold exact_couple. cbv zeta. rewrite couple_minus. destruct (coeff35_near _ P) as (A & B & _). destruct (coeff_near _ P) as (_ & C & _). pose proof power_52.
  assert (L1 : length phi <= 1). { apply Rnot_lt_le. intros Q. assert (1 <= length phi ^ 8) by (apply pow_R1_Rle; lra). lra. }
  set (l := length phi) in *. assert (P4 : 0 <= l ^ 4) by (apply pow_le; lra).
  assert (E : forall a b : R, Rabs (- a - - b) = Rabs (a - b)) by (intros; rewrite <- Rabs_Ropp; f_equal; ring).
  assert (D4 : Rabs (- coeff3 l - - exact3 l) <= l ^ 4 / 40320) by (rewrite E; exact A).
  assert (D5 : Rabs (- ((coeff3 l - 3 * coeff5 l) / 2) - - ((exact3 l - 3 * exact5 l) / 2)) <= l ^ 4 / 20160).
  { rewrite E. replace ((coeff3 l - 3 * coeff5 l) / 2 - (exact3 l - 3 * exact5 l) / 2) with ((coeff3 l - exact3 l) / 2 - 3 / 2 * (coeff5 l - exact5 l)) by field. apply Rabs_le_between in A. apply Rabs_le_between in B. apply Rabs_le. lra. }
  eapply Rle_trans; [apply (couple_bound rho phi _ _ _ _ l (length rho) _ _ _ _ (Rle_refl _) (Rle_refl _) C C D4 D5 i j Hi Hj)|].
  rewrite (Rmult_comm (l ^ 5)). apply Rmult_le_compat_l; [exact R0'|]. assert (P5 : 0 <= l ^ 5) by (apply pow_le; lra). assert (l ^ 6 <= l ^ 5) by (apply power_le; [lra|lia]). assert (l ^ 7 <= l ^ 5) by (apply power_le; [lra|lia]).
  replace (6 * l * (l ^ 4 / 5040) + 9 * l ^ 2 * (l ^ 4 / 5040) + 45 * l ^ 2 * (l ^ 4 / 40320) + 54 * l ^ 3 * (l ^ 4 / 20160)) with (l ^ 5 * (6 / 5040) + l ^ 6 * (9 / 5040 + 45 / 40320) + l ^ 7 * (54 / 20160)) by field. lra.
Qed.
Lemma motion_jacobian_near v i j : (i < 6)%nat -> (j < 6)%nat -> length (snd v) ^ 8 < 181440 * / IZR (2^52) ->
  Rabs (mget (left_jacobian_se3 v) i j - exact_motion_jacobian v i j) <= length (snd v) ^ 5 * (1 + length (fst v)).
Proof.
  intros Hi Hj H. destruct v as [rho phi]. cbn [fst snd] in *. unfold left_jacobian_se3. rewrite blocks_R by auto. pose proof power_52. pose proof (length_nonneg phi) as L. pose proof (length_nonneg rho) as R0'. pose proof (pow_le _ 5 L) as P5.
  assert (L1 : length phi <= 1). { apply Rnot_lt_le. intros Q. assert (1 <= length phi ^ 8) by (apply pow_R1_Rle; lra). lra. } assert (P6 : length phi ^ 6 <= length phi ^ 5) by (apply power_le; [lra|lia]).
  assert (J : forall i j, (i < 3)%nat -> (j < 3)%nat -> Rabs (mget (left_jacobian_so3 phi) i j - exact_jacobian phi i j) <= length phi ^ 5 * (1 + length rho)). { intros. eapply Rle_trans; [apply left_jacobian_near; auto|]. nra. }
  unfold exact_motion_jacobian, stacked. cbn [fst snd]. destruct (Nat.ltb_spec i 3), (Nat.ltb_spec j 3); [apply J; auto| |rewrite Rminus_diag_eq, Rabs_R0 by reflexivity; nra|apply J; lia].
  eapply Rle_trans; [apply q_matrix_near; auto; lia|]. nra.
Qed.

(** ** The inverse *)
Lemma inverse_blocks rho phi : equal 6 6 (mget (inverse_left_jacobian_se3 (rho, phi)))
  (let k := mget (inverse_left_jacobian_so3 phi) in stacked 3 k (scaled_matrix (-1) (product 3 (product 3 k (mget (q_matrix_se3 rho phi))) k)) k).
Proof.
  unfold inverse_left_jacobian_se3. eapply equal_trans; [apply blocks_R|]. apply stacked_ext; try apply equal_refl. intros i j Hi Hj. unfold mat_neg. rewrite (mget_map _ 3 3) by (auto; shapes).
  assert (E : equal 3 3 (mget (mat_mul 3 3 3 (mat_mul 3 3 3 (inverse_left_jacobian_so3 phi) (q_matrix_se3 rho phi)) (inverse_left_jacobian_so3 phi))) (product 3 (product 3 (mget (inverse_left_jacobian_so3 phi)) (mget (q_matrix_se3 rho phi))) (mget (inverse_left_jacobian_so3 phi)))) by (repeat apply mget_product; apply equal_refl).
  rewrite E by auto. unfold scaled_matrix. rnum. ring.
Qed.
Lemma stacked_inverse j k q : equal 3 3 (product 3 j k) unit_matrix -> equal 3 3 (product 3 k j) unit_matrix ->
  equal 6 6 (product 6 (stacked 3 j q j) (stacked 3 k (scaled_matrix (-1) (product 3 (product 3 k q) k)) k)) unit_matrix /\
  equal 6 6 (product 6 (stacked 3 k (scaled_matrix (-1) (product 3 (product 3 k q) k)) k) (stacked 3 j q j)) unit_matrix.
Proof.
  intros A B. split; (eapply equal_trans; [apply stacked_product|]); (eapply equal_trans; [|apply stacked_unit]); apply stacked_ext; try assumption; intros x y Hx Hy; unfold plus_matrix, zero_matrix.
  - rewrite p_scaled_r, p_assoc, <- (p_assoc 3 3 j k). unfold scaled_matrix. rewrite (equal_product 3 3 3 _ _ _ _ A (equal_refl 3 3 (product 3 q k)) x y Hx Hy), product_unit_l by auto. ring.
  - rewrite p_scaled_l, p_assoc. unfold scaled_matrix. rewrite (equal_product 3 3 3 _ _ _ _ (equal_refl 3 3 (product 3 k q)) B x y Hx Hy). rewrite product_unit_r by auto. ring.
Qed.
Lemma inverse_entry phi i j : (i < 3)%nat -> (j < 3)%nat -> 0 < length phi <= / 10 -> length phi ^ 6 < 15120 * / IZR (2^52) -> Rabs (mget (inverse_left_jacobian_so3 phi) i j) <= 11 / 10.
Proof.
  intros Hi Hj L H. rewrite inverse_left_jacobian_R by auto. pose proof power_52 as E. set (l := length phi) in *.
  assert (C : coeff4 l = 1 / 12 + l * l / 720). { unfold coeff4. rewrite (proj2 (Rltb_true _ _)); [reflexivity|]. apply cbrt_below; [lra|nra|]. replace (l * l * (l * l) * (l * l)) with (l ^ 6) by ring. exact H. }
  rewrite C. pose proof (series3_near phi 1 (- / 2) (1 / 12 + l * l / 720) 0 0 (/ 2) (/ 10)) as B. specialize (B ltac:(rewrite Rminus_0_r, Rabs_Ropp, Rabs_pos_eq; lra)). specialize (B ltac:(rewrite Rminus_0_r, Rabs_pos_eq; nra) i j Hi Hj). rewrite theta_sq in B. fold l in B.
  replace (series3 phi 1 0 0 i j) with (unit_matrix i j) in B by (unfold series3; ring).
  assert (U : Rabs (unit_matrix i j) <= 1) by (unfold unit_matrix; destruct (Nat.eqb i j); rewrite ?Rabs_R1, ?Rabs_R0; lra).
  match goal with |- Rabs ?u <= _ => replace u with ((u - unit_matrix i j) + unit_matrix i j) by ring end. eapply Rle_trans; [apply Rabs_triang|]. nra.
Qed.
Lemma q_entry rho phi i j : (i < 3)%nat -> (j < 3)%nat -> 0 < length phi <= / 10 -> Rabs (mget (q_matrix_se3 rho phi) i j) <= length rho.
Proof.
  intros Hi Hj L. rewrite q_matrix_R by auto. set (l := length phi) in *. destruct (coeff_taylor l L) as [_ A]. destruct (coeff35_near l ltac:(lra)) as (B & C & _). destruct (exact_near l ltac:(lra)) as (_ & _ & D & E).
  apply Rabs_le_between in B. apply Rabs_le_between in C. apply Rabs_le_between in D. apply Rabs_le_between in E. assert (P4 : 0 <= l ^ 4 <= / 1000). { split; [apply pow_le; lra|]. apply Rle_trans with ((/ 10) ^ 4); [apply pow_incr; lra|lra]. }
  assert (T : 0 <= l * l <= / 100) by nra.
  replace (couple rho phi (/ 2) (coeff2 l) (coeff2 l) (- coeff3 l) (- ((coeff3 l - 3 * coeff5 l) / 2)) i j) with (/ 2 * cross_matrix rho i j + couple rho phi 0 (coeff2 l) (coeff2 l) (- coeff3 l) (- ((coeff3 l - 3 * coeff5 l) / 2)) i j) by (unfold couple; ring).
  eapply Rle_trans; [apply Rabs_triang|]. rewrite Rabs_mult, (Rabs_pos_eq (/ 2)) by lra. pose proof (cross_entry rho i j Hi Hj) as X. pose proof (length_nonneg rho) as R0'.
  assert (Y : Rabs (couple rho phi 0 (coeff2 l) (coeff2 l) (- coeff3 l) (- ((coeff3 l - 3 * coeff5 l) / 2)) i j) <= length rho * / 2).
  { eapply Rle_trans; [apply (couple_bound rho phi (coeff2 l) (coeff2 l) (- coeff3 l) (- ((coeff3 l - 3 * coeff5 l) / 2)) l (length rho) (/ 5) (/ 5) (/ 10) (/ 5) (Rle_refl _) (Rle_refl _)); auto; apply Rabs_le; lra|].
    apply Rmult_le_compat_l; [exact R0'|]. assert (0 <= l ^ 2 <= / 100) by (split; nra). assert (0 <= l ^ 3 <= / 100) by (split; nra). lra. }
  lra.
Qed.
Lemma motion_small_inverse v i j : (i < 6)%nat -> (j < 6)%nat -> length (snd v) ^ 6 < 15120 * / IZR (2^52) -> let l := length (snd v) in let r := length (fst v) in
  Rabs (product 6 (mget (left_jacobian_se3 v)) (mget (inverse_left_jacobian_se3 v)) i j - unit_matrix i j) <= l ^ 5 * (1 + 10 * r) /\
  Rabs (product 6 (mget (inverse_left_jacobian_se3 v)) (mget (left_jacobian_se3 v)) i j - unit_matrix i j) <= l ^ 5 * (1 + 10 * r).
Proof.
  intros Hi Hj H l r. destruct v as [rho phi]. cbn [fst snd] in *. unfold left_jacobian_se3. fold l in H.
  rewrite (equal_product 6 6 6 _ _ _ _ (blocks_R _ _) (inverse_blocks rho phi) i j Hi Hj), (equal_product 6 6 6 _ _ _ _ (inverse_blocks rho phi) (blocks_R _ _) i j Hi Hj), !stacked_product by auto. cbv zeta.
  set (J := mget (left_jacobian_so3 phi)). set (K := mget (inverse_left_jacobian_so3 phi)). set (Q := mget (q_matrix_se3 rho phi)).
  assert (L0 : 0 <= l) by apply length_nonneg. assert (R0' : 0 <= r) by apply length_nonneg. pose proof (pow_le l 5 L0) as P5. pose proof power_52 as E52.
  destruct (zero_or phi) as [Z|N].
  { assert (A : equal 3 3 (product 3 J K) unit_matrix /\ equal 3 3 (product 3 K J) unit_matrix).
    { destruct (exact_inverse phi (or_introl Z)) as [A B]. split; (eapply equal_trans; [apply equal_product; [apply left_jacobian_exact || apply inverse_left_jacobian_exact; right; exact Z|apply left_jacobian_exact || apply inverse_left_jacobian_exact; right; exact Z]|]); assumption. }
    destruct (stacked_inverse J K Q (proj1 A) (proj2 A)) as [S S']. rewrite <- !stacked_product by auto. rewrite S, S' by auto. rewrite Rminus_diag_eq, Rabs_R0 by reflexivity. nra. }
  assert (L : 0 < l <= / 10). { split; [apply length_pos, N|]. apply square_root_below; [exact L0|]. apply (cube_below _ (15120 * / IZR (2^52))); [nra| |lra]. replace (l * l * (l * l) * (l * l)) with (l ^ 6) by ring. exact H. }
  assert (EA : forall i j, (i < 3)%nat -> (j < 3)%nat -> Rabs (minus_matrix (product 3 J K) unit_matrix i j) <= l ^ 5) by (intros a b Ha Hb; apply (small_inverse phi a b Ha Hb H)).
  assert (EB : forall i j, (i < 3)%nat -> (j < 3)%nat -> Rabs (minus_matrix (product 3 K J) unit_matrix i j) <= l ^ 5) by (intros a b Ha Hb; apply (small_inverse phi a b Ha Hb H)).
  assert (KE : forall i j, (i < 3)%nat -> (j < 3)%nat -> Rabs (K i j) <= 11 / 10) by (intros a b Ha Hb; apply inverse_entry; auto).
  assert (QE : forall i j, (i < 3)%nat -> (j < 3)%nat -> Rabs (Q i j) <= r) by (intros a b Ha Hb; apply q_entry; auto).
  assert (QK := product_entry Q K r (11 / 10) R0' QE KE). assert (KQ := product_entry K Q (11 / 10) r ltac:(lra) KE QE).
  assert (T1 := product_entry (minus_matrix (product 3 J K) unit_matrix) (product 3 Q K) (l ^ 5) (3 * (r * (11 / 10))) P5 EA QK).
  assert (T2 := product_entry (product 3 K Q) (minus_matrix (product 3 K J) unit_matrix) (3 * (11 / 10 * r)) (l ^ 5) ltac:(nra) KQ EB).
  assert (G : forall d e, (forall i j, (i < 3)%nat -> (j < 3)%nat -> Rabs (minus_matrix d unit_matrix i j) <= l ^ 5) -> (forall i j, (i < 3)%nat -> (j < 3)%nat -> Rabs (e i j) <= 10 * (l ^ 5 * r)) -> Rabs (stacked 3 d e d i j - unit_matrix i j) <= l ^ 5 * (1 + 10 * r)).
  { intros d e D X. rewrite <- stacked_unit by auto. unfold stacked, zero_matrix. destruct (Nat.ltb_spec i 3), (Nat.ltb_spec j 3).
    - eapply Rle_trans; [apply (D i j); auto|nra].
    - rewrite Rminus_0_r. eapply Rle_trans; [apply X; lia|nra].
    - rewrite Rminus_0_r, Rabs_R0. nra.
    - eapply Rle_trans; [apply (D (i - 3)%nat (j - 3)%nat); lia|nra]. }
  split; apply G; auto; intros x y Hx Hy.
  - unfold plus_matrix. replace (_ + _) with (- product 3 (minus_matrix (product 3 J K) unit_matrix) (product 3 Q K) x y); [rewrite Rabs_Ropp; eapply Rle_trans; [apply T1; auto|nra]|].
    rewrite p_scaled_r, p_assoc, <- (p_assoc 3 3 J K), p_minus_l. unfold scaled_matrix, minus_matrix. rewrite (product_unit_l 3 (product 3 Q K)) by auto. ring.
  - unfold plus_matrix. replace (_ + _) with (- product 3 (product 3 K Q) (minus_matrix (product 3 K J) unit_matrix) x y); [rewrite Rabs_Ropp; eapply Rle_trans; [apply T2; auto|nra]|].
    rewrite p_scaled_l, (p_assoc 3 3 (product 3 K Q) K J), p_minus_r. unfold scaled_matrix, minus_matrix. rewrite (product_unit_r 3 (product 3 K Q)) by auto. ring.
Qed.
Lemma motion_inverse_exact v : (15120 * / IZR (2^52) <= length (snd v) ^ 6 /\ sin (length (snd v) / 2) <> 0) \/ snd v = (0, 0, 0) ->
  equal 6 6 (product 6 (mget (left_jacobian_se3 v)) (mget (inverse_left_jacobian_se3 v))) unit_matrix /\ equal 6 6 (product 6 (mget (inverse_left_jacobian_se3 v)) (mget (left_jacobian_se3 v))) unit_matrix.
Proof.
  intros H. destruct v as [rho phi]. cbn [fst snd] in *. unfold left_jacobian_se3. pose proof power_52 as E.
  assert (H1 : 15120 * / IZR (2^52) <= length phi ^ 6 \/ phi = (0, 0, 0)) by tauto. assert (H2 : 2520 * / IZR (2^52) <= length phi ^ 6 \/ phi = (0, 0, 0)) by (destruct H1; [left; lra|right; auto]).
  assert (H3 : phi = (0, 0, 0) \/ sin (length phi / 2) <> 0) by tauto. destruct (exact_inverse phi H3) as [A B].
  assert (A' : equal 3 3 (product 3 (mget (left_jacobian_so3 phi)) (mget (inverse_left_jacobian_so3 phi))) unit_matrix) by (eapply equal_trans; [apply equal_product; [apply left_jacobian_exact, H2|apply inverse_left_jacobian_exact, H1]|exact A]).
  assert (B' : equal 3 3 (product 3 (mget (inverse_left_jacobian_so3 phi)) (mget (left_jacobian_so3 phi))) unit_matrix) by (eapply equal_trans; [apply equal_product; [apply inverse_left_jacobian_exact, H1|apply left_jacobian_exact, H2]|exact B]).
  destruct (stacked_inverse _ _ (mget (q_matrix_se3 rho phi)) A' B') as [S S']. split; [exact (equal_trans 6 6 _ _ _ (equal_product 6 6 6 _ _ _ _ (blocks_R _ _) (inverse_blocks rho phi)) S)|exact (equal_trans 6 6 _ _ _ (equal_product 6 6 6 _ _ _ _ (inverse_blocks rho phi) (blocks_R _ _)) S')].
Qed.
