(** The derivative of the matrix exponential with respect to the matrix. *)
From Coq Require Import ZArith List Bool Arith Reals Lra Lia.
From Coquelicot Require Import Coquelicot.
From Verif Require Import Base.Scalar Base.RNum Base.Series Spec.Matrix Spec.MatrixExp Spec.Hold Spec.Planar Proofs.Matrix Proofs.Algebra Proofs.MatrixSeries Proofs.Flow Proofs.Expm Proofs.Rotation Proofs.ExpIntegral.
Local Open Scope R_scope.
Local Notation exp := Rtrigo_def.exp.

Lemma flow_bounded n a t : bounded n (flow n a t) (exp (Rabs t * column_norm n a)).
Proof. pose proof (series_bounded n a (column_norm n a) (column_norm_nonneg n a) (bounded_norm n a) (exponent t)) as H. rewrite exponent_sum in H. apply H, admits_exponent. Qed.
Lemma flow_bounded_1 n a c t : -1 <= t <= 1 -> column_norm n a <= c -> bounded n (flow n a t) (exp c).
Proof.
  intros T C. eapply bounded_le; [|apply flow_bounded]. pose proof (column_norm_nonneg n a) as P. assert (Rabs t <= 1) by (apply Rabs_le; lra). pose proof (Rabs_pos t).
  destruct (Rle_lt_or_eq_dec (Rabs t * column_norm n a) c) as [L|E]; [nra|left; apply exp_increasing, L|rewrite E; right; reflexivity].
Qed.
Lemma derive_products n (f g : R -> matrix) df dg t i j : (forall k, (k < n)%nat -> is_derive (fun s => f s i k) t (df i k)) -> (forall k, (k < n)%nat -> is_derive (fun s => g s k j) t (dg k j)) ->
  is_derive (fun s => product n (f s) (g s) i j) t (plus_matrix (product n df (g t)) (product n (f t) dg) i j).
Proof.
  intros F G. unfold plus_matrix, product. rewrite <- bsum_plus. apply is_derive_sum. intros k Hk. apply (is_derive_mult (fun s => f s i k) (fun s => g s k j)); [apply F, Hk|apply G, Hk|intros; apply Rmult_comm].
Qed.
Lemma mean_bound (f : R -> R) df b c : 0 <= b -> (forall t, 0 <= t <= b -> is_derive f t (df t) /\ Rabs (df t) <= c) -> Rabs (f b - f 0) <= c * b.
Proof.
  intros B H. destruct (MVT_gen f 0 b df) as (x & X & E).
  - intros x. rewrite Rmin_left, Rmax_right by lra. intros X. apply H. lra.
  - intros x. rewrite Rmin_left, Rmax_right by lra. intros X. apply continuity_pt_filterlim. apply (ex_derive_continuous (V := R_NormedModule) f x). exists (df x). apply H. lra.
  - rewrite Rmin_left, Rmax_right in X by lra. rewrite E, Rminus_0_r, Rabs_mult, (Rabs_pos_eq b) by lra. apply Rmult_le_compat_r; [lra|]. apply H. lra.
Qed.
Lemma bounded_entries n a c : (forall i j, (i < n)%nat -> (j < n)%nat -> Rabs (a i j) <= c) -> bounded n a (INR n * c).
Proof. intros H j Hj. rewrite <- bsum_const. apply bsum_le. auto. Qed.
Lemma product_unit_l n a : equal n n (product n unit_matrix a) a.
Proof. intros i j Hi Hj. unfold product. rewrite (bsum_ext n _ (fun k => if Nat.eqb k i then a i j else 0)); [apply bsum_delta, Hi|]. intros k Hk. unfold unit_matrix. rewrite (Nat.eqb_sym k i). destruct (Nat.eqb_spec i k) as [->|]; ring. Qed.
(** A solution of Z' = A Z + S from zero is as small as S. *)
Lemma forced n a (z s : R -> matrix) c sigma b : 0 <= b <= 1 -> 0 <= sigma -> column_norm n a <= c ->
  (forall t i j, 0 <= t <= b -> (i < n)%nat -> (j < n)%nat -> is_derive (fun u => z u i j) t (product n a (z t) i j + s t i j)) -> (forall t, 0 <= t <= b -> bounded n (s t) sigma) -> equal n n (z 0) zero_matrix ->
  bounded n (z b) (exp c * (INR n * (exp c * sigma))).
Proof.
  intros B SG C D SB Z. pose proof (exp_pos c) as EC. set (w := fun t => product n (flow n a (- t)) (z t)).
  assert (W : forall i j, (i < n)%nat -> (j < n)%nat -> Rabs (w b i j) <= exp c * sigma).
  { intros i j Hi Hj. replace (w b i j) with (w b i j - w 0 i j).
    2:{ replace (w 0 i j) with 0; [ring|]. unfold w, product. rewrite (bsum_ext n _ (fun _ => 0)); [rewrite bsum_0; reflexivity|]. intros k Hk. rewrite Z by auto. unfold zero_matrix. ring. }
    eapply Rle_trans; [apply (mean_bound (fun t => w t i j) (fun t => product n (flow n a (- t)) (s t) i j) b (exp c * sigma)); [lra|]|]. 2:{ assert (0 <= exp c * sigma) by nra. nra. }
    intros t T. split.
    - evar_last. { apply (derive_products n (fun t => flow n a (- t)) z (fun i k => - product n (flow n a (- t)) a i k) (fun k j => product n a (z t) k j + s t k j)).
        - intros k Hk. replace (- product n (flow n a (- t)) a i k) with (-1 * product n (flow n a (- t)) a i k) by ring. apply (is_derive_comp (fun u => flow n a u i k) (fun s => - s)); [apply flow_derive'; auto|]. auto_derive; [exact I|reflexivity].
        - intros k Hk. apply D; auto. }
      change (fun i0 k => - product n (flow n a (- t)) a i0 k) with (fun i0 k => - product n (flow n a (- t)) a i0 k).
      replace (fun i0 k : nat => - product n (flow n a (- t)) a i0 k) with (scaled_matrix (-1) (product n (flow n a (- t)) a)) by (matrix_ext; unfold scaled_matrix; ring). change (fun k j0 : nat => product n a (z t) k j0 + s t k j0) with (plus_matrix (product n a (z t)) (s t)).
      rewrite p_scaled_l, p_plus_r, p_assoc. unfold plus_matrix, scaled_matrix. match goal with |- ?x = ?y => change (@eq R x y) end. ring.
    - apply (bounded_entry n); auto. apply bounded_product; [lra| |apply SB; auto]. apply flow_bounded_1; [lra|exact C]. }
  assert (E : equal n n (product n (flow n a b) (w b)) (z b)).
  { unfold w. rewrite <- p_assoc. eapply equal_trans; [apply product_left, flow_inverse|]. apply product_unit_l. }
  eapply bounded_ext; [exact E|]. apply bounded_product; [lra|apply flow_bounded_1; [lra|exact C]|]. apply bounded_entries, W.
Qed.
Lemma norm_plus n a b : column_norm n (plus_matrix a b) <= column_norm n a + column_norm n b.
Proof. apply norm_le; [pose proof (column_norm_nonneg n a); pose proof (column_norm_nonneg n b); lra|]. apply bounded_plus; apply bounded_norm. Qed.
Lemma flow_at_one n a : equal n n (flow n a 1) (matrix_exp n a).
Proof. eapply equal_trans; [apply flow_exp|]. apply matrix_exp_ext, equal_scaled_one, equal_refl. Qed.
Lemma quadratic_derive (f : R -> R) l c : (forall e, -1 <= e <= 1 -> Rabs (f e - f 0 - e * l) <= c * (e * e)) -> is_derive f 0 l.
Proof.
  intros H. apply is_derive_Reals. intros eps Heps. assert (Cp : 0 < Rabs c + 1) by (pose proof (Rabs_pos c); lra). assert (D : 0 < Rmin 1 (eps / (Rabs c + 1))) by (apply Rmin_pos; [lra|apply Rdiv_lt_0_compat; lra]). exists (mkposreal _ D).
  intros h Hh L. cbn in L. rewrite Rplus_0_l. replace ((f h - f 0) / h - l) with ((f h - f 0 - h * l) / h) by (field; exact Hh). pose proof (Rmin_l 1 (eps / (Rabs c + 1))). pose proof (Rmin_r 1 (eps / (Rabs c + 1))).
  assert (A : 0 < Rabs h) by (apply Rabs_pos_lt, Hh). assert (-1 <= h <= 1) by (apply Rabs_le_between; lra). specialize (H h H2). unfold Rdiv at 1. rewrite Rabs_mult, Rabs_inv. apply (Rmult_lt_reg_r (Rabs h)); [exact A|]. rewrite Rmult_assoc, Rinv_l, Rmult_1_r by lra.
  eapply Rle_lt_trans; [exact H|]. replace (h * h) with (Rabs h * Rabs h) by (rewrite <- Rabs_mult, Rabs_pos_eq by nra; ring). rewrite <- Rmult_assoc. apply Rmult_lt_compat_r; [exact A|].
  assert (K : (Rabs c + 1) * Rabs h < eps). { apply Rlt_le_trans with ((Rabs c + 1) * (eps / (Rabs c + 1))); [apply Rmult_lt_compat_l; lra|right; field; lra]. } pose proof (Rle_abs c). nra.
Qed.
(** K' = A K + B exp (t A) from zero is the derivative of the exponential of A in the direction B. *)
Lemma exp_derivative n a b (k : R -> matrix) : (forall t i j, 0 <= t <= 1 -> (i < n)%nat -> (j < n)%nat -> is_derive (fun u => k u i j) t (product n a (k t) i j + product n b (flow n a t) i j)) ->
  equal n n (k 0) zero_matrix -> forall i j, (i < n)%nat -> (j < n)%nat -> is_derive (fun e => matrix_exp n (plus_matrix a (scaled_matrix e b)) i j) 0 (k 1 i j).
Proof.
  intros DK ZK i j Hi Hj. set (ca := column_norm n a). set (cb := column_norm n b). pose proof (column_norm_nonneg n a) as PA. pose proof (column_norm_nonneg n b) as PB. fold ca in PA. fold cb in PB.
  set (c0 := exp ca * (INR n * (exp ca * (cb * exp (ca + cb))))). set (c1 := exp ca * (INR n * (exp ca * (cb * c0)))).
  assert (N0 : 0 <= INR n) by apply pos_INR. pose proof (exp_pos ca) as E1. pose proof (exp_pos (ca + cb)) as E2. assert (C0 : 0 <= c0) by (unfold c0; repeat apply Rmult_le_pos; lra).
  apply (quadratic_derive _ _ c1). intros e He. set (ae := plus_matrix a (scaled_matrix e b)). assert (NE : Rabs e <= 1) by (apply Rabs_le; lra). pose proof (Rabs_pos e) as RE.
  assert (CE : column_norm n ae <= ca + cb). { unfold ae. eapply Rle_trans; [apply norm_plus|]. rewrite norm_scaled. fold ca cb. nra. }
  (* the difference of the two flows *)
  assert (DD : forall t, 0 <= t <= 1 -> bounded n (minus_matrix (flow n ae t) (flow n a t)) (Rabs e * c0)).
  { intros t T. replace (Rabs e * c0) with (exp ca * (INR n * (exp ca * (Rabs e * (cb * exp (ca + cb)))))) by (unfold c0; ring).
    apply (forced n a (fun u => minus_matrix (flow n ae u) (flow n a u)) (fun u => scaled_matrix e (product n b (flow n ae u)))).
    - exact T.
    - repeat apply Rmult_le_pos; lra.
    - unfold ca. lra.
    - intros u i' j' U Hi' Hj'. evar_last. { unfold minus_matrix. apply @is_derive_minus; apply flow_derive; auto. } match goal with |- ?x = ?y => change (@eq R x y) end.
      unfold ae at 1. rewrite p_plus_l, p_scaled_l, p_minus_r. unfold minus, plus, opp. cbn. unfold minus_matrix, plus_matrix, scaled_matrix. ring.
    - intros u U. apply bounded_scaled, bounded_product; [lra|apply bounded_norm|apply flow_bounded_1; [lra|exact CE]].
    - intros i' j' Hi' Hj'. unfold minus_matrix. rewrite !flow_zero by auto. unfold zero_matrix. ring. }
  assert (RR : bounded n (minus_matrix (minus_matrix (flow n ae 1) (flow n a 1)) (scaled_matrix e (k 1))) (c1 * (e * e))).
  { replace (c1 * (e * e)) with (exp ca * (INR n * (exp ca * (Rabs e * (cb * (Rabs e * c0)))))). 2:{ replace (e * e) with (Rabs e * Rabs e) by (rewrite <- Rabs_mult, Rabs_pos_eq by nra; ring). unfold c1. ring. }
    apply (forced n a (fun u => minus_matrix (minus_matrix (flow n ae u) (flow n a u)) (scaled_matrix e (k u))) (fun u => scaled_matrix e (product n b (minus_matrix (flow n ae u) (flow n a u))))).
    - lra.
    - repeat apply Rmult_le_pos; lra.
    - unfold ca. lra.
    - intros u i' j' U Hi' Hj'. evar_last. { unfold minus_matrix, scaled_matrix. apply @is_derive_minus; [apply @is_derive_minus; apply flow_derive; auto|]. apply (is_derive_scal (fun v => k v i' j') u e). apply DK; auto. } match goal with |- ?x = ?y => change (@eq R x y) end.
      unfold ae at 1. rewrite p_plus_l, p_scaled_l, !p_minus_r, p_scaled_r. unfold minus, plus, opp, scal. cbn. unfold mult. cbn. unfold minus_matrix, plus_matrix, scaled_matrix. ring.
    - intros u U. apply bounded_scaled, bounded_product; [lra|apply bounded_norm|apply DD, U].
    - intros i' j' Hi' Hj'. unfold minus_matrix, scaled_matrix. rewrite !flow_zero by auto. rewrite ZK by auto. unfold zero_matrix. ring. }
  pose proof (bounded_entry n _ _ i j RR Hi Hj) as F. unfold minus_matrix, scaled_matrix in F. rewrite !flow_at_one in F by auto.
  replace (matrix_exp n (plus_matrix a (scaled_matrix 0 b)) i j) with (matrix_exp n a i j); [exact F|]. apply matrix_exp_ext; auto. intros p q _ _. unfold plus_matrix, scaled_matrix. ring.
Qed.

(** The integral of an exponential satisfies the equation that [integral_unique] starts from. *)
Lemma integral_flow n a k : integral n n (exp_at n a) 1 k -> exists g, (forall t i j, (i < n)%nat -> (j < n)%nat -> 0 <= t -> is_derive (fun s => g s i j) t (unit_matrix i j + product n a (g t) i j)) /\ equal n n (g 0) zero_matrix /\ equal n n (g 1) k.
Proof.
  intros K. set (g := fun t i j => RInt (fun s => flow n a s i j) 0 t : R).
  assert (CT : forall i j t, (i < n)%nat -> (j < n)%nat -> continuous (fun s => flow n a s i j) t). { intros i j t Hi Hj. apply (ex_derive_continuous (fun s => flow n a s i j)). eexists. apply flow_derive; auto. }
  assert (D : forall t i j, (i < n)%nat -> (j < n)%nat -> is_derive (fun s => g s i j) t (flow n a t i j)).
  { intros t i j Hi Hj. apply (is_derive_RInt (fun s => flow n a s i j) (fun s => g s i j) 0 t); [|apply CT; auto]. exists (mkposreal 1 Rlt_0_1). intros s _. apply (RInt_correct (fun s => flow n a s i j)). apply (ex_RInt_continuous (fun s => flow n a s i j)). intros; apply CT; auto. }
  assert (Z : equal n n (g 0) zero_matrix). { intros i j Hi Hj. unfold g, zero_matrix. rewrite RInt_point. reflexivity. }
  assert (F : forall b, 0 <= b -> equal n n (flow n a b) (plus_matrix unit_matrix (product n a (g b)))).
  { intros b B i j Hi Hj. assert (E : flow n a b i j - plus_matrix unit_matrix (product n a (g b)) i j = flow n a 0 i j - plus_matrix unit_matrix (product n a (g 0)) i j).
    - apply (constant_on (fun t => flow n a t i j - plus_matrix unit_matrix (product n a (g t)) i j) b B). intros t T. evar_last. { apply @is_derive_minus; [apply flow_derive; auto|]. unfold plus_matrix. apply @is_derive_plus; [apply @is_derive_const|]. apply (derive_product n a g (flow n a t)); auto. }
      unfold minus, plus, opp, zero. cbn. ring.
    - rewrite flow_zero in E by auto. unfold plus_matrix at 2 in E. replace (product n a (g 0) i j) with 0 in E; [lra|]. symmetry. unfold product. rewrite (bsum_ext n _ (fun _ => 0)); [apply bsum_0|]. intros k' Hk. rewrite Z by auto. unfold zero_matrix. ring. }
  exists g. split; [|split; [exact Z|]].
  - intros t i j Hi Hj T. change (unit_matrix i j + product n a (g t) i j) with (plus_matrix unit_matrix (product n a (g t)) i j). rewrite <- F by auto. apply D; auto.
  - intros i j Hi Hj. unfold g. apply is_RInt_unique. eapply is_RInt_ext; [|apply (K i j Hi Hj)]. intros s _. symmetry. apply flow_exp; auto.
Qed.
(** For a linear family of matrices [hat] closed under the bracket with [hat v], and the integral J of exp (s ad v): the
    exponential of hat (v + e u) changes like hat (J u) times the exponential. *)
Lemma left_trivialized n m (h : nat -> matrix) (ad j : matrix) (v u : vector) : let hat := fun w => (fun i k => bsum m (fun l => w l * h l i k)) : matrix in
  (forall w, equal n n (hat (times m ad w)) (bracket n (hat v) (hat w))) -> integral m m (exp_at m ad) 1 j ->
  forall i k, (i < n)%nat -> (k < n)%nat -> is_derive (fun e => matrix_exp n (plus_matrix (hat v) (scaled_matrix e (hat u))) i k) 0 (product n (hat (times m j u)) (matrix_exp n (hat v)) i k).
Proof.
  intros hat BR J i k Hi Hk. destruct (integral_flow m ad j J) as (g & D & Z & E). set (a := hat v).
  assert (HE : forall w w', equal_vectors m w w' -> hat w = hat w'). { intros w w' H. unfold hat. matrix_ext. apply bsum_ext. intros l Hl. rewrite H by auto. reflexivity. }
  assert (RW : product n (hat (times m j u)) (matrix_exp n a) i k = product n (hat (times m (g 1) u)) (flow n a 1) i k).
  { rewrite (HE (times m j u) (times m (g 1) u)). - apply bsum_ext. intros l Hl. rewrite flow_at_one by auto. reflexivity. - intros l Hl. apply bsum_ext. intros p Hp. rewrite E by auto. reflexivity. }
  rewrite RW. clear RW. apply (exp_derivative n a (hat u) (fun t => product n (hat (times m (g t) u)) (flow n a t))); auto.
  - intros t i' j' T Hi' Hj'.
    assert (HD : forall p q, (p < n)%nat -> (q < n)%nat -> is_derive (fun s => hat (times m (g s) u) p q) t (plus_matrix (hat u) (bracket n a (hat (times m (g t) u))) p q)).
    { intros p q Hp Hq. unfold plus_matrix. unfold a. rewrite <- (BR (times m (g t) u) p q Hp Hq). unfold hat at 1 2 3. rewrite <- bsum_plus. apply is_derive_sum. intros l Hl. rewrite <- Rmult_plus_distr_r. apply (is_derive_scal_l (fun s => times m (g s) u l) t (u l + times m ad (times m (g t) u) l) (h l p q)).
      rewrite <- times_assoc. replace (u l + times m (product m ad (g t)) u l) with (bsum m (fun r => (unit_matrix l r + product m ad (g t) l r) * u r)).
      - apply is_derive_sum. intros r Hr. apply (is_derive_scal_l (fun s => g s l r) t (unit_matrix l r + product m ad (g t) l r) (u r)). apply D; auto. lra.
      - rewrite (bsum_ext m _ (fun r => unit_matrix l r * u r + product m ad (g t) l r * u r)) by (intros; ring). rewrite bsum_plus. f_equal. apply times_unit, Hl. }
    evar_last. { apply (derive_products n (fun s => hat (times m (g s) u)) (fun s => flow n a s) (plus_matrix (hat u) (bracket n a (hat (times m (g t) u)))) (product n a (flow n a t))); intros; [apply HD; auto|apply flow_derive; auto]. }
    match goal with |- ?x = ?y => change (@eq R x y) end. unfold bracket. rewrite p_plus_l, p_minus_l, !p_assoc. unfold plus_matrix, minus_matrix. ring.
  - intros i' j' Hi' Hj'. unfold zero_matrix, product. rewrite (bsum_ext n _ (fun _ => 0)); [apply bsum_0|]. intros l Hl. unfold hat. rewrite (bsum_ext m _ (fun _ => 0)); [rewrite bsum_0; ring|]. intros r Hr. unfold times. rewrite (bsum_ext m _ (fun _ => 0)); [rewrite bsum_0; ring|]. intros p Hp. rewrite Z by auto. unfold zero_matrix. ring.
Qed.
Lemma exp_transposed n a : equal n n (matrix_exp n (transposed a)) (transposed (matrix_exp n a)).
Proof.
  assert (P : forall k, equal n n (power n (transposed a) k) (transposed (power n a k))).
  { induction k as [|k IH]. - cbn [power]. rewrite t_unit. apply equal_refl. - eapply equal_trans; [apply power_left|]. cbn [power]. rewrite t_product. apply equal_product; [apply equal_refl|exact IH]. }
  intros i j Hi Hj. unfold transposed at 2. unfold matrix_exp. apply Series_ext. intros k. rewrite (P k i j Hi Hj). reflexivity.
Qed.
Lemma right_trivialized n m (h : nat -> matrix) (ad j : matrix) (v u : vector) : let hat := fun w => (fun i k => bsum m (fun l => w l * h l i k)) : matrix in
  (forall w, equal n n (hat (times m ad w)) (bracket n (hat w) (hat v))) -> integral m m (exp_at m ad) 1 j ->
  forall i k, (i < n)%nat -> (k < n)%nat -> is_derive (fun e => matrix_exp n (plus_matrix (hat v) (scaled_matrix e (hat u))) i k) 0 (product n (matrix_exp n (hat v)) (hat (times m j u)) i k).
Proof.
  intros hat BR J i k Hi Hk. set (h' := fun l => transposed (h l)). assert (E : forall w, (fun i k => bsum m (fun l => w l * h' l i k)) = transposed (hat w)) by reflexivity.
  pose proof (left_trivialized n m h' ad j v u) as L. cbv zeta in L. assert (L' := fun B => L B J k i Hk Hi). clear L. cbv beta in L'. rewrite !E in L'.
  assert (B : forall w, equal n n (transposed (hat (times m ad w))) (bracket n (transposed (hat v)) (transposed (hat w)))).
  { intros w p q Hp Hq. unfold bracket. rewrite <- !t_product. unfold transposed at 1. rewrite (BR w q p Hq Hp). reflexivity. }
  specialize (L' B). evar_last.
  - eapply is_derive_ext; [|exact L']. intros e. cbv beta. rewrite <- t_scaled, <- t_plus. rewrite exp_transposed by auto. reflexivity.
  - match goal with |- ?x = ?y => change (@eq R x y) end. etransitivity; [apply (equal_product n n n _ _ _ _ (equal_refl _ _ _) (exp_transposed n (hat v))); auto|]. rewrite <- t_product. reflexivity.
Qed.
