(** The exponential as a function of time: its derivative, and the trajectories of a linear system. *)
From Coq Require Import Reals List Arith Lia Lra Psatz FunctionalExtensionality.
From Coquelicot Require Import Coquelicot.
From Verif Require Import Base.Scalar Base.Series Spec.Matrix Spec.MatrixExp Proofs.Matrix Proofs.Algebra Proofs.MatrixSeries.
Local Open Scope R_scope.

Definition flow (n : nat) (a : matrix) (t : R) : matrix := series n a (exponent t).
Lemma flow_exp n a t : equal n n (flow n a t) (matrix_exp n (scaled_matrix t a)).
Proof. apply equal_sym, exp_of_scaled. Qed.
Definition flow_coefficient n (a : matrix) i j (k : nat) : R := power n a k i j / INR (fact k).
Lemma flow_power_series n a t i j : flow n a t i j = PSeries (flow_coefficient n a i j) t.
Proof. unfold flow, series, PSeries. apply Series_ext. intros k. unfold exponent, flow_coefficient. field. apply INR_fact_neq_0. Qed.
Lemma flow_radius n a i j : (i < n)%nat -> (j < n)%nat -> CV_radius (flow_coefficient n a i j) = p_infty.
Proof.
  intros Hi Hj. set (r := CV_radius _). assert (H : forall x, 0 <= x -> Rbar_le x r).
  { intros x X. apply (proj1 (CV_radius_bounded (flow_coefficient n a i j))).
    pose proof (series_abs n a (column_norm n a) (column_norm_nonneg n a) (bounded_norm n a) (exponent x) i j (admits_exponent _ x) Hi Hj) as E.
    apply ex_series_lim_0, is_lim_seq_Reals in E. destruct (maj_by_pos (fun k => Rabs (exponent x k * power n a k i j)) (exist _ 0 E)) as (M & _ & HM). exists M. intros k. specialize (HM k). rewrite Rabs_Rabsolu in HM.
    replace (flow_coefficient n a i j k * x ^ k) with (exponent x k * power n a k i j); [exact HM|]. unfold exponent, flow_coefficient. field. apply INR_fact_neq_0. }
  destruct r as [v| |]; [|reflexivity|exfalso; apply (H 0); lra]. exfalso. pose proof (H (Rabs v + 1) ltac:(pose proof (Rabs_pos v); lra)) as Q. cbn in Q. pose proof (Rle_abs v). lra.
Qed.
Lemma flow_derive n a t i j : (i < n)%nat -> (j < n)%nat -> is_derive (fun s => flow n a s i j) t (product n a (flow n a t) i j).
Proof.
  intros Hi Hj. apply is_derive_ext with (PSeries (flow_coefficient n a i j)); [intros s; symmetry; apply flow_power_series|].
  replace (product n a (flow n a t) i j) with (PSeries (PS_derive (flow_coefficient n a i j)) t); [apply is_derive_PSeries; rewrite flow_radius by auto; exact I|].
  unfold PSeries. apply is_series_unique. apply is_series_ext with (fun k => bsum n (fun l => a i l * (exponent t k * power n a k l j))).
  - intros k. unfold PS_derive, flow_coefficient, exponent. rewrite (power_left n a k i j Hi Hj). unfold product. replace (INR (fact (S k))) with (INR (S k) * INR (fact k)) by (rewrite <- mult_INR; f_equal).
    rewrite (bsum_ext n _ (fun l => (t ^ k / INR (fact k)) * (a i l * power n a k l j))) by (intros; ring). rewrite bsum_scal. match goal with |- ?x = ?y => change (@eq R x y) end. field. split; [apply INR_fact_neq_0|apply not_0_INR; lia].
  - unfold product. apply (is_series_bsum n (fun l k => a i l * (exponent t k * power n a k l j)) (fun l => a i l * flow n a t l j)). intros l Hl. apply (is_series_scal (V := R_NormedModule) (a i l) (fun k => exponent t k * power n a k l j) (flow n a t l j)).
    apply (is_series_entry n a (column_norm n a) (column_norm_nonneg n a) (bounded_norm n a)); auto. apply admits_exponent.
Qed.
Lemma flow_zero n a : equal n n (flow n a 0) unit_matrix.
Proof.
  eapply equal_trans; [|apply (series_one n a)]. unfold flow. rewrite (series_ext n a (exponent 0) (fun k => if Nat.eqb k 0 then 1 else 0)); [apply equal_refl|]. intros [|k]; unfold exponent; cbn [Nat.eqb]; [cbn; field|]. rewrite pow_i by lia. unfold Rdiv. ring.
Qed.
Lemma flow_plus n a s t : equal n n (product n (flow n a s) (flow n a t)) (flow n a (s + t)).
Proof. apply (exponent_product n a (column_norm n a) (column_norm_nonneg n a) (bounded_norm n a)). Qed.
Lemma flow_inverse n a t : equal n n (product n (flow n a t) (flow n a (- t))) unit_matrix.
Proof. eapply equal_trans; [apply flow_plus|]. rewrite Rplus_opp_r. apply flow_zero. Qed.
Lemma flow_commutes n a t : equal n n (product n a (flow n a t)) (product n (flow n a t) a).
Proof.
  eapply equal_trans; [apply product_left, equal_sym, (series_itself n a)|]. eapply equal_trans; [apply (series_commute n a (column_norm n a) (column_norm_nonneg n a) (bounded_norm n a))|].
  - apply (admits_finite _ _ 2). intros k Hk. destruct (Nat.eqb_spec k 1); [lia|reflexivity].
  - apply admits_exponent.
  - apply equal_product; [apply equal_refl|apply series_itself].
Qed.
Lemma flow_derive' n a t i j : (i < n)%nat -> (j < n)%nat -> is_derive (fun s => flow n a s i j) t (product n (flow n a t) a i j).
Proof. intros Hi Hj. rewrite <- (flow_commutes n a t i j Hi Hj). apply flow_derive; auto. Qed.
Lemma is_derive_sum n (f : nat -> R -> R) d t : (forall k, (k < n)%nat -> is_derive (f k) t (d k)) -> is_derive (fun s => bsum n (fun k => f k s)) t (bsum n d).
Proof.
  induction n as [|n IH]; intros H; cbn [bsum]; [apply (is_derive_const (K := R_AbsRing) (V := R_NormedModule) 0)|]. apply (is_derive_plus (fun s => bsum n (fun k => f k s)) (f n)); [apply IH; auto|apply H; lia].
Qed.
Lemma constant_on (f : R -> R) b : 0 <= b -> (forall t, 0 <= t <= b -> is_derive f t 0) -> f b = f 0.
Proof.
  intros B H. destruct (MVT_gen f 0 b (fun _ => 0)) as (c & _ & E).
  - intros x. rewrite Rmin_left, Rmax_right by lra. intros X. apply H. lra.
  - intros x. rewrite Rmin_left, Rmax_right by lra. intros X. apply continuity_pt_filterlim. apply (ex_derive_continuous (V := R_NormedModule) f x). exists 0. apply H. lra.
  - lra.
Qed.
(** Every trajectory of [z' = M z] is where the exponential takes its start. *)
Lemma flow_trajectory n a (z : R -> vector) b : 0 <= b -> (forall t i, 0 <= t <= b -> (i < n)%nat -> is_derive (fun s => z s i) t (times n a (z t) i)) ->
  forall i, (i < n)%nat -> z b i = times n (flow n a b) (z 0) i.
Proof.
  intros B H. set (w := fun t => times n (flow n a (- t)) (z t)).
  assert (W : forall i, (i < n)%nat -> w b i = w 0 i).
  { intros i Hi. apply (constant_on (fun t => w t i) b B). intros t T.
    replace 0 with (bsum n (fun k => - product n (flow n a (- t)) a i k * z t k + flow n a (- t) i k * times n a (z t) k)).
    - apply (is_derive_sum n (fun k s => flow n a (- s) i k * z s k)). intros k Hk.
      replace (- product n (flow n a (- t)) a i k * z t k) with ((- product n (flow n a (- t)) a i k) * z t k) by ring.
      apply (is_derive_mult (fun s => flow n a (- s) i k) (fun s => z s k)); [|apply H; auto|intros; apply Rmult_comm].
      replace (- product n (flow n a (- t)) a i k) with (-1 * product n (flow n a (- t)) a i k) by ring.
      apply (is_derive_comp (fun u => flow n a u i k) (fun s => - s)); [apply flow_derive'; auto|]. auto_derive; [exact I|reflexivity].
    - rewrite bsum_plus. unfold times at 1. unfold product.
      rewrite (bsum_ext n (fun k => - bsum n (fun l => flow n a (- t) i l * a l k) * z t k) (fun k => bsum n (fun l => - (flow n a (- t) i l * a l k * z t k)))).
      2:{ intros k Hk. transitivity (bsum n (fun l => - z t k * (flow n a (- t) i l * a l k))); [rewrite bsum_scal; ring|apply bsum_ext; intros; ring]. }
      rewrite bsum_swap, <- bsum_plus. rewrite (bsum_ext n _ (fun _ => 0)); [apply bsum_0|]. intros k Hk. rewrite <- bsum_scal, <- bsum_plus. rewrite (bsum_ext n _ (fun _ => 0)); [apply bsum_0|]. intros; ring. }
  intros i Hi.
  assert (E : z b i = times n (flow n a b) (w b) i).
  { unfold w. rewrite <- times_product. rewrite <- (times_unit n (z b) i Hi). apply bsum_ext. intros k Hk. rewrite (flow_inverse n a b i k Hi Hk). reflexivity. }
  rewrite E. apply bsum_ext. intros k Hk. rewrite W by auto. f_equal. unfold w. rewrite Ropp_0. transitivity (times n unit_matrix (z 0) k); [apply bsum_ext; intros l Hl; rewrite (flow_zero n a k l Hk Hl); reflexivity|apply times_unit; auto].
Qed.
