(** Recognising an exponential and its integral from a differential equation. *)
From Coq Require Import ZArith List Bool Arith Reals Lra Lia.
From Coquelicot Require Import Coquelicot.
From Verif Require Import Base.Scalar Base.RNum Base.Series Spec.Matrix Spec.MatrixExp Spec.Hold Proofs.Algebra Proofs.MatrixSeries Proofs.Flow Proofs.Expm Proofs.Rotation.
Local Open Scope R_scope.

Lemma derive_product n a (g : R -> matrix) (dg : matrix) t i j : (i < n)%nat -> (forall k, (k < n)%nat -> is_derive (fun s => g s k j) t (dg k j)) ->
  is_derive (fun s => product n a (g s) i j) t (product n a dg i j).
Proof. intros Hi D. unfold product. apply is_derive_sum. intros k Hk. apply (is_derive_scal (fun s => g s k j) t (a i k)). auto. Qed.
(** G' = I + A G from zero is the integral of the exponential, and then the exponential is I + A G. *)
Lemma integral_unique n (a : matrix) (g : R -> matrix) :
  (forall t i j, (i < n)%nat -> (j < n)%nat -> is_derive (fun s => g s i j) t (unit_matrix i j + product n a (g t) i j)) -> equal n n (g 0) zero_matrix ->
  forall b, 0 <= b -> equal n n (exp_at n a b) (plus_matrix unit_matrix (product n a (g b))) /\ integral n n (exp_at n a) b (g b).
Proof.
  intros D Z.
  assert (F : forall t i j, (i < n)%nat -> (j < n)%nat -> is_derive (fun s => plus_matrix unit_matrix (product n a (g s)) i j) t (product n a (plus_matrix unit_matrix (product n a (g t))) i j)).
  { intros t i j Hi Hj. unfold plus_matrix at 1. evar_last. { apply @is_derive_plus; [apply @is_derive_const|]. apply (derive_product n a g (plus_matrix unit_matrix (product n a (g t)))); auto. intros k Hk. apply D; auto. } apply Rplus_0_l. }
  assert (E : forall b, 0 <= b -> equal n n (exp_at n a b) (plus_matrix unit_matrix (product n a (g b)))).
  { intros b B. apply equal_sym. apply (exp_unique n a (fun s => plus_matrix unit_matrix (product n a (g s)))); auto.
    intros i j Hi Hj. unfold plus_matrix, product. rewrite (bsum_ext n _ (fun _ => 0)); [rewrite bsum_0; ring|]. intros k Hk. rewrite Z by auto. unfold zero_matrix. ring. }
  intros b B. split; [auto|]. intros i j Hi Hj.
  replace (g b i j) with (minus (g b i j) (g 0 i j)). 2:{ rewrite Z by auto. unfold zero_matrix. apply Rminus_0_r. }
  apply (is_RInt_ext (fun t => plus_matrix unit_matrix (product n a (g t)) i j)).
  { intros t. rewrite Rmin_left, Rmax_right by exact B. intros T. symmetry. apply E; auto. lra. }
  apply (is_RInt_derive (fun t => g t i j)).
  - intros t _. apply D; auto.
  - intros t _. apply (ex_derive_continuous (fun s => plus_matrix unit_matrix (product n a (g s)) i j)). eexists. apply F; auto.
Qed.
Lemma exp_unique_1 n (a : matrix) (f : R -> matrix) : (forall t i j, (i < n)%nat -> (j < n)%nat -> is_derive (fun s => f s i j) t (product n a (f t) i j)) ->
  equal n n (f 0) unit_matrix -> equal n n (f 1) (matrix_exp n a).
Proof. intros D Z. eapply equal_trans; [apply (exp_unique n a f D Z 1); lra|]. apply matrix_exp_ext, equal_scaled_one, equal_refl. Qed.
