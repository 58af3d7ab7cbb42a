(** The derivative of an exponential through its two jacobians, for matrices given by coordinates. *)
From Coq Require Import ZArith List Bool Arith Reals Lra Lia.
From Coquelicot Require Import Coquelicot.
From Verif Require Import Base.Series Spec.Matrix Spec.MatrixExp Spec.Hold Spec.Planar Proofs.Matrix Proofs.Algebra Proofs.Expm Proofs.ExpIntegral Proofs.Duhamel.
Local Open Scope R_scope.

Lemma brackets_ext n a a' b b' : equal n n a a' -> equal n n b b' -> equal n n (bracket n a b) (bracket n a' b').
Proof. intros A B i j Hi Hj. unfold bracket, minus_matrix. rewrite (equal_product n n n a a' b b' A B i j Hi Hj), (equal_product n n n b b' a a' B A i j Hi Hj). reflexivity. Qed.
Lemma trivialized n m (h : nat -> matrix) (hat : vector -> matrix) (ad ad' jl jr : matrix) (v u : vector) :
  (forall w, equal n n (fun i k => bsum m (fun l => w l * h l i k)) (hat w)) -> (forall w, equal n n (hat (times m ad w)) (bracket n (hat v) (hat w))) ->
  (forall i j, (i < m)%nat -> (j < m)%nat -> ad' i j = - ad i j) -> integral m m (exp_at m ad) 1 jl -> integral m m (exp_at m ad') 1 jr ->
  forall i j, (i < n)%nat -> (j < n)%nat -> let moved := fun e => matrix_exp n (plus_matrix (hat v) (scaled_matrix e (hat u))) in
  is_derive (fun e => moved e i j) 0 (product n (hat (times m jl u)) (moved 0) i j) /\ is_derive (fun e => moved e i j) 0 (product n (moved 0) (hat (times m jr u)) i j).
Proof.
  intros B BR N J J' i j Hi Hj moved. set (sum := fun w : vector => (fun i k => bsum m (fun l => w l * h l i k)) : matrix). assert (BS : forall w, equal n n (sum w) (hat w)) by exact B. clear B.
  assert (MV : forall e, equal n n (matrix_exp n (plus_matrix (sum v) (scaled_matrix e (sum u)))) (moved e)).
  { intros e. apply matrix_exp_ext. intros p q Hp Hq. unfold plus_matrix, scaled_matrix. rewrite !BS by auto. reflexivity. }
  assert (M0 : equal n n (matrix_exp n (sum v)) (moved 0)).
  { apply matrix_exp_ext. intros p q Hp Hq. unfold plus_matrix, scaled_matrix. rewrite BS by auto. ring. }
  assert (BV : forall w, equal n n (sum (times m ad w)) (bracket n (sum v) (sum w))).
  { intros w. eapply equal_trans; [apply BS|]. eapply equal_trans; [apply BR|]. apply brackets_ext; apply equal_sym, BS. }
  split; (evar_last; [eapply is_derive_ext; [intros e; apply (MV e i j Hi Hj)|]|]).
  - apply (left_trivialized n m h ad jl v u BV J i j Hi Hj).
  - match goal with |- ?p = ?q => change (@eq R p q) end. exact (equal_product n n n (sum (times m jl u)) _ _ _ (BS _) M0 i j Hi Hj).
  - refine (right_trivialized n m h ad' jr v u _ J' i j Hi Hj). intros w p q Hp Hq. pose proof (BV w p q Hp Hq) as B. unfold bracket, minus_matrix in *. unfold sum in B. transitivity (- (bsum m (fun l => times m ad w l * h l p q))).
    + transitivity (-1 * bsum m (fun l => times m ad w l * h l p q)); [|ring]. rewrite <- bsum_scal. apply bsum_ext. intros l Hl. replace (times m ad' w l) with (- times m ad w l); [ring|]. unfold times. transitivity (-1 * bsum m (fun k => ad l k * w k)); [ring|]. rewrite <- bsum_scal. apply bsum_ext. intros k Hk. rewrite N by auto. ring.
    + rewrite B. ring.
  - match goal with |- ?p = ?q => change (@eq R p q) end. exact (equal_product n n n _ _ (sum (times m jr u)) _ M0 (BS _) i j Hi Hj).
Qed.
