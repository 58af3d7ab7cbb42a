(** The passes of the Riccati solver keep the cost and the reach from becoming negative; completing the square. *)
From Coq Require Import ZArith Reals List Bool Arith Lia Lra Psatz FunctionalExtensionality.
From Verif Require Import Base.Scalar Base.RNum Base.Lists Base.Series Base.Det Model.Errors Model.Vector Model.Matrix Model.Lu Model.Cholesky Model.Riccati.
From Verif Require Import Spec.Matrix Proofs.Matrix Proofs.Lu Proofs.Cholesky Proofs.Qr Proofs.Svd Proofs.Pinv Proofs.Algebra Proofs.Lyapunov.
From Verif Require Import Props.Lu Props.Cholesky Props.Matrix Props.Eigen.
Import ListNotations.
Local Open Scope R_scope.

Lemma times_plus n a x y i : times n a (fun k => x k + y k) i = times n a x i + times n a y i.
Proof. unfold times. rewrite <- bsum_plus. apply bsum_ext. intros; ring. Qed.
Lemma times_minus n a x y i : times n a (fun k => x k - y k) i = times n a x i - times n a y i.
Proof. unfold times. rewrite <- bsum_minus. apply bsum_ext. intros; ring. Qed.
Lemma dot_plus_l n x y z : dot_product n (fun k => x k + y k) z = dot_product n x z + dot_product n y z.
Proof. unfold dot_product. rewrite <- bsum_plus. apply bsum_ext. intros; ring. Qed.
Lemma dot_plus_r n x y z : dot_product n z (fun k => x k + y k) = dot_product n z x + dot_product n z y.
Proof. unfold dot_product. rewrite <- bsum_plus. apply bsum_ext. intros; ring. Qed.
Lemma times_product' n m a b x : times m (product n a b) x = times n a (times m b x).
Proof. apply functional_extensionality. intros i. apply times_product. Qed.
Lemma times_plus_matrix n a b x : times n (plus_matrix a b) x = fun i => times n a x i + times n b x i.
Proof. apply functional_extensionality. intros i. unfold times, plus_matrix. rewrite <- bsum_plus. apply bsum_ext. intros; ring. Qed.
Lemma equal_times rows n a b x : equal rows n a b -> equal_vectors rows (times n a x) (times n b x).
Proof. intros H i Hi. apply times_ext; [intros k Hk; apply H; auto|intros k Hk; reflexivity]. Qed.
Lemma quadratic_vec n a x y : equal_vectors n x y -> quadratic n a x = quadratic n a y.
Proof. intros H. apply dot_ext; auto. intros i Hi. apply times_ext; auto. Qed.

(** One pass: with [(I + G C) X = I], both increments have forms that are not negative. *)
Section Pass.
  Variables (n : nat) (G C X : matrix).
  Hypothesis inverse : equal n n (product n (plus_matrix unit_matrix (product n G C)) X) unit_matrix.
  Hypothesis GP : positive_semidefinite n G.
  Hypothesis CP : positive_semidefinite n C.
  Lemma folded_back y : equal_vectors n (fun i => times n X y i + times n G (times n C (times n X y)) i) y.
  Proof.
    intros i Hi. pose proof (equal_times n n _ _ y inverse i Hi) as H. rewrite times_unit in H by auto. rewrite times_product', times_plus_matrix in H. rewrite times_unit, times_product' in H by auto. exact H.
  Qed.
  Lemma cost_form y : 0 <= quadratic n (product n C X) y.
  Proof.
    unfold quadratic. rewrite times_product'. set (z := times n X y). set (w := times n C z).
    rewrite (dot_ext n y (fun i => z i + times n G w i) w w); [|intros i Hi; symmetry; apply folded_back; auto|intros i Hi; reflexivity].
    rewrite dot_plus_l. rewrite (dot_comm n (times n G w) w). pose proof (CP z) as H1. pose proof (GP w) as H2. unfold quadratic in *. fold w in H1. lra.
  Qed.
  Lemma reach_form v : 0 <= quadratic n (product n X G) v.
  Proof.
    unfold quadratic. rewrite times_product'. set (g := times n G v). set (w := times n X g). set (s := fun i => v i - times n C w i).
    assert (W : equal_vectors n w (times n G s)).
    { intros i Hi. pose proof (folded_back g i Hi) as F. cbv beta in F. fold w in F. unfold s. rewrite times_minus. fold g. lra. }
    assert (E : dot_product n v w = quadratic n G s + quadratic n C w).
    { rewrite (dot_ext n v (fun i => s i + times n C w i) w w); [|intros i Hi; unfold s; ring|intros i Hi; reflexivity]. rewrite dot_plus_l.
      rewrite (dot_ext n s s w (times n G s)); [|intros i Hi; reflexivity|exact W]. rewrite (dot_comm n (times n C w) w). reflexivity. }
    rewrite E. pose proof (GP s). pose proof (CP w). lra.
  Qed.
End Pass.

Lemma symmetrized_facts n (m : mat R) : shape n n m -> shape n n (symmetrized n m) /\ symmetric n (mget (symmetrized n m)) /\ forall x, quadratic n (mget (symmetrized n m)) x = quadratic n (mget m) x.
Proof.
  intros S. destruct (C87_symmetrized n m S) as [S' E]. split; [exact S'|]. split; [intros i j Hi Hj; apply E; auto|]. apply C87_symmetrized_form; auto.
Qed.
Lemma mget_add n k (a b : mat R) : shape n k a -> shape n k b -> equal n k (mget (mat_add a b)) (plus_matrix (mget a) (mget b)).
Proof. intros Sa Sb i j Hi Hj. unfold mat_add. rewrite (mget_map2 add n k) by auto. reflexivity. Qed.

Definition riccati_state n (q : matrix) (state cost reach : mat R) : Prop :=
  shape n n state /\ shape n n cost /\ shape n n reach /\ positive_semidefinite n (mget reach) /\ forall x, quadratic n q x <= quadratic n (mget cost) x.
Lemma riccati_passes_spec n q : positive_semidefinite n q -> forall remaining p state cost reach, riccati_state n q state cost reach ->
  match riccati_passes n remaining p state cost reach with
  | Ok (r, passes) => (0 < remaining)%nat -> shape n n r /\ symmetric n (mget r) /\ forall x, quadratic n q x <= quadratic n (mget r) x
  | _ => True
  end.
Proof.
  intros PQ. induction remaining as [|remaining IH]; intros p state cost reach (S1 & S2 & S3 & P3 & L); [cbn; lia|]. cbn [riccati_passes].
  assert (SI : shape n n (mat_add (identity n) (mat_mul n n n reach cost))) by (apply shape_map2; [apply shape_identity|apply shape_mat_fn]).
  destruct (mat_inverse n (mat_add (identity n) (mat_mul n n n reach cost))) as [X|e|] eqn:EX; [|exact I|exact I].
  destruct (C78_inverse n _ X SI EX) as (SX & IX & _).
  assert (IX' : equal n n (product n (plus_matrix unit_matrix (product n (mget reach) (mget cost))) (mget X)) unit_matrix).
  { eapply equal_trans; [|exact IX]. apply product_left. apply equal_sym. eapply equal_trans; [apply mget_add; [apply shape_identity|apply shape_mat_fn]|]. intros i j Hi Hj. unfold plus_matrix. rewrite mget_identity, mget_mul by auto. reflexivity. }
  set (folded := mat_mul n n n X state). set (ci := mat_mul n n n (mat_mul n n n (transpose n n state) cost) folded). set (ri := mat_mul n n n (mat_mul n n n state (mat_mul n n n X reach)) (transpose n n state)).
  assert (PC : positive_semidefinite n (mget cost)) by (intros x; specialize (L x); specialize (PQ x); lra).
  assert (EC : equal n n (mget ci) (product n (transposed (mget state)) (product n (product n (mget cost) (mget X)) (mget state)))).
  { intros i j Hi Hj. unfold ci. rewrite mget_mul by auto. rewrite !p_assoc. rewrite <- p_assoc. apply product_ext; [|intros k Hk; unfold folded; apply mget_mul; auto].
    intros k Hk. rewrite mget_mul by auto. apply product_ext; auto. intros l Hl. apply mget_transpose; auto. }
  assert (ER : equal n n (mget ri) (product n (mget state) (product n (product n (mget X) (mget reach)) (transposed (mget state))))).
  { intros i j Hi Hj. unfold ri. rewrite mget_mul by auto. rewrite <- p_assoc. apply product_ext; [|intros k Hk; apply mget_transpose; auto].
    intros k Hk. rewrite mget_mul by auto. apply product_ext; auto. intros l Hl. apply mget_mul; auto. }
  assert (SC : shape n n (mat_add cost ci)) by (apply shape_map2; auto; apply shape_mat_fn). assert (SR : shape n n (mat_add reach ri)) by (apply shape_map2; auto; apply shape_mat_fn).
  destruct (symmetrized_facts n _ SC) as (SC1 & SC2 & SC3). destruct (symmetrized_facts n _ SR) as (SR1 & SR2 & SR3).
  assert (NL : forall x, quadratic n q x <= quadratic n (mget (symmetrized n (mat_add cost ci))) x).
  { intros x. rewrite SC3, (quadratic_ext n _ _ x (mget_add n n cost ci S2 ltac:(apply shape_mat_fn))), quadratic_plus, (quadratic_ext n _ _ x EC), quadratic_sandwich.
    pose proof (cost_form n (mget reach) (mget cost) (mget X) IX' P3 PC (times n (mget state) x)). specialize (L x). lra. }
  assert (NR : positive_semidefinite n (mget (symmetrized n (mat_add reach ri)))).
  { intros x. rewrite SR3, (quadratic_ext n _ _ x (mget_add n n reach ri S3 ltac:(apply shape_mat_fn))), quadratic_plus, (quadratic_ext n _ _ x ER).
    rewrite <- (t_twice (mget state)) at 1. rewrite quadratic_sandwich. pose proof (reach_form n (mget reach) (mget cost) (mget X) IX' P3 PC (times n (transposed (mget state)) x)). specialize (P3 x). lra. }
  cbv zeta. rewrite !finite_always. change (is_finite (frobenius_norm ci)) with true. change (is_finite (frobenius_norm (symmetrized n (mat_add cost ci)))) with true. cbn [negb orb].
  destruct (leb _ _); [intros _; auto|].
  destruct remaining as [|remaining]; [cbn [riccati_passes]; intros _; auto|].
  specialize (IH (p + 1)%nat (mat_mul n n n state folded) (symmetrized n (mat_add cost ci)) (symmetrized n (mat_add reach ri))).
  assert (St : riccati_state n q (mat_mul n n n state folded) (symmetrized n (mat_add cost ci)) (symmetrized n (mat_add reach ri))) by (split; [apply shape_mat_fn|split; [exact SC1|split; [exact SR1|split; [exact NR|exact NL]]]]).
  specialize (IH St). destruct (riccati_passes n (S remaining) (p + 1) _ _ _) as [[r passes]|e|]; auto. intros _. apply IH. lia.
Qed.

Lemma cholesky_solves m n w f b : shape m m w -> symmetric m (mget w) -> cholesky m w = Ok f ->
  shape m n (cholesky_solve_matrix m n f b) /\ equal m n (product m (mget w) (mget (cholesky_solve_matrix m n f b))) (mget b).
Proof.
  intros S Y E. destruct (solve_columns_spec m n (cholesky_solve m f) b) as [C1 C2]. split; [exact C1|]. intros i j Hi Hj.
  pose proof (cholesky_spec m w) as C. rewrite E in C. destruct (placed_solve m w f C (from_fn m (fun row => mget b row j)) Y (from_fn_length _ _)) as [_ D]. specialize (D i Hi).
  rewrite vget_from_fn in D by auto. rewrite <- D. unfold product, times. apply bsum_ext. intros k Hk. unfold cholesky_solve_matrix. rewrite C2 by auto. reflexivity.
Qed.
(** [B S] with [R S = B'] has a form that is not negative when that of [R] is not. *)
Lemma reach_start n m b r s : positive_semidefinite m r -> equal m n (product m r s) (transposed b) -> positive_semidefinite n (product m b s).
Proof.
  intros P E x. unfold quadratic. rewrite times_product'. set (y := times n s x). rewrite <- (t_twice b). rewrite <- dot_transposed.
  rewrite (dot_ext m _ (times m r y) y y); [rewrite dot_comm; apply P| |intros i Hi; reflexivity]. intros i Hi. unfold y. rewrite <- times_product'. symmetry. apply (equal_times m n _ _ x E i Hi).
Qed.

(** ** Completing the square *)
Section Square.
  Variables (n m : nat) (A B Q R0 P W K : matrix).
  Hypothesis SP : symmetric n P.
  Hypothesis SR : symmetric m R0.
  Hypothesis EW : equal m m W (plus_matrix R0 (product n (transposed B) (product n P B))).
  Hypothesis EK : equal m n (product m W K) (product n (transposed B) (product n P A)).
  Definition input_form (x u : vector) : R := quadratic m R0 u + quadratic n P (fun i => times n A x i + times m B u i).
  Lemma sym_dot k M x y : symmetric k M -> dot_product k x (times k M y) = dot_product k y (times k M x).
  Proof.
    intros S. rewrite (dot_comm k y). rewrite (dot_transposed k k M x y). apply dot_ext; [intros i Hi; reflexivity|]. intros i Hi. apply times_ext; [intros l Hl; apply S; auto|intros l Hl; reflexivity].
  Qed.
  Lemma quad_sum_sym k M x y : symmetric k M -> quadratic k M (fun i => x i + y i) = quadratic k M x + 2 * dot_product k y (times k M x) + quadratic k M y.
  Proof.
    intros S. unfold quadratic. rewrite (dot_ext k _ (fun i => x i + y i) _ (fun i => times k M x i + times k M y i)); [|intros i Hi; reflexivity|intros i Hi; apply times_plus].
    rewrite dot_plus_l, !dot_plus_r. rewrite (sym_dot k M x y S). ring.
  Qed.
  Lemma weight_symmetric : symmetric m W.
  Proof.
    intros i j Hi Hj. unfold transposed. rewrite !EW by auto. unfold plus_matrix. f_equal; [apply SR; auto|].
    assert (E : transposed (product n (transposed B) (product n P B)) = product n (transposed B) (product n (transposed P) B)) by (rewrite !t_product, t_twice, p_assoc; reflexivity).
    change (product n (transposed B) (product n P B) j i) with (transposed (product n (transposed B) (product n P B)) i j). rewrite E. apply product_ext; auto. intros k Hk. apply product_ext; auto.
  Qed.
  Lemma complete_square x u : input_form x u = quadratic n P (times n A x) - quadratic m W (times n K x) + quadratic m W (fun i => u i + times n K x i).
  Proof.
    unfold input_form. rewrite (quad_sum_sym n P (times n A x) (times m B u) SP).
    assert (E1 : dot_product n (times m B u) (times n P (times n A x)) = dot_product m u (times m W (times n K x))).
    { rewrite dot_transposed. apply dot_ext; [intros i Hi; reflexivity|]. intros i Hi. pose proof (equal_times m n _ _ x EK i Hi) as H. rewrite !times_product' in H. symmetry. exact H. }
    assert (E2 : quadratic n P (times m B u) = quadratic m (product n (transposed B) (product n P B)) u).
    { unfold quadratic. rewrite dot_transposed. apply dot_ext; [intros i Hi; reflexivity|]. intros i Hi. rewrite !times_product'. reflexivity. }
    assert (E3 : quadratic m W u = quadratic m R0 u + quadratic m (product n (transposed B) (product n P B)) u) by (rewrite (quadratic_ext m _ _ u EW), quadratic_plus; reflexivity).
    rewrite (quad_sum_sym m W u (times n K x) weight_symmetric).
    rewrite (sym_dot m W (times n K x) u weight_symmetric). lra.
  Qed.
  (** The residual's form is what the optimal step leaves over. *)
  Definition riccati_residual : matrix :=
    plus_matrix (minus_matrix (minus_matrix (product n (transposed A) (product n P A)) P) (product m (transposed (product n (transposed B) (product n P A))) K)) Q.
  Lemma residual_form x : quadratic n riccati_residual x = quadratic n Q x + input_form x (fun i => - times n K x i) - quadratic n P x.
  Proof.
    rewrite complete_square. rewrite (quadratic_vec m W (fun i => - times n K x i + times n K x i) (fun _ => 0)); [|intros i Hi; ring].
    assert (Z : quadratic m W (fun _ => 0) = 0) by (unfold quadratic, dot_product; rewrite (bsum_ext m _ (fun _ => 0)) by (intros; ring); apply bsum_0).
    rewrite Z. unfold riccati_residual. rewrite quadratic_plus, !quadratic_minus, quadratic_sandwich.
    assert (E : quadratic n (product m (transposed (product n (transposed B) (product n P A))) K) x = quadratic m W (times n K x)).
    { unfold quadratic at 1. rewrite times_product'. rewrite <- dot_transposed. rewrite (dot_comm m (times n _ x)). apply dot_ext; [intros i Hi; reflexivity|].
      intros i Hi. rewrite <- times_product'. symmetry. apply (equal_times m n _ _ x EK i Hi). }
    rewrite E. ring.
  Qed.
End Square.
