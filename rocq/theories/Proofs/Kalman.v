(** Facts about the Kalman filters. *)
From Coq Require Import ZArith Reals List Bool Arith Lia Lra Psatz FunctionalExtensionality.
From Verif Require Import Base.Scalar Base.RNum Base.Lists Base.Series Base.Det Model.Errors Model.Vector Model.Matrix Model.Lu Model.Cholesky Model.Kalman.
From Verif Require Import Spec.Matrix Spec.Kalman Proofs.Matrix Proofs.Lu Proofs.Cholesky Proofs.Algebra Proofs.Riccati Props.Cholesky.
Import ListNotations.
Local Open Scope R_scope.

(** ** Forms *)
Lemma dot_comm n x y : dot_product n x y = dot_product n y x.
Proof. apply bsum_ext. intros. ring. Qed.
Lemma dot_ext n x x' y y' : equal_vectors n x x' -> equal_vectors n y y' -> dot_product n x y = dot_product n x' y'.
Proof. intros A B. apply bsum_ext. intros i Hi. rewrite A, B; auto. Qed.
Lemma dot_minus_l n x y z : dot_product n (minus_vector x y) z = dot_product n x z - dot_product n y z.
Proof. unfold dot_product, minus_vector. rewrite <- bsum_minus. apply bsum_ext. intros. ring. Qed.
Lemma dot_minus_r n x y z : dot_product n z (minus_vector x y) = dot_product n z x - dot_product n z y.
Proof. rewrite !(dot_comm n z). apply dot_minus_l. Qed.
Lemma times_minus_vector n a x y : times n a (minus_vector x y) = minus_vector (times n a x) (times n a y).
Proof. apply functional_extensionality. intros i. apply times_minus. Qed.
Lemma dot_times n m a x u : dot_product n x (times m a u) = dot_product m (times n (transposed a) x) u.
Proof.
  unfold dot_product, times, transposed. 
  rewrite (bsum_ext n _ (fun i => bsum m (fun k => x i * a i k * u k))) by (intros; rewrite <- bsum_scal; apply bsum_ext; intros; ring).
  rewrite bsum_swap. apply bsum_ext. intros k Hk. rewrite Rmult_comm, <- bsum_scal. apply bsum_ext. intros. ring.
Qed.
Lemma times_equal n m a b x : equal n m a b -> equal_vectors n (times m a x) (times m b x).
Proof. intros H i Hi. apply bsum_ext. intros k Hk. rewrite H; auto. Qed.
Lemma times_equal_r n m a x y : equal_vectors m x y -> equal_vectors n (times m a x) (times m a y).
Proof. intros H i Hi. apply bsum_ext. intros k Hk. rewrite H; auto. Qed.
Lemma form_symmetric n p x y : symmetric n p -> dot_product n x (times n p y) = dot_product n y (times n p x).
Proof.
  intros S. rewrite dot_times, dot_comm. apply dot_ext; [intros i Hi; reflexivity|]. apply times_equal. intros i j Hi Hj. symmetry. apply S; auto.
Qed.
Lemma quadratic_difference n p x y : symmetric n p ->
  quadratic n p (minus_vector x y) = quadratic n p x - 2 * dot_product n x (times n p y) + quadratic n p y.
Proof.
  intros S. unfold quadratic. rewrite times_minus_vector, dot_minus_l, !dot_minus_r, (form_symmetric n p y x S). ring.
Qed.
Lemma quadratic_definite n p x : definite_covariance n p -> quadratic n p x = 0 -> equal_vectors n x (fun _ => 0).
Proof.
  intros [_ D] E i Hi. destruct (Req_dec (x i) 0) as [|N]; auto. specialize (D x (ex_intro _ i (conj Hi N))). unfold quadratic in E. lra.
Qed.
Lemma definite_nonneg n p : positive_definite n p -> positive_semidefinite n p.
Proof.
  intros D x. destruct (Rle_or_lt 0 (quadratic n p x)) as [|L]; auto. exfalso.
  assert (exists i, (i < n)%nat /\ x i <> 0) as N.
  { apply Classical_Prop.NNPP. intros K. assert (Z : quadratic n p x = 0).
    { unfold quadratic, dot_product. rewrite (bsum_ext n _ (fun _ => 0)); [apply bsum_0|]. intros i Hi.
      destruct (Req_dec (x i) 0) as [->|Q]; [ring|]. destruct K. exists i. auto. }
    lra. }
  specialize (D x N). unfold quadratic in L. lra.
Qed.
Lemma definite_covariance_matrix n p : definite_covariance n p -> covariance_matrix n p.
Proof. intros [A B]. split; auto. apply definite_nonneg, B. Qed.
(** symmetric matrices with the same form are the same *)
Lemma delta_dot n i y : (i < n)%nat -> dot_product n (fun k => if Nat.eqb k i then 1 else 0) y = y i.
Proof.
  intros H. unfold dot_product. rewrite (bsum_ext n _ (fun k => if Nat.eqb k i then y i else 0)); [apply bsum_delta; auto|].
  intros k Hk. destruct (Nat.eqb_spec k i); subst; ring.
Qed.
Lemma polarization n a b : symmetric n a -> symmetric n b -> (forall x, quadratic n a x = quadratic n b x) -> equal n n a b.
Proof.
  intros Sa Sb E i j Hi Hj.
  set (e := fun i (k : nat) => if Nat.eqb k i then 1 else 0).
  assert (G : forall c, symmetric n c -> 2 * c i j = quadratic n c (e i) + quadratic n c (e j) - quadratic n c (minus_vector (e i) (e j))).
  { intros c Sc. rewrite (quadratic_difference n c) by exact Sc. replace (dot_product n (e i) (times n c (e j))) with (c i j); [ring|].
    unfold e. rewrite delta_dot by auto. unfold times. transitivity (dot_product n (fun k => if Nat.eqb k j then 1 else 0) (fun k => c i k)).
    rewrite delta_dot; auto. apply bsum_ext. intros. ring. }
  pose proof (G a Sa). pose proof (G b Sb). rewrite !E in *. lra.
Qed.
Lemma symmetric_plus n a b : symmetric n a -> symmetric n b -> symmetric n (plus_matrix a b).
Proof. intros A B i j Hi Hj. unfold transposed, plus_matrix. f_equal; [apply A|apply B]; auto. Qed.
Lemma symmetric_minus n a b : symmetric n a -> symmetric n b -> symmetric n (minus_matrix a b).
Proof. intros A B i j Hi Hj. unfold transposed, minus_matrix. f_equal; [apply A|apply B]; auto. Qed.
Lemma symmetric_ext n a b : equal n n a b -> symmetric n b -> symmetric n a.
Proof. intros E S i j Hi Hj. unfold transposed. rewrite !E by auto. apply S; auto. Qed.
(** [l s l'] *)
Lemma outer_symmetric n m l s : symmetric m s -> symmetric n (product m l (product m s (transposed l))).
Proof.
  intros S i j Hi Hj. rewrite t_product, t_product, t_twice, p_assoc. unfold product. apply bsum_ext. intros k Hk. f_equal.
  apply bsum_ext. intros q Hq. f_equal. apply S; auto.
Qed.
Lemma outer_form n m l s x : quadratic n (product m l (product m s (transposed l))) x = quadratic m s (times n (transposed l) x).
Proof. unfold quadratic. rewrite !times_product', dot_times. reflexivity. Qed.
Lemma outer_covariance n m l s : covariance_matrix m s -> covariance_matrix n (product m l (product m s (transposed l))).
Proof. intros [A B]. split; [apply outer_symmetric, A|]. intros x. rewrite outer_form. apply B. Qed.
Lemma plus_covariance n a b : covariance_matrix n a -> covariance_matrix n b -> covariance_matrix n (plus_matrix a b).
Proof. intros [A B] [C D]. split; [apply symmetric_plus; auto|]. intros x. rewrite quadratic_plus. specialize (B x). specialize (D x). lra. Qed.
Lemma plus_definite n a b : covariance_matrix n a -> definite_covariance n b -> definite_covariance n (plus_matrix a b).
Proof.
  intros [A B] [C D]. split; [apply symmetric_plus; auto|]. intros x N. change (0 < quadratic n (plus_matrix a b) x).
  rewrite quadratic_plus. specialize (B x). specialize (D x N). unfold quadratic at 2. lra.
Qed.
Lemma carried_is_covariance n f p q : covariance_matrix n p -> covariance_matrix n q -> covariance_matrix n (carried_covariance n f p q).
Proof. intros P Q. apply plus_covariance; auto. apply outer_covariance, P. Qed.
Lemma corrected_is_covariance n m h p r l : covariance_matrix n p -> covariance_matrix m r -> covariance_matrix n (corrected_covariance n m h p r l).
Proof. intros P R. apply plus_covariance; apply outer_covariance; auto. Qed.

(** ** The gain *)
Lemma corrected_form n m h p r l x :
  quadratic n (corrected_covariance n m h p r l) x =
  quadratic n p (minus_vector x (times m (transposed h) (times n (transposed l) x))) + quadratic m r (times n (transposed l) x).
Proof.
  unfold corrected_covariance. rewrite quadratic_plus, !outer_form. f_equal. apply quadratic_vec. intros i Hi.
  rewrite t_minus, t_unit, t_product. unfold minus_vector. transitivity (times n unit_matrix x i - times n (product m (transposed h) (transposed l)) x i).
  - unfold times. rewrite <- bsum_minus. apply bsum_ext. intros. unfold minus_matrix. ring.
  - rewrite times_unit by auto. rewrite times_product'. reflexivity.
Qed.
(** [s k' = h p] for the gain [k] *)
Definition innovation_matrix (n m : nat) (h p r : matrix) : matrix := plus_matrix (product n h (product n p (transposed h))) r.
Definition solves_gain (n m : nat) (h p s k : matrix) : Prop := equal m n (product m s (transposed k)) (product n h p).
Section Gain.
  Variables (n m : nat) (h p r k : matrix).
  Hypothesis SP : symmetric n p.
  Hypothesis SR : symmetric m r.
  Let s := innovation_matrix n m h p r.
  Hypothesis G : solves_gain n m h p s k.
  Lemma innovation_symmetric : symmetric m s.
  Proof. apply symmetric_plus; auto. apply outer_symmetric, SP. Qed.
  Lemma innovation_form u : quadratic m s u = quadratic n p (times m (transposed h) u) + quadratic m r u.
  Proof. unfold s, innovation_matrix. rewrite quadratic_plus, outer_form. reflexivity. Qed.
  Lemma gain_pairing x u : dot_product n x (times n p (times m (transposed h) u)) = dot_product m u (times m s (times n (transposed k) x)).
  Proof.
    rewrite (form_symmetric n p x) by exact SP. rewrite dot_comm. rewrite dot_times. rewrite t_twice. rewrite dot_comm. apply dot_ext; [intros i Hi; reflexivity|].
    rewrite <- !times_product'. intros i Hi. apply times_equal with (n := m); auto. intros a b Ha Hb. symmetry. apply G; auto.
  Qed.
  Lemma gain_square l x :
    quadratic n (corrected_covariance n m h p r l) x =
    quadratic n p x - quadratic m s (times n (transposed k) x) + quadratic m s (minus_vector (times n (transposed l) x) (times n (transposed k) x)).
  Proof.
    rewrite corrected_form. set (u := times n (transposed l) x). set (v := times n (transposed k) x).
    rewrite (quadratic_difference n p), (quadratic_difference m s) by (auto; apply innovation_symmetric). rewrite gain_pairing. fold v.
    rewrite (innovation_form u). ring.
  Qed.
  (** what both forms of the covariance update compute *)
  Lemma gain_form x : quadratic n (corrected_covariance n m h p r k) x = quadratic n p x - quadratic m s (times n (transposed k) x).
  Proof.
    rewrite gain_square. replace (quadratic m s (minus_vector _ _)) with 0; [ring|]. symmetry. unfold quadratic, dot_product, minus_vector.
    rewrite (bsum_ext m _ (fun _ => 0)); [apply bsum_0|]. intros. ring.
  Qed.
  Lemma naive_equal : equal n n (product n (minus_matrix unit_matrix (product m k h)) p) (minus_matrix p (product m k (product m s (transposed k)))).
  Proof.
    intros i j Hi Hj. rewrite p_minus_l. unfold minus_matrix. rewrite product_unit_l by auto. f_equal. rewrite p_assoc.
    unfold product at 1 3. apply bsum_ext. intros q Hq. f_equal. symmetry. apply G; auto.
  Qed.
  Lemma naive_joseph : equal n n (product n (minus_matrix unit_matrix (product m k h)) p) (corrected_covariance n m h p r k).
  Proof.
    apply polarization.
    - apply (symmetric_ext n _ _ naive_equal). apply symmetric_minus; auto. apply outer_symmetric, innovation_symmetric.
    - apply symmetric_plus; apply outer_symmetric; auto.
    - intros x. rewrite gain_form. rewrite (quadratic_ext n _ _ x naive_equal). rewrite quadratic_minus, outer_form. reflexivity.
  Qed.
End Gain.

(** ** Inverses *)
Lemma inverse_times n a b x : inverse_of n a b -> equal_vectors n (times n a (times n b x)) x.
Proof. intros [H _] i Hi. rewrite <- times_product'. rewrite <- (times_unit n x i) by auto. apply times_equal with (n := n); auto. Qed.
Lemma inverse_sym n a b : inverse_of n a b -> inverse_of n b a.
Proof. intros [A B]. split; auto. Qed.
Lemma inverse_symmetric n a b : symmetric n a -> inverse_of n a b -> symmetric n b.
Proof.
  intros S [A B] i j Hi Hj.
  (* b' = b' a b = (a b)' b = b *)
  transitivity (product n (transposed b) (product n a b) i j).
  - rewrite <- p_assoc. transitivity (product n (transposed (product n a b)) b i j).
    + rewrite t_product. transitivity (product n unit_matrix b i j); [symmetry; apply product_unit_l; auto|]. 
      apply product_ext; [|intros; reflexivity]. intros q Hq. symmetry. transitivity (transposed (product n a b) i q).
      * rewrite t_product. reflexivity.
      * unfold transposed. rewrite A by auto. unfold unit_matrix. rewrite Nat.eqb_sym. reflexivity.
    + rewrite t_product. apply product_ext; [|intros; reflexivity]. intros q Hq. apply product_ext; [intros; reflexivity|]. intros w Hw. symmetry. apply S; auto.
  - transitivity (product n (transposed b) unit_matrix i j); [|apply product_unit_r; auto]. apply product_ext; [intros; reflexivity|]. intros q Hq. apply A; auto.
Qed.
Lemma inverse_quadratic n a b x : symmetric n a -> inverse_of n a b -> quadratic n b x = quadratic n a (times n b x).
Proof.
  intros S I. unfold quadratic. rewrite dot_comm. apply dot_ext; [intros i Hi; reflexivity|]. intros i Hi. symmetry. apply inverse_times; auto.
Qed.
Lemma inverse_definite n a b : definite_covariance n a -> inverse_of n a b -> definite_covariance n b.
Proof.
  intros [S D] I. split; [apply (inverse_symmetric n a); auto|]. intros x (i & Hi & N). change (0 < quadratic n b x). rewrite (inverse_quadratic n a b x S I).
  apply D. apply Classical_Prop.NNPP. intros K. apply N. rewrite <- (inverse_times n a b x I i Hi). unfold times. rewrite (bsum_ext n _ (fun _ => 0)); [apply bsum_0|].
  intros q Hq. destruct (Req_dec (bsum n (fun k => b q k * x k)) 0) as [Z|Z]; [rewrite Z; ring|]. destruct K. exists q. split; auto.
Qed.
Lemma inverse_exists n (c : matrix) : definite_covariance n c -> exists w, inverse_of n c w.
Proof.
  intros [S D]. set (a := mat_fn n n c).
  assert (E : equal n n (mget a) c) by (intros i j Hi Hj; unfold a; rewrite mget_mat_fn; auto).
  assert (SA : symmetric n (mget a)) by (apply (symmetric_ext n _ _ E S)).
  assert (DA : positive_definite n (mget a)). { intros x N. change (0 < quadratic n (mget a) x). rewrite (quadratic_ext n _ _ x E). apply D; auto. }
  destruct (proj2 (proj1 (C79_accepts n a (shape_mat_fn n n c) SA)) DA) as [l L].
  destruct (C80_inverse n a l (shape_mat_fn n n c) SA L) as [A B]. exists (mget (cholesky_inverse n l)). split.
  - eapply equal_trans; [|exact A]. apply equal_product; [apply equal_sym, E|apply equal_refl].
  - eapply equal_trans; [|exact B]. apply equal_product; [apply equal_refl|apply equal_sym, E].
Qed.
(** an inverse on one side of a symmetric matrix by a symmetric one is an inverse on the other *)
Lemma inverse_one_side n a b : symmetric n a -> symmetric n b -> equal n n (product n a b) unit_matrix -> inverse_of n a b.
Proof.
  intros A B H. split; auto. intros i j Hi Hj. transitivity (transposed (product n a b) i j).
  - rewrite t_product. apply product_ext; intros q Hq; [apply B|apply A]; auto.
  - unfold transposed. rewrite H by auto. unfold unit_matrix. rewrite Nat.eqb_sym. reflexivity.
Qed.
Lemma form_ext n a b x y : equal n n a b -> dot_product n x (times n a y) = dot_product n x (times n b y).
Proof. intros H. apply dot_ext; [intros i Hi; reflexivity|]. apply times_equal, H. Qed.

(** ** The corrected estimate minimises the misfit *)
Section Fit.
  Variables (n m : nat) (h p r k info weight : matrix).
  Hypothesis SP : symmetric n p.
  Hypothesis SR : symmetric m r.
  Let s := innovation_matrix n m h p r.
  Hypothesis G : solves_gain n m h p s k.
  Hypothesis IP : inverse_of n p info.
  Hypothesis IR : inverse_of m r weight.
  Variable spread_inverse : matrix.
  Hypothesis IS : inverse_of m s spread_inverse.
  Definition combined : matrix := plus_matrix info (product m (transposed h) (product m weight h)).
  Let SI : symmetric n info := inverse_symmetric n p info SP IP.
  Let SW : symmetric m weight := inverse_symmetric m r weight SR IR.
  Lemma combined_symmetric : symmetric n combined.
  Proof. apply symmetric_plus; [exact SI|]. replace h with (transposed (transposed h)) at 2 by apply t_twice. apply outer_symmetric, SW. Qed.
  Lemma combined_form x y : dot_product n x (times n combined y) = dot_product n x (times n info y) + dot_product m (times n h x) (times m weight (times n h y)).
  Proof.
    unfold combined. rewrite times_plus_matrix, dot_plus_r, !times_product', (dot_times n m (transposed h)), t_twice. reflexivity.
  Qed.
  (** the gain written out: [k v = p h' s^-1 v] *)
  Lemma gain_times v : equal_vectors n (times m k v) (times n p (times m (transposed h) (times m spread_inverse v))).
  Proof.
    set (y := times m spread_inverse v). intros i Hi.
    transitivity (times m k (times m s y) i). { apply times_equal_r with (n := n); auto. intros a Ha. symmetry. apply inverse_times; auto. }
    rewrite <- !times_product'. apply times_equal with (n := n); auto. intros a b Ha Hb.
    transitivity (transposed (product m s (transposed k)) a b).
    - rewrite t_product, t_twice. apply product_ext; [intros; reflexivity|]. intros q Hq. apply (innovation_symmetric n m h p r SP SR); auto.
    - transitivity (transposed (product n h p) a b); [unfold transposed; apply G; auto|]. rewrite t_product. apply product_ext; [|intros; reflexivity]. intros q Hq. symmetry. apply SP; auto.
  Qed.
  Lemma innovation_times y : equal_vectors m (times m s y) (fun i => times n h (times n p (times m (transposed h) y)) i + times m r y i).
  Proof. intros i Hi. unfold s, innovation_matrix. rewrite times_plus_matrix, !times_product'. reflexivity. Qed.
  (** [x' combined (k v) = (h x)' weight v] *)
  Lemma combined_gain x v : dot_product n x (times n combined (times m k v)) = dot_product m (times n h x) (times m weight v).
  Proof.
    set (y := times m spread_inverse v). set (u := times m (transposed h) y).
    assert (K : equal_vectors n (times m k v) (times n p u)) by apply gain_times.
    transitivity (dot_product n x (times n combined (times n p u))). { apply dot_ext; [intros i Hi; reflexivity|]. apply times_equal_r, K. }
    rewrite combined_form. rewrite (dot_ext n x x (times n info (times n p u)) u) by (try (intros i Hi; reflexivity); apply inverse_times, inverse_sym, IP).
    unfold u at 1. rewrite dot_times, t_twice.
    (* y + weight h p u = weight v *)
    transitivity (dot_product m (times n h x) (fun i => y i + times m weight (times n h (times n p u)) i)). { rewrite dot_plus_r. reflexivity. }
    apply dot_ext; [intros i Hi; reflexivity|]. intros i Hi.
    transitivity (times m weight (times m s y) i).
    - transitivity (times m weight (fun q => times n h (times n p u) q + times m r y q) i).
      + rewrite times_plus. rewrite (inverse_times m weight r y (inverse_sym _ _ _ IR) i Hi). ring.
      + apply times_equal_r with (n := m); auto. intros q Hq. symmetry. apply innovation_times; auto.
    - apply times_equal_r with (n := m); auto. apply inverse_times, IS.
  Qed.
  Lemma misfit_square x0 z x :
    let v := minus_vector z (times n h x0) in
    misfit n m info x0 h weight z x =
    quadratic n combined (minus_vector x (fun i => x0 i + times m k v i)) + quadratic m spread_inverse v.
  Proof.
    intros v. unfold misfit. set (d := minus_vector x x0).
    rewrite (quadratic_vec m weight _ (minus_vector v (times n h d))).
    2:{ intros i Hi. unfold d. rewrite times_minus_vector. unfold minus_vector, v, minus_vector. ring. }
    rewrite (quadratic_vec n combined (minus_vector x _) (minus_vector d (times m k v))) by (intros i Hi; unfold d, minus_vector; ring).
    rewrite (quadratic_difference m weight) by exact SW. rewrite (quadratic_difference n combined) by exact combined_symmetric.
    rewrite combined_gain. unfold quadratic at 4 5. rewrite combined_form, combined_gain.
    fold (quadratic n info d). fold (quadratic m weight (times n h d)). rewrite (form_symmetric m weight v (times n h d)) by exact SW.
    enough (quadratic m weight v - dot_product m (times n h (times m k v)) (times m weight v) = quadratic m spread_inverse v) by lra.
    (* v' weight v - (h k v)' weight v = (v - h k v)' weight v,  v - h k v = r s^-1 v *)
    set (y := times m spread_inverse v). unfold quadratic. rewrite <- dot_minus_l.
    rewrite (dot_ext m (minus_vector v (times n h (times m k v))) (times m r y) (times m weight v) (times m weight v)) by
      (try (intros i Hi; reflexivity); intros i Hi; unfold minus_vector; rewrite <- (inverse_times m s spread_inverse v IS i Hi) at 1; fold y; rewrite (innovation_times y i Hi);
       rewrite (times_equal_r m n h (times m k v) (times n p (times m (transposed h) y)) (gain_times v) i Hi); ring).
    rewrite dot_comm. rewrite (form_symmetric m r (times m weight v) y) by exact SR.
    rewrite (dot_comm m v). fold y. apply dot_ext; [intros i Hi; reflexivity|]. apply inverse_times, IR.
  Qed.
  Lemma combined_inverse : inverse_of n combined (corrected_covariance n m h p r k).
  Proof.
    apply inverse_one_side.
    - exact combined_symmetric.
    - apply symmetric_plus; apply outer_symmetric; auto.
    - (* combined p - combined k h p = unit + h' weight h p - h' weight h p *)
      assert (C : forall x y, dot_product n x (times n combined (times n (corrected_covariance n m h p r k) y)) = dot_product n x y).
      { intros x y. transitivity (dot_product n x (times n combined (minus_vector (times n p y) (times m k (times n h (times n p y)))))).
        { apply dot_ext; [intros i Hi; reflexivity|]. apply times_equal_r. intros i Hi.
          rewrite <- (times_equal n n _ _ y (naive_joseph n m h p r k SP SR G) i Hi). rewrite times_product'.
          unfold minus_vector. rewrite <- (times_product' m n k h). set (w := times n p y).
          transitivity (times n unit_matrix w i - times n (product m k h) w i).
          - unfold times. rewrite <- bsum_minus. apply bsum_ext. intros. unfold minus_matrix. ring.
          - rewrite times_unit by auto. reflexivity. }
        rewrite times_minus_vector, dot_minus_r, combined_gain, combined_form.
        rewrite (dot_ext n x x (times n info (times n p y)) y) by (try (intros i Hi; reflexivity); apply inverse_times, inverse_sym, IP). lra. }
      intros i j Hi Hj. specialize (C (fun q => if Nat.eqb q i then 1 else 0) (fun q => if Nat.eqb q j then 1 else 0)).
      rewrite <- times_product', !delta_dot in C by auto. unfold unit_matrix. rewrite <- C. unfold times.
      transitivity (dot_product n (fun k => if Nat.eqb k j then 1 else 0) (fun q => product n combined (corrected_covariance n m h p r k) i q)).
      { rewrite delta_dot; auto. } { apply bsum_ext. intros. ring. }
  Qed.
End Fit.

(** ** Reading the model *)
Lemma mget_sub n k (a b : mat R) : shape n k a -> shape n k b -> equal n k (mget (mat_sub a b)) (minus_matrix (mget a) (mget b)).
Proof. intros Sa Sb i j Hi Hj. unfold mat_sub. rewrite (mget_map2 sub n k) by auto. reflexivity. Qed.
Lemma mul_read n m k (a b : mat R) a' b' : equal n m (mget a) a' -> equal m k (mget b) b' ->
  shape n k (mat_mul n m k a b) /\ equal n k (mget (mat_mul n m k a b)) (product m a' b').
Proof. intros A B. split; [apply shape_mat_fn|]. intros i j Hi Hj. rewrite mget_mul by auto. apply equal_product with (r := n) (c := k); auto. Qed.
Lemma transpose_read n m (a : mat R) a' : equal n m (mget a) a' -> equal m n (mget (transpose n m a)) (transposed a').
Proof. intros A i j Hi Hj. rewrite mget_transpose by auto. apply A; auto. Qed.
(** [(a b) a' + c] as the code brackets it *)
Lemma sandwich_plus_read n m (a b c : mat R) a' b' c' : equal m n (mget a) a' -> equal n n (mget b) b' -> shape m m c -> equal m m (mget c) c' ->
  shape m m (mat_add (mat_mul m n m (mat_mul m n n a b) (transpose m n a)) c) /\
  equal m m (mget (mat_add (mat_mul m n m (mat_mul m n n a b) (transpose m n a)) c)) (plus_matrix (product n a' (product n b' (transposed a'))) c').
Proof.
  intros A B SC C. destruct (mul_read m n n a b a' b' A B) as [S1 E1]. destruct (mul_read m n m _ (transpose m n a) _ _ E1 (transpose_read _ _ _ _ A)) as [S2 E2].
  split; [apply shape_map2; auto|]. eapply equal_trans; [apply mget_add; auto|]. intros i j Hi Hj. unfold plus_matrix. rewrite E2, C by auto. rewrite p_assoc. reflexivity.
Qed.
Lemma identity_read n : equal n n (mget (identity n : mat R)) unit_matrix.
Proof. intros i j Hi Hj. rewrite mget_identity by auto. reflexivity. Qed.

Lemma spread_read n m (h p r : mat R) : shape m m r ->
  shape m m (spread_of_innovation n m h p r) /\ equal m m (mget (spread_of_innovation n m h p r)) (innovation_matrix n m (mget h) (mget p) (mget r)).
Proof. intros S. apply sandwich_plus_read; auto; apply equal_refl. Qed.
Lemma predicted_read n (f p q : mat R) : shape n n q ->
  shape n n (predicted_covariance n f p q) /\ equal n n (mget (predicted_covariance n f p q)) (carried_covariance n (mget f) (mget p) (mget q)).
Proof. intros S. apply sandwich_plus_read; auto; apply equal_refl. Qed.
Lemma gain_read n m (h p r : mat R) factor : shape m m r -> symmetric n (mget p) -> symmetric m (mget r) ->
  cholesky m (spread_of_innovation n m h p r) = Ok factor ->
  shape n m (gain_of n m factor h p) /\
  solves_gain n m (mget h) (mget p) (innovation_matrix n m (mget h) (mget p) (mget r)) (mget (gain_of n m factor h p)).
Proof.
  intros Sr P Q C. destruct (spread_read n m h p r Sr) as [SS SE].
  assert (Y : symmetric m (mget (spread_of_innovation n m h p r))) by (apply (symmetric_ext m _ _ SE); apply innovation_symmetric; auto).
  destruct (cholesky_solves m n _ _ (mat_mul m n n h (transpose n n p)) SS Y C) as [XS XE].
  split; [apply shape_mat_fn|]. unfold solves_gain. set (x := cholesky_solve_matrix m n factor _) in *.
  assert (T : equal m n (transposed (mget (gain_of n m factor h p))) (mget x)).
  { intros i j Hi Hj. unfold transposed, gain_of. fold x. apply mget_transpose; auto. }
  eapply equal_trans; [apply equal_product; [apply equal_sym, SE|exact T]|]. eapply equal_trans; [exact XE|].
  intros i j Hi Hj. rewrite mget_mul by auto. apply product_ext; [intros; reflexivity|]. intros q Hq. rewrite mget_transpose by auto. symmetry. apply P; auto.
Qed.
Lemma updated_read n m mode (h p r k : mat R) : shape m m r -> shape n m k -> symmetric n (mget p) -> symmetric m (mget r) ->
  solves_gain n m (mget h) (mget p) (innovation_matrix n m (mget h) (mget p) (mget r)) (mget k) ->
  shape n n (updated_covariance n m mode k h p r) /\
  equal n n (mget (updated_covariance n m mode k h p r)) (corrected_covariance n m (mget h) (mget p) (mget r) (mget k)).
Proof.
  intros Sr Sk P Q G. unfold updated_covariance.
  destruct (mul_read n m n k h _ _ (equal_refl _ _ _) (equal_refl _ _ _)) as [S1 E1].
  assert (E2 : equal n n (mget (mat_sub (identity n) (mat_mul n m n k h))) (minus_matrix unit_matrix (product m (mget k) (mget h)))).
  { eapply equal_trans; [apply mget_sub; auto; apply shape_identity|]. intros i j Hi Hj. unfold minus_matrix. rewrite identity_read, E1 by auto. reflexivity. }
  destruct mode.
  - destruct (mul_read n m m k r _ _ (equal_refl _ _ _) (equal_refl _ _ _)) as [S3 E3].
    destruct (mul_read n m n _ (transpose n m k) _ _ E3 (transpose_read _ _ _ _ (equal_refl _ _ _))) as [S4 E4].
    apply sandwich_plus_read; auto; [apply equal_refl|]. rewrite p_assoc in E4. exact E4.
  - destruct (mul_read n n n _ p _ _ E2 (equal_refl _ _ _)) as [S3 E3]. split; auto. eapply equal_trans; [exact E3|].
    apply naive_joseph; auto.
Qed.
Lemma gain_from_inverse n m h p s w : symmetric n p -> inverse_of m s w -> solves_gain n m h p s (transposed (product m w (product n h p))).
Proof.
  intros P I. unfold solves_gain. rewrite t_twice, <- p_assoc. intros i j Hi Hj. rewrite <- (product_unit_l m (product n h p) i j) by auto.
  apply product_ext; [|intros; reflexivity]. intros q Hq. apply (proj1 I); auto.
Qed.
Lemma finite_vec_always (v : list R) : vec_is_finite v = true.
Proof. unfold vec_is_finite. induction v; auto. Qed.
Lemma finite_mat_always (v : mat R) : mat_is_finite v = true.
Proof. unfold mat_is_finite. induction (concat v); auto. Qed.
Lemma mat_vec_length {T} {NT : Num T} rows cols (a : mat T) v : length (mat_vec rows cols a v) = rows.
Proof. apply from_fn_length. Qed.
Lemma map2_length {A B C} (g : A -> B -> C) : forall u v, length u = length v -> length (map2 g u v) = length u.
Proof. induction u as [|a u IH]; intros [|b v] L; try discriminate; auto. cbn. rewrite IH; auto. Qed.
Lemma vget_map2 {T} {NT : Num T} (g : T -> T -> T) : forall u v i, length u = length v -> (i < length u)%nat -> vget (map2 g u v) i = g (vget u i) (vget v i).
Proof. unfold vget. induction u as [|a u IH]; intros [|b v] i L Hi; try discriminate; cbn in *; [lia|]. destruct i; auto. apply IH; lia. Qed.
