(** C42-C48: polynomials of one variable over exact arithmetic. *)
From Coq Require Import ZArith List Bool Arith Reals Lra Lia.
From Coquelicot Require Import Coquelicot.
From Verif Require Import Base.Scalar Base.Lists Base.RNum Base.Series Base.PolyR Model.Errors Model.Polynomial Spec.Polynomial Proofs.Polynomial.
Import ListNotations.
Local Open Scope R_scope.

Lemma peval_value c x : peval c x = value_at c x. Proof. symmetry. apply value_at_peval. Qed.
Lemma is_derive_n_value c k x l : is_derive_n (peval c) k x l -> is_derive_n (value_at c) k x l.
Proof. apply is_derive_n_ext. intros. apply peval_value. Qed.

(** ** C42 *)
Theorem C42_evaluate : forall (p : list R) (x : R), poly_evaluate p x = value_at p x.
Proof. intros. rewrite value_at_peval. apply evaluate_R. Qed.
Theorem C42_evaluate_with_derivatives : forall (orders : nat) (p : list R) (x : R),
  length (poly_evaluate_with_derivatives orders p x) = orders /\
  (forall k, (k < orders)%nat -> is_derive_n (value_at p) k x (nth k (poly_evaluate_with_derivatives orders p x) 0)) /\
  (forall k, (length p <= k < orders)%nat -> nth k (poly_evaluate_with_derivatives orders p x) 0 = 0).
Proof.
  intros. destruct (evaluate_with_derivatives_R orders p x) as [L H]. split; [exact L|]. split.
  - intros k Hk. rewrite H by auto. apply is_derive_n_value. apply is_derive_n_peval.
  - intros k [H1 H2]. rewrite H, tay_over by auto. ring.
Qed.
(** The degree is the last non-zero coefficient, and its coefficient is reported as the leading one. *)
Theorem C42_degree : forall (p : list R),
  match poly_degree p with
  | Some n => has_degree p n /\ poly_leading_coefficient p = Some (nth n p 0)
  | None => (forall k, nth k p 0 = 0) /\ poly_leading_coefficient p = None
  end.
Proof.
  intros p. pose proof (degree_spec p) as D. unfold poly_leading_coefficient. destruct (poly_degree p) as [n|]; [|auto].
  split; [exact D|]. unfold poly_coefficient. destruct (nth_error p n) as [c|] eqn:E.
  - rewrite (nth_error_nth _ _ 0 E). reflexivity.
  - apply nth_error_None in E. exfalso. apply (proj1 D). apply nth_overflow. exact E.
Qed.
Example C42_example : poly_evaluate [1; 2; 3] 2 = 17 /\ poly_evaluate_with_derivatives 4 [1; 2; 3] 2 = [17; 14; 6; 0] /\ poly_degree [1; 2; 0] = Some 1%nat.
Proof.
  split; [cbn; rnum; ring|]. split; [cbn; rnum; repeat (f_equal; try ring)|].
  cbn. rnum. rewrite (proj2 (Reqb_true 0 0)) by reflexivity. rewrite (proj2 (Reqb_false 2 0)) by lra. reflexivity.
Qed.

(** ** C43 *)
Theorem C43_derivative : forall (p : list R) (x : R),
  length (poly_derivative p) = length p /\ is_derive (value_at p) x (value_at (poly_derivative p) x).
Proof.
  intros. split; [apply derivative_length|]. rewrite value_at_peval. apply (is_derive_ext (peval p)); [intros; apply peval_value|].
  apply derivative_is_derive.
Qed.
Theorem C43_nth_derivative : forall (k : nat) (p : list R) (x : R),
  length (poly_nth_derivative k p) = length p /\ is_derive_n (value_at p) k x (value_at (poly_nth_derivative k p) x).
Proof.
  intros. split; [apply nth_derivative_length|]. rewrite value_at_peval, nth_derivative_R. apply is_derive_n_value. apply is_derive_n_peval.
Qed.
Theorem C43_definite_integral : forall (p : list R) (a b : R), is_RInt (value_at p) a b (poly_definite_integral p a b).
Proof. intros. apply (is_RInt_ext (peval p)); [intros; apply peval_value|]. apply definite_integral_is_RInt. Qed.
Theorem C43_integral_algebra : forall (p : list R) (a b c : R),
  poly_definite_integral p b a = - poly_definite_integral p a b /\
  poly_definite_integral p a b + poly_definite_integral p b c = poly_definite_integral p a c.
Proof. intros. rewrite !definite_integral_R. split; ring. Qed.
Example C43_example : poly_derivative [5; 0; 3] = [0; 6; 0] /\ poly_nth_derivative 2 [5; 0; 3] = [6; 0; 0] /\ poly_definite_integral [0; 2] 1 3 = 8.
Proof.
  unfold poly_nth_derivative, poly_derivative, poly_definite_integral, from_fn, of_nat. cbn. rnum.
  split; [repeat (f_equal; try ring)|]. split; [repeat (f_equal; try ring)|]. field.
Qed.

(** ** C44 *)
Theorem C44_pointwise : forall (p q : list R) (c x : R), length p = length q ->
  value_at (poly_add p q) x = value_at p x + value_at q x /\
  value_at (poly_sub p q) x = value_at p x - value_at q x /\
  value_at (poly_neg p) x = - value_at p x /\
  value_at (poly_scale p c) x = c * value_at p x /\
  (c <> 0 -> value_at (poly_div p c) x = value_at p x / c) /\
  value_at (poly_shift_argument p c) x = value_at p (x + c) /\
  value_at (poly_scale_argument p c) x = value_at p (c * x).
Proof.
  intros p q c x L. rewrite !value_at_peval. split; [apply add_R; auto|]. split; [apply sub_R; auto|]. split; [apply neg_R|].
  split; [apply scale_R|]. split; [intros _; apply div_R|]. split; [apply shift_argument_eval|apply scale_argument_R].
Qed.
Theorem C44_same_size : forall (p q : list R) (c : R), length p = length q ->
  length (poly_add p q) = length p /\ length (poly_sub p q) = length p /\ length (poly_neg p) = length p /\
  length (poly_scale p c) = length p /\ length (poly_div p c) = length p /\
  length (poly_shift_argument p c) = length p /\ length (poly_scale_argument p c) = length p.
Proof.
  intros p q c L. unfold poly_add, poly_sub, poly_neg, poly_scale, poly_div, poly_scale_argument.
  rewrite shift_argument_R, from_fn_length, scale_argument_loop_length, !map_length, !combine_length. rewrite <- L, Nat.min_id. auto 10.
Qed.
(** A successful product is the product, and it succeeds whenever the product fits. *)
Theorem C44_multiply : forall (out : nat) (p q : list R),
  (forall r, poly_multiply_into out p q = Ok r -> length r = out /\ forall x, value_at r x = value_at p x * value_at q x) /\
  ((exists r, poly_multiply_into out p q = Ok r) <-> fits out (fun x => value_at p x * value_at q x)) /\
  ((exists r, poly_multiply_into out p q = Ok r) \/ poly_multiply_into out p q = Err PoDegreeOverflow).
Proof.
  intros out p q. pose proof (multiply_spec out p q) as M. destruct (poly_multiply_into out p q) as [r|e|]; [| |contradiction].
  - split; [intros r' E; injection E as <-; split; [apply M|intros x; rewrite !value_at_peval; apply M]|]. split; [|left; eauto].
    split; [|eauto]. intros _. exists r. split; [apply M|intros x; rewrite !value_at_peval; apply M].
  - destruct M as (-> & n & m & Dn & Dm & H). split; [discriminate|]. split; [|auto]. split; [intros (r & E); discriminate|].
    intros (r & L & V). exfalso. apply (product_no_fit out p q n m r Dn Dm H L). intros x. specialize (V x). rewrite !value_at_peval in V. exact V.
Qed.
(** Equivalently: it fails exactly when the two degrees add up to the size or more. *)
Theorem C44_multiply_degree : forall (out : nat) (p q : list R) (n m : nat), has_degree p n -> has_degree q m ->
  ((exists r, poly_multiply_into out p q = Ok r) <-> (n + m < out)%nat).
Proof.
  intros out p q n m Dn Dm. pose proof (multiply_spec out p q) as M. destruct (poly_multiply_into out p q) as [r|e|]; [| |contradiction].
  - split; [intros _|eauto]. destruct (le_lt_dec out (n + m)) as [H|H]; auto. exfalso. destruct M as [L V]. exact (product_no_fit out p q n m r Dn Dm H L V).
  - destruct M as (_ & n' & m' & Dn' & Dm' & H). rewrite (deg_eq_unique p n n'), (deg_eq_unique q m m') by auto. split; [intros (r & E); discriminate|lia].
Qed.
Theorem C44_compose : forall (out : nat) (p inner : list R), (0 < out)%nat ->
  (forall r, poly_compose_into out p inner = Ok r -> length r = out /\ forall x, value_at r x = value_at p (value_at inner x)) /\
  ((exists r, poly_compose_into out p inner = Ok r) <-> fits out (fun x => value_at p (value_at inner x))) /\
  ((exists r, poly_compose_into out p inner = Ok r) \/ poly_compose_into out p inner = Err PoDegreeOverflow).
Proof.
  intros out p q Ho. pose proof (compose_spec out q Ho p) as M. destruct (poly_compose_into out p q) as [r|e|]; [| |contradiction].
  - split; [intros r' E; injection E as <-; split; [apply M|intros x; rewrite !value_at_peval; apply M]|]. split; [|left; eauto].
    split; [|eauto]. intros _. exists r. split; [apply M|intros x; rewrite !value_at_peval; apply M].
  - destruct M as (-> & H). split; [discriminate|]. split; [|auto]. split; [intros (r & E); discriminate|].
    intros (r & L & V). exfalso. apply (H r L). intros x. specialize (V x). rewrite !value_at_peval in V. exact V.
Qed.
Theorem C44_try_resize : forall (other : nat) (p : list R),
  (forall r, poly_try_resize other p = Some r -> length r = other /\ forall x, value_at r x = value_at p x) /\
  (poly_try_resize other p = None <-> ~ fits other (value_at p)).
Proof.
  intros other p. pose proof (try_resize_R other p) as M. destruct (poly_try_resize other p) as [r|].
  - split; [intros r' E; injection E as <-; split; [apply M|intros x; rewrite !value_at_peval; apply M]|]. split; [discriminate|].
    intros H. exfalso. apply H. exists r. split; [apply M|intros x; rewrite !value_at_peval; apply M].
  - split; [discriminate|]. split; [|auto]. intros _ (r & L & V). destruct M as (k & Hk & N). apply N.
    rewrite <- (peval_eq_coeffs r p) by (intros x; specialize (V x); rewrite !value_at_peval in V; exact V). apply nth_overflow. lia.
Qed.
(** Reversing the coefficients turns x into 1/x. *)
Theorem C44_reverse : forall (p : list R) (x : R), x <> 0 -> value_at (poly_reverse p) x * x = x ^ length p * value_at p (/ x).
Proof.
  intros p x Hx. rewrite !value_at_peval. unfold poly_reverse. induction p as [|a p IH]; [cbn; ring|].
  cbn [rev peval length pow]. rewrite peval_app, rev_length, Rmult_plus_distr_r, IH. cbn [peval]. field. auto.
Qed.
Example C44_example :
  poly_multiply_into 3 [1; 1; 0] [-1; 1] = Ok [-1; 0; 1] /\ poly_multiply_into 2 [1; 1; 0] [-1; 1] = Err PoDegreeOverflow /\
  poly_compose_into 3 [0; 0; 1] [1; 1] = Ok [1; 2; 1] /\ poly_try_resize 2 [1; 2; 0] = Some [1; 2] /\ poly_shift_argument [0; 0; 1] 3 = [9; 6; 1].
Proof.
  assert (E : forall x y : R, x <> y -> Reqb x y = false) by (intros; apply Reqb_false; auto).
  assert (T : forall x : R, Reqb x x = true) by (intros; apply Reqb_true; auto).
  split. { cbn. rnum. rewrite (proj2 (Reqb_true _ _)) by ring. cbn. repeat (f_equal; try ring). }
  split. { cbn. rnum. rewrite E by lra. cbn. rewrite ?(proj2 (Reqb_true _ _)) by ring. reflexivity. }
  split. { cbn. rnum. rewrite ?(proj2 (Reqb_true _ _)) by ring. cbn. repeat (f_equal; try ring; rewrite ?(proj2 (Reqb_true _ _)) by ring; cbn). }
  split. { unfold poly_try_resize. cbn [skipn existsb]. rnum. rewrite T. reflexivity. }
  rewrite shift_argument_R. unfold from_fn. cbn. repeat (f_equal; try ring).
Qed.

(** ** C45 *)
Theorem C45_divide : forall (qs rs : nat) (p d : list R) (n : nat), has_degree d n ->
  (forall q r, poly_divide qs rs p d = Ok (q, r) ->
     length q = qs /\ length r = rs /\ (forall k, (n <= k)%nat -> nth k r 0 = 0) /\
     forall x, value_at p x = value_at q x * value_at d x + value_at r x) /\
  ((exists qr, poly_divide qs rs p d = Ok qr) <->
     exists q r, length q = qs /\ length r = rs /\ (forall k, (n <= k)%nat -> nth k r 0 = 0) /\
       forall x, value_at p x = value_at q x * value_at d x + value_at r x) /\
  ((exists qr, poly_divide qs rs p d = Ok qr) \/ poly_divide qs rs p d = Err PoDegreeOverflow).
Proof.
  intros qs rs p d n D. pose proof (divide_spec qs rs p d) as M. destruct (poly_divide qs rs p d) as [[q r]|e|]; [| |contradiction].
  - destruct M as (dd & D' & Lq & Lr & Dr & V). assert (dd = n) by (apply (deg_eq_unique d); auto). subst dd.
    assert (V' : forall x, value_at p x = value_at q x * value_at d x + value_at r x) by (intros x; rewrite !value_at_peval; apply V).
    split; [intros q' r' E; injection E as <- <-; auto|]. split; [|left; eauto]. split; [intros _; exists q, r; auto|eauto].
  - destruct M as [[-> Z]|(-> & dd & D' & N)]; [exfalso; apply (proj1 D); apply Z|].
    assert (dd = n) by (apply (deg_eq_unique d); auto). subst dd. split; [discriminate|]. split; [|auto].
    split; [intros (qr & E); discriminate|]. intros (q & r & Lq & Lr & Dr & V). exfalso. apply N. exists q, r. split; [exact Lq|]. split; [exact Lr|]. split; [exact Dr|].
    intros x. specialize (V x). rewrite !value_at_peval in V. exact V.
Qed.
Theorem C45_zero_divisor : forall (qs rs : nat) (p d : list R),
  poly_divide qs rs p d = Err PoLeadingCoefficientZero <-> forall k, nth k d 0 = 0.
Proof.
  intros qs rs p d. pose proof (divide_spec qs rs p d) as M. destruct (poly_divide qs rs p d) as [[q r]|e|]; [| |contradiction].
  - destruct M as (dd & D & _). split; [discriminate|]. intros Z. exfalso. apply (proj1 D), Z.
  - destruct M as [[-> Z]|(-> & dd & D & _)]; [tauto|]. split; [discriminate|]. intros Z. exfalso. apply (proj1 D), Z.
Qed.
(** No output can be too small when it has the dividend's size. *)
Theorem C45_full_size_succeeds : forall (p d : list R) (n : nat), has_degree d n -> (n <= length p)%nat ->
  exists qr, poly_divide (length p) (length p) p d = Ok qr.
Proof.
  intros p d n D Hn. pose proof (divide_spec (length p) (length p) p d) as M. destruct (poly_divide (length p) (length p) p d) as [[q r]|e|]; [eauto| |contradiction].
  exfalso. destruct M as [[-> Z]|(-> & dd & D' & N)]; [apply (proj1 D), Z|].
  assert (dd = n) by (apply (deg_eq_unique d); auto). subst dd. apply N.
  (* divide by hand: peel the dividend from the front *)
  assert (G : forall p, exists q r, length q = length p /\ deg_lt r n /\ forall x, peval p x = peval q x * peval d x + peval r x).
  { clear p Hn N. induction p as [|a p (q & r & Lq & Dr & V)].
    - exists [], []. split; [reflexivity|]. split; [intros [|k] _; reflexivity|intros; cbn; ring].
    - (* a + x p = (x q + s) d + (a + x r - s d) with s chosen to cancel x^n *)
      destruct n as [|n].
      + exists ((a / cf d 0) :: q), []. split; [cbn; congruence|]. split; [intros [|k] _; reflexivity|]. intros x. cbn [peval]. rewrite V.
        assert (Er : peval r x = 0). { rewrite (peval_ext r []); [reflexivity|]. intros k. rewrite Dr by lia. destruct k; reflexivity. }
        assert (Ed : peval d x = cf d 0). { rewrite (peval_ext d [cf d 0]); [cbn; ring|]. intros [|k]; [reflexivity|]. rewrite (proj2 D) by lia. destruct k; reflexivity. }
        rewrite Er, Ed. field. apply (proj1 D).
      + set (s := cf r n / cf d (S n)). exists (s :: q), (padd (a :: r) (map (fun y => y * - s) d)). split; [cbn; congruence|]. split.
        * intros k Hk. rewrite cf_padd, cf_scale. destruct k as [|k]; [lia|]. cbn [nth]. destruct (Nat.eq_dec k n) as [->|Ne].
          -- unfold s. field. apply (proj1 D).
          -- rewrite Dr by lia. rewrite (proj2 D) by lia. ring.
        * intros x. rewrite peval_padd, peval_map_scale. cbn [peval]. rewrite V. ring. }
  destruct (G p) as (q & r & Lq & Dr & V). exists q, (resize (length p) r). split; [exact Lq|]. split; [apply resize_length|].
  assert (Er : forall k, cf (resize (length p) r) k = cf r k) by (apply cf_resize, (deg_lt_weaken r n); auto).
  split; [apply (deg_lt_ext r); [intros; symmetry; apply Er|exact Dr]|]. intros x. rewrite V. f_equal. symmetry. apply peval_ext. exact Er.
Qed.
Example C45_example : has_degree [1; 1] 1 /\ exists qr, poly_divide 3 3 [3; 0; 1] [1; 1] = Ok qr.
Proof.
  assert (D : has_degree [1; 1] 1) by (split; [cbn; lra|intros [|[|[|k]]] H; cbn; auto; lia]).
  split; [exact D|]. apply (C45_full_size_succeeds [3; 0; 1] [1; 1] 1 D). cbn. lia.
Qed.

(** ** C46 *)
Theorem C46_from_roots : forall (n : nat) (roots : list R),
  (forall r, poly_from_roots n roots = Ok r ->
     length r = n /\ (forall x, value_at r x = product_of_factors roots x) /\ (forall x, value_at r x = 0 <-> In x roots) /\
     has_degree r (length roots) /\ nth (length roots) r 0 = 1) /\
  ((exists r, poly_from_roots n roots = Ok r) <-> (length roots < n)%nat) /\
  ((exists r, poly_from_roots n roots = Ok r) \/ poly_from_roots n roots = Err PoDegreeOverflow).
Proof.
  intros n roots. split.
  - intros r E. destruct (from_roots_spec n roots r E) as (L & V & D & One). split; [exact L|].
    split; [intros x; rewrite value_at_peval; apply V|]. split; [intros x; rewrite value_at_peval, V; apply product_of_factors_zero|].
    split; [split; [rewrite One; lra|exact D]|exact One].
  - rewrite from_roots_R. destruct (Nat.leb_spec n (length roots)) as [H|H].
    + split; [|auto]. split; [intros (r & E); discriminate|lia].
    + split; [split; [intros _; exact H|eauto]|left; eauto].
Qed.
Example C46_example : exists r, poly_from_roots 3 [2; -1] = Ok r /\ r = [-2; -1; 1].
Proof. eexists. split; [rewrite from_roots_R; cbn [length Nat.leb]; reflexivity|]. cbn. rnum. repeat (f_equal; try ring). Qed.

(** ** C47 *)
Theorem C47_from_points : forall (n : nat) (nodes values : list R), length nodes = n -> length values = n ->
  (NoDup nodes -> exists r, poly_from_points n nodes values = Ok r /\ length r = n /\
     (forall i, (i < n)%nat -> value_at r (nth i nodes 0) = nth i values 0) /\
     (* and it is the only polynomial of that size through the points *)
     (forall r', length r' = n -> (forall i, (i < n)%nat -> value_at r' (nth i nodes 0) = nth i values 0) -> r' = r)) /\
  (~ NoDup nodes -> poly_from_points n nodes values = Err PoDuplicateNode).
Proof.
  intros n nodes values Ln Lv.
  assert (U : forall r r', NoDup nodes -> length r = n -> length r' = n -> (forall i, (i < n)%nat -> peval r (nth i nodes 0) = nth i values 0) ->
    (forall i, (i < n)%nat -> value_at r' (nth i nodes 0) = nth i values 0) -> r' = r).
  { intros r r' ND L L' H H'. apply (nth_ext _ _ 0 0); [congruence|]. intros k _.
    assert (Z : cf (padd r' (map Ropp r)) k = 0).
    { apply (roots_zero _ nodes); auto.
      - unfold padd. rewrite from_fn_length, map_length. lia.
      - intros y Hy. apply (In_nth _ _ 0) in Hy. destruct Hy as (i & Hi & <-). rewrite peval_padd, peval_opp.
        rewrite H by lia. specialize (H' i ltac:(lia)). rewrite value_at_peval in H'. rewrite H'. ring. }
    rewrite cf_padd, cf_opp in Z. lra. }
  destruct (le_lt_dec 2 n) as [Hn|Hn].
  - pose proof (from_points_spec n nodes values Ln Lv Hn) as S. destruct (poly_from_points n nodes values) as [r|e|]; [| |contradiction].
    + destruct S as (L & ND & V). split; [intros _|tauto]. exists r. split; [reflexivity|]. split; [exact L|].
      split; [intros i Hi; rewrite value_at_peval; apply V; exact Hi|]. intros r' L' V'. apply U; auto.
    + destruct S as [-> N]. split; [tauto|reflexivity].
  - assert (E : poly_from_points n nodes values = Ok values).
    { unfold poly_from_points. rewrite existsb_finite. replace (Nat.leb n 1) with true by (symmetry; apply Nat.leb_le; lia). reflexivity. }
    assert (V : forall i, (i < n)%nat -> peval values (nth i nodes 0) = nth i values 0).
    { intros i Hi. destruct values as [|a [|b values]]; cbn in *; try lia. destruct i; [ring|lia]. }
    split.
    + intros ND. exists values. split; [exact E|]. split; [exact Lv|]. split; [intros i Hi; rewrite value_at_peval; apply V; exact Hi|]. intros r' L' V'. apply U; auto.
    + intros ND. exfalso. apply ND. destruct nodes as [|a [|b nodes]]; cbn in Ln; try lia; repeat constructor; auto.
Qed.
Example C47_example : NoDup [0; 1; 2] /\ ~ NoDup [0; 1; 0].
Proof. split; [repeat constructor; cbn; lra|]. intros H. inversion H; subst. apply H2. cbn. auto. Qed.

(** ** C48 *)
Theorem C48_cubic_ends : forall v0 s0 v1 s1 span : R,
  (0 < span -> exists c, cubic_from_endpoint_derivatives v0 s0 v1 s1 span = Ok c /\ length c = 4%nat /\
     value_at c 0 = v0 /\ value_at c 1 = v1 /\
     is_derive (fun t => value_at c (t / span)) 0 s0 /\ is_derive (fun t => value_at c (t / span)) span s1) /\
  (span <= 0 -> cubic_from_endpoint_derivatives v0 s0 v1 s1 span = Err PoSpanNotPositive).
Proof.
  intros. unfold cubic_from_endpoint_derivatives. rewrite existsb_finite. rnum. split.
  - intros H. rewrite (proj2 (Rleb_false span 0)) by lra. eexists. split; [reflexivity|]. split; [reflexivity|].
    unfold value_at. cbn. split; [ring|]. split; [ring|]. split; (auto_derive; [auto|]); field; lra.
  - intros H. rewrite (proj2 (Rleb_true span 0)) by lra. reflexivity.
Qed.
Example C48_example : cubic_from_endpoint_derivatives 0 0 10 0 2 = Ok [0; 0; 30; -20].
Proof. unfold cubic_from_endpoint_derivatives. rewrite existsb_finite. rnum. rewrite (proj2 (Rleb_false 2 0)) by lra. repeat (f_equal; try ring). Qed.

Print Assumptions C42_evaluate_with_derivatives.
Print Assumptions C42_degree.
Print Assumptions C43_nth_derivative.
Print Assumptions C43_definite_integral.
Print Assumptions C44_pointwise.
Print Assumptions C44_multiply.
Print Assumptions C44_compose.
Print Assumptions C44_try_resize.
Print Assumptions C45_divide.
Print Assumptions C45_full_size_succeeds.
Print Assumptions C46_from_roots.
Print Assumptions C47_from_points.
Print Assumptions C48_cubic_ends.
