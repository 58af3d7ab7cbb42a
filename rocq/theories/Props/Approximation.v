(** C124 the linear and quadratic approximations of a function and their goodness-of-fit metrics. *)
From Coq Require Import ZArith List Bool Reals Lra Lia Arith Psatz.
From Coquelicot Require Import Coquelicot.
From Verif Require Import Base.Scalar Base.RNum Base.XNum Base.Lists Base.Deriv Base.Series Model.Errors Model.Dual Model.HyperDual Model.Vector Model.Matrix Model.Summation Model.Integration Model.Derivative
  Model.VectorField Model.Approximation Spec.Expr Spec.Matrix Spec.Summation Spec.Derivative Proofs.Vector Proofs.Matrix Proofs.Jet Proofs.Smooth Proofs.Summation Proofs.Derivative Proofs.Autodiff.
Import ListNotations.
Local Open Scope R_scope.
Local Notation length := List.length.
Local Notation sqrt := R_sqrt.sqrt.

(** ** the gradient loop *)
Section Any.
  Context {T : Type} {NT : Num T}.
  Lemma gradient_ok (d : Derivator T) func (p : list T) (g : nat -> T) :
    (forall i, (i < length p)%nat -> first_partial_derivative d func i p = Ok (g i)) -> gradient d func p = Ok (from_fn (length p) g).
  Proof.
    intros H. unfold gradient.
    match goal with |- fold_left ?f _ ?a0 = _ =>
      pose proof (for_range (fun k a => exists v, a = Ok v /\ length v = length p /\ forall i, (i < k)%nat -> (i < length p)%nat -> nth i v zero = g i) f (length p) 0 a0) as P end.
    cbn [Nat.add] in P. destruct P as (v & -> & L & G).
    - eexists. split; [reflexivity|]. split; [apply repeat_length|]. lia.
    - intros k a K (v & -> & L & G). cbn [and_then]. rewrite H by lia. cbn [and_then]. eexists. split; [reflexivity|].
      split; [rewrite set_nth_length; auto|]. intros i I J. destruct (Nat.eq_dec k i) as [->|N].
      + rewrite nth_set_nth_eq by lia. reflexivity.
      + rewrite nth_set_nth_neq by auto. apply G; lia.
    - apply f_equal. apply nth_ext with (d := zero) (d' := zero); [rewrite from_fn_length; auto|]. intros i I. rewrite nth_from_fn by lia. apply G; lia.
  Qed.
  Lemma gradient_err (d : Derivator T) func (p : list T) n e : (n < length p)%nat ->
    (forall i, (i < n)%nat -> exists v, first_partial_derivative d func i p = Ok v) -> first_partial_derivative d func n p = Err e -> gradient d func p = Err e.
  Proof.
    intros N H E. unfold gradient. replace (seq 0 (length p)) with (seq 0 (n + S (length p - n - 1))) by (f_equal; lia).
    rewrite seq_app, fold_left_app. cbn [Nat.add].
    match goal with |- fold_left ?f ?l (fold_left _ ?l' ?a) = _ => assert (O : exists m, fold_left f l' a = Ok m) end.
    { match goal with |- exists m, fold_left ?f ?l' ?a0 = Ok m => apply (for_range (fun k a => exists m, a = Ok m) f n 0 a0) end.
      - eexists; reflexivity.
      - intros i x I (m & ->). destruct (H i) as [v V]; [lia|]. cbn [and_then]. rewrite V. eexists; reflexivity. }
    destruct O as [m ->]. cbn [seq fold_left Nat.add and_then]. rewrite E. cbn [and_then].
    assert (F : forall (l : list nat) f, (forall k, f (Err e) k = (Err e : Res (list T) DiffError)) -> fold_left f l (Err e) = Err e).
    { induction l as [|k l IH]; intros f F; cbn; auto. rewrite F. auto. }
    apply F. reflexivity.
  Qed.
End Any.

(** Any scalar and derivator: the model stores the point, the value there and the derivatives the derivator gives; the first refusal is
    passed on. *)
Theorem C124_fields T (NT : Num T) (d : Derivator T) s (func : ScalarFnN) (p : list T) (g : nat -> T) :
  (forall i, (i < length p)%nat -> first_partial_derivative d func i p = Ok (g i)) ->
  linear_approximate d s func p = Ok (mkLin p (func T NT p) (from_fn (length p) g) s) /\
  (forall H, hessian d func p = Ok H -> quadratic_approximate d s func p = Ok (mkQuad p (func T NT p) (from_fn (length p) g) H s)) /\
  (forall e, hessian d func p = Err e -> quadratic_approximate d s func p = Err e).
Proof.
  intros G. unfold linear_approximate, quadratic_approximate. rewrite (gradient_ok d func p g G). cbn [and_then].
  split; [reflexivity|]. split; intros ? ->; reflexivity.
Qed.
Theorem C124_refused T (NT : Num T) (d : Derivator T) s (func : ScalarFnN) (p : list T) n e : (n < length p)%nat ->
  (forall i, (i < n)%nat -> exists v, first_partial_derivative d func i p = Ok v) -> first_partial_derivative d func n p = Err e ->
  linear_approximate d s func p = Err e /\ quadratic_approximate d s func p = Err e.
Proof.
  intros N H E. unfold linear_approximate, quadratic_approximate. rewrite (gradient_err d func p n e N H E). auto.
Qed.

(** ** the linear model *)
Lemma lin_predict_sum (m : LinearApproximation (T := R)) x : length x = length (lin_point m) -> length (lin_gradient m) = length (lin_point m) ->
  lin_predict m x = lin_value m + bsum (length (lin_point m)) (fun i => nth i (lin_gradient m) 0 * (nth i x 0 - nth i (lin_point m) 0)).
Proof.
  intros X G. unfold lin_predict. rnum. f_equal. rewrite dot_sum by (rewrite sub_length; congruence). rewrite G.
  apply bsum_ext. intros i I. rewrite nth_sub by auto. reflexivity.
Qed.
Lemma moved_sum n i (g q : nat -> R) : (i < n)%nat -> bsum n (fun k => g k * (if Nat.eqb k i then q k else 0)) = g i * q i.
Proof.
  induction n as [|n IH]; intros I; [lia|]. cbn [bsum]. destruct (Nat.eqb_spec n i) as [->|N].
  - rewrite (bsum_ext _ _ (fun _ => 0)); [rewrite bsum_0; ring|]. intros k K. destruct (Nat.eqb_spec k i); [lia|ring].
  - rewrite IH by lia. ring.
Qed.
(** It is the affine function of the stored gradient and reported intercept, exact at its point, and its slopes there are the stored
    ones. *)
Theorem C124_affine (m : LinearApproximation (T := R)) x : length x = length (lin_point m) -> length (lin_gradient m) = length (lin_point m) ->
  lin_predict m x = lin_intercept m + bsum (length x) (fun i => nth i (lin_gradient m) 0 * nth i x 0) /\
  lin_predict m (lin_point m) = lin_value m /\
  forall i, (i < length x)%nat -> is_derive (slice (lin_predict m) x i) (nth i x 0) (nth i (lin_gradient m) 0).
Proof.
  intros X G. split; [|split].
  - rewrite lin_predict_sum by auto. unfold lin_intercept. rnum. rewrite fold_sub_bsum, X.
    rewrite (bsum_ext _ (fun i => nth i (lin_gradient m) 0 * (nth i x 0 - nth i (lin_point m) 0)) (fun i => nth i (lin_gradient m) 0 * nth i x 0 + - (1) * (nth i (lin_gradient m) 0 * nth i (lin_point m) 0))) by (intros; ring).
    rewrite bsum_plus, bsum_scal. cbn [Nat.add]. ring.
  - rewrite lin_predict_sum by auto. rewrite (bsum_ext _ _ (fun _ => 0)) by (intros; ring). rewrite bsum_0. ring.
  - intros i I. apply (is_derive_ext (fun v => lin_predict m x + nth i (lin_gradient m) 0 * (v - nth i x 0))).
    + intros v. match goal with |- ?x = ?y => change (@eq R x y) end. unfold slice. rewrite !lin_predict_sum by (auto; rewrite moved_length; auto).
      rewrite (bsum_ext _ (fun i0 => nth i0 (lin_gradient m) 0 * (nth i0 (moved x i v) 0 - nth i0 (lin_point m) 0))
        (fun k => nth k (lin_gradient m) 0 * (nth k x 0 - nth k (lin_point m) 0) + nth k (lin_gradient m) 0 * (if Nat.eqb k i then v - nth k x 0 else 0))).
      * rewrite bsum_plus, (moved_sum _ i (fun k => nth k (lin_gradient m) 0) (fun k => v - nth k x 0)) by lia. cbv beta. match goal with |- ?x = ?y => change (@eq R x y) end. ring.
      * intros k K. destruct (Nat.eqb_spec k i) as [->|N]; [rewrite moved_eq by auto; ring|rewrite moved_neq by auto; ring].
    + apply (is_derive_eq _ _ (0 + nth i (lin_gradient m) 0 * (1 - 0))); [|ring].
      apply (is_derive_sum (fun _ => lin_predict m x) (fun v => nth i (lin_gradient m) 0 * (v - nth i x 0))); [apply is_derive_cst|].
      apply (is_derive_scal (fun v => v - nth i x 0)). apply (is_derive_diff (fun v => v) (fun _ => nth i x 0)); [apply is_derive_var|apply is_derive_cst].
Qed.

Lemma Derive_n_2 f x : Derive_n f 2 x = Derive (Derive f) x. Proof. reflexivity. Qed.
Lemma line_0 p v : length v = length p -> line p v 0 = p.
Proof.
  intros L. apply nth_ext with (d := 0) (d' := 0). apply from_fn_length. intros k K. rewrite nth_line by auto. ring.
Qed.
Lemma line_1 p x : length x = length p -> line p (vec_sub x p) 1 = x.
Proof.
  intros L. assert (V : length (vec_sub x p) = length p) by (rewrite sub_length; auto).
  apply nth_ext with (d := 0) (d' := 0). unfold line; rewrite from_fn_length; auto. intros k K. rewrite nth_line, nth_sub by auto. ring.
Qed.
(** Built by automatic differentiation of a smooth formula, it misses the function at [x] by at most half the largest second
    derivative along the segment. *)
Theorem C124_linear e p s : smooth_at e p ->
  exists m, linear_approximate autodiff_multi s (formula e) p = Ok m /\
    lin_predict m p = formula e R Rnum p /\
    (forall i, (i < length p)%nat -> is_derive (slice (formula e R Rnum) p i) (nth i p 0) (nth i (lin_gradient m) 0) /\
       is_derive (slice (lin_predict m) p i) (nth i p 0) (nth i (lin_gradient m) 0)) /\
    forall x B, length x = length p ->
      let phi t := formula e R Rnum (line p (vec_sub x p) t) in
      (forall t k, 0 <= t <= 1 -> (k <= 2)%nat -> ex_derive_n phi k t) -> (forall t, 0 <= t <= 1 -> Rabs (Derive_n phi 2 t) <= B) ->
      Rabs (formula e R Rnum x - lin_predict m x) <= B / 2.
Proof.
  intros S. set (g := fun i => deriv (formula e _ dual_num (dual_seed i p))).
  assert (G : forall i, (i < length p)%nat -> first_partial_derivative autodiff_multi (formula e) i p = Ok (g i)).
  { intros i I. unfold first_partial_derivative. cbn [d_differentiate autodiff_multi autodiff_differentiate Model.Derivative.in_range forallb].
    destruct (Nat.ltb_spec i (length p)); [|lia]. reflexivity. }
  destruct (C124_fields R Rnum autodiff_multi s (formula e) p g G) as [E _].
  eexists. split; [exact E|]. set (m := mkLin p (formula e R Rnum p) (from_fn (length p) g) s).
  assert (Lg : length (lin_gradient m) = length (lin_point m)) by (cbn; apply from_fn_length).
  destruct (C124_affine m p eq_refl Lg) as (_ & A & B). split; [exact A|]. split.
  - intros i I. split; [|apply B; auto]. unfold m. cbn [lin_gradient]. rewrite nth_from_fn by auto. apply first_partial; auto.
  - intros x M L phi D BD.
    assert (V : length (vec_sub x p) = length p) by (rewrite sub_length; auto).
    destruct (Taylor_Lagrange phi 1 0 1 ltac:(lra)) as (z & Z & T); [intros t T0 k K; apply D; auto|].
    cbn [sum_f_R0] in T. change (Derive_n phi 0 0) with (phi 0) in T. change (Derive_n phi 1 0) with (Derive phi 0) in T.
    assert (P1 : phi 1 = formula e R Rnum x) by (unfold phi; rewrite line_1; auto).
    assert (P0 : phi 0 = formula e R Rnum p) by (unfold phi; rewrite line_0; auto).
    pose proof (directional e p (vec_sub x p) V S) as DD. apply is_derive_unique in DD. change (Derive phi 0 = bsum (length p) (fun i => nth i (vec_sub x p) 0 * g i)) in DD.
    rewrite P1, P0, DD in T. rewrite T. rewrite lin_predict_sum by auto. cbn [lin_value lin_point lin_gradient m].
    rewrite (bsum_ext (length p) (fun i => nth i (vec_sub x p) 0 * g i) (fun i => nth i (from_fn (length p) g) 0 * (nth i x 0 - nth i p 0)))
      by (intros i I; rewrite nth_sub, nth_from_fn by auto; ring).
    cbn [fact Nat.mul Nat.add INR pow]. replace (Derive_n phi (Datatypes.S 1) z) with (Derive_n phi 2 z) by reflexivity. specialize (BD z ltac:(lra)).
    match goal with |- Rabs ?u <= _ => replace u with (/ 2 * Derive_n phi 2 z) by field end.
    rewrite Rabs_mult, Rabs_pos_eq by lra. lra.
Qed.

(** ** the quadratic model *)
Lemma quad_predict_sum (m : QuadraticApproximation (T := R)) x : let n := length (quad_point m) in
  length x = n -> length (quad_gradient m) = n ->
  quad_predict m x = quad_value m + bsum n (fun i => nth i (quad_gradient m) 0 * (nth i x 0 - nth i (quad_point m) 0)) +
    / 2 * bsum n (fun i => bsum n (fun j => mget (quad_hessian m) i j * (nth j x 0 - nth j (quad_point m) 0)) * (nth i x 0 - nth i (quad_point m) 0)).
Proof.
  intros n X G. unfold quad_predict. fold n. rnum.
  assert (V : length (vec_sub x (quad_point m)) = n) by (rewrite sub_length; auto).
  assert (W : length (mat_vec n n (quad_hessian m) (vec_sub x (quad_point m))) = n) by (unfold mat_vec; apply from_fn_length).
  rewrite !dot_sum by congruence. rewrite G, W. f_equal; [f_equal|f_equal].
  - apply bsum_ext. intros i I. rewrite nth_sub by auto. reflexivity.
  - apply bsum_ext. intros i I. rewrite nth_sub by auto. f_equal.
    change (nth i (mat_vec n n (quad_hessian m) (vec_sub x (quad_point m))) 0) with (vget (mat_vec n n (quad_hessian m) (vec_sub x (quad_point m))) i).
    rewrite vget_mat_vec by auto. unfold times. apply bsum_ext. intros j J. unfold vget. change (@zero R Rnum) with 0. rewrite nth_sub by auto. reflexivity.
Qed.
(** With the gradient and the second partial derivatives automatic differentiation gives at [p], it is exact at [p], and misses the
    function at [x] by at most a sixth of the largest third derivative along the segment. *)
Theorem C124_quadratic e p s H : smooth_at e p ->
  (forall i j, (i < length p)%nat -> (j < length p)%nat -> second_partial_derivative autodiff_multi (formula e) i j p = Ok (mget H i j)) ->
  exists m, linear_approximate autodiff_multi s (formula e) p = Ok m /\
    let q := mkQuad p (lin_value m) (lin_gradient m) H s in
    quad_predict q p = formula e R Rnum p /\
    forall x B, length x = length p ->
      let phi t := formula e R Rnum (line p (vec_sub x p) t) in
      (forall t k, 0 <= t <= 1 -> (k <= 3)%nat -> ex_derive_n phi k t) -> (forall t, 0 <= t <= 1 -> Rabs (Derive_n phi 3 t) <= B) ->
      Rabs (formula e R Rnum x - quad_predict q x) <= B / 6.
Proof.
  intros S HH. set (g := fun i => deriv (formula e _ dual_num (dual_seed i p))).
  assert (G : forall i, (i < length p)%nat -> first_partial_derivative autodiff_multi (formula e) i p = Ok (g i)).
  { intros i I. unfold first_partial_derivative. cbn [d_differentiate autodiff_multi autodiff_differentiate Model.Derivative.in_range forallb].
    destruct (Nat.ltb_spec i (length p)); [|lia]. reflexivity. }
  destruct (C124_fields R Rnum autodiff_multi s (formula e) p g G) as [E _].
  assert (HV : forall i j, (i < length p)%nat -> (j < length p)%nat -> mget H i j = eps1eps2 (formula e _ hyper_num (hyper_seed i j p))).
  { intros i j I J. specialize (HH i j I J). revert HH. unfold second_partial_derivative. cbn [d_differentiate autodiff_multi autodiff_differentiate Model.Derivative.in_range forallb].
    destruct (Nat.ltb_spec i (length p)); [|lia]. destruct (Nat.ltb_spec j (length p)); [|lia]. cbn [andb negb]. intros HH. injection HH. auto. }
  eexists. split; [exact E|]. intros q. cbn [lin_value lin_gradient] in q.
  assert (Lg : length (quad_gradient q) = length (quad_point q)) by (cbn; apply from_fn_length). split.
  - rewrite quad_predict_sum by auto. cbn [quad_point quad_value quad_gradient quad_hessian q].
    rewrite (bsum_ext _ (fun i => nth i (from_fn (length p) g) 0 * (nth i p 0 - nth i p 0)) (fun _ => 0)) by (intros; ring).
    rewrite (bsum_ext _ (fun i => bsum _ _ * _) (fun _ => 0)) by (intros; ring). rewrite bsum_0. ring.
  - intros x M L phi D BD.
    assert (V : length (vec_sub x p) = length p) by (rewrite sub_length; auto).
    destruct (Taylor_Lagrange phi 2 0 1 ltac:(lra)) as (z & Z & T); [intros t T0 k K; apply D; auto|].
    cbn [sum_f_R0] in T. change (Derive_n phi 0 0) with (phi 0) in T. change (Derive_n phi 1 0) with (Derive phi 0) in T. rewrite Derive_n_2 in T.
    assert (P1 : phi 1 = formula e R Rnum x) by (unfold phi; rewrite line_1; auto).
    assert (P0 : phi 0 = formula e R Rnum p) by (unfold phi; rewrite line_0; auto).
    pose proof (directional e p (vec_sub x p) V S) as DD. apply is_derive_unique in DD. change (Derive phi 0 = bsum (length p) (fun i => nth i (vec_sub x p) 0 * g i)) in DD.
    pose proof (directional2 e p (vec_sub x p) V S) as D2. apply is_derive_unique in D2.
    change (Derive (Derive phi) 0 = bsum (length p) (fun i => nth i (vec_sub x p) 0 * bsum (length p) (fun j => nth j (vec_sub x p) 0 * eps1eps2 (formula e _ hyper_num (hyper_seed i j p))))) in D2.
    rewrite P1, P0, DD, D2 in T. rewrite T. rewrite quad_predict_sum by auto. cbn [quad_value quad_point quad_gradient quad_hessian q].
    rewrite (bsum_ext (length p) (fun i => nth i (vec_sub x p) 0 * g i) (fun i => nth i (from_fn (length p) g) 0 * (nth i x 0 - nth i p 0)))
      by (intros i I; rewrite nth_sub, nth_from_fn by auto; ring).
    rewrite (bsum_ext (length p) (fun i => nth i (vec_sub x p) 0 * bsum _ _) (fun i => bsum (length p) (fun j => mget H i j * (nth j x 0 - nth j p 0)) * (nth i x 0 - nth i p 0))).
    2:{ intros i I. rewrite nth_sub by auto. rewrite Rmult_comm. f_equal. apply bsum_ext. intros j J. rewrite nth_sub, HV by auto. ring. }
    cbn [fact Nat.mul Nat.add INR pow]. replace (Derive_n phi (Datatypes.S 2) z) with (Derive_n phi 3 z) by reflexivity. specialize (BD z ltac:(lra)).
    match goal with |- Rabs ?u <= _ => replace u with (/ 6 * Derive_n phi 3 z) by field end.
    rewrite Rabs_mult, Rabs_pos_eq by lra. lra.
Qed.

(** ** the metrics *)
Lemma exact_sum_scale {A} c (f : A -> R) l : exact_sum (map (fun a => c * f a) l) = c * exact_sum (map f l).
Proof. induction l as [|a l IH]; cbn; [ring|]. rewrite IH. ring. Qed.
Lemma exact_sum_plus {A} (f g : A -> R) l : exact_sum (map (fun a => f a + g a) l) = exact_sum (map f l) + exact_sum (map g l).
Proof. induction l as [|a l IH]; cbn; [ring|]. rewrite IH. ring. Qed.
Lemma exact_sum_const {A} c (l : list A) : exact_sum (map (fun _ => c) l) = INR (length l) * c.
Proof. induction l as [|a l IH]; [cbn; ring|]. cbn [map exact_sum]. rewrite IH. cbn [length]. rewrite S_INR. ring. Qed.
Lemma exact_sum_nonneg {A} (f : A -> R) l : (forall a, In a l -> 0 <= f a) -> 0 <= exact_sum (map f l).
Proof. induction l as [|a l IH]; cbn; intros H; [lra|]. pose proof (H a (or_introl eq_refl)). pose proof (IH (fun b B => H b (or_intror B))). lra. Qed.
Lemma exact_sum_ext {A} (f g : A -> R) l : (forall a, In a l -> f a = g a) -> exact_sum (map f l) = exact_sum (map g l).
Proof. intros H. f_equal. apply map_ext_in. exact H. Qed.
Lemma mean_square {A} (r : A -> R) l : l <> [] ->
  (exact_sum (map (fun a => Rabs (r a)) l) / INR (length l)) ^ 2 <= exact_sum (map (fun a => r a * r a) l) / INR (length l).
Proof.
  intros N. assert (P : 0 < INR (length l)) by (apply lt_0_INR; destruct l; [congruence|cbn; lia]).
  set (n := INR (length l)) in *. set (s := exact_sum (map (fun a => Rabs (r a)) l)). set (q := exact_sum (map (fun a => r a * r a) l)).
  assert (G : 0 <= exact_sum (map (fun a => (Rabs (r a) - s / n) * (Rabs (r a) - s / n)) l)).
  { apply exact_sum_nonneg. intros a _. apply Rle_0_sqr. }
  rewrite (exact_sum_ext _ (fun a => (r a * r a + (- (2 * (s / n))) * Rabs (r a)) + (s / n) * (s / n))) in G.
  - rewrite exact_sum_plus, exact_sum_plus, exact_sum_scale, exact_sum_const in G. fold n s q in G.
    assert (E : q + - (2 * (s / n)) * s + n * (s / n * (s / n)) = q - n * (s / n) ^ 2) by (field; lra). rewrite E in G.
    apply (Rmult_le_reg_l n); auto. replace (n * (q / n)) with q by (field; lra). lra.
  - intros a _. assert (Q : Rabs (r a) * Rabs (r a) = r a * r a) by (rewrite <- Rabs_mult; apply Rabs_pos_eq; apply Rle_0_sqr).
    replace ((Rabs (r a) - s / n) * (Rabs (r a) - s / n)) with (Rabs (r a) * Rabs (r a) + - (2 * (s / n)) * Rabs (r a) + s / n * (s / n)) by ring. rewrite Q. ring.
Qed.
Lemma acc_R s l : acc_total (T := R) s l = exact_sum l.
Proof. destruct s; [apply kahan_exact|apply pairwise_exact] || (destruct s; [apply pairwise_exact|apply kahan_exact]). Qed.

(** Over a non-empty set of points: the mean absolute, mean squared and root mean squared errors are what they are called and ordered
    as they must be; the coefficient of determination compares the squared error with the spread of the values; the adjusted one never
    exceeds it. *)
Theorem C124_metrics (predict original : list R -> R) points k s : points <> [] ->
  let n := INR (length points) in let r p := predict p - original p in
  let mean := exact_sum (map original points) / n in
  let spread := exact_sum (map (fun p => (original p - mean) ^ 2) points) in
  let m := compute_metrics predict points original k s in
  mae m = exact_sum (map (fun p => Rabs (r p)) points) / n /\ mse m = exact_sum (map (fun p => r p ^ 2) points) / n /\
  0 <= mae m <= rmse m /\ rmse m ^ 2 = mse m /\
  (spread <> 0 -> r_squared m = 1 - exact_sum (map (fun p => r p ^ 2) points) / spread /\ r_squared m <= 1 /\
     (INR k + 1 < n -> adjusted_r_squared m = 1 - (1 - r_squared m) * (n - 1) / (n - INR k - 1) /\ adjusted_r_squared m <= r_squared m) /\
     ((forall p, In p points -> predict p = original p) -> mae m = 0 /\ rmse m = 0 /\ r_squared m = 1)).
Proof.
  intros N n r mean spread m.
  assert (P : 0 < n) by (apply lt_0_INR; destruct points; [congruence|cbn; lia]).
  assert (SQ : forall f : list R -> R, exact_sum (map (fun p => f p * f p) points) = exact_sum (map (fun p => f p ^ 2) points)) by (intros f; apply exact_sum_ext; intros; ring).
  assert (Emae : mae m = exact_sum (map (fun p => Rabs (r p)) points) / n) by (unfold m, compute_metrics; cbv zeta; cbn [mae]; rewrite !acc_R, !of_nat_R; rnum; reflexivity).
  assert (Emse : mse m = exact_sum (map (fun p => r p ^ 2) points) / n) by (unfold m, compute_metrics; cbv zeta; cbn [mse]; rewrite !acc_R, !of_nat_R; rnum; rewrite <- SQ; reflexivity).
  assert (Ermse : rmse m = sqrt (mse m)) by reflexivity.
  assert (Q0 : 0 <= exact_sum (map (fun p => r p ^ 2) points)) by (apply exact_sum_nonneg; intros; apply pow2_ge_0).
  assert (S0 : 0 <= spread) by (apply exact_sum_nonneg; intros; apply pow2_ge_0).
  assert (M0 : 0 <= mse m) by (rewrite Emse; apply Rmult_le_pos; [auto|]; left; apply Rinv_0_lt_compat; auto).
  assert (A0 : 0 <= mae m).
  { rewrite Emae. apply Rmult_le_pos; [apply exact_sum_nonneg; intros; apply Rabs_pos|]. left; apply Rinv_0_lt_compat; auto. }
  split; [exact Emae|]. split; [exact Emse|]. split; [|split].
  - split; [exact A0|]. rewrite Ermse. rewrite <- (sqrt_pow2 (mae m)) by auto. apply sqrt_le_1_alt. rewrite Emae, Emse, <- SQ. apply mean_square. auto.
  - rewrite Ermse. cbn [pow]. rewrite Rmult_1_r. apply sqrt_sqrt. auto.
  - intros NS.
    assert (ER : r_squared m = 1 - exact_sum (map (fun p => r p ^ 2) points) / spread).
    { unfold m, compute_metrics. cbv zeta. cbn [r_squared]. rewrite !acc_R, !of_nat_R. rnum. fold n. fold mean. rewrite (SQ (fun p => original p - mean)). fold spread.
      unfold Reqb. destruct (Req_EM_T spread 0); [contradiction|]. rewrite (SQ (fun p => predict p - original p)). reflexivity. }
    assert (R1 : r_squared m <= 1).
    { rewrite ER. assert (0 <= exact_sum (map (fun p => r p ^ 2) points) / spread) by (apply Rmult_le_pos; [auto|]; left; apply Rinv_0_lt_compat; lra). lra. }
    split; [exact ER|]. split; [exact R1|]. split.
    + intros K. assert (EA : adjusted_r_squared m = 1 - (1 - r_squared m) * (n - 1) / (n - INR k - 1)).
      { unfold m at 1, compute_metrics. cbv zeta. cbn [adjusted_r_squared]. fold (compute_metrics predict points original k s).
        unfold m, compute_metrics. cbv zeta. cbn [r_squared]. rewrite !of_nat_R. rnum. fold n. unfold Rleb. destruct (Rle_dec (n - INR k - 1) 0); [lra|]. reflexivity. }
      split; [exact EA|]. rewrite EA. pose proof (pos_INR k) as K0.
      assert (G : 1 - r_squared m <= (1 - r_squared m) * (n - 1) / (n - INR k - 1)).
      { apply (Rmult_le_reg_r (n - INR k - 1)); [lra|]. replace ((1 - r_squared m) * (n - 1) / (n - INR k - 1) * (n - INR k - 1)) with ((1 - r_squared m) * (n - 1)) by (field; lra).
        apply Rmult_le_compat_l; lra. }
      lra.
    + intros H. assert (Z : exact_sum (map (fun p => r p ^ 2) points) = 0).
      { rewrite (exact_sum_ext _ (fun _ => 0)); [rewrite exact_sum_const; ring|]. intros p I. unfold r. rewrite (H p I). ring. }
      split; [|split].
      * rewrite Emae, (exact_sum_ext _ (fun _ => 0)); [rewrite exact_sum_const; field; lra|]. intros p I. unfold r. rewrite (H p I), Rminus_eq_0. apply Rabs_R0.
      * rewrite Ermse, Emse, Z. unfold Rdiv. rewrite Rmult_0_l. apply sqrt_0.
      * rewrite ER, Z. field. auto.
Qed.
(** The number of predictors charged to each model: one per variable, plus one per pair of variables for the quadratic one. *)
Theorem C124_predictors T (NT : Num T) (m : LinearApproximation (T := T)) (q : QuadraticApproximation (T := T)) points (original : ScalarFnN) :
  lin_metrics m points original = compute_metrics (lin_predict m) points (original T NT) (length (lin_point m)) (lin_summation m) /\
  exists k, quad_metrics q points original = compute_metrics (quad_predict q) points (original T NT) k (quad_summation q) /\
    (2 * k = length (quad_point q) * (length (quad_point q) + 3))%nat.
Proof.
  split; [reflexivity|]. eexists. split; [reflexivity|]. set (n := length (quad_point q)).
  assert (E : Nat.even (n * (n + 1)) = true). { rewrite Nat.even_mul, Nat.even_add. destruct (Nat.even n); reflexivity. }
  apply Nat.even_spec in E. destruct E as [j E]. rewrite E, (Nat.mul_comm 2 j), Nat.div_mul by lia. lia.
Qed.

Definition approx_formula : expr := EBin BAdd (EBin BMul (EVar 0) (EVar 1)) (EUn USin (EVar 0)).
Example C124_example : smooth_at approx_formula [1; 2] /\ exists m, linear_approximate autodiff_multi Kahan (formula approx_formula) [1; 2] = Ok m /\
  lin_predict m [1; 2] = formula approx_formula R Rnum [1; 2].
Proof.
  assert (S : smooth_at approx_formula [1; 2]) by (cbn; auto). split; [exact S|]. destruct (C124_linear approx_formula [1; 2] Kahan S) as (m & A & B & _). eauto.
Qed.
Example C124_example_metrics : let m := compute_metrics (fun p => nth 0 p 0) [[0]; [1]; [2]; [3]] (fun p => 2 * nth 0 p 0) 1 Kahan in
  mae m = 3 / 2 /\ r_squared m = 3 / 10.
Proof.
  assert (N : [[0]; [1]; [2]; [3]] <> ([] : list (list R))) by discriminate.
  pose proof (C124_metrics (fun p => nth 0 p 0) (fun p => 2 * nth 0 p 0) [[0]; [1]; [2]; [3]] 1 Kahan N) as M. cbv zeta in M.
  destruct M as (A & _ & _ & _ & B). cbv zeta. rewrite A.
  match type of B with ?sp <> 0 -> _ => assert (S : sp = 20) by (cbn; field) end. rewrite S in B. destruct (B ltac:(lra)) as [C _]. rewrite C.
  cbn [map exact_sum nth length INR]. split.
  - replace (0 - 2 * 0) with 0 by ring. replace (1 - 2 * 1) with (- (1)) by ring. replace (2 - 2 * 2) with (- (2)) by ring. replace (3 - 2 * 3) with (- (3)) by ring.
    rewrite !Rabs_Ropp, Rabs_R0, !Rabs_pos_eq by lra. field.
  - field.
Qed.

Print Assumptions C124_fields.
Print Assumptions C124_refused.
Print Assumptions C124_affine.
Print Assumptions C124_linear.
Print Assumptions C124_quadratic.
Print Assumptions C124_metrics.
Print Assumptions C124_predictors.
