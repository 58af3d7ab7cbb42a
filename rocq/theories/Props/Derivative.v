(** C120 single-variable automatic differentiation, C121 partial derivatives by automatic differentiation, C122 finite differences,
    C123 jacobians and hessians. *)
From Coq Require Import ZArith List Bool Reals Lra Lia Arith.
From Coquelicot Require Import Coquelicot.
From Verif Require Import Base.Scalar Base.RNum Base.XNum Base.FNum Base.Lists Base.Deriv Base.Series Model.Errors Model.Dual Model.HyperDual Model.Jet Model.Matrix Model.Derivative
  Spec.Expr Spec.Matrix Spec.Derivative Proofs.Matrix Proofs.Smooth Proofs.Derivative Proofs.Autodiff Proofs.Jacobian.
Import ListNotations.
Local Open Scope R_scope.
Local Notation length := List.length.

(** ** C120 *)
Lemma single_env (x v : R) i : setv (fun i => match i with O => x | _ => 0 end) 0 v i = match i with O => v | _ => 0 end.
Proof. unfold setv. destruct i; reflexivity. Qed.
Lemma seed_env {S} (var cst : R -> S) (z : S) x i : cst 0 = z ->
  (if Nat.eqb i 0 then var (match i with O => x | _ => 0 end) else cst (match i with O => x | _ => 0 end)) = match i with O => var x | _ => z end.
Proof. intros E. destruct i; cbn; auto. Qed.

(** A smooth formula differentiated once to six times: the derivative exists and is the value returned. *)
Theorem C120_exact e x order : smooth_at1 e x -> (1 <= order <= 6)%nat ->
  ex_derive_n (formula1 e R Rnum) order x /\ autodiff_single order (formula1 e) x = Ok (Derive_n (formula1 e R Rnum) order x).
Proof.
  intros S O. set (env := fun i : nat => match i with O => x | _ => 0 end).
  assert (F : forall v, eval (setv env 0 v) e = formula1 e R Rnum v) by (intros v; apply eval_ext; intros i; apply single_env).
  destruct (jet_taylor 7 e env 0 ltac:(lia) S) as [L J]. cbv zeta in J, L.
  destruct (J order ltac:(lia)) as [X V]. split.
  - revert X. apply ex_derive_n_ext. exact F.
  - change (env 0%nat) with x in *. rewrite (Derive_n_ext _ _ order x F) in V.
    destruct order as [|[|[|order]]]; [lia| | |].
    + destruct (dual_partial e env 0 S) as [_ D]. cbv zeta in D. cbn [autodiff_single]. apply f_equal.
      apply is_derive_unique in D. change (Derive_n (formula1 e R Rnum) 1 x) with (Derive (formula1 e R Rnum) x).
      rewrite <- (Derive_ext _ _ x F). etransitivity; [|symmetry; exact D]. unfold formula1. f_equal. apply eval_ext. intros i. symmetry. apply (seed_env dual_variable dual_constant). reflexivity.
    + destruct (hyper_second e env 0 S) as (_ & _ & _ & D). cbv zeta in D. cbn [autodiff_single]. apply f_equal.
      apply is_derive_unique in D. change (Derive_n (formula1 e R Rnum) 2 x) with (Derive (Derive (formula1 e R Rnum)) x).
      rewrite <- (Derive_ext (Derive (fun v => eval (setv env 0 v) e)) _ x (fun y => Derive_ext _ _ y F)). etransitivity; [|symmetry; exact D]. unfold formula1. f_equal. apply eval_ext. intros i. symmetry. apply (seed_env hyper_variable hyper_constant). reflexivity.
    + unfold autodiff_single. change MAX_ORDER with 6%nat. destruct (Nat.leb_spec (Datatypes.S (Datatypes.S (Datatypes.S order))) 6); [|lia].
      set (k := Datatypes.S (Datatypes.S (Datatypes.S order))) in *.
      assert (Ee : formula1 e _ (jet_num (6 + 1)) (jet_variable (6 + 1) x) =
        @eval _ (jet_num 7) (fun i => if Nat.eqb i 0 then jet_variable 7 (env i) else jet_constant 7 (env i)) e).
      { unfold formula1. apply eval_ext. intros i. symmetry. apply (seed_env (jet_variable 7) (jet_constant 7)). reflexivity. }
      rewrite Ee. unfold jet_derivative. rewrite (nth_error_nth' _ 0) by (rewrite L; lia). rewrite V.
      apply f_equal. rnum. rewrite jet_factorial. pose proof (INR_fact_neq_0 k). field. auto.
Qed.
(** The two shorthands give the first and second derivative. *)
Theorem C120_shorthand e x : smooth_at1 e x ->
  is_derive (formula1 e R Rnum) x (derivative (formula1 e) x) /\ second_derivative (formula1 e) x = Derive_n (formula1 e R Rnum) 2 x.
Proof.
  intros S. destruct (C120_exact e x 1 S ltac:(lia)) as [X E]. destruct (C120_exact e x 2 S ltac:(lia)) as [_ E2].
  cbn [autodiff_single] in E, E2. split.
  - apply (f_equal (fun r => match r with Ok v => v | _ => 0 end)) in E. unfold derivative. cbv beta iota in E. rewrite E.
    change (Derive_n (formula1 e R Rnum) 1 x) with (Derive (formula1 e R Rnum) x). apply Derive_correct. exact X.
  - apply (f_equal (fun r => match r with Ok v => v | _ => 0 end)) in E2. exact E2.
Qed.
(** Orders outside one to six are refused, for any scalar and any function; the orders inside never are, so long as the function
    gives back all seven coefficients. *)
Theorem C120_refused T (NT : Num T) (func : ScalarFn) (x : T) :
  autodiff_single 0 func x = Err DiOrderZero /\
  (forall order, (6 < order)%nat -> autodiff_single order func x = Err DiOrderUnsupported) /\
  (length (func _ (jet_num 7) (jet_variable 7 x)) = 7%nat -> forall order, (1 <= order <= 6)%nat -> exists v, autodiff_single order func x = Ok v).
Proof.
  split; [reflexivity|]. split.
  - intros [|[|[|order]]] O; try lia. unfold autodiff_single, MAX_ORDER.
    destruct (Nat.leb_spec (S (S (S order))) 6); [lia|reflexivity].
  - intros L [|[|[|order]]] O; try lia; [eexists; reflexivity|eexists; reflexivity|]. unfold autodiff_single.
    change MAX_ORDER with 6%nat. destruct (Nat.leb_spec (S (S (S order))) 6); [|lia]. unfold jet_derivative.
    change (6 + 1)%nat with 7%nat. rewrite (nth_error_nth' _ zero) by (rewrite L; lia). eexists; reflexivity.
Qed.

(** ** C121 *)

(** First and second partial derivatives of a smooth formula, the second ones in either order of the two variables. *)
Theorem C121_first e p i : smooth_at e p -> (i < length p)%nat ->
  exists v, first_partial_derivative autodiff_multi (formula e) i p = Ok v /\ partial (formula e) i p = Ok v /\
    is_derive (slice (formula e R Rnum) p i) (nth i p 0) v.
Proof.
  intros S I. unfold partial, first_partial_derivative. cbn [d_differentiate autodiff_multi autodiff_differentiate Model.Derivative.in_range forallb].
  destruct (Nat.ltb_spec i (length p)); [|lia]. cbn [andb negb]. eexists. split; [reflexivity|]. split; [reflexivity|]. apply first_partial; auto.
Qed.
Theorem C121_second e p i j : smooth_at e p -> (i < length p)%nat -> (j < length p)%nat ->
  exists v, second_partial_derivative autodiff_multi (formula e) i j p = Ok v /\ second_partial_derivative autodiff_multi (formula e) j i p = Ok v /\
    is_derive (slice (partial_of i (formula e R Rnum)) p j) (nth j p 0) v /\ is_derive (slice (partial_of j (formula e R Rnum)) p i) (nth i p 0) v.
Proof.
  intros S I J. unfold second_partial_derivative. cbn [d_differentiate autodiff_multi autodiff_differentiate Model.Derivative.in_range forallb].
  destruct (Nat.ltb_spec i (length p)); [|lia]. destruct (Nat.ltb_spec j (length p)); [|lia]. cbn [andb negb]. eexists. split; [reflexivity|].
  split; [rewrite (second_partial_swap e p i j) by auto; reflexivity|]. split; [apply second_partial_hyper; auto|].
  rewrite (second_partial_swap e p i j) by auto. apply second_partial_hyper; auto.
Qed.
(** The derivative along any direction is the sum of the partial derivatives weighted by the direction. *)
Theorem C121_direction e p v (g : nat -> R) : length v = length p -> smooth_at e p ->
  (forall i, (i < length p)%nat -> first_partial_derivative autodiff_multi (formula e) i p = Ok (g i)) ->
  is_derive (fun t => formula e R Rnum (line p v t)) 0 (bsum (length p) (fun i => nth i v 0 * g i)).
Proof.
  intros L S G. rewrite (bsum_ext (length p) _ (fun i => nth i v 0 * deriv (formula e _ dual_num (dual_seed i p)))).
  - apply directional; auto.
  - intros i I. specialize (G i I). revert G. unfold first_partial_derivative. cbn [d_differentiate autodiff_multi autodiff_differentiate Model.Derivative.in_range forallb].
    destruct (Nat.ltb_spec i (length p)); [|lia]. cbn [andb negb]. intros G. injection G. intros <-. reflexivity.
Qed.
(** What is refused, for any scalar and any function, and that nothing else is. *)
Theorem C121_refused T (NT : Num T) (func : ScalarFnN) (p : list T) :
  autodiff_differentiate func [] p = Err DiOrderZero /\
  (forall idx i, In i idx -> (length p <= i)%nat -> autodiff_differentiate func idx p = Err DiIndexOutOfRange) /\
  (forall idx, (forall i, In i idx -> (i < length p)%nat) -> (3 < length idx)%nat -> autodiff_differentiate func idx p = Err DiOrderUnsupported) /\
  (forall idx, (forall i, In i idx -> (i < length p)%nat) -> (1 <= length idx <= 3)%nat -> exists v, autodiff_differentiate func idx p = Ok v).
Proof.
  assert (IR : forall idx, (forall i, In i idx -> (i < length p)%nat) -> Model.Derivative.in_range idx (length p) = true).
  { intros idx H. unfold Model.Derivative.in_range. apply forallb_forall. intros i I. apply Nat.ltb_lt. auto. }
  split; [reflexivity|]. split; [|split].
  - intros idx i I L. assert (E : Model.Derivative.in_range idx (length p) = false).
    { destruct (Model.Derivative.in_range idx (length p)) eqn:E; auto. unfold Model.Derivative.in_range in E. rewrite forallb_forall in E. specialize (E i I). apply Nat.ltb_lt in E. lia. }
    unfold autodiff_differentiate. destruct idx; [contradiction|]. rewrite E. reflexivity.
  - intros idx H L. unfold autodiff_differentiate. rewrite (IR idx H). destruct idx as [|a [|b [|c [|d idx]]]]; cbn [length] in L; try lia. reflexivity.
  - intros idx H L. unfold autodiff_differentiate. rewrite (IR idx H). destruct idx as [|a [|b [|c [|d idx]]]]; cbn [length] in L; try lia; eexists; reflexivity.
Qed.

(** ** C122 *)
Lemma check_step_R (c : FiniteDifferenceConfig R) : 0 < step_size c -> check_step_size c = None.
Proof.
  intros H. unfold check_step_size. rnum. unfold Reqb, Rltb. destruct (Req_EM_T (step_size c) 0); [lra|]. destruct (Rlt_dec (step_size c) 0); [lra|]. reflexivity.
Qed.
Lemma mode_bounds mode : lower_of mode <= 0 /\ 0 <= upper_of mode /\ lower_of mode < upper_of mode.
Proof. destruct mode; cbn; lra. Qed.
(** With a positive step, the difference of order [n] is the exact [n]-th derivative at some point within its reach. *)
Theorem C122_mean (c : FiniteDifferenceConfig R) (func : ScalarFn) n x :
  0 < step_size c -> 0 < step_size_multiplier c -> (1 <= n)%nat ->
  let f := func R Rnum in let H := reach (step_size_multiplier c) (step_size c) n in
  (forall y k, in_reach (method c) x H y -> (k <= n)%nat -> ex_derive_n f k y) ->
  exists xi, in_reach (method c) x H xi /\ finite_difference_single c n func x = Ok (Derive_n f n xi).
Proof.
  intros HS HM N f H D. destruct (mode_bounds (method c)) as (L & U & LU).
  destruct (nested_mean (lower_of (method c)) (upper_of (method c)) (step_size_multiplier c) L U LU HM n f x (step_size c) HS) as (xi & X & E).
  { intros y k Y K. apply D; auto. apply in_reach_near. exact Y. }
  exists xi. split; [apply in_reach_near; exact X|]. destruct n as [|n]; [lia|]. unfold finite_difference_single. rewrite check_step_R by auto.
  apply f_equal. rewrite fd_diff_nested. exact E.
Qed.
(** The one-sided differences are accurate to first order in the steps, the central ones to second order. *)
Theorem C122_one_sided (c : FiniteDifferenceConfig R) (func : ScalarFn) n x B :
  0 < step_size c -> 0 < step_size_multiplier c -> (1 <= n)%nat -> method c <> Central ->
  let f := func R Rnum in let H := reach (step_size_multiplier c) (step_size c) n in
  (forall y k, in_reach (method c) x H y -> (k <= S n)%nat -> ex_derive_n f k y) ->
  (forall y, in_reach (method c) x H y -> Rabs (Derive_n f (S n) y) <= B) ->
  exists v, finite_difference_single c n func x = Ok v /\ Rabs (v - Derive_n f n x) <= B / 2 * H.
Proof.
  intros HS HM N NC f H D BB. destruct n as [|n]; [lia|]. unfold finite_difference_single. rewrite check_step_R by auto.
  eexists. split; [reflexivity|]. rewrite fd_diff_nested. apply one_sided_error; auto.
  - destruct (method c); [left; auto|right; cbn; split; auto; lra|congruence].
  - intros y k Y K. apply D; auto. apply in_reach_near. exact Y.
  - intros y Y. apply BB. apply in_reach_near. exact Y.
Qed.
Theorem C122_central (c : FiniteDifferenceConfig R) (func : ScalarFn) n x B :
  0 < step_size c -> 0 < step_size_multiplier c -> (1 <= n)%nat -> method c = Central ->
  let f := func R Rnum in let H := reach (step_size_multiplier c) (step_size c) n in
  (forall y k, in_reach (method c) x H y -> (k <= S (S n))%nat -> ex_derive_n f k y) ->
  (forall y, in_reach (method c) x H y -> Rabs (Derive_n f (S (S n)) y) <= B) ->
  exists v, finite_difference_single c n func x = Ok v /\ Rabs (v - Derive_n f n x) <= B / 6 * squared_steps (step_size_multiplier c) (step_size c) n.
Proof.
  intros HS HM N MC f H D BB. destruct n as [|n]; [lia|]. unfold finite_difference_single. rewrite check_step_R by auto.
  eexists. split; [reflexivity|]. rewrite fd_diff_nested. rewrite MC. apply central_error; auto.
  - intros y k Y K. apply D; auto. rewrite MC. apply in_reach_near. exact Y.
  - intros y Y. apply BB. rewrite MC. apply in_reach_near. exact Y.
Qed.
(** Partial derivatives: the exact one, of the listed variables in the listed nesting, at some point of the box. *)
Theorem C122_partials (c : FiniteDifferenceConfig R) (func : ScalarFnN) idx p :
  0 < step_size c -> 0 < step_size_multiplier c -> idx <> [] -> (forall i, In i idx -> (i < length p)%nat) ->
  let f := func R Rnum in let H := reach (step_size_multiplier c) (step_size c) (length idx) in
  (forall q, in_box p H q -> differentiable idx f q) ->
  exists q, in_box p H q /\ fd_differentiate c func idx p = Ok (partials idx f q).
Proof.
  intros HS HM N I f H D. destruct (mode_bounds (method c)) as (L & U & LU).
  destruct (nested_multi_mean (lower_of (method c)) (upper_of (method c)) (step_size_multiplier c)) with (idx := rev idx) (f := f) (p := p) (h := step_size c)
    as (q & Q & E); auto; try (destruct (method c); cbn; lra).
  - apply List.Forall_forall. intros i J. apply I. apply in_rev. exact J.
  - rewrite rev_length. intros q Q. apply chain_ok_rev. apply D. exact Q.
  - rewrite rev_length in Q. exists q. split; [exact Q|]. unfold fd_differentiate. destruct idx as [|i idx]; [congruence|].
    rewrite check_step_R by auto. assert (R0 : Model.Derivative.in_range (i :: idx) (length p) = true) by (apply forallb_forall; intros j J; apply Nat.ltb_lt; auto).
    rewrite R0. cbn [negb]. apply f_equal. fold f. rewrite fd_multi_nested, E.
    + rewrite chain_rev. reflexivity.
    + intros Z. apply (f_equal (@length nat)) in Z. rewrite rev_length in Z. discriminate.
Qed.
(** What is refused, for any scalar: in this order, no order, a zero step, a negative or non-finite one, a variable out of range. *)
Theorem C122_refused T (NT : Num T) (c : FiniteDifferenceConfig T) (f1 : ScalarFn) (f : ScalarFnN) (g : VectorFn) (x : T) (p : list T) :
  finite_difference_single c 0 f1 x = Err DiOrderZero /\ fd_differentiate c f [] p = Err DiOrderZero /\
  (eqb (step_size c) zero = true -> forall n idx col, (1 <= n)%nat -> idx <> [] ->
     finite_difference_single c n f1 x = Err DiStepSizeZero /\ fd_differentiate c f idx p = Err DiStepSizeZero /\ fd_column c g col p = Err DiStepSizeZero) /\
  (eqb (step_size c) zero = false -> is_finite (step_size c) = false \/ ltb (step_size c) zero = true -> forall n idx col, (1 <= n)%nat -> idx <> [] ->
     finite_difference_single c n f1 x = Err DiInvalidStepSize /\ fd_differentiate c f idx p = Err DiInvalidStepSize /\ fd_column c g col p = Err DiInvalidStepSize) /\
  (eqb (step_size c) zero = false -> is_finite (step_size c) = true -> ltb (step_size c) zero = false ->
     (forall n, (1 <= n)%nat -> exists v, finite_difference_single c n f1 x = Ok v) /\
     (forall idx i, In i idx -> (length p <= i)%nat -> fd_differentiate c f idx p = Err DiIndexOutOfRange /\ fd_column c g i p = Err DiIndexOutOfRange)).
Proof.
  split; [reflexivity|]. split; [reflexivity|]. split; [|split].
  - intros Z n idx col N I. assert (E : check_step_size c = Some DiStepSizeZero) by (unfold check_step_size; rewrite Z; reflexivity).
    unfold finite_difference_single, fd_differentiate, fd_column. rewrite E. destruct n; [lia|]. destruct idx; [congruence|]. auto.
  - intros Z B n idx col N I. assert (E : check_step_size c = Some DiInvalidStepSize).
    { unfold check_step_size. rewrite Z. destruct B as [-> | ->]; cbn; auto. rewrite Bool.orb_true_r. reflexivity. }
    unfold finite_difference_single, fd_differentiate, fd_column. rewrite E. destruct n; [lia|]. destruct idx; [congruence|]. auto.
  - intros Z F P. assert (E : check_step_size c = None) by (unfold check_step_size; rewrite Z, F, P; reflexivity).
    split.
    + intros [|n] N; [lia|]. unfold finite_difference_single. rewrite E. eexists; reflexivity.
    + intros idx i I L. assert (E' : Model.Derivative.in_range idx (length p) = false).
      { destruct (Model.Derivative.in_range idx (length p)) eqn:E'; auto. unfold Model.Derivative.in_range in E'. rewrite forallb_forall in E'. specialize (E' i I). apply Nat.ltb_lt in E'. lia. }
      unfold fd_differentiate, fd_column. rewrite E. destruct idx; [contradiction|]. rewrite E'. destruct (Nat.leb_spec (length p) i); [auto|lia].
Qed.

(** ** C123 *)

(** Any derivator, any scalar: the jacobian holds the columns the derivator gives, the two versions agree, an empty function set and
    the first column refused are reported. *)
Theorem C123_jacobian T (NT : Num T) (d : Derivator T) (func : VectorFn) rows (p : list T) :
  (rows = 0%nat -> jacobian d func rows p = Err DiEmptyFunctionSet /\ jacobian_on_heap d func rows p = Err DiEmptyFunctionSet) /\
  (forall cols : nat -> list T, (0 < rows)%nat ->
     (forall n, (n < length p)%nat -> d_column d func n p = Ok (cols n) /\ length (cols n) = rows) ->
     exists J, jacobian d func rows p = Ok J /\ jacobian_on_heap d func rows p = Ok J /\ shape rows (length p) J /\
       forall row col, (row < rows)%nat -> (col < length p)%nat -> mget J row col = nth row (cols col) zero) /\
  (forall n e, (0 < rows)%nat -> (n < length p)%nat -> (forall m, (m < n)%nat -> exists column, d_column d func m p = Ok column) -> d_column d func n p = Err e ->
     jacobian d func rows p = Err e /\ jacobian_on_heap d func rows p = Err e).
Proof.
  split; [intros ->; auto|]. split.
  - intros cols R H. exists (mat_fn rows (length p) (fun r c => nth r (cols c) zero)). split; [apply jacobian_ok; auto|].
    split; [apply jacobian_on_heap_ok; auto|]. split; [apply shape_mat_fn|]. intros row col A B. rewrite mget_mat_fn by auto. reflexivity.
  - intros n e. apply jacobian_err.
Qed.
(** With automatic differentiation of smooth formulas every entry is the partial derivative. *)
Theorem C123_jacobian_exact es p : es <> [] -> (forall e, In e es -> smooth_at e p) ->
  exists J, jacobian autodiff_multi (formulas es) (length es) p = Ok J /\ jacobian_on_heap autodiff_multi (formulas es) (length es) p = Ok J /\
    shape (length es) (length p) J /\
    forall row col e, nth_error es row = Some e -> (col < length p)%nat -> is_derive (slice (formula e R Rnum) p col) (nth col p 0) (mget J row col).
Proof.
  intros N S. destruct (C123_jacobian R Rnum autodiff_multi (formulas es) (length es) p) as (_ & G & _).
  specialize (G (fun col => map deriv (formulas es _ dual_num (dual_seed col p)))). destruct G as (J & A & B & C & D).
  - destruct es; [congruence|cbn; lia].
  - intros n L. unfold autodiff_multi, d_column, autodiff_column. destruct (Nat.leb_spec (length p) n); [lia|]. split; [reflexivity|].
    unfold formulas. rewrite !map_length. reflexivity.
  - exists J. split; [exact A|]. split; [exact B|]. split; [exact C|]. intros row col e E L.
    assert (R0 : (row < length es)%nat) by (apply nth_error_Some; congruence).
    rewrite D by auto. unfold formulas. rewrite map_map.
    rewrite (nth_indep (map _ es) zero (deriv (formula e _ dual_num (dual_seed col p)))) by (rewrite map_length; auto).
    rewrite (map_nth (fun e => deriv (formula e _ dual_num (dual_seed col p)))). rewrite (nth_error_nth es row e E).
    apply first_partial; auto. apply S. apply (nth_error_In es row). exact E.
Qed.
(** With finite differences every entry is the partial derivative of its function somewhere within one step of the point. *)
Theorem C123_jacobian_difference (c : FiniteDifferenceConfig R) (func : VectorFn) rows p :
  0 < step_size c -> 0 < step_size_multiplier c -> (0 < rows)%nat -> (forall q, length q = length p -> length (func R Rnum q) = rows) ->
  let f row := component func row R Rnum in
  (forall row col q, (row < rows)%nat -> (col < length p)%nat -> in_box p (step_size c) q -> has_partial col (f row) q) ->
  exists J, jacobian (finite_difference_multi c) func rows p = Ok J /\ jacobian_on_heap (finite_difference_multi c) func rows p = Ok J /\
    shape rows (length p) J /\
    forall row col, (row < rows)%nat -> (col < length p)%nat -> exists q, in_box p (step_size c) q /\ mget J row col = partial_of col (f row) q.
Proof.
  intros HS HM HR HL f D. set (lo := lower_of (method c)). set (up := upper_of (method c)). set (h := step_size c).
  set (cols := fun col => from_fn rows (fun row => (f row (shift p col (up * h)) - f row (shift p col (lo * h))) / ((up - lo) * h))).
  destruct (C123_jacobian R Rnum (finite_difference_multi c) func rows p) as (_ & G & _).
  specialize (G cols HR). destruct G as (J & A & B & C & E).
  - intros n L. unfold finite_difference_multi, d_column, fd_column. rewrite check_step_R by auto. destruct (Nat.leb_spec (length p) n); [lia|].
    rewrite offsets_R. unfold cols. split; [|apply from_fn_length]. apply f_equal. fold lo up h. rnum.
    rewrite HL by (rewrite shift_moved; apply moved_length). reflexivity.
  - exists J. split; [exact A|]. split; [exact B|]. split; [exact C|]. intros row col X Y. rewrite E by auto. unfold cols. rewrite nth_from_fn by auto.
    destruct (C122_partials c (component func row) [col] p HS HM ltac:(discriminate)) as (q & Q & V).
    + intros i [<-|[]]. exact Y.
    + intros q Q front i back EQ. destruct front as [|a front]; [|destruct front; discriminate]. injection EQ. intros <- <-.
      cbn [partials]. apply D; auto. cbn [length reach] in Q. rewrite Rplus_0_r in Q. exact Q.
    + exists q. cbn [length reach] in Q. rewrite Rplus_0_r in Q. split; [exact Q|]. cbn [partials] in V.
      unfold fd_differentiate in V. rewrite check_step_R in V by auto. cbn [Model.Derivative.in_range forallb] in V.
      destruct (Nat.ltb_spec col (length p)); [|lia]. cbn [andb negb rev app fd_diff_multi] in V. rewrite offsets_R in V. fold lo up h in V.
      injection V. intros V'. unfold f. rewrite <- V'. rnum. reflexivity.
Qed.

(** Any derivator and any scalar whose NaN is NaN: the hessian is symmetric, each computed pair holds the second partial derivative
    (the lower index first), and it fails exactly when one that was asked for fails. *)
Theorem C123_hessian T (NT : Num T) (d : Derivator T) (func : ScalarFnN) (p : list T) : is_nan (nan : T) = true ->
  let n := length p in let D i j := second_partial_derivative d func i j p in
  match hessian d func p with
  | Ok H => shape n n H /\ (forall i j, (i < n)%nat -> (j < n)%nat -> mget H i j = mget H j i) /\
      forall i j, (i <= j < n)%nat -> exists v, D i j = Ok v /\ (is_nan v = false -> mget H i j = v)
  | other => exists i j, (i < n)%nat /\ (j < n)%nat /\ (i <= j \/ exists v, D j i = Ok v /\ is_nan v = true)%nat /\
      match other, D i j with Err e, Err e' => e = e' | Panic, Panic => True | _, _ => False end
  end.
Proof.
  intros NN n D. pose proof (hessian_inv d func p NN) as I. fold n in I. change (fun i j : nat => second_partial_derivative d func i j p) with D in I.
  destruct (hessian d func p) as [H|e|].
  - destruct I as (S & Y & E). split; [exact S|]. split; [exact Y|]. intros i j [L J]. specialize (E i j L J).
    assert (V : visited n 0 i j = true) by (unfold visited; destruct (Nat.ltb_spec i n); auto; lia). rewrite V in E. exact E.
  - destruct I as (i & j & A & B & C & K). exists i, j. split; [exact A|]. split; [exact B|]. split; [exact K|]. rewrite C. reflexivity.
  - destruct I as (i & j & A & B & C & K). exists i, j. split; [exact A|]. split; [exact B|]. split; [exact K|]. rewrite C. exact Logic.I.
Qed.
Theorem C123_hessian_ok T (NT : Num T) (d : Derivator T) (func : ScalarFnN) (p : list T) (v : nat -> nat -> T) : is_nan (nan : T) = true ->
  let n := length p in
  (forall i j, (i <= j < n)%nat -> second_partial_derivative d func i j p = Ok (v i j) /\ is_nan (v i j) = false) ->
  exists H, hessian d func p = Ok H /\ shape n n H /\
    forall i j, (i < n)%nat -> (j < n)%nat -> mget H i j = v (Nat.min i j) (Nat.max i j).
Proof.
  intros NN n V. pose proof (C123_hessian T NT d func p NN) as I. cbv zeta in I. fold n in I. destruct (hessian d func p) as [H|e|].
  - exists H. split; [reflexivity|]. destruct I as (S & Y & E). split; [exact S|]. intros i j A B.
    assert (G : forall i j, (i <= j < n)%nat -> mget H i j = v i j).
    { intros a b L. destruct (E a b L) as (w & W & X). destruct (V a b L) as [P Q]. rewrite P in W. injection W. intros <-. auto. }
    destruct (Nat.le_gt_cases i j) as [L|L].
    + rewrite Nat.min_l, Nat.max_r by lia. apply G. lia.
    + rewrite Nat.min_r, Nat.max_l by lia. rewrite Y by auto. apply G. lia.
  - exfalso. destruct I as (i & j & A & B & C & K). destruct C as [C|(w & W & X)].
    + destruct (V i j) as [P Q]; [lia|]. rewrite P in K. exact K.
    + destruct (Nat.le_gt_cases i j) as [L|L].
      * destruct (V i j) as [P Q]; [lia|]. rewrite P in K. exact K.
      * destruct (V j i) as [P Q]; [lia|]. rewrite P in W. injection W. intros <-. congruence.
  - exfalso. destruct I as (i & j & A & B & C & K). destruct C as [C|(w & W & X)].
    + destruct (V i j) as [P Q]; [lia|]. rewrite P in K. exact K.
    + destruct (Nat.le_gt_cases i j) as [L|L].
      * destruct (V i j) as [P Q]; [lia|]. rewrite P in K. exact K.
      * destruct (V j i) as [P Q]; [lia|]. rewrite P in W. injection W. intros <-. congruence.
Qed.

(** ** Cases *)
Definition sample_formula : expr := EBin BAdd (EBin BMul (EVar 0) (EVar 1)) (EUn USin (EVar 0)).
Example C120_example : smooth_at1 (EUn ULog (EVar 0)) 2 /\ autodiff_single 3 (formula1 (EUn ULog (EVar 0))) 2 = Ok (Derive_n (formula1 (EUn ULog (EVar 0)) R Rnum) 3 2).
Proof.
  assert (S : smooth_at1 (EUn ULog (EVar 0)) 2) by (cbn; lra). split; [exact S|]. apply (C120_exact _ 2 3 S). lia.
Qed.
Example C121_example : smooth_at sample_formula [1; 2] /\ exists v, second_partial_derivative autodiff_multi (formula sample_formula) 0 1 [1; 2] = Ok v /\
  is_derive (slice (partial_of 0 (formula sample_formula R Rnum)) [1; 2] 1) 2 v.
Proof.
  assert (S : smooth_at sample_formula [1; 2]) by (cbn; auto). split; [exact S|].
  destruct (C121_second sample_formula [1; 2] 0 1 S) as (v & A & _ & B & _); [cbn; lia|cbn; lia|]. exists v. split; [exact A|]. exact B.
Qed.
Definition square_fn : ScalarFn := fun S NS x => mul x x.
Example C122_example : finite_difference_single (mkFD 1 Central 10) 1 square_fn 3 = Ok (Derive_n (square_fn R Rnum) 1 3).
Proof.
  assert (D1 : forall y, is_derive (square_fn R Rnum) y (2 * y)).
  { intros y. unfold square_fn. rnum. apply (is_derive_eq _ _ (1 * y + y * 1)); [|ring]. apply (is_derive_prod (fun x => x) (fun x => x)); apply is_derive_var. }
  assert (E1 : Derive_n (square_fn R Rnum) 1 3 = 2 * 3) by (apply (is_derive_unique (square_fn R Rnum) 3); apply D1). rewrite E1.
  unfold finite_difference_single. rewrite check_step_R by (cbn; lra). apply f_equal. cbn [fd_diff offsets method step_size]. unfold square_fn. rnum. field.
Qed.
Example C123_example lm lm32 : @is_nan _ (f64num lm) (@nan f64 (f64num lm)) = true /\ @is_nan _ (f32num lm32) (@nan f32 (f32num lm32)) = true /\ @is_nan _ Xnum (@nan XR Xnum) = true.
Proof. repeat split; reflexivity. Qed.
Example C123_example_jacobian : exists J, jacobian autodiff_multi (formulas [sample_formula; EUn USin (EVar 1)]) 2 [1; 2] = Ok J /\
  is_derive (slice (formula sample_formula R Rnum) [1; 2] 1) 2 (mget J 0 1).
Proof.
  destruct (C123_jacobian_exact [sample_formula; EUn USin (EVar 1)] [1; 2]) as (J & A & _ & _ & D).
  - discriminate.
  - intros e [<-|[<-|[]]]; cbn; auto.
  - exists J. split; [exact A|]. apply (D 0%nat 1%nat sample_formula); [reflexivity|cbn; lia].
Qed.
Example C123_example_hessian : exists H, hessian (NT := Xnum) autodiff_multi (formula (EBin BMul (EVar 0) (EVar 1))) [Fin 1; Fin 2] = Ok H /\ mget (NT := Xnum) H 1 0 = mget (NT := Xnum) H 0 1.
Proof.
  set (v := fun i j => eps1eps2 (formula (EBin BMul (EVar 0) (EVar 1)) _ (@hyper_num XR Xnum) (hyper_seed i j [Fin 1; Fin 2]))).
  destruct (C123_hessian_ok XR Xnum autodiff_multi (formula (EBin BMul (EVar 0) (EVar 1))) [Fin 1; Fin 2] v eq_refl) as (H & E & S & G).
  - intros i j L. cbn [length] in L. assert (C : (i = 0 /\ j = 0 \/ i = 0 /\ j = 1 \/ i = 1 /\ j = 1)%nat) by lia.
    destruct C as [[-> ->]|[[-> ->]|[-> ->]]]; split; reflexivity.
  - exists H. split; [exact E|]. rewrite !G by (cbn; lia). reflexivity.
Qed.

Print Assumptions C120_exact.
Print Assumptions C120_shorthand.
Print Assumptions C120_refused.
Print Assumptions C121_first.
Print Assumptions C121_second.
Print Assumptions C121_direction.
Print Assumptions C121_refused.
Print Assumptions C122_mean.
Print Assumptions C122_one_sided.
Print Assumptions C122_central.
Print Assumptions C122_partials.
Print Assumptions C122_refused.
Print Assumptions C123_jacobian.
Print Assumptions C123_jacobian_exact.
Print Assumptions C123_jacobian_difference.
Print Assumptions C123_hessian.
Print Assumptions C123_hessian_ok.
