(** C148: the inverses of the Jacobian, its smallest singular value, and the step of inverse kinematics. *)
From Coq Require Import ZArith List Bool Arith Reals Lra Lia Psatz Classical.
From Verif Require Import Base.Scalar Base.RNum Base.Lists Base.Series Model.Errors Model.Vector Model.Matrix Model.Lu Model.Svd Model.Quaternion Model.Lie Model.Drive Model.KinematicTree Model.InverseKinematics
  Spec.Space Spec.Matrix Spec.Svd Spec.KinematicTree Spec.InverseKinematics Proofs.Vector Proofs.Matrix Proofs.Expm Proofs.Qr Proofs.Svd Proofs.Pinv Proofs.Algebra Proofs.Kalman Proofs.NearOrthogonal Proofs.KinematicTree Proofs.KinematicJacobian Proofs.KinematicVelocity Proofs.InverseKinematics
  Props.Svd Props.KinematicTree.
Import ListNotations.
Local Open Scope R_scope.
Local Notation length := List.length.

(** ** Algebra *)
Lemma dot_lin n c x y z : dot_product n (fun i => x i + c * y i) z = dot_product n x z + c * dot_product n y z.
Proof. unfold dot_product. rewrite <- bsum_scal, <- bsum_plus. apply bsum_ext. intros; ring. Qed.
Lemma times_minus n a x y i : times n a (fun k => x k - y k) i = times n a x i - times n a y i.
Proof. unfold times. rewrite <- bsum_minus. apply bsum_ext. intros; ring. Qed.
Lemma square_sum n x y : square_norm n (fun i => x i + y i) = square_norm n x + 2 * dot_product n x y + square_norm n y.
Proof. apply dot_plus. Qed.
Lemma weighted_sum n w x y : weighted n w (fun i => x i + y i) = weighted n w x + 2 * bsum n (fun k => w k * x k * y k) + weighted n w y.
Proof. unfold weighted. rewrite <- bsum_scal, <- !bsum_plus. apply bsum_ext. intros; ring. Qed.
Lemma weighted_ext n w x y : equal_vectors n x y -> weighted n w x = weighted n w y.
Proof. intros H. unfold weighted. apply bsum_ext. intros k K. rewrite H by auto. reflexivity. Qed.
Lemma weighted_nonneg n w x : (forall k, (k < n)%nat -> 0 < w k) -> 0 <= weighted n w x.
Proof. intros W. apply bsum_nonneg. intros k K. apply Rmult_le_pos; [left; apply W, K|apply Rle_0_sqr]. Qed.
Section Least.
  Variables (rows n : nat) (J : matrix) (w : vector).
  Hypothesis W : forall k, (k < n)%nat -> 0 < w k.
  (** What a step [x] off the wish [b], made by a push [z], is when the error it leaves is the push scaled by the damping. *)
  Lemma pushed_least damping e b x z : 0 <= damping -> (forall k, (k < n)%nat -> x k - b k = times rows (transposed J) z k / w k) ->
    (forall i, (i < rows)%nat -> times n J x i + damping * z i = e i) -> damped_least_squares rows n J w damping e b x.
  Proof.
    intros D X E.
    assert (H : forall y, bsum n (fun k => w k * (x k - b k) * (y k - x k)) = dot_product rows z (times n J (fun k => y k - x k))).
    { intros y. rewrite (bsum_ext n _ (fun k => times rows (transposed J) z k * (y k - x k))).
      - change (dot_product n (times rows (transposed J) z) (fun k => y k - x k) = dot_product rows z (times n J (fun k => y k - x k))). rewrite dot_transposed. reflexivity.
      - intros k K. rewrite X by auto. field. apply Rgt_not_eq, W, K. }
    assert (SE : forall y, squared_error rows n J e y = square_norm rows (fun i => (times n J x i - e i) + times n J (fun k => y k - x k) i)).
    { intros y. apply square_norm_ext. intros i I. unfold times. rewrite (bsum_ext n (fun k => J i k * (y k - x k)) (fun k => J i k * y k - J i k * x k)) by (intros; ring). rewrite bsum_minus. ring. }
    assert (CR : forall v, dot_product rows (fun i => times n J x i - e i) v = - damping * dot_product rows z v).
    { intros v. unfold dot_product. rewrite <- bsum_scal. apply bsum_ext. intros i I. rewrite <- (E i I). ring. }
    assert (WE : forall y, weighted n w (fun k => y k - b k) = weighted n w (fun k => (x k - b k) + (y k - x k))) by (intros y; apply weighted_ext; intros k K; ring).
    split.
    - intros P y. rewrite (SE y), square_sum, (WE y), weighted_sum, CR, H. fold (squared_error rows n J e x). pose proof (square_norm_nonneg rows (times n J (fun k => y k - x k))). pose proof (weighted_nonneg n w (fun k => y k - x k) W). nra.
    - intros Z. assert (R0 : squared_error rows n J e x = 0). { unfold squared_error. rewrite (square_norm_ext rows _ (fun _ => 0)); [apply square_norm_0|]. intros i I. rewrite <- (E i I), Z. ring. }
      split; [exact R0|]. intros y Y. rewrite (WE y), weighted_sum, H.
      assert (JZ : equal_vectors rows (times n J (fun k => y k - x k)) (fun _ => 0)).
      { intros i I. pose proof (square_norm_zero rows _ Y i I) as Y1. pose proof (square_norm_zero rows _ R0 i I) as X1. cbv beta in Y1, X1. unfold times in *. rewrite (bsum_ext n _ (fun k => J i k * y k - J i k * x k)) by (intros; ring). rewrite bsum_minus. lra. }
      replace (dot_product rows z (times n J (fun k => y k - x k))) with 0; [pose proof (weighted_nonneg n w (fun k => y k - x k) W); lra|].
      unfold dot_product. rewrite (bsum_ext rows _ (fun _ => 0)); [rewrite bsum_0; reflexivity|]. intros i I. rewrite JZ by auto. ring.
  Qed.
  Lemma gram_times damping z i : (i < rows)%nat -> times rows (damped_gram n J w damping) z i = times n J (fun k => times rows (transposed J) z k / w k) i + damping * z i.
  Proof.
    intros I. unfold times at 1, damped_gram. rewrite (bsum_ext rows _ (fun r => bsum n (fun k => J i k * J r k / w k) * z r + (if Nat.eqb i r then damping else 0) * z r)) by (intros; ring). rewrite bsum_plus. f_equal.
    - rewrite (bsum_ext rows _ (fun r => bsum n (fun k => J i k * (J r k / w k * z r)))) by (intros; rewrite Rmult_comm, <- bsum_scal; apply bsum_ext; intros; unfold Rdiv; ring). rewrite bsum_swap. unfold times. apply bsum_ext. intros k K. rewrite bsum_scal. f_equal. unfold Rdiv. rewrite Rmult_comm, <- bsum_scal. apply bsum_ext. intros; unfold transposed; ring.
    - rewrite (bsum_ext rows _ (fun r => damping * (unit_matrix i r * z r))) by (intros r Hr; unfold unit_matrix; destruct (Nat.eqb i r); ring). rewrite bsum_scal. f_equal. apply (times_unit rows z i I).
  Qed.
End Least.

Lemma six_small : INR 6 * / 2 ^ 52 <= 1 / 8.
Proof. cbn [INR]. assert (0 < / 2 ^ 52 <= / 64). { split; [apply Rinv_0_lt_compat, pow_lt; lra|]. apply Rinv_le_contravar; [lra|]. replace 64 with (2 ^ 6) by lra. apply Rle_pow; [lra|lia]. } lra. Qed.

(** ** The code's matrices *)
Definition sound_jacobian (mc : nat) (j : jacobian R) : Prop := (kj_columns j <= mc)%nat /\ forall row c, (row < 6)%nat -> (kj_columns j <= c < mc)%nat -> mget (kj_entries j) row c = 0.
Definition positive_weights (n : nat) (weights : list R) : Prop := forall i, (i < n)%nat -> exists v, nth_error weights i = Some v /\ 0 < v.
Section Code.
  Variables (mc : nat) (j : jacobian R) (weights : list R).
  Let n := kj_columns j.
  Let J := mget (kj_entries j).
  Let w := fun k => nth k weights 0.
  Hypothesis SJ : sound_jacobian mc j.
  Hypothesis PW : positive_weights n weights.
  Lemma weight_pos k : (k < n)%nat -> 0 < w k.
  Proof. intros K. destruct (PW k K) as (v & E & P). unfold w. rewrite (nth_error_nth _ _ _ E). exact P. Qed.
  Lemma weights_checked : check_weights weights (seq 0 n) = Ok tt.
  Proof.
    destruct (check_weights_cases weights n 0) as [[_ H]|[(i & I & H) _]]; [exact H|]. exfalso. destruct (PW i ltac:(lia)) as (v & E & P). destruct H as [H|H]; [congruence|].
    rewrite (nth_error_nth _ _ _ E) in H. apply Rleb_true in H. rnum. lra.
  Qed.
  Definition weighted_back : mat R := mat_fn mc 6 (fun index row => if Nat.leb (kj_columns j) index then zero else match nth_error weights index with Some weight => div (mget (kj_entries j) row index) weight | None => zero end).
  Lemma weighted_ok : weighted_transpose mc j weights = Ok weighted_back.
  Proof. unfold weighted_transpose. fold n. rewrite weights_checked. reflexivity. Qed.
  Lemma back_entry k r : (k < mc)%nat -> (r < 6)%nat -> mget weighted_back k r = if Nat.ltb k n then J r k / w k else 0.
  Proof.
    intros K R6. unfold weighted_back. rewrite mget_mat_fn by auto. fold n. destruct (Nat.leb_spec n k), (Nat.ltb_spec k n); try lia; [reflexivity|]. destruct (PW k ltac:(lia)) as (v & E & _). rewrite E. unfold w. rewrite (nth_error_nth _ _ _ E). reflexivity.
  Qed.
  Lemma back_times z k : (k < mc)%nat -> times 6 (mget weighted_back) z k = if Nat.ltb k n then times 6 (transposed J) z k / w k else 0.
  Proof.
    intros K. unfold times. destruct (Nat.ltb k n) eqn:E.
    - unfold Rdiv. rewrite Rmult_comm, <- bsum_scal. apply bsum_ext. intros r R6. rewrite back_entry, E by auto. unfold transposed, Rdiv. ring.
    - rewrite (bsum_ext 6 _ (fun _ => 0)); [apply bsum_0|]. intros r R6. rewrite back_entry, E by auto. ring.
  Qed.
  Lemma narrowed (f : nat -> R) : (forall k, (n <= k < mc)%nat -> f k = 0) -> bsum mc f = bsum n f.
  Proof.
    intros Z. destruct SJ as [L _]. fold n in L. rewrite (bsum_parts f n mc L). rewrite (bsum_ext (mc - n) _ (fun _ => 0)) by (intros k K; apply Z; lia). rewrite bsum_0. ring.
  Qed.
  Lemma jacobian_times x i : (i < 6)%nat -> times mc J x i = times n J x i.
  Proof. intros I. unfold times. apply narrowed. intros k K. destruct SJ as [_ Z]. unfold J. rewrite Z by auto. ring. Qed.
  Lemma gram_code : mat_mul 6 mc 6 (kj_entries j) weighted_back = mat_fn 6 6 (damped_gram n J w 0).
  Proof.
    apply (mat_ext 6 6); [apply shape_mat_fn|apply shape_mat_fn|]. intros i r I R6. rewrite mget_mul, mget_mat_fn by auto. unfold product, damped_gram.
    replace (if Nat.eqb i r then 0 else 0) with 0 by (destruct (Nat.eqb i r); reflexivity). rewrite Rplus_0_r. rewrite narrowed.
    - apply bsum_ext. intros k K. rewrite back_entry by (destruct SJ; unfold n in *; lia). rewrite (proj2 (Nat.ltb_lt _ _) K). unfold J, Rdiv. ring.
    - intros k K. rewrite back_entry by lia. rewrite (proj2 (Nat.ltb_ge _ _)) by lia. ring.
  Qed.
  Lemma damped_code damping : mat_add (mat_mul 6 mc 6 (kj_entries j) weighted_back) (mat_scale 6 6 (identity 6) damping) = mat_fn 6 6 (damped_gram n J w damping).
  Proof.
    rewrite gram_code. apply (mat_ext 6 6); [apply shape_map2; apply shape_mat_fn|apply shape_mat_fn|]. intros i r I R6. unfold mat_add. rewrite (mget_map2 add 6 6) by (auto; apply shape_mat_fn). rewrite !mget_mat_fn by auto. rewrite (mget_scale 6 6 (identity 6) damping i r I R6).
    unfold scaled_matrix. rewrite mget_identity by auto. unfold damped_gram. rnum. destruct (Nat.eqb i r); ring.
  Qed.

  (** A push found by the library's solve *)
  Let slack := (12 * / 2 ^ 52) ^ 2.
  Lemma solved_push damping d b : svd_of 6 6 (mat_fn 6 6 (damped_gram n J w damping)) = Ok d -> well_solved 6 (damped_gram n J w damping) -> length b = 6%nat ->
    let z := svd_solve 6 6 d b in length z = 6%nat /\ exists c, square_norm 6 (fun i => c i - vget b i) <= slack * square_norm 6 (vget b) /\ forall i, (i < 6)%nat -> times 6 (damped_gram n J w damping) (vget z) i = c i.
  Proof.
    intros E (d' & F & A) LB z. set (g := damped_gram n J w damping) in *. rewrite svd_ok in E by lia. rewrite F in E. cbn [fst] in E. injection E as <-.
    destruct (settled_solve 6 (mat_fn 6 6 g) d' ltac:(lia) six_small (shape_mat_fn 6 6 g) F A b LB) as [LZ S]. split; [exact LZ|]. exists (times 6 (mget (mat_fn 6 6 g)) (vget z)). split.
    - eapply Rle_trans; [exact S|]. unfold slack. cbn [INR]. right. ring.
    - intros i I. apply times_ext; [|intros k K; reflexivity]. intros k K. rewrite mget_mat_fn by auto. reflexivity.
  Qed.
End Code.

(** ** The step *)
Lemma square_minus n x y : square_norm n (fun i => x i - y i) <= 2 * (square_norm n x + square_norm n y).
Proof.
  assert (E : 2 * (square_norm n x + square_norm n y) - square_norm n (fun i => x i - y i) = square_norm n (fun i => x i + y i)).
  { unfold square_norm, dot_product. rewrite <- bsum_plus, <- bsum_scal, <- bsum_minus. apply bsum_ext. intros; ring. }
  pose proof (square_norm_nonneg n (fun i => x i + y i)). lra.
Qed.
Lemma smallest_nonneg (d : svd (T := R)) : 0 <= smallest_of d.
Proof. unfold smallest_of. rnum. apply R_sqrt.sqrt_pos. Qed.
(** What is added to the diagonal is not negative and at most the square of the setting; there is none at or above the threshold. *)
Lemma damping_range smallest threshold maximum : 0 <= smallest -> 0 <= damping_squared smallest threshold maximum <= maximum * maximum /\
  (threshold <= smallest -> damping_squared smallest threshold maximum = 0) /\ (smallest < threshold -> damping_squared smallest threshold maximum = maximum * maximum * (1 - (smallest / threshold) ^ 2)).
Proof.
  intros P. unfold damping_squared. rnum. destruct (Rleb threshold smallest) eqn:E; rcases.
  - split; [nra|]. split; [reflexivity|lra].
  - assert (Q : 0 <= smallest / threshold <= 1). { assert (T0 : 0 < threshold) by lra. split; [apply Rmult_le_pos; [lra|left; apply Rinv_0_lt_compat; lra]|]. apply Rmult_le_reg_r with threshold; [lra|]. unfold Rdiv. rewrite Rmult_assoc, Rinv_l; lra. }
    split; [|split; [lra|intros _; ring]]. set (q := smallest / threshold) in *. assert (0 <= maximum * maximum) by nra. assert (0 <= 1 - q * q <= 1) by nra. nra.
Qed.

(** ** Singular values of the matrix decomposed *)
Section Values.
  Variables (n : nat) (J : matrix) (w : vector) (damping : R).
  Hypothesis W : forall k, (k < n)%nat -> 0 < w k.
  Hypothesis D : 0 <= damping.
  Let G := damped_gram n J w damping.
  Variables (A : matrix) (d : svd (T := R)) (rest : Prop).
  Hypothesis AG : forall i k, (i < 6)%nat -> (k < 6)%nat -> A i k = G i k.
  Hypothesis decomposed : triple 6 6 A rest epsilon (svd_left d) (singular_values d) (svd_right d) /\ ordered 6 6 (singular_values d).
  Let sigma k := nth k (singular_values d) 0.
  Let V := mget (svd_right d).
  Let U := mget (svd_left d).
  Lemma A_times x : equal_vectors 6 (times 6 A x) (times 6 G x).
  Proof. intros i I. apply times_ext; [|intros k K; reflexivity]. intros k K. apply AG; auto. Qed.
  Let pull x k := times 6 (transposed J) x k * / R_sqrt.sqrt (w k).
  Lemma pull_form x y : dot_product 6 x (times 6 G y) = dot_product n (pull x) (pull y) + damping * dot_product 6 x y.
  Proof.
    unfold dot_product at 1. rewrite (bsum_ext 6 _ (fun i => x i * times n J (fun k => times 6 (transposed J) y k / w k) i + damping * (x i * y i))) by (intros i I; unfold G; rewrite (gram_times 6 n J w damping y i I); ring).
    rewrite bsum_plus, bsum_scal. f_equal. change (dot_product 6 x (times n J (fun k => times 6 (transposed J) y k / w k)) = dot_product n (pull x) (pull y)).
    rewrite dot_comm, dot_transposed, dot_comm. unfold dot_product. apply bsum_ext. intros k K. unfold pull. pose proof (W k K) as WK. rewrite <- (R_sqrt.sqrt_sqrt (w k)) at 1 by lra. unfold Rdiv. rewrite Rinv_mult. ring.
  Qed.
  Lemma pull_felt y : square_norm n (pull y) = felt n J w y.
  Proof. unfold square_norm, dot_product, felt. apply bsum_ext. intros k K. unfold pull. pose proof (W k K) as WK. rewrite <- (R_sqrt.sqrt_sqrt (w k)) at 3 by lra. unfold Rdiv. rewrite Rinv_mult. ring. Qed.
  Lemma felt_nonneg y : 0 <= felt n J w y.
  Proof. rewrite <- pull_felt. apply square_norm_nonneg. Qed.
  Lemma own_form y : dot_product 6 y (times 6 A y) = felt n J w y + damping * square_norm 6 y.
  Proof. rewrite <- pull_felt. unfold square_norm at 1. unfold square_norm. rewrite <- pull_form. unfold dot_product. apply bsum_ext. intros i I. rewrite A_times by auto. reflexivity. Qed.
  Lemma right_image k i : (k < 6)%nat -> (i < 6)%nat -> times 6 A (column V k) i = sigma k * U i k.
  Proof.
    intros K I. destruct decomposed as [(T1 & T2 & T3 & T4 & T5 & T6 & T7 & T8) _]. unfold times.
    rewrite (bsum_ext 6 _ (fun j => bsum 6 (fun l => U i l * sigma l * V j l * V j k))) by (intros j Hj; rewrite <- (T4 i j I Hj), Rmult_comm, <- bsum_scal; apply bsum_ext; intros; unfold column, U, V, sigma, vget; rnum; ring).
    rewrite bsum_swap. rewrite (bsum_ext 6 _ (fun l => unit_matrix k l * (sigma l * U i l))).
    - apply (times_unit 6 (fun l => sigma l * U i l) k K).
    - intros l L. rewrite (bsum_ext 6 _ (fun j => U i l * sigma l * (V j k * V j l))) by (intros; ring). rewrite bsum_scal. change (bsum 6 (fun j => V j k * V j l)) with (dot_product 6 (column V k) (column V l)). unfold V. rewrite T6 by auto. unfold unit_matrix. destruct (Nat.eqb k l); ring.
  Qed.
  Lemma right_unit k : (k < 6)%nat -> square_norm 6 (column V k) = 1.
  Proof. intros K. destruct decomposed as [(T1 & T2 & T3 & T4 & T5 & T6 & T7 & T8) _]. unfold square_norm, V. rewrite T6 by auto. rewrite Nat.eqb_refl. reflexivity. Qed.
  Lemma sigma_nonneg k : (k < 6)%nat -> 0 <= sigma k.
  Proof. intros K. destruct decomposed as [(T1 & T2 & T3 & T4 & T5 & T6 & T7 & T8) _]. apply T7. exact K. Qed.
  Lemma left_size k : (k < 6)%nat -> square_norm 6 (column U k) <= 1 /\ sigma k * sigma k = square_norm 6 (times 6 A (column V k)).
  Proof.
    intros K. destruct decomposed as [(T1 & T2 & T3 & T4 & T5 & T6 & T7 & T8) _]. destruct (T7 k K) as (P & Z & N).
    rewrite (square_norm_ext 6 (times 6 A (column V k)) (fun i => sigma k * column U k i)) by (intros i I; apply (right_image k i K I)).
    replace (square_norm 6 (fun i => sigma k * column U k i)) with (sigma k * sigma k * square_norm 6 (column U k)) by (unfold square_norm, dot_product; rewrite <- bsum_scal; apply bsum_ext; intros; ring).
    change (vget (singular_values d) k) with (sigma k) in *. destruct (Req_dec (sigma k) 0) as [E|NE].
    - specialize (Z E). rewrite (square_norm_ext 6 (column U k) (fun _ => 0)) by (intros i I; apply (Z i I)). rewrite square_norm_0, E. split; [lra|ring].
    - replace (square_norm 6 (column U k)) with 1 by (symmetry; apply N; lra). lra.
  Qed.
  Lemma last_value : felt n J w (column V 5) + damping <= sigma 5%nat.
  Proof.
    pose proof (own_form (column V 5)) as F. rewrite (right_unit 5) in F by lia. pose proof (cauchy_square 6 (column V 5) (times 6 A (column V 5))) as C. rewrite (right_unit 5), <- (proj2 (left_size 5 ltac:(lia))), F in C by lia.
    pose proof (felt_nonneg (column V 5)). pose proof (sigma_nonneg 5 ltac:(lia)). rewrite Rmult_1_r, Rmult_1_l in *. apply Rsqr_incr_0_var; [|auto]. unfold Rsqr. lra.
  Qed.
  Lemma first_value : sigma 0%nat <= R_sqrt.sqrt (squares_sum 6 G).
  Proof.
    pose proof (times_bound 6 G (column V 0)) as B. rewrite (right_unit 0) in B by lia. rewrite <- (square_norm_ext 6 _ _ (A_times (column V 0))), <- (proj2 (left_size 0 ltac:(lia))) in B.
    pose proof (sigma_nonneg 0 ltac:(lia)) as P. rewrite <- (R_sqrt.sqrt_square (sigma 0%nat)) by exact P. apply R_sqrt.sqrt_le_1_alt. lra.
  Qed.
  Lemma bounded_below : rest -> forall y, (1 - 6 * / 2 ^ 52) * sigma 5%nat * square_norm 6 y <= felt n J w y + damping * square_norm 6 y.
  Proof.
    intros S y. destruct decomposed as [(T1 & T2 & T3 & T4 & T5 & T6 & T7 & T8) O]. pose proof (sigma_nonneg 5 ltac:(lia)) as P5. pose proof (square_norm_nonneg 6 y) as PY. pose proof (felt_nonneg y) as PF.
    pose proof six_small as SM. cbn [INR] in SM. assert (EP : 0 < / 2 ^ 52) by (apply Rinv_0_lt_compat, pow_lt; lra).
    destruct (Req_dec (sigma 5%nat) 0) as [Z5|N5]; [rewrite Z5; nra|]. assert (Q5 : 0 < sigma 5%nat) by lra.
    assert (SG : forall k, (k < 6)%nat -> sigma 5%nat <= sigma k) by (intros k K; destruct (Nat.eq_dec k 5) as [->|NE]; [lra|]; apply O; lia).
    set (eta := 6 * / 2 ^ 52) in *. assert (ET : 0 < eta <= 1 / 8) by (unfold eta; lra).
    assert (LOW : forall x, (1 - eta) * (sigma 5%nat * sigma 5%nat) * square_norm 6 x <= square_norm 6 (times 6 A x)).
    { intros x. set (c k := sigma k * times 6 (transposed V) x k).
      assert (E1 : equal_vectors 6 (times 6 A x) (times 6 U c)).
      { intros i I. unfold times at 1. rewrite (bsum_ext 6 _ (fun j => bsum 6 (fun l => U i l * sigma l * (V j l * x j)))) by (intros j Hj; rewrite <- (T4 i j I Hj), Rmult_comm, <- bsum_scal; apply bsum_ext; intros; unfold U, V, sigma, vget; rnum; ring). rewrite bsum_swap. unfold times. apply bsum_ext. intros l L. rewrite bsum_scal. unfold c, times, transposed. ring. }
      rewrite (square_norm_ext 6 _ _ E1). assert (IS : (1 - INR 6 * / 2 ^ 52) * square_norm 6 c <= square_norm 6 (times 6 U c)).
      { apply (image_size 6 U (/ 2 ^ 52)).
        - intros p Hp. apply T7; [exact Hp|]. change (vget (singular_values d) p) with (sigma p). specialize (SG p Hp). lra.
        - intros p q Hp Hq NE. rewrite <- eps_value. apply T8; auto.
        - split; [lra|exact six_small]. }
      cbn [INR] in IS. assert (CN : sigma 5%nat * sigma 5%nat * square_norm 6 x <= square_norm 6 c).
      { assert (VX : square_norm 6 x = square_norm 6 (times 6 (transposed V) x)).
        { unfold square_norm at 2. rewrite dot_transposed. unfold square_norm, dot_product. apply bsum_ext. intros i I. f_equal. rewrite <- times_product. rewrite <- (times_unit 6 x i I). apply times_ext; [|intros k K; reflexivity]. intros k K. unfold product, transposed. unfold V. symmetry. exact (T5 i k I K). }
        rewrite VX. unfold square_norm, dot_product. rewrite <- bsum_scal. apply bsum_le. intros k K. unfold c. specialize (SG k K). set (t := times 6 (transposed V) x k). assert (0 <= t * t) by nra. assert (sigma 5%nat * sigma 5%nat <= sigma k * sigma k) by nra. nra. }
      pose proof (square_norm_nonneg 6 x). unfold eta in *. nra. }
    assert (REG : ~ singular 6 A). { apply singular_zero. intros x Z. specialize (LOW x). rewrite (square_norm_ext 6 _ _ Z), square_norm_0 in LOW. pose proof (square_norm_nonneg 6 x). assert (0 < (1 - eta) * (sigma 5%nat * sigma 5%nat)) by (apply Rmult_lt_0_compat; nra). nra. }
    destruct (regular_reaches 6 A y REG) as (x & X). specialize (LOW x). rewrite (square_norm_ext 6 _ _ X) in LOW.
    (* the form of the pair is at most the product of their own *)
    assert (CS : (square_norm 6 y * square_norm 6 y) <= dot_product 6 x y * (felt n J w y + damping * square_norm 6 y)).
    { assert (XX : dot_product 6 x y = square_norm n (pull x) + damping * square_norm 6 x).
      { unfold square_norm. rewrite <- pull_form. unfold dot_product. apply bsum_ext. intros i I. rewrite <- A_times, X by auto. reflexivity. }
      assert (XY : square_norm 6 y = dot_product n (pull x) (pull y) + damping * dot_product 6 x y).
      { unfold square_norm. transitivity (dot_product 6 y (times 6 G x)); [unfold dot_product; apply bsum_ext; intros i I; rewrite <- A_times, X by auto; reflexivity|]. rewrite pull_form. rewrite (dot_comm n), (dot_comm 6 y x). reflexivity. }
      rewrite <- pull_felt. rewrite XX at 1. pose proof (cauchy_square n (pull x) (pull y)) as C1. pose proof (cauchy_square 6 x y) as C2. pose proof (square_norm_nonneg n (pull x)) as Q1. pose proof (square_norm_nonneg n (pull y)) as Q2. pose proof (square_norm_nonneg 6 x) as Q3.
      rewrite XY at 1. rewrite XY at 1.
      set (a := dot_product n (pull x) (pull y)) in *. set (b := dot_product 6 x y) in *. set (p := square_norm n (pull x)) in *. set (q := square_norm n (pull y)) in *. set (r := square_norm 6 x) in *. set (t := square_norm 6 y) in *.
      (* (a + l b)^2 <= (p + l r) (q + l t) *)
      assert (M : 2 * (a * b) <= p * t + r * q).
      { assert (AB : (a * b) * (a * b) <= (p * t) * (r * q)) by (replace (a * b * (a * b)) with (a * a * (b * b)) by ring; replace (p * t * (r * q)) with (p * q * (r * t)) by ring; apply Rmult_le_compat; nra).
        assert (0 <= p * t) by nra. assert (0 <= r * q) by nra. set (u := p * t) in *. set (v := r * q) in *. set (m := a * b) in *. destruct (Rle_dec m 0); [lra|]. apply Rnot_lt_le. intros L. assert (0 < (2 * m - (u + v)) * (2 * m + (u + v))) by (apply Rmult_lt_0_compat; lra). pose proof (Rle_0_sqr (u - v)) as UV. unfold Rsqr in UV. lra. }
      nra. }
    (* the pair's own product is at most its length times that of the image *)
    pose proof (cauchy_square 6 x y) as C3. set (t := square_norm 6 y) in *. set (r := square_norm 6 x) in *. set (b := dot_product 6 x y) in *. set (f := felt n J w y + damping * t) in *. assert (F0 : 0 <= f) by (unfold f; nra). assert (R0 : 0 <= r) by (apply square_norm_nonneg).
    destruct (Req_dec t 0) as [T0|TN]; [rewrite T0; unfold f in *; nra|]. assert (TP : 0 < t) by lra.
    assert (BP : 0 < b) by (destruct (Rle_dec b 0); [exfalso; assert (b * f <= 0) by nra; nra|lra]).
    (* b^2 <= r t and (1 - eta) s^2 r <= t give b <= t / (sqrt (1 - eta) s) *)
    assert (BB : (1 - eta) * (sigma 5%nat * sigma 5%nat) * (b * b) <= t * t).
    { apply Rle_trans with ((1 - eta) * (sigma 5%nat * sigma 5%nat) * (r * t)). 2:{ replace ((1 - eta) * (sigma 5%nat * sigma 5%nat) * (r * t)) with ((1 - eta) * (sigma 5%nat * sigma 5%nat) * r * t) by ring. apply Rmult_le_compat_r; lra. }
      apply Rmult_le_compat_l; [apply Rmult_le_pos; nra|exact C3]. }
    assert (BT : (1 - eta) * sigma 5%nat * b <= t).
    { apply Rsqr_incr_0_var; [|lra]. unfold Rsqr. apply Rle_trans with ((1 - eta) * (sigma 5%nat * sigma 5%nat) * (b * b)); [|exact BB]. assert (0 <= sigma 5%nat * sigma 5%nat * (b * b)) by (apply Rmult_le_pos; nra). replace ((1 - eta) * sigma 5%nat * b * ((1 - eta) * sigma 5%nat * b)) with ((1 - eta) * (1 - eta) * (sigma 5%nat * sigma 5%nat * (b * b))) by ring. replace ((1 - eta) * (sigma 5%nat * sigma 5%nat) * (b * b)) with ((1 - eta) * (sigma 5%nat * sigma 5%nat * (b * b))) by ring. nra. }
    apply Rmult_le_reg_l with b; [exact BP|]. apply Rle_trans with (t * t); [|exact CS]. replace (b * ((1 - eta) * sigma 5%nat * t)) with ((1 - eta) * sigma 5%nat * b * t) by ring. apply Rmult_le_compat_r; lra.
  Qed.
End Values.
Lemma decomposition n J w damping : let g := damped_gram n J w damping in let d := fst (svd_found 6 6 (mat_fn 6 6 g)) in
  (forall i k, (i < 6)%nat -> (k < 6)%nat -> mget (mat_fn 6 6 g) i k = g i k) /\ triple 6 6 (mget (mat_fn 6 6 g)) (settles 6 g) epsilon (svd_left d) (singular_values d) (svd_right d) /\ ordered 6 6 (singular_values d).
Proof.
  intros g d. split; [intros; apply mget_mat_fn; auto|]. destruct (svd_facts 6 6 (mat_fn 6 6 g) (le_n 6) (shape_mat_fn 6 6 g)) as (d' & st & E & _ & (T1 & T2 & T3 & T4 & T5 & T6 & T7 & T8) & O & _). unfold d. rewrite E. cbn [fst]. split; [|exact O].
  do 7 (split; [assumption|]). intros (d2 & E2). apply T8. rewrite E in E2. injection E2 as _ E2. exact E2.
Qed.

(** The smallest value found is the least length a push is felt with. *)
Lemma least_value n J w : (forall k, (k < n)%nat -> 0 < w k) -> settles 6 (damped_gram n J w 0) -> least_felt n J w (smallest_of (fst (svd_found 6 6 (mat_fn 6 6 (damped_gram n J w 0))))).
Proof.
  intros W ST. destruct (decomposition n J w 0) as (AG & DEC). cbv zeta in AG, DEC. set (d := fst _) in *. pose proof (sigma_nonneg _ d _ DEC 5 ltac:(lia)) as P5.
  assert (SS : smallest_of d * smallest_of d = nth 5 (singular_values d) 0). { unfold smallest_of. rnum. change (vget (singular_values d) 5) with (nth 5 (singular_values d) 0). rewrite R_sqrt.sqrt_sqrt; [|apply Rle_trans with (2 := Rmax_r _ _); lra]. rewrite Rmax_left; [reflexivity|exact P5]. }
  split; [apply smallest_nonneg|]. rewrite SS. split.
  - exists (column (mget (svd_right d)) 5). split; [apply (right_unit _ d _ DEC); lia|]. pose proof (last_value n J w 0 W _ d _ AG DEC). lra.
  - intros y. pose proof (bounded_below n J w 0 W (Rle_refl 0) _ d _ AG DEC ST y). lra.
Qed.

(** The step of inverse kinematics is the damped least squares step towards an error that differs from the one measured by some parts in
    [2^52]: when the decomposition settles and its values are above the cut, the step is that step and no other. *)
Theorem C148_step mc j error bias weights threshold maximum step : sound_jacobian mc j -> positive_weights (kj_columns j) weights -> length bias = mc ->
  joint_step mc j error bias weights threshold maximum = Ok step ->
  let n := kj_columns j in let J := mget (kj_entries j) in let w k := nth k weights 0 in let e i := nth i (list6 error) 0 in let b k := nth k bias 0 in
  exists smallest damping, damping = damping_squared smallest threshold maximum /\ 0 <= smallest /\ 0 <= damping <= maximum * maximum /\ (threshold <= smallest -> damping = 0) /\
    (settles 6 (damped_gram n J w 0) -> least_felt n J w smallest) /\
    (well_solved 6 (damped_gram n J w damping) -> exists e', square_norm 6 (fun i => e' i - e i) <= 2 * (12 * / 2 ^ 52) ^ 2 * (square_norm 6 e + square_norm 6 (times n J b)) /\
       damped_least_squares 6 n J w damping e' b (fun k => nth k step 0)) /\
    forall k, (n <= k < mc)%nat -> nth k step 0 = b k.
Proof.
  intros SJ PW LB H n J w e b. unfold joint_step in H. rewrite (weighted_ok mc j weights PW) in H. cbn [bind] in H.
  rewrite svd_ok in H by lia. cbn [linalg bind] in H. set (sm := smallest_of _) in H. set (damping := damping_squared sm threshold maximum) in H.
  rewrite (damped_code mc j weights SJ PW damping) in H. fold n J w in H. rewrite svd_ok in H by lia. cbn [linalg bind] in H. set (d := fst _) in H.
  assert (ED : svd_of 6 6 (mat_fn 6 6 (damped_gram n J w damping)) = Ok d) by (apply svd_ok; lia).
  pose proof (smallest_nonneg (fst (svd_found 6 6 (mat_mul 6 mc 6 (kj_entries j) (weighted_back mc j weights))))) as SP. fold sm in SP.
  destruct (damping_range sm threshold maximum SP) as (DR & DT & _). fold damping in DR, DT. exists sm, damping. split; [reflexivity|]. split; [exact SP|]. split; [exact DR|]. split; [exact DT|].
  split; [intros ST; unfold sm; rewrite (gram_code mc j weights SJ PW); apply (least_value (kj_columns j) (mget (kj_entries j)) _ (weight_pos j weights PW) ST)|].
  injection H as <-. set (ze := svd_solve 6 6 d (list6 error)). set (zb := svd_solve 6 6 d (mat_vec 6 mc (kj_entries j) bias)).
  assert (L6 : length (list6 error) = 6%nat) by (destruct error as [[[? ?] ?] [[? ?] ?]]; reflexivity). assert (LJ : length (mat_vec 6 mc (kj_entries j) bias) = 6%nat) by (unfold mat_vec; apply from_fn_length).
  assert (LV : forall v, length (mat_vec (T := R) mc 6 (weighted_back mc j weights) v) = mc) by (intros; unfold mat_vec; apply from_fn_length).
  set (z := fun r => vget ze r - vget zb r).
  assert (ST : forall k, (k < mc)%nat -> nth k (vec_add (mat_vec mc 6 (weighted_back mc j weights) ze) (vec_sub bias (mat_vec mc 6 (weighted_back mc j weights) zb))) 0 = b k + times 6 (mget (weighted_back mc j weights)) z k).
  { intros k K. rewrite nth_add by (rewrite sub_length; rewrite ?LV; congruence). rewrite nth_sub by (rewrite LV; congruence). change (nth k (mat_vec mc 6 (weighted_back mc j weights) ze) 0) with (vget (mat_vec mc 6 (weighted_back mc j weights) ze) k). change (nth k (mat_vec mc 6 (weighted_back mc j weights) zb) 0) with (vget (mat_vec mc 6 (weighted_back mc j weights) zb) k).
    rewrite !vget_mat_vec by auto. unfold b, z, times. rewrite (bsum_ext 6 (fun k0 => mget (weighted_back mc j weights) k k0 * (vget ze k0 - vget zb k0)) (fun k0 => mget (weighted_back mc j weights) k k0 * vget ze k0 - mget (weighted_back mc j weights) k k0 * vget zb k0)) by (intros; ring). rewrite bsum_minus. ring. }
  split.
  - intros WS. destruct (solved_push j weights damping d (list6 error) ED WS L6) as (_ & c1 & B1 & C1). destruct (solved_push j weights damping d _ ED WS LJ) as (_ & c2 & B2 & C2). fold n J w ze zb in C1, C2.
    assert (JB : equal_vectors 6 (vget (mat_vec 6 mc (kj_entries j) bias)) (times n J b)) by (intros i I; rewrite vget_mat_vec by auto; rewrite (jacobian_times mc j SJ (vget bias) i I); reflexivity).
    exists (fun i => times n J b i + (c1 i - c2 i)). split.
    + rewrite (square_norm_ext 6 _ (fun i => (c1 i - e i) - (c2 i - times n J b i))) by (intros i I; ring). eapply Rle_trans; [apply square_minus|]. rewrite Rmult_assoc. apply Rmult_le_compat_l; [lra|]. rewrite Rmult_plus_distr_l. apply Rplus_le_compat; [exact B1|].
      rewrite (square_norm_ext 6 _ (fun i => c2 i - vget (mat_vec 6 mc (kj_entries j) bias) i)) by (intros i I; rewrite JB by auto; reflexivity). rewrite <- (square_norm_ext 6 _ _ JB). exact B2.
    + assert (NM : (n <= mc)%nat) by apply SJ.
      assert (XK : forall k, (k < n)%nat -> nth k (vec_add (mat_vec mc 6 (weighted_back mc j weights) ze) (vec_sub bias (mat_vec mc 6 (weighted_back mc j weights) zb))) 0 - b k = times 6 (transposed J) z k / w k).
      { intros k K. rewrite ST by lia. rewrite (back_times mc j weights PW z k ltac:(lia)). fold n J. rewrite (proj2 (Nat.ltb_lt _ _) K). unfold w. ring. }
      apply (pushed_least 6 n J w (weight_pos j weights PW) damping _ b _ z (proj1 DR) XK).
      intros i I. transitivity (times n J b i + times 6 (damped_gram n J w damping) z i).
      * rewrite (gram_times 6 n J w damping z i I). rewrite <- Rplus_assoc. f_equal. unfold times. rewrite <- bsum_plus. apply bsum_ext. intros k K. rewrite <- Rmult_plus_distr_l. f_equal. specialize (XK k K). unfold times in XK. lra.
      * f_equal. rewrite <- (C1 i I), <- (C2 i I). unfold times, z. rewrite <- bsum_minus. apply bsum_ext. intros; ring.
  - intros k K. rewrite ST by lia. rewrite (back_times mc j weights PW z k ltac:(lia)). fold n. rewrite (proj2 (Nat.ltb_ge _ _)) by lia. ring.
Qed.

(** ** The inverse and the projector *)
Lemma inverse_ok mc j weights damping p : sound_jacobian mc j -> positive_weights (kj_columns j) weights -> damped_pseudo_inverse mc j weights damping = Ok p ->
  let n := kj_columns j in let J := mget (kj_entries j) in let w k := nth k weights 0 in
  exists d, svd_of 6 6 (mat_fn 6 6 (damped_gram n J w (damping * damping))) = Ok d /\ p = mat_mul mc 6 6 (weighted_back mc j weights) (svd_pseudo_inverse 6 6 d).
Proof.
  intros SJ PW H n J w. unfold damped_pseudo_inverse in H. rewrite (weighted_ok mc j weights PW) in H. cbn [bind] in H. rewrite (damped_code mc j weights SJ PW) in H. fold n J w in H.
  assert (E : svd_of 6 6 (mat_fn 6 6 (damped_gram n J w (damping * damping))) = Ok (fst (svd_found 6 6 (mat_fn 6 6 (damped_gram n J w (damping * damping)))))) by (apply svd_ok; lia). set (d := fst _) in E.
  assert (M : mul damping damping = damping * damping) by reflexivity. rewrite M, E in H. cbn [linalg bind] in H. injection H as <-. exists d. auto.
Qed.
Lemma inverse_times mc j weights damping d e k : positive_weights (kj_columns j) weights -> svd_of 6 6 (mat_fn 6 6 (damped_gram (kj_columns j) (mget (kj_entries j)) (fun k => nth k weights 0) damping)) = Ok d -> length e = 6%nat -> (k < mc)%nat ->
  times 6 (mget (mat_mul mc 6 6 (weighted_back mc j weights) (svd_pseudo_inverse 6 6 d))) (vget e) k =
  if Nat.ltb k (kj_columns j) then times 6 (transposed (mget (kj_entries j))) (vget (svd_solve 6 6 d e)) k / nth k weights 0 else 0.
Proof.
  intros PW E LE K. rewrite <- (back_times mc j weights PW (vget (svd_solve 6 6 d e)) k K). transitivity (times 6 (product 6 (mget (weighted_back mc j weights)) (mget (svd_pseudo_inverse 6 6 d))) (vget e) k).
  - apply times_ext; [|intros i I; reflexivity]. intros i I. rewrite mget_mul by auto. reflexivity.
  - rewrite times_product. apply times_ext; [reflexivity|]. intros i I. symmetry. apply (solve_spec 6 6 _ d e i eq_refl LE I).
Qed.
(** The inverse takes every twist to the damped least squares rates of one that differs from it by some parts in [2^52]. *)
Theorem C148_inverse mc j weights damping p e : sound_jacobian mc j -> positive_weights (kj_columns j) weights -> damped_pseudo_inverse mc j weights damping = Ok p -> length e = 6%nat ->
  let n := kj_columns j in let J := mget (kj_entries j) in let w k := nth k weights 0 in let rates := times 6 (mget p) (fun i => nth i e 0) in
  (well_solved 6 (damped_gram n J w (damping * damping)) -> exists e', square_norm 6 (fun i => e' i - nth i e 0) <= (12 * / 2 ^ 52) ^ 2 * square_norm 6 (fun i => nth i e 0) /\
     damped_least_squares 6 n J w (damping * damping) e' (fun _ => 0) rates) /\
  forall k, (n <= k < mc)%nat -> rates k = 0.
Proof.
  intros SJ PW H LE n J w rates. destruct (inverse_ok mc j weights damping p SJ PW H) as (d & E & ->). fold n J w in E. assert (NM : (n <= mc)%nat) by apply SJ. set (z := vget (svd_solve 6 6 d e)).
  assert (RT : forall k, (k < mc)%nat -> rates k = if Nat.ltb k n then times 6 (transposed J) z k / w k else 0) by (intros k K; apply (inverse_times mc j weights _ d e k PW E LE K)).
  split.
  - intros WS. destruct (solved_push j weights _ d e E WS LE) as (_ & c & B & C). fold n J w in C. exists c. split; [exact B|]. 
    assert (XK : forall k, (k < n)%nat -> rates k - 0 = times 6 (transposed J) z k / w k) by (intros k K; rewrite RT by lia; rewrite (proj2 (Nat.ltb_lt _ _) K); ring).
    apply (pushed_least 6 n J w (weight_pos j weights PW) (damping * damping) c (fun _ => 0) rates z); [nra|exact XK|].
    intros i I. rewrite <- (C i I). fold z. rewrite (gram_times 6 n J w _ z i I). f_equal. apply times_ext; [reflexivity|]. intros k K. rewrite <- (XK k K). ring.
  - intros k K. rewrite RT by lia. rewrite (proj2 (Nat.ltb_ge _ _)) by lia. reflexivity.
Qed.
Lemma projector_ok mc j weights damping N b k : sound_jacobian mc j -> positive_weights (kj_columns j) weights -> null_space_projector mc j weights damping = Ok N -> length b = mc -> (k < mc)%nat ->
  exists p, damped_pseudo_inverse mc j weights damping = Ok p /\ times mc (mget N) (fun k => nth k b 0) k = nth k b 0 - times 6 (mget p) (fun i => nth i (mat_vec 6 mc (kj_entries j) b) 0) k.
Proof.
  intros SJ PW H LB K. unfold null_space_projector in H. destruct (damped_pseudo_inverse mc j weights damping) as [p| |]; try discriminate. cbn [bind] in H. injection H as <-. exists p. split; [reflexivity|].
  transitivity (times mc (minus_matrix unit_matrix (product 6 (mget p) (mget (kj_entries j)))) (fun k => nth k b 0) k).
  - apply times_ext; [|intros i I; reflexivity]. intros i I. rewrite (mget_sub mc mc) by (auto; first [apply shape_identity|apply shape_mat_fn]). unfold minus_matrix. f_equal; [rewrite mget_identity by auto; reflexivity|]. rewrite mget_mul by auto. reflexivity.
  - unfold times at 1, minus_matrix. rewrite (bsum_ext mc _ (fun l => unit_matrix k l * nth l b 0 - product 6 (mget p) (mget (kj_entries j)) k l * nth l b 0)) by (intros; ring). rewrite bsum_minus. f_equal.
    + apply (times_unit mc (fun k => nth k b 0) k K).
    + change (times mc (product 6 (mget p) (mget (kj_entries j))) (fun k => nth k b 0) k = times 6 (mget p) (fun i => nth i (mat_vec 6 mc (kj_entries j) b) 0) k). rewrite times_product. apply times_ext; [reflexivity|]. intros i I. symmetry. apply (vget_mat_vec 6 mc (kj_entries j) b i I).
Qed.
(** The projector takes every wish to the rates nearest it that are the damped least squares rates for no twist but for some parts in [2^52]; with no
    damping what is left of the wish hardly moves the tool. *)
Theorem C148_projector mc j weights damping N b : sound_jacobian mc j -> positive_weights (kj_columns j) weights -> null_space_projector mc j weights damping = Ok N -> length b = mc ->
  let n := kj_columns j in let J := mget (kj_entries j) in let w k := nth k weights 0 in let wish k := nth k b 0 in let rates := times mc (mget N) wish in
  (well_solved 6 (damped_gram n J w (damping * damping)) -> exists e', square_norm 6 e' <= (12 * / 2 ^ 52) ^ 2 * square_norm 6 (times n J wish) /\
     damped_least_squares 6 n J w (damping * damping) e' wish rates /\ (damping = 0 -> equal_vectors 6 (times n J rates) e')) /\
  forall k, (n <= k < mc)%nat -> rates k = wish k.
Proof.
  intros SJ PW H LB n J w wish rates. assert (NM : (n <= mc)%nat) by apply SJ. assert (EX : exists p, damped_pseudo_inverse mc j weights damping = Ok p).
  { unfold null_space_projector in H. destruct (damped_pseudo_inverse mc j weights damping) as [p| |]; try discriminate. eauto. }
  destruct EX as (p & HP). destruct (inverse_ok mc j weights damping p SJ PW HP) as (d & E & EP). fold n J w in E. set (moved := mat_vec 6 mc (kj_entries j) b). assert (LM : length moved = 6%nat) by (unfold moved, mat_vec; apply from_fn_length).
  set (z := vget (svd_solve 6 6 d moved)).
  assert (RT : forall k, (k < mc)%nat -> rates k = wish k - (if Nat.ltb k n then times 6 (transposed J) z k / w k else 0)).
  { intros k K. destruct (projector_ok mc j weights damping N b k SJ PW H LB K) as (p' & HP' & R). rewrite HP in HP'. injection HP' as <-. unfold rates, wish. rewrite R. f_equal. rewrite EP. apply (inverse_times mc j weights _ d moved k PW E LM K). }
  assert (MV : equal_vectors 6 (vget moved) (times n J wish)) by (intros i I; unfold moved; rewrite vget_mat_vec by auto; rewrite (jacobian_times mc j SJ (vget b) i I); reflexivity).
  split.
  - intros WS. destruct (solved_push j weights _ d moved E WS LM) as (_ & c & B & C). fold n J w z in C. exists (fun i => times n J wish i - c i).
    assert (XK : forall k, (k < n)%nat -> rates k - wish k = times 6 (transposed J) (fun i => - z i) k / w k).
    { intros k K. rewrite RT by lia. rewrite (proj2 (Nat.ltb_lt _ _) K). unfold times. rewrite (bsum_ext 6 (fun i => transposed J k i * - z i) (fun i => -1 * (transposed J k i * z i))) by (intros; ring). rewrite bsum_scal. unfold Rdiv. ring. }
    assert (JX : forall i, (i < 6)%nat -> times n J rates i + damping * damping * - z i = times n J wish i - c i).
    { intros i I. rewrite <- (C i I), (gram_times 6 n J w _ z i I). unfold times at 1. rewrite (bsum_ext n _ (fun k => J i k * wish k - J i k * (times 6 (transposed J) z k / w k))) by (intros k K; rewrite RT by lia; rewrite (proj2 (Nat.ltb_lt _ _) K); ring). rewrite bsum_minus. unfold times. ring. }
    split; [|split].
    + rewrite (square_norm_ext 6 (times n J wish) (vget moved)) by (intros i I; symmetry; apply MV, I). eapply Rle_trans; [|exact B]. right. unfold square_norm, dot_product. apply bsum_ext. intros i I. rewrite (MV i I). ring.
    + apply (pushed_least 6 n J w (weight_pos j weights PW) (damping * damping) _ wish rates (fun i => - z i)); [nra|exact XK|exact JX].
    + intros Z i I. rewrite <- (JX i I), Z. ring.
  - intros k K. rewrite RT by lia. rewrite (proj2 (Nat.ltb_ge _ _)) by lia. ring.
Qed.

(** When the decomposition is exact and without damping, all this holds to the letter for a Jacobian of any rank: the inverse gives the weighted
    shortest rates that bring the tool closest, and the projector's rates do not move the tool. *)
Theorem C148_exact mc j weights p : sound_jacobian mc j -> positive_weights (kj_columns j) weights -> damped_pseudo_inverse mc j weights 0 = Ok p ->
  let n := kj_columns j in let J := mget (kj_entries j) in let w k := nth k weights 0 in cleanly_solved 6 (damped_gram n J w 0) ->
  (forall e, length e = 6%nat -> weighted_least_squares 6 n J w (fun i => nth i e 0) (times 6 (mget p) (fun i => nth i e 0))) /\
  exists N, null_space_projector mc j weights 0 = Ok N /\ forall b, length b = mc -> equal_vectors 6 (times n J (times mc (mget N) (fun k => nth k b 0))) (fun _ => 0).
Proof.
  intros SJ PW H n J w (d & E & OR & CUT). assert (NM : (n <= mc)%nat) by apply SJ. destruct (inverse_ok mc j weights 0 p SJ PW H) as (d' & E' & EP). fold n J w in E'. rewrite Rmult_0_l in E'. fold n J w in E. rewrite E in E'. injection E' as <-.
  set (g := damped_gram n J w 0) in *. destruct (C85_exact 6 6 (mat_fn 6 6 g) d ltac:(lia) (shape_mat_fn 6 6 g) E OR CUT) as (q & Q & SQ & MP & SL).
  assert (Q0 : q = svd_pseudo_inverse 6 6 d) by (unfold pseudo_inverse in Q; cbn [Nat.leb] in Q; rewrite E in Q; injection Q as <-; reflexivity).
  set (P := mget q) in *. destruct MP as (M1 & M2 & M3 & M4).
  assert (AG : forall i k, (i < 6)%nat -> (k < 6)%nat -> mget (mat_fn 6 6 g) i k = g i k) by (intros; apply mget_mat_fn; auto).
  (* what is left of a twist after inverting and going forth does not act on the joints *)
  set (left_over := fun y i => y i - times 6 g (times 6 P y) i).
  assert (KILL : forall y k, (k < n)%nat -> times 6 (transposed J) (left_over y) k = 0).
  { intros y. set (v := left_over y). assert (GV : dot_product 6 v (times 6 g v) = 0).
    { assert (VG : forall x, dot_product 6 v (times 6 g x) = 0).
      { intros x. unfold v, left_over.
        assert (T : dot_product 6 (times 6 g (times 6 P y)) (times 6 g x) = dot_product 6 y (times 6 g x)).
        { transitivity (dot_product 6 (times 6 (product 6 (mget (mat_fn 6 6 g)) P) y) (times 6 g x)); [unfold dot_product; apply bsum_ext; intros i I; f_equal; rewrite times_product; apply times_ext; [intros k K; symmetry; apply AG; auto|intros k K; reflexivity]|].
          rewrite dot_transposed. unfold dot_product. apply bsum_ext. intros i I. f_equal.
          transitivity (times 6 (product 6 (mget (mat_fn 6 6 g)) P) (times 6 g x) i); [apply times_ext; [intros k K; unfold transposed; apply M3; auto|intros k K; reflexivity]|].
          transitivity (times 6 (product 6 (product 6 (mget (mat_fn 6 6 g)) P) (mget (mat_fn 6 6 g))) x i).
          - rewrite (times_product 6 6 (product 6 (mget (mat_fn 6 6 g)) P) (mget (mat_fn 6 6 g)) x i). apply times_ext; [reflexivity|]. intros k K. apply times_ext; [intros l L; symmetry; apply AG; auto|intros l L; reflexivity].
          - apply times_ext; [intros k K; rewrite M1 by auto; apply AG; auto|intros k K; reflexivity]. }
        unfold dot_product in *. rewrite (bsum_ext 6 _ (fun i => y i * times 6 g x i - times 6 g (times 6 P y) i * times 6 g x i)) by (intros; ring). rewrite bsum_minus. lra. }
      apply VG. }
    pose proof (pull_form n J w 0 (weight_pos j weights PW) v v) as PF. fold g in PF. rewrite GV, Rmult_0_l, Rplus_0_r in PF. intros k K. pose proof (square_norm_zero n _ (eq_sym PF) k K) as Z. cbv beta in Z.
    pose proof (weight_pos j weights PW k K) as WK. fold w in WK. apply Rmult_integral in Z. destruct Z as [Z|Z]; [exact Z|]. exfalso. revert Z. apply Rinv_neq_0_compat, Rgt_not_eq, R_sqrt.sqrt_lt_R0. exact WK. }
  assert (RT : forall e k, length e = 6%nat -> (k < n)%nat -> times 6 (mget p) (fun i => nth i e 0) k = times 6 (transposed J) (times 6 P (fun i => nth i e 0)) k / w k).
  { intros e k LE K. rewrite EP. pose proof (inverse_times mc j weights 0 d e k PW E LE ltac:(lia)) as T. fold n in T. rewrite (proj2 (Nat.ltb_lt _ _) K) in T. etransitivity; [exact T|]. unfold J, w, Rdiv. f_equal. apply times_ext; [reflexivity|]. intros i I. unfold P. rewrite Q0. apply (solve_spec 6 6 _ d e i eq_refl LE I). }
  assert (FWD : forall e i, length e = 6%nat -> (i < 6)%nat -> times n J (times 6 (mget p) (fun i => nth i e 0)) i = times 6 g (times 6 P (fun i => nth i e 0)) i).
  { intros e i LE I. unfold g. rewrite (gram_times 6 n J w 0 _ i I). rewrite Rmult_0_l, Rplus_0_r. apply times_ext; [reflexivity|]. intros k K. apply RT; auto. }
  split.
  - intros e LE y. set (ev := fun i => nth i e 0) in *. set (x := times 6 (mget p) ev) in *. set (h := fun k => y k - x k).
    assert (R1 : forall i, (i < 6)%nat -> times n J x i - ev i = - left_over ev i) by (intros i I; pose proof (FWD e i LE I) as F; fold ev in F; fold x in F; unfold left_over; rewrite F; ring).
    assert (DIF : forall i, (i < 6)%nat -> times n J y i - ev i = (times n J x i - ev i) + times n J h i) by (intros i I; unfold h, times; rewrite (bsum_ext n (fun k => J i k * (y k - x k)) (fun k => J i k * y k - J i k * x k)) by (intros; ring); rewrite bsum_minus; ring).
    assert (OG : dot_product 6 (fun i => times n J x i - ev i) (times n J h) = 0).
    { rewrite dot_comm, dot_transposed. unfold dot_product. rewrite (bsum_ext n _ (fun _ => 0)); [apply bsum_0|]. intros k K. transitivity (h k * (- times 6 (transposed J) (left_over ev) k)); [|rewrite KILL by auto; ring]. f_equal. unfold times at 1. rewrite (bsum_ext 6 _ (fun i => -1 * (transposed J k i * left_over ev i))) by (intros i I; rewrite R1 by auto; ring). rewrite bsum_scal. unfold times. ring. }
    assert (SE : squared_error 6 n J ev y = squared_error 6 n J ev x + square_norm 6 (times n J h)).
    { unfold squared_error at 1. rewrite (square_norm_ext 6 _ _ DIF), square_sum, OG. unfold squared_error. ring. }
    split; [rewrite SE; pose proof (square_norm_nonneg 6 (times n J h)); lra|]. intros EQ. assert (JH : square_norm 6 (times n J h) = 0) by lra.
    assert (WE : weighted n w y = weighted n w (fun k => x k + h k)) by (apply weighted_ext; intros k K; unfold h; ring). rewrite WE, weighted_sum.
    replace (bsum n (fun k => w k * x k * h k)) with 0; [pose proof (weighted_nonneg n w h (weight_pos j weights PW)); lra|].
    rewrite (bsum_ext n _ (fun k => times 6 (transposed J) (times 6 P ev) k * h k)) by (intros k K; unfold x, ev; rewrite (RT e k LE K); field; apply Rgt_not_eq, (weight_pos j weights PW k K)).
    change (0 = dot_product n (times 6 (transposed J) (times 6 P ev)) h). rewrite dot_transposed. unfold dot_product. symmetry. rewrite (bsum_ext 6 _ (fun _ => 0)); [apply bsum_0|]. intros i I. pose proof (square_norm_zero 6 _ JH i I) as Z. unfold transposed. unfold times in Z |- *. rewrite Z. ring.
  - unfold null_space_projector at 1. rewrite H. cbn [bind]. eexists. split; [reflexivity|]. intros b LB i I. set (N := mat_sub _ _). 
    assert (HN : null_space_projector mc j weights 0 = Ok N) by (unfold null_space_projector; rewrite H; reflexivity). set (moved := mat_vec 6 mc (kj_entries j) b). assert (LM : length moved = 6%nat) by (unfold moved, mat_vec; apply from_fn_length). set (bv := fun k => nth k b 0). set (mv := fun i => nth i moved 0).
    assert (MV : equal_vectors 6 mv (times n J bv)) by (intros r R; unfold mv, moved; change (vget (mat_vec 6 mc (kj_entries j) b) r = times n J bv r); rewrite vget_mat_vec by auto; rewrite (jacobian_times mc j SJ (vget b) r R); reflexivity).
    transitivity (times n J bv i - times n J (times 6 (mget p) mv) i).
    { rewrite <- times_minus. apply times_ext; [reflexivity|]. intros k K. destruct (projector_ok mc j weights 0 N b k SJ PW HN LB ltac:(lia)) as (p' & HP' & R). rewrite H in HP'. injection HP' as <-. unfold bv in *. rewrite R. unfold mv, moved. ring. }
    unfold mv. rewrite (FWD moved i LM I). fold mv. rewrite <- (MV i I). change (left_over mv i = 0).
    (* what is left of a twist the joints can make is made by the joints, which feel none of it *)
    assert (LZ : square_norm 6 (left_over mv) = 0).
    { assert (LF : equal_vectors 6 (left_over mv) (times n J (fun k => bv k - times 6 (transposed J) (times 6 P mv) k / w k))).
      { intros r R. unfold left_over. rewrite (MV r R). unfold g. rewrite (gram_times 6 n J w 0 _ r R). rewrite Rmult_0_l, Rplus_0_r. rewrite times_minus. reflexivity. }
      unfold square_norm. transitivity (dot_product 6 (times n J (fun k => bv k - times 6 (transposed J) (times 6 P mv) k / w k)) (left_over mv)); [unfold dot_product; apply bsum_ext; intros r R; rewrite (LF r R) at 1; reflexivity|].
      rewrite dot_transposed. unfold dot_product. rewrite (bsum_ext n _ (fun _ => 0)); [apply bsum_0|]. intros k K. rewrite KILL by auto. ring. }
    exact (square_norm_zero 6 _ LZ i I).
Qed.

(** ** When it is solved well *)
(** The decomposition is above the cut when every push is felt well enough next to the size of the matrix; damping sees to that. *)
Theorem C148_enough n J w damping c : (forall k, (k < n)%nat -> 0 < w k) -> let g := damped_gram n J w damping in settles 6 g ->
  (forall y, c * square_norm 6 y <= felt n J w y + damping * square_norm 6 y) -> 6 * / 2 ^ 52 * R_sqrt.sqrt (squares_sum 6 g) < c -> well_solved 6 g.
Proof.
  intros W g (d & E) LOW CUT. exists d. split; [exact E|]. destruct (decomposition n J w damping) as (AG & DEC). cbv zeta in AG, DEC. fold g in AG, DEC. rewrite E in DEC. cbn [fst] in DEC.
  pose proof (last_value n J w damping W _ d _ AG DEC) as LV. pose proof (first_value n J w damping _ d _ AG DEC) as FV. fold g in FV. specialize (LOW (column (mget (svd_right d)) 5)). rewrite (right_unit _ d _ DEC 5 ltac:(lia)) in LOW.
  change (6 - 1)%nat with 5%nat. assert (0 < / 2 ^ 52) by (apply Rinv_0_lt_compat, pow_lt; lra). apply Rle_lt_trans with (6 * / 2 ^ 52 * R_sqrt.sqrt (squares_sum 6 g)); [|lra]. replace (INR 6) with 6 by (cbn [INR]; lra). apply Rmult_le_compat_l; [lra|exact FV].
Qed.
Corollary damping_enough n J w damping : (forall k, (k < n)%nat -> 0 < w k) -> let g := damped_gram n J w damping in settles 6 g -> 6 * / 2 ^ 52 * R_sqrt.sqrt (squares_sum 6 g) < damping -> well_solved 6 g.
Proof. intros W g S L. apply (C148_enough n J w damping damping W S); [|exact L]. intros y. pose proof (felt_nonneg n J w W y). lra. Qed.
(** The library's Jacobian of a tree has the form all this asks for. *)
Theorem C148_tree mj mc (t : tree R) state k frame J : built mj mc t -> geometric_jacobian mj mc state k frame t = Ok J -> sound_jacobian mc J.
Proof.
  intros B E. destruct (C146_columns mj mc t state k frame J B E) as (C & _). split; rewrite C; [apply (velocity_len_le mj mc t B)|]. intros row c H [H1 H2].
  pose proof (C146_off_chain mj mc t state k frame J (one_rate mc c) [] B E) as X.
  assert (Y : velocity_of (tool_twist mc J (one_rate mc c)) = velocity_of (tool_twist mc J [])).
  { apply X. intros i j from n _ JI O N. pose proof (velocity_fits mj mc t i j from B JI O) as VF. rewrite nth_one_rate by lia. rewrite (proj2 (Nat.eqb_neq (from + n) c)) by lia. destruct (from + n)%nat; reflexivity. }
  apply (f_equal (fun v => six v row)) in Y. rewrite !six_twist in Y by exact H.
  rewrite (bsum_ext mc _ (fun m => if Nat.eqb m c then mget (kj_entries J) row c else 0)) in Y.
  2: { intros m M. rewrite nth_one_rate by exact M. destruct (Nat.eqb_spec m c) as [->|]; ring. }
  rewrite (bsum_delta mc c _ H2) in Y. rewrite Y. transitivity (bsum mc (fun _ => 0)); [apply bsum_ext; intros m _; destruct m; cbn [nth]; ring|apply bsum_0].
Qed.

(** ** The smallest singular value *)
Lemma plain_gram mc j : sound_jacobian mc j -> mat_mul 6 mc 6 (kj_entries j) (transpose 6 mc (kj_entries j)) = mat_fn 6 6 (damped_gram (kj_columns j) (mget (kj_entries j)) (fun _ => 1) 0).
Proof.
  intros SJ. apply (mat_ext 6 6); [apply shape_mat_fn|apply shape_mat_fn|]. intros i r I R6. rewrite mget_mul, mget_mat_fn by auto. unfold product, damped_gram. replace (if Nat.eqb i r then 0 else 0) with 0 by (destruct (Nat.eqb i r); reflexivity). rewrite Rplus_0_r.
  rewrite (bsum_ext mc _ (fun k => mget (kj_entries j) i k * mget (kj_entries j) r k)) by (intros k K; rewrite mget_transpose by auto; reflexivity).
  rewrite (narrowed mc j SJ). { apply bsum_ext. intros; field. } intros k K. destruct SJ as [_ Z]. rewrite Z by auto. ring.
Qed.
(** It is the least length a push of length one is felt with. *)
Theorem C148_smallest mc j : sound_jacobian mc j -> let n := kj_columns j in let J := mget (kj_entries j) in
  exists s, smallest_singular_value mc j = Ok s /\ 0 <= s /\ (exists y, square_norm 6 y = 1 /\ felt n J (fun _ => 1) y <= s * s) /\
  (settles 6 (damped_gram n J (fun _ => 1) 0) -> least_felt n J (fun _ => 1) s).
Proof.
  intros SJ n J. unfold smallest_singular_value. rewrite (plain_gram mc j SJ), svd_ok by lia. fold n J. cbn [linalg bind]. assert (W : forall k, (k < n)%nat -> 0 < (fun _ : nat => 1) k) by (intros; lra).
  eexists. split; [reflexivity|]. split; [apply smallest_nonneg|]. split; [|intros ST; apply least_value; auto]. destruct (decomposition n J (fun _ => 1) 0) as (AG & DEC). cbv zeta in AG, DEC. set (d := fst _) in *. exists (column (mget (svd_right d)) 5). split; [apply (right_unit _ d _ DEC); lia|].
  pose proof (sigma_nonneg _ d _ DEC 5 ltac:(lia)) as P5. pose proof (last_value n J _ 0 W _ d _ AG DEC). unfold smallest_of. rnum. change (vget (singular_values d) 5) with (nth 5 (singular_values d) 0). rewrite R_sqrt.sqrt_sqrt; [|apply Rle_trans with (2 := Rmax_r _ _); lra]. pose proof (Rmax_l (nth 5 (singular_values d) 0) 0). lra.
Qed.
(** With fewer than six rates some push is not felt at all, and whenever one is not the value is nought. *)
Lemma unfelt n J : (n < 6)%nat -> exists y, square_norm 6 y <> 0 /\ forall w, felt n J w y = 0.
Proof.
  intros N. set (a := fun k i : nat => if Nat.ltb k n then J i k else 0). destruct (classic (singular 6 a)) as [(y & (i & I & Y) & Z)|R].
  - exists y. split.
    + intros S. apply Y. apply (square_norm_zero 6 y S i I).
    + intros w. unfold felt. rewrite (bsum_ext n _ (fun _ => 0)); [apply bsum_0|]. intros k K. replace (times 6 (transposed J) y k) with 0; [unfold Rdiv; ring|]. rewrite <- (Z k ltac:(lia)). unfold times, a, transposed. apply bsum_ext. intros r Hr. rewrite (proj2 (Nat.ltb_lt _ _) K). reflexivity.
  - exfalso. destruct (regular_reaches 6 a (fun _ => 1) R) as (y & Y). specialize (Y 5%nat ltac:(lia)). unfold times, a in Y. rewrite (bsum_ext 6 _ (fun _ => 0)) in Y; [rewrite bsum_0 in Y; lra|]. intros k K. rewrite (proj2 (Nat.ltb_ge _ _)) by lia. ring.
Qed.
Theorem C148_singular mc j s : sound_jacobian mc j -> let n := kj_columns j in let J := mget (kj_entries j) in
  smallest_singular_value mc j = Ok s -> settles 6 (damped_gram n J (fun _ => 1) 0) ->
  (((n < 6)%nat \/ exists y, square_norm 6 y <> 0 /\ felt n J (fun _ => 1) y = 0) -> s = 0) /\ (s = 0 -> exists y, square_norm 6 y = 1 /\ felt n J (fun _ => 1) y = 0).
Proof.
  intros SJ n J E ST. destruct (C148_smallest mc j SJ) as (s' & E' & P & _ & L). rewrite E in E'. injection E' as <-. fold n J in L. destruct (L ST) as (_ & (y & Y & F) & LOW).
  split.
  - intros H. assert (HY : exists y, square_norm 6 y <> 0 /\ felt n J (fun _ => 1) y = 0) by (destruct H as [H|H]; [destruct (unfelt n J H) as (x & X & Z); exists x; split; [exact X|apply Z]|exact H]). destruct HY as (x & X & Z).
    specialize (LOW x). rewrite Z in LOW. pose proof (square_norm_nonneg 6 x) as PX. pose proof six_small as SM. cbn [INR] in SM. assert (XP : 0 < square_norm 6 x) by lra. destruct (Req_dec s 0) as [|NZ]; [assumption|exfalso]. assert (0 < s * s) by nra.
    assert (0 < (1 - 6 * / 2 ^ 52) * (s * s) * square_norm 6 x) by (apply Rmult_lt_0_compat; [apply Rmult_lt_0_compat; lra|exact XP]). lra.
  - intros ->. exists y. split; [exact Y|]. assert (0 <= felt n J (fun _ => 1) y) by (apply felt_nonneg; intros; lra). lra.
Qed.
Definition read_kind (d : svd (T := R)) (threshold : R) : Res SingularityKind KinematicsError :=
  if Scalar.leb threshold (smallest_of d) then Ok NotSingular
  else
    let square row := mul (mget (svd_right d) row 5) (mget (svd_right d) row 5) in
    let linear_squared := fold_left (fun total row => add total (square row)) (seq 0 3) zero in
    let angular_squared := fold_left (fun total row => add total (square row)) (seq 3 3) zero in
    let two_thirds := of_ratio 2 3 in
    let total := add linear_squared angular_squared in
    Ok (if Scalar.leb total zero then Mixed else if Scalar.ltb (mul two_thirds total) linear_squared then Positional else if Scalar.ltb (mul two_thirds total) angular_squared then Rotational else Mixed).
Lemma kind_read n J A d rest threshold : (forall k, (k < n)%nat -> 0 < (fun _ : nat => 1) k) -> (forall i k, (i < 6)%nat -> (k < 6)%nat -> A i k = damped_gram n J (fun _ => 1) 0 i k) ->
  triple 6 6 A rest epsilon (svd_left d) (singular_values d) (svd_right d) /\ ordered 6 6 (singular_values d) ->
  exists kind y, read_kind d threshold = Ok kind /\ square_norm 6 y = 1 /\ felt n J (fun _ => 1) y <= smallest_of d * smallest_of d /\ along y + about y = 1 /\
  match kind with
  | NotSingular => threshold <= smallest_of d
  | Positional => smallest_of d < threshold /\ 2 / 3 < along y
  | Rotational => smallest_of d < threshold /\ 2 / 3 < about y
  | Mixed => smallest_of d < threshold /\ along y <= 2 / 3 /\ about y <= 2 / 3
  end.
Proof.
  intros W AG DEC. set (y := column (mget (svd_right d)) 5). assert (Y1 : square_norm 6 y = 1) by (apply (right_unit _ d _ DEC); lia).
  pose proof (sigma_nonneg _ d _ DEC 5 ltac:(lia)) as P5. pose proof (last_value n J _ 0 W _ d _ AG DEC) as LV.
  assert (SH : along y + about y = 1) by (rewrite <- Y1; unfold along, about, square_norm, dot_product; cbn [bsum]; ring).
  assert (FE : felt n J (fun _ => 1) y <= smallest_of d * smallest_of d).
  { unfold smallest_of. rnum. change (vget (singular_values d) 5) with (nth 5 (singular_values d) 0). rewrite R_sqrt.sqrt_sqrt; [|apply Rle_trans with (2 := Rmax_r _ _); lra]. pose proof (Rmax_l (nth 5 (singular_values d) 0) 0). unfold y. lra. }
  assert (AL : fold_left (fun total row => add total (mul (mget (svd_right d) row 5) (mget (svd_right d) row 5))) (seq 0 3) zero = along y) by (unfold along, y, column; cbn [seq fold_left]; rnum; ring).
  assert (AB : fold_left (fun total row => add total (mul (mget (svd_right d) row 5) (mget (svd_right d) row 5))) (seq 3 3) zero = about y) by (unfold about, y, column; cbn [seq fold_left]; rnum; ring).
  unfold read_kind. cbv zeta. rewrite AL, AB. replace (add (along y) (about y)) with 1 by (rnum; lra). assert (TT : of_ratio 2 3 = 2 / 3) by (unfold of_ratio; rnum; lra). rewrite TT. clearbody y. clear AL AB LV.
  destruct (Scalar.leb threshold (smallest_of d)) eqn:E1.
  - exists NotSingular, y. apply Rleb_true in E1. do 4 (split; [first [reflexivity|assumption]|]). exact E1.
  - apply Rleb_false in E1. destruct (Scalar.leb 1 zero) eqn:E0; [apply Rleb_true in E0; exfalso; revert E0; rnum; lra|].
    destruct (Scalar.ltb (mul (2 / 3) 1) (along y)) eqn:E2; [|destruct (Scalar.ltb (mul (2 / 3) 1) (about y)) eqn:E3].
    + exists Positional, y. apply Rltb_true in E2. do 4 (split; [first [reflexivity|assumption]|]). revert E2; rnum; lra.
    + exists Rotational, y. apply Rltb_true in E3. do 4 (split; [first [reflexivity|assumption]|]). revert E3; rnum; lra.
    + exists Mixed, y. apply Rltb_false in E2, E3. do 4 (split; [first [reflexivity|assumption]|]). revert E2 E3; rnum; lra.
Qed.
(** The kind of a singularity is that of a direction of length one that is felt with no more than the smallest value. *)
Theorem C148_kind mc j threshold : sound_jacobian mc j -> let n := kj_columns j in let J := mget (kj_entries j) in
  exists s kind y, smallest_singular_value mc j = Ok s /\ classify_singularity mc j threshold = Ok kind /\ square_norm 6 y = 1 /\ felt n J (fun _ => 1) y <= s * s /\ along y + about y = 1 /\
  match kind with
  | NotSingular => threshold <= s
  | Positional => s < threshold /\ 2 / 3 < along y
  | Rotational => s < threshold /\ 2 / 3 < about y
  | Mixed => s < threshold /\ along y <= 2 / 3 /\ about y <= 2 / 3
  end.
Proof.
  intros SJ n J. assert (W : forall k, (k < n)%nat -> 0 < (fun _ : nat => 1) k) by (intros; lra).
  destruct (decomposition n J (fun _ => 1) 0) as (AG & DEC). cbv zeta in AG, DEC. exists (smallest_of (fst (svd_found 6 6 (mat_fn 6 6 (damped_gram n J (fun _ => 1) 0))))).
  destruct (kind_read n J _ _ _ threshold W AG DEC) as (kind & y & H1 & H2 & H3 & H4 & H5). exists kind, y.
  split; [unfold smallest_singular_value; rewrite (plain_gram mc j SJ), svd_ok by lia; reflexivity|]. split; [|auto]. rewrite <- H1. unfold classify_singularity. rewrite (plain_gram mc j SJ), svd_ok by lia. reflexivity.
Qed.
(** What is refused: a weight that is missing or not positive. *)
Theorem C148_refusal mc j weights damping : (exists i, (i < kj_columns j)%nat /\ forall v, nth_error weights i = Some v -> v <= 0) ->
  damped_pseudo_inverse mc j weights damping = Err KiNonPositiveWeight /\ null_space_projector mc j weights damping = Err KiNonPositiveWeight /\
  forall error bias threshold maximum, joint_step mc j error bias weights threshold maximum = Err KiNonPositiveWeight.
Proof.
  intros (i & I & V). assert (E : weighted_transpose mc j weights = Err KiNonPositiveWeight).
  { unfold weighted_transpose. destruct (check_weights_cases weights (kj_columns j) 0) as [[A _]|[_ ->]]; [|reflexivity]. exfalso. destruct (A i ltac:(lia)) as (v & NV & L). apply Rleb_false in L. specialize (V v NV). rnum. lra. }
  assert (D : damped_pseudo_inverse mc j weights damping = Err KiNonPositiveWeight) by (unfold damped_pseudo_inverse; rewrite E; reflexivity).
  split; [exact D|]. split; [unfold null_space_projector; rewrite D; reflexivity|]. intros. unfold joint_step. rewrite E. reflexivity.
Qed.
Theorem C148_answers mc j weights damping : positive_weights (kj_columns j) weights -> (exists p, damped_pseudo_inverse mc j weights damping = Ok p) /\ (exists N, null_space_projector mc j weights damping = Ok N) /\
  forall error bias threshold maximum, exists step, joint_step mc j error bias weights threshold maximum = Ok step.
Proof.
  intros PW. assert (D : exists p, damped_pseudo_inverse mc j weights damping = Ok p) by (unfold damped_pseudo_inverse; rewrite (weighted_ok mc j weights PW); cbn [bind]; rewrite svd_ok by lia; cbn [linalg bind]; eauto).
  split; [exact D|]. destruct D as (p & D). split; [unfold null_space_projector; rewrite D; cbn [bind]; eauto|]. intros. unfold joint_step. rewrite (weighted_ok mc j weights PW). cbn [bind]. rewrite svd_ok by lia. cbn [linalg bind]. rewrite svd_ok by lia. cbn [linalg bind]. eauto.
Qed.

(** ** Cases *)
Lemma diagonal_settles g : (forall i k, (i < 6)%nat -> (k < 6)%nat -> i <> k -> g i k = 0) -> settles 6 g /\
  forall d, svd_of 6 6 (mat_fn 6 6 g) = Ok d -> triple 6 6 (mget (mat_fn 6 6 g)) True 0 (svd_left d) (singular_values d) (svd_right d).
Proof.
  intros Z. assert (O : forall p q, (p < 6)%nat -> (q < 6)%nat -> p <> q -> dot_product 6 (Proofs.Qr.col (mat_fn 6 6 g) p) (Proofs.Qr.col (mat_fn 6 6 g) q) = 0).
  { intros p q P Q N. unfold dot_product, Proofs.Qr.col. rewrite (bsum_ext 6 _ (fun _ => 0)); [apply bsum_0|]. intros i I. rewrite !mget_mat_fn by auto. destruct (Nat.eq_dec i p) as [->|NE]; [rewrite (Z p q) by auto; ring|rewrite (Z i p) by auto; ring]. }
  assert (OV : forall p q, (p < q < 6)%nat -> overlaps 6 (mat_fn 6 6 g) p q) by (intros p q PQ; unfold overlaps; rewrite O by lia; rewrite Rabs_R0; apply Rmult_le_pos; [pose proof epsilon_pos; lra|apply R_sqrt.sqrt_pos]).
  destruct (sweep_settled 6 6 (mat_fn 6 6 g) (identity 6) OV) as [SL SO].
  assert (SW : fst (fst (svd_sweeps 6 6 60 (mat_fn 6 6 g) (identity 6))) = mat_fn 6 6 g /\ snd (svd_sweeps 6 6 60 (mat_fn 6 6 g) (identity 6)) = true).
  { change 60%nat with (S 59). rewrite sweeps_next. cbv zeta. destruct (Rleb _ _) eqn:E; rcases; [cbn [fst snd]; rewrite SL; auto|lra]. }
  destruct SW as [S1 S2]. split.
  - exists (fst (svd_found 6 6 (mat_fn 6 6 g))). rewrite (surjective_pairing (svd_found 6 6 (mat_fn 6 6 g))) at 1. f_equal. rewrite svd_found_settled. exact S2.
  - intros d E. assert (X : True -> forall p q, (p < q < 6)%nat -> overlap_at_most 0 6 (fst (fst (svd_sweeps 6 6 60 (mat_fn 6 6 g) (identity 6)))) p q).
    { intros _ p q PQ. unfold overlap_at_most. rewrite S1, O by lia. rewrite Rabs_R0. lra. }
    pose proof (svd_spec_at 6 6 (mat_fn 6 6 g) True 0 ltac:(lra) (shape_mat_fn 6 6 g) X) as F. cbv zeta in F. rewrite svd_ok in E by lia. destruct (svd_found 6 6 (mat_fn 6 6 g)) as [d' st]. cbn [fst] in E. injection E as ->. apply F.
Qed.
(** Six joints that slide and turn the tool about its own axes, and one more that slides it along the first. *)
Definition seven : jacobian R := {| kj_entries := mat_fn 6 7 (fun i k => if Nat.eqb i (if Nat.eqb k 6 then 0%nat else k) then 1 else 0); kj_columns := 7; kj_frame := BodyAxes |}.
Definition ones : list R := repeat 1 7.
Lemma seven_sound : sound_jacobian 7 seven /\ positive_weights 7 ones.
Proof.
  split; [split; [cbn; lia|]; cbn [kj_columns seven]; intros; lia|]. intros i I. exists 1. split; [|lra]. unfold ones. rewrite nth_error_repeat by lia. reflexivity.
Qed.
Lemma seven_gram damping i r : (i < 6)%nat -> (r < 6)%nat -> damped_gram 7 (mget (kj_entries seven)) (fun k => nth k ones 0) damping i r = (if Nat.eqb i r then (if Nat.eqb i 0 then 2 else 1) + damping else 0).
Proof.
  intros I R6. unfold damped_gram. rewrite (bsum_ext 7 _ (fun k => (if Nat.eqb i (if Nat.eqb k 6 then 0 else k) then 1 else 0) * (if Nat.eqb r (if Nat.eqb k 6 then 0 else k) then 1 else 0))).
  - do 6 (destruct i as [|i]; [do 6 (destruct r as [|r]; [cbn; ring|]); lia|]). lia.
  - intros k K. cbn [kj_entries seven]. rewrite !mget_mat_fn by auto. replace (nth k ones 0) with 1; [field|]. unfold ones. symmetry. rewrite nth_indep with (d' := 1) by (rewrite repeat_length; lia). apply nth_repeat.
Qed.
Lemma seven_solved damping : 0 <= damping <= 1 -> well_solved 6 (damped_gram 7 (mget (kj_entries seven)) (fun k => nth k ones 0) damping).
Proof.
  intros D. set (g := damped_gram _ _ _ _). destruct seven_sound as [_ PW]. assert (W : forall k, (k < 7)%nat -> 0 < nth k ones 0) by (intros k K; destruct (PW k K) as (v & E & P); rewrite (nth_error_nth _ _ _ E); exact P).
  assert (ST : settles 6 g) by (apply (diagonal_settles g); intros i k I K N; unfold g; rewrite seven_gram by auto; rewrite (proj2 (Nat.eqb_neq _ _) N); reflexivity).
  apply (C148_enough 7 (mget (kj_entries seven)) (fun k => nth k ones 0) damping 1 W ST).
  - intros y. rewrite <- (own_form 7 (mget (kj_entries seven)) (fun k => nth k ones 0) damping W g (fun i k _ _ => eq_refl) y). rewrite Rmult_1_l. unfold square_norm, dot_product. apply bsum_le. intros i I.
    replace (times 6 g y i) with (((if Nat.eqb i 0 then 2 else 1) + damping) * y i); [assert (0 <= y i * y i) by nra; destruct (Nat.eqb i 0); nra|]. symmetry. unfold times. rewrite (bsum_ext 6 _ (fun r => unit_matrix i r * (((if Nat.eqb i 0 then 2 else 1) + damping) * y r))); [apply (times_unit 6 (fun r => ((if Nat.eqb i 0 then 2 else 1) + damping) * y r) i I)|].
    intros r R6. unfold g. rewrite seven_gram by auto. unfold unit_matrix. destruct (Nat.eqb i r); ring.
  - assert (SQ : squares_sum 6 (damped_gram 7 (mget (kj_entries seven)) (fun k => nth k ones 0) damping) <= 100).
    { fold g. unfold squares_sum. rewrite (bsum_ext 6 _ (fun i => ((if Nat.eqb i 0 then 2 else 1) + damping) * ((if Nat.eqb i 0 then 2 else 1) + damping))); [cbn; nra|]. intros i I. rewrite (bsum_ext 6 _ (fun r => unit_matrix i r * (((if Nat.eqb r 0 then 2 else 1) + damping) * ((if Nat.eqb r 0 then 2 else 1) + damping)))); [apply (times_unit 6 (fun r => ((if Nat.eqb r 0 then 2 else 1) + damping) * ((if Nat.eqb r 0 then 2 else 1) + damping)) i I)|].
      intros r R6. unfold g. rewrite seven_gram by auto. unfold unit_matrix. destruct (Nat.eqb_spec i r) as [->|]; ring. }
    apply R_sqrt.sqrt_le_1_alt in SQ. replace 100 with (10 * 10) in SQ by ring. rewrite R_sqrt.sqrt_square in SQ by lra. assert (E : 0 < / 2 ^ 52 <= / 64). { split; [apply Rinv_0_lt_compat, pow_lt; lra|]. apply Rinv_le_contravar; [lra|]. replace 64 with (2 ^ 6) by lra. apply Rle_pow; [lra|lia]. }
    apply Rle_lt_trans with (6 * / 2 ^ 52 * 10); [apply Rmult_le_compat_l; lra|]. lra.
Qed.

(** Damping keeps the rates bounded, the weighted length at most that of the twist over the damping, near a singularity and anywhere. *)
Theorem C148_bounded rows n J w damping e x : 0 < damping -> damped_least_squares rows n J w (damping * damping) e (fun _ => 0) x -> damping * damping * weighted n w x <= square_norm rows e.
Proof.
  intros D [H _]. specialize (H ltac:(nra) (fun _ => 0)). assert (Z : squared_error rows n J e (fun _ => 0) = square_norm rows e).
  { unfold squared_error, square_norm, dot_product. apply bsum_ext. intros i I. unfold times. rewrite (bsum_ext n _ (fun _ => 0)) by (intros; ring). rewrite bsum_0. ring. }
  assert (W0 : weighted n w (fun k => (fun _ => 0) k - (fun _ => 0) k) = 0) by (unfold weighted; rewrite (bsum_ext n _ (fun _ => 0)) by (intros; ring); apply bsum_0).
  assert (WX : weighted n w (fun k => x k - (fun _ => 0) k) = weighted n w x) by (apply weighted_ext; intros k K; ring). rewrite Z, W0, WX in H. pose proof (square_norm_nonneg rows (fun i => times n J x i - e i)) as P. fold (squared_error rows n J e x) in P. lra.
Qed.

(** With damping the projector's rates do move the tool: the wish to slide along the second axis is halved, not taken away. *)
Theorem C148_projector_refuted : exists N, null_space_projector 7 seven ones 1 = Ok N /\ sound_jacobian 7 seven /\ positive_weights 7 ones /\
  ~ equal_vectors 6 (times 7 (mget (kj_entries seven)) (times 7 (mget N) (fun k => nth k [0; 1; 0; 0; 0; 0; 0] 0))) (fun _ => 0).
Proof.
  destruct seven_sound as [SJ PW]. destruct (C148_answers 7 seven ones 1 PW) as (_ & (N & E) & _). exists N. split; [exact E|]. split; [exact SJ|]. split; [exact PW|]. intros Z.
  destruct (C148_projector 7 seven ones 1 N [0; 1; 0; 0; 0; 0; 0] SJ PW E eq_refl) as [H _]. cbn [kj_columns seven] in H. rewrite Rmult_1_l in H. specialize (H (seven_solved 1 ltac:(lra))). destruct H as (e' & B & [L _] & _). specialize (L ltac:(lra)).
  set (b := fun k => nth k [0; 1; 0; 0; 0; 0; 0] 0) in *. set (x := times 7 (mget N) b) in *. set (J := mget (kj_entries seven)) in *. set (w := fun k => nth k ones 0) in *.
  assert (JE : forall v i, (i < 6)%nat -> times 7 J v i = v i + (if Nat.eqb i 0 then v 6%nat else 0)).
  { intros v i I. unfold times, J. rewrite (bsum_ext 7 _ (fun k => (if Nat.eqb i (if Nat.eqb k 6 then 0 else k) then 1 else 0) * v k)) by (intros k K; cbn [kj_entries seven]; rewrite mget_mat_fn by auto; reflexivity). do 6 (destruct i as [|i]; [cbn; ring|]). lia. }
  assert (X1 : x 1%nat = 0) by (specialize (Z 1%nat ltac:(lia)); rewrite JE in Z by lia; cbn [Nat.eqb] in Z; lra).
  assert (EB : square_norm 6 (times 7 J b) = 1) by (rewrite (square_norm_ext 6 _ (fun i => nth i [0; 1; 0; 0; 0; 0] 0)) by (intros i I; rewrite JE by auto; do 6 (destruct i as [|i]; [cbn; ring|]); lia); cbn; ring).
  rewrite EB in B. assert (SM : (12 * / 2 ^ 52) ^ 2 * 1 <= 1 / 16). { pose proof six_small as S6. cbn [INR] in S6. assert (0 < / 2 ^ 52) by (apply Rinv_0_lt_compat, pow_lt; lra). assert (12 * / 2 ^ 52 <= 1 / 4) by lra. nra. }
  assert (E6 : square_norm 6 e' <= 1 / 16) by lra.
  (* half of the wish is better *)
  specialize (L (fun k => b k / 2)). rewrite !Rmult_1_l in L. assert (L2 : squared_error 6 7 J e' x + weighted 7 w (fun k => x k - b k) <= squared_error 6 7 J e' (fun k => b k / 2) + weighted 7 w (fun k => b k / 2 - b k)) by exact L.
  assert (SE0 : squared_error 6 7 J e' x = square_norm 6 e') by (unfold squared_error, square_norm, dot_product; apply bsum_ext; intros i I; rewrite (Z i I); ring).
  assert (WX : 1 <= weighted 7 w (fun k => x k - b k)).
  { unfold weighted. rewrite (bsum_ext 7 _ (fun k => (x k - b k) * (x k - b k))) by (intros k K; unfold w, ones; rewrite nth_indep with (d' := 1) by (rewrite repeat_length; lia); rewrite nth_repeat; ring). cbn [bsum]. rewrite X1. unfold b. cbn [nth]. 
    pose proof (Rle_0_sqr (x 0%nat - 0)). pose proof (Rle_0_sqr (x 2%nat - 0)). pose proof (Rle_0_sqr (x 3%nat - 0)). pose proof (Rle_0_sqr (x 4%nat - 0)). pose proof (Rle_0_sqr (x 5%nat - 0)). pose proof (Rle_0_sqr (x 6%nat - 0)). unfold Rsqr in *. lra. }
  assert (WH : weighted 7 w (fun k => b k / 2 - b k) = 1 / 4).
  { unfold weighted. rewrite (bsum_ext 7 _ (fun k => (b k / 2 - b k) * (b k / 2 - b k))) by (intros k K; unfold w, ones; rewrite nth_indep with (d' := 1) by (rewrite repeat_length; lia); rewrite nth_repeat; ring). cbn [bsum]. unfold b. cbn [nth]. lra. }
  assert (SH : squared_error 6 7 J e' (fun k => b k / 2) <= 2 * (1 / 4 + 1 / 16)).
  { unfold squared_error. eapply Rle_trans; [apply square_minus|]. apply Rmult_le_compat_l; [lra|]. apply Rplus_le_compat; [|exact E6]. rewrite (square_norm_ext 6 _ (fun i => nth i [0; 1 / 2; 0; 0; 0; 0] 0)) by (intros i I; rewrite JE by auto; unfold b; do 6 (destruct i as [|i]; [cbn; field|]); lia). unfold square_norm, dot_product. cbn [bsum nth]. lra. }
  rewrite SE0, WH in L2. pose proof (square_norm_nonneg 6 e'). lra.
Qed.

(** A joint that slides along the third axis and one that turns about it: four directions are out of reach, and the decomposition is exact. *)
Definition screw : jacobian R := {| kj_entries := mat_fn 6 2 (fun i k => if Nat.eqb i (3 * k + 2) then 1 else 0); kj_columns := 2; kj_frame := BodyAxes |}.
Lemma screw_gram i r : (i < 6)%nat -> (r < 6)%nat -> damped_gram 2 (mget (kj_entries screw)) (fun k => nth k [1; 1] 0) 0 i r = (if Nat.eqb i r then (if Nat.eqb i 2 || Nat.eqb i 5 then 1 else 0) else 0).
Proof.
  intros I R6. unfold damped_gram. rewrite (bsum_ext 2 _ (fun k => (if Nat.eqb i (3 * k + 2) then 1 else 0) * (if Nat.eqb r (3 * k + 2) then 1 else 0))).
  - do 6 (destruct i as [|i]; [do 6 (destruct r as [|r]; [cbn; ring|]); lia|]). lia.
  - intros k K. cbn [kj_entries screw]. rewrite !mget_mat_fn by auto. do 2 (destruct k as [|k]; [cbn [nth]; field|]). lia.
Qed.
Lemma projection_clean (c : nat -> bool) A d : (forall i r, (i < 6)%nat -> (r < 6)%nat -> A i r = if Nat.eqb i r then (if c i then 1 else 0) else 0) ->
  triple 6 6 A True 0 (svd_left d) (singular_values d) (svd_right d) ->
  (forall p q, (p < 6)%nat -> (q < 6)%nat -> p <> q -> dot_product 6 (column (mget (svd_left d)) p) (column (mget (svd_left d)) q) = 0) /\
  (forall k, (k < 6)%nat -> nth k (singular_values d) 0 = 0 \/ INR 6 * / 2 ^ 52 * nth 0 (singular_values d) 0 < nth k (singular_values d) 0).
Proof.
  intros GE (T1 & T2 & T3 & T4 & T5 & T6 & T7 & T8).
  assert (OR : forall p q, (p < 6)%nat -> (q < 6)%nat -> p <> q -> dot_product 6 (column (mget (svd_left d)) p) (column (mget (svd_left d)) q) = 0).
  { intros p q P Q N. specialize (T8 I p q P Q N). apply Rabs_between in T8. change (dot_product 6 (column (mget (svd_left d)) p) (column (mget (svd_left d)) q)) with (dot_product 6 (Proofs.Qr.col (svd_left d) p) (Proofs.Qr.col (svd_left d) q)). lra. }
  split; [exact OR|]. set (U := mget (svd_left d)) in *. set (V := mget (svd_right d)) in *.
  assert (SYM : forall i k, (i < 6)%nat -> (k < 6)%nat -> A i k = A k i) by (intros i k I K; rewrite !GE by auto; destruct (Nat.eqb_spec i k) as [->|NE]; [rewrite Nat.eqb_refl; reflexivity|rewrite (proj2 (Nat.eqb_neq k i)) by auto; reflexivity]).
  assert (IDEM : forall x i, (i < 6)%nat -> times 6 A (times 6 A x) i = times 6 A x i).
  { intros x. assert (AX : forall y i, (i < 6)%nat -> times 6 A y i = (if c i then 1 else 0) * y i).
    { intros y i I. unfold times. rewrite (bsum_ext 6 _ (fun r => unit_matrix i r * ((if c i then 1 else 0) * y r))); [apply (times_unit 6 (fun r => (if c i then 1 else 0) * y r) i I)|]. intros r R6. rewrite GE by auto. unfold unit_matrix. destruct (Nat.eqb i r); ring. }
    intros i I. rewrite !AX by auto. destruct (c i); ring. }
  assert (ON : forall k, (k < 6)%nat -> nth k (singular_values d) 0 = 0 \/ nth k (singular_values d) 0 = 1).
  { intros k K. destruct (T7 k K) as (P & _ & N1). change (vget (singular_values d) k) with (nth k (singular_values d) 0) in *. set (s := nth k (singular_values d) 0) in *. destruct (Req_dec s 0) as [|NZ]; [auto|right]. specialize (N1 ltac:(lra)).
    (* A' u_k = s v_k and A v_k = s u_k, and A = A' = A A *)
    assert (AU : forall i, (i < 6)%nat -> times 6 A (column U k) i = s * V i k).
    { intros i I. unfold times. rewrite (bsum_ext 6 _ (fun r => bsum 6 (fun l => V i l * nth l (singular_values d) 0 * (U r l * U r k)))) by (intros r R6; rewrite (SYM i r I R6), <- (T4 r i R6 I), Rmult_comm, <- bsum_scal; apply bsum_ext; intros l L; unfold column, U, V, vget; rnum; ring).
      rewrite bsum_swap. rewrite (bsum_ext 6 _ (fun l => unit_matrix k l * (V i l * nth l (singular_values d) 0))); [rewrite (times_unit 6 (fun l => V i l * nth l (singular_values d) 0) k K : bsum 6 (fun l => unit_matrix k l * (V i l * nth l (singular_values d) 0)) = _); unfold s; ring|].
      intros l L. rewrite bsum_scal. change (bsum 6 (fun r => U r l * U r k)) with (dot_product 6 (column U l) (column U k)). unfold unit_matrix. destruct (Nat.eqb_spec k l) as [<-|NE]; [replace (dot_product 6 (column U k) (column U k)) with 1 by (symmetry; exact N1); ring|rewrite OR by auto; ring]. }
    assert (AV : forall i, (i < 6)%nat -> times 6 A (column V k) i = s * U i k).
    { intros i I. unfold times. rewrite (bsum_ext 6 _ (fun r => bsum 6 (fun l => U i l * nth l (singular_values d) 0 * (V r l * V r k)))) by (intros r R6; rewrite <- (T4 i r I R6), Rmult_comm, <- bsum_scal; apply bsum_ext; intros l L; unfold column, U, V, vget; rnum; ring).
      rewrite bsum_swap. rewrite (bsum_ext 6 _ (fun l => unit_matrix k l * (U i l * nth l (singular_values d) 0))); [rewrite (times_unit 6 (fun l => U i l * nth l (singular_values d) 0) k K : bsum 6 (fun l => unit_matrix k l * (U i l * nth l (singular_values d) 0)) = _); unfold s; ring|].
      intros l L. rewrite bsum_scal. change (bsum 6 (fun r => V r l * V r k)) with (dot_product 6 (column V l) (column V k)). rewrite (T6 l k L K). unfold unit_matrix. rewrite (Nat.eqb_sym l k). destruct (Nat.eqb k l); ring. }
    assert (TS : forall v f i, (i < 6)%nat -> times 6 A (fun r => f * v r) i = f * times 6 A v i) by (intros v f i I; unfold times; rewrite <- bsum_scal; apply bsum_ext; intros; ring).
    assert (QV : forall i, (i < 6)%nat -> s * s * U i k = U i k).
    { intros i I.
      assert (UV : U i k = s * V i k). { apply Rmult_eq_reg_l with s; [|exact NZ]. rewrite <- (AV i I). rewrite <- (IDEM (column V k) i I). rewrite (times_ext 6 A A (times 6 A (column V k)) (fun r => s * column U k r) i); [|reflexivity|intros r R6; apply AV; auto]. rewrite TS, (AU i I) by auto. reflexivity. }
      assert (VU : V i k = s * U i k). { apply Rmult_eq_reg_l with s; [|exact NZ]. rewrite <- (AU i I). rewrite <- (IDEM (column U k) i I). rewrite (times_ext 6 A A (times 6 A (column U k)) (fun r => s * column V k r) i); [|reflexivity|intros r R6; apply AU; auto]. rewrite TS, (AV i I) by auto. reflexivity. }
      rewrite Rmult_assoc, <- VU, <- UV. reflexivity. }
    assert (EX : exists i, (i < 6)%nat /\ U i k <> 0). { apply NNPP. intros NE. assert (Z : square_norm 6 (column U k) = 0) by (rewrite (square_norm_ext 6 _ (fun _ => 0)); [apply square_norm_0|]; intros i I; apply NNPP; intros X; apply NE; exists i; auto). change (square_norm 6 (column U k) = 1) in N1. lra. }
    destruct EX as (i & I & X). specialize (QV i I). assert (SS : s * s = 1) by (apply Rmult_eq_reg_r with (U i k); [lra|exact X]). nra. }
  intros k K. destruct (ON k K) as [|E1]; [auto|right]. rewrite E1. pose proof six_small. destruct (ON 0%nat ltac:(lia)) as [-> | ->]; lra.
Qed.
Lemma screw_clean : cleanly_solved 6 (damped_gram 2 (mget (kj_entries screw)) (fun k => nth k [1; 1] 0) 0).
Proof.
  pose proof screw_gram as G. set (g := damped_gram 2 _ _ 0) in *. clearbody g. assert (OFF : forall i k, (i < 6)%nat -> (k < 6)%nat -> i <> k -> g i k = 0) by (intros i k I K N; rewrite G by auto; rewrite (proj2 (Nat.eqb_neq _ _) N); reflexivity).
  destruct (diagonal_settles g OFF) as [_ TR]. assert (E : svd_of 6 6 (mat_fn 6 6 g) = Ok (fst (svd_found 6 6 (mat_fn 6 6 g)))) by (apply svd_ok; lia). eexists. split; [exact E|].
  apply (projection_clean (fun i => Nat.eqb i 2 || Nat.eqb i 5) (mget (mat_fn 6 6 g))); [intros i r I R6; rewrite mget_mat_fn by auto; apply G; auto|apply TR, E].
Qed.

(** The step towards an error with seven joints, the inverse of the screw, and a smallest singular value of nought for the screw. *)
Example C148_example :
  (exists p e', damped_pseudo_inverse 7 seven ones 0 = Ok p /\ square_norm 6 (fun i => e' i - nth i [2; 0; 0; 0; 0; 3] 0) <= (12 * / 2 ^ 52) ^ 2 * 13 /\
     damped_least_squares 6 7 (mget (kj_entries seven)) (fun k => nth k ones 0) 0 e' (fun _ => 0) (times 6 (mget p) (fun i => nth i [2; 0; 0; 0; 0; 3] 0))) /\
  (exists p, damped_pseudo_inverse 2 screw [1; 1] 0 = Ok p /\ weighted_least_squares 6 2 (mget (kj_entries screw)) (fun k => nth k [1; 1] 0) (fun i => nth i [1; 2; 3; 4; 5; 6] 0) (times 6 (mget p) (fun i => nth i [1; 2; 3; 4; 5; 6] 0))) /\
  smallest_singular_value 2 screw = Ok 0.
Proof.
  destruct seven_sound as [SJ PW]. assert (SS : sound_jacobian 2 screw) by (split; [cbn; lia|]; cbn [kj_columns screw]; intros; lia). assert (PS : positive_weights 2 [1; 1]) by (intros i I; exists 1; split; [|lra]; do 2 (destruct i as [|i]; [reflexivity|]); lia).
  split; [|split].
  - destruct (C148_answers 7 seven ones 0 PW) as ((p & E) & _ & _). destruct (C148_inverse 7 seven ones 0 p [2; 0; 0; 0; 0; 3] SJ PW E eq_refl) as [H _]. cbn [kj_columns seven] in H. rewrite Rmult_0_l in H. destruct (H (seven_solved 0 ltac:(lra))) as (e' & B & L). exists p, e'. split; [exact E|]. split; [|exact L].
    eapply Rle_trans; [exact B|]. right. f_equal. unfold square_norm, dot_product. cbn [bsum nth]. ring.
  - destruct (C148_answers 2 screw [1; 1] 0 PS) as ((p & E) & _ & _). exists p. split; [exact E|]. apply (proj1 (C148_exact 2 screw [1; 1] p SS PS E screw_clean)). reflexivity.
  - destruct (C148_smallest 2 screw SS) as (s & E & _). rewrite E. f_equal. assert (ST : settles 6 (damped_gram 2 (mget (kj_entries screw)) (fun _ => 1) 0)).
    { apply diagonal_settles. intros i k I K N. transitivity (damped_gram 2 (mget (kj_entries screw)) (fun k => nth k [1; 1] 0) 0 i k); [unfold damped_gram; f_equal; apply bsum_ext; intros r R2; do 2 (destruct r as [|r]; [reflexivity|]); lia|]. rewrite screw_gram by auto. rewrite (proj2 (Nat.eqb_neq _ _) N). reflexivity. }
    apply (proj1 (C148_singular 2 screw s SS E ST)). left. cbn. lia.
Qed.
Print Assumptions C148_step. Print Assumptions C148_inverse. Print Assumptions C148_projector. Print Assumptions C148_exact. Print Assumptions C148_enough. Print Assumptions C148_tree. Print Assumptions C148_smallest. Print Assumptions C148_singular.
Print Assumptions C148_kind. Print Assumptions C148_refusal. Print Assumptions C148_answers. Print Assumptions C148_bounded. Print Assumptions C148_projector_refuted. Print Assumptions C148_example.
