(** C131: the extended Kalman filter. *)
From Coq Require Import ZArith Reals List Bool Arith Lia Lra Psatz.
From Coquelicot Require Import Coquelicot.
From Verif Require Import Base.Scalar Base.RNum Base.XNum Base.Lists Base.Series Model.Errors Model.Vector Model.Matrix Model.Lu Model.Cholesky Model.Derivative Model.Kalman.
From Verif Require Import Spec.Matrix Spec.Expr Spec.Derivative Spec.Kalman Proofs.Matrix Proofs.Algebra Proofs.Riccati Proofs.Kalman Props.Derivative Props.Kalman.
Import ListNotations.
Local Open Scope R_scope.
Local Notation length := List.length.
Local Notation sub := (Scalar.sub).

Section Shape.
  Context {T : Type} {NT : Num T}.
  Lemma write_column_shape rows cols (J : list (list T)) n column : shape rows cols J -> shape rows cols (write_column J n column).
  Proof.
    intros S. unfold write_column. generalize (seq 0 (length column)). intros l. revert J S. induction l as [|i l IH]; intros J S; [exact S|]. cbn [fold_left]. apply IH. apply shape_mset, S.
  Qed.
  Lemma jacobian_shape (d : Derivator T) func rows (p : list T) J : jacobian d func rows p = Ok J -> shape rows (length p) J.
  Proof.
    unfold jacobian. destruct (Nat.eqb rows 0); [discriminate|]. 
    match goal with |- fold_left ?step _ _ = _ -> _ => set (g := step) end.
    assert (G : forall l acc, (forall A, acc = Ok A -> shape rows (length p) A) -> forall A, fold_left g l acc = Ok A -> shape rows (length p) A).
    { induction l as [|i l IH]; intros acc H A E; [apply H, E|]. cbn [fold_left] in E. apply (IH (g acc i)); auto. unfold g. intros B EB.
      destruct acc as [C|e|]; try discriminate. destruct (d_column d func i p) as [column|e|]; try discriminate. injection EB. intros <-. apply write_column_shape, H. reflexivity. }
    intros E. refine (G _ _ _ J E). intros A EA. injection EA as <-. apply shape_zeros.
  Qed.
End Shape.

(** The linear filter with the same estimate whose measurement matrix is [h], and an extended filter with the estimate of a linear one. *)
Definition as_linear {T} {NT : Num T} (n : nat) (f : ExtendedKalmanFilter T) (h : mat T) : KalmanFilter T :=
  {| kf_state := ekf_state f; kf_covariance := ekf_covariance f; kf_transition := identity n; kf_model := h; kf_process_noise := ekf_process_noise f;
     kf_measurement_noise := ekf_measurement_noise f; kf_innovation := ekf_innovation f; kf_spread := ekf_spread f; kf_mode := ekf_mode f |}.
Definition like_linear {T} (f : ExtendedKalmanFilter T) (g : KalmanFilter T) : ExtendedKalmanFilter T :=
  {| ekf_state := kf_state g; ekf_covariance := kf_covariance g; ekf_process_noise := ekf_process_noise f; ekf_measurement_noise := ekf_measurement_noise f;
     ekf_innovation := kf_innovation g; ekf_spread := kf_spread g; ekf_mode := ekf_mode f; ekf_derivator := ekf_derivator f |}.

Definition ekf_sized (n m : nat) (f : ExtendedKalmanFilter R) : Prop :=
  length (ekf_state f) = n /\ shape n n (ekf_covariance f) /\ shape n n (ekf_process_noise f) /\ shape m m (ekf_measurement_noise f).
Definition ekf_valid (n m : nat) (f : ExtendedKalmanFilter R) : Prop :=
  ekf_sized n m f /\ covariance_matrix n (mget (ekf_covariance f)) /\ covariance_matrix n (mget (ekf_process_noise f)) /\
  covariance_matrix m (mget (ekf_measurement_noise f)).

(** Any scalar, any derivator: an update is the linear filter's update with the jacobian as its measurement matrix. *)
Theorem C131_linear T (NT : Num T) n m (model : VectorFn) (residual z : list T) (f : ExtendedKalmanFilter T) h :
  jacobian (ekf_derivator f) model m (ekf_state f) = Ok h -> vec_is_finite residual = true -> vec_is_finite z = true ->
  vec_sub z (mat_vec m n h (ekf_state f)) = residual ->
  let '(g, result) := kf_update n m z (as_linear n f h) in ekf_update_with_residual n m model residual f = (like_linear f g, result).
Proof.
  intros J F1 F2 E. unfold kf_update, ekf_update_with_residual. rewrite F1, F2, J. cbn [negb]. cbn [as_linear kf_model kf_state kf_covariance kf_measurement_noise]. rewrite E.
  destruct (mat_is_finite _); cbn [negb]; [|reflexivity]. destruct (cholesky _ _); reflexivity.
Qed.
(** Any scalar, any derivator: what is refused, and that a refused call leaves the estimate alone. *)
Theorem C131_refused T (NT : Num T) n m (model : VectorFn) (v : list T) (f : ExtendedKalmanFilter T) :
  (vec_is_finite v = false -> ekf_update n m model v f = (f, Err EsNonFinite) /\ ekf_update_with_residual n m model v f = (f, Err EsNonFinite)) /\
  (forall e, jacobian (ekf_derivator f) model n (ekf_state f) = Err e -> ekf_predict n model f = (f, Err (EsDiff e))) /\
  (vec_is_finite (model T NT (ekf_state f)) = false -> (exists J, jacobian (ekf_derivator f) model n (ekf_state f) = Ok J) -> ekf_predict n model f = (f, Err EsNonFinite)) /\
  (forall J, jacobian (ekf_derivator f) model n (ekf_state f) = Ok J -> mat_is_finite J = false -> ekf_predict n model f = (f, Err EsNonFinite)) /\
  (forall g r, ekf_predict n model f = (g, r) \/ ekf_update n m model v f = (g, r) \/ ekf_update_with_residual n m model v f = (g, r) -> r <> Ok tt ->
     ekf_state g = ekf_state f /\ ekf_covariance g = ekf_covariance f).
Proof.
  split; [intros E; unfold ekf_update, ekf_update_with_residual; rewrite E; auto|]. unfold ekf_predict. split; [intros e ->; reflexivity|].
  split; [intros E [J ->]; rewrite E; reflexivity|]. split; [intros J -> ->; rewrite orb_true_r; reflexivity|]. intros g r H N.
  assert (U : forall v g r, ekf_update_with_residual n m model v f = (g, r) -> r <> Ok tt -> ekf_state g = ekf_state f /\ ekf_covariance g = ekf_covariance f).
  { clear. intros v g r. unfold ekf_update_with_residual. destruct (vec_is_finite v); cbn [negb]; [|intros [= <- <-]; auto]. destruct (jacobian _ _ _ _); [|intros [= <- <-]; auto..].
    destruct (mat_is_finite _); cbn [negb]; [|intros [= <- <-]; auto]. destruct (cholesky _ _); intros [= <- <-]; auto. intros N. destruct N. reflexivity. }
  destruct H as [H|[H|H]]; [|unfold ekf_update in H; destruct (vec_is_finite v); cbn [negb] in H; [|injection H; intros <- <-; auto]; apply (U _ _ _ H N)|apply (U _ _ _ H N)].
  destruct (jacobian _ _ _ _); [|injection H; intros <- <-; auto..]. destruct (_ || _); injection H; intros <- <-; auto. destruct N. reflexivity.
Qed.

Lemma restore (r y : list R) : length r = length y -> vec_sub (vec_add r y) y = r.
Proof. unfold vec_sub, vec_add. revert y. induction r as [|a r IH]; intros [|b y] L; try discriminate; auto. cbn. rewrite IH by (cbn in L; lia). f_equal. rnum. ring. Qed.
Lemma as_linear_sized n m f h : ekf_sized n m f -> shape m n h -> sized n m (as_linear n f h).
Proof. intros (A & B & C & D) H. exact (conj A (conj B (conj (shape_identity n) (conj H (conj C D))))). Qed.
Lemma as_linear_valid n m f h : ekf_valid n m f -> shape m n h -> valid n m (as_linear n f h).
Proof. intros (A & B & C & D) H. exact (conj (as_linear_sized n m f h A H) (conj B (conj C D))). Qed.

(** With formulas for models: the state goes through the model, and the covariance through the matrix of its partial derivatives. *)
Theorem C131_predict n m es (f : ExtendedKalmanFilter R) : (0 < n)%nat -> ekf_sized n m f -> ekf_derivator f = autodiff_multi -> length es = n ->
  (forall e, In e es -> smooth_at e (ekf_state f)) ->
  exists g J, ekf_predict n (formulas es) f = (g, Ok tt) /\ shape n n J /\
    (forall row col e, nth_error es row = Some e -> (col < n)%nat -> is_derive (slice (formula e R Rnum) (ekf_state f) col) (nth col (ekf_state f) 0) (mget J row col)) /\
    ekf_sized n m g /\ ekf_state g = map (fun e => formula e R Rnum (ekf_state f)) es /\
    equal n n (mget (ekf_covariance g)) (carried_covariance n (mget J) (mget (ekf_covariance f)) (mget (ekf_process_noise f))) /\
    ekf_process_noise g = ekf_process_noise f /\ ekf_measurement_noise g = ekf_measurement_noise f.
Proof.
  intros P (A & B & C & D) ED L SM. destruct (C123_jacobian_exact es (ekf_state f)) as (J & E1 & _ & E3 & E4); [destruct es; [cbn in L; lia|discriminate]|exact SM|].
  rewrite L, A in *. unfold ekf_predict. rewrite ED, E1. rewrite finite_vec_always, finite_mat_always. cbn [negb orb]. eexists. exists J. split; [reflexivity|].
  split; [exact E3|]. split; [exact E4|]. destruct (predicted_read n J (ekf_covariance f) (ekf_process_noise f) C) as [S1 S2].
  split; [|split; [reflexivity|split; [exact S2|split; reflexivity]]]. split; [cbn; unfold formulas; rewrite map_length; exact L|]. split; [exact S1|]. split; [exact C|exact D].
Qed.
(** An update with formulas for the sensor is the linear filter's, with the matrix of partial derivatives at the estimate; so everything
    said about that one (C129) holds. *)
Theorem C131_update n m es (f : ExtendedKalmanFilter R) residual : (0 < m)%nat -> ekf_valid n m f -> ekf_derivator f = autodiff_multi -> length es = m ->
  (forall e, In e es -> smooth_at e (ekf_state f)) -> length residual = m ->
  exists H z g result, shape m n H /\
    (forall row col e, nth_error es row = Some e -> (col < n)%nat -> is_derive (slice (formula e R Rnum) (ekf_state f) col) (nth col (ekf_state f) 0) (mget H row col)) /\
    valid n m (as_linear n f H) /\ length z = m /\ equal_vectors m (innovation_of n (as_linear n f H) (vget z)) (vget residual) /\
    kf_update n m z (as_linear n f H) = (g, result) /\ ekf_update_with_residual n m (formulas es) residual f = (like_linear f g, result) /\
    (definite_covariance m (mget (ekf_measurement_noise f)) -> result = Ok tt) /\
    (forall y, length y = m -> vec_sub y (map (fun e => formula e R Rnum (ekf_state f)) es) = residual -> ekf_update n m (formulas es) y f = (like_linear f g, result)).
Proof.
  intros P V ED L SM LR. pose proof V as V0. destruct V0 as ((A & B & C & D) & V1). destruct (C123_jacobian_exact es (ekf_state f)) as (J & E1 & _ & E3 & E4); [destruct es; [cbn in L; lia|discriminate]|exact SM|].
  rewrite L, A in *. set (z := vec_add residual (mat_vec m n J (ekf_state f))). rewrite <- ED in E1.
  pose proof (C131_linear R Rnum n m (formulas es) residual z f J E1 (finite_vec_always _) (finite_vec_always _)) as U.
  assert (LZ : length z = m) by (unfold z, vec_add; rewrite map2_length; rewrite ?mat_vec_length; auto).
  destruct (kf_update n m z (as_linear n f J)) as [g result] eqn:K. specialize (U ltac:(unfold z; apply restore; rewrite mat_vec_length; auto)).
  pose proof (as_linear_valid n m f J V E3) as VL.
  exists J, z, g, result. split; [exact E3|]. split; [exact E4|]. split; [exact VL|]. split; [exact LZ|]. split.
  - intros i Hi. unfold innovation_of, minus_vector, z. cbn [as_linear kf_model kf_state]. unfold vec_add. rewrite vget_map2 by (rewrite ?mat_vec_length; lia).
    rewrite vget_mat_vec by auto. rnum. ring.
  - split; [exact K|]. split; [exact U|]. split.
    + intros DR. pose proof (C129_accepts n m (as_linear n f J) z VL DR LZ) as O. rewrite K in O. exact O.
    + intros y LY EY. unfold ekf_update. rewrite finite_vec_always. cbn [negb]. unfold formulas at 2. rewrite EY. exact U.
Qed.
(** For models that are affine the filter is the linear filter: the jacobian is the matrix of the model. *)
Theorem C131_affine n m es (a : matrix) (b : vector) (f : ExtendedKalmanFilter R) : (0 < m)%nat -> ekf_sized n m f -> ekf_derivator f = autodiff_multi -> length es = m ->
  (forall e, In e es -> smooth_at e (ekf_state f)) ->
  (forall row e p, nth_error es row = Some e -> length p = n -> formula e R Rnum p = times n a (vget p) row + b row) ->
  exists H, jacobian (ekf_derivator f) (formulas es) m (ekf_state f) = Ok H /\ shape m n H /\ equal m n (mget H) a.
Proof.
  intros P (A & B & C & D) ED L SM AF. destruct (C123_jacobian_exact es (ekf_state f)) as (J & E1 & _ & E3 & E4); [destruct es; [cbn in L; lia|discriminate]|exact SM|].
  rewrite L, A in *. exists J. rewrite ED. split; [exact E1|]. split; [exact E3|]. intros i j Hi Hj.
  destruct (nth_error es i) as [e|] eqn:E; [|apply nth_error_None in E; lia]. specialize (E4 i j e E Hj). rewrite <- (is_derive_unique _ _ _ E4).
  apply is_derive_unique. set (p := ekf_state f) in *.
  apply (is_derive_ext (fun v => (times n a (vget p) i + b i - a i j * vget p j) + a i j * v)).
  - intros v. unfold slice. rewrite (AF i e _ E) by (unfold moved; rewrite set_nth_length; auto). unfold times.
    match goal with |- ?x = ?y => change (@eq R x y) end.
    rewrite (bsum_ext n (fun k => a i k * vget (moved p j v) k) (fun k => a i k * vget p k + (if Nat.eqb k j then a i j * (v - vget p j) else 0))).
    + rewrite bsum_plus, bsum_delta by auto. ring.
    + intros k Hk. unfold moved, vget. destruct (Nat.eqb_spec k j) as [->|N]; [rewrite nth_set_nth_eq by (rewrite A; auto); rnum; ring|rewrite nth_set_nth_neq by auto; ring].
  - auto_derive; [exact I|]. match goal with |- ?x = ?y => change (@eq R x y) end. ring.
Qed.

(** Everything that can be done to a filter; the models are any code at all. *)
Inductive ekf_operation :=
| EPredict (model : VectorFn) | EUpdate (model : VectorFn) (z : list R) | EUpdateWithResidual (model : VectorFn) (residual : list R)
| ESetState (x : list R) | ESetNoise (process measurement : mat R) | ESetMode (mode : CovarianceUpdate).
Definition ekf_perform (n m : nat) (f : ExtendedKalmanFilter R) (op : ekf_operation) : ExtendedKalmanFilter R :=
  match op with
  | EPredict model => fst (ekf_predict n model f) | EUpdate model z => fst (ekf_update n m model z f)
  | EUpdateWithResidual model r => fst (ekf_update_with_residual n m model r f)
  | ESetState x => ekf_set f x (ekf_covariance f) | ESetNoise q r => ekf_set_noise f q r | ESetMode mode => ekf_with_mode f mode
  end.
Definition ekf_sensible (n m : nat) (op : ekf_operation) : Prop :=
  match op with
  | EPredict model => forall x, length x = n -> length (model R Rnum x) = n
  | EUpdate model z => length z = m /\ forall x, length x = n -> length (model R Rnum x) = m
  | EUpdateWithResidual model r => length r = m
  | ESetState x => length x = n
  | ESetNoise q r => shape n n q /\ covariance_matrix n (mget q) /\ shape m m r /\ covariance_matrix m (mget r)
  | ESetMode _ => True
  end.
Lemma residual_valid n m model r f : ekf_valid n m f -> length r = m -> ekf_valid n m (fst (ekf_update_with_residual n m model r f)).
Proof.
  intros V L. pose proof V as V0. destruct V0 as ((A & B & C & D) & E & F & G).
  destruct (jacobian (ekf_derivator f) model m (ekf_state f)) as [J|e|] eqn:EJ.
  - set (z := vec_add r (mat_vec m n J (ekf_state f))). pose proof (jacobian_shape _ _ _ _ _ EJ) as SJ. rewrite A in SJ.
    assert (LZ : length z = m) by (unfold z, vec_add; rewrite map2_length; rewrite ?mat_vec_length; auto).
    pose proof (C131_linear R Rnum n m model r z f J EJ (finite_vec_always _) (finite_vec_always _)) as U.
    pose proof (C129_update n m (as_linear n f J) z (as_linear_valid n m f J V SJ) LZ) as W. cbv zeta in W.
    destruct (kf_update n m z (as_linear n f J)) as [g result]. rewrite (U ltac:(unfold z; apply restore; rewrite mat_vec_length; auto)). cbn [fst].
    destruct W as (((W1 & W2 & _) & W3 & _) & _). split; [split; [exact W1|split; [exact W2|split; [exact C|exact D]]]|]. split; [exact W3|]. split; [exact F|exact G].
  - unfold ekf_update_with_residual. rewrite finite_vec_always, EJ. exact V.
  - unfold ekf_update_with_residual. rewrite finite_vec_always, EJ. exact V.
Qed.
(** Whatever is done, with whatever models and whatever derivator, the covariance stays symmetric and positive semidefinite. *)
Theorem C131_history n m f ops : ekf_valid n m f -> (forall op, In op ops -> ekf_sensible n m op) -> ekf_valid n m (fold_left (ekf_perform n m) ops f).
Proof.
  revert f. induction ops as [|op ops IH]; intros f V H; [exact V|]. cbn [fold_left]. apply IH; [|intros o Ho; apply H; right; exact Ho].
  specialize (H op (or_introl eq_refl)). clear IH ops. pose proof V as V0. destruct V0 as ((A & B & C & D) & E & F & G).
  destruct op; cbn [ekf_perform ekf_sensible] in *.
  - unfold ekf_predict. destruct (jacobian _ _ _ _) as [J|e|]; [|exact V..]. rewrite finite_vec_always, finite_mat_always. cbn [negb orb fst].
    destruct (predicted_read n J (ekf_covariance f) (ekf_process_noise f) C) as [S1 S2].
    split; [split; [cbn; apply H, A|split; [exact S1|split; [exact C|exact D]]]|]. split; [|split; [exact F|exact G]].
    destruct (carried_is_covariance n (mget J) _ _ E F) as [Y1 Y2]. split; [apply (symmetric_ext n _ _ S2 Y1)|]. intros x. cbn [ekf_set ekf_covariance]. rewrite (quadratic_ext n _ _ x S2). apply Y2.
  - destruct H as [H1 H2]. unfold ekf_update. rewrite finite_vec_always. cbn [negb]. apply residual_valid; auto. unfold vec_sub. rewrite map2_length; rewrite ?H1, ?H2; auto.
  - apply residual_valid; auto.
  - split; [split; [exact H|split; [exact B|split; [exact C|exact D]]]|]. auto.
  - destruct H as (H1 & H2 & H3 & H4). split; [split; [exact A|split; [exact B|split; [exact H1|exact H3]]]|]. auto.
  - split; [split; [exact A|split; [exact B|split; [exact C|exact D]]]|]. auto.
Qed.

(** ** A concrete case: the squared distance to a point, as in the library's documentation *)
Definition range_formula : expr := EUn USqrt (EBin BAdd (EBin BMul (EBin BSub (ELit 3 1) (EVar 0)) (EBin BSub (ELit 3 1) (EVar 0))) (EBin BMul (EBin BSub (ELit 4 1) (EVar 1)) (EBin BSub (ELit 4 1) (EVar 1)))).
Definition sample_ekf : ExtendedKalmanFilter R := ekf_new 1 [0; 0] (scaled_identity2 1) (scaled_identity2 (/ 100)) [[/ 10]].
Example C131_example : ekf_valid 2 1 sample_ekf /\ ekf_derivator sample_ekf = autodiff_multi /\ smooth_at range_formula (ekf_state sample_ekf) /\
  (forall e, In e [EVar 0; EVar 1] -> smooth_at e (ekf_state sample_ekf)) /\
  forall op, In op [EPredict (formulas [EVar 0; EVar 1]); EUpdate (formulas [range_formula]) [5]] -> ekf_sensible 2 1 op.
Proof.
  destruct sample_valid as ((A & B & C & D & E & F) & G). split; [split; [exact (conj A (conj B (conj E F)))|exact G]|]. split; [reflexivity|].
  split; [cbn; repeat split; try (rnum; lra)|]. split; [intros e [<-|[<-|[]]]; cbn; auto|]. intros op [<-|[<-|[]]]; cbn; auto.
Qed.

Print Assumptions C131_linear.
Print Assumptions C131_refused.
Print Assumptions C131_predict.
Print Assumptions C131_update.
Print Assumptions C131_affine.
Print Assumptions C131_history.
