(** C128 predicting a linear Kalman filter, C129 updating it, C130 the filter as a least squares fit of the whole history. *)
From Coq Require Import ZArith Reals List Bool Arith Lia Lra Psatz.
From Verif Require Import Base.Scalar Base.RNum Base.XNum Base.Lists Base.Series Model.Errors Model.Vector Model.Matrix Model.Lu Model.Cholesky Model.Kalman.
From Verif Require Import Spec.Matrix Spec.Kalman Proofs.Matrix Proofs.Vector Proofs.Algebra Proofs.Riccati Proofs.Kalman Props.Cholesky.
Import ListNotations.
Local Open Scope R_scope.

(** A filter whose vectors and matrices have the sizes their types promise. *)
Definition sized (n m : nat) (f : KalmanFilter R) : Prop :=
  length (kf_state f) = n /\ shape n n (kf_covariance f) /\ shape n n (kf_transition f) /\ shape m n (kf_model f) /\
  shape n n (kf_process_noise f) /\ shape m m (kf_measurement_noise f).
(** ... whose covariances can be covariances. *)
Definition valid (n m : nat) (f : KalmanFilter R) : Prop :=
  sized n m f /\ covariance_matrix n (mget (kf_covariance f)) /\ covariance_matrix n (mget (kf_process_noise f)) /\
  covariance_matrix m (mget (kf_measurement_noise f)).

(** ** C128 *)
Theorem C128_predict n m (f : KalmanFilter R) c (b : mat R) (u : list R) : sized n m f ->
  let g := kf_predict n f in let gc := kf_predict_with_control n c b u f in
  sized n m g /\ sized n m gc /\ kf_model_of g = kf_model_of f /\ kf_model_of gc = kf_model_of f /\
  equal_vectors n (vget (kf_state g)) (times n (mget (kf_transition f)) (vget (kf_state f))) /\
  equal_vectors n (vget (kf_state gc)) (fun i => times n (mget (kf_transition f)) (vget (kf_state f)) i + times c (mget b) (vget u) i) /\
  kf_covariance gc = kf_covariance g /\
  equal n n (mget (kf_covariance g)) (carried_covariance n (mget (kf_transition f)) (mget (kf_covariance f)) (mget (kf_process_noise f))).
Proof.
  intros (A & B & C & D & E & F) g gc. destruct (predicted_read n (kf_transition f) (kf_covariance f) (kf_process_noise f) E) as [P Q].
  split; [|split; [|split; [|split; [|split; [|split; [|split]]]]]]; try reflexivity.
  - unfold sized. cbn. split; [apply mat_vec_length|]. auto.
  - unfold sized. cbn. split; [unfold vec_add; rewrite map2_length; rewrite !mat_vec_length; auto|]. auto.
  - intros i Hi. apply vget_mat_vec; auto.
  - intros i Hi. cbn [gc kf_predict_with_control kf_set kf_state]. unfold vec_add. rewrite vget_map2 by (rewrite !mat_vec_length; auto).
    rewrite !vget_mat_vec by auto. reflexivity.
  - exact Q.
Qed.

(** Everything that can be done to a filter. *)
Inductive operation :=
| Predict | PredictWithControl (c : nat) (b : mat R) (u : list R) | Update (z : list R) | SetState (x : list R) | SetTransition (a : mat R)
| SetProcessNoise (a : mat R) | SetModel (a : mat R) | SetMeasurementNoise (a : mat R) | SetMode (mode : CovarianceUpdate).
Definition perform (n m : nat) (f : KalmanFilter R) (op : operation) : KalmanFilter R :=
  match op with
  | Predict => kf_predict n f | PredictWithControl c b u => kf_predict_with_control n c b u f | Update z => fst (kf_update n m z f)
  | SetState x => kf_set_state f x | SetTransition a => kf_set_transition f a | SetProcessNoise a => kf_set_process_noise f a
  | SetModel a => kf_set_measurement_model f a | SetMeasurementNoise a => kf_set_measurement_noise f a | SetMode mode => kf_with_mode f mode
  end.
(** What the types and the meaning of a noise ask of the arguments. *)
Definition sensible (n m : nat) (op : operation) : Prop :=
  match op with
  | Update z => length z = m | SetState x => length x = n | SetTransition a => shape n n a
  | SetProcessNoise a => shape n n a /\ covariance_matrix n (mget a) | SetModel a => shape m n a
  | SetMeasurementNoise a => shape m m a /\ covariance_matrix m (mget a) | _ => True
  end.

(** ** C129 *)

(** What a measurement does.  [S] is [h p h' + r]. *)
Definition innovation_spread (n m : nat) (f : KalmanFilter R) : matrix :=
  plus_matrix (product n (mget (kf_model f)) (product n (mget (kf_covariance f)) (transposed (mget (kf_model f))))) (mget (kf_measurement_noise f)).
Definition innovation_of (n : nat) (f : KalmanFilter R) (z : vector) : vector := minus_vector z (times n (mget (kf_model f)) (vget (kf_state f))).

Lemma update_cases n m f z : sized n m f -> symmetric n (mget (kf_covariance f)) -> symmetric m (mget (kf_measurement_noise f)) -> length z = m ->
  let S := innovation_spread n m f in let '(g, result) := kf_update n m z f in
  sized n m g /\ kf_model_of g = kf_model_of f /\ kf_mode g = kf_mode f /\
  length (kf_innovation g) = m /\ equal_vectors m (vget (kf_innovation g)) (innovation_of n f (vget z)) /\ shape m m (kf_spread g) /\ equal m m (mget (kf_spread g)) S /\
  match result with
  | Ok _ => positive_definite m S /\ exists k, solves_gain n m (mget (kf_model f)) (mget (kf_covariance f)) S k /\
      equal_vectors n (vget (kf_state g)) (fun i => vget (kf_state f) i + times m k (innovation_of n f (vget z)) i) /\
      equal n n (mget (kf_covariance g)) (corrected_covariance n m (mget (kf_model f)) (mget (kf_covariance f)) (mget (kf_measurement_noise f)) k)
  | Err e => e = EsNotPositiveDefinite /\ ~ positive_definite m S /\ kf_state g = kf_state f /\ kf_covariance g = kf_covariance f
  | Panic => False
  end.
Proof.
  intros (A & B & C & D & E & F) Y Z L S. unfold kf_update. rewrite finite_vec_always. cbn [negb].
  set (h := kf_model f) in *. set (v := vec_sub z (mat_vec m n h (kf_state f))). set (s := spread_of_innovation n m h (kf_covariance f) (kf_measurement_noise f)).
  rewrite finite_mat_always. cbn [negb].
  destruct (spread_read n m h (kf_covariance f) (kf_measurement_noise f) F) as [SS SE]. fold s in SS, SE. change (equal m m (mget s) S) in SE.
  assert (YS : symmetric m (mget s)) by (apply (symmetric_ext m _ _ SE); apply innovation_symmetric; auto).
  assert (VL : length v = m) by (unfold v, vec_sub; rewrite map2_length; rewrite ?mat_vec_length; auto).
  assert (VE : equal_vectors m (vget v) (innovation_of n f (vget z))).
  { intros i Hi. unfold v, vec_sub. rewrite vget_map2 by (rewrite ?mat_vec_length; lia). rewrite vget_mat_vec by auto. reflexivity. }
  destruct (C79_accepts m s SS YS) as [C1 C2].
  assert (PD : positive_definite m (mget s) <-> positive_definite m S).
  { split; intros Q x N; specialize (Q x N); [change (0 < quadratic m S x); rewrite <- (quadratic_ext m _ _ x SE)|change (0 < quadratic m (mget s) x); rewrite (quadratic_ext m _ _ x SE)]; exact Q. }
  destruct (cholesky m s) as [factor|e|] eqn:EC.
  - cbn [kf_set_innovation kf_state kf_covariance kf_mode kf_measurement_noise].
    destruct (gain_read n m h (kf_covariance f) (kf_measurement_noise f) factor F Y Z EC) as [GS GE].
    set (k := gain_of n m factor h (kf_covariance f)) in *.
    destruct (updated_read n m (kf_mode f) h (kf_covariance f) (kf_measurement_noise f) k F GS Y Z GE) as [US UE].
    assert (XL : length (vec_add (kf_state f) (mat_vec n m k v)) = n) by (unfold vec_add; rewrite map2_length; rewrite ?mat_vec_length; lia).
    split; [exact (conj XL (conj US (conj C (conj D (conj E F)))))|]. split; [reflexivity|]. split; [reflexivity|]. split; [exact VL|]. split; [exact VE|]. split; [exact SS|]. split; [exact SE|].
    split; [apply PD, C1; eauto|]. exists (mget k). split; [exact GE|]. split; [|exact UE].
    intros i Hi. cbn [kf_set kf_state]. unfold vec_add. rewrite vget_map2 by (rewrite ?mat_vec_length; lia). rewrite vget_mat_vec by auto. rnum. f_equal.
    apply times_equal_r with (n := n); auto.
  - split; [exact (conj A (conj B (conj C (conj D (conj E F)))))|]. split; [reflexivity|]. split; [reflexivity|]. split; [exact VL|]. split; [exact VE|]. split; [exact SS|]. split; [exact SE|].
    split; [reflexivity|]. split; [|auto]. rewrite <- PD. intros Q. apply C1 in Q. destruct Q; discriminate.
  - exfalso. destruct (Classical_Prop.classic (positive_definite m (mget s))) as [Q|Q]; [apply C1 in Q; destruct Q; discriminate|apply C2 in Q; discriminate].
Qed.

(** The measurement is taken exactly when [S] is positive definite; the estimate is then corrected by a gain that no other gain beats in
    any direction, so the covariance is a covariance and no larger than before; otherwise the estimate stays as it was. *)
Theorem C129_update n m f z : valid n m f -> length z = m ->
  let S := innovation_spread n m f in let '(g, result) := kf_update n m z f in
  valid n m g /\ kf_model_of g = kf_model_of f /\
  equal_vectors m (vget (kf_innovation g)) (innovation_of n f (vget z)) /\ equal m m (mget (kf_spread g)) S /\
  (result = Ok tt <-> positive_definite m S) /\ (result = Err EsNotPositiveDefinite <-> ~ positive_definite m S) /\
  (~ positive_definite m S -> kf_state g = kf_state f /\ kf_covariance g = kf_covariance f) /\
  (positive_definite m S -> exists k,
     let after l := corrected_covariance n m (mget (kf_model f)) (mget (kf_covariance f)) (mget (kf_measurement_noise f)) l in
     equal_vectors n (vget (kf_state g)) (fun i => vget (kf_state f) i + times m k (innovation_of n f (vget z)) i) /\
     equal n n (mget (kf_covariance g)) (after k) /\
     (forall l, no_larger n (after k) (after l)) /\
     (forall l, no_larger n (after l) (after k) -> equal n m l k) /\
     no_larger n (mget (kf_covariance g)) (mget (kf_covariance f))).
Proof.
  intros (SZ & [P1 P2] & Q & [R1 R2]) L S. pose proof (update_cases n m f z SZ P1 R1 L) as U. fold S in U. cbv zeta in U.
  destruct (kf_update n m z f) as [g result]. destruct U as (A & B & M & IL & C & _ & D & E).
  assert (VN : kf_process_noise g = kf_process_noise f /\ kf_measurement_noise g = kf_measurement_noise f).
  { unfold kf_model_of in B. injection B. auto. } destruct VN as [N1 N2].
  assert (CV : covariance_matrix n (mget (kf_covariance g))).
  { destruct result as [[]|e|]; [|destruct E as (_ & _ & _ & ->); split; auto|destruct E]. destruct E as (_ & k & _ & _ & K).
    pose proof (corrected_is_covariance n m (mget (kf_model f)) _ _ k (conj P1 P2) (conj R1 R2)) as [X1 X2].
    split; [apply (symmetric_ext n _ _ K X1)|]. intros x. rewrite (quadratic_ext n _ _ x K). apply X2. }
  split; [split; [exact A|split; [exact CV|split; [rewrite N1; exact Q|rewrite N2; split; auto]]]|].
  split; [exact B|]. split; [exact C|]. split; [exact D|].
  destruct result as [[]|e|]; [| |destruct E].
  - destruct E as (PD & k & G & X & K). split; [tauto|]. split; [split; [discriminate|tauto]|]. split; [tauto|]. intros _. exists k. cbv zeta.
    split; [exact X|]. split; [exact K|]. split; [|split].
    + intros l x. pose proof (gain_square n m _ _ _ k P1 R1 G l x) as E1. pose proof (gain_form n m _ _ _ k P1 R1 G x) as E2.
      rewrite E2, E1. pose proof (definite_nonneg m S PD) as N. match goal with |- _ <= _ + quadratic m _ ?y => specialize (N y) end. 
      change (innovation_matrix n m (mget (kf_model f)) (mget (kf_covariance f)) (mget (kf_measurement_noise f))) with S. lra.
    + intros l H i j Hi Hj. set (x := fun q : nat => if Nat.eqb q i then 1 else 0). specialize (H x).
      rewrite (gain_form n m _ _ _ k P1 R1 G x), (gain_square n m _ _ _ k P1 R1 G l x) in H.
      change (innovation_matrix n m (mget (kf_model f)) (mget (kf_covariance f)) (mget (kf_measurement_noise f))) with S in H.
      set (d := minus_vector (times n (transposed l) x) (times n (transposed k) x)) in H.
      assert (W : d j = l i j - k i j).
      { unfold d, minus_vector, times, x, transposed. f_equal.
        - transitivity (dot_product n (fun q => if Nat.eqb q i then 1 else 0) (fun q => l q j)); [apply bsum_ext; intros; ring|]. rewrite delta_dot; auto.
        - transitivity (dot_product n (fun q => if Nat.eqb q i then 1 else 0) (fun q => k q j)); [apply bsum_ext; intros; ring|]. rewrite delta_dot; auto. }
      destruct (Req_dec (d j) 0) as [Z|Z]; [lra|]. exfalso. specialize (PD d (ex_intro _ j (conj Hj Z))). change (0 < quadratic m S d) in PD. lra.
    + intros x. rewrite (quadratic_ext n _ _ x K), (gain_form n m _ _ _ k P1 R1 G x). pose proof (definite_nonneg m S PD (times n (transposed k) x)).
      change (innovation_matrix n m (mget (kf_model f)) (mget (kf_covariance f)) (mget (kf_measurement_noise f))) with S. lra.
  - destruct E as (-> & NP & E1 & E2). split; [split; [discriminate|tauto]|]. split; [tauto|]. split; [auto|]. tauto.
Qed.
(** Noise in every channel is enough for the measurement to be taken. *)
Theorem C129_accepts n m f z : valid n m f -> definite_covariance m (mget (kf_measurement_noise f)) -> length z = m -> snd (kf_update n m z f) = Ok tt.
Proof.
  intros V D L. pose proof (C129_update n m f z V L) as U. cbv zeta in U. destruct (kf_update n m z f) as [g r]. apply U.
  destruct V as (_ & P & _). apply (proj2 (plus_definite m _ _ (outer_covariance m n (mget (kf_model f)) _ P) D)).
Qed.
(** Both ways of recomputing the covariance agree. *)
Theorem C129_modes n m f z : valid n m f -> length z = m ->
  let '(a, ra) := kf_update n m z (kf_with_mode f Joseph) in let '(b, rb) := kf_update n m z (kf_with_mode f Naive) in
  ra = rb /\ kf_state a = kf_state b /\ equal n n (mget (kf_covariance a)) (mget (kf_covariance b)).
Proof.
  intros (SZ & [P1 P2] & Q & [R1 R2]) L. destruct SZ as (A & B & C & D & E & F). unfold kf_update. rewrite finite_vec_always.
  cbn [negb kf_with_mode kf_model kf_state kf_covariance kf_measurement_noise kf_set_innovation kf_mode]. rewrite !finite_mat_always. cbn [negb].
  set (h := kf_model f) in *. set (s := spread_of_innovation n m h (kf_covariance f) (kf_measurement_noise f)).
  destruct (cholesky m s) as [factor|e|] eqn:EC; [|split; [reflexivity|split; [reflexivity|apply equal_refl]]..].
  cbn [kf_set kf_state kf_covariance kf_set_innovation]. split; [reflexivity|]. split; [reflexivity|].
  destruct (gain_read n m h (kf_covariance f) (kf_measurement_noise f) factor F P1 R1 EC) as [GS GE].
  eapply equal_trans; [apply (updated_read n m Joseph); auto|]. apply equal_sym. apply (updated_read n m Naive); auto.
Qed.
(** The normalized innovation squared is [v' w v] for the inverse [w] of the innovation covariance, so never negative. *)
Theorem C129_normalized m (v : list R) (s : mat R) w : length v = m -> shape m m s -> symmetric m (mget s) -> positive_definite m (mget s) ->
  inverse_of m (mget s) w -> exists r, weighted_innovation m v s = Ok r /\ r = quadratic m w (vget v) /\ 0 <= r.
Proof.
  intros L H Y PD I. destruct (proj2 (proj1 (C79_accepts m s H Y)) PD) as [l E]. unfold weighted_innovation. rewrite E.
  destruct (C80_solve m s l v H Y E L) as (XL & XE & XU). set (x := cholesky_solve m l v) in *. eexists. split; [reflexivity|].
  assert (Q : dot v x = quadratic m w (vget v)).
  { rewrite dot_sum by lia. rewrite L. unfold quadratic. symmetry. apply bsum_ext. intros i Hi. f_equal.
    apply (XU (times m w (vget v))); auto. apply inverse_times, I. }
  split; [exact Q|]. rewrite Q. apply definite_nonneg. apply (proj2 (inverse_definite m (mget s) w (conj Y PD) I)).
Qed.
(** Any scalar: a reading that is not finite is refused and nothing at all changes; one whose innovation covariance is not finite is refused
    and the estimate does not change; nothing panics. *)
Theorem C129_refused T (NT : Num T) n m (f : KalmanFilter T) z :
  (vec_is_finite z = false -> kf_update n m z f = (f, Err EsNonFinite)) /\
  (forall g r, kf_update n m z f = (g, r) -> kf_model_of g = kf_model_of f /\ kf_mode g = kf_mode f /\
     match r with Ok _ => vec_is_finite z = true /\ mat_is_finite (spread_of_innovation n m (kf_model f) (kf_covariance f) (kf_measurement_noise f)) = true
     | _ => kf_state g = kf_state f /\ kf_covariance g = kf_covariance f end).
Proof.
  unfold kf_update. split; [intros ->; reflexivity|]. intros g r. destruct (vec_is_finite z); cbn [negb]; [|intros [= <- <-]; auto].
  destruct (mat_is_finite _) eqn:M; cbn [negb]; [|intros [= <- <-]; auto]. destruct (cholesky _ _); intros [= <- <-]; auto.
Qed.

(** Whatever is done to a filter, its covariance stays symmetric and positive semidefinite. *)
Theorem C128_history n m f ops : valid n m f -> (forall op, In op ops -> sensible n m op) -> valid n m (fold_left (perform n m) ops f).
Proof.
  revert f. induction ops as [|op ops IH]; intros f V H; [exact V|]. cbn [fold_left]. apply IH; [|intros o Ho; apply H; right; exact Ho].
  specialize (H op (or_introl eq_refl)). clear IH ops. pose proof V as V0. destruct V as (SZ & P & Q & R). pose proof SZ as SZ0. destruct SZ as (A & B & C & D & E & F).
  assert (K : covariance_matrix n (mget (predicted_covariance n (kf_transition f) (kf_covariance f) (kf_process_noise f)))).
  { destruct (predicted_read n (kf_transition f) (kf_covariance f) (kf_process_noise f) E) as [_ X].
    destruct (carried_is_covariance n (mget (kf_transition f)) _ _ P Q) as [Y1 Y2]. split; [apply (symmetric_ext n _ _ X Y1)|]. intros x. rewrite (quadratic_ext n _ _ x X). apply Y2. }
  destruct op; cbn [perform sensible] in *.
  - destruct (C128_predict n m f 0 [] [] SZ0) as (X & _). split; [exact X|]. auto.
  - destruct (C128_predict n m f c b u SZ0) as (_ & X & _). split; [exact X|]. auto.
  - pose proof (C129_update n m f z V0 H) as U. cbv zeta in U. destruct (kf_update n m z f) as [g r]. apply U.
  - split; [exact (conj H (conj B (conj C (conj D (conj E F)))))|]. auto.
  - split; [exact (conj A (conj B (conj H (conj D (conj E F)))))|]. auto.
  - destruct H as [H1 H2]. split; [exact (conj A (conj B (conj C (conj D (conj H1 F)))))|]. auto.
  - split; [exact (conj A (conj B (conj C (conj H (conj E F)))))|]. auto.
  - destruct H as [H1 H2]. split; [exact (conj A (conj B (conj C (conj D (conj E H1)))))|]. auto.
  - split; [exact SZ0|]. auto.
Qed.

(** ** C130 *)

(** One update: the new state is the one value that best fits the old estimate and the reading, each weighted by its inverse covariance,
    and the inverses of the covariances add up. *)
Theorem C130_best_fit n m f z info weight : valid n m f -> length z = m ->
  definite_covariance n (mget (kf_covariance f)) -> inverse_of n (mget (kf_covariance f)) info ->
  definite_covariance m (mget (kf_measurement_noise f)) -> inverse_of m (mget (kf_measurement_noise f)) weight ->
  exists g, kf_update n m z f = (g, Ok tt) /\
  let h := mget (kf_model f) in let cost := misfit n m info (vget (kf_state f)) h weight (vget z) in
  let info' := plus_matrix info (product m (transposed h) (product m weight h)) in
  inverse_of n (mget (kf_covariance g)) info' /\ definite_covariance n (mget (kf_covariance g)) /\ definite_covariance n info' /\
  (forall x, cost x = cost (vget (kf_state g)) + quadratic n info' (minus_vector x (vget (kf_state g)))) /\
  (forall x, cost x <= cost (vget (kf_state g)) -> equal_vectors n x (vget (kf_state g))).
Proof.
  intros V L DP IP DR IR. pose proof (C129_accepts n m f z V DR L) as OK. destruct V as (SZ & [P1 P2] & Q & [R1 R2]).
  pose proof (update_cases n m f z SZ P1 R1 L) as U. cbv zeta in U. destruct (kf_update n m z f) as [g r]. cbn [snd] in OK. subst r.
  destruct U as (A & B & M & IL & C & _ & D & PD & k & G & X & K). exists g. split; [reflexivity|]. cbv zeta.
  set (h := mget (kf_model f)) in *. set (S := innovation_spread n m f) in *.
  destruct (inverse_exists m S (conj (innovation_symmetric n m h _ _ P1 R1) PD)) as [w IS].
  assert (Y : symmetric n (mget (kf_covariance g))). { apply (symmetric_ext n _ _ K). apply symmetric_plus; apply outer_symmetric; auto. }
  assert (I' : inverse_of n (mget (kf_covariance g)) (combined m h info weight)).
  { pose proof (combined_inverse n m h _ _ k info weight P1 R1 G IP IR w IS) as [I1 I2]. split.
    - eapply equal_trans; [apply equal_product; [exact K|apply equal_refl]|exact I2].
    - eapply equal_trans; [apply equal_product; [apply equal_refl|exact K]|exact I1]. }
  assert (DC : definite_covariance n (combined m h info weight)).
  { pose proof (inverse_definite m _ weight DR IR) as DW. pose proof (inverse_definite n _ info DP IP) as DI.
    pose proof (outer_covariance n m (transposed h) weight (definite_covariance_matrix m _ DW)) as O. rewrite t_twice in O.
    pose proof (plus_definite n _ _ O DI) as [E1 E2]. split; [apply (combined_symmetric n m h _ _ info weight P1 R1 IP IR)|].
    intros x N. specialize (E2 x N). change (0 < quadratic n (combined m h info weight) x). unfold combined. rewrite quadratic_plus.
    change (0 < quadratic n (plus_matrix (product m (transposed h) (product m weight h)) info) x) in E2. rewrite quadratic_plus in E2. lra. }
  split; [exact I'|]. split; [apply (inverse_definite n _ _ DC (inverse_sym _ _ _ I'))|]. split; [exact DC|].
  set (cost := misfit n m info (vget (kf_state f)) h weight (vget z)).
  assert (SQ : forall x, cost x = cost (vget (kf_state g)) + quadratic n (combined m h info weight) (minus_vector x (vget (kf_state g)))).
  { intros x. unfold cost. rewrite !(misfit_square n m h _ _ k info weight P1 R1 G IP IR w IS).
    set (v := minus_vector (vget z) (times n h (vget (kf_state f)))).
    rewrite (quadratic_vec n _ (minus_vector x (fun i => vget (kf_state f) i + times m k v i)) (minus_vector x (vget (kf_state g)))) by
      (intros i Hi; unfold minus_vector; rewrite (X i Hi); reflexivity).
    replace (quadratic n (combined m h info weight) (minus_vector (vget (kf_state g)) (fun i => vget (kf_state f) i + times m k v i))) with 0; [ring|].
    symmetry. rewrite (quadratic_vec n _ _ (fun _ => 0)).
    - unfold quadratic, dot_product. rewrite (bsum_ext n _ (fun _ => 0)); [apply bsum_0|]. intros. ring.
    - intros i Hi. unfold minus_vector. rewrite (X i Hi). unfold innovation_of. fold h. fold v. ring. }
  split; [exact SQ|]. intros x Hx. rewrite SQ in Hx. pose proof (definite_nonneg n _ (proj2 DC) (minus_vector x (vget (kf_state g)))) as N.
  assert (Z : quadratic n (combined m h info weight) (minus_vector x (vget (kf_state g))) = 0) by lra.
  intros i Hi. pose proof (quadratic_definite n _ _ DC Z i Hi) as W. unfold minus_vector in W. lra.
Qed.

(** The concrete arguments of one tick, and the calls it makes. *)
Record calls := { transition : mat R; controls : nat; control_model : mat R; control_input : list R; process_noise : mat R;
  measurement_model : mat R; measurement_noise : mat R; measurement : list R }.
Definition run_tick (n m : nat) (c : calls) (f : KalmanFilter R) : KalmanFilter R * Res unit EstimationError :=
  let f := kf_set_transition f (transition c) in let f := kf_set_process_noise f (process_noise c) in
  let f := kf_set_measurement_model f (measurement_model c) in let f := kf_set_measurement_noise f (measurement_noise c) in
  kf_update n m (measurement c) (kf_predict_with_control n (controls c) (control_model c) (control_input c) f).
Fixpoint run_ticks (n m : nat) (cs : list calls) (f : KalmanFilter R) : KalmanFilter R * Res unit EstimationError :=
  match cs with
  | [] => (f, Ok tt)
  | c :: cs => match run_tick n m c f with (f, Ok _) => run_ticks n m cs f | other => other end
  end.
(** [t] says what the calls [c] are about, and its weights are the inverses of their noises. *)
Definition describes (n m : nat) (t : tick) (c : calls) : Prop :=
  shape n n (transition c) /\ shape n n (process_noise c) /\ shape m n (measurement_model c) /\ shape m m (measurement_noise c) /\ length (measurement c) = m /\
  motion t = mget (transition c) /\ push t = times (controls c) (mget (control_model c)) (vget (control_input c)) /\
  sensor t = mget (measurement_model c) /\ reading t = vget (measurement c) /\
  definite_covariance n (mget (process_noise c)) /\ inverse_of n (mget (process_noise c)) (motion_weight t) /\
  definite_covariance m (mget (measurement_noise c)) /\ inverse_of m (mget (measurement_noise c)) (sensor_weight t).

(** After any history the state is where the history of states that best fits everything seen so far ends: among all histories ending at
    [x] the least misfit is a constant plus the squared distance of [x] from the state, weighed by the inverse of the covariance. *)
Theorem C130_history n m ticks cs f info : sized n m f -> Forall2 (describes n m) ticks cs ->
  definite_covariance n (mget (kf_covariance f)) -> inverse_of n (mget (kf_covariance f)) info ->
  exists g info' least, run_ticks n m cs f = (g, Ok tt) /\
  definite_covariance n (mget (kf_covariance g)) /\ inverse_of n (mget (kf_covariance g)) info' /\
  let cost x0 xs := quadratic n info (minus_vector x0 (vget (kf_state f))) + history_misfit n m x0 ticks xs in
  let distance x := quadratic n info' (minus_vector x (vget (kf_state g))) in
  (forall x0 xs, length xs = length ticks -> least + distance (last xs x0) <= cost x0 xs) /\
  (forall x, exists x0 xs, length xs = length ticks /\ last xs x0 = x /\ cost x0 xs = least + distance x).
Proof.
  intros SZ F. revert f info SZ. induction F as [|t c ticks cs D F IH]; intros f info SZ DP IP.
  - exists f, info, 0. cbn [run_ticks history_misfit]. split; [reflexivity|]. split; [exact DP|]. split; [exact IP|]. cbv zeta. split.
    + intros x0 [|x xs] L; [|discriminate]. cbn [last]. lra.
    + intros x. exists x, []. cbn. split; [reflexivity|]. split; [reflexivity|]. ring.
  - destruct D as (SF & SQ & SH & SR & LZ & EM & EP & ES & ER & DQ & IQ & DR & IR).
    destruct SZ as (LX & SP & _).
    set (f0 := kf_set_measurement_noise (kf_set_measurement_model (kf_set_process_noise (kf_set_transition f (transition c)) (process_noise c)) (measurement_model c)) (measurement_noise c)).
    assert (SZ0 : sized n m f0) by exact (conj LX (conj SP (conj SF (conj SH (conj SQ SR))))).
    destruct (C128_predict n m f0 (controls c) (control_model c) (control_input c) SZ0) as (_ & SZ1 & _ & _ & _ & X1 & EC & C1).
    set (f1 := kf_predict_with_control n (controls c) (control_model c) (control_input c) f0) in *. rewrite <- EC in C1. clear EC.
    change (kf_covariance f0) with (kf_covariance f) in C1. change (kf_transition f0) with (transition c) in C1, X1.
    change (kf_process_noise f0) with (process_noise c) in C1. change (kf_state f0) with (kf_state f) in X1. rewrite <- EM in C1, X1. rewrite <- EP in X1.
    assert (DK : definite_covariance n (carried_covariance n (motion t) (mget (kf_covariance f)) (mget (process_noise c)))).
    { apply plus_definite; [|exact DQ]. apply outer_covariance, definite_covariance_matrix, DP. }
    assert (D1 : definite_covariance n (mget (kf_covariance f1))).
    { destruct DK as [K1 K2]. split; [apply (symmetric_ext n _ _ C1 K1)|]. intros x N. change (0 < quadratic n (mget (kf_covariance f1)) x). rewrite (quadratic_ext n _ _ x C1). apply K2, N. }
    destruct (inverse_exists n _ DK) as [w IW].
    assert (I1 : inverse_of n (mget (kf_covariance f1)) w).
    { destruct IW as [W1 W2]. split; [eapply equal_trans; [apply equal_product; [exact C1|apply equal_refl]|exact W1]|eapply equal_trans; [apply equal_product; [apply equal_refl|exact C1]|exact W2]]. }
    assert (V1 : valid n m f1). { split; [exact SZ1|]. split; [apply definite_covariance_matrix, D1|]. split; apply definite_covariance_matrix; [exact DQ|exact DR]. }
    destruct (C130_best_fit n m f1 (measurement c) w (sensor_weight t) V1 LZ D1 I1 DR IR) as (g1 & U1 & I2 & D2 & DI2 & Q2 & _). cbv zeta in *.
    change (kf_model f1) with (measurement_model c) in *. rewrite <- ES, <- ER in *.
    set (info2 := plus_matrix w (product m (transposed (sensor t)) (product m (sensor_weight t) (sensor t)))) in *.
    assert (SZ2 : sized n m g1).
    { pose proof (update_cases n m f1 (measurement c) SZ1 (proj1 D1) (proj1 DR) LZ) as U. cbv zeta in U. rewrite U1 in U. apply U. }
    destruct (IH g1 info2 SZ2 D2 I2) as (g & info' & least & RUN & DG & IG & LOW & ATT). cbv zeta in LOW, ATT.
    exists g, info', (misfit n m w (vget (kf_state f1)) (sensor t) (sensor_weight t) (reading t) (vget (kf_state g1)) + least).
    split. { cbn [run_ticks]. unfold run_tick. fold f0. fold f1. rewrite U1. exact RUN. }
    split; [exact DG|]. split; [exact IG|]. cbv zeta.
    (* the misfit of one tick *)
    pose proof (gain_from_inverse n n (motion t) (mget (kf_covariance f)) _ w (proj1 DP) IW) as GK. set (k := transposed (product n w (product n (motion t) (mget (kf_covariance f))))) in *.
    set (comb := combined n (motion t) info (motion_weight t)).
    set (g0 := fun (x1 : vector) i => vget (kf_state f) i + times n k (minus_vector (minus_vector x1 (push t)) (times n (motion t) (vget (kf_state f)))) i).
    assert (ST : forall x0 x1, quadratic n info (minus_vector x0 (vget (kf_state f))) + quadratic n (motion_weight t) (minus_vector x1 (fun i => times n (motion t) x0 i + push t i)) +
        quadratic m (sensor_weight t) (minus_vector (reading t) (times n (sensor t) x1)) =
      quadratic n comb (minus_vector x0 (g0 x1)) + misfit n m w (vget (kf_state f1)) (sensor t) (sensor_weight t) (reading t) (vget (kf_state g1)) + quadratic n info2 (minus_vector x1 (vget (kf_state g1)))).
    { intros x0 x1. pose proof (Q2 x1) as E2. pose proof (misfit_square n n (motion t) _ _ k info (motion_weight t) (proj1 DP) (proj1 DQ) GK IP IQ w IW (vget (kf_state f)) (minus_vector x1 (push t)) x0) as E1. cbv zeta in E1.
      fold comb in E1. fold (g0 x1) in E1. unfold misfit in E1 at 1. unfold misfit in E2 at 1.
      rewrite (quadratic_vec n (motion_weight t) _ (minus_vector x1 (fun i => times n (motion t) x0 i + push t i))) in E1 by (intros i Hi; unfold minus_vector; ring).
      rewrite (quadratic_vec n w _ (minus_vector x1 (vget (kf_state f1)))) in E1 by (intros i Hi; unfold minus_vector; rewrite (X1 i Hi); ring). lra. }
    assert (NC : positive_semidefinite n comb).
    { intros x. unfold comb, combined. rewrite quadratic_plus. pose proof (definite_nonneg n _ (proj2 (inverse_definite n _ info DP IP)) x) as N1.
      pose proof (outer_form n n (transposed (motion t)) (motion_weight t) x) as N2. rewrite t_twice in N2. rewrite N2.
      pose proof (definite_nonneg n _ (proj2 (inverse_definite n _ (motion_weight t) DQ IQ)) (times n (motion t) x)). lra. }
    split.
    + intros x0 [|x1 xs] L; [discriminate|]. cbn [length] in L. injection L. intros L'. cbn [history_misfit]. specialize (LOW x1 xs L'). pose proof (ST x0 x1) as E. specialize (NC (minus_vector x0 (g0 x1))).
      replace (last (x1 :: xs) x0) with (last xs x1) by (clear; revert x1; induction xs as [|y xs IHx]; intros x1; [reflexivity|destruct xs; [reflexivity|cbn [last] in *; apply IHx]]). lra.
    + intros x. destruct (ATT x) as (x1 & xs & L & LA & E). exists (g0 x1), (x1 :: xs). split; [cbn; lia|]. split.
      * rewrite <- LA. clear. revert x1. induction xs as [|y xs IHx]; intros x1; [reflexivity|]. destruct xs; [reflexivity|cbn [last] in *]. apply (IHx x1).
      * cbn [history_misfit]. pose proof (ST (g0 x1) x1) as E1. replace (quadratic n comb (minus_vector (g0 x1) (g0 x1))) with 0 in E1; [lra|].
        symmetry. unfold quadratic, dot_product. rewrite (bsum_ext n _ (fun _ => 0)); [apply bsum_0|]. intros i Hi. unfold minus_vector at 1. ring.
Qed.

(** ** Concrete cases *)
Definition scaled_identity2 (a : R) : mat R := [[a; 0]; [0; a]].
Lemma scaled_identity2_ok a : 0 < a -> shape 2 2 (scaled_identity2 a) /\ definite_covariance 2 (mget (scaled_identity2 a)) /\ inverse_of 2 (mget (scaled_identity2 a)) (mget (scaled_identity2 (/ a))).
Proof.
  intros H. split; [split; [reflexivity|]; intros [|[|i]] L; try reflexivity; lia|]. split; [split|].
  - intros [|[|i]] [|[|j]] Hi Hj; try lia; reflexivity.
  - intros x (i & Hi & N). unfold dot_product, times, scaled_identity2. cbn.
    replace (0 + x 0%nat * (0 + a * x 0%nat + 0 * x 1%nat) + x 1%nat * (0 + 0 * x 0%nat + a * x 1%nat)) with (a * ((x 0%nat)² + (x 1%nat)²)) by (unfold Rsqr; ring).
    apply Rmult_lt_0_compat; auto. pose proof (Rle_0_sqr (x 0%nat)). pose proof (Rle_0_sqr (x 1%nat)).
    destruct i as [|[|i]]; [pose proof (Rsqr_pos_lt _ N); lra|pose proof (Rsqr_pos_lt _ N); lra|lia].
  - split; intros [|[|i]] [|[|j]] Hi Hj; try lia; unfold product, unit_matrix, scaled_identity2; cbn; field; lra.
Qed.
Lemma single_ok a : 0 < a -> shape 1 1 [[a]] /\ definite_covariance 1 (mget [[a]]) /\ inverse_of 1 (mget [[a]]) (mget [[/ a]]).
Proof.
  intros H. split; [split; [reflexivity|]; intros [|i] L; try reflexivity; lia|]. split; [split|].
  - intros [|i] [|j] Hi Hj; try lia; reflexivity.
  - intros x (i & Hi & N). destruct i as [|i]; [|lia]. unfold dot_product, times. cbn. replace (0 + x 0%nat * (0 + a * x 0%nat)) with (a * (x 0%nat)²) by (unfold Rsqr; ring).
    apply Rmult_lt_0_compat; auto. apply Rsqr_pos_lt, N.
  - split; intros [|i] [|j] Hi Hj; try lia; unfold product, unit_matrix; cbn; field; lra.
Qed.
(** position and speed, the position measured *)
Definition sample_model : KalmanModel R :=
  {| m_state_transition := [[1; 1]; [0; 1]]; m_measurement_model := [[1; 0]]; m_process_noise := scaled_identity2 (/ 100); m_measurement_noise := [[/ 10]] |}.
Definition sample_filter : KalmanFilter R := kf_new 1 [0; 0] (scaled_identity2 1) sample_model.
Lemma sample_valid : valid 2 1 sample_filter.
Proof.
  destruct (scaled_identity2_ok 1 ltac:(lra)) as (A & B & _). destruct (scaled_identity2_ok (/ 100) ltac:(lra)) as (C & D & _). destruct (single_ok (/ 10) ltac:(lra)) as (E & F & _).
  split; [|split; [|split]]; [|apply definite_covariance_matrix; assumption..].
  split; [reflexivity|]. split; [exact A|]. split; [split; [reflexivity|]; intros [|[|i]] L; try reflexivity; lia|].
  split; [split; [reflexivity|]; intros [|i] L; try reflexivity; lia|]. split; [exact C|exact E].
Qed.
Example C128_example : sized 2 1 sample_filter /\ valid 2 1 sample_filter /\
  forall op, In op [Predict; Update [1]; SetMeasurementNoise [[2]]; Update [3]] -> sensible 2 1 op.
Proof.
  split; [apply sample_valid|]. split; [exact sample_valid|]. intros op [<-|[<-|[<-|[<-|[]]]]]; cbn; auto. destruct (single_ok 2 ltac:(lra)) as (A & B & _).
  split; [exact A|]. apply definite_covariance_matrix, B.
Qed.
Example C129_example : exists g, kf_update 2 1 [1] (kf_predict 2 sample_filter) = (g, Ok tt) /\ 0 < vget (kf_state g) 0 < 1.
Proof.
  assert (V : valid 2 1 (kf_predict 2 sample_filter)). { apply (C128_history 2 1 sample_filter [Predict]); [exact sample_valid|]. intros op [<-|[]]. exact I. }
  pose proof (C129_accepts 2 1 _ [1] V (proj1 (proj2 (single_ok (/ 10) ltac:(lra)))) eq_refl) as E.
  destruct (kf_update 2 1 [1] (kf_predict 2 sample_filter)) as [g r] eqn:U. cbn [snd] in E. subst r. exists g. split; [reflexivity|].
  unfold kf_update in U. rewrite finite_vec_always, finite_mat_always in U. cbn [negb] in U.
  pose proof (update_cases 2 1 (kf_predict 2 sample_filter) [1] (proj1 V) (proj1 (proj1 (proj2 V))) (proj1 (proj2 (proj2 (proj2 V)))) eq_refl) as W.
  cbv zeta in W. unfold kf_update in W. rewrite finite_vec_always, finite_mat_always in W. cbn [negb] in W. rewrite U in W. destruct W as (_ & _ & _ & _ & _ & _ & _ & _ & k & G & X & _).
  rewrite (X 0%nat ltac:(lia)). specialize (G 0%nat 0%nat ltac:(lia) ltac:(lia)). revert G. unfold innovation_spread, innovation_of, minus_vector, product, plus_matrix, times, transposed. cbn. rnum. cbn. intros G.
  replace (k 0%nat 0%nat) with (201 / 211) by lra. lra.
Qed.
Example C130_example : definite_covariance 2 (mget (kf_covariance sample_filter)) /\ inverse_of 2 (mget (kf_covariance sample_filter)) (mget (scaled_identity2 (/ 1))) /\
  exists t c, describes 2 1 t c.
Proof.
  destruct (scaled_identity2_ok 1 ltac:(lra)) as (A & B & C). split; [exact B|]. split; [exact C|].
  destruct (scaled_identity2_ok (/ 100) ltac:(lra)) as (D & E & F). destruct (single_ok (/ 10) ltac:(lra)) as (G & H & I).
  pose (c := {| transition := [[1; 1]; [0; 1]]; controls := 1; control_model := [[0]; [1]]; control_input := [2]; process_noise := scaled_identity2 (/ 100);
           measurement_model := [[1; 0]]; measurement_noise := [[/ 10]]; measurement := [1] |}).
  exists {| motion := mget (transition c); push := times (controls c) (mget (control_model c)) (vget (control_input c)); motion_weight := mget (scaled_identity2 (/ / 100));
            sensor := mget (measurement_model c); sensor_weight := mget [[/ / 10]]; reading := vget (measurement c) |}, c.
  split; [split; [reflexivity|]; intros [|[|i]] L; try reflexivity; lia|]. split; [exact D|]. split; [split; [reflexivity|]; intros [|i] L; try reflexivity; lia|].
  split; [exact G|]. repeat (split; [reflexivity|]). split; [exact E|]. split; [exact F|]. split; [exact H|exact I].
Qed.

Print Assumptions C128_predict.
Print Assumptions C128_history.
Print Assumptions C129_update.
Print Assumptions C129_accepts.
Print Assumptions C129_modes.
Print Assumptions C129_normalized.
Print Assumptions C129_refused.
Print Assumptions C130_best_fit.
Print Assumptions C130_history.
