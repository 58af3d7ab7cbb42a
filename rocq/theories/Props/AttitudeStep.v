(** C114 turning an orientation forward in time. *)
From Coq Require Import Reals List Arith Bool Lia Lra Psatz.
From Coquelicot Require Import Coquelicot.
From Verif Require Import Base.Scalar Base.Series Base.RNum Spec.Matrix Spec.MatrixExp Spec.Rotation Spec.Quaternion Model.Errors Model.Matrix Model.Quaternion Model.Lie Model.Ode.
From Verif Require Import Proofs.Matrix Proofs.Algebra Proofs.MatrixSeries Proofs.Flow Proofs.Expm Proofs.Rotation Proofs.Quaternion Proofs.Space Props.Quaternion.
Import ListNotations.
Local Open Scope R_scope.
Local Notation length := Spec.Rotation.length.
Local Notation exp := Rtrigo_def.exp.
Local Notation sqrt := R_sqrt.sqrt.

(** A turn large enough not to be taken by its series, or none at all *)
Definition plain (phi : point) : Prop := 30 / IZR (2 ^ 52) <= length phi \/ phi = (0, 0, 0).
Lemma exp_plain phi : plain phi -> unit_quaternion (from_scaled_axis phi) /\ equal 3 3 (mget (to_rotation_matrix (from_scaled_axis phi))) (matrix_exp 3 (cross_matrix phi)).
Proof. intros [H|H]; [apply exp_large; exact H|]. apply rotation_exact. auto. Qed.
Lemma scale3_R (w : point) h : scale3 w h = multiple h w.
Proof. destruct w as [[x y] z]. unfold scale3. cbn. rnum. rewrite (Rmult_comm x), (Rmult_comm y), (Rmult_comm z). reflexivity. Qed.
Lemma step_R q (w : point) h : attitude_step q w h = quat_mul q (from_scaled_axis (multiple h w)).
Proof. unfold attitude_step. rewrite scale3_R. reflexivity. Qed.
Lemma cross_multiple k (w : point) : equal 3 3 (cross_matrix (multiple k w)) (scaled_matrix k (cross_matrix w)).
Proof. intros i j Hi Hj. destruct w as [[x y] z]. unfold cross_matrix, multiple, scaled_matrix. do 3 (destruct i as [|i]; [do 3 (destruct j as [|j]; [cbn; ring|]); lia|]). lia. Qed.

(** Over one step at a steady rate the orientation is composed with the rotation by rate times time about the body's own axes. *)
Theorem C114_step q (rate : point) h : unit_quaternion q -> plain (multiple h rate) ->
  unit_quaternion (attitude_step q rate h) /\
  equal 3 3 (mget (to_rotation_matrix (attitude_step q rate h))) (product 3 (mget (to_rotation_matrix q)) (matrix_exp 3 (cross_matrix (multiple h rate)))).
Proof.
  intros U P. rewrite step_R. destruct (exp_plain _ P) as [U2 E]. split; [apply unit_mul; auto|].
  eapply equal_trans; [apply rotation_matrix_mul; auto|]. apply equal_product; [apply equal_refl|]; apply E.
Qed.
(** With the rate picking up speed about one axis, the step ends where the turning body does: [m] is the orientation of a body
    whose rate at time [t] is [w + a t] about the axis. *)
Theorem C114_acceleration q (axis : point) w a h : unit_quaternion q -> plain (multiple (h * w + h * h / 2 * a) axis) ->
  exists m : R -> matrix, equal 3 3 (m 0) (mget (to_rotation_matrix q)) /\
  (forall t i j, (i < 3)%nat -> (j < 3)%nat -> is_derive (fun s => m s i j) t (product 3 (m t) (cross_matrix (multiple (w + a * t) axis)) i j)) /\
  unit_quaternion (attitude_step_with_angular_acceleration q (multiple w axis) (multiple a axis) h) /\
  equal 3 3 (mget (to_rotation_matrix (attitude_step_with_angular_acceleration q (multiple w axis) (multiple a axis) h))) (m h).
Proof.
  intros U P. set (f := flow 3 (cross_matrix axis)). exists (fun t => product 3 (mget (to_rotation_matrix q)) (f (t * w + t * t / 2 * a))).
  assert (E : attitude_step_with_angular_acceleration q (multiple w axis) (multiple a axis) h = quat_mul q (from_scaled_axis (multiple (h * w + h * h / 2 * a) axis))).
  { unfold attitude_step_with_angular_acceleration, so3_compose, so3_exp. f_equal. f_equal. destruct axis as [[x y] z]. unfold add3, scale3. cbn. rnum. unfold multiple, of_list3, vget. cbn [nth]. f_equal; [f_equal|]; match goal with |- ?x = ?y => change (@eq R x y) end; unfold half; rnum; field. }
  split; [|split].
  - replace (0 * w + 0 * 0 / 2 * a) with 0 by field. eapply equal_trans; [apply equal_product; [apply equal_refl|]; apply flow_zero|]. intros i j Hi Hj. apply product_unit_r; auto.
  - intros t i j Hi Hj. unfold product at 1. evar_last.
    + apply (is_derive_sum 3 (fun k s => mget (to_rotation_matrix q) i k * f (s * w + s * s / 2 * a) k j)). intros k Hk. apply is_derive_scal. apply (is_derive_comp (fun s => f s k j) (fun s => s * w + s * s / 2 * a)).
      * apply flow_derive'; auto.
      * instantiate (1 := w + a * t). evar_last; [auto_derive; [exact I|reflexivity]|]. match goal with |- ?x = ?y => change (@eq R x y) end. field.
    + cbv beta. set (F := f (t * w + t * t / 2 * a)). match goal with |- ?x = ?y => change (@eq R x y) end. unfold scal; cbn [Hierarchy.AbsRing.sort]. 
      assert (C : equal 3 3 (product 3 F (cross_matrix (multiple (w + a * t) axis))) (scaled_matrix (w + a * t) (product 3 F (cross_matrix axis)))).
      { eapply equal_trans; [apply equal_product; [apply equal_refl|]; apply cross_multiple|]. intros i' j' H1 H2. unfold product, scaled_matrix, bsum. ring. }
      transitivity (product 3 (mget (to_rotation_matrix q)) (product 3 F (cross_matrix (multiple (w + a * t) axis))) i j).
      * unfold product at 2. apply bsum_ext. intros k Hk. rewrite (C k j Hk Hj). unfold scaled_matrix. reflexivity.
      * symmetry. apply product_assoc.
  - rewrite E. destruct (exp_plain _ P) as [U2 X]. split; [apply unit_mul; auto|]. eapply equal_trans; [apply rotation_matrix_mul; auto|]. apply equal_product; [apply equal_refl|]. eapply equal_trans; [exact X|].
    eapply equal_trans; [apply matrix_exp_ext, cross_multiple|]. apply equal_sym, flow_exp.
Qed.

Lemma norm_squares (q : quaternion R) : quat_norm_squared q = qw q * qw q + qx q * qx q + qy q * qy q + qz q * qz q.
Proof. qring. Qed.
(** Whatever the rates, the norm stays put but for what the series for tiny turns leaves out. *)
Lemma exp_norm phi : 1 - (30 / IZR (2 ^ 52)) ^ 4 <= quat_norm_squared (from_scaled_axis phi) <= 1 + (30 / IZR (2 ^ 52)) ^ 4.
Proof.
  assert (S : 0 < 30 / IZR (2 ^ 52)) by (apply Rdiv_lt_0_compat; lra). pose proof (pow_lt _ 4 S) as P.
  destruct (C97_exponential phi) as [L Sm]. destruct (Rle_lt_dec (30 / IZR (2 ^ 52)) (length phi)) as [H|H].
  - destruct (L H) as [U _]. unfold unit_quaternion in U. rewrite norm_squares, U. lra.
  - destruct (Sm H) as [N _]. assert (length phi ^ 4 <= (30 / IZR (2 ^ 52)) ^ 4) by (apply pow_incr; split; [apply sqrt_pos|lra]).
    rewrite quat_norm_sqr in N. apply Rabs_le_between in N. lra.
Qed.

(** What the observer is handed and what comes back. *)
Theorem C114_nodes {T} {NT : Num T} (rate_at : T -> so3 T -> vec3 T) time start h steps :
  let '(nodes, answer) := integrate_attitude rate_at time start h steps in
  let middle t q := attitude_step q (rate_at t q) (mul h half) in
  let finite_rates t q := (is_finite3 (rate_at t q) && is_finite3 (rate_at (add t (mul h half)) (middle t q)))%bool in
  let next t q := (add t h, attitude_step q (rate_at (add t (mul h half)) (middle t q)) h) in
  if negb (is_finite h) then nodes = [] /\ answer = Err InNonFinite
  else if leb h zero then nodes = [] /\ answer = Err InNonPositiveTimestep
  else (forall d, nth 0 nodes d = (time, start)) /\
    (forall k d, (S k < List.length nodes)%nat -> let '(t, q) := nth k nodes d in finite_rates t q = true /\ nth (S k) nodes d = next t q) /\
    match answer with
    | Ok final => List.length nodes = S steps /\ final = snd (nth steps nodes (time, start))
    | Err e => e = InNonFinite /\ (0 < List.length nodes <= steps)%nat /\ let '(t, q) := nth (List.length nodes - 1) nodes (time, start) in finite_rates t q = false
    | Panic => False
    end.
Proof.
  unfold integrate_attitude. destruct (negb (is_finite h)); [split; reflexivity|]. destruct (leb h zero); [split; reflexivity|].
  revert time start. induction steps as [|n IH]; intros time start; cbn [attitude_loop].
  { cbn. repeat split; auto; intros; lia. }
  destruct (is_finite3 (rate_at time start)) eqn:F1; cbn [negb]; [|cbn; rewrite F1; repeat split; auto; intros; lia].
  destruct (is_finite3 (rate_at (add time (mul h half)) (attitude_step start (rate_at time start) (mul h half)))) eqn:F2; cbn [negb]; [|cbn; rewrite F1, F2; repeat split; auto; intros; lia].
  specialize (IH (add time h) (attitude_step start (rate_at (add time (mul h half)) (attitude_step start (rate_at time start) (mul h half))) h)).
  destruct (attitude_loop _ _ _ _ _) as [nodes answer]. cbv zeta in *. destruct IH as (I0 & I1 & I2). split; [reflexivity|]. split.
  - intros [|k] d Hk; cbn [nth]; [cbn; rewrite F1, F2; auto|]. apply (I1 k d). cbn [List.length] in *. lia.
  - destruct answer as [final|e|]; auto.
    + destruct I2 as [L ->]. split; [cbn [List.length] in *; lia|]. cbn [nth]. destruct n; [reflexivity|]. cbn [nth]. cbn [List.length] in L. f_equal. apply nth_indep. lia.
    + destruct I2 as (-> & L & X). split; [auto|]. split; [cbn [List.length] in *; lia|].
      set (first := (add time h, _)) in *. replace (nth (List.length ((time, start) :: first :: nodes) - 1) ((time, start) :: first :: nodes) (time, start)) with (nth (List.length (first :: nodes) - 1) (first :: nodes) first); [exact X|].
      cbn [List.length]. rewrite !Nat.sub_1_r. cbn [Nat.pred]. change (nth (S (List.length nodes)) ((time, start) :: first :: nodes) (time, start)) with (nth (List.length nodes) (first :: nodes) (time, start)). apply nth_indep. cbn. lia.
Qed.

(** Every node is a true rotation, its norm squared within [k (30 eps)^4] of one whatever the rates. *)
Theorem C114_norm (rate_at : R -> quaternion R -> point) time start h steps : unit_quaternion start -> 0 < h -> forall k, (k <= steps)%nat ->
  let q := snd (nth k (fst (integrate_attitude rate_at time start h steps)) (time, start)) in
  (1 - (30 / IZR (2 ^ 52)) ^ 4) ^ k <= qw q * qw q + qx q * qx q + qy q * qy q + qz q * qz q <= (1 + (30 / IZR (2 ^ 52)) ^ 4) ^ k.
Proof.
  intros U Hh k Hk. cbv zeta. rewrite <- norm_squares. pose proof (C114_nodes rate_at time start h steps) as N. destruct (integrate_attitude rate_at time start h steps) as [nodes answer]. cbn [fst]. cbv zeta in N. revert N. rnum. cbn [negb]. destruct (Rleb h 0) eqn:Z; rcases; [lra|]. intros (N0 & N1 & N2).
  assert (L : List.length nodes = S steps). { destruct answer as [f|e|]; [apply N2| |contradiction]. exfalso. destruct N2 as (_ & _ & X). match type of X with context [nth ?a ?b ?c] => destruct (nth a b c) as [t q] end. revert X. assert (F : forall w : vec3 R, is_finite3 w = true) by (intros [[x y] z]; reflexivity). rewrite !F. discriminate. }
  set (e := (30 / IZR (2 ^ 52)) ^ 4). assert (E : 0 <= e < 1). { unfold e. assert (S : 0 < 30 / IZR (2 ^ 52) < 1) by (split; [apply Rdiv_lt_0_compat; lra|apply Rdiv_lt_1; lra]). split; [apply pow_le; lra|]. apply pow_lt_1_compat; [lra|lia]. }
  induction k as [|k IH].
  - rewrite N0. unfold unit_quaternion in U. cbn [snd pow]. rewrite norm_squares, U. lra.
  - specialize (IH ltac:(lia)). specialize (N1 k (time, start) ltac:(lia)). destruct (nth k nodes (time, start)) as [t q]. destruct N1 as [_ ->]. cbn [snd] in *. rewrite step_R, norm_mul.
    pose proof (exp_norm (multiple h (rate_at (t + h * half) (attitude_step q (rate_at t q) (h * half))))) as X. fold e in X. rnum. set (x := quat_norm_squared (from_scaled_axis _)) in *. cbn [pow]. pose proof (pow_le (1 - e) k ltac:(lra)). rewrite (Rmult_comm (1 - e)), (Rmult_comm (1 + e)). split; apply Rmult_le_compat; lra.
Qed.

(** At a steady rate the nodes follow the rotating body exactly: after [k] steps it has turned by [k h] times the rate. *)
Theorem C114_steady (rate : point) time start h steps : unit_quaternion start -> 0 < h -> plain (multiple h rate) -> forall k, (k <= steps)%nat ->
  let '(t, q) := nth k (fst (integrate_attitude (fun _ _ => rate) time start h steps)) (time, start) in
  t = time + INR k * h /\ unit_quaternion q /\
  equal 3 3 (mget (to_rotation_matrix q)) (product 3 (mget (to_rotation_matrix start)) (matrix_exp 3 (cross_matrix (multiple (INR k * h) rate)))).
Proof.
  intros U Hh P k Hk. pose proof (C114_nodes (fun _ _ => rate) time start h steps) as N. destruct (integrate_attitude (fun _ _ => rate) time start h steps) as [nodes answer]. cbn [fst]. cbv zeta in N. revert N. rnum. cbn [negb]. destruct (Rleb h 0) eqn:Z; rcases; [lra|]. intros (N0 & N1 & N2).
  assert (F : forall w : vec3 R, is_finite3 w = true) by (intros [[x y] z]; reflexivity).
  assert (L : List.length nodes = S steps). { destruct answer as [f|e|]; [apply N2| |contradiction]. exfalso. destruct N2 as (_ & _ & X). match type of X with context [nth ?a ?b ?c] => destruct (nth a b c) as [t q] end. revert X. rewrite !F. discriminate. }
  assert (M : forall x, equal 3 3 (matrix_exp 3 (cross_matrix (multiple x rate))) (flow 3 (cross_matrix rate) x)).
  { intros x. eapply equal_trans; [apply matrix_exp_ext, cross_multiple|]. apply equal_sym, flow_exp. }
  induction k as [|k IH].
  - rewrite N0. split; [cbn; ring|]. split; [exact U|]. cbn [INR]. rewrite Rmult_0_l. apply equal_sym. eapply equal_trans; [apply equal_product; [apply equal_refl|]; eapply equal_trans; [apply M|apply flow_zero]|]. intros i j Hi Hj. apply product_unit_r; auto.
  - specialize (IH ltac:(lia)). specialize (N1 k (time, start) ltac:(lia)). destruct (nth k nodes (time, start)) as [t q]. destruct N1 as [_ ->]. destruct IH as (Et & Uq & Eq). rnum. rewrite S_INR.
    destruct (C114_step q rate h Uq P) as [U2 E2]. split; [rewrite Et; ring|]. split; [exact U2|]. eapply equal_trans; [exact E2|]. eapply equal_trans; [apply product_left, Eq|]. rewrite p_assoc. apply equal_product; [apply equal_refl|].
    eapply equal_trans; [apply equal_product; [apply M|apply M]|]. eapply equal_trans; [apply flow_plus|]. apply equal_sym. replace ((INR k + 1) * h) with (INR k * h + h) by ring. apply M.
Qed.

(** A quarter turn each second about the third axis. *)
Example C114_example : unit_quaternion (quat_identity (T := R)) /\ plain (multiple 1 (0, 0, PI / 2)) /\ plain (multiple (1 * 0 + 1 * 1 / 2 * 4) (0, 0, 1)).
Proof.
  assert (B : 30 / IZR (2 ^ 52) <= 1) by (apply Rle_div_l; lra). split; [unfold unit_quaternion, quat_norm_squared, quat_identity, quat_dot; cbn; rnum; ring|].
  pose proof PI2_3_2. split; left; unfold length, inner, multiple; (eapply Rle_trans; [exact B|]); (apply Rle_trans with (sqrt 1); [rewrite sqrt_1; lra|apply sqrt_le_1_alt]); nra.
Qed.

Print Assumptions C114_step.
Print Assumptions C114_acceleration.
Print Assumptions C114_nodes.
Print Assumptions C114_norm.
Print Assumptions C114_steady.
