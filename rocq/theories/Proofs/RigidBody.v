(** The rigid body model over the reals: Newton's laws for its particles. *)
From Coq Require Import ZArith List Bool Arith Reals Lra Lia.
From Coquelicot Require Import Coquelicot.
From Verif Require Import Base.Scalar Base.RNum Base.Lists Base.Series Model.Errors Model.Vector Model.Matrix Model.Lu Model.Cholesky Model.Quaternion Model.Lie Model.Ode Model.RigidBody
  Spec.Space Spec.Matrix Spec.Rotation Spec.Quaternion Spec.Inertia Spec.AttitudeControl Spec.RigidBody Proofs.Matrix Proofs.Algebra Proofs.Quaternion Proofs.Rotation Proofs.Space Proofs.Screw Proofs.Inertia.
Import ListNotations.
Local Open Scope R_scope.
Local Notation sqrt := R_sqrt.sqrt.

(** [flat] over the points in the goal only *)
Ltac flatg := repeat match goal with |- context [?x] => is_var x; let t := type of x in unify t point; generalize x; intros [[? ?] ?] end; unfold together, multiple, outer, inner; cbn [fst snd]; try (apply point_eq); try ring.
Section Laws.
Variables (b : inertia R) (inv : mat R) (g : point) (c : cloud).
Let body := {| rb_inertia := b; rb_inverse := inv; rb_gravity := g |}.
Let M := mass b.
Let cm := center_of_mass b.
Let I := carried (mget (rotational_inertia b)).
Hypothesis D : describes b c.
Hypothesis M0 : M <> 0.
Hypothesis Inverse : equal 3 3 (product 3 (mget (rotational_inertia b)) (mget inv)) unit_matrix.
Hypothesis Inverse' : equal 3 3 (product 3 (mget inv) (mget (rotational_inertia b))) unit_matrix.

Lemma I_inv u : I (carried (mget inv) u) = u.
Proof. unfold I. rewrite <- carried_product, (carried_ext _ _ _ Inverse). apply carried_unit. Qed.
Lemma inv_I u : carried (mget inv) (I u) = u.
Proof. unfold I. rewrite <- carried_product, (carried_ext _ _ _ Inverse'). apply carried_unit. Qed.

Lemma accelerations_R q w l : accelerations body q w l =
  let alpha := carried (mget inv) (together (together (torque l) (multiple (-1) (outer cm (force l)))) (multiple (-1) (outer w (I w)))) in
  {| ba_linear := together (together (multiple (/ M) (transform_point q (force l))) g) (multiple (-1) (transform_point q (together (outer alpha cm) (outer w (outer w cm))))); ba_angular := alpha |}.
Proof.
  unfold accelerations, mat_vec3, so3_act, body. cbn [rb_inertia rb_inverse rb_gravity]. cbv zeta. rewrite !mat_vec_R, !cross3_R, !sub3_R, !add3_R, !scale3_R. change (div one (mass b)) with (1 / mass b). unfold Rdiv. rewrite Rmult_1_l. reflexivity.
Qed.

Lemma total_point_ext f h (l : cloud) : (forall x, f x = h x) -> total_point f l = total_point h l.
Proof. intros E. induction l as [|x l IH]; [reflexivity|]. cbn [total_point fold_right]. fold (total_point f l) (total_point h l). rewrite E, IH. reflexivity. Qed.
Lemma total_point_together f h (l : cloud) : total_point (fun x => together (f x) (h x)) l = together (total_point f l) (total_point h l).
Proof. induction l as [|x l IH]; [cbn; apply point_eq; ring|]. cbn [total_point fold_right]. fold (total_point f l) (total_point h l). fold (total_point (fun x => together (f x) (h x)) l). rewrite IH. set (u := f x). set (v := h x). set (y := total_point f l). set (z := total_point h l). clearbody u v y z. flatg. Qed.
Lemma total_point_transform q f (l : cloud) : total_point (fun x => transform_point q (f x)) l = transform_point q (total_point f l).
Proof. induction l as [|x l IH]; [symmetry; apply transform_zero|]. cbn [total_point fold_right]. fold (total_point f l). fold (total_point (fun x => transform_point q (f x)) l). rewrite IH, transform_together. reflexivity. Qed.
Lemma total_point_outer w f (l : cloud) : total_point (fun x => outer w (f x)) l = outer w (total_point f l).
Proof. induction l as [|x l IH]; [destruct w as [[? ?] ?]; cbn; apply point_eq; ring|]. cbn [total_point fold_right]. fold (total_point f l). fold (total_point (fun x => outer w (f x)) l). rewrite IH. set (u := f x). set (v := total_point f l). clearbody u v. flatg. Qed.
Lemma total_point_outer_l w f (l : cloud) : total_point (fun x => outer (f x) w) l = outer (total_point f l) w.
Proof. induction l as [|x l IH]; [destruct w as [[? ?] ?]; cbn; apply point_eq; ring|]. cbn [total_point fold_right]. fold (total_point f l). fold (total_point (fun x => outer (f x) w) l). rewrite IH. set (u := f x). set (v := total_point f l). clearbody u v. flatg. Qed.

Lemma spread_origin w : carried (spread c (0, 0, 0)) w = together (I w) (multiple M (outer cm (outer w cm))).
Proof.
  unfold I. replace (carried (spread c (0, 0, 0)) w) with (carried (fun i j => mget (rotational_inertia b) i j + M * displaced (together (0, 0, 0) (multiple (-1) cm)) i j) w).
  - unfold carried, times, bsum, displaced. destruct w as [[x y] z], cm as [[u v] t]. cbn. apply point_eq; ring.
  - apply carried_ext. intros i j Hi Hj. symmetry. apply (spread_balance b c (0, 0, 0) i j D Hi Hj).
Qed.
(** What the particles need, in body axes: [u] for all, [alpha] for the change of the rate, and what keeps them turning *)
Lemma newton_sums u alpha w : let felt x := multiple (fst x) (together u (together (outer alpha (snd x)) (outer w (outer w (snd x))))) in
  total_point felt c = together (multiple M u) (multiple M (together (outer alpha cm) (outer w (outer w cm)))) /\
  total_point (fun x => outer (snd x) (felt x)) c = together (multiple M (outer cm u)) (together (together (I alpha) (multiple M (outer cm (outer alpha cm)))) (outer w (together (I w) (multiple M (outer cm (outer w cm)))))).
Proof.
  destruct D as (Dm & Dc & Di). fold M cm in Dm, Dc. cbv zeta. split.
  - rewrite (total_point_ext _ (fun x => together (multiple (fst x) (point_velocity (u, alpha) (snd x))) (outer w (outer w (multiple (fst x) (snd x)))))).
    + rewrite total_point_together, linear_sum, !total_point_outer. cbn [fst snd]. rewrite <- Dm, <- Dc. set (k := cm). clearbody k. set (m := M). clearbody m. flatg.
    + intros [m r]. unfold point_velocity. cbn [fst snd]. flatg.
  - rewrite (total_point_ext _ (fun x => together (outer (snd x) (multiple (fst x) (point_velocity (u, alpha) (snd x)))) (outer w (multiple (fst x) (let d := together (snd x) (multiple (-1) (0, 0, 0)) in outer d (outer w d)))))).
    + rewrite total_point_together, angular_sum, total_point_outer, <- spread_carried. cbn [fst snd]. rewrite <- Dc, !spread_origin. set (k := cm). set (m := M). set (ia := I alpha). set (iw := I w). clearbody k m ia iw. flatg.
    + intros [m r]. unfold point_velocity. cbn [fst snd]. flatg.
Qed.
Lemma rotate_forth q u : unit_quaternion q -> transform_point q (transform_point (conjugate q) u) = u.
Proof. intros U. apply (rotate_back q u U). Qed.
Lemma rotate_inj q u v : unit_quaternion q -> transform_point q u = transform_point q v -> u = v.
Proof. intros U H. rewrite <- (proj1 (rotate_back q u U)), <- (proj1 (rotate_back q v U)), H. reflexivity. Qed.

(** Newton's laws hold of an acceleration exactly when it is the one computed. *)
Lemma newton_iff q w l a alpha : unit_quaternion q ->
  (obeys_newton c g q w l a alpha <-> a = ba_linear (accelerations body q w l) /\ alpha = ba_angular (accelerations body q w l)).
Proof.
  intros U. set (u := transform_point (conjugate q) (together a (multiple (-1) g))).
  assert (A : a = together (transform_point q u) g). { unfold u. rewrite rotate_forth by exact U. flatg. }
  assert (Felt : forall x, multiple (fst x) (together (particle_acceleration q w a alpha (snd x)) (multiple (-1) g)) = transform_point q (multiple (fst x) (together u (together (outer alpha (snd x)) (outer w (outer w (snd x))))))).
  { intros [m r]. cbn [fst snd]. rewrite transform_multiple', transform_together. rewrite A at 1. unfold particle_acceleration. set (y := transform_point q u). set (z := transform_point q (together (outer alpha r) _)). clearbody y z. flatg. }
  unfold obeys_newton. cbv zeta. rewrite (total_point_ext _ _ c Felt), total_point_transform.
  rewrite (total_point_ext (fun x => outer (transform_point q (snd x)) (multiple (fst x) (together (particle_acceleration q w a alpha (snd x)) (multiple (-1) g)))) (fun x => transform_point q (outer (snd x) (multiple (fst x) (together u (together (outer alpha (snd x)) (outer w (outer w (snd x)))))))) c) by (intros x; rewrite Felt, (rotate_outer q _ _ U); reflexivity).
  rewrite total_point_transform. destruct (newton_sums u alpha w) as [S1 S2]. cbv zeta in S1, S2. rewrite S1, S2. rewrite accelerations_R. cbv zeta. cbn [ba_linear ba_angular].
  set (f := force l). set (tau := torque l). set (rhs := together (together tau (multiple (-1) (outer cm f))) (multiple (-1) (outer w (I w)))).
  assert (E1 : together (multiple M u) (multiple M (together (outer alpha cm) (outer w (outer w cm)))) = f <-> u = together (multiple (/ M) f) (multiple (-1) (together (outer alpha cm) (outer w (outer w cm))))).
  { set (s := together (outer alpha cm) (outer w (outer w cm))). clearbody s f. split.
    - intros <-. destruct u as [[? ?] ?], s as [[? ?] ?]. cbn. apply point_eq; field; exact M0.
    - intros ->. destruct f as [[? ?] ?], s as [[? ?] ?]. cbn. apply point_eq; field; exact M0. }
  assert (E2 : u = together (multiple (/ M) f) (multiple (-1) (together (outer alpha cm) (outer w (outer w cm)))) ->
    together (multiple M (outer cm u)) (together (together (I alpha) (multiple M (outer cm (outer alpha cm)))) (outer w (together (I w) (multiple M (outer cm (outer w cm)))))) = together (together (I alpha) (outer cm f)) (outer w (I w))).
  { intros ->. set (ia := I alpha). set (iw := I w). clearbody ia iw f. set (k := cm). clearbody k. destruct f as [[? ?] ?], ia as [[? ?] ?], iw as [[? ?] ?], k as [[? ?] ?], w as [[? ?] ?], alpha as [[? ?] ?]. cbn. apply point_eq; field; exact M0. }
  assert (E3 : together (together (I alpha) (outer cm f)) (outer w (I w)) = tau <-> I alpha = rhs).
  { unfold rhs. set (ia := I alpha). set (y := outer cm f). set (z := outer w (I w)). clearbody ia y z tau. clear. split; [intros <-|intros ->]; flatg. }
  split.
  - intros [H1 H2]. apply (rotate_inj q _ _ U), E1 in H1. apply (rotate_inj q _ _ U) in H2. rewrite (E2 H1) in H2. apply E3 in H2. assert (Al : alpha = carried (mget inv) rhs) by (rewrite <- H2; symmetry; apply inv_I). split; [|exact Al]. rewrite <- Al, A, H1, transform_together, !transform_multiple'. set (y := transform_point q f). set (z := transform_point q _). clearbody y z. flatg.
  - intros [H1 H2]. assert (Hu : u = together (multiple (/ M) f) (multiple (-1) (together (outer alpha cm) (outer w (outer w cm))))).
    { apply (rotate_inj q _ _ U). rewrite transform_together, !transform_multiple'. rewrite <- H2 in H1. rewrite A in H1. set (y := transform_point q f) in *. set (z := transform_point q (together _ _)) in *. set (v := transform_point q u) in *. clearbody y z v. clear - H1. assert (E : v = together (together v g) (multiple (-1) g)) by flatg. rewrite E, H1. flatg. }
    split; f_equal; [apply E1, Hu|]. rewrite (E2 Hu). apply E3. rewrite H2. apply I_inv.
Qed.
End Laws.

(** ** Motions *)
From Verif Require Import Proofs.FrameMotion Proofs.Attitude Proofs.Slerp Proofs.AttitudeControl.
Lemma changes_parts p t d : changes p t d <-> point_changes p t d.
Proof.
  unfold changes, point_changes. assert (E : forall (u : point), coordinate u 0%nat = fst (fst u) /\ coordinate u 1%nat = snd (fst u) /\ coordinate u 2%nat = snd u) by (intros [[x y] z]; auto).
  split.
  - intros H. destruct (E d) as (<- & <- & <-). split; [|split]; (eapply is_derive_ext; [|apply H; lia]); intros s; destruct (E (p s)) as (E1 & E2 & E3); assumption.
  - intros (H0 & H1 & H2) i Hi. destruct (E d) as (E1 & E2 & E3). destruct i as [|[|[|i]]]; [rewrite E1|rewrite E2|rewrite E3|lia]; (eapply is_derive_ext; [|eassumption]); intros s; destruct (E (p s)) as (F1 & F2 & F3); symmetry; assumption.
Qed.
Definition turns_at (q : R -> quaternion R) (t : R) (w : point) : Prop := quat_changes q t (quat_scale (quat_mul (q t) (from_scalar_vector 0 w)) (/ 2)).
Lemma turns_transform q t w p v : unit_quaternion (q t) -> turns_at q t w -> changes p t v -> changes (fun s => transform_point (q s) (p s)) t (transform_point (q t) (together (outer w (p t)) v)).
Proof.
  intros U Q P. apply changes_parts. apply changes_parts in P. assert (S1 : spins q t (transform_point (q t) w)).
  { unfold spins. replace (quat_mul (from_scalar_vector 0 (transform_point (q t) w)) (q t)) with (quat_mul (q t) (from_scalar_vector 0 w)); [exact Q|]. rewrite <- sandwich, mul_assoc, (proj2 (conjugate_inverse _ U)), mul_identity_r. reflexivity. }
  pose proof (spins_transform q p t _ v S1 P) as H. rewrite transform_together, <- (rotate_outer (q t) _ _ U). exact H.
Qed.

Section Motion.
Variables (b : inertia R) (inv : mat R) (g : point) (c : cloud).
Let body := {| rb_inertia := b; rb_inverse := inv; rb_gravity := g |}.
Variables (load : R -> wrench R) (x : R -> list R).
Hypothesis Mo : body_motion body load x.

Lemma derivative_shape (y : list R) l u : quat_try_normalized (facing_of y) = Some u ->
  state_derivative body y l = [nth 7 y 0; nth 8 y 0; nth 9 y 0] ++ (let q := quat_scale (quat_mul (facing_of y) (from_scalar_vector 0 (rate_of y))) (/ 2) in [qw q; qx q; qy q; qz q]) ++ list3 (ba_linear (accelerations body (so3_from_quaternion u) (rate_of y) l)) ++ list3 (ba_angular (accelerations body (so3_from_quaternion u) (rate_of y) l)).
Proof.
  intros E. unfold state_derivative, vget. change (@zero R Rnum) with 0. fold (facing_of y) (rate_of y). rewrite E.
  generalize (ba_linear (accelerations body (so3_from_quaternion u) (rate_of y) l)) (ba_angular (accelerations body (so3_from_quaternion u) (rate_of y) l)). intros a al. unfold facing_of, rate_of, quat_scale, quat_mul, from_scalar_vector. cbn [qw qx qy qz]. rnum. cbn [app]. do 7 (apply (f_equal2 cons); [try reflexivity; field|]); reflexivity.
Qed.
Lemma derivative_unreadable (y : list R) l : quat_try_normalized (facing_of y) = None -> state_derivative body y l = vec_zeros 13.
Proof. intros E. unfold state_derivative, vget. change (@zero R Rnum) with 0. fold (facing_of y). rewrite E. reflexivity. Qed.
Lemma norm_still t : is_derive (fun s => quat_norm_squared (facing_of (x s))) t 0.
Proof.
  unfold quat_norm_squared, facing_of. cbn [qw qx qy qz]. rnum. pose proof (Mo t 3%nat ltac:(lia)) as D3. pose proof (Mo t 4%nat ltac:(lia)) as D4. pose proof (Mo t 5%nat ltac:(lia)) as D5. pose proof (Mo t 6%nat ltac:(lia)) as D6.
  destruct (quat_try_normalized (facing_of (x t))) as [u|] eqn:E; [rewrite (derivative_shape _ _ _ E) in *|rewrite (derivative_unreadable _ _ E) in *]; cbn [nth app vec_zeros repeat] in *; [|].
  2: { eapply dto; [derive|]. change (@zero R Rnum) with 0. match goal with |- @eq _ ?a ?b => change (@eq R a b) end. ring. }
  eapply dto; [derive|]. unfold quat_scale, quat_mul, from_scalar_vector, facing_of, rate_of. cbn [qw qx qy qz]. rnum. match goal with |- @eq _ ?a ?b => change (@eq R a b) end. field.
Qed.
Lemma norm_constant t : quat_norm_squared (facing_of (x t)) = quat_norm_squared (facing_of (x 0)).
Proof.
  destruct (Rtotal_order 0 t) as [L|[<-|L]]; [|reflexivity|].
  - symmetry. apply (eq_is_derive (fun s => quat_norm_squared (facing_of (x s))) 0 t); [intros s _; apply norm_still|exact L].
  - apply (eq_is_derive (fun s => quat_norm_squared (facing_of (x s))) t 0); [intros s _; apply norm_still|exact L].
Qed.
Hypothesis Start : unit_quaternion (facing_of (x 0)).
Lemma facing_unit t : unit_quaternion (facing_of (x t)).
Proof. apply unit_is. rewrite norm_constant. apply unit_is. exact Start. Qed.
Let acc t := accelerations body (facing_of (x t)) (rate_of (x t)) (load t).
Lemma motion_parts t : changes (fun s => origin_of (x s)) t (speed_of (x t)) /\ turns_at (fun s => facing_of (x s)) t (rate_of (x t)) /\ changes (fun s => speed_of (x s)) t (ba_linear (acc t)) /\ changes (fun s => rate_of (x s)) t (ba_angular (acc t)).
Proof.
  pose proof (facing_unit t) as U. pose proof (derivative_shape (x t) (load t) _ (try_normalized_unit _ U)) as E. unfold so3_from_quaternion in E. rewrite (normalized_unit _ U) in E. fold (acc t) in E.
  pose proof (Mo t) as P. rewrite E in P. clear E. destruct (ba_linear (acc t)) as [[a0 a1] a2]. destruct (ba_angular (acc t)) as [[l0 l1] l2]. cbn [list3 app] in P.
  split; [|split; [|split]].
  - apply changes_parts. split; [exact (P 0%nat ltac:(lia))|split; [exact (P 1%nat ltac:(lia))|exact (P 2%nat ltac:(lia))]].
  - split; [exact (P 3%nat ltac:(lia))|split; [exact (P 4%nat ltac:(lia))|split; [exact (P 5%nat ltac:(lia))|exact (P 6%nat ltac:(lia))]]].
  - apply changes_parts. split; [exact (P 7%nat ltac:(lia))|split; [exact (P 8%nat ltac:(lia))|exact (P 9%nat ltac:(lia))]].
  - apply changes_parts. split; [exact (P 10%nat ltac:(lia))|split; [exact (P 11%nat ltac:(lia))|exact (P 12%nat ltac:(lia))]].
Qed.
Lemma place_changes r t : changes (fun s => particle_place (x s) r) t (particle_velocity (x t) r).
Proof.
  destruct (motion_parts t) as (P & Q & _). unfold particle_place, particle_velocity. apply together_derive; [exact P|].
  pose proof (turns_transform _ t _ (fun _ => r) _ (facing_unit t) Q (constant_derive r t)) as H. cbv beta in H. replace (together (outer (rate_of (x t)) r) (0, 0, 0)) with (outer (rate_of (x t)) r) in H; [exact H|].
  set (w := rate_of (x t)). clearbody w. clear. flatg.
Qed.
Lemma velocity_changes r t : changes (fun s => particle_velocity (x s) r) t (particle_acceleration (facing_of (x t)) (rate_of (x t)) (ba_linear (acc t)) (ba_angular (acc t)) r).
Proof.
  destruct (motion_parts t) as (P & Q & V & W). unfold particle_velocity, particle_acceleration. apply together_derive; [exact V|].
  pose proof (turns_transform _ t _ (fun s => outer (rate_of (x s)) r) _ (facing_unit t) Q (outer_derive _ _ t _ _ W (constant_derive r t))) as H. cbv beta in H.
  match type of H with changes _ _ (transform_point _ ?u) => replace (together (outer (ba_angular (acc t)) r) (outer (rate_of (x t)) (outer (rate_of (x t)) r))) with u; [exact H|] end.
  set (w := rate_of (x t)). set (a := ba_angular (acc t)). clearbody w a. clear. flatg.
Qed.
Lemma total_point_changes (f : R -> R * point -> point) (df : R * point -> point) t (l : cloud) : (forall p, changes (fun s => f s p) t (df p)) -> changes (fun s => total_point (f s) l) t (total_point df l).
Proof. intros H. induction l as [|p l IH]; [exact (constant_derive (0, 0, 0) t)|]. cbn [total_point fold_right]. apply (together_derive (fun s => f s p) (fun s => total_point (f s) l)); [apply H|exact IH]. Qed.
Lemma total_changes (f : R -> R * point -> R) (df : R * point -> R) t (l : cloud) : (forall p, is_derive (fun s => f s p) t (df p)) -> is_derive (fun s => total (f s) l) t (total df l).
Proof. intros H. induction l as [|p l IH]; [exact (dconst 0 t)|]. cbn [total fold_right]. apply (dplus (fun s => f s p) (fun s => total (f s) l)); [apply H|exact IH]. Qed.
Lemma total_ext (f h : R * point -> R) (l : cloud) : (forall p, f p = h p) -> total f l = total h l.
Proof. intros E. induction l as [|p l IH]; [reflexivity|]. cbn [total fold_right]. fold (total f l) (total h l). rewrite E, IH. reflexivity. Qed.
Lemma total_plus (f h : R * point -> R) (l : cloud) : total (fun p => f p + h p) l = total f l + total h l.
Proof. induction l as [|p l IH]; [cbn; ring|]. cbn [total fold_right]. fold (total f l) (total h l) (total (fun p => f p + h p) l). rewrite IH. ring. Qed.
Lemma total_inner (f : R * point -> point) u (l : cloud) : total (fun p => inner u (f p)) l = inner u (total_point f l).
Proof. induction l as [|p l IH]; [destruct u as [[? ?] ?]; cbn; ring|]. cbn [total total_point fold_right]. fold (total (fun p => inner u (f p)) l) (total_point f l). rewrite IH. set (y := f p). set (z := total_point f l). clearbody y z. clear. flatg. Qed.
Lemma total_weight u (l : cloud) : total_point (fun p => multiple (fst p) u) l = multiple (total fst l) u.
Proof. induction l as [|p l IH]; [destruct u as [[? ?] ?]; cbn; apply point_eq; ring|]. cbn [total total_point fold_right]. fold (total (@fst R point) l) (total_point (fun p => multiple (fst p) u) l). rewrite IH. set (z := total fst l). clearbody z. destruct p as [m r]. cbn [fst]. clear. flatg. Qed.

Hypothesis Dsc : describes b c.
Hypothesis M0 : mass b <> 0.
Hypothesis Inverse : equal 3 3 (product 3 (mget (rotational_inertia b)) (mget inv)) unit_matrix.
Hypothesis Inverse' : equal 3 3 (product 3 (mget inv) (mget (rotational_inertia b))) unit_matrix.
Let A t r := particle_acceleration (facing_of (x t)) (rate_of (x t)) (ba_linear (acc t)) (ba_angular (acc t)) r.
Lemma newton_along t : obeys_newton c g (facing_of (x t)) (rate_of (x t)) (load t) (ba_linear (acc t)) (ba_angular (acc t)).
Proof. apply (proj2 (newton_iff b inv g c Dsc M0 Inverse Inverse' _ _ _ _ _ (facing_unit t))). split; reflexivity. Qed.
Lemma newton_sums_along t : let felt p := multiple (fst p) (together (A t (snd p)) (multiple (-1) g)) in
  total_point felt c = transform_point (facing_of (x t)) (force (load t)) /\ total_point (fun p => outer (transform_point (facing_of (x t)) (snd p)) (felt p)) c = transform_point (facing_of (x t)) (torque (load t)).
Proof. exact (newton_along t). Qed.
Lemma momentum_changes t : changes (fun s => particle_momentum c (x s)) t (together (transform_point (facing_of (x t)) (force (load t))) (multiple (mass b) g)).
Proof.
  destruct (newton_sums_along t) as [N _]. cbv zeta in N. rewrite <- N, (proj1 Dsc), <- total_weight, <- total_point_together.
  unfold particle_momentum. rewrite (total_point_ext _ (fun p => multiple (fst p) (A t (snd p)))).
  - apply (total_point_changes (fun s p => multiple (fst p) (particle_velocity (x s) (snd p)))). intros p. apply multiple_derive, velocity_changes.
  - intros [m r]. cbn [fst snd]. generalize (A t r). clear. intros a. flatg.
Qed.
Lemma spin_changes t : changes (fun s => particle_spin c (x s)) t
  (together (together (outer (origin_of (x t)) (transform_point (facing_of (x t)) (force (load t)))) (transform_point (facing_of (x t)) (torque (load t)))) (outer (total_point (fun p => multiple (fst p) (particle_place (x t) (snd p))) c) g)).
Proof.
  destruct (newton_sums_along t) as [N1 N2]. cbv zeta in N1, N2. rewrite <- N1, <- N2. rewrite <- total_point_outer, <- total_point_outer_l, <- !total_point_together.
  unfold particle_spin. rewrite (total_point_ext _ (fun p => together (outer (particle_velocity (x t) (snd p)) (multiple (fst p) (particle_velocity (x t) (snd p)))) (outer (particle_place (x t) (snd p)) (multiple (fst p) (A t (snd p)))))).
  - apply (total_point_changes (fun s p => outer (particle_place (x s) (snd p)) (multiple (fst p) (particle_velocity (x s) (snd p))))). intros p.
    apply (outer_derive (fun s => particle_place (x s) (snd p)) (fun s => multiple (fst p) (particle_velocity (x s) (snd p)))); [apply place_changes|apply multiple_derive, velocity_changes].
  - intros [m r]. cbn [fst snd]. unfold particle_place. generalize (A t r) (particle_velocity (x t) r) (origin_of (x t)) (transform_point (facing_of (x t)) r). clear. intros a v o z. flatg.
Qed.
Lemma energy_changes t : is_derive (fun s => particle_energy c g (x s)) t
  (inner (speed_of (x t)) (transform_point (facing_of (x t)) (force (load t))) + inner (transform_point (facing_of (x t)) (rate_of (x t))) (transform_point (facing_of (x t)) (torque (load t)))).
Proof.
  destruct (newton_sums_along t) as [N1 N2]. cbv zeta in N1, N2. rewrite <- N1, <- N2. rewrite <- !total_inner, <- total_plus.
  unfold particle_energy. rewrite (total_ext _ (fun p => fst p * (/ 2 * (inner (A t (snd p)) (particle_velocity (x t) (snd p)) + inner (particle_velocity (x t) (snd p)) (A t (snd p))) - (inner (0, 0, 0) (particle_place (x t) (snd p)) + inner g (particle_velocity (x t) (snd p)))))).
  - apply (total_changes (fun s p => fst p * (/ 2 * inner (particle_velocity (x s) (snd p)) (particle_velocity (x s) (snd p)) - inner g (particle_place (x s) (snd p))))). intros p.
    apply (is_derive_scal (fun s => / 2 * inner (particle_velocity (x s) (snd p)) (particle_velocity (x s) (snd p)) - inner g (particle_place (x s) (snd p)))). apply dminus.
    + apply (is_derive_scal (fun s => inner (particle_velocity (x s) (snd p)) (particle_velocity (x s) (snd p)))). apply inner_changes; apply velocity_changes.
    + apply (inner_changes (fun _ => g)); [apply constant_derive|apply place_changes].
  - intros [m r]. cbn [fst snd]. unfold particle_velocity. rewrite <- (rotate_outer _ _ _ (facing_unit t)). generalize (A t r) (particle_place (x t) r) (speed_of (x t)) (transform_point (facing_of (x t)) (rate_of (x t))) (transform_point (facing_of (x t)) r). clear. intros a o z v w. destruct a as [[? ?] ?], o as [[? ?] ?], z as [[? ?] ?], v as [[? ?] ?], w as [[? ?] ?], g as [[? ?] ?]. cbn. field.
Qed.
Lemma still_constant (f : R -> R) t : (forall s, is_derive f s 0) -> f t = f 0.
Proof.
  intros H. destruct (Rtotal_order 0 t) as [L|[<-|L]]; [|reflexivity|].
  - symmetry. apply (eq_is_derive f 0 t); [intros s _; apply H|exact L].
  - apply (eq_is_derive f t 0); [intros s _; apply H|exact L].
Qed.
Lemma still_point (f : R -> point) t : (forall s, changes f s (0, 0, 0)) -> f t = f 0.
Proof.
  intros H. assert (E : forall i, (i < 3)%nat -> coordinate (f t) i = coordinate (f 0) i). { intros i Hi. apply (still_constant (fun s => coordinate (f s) i)). intros s. specialize (H s i Hi). destruct i as [|[|[|i]]]; [exact H|exact H|exact H|lia]. }
  pose proof (E 0%nat ltac:(lia)). pose proof (E 1%nat ltac:(lia)). pose proof (E 2%nat ltac:(lia)). destruct (f t) as [[? ?] ?], (f 0) as [[? ?] ?]. apply point_eq; assumption.
Qed.
Hypothesis Free : forall t, load t = Wrench (0, 0, 0) (0, 0, 0).
Hypothesis Weightless : g = (0, 0, 0).
Lemma momentum_kept t : particle_momentum c (x t) = particle_momentum c (x 0).
Proof. apply (still_point (fun s => particle_momentum c (x s))). intros s. pose proof (momentum_changes s) as H. rewrite Free, Weightless in H. cbn [fst snd force] in H. rewrite transform_zero in H. replace (together (0, 0, 0) (multiple (mass b) (0, 0, 0))) with (0, 0, 0) in H by (cbn; apply point_eq; ring). exact H. Qed.
Lemma spin_kept t : particle_spin c (x t) = particle_spin c (x 0).
Proof. apply (still_point (fun s => particle_spin c (x s))). intros s. pose proof (spin_changes s) as H. rewrite Free, Weightless in H. cbn [fst snd force torque] in H. rewrite !transform_zero in H. match type of H with changes _ _ ?d => replace d with (0, 0, 0) in H; [exact H|] end. generalize (total_point (fun p => multiple (fst p) (particle_place (x s) (snd p))) c) (origin_of (x s)). clear. intros u v. flatg. Qed.
End Motion.
