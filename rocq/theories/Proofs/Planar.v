(** Rotations and rigid motions of the plane. *)
From Coq Require Import ZArith List Bool Arith Reals Lra Lia.
From Coquelicot Require Import Coquelicot.
From Verif Require Import Base.Scalar Base.RNum Base.Lists Base.Series Base.Trig Model.Vector Model.Matrix Model.Quaternion Model.Lie Spec.Matrix Spec.MatrixExp Spec.Hold Spec.Planar Proofs.Matrix Proofs.Algebra Proofs.Expm Proofs.Angle Proofs.Rotation Proofs.QuatExp Proofs.ExpIntegral.
Import ListNotations.
Local Open Scope R_scope.
Local Notation cos := Rtrigo_def.cos.
Local Notation sin := Rtrigo_def.sin.
Local Notation sqrt := R_sqrt.sqrt.
Local Notation exp := Rtrigo_def.exp.

Ltac two i := destruct i as [|[|i]]; [| |exfalso; lia].
Ltac plane := unfold equal, equal_vectors, product, times, bsum, transposed, unit_matrix, entries, planar, lifted, mget; intros; cbn [nth fst snd].

(** ** Rotations *)
Lemma so2_eq (a b : so2 R) : so2_cos a = so2_cos b -> so2_sin a = so2_sin b -> a = b.
Proof. destruct a, b. cbn. intros -> ->. reflexivity. Qed.
Ltac so2s := repeat match goal with a : so2 _ |- _ => destruct a as [?c ?s] | p : vec2 _ |- _ => destruct p as [?x ?y] end; unfold unit_so2 in *; cbn in *; rnum; cbn in *.
Lemma compose_assoc a b c : so2_compose (T := R) (so2_compose a b) c = so2_compose a (so2_compose b c).
Proof. so2s. apply so2_eq; cbn; ring. Qed.
Lemma compose_comm a b : so2_compose (T := R) a b = so2_compose b a.
Proof. so2s. apply so2_eq; cbn; ring. Qed.
Lemma compose_identity a : so2_compose (T := R) so2_identity a = a /\ so2_compose a so2_identity = a.
Proof. so2s. split; apply so2_eq; cbn; ring. Qed.
Lemma compose_inverse a : unit_so2 a -> so2_compose a (so2_inverse a) = so2_identity /\ so2_compose (so2_inverse a) a = so2_identity.
Proof. intros U. so2s. split; apply so2_eq; cbn; try (rewrite <- U); ring. Qed.
Lemma compose_unit a b : unit_so2 a -> unit_so2 b -> unit_so2 (so2_compose a b).
Proof. intros U V. so2s. transitivity ((c0 * c0 + s0 * s0) * (c * c + s * s)); [ring|]. rewrite U, V. ring. Qed.
Lemma inverse_unit a : unit_so2 a -> unit_so2 (so2_inverse a).
Proof. intros U. so2s. etransitivity; [|exact U]. ring. Qed.
Lemma angle_unit t : unit_so2 (so2_from_angle t).
Proof. unfold unit_so2. cbn. rnum. pose proof (sin2_cos2 t). unfold Rsqr in *. lra. Qed.
Lemma angle_sum s t : so2_compose (so2_from_angle s) (so2_from_angle t) = so2_from_angle (T := R) (s + t).
Proof. apply so2_eq; cbn; rnum; rewrite ?cos_plus, ?sin_plus; ring. Qed.
Lemma angle_inverse t : so2_inverse (so2_from_angle (T := R) t) = so2_from_angle (- t).
Proof. apply so2_eq; cbn; rnum; rewrite ?cos_neg, ?sin_neg; ring. Qed.
Lemma angle_matrix t : equal 2 2 (mget (so2_to_matrix (so2_from_angle t))) (turn t).
Proof. intros i j Hi Hj. reflexivity. Qed.
Lemma log_range a : - PI < so2_log (T := R) a <= PI.
Proof. unfold so2_log. rnum. apply atan2_range. Qed.
Lemma unit_polar a : unit_so2 a -> so2_from_angle (so2_log a) = a.
Proof.
  intros U. unfold so2_log. destruct a as [c s]. unfold unit_so2 in U. cbn in *. rnum. destruct (polar_form c s) as [A B].
  assert (H : hyp c s = 1). { unfold hyp. rewrite U. apply sqrt_1. } rewrite H, Rmult_1_l in A, B. unfold so2_from_angle. rnum. rewrite <- A, <- B. reflexivity.
Qed.
Lemma log_angle t : - PI < t <= PI -> so2_log (so2_from_angle t) = t.
Proof. intros H. unfold so2_log. cbn. rnum. apply atan2_angle, H. Qed.
Lemma turn_exp t : equal 2 2 (turn t) (matrix_exp 2 (mget (so2_hat t))).
Proof.
  assert (E := exp_unique_1 2 (mget (so2_hat t)) (fun s => turn (s * t))). cbv beta in E. rewrite Rmult_1_l in E. apply E.
  - intros u i j Hi Hj. unfold turn, so2_hat. two i; two j; plane; rnum; cbn [nth]; auto_derive; trivial; ring.
  - intros i j Hi Hj. unfold turn. rewrite Rmult_0_l, cos_0, sin_0. two i; two j; plane; cbn; ring.
Qed.
Lemma unit_proper a : unit_so2 a -> proper_turn (mget (so2_to_matrix a)).
Proof.
  intros U. destruct a as [c s]. unfold unit_so2 in U. cbn in U. split.
  - intros i j Hi Hj. unfold so2_to_matrix. two i; two j; plane; rnum; cbn [nth Nat.eqb so2_cos so2_sin]; lra.
  - unfold det, without, skip, bsum, mget, so2_to_matrix. cbn. rnum. lra.
Qed.
Lemma proper_unit m : proper_turn m -> exists a, unit_so2 a /\ equal 2 2 m (mget (so2_to_matrix a)).
Proof.
  intros [O D]. exists (SO2 (m 0%nat 0%nat) (m 1%nat 0%nat)). pose proof (O 0%nat 0%nat ltac:(lia) ltac:(lia)) as A. pose proof (O 0%nat 1%nat ltac:(lia) ltac:(lia)) as B. pose proof (O 1%nat 1%nat ltac:(lia) ltac:(lia)) as C.
  unfold product, transposed, bsum, unit_matrix in A, B, C. cbn [Nat.eqb] in A, B, C. unfold det, without, skip, bsum in D. cbn in D.
  set (p := m 0%nat 0%nat) in *. set (q := m 0%nat 1%nat) in *. set (r := m 1%nat 0%nat) in *. set (s := m 1%nat 1%nat) in *.
  assert (Q : s = p). { transitivity (s * (p * p + r * r) + 0); [|]. { replace (p * p + r * r) with 1 by lra. ring. } transitivity (p * (p * s - r * q) + r * (p * q + r * s)); [ring|]. replace (p * s - r * q) with 1 by lra. replace (p * q + r * s) with 0 by lra. ring. }
  assert (P : q = - r). { transitivity (q * (p * p + r * r)). { replace (p * p + r * r) with 1 by lra. ring. } transitivity (- r * (p * s - r * q) + p * (p * q + r * s)); [ring|]. replace (p * s - r * q) with 1 by lra. replace (p * q + r * s) with 0 by lra. ring. }
  split; [unfold unit_so2; cbn; lra|]. intros i j Hi Hj. unfold so2_to_matrix, mget. rnum. two i; two j; cbn; auto.
Qed.
Lemma hyp_abs x y : Rabs x <= hyp x y /\ Rabs y <= hyp x y.
Proof. pose proof (hyp_sqr x y). pose proof (hyp_pos x y). split; apply Rsqr_incr_0_var; auto; unfold Rsqr; rewrite <- Rabs_mult, Rabs_pos_eq by nra; nra. Qed.
Lemma hyp_sum x y : hyp x y <= Rabs x + Rabs y.
Proof. pose proof (Rabs_pos x). pose proof (Rabs_pos y). apply Rsqr_incr_0_var; [|lra]. unfold Rsqr. rewrite hyp_sqr. rewrite <- (Rabs_pos_eq (x * x)), <- (Rabs_pos_eq (y * y)), !Rabs_mult by nra. nra. Qed.
Lemma finite_R (x : R) : is_finite x = true.
Proof. reflexivity. Qed.
Lemma so2_try_R m : so2_try_from_matrix (T := R) m =
  let c := mget m 0 0 in let s := mget m 1 0 in let n := hyp c s in
  if (Rleb n (/ IZR (2^52)) || Rltb small (Rabs (n - 1)))%bool then None
  else if Rltb small (hyp (mget m 0 1 + s / n) (mget m 1 1 - c / n)) then None else Some (SO2 (c / n) (s / n)).
Proof. reflexivity. Qed.
Lemma eps_bound : 0 < / IZR (2^52) < / 1000 /\ small = 30 * / IZR (2^52) /\ small < / 1000.
Proof. assert (E : / IZR (2^52) < / 1000000). { apply Rinv_lt_contravar; [|apply IZR_lt; reflexivity]. apply Rmult_lt_0_compat; apply IZR_lt; reflexivity. } assert (P : 0 < / IZR (2^52)) by (apply Rinv_0_lt_compat, IZR_lt; reflexivity). unfold small, Rdiv. repeat split; lra. Qed.
Lemma so2_try_accepted m a : so2_try_from_matrix m = Some a -> unit_so2 a /\ forall i j, (i < 2)%nat -> (j < 2)%nat -> Rabs (mget m i j - mget (so2_to_matrix a) i j) <= small.
Proof.
  rewrite so2_try_R. cbv zeta. set (c := mget m 0 0). set (s := mget m 1 0). set (n := hyp c s). pose proof eps_bound as (E & _ & _).
  destruct (Rleb n (/ IZR (2^52))) eqn:A; [discriminate|]. apply Rleb_false in A. cbn [orb]. destruct (Rltb small (Rabs (n - 1))) eqn:B; [discriminate|]. apply Rltb_false in B.
  destruct (Rltb small _) eqn:C; [discriminate|]. apply Rltb_false in C. intros H. injection H as <-.
  assert (N : n * n = c * c + s * s) by apply hyp_sqr. destruct (hyp_abs c s) as [HC HS]. fold n in HC, HS.
  assert (D : forall x, Rabs x <= n -> Rabs (x - x / n) <= small).
  { intros x X. replace (x - x / n) with (x / n * (n - 1)) by (field; lra). rewrite Rabs_mult. unfold Rdiv. rewrite Rabs_mult, (Rabs_pos_eq (/ n)) by (left; apply Rinv_0_lt_compat; lra).
    assert (Rabs x * / n <= 1). { apply (Rmult_le_reg_r n); [lra|]. rewrite Rmult_assoc, Rinv_l by lra. lra. } pose proof (Rabs_pos (n - 1)). nra. }
  split. { unfold unit_so2. cbn. transitivity ((c * c + s * s) / (n * n)); [field; lra|]. rewrite N. field. rewrite <- N. nra. }
  destruct (hyp_abs (mget m 0 1 + s / n) (mget m 1 1 - c / n)) as [K L].
  intros i j Hi Hj. unfold so2_to_matrix. two i; two j; unfold mget at 2; cbn [nth so2_cos so2_sin]; rnum; fold c; fold s; auto; eapply Rle_trans; try exact C.
  - replace (mget m 0 1 - - (s / n)) with (mget m 0 1 + s / n) by ring. exact K.
  - exact L.
Qed.
Lemma so2_try_near m a : unit_so2 a -> (forall i j, (i < 2)%nat -> (j < 2)%nat -> Rabs (mget m i j - mget (so2_to_matrix a) i j) <= 3 * / IZR (2^52)) ->
  exists b, so2_try_from_matrix m = Some b.
Proof.
  intros U H. rewrite so2_try_R. cbv zeta. pose proof eps_bound as (E & S & S'). set (e := / IZR (2^52)) in *. destruct a as [c0 s0]. unfold unit_so2 in U. cbn in U.
  pose proof (H 0%nat 0%nat ltac:(lia) ltac:(lia)) as H00. pose proof (H 0%nat 1%nat ltac:(lia) ltac:(lia)) as H01. pose proof (H 1%nat 0%nat ltac:(lia) ltac:(lia)) as H10. pose proof (H 1%nat 1%nat ltac:(lia) ltac:(lia)) as H11. clear H.
  unfold so2_to_matrix, mget in H00, H01, H10, H11. cbn [nth so2_cos so2_sin] in *. fold (mget m 0 0) (mget m 0 1) (mget m 1 0) (mget m 1 1) in *. rnum.
  set (c := mget m 0 0) in *. set (s := mget m 1 0) in *. set (p := mget m 0 1) in *. set (q := mget m 1 1) in *.
  change (Rabs (c - c0) <= 3 * e) in H00. change (Rabs (s - s0) <= 3 * e) in H10. change (Rabs (p - - s0) <= 3 * e) in H01. change (Rabs (q - c0) <= 3 * e) in H11.
  set (n := hyp c s). assert (N : n * n = c * c + s * s) by apply hyp_sqr. assert (P : 0 <= n) by apply hyp_pos.
  apply Rabs_le_between in H00. apply Rabs_le_between in H10. apply Rabs_le_between in H01. apply Rabs_le_between in H11.
  assert (B : -1 <= c0 <= 1 /\ -1 <= s0 <= 1) by (split; nra). destruct B as [BC BS].
  assert (N1 : - (13 * e) <= n * n - 1 <= 13 * e).
  { rewrite N. replace (c * c + s * s - 1) with (2 * (c0 * (c - c0) + s0 * (s - s0)) + (c - c0) * (c - c0) + (s - s0) * (s - s0)) by (rewrite <- U; ring).
    set (x := c - c0) in *. set (y := s - s0) in *. assert (Rabs (c0 * x) <= 3 * e /\ Rabs (s0 * y) <= 3 * e). { split; rewrite Rabs_mult; [assert (Rabs c0 <= 1 /\ Rabs x <= 3 * e)|assert (Rabs s0 <= 1 /\ Rabs y <= 3 * e)]; try (split; apply Rabs_le; lra). all: pose proof (Rabs_pos c0); pose proof (Rabs_pos s0); pose proof (Rabs_pos x); pose proof (Rabs_pos y); nra. }
    destruct H as [A1 A2]. apply Rabs_le_between in A1. apply Rabs_le_between in A2. assert (0 <= x * x <= 9 * (e * e) /\ 0 <= y * y <= 9 * (e * e)) by (split; nra). assert (e * e <= e / 1000) by nra. lra. }
  assert (NB : 99 / 100 <= n <= 101 / 100) by nra.
  assert (N2 : - (7 * e) <= n - 1 <= 7 * e) by nra.
  rewrite (proj2 (Rleb_false _ _)) by lra. cbn [orb]. rewrite (proj2 (Rltb_false _ _)) by (apply Rabs_le; lra).
  destruct (hyp_abs c s) as [HC HS]. fold n in HC, HS.
  assert (D : forall x, Rabs x <= n -> Rabs (x - x / n) <= 7 * e).
  { intros x X. replace (x - x / n) with (x / n * (n - 1)) by (field; lra). rewrite Rabs_mult. unfold Rdiv. rewrite Rabs_mult, (Rabs_pos_eq (/ n)) by (left; apply Rinv_0_lt_compat; lra).
    assert (Rabs x * / n <= 1). { apply (Rmult_le_reg_r n); [lra|]. rewrite Rmult_assoc, Rinv_l by lra. lra. } assert (Rabs (n - 1) <= 7 * e) by (apply Rabs_le; lra). pose proof (Rabs_pos (n - 1)). pose proof (Rabs_pos x). assert (0 < / n) by (apply Rinv_0_lt_compat; lra). assert (0 <= Rabs x * / n) by (apply Rmult_le_pos; lra). apply Rle_trans with (1 * (7 * e)); [apply Rmult_le_compat; lra|lra]. }
  pose proof (D c HC) as DC. pose proof (D s HS) as DS. apply Rabs_le_between in DC. apply Rabs_le_between in DS.
  rewrite (proj2 (Rltb_false _ _)); [eexists; reflexivity|]. eapply Rle_trans; [apply hyp_sum|]. assert (Rabs (p + s / n) <= 13 * e /\ Rabs (q - c / n) <= 13 * e) by (split; apply Rabs_le; lra). lra.
Qed.
Lemma so2_try_exact a : unit_so2 a -> so2_try_from_matrix (so2_to_matrix a) = Some a.
Proof.
  intros U. rewrite so2_try_R. cbv zeta. destruct a as [c s]. unfold unit_so2 in U. cbn in U. unfold so2_to_matrix, mget. cbn [nth so2_cos so2_sin]. rnum. pose proof eps_bound as (E & S & S').
  assert (N : hyp c s = 1) by (unfold hyp; rewrite U; apply sqrt_1). rewrite N. rewrite (proj2 (Rleb_false _ _)) by lra. rewrite (proj2 (Rltb_false _ _)) by (rewrite Rminus_diag_eq, Rabs_R0 by reflexivity; lra). cbn [orb].
  unfold Rdiv. rewrite Rinv_1, !Rmult_1_r. replace (- s + s) with 0 by ring. replace (c - c) with 0 by ring. rewrite (proj2 (hyp_0 0 0)) by auto. rewrite (proj2 (Rltb_false _ _)) by lra. reflexivity.
Qed.
Lemma so2_normalized_R a : (so2_cos a <> 0 \/ so2_sin a <> 0) -> exists k, 0 < k /\ so2_normalized a = SO2 (k * so2_cos a) (k * so2_sin a) /\ unit_so2 (so2_normalized a).
Proof.
  intros H. destruct a as [c s]. cbn [so2_cos so2_sin] in H. assert (P : 0 < hyp c s). { destruct (hyp_pos c s) as [|E]; [assumption|]. symmetry in E. apply hyp_0 in E. destruct E; destruct H; contradiction. }
  assert (Q : hyp c s * hyp c s = c * c + s * s) by apply hyp_sqr. exists (/ hyp c s). split; [apply Rinv_0_lt_compat, P|].
  assert (E : so2_normalized (SO2 c s) = SO2 (/ hyp c s * c) (/ hyp c s * s)). { apply so2_eq; cbn; rnum; fold (hyp c s); ring. }
  rewrite E. split; [reflexivity|]. unfold unit_so2. cbn. transitivity ((c * c + s * s) * (/ hyp c s * / hyp c s)); [ring|]. rewrite <- Q. field. lra.
Qed.
Lemma so2_interpolate_R a b s : unit_so2 a -> unit_so2 b -> exists angle theta, a = so2_from_angle angle /\ b = so2_from_angle (angle + theta) /\ - PI < theta <= PI /\
  so2_interpolate a b s = so2_from_angle (angle + s * theta) /\ theta = so2_log (so2_compose (so2_inverse a) b) /\ angle = so2_log a.
Proof.
  intros A B. set (theta := so2_log (so2_compose (so2_inverse a) b)). exists (so2_log a), theta.
  assert (UA := unit_polar a A). assert (UC : so2_from_angle theta = so2_compose (so2_inverse a) b) by (apply unit_polar, compose_unit; auto; apply inverse_unit, A).
  split; [auto|]. split. { rewrite <- angle_sum, UA, UC, <- compose_assoc, (proj1 (compose_inverse a A)). apply eq_sym, compose_identity. }
  split; [apply log_range|]. split; [|auto]. unfold so2_interpolate. fold theta. unfold so2_exp. rnum. rewrite (Rmult_comm theta s), <- angle_sum, UA. reflexivity.
Qed.

(** ** Rigid motions *)
Lemma se2_eq (a b : se2 R) : se2_rotation a = se2_rotation b -> se2_translation a = se2_translation b -> a = b.
Proof. destruct a, b. cbn. intros -> ->. reflexivity. Qed.
Lemma pair_eq (a b c d : R) : a = c -> b = d -> (a, b) = (c, d).
Proof. congruence. Qed.
Ltac se2s := repeat match goal with a : se2 _ |- _ => destruct a as [[?c ?s] [?x ?y]] | p : vec2 _ |- _ => destruct p as [?x ?y] | p : (R * R)%type |- _ => destruct p as [?x ?y] end;
  unfold unit_se2, unit_so2 in *; cbn [se2_rotation se2_translation so2_cos so2_sin fst snd] in *.
Ltac motions := apply se2_eq; [apply so2_eq|apply pair_eq]; cbn; rnum; cbn.
Lemma se2_assoc a b c : se2_compose (T := R) (se2_compose a b) c = se2_compose a (se2_compose b c).
Proof. se2s. motions; ring. Qed.
Lemma se2_identity_l a : se2_compose (T := R) se2_identity a = a /\ se2_compose a se2_identity = a.
Proof. se2s. split; motions; ring. Qed.
Lemma se2_inverses a : unit_se2 a -> se2_compose a (se2_inverse a) = se2_identity /\ se2_compose (se2_inverse a) a = se2_identity.
Proof.
  intros U. se2s. split; motions; try (rewrite <- U; ring); try ring.
  - transitivity (x * (1 - (c * c + s * s))); [ring|]. rewrite U. ring.
  - transitivity (y * (1 - (c * c + s * s))); [ring|]. rewrite U. ring.
Qed.
Lemma se2_units a b : unit_se2 a -> unit_se2 b -> unit_se2 (se2_compose a b) /\ unit_se2 (se2_inverse a).
Proof. intros A B. split; [apply compose_unit|apply inverse_unit]; assumption. Qed.
Lemma se2_product a b : equal 3 3 (mget (se2_to_matrix (T := R) (se2_compose a b))) (product 3 (mget (se2_to_matrix a)) (mget (se2_to_matrix b))).
Proof. intros i j Hi Hj. se2s. unfold se2_to_matrix, se2_compose. three i; three j; plane; cbn; rnum; cbn; ring. Qed.
Lemma se2_action a p : equal_vectors 3 (lifted (se2_act a p)) (times 3 (mget (se2_to_matrix a)) (lifted p)).
Proof. intros i Hi. se2s. unfold se2_to_matrix, se2_act. three i; plane; cbn; rnum; cbn; ring. Qed.
Lemma se2_rigid a : unit_se2 a -> rigid_motion (mget (se2_to_matrix a)).
Proof.
  intros U. destruct a as [r p]. assert (P := unit_proper r U). destruct r as [c s], p as [x y]. split; [|cbn; auto]. destruct P as [O D]. split.
  - intros i j Hi Hj. rewrite <- (O i j Hi Hj). two i; two j; reflexivity.
  - rewrite <- D. reflexivity.
Qed.
Lemma se2_hat_R (v : vec3 R) : se2_hat v = let '(x, y, w) := v in [[0; - w; x]; [w; 0; y]; [0; 0; 0]].
Proof. reflexivity. Qed.

(** The exact exponential: [a = sin w / w] and [b = (1 - cos w) / w]. *)
Definition glide (x y w : R) (a b : R) : matrix := entries [[cos w; - sin w; a * x - b * y]; [sin w; cos w; b * x + a * y]; [0; 0; 1]].
Lemma glide_exp x y w : w <> 0 -> equal 3 3 (glide x y w (sin w / w) ((1 - cos w) / w)) (matrix_exp 3 (mget (se2_hat (x, y, w)))).
Proof.
  intros W. assert (E := exp_unique_1 3 (mget (se2_hat (x, y, w))) (fun s => glide x y (s * w) (sin (s * w) / w) ((1 - cos (s * w)) / w))). cbv beta in E. rewrite Rmult_1_l in E. apply E.
  - intros u i j Hi Hj. rewrite se2_hat_R. unfold glide. three i; three j; plane; auto_derive; trivial; try (field; exact W); ring.
  - intros i j Hi Hj. unfold glide. rewrite Rmult_0_l, cos_0, sin_0. three i; three j; plane; cbn; field; exact W.
Qed.
Lemma glide_straight x y : equal 3 3 (glide x y 0 1 0) (matrix_exp 3 (mget (se2_hat (x, y, 0)))).
Proof.
  assert (E := exp_unique_1 3 (mget (se2_hat (x, y, 0))) (fun s => glide (s * x) (s * y) 0 1 0)). cbv beta in E. rewrite !Rmult_1_l in E. apply E.
  - intros u i j Hi Hj. rewrite se2_hat_R. unfold glide. three i; three j; plane; auto_derive; trivial; rewrite ?cos_0, ?sin_0; ring.
  - intros i j Hi Hj. unfold glide. rewrite !Rmult_0_l, cos_0, sin_0. three i; three j; plane; cbn; ring.
Qed.
Lemma sinc_near w : w <> 0 -> Rabs w <= 2 -> 0 <= sin w / w - (1 - w * w / 6) <= w ^ 4 / 120.
Proof.
  intros W H. destruct (Rlt_dec 0 w) as [P|P]. { rewrite Rabs_pos_eq in H by lra. apply sinc_taylor. lra. }
  assert (P' : 0 < - w) by lra. rewrite Rabs_left in H by lra. pose proof (sinc_taylor (- w) ltac:(lra)) as A. rewrite sin_neg in A. replace (- sin w / - w) with (sin w / w) in A by (field; lra).
  replace (- w * - w) with (w * w) in A by ring. replace ((- w) ^ 4) with (w ^ 4) in A by ring. exact A.
Qed.
Lemma verse_near w : w <> 0 -> Rabs w <= 2 -> Rabs ((1 - cos w) / w - w * (/ 2 - w * w / 24)) <= Rabs w ^ 5 / 720.
Proof.
  intros W H. apply Rabs_le_between in H. destruct (cos_taylor w H) as [_ [C1 _]]. destruct (cos_taylor w H) as [[_ C2] _].
  replace ((1 - cos w) / w - w * (/ 2 - w * w / 24)) with ((1 - w ^ 2 / 2 + w ^ 4 / 24 - cos w) / w) by (field; exact W).
  unfold Rdiv at 1. rewrite Rabs_mult, Rabs_inv. assert (A : 0 < Rabs w) by (apply Rabs_pos_lt, W). apply (Rmult_le_reg_r (Rabs w)); [exact A|]. rewrite Rmult_assoc, Rinv_l, Rmult_1_r by lra.
  replace (Rabs w ^ 5 / 720 * Rabs w) with ((Rabs w * Rabs w) * (Rabs w * Rabs w) * (Rabs w * Rabs w) / 720) by (field). rewrite <- Rabs_mult, (Rabs_pos_eq (w * w)) by nra. replace (w * w * (w * w) * (w * w)) with (w ^ 6) by ring. apply Rabs_le. lra.
Qed.
Lemma se2_exp_R x y w : se2_exp (x, y, w) = SE2 (so2_from_angle w)
  (let a := if Rltb (Rabs w) small then 1 - w * w / 6 else sin w / w in let b := if Rltb (Rabs w) small then w * (/ 2 - w * w / 24) else (1 - cos w) / w in (a * x - b * y, b * x + a * y)).
Proof.
  unfold se2_exp, small_angle_sq, small_angle. rnum. fold small. replace (6 / 1) with 6 by field. replace (24 / 1) with 24 by field. pose proof small_bound as S. pose proof (Rabs_pos w) as P. assert (Q : w * w = Rabs w * Rabs w) by (rewrite <- Rabs_mult, Rabs_pos_eq by nra; ring).
  destruct (Rltb (Rabs w) small) eqn:E; [apply Rltb_true in E; rewrite (proj2 (Rltb_true _ _)) by (rewrite Q; nra)|apply Rltb_false in E; rewrite (proj2 (Rltb_false _ _)) by (rewrite Q; nra)]; reflexivity.
Qed.
Lemma se2_glide x y w a b i j : (i < 3)%nat -> (j < 3)%nat -> mget (se2_to_matrix (SE2 (so2_from_angle w) (a * x - b * y, b * x + a * y))) i j = glide x y w a b i j.
Proof. intros Hi Hj. three i; three j; reflexivity. Qed.
Lemma se2_exp_large x y w : small <= Rabs w -> equal 3 3 (mget (se2_to_matrix (se2_exp (x, y, w)))) (matrix_exp 3 (mget (se2_hat (x, y, w)))).
Proof.
  intros H. pose proof small_bound as S. rewrite se2_exp_R, (proj2 (Rltb_false _ _)) by exact H. cbv zeta. eapply equal_trans; [intros i j Hi Hj; apply se2_glide; auto|]. apply glide_exp. intros ->. rewrite Rabs_R0 in H. lra.
Qed.
Lemma se2_exp_zero x y : equal 3 3 (mget (se2_to_matrix (se2_exp (x, y, 0)))) (matrix_exp 3 (mget (se2_hat (x, y, 0)))).
Proof.
  pose proof small_bound as S. rewrite se2_exp_R, (proj2 (Rltb_true _ _)) by (rewrite Rabs_R0; lra). cbv zeta. eapply equal_trans; [|apply glide_straight]. intros i j Hi Hj. rewrite se2_glide by auto. unfold glide. three i; three j; plane; field.
Qed.
Lemma se2_exp_near x y w : Rabs w < small -> forall i j, (i < 3)%nat -> (j < 3)%nat ->
  Rabs (mget (se2_to_matrix (se2_exp (x, y, w))) i j - matrix_exp 3 (mget (se2_hat (x, y, w))) i j) <= w ^ 4 * (Rabs x + Rabs y).
Proof.
  intros H i j Hi Hj. pose proof eps_bound as (E & S & S'). assert (N : 0 <= w ^ 4 * (Rabs x + Rabs y)). { apply Rmult_le_pos; [nra|]. pose proof (Rabs_pos x). pose proof (Rabs_pos y). lra. }
  destruct (Req_dec w 0) as [->|W]. { rewrite se2_exp_zero by auto. rewrite Rminus_diag_eq, Rabs_R0 by reflexivity. exact N. }
  rewrite <- (glide_exp x y w W i j Hi Hj). rewrite se2_exp_R, (proj2 (Rltb_true _ _)) by exact H. cbv zeta. rewrite se2_glide by auto.
  pose proof (sinc_near w W ltac:(lra)) as A. pose proof (verse_near w W ltac:(lra)) as B. set (a := sin w / w) in *. set (b := (1 - cos w) / w) in *.
  assert (F : Rabs w ^ 5 <= w ^ 4). { replace (w ^ 4) with (Rabs w ^ 4) by (replace (Rabs w ^ 4) with ((Rabs w * Rabs w) * (Rabs w * Rabs w)) by ring; rewrite <- Rabs_mult, (Rabs_pos_eq (w * w)) by nra; ring). apply power_le; [|lia]. pose proof (Rabs_pos w). lra. }
  assert (W4 : 0 <= w ^ 4) by nra. set (da := 1 - w * w / 6 - a). set (db := w * (/ 2 - w * w / 24) - b).
  assert (DA : Rabs da <= w ^ 4) by (apply Rabs_le; unfold da; lra). assert (DB : Rabs db <= w ^ 4) by (unfold db; rewrite Rabs_minus_sym; lra).
  assert (K : forall p q, Rabs p <= w ^ 4 -> Rabs q <= w ^ 4 -> Rabs (p * x + q * y) <= w ^ 4 * (Rabs x + Rabs y)).
  { intros p q P Q. eapply Rle_trans; [apply Rabs_triang|]. rewrite !Rabs_mult. pose proof (Rabs_pos x). pose proof (Rabs_pos y). nra. }
  unfold glide. three i; three j; plane; try (rewrite Rminus_diag_eq, Rabs_R0 by reflexivity; exact N).
  - match goal with |- Rabs ?l <= _ => replace l with (da * x + (- db) * y) by (unfold da, db; ring) end. apply K; auto. rewrite Rabs_Ropp. auto.
  - match goal with |- Rabs ?l <= _ => replace l with (db * x + da * y) by (unfold da, db; ring) end. apply K; auto.
Qed.

(** The logarithm *)
Lemma alpha_beta_R w : se2_alpha_beta w (w * w) = if Rltb (Rabs w) small then (1 - w * w / 12, w / 2) else (w / 2 * (cos (w / 2) / sin (w / 2)), w / 2).
Proof.
  unfold se2_alpha_beta, small_angle_sq, small_angle. rnum. fold small. replace (12 / 1) with 12 by field. pose proof small_bound as S. pose proof (Rabs_pos w) as P. assert (Q : w * w = Rabs w * Rabs w) by (rewrite <- Rabs_mult, Rabs_pos_eq by nra; ring).
  destruct (Rltb (Rabs w) small) eqn:E; [apply Rltb_true in E; rewrite (proj2 (Rltb_true _ _)) by (rewrite Q; nra)|apply Rltb_false in E; rewrite (proj2 (Rltb_false _ _)) by (rewrite Q; nra)]; reflexivity.
Qed.
Lemma half_sine w : - PI < w <= PI -> w <> 0 -> sin (w / 2) <> 0.
Proof.
  intros H W. pose proof PI_RGT_0. destruct (Rlt_dec 0 w).
  - assert (0 < sin (w / 2)) by (apply sin_gt_0; lra). lra.
  - assert (0 < sin (- (w / 2))) by (apply sin_gt_0; lra). rewrite sin_neg in *. lra.
Qed.
(** (alpha, beta) inverts (a, b). *)
Lemma jacobian_inverse w : sin (w / 2) <> 0 -> w <> 0 -> let h := w / 2 in let al := h * (cos h / sin h) in let a := sin w / w in let b := (1 - cos w) / w in
  a * al + b * h = 1 /\ a * h - b * al = 0.
Proof.
  intros S W h al a b. fold h in S. assert (D : sin w = 2 * sin h * cos h /\ cos w = 1 - 2 * sin h * sin h). { replace w with (2 * h) by (unfold h; field). rewrite sin_2a, cos_2a_sin. lra. } destruct D as [D1 D2].
  unfold a, b, al. rewrite D1, D2. replace w with (2 * h) by (unfold h; field). assert (Hh : h <> 0) by (unfold h; lra). pose proof (sin2_cos2 h) as P. unfold Rsqr in P. split; [|field; auto].
  transitivity (cos h * cos h + sin h * sin h); [field; auto|lra].
Qed.
Lemma se2_log_R a : se2_log (T := R) a = let w := so2_log (se2_rotation a) in let '(al, be) := se2_alpha_beta w (w * w) in let '(x, y) := se2_translation a in (al * x + be * y, - be * x + al * y, w).
Proof. reflexivity. Qed.
Lemma triple_eq (a b c d e f : R) : a = d -> b = e -> c = f -> (a, b, c) = (d, e, f).
Proof. congruence. Qed.
Lemma se2_log_exp x y w : - PI < w <= PI -> small <= Rabs w -> se2_log (se2_exp (x, y, w)) = (x, y, w).
Proof.
  intros H L. pose proof small_bound as S. assert (W : w <> 0) by (intros ->; rewrite Rabs_R0 in L; lra). rewrite se2_exp_R, se2_log_R. cbv zeta. cbn [se2_rotation se2_translation]. rewrite log_angle by exact H.
  rewrite alpha_beta_R, !(proj2 (Rltb_false _ _)) by exact L. destruct (jacobian_inverse w (half_sine w H W) W) as [A B]. cbv zeta in A, B. set (al := w / 2 * (cos (w / 2) / sin (w / 2))) in *. set (a := sin w / w) in *. set (b := (1 - cos w) / w) in *. set (h := w / 2) in *.
  apply triple_eq; [| |reflexivity].
  - transitivity ((a * al + b * h) * x + (a * h - b * al) * y); [ring|]. rewrite A, B. ring.
  - transitivity ((a * al + b * h) * y - (a * h - b * al) * x); [ring|]. rewrite A, B. ring.
Qed.
Lemma se2_log_exp_straight x y : se2_log (se2_exp (x, y, 0)) = (x, y, 0).
Proof.
  pose proof small_bound as S. pose proof PI_RGT_0. rewrite se2_exp_R, se2_log_R. cbv zeta. cbn [se2_rotation se2_translation]. rewrite log_angle by lra. rewrite alpha_beta_R, !(proj2 (Rltb_true _ _)) by (rewrite Rabs_R0; lra). apply triple_eq; [field|field|reflexivity].
Qed.
Lemma se2_exp_log a : unit_se2 a -> (small <= Rabs (so2_log (se2_rotation a)) \/ so2_log (se2_rotation a) = 0) -> se2_exp (se2_log a) = a.
Proof.
  intros U L. pose proof small_bound as S. rewrite se2_log_R. cbv zeta. destruct a as [r [x y]]. unfold unit_se2 in U. cbn [se2_rotation se2_translation] in *. pose proof (log_range r) as H. pose proof (unit_polar r U) as P. set (w := so2_log r) in *. rewrite alpha_beta_R.
  destruct L as [L|Z].
  - assert (W : w <> 0) by (intros Z; rewrite Z, Rabs_R0 in L; lra). rewrite (proj2 (Rltb_false _ _)) by exact L. rewrite se2_exp_R, (proj2 (Rltb_false _ _)) by exact L. cbv zeta. rewrite P.
    destruct (jacobian_inverse w (half_sine w H W) W) as [A B]. cbv zeta in A, B. set (al := w / 2 * (cos (w / 2) / sin (w / 2))) in *. set (a := sin w / w) in *. set (b := (1 - cos w) / w) in *. set (h := w / 2) in *. f_equal. apply pair_eq.
    + transitivity ((a * al + b * h) * x + (a * h - b * al) * y); [ring|]. rewrite A, B. ring.
    + transitivity ((a * al + b * h) * y - (a * h - b * al) * x); [ring|]. rewrite A, B. ring.
  - rewrite Z in *. rewrite (proj2 (Rltb_true _ _)) by (rewrite Rabs_R0; lra). rewrite se2_exp_R, (proj2 (Rltb_true _ _)) by (rewrite Rabs_R0; lra). cbv zeta. rewrite P. f_equal. apply pair_eq; field.
Qed.
Lemma inverse_near w : w <> 0 -> Rabs w <= / 1000 -> let a := sin w / w in let b := (1 - cos w) / w in
  Rabs (a * (1 - w * w / 12) + b * (w / 2) - 1) <= w ^ 4 / 50 /\ Rabs (a * (w / 2) - b * (1 - w * w / 12)) <= w ^ 4 / 50.
Proof.
  intros W H a b. pose proof (sinc_near w W ltac:(lra)) as A. pose proof (verse_near w W ltac:(lra)) as B. fold a in A. fold b in B. set (e1 := a - (1 - w * w / 6)) in *. set (e2 := b - w * (/ 2 - w * w / 24)) in *.
  assert (W2 : w * w <= / 1000000) by (replace (w * w) with (Rabs w * Rabs w) by (rewrite <- Rabs_mult, Rabs_pos_eq by nra; ring); pose proof (Rabs_pos w); nra). assert (W4 : 0 <= w ^ 4) by nra. assert (V2 : 0 <= w * w) by nra.
  assert (F : Rabs w ^ 5 <= w ^ 4 / 1000). { replace (Rabs w ^ 5) with ((Rabs w * Rabs w) * (Rabs w * Rabs w) * Rabs w) by ring. rewrite <- Rabs_mult, (Rabs_pos_eq (w * w)) by nra. replace (w * w * (w * w)) with (w ^ 4) by ring. pose proof (Rabs_pos w). nra. }
  apply Rabs_le_between in H. assert (E1 : Rabs (e1 * w) <= w ^ 4 / 120). { rewrite Rabs_mult, (Rabs_pos_eq e1) by lra. assert (Rabs w <= 1) by (apply Rabs_le; lra). pose proof (Rabs_pos w). nra. }
  assert (E2 : Rabs e2 <= w ^ 4 / 720000) by lra. assert (W5 : Rabs (w ^ 5) <= w ^ 4 / 1000) by (rewrite <- RPow_abs; exact F).
  apply Rabs_le_between in E1. apply Rabs_le_between in E2. apply Rabs_le_between in W5. split; apply Rabs_le.
  - replace (a * (1 - w * w / 12) + b * (w / 2) - 1) with (- (w ^ 4 / 144) + e1 * (1 - w * w / 12) + e2 * w / 2) by (unfold e1, e2; field).
    assert (0 <= e1 * (1 - w * w / 12) <= w ^ 4 / 120) by (split; nra). assert (- (w ^ 4 / 720000) <= e2 * w <= w ^ 4 / 720000). { apply Rabs_le_between. rewrite Rabs_mult. assert (Rabs e2 <= w ^ 4 / 720000 /\ Rabs w <= 1) by (split; apply Rabs_le; lra). pose proof (Rabs_pos w). pose proof (Rabs_pos e2). nra. } lra.
  - replace (a * (w / 2) - b * (1 - w * w / 12)) with (e1 * w / 2 - w ^ 5 / 288 - e2 + e2 * (w * w) / 12) by (unfold e1, e2; field).
    assert (- (w ^ 4 / 720000) <= e2 * (w * w) <= w ^ 4 / 720000). { apply Rabs_le_between. rewrite Rabs_mult, (Rabs_pos_eq (w * w)) by lra. assert (Rabs e2 <= w ^ 4 / 720000) by (apply Rabs_le; lra). pose proof (Rabs_pos e2). nra. } lra.
Qed.
Lemma se2_log_near a : unit_se2 a -> Rabs (so2_log (se2_rotation a)) < small -> forall i j, (i < 3)%nat -> (j < 3)%nat ->
  Rabs (matrix_exp 3 (mget (se2_hat (se2_log a))) i j - mget (se2_to_matrix a) i j) <= so2_log (se2_rotation a) ^ 4 * (Rabs (fst (se2_translation a)) + Rabs (snd (se2_translation a))).
Proof.
  intros U L i j Hi Hj. pose proof eps_bound as (E & S & S'). destruct (Req_dec (so2_log (se2_rotation a)) 0) as [Z|W].
  { assert (X := se2_exp_log a U (or_intror Z)). rewrite se2_log_R in *. cbv zeta in *. rewrite Z in *. rewrite alpha_beta_R in *. destruct a as [r [x y]]. cbn [se2_rotation se2_translation fst snd] in *. rewrite (proj2 (Rltb_true _ _)) in * by (rewrite Rabs_R0; lra).
    rewrite <- se2_exp_zero by auto. rewrite X, Rminus_diag_eq, Rabs_R0 by reflexivity. replace (0 ^ 4) with 0 by ring. lra. }
  rewrite se2_log_R. cbv zeta. destruct a as [r [x y]]. unfold unit_se2 in U. cbn [se2_rotation se2_translation fst snd] in *. pose proof (unit_polar r U) as P. set (w := so2_log r) in *. rewrite alpha_beta_R, (proj2 (Rltb_true _ _)) by exact L.
  rewrite <- glide_exp by auto. destruct (inverse_near w W ltac:(lra)) as [A B]. cbv zeta in A, B. set (a := sin w / w) in *. set (b := (1 - cos w) / w) in *. rewrite <- P. assert (W4 : 0 <= w ^ 4) by nra.
  assert (N : 0 <= w ^ 4 * (Rabs x + Rabs y)). { apply Rmult_le_pos; [exact W4|]. pose proof (Rabs_pos x). pose proof (Rabs_pos y). lra. }
  assert (K : forall p q, Rabs p <= w ^ 4 / 50 -> Rabs q <= w ^ 4 / 50 -> Rabs (p * x + q * y) <= w ^ 4 * (Rabs x + Rabs y)).
  { intros p q P' Q. eapply Rle_trans; [apply Rabs_triang|]. rewrite !Rabs_mult. pose proof (Rabs_pos x). pose proof (Rabs_pos y). nra. }
  set (k := a * (1 - w * w / 12) + b * (w / 2) - 1) in *. set (l := a * (w / 2) - b * (1 - w * w / 12)) in *.
  unfold glide, se2_to_matrix. three i; three j; plane; cbn [se2_rotation se2_translation so2_from_angle so2_cos so2_sin]; rnum; cbn [nth]; try (rewrite Rminus_diag_eq, Rabs_R0 by reflexivity; exact N).
  - match goal with |- Rabs ?u <= _ => replace u with (k * x + l * y) by (unfold k, l; ring) end. auto.
  - match goal with |- Rabs ?u <= _ => replace u with (- l * x + k * y) by (unfold k, l; ring) end. apply K; auto. rewrite Rabs_Ropp. exact B.
Qed.

(** Adjoint, matrices, interpolation *)
Lemma se2_adjoint_R a v : unit_se2 a -> equal 3 3 (product 3 (mget (se2_to_matrix a)) (mget (se2_hat v))) (product 3 (mget (se2_hat (of_vector (times 3 (mget (se2_adjoint a)) (coordinates3 v))))) (mget (se2_to_matrix a))).
Proof.
  intros U i j Hi Hj. destruct v as [[vx vy] w]. rewrite !se2_hat_R. se2s. unfold of_vector, coordinates3, se2_to_matrix, se2_adjoint. three i; three j; plane; rnum; cbn [nth se2_rotation se2_translation so2_cos so2_sin]; ring.
Qed.
Lemma se2_try_R m : se2_try_from_matrix (T := R) m =
  if (Rltb small (Rabs (mget m 2 0)) || Rltb small (Rabs (mget m 2 1)) || Rltb small (Rabs (mget m 2 2 - 1)))%bool then None
  else match so2_try_from_matrix [[mget m 0 0; mget m 0 1]; [mget m 1 0; mget m 1 1]] with None => None | Some r => Some (SE2 r (mget m 0 2, mget m 1 2)) end.
Proof. reflexivity. Qed.
Lemma se2_try_exact a : unit_se2 a -> se2_try_from_matrix (se2_to_matrix a) = Some a.
Proof.
  intros U. pose proof small_bound as S. rewrite se2_try_R. destruct a as [r [x y]]. unfold unit_se2 in U. cbn [se2_rotation] in U. unfold se2_to_matrix, mget. cbn [nth se2_rotation se2_translation]. rnum.
  rewrite !Rminus_diag_eq, !Rabs_R0 by reflexivity. rewrite (proj2 (Rltb_false _ _)) by lra. cbn [orb]. change [[so2_cos r; - so2_sin r]; [so2_sin r; so2_cos r]] with (so2_to_matrix r). rewrite so2_try_exact by exact U. reflexivity.
Qed.
Lemma se2_try_accepted m a : se2_try_from_matrix m = Some a -> unit_se2 a /\ forall i j, (i < 3)%nat -> (j < 3)%nat -> Rabs (mget m i j - mget (se2_to_matrix a) i j) <= small.
Proof.
  rewrite se2_try_R. destruct (_ || _ || _)%bool eqn:B; [discriminate|]. apply orb_false_iff in B as [B B3]. apply orb_false_iff in B as [B1 B2]. apply Rltb_false in B1, B2, B3. destruct (so2_try_from_matrix _) as [r|] eqn:E; [|discriminate]. intros H. injection H as <-. apply so2_try_accepted in E as [U N].
  pose proof small_bound as S. split; [exact U|]. intros i j Hi Hj. three i; three j; try first [exact (N 0%nat 0%nat ltac:(lia) ltac:(lia))|exact (N 0%nat 1%nat ltac:(lia) ltac:(lia))|exact (N 1%nat 0%nat ltac:(lia) ltac:(lia))|exact (N 1%nat 1%nat ltac:(lia) ltac:(lia))]; unfold se2_to_matrix; unfold mget at 2; cbn [nth se2_rotation se2_translation]; rnum; rewrite ?Rminus_0_r; try assumption; rewrite Rminus_diag_eq, Rabs_R0 by reflexivity; lra.
Qed.
Lemma scale3_R (v : vec3 R) k : scale3 v k = let '(x, y, z) := v in (x * k, y * k, z * k).
Proof. destruct v as [[x y] z]. reflexivity. Qed.
Lemma hat_scaled v k : equal 3 3 (mget (se2_hat (scale3 v k))) (scaled_matrix k (mget (se2_hat v))).
Proof. intros i j Hi Hj. destruct v as [[x y] z]. rewrite scale3_R, !se2_hat_R. unfold scaled_matrix. three i; three j; plane; ring. Qed.
Lemma se2_exp_exact v : small <= Rabs (snd v) \/ snd v = 0 -> equal 3 3 (mget (se2_to_matrix (se2_exp v))) (matrix_exp 3 (mget (se2_hat v))).
Proof. destruct v as [[x y] w]. cbn [snd]. intros [L| ->]; [apply se2_exp_large, L|apply se2_exp_zero]. Qed.
Lemma se2_relative a b : unit_se2 a -> unit_se2 b -> unit_se2 (se2_compose (se2_inverse a) b).
Proof. intros A B. apply compose_unit; [apply inverse_unit|]; assumption. Qed.
Lemma se2_log_angle a : snd (se2_log (T := R) a) = so2_log (se2_rotation a).
Proof. rewrite se2_log_R. cbv zeta. destruct (se2_alpha_beta _ _), (se2_translation a). reflexivity. Qed.
Lemma se2_interpolate_ends a b : unit_se2 a -> unit_se2 b -> se2_interpolate a b 0 = a /\
  (small <= Rabs (snd (se2_log (se2_compose (se2_inverse a) b))) \/ snd (se2_log (se2_compose (se2_inverse a) b)) = 0 -> se2_interpolate a b 1 = b).
Proof.
  intros A B. unfold se2_interpolate. rewrite se2_log_angle. set (c := se2_compose (se2_inverse a) b). assert (C : unit_se2 c) by (apply se2_relative; auto). split.
  - destruct (se2_log c) as [[x y] w]. rewrite scale3_R, !Rmult_0_r, se2_exp_R. pose proof small_bound. rewrite (proj2 (Rltb_true _ _)) by (rewrite Rabs_R0; lra). cbv zeta.
    replace (SE2 _ _) with (se2_identity (T := R)); [apply se2_identity_l|]. motions; rewrite ?cos_0, ?sin_0; try reflexivity; field.
  - intros L. replace (scale3 (se2_log c) 1) with (se2_log c) by (destruct (se2_log c) as [[x y] w]; rewrite scale3_R, !Rmult_1_r; reflexivity). rewrite se2_exp_log by auto. unfold c. rewrite <- se2_assoc, (proj1 (se2_inverses a A)). apply se2_identity_l.
Qed.
Lemma se2_interpolate_matrix a b s : unit_se2 a -> unit_se2 b -> let v := se2_log (se2_compose (se2_inverse a) b) in small <= Rabs (s * snd v) \/ s * snd v = 0 ->
  equal 3 3 (mget (se2_to_matrix (se2_interpolate a b s))) (product 3 (mget (se2_to_matrix a)) (exp_at 3 (mget (se2_hat v)) s)).
Proof.
  intros A B v L. unfold se2_interpolate. fold v. eapply equal_trans; [apply se2_product|]. apply equal_product; [apply equal_refl|]. eapply equal_trans; [apply se2_exp_exact|].
  - destruct v as [[x y] w]. rewrite scale3_R. cbn [snd] in *. rewrite (Rmult_comm w s). exact L.
  - apply matrix_exp_ext, hat_scaled.
Qed.

(** ** The jacobians *)
Lemma se2_ad_bracket v u : equal 3 3 (mget (se2_hat (of_vector (times 3 (se2_ad v) (coordinates3 u))))) (bracket 3 (mget (se2_hat v)) (mget (se2_hat u))).
Proof. intros i j Hi Hj. destruct v as [[x y] w], u as [[p q] r]. rewrite !se2_hat_R. unfold of_vector, coordinates3, se2_ad, bracket, minus_matrix. three i; three j; plane; ring. Qed.
(** The integral of [exp (s ad)]: [a], [b] as before, [p = (1 - cos w) / w^2] and [r = (w - sin w) / w^2]. *)
Definition swing (x y a b p r : R) : matrix := entries [[a; - b; p * y + r * x]; [b; a; r * y - p * x]; [0; 0; 1]].
Lemma swing_integral x y w : w <> 0 -> integral 3 3 (exp_at 3 (se2_ad (x, y, w))) 1 (swing x y (sin w / w) ((1 - cos w) / w) ((1 - cos w) / (w * w)) ((w - sin w) / (w * w))).
Proof.
  intros W. assert (E := integral_unique 3 (se2_ad (x, y, w)) (fun t => entries [[sin (t * w) / w; - ((1 - cos (t * w)) / w); (1 - cos (t * w)) / (w * w) * y + (t * w - sin (t * w)) / (w * w) * x];
    [(1 - cos (t * w)) / w; sin (t * w) / w; (t * w - sin (t * w)) / (w * w) * y - (1 - cos (t * w)) / (w * w) * x]; [0; 0; t]])).
  cbv beta in E. destruct (E) with (b := 1) as [_ I].
  - intros t i j Hi Hj. unfold se2_ad. three i; three j; plane; auto_derive; trivial; cbn [Nat.eqb]; field; exact W.
  - intros i j Hi Hj. rewrite Rmult_0_l, cos_0, sin_0. unfold zero_matrix. three i; three j; plane; field; exact W.
  - lra.
  - unfold swing. rewrite !Rmult_1_l in I. exact I.
Qed.
Lemma swing_straight x y : integral 3 3 (exp_at 3 (se2_ad (x, y, 0))) 1 (swing x y 1 0 (/ 2) 0).
Proof.
  assert (E := integral_unique 3 (se2_ad (x, y, 0)) (fun t => entries [[t; 0; t * t / 2 * y]; [0; t; - (t * t / 2 * x)]; [0; 0; t]])). cbv beta in E. destruct (E) with (b := 1) as [_ I].
  - intros t i j Hi Hj. unfold se2_ad. three i; three j; plane; auto_derive; trivial; cbn [Nat.eqb]; field.
  - intros i j Hi Hj. unfold zero_matrix. three i; three j; plane; field.
  - lra.
  - unfold integral in *. intros i j Hi Hj. specialize (I i j Hi Hj). replace (swing x y 1 0 (/ 2) 0 i j) with (entries [[1; 0; 1 * 1 / 2 * y]; [0; 1; - (1 * 1 / 2 * x)]; [0; 0; 1]] i j); [exact I|]. unfold swing. three i; three j; plane; field.
Qed.
Lemma se2_left_jacobian_R x y w : equal 3 3 (mget (se2_left_jacobian (x, y, w)))
  (if Rltb (Rabs w) small then swing x y (1 - w * w / 6) (w * (/ 2 - w * w / 24)) (/ 2 - w * w / 24) (w * (1 / 6 - w * w / 120)) else swing x y (sin w / w) ((1 - cos w) / w) ((1 - cos w) / (w * w)) ((w - sin w) / (w * w))).
Proof.
  intros i j Hi Hj. unfold se2_left_jacobian, small_angle_sq, small_angle. rnum. fold small. pose proof small_bound as S. pose proof (Rabs_pos w) as P. assert (Q : w * w = Rabs w * Rabs w) by (rewrite <- Rabs_mult, Rabs_pos_eq by nra; ring).
  destruct (Rltb (Rabs w) small) eqn:E; [apply Rltb_true in E; rewrite (proj2 (Rltb_true _ _)) by (rewrite Q; nra)|apply Rltb_false in E; rewrite (proj2 (Rltb_false _ _)) by (rewrite Q; nra)]; unfold swing; three i; three j; plane; try reflexivity; field; intros ->; rewrite Rabs_R0 in E; lra.
Qed.
Lemma w5_le w : Rabs w <= 1 -> Rabs w ^ 5 <= w ^ 4.
Proof. intros H. replace (w ^ 4) with (Rabs w ^ 4) by (replace (Rabs w ^ 4) with ((Rabs w * Rabs w) * (Rabs w * Rabs w)) by ring; rewrite <- Rabs_mult, (Rabs_pos_eq (w * w)) by nra; ring). apply power_le; [|lia]. pose proof (Rabs_pos w). lra. Qed.
Lemma quotient_near u v w : w <> 0 -> Rabs (u - v * w) <= Rabs w * (w ^ 4) -> Rabs (u / w - v) <= w ^ 4.
Proof.
  intros W H. replace (u / w - v) with ((u - v * w) * / w) by (field; exact W). rewrite Rabs_mult, Rabs_inv. assert (A : 0 < Rabs w) by (apply Rabs_pos_lt, W). apply (Rmult_le_reg_r (Rabs w)); [exact A|]. rewrite Rmult_assoc, Rinv_l, Rmult_1_r by lra. lra.
Qed.
Lemma p_near w : w <> 0 -> Rabs w <= 2 -> Rabs ((1 - cos w) / (w * w) - (/ 2 - w * w / 24)) <= w ^ 4.
Proof.
  intros W H. replace ((1 - cos w) / (w * w)) with ((1 - cos w) / w / w) by (field; exact W). apply quotient_near; [exact W|]. pose proof (verse_near w W H) as V. replace ((/ 2 - w * w / 24) * w) with (w * (/ 2 - w * w / 24)) by ring.
  eapply Rle_trans; [exact V|]. replace (Rabs w ^ 5) with (Rabs w * ((Rabs w * Rabs w) * (Rabs w * Rabs w))) by ring. rewrite <- Rabs_mult, (Rabs_pos_eq (w * w)) by nra. replace (w * w * (w * w)) with (w ^ 4) by ring. assert (0 <= w ^ 4) by nra. pose proof (Rabs_pos w). nra.
Qed.
Lemma sin_near w : 0 <= w <= 2 -> 0 <= w - w ^ 3 / 6 + w ^ 5 / 120 - sin w <= w ^ 7 / 5040.
Proof. intros H. destruct (sin_taylor w ltac:(lra)) as [[_ A] [B _]]. lra. Qed.
Lemma r_near w : w <> 0 -> Rabs w <= 1 -> Rabs ((w - sin w) / (w * w) - w * (1 / 6 - w * w / 120)) <= w ^ 4.
Proof.
  intros W H.
  assert (G : forall v, 0 < v <= 1 -> Rabs ((v - sin v) / (v * v) - v * (1 / 6 - v * v / 120)) <= v ^ 4).
  { intros v V. replace ((v - sin v) / (v * v) - v * (1 / 6 - v * v / 120)) with ((v - v ^ 3 / 6 + v ^ 5 / 120 - sin v) * / (v * v)) by (field; lra). pose proof (sin_near v ltac:(lra)) as [A B]. assert (0 < v * v) by nra. assert (0 < / (v * v)) by (apply Rinv_0_lt_compat; assumption).
    rewrite Rabs_pos_eq by nra. apply (Rmult_le_reg_r (v * v)); [assumption|]. rewrite Rmult_assoc, Rinv_l, Rmult_1_r by lra. eapply Rle_trans; [exact B|]. replace (v ^ 4 * (v * v)) with (v ^ 6) by ring. replace (v ^ 7) with (v ^ 6 * v) by ring. assert (0 <= v ^ 6) by (apply pow_le; lra). nra. }
  destruct (Rlt_dec 0 w) as [P|P]. { rewrite Rabs_pos_eq in H by lra. apply G. lra. }
  rewrite Rabs_left in H by lra. pose proof (G (- w) ltac:(lra)) as A. rewrite sin_neg in A. replace ((- w) ^ 4) with (w ^ 4) in A by ring. rewrite <- Rabs_Ropp. match goal with |- Rabs ?x <= _ => match type of A with Rabs ?y <= _ => replace x with y; [exact A|field; lra] end end.
Qed.
Lemma se2_jacobian_near x y w : Rabs w < small -> exists k, integral 3 3 (exp_at 3 (se2_ad (x, y, w))) 1 k /\
  forall i j, (i < 3)%nat -> (j < 3)%nat -> Rabs (mget (se2_left_jacobian (x, y, w)) i j - k i j) <= w ^ 4 * (1 + Rabs x + Rabs y).
Proof.
  intros L. pose proof eps_bound as (E & S & S'). pose proof (Rabs_pos x) as X. pose proof (Rabs_pos y) as Y. destruct (Req_dec w 0) as [->|W].
  { exists (swing x y 1 0 (/ 2) 0). split; [apply swing_straight|]. intros i j Hi Hj. rewrite se2_left_jacobian_R by auto. rewrite (proj2 (Rltb_true _ _)) by exact L. replace (0 ^ 4) with 0 by ring. rewrite Rmult_0_l. unfold swing. three i; three j; plane; rewrite Rminus_diag_eq, Rabs_R0 by field; lra. }
  eexists. split; [apply swing_integral, W|]. intros i j Hi Hj. rewrite se2_left_jacobian_R by auto. rewrite (proj2 (Rltb_true _ _)) by exact L.
  pose proof (sinc_near w W ltac:(lra)) as A. pose proof (verse_near w W ltac:(lra)) as B. pose proof (p_near w W ltac:(lra)) as P. pose proof (r_near w W ltac:(lra)) as Q. pose proof (w5_le w ltac:(lra)) as F. assert (W4 : 0 <= w ^ 4) by nra.
  set (a := sin w / w) in *. set (b := (1 - cos w) / w) in *. set (p := (1 - cos w) / (w * w)) in *. set (r := (w - sin w) / (w * w)) in *.
  assert (DA : Rabs (1 - w * w / 6 - a) <= w ^ 4) by (apply Rabs_le; lra). assert (DB : Rabs (w * (/ 2 - w * w / 24) - b) <= w ^ 4) by (rewrite Rabs_minus_sym; lra). rewrite Rabs_minus_sym in P, Q.
  assert (N : w ^ 4 <= w ^ 4 * (1 + Rabs x + Rabs y)) by nra.
  assert (K : forall s t, Rabs s <= w ^ 4 -> Rabs t <= w ^ 4 -> Rabs (s * x + t * y) <= w ^ 4 * (1 + Rabs x + Rabs y)).
  { intros s t HS HT. eapply Rle_trans; [apply Rabs_triang|]. rewrite !Rabs_mult. nra. }
  unfold swing. three i; three j; plane; try (rewrite Rminus_diag_eq, Rabs_R0 by reflexivity; lra); try lra.
  - rewrite <- Rabs_Ropp. match goal with |- Rabs ?u <= _ => replace u with (w * (/ 2 - w * w / 24) - b) by ring end. lra.
  - match goal with |- Rabs ?u <= _ => replace u with ((w * (1 / 6 - w * w / 120) - r) * x + (/ 2 - w * w / 24 - p) * y) by ring end. auto.
  - match goal with |- Rabs ?u <= _ => replace u with ((- (/ 2 - w * w / 24 - p)) * x + (w * (1 / 6 - w * w / 120) - r) * y) by ring end. apply K; auto. rewrite Rabs_Ropp. exact P.
Qed.
Lemma se2_jacobian_large x y w : small <= Rabs w -> integral 3 3 (exp_at 3 (se2_ad (x, y, w))) 1 (mget (se2_left_jacobian (x, y, w))).
Proof.
  intros L. pose proof small_bound as S. assert (W : w <> 0) by (intros ->; rewrite Rabs_R0 in L; lra). intros i j Hi Hj. rewrite se2_left_jacobian_R by auto. rewrite (proj2 (Rltb_false _ _)) by exact L. apply swing_integral; auto.
Qed.
Lemma se2_left_jacobian_inverse_R x y w : equal 3 3 (mget (se2_left_jacobian_inverse (x, y, w)))
  (let '(p, r) := if Rltb (Rabs w) small then (/ 2 - w * w / 24, w * (1 / 6 - w * w / 120)) else ((1 - cos w) / (w * w), (w - sin w) / (w * w)) in
   let '(al, be) := se2_alpha_beta w (w * w) in let u := p * y + r * x in let v := r * y - p * x in
   entries [[al; be; - (al * u + be * v)]; [- be; al; - (- be * u + al * v)]; [0; 0; 1]]).
Proof.
  intros i j Hi Hj. unfold se2_left_jacobian_inverse. cbv zeta. change (mul w w) with (w * w). rewrite !alpha_beta_R. unfold small_angle_sq, small_angle. rnum. fold small. pose proof small_bound as S. pose proof (Rabs_pos w) as P. assert (Q : w * w = Rabs w * Rabs w) by (rewrite <- Rabs_mult, Rabs_pos_eq by nra; ring).
  destruct (Rltb (Rabs w) small) eqn:E; [apply Rltb_true in E; rewrite (proj2 (Rltb_true _ _)) by (rewrite Q; nra)|apply Rltb_false in E; rewrite (proj2 (Rltb_false _ _)) by (rewrite Q; nra)]; three i; three j; plane; try reflexivity; field; intros ->; rewrite Rabs_R0 in E; lra.
Qed.
Lemma se2_jacobian_inverse_large x y w : small <= Rabs w -> sin (w / 2) <> 0 -> equal 3 3 (product 3 (mget (se2_left_jacobian (x, y, w))) (mget (se2_left_jacobian_inverse (x, y, w)))) unit_matrix.
Proof.
  intros L H. pose proof small_bound as S. assert (W : w <> 0) by (intros ->; rewrite Rabs_R0 in L; lra). eapply equal_trans; [apply equal_product; [apply se2_left_jacobian_R|apply se2_left_jacobian_inverse_R]|].
  rewrite alpha_beta_R, !(proj2 (Rltb_false _ _)) by exact L. cbv zeta. destruct (jacobian_inverse w H W) as [A B]. cbv zeta in A, B. set (al := w / 2 * (cos (w / 2) / sin (w / 2))) in *. set (a := sin w / w) in *. set (b := (1 - cos w) / w) in *. set (h := w / 2) in *.
  set (p := (1 - cos w) / (w * w)). set (r := (w - sin w) / (w * w)). intros i j Hi Hj. unfold swing. three i; three j; plane; cbn [Nat.eqb]; try lra.
  - transitivity ((1 - (a * al + b * h)) * (p * y + r * x) - (a * h - b * al) * (r * y - p * x)); [ring|]. rewrite A, B. ring.
  - transitivity ((1 - (a * al + b * h)) * (r * y - p * x) + (a * h - b * al) * (p * y + r * x)); [ring|]. rewrite A, B. ring.
Qed.
Lemma se2_jacobian_inverse_near x y w : Rabs w < small -> forall i j, (i < 3)%nat -> (j < 3)%nat ->
  Rabs (product 3 (mget (se2_left_jacobian (x, y, w))) (mget (se2_left_jacobian_inverse (x, y, w))) i j - unit_matrix i j) <= w ^ 4 * (1 + Rabs x + Rabs y).
Proof.
  intros L i j Hi Hj. pose proof eps_bound as (E & S & S'). pose proof (Rabs_pos x) as X. pose proof (Rabs_pos y) as Y. pose proof (Rabs_pos w) as PW.
  rewrite (equal_product 3 3 3 _ _ _ _ (se2_left_jacobian_R x y w) (se2_left_jacobian_inverse_R x y w) i j Hi Hj). rewrite alpha_beta_R, !(proj2 (Rltb_true _ _)) by exact L. cbv zeta.
  assert (W4 : 0 <= w ^ 4) by nra. pose proof (w5_le w ltac:(lra)) as F. assert (W5 : Rabs (w ^ 5) <= w ^ 4) by (rewrite <- RPow_abs; exact F). apply Rabs_le_between in W5.
  assert (N : w ^ 4 <= w ^ 4 * (1 + Rabs x + Rabs y)) by nra. assert (W1 : Rabs w <= / 1000) by lra. apply Rabs_le_between in W1. assert (WW : 0 <= w * w <= / 1000) by nra.
  set (p := / 2 - w * w / 24). set (r := w * (1 / 6 - w * w / 120)). assert (P : Rabs p <= 1) by (apply Rabs_le; unfold p; lra). assert (R : Rabs r <= 1) by (apply Rabs_le; unfold r; nra).
  set (u := p * y + r * x). set (v := r * y - p * x). assert (U : Rabs u <= Rabs x + Rabs y). { unfold u. eapply Rle_trans; [apply Rabs_triang|]. rewrite !Rabs_mult. nra. } assert (V : Rabs v <= Rabs x + Rabs y). { unfold v, Rminus. eapply Rle_trans; [apply Rabs_triang|]. rewrite Rabs_Ropp, !Rabs_mult. nra. }
  assert (K : forall s t, Rabs s <= w ^ 4 / 2 -> Rabs t <= w ^ 4 / 2 -> Rabs (s * u + t * v) <= w ^ 4 * (1 + Rabs x + Rabs y)).
  { intros s t HS HT. eapply Rle_trans; [apply Rabs_triang|]. rewrite !Rabs_mult. pose proof (Rabs_pos u). pose proof (Rabs_pos v). assert (Rabs s * Rabs u <= w ^ 4 / 2 * (Rabs x + Rabs y)) by (apply Rmult_le_compat; auto using Rabs_pos). assert (Rabs t * Rabs v <= w ^ 4 / 2 * (Rabs x + Rabs y)) by (apply Rmult_le_compat; auto using Rabs_pos). lra. }
  assert (N1 : forall e, Rabs e <= w ^ 4 -> Rabs e <= w ^ 4 * (1 + Rabs x + Rabs y)) by (intros e He; lra).
  unfold swing. fold p r u v. three i; three j; plane; cbn [Nat.eqb]; fold p r u v.
  - apply N1, Rabs_le. match goal with |- _ <= ?z <= _ => replace z with (- (w ^ 4 / 144)) by (unfold p; field) end. lra.
  - apply N1, Rabs_le. match goal with |- _ <= ?z <= _ => replace z with (- (w ^ 5 / 288)) by (unfold p; field) end. lra.
  - match goal with |- Rabs ?z <= _ => replace z with ((w ^ 4 / 144) * u + (w ^ 5 / 288) * v) by (unfold u, v, p, r; field) end. apply K; apply Rabs_le; lra.
  - apply N1, Rabs_le. match goal with |- _ <= ?z <= _ => replace z with (w ^ 5 / 288) by (unfold p; field) end. lra.
  - apply N1, Rabs_le. match goal with |- _ <= ?z <= _ => replace z with (- (w ^ 4 / 144)) by (unfold p; field) end. lra.
  - match goal with |- Rabs ?z <= _ => replace z with (- (w ^ 5 / 288) * u + (w ^ 4 / 144) * v) by (unfold u, v, p, r; field) end. apply K; apply Rabs_le; lra.
  - rewrite Rminus_diag_eq, Rabs_R0 by ring. lra.
  - rewrite Rminus_diag_eq, Rabs_R0 by ring. lra.
  - rewrite Rminus_diag_eq, Rabs_R0 by ring. lra.
Qed.
