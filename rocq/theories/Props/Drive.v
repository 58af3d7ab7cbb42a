(** C135: differential drives and odometry. *)
From Coq Require Import ZArith List Bool Arith Reals Lra Lia.
From Coquelicot Require Import Coquelicot.
From Verif Require Import Base.Scalar Base.RNum Base.XNum Base.Lists Base.Trig Model.Errors Model.Vector Model.Matrix Model.Quaternion Model.Lie Model.Drive Spec.Matrix Spec.MatrixExp Spec.Planar Spec.Drive
  Proofs.Angle Proofs.Rotation Proofs.Planar Proofs.Drive.
Import ListNotations.
Local Open Scope R_scope.
Local Notation cos := Rtrigo_def.cos.
Local Notation sin := Rtrigo_def.sin.

(** ** C135 *)
(** A drive is built exactly from finite, positive numbers; infinities and NaN are told apart from bad signs. *)
Theorem C135_new (radius base : XR) :
  (forall d, drive_new radius base = Ok d <-> exists r b, radius = Fin r /\ base = Fin b /\ 0 < r /\ 0 < b /\ d = Drive radius base) /\
  (drive_new radius base = Err KiNonFinite <-> ~ exists r b, radius = Fin r /\ base = Fin b) /\
  (drive_new radius base = Err KiNonPositiveParameter <-> exists r b, radius = Fin r /\ base = Fin b /\ (r <= 0 \/ b <= 0)).
Proof.
  unfold drive_new. destruct radius as [r| | |], base as [b| | |]; cbn;
  try (split; [intros d; split; [discriminate|intros (? & ? & ? & ? & _); congruence]|split; split; try discriminate; [intros _ (? & ? & ? & ?); congruence|reflexivity|intros (? & ? & ? & ? & _); congruence]]).
  destruct (Rleb r 0) eqn:A; [apply Rleb_true in A|apply Rleb_false in A]; cbn.
  - split; [intros d; split; [discriminate|]|split; split; try discriminate].
    + intros (? & ? & E & F & ? & _). injection E as <-. lra.
    + intros N. exfalso. apply N. eauto.
    + intros _. exists r, b. auto.
    + intros _. reflexivity.
  - destruct (Rleb b 0) eqn:B; [apply Rleb_true in B|apply Rleb_false in B]; cbn.
    + split; [intros d; split; [discriminate|]|split; split; try discriminate].
      * intros (? & ? & E & F & _ & ? & _). injection F as <-. lra.
      * intros N. exfalso. apply N. eauto.
      * intros _. exists r, b. auto.
      * intros _. reflexivity.
    + split; [intros d; split; [intros E; injection E as <-; exists r, b; auto|intros (? & ? & _ & _ & _ & _ & ->); reflexivity]|split; split; try discriminate].
      * intros N. exfalso. apply N. eauto.
      * intros (? & ? & E & F & G). injection E as <-. injection F as <-. lra.
Qed.
(** The body motion is the one motion under which each wheel's contact point, half the track to its side, moves ahead by its
    rolling and does not slide. *)
Theorem C135_wheels (d : drive R) (w : wheels R) (b : body R) : 0 < wheel_radius d -> 0 < wheelbase d ->
  drive_forward d w = b <->
  velocity_of_point (body_linear b) (body_angular b) 0 (wheelbase d / 2) = (wheel_radius d * wheel_left w, 0) /\
  velocity_of_point (body_linear b) (body_angular b) 0 (- (wheelbase d / 2)) = (wheel_radius d * wheel_right w, 0).
Proof.
  destruct d as [r l], w as [x y], b as [v o]. cbn. rnum. intros HR HL. unfold velocity_of_point. rewrite Rmult_0_r. split.
  - intros E. injection E as <- <-. split; f_equal; field; lra.
  - intros [E F]. injection E as E. injection F as F. f_equal.
    + lra.
    + apply (Rmult_eq_reg_r l); [|lra]. unfold Rdiv. rewrite Rmult_assoc, Rinv_l by lra. lra.
Qed.
(** The maps between wheels and body undo each other, and so do those between rotations and travelled distances. *)
Theorem C135_round_trip (d : drive R) (w : wheels R) (b : body R) l r : 0 < wheel_radius d -> 0 < wheelbase d ->
  drive_inverse d (drive_forward d w) = w /\ drive_forward d (drive_inverse d b) = b /\
  wheel_travel d (wheel_rotations_from_travel d l r) = (l, r) /\
  (let '(l, r) := wheel_travel d w in wheel_rotations_from_travel d l r = w).
Proof.
  destruct d as [rad len], w as [x y], b as [v o]. cbn. rnum. intros HR HL.
  split; [f_equal; field; lra|]. split; [f_equal; field; lra|]. split; [unfold wheel_travel, wheel_rotations_from_travel; cbn; rnum; f_equal; field; lra|].
  unfold wheel_rotations_from_travel. cbn. rnum. f_equal; field; lra.
Qed.
(** What a tangent loses by projection is its slip. *)
Theorem C135_slip (twist : R * R * R) (b : body R) : (to_tangent (project_tangent twist) = twist <-> tangent_slip twist = 0) /\
  project_tangent (to_tangent b) = b /\ tangent_slip (to_tangent b) = 0.
Proof. destruct twist as [[x y] w], b as [v o]. cbn. rnum. split; [|auto]. split; [intros E; injection E; auto|intros ->; reflexivity]. Qed.
(** The unicycle's derivative is that of rolling ahead along the heading. *)
Theorem C135_unicycle (b : body R) (x y heading : R -> R) h :
  rolls (body_linear b) (body_angular b) x y heading h <->
  forall t i, 0 <= t <= h -> (i < 3)%nat -> is_derive (fun s => vget [x s; y s; heading s] i) t (vget (unicycle_field b t [x t; y t; heading t]) i).
Proof.
  split.
  - intros H t i Ht Hi. destruct (H t Ht) as (A & B & C). destruct i as [|[|[|i]]]; [exact A|exact B|exact C|lia].
  - intros H t Ht. exact (conj (H t 0%nat Ht ltac:(lia)) (conj (H t 1%nat Ht ltac:(lia)) (H t 2%nat Ht ltac:(lia)))).
Qed.
(** One tick of odometry is the end of the drive: whatever path rolls ahead at the tick's speed and turn rate, whatever the
    length of the tick, the pose after it is the pose at the path's end.  Such a path exists. *)
Theorem C135_odometry (b : body R) x y heading h : 0 <= h -> clear_turn (body_angular b * h) ->
  rolls (body_linear b) (body_angular b) x y heading h ->
  integrate_arc (pose_at (x 0) (y 0) (heading 0)) (integrate_over b h) = pose_at (x h) (y h) (heading h).
Proof.
  intros Hh C P. destruct (rolled _ _ _ _ _ _ Hh P) as (G & X & Y). destruct b as [v w]. cbn [body_linear body_angular] in *. unfold integrate_arc, integrate_over. cbn [body_linear body_angular]. rnum.
  rewrite exp_clear by exact C. unfold pose_at. rewrite G, X, Y. motions; rewrite ?cos_plus, ?sin_plus; ring.
Qed.
Theorem C135_path v w x0 y0 g h : exists x y heading, rolls v w x y heading h /\ x 0 = x0 /\ y 0 = y0 /\ heading 0 = g.
Proof. apply roll. Qed.
(** A turn too small to be clear is off by no more than its fourth power of the way. *)
Theorem C135_odometry_near (b : body R) x y heading h : 0 <= h -> Rabs (body_angular b * h) < 30 / IZR (2^52) ->
  rolls (body_linear b) (body_angular b) x y heading h ->
  let pose := integrate_arc (pose_at (x 0) (y 0) (heading 0)) (integrate_over b h) in
  let bound := 2 * (body_angular b * h) ^ 4 * Rabs (body_linear b * h) in
  se2_rotation pose = se2_rotation (pose_at (x h) (y h) (heading h)) /\ Rabs (fst (se2_translation pose) - x h) <= bound /\ Rabs (snd (se2_translation pose) - y h) <= bound.
Proof.
  intros Hh C P. destruct (rolled _ _ _ _ _ _ Hh P) as (G & X & Y). destruct b as [v w]. cbn [body_linear body_angular] in *. fold small in C.
  cbv zeta. unfold integrate_arc, integrate_over. cbn [body_linear body_angular]. rnum. set (s := v * h) in *. set (u := w * h) in *. set (g := heading 0) in *.
  pose proof (se2_exp_near s 0 u C 0%nat 2%nat ltac:(lia) ltac:(lia)) as N0. pose proof (se2_exp_near s 0 u C 1%nat 2%nat ltac:(lia) ltac:(lia)) as N1.
  assert (GE : matrix_exp 3 (mget (se2_hat (s, 0, u))) 0%nat 2%nat = s * ahead u /\ matrix_exp 3 (mget (se2_hat (s, 0, u))) 1%nat 2%nat = s * aside u).
  { unfold ahead, aside. destruct (Req_EM_T u 0) as [->|U].
    - rewrite <- !se2_exp_zero by lia. rewrite se2_exp_R, (proj2 (Rltb_true _ _)) by (rewrite Rabs_R0; pose proof small_bound; lra). cbn. split; field.
    - rewrite <- !(glide_exp s 0 u U) by lia. unfold glide. cbn. split; field; auto. }
  destruct GE as [G0 G1]. rewrite G0 in N0. rewrite G1 in N1. rewrite Rabs_R0, Rplus_0_r in N0, N1. rewrite se2_exp_R in *. cbv zeta in *. cbn in N0, N1. rnum. cbn in N0, N1. cbn.
  match type of N0 with Rabs (?A - _) <= _ => set (p := A) in * end. match type of N1 with Rabs (?A - _) <= _ => set (q := A) in * end.
  fold p q. change (u * (u * (u * (u * 1)))) with (u ^ 4) in *. rewrite G, X, Y. rewrite cos_plus, sin_plus.
  pose proof (COS_bound g) as CB. pose proof (SIN_bound g) as SB.
  assert (MC : forall e, Rabs e <= u ^ 4 * Rabs s -> Rabs (cos g * e) <= u ^ 4 * Rabs s). { intros e He. rewrite Rabs_mult. assert (Rabs (cos g) <= 1) by (apply Rabs_le; lra). pose proof (Rabs_pos e). pose proof (Rabs_pos (cos g)). nra. }
  assert (MS : forall e, Rabs e <= u ^ 4 * Rabs s -> Rabs (sin g * e) <= u ^ 4 * Rabs s). { intros e He. rewrite Rabs_mult. assert (Rabs (sin g) <= 1) by (apply Rabs_le; lra). pose proof (Rabs_pos e). pose proof (Rabs_pos (sin g)). nra. }
  split; [apply so2_eq; cbn; ring|]. split.
  - replace (cos g * p - sin g * q + x 0 - _) with (cos g * (p - s * ahead u) + - (sin g * (q - s * aside u))) by ring.
    eapply Rle_trans; [apply Rabs_triang|]. rewrite Rabs_Ropp. specialize (MC _ N0). specialize (MS _ N1). lra.
  - replace (sin g * p + cos g * q + y 0 - _) with (sin g * (p - s * ahead u) + cos g * (q - s * aside u)) by ring.
    eapply Rle_trans; [apply Rabs_triang|]. specialize (MS _ N0). specialize (MC _ N1). lra.
Qed.
(** Ticks with the same wheel motion add up: many of them are one tick of their total, however finely it was cut. *)
Theorem C135_ticks (d : drive R) (w : wheels R) pose n : let arc := drive_forward d w in clear_turn (body_angular arc) ->
  Nat.iter n (fun p => odometry_step d p w) pose = integrate_arc pose (Body (INR n * body_linear arc) (INR n * body_angular arc)).
Proof.
  intros arc C. unfold odometry_step. fold arc. clearbody arc. destruct arc as [s u]. cbn [body_linear body_angular] in *.
  assert (CN : forall k, clear_turn (INR k * u)).
  { intros k. destruct C as [C| ->]; [|right; ring]. destruct k as [|k]; [right; cbn; ring|]. left. rewrite Rabs_mult, (Rabs_pos_eq (INR _)) by apply pos_INR. assert (1 <= INR (Datatypes.S k)) by (rewrite S_INR; pose proof (pos_INR k); lra). pose proof (Rabs_pos u). nra. }
  induction n as [|n IH].
  - cbn [Nat.iter nat_rect]. unfold integrate_arc. cbn [body_linear body_angular]. rewrite exp_clear by apply CN. cbn [INR]. rewrite !Rmult_0_l. destruct pose as [[c q] [x y]]. unfold so2_from_angle. rnum. rewrite cos_0, sin_0.
    motions; ring.
  - match goal with |- Nat.iter _ ?f ?p = _ => change (Nat.iter (Datatypes.S n) f p) with (f (Nat.iter n f p)) end. rewrite IH. unfold integrate_arc. cbn [body_linear body_angular]. rewrite se2_assoc. f_equal. rewrite !exp_clear by (auto; apply CN). rewrite !S_INR.
    assert (PN := pos_INR n). replace ((INR n + 1) * u) with (INR n * u + u) by ring. replace ((INR n + 1) * s) with (INR n * s + s) by ring.
    destruct (arc_add (INR n * s) s (INR n * u) u) as [EA ES].
    + ring.
    + destruct (Req_dec (INR n * u) 0); auto. left. intros Z. apply Rmult_integral in Z. destruct Z as [Z|Z]; [contradiction|]. assert (Z' : u * (INR n + 1) = 0) by lra. apply Rmult_integral in Z'. destruct Z' as [-> |Z']; [apply H; ring|lra].
    + destruct (Req_dec u 0); auto. left. intros Z. apply Rmult_integral in Z. destruct Z as [Z|Z]; [contradiction|]. assert (Z' : u * (INR n + 1) = 0) by lra. apply Rmult_integral in Z'. destruct Z' as [? |Z']; [contradiction|lra].
    + rewrite EA, ES. motions; rewrite ?cos_plus, ?sin_plus; ring.
Qed.
(** The process model for a filter is the same step, with the heading folded into (-pi, pi]. *)
Theorem C135_model x y g s u : let pose := integrate_arc (pose_at x y g) (Body s u) in
  exists heading, odometry_eval [x; y; g; s; u] = [fst (se2_translation pose); snd (se2_translation pose); heading] /\
    - PI < heading <= PI /\ cos heading = cos (g + u) /\ sin heading = sin (g + u) /\ se2_rotation pose = so2_from_angle heading /\ (- PI < g + u <= PI -> heading = g + u).
Proof.
  cbv zeta. eexists. split; [reflexivity|]. split; [apply log_range|]. unfold vget. cbn [nth]. set (next := se2_compose _ _).
  assert (E : se2_rotation next = so2_from_angle (g + u)). { unfold next. rewrite se2_exp_R. unfold se2_compose. cbn [se2_rotation]. apply angle_sum. }
  assert (P := unit_polar (se2_rotation next)). rewrite E in *. specialize (P (angle_unit _)).
  assert (Q : se2_rotation (integrate_arc (pose_at x y g) (Body s u)) = so2_from_angle (g + u)). { unfold integrate_arc, pose_at. rewrite se2_exp_R. unfold se2_compose. cbn [se2_rotation]. apply (angle_sum g u). }
  rewrite Q, P. unfold so2_from_angle in P. injection P as PC PS. rnum. cbn in PC, PS. repeat split; auto. intros H. apply log_angle, H.
Qed.
(** A turning arc gets less far than it is long. *)
Theorem C135_chord x y g s u : s <> 0 -> 30 / IZR (2^52) <= Rabs u -> let pose := integrate_arc (pose_at x y g) (Body s u) in
  (fst (se2_translation pose) - x) ^ 2 + (snd (se2_translation pose) - y) ^ 2 < s ^ 2.
Proof.
  intros HS HU. cbv zeta. unfold integrate_arc. cbn [body_linear body_angular]. rewrite exp_clear by (left; exact HU).
  assert (U : u <> 0). { intros ->. rewrite Rabs_R0 in HU. pose proof small_bound. unfold small in *. lra. }
  unfold pose_at, se2_compose. cbn. rnum. unfold ahead, aside. destruct (Req_EM_T u 0); [contradiction|]. pose proof (sin2_cos2 g) as G. pose proof (sin2_cos2 u) as Q. unfold Rsqr in *.
  match goal with |- ?A < ?B => replace A with (s * s * ((sin g * sin g + cos g * cos g) * (sin u * sin u + (1 - cos u) * (1 - cos u)) / (u * u))) by (field; auto) end. rewrite G, Rmult_1_l.
  replace (sin u * sin u + (1 - cos u) * (1 - cos u)) with (2 - 2 * cos u) by lra.
  assert (B : 2 - 2 * cos u < u * u).
  { replace u with (2 * (u / 2)) at 1 by field. rewrite cos_2a_sin. assert (L : Rabs (sin (u / 2)) < Rabs (u / 2)).
    - destruct (Rle_dec 0 (u / 2)) as [H|H].
      + rewrite (Rabs_pos_eq (u / 2)) by exact H. apply Rabs_def1.
        * apply sin_lt_x. destruct H; [assumption|exfalso; apply U; lra].
        * assert (H0 : 0 < u / 2) by (destruct H; [assumption|exfalso; apply U; lra]). destruct (Rlt_dec (u / 2) 2) as [L|L]; [|pose proof (SIN_bound (u / 2)); lra]. pose proof PI2_3_2. unfold PI2 in *. assert (0 < sin (u / 2)) by (apply sin_gt_0; lra). lra.
      + apply Rnot_le_lt in H. rewrite (Rabs_left (u / 2)) by exact H. rewrite <- (Rabs_Ropp (sin _)), <- sin_neg. assert (H0 : 0 < - (u / 2)) by lra. apply Rabs_def1.
        * apply sin_lt_x. exact H0.
        * destruct (Rlt_dec (- (u / 2)) 2) as [L|L]; [|pose proof (SIN_bound (- (u / 2))); lra]. pose proof PI2_3_2. unfold PI2 in *. assert (0 < sin (- (u / 2))) by (apply sin_gt_0; lra). lra.
    - assert (M : sin (u / 2) * sin (u / 2) < (u / 2) * (u / 2)).
      { rewrite <- (Rabs_pos_eq (sin (u / 2) * sin (u / 2))), <- (Rabs_pos_eq (u / 2 * (u / 2))), !Rabs_mult by nra. pose proof (Rabs_pos (sin (u / 2))). nra. }
      lra. }
  assert (UU : 0 < u * u) by nra. assert (SS : 0 < s * s) by nra. apply (Rmult_lt_reg_r (u * u)); [exact UU|]. unfold Rdiv. rewrite Rmult_assoc, (Rmult_assoc _ (/ (u * u))), Rinv_l, Rmult_1_r by lra. nra.
Qed.
Example C135_example : let d := Drive (/ 10) (/ 2) in let w := Wheels 10 20 in 0 < wheel_radius d /\ 0 < wheelbase d /\ body_linear (drive_forward d w) = 3 / 2 /\ body_angular (drive_forward d w) = 2 /\
  clear_turn (2 * 1) /\ rolls 1 0 (fun t => t) (fun _ => 0) (fun _ => 0) 1.
Proof.
  cbn. rnum. repeat (split; [lra|]). split.
  - left. rewrite Rabs_pos_eq by lra. pose proof small_bound as S. unfold small in S. assert (/ IZR (2^47) < 1). { rewrite <- Rinv_1. apply Rinv_lt_contravar; [rewrite Rmult_1_l; apply IZR_lt; reflexivity|apply IZR_lt; reflexivity]. } lra.
  - intros t _. rewrite cos_0, sin_0. split; [|split]; (auto_derive; [trivial|ring]).
Qed.

Print Assumptions C135_new.
Print Assumptions C135_wheels.
Print Assumptions C135_round_trip.
Print Assumptions C135_slip.
Print Assumptions C135_unicycle.
Print Assumptions C135_odometry.
Print Assumptions C135_path.
Print Assumptions C135_odometry_near.
Print Assumptions C135_ticks.
Print Assumptions C135_model.
Print Assumptions C135_chord.
