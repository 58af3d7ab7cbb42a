(** Moving frames: the angular velocity as the derivative of the quaternion, and how velocities compose. *)
From Coq Require Import ZArith List Bool Arith Reals Lra Lia.
From Coquelicot Require Import Coquelicot.
From Verif Require Import Base.Scalar Base.RNum Base.Lists Model.Errors Model.Vector Model.Matrix Model.Quaternion Model.Lie Model.Drive Model.KinematicTree
  Spec.Matrix Spec.Rotation Spec.Quaternion Spec.Space Spec.KinematicTree Proofs.Quaternion Proofs.Space.
Import ListNotations.
Local Open Scope R_scope.
Local Notation cos := Rtrigo_def.cos.
Local Notation sin := Rtrigo_def.sin.
Local Notation sqrt := R_sqrt.sqrt.
Local Notation length := Spec.Rotation.length.

Lemma dto (f : R -> R) (t d d' : R) : is_derive f t d -> @eq R d d' -> is_derive f t d'.
Proof. intros H <-. exact H. Qed.
Lemma dmul (f g : R -> R) t df dg : is_derive f t df -> is_derive g t dg -> is_derive (fun s => f s * g s) t (df * g t + f t * dg).
Proof. intros A B. apply (is_derive_mult f g); auto. intros; apply Rmult_comm. Qed.
Lemma dplus (f g : R -> R) t df dg : is_derive f t df -> is_derive g t dg -> is_derive (fun s => f s + g s) t (df + dg).
Proof. intros A B. exact (is_derive_plus f g t df dg A B). Qed.
Lemma dminus (f g : R -> R) t df dg : is_derive f t df -> is_derive g t dg -> is_derive (fun s => f s - g s) t (df - dg).
Proof. intros A B. exact (is_derive_minus f g t df dg A B). Qed.
Lemma dconst (c : R) t : is_derive (fun _ : R => c) t 0.
Proof. exact (is_derive_const c t). Qed.
Ltac derive := lazymatch goal with
  | |- is_derive (fun s => @?f s + @?g s) ?t _ => apply (dplus f g t); [derive|derive]
  | |- is_derive (fun s => @?f s - @?g s) ?t _ => apply (dminus f g t); [derive|derive]
  | |- is_derive (fun s => @?f s * @?g s) ?t _ => apply (dmul f g t); [derive|derive]
  | _ => first [eassumption | apply dconst] end.

(** The quaternion [q] changes by [d]. *)
Definition quat_changes (q : R -> quaternion R) (t : R) (d : quaternion R) : Prop :=
  is_derive (fun s => qw (q s)) t (qw d) /\ is_derive (fun s => qx (q s)) t (qx d) /\ is_derive (fun s => qy (q s)) t (qy d) /\ is_derive (fun s => qz (q s)) t (qz d).
Definition point_changes (p : R -> point) (t : R) (d : point) : Prop :=
  is_derive (fun s => fst (fst (p s))) t (fst (fst d)) /\ is_derive (fun s => snd (fst (p s))) t (snd (fst d)) /\ is_derive (fun s => snd (p s)) t (snd d).
Lemma point_changes_is p t d : point_changes p t d <-> velocity_at p t d.
Proof.
  assert (E : forall u : point, coordinate u 0%nat = fst (fst u) /\ coordinate u 1%nat = snd (fst u) /\ coordinate u 2%nat = snd u) by (intros [[x y] z]; auto).
  split.
  - intros (A & B & C) i Hi. destruct i as [|[|[|i]]]; [| | |lia].
    + rewrite (proj1 (E d)). apply (is_derive_ext (fun s => fst (fst (p s)))); [intros s; symmetry; apply (E (p s))|exact A].
    + rewrite (proj1 (proj2 (E d))). apply (is_derive_ext (fun s => snd (fst (p s)))); [intros s; symmetry; apply (E (p s))|exact B].
    + rewrite (proj2 (proj2 (E d))). apply (is_derive_ext (fun s => snd (p s))); [intros s; symmetry; apply (E (p s))|exact C].
  - intros H. split; [|split].
    + pose proof (H 0%nat ltac:(lia)) as K. rewrite (proj1 (E d)) in K. apply (is_derive_ext (fun s => coordinate (p s) 0%nat)); [intros s; apply (E (p s))|exact K].
    + pose proof (H 1%nat ltac:(lia)) as K. rewrite (proj1 (proj2 (E d))) in K. apply (is_derive_ext (fun s => coordinate (p s) 1%nat)); [intros s; apply (E (p s))|exact K].
    + pose proof (H 2%nat ltac:(lia)) as K. rewrite (proj2 (proj2 (E d))) in K. apply (is_derive_ext (fun s => coordinate (p s) 2%nat)); [intros s; apply (E (p s))|exact K].
Qed.
Lemma quat_changes_mul a b t da db : quat_changes a t da -> quat_changes b t db ->
  quat_changes (fun s => quat_mul (a s) (b s)) t (quat_add (quat_mul da (b t)) (quat_mul (a t) db)).
Proof.
  intros (A1 & A2 & A3 & A4) (B1 & B2 & B3 & B4). unfold quat_changes, quat_mul, quat_add. cbn [qw qx qy qz]. rnum. split; [|split; [|split]]; (eapply dto; [derive|ring]).
Qed.
Lemma quat_changes_conjugate a t da : quat_changes a t da -> quat_changes (fun s => conjugate (a s)) t (conjugate da).
Proof.
  intros (A1 & A2 & A3 & A4). unfold quat_changes, conjugate. cbn [qw qx qy qz]. rnum. split; [exact A1|]. split; [|split]; apply (is_derive_opp (V := R_NormedModule)); assumption.
Qed.
Lemma quat_changes_point p t d : point_changes p t d -> quat_changes (fun s => from_scalar_vector 0 (p s)) t (from_scalar_vector 0 d).
Proof.
  intros (A & B & C). unfold quat_changes. destruct d as [[x y] z]. cbn [from_scalar_vector qw qx qy qz fst snd] in *. split; [|split; [|split]].
  - apply (is_derive_ext (fun _ => 0)); [intros s; destruct (p s) as [[? ?] ?]; reflexivity|apply dconst].
  - apply (is_derive_ext (fun s => fst (fst (p s)))); [intros s; destruct (p s) as [[? ?] ?]; reflexivity|exact A].
  - apply (is_derive_ext (fun s => snd (fst (p s)))); [intros s; destruct (p s) as [[? ?] ?]; reflexivity|exact B].
  - apply (is_derive_ext (fun s => snd (p s))); [intros s; destruct (p s) as [[? ?] ?]; reflexivity|exact C].
Qed.
(** [q] turns with the angular velocity [w], in the axes it turns to. *)
Definition spins (q : R -> quaternion R) (t : R) (w : point) : Prop := quat_changes q t (quat_scale (quat_mul (from_scalar_vector 0 w) (q t)) (/ 2)).
Lemma spins_transform q p t w v : spins q t w -> point_changes p t v ->
  point_changes (fun s => transform_point (q s) (p s)) t (together (outer w (transform_point (q t) (p t))) (transform_point (q t) v)).
Proof.
  intros A B. pose proof (quat_changes_mul _ _ _ _ _ (quat_changes_mul _ _ _ _ _ A (quat_changes_point _ _ _ B)) (quat_changes_conjugate _ _ _ A)) as (_ & X & Y & Z).
  assert (E : forall s, from_scalar_vector 0 (transform_point (q s) (p s)) = quat_mul (quat_mul (q s) (from_scalar_vector 0 (p s))) (conjugate (q s))) by (intros s; symmetry; apply sandwich).
  assert (F : forall s, fst (fst (transform_point (q s) (p s))) = qx (quat_mul (quat_mul (q s) (from_scalar_vector 0 (p s))) (conjugate (q s))) /\ snd (fst (transform_point (q s) (p s))) = qy (quat_mul (quat_mul (q s) (from_scalar_vector 0 (p s))) (conjugate (q s))) /\
    snd (transform_point (q s) (p s)) = qz (quat_mul (quat_mul (q s) (from_scalar_vector 0 (p s))) (conjugate (q s)))) by (intros s; rewrite <- E; destruct (transform_point (q s) (p s)) as [[? ?] ?]; auto).
  match type of X with is_derive _ _ (qx ?d) => set (D := d) in * end.
  assert (G : D = from_scalar_vector 0 (together (outer w (transform_point (q t) (p t))) (transform_point (q t) v))).
  { unfold D. destruct (q t) as [a b c d], (p t) as [[x y] z], v as [[v1 v2] v3], w as [[w1 w2] w3]. rewrite !transform_explicit. unfold quat_mul, quat_scale, conjugate, quat_add, from_scalar_vector, outer, together. cbn [qw qx qy qz]. rnum. apply quat_eq; cbn [qw qx qy qz]; field. }
  rewrite G in X, Y, Z. destruct (together (outer w (transform_point (q t) (p t))) (transform_point (q t) v)) as [[d1 d2] d3] eqn:ED. cbn [from_scalar_vector qx qy qz] in X, Y, Z. unfold point_changes. cbn [fst snd]. split; [|split].
  - eapply is_derive_ext; [intros s; symmetry; apply (F s)|exact X].
  - eapply is_derive_ext; [intros s; symmetry; apply (F s)|exact Y].
  - eapply is_derive_ext; [intros s; symmetry; apply (F s)|exact Z].
Qed.
Lemma spins_mul a b t w1 w2 : unit_quaternion (a t) -> spins a t w1 -> spins b t w2 -> spins (fun s => quat_mul (a s) (b s)) t (together w1 (transform_point (a t) w2)).
Proof.
  intros U A B. unfold spins. assert (E : quat_scale (quat_mul (from_scalar_vector 0 (together w1 (transform_point (a t) w2))) (quat_mul (a t) (b t))) (/ 2) =
    quat_add (quat_mul (quat_scale (quat_mul (from_scalar_vector 0 w1) (a t)) (/ 2)) (b t)) (quat_mul (a t) (quat_scale (quat_mul (from_scalar_vector 0 w2) (b t)) (/ 2)))).
  2: { rewrite E. apply quat_changes_mul; assumption. }
  assert (K : quat_mul (from_scalar_vector 0 (transform_point (a t) w2)) (a t) = quat_mul (a t) (from_scalar_vector 0 w2)).
  { rewrite <- sandwich, mul_assoc, (proj2 (conjugate_inverse _ U)), mul_identity_r. reflexivity. }
  assert (S : from_scalar_vector 0 (together w1 (transform_point (a t) w2)) = quat_add (from_scalar_vector 0 w1) (from_scalar_vector 0 (transform_point (a t) w2))).
  { destruct w1 as [[? ?] ?], (transform_point (a t) w2) as [[? ?] ?]. unfold from_scalar_vector, together, quat_add. cbn [qw qx qy qz]. rnum. apply quat_eq; cbn [qw qx qy qz]; ring. }
  rewrite S. set (x := from_scalar_vector 0 w1) in *. set (y := from_scalar_vector 0 (transform_point (a t) w2)) in *. set (z := from_scalar_vector 0 w2) in *.
  transitivity (quat_scale (quat_mul (quat_add (quat_mul x (a t)) (quat_mul y (a t))) (b t)) (/ 2)).
  { clearbody x y. clear. generalize (a t) (b t). intros a0 b0. destruct a0 as [a1 a2 a3 a4], b0 as [b1 b2 b3 b4], x as [x1 x2 x3 x4], y as [y1 y2 y3 y4]. unfold quat_mul, quat_add, quat_scale. cbn [qw qx qy qz]. rnum. apply quat_eq; cbn [qw qx qy qz]; ring. }
  rewrite K. clearbody x y z. clear. generalize (a t) (b t). intros a0 b0. destruct a0 as [a1 a2 a3 a4], b0 as [b1 b2 b3 b4], x as [x1 x2 x3 x4], z as [y1 y2 y3 y4]. unfold quat_mul, quat_add, quat_scale. cbn [qw qx qy qz]. rnum. apply quat_eq; cbn [qw qx qy qz]; ring.
Qed.

(** ** Moving frames *)
Definition moving (f : R -> se3 R) (t : R) (v w : point) : Prop :=
  unit_se3 (f t) /\ spins (fun s => se3_rotation (f s)) t w /\ point_changes (fun s => se3_translation (f s)) t v.
Lemma moving_frame f t v w : moving f t v w -> frame_velocity f t v w.
Proof.
  intros (_ & S & P) p. apply point_changes_is.
  assert (C : point_changes (fun _ => p) t (0, 0, 0)) by (unfold point_changes; cbn [fst snd]; auto using dconst).
  pose proof (spins_transform _ (fun _ => p) t w (0, 0, 0) S C) as (X & Y & Z). destruct P as (X' & Y' & Z'). rewrite transform_zero, together_zero in X, Y, Z.
  set (o := outer w (transform_point (se3_rotation (f t)) p)) in *. clearbody o. destruct o as [[o1 o2] o3], v as [[v1 v2] v3]. cbn [fst snd together] in *. unfold point_changes, together. cbn [fst snd].
  assert (E : forall s, se3_act (f s) p = together (transform_point (se3_rotation (f s)) p) (se3_translation (f s))) by (intros s; unfold se3_act, so3_act; apply add3_R).
  assert (G : forall a b : point, fst (fst (together a b)) = fst (fst a) + fst (fst b) /\ snd (fst (together a b)) = snd (fst a) + snd (fst b) /\ snd (together a b) = snd a + snd b) by (intros [[? ?] ?] [[? ?] ?]; auto).
  split; [|split].
  - eapply is_derive_ext; [intros s; rewrite E; symmetry; apply (G _ _)|]. eapply dto; [apply dplus; [exact X|exact X']|ring].
  - eapply is_derive_ext; [intros s; rewrite E; symmetry; apply (G _ _)|]. eapply dto; [apply dplus; [exact Y|exact Y']|ring].
  - eapply is_derive_ext; [intros s; rewrite E; symmetry; apply (G _ _)|]. eapply dto; [apply dplus; [exact Z|exact Z']|ring].
Qed.
Lemma point_changes_add a b t da db : point_changes a t da -> point_changes b t db -> point_changes (fun s => together (a s) (b s)) t (together da db).
Proof.
  intros (A & B & C) (A' & B' & C'). assert (G : forall a b : point, fst (fst (together a b)) = fst (fst a) + fst (fst b) /\ snd (fst (together a b)) = snd (fst a) + snd (fst b) /\ snd (together a b) = snd a + snd b) by (intros [[? ?] ?] [[? ?] ?]; auto).
  destruct (G da db) as (E1 & E2 & E3). unfold point_changes. rewrite E1, E2, E3. split; [|split]; (eapply is_derive_ext; [intros s; symmetry; apply (G _ _)|]); apply dplus; assumption.
Qed.
Lemma point_changes_ext a b t d : (forall s, a s = b s) -> point_changes a t d -> point_changes b t d.
Proof. intros E (A & B & C). split; [|split]; (eapply is_derive_ext; [intros s; rewrite <- E; reflexivity|]); assumption. Qed.
Lemma moving_compose a b t v1 w1 v2 w2 : moving a t v1 w1 -> moving b t v2 w2 ->
  moving (fun s => se3_compose (a s) (b s)) t (together v1 (together (outer w1 (transform_point (se3_rotation (a t)) (se3_translation (b t)))) (transform_point (se3_rotation (a t)) v2)))
    (together w1 (transform_point (se3_rotation (a t)) w2)).
Proof.
  intros (U1 & S1 & P1) (U2 & S2 & P2). split; [apply se3_units; assumption|]. cbn [se3_compose se3_rotation se3_translation]. split.
  - apply (spins_mul (fun s => se3_rotation (a s)) (fun s => se3_rotation (b s))); assumption.
  - rewrite together_comm. eapply point_changes_ext; [intros s; symmetry; apply add3_R|]. apply (point_changes_add (fun s => so3_act (se3_rotation (a s)) (se3_translation (b s)))); [|exact P1].
    apply (spins_transform (fun s => se3_rotation (a s)) (fun s => se3_translation (b s))); assumption.
Qed.
Lemma moving_const a t : unit_se3 a -> moving (fun _ => a) t (0, 0, 0) (0, 0, 0).
Proof.
  intros U. split; [exact U|split].
  - unfold spins, quat_changes. destruct (se3_rotation a) as [w x y z]. unfold quat_scale, quat_mul, from_scalar_vector. cbn [qw qx qy qz]. rnum. split; [|split; [|split]]; (eapply dto; [apply dconst|ring]).
  - unfold point_changes. cbn [fst snd]. auto using dconst.
Qed.
Lemma loc_ext {A} (p : A -> R) a b t d : locally t (fun s : R => a s = b s) -> is_derive (fun s => p (a s)) t d -> is_derive (fun s => p (b s)) t d.
Proof. intros L D. apply (is_derive_ext_loc (fun s => p (a s))); [|exact D]. eapply filter_imp; [|exact L]. intros s H. cbv beta in H. rewrite H. reflexivity. Qed.
Lemma moving_ext_loc a b t v w : locally t (fun s => a s = b s) -> moving a t v w -> moving b t v w.
Proof.
  intros L (U & S & P). assert (E : a t = b t) by (apply (locally_singleton _ _ L)). unfold moving, spins, quat_changes, point_changes in *. rewrite <- E. split; [exact U|split].
  - destruct S as (A & B & C & D). split; [|split; [|split]].
    + exact (loc_ext (fun f => qw (se3_rotation f)) a b t _ L A).
    + exact (loc_ext (fun f => qx (se3_rotation f)) a b t _ L B).
    + exact (loc_ext (fun f => qy (se3_rotation f)) a b t _ L C).
    + exact (loc_ext (fun f => qz (se3_rotation f)) a b t _ L D).
  - destruct P as (A & B & C). split; [|split].
    + exact (loc_ext (fun f => fst (fst (se3_translation f))) a b t _ L A).
    + exact (loc_ext (fun f => snd (fst (se3_translation f))) a b t _ L B).
    + exact (loc_ext (fun f => snd (se3_translation f)) a b t _ L C).
Qed.
