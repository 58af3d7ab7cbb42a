(** C152: the minimum snap planner. *)
From Coq Require Import ZArith List Bool Arith Reals Lra Lia.
From Coquelicot Require Import Coquelicot.
From Verif Require Import Base.Scalar Base.RNum Base.Lists Base.Series Model.Errors Model.Vector Model.Matrix Model.Lu Model.Polynomial Model.Piecewise Model.MinimumSnap
  Spec.Matrix Spec.Polynomial Spec.Piecewise Spec.MinimumSnap Proofs.Matrix Proofs.SnapPiece Proofs.SnapSystem Proofs.MinimumSnap Proofs.SnapAccept Proofs.SnapAnswer Props.Lu Props.LuAccept Props.Piecewise.
Import ListNotations.
Local Open Scope R_scope.

(** ** What is refused, in this order, over any scalar *)
Theorem C152_refuses : forall (T : Type) (NT : Num T) (max_segments max_free dimension : nat) (start end_ : @boundary T) (waypoints : list (list T)) (durations : list T),
  let answer := plan max_segments max_free dimension start end_ waypoints durations in
  let segments := (length waypoints - 1)%nat in
  let readable_span := fun h => is_finite h = true /\ leb h zero = false in
  let readable := fun v => forall x, In x v -> is_finite x = true in
  let readable_boundary := fun b => readable (bd_velocity b) /\ readable (bd_acceleration b) /\ readable (bd_jerk b) in
  ((length waypoints < 2)%nat -> answer = Err SnapPathTooShort) /\
  ((2 <= length waypoints)%nat -> (max_segments < segments)%nat -> answer = Err SnapCapacityExceeded) /\
  ((2 <= length waypoints)%nat -> (segments <= max_segments)%nat -> length durations <> segments -> answer = Err SnapSegmentCountMismatch) /\
  ((2 <= length waypoints)%nat -> (segments <= max_segments)%nat -> length durations = segments -> (exists h, In h durations /\ ~ readable_span h) -> answer = Err SnapDurationNotPositive) /\
  ((2 <= length waypoints)%nat -> (segments <= max_segments)%nat -> length durations = segments -> (forall h, In h durations -> readable_span h) ->
     (exists w, In w waypoints /\ ~ readable w) \/ ~ readable_boundary start \/ ~ readable_boundary end_ -> answer = Err SnapNonFinite) /\
  ((2 <= length waypoints)%nat -> (segments <= max_segments)%nat -> length durations = segments -> (forall h, In h durations -> readable_span h) ->
     (forall w, In w waypoints -> readable w) -> readable_boundary start -> readable_boundary end_ -> (max_free < 3 * (segments - 1))%nat -> answer = Err SnapWorkspaceTooSmall) /\
  (forall path, answer = Ok path -> (2 <= length waypoints)%nat /\ (segments <= max_segments)%nat /\ length durations = segments /\ (forall h, In h durations -> readable_span h) /\
     (forall w, In w waypoints -> readable w) /\ readable_boundary start /\ readable_boundary end_ /\ (3 * (segments - 1) <= max_free)%nat).
Proof.
  intros T NT ms mf d st en ws ds answer segments rs rd rb.
  assert (Hs : forall h, (negb (is_finite h) || leb h zero)%bool = false <-> rs h).
  { intros h. unfold rs. destruct (is_finite h), (leb h zero); cbn; split; try discriminate; auto; intros [? ?]; discriminate. }
  assert (Hv : forall v, vec_is_finite v = true <-> rd v). { intros v. unfold vec_is_finite, rd. apply forallb_forall. }
  assert (Hb : forall b, boundary_finite b = true <-> rb b). { intros b. unfold boundary_finite, rb. rewrite !andb_true_iff, !Hv. tauto. }
  assert (Hd : existsb (fun h => negb (is_finite h) || leb h zero)%bool ds = true <-> exists h, In h ds /\ ~ rs h).
  { rewrite existsb_exists. split; intros (h & I & Q); exists h; split; auto; [intros C; apply Hs in C; congruence|]. destruct (negb (is_finite h) || leb h zero)%bool eqn:E; [reflexivity|]. apply Hs in E. tauto. }
  assert (Hw : existsb (fun w => negb (vec_is_finite w)) ws = true <-> exists w, In w ws /\ ~ rd w).
  { rewrite existsb_exists. split; intros (w & I & Q); exists w; split; auto; [intros C; apply Hv in C; rewrite C in Q; discriminate|]. destruct (vec_is_finite w) eqn:E; [apply Hv in E; tauto|reflexivity]. }
  assert (Hd' : existsb (fun h => negb (is_finite h) || leb h zero)%bool ds = false <-> forall h, In h ds -> rs h).
  { split; intros Q; [intros h I; apply Hs; destruct (negb (is_finite h) || leb h zero)%bool eqn:E; [|reflexivity]; rewrite <- Q; symmetry; apply existsb_exists; exists h; auto|].
    apply not_true_iff_false. intros E. apply Hd in E. destruct E as (h & I & N). destruct (N (Q h I)). }
  assert (Hw' : existsb (fun w => negb (vec_is_finite w)) ws = false <-> forall w, In w ws -> rd w).
  { split; intros Q; [intros w I; apply Hv; destruct (vec_is_finite w) eqn:E; [reflexivity|]; rewrite <- Q; apply existsb_exists; exists w; rewrite E; auto|].
    apply not_true_iff_false. intros E. apply Hw in E. destruct E as (w & I & N). destruct (N (Q w I)). }
  unfold answer, plan. cbv zeta. fold segments. repeat match goal with |- _ /\ _ => split end.
  - intros L. destruct (Nat.ltb_spec (length ws) 2); [reflexivity|lia].
  - intros L1 L2. destruct (Nat.ltb_spec (length ws) 2); [lia|]. destruct (Nat.ltb_spec ms segments); [reflexivity|lia].
  - intros L1 L2 L3. destruct (Nat.ltb_spec (length ws) 2); [lia|]. destruct (Nat.ltb_spec ms segments); [lia|]. destruct (Nat.eqb_spec (length ds) segments); [lia|reflexivity].
  - intros L1 L2 L3 L4. destruct (Nat.ltb_spec (length ws) 2); [lia|]. destruct (Nat.ltb_spec ms segments); [lia|]. destruct (Nat.eqb_spec (length ds) segments); [|lia]. cbn [negb]. apply Hd in L4. rewrite L4. reflexivity.
  - intros L1 L2 L3 L4 L5. destruct (Nat.ltb_spec (length ws) 2); [lia|]. destruct (Nat.ltb_spec ms segments); [lia|]. destruct (Nat.eqb_spec (length ds) segments); [|lia]. cbn [negb]. apply Hd' in L4. rewrite L4.
    replace (_ || _ || _)%bool with true; [reflexivity|]. symmetry. rewrite !orb_true_iff, Hw, !negb_true_iff, <- !not_true_iff_false, !Hb. tauto.
  - intros L1 L2 L3 L4 L5 L6 L7 L8. destruct (Nat.ltb_spec (length ws) 2); [lia|]. destruct (Nat.ltb_spec ms segments); [lia|]. destruct (Nat.eqb_spec (length ds) segments); [|lia]. cbn [negb]. apply Hd' in L4. rewrite L4.
    apply Hw' in L5. apply Hb in L6. apply Hb in L7. rewrite L5, L6, L7. cbn [negb orb]. destruct (Nat.ltb_spec mf (3 * (segments - 1))); [reflexivity|lia].
  - intros path E. destruct (Nat.ltb_spec (length ws) 2); [discriminate|]. destruct (Nat.ltb_spec ms segments); [discriminate|]. destruct (Nat.eqb_spec (length ds) segments); [|discriminate]. cbn [negb] in E.
    revert E. case_eq (existsb (fun h => negb (is_finite h) || leb h zero)%bool ds); [discriminate|]. intros Ed.
    case_eq (existsb (fun waypoint => negb (vec_is_finite waypoint)) ws || negb (boundary_finite st) || negb (boundary_finite en))%bool; [discriminate|]. intros Ew E. destruct (Nat.ltb_spec mf (3 * (segments - 1))); [discriminate|].
    rewrite !orb_false_iff, !negb_false_iff, Hw', !Hb in Ew. pose proof (proj1 Hd' Ed). tauto.
Qed.

(** ** Over the reals *)
(** The values that are asked for along one axis *)
Definition position (waypoints : list (list R)) (axis w : nat) : R := nth axis (nth w waypoints []) 0.
Definition boundary_value (b : @boundary R) (axis r : nat) : R := nth axis (match r with 1%nat => bd_velocity b | 2%nat => bd_acceleration b | _ => bd_jerk b end) 0.

Lemma position_value X dimension start end_ waypoints n w axis : (w < length waypoints)%nat -> chosen X (classify dimension start end_ waypoints n w 0) axis = position waypoints axis w.
Proof. intros H. unfold classify, position. cbn [Nat.eqb chosen]. rewrite (nth_indep _ _ [] H). reflexivity. Qed.

Lemma plan_axis max_segments max_free dimension start end_ waypoints durations path axis :
  plan max_segments max_free dimension start end_ waypoints durations = Ok path -> (axis < dimension)%nat ->
  let n := length durations in
  exists c V, (1 <= n)%nat /\ (forall k, (k < n)%nat -> 0 < nth k durations 0) /\ (forall k, (k < n)%nat -> short (c k)) /\
  (forall k r, (k < n)%nat -> (r < 4)%nat -> piece_slope (c k) 0 (nth k durations 0) r 0 = V k r /\ piece_slope (c k) 0 (nth k durations 0) r (nth k durations 0) = V (S k) r) /\
  (forall w r, (1 <= w < n)%nat -> (1 <= r <= 3)%nat -> pull (c (w - 1)%nat) (nth (w - 1) durations 0) (4 + r) + pull (c w) (nth w durations 0) r = 0) /\
  (forall k r t, (k < n)%nat -> planned (pw_pieces path) durations axis k r t = P durations c k r t) /\
  (forall F, passes durations (position waypoints axis) (boundary_value start axis) (boundary_value end_ axis) F <-> passes durations (fun w => V w 0%nat) (V 0%nat) (V n) F).
Proof.
  intros H Ha n. destruct (plan_spec _ _ _ _ _ _ _ _ H) as (L1 & N1 & N2 & N3 & Pos & Sp & Lp & Q & X & Pieces & Pull).
  set (c := fun k => vget (nth axis (nth k (pw_pieces path) []) [])). set (V := fun w r => chosen X (classify dimension start end_ waypoints n w r) axis).
  assert (L8 : forall k, (k < n)%nat -> length (nth axis (nth k (pw_pieces path) []) []) = 8%nat) by (intros k Hk; apply (Pieces k Hk), Ha).
  exists c, V. split; [exact N1|]. split; [exact Pos|]. split; [intros k Hk; apply vget_short, L8, Hk|]. split; [intros k r Hk Hr; apply (Pieces k Hk); auto|].
  split; [intros w r Hw Hr; apply Pull; auto|]. split; [intros k r t Hk; apply planned_slope; [apply L8, Hk|apply Rgt_not_eq, Pos, Hk]|].
  assert (V0 : forall w, (w <= n)%nat -> V w 0%nat = position waypoints axis w) by (intros w Hw; apply position_value; unfold n in *; lia).
  assert (Vs : forall r, (1 <= r <= 3)%nat -> V 0%nat r = boundary_value start axis r).
  { intros r Hr. unfold V, classify. destruct (Nat.eqb_spec r 0); [lia|]. cbn [Nat.eqb chosen]. destruct r as [|[|[|[|r]]]]; try lia; reflexivity. }
  assert (Ve : forall r, (1 <= r <= 3)%nat -> V n r = boundary_value end_ axis r).
  { intros r Hr. unfold V, classify. destruct (Nat.eqb_spec r 0); [lia|]. destruct (Nat.eqb_spec n 0); [unfold n in *; lia|]. rewrite Nat.eqb_refl. destruct r as [|[|[|[|r]]]]; try lia; reflexivity. }
  intros F. unfold passes. fold n. split; intros (A & B & C); (split; [|split; [exact B|]]).
  - intros k Hk. rewrite !V0 by lia. apply A, Hk.
  - intros r Hr. rewrite Vs, Ve by exact Hr. apply C, Hr.
  - intros k Hk. rewrite <- !V0 by lia. apply A, Hk.
  - intros r Hr. rewrite <- Vs, <- Ve by exact Hr. apply C, Hr.
Qed.
Lemma passes_ext spans w l a F G : (1 <= length spans)%nat -> (forall k r t, (k < length spans)%nat -> F k r t = G k r t) -> passes spans w l a F -> passes spans w l a G.
Proof.
  intros N E (A & B & C). split; [|split].
  - intros k Hk. rewrite <- !E by exact Hk. apply A, Hk.
  - intros k r Hk Hr. rewrite <- !E by lia. apply B; auto.
  - intros r Hr. rewrite <- !E by lia. apply C, Hr.
Qed.
Lemma snap_ext spans F G : (forall k r t, (k < length spans)%nat -> F k r t = G k r t) -> snap spans F = snap spans G.
Proof. intros E. unfold snap. apply bsum_ext. intros k Hk. apply RInt_ext. intros t _. rewrite E by exact Hk. reflexivity. Qed.

(** The plan keeps the durations it was given, passes through every waypoint on time and starts and ends with the velocity, acceleration and jerk asked for. *)
Theorem C152_waypoints max_segments max_free dimension start end_ waypoints durations path :
  plan max_segments max_free dimension start end_ waypoints durations = Ok path ->
  pw_spans path = durations /\ length waypoints = S (length durations) /\ length (pw_pieces path) = length durations /\
  piecewise_try_from_pieces max_segments (pw_pieces path) durations = Ok path /\
  (forall k, (k < length durations)%nat -> length (nth k (pw_pieces path) []) = dimension) /\
  forall axis, (axis < dimension)%nat ->
    (forall k, (k < length durations)%nat -> length (nth axis (nth k (pw_pieces path) []) []) = 8%nat) /\
    piece_path durations (planned (pw_pieces path) durations axis) /\
    passes durations (position waypoints axis) (boundary_value start axis) (boundary_value end_ axis) (planned (pw_pieces path) durations axis).
Proof.
  intros H. destruct (plan_spec _ _ _ _ _ _ _ _ H) as (L1 & N1 & N2 & N3 & Pos & Sp & Lp & Q & X & Pieces & _).
  split; [exact Sp|]. split; [exact L1|]. split; [exact Lp|]. split; [exact Q|]. split; [intros k Hk; apply (Pieces k Hk)|]. intros a Ha.
  split; [intros k Hk; apply (Pieces k Hk), Ha|].
  destruct (plan_axis _ _ _ _ _ _ _ _ a H Ha) as (c & V & _ & _ & Sh & Ends & Pull & Pl & Pass). split.
  - intros k Hk t Ht. destruct (P_path durations c Pos Sh k Hk t Ht) as [D C]. split.
    + intros r Hr. rewrite Pl by exact Hk. apply (is_derive_ext (P durations c k r)); [intros u; symmetry; apply Pl, Hk|apply D, Hr].
    + apply (continuous_ext (P durations c k 4)); [intros u; symmetry; apply Pl, Hk|exact C].
  - apply Pass. apply (passes_ext durations _ _ _ (P durations c)); [exact N1|intros k r t Hk; symmetry; apply Pl, Hk|]. apply P_passes; auto.
Qed.

(** Where two pieces meet, the position and its first six derivatives run on, not only the three that were asked for. *)
Theorem C152_smooth max_segments max_free dimension start end_ waypoints durations path axis k r :
  plan max_segments max_free dimension start end_ waypoints durations = Ok path -> (axis < dimension)%nat -> (S k < length durations)%nat -> (r <= 6)%nat ->
  planned (pw_pieces path) durations axis k r (piece_start durations (S k)) = planned (pw_pieces path) durations axis (S k) r (piece_start durations (S k)).
Proof.
  intros H Ha Hk Hr. destruct (plan_axis _ _ _ _ _ _ _ _ axis H Ha) as (c & V & N1 & Pos & Sh & Ends & Pull & Pl & Pass). rewrite !Pl by lia.
  apply (P_joint durations c V N1 Ends Pull); auto.
Qed.

(** No path through the same waypoints at the same times with the same start and end, four times differentiable on each span, has a smaller integral of squared snap. *)
Theorem C152_least max_segments max_free dimension start end_ waypoints durations path axis F :
  plan max_segments max_free dimension start end_ waypoints durations = Ok path -> (axis < dimension)%nat ->
  piece_path durations F -> passes durations (position waypoints axis) (boundary_value start axis) (boundary_value end_ axis) F ->
  snap durations (planned (pw_pieces path) durations axis) <= snap durations F.
Proof.
  intros H Ha HF HP. destruct (plan_axis _ _ _ _ _ _ _ _ axis H Ha) as (c & V & N1 & Pos & Sh & Ends & Pull & Pl & Pass).
  rewrite (snap_ext durations _ (P durations c) Pl). apply (snap_least durations c V N1 Pos Sh Ends Pull F HF). apply Pass, HP.
Qed.

(** And a path that costs no more is the planned one. *)
Theorem C152_only max_segments max_free dimension start end_ waypoints durations path axis F :
  plan max_segments max_free dimension start end_ waypoints durations = Ok path -> (axis < dimension)%nat ->
  piece_path durations F -> passes durations (position waypoints axis) (boundary_value start axis) (boundary_value end_ axis) F ->
  snap durations F <= snap durations (planned (pw_pieces path) durations axis) ->
  forall k r t, (k < length durations)%nat -> (r <= 3)%nat -> piece_start durations k <= t <= piece_start durations (S k) ->
    F k r t = planned (pw_pieces path) durations axis k r t.
Proof.
  intros H Ha HF HP. destruct (plan_axis _ _ _ _ _ _ _ _ axis H Ha) as (c & V & N1 & Pos & Sh & Ends & Pull & Pl & Pass).
  rewrite (snap_ext durations _ (P durations c) Pl). intros Le k r t Hk Hr Ht. rewrite Pl by exact Hk.
  apply (snap_only durations c V N1 Pos Sh Ends Pull F HF (proj1 (Pass F) HP) Le); auto.
Qed.

(** ** The polynomial of one segment *)
Theorem C152_septic start end_ span p : length start = 4%nat -> length end_ = 4%nat -> septic_from_endpoint_derivatives start end_ span = Ok p ->
  0 < span /\ length p = 8%nat /\
  forall r, (r < 4)%nat -> Derive_n (fun t => value_at p (t / span)) r 0 = nth r start 0 /\ Derive_n (fun t => value_at p (t / span)) r span = nth r end_ 0.
Proof.
  intros L1 L2 E. destruct (septic_spec _ _ _ _ L1 L2 E) as (Hs & L & _ & G). split; [exact Hs|]. split; [exact L|].
  assert (D : forall r t, Derive_n (fun t => value_at p (t / span)) r t = piece_slope (vget p) 0 span r t).
  { induction r as [|r IH]; intros t; cbn [Derive_n].
    - rewrite slope_value by exact L. rewrite Rminus_0_r. reflexivity.
    - rewrite (Derive_ext _ _ t IH). apply is_derive_unique, slope_derive; [apply vget_short, L|lra]. }
  intros r Hr. rewrite !D. apply G, Hr.
Qed.
(** Any seventh degree polynomial with these end values is that one. *)
Theorem C152_septic_only start end_ span p q : length start = 4%nat -> length end_ = 4%nat -> septic_from_endpoint_derivatives start end_ span = Ok p -> length q = 8%nat ->
  (forall r, (r < 4)%nat -> Derive_n (fun t => value_at q (t / span)) r 0 = nth r start 0 /\ Derive_n (fun t => value_at q (t / span)) r span = nth r end_ 0) -> q = p.
Proof.
  intros L1 L2 E Lq G. destruct (septic_spec _ _ _ _ L1 L2 E) as (Hs & L & (inv & I) & G'). 
  assert (D : forall r t, Derive_n (fun t => value_at q (t / span)) r t = piece_slope (vget q) 0 span r t).
  { induction r as [|r IH]; intros t; cbn [Derive_n].
    - rewrite slope_value by exact Lq. rewrite Rminus_0_r. reflexivity.
    - rewrite (Derive_ext _ _ t IH). apply is_derive_unique, slope_derive; [apply vget_short, Lq|lra]. }
  apply (vec_ext 8); auto. intros i Hi. rewrite <- (inverse_left inv span I (vget q) i Hi), <- (inverse_left inv span I (vget p) i Hi).
  apply times_ext; [reflexivity|]. intros k Hk. rewrite !mapping_rows by (auto; try (apply vget_short; auto); lra). unfold edge.
  assert (M : (k mod 4 < 4)%nat) by (apply Nat.mod_upper_bound; lia). destruct (G _ M) as [A B], (G' _ M) as [A' B']. rewrite D in A, B.
  destruct (Nat.ltb k 4); [rewrite A, A'|rewrite B, B']; reflexivity.
Qed.

(** ** Durations from an average speed *)
Definition apart (waypoints : list (list R)) (k : nat) : R := norm (vec_sub (nth (S k) waypoints []) (nth k waypoints [])).
Lemma fill_spec speed : forall waypoints durations, 0 < speed -> length waypoints = S (length durations) ->
  let '(slots, answer) := fill_durations speed waypoints durations in
  length slots = length durations /\
  (answer = Ok tt <-> forall k, (k < length durations)%nat -> 0 < apart waypoints k) /\ (answer = Ok tt \/ answer = Err SnapDurationNotPositive) /\
  forall k, (k < length durations)%nat -> nth k slots 0 = if existsb (fun j => Rleb (apart waypoints j) 0) (seq 0 (S k)) then nth k durations 0 else apart waypoints k / speed.
Proof.
  intros waypoints durations Hs. revert waypoints. induction durations as [|slot slots IH]; intros [|a [|b rest]] L; try (cbn in L; lia).
  - cbn. split; [reflexivity|]. split; [split; [intros _ k Hk; lia|reflexivity]|]. split; [auto|]. intros k Hk; lia.
  - change (fill_durations speed (a :: b :: rest) (slot :: slots)) with (if leb (norm (vec_sub b a)) zero then (slot :: slots, Err SnapDurationNotPositive) else let '(slots, answer) := fill_durations speed (b :: rest) slots in (div (norm (vec_sub b a)) speed :: slots, answer)).
    specialize (IH (b :: rest) ltac:(cbn in *; lia)). destruct (fill_durations speed (b :: rest) slots) as [out ans].
    assert (A0 : norm (vec_sub b a) = apart (a :: b :: rest) 0) by reflexivity. rewrite A0. change (leb (apart (a :: b :: rest) 0) zero) with (Rleb (apart (a :: b :: rest) 0) 0).
    assert (Sh : forall j, apart (a :: b :: rest) (S j) = apart (b :: rest) j) by reflexivity.
    destruct (Rleb (apart (a :: b :: rest) 0) 0) eqn:Z.
    + split; [reflexivity|]. apply Rleb_true in Z. split; [split; [discriminate|intros Q; specialize (Q 0%nat ltac:(cbn; lia)); lra]|]. split; [auto|].
      intros k Hk. cbn [seq existsb]. apply Rleb_true in Z. rewrite Z. reflexivity.
    + destruct IH as (I1 & I2 & I3 & I4). cbv beta iota. split; [cbn; lia|]. split; [|split; [exact I3|]].
      * rewrite I2. apply Rleb_false in Z. split; intros Q; [intros [|k] Hk; [exact Z|rewrite Sh; apply Q; cbn in Hk; lia]|]. intros k Hk. rewrite <- Sh. apply Q. cbn. lia.
      * intros [|k] Hk; cbn [seq existsb nth]; rewrite Z; cbn [orb existsb]; [reflexivity|]. rewrite (I4 k) by (cbn in Hk; lia).
        assert (Ex : existsb (fun j => Rleb (apart (a :: b :: rest) j) 0) (seq 1 (S k)) = existsb (fun j => Rleb (apart (b :: rest) j) 0) (seq 0 (S k))).
        { rewrite <- seq_shift. generalize (seq 0 (S k)). induction l as [|x l IHl]; cbn [map existsb]; [reflexivity|]. rewrite IHl. reflexivity. }
        change (Rleb (apart (a :: b :: rest) 1) 0 || existsb (fun j => Rleb (apart (a :: b :: rest) j) 0) (seq 2 k))%bool with (existsb (fun j => Rleb (apart (a :: b :: rest) j) 0) (seq 1 (S k))). rewrite Ex. reflexivity.
Qed.
(** Each duration is the distance to the next waypoint divided by the speed.  Waypoints that coincide are refused, the durations before them already
    written and those from there on left alone; every other refusal leaves them all alone. *)
Theorem C152_durations waypoints speed durations slots answer : durations_from_average_speed waypoints speed durations = (slots, answer) ->
  (answer = Ok tt <-> (2 <= length waypoints)%nat /\ length durations = (length waypoints - 1)%nat /\ 0 < speed /\ forall k, (k < length durations)%nat -> 0 < apart waypoints k) /\
  (answer = Ok tt -> length slots = length durations /\ forall k, (k < length durations)%nat -> nth k slots 0 = apart waypoints k / speed /\ 0 < nth k slots 0) /\
  ((length waypoints < 2)%nat -> answer = Err SnapPathTooShort) /\
  ((2 <= length waypoints)%nat -> length durations <> (length waypoints - 1)%nat -> answer = Err SnapSegmentCountMismatch) /\
  ((2 <= length waypoints)%nat -> length durations = (length waypoints - 1)%nat -> answer <> Ok tt -> answer = Err SnapDurationNotPositive) /\
  (forall k, (exists j, (j <= k)%nat /\ apart waypoints j <= 0) -> nth k slots 0 = nth k durations 0) /\
  (length durations <> (length waypoints - 1)%nat \/ speed <= 0 -> slots = durations).
Proof.
  unfold durations_from_average_speed. destruct (Nat.ltb_spec (length waypoints) 2) as [L|L].
  { intros E. injection E as <- <-. repeat match goal with |- _ /\ _ => split end; auto; try discriminate; try lia. split; [discriminate|lia]. }
  destruct (Nat.eqb_spec (length durations) (length waypoints - 1)) as [Ld|Nd]; cbn [negb].
  2: { intros E. injection E as <- <-. repeat match goal with |- _ /\ _ => split end; auto; try discriminate; try lia. split; [discriminate|lia]. }
  rnum. change (negb true) with false. cbn [orb]. destruct (Rleb speed 0) eqn:Z.
  { intros E. injection E as <- <-. apply Rleb_true in Z. repeat match goal with |- _ /\ _ => split end; auto; try discriminate; try lia. split; [discriminate|intros (_ & _ & ? & _); lra]. }
  apply Rleb_false in Z. assert (F : existsb (fun w => negb (vec_is_finite w)) waypoints = false).
  { apply not_true_iff_false. intros C. apply existsb_exists in C. destruct C as (w & _ & C). unfold vec_is_finite in C. replace (forallb is_finite w) with true in C; [discriminate|]. symmetry. apply forallb_forall. reflexivity. }
  rewrite F. intros E. pose proof (fill_spec speed waypoints durations Z ltac:(lia)) as Sp. rewrite E in Sp. destruct Sp as (S1 & S2 & S3 & S4).
  assert (Beyond : forall k, (length durations <= k)%nat -> nth k slots 0 = nth k durations 0) by (intros k Hk; rewrite !nth_overflow by lia; reflexivity).
  repeat match goal with |- _ /\ _ => split end; auto; try lia.
  - rewrite S2. split; [intros Q; repeat split; auto|intros (_ & _ & _ & Q); exact Q].
  - intros O. split; [exact S1|]. pose proof (proj1 S2 O) as Q. intros k Hk. rewrite (S4 k Hk). replace (existsb _ _) with false.
    + split; [reflexivity|]. apply Rdiv_lt_0_compat; auto.
    + symmetry. apply not_true_iff_false. intros C. apply existsb_exists in C. destruct C as (j & Hj & C). apply in_seq in Hj. apply Rleb_true in C. specialize (Q j ltac:(lia)). lra.
  - intros _ _ N. destruct S3; [tauto|auto].
  - intros k (j & Hj & A). destruct (Nat.lt_ge_cases k (length durations)) as [Hk|Hk]; [|auto]. rewrite (S4 k Hk). replace (existsb _ _) with true; [reflexivity|].
    symmetry. apply existsb_exists. exists j. split; [apply in_seq; lia|]. apply Rleb_true, A.
  - intros [C|C]; [lia|lra].
Qed.

(** ** When it answers *)
Lemma finite_values (l : list R) : existsb (fun value => negb (is_finite value)) l = false.
Proof. induction l as [|x l IH]; [reflexivity|exact IH]. Qed.
Lemma finite_vectors (l : list (list R)) : existsb (fun v => negb (vec_is_finite v)) l = false.
Proof.
  apply not_true_iff_false. intros C. apply existsb_exists in C. destruct C as (w & _ & C). unfold vec_is_finite in C. replace (forallb is_finite w) with true in C; [discriminate|]. symmetry. apply forallb_forall. reflexivity.
Qed.
Lemma finite_boundary (b : @boundary R) : boundary_finite b = true.
Proof. unfold boundary_finite, vec_is_finite. rewrite !(proj2 (forallb_forall _ _)) by reflexivity. reflexivity. Qed.
Lemma septic_answers start end_ h : 0 < h -> (exists inverse, endpoint_mapping_inverse h = Ok inverse) -> exists p, septic_from_endpoint_derivatives start end_ h = Ok p.
Proof.
  intros H [inv I]. unfold septic_from_endpoint_derivatives. rewrite finite_values. change (negb (is_finite h)) with false. cbn [orb]. change (leb h zero) with (Rleb h 0). rewrite (proj2 (Rleb_false h 0) H), I. eexists. reflexivity.
Qed.
Lemma segment_answers axes b0 b1 h : 0 < h -> (exists inverse, endpoint_mapping_inverse h = Ok inverse) -> exists ps, segment_pieces axes b0 b1 h = Ok ps.
Proof.
  intros H I. induction axes as [|a axes [ps IH]]; [eexists; reflexivity|]. cbn [segment_pieces]. destruct (septic_answers (along_one_axis b0 a) (along_one_axis b1 a) h H I) as [p ->]. rewrite IH. eexists. reflexivity.
Qed.
Lemma pieces_answer d blocks durations : (forall h, In h durations -> 0 < h /\ exists inverse, endpoint_mapping_inverse h = Ok inverse) -> forall segment, exists ps, all_pieces d blocks segment durations = Ok ps.
Proof.
  induction durations as [|h rest IH]; intros G segment; [eexists; reflexivity|]. cbn [all_pieces]. destruct (G h (or_introl eq_refl)) as [H I].
  destruct (segment_answers (seq 0 d) (blocks segment) (blocks (S segment)) h H I) as [ps ->]. destruct (IH (fun x Hx => G x (or_intror Hx)) (S segment)) as [qs ->]. eexists. reflexivity.
Qed.
Lemma plan_answers max_segments max_free dimension start end_ waypoints durations :
  (1 <= length durations)%nat -> length waypoints = S (length durations) -> (length durations <= max_segments)%nat -> (3 * (length durations - 1) <= max_free)%nat -> (forall h, In h durations -> 0 < h) ->
  let answer := plan max_segments max_free dimension start end_ waypoints durations in
  (exists path, answer = Ok path) \/
  answer = Err (SnapLinalg LaIllConditioned) /\
  ((exists h, In h durations /\ endpoint_mapping_inverse h = Err LaIllConditioned) \/
   (2 <= length durations)%nat /\ exists reduced known, assemble dimension (classify dimension start end_ waypoints (length durations)) 0 durations (mat_zeros max_free max_free, mat_zeros max_free dimension) = Ok (reduced, known) /\
     lu_decompose max_free (snap_system max_free (3 * (length durations - 1)) reduced) = Err LaIllConditioned).
Proof.
  intros N1 Lw Lm Lf Pos answer. unfold answer, plan. replace (length waypoints - 1)%nat with (length durations) by lia. set (n := length durations) in *.
  destruct (Nat.ltb_spec (length waypoints) 2); [lia|]. cbv zeta. destruct (Nat.ltb_spec max_segments n); [lia|]. rewrite Nat.eqb_refl. cbn [negb].
  replace (existsb (fun duration => negb (is_finite duration) || leb duration zero)%bool durations) with false.
  2: { symmetry. apply not_true_iff_false. intros C. apply existsb_exists in C. destruct C as (h & Hh & C). change (Rleb h 0 = true) in C. apply Rleb_true in C. specialize (Pos h Hh). lra. }
  rewrite finite_vectors, !finite_boundary. cbn [negb orb]. destruct (Nat.ltb_spec max_free (3 * (n - 1))); [lia|].
  set (kind := classify dimension start end_ waypoints n).
  destruct (assemble_answer dimension kind durations (fun h Hh => Rgt_not_eq _ _ (Pos h Hh)) 0 (mat_zeros max_free max_free, mat_zeros max_free dimension)) as [[[reduced known] A]|[A W]]; rewrite A; [|right; split; [reflexivity|left; exact W]].
  assert (I := assemble_needs _ _ _ _ _ _ A).
  assert (Fin : forall solved, exists path, match all_pieces dimension (waypoint_block dimension kind solved) 0 durations with Err e => Err e | Panic => Panic | Ok pieces => match piecewise_try_from_pieces max_segments pieces durations with Ok path => Ok path | Err e => Err (SnapPolynomial e) | Panic => Panic end end = Ok path).
  { intros solved. destruct (pieces_answer dimension (waypoint_block dimension kind solved) durations (fun h Hh => conj (Pos h Hh) (I h Hh)) 0) as [ps Ps]. rewrite Ps. destruct (all_pieces_spec _ _ _ _ _ Ps) as [Lp _].
    exists {| pw_pieces := ps; pw_spans := durations |}. rewrite (proj2 (C54_accepts _ _ max_segments ps durations {| pw_pieces := ps; pw_spans := durations |})); [reflexivity|].
    split; [reflexivity|]. split; [unfold n in *; lia|]. split; [exact Lp|]. split; [unfold n in *; lia|]. intros h Hh. split; [reflexivity|]. change (Rleb h 0 = false). apply Rleb_false, Pos, Hh. }
  destruct (Nat.eqb_spec (3 * (n - 1)) 0) as [Z|Z]; [left; apply Fin|].
  assert (Sh : shape max_free max_free (snap_system max_free (3 * (n - 1)) reduced)).
  { unfold snap_system, range. assert (G : forall l m, shape max_free max_free m -> shape max_free max_free (fold_left (fun system row => mset system row row (one : R)) l m)) by (induction l as [|x l IHl]; intros m Hm; [exact Hm|apply IHl, shape_mset, Hm]). apply G, shape_mat_fn. }
  destruct (C75_refuses max_free _ Sh) as (Si & _ & Only & NP).
  destruct (lu_decompose max_free (snap_system max_free (3 * (n - 1)) reduced)) as [f|e|] eqn:Lu; [left; apply Fin| |destruct (NP eq_refl)]. right.
  destruct (Only e eq_refl) as [->| ->].
  - exfalso. apply (system_regular max_free dimension start end_ waypoints durations Lf (fun k Hk => Pos _ (nth_In durations 0 Hk)) reduced known A N1). apply Si. reflexivity.
  - split; [reflexivity|]. right. split; [lia|]. exists reduced, known. split; [reflexivity|exact Lu].
Qed.

(** Once the arguments are in order it answers, or reports a system too close to singular for the scalar: nothing is ever reported singular.  With one
    segment of between a thousandth and a thousand, it answers. *)
Theorem C152_answers max_segments max_free dimension start end_ waypoints durations :
  (2 <= length waypoints)%nat -> length durations = (length waypoints - 1)%nat -> (length durations <= max_segments)%nat -> (3 * (length durations - 1) <= max_free)%nat ->
  (forall h, In h durations -> 0 < h) ->
  let answer := plan max_segments max_free dimension start end_ waypoints durations in
  ((exists path, answer = Ok path) \/ answer = Err (SnapLinalg LaIllConditioned)) /\
  (length durations = 1%nat -> (forall h, In h durations -> / 1000 <= h <= 1000) -> exists path, answer = Ok path).
Proof.
  intros L1 L2 L3 L4 Pos answer. destruct (plan_answers max_segments max_free dimension start end_ waypoints durations ltac:(lia) ltac:(lia) L3 L4 Pos) as [G|(G & Why)]; [split; auto|]. split; [right; exact G|].
  intros One Range. exfalso. destruct Why as [(h & Hh & E)|(C & _)]; [|lia]. destruct (mapping_accepted h (Range h Hh)) as (inv & I & _). rewrite I in E. discriminate.
Qed.
(** The polynomial of one segment exists for every span between a thousandth and a thousand. *)
Theorem C152_septic_answers start end_ span : / 1000 <= span <= 1000 -> exists p, septic_from_endpoint_derivatives start end_ span = Ok p.
Proof. intros H. destruct (mapping_accepted span H) as (inv & I & _). apply septic_answers; [lra|]. exists inv. exact I. Qed.

(** ** A case: out to 1 and back to 0 through a stop, one second each way *)
Definition rest : @boundary R := {| bd_velocity := [0]; bd_acceleration := [0]; bd_jerk := [0] |}.
Lemma unit_terms i j : (i < 8)%nat -> (j < 8)%nat ->
  mget (terms_of 1) i j = bsum 8 (fun k => bsum 8 (fun l => unmapped 1 l i * (if (Nat.leb 4 l && Nat.leb 4 k)%bool then after_four l * after_four k / INR (l + k - 7) else 0)) * unmapped 1 k j).
Proof.
  intros Hi Hj. unfold terms_of. destruct (mapping_accepted 1 ltac:(lra)) as (inv & I & N). rewrite I. rewrite (terms_entry inv 1) by auto. unfold product, transposed. apply bsum_ext. intros k Hk. rewrite N by auto. f_equal.
  apply bsum_ext. intros l Hl. rewrite N, cost_entry by auto. rewrite pow1, Rinv_1, Rmult_1_l. reflexivity.
Qed.
Definition unit_table : list (list Z) :=
  [[25920; 5400; 480]; [5400; 1200; 120]; [480; 120; 16]]%Z.
Lemma unit_terms_start i j : (i < 3)%nat -> (j < 3)%nat -> mget (terms_of 1) (1 + i) (1 + j) = IZR (nth j (nth i unit_table []) 0%Z).
Proof.
  intros Hi Hj. rewrite unit_terms by lia.
  do 3 (destruct i as [|i]; [do 3 (destruct j as [|j]; [unfold bsum, unmapped, after_four; cbn -[INR IZR]; cbn [INR]; lra|]); lia|]). lia.
Qed.
Lemma unit_terms_end i j : (i < 3)%nat -> (j < 3)%nat -> mget (terms_of 1) (5 + i) (5 + j) = (-1) ^ (i + j) * IZR (nth j (nth i unit_table []) 0%Z).
Proof.
  intros Hi Hj. rewrite unit_terms by lia.
  do 3 (destruct i as [|i]; [do 3 (destruct j as [|j]; [unfold bsum, unmapped, after_four; cbn -[INR IZR]; cbn [INR]; lra|]); lia|]). lia.
Qed.
Definition two_way_table (i j : nat) : R := match i, j with 0%nat, 0%nat => 51840 | 0%nat, 2%nat => 960 | 1%nat, 1%nat => 2400 | 2%nat, 0%nat => 960 | 2%nat, 2%nat => 32 | _, _ => 0 end.
Definition two_way_inverse (i j : nat) : R := match i, j with 0%nat, 0%nat => / 23040 | 0%nat, 2%nat => - / 768 | 1%nat, 1%nat => / 2400 | 2%nat, 0%nat => - / 768 | 2%nat, 2%nat => 9 / 128 | _, _ => 0 end.
Lemma two_way d start end_ waypoints : (length waypoints = 3)%nat -> exists path, plan 2 3 d start end_ waypoints [1; 1] = Ok path.
Proof.
  intros L. destruct (plan_answers 2 3 d start end_ waypoints [1; 1] ltac:(cbn; lia) L ltac:(cbn; lia) ltac:(cbn; lia) ltac:(intros h [<-|[<-|[]]]; lra)) as [G|(_ & [(h & Hh & E)|(_ & reduced & known & A & E)])]; [exact G| |]; exfalso.
  - destruct (mapping_accepted h) as (inv & I & _); [destruct Hh as [<-|[<-|[]]]; lra|]. rewrite I in E. discriminate.
  - set (system := snap_system 3 (3 * (length [1; 1] - 1)) reduced) in *.
    assert (Sh : shape 3 3 system). { apply shape_mat_fn. }
    assert (Entries : forall i j, (i < 3)%nat -> (j < 3)%nat -> mget system i j = two_way_table i j).
    { intros i j Hi Hj. unfold system. rewrite (system_entry 3 d start end_ waypoints [1; 1] (le_n 3) reduced known A) by auto. rewrite (reduced_entry 3 d start end_ waypoints [1; 1] (le_n 3) reduced known A) by auto.
      assert (Free0 : forall q lr, (q < 3)%nat -> (lr < 8)%nat -> is_free q (local_kind (classify d start end_ waypoints 2) 0 lr) = if Nat.eqb lr (5 + q) then 1 else 0).
      { intros q lr Hq Hlr. do 3 (destruct q as [|q]; [do 8 (destruct lr as [|lr]; [reflexivity|]); lia|]). lia. }
      assert (Free1 : forall q lr, (q < 3)%nat -> (lr < 8)%nat -> is_free q (local_kind (classify d start end_ waypoints 2) 1 lr) = if Nat.eqb lr (1 + q) then 1 else 0).
      { intros q lr Hq Hlr. do 3 (destruct q as [|q]; [do 8 (destruct lr as [|lr]; [reflexivity|]); lia|]). lia. }
      cbn [length nth]. unfold bsum at 1. cbn [nth].
      rewrite (bsum_ext 8 (fun lr => bsum 8 (fun lc => is_free i (local_kind (classify d start end_ waypoints 2) 0 lr) * _ * _)) (fun lr => if Nat.eqb lr (5 + i) then mget (terms_of 1) (5 + i) (5 + j) else 0)).
      2: { intros lr Hlr. rewrite (bsum_ext 8 _ (fun lc => if Nat.eqb lc (5 + j) then (if Nat.eqb lr (5 + i) then mget (terms_of 1) (5 + i) (5 + j) else 0) else 0)); [apply bsum_delta; lia|].
           intros lc Hlc. rewrite !Free0 by auto. destruct (Nat.eqb_spec lr (5 + i)) as [->|], (Nat.eqb_spec lc (5 + j)) as [->|]; ring. }
      rewrite (bsum_ext 8 (fun lr => bsum 8 (fun lc => is_free i (local_kind (classify d start end_ waypoints 2) 1 lr) * _ * _)) (fun lr => if Nat.eqb lr (1 + i) then mget (terms_of 1) (1 + i) (1 + j) else 0)).
      2: { intros lr Hlr. rewrite (bsum_ext 8 _ (fun lc => if Nat.eqb lc (1 + j) then (if Nat.eqb lr (1 + i) then mget (terms_of 1) (1 + i) (1 + j) else 0) else 0)); [apply bsum_delta; lia|].
           intros lc Hlc. rewrite !Free1 by auto. destruct (Nat.eqb_spec lr (1 + i)) as [->|], (Nat.eqb_spec lc (1 + j)) as [->|]; ring. }
      rewrite !bsum_delta by lia. rewrite unit_terms_start, unit_terms_end by auto.
      do 3 (destruct i as [|i]; [do 3 (destruct j as [|j]; [cbn; lra|]); lia|]). lia. }
    destruct (C75_accepts 3 system two_way_inverse 1 Sh) as [f F].
    + intros i j Hi Hj. unfold product. rewrite (bsum_ext 3 _ (fun k => two_way_table i k * two_way_inverse k j)) by (intros k Hk; rewrite Entries by auto; reflexivity).
      do 3 (destruct i as [|i]; [do 3 (destruct j as [|j]; [unfold unit_matrix; cbn; lra|]); lia|]). lia.
    + intros i j Hi Hj. unfold product. rewrite (bsum_ext 3 _ (fun k => two_way_inverse i k * two_way_table k j)) by (intros k Hk; rewrite Entries by auto; reflexivity).
      do 3 (destruct i as [|i]; [do 3 (destruct j as [|j]; [unfold unit_matrix; cbn; lra|]); lia|]). lia.
    + intros i Hi. do 3 (destruct i as [|i]; [unfold bsum, two_way_inverse, Rabs; repeat destruct (Rcase_abs _); lra|]). lia.
    + intros i j Hi Hj. rewrite Entries by auto. assert (B : Rabs (two_way_table i j) <= 51840) by (do 3 (destruct i as [|i]; [do 3 (destruct j as [|j]; [unfold two_way_table, Rabs; destruct (Rcase_abs _); lra|]); lia|]); lia).
      split; [apply largest_wide; lra|]. apply (Rmult_lt_reg_l (IZR (2 ^ 52))); [apply IZR_lt; reflexivity|]. rewrite Rmult_1_l, <- Rmult_assoc, Rinv_r by (apply Rgt_not_eq, IZR_lt; reflexivity). change (2 ^ 52)%Z with 4503599627370496%Z. lra.
    + rewrite F in E. discriminate.
Qed.
(** Two segments, so that the middle waypoint has a free velocity, acceleration and jerk: the plan answers, and no smooth detour through the same three points is cheaper. *)
Example C152_example : exists path, plan 2 3 1 rest rest [[0]; [1]; [0]] [1; 1] = Ok path /\
  passes [1; 1] (position [[0]; [1]; [0]] 0) (fun _ => 0) (fun _ => 0) (planned (pw_pieces path) [1; 1] 0) /\
  planned (pw_pieces path) [1; 1] 0 0 6 1 = planned (pw_pieces path) [1; 1] 0 1 6 1.
Proof.
  destruct (two_way 1 rest rest [[0]; [1]; [0]] eq_refl) as [path E]. exists path. split; [exact E|].
  destruct (C152_waypoints _ _ _ _ _ _ _ _ E) as (_ & _ & _ & _ & _ & W). destruct (W 0%nat ltac:(lia)) as (_ & _ & A). split.
  - destruct A as (A1 & A2 & A3). split; [exact A1|]. split; [exact A2|]. intros r Hr. destruct (A3 r Hr) as [B1 B2]. unfold boundary_value in B1, B2. rewrite B1, B2. destruct r as [|[|[|[|r]]]]; cbn; auto; lia.
  - pose proof (C152_smooth _ _ _ _ _ _ _ _ 0 0 6 E ltac:(lia) ltac:(cbn; lia) ltac:(lia)) as S. replace (piece_start [1; 1] 1) with 1 in S by (unfold piece_start; cbn; ring). exact S.
Qed.

Print Assumptions C152_refuses.
Print Assumptions C152_waypoints.
Print Assumptions C152_smooth.
Print Assumptions C152_least.
Print Assumptions C152_only.
Print Assumptions C152_septic.
Print Assumptions C152_septic_only.
Print Assumptions C152_septic_answers.
Print Assumptions C152_answers.
Print Assumptions C152_durations.
