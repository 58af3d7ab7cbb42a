(** C60 and C61: polyline paths. *)
From Coq Require Import ZArith Reals Lra Lia List Bool Psatz.
From Flocq Require Import Core.Raux.
From Verif Require Import Base.Scalar Base.RNum Base.Lists Base.Series Model.Errors Model.Vector Model.Motion Spec.Motion
  Proofs.Vector Proofs.Path.
Import ListNotations.

(** Pushing waypoints one after the other, stopping at the first refusal. *)
Fixpoint push_all {T} {NT : Num T} (max_points : nat) (path : Path) (points : list (list T)) : Res Path MotionError :=
  match points with
  | [] => Ok path
  | point :: rest =>
      match path_push max_points path point with
      | Ok path => push_all max_points path rest
      | Err e => Err e
      | Panic => Panic
      end
  end.

(** The paths a caller can hold: every waypoint has as many components as the type says. *)
Inductive built {T : Type} {NT : Num T} (max_points dimension : nat) : Path (T := T) -> Prop :=
| built_new : built max_points dimension (path_new max_points dimension)
| built_at_once : forall (points : list (list T)) path, Forall (fun p => length p = dimension) points ->
    path_try_from_points max_points dimension points = Ok path -> built max_points dimension path
| built_push : forall path (point : list T) path', built max_points dimension path -> length point = dimension ->
    path_push max_points path point = Ok path' -> built max_points dimension path'
| built_mode : forall path mode, built max_points dimension path -> built max_points dimension (path_with_end_of_path path mode).

Section AnyScalar.
  Context {T : Type} {NT : Num T}.

  Lemma new_stored m dim : path_new m dim = stored m dim [] Stop.
  Proof. unfold path_new, stored. cbn. rewrite Nat.sub_0_r. reflexivity. Qed.

  Lemma built_stored m dim path : built m dim path ->
    path = stored m dim (waypoints path) (pa_end path) /\ (length (waypoints path) <= m)%nat /\
    Forall (fun p => length p = dim) (waypoints path) /\ Forall (fun p => vec_is_finite p = true) (waypoints path).
  Proof.
    induction 1 as [| points path F E | path point path' _ (I1 & I2 & I3 & I4) L E | path mode _ (I1 & I2 & I3 & I4)].
    - rewrite new_stored, waypoints_stored. cbn [pa_end stored]. repeat split; auto. cbn; lia.
    - rewrite try_from_points_spec in E. destruct (Nat.ltb m (length points)) eqn:E1; [discriminate |].
      destruct (existsb _ points) eqn:E2; [discriminate |]. inversion E; subst; clear E. apply Nat.ltb_ge in E1.
      rewrite waypoints_stored. cbn [pa_end stored]. repeat split; auto.
      apply Forall_forall. intros x Hx. destruct (vec_is_finite x) eqn:E; [reflexivity |]. exfalso.
      assert (Q : existsb (fun point => negb (vec_is_finite point)) points = true) by (apply existsb_exists; exists x; rewrite E; auto).
      congruence.
    - rewrite I1 in E. rewrite push_spec in E by auto. destruct (Nat.eqb _ m) eqn:E1; [discriminate |].
      destruct (vec_is_finite point) eqn:E2; cbn [negb] in E; [| discriminate]. inversion E; subst path'; clear E. apply Nat.eqb_neq in E1.
      rewrite waypoints_stored. cbn [pa_end stored]. repeat split; auto.
      + rewrite app_length; cbn; lia.
      + apply Forall_app; auto.
      + apply Forall_app; auto.
    - assert (E : path_with_end_of_path path mode = stored m dim (waypoints path) mode) by (rewrite I1 at 1; reflexivity).
      rewrite E, waypoints_stored. cbn [pa_end stored]. auto.
  Qed.

  Lemma push_all_spec m dim mode points : forall pre, (length pre <= m)%nat ->
    (forall path, push_all m (stored m dim pre mode) points = Ok path <->
       (length pre + length points <= m)%nat /\ existsb (fun point => negb (vec_is_finite point)) points = false /\
       path = stored m dim (pre ++ points) mode) /\ push_all m (stored m dim pre mode) points <> Panic.
  Proof.
    induction points as [| p r IH]; intros pre L.
    - split; [| discriminate]. intros path. cbn. rewrite app_nil_r. split; [intros E; inversion E; repeat split; lia | intros (_ & _ & ->); reflexivity].
    - cbn [push_all existsb length]. rewrite push_spec by auto. destruct (Nat.eqb (length pre) m) eqn:E1.
      + apply Nat.eqb_eq in E1. split; [| discriminate]. intros path. split; [discriminate | lia].
      + apply Nat.eqb_neq in E1. destruct (vec_is_finite p); cbn [negb orb].
        * destruct (IH (pre ++ [p]) ltac:(rewrite app_length; cbn; lia)) as [I1 I2]. split; [| exact I2].
          intros path. rewrite I1, app_length, <- app_assoc. cbn [length app].
          replace (length pre + 1 + length r)%nat with (length pre + S (length r))%nat by lia. reflexivity.
        * split; [| discriminate]. intros path. split; [discriminate | intros (_ & Q & _); discriminate].
  Qed.
End AnyScalar.

(** C61.  Pushing waypoints one at a time and building at once succeed together and give the same path, for any scalar.
    Neither can fail otherwise than by an error. *)
Theorem C61_push_is_build : forall (T : Type) (NT : Num T) max_points dimension (points : list (list T)),
  (forall path, push_all max_points (path_new max_points dimension) points = Ok path <->
     path_try_from_points max_points dimension points = Ok path) /\
  ((exists path, path_try_from_points max_points dimension points = Ok path) <->
     (length points <= max_points)%nat /\ Forall (fun p => vec_is_finite p = true) points) /\
  push_all max_points (path_new max_points dimension) points <> Panic /\
  path_try_from_points max_points dimension points <> Panic.
Proof.
  intros T NT m dim points. rewrite new_stored. destruct (push_all_spec m dim Stop points [] ltac:(cbn; lia)) as [P1 P2].
  rewrite try_from_points_spec. cbn [length app] in P1.
  assert (F : existsb (fun point => negb (vec_is_finite point)) points = false <-> Forall (fun p => vec_is_finite p = true) points).
  { clear. induction points as [| p r IH]; cbn; [split; auto |]. split.
    - intros E. apply orb_false_iff in E as [E1 E2]. constructor; [destruct (vec_is_finite p); auto; discriminate | tauto].
    - intros E. inversion E as [| ? ? E1 E2]; subst. rewrite E1. cbn. tauto. }
  split; [| split; [| split; [exact P2 |]]].
  - intros path. rewrite P1. destruct (Nat.ltb m (length points)) eqn:E1.
    + apply Nat.ltb_lt in E1. split; [lia | discriminate].
    + apply Nat.ltb_ge in E1. destruct (existsb _ points); split; try discriminate; try (intros (_ & Q & _); discriminate).
      * intros (_ & _ & ->); reflexivity.
      * intros E; inversion E; auto.
  - destruct (Nat.ltb m (length points)) eqn:E1.
    + apply Nat.ltb_lt in E1. split; [intros [? ?]; discriminate | lia].
    + apply Nat.ltb_ge in E1. destruct (existsb _ points) eqn:E2.
      * split; [intros [? ?]; discriminate |]. intros [_ Q]. apply F in Q. discriminate.
      * split; [| eauto]. intros _. split; [auto |]. apply F. reflexivity.
  - destruct (Nat.ltb m (length points)); [discriminate |]. destruct (existsb _ points); discriminate.
Qed.

(** A refused waypoint is the one that does not fit or is not finite; an accepted one joins the end and disturbs no
    other. *)
Theorem C61_push : forall (T : Type) (NT : Num T) max_points dimension (path : Path) (point : list T),
  built max_points dimension path -> length point = dimension ->
  match path_push max_points path point with
  | Ok path' => waypoints path' = waypoints path ++ [point] /\ pa_end path' = pa_end path /\
      (length (waypoints path) < max_points)%nat /\ vec_is_finite point = true
  | Err e => (e = MoCapacityExceeded /\ length (waypoints path) = max_points) \/ (e = MoNonFinite /\ vec_is_finite point = false)
  | Panic => False
  end.
Proof.
  intros T NT m dim path point HB HL. destruct (built_stored m dim path HB) as (E & L & _ & _).
  pose proof (push_spec m dim (waypoints path) (pa_end path) point L) as P. rewrite <- E in P. rewrite P.
  destruct (Nat.eqb (length (waypoints path)) m) eqn:E1.
  - left. apply Nat.eqb_eq in E1. auto.
  - apply Nat.eqb_neq in E1. destruct (vec_is_finite point) eqn:E2; cbn [negb]; [| right; auto].
    rewrite waypoints_stored. cbn [pa_end stored]. repeat split; auto. lia.
Qed.

Local Open Scope R_scope.

(** The total is the sum of the lengths of the pieces. *)
Theorem C61_total : forall max_points dimension path, built max_points dimension path ->
  total_arc_length path = length_before (waypoints path) (length (waypoints path) - 1).
Proof.
  intros m dim path HB. destruct (built_stored m dim path HB) as (E & _ & F & _).
  rewrite E at 1. rewrite total_stored. apply (total_spec dim). exact F.
Qed.

Lemma built_cumulative m dim path : built m dim path -> forall k, (k < length (waypoints path))%nat ->
  nth_error (pa_cumulative path) k = Some (length_before (waypoints path) k).
Proof.
  intros HB k Hk. destruct (built_stored m dim path HB) as (E & _ & F & _). rewrite E at 1. cbn [pa_cumulative stored].
  rewrite nth_error_app1 by (rewrite cums_length; auto). apply (cums_spec dim); auto.
Qed.
Lemma built_length m dim (path : Path (T := R)) : built m dim path -> pa_length path = length (waypoints path).
Proof. intros HB. destruct (built_stored m dim path HB) as (E & _). rewrite E at 1. reflexivity. Qed.

(** Where the walk along a path of two waypoints or more lands. *)
Lemma walk_lands m dim path first rest target : built m dim path -> waypoints path = first :: rest -> rest <> [] ->
  target < total_arc_length path ->
  (exists x k a b lambda, lookahead_loop (pa_cumulative path) target first rest 0 = Ok (Some x) /\
    piece (waypoints path) k a b /\ 0 < distance_between a b /\ lambda <= 1 /\ along a b lambda x /\
    (lambda <= 0 -> length_before (waypoints path) k = 0) /\
    target = length_before (waypoints path) k + lambda * distance_between a b) \/
  (lookahead_loop (pa_cumulative path) target first rest 0 = Ok None /\ total_arc_length path = 0).
Proof.
  intros HB W NE LT. destruct (built_stored m dim path HB) as (_ & _ & F & _). pose proof (built_cumulative m dim path HB) as HC.
  rewrite (C61_total m dim path HB) in *.
  assert (Z : length_before (waypoints path) 0 = 0) by reflexivity.
  destruct (lookahead_loop_spec dim (waypoints path) (pa_cumulative path) (repeat 0 dim) F (repeat_length 0 dim) HC target rest [] first W)
    as [(k & a & b & lambda & x & I1 & I2 & I3 & I4 & I5 & I6 & I7 & I8) | [I1 I2]]; cbn [length Nat.add] in *; rewrite Z in *.
  - left. exists x, k, a, b, lambda. auto 10.
  - right. split; [exact I1 |]. rewrite W in *. cbn [length Nat.sub] in *. rewrite ?Nat.sub_0_r in *.
    destruct I2 as [I2 | I2]; [lra | exact I2].
Qed.

(** A lookahead target on the path gives the point at that arc length; past the end it stops at the last waypoint or
    wraps around by whole lengths of the path. *)
Theorem C61_lookahead : forall max_points dimension path from ahead, built max_points dimension path ->
  let points := waypoints path in
  let total := total_arc_length path in
  let target := from + ahead in
  (points = [] -> lookahead_point path from ahead = Err MoPathTooShort) /\
  (forall only, points = [only] -> lookahead_point path from ahead = Ok only) /\
  ((2 <= length points)%nat ->
    (pa_end path = Stop -> 0 <= target < total ->
       exists k x, lookahead_point path from ahead = Ok x /\ on_path points k target x) /\
    (pa_end path = Stop -> total <= target -> lookahead_point path from ahead = Ok (last points [])) /\
    (pa_end path = Loop -> 0 < total ->
       exists turns wrapped k x, target = wrapped + IZR turns * total /\ 0 <= wrapped < total /\
         lookahead_point path from ahead = Ok x /\ on_path points k wrapped x) /\
    (pa_end path = Loop -> total = 0 -> lookahead_point path from ahead = Ok (hd [] points))).
Proof.
  intros m dim path from ahead HB points total target. pose proof (built_length m dim path HB) as HLen.
  unfold lookahead_point. rewrite HLen. fold points. rnum.
  split; [intros ->; reflexivity |]. split; [intros only ->; reflexivity |].
  intros L2. destruct points as [| first rest] eqn:W; [cbn in L2; lia |].
  assert (NE : rest <> []) by (destruct rest; cbn in L2; [lia | discriminate]).
  assert (N1 : Nat.eqb (length (first :: rest)) 1 = false) by (apply Nat.eqb_neq; lia). rewrite N1.
  fold total. fold target.
  assert (WALK : forall t, 0 <= t < total -> exists k x,
     match lookahead_loop (pa_cumulative path) t first rest 0 with
     | Ok (Some point) => Ok point | Ok None => Ok (last rest first) | Err e => Err e | Panic => Panic end = Ok x /\ on_path (first :: rest) k t x).
  { intros t Ht. destruct (walk_lands m dim path first rest t HB W NE ltac:(fold total; lra)) as
      [(x & k & a & b & lambda & I1 & I2 & I3 & I4 & I5 & I6 & I7) | [I1 I2]]; [| fold total in I2; lra].
    fold points in I2, I6, I7. rewrite W in I2, I6, I7.
    exists k, x. rewrite I1. split; [reflexivity |]. exists a, b, lambda. split; [exact I2 |]. split; [| auto].
    split; [| exact I4]. destruct (Rle_dec 0 lambda) as [G | G]; [exact G |]. exfalso.
    specialize (I6 ltac:(lra)). rewrite I6 in I7. nra. }
  split; [| split; [| split]].
  - intros -> Ht. destruct (Rleb total target) eqn:E; rcases; [lra |]. apply WALK. exact Ht.
  - intros -> Ht. destruct (Rleb total target) eqn:E; rcases; [| lra]. f_equal.
    destruct rest as [| r0 rest']; [congruence |]. rewrite last_cons_ne. apply last_default.
  - intros -> Ht. destruct (Rltb 0 total) eqn:E; rcases; [| lra].
    set (z := Zfloor (target / total)).
    assert (Hz : IZR z <= target / total < IZR z + 1) by (split; [apply Zfloor_lb | apply Zfloor_ub]).
    assert (Q : target = target / total * total) by (field; lra).
    destruct (WALK (target - total * IZR z)) as (k & x & X1 & X2).
    { split; [nra |]. assert (target / total * total < (IZR z + 1) * total) by (apply Rmult_lt_compat_r; lra). lra. }
    exists z, (target - total * IZR z), k, x. split; [ring |]. split; [| auto].
    split; [nra |]. assert (target / total * total < (IZR z + 1) * total) by (apply Rmult_lt_compat_r; lra). lra.
  - intros -> Ht. destruct (Rltb 0 total) eqn:E; rcases; [lra | reflexivity].
Qed.

(** A negative target is not clamped to the start: the point lies on the first piece that has a length, extended
    backwards. *)
Theorem C61_before_the_start : forall max_points dimension path from ahead, built max_points dimension path ->
  pa_end path = Stop -> (2 <= length (waypoints path))%nat -> 0 < total_arc_length path -> from + ahead < 0 ->
  exists k a b lambda x, lookahead_point path from ahead = Ok x /\ piece (waypoints path) k a b /\
    length_before (waypoints path) k = 0 /\ lambda < 0 /\ along a b lambda x /\
    lambda * distance_between a b = from + ahead.
Proof.
  intros m dim path from ahead HB HE L2 HT HN. pose proof (built_length m dim path HB) as HLen.
  unfold lookahead_point. rewrite HLen, HE. rnum.
  destruct (waypoints path) as [| first rest] eqn:W; [cbn in L2; lia |].
  assert (NE : rest <> []) by (destruct rest; cbn in L2; [lia | discriminate]).
  assert (N1 : Nat.eqb (length (first :: rest)) 1 = false) by (apply Nat.eqb_neq; lia). rewrite N1.
  destruct (Rleb (total_arc_length path) (from + ahead)) eqn:E; rcases; [lra |].
  destruct (walk_lands m dim path first rest (from + ahead) HB W NE ltac:(lra)) as
      [(x & k & a & b & lambda & I1 & I2 & I3 & I4 & I5 & I6 & I7) | [I1 I2]]; [| lra].
  rewrite W in I2, I6, I7. exists k, a, b, lambda, x. rewrite I1.
  assert (B : 0 <= length_before (first :: rest) k) by (apply bsum_nonneg; intros; apply distance_nonneg).
  assert (LN : lambda < 0).
  { destruct (Rlt_dec lambda 0) as [G | G]; [exact G |]. exfalso. assert (0 <= lambda * distance_between a b) by (apply Rmult_le_pos; lra). lra. }
  specialize (I6 ltac:(lra)). repeat split; auto; try apply I2; try apply I5. lra.
Qed.

(** C60.  The projection lies on the path where it says, at the distance it says; no point of the path is closer, and
    of equally close ones it is on the earliest piece. *)
Theorem C60_closest : forall max_points dimension path query, built max_points dimension path -> length query = dimension ->
  let points := waypoints path in
  (points = [] -> closest_point path query = Err MoPathTooShort) /\
  (forall only, points = [only] -> closest_point path query =
     Ok {| pj_point := only; pj_segment := 0; pj_arc_length := 0; pj_distance := distance_between query only |}) /\
  ((2 <= length points)%nat -> exists p, closest_point path query = Ok p /\
     on_path points (pj_segment p) (pj_arc_length p) (pj_point p) /\
     pj_distance p = distance_between query (pj_point p) /\
     forall k s x, on_path points k s x ->
       pj_distance p <= distance_between query x /\
       (distance_between query x = pj_distance p -> (pj_segment p <= k)%nat)).
Proof.
  intros m dim path query HB HQ points. destruct (built_stored m dim path HB) as (_ & _ & F & _).
  pose proof (built_cumulative m dim path HB) as HC. pose proof (built_length m dim path HB) as HLen.
  unfold closest_point. rewrite HLen. fold points in F, HC |- *.
  split; [intros ->; reflexivity |]. split.
  { intros only E. rewrite E in *. cbn [length Nat.eqb]. rewrite norm_distance; [reflexivity |].
    inversion F; subst. congruence. }
  intros L2. destruct points as [| first rest] eqn:W; [cbn in L2; lia |].
  assert (N1 : Nat.eqb (length (first :: rest)) 1 = false) by (apply Nat.eqb_neq; lia). rewrite N1.
  destruct (closest_loop_spec dim (first :: rest) (pa_cumulative path) query F HQ HC rest [] first None eq_refl eq_refl)
    as (r & Er & Hr). cbn [length Nat.add] in Er, Hr. rewrite Er.
  destruct r as [p |]; cbn [best_of] in Hr; [| cbn in L2; lia].
  destruct Hr as (H1 & H2 & H3 & H4). exists p. split; [reflexivity |]. split; [exact H2 |]. split; [exact H3 |].
  intros k s x Hx. apply (H4 k s x); [| exact Hx].
  destruct Hx as (a & b & l & [_ P] & _). assert (S k < length (first :: rest))%nat by (apply nth_error_Some; congruence).
  cbn in *; lia.
Qed.

(** For any scalar, NaN included: a path with a waypoint always gives a projection, and one on a piece it has. *)
Theorem C60_always_answers : forall (T : Type) (NT : Num T) max_points dimension (path : Path) (query : list T),
  built max_points dimension path -> waypoints path <> [] ->
  exists p, closest_point path query = Ok p /\ (pj_segment p < Nat.max 1 (length (waypoints path) - 1))%nat.
Proof.
  intros T NT m dim path query HB NE. destruct (built_stored m dim path HB) as (E & _).
  assert (HLen : pa_length path = length (waypoints path)) by (rewrite E at 1; reflexivity).
  assert (HC : forall k, (k < length (waypoints path))%nat -> exists c, nth_error (pa_cumulative path) k = Some c).
  { intros k Hk. rewrite E. cbn [pa_cumulative stored]. rewrite nth_error_app1 by (rewrite cums_length; auto).
    destruct (nth_error (cums (waypoints path)) k) eqn:N; [eauto |]. apply nth_error_None in N. rewrite cums_length in N. exfalso. lia. }
  unfold closest_point. rewrite HLen. destruct (waypoints path) as [| first rest] eqn:W; [tauto |].
  destruct (Nat.eqb (length (first :: rest)) 1) eqn:N1; [eexists; split; [reflexivity |]; cbn [pj_segment]; lia |].
  apply Nat.eqb_neq in N1. cbn [length] in *.
  assert (G : forall following a k best, (k + length following = length rest)%nat ->
    match best with None => k = 0%nat | Some p => (pj_segment p < k)%nat end ->
    exists r, closest_loop (pa_cumulative path) query a following k best = Ok r /\
      match r with None => length rest = 0%nat | Some p => (pj_segment p < length rest)%nat end).
  { induction following as [| b r IH]; intros a k best Hk HBest; cbn [closest_loop length] in *.
    - exists best. split; [reflexivity |]. replace (length rest) with k by lia. exact HBest.
    - destruct (HC k ltac:(lia)) as (c & Ec). rewrite Ec.
      destruct (if eqb _ zero then _ else _) as [candidate parameter].
      set (dist := norm (vec_sub query candidate)).
      destruct (match best with Some current => ltb dist (pj_distance current) | None => true end) eqn:I.
      + apply IH; [lia | cbn; lia].
      + apply IH; [lia |]. destruct best; [lia | discriminate]. }
  destruct (G rest first 0%nat None ltac:(lia) eq_refl) as (r & -> & Hr).
  destruct r as [p |]; [| lia]. exists p. split; [reflexivity |]. lia.
Qed.

(** An L-shaped path of two pieces, 3 and 4 long: the corner is 3 along it, and the point (4, 2) projects onto the
    second piece. *)
Example C60_example : exists path, path_try_from_points 4 2 [[0; 0]; [3; 0]; [3; 4]] = Ok path /\
  built 4 2 path /\ waypoints path = [[0; 0]; [3; 0]; [3; 4]] /\ length [4; 2] = 2%nat /\ total_arc_length path = 7 /\
  on_path (waypoints path) 1 5 [3; 2].
Proof.
  assert (E : path_try_from_points 4 2 [[0; 0]; [3; 0]; [3; 4]] = Ok (stored 4 2 [[0; 0]; [3; 0]; [3; 4]] Stop)).
  { rewrite try_from_points_spec. reflexivity. }
  eexists. split; [exact E |]. assert (B : built 4 2 (stored 4 2 [[0; 0]; [3; 0]; [3; 4]] Stop)) by (apply (built_at_once 4 2 [[0; 0]; [3; 0]; [3; 4]]); [repeat constructor | exact E]).
  split; [exact B |]. split; [apply waypoints_stored |]. split; [reflexivity |].
  assert (D1 : distance_between [0; 0] [3; 0] = 3).
  { unfold distance_between. cbn. replace (_ + _ + _) with (3 * 3) by ring. apply sqrt_square. lra. }
  assert (D2 : distance_between [3; 0] [3; 4] = 4).
  { unfold distance_between. cbn. replace (_ + _ + _) with (4 * 4) by ring. apply sqrt_square. lra. }
  split.
  - rewrite (C61_total 4 2 _ B), waypoints_stored. unfold length_before. cbn [length Nat.sub bsum nth]. rewrite D1, D2. ring.
  - rewrite waypoints_stored. exists [3; 0], [3; 4], (1 / 2). split; [split; reflexivity |]. split; [lra |]. split.
    + split; [reflexivity |]. intros [| [| [| i]]]; cbn; lra.
    + unfold length_before. cbn [bsum nth]. rewrite D1, D2. lra.
Qed.
Example C61_example : exists path, built 4 2 path /\ pa_end path = Loop /\ (2 <= length (waypoints path))%nat /\
  0 < total_arc_length path /\ exists path', path_push 4 path [0; 4] = Ok path'.
Proof.
  destruct C60_example as (path & _ & B & W & _ & T & _). exists (path_with_end_of_path path Loop).
  assert (B' : built 4 2 (path_with_end_of_path path Loop)) by (constructor; exact B).
  split; [exact B' |]. split; [reflexivity |]. split; [change (waypoints (path_with_end_of_path path Loop)) with (waypoints path); rewrite W; cbn; lia |].
  split; [change (total_arc_length (path_with_end_of_path path Loop)) with (total_arc_length path); rewrite T; lra |].
  destruct (built_stored 4 2 _ B') as (E & L & _). rewrite E, push_spec by exact L.
  change (waypoints (path_with_end_of_path path Loop)) with (waypoints path). rewrite W. cbn. eauto.
Qed.

Print Assumptions C60_closest.
Print Assumptions C60_always_answers.
Print Assumptions C61_push_is_build.
Print Assumptions C61_push.
Print Assumptions C61_total.
Print Assumptions C61_lookahead.
Print Assumptions C61_before_the_start.
