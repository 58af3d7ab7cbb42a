(** Lemmas about curves made of pieces, over exact arithmetic. *)
From Coq Require Import ZArith List Bool Arith Reals Lra Lia.
From Coquelicot Require Import Coquelicot.
From Verif Require Import Base.Scalar Base.Lists Base.RNum Base.Series Base.PolyR Model.Errors Model.Polynomial Model.Piecewise
  Spec.Polynomial Spec.Piecewise Proofs.Polynomial.
Import ListNotations.
Local Open Scope R_scope.

Definition positive_spans (spans : list R) : Prop := forall k, (k < length spans)%nat -> 0 < nth k spans 0.

Lemma positive_tail s spans : positive_spans (s :: spans) -> 0 < s /\ positive_spans spans.
Proof. intros H. split; [apply (H 0%nat); cbn; lia|]. intros k Hk. apply (H (S k)). cbn. lia. Qed.
Lemma piece_start_0 spans : piece_start spans 0 = 0. Proof. reflexivity. Qed.
Lemma piece_start_S spans k : piece_start spans (S k) = piece_start spans k + nth k spans 0. Proof. reflexivity. Qed.
Lemma piece_start_cons s spans k : piece_start (s :: spans) (S k) = s + piece_start spans k.
Proof. unfold piece_start. rewrite bsum_first. reflexivity. Qed.
Lemma piece_start_mono spans i j : positive_spans spans -> (i <= j <= length spans)%nat -> piece_start spans i <= piece_start spans j.
Proof. intros H [Hij Hj]. induction Hij as [|j Hij IH]; [lra|]. rewrite piece_start_S. pose proof (H j ltac:(lia)). specialize (IH ltac:(lia)). lra. Qed.
Lemma curve_end_pos spans : positive_spans spans -> (0 < length spans)%nat -> 0 < curve_end spans.
Proof. intros H Hl. unfold curve_end. pose proof (piece_start_mono spans 1 (length spans) H ltac:(lia)). rewrite piece_start_S, piece_start_0 in H0. pose proof (H 0%nat Hl). lra. Qed.
Lemma covers_unique spans i j u : positive_spans spans -> covers spans i u -> covers spans j u -> i = j.
Proof.
  intros H [Hi Ui] [Hj Uj]. destruct (Nat.lt_trichotomy i j) as [L|[E|L]]; [|exact E|].
  - pose proof (piece_start_mono spans (S i) j H ltac:(lia)). lra.
  - pose proof (piece_start_mono spans (S j) i H ltac:(lia)). lra.
Qed.
Lemma covers_pos spans k u : positive_spans spans -> covers spans k u -> 0 <= u < curve_end spans.
Proof.
  intros H [Hk Uk]. pose proof (piece_start_mono spans 0 k H ltac:(lia)). rewrite piece_start_0 in *.
  pose proof (piece_start_mono spans (S k) (length spans) H ltac:(lia)). unfold curve_end. lra.
Qed.

Lemma total_span_R (l : list R) : forall a, fold_left (@add R Rnum) l a = a + curve_end l.
Proof.
  unfold curve_end. induction l as [|s l IH]; intros a; cbn [fold_left length]; [unfold piece_start; cbn; lra|].
  rewrite IH, piece_start_cons. rnum. lra.
Qed.

Lemma locate_walk_R : forall (spans : list R) index covered u, covered <= u ->
  match locate_walk spans index covered u with
  | Some (i, a) => exists k, i = (index + k)%nat /\ (k < length spans)%nat /\
      covered + piece_start spans k <= u < covered + piece_start spans (S k) /\ a = (u - (covered + piece_start spans k)) / nth k spans 0
  | None => covered + curve_end spans <= u
  end.
Proof.
  unfold curve_end. induction spans as [|s spans IH]; intros index covered u Hu; cbn [locate_walk length].
  - unfold piece_start. cbn. lra.
  - rnum. destruct (Rltb _ _) eqn:E; [apply Rltb_true in E|apply Rltb_false in E].
    + exists 0%nat. rewrite piece_start_S, piece_start_0. cbn [nth]. repeat split; try lia; try lra.
    + specialize (IH (S index) (covered + s) u ltac:(lra)). rnum. destruct (locate_walk spans (S index) (covered + s) u) as [[i a]|].
      * destruct IH as (k & -> & Hk & Hu' & ->). exists (S k). rewrite !piece_start_cons. cbn [nth]. repeat split; try lia; try lra.
      * rewrite piece_start_cons. lra.
Qed.

Section Curve.
  Variables (pieces : list (list (list R))) (spans : list R).
  Hypothesis Hlen : length pieces = length spans.
  Hypothesis Hne : (0 < length spans)%nat.
  Hypothesis Hpos : positive_spans spans.
  Let c := {| pw_pieces := pieces; pw_spans := spans |}.

  Lemma locate_inside k u : covers spans k u -> piecewise_locate c u = Some (k, along spans k u).
  Proof using Hlen Hne Hpos.
    intros Hc. unfold piecewise_locate, c, pw_pieces, pw_spans. destruct (Nat.eqb_spec (length pieces) 0); [lia|].
    pose proof (covers_pos _ _ _ Hpos Hc) as Hu. rnum. destruct (Rleb _ _) eqn:E; [apply Rleb_true in E|apply Rleb_false in E].
    - assert (u = 0) by lra. subst u. assert (k = 0%nat).
      { apply (covers_unique spans k 0 0 Hpos Hc). split; [lia|]. rewrite piece_start_S, piece_start_0. pose proof (Hpos 0%nat Hne). lra. }
      subst k. f_equal. f_equal. unfold along. rewrite piece_start_0. pose proof (Hpos 0%nat Hne). field. lra.
    - pose proof (locate_walk_R spans 0 0 u ltac:(lra)) as L. rnum. destruct (locate_walk spans 0 0 u) as [[i a]|].
      + destruct L as (j & -> & Hj & Hu' & ->). rewrite !Rplus_0_l in *. assert (j = k) by (apply (covers_unique spans j k u Hpos); [split; [exact Hj|lra]|exact Hc]).
        subst j. reflexivity.
      + lra.
  Qed.
  Lemma locate_before u : u <= 0 -> piecewise_locate c u = Some (0%nat, 0).
  Proof using Hlen Hne Hpos.
    intros Hu. unfold piecewise_locate, c, pw_pieces, pw_spans. destruct (Nat.eqb_spec (length pieces) 0); [lia|]. rnum. destruct (Rleb _ _) eqn:E; [reflexivity|apply Rleb_false in E; lra].
  Qed.
  Lemma locate_after u : curve_end spans <= u -> piecewise_locate c u = Some ((length spans - 1)%nat, 1).
  Proof using Hlen Hne Hpos.
    intros Hu. pose proof (curve_end_pos spans Hpos Hne). unfold piecewise_locate, c, pw_pieces, pw_spans. destruct (Nat.eqb_spec (length pieces) 0); [lia|]. rnum. destruct (Rleb _ _) eqn:E; [apply Rleb_true in E; lra|apply Rleb_false in E].
    pose proof (locate_walk_R spans 0 0 u ltac:(lra)) as L. rnum. destruct (locate_walk spans 0 0 u) as [[i a]|]; [|rewrite Hlen; reflexivity].
    destruct L as (j & -> & Hj & Hu' & ->). exfalso.
    pose proof (piece_start_mono spans (S j) (length spans) Hpos ltac:(lia)). unfold curve_end in *. lra.
  Qed.
  Lemma covered u : 0 <= u < curve_end spans -> exists k, covers spans k u.
  Proof.
    intros Hu. pose proof (locate_walk_R spans 0 0 u ltac:(lra)) as L. destruct (locate_walk spans 0 0 u) as [[i a]|]; [|lra].
    destruct L as (j & -> & Hj & Hu' & _). rewrite !Rplus_0_l in *. exists j. split; [exact Hj|lra].
  Qed.
  Lemma nth_error_piece k : (k < length spans)%nat -> nth_error pieces k = Some (nth k pieces []).
  Proof using Hlen Hne Hpos. intros. apply nth_error_nth'. lia. Qed.
  Lemma evaluate_at u i a : piecewise_locate c u = Some (i, a) -> (i < length spans)%nat ->
    piecewise_evaluate c u = Ok (map (fun p => value_at p a) (nth i pieces [])).
  Proof using Hlen Hne Hpos.
    intros L Hi. unfold piecewise_evaluate. rewrite L. unfold c, pw_pieces. rewrite nth_error_piece by exact Hi.
    f_equal. apply map_ext. intros. rewrite value_at_peval. apply evaluate_R.
  Qed.
End Curve.

(** ** Derivatives *)
Lemma gather_orders_spec : forall remaining order (span : R) raised per_axis,
  raised = span ^ (order - 1) ->
  length (gather_orders order remaining span raised per_axis) = remaining /\
  forall k, (k < remaining)%nat -> nth k (gather_orders order remaining span raised per_axis) [] =
    map (fun orders => nth (order + k) orders 0 * (1 / span ^ (order + k))) per_axis.
Proof.
  induction remaining as [|m IH]; intros order span raised per_axis Hr; cbn [gather_orders]; [split; [reflexivity|lia]|].
  assert (Hr' : (if Nat.ltb 0 order then (raised * span)%num else raised) = span ^ order).
  { rnum. destruct (Nat.ltb_spec 0 order).
    - rewrite Hr. destruct order; [lia|]. rewrite Nat.sub_succ, Nat.sub_0_r. cbn [pow]. ring.
    - rewrite Hr. replace order with 0%nat by lia. reflexivity. }
  destruct (IH (S order) span (span ^ order) per_axis) as [L N].
  { f_equal. lia. }
  split.
  - cbn [length]. rewrite Hr'. rewrite L. reflexivity.
  - intros [|k] Hk; cbn [nth]; rewrite Hr'.
    + rewrite Nat.add_0_r. reflexivity.
    + rewrite N by lia. replace (S order + k)%nat with (order + S k)%nat by lia. reflexivity.
Qed.

Lemma derive_scaled p s ps k u : s <> 0 ->
  is_derive_n (fun v => value_at p ((v - ps) / s)) k u (INR (fact k) * tay k p ((u - ps) / s) * (1 / s ^ k)).
Proof.
  intros Hs. replace (INR (fact k) * tay k p ((u - ps) / s) * (1 / s ^ k)) with ((/ s) ^ k * (INR (fact k) * tay k p (/ s * (u + - ps)))).
  2:{ replace (/ s * (u + - ps)) with ((u - ps) / s) by (field; exact Hs). rewrite pow_inv. unfold Rdiv. ring. }
  apply (is_derive_n_ext (fun v => (fun y => peval p (/ s * y)) (v + - ps))).
  { intros v. rewrite value_at_peval. f_equal. field. exact Hs. }
  apply (is_derive_n_comp_trans (fun y => peval p (/ s * y))).
  apply (is_derive_n_comp_scal (peval p) (/ s) k); [|apply is_derive_n_peval].
  exists (mkposreal 1 Rlt_0_1). intros y _ j _. destruct j as [|j]; [exact I|]. eexists. apply (is_derive_n_peval p (S j)).
Qed.

(** ** The integral *)
Lemma integral_scaled p s ps a b : 0 < s ->
  is_RInt (fun u => value_at p ((u - ps) / s)) a b (poly_definite_integral p ((a - ps) / s) ((b - ps) / s) * s).
Proof.
  intros Hs. pose proof (definite_integral_is_RInt p ((a - ps) / s) ((b - ps) / s)) as I.
  set (V := poly_definite_integral p ((a - ps) / s) ((b - ps) / s)) in *.
  replace ((a - ps) / s) with (/ s * a + - ps / s) in I by (field; lra).
  replace ((b - ps) / s) with (/ s * b + - ps / s) in I by (field; lra).
  apply is_RInt_comp_lin in I.
  apply (is_RInt_scal _ _ _ s) in I. rewrite Rmult_comm. unfold scal in I; cbn in I; unfold mult in I; cbn in I.
  refine (is_RInt_ext _ _ _ _ _ _ I). intros x _. cbn. rewrite value_at_peval.
  replace (/ s * x + - ps / s) with ((x - ps) / s) by (field; lra). field. lra.
Qed.

Lemma nth_integral_map (axis : nat) a b s (areas : list R) (polys : list (list R)) : length areas = length polys -> (axis < length areas)%nat ->
  nth axis (map (fun '(slot, p) => slot + poly_definite_integral p a b * s)%num (combine areas polys)) 0 =
  nth axis areas 0 + poly_definite_integral (nth axis polys []) a b * s.
Proof.
  revert axis polys. induction areas as [|x areas IH]; intros axis [|p polys] Hl Ha; cbn in *; try lia.
  destruct axis; cbn; [reflexivity|]. apply IH; lia.
Qed.
Lemma integral_walk_length dim : forall pieces spans ws we cov (areas : list R), length areas = dim ->
  (forall q, In q pieces -> length q = dim) -> length (integral_walk pieces spans ws we cov areas) = dim.
Proof.
  induction pieces as [|q pieces IH]; intros [|s spans] ws we cov areas Ha Hp; cbn [integral_walk]; auto.
  apply IH; [|intros; apply Hp; right; assumption]. destruct (_ <=? _)%num; [exact Ha|].
  rewrite map_length, combine_length, (Hp q (or_introl eq_refl)). lia.
Qed.

Definition held (ws we x : R) : R := Rmin we (Rmax ws x).
Lemma held_skip ws we ps s : ws <= we -> 0 < s -> Rmin we (ps + s) <= Rmax ws ps -> held ws we ps = held ws we (ps + s).
Proof. intros ? ?. unfold held, Rmin, Rmax. repeat destruct (Rle_dec _ _); lra. Qed.
Lemma held_reach ws we ps s : ws <= we -> 0 < s -> Rmax ws ps < Rmin we (ps + s) -> held ws we ps = Rmax ws ps /\ held ws we (ps + s) = Rmin we (ps + s).
Proof. intros ? ?. unfold held, Rmin, Rmax. repeat destruct (Rle_dec _ _); lra. Qed.

Lemma integral_walk_R dim axis (f : R -> R) ws we : ws <= we -> (axis < dim)%nat ->
  forall pieces spans cov areas, length pieces = length spans -> positive_spans spans -> length areas = dim ->
  (forall q, In q pieces -> length q = dim) ->
  (forall k u, (k < length spans)%nat -> cov + piece_start spans k < u < cov + piece_start spans (S k) ->
     f u = value_at (nth axis (nth k pieces []) []) ((u - (cov + piece_start spans k)) / nth k spans 0)) ->
  is_RInt f (held ws we cov) (held ws we (cov + curve_end spans))
    (nth axis (integral_walk pieces spans ws we cov areas) 0 - nth axis areas 0).
Proof.
  intros Hw Hax. unfold curve_end. induction pieces as [|q pieces IH]; intros [|s spans] cov areas Hl Hp Ha Hq Hf; cbn [length] in Hl; try lia.
  - cbn [integral_walk length]. unfold piece_start. cbn [bsum]. rewrite Rplus_0_r, Rminus_eq_0. apply (is_RInt_point f).
  - destruct (positive_tail _ _ Hp) as [Hs Hp']. cbn [integral_walk length]. rewrite piece_start_cons, <- Rplus_assoc.
    rnum. set (areas' := if Rleb _ _ then areas else _).
    assert (Ha' : length areas' = dim).
    { unfold areas'. destruct (Rleb _ _); [exact Ha|]. rewrite map_length, combine_length, (Hq q (or_introl eq_refl)). lia. }
    assert (F : is_RInt f (held ws we cov) (held ws we (cov + s)) (nth axis areas' 0 - nth axis areas 0)).
    { unfold areas'. destruct (Rleb _ _) eqn:E.
      - apply Rleb_true in E. rewrite Rminus_eq_0, <- (held_skip ws we cov s Hw Hs E). apply (is_RInt_point f).
      - apply Rleb_false in E. destruct (held_reach ws we cov s Hw Hs E) as [-> ->].
        rewrite nth_integral_map by (rewrite ?(Hq q (or_introl eq_refl)); lia).
        match goal with |- is_RInt f ?x ?y (?A + ?B - ?A) => replace (A + B - A) with B by ring end.
        eapply is_RInt_ext; [|apply integral_scaled; exact Hs]. intros x Hx. cbn beta.
        rewrite (Rmin_left (Rmax ws cov)), (Rmax_right (Rmax ws cov)) in Hx by lra. symmetry.
        assert (M1 := Rmax_r ws cov). assert (M2 := Rmin_r we (cov + s)).
        rewrite (Hf 0%nat x ltac:(cbn; lia)); [cbn [nth]; rewrite piece_start_0, Rplus_0_r; reflexivity|].
        rewrite piece_start_S, piece_start_0. cbn [nth]. lra. }
    replace (nth axis (integral_walk pieces spans ws we (cov + s) areas') 0 - nth axis areas 0)
      with (plus (nth axis areas' 0 - nth axis areas 0) (nth axis (integral_walk pieces spans ws we (cov + s) areas') 0 - nth axis areas' 0))
      by (unfold plus; cbn; ring).
    apply (is_RInt_Chasles f _ (held ws we (cov + s))); [exact F|].
    apply IH; auto; [intros; apply Hq; right; assumption|].
    intros k u Hk Hu. rewrite (Hf (S k) u ltac:(cbn; lia)).
    + cbn [nth]. rewrite piece_start_cons. f_equal. f_equal. ring.
    + rewrite !piece_start_cons. lra.
Qed.
