(** Closest points of two segments, and the distance of two solids about them. *)
From Coq Require Import ZArith List Bool Arith Reals Lra Lia.
From Verif Require Import Base.Scalar Base.RNum Base.Lists Base.Series Model.Errors Model.Vector Model.Matrix Model.Quaternion Model.Lie Model.Drive Model.KinematicTree Model.Collision
  Spec.Space Spec.Matrix Spec.Rotation Spec.Quaternion Spec.Collision Proofs.Quaternion Proofs.Rotation Proofs.Space Proofs.Screw.
Import ListNotations.
Local Open Scope R_scope.
Local Notation sqrt := R_sqrt.sqrt.

(** ** Numbers *)
Lemma onto_unit_R x : onto_unit x = Rmin (Rmax x 0) 1.
Proof. unfold onto_unit. rnum. unfold default_max, default_min, Rmin, Rmax. rnum. repeat destruct (Rle_dec _ _); repeat match goal with |- context [if ?b then _ else _] => destruct b eqn:?; rcases end; try lra. Qed.
Lemma onto_unit_in x : 0 <= onto_unit x <= 1.
Proof. rewrite onto_unit_R. unfold Rmin, Rmax. repeat destruct (Rle_dec _ _); lra. Qed.
(** The nearest place of [0, 1]: everything between it and a place of [0, 1] is no further from [x] than that place. *)
Lemma onto_unit_nearest x s y : 0 <= s <= 1 -> (onto_unit x <= y <= s \/ s <= y <= onto_unit x) -> (y - x) * (y - x) <= (s - x) * (s - x).
Proof. rewrite onto_unit_R. unfold Rmin, Rmax. repeat destruct (Rle_dec _ _); intros S [B|B]; nra. Qed.
Lemma discriminant p q m : 0 <= m -> (forall x, 0 <= p + 2 * x * q + m * (x * x)) -> q * q <= m * p.
Proof.
  intros M H. destruct M as [G|Z].
  - specialize (H (- q / m)). replace (p + 2 * (- q / m) * q + m * (- q / m * (- q / m))) with (p - q * q / m) in H by (field; lra). apply Rmult_le_reg_r with (/ m); [apply Rinv_0_lt_compat, G|]. replace (m * p * / m) with p by (field; lra). unfold Rdiv in H. lra.
  - subst m. assert (q = 0); [|subst; lra]. destruct (Req_dec q 0) as [E|E]; [exact E|exfalso]. specialize (H (- (p + 1) / (2 * q))). replace (2 * (- (p + 1) / (2 * q)) * q) with (- (p + 1)) in H by (field; exact E). lra.
Qed.
(** The root of a quadratic that is nowhere negative changes no faster than the root of its leading coefficient says. *)
Lemma slope p q m y : 0 <= m -> (forall x, 0 <= p + 2 * x * q + m * (x * x)) -> sqrt (p + 2 * y * q + m * (y * y)) <= sqrt p + sqrt m * Rabs y.
Proof.
  intros M H. pose proof (discriminant p q m M H) as D. assert (P : 0 <= p) by (specialize (H 0); lra). pose proof (sqrt_pos p) as Sp. pose proof (sqrt_pos m) as Sm. pose proof (sqrt_sqrt p P) as Ep. pose proof (sqrt_sqrt m M) as Em. pose proof (Rabs_pos y) as Y.
  assert (B : 0 <= sqrt m * Rabs y) by (apply Rmult_le_pos; assumption).
  rewrite <- (sqrt_square (sqrt p + sqrt m * Rabs y)) by lra. apply sqrt_le_1_alt.
  assert (Q : Rabs q <= sqrt m * sqrt p). { rewrite <- (sqrt_mult m p M P), <- sqrt_Rsqr_abs. apply sqrt_le_1_alt. unfold Rsqr. exact D. }
  assert (YY : Rabs y * Rabs y = y * y) by (rewrite <- Rabs_mult; apply Rabs_right; nra).
  assert (yq : y * q <= Rabs y * (sqrt m * sqrt p)). { apply Rle_trans with (Rabs (y * q)); [apply Rle_abs|]. rewrite Rabs_mult. apply Rmult_le_compat_l; assumption. }
  replace ((sqrt p + sqrt m * Rabs y) * (sqrt p + sqrt m * Rabs y)) with (sqrt p * sqrt p + 2 * (Rabs y * (sqrt m * sqrt p)) + (sqrt m * sqrt m) * (Rabs y * Rabs y)) by ring. rewrite Ep, Em, YY. lra.
Qed.
Lemma slope_unit p q m y : 0 <= m -> (forall x, 0 <= p + 2 * x * q + m * (x * x)) -> Rabs y <= 1 -> sqrt (p + 2 * y * q + m * (y * y)) <= sqrt p + sqrt m.
Proof. intros M H Y. pose proof (slope p q m y M H). pose proof (sqrt_pos m). nra. Qed.

(** ** The two parameters *)
Section Parameters.
  Variables a e b c f h : R.
  Definition gap (s t : R) : R := h + a * (s * s) + e * (t * t) + 2 * s * c - 2 * t * f - 2 * s * t * b.
  Hypothesis A : 0 <= a.
  Hypothesis E : 0 <= e.
  Hypothesis Gap : forall s t, 0 <= gap s t.
  Let square (s t : R) := 0 <= s <= 1 /\ 0 <= t <= 1.

  Lemma gap_first s s' t : 0 <= s <= 1 -> 0 <= s' <= 1 -> sqrt (gap s' t) <= sqrt (gap s t) + sqrt a.
  Proof.
    intros S1 S2. replace (gap s' t) with (gap s t + 2 * (s' - s) * (a * s + c - t * b) + a * ((s' - s) * (s' - s))) by (unfold gap; ring).
    apply slope_unit; [exact A| |apply Rabs_le; lra]. intros x. replace (_ + _) with (gap (s + x) t) by (unfold gap; ring). apply Gap.
  Qed.
  Lemma gap_second s t t' : 0 <= t <= 1 -> 0 <= t' <= 1 -> sqrt (gap s t') <= sqrt (gap s t) + sqrt e.
  Proof.
    intros S1 S2. replace (gap s t') with (gap s t + 2 * (t' - t) * (e * t - f - s * b) + e * ((t' - t) * (t' - t))) by (unfold gap; ring).
    apply slope_unit; [exact E| |apply Rabs_le; lra]. intros x. replace (_ + _) with (gap s (t + x)) by (unfold gap; ring). apply Gap.
  Qed.
  (** The best place of the first for a place of the second, and the other way round *)
  Lemma best_first t s : 0 < a -> 0 <= s <= 1 -> gap (onto_unit ((t * b - c) / a)) t <= gap s t.
  Proof.
    intros P S1. pose proof (onto_unit_nearest ((t * b - c) / a) s (onto_unit ((t * b - c) / a)) S1) as N. set (k := (t * b - c) / a) in *. set (y := onto_unit k) in *.
    assert (K : a * k = t * b - c) by (unfold k; field; lra). assert (N' : (y - k) * (y - k) <= (s - k) * (s - k)) by (apply N; lra).
    apply Rmult_le_compat_l with (r := a) in N'; [|lra].
    assert (forall x, gap x t = a * ((x - k) * (x - k)) + (gap 0 t - a * (k * k))) as X. { intros x. unfold gap. replace (a * ((x - k) * (x - k))) with (a * (x * x) - 2 * x * (a * k) + a * (k * k)) by ring. rewrite K. ring. }
    rewrite (X y), (X s). lra.
  Qed.
  Lemma best_second t s : 0 < e -> 0 <= t <= 1 -> gap s (onto_unit ((b * s + f) / e)) <= gap s t.
  Proof.
    intros P S1. pose proof (onto_unit_nearest ((b * s + f) / e) t (onto_unit ((b * s + f) / e)) S1) as N. set (k := (b * s + f) / e) in *. set (y := onto_unit k) in *.
    assert (K : e * k = b * s + f) by (unfold k; field; lra). assert (N' : (y - k) * (y - k) <= (t - k) * (t - k)) by (apply N; lra).
    apply Rmult_le_compat_l with (r := e) in N'; [|lra].
    assert (forall x, gap s x = e * ((x - k) * (x - k)) + (gap s 0 - e * (k * k))) as X. { intros x. unfold gap. replace (e * ((x - k) * (x - k))) with (e * (x * x) - 2 * x * (e * k) + e * (k * k)) by ring. rewrite K. ring. }
    rewrite (X y), (X t). lra.
  Qed.

  Section Long.
    Hypothesis P : 0 < a.
    Hypothesis Q : 0 < e.
    Definition along (s : R) : R := (b * s + f) / e.
    Definition rest (s : R) : R := gap s (along s).
    Lemma along_e s : e * along s = b * s + f. Proof. unfold along. field. lra. Qed.
    Lemma gap_rest s t : gap s t = rest s + e * ((t - along s) * (t - along s)).
    Proof. unfold rest. pose proof (along_e s) as K. set (k := along s) in *. unfold gap. replace (e * ((t - k) * (t - k))) with (e * (t * t) - 2 * t * (e * k) + e * (k * k)) by ring. replace (e * (k * k)) with ((e * k) * k) by ring. rewrite !K. ring. Qed.
    Lemma rest_le s t : rest s <= gap s t. Proof. rewrite gap_rest. pose proof (Rmult_le_pos e ((t - along s) * (t - along s)) E (Rle_0_sqr _)). lra. Qed.
    Let m := (a * e - b * b) / e.
    Lemma rest_from s x : rest (s + x) = rest s + 2 * x * (m * s + (c * e - b * f) / e) + m * (x * x).
    Proof. unfold rest, gap, along, m. field. lra. Qed.
    Lemma across_nonneg : 0 <= m.
    Proof.
      assert (D : b * b <= a * e).
      { apply (discriminant e b a A). intros x. destruct (Rle_dec 0 (e + 2 * x * b + a * (x * x))) as [G|N]; [exact G|exfalso]. apply Rnot_le_lt in N. set (w := e + 2 * x * b + a * (x * x)) in *.
        (* along the line (k x, -k) the gap is h + k^2 w + 2 k (..) *)
        assert (L : forall k, gap (k * x) (- k) = h + 2 * k * (x * c + f) + w * (k * k)) by (intros k; unfold gap, w; ring).
        assert (B : 0 <= h - (x * c + f) * (x * c + f) / w). { specialize (Gap ((- (x * c + f) / w) * x) (- (- (x * c + f) / w))). rewrite L in Gap. replace (h - _) with (h + 2 * (- (x * c + f) / w) * (x * c + f) + w * (- (x * c + f) / w * (- (x * c + f) / w))) by (field; lra). exact Gap. }
        set (v := (x * c + f)) in *. pose proof (Gap ((- v / w + sqrt ((h - v * v / w + 1) / - w)) * x) (- (- v / w + sqrt ((h - v * v / w + 1) / - w)))) as X. rewrite L in X. set (z := sqrt ((h - v * v / w + 1) / - w)) in *.
        assert (Z : z * z = (h - v * v / w + 1) / - w). { apply sqrt_sqrt. apply Rmult_le_pos; [lra|]. left. apply Rinv_0_lt_compat. lra. }
        replace (h + 2 * (- v / w + z) * v + w * ((- v / w + z) * (- v / w + z))) with (h - v * v / w + w * (z * z)) in X by (field; lra). rewrite Z in X. replace (w * ((h - v * v / w + 1) / - w)) with (- (h - v * v / w + 1)) in X by (field; lra). lra. }
      unfold m. apply Rmult_le_pos; [lra|]. left. apply Rinv_0_lt_compat, Q.
    Qed.
    Lemma rest_slope s x : 0 <= s <= 1 -> 0 <= x <= 1 -> sqrt (rest x) <= sqrt (rest s) + sqrt m.
    Proof.
      intros S1 X1. replace x with (s + (x - s)) by ring. rewrite rest_from. apply slope_unit; [apply across_nonneg| |apply Rabs_le; lra]. intros y. rewrite <- rest_from. apply Gap.
    Qed.
    Lemma rest_best s x : 0 < m -> let s0 := onto_unit ((b * f - c * e) / (a * e - b * b)) in 0 <= s <= 1 -> (s0 <= x <= s \/ s <= x <= s0) -> rest x <= rest s.
    Proof.
      intros M s0 S1 B. assert (D : a * e - b * b <> 0) by (intros Z; unfold m in M; rewrite Z in M; unfold Rdiv in M; lra).
      pose proof (onto_unit_nearest ((b * f - c * e) / (a * e - b * b)) s x S1 B) as N. set (k := (b * f - c * e) / (a * e - b * b)) in *.
      assert (K : forall y, rest y = rest k + m * ((y - k) * (y - k))). { intros y. replace y with (k + (y - k)) at 1 by ring. rewrite rest_from. replace (m * k + (c * e - b * f) / e) with 0; [ring|]. unfold m, k. field. split; [lra|exact D]. }
      rewrite (K x), (K s). apply Rplus_le_compat_l, Rmult_le_compat_l; lra.
    Qed.

    (** From a place [s0] such that between it and any [s] the rest is at most [delta] above that at [s] *)
    Lemma from_candidate s0 delta : 0 <= s0 <= 1 -> 0 <= delta -> (forall s x, 0 <= s <= 1 -> (s0 <= x <= s \/ s <= x <= s0) -> sqrt (rest x) <= sqrt (rest s) + delta) ->
      let '(s', t') := if Rlt_dec (along s0) 0 then (onto_unit (- c / a), 0) else if Rlt_dec 1 (along s0) then (onto_unit ((b - c) / a), 1) else (s0, along s0) in
      square s' t' /\ forall s t, square s t -> sqrt (gap s' t') <= sqrt (gap s t) + delta.
    Proof.
      intros S0 D N.
      assert (Edge : forall t1, (t1 = 0 \/ t1 = 1) -> (forall s t, square s t -> (t1 - along s) * (t1 - along s) <= (t - along s) * (t - along s) \/ exists x, (s0 <= x <= s \/ s <= x <= s0) /\ along x = t1) ->
        forall s t, square s t -> sqrt (gap (onto_unit ((t1 * b - c) / a)) t1) <= sqrt (gap s t) + delta).
      { intros t1 T1 H s t S1. destruct (H s t S1) as [C|(x & X & C)].
        - apply Rle_trans with (sqrt (gap s t)); [|lra]. apply sqrt_le_1_alt. apply Rle_trans with (gap s t1); [apply best_first; [exact P|apply S1]|]. rewrite !gap_rest. apply Rplus_le_compat_l, Rmult_le_compat_l; lra.
        - assert (X1 : 0 <= x <= 1) by (destruct S1 as [? _]; lra). apply Rle_trans with (sqrt (rest x)).
          + apply sqrt_le_1_alt. apply Rle_trans with (gap x t1); [apply best_first; assumption|]. unfold rest. rewrite C. lra.
          + apply Rle_trans with (sqrt (rest s) + delta); [apply N; [apply S1|exact X]|]. apply Rplus_le_compat_r. apply sqrt_le_1_alt, rest_le. }
      assert (Between : forall t1 s, (along s0 < t1 < along s \/ along s < t1 < along s0) -> exists x, (s0 <= x <= s \/ s <= x <= s0) /\ along x = t1).
      { intros t1 s H. assert (J : (b * s0 + f < e * t1 < b * s + f \/ b * s + f < e * t1 < b * s0 + f)). { rewrite <- !along_e. destruct H as [H|H]; [left|right]; split; apply Rmult_lt_compat_l; lra. }
        assert (B : b <> 0) by (intros Z; rewrite Z in J; lra). exists ((e * t1 - f) / b). split; [|unfold along; field; split; lra].
        assert (V : b * ((e * t1 - f) / b) = e * t1 - f) by (field; exact B). set (x := (e * t1 - f) / b) in *. destruct (Rtotal_order b 0) as [B'|[B'|B']]; [|contradiction|]; destruct J as [J|J]; [right|left|left|right]; split; nra. }
      destruct (Rlt_dec (along s0) 0) as [L|L].
      { split; [split; [apply onto_unit_in|lra]|]. replace (- c / a) with ((0 * b - c) / a) by (field; lra). apply Edge; [left; reflexivity|]. intros s t S1. destruct (Rlt_dec 0 (along s)) as [U|U].
        - right. apply Between. lra.
        - left. destruct S1 as [_ T1]. nra. }
      destruct (Rlt_dec 1 (along s0)) as [U|U].
      { split; [split; [apply onto_unit_in|lra]|]. replace ((b - c) / a) with ((1 * b - c) / a) by (field; lra). apply Edge; [right; reflexivity|]. intros s t S1. destruct (Rlt_dec (along s) 1) as [V|V].
        - right. apply Between. lra.
        - left. destruct S1 as [_ T1]. nra. }
      split; [split; lra|]. intros s t S1. change (gap s0 (along s0)) with (rest s0). apply Rle_trans with (sqrt (rest s) + delta); [apply N; [apply S1|]|].
      - destruct (Rle_dec s0 s); [left|right]; lra.
      - apply Rplus_le_compat_r. apply sqrt_le_1_alt, rest_le.
    Qed.
  End Long.

  Definition excess : R := let eps := / IZR (2^52) in
    if Rle_dec a eps then (if Rle_dec e eps then sqrt a + sqrt e else sqrt a)
    else if Rle_dec e eps then sqrt e
    else if Rle_dec (a * e - b * b) eps then sqrt ((a * e - b * b) / e) else 0.
  Lemma parameters_best : let '(s', t') := match closest_parameters a e b c f with Some p => p | None => (0, 0) end in
    square s' t' /\ forall s t, square s t -> sqrt (gap s' t') <= sqrt (gap s t) + excess.
  Proof.
    assert (Eps : 0 < / IZR (2^52)) by (apply Rinv_0_lt_compat, IZR_lt; reflexivity). unfold closest_parameters, excess. rnum. set (eps := / IZR (2^52)) in *. cbv zeta.
    destruct (Rle_dec a eps) as [SA|SA].
    - rewrite (proj2 (Rleb_true a eps) SA). destruct (Rle_dec e eps) as [SE|SE].
      + rewrite (proj2 (Rleb_true e eps) SE). cbn [andb]. split; [split; lra|]. intros s t [S1 T1]. pose proof (gap_first s 0 0 S1 ltac:(lra)). pose proof (gap_second s t 0 T1 ltac:(lra)). lra.
      + apply Rnot_le_lt in SE. rewrite (proj2 (Rleb_false e eps) SE). cbn [andb]. split; [split; [lra|apply onto_unit_in]|]. intros s t [S1 T1]. apply Rle_trans with (sqrt (gap 0 t)); [|apply gap_first; [exact S1|lra]]. apply sqrt_le_1_alt. replace (f / e) with ((b * 0 + f) / e) by (field; lra). apply best_second; [lra|exact T1].
    - apply Rnot_le_lt in SA. rewrite (proj2 (Rleb_false a eps) SA). cbn [andb]. destruct (Rle_dec e eps) as [SE|SE].
      + rewrite (proj2 (Rleb_true e eps) SE). split; [split; [apply onto_unit_in|lra]|]. intros s t [S1 T1]. apply Rle_trans with (sqrt (gap s 0)); [|apply gap_second; [exact T1|lra]]. apply sqrt_le_1_alt. replace (- c / a) with ((0 * b - c) / a) by (field; lra). apply best_first; [lra|exact S1].
      + apply Rnot_le_lt in SE. rewrite (proj2 (Rleb_false e eps) SE). assert (P : 0 < a) by lra. assert (Q : 0 < e) by lra.
        assert (Finish : forall s0 delta, 0 <= s0 <= 1 -> 0 <= delta -> (forall s x, 0 <= s <= 1 -> (s0 <= x <= s \/ s <= x <= s0) -> sqrt (rest x) <= sqrt (rest s) + delta) ->
          let '(s', t') := (if Rltb ((b * s0 + f) / e) 0 then (onto_unit (- c / a), 0) else if Rltb 1 ((b * s0 + f) / e) then (onto_unit ((b - c) / a), 1) else (s0, (b * s0 + f) / e)) in
          square s' t' /\ forall s t, square s t -> sqrt (gap s' t') <= sqrt (gap s t) + delta).
        { intros s0 delta S0 D N. pose proof (from_candidate P Q s0 delta S0 D N) as X. change ((b * s0 + f) / e) with (along s0).
          destruct (Rlt_dec (along s0) 0) as [L|L]; [rewrite (proj2 (Rltb_true _ _) L); exact X|]. apply Rnot_lt_le in L. rewrite (proj2 (Rltb_false _ _) L).
          destruct (Rlt_dec 1 (along s0)) as [U|U]; [rewrite (proj2 (Rltb_true _ _) U); exact X|]. apply Rnot_lt_le in U. rewrite (proj2 (Rltb_false _ _) U). exact X. }
        destruct (Rle_dec (a * e - b * b) eps) as [SD|SD].
        * rewrite (proj2 (Rltb_false eps (a * e - b * b)) SD). apply Finish; [lra|apply sqrt_pos|]. intros s x S1 X1. apply rest_slope; lra.
        * apply Rnot_le_lt in SD. rewrite (proj2 (Rltb_true eps (a * e - b * b)) SD). apply Finish; [apply onto_unit_in|lra|]. intros s x S1 X1. rewrite Rplus_0_r. apply sqrt_le_1_alt. apply rest_best; try assumption. apply Rmult_lt_0_compat; [lra|apply Rinv_0_lt_compat, Q].
  Qed.
End Parameters.

(** ** Points *)
Lemma cauchy u v : inner u v <= length u * length v.
Proof.
  assert (N : forall w, 0 <= inner w w) by (intros [[x y] z]; cbn; nra). unfold length. rewrite <- sqrt_mult by apply N. apply Rle_trans with (Rabs (inner u v)); [apply Rle_abs|]. rewrite <- sqrt_Rsqr_abs. apply sqrt_le_1_alt. unfold Rsqr.
  pose proof (N (outer u v)) as O. replace (inner u u * inner v v) with (inner u v * inner u v + inner (outer u v) (outer u v)); [lra|]. destruct u as [[? ?] ?], v as [[? ?] ?]. cbn. ring.
Qed.
Lemma length_triangle u v : length (together u v) <= length u + length v.
Proof.
  pose proof (length_nonneg u). pose proof (length_nonneg v). pose proof (length_nonneg (together u v)). pose proof (length_sqr u) as U. pose proof (length_sqr v) as V. pose proof (length_sqr (together u v)) as W. pose proof (cauchy u v) as C.
  replace (inner (together u v) (together u v)) with (inner u u + 2 * inner u v + inner v v) in W by (destruct u as [[? ?] ?], v as [[? ?] ?]; cbn; ring).
  apply Rnot_lt_le. intros X. nra.
Qed.
Lemma far_triangle p q r : far p r <= far p q + far q r.
Proof. unfold far. replace (together p (multiple (-1) r)) with (together (together p (multiple (-1) q)) (together q (multiple (-1) r))); [apply length_triangle|]. flat. Qed.
Lemma far_sym p q : far p q = far q p.
Proof. unfold far, length. f_equal. flat. Qed.
Lemma far_self p : far p p = 0.
Proof. unfold far. rewrite together_neg. apply length_origin. Qed.
Lemma far_nonneg p q : 0 <= far p q. Proof. apply length_nonneg. Qed.
Lemma far_act g p q : unit_se3 g -> far (se3_act g p) (se3_act g q) = far p q.
Proof.
  intros U. unfold far, length. f_equal. unfold se3_act, so3_act. rewrite !add3_R. rewrite <- (rotate_inner (se3_rotation g) (together p (multiple (-1) q)) (together p (multiple (-1) q)) U). rewrite transform_together, transform_multiple'.
  f_equal; set (u := transform_point _ p); set (v := transform_point _ q); set (w := se3_translation g); clearbody u v w; flat.
Qed.
Definition toward (p q : point) (k : R) : point := together p (multiple k (together q (multiple (-1) p))).
Lemma toward_far p q k l : far (toward p q k) (toward p q l) = Rabs (k - l) * far p q.
Proof.
  unfold far, toward. replace (together (together p _) _) with (multiple (l - k) (together p (multiple (-1) q))) by flat. rewrite length_multiple. f_equal. rewrite <- Rabs_Ropp. f_equal. ring.
Qed.
Lemma toward_0 p q : toward p q 0 = p. Proof. unfold toward. flat. Qed.
Lemma toward_1 p q : toward p q 1 = q. Proof. unfold toward. flat. Qed.

(** ** Solids: everything within a radius of a core *)
Definition core (shape : Primitive R) (pose : se3 R) (x : point) : Prop :=
  match shape with Sphere _ => x = se3_act pose (0, 0, 0) | Capsule _ half_length => exists z, - half_length <= z <= half_length /\ x = se3_act pose (0, 0, z) end.
Definition reach (shape : Primitive R) : R := match shape with Sphere radius | Capsule radius _ => radius end.
Lemma act_back g p : unit_se3 g -> exists p', p = se3_act g p'.
Proof. intros U. exists (se3_act (se3_inverse g) p). rewrite <- se3_act_compose. rewrite (proj1 (se3_inverses g U)). unfold se3_act, so3_act, se3_identity. cbn [se3_rotation se3_translation]. rewrite add3_R. destruct p as [[x y] z]. unfold transform_point, quat_identity. cbn. rnum. apply point_eq; ring. Qed.
Lemma occupies_core shape pose p : unit_se3 pose -> (occupies shape pose p <-> exists x, core shape pose x /\ far p x <= reach shape).
Proof.
  intros U. unfold occupies. destruct shape as [r|r hl]; cbn [solid core reach].
  - split.
    + intros (p' & S1 & ->). eexists. split; [reflexivity|]. rewrite far_act by exact U. exact S1.
    + intros (x & -> & S1). destruct (act_back pose p U) as [p' ->]. exists p'. rewrite far_act in S1 by exact U. split; [exact S1|reflexivity].
  - split.
    + intros (p' & (z & Z & S1) & ->). exists (se3_act pose (0, 0, z)). split; [exists z; split; [exact Z|reflexivity]|]. rewrite far_act by exact U. exact S1.
    + intros (x & (z & Z & ->) & S1). destruct (act_back pose p U) as [p' ->]. exists p'. rewrite far_act in S1 by exact U. split; [exists z; split; assumption|reflexivity].
Qed.

Lemma solids_measured shape pose other other_pose x y e : unit_se3 pose -> unit_se3 other_pose -> 0 <= reach shape -> 0 <= reach other -> core shape pose x -> core other other_pose y ->
  (forall x' y', core shape pose x' -> core other other_pose y' -> far x y <= far x' y' + e) ->
  measures (far x y - reach shape - reach other) e (occupies shape pose) (occupies other other_pose).
Proof.
  intros U V R1 R2 X Y N. set (r := reach shape) in *. set (r' := reach other) in *. set (D := far x y) in *. assert (DD : 0 <= D) by apply far_nonneg. split; [|split].
  - intros p q P Q. apply (occupies_core _ _ _ U) in P. apply (occupies_core _ _ _ V) in Q. destruct P as (x' & X' & P), Q as (y' & Y' & Q). fold r in P. fold r' in Q. specialize (N x' y' X' Y'). pose proof (far_triangle x' p y'). pose proof (far_triangle p q y'). rewrite (far_sym x' p) in *. lra.
  - intros L. destruct (Req_dec D 0) as [Z|Z].
    + exists x, y. rewrite (occupies_core _ _ _ U), (occupies_core _ _ _ V). split; [exists x; split; [exact X|rewrite far_self; exact R1]|]. split; [exists y; split; [exact Y|rewrite far_self; exact R2]|]. fold D. lra.
    + assert (D0 : 0 < D) by lra. exists (toward x y (r / D)), (toward x y (1 - r' / D)). rewrite (occupies_core _ _ _ U), (occupies_core _ _ _ V).
      assert (K : forall k l, 0 <= k - l -> far (toward x y k) (toward x y l) = (k - l) * D) by (intros k l H; rewrite toward_far, Rabs_right by lra; reflexivity).
      assert (RD : 0 <= r / D) by (apply Rmult_le_pos; [exact R1|left; apply Rinv_0_lt_compat, D0]). assert (RD' : 0 <= r' / D) by (apply Rmult_le_pos; [exact R2|left; apply Rinv_0_lt_compat, D0]).
      assert (E1 : r / D * D = r) by (field; exact Z). assert (E2 : r' / D * D = r') by (field; exact Z).
      split; [exists x; split; [exact X|]; rewrite <- (toward_0 x y) at 2; rewrite K by lra; fold r; lra|]. split; [exists y; split; [exact Y|]; rewrite <- (toward_1 x y) at 2; rewrite far_sym, K by lra; fold r'; lra|].
      rewrite far_sym, K; [nra|]. apply Rmult_le_reg_r with D; [exact D0|]. lra.
  - intros L. destruct (Rle_dec D r) as [A|A].
    + exists y. rewrite (occupies_core _ _ _ U), (occupies_core _ _ _ V). split; [exists x; split; [exact X|]; rewrite far_sym; exact A|]. exists y. split; [exact Y|]. rewrite far_self. exact R2.
    + apply Rnot_le_lt in A. assert (D0 : 0 < D) by lra. exists (toward x y (r / D)). rewrite (occupies_core _ _ _ U), (occupies_core _ _ _ V).
      assert (RD : 0 <= r / D) by (apply Rmult_le_pos; [exact R1|left; apply Rinv_0_lt_compat, D0]). assert (E1 : r / D * D = r) by (field; lra). assert (RD1 : r / D <= 1) by (apply Rmult_le_reg_r with D; lra).
      split; [exists x; split; [exact X|]; rewrite <- (toward_0 x y) at 2; rewrite toward_far, Rabs_right by lra; fold D r; lra|]. exists y. split; [exact Y|]. rewrite <- (toward_1 x y) at 2. rewrite far_sym, toward_far, Rabs_right by lra. fold D r'. lra.
Qed.

Lemma act_axis pose z : se3_act pose (0, 0, z) = together (se3_translation pose) (multiple z (upright pose)).
Proof. unfold se3_act, so3_act, upright. rewrite add3_R, <- transform_multiple', together_comm. f_equal. f_equal. unfold multiple. apply point_eq; ring. Qed.
Lemma act_centre pose : se3_act pose (0, 0, 0) = se3_translation pose.
Proof. rewrite act_axis. set (u := upright pose). set (w := se3_translation pose). clearbody u w. flat. Qed.
Lemma segment_R pose hl : capsule_segment pose hl = (se3_act pose (0, 0, - hl), se3_act pose (0, 0, hl)).
Proof. unfold capsule_segment, capsule_axis, so3_act. change (transform_point (se3_rotation pose) (zero, zero, one)) with (upright pose). rewrite !act_axis, sub3_R, add3_R, scale3_R. f_equal. set (u := upright pose). set (w := se3_translation pose). clearbody u w. flat. Qed.
(** The place of the axis that a parameter names *)
Definition station (hl s : R) : R := hl * (2 * s - 1).
Lemma station_R pose hl s : toward (se3_act pose (0, 0, - hl)) (se3_act pose (0, 0, hl)) s = se3_act pose (0, 0, station hl s).
Proof. unfold toward. rewrite !act_axis. unfold station. set (u := upright pose). set (w := se3_translation pose). clearbody u w. flat. Qed.
Lemma station_in hl s : 0 <= hl -> 0 <= s <= 1 -> - hl <= station hl s <= hl.
Proof. unfold station. nra. Qed.
Lemma station_of hl z : 0 <= hl -> - hl <= z <= hl -> exists s, 0 <= s <= 1 /\ z = station hl s.
Proof.
  intros H Z. unfold station. destruct (Req_dec hl 0) as [E|E]; [exists 0; nra|]. exists ((z + hl) / (2 * hl)). split; [|field; exact E].
  split; [apply Rmult_le_pos; [lra|left; apply Rinv_0_lt_compat; lra]|]. apply Rmult_le_reg_r with (2 * hl); [lra|]. unfold Rdiv. rewrite Rmult_assoc, Rinv_l by lra. lra.
Qed.
Lemma upright_unit pose : unit_se3 pose -> inner (upright pose) (upright pose) = 1.
Proof. intros U. unfold upright. rewrite (rotate_inner _ _ _ U). cbn. ring. Qed.

(** The six products of two segments give the squared distance of their points. *)
Lemma gap_R (p p' q q' : point) s t : let d := together p' (multiple (-1) p) in let d' := together q' (multiple (-1) q) in let r := together p (multiple (-1) q) in
  far (toward p p' s) (toward q q' t) = sqrt (gap (inner d d) (inner d' d') (inner d d') (inner d r) (inner d' r) (inner r r) s t).
Proof. cbv zeta. unfold far, length, gap, toward. f_equal. flat. Qed.
Lemma closest_R (p p' q q' : point) : let d := together p' (multiple (-1) p) in let d' := together q' (multiple (-1) q) in let r := together p (multiple (-1) q) in
  exists s t, closest_points_between_segments p p' q q' = (toward p p' s, toward q q' t) /\ 0 <= s <= 1 /\ 0 <= t <= 1 /\
  forall s' t', 0 <= s' <= 1 -> 0 <= t' <= 1 -> far (toward p p' s) (toward q q' t) <= far (toward p p' s') (toward q q' t') + excess (inner d d) (inner d' d') (inner d d').
Proof.
  intros d d' r. pose proof (parameters_best (inner d d) (inner d' d') (inner d d') (inner d r) (inner d' r) (inner r r) (inner_nonneg d) (inner_nonneg d')) as B.
  assert (G : forall s t, 0 <= gap (inner d d) (inner d' d') (inner d d') (inner d r) (inner d' r) (inner r r) s t).
  { intros s t. replace (gap _ _ _ _ _ _ s t) with (inner (together (toward p p' s) (multiple (-1) (toward q q' t))) (together (toward p p' s) (multiple (-1) (toward q q' t)))); [apply inner_nonneg|]. unfold gap, toward, d, d', r. clear. flat. }
  specialize (B G). unfold closest_points_between_segments. rewrite !sub3_R. fold d d' r. rewrite !dot3_R.
  destruct (closest_parameters (inner d d) (inner d' d') (inner d d') (inner d r) (inner d' r)) as [[s t]|]; [exists s, t|exists 0, 0]; destruct B as [[S1 T1] B].
  - split; [rewrite !add3_R, !scale3_R; reflexivity|]. split; [exact S1|]. split; [exact T1|]. intros s' t' S' T'. rewrite !gap_R. apply B. split; assumption.
  - split; [rewrite !toward_0; reflexivity|]. split; [exact S1|]. split; [exact T1|]. intros s' t' S' T'. rewrite !gap_R. apply B. split; assumption.
Qed.
Lemma closest_point_R (c p q : point) : let d := together q (multiple (-1) p) in
  exists s, closest_point_on_segment c p q = toward p q s /\ 0 <= s <= 1 /\
  forall s', 0 <= s' <= 1 -> far c (toward p q s) <= far c (toward p q s') + (if Rle_dec (inner d d) (/ IZR (2^52)) then sqrt (inner d d) else 0).
Proof.
  intros d. assert (Eps : 0 < / IZR (2^52)) by (apply Rinv_0_lt_compat, IZR_lt; reflexivity). set (r := together c (multiple (-1) p)).
  assert (F : forall s, far c (toward p q s) = sqrt (gap 0 (inner d d) 0 0 (inner d r) (inner r r) 0 s)). { intros s. unfold far, length. f_equal. unfold gap, toward, d, r. clear. flat. }
  assert (G : forall s t, 0 <= gap 0 (inner d d) 0 0 (inner d r) (inner r r) s t). { intros s t. replace (gap _ _ _ _ _ _ s t) with (inner (together c (multiple (-1) (toward p q t))) (together c (multiple (-1) (toward p q t)))); [apply inner_nonneg|]. unfold gap, toward, d, r. clear. flat. }
  unfold closest_point_on_segment. rewrite !sub3_R. fold d r. rewrite !dot3_R, add3_R, scale3_R. rnum. destruct (Rle_dec (inner d d) (/ IZR (2^52))) as [S1|S1].
  - rewrite (proj2 (Rleb_true _ _) S1). exists 0. split; [rewrite toward_0; reflexivity|]. split; [lra|]. intros s' S'. rewrite !F. apply (gap_second 0 (inner d d) 0 0 (inner d r) (inner r r) (inner_nonneg d) G); lra.
  - apply Rnot_le_lt in S1. rewrite (proj2 (Rleb_false _ _) S1). eexists. split; [reflexivity|]. split; [apply onto_unit_in|]. intros s' S'. rewrite !F, Rplus_0_r. apply sqrt_le_1_alt.
    replace (inner r d / inner d d) with ((0 * 0 + inner d r) / inner d d) by (replace (inner r d) with (inner d r) by (clear; unfold d, r; flat); unfold Rdiv; ring). apply best_second; lra.
Qed.

Lemma direction_R pose hl : together (se3_act pose (0, 0, hl)) (multiple (-1) (se3_act pose (0, 0, - hl))) = multiple (2 * hl) (upright pose).
Proof. rewrite !act_axis. set (u := upright pose). set (w := se3_translation pose). clearbody u w. flat. Qed.
Lemma short_sqrt hl : 0 <= hl -> sqrt ((2 * hl) ^ 2) = 2 * hl.
Proof. intros H. apply sqrt_pow2. lra. Qed.

Lemma distance_measures shape pose other other_pose : unit_se3 pose -> unit_se3 other_pose -> proper_shape shape -> proper_shape other ->
  measures (distance_to shape pose other other_pose) (too_large_by shape pose other other_pose) (occupies shape pose) (occupies other other_pose).
Proof.
  assert (Half : forall sp r1 r2 p c hl, unit_se3 p -> unit_se3 c -> sp = Sphere r1 -> 0 <= r1 -> 0 <= r2 -> 0 <= hl ->
    exists y, sphere_capsule_distance p r1 c r2 hl = far (se3_act p (0, 0, 0)) y - r1 - r2 /\ core (Capsule r2 hl) c y /\ forall y', core (Capsule r2 hl) c y' -> far (se3_act p (0, 0, 0)) y <= far (se3_act p (0, 0, 0)) y' + (if short hl then 2 * hl else 0)).
  { intros sp r1 r2 p c hl U V -> R1 R2 H. unfold sphere_capsule_distance. rewrite segment_R. destruct (closest_point_R (se3_translation p) (se3_act c (0, 0, - hl)) (se3_act c (0, 0, hl))) as (s & Es & S1 & B).
    rewrite Es, sub3_R, norm3_R. exists (toward (se3_act c (0, 0, - hl)) (se3_act c (0, 0, hl)) s). rewrite act_centre. split; [reflexivity|]. split; [exists (station hl s); split; [apply station_in; assumption|apply station_R]|].
    intros y' (z & Z & ->). destruct (station_of hl z H Z) as (s' & S' & ->). rewrite <- station_R. specialize (B s' S'). rewrite direction_R, inner_multiple_l, inner_multiple_r, upright_unit in B by exact V. replace (2 * hl * (2 * hl * 1)) with ((2 * hl) ^ 2) in B by ring. unfold short.
    destruct (Rle_dec ((2 * hl) ^ 2) (/ IZR (2 ^ 52))); [rewrite short_sqrt in B by exact H|]; exact B. }
  intros U V P Q. destruct shape as [r|r hl], other as [r'|r' hl']; cbn [proper_shape] in P, Q.
  - cbn [distance_to too_large_by]. unfold sphere_sphere_distance. rnum. rewrite sub3_R, norm3_R. rewrite <- !act_centre.
    apply (solids_measured (Sphere r) pose (Sphere r') other_pose (se3_act pose (0, 0, 0)) (se3_act other_pose (0, 0, 0)) 0 U V P Q); try reflexivity. intros x' y' -> ->. lra.
  - destruct Q as [Q H]. cbn [distance_to too_large_by]. destruct (Half (Sphere r) r r' pose other_pose hl' U V eq_refl P Q H) as (y & -> & C & B).
    apply (solids_measured (Sphere r) pose (Capsule r' hl') other_pose (se3_act pose (0, 0, 0)) y _ U V P Q); [reflexivity|exact C|]. intros x' y' ->. apply B.
  - destruct P as [P H]. cbn [distance_to too_large_by]. destruct (Half (Sphere r') r' r other_pose pose hl V U eq_refl Q P H) as (y & -> & C & B). rewrite far_sym in *. replace (far y (se3_act other_pose (0, 0, 0)) - r' - r) with (far y (se3_act other_pose (0, 0, 0)) - r - r') by ring.
    apply (solids_measured (Capsule r hl) pose (Sphere r') other_pose y (se3_act other_pose (0, 0, 0)) _ U V P Q); [exact C|reflexivity|]. intros x' y' X' ->. rewrite (far_sym x'). apply B, X'.
  - destruct P as [P H], Q as [Q H']. cbn [distance_to too_large_by]. unfold capsule_capsule_distance. rewrite !segment_R.
    destruct (closest_R (se3_act pose (0, 0, - hl)) (se3_act pose (0, 0, hl)) (se3_act other_pose (0, 0, - hl')) (se3_act other_pose (0, 0, hl'))) as (s & t & -> & S1 & T1 & B). rewrite sub3_R, norm3_R.
    apply (solids_measured (Capsule r hl) pose (Capsule r' hl') other_pose _ _ _ U V P Q); [exists (station hl s); split; [apply station_in; assumption|apply station_R]|exists (station hl' t); split; [apply station_in; assumption|apply station_R]|].
    intros x' y' (z & Z & ->) (z' & Z' & ->). destruct (station_of hl z H Z) as (s' & S' & ->), (station_of hl' z' H' Z') as (t' & T' & ->). rewrite <- !station_R. specialize (B s' t' S' T'). eapply Rle_trans; [exact B|]. apply Rplus_le_compat_l. clear B.
    rewrite !direction_R, !inner_multiple_l, !inner_multiple_r, !upright_unit by assumption. replace (2 * hl * (2 * hl * 1)) with ((2 * hl) ^ 2) by ring. replace (2 * hl' * (2 * hl' * 1)) with ((2 * hl') ^ 2) by ring. unfold excess, short. cbv zeta.
    assert (Eps : 0 < / IZR (2^52)) by (apply Rinv_0_lt_compat, IZR_lt; reflexivity).
    destruct (Rle_dec ((2 * hl) ^ 2) (/ IZR (2 ^ 52))) as [A|A]; destruct (Rle_dec ((2 * hl') ^ 2) (/ IZR (2 ^ 52))) as [A'|A']; try (rewrite !short_sqrt by assumption; lra).
    set (u := upright pose). set (u' := upright other_pose). assert (Len : length (outer u u') * length (outer u u') = 1 - inner u u' * inner u u').
    { rewrite length_sqr. replace (inner (outer u u') (outer u u')) with (inner u u * inner u' u' - inner u u' * inner u u') by (clear; flat). unfold u, u'. rewrite !upright_unit by assumption. ring. }
    pose proof (length_nonneg (outer u u')) as LN.
    replace ((2 * hl) ^ 2 * (2 * hl') ^ 2 - 2 * hl * (2 * hl' * inner u u') * (2 * hl * (2 * hl' * inner u u'))) with ((2 * hl * (2 * hl') * length (outer u u')) ^ 2) by (replace ((2 * hl * (2 * hl') * length (outer u u')) ^ 2) with ((2 * hl * (2 * hl')) ^ 2 * (length (outer u u') * length (outer u u'))) by ring; rewrite Len; ring).
    destruct (Rle_dec ((2 * hl * (2 * hl') * length (outer u u')) ^ 2) (/ IZR (2 ^ 52))); [|lra]. right. rewrite <- (sqrt_pow2 (2 * hl * length (outer u u'))) by nra. f_equal. field. intros Z0. rewrite Z0 in A'. apply A'. lra.
Qed.

(** ** The query *)
Section Query.
  Context {T : Type} {NT : Num T}.
  Notation candidate := (T * (CollisionSource * CollisionSource))%type.
  Definition tighten (best : T * option (CollisionSource * CollisionSource)) (x : candidate) := tighter best (fst x) (snd x).
  Lemma tighten_spec l : forall best, let r := fold_left tighten l best in
    (r = best /\ forall x, In x l -> ltb (fst x) (fst best) = false) \/ (exists x, In x l /\ r = (fst x, Some (snd x)) /\ exists y, ltb (fst x) (fst y) = true /\ (y = best \/ exists x', In x' l /\ y = (fst x', Some (snd x')))).
  Proof.
    induction l as [|x l IH]; intros best; [left; split; [reflexivity|intros _ []]|]. cbn [fold_left]. destruct (IH (tighten best x)) as [[E N]|(x' & I & E & y & Y & C)].
    - cbv zeta in E. rewrite E. unfold tighten, tighter in *. destruct (ltb (fst x) (fst best)) eqn:L.
      + right. exists x. split; [left; reflexivity|]. split; [reflexivity|]. exists best. split; [exact L|left; reflexivity].
      + left. split; [reflexivity|]. intros z [<-|Z]; [exact L|apply N, Z].
    - right. exists x'. split; [right; exact I|]. split; [exact E|]. destruct C as [C|(z & Z & C)].
      + unfold tighten, tighter in C. destruct (ltb (fst x) (fst best)); subst y; [exists (fst x, Some (snd x)); split; [exact Y|right; exists x; split; [left|]; reflexivity]|exists best; split; [exact Y|left; reflexivity]].
      + exists y. split; [exact Y|]. right. exists z. split; [right; exact Z|exact C].
  Qed.

  Definition others_of (q : collision_query T) (state : list (se3 T)) (i : nat) (a : attached T) (p : se3 T) (others : list (nat * attached T)) : list candidate :=
    flat_map (fun x : nat * attached T => if is_excluded q i (fst x) then [] else match placed state (snd x) with Ok p' => [(distance_to (at_shape a) p (at_shape (snd x)) p', (SelfPrimitive i, SelfPrimitive (fst x)))] | _ => [] end) others.
  Definition obstacles_of (i : nat) (a : attached T) (p : se3 T) (environment : list (nat * obstacle T)) : list candidate :=
    map (fun x : nat * obstacle T => (distance_to (at_shape a) p (ob_shape (snd x)) (ob_pose (snd x)), (SelfPrimitive i, Environment (fst x)))) environment.
  Definition all_of (q : collision_query T) (state : list (se3 T)) (firsts : list (nat * attached T)) : list candidate :=
    flat_map (fun x : nat * attached T => match placed state (snd x) with Ok p => others_of q state (fst x) (snd x) p (skipn (fst x + 1) (numbered (cq_self q))) ++ obstacles_of (fst x) (snd x) p (numbered (cq_environment q)) | _ => [] end) firsts.
  Definition framed (state : list (se3 T)) (a : attached T) : Prop := (at_frame a < List.length state)%nat.
  Lemma placed_ok state a : framed state a -> exists f, nth_error state (at_frame a) = Some f /\ placed state a = Ok (se3_compose f (at_local a)).
  Proof. intros F. apply nth_error_Some in F. unfold placed. destruct (nth_error state (at_frame a)) as [f|]; [|contradiction]. exists f. split; reflexivity. Qed.
  Lemma placed_bad state a : ~ framed state a -> placed state a = Err KiToolIndexOutOfRange.
  Proof. intros F. assert (N : nth_error state (at_frame a) = None) by (apply nth_error_None; unfold framed in F; lia). unfold placed. rewrite N. reflexivity. Qed.
  Lemma check_others_R q state i a p others : (forall x, In x others -> framed state (snd x)) -> forall best, check_others q state i a p others best = Ok (fold_left tighten (others_of q state i a p others) best).
  Proof.
    induction others as [|[j b] others IH]; intros F best; [reflexivity|]. cbn [check_others others_of flat_map fst snd]. fold (others_of q state i a p others). assert (F' : forall x, In x others -> framed state (snd x)) by (intros x X; apply F; right; exact X).
    destruct (is_excluded q i j); [apply IH, F'|]. destruct (placed_ok state b (F (j, b) (or_introl eq_refl))) as (f & _ & P). rewrite P. cbn [bind app fold_left]. apply IH, F'.
  Qed.
  Lemma check_others_err q state i a p others : forall best, (exists r, check_others q state i a p others best = Ok r) \/ check_others q state i a p others best = Err KiToolIndexOutOfRange.
  Proof.
    induction others as [|[j b] others IH]; intros best; [left; eexists; reflexivity|]. cbn [check_others]. destruct (is_excluded q i j); [apply IH|]. unfold placed. destruct (nth_error state (at_frame b)); cbn [ok_or bind]; [apply IH|right; reflexivity].
  Qed.
  Lemma check_obstacles_R i a p environment : forall best, check_obstacles i a p environment best = fold_left tighten (obstacles_of i a p environment) best.
  Proof. unfold check_obstacles. induction environment as [|[k o] environment IH]; intros best; [reflexivity|]. cbn [fold_left obstacles_of map fst snd]. rewrite IH. reflexivity. Qed.
  Lemma numbered_in {A} (l : list A) i x : In (i, x) (numbered l) <-> nth_error l i = Some x.
  Proof.
    unfold numbered. assert (G : forall k, In (i, x) (combine (seq k (List.length l)) l) <-> (k <= i)%nat /\ nth_error l (i - k) = Some x).
    { induction l as [|y l IH]; intros k; cbn [List.length seq combine In]; [split; [intros []|intros [_ E]; destruct (i - k)%nat; discriminate]|]. rewrite IH. split.
      - intros [E|[L E]]; [injection E as <- <-; split; [lia|rewrite Nat.sub_diag; reflexivity]|split; [lia|replace (i - k)%nat with (S (i - S k)) by lia; exact E]].
      - intros [L E]. destruct (Nat.eq_dec i k) as [->|D]; [left; rewrite Nat.sub_diag in E; cbn in E; injection E as ->; reflexivity|right; split; [lia|]; replace (i - k)%nat with (S (i - S k)) in E by lia; exact E]. }
    rewrite G, Nat.sub_0_r. split; [intros [_ E]; exact E|intros E; split; [lia|exact E]].
  Qed.
  Lemma numbered_skip {A} (l : list A) n i x : In (i, x) (skipn n (numbered l)) <-> (n <= i)%nat /\ nth_error l i = Some x.
  Proof.
    unfold numbered. assert (G : forall n k, In (i, x) (skipn n (combine (seq k (List.length l)) l)) <-> (n + k <= i)%nat /\ nth_error l (i - k) = Some x).
    { clear n. induction l as [|y l IH]; intros n k; cbn [List.length seq combine]; [rewrite skipn_nil; split; [intros []|intros [_ E]; destruct (i - k)%nat; discriminate]|]. destruct n as [|n]; cbn [skipn].
      - cbn [In]. specialize (IH 0%nat (S k)). cbn [skipn] in IH. rewrite IH. split.
        + intros [E|[L E]]; [injection E as <- <-; split; [lia|rewrite Nat.sub_diag; reflexivity]|split; [lia|replace (i - k)%nat with (S (i - S k)) by lia; exact E]].
        + intros [L E]. destruct (Nat.eq_dec i k) as [->|D]; [left; rewrite Nat.sub_diag in E; cbn in E; injection E as ->; reflexivity|right; split; [lia|]; replace (i - k)%nat with (S (i - S k)) in E by lia; exact E].
      - rewrite IH. split; intros [L E]; (split; [lia|]); [replace (i - k)%nat with (S (i - S k)) by lia; exact E|replace (i - k)%nat with (S (i - S k)) in E by lia; exact E]. }
    rewrite (G n 0%nat), Nat.sub_0_r, Nat.add_0_r. reflexivity.
  Qed.
  Lemma check_each_R q state : (forall a, In a (cq_self q) -> framed state a) -> forall firsts, (forall x, In x firsts -> In (snd x) (cq_self q)) -> forall best, check_each q state firsts best = Ok (fold_left tighten (all_of q state firsts) best).
  Proof.
    intros F. induction firsts as [|[i a] firsts IH]; intros S1 best; [reflexivity|]. cbn [check_each all_of flat_map fst snd]. fold (all_of q state firsts). destruct (placed_ok state a (F a (S1 (i, a) (or_introl eq_refl)))) as (f & _ & ->). cbn [bind].
    rewrite check_others_R; [|intros [j b] X; apply numbered_skip in X; destruct X as [_ X]; apply nth_error_In in X; apply F, X]. cbn [bind]. rewrite IH by (intros x X; apply S1; right; exact X). rewrite check_obstacles_R, !fold_left_app. reflexivity.
  Qed.
  Lemma check_each_err q state firsts : (exists x, In x firsts /\ ~ framed state (snd x)) -> forall best, check_each q state firsts best = Err KiToolIndexOutOfRange.
  Proof.
    induction firsts as [|[i a] firsts IH]; intros (x & X & B) best; [destruct X|]. cbn [check_each]. destruct (Nat.lt_decidable (at_frame a) (List.length state)) as [L|L]; [|rewrite (placed_bad state a L); reflexivity].
    destruct (placed_ok state a L) as (f & _ & ->). cbn [bind]. destruct (check_others_err q state i a (se3_compose f (at_local a)) (skipn (i + 1) (numbered (cq_self q))) best) as [[r ->]| ->]; [|reflexivity]. cbn [bind]. apply IH. exists x. split; [|exact B]. destruct X as [<-|X]; [contradiction|exact X].
  Qed.
  Lemma is_excluded_R (q : collision_query T) i j : is_excluded q i j = true <-> left_out q i j.
  Proof.
    unfold is_excluded, left_out. rewrite existsb_exists. split.
    - intros ([x y] & I & H). cbn [fst snd] in H. apply orb_prop in H. destruct H as [H|H]; apply andb_prop in H; destruct H as [H1 H2]; apply Nat.eqb_eq in H1, H2; subst; tauto.
    - intros [H|H]; [exists (i, j)|exists (j, i)]; (split; [exact H|]); cbn [fst snd]; rewrite !Nat.eqb_refl; cbn [andb orb]; rewrite ?orb_true_r; reflexivity.
  Qed.
  Lemma all_of_in q state : (forall a, In a (cq_self q) -> framed state a) -> forall d pair, In (d, pair) (all_of q state (numbered (cq_self q))) <-> in_pair q pair /\ pair_distance q state pair d.
  Proof.
    intros F d pair. unfold all_of. rewrite in_flat_map. split.
    - intros ([i a] & I & H). apply numbered_in in I. cbn [fst snd] in H. destruct (placed_ok state a (F a (nth_error_In _ _ I))) as (f & Ef & P). rewrite P in H. apply in_app_or in H. assert (L : (i < List.length (cq_self q))%nat) by (apply nth_error_Some; rewrite I; discriminate). destruct H as [H|H].
      + unfold others_of in H. apply in_flat_map in H. destruct H as ([j b] & J & H). apply numbered_skip in J. destruct J as [J Nb]. cbn [fst snd] in H. destruct (is_excluded q i j) eqn:X; [destruct H|]. destruct (placed_ok state b (F b (nth_error_In _ _ Nb))) as (g & Eg & P'). rewrite P' in H. destruct H as [H|[]]. injection H as <- <-. cbn [in_pair pair_distance].
        assert (L' : (j < List.length (cq_self q))%nat) by (apply nth_error_Some; rewrite Nb; discriminate). split; [split; [lia|]; intros X'; apply is_excluded_R in X'; congruence|]. exists a, b, f, g. tauto.
      + unfold obstacles_of in H. apply in_map_iff in H. destruct H as ([k o] & H & K). apply numbered_in in K. injection H as <- <-. cbn [in_pair pair_distance fst snd]. split; [split; [exact L|apply nth_error_Some; rewrite K; discriminate]|]. exists a, o, f. tauto.
    - intros [I D]. destruct pair as [[i|i] [j|k]]; try contradiction.
      + cbn in I. destruct I as [[I J] X]. cbn in D. destruct D as (a & b & f & g & Na & Nb & Ef & Eg & ->). exists (i, a). split; [apply numbered_in, Na|]. cbn [fst snd]. destruct (placed_ok state a (F a (nth_error_In _ _ Na))) as (f' & Ef' & P). rewrite P. rewrite Ef in Ef'. injection Ef' as <-.
        apply in_or_app. left. apply in_flat_map. exists (j, b). split; [apply numbered_skip; split; [lia|exact Nb]|]. cbn [fst snd]. destruct (is_excluded q i j) eqn:X'; [apply is_excluded_R in X'; contradiction|]. destruct (placed_ok state b (F b (nth_error_In _ _ Nb))) as (g' & Eg' & P'). rewrite P'. rewrite Eg in Eg'. injection Eg' as <-. left. reflexivity.
      + cbn in D. destruct D as (a & o & f & Na & No & Ef & ->). exists (i, a). split; [apply numbered_in, Na|]. cbn [fst snd]. destruct (placed_ok state a (F a (nth_error_In _ _ Na))) as (f' & Ef' & P). rewrite P. rewrite Ef in Ef'. injection Ef' as <-.
        apply in_or_app. right. apply in_map_iff. exists (k, o). split; [reflexivity|apply numbered_in, No].
  Qed.
  Lemma pair_has_distance q state pair : (forall a, In a (cq_self q) -> framed state a) -> in_pair q pair -> exists d, pair_distance q state pair d.
  Proof.
    intros F. assert (Get : forall (l : list (attached T)) i, (i < List.length l)%nat -> exists a, nth_error l i = Some a) by (intros l i L; apply nth_error_Some in L; destruct (nth_error l i) as [a|]; [exists a; reflexivity|contradiction]).
    destruct pair as [[i|i] [j|k]]; cbn [in_pair]; try tauto.
    - intros [[L L'] X]. destruct (Get (cq_self q) i ltac:(lia)) as [a A], (Get (cq_self q) j L') as [b B]. destruct (placed_ok state a (F a (nth_error_In _ _ A))) as (f & Ef & _), (placed_ok state b (F b (nth_error_In _ _ B))) as (g & Eg & _). eexists. exists a, b, f, g. repeat split; eassumption.
    - intros [L L']. destruct (Get (cq_self q) i L) as [a A]. apply nth_error_Some in L'. destruct (nth_error (cq_environment q) k) as [o|] eqn:O; [|contradiction]. destruct (placed_ok state a (F a (nth_error_In _ _ A))) as (f & Ef & _). eexists. exists a, o, f. repeat split; eassumption.
  Qed.
  (** What a check returns, for any scalar *)
  Lemma check_any q state :
    ((exists a, In a (cq_self q) /\ ~ framed state a) /\ check state q = Err KiToolIndexOutOfRange) \/
    ((forall a, In a (cq_self q) -> framed state a) /\ exists r, check state q = Ok r /\
      match co_closest_pair r with
      | None => co_minimum_clearance r = zero /\ forall pair d, in_pair q pair -> pair_distance q state pair d -> ltb d max_value = false
      | Some both => in_pair q both /\ pair_distance q state both (co_minimum_clearance r)
      end).
  Proof.
    destruct (List.Forall_Exists_dec (fun a => framed state a) (fun a => lt_dec (at_frame a) (List.length state)) (cq_self q)) as [F|B].
    - right. rewrite Forall_forall in F. split; [exact F|]. unfold check. rewrite check_each_R; [|exact F|intros [i a] X; apply numbered_in, nth_error_In in X; exact X]. cbn [bind]. eexists. split; [reflexivity|]. cbn [co_closest_pair co_minimum_clearance].
      destruct (tighten_spec (all_of q state (numbered (cq_self q))) (max_value, None)) as [[E N]|([d p] & I & E & _)]; rewrite E; cbn [fst snd].
      + split; [reflexivity|]. intros pair d P D. apply (N (d, pair)). apply all_of_in; tauto.
      + apply all_of_in; assumption.
    - left. apply Exists_exists in B. split; [exact B|]. destruct B as (a & I & B). apply In_nth_error in I. destruct I as [i I]. unfold check. rewrite check_each_err; [reflexivity|]. exists (i, a). split; [apply numbered_in, I|exact B].
  Qed.
End Query.
Lemma tighten_least (l : list (R * (CollisionSource * CollisionSource))) : forall best x, In x l -> fst (fold_left tighten l best) <= fst x.
Proof.
  assert (Down : forall (l : list (R * (CollisionSource * CollisionSource))) best, fst (fold_left tighten l best) <= fst best).
  { clear l. induction l as [|y l IH]; intros best; [cbn; lra|]. cbn [fold_left]. eapply Rle_trans; [apply IH|]. unfold tighten, tighter. rnum. destruct (Rltb (fst y) (fst best)) eqn:L; [rcases; cbn [fst]; lra|lra]. }
  induction l as [|y l IH]; intros best x X; [destruct X|]. cbn [fold_left]. destruct X as [<-|X]; [|apply IH, X]. eapply Rle_trans; [apply Down|]. unfold tighten, tighter. rnum. destruct (Rltb (fst y) (fst best)) eqn:L; rcases; cbn [fst]; lra.
Qed.
Lemma check_least (q : collision_query R) state r : check state q = Ok r -> forall pair, co_closest_pair r = Some pair -> forall pair' d, in_pair q pair' -> pair_distance q state pair' d -> co_minimum_clearance r <= d.
Proof.
  intros E pair C pair' d P D. destruct (check_any q state) as [[_ X]|[F _]]; [congruence|]. unfold check in E. rewrite check_each_R in E; [|exact F|intros [i a] X; apply numbered_in, nth_error_In in X; exact X]. cbn [bind] in E. injection E as <-. cbn [co_closest_pair co_minimum_clearance] in *. rewrite C.
  apply (tighten_least _ _ (d, pair')). apply all_of_in; tauto.
Qed.
