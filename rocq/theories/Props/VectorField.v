(** C125 curl and divergence, C126 line integrals, C127 flux integrals. *)
From Coq Require Import ZArith List Bool Reals Lra Lia Arith Psatz.
From Coquelicot Require Import Coquelicot.
From Verif Require Import Base.Scalar Base.RNum Base.XNum Base.Lists Base.Deriv Base.Series Model.Errors Model.Dual Model.Derivative Model.Integration
  Model.VectorField Spec.Expr Spec.Derivative Spec.VectorField Proofs.Jet Proofs.Smooth Proofs.Derivative Proofs.Autodiff Props.Derivative.
Import ListNotations.
Local Open Scope R_scope.
Local Notation length := List.length.
Local Notation cos := Rtrigo_def.cos.
Local Notation sin := Rtrigo_def.sin.

(** ** C125 *)
Lemma partial_exact e es p c i : nth_error es c = Some e -> smooth_at e p -> (i < length p)%nat ->
  has_partial i (formula e R Rnum) p /\ first_partial_derivative autodiff_multi (component (formulas es) c) i p = Ok (partial_of i (formula e R Rnum) p).
Proof.
  intros E S I. destruct (C121_first e p i S I) as (v & A & _ & D). split; [exists v; exact D|].
  assert (V : partial_of i (formula e R Rnum) p = v) by (apply is_derive_unique; exact D). rewrite V, <- A.
  unfold first_partial_derivative. cbn [d_differentiate autodiff_multi autodiff_differentiate Model.Derivative.in_range forallb].
  destruct (Nat.ltb_spec i (length p)); [|lia]. cbn [andb negb]. apply f_equal. apply f_equal. unfold component, formulas.
  assert (L : (c < length es)%nat) by (apply nth_error_Some; congruence).
  rewrite (nth_indep (map _ es) _ (formula e _ dual_num (dual_seed i p))) by (rewrite map_length; auto).
  rewrite (map_nth (fun e => formula e _ dual_num (dual_seed i p))). rewrite (nth_error_nth es c e E). reflexivity.
Qed.
(** With automatic differentiation of smooth formulas the curl and the divergence are the combinations of exact partial derivatives
    that define them. *)
Theorem C125_space P Q W p : length p = 3%nat -> smooth_at P p -> smooth_at Q p -> smooth_at W p ->
  let d i e := partial_of i (formula e R Rnum) p in
  (forall i e, (i < 3)%nat -> In e [P; Q; W] -> has_partial i (formula e R Rnum) p) /\
  curl_3d autodiff_multi (formulas [P; Q; W]) p = Ok [d 1%nat W - d 2%nat Q; d 2%nat P - d 0%nat W; d 0%nat Q - d 1%nat P] /\
  divergence_3d autodiff_multi (formulas [P; Q; W]) p = Ok (d 0%nat P + d 1%nat Q + d 2%nat W).
Proof.
  intros L SP SQ SW d.
  assert (G : forall c i e, nth_error [P; Q; W] c = Some e -> smooth_at e p -> (i < 3)%nat -> first_partial_derivative autodiff_multi (component (formulas [P; Q; W]) c) i p = Ok (d i e)).
  { intros c i e E S I. apply partial_exact; auto. lia. }
  split; [|split].
  - intros i e I [<-|[<-|[<-|[]]]]; [apply (partial_exact P [P] p 0)|apply (partial_exact Q [Q] p 0)|apply (partial_exact W [W] p 0)]; auto; lia.
  - unfold curl_3d. cbv zeta. rewrite (G 2%nat 1%nat W), (G 1%nat 2%nat Q), (G 0%nat 2%nat P), (G 2%nat 0%nat W), (G 1%nat 0%nat Q), (G 0%nat 1%nat P) by auto. reflexivity.
  - unfold divergence_3d. cbv zeta. rewrite (G 0%nat 0%nat P), (G 1%nat 1%nat Q), (G 2%nat 2%nat W) by auto. reflexivity.
Qed.
Theorem C125_plane P Q p : length p = 2%nat -> smooth_at P p -> smooth_at Q p ->
  let d i e := partial_of i (formula e R Rnum) p in
  (forall i e, (i < 2)%nat -> In e [P; Q] -> has_partial i (formula e R Rnum) p) /\
  curl_2d autodiff_multi (formulas [P; Q]) p = Ok (d 0%nat Q - d 1%nat P) /\
  divergence_2d autodiff_multi (formulas [P; Q]) p = Ok (d 0%nat P + d 1%nat Q).
Proof.
  intros L SP SQ d.
  assert (G : forall c i e, nth_error [P; Q] c = Some e -> smooth_at e p -> (i < 2)%nat -> first_partial_derivative autodiff_multi (component (formulas [P; Q]) c) i p = Ok (d i e)).
  { intros c i e E S I. apply partial_exact; auto. lia. }
  split; [|split].
  - intros i e I [<-|[<-|[]]]; [apply (partial_exact P [P] p 0)|apply (partial_exact Q [Q] p 0)]; auto; lia.
  - unfold curl_2d. cbv zeta. rewrite (G 1%nat 0%nat Q), (G 0%nat 1%nat P) by auto. reflexivity.
  - unfold divergence_2d. cbv zeta. rewrite (G 0%nat 0%nat P), (G 1%nat 1%nat Q) by auto. reflexivity.
Qed.
(** A derivator that refuses is passed on by all four. *)
Theorem C125_refused T (NT : Num T) (d : Derivator T) field p e :
  (forall f i, first_partial_derivative d f i p = Err e) ->
  curl_3d d field p = Err e /\ curl_2d d field p = Err e /\ divergence_3d d field p = Err e /\ divergence_2d d field p = Err e.
Proof. intros H. unfold curl_3d, curl_2d, divergence_3d, divergence_2d. cbv zeta. rewrite !H. auto. Qed.

(** ** C126 *)
Lemma line_steps field curve (a delta : R) idx n :
  let node k := a + INR k * delta in
  let before := curve_point curve a in
  Nat.iter n (line_step field curve delta idx) (a, 0, before, field_at field idx before) =
  (node n, stieltjes (fun t => field_at field idx (curve_point curve t)) (fun t => nth idx (curve_point curve t) 0) node n,
   curve_point curve (node n), field_at field idx (curve_point curve (node n))).
Proof.
  intros node before. induction n as [|n IH].
  - unfold stieltjes. cbn [Nat.iter nat_rect bsum]. unfold node. replace (a + INR 0 * delta) with a by (cbn; ring). reflexivity.
  - assert (E : Nat.iter (S n) (line_step field curve delta idx) (a, 0, before, field_at field idx before) =
      line_step field curve delta idx (Nat.iter n (line_step field curve delta idx) (a, 0, before, field_at field idx before))) by reflexivity.
    rewrite E, IH. unfold line_step. assert (N : (node n + delta)%num = node (S n)) by (unfold node; rewrite S_INR; rnum; ring).
    rewrite N. unfold stieltjes. cbn [bsum]. rnum. reflexivity.
Qed.
Lemma partial_R field curve a b n idx : a < b -> (0 < n)%nat ->
  get_partial field curve (a, b) n idx =
  Ok (stieltjes (fun t => field_at field idx (curve_point curve t)) (fun t => nth idx (curve_point curve t) 0) (fun k => a + INR k * ((b - a) / INR n)) n).
Proof.
  intros AB N. unfold get_partial. destruct (Nat.eqb_spec n 0); [lia|]. cbn [fst snd]. rnum. unfold Rltb. destruct (Rlt_dec a b); [|lra]. cbn [negb].
  rewrite of_nat_R. rewrite line_steps. reflexivity.
Qed.
Section Error.
  Context (g h rate : R -> R) (L G : R).
  Lemma tame_ex a b c d : tame g h rate a b L G -> a <= c -> c <= d -> d <= b -> ex_RInt (fun t => g t * rate t) c d.
  Proof.
    intros [T _] A C D. apply (ex_RInt_continuous (V := R_CompleteNormedModule)). intros z Z. rewrite Rmin_left, Rmax_right in Z by lra.
    destruct (T z ltac:(lra)) as (_ & R0 & _ & G0). apply (continuous_mult g rate); auto.
  Qed.
  Lemma cell_error a b c d : tame g h rate a b L G -> a <= c -> c <= d -> d <= b ->
    Rabs ((h d - h c) * (g c + g d) / 2 - RInt (fun t => g t * rate t) c d) <= L * G / 2 * (d - c) ^ 2.
  Proof.
    intros T A C D. pose proof (tame_ex a b c d T A C D) as X. destruct T as [T LI].
    assert (Rc : forall t, c <= t <= d -> is_derive h t (rate t) /\ continuous rate t) by (intros t Ht; destruct (T t ltac:(lra)) as (P & Q & _); auto).
    assert (I : is_RInt rate c d (h d - h c)).
    { apply (is_RInt_derive h rate); intros x; rewrite Rmin_left, Rmax_right by lra; intros Hx; apply Rc; auto. }
    assert (E : is_RInt (fun t => (g c + g d) / 2 * rate t - g t * rate t) c d ((g c + g d) / 2 * (h d - h c) - RInt (fun t => g t * rate t) c d)).
    { apply (is_RInt_minus (V := R_NormedModule) (fun t => (g c + g d) / 2 * rate t) (fun t => g t * rate t)).
      - apply (is_RInt_scal (V := R_NormedModule) rate). exact I.
      - apply (RInt_correct (V := R_CompleteNormedModule)). exact X. }
    replace ((h d - h c) * (g c + g d) / 2 - RInt (fun t => g t * rate t) c d) with ((g c + g d) / 2 * (h d - h c) - RInt (fun t => g t * rate t) c d) by field.
    pose proof (is_RInt_unique (V := R_CompleteNormedModule) _ _ _ _ E) as U. rewrite <- U.
    eapply Rle_trans; [apply (abs_RInt_le_const _ c d (L * (d - c) / 2 * G) C)|].
    - eexists. exact E.
    - intros t Ht. replace ((g c + g d) / 2 * rate t - g t * rate t) with (((g c - g t) + (g d - g t)) / 2 * rate t) by field.
      rewrite Rabs_mult. destruct (T t ltac:(lra)) as (_ & _ & B & _). apply Rmult_le_compat; [apply Rabs_pos|apply Rabs_pos| |exact B].
      pose proof (LI c t ltac:(lra) ltac:(lra)) as L1. pose proof (LI d t ltac:(lra) ltac:(lra)) as L2.
      rewrite (Rabs_left1 (c - t)) in L1 by lra. rewrite (Rabs_pos_eq (d - t)) in L2 by lra.
      unfold Rdiv at 1. rewrite Rabs_mult, (Rabs_pos_eq (/ 2)) by lra. pose proof (Rabs_triang (g c - g t) (g d - g t)).
      assert (L * - (c - t) + L * (d - t) = L * (d - c)) by ring. lra.
    - apply Req_le. field.
  Qed.
  Lemma sum_error a b delta n : tame g h rate a b L G -> 0 <= delta -> a + INR n * delta <= b ->
    Rabs (stieltjes g h (fun k => a + INR k * delta) n - RInt (fun t => g t * rate t) a (a + INR n * delta)) <= INR n * (L * G / 2 * delta ^ 2).
  Proof.
    intros T D. induction n as [|n IH]; intros B.
    - unfold stieltjes. cbn [bsum INR]. rewrite Rmult_0_l, Rplus_0_r, (RInt_point (V := R_CompleteNormedModule)). cbn. rewrite Rmult_0_l, Rminus_0_r, Rabs_R0. lra.
    - pose proof (pos_INR n) as PN. pose proof (Rmult_le_pos _ _ PN D) as P1. rewrite S_INR in *. assert (B' : a + INR n * delta <= b) by lra. specialize (IH B').
      set (c := a + INR n * delta) in *. assert (Ed : a + (INR n + 1) * delta = c + delta) by (unfold c; ring). rewrite Ed in *.
      assert (Cs : RInt (fun t => g t * rate t) a (c + delta) = RInt (fun t => g t * rate t) a c + RInt (fun t => g t * rate t) c (c + delta)).
      { symmetry. apply (RInt_Chasles (V := R_CompleteNormedModule)); apply (tame_ex a b); auto; unfold c; lra. }
      rewrite Cs. unfold stieltjes in *. cbn [bsum]. fold c. rewrite S_INR, Ed.
      pose proof (cell_error a b c (c + delta) T ltac:(unfold c; lra) ltac:(lra) ltac:(lra)) as CE.
      replace (c + delta - c) with delta in CE by ring.
      match goal with |- Rabs (?s + ?u - (?i + ?j)) <= _ => replace (s + u - (i + j)) with ((s - i) + (u - j)) by ring end.
      eapply Rle_trans; [apply Rabs_triang|]. lra.
  Qed.
End Error.
Lemma one_partial field curve rate a b L G idx : a < b ->
  tame (fun t => field_at field idx (curve_point curve t)) (fun t => nth idx (curve_point curve t) 0) rate a b L G ->
  converges_to (fun n => get_partial field curve (a, b) n idx) (RInt (fun t => field_at field idx (curve_point curve t) * rate t) a b) (L * G * (b - a) ^ 2 / 2).
Proof.
  intros AB T n N. rewrite partial_R by auto. eexists. split; [reflexivity|]. assert (P : 0 < INR n) by (apply lt_0_INR; auto).
  assert (Eb : a + INR n * ((b - a) / INR n) = b) by (field; lra).
  pose proof (sum_error _ _ _ L G a b ((b - a) / INR n) n T ltac:(apply Rmult_le_pos; [lra|left; apply Rinv_0_lt_compat; auto]) ltac:(lra)) as E. rewrite Eb in E.
  eapply Rle_trans; [exact E|]. apply Req_le. field. lra.
Qed.
(** The line integral of a field along a curve: with [n] panels the result is within a constant over [n] of the integral of the field
    against the velocity of the curve. *)
Theorem C126_plane F0 F1 c0 c1 r0 r1 a b L G : a < b ->
  tame (fun t => F0 [c0 t; c1 t]) c0 r0 a b L G -> tame (fun t => F1 [c0 t; c1 t]) c1 r1 a b L G ->
  converges_to (line_integral_2d_custom [F0; F1] [c0; c1] (a, b)) (RInt (fun t => F0 [c0 t; c1 t] * r0 t) a b + RInt (fun t => F1 [c0 t; c1 t] * r1 t) a b) (L * G * (b - a) ^ 2).
Proof.
  intros AB T0 T1 n N. destruct (one_partial [F0; F1] [c0; c1] r0 a b L G 0 AB T0 n N) as (v & V & A). destruct (one_partial [F0; F1] [c0; c1] r1 a b L G 1 AB T1 n N) as (w & W & B).
  cbv beta in V, W. unfold line_integral_2d_custom. rewrite V, W. cbn [and_then]. eexists. split; [reflexivity|]. rnum. cbn [field_at nth curve_point map] in A, B. 
  match goal with |- Rabs (v + w - (?x + ?y)) <= _ => replace (v + w - (x + y)) with ((v - x) + (w - y)) by ring end.
  eapply Rle_trans; [apply Rabs_triang|]. replace (L * G * (b - a) ^ 2 / INR n) with (L * G * (b - a) ^ 2 / 2 / INR n + L * G * (b - a) ^ 2 / 2 / INR n) by (field; apply not_0_INR; lia).
  apply Rplus_le_compat; assumption.
Qed.
Theorem C126_space F0 F1 F2 c0 c1 c2 r0 r1 r2 a b L G : a < b ->
  tame (fun t => F0 [c0 t; c1 t; c2 t]) c0 r0 a b L G -> tame (fun t => F1 [c0 t; c1 t; c2 t]) c1 r1 a b L G -> tame (fun t => F2 [c0 t; c1 t; c2 t]) c2 r2 a b L G ->
  converges_to (line_integral_3d_custom [F0; F1; F2] [c0; c1; c2] (a, b))
    (RInt (fun t => F0 [c0 t; c1 t; c2 t] * r0 t) a b + RInt (fun t => F1 [c0 t; c1 t; c2 t] * r1 t) a b + RInt (fun t => F2 [c0 t; c1 t; c2 t] * r2 t) a b) (3 / 2 * (L * G * (b - a) ^ 2)).
Proof.
  intros AB T0 T1 T2 n N. destruct (one_partial [F0; F1; F2] [c0; c1; c2] r0 a b L G 0 AB T0 n N) as (v & V & A). destruct (one_partial [F0; F1; F2] [c0; c1; c2] r1 a b L G 1 AB T1 n N) as (w & W & B).
  destruct (one_partial [F0; F1; F2] [c0; c1; c2] r2 a b L G 2 AB T2 n N) as (u & U & C).
  cbv beta in V, W, U. unfold line_integral_3d_custom. rewrite V, W, U. cbn [and_then]. eexists. split; [reflexivity|]. rnum. cbn [field_at nth curve_point map] in A, B, C.
  match goal with |- Rabs (v + w + u - (?x + ?y + ?z)) <= _ => replace (v + w + u - (x + y + z)) with ((v - x) + (w - y) + (u - z)) by ring end.
  eapply Rle_trans; [apply Rabs_triang|]. pose proof (Rabs_triang (v - RInt (fun t => F0 [c0 t; c1 t; c2 t] * r0 t) a b) (w - RInt (fun t => F1 [c0 t; c1 t; c2 t] * r1 t) a b)).
  replace (3 / 2 * (L * G * (b - a) ^ 2) / INR n) with (L * G * (b - a) ^ 2 / 2 / INR n + L * G * (b - a) ^ 2 / 2 / INR n + L * G * (b - a) ^ 2 / 2 / INR n) by (field; apply not_0_INR; lia). 
  unfold field_at in *. cbn [nth] in *. lra.
Qed.
(** A constant field gives the field times the displacement exactly, whatever the curve and the number of panels. *)
Theorem C126_constant k0 k1 c0 c1 a b n : a < b -> (0 < n)%nat ->
  line_integral_2d_custom [(fun _ => k0); (fun _ => k1)] [c0; c1] (a, b) n = Ok (k0 * (c0 b - c0 a) + k1 * (c1 b - c1 a)).
Proof.
  intros AB N. unfold line_integral_2d_custom. rewrite !partial_R by auto. cbn [and_then]. apply f_equal. rnum.
  assert (P : 0 < INR n) by (apply lt_0_INR; auto).
  assert (T : forall k (h : R -> R), stieltjes (fun _ => k) h (fun j => a + INR j * ((b - a) / INR n)) n = k * (h b - h a)).
  { intros k h. assert (G : forall m, stieltjes (fun _ => k) h (fun j => a + INR j * ((b - a) / INR n)) m = k * (h (a + INR m * ((b - a) / INR n)) - h a)).
    { induction m as [|m IH]; unfold stieltjes in *; cbn [bsum].
      - replace (a + INR 0 * ((b - a) / INR n)) with a by (cbn; ring). ring.
      - rewrite IH. field. }
    rewrite G. replace (a + INR n * ((b - a) / INR n)) with b by (field; lra). reflexivity. }
  f_equal; [apply (T k0 c0)|apply (T k1 c1)].
Qed.
(** What is refused, for any scalar. *)
Theorem C126_refused T (NT : Num T) (field : list (list T -> T)) (curve : list (T -> T)) (a b : T) :
  line_integral_2d_custom field curve (a, b) 0 = Err InIterationsZero /\ line_integral_3d_custom field curve (a, b) 0 = Err InIterationsZero /\
  flux_integral_2d_custom field curve (a, b) 0 = Err InIterationsZero /\
  (ltb a b = false -> forall n, (0 < n)%nat -> line_integral_2d_custom field curve (a, b) n = Err InLimitsIllDefined /\
     line_integral_3d_custom field curve (a, b) n = Err InLimitsIllDefined /\ flux_integral_2d_custom field curve (a, b) n = Err InLimitsIllDefined) /\
  line_integral_2d field curve (a, b) = line_integral_2d_custom field curve (a, b) 120 /\ line_integral_3d field curve (a, b) = line_integral_3d_custom field curve (a, b) 120.
Proof.
  split; [reflexivity|]. split; [reflexivity|]. split; [reflexivity|]. split; [|auto]. intros E n N.
  assert (G : forall idx, get_partial field curve (a, b) n idx = Err InLimitsIllDefined).
  { intros idx. unfold get_partial. destruct (Nat.eqb_spec n 0); [lia|]. cbn [fst snd]. rewrite E. reflexivity. }
  unfold line_integral_2d_custom, line_integral_3d_custom, flux_integral_2d_custom. rewrite !G. auto.
Qed.

(** ** C127 *)

(** What is computed is the integral of the first component against the change of the first coordinate minus that of the second against
    the second. *)
Theorem C127_computed_partial F0 F1 c0 c1 r0 r1 a b L G : a < b ->
  tame (fun t => F0 [c0 t; c1 t]) c0 r0 a b L G -> tame (fun t => F1 [c0 t; c1 t]) c1 r1 a b L G ->
  converges_to (flux_integral_2d_custom [F0; F1] [c0; c1] (a, b)) (RInt (fun t => F0 [c0 t; c1 t] * r0 t) a b - RInt (fun t => F1 [c0 t; c1 t] * r1 t) a b) (L * G * (b - a) ^ 2).
Proof.
  intros AB T0 T1 n N. destruct (one_partial [F0; F1] [c0; c1] r0 a b L G 0 AB T0 n N) as (v & V & A). destruct (one_partial [F0; F1] [c0; c1] r1 a b L G 1 AB T1 n N) as (w & W & B).
  cbv beta in V, W. unfold flux_integral_2d_custom. rewrite V, W. cbn [and_then]. eexists. split; [reflexivity|]. rnum. cbn [field_at nth curve_point map] in A, B. 
  match goal with |- Rabs (v - w - (?x - ?y)) <= _ => replace (v - w - (x - y)) with ((v - x) + - (w - y)) by ring end.
  eapply Rle_trans; [apply Rabs_triang|]. rewrite Rabs_Ropp. replace (L * G * (b - a) ^ 2 / INR n) with (L * G * (b - a) ^ 2 / 2 / INR n + L * G * (b - a) ^ 2 / 2 / INR n) by (field; apply not_0_INR; lia).
  apply Rplus_le_compat; assumption.
Qed.
(** That is not the flux across the curve: the field (x, y) flows out of the unit circle at rate [2 PI], and every number of panels
    reports zero. *)
Theorem C127_refuted : let field := [(fun q => nth 0 q 0); (fun q => nth 1 q 0)] in
  flux_across (fun t => cos t) (fun t => sin t) (fun t => - sin t) (fun t => cos t) 0 (2 * PI) = 2 * PI /\
  forall n, (0 < n)%nat -> flux_integral_2d_custom field [cos; sin] (0, 2 * PI) n = Ok 0.
Proof.
  intros field. pose proof PI_RGT_0 as PP. split.
  - unfold flux_across. rewrite (RInt_ext (V := R_CompleteNormedModule) _ (fun _ => 1)).
    + rewrite (RInt_const (V := R_CompleteNormedModule)). cbn. change (scal ?x ?y) with (x * y). change (mult ?x ?y) with (x * y). ring.
    + intros t _. pose proof (sin2_cos2 t) as H. unfold Rsqr in H. lra.
  - intros n N. unfold flux_integral_2d_custom. rewrite !partial_R by (auto; lra). cbn [and_then]. apply f_equal. rnum. unfold field. cbn [field_at nth curve_point map].
    assert (P : 0 < INR n) by (apply lt_0_INR; auto).
    assert (T : forall h : R -> R, stieltjes h h (fun j => 0 + INR j * ((2 * PI - 0) / INR n)) n = (h (2 * PI) ^ 2 - h 0 ^ 2) / 2).
    { intros h. assert (G : forall m, stieltjes h h (fun j => 0 + INR j * ((2 * PI - 0) / INR n)) m = (h (0 + INR m * ((2 * PI - 0) / INR n)) ^ 2 - h 0 ^ 2) / 2).
      { induction m as [|m IH]; unfold stieltjes in *; cbn [bsum].
        - replace (0 + INR 0 * ((2 * PI - 0) / INR n)) with 0 by (cbn; ring). field.
        - rewrite IH. set (x := h (0 + INR m * _)). set (y := h _). field. }
      rewrite G. replace (0 + INR n * ((2 * PI - 0) / INR n)) with (2 * PI) by (field; lra). reflexivity. }
    unfold field_at. cbn [nth]. pose proof (T cos) as Tc. pose proof (T sin) as Ts. rewrite cos_2PI, cos_0 in Tc. rewrite sin_2PI, sin_0 in Ts.
    change (stieltjes cos cos (fun j => 0 + INR j * ((2 * PI - 0) / INR n)) n - stieltjes sin sin (fun j => 0 + INR j * ((2 * PI - 0) / INR n)) n = 0). rewrite Tc, Ts. field.
Qed.

Definition swirl0 : expr := EUn UNeg (EVar 1).
Definition swirl1 : expr := EVar 0.
Example C125_example : smooth_at swirl0 [1; 2] /\ smooth_at swirl1 [1; 2] /\ curl_2d autodiff_multi (formulas [swirl0; swirl1]) [1; 2] = Ok (partial_of 0 (formula swirl1 R Rnum) [1; 2] - partial_of 1 (formula swirl0 R Rnum) [1; 2]).
Proof.
  assert (A : smooth_at swirl0 [1; 2]) by (cbn; auto). assert (B : smooth_at swirl1 [1; 2]) by (cbn; auto).
  split; [exact A|]. split; [exact B|]. apply (C125_plane swirl0 swirl1 [1; 2] eq_refl A B).
Qed.
Lemma identity_tame : tame (fun t => t) (fun t => t) (fun _ => 1) 0 1 1 1.
Proof.
  split.
  - intros t _. split; [apply is_derive_var|]. split; [apply continuous_const|]. split; [rewrite Rabs_pos_eq; lra|apply continuous_id].
  - intros s t _ _. lra.
Qed.
Example C126_example : tame (fun t => nth 0 [t; t] 0) (fun t => t) (fun _ => 1) 0 1 1 1 /\
  converges_to (line_integral_2d_custom [(fun q => nth 0 q 0); (fun q => nth 1 q 0)] [(fun t => t); (fun t => t)] (0, 1)) (RInt (fun t => t * 1) 0 1 + RInt (fun t => t * 1) 0 1) (1 * 1 * (1 - 0) ^ 2).
Proof.
  split; [exact identity_tame|]. apply (C126_plane (fun q => nth 0 q 0) (fun q => nth 1 q 0) (fun t => t) (fun t => t) (fun _ => 1) (fun _ => 1) 0 1 1 1); [lra|exact identity_tame|exact identity_tame].
Qed.
Example C127_example : converges_to (flux_integral_2d_custom [(fun q => nth 0 q 0); (fun q => nth 1 q 0)] [(fun t => t); (fun t => t)] (0, 1)) (RInt (fun t => t * 1) 0 1 - RInt (fun t => t * 1) 0 1) (1 * 1 * (1 - 0) ^ 2).
Proof. apply (C127_computed_partial (fun q => nth 0 q 0) (fun q => nth 1 q 0) (fun t => t) (fun t => t) (fun _ => 1) (fun _ => 1) 0 1 1 1); [lra|exact identity_tame|exact identity_tame]. Qed.

Print Assumptions C125_space.
Print Assumptions C125_plane.
Print Assumptions C125_refused.
Print Assumptions C126_plane.
Print Assumptions C126_space.
Print Assumptions C126_constant.
Print Assumptions C126_refused.
Print Assumptions C127_computed_partial.
Print Assumptions C127_refuted.
