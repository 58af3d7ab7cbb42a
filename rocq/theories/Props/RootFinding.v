(** C14-C18: bisection, Brent, Newton. *)
From Coq Require Import ZArith List Bool Arith Reals Lra Lia SpecFloat.
From Flocq Require Import Core IEEE754.BinarySingleNaN.
From Verif Require Import Base.Scalar Base.RNum Base.FNum Base.FloatOps Model.Errors Model.RootFinding Spec.Expr
  Proofs.RootFinding Proofs.RootFloat.
Import ListNotations.
Local Open Scope R_scope.

Lemma ok_ex {A E} (x : Res A E) (P : A -> Prop) : match x with Ok r => P r | _ => False end -> exists r, x = Ok r /\ P r.
Proof. destruct x; intros H; try contradiction. eexists. split; [reflexivity|exact H]. Qed.
Lemma some_ok_ex {A E} (x : option (Res A E)) (P : A -> Prop) :
  match x with Some (Ok r) => P r | _ => False end -> exists r, x = Some (Ok r) /\ P r.
Proof. destruct x as [[]|]; intros H; try contradiction. eexists. split; [reflexivity|exact H]. Qed.

(** ** C14 *)
(** Over any scalar, the report is truthful and within budget. *)
Theorem C14_bisection_report : forall (T : Type) (NT : Num T) (f : T -> T) (s : Settings T) (a b : T) (r : RootReport T),
  bisection f s a b = Ok r ->
  residual r = f (root r) /\ is_finite (residual r) = true /\ (iterations r <= max_iterations s)%nat /\
  (termination r = ResidualTolerance /\ (leb (abs (residual r)) (ftol s) = true \/ eqb (residual r) zero = true) \/
   termination r = BracketWidth).
Proof.
  intros T NT f s a b r H. unfold bisection in H.
  destruct (is_finite (f a)) eqn:Fa; cbn [negb orb] in H; [|discriminate].
  destruct (is_finite (f b)) eqn:Fb; cbn [negb orb] in H; [|discriminate].
  destruct (eqb (f a) zero) eqn:Ea. { injection H as <-. cbn. repeat split; auto; lia. }
  destruct (eqb (f b) zero) eqn:Eb. { injection H as <-. cbn. repeat split; auto; lia. }
  destruct (same_sign (f a) (f b)) eqn:S; [discriminate|].
  assert (S' : same_sign (f b) (f a) = false) by (unfold same_sign in *; destruct (leb zero (f a)), (leb zero (f b)); auto).
  assert (K : forall lo hi, same_sign (f lo) (f hi) = false -> bisect_loop f s (max_iterations s) 1 lo (f lo) hi = Ok r ->
    residual r = f (root r) /\ is_finite (residual r) = true /\ (iterations r <= max_iterations s)%nat /\
    (termination r = ResidualTolerance /\ (leb (abs (residual r)) (ftol s) = true \/ eqb (residual r) zero = true) \/ termination r = BracketWidth)).
  { intros lo hi Q K. destruct (bisect_loop_ok f s _ _ _ _ _ K Q) as (A & B & C & D). repeat split; auto; try lia. tauto. }
  destruct (leb a b); eauto.
Qed.

Lemma bisection_loop_of {T} {NT : Num T} (f : T -> T) s a b r : bisection f s a b = Ok r ->
  (root r = a \/ root r = b) /\ termination r = ResidualTolerance \/
  (same_sign (f a) (f b) = false /\
   ((leb a b = true /\ bisect_loop f s (max_iterations s) 1 a (f a) b = Ok r) \/
    (leb a b = false /\ bisect_loop f s (max_iterations s) 1 b (f b) a = Ok r))).
Proof.
  intros H. unfold bisection in H. destruct (_ || _)%bool; [discriminate|].
  destruct (eqb (f a) zero). { injection H as <-. cbn. auto. }
  destruct (eqb (f b) zero). { injection H as <-. cbn. auto. }
  destruct (same_sign (f a) (f b)) eqn:S; [discriminate|]. right. split; auto. destruct (leb a b); auto.
Qed.
Lemma same_sign_sym {T} {NT : Num T} (a b : T) : same_sign a b = same_sign b a.
Proof. unfold same_sign. destruct (leb zero a), (leb zero b); reflexivity. Qed.

(** In exact arithmetic the root is in the caller's bracket, and a bracket-width stop has a sign change around it
    within the tolerance. *)
Theorem C14_bisection_bracket : forall (f : R -> R) (s : Settings R) (a b : R) (r : RootReport R),
  bisection f s a b = Ok r ->
  Rmin a b <= root r <= Rmax a b /\
  (termination r = BracketWidth -> exists lo hi,
     Rmin a b <= lo <= root r /\ root r <= hi <= Rmax a b /\ (0 <= f lo <-> f hi < 0) /\
     hi - lo <= xtol s * (1 + Rabs (root r))).
Proof.
  intros f s a b r H. destruct (bisection_loop_of _ _ _ _ _ H) as [[E T]|[S L]].
  { split; [|congruence]. unfold Rmin, Rmax. destruct E as [->| ->]; destruct (Rle_dec a b); lra. }
  assert (K : forall lo hi, lo <= hi -> same_sign (f lo) (f hi) = false -> bisect_loop f s (max_iterations s) 1 lo (f lo) hi = Ok r ->
     lo <= root r <= hi /\ (termination r = BracketWidth -> exists l h, lo <= l <= root r /\ root r <= h <= hi /\ (0 <= f l <-> f h < 0) /\
       h - l <= xtol s * (1 + Rabs (root r)))).
  { intros lo hi O Q K.
    assert (Sp : forall l h, (lo <= l /\ l <= h /\ h <= hi) -> let mid := add l (mul (sub h l) half) in (lo <= l /\ l <= mid /\ mid <= hi) /\ (lo <= mid /\ mid <= h /\ h <= hi)).
    { intros l h V. cbv zeta. rnum. lra. }
    destruct (bisect_loop_bracket (fun l h => lo <= l /\ l <= h /\ h <= hi) Sp f s _ _ _ _ _ K Q (conj (Rle_refl _) (conj O (Rle_refl _)))) as (l & h & B1 & B2 & B3 & B4).
    split; [lra|]. intros T. exists l, h. split; [lra|]. split; [lra|]. split.
    - unfold same_sign in B3. rnum. unfold Rleb in B3. destruct (Rle_dec 0 (f l)), (Rle_dec 0 (f h)); try discriminate; split; lra.
    - specialize (B4 T). rnum. apply Rleb_true in B4. exact B4. }
  destruct L as [[E L]|[E L]]; rnum.
  - apply Rleb_true in E. rewrite Rmin_left, Rmax_right by lra. apply K; auto.
  - apply Rleb_false in E. rewrite Rmin_right, Rmax_left by lra. apply K; auto; [lra|]. rewrite same_sign_sym. exact S.
Qed.

(** In f64 the root can leave the bracket: the sign function on [-2^1023, 2^1023] has its root at infinity. *)
Theorem C14_bisection_bracket_refuted : forall lm : Libm f64,
  let f x := @eval _ (f64num lm) (fun _ => x) (EBin BCopysign (ELit 1 1) (EVar 0)) in
  exists r, @bisection _ (f64num lm) f (@default_settings _ (f64num lm)) (F64 (-1) 1023) (F64 1 1023) = Ok r /\
    B2SF (root r) = S754_infinity false /\ termination r = BracketWidth.
Proof. intros lm f. apply ok_ex. vm_compute. split; reflexivity. Qed.

Lemma fminus_swap (x y : f64) : ffinite (Bminus mode_NE x y) = true -> ffinite (Bminus mode_NE y x) = true.
Proof.
  intros H. destruct (fminus_finite 53 1024 x y H) as (Fx & Fy & E).
  pose proof (Bminus_correct 53 1024 prec53 prec_lt53 mode_NE y x Fy Fx) as K.
  rewrite Rlt_bool_true in K; [apply K|]. replace (B2R y - B2R x) with (- (B2R x - B2R y)) by ring.
  cbn [round_mode]. rewrite round_NE_opp, Rabs_Ropp. change ZnearestE with (round_mode mode_NE). rewrite <- E. apply abs_B2R_lt_emax.
Qed.

(** Unless the width of the bracket overflows: then it is in the bracket, for every function on f64. *)
Theorem C14_bisection_f64_partial : forall (lm : Libm f64) (f : f64 -> f64) (s : Settings f64) (a b : f64) (r : RootReport f64),
  ffinite a = true -> ffinite b = true -> ffinite (Bminus mode_NE b a) = true ->
  @bisection _ (f64num lm) f s a b = Ok r ->
  ffinite (root r) = true /\ Rmin (B2R a) (B2R b) <= B2R (root r) <= Rmax (B2R a) (B2R b) /\
  (termination r = BracketWidth -> exists lo hi : f64,
     Rmin (B2R a) (B2R b) <= B2R lo <= B2R (root r) /\ B2R (root r) <= B2R hi <= Rmax (B2R a) (B2R b) /\
     Bleb (B754_zero false) (f lo) = negb (Bleb (B754_zero false) (f hi))).
Proof.
  intros lm f s a b r Fa Fb Fw H. destruct (@bisection_loop_of _ (f64num lm) _ _ _ _ _ H) as [[E T]|[S L]].
  { split; [destruct E as [->| ->]; assumption|]. split; [|congruence]. unfold Rmin, Rmax. destruct E as [->| ->]; destruct (Rle_dec (B2R a) (B2R b)); lra. }
  destruct half64 as [Hf Hh].
  assert (K : forall lo hi : f64, ffinite lo = true -> ffinite hi = true -> B2R lo <= B2R hi -> ffinite (Bminus mode_NE hi lo) = true ->
     @same_sign _ (f64num lm) (f lo) (f hi) = false -> @bisect_loop _ (f64num lm) f s (max_iterations s) 1 lo (f lo) hi = Ok r ->
     ffinite (root r) = true /\ B2R lo <= B2R (root r) <= B2R hi /\ (termination r = BracketWidth -> exists l h : f64,
       B2R lo <= B2R l <= B2R (root r) /\ B2R (root r) <= B2R h <= B2R hi /\ Bleb (B754_zero false) (f l) = negb (Bleb (B754_zero false) (f h)))).
  { intros lo hi Fl Fh O W Q K.
    destruct (@bisect_loop_bracket _ (f64num lm) (fun l h => fbracket 53 1024 l h /\ B2R lo <= B2R l /\ B2R h <= B2R hi)) with (2 := K) as (l & h & B1 & B2 & B3 & _).
    - intros l h (V & V1 & V2). destruct (fmid_split 53 1024 _ Hf Hh l h V) as [W1 W2]. destruct (fmid_in 53 1024 _ Hf Hh l h V) as (_ & M1 & M2).
      cbn [add sub mul half f64num fnum]. change (fof 53 1024 1 (-1)) with (F64 1 (-1)). split; (split; [assumption|lra]).
    - exact Q.
    - split; [repeat split; auto|]. split; lra.
    - destruct B1 as ((_ & Fr & R1 & _) & R2 & R3), B2 as ((_ & _ & R4 & _) & R5 & R6).
      split; [exact Fr|]. split; [lra|]. intros _. exists l, h. split; [lra|]. split; [lra|].
      apply (proj1 (@same_sign_false _ (f64num lm) _ _)) in B3. exact B3. }
  destruct L as [[E L]|[E L]]; change (Bleb a b = true) in E || change (Bleb a b = false) in E; rewrite Bleb_correct in E by auto.
  - destruct (Rle_bool_spec (B2R a) (B2R b)) as [O|O]; [|discriminate]. rewrite Rmin_left, Rmax_right by lra. apply K; auto.
  - destruct (Rle_bool_spec (B2R a) (B2R b)) as [O|O]; [discriminate|]. rewrite Rmin_right, Rmax_left by lra. apply K; auto; [lra| |].
    apply fminus_swap; exact Fw. rewrite same_sign_sym. exact S.
Qed.

(** x * x - 2 on [0, 2] *)
Definition sq2 (x : R) : R := x * x - 2.
Lemma sq2_cont : continuity sq2.
Proof. unfold sq2. apply continuity_minus. apply continuity_mult; apply derivable_continuous, derivable_id. apply continuity_const. intros x y. reflexivity. Qed.

(** ** C15 *)
(** With a budget of one more than log2(width/tolerance). *)
Theorem C15_bisection_converges : forall (f : R -> R) (s : Settings R) (a b : R) (k : nat),
  f a * f b <= 0 -> 0 <= xtol s -> Rabs (b - a) <= xtol s * 2 ^ k -> (k < max_iterations s)%nat ->
  exists r, bisection f s a b = Ok r.
Proof.
  intros f s a b k Sg X W B. unfold bisection. rnum. cbn [negb orb].
  unfold Reqb. destruct (Req_EM_T (f a) 0) as [Ea|Ea]; [eexists; reflexivity|]. destruct (Req_EM_T (f b) 0) as [Eb|Eb]; [eexists; reflexivity|].
  assert (S : @same_sign R Rnum (f a) (f b) = false).
  { unfold same_sign. rnum. unfold Rleb. destruct (Rle_dec 0 (f a)), (Rle_dec 0 (f b)); auto; exfalso.
    - assert (0 < f a * f b) by (apply Rmult_lt_0_compat; lra). lra.
    - assert (0 < - f a * - f b) by (apply Rmult_lt_0_compat; lra). nra. }
  rewrite S. destruct (max_iterations s) as [|n] eqn:M; [lia|].
  assert (Wn : Rabs (b - a) <= xtol s * 2 ^ n).
  { eapply Rle_trans; [exact W|]. apply Rmult_le_compat_l; auto. apply Rle_pow; lra || lia. }
  unfold Rleb. destruct (Rle_dec a b).
  - apply bisect_loop_converges; auto. rewrite Rabs_right in Wn by lra. exact Wn.
  - apply bisect_loop_converges; auto; [lra|]. rewrite Rabs_left in Wn by lra. lra.
Qed.

Theorem C15_bisection_true_root : forall (f : R -> R) (s : Settings R) (a b : R) (r : RootReport R),
  (forall x, Rmin a b <= x <= Rmax a b -> continuity_pt f x) -> bisection f s a b = Ok r ->
  termination r = BracketWidth ->
  exists z, Rmin a b <= z <= Rmax a b /\ f z = 0 /\ Rabs (root r - z) <= xtol s * (1 + Rabs (root r)).
Proof.
  intros f s a b r C H T. destruct (C14_bisection_bracket f s a b r H) as [_ K]. destruct (K T) as (lo & hi & L & Hh & S & W).
  destruct (zero_between f lo hi) as (z & Z1 & Z2); [lra|intros x Hx; apply C; lra| |].
  - unfold same_sign. rnum. unfold Rleb. destruct (Rle_dec 0 (f lo)), (Rle_dec 0 (f hi)); auto; exfalso.
    assert (f hi < 0) by tauto; lra. assert (0 <= f lo) by (apply S; lra); lra.
  - exists z. split; [lra|]. split; [exact Z2|]. apply Rabs_le. lra.
Qed.

Example C14_example : exists r, bisection sq2 (mkSettings (1/8) (1/1000) 6) 0 2 = Ok r /\ termination r = BracketWidth.
Proof.
  unfold bisection. rnum. cbn [negb orb max_iterations].
  assert (Lt : forall x, x < 0 -> Rleb 0 x = false) by (intros; apply Rleb_false; lra).
  assert (Ge : forall x, 0 <= x -> Rleb 0 x = true) by (intros; apply Rleb_true; lra).
  unfold Reqb. destruct (Req_EM_T (sq2 0) 0) as [E|_]; [unfold sq2 in E; lra|]. destruct (Req_EM_T (sq2 2) 0) as [E|_]; [unfold sq2 in E; lra|].
  unfold same_sign at 1. rnum. rewrite Lt, Ge by (unfold sq2; lra). cbn [Bool.eqb].
  replace (Rleb 0 2) with true by (symmetry; apply Rleb_true; lra).
  assert (St : forall budget iter lo hi m, m = lo + (hi - lo) * / 2 -> 0 <= m -> (1/1000 < m * m - 2 \/ m * m - 2 < - (1/1000)) -> 1/8 * (1 + m) < hi - lo ->
    (m * m - 2 < 0 -> sq2 lo < 0 -> bisect_loop sq2 (mkSettings (1/8) (1/1000) 6) (S budget) iter lo (sq2 lo) hi = bisect_loop sq2 (mkSettings (1/8) (1/1000) 6) budget (S iter) m (sq2 m) hi) /\
    (0 <= m * m - 2 -> sq2 lo < 0 -> bisect_loop sq2 (mkSettings (1/8) (1/1000) 6) (S budget) iter lo (sq2 lo) hi = bisect_loop sq2 (mkSettings (1/8) (1/1000) 6) budget (S iter) lo (sq2 lo) m)).
  { intros budget iter lo hi m -> Hm Hr Hw. rewrite bisect_loop_S. cbv zeta. cbn [ftol xtol]. set (m := lo + (hi - lo) * / 2) in *.
    change (sq2 m) with (m * m - 2). replace (Rleb (Rabs (m * m - 2)) (1 / 1000)) with false.
    2: { symmetry. apply Rleb_false. unfold Rabs. destruct (Rcase_abs _); lra. }
    replace (Rleb (hi - lo) (1 / 8 * (1 + Rabs m))) with false. 2: { symmetry. apply Rleb_false. rewrite Rabs_right by lra. lra. }
    unfold same_sign. rnum. split; intros H1 H2; rewrite (Lt (sq2 lo)) by auto. rewrite Lt by auto; reflexivity. rewrite Ge by auto; reflexivity. }
  rewrite (proj1 (St 5%nat 1%nat 0 2 1 ltac:(lra) ltac:(lra) ltac:(lra) ltac:(lra))) by (unfold sq2; lra).
  rewrite (proj2 (St 4%nat 2%nat 1 2 (3/2) ltac:(lra) ltac:(lra) ltac:(lra) ltac:(lra))) by (unfold sq2; lra).
  rewrite (proj1 (St 3%nat 3%nat 1 (3/2) (5/4) ltac:(lra) ltac:(lra) ltac:(lra) ltac:(lra))) by (unfold sq2; lra).
  rewrite bisect_loop_S. cbv zeta. cbn [ftol xtol]. set (m := 5/4 + (3/2 - 5/4) * / 2).
  assert (Em : m = 11/8) by (unfold m; lra).
  replace (Rleb (Rabs (sq2 m)) (1 / 1000)) with false. 2: { symmetry. apply Rleb_false. rewrite Em. unfold sq2, Rabs. destruct (Rcase_abs _); lra. }
  replace (Rleb (3/2 - 5/4) (1 / 8 * (1 + Rabs m))) with true. 2: { symmetry. apply Rleb_true. rewrite Em, Rabs_right; lra. }
  eexists. split; reflexivity.
Qed.
Example C14_example_f64 : forall lm : Libm f64,
  let f x := @eval _ (f64num lm) (fun _ => x) (EBin BSub (EBin BMul (EVar 0) (EVar 0)) (ELit 2 1)) in
  ffinite (Bminus mode_NE (F64 2 0) (F64 0 0)) = true /\
  exists r, @bisection _ (f64num lm) f (@default_settings _ (f64num lm)) (F64 0 0) (F64 2 0) = Ok r /\
    B2SF (root r) = B2SF (F64 6369051672525772 (-52)) /\ iterations r = 51%nat.
Proof. intros lm f. split; [reflexivity|]. apply ok_ex. vm_compute. split; reflexivity. Qed.
Example C15_example : sq2 0 * sq2 2 <= 0 /\ Rabs (2 - 0) <= 1/8 * 2 ^ 4 /\ (4 < 6)%nat /\ (forall x, Rmin 0 2 <= x <= Rmax 0 2 -> continuity_pt sq2 x).
Proof. split; [unfold sq2; lra|]. split; [rewrite Rabs_right; lra|]. split; [lia|]. intros x _. apply sq2_cont. Qed.

(** ** C16 *)
(** Refuted: x - 0.3 on [-1, 2^200] with the default settings. *)
Theorem C16_default_budget_refuted : forall lm : Libm f64,
  let f x := @eval _ (f64num lm) (fun _ => x) (EBin BSub (EVar 0) (ELit 3 10)) in
  @bisection _ (f64num lm) f (@default_settings _ (f64num lm)) (F64 (-1) 0) (F64 1 200) = Err (SoDidNotConverge 100).
Proof. intros lm. vm_compute. reflexivity. Qed.

(** The documented count, ceil(log2(width / xtol)), is one short as well: here it is 1. *)
Theorem C16_documented_budget_refuted :
  bisection (fun x => x - 3/10) (mkSettings 1 (1/100) 1) (-1) 1 = Err (SoDidNotConverge 1).
Proof.
  unfold bisection. rnum. cbn [negb orb max_iterations]. unfold Reqb.
  destruct (Req_EM_T (-1 - 3/10) 0); [lra|]. destruct (Req_EM_T (1 - 3/10) 0); [lra|].
  unfold same_sign at 1. rnum. replace (Rleb 0 (-1 - 3/10)) with false by (symmetry; apply Rleb_false; lra).
  replace (Rleb 0 (1 - 3/10)) with true by (symmetry; apply Rleb_true; lra). cbn [Bool.eqb].
  replace (Rleb (-1) 1) with true by (symmetry; apply Rleb_true; lra).
  rewrite (bisect_loop_S (fun x => x - 3/10)). cbv zeta. cbn [xtol ftol].
  replace (-1 + (1 - -1) * / 2) with 0 by lra. rewrite Rabs_R0. replace (0 - 3/10) with (- (3/10)) by lra. rewrite Rabs_Ropp, (Rabs_right (3/10)) by lra.
  replace (Rleb (3/10) (1/100)) with false by (symmetry; apply Rleb_false; lra).
  replace (Rleb (1 - -1) (1 * (1 + 0))) with false by (symmetry; apply Rleb_false; lra).
  destruct (same_sign _ _); reflexivity.
Qed.

(** In exact arithmetic the default budget suffices for brackets up to 2^49 wide. *)
Theorem C16_default_budget_partial : forall (f : R -> R) (a b : R), f a * f b <= 0 -> Rabs (b - a) <= 2 ^ 49 ->
  exists r, bisection f default_settings a b = Ok r.
Proof.
  intros f a b S W. apply (C15_bisection_converges f default_settings a b 99); auto.
  - cbn [default_settings xtol]. rnum. lra.
  - cbn [default_settings xtol]. rnum. eapply Rle_trans; [exact W|]. right. lra.
Qed.
Example C16_example : sq2 0 * sq2 2 <= 0 /\ Rabs (2 - 0) <= 2 ^ 49.
Proof. split; [unfold sq2; lra|]. rewrite Rabs_right; lra. Qed.

(** ** C17 *)
Lemma brent_loop_of {T} {NT : Num T} (f : T -> T) s a b r : brent f s a b = Ok r ->
  (is_finite (f a) && is_finite (f b))%bool = true /\
  ((root r = a \/ root r = b) /\ residual r = f (root r) /\ iterations r = 0%nat /\ termination r = ResidualTolerance /\ eqb (residual r) zero = true \/
   exists st, brent_inv f st /\ (ba st = a /\ bb st = b \/ ba st = b /\ bb st = a) /\ brent_loop f s (max_iterations s) 1 st = Ok r).
Proof.
  intros H. unfold brent in H. destruct (is_finite (f a)), (is_finite (f b)); cbn [negb orb andb] in *; try discriminate. split; [reflexivity|].
  destruct (eqb (f a) zero) eqn:Ea. { injection H as <-. cbn. left. auto 10. }
  destruct (eqb (f b) zero) eqn:Eb. { injection H as <-. cbn. left. auto 10. }
  destruct (same_sign (f a) (f b)) eqn:S; [discriminate|]. right. destruct (ltb (abs (f a)) (abs (f b))).
  - eexists. split; [|split; [|exact H]]; cbn; auto. repeat split; auto. cbn. rewrite same_sign_sym. exact S.
  - eexists. split; [|split; [|exact H]]; cbn; auto. repeat split; auto.
Qed.

(** Over any scalar, the report is truthful, within budget, and a bracket-width stop names another point of
    opposite sign that passed the width test. *)
Theorem C17_brent_report : forall (T : Type) (NT : Num T) (f : T -> T) (s : Settings T) (a b : T) (r : RootReport T),
  brent f s a b = Ok r ->
  residual r = f (root r) /\ (iterations r <= max_iterations s)%nat /\
  (termination r = ResidualTolerance /\ (leb (abs (residual r)) (ftol s) = true \/ eqb (residual r) zero = true) \/
   termination r = BracketWidth /\ exists other,
     leb zero (f other) = negb (leb zero (f (root r))) /\
     let tol := mul (xtol s) (add one (abs (root r))) in
     leb (abs (mul (sub other (root r)) half)) tol = true \/ leb (abs (sub (root r) other)) tol = true).
Proof.
  intros T NT f s a b r H. destruct (brent_loop_of _ _ _ _ _ H) as [_ [(_ & A & B & C & D)|(st & I & _ & L)]].
  { split; [exact A|]. split; [lia|]. left. auto. }
  destruct (brent_loop_ok f s _ _ _ _ (le_n 1) L I) as [C [A B]]. split; [exact A|]. split; [lia|].
  destruct B as [[B1 B2]|[B1 (o & B2 & B3)]]; [left; auto|right]. split; auto. exists o. split; [apply same_sign_false; exact B2|exact B3].
Qed.

Theorem C17_brent_bracket : forall (f : R -> R) (s : Settings R) (a b : R) (r : RootReport R),
  brent f s a b = Ok r ->
  Rmin a b <= root r <= Rmax a b /\
  (termination r = BracketWidth -> exists other, Rmin a b <= other <= Rmax a b /\ (0 <= f other <-> f (root r) < 0) /\
     Rabs (root r - other) <= 2 * (xtol s * (1 + Rabs (root r)))).
Proof.
  intros f s a b r H. destruct (brent_loop_of _ _ _ _ _ H) as [_ [(E & _ & _ & T & _)|(st & I & P & L)]].
  { split; [|congruence]. unfold Rmin, Rmax. destruct E as [->| ->]; destruct (Rle_dec a b); lra. }
  destruct (brent_loop_bracket f s (Rmin a b) (Rmax a b) _ _ _ _ L I) as [A B].
  - unfold Rmin, Rmax. destruct (Rle_dec a b); lra.
  - unfold Rmin, Rmax. destruct (Rle_dec a b); lra.
  - split; [exact A|]. intros T. destruct (B T) as (o & O1 & O2 & O3). exists o. split; [exact O1|]. split; [|exact O3].
    unfold same_sign in O2. rnum. unfold Rleb in O2. destruct (Rle_dec 0 (f o)), (Rle_dec 0 (f (root r))); try discriminate; split; lra.
Qed.

(** so a continuous function has a true zero within twice the tolerance *)
Theorem C17_brent_true_root : forall (f : R -> R) (s : Settings R) (a b : R) (r : RootReport R),
  (forall x, Rmin a b <= x <= Rmax a b -> continuity_pt f x) -> brent f s a b = Ok r -> termination r = BracketWidth ->
  exists z, Rmin a b <= z <= Rmax a b /\ f z = 0 /\ Rabs (root r - z) <= 2 * (xtol s * (1 + Rabs (root r))).
Proof.
  intros f s a b r C H T. destruct (C17_brent_bracket f s a b r H) as [A K]. destruct (K T) as (o & O & S & W).
  destruct (Rle_dec (root r) o) as [L|L].
  - destruct (zero_between f (root r) o L) as (z & Z1 & Z2); [intros x Hx; apply C; lra| |].
    + unfold same_sign. rnum. unfold Rleb. destruct (Rle_dec 0 (f (root r))), (Rle_dec 0 (f o)); auto; exfalso.
      assert (f (root r) < 0) by tauto; lra. assert (0 <= f o) by (apply S; lra); lra.
    + exists z. split; [lra|]. split; [exact Z2|]. eapply Rle_trans; [|exact W]. rewrite !Rabs_left1 by lra. lra.
  - destruct (zero_between f o (root r) ltac:(lra)) as (z & Z1 & Z2); [intros x Hx; apply C; lra| |].
    + unfold same_sign. rnum. unfold Rleb. destruct (Rle_dec 0 (f (root r))), (Rle_dec 0 (f o)); auto; exfalso.
      assert (f (root r) < 0) by tauto; lra. assert (0 <= f o) by (apply S; lra); lra.
    + exists z. split; [lra|]. split; [exact Z2|]. eapply Rle_trans; [|exact W]. rewrite !Rabs_right by lra. lra.
Qed.

Example C17_example : forall lm : Libm f64,
  let f x := @eval _ (f64num lm) (fun _ => x) (EBin BSub (EBin BMul (EVar 0) (EVar 0)) (ELit 2 1)) in
  exists r, @brent _ (f64num lm) f (mkSettings (F64 1 (-10)) (F64 1 (-60)) 100) (F64 0 0) (F64 2 0) = Ok r /\
    termination r = BracketWidth.
Proof. intros lm f. apply ok_ex. vm_compute. reflexivity. Qed.
(** a constant sign change: the first test already passes on the width *)
Example C17_example_R : brent (fun x => x - 1) (mkSettings 1 (1/8) 5) 0 (3/2) = Ok (mkReport (3/2) (3/2 - 1) 0 BracketWidth).
Proof.
  unfold brent. rnum. cbn [negb orb max_iterations]. unfold Reqb. destruct (Req_EM_T (0 - 1) 0); [lra|]. destruct (Req_EM_T (3/2 - 1) 0); [lra|].
  unfold same_sign at 1. rnum. replace (Rleb 0 (0 - 1)) with false by (symmetry; apply Rleb_false; lra).
  replace (Rleb 0 (3/2 - 1)) with true by (symmetry; apply Rleb_true; lra). cbn [Bool.eqb].
  replace (Rltb (Rabs (0 - 1)) (Rabs (3/2 - 1))) with false by (symmetry; apply Rltb_false; rewrite Rabs_right, Rabs_left; lra).
  cbn [brent_loop]. unfold brent_done at 1. cbn [bb ba bfb xtol ftol]. rnum.
  replace (Rleb (Rabs (3/2 - 1)) (1/8)) with false by (symmetry; apply Rleb_false; rewrite Rabs_right; lra).
  replace (Rleb (Rabs ((0 - 3/2) * / 2)) (1 * (1 + Rabs (3/2)))) with true. reflexivity.
  symmetry. apply Rleb_true. rewrite Rabs_left, Rabs_right by lra. lra.
Qed.

(** ** C18 *)
(** Any fuel beyond the bound on backtracking gives an answer, so the fuel does not matter. *)
Theorem C18_newton_terminates : forall (T : Type) (NT : Num T) (fuel : nat) (f : T -> T) d s backtracking x0,
  (20 < fuel)%nat -> (forall x, d x <> Panic) ->
  exists answer, snd (newton fuel f d s backtracking x0) = Some answer /\ answer <> Panic.
Proof.
  intros T NT fuel f d s bt x0 Hf Hd. unfold newton. destruct (is_finite (f x0)); cbn [negb]; [|eexists; split; [reflexivity|discriminate]].
  pose proof (newton_loop_ok fuel f d s bt Hf Hd (max_iterations s) 1 x0) as K.
  destruct (newton_loop fuel f d s bt (max_iterations s) 1 x0 (f x0)) as [tr r]. destruct K as (_ & K1 & K2 & _). cbn [snd].
  destruct r as [a|]; [|congruence]. exists a. split; [reflexivity|congruence].
Qed.

Theorem C18_newton_report : forall (T : Type) (NT : Num T) (fuel : nat) (f : T -> T) d s backtracking x0 r,
  (20 < fuel)%nat -> (forall x, d x <> Panic) ->
  snd (newton fuel f d s backtracking x0) = Some (Ok r) ->
  residual r = f (root r) /\ is_finite (residual r) = true /\ (1 <= iterations r <= max_iterations s)%nat /\
  (termination r = ResidualTolerance /\ leb (abs (residual r)) (ftol s) = true \/
   termination r = StepTolerance /\ exists previous,
     leb (abs (sub (root r) previous)) (mul (xtol s) (add one (abs (root r)))) = true).
Proof.
  intros T NT fuel f d s bt x0 r Hf Hd H. unfold newton in H. destruct (is_finite (f x0)) eqn:F; cbn [negb] in H; [|discriminate].
  pose proof (newton_loop_ok fuel f d s bt Hf Hd (max_iterations s) 1 x0) as K.
  destruct (newton_loop fuel f d s bt (max_iterations s) 1 x0 (f x0)) as [tr q]. destruct K as (_ & _ & _ & K). cbn [snd] in H.
  destruct (K F r H) as (A & B & C & _ & D). repeat split; auto; lia.
Qed.

(** The function is called once at the start, then at most once per iteration, or at most 21 times with
    backtracking on. *)
Theorem C18_newton_evaluations : forall (T : Type) (NT : Num T) (fuel : nat) (f : T -> T) d s backtracking x0,
  (20 < fuel)%nat -> (forall x, d x <> Panic) ->
  (length (fst (newton fuel f d s backtracking x0)) <= 1 + max_iterations s * (if backtracking then 21 else 1))%nat /\
  (forall r, snd (newton fuel f d s backtracking x0) = Some (Ok r) ->
     (length (fst (newton fuel f d s backtracking x0)) <= 1 + iterations r * (if backtracking then 21 else 1))%nat).
Proof.
  intros T NT fuel f d s bt x0 Hf Hd. unfold newton. destruct (is_finite (f x0)) eqn:F; cbn [negb]; [|cbn [fst snd length]; split; [lia|intros; discriminate]].
  pose proof (newton_loop_ok fuel f d s bt Hf Hd (max_iterations s) 1 x0) as K.
  destruct (newton_loop fuel f d s bt (max_iterations s) 1 x0 (f x0)) as [tr q]. destruct K as (K1 & _ & _ & K). cbn [fst snd length].
  change (MAX_BACKTRACK + 1)%nat with 21%nat in *. split; [lia|]. intros r H. destruct (K F r H) as (_ & _ & _ & K4 & _).
  replace (iterations r + 1 - 1)%nat with (iterations r) in K4 by lia. lia.
Qed.

Example C18_example : forall lm : Libm f64,
  let f x := @eval _ (f64num lm) (fun _ => x) (EBin BSub (EBin BMul (EVar 0) (EVar 0)) (ELit 2 1)) in
  let d x := Ok (@eval _ (f64num lm) (fun _ => x) (EBin BMul (ELit 2 1) (EVar 0))) in
  exists r, snd (@newton _ (f64num lm) 21 f d (mkSettings (F64 30 (-52)) (F64 30 (-52)) 100) true (F64 2 0)) = Some (Ok r) /\
    iterations r = 6%nat.
Proof. intros lm f d. apply some_ok_ex. vm_compute. reflexivity. Qed.

Print Assumptions C14_bisection_report.
Print Assumptions C14_bisection_bracket.
Print Assumptions C14_bisection_bracket_refuted.
Print Assumptions C14_bisection_f64_partial.
Print Assumptions C15_bisection_converges.
Print Assumptions C15_bisection_true_root.
Print Assumptions C16_default_budget_refuted.
Print Assumptions C16_documented_budget_refuted.
Print Assumptions C16_default_budget_partial.
Print Assumptions C17_brent_report.
Print Assumptions C17_brent_bracket.
Print Assumptions C17_brent_true_root.
Print Assumptions C18_newton_terminates.
Print Assumptions C18_newton_report.
Print Assumptions C18_newton_evaluations.
