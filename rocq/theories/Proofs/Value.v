(** The value part of the derivative scalars, over any scalar. *)
From Coq Require Import ZArith List Bool Lia Arith.
From Verif Require Import Base.Scalar Base.Lists Model.Dual Model.HyperDual Model.Jet Spec.Expr.
Import ListNotations.

(** [v] respects the operations the trait asks of an implementor; five of them only under a law. *)
Record Values {X T : Type} (B : Num X) (NT : Num T) (v : X -> T) (law : feature -> Prop) : Prop := {
  v_zero : v zero = zero; v_one : v one = one; v_half : v half = half; v_pi : v pi = pi;
  v_nan : v nan = nan; v_inf : v infinity = infinity; v_ninf : v neg_infinity = neg_infinity;
  v_ratio : forall n d, v (of_ratio n d) = of_ratio n d;
  v_add : forall a b, v (add a b) = add (v a) (v b);
  v_sub : forall a b, v (sub a b) = sub (v a) (v b);
  v_mul : law Product -> forall a b, v (mul a b) = mul (v a) (v b);
  v_div : law Quotient -> forall a b, v (div a b) = div (v a) (v b);
  v_neg : forall a, v (neg a) = neg (v a);
  v_abs : law Absolute -> forall a, v (abs a) = abs (v a);
  v_sqrt : forall a, v (sqrt a) = sqrt (v a);
  v_cbrt : forall a, v (cbrt a) = cbrt (v a);
  v_sin : forall a, v (sin a) = sin (v a);
  v_cos : forall a, v (cos a) = cos (v a);
  v_tan : law Tangent -> forall a, v (tan a) = tan (v a);
  v_exp : forall a, v (exp a) = exp (v a);
  v_log : forall a, v (log a) = log (v a);
  v_expm1 : forall a, v (expm1 a) = expm1 (v a);
  v_ln_1p : forall a, v (ln_1p a) = ln_1p (v a);
  v_log2 : law OtherLog -> forall a, v (log2 a) = log2 (v a);
  v_log10 : law OtherLog -> forall a, v (log10 a) = log10 (v a);
  v_atan2 : forall a b, v (atan2 a b) = atan2 (v a) (v b);
  v_copysign : forall a b, v (copysign a b) = copysign (v a) (v b);
  v_floor : forall a, v (floor a) = floor (v a);
  v_ceil : forall a, v (ceil a) = ceil (v a);
  v_round : forall a, v (round a) = round (v a);
  v_trunc : forall a, v (trunc a) = trunc (v a);
  v_is_nan : forall a, is_nan a = is_nan (v a);
  v_eqb : forall a b, eqb a b = eqb (v a) (v b);
  v_ltb : forall a b, ltb a b = ltb (v a) (v b);
  v_leb : forall a b, leb a b = leb (v a) (v b)
}.

Section Eval.
  Context {X T : Type} (B : Num X) (NT : Num T) (v : X -> T) (law : feature -> Prop) (V : Values B NT v law).
  Notation W := (with_defaults B).
  Notation P := (with_defaults NT).

  Lemma w_safe_div : law Quotient -> forall a b, v (@safe_div _ W a b) = @safe_div _ P (v a) (v b).
  Proof.
    intros L a b. unfold safe_div. cbn [eqb zero is_nan ltb nan infinity neg_infinity div with_defaults].
    rewrite (v_eqb _ _ _ _ V), (v_is_nan _ _ _ _ V), !(v_ltb _ _ _ _ V), (v_zero _ _ _ _ V).
    destruct (eqb (v b) zero); [|apply (v_div _ _ _ _ V L)].
    destruct (is_nan (v a)); [apply V|]. destruct (ltb (v a) zero); [apply V|]. destruct (ltb zero (v a)); apply V.
  Qed.
  Lemma w_powi_loop : law Product -> forall e a c, v (@powi_loop _ W e a c) = @powi_loop _ P e (v a) (v c).
  Proof.
    intros L. induction e; intros; cbn [powi_loop]; cbn [mul with_defaults]; rewrite ?IHe, ?(v_mul _ _ _ _ V L); reflexivity.
  Qed.

  Lemma w_un o a : (forall f, un_uses o f = true -> law f) -> v (@eval_un _ W o a) = @eval_un _ P o (v a).
  Proof.
    intros L. destruct o; cbn [eval_un];
      cbn [neg abs sqrt cbrt sin cos tan exp log expm1 ln_1p log2 log10 floor ceil round trunc signum atan asin acos sinh cosh tanh recip with_defaults];
      unfold default_signum, default_atan, default_asin, default_acos, default_tanh, default_sinh, default_cosh, default_recip;
      try (apply V; fail); try (apply V; apply L; reflexivity);
      rewrite ?(v_ltb _ _ _ _ V), ?(v_zero _ _ _ _ V).
    - destruct (ltb (v a) zero). rewrite (v_neg _ _ _ _ V), (v_one _ _ _ _ V); reflexivity. destruct (ltb zero (v a)); apply V.
    - rewrite (v_atan2 _ _ _ _ V), (v_one _ _ _ _ V). reflexivity.
    - rewrite (v_atan2 _ _ _ _ V), (v_sqrt _ _ _ _ V), (v_sub _ _ _ _ V), (v_mul _ _ _ _ V), (v_one _ _ _ _ V); auto.
    - rewrite (v_atan2 _ _ _ _ V), (v_sqrt _ _ _ _ V), (v_sub _ _ _ _ V), (v_mul _ _ _ _ V), (v_one _ _ _ _ V); auto.
    - rewrite (v_mul _ _ _ _ V) by auto. rewrite (v_sub _ _ _ _ V), !(v_exp _ _ _ _ V), (v_neg _ _ _ _ V), (v_half _ _ _ _ V); auto.
    - rewrite (v_mul _ _ _ _ V) by auto. rewrite (v_add _ _ _ _ V), !(v_exp _ _ _ _ V), (v_neg _ _ _ _ V), (v_half _ _ _ _ V); auto.
    - assert (LM : law Product) by auto. assert (LQ : law Quotient) by auto. etransitivity; [apply (w_safe_div LQ)|].
      unfold safe_div; cbn [eqb zero is_nan ltb nan infinity neg_infinity div with_defaults].
      rewrite !(v_mul _ _ _ _ V LM), (v_sub _ _ _ _ V), (v_add _ _ _ _ V), !(v_exp _ _ _ _ V), (v_neg _ _ _ _ V), (v_half _ _ _ _ V); auto.
    - assert (LQ : law Quotient) by auto. etransitivity; [apply (w_safe_div LQ)|].
      unfold safe_div; cbn [one eqb zero is_nan ltb nan infinity neg_infinity div with_defaults]. rewrite (v_one _ _ _ _ V). reflexivity.
  Qed.

  Lemma w_bin o a b : (forall f, bin_uses o f = true -> law f) -> v (@eval_bin _ W o a b) = @eval_bin _ P o (v a) (v b).
  Proof.
    intros L. destruct o; cbn [eval_bin]; try (cbn [add sub mul div atan2 copysign with_defaults]; apply V; fail);
      try (cbn [add sub mul div atan2 copysign with_defaults]; apply V; apply L; reflexivity);
      try (apply w_safe_div; apply L; reflexivity); cbn [max min hypot powf with_defaults].
    - unfold default_max. rewrite (v_ltb _ _ _ _ V). destruct (ltb (v b) (v a)); reflexivity.
    - unfold default_min. rewrite (v_ltb _ _ _ _ V). destruct (ltb (v a) (v b)); reflexivity.
    - unfold default_hypot. assert (LA : law Absolute) by auto. assert (LM : law Product) by auto. assert (LQ : law Quotient) by auto.
      rewrite (v_ltb _ _ _ _ V), !(v_abs _ _ _ _ V LA).
      destruct (ltb (abs (v b)) (abs (v a))); rewrite (v_eqb _ _ _ _ V), (v_abs _ _ _ _ V LA), (v_zero _ _ _ _ V);
        match goal with |- context [eqb ?x zero] => destruct (eqb x zero); [apply V|] end;
        rewrite (v_mul _ _ _ _ V LM), (v_sqrt _ _ _ _ V), (v_add _ _ _ _ V), (v_mul _ _ _ _ V LM), (v_div _ _ _ _ V LQ), !(v_abs _ _ _ _ V LA), (v_one _ _ _ _ V); reflexivity.
    - unfold default_powf. rewrite (v_exp _ _ _ _ V), (v_mul _ _ _ _ V), (v_log _ _ _ _ V); auto.
  Qed.

  Theorem values_eval e : forall env : nat -> X, (forall f, uses e f = true -> law f) ->
    v (@eval _ W env e) = @eval _ P (fun i => v (env i)) e.
  Proof.
    induction e as [i|n d| |o e IH|o e1 IH1 e2 IH2|e1 IH1 e2 IH2 e3 IH3|e IH n|c e1 IH1 e2 IH2 e3 IH3 e4 IH4]; intros env L; cbn [uses eval] in *.
    - reflexivity.
    - cbn [of_ratio with_defaults]. apply V.
    - cbn [pi with_defaults]. apply V.
    - rewrite <- IH by (intros f Hf; apply L; rewrite Hf; apply orb_true_r). apply w_un. intros f Hf. apply L. rewrite Hf. reflexivity.
    - rewrite <- IH1, <- IH2 by (intros f Hf; apply L; rewrite Hf, ?orb_true_r; reflexivity). apply w_bin. intros f Hf. apply L. rewrite Hf. reflexivity.
    - rewrite <- IH1, <- IH2, <- IH3 by (intros f Hf; apply L; rewrite Hf, ?orb_true_r; reflexivity).
      cbn [mul_add with_defaults]. unfold default_mul_add. rewrite (v_add _ _ _ _ V), (v_mul _ _ _ _ V (L Product eq_refl)). reflexivity.
    - rewrite <- IH by (intros f Hf; apply L; rewrite Hf; apply orb_true_r). unfold powi. destruct n as [|p|p].
      + cbn [one with_defaults]. apply V.
      + rewrite w_powi_loop by (apply L; reflexivity). cbn [one with_defaults]. rewrite (v_one _ _ _ _ V). reflexivity.
      + cbn [div one with_defaults]. rewrite (v_div _ _ _ _ V (L Quotient eq_refl)), w_powi_loop by (apply L; reflexivity).
        rewrite (v_one _ _ _ _ V). reflexivity.
    - rewrite <- IH1, <- IH2, <- IH3, <- IH4 by (intros f Hf; apply L; rewrite Hf, ?orb_true_r; reflexivity).
      destruct c; cbn [eval_cmp]; cbn [ltb leb eqb with_defaults]; rewrite ?(v_ltb _ _ _ _ V), ?(v_leb _ _ _ _ V), ?(v_eqb _ _ _ _ V);
        match goal with |- v (if ?b then _ else _) = _ => destruct b end; reflexivity.
  Qed.
End Eval.

(** Without the operations the floats override, the default bodies do not matter. *)
Lemma shared_eval {T} (NT : Num T) e : forall env, shared e = true -> @eval T (with_defaults NT) env e = eval env e.
Proof.
  induction e as [i|n d| |o e IH|o e1 IH1 e2 IH2|e1 IH1 e2 IH2 e3 IH3|e IH n|c e1 IH1 e2 IH2 e3 IH3 e4 IH4]; cbn [shared eval]; intros env S; try reflexivity; try discriminate.
  - apply andb_true_iff in S as [O S]. rewrite IH by exact S. destruct o; try discriminate; reflexivity.
  - apply andb_true_iff in S as [S S2]. apply andb_true_iff in S as [O S1]. rewrite IH1, IH2 by auto. destruct o; try discriminate; reflexivity.
  - rewrite IH by auto. destruct n; reflexivity.
  - apply andb_true_iff in S as [S S4]. apply andb_true_iff in S as [S S3]. apply andb_true_iff in S as [S1 S2].
    rewrite IH1, IH2, IH3, IH4 by auto. destruct c; reflexivity.
Qed.

Section Instances.
  Context {T : Type} {NT : Num T}.
  Local Open Scope num_scope.

  Lemma dual_values : Values (@dual_base T NT) NT value (fun _ => True).
  Proof. constructor; reflexivity. Qed.

  Definition hyper_law (f : feature) : Prop :=
    match f with Quotient => forall x y : T, x * (one / y) = x / y | _ => True end.
  Lemma hyper_values : Values (@hyper_base T NT) NT real hyper_law.
  Proof. constructor; try reflexivity. intros L a b. exact (L _ _). Qed.

  Definition jet_law (f : feature) : Prop :=
    match f with
    | Product => forall x : T, zero + x = x
    | Quotient => True
    | Absolute => forall x : T, (if x <? zero then - one else one) * x = abs x
    | Tangent => forall x : T, sin x / cos x = tan x
    | OtherLog => forall x : T, log x / log two = log2 x /\ log x / log ten = log10 x
    end.
  Context (N : nat) (HN : (0 < N)%nat).

  Lemma from_fn_0 (f : nat -> T) : nth 0 (from_fn N f) zero = f 0.
  Proof. apply nth_from_fn. exact HN. Qed.
  Lemma constant_0 (x : T) : nth 0 (jet_constant N x) zero = x.
  Proof. unfold jet_constant. apply nth_set_nth_eq. rewrite repeat_length. exact HN. Qed.
  Lemma fold_set (step : Jet T -> nat -> T) : forall n s out, (1 <= s)%nat ->
    let r := fold_left (fun out k => set_nth out k (step out k)) (seq s n) out in nth 0 r zero = nth 0 out zero /\ length r = length out.
  Proof.
    induction n as [|n IH]; intros s out Hs; cbn [seq fold_left]; auto.
    destruct (IH (S s) (set_nth out s (step out s)) ltac:(lia)) as [A C]. cbv zeta in *. rewrite A, C, set_nth_length. split; auto.
    apply nth_set_nth_neq. lia.
  Qed.
  Lemma fill_at_0 step out : nth 0 (fill N step out) zero = nth 0 out zero /\ length (fill N step out) = length out.
  Proof. apply fold_set. lia. Qed.
  Lemma start_at_0 (x : T) : nth 0 (start N x) zero = x /\ length (start N x) = N.
  Proof. unfold start. rewrite set_nth_length, repeat_length. split; auto. apply nth_set_nth_eq. rewrite repeat_length. exact HN. Qed.
  Lemma fold_pair (step : Jet T * Jet T -> nat -> Jet T * Jet T) :
    (forall st k, (1 <= k)%nat -> nth 0 (fst (step st k)) zero = nth 0 (fst st) zero /\ nth 0 (snd (step st k)) zero = nth 0 (snd st) zero) ->
    forall n s st, (1 <= s)%nat -> let r := fold_left step (seq s n) st in
      nth 0 (fst r) zero = nth 0 (fst st) zero /\ nth 0 (snd r) zero = nth 0 (snd st) zero.
  Proof.
    intros H. induction n as [|n IH]; intros s st Hs; cbn [seq fold_left]; auto.
    destruct (IH (S s) (step st s) ltac:(lia)) as [A C]. cbv zeta in *. rewrite A, C. apply H. exact Hs.
  Qed.
  Lemma sin_cos_0 (a : Jet T) : nth 0 (fst (jet_sin_cos N a)) zero = sin (nth 0 a zero) /\ nth 0 (snd (jet_sin_cos N a)) zero = cos (nth 0 a zero).
  Proof.
    unfold jet_sin_cos. edestruct (fold_pair (sin_cos_step a)) as [A C]; [|apply le_n|].
    - intros [s c] k Hk. unfold sin_cos_step. cbn [fst snd]. rewrite !nth_set_nth_neq by lia. auto.
    - rewrite A, C. cbn [fst snd]. split; apply start_at_0.
  Qed.
  Lemma div_0 (a b : Jet T) : nth 0 (jet_div N a b) zero = nth 0 a zero / nth 0 b zero.
  Proof.
    unfold jet_div. assert (EN : seq 0 N = 0%nat :: seq 1 (N - 1)) by (destruct N; [lia|cbn; rewrite Nat.sub_0_r; reflexivity]).
    rewrite EN. cbn [fold_left].
    destruct (fold_set (jet_div_step a b) (N - 1) 1 (set_nth (repeat zero N) 0 (jet_div_step a b (repeat zero N) 0)) (le_n 1)) as [E _].
    cbv zeta in E. rewrite E. rewrite nth_set_nth_eq by (rewrite repeat_length; exact HN). reflexivity.
  Qed.

  Lemma jet_values : Values (@jet_base T NT N) NT jet_value jet_law.
  Proof.
    unfold jet_value.
    assert (F : forall step x, nth 0 (fill N step (start N x)) zero = x).
    { intros. rewrite (proj1 (fill_at_0 _ _)). apply start_at_0. }
    constructor; cbn [zero one half pi nan infinity neg_infinity of_ratio add sub mul div neg abs sqrt cbrt sin cos tan exp log expm1 ln_1p log2 log10 atan2 copysign floor ceil round trunc jet_base]; intros; try apply constant_0; try (apply from_fn_0; fail).
    - unfold jet_mul. rewrite from_fn_0. unfold accumulate. cbn [seq fold_left]. rewrite H. reflexivity.
    - apply div_0.
    - unfold jet_abs. rewrite from_fn_0. apply H.
    - apply F.
    - unfold jet_cbrt. edestruct (fold_pair (cbrt_step a (let w0 := cbrt (nth 0 a zero) * cbrt (nth 0 a zero) in w0 + two * w0))) as [A C]; [|apply le_n|].
      + intros [s c] k Hk. unfold cbrt_step. cbn [fst snd]. rewrite !nth_set_nth_neq by lia. auto.
      + cbv zeta in A. rewrite A. apply start_at_0.
    - apply sin_cos_0.
    - apply sin_cos_0.
    - unfold jet_tan. destruct (jet_sin_cos N a) as [s c] eqn:E. pose proof (sin_cos_0 a) as [S C]. rewrite E in S, C. cbn [fst snd] in S, C. rewrite div_0, S, C. apply H.
    - apply F.
    - apply F.
    - unfold jet_expm1. apply nth_set_nth_eq. unfold jet_exp. rewrite (proj2 (fill_at_0 _ _)), (proj2 (start_at_0 _)). exact HN.
    - apply F.
    - unfold jet_log2. rewrite nth_indep with (d' := zero / log two). 2: { rewrite map_length. unfold jet_log. rewrite (proj2 (fill_at_0 _ _)), (proj2 (start_at_0 _)). exact HN. }
      rewrite (map_nth (fun x => x / log two)). unfold jet_log. rewrite F. apply H.
    - unfold jet_log10. rewrite nth_indep with (d' := zero / log ten). 2: { rewrite map_length. unfold jet_log. rewrite (proj2 (fill_at_0 _ _)), (proj2 (start_at_0 _)). exact HN. }
      rewrite (map_nth (fun x => x / log ten)). unfold jet_log. rewrite F. apply H.
    - apply F.
    - unfold jet_copysign. apply nth_set_nth_eq. rewrite from_fn_length. exact HN.
    - reflexivity.
    - reflexivity.
    - reflexivity.
    - reflexivity.
  Qed.
End Instances.
