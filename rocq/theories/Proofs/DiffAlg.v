(** What it takes for a scalar type to carry derivatives correctly, and the proof by induction on
    formulas that it then does so for every smooth formula.  Shared by Dual, HyperDual and Jet. *)
From Coq Require Import ZArith List Bool Reals Lra Lia.
From Coquelicot Require Import Coquelicot.
From Flocq Require Import Core.Raux.
From Verif Require Import Base.Scalar Base.RNum Base.Deriv Spec.Expr.
Local Open Scope R_scope.

(** Over R, [powi_loop] multiplies [acc] by the power. *)
Lemma powi_loop_R e : forall x acc : R, powi_loop e x acc = acc * x ^ Pos.to_nat e.
Proof.
  induction e; intros; cbn [powi_loop]; rnum.
  - rewrite IHe, Pos2Nat.inj_xI, <- tech_pow_Rmult, pow_mult. replace (x ^ 2) with (x * x) by ring. ring.
  - rewrite IHe, Pos2Nat.inj_xO, pow_mult. replace (x ^ 2) with (x * x) by ring. reflexivity.
  - change (Pos.to_nat 1) with 1%nat. rewrite pow_1. reflexivity.
Qed.

Section Algebra.
  Context {P X : Type} (B : Num X).
  Context (loc : P -> (P -> Prop) -> Prop) (Rep : (P -> R) -> (P -> X) -> P -> Prop).
  Context (cst : R -> X).

  (** [Rep f A p]: near the parameter [p] the family [A] carries [f] and its derivatives. *)
  Record DiffAlg : Prop := {
    da_and : forall p Q1 Q2, loc p Q1 -> loc p Q2 -> loc p (fun q => Q1 q /\ Q2 q);
    da_imp : forall p (Q1 Q2 : P -> Prop), (forall q, Q1 q -> Q2 q) -> loc p Q1 -> loc p Q2;
    da_here : forall p (Q : P -> Prop), loc p Q -> Q p;
    da_all : forall p (Q : P -> Prop), (forall q, Q q) -> loc p Q;
    da_ext : forall f A g C p, Rep f A p -> loc p (fun q => f q = g q) -> loc p (fun q => A q = C q) -> Rep g C p;
    da_gt : forall f A p, Rep f A p -> 0 < f p -> loc p (fun q => 0 < f q);
    da_cst : forall c p, Rep (fun _ => c) (fun _ => cst c) p;
    da_zero : zero = cst 0; da_one : one = cst 1; da_half : half = cst (/2); da_pi : pi = cst PI;
    da_ratio : forall n d, of_ratio n d = cst (IZR n / IZR d);
    da_ltb : forall f A g C p, Rep f A p -> Rep g C p -> loc p (fun q => ltb (A q) (C q) = Rltb (f q) (g q));
    da_leb : forall f A g C p, Rep f A p -> Rep g C p -> loc p (fun q => leb (A q) (C q) = Rleb (f q) (g q));
    da_eqb : forall f A g C p, Rep f A p -> Rep g C p -> loc p (fun q => eqb (A q) (C q) = Reqb (f q) (g q));
    da_add : forall f A g C p, Rep f A p -> Rep g C p -> Rep (fun q => f q + g q) (fun q => add (A q) (C q)) p;
    da_sub : forall f A g C p, Rep f A p -> Rep g C p -> Rep (fun q => f q - g q) (fun q => sub (A q) (C q)) p;
    da_mul : forall f A g C p, Rep f A p -> Rep g C p -> Rep (fun q => f q * g q) (fun q => mul (A q) (C q)) p;
    da_div : forall f A g C p, Rep f A p -> Rep g C p -> g p <> 0 -> Rep (fun q => f q / g q) (fun q => div (A q) (C q)) p;
    da_neg : forall f A p, Rep f A p -> Rep (fun q => - f q) (fun q => neg (A q)) p;
    da_abs : forall f A p, Rep f A p -> f p <> 0 -> Rep (fun q => Rabs (f q)) (fun q => abs (A q)) p;
    da_sqrt : forall f A p, Rep f A p -> 0 < f p -> Rep (fun q => R_sqrt.sqrt (f q)) (fun q => sqrt (A q)) p;
    da_cbrt : forall f A p, Rep f A p -> f p <> 0 -> Rep (fun q => Rcbrt (f q)) (fun q => cbrt (A q)) p;
    da_sin : forall f A p, Rep f A p -> Rep (fun q => Rtrigo_def.sin (f q)) (fun q => sin (A q)) p;
    da_cos : forall f A p, Rep f A p -> Rep (fun q => Rtrigo_def.cos (f q)) (fun q => cos (A q)) p;
    da_tan : forall f A p, Rep f A p -> Rtrigo_def.cos (f p) <> 0 -> Rep (fun q => Rtrigo1.tan (f q)) (fun q => tan (A q)) p;
    da_exp : forall f A p, Rep f A p -> Rep (fun q => Rtrigo_def.exp (f q)) (fun q => exp (A q)) p;
    da_expm1 : forall f A p, Rep f A p -> Rep (fun q => Rtrigo_def.exp (f q) - 1) (fun q => expm1 (A q)) p;
    da_log : forall f A p, Rep f A p -> 0 < f p -> Rep (fun q => ln (f q)) (fun q => log (A q)) p;
    da_ln_1p : forall f A p, Rep f A p -> -1 < f p -> Rep (fun q => ln (1 + f q)) (fun q => ln_1p (A q)) p;
    da_log2 : forall f A p, Rep f A p -> 0 < f p -> Rep (fun q => ln (f q) / ln 2) (fun q => log2 (A q)) p;
    da_log10 : forall f A p, Rep f A p -> 0 < f p -> Rep (fun q => ln (f q) / ln 10) (fun q => log10 (A q)) p;
    da_atan2 : forall f A g C p, Rep f A p -> Rep g C p -> 0 < g p \/ f p <> 0 ->
      Rep (fun q => Ratan2 (f q) (g q)) (fun q => atan2 (A q) (C q)) p;
    da_copysign : forall f A g C p, Rep f A p -> Rep g C p -> f p <> 0 -> g p <> 0 ->
      Rep (fun q => Rcopysign (f q) (g q)) (fun q => copysign (A q) (C q)) p;
    da_floor : forall f A p, Rep f A p -> not_integer (f p) -> Rep (fun q => IZR (Zfloor (f q))) (fun q => floor (A q)) p;
    da_ceil : forall f A p, Rep f A p -> not_integer (f p) -> Rep (fun q => IZR (Zceil (f q))) (fun q => ceil (A q)) p;
    da_round : forall f A p, Rep f A p -> not_integer (f p + /2) -> Rep (fun q => Rround_away (f q)) (fun q => round (A q)) p;
    da_trunc : forall f A p, Rep f A p -> (forall n : Z, f p = IZR n -> n = 0%Z) ->
      Rep (fun q => IZR (Ztrunc (f q))) (fun q => trunc (A q)) p;
    da_hypot : forall f A g C p, Rep f A p -> Rep g C p -> f p <> 0 \/ g p <> 0 ->
      Rep (fun q => R_sqrt.sqrt (f q * f q + g q * g q)) (fun q => default_hypot (A q) (C q)) p
  }.

  Context (DA : DiffAlg).
  Notation W := (with_defaults B).

  Lemma da_lt0 f A p : Rep f A p -> f p < 0 -> loc p (fun q => f q < 0).
  Proof.
    intros H L. pose proof (da_gt DA _ _ p (da_neg DA _ _ p H) ltac:(cbv beta; lra)) as G.
    revert G. apply (da_imp DA). intros q. cbv beta. lra.
  Qed.
  Lemma da_neq0 f A p : Rep f A p -> f p <> 0 -> loc p (fun q => f q <> 0).
  Proof.
    intros H N. destruct (Rdichotomy _ _ N) as [L|L].
    - generalize (da_lt0 _ _ _ H L). apply (da_imp DA). intros; lra.
    - generalize (da_gt DA _ _ _ H L). apply (da_imp DA). intros; lra.
  Qed.
  Lemma da_near f A g C p : Rep f A p -> Rep g C p -> f p < g p -> loc p (fun q => f q < g q).
  Proof.
    intros H K L. pose proof (da_gt DA _ _ p (da_sub DA _ _ _ _ p K H) ltac:(cbv beta; lra)) as G.
    revert G. apply (da_imp DA). intros q. cbv beta. lra.
  Qed.
  Lemma da_extl f A g p : Rep f A p -> loc p (fun q => f q = g q) -> Rep g A p.
  Proof. intros H L. apply (da_ext DA _ _ _ _ _ H L). apply (da_all DA). auto. Qed.
  Lemma da_extr f A C p : Rep f A p -> loc p (fun q => A q = C q) -> Rep f C p.
  Proof. intros H L. apply (da_ext DA _ _ _ _ _ H); auto. apply (da_all DA). auto. Qed.
  Lemma da_eql f A g p : Rep f A p -> (forall q, f q = g q) -> Rep g A p.
  Proof. intros H L. apply (da_extl _ _ _ _ H). apply (da_all DA). auto. Qed.
  Lemma da_1 p : Rep (fun _ => 1) (fun _ => one) p.
  Proof. rewrite (da_one DA). apply (da_cst DA). Qed.
  Lemma da_0 p : Rep (fun _ => 0) (fun _ => zero) p.
  Proof. rewrite (da_zero DA). apply (da_cst DA). Qed.

  Ltac mix H := revert H; apply (da_imp DA).

  Lemma da_safe_div f A g C p : Rep f A p -> Rep g C p -> g p <> 0 ->
    Rep (fun q => f q / g q) (fun q => safe_div (A q) (C q)) p.
  Proof.
    intros H K N. apply (da_extr _ _ _ _ (da_div DA _ _ _ _ _ H K N)).
    pose proof (da_and DA _ _ _ (da_eqb DA _ _ _ _ _ K (da_0 p)) (da_neq0 _ _ _ K N)) as G. mix G.
    intros q [E Q]. unfold safe_div. rewrite E. unfold Reqb. destruct (Req_EM_T (g q) 0); [contradiction|reflexivity].
  Qed.

  Lemma da_signum f A p : Rep f A p -> f p <> 0 -> Rep (fun q => Rsignum (f q)) (fun q => default_signum (A q)) p.
  Proof.
    intros H N. pose proof (da_and DA _ _ _ (da_ltb DA _ _ _ _ _ H (da_0 p)) (da_ltb DA _ _ _ _ _ (da_0 p) H)) as E.
    destruct (Rdichotomy _ _ N) as [L|L].
    - pose proof (da_lt0 _ _ _ H L) as S. apply (da_ext DA (fun _ => - (1)) (fun _ => neg one)).
      + apply (da_neg DA (fun _ => 1)). apply da_1.
      + mix S. intros q Q. unfold Rsignum. destruct (Rlt_dec (f q) 0); lra.
      + pose proof (da_and DA _ _ _ E S) as G. mix G. intros q [[E1 E2] Q]. unfold default_signum. rewrite E1.
        unfold Rltb. destruct (Rlt_dec (f q) 0); [reflexivity|lra].
    - pose proof (da_gt DA _ _ _ H L) as S. apply (da_ext DA (fun _ => 1) (fun _ => one)).
      + apply da_1.
      + mix S. intros q Q. unfold Rsignum. destruct (Rlt_dec (f q) 0); lra.
      + pose proof (da_and DA _ _ _ E S) as G. mix G. intros q [[E1 E2] Q]. unfold default_signum. rewrite E1, E2.
        unfold Rltb. destruct (Rlt_dec (f q) 0), (Rlt_dec 0 (f q)); try lra; reflexivity.
  Qed.

  Lemma da_max f A g C p : Rep f A p -> Rep g C p -> f p <> g p ->
    Rep (fun q => Rmax (f q) (g q)) (fun q => default_max (A q) (C q)) p.
  Proof.
    intros H K N. pose proof (da_ltb DA _ _ _ _ _ K H) as E. destruct (Rdichotomy _ _ N) as [L|L].
    - pose proof (da_and DA _ _ _ E (da_near _ _ _ _ _ H K L)) as G. apply (da_ext DA g C); auto; mix G; intros q [E1 Q].
      + symmetry. apply Rmax_right. lra.
      + unfold default_max. rewrite E1. unfold Rltb. destruct (Rlt_dec (g q) (f q)); [lra|reflexivity].
    - pose proof (da_and DA _ _ _ E (da_near _ _ _ _ _ K H L)) as G. apply (da_ext DA f A); auto; mix G; intros q [E1 Q].
      + symmetry. apply Rmax_left. lra.
      + unfold default_max. rewrite E1. unfold Rltb. destruct (Rlt_dec (g q) (f q)); [reflexivity|lra].
  Qed.
  Lemma da_min f A g C p : Rep f A p -> Rep g C p -> f p <> g p ->
    Rep (fun q => Rmin (f q) (g q)) (fun q => default_min (A q) (C q)) p.
  Proof.
    intros H K N. pose proof (da_ltb DA _ _ _ _ _ H K) as E. destruct (Rdichotomy _ _ N) as [L|L].
    - pose proof (da_and DA _ _ _ E (da_near _ _ _ _ _ H K L)) as G. apply (da_ext DA f A); auto; mix G; intros q [E1 Q].
      + symmetry. apply Rmin_left. lra.
      + unfold default_min. rewrite E1. unfold Rltb. destruct (Rlt_dec (f q) (g q)); [reflexivity|lra].
    - pose proof (da_and DA _ _ _ E (da_near _ _ _ _ _ K H L)) as G. apply (da_ext DA g C); auto; mix G; intros q [E1 Q].
      + symmetry. apply Rmin_right. lra.
      + unfold default_min. rewrite E1. unfold Rltb. destruct (Rlt_dec (f q) (g q)); [lra|reflexivity].
  Qed.

  Lemma da_1mx2 f A p : Rep f A p -> Rep (fun q => 1 - f q * f q) (fun q => sub one (mul (A q) (A q))) p.
  Proof. intros H. apply (da_sub DA (fun _ => 1) (fun _ => one)). apply da_1. apply (da_mul DA); auto. Qed.

  Lemma da_atan f A p : Rep f A p -> Rep (fun q => Ratan.atan (f q)) (fun q => default_atan (A q)) p.
  Proof.
    intros H. apply (da_eql (fun q => Ratan2 (f q) 1)); [|intros; apply atan_default].
    apply (da_atan2 DA f A (fun _ => 1) (fun _ => one)); auto. apply da_1. left; lra.
  Qed.
  Lemma da_between f A p : Rep f A p -> -1 < f p < 1 -> loc p (fun q => -1 < f q < 1).
  Proof.
    intros H [L U]. apply (da_and DA).
    - pose proof (da_near _ _ _ _ _ (da_neg DA _ _ p (da_1 p)) H ltac:(cbv beta; lra)) as G. mix G. cbv beta. intros; lra.
    - pose proof (da_near _ _ _ _ _ H (da_1 p) U) as G. mix G. cbv beta. intros; lra.
  Qed.
  Lemma da_asin f A p : Rep f A p -> -1 < f p < 1 -> Rep (fun q => Ratan.asin (f q)) (fun q => default_asin (A q)) p.
  Proof.
    intros H O. apply (da_extl (fun q => Ratan2 (f q) (R_sqrt.sqrt (1 - f q * f q)))).
    - apply (da_atan2 DA f A _ (fun q => sqrt (sub one (mul (A q) (A q))))); auto.
      + apply (da_sqrt DA (fun q => 1 - f q * f q)). apply da_1mx2; auto. nra.
      + left. apply sqrt_lt_R0. nra.
    - generalize (da_between _ _ _ H O). apply (da_imp DA). intros q Q. apply asin_default; auto.
  Qed.
  Lemma da_acos f A p : Rep f A p -> -1 < f p < 1 -> Rep (fun q => Ratan.acos (f q)) (fun q => default_acos (A q)) p.
  Proof.
    intros H O. apply (da_extl (fun q => Ratan2 (R_sqrt.sqrt (1 - f q * f q)) (f q))).
    - apply (da_atan2 DA _ (fun q => sqrt (sub one (mul (A q) (A q)))) f A); auto.
      + apply (da_sqrt DA (fun q => 1 - f q * f q)). apply da_1mx2; auto. nra.
      + right. assert (0 < R_sqrt.sqrt (1 - f p * f p)) by (apply sqrt_lt_R0; nra). lra.
    - generalize (da_between _ _ _ H O). apply (da_imp DA). intros q Q. apply acos_default; auto.
  Qed.
  Lemma da_h p : Rep (fun _ => /2) (fun _ => half) p.
  Proof. rewrite (da_half DA). apply (da_cst DA). Qed.
  Lemma da_sinh f A p : Rep f A p -> Rep (fun q => Rtrigo_def.sinh (f q)) (fun q => default_sinh (A q)) p.
  Proof.
    intros H. refine (da_eql _ _ _ _ (da_mul DA (fun q => Rtrigo_def.exp (f q) - Rtrigo_def.exp (- f q)) _ (fun _ => /2) _ _ _ (da_h p)) _).
    - apply (da_sub DA (fun q => Rtrigo_def.exp (f q))). apply (da_exp DA); auto.
      apply (da_exp DA (fun q => - f q)). apply (da_neg DA); auto.
    - intros q. unfold Rtrigo_def.sinh. lra.
  Qed.
  Lemma da_cosh f A p : Rep f A p -> Rep (fun q => Rtrigo_def.cosh (f q)) (fun q => default_cosh (A q)) p.
  Proof.
    intros H. refine (da_eql _ _ _ _ (da_mul DA (fun q => Rtrigo_def.exp (f q) + Rtrigo_def.exp (- f q)) _ (fun _ => /2) _ _ _ (da_h p)) _).
    - apply (da_add DA (fun q => Rtrigo_def.exp (f q))). apply (da_exp DA); auto.
      apply (da_exp DA (fun q => - f q)). apply (da_neg DA); auto.
    - intros q. unfold Rtrigo_def.cosh. lra.
  Qed.
  Lemma da_tanh f A p : Rep f A p -> Rep (fun q => Rtrigo_def.tanh (f q)) (fun q => default_tanh (A q)) p.
  Proof.
    intros H. apply da_safe_div. apply da_sinh; auto. apply da_cosh; auto.
    pose proof (cosh_pos (f p)). lra.
  Qed.
  Lemma da_recip f A p : Rep f A p -> f p <> 0 -> Rep (fun q => / f q) (fun q => default_recip (A q)) p.
  Proof.
    intros H N. refine (da_eql _ _ _ _ (da_safe_div (fun _ => 1) _ f A p (da_1 p) H N) _).
    intros q. unfold Rdiv. lra.
  Qed.
  Lemma da_powf f A g C p : Rep f A p -> Rep g C p -> 0 < f p ->
    Rep (fun q => Rpower (f q) (g q)) (fun q => default_powf (A q) (C q)) p.
  Proof.
    intros H K O. unfold Rpower. apply (da_exp DA (fun q => g q * ln (f q))). apply (da_mul DA); auto.
    apply (da_log DA); auto.
  Qed.

  Lemma da_powi_loop e : forall f A g C p, Rep f A p -> Rep g C p ->
    Rep (fun q => powi_loop e (f q) (g q)) (fun q => @powi_loop X W e (A q) (C q)) p.
  Proof.
    induction e; intros f A g C p H K; cbn [powi_loop].
    - apply IHe; apply (da_mul DA); auto.
    - apply IHe; auto; apply (da_mul DA); auto.
    - apply (da_mul DA); auto.
  Qed.
  Lemma da_powi f A p n : Rep f A p -> ((n < 0)%Z -> f p <> 0) ->
    Rep (fun q => powi (f q) n) (fun q => @powi X W (A q) n) p.
  Proof.
    intros H O. destruct n; cbn [powi].
    - apply da_1.
    - apply (da_powi_loop p0 f A (fun _ => 1)); auto. apply da_1.
    - apply (da_div DA (fun _ => 1) (fun _ => one)). apply da_1.
      apply (da_powi_loop p0 f A (fun _ => 1)); auto. apply da_1.
      rewrite powi_loop_R. rnum. rewrite Rmult_1_l. apply pow_nonzero. apply O. lia.
  Qed.

  (** A comparison of two families that do not tie keeps its outcome nearby, and is that of the values. *)
  Lemma da_cmp c f A g C p : Rep f A p -> Rep g C p -> f p <> g p ->
    loc p (fun q => eval_cmp c (f q) (g q) = eval_cmp c (f p) (g p) /\
                    @eval_cmp X W c (A q) (C q) = eval_cmp c (f p) (g p)).
  Proof.
    intros H K N.
    assert (Z0 : loc p (fun q => (f q < g q /\ f p < g p) \/ (g q < f q /\ g p < f p))).
    { destruct (Rdichotomy _ _ N) as [L|L].
      - pose proof (da_near _ _ _ _ _ H K L) as G. mix G. auto.
      - pose proof (da_near _ _ _ _ _ K H L) as G. mix G. auto. }
    destruct c; cbn.
    - pose proof (da_and DA _ _ _ Z0 (da_ltb DA _ _ _ _ _ H K)) as G. mix G. intros q [S E].
      assert (Q : Rltb (f q) (g q) = Rltb (f p) (g p)).
      { unfold Rltb. destruct (Rlt_dec (f q) (g q)), (Rlt_dec (f p) (g p)); auto; lra. }
      rnum. split; congruence.
    - pose proof (da_and DA _ _ _ Z0 (da_leb DA _ _ _ _ _ H K)) as G. mix G. intros q [S E].
      assert (Q : Rleb (f q) (g q) = Rleb (f p) (g p)).
      { unfold Rleb. destruct (Rle_dec (f q) (g q)), (Rle_dec (f p) (g p)); auto; lra. }
      rnum. split; congruence.
    - pose proof (da_and DA _ _ _ Z0 (da_eqb DA _ _ _ _ _ H K)) as G. mix G. intros q [S E].
      assert (Q : Reqb (f q) (g q) = Reqb (f p) (g p)).
      { unfold Reqb. destruct (Req_EM_T (f q) (g q)), (Req_EM_T (f p) (g p)); auto; lra. }
      rnum. split; congruence.
  Qed.

  Theorem eval_rep (env : P -> nat -> R) (Env : P -> nat -> X) (p : P) :
    (forall i, Rep (fun q => env q i) (fun q => Env q i) p) ->
    forall e, smooth (env p) e ->
    Rep (fun q => eval (env q) e) (fun q => @eval X W (Env q) e) p.
  Proof.
    intros V. induction e; cbn [smooth eval]; intros S.
    - apply V.
    - apply (da_ext DA _ _ _ _ _ (da_cst DA (IZR n / IZR d) p)).
      + apply (da_all DA). reflexivity.
      + apply (da_all DA). intros. symmetry. apply (da_ratio DA).
    - apply (da_ext DA _ _ _ _ _ (da_cst DA PI p)).
      + apply (da_all DA). reflexivity.
      + apply (da_all DA). intros. symmetry. apply (da_pi DA).
    - destruct S as [S O]. specialize (IHe S).
      destruct o; cbn [un_ok eval_un] in *.
      + apply (da_neg DA); auto. + apply (da_abs DA); auto. + apply (da_sqrt DA); auto.
      + apply (da_cbrt DA); auto. + apply (da_sin DA); auto. + apply (da_cos DA); auto.
      + apply (da_tan DA); auto. + apply (da_exp DA); auto. + apply (da_log DA); auto.
      + apply (da_expm1 DA); auto. + apply (da_ln_1p DA); auto. + apply (da_log2 DA); auto.
      + apply (da_log10 DA); auto. + apply (da_floor DA); auto. + apply (da_ceil DA); auto.
      + apply (da_round DA); auto. + apply (da_trunc DA); auto.
      + apply da_signum; auto. + apply da_atan; auto. + apply da_asin; auto. + apply da_acos; auto.
      + apply da_sinh; auto. + apply da_cosh; auto. + apply da_tanh; auto. + apply da_recip; auto.
    - destruct S as (S1 & S2 & O). specialize (IHe1 S1). specialize (IHe2 S2).
      destruct o; cbn [bin_ok eval_bin] in *.
      + apply (da_add DA); auto. + apply (da_sub DA); auto. + apply (da_mul DA); auto.
      + apply (da_div DA); auto. + apply (da_atan2 DA); auto. + apply (da_copysign DA); tauto.
      + apply da_max; auto. + apply da_min; auto. + apply (da_hypot DA); auto.
      + apply da_powf; auto.
      + apply (da_extl (fun q => eval (env q) e1 / eval (env q) e2)).
        * apply da_safe_div; auto.
        * generalize (da_neq0 _ _ _ IHe2 O). apply (da_imp DA). intros q Q. unfold safe_div. rnum.
          unfold Reqb. destruct (Req_EM_T (eval (env q) e2) 0); [contradiction|reflexivity].
    - destruct S as (S1 & S2 & S3). apply (da_add DA (fun q => eval (env q) e1 * eval (env q) e2)); auto.
      apply (da_mul DA); auto.
    - destruct S as [S O]. apply da_powi; auto.
    - destruct S as (S1 & S2 & N & S3).
      pose proof (da_cmp c _ _ _ _ _ (IHe1 S1) (IHe2 S2) N) as G. cbv beta in G.
      destruct (eval_cmp c (eval (env p) e1) (eval (env p) e2)).
      + apply (da_ext DA _ _ _ _ _ (IHe3 S3)); mix G; intros q [G1 G2]; [rewrite G1|rewrite G2]; reflexivity.
      + apply (da_ext DA _ _ _ _ _ (IHe4 S3)); mix G; intros q [G1 G2]; [rewrite G1|rewrite G2]; reflexivity.
  Qed.
End Algebra.
