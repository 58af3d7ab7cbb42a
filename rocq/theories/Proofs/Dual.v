(** Dual numbers carry first derivatives. *)
From Coq Require Import ZArith List Bool Reals Lra Lia.
From Coquelicot Require Import Coquelicot.
From Flocq Require Import Core.Raux.
From Verif Require Import Base.Scalar Base.RNum Base.Trig Base.Deriv Model.Dual Spec.Expr Proofs.DiffAlg.
Local Open Scope R_scope.

(** ** Derivatives over R *)
Definition dual_rep (f : R -> R) (A : R -> Dual R) (t : R) : Prop :=
  locally t (fun s => value (A s) = f s) /\ is_derive f t (deriv (A t)).

Lemma dual_rep_val f A t : dual_rep f A t -> value (A t) = f t.
Proof. intros [H _]. apply (locally_singleton _ _ H). Qed.
Lemma dual_rep_cont f A t : dual_rep f A t -> continuous f t.
Proof. intros [_ H]. eapply derive_cont. exact H. Qed.

Lemma dual_un (phi d : R -> R) (op : Dual R -> Dual R) f A t :
  (forall a, value (op a) = phi (value a)) -> (forall a, value a = f t -> deriv (op a) = d (value a) * deriv a) ->
  dual_rep f A t -> is_derive phi (f t) (d (f t)) -> dual_rep (fun s => phi (f s)) (fun s => op (A s)) t.
Proof.
  intros V Dv H K. pose proof (dual_rep_val _ _ _ H) as E. destruct H as [L D]. split.
  - revert L. apply filter_imp. intros s S. rewrite V, S. reflexivity.
  - rewrite Dv by exact E. rewrite E. apply is_derive_chain; auto.
Qed.

(** a step function *)
Lemma dual_step (phi : R -> R) (op : Dual R -> Dual R) f A t :
  (forall a, op a = mkDual (phi (value a)) 0) -> dual_rep f A t -> locally (f t) (fun v => phi v = phi (f t)) ->
  dual_rep (fun s => phi (f s)) (fun s => op (A s)) t.
Proof.
  intros E H K. apply (dual_un phi (fun _ => 0)); auto.
  - intros a. rewrite E. reflexivity.
  - intros a _. rewrite E. cbn. ring.
  - apply const_near. exact K.
Qed.

Lemma hyp_slope mx mn dmx dmn : 0 < mx ->
  let r := R_sqrt.sqrt (1 + mn / mx * (mn / mx)) in
  let ratio := mn / mx in
  let dratio := (dmn * mx - mn * dmx) / (mx * mx) in
  mx * ((0 + (ratio * dratio + dratio * ratio)) / (2 * r)) + dmx * r = (mx * dmx + mn * dmn) / R_sqrt.sqrt (mx * mx + mn * mn).
Proof.
  intros H. cbv zeta.
  assert (P : 0 < R_sqrt.sqrt (1 + mn / mx * (mn / mx))) by (apply sqrt_lt_R0; nra).
  assert (S : R_sqrt.sqrt (1 + mn / mx * (mn / mx)) * R_sqrt.sqrt (1 + mn / mx * (mn / mx)) = 1 + mn / mx * (mn / mx)).
  { apply sqrt_sqrt. nra. }
  pose proof (hyp_factor mx mn ltac:(lra)) as F. unfold hyp in F. rewrite F, Rabs_pos_eq by lra.
  set (r := R_sqrt.sqrt _) in *.
  apply Rmult_eq_reg_r with (r := mx * r); [|nra].
  transitivity (mx * dmx + mn * dmn); [|field; lra].
  transitivity (mx * mx * (mn / mx) * ((dmn * mx - mn * dmx) / (mx * mx)) + dmx * mx * (r * r)); [field; lra|].
  rewrite S. field. lra.
Qed.

Lemma hypot_value_case x y : x <> 0 \/ y <> 0 ->
  let a := Rabs x in let b := Rabs y in
  let mx := if Rltb b a then a else b in
  let mn := if Rltb b a then b else a in
  0 < mx /\ mx * R_sqrt.sqrt (1 + mn / mx * (mn / mx)) = R_sqrt.sqrt (x * x + y * y).
Proof.
  intros H. cbv zeta.
  pose proof (Rabs_pos x) as Px. pose proof (Rabs_pos y) as Py.
  assert (Sx : Rabs x * Rabs x = x * x) by (rewrite <- Rabs_mult; apply Rabs_pos_eq; nra).
  assert (Sy : Rabs y * Rabs y = y * y) by (rewrite <- Rabs_mult; apply Rabs_pos_eq; nra).
  assert (0 < Rabs x \/ 0 < Rabs y) by (destruct H; [left|right]; apply Rabs_pos_lt; auto).
  unfold Rltb. destruct (Rlt_dec (Rabs y) (Rabs x)).
  - split; [lra|]. pose proof (hyp_factor (Rabs x) (Rabs y) ltac:(lra)) as F.
    rewrite Rabs_Rabsolu in F. rewrite <- F. unfold hyp. f_equal. lra.
  - assert (0 < Rabs y) by lra. split; [lra|]. pose proof (hyp_factor (Rabs y) (Rabs x) ltac:(lra)) as F.
    rewrite Rabs_Rabsolu in F. rewrite <- F. unfold hyp. f_equal. lra.
Qed.

Lemma dual_hypot_R (x y : Dual R) : value x <> 0 \/ value y <> 0 ->
  @default_hypot _ dual_base x y =
  mkDual (R_sqrt.sqrt (value x * value x + value y * value y))
         ((value x * deriv x + value y * deriv y) / R_sqrt.sqrt (value x * value x + value y * value y)).
Proof.
  intros H. pose proof (hypot_value_case _ _ H) as HV. cbv zeta in HV.
  unfold default_hypot. cbn [abs ltb eqb zero one add mul div sqrt dual_base].
  unfold dual_abs. cbn [value]. rnum.
  assert (Sx : Rabs (value x) * (if Rltb (value x) 0 then - deriv x else deriv x) = value x * deriv x).
  { unfold Rltb. destruct (Rlt_dec (value x) 0). rewrite Rabs_left by lra. ring. rewrite Rabs_pos_eq by lra. ring. }
  assert (Sy : Rabs (value y) * (if Rltb (value y) 0 then - deriv y else deriv y) = value y * deriv y).
  { unfold Rltb. destruct (Rlt_dec (value y) 0). rewrite Rabs_left by lra. ring. rewrite Rabs_pos_eq by lra. ring. }
  assert (Qx : Rabs (value x) * Rabs (value x) = value x * value x) by (rewrite <- Rabs_mult; apply Rabs_pos_eq; nra).
  assert (Qy : Rabs (value y) * Rabs (value y) = value y * value y) by (rewrite <- Rabs_mult; apply Rabs_pos_eq; nra).
  destruct (Rltb (Rabs (value y)) (Rabs (value x))); destruct HV as [P V]; cbn [value deriv dual_constant];
    rewrite (proj2 (Reqb_false _ _)) by lra;
    unfold dual_sqrt, dual_add, dual_mul, dual_div; cbn [value deriv dual_constant]; rnum; f_equal; try exact V.
  - rewrite <- Sx, <- Sy, <- Qx, <- Qy. apply hyp_slope. exact P.
  - rewrite <- Sx, <- Sy, <- Qx, <- Qy. rewrite hyp_slope by exact P. rewrite (Rplus_comm (_ * _) (Rabs (value y) * _)).
    rewrite (Rplus_comm (Rabs (value x) * Rabs (value x))). reflexivity.
Qed.

Ltac dun phi d := apply (dual_un phi d); [intros; reflexivity | intros; cbn; rnum | auto | ].

Theorem dual_diffalg : DiffAlg dual_base (fun t => locally t) dual_rep dual_constant.
Proof.
  split; try reflexivity; intros.
  - apply filter_and; auto.
  - revert H0. apply filter_imp. auto.
  - apply (locally_singleton _ _ H).
  - apply filter_forall. auto.
  - destruct H as [L D]. split.
    + generalize (filter_and _ _ L (filter_and _ _ H0 H1)). apply filter_imp. intros q (E1 & E2 & E3). congruence.
    + rewrite <- (locally_singleton _ _ H1). apply (is_derive_ext_loc f); auto.
  - apply (locally_gt f p 0); auto. eapply dual_rep_cont; eauto.
  - split; [apply filter_forall; reflexivity|apply is_derive_cst].
  - generalize (filter_and _ _ (proj1 H) (proj1 H0)). apply filter_imp. intros q [E1 E2]. cbn. rewrite E1, E2. reflexivity.
  - generalize (filter_and _ _ (proj1 H) (proj1 H0)). apply filter_imp. intros q [E1 E2]. cbn. rewrite E1, E2. reflexivity.
  - generalize (filter_and _ _ (proj1 H) (proj1 H0)). apply filter_imp. intros q [E1 E2]. cbn. rewrite E1, E2. reflexivity.
  - split; [generalize (filter_and _ _ (proj1 H) (proj1 H0)); apply filter_imp; intros q [E1 E2]; cbn; congruence|].
    cbn. apply is_derive_sum; [apply H|apply H0].
  - split; [generalize (filter_and _ _ (proj1 H) (proj1 H0)); apply filter_imp; intros q [E1 E2]; cbn; congruence|].
    cbn. apply is_derive_diff; [apply H|apply H0].
  - split; [generalize (filter_and _ _ (proj1 H) (proj1 H0)); apply filter_imp; intros q [E1 E2]; cbn; congruence|].
    eapply is_derive_eq; [apply is_derive_prod; [apply H|apply H0]|].
    cbn. rewrite (dual_rep_val _ _ _ H), (dual_rep_val _ _ _ H0). ring.
  - split; [generalize (filter_and _ _ (proj1 H) (proj1 H0)); apply filter_imp; intros q [E1 E2]; cbn; congruence|].
    eapply is_derive_eq; [apply is_derive_quot; [apply H|apply H0|auto]|].
    cbn. rewrite (dual_rep_val _ _ _ H), (dual_rep_val _ _ _ H0). reflexivity.
  - split; [generalize (proj1 H); apply filter_imp; intros q E1; cbn; congruence|].
    cbn. apply is_derive_neg. apply H.
  - (* abs *) dun Rabs (fun v => if Rltb v 0 then -1 else 1).
    + unfold Rltb. destruct (Rlt_dec (value a) 0); ring.
    + apply is_derive_abs'; auto.
  - dun R_sqrt.sqrt (fun v => / (2 * R_sqrt.sqrt v)). unfold Rdiv. ring. apply is_derive_sqrt'; auto.
  - dun Rcbrt (fun v => / (3 * Rcbrt v * Rcbrt v)). unfold Rdiv. ring. apply is_derive_cbrt; auto.
  - dun Rtrigo_def.sin Rtrigo_def.cos. reflexivity. apply is_derive_sin'.
  - dun Rtrigo_def.cos (fun v => - Rtrigo_def.sin v). reflexivity. apply is_derive_cos'.
  - dun Rtrigo1.tan (fun v => 1 + Rtrigo1.tan v * Rtrigo1.tan v). reflexivity. apply is_derive_tan'; auto.
  - dun Rtrigo_def.exp Rtrigo_def.exp. reflexivity. apply is_derive_exp'.
  - dun (fun v => Rtrigo_def.exp v - 1) Rtrigo_def.exp. reflexivity.
    eapply is_derive_eq; [apply is_derive_diff; [apply is_derive_exp'|apply is_derive_cst]|]. ring.
  - dun ln Rinv. unfold Rdiv. ring. apply is_derive_ln'; auto.
  - dun (fun v => ln (1 + v)) (fun v => / (1 + v)). rewrite (Rplus_comm 1). unfold Rdiv. ring.
    eapply is_derive_eq; [apply (is_derive_chain ln (fun v => 1 + v)); [apply is_derive_ln'; lra|]|].
    { apply is_derive_sum; [apply is_derive_cst|apply is_derive_var]. } ring.
  - dun (fun v => ln v / ln 2) (fun v => / v / ln 2). unfold Rdiv. ring.
    apply (is_derive_ext (fun v => / ln 2 * ln v)). { intros; unfold Rdiv; apply Rmult_comm. }
    eapply is_derive_eq; [apply is_derive_prod; [apply is_derive_cst|apply is_derive_ln'; auto]|]. unfold Rdiv; ring.
  - dun (fun v => ln v / ln 10) (fun v => / v / ln 10). unfold Rdiv. ring.
    apply (is_derive_ext (fun v => / ln 10 * ln v)). { intros; unfold Rdiv; apply Rmult_comm. }
    eapply is_derive_eq; [apply is_derive_prod; [apply is_derive_cst|apply is_derive_ln'; auto]|]. unfold Rdiv; ring.
  - (* atan2 *)
    split; [generalize (filter_and _ _ (proj1 H) (proj1 H0)); apply filter_imp; intros q [E1 E2]; cbn; congruence|].
    eapply is_derive_eq; [apply is_derive_atan2; [apply H|apply H0|auto]|].
    cbn. rewrite (dual_rep_val _ _ _ H), (dual_rep_val _ _ _ H0). reflexivity.
  - (* copysign *)
    split; [generalize (filter_and _ _ (proj1 H) (proj1 H0)); apply filter_imp; intros q [E1 E2]; cbn; congruence|].
    cbn. rewrite (dual_rep_val _ _ _ H), (dual_rep_val _ _ _ H0).
    pose proof (dual_rep_cont _ _ _ H) as Cf. pose proof (dual_rep_cont _ _ _ H0) as Cg.
    unfold Rltb. destruct (Rlt_dec (f p) 0) as [a|a], (Rlt_dec (g p) 0) as [b|b]; cbn [Bool.eqb].
    + apply (is_derive_ext_loc f); [|apply H].
      generalize (filter_and _ _ (locally_lt _ _ _ Cf a) (locally_lt _ _ _ Cg b)). apply filter_imp. intros q [Q1 Q2].
      unfold Rcopysign. destruct (Rlt_dec (g q) 0); [|lra]. rewrite Rabs_left; lra.
    + apply (is_derive_ext_loc (fun q => - f q)); [|apply is_derive_neg; apply H].
      generalize (filter_and _ _ (locally_lt _ _ _ Cf a) (locally_gt _ _ 0 Cg ltac:(lra))). apply filter_imp. intros q [Q1 Q2].
      unfold Rcopysign. destruct (Rlt_dec (g q) 0); [lra|]. rewrite Rabs_left; lra.
    + apply (is_derive_ext_loc (fun q => - f q)); [|apply is_derive_neg; apply H].
      pose proof (locally_gt f p 0 Cf ltac:(lra)) as Gf.
      generalize (filter_and _ _ Gf (locally_lt _ _ _ Cg b)). apply filter_imp. intros q [Q1 Q2].
      unfold Rcopysign. destruct (Rlt_dec (g q) 0); [|lra]. rewrite Rabs_pos_eq; lra.
    + apply (is_derive_ext_loc f); [|apply H].
      pose proof (locally_gt f p 0 Cf ltac:(lra)) as Gf. pose proof (locally_gt g p 0 Cg ltac:(lra)) as Gg.
      generalize (filter_and _ _ Gf Gg). apply filter_imp. intros q [Q1 Q2].
      unfold Rcopysign. destruct (Rlt_dec (g q) 0); [lra|]. rewrite Rabs_pos_eq; lra.
  - apply (dual_step (fun v => IZR (Zfloor v))); auto.
    generalize (floor_near _ H0). apply filter_imp. intros q ->. reflexivity.
  - apply (dual_step (fun v => IZR (Zceil v))); auto.
    generalize (ceil_near _ H0). apply filter_imp. intros q ->. reflexivity.
  - apply (dual_step Rround_away); auto. apply round_near; auto.
  - apply (dual_step (fun v => IZR (Ztrunc v))); auto.
    generalize (trunc_near _ H0). apply filter_imp. intros q ->. reflexivity.
  - (* hypot *)
    pose proof (dual_rep_val _ _ _ H) as Ef. pose proof (dual_rep_val _ _ _ H0) as Eg.
    assert (N : 0 < f p * f p + g p * g p) by (destruct H1; nra).
    split.
    + assert (Cs : continuous (fun q => f q * f q + g q * g q) p).
      { eapply derive_cont. apply (is_derive_sum (fun q => f q * f q) (fun q => g q * g q)); apply is_derive_prod; first [exact (proj2 H)|exact (proj2 H0)]. }
      generalize (filter_and _ _ (locally_gt _ _ 0 Cs N) (filter_and _ _ (proj1 H) (proj1 H0))). apply filter_imp.
      intros q (Q & E1 & E2). rewrite dual_hypot_R. { cbn [value]. rewrite E1, E2. reflexivity. }
      rewrite E1, E2. destruct (Req_dec (f q) 0) as [Z0|]; auto. destruct (Req_dec (g q) 0) as [Z1|]; auto. nra.
    + rewrite dual_hypot_R by (rewrite Ef, Eg; auto). cbn [deriv]. rewrite Ef, Eg.
      eapply is_derive_eq.
      { apply (is_derive_chain R_sqrt.sqrt (fun q => f q * f q + g q * g q)). apply is_derive_sqrt'; auto.
        apply (is_derive_sum (fun q => f q * f q) (fun q => g q * g q)); apply is_derive_prod; first [exact (proj2 H)|exact (proj2 H0)]. }
      assert (0 < R_sqrt.sqrt (f p * f p + g p * g p)) by (apply sqrt_lt_R0; auto). field. lra.
Qed.
