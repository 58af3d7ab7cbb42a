(** Hyper-dual numbers carry mixed second derivatives. *)
From Coq Require Import ZArith List Bool Reals Lra Lia.
From Coquelicot Require Import Coquelicot.
From Flocq Require Import Core.Raux.
From Verif Require Import Base.Scalar Base.RNum Base.Trig Base.Deriv Model.HyperDual Spec.Expr Proofs.DiffAlg Proofs.Dual.
Local Open Scope R_scope.

(** Near a pair of parameters: along each of the two axes. *)
Definition cross (p : R * R) (Q : R * R -> Prop) : Prop :=
  locally (fst p) (fun s => Q (s, snd p)) /\ locally (snd p) (fun t => Q (fst p, t)).

Lemma cross_and p Q1 Q2 : cross p Q1 -> cross p Q2 -> cross p (fun q => Q1 q /\ Q2 q).
Proof. intros [A B] [C D]. split; apply filter_and; auto. Qed.
Lemma cross_imp p (Q1 Q2 : R * R -> Prop) : (forall q, Q1 q -> Q2 q) -> cross p Q1 -> cross p Q2.
Proof. intros H [A B]. split; [revert A|revert B]; apply filter_imp; intros; apply H; auto. Qed.
Lemma cross_here p (Q : R * R -> Prop) : cross p Q -> Q p.
Proof. intros [A _]. apply locally_singleton in A. rewrite <- surjective_pairing in A. exact A. Qed.
Lemma cross_all p (Q : R * R -> Prop) : (forall q, Q q) -> cross p Q.
Proof. intros H. split; apply filter_forall; intros; apply H. Qed.

(** One axis at a time: [c] is the other direction's derivative, [m] the mixed one. *)
Definition axis_rep (f : R -> R) (A : R -> HyperDual R) (along across : HyperDual R -> R) (s : R) : Prop :=
  locally s (fun q => real (A q) = f q) /\ is_derive f s (along (A s)) /\
  is_derive (fun q => across (A q)) s (eps1eps2 (A s)).

Definition hyper_rep (f : R * R -> R) (A : R * R -> HyperDual R) (p : R * R) : Prop :=
  axis_rep (fun s => f (s, snd p)) (fun s => A (s, snd p)) eps1 eps2 (fst p) /\
  axis_rep (fun t => f (fst p, t)) (fun t => A (fst p, t)) eps2 eps1 (snd p).

Lemma axis_val f A a c s : axis_rep f A a c s -> real (A s) = f s.
Proof. intros (H & _). apply (locally_singleton _ _ H). Qed.
Lemma axis_cont f A a c s : axis_rep f A a c s -> continuous f s.
Proof. intros (_ & H & _). eapply derive_cont. exact H. Qed.

Lemma axis_ext f A g B a c s : axis_rep f A a c s -> locally s (fun q => f q = g q) -> locally s (fun q => A q = B q) ->
  axis_rep g B a c s.
Proof.
  intros (V & D1 & D2) F G. pose proof (locally_singleton _ _ G) as E. split; [|split].
  - generalize (filter_and _ _ V (filter_and _ _ F G)). apply filter_imp. intros q (? & ? & ?). congruence.
  - rewrite <- E. apply (is_derive_ext_loc f); auto.
  - rewrite <- E. apply (is_derive_ext_loc (fun q => c (A q))); auto.
    revert G. apply filter_imp. intros q ->. reflexivity.
Qed.

(** the two ways round *)
Definition dirs (a c : HyperDual R -> R) : Prop := (a = eps1 /\ c = eps2) \/ (a = eps2 /\ c = eps1).

Lemma axis_un (phi d1 d2 : R -> R) f A a c s : dirs a c ->
  axis_rep f A a c s -> is_derive phi (f s) (d1 (f s)) -> is_derive d1 (f s) (d2 (f s)) ->
  axis_rep (fun q => phi (f q)) (fun q => hyper_chain (A q) (phi (real (A q))) (d1 (real (A q))) (d2 (real (A q)))) a c s.
Proof.
  intros Hd H P1 P2. pose proof (axis_val _ _ _ _ _ H) as E. destruct H as (V & D1 & D2). split; [|split].
  - revert V. apply filter_imp. intros q Q. cbn. congruence.
  - replace (a (hyper_chain (A s) (phi (real (A s))) (d1 (real (A s))) (d2 (real (A s))))) with (d1 (f s) * a (A s))
      by (destruct Hd as [[-> ->]|[-> ->]]; cbn; rewrite E; reflexivity).
    apply is_derive_chain; auto.
  - apply (is_derive_ext_loc (fun q => d1 (f q) * c (A q))).
    + revert V. apply filter_imp. intros q Q. destruct Hd as [[-> ->]|[-> ->]]; cbn; rewrite Q; reflexivity.
    + eapply is_derive_eq.
      { apply is_derive_prod; [apply (is_derive_chain d1 f); eauto|exact D2]. }
      destruct Hd as [[-> ->]|[-> ->]]; cbn; rewrite E; rnum; ring.
Qed.

Lemma hyper_un (phi d1 d2 : R -> R) (op : HyperDual R -> HyperDual R) f A p :
  (forall x, op x = hyper_chain x (phi (real x)) (d1 (real x)) (d2 (real x))) ->
  hyper_rep f A p -> is_derive phi (f p) (d1 (f p)) -> is_derive d1 (f p) (d2 (f p)) ->
  hyper_rep (fun q => phi (f q)) (fun q => op (A q)) p.
Proof.
  intros E [H1 H2] P1 P2. destruct p as [s t]. cbn [fst snd] in *.
  split; cbn [fst snd].
  - eapply axis_ext. apply (axis_un phi d1 d2 (fun s' => f (s', t)) (fun s' => A (s', t))); auto. left; auto.
    apply filter_forall; reflexivity. apply filter_forall; intros; rewrite E; reflexivity.
  - eapply axis_ext. apply (axis_un phi d1 d2 (fun t' => f (s, t')) (fun t' => A (s, t'))); auto. right; auto.
    apply filter_forall; reflexivity. apply filter_forall; intros; rewrite E; reflexivity.
Qed.

(** The same for a function smooth only near the point, whose two slopes are given there. *)
Lemma hyper_un_loc (phi d1 d2 : R -> R) (op : HyperDual R -> HyperDual R) f A p :
  (forall x, op x = hyper_chain x (phi (real x)) (d1 (real x)) (d2 (real x))) ->
  hyper_rep f A p -> is_derive phi (f p) (d1 (f p)) -> is_derive d1 (f p) (d2 (f p)) ->
  hyper_rep (fun q => phi (f q)) (fun q => op (A q)) p.
Proof. apply hyper_un. Qed.

Lemma hyper_val f A p : hyper_rep f A p -> real (A p) = f p.
Proof. intros [H _]. apply axis_val in H. rewrite <- surjective_pairing in H. exact H. Qed.

(** a binary operation given by its partial derivatives, one axis *)
Lemma cross_rep_val f A p : hyper_rep f A p -> cross p (fun q => real (A q) = f q).
Proof. intros [(H & _) (K & _)]. split; auto. Qed.

Lemma cross_gt f A p c : hyper_rep f A p -> c < f p -> cross p (fun q => c < f q).
Proof.
  intros [H K] L. split.
  - apply (locally_gt (fun s => f (s, snd p))). eapply axis_cont; eauto. rewrite <- surjective_pairing. exact L.
  - apply (locally_gt (fun t => f (fst p, t))). eapply axis_cont; eauto. rewrite <- surjective_pairing. exact L.
Qed.

Lemma hyper_ext f A g C p : hyper_rep f A p -> cross p (fun q => f q = g q) -> cross p (fun q => A q = C q) -> hyper_rep g C p.
Proof.
  intros [H K] [F1 F2] [G1 G2]. split; eapply axis_ext; eauto.
Qed.

Lemma hyper_cst c p : hyper_rep (fun _ => c) (fun _ => hyper_constant c) p.
Proof. split; (split; [apply filter_forall; reflexivity|split; apply is_derive_cst]). Qed.

Lemma hyper_rep_neg f A p : hyper_rep f A p -> hyper_rep (fun q => - f q) (fun q => hyper_neg (A q)) p.
Proof.
  intros [(V & D1 & D2) (V' & D1' & D2')]. split; (split; [|split]); cbn.
  - revert V. apply filter_imp. intros q ->. reflexivity.
  - apply is_derive_neg; auto.
  - apply is_derive_neg; auto.
  - revert V'. apply filter_imp. intros q ->. reflexivity.
  - apply is_derive_neg; auto.
  - apply is_derive_neg; auto.
Qed.

Lemma axis_mul f A g C a c s : dirs a c -> axis_rep f A a c s -> axis_rep g C a c s ->
  axis_rep (fun q => f q * g q) (fun q => hyper_mul (A q) (C q)) a c s.
Proof.
  intros Hd H K. pose proof (axis_val _ _ _ _ _ H) as E. pose proof (axis_val _ _ _ _ _ K) as E'.
  destruct H as (V & D1 & D2), K as (V' & D1' & D2'). split; [|split].
  - generalize (filter_and _ _ V V'). apply filter_imp. intros q [? ?]. cbn. congruence.
  - eapply is_derive_eq. { apply is_derive_prod; eauto. }
    destruct Hd as [[-> ->]|[-> ->]]; cbn; rewrite E, E'; rnum; ring.
  - apply (is_derive_ext_loc (fun q => f q * c (C q) + c (A q) * g q)).
    + generalize (filter_and _ _ V V'). apply filter_imp. intros q [Q Q'].
      destruct Hd as [[-> ->]|[-> ->]]; cbn; rewrite Q, Q'; rnum; ring.
    + eapply is_derive_eq. { apply (is_derive_sum (fun q => f q * c (C q)) (fun q => c (A q) * g q)); apply is_derive_prod; eauto. }
      destruct Hd as [[-> ->]|[-> ->]]; cbn; rewrite E, E'; rnum; ring.
Qed.
Lemma hyper_rep_mul f A g C p : hyper_rep f A p -> hyper_rep g C p ->
  hyper_rep (fun q => f q * g q) (fun q => hyper_mul (A q) (C q)) p.
Proof.
  intros [H1 H2] [K1 K2]. split.
  - apply (axis_mul (fun s => f (s, snd p)) (fun s => A (s, snd p))); auto. left; auto.
  - apply (axis_mul (fun s => f (fst p, s)) (fun s => A (fst p, s))); auto. right; auto.
Qed.
Lemma hyper_rep_add f A g C p : hyper_rep f A p -> hyper_rep g C p ->
  hyper_rep (fun q => f q + g q) (fun q => hyper_add (A q) (C q)) p.
Proof.
  intros [(V & D1 & D2) (V' & D1' & D2')] [(W & E1 & E2) (W' & E1' & E2')]. split; (split; [|split]); cbn.
  - generalize (filter_and _ _ V W). apply filter_imp. intros q [-> ->]. reflexivity.
  - apply is_derive_sum; auto.
  - apply is_derive_sum; auto.
  - generalize (filter_and _ _ V' W'). apply filter_imp. intros q [-> ->]. reflexivity.
  - apply is_derive_sum; auto.
  - apply is_derive_sum; auto.
Qed.
Lemma hyper_sub_neg (x y : HyperDual R) : hyper_sub x y = hyper_add x (hyper_neg y).
Proof. unfold hyper_sub, hyper_add, hyper_neg. cbn. rnum. f_equal; ring. Qed.
Lemma hyper_rep_sub f A g C p : hyper_rep f A p -> hyper_rep g C p ->
  hyper_rep (fun q => f q - g q) (fun q => hyper_sub (A q) (C q)) p.
Proof.
  intros H K. eapply hyper_ext. { apply hyper_rep_add. exact H. apply hyper_rep_neg. exact K. }
  - apply cross_all. intros; cbv beta; ring.
  - apply cross_all. intros; rewrite hyper_sub_neg; reflexivity.
Qed.

Lemma is_derive_inv' v : v <> 0 -> is_derive (fun w : R => 1 / w) v (- (1 / v * (1 / v))).
Proof. intros H. eapply is_derive_eq. { apply (is_derive_quot (fun _ => 1) (fun w => w)). apply is_derive_cst. apply is_derive_var. auto. } field. auto. Qed.

Lemma hyper_rep_inv f A p : hyper_rep f A p -> f p <> 0 -> hyper_rep (fun q => 1 / f q) (fun q => hyper_inv (A q)) p.
Proof.
  intros H N. apply (hyper_un (fun v => 1 / v) (fun v => - (1 / v * (1 / v))) (fun v => 2 * (1 / v) * (1 / v) * (1 / v))); auto.
  - apply is_derive_inv'; auto.
  - eapply is_derive_eq. { apply is_derive_neg. apply (is_derive_prod (fun v => 1 / v) (fun v => 1 / v)); apply is_derive_inv'; auto. } field. auto.
Qed.

(** ** atan2 on one axis *)
Lemma axis_atan2 f A g C a c s : dirs a c -> axis_rep f A a c s -> axis_rep g C a c s -> 0 < g s \/ f s <> 0 ->
  axis_rep (fun q => Ratan2 (f q) (g q)) (fun q => hyper_atan2 (A q) (C q)) a c s.
Proof.
  intros Hd H K N. pose proof (axis_val _ _ _ _ _ H) as E. pose proof (axis_val _ _ _ _ _ K) as E'.
  destruct H as (V & D1 & D2), K as (V' & D1' & D2').
  assert (P : 0 < g s * g s + f s * f s) by (destruct N; nra).
  split; [|split].
  - generalize (filter_and _ _ V V'). apply filter_imp. intros q [? ?]. cbn. congruence.
  - eapply is_derive_eq. { apply is_derive_atan2; eauto. }
    destruct Hd as [[-> ->]|[-> ->]]; cbn; rewrite E, E'; rnum; field; nra.
  - apply (is_derive_ext_loc (fun q => g q / (g q * g q + f q * f q) * c (A q) + (- f q) / (g q * g q + f q * f q) * c (C q))).
    + generalize (filter_and _ _ V V'). apply filter_imp. intros q [Q Q'].
      destruct Hd as [[-> ->]|[-> ->]]; cbn; rewrite Q, Q'; rnum; reflexivity.
    + assert (S : is_derive (fun q => g q * g q + f q * f q) s (a (C s) * g s + g s * a (C s) + (a (A s) * f s + f s * a (A s)))).
      { apply (is_derive_sum (fun q => g q * g q) (fun q => f q * f q)); apply is_derive_prod; auto. }
      eapply is_derive_eq.
      { apply (is_derive_sum (fun q => g q / (g q * g q + f q * f q) * c (A q)) (fun q => (- f q) / (g q * g q + f q * f q) * c (C q))).
        - apply (is_derive_prod (fun q => g q / (g q * g q + f q * f q)) (fun q => c (A q))); [|exact D2].
          apply (is_derive_quot g); eauto. cbv beta. lra.
        - apply (is_derive_prod (fun q => (- f q) / (g q * g q + f q * f q)) (fun q => c (C q))); [|exact D2'].
          apply (is_derive_quot (fun q => - f q)); eauto. apply is_derive_neg; eauto. cbv beta. lra. }
      destruct Hd as [[-> ->]|[-> ->]]; cbn; rewrite E, E'; rnum; field; nra.
Qed.

(** ** hypot: the scaled form is the plain one *)
Definition hsq (x y : HyperDual R) := hyper_add (hyper_mul x x) (hyper_mul y y).
Ltac heq := unfold hsq, hyper_mul, hyper_add, hyper_sub, hyper_neg, hyper_constant; cbn [real eps1 eps2 eps1eps2]; rnum.

Lemma hyper_sqrt_unique (u w : HyperDual R) : 0 < real u -> 0 < real w -> hyper_mul u u = w -> u = hyper_sqrt w.
Proof.
  intros P Q E. subst w. destruct u as [r e1 e2 e12]. unfold hyper_sqrt, hyper_chain, hyper_mul in *. cbn [real eps1 eps2 eps1eps2] in *. rnum.
  assert (S : R_sqrt.sqrt (r * r) = r) by (apply sqrt_square; lra). rewrite S. f_equal; field; lra.
Qed.
Lemma hyper_sqrt_sqr (w : HyperDual R) : 0 < real w -> hyper_mul (hyper_sqrt w) (hyper_sqrt w) = w.
Proof.
  intros P. assert (Q : 0 < R_sqrt.sqrt (real w)) by (apply sqrt_lt_R0; auto).
  assert (S : R_sqrt.sqrt (real w) * R_sqrt.sqrt (real w) = real w) by (apply sqrt_sqrt; lra).
  destruct w as [r e1 e2 e12]. unfold hyper_sqrt, hyper_chain, hyper_mul. cbn [real eps1 eps2 eps1eps2] in *. rnum.
  set (q := R_sqrt.sqrt r) in *. f_equal; rewrite <- ?S; field; lra.
Qed.
Lemma hyper_div_mul (x y : HyperDual R) : real y <> 0 -> hyper_mul y (hyper_div x y) = x.
Proof.
  intros N. destruct x as [a b c d], y as [a' b' c' d']. unfold hyper_div, hyper_inv, hyper_chain, hyper_mul. cbn [real eps1 eps2 eps1eps2] in *. rnum.
  f_equal; field; auto.
Qed.
Lemma hyper_abs_sqr (x : HyperDual R) : hyper_mul (hyper_abs x) (hyper_abs x) = hyper_mul x x.
Proof.
  destruct x as [r e1 e2 e12]. unfold hyper_abs, hyper_chain, hyper_mul. cbn [real eps1 eps2 eps1eps2]. rnum.
  unfold Rltb. destruct (Rlt_dec r 0).
  - rewrite Rabs_left by auto. f_equal; ring.
  - rewrite Rabs_pos_eq by lra. f_equal; ring.
Qed.
Lemma hyper_mul_assoc (x y z : HyperDual R) : hyper_mul x (hyper_mul y z) = hyper_mul (hyper_mul x y) z.
Proof. heq. f_equal; ring. Qed.
Lemma hyper_mul_comm (x y : HyperDual R) : hyper_mul x y = hyper_mul y x.
Proof. heq. f_equal; ring. Qed.
Lemma hyper_mul_add (x y z : HyperDual R) : hyper_mul x (hyper_add y z) = hyper_add (hyper_mul x y) (hyper_mul x z).
Proof. heq. f_equal; ring. Qed.
Lemma hyper_mul_1 (x : HyperDual R) : hyper_mul x (hyper_constant 1) = x.
Proof. destruct x as [a b c d]. heq. f_equal; ring. Qed.
Lemma hyper_add_comm (x y : HyperDual R) : hyper_add x y = hyper_add y x.
Proof. heq. f_equal; ring. Qed.

Lemma scaled_sqr (mx mn : HyperDual R) : real mx <> 0 ->
  let ratio := hyper_div mn mx in
  let u := hyper_mul mx (hyper_sqrt (hyper_add (hyper_constant 1) (hyper_mul ratio ratio))) in
  hyper_mul u u = hyper_add (hyper_mul mx mx) (hyper_mul mn mn).
Proof.
  intros N. cbv zeta. set (ratio := hyper_div mn mx). set (w := hyper_add _ _).
  assert (P : 0 < real w). { unfold w. cbn. rnum. assert (0 <= real ratio * real ratio) by nra. unfold ratio in *. cbn in *. rnum. lra. }
  transitivity (hyper_mul (hyper_mul mx mx) (hyper_mul (hyper_sqrt w) (hyper_sqrt w))).
  { rewrite <- !hyper_mul_assoc. f_equal. rewrite !hyper_mul_assoc. f_equal. apply hyper_mul_comm. }
  rewrite hyper_sqrt_sqr by exact P. unfold w. rewrite hyper_mul_add, hyper_mul_1. f_equal.
  transitivity (hyper_mul (hyper_mul mx ratio) (hyper_mul mx ratio)).
  { rewrite <- !hyper_mul_assoc. f_equal. rewrite (hyper_mul_comm ratio (hyper_mul mx ratio)). rewrite <- hyper_mul_assoc. reflexivity. }
  unfold ratio. rewrite hyper_div_mul by exact N. reflexivity.
Qed.

Lemma hyper_hypot_R (x y : HyperDual R) : real x <> 0 \/ real y <> 0 ->
  @default_hypot _ hyper_base x y = hyper_sqrt (hsq x y).
Proof.
  intros H. pose proof (hypot_value_case _ _ H) as HV. cbv zeta in HV.
  unfold default_hypot. cbn [abs ltb eqb zero one add mul div sqrt hyper_base]. cbn [real hyper_abs hyper_chain]. rnum.
  set (a := hyper_abs x). set (b := hyper_abs y).
  assert (Ea : real a = Rabs (real x)) by reflexivity. assert (Eb : real b = Rabs (real y)) by reflexivity.
  assert (Q : 0 < real (hsq x y)). { cbn. rnum. destruct H; nra. }
  rewrite <- Ea, <- Eb in HV.
  change (real (hyper_abs x)) with (Rabs (real x)). change (real (hyper_abs y)) with (Rabs (real y)).
  change (@hyper_constant R Rnum 0) with (hyper_constant 0). 
  rewrite <- Ea, <- Eb.
  destruct (Rltb (real b) (real a)); destruct HV as [P V]; cbn [real hyper_constant];
    rewrite (proj2 (Reqb_false _ _)) by (rewrite ?Ea, ?Eb in *; lra);
    apply hyper_sqrt_unique; auto.
  - cbn. rnum. cbn in V. apply Rmult_lt_0_compat; auto. apply sqrt_lt_R0. nra.
  - rewrite scaled_sqr by lra. unfold a, b, hsq. rewrite !hyper_abs_sqr. reflexivity.
  - cbn. rnum. apply Rmult_lt_0_compat; auto. apply sqrt_lt_R0. nra.
  - rewrite scaled_sqr by lra. unfold a, b, hsq. rewrite !hyper_abs_sqr. apply hyper_add_comm.
Qed.

Lemma hyper_rep_sqrt f A p : hyper_rep f A p -> 0 < f p -> hyper_rep (fun q => R_sqrt.sqrt (f q)) (fun q => hyper_sqrt (A q)) p.
Proof.
  intros H P. assert (0 < R_sqrt.sqrt (f p)) by (apply sqrt_lt_R0; auto).
  apply (hyper_un R_sqrt.sqrt (fun v => 1 / (2 * R_sqrt.sqrt v)) (fun v => - (1 / (2 * R_sqrt.sqrt v) / (2 * v)))); auto.
  - eapply is_derive_eq. apply is_derive_sqrt'; auto. field. lra.
  - eapply is_derive_eq.
    { apply (is_derive_quot (fun _ => 1) (fun v => 2 * R_sqrt.sqrt v)). apply is_derive_cst.
      apply (is_derive_prod (fun _ => 2)). apply is_derive_cst. apply is_derive_sqrt'; auto. lra. }
    assert (S : R_sqrt.sqrt (f p) * R_sqrt.sqrt (f p) = f p) by (apply sqrt_sqrt; lra).
    set (r := R_sqrt.sqrt (f p)) in *. rewrite <- S. field. lra.
Qed.

(** step functions *)
Lemma hyper_step (phi : R -> R) (op : HyperDual R -> HyperDual R) f A p :
  (forall x, op x = mkHyper (phi (real x)) 0 0 0) -> hyper_rep f A p -> locally (f p) (fun v => phi v = phi (f p)) ->
  hyper_rep (fun q => phi (f q)) (fun q => op (A q)) p.
Proof.
  intros E H K. apply (hyper_un phi (fun _ => 0) (fun _ => 0)); auto.
  - intros x. rewrite E. unfold hyper_chain. rnum. f_equal; ring.
  - apply const_near. exact K.
  - apply is_derive_cst.
Qed.

Lemma is_derive_ifc (b c : R) (v : R) : v <> 0 -> is_derive (fun w => if Rltb w 0 then b else c) v 0.
Proof.
  intros N. apply const_near. destruct (Rdichotomy _ _ N) as [L|L].
  - generalize (locally_lt _ v 0 (id_cont v) L). apply filter_imp. intros w W. unfold Rltb.
    destruct (Rlt_dec w 0), (Rlt_dec v 0); lra.
  - generalize (locally_gt _ v 0 (id_cont v) L). apply filter_imp. intros w W. unfold Rltb.
    destruct (Rlt_dec w 0), (Rlt_dec v 0); lra.
Qed.

Lemma cross_lt f A p c : hyper_rep f A p -> f p < c -> cross p (fun q => f q < c).
Proof.
  intros H L. apply hyper_rep_neg in H. apply (cross_gt _ _ _ (- c)) in H; [|lra].
  revert H. apply cross_imp. intros q. cbv beta. lra.
Qed.

(** copysign by the sign pattern at the point *)
Lemma hyper_rep_copysign f A g C p : hyper_rep f A p -> hyper_rep g C p -> f p <> 0 -> g p <> 0 ->
  hyper_rep (fun q => Rcopysign (f q) (g q)) (fun q => hyper_copysign (A q) (C q)) p.
Proof.
  intros H K Nf Ng.
  pose proof (cross_and _ _ _ (cross_rep_val _ _ _ H) (cross_rep_val _ _ _ K)) as V.
  assert (Id : forall x : HyperDual R, hyper_chain x (real x) 1 0 = x).
  { intros [? ? ? ?]. unfold hyper_chain. cbn. rnum. f_equal; ring. }
  assert (Ng' : forall x : HyperDual R, hyper_chain x (- real x) (- 1) 0 = hyper_neg x).
  { intros [? ? ? ?]. unfold hyper_chain, hyper_neg. cbn. rnum. f_equal; ring. }
  destruct (Rdichotomy _ _ Nf) as [a|a], (Rdichotomy _ _ Ng) as [b|b].
  - pose proof (cross_and _ _ _ V (cross_and _ _ _ (cross_lt _ _ _ _ H a) (cross_lt _ _ _ _ K b))) as G.
    apply (hyper_ext _ _ _ _ _ H); revert G; apply cross_imp; intros q ([E1 E2] & Q1 & Q2).
    + unfold Rcopysign. destruct (Rlt_dec (g q) 0); [|lra]. rewrite Rabs_left; lra.
    + unfold hyper_copysign. rnum. rewrite E1, E2. rewrite (proj2 (Rltb_true _ _) Q1), (proj2 (Rltb_true _ _) Q2). cbn [Bool.eqb].
      unfold Rcopysign. destruct (Rlt_dec (g q) 0); [|lra]. rewrite Rabs_left by lra. rewrite Ropp_involutive, <- E1. symmetry. apply Id.
  - pose proof (cross_and _ _ _ V (cross_and _ _ _ (cross_lt _ _ _ _ H a) (cross_gt _ _ _ _ K b))) as G.
    apply (hyper_ext _ _ _ _ _ (hyper_rep_neg _ _ _ H)); revert G; apply cross_imp; intros q ([E1 E2] & Q1 & Q2).
    + unfold Rcopysign. destruct (Rlt_dec (g q) 0); [lra|]. rewrite Rabs_left; lra.
    + unfold hyper_copysign. rnum. rewrite E1, E2. rewrite (proj2 (Rltb_true _ _) Q1), (proj2 (Rltb_false _ _) (Rlt_le _ _ Q2)). cbn [Bool.eqb].
      unfold Rcopysign. destruct (Rlt_dec (g q) 0); [lra|]. rewrite Rabs_left by lra. rewrite <- E1. symmetry. apply Ng'.
  - pose proof (cross_and _ _ _ V (cross_and _ _ _ (cross_gt _ _ _ _ H a) (cross_lt _ _ _ _ K b))) as G.
    apply (hyper_ext _ _ _ _ _ (hyper_rep_neg _ _ _ H)); revert G; apply cross_imp; intros q ([E1 E2] & Q1 & Q2).
    + unfold Rcopysign. destruct (Rlt_dec (g q) 0); [|lra]. rewrite Rabs_pos_eq; lra.
    + unfold hyper_copysign. rnum. rewrite E1, E2. rewrite (proj2 (Rltb_false _ _) (Rlt_le _ _ Q1)), (proj2 (Rltb_true _ _) Q2). cbn [Bool.eqb].
      unfold Rcopysign. destruct (Rlt_dec (g q) 0); [|lra]. rewrite Rabs_pos_eq by lra. rewrite <- E1. symmetry. apply Ng'.
  - pose proof (cross_and _ _ _ V (cross_and _ _ _ (cross_gt _ _ _ _ H a) (cross_gt _ _ _ _ K b))) as G.
    apply (hyper_ext _ _ _ _ _ H); revert G; apply cross_imp; intros q ([E1 E2] & Q1 & Q2).
    + unfold Rcopysign. destruct (Rlt_dec (g q) 0); [lra|]. rewrite Rabs_pos_eq; lra.
    + unfold hyper_copysign. rnum. rewrite E1, E2. rewrite (proj2 (Rltb_false _ _) (Rlt_le _ _ Q1)), (proj2 (Rltb_false _ _) (Rlt_le _ _ Q2)). cbn [Bool.eqb].
      unfold Rcopysign. destruct (Rlt_dec (g q) 0); [lra|]. rewrite Rabs_pos_eq by lra. rewrite <- E1. symmetry. apply Id.
Qed.

Ltac hun phi d1 d2 := apply (hyper_un phi d1 d2); [intros; unfold hyper_chain; cbn; rnum; try (f_equal; unfold Rdiv; ring) | auto | | ].

Theorem hyper_diffalg : DiffAlg hyper_base cross hyper_rep hyper_constant.
Proof.
  split; try reflexivity; intros.
  - apply cross_and; auto.
  - revert H0. apply cross_imp. auto.
  - apply (cross_here _ _ H).
  - apply cross_all. auto.
  - eapply hyper_ext; eauto.
  - eapply cross_gt; eauto.
  - apply hyper_cst.
  - pose proof (cross_and _ _ _ (cross_rep_val _ _ _ H) (cross_rep_val _ _ _ H0)) as V.
    revert V. apply cross_imp. intros q [E1 E2]. cbn. rewrite E1, E2. reflexivity.
  - pose proof (cross_and _ _ _ (cross_rep_val _ _ _ H) (cross_rep_val _ _ _ H0)) as V.
    revert V. apply cross_imp. intros q [E1 E2]. cbn. rewrite E1, E2. reflexivity.
  - pose proof (cross_and _ _ _ (cross_rep_val _ _ _ H) (cross_rep_val _ _ _ H0)) as V.
    revert V. apply cross_imp. intros q [E1 E2]. cbn. rewrite E1, E2. reflexivity.
  - apply hyper_rep_add; auto.
  - apply hyper_rep_sub; auto.
  - apply hyper_rep_mul; auto.
  - eapply hyper_ext. { apply hyper_rep_mul. exact H. apply hyper_rep_inv; eauto. }
    + apply cross_all. intros. cbv beta. unfold Rdiv. ring.
    + apply cross_all. reflexivity.
  - apply hyper_rep_neg; auto.
  - apply (hyper_un Rabs (fun v => if Rltb v 0 then -1 else 1) (fun _ => 0)); auto.
    + apply is_derive_abs'; auto.
    + apply is_derive_ifc; auto.
  - apply hyper_rep_sqrt; auto.
  - pose proof (Rcbrt_neq0 _ H0).
    apply (hyper_un Rcbrt (fun v => 1 / (3 * Rcbrt v * Rcbrt v)) (fun v => - (2 * (1 / (3 * Rcbrt v * Rcbrt v)) * (1 / (3 * Rcbrt v * Rcbrt v)) / Rcbrt v))); auto.
    + eapply is_derive_eq. apply is_derive_cbrt; auto. field. auto.
    + eapply is_derive_eq.
      { apply (is_derive_quot (fun _ => 1) (fun v => 3 * Rcbrt v * Rcbrt v)). apply is_derive_cst.
        apply (is_derive_prod (fun v => 3 * Rcbrt v)). apply (is_derive_prod (fun _ => 3)). apply is_derive_cst.
        apply is_derive_cbrt; auto. apply is_derive_cbrt; auto.
        repeat apply Rmult_integral_contrapositive_currified; auto; lra. }
      field. auto.
  - apply (hyper_un Rtrigo_def.sin Rtrigo_def.cos (fun v => - Rtrigo_def.sin v)); auto. apply is_derive_sin'. apply is_derive_cos'.
  - apply (hyper_un Rtrigo_def.cos (fun v => - Rtrigo_def.sin v) (fun v => - Rtrigo_def.cos v)); auto. apply is_derive_cos'.
    apply is_derive_neg. apply is_derive_sin'.
  - apply (hyper_un Rtrigo1.tan (fun v => 1 + Rtrigo1.tan v * Rtrigo1.tan v)
             (fun v => 2 * Rtrigo1.tan v * (1 + Rtrigo1.tan v * Rtrigo1.tan v))); auto.
    + apply is_derive_tan'; auto.
    + eapply is_derive_eq.
      { apply (is_derive_sum (fun _ => 1) (fun v => Rtrigo1.tan v * Rtrigo1.tan v)). apply is_derive_cst.
        apply is_derive_prod; apply is_derive_tan'; auto. } ring.
  - apply (hyper_un Rtrigo_def.exp Rtrigo_def.exp Rtrigo_def.exp); auto; apply is_derive_exp'.
  - apply (hyper_un (fun v => Rtrigo_def.exp v - 1) Rtrigo_def.exp Rtrigo_def.exp); auto; [|apply is_derive_exp'].
    eapply is_derive_eq; [apply is_derive_diff; [apply is_derive_exp'|apply is_derive_cst]|]. ring.
  - apply (hyper_un ln (fun v => 1 / v) (fun v => - (1 / (v * v)))); auto.
    + eapply is_derive_eq. apply is_derive_ln'; auto. field. lra.
    + eapply is_derive_eq. apply is_derive_inv'. lra. field. lra.
  - apply (hyper_un (fun v => ln (1 + v)) (fun v => 1 / (v + 1)) (fun v => - (1 / ((v + 1) * (v + 1))))); auto.
    + eapply is_derive_eq; [apply (is_derive_chain ln (fun v => 1 + v)); [apply is_derive_ln'; lra|]|].
      { apply is_derive_sum; [apply is_derive_cst|apply is_derive_var]. } field. lra.
    + eapply is_derive_eq; [apply (is_derive_chain (fun w => 1 / w) (fun v => v + 1)); [apply is_derive_inv'; lra|]|].
      { apply is_derive_sum; [apply is_derive_var|apply is_derive_cst]. } field. lra.
  - assert (L2 : 0 < ln 2) by (rewrite <- ln_1; apply ln_increasing; lra).
    apply (hyper_un (fun v => ln v / ln 2) (fun v => 1 / v / ln 2) (fun v => - (1 / (v * v)) / ln 2)); auto.
    + eapply is_derive_eq. { apply (is_derive_quot ln (fun _ => ln 2)). apply is_derive_ln'; auto. apply is_derive_cst. lra. } field. lra.
    + eapply is_derive_eq. { apply (is_derive_quot (fun v => 1 / v) (fun _ => ln 2)). apply is_derive_inv'; lra. apply is_derive_cst. lra. } field. lra.
  - assert (L2 : 0 < ln 10) by (rewrite <- ln_1; apply ln_increasing; lra).
    apply (hyper_un (fun v => ln v / ln 10) (fun v => 1 / v / ln 10) (fun v => - (1 / (v * v)) / ln 10)); auto.
    + eapply is_derive_eq. { apply (is_derive_quot ln (fun _ => ln 10)). apply is_derive_ln'; auto. apply is_derive_cst. lra. } field. lra.
    + eapply is_derive_eq. { apply (is_derive_quot (fun v => 1 / v) (fun _ => ln 10)). apply is_derive_inv'; lra. apply is_derive_cst. lra. } field. lra.
  - destruct H as [H1' H2'], H0 as [K1 K2]. split.
    + apply (axis_atan2 (fun s => f (s, snd p)) (fun s => A (s, snd p))); auto. left; auto. rewrite <- surjective_pairing. auto.
    + apply (axis_atan2 (fun s => f (fst p, s)) (fun s => A (fst p, s))); auto. right; auto. rewrite <- surjective_pairing. auto.
  - apply hyper_rep_copysign; auto.
  - apply (hyper_step (fun v => IZR (Zfloor v))); auto.
    generalize (floor_near _ H0). apply filter_imp. intros q ->. reflexivity.
  - apply (hyper_step (fun v => IZR (Zceil v))); auto.
    generalize (ceil_near _ H0). apply filter_imp. intros q ->. reflexivity.
  - apply (hyper_step Rround_away); auto. apply round_near; auto.
  - apply (hyper_step (fun v => IZR (Ztrunc v))); auto.
    generalize (trunc_near _ H0). apply filter_imp. intros q ->. reflexivity.
  - assert (S : hyper_rep (fun q => f q * f q + g q * g q) (fun q => hsq (A q) (C q)) p).
    { apply (hyper_rep_add (fun q => f q * f q)); apply hyper_rep_mul; auto. }
    assert (N : 0 < f p * f p + g p * g p) by (destruct H1; nra).
    eapply hyper_ext. { apply hyper_rep_sqrt. exact S. exact N. }
    + apply cross_all. reflexivity.
    + pose proof (cross_and _ _ _ (cross_gt _ _ _ 0 S N) (cross_and _ _ _ (cross_rep_val _ _ _ H) (cross_rep_val _ _ _ H0))) as V.
      revert V. apply cross_imp. intros q (Q & E1 & E2). symmetry. apply hyper_hypot_R. rewrite E1, E2.
      destruct (Req_dec (f q) 0) as [Z0|]; auto. destruct (Req_dec (g q) 0) as [Z1|]; auto. nra.
Qed.
