(** Jets form a derivative-carrying scalar: the rest of the operations. *)
From Coq Require Import ZArith List Bool Reals Lra Lia Arith.
From Coquelicot Require Import Coquelicot.
From Flocq Require Import Core.Raux.
From Verif Require Import Base.Scalar Base.RNum Base.Trig Base.Lists Base.Deriv Base.Series Model.Dual Model.Jet
  Spec.Expr Proofs.DiffAlg Proofs.Dual Proofs.Jet.
Import ListNotations.
Local Open Scope R_scope.

Section JetAlg.
  Context (N : nat) (HN : (0 < N)%nat).
  Notation jet_rep := (jet_rep N).

  Lemma jeq (a b : list R) : length a = N -> length b = N -> (forall k, (k < N)%nat -> sq a k = sq b k) -> a = b.
  Proof. intros La Lb H. apply (nth_ext a b 0 0). congruence. intros n Hn. apply H. lia. Qed.
  Lemma mul_length a b : length (jet_mul N a b : list R) = N.
  Proof. apply from_fn_length. Qed.
  Lemma add_length a b : length (jet_add N a b : list R) = N.
  Proof. apply from_fn_length. Qed.
  Hint Resolve mul_length add_length : core.
  Lemma mul_agree a b k : (k < N)%nat -> agree k (sq (jet_mul N a b)) (conv (sq a) (sq b)).
  Proof. intros H i Hi. apply sq_mul. lia. Qed.
  Lemma same_agree a k : agree k a a. Proof. intros i _; reflexivity. Qed.
  Hint Resolve mul_agree same_agree : core.
  Lemma jmul_assoc a b c : jet_mul N a (jet_mul N b c) = jet_mul N (jet_mul N a b) c.
  Proof.
    apply jeq; auto. intros k Hk. rewrite !sq_mul by auto.
    rewrite (conv_ext k (sq a) (sq a) (sq (jet_mul N b c)) (conv (sq b) (sq c))) by auto.
    rewrite (conv_ext k (sq (jet_mul N a b)) (conv (sq a) (sq b)) (sq c) (sq c)) by auto. symmetry. apply conv_assoc.
  Qed.
  Lemma jmul_comm a b : jet_mul N a b = jet_mul N b a.
  Proof. apply jeq; auto. intros k Hk. rewrite !sq_mul by auto. apply conv_comm. Qed.
  Lemma jmul_add a b c : jet_mul N a (jet_add N b c) = jet_add N (jet_mul N a b) (jet_mul N a c).
  Proof.
    apply jeq; auto. intros k Hk. rewrite sq_add, !sq_mul by auto. rewrite <- conv_plus_r. apply conv_ext; auto.
    intros i Hi. apply sq_add. lia.
  Qed.
  Lemma jadd_comm a b : jet_add N a b = jet_add N b a.
  Proof. apply jeq; auto. intros k Hk. rewrite !sq_add by auto. ring. Qed.
  Lemma jmul_1 a : length a = N -> jet_mul N a (jet_constant N 1) = a.
  Proof.
    intros L. apply jeq; auto. intros k Hk. rewrite sq_mul by auto. rewrite <- (conv_one (sq a) k). apply conv_ext; auto.
    intros i Hi. rewrite sq_cst by lia. unfold delta. ring.
  Qed.
  Lemma jdiv_mul x y : sq y 0 <> 0 -> length x = N -> jet_mul N y (jet_div N x y) = x.
  Proof. intros H L. apply jeq; auto. intros k Hk. rewrite sq_mul, conv_comm by auto. apply div_spec; auto. Qed.
  Lemma jsqrt_sqr w : 0 < sq w 0 -> length w = N -> jet_mul N (jet_sqrt N w) (jet_sqrt N w) = w.
  Proof. intros H L. apply jeq; auto. intros k Hk. rewrite sq_mul by auto. apply sqrt_spec; auto. Qed.
  Lemma jsqrt_unique u w : length u = N -> 0 < sq u 0 -> jet_mul N u u = w -> u = jet_sqrt N w.
  Proof.
    intros L P E.
    assert (W0 : sq w 0 = sq u 0 * sq u 0) by (rewrite <- E, sq_mul, conv_0 by auto; reflexivity).
    destruct (sqrt_spec N HN w ltac:(nra)) as (L' & Z & S). set (r := jet_sqrt N w) in *.
    assert (R0 : sq r 0 = sq u 0) by (rewrite Z, W0; apply sqrt_square; lra).
    apply jeq; auto. intros k Hk.
    assert (G : agree (N - 1) (fun i => sq u i - sq r i) (fun _ => 0)).
    { apply (conv_cancel (fun i => sq u i + sq r i)). rewrite R0. lra.
      intros i Hi. rewrite conv_plus_r.
      assert (F : forall c j, conv (fun i => sq u i - sq r i) c j = conv (sq u) c j - conv (sq r) c j).
      { intros c j. unfold conv. rewrite <- bsum_minus. apply bsum_ext. intros; ring. }
      rewrite !F, (conv_comm (sq r) (sq u)), S by lia. rewrite <- E, sq_mul by lia.
      assert (Z0 : forall c j, conv (fun _ => 0) c j = 0).
      { intros c j. unfold conv. rewrite (bsum_ext _ _ (fun _ => 0)) by (intros; ring). apply bsum_0. }
      rewrite Z0. ring. }
    specialize (G k ltac:(lia)). cbv beta in G. lra.
  Qed.
  Lemma sq_abs a k : (k < N)%nat -> sq (jet_abs N a) k = (if Rltb (sq a 0) 0 then -1 else 1) * sq a k.
  Proof. intros H. unfold sq, jet_abs. rewrite nth_from_fn by auto. rnum. destruct (Rltb _ _); rnum; ring. Qed.
  Lemma abs_length a : length (jet_abs N a : list R) = N.
  Proof. apply from_fn_length. Qed.
  Hint Resolve abs_length : core.
  Lemma jabs_sqr a : jet_mul N (jet_abs N a) (jet_abs N a) = jet_mul N a a.
  Proof.
    apply jeq; auto. intros k Hk. rewrite !sq_mul by auto. unfold conv. apply bsum_ext. intros i Hi.
    rewrite !sq_abs by lia. destruct (Rltb (sq a 0) 0); ring.
  Qed.

  Definition jsq (x y : list R) := jet_add N (jet_mul N x x) (jet_mul N y y).

  Lemma jscaled_sqr (mx mn : list R) : sq mx 0 <> 0 -> length mn = N ->
    let ratio := jet_div N mn mx in
    let u := jet_mul N mx (jet_sqrt N (jet_add N (jet_constant N 1) (jet_mul N ratio ratio))) in
    jet_mul N u u = jet_add N (jet_mul N mx mx) (jet_mul N mn mn).
  Proof.
    intros Nz Ln. cbv zeta. set (ratio := jet_div N mn mx). set (w := jet_add N _ _).
    assert (P : 0 < sq w 0).
    { unfold w. rewrite sq_add, sq_mul, conv_0, sq_cst by auto. unfold delta. cbn [Nat.eqb].
      assert (0 <= sq ratio 0 * sq ratio 0) by nra. lra. }
    transitivity (jet_mul N (jet_mul N mx mx) (jet_mul N (jet_sqrt N w) (jet_sqrt N w))).
    { rewrite <- !jmul_assoc. f_equal. rewrite !jmul_assoc. f_equal. apply jmul_comm. }
    rewrite jsqrt_sqr by (auto; apply add_length). unfold w. rewrite jmul_add, jmul_1 by auto. f_equal.
    transitivity (jet_mul N (jet_mul N mx ratio) (jet_mul N mx ratio)).
    { rewrite <- !jmul_assoc. f_equal. rewrite (jmul_comm ratio (jet_mul N mx ratio)). rewrite <- jmul_assoc. reflexivity. }
    unfold ratio. rewrite jdiv_mul by auto. reflexivity.
  Qed.

  Lemma jet_hypot_R (x y : list R) : sq x 0 <> 0 \/ sq y 0 <> 0 ->
    @default_hypot _ (jet_base N) x y = jet_sqrt N (jsq x y).
  Proof.
    intros H. pose proof (hypot_value_case _ _ H) as HV. cbv zeta in HV.
    unfold default_hypot. cbn [abs ltb eqb zero one add mul div sqrt jet_base]. rnum.
    set (a := jet_abs N x). set (b := jet_abs N y).
    assert (Ab : forall v : R, (if Rltb v 0 then -1 else 1) * v = Rabs v).
    { intros v. unfold Rltb. destruct (Rlt_dec v 0). rewrite Rabs_left by auto; ring. rewrite Rabs_pos_eq by lra; ring. }
    assert (Ea : jet_value a = Rabs (sq x 0)). { change (jet_value a) with (sq a 0). unfold a. rewrite sq_abs by auto. apply Ab. }
    assert (Eb : jet_value b = Rabs (sq y 0)). { change (jet_value b) with (sq b 0). unfold b. rewrite sq_abs by auto. apply Ab. }
    assert (Ez : jet_value (jet_constant N 0) = 0). { change (sq (jet_constant N 0) 0 = 0). rewrite sq_cst by auto. ring. }
    rewrite <- Ea, <- Eb in HV. rewrite Ez.
    assert (La : length a = N) by apply abs_length. assert (Lb : length b = N) by apply abs_length.
    destruct (Rltb (jet_value b) (jet_value a)); destruct HV as [P V];
      rewrite (proj2 (Reqb_false _ _)) by lra; apply jsqrt_unique; auto.
    - rewrite sq_mul, conv_0 by auto. apply Rmult_lt_0_compat; [exact P|].
      assert (W : 0 < sq (jet_add N (jet_constant N 1) (jet_mul N (jet_div N b a) (jet_div N b a))) 0).
      { rewrite sq_add, sq_mul, conv_0, sq_cst by auto. unfold delta. cbn [Nat.eqb]. nra. }
      rewrite (proj1 (proj2 (sqrt_spec N HN _ W))). apply sqrt_lt_R0. exact W.
    - rewrite jscaled_sqr by (auto; unfold jet_value in *; rnum; unfold sq in *; lra). unfold a, b, jsq. rewrite !jabs_sqr. reflexivity.
    - rewrite sq_mul, conv_0 by auto. apply Rmult_lt_0_compat; [exact P|].
      assert (W : 0 < sq (jet_add N (jet_constant N 1) (jet_mul N (jet_div N a b) (jet_div N a b))) 0).
      { rewrite sq_add, sq_mul, conv_0, sq_cst by auto. unfold delta. cbn [Nat.eqb]. nra. }
      rewrite (proj1 (proj2 (sqrt_spec N HN _ W))). apply sqrt_lt_R0. exact W.
    - rewrite jscaled_sqr by (auto; unfold jet_value in *; rnum; unfold sq in *; lra). unfold a, b, jsq. rewrite !jabs_sqr. apply jadd_comm.
  Qed.

  (** sign changes *)
  Lemma rep_flip f A t (op : list R -> list R) (phi : R -> R) (s : bool) :
    jet_rep f A t -> locally t (fun z => phi z = if s then f z else - f z) ->
    locally t (fun z => length (op (A z)) = N /\ forall k, (k < N)%nat -> sq (op (A z)) k = (if s then 1 else -1) * sq (A z) k) ->
    jet_rep phi (fun z => op (A z)) t.
  Proof.
    intros H Hp Ho. destruct s.
    - apply (rep_ext N HN f A); auto.
      + revert Hp. apply filter_imp. intros z ->. reflexivity.
      + generalize (filter_and _ _ Ho (proj1 H)). apply filter_imp. intros z ((L & E) & L' & _). apply jeq; auto.
        intros k Hk. rewrite E by auto. ring.
    - apply (rep_ext N HN (fun z => - f z) (fun z => jet_neg N (A z))); auto.
      + apply rep_neg; auto.
      + revert Hp. apply filter_imp. intros z ->. reflexivity.
      + generalize (filter_and _ _ Ho (proj1 H)). apply filter_imp. intros z ((L & E) & L' & _). apply jeq; auto.
        apply from_fn_length. intros k Hk. rewrite E, sq_neg by auto. ring.
  Qed.

  Lemma rep_abs f A t : jet_rep f A t -> f t <> 0 -> jet_rep (fun z => Rabs (f z)) (fun z => jet_abs N (A z)) t.
  Proof.
    intros H P. pose proof (jet_rep_val _ _ _ _ H) as V. pose proof (jet_rep_cont _ _ _ _ H) as Cf.
    destruct (Rdichotomy _ _ P) as [L|L].
    - apply (rep_flip f A t (jet_abs N) (fun z => Rabs (f z)) false); auto.
      + generalize (locally_lt f t 0 Cf L). apply filter_imp. intros z Z. apply Rabs_left; auto.
      + generalize (filter_and _ _ V (locally_lt f t 0 Cf L)). apply filter_imp. intros z [Z1 Z2]. split; auto.
        intros k Hk. rewrite sq_abs by auto. rewrite Z1, (proj2 (Rltb_true _ _) Z2). ring.
    - apply (rep_flip f A t (jet_abs N) (fun z => Rabs (f z)) true); auto.
      + generalize (locally_gt f t 0 Cf L). apply filter_imp. intros z Z. apply Rabs_pos_eq; lra.
      + generalize (filter_and _ _ V (locally_gt f t 0 Cf L)). apply filter_imp. intros z [Z1 Z2]. split; auto.
        intros k Hk. rewrite sq_abs by auto. rewrite Z1, (proj2 (Rltb_false _ _)) by lra. ring.
  Qed.

  Lemma sq_copysign a s k : (k < N)%nat -> sq a 0 <> 0 ->
    sq (jet_copysign N a s) k = (if Bool.eqb (Rltb (sq a 0) 0) (Rltb (sq s 0) 0) then 1 else -1) * sq a k.
  Proof.
    intros H Nz. unfold sq, jet_copysign. rnum. destruct k.
    - rewrite nth_set_nth_eq by (rewrite from_fn_length; lia). unfold Rcopysign, Rltb. change (nth 0 a 0) with (sq a 0) in *. change (nth 0 s 0) with (sq s 0).
      destruct (Rlt_dec (sq a 0) 0), (Rlt_dec (sq s 0) 0); cbn [Bool.eqb]; try (rewrite Rabs_left by lra; ring); rewrite Rabs_pos_eq by lra; ring.
    - rewrite nth_set_nth_neq by lia. rewrite nth_from_fn by auto. destruct (Bool.eqb _ _); ring.
  Qed.

  Lemma rep_copysign f A g C t : jet_rep f A t -> jet_rep g C t -> f t <> 0 -> g t <> 0 ->
    jet_rep (fun z => Rcopysign (f z) (g z)) (fun z => jet_copysign N (A z) (C z)) t.
  Proof.
    intros H K Nf Ng. pose proof (jet_rep_val _ _ _ _ H) as V. pose proof (jet_rep_cont _ _ _ _ H) as Cf.
    pose proof (jet_rep_val _ _ _ _ K) as V'. pose proof (jet_rep_cont _ _ _ _ K) as Cg.
    assert (Sg : forall h : R -> R, continuous h t -> h t <> 0 -> locally t (fun z => h z <> 0 /\ Rltb (h z) 0 = Rltb (h t) 0)).
    { intros h Ch Nh. destruct (Rdichotomy _ _ Nh) as [L|L].
      - generalize (locally_lt h t 0 Ch L). apply filter_imp. intros z Z. split; [lra|]. rewrite !(proj2 (Rltb_true _ _)); auto.
      - generalize (locally_gt h t 0 Ch L). apply filter_imp. intros z Z. split; [lra|]. rewrite !(proj2 (Rltb_false _ _)); auto; lra. }
    pose proof (filter_and _ _ (Sg f Cf Nf) (Sg g Cg Ng)) as G.
    set (s := Bool.eqb (Rltb (f t) 0) (Rltb (g t) 0)).
    assert (Hr : jet_rep (fun z => Rcopysign (f z) (g z)) (fun z => (if s then A z else jet_neg N (A z))) t).
    { apply (rep_flip f A t (fun a => if s then a else jet_neg N a) (fun z => Rcopysign (f z) (g z)) s); auto.
      - revert G. apply filter_imp. intros z [[N1 E1] [N2 E2]]. unfold s. rewrite <- E1, <- E2. unfold Rcopysign, Rltb.
        destruct (Rlt_dec (f z) 0), (Rlt_dec (g z) 0); cbn [Bool.eqb]; try (rewrite Rabs_left by lra; ring); rewrite Rabs_pos_eq by lra; ring.
      - generalize (proj1 H). apply filter_imp. intros z [L _]. destruct s; split; auto; try apply from_fn_length; intros k Hk; rewrite ?sq_neg by auto; ring. }
    apply (rep_ext N HN _ _ _ _ _ Hr). { apply filter_forall. reflexivity. }
    generalize (filter_and _ _ G (filter_and _ _ (proj1 H) V')). apply filter_imp. intros z ([[N1 E1] [N2 E2]] & [L Z1] & Z2).
    apply jeq.
    - destruct s; auto. apply from_fn_length.
    - unfold jet_copysign. rewrite set_nth_length. apply from_fn_length.
    - intros k Hk. rewrite sq_copysign by (auto; lra). rewrite Z1, Z2, E1, E2. fold s. destruct s; rewrite ?sq_neg by auto; ring.
  Qed.

  Lemma rep_step f A t (phi : R -> R) : jet_rep f A t -> locally (f t) (fun v => phi v = phi (f t)) ->
    jet_rep (fun z => phi (f z)) (fun z => jet_constant N (phi (nth 0 (A z) 0))) t.
  Proof.
    intros H K. pose proof (jet_rep_val _ _ _ _ H) as V. pose proof (jet_rep_cont _ _ _ _ H) as Cf.
    assert (Kn : locally t (fun z => phi (f z) = phi (f t))) by exact (Cf _ K).
    apply (rep_ext N HN (fun _ => phi (f t)) (fun _ => jet_constant N (phi (f t)))). apply rep_cst; auto.
    - revert Kn. apply filter_imp. intros z ->. reflexivity.
    - generalize (filter_and _ _ Kn V). apply filter_imp. intros z [Z1 Z2]. unfold sq in Z2. rewrite Z2, Z1. reflexivity.
  Qed.

  Lemma rep_scale f A t c : jet_rep f A t -> c <> 0 -> jet_rep (fun z => f z / c) (fun z => map (fun x => x / c) (A z)) t.
  Proof.
    intros H Hc. apply (rep_ext N HN (fun z => f z * / c) (fun z => jet_mul N (A z) (jet_constant N (/ c)))).
    - apply rep_mul; auto. apply rep_cst; auto.
    - apply filter_forall. reflexivity.
    - generalize (proj1 H). apply filter_imp. intros z [L _]. apply jeq; auto. { rewrite map_length. auto. }
      intros k Hk. rewrite sq_mul by auto. unfold sq at 3.
      rewrite (nth_indep _ 0 (0 / c)) by (rewrite map_length; lia). rewrite (map_nth (fun x => x / c)).
      rewrite (conv_ext k _ (sq (A z)) _ (fun i => / c * delta i)); [|intros i Hi; reflexivity|intros i Hi; apply sq_cst; lia].
      rewrite conv_scal_r. unfold delta. rewrite conv_one. unfold sq, Rdiv. ring.
  Qed.

  Lemma rep_expm1 f A t : jet_rep f A t -> jet_rep (fun z => Rtrigo_def.exp (f z) - 1) (fun z => jet_expm1 N (A z)) t.
  Proof.
    intros H. apply (rep_ext N HN (fun z => Rtrigo_def.exp (f z) - 1) (fun z => jet_sub N (jet_exp N (A z)) (jet_constant N 1))).
    - apply (rep_sub N HN); [apply rep_exp; auto|apply rep_cst; auto].
    - apply filter_forall. reflexivity.
    - apply filter_forall. intros z. destruct (exp_spec N HN (A z)) as (L & E & _). apply jeq.
      + apply from_fn_length.
      + unfold jet_expm1. rewrite set_nth_length. exact L.
      + intros k Hk. rewrite sq_sub, sq_cst by auto. unfold jet_expm1, delta. unfold sq at 2. destruct k.
        * rewrite nth_set_nth_eq by lia. rewrite E. cbn [Nat.eqb]. rnum. unfold sq. ring.
        * rewrite nth_set_nth_neq by lia. cbn [Nat.eqb]. unfold sq. ring.
  Qed.

  Lemma rep_tan f A t : jet_rep f A t -> Rtrigo_def.cos (f t) <> 0 -> jet_rep (fun z => Rtrigo1.tan (f z)) (fun z => jet_tan N (A z)) t.
  Proof.
    intros H P. destruct (rep_sin_cos N HN _ _ _ H) as [S C].
    apply (rep_ext N HN _ _ _ _ _ (rep_div N HN _ _ _ _ _ S C P)).
    - apply filter_forall. reflexivity.
    - apply filter_forall. intros z. unfold jet_tan, jet_sin, jet_cos. destruct (jet_sin_cos N (A z)); reflexivity.
  Qed.

  Lemma rep_hypot f A g C t : jet_rep f A t -> jet_rep g C t -> f t <> 0 \/ g t <> 0 ->
    jet_rep (fun z => R_sqrt.sqrt (f z * f z + g z * g z)) (fun z => @default_hypot _ (jet_base N) (A z) (C z)) t.
  Proof.
    intros H K P.
    assert (S : jet_rep (fun q => f q * f q + g q * g q) (fun q => jsq (A q) (C q)) t).
    { apply (rep_add N HN (fun q => f q * f q)); apply (rep_mul N HN); auto. }
    assert (S0 : 0 < f t * f t + g t * g t) by (destruct P; nra).
    apply (rep_ext N HN _ _ _ _ _ (rep_sqrt N HN _ _ _ S S0)).
    - apply filter_forall. reflexivity.
    - generalize (filter_and _ _ (locally_gt _ _ 0 (jet_rep_cont _ _ _ _ S) S0) (filter_and _ _ (jet_rep_val _ _ _ _ H) (jet_rep_val _ _ _ _ K))).
      apply filter_imp. intros z (Q & E1 & E2). symmetry. apply jet_hypot_R. rewrite E1, E2.
      destruct (Req_dec (f z) 0) as [Z0|]; auto. destruct (Req_dec (g z) 0) as [Z1|]; auto. nra.
  Qed.

  Theorem jet_diffalg : DiffAlg (jet_base N) (fun t => locally t) jet_rep (jet_constant N).
  Proof.
    split; try reflexivity; intros.
    - apply filter_and; auto.
    - revert H0. apply filter_imp. auto.
    - apply (locally_singleton _ _ H).
    - apply filter_forall. auto.
    - eapply rep_ext; eauto.
    - apply (locally_gt f p 0); auto. eapply jet_rep_cont; eauto.
    - apply rep_cst; auto.
    - generalize (filter_and _ _ (jet_rep_val _ _ _ _ H) (jet_rep_val _ _ _ _ H0)). apply filter_imp. intros q [E1 E2].
      rewrite <- E1, <- E2. reflexivity.
    - generalize (filter_and _ _ (jet_rep_val _ _ _ _ H) (jet_rep_val _ _ _ _ H0)). apply filter_imp. intros q [E1 E2].
      rewrite <- E1, <- E2. reflexivity.
    - generalize (filter_and _ _ (jet_rep_val _ _ _ _ H) (jet_rep_val _ _ _ _ H0)). apply filter_imp. intros q [E1 E2].
      rewrite <- E1, <- E2. reflexivity.
    - apply rep_add; auto.
    - apply rep_sub; auto.
    - apply rep_mul; auto.
    - apply rep_div; auto.
    - apply rep_neg; auto.
    - apply rep_abs; auto.
    - apply rep_sqrt; auto.
    - apply rep_cbrt; auto.
    - exact (proj1 (rep_sin_cos N HN _ _ _ H)).
    - exact (proj2 (rep_sin_cos N HN _ _ _ H)).
    - apply rep_tan; auto.
    - apply rep_exp; auto.
    - apply rep_expm1; auto.
    - apply rep_log; auto.
    - apply rep_ln_1p; auto.
    - assert (L2 : 0 < ln 2) by (rewrite <- ln_1; apply ln_increasing; lra).
      apply (rep_scale (fun z => ln (f z)) (fun z => jet_log N (A z)) p (ln 2)); [apply rep_log; auto|lra].
    - assert (L2 : 0 < ln 10) by (rewrite <- ln_1; apply ln_increasing; lra).
      apply (rep_scale (fun z => ln (f z)) (fun z => jet_log N (A z)) p (ln 10)); [apply rep_log; auto|lra].
    - apply rep_atan2; auto.
    - apply rep_copysign; auto.
    - apply (rep_step f A p (fun v => IZR (Zfloor v))); auto.
      generalize (floor_near _ H0). apply filter_imp. intros q ->. reflexivity.
    - apply (rep_step f A p (fun v => IZR (Zceil v))); auto.
      generalize (ceil_near _ H0). apply filter_imp. intros q ->. reflexivity.
    - apply (rep_step f A p Rround_away); auto. apply round_near; auto.
    - apply (rep_step f A p (fun v => IZR (Ztrunc v))); auto.
      generalize (trunc_near _ H0). apply filter_imp. intros q ->. reflexivity.
    - apply rep_hypot; auto.
  Qed.
End JetAlg.
