(** C118 integrals over several variables; C119 which error an integrator gives. *)
From Coq Require Import Reals ZArith NArith List Arith Bool Lia Lra Psatz.
From Coquelicot Require Import Coquelicot.
From Verif Require Import Base.Scalar Base.RNum Base.XNum Base.Lists Base.Series Model.Errors Model.Summation Model.GaussTables Model.Integration Spec.Integration Proofs.Integration Props.Integration Props.Quadrature.
Import ListNotations.
Local Open Scope R_scope.
Local Notation length := List.length.

(** * C118 *)

Lemma set_nth_twice {A} (l : list A) : forall i a b, set_nth (set_nth l i a) i b = set_nth l i b.
Proof. induction l as [|h t IH]; intros [|i] a b; cbn; auto. f_equal. apply IH. Qed.
Lemma set_nth_swap {A} (l : list A) : forall i j a b, i <> j -> set_nth (set_nth l i a) j b = set_nth (set_nth l j b) i a.
Proof. induction l as [|h t IH]; intros [|i] [|j] a b H; cbn; auto; try lia. f_equal. apply IH. lia. Qed.
Lemma polynomial_lin p n (w : nat -> R) (k : nat -> nat -> R) x : bsum n (fun i => w i * polynomial p (k i) x) = polynomial p (fun j => bsum n (fun i => w i * k i j)) x.
Proof.
  unfold polynomial. rewrite (bsum_ext n _ (fun i => bsum p (fun j => w i * k i j * x ^ j))) by (intros; rewrite <- bsum_scal; apply bsum_ext; intros; ring). rewrite bsum_swap. apply bsum_ext. intros j _. rewrite (Rmult_comm (bsum _ _)), <- bsum_scal. apply bsum_ext. intros; ring.
Qed.
Lemma polynomial_in_lin p v n (w : nat -> R) (f : nat -> list R -> R) : (forall i, polynomial_in p v (f i)) -> polynomial_in p v (fun pt => bsum n (fun i => w i * f i pt)).
Proof.
  intros H pt. induction n as [|n (k & K)]; [exists (fun _ => 0); intros x; unfold polynomial; cbn; rewrite (bsum_ext _ _ (fun _ => 0)), bsum_0 by (intros; ring); reflexivity|].
  destruct (H n pt) as (k' & K'). exists (fun j => k j + w n * k' j). intros x. cbn [bsum]. rewrite K, K'. unfold polynomial. rewrite <- bsum_scal, <- bsum_plus. apply bsum_ext. intros; ring.
Qed.
(** A rule is a weighted sum of samples, whatever the integrand. *)
Lemma rule_linear c a b m : total_iterations c = (m * panel_size (integration_method c))%nat -> (0 < m)%nat ->
  exists n (w x : nat -> R), forall h, integrate_rule c a b (fun y => Ok (h y)) = Ok (bsum n (fun i => w i * h (x i))).
Proof.
  intros En Hm. set (q := panel_size (integration_method c)) in *. set (d := (b - a) / INR (total_iterations c)).
  assert (F : forall m, exists n (w x : nat -> R), forall h, bsum m (fun j => d * bsum (S q) (fun i => rule_weight (integration_method c) i * h (a + INR (j * q + i) * d))) = bsum n (fun i => w i * h (x i))).
  { clear m En Hm. induction m as [|m (n & w & x & E)]; [exists 0%nat, (fun _ => 0), (fun _ => 0); reflexivity|].
    exists (n + S q)%nat, (fun i => if Nat.ltb i n then w i else d * rule_weight (integration_method c) (i - n)), (fun i => if Nat.ltb i n then x i else a + INR (m * q + (i - n)) * d). intros h.
    change (bsum (S m) ?F) with (bsum m F + F m). cbv beta. rewrite E, bsum_shift. f_equal.
    - apply bsum_ext. intros i Hi. destruct (Nat.ltb_spec i n); [reflexivity|lia].
    - rewrite <- bsum_scal. apply bsum_ext. intros i _. destruct (Nat.ltb_spec (n + i) n); [lia|]. replace (n + i - n)%nat with i by lia. ring. }
  destruct (F m) as (n & w & x & E). exists n, w, x. intros h. rewrite (rule_panels h c m a b En Hm). fold q d. rewrite E. reflexivity.
Qed.
Lemma rule_exact_R c k a b m : a < b -> total_iterations c = (m * panel_size (integration_method c))%nat -> (0 < m)%nat ->
  integrate_rule c a b (fun y => Ok (polynomial (rule_order (integration_method c)) k y)) = Ok (RInt (polynomial (rule_order (integration_method c)) k) a b).
Proof.
  intros Hab En Hm. pose proof (C115_exact c k a b m Hab Hm En) as E. rewrite single_R in E by (auto; destruct (integration_method c); cbn in En; lia). rewrite E. apply f_equal. symmetry. apply is_RInt_unique.
  pose proof (poly_integral (rule_order (integration_method c)) k 0 a b) as J. set (p := rule_order (integration_method c)) in *. apply (is_RInt_ext (fun x => bsum p (fun i => k i * (x - 0) ^ i))); [intros x _; unfold polynomial; apply bsum_ext; intros; rewrite Rminus_0_r; reflexivity|].
  replace (polynomial_integral p k a b) with (bsum p (fun i => k i * (b - 0) ^ S i / INR (S i)) - bsum p (fun i => k i * (a - 0) ^ S i / INR (S i))); [exact J|]. rewrite <- bsum_minus. unfold polynomial_integral. apply bsum_ext. intros i _. rewrite !Rminus_0_r. field. apply not_0_INR. lia.
Qed.
Lemma rule_ext c a b (g h : R -> sampled R) : (forall x, g x = h x) -> integrate_rule c a b g = integrate_rule c a b h.
Proof.
  intros H. assert (W : forall count iter point delta mult next, walk count iter point delta mult next g = walk count iter point delta mult next h) by (induction count as [|n IH]; intros; cbn [walk]; [reflexivity|]; rewrite H; destruct (h _); auto; rewrite IH; reflexivity).
  unfold integrate_rule, booles, simpsons, trapezoidal, gather. rewrite !H, !W. reflexivity.
Qed.
Lemma multi_exact c m f : total_iterations c = (m * panel_size (integration_method c))%nat -> (0 < m)%nat -> let p := rule_order (integration_method c) in
  forall levels, levels <> [] -> (forall v a b, In (v, (a, b)) levels -> a < b /\ polynomial_in p v f) ->
  (forall point, multi_levels c f levels point = Ok (iterated f levels point)) /\ (forall v, polynomial_in p v f -> polynomial_in p v (iterated f levels)).
Proof.
  intros En Hm p. induction levels as [|[v [a b]] inner IH]; intros Ne H; [contradiction|]. destruct (H v a b (or_introl eq_refl)) as [Hab Pv].
  assert (G : exists G, (forall point, multi_levels c f ((v, (a, b)) :: inner) point = integrate_rule c a b (fun x => Ok (G (set_nth point v x)))) /\ (forall u, polynomial_in p u f -> polynomial_in p u G) /\ forall point, iterated f ((v, (a, b)) :: inner) point = RInt (fun x => G (set_nth point v x)) a b).
  { destruct inner as [|l inner].
    - exists f. split; [|split; auto]. intros point. cbn [multi_levels]. rewrite classify_R by auto. reflexivity.
    - destruct (IH ltac:(discriminate) (fun v' a' b' I => H v' a' b' (or_intror I))) as [E P]. exists (iterated f (l :: inner)). split; [|split; [exact P|reflexivity]]. intros point. cbn [multi_levels]. rewrite classify_R by auto. cbn [over_domain]. apply rule_ext. intros x. apply E. }
  destruct G as (G & E & P & I). assert (V : forall point, multi_levels c f ((v, (a, b)) :: inner) point = Ok (iterated f ((v, (a, b)) :: inner) point)).
  { intros point. rewrite E, I. destruct (P v Pv point) as (k & K). rewrite (rule_ext c a b _ (fun y => Ok (polynomial p k y))) by (intros; rewrite K; reflexivity). unfold p. rewrite (rule_exact_R c k a b m Hab En Hm). apply f_equal. apply RInt_ext. intros x _. symmetry. apply K. }
  split; [exact V|]. intros u Pu. destruct (rule_linear c a b m En Hm) as (n & w & x & L).
  assert (Q : forall point, iterated f ((v, (a, b)) :: inner) point = bsum n (fun i => w i * G (set_nth point v (x i)))) by (intros point; pose proof (V point) as V0; rewrite E, L in V0; injection V0 as V0; symmetry; exact V0).
  intros point. assert (Pg : forall i, polynomial_in p u (fun pt => G (set_nth pt v (x i)))).
  { intros i pt. destruct (Nat.eq_dec u v) as [->|Nuv].
    - exists (fun j => match j with O => G (set_nth pt v (x i)) | _ => 0 end). intros y. rewrite set_nth_twice. unfold polynomial. assert (0 < p)%nat by (unfold p; destruct (integration_method c); cbn; lia). destruct p as [|p']; [lia|]. rewrite bsum_first. rewrite (bsum_ext _ _ (fun _ => 0)), bsum_0 by (intros; ring). cbn [pow]. ring.
    - destruct (P u Pu (set_nth pt v (x i))) as (k & K). exists k. intros y. rewrite set_nth_swap by auto. apply K. }
  destruct (polynomial_in_lin p u n w (fun i pt => G (set_nth pt v (x i))) Pg point) as (k & K). exists k. intros y. rewrite Q. apply K.
Qed.
(** The answer is the iterated integral, the last variable outermost, for every integrand that is a polynomial below the rule's order in each
    variable integrated over; the other variables keep the values given. *)
Theorem C118_exact c m f variables limits point : let q := panel_size (integration_method c) in let p := rule_order (integration_method c) in
  (0 < m)%nat -> total_iterations c = (m * q)%nat -> variables <> [] -> length variables = length limits ->
  (forall v, In v variables -> (v < length point)%nat /\ polynomial_in p v f) -> (forall a b, In (a, b) limits -> a < b) ->
  iterative_multi c variables f limits point = Ok (iterated f (rev (combine variables limits)) point).
Proof.
  intros q p Hm En Ne Len Hv Hl. assert (Q : (0 < q)%nat) by (unfold q; destruct (integration_method c); cbn; lia). unfold iterative_multi, iterative_check. destruct (Nat.eqb_spec (total_iterations c) 0); [nia|].
  assert (D : check_domains limits = None). { clear - Hl. induction limits as [|[a b] l IH]; [reflexivity|]. cbn [check_domains]. rewrite classify_R by (apply Hl; left; reflexivity). apply IH. intros; apply Hl; right; auto. }
  rewrite D. replace (forallb (fun i => Nat.ltb i (length point)) variables) with true by (symmetry; apply forallb_forall; intros v I; apply Nat.ltb_lt, Hv, I).
  apply (multi_exact c m f En Hm).
  - destruct variables as [|v vs]; [contradiction|]. destruct limits; [discriminate|]. cbn [combine rev]. intros E. apply app_eq_nil in E as [_ E]. discriminate.
  - intros v a b I. apply in_rev in I. split; [apply Hl, (in_combine_r _ _ _ _ I)|apply Hv, (in_combine_l _ _ _ _ I)].
Qed.
(** [x y^2] over [[0,1] x [0,2]] *)
Lemma two_degrees (g : list R -> R) v : (forall pt, exists c0 c1 c2, forall x, g (set_nth pt v x) = c0 + c1 * x + c2 * x ^ 2) -> polynomial_in 6 v g.
Proof. intros H pt. destruct (H pt) as (c0 & c1 & c2 & E). exists (fun k => nth k [c0; c1; c2] 0). intros x. rewrite E. unfold polynomial. cbn. ring. Qed.
Example C118_example : let f pt := nth 0 pt 0 * (nth 1 pt 0 * nth 1 pt 0) in
  iterative_multi iterative_default [0; 1]%nat f [(0, 1); (0, 2)] [7; 7] = Ok (iterated f [(1%nat, (0, 2)); (0%nat, (0, 1))] [7; 7]).
Proof.
  intros f. apply (C118_exact iterative_default 30 f [0; 1]%nat [(0, 1); (0, 2)] [7; 7]); try (cbn; lia); try discriminate.
  - intros v [<-|[<-|[]]]; (split; [cbn; lia|]); apply two_degrees; intros pt.
    + destruct pt as [|a [|b t]]; [exists 0, 0, 0|exists 0, 0, 0|exists 0, (b * b), 0]; intros x; unfold f; cbn; ring.
    + destruct pt as [|a [|b t]]; [exists 0, 0, 0|exists 0, 0, 0|exists 0, 0, a]; intros x; unfold f; cbn; ring.
  - intros a b [E|[E|[]]]; injection E as <- <-; lra.
Qed.

(** * C119 *)

(** Nothing but a value or a complaint about a sample *)
Definition sampled_only {T} (r : sampled T) : Prop := (exists v, r = Ok v) \/ r = Err InNonFinite.
Section Any.
  Context {T : Type} {NT : Num T}.
  Lemma check_only (x : T) : sampled_only (check_finite x).
  Proof. unfold check_finite. destruct (is_finite x); [left; eexists|right]; reflexivity. Qed.
  Lemma walk_only (g : T -> sampled T) : (forall x, sampled_only (g x)) -> forall count iter point delta mult next, (exists l, walk count iter point delta mult next g = Ok l) \/ walk count iter point delta mult next g = Err InNonFinite.
  Proof.
    intros H. induction count as [|n IH]; intros; cbn [walk]; [left; eexists; reflexivity|]. destruct (H (add point delta)) as [(v & ->)| ->]; [|right; reflexivity].
    destruct (IH (S iter) (add point delta) delta (next iter) next) as [(l & ->)| ->]; [left; eexists; reflexivity|right; reflexivity].
  Qed.
  Lemma rule_only c a b (g : T -> sampled T) : (forall x, sampled_only (g x)) -> sampled_only (integrate_rule c a b g).
  Proof.
    intros H. assert (G : forall n lower upper delta ends mult next f, sampled_only (finish (gather n lower upper delta ends mult next g) f)).
    { intros. unfold gather. destruct (H lower) as [(v & ->)| ->]; [|right; reflexivity]. destruct (walk_only g H (n - 1) 0 lower delta mult next) as [(l & ->)| ->]; [|right; reflexivity]. destruct (H upper) as [(w & ->)| ->]; [left; eexists; reflexivity|right; reflexivity]. }
    unfold integrate_rule. destruct (integration_method c); apply G.
  Qed.
  Lemma inner_only c d (f : T -> T) : sampled_only (over_domain_inner c d f).
  Proof. destruct d; cbn [over_domain_inner t_bounds]; apply rule_only; intros; try (destruct (map_sample _ _)); apply check_only. Qed.
  Lemma over_only c d (g : T -> sampled T) : (forall x, sampled_only (g x)) -> sampled_only (over_domain c d g).
  Proof. intros H. destruct d; cbn [over_domain t_bounds]; apply rule_only; intros; auto; destruct (map_sample _ _) as [y j]; destruct (H y) as [(v & ->)| ->]; try apply check_only; right; reflexivity. Qed.
  Lemma weighted_only l place (g : T -> sampled T) : (forall x, sampled_only (g x)) -> forall acc, sampled_only (weighted l place g acc).
  Proof. intros H. induction l as [|[w x] l IH]; intros acc; cbn [weighted]; [left; eexists; reflexivity|]. destruct (H (place (literal x))) as [(v & ->)| ->]; [apply IH|right; reflexivity]. Qed.
  Lemma level_only method l limit (g : T -> sampled T) : (forall x, sampled_only (g x)) -> sampled_only (gauss_level method l limit g).
  Proof.
    intros H. destruct method, limit as [a b]; cbn [gauss_level]; try (apply weighted_only; exact H).
    match goal with |- context [weighted l ?p g ?z] => destruct (weighted_only l p g H z) as [(v & ->)| ->] end; [left; eexists; reflexivity|right; reflexivity].
  Qed.
  Definition well (limit : T * T) : Prop := exists d, classify limit = Ok d.
  Lemma classify_cases limit : well limit \/ classify limit = Err InLimitsIllDefined.
  Proof. unfold well, classify. destruct limit as [a b]. destruct (is_nan a || is_nan b)%bool; auto. destruct (is_finite a), (is_finite b); repeat match goal with |- context [if ?c then _ else _] => destruct c end; eauto. Qed.
  Lemma domains_ok limits : (forall l, In l limits -> well l) -> check_domains limits = None.
  Proof. induction limits as [|l limits IH]; intros H; [reflexivity|]. cbn [check_domains]. destruct (H l (or_introl eq_refl)) as (d & ->). apply IH. intros; apply H; right; auto. Qed.
  Lemma domains_bad limits : (exists l, In l limits /\ ~ well l) -> check_domains limits = Some InLimitsIllDefined.
  Proof.
    induction limits as [|l limits IH]; intros (l' & I & W); [destruct I|]. cbn [check_domains]. destruct (classify_cases l) as [(d & E)|E]; rewrite E; [|reflexivity]. apply IH. exists l'. split; [|exact W]. destruct I as [->|I]; [|exact I]. exfalso. apply W. exists d. exact E.
  Qed.
  Lemma single_only c (f : T -> T) limits : limits <> [] -> (forall l, In l limits -> well l) -> sampled_only (single_levels c f limits).
  Proof.
    induction limits as [|l inner IH]; intros Ne H; [contradiction|]. cbn [single_levels]. destruct (H l (or_introl eq_refl)) as (d & ->). destruct inner as [|l' inner]; [apply inner_only|].
    destruct (IH ltac:(discriminate) (fun x I => H x (or_intror I))) as [(v & ->)| ->]; [|right; reflexivity]. destruct d; cbn [t_bounds]; apply rule_only; intros; apply check_only.
  Qed.
  Lemma multi_only c (f : list T -> T) levels : levels <> [] -> (forall v l, In (v, l) levels -> well l) -> forall point, sampled_only (multi_levels c f levels point).
  Proof.
    induction levels as [|[v l] inner IH]; intros Ne H point; [contradiction|]. cbn [multi_levels]. destruct (H v l (or_introl eq_refl)) as (d & ->). destruct inner as [|l' inner]; [apply inner_only|].
    apply over_only. intros x. apply IH; [discriminate|]. intros; eapply H; right; eauto.
  Qed.
  Lemma gauss_single_only method t (f : T -> T) limits : limits <> [] -> sampled_only (gauss_single_levels method t f limits).
  Proof.
    induction limits as [|l inner IH]; intros Ne; [contradiction|]. cbn [gauss_single_levels]. destruct inner as [|l' inner]; [apply level_only; intros; apply check_only|].
    destruct (IH ltac:(discriminate)) as [(v & ->)| ->]; [|right; reflexivity]. apply level_only. intros; left; eexists; reflexivity.
  Qed.
  Lemma gauss_multi_only method t (f : list T -> T) levels : levels <> [] -> forall point, sampled_only (gauss_multi_levels method t f levels point).
  Proof.
    induction levels as [|[v l] inner IH]; intros Ne point; [contradiction|]. cbn [gauss_multi_levels]. apply level_only. intros x. destruct inner; [apply check_only|apply IH; discriminate].
  Qed.
End Any.
Lemma well_proper (l : XR * XR) : well l <-> proper l.
Proof.
  unfold well, proper, classify. destruct l as [a b]. destruct a, b; cbn; split; intros H; try contradiction; try (destruct H; discriminate); try (eexists; reflexivity); auto.
  - destruct H as (d & E). destruct (Rltb r r0) eqn:Q; [apply Rltb_true, Q|discriminate].
  - rewrite (proj2 (Rltb_true r r0) H). eexists; reflexivity.
Qed.

(** The order of the checks, over the reals with infinities and NaN: a step count of zero, then the limits, then the variables, then the samples;
    an index panic never happens. *)
Theorem C119_iterative c f limits : let r := iterative_single c f limits in
  (total_iterations c = O -> r = Err InIterationsZero) /\
  (total_iterations c <> O -> (exists l, In l limits /\ ~ proper l) -> r = Err InLimitsIllDefined) /\
  (total_iterations c <> O -> limits <> [] -> (forall l, In l limits -> proper l) -> (exists v, r = Ok v) \/ r = Err InNonFinite).
Proof.
  cbv zeta. unfold iterative_single, iterative_check. destruct (Nat.eqb_spec (total_iterations c) 0) as [Z|Z]; split; [reflexivity|split; intros; contradiction|intros; contradiction|]. split.
  - intros _ (l & I & P). rewrite domains_bad; [reflexivity|]. exists l. split; [exact I|]. rewrite well_proper. exact P.
  - intros _ Ne P. rewrite domains_ok by (intros; apply well_proper; auto). apply single_only; [intros E; apply Ne; rewrite <- (rev_involutive limits), E; reflexivity|]. intros l I. apply well_proper, P, in_rev, I.
Qed.
Theorem C119_multi c variables f limits point : let r := iterative_multi c variables f limits point in
  (total_iterations c = O -> r = Err InIterationsZero) /\
  (total_iterations c <> O -> (exists l, In l limits /\ ~ proper l) -> r = Err InLimitsIllDefined) /\
  (total_iterations c <> O -> (forall l, In l limits -> proper l) -> (exists v, In v variables /\ (length point <= v)%nat) -> r = Err InIndexOutOfRange) /\
  (total_iterations c <> O -> variables <> [] -> length variables = length limits -> (forall l, In l limits -> proper l) -> (forall v, In v variables -> (v < length point)%nat) ->
    (exists v, r = Ok v) \/ r = Err InNonFinite).
Proof.
  cbv zeta. unfold iterative_multi, iterative_check. destruct (Nat.eqb_spec (total_iterations c) 0) as [Z|Z]; (split; [|split; [|split]]); try (intros; contradiction); try reflexivity.
  - intros _ (l & I & P). rewrite domains_bad; [reflexivity|]. exists l. split; [exact I|]. rewrite well_proper. exact P.
  - intros _ P (v & I & V). rewrite domains_ok by (intros; apply well_proper; auto). destruct (forallb (fun i => Nat.ltb i (length point)) variables) eqn:F; [|reflexivity]. rewrite forallb_forall in F. specialize (F v I). apply Nat.ltb_lt in F. lia.
  - intros _ Ne Len P V. rewrite domains_ok by (intros; apply well_proper; auto). replace (forallb (fun i => Nat.ltb i (length point)) variables) with true by (symmetry; apply forallb_forall; intros v I; apply Nat.ltb_lt, V, I).
    apply multi_only.
    + destruct variables as [|v vs]; [contradiction|]. destruct limits; [discriminate|]. cbn [combine rev]. intros E. apply app_eq_nil in E as [_ E]. discriminate.
    + intros v l I. apply in_rev in I. apply well_proper, P, (in_combine_r _ _ _ _ I).
Qed.
(** The limits a quadrature takes *)
Definition fixed_limits (method : GaussianQuadratureMethod) (l : XR * XR) : Prop :=
  match method, l with
  | GaussLegendre, (Fin a, Fin b) => a < b
  | GaussHermite, (NInf, PInf) => True
  | GaussLaguerre, (Fin a, PInf) => a = 0
  | _, _ => False
  end.
Lemma limits_spec method l : limits_ok method l = true <-> fixed_limits method l.
Proof.
  destruct method, l as [[a| | |] [b| | |]]; cbn; split; intros H; try discriminate; try contradiction; auto; try (apply Rltb_true; exact H); try (apply Rltb_true in H; exact H); try (rewrite andb_false_r in H; discriminate).
  - rewrite andb_true_r in H. apply Reqb_true, H.
  - rewrite andb_true_r. apply Reqb_true, H.
Qed.
Theorem C119_gaussian c f limits : let r := gaussian_single c f limits in
  ((order c = 0 \/ 30 < order c)%nat -> r = Err InQuadratureOrderOutOfRange) /\
  ((1 <= order c <= 30)%nat -> (exists l, In l limits /\ ~ fixed_limits (quadrature c) l) -> r = Err InLimitsIllDefined) /\
  ((1 <= order c <= 30)%nat -> limits <> [] -> (forall l, In l limits -> fixed_limits (quadrature c) l) -> (exists v, r = Ok v) \/ r = Err InNonFinite).
Proof.
  cbv zeta. unfold gaussian_single. split; [|split].
  - intros H. unfold nodes. destruct (Nat.eqb_spec (order c) 0); [reflexivity|]. destruct (Nat.ltb_spec 30 (order c)); [reflexivity|lia].
  - intros H (l & I & P). rewrite nodes_ok by auto. destruct (forallb (limits_ok (quadrature c)) limits) eqn:F; [|reflexivity]. rewrite forallb_forall in F. exfalso. apply P, limits_spec, F, I.
  - intros H Ne P. rewrite nodes_ok by auto. replace (forallb (limits_ok (quadrature c)) limits) with true by (symmetry; apply forallb_forall; intros l I; apply limits_spec, P, I).
    apply gauss_single_only. intros E; apply Ne; rewrite <- (rev_involutive limits), E; reflexivity.
Qed.
Theorem C119_gaussian_multi c variables f limits point : let r := gaussian_multi c variables f limits point in
  ((order c = 0 \/ 30 < order c)%nat -> r = Err InQuadratureOrderOutOfRange) /\
  ((1 <= order c <= 30)%nat -> (exists l, In l limits /\ ~ fixed_limits (quadrature c) l) -> r = Err InLimitsIllDefined) /\
  ((1 <= order c <= 30)%nat -> (forall l, In l limits -> fixed_limits (quadrature c) l) -> (exists v, In v variables /\ (length point <= v)%nat) -> r = Err InIndexOutOfRange) /\
  ((1 <= order c <= 30)%nat -> variables <> [] -> length variables = length limits -> (forall l, In l limits -> fixed_limits (quadrature c) l) -> (forall v, In v variables -> (v < length point)%nat) ->
    (exists v, r = Ok v) \/ r = Err InNonFinite).
Proof.
  cbv zeta. unfold gaussian_multi. split; [|split; [|split]].
  - intros H. unfold nodes. destruct (Nat.eqb_spec (order c) 0); [reflexivity|]. destruct (Nat.ltb_spec 30 (order c)); [reflexivity|lia].
  - intros H (l & I & P). rewrite nodes_ok by auto. destruct (forallb (limits_ok (quadrature c)) limits) eqn:F; [|reflexivity]. rewrite forallb_forall in F. exfalso. apply P, limits_spec, F, I.
  - intros H P (v & I & V). rewrite nodes_ok by auto. replace (forallb (limits_ok (quadrature c)) limits) with true by (symmetry; apply forallb_forall; intros l J; apply limits_spec, P, J).
    destruct (forallb (fun i => Nat.ltb i (length point)) variables) eqn:F; [|reflexivity]. rewrite forallb_forall in F. specialize (F v I). apply Nat.ltb_lt in F. lia.
  - intros H Ne Len P V. rewrite nodes_ok by auto. replace (forallb (limits_ok (quadrature c)) limits) with true by (symmetry; apply forallb_forall; intros l J; apply limits_spec, P, J).
    replace (forallb (fun i => Nat.ltb i (length point)) variables) with true by (symmetry; apply forallb_forall; intros v I; apply Nat.ltb_lt, V, I).
    apply gauss_multi_only. destruct variables as [|v vs]; [contradiction|]. destruct limits; [discriminate|]. cbn [combine rev]. intros E. apply app_eq_nil in E as [_ E]. discriminate.
Qed.
(** On a finite interval there is a value exactly when the integrand is finite at every place sampled: the ends and the steps between. *)
Theorem C119_samples {T} {NT : Num T} c (f : T -> T) a b : total_iterations c <> O -> classify (a, b) = Ok (Finite a b) ->
  ((exists v, iterative_single c f [(a, b)] = Ok v) <-> forall x, In x (sample_places (total_iterations c) a b) -> is_finite (f x) = true).
Proof.
  intros Z E. assert (R : iterative_single c f [(a, b)] = integrate_rule c a b (fun x => check_finite (f x))) by (unfold iterative_single, iterative_check; destruct (Nat.eqb_spec (total_iterations c) 0); [contradiction|]; cbn [check_domains]; rewrite E; cbn [rev app single_levels]; rewrite E; reflexivity). rewrite R.
  assert (C : forall x, (exists v, check_finite (f x) = Ok v) <-> is_finite (f x) = true) by (intros x; unfold check_finite; destruct (is_finite (f x)); split; intros H; try discriminate; eauto; destruct H; discriminate).
  assert (W : forall delta next count iter point mult, (exists l, walk count iter point delta mult next (fun x => check_finite (f x)) = Ok l) <-> forall x, In x (from count point delta) -> is_finite (f x) = true).
  { intros delta next. induction count as [|n IH]; intros; cbn [walk from]; [split; [intros _ x []|intros _; eexists; reflexivity]|]. set (y := add point delta). split.
    - intros (l & H) x Hx. destruct (check_finite (f y)) as [v|e|] eqn:K; try discriminate. destruct (walk n (S iter) y delta (next iter) next _) as [l'|e|] eqn:Wk; try discriminate. destruct Hx as [<-|Hx]; [apply C; eauto|]. apply (proj1 (IH (S iter) y (next iter)) (ex_intro _ l' Wk)), Hx.
    - intros H. destruct (proj2 (C y) (H y (or_introl eq_refl))) as (v & ->). destruct (proj2 (IH (S iter) y (next iter)) (fun x I => H x (or_intror I))) as (l & ->). eexists; reflexivity. }
  assert (G : forall ends mult next k, (exists v, finish (gather (total_iterations c) a b (step_size (total_iterations c) a b) ends mult next (fun x => check_finite (f x))) k = Ok v) <-> forall x, In x (sample_places (total_iterations c) a b) -> is_finite (f x) = true).
  { intros ends mult next k. unfold gather, sample_places. fold (step_size (total_iterations c) a b). set (d := step_size (total_iterations c) a b). split.
    - intros (v & H) x Hx. destruct (check_finite (f a)) as [va|e|] eqn:Ka; try discriminate. destruct (walk _ 0 a d mult next _) as [l|e|] eqn:Wk; try discriminate. destruct (check_finite (f b)) as [vb|e|] eqn:Kb; try discriminate.
      destruct Hx as [<-|Hx]; [apply C; eauto|]. apply in_app_iff in Hx as [Hx|[<-|[]]]; [|apply C; eauto]. apply (proj1 (W d next (total_iterations c - 1)%nat 0%nat a mult) (ex_intro _ l Wk)), Hx.
    - intros H. destruct (proj2 (C a) (H a (or_introl eq_refl))) as (va & ->). destruct (proj2 (W d next (total_iterations c - 1)%nat 0%nat a mult)) as (l & ->); [intros x I; apply H; right; apply in_app_iff; left; exact I|].
      destruct (proj2 (C b) (H b ltac:(right; apply in_app_iff; right; left; reflexivity))) as (vb & ->). eexists; reflexivity. }
  unfold integrate_rule. destruct (integration_method c); apply G.
Qed.
(** No integrations at all is not refused: it indexes before the first limit. *)
Theorem C119_empty_refuted : exists c f, total_iterations c <> O /\ iterative_single (T := R) c f [] = Panic.
Proof. exists iterative_default, (fun x => x). split; [discriminate|reflexivity]. Qed.
Example C119_example : proper (Fin 0, PInf) /\ ~ proper (PInf, Fin 0) /\ fixed_limits GaussLaguerre (Fin 0, PInf) /\
  iterative_single iterative_default (fun x => x) [(Fin 1, Fin 0)] = Err InLimitsIllDefined /\ iterative_single iterative_default (fun _ => XNaN) [(Fin 0, PInf)] = Err InNonFinite.
Proof.
  split; [exact I|]. split; [intros []|]. split; [reflexivity|]. split.
  - apply (C119_iterative iterative_default (fun x => x) [(Fin 1, Fin 0)]); [discriminate|]. exists (Fin 1, Fin 0). split; [left; reflexivity|]. cbn. lra.
  - destruct (proj2 (proj2 (C119_iterative iterative_default (fun _ => XNaN) [(Fin 0, PInf)]))) as [(v & E)|E]; [discriminate|discriminate|intros l [<-|[]]; exact I| |exact E]. exfalso. revert E. unfold iterative_single. cbn [iterative_check]. cbn. discriminate.
Qed.

Print Assumptions C118_exact.
Print Assumptions C119_iterative.
Print Assumptions C119_multi.
Print Assumptions C119_gaussian.
Print Assumptions C119_gaussian_multi.
Print Assumptions C119_samples.
Print Assumptions C119_empty_refuted.
