(** C49-C53 and C71: real roots of polynomials. *)
From Coq Require Import ZArith List Bool Arith Reals Lra Lia Permutation Sorted Classical_Prop.
From Coquelicot Require Import Coquelicot.
From Verif Require Import Base.Scalar Base.Lists Base.RNum Base.Series Base.PolyR Model.Errors Model.Polynomial Model.Roots
  Spec.Polynomial Spec.Roots Proofs.DiffAlg Proofs.Polynomial Proofs.Roots Proofs.Sturm Proofs.RootSearch.
Import ListNotations.
Local Open Scope R_scope.

(** ** C49 *)
Theorem C49_quadratic_roots : forall c b a : R,
  (a = 0 -> quadratic_roots c b a = Err PoLeadingCoefficientZero) /\
  (a <> 0 -> exists roots, quadratic_roots c b a = Ok roots /\ all_real_roots [c; b; a] roots /\ exactly_the_zeros [c; b; a] roots /\
     length roots = (if Rlt_dec (b * b - 4 * a * c) 0 then 0 else 2)%nat).
Proof.
  intros c b a. split.
  - intros ->. unfold quadratic_roots. rewrite check_R. rewrite (proj2 (Reqb_true 0 0) eq_refl). reflexivity.
  - intros Ha. destruct (quadratic_fac c b a Ha) as (L & E & F & S & _). exists L. split; [exact E|].
    assert (A : all_real_roots [c; b; a] L).
    { split; [exact S|]. destruct F as (g & N & F). exists g. split; intros x; rewrite ?value_at_peval; [apply N|]. rewrite <- F. cbn. ring. }
    split; [exact A|]. split; [apply all_exact; exact A|].
    destruct (quadratic_list c b a Ha) as [(D & E')|(D & r1 & r2 & E' & _)]; rewrite E in E'; injection E' as ->; destruct (Rlt_dec _ 0); try lra; [reflexivity|].
    rewrite (Permutation_length (sort_perm [r1; r2])). reflexivity.
Qed.
Example C49_example : exists roots, quadratic_roots 6 (-5) 1 = Ok roots /\ In 2 roots /\ In 3 roots /\ length roots = 2%nat.
Proof.
  destruct (proj2 (C49_quadratic_roots 6 (-5) 1) ltac:(lra)) as (roots & E & _ & [_ Z] & L). exists roots. split; [exact E|].
  split; [apply Z; cbn; lra|]. split; [apply Z; cbn; lra|]. rewrite L. destruct (Rlt_dec _ 0); [lra|reflexivity].
Qed.
Print Assumptions C49_quadratic_roots.

(** ** C50 *)
(** every number returned is a zero, every real zero is returned, in order *)
Theorem C50_cubic_zeros : forall c b a2 a : R,
  (a = 0 -> cubic_roots c b a2 a = Err PoLeadingCoefficientZero) /\
  (a <> 0 -> exists roots, cubic_roots c b a2 a = Ok roots /\ exactly_the_zeros [c; b; a2; a] roots).
Proof.
  intros c b a2 a. split; [|apply cubic_zeros].
  intros ->. unfold cubic_roots. rewrite check_R. rewrite (proj2 (Reqb_true 0 0) eq_refl). reflexivity.
Qed.
(** repeats are included when the cubic is not a scaled cube (x - r)^3 *)
Theorem C50_cubic_repeats_partial : forall c b a2 a : R, a <> 0 ->
  (forall r, ~ forall x, value_at [c; b; a2; a] x = a * (x - r) ^ 3) ->
  exists roots, cubic_roots c b a2 a = Ok roots /\ all_real_roots [c; b; a2; a] roots.
Proof.
  intros c b a2 a Ha N. destruct (cubic_fac c b a2 a Ha) as (L & E & [F|(r & _ & F)]).
  - eexists. split; [exact E|]. apply fac_all. exact F.
  - exfalso. apply (N r). intros x. rewrite value_at_peval, F. ring.
Qed.
(** a triple zero is returned once: (x - 1)^3 gives the single number 1 *)
Theorem C50_triple_root_refuted :
  cubic_roots (-1) 3 (-3) 1 = Ok [1] /\ ~ all_real_roots [-1; 3; -3; 1] [1].
Proof.
  split.
  - unfold cubic_roots. rewrite check_R, (proj2 (Reqb_false 1 0)) by lra. unfold cubic_cases.
    assert (P : cubic_reduced_linear 3 (-3) 1 = 0) by (unfold cubic_reduced_linear; rnum; field).
    assert (Q : cubic_reduced_constant (-1) 3 (-3) 1 = 0) by (unfold cubic_reduced_constant; rnum; field).
    assert (S : cubic_slide (-3) 1 = 1) by (unfold cubic_slide; rnum; field).
    rewrite P, Q, S. rnum. rewrite (proj2 (Reqb_true 0 0) eq_refl). replace (Rcbrt (- 0)) with 0; [cbn; do 2 f_equal; ring|].
    apply cube_inj. rewrite Rcbrt_cube. ring.
  - intros (_ & g & N & F). destruct (Req_dec (value_at g 1) 0) as [Z|Z]; [apply (N 1 Z)|]. clear N.
    (* dividing by x - 1 leaves a polynomial that still vanishes at 1 *)
    set (d := padd g (map Ropp [1; -2; 1])).
    assert (Zd : forall x, x <> 1 -> peval d x = 0).
    { intros x Hx. unfold d. rewrite peval_padd, peval_opp, <- value_at_peval. specialize (F x). unfold product_of_factors in F. cbn [fold_right] in F.
      rewrite value_at_peval in F. apply (Rmult_eq_reg_l (x - 1)); [|lra]. cbn [peval] in *. lra. }
    destruct (near_sign d 1) as (e & He & Ne).
    { unfold d. rewrite peval_padd, peval_opp, <- value_at_peval. cbn [peval]. lra. }
    apply (proj1 (Ne (1 + e / 2) ltac:(rewrite Rabs_pos_eq; lra))). apply Zd. lra.
Qed.
(** (x-1)^2 (x+2): a double zero, listed twice *)
Example C50_example : exists roots, cubic_roots 2 (-3) 0 1 = Ok roots /\ all_real_roots [2; -3; 0; 1] roots /\ In 1 roots /\ In (-2) roots.
Proof.
  destruct (C50_cubic_repeats_partial 2 (-3) 0 1 ltac:(lra)) as (roots & E & A).
  - intros r H. pose proof (H 1) as H1. pose proof (H (-2)) as H2. cbn in H1, H2.
    assert (E1 : (1 - r) * ((1 - r) * (1 - r)) = 0) by lra. assert (E2 : (-2 - r) * ((-2 - r) * (-2 - r)) = 0) by lra.
    assert (r = 1) by (apply Rmult_integral in E1; destruct E1 as [|E1]; [lra|apply Rmult_integral in E1; lra]).
    assert (r = -2) by (apply Rmult_integral in E2; destruct E2 as [|E2]; [lra|apply Rmult_integral in E2; lra]). lra.
  - exists roots. split; [exact E|]. split; [exact A|]. destruct (all_exact _ _ A) as [_ Z]. split; apply Z; cbn; lra.
Qed.
Print Assumptions C50_cubic_zeros.
Print Assumptions C50_cubic_repeats_partial.
Print Assumptions C50_triple_root_refuted.

(** ** C71 *)
Theorem C71_quartic_roots : forall c b a2 a3 a : R,
  (a = 0 -> quartic_roots c b a2 a3 a = Err PoLeadingCoefficientZero) /\
  (a <> 0 -> exists roots, quartic_roots c b a2 a3 a = Ok roots /\ all_real_roots [c; b; a2; a3; a] roots /\ exactly_the_zeros [c; b; a2; a3; a] roots).
Proof.
  intros c b a2 a3 a. split.
  - intros ->. unfold quartic_roots. rewrite check_R. rewrite (proj2 (Reqb_true 0 0) eq_refl). reflexivity.
  - intros Ha. destruct (quartic_all c b a2 a3 a Ha) as (L & E & A). exists L. auto using all_exact.
Qed.
(** (x-1)(x-2)(x-3)(x+5) *)
Example C71_example : exists roots, quartic_roots 30 (-49) 19 (-1) (-1) = Ok roots /\ ~ In 0 roots /\
  forall x, In x roots <-> 30 - 49 * x + 19 * x ^ 2 - x ^ 3 - x ^ 4 = 0.
Proof.
  destruct (proj2 (C71_quartic_roots 30 (-49) 19 (-1) (-1)) ltac:(lra)) as (roots & E & _ & [_ Z]). exists roots. split; [exact E|].
  split; [rewrite Z; cbn; lra|]. intros x. rewrite Z. cbn. split; intros H; lra.
Qed.
Print Assumptions C71_quartic_roots.

(** ** C51 *)
Lemma repeated_regular c x : ~ repeated_zero c x -> regular c x.
Proof.
  intros H [Z D]. apply H. split; [rewrite value_at_peval; exact Z|]. rewrite <- D. apply is_derive_unique.
  apply (is_derive_ext (peval c)); [intros; symmetry; apply value_at_peval|apply derivative_is_derive].
Qed.
Lemma has_degree_deg c n : has_degree c n -> deg_eq c n.
Proof. intros [N D]. split; [exact N|]. intros k Hk. apply D. lia. Qed.
Theorem C51_count_partial : forall (c : list R) (n : nat) (lower upper : R),
  has_degree c (S n) -> ~ repeated_zero c lower -> ~ repeated_zero c upper ->
  exists roots, distinct_roots_in c lower upper roots /\ count_real_roots c lower upper = Ok (length roots).
Proof.
  intros c n lower upper D R1 R2. apply has_degree_deg in D. apply repeated_regular in R1, R2.
  destruct (chain_count c n D) as (chain & E & C). destruct (zeros_exist (length c) c (le_n _) (deg_nonzero _ _ D)) as (L & Nd & HL).
  exists (sort_ascending (filter (in_range lower upper) L)). split; [apply distinct_sort; auto|].
  unfold count_real_roots. rewrite E. f_equal. rewrite (C L Nd HL lower upper R1 R2). rewrite (Permutation_length (sort_perm _)).
  destruct (Rle_dec lower upper) as [H|H]; [rewrite (upto_range L lower upper H); lia|].
  pose proof (upto_mono L upper lower ltac:(lra)).
  replace (filter (in_range lower upper) L) with (@nil R); [cbn; lia|].
  clear - H. induction L as [|r L IH]; [reflexivity|]. cbn [filter]. replace (in_range lower upper r) with false; [exact IH|].
  unfold in_range. destruct (Rltb lower r) eqn:E1, (Rleb r upper) eqn:E2; auto. apply Rltb_true in E1. apply Rleb_true in E2. lra.
Qed.
(** the answer is unique: there is only one such list *)
Theorem C51_unique : forall (c : list R) (lower upper : R) (l m : list R),
  distinct_roots_in c lower upper l -> distinct_roots_in c lower upper m -> l = m.
Proof. exact distinct_unique. Qed.
(** a non-zero constant with a single coefficient has no zeros and is counted right *)
Theorem C51_constant_partial : forall (k lower upper : R), k <> 0 -> count_real_roots [k] lower upper = Ok 0%nat.
Proof.
  intros k lower upper H. unfold count_real_roots, root_counting_chain. rewrite finite_R. cbn [negb poly_degree]. rnum.
  rewrite (proj2 (Reqb_false k 0) H). cbn [negb length Nat.ltb Nat.leb]. unfold count_between. rewrite !sign_changes_vr. cbn [map vr]. 
  destruct (Reqb (peval [k] lower) 0); reflexivity.
Qed.
Lemma all_zero_counts l prev : (forall v, In v l -> v = 0) -> vr prev l = 0%nat.
Proof.
  revert prev. induction l as [|v l IH]; intros prev H; [reflexivity|]. cbn [vr]. rewrite (proj2 (Reqb_true v 0) (H v (or_introl eq_refl))). apply IH. intros w Hw. apply H. right; exact Hw.
Qed.
(** at a repeated zero every entry of the chain vanishes *)
Lemma repeated_no_changes p n chain x : deg_eq p (S n) -> root_counting_chain p = Ok chain -> peval p x = 0 -> peval (poly_derivative p) x = 0 ->
  sign_changes chain x = 0%nat.
Proof.
  intros D E Z Z'. destruct (chain_R p n D) as (rest & E' & Eu). rewrite E in E'. injection E' as ->.
  assert (G : peval (last (p :: poly_derivative p :: rest) []) x = 0).
  { destruct (euclid_factor _ Eu) as (s & S & Len & F). destruct s as [|s0 [|s1 s]]; try discriminate. specialize (F x). cbn [map] in F.
    set (g := peval (last _ []) x) in *. injection F as F0 F1 _. destruct (Req_dec g 0) as [|N]; [assumption|].
    assert (peval s0 x = 0) by (rewrite F0 in Z; apply Rmult_integral in Z; tauto). exfalso. apply (sturm_not_both s0 s1 s x S H).
    rewrite F1 in Z'. apply Rmult_integral in Z'. tauto. }
  rewrite sign_changes_vr. apply all_zero_counts. intros v Hv. apply in_map_iff in Hv. destruct Hv as (q & <- & Hq). apply (chain_last_zero _ x Eu G q Hq).
Qed.
Lemma cube_minus_square_degree : deg_eq [0; 0; -1; 1] 3.
Proof. split; [cbn; lra|]. intros [|[|[|[|k]]]] H; try lia. destruct k; reflexivity. Qed.
(** x^2 (x-1) has the zero 1 between 0 and 5, and the count is 0: the lower end is a repeated zero *)
Theorem C51_repeated_end_refuted :
  value_at [0; 0; -1; 1] 1 = 0 /\ 0 < 1 <= 5 /\ count_real_roots [0; 0; -1; 1] 0 5 = Ok 0%nat.
Proof.
  split; [cbn; ring|]. split; [lra|]. pose proof cube_minus_square_degree as D. destruct (chain_R _ 2 D) as (rest & E & Eu).
  unfold count_real_roots. rewrite E. f_equal. unfold count_between. rewrite (repeated_no_changes _ 2 _ 0 D E); [reflexivity|cbn; ring|].
  rewrite derivative_R. cbn. ring.
Qed.
(** a non-zero constant stored with room for higher powers: the checked build stops on [length - 2] *)
Theorem C51_padded_constant_refuted : forall lower upper : R, count_real_roots [5; 0] lower upper = Panic.
Proof.
  intros lower upper. unfold count_real_roots, root_counting_chain. rewrite finite_R. cbn [negb poly_degree]. rnum.
  rewrite (proj2 (Reqb_true 0 0) eq_refl), (proj2 (Reqb_false 5 0)) by lra. reflexivity.
Qed.
(** x^3 - x between -2 and 1/2: the zeros -1 and 0 *)
Example C51_example : count_real_roots [0; -1; 0; 1] (-2) (1/2) = Ok 2%nat.
Proof.
  assert (Dv : forall x, Derive (value_at [0; -1; 0; 1]) x = 3 * x * x - 1).
  { intros x. apply is_derive_unique. apply (is_derive_ext (peval [0; -1; 0; 1])); [intros; symmetry; apply value_at_peval|].
    evar_last; [apply derivative_is_derive|]. rewrite derivative_R. cbn. ring. }
  destruct (C51_count_partial [0; -1; 0; 1] 2 (-2) (1/2)) as (roots & D & ->).
  - split; [cbn; lra|]. intros [|[|[|[|k]]]] H; try lia. destruct k; reflexivity.
  - intros [Z _]. cbn in Z. lra.
  - intros [Z _]. cbn in Z. lra.
  - assert (D' : distinct_roots_in [0; -1; 0; 1] (-2) (1/2) [-1; 0]).
    { split; [repeat constructor; lra|]. intros x. cbn. split.
      - intros [<-|[<-|[]]]; split; lra.
      - intros [H Z]. assert (F : x * ((x - 1) * (x + 1)) = 0) by lra. apply Rmult_integral in F. destruct F as [F|F]; [right; left; lra|].
        apply Rmult_integral in F. destruct F; [exfalso; lra|left; lra]. }
    rewrite (distinct_unique _ _ _ _ _ D D'). reflexivity.
Qed.
Print Assumptions C51_count_partial.
Print Assumptions C51_unique.
Print Assumptions C51_constant_partial.
Print Assumptions C51_repeated_end_refuted.
Print Assumptions C51_padded_constant_refuted.

(** ** C52 *)
(** For every scalar: the call ends, a failure to converge reports the whole budget, and once there is an answer a larger
    budget gives the same one. So the work needed does not depend on the budget, and the budget caps it. *)
Theorem C52_budget : forall (T : Type) (NT : Num T) (p : list T) (lower upper tolerance : T) (budget : nat),
  (exists r, real_roots_in p lower upper tolerance budget = Some r) /\
  (forall steps, real_roots_in p lower upper tolerance budget = Some (Err (PoDidNotConverge steps)) -> steps = budget) /\
  (forall roots, real_roots_in p lower upper tolerance budget = Some (Ok roots) ->
     forall larger, (budget <= larger)%nat -> real_roots_in p lower upper tolerance larger = Some (Ok roots)).
Proof.
  intros T NT p lower upper tolerance budget. unfold real_roots_in. destruct (_ || _)%bool; [repeat split; eauto; discriminate|].
  destruct (leb tolerance zero); [repeat split; eauto; discriminate|]. destruct (ltb upper lower); [repeat split; eauto; discriminate|].
  destruct (root_counting_chain p) as [chain|e|] eqn:E; [|split; [eauto|split; [|discriminate]]|split; [eauto|split; discriminate]].
  2: { intros steps H. injection H as ->. unfold root_counting_chain in E. destruct (negb _); [discriminate|]. destruct (poly_degree p) as [[|]|]; [destruct (Nat.ltb _ _)| |]; discriminate. }
  set (pending := if Nat.ltb 0 (count_between chain lower upper) then _ else _).
  assert (Lp : (length pending <= 1)%nat) by (unfold pending; destruct (Nat.ltb 0 _); [apply (add_length (length p) [])|cbn; lia]).
  split; [apply loop_ends; lia|]. split.
  - intros steps H. apply loop_error in H. injection H. auto.
  - intros roots H larger Hl. replace larger with (budget + (larger - budget))%nat at 3 by lia. apply (loop_more _ _ _ budget larger (larger - budget) _ _ _ _ _ H). lia.
Qed.
Lemma loop_sorted cap chain (tol : R) b : forall fuel pending roots n r, roots_loop fuel cap chain tol b pending roots n = Some (Ok r) -> Sorted Rle r.
Proof.
  induction fuel as [|fuel IH]; intros pending roots n r; [discriminate|]. cbn [roots_loop].
  destruct (rev pending) as [|[lo up] below]; [intros H; injection H as <-; apply sort_sorted|]. destruct (Nat.eqb _ 1).
  - destruct (close_in chain tol n lo up) as [[root n']|]; [apply IH|discriminate].
  - destruct n; [discriminate|apply IH].
Qed.
Theorem C52_sorted : forall (c : list R) (lower upper tolerance : R) (budget : nat) (roots : list R),
  real_roots_in c lower upper tolerance budget = Some (Ok roots) -> Sorted Rle roots.
Proof.
  intros c lower upper tolerance budget roots. unfold real_roots_in. destruct (_ || _)%bool; [discriminate|].
  destruct (leb _ _); [discriminate|]. destruct (ltb _ _); [discriminate|]. destruct (root_counting_chain c); try discriminate. apply loop_sorted.
Qed.
Lemma search_setup (c : list R) n lower upper tolerance budget :
  has_degree c (S n) -> 0 < tolerance -> lower <= upper ->
  (forall x, halving_point lower upper x -> ~ repeated_zero c x) ->
  exists chain L, NoDup L /\ (forall x, In x L <-> peval c x = 0) /\ (length L < length c)%nat /\
    (forall a b, halving_point lower upper a -> halving_point lower upper b -> count_between chain a b = (upto L b - upto L a)%nat) /\
    real_roots_in c lower upper tolerance budget =
      roots_loop (2 * budget + 3) (length c) chain tolerance budget
        (if Nat.ltb 0 (count_between chain lower upper) then add_range (length c) [] (lower, upper) else []) [] budget.
Proof.
  intros D T H R1. apply has_degree_deg in D. destruct (chain_count c n D) as (chain & E & C).
  destruct (zeros_exist (length c) c (le_n _) (deg_nonzero _ _ D)) as (L & Nd & HL). exists chain, L. split; [exact Nd|]. split; [exact HL|]. split.
  { destruct (le_lt_dec (length c) (length L)) as [Le|]; [|assumption]. exfalso. destruct D as [N _]. apply N.
    apply (roots_zero c L Nd Le). intros r Hr. apply HL. exact Hr. }
  split; [intros a b Ha Hb; apply (C L Nd HL); apply repeated_regular, R1; assumption|].
  unfold real_roots_in. rnum. cbn [negb orb]. rewrite (proj2 (Rleb_false tolerance 0)), (proj2 (Rltb_false upper lower)) by lra. rewrite E. reflexivity.
Qed.
Lemma hp_ends lower upper : halving_point lower upper lower /\ halving_point lower upper upper.
Proof. split; [exists 0%nat, 0%nat|exists 1%nat, 0%nat]; cbn; field. Qed.
Lemma initial_inv (c : list R) chain L lower upper tol : lower <= upper -> (length L < length c)%nat ->
  (forall a b, halving_point lower upper a -> halving_point lower upper b -> count_between chain a b = (upto L b - upto L a)%nat) ->
  inv L lower upper tol (if Nat.ltb 0 (count_between chain lower upper) then add_range (length c) [] (lower, upper) else []) [].
Proof.
  intros H Lc C. destruct (hp_ends lower upper) as [Hl Hu].
  destruct (add_piece c chain L lower upper Lc C [] lower upper Hl Hu H (Forall_nil _) ltac:(cbn; lia)) as (G & Z & _). cbv zeta in *.
  split; [exact G|]. exists []. split; [constructor|]. rewrite Z. reflexivity.
Qed.
(** what is refused, and that nothing else is: for a polynomial of positive degree the call fails only for lack of budget *)
Theorem C52_refusals : forall (c : list R) (lower upper tolerance : R) (budget : nat),
  (tolerance <= 0 -> real_roots_in c lower upper tolerance budget = Some (Err PoToleranceNotPositive)) /\
  (0 < tolerance -> upper < lower -> real_roots_in c lower upper tolerance budget = Some (Err PoRangeReversed)) /\
  (0 < tolerance -> lower <= upper -> (forall x, value_at c x = 0) -> real_roots_in c lower upper tolerance budget = Some (Err PoLeadingCoefficientZero)) /\
  (0 < tolerance -> lower <= upper -> forall n, has_degree c (S n) ->
     (exists roots, real_roots_in c lower upper tolerance budget = Some (Ok roots)) \/ real_roots_in c lower upper tolerance budget = Some (Err (PoDidNotConverge budget))).
Proof.
  intros c lower upper tolerance budget. unfold real_roots_in. rnum. cbn [negb orb]. split; [|split; [|split]].
  - intros H. rewrite (proj2 (Rleb_true tolerance 0) H). reflexivity.
  - intros H H2. rewrite (proj2 (Rleb_false tolerance 0) H), (proj2 (Rltb_true upper lower) H2). reflexivity.
  - intros H H2 Z. rewrite (proj2 (Rleb_false tolerance 0) H), (proj2 (Rltb_false upper lower) H2). unfold root_counting_chain. rewrite finite_R. cbn [negb].
    pose proof (degree_spec c) as D. destruct (poly_degree c) as [n|]; [|reflexivity]. exfalso. destruct (deg_nonzero c n D) as (x & N). apply N. rewrite <- value_at_peval. apply Z.
  - intros H H2 n D. rewrite (proj2 (Rleb_false tolerance 0) H), (proj2 (Rltb_false upper lower) H2). apply has_degree_deg in D.
    destruct (chain_R c n D) as (rest & -> & _). set (chain := c :: poly_derivative c :: rest). set (pending := if Nat.ltb 0 (count_between chain lower upper) then _ else _).
    assert (Lp : (length pending <= 1)%nat) by (unfold pending; destruct (Nat.ltb 0 _); [apply (add_length (length c) [])|cbn; lia]).
    destruct (loop_ends (length c) chain tolerance budget (2 * budget + 3) pending [] budget ltac:(lia)) as (r & E). rewrite E. destruct r as [roots|e|].
    + left. eauto.
    + right. rewrite (loop_error _ _ _ _ _ _ _ _ _ E). reflexivity.
    + exfalso. apply (loop_no_panic _ _ _ _ _ _ _ _ E).
Qed.
(** Every answer is the list of the zeros in the range, each within half the tolerance, when no point reached by halving
    the range is a repeated zero (in particular whenever no zero is repeated). *)
Theorem C52_finds_the_roots_partial : forall (c : list R) (n : nat) (lower upper tolerance : R) (budget : nat) (roots : list R),
  has_degree c (S n) -> 0 < tolerance -> lower <= upper ->
  (forall x, halving_point lower upper x -> ~ repeated_zero c x) ->
  real_roots_in c lower upper tolerance budget = Some (Ok roots) ->
  exists exact, distinct_roots_in c lower upper exact /\ Forall2 (fun found true_root => Rabs (found - true_root) <= tolerance / 2) roots exact.
Proof.
  intros c n lower upper tolerance budget roots D T H R1 E.
  destruct (search_setup c n lower upper tolerance budget D T H R1) as (chain & L & Nd & HL & Len & C & E'). rewrite E in E'.
  pose proof (loop_correct c chain L lower upper tolerance Nd Len C budget _ _ _ _ roots (initial_inv c chain L lower upper tolerance H Len C) (eq_sym E')) as F.
  eexists. split; [|exact F]. apply (distinct_sort c L lower upper Nd HL).
Qed.
(** The budget that is enough: if the zeros in the range are at least (upper - lower) / 2^d apart and that is within the
    tolerance, then d halvings for each zero do. *)
Theorem C52_enough_budget_partial : forall (c : list R) (n d : nat) (lower upper tolerance : R) (budget : nat) (exact : list R),
  has_degree c (S n) -> 0 < tolerance -> lower <= upper ->
  (forall x, halving_point lower upper x -> ~ repeated_zero c x) ->
  distinct_roots_in c lower upper exact ->
  (upper - lower) / 2 ^ d <= tolerance ->
  (forall x y, In x exact -> In y exact -> x < y -> (upper - lower) / 2 ^ d <= y - x) ->
  (length exact * d <= budget)%nat ->
  exists roots, real_roots_in c lower upper tolerance budget = Some (Ok roots).
Proof.
  intros c n d lower upper tolerance budget exact D T H R1 Ex W Gap B.
  destruct (search_setup c n lower upper tolerance budget D T H R1) as (chain & L & Nd & HL & Len & C & E'). rewrite E'.
  destruct (hp_ends lower upper) as [Hl Hu].
  assert (Le : length (filter (in_range lower upper) L) = length exact).
  { rewrite <- (Permutation_length (sort_perm (filter (in_range lower upper) L))). f_equal. apply (distinct_unique c lower upper); [apply distinct_sort; auto|exact Ex]. }
  assert (Gap' : forall x y, In x L -> In y L -> lower < x -> x < y -> y <= upper -> (upper - lower) / 2 ^ d <= y - x).
  { intros x y Ix Iy H1 H2 H3. apply Gap; auto; apply (proj2 Ex); rewrite value_at_peval, <- HL; split; auto; lra. }
  pose proof (initial_inv c chain L lower upper tolerance H Len C) as I0.
  destruct (add_piece c chain L lower upper Len C [] lower upper Hl Hu H (Forall_nil _) ltac:(cbn; lia)) as (_ & _ & Sh). cbv zeta in Sh.
  destruct Sh as [[E1 _]|[E1 _]]; rewrite E1 in *.
  - apply (loop_enough c chain L lower upper tolerance Nd Len C d W Gap' budget _ [] [] budget); auto; cbn; lia.
  - apply (loop_enough c chain L lower upper tolerance Nd Len C d W Gap' budget _ [((lower, upper), 0%nat)] [] budget); auto.
    + constructor; [|constructor]. unfold depth_ok. cbn. repeat split; try lra. lia.
    + cbn [cost fst snd]. rewrite Le. lia.
    + cbn [length]. lia.
Qed.
(** x^2 (x-1) between -2 and 2: the first halving lands on the repeated zero 0, and no budget is ever enough *)
Theorem C52_repeated_zero_refuted : forall (tolerance : R) (budget : nat), 0 < tolerance ->
  real_roots_in [0; 0; -1; 1] (-2) 2 tolerance budget = Some (Err (PoDidNotConverge budget)) /\
  distinct_roots_in [0; 0; -1; 1] (-2) 2 [0; 1].
Proof.
  intros tol budget T. pose proof cube_minus_square_degree as D. set (c := [0; 0; -1; 1]) in *.
  assert (Zs : forall x, In x [0; 1] <-> peval c x = 0).
  { intros x. cbn. split; [intros [<-|[<-|[]]]; ring|]. intros Z. assert (F : x * (x * (x - 1)) = 0) by lra.
    apply Rmult_integral in F. destruct F as [F|F]; [left; lra|]. apply Rmult_integral in F. destruct F; [left; lra|right; left; lra]. }
  split.
  2: { split; [repeat constructor; lra|]. intros x. rewrite Zs, value_at_peval. split; [|tauto]. intros Z. split; [|exact Z]. apply Zs in Z. destruct Z as [<-|[<-|[]]]; lra. }
  destruct (chain_count c 2 D) as (chain & E & C).
  assert (Nd : NoDup [0; 1]) by (constructor; [intros [|[]]; lra|constructor; [easy|constructor]]).
  assert (Reg : forall x, x < 0 \/ x = 2 -> regular c x).
  { intros x Hx [Z _]. apply Zs in Z. destruct Z as [<-|[<-|[]]]; lra. }
  assert (Z0 : sign_changes chain 0 = 0%nat) by (apply (repeated_no_changes c 2 chain 0 D E); [cbn; ring|rewrite derivative_R; cbn; ring]).
  assert (U : forall x, x < 0 -> upto [0; 1] x = 0%nat).
  { intros x Hx. rewrite !upto_cons. rewrite (proj2 (Rleb_false 0 x)), (proj2 (Rleb_false 1 x)) by lra. reflexivity. }
  assert (U2 : upto [0; 1] 2 = 2%nat).
  { rewrite !upto_cons. rewrite (proj2 (Rleb_true 0 2)), (proj2 (Rleb_true 1 2)) by lra. reflexivity. }
  assert (C2 : forall a, a < 0 -> count_between chain a 2 = 2%nat) by (intros a Ha; rewrite (C _ Nd Zs a 2) by (apply Reg; auto); rewrite (U a Ha), U2; reflexivity).
  assert (Ca : forall a, a < 0 -> (2 <= count_between chain a 0%R)%nat).
  { intros a Ha. specialize (C2 a Ha). unfold count_between in *. rewrite Z0. lia. }
  assert (Cn : forall a b, a < 0 -> b < 0 -> count_between chain a b = 0%nat) by (intros a b Ha Hb; rewrite (C _ Nd Zs a b) by (apply Reg; auto); rewrite (U a Ha), (U b Hb); reflexivity).
  assert (C02 : count_between chain 0 2 = 0%nat) by (unfold count_between; rewrite Z0; reflexivity).
  unfold real_roots_in. rnum. cbn [negb orb]. rewrite (proj2 (Rleb_false tol 0)), (proj2 (Rltb_false 2 (-2))) by lra. rewrite E.
  rewrite (C2 (-2)) by lra. cbn [Nat.ltb Nat.leb]. unfold add_range. cbn [length Nat.ltb Nat.leb app c].
  assert (Loop : forall n fuel a, a < 0 -> (2 * n + 2 <= fuel)%nat -> roots_loop fuel 4 chain tol budget [(a, 0)] [] n = Some (Err (PoDidNotConverge budget))).
  { induction n as [|n IH]; intros fuel a Ha Hf; (destruct fuel as [|fuel]; [lia|]); cbn [roots_loop rev app].
    - pose proof (Ca a Ha). rewrite (proj2 (Nat.eqb_neq _ _)) by lia. reflexivity.
    - pose proof (Ca a Ha). rewrite (proj2 (Nat.eqb_neq _ _)) by lia. rnum. rewrite (Cn a ((a + 0) * / 2)) by lra. rewrite Nat.ltb_irrefl.
      pose proof (Ca ((a + 0) * / 2) ltac:(lra)) as C4. rewrite (proj2 (Nat.ltb_lt _ _)) by lia. unfold add_range. cbn [length Nat.ltb Nat.leb app]. apply IH; [lra|lia]. }
  destruct budget as [|n].
  - cbn [Nat.mul Nat.add roots_loop rev app]. rewrite (C2 (-2)) by lra. reflexivity.
  - replace (2 * S n + 3)%nat with (S (2 * n + 4)) by lia. cbn [roots_loop rev app]. rewrite (C2 (-2)) by lra. cbn [Nat.eqb]. rnum.
    replace ((-2 + 2) * / 2) with 0 by field. pose proof (Ca (-2) ltac:(lra)) as C4. rewrite (proj2 (Nat.ltb_lt 0 (count_between chain (-2) 0))) by lia.
    rewrite C02. unfold add_range. cbn [length Nat.ltb Nat.leb app]. apply Loop; [lra|lia].
Qed.
(** x^2 - 2 between 0 and 4, within 1/16: six halvings find the square root of two *)
Example C52_example : exists found, real_roots_in [-2; 0; 1] 0 4 (1/16) 6 = Some (Ok [found]) /\ Rabs (found - R_sqrt.sqrt 2) <= 1 / 32.
Proof.
  assert (S2 : R_sqrt.sqrt 2 * R_sqrt.sqrt 2 = 2) by (apply sqrt_sqrt; lra). pose proof (R_sqrt.sqrt_pos 2) as Sp.
  assert (Ex : distinct_roots_in [-2; 0; 1] 0 4 [R_sqrt.sqrt 2]).
  { split; [repeat constructor|]. intros x. cbn. split.
    - intros [<-|[]]. split; [nra|lra].
    - intros [Hx Z]. left. apply Rsqr_inj; unfold Rsqr; lra. }
  assert (D : has_degree [-2; 0; 1] 2) by (split; [cbn; lra|]; intros [|[|[|k]]] H; try lia; destruct k; reflexivity).
  assert (Nr : forall x, halving_point 0 4 x -> ~ repeated_zero [-2; 0; 1] x).
  { intros x _ [Z Dz]. replace (Derive (value_at [-2; 0; 1]) x) with (2 * x) in Dz.
    - cbn in Z. assert (x = 0) by lra. subst x. lra.
    - symmetry. apply is_derive_unique. apply (is_derive_ext (peval [-2; 0; 1])); [intros; symmetry; apply value_at_peval|].
      evar_last; [apply derivative_is_derive|]. rewrite derivative_R. cbn. ring. }
  destruct (C52_enough_budget_partial [-2; 0; 1] 1 6 0 4 (1/16) 6 [R_sqrt.sqrt 2] D ltac:(lra) ltac:(lra) Nr Ex) as (roots & E).
  - cbn. lra.
  - intros x y [<-|[]] [<-|[]] H. lra.
  - cbn. lia.
  - destruct (C52_finds_the_roots_partial _ 1 0 4 (1/16) 6%nat roots D ltac:(lra) ltac:(lra) Nr E) as (ex & Ex' & F).
    rewrite (distinct_unique _ _ _ _ _ Ex' Ex) in F. inversion F as [|found ? l ? Hc F']; subst. inversion F'; subst.
    exists found. split; [exact E|]. lra.
Qed.
Print Assumptions C52_budget.
Print Assumptions C52_sorted.
Print Assumptions C52_refusals.
Print Assumptions C52_finds_the_roots_partial.
Print Assumptions C52_enough_budget_partial.
Print Assumptions C52_repeated_zero_refuted.

(** ** C53 *)
Theorem C53_cauchy_bound : forall (c : list R) (bound x : R),
  cauchy_root_bound c = Ok bound -> value_at c x = 0 -> Rabs x < bound.
Proof. intros c bound x E Z. rewrite value_at_peval in Z. apply (cauchy_spec c bound x E Z). Qed.
(** it fails exactly on the zero polynomial *)
Theorem C53_defined : forall c : list R,
  (exists bound, cauchy_root_bound c = Ok bound) <-> exists x, value_at c x <> 0.
Proof.
  intros c. destruct (cauchy_total c) as [[Z E]|(b & E)].
  - split; [intros (b & H); congruence|]. intros (x & H). exfalso. apply H. rewrite value_at_peval, (peval_ext c []); [reflexivity|]. intros k. rewrite Z. destruct k; reflexivity.
  - split; [|eauto]. intros _. unfold cauchy_root_bound in E. destruct (negb _); [discriminate|]. pose proof (degree_spec c) as D. destruct (poly_degree c) as [n|]; [|discriminate].
    destruct (deg_nonzero c n D) as (x & H). exists x. rewrite value_at_peval. exact H.
Qed.
Example C53_example : exists bound, cauchy_root_bound [-6; 11; -6; 1] = Ok bound /\ 3 < bound.
Proof.
  destruct (proj2 (C53_defined [-6; 11; -6; 1])) as (b & E); [exists 0; cbn; lra|]. exists b. split; [exact E|].
  pose proof (C53_cauchy_bound _ _ 3 E) as H. rewrite Rabs_pos_eq in H by lra. apply H. cbn. ring.
Qed.
Print Assumptions C53_cauchy_bound.
Print Assumptions C53_defined.
