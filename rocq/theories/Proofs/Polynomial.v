(** The polynomial functions over R. *)
From Coq Require Import ZArith List Bool Arith Reals Lra Lia.
From Coquelicot Require Import Coquelicot.
From Verif Require Import Base.Scalar Base.Lists Base.RNum Base.Series Base.PolyR Model.Errors Model.Polynomial Spec.Polynomial.
Import ListNotations.
Local Open Scope R_scope.

Lemma value_at_peval c x : value_at c x = peval c x.
Proof. symmetry. apply peval_bsum. Qed.
Lemma of_nat_INR n : @of_nat R Rnum n = INR n.
Proof. unfold of_nat. rnum. symmetry. apply INR_IZR_INZ. Qed.
Lemma fold_left_rev {A B} (f : A -> B -> A) l i : fold_left f (rev l) i = fold_right (fun y x => f x y) i l.
Proof. induction l; [reflexivity|]. cbn. rewrite fold_left_app. cbn. rewrite IHl. reflexivity. Qed.

Lemma evaluate_R p x : poly_evaluate p x = peval p x.
Proof.
  unfold poly_evaluate. rewrite fold_left_rev. induction p as [|a p IH]; [reflexivity|]. cbn [fold_right peval]. rewrite IH. rnum. ring.
Qed.

(** ** All derivatives in one sweep *)
Lemma sweep_orders x : forall m (r : list R), (m < length r)%nat ->
  let r' := fold_left (fun result order => set_nth result order (mul_add (nth order result zero) x (nth (order - 1) result zero)))
              (rev (seq 1 m)) r in
  length r' = length r /\ forall k, cf r' k = if (Nat.leb 1 k && Nat.leb k m)%bool then cf r k * x + cf r (k - 1) else cf r k.
Proof.
  induction m as [|m IH]; intros r H; cbv zeta.
  - split; [reflexivity|]. intros k. destruct k as [|k]; reflexivity.
  - rewrite seq_S, rev_app_distr. cbn [rev app fold_left].
    rnum. set (r1 := set_nth r (1 + m) _). destruct (IH r1) as [L K]; [unfold r1; rewrite set_nth_length; lia|].
    rnum. split; [rewrite L; apply set_nth_length|]. intros k. rewrite K. unfold r1.
    destruct (Nat.leb_spec 1 k); cbn [andb]; [|apply nth_set_nth_neq; lia].
    destruct (Nat.leb_spec k m); destruct (Nat.leb_spec k (S m)); try lia.
    + rewrite !nth_set_nth_neq by lia. reflexivity.
    + replace k with (1 + m)%nat by lia. rewrite nth_set_nth_eq by lia. reflexivity.
    + apply nth_set_nth_neq. lia.
Qed.
Lemma derivative_sweep_R K x r c : length r = K -> length (derivative_sweep K x r c) = K /\
  forall k, (k < K)%nat -> cf (derivative_sweep K x r c) k = match k with O => cf r 0 * x + c | S j => cf r k * x + cf r j end.
Proof.
  intros L. unfold derivative_sweep. destruct K as [|K].
  { destruct r; [|discriminate]. cbn. split; [reflexivity|]. intros; lia. }
  destruct (sweep_orders x (S K - 1) r ltac:(lia)) as [L' H]. rnum. split; [rewrite set_nth_length; congruence|].
  intros k Hk. destruct k as [|k].
  - rewrite nth_set_nth_eq by lia. rewrite H. cbn [Nat.leb andb]. reflexivity.
  - rewrite nth_set_nth_neq by lia. rewrite H. replace (Nat.leb (S k) (S K - 1)) with true by (symmetry; apply Nat.leb_le; lia).
    cbn [Nat.leb andb]. replace (S k - 1)%nat with k by lia. reflexivity.
Qed.
Lemma sweep_all K x p : let r := fold_left (derivative_sweep K x) (rev p) (repeat 0 K) in
  length r = K /\ forall k, (k < K)%nat -> cf r k = tay k p x.
Proof.
  cbv zeta. rewrite fold_left_rev. induction p as [|a p [L H]].
  - cbn. split; [apply repeat_length|]. intros. apply nth_repeat0.
  - cbn [fold_right]. destruct (derivative_sweep_R K x _ a L) as [L' H']. split; [exact L'|].
    intros k Hk. rewrite H' by auto. destruct k as [|k]; cbn [tay]; rewrite !H by lia; ring.
Qed.
Lemma factorial_scale_R : forall (r : list R) s, length (factorial_scale s (INR (fact (s - 1))) r) = length r /\
  forall k, (k < length r)%nat -> cf (factorial_scale s (INR (fact (s - 1))) r) k = cf r k * INR (fact (s + k)).
Proof.
  induction r as [|a r IH]; intros s; [split; [reflexivity|cbn; intros; lia]|].
  cbn [factorial_scale]. rewrite of_nat_INR. rnum.
  replace (if Nat.ltb 0 s then INR (fact (s - 1)) * INR s else INR (fact (s - 1))) with (INR (fact s)).
  2: { destruct s as [|s]; [reflexivity|]. cbn [Nat.ltb Nat.leb]. rewrite fact_simpl, mult_INR. replace (S s - 1)%nat with s by lia. ring. }
  destruct (IH (S s)) as [L H]. replace (S s - 1)%nat with s in * by lia. split; [cbn; lia|].
  intros [|k] Hk; cbn [nth]; [rewrite Nat.add_0_r; reflexivity|]. cbn in Hk. rewrite H by lia. do 3 f_equal. lia.
Qed.
Lemma evaluate_with_derivatives_R K p x : length (poly_evaluate_with_derivatives K p x) = K /\
  forall k, (k < K)%nat -> cf (poly_evaluate_with_derivatives K p x) k = INR (fact k) * tay k p x.
Proof.
  unfold poly_evaluate_with_derivatives. destruct (sweep_all K x p) as [L H]. rnum.
  destruct (factorial_scale_R (fold_left (derivative_sweep K x) (rev p) (repeat 0 K)) 0) as [L' H'].
  change (INR (fact (0 - 1))) with 1 in *. split; [congruence|]. intros k Hk. rewrite H' by (rewrite L; exact Hk). rewrite H by auto. cbn [Nat.add]. ring.
Qed.

(** ** Derivative and integral *)
Lemma derivative_length p : length (@poly_derivative R Rnum p) = length p.
Proof. apply from_fn_length. Qed.
Lemma cf_derivative p k : cf (poly_derivative p) k = INR (k + 1) * cf p (k + 1).
Proof.
  unfold poly_derivative, poly_coefficient. rewrite cf_from_fn. destruct (Nat.ltb_spec k (length p)) as [H|H].
  - destruct (nth_error p (k + 1)) as [a|] eqn:E.
    + rewrite of_nat_INR. rnum. rewrite (nth_error_nth _ _ 0 E). ring.
    + apply nth_error_None in E. rewrite nth_overflow by lia. rnum. ring.
  - rewrite nth_overflow by lia. ring.
Qed.
Lemma derivative_R p x : peval (poly_derivative p) x = tay 1 p x.
Proof.
  induction p as [|a c IH]; [reflexivity|]. cbn [tay]. rewrite tay_0, <- IH.
  rewrite (peval_ext _ (padd c (0 :: poly_derivative c))); [rewrite peval_padd; cbn; ring|].
  intros k. rewrite cf_derivative, cf_padd. destruct k as [|k]; [cbn; ring|].
  cbn [nth Nat.add]. rewrite cf_derivative. replace (k + 1)%nat with (S k) by lia. rewrite !S_INR. ring.
Qed.
Lemma derivative_is_derive p x : is_derive (peval p) x (peval (poly_derivative p) x).
Proof. rewrite derivative_R. apply is_derive_peval. Qed.
Lemma nth_derivative_R p k x : peval (poly_nth_derivative k p) x = INR (fact k) * tay k p x.
Proof.
  unfold poly_nth_derivative. destruct (Nat.leb_spec (length p) k) as [H|H].
  - rewrite tay_over by lia. unfold poly_zeros. rnum. rewrite peval_repeat0. ring.
  - clear H. revert x. induction k as [|k IH]; intros x; [cbn; rewrite tay_0; ring|]. cbn [Nat.iter nat_rect].
    change (nat_rect (fun _ : nat => list R) p (fun _ : nat => poly_derivative) k) with (Nat.iter k poly_derivative p).
    pose proof (derivative_is_derive (Nat.iter k poly_derivative p) x) as D.
    apply is_derive_unique in D. rewrite <- D. apply is_derive_unique.
    apply (is_derive_ext (fun x => INR (fact k) * tay k p x)); [intros; symmetry; apply IH|].
    replace (INR (fact (S k)) * tay (S k) p x) with (INR (fact k) * (INR (S k) * tay (S k) p x)) by (rewrite fact_simpl, mult_INR; ring).
    apply (is_derive_scal (tay k p)). apply is_derive_tay.
Qed.
Lemma nth_derivative_length k p : length (@poly_nth_derivative R Rnum k p) = length p.
Proof.
  unfold poly_nth_derivative. destruct (Nat.leb (length p) k); [apply repeat_length|].
  induction k; [reflexivity|]. cbn. rewrite derivative_length. exact IHk.
Qed.

Definition anti (s : nat) (p : list R) (x : R) : R := bsum (length p) (fun k => cf p k * x ^ (s + k + 1) / INR (s + k + 1)).
Lemma integral_loop_R p : forall s l u total,
  integral_loop p s l u (l ^ (s + 1)) (u ^ (s + 1)) total = total + anti s p u - anti s p l.
Proof.
  induction p as [|a p IH]; intros s l u total.
  - cbn. unfold anti. cbn. ring.
  - cbn [integral_loop]. rewrite of_nat_INR. rnum.
    replace (l ^ (s + 1) * l) with (l ^ (S s + 1)) by (replace (S s + 1)%nat with (S (s + 1)) by lia; cbn; ring).
    replace (u ^ (s + 1) * u) with (u ^ (S s + 1)) by (replace (S s + 1)%nat with (S (s + 1)) by lia; cbn; ring).
    rewrite IH. unfold anti. cbn [length]. rewrite !bsum_first. cbn [nth]. rewrite !Nat.add_0_r.
    rewrite (bsum_ext (length p) (fun i => cf p i * u ^ (s + S i + 1) / _) (fun k => cf p k * u ^ (S s + k + 1) / INR (S s + k + 1))) by (intros i _; replace (s + S i + 1)%nat with (S s + i + 1)%nat by lia; reflexivity).
    rewrite (bsum_ext (length p) (fun i => cf p i * l ^ (s + S i + 1) / _) (fun k => cf p k * l ^ (S s + k + 1) / INR (S s + k + 1))) by (intros i _; replace (s + S i + 1)%nat with (S s + i + 1)%nat by lia; reflexivity).
    assert (INR (s + 1) <> 0) by (apply not_0_INR; lia). field. auto.
Qed.
Lemma definite_integral_R p l u : poly_definite_integral p l u = anti 0 p u - anti 0 p l.
Proof.
  unfold poly_definite_integral. pose proof (integral_loop_R p 0 l u 0) as H. cbn [Nat.add] in H. rewrite !pow_1 in H. rnum. rewrite H. ring.
Qed.
Lemma is_derive_bsum n (f g : nat -> R -> R) x : (forall k, (k < n)%nat -> is_derive (f k) x (g k x)) ->
  is_derive (fun x => bsum n (fun k => f k x)) x (bsum n (fun k => g k x)).
Proof.
  induction n as [|n IH]; intros H; cbn.
  - apply (is_derive_ext (fun _ => 0)); [reflexivity|]. auto_derive; auto.
  - apply (is_derive_plus (fun x => bsum n (fun k => f k x)) (f n)); [apply IH; auto|apply H; lia].
Qed.
Lemma anti_derive p x : is_derive (anti 0 p) x (peval p x).
Proof.
  rewrite peval_bsum. unfold anti.
  apply (is_derive_bsum (length p) (fun k x => cf p k * x ^ (0 + k + 1) / INR (0 + k + 1)) (fun k x => cf p k * x ^ k)).
  intros k _. cbn [Nat.add]. assert (INR (k + 1) <> 0) by (apply not_0_INR; lia).
  auto_derive; [auto|]. replace (pred (k + 1)) with k by lia. field. auto.
Qed.
Lemma definite_integral_is_RInt p l u : is_RInt (peval p) l u (poly_definite_integral p l u).
Proof.
  rewrite definite_integral_R. apply (is_RInt_derive (anti 0 p)).
  - intros x _. apply anti_derive.
  - intros x _. apply continuity_pt_filterlim. apply continuity_peval.
Qed.

(** ** Algebra *)
Lemma add_R p q x : length p = length q -> peval (poly_add p q) x = peval p x + peval q x.
Proof.
  revert q. induction p as [|a p IH]; intros [|b q] L; try discriminate; [cbn; ring|]. cbn in L. cbn [poly_add combine map peval].
  unfold poly_add in IH. rewrite IH by lia. rnum. ring.
Qed.
Lemma sub_R p q x : length p = length q -> peval (poly_sub p q) x = peval p x - peval q x.
Proof.
  revert q. induction p as [|a p IH]; intros [|b q] L; try discriminate; [cbn; ring|]. cbn in L. cbn [poly_sub combine map peval].
  unfold poly_sub in IH. rewrite IH by lia. rnum. ring.
Qed.
Lemma neg_R p x : peval (poly_neg p) x = - peval p x.
Proof. apply peval_opp. Qed.
Lemma scale_R p f x : peval (poly_scale p f) x = f * peval p x.
Proof. unfold poly_scale. rnum. rewrite peval_map_scale. ring. Qed.
Lemma div_R p f x : peval (poly_div p f) x = peval p x / f.
Proof. unfold poly_div. rnum. unfold Rdiv. rewrite <- peval_map_scale. reflexivity. Qed.
Lemma scale_argument_loop_R p : forall s f x, peval (scale_argument_loop s f p) x = s * peval p (f * x).
Proof. induction p as [|a p IH]; intros s f x; [cbn; ring|]. cbn [scale_argument_loop peval]. rewrite IH. rnum. ring. Qed.
Lemma scale_argument_R p f x : peval (poly_scale_argument p f) x = peval p (f * x).
Proof. unfold poly_scale_argument. rewrite scale_argument_loop_R. rnum. ring. Qed.
Lemma scale_argument_loop_length p : forall s f, length (@scale_argument_loop R Rnum s f p) = length p.
Proof. induction p; intros; cbn; auto. Qed.

(** synthetic division, in place *)
Lemma synthetic_divide_R o w : synthetic_divide o w = sdiv o w.
Proof.
  unfold synthetic_divide. rnum. unfold poly_zeros. rnum.
  (* after the powers from s upwards have been visited *)
  assert (G : forall s, (s <= length w)%nat ->
    fold_left (fun '(quotient, carry) power =>
      let carry := mul_add carry o (nth power w 0) in
      ((match power with O => quotient | S lower => set_nth quotient lower carry end), carry))
      (rev (seq s (length w - s))) (repeat 0 (length w), 0) =
    (let '(q, r) := sdiv o (skipn s w) in
     match s with O => q | S t => repeat 0 t ++ r :: q end, snd (sdiv o (skipn s w)))).
  { intros s Hs. remember (length w - s)%nat as n eqn:En. revert s Hs En. induction n as [|n IH]; intros s Hs En.
    - assert (E : s = length w) by lia. subst s. rewrite skipn_all. cbn. destruct (length w) as [|t] eqn:L; [reflexivity|].
      replace (S t) with (t + 1)%nat by lia. rewrite repeat_app. reflexivity.
    - cbn [seq rev]. rewrite fold_left_app. rewrite IH by lia. cbn [fold_left].
      assert (E : skipn s w = nth s w 0 :: skipn (S s) w).
      { clear - Hs En. assert (Hl : (s < length w)%nat) by lia. clear Hs En. revert s Hl. induction w as [|a w IH]; intros [|s] Hl; cbn in *; try lia; [reflexivity|]. apply IH. lia. }
      rewrite E. cbn [sdiv]. destruct (sdiv o (skipn (S s) w)) as [q r]. cbn [snd]. rnum.
      replace (r * o + nth s w 0) with (nth s w 0 + o * r) by ring. f_equal.
      destruct s as [|t]; [reflexivity|].
      replace (S t) with (t + 1)%nat by lia. rewrite repeat_app. cbn [repeat app]. rewrite <- app_assoc. cbn [app].
      generalize (nth (t + 1) w 0 + o * r) as v. clear. intros v. induction t; cbn; [reflexivity|]. f_equal. exact IHt. }
  specialize (G 0%nat ltac:(lia)). rewrite Nat.sub_0_r in G. cbn [skipn] in G. etransitivity; [exact G|]. destruct (sdiv o w); reflexivity.
Qed.
Lemma shift_argument_R p o : poly_shift_argument p o = from_fn (length p) (fun k => tay k p o).
Proof.
  unfold poly_shift_argument. unfold poly_zeros. rnum.
  assert (G : forall n s sh w, length w = length p -> length sh = length p -> (s + n <= length p)%nat -> (forall k, tay k w o = tay (s + k) p o) ->
    let r := fst (fold_left (fun '(shifted, working) slot =>
           let '(quotient, carry) := synthetic_divide o working in (set_nth shifted slot carry, quotient)) (seq s n) (sh, w)) in
    length r = length p /\ forall k, cf r k = if (Nat.leb s k && Nat.ltb k (s + n))%bool then tay k p o else cf sh k).
  { induction n as [|n IH]; intros s sh w Lw Ls Hn Hw; cbn [seq fold_left fst].
    - split; [exact Ls|]. intros k. destruct (Nat.leb_spec s k), (Nat.ltb_spec k (s + 0)); try lia; reflexivity.
    - rewrite synthetic_divide_R. pose proof (sdiv_rem o w) as Rm. pose proof (sdiv_length o w) as Lq. pose proof (sdiv_tay o w) as Tq. destruct (sdiv o w) as [q r]. cbn [fst snd] in *.
      destruct (IH (S s) (set_nth sh s r) q) as [L H]; [congruence|rewrite set_nth_length; exact Ls|lia|intros k; rewrite Tq, Hw; f_equal; lia|].
      split; [exact L|]. intros k. rewrite H. destruct (Nat.eq_dec k s) as [->|Ne].
      + replace (Nat.leb (S s) s) with false by (symmetry; apply Nat.leb_gt; lia). replace (Nat.leb s s) with true by (symmetry; apply Nat.leb_le; lia).
        replace (Nat.ltb s (s + S n)) with true by (symmetry; apply Nat.ltb_lt; lia). cbn [andb]. rewrite nth_set_nth_eq by lia.
        rewrite Rm, <- tay_0, Hw. f_equal; lia.
      + rewrite nth_set_nth_neq by lia. replace (S s + n)%nat with (s + S n)%nat by lia.
        destruct (Nat.leb_spec (S s) k), (Nat.leb_spec s k); try lia; reflexivity. }
  destruct (G (length p) 0%nat (repeat 0 (length p)) p) as [L H]; auto; [apply repeat_length|].
  set (r := fst _) in *. apply (nth_ext _ _ 0 0); [rewrite from_fn_length; exact L|]. intros k Hk. rewrite H, nth_from_fn by lia.
  replace (Nat.ltb k (0 + length p)) with true by (symmetry; apply Nat.ltb_lt; lia). reflexivity.
Qed.
Lemma shift_argument_eval p o x : peval (poly_shift_argument p o) x = peval p (x + o).
Proof.
  rewrite (Rplus_comm x o), peval_shift, shift_argument_R, peval_bsum, from_fn_length. apply bsum_ext. intros k Hk. rewrite nth_from_fn by auto. reflexivity.
Qed.

(** ** Terms added into a fixed-size product *)
Fixpoint term_sum (terms : list (nat * R)) (x : R) : R := match terms with [] => 0 | pt :: terms => snd pt * x ^ fst pt + term_sum terms x end.
Definition add_terms (terms : list (nat * R)) (r : Res (list R) PolynomialError) : Res (list R) PolynomialError :=
  fold_left (fun r pt => add_term r (fst pt) (snd pt)) terms r.
Lemma term_sum_app a b x : term_sum (a ++ b) x = term_sum a x + term_sum b x.
Proof. induction a as [|[i t] a IH]; cbn [term_sum app fst snd]; [ring|]. rewrite IH. ring. Qed.
Lemma add_terms_err terms e : add_terms terms (Err e) = Err e.
Proof. induction terms; cbn; auto. Qed.
Lemma add_terms_spec out terms : forall acc, length acc = out ->
  match add_terms terms (Ok acc) with
  | Ok r => length r = out /\ (forall x, peval r x = peval acc x + term_sum terms x) /\ (forall pt, In pt terms -> (fst pt < out)%nat \/ snd pt = 0)
  | Err e => e = PoDegreeOverflow /\ exists pt, In pt terms /\ (out <= fst pt)%nat /\ snd pt <> 0
  | Panic => False
  end.
Proof.
  induction terms as [|[i t] terms IH]; intros acc L.
  - cbn. repeat split; auto; [intros; ring|intros ? []].
  - change (add_terms ((i, t) :: terms) (Ok acc)) with (add_terms terms (add_term (Ok acc) i t)). unfold add_term.
    destruct (nth_error acc i) as [slot|] eqn:E.
    + assert (Hi : (i < length acc)%nat) by (apply nth_error_Some; congruence).
      specialize (IH (set_nth acc i (add slot t)) ltac:(rewrite set_nth_length; exact L)). destruct (add_terms _ _) as [r|e|].
      * destruct IH as (L' & V & F). repeat split; auto.
        -- intros x. rewrite V, peval_set_nth by lia. rewrite (nth_error_nth _ _ 0 E). cbn [term_sum fst snd]. rnum. ring.
        -- intros pt [<-|H]; [left; cbn; lia|auto].
      * destruct IH as (E' & pt & H & K). split; [exact E'|]. exists pt. split; [right; exact H|exact K].
      * exact IH.
    + apply nth_error_None in E. rnum. unfold Reqb. destruct (Req_EM_T t 0) as [->|Nt]; cbn [negb].
      * specialize (IH acc L). destruct (add_terms _ _) as [r|e|].
        -- destruct IH as (L' & V & F). repeat split; auto; [intros x; rewrite V; cbn; ring|].
           intros pt [<-|H]; [right; reflexivity|auto].
        -- destruct IH as (E' & pt & H & K). split; [exact E'|]. exists pt. split; [right; exact H|exact K].
        -- exact IH.
      * rewrite add_terms_err. split; [reflexivity|]. exists (i, t). split; [left; reflexivity|]. cbn. split; [lia|exact Nt].
Qed.

Definition product_terms (p q : list R) : list (nat * R) :=
  flat_map (fun l => map (fun r => ((fst l + fst r)%nat, snd l * snd r)) (combine (seq 0 (length q)) q)) (combine (seq 0 (length p)) p).
Lemma fold_left_flat_map {A B C} (f : C -> B -> C) (g : A -> list B) l : forall i,
  fold_left f (flat_map g l) i = fold_left (fun acc a => fold_left f (g a) acc) l i.
Proof. induction l; intros i; cbn; [reflexivity|]. rewrite fold_left_app. apply IHl. Qed.
Lemma fold_left_map {A B C} (f : C -> B -> C) (g : A -> B) l : forall i, fold_left f (map g l) i = fold_left (fun acc a => f acc (g a)) l i.
Proof. induction l; intros i; cbn; auto. Qed.
Lemma multiply_terms out p q : poly_multiply_into out p q = add_terms (product_terms p q) (Ok (repeat 0 out)).
Proof.
  unfold poly_multiply_into, add_terms, product_terms. rewrite fold_left_flat_map. unfold poly_zeros. rnum.
  generalize (@Ok (list R) PolynomialError (repeat 0 out)) as i. induction (combine (seq 0 (length p)) p) as [|l ls IH]; intros i; [reflexivity|].
  cbn [fold_left]. rewrite IH. f_equal. rewrite fold_left_map. reflexivity.
Qed.
Lemma term_sum_indexed s a x (q : list R) n : term_sum (map (fun r => ((n + fst r)%nat, a * snd r)) (combine (seq s (length q)) q)) x = a * x ^ (n + s) * peval q x.
Proof.
  revert s. induction q as [|b q IH]; intros s; [cbn; ring|]. cbn [length seq combine map term_sum fst snd peval]. rewrite IH.
  replace (n + S s)%nat with (S (n + s)) by lia. cbn [pow]. ring.
Qed.
Lemma product_terms_sum p q x : term_sum (product_terms p q) x = peval p x * peval q x.
Proof.
  unfold product_terms. assert (G : forall s, term_sum (flat_map (fun l => map (fun r => ((fst l + fst r)%nat, snd l * snd r)) (combine (seq 0 (length q)) q)) (combine (seq s (length p)) p)) x = x ^ s * peval p x * peval q x).
  { induction p as [|a p IH]; intros s; [cbn; ring|]. cbn [length seq combine flat_map fst snd]. rewrite term_sum_app, term_sum_indexed, IH.
    rewrite Nat.add_0_r. cbn [peval pow]. ring. }
  rewrite G. cbn. ring.
Qed.
Lemma in_combine_seq (q : list R) : forall s i b, In (i, b) (combine (seq s (length q)) q) <-> (s <= i < s + length q)%nat /\ b = cf q (i - s).
Proof.
  induction q as [|a q IH]; intros s i b; cbn [length seq combine In]; [split; [tauto|lia]|]. rewrite IH. split.
  - intros [E|[H ->]]; [injection E as <- <-; rewrite Nat.sub_diag; split; [lia|reflexivity]|].
    split; [lia|]. replace (i - s)%nat with (S (i - S s)) by lia. reflexivity.
  - intros [H ->]. destruct (Nat.eq_dec i s) as [->|Ne]; [left; rewrite Nat.sub_diag; reflexivity|right].
    split; [lia|]. replace (i - s)%nat with (S (i - S s)) by lia. reflexivity.
Qed.
Lemma in_product_terms p q k t : In (k, t) (product_terms p q) <->
  exists i j, (i < length p)%nat /\ (j < length q)%nat /\ k = (i + j)%nat /\ t = cf p i * cf q j.
Proof.
  unfold product_terms. rewrite in_flat_map. split.
  - intros ([i a] & Hi & H). apply in_map_iff in H. destruct H as ([j b] & E & Hj). cbn in E. injection E as <- <-.
    apply in_combine_seq in Hi. apply in_combine_seq in Hj. rewrite Nat.sub_0_r in *. destruct Hi as [? ->], Hj as [? ->]. exists i, j. repeat split; auto; lia.
  - intros (i & j & Hi & Hj & -> & ->). exists (i, cf p i). split; [apply in_combine_seq; rewrite Nat.sub_0_r; split; [lia|reflexivity]|].
    apply in_map_iff. exists (j, cf q j). split; [reflexivity|]. apply in_combine_seq; rewrite Nat.sub_0_r; split; [lia|reflexivity].
Qed.

Lemma multiply_spec out p q :
  match poly_multiply_into out p q with
  | Ok r => length r = out /\ forall x, peval r x = peval p x * peval q x
  | Err e => e = PoDegreeOverflow /\ exists n m, deg_eq p n /\ deg_eq q m /\ (out <= n + m)%nat
  | Panic => False
  end.
Proof.
  rewrite multiply_terms. pose proof (add_terms_spec out (product_terms p q) (repeat 0 out) (repeat_length _ _)) as H.
  destruct (add_terms _ _) as [r|e|]; auto.
  - destruct H as (L & V & _). split; [exact L|]. intros x. rewrite V, peval_repeat0, product_terms_sum. ring.
  - destruct H as (E & [k t] & Hin & Hk & Ht). split; [exact E|]. cbn in *. apply in_product_terms in Hin.
    destruct Hin as (i & j & Hi & Hj & -> & ->).
    assert (Pi : cf p i <> 0) by (intros Z; apply Ht; rewrite Z; ring). assert (Qj : cf q j <> 0) by (intros Z; apply Ht; rewrite Z; ring).
    destruct (deg_find p) as [Z|(n & Dn)]; [rewrite Z in Pi; lra|]. destruct (deg_find q) as [Z|(m & Dm)]; [rewrite Z in Qj; lra|].
    exists n, m. split; [exact Dn|]. split; [exact Dm|].
    assert ((i <= n)%nat). { destruct (le_lt_dec i n); auto. exfalso. apply Pi, Dn. lia. }
    assert ((j <= m)%nat). { destruct (le_lt_dec j m); auto. exfalso. apply Qj, Dm. lia. } lia.
Qed.
(** a product of non-zero polynomials of too high a degree is no short list *)
Lemma product_no_fit out p q n m r : deg_eq p n -> deg_eq q m -> (out <= n + m)%nat -> length r = out ->
  ~ (forall x, peval r x = peval p x * peval q x).
Proof.
  intros Dn Dm Ho L H. assert (E : forall k, cf r k = cf (pmul p q) k) by (apply peval_eq_coeffs; intros x; rewrite H, peval_pmul; reflexivity).
  pose proof (deg_eq_pmul p q n m Dn Dm) as D. apply (deg_eq_ext _ r) in D; [|intros; symmetry; apply E].
  pose proof (deg_eq_lt r (n + m) out D ltac:(rewrite <- L; apply deg_lt_length)). lia.
Qed.

(** ** Composition *)
Lemma compose_spec out inner : (0 < out)%nat -> forall p,
  match poly_compose_into out p inner with
  | Ok r => length r = out /\ forall x, peval r x = peval p (peval inner x)
  | Err e => e = PoDegreeOverflow /\ forall r, length r = out -> ~ (forall x, peval r x = peval p (peval inner x))
  | Panic => False
  end.
Proof.
  intros Ho p. unfold poly_compose_into. rewrite fold_left_rev. induction p as [|a p IH].
  - cbn. split; [apply repeat_length|]. intros x. apply peval_repeat0.
  - cbn [fold_right]. destruct (fold_right _ _ p) as [acc|e|]; cbn [compose_step]; [|destruct IH as [-> IH]|contradiction].
    + destruct IH as [La Va]. pose proof (multiply_spec out acc inner) as M. destruct (poly_multiply_into out acc inner) as [prod|e|]; cbn [add_term].
      * destruct M as [Lp Vp]. destruct prod as [|b prod]; [cbn in Lp; lia|]. cbn [nth_error]. rnum. split; [exact Lp|].
        intros x. cbn [set_nth peval]. specialize (Vp x). cbn [peval] in Vp. rewrite Va in Vp. lra.
      * destruct M as [-> (n & m & Dn & Dm & Hs)]. split; [reflexivity|]. intros r L H.
        destruct r as [|b r]; [cbn in L; lia|]. apply (product_no_fit out acc inner n m ((b - a) :: r)); auto.
        intros x. specialize (H x). cbn [peval] in *. rewrite Va. lra.
      * contradiction.
    + split; [reflexivity|]. intros r L H. destruct r as [|b r]; [cbn in L; lia|].
      (* (b - a) :: r is the product of p o inner with inner: one factor of it would fit as well *)
      assert (Hp : forall x, peval ((b - a) :: r) x = peval p (peval inner x) * peval inner x) by (intros x; specialize (H x); cbn [peval] in *; lra).
      (* p o inner is a polynomial *)
      assert (Ex : exists c, forall x, peval c x = peval p (peval inner x)).
      { clear. induction p as [|y p (c & Hc)]; [exists []; reflexivity|]. exists (padd [y] (pmul inner c)). intros x. rewrite peval_padd, peval_pmul, Hc. cbn. ring. }
      destruct Ex as (c & Hc). destruct (deg_find inner) as [Z|(m & Dm)].
      * (* inner = 0: the composition is constant *)
        apply (IH (peval p 0 :: repeat 0 (out - 1))); [cbn; rewrite repeat_length; lia|]. intros x. cbn [peval]. rewrite peval_repeat0.
        replace (peval inner x) with 0; [ring|]. rewrite (peval_ext inner []); [reflexivity|]. intros k. rewrite Z. destruct k; reflexivity.
      * destruct (deg_find c) as [Zc|(n & Dn)].
        -- apply (IH (repeat 0 out)); [apply repeat_length|]. intros x. rewrite peval_repeat0, <- Hc. symmetry. rewrite (peval_ext c []); [reflexivity|]. intros k. rewrite Zc. destruct k; reflexivity.
        -- destruct (le_lt_dec out (n + m)) as [Hl|Hl].
           ++ apply (product_no_fit out c inner n m ((b - a) :: r) Dn Dm Hl); [exact L|]. intros x. rewrite Hp, Hc. reflexivity.
           ++ assert (D : deg_lt c out) by (apply (deg_lt_weaken c (S n)); [lia|apply Dn]).
              apply (IH (resize out c)); [apply resize_length|]. intros x. rewrite <- Hc. apply peval_ext. apply cf_resize. exact D.
Qed.

Lemma cf_skipn (l : list R) : forall n i, cf (skipn n l) i = cf l (n + i).
Proof. induction l as [|a l IH]; intros [|n] i; cbn; auto. destruct i; reflexivity. Qed.
Lemma cf_firstn (l : list R) : forall n i, cf (firstn n l) i = if Nat.ltb i n then cf l i else 0.
Proof.
  induction l as [|a l IH]; intros n i; [rewrite firstn_nil; destruct i, (Nat.ltb _ n); reflexivity|].
  destruct n as [|n], i as [|i]; cbn [firstn nth]; auto. rewrite IH. reflexivity.
Qed.
Lemma try_resize_R other p : match poly_try_resize other p with
  | Some r => length r = other /\ forall x, peval r x = peval p x
  | None => exists k, (other <= k)%nat /\ cf p k <> 0
  end.
Proof.
  unfold poly_try_resize. rnum. destruct (existsb _ (skipn other p)) eqn:E.
  - apply existsb_exists in E. destruct E as (c & Hc & N). rcases. apply (In_nth _ _ 0) in Hc. destruct Hc as (i & Hi & <-).
    exists (other + i)%nat. split; [lia|]. rewrite cf_skipn in N. exact N.
  - assert (Z : forall k, cf (skipn other p) k = 0).
    { intros k. destruct (le_lt_dec (length (skipn other p)) k); [apply nth_overflow; auto|].
      destruct (Req_dec (cf (skipn other p) k) 0); auto. exfalso. assert (existsb (fun c => negb (Reqb c 0)) (skipn other p) = true); [|congruence].
      apply existsb_exists. exists (cf (skipn other p) k). split; [apply nth_In; auto|]. apply negb_true_iff, Reqb_false. auto. }
    split; [rewrite app_length, firstn_length, repeat_length; lia|]. intros x. rewrite peval_app, peval_repeat0.
    rewrite <- (firstn_skipn other p) at 3. rewrite peval_app. rewrite (peval_ext (skipn other p) []) by (intros k; rewrite Z; destruct k; reflexivity). cbn. ring.
Qed.

(** ** Long division *)
Lemma degree_spec p : match @poly_degree R Rnum p with Some n => deg_eq p n | None => forall k, cf p k = 0 end.
Proof.
  induction p as [|c p IH]; [intros [|k]; reflexivity|]. cbn [poly_degree]. destruct (poly_degree p) as [n|].
  - destruct IH as [N D]. split; [exact N|]. intros [|k] Hk; [lia|]. cbn. apply D. lia.
  - rnum. unfold Reqb. destruct (Req_EM_T c 0) as [->|Nc]; cbn [negb].
    + intros [|k]; cbn; auto.
    + split; [exact Nc|]. intros [|k] Hk; [lia|]. cbn. apply IH.
Qed.
Lemma subtract_shifted_spec share qp d : forall s w, let w' := fold_left (fun working d =>
      let at_ := (qp + fst d)%nat in
      match nth_error working at_ with Some slot => set_nth working at_ (sub slot (mul share (snd d))) | None => working end)
      (combine (seq s (length d)) d) w in
  length w' = length w /\ forall k, (k < length w)%nat -> cf w' k = cf w k - share * (if Nat.leb (qp + s) k then cf d (k - (qp + s)) else 0).
Proof.
  induction d as [|b d IH]; intros s w; cbv zeta.
  - cbn. split; [reflexivity|]. intros k _. destruct (Nat.leb (qp + s) k); [destruct (k - (qp + s))%nat; ring|ring].
  - cbn [length seq combine fold_left fst snd]. destruct (nth_error w (qp + s)) as [slot|] eqn:E.
    + assert (Hi : (qp + s < length w)%nat) by (apply nth_error_Some; congruence).
      destruct (IH (S s) (set_nth w (qp + s) (sub slot (mul share b)))) as [L H]. rewrite set_nth_length in *. split; [exact L|].
      intros k Hk. rewrite H by auto. apply (nth_error_nth _ _ 0) in E. rnum. destruct (Nat.eq_dec k (qp + s)) as [->|Ne].
      * rewrite nth_set_nth_eq, E by lia. replace (Nat.leb (qp + S s) (qp + s)) with false by (symmetry; apply Nat.leb_gt; lia).
        replace (Nat.leb (qp + s) (qp + s)) with true by (symmetry; apply Nat.leb_le; lia). rewrite Nat.sub_diag. cbn. ring.
      * rewrite nth_set_nth_neq by lia. destruct (Nat.leb_spec (qp + S s) k), (Nat.leb_spec (qp + s) k); try lia; [|reflexivity].
        replace (k - (qp + s))%nat with (S (k - (qp + S s))) by lia. reflexivity.
    + apply nth_error_None in E. destruct (IH (S s) w) as [L H]. split; [exact L|]. intros k Hk. rewrite H by auto.
      destruct (Nat.leb_spec (qp + S s) k), (Nat.leb_spec (qp + s) k); try lia; reflexivity.
Qed.
Lemma cf_shift n d k : cf (repeat 0 n ++ d) k = if Nat.leb n k then cf d (k - n) else 0.
Proof.
  destruct (Nat.leb_spec n k).
  - rewrite app_nth2; rewrite repeat_length; auto.
  - rewrite app_nth1 by (rewrite repeat_length; auto). apply nth_repeat0.
Qed.

(** the one quotient and remainder *)
Lemma division_unique d dd q1 r1 q2 r2 : deg_eq d dd -> deg_lt r1 dd -> deg_lt r2 dd ->
  (forall x, peval q1 x * peval d x + peval r1 x = peval q2 x * peval d x + peval r2 x) ->
  (forall k, cf q1 k = cf q2 k) /\ (forall k, cf r1 k = cf r2 k).
Proof.
  intros D D1 D2 H. set (dq := padd q1 (map Ropp q2)). set (dr := padd r2 (map Ropp r1)).
  assert (E : forall k, cf (pmul dq d) k = cf dr k).
  { apply peval_eq_coeffs. intros x. unfold dq, dr. rewrite peval_pmul, !peval_padd, !peval_opp. specialize (H x). lra. }
  assert (Dr : deg_lt dr dd) by (apply deg_lt_padd; [auto|apply deg_lt_opp; auto]).
  destruct (deg_find dq) as [Z|(n & Dn)].
  - assert (Q : forall k, cf q1 k = cf q2 k). { intros k. specialize (Z k). unfold dq in Z. rewrite cf_padd, cf_opp in Z. lra. }
    split; [exact Q|]. apply peval_eq_coeffs. intros x. specialize (H x). rewrite (peval_ext q1 q2 x Q) in H. lra.
  - exfalso. pose proof (deg_eq_pmul dq d n dd Dn D) as P. apply (deg_eq_ext _ dr _ E) in P. pose proof (deg_eq_lt _ _ _ P Dr). lia.
Qed.

Definition can_divide (qs rs : nat) (p d : list R) (dd : nat) : Prop :=
  exists q r, length q = qs /\ length r = rs /\ deg_lt r dd /\ forall x, peval p x = peval q x * peval d x + peval r x.

Lemma divide_loop_spec p d dd qs : deg_eq d dd -> forall n w q, length w = length p -> length q = qs -> (n <= length p)%nat -> deg_lt w n ->
  (forall x, peval p x = peval q x * peval d x + peval w x) ->
  match divide_loop d dd (cf d dd) n w q with
  | Ok (w', q') => length w' = length p /\ length q' = qs /\ deg_lt w' dd /\ forall x, peval p x = peval q' x * peval d x + peval w' x
  | Err e => e = PoDegreeOverflow /\ forall rs, ~ can_divide qs rs p d dd
  | Panic => False
  end.
Proof.
  intros D. induction n as [|n IH]; intros w q Lw Lq Hn Dw V; cbn [divide_loop].
  - repeat split; auto. apply (deg_lt_weaken w 0); [lia|exact Dw].
  - destruct (Nat.ltb_spec n dd) as [Hd|Hd]; [repeat split; auto; apply (deg_lt_weaken w (S n)); [lia|exact Dw]|].
    rnum. unfold Reqb. destruct (Req_EM_T (cf w n) 0) as [Z0|Nz].
    + apply IH; auto; [lia|]. intros k Hk. destruct (Nat.eq_dec k n) as [->|]; [assumption|apply Dw; lia].
    + destruct (nth_error q (n - dd)) as [slot|] eqn:E.
      * assert (Hq : (n - dd < length q)%nat) by (apply nth_error_Some; congruence). apply (nth_error_nth _ _ 0) in E.
        destruct D as [N0 D0]. set (w1 := subtract_shifted w d (n - dd) (cf w n / cf d dd)) in *.
        assert (L : length w1 = length w) by apply (subtract_shifted_spec (cf w n / cf d dd) (n - dd) d 0 w).
        assert (S := proj2 (subtract_shifted_spec (cf w n / cf d dd) (n - dd) d 0 w) : forall k, (k < length w)%nat -> cf w1 k = _).
        rewrite Nat.add_0_r in S.
        assert (Wn : cf w1 n = 0). { rewrite S by lia. replace (Nat.leb (n - dd) n) with true by (symmetry; apply Nat.leb_le; lia). replace (n - (n - dd))%nat with dd by lia. field. exact N0. }
        assert (SW : forall k, cf w1 k = cf w k - cf w n / cf d dd * (if Nat.leb (n - dd) k then cf d (k - (n - dd)) else 0)).
        { intros k. destruct (le_lt_dec (length w) k) as [Hk|Hk]; [|apply S; exact Hk]. 
          assert (Z1 : cf w1 k = 0) by (apply nth_overflow; lia). assert (Z2 : cf w k = 0) by (apply nth_overflow; lia). rewrite Z1, Z2.
          destruct (Nat.leb_spec (n - dd) k); [rewrite (D0 (k - (n - dd))%nat) by lia; ring|ring]. }
        assert (SE : forall k, cf (set_nth w1 n 0) k = cf w1 k).
        { intros k. destruct (Nat.eq_dec n k) as [<-|Ne]; [rewrite nth_set_nth_eq by lia; auto|apply nth_set_nth_neq; exact Ne]. }
        apply IH; auto.
        -- rewrite set_nth_length. lia.
        -- rewrite set_nth_length. exact Lq.
        -- lia.
        -- intros k Hk. rewrite SE. destruct (Nat.eq_dec k n) as [->|]; [exact Wn|]. rewrite SW, (Dw k) by lia.
           destruct (Nat.leb_spec (n - dd) k); [rewrite (D0 (k - (n - dd))%nat) by lia; ring|ring].
        -- intros x. rewrite peval_set_nth by lia. rewrite E. rewrite (peval_ext (set_nth w1 n 0) w1) by exact SE.
           replace (peval w1 x) with (peval w x - cf w n / cf d dd * (x ^ (n - dd) * peval d x)); [rewrite V; ring|].
           symmetry. rewrite (peval_ext w1 (padd w (map (fun a => a * (- (cf w n / cf d dd))) (repeat 0 (n - dd) ++ d)))).
           ++ rewrite peval_padd, peval_map_scale, peval_app, peval_repeat0, repeat_length. ring.
           ++ intros k. rewrite SW, cf_padd, cf_scale, cf_shift. ring.
      * apply nth_error_None in E. split; [reflexivity|]. intros rs (q' & r' & L1 & L2 & Dr & H).
        (* (q' - q) d = w - r', of degree n, but q' - q is too short *)
        set (dq := padd q' (map Ropp q)). set (dr := padd w (map Ropp r')).
        assert (Eq : forall k, cf (pmul dq d) k = cf dr k).
        { apply peval_eq_coeffs. intros x. unfold dq, dr. rewrite peval_pmul, !peval_padd, !peval_opp. specialize (H x). specialize (V x). lra. }
        assert (Dn : deg_eq dr n).
        { split; [unfold dr; rewrite cf_padd, cf_opp, (Dr n) by lia; lra|]. apply deg_lt_padd; [exact Dw|]. apply deg_lt_opp. apply (deg_lt_weaken r' dd); [lia|exact Dr]. }
        destruct (deg_find dq) as [Z|(m & Dm)].
        -- destruct Dn as [Nn _]. apply Nn. rewrite <- Eq. rewrite cf_pmul. rewrite (bsum_ext _ _ (fun _ => 0)); [apply bsum_0|]. intros i _. rewrite Z. ring.
        -- pose proof (deg_eq_pmul dq d m dd Dm D) as P. apply (deg_eq_ext _ dr _ Eq) in P. pose proof (deg_eq_unique _ _ _ P Dn).
           assert (deg_lt dq qs). { apply deg_lt_padd; [rewrite <- L1; apply deg_lt_length|apply deg_lt_opp; rewrite <- Lq; apply deg_lt_length]. }
           pose proof (deg_eq_lt _ _ _ Dm H1). lia.
Qed.
Lemma copy_remainder_spec rs rest : forall s rem, length rem = rs -> (forall k, (s <= k)%nat -> cf rem k = 0) ->
  match copy_remainder s rest (Ok rem) with
  | Ok r => length r = rs /\ forall k, cf r k = if Nat.leb s k then cf rest (k - s) else cf rem k
  | Err e => e = PoDegreeOverflow /\ exists k, (rs <= s + k)%nat /\ cf rest k <> 0
  | Panic => False
  end.
Proof.
  induction rest as [|c rest IH]; intros s rem L Z; cbn [copy_remainder].
  - split; [exact L|]. intros k. destruct (Nat.leb_spec s k); [rewrite Z by auto; destruct (k - s)%nat; reflexivity|reflexivity].
  - destruct (Nat.ltb_spec s (length rem)) as [H|H].
    + specialize (IH (S s) (set_nth rem s c) ltac:(rewrite set_nth_length; exact L)).
      destruct (copy_remainder (S s) rest (Ok (set_nth rem s c))) as [r|e|].
      * destruct IH as [L' H']; [intros k Hk; rewrite nth_set_nth_neq by lia; apply Z; lia|]. split; [exact L'|].
        intros k. rewrite H'. destruct (Nat.eq_dec k s) as [->|Ne].
        -- replace (Nat.leb (S s) s) with false by (symmetry; apply Nat.leb_gt; lia). replace (Nat.leb s s) with true by (symmetry; apply Nat.leb_le; lia).
           rewrite nth_set_nth_eq, Nat.sub_diag by lia. reflexivity.
        -- rewrite nth_set_nth_neq by lia. destruct (Nat.leb_spec (S s) k), (Nat.leb_spec s k); try lia; [|reflexivity].
           replace (k - s)%nat with (S (k - S s)) by lia. reflexivity.
      * destruct IH as (E & k & H1 & H2); [intros k Hk; rewrite nth_set_nth_neq by lia; apply Z; lia|]. split; [exact E|]. exists (S k). split; [lia|exact H2].
      * apply IH. intros k Hk; rewrite nth_set_nth_neq by lia; apply Z; lia.
    + rnum. unfold Reqb. destruct (Req_EM_T c 0) as [->|Nc]; cbn [negb].
      * specialize (IH (S s) rem L). destruct (copy_remainder (S s) rest (Ok rem)) as [r|e|].
        -- destruct IH as [L' H']; [intros k Hk; apply Z; lia|]. split; [exact L'|]. intros k. rewrite H'.
           destruct (Nat.eq_dec k s) as [->|Ne].
           ++ replace (Nat.leb (S s) s) with false by (symmetry; apply Nat.leb_gt; lia). replace (Nat.leb s s) with true by (symmetry; apply Nat.leb_le; lia).
              rewrite Nat.sub_diag. cbn. apply Z. lia.
           ++ destruct (Nat.leb_spec (S s) k), (Nat.leb_spec s k); try lia; [|reflexivity]. replace (k - s)%nat with (S (k - S s)) by lia. reflexivity.
        -- destruct IH as (E & k & H1 & H2); [intros k Hk; apply Z; lia|]. split; [exact E|]. exists (S k). split; [lia|exact H2].
        -- apply IH. intros k Hk; apply Z; lia.
      * split; [reflexivity|]. exists 0%nat. split; [lia|exact Nc].
Qed.
Lemma divide_spec qs rs p d :
  match poly_divide qs rs p d with
  | Ok (q, r) => exists dd, deg_eq d dd /\ length q = qs /\ length r = rs /\ deg_lt r dd /\ forall x, peval p x = peval q x * peval d x + peval r x
  | Err e => (e = PoLeadingCoefficientZero /\ forall k, cf d k = 0) \/ (e = PoDegreeOverflow /\ exists dd, deg_eq d dd /\ ~ can_divide qs rs p d dd)
  | Panic => False
  end.
Proof.
  unfold poly_divide. pose proof (degree_spec d) as D. destruct (poly_degree d) as [dd|]; [|left; auto].
  unfold poly_coefficient. destruct (nth_error d dd) as [lead|] eqn:E.
  2: { apply nth_error_None in E. exfalso. apply (proj1 D). apply nth_overflow. exact E. }
  apply (nth_error_nth _ _ 0) in E. subst lead. unfold poly_zeros. rnum.
  pose proof (divide_loop_spec p d dd qs D (length p) p (repeat 0 qs) eq_refl (repeat_length _ _) (le_n _) (deg_lt_length p)) as L.
  destruct (divide_loop d dd _ (length p) p (repeat 0 qs)) as [[w q]|e|].
  - destruct L as (Lw & Lq & Dw & V); [intros x; rewrite peval_repeat0; ring|].
    pose proof (copy_remainder_spec rs (firstn dd w) 0 (repeat 0 rs) (repeat_length _ _) (fun k _ => nth_repeat0 _ _)) as C.
    assert (F : forall k, cf (firstn dd w) k = cf w k). { intros k. rewrite cf_firstn. destruct (Nat.ltb_spec k dd); [reflexivity|symmetry; apply Dw; auto]. }
    destruct (copy_remainder 0 (firstn dd w) (Ok (repeat 0 rs))) as [r|e|].
    + destruct C as [Lr C]. assert (Rw : forall k, cf r k = cf w k) by (intros k; rewrite C; cbn [Nat.leb]; rewrite Nat.sub_0_r; apply F).
      exists dd. split; [exact D|]. split; [exact Lq|]. split; [exact Lr|]. split; [apply (deg_lt_ext w); [intros; symmetry; apply Rw|exact Dw]|].
      intros x. rewrite V. rewrite (peval_ext r w) by exact Rw. reflexivity.
    + right. destruct C as (-> & k & Hk & Nk). split; [reflexivity|]. exists dd. split; [exact D|]. intros (q' & r' & L1 & L2 & Dr & H).
      destruct (division_unique d dd q w q' r' D Dw Dr) as [_ Er]; [intros x; rewrite <- V, <- H; reflexivity|].
      apply Nk. rewrite F, Er. apply nth_overflow. cbn in Hk. lia.
    + exact C.
  - right. destruct L as [-> N]; [intros x; rewrite peval_repeat0; ring|]. split; [reflexivity|]. exists dd. split; [exact D|apply N].
  - apply L. intros x; rewrite peval_repeat0; ring.
Qed.

(** ** Construction from roots *)
Lemma multiply_in_a_root_loop root : forall n s c carried, (s + n <= length c)%nat ->
  let r := fst (fold_left (fun '(coefficients, carried) power =>
           let current := nth power coefficients 0 in (set_nth coefficients power (carried - root * current), current)) (seq s n) (c, carried)) in
  length r = length c /\ forall k, cf r k = if (Nat.leb s k && Nat.ltb k (s + n))%bool then (if Nat.eqb k s then carried else cf c (k - 1)) - root * cf c k else cf c k.
Proof.
  induction n as [|n IH]; intros s c carried H; cbv zeta; cbn [seq fold_left fst].
  - split; [reflexivity|]. intros k. destruct (Nat.leb_spec s k), (Nat.ltb_spec k (s + 0)); try lia; reflexivity.
  - destruct (IH (S s) (set_nth c s (carried - root * cf c s)) (cf c s)) as [L K]; [rewrite set_nth_length; lia|].
    rewrite set_nth_length in L. split; [exact L|]. intros k. rewrite K. destruct (Nat.eq_dec k s) as [->|Ne].
    + replace (Nat.leb (S s) s) with false by (symmetry; apply Nat.leb_gt; lia). replace (Nat.leb s s) with true by (symmetry; apply Nat.leb_le; lia).
      replace (Nat.ltb s (s + S n)) with true by (symmetry; apply Nat.ltb_lt; lia). rewrite Nat.eqb_refl. cbn [andb].
      rewrite nth_set_nth_eq by lia. reflexivity.
    + rewrite nth_set_nth_neq with (j := k) by lia. replace (S s + n)%nat with (s + S n)%nat by lia.
      destruct (Nat.leb_spec (S s) k), (Nat.leb_spec s k); try lia; cbn [andb]; [|reflexivity].
      destruct (Nat.ltb k (s + S n)); [|reflexivity]. replace (Nat.eqb k s) with false by (symmetry; apply Nat.eqb_neq; lia).
      destruct (Nat.eqb_spec k (S s)) as [->|Ne2]; [replace (S s - 1)%nat with s by lia; reflexivity|].
      rewrite nth_set_nth_neq by lia. reflexivity.
Qed.
Lemma multiply_in_a_root_cf c d root : (d < length c)%nat -> length (multiply_in_a_root c d root) = length c /\
  forall k, cf (multiply_in_a_root c d root) k = if Nat.leb k d then (match k with O => 0 | S j => cf c j end) - root * cf c k else cf c k.
Proof.
  intros H. destruct (multiply_in_a_root_loop root (S d) 0 c 0 ltac:(lia)) as [L K].
  unfold multiply_in_a_root. rnum. split; [exact L|]. intros k. rewrite K. cbn [Nat.leb andb Nat.add].
  destruct (Nat.ltb_spec k (S d)), (Nat.leb_spec k d); try lia; [|reflexivity].
  destruct k as [|k]; [reflexivity|]. cbn [Nat.eqb]. replace (S k - 1)%nat with k by lia. reflexivity.
Qed.
Lemma multiply_in_a_root_R c d root : (d < length c)%nat -> deg_lt c d ->
  deg_lt (multiply_in_a_root c d root) (S d) /\ forall x, peval (multiply_in_a_root c d root) x = (x - root) * peval c x.
Proof.
  intros H D. destruct (multiply_in_a_root_cf c d root H) as [L K].
  assert (E : forall k, cf (multiply_in_a_root c d root) k = cf (padd (0 :: c) (map (fun a => a * - root) c)) k).
  { intros k. rewrite K, cf_padd, cf_scale. destruct (Nat.leb_spec k d) as [Hk|Hk]; [destruct k; cbn [nth]; ring|].
    destruct k as [|k]; [lia|]. cbn [nth]. rewrite (D (S k)), (D k) by lia. ring. }
  split.
  - intros k Hk. rewrite K. destruct (Nat.leb_spec k d); [lia|]. apply D. lia.
  - intros x. rewrite (peval_ext _ _ x E), peval_padd, peval_map_scale. cbn [peval]. ring.
Qed.
Lemma from_roots_fold n x0 : forall roots s c, length c = n -> (s + length roots < n)%nat -> deg_lt c (S s) -> cf c s = 1 ->
  let r := fold_left (fun coefficients ir => multiply_in_a_root coefficients (fst ir + 1) (snd ir)) (combine (seq s (length roots)) roots) c in
  length r = n /\ peval r x0 = peval c x0 * product_of_factors roots x0 /\ deg_lt r (S (s + length roots)) /\ cf r (s + length roots) = 1.
Proof.
  induction roots as [|a roots IH]; intros s c L H D One; cbv zeta; cbn [length seq combine fold_left].
  - rewrite Nat.add_0_r. cbn [product_of_factors fold_right]. split; [exact L|]. split; [ring|]. split; auto.
  - cbn [fst snd]. rewrite Nat.add_1_r. cbn [length] in H. destruct (multiply_in_a_root_cf c (S s) a ltac:(lia)) as [L' K].
    destruct (multiply_in_a_root_R c (S s) a ltac:(lia) D) as [D' V].
    destruct (IH (S s) (multiply_in_a_root c (S s) a)) as (L2 & V2 & D2 & O2); [congruence|lia|exact D'| |].
    + rewrite K. replace (Nat.leb (S s) (S s)) with true by (symmetry; apply Nat.leb_le; lia). rewrite One, (D (S s)) by lia. ring.
    + replace (s + S (length roots))%nat with (S s + length roots)%nat by lia. split; [exact L2|]. split; [|split; [exact D2|exact O2]].
      rewrite V2, V. cbn [product_of_factors fold_right]. fold (product_of_factors roots x0). ring.
Qed.
Lemma existsb_finite (l : list R) : existsb (fun r => negb (@is_finite R Rnum r)) l = false.
Proof. induction l; cbn; auto. Qed.
Lemma from_roots_R n roots : poly_from_roots n roots =
  if Nat.leb n (length roots) then Err PoDegreeOverflow else
  Ok (fold_left (fun coefficients ir => multiply_in_a_root coefficients (fst ir + 1) (snd ir)) (combine (seq 0 (length roots)) roots) (set_nth (repeat 0 n) 0 1)).
Proof. unfold poly_from_roots. rewrite existsb_finite. reflexivity. Qed.
Lemma from_roots_spec n roots r : poly_from_roots n roots = Ok r ->
  length r = n /\ (forall x, peval r x = product_of_factors roots x) /\ deg_lt r (S (length roots)) /\ cf r (length roots) = 1.
Proof.
  rewrite from_roots_R. destruct (Nat.leb_spec n (length roots)) as [|H]; [discriminate|]. intros E. injection E as <-.
  assert (P : forall x0, _) by (intros x0; apply (from_roots_fold n x0 roots 0 (set_nth (repeat 0 n) 0 1));
    [rewrite set_nth_length; apply repeat_length|cbn; exact H|
     intros k Hk; rewrite nth_set_nth_neq by lia; apply nth_repeat0|apply nth_set_nth_eq; rewrite repeat_length; lia]).
  cbn [Nat.add] in P. split; [apply (P 0)|]. split; [|split; apply (P 0)].
  intros x. destruct (P x) as (_ & V & _). rewrite V. replace (peval (set_nth (repeat 0 n) 0 1) x) with 1; [ring|].
  destruct n; [lia|]. cbn. rewrite peval_repeat0. ring.
Qed.
Lemma product_of_factors_zero roots x : product_of_factors roots x = 0 <-> In x roots.
Proof.
  induction roots as [|a roots IH]; cbn; [split; [lra|tauto]|]. fold (product_of_factors roots x). rewrite <- IH. split.
  - intros H. apply Rmult_integral in H. destruct H; [left; lra|auto].
  - intros [H|H]; [rewrite H; ring|rewrite H; ring].
Qed.

(** ** Interpolation by divided differences *)
Section Newton.
  Variables (t v : nat -> R).
  (** the table: [dd k i] uses the nodes i .. i+k *)
  Fixpoint dd (k i : nat) : R := match k with O => v i | S k => (dd k (i + 1) - dd k i) / (t (i + S k) - t i) end.
  Fixpoint W (i k : nat) (x : R) : R := match k with O => 1 | S k => W i k x * (x - t (i + k)) end.
  Fixpoint P (i k : nat) (x : R) : R := match k with O => dd 0 i | S j => P i j x + dd k i * W i k x end.
  Lemma W_front i k x : W i (S k) x = (x - t i) * W (S i) k x.
  Proof.
    induction k as [|k IH]; [cbn; rewrite Nat.add_0_r; ring|]. change (W i (S (S k)) x) with (W i (S k) x * (x - t (i + S k))). rewrite IH.
    cbn [W]. replace (S i + k)%nat with (i + S k)%nat by lia. ring.
  Qed.
  Lemma P_step k x : forall i, (forall a b, (i <= a < b)%nat -> (b <= i + S k)%nat -> t a <> t b) ->
    P (S i) k x - P i k x = dd (S k) i * (t (i + S k) - t i) * W (S i) k x.
  Proof.
    induction k as [|k IH]; intros i N.
    - cbn. replace (i + 1)%nat with (S i) by lia. assert (t i <> t (S i)) by (apply N; lia). field. lra.
    - cbn [P]. assert (IHi := IH i ltac:(intros a b H1 H2; apply N; lia)).
      replace (P (S i) k x) with (P i k x + dd (S k) i * (t (i + S k) - t i) * W (S i) k x) by lra.
      rewrite (W_front i k). cbn [W]. replace (S i + k)%nat with (i + S k)%nat by lia.
      assert (E : dd (S (S k)) i * (t (i + S (S k)) - t i) = dd (S k) (S i) - dd (S k) i).
      { change (dd (S (S k)) i) with ((dd (S k) (i + 1) - dd (S k) i) / (t (i + S (S k)) - t i)). replace (i + 1)%nat with (S i) by lia.
        assert (t i <> t (i + S (S k))%nat) by (apply N; lia). field. lra. }
      rewrite E. ring.
  Qed.
  Lemma W_zero i k j : (i <= j < i + k)%nat -> W i k (t j) = 0.
  Proof.
    induction k as [|k IH]; intros H; [lia|]. cbn. destruct (Nat.eq_dec j (i + k)) as [->|Ne]; [ring|]. rewrite IH by lia. ring.
  Qed.
  Lemma P_interpolates k : forall i j, (forall a b, (i <= a < b)%nat -> (b <= i + k)%nat -> t a <> t b) -> (i <= j <= i + k)%nat -> P i k (t j) = v j.
  Proof.
    induction k as [|k IH]; intros i j N H; [cbn; f_equal; lia|]. cbn [P].
    destruct (Nat.eq_dec j (i + S k)) as [->|Ne].
    - pose proof (P_step k (t (i + S k)%nat) i N) as St. rewrite W_front.
      assert (E : P (S i) k (t (i + S k)%nat) = v (i + S k)%nat) by (apply IH; [intros a b H1 H2; apply N; lia|lia]). lra.
    - rewrite W_zero by lia. rewrite IH; [ring|intros a b H1 H2; apply N; lia|lia].
  Qed.
End Newton.

Lemma bend_pass_spec n order tt (k : nat) : forall m s table, length table = n -> (s + m <= n - order)%nat -> (0 < order)%nat ->
  match fold_left (fun table index =>
      match table with
      | Ok table =>
          let gap := nth (index + order) tt 0 - nth index tt 0 in
          if Reqb gap 0 then Err PoDuplicateNode
          else Ok (set_nth table index ((nth (index + 1) table 0 - nth index table 0) / gap))
      | other => other
      end) (seq s m) (Ok table) with
  | Ok r => length r = n /\ (forall i, (s <= i < s + m)%nat -> cf tt (i + order) <> cf tt i) /\
            forall i, cf r i = if (Nat.leb s i && Nat.ltb i (s + m))%bool then (cf table (i + 1) - cf table i) / (cf tt (i + order) - cf tt i) else cf table i
  | Err e => e = PoDuplicateNode /\ exists i, (s <= i < s + m)%nat /\ cf tt (i + order) = cf tt i
  | Panic => False
  end.
Proof.
  induction m as [|m IH]; intros s table L H Ho; cbn [seq fold_left].
  - split; [exact L|]. split; [intros; lia|]. intros i. destruct (Nat.leb_spec s i), (Nat.ltb_spec i (s + 0)); try lia; reflexivity.
  - unfold Reqb at 2. destruct (Req_EM_T (cf tt (s + order) - cf tt s) 0) as [Z|Nz]; cbn zeta.
    + assert (G : forall l, fold_left (fun (table : Res (list R) PolynomialError) index =>
      match table with
      | Ok table =>
          let gap := nth (index + order) tt 0 - nth index tt 0 in
          if Reqb gap 0 then Err PoDuplicateNode
          else Ok (set_nth table index ((nth (index + 1) table 0 - nth index table 0) / gap))
      | other => other
      end) l (Err PoDuplicateNode) = Err PoDuplicateNode) by (induction l; cbn; auto).
      rewrite G. split; [reflexivity|]. exists s. split; [lia|lra].
    + specialize (IH (S s) (set_nth table s ((cf table (s + 1) - cf table s) / (cf tt (s + order) - cf tt s))) ltac:(rewrite set_nth_length; exact L) ltac:(lia) Ho).
      destruct (fold_left _ (seq (S s) m) _) as [r|e|].
      * destruct IH as (L' & N & K). split; [exact L'|]. split.
        -- intros i Hi. destruct (Nat.eq_dec i s) as [->|Ne]; [lra|apply N; lia].
        -- intros i. rewrite K. replace (S s + m)%nat with (s + S m)%nat by lia. destruct (Nat.eq_dec i s) as [->|Ne].
           ++ replace (Nat.leb (S s) s) with false by (symmetry; apply Nat.leb_gt; lia). replace (Nat.leb s s) with true by (symmetry; apply Nat.leb_le; lia).
              replace (Nat.ltb s (s + S m)) with true by (symmetry; apply Nat.ltb_lt; lia). cbn [andb]. apply nth_set_nth_eq. lia.
           ++ rewrite nth_set_nth_neq with (j := i) by lia. destruct (Nat.leb_spec (S s) i), (Nat.leb_spec s i); try lia; cbn [andb]; [|reflexivity].
              rewrite nth_set_nth_neq by lia. reflexivity.
      * destruct IH as (E & i & Hi & Z). split; [exact E|]. exists i. split; [lia|exact Z].
      * exact IH.
Qed.
Lemma bends_of_spec n tt values : length values = n -> forall m, (m <= n - 1)%nat ->
  match fold_left (fun st order =>
      match st with
      | Ok (table, bends) =>
          match bend_pass n order tt table with
          | Ok table => Ok (table, set_nth bends order (nth 0 table 0))
          | Err e => Err e
          | Panic => Panic
          end
      | other => other
      end) (seq 1 m) (Ok (values, set_nth (repeat 0 n) 0 (nth 0 values 0))) with
  | Ok (table, bends) => length table = n /\ length bends = n /\
      (forall a b, (a < b < n)%nat -> (b - a <= m)%nat -> cf tt a <> cf tt b) /\
      (forall i, (i < n - m)%nat -> cf table i = dd (fun j => cf tt j) (fun j => cf values j) m i) /\
      (forall k, (k <= m)%nat -> (k < n)%nat -> cf bends k = dd (fun j => cf tt j) (fun j => cf values j) k 0)
  | Err e => e = PoDuplicateNode /\ exists a b, (a < b < n)%nat /\ cf tt a = cf tt b
  | Panic => False
  end.
Proof.
  intros Lv. induction m as [|m IH]; intros Hm.
  - cbn [seq fold_left]. split; [exact Lv|]. split; [rewrite set_nth_length; apply repeat_length|]. split; [intros; lia|]. split; [reflexivity|].
    intros k H1 H2. replace k with 0%nat by lia. rewrite nth_set_nth_eq by (rewrite repeat_length; lia). reflexivity.
  - rewrite seq_S, fold_left_app. cbn [fold_left]. specialize (IH ltac:(lia)). destruct (fold_left _ (seq 1 m) _) as [[table bends]|e|].
    + destruct IH as (Lt & Lb & N & Tb & Bd).
      pose proof (bend_pass_spec n (1 + m) tt 0%nat (n - (1 + m)) 0 table Lt ltac:(lia) ltac:(lia)) as Pp.
      unfold bend_pass. rnum. destruct (fold_left _ (seq 0 (n - (1 + m))) _) as [r|e|].
      * destruct Pp as (L' & N' & K). split; [exact L'|]. split; [rewrite set_nth_length; exact Lb|]. split.
        -- intros a b H1 H2. destruct (le_lt_dec (b - a) m); [apply N; auto|]. intros E. apply (N' a); [lia|]. replace (a + (1 + m))%nat with b by lia. auto.
        -- assert (Kd : forall i, (i < n - S m)%nat -> cf r i = dd (fun j => cf tt j) (fun j => cf values j) (S m) i).
           { intros i Hi. rewrite K. cbn [Nat.leb andb]. replace (Nat.ltb i (0 + (n - (1 + m)))) with true by (symmetry; apply Nat.ltb_lt; lia).
             rewrite !Tb by lia. reflexivity. }
           split; [exact Kd|]. intros k H1 H2. destruct (Nat.eq_dec k (S m)) as [->|Ne].
           ++ rewrite nth_set_nth_eq by lia. apply Kd. lia.
           ++ rewrite nth_set_nth_neq by (cbn; lia). apply Bd; lia.
      * destruct Pp as (-> & i & Hi & Z). split; [reflexivity|]. exists i, (i + (1 + m))%nat. split; [lia|auto].
      * exact Pp.
    + exact IH.
    + exact IH.
Qed.
Lemma fold_bends_spec n tt bends x : (1 <= n)%nat -> forall m, (m <= n - 1)%nat ->
  let c := fold_left (fun coefficients step =>
      let c := multiply_in_a_root coefficients (n - 1 - step) (nth step tt 0) in set_nth c 0 (nth 0 c 0 + nth step bends 0))
      (rev (seq (n - 1 - m) m)) (set_nth (repeat 0 n) 0 (nth (n - 1) bends 0)) in
  length c = n /\ deg_lt c (S m) /\
  peval c x = bsum (S m) (fun k => cf bends (n - 1 - m + k) * W (fun j => cf tt j) (n - 1 - m) k x).
Proof.
  intros Hn. induction m as [|m IH]; intros Hm; cbv zeta.
  - cbn [seq rev fold_left]. split; [rewrite set_nth_length; apply repeat_length|]. split.
    + intros k Hk. rewrite nth_set_nth_neq by lia. apply nth_repeat0.
    + destruct n; [lia|]. cbn. rewrite peval_repeat0, !Nat.sub_0_r, Nat.add_0_r. ring.
  - destruct (IH ltac:(lia)) as (L & D & V). replace (n - 1 - S m)%nat with (n - 1 - m - 1)%nat by lia. set (s := (n - 1 - m)%nat) in *.
    assert (Hs : s = S (s - 1)) by lia. cbn [seq rev]. replace (S (s - 1)) with s by lia. rewrite fold_left_app. cbn [fold_left].
    set (c := fold_left _ (rev (seq s m)) _) in *. replace (n - 1 - (s - 1))%nat with (S m) by lia.
    destruct (multiply_in_a_root_R c (S m) (cf tt (s - 1)) ltac:(lia) D) as [D' V'].
    destruct (multiply_in_a_root_cf c (S m) (cf tt (s - 1)) ltac:(lia)) as [L' _].
    set (c' := multiply_in_a_root c (S m) (cf tt (s - 1))) in *.
    split; [rewrite set_nth_length; congruence|]. split.
    + intros k Hk. rewrite nth_set_nth_neq by lia. apply D'. lia.
    + rewrite peval_set_nth by lia. rewrite V', V. rewrite (bsum_first (S m)). rewrite Nat.add_0_r.
      rewrite (bsum_ext (S m) (fun i => cf bends (s - 1 + S i) * _) (fun k => (x - cf tt (s - 1)) * (cf bends (s + k) * W (fun j => cf tt j) s k x))).
      * rewrite bsum_scal. cbn [W pow]. ring.
      * intros i _. replace (s - 1 + S i)%nat with (s + i)%nat by lia. rewrite W_front. replace (S (s - 1)) with s by lia. ring.
Qed.
Lemma P_bsum t v k x : P t v 0 k x = bsum (S k) (fun m => dd t v m 0 * W t 0 m x).
Proof. induction k as [|k IH]; [cbn; ring|]. cbn [P]. rewrite IH. reflexivity. Qed.

Lemma min_max_fold l : forall s0 l0, s0 <= l0 ->
  let '(s, g) := fold_left (fun '(s, g) node => (Rmin s node, Rmax g node)) l (s0, l0) in
  s <= s0 /\ l0 <= g /\ (forall y, In y l -> s <= y <= g) /\ (s = s0 \/ In s l) /\ (g = l0 \/ In g l).
Proof.
  induction l as [|a l IH]; intros s0 l0 H; cbn [fold_left]; [repeat split; try lra; try tauto; contradiction|].
  specialize (IH (Rmin s0 a) (Rmax l0 a)). pose proof (Rmin_l s0 a). pose proof (Rmin_r s0 a). pose proof (Rmax_l l0 a). pose proof (Rmax_r l0 a).
  destruct (fold_left _ l (Rmin s0 a, Rmax l0 a)) as [s g]. destruct IH as (H4 & H5 & H6 & H7 & H8); [lra|].
  split; [lra|]. split; [lra|]. split; [intros y [->|Hy]; [lra|auto]|]. split.
  - destruct H7 as [->|]; [|auto with datatypes]. unfold Rmin. destruct (Rle_dec s0 a); [auto|right; left; auto].
  - destruct H8 as [->|]; [|auto with datatypes]. unfold Rmax. destruct (Rle_dec l0 a); [right; left; auto|auto].
Qed.
Lemma sample_range_spec nodes : (2 <= length nodes)%nat ->
  match sample_range nodes with
  | Ok (c, h) => 0 < h
  | Err e => e = PoDuplicateNode /\ ~ NoDup nodes
  | Panic => False
  end.
Proof.
  intros L. destruct nodes as [|a [|b nodes]]; cbn in L; try lia. unfold sample_range.
  pose proof (min_max_fold (a :: b :: nodes) a a (Rle_refl _)) as M.
  change (fold_left (fun '(s, l) node => (min s node, max l node)) (a :: b :: nodes) (a, a)) with (fold_left (fun '(s, g) node => (Rmin s node, Rmax g node)) (a :: b :: nodes) (a, a)).
  destruct (fold_left _ (a :: b :: nodes) (a, a)) as [s g]. destruct M as (H1 & H2 & H3 & _). rnum. unfold Reqb.
  destruct (Req_EM_T ((g - s) * / 2) 0) as [Z|Nz].
  - split; [reflexivity|]. intros ND. assert (a = b). { pose proof (H3 a (or_introl eq_refl)). pose proof (H3 b (or_intror (or_introl eq_refl))). lra. }
    subst. inversion ND; subst. apply H4. left. reflexivity.
  - lra.
Qed.
Lemma NoDup_cf (l : list R) : NoDup l <-> forall a b, (a < b < length l)%nat -> cf l a <> cf l b.
Proof.
  split.
  - intros N a b H E. apply (NoDup_nth l 0) in E; auto; lia.
  - intros H. apply (NoDup_nth l 0). intros i j Hi Hj E. destruct (lt_eq_lt_dec i j) as [[Hl|]|Hl]; auto; exfalso; [apply (H i j)|apply (H j i)]; auto; lia.
Qed.
Lemma cf_map_in (f : R -> R) l i : (i < length l)%nat -> cf (map f l) i = f (cf l i).
Proof. intros H. rewrite (nth_indep _ 0 (f 0)) by (rewrite map_length; auto). apply map_nth. Qed.

Lemma from_points_spec n nodes values : length nodes = n -> length values = n -> (2 <= n)%nat ->
  match poly_from_points n nodes values with
  | Ok r => length r = n /\ NoDup nodes /\ forall i, (i < n)%nat -> peval r (cf nodes i) = cf values i
  | Err e => e = PoDuplicateNode /\ ~ NoDup nodes
  | Panic => False
  end.
Proof.
  intros Ln Lv Hn. unfold poly_from_points. rewrite existsb_finite. replace (Nat.leb n 1) with false by (symmetry; apply Nat.leb_gt; lia).
  pose proof (sample_range_spec nodes ltac:(lia)) as Sr. destruct (sample_range nodes) as [[c h]|e|]; auto.
  set (tt := map (fun node => div (sub node c) h) nodes).
  assert (Tt : forall i, (i < n)%nat -> cf tt i = (cf nodes i - c) / h) by (intros i Hi; unfold tt; rewrite cf_map_in by lia; reflexivity).
  assert (Sep : forall a b, (a < b < n)%nat -> cf tt a = cf tt b <-> cf nodes a = cf nodes b).
  { intros a b H. rewrite !Tt by lia. split; intros E; [|rewrite E; reflexivity]. apply (Rmult_eq_compat_r h) in E. field_simplify in E; lra. }
  pose proof (bends_of_spec n tt values Lv (n - 1) (le_n _)) as B. unfold bends_of, poly_zeros. rnum.
  destruct (fold_left _ (seq 1 (n - 1)) _) as [[table bends]|e|].
  - destruct B as (Lt & Lb & N & _ & Bd). split.
    + rewrite shift_argument_R, from_fn_length. unfold poly_scale_argument. rewrite scale_argument_loop_length.
      unfold fold_bends, poly_zeros. rnum. pose proof (fold_bends_spec n tt bends 0 ltac:(lia) (n - 1) (le_n _)) as F. rewrite Nat.sub_diag in F. apply F.
    + assert (ND : forall a b, (a < b < n)%nat -> cf tt a <> cf tt b) by (intros; apply N; lia). split.
      * apply NoDup_cf. rewrite Ln. intros a b H E. apply (ND a b H). apply Sep; auto.
      * intros i Hi. rewrite shift_argument_eval, scale_argument_R. rnum.
        replace (1 / h * (cf nodes i + - c)) with (cf tt i) by (rewrite Tt by auto; field; lra).
        pose proof (fold_bends_spec n tt bends (cf tt i) ltac:(lia) (n - 1) (le_n _)) as F. rewrite Nat.sub_diag in F.
        unfold fold_bends, poly_zeros. rnum. destruct F as (_ & _ & F). etransitivity; [exact F|].
        rewrite (bsum_ext _ _ (fun m => dd (fun j => cf tt j) (fun j => cf values j) m 0 * W (fun j => cf tt j) 0 m (cf tt i))).
        -- rewrite <- P_bsum. apply (P_interpolates (fun j => cf tt j) (fun j => cf values j)); [intros a b H1 H2; apply ND; lia|lia].
        -- intros k Hk. rewrite Nat.add_0_l. rewrite Bd by lia. reflexivity.
  - destruct B as (-> & a & b & H & E). split; [reflexivity|]. rewrite NoDup_cf, Ln. intros ND. apply (ND a b H). apply Sep; auto.
  - exact B.
Qed.
