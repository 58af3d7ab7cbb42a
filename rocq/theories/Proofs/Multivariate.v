(** Lemmas about polynomials in several variables, over exact arithmetic. *)
From Coq Require Import ZArith NArith List Bool Arith Reals Lra Lia.
From Coquelicot Require Import Coquelicot.
From Verif Require Import Base.Scalar Base.Lists Base.RNum Base.Series Base.PolyR Model.Errors Model.Polynomial Model.Multivariate
  Spec.Polynomial Spec.Multivariate Proofs.Polynomial Proofs.SavGol.
Import ListNotations.
Local Open Scope R_scope.

Notation RT := (Term R).

(** A polynomial summed with any weight of the exponents. *)
Fixpoint wsum (w : list N -> R) (p : list RT) : R :=
  match p with [] => 0 | t :: p => coefficient t * w (exponents t) + wsum w p end.
Lemma sum_of_terms_wsum p xs : sum_of_terms p xs = wsum (monomial xs) p.
Proof. induction p as [|t p IH]; cbn; [reflexivity|]. rewrite IH. reflexivity. Qed.
Lemma wsum_app w p q : wsum w (p ++ q) = wsum w p + wsum w q.
Proof. induction p as [|t p IH]; cbn; [ring|]. rewrite IH. ring. Qed.
Lemma wsum_ext w w' p : (forall t, In t p -> w (exponents t) = w' (exponents t)) -> wsum w p = wsum w' p.
Proof. induction p as [|t p IH]; intros H; cbn; [reflexivity|]. rewrite (H t (or_introl eq_refl)), IH; [reflexivity|]. intros; apply H; right; assumption. Qed.

(** The product of powers the code computes. *)
Fixpoint rmono (xs : list R) (es : list N) : R :=
  match xs, es with x :: xs, e :: es => raise x e * rmono xs es | _, _ => 1 end.
Lemma raise_0 (x : R) : raise x 0 = 1. Proof. reflexivity. Qed.
Lemma raise_R (x : R) e : (e <= i32_max)%N -> raise x e = x ^ N.to_nat e.
Proof. intros H. unfold raise. rewrite N.min_l by exact H. rewrite <- N_nat_Z. apply powi_nat. Qed.
Lemma rmono_monomial : forall xs es, (forall e, In e es -> (e <= i32_max)%N) -> rmono xs es = monomial xs es.
Proof.
  induction xs as [|x xs IH]; intros [|e es] H; try reflexivity. cbn [rmono monomial].
  rewrite raise_R by (apply H; left; reflexivity). rewrite IH by (intros; apply H; right; assumption). reflexivity.
Qed.
Lemma term_product_R : forall xs es prod, term_product prod xs es = prod * rmono xs es.
Proof. induction xs as [|x xs IH]; intros [|e es] prod; cbn [term_product rmono]; rnum; try ring. rewrite IH. ring. Qed.
Lemma evaluate_wsum p xs : mp_evaluate p xs = wsum (rmono xs) p.
Proof.
  unfold mp_evaluate. enough (H : forall a, fold_left (fun total term => (total + term_product (coefficient term) xs (exponents term))%num) p a = a + wsum (rmono xs) p).
  { rewrite H. rnum. ring. }
  induction p as [|t p IH]; intros a; cbn [fold_left wsum]; [ring|]. rewrite IH, term_product_R. rnum. ring.
Qed.
Lemma evaluate_small p xs : powers_up_to i32_max p -> mp_evaluate p xs = sum_of_terms p xs.
Proof. intros H. rewrite evaluate_wsum, sum_of_terms_wsum. apply wsum_ext. intros t Ht. apply rmono_monomial. intros e He. exact (H t e Ht He). Qed.

(** One slot at a time *)
Lemma mono_set_x : forall v xs es t, (v < length xs)%nat -> length xs = length es ->
  monomial (set_nth xs v t) es = t ^ N.to_nat (nth v es 0%N) * monomial xs (set_nth es v 0%N).
Proof.
  induction v as [|v IH]; intros [|x xs] [|e es] t Hv Hl; cbn [length] in *; try lia; cbn [set_nth monomial nth].
  - rewrite N2Nat.inj_0. cbn [pow]. ring.
  - rewrite (IH xs es t) by lia. ring.
Qed.
Lemma mono_set_e : forall v xs es k, (v < length xs)%nat -> length xs = length es ->
  monomial xs (set_nth es v k) = nth v xs 0 ^ N.to_nat k * monomial xs (set_nth es v 0%N).
Proof.
  induction v as [|v IH]; intros [|x xs] [|e es] t Hv Hl; cbn [length] in *; try lia; cbn [set_nth monomial nth].
  - rewrite N2Nat.inj_0. cbn [pow]. ring.
  - rewrite (IH xs es t) by lia. ring.
Qed.
Lemma rmono_set_x : forall v xs es t, (v < length xs)%nat -> length xs = length es ->
  rmono (set_nth xs v t) es = raise t (nth v es 0%N) * rmono xs (set_nth es v 0%N).
Proof.
  induction v as [|v IH]; intros [|x xs] [|e es] t Hv Hl; cbn [length] in *; try lia; cbn [set_nth rmono nth].
  - rewrite raise_0. ring.
  - rewrite (IH xs es t) by lia. ring.
Qed.

Lemma is_derive_power (c K x : R) (e : nat) : is_derive (fun t => c * (t ^ e * K)) x (c * INR e * (x ^ (e - 1) * K)).
Proof. auto_derive; [trivial|]. destruct e; cbn -[INR]; rewrite ?Nat.sub_0_r; cbn [INR]; try ring. Qed.

Lemma in_set_nth {A} (l : list A) : forall i v x, In x (set_nth l i v) -> x = v \/ In x l.
Proof.
  induction l as [|a l IH]; intros [|i] v x H; cbn in *; auto.
  - destruct H as [<-|H]; auto.
  - destruct H as [<-|H]; auto. destruct (IH i v x H); auto.
Qed.
Lemma of_Z_N (e : N) : @of_Z R Rnum (Z.of_N e) = INR (N.to_nat e).
Proof. rnum. rewrite INR_IZR_INZ, N_nat_Z. reflexivity. Qed.

(** Differentiating term by term *)
Lemma derive_terms n v xs : (v < n)%nat -> length xs = n -> forall p, names n p ->
  is_derive (fun t => sum_of_terms p (set_nth xs v t)) (nth v xs 0) (sum_of_terms (flat_map (derivative_term v) p) xs).
Proof.
  intros Hv Hl. induction p as [|t p IH]; intros Hn.
  - cbn. apply (is_derive_const 0).
  - assert (Ht := Hn t (or_introl eq_refl)). assert (Hn' : names n p) by (intros t' ?; apply Hn; right; assumption).
    cbn [flat_map sum_of_terms].
    assert (Hv1 : (v < length xs)%nat) by lia. assert (Hl1 : length xs = length (exponents t)) by lia.
    assert (D : is_derive (fun s => coefficient t * monomial (set_nth xs v s) (exponents t)) (nth v xs 0) (sum_of_terms (derivative_term v t) xs)).
    { apply (is_derive_ext (fun s => coefficient t * (s ^ N.to_nat (nth v (exponents t) 0%N) * monomial xs (set_nth (exponents t) v 0%N)))).
      { intros s. refine (f_equal (fun z => coefficient t * z) _). symmetry. exact (mono_set_x v xs (exponents t) s Hv1 Hl1). }
      set (K := monomial xs (set_nth (exponents t) v 0%N)). set (e := nth v (exponents t) 0%N).
      replace (sum_of_terms (derivative_term v t) xs) with (coefficient t * INR (N.to_nat e) * (nth v xs 0 ^ (N.to_nat e - 1) * K)); [apply is_derive_power|].
      unfold derivative_term. fold e. destruct (N.eqb_spec e 0) as [E|E].
      - rewrite E. cbn. ring.
      - cbn [sum_of_terms coefficient exponents]. rewrite (mono_set_e v xs (exponents t) _ Hv1 Hl1). fold K. rewrite of_Z_N, N2Nat.inj_sub. rnum. change (N.to_nat 1) with 1%nat. symmetry. apply Rplus_0_r. }
    rewrite sum_of_terms_wsum, wsum_app, <- !sum_of_terms_wsum.
    apply (is_derive_plus _ _ _ _ _ D (IH Hn')).
Qed.
Lemma derivative_term_shape n v p : names n p -> names n (flat_map (derivative_term v) p) /\ (length (flat_map (derivative_term v) p) <= length p)%nat /\
  forall m, powers_up_to m p -> powers_up_to m (flat_map (derivative_term v) p).
Proof.
  intros Hn. repeat split.
  - intros t Ht. apply in_flat_map in Ht. destruct Ht as (s & Hs & Ht). unfold derivative_term in Ht. destruct (N.eqb _ _); [destruct Ht|].
    destruct Ht as [<-|[]]. cbn. rewrite set_nth_length. apply Hn, Hs.
  - clear Hn. induction p as [|t p IH]; cbn [flat_map length]; [lia|]. rewrite app_length. unfold derivative_term at 1. destruct (N.eqb _ _); cbn [length]; lia.
  - intros m Hm t e Ht He. apply in_flat_map in Ht. destruct Ht as (s & Hs & Ht). unfold derivative_term in Ht. destruct (N.eqb_spec (nth v (exponents s) 0%N) 0) as [E|E]; [destruct Ht|].
    destruct Ht as [<-|[]]. cbn in He. apply in_set_nth in He. destruct He as [->|He]; [|exact (Hm s e Hs He)].
    assert (In (nth v (exponents s) 0%N) (exponents s)).
    { destruct (Nat.lt_ge_cases v (length (exponents s))) as [L|L]; [apply nth_In, L|]. rewrite nth_overflow in E by exact L. lia. }
    pose proof (Hm s _ Hs H). lia.
Qed.

(** Pushing *)
Lemma push_all_R max_terms : forall ts r, @push_all R Rnum max_terms ts r =
  if (Nat.leb (length r + length ts) max_terms || Nat.eqb (length ts) 0)%bool then Ok (r ++ ts) else Err PoCapacityExceeded.
Proof.
  induction ts as [|t ts IH]; intros r; cbn [push_all length].
  - rewrite orb_true_r, app_nil_r. reflexivity.
  - unfold mp_push. rnum. cbn [negb]. cbn [Nat.eqb]. rewrite orb_false_r.
    destruct (Nat.ltb_spec (length r) max_terms) as [L|L].
    + rewrite IH, app_length, <- app_assoc. cbn [length app]. replace (length r + 1 + length ts)%nat with (length r + S (length ts))%nat by lia.
      destruct (Nat.leb_spec (length r + S (length ts)) max_terms) as [L'|L']; cbn [orb]; [reflexivity|].
      destruct (Nat.eqb_spec (length ts) 0); [lia|reflexivity].
    + destruct (Nat.leb_spec (length r + S (length ts)) max_terms); [lia|reflexivity].
Qed.
Lemma push_all_nil max_terms ts : @push_all R Rnum max_terms ts [] = if Nat.leb (length ts) max_terms then Ok ts else Err PoCapacityExceeded.
Proof.
  rewrite push_all_R. cbn [length app Nat.add]. destruct (Nat.leb_spec (length ts) max_terms); cbn [orb]; [reflexivity|].
  destruct (Nat.eqb_spec (length ts) 0); [lia|reflexivity].
Qed.

(** The gradient *)
Lemma gradient_product_R v : forall xs es prod o, @gradient_product R Rnum prod o v xs es =
  prod * rmono xs (if Nat.leb o v then set_nth es (v - o) (nth (v - o) es 0 - 1)%N else es).
Proof.
  induction xs as [|x xs IH]; intros [|e es] prod o; cbn [gradient_product rmono]; try ring.
  - destruct (Nat.leb o v); destruct (v - o)%nat; cbn; ring.
  - rewrite IH. destruct (Nat.eqb_spec o v) as [->|Ne].
    + rewrite Nat.leb_refl, Nat.sub_diag. destruct (Nat.leb_spec (S v) v); [lia|]. cbn [set_nth nth rmono]. rnum. ring.
    + destruct (Nat.leb_spec o v) as [L|L].
      * destruct (Nat.leb_spec (S o) v); [|lia]. replace (v - o)%nat with (S (v - S o)) by lia. cbn [set_nth nth rmono]. rnum. ring.
      * destruct (Nat.leb_spec (S o) v); [lia|]. cbn [rmono]. rnum. ring.
Qed.
Lemma gradient_variable_R xs t totals v : length totals = length xs -> length (exponents t) = length xs -> (v < length xs)%nat ->
  gradient_variable xs t totals v = set_nth totals v (nth v totals 0 + mp_evaluate (derivative_term v t) xs).
Proof.
  intros Hl He Hv. unfold gradient_variable, derivative_term. destruct (N.eqb_spec (nth v (exponents t) 0%N) 0) as [E|E].
  - cbn. rewrite Rplus_0_r. apply (nth_ext _ _ 0 0); [rewrite set_nth_length; reflexivity|].
    intros i Hi. destruct (Nat.eq_dec i v) as [->|Ne]; [rewrite nth_set_nth_eq by lia; reflexivity|rewrite nth_set_nth_neq by lia; reflexivity].
  - rewrite evaluate_wsum, gradient_product_R. cbn [Nat.leb wsum coefficient exponents]. rewrite Nat.sub_0_r. rnum. do 2 f_equal. ring.
Qed.
Lemma gradient_term_R xs t totals : length totals = length xs -> length (exponents t) = length xs ->
  length (gradient_term xs totals t) = length xs /\
  forall v, (v < length xs)%nat -> nth v (gradient_term xs totals t) 0 = nth v totals 0 + mp_evaluate (derivative_term v t) xs.
Proof.
  intros Hl He. unfold gradient_term. rewrite He.
  enough (H : forall k, (k <= length xs)%nat -> let r := fold_left (gradient_variable xs t) (seq 0 k) totals in
    length r = length xs /\ forall v, (v < length xs)%nat -> nth v r 0 = nth v totals 0 + (if Nat.ltb v k then mp_evaluate (derivative_term v t) xs else 0)).
  { destruct (H (length xs) (le_n _)) as [A B]. split; [exact A|]. intros v Hv. rewrite B by exact Hv. destruct (Nat.ltb_spec v (length xs)); [reflexivity|lia]. }
  induction k as [|k IH]; intros Hk r.
  - unfold r. cbn [seq fold_left]. split; [exact Hl|]. intros v Hv. cbn. ring.
  - destruct (IH ltac:(lia)) as [A B]. unfold r. rewrite seq_S, fold_left_app, Nat.add_0_l. cbn [fold_left].
    rewrite gradient_variable_R by (rewrite ?A; lia). split; [rewrite set_nth_length; exact A|].
    intros v Hv. destruct (Nat.eq_dec v k) as [->|Ne].
    + rewrite nth_set_nth_eq by lia. rewrite B by lia. destruct (Nat.ltb_spec k k), (Nat.ltb_spec k (S k)); try lia. ring.
    + rewrite nth_set_nth_neq by lia. rewrite B by lia. destruct (Nat.ltb_spec v k), (Nat.ltb_spec v (S k)); try lia; reflexivity.
Qed.
Lemma gradient_R n xs p : length xs = n -> names n p -> length (mp_gradient_at n p xs) = n /\
  forall v, (v < n)%nat -> nth v (mp_gradient_at n p xs) 0 = mp_evaluate (flat_map (derivative_term v) p) xs.
Proof.
  intros Hl Hn. unfold mp_gradient_at.
  enough (H : forall totals, length totals = n -> let r := fold_left (gradient_term xs) p totals in length r = n /\
    forall v, (v < n)%nat -> nth v r 0 = nth v totals 0 + mp_evaluate (flat_map (derivative_term v) p) xs).
  { destruct (H (repeat 0 n) (repeat_length _ _)) as [A B]. split; [exact A|]. intros v Hv. etransitivity; [exact (B v Hv)|]. rewrite nth_repeat0. ring. }
  induction p as [|t p IH]; intros totals Ht r.
  - unfold r. split; [exact Ht|]. intros. cbn. rnum. ring.
  - assert (E : length (exponents t) = n) by (apply Hn; left; reflexivity).
    destruct (gradient_term_R xs t totals) as [A B]; [lia|lia|]. rewrite Hl in *.
    destruct (IH (fun t' H => Hn t' (or_intror H)) (gradient_term xs totals t) A) as [C D].
    unfold r. cbn [fold_left flat_map]. split; [exact C|]. intros v Hv. rewrite (D v Hv), (B v Hv), !evaluate_wsum, wsum_app. ring.
Qed.

(** Collecting *)
Lemma NoDup_app_single {A} (l : list A) x : NoDup l -> ~ In x l -> NoDup (l ++ [x]).
Proof.
  induction l as [|a l IH]; intros H Hx; cbn; [constructor; auto|]. inversion H as [|? ? H1 H2]; subst. constructor.
  - rewrite in_app_iff. cbn. intros [X|[X|[]]]; [auto|]. apply Hx. left. auto.
  - apply IH; auto. intros X. apply Hx. right. exact X.
Qed.
Lemma exponents_eqb_spec : forall a b, exponents_eqb a b = true <-> a = b.
Proof.
  induction a as [|x a IH]; intros [|y b]; cbn; try (split; congruence).
  rewrite andb_true_iff, N.eqb_eq, IH. split; [intros [-> ->]; reflexivity|intros H; injection H; auto].
Qed.
Lemma merge_wsum w t : forall kept, wsum w (merge_term kept t) = wsum w kept + coefficient t * w (exponents t).
Proof.
  induction kept as [|k kept IH]; cbn [merge_term wsum]; [ring|]. destruct (exponents_eqb _ _) eqn:E.
  - apply exponents_eqb_spec in E. cbn [wsum coefficient exponents]. rewrite E. rnum. ring.
  - cbn [wsum]. rewrite IH. ring.
Qed.
Lemma merge_exps t : forall kept : list RT, map exponents (merge_term kept t) = map exponents kept /\ In (exponents t) (map exponents kept) \/
  map exponents (merge_term kept t) = map exponents kept ++ [exponents t] /\ ~ In (exponents t) (map exponents kept).
Proof.
  induction kept as [|k kept IH]; cbn [merge_term map]; [right; split; [reflexivity|intros []]|]. destruct (exponents_eqb _ _) eqn:E.
  - apply exponents_eqb_spec in E. left. cbn. split; [reflexivity|left; exact E].
  - assert (Ne : exponents k <> exponents t) by (intros X; apply exponents_eqb_spec in X; congruence).
    destruct IH as [[A B]|[A B]]; [left|right]; cbn [map]; rewrite A; split; auto; [right; exact B|]. intros [X|X]; auto.
Qed.
Lemma merge_all_wsum w : forall p kept, wsum w (fold_left merge_term p kept) = wsum w kept + wsum w p.
Proof. induction p as [|t p IH]; intros kept; cbn [fold_left wsum]; [ring|]. rewrite IH, merge_wsum. ring. Qed.
Lemma merge_all_exps : forall p kept : list RT, NoDup (map exponents kept) -> let r := fold_left merge_term p kept in
  NoDup (map exponents r) /\ (length r <= length kept + length p)%nat /\ (forall es, In es (map exponents r) <-> In es (map exponents kept) \/ In es (map exponents p)).
Proof.
  induction p as [|t p IH]; intros kept Hk r.
  - unfold r. cbn. split; [exact Hk|]. split; [lia|]. intros. tauto.
  - destruct (merge_exps t kept) as [[A B]|[A B]].
    + destruct (IH (merge_term kept t)) as (N1 & L1 & I1); [rewrite A; exact Hk|]. unfold r. cbn [fold_left]. split; [exact N1|].
      assert (length (merge_term kept t) = length kept) by (rewrite <- (map_length exponents), A, map_length; reflexivity).
      split; [cbn [length]; lia|]. intros es. rewrite I1, A. cbn [map In]. split; [tauto|intros [?|[<-|?]]; tauto].
    + destruct (IH (merge_term kept t)) as (N1 & L1 & I1).
      { rewrite A. apply NoDup_app_single; assumption. }
      unfold r. cbn [fold_left]. split; [exact N1|].
      assert (length (merge_term kept t) = S (length kept)) by (rewrite <- (map_length exponents), A, app_length, map_length; cbn; lia).
      split; [cbn [length]; lia|]. intros es. rewrite I1, A, in_app_iff. cbn [map In]. tauto.
Qed.
Lemma filter_wsum w (p : list RT) : wsum w (filter (fun t => negb (coefficient t =? zero)%num) p) = wsum w p.
Proof.
  induction p as [|t p IH]; cbn [filter wsum]; [reflexivity|]. rnum. destruct (Reqb (coefficient t) 0) eqn:E; cbn [negb wsum]; rewrite IH; [|reflexivity].
  apply Reqb_true in E. rewrite E. ring.
Qed.
Lemma filter_length_le' {A} f (l : list A) : (length (filter f l) <= length l)%nat.
Proof. induction l as [|a l IH]; cbn; [lia|]. destruct (f a); cbn; lia. Qed.
Lemma NoDup_filter_map {A B} (g : A -> B) f (l : list A) : NoDup (map g l) -> NoDup (map g (filter f l)).
Proof.
  induction l as [|a l IH]; cbn; [auto|]. intros H. inversion H as [|x y H1 H2]; subst. destruct (f a); cbn; [|auto].
  constructor; [|auto]. intros X. apply H1. apply in_map_iff in X. destruct X as (z & <- & Hz). apply in_map, (proj1 (filter_In _ _ _) Hz).
Qed.
Lemma collect_spec (p : list RT) : let r := mp_collect_like_terms p in
  (forall w, wsum w r = wsum w p) /\ NoDup (map exponents r) /\ (length r <= length p)%nat /\
  (forall t, In t r -> coefficient t <> 0 /\ In (exponents t) (map exponents p)).
Proof.
  intros r. destruct (merge_all_exps p [] (NoDup_nil _)) as (N & L & I). unfold r, mp_collect_like_terms. repeat split.
  - intros w. rewrite filter_wsum, merge_all_wsum. cbn. ring.
  - apply NoDup_filter_map, N.
  - eapply Nat.le_trans; [apply filter_length_le'|]. cbn in L. exact L.
  - apply filter_In in H. destruct H as [_ H]. apply negb_true_iff in H. rnum. apply Reqb_false in H. exact H.
  - apply filter_In in H. destruct H as [H _]. destruct (proj1 (I (exponents t)) (in_map _ _ _ H)) as [[]|X]. exact X.
Qed.
