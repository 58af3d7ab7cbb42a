(** C55 and C56: polynomials in several variables, over exact arithmetic. *)
From Coq Require Import ZArith NArith List Bool Arith Reals Lra Lia.
From Coquelicot Require Import Coquelicot.
From Verif Require Import Base.Scalar Base.Lists Base.RNum Base.Series Base.PolyR Model.Errors Model.Polynomial Model.Multivariate
  Spec.Polynomial Spec.Multivariate Proofs.Polynomial Proofs.Multivariate.
Import ListNotations.
Local Open Scope R_scope.

(** ** C55 *)
(** What can be built, for any scalar. *)
Theorem C55_try_from_terms : forall (T : Type) (NT : Num T) (max_terms : nat) (terms p : list (Term T)),
  mp_try_from_terms max_terms terms = Ok p <->
  p = terms /\ (length terms <= max_terms)%nat /\ forall t, In t terms -> is_finite (coefficient t) = true.
Proof.
  intros T NT mx terms p. unfold mp_try_from_terms.
  enough (H : forall ts r, push_all mx ts r = Ok p <-> p = r ++ ts /\ (ts = [] \/ length r + length ts <= mx)%nat /\ forall t, In t ts -> is_finite (coefficient t) = true).
  { rewrite H. cbn [app length Nat.add]. split; intros (A & B & C); repeat split; auto. destruct B as [->|B]; [cbn; lia|exact B]. }
  induction ts as [|t ts IH]; intros r; cbn [push_all].
  - rewrite app_nil_r. split; [intros X; injection X as ->; repeat split; auto; intros ? []|intros (-> & _); reflexivity].
  - unfold mp_push. destruct (is_finite (coefficient t)) eqn:F; cbn [negb].
    2:{ split; [discriminate|]. intros (_ & _ & C). specialize (C t (or_introl eq_refl)). congruence. }
    destruct (Nat.ltb_spec (length r) mx) as [L|L].
    + rewrite IH, <- app_assoc, app_length. cbn [app length]. split.
      * intros (A & B & C). split; [exact A|]. split; [right; destruct B as [->|B]; cbn; lia|]. intros t' [<-|Ht']; auto.
      * intros (A & B & C). split; [exact A|]. split; [destruct B as [B|B]; [discriminate|right; lia]|]. intros t' Ht'. apply C. right. exact Ht'.
    + split; [discriminate|]. intros (_ & [B|B] & _); [discriminate|cbn in B; lia].
Qed.

Theorem C55_evaluate : forall (p : list (Term R)) (xs : list R), powers_up_to i32_max p -> mp_evaluate p xs = sum_of_terms p xs.
Proof. intros. apply evaluate_small. assumption. Qed.

(** Collecting changes no value, leaves no two terms alike and no zero coefficient. *)
Theorem C55_collect_like_terms : forall p : list (Term R), let q := mp_collect_like_terms p in
  (forall xs, mp_evaluate q xs = mp_evaluate p xs) /\ (forall xs, sum_of_terms q xs = sum_of_terms p xs) /\
  NoDup (map exponents q) /\ (forall t, In t q -> coefficient t <> 0) /\ (length q <= length p)%nat.
Proof.
  intros p q. destruct (collect_spec p) as (W & N & L & C). repeat split.
  - intros xs. unfold q. rewrite !evaluate_wsum. apply W.
  - intros xs. unfold q. rewrite !sum_of_terms_wsum. apply W.
  - exact N.
  - intros t Ht. apply (C t Ht).
  - exact L.
Qed.

Theorem C55_add_into : forall (out : nat) (p q : list (Term R)),
  match mp_add_into out p q with
  | Ok r => (length p + length q <= out)%nat /\
      (forall xs, mp_evaluate r xs = mp_evaluate p xs + mp_evaluate q xs) /\ (forall xs, sum_of_terms r xs = sum_of_terms p xs + sum_of_terms q xs)
  | Err e => e = PoCapacityExceeded /\ (out < length p + length q)%nat
  | Panic => False
  end.
Proof.
  intros out p q. unfold mp_add_into. rewrite push_all_nil, app_length. destruct (Nat.leb_spec (length p + length q) out) as [L|L]; [|auto].
  destruct (collect_spec (p ++ q)) as (W & _). split; [exact L|].
  split; intros xs; rewrite ?evaluate_wsum, ?sum_of_terms_wsum, W, wsum_app; reflexivity.
Qed.

(** Products *)
Definition product_term (lr : Term R * Term R) : Term R :=
  {| coefficient := coefficient (fst lr) * coefficient (snd lr);
     exponents := map (fun ab => (fst ab + snd ab)%N) (combine (exponents (fst lr)) (exponents (snd lr))) |}.
Lemma add_exponents_spec : forall a b, length a = length b ->
  match add_exponents a b with
  | Some s => s = map (fun ab => (fst ab + snd ab)%N) (combine a b) /\ forall i, (nth i a 0 + nth i b 0 <= u32_max)%N
  | None => exists i, (u32_max < nth i a 0 + nth i b 0)%N
  end.
Proof.
  induction a as [|x a IH]; intros [|y b] Hl; cbn [length] in Hl; try lia; cbn [add_exponents].
  - split; [reflexivity|]. intros [|i]; cbn; unfold u32_max; lia.
  - unfold u32_checked_add. specialize (IH b ltac:(lia)). destruct (N.leb_spec (x + y) u32_max) as [L|L].
    + destruct (add_exponents a b) as [s|].
      * destruct IH as [-> H]. split; [reflexivity|]. intros [|i]; cbn; [exact L|apply H].
      * destruct IH as [i Hi]. exists (S i). exact Hi.
    + exists 0%nat. exact L.
Qed.
Definition overflows (lr : Term R * Term R) : Prop := exists i, (u32_max < nth i (exponents (fst lr)) 0 + nth i (exponents (snd lr)) 0)%N.
Lemma multiply_loop_spec out n : forall pairs r, (forall lr, In lr pairs -> length (exponents (fst lr)) = n /\ length (exponents (snd lr)) = n) ->
  match multiply_loop out pairs r with
  | Ok q => q = r ++ map product_term pairs /\ (pairs = [] \/ length r + length pairs <= out)%nat /\ (forall lr, In lr pairs -> ~ overflows lr)
  | Err e => e = PoCapacityExceeded /\ (out < length r + length pairs)%nat \/ e = PoDegreeOverflow /\ exists lr, In lr pairs /\ overflows lr
  | Panic => False
  end.
Proof.
  induction pairs as [|[a b] pairs IH]; intros r Hp; cbn [multiply_loop].
  - rewrite app_nil_r. repeat split; auto.
  - destruct (Hp (a, b) (or_introl eq_refl)) as [Ha Hb]. cbn [fst snd] in Ha, Hb.
    pose proof (add_exponents_spec (exponents a) (exponents b) ltac:(lia)) as S. destruct (add_exponents (exponents a) (exponents b)) as [s|].
    2:{ right. split; [reflexivity|]. exists (a, b). split; [left; reflexivity|exact S]. }
    destruct S as [-> S]. unfold mp_push. rnum. cbn [negb]. destruct (Nat.ltb_spec (length r) out) as [L|L]; [|left; split; [reflexivity|cbn; lia]].
    specialize (IH (r ++ [product_term (a, b)]) (fun lr H => Hp lr (or_intror H))). unfold product_term at 1 in IH. cbn [fst snd] in IH.
    destruct (multiply_loop out pairs _) as [q|e|]; [| |exact IH].
    + destruct IH as (-> & B & C). rewrite <- app_assoc. cbn [app map]. split; [reflexivity|]. rewrite app_length in B. cbn [length] in *.
      split; [right; destruct B as [->|B]; cbn; lia|]. intros lr [<-|H]; [|auto]. intros [i Hi]. cbn [fst snd] in Hi. specialize (S i). lia.
    + rewrite app_length in IH. cbn [length] in *. destruct IH as [[-> B]|[-> (lr & I & O)]]; [left; split; [reflexivity|lia]|right; split; [reflexivity|]].
      exists lr. split; [right; exact I|exact O].
Qed.
Lemma monomial_add : forall xs a b, length a = length b -> monomial xs (map (fun ab => (fst ab + snd ab)%N) (combine a b)) = monomial xs a * monomial xs b.
Proof.
  induction xs as [|x xs IH]; intros [|u a] [|v b] Hl; cbn [length] in Hl; try lia; cbn [combine map monomial fst snd]; try ring.
  rewrite IH by lia. rewrite N2Nat.inj_add, pow_add. ring.
Qed.
Lemma wsum_prod xs n : forall p q, names n p -> names n q ->
  wsum (monomial xs) (map product_term (list_prod p q)) = wsum (monomial xs) p * wsum (monomial xs) q.
Proof.
  induction p as [|t p IH]; intros q Hp Hq; cbn [list_prod map wsum]; [ring|].
  rewrite map_app, wsum_app, IH; auto; [|intros ? ?; apply Hp; right; assumption].
  assert (E : wsum (monomial xs) (map product_term (map (fun y => (t, y)) q)) = coefficient t * monomial xs (exponents t) * wsum (monomial xs) q).
  { clear IH. induction q as [|s q IHq]; cbn [map wsum]; [ring|]. rewrite IHq by (intros ? ?; apply Hq; right; assumption).
    unfold product_term at 1. cbn [coefficient exponents fst snd]. unfold product_term. cbn [coefficient exponents fst snd].
    rewrite monomial_add by (rewrite (Hp t (or_introl eq_refl)), (Hq s (or_introl eq_refl)); reflexivity). ring. }
  rewrite E. ring.
Qed.

(** The product has the product's value at every point; the only refusals are too many pairs of terms for [out], and a
    power that a 32-bit word cannot hold. *)
Theorem C55_multiply_into : forall (out n : nat) (p q : list (Term R)), names n p -> names n q ->
  match mp_multiply_into out p q with
  | Ok r => (length p * length q <= out)%nat /\ forall xs, sum_of_terms r xs = sum_of_terms p xs * sum_of_terms q xs
  | Err PoCapacityExceeded => (out < length p * length q)%nat
  | Err PoDegreeOverflow => exists s t i, In s p /\ In t q /\ (u32_max < nth i (exponents s) 0 + nth i (exponents t) 0)%N
  | _ => False
  end.
Proof.
  intros out n p q Hp Hq. unfold mp_multiply_into.
  pose proof (multiply_loop_spec out n (list_prod p q) []) as S. destruct (multiply_loop out (list_prod p q) []) as [r|e|].
  - destruct S as (-> & B & _). { intros [a b] H. apply in_prod_iff in H. split; [apply Hp|apply Hq]; apply H. }
    split.
    + rewrite <- prod_length. destruct B as [->|B]; cbn in *; lia.
    + intros xs. destruct (collect_spec (map product_term (list_prod p q))) as (W & _). cbn [app]. rewrite !sum_of_terms_wsum, W. apply (wsum_prod xs n); auto.
  - destruct S as [[-> B]|[-> ([a b] & I & [i O])]].
    { intros [a b] H. apply in_prod_iff in H. split; [apply Hp|apply Hq]; apply H. }
    + cbn in B. rewrite prod_length in B. exact B.
    + apply in_prod_iff in I. exists a, b, i. repeat split; try apply I. exact O.
  - apply S. intros [a b] H. apply in_prod_iff in H. split; [apply Hp|apply Hq]; apply H.
Qed.

(** [partial_derivative] is the true partial derivative; it keeps every power within the bound it had, so [evaluate]
    gives these values. *)
Theorem C55_partial_derivative : forall (n max_terms v : nat) (p : list (Term R)), names n p -> (length p <= max_terms)%nat ->
  match mp_partial_derivative n max_terms p v with
  | Ok q => (v < n)%nat /\ (length q <= length p)%nat /\ names n q /\ (forall most, powers_up_to most p -> powers_up_to most q) /\
      forall xs, length xs = n -> is_derive (fun t => sum_of_terms p (set_nth xs v t)) (nth v xs 0) (sum_of_terms q xs)
  | Err e => e = PoVariableOutOfRange /\ (n <= v)%nat
  | Panic => False
  end.
Proof.
  intros n mx v p Hn Hl. unfold mp_partial_derivative. destruct (Nat.leb_spec n v) as [L|L]; [auto|].
  destruct (derivative_term_shape n v p Hn) as (A & B & C). rewrite push_all_nil.
  destruct (Nat.leb_spec (length (flat_map (derivative_term v) p)) mx); [|lia]. split; [exact L|]. split; [exact B|]. split; [exact A|]. split; [exact C|].
  intros xs Hx. apply (derive_terms n); auto.
Qed.
Theorem C55_gradient_at : forall (n : nat) (p : list (Term R)) (xs : list R), names n p -> length xs = n -> powers_up_to i32_max p ->
  length (mp_gradient_at n p xs) = n /\
  forall v, (v < n)%nat -> is_derive (fun t => mp_evaluate p (set_nth xs v t)) (nth v xs 0) (nth v (mp_gradient_at n p xs) 0).
Proof.
  intros n p xs Hn Hx Hs. destruct (gradient_R n xs p Hx Hn) as [A B]. split; [exact A|]. intros v Hv. rewrite (B v Hv).
  destruct (derivative_term_shape n v p Hn) as (_ & _ & C). rewrite (evaluate_small (flat_map _ _)) by (apply C, Hs).
  apply (is_derive_ext (fun t => sum_of_terms p (set_nth xs v t))); [intros t; symmetry; apply evaluate_small, Hs|]. apply (derive_terms n); auto.
Qed.

(** [partial_antiderivative] differentiates back and is zero where the variable is. *)
Definition anti_term (v : nat) (t : Term R) : Term R :=
  {| coefficient := coefficient t / IZR (Z.of_N (nth v (exponents t) 0%N + 1)); exponents := set_nth (exponents t) v (nth v (exponents t) 0 + 1)%N |}.
Lemma antiderivative_loop_R mx v : forall p r, (length r + length p <= mx)%nat ->
  ((forall t, In t p -> (nth v (exponents t) 0 < u32_max)%N) -> antiderivative_loop mx v p r = Ok (r ++ map (anti_term v) p)) /\
  ((exists t, In t p /\ (u32_max <= nth v (exponents t) 0)%N) -> antiderivative_loop mx v p r = Err PoDegreeOverflow).
Proof.
  induction p as [|t p IH]; intros r Hl; cbn [antiderivative_loop length] in *; split.
  - intros _. rewrite app_nil_r. reflexivity.
  - intros (t & [] & _).
  - intros H. unfold u32_checked_add. pose proof (H t (or_introl eq_refl)). destruct (N.leb_spec (nth v (exponents t) 0 + 1) u32_max)%N; [|lia].
    unfold mp_push. rnum. cbn [negb]. destruct (Nat.ltb_spec (length r) mx); [|lia].
    destruct (IH (r ++ [anti_term v t])) as [A _]; [rewrite app_length; cbn; lia|]. unfold anti_term at 1 in A. etransitivity; [apply A|].
    + intros; apply H; right; assumption.
    + rewrite <- app_assoc. reflexivity.
  - intros (s & [->|Hs] & Hb); unfold u32_checked_add.
    + destruct (N.leb_spec (nth v (exponents s) 0 + 1) u32_max)%N; [lia|reflexivity].
    + destruct (N.leb_spec (nth v (exponents t) 0 + 1) u32_max)%N; [|reflexivity].
      unfold mp_push. rnum. cbn [negb]. destruct (Nat.ltb_spec (length r) mx); [|lia].
      destruct (IH (r ++ [anti_term v t])) as [_ A]; [rewrite app_length; cbn; lia|]. apply A. exists s. auto.
Qed.
Lemma set_nth_twice {A} : forall (l : list A) i a b, set_nth (set_nth l i a) i b = set_nth l i b.
Proof. induction l as [|x l IH]; intros [|i] a b; cbn; congruence. Qed.
Lemma set_nth_same {A} : forall (l : list A) i d, set_nth l i (nth i l d) = l.
Proof. induction l as [|x l IH]; intros [|i] d; cbn; try reflexivity. rewrite IH. reflexivity. Qed.
Lemma anti_back n v xs p : (v < n)%nat -> names n p -> sum_of_terms (flat_map (derivative_term v) (map (anti_term v) p)) xs = sum_of_terms p xs.
Proof.
  intros Hv. induction p as [|t p IH]; intros Hn; cbn [map flat_map]; [reflexivity|].
  rewrite sum_of_terms_wsum, wsum_app, <- !sum_of_terms_wsum, IH by (intros ? ?; apply Hn; right; assumption). cbn [sum_of_terms]. f_equal.
  pose proof (Hn t (or_introl eq_refl)) as Ht. unfold derivative_term, anti_term. cbn [coefficient exponents].
  rewrite nth_set_nth_eq by lia. destruct (N.eqb_spec (nth v (exponents t) 0 + 1) 0)%N; [lia|].
  cbn [sum_of_terms coefficient exponents]. rewrite set_nth_twice, N.add_sub, set_nth_same. rnum.
  assert (IZR (Z.of_N (nth v (exponents t) 0%N + 1)) <> 0) by (apply IZR_neq; lia). field. assumption.
Qed.
Theorem C55_partial_antiderivative : forall (n max_terms v : nat) (p : list (Term R)), names n p -> (length p <= max_terms)%nat ->
  match mp_partial_antiderivative n max_terms p v with
  | Ok q => (v < n)%nat /\ length q = length p /\ names n q /\ (forall most, powers_up_to most p -> powers_up_to (most + 1) q) /\
      (forall xs, length xs = n -> is_derive (fun t => sum_of_terms q (set_nth xs v t)) (nth v xs 0) (sum_of_terms p xs)) /\
      (forall xs, length xs = n -> nth v xs 0 = 0 -> sum_of_terms q xs = 0)
  | Err PoVariableOutOfRange => (n <= v)%nat
  | Err PoDegreeOverflow => exists t, In t p /\ (u32_max <= nth v (exponents t) 0)%N
  | _ => False
  end.
Proof.
  intros n mx v p Hn Hl. unfold mp_partial_antiderivative. destruct (Nat.leb_spec n v) as [L|L]; [exact L|].
  destruct (antiderivative_loop_R mx v p [] Hl) as [A B].
  destruct (existsb (fun t => N.leb u32_max (nth v (exponents t) 0%N)) p) eqn:E.
  - apply existsb_exists in E. destruct E as (t & Ht & E). apply N.leb_le in E. rewrite B by (exists t; auto). exists t. auto.
  - rewrite A.
    + cbn [app].
      assert (Na : names n (map (anti_term v) p)).
      { intros t Ht. apply in_map_iff in Ht. destruct Ht as (s & <- & Hs). cbn. rewrite set_nth_length. apply Hn, Hs. }
      split; [exact L|]. split; [apply map_length|]. split; [exact Na|]. split; [|split].
      * intros most Hm t e Ht He. apply in_map_iff in Ht. destruct Ht as (s & <- & Hs). cbn in He. apply in_set_nth in He.
        destruct He as [->|He]; [|pose proof (Hm s e Hs He); lia].
        pose proof (Hm s (nth v (exponents s) 0%N) Hs (nth_In _ _ ltac:(rewrite (Hn s Hs); exact L))). lia.
      * intros xs Hx. rewrite <- (anti_back n v xs p L Hn). apply (derive_terms n); auto.
      * intros xs Hx H0. clear -Hn Hx H0 L. induction p as [|t p IH]; cbn [map sum_of_terms]; [reflexivity|].
        rewrite IH by (intros ? ?; apply Hn; right; assumption). pose proof (Hn t (or_introl eq_refl)) as Ht.
        unfold anti_term at 2. cbn [exponents]. rewrite mono_set_e by lia. rewrite H0, N2Nat.inj_add, pow_add. change (N.to_nat 1) with 1%nat. ring.
    + intros t Ht. destruct (N.leb_spec u32_max (nth v (exponents t) 0%N)) as [X|X]; [|exact X].
      assert (existsb (fun t => N.leb u32_max (nth v (exponents t) 0%N)) p = true) by (apply existsb_exists; exists t; split; [exact Ht|apply N.leb_le; exact X]). congruence.
Qed.

(** [substitute] fixes the variable: the result's value no longer depends on that slot. *)
Theorem C55_substitute : forall (n max_terms v : nat) (value : R) (p : list (Term R)), names n p -> (length p <= max_terms)%nat ->
  match mp_substitute n max_terms p v value with
  | Ok q => (v < n)%nat /\ (length q <= length p)%nat /\ (forall t, In t q -> nth v (exponents t) 0%N = 0%N) /\
      forall xs, length xs = n -> mp_evaluate q xs = mp_evaluate p (set_nth xs v value)
  | Err e => e = PoVariableOutOfRange /\ (n <= v)%nat
  | Panic => False
  end.
Proof.
  intros n mx v value p Hn Hl. unfold mp_substitute. destruct (Nat.leb_spec n v) as [L|L]; [auto|].
  rewrite push_all_nil, map_length. destruct (Nat.leb_spec (length p) mx); [|lia].
  destruct (collect_spec (map (substitute_term v value) p)) as (W & N & Le & C). rewrite map_length in Le. repeat split; auto.
  - intros t Ht. destruct (C t Ht) as [_ I]. rewrite map_map in I. apply in_map_iff in I. destruct I as (s & <- & Hs). cbn. apply nth_set_nth_eq. rewrite (Hn s Hs). exact L.
  - intros xs Hx. rewrite !evaluate_wsum, W. clear -Hn L Hx. induction p as [|t p IH]; cbn [map wsum]; [reflexivity|].
    rewrite IH by (intros ? ?; apply Hn; right; assumption). pose proof (Hn t (or_introl eq_refl)) as Ht. f_equal.
    unfold substitute_term. cbn [coefficient exponents]. rewrite rmono_set_x by lia. rnum. ring.
Qed.

(** The univariate conversions *)
Lemma to_univariate_loop_R x : forall p c, names 1 p ->
  match @to_univariate_loop R Rnum p c with
  | Ok r => length r = length c /\ peval r x = peval c x + sum_of_terms p [x] /\ (forall t, In t p -> (N.to_nat (nth 0 (exponents t) 0%N) < length c)%nat)
  | Err e => e = PoDegreeOverflow /\ exists t, In t p /\ (length c <= N.to_nat (nth 0 (exponents t) 0%N))%nat
  | Panic => False
  end.
Proof.
  induction p as [|t p IH]; intros c Hn; cbn [to_univariate_loop].
  - repeat split; [cbn; ring|intros ? []].
  - set (k := N.to_nat (nth 0 (exponents t) 0%N)). destruct (nth_error c k) as [slot|] eqn:E.
    + assert (Hk : (k < length c)%nat) by (apply nth_error_Some; congruence).
      specialize (IH (set_nth c k (slot + coefficient t)%num) (fun t' H => Hn t' (or_intror H))). rewrite set_nth_length in IH.
      destruct (to_univariate_loop p _) as [r|e|]; [| |exact IH].
      * destruct IH as (A & B & C). split; [exact A|]. split.
        { rewrite B, peval_set_nth by exact Hk. cbn [sum_of_terms]. rnum.  rewrite (nth_error_nth c k 0 E).
          pose proof (Hn t (or_introl eq_refl)) as Ht. unfold k. destruct (exponents t) as [|e [|? ?]]; cbn [length] in Ht; try lia. cbn [nth monomial]. ring. }
        intros t' [<-|H]; [exact Hk|apply C, H].
      * destruct IH as (A & t' & I & O). split; [exact A|]. exists t'. split; [right; exact I|exact O].
    + apply nth_error_None in E. split; [reflexivity|]. exists t. split; [left; reflexivity|exact E].
Qed.
Theorem C55_to_univariate : forall (size : nat) (p : list (Term R)), names 1 p ->
  match mp_to_univariate size p with
  | Ok c => length c = size /\ forall x, value_at c x = sum_of_terms p [x]
  | Err e => e = PoDegreeOverflow /\ exists t, In t p /\ (size <= N.to_nat (nth 0 (exponents t) 0%N))%nat
  | Panic => False
  end.
Proof.
  intros size p Hn. unfold mp_to_univariate. pose proof (fun x => to_univariate_loop_R x p (repeat 0 size) Hn) as H.
  rewrite repeat_length in H. rnum. destruct (to_univariate_loop p (repeat 0 size)) as [c|e|].
  - split; [apply (H 0)|]. intros x. destruct (H x) as (_ & B & _). rewrite value_at_peval, B, peval_repeat0. ring.
  - exact (H 0).
  - exact (H 0).
Qed.
Lemma from_univariate_loop_R mx x : forall c power r, (N.of_nat (power + length c) <= u32_max + 1)%N -> (length r <= mx)%nat ->
  let nonzero := length (filter (fun a => negb (Reqb a 0)) c) in
  match @from_univariate_loop R Rnum mx power c r with
  | Ok p => (length p = length r + nonzero)%nat /\ (length p <= mx)%nat /\ (names 1 r -> names 1 p) /\ sum_of_terms p [x] = sum_of_terms r [x] + x ^ power * peval c x
      /\ (forall most, powers_up_to most r -> (N.of_nat (power + length c) <= most + 1)%N -> powers_up_to most p)
  | Err e => e = PoCapacityExceeded /\ (mx < length r + nonzero)%nat
  | Panic => False
  end.
Proof.
  induction c as [|a c IH]; intros power r Hp Hr nonzero; cbn [from_univariate_loop].
  - unfold nonzero. cbn. rewrite Nat.add_0_r. repeat split; auto. ring.
  - unfold nonzero. cbn [filter length] in *. rnum. destruct (Reqb a 0) eqn:E; cbn [negb length].
    + apply Reqb_true in E. specialize (IH (S power) r ltac:(replace (S power + length c)%nat with (power + S (length c))%nat by lia; exact Hp) Hr). cbn zeta in IH.
      destruct (from_univariate_loop mx (S power) c r) as [p|e|]; [|exact IH|exact IH].
      destruct IH as (A & B & C & D & F). repeat split; auto.
      * rewrite D. cbn [peval pow]. rewrite E. ring.
      * intros most Hm Hmost. apply F; [exact Hm|]. replace (S power + length c)%nat with (power + S (length c))%nat by lia. exact Hmost.
    + destruct (N.ltb_spec u32_max (N.of_nat power)) as [L|L]; [lia|]. unfold mp_push. rnum. cbn [negb].
      destruct (Nat.ltb_spec (length r) mx) as [L'|L']; [|split; [reflexivity|lia]].
      set (t := {| coefficient := a; exponents := [N.of_nat power] |}).
      specialize (IH (S power) (r ++ [t]) ltac:(replace (S power + length c)%nat with (power + S (length c))%nat by lia; exact Hp) ltac:(rewrite app_length; cbn; lia)). cbn zeta in IH.
      rewrite app_length in IH. cbn [length] in IH.
      destruct (from_univariate_loop mx (S power) c (r ++ [t])) as [p|e|]; [| |exact IH].
      * destruct IH as (A & B & C & D & F). repeat split; [lia|lia| | |].
        { intros Hn. apply C. intros t' H. apply in_app_iff in H. destruct H as [H|[<-|[]]]; [apply Hn, H|reflexivity]. }
        { rewrite D, !sum_of_terms_wsum, wsum_app, <- sum_of_terms_wsum. cbn [wsum coefficient exponents t monomial peval pow]. rewrite Nat2N.id. ring. }
        { intros most Hm Hmost. apply F; [|replace (S power + length c)%nat with (power + S (length c))%nat by lia; exact Hmost].
          intros t' e H He. apply in_app_iff in H. destruct H as [H|[<-|[]]]; [exact (Hm t' e H He)|]. destruct He as [<-|[]]. lia. }
      * destruct IH as [-> B]. split; [reflexivity|lia].
Qed.
Theorem C55_from_univariate : forall (max_terms : nat) (c : list R), (N.of_nat (length c) <= u32_max + 1)%N ->
  match mp_from_univariate max_terms c with
  | Ok p => names 1 p /\ (forall x, sum_of_terms p [x] = value_at c x) /\ (forall most, (N.of_nat (length c) <= most + 1)%N -> powers_up_to most p)
  | Err e => e = PoCapacityExceeded /\ (max_terms < length (filter (fun a => negb (Reqb a 0)) c))%nat
  | Panic => False
  end.
Proof.
  intros mx c Hc. unfold mp_from_univariate. pose proof (fun x => from_univariate_loop_R mx x c 0 [] Hc (Nat.le_0_l _)) as H. cbn zeta in H.
  destruct (from_univariate_loop mx 0 c []) as [p|e|].
  - repeat split.
    + apply (H 0). intros t [].
    + intros x. destruct (H x) as (_ & _ & _ & D & _). rewrite D, value_at_peval. cbn. ring.
    + intros most Hm. apply (H 0); [intros ? ? []|exact Hm].
  - exact (H 0).
  - exact (H 0).
Qed.

(** The two degree questions. *)
Theorem C55_degree_in : forall (n v : nat) (p : list (Term R)),
  match mp_degree_in n p v with
  | None => (n <= v)%nat \/ p = []
  | Some d => (v < n)%nat /\ (forall t, In t p -> (nth v (exponents t) 0 <= d)%N) /\ exists t, In t p /\ nth v (exponents t) 0%N = d
  end.
Proof.
  intros n v p. unfold mp_degree_in. destruct (Nat.leb_spec n v); cbn [orb]; [auto|]. destruct (Nat.eqb_spec (length p) 0) as [E|E].
  - right. destruct p; [reflexivity|discriminate].
  - split; [assumption|].
    assert (G : forall q a, let d := fold_left (fun l (t : Term R) => N.max l (nth v (exponents t) 0%N)) q a in
      (a <= d)%N /\ (forall t, In t q -> (nth v (exponents t) 0 <= d)%N) /\ (d = a \/ exists t, In t q /\ nth v (exponents t) 0%N = d)).
    { induction q as [|t q IH]; intros a d; [unfold d; cbn; repeat split; auto; [lia|intros ? []]|].
      unfold d. cbn [fold_left]. destruct (IH (N.max a (nth v (exponents t) 0%N))) as (A & B & C). repeat split.
      - lia.
      - intros t' [<-|H']; [lia|apply B, H'].
      - destruct C as [C|(t' & I & C)].
        + rewrite C. destruct (N.max_spec a (nth v (exponents t) 0%N)) as [[_ M]|[_ M]]; rewrite M; [right; exists t; split; [left; reflexivity|reflexivity]|left; reflexivity].
        + right. exists t'. split; [right; exact I|exact C]. }
    destruct (G p 0%N) as (A & B & C). split; [exact B|]. destruct C as [C|C]; [|exact C].
    destruct p as [|t p]; [cbn in E; lia|]. exists t. split; [left; reflexivity|]. pose proof (B t (or_introl eq_refl)). rewrite C in *. lia.
Qed.
Definition total_power (es : list N) : N := fold_right N.add 0%N es.
Theorem C55_total_degree : forall p : list (Term R),
  match mp_total_degree p with
  | None => p = []
  | Some d => (forall t, In t p -> (N.min (total_power (exponents t)) u32_max <= d)%N) /\
      exists t, In t p /\ N.min (total_power (exponents t)) u32_max = d
  end.
Proof.
  intros p. unfold mp_total_degree.
  assert (S : forall es a, fold_left u32_saturating_add es (N.min a u32_max) = N.min (a + total_power es) u32_max).
  { unfold u32_saturating_add, total_power. induction es as [|e es IH]; intros a; cbn [fold_left fold_right]; [f_equal; lia|].
    replace (N.min (N.min a u32_max + e) u32_max) with (N.min (a + e) u32_max) by lia. rewrite IH. f_equal. lia. }
  assert (S0 : forall es, fold_left u32_saturating_add es 0%N = N.min (total_power es) u32_max) by (intros es; exact (S es 0%N)).
  set (step := fun largest (t : Term R) => _).
  assert (G : forall q a, match fold_left step q (Some a) with
     | None => False
     | Some d => (a <= d)%N /\ (forall t, In t q -> (N.min (total_power (exponents t)) u32_max <= d)%N) /\
        (d = a \/ exists t, In t q /\ N.min (total_power (exponents t)) u32_max = d) end).
  { induction q as [|t q IH]; intros a; cbn [fold_left]; [repeat split; auto; [lia|intros ? []]|].
    unfold step at 2. specialize (IH (N.max a (N.min (total_power (exponents t)) u32_max))).
    rewrite S0.
    destruct (fold_left step q _) as [d|]; [|exact IH]. destruct IH as (A & B & C). repeat split.
    - lia.
    - intros t' [<-|H']; [lia|apply B, H'].
    - destruct C as [C|(t' & I & C)]; [|right; exists t'; split; [right; exact I|exact C]].
      destruct (N.max_spec a (N.min (total_power (exponents t)) u32_max)) as [[_ M]|[_ M]]; rewrite M in C; [right; exists t; split; [left; reflexivity|symmetry; exact C]|left; exact C]. }
  destruct p as [|t p]; [reflexivity|]. cbn [fold_left]. unfold step at 2.
  rewrite S0.
  specialize (G p (N.min (total_power (exponents t)) u32_max)). destruct (fold_left step p _) as [d|]; [|destruct G]. destruct G as (A & B & C). split.
  - intros t' [<-|H']; [exact A|apply B, H'].
  - destruct C as [C|(t' & I & C)]; [exists t; split; [left; reflexivity|symmetry; exact C]|exists t'; split; [right; exact I|exact C]].
Qed.

(** 3x^2y + 2xy - 1 *)
Definition demo_terms : list (Term R) :=
  [{| coefficient := 3; exponents := [2%N; 1%N] |}; {| coefficient := 2; exponents := [1%N; 1%N] |}; {| coefficient := -1; exponents := [0%N; 0%N] |}].
Example C55_example : names 2 demo_terms /\ powers_up_to i32_max demo_terms /\ mp_evaluate demo_terms [2; 3] = 47 /\
  mp_gradient_at 2 demo_terms [2; 3] = [42; 16] /\
  mp_total_degree demo_terms = Some 3%N /\ mp_degree_in 2 demo_terms 0 = Some 2%N.
Proof.
  assert (Hn : names 2 demo_terms) by (intros t [<-|[<-|[<-|[]]]]; reflexivity).
  assert (Hp : powers_up_to i32_max demo_terms) by (intros t e [<-|[<-|[<-|[]]]] [<-|[<-|[]]]; unfold i32_max; lia).
  split; [exact Hn|]. split; [exact Hp|]. split; [rewrite C55_evaluate by exact Hp; unfold demo_terms; cbn [sum_of_terms monomial coefficient exponents]; change (N.to_nat 2) with 2%nat; change (N.to_nat 1) with 1%nat; change (N.to_nat 0) with 0%nat; ring|].
  split; [|split; reflexivity]. cbn. rnum. rlist.
Qed.

(** ** C56 *)
(** Up to i32::MAX the stored exponent is the one used... *)
Theorem C56_exponent_partial : forall (c x : R) (e : N), (e <= i32_max)%N ->
  mp_evaluate [{| coefficient := c; exponents := [e] |}] [x] = c * x ^ N.to_nat e.
Proof.
  intros c x e He. rewrite C55_evaluate; [cbn; ring|]. intros t e' [<-|[]] [<-|[]]. exact He.
Qed.
(** ... above it, i32::MAX is used instead: x^(2^31) at -1 reads as -1. *)
Theorem C56_exponent_refuted : exists (c x : R) (e : N), (e <= u32_max)%N /\
  mp_evaluate [{| coefficient := c; exponents := [e] |}] [x] <> c * x ^ N.to_nat e.
Proof.
  exists 1, (-1), (i32_max + 1)%N. split; [unfold i32_max, u32_max; lia|].
  assert (E : forall n, (-1) ^ N.to_nat (2 * n) = 1).
  { intros n. rewrite N2Nat.inj_mul. change (N.to_nat 2) with 2%nat. rewrite pow_mult. replace ((-1) ^ 2) with 1 by ring. apply pow1. }
  replace (i32_max + 1)%N with (2 * 1073741824)%N by reflexivity. rewrite E. rewrite evaluate_wsum. cbn [wsum coefficient exponents rmono].
  assert (Rz : raise (-1) (2 * 1073741824) = raise (-1) i32_max).
  { unfold raise. replace (N.min (2 * 1073741824) i32_max) with (N.min i32_max i32_max) by reflexivity. reflexivity. }
  rewrite Rz, raise_R by apply N.le_refl.
  replace i32_max with (2 * 1073741823 + 1)%N by reflexivity. rewrite N2Nat.inj_add, pow_add, E. change (N.to_nat 1) with 1%nat. lra.
Qed.
Print Assumptions C55_try_from_terms.
Print Assumptions C55_evaluate.
Print Assumptions C55_collect_like_terms.
Print Assumptions C55_add_into.
Print Assumptions C55_multiply_into.
Print Assumptions C55_partial_derivative.
Print Assumptions C55_gradient_at.
Print Assumptions C55_partial_antiderivative.
Print Assumptions C55_substitute.
Print Assumptions C55_to_univariate.
Print Assumptions C55_from_univariate.
Print Assumptions C55_degree_in.
Print Assumptions C55_total_degree.
Print Assumptions C56_exponent_partial.
Print Assumptions C56_exponent_refuted.
