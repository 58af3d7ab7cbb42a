(** Jets carry Taylor coefficients. *)
From Coq Require Import ZArith List Bool Reals Lra Lia Arith.
From Coquelicot Require Import Coquelicot.
From Flocq Require Import Core.Raux.
From Verif Require Import Base.Scalar Base.RNum Base.Trig Base.Lists Base.Deriv Base.Series Model.Dual Model.Jet
  Spec.Expr Proofs.DiffAlg Proofs.Dual.
Import ListNotations.
Local Open Scope R_scope.

Definition sq (a : list R) (k : nat) : R := nth k a 0.

Lemma accumulate_R (f : nat -> R) n : forall s acc, accumulate (seq s n) f acc = acc + bsum n (fun i => f (s + i)%nat).
Proof.
  induction n; intros s acc; unfold accumulate in *; cbn [seq fold_left]. cbn. lra.
  rewrite IHn, bsum_first, Nat.add_0_r. rnum. rewrite (bsum_ext n _ (fun i => f (s + S i)%nat)) by (intros; f_equal; lia). lra.
Qed.
Lemma deduct_R (f : nat -> R) n : forall s acc, deduct (seq s n) f acc = acc - bsum n (fun i => f (s + i)%nat).
Proof.
  induction n; intros s acc; unfold deduct in *; cbn [seq fold_left]. cbn. lra.
  rewrite IHn, bsum_first, Nat.add_0_r. rnum. rewrite (bsum_ext n _ (fun i => f (s + S i)%nat)) by (intros; f_equal; lia). lra.
Qed.
Lemma of_nat_R n : @of_nat R Rnum n = INR n.
Proof. unfold of_nat. rnum. rewrite INR_IZR_INZ. reflexivity. Qed.

(** two arrays filled together *)
Section Fill2.
  Context {A : Type} (d : A) (f1 f2 : list A -> list A -> nat -> A).
  Definition causal2 := forall k o w o' w', (0 < k)%nat -> length o = length o' -> length w = length w' -> (k < length o)%nat -> (k < length w)%nat ->
    (forall i, (i < k)%nat -> nth i o d = nth i o' d /\ nth i w d = nth i w' d) ->
    f1 o w k = f1 o' w' k /\ (nth k o d = nth k o' d -> f2 o w k = f2 o' w' k).
  Definition step2 (st : list A * list A) (k : nat) : list A * list A :=
    let o := set_nth (fst st) k (f1 (fst st) (snd st) k) in (o, set_nth (snd st) k (f2 o (snd st) k)).

  Lemma fill2_aux n : forall s o w, (0 < s)%nat -> (s + n <= length o)%nat -> length w = length o -> causal2 ->
    let r := fold_left step2 (seq s n) (o, w) in
    length (fst r) = length o /\ length (snd r) = length o /\
    (forall i, (i < s)%nat -> nth i (fst r) d = nth i o d /\ nth i (snd r) d = nth i w d) /\
    (forall k, (s <= k < s + n)%nat -> nth k (fst r) d = f1 (fst r) (snd r) k /\ nth k (snd r) d = f2 (fst r) (snd r) k).
  Proof.
    induction n as [|n IH]; intros s o w Hs Hl Hw C; cbn [seq fold_left].
    - cbn. repeat split; auto; intros; lia.
    - unfold step2 at 2. cbn [fst snd]. set (o1 := set_nth o s _). set (w1 := set_nth w s _).
      assert (L1 : length o1 = length o) by apply set_nth_length. assert (L2 : length w1 = length o) by (unfold w1; rewrite set_nth_length; auto).
      destruct (IH (S s) o1 w1 ltac:(lia) ltac:(lia) ltac:(lia) C) as (A1 & A2 & P & Q). cbv zeta in *.
      set (r := fold_left step2 _ _) in *. clearbody r.
      assert (P0 : forall i, (i < s)%nat -> nth i (fst r) d = nth i o d /\ nth i (snd r) d = nth i w d).
      { intros i Hi. destruct (P i ltac:(lia)) as [E1 E2]. rewrite E1, E2. unfold o1, w1. rewrite !nth_set_nth_neq by lia. auto. }
      split; [lia|]. split; [lia|]. split; [exact P0|]. intros k Hk. destruct (Nat.eq_dec k s) as [->|Ne]; [|apply Q; lia].
      destruct (P s ltac:(lia)) as [E1 E2].
      assert (F1 : nth s (fst r) d = f1 (fst r) (snd r) s).
      { rewrite E1. unfold o1. rewrite nth_set_nth_eq by lia. apply C; try lia. intros i Hi. destruct (P0 i Hi); auto. }
      split; [exact F1|]. rewrite E2. unfold w1. rewrite nth_set_nth_eq by lia.
      assert (Ce : nth s o1 d = nth s (fst r) d) by (symmetry; exact E1).
      refine (proj2 (C s o1 w (fst r) (snd r) _ _ _ _ _ _) Ce); try lia.
      intros i Hi. destruct (P0 i Hi) as [X1 X2]. rewrite X1, X2. unfold o1. rewrite nth_set_nth_neq by lia. auto.
  Qed.
End Fill2.

Lemma start_length {T} {NT : Num T} N (v : T) : length (start N v) = N.
Proof. unfold start. rewrite set_nth_length, repeat_length. reflexivity. Qed.
Lemma start_0 {T} {NT : Num T} N (v : T) d : (0 < N)%nat -> nth 0 (start N v) d = v.
Proof. intros H. unfold start. apply nth_set_nth_eq. rewrite repeat_length. auto. Qed.

Section JetR.
  Context (N : nat) (HN : (0 < N)%nat).

  (** *** What each operation computes, order by order *)
  Lemma sq_add a b k : (k < N)%nat -> sq (jet_add N a b) k = sq a k + sq b k.
  Proof. intros H. unfold sq, jet_add. rewrite nth_from_fn by auto. reflexivity. Qed.
  Lemma sq_sub a b k : (k < N)%nat -> sq (jet_sub N a b) k = sq a k - sq b k.
  Proof. intros H. unfold sq, jet_sub. rewrite nth_from_fn by auto. reflexivity. Qed.
  Lemma sq_neg a k : (k < N)%nat -> sq (jet_neg N a) k = - sq a k.
  Proof. intros H. unfold sq, jet_neg. rewrite nth_from_fn by auto. reflexivity. Qed.
  Lemma sq_mul a b k : (k < N)%nat -> sq (jet_mul N a b) k = conv (sq a) (sq b) k.
  Proof. intros H. unfold sq, jet_mul. rewrite nth_from_fn by auto. rewrite accumulate_R. unfold conv, sq. rnum. rewrite Rplus_0_l. reflexivity. Qed.
  Definition delta (k : nat) : R := if Nat.eqb k 0 then 1 else 0.
  Lemma sq_cst c k : (k < N)%nat -> sq (jet_constant N c) k = c * delta k.
  Proof.
    intros H. unfold sq, jet_constant, delta. destruct k.
    - rewrite nth_set_nth_eq by (rewrite repeat_length; lia). cbn. ring.
    - rewrite nth_set_nth_neq by lia. rewrite nth_repeat. cbn. rnum. ring.
  Qed.
  Lemma cst_length c : length (jet_constant N c) = N.
  Proof. unfold jet_constant. rewrite set_nth_length, repeat_length. reflexivity. Qed.

  Lemma div_spec a b : sq b 0 <> 0 -> length (jet_div N a b) = N /\ forall k, (k < N)%nat -> conv (sq (jet_div N a b)) (sq b) k = sq a k.
  Proof.
    intros Hb. unfold jet_div.
    assert (C : causal 0 (jet_div_step a b) 0%nat).
    { intros k l l' Hp _ _ E. unfold jet_div_step. rewrite !deduct_R. f_equal. f_equal. apply bsum_ext.
      intros i Hi. cbn [Nat.add]. rnum. rewrite (E i) by lia. reflexivity. }
    destruct (fill_aux 0 (jet_div_step a b) N 0 (repeat 0 N) ltac:(rewrite repeat_length; lia) C) as (L & _ & S).
    rewrite repeat_length in L. change (@repeat R zero N) with (repeat 0 N). set (q := fold_left _ _ _) in *.
    split; [exact L|]. intros k Hk. rewrite conv_last. unfold sq at 3. rewrite S by lia.
    unfold jet_div_step. rewrite deduct_R. rnum. cbn [Nat.add]. unfold sq in *. field. auto.
  Qed.

  Lemma fill_spec (step : list R -> nat -> R) v : causal 0 step 1%nat ->
    let r := fill N step (start N v) in
    length r = N /\ sq r 0 = v /\ forall k, (S k < N)%nat -> sq r (S k) = step r (S k).
  Proof.
    intros C. cbv zeta. split; [|split].
    - apply (fill_length 0); auto. apply start_length.
    - unfold sq. rewrite fill_0; auto. apply start_0; auto. apply start_length.
    - intros k Hk. unfold sq. apply fill_nth; auto. apply start_length. lia.
  Qed.

  (** sums of the shape [sum over 1 <= i < k], as in the code *)
  Lemma mid_sum f k : bsum (S k - 1) (fun i => f (1 + i)%nat) = bsum k (fun i => f (S i)).
  Proof. replace (S k - 1)%nat with k by lia. reflexivity. Qed.

  Lemma exp_spec a : let r := jet_exp N a in
    length r = N /\ sq r 0 = Rtrigo_def.exp (sq a 0) /\ forall k, (S k < N)%nat -> conv (D (sq r)) delta k = conv (D (sq a)) (sq r) k.
  Proof.
    unfold jet_exp. set (step := fun out k => _). 
    assert (C : causal 0 step 1%nat).
    { intros k l l' Hp _ _ E. unfold step. rewrite !accumulate_R. f_equal. f_equal. apply bsum_ext. intros i Hi. rnum. rewrite (E (k - (1 + i))%nat) by lia. reflexivity. }
    destruct (fill_spec step (exp (nth 0 a zero)) C) as (L & Z & S). cbv zeta in *. set (r := fill _ _ _) in *.
    split; [exact L|]. split; [exact Z|]. intros k Hk. unfold delta. rewrite conv_one. unfold D at 1. rewrite S by auto. unfold step.
    rewrite accumulate_R. rewrite of_nat_R. rnum. unfold conv. rewrite Rplus_0_l.
    assert (INR (Datatypes.S k) <> 0) by (apply not_0_INR; lia). field_simplify; auto.
    apply bsum_ext. intros i Hi. rewrite of_nat_R. unfold D, sq. cbn [Nat.add]. replace (Datatypes.S k - Datatypes.S i)%nat with (k - i)%nat by lia. reflexivity.
  Qed.

  Lemma log_like_spec a B denom v : denom <> 0 -> B 0%nat = denom -> (forall i, (0 < i)%nat -> B i = sq a i) ->
    let r := fill N (log_step a denom) (start N v) in
    length r = N /\ sq r 0 = v /\ forall k, (S k < N)%nat -> conv (D (sq r)) B k = D (sq a) k.
  Proof.
    intros Hd B0 Bi.
    assert (C : causal 0 (log_step a denom) 1%nat).
    { intros k l l' Hp _ _ E. unfold log_step. cbv zeta. rewrite !accumulate_R. rnum. f_equal. f_equal. f_equal. f_equal. apply bsum_ext. intros i Hi. rewrite (E (1 + i)%nat) by lia. reflexivity. }
    destruct (fill_spec (log_step a denom) v C) as (L & Z & S). cbv zeta in *. set (r := fill _ _ _) in *.
    split; [exact L|]. split; [exact Z|]. intros k Hk. rewrite conv_last. unfold D at 2 3. rewrite S by auto. unfold log_step.
    rewrite accumulate_R. rewrite of_nat_R. rnum. rewrite Rplus_0_l, B0.
    assert (INR (Datatypes.S k) <> 0) by (apply not_0_INR; lia).
    rewrite (mid_sum (fun i => of_nat i * nth i r 0 * nth (Datatypes.S k - i) a 0)).
    rewrite (bsum_ext k (fun i => D (sq r) i * _) (fun i => of_nat (Datatypes.S i) * nth (Datatypes.S i) r 0 * nth (Datatypes.S k - Datatypes.S i) a 0)).
    { unfold sq. field. auto. }
    intros i Hi. rewrite of_nat_R. unfold D, sq. cbn [Nat.sub]. rewrite Bi by lia. reflexivity.
  Qed.

  Lemma sqrt_spec a : 0 < sq a 0 -> let r := jet_sqrt N a in
    length r = N /\ sq r 0 = R_sqrt.sqrt (sq a 0) /\ forall k, (k < N)%nat -> conv (sq r) (sq r) k = sq a k.
  Proof.
    intros Ha. unfold jet_sqrt. set (step := fun out k => _).
    assert (C : causal 0 step 1%nat).
    { intros k l l' Hp _ _ E. unfold step. cbv zeta. rewrite !accumulate_R. rnum.
      f_equal; [f_equal; f_equal; apply bsum_ext; intros i Hi; rewrite (E (1 + i)%nat), (E (k - (1 + i))%nat) by lia; reflexivity|].
      rewrite (E 0%nat) by lia. reflexivity. }
    destruct (fill_spec step (sqrt (nth 0 a zero)) C) as (L & Z & S). cbv zeta in *. set (r := fill _ _ _) in *.
    split; [exact L|]. split; [exact Z|]. rnum. change (nth 0 a 0) with (sq a 0) in *.
    assert (P : 0 < R_sqrt.sqrt (sq a 0)) by (apply sqrt_lt_R0; auto).
    intros [|k] Hk. { rewrite conv_0, Z. apply sqrt_sqrt. lra. }
    rewrite conv_last, bsum_first, Nat.sub_0_r. rewrite (S k Hk). unfold step. cbv zeta.
    rewrite accumulate_R. rnum. rewrite (mid_sum (fun i => nth i r 0 * nth (Datatypes.S k - i) r 0)). change (nth 0 r 0) with (sq r 0). rewrite Z, Rplus_0_l. unfold sq. field. auto.
    unfold sq in P. lra.
  Qed.

  Lemma fold_step_ext {S} (f g : S -> nat -> S) l : forall s, (forall s k, In k l -> f s k = g s k) -> fold_left f l s = fold_left g l s.
  Proof. induction l; cbn; intros s H; auto. rewrite H by auto. apply IHl. intros; apply H; auto. Qed.

  Lemma cbrt_spec a : sq a 0 <> 0 -> let r := jet_cbrt N a in
    length r = N /\ sq r 0 = Rcbrt (sq a 0) /\ forall k, (k < N)%nat -> conv (sq r) (conv (sq r) (sq r)) k = sq a k.
  Proof.
    intros Ha. unfold jet_cbrt. rnum. change (nth 0 a 0) with (sq a 0). set (u0 := Rcbrt (sq a 0)).
    set (t := u0 * u0 + 2 * (u0 * u0)).
    set (f1 := fun (o w : list R) (k : nat) => (nth k a 0 - accumulate (seq 1 (k - 1)) (fun i => nth i o 0 * nth (k - i) w 0)
      (nth 0 o 0 * accumulate (seq 1 (k - 1)) (fun i => nth i o 0 * nth (k - i) o 0) 0)) / t).
    set (f2 := fun (o w : list R) (k : nat) => accumulate (seq 1 (k - 1)) (fun i => nth i o 0 * nth (k - i) o 0) 0 + 2 * nth 0 o 0 * nth k o 0).
    assert (E : fold_left (cbrt_step a t) (seq 1 (N - 1)) (start N u0, start N (u0 * u0)) =
                fold_left (step2 f1 f2) (seq 1 (N - 1)) (start N u0, start N (u0 * u0))).
    { apply fold_step_ext. intros [o w] k Hk. apply in_seq in Hk. unfold cbrt_step, step2, f1, f2. cbn [fst snd]. rnum.
      f_equal. f_equal. f_equal. rewrite !accumulate_R. f_equal. apply bsum_ext. intros i Hi.
      rewrite !nth_set_nth_neq by lia. reflexivity. }
    rewrite E. clear E.
    assert (C : causal2 0 f1 f2).
    { intros k o w o' w' Hp _ _ _ _ H. unfold f1, f2. rewrite !accumulate_R. split.
      - f_equal. f_equal. destruct (H 0%nat Hp) as [-> _]. f_equal; [f_equal; f_equal|]; apply bsum_ext; intros i Hi;
          destruct (H (1 + i)%nat ltac:(lia)) as [-> _]; destruct (H (k - (1 + i))%nat ltac:(lia)) as [E1 E2]; rewrite ?E1, ?E2; reflexivity.
      - intros ->. destruct (H 0%nat Hp) as [-> _]. f_equal. f_equal. apply bsum_ext; intros i Hi.
          destruct (H (1 + i)%nat ltac:(lia)) as [-> _]; destruct (H (k - (1 + i))%nat ltac:(lia)) as [E1 E2]; rewrite ?E1, ?E2; reflexivity. }
    destruct (fill2_aux 0 f1 f2 (N - 1) 1 (start N u0) (start N (u0 * u0)) ltac:(lia) ltac:(rewrite start_length; lia) ltac:(rewrite !start_length; lia) C)
      as (L1 & L2 & P & Q). cbv zeta in *. set (r := fold_left _ _ _) in *.
    rewrite start_length in L1. destruct (P 0%nat ltac:(lia)) as [Z1 Z2]. rewrite !start_0 in Z1, Z2 by auto.
    split; [exact L1|]. split; [exact Z1|].
    assert (Nu : u0 <> 0) by (apply Rcbrt_neq0; auto).
    assert (Cu : u0 * u0 * u0 = sq a 0) by apply Rcbrt_cube.
    assert (W : forall k, (k < N)%nat -> conv (sq (fst r)) (sq (fst r)) k = sq (snd r) k).
    { intros [|k] Hk. { rewrite conv_0. unfold sq. rewrite Z1, Z2. reflexivity. }
      rewrite conv_last, bsum_first, Nat.sub_0_r. unfold sq. rewrite (proj2 (Q (S k) ltac:(lia))). unfold f2. rewrite accumulate_R.
      rewrite (mid_sum (fun i => nth i (fst r) 0 * nth (S k - i) (fst r) 0)). ring. }
    intros k Hk. rewrite (conv_ext k _ (sq (fst r)) _ (sq (snd r))); [|intros i Hi; reflexivity|intros i Hi; apply W; lia].
    destruct k as [|k]. { rewrite conv_0. unfold sq. rewrite Z1, Z2. unfold sq in Cu. lra. }
    rewrite conv_last, bsum_first, Nat.sub_0_r. unfold sq. rewrite (proj2 (Q (S k) ltac:(lia))).
    unfold f2. rewrite (proj1 (Q (S k) ltac:(lia))). unfold f1. rewrite !accumulate_R.
    rewrite (mid_sum (fun i => nth i (fst r) 0 * nth (S k - i) (fst r) 0)).
    rewrite (mid_sum (fun i => nth i (fst r) 0 * nth (S k - i) (snd r) 0)).
    rewrite Z1, Z2. unfold t. field. repeat split; auto; nra.
  Qed.

  Lemma sin_cos_spec a : let r := jet_sin_cos N a in
    length (fst r) = N /\ length (snd r) = N /\ sq (fst r) 0 = Rtrigo_def.sin (sq a 0) /\ sq (snd r) 0 = Rtrigo_def.cos (sq a 0) /\
    forall k, (S k < N)%nat -> conv (D (sq (fst r))) delta k = conv (D (sq a)) (sq (snd r)) k /\
                             conv (D (sq (snd r))) delta k = - conv (D (sq a)) (sq (fst r)) k.
  Proof.
    unfold jet_sin_cos. rnum. change (nth 0 a 0) with (sq a 0).
    set (f1 := fun (o w : list R) (k : nat) => accumulate (seq 1 k) (fun i => of_nat i * nth i a 0 * nth (k - i) w 0) 0 / of_nat k).
    set (f2 := fun (o w : list R) (k : nat) => - (accumulate (seq 1 k) (fun i => of_nat i * nth i a 0 * nth (k - i) o 0) 0 / of_nat k)).
    set (s0 := Rtrigo_def.sin (sq a 0)). set (c0 := Rtrigo_def.cos (sq a 0)).
    assert (E : fold_left (sin_cos_step a) (seq 1 (N - 1)) (start N s0, start N c0) = fold_left (step2 f1 f2) (seq 1 (N - 1)) (start N s0, start N c0)).
    { apply fold_step_ext. intros [o w] k Hk. apply in_seq in Hk. unfold sin_cos_step, step2, f1, f2. cbn [fst snd]. rnum.
      f_equal. f_equal. f_equal. f_equal. rewrite !accumulate_R. f_equal. apply bsum_ext. intros i Hi.
      rewrite !nth_set_nth_neq by lia. reflexivity. }
    rewrite E. clear E.
    assert (C : causal2 0 f1 f2).
    { intros k o w o' w' Hp _ _ _ _ H. unfold f1, f2. rewrite !accumulate_R. split.
      - f_equal. f_equal. apply bsum_ext; intros i Hi. destruct (H (k - (1 + i))%nat ltac:(lia)) as [E1 E2]; rewrite ?E1, ?E2; reflexivity.
      - intros _. f_equal. f_equal. f_equal. apply bsum_ext; intros i Hi. destruct (H (k - (1 + i))%nat ltac:(lia)) as [E1 E2]; rewrite ?E1, ?E2; reflexivity. }
    destruct (fill2_aux 0 f1 f2 (N - 1) 1 (start N s0) (start N c0) ltac:(lia) ltac:(rewrite start_length; lia) ltac:(rewrite !start_length; lia) C)
      as (L1 & L2 & P & Q). cbv zeta in *. set (r := fold_left _ _ _) in *.
    rewrite start_length in L1, L2. destruct (P 0%nat ltac:(lia)) as [Z1 Z2]. rewrite !start_0 in Z1, Z2 by auto.
    split; [exact L1|]. split; [exact L2|]. split; [exact Z1|]. split; [exact Z2|].
    intros k Hk. assert (Hk0 : INR (S k) <> 0) by (apply not_0_INR; lia). destruct (Q (S k) ltac:(lia)) as [Q1 Q2].
    unfold delta. rewrite !conv_one. unfold D at 1 3. change (sq (fst r) (S k)) with (nth (S k) (fst r) 0). change (sq (snd r) (S k)) with (nth (S k) (snd r) 0). rewrite Q1, Q2. unfold f1, f2. rewrite !accumulate_R, !of_nat_R. unfold conv.
    rewrite !Rplus_0_l. split.
    - rewrite (bsum_ext (S k) (fun i => D (sq a) i * _) (fun i => of_nat (1 + i) * nth (1 + i) a 0 * nth (S k - (1 + i)) (snd r) 0)); [field; auto|].
      intros i Hi. rewrite of_nat_R. reflexivity.
    - rewrite (bsum_ext (S k) (fun i => D (sq a) i * _) (fun i => of_nat (1 + i) * nth (1 + i) a 0 * nth (S k - (1 + i)) (fst r) 0)); [field; auto|].
      intros i Hi. rewrite of_nat_R. reflexivity.
  Qed.

  Lemma atan2_spec y x : sq x 0 * sq x 0 + sq y 0 * sq y 0 <> 0 -> let r := jet_atan2 N y x in
    length r = N /\ sq r 0 = Ratan2 (sq y 0) (sq x 0) /\
    forall k, (S k < N)%nat -> conv (D (sq r)) (fun i => conv (sq x) (sq x) i + conv (sq y) (sq y) i) k =
      conv (sq x) (D (sq y)) k - conv (sq y) (D (sq x)) k.
  Proof.
    intros Hw. unfold jet_atan2. set (w := jet_add N _ _).
    assert (W : forall k, (k < N)%nat -> sq w k = conv (sq x) (sq x) k + conv (sq y) (sq y) k).
    { intros k Hk. unfold w. rewrite sq_add, !sq_mul by auto. reflexivity. }
    assert (W0 : sq w 0 <> 0) by (rewrite W by auto; rewrite !conv_0; auto).
    assert (C : causal 0 (atan2_step y x w) 1%nat).
    { intros k l l' Hp _ _ E. unfold atan2_step. cbv zeta. rewrite !deduct_R. rnum. f_equal. f_equal. apply bsum_ext. intros i Hi. rewrite (E (k - (1 + i))%nat) by lia. reflexivity. }
    destruct (fill_spec (atan2_step y x w) (atan2 (nth 0 y zero) (nth 0 x zero)) C) as (L & Z & S). cbv zeta in *. set (r := fill _ _ _) in *.
    split; [exact L|]. split; [exact Z|]. intros k Hk.
    rewrite (conv_ext k _ (D (sq r)) _ (sq w)); [|intros i Hi; reflexivity|intros i Hi; rewrite W by lia; reflexivity].
    rewrite conv_comm. unfold conv at 1. rewrite bsum_first, Nat.sub_0_r. unfold D at 1. rewrite S by auto. unfold atan2_step. cbv zeta.
    rewrite deduct_R, accumulate_R, !of_nat_R. rnum. rewrite Rplus_0_l.
    assert (Hk0 : INR (Datatypes.S k) <> 0) by (apply not_0_INR; lia).
    rewrite (mid_sum (fun i => nth i w 0 * of_nat (Datatypes.S k - i) * nth (Datatypes.S k - i) r 0)).
    unfold conv. rewrite <- bsum_minus.
    rewrite (bsum_ext (Datatypes.S k) _ (fun i => sq x i * D (sq y) (k - i) - sq y i * D (sq x) (k - i))).
    - rewrite (bsum_ext k (fun i => nth _ w 0 * _ * _) (fun i => sq w (Datatypes.S i) * D (sq r) (k - Datatypes.S i))).
      + unfold sq in *. field. auto.
      + intros i Hi. rewrite of_nat_R. unfold D, sq. replace (Datatypes.S (k - Datatypes.S i)) with (Datatypes.S k - Datatypes.S i)%nat by lia. ring.
    - intros i Hi. rewrite of_nat_R. unfold D, sq. cbn [Nat.add]. replace (Datatypes.S (k - i)) with (Datatypes.S k - i)%nat by lia. ring.
  Qed.

  (** *** Families of jets *)
  Definition jet_rep (f : R -> R) (A : R -> list R) (t : R) : Prop :=
    locally t (fun z => length (A z) = N /\ sq (A z) 0 = f z) /\ tower N (fun z => sq (A z)) t /\ exists Dl, dual_rep f Dl t.

  Lemma jet_rep_val f A t : jet_rep f A t -> locally t (fun z => sq (A z) 0 = f z).
  Proof. intros (H & _). revert H. apply filter_imp. tauto. Qed.
  Lemma jet_rep_here f A t : jet_rep f A t -> sq (A t) 0 = f t.
  Proof. intros H. apply (locally_singleton _ _ (jet_rep_val _ _ _ H)). Qed.
  Lemma jet_rep_cont f A t : jet_rep f A t -> continuous f t.
  Proof. intros (_ & _ & Dl & H). eapply dual_rep_cont. exact H. Qed.

  Lemma tower_ext (A B : R -> nat -> R) t : tower N A t -> locally t (fun z => forall k, (k < N)%nat -> A z k = B z k) -> tower N B t.
  Proof.
    intros H L k Hk. pose proof (locally_singleton _ _ L) as E. cbv beta in E. unfold D. rewrite <- E by auto.
    apply (is_derive_ext_loc (fun z => A z k)); [|apply H; auto]. revert L. apply filter_imp. intros z Z. apply Z. lia.
  Qed.

  Lemma D_minus a b k : D (fun j => a j - b j) k = D a k - D b k.
  Proof. unfold D. ring. Qed.
  Lemma D_opp a k : D (fun j => - a j) k = - D a k.
  Proof. unfold D. ring. Qed.
  Lemma tower_add A B t : tower N A t -> tower N B t -> tower N (fun z k => A z k + B z k) t.
  Proof.
    intros H K k Hk. eapply is_derive_eq. { apply (is_derive_sum (fun z => A z k) (fun z => B z k)). apply H; auto. apply K; auto. }
    unfold D. ring.
  Qed.
  Lemma tower_scal c A t : tower N A t -> tower N (fun z k => c * A z k) t.
  Proof.
    intros H k Hk. eapply is_derive_eq. { apply (is_derive_prod (fun _ => c) (fun z => A z k)). apply is_derive_cst. apply H; auto. }
    unfold D. ring.
  Qed.
  Lemma tower_cst c t : tower N (fun _ k => c * delta k) t.
  Proof. intros k Hk. eapply is_derive_eq. apply is_derive_cst. unfold D, delta. cbn [Nat.eqb]. ring. Qed.
  Lemma tower_delta t : tower N (fun _ k => delta k) t.
  Proof. intros k Hk. eapply is_derive_eq. apply is_derive_cst. unfold D, delta. cbn [Nat.eqb]. ring. Qed.

  Lemma ode (U B W : R -> nat -> R) (g : R -> R) l t :
    locally t (fun z => forall k, (S k < N)%nat -> conv (D (U z)) (B z) k = W z k) ->
    B t 0%nat <> 0 -> tower N B t ->
    locally t (fun z => U z 0%nat = g z) -> is_derive g t l -> ((1 < N)%nat -> l * B t 0%nat = W t 0%nat) ->
    (forall k, (S (S k) < N)%nat -> (forall j, (j <= k)%nat -> is_derive (fun z => U z j) t (D (U t) j)) ->
       is_derive (fun z => W z k) t (D (W t) k)) ->
    tower N U t.
  Proof.
    intros Rl NB TB U0 G0 E0 HW. refine (tower_ode (I := unit) N (fun _ => U) B (fun _ => W) t _ NB TB _ _ tt).
    - intros _ k Hk. revert Rl. apply filter_imp. intros z Z. apply Z; auto.
    - intros _ H1. apply (is_derive_ext_loc g). { revert U0. apply filter_imp. intros z Z. symmetry. exact Z. }
      eapply is_derive_eq. exact G0.
      pose proof (locally_singleton _ _ Rl 0%nat H1) as E. cbv beta in E. rewrite conv_0 in E.
      apply Rmult_eq_reg_r with (B t 0%nat); auto. rewrite E. auto.
    - intros _ k Hk H. apply HW; auto. exact (H tt).
  Qed.

  (** the slope of a represented function is the coefficient of order one *)
  Lemma jet_rep_slope f A t : jet_rep f A t -> (1 < N)%nat -> is_derive f t (D (sq (A t)) 0).
  Proof.
    intros H H1. apply (is_derive_ext_loc (fun z => sq (A z) 0)). apply jet_rep_val; auto. apply (proj1 (proj2 H)). auto.
  Qed.
  Lemma jet_rep_diff f A t : jet_rep f A t -> exists l, is_derive f t l /\ ((1 < N)%nat -> l = D (sq (A t)) 0).
  Proof.
    intros H. destruct (proj2 (proj2 H)) as [Dl Hd]. exists (deriv (Dl t)). split. apply Hd. intros H1.
    rewrite <- (is_derive_unique _ _ _ (proj2 Hd)). apply is_derive_unique. apply jet_rep_slope; auto.
  Qed.

  Lemma unary_ode (phi : R -> R) d (op : list R -> list R) (B : R -> nat -> R) (W : R -> nat -> R) f A t :
    jet_rep f A t -> (exists Dl, dual_rep (fun z => phi (f z)) Dl t) -> is_derive phi (f t) d ->
    locally t (fun z => length (op (A z)) = N /\ sq (op (A z)) 0 = phi (sq (A z) 0) /\
       forall k, (S k < N)%nat -> conv (D (sq (op (A z)))) (B z) k = W z k) ->
    B t 0%nat <> 0 -> tower N B t -> ((1 < N)%nat -> d * D (sq (A t)) 0 * B t 0%nat = W t 0%nat) ->
    (forall k, (S (S k) < N)%nat -> (forall j, (j <= k)%nat -> is_derive (fun z => sq (op (A z)) j) t (D (sq (op (A t))) j)) ->
       is_derive (fun z => W z k) t (D (W t) k)) ->
    jet_rep (fun z => phi (f z)) (fun z => op (A z)) t.
  Proof.
    intros H Hd Hp L NB TB E0 HW. pose proof (jet_rep_val _ _ _ H) as V. destruct (jet_rep_diff _ _ _ H) as (l & Hl & El). split; [|split]; auto.
    - generalize (filter_and _ _ L V). apply filter_imp. intros z ((Z1 & Z2 & _) & Z3). rewrite Z2, Z3. auto.
    - apply (ode _ B W (fun z => phi (f z)) (d * l)); auto.
      + revert L. apply filter_imp. tauto.
      + generalize (filter_and _ _ L V). apply filter_imp. intros z ((Z1 & Z2 & _) & Z3). rewrite Z2, Z3. auto.
      + apply is_derive_chain; auto.
      + intros H1. rewrite El by auto. apply E0; auto.
  Qed.

  Lemma w_conv (a U : R -> nat -> R) t k : tower N a t -> (S (S k) < N)%nat ->
    (forall j, (j <= k)%nat -> is_derive (fun z => U z j) t (D (U t) j)) ->
    is_derive (fun z => conv (D (a z)) (U z) k) t (D (conv (D (a t)) (U t)) k).
  Proof. intros H Hk HU. apply (tower_conv_k (fun z => D (a z)) U); auto. intros i Hi. apply (tower_D N a); auto. lia. Qed.

  Lemma rep_exp f A t : jet_rep f A t -> jet_rep (fun z => Rtrigo_def.exp (f z)) (fun z => jet_exp N (A z)) t.
  Proof.
    intros H. pose proof (jet_rep_here _ _ _ H) as Eh.
    apply (unary_ode Rtrigo_def.exp (Rtrigo_def.exp (f t)) (jet_exp N) (fun _ => delta) (fun z => conv (D (sq (A z))) (sq (jet_exp N (A z))))); auto.
    - destruct H as (_ & _ & Dl & H). eexists. apply (da_exp _ _ _ _ dual_diffalg _ _ _ H).
    - apply is_derive_exp'.
    - apply filter_forall. intros z. destruct (exp_spec (A z)) as (L & Z & R0). auto.
    - unfold delta. cbn. lra.
    - apply tower_delta.
    - intros _. destruct (exp_spec (A t)) as (L & Z & _). rewrite conv_0, Z, Eh. unfold delta. cbn [Nat.eqb]. ring.
    - intros k Hk HU. apply (w_conv (fun z => sq (A z)) (fun z => sq (jet_exp N (A z)))); auto. apply H.
  Qed.

  Lemma near_pos f A t : jet_rep f A t -> 0 < f t -> locally t (fun z => 0 < sq (A z) 0).
  Proof.
    intros H P. generalize (filter_and _ _ (locally_gt f t 0 (jet_rep_cont _ _ _ H) P) (jet_rep_val _ _ _ H)).
    apply filter_imp. intros z [Z1 Z2]. lra.
  Qed.
  Lemma near_neq f A t c : jet_rep f A t -> f t <> c -> locally t (fun z => sq (A z) 0 <> c).
  Proof.
    intros H P. generalize (filter_and _ _ (locally_neq f t c (jet_rep_cont _ _ _ H) P) (jet_rep_val _ _ _ H)).
    apply filter_imp. intros z [Z1 Z2]. lra.
  Qed.

  Lemma rep_log f A t : jet_rep f A t -> 0 < f t -> jet_rep (fun z => ln (f z)) (fun z => jet_log N (A z)) t.
  Proof.
    intros H P. pose proof (jet_rep_here _ _ _ H) as Eh.
    apply (unary_ode ln (/ f t) (jet_log N) (fun z => sq (A z)) (fun z => D (sq (A z)))); auto.
    - destruct H as (_ & _ & Dl & H). eexists. apply (da_log _ _ _ _ dual_diffalg _ _ _ H P).
    - apply is_derive_ln'; auto.
    - generalize (near_pos _ _ _ H P). apply filter_imp. intros z Z.
      destruct (log_like_spec (A z) (sq (A z)) (sq (A z) 0) (ln (sq (A z) 0)) ltac:(lra) eq_refl ltac:(auto)) as (L & V & R0). auto.
    - lra.
    - apply H.
    - intros _. rewrite Eh. field. lra.
    - intros k Hk _. apply (tower_D N (fun z => sq (A z))); auto. apply H.
  Qed.
  Lemma rep_ln_1p f A t : jet_rep f A t -> -1 < f t -> jet_rep (fun z => ln (1 + f z)) (fun z => jet_ln_1p N (A z)) t.
  Proof.
    intros H P. pose proof (jet_rep_here _ _ _ H) as Eh.
    apply (unary_ode (fun v => ln (1 + v)) (/ (1 + f t)) (jet_ln_1p N) (fun z k => sq (A z) k + delta k) (fun z => D (sq (A z)))); auto.
    - destruct H as (_ & _ & Dl & H). eexists. apply (da_ln_1p _ _ _ _ dual_diffalg _ _ _ H P).
    - eapply is_derive_eq; [apply (is_derive_chain ln (fun v => 1 + v)); [apply is_derive_ln'; lra|]|].
      { apply is_derive_sum; [apply is_derive_cst|apply is_derive_var]. } field. lra.
    - generalize (filter_and _ _ (locally_gt f t (-1) (jet_rep_cont _ _ _ H) P) (jet_rep_val _ _ _ H)). apply filter_imp. intros z [Z1 Z2].
      destruct (log_like_spec (A z) (fun k => sq (A z) k + delta k) (sq (A z) 0 + 1) (ln (1 + sq (A z) 0)) ltac:(lra)) as (L & V & R0).
      + unfold delta. cbn. reflexivity.
      + intros [|i] Hi; [lia|]. unfold delta. cbn. ring.
      + auto.
    - unfold delta. cbn. lra.
    - apply tower_add. apply H. apply tower_delta.
    - intros _. rewrite Eh. unfold delta. cbn [Nat.eqb]. field. lra.
    - intros k Hk _. apply (tower_D N (fun z => sq (A z))); auto. apply H.
  Qed.

  Lemma sqrt_relation (r a : nat -> R) : (forall k, (k < N)%nat -> conv r r k = a k) ->
    forall k, (S k < N)%nat -> conv (D r) (fun i => 2 * a i) k = conv (D a) r k.
  Proof.
    intros H k Hk.
    assert (E : forall j, (j <= k)%nat -> D a j = 2 * conv (D r) r j).
    { intros j Hj. replace (D a j) with (D (conv r r) j) by (unfold D; rewrite H by lia; reflexivity).
      rewrite leibniz, (conv_comm r (D r)). ring. }
    rewrite (conv_ext k (D a) (fun j => 2 * conv (D r) r j) r r); [|exact E|intros i Hi; reflexivity].
    rewrite conv_scal_l, conv_scal_r, conv_assoc. f_equal. apply conv_ext; intros i Hi; auto. symmetry. apply H. lia.
  Qed.
  Lemma cbrt_relation (r a : nat -> R) : (forall k, (k < N)%nat -> conv r (conv r r) k = a k) ->
    forall k, (S k < N)%nat -> conv (D r) (fun i => 3 * a i) k = conv (D a) r k.
  Proof.
    intros H k Hk.
    assert (E : forall j, (j <= k)%nat -> D a j = 3 * conv (D r) (conv r r) j).
    { intros j Hj. replace (D a j) with (D (conv r (conv r r)) j) by (unfold D; rewrite H by lia; reflexivity).
      rewrite leibniz. rewrite (conv_ext j r r (D (conv r r)) (fun i => 2 * conv (D r) r i)).
      - rewrite conv_scal_r, (conv_comm r (conv (D r) r)), conv_assoc. ring.
      - intros i Hi; reflexivity.
      - intros i Hi. rewrite leibniz, (conv_comm r (D r)). ring. }
    rewrite (conv_ext k (D a) (fun j => 3 * conv (D r) (conv r r) j) r r); [|exact E|intros i Hi; reflexivity].
    rewrite conv_scal_l, conv_scal_r, conv_assoc. f_equal. apply conv_ext; intros i Hi; auto. rewrite conv_comm. symmetry. apply H. lia.
  Qed.

  Lemma rep_sqrt f A t : jet_rep f A t -> 0 < f t -> jet_rep (fun z => R_sqrt.sqrt (f z)) (fun z => jet_sqrt N (A z)) t.
  Proof.
    intros H P. pose proof (jet_rep_here _ _ _ H) as Eh. assert (Ps : 0 < R_sqrt.sqrt (f t)) by (apply sqrt_lt_R0; auto).
    apply (unary_ode R_sqrt.sqrt (/ (2 * R_sqrt.sqrt (f t))) (jet_sqrt N) (fun z k => 2 * sq (A z) k) (fun z => conv (D (sq (A z))) (sq (jet_sqrt N (A z))))); auto.
    - destruct H as (_ & _ & Dl & H). eexists. apply (da_sqrt _ _ _ _ dual_diffalg _ _ _ H P).
    - apply is_derive_sqrt'; auto.
    - generalize (near_pos _ _ _ H P). apply filter_imp. intros z Z.
      destruct (sqrt_spec (A z) Z) as (L & V & R0). repeat split; auto. apply sqrt_relation. exact R0.
    - lra.
    - apply tower_scal. apply H.
    - intros _. destruct (sqrt_spec (A t) ltac:(lra)) as (L & Z & _). rewrite conv_0, Z, Eh.
      assert (S : R_sqrt.sqrt (f t) * R_sqrt.sqrt (f t) = f t) by (apply sqrt_sqrt; lra).
      set (q := R_sqrt.sqrt (f t)) in *. rewrite <- S. field. lra.
    - intros k Hk HU. apply (w_conv (fun z => sq (A z)) (fun z => sq (jet_sqrt N (A z)))); auto. apply H.
  Qed.
  Lemma rep_cbrt f A t : jet_rep f A t -> f t <> 0 -> jet_rep (fun z => Rcbrt (f z)) (fun z => jet_cbrt N (A z)) t.
  Proof.
    intros H P. pose proof (jet_rep_here _ _ _ H) as Eh. pose proof (Rcbrt_neq0 _ P) as Ps.
    apply (unary_ode Rcbrt (/ (3 * Rcbrt (f t) * Rcbrt (f t))) (jet_cbrt N) (fun z k => 3 * sq (A z) k) (fun z => conv (D (sq (A z))) (sq (jet_cbrt N (A z))))); auto.
    - destruct H as (_ & _ & Dl & H). eexists. apply (da_cbrt _ _ _ _ dual_diffalg _ _ _ H P).
    - apply is_derive_cbrt; auto.
    - generalize (near_neq _ _ _ _ H P). apply filter_imp. intros z Z.
      destruct (cbrt_spec (A z) Z) as (L & V & R0). repeat split; auto. apply cbrt_relation. exact R0.
    - lra.
    - apply tower_scal. apply H.
    - intros _. destruct (cbrt_spec (A t) ltac:(lra)) as (L & Z & _). rewrite conv_0, Z, Eh.
      pose proof (Rcbrt_cube (f t)) as S. set (q := Rcbrt (f t)) in *. rewrite <- S. field. auto.
    - intros k Hk HU. apply (w_conv (fun z => sq (A z)) (fun z => sq (jet_cbrt N (A z)))); auto. apply H.
  Qed.

  Lemma rep_sin_cos f A t : jet_rep f A t ->
    jet_rep (fun z => Rtrigo_def.sin (f z)) (fun z => jet_sin N (A z)) t /\ jet_rep (fun z => Rtrigo_def.cos (f z)) (fun z => jet_cos N (A z)) t.
  Proof.
    intros H. pose proof (jet_rep_here _ _ _ H) as Eh. pose proof (jet_rep_val _ _ _ H) as V. destruct (jet_rep_diff _ _ _ H) as (l & Hl & El).
    assert (T : forall b : bool, tower N (fun z => sq (if b then jet_sin N (A z) else jet_cos N (A z))) t).
    { apply (tower_ode N (fun (b : bool) z => sq (if b then jet_sin N (A z) else jet_cos N (A z))) (fun _ => delta)
        (fun (b : bool) z => if b then conv (D (sq (A z))) (sq (jet_cos N (A z))) else (fun k => - conv (D (sq (A z))) (sq (jet_sin N (A z))) k))).
      - intros b k Hk. apply filter_forall. intros z. destruct (sin_cos_spec (A z)) as (_ & _ & _ & _ & R0). destruct (R0 k Hk). destruct b; auto.
      - unfold delta. cbn. lra.
      - apply tower_delta.
      - intros b H1. destruct (sin_cos_spec (A t)) as (_ & _ & Z1 & Z2 & R0). destruct (R0 0%nat H1) as [E1 E2]. rewrite !conv_0 in E1, E2. unfold delta in E1, E2. cbn [Nat.eqb] in E1, E2.
        destruct b.
        + apply (is_derive_ext_loc (fun z => Rtrigo_def.sin (f z))).
          * revert V. apply filter_imp. intros z <-. symmetry. apply (sin_cos_spec (A z)).
          * eapply is_derive_eq. apply is_derive_chain. apply is_derive_sin'. exact Hl. rewrite El by auto.
            unfold jet_sin. rewrite Z2, Eh in E1. lra.
        + apply (is_derive_ext_loc (fun z => Rtrigo_def.cos (f z))).
          * revert V. apply filter_imp. intros z <-. symmetry. apply (sin_cos_spec (A z)).
          * eapply is_derive_eq. apply is_derive_chain. apply is_derive_cos'. exact Hl. rewrite El by auto.
            unfold jet_cos. rewrite Z1, Eh in E2. lra.
      - intros b k Hk HU. destruct b.
        + apply (w_conv (fun z => sq (A z)) (fun z => sq (jet_cos N (A z)))); auto. apply H. intros j Hj. apply (HU false); auto.
        + eapply is_derive_eq. { apply is_derive_neg. apply (w_conv (fun z => sq (A z)) (fun z => sq (jet_sin N (A z)))); auto. apply H. intros j Hj. apply (HU true); auto. }
          symmetry. apply D_opp. }
    split; (split; [|split; [first [exact (T true)|exact (T false)]|]]).
    - revert V. apply filter_imp. intros z <-. split; apply (sin_cos_spec (A z)).
    - destruct H as (_ & _ & Dl & H). eexists. apply (da_sin _ _ _ _ dual_diffalg _ _ _ H).
    - revert V. apply filter_imp. intros z <-. split; apply (sin_cos_spec (A z)).
    - destruct H as (_ & _ & Dl & H). eexists. apply (da_cos _ _ _ _ dual_diffalg _ _ _ H).
  Qed.

  Lemma rep_ext f A g C t : jet_rep f A t -> locally t (fun z => f z = g z) -> locally t (fun z => A z = C z) -> jet_rep g C t.
  Proof.
    intros (L & T & Dl & Hd) Hf HA. split; [|split].
    - generalize (filter_and _ _ L (filter_and _ _ Hf HA)). apply filter_imp. intros z ([Z1 Z2] & <- & <-). auto.
    - apply (tower_ext _ _ _ T). revert HA. apply filter_imp. intros z <-. auto.
    - exists Dl. apply (da_ext _ _ _ _ dual_diffalg _ _ _ _ _ Hd); auto. apply filter_forall. auto.
  Qed.

  Lemma rep_cst c t : jet_rep (fun _ => c) (fun _ => jet_constant N c) t.
  Proof.
    split; [|split].
    - apply filter_forall. intros _. split. apply cst_length. rewrite sq_cst by auto. unfold delta. cbn. ring.
    - apply (tower_ext _ _ _ (tower_cst c t)). apply filter_forall. intros z k Hk. symmetry. apply sq_cst; auto.
    - eexists. apply (da_cst _ _ _ _ dual_diffalg).
  Qed.
  Lemma rep_neg f A t : jet_rep f A t -> jet_rep (fun z => - f z) (fun z => jet_neg N (A z)) t.
  Proof.
    intros (L & T & Dl & Hd). split; [|split].
    - revert L. apply filter_imp. intros z [_ <-]. split. apply from_fn_length. rewrite sq_neg by auto. reflexivity.
    - apply (tower_ext _ _ _ (tower_scal (-1) _ _ T)). apply filter_forall. intros z k Hk. rewrite sq_neg by auto. ring.
    - eexists. apply (da_neg _ _ _ _ dual_diffalg _ _ _ Hd).
  Qed.
  Lemma rep_add f A g C t : jet_rep f A t -> jet_rep g C t -> jet_rep (fun z => f z + g z) (fun z => jet_add N (A z) (C z)) t.
  Proof.
    intros (L & T & Dl & Hd) (L' & T' & Dl' & Hd'). split; [|split].
    - generalize (filter_and _ _ L L'). apply filter_imp. intros z [[_ <-] [_ <-]]. split. apply from_fn_length. rewrite sq_add by auto. reflexivity.
    - apply (tower_ext _ _ _ (tower_add _ _ _ T T')). apply filter_forall. intros z k Hk. rewrite sq_add by auto. reflexivity.
    - eexists. apply (da_add _ _ _ _ dual_diffalg _ _ _ _ _ Hd Hd').
  Qed.
  Lemma rep_sub f A g C t : jet_rep f A t -> jet_rep g C t -> jet_rep (fun z => f z - g z) (fun z => jet_sub N (A z) (C z)) t.
  Proof.
    intros (L & T & Dl & Hd) (L' & T' & Dl' & Hd'). split; [|split].
    - generalize (filter_and _ _ L L'). apply filter_imp. intros z [[_ <-] [_ <-]]. split. apply from_fn_length. rewrite sq_sub by auto. reflexivity.
    - apply (tower_ext _ _ _ (tower_add _ _ _ T (tower_scal (-1) _ _ T'))). apply filter_forall. intros z k Hk. rewrite sq_sub by auto. ring.
    - eexists. apply (da_sub _ _ _ _ dual_diffalg _ _ _ _ _ Hd Hd').
  Qed.
  Lemma rep_mul f A g C t : jet_rep f A t -> jet_rep g C t -> jet_rep (fun z => f z * g z) (fun z => jet_mul N (A z) (C z)) t.
  Proof.
    intros (L & T & Dl & Hd) (L' & T' & Dl' & Hd'). split; [|split].
    - generalize (filter_and _ _ L L'). apply filter_imp. intros z [[_ <-] [_ <-]]. split. apply from_fn_length. rewrite sq_mul, conv_0 by auto. reflexivity.
    - apply (tower_ext _ _ _ (tower_conv _ _ _ _ T T')). apply filter_forall. intros z k Hk. rewrite sq_mul by auto. reflexivity.
    - eexists. apply (da_mul _ _ _ _ dual_diffalg _ _ _ _ _ Hd Hd').
  Qed.
  Lemma rep_div f A g C t : jet_rep f A t -> jet_rep g C t -> g t <> 0 -> jet_rep (fun z => f z / g z) (fun z => jet_div N (A z) (C z)) t.
  Proof.
    intros H K P. pose proof (jet_rep_here _ _ _ H) as Eh. pose proof (jet_rep_here _ _ _ K) as Ek.
    pose proof (jet_rep_val _ _ _ H) as V. pose proof (jet_rep_val _ _ _ K) as V'. pose proof (near_neq _ _ _ _ K P) as Nz.
    destruct (jet_rep_diff _ _ _ H) as (l & Hl & El). destruct (jet_rep_diff _ _ _ K) as (l' & Hl' & El').
    assert (Q0 : locally t (fun z => length (jet_div N (A z) (C z)) = N /\ sq (jet_div N (A z) (C z)) 0 = f z / g z)).
    { generalize (filter_and _ _ Nz (filter_and _ _ V V')). apply filter_imp. intros z (Z & <- & <-).
      destruct (div_spec (A z) (C z) Z) as [L S]. split; auto. pose proof (S 0%nat HN) as S0. rewrite conv_0 in S0. rewrite <- S0. field. auto. }
    split; [exact Q0|]. split.
    - apply (ode (fun z => sq (jet_div N (A z) (C z))) (fun z => sq (C z)) (fun z k => D (sq (A z)) k - conv (D (sq (C z))) (sq (jet_div N (A z) (C z))) k) (fun z => f z / g z) ((l * g t - f t * l') / (g t * g t))).
      + revert Nz. apply filter_imp. intros z Z k Hk. destruct (div_spec (A z) (C z) Z) as [_ S].
        replace (D (sq (A z)) k) with (D (conv (sq (jet_div N (A z) (C z))) (sq (C z))) k) by (unfold D; rewrite S by auto; reflexivity).
        rewrite leibniz, (conv_comm (D (sq (C z)))). ring.
      + lra.
      + apply K.
      + revert Q0. apply filter_imp. tauto.
      + eapply is_derive_eq. apply is_derive_quot; eauto. field. auto.
      + intros H1. rewrite El, El', conv_0 by auto. rewrite (proj2 (locally_singleton _ _ Q0)), Ek. field. auto.
      + intros k Hk HU. eapply is_derive_eq. { apply (is_derive_diff (fun z => D (sq (A z)) k)).
          apply (tower_D N (fun z => sq (A z))); auto. apply H.
          apply (w_conv (fun z => sq (C z)) (fun z => sq (jet_div N (A z) (C z)))); auto. apply K. }
        symmetry. apply D_minus.
    - destruct H as (_ & _ & Dl & H), K as (_ & _ & Dl' & K). eexists. apply (da_div _ _ _ _ dual_diffalg _ _ _ _ _ H K P).
  Qed.

  Lemma rep_atan2 f A g C t : jet_rep f A t -> jet_rep g C t -> 0 < g t \/ f t <> 0 ->
    jet_rep (fun z => Ratan2 (f z) (g z)) (fun z => jet_atan2 N (A z) (C z)) t.
  Proof.
    intros H K P. pose proof (jet_rep_here _ _ _ H) as Eh. pose proof (jet_rep_here _ _ _ K) as Ek.
    pose proof (jet_rep_val _ _ _ H) as V. pose proof (jet_rep_val _ _ _ K) as V'.
    destruct (jet_rep_diff _ _ _ H) as (l & Hl & El). destruct (jet_rep_diff _ _ _ K) as (l' & Hl' & El').
    assert (S0 : 0 < g t * g t + f t * f t) by (destruct P; nra).
    assert (Nz : locally t (fun z => sq (C z) 0 * sq (C z) 0 + sq (A z) 0 * sq (A z) 0 <> 0)).
    { assert (Cs : continuous (fun z => g z * g z + f z * f z) t).
      { eapply derive_cont. apply (is_derive_sum (fun q => g q * g q) (fun q => f q * f q)); apply is_derive_prod; eauto. }
      generalize (filter_and _ _ (locally_gt _ _ 0 Cs S0) (filter_and _ _ V V')). apply filter_imp. intros z (Z & -> & ->). lra. }
    set (B := fun z k => conv (sq (C z)) (sq (C z)) k + conv (sq (A z)) (sq (A z)) k).
    assert (B0 : B t 0%nat = g t * g t + f t * f t) by (unfold B; rewrite !conv_0, Eh, Ek; reflexivity).
    split; [|split].
    - generalize (filter_and _ _ Nz (filter_and _ _ V V')). apply filter_imp. intros z (Z & <- & <-). destruct (atan2_spec (A z) (C z) Z) as (L & Z0 & _). auto.
    - apply (ode (fun z => sq (jet_atan2 N (A z) (C z))) B (fun z k => conv (sq (C z)) (D (sq (A z))) k - conv (sq (A z)) (D (sq (C z))) k) (fun z => Ratan2 (f z) (g z))
        (g t / (g t * g t + f t * f t) * l + - f t / (g t * g t + f t * f t) * l')).
      + revert Nz. apply filter_imp. intros z Z k Hk. destruct (atan2_spec (A z) (C z) Z) as (_ & _ & S). apply S; auto.
      + lra.
      + apply tower_add; apply tower_conv; first [apply H|apply K].
      + generalize (filter_and _ _ Nz (filter_and _ _ V V')). apply filter_imp. intros z (Z & <- & <-). apply (atan2_spec (A z) (C z) Z).
      + eapply is_derive_eq. { apply is_derive_atan2; eauto. } field. lra.
      + intros H1. rewrite B0, !conv_0, Eh, Ek, El, El' by auto. field. lra.
      + intros k Hk _. eapply is_derive_eq. { apply (is_derive_diff (fun z => conv (sq (C z)) (D (sq (A z))) k)).
          * apply (tower_conv_k (fun z => sq (C z)) (fun z => D (sq (A z)))). intros; apply K; lia. intros; apply (tower_D N (fun z => sq (A z))). apply H. lia.
          * apply (tower_conv_k (fun z => sq (A z)) (fun z => D (sq (C z)))). intros; apply H; lia. intros; apply (tower_D N (fun z => sq (C z))). apply K. lia. }
        symmetry. apply D_minus.
    - destruct H as (_ & _ & Dl & H), K as (_ & _ & Dl' & K). eexists. apply (da_atan2 _ _ _ _ dual_diffalg _ _ _ _ _ H K P).
  Qed.
End JetR.
