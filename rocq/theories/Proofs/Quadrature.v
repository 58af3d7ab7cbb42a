(** The tabulated quadratures against the moments they are for, in integer interval arithmetic. *)
From Coq Require Import Reals ZArith List Arith Bool Lia Lra Psatz Machin Ratan.
From Coquelicot Require Import Coquelicot.
From Verif Require Import Base.Scalar Base.RNum Base.Lists Base.Series Model.Errors Model.GaussTables Model.Integration Spec.Integration Proofs.Gaussian.
Import ListNotations.
Local Open Scope R_scope.
Local Notation sqrt := R_sqrt.sqrt.

(** The sum a table makes of a function *)
Fixpoint gsum (table : list (decimal * decimal)) (f : R -> R) : R :=
  match table with [] => 0 | (w, x) :: table => literal w * f (literal x) + gsum table f end.

(** [v] times [2^s] lies between the two integers. *)
Definition within (s : Z) (i : Z * Z) (v : R) : Prop := (0 <= fst i)%Z /\ IZR (fst i) <= v * IZR (2 ^ s) <= IZR (snd i).
(** A non-negative ratio, and one interval times another times [num/den] *)
Definition enclose (s n d : Z) : Z * Z := let q := (n * 2 ^ s / d)%Z in (q, q + 1)%Z.
Definition times (num den : Z) (p x : Z * Z) : Z * Z :=
  (Z.shiftr (fst p * fst x * num) 64 / den, Z.shiftr (snd p * snd x * num) 64 / den + 1)%Z.
Fixpoint isum (l : list (Z * Z)) : Z * Z := match l with [] => (0, 0)%Z | i :: l => let s := isum l in (fst i + fst s, snd i + snd s)%Z end.
Fixpoint itimes (num den : Z) (l m : list (Z * Z)) : list (Z * Z) := match l, m with p :: l, x :: m => times num den p x :: itimes num den l m | _, _ => [] end.
(** The sums of [count] rounds, each multiplying in the [m]s and the factor of the round, pass the test. *)
Fixpoint rounds (test : nat -> Z * Z -> bool) (factor : nat -> Z * Z) (count k : nat) (l m : list (Z * Z)) : bool :=
  match count with
  | O => true
  | S count => test k (isum l) && rounds test factor count (S k) (itimes (fst (factor k)) (snd (factor k)) l m) m
  end.

Lemma div_bounds a b : (0 < b)%Z -> IZR (a / b) <= IZR a / IZR b < IZR (a / b) + 1.
Proof.
  intros H. pose proof (Z.div_mod a b ltac:(lia)) as E. pose proof (Z.mod_pos_bound a b H) as M. assert (0 < IZR b) by (apply IZR_lt, H).
  assert (F : IZR a / IZR b = IZR (a / b) + IZR (a mod b) / IZR b) by (rewrite E at 1; rewrite plus_IZR, mult_IZR; field; lra). rewrite F.
  assert (0 <= IZR (a mod b) / IZR b < 1); [|lra]. split; [apply Rmult_le_pos; [apply IZR_le; lia|left; apply Rinv_0_lt_compat; lra]|]. apply Rmult_lt_reg_r with (IZR b); [lra|]. unfold Rdiv. rewrite Rmult_assoc, Rinv_l by lra. rewrite Rmult_1_r, Rmult_1_l. apply IZR_lt. lia.
Qed.
Lemma enclose_ok s n d : (0 <= s)%Z -> (0 <= n)%Z -> (0 < d)%Z -> within s (enclose s n d) (IZR n / IZR d).
Proof.
  intros Hs Hn Hd. unfold within, enclose. cbn [fst snd]. pose proof (div_bounds (n * 2 ^ s) d Hd) as B. rewrite mult_IZR in B.
  assert (0 < 2 ^ s)%Z by (apply Z.pow_pos_nonneg; lia). split; [apply Z.div_pos; nia|]. rewrite plus_IZR. replace (IZR n / IZR d * IZR (2 ^ s)) with (IZR n * IZR (2 ^ s) / IZR d) by (unfold Rdiv; ring). lra.
Qed.
Lemma times_ok s num den p x v y : (0 <= s)%Z -> (0 <= num)%Z -> (0 < den)%Z -> within s p v -> within 64 x y -> within s (times num den p x) (v * y * (IZR num / IZR den)).
Proof.
  intros Hs Hn Hd [P0 P] [X0 X]. unfold within, times. cbn [fst snd]. rewrite !Z.shiftr_div_pow2, !Z.div_div by lia.
  assert (D : (0 < 2 ^ 64 * den)%Z) by lia. pose proof (div_bounds (fst p * fst x * num) _ D) as [L _]. pose proof (div_bounds (snd p * snd x * num) _ D) as [_ U].
  assert (N : 0 <= IZR num) by (apply IZR_le; auto). assert (DR : 0 < IZR (2 ^ 64 * den)) by (apply IZR_lt; auto). assert (Dd : 0 < IZR den) by (apply IZR_lt; auto).
  assert (p0 : 0 <= IZR (fst p)) by (apply IZR_le; auto). assert (x0 : 0 <= IZR (fst x)) by (apply IZR_le; auto). split; [apply Z.div_pos; nia|].
  replace (v * y * (IZR num / IZR den) * IZR (2 ^ s)) with ((v * IZR (2 ^ s)) * (y * IZR (2 ^ 64)) * IZR num / IZR (2 ^ 64 * den)) by (rewrite mult_IZR; field; lra).
  rewrite !mult_IZR in L, U. rewrite <- mult_IZR in L, U. rewrite plus_IZR. rewrite !mult_IZR in *. split.
  - eapply Rle_trans; [exact L|]. apply Rmult_le_compat_r; [left; apply Rinv_0_lt_compat; lra|]. apply Rmult_le_compat_r; [lra|]. apply Rmult_le_compat; lra.
  - apply Rlt_le. eapply Rle_lt_trans; [|exact U]. apply Rmult_le_compat_r; [left; apply Rinv_0_lt_compat; lra|]. apply Rmult_le_compat_r; [lra|]. apply Rmult_le_compat; lra.
Qed.
Section Rounds.
  Context (A : Type) (s : Z) (test : nat -> Z * Z -> bool) (factor : nat -> Z * Z) (value : nat -> A -> R) (base : A -> R) (table : list A).
  Hypothesis Hs : (0 <= s)%Z.
  Hypothesis Hf : forall k, (0 <= fst (factor k))%Z /\ (0 < snd (factor k))%Z.
  Hypothesis Hv : forall k e, value (S k) e = value k e * base e * (IZR (fst (factor k)) / IZR (snd (factor k))).
  Definition total_value (k : nat) : R := fold_right (fun e t => value k e + t) 0 table.
  Lemma rounds_ok (Q : nat -> R -> Prop) m : (forall k i v, test k i = true -> within s i v -> Q k v) ->
    Forall2 (fun e x => within 64 x (base e)) table m -> forall count k l, Forall2 (fun e p => within s p (value k e)) table l -> rounds test factor count k l m = true ->
    forall j, (j < count)%nat -> Q (k + j)%nat (total_value (k + j)).
  Proof.
    intros T M. induction count as [|count IH]; intros k l L C j Hj; [lia|]. cbn [rounds] in C. apply andb_true_iff in C as [C1 C2]. destruct j as [|j].
    - rewrite Nat.add_0_r. apply (T k (isum l)); [exact C1|]. unfold total_value. clear - L. induction L as [|e p es ps W _ IH]; cbn [fold_right isum].
      + unfold within; cbn; split; [lia|]. rewrite Rmult_0_l. lra.
      + destruct W as [W0 W], IH as [I0 I]. unfold within. cbn [fst snd]. split; [lia|]. rewrite !plus_IZR. rewrite Rmult_plus_distr_r. lra.
    - replace (k + S j)%nat with (S k + j)%nat by lia. apply (IH (S k) (itimes (fst (factor k)) (snd (factor k)) l m)); [|exact C2|lia].
      clear - L M Hs Hf Hv. revert m M. induction L as [|e p es ps W _ IH]; intros m M; inversion M; subst; [constructor|]. cbn [itimes]. constructor; [|apply IH; auto]. rewrite Hv. destruct (Hf k). apply times_ok; auto.
  Qed.
End Rounds.

Lemma pi_bounds : 31415926535897931 / 10 ^ 16 <= PI <= 31415926535897933 / 10 ^ 16.
Proof.
  pose proof (PI_2_3_7_ineq 9) as [L U]. unfold tg_alt, PI_2_3_7_tg, Ratan_seq in L, U. cbn [Nat.mul Nat.add sum_f_R0 pow INR] in L, U.
  split; lra.
Qed.

(** ** The tables *)
Definition fits (d : decimal) : bool := (0 <=? snd d)%Z.
Definition ratio (s : Z) (d : decimal) : Z * Z := enclose s (fst d) (10 ^ snd d).
Definition square (s : Z) (d : decimal) : Z * Z := enclose s (fst d * fst d) (10 ^ snd d * 10 ^ snd d).
Lemma pow10_pos d : fits d = true -> (0 < 10 ^ snd d)%Z.
Proof. unfold fits. rewrite Z.leb_le. intros. apply Z.pow_pos_nonneg; lia. Qed.
Lemma ratio_ok s d : (0 <= s)%Z -> fits d = true -> (0 <= fst d)%Z -> within s (ratio s d) (literal d).
Proof. intros Hs F H. apply enclose_ok; auto. apply pow10_pos, F. Qed.
Lemma square_ok s d : (0 <= s)%Z -> fits d = true -> within s (square s d) (literal d * literal d).
Proof.
  intros Hs F. pose proof (pow10_pos d F) as P. assert (0 < IZR (10 ^ snd d)) by (apply IZR_lt; auto).
  replace (literal d * literal d) with (IZR (fst d * fst d) / IZR (10 ^ snd d * 10 ^ snd d)) by (unfold literal; rnum; rewrite !mult_IZR; field; lra). apply enclose_ok; nia.
Qed.
Definition opposite (e : decimal * decimal) : decimal * decimal := (fst e, (- fst (snd e), snd (snd e))%Z).
Definition same (e f : decimal * decimal) : bool :=
  ((fst (fst e) =? fst (fst f)) && (snd (fst e) =? snd (fst f)) && (fst (snd e) =? fst (snd f)) && (snd (snd e) =? snd (snd f)))%Z%bool.
Fixpoint same_all (l m : list (decimal * decimal)) : bool := match l, m with [], [] => true | e :: l, f :: m => same e f && same_all l m | _, _ => false end%bool.
Lemma same_all_eq l : forall m, same_all l m = true -> l = m.
Proof.
  induction l as [|[[a b] [c d]] l IH]; intros [|[[a' b'] [c' d']] m]; cbn; try discriminate; auto. unfold same. cbn. rewrite !andb_true_iff, !Z.eqb_eq. intros [[[[-> ->] ->] ->] H]. rewrite (IH m H). reflexivity.
Qed.
Lemma gsum_app l m f : gsum (l ++ m) f = gsum l f + gsum m f.
Proof. induction l as [|[w x] l IH]; cbn [gsum app]; [ring|]. rewrite IH. ring. Qed.
Lemma gsum_rev l f : gsum (rev l) f = gsum l f.
Proof. induction l as [|[w x] l IH]; [reflexivity|]. cbn [rev]. rewrite gsum_app, IH. cbn [gsum]. ring. Qed.
Lemma gsum_opposite l f : gsum (map opposite l) f = gsum l (fun x => f (- x)).
Proof. induction l as [|[w x] l IH]; [reflexivity|]. cbn [map gsum opposite fst snd]. rewrite IH. do 3 f_equal. unfold literal. rnum. cbn [fst snd]. rewrite opp_IZR. unfold Rdiv. ring. Qed.
Lemma gsum_ext l f g : (forall x, f x = g x) -> gsum l f = gsum l g.
Proof. intros H. induction l as [|[w x] l IH]; [reflexivity|]. cbn [gsum]. rewrite IH, H. reflexivity. Qed.
Lemma gsum_scal l c f : gsum l (fun x => c * f x) = c * gsum l f.
Proof. induction l as [|[w x] l IH]; cbn [gsum]; [ring|]. rewrite IH. ring. Qed.
(** A table that is its own mirror image has no odd moments. *)
Lemma symmetric_odd l j : same_all (map opposite l) (rev l) = true -> gsum l (fun x => x ^ S (2 * j)) = 0.
Proof.
  intros H. apply same_all_eq in H. assert (E : gsum l (fun x => x ^ S (2 * j)) = - 1 * gsum l (fun x => x ^ S (2 * j))); [|lra].
  rewrite <- (gsum_rev l) at 1. rewrite <- H, gsum_opposite, <- gsum_scal. apply gsum_ext. intros x. cbn [pow]. rewrite !pow_mult. replace ((- x) ^ 2) with (x ^ 2) by ring. ring.
Qed.

Definition all_fit (inside : decimal -> bool) (l : list (decimal * decimal)) : bool :=
  forallb (fun e => fits (fst e) && fits (snd e) && (0 <? fst (fst e))%Z && inside (snd e)) l.
(** Even moments by squares, for the symmetric tables; every moment for the other *)
Definition even_check s test factor inside n (l : list (decimal * decimal)) : bool :=
  (Nat.eqb (length l) n && all_fit inside l && same_all (map opposite l) (rev l) &&
   rounds test factor n 0 (map (fun e => ratio s (fst e)) l) (map (fun e => square 64 (snd e)) l))%bool.
Definition full_check s test factor n (l : list (decimal * decimal)) : bool :=
  (Nat.eqb (length l) n && all_fit (fun d => 0 <=? fst d)%Z l && rounds test factor (2 * n) 0 (map (fun e => ratio s (fst e)) l) (map (fun e => ratio 64 (snd e)) l))%bool.

Definition legendre_test (k : nat) (i : Z * Z) : bool :=
  let q := (2 * Z.of_nat k + 1)%Z in
  ((2 * 10 ^ 14 - q) * 2 ^ 90 <=? fst i * q * 10 ^ 14)%Z && (snd i * q * 10 ^ 14 <=? (2 * 10 ^ 14 + q) * 2 ^ 90)%Z.
Definition hermite_test (k : nat) (i : Z * Z) : bool :=
  ((17724538509055160 * 10 ^ 14 - 17 * 10 ^ 15) * 2 ^ 140 <=? fst i * 10 ^ 30)%Z && (snd i * 10 ^ 30 <=? (17724538509055160 * 10 ^ 14 + 17 * 10 ^ 15) * 2 ^ 140)%Z.
Definition laguerre_test (k : nat) (i : Z * Z) : bool :=
  ((10 ^ 13 - 1) * 2 ^ 206 <=? fst i * 10 ^ 13)%Z && (snd i * 10 ^ 13 <=? (10 ^ 13 + 1) * 2 ^ 206)%Z.
Definition legendre_factor (k : nat) : Z * Z := (1, 1)%Z.
Definition hermite_factor (k : nat) : Z * Z := (2, 2 * Z.of_nat k + 1)%Z.
Definition laguerre_factor (k : nat) : Z * Z := (1, Z.of_nat k + 1)%Z.
Definition unit_node (d : decimal) : bool := (Z.abs (fst d) <=? 10 ^ snd d)%Z.
Lemma legendre_tables : forallb (fun n => even_check 90 legendre_test legendre_factor unit_node n (nth n legendre [])) (seq 1 30) = true.
Proof. vm_cast_no_check (eq_refl true). Qed.
Lemma hermite_tables : forallb (fun n => even_check 140 hermite_test hermite_factor (fun _ => true) n (nth n hermite [])) (seq 1 30) = true.
Proof. vm_cast_no_check (eq_refl true). Qed.
Lemma laguerre_tables : forallb (fun n => full_check 206 laguerre_test laguerre_factor n (nth n laguerre [])) (seq 1 30) = true.
Proof. vm_cast_no_check (eq_refl true). Qed.

Lemma total_gsum (l : list (decimal * decimal)) (g : R -> R) value : (forall e, value e = literal (fst e) * g (literal (snd e))) -> fold_right (fun e t => value e + t) 0 l = gsum l g.
Proof. intros H. induction l as [|[w x] l IH]; [reflexivity|]. cbn [fold_right gsum]. rewrite IH, H. reflexivity. Qed.
Lemma Forall2_self {A B} (f : A -> B) (P : A -> B -> Prop) l : (forall e, In e l -> P e (f e)) -> Forall2 P l (map f l).
Proof. induction l as [|e l IH]; intros H; cbn; constructor; [apply H; left; reflexivity|apply IH; intros; apply H; right; auto]. Qed.
Lemma in_range (P : nat -> bool) n : forallb P (seq 1 30) = true -> (1 <= n <= 30)%nat -> P n = true.
Proof. intros H Hn. rewrite forallb_forall in H. apply H. apply in_seq. lia. Qed.
Lemma all_fit_spec inside l : all_fit inside l = true -> forall e, In e l -> fits (fst e) = true /\ fits (snd e) = true /\ (0 < fst (fst e))%Z /\ inside (snd e) = true.
Proof. unfold all_fit. rewrite forallb_forall. intros H e He. specialize (H e He). rewrite !andb_true_iff, Z.ltb_lt in H. tauto. Qed.
Lemma weight_pos (e : decimal * decimal) : fits (fst e) = true -> (0 < fst (fst e))%Z -> 0 < literal (fst e).
Proof. intros F H. unfold literal. rnum. apply Rdiv_lt_0_compat; apply IZR_lt; [exact H|apply pow10_pos, F]. Qed.

Lemma bracket s i v a b d : (0 <= s)%Z -> (0 < d)%Z -> (a * 2 ^ s <= fst i * d)%Z -> (snd i * d <= b * 2 ^ s)%Z -> within s i v -> IZR a <= v * IZR d <= IZR b.
Proof.
  intros Hs Hd A B [_ W]. apply IZR_le in A, B. rewrite !mult_IZR in A, B. apply IZR_lt in Hd. assert (P : 0 < IZR (2 ^ s)) by (apply IZR_lt, Z.pow_pos_nonneg; lia).
  assert (M1 : IZR (fst i) * IZR d <= v * IZR (2 ^ s) * IZR d) by (apply Rmult_le_compat_r; lra). assert (M2 : v * IZR (2 ^ s) * IZR d <= IZR (snd i) * IZR d) by (apply Rmult_le_compat_r; lra).
  split; apply Rmult_le_reg_r with (IZR (2 ^ s)); lra.
Qed.

(** ** Legendre *)
Definition legendre_value (k : nat) : R := if Nat.even k then 2 / INR (S k) else 0.
Lemma parity k : exists j, k = (2 * j)%nat \/ k = S (2 * j).
Proof. exists (Nat.div2 k). destruct (Nat.even k) eqn:E; [left|right]. - apply Nat.even_spec in E. destruct E as (j & ->). rewrite Nat.div2_double. reflexivity. - assert (O : Nat.odd k = true) by (unfold Nat.odd; rewrite E; reflexivity). apply Nat.odd_spec in O. destruct O as (j & ->). replace (2 * j + 1)%nat with (S (2 * j)) by lia. rewrite Nat.div2_succ_double. reflexivity. Qed.
Lemma even_double j : Nat.even (2 * j) = true.
Proof. apply Nat.even_spec. exists j. reflexivity. Qed.
Lemma even_succ_double j : Nat.even (S (2 * j)) = false.
Proof. rewrite Nat.even_succ. unfold Nat.odd. rewrite even_double. reflexivity. Qed.
Lemma square_pow x j : x ^ (2 * j) = (x * x) ^ j.
Proof. rewrite pow_mult. f_equal. ring. Qed.
Lemma legendre_ok n : (1 <= n <= 30)%nat -> let l := nth n legendre [] in
  List.length l = n /\ (forall e, In e l -> 0 < literal (fst e) /\ Rabs (literal (snd e)) <= 1) /\ forall k, (k < 2 * n)%nat -> Rabs (gsum l (fun x => x ^ k) - legendre_value k) <= / 10 ^ 14.
Proof.
  intros Hn l. pose proof (in_range _ n legendre_tables Hn) as C. cbv beta in C. fold l in C. unfold even_check in C. apply andb_true_iff in C as [C R0]. apply andb_true_iff in C as [C S0]. apply andb_true_iff in C as [C A0]. apply Nat.eqb_eq in C.
  pose proof (all_fit_spec _ _ A0) as A. split; [exact C|]. split.
  - intros e He. destruct (A e He) as (Fw & Fx & W & I). split; [apply weight_pos; auto|]. unfold unit_node in I. apply Z.leb_le in I. pose proof (pow10_pos _ Fx) as P. apply IZR_lt in P. unfold literal. rnum. unfold Rdiv. rewrite Rabs_mult, (Rabs_pos_eq (/ _)) by (left; apply Rinv_0_lt_compat, P). apply Rmult_le_reg_r with (IZR (10 ^ snd (snd e))); [exact P|]. rewrite Rmult_assoc, Rinv_l by lra. rewrite Rabs_Zabs. rewrite Rmult_1_r, Rmult_1_l. apply IZR_le, I.
  - intros k Hk. destruct (parity k) as (j & [-> | ->]); unfold legendre_value.
    + rewrite even_double. rewrite (gsum_ext l _ (fun x => (x * x) ^ j)) by (intros; apply square_pow).
      pose proof (rounds_ok _ 90 legendre_test legendre_factor (fun k e => literal (fst e) * (literal (snd e) * literal (snd e)) ^ k) (fun e => literal (snd e) * literal (snd e)) l ltac:(lia) ltac:(intros; cbn; lia) ltac:(intros; cbn; field)
        (fun k v => Rabs (v - 2 / INR (S (2 * k))) <= / 10 ^ 14) (map (fun e => square 64 (snd e)) l)) as K.
      assert (T : forall k i v, legendre_test k i = true -> within 90 i v -> Rabs (v - 2 / INR (S (2 * k))) <= / 10 ^ 14).
      { clear. intros k i v T W. unfold legendre_test in T. rewrite andb_true_iff, !Z.leb_le in T. destruct T as [T1 T2]. rewrite <- Z.mul_assoc in T1, T2.
        destruct (bracket 90 i v _ _ ((2 * Z.of_nat k + 1) * 10 ^ 14)%Z ltac:(lia) ltac:(lia) T1 T2 W) as [U1 U2]. rewrite mult_IZR in U1, U2. rewrite minus_IZR in U1. rewrite (plus_IZR (2 * 10 ^ 14)) in U2. change (IZR (2 * 10 ^ 14)) with 200000000000000 in U1, U2. change (IZR (10 ^ 14)) with 100000000000000 in U1, U2.
        assert (Eq : IZR (2 * Z.of_nat k + 1) = INR (S (2 * k))) by (rewrite INR_IZR_INZ; f_equal; lia). rewrite Eq in U1, U2. set (q := INR (S (2 * k))) in *. assert (Q : 0 < q) by (unfold q; apply lt_0_INR; lia). clearbody q.
        assert (E : v - 2 / q = (v * (q * 10 ^ 14) - 2 * 10 ^ 14) / (q * 10 ^ 14)) by (field; apply Rgt_not_eq, Q). rewrite E. clear E.
        assert (D : 0 < q * 10 ^ 14) by lra. apply Rabs_le. split; apply Rmult_le_reg_r with (q * 10 ^ 14); try exact D; unfold Rdiv; rewrite (Rmult_assoc (_ - _)), Rinv_l by (apply Rgt_not_eq, D); lra. }
      specialize (K T (Forall2_self _ _ _ (fun e He => square_ok 64 (snd e) ltac:(lia) (proj1 (proj2 (A e He)))))).
      specialize (K n O (map (fun e => ratio 90 (fst e)) l)).
      specialize (K ltac:(apply Forall2_self; intros e He; destruct (A e He) as (Fw & Fx & W & _); rewrite Rmult_1_r; apply ratio_ok; auto; lia) R0 j ltac:(lia)). cbn [Nat.add] in K. unfold total_value in K.
      rewrite (total_gsum l (fun x => (x * x) ^ j)) in K by (intros; reflexivity). exact K.
    + rewrite even_succ_double, symmetric_odd by exact S0. rewrite Rminus_0_r, Rabs_R0. lra.
Qed.

(** ** Hermite *)
Lemma root_pi_bounds : 1772453850905516 / 10 ^ 15 - / 10 ^ 16 <= sqrt PI <= 1772453850905516 / 10 ^ 15 + / 10 ^ 16.
Proof.
  pose proof pi_bounds as P. split.
  - rewrite <- (sqrt_square (1772453850905516 / 10 ^ 15 - / 10 ^ 16)) by lra. apply sqrt_le_1_alt. lra.
  - rewrite <- (sqrt_square (1772453850905516 / 10 ^ 15 + / 10 ^ 16)) by lra. apply sqrt_le_1_alt. lra.
Qed.
Lemma even_pos j : 0 < even j.
Proof. unfold even. apply Rdiv_lt_0_compat; [apply INR_fact_lt_0|]. apply Rmult_lt_0_compat; [apply pow_lt; lra|apply INR_fact_lt_0]. Qed.
Lemma hermite_ok n : (1 <= n <= 30)%nat -> let l := nth n hermite [] in
  List.length l = n /\ (forall e, In e l -> 0 < literal (fst e)) /\ forall k, (k < 2 * n)%nat -> Rabs (gsum l (fun x => x ^ k) - hermite_value k) <= / 10 ^ 14 * hermite_value k.
Proof.
  intros Hn l. pose proof (in_range _ n hermite_tables Hn) as C. cbv beta in C. fold l in C. unfold even_check in C. apply andb_true_iff in C as [C R0]. apply andb_true_iff in C as [C S0]. apply andb_true_iff in C as [C A0]. apply Nat.eqb_eq in C.
  pose proof (all_fit_spec _ _ A0) as A. split; [exact C|]. split; [intros e He; destruct (A e He) as (Fw & Fx & W & I); apply weight_pos; auto|].
  intros k Hk. destruct (parity k) as (j & [-> | ->]); unfold hermite_value.
  - rewrite even_double, Nat.div2_double. rewrite (gsum_ext l _ (fun x => even j * ((x * x) ^ j / even j))) by (intros; rewrite square_pow; field; pose proof (even_pos j); lra). rewrite gsum_scal.
    pose proof (rounds_ok _ 140 hermite_test hermite_factor (fun k e => literal (fst e) * ((literal (snd e) * literal (snd e)) ^ k / even k)) (fun e => literal (snd e) * literal (snd e)) l ltac:(lia) ltac:(intros; cbn [fst snd hermite_factor]; lia)) as K.
    specialize (K ltac:(intros i e; cbn [fst snd hermite_factor pow]; rewrite even_step; pose proof (even_pos i); replace (IZR (2 * Z.of_nat i + 1)) with (INR (2 * i + 1)) by (rewrite INR_IZR_INZ; f_equal; lia); assert (0 < INR (2 * i + 1)) by (apply lt_0_INR; lia); field; lra)).
    specialize (K (fun k v => Rabs (v - sqrt PI) <= / 10 ^ 14 * sqrt PI) (map (fun e => square 64 (snd e)) l)).
    assert (T : forall k i v, hermite_test k i = true -> within 140 i v -> Rabs (v - sqrt PI) <= / 10 ^ 14 * sqrt PI).
    { clear. intros k i v T W. unfold hermite_test in T. rewrite andb_true_iff, !Z.leb_le in T. destruct T as [T1 T2]. destruct (bracket 140 i v _ _ (10 ^ 30)%Z ltac:(lia) ltac:(lia) T1 T2 W) as [U1 U2]. pose proof root_pi_bounds as B. apply Rabs_le. set (r := sqrt PI) in *. clearbody r. clear T1 T2 W.
      match type of U1 with IZR ?e <= _ => let z := eval vm_compute in e in change (IZR e) with (IZR z) in U1 end. match type of U2 with _ <= IZR ?e => let z := eval vm_compute in e in change (IZR e) with (IZR z) in U2 end.
      let z := eval vm_compute in (10 ^ 30)%Z in change (IZR (10 ^ 30)) with (IZR z) in U1, U2. lra. }
    specialize (K T (Forall2_self _ _ _ (fun e He => square_ok 64 (snd e) ltac:(lia) (proj1 (proj2 (A e He)))))).
    specialize (K n O (map (fun e => ratio 140 (fst e)) l)).
    specialize (K ltac:(apply Forall2_self; intros e He; destruct (A e He) as (Fw & Fx & W & _); match goal with |- within _ _ ?v => replace v with (@literal R Rnum (fst e)) by (cbn [pow]; replace (even 0) with 1 by (unfold even; cbn; field); field) end; apply ratio_ok; auto; lia) R0 j ltac:(lia)). cbn [Nat.add] in K. unfold total_value in K.
    rewrite (total_gsum l (fun x => (x * x) ^ j / even j)) in K by (intros; reflexivity).
    rewrite (Rmult_comm (sqrt PI)), <- Rmult_minus_distr_l, Rabs_mult, (Rabs_pos_eq (even j)) by (left; apply even_pos). replace (/ 10 ^ 14 * (even j * sqrt PI)) with (even j * (/ 10 ^ 14 * sqrt PI)) by ring. apply Rmult_le_compat_l; [left; apply even_pos|exact K].
  - rewrite even_succ_double, symmetric_odd by exact S0. rewrite Rminus_0_r, Rabs_R0. lra.
Qed.

(** ** Laguerre *)
Lemma laguerre_ok n : (1 <= n <= 30)%nat -> let l := nth n laguerre [] in
  List.length l = n /\ (forall e, In e l -> 0 < literal (fst e) /\ 0 <= literal (snd e)) /\ forall k, (k < 2 * n)%nat -> Rabs (gsum l (fun x => x ^ k) - INR (fact k)) <= / 10 ^ 13 * INR (fact k).
Proof.
  intros Hn l. pose proof (in_range _ n laguerre_tables Hn) as C. cbv beta in C. fold l in C. unfold full_check in C. apply andb_true_iff in C as [C R0]. apply andb_true_iff in C as [C A0]. apply Nat.eqb_eq in C.
  pose proof (all_fit_spec _ _ A0) as A. split; [exact C|]. split.
  - intros e He. destruct (A e He) as (Fw & Fx & W & I). split; [apply weight_pos; auto|]. unfold literal. rnum. apply Rmult_le_pos; [apply IZR_le; apply Z.leb_le, I|left; apply Rinv_0_lt_compat, IZR_lt, pow10_pos, Fx].
  - intros k Hk. pose proof (INR_fact_lt_0 k) as P. rewrite (gsum_ext l _ (fun x => INR (fact k) * (x ^ k / INR (fact k)))) by (intros; field; lra). rewrite gsum_scal.
    pose proof (rounds_ok _ 206 laguerre_test laguerre_factor (fun k e => literal (fst e) * (literal (snd e) ^ k / INR (fact k))) (fun e => literal (snd e)) l ltac:(lia) ltac:(intros; cbn [fst snd laguerre_factor]; lia)) as K.
    specialize (K ltac:(intros i e; cbn [fst snd laguerre_factor pow]; rewrite fact_simpl, mult_INR; pose proof (INR_fact_lt_0 i); replace (IZR (Z.of_nat i + 1)) with (INR (S i)) by (rewrite INR_IZR_INZ; f_equal; lia); assert (0 < INR (S i)) by (apply lt_0_INR; lia); field; lra)).
    specialize (K (fun k v => Rabs (v - 1) <= / 10 ^ 13) (map (fun e => ratio 64 (snd e)) l)).
    assert (T : forall k i v, laguerre_test k i = true -> within 206 i v -> Rabs (v - 1) <= / 10 ^ 13).
    { clear. intros k i v T W. unfold laguerre_test in T. rewrite andb_true_iff, !Z.leb_le in T. destruct T as [T1 T2]. destruct (bracket 206 i v _ _ (10 ^ 13)%Z ltac:(lia) ltac:(lia) T1 T2 W) as [U1 U2]. clear T1 T2 W. let z := eval vm_compute in (10 ^ 13)%Z in change (IZR (10 ^ 13)) with (IZR z) in U1, U2. let z := eval vm_compute in (10 ^ 13 - 1)%Z in change (IZR (10 ^ 13 - 1)) with (IZR z) in U1. let z := eval vm_compute in (10 ^ 13 + 1)%Z in change (IZR (10 ^ 13 + 1)) with (IZR z) in U2. apply Rabs_le. lra. }
    specialize (K T (Forall2_self _ _ _ (fun e He => ratio_ok 64 (snd e) ltac:(lia) (proj1 (proj2 (A e He))) (proj1 (Z.leb_le _ _) (proj2 (proj2 (proj2 (A e He)))))))).
    specialize (K (2 * n)%nat O (map (fun e => ratio 206 (fst e)) l)).
    specialize (K ltac:(apply Forall2_self; intros e He; destruct (A e He) as (Fw & Fx & W & _); match goal with |- within _ _ ?v => replace v with (@literal R Rnum (fst e)) by (cbn [pow]; change (INR (fact 0)) with 1; field) end; apply ratio_ok; auto; lia) R0 k ltac:(lia)). cbn [Nat.add] in K. unfold total_value in K.
    rewrite (total_gsum l (fun x => x ^ k / INR (fact k))) in K by (intros; reflexivity).
    replace (INR (fact k) * gsum l (fun x => x ^ k / INR (fact k)) - INR (fact k)) with (INR (fact k) * (gsum l (fun x => x ^ k / INR (fact k)) - 1)) by ring. rewrite Rabs_mult, (Rabs_pos_eq (INR (fact k))), (Rmult_comm (/ 10 ^ 13)) by lra. apply Rmult_le_compat_l; [lra|exact K].
Qed.
