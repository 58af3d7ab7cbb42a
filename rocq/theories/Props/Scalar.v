(** C08-C13: integer powers, the derivative scalars, clamping. *)
From Coq Require Import ZArith List Bool Reals Lra Lia SpecFloat.
From Coquelicot Require Import Coquelicot.
From Flocq Require Import Core IEEE754.BinarySingleNaN.
From Verif Require Import Base.Scalar Base.RNum Base.FNum Base.FloatOps Base.Lists Base.Deriv Model.Dual Model.HyperDual Model.Jet
  Spec.Expr Proofs.DiffAlg Proofs.Value Proofs.Smooth.
Import ListNotations.
Local Open Scope R_scope.

(** ** C08 *)
(** [x] multiplied by itself [n] times *)
Fixpoint times {T} {NT : Num T} (x : T) (n : nat) : T := match n with O => one | S n => mul x (times x n) end.

Lemma times_add {T} {NT : Num T} : (forall a b c : T, mul a (mul b c) = mul (mul a b) c) -> (forall a : T, mul one a = a) ->
  forall (x : T) m n, times x (m + n) = mul (times x m) (times x n).
Proof. intros A I x m n. induction m; cbn [times Nat.add]; [symmetry; apply I|]. rewrite IHm. apply A. Qed.
Lemma powi_loop_times {T} {NT : Num T} : (forall a b c : T, mul a (mul b c) = mul (mul a b) c) -> (forall a : T, mul one a = a) ->
  (forall a : T, mul a one = a) -> forall e (x acc : T), powi_loop e x acc = mul acc (times x (Pos.to_nat e)).
Proof.
  intros A I J.
  assert (D : forall (x : T) n, times (mul x x) n = times x (n + n)).
  { intros x n. induction n; [reflexivity|]. replace (S n + S n)%nat with (S (S (n + n))) by lia. cbn [times].
    rewrite IHn, A. reflexivity. }
  induction e; intros; cbn [powi_loop].
  - rewrite IHe, D, <- A. f_equal. rewrite Pos2Nat.inj_xI. replace (S (2 * Pos.to_nat e))%nat with (1 + (Pos.to_nat e + Pos.to_nat e))%nat by lia.
    rewrite (times_add A I x 1). cbn [times]. rewrite J. reflexivity.
  - rewrite IHe, D. do 2 f_equal. rewrite Pos2Nat.inj_xO. lia.
  - change (Pos.to_nat 1) with 1%nat. cbn [times]. rewrite J. reflexivity.
Qed.

Theorem C08_powi : forall (T : Type) (NT : Num T),
  (forall a b c : T, mul a (mul b c) = mul (mul a b) c) -> (forall a : T, mul one a = a) -> (forall a : T, mul a one = a) ->
  forall (x : T) (n : Z),
    ((0 <= n)%Z -> powi x n = times x (Z.to_nat n)) /\
    ((n < 0)%Z -> powi x n = div one (times x (Z.to_nat (- n)))).
Proof.
  intros T NT A I J x n. unfold powi. destruct n; split; intros H; try lia; try reflexivity.
  - rewrite (powi_loop_times A I J). apply I.
  - rewrite (powi_loop_times A I J), I. reflexivity.
Qed.

Theorem C08_powi_R : forall (x : R) (n : Z), powi x n = powerRZ x n.
Proof.
  intros x [|p|p]; unfold powi; rnum; [reflexivity| |]; rewrite powi_loop_R; cbn [powerRZ]; unfold Rdiv; rewrite !Rmult_1_l; reflexivity.
Qed.

Example C08_example : @powi R Rnum 2 10 = 1024 /\ @powi R Rnum 2 (-3) = /8 /\
  @powi R Rnum 1 (-2147483648) = 1.
Proof.
  rewrite !C08_powi_R. unfold powerRZ. rewrite pow1.
  change (Pos.to_nat 10) with 10%nat. change (Pos.to_nat 3) with 3%nat. repeat split; cbn [pow]; lra.
Qed.

(** ** C09 *)
Theorem C09_dual_derivative : forall (e : expr) (x : nat -> R) (j : nat), smooth x e ->
  let d := @eval _ dual_num (fun i => if Nat.eqb i j then dual_variable (x i) else dual_constant (x i)) e in
  value d = eval x e /\
  is_derive (fun v => eval (fun i => if Nat.eqb i j then v else x i) e) (x j) (deriv d).
Proof. intros e x j S. exact (dual_partial e x j S). Qed.

(** along any direction [a] *)
Theorem C09_dual_directional : forall (e : expr) (x a : nat -> R), smooth x e ->
  let d := @eval _ dual_num (fun i => mkDual (x i) (a i)) e in
  value d = eval x e /\ is_derive (fun t => eval (fun i => x i + t * a i) e) 0 (deriv d).
Proof. exact dual_directional. Qed.

(** if x0 < x1 then tan(x0 / x1) else hypot(x0, x1), at (1, 2) *)
Definition sample_formula : expr :=
  EIf CLt (EVar 0) (EVar 1) (EUn UExp (EBin BDiv (EVar 0) (EVar 1))) (EBin BHypot (EVar 0) (EVar 1)).
Definition sample_point (i : nat) : R := match i with O => 1 | _ => 2 end.
Lemma sample_smooth : smooth sample_point sample_formula.
Proof.
  cbn. rnum. unfold Rltb. destruct (Rlt_dec 1 2); [|lra]. repeat split; lra.
Qed.
Example C09_example : let d := @eval _ dual_num (fun i => if Nat.eqb i 0 then dual_variable (sample_point i) else dual_constant (sample_point i)) sample_formula in
  smooth sample_point sample_formula /\ value d = Rtrigo_def.exp (1/2) /\ deriv d = Rtrigo_def.exp (1/2) / 2.
Proof.
  split; [exact sample_smooth|]. cbn. rnum. unfold Rltb. destruct (Rlt_dec 1 2); [|lra]. cbn. rnum. split; auto.
  replace ((1 * 2 - 1 * 0) / (2 * 2)) with (/2) by field. unfold Rdiv. ring.
Qed.

(** ** C10 *)
Theorem C10_hyper_dual : forall (e : expr) (x a b : nat -> R), smooth x e ->
  let h := @eval _ hyper_num (fun i => mkHyper (x i) (a i) (b i) 0) e in
  let f s t := eval (fun i => x i + s * a i + t * b i) e in
  real h = eval x e /\
  is_derive (fun s => f s 0) 0 (eps1 h) /\
  is_derive (fun t => f 0 t) 0 (eps2 h) /\
  is_derive (fun t => Derive (fun s => f s t) 0) 0 (eps1eps2 h).
Proof. exact hyper_directional. Qed.

Theorem C10_second_derivative : forall (e : expr) (x : nat -> R) (j : nat), smooth x e ->
  let h := @eval _ hyper_num (fun i => if Nat.eqb i j then hyper_variable (x i) else hyper_constant (x i)) e in
  let f v := eval (fun i => if Nat.eqb i j then v else x i) e in
  real h = eval x e /\ is_derive f (x j) (eps1 h) /\ eps2 h = eps1 h /\ is_derive (Derive f) (x j) (eps1eps2 h).
Proof. intros e x j S. exact (hyper_second e x j S). Qed.

Example C10_example : let h := @eval _ hyper_num (fun i => if Nat.eqb i 0 then hyper_variable (sample_point i) else hyper_constant (sample_point i)) sample_formula in
  smooth sample_point sample_formula /\ eps1 h = Rtrigo_def.exp (1/2) / 2 /\ eps1eps2 h = Rtrigo_def.exp (1/2) / 4.
Proof.
  split; [exact sample_smooth|]. cbn. rnum. unfold Rltb. destruct (Rlt_dec 1 2); [|lra]. cbn. rnum.
  replace (1 * (1 / 2)) with (1 / 2) by ring. split; field.
Qed.

(** ** C11 *)
Theorem C11_jet_taylor : forall (N : nat) (e : expr) (x : nat -> R) (j : nat), (0 < N)%nat -> smooth x e ->
  let a := @eval _ (jet_num N) (fun i => if Nat.eqb i j then jet_variable N (x i) else jet_constant N (x i)) e in
  let f v := eval (fun i => if Nat.eqb i j then v else x i) e in
  forall k, (k < N)%nat ->
    ex_derive_n f k (x j) /\
    jet_coefficient a k = Some (Derive_n f k (x j) / INR (fact k)) /\
    jet_derivative a k = Some (Derive_n f k (x j)).
Proof.
  intros N e x j HN S a f k Hk. destruct (jet_taylor N e x j HN S) as [L T]. destruct (T k Hk) as [E V]. clear T.
  fold a in L, V. split; [exact E|].
  assert (C : nth_error a k = Some (Derive_n f k (x j) / INR (fact k))).
  { rewrite (nth_error_nth' a 0) by lia. f_equal. exact V. }
  unfold jet_coefficient, jet_derivative. rewrite C. split; [reflexivity|]. f_equal.
  change (fold_left (fun f i => f * @of_nat R Rnum i) (seq 2 (k - 1)) 1 * (Derive_n f k (x j) / INR (fact k)) = Derive_n f k (x j)).
  rewrite jet_factorial. field. apply INR_fact_neq_0.
Qed.

(** jets multiply as power series cut off at their order *)
Theorem C11_jet_product : forall (N : nat) (a b : Jet R) (k : nat), (k < N)%nat ->
  jet_coefficient (jet_mul N a b) k = Some (sum_f_R0 (fun i => nth i a 0 * nth (k - i) b 0) k).
Proof.
  intros N a b k Hk. unfold jet_coefficient. rewrite (nth_error_nth' _ 0) by (unfold jet_mul; rewrite from_fn_length; lia). f_equal.
  change (nth k (jet_mul N a b) (@zero R Rnum) = sum_f_R0 (fun i => nth i a 0 * nth (k - i) b 0) k).
  unfold jet_mul. rewrite nth_from_fn by exact Hk. unfold accumulate. change (@zero R Rnum) with 0.
  assert (G : forall (g : nat -> R) n, fold_left (fun acc i => @add R Rnum acc (g i)) (seq 0 (S n)) 0 = sum_f_R0 g n).
  { intros g n. induction n as [|n IH]. cbn. rnum. ring. rewrite seq_S, fold_left_app, IH. reflexivity. }
  apply (G (fun i => nth i a 0 * nth (k - i) b 0)).
Qed.

Example C11_example : smooth (fun _ => 2) (EPowi (EVar 0) 3) /\
  let a := @eval _ (jet_num 4) (fun _ => jet_variable 4 2) (EPowi (EVar 0) 3) in
  jet_coefficient a 1 = Some 12 /\ jet_derivative a 2 = Some 12 /\ jet_derivative a 3 = Some 6.
Proof.
  split; [cbn; split; [auto|intros; lia]|]. cbn. rnum. repeat split; f_equal; ring.
Qed.

(** ** C12 *)
(** Refuted for each of the three scalars over f64, on formulas of one operation. *)
Theorem C12_value_unchanged_refuted : forall lm : Libm f64,
  (* Dual: the sign of zero *)
  (let e := EUn USignum (EVar 0) in let x := F64 0 0 in
   B2SF (value (@eval _ (@dual_num _ (f64num lm)) (fun _ => dual_variable (NT := f64num lm) x) e)) = B2SF (F64 0 0) /\
   B2SF (@eval _ (f64num lm) (fun _ => x) e) = B2SF (F64 1 0)) /\
  (* Dual: the larger of 1 and NaN *)
  (let e := EBin BMax (EVar 0) (EVar 1) in let x i := match i with O => F64 1 0 | _ => B754_nan end in
   B2SF (value (@eval _ (@dual_num _ (f64num lm)) (fun i => dual_variable (NT := f64num lm) (x i)) e)) = S754_nan /\
   B2SF (@eval _ (f64num lm) x e) = B2SF (F64 1 0)) /\
  (* HyperDual: 49 / 49 *)
  (let e := EBin BDiv (EVar 0) (EVar 0) in let x := F64 49 0 in
   B2SF (real (@eval _ (@hyper_num _ (f64num lm)) (fun _ => hyper_variable (NT := f64num lm) x) e)) = B2SF (F64 (2 ^ 53 - 1) (-53)) /\
   B2SF (@eval _ (f64num lm) (fun _ => x) e) = B2SF (F64 1 0)) /\
  (* Jet: 1 / (0 * -1) *)
  (let e := EBin BDiv (ELit 1 1) (EBin BMul (EVar 0) (ELit (-1) 1)) in let x := F64 0 0 in
   B2SF (@jet_value _ (f64num lm) (@eval _ (@jet_num _ (f64num lm) 3) (fun _ => jet_variable (NT := f64num lm) 3 x) e)) = S754_infinity false /\
   B2SF (@eval _ (f64num lm) (fun _ => x) e) = S754_infinity true).
Proof. intros lm. repeat split; vm_compute; reflexivity. Qed.

(** What holds over any scalar, for every formula and every seed of derivative parts.  The formula is
    evaluated on the plain scalar with the trait's default bodies. *)
Theorem C12_dual_value_partial : forall (T : Type) (NT : Num T) (e : expr) (env : nat -> Dual T),
  value (@eval _ dual_num env e) = @eval T (with_defaults NT) (fun i => value (env i)) e.
Proof. intros T NT e env. apply (values_eval dual_base NT value _ dual_values). auto. Qed.

(** Hyper-duals divide by multiplying with a reciprocal. *)
Theorem C12_hyper_value_partial : forall (T : Type) (NT : Num T) (e : expr) (env : nat -> HyperDual T),
  uses e Quotient = false \/ (forall x y : T, mul x (div one y) = div x y) ->
  real (@eval _ hyper_num env e) = @eval T (with_defaults NT) (fun i => real (env i)) e.
Proof.
  intros T NT e env L. apply (values_eval hyper_base NT real _ hyper_values).
  intros [] U; try exact I. destruct L as [L|L]; [congruence|exact L].
Qed.

(** Jets start products from zero, take the absolute value by multiplying with the sign, and compute the
    tangent and the other logarithms by division. *)
Theorem C12_jet_value_partial : forall (T : Type) (NT : Num T) (N : nat) (e : expr) (env : nat -> Jet T), (0 < N)%nat ->
  (uses e Product = false \/ forall x : T, add zero x = x) ->
  (uses e Absolute = false \/ forall x : T, mul (if ltb x zero then neg one else one) x = abs x) ->
  (uses e Tangent = false \/ forall x : T, div (sin x) (cos x) = tan x) ->
  (uses e OtherLog = false \/ forall x : T, div (log x) (log two) = log2 x /\ div (log x) (log ten) = log10 x) ->
  jet_value (@eval _ (jet_num N) env e) = @eval T (with_defaults NT) (fun i => jet_value (env i)) e.
Proof.
  intros T NT N e env HN L1 L2 L3 L4. apply (values_eval (jet_base N) NT jet_value _ (jet_values N HN)).
  intros [] U; cbn [jet_law]; auto;
    match goal with H : uses e ?f = true |- _ => destruct L1 as [L1|L1], L2 as [L2|L2], L3 as [L3|L3], L4 as [L4|L4]; try congruence; auto end.
Qed.

(** The default bodies make no difference to a formula without the operations the floats override. *)
Theorem C12_shared_partial : forall (T : Type) (NT : Num T) (e : expr) (env : nat -> T), shared e = true ->
  @eval T (with_defaults NT) env e = eval env e.
Proof. intros T NT e env S. apply shared_eval. exact S. Qed.

(** Over the reals all the laws above hold: no formula and no seed changes the value, anywhere. *)
Theorem C12_real_scalars : forall (e : expr) (x a b c : nat -> R) (N : nat) (s : nat -> list R), (0 < N)%nat ->
  value (@eval _ dual_num (fun i => mkDual (x i) (a i)) e) = @eval R (with_defaults Rnum) x e /\
  real (@eval _ hyper_num (fun i => mkHyper (x i) (a i) (b i) (c i)) e) = @eval R (with_defaults Rnum) x e /\
  jet_value (@eval _ (jet_num N) (fun i => x i :: s i) e) = @eval R (with_defaults Rnum) x e.
Proof.
  intros e x a b c N s HN. split; [|split].
  - rewrite C12_dual_value_partial. apply eval_ext. reflexivity.
  - rewrite C12_hyper_value_partial. apply eval_ext; reflexivity. right. intros u v. rnum. unfold Rdiv. ring.
  - rewrite C12_jet_value_partial; auto.
    + right. intros u. rnum. ring.
    + right. intros u. rnum. unfold Rltb. destruct (Rlt_dec u 0). rewrite Rabs_left by lra; ring. rewrite Rabs_right by lra; ring.
Qed.

Example C12_example : forall lm : Libm f64,
  let e := EIf CLe (EVar 0) (ELit 1 2) (EBin BAdd (EBin BMul (EVar 0) (EVar 0)) (EUn USqrt (EVar 0))) (EVar 0) in
  uses e Quotient = false /\ shared e = true /\
  B2SF (real (@eval _ (@hyper_num _ (f64num lm)) (fun _ => mkHyper (F64 1 (-2)) (F64 3 0) B754_nan (F64 1 0)) e)) = B2SF (F64 9 (-4)).
Proof. intros lm. repeat split; vm_compute; reflexivity. Qed.

(** ** C13 *)
Theorem C13_clamp_panics_refuted : forall lm : Libm f64,
  @clamp _ (f64num lm) (F64 0 0) (F64 1 0) (F64 (-1) 0) = None /\
  @clamp _ (f64num lm) (F64 0 0) B754_nan (F64 1 0) = None.
Proof. intros lm. split; reflexivity. Qed.

(** Exactly when the bounds are not in order; otherwise the answer is the value, or the bound it was beyond. *)
Theorem C13_clamp_f64_partial : forall (lm : Libm f64) (x lo hi : f64),
  (@clamp _ (f64num lm) x lo hi = None <-> @leb _ (f64num lm) lo hi = false) /\
  (@leb _ (f64num lm) lo hi = true ->
    @clamp _ (f64num lm) x lo hi =
      Some (if @ltb _ (f64num lm) x lo then lo else if @ltb _ (f64num lm) hi x then hi else x)).
Proof.
  intros lm x lo hi. cbn [clamp leb ltb f64num fnum]. unfold fclamp. split.
  - destruct (Bleb lo hi); split; congruence.
  - intros H. rewrite H. destruct (Bltb x lo) eqn:E; [|reflexivity].
    assert (N : Bltb hi lo = false); [|rewrite N; reflexivity].
    unfold Bltb, Bleb in *. unfold SFltb, SFleb in *.
    assert (S : SFcompare (B2SF hi) (B2SF lo) = match SFcompare (B2SF lo) (B2SF hi) with Some c => Some (CompOpp c) | None => None end) by (apply Bcompare_swap).
    rewrite S. destruct (SFcompare (B2SF lo) (B2SF hi)) as [[]|]; auto; discriminate.
Qed.

(** The derivative scalars never panic: below the lower bound they give it, as a constant; above the upper
    bound likewise; otherwise they are unchanged. *)
Theorem C13_clamp_derivative_scalars_partial : forall (T : Type) (NT : Num T) (N : nat),
  (forall x lo hi : Dual T, @clamp _ dual_num x lo hi =
     Some (if ltb (value x) (value lo) then dual_constant (value lo)
           else if ltb (value hi) (value x) then dual_constant (value hi) else x)) /\
  (forall x lo hi : HyperDual T, @clamp _ hyper_num x lo hi =
     Some (if ltb (real x) (real lo) then hyper_constant (real lo)
           else if ltb (real hi) (real x) then hyper_constant (real hi) else x)) /\
  (forall x lo hi : Jet T, @clamp _ (jet_num N) x lo hi =
     Some (if ltb (jet_value x) (jet_value lo) then jet_constant N (jet_value lo)
           else if ltb (jet_value hi) (jet_value x) then jet_constant N (jet_value hi) else x)).
Proof. intros T NT N. repeat split; intros; reflexivity. Qed.

Example C13_example : forall lm : Libm f64,
  @leb _ (f64num lm) (F64 (-1) 0) (F64 1 0) = true /\
  @clamp _ (f64num lm) (F64 7 0) (F64 (-1) 0) (F64 1 0) = Some (F64 1 0) /\
  @clamp _ (f64num lm) B754_nan (F64 (-1) 0) (F64 1 0) = Some B754_nan.
Proof. intros lm. repeat split; reflexivity. Qed.

Print Assumptions C08_powi.
Print Assumptions C08_powi_R.
Print Assumptions C09_dual_derivative.
Print Assumptions C09_dual_directional.
Print Assumptions C10_hyper_dual.
Print Assumptions C10_second_derivative.
Print Assumptions C11_jet_taylor.
Print Assumptions C11_jet_product.
Print Assumptions C12_value_unchanged_refuted.
Print Assumptions C12_dual_value_partial.
Print Assumptions C12_hyper_value_partial.
Print Assumptions C12_jet_value_partial.
Print Assumptions C12_shared_partial.
Print Assumptions C12_real_scalars.
Print Assumptions C13_clamp_panics_refuted.
Print Assumptions C13_clamp_f64_partial.
Print Assumptions C13_clamp_derivative_scalars_partial.
