(** C115 the composite rules on finite intervals; C116 on infinite ones. *)
From Coq Require Import Reals ZArith NArith List Arith Bool Lia Lra Psatz.
From Coquelicot Require Import Coquelicot.
From Verif Require Import Base.Scalar Base.RNum Base.XNum Base.Lists Base.Series Model.Errors Model.Summation Model.GaussTables Model.Integration Spec.Summation Spec.Integration Proofs.Integration Proofs.Improper.
Import ListNotations.
Local Open Scope R_scope.
Local Notation cos := Rtrigo_def.cos.
Local Notation sin := Rtrigo_def.sin.
Local Notation tan := Rtrigo1.tan.
Local Notation exp := Rtrigo_def.exp.

(** * C115 *)

(** Counts up to 12000 are rounded up to whole panels. *)
Theorem C115_rounding n method : (0 < n <= N.to_nat 12000)%nat -> let c := iterative_from_parameters n method in
  integration_method c = method /\ exists m, (0 < m)%nat /\ total_iterations c = (m * panel_size method)%nat /\
  (n <= total_iterations c < n + panel_size method)%nat.
Proof.
  intros Hn c. split; [reflexivity|]. unfold c, iterative_from_parameters. cbn [total_iterations]. replace (N.of_nat n <=? 12000)%N with true by (symmetry; apply N.leb_le; lia).
  assert (R : forall k, (0 < k)%nat -> exists m, (0 < m)%nat /\ next_multiple_of n k = (m * k)%nat /\ (n <= next_multiple_of n k < n + k)%nat).
  { intros k Hk. unfold next_multiple_of. pose proof (Nat.div_mod n k ltac:(lia)) as D. pose proof (Nat.mod_upper_bound n k ltac:(lia)) as U. destruct (Nat.eqb_spec (n mod k) 0) as [Z|Z].
    - exists (n / k)%nat. rewrite Z in D. split; [nia|]. split; [nia|lia].
    - exists (S (n / k)). split; [lia|]. split; [nia|lia]. }
  destruct method; cbn [panel_size]; [apply R; lia|apply R; lia|]. exists n. lia.
Qed.

Lemma classify_R a b : a < b -> classify (a, b) = Ok (Finite a b).
Proof. intros H. unfold classify. rnum. cbn [orb]. rewrite (proj2 (Rltb_true a b)) by auto. reflexivity. Qed.
Lemma single_R c f a b : a < b -> (0 < total_iterations c)%nat -> iterative_single c f [(a, b)] = integrate_rule c a b (fun x => Ok (f x)).
Proof.
  intros H Hn. unfold iterative_single, iterative_check. destruct (Nat.eqb_spec (total_iterations c) 0); [lia|]. cbn [check_domains rev app single_levels]. rewrite classify_R by auto. reflexivity.
Qed.

(** On a smooth integrand the error is at most a power of the panel's width: second order for trapezoids, fourth for Simpson's 3/8,
    sixth for Boole's rule. *)
Theorem C115_error c f a b m M : let q := panel_size (integration_method c) in let p := rule_order (integration_method c) in
  a < b -> (0 < m)%nat -> total_iterations c = (m * q)%nat -> smooth_on p f a b M ->
  exists v, iterative_single c f [(a, b)] = Ok v /\ Rabs (v - RInt f a b) <= 2 * (b - a) * (M * ((b - a) / INR m) ^ p / INR (fact p)).
Proof.
  intros q p Hab Hm En Sm. assert (Q : (0 < q)%nat) by (unfold q; destruct (integration_method c); cbn; lia). assert (Hp : (1 < p)%nat) by (unfold p; destruct (integration_method c); cbn; lia).
  rewrite single_R by (auto; nia). rewrite (rule_panels f c m a b En Hm). fold q. eexists. split; [reflexivity|].
  set (d := (b - a) / INR (total_iterations c)).
  assert (In : 0 < INR (total_iterations c)) by (apply lt_0_INR; nia). assert (Im : 0 < INR m) by (apply lt_0_INR; lia). assert (Iq : 0 < INR q) by (apply lt_0_INR; lia).
  assert (Hd : 0 < d) by (apply Rdiv_lt_0_compat; lra). assert (Hb : b = a + INR (m * q) * d) by (unfold d; rewrite <- En; field; lra). assert (Hw : INR q * d = (b - a) / INR m) by (unfold d; rewrite En, mult_INR; field; lra).
  pose proof (panels_error p q (rule_weight (integration_method c)) f a d m (M * ((b - a) / INR m) ^ p / INR (fact p)) (rule_exact _) ltac:(lra)) as P. rewrite <- Hb in P. rewrite <- Hw in *. replace (INR (m * q) * d) with (b - a) in P by lra. apply P.
  - intros x Hx. apply (ex_derive_continuous (V := R_NormedModule)). apply (proj1 (Sm x ltac:(lra)) 1%nat). lia.
  - intros x0 H0 H1. apply (taylor_panel p f a b M); auto; try lia; nra.
Qed.
(** Polynomials below the rule's order are integrated exactly. *)
Theorem C115_exact c (k : nat -> R) a b m : let q := panel_size (integration_method c) in let p := rule_order (integration_method c) in
  a < b -> (0 < m)%nat -> total_iterations c = (m * q)%nat ->
  iterative_single c (polynomial p k) [(a, b)] = Ok (polynomial_integral p k a b).
Proof.
  intros q p Hab Hm En. assert (Q : (0 < q)%nat) by (unfold q; destruct (integration_method c); cbn; lia).
  rewrite single_R by (auto; nia). rewrite (rule_panels (polynomial p k) c m a b En Hm). fold q. f_equal.
  set (d := (b - a) / INR (total_iterations c)).
  assert (In : 0 < INR (total_iterations c)) by (apply lt_0_INR; nia). assert (Hd : 0 < d) by (apply Rdiv_lt_0_compat; lra). assert (Hb : b = a + INR (m * q) * d) by (unfold d; rewrite <- En; field; lra).
  pose proof (panels_error p q (rule_weight (integration_method c)) (polynomial p k) a d m 0 (rule_exact _) ltac:(lra)) as P. rewrite <- Hb in P.
  assert (I : RInt (polynomial p k) a b = polynomial_integral p k a b).
  { apply is_RInt_unique. pose proof (poly_integral p k 0 a b) as J. apply (is_RInt_ext (fun x => bsum p (fun i => k i * (x - 0) ^ i))); [intros x _; unfold polynomial; apply bsum_ext; intros; rewrite Rminus_0_r; reflexivity|].
    replace (polynomial_integral p k a b) with (bsum p (fun i => k i * (b - 0) ^ S i / INR (S i)) - bsum p (fun i => k i * (a - 0) ^ S i / INR (S i))); [exact J|]. rewrite <- bsum_minus. unfold polynomial_integral. apply bsum_ext. intros i _. rewrite !Rminus_0_r. field. apply not_0_INR. lia. }
  rewrite I in P. apply Rminus_diag_uniq. rewrite Rmult_0_r in P. assert (Z : forall z, Rabs z <= 0 -> z = 0) by (intros z Hz; destruct (Req_dec z 0); auto; pose proof (Rabs_pos_lt z H); lra). apply Z, P.
  - intros x _. apply (ex_derive_continuous (V := R_NormedModule)). unfold polynomial. clear. induction p as [|p IH]; cbn [bsum]; [auto_derive; exact I|].
    apply (ex_derive_plus (V := R_NormedModule) (fun x => bsum p (fun i => k i * x ^ i)) (fun x => k p * x ^ p)); [apply IH|auto_derive; exact I].
  - intros x0 _ _. destruct (poly_shift p k x0) as (e & E). exists e. intros x _. unfold polynomial. rewrite E, Rminus_diag_eq, Rabs_R0 by reflexivity. lra.
Qed.
(** Larger counts are not rounded, and then not even constants are: Boole's rule at 12001 steps. *)
Theorem C115_rounding_refuted : exists n v, (0 < n)%nat /\ iterative_single (iterative_from_parameters n Booles) (fun _ => 1) [(0, 1)] = Ok v /\ v <> 1.
Proof.
  set (m := N.to_nat 3000). exists (4 * m + 1)%nat. set (c := iterative_from_parameters (4 * m + 1) Booles).
  assert (Ec : total_iterations c = (4 * m + 1)%nat). { unfold c, iterative_from_parameters. cbn [total_iterations]. replace (N.of_nat (4 * m + 1) <=? 12000)%N with false; [reflexivity|]. symmetry. apply N.leb_gt. unfold m. lia. }
  assert (Hm : (0 < m)%nat) by (unfold m; lia). assert (Im : INR m = 3000) by (unfold m; rewrite INR_IZR_INZ; f_equal; lia). clearbody m.
  eexists. split; [lia|]. split.
  - rewrite single_R by (try lra; rewrite Ec; lia). unfold integrate_rule. change (integration_method c) with Booles. unfold booles. rewrite Ec. apply (gather_ok (fun _ => 1) (4 * m + 1) 0 1 (step_size (4 * m + 1) 0 1) (fun v => mul (of_Z 7) v) (of_Z 32) booles_next (summation c) (fun t => div (mul (mul two (step_size (4 * m + 1) 0 1)) t) (of_Z 45))).
  - replace (4 * m + 1 - 1)%nat with (S (4 * m - 1)) by lia. cbn [bsum]. replace (4 * m - 1)%nat with (S (4 * (m - 1) + 2)) at 2 by lia.
    pose proof (boole_panels (fun _ => 1) m Hm) as B. cbv beta in B. rewrite (bsum_ext m _ (fun _ => 90 * 1)) in B by (intros; ring). rewrite bsum_scal in B. assert (C : forall k, bsum k (fun _ => 1) = INR k) by (induction k; [reflexivity|]; rewrite S_INR; cbn [bsum]; rewrite IHk; reflexivity). rewrite C, Im in B.
    unfold booles_next at 2. assert (D : ((4 * (m - 1) + 2 + 2) mod 4 = 0)%nat) by (replace (4 * (m - 1) + 2 + 2)%nat with (m * 4)%nat by lia; apply Nat.mod_mul; lia). assert (D2 : ((4 * (m - 1) + 2 + 2) mod 2 = 0)%nat) by (replace (4 * (m - 1) + 2 + 2)%nat with ((2 * m) * 2)%nat by lia; apply Nat.mod_mul; lia). rewrite D, D2. cbn [Nat.eqb negb].
    unfold step_size. rnum. rewrite <- INR_IZR_INZ. replace (INR (4 * m + 1)) with 12001 by (rewrite plus_INR, mult_INR, Im; cbn; ring). set (s := bsum (4 * m - 1) _) in *. replace s with (270000 - 14) by lra. lra.
Qed.

(** * C116 *)

(** An infinite range is walked in a new variable from 0 to 1, short of the infinite end by epsilon: the answer is the rule's for the
    part of the range that leaves, up to the rule's error on the transformed integrand. *)
Lemma eps_small : 0 < / IZR (2 ^ 52) < 1 / 4.
Proof. split; [apply Rinv_0_lt_compat; lra|]. unfold Rdiv. rewrite Rmult_1_l. apply Rinv_lt_contravar; lra. Qed.
Lemma infinite_case c (g : XR -> sampled XR) h lo hi m M : let q := panel_size (integration_method c) in let p := rule_order (integration_method c) in
  lo < hi -> (0 < m)%nat -> total_iterations c = (m * q)%nat -> (forall x, lo <= x <= hi -> g (Fin x) = Ok (Fin (h x))) -> smooth_on p h lo hi M ->
  exists v, integrate_rule c (Fin lo) (Fin hi) g = Ok (Fin v) /\ Rabs (v - RInt h lo hi) <= 2 * (hi - lo) * (M * ((hi - lo) / INR m) ^ p / INR (fact p)).
Proof.
  intros q p H Hm En G Sm. assert (Q : (0 < q)%nat) by (unfold q; destruct (integration_method c); cbn; lia). destruct (C115_error c h lo hi m M H Hm En Sm) as (v & E & B). rewrite single_R in E by (auto; fold q in En; nia).
  exists v. split; [|exact B]. rewrite (rule_up g h lo hi G) by (try lra; fold q in En; nia). rewrite E. reflexivity.
Qed.
Theorem C116_upward c fx f a m M : let q := panel_size (integration_method c) in let p := rule_order (integration_method c) in let w := 1 - / IZR (2 ^ 52) in
  (0 < m)%nat -> total_iterations c = (m * q)%nat -> (forall x, a <= x -> fx (Fin x) = Fin (f x) /\ continuous f x) ->
  smooth_on p (fun t => f (a + t / (1 - t)) * (1 / ((1 - t) * (1 - t)))) 0 w M ->
  exists v, iterative_single c fx [(Fin a, PInf)] = Ok (Fin v) /\ Rabs (v - RInt f a (a + (IZR (2 ^ 52) - 1))) <= 2 * w * (M * (w / INR m) ^ p / INR (fact p)).
Proof.
  intros q p w Hm En Hf Sm. pose proof eps_small as E. assert (Hw : 0 < w < 1) by (unfold w; lra). assert (Q : (0 < q)%nat) by (unfold q; destruct (integration_method c); cbn; lia).
  set (h := fun t => f (a + t / (1 - t)) * (1 / ((1 - t) * (1 - t)))) in *.
  set (g := fun sample : XR => let '(x, jacobian) := map_sample (LowerToInf (Fin a)) sample in check_finite (mul (fx x) jacobian)).
  destruct (infinite_case c g h 0 w m M ltac:(lra) Hm En) as (v & Ev & Bv); [|exact Sm|].
  - intros t Ht. unfold g, map_sample. cbn [sub one Xnum Rnum xadd xneg mul add div xmul]. change (1 + - t) with (1 - t). rewrite !xdiv_fin by nra. cbn [xadd]. rewrite (proj1 (Hf (a + t / (1 - t)) ltac:(assert (0 <= t / (1 - t)) by (apply Rmult_le_pos; [lra|apply Rlt_le, Rinv_0_lt_compat; lra]); lra))). reflexivity.
  - exists v. split.
    + unfold iterative_single, iterative_check. destruct (Nat.eqb_spec (total_iterations c) 0); [nia|]. cbn [check_domains rev app single_levels]. unfold classify. cbn. exact Ev.
    + rewrite Rminus_0_r in Bv. replace (RInt f a (a + (IZR (2 ^ 52) - 1))) with (RInt h 0 w); [exact Bv|].
      transitivity (RInt (fun t => scal (1 / ((1 - t) * (1 - t))) (f (a + t / (1 - t)))) 0 w); [apply RInt_ext; intros t _; unfold h, scal; cbn; unfold mult; cbn; ring|].
      rewrite (RInt_comp (V := R_CompleteNormedModule) f (fun t => a + t / (1 - t)) (fun t => 1 / ((1 - t) * (1 - t)))).
      * f_equal; [field|]. unfold w. field. split; lra.
      * intros t. rewrite Rmin_left, Rmax_right by lra. intros Ht. apply (Hf (a + t / (1 - t))). assert (0 <= t / (1 - t)) by (apply Rmult_le_pos; [lra|apply Rlt_le, Rinv_0_lt_compat; lra]). lra.
      * intros t. rewrite Rmin_left, Rmax_right by lra. intros Ht. split; [auto_derive; [lra|]; field; lra|]. apply (ex_derive_continuous (V := R_NormedModule)). auto_derive. nra.
Qed.
Theorem C116_downward c fx f b m M : let q := panel_size (integration_method c) in let p := rule_order (integration_method c) in let w := 1 - / IZR (2 ^ 52) in
  (0 < m)%nat -> total_iterations c = (m * q)%nat -> (forall x, x <= b -> fx (Fin x) = Fin (f x) /\ continuous f x) ->
  smooth_on p (fun t => f (b - t / (1 - t)) * (1 / ((1 - t) * (1 - t)))) 0 w M ->
  exists v, iterative_single c fx [(NInf, Fin b)] = Ok (Fin v) /\ Rabs (v - RInt f (b - (IZR (2 ^ 52) - 1)) b) <= 2 * w * (M * (w / INR m) ^ p / INR (fact p)).
Proof.
  intros q p w Hm En Hf Sm. pose proof eps_small as E. assert (Hw : 0 < w < 1) by (unfold w; lra). assert (Q : (0 < q)%nat) by (unfold q; destruct (integration_method c); cbn; lia).
  set (h := fun t => f (b - t / (1 - t)) * (1 / ((1 - t) * (1 - t)))) in *.
  set (g := fun sample : XR => let '(x, jacobian) := map_sample (UpperToInf (Fin b)) sample in check_finite (mul (fx x) jacobian)).
  assert (Pos : forall t, 0 <= t <= w -> 0 <= t / (1 - t)) by (intros t Ht; apply Rmult_le_pos; [lra|apply Rlt_le, Rinv_0_lt_compat; lra]).
  destruct (infinite_case c g h 0 w m M ltac:(lra) Hm En) as (v & Ev & Bv); [|exact Sm|].
  - intros t Ht. unfold g, map_sample. cbn [sub one Xnum Rnum xadd xneg mul add div xmul]. change (1 + - t) with (1 - t). rewrite !xdiv_fin by nra. cbn [xadd xneg]. specialize (Pos t Ht). change (b + - (t / (1 - t))) with (b - t / (1 - t)). rewrite (proj1 (Hf (b - t / (1 - t)) ltac:(lra))). reflexivity.
  - exists v. split.
    + unfold iterative_single, iterative_check. destruct (Nat.eqb_spec (total_iterations c) 0); [nia|]. cbn [check_domains rev app single_levels]. unfold classify. cbn. exact Ev.
    + rewrite Rminus_0_r in Bv. replace (RInt f (b - (IZR (2 ^ 52) - 1)) b) with (RInt h 0 w); [exact Bv|].
      transitivity (- RInt (fun t => scal (- (1 / ((1 - t) * (1 - t)))) (f (b - t / (1 - t)))) 0 w).
      { rewrite <- (RInt_opp (V := R_CompleteNormedModule)).
        - apply RInt_ext. intros t _. unfold h, scal, opp; cbn; unfold mult; cbn; ring.
        - apply (ex_RInt_continuous (V := R_CompleteNormedModule)). intros t. rewrite Rmin_left, Rmax_right by lra. intros Ht. apply (continuous_scal (K := R_AbsRing) (V := R_NormedModule)); [apply (ex_derive_continuous (V := R_NormedModule)); auto_derive; nra|].
          apply (continuous_comp (fun t => b - t / (1 - t)) f); [apply (ex_derive_continuous (V := R_NormedModule)); auto_derive; lra|]. specialize (Pos t Ht). apply (Hf (b - t / (1 - t))). lra. }
      rewrite (RInt_comp (V := R_CompleteNormedModule) f (fun t => b - t / (1 - t)) (fun t => - (1 / ((1 - t) * (1 - t))))).
      * change (- RInt f (b - 0 / (1 - 0)) (b - w / (1 - w))) with (opp (RInt f (b - 0 / (1 - 0)) (b - w / (1 - w)))). rewrite (opp_RInt_swap (V := R_CompleteNormedModule)).
        -- f_equal; [|field]. unfold w. field. split; lra.
        -- apply (ex_RInt_continuous (V := R_CompleteNormedModule)). intros x. replace (b - 0 / (1 - 0)) with b by field. pose proof (Pos w ltac:(lra)). rewrite Rmin_right, Rmax_left by lra. intros Hx. apply Hf. lra.
      * intros t. rewrite Rmin_left, Rmax_right by lra. intros Ht. specialize (Pos t Ht). apply (Hf (b - t / (1 - t))). lra.
      * intros t. rewrite Rmin_left, Rmax_right by lra. intros Ht. split; [auto_derive; [lra|]; field; lra|]. apply (ex_derive_continuous (V := R_NormedModule)). auto_derive. nra.
Qed.
Theorem C116_both c fx f m M : let q := panel_size (integration_method c) in let p := rule_order (integration_method c) in let e := / IZR (2 ^ 52) in
  (0 < m)%nat -> total_iterations c = (m * q)%nat -> (forall x, fx (Fin x) = Fin (f x) /\ continuous f x) ->
  smooth_on p (fun t => f (tan (PI * (t - / 2))) * (PI / (cos (PI * (t - / 2)) * cos (PI * (t - / 2))))) e (1 - e) M ->
  exists v, iterative_single c fx [(NInf, PInf)] = Ok (Fin v) /\
    Rabs (v - RInt f (- tan (PI * (/ 2 - e))) (tan (PI * (/ 2 - e)))) <= 2 * (1 - 2 * e) * (M * ((1 - 2 * e) / INR m) ^ p / INR (fact p)).
Proof.
  intros q p e Hm En Hf Sm. pose proof eps_small as E. fold e in E. assert (Q : (0 < q)%nat) by (unfold q; destruct (integration_method c); cbn; lia).
  set (h := fun t => f (tan (PI * (t - / 2))) * (PI / (cos (PI * (t - / 2)) * cos (PI * (t - / 2))))) in *. pose proof PI_RGT_0 as P.
  assert (C : forall t, e <= t <= 1 - e -> 0 < cos (PI * (t - / 2))) by (intros t Ht; apply cos_gt_0; nra).
  set (g := fun sample : XR => let '(x, jacobian) := map_sample BothInf sample in check_finite (mul (fx x) jacobian)).
  destruct (infinite_case c g h e (1 - e) m M ltac:(lra) Hm En) as (v & Ev & Bv); [|exact Sm|].
  - intros t Ht. specialize (C t Ht). unfold g, map_sample. cbn. change (t + - / 2) with (t - / 2). destruct (Req_EM_T _ _) as [C0|_]; [nra|]. rewrite (proj1 (Hf _)). reflexivity.
  - exists v. split.
    + unfold iterative_single, iterative_check. destruct (Nat.eqb_spec (total_iterations c) 0); [nia|]. cbn [check_domains rev app single_levels]. unfold classify. cbn. exact Ev.
    + replace (1 - e - e) with (1 - 2 * e) in Bv by ring. replace (RInt f (- tan (PI * (/ 2 - e))) (tan (PI * (/ 2 - e)))) with (RInt h e (1 - e)); [exact Bv|].
      transitivity (RInt (fun t => scal (PI / (cos (PI * (t - / 2)) * cos (PI * (t - / 2)))) (f (tan (PI * (t - / 2))))) e (1 - e)); [apply RInt_ext; intros t _; unfold h, scal; cbn; unfold mult; cbn; ring|].
      rewrite (RInt_comp (V := R_CompleteNormedModule) f (fun t => tan (PI * (t - / 2))) (fun t => PI / (cos (PI * (t - / 2)) * cos (PI * (t - / 2))))).
      * rewrite <- tan_neg. f_equal; f_equal; lra.
      * intros t _. apply Hf.
      * intros t. rewrite Rmin_left, Rmax_right by lra. intros Ht. specialize (C t Ht). split.
        -- apply (is_derive_ext (fun t => sin (PI * (t - / 2)) / cos (PI * (t - / 2)))); [intros; reflexivity|]. evar_last; [auto_derive; [change (t + - / 2) with (t - / 2); lra|reflexivity]|]. change (t + - / 2) with (t - / 2). set (x := PI * (t - / 2)) in *. pose proof (sin2_cos2 x) as S2. unfold Rsqr in S2. match goal with |- ?x = ?y => change (@eq R x y) end. replace (PI / (cos x * cos x)) with (PI * (sin x * sin x + cos x * cos x) / (cos x * cos x)) by (rewrite S2; field; lra). field. lra.
        -- apply (ex_derive_continuous (V := R_NormedModule)). auto_derive. change (t + - / 2) with (t - / 2). nra.
Qed.

Lemma derive_n_exp k : forall x, is_derive_n exp k x (exp x).
Proof.
  destruct k as [|k]; intros x; [reflexivity|]. cbn. apply (is_derive_ext exp); [|apply is_derive_exp]. intros t. induction k as [|k IH] in t |- *; [reflexivity|].
  cbn. transitivity (Derive exp t); [symmetry; apply is_derive_unique, is_derive_exp|]. apply Derive_ext. intros u. apply IH.
Qed.
Lemma smooth_const p f v a b (D : R -> Prop) : (0 < p)%nat -> open D -> (forall x, D x -> f x = v) -> (forall x, a <= x <= b -> D x) -> smooth_on p f a b 0.
Proof.
  intros Hp O E H x Hx. assert (L : locally x (fun t => v = f t)). { destruct (O x (H x Hx)) as [d Hd]. exists d. intros y Hy. symmetry. apply E, Hd, Hy. }
  assert (K : forall k, (0 < k)%nat -> is_derive_n f k x 0). { intros k Hk. apply (is_derive_n_ext_loc (fun _ => v)); [exact L|]. destruct k as [|k]; [lia|]. apply is_derive_n_const. }
  split.
  - intros k _. destruct k as [|k]; [exact I|]. specialize (K (S k) ltac:(lia)). exists 0. exact K.
  - rewrite (is_derive_n_unique _ _ _ _ (K p Hp)), Rabs_R0. lra.
Qed.

(** The default integrator, Boole's rule over thirty panels, on the exponential; and the tail of [1/(1+x)^2], whose transformed integrand
    is constant *)
Example C115_example : exists v, integral exp (0, 1) = Ok v /\ Rabs (v - (exp 1 - 1)) <= 2 * (3 * (1 / 30) ^ 6 / 720).
Proof.
  destruct (C115_error iterative_default exp 0 1 30 3) as (v & E & B); cbn; try lra; try lia.
  - intros x Hx. split; [intros k _; destruct k; [exact I|exists (exp x); apply (derive_n_exp (S k))]|]. cbn [rule_order]. rewrite (is_derive_n_unique _ _ _ _ (derive_n_exp 6 x)). rewrite Rabs_pos_eq by (left; apply exp_pos).
    apply (Rle_trans _ (exp 1)); [|apply exp_le_3]. destruct (Rle_lt_or_eq_dec x 1 (proj2 Hx)) as [H| ->]; [left; apply exp_increasing, H|lra].
  - exists v. split; [exact E|]. replace (RInt exp 0 1) with (exp 1 - 1) in B.
    + eapply Rle_trans; [exact B|]. cbn. lra.
    + symmetry. apply is_RInt_unique. replace (exp 1 - 1) with (minus (exp 1) (exp 0)) by (unfold minus, plus, opp; cbn; rewrite exp_0; ring). apply (is_RInt_derive exp exp); intros x _; [apply is_derive_exp|apply continuous_exp].
Qed.
Example C116_example : iterative_single iterative_default (fun x => xdiv (Fin 1) (xmul (xadd (Fin 1) x) (xadd (Fin 1) x))) [(Fin 0, PInf)] = Ok (Fin (1 - / IZR (2 ^ 52))).
Proof.
  set (f := fun x => 1 / ((1 + x) * (1 + x))). pose proof eps_small as E.
  assert (V : RInt f 0 (0 + (IZR (2 ^ 52) - 1)) = 1 - / IZR (2 ^ 52)).
  { apply is_RInt_unique. replace (1 - / IZR (2 ^ 52)) with (minus (- / (1 + (0 + (IZR (2 ^ 52) - 1)))) (- / (1 + 0))) by (unfold minus, plus, opp; cbn -[IZR]; field; lra).
    apply (is_RInt_derive (fun x => - / (1 + x)) f); intros x; rewrite Rmin_left, Rmax_right by lra; intros Hx; unfold f.
    - auto_derive; [lra|]. field. lra.
    - apply (ex_derive_continuous (V := R_NormedModule)). auto_derive. nra. }
  destruct (C116_upward iterative_default (fun x => xdiv (Fin 1) (xmul (xadd (Fin 1) x) (xadd (Fin 1) x))) f 0 30 0) as (v & Ev & Bv); try (cbn; lia).
  - intros x Hx. split; [cbn; destruct (Req_EM_T _ _); [nra|reflexivity]|]. apply (ex_derive_continuous (V := R_NormedModule)). unfold f. auto_derive. nra.
  - apply (smooth_const _ _ 1 _ _ (fun t => t < 1)); [cbn; lia|apply open_lt| |intros; lra]. intros t Ht. unfold f. field. split; [lra|]. replace (1 - t + t) with 1 by ring. lra.
  - rewrite Ev. do 2 f_equal. rewrite V in Bv. unfold Rdiv in Bv at 1. rewrite !Rmult_0_l, Rmult_0_r in Bv. pose proof (Rabs_pos (v - (1 - / IZR (2 ^ 52)))). apply Rminus_diag_uniq. destruct (Req_dec (v - (1 - / IZR (2 ^ 52))) 0) as [Z|Z]; [exact Z|]. apply Rabs_pos_lt in Z. lra.
Qed.

Print Assumptions C115_rounding.
Print Assumptions C115_error.
Print Assumptions C115_exact.
Print Assumptions C115_rounding_refuted.
Print Assumptions C116_upward.
Print Assumptions C116_downward.
Print Assumptions C116_both.
