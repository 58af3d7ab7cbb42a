(** C112: the adaptive Dormand-Prince driver.  C113: its dense output. *)
From Coq Require Import ZArith Reals List Bool Arith Lia Lra Psatz.
From Coquelicot Require Import Coquelicot.
From Verif Require Import Base.Scalar Base.RNum Base.Lists Base.Series Model.Errors Model.Vector Model.Ode.
From Verif Require Import Spec.Ode Proofs.Vector Proofs.Ode Proofs.Tableau.
Import ListNotations.
Local Open Scope R_scope.
Local Notation length := List.length.
Local Notation Forall := List.Forall.

(** Each step starts where the one before ended, with the derivative that one computed last. *)
Fixpoint chained {T} (time : T) (state derivative : list T) (steps : list (ode_step T)) : Prop :=
  match steps with
  | [] => True
  | s :: rest => time_start s = time /\ state_start s = state /\ derivative_start s = derivative /\ chained (time_end s) (state_end s) (derivative_end s) rest
  end.
(** The state a chain of steps ends with. *)
Fixpoint reached {T} (state : list T) (steps : list (ode_step T)) : list T := match steps with [] => state | s :: rest => reached (state_end s) rest end.
Fixpoint reached_time {T} (time : T) (steps : list (ode_step T)) : T := match steps with [] => time | s :: rest => reached_time (time_end s) rest end.

Section Free.
Context {T : Type} {NT : Num T}.
Lemma loop_chain n c f tf remaining : forall k s, let '(steps, answer) := rk45_loop n c f tf remaining k s in
  chained (rs_time s) (rs_y s) (rs_stage1 s) steps /\ (length steps <= remaining)%nat /\ (forall x, In x steps -> vec_is_finite (state_end x) = true) /\
  match answer with
  | Ok z => steps <> [] /\ reached (rs_y s) steps = z /\ leb (abs (sub tf (reached_time (rs_time s) steps))) (mul epsilon (add one (abs tf))) = true
  | Err (InDidNotConverge j) => (j = remaining + k)%nat
  | Err InStepSizeTooSmall => ltb zero (rk_min_step c) = true
  | Err InNonFinite => True
  | _ => False
  end.
Proof.
  induction remaining as [|m IH]; intros k s; [cbn; repeat split; try lia; try contradiction|]. cbn [rk45_loop].
  set (h := if ltb _ _ then _ else _). destruct (dopri_step f (rs_time s) (rs_y s) h (rs_stage1 s)) as [[y5 err] k7].
  destruct (vec_is_finite y5) eqn:Fy; [|cbn; repeat split; try lia; contradiction]. destruct (vec_is_finite err) eqn:Fe; [|cbn; repeat split; try lia; contradiction]. cbn [negb orb].
  set (en := error_norm n err (rs_y s) y5 (rk_atol c) (rk_rtol c)). destruct (leb en one) eqn:Acc.
  - set (tnew := add (rs_time s) (sub h (rs_kahan s))). destruct (leb (abs (sub tf tnew)) (mul epsilon (add one (abs tf)))) eqn:Fin.
    + cbv beta iota. split; [cbn; auto|]. split; [cbn; lia|]. split; [intros x [<-|[]]; exact Fy|]. split; [discriminate|]. split; [reflexivity|exact Fin].
    + cbn [rs_h]. set (hn := next_step_size c h en (rs_err_prev s) true). destruct (ltb zero (rk_min_step c) && ltb (abs hn) (rk_min_step c))%bool eqn:Mn.
      * apply andb_true_iff in Mn as [Mn _]. cbv beta iota. split; [cbn; auto|]. split; [cbn; lia|]. split; [intros x [<-|[]]; exact Fy|exact Mn].
      * match goal with |- context [rk45_loop n c f tf m (S k) ?st] => set (st' := st); specialize (IH (S k) st') end. destruct (rk45_loop n c f tf m (S k) st') as [later answer]. destruct IH as (Ch & Le & Fi & An).
        cbn [length chained reached reached_time time_start state_start derivative_start time_end state_end derivative_end]. split; [repeat split; exact Ch|]. split; [lia|]. split; [intros x [<-|I]; [exact Fy|apply Fi; exact I]|].
        destruct answer as [z|[]|]; auto; try lia. destruct An as (A1 & A2 & A3). repeat split; [discriminate|exact A2|exact A3].
  - cbn [rs_h]. set (hn := next_step_size c h en (rs_err_prev s) false). destruct (ltb zero (rk_min_step c) && ltb (abs hn) (rk_min_step c))%bool eqn:Mn.
    + apply andb_true_iff in Mn as [Mn _]. cbv beta iota. split; [exact I|]. split; [cbn; lia|]. split; [intros x []|exact Mn].
    + match goal with |- context [rk45_loop n c f tf m (S k) ?st] => set (st' := st); specialize (IH (S k) st') end. destruct (rk45_loop n c f tf m (S k) st') as [later answer]. destruct IH as (Ch & Le & Fi & An).
      split; [exact Ch|]. split; [lia|]. split; [exact Fi|]. destruct answer as [z|[]|]; auto; lia.
Qed.
(** What the driver does for any scalars: the steps handed out make a chain from the start, there are no more of them than
    attempts, and an answer is the state where the chain ends, which is at the final time but for rounding.  Every error has
    one cause. *)
Theorem C112_chain n c f t0 y0 tf : let '(steps, answer) := for_each_step n c f t0 y0 tf in
  chained t0 y0 (f t0 y0) steps /\ (length steps <= rk_max_steps c)%nat /\ (forall x, In x steps -> vec_is_finite (state_end x) = true) /\
  match answer with
  | Ok z => steps <> [] /\ reached y0 steps = z /\ leb (abs (sub tf (reached_time t0 steps))) (mul epsilon (add one (abs tf))) = true
  | Err InLimitsIllDefined => is_finite t0 = false \/ is_finite tf = false \/ eqb t0 tf = true
  | Err InNonFinite => is_finite t0 = true /\ is_finite tf = true /\ eqb t0 tf = false
  | Err InStepSizeTooSmall => ltb zero (rk_min_step c) = true
  | Err (InDidNotConverge j) => j = rk_max_steps c
  | _ => False
  end.
Proof.
  unfold for_each_step. destruct (is_finite t0) eqn:F0; [|cbn; repeat split; try lia; auto; contradiction]. destruct (is_finite tf) eqn:F1; [|cbn; repeat split; try lia; auto; contradiction]. destruct (eqb t0 tf) eqn:E; [cbn; repeat split; try lia; auto; contradiction|]. cbn [negb orb].
  destruct (vec_is_finite y0); [|cbn; repeat split; try lia; auto; contradiction]. destruct (vec_is_finite (f t0 y0)); [|cbn; repeat split; try lia; auto; contradiction]. cbn [negb orb].
  match goal with |- context [rk45_loop n c f tf _ _ ?st] => pose proof (loop_chain n c f tf (rk_max_steps c) 0 st) as H end. destruct (rk45_loop n c f tf _ _ _) as [steps answer]. cbn [rs_time rs_y rs_stage1] in H. destruct H as (H1 & H2 & H3 & H4).
  repeat split; auto. destruct answer as [z|[]|]; auto. rewrite H4, Nat.add_0_r. reflexivity.
Qed.
End Free.

(** ** One accepted step, in exact arithmetic *)
(** The error estimate, component by component, relative to what the tolerances allow there. *)
Definition allowance (c : rk45 R) (ya yb : list R) (i : nat) : R := rk_atol c + rk_rtol c * Rmax (Rabs (nth i ya 0)) (Rabs (nth i yb 0)).
Definition within_tolerance (n : nat) (c : rk45 R) (err ya yb : list R) : Prop := bsum n (fun i => (nth i err 0 / allowance c ya yb i) ^ 2) <= INR n.
Lemma fold_combine (g : R -> R -> R -> R) : forall (e a b : list R) s0, length a = length e -> length b = length e ->
  fold_left (fun sum x => let '(x, (y, z)) := x in sum + g x y z) (combine e (combine a b)) s0 = s0 + bsum (length e) (fun i => g (nth i e 0) (nth i a 0) (nth i b 0)).
Proof.
  induction e as [|x e IH]; intros [|y a] [|z b] s0 La Lb; try discriminate; [cbn; ring|]. cbn [combine fold_left length]. rewrite IH by (cbn in *; lia). rewrite bsum_first. cbn [nth]. ring.
Qed.
Lemma error_norm_spec n c err ya yb : length err = n -> length ya = n -> length yb = n -> error_norm n err ya yb (rk_atol c) (rk_rtol c) <= 1 -> within_tolerance n c err ya yb.
Proof.
  intros L1 L2 L3. unfold error_norm, within_tolerance. destruct (Nat.eqb_spec n 0) as [->|N0]; [intros _; cbn; lra|]. rnum. unfold of_nat. rnum. rewrite <- INR_IZR_INZ.
  match goal with |- R_sqrt.sqrt (?s / _) <= 1 -> _ => assert (E : s = bsum n (fun i => (nth i err 0 / allowance c ya yb i) ^ 2)) end.
  { etransitivity; [apply (fold_combine (fun x y z => (x / (rk_atol c + rk_rtol c * Rmax (Rabs y) (Rabs z))) * (x / (rk_atol c + rk_rtol c * Rmax (Rabs y) (Rabs z)))) err ya yb 0); congruence|]. rewrite L1, Rplus_0_l. apply bsum_ext. intros i _. unfold allowance. ring. }
  rewrite E. intros H. assert (Pn : 0 < INR n) by (apply lt_0_INR; lia). set (S := bsum n _) in *. assert (0 <= S) by (apply bsum_nonneg; intros; apply pow2_ge_0).
  assert (S / INR n <= 1). { rewrite <- sqrt_1 in H. apply sqrt_le_0 in H; try lra. apply Rmult_le_pos; [auto|left; apply Rinv_0_lt_compat; auto]. }
  apply (Rmult_le_reg_r (/ INR n)); [apply Rinv_0_lt_compat; auto|]. rewrite Rinv_r by lra. exact H1.
Qed.

Definition accepted (n : nat) (c : rk45 R) (f : R -> list R -> list R) (s : ode_step R) : Prop :=
  length (state_start s) = n /\ derivative_start s = f (time_start s) (state_start s) /\ derivative_end s = f (time_end s) (state_end s) /\
  exists err, dopri_step f (time_start s) (state_start s) (time_end s - time_start s) (f (time_start s) (state_start s)) = (state_end s, err, derivative_end s) /\
    within_tolerance n c err (state_start s) (state_end s).
(** towards the final time, not past it, and no longer than allowed *)
Definition well_timed (c : rk45 R) (t0 tf : R) (s : ode_step R) : Prop :=
  0 < (time_end s - time_start s) * (tf - t0) /\ 0 <= (tf - time_end s) * (tf - t0) /\ Rabs (time_end s - time_start s) <= rk_max_step c.

Lemma next_step_sign c (h e p : R) a : 0 < rk_max_step c -> h <> 0 -> 0 < next_step_size c h e p a * h /\ Rabs (next_step_size c h e p a) <= rk_max_step c.
Proof.
  intros Hm H0. unfold next_step_size. rnum. set (g0 := 9 / 10 * _ * _). set (g1 := Rmin (Rmax g0 (2 / 10)) (10 / 1)). assert (0 < g1) by (apply Rmin_glb_lt; [eapply Rlt_le_trans; [|apply Rmax_r]; lra|lra]).
  set (g := if negb a then Rmin g1 1 else g1). assert (0 < g) by (unfold g; destruct (negb a); [apply Rmin_glb_lt; lra|lra]). assert (P2 : 0 < h * h) by (apply Rsqr_pos_lt; auto).
  destruct (Rltb (rk_max_step c) (Rabs (h * g))) eqn:E; rcases.
  - unfold Rcopysign. destruct (Rlt_dec (h * g) 0) as [L|L].
    + assert (h < 0) by nra. rewrite Rabs_Ropp, Rabs_Rabsolu, Rabs_right by lra. split; [nra|lra].
    + assert (0 < h) by nra. rewrite Rabs_Rabsolu, Rabs_right by lra. split; [nra|lra].
  - split; [|lra]. replace (h * g * h) with (h * h * g) by ring. apply Rmult_lt_0_compat; auto.
Qed.
Lemma initial_step_sign n c f t0 y0 k dir span : 0 < rk_max_step c -> (dir = 1 \/ dir = -1) -> 0 < span -> 0 < select_initial_step n c f t0 y0 k dir span * dir /\ Rabs (select_initial_step n c f t0 y0 k dir span) <= rk_max_step c.
Proof.
  intros Hm Hd Hs. assert (Fin : forall x, 0 < x -> x <= rk_max_step c -> 0 < dir * x * dir /\ Rabs (dir * x) <= rk_max_step c).
  { intros x Hx Hx2. destruct Hd as [-> | ->]; (split; [lra|]); [rewrite Rmult_1_l, Rabs_right by lra; auto|]. replace (-1 * x) with (- x) by ring. rewrite Rabs_Ropp, Rabs_right by lra. auto. }
  unfold select_initial_step. rnum. destruct (Rltb 0 (rk_first_step c)) eqn:E; rcases.
  - apply Fin; [repeat apply Rmin_glb_lt; auto|]. eapply Rle_trans; [apply Rmin_l|apply Rmin_r].
  - set (n0 := scaled_norm n y0 y0 _ _). set (n1 := scaled_norm n k y0 _ _). set (s0 := if (_ || _)%bool then _ else _). assert (P0 : 0 < s0).
    { unfold s0. destruct (Rltb n0 (1 / 100000) || Rltb n1 (1 / 100000))%bool eqn:E2; [lra|]. rcases. apply Rdiv_lt_0_compat; lra. }
    set (st1 := if Rleb _ _ then _ else _). assert (P1 : 0 < st1). { unfold st1. destruct (Rleb _ _); [eapply Rlt_le_trans; [|apply Rmax_r]; lra|apply exp_pos]. }
    apply Fin; [repeat apply Rmin_glb_lt; auto; lra|]. eapply Rle_trans; [apply Rmin_r|apply Rmin_r].
Qed.
Lemma loop_steps n c f t0 tf : same_size n f -> 0 < rk_max_step c -> forall remaining k s, length (rs_y s) = n -> rs_stage1 s = f (rs_time s) (rs_y s) -> rs_kahan s = 0 ->
  0 < (tf - rs_time s) * (tf - t0) -> 0 < rs_h s * (tf - t0) -> Rabs (rs_h s) <= rk_max_step c ->
  forall x, In x (fst (rk45_loop n c f tf remaining k s)) -> accepted n c f x /\ well_timed c t0 tf x.
Proof.
  intros Size Hm. induction remaining as [|m IH]; intros k s Ly Es Ek Hl Hh Hh2 x; [contradiction|]. cbn [rk45_loop]. rnum.
  set (left := tf - rs_time s) in *. set (h := if Rltb (Rabs left) (Rabs (rs_h s)) then left else rs_h s).
  assert (Ph : 0 < h * (tf - t0)) by (unfold h; destruct (Rltb _ _); auto). assert (Nt : tf - t0 <> 0) by (intros E; rewrite E in Ph; lra). assert (Nh : h <> 0) by (intros E; rewrite E in Ph; lra).
  assert (Hmax : Rabs h <= rk_max_step c /\ Rabs h <= Rabs left) by (unfold h; destruct (Rltb _ _) eqn:E; rcases; lra).
  assert (Over : 0 <= (left - h) * (tf - t0)).
  { destruct Hmax as [_ Hm2]. destruct (Rlt_dec 0 (tf - t0)) as [P|P]; [assert (0 < left) by nra; assert (0 < h) by nra; rewrite !Rabs_right in Hm2 by lra; nra|]. assert (left < 0) by nra. assert (h < 0) by nra. rewrite !Rabs_left in Hm2 by lra. nra. }
  pose proof (dopri_length n f Size (rs_time s) (rs_y s) h Ly) as L5. rewrite Es. destruct (dopri_step f (rs_time s) (rs_y s) h (f (rs_time s) (rs_y s))) as [[y5 err] k7] eqn:Ed. cbn [fst] in L5.
  assert (E7 : k7 = f (rs_time s + h) y5) by (pose proof (eq_refl (dopri_step f (rs_time s) (rs_y s) h (f (rs_time s) (rs_y s)))) as Q; rewrite Ed in Q at 2; inversion Q; rnum; congruence).
  assert (Le : length err = n). { pose proof Ed as Q. unfold dopri_step in Q. inversion Q as [[Q1 Q2 Q3]]. clear Q Q1 Q3 Q2. repeat first [apply Size | apply scaled_length | apply added_length | assumption]. }
  destruct (negb (vec_is_finite y5) || negb (vec_is_finite err))%bool; [cbn; contradiction|].
  set (en := error_norm n err (rs_y s) y5 (rk_atol c) (rk_rtol c)). destruct (Rleb en 1) eqn:Acc; rcases.
  - rewrite Ek, Rminus_0_r. replace (rs_time s + h - rs_time s - h) with 0 by ring. set (st := {| time_start := rs_time s; time_end := rs_time s + h |}).
    assert (Good : accepted n c f st /\ well_timed c t0 tf st).
    { split; [|unfold well_timed, st; cbn [time_start time_end]; replace (rs_time s + h - rs_time s) with h by ring; replace (tf - (rs_time s + h)) with (left - h) by (unfold left; ring); split; [auto|split; [auto|apply Hmax]]].
      unfold accepted, st. cbn [time_start time_end state_start state_end derivative_start derivative_end]. replace (rs_time s + h - rs_time s) with h by ring. repeat split; auto. exists err. split; [exact Ed|]. apply error_norm_spec; auto. }
    destruct (Rleb _ _) eqn:Fin; rcases; [cbn [fst In]; intros [<-|[]]; exact Good|]. cbn [rs_h].
    destruct (next_step_sign c h en (rs_err_prev s) true Hm Nh) as [Q1 Q2]. set (hn := next_step_size c h en (rs_err_prev s) true) in *. destruct (_ && _)%bool; [cbn [fst In]; intros [<-|[]]; exact Good|].
    match goal with |- context [rk45_loop n c f tf m (S k) ?st] => set (st' := st); specialize (IH (S k) st') end. destruct (rk45_loop n c f tf m (S k) st') as [later answer]. cbn [fst In] in *. intros [<-|I]; [exact Good|].
    apply IH; auto; unfold st'; cbn [rs_y rs_stage1 rs_time rs_h rs_kahan]; auto.
    + replace (tf - (rs_time s + h)) with (left - h) in * by (unfold left; ring). assert (left - h <> 0). { intros E. rewrite E, Rabs_R0 in Fin. pose proof (Rabs_pos tf). assert (0 < / IZR (2 ^ 52)) by (apply Rinv_0_lt_compat; lra). assert (0 < / IZR (2 ^ 52) * (1 + Rabs tf)) by (apply Rmult_lt_0_compat; lra). lra. }
      destruct (Rdichotomy _ _ H); destruct (Rdichotomy _ _ Nt); nra.
    + destruct (Rdichotomy _ _ Nt); destruct (Rdichotomy _ _ Nh); nra.
  - cbn [rs_h]. destruct (next_step_sign c h en (rs_err_prev s) false Hm Nh) as [Q1 Q2]. set (hn := next_step_size c h en (rs_err_prev s) false) in *. destruct (_ && _)%bool; [cbn; contradiction|].
    match goal with |- context [rk45_loop n c f tf m (S k) ?st] => set (st' := st); specialize (IH (S k) st') end. apply IH; auto; unfold st'; cbn [rs_y rs_stage1 rs_time rs_h rs_kahan]; auto.
    destruct (Rdichotomy _ _ Nt); destruct (Rdichotomy _ _ Nh); nra.
Qed.
Theorem C112_steps n c f t0 y0 tf : same_size n f -> 0 < rk_max_step c -> length y0 = n ->
  forall s, In s (fst (for_each_step n c f t0 y0 tf)) -> accepted n c f s /\ well_timed c t0 tf s.
Proof.
  intros Size Hm Ly s. unfold for_each_step. rnum. cbn [negb orb]. destruct (Reqb t0 tf) eqn:E; rcases; [contradiction|]. destruct (negb _ || negb _)%bool; [contradiction|].
  set (dir := if Rltb t0 tf then 1 else - (1)). assert (Hd : (dir = 1 /\ t0 < tf) \/ (dir = -1 /\ tf < t0)) by (unfold dir; destruct (Rltb t0 tf) eqn:E2; rcases; [left; split; auto|right; split; lra]).
  assert (0 < Rabs (tf - t0)) by (apply Rabs_pos_lt; lra).
  destruct (initial_step_sign n c f t0 y0 (f t0 y0) dir (Rabs (tf - t0)) Hm ltac:(tauto) H) as [P1 P2].
  apply (loop_steps n c f t0 tf Size Hm); cbn [rs_y rs_stage1 rs_time rs_h rs_kahan]; auto.
  - destruct Hd as [[_ D]|[_ D]]; nra.
  - destruct Hd as [[-> D]|[-> D]]; nra.
Qed.

(** ** C113: between the ends of a step *)
Definition sized (n : nat) (s : ode_step R) : Prop := length (state_start s) = n /\ length (state_end s) = n /\ length (derivative_start s) = n /\ length (derivative_end s) = n.
Lemma interpolate_nth n s t i : sized n s -> nth i (interpolate s t) 0 =
  let h := time_end s - time_start s in let x := (t - time_start s) / h in
  nth i (state_start s) 0 * (2 * (x * x * x) - 3 * (x * x) + 1) + nth i (derivative_start s) 0 * ((x * x * x - 2 * (x * x) + x) * h)
  + nth i (state_end s) 0 * (- (2) * (x * x * x) + 3 * (x * x)) + nth i (derivative_end s) 0 * ((x * x * x - x * x) * h).
Proof.
  intros (L1 & L2 & L3 & L4). unfold interpolate. rnum. repeat first [rewrite (nth_added n) by (repeat first [assumption | apply added_length | apply scaled_length]) | rewrite nth_scale]. cbv zeta. replace (3 / 1) with 3 by field. ring.
Qed.
Lemma interpolate_length n s t : sized n s -> length (interpolate s t) = n.
Proof. intros (L1 & L2 & L3 & L4). unfold interpolate. repeat first [assumption | apply added_length | apply scaled_length]. Qed.
Theorem C113_ends n s : sized n s -> time_start s <> time_end s ->
  interpolate s (time_start s) = state_start s /\ interpolate s (time_end s) = state_end s.
Proof.
  intros Sz Ne. pose proof Sz as (L1 & L2 & _). split; apply (nth_ext _ _ 0 0); try (rewrite (interpolate_length n) by auto; auto); intros i _; rewrite (interpolate_nth n) by auto; cbv zeta.
  - replace ((time_start s - time_start s) / (time_end s - time_start s)) with 0 by (field; lra). ring.
  - replace ((time_end s - time_start s) / (time_end s - time_start s)) with 1 by (field; lra). ring.
Qed.
Theorem C113_slopes n s i : sized n s -> time_start s <> time_end s ->
  is_derive (fun t => nth i (interpolate s t) 0) (time_start s) (nth i (derivative_start s) 0) /\ is_derive (fun t => nth i (interpolate s t) 0) (time_end s) (nth i (derivative_end s) 0).
Proof.
  intros Sz Ne. split; (eapply is_derive_ext; [intros t; symmetry; apply (interpolate_nth n); auto|]); cbv zeta; (evar_last; [auto_derive; [exact I|reflexivity]|]); match goal with |- ?x = ?y => change (@eq R x y) end; field; lra.
Qed.
(** A cubic through the ends with the right slopes is followed exactly. *)
Theorem C113_cubic n s (c0 c1 c2 c3 : nat -> R) : sized n s -> time_start s <> time_end s ->
  (forall i, (i < n)%nat -> nth i (state_start s) 0 = c0 i + c1 i * time_start s + c2 i * time_start s ^ 2 + c3 i * time_start s ^ 3) ->
  (forall i, (i < n)%nat -> nth i (state_end s) 0 = c0 i + c1 i * time_end s + c2 i * time_end s ^ 2 + c3 i * time_end s ^ 3) ->
  (forall i, (i < n)%nat -> nth i (derivative_start s) 0 = c1 i + 2 * c2 i * time_start s + 3 * c3 i * time_start s ^ 2) ->
  (forall i, (i < n)%nat -> nth i (derivative_end s) 0 = c1 i + 2 * c2 i * time_end s + 3 * c3 i * time_end s ^ 2) ->
  forall t i, (i < n)%nat -> nth i (interpolate s t) 0 = c0 i + c1 i * t + c2 i * t ^ 2 + c3 i * t ^ 3.
Proof. intros Sz Ne H1 H2 H3 H4 t i Hi. rewrite (interpolate_nth n) by auto. cbv zeta. rewrite H1, H2, H3, H4 by auto. field. lra. Qed.

Lemma grow_bound (r r' : R -> R) (D : R) k : 0 <= D -> (forall x, 0 <= x <= 1 -> is_derive r x (r' x)) -> r 0 = 0 -> (forall x, 0 <= x <= 1 -> Rabs (r' x) <= D * x ^ k) ->
  forall x, 0 <= x <= 1 -> Rabs (r x) <= D * x ^ S k / INR (S k).
Proof.
  intros HD Hr R0 Hb x Hx. assert (Nk : INR (S k) <> 0) by (apply not_0_INR; lia).
  assert (Up : forall sg, sg = 1 \/ sg = -1 -> 0 <= D * x ^ S k / INR (S k) - sg * r x).
  { intros sg Hsg. destruct (MVT_gen (fun x => D * x ^ S k / INR (S k) - sg * r x) 0 x (fun x => D * x ^ k - sg * r' x)) as (c & Hc & E).
    - intros z Hz. rewrite Rmin_left, Rmax_right in Hz by lra. apply (is_derive_minus (fun x => D * x ^ S k / INR (S k)) (fun x => sg * r x)).
      + evar_last; [auto_derive; [exact I|reflexivity]|]. match goal with |- ?x = ?y => change (@eq R x y) end. cbn [Nat.pred]. rewrite ?Nat.sub_0_r. field. auto.
      + apply (is_derive_scal r z sg). apply Hr. lra.
    - intros z Hz. rewrite Rmin_left, Rmax_right in Hz by lra. apply continuity_pt_filterlim. apply (ex_derive_continuous (fun x => D * x ^ S k / INR (S k) - sg * r x) z). exists (D * z ^ k - sg * r' z). apply (is_derive_minus (fun x => D * x ^ S k / INR (S k)) (fun x => sg * r x)).
      + evar_last; [auto_derive; [exact I|reflexivity]|]. match goal with |- ?x = ?y => change (@eq R x y) end. cbn [Nat.pred]. rewrite ?Nat.sub_0_r. field. auto.
      + apply (is_derive_scal r z sg). apply Hr. lra.
    - rewrite Rmin_left, Rmax_right in Hc by lra. rewrite R0 in E. replace (D * 0 ^ S k / INR (S k) - sg * 0) with 0 in E by (cbn [pow]; field; auto). rewrite !Rminus_0_r in E. rewrite E.
      apply Rmult_le_pos; [|lra]. specialize (Hb c ltac:(lra)). apply Rabs_le_between in Hb. destruct Hsg as [-> | ->]; lra. }
  pose proof (Up 1 ltac:(auto)). pose proof (Up (-1) ltac:(auto)). apply Rabs_le. lra.
Qed.
(** With the true ends and slopes of a solution whose fourth derivative is bounded by [M], the error is of the order of the
    fourth power of the step. *)
Theorem C113_accuracy n s i (y y1 y2 y3 y4 : R -> R) M : sized n s -> time_start s <> time_end s ->
  (forall t, Rmin (time_start s) (time_end s) <= t <= Rmax (time_start s) (time_end s) -> is_derive y t (y1 t) /\ is_derive y1 t (y2 t) /\ is_derive y2 t (y3 t) /\ is_derive y3 t (y4 t) /\ Rabs (y4 t) <= M) ->
  nth i (state_start s) 0 = y (time_start s) -> nth i (state_end s) 0 = y (time_end s) -> nth i (derivative_start s) 0 = y1 (time_start s) -> nth i (derivative_end s) 0 = y1 (time_end s) ->
  forall t, Rmin (time_start s) (time_end s) <= t <= Rmax (time_start s) (time_end s) -> Rabs (nth i (interpolate s t) 0 - y t) <= M * (time_end s - time_start s) ^ 4 / 9.
Proof.
  intros Sz Ne Hy E1 E2 E3 E4 t Ht. set (h := time_end s - time_start s) in *. assert (Nh : h <> 0) by (unfold h; lra). set (t0 := time_start s) in *.
  assert (Hin : forall x, 0 <= x <= 1 -> Rmin t0 (time_end s) <= t0 + x * h <= Rmax t0 (time_end s)). { intros x Hx. unfold h. unfold Rmin, Rmax. destruct (Rle_dec t0 (time_end s)); nra. }
  assert (HM : 0 <= M). { destruct (Hy t Ht) as (_ & _ & _ & _ & Q). eapply Rle_trans; [apply Rabs_pos|exact Q]. }
  set (D := M * h ^ 4). assert (P4 : 0 <= h ^ 4) by (replace (h ^ 4) with ((h ^ 2) ^ 2) by ring; apply pow2_ge_0). assert (HD : 0 <= D) by (apply Rmult_le_pos; auto).
  (* the rest of Taylor's polynomial and its derivatives, over one unit *)
  set (a0 := y t0). set (a1 := y1 t0 * h). set (a2 := y2 t0 * h ^ 2). set (a3 := y3 t0 * h ^ 3).
  set (r0 := fun x => y (t0 + x * h) * h ^ 0 - (a0 + a1 * x + a2 * x ^ 2 / 2 + a3 * x ^ 3 / 6)). set (r1 := fun x => y1 (t0 + x * h) * h ^ 1 - (a1 + a2 * x + a3 * x ^ 2 / 2)). set (r2 := fun x => y2 (t0 + x * h) * h ^ 2 - (a2 + a3 * x)). set (r3 := fun x => y3 (t0 + x * h) * h ^ 3 - a3). set (r4 := fun x => y4 (t0 + x * h) * h ^ 4).
  assert (Dc : forall (g g' P : R -> R) dP k x, is_derive g (t0 + x * h) (g' (t0 + x * h)) -> is_derive P x dP -> is_derive (fun x => g (t0 + x * h) * h ^ k - P x) x (g' (t0 + x * h) * h ^ S k - dP)).
  { intros g g' P dP k x Hg HP. apply (is_derive_minus (fun x => g (t0 + x * h) * h ^ k) P); [|exact HP]. evar_last; [apply (is_derive_scal_l (fun x => g (t0 + x * h)) x (h * g' (t0 + x * h)) (h ^ k)); apply (is_derive_comp g (fun x => t0 + x * h) x _ h Hg); evar_last; [auto_derive; [exact I|reflexivity]|]; match goal with |- ?x = ?y => change (@eq R x y) end; ring|]. match goal with |- ?x = ?y => change (@eq R x y) end. unfold scal. cbn. unfold mult. cbn. ring. }
  assert (K4 : forall x, 0 <= x <= 1 -> Rabs (r4 x) <= D * x ^ 0). { intros x Hx. unfold r4, D. rewrite Rabs_mult, (Rabs_right (h ^ 4)) by lra. rewrite pow_O, Rmult_1_r. apply Rmult_le_compat_r; [auto|]. apply Hy. apply Hin. auto. }
  assert (K3 : forall x, 0 <= x <= 1 -> Rabs (r3 x) <= D * x ^ 1 / INR 1).
  { apply (grow_bound r3 r4 D 0 HD); auto.
    - intros x Hx. replace (r4 x) with (y4 (t0 + x * h) * h ^ 4 - 0) by (unfold r4; ring). apply (Dc y3 y4 (fun _ => a3) 0 3%nat x); [apply Hy; apply Hin; auto|apply @is_derive_const].
    - unfold r3, a3. rewrite Rmult_0_l, Rplus_0_r. ring. }
  assert (K2 : forall x, 0 <= x <= 1 -> Rabs (r2 x) <= D * x ^ 2 / INR 2).
  { apply (grow_bound r2 r3 D 1 HD); [| |intros x Hx; eapply Rle_trans; [apply K3; auto|]; cbn [INR]; lra].
    - intros x Hx. apply (Dc y2 y3 (fun x => a2 + a3 * x) a3 2%nat x); [apply Hy; apply Hin; auto|]. evar_last; [auto_derive; [exact I|reflexivity]|]. match goal with |- ?x = ?y => change (@eq R x y) end. ring.
    - unfold r2, a2. rewrite Rmult_0_l, Rplus_0_r. ring. }
  assert (K1 : forall x, 0 <= x <= 1 -> Rabs (r1 x) <= (D / 2) * x ^ 3 / INR 3).
  { apply (grow_bound r1 r2 (D / 2) 2); [lra| | |intros x Hx; eapply Rle_trans; [apply K2; auto|]; cbn [INR]; lra].
    - intros x Hx. apply (Dc y1 y2 (fun x => a1 + a2 * x + a3 * x ^ 2 / 2) (a2 + a3 * x) 1%nat x); [apply Hy; apply Hin; auto|]. evar_last; [auto_derive; [exact I|reflexivity]|]. match goal with |- ?x = ?y => change (@eq R x y) end. cbn. field.
    - unfold r1, a1. rewrite Rmult_0_l, Rplus_0_r. field. }
  assert (K0 : forall x, 0 <= x <= 1 -> Rabs (r0 x) <= (D / 6) * x ^ 4 / INR 4).
  { apply (grow_bound r0 r1 (D / 6) 3); [lra| | |intros x Hx; eapply Rle_trans; [apply K1; auto|]; cbn [INR]; lra].
    - intros x Hx. apply (Dc y y1 (fun x => a0 + a1 * x + a2 * x ^ 2 / 2 + a3 * x ^ 3 / 6) (a1 + a2 * x + a3 * x ^ 2 / 2) 0%nat x); [apply Hy; apply Hin; auto|]. evar_last; [auto_derive; [exact I|reflexivity]|]. match goal with |- ?x = ?y => change (@eq R x y) end. cbn. field.
    - unfold r0, a0. rewrite Rmult_0_l, Rplus_0_r. field. }
  set (x := (t - t0) / h). assert (Et : t = t0 + x * h) by (unfold x; field; auto). assert (Hx : 0 <= x <= 1).
  { unfold h in *. unfold Rmin, Rmax in Ht. destruct (Rle_dec t0 (time_end s)).
    - assert (0 < time_end s - t0) by lra. split; [unfold x; apply Rmult_le_pos; [lra|left; apply Rinv_0_lt_compat; auto]|]. apply (Rmult_le_reg_r (time_end s - t0)); [auto|]. nra.
    - assert (time_end s - t0 < 0) by lra. split; nra. }
  assert (Ete : time_end s = t0 + 1 * h) by (unfold h; ring).
  assert (V0 : y (time_end s) = r0 1 + (a0 + a1 + a2 / 2 + a3 / 6)) by (rewrite Ete; unfold r0; field). assert (V1 : y1 (time_end s) * h = r1 1 + (a1 + a2 + a3 / 2)) by (rewrite Ete; unfold r1; field). assert (V2 : y t = r0 x + (a0 + a1 * x + a2 * x ^ 2 / 2 + a3 * x ^ 3 / 6)) by (rewrite Et; unfold r0; field).
  rewrite (interpolate_nth n) by auto. cbv zeta. change (time_end s - time_start s) with h. change (time_start s) with t0. fold x. rewrite E1, E2, E3, E4.
  replace (_ - y t) with (r0 1 * (3 * x ^ 2 - 2 * x ^ 3) + r1 1 * (x ^ 3 - x ^ 2) - r0 x).
  2:{ rewrite V2, V0. replace (y1 (time_end s) * ((x * x * x - x * x) * h)) with (y1 (time_end s) * h * (x ^ 3 - x ^ 2)) by ring. rewrite V1. unfold a0, a1. field. }
  pose proof (K0 1 ltac:(lra)) as B0. pose proof (K1 1 ltac:(lra)) as B1. pose proof (K0 x Hx) as Bx. rewrite !pow1 in B0, B1. cbn [INR] in B0, B1, Bx.
  assert (X4 : 0 <= x ^ 4 <= 1) by (split; [apply pow_le; lra|apply (Rle_trans _ (1 ^ 4)); [apply pow_incr; exact Hx|rewrite pow1; lra]]). assert (U : 0 <= 3 * x ^ 2 - 2 * x ^ 3 <= 1). { assert (0 <= x ^ 2 * (3 - 2 * x)) by (apply Rmult_le_pos; [apply pow2_ge_0|lra]). assert (0 <= (1 - x) ^ 2 * (1 + 2 * x)) by (apply Rmult_le_pos; [apply pow2_ge_0|lra]). split; lra. } assert (W : 0 <= x ^ 2 - x ^ 3 <= 4 / 27). { split; [assert (0 <= x ^ 2 * (1 - x)) by (apply Rmult_le_pos; [apply pow2_ge_0|lra]); lra|]. assert (0 <= (x - 2 / 3) ^ 2 * (x + 1 / 3)) by (apply Rmult_le_pos; [apply pow2_ge_0|lra]). lra. }
  assert (T1 : Rabs (r0 1 * (3 * x ^ 2 - 2 * x ^ 3)) <= D / 24) by (rewrite Rabs_mult, (Rabs_right (3 * x ^ 2 - 2 * x ^ 3)) by lra; pose proof (Rabs_pos (r0 1)); nra).
  assert (T2 : Rabs (r1 1 * (x ^ 3 - x ^ 2)) <= D / 6 * (4 / 27)). { rewrite Rabs_mult, (Rabs_left1 (x ^ 3 - x ^ 2)) by lra. apply Rmult_le_compat; try apply Rabs_pos; lra. }
  assert (T3 : Rabs (r0 x) <= D / 24) by nra.
  unfold Rminus at 1. eapply Rle_trans; [apply Rabs_triang|]. rewrite Rabs_Ropp. eapply Rle_trans; [apply Rplus_le_compat_r, Rabs_triang|]. unfold D in *. lra.
Qed.

(** ** C113: a grid of times *)
Section Grid.
Context {T : Type} {NT : Num T}.
Lemma sample_step_spec (s : ode_step T) q : let '(samples, later) := sample_step s q in
  exists front, q = front ++ later /\ samples = map (interpolate s) front /\ Forall (fun x => in_step s x = true) front /\ match later with [] => True | x :: _ => in_step s x = false end.
Proof.
  induction q as [|x q IH]; [exists []; repeat split; constructor|]. cbn [sample_step]. destruct (in_step s x) eqn:E.
  - destruct (sample_step s q) as [samples later]. destruct IH as (front & -> & -> & F & L). exists (x :: front). repeat split; auto.
  - exists []. repeat split; auto.
Qed.
Lemma sample_steps_spec (steps : list (ode_step T)) : forall q, let '(samples, later) := sample_steps steps q in
  exists front, q = front ++ later /\ Forall2 (fun x z => exists s, In s steps /\ in_step s x = true /\ z = interpolate s x) front samples.
Proof.
  induction steps as [|s steps IH]; intros q; cbn [sample_steps]; [exists []; split; [reflexivity|constructor]|].
  pose proof (sample_step_spec s q) as H. destruct (sample_step s q) as [samples mid]. destruct H as (front & -> & -> & F & _). specialize (IH mid). destruct (sample_steps steps mid) as [later rest]. destruct IH as (front2 & -> & F2).
  exists (front ++ front2). split; [rewrite app_assoc; reflexivity|]. apply Forall2_app.
  - clear F2. induction front as [|x front IH]; constructor; inversion F; subst; [exists s; split; [left; auto|auto]|apply IH; auto].
  - clear F. revert F2. generalize front2 later. intros l1 l2 H. induction H as [|x z l1 l2 (u & I & E) H IH]; constructor; [exists u; split; [right; auto|auto]|exact IH].
Qed.
(** An answer has one sample for each time, taken inside a step that holds the time. *)
Theorem C113_grid n c f t0 y0 times samples : solve_on_grid n c f t0 y0 times = Ok samples ->
  Forall2 (fun x z => exists s, In s (fst (for_each_step n c f t0 y0 (last times zero))) /\ in_step s x = true /\ z = interpolate s x) times samples.
Proof.
  unfold solve_on_grid. destruct times as [|x0 times']; [intros E; injection E as <-; constructor|]. set (times := x0 :: times').
  destruct (for_each_step n c f t0 y0 (last times zero)) as [steps answer]. cbn [fst]. destruct answer; try discriminate. pose proof (sample_steps_spec steps times) as H. destruct (sample_steps steps times) as [sm later]. destruct H as (front & E & F).
  destruct later; [|discriminate]. cbn. intros Q. injection Q as <-. rewrite app_nil_r in E. rewrite E. exact F.
Qed.
End Grid.

(** In exact arithmetic, times in order are all answered when the last step ends on the last time. *)
Fixpoint ordered (l : list R) : Prop := match l with [] => True | x :: l => Forall (fun y => x <= y) l /\ ordered l end.
Lemma ordered_app a b : ordered (a ++ b) -> ordered b.
Proof. induction a as [|x a IH]; [auto|]. intros [_ H]. apply IH. exact H. Qed.
Lemma sample_all (steps : list (ode_step R)) : forall t y k q, chained t y k steps -> (forall s, In s steps -> time_start s < time_end s) -> ordered q -> Forall (fun x => t <= x) q -> Forall (fun x => x <= reached_time t steps) q ->
  steps <> [] -> snd (sample_steps steps q) = [].
Proof.
  induction steps as [|s steps IH]; intros t y k q Ch Up Oq Lo Hi Ne; [congruence|]. cbn [sample_steps]. pose proof (sample_step_spec s q) as H. destruct (sample_step s q) as [samples mid]. destruct H as (front & -> & _ & _ & L).
  destruct Ch as (E1 & E2 & E3 & Ch). pose proof (Up s ltac:(left; auto)) as U. apply ordered_app in Oq. apply Forall_app in Lo as [_ Lo]. apply Forall_app in Hi as [_ Hi]. cbn [reached_time] in Hi.
  assert (Lo2 : Forall (fun x => time_end s < x) mid).
  { destruct mid as [|x mid]; [constructor|]. assert (B : time_end s < x).
    { unfold in_step in L. inversion Lo; subst. rnum. rewrite (proj2 (Rleb_true _ _)) in L by lra. rewrite (proj2 (Rleb_true (time_start s) x)) in L by lra. cbn [andb] in L. rcases. exact L. }
    constructor; [exact B|]. destruct Oq as [Oq _]. eapply Forall_impl; [|exact Oq]. intros; lra. }
  destruct steps as [|s2 steps].
  - cbn [sample_steps snd]. cbn [reached_time] in Hi. destruct mid as [|x mid]; [reflexivity|]. inversion Lo2; inversion Hi; subst. lra.
  - specialize (IH (time_end s) (state_end s) (derivative_end s) mid Ch ltac:(intros; apply Up; right; auto) Oq). destruct (sample_steps (s2 :: steps) mid) as [later rest]. cbn [snd] in *. apply IH; [eapply Forall_impl; [|exact Lo2]; intros; cbn; lra|exact Hi|discriminate].
Qed.
Theorem C113_grid_complete n c f t0 y0 times : same_size n f -> 0 < rk_max_step c -> length y0 = n -> ordered times -> times <> [] -> Forall (fun x => t0 <= x) times -> t0 < last times 0 ->
  let '(steps, answer) := for_each_step n c f t0 y0 (last times 0) in
  forall z, answer = Ok z -> reached_time t0 steps = last times 0 -> exists samples, solve_on_grid n c f t0 y0 times = Ok samples.
Proof.
  intros Size Hm Ly Ot Nt Lo Lt. pose proof (C112_chain n c f t0 y0 (last times 0)) as Ch. pose proof (C112_steps n c f t0 y0 (last times 0) Size Hm Ly) as St. destruct (for_each_step n c f t0 y0 (last times 0)) as [steps answer] eqn:E. cbn [fst] in St. destruct Ch as (Ch & _ & _ & An).
  intros z -> Rt. destruct An as (Ne & _). unfold solve_on_grid. destruct times as [|x0 times']; [congruence|]. set (times := x0 :: times') in *. rnum. rewrite E.
  pose proof (sample_all steps t0 y0 (f t0 y0) times Ch) as All. destruct (sample_steps steps times) as [sm later]. cbn [snd] in All. rewrite All; auto.
  - cbn. eauto.
  - intros s I. destruct (St s I) as (_ & W & _). nra.
  - rewrite Rt. clear -Ot. assert (X : forall l, ordered l -> Forall (fun x => x <= last l 0) l).
    { induction l as [|x l IH]; intros O; [constructor|]. destruct l as [|y l]; [constructor; [cbn; lra|constructor]|]. destruct O as [F O]. specialize (IH O). change (last (x :: y :: l) 0) with (last (y :: l) 0). constructor; [|exact IH]. inversion F; inversion IH; subst. lra. }
    apply X. exact Ot.
Qed.
(** But not every grid inside the span is: the driver stops as soon as it is within rounding of the last time, which then lies
    in no step. *)
Definition still (_ : R) (y : list R) : list R := map (fun _ => 0) y.
Definition one_long_step (first : R) : rk45 R := {| rk_rtol := 1 / 1000000; rk_atol := 1 / 1000000000; rk_first_step := first; rk_min_step := 0; rk_max_step := 2; rk_max_steps := 100 |}.
Lemma still_run h : 1 - / IZR (2 ^ 52) <= h <= 1 -> exists k,
  for_each_step 1 (one_long_step h) still 0 [1] 1 = ([{| time_start := 0; time_end := h; state_start := [1]; state_end := [1]; derivative_start := [0]; derivative_end := [0] |}], Ok k).
Proof.
  set (e := / IZR (2 ^ 52)). intros Hh. assert (He : 0 < e < 1). { unfold e. split; [apply Rinv_0_lt_compat; lra|]. rewrite <- Rinv_1. apply Rinv_lt_contravar; lra. }
  unfold for_each_step. rnum. cbn [negb orb vec_is_finite forallb still map]. unfold vec_is_finite. cbn [forallb]. rnum. cbn [andb negb orb]. rewrite (proj2 (Reqb_false 0 1)) by lra. change (rk_max_steps (one_long_step h)) with (S 99). generalize 99%nat as m. intros m. cbn [rk45_loop rs_time rs_h rs_y rs_stage1 rs_kahan rs_err_prev].
  unfold select_initial_step, one_long_step. cbn [rk_first_step rk_max_step rk_min_step rk_rtol rk_atol]. rnum. fold e. rewrite (proj2 (Rltb_true 0 h)) by lra. rewrite (proj2 (Rltb_true 0 1)) by lra. rewrite Rminus_0_r, Rabs_R1. rewrite (Rmin_left h 2) by lra. rewrite (Rmin_left h 1) by lra. rewrite Rmult_1_l. rewrite (proj2 (Rltb_false 1 (Rabs h))) by (rewrite Rabs_right; lra).
  unfold dopri_step. cbn [still map vec_scale vec_add map2]. rnum. unfold vec_is_finite. cbn [forallb]. rnum. cbn [andb negb orb].
  unfold error_norm. cbn [Nat.eqb combine fold_left]. rnum.
  match goal with |- context [Rleb ?a 1] => replace a with 0 end.
  2:{ symmetry. match goal with |- R_sqrt.sqrt ?a = 0 => replace a with 0; [apply sqrt_0|] end. unfold Rdiv. ring. }
  rewrite (proj2 (Rleb_true 0 1)) by lra. match goal with |- context [Rleb ?u ?v] => assert (Q : Rleb u v = true) by (apply Rleb_true; rewrite ?Rabs_R1; replace (1 - (0 + (h - 0))) with (1 - h) by ring; rewrite Rabs_right by lra; fold e; lra); rewrite Q; clear Q end.
  eexists. f_equal. f_equal. f_equal; try ring. f_equal. ring.
Qed.
Theorem C113_grid_refuted : exists n c f t0 y0 times, same_size n f /\ 0 < rk_max_step c /\ length y0 = n /\ ordered times /\ times <> [] /\ Forall (fun x => t0 <= x) times /\ t0 < last times 0 /\
  (exists z, snd (for_each_step n c f t0 y0 (last times 0)) = Ok z) /\ solve_on_grid n c f t0 y0 times = Err InLimitsIllDefined.
Proof.
  exists 1%nat, (one_long_step (1 - / IZR (2 ^ 52))), still, 0, [1], [1]. split; [intros t y L; unfold still; rewrite map_length; auto|]. split; [cbn; lra|]. split; [reflexivity|]. split; [cbn; auto|]. split; [discriminate|]. split; [constructor; [lra|constructor]|]. split; [cbn; lra|].
  set (e := / IZR (2 ^ 52)). assert (He : 0 < e < 1). { unfold e. split; [apply Rinv_0_lt_compat; lra|]. rewrite <- Rinv_1. apply Rinv_lt_contravar; lra. }
  destruct (still_run (1 - e) ltac:(fold e; lra)) as (k & X). change (last [1] 0) with 1. rewrite X. split; [exists k; reflexivity|]. unfold solve_on_grid. change (last [1] zero) with 1. rewrite X. cbn [sample_steps sample_step]. unfold in_step. cbn [time_start time_end]. rnum. rewrite (proj2 (Rleb_true 0 (1 - e))) by lra. rewrite (proj2 (Rleb_true 0 1)) by lra. rewrite (proj2 (Rleb_false 1 (1 - e))) by lra. reflexivity.
Qed.

Lemma still_size : same_size 1 still.
Proof. intros t y L. unfold still. rewrite map_length. exact L. Qed.
Example C112_example : exists s z, for_each_step 1 (one_long_step 1) still 0 [1] 1 = ([s], Ok z) /\ accepted 1 (one_long_step 1) still s /\ well_timed (one_long_step 1) 0 1 s.
Proof.
  assert (He : 0 < / IZR (2 ^ 52)) by (apply Rinv_0_lt_compat; lra). destruct (still_run 1 ltac:(lra)) as (k & X). eexists. exists k. split; [exact X|]. apply (C112_steps 1 (one_long_step 1) still 0 [1] 1 still_size ltac:(cbn; lra) eq_refl). rewrite X. left. reflexivity.
Qed.
Example C113_example : (exists samples, solve_on_grid 1 (one_long_step 1) still 0 [1] [0; 1 / 2; 1] = Ok samples) /\
  (let s := {| time_start := 2; time_end := 3; state_start := [16]; state_end := [81]; derivative_start := [32]; derivative_end := [108] |} in
   forall t, 2 <= t <= 3 -> Rabs (nth 0 (interpolate s t) 0 - t ^ 4) <= 24 / 9).
Proof.
  split.
  - assert (He : 0 < / IZR (2 ^ 52)) by (apply Rinv_0_lt_compat; lra). destruct (still_run 1 ltac:(lra)) as (k & X).
    pose proof (C113_grid_complete 1 (one_long_step 1) still 0 [1] [0; 1 / 2; 1] still_size ltac:(cbn; lra) eq_refl ltac:(cbn; repeat split; repeat constructor; lra) ltac:(discriminate) ltac:(repeat constructor; lra) ltac:(cbn; lra)) as H.
    change (last [0; 1 / 2; 1] 0) with 1 in H. rewrite X in H. apply (H k eq_refl). reflexivity.
  - intros s t Ht. pose proof (C113_accuracy 1 s 0 (fun t => t ^ 4) (fun t => 4 * t ^ 3) (fun t => 12 * t ^ 2) (fun t => 24 * t) (fun _ => 24) 24) as H. replace (24 / 9) with (24 * (time_end s - time_start s) ^ 4 / 9) by (cbn; field). assert (D : forall x, is_derive (fun t => t ^ 4) x (4 * x ^ 3) /\ is_derive (fun t => 4 * t ^ 3) x (12 * x ^ 2) /\ is_derive (fun t => 12 * t ^ 2) x (24 * x) /\ is_derive (fun t => 24 * t) x 24 /\ Rabs 24 <= 24).
    { intros x. split; [|split; [|split; [|split]]]; try (evar_last; [auto_derive; [exact I|reflexivity]|]; match goal with |- ?x = ?y => change (@eq R x y) end; cbn [Nat.pred INR]; ring). rewrite Rabs_right; lra. }
    apply H; [repeat split; reflexivity|cbn; lra|intros x _; apply D|cbn [nth state_start time_start s]; ring|cbn [nth state_end time_end s]; ring|cbn [nth derivative_start time_start s]; ring|cbn [nth derivative_end time_end s]; ring|].
    cbn [time_start time_end s]. rewrite Rmin_left, Rmax_right by lra. exact Ht.
Qed.
Print Assumptions C112_chain.
Print Assumptions C112_steps.
Print Assumptions C113_ends.
Print Assumptions C113_slopes.
Print Assumptions C113_cubic.
Print Assumptions C113_accuracy.
Print Assumptions C113_grid.
Print Assumptions C113_grid_complete.
Print Assumptions C113_grid_refuted.
