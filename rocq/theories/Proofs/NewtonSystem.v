(** Lemmas on Newton's method for systems. *)
From Coq Require Import ZArith Reals List Bool Arith Lia.
From Verif Require Import Base.Scalar Base.Lists Model.Errors Model.Vector Model.Matrix Model.Lu Model.Qr Model.Derivative Model.RootFinding Model.NewtonSystem Spec.NewtonSystem.
Import ListNotations.

Section Any.
  Context {T : Type} {NT : Num T}.
  Local Open Scope num_scope.

Lemma finite_iff (l : list T) : vec_is_finite l = true <-> all_finite l.
Proof. unfold vec_is_finite, all_finite. apply forallb_forall. Qed.
Lemma not_finite (l : list T) : vec_is_finite l = false -> ~ all_finite l.
Proof. intros E H. apply finite_iff in H. congruence. Qed.
Lemma rows_finite (j : list (list T)) : mat_is_finite j = true <-> forall row, In row j -> all_finite row.
Proof.
  unfold mat_is_finite, all_finite. rewrite forallb_forall. split.
  - intros H row I v V. apply H, in_concat. eauto.
  - intros H v V. apply in_concat in V as (row & I & V). eauto.
Qed.
Lemma along_map2 (y step : list T) a : map2 (fun p b => p + a * b) y step = along y step a.
Proof.
  unfold along. revert step. induction y as [|v y IH]; intros [|w step]; cbn [map2 combine map]; try reflexivity. rewrite IH. reflexivity.
Qed.

Section Solver.
  Variables (s : NewtonSystem T) (f : VectorFn).
  Let F := f T NT.
  Let damped := ns_backtracking s.

Lemma ns_line_spec x step : forall left i, (i + left = 20)%nat -> (damped = false -> i = 0%nat) ->
  (forall j, (j < i)%nat -> ~ better F enorm x (along x step (halving j))) ->
  match ns_line s f x step (enorm (F x)) (halving i) left with
  | Ok (a, xn, rn, fn) => exists k, chosen F enorm damped x step k /\ a = halving k /\ xn = along x step a /\ rn = F xn /\ fn = enorm rn /\ all_finite rn
  | Err e => e = SoNonFinite /\ exists k, chosen F enorm damped x step k /\ ~ all_finite (F (along x step (halving k)))
  | Panic => False
  end.
Proof.
  induction left as [|left IH]; intros i L D W; cbn [ns_line]; rewrite along_map2; set (p := along x step (halving i)); fold F;
    fold damped; unfold chosen; fold damped; destruct damped eqn:B; cbn [negb].
  - rewrite orb_true_r. destruct (vec_is_finite (F p)) eqn:V; cbn [negb].
    + exists i. split; [split; [lia|]; split; [exact W|right; lia]|]. repeat (split; [reflexivity|]). apply finite_iff, V.
    + split; [reflexivity|]. exists i. split; [split; [lia|]; split; [exact W|right; lia]|apply not_finite, V].
  - specialize (D eq_refl). subst i. destruct (vec_is_finite (F p)) eqn:V; cbn [negb].
    + exists 0%nat. repeat (split; [reflexivity|]). apply finite_iff, V.
    + split; [reflexivity|]. exists 0%nat. split; [reflexivity|apply not_finite, V].
  - cbn [Nat.eqb]. rewrite orb_false_r. destruct (vec_is_finite (F p)) eqn:V; cbn [negb andb].
    + destruct (enorm (F p) <? enorm (F x)) eqn:Q.
      * exists i. split; [split; [lia|]; split; [exact W|left; split; [apply finite_iff, V|exact Q]]|]. repeat (split; [reflexivity|]). apply finite_iff, V.
      * specialize (IH (S i)). cbn [halving] in IH. unfold chosen in IH. apply IH; [lia|discriminate|].
        intros j Hj. destruct (Nat.eq_dec j i) as [->|]; [|apply W; lia]. intros [_ Q']. fold p in Q'. congruence.
    + specialize (IH (S i)). cbn [halving] in IH. unfold chosen in IH. apply IH; [lia|discriminate|].
      intros j Hj. destruct (Nat.eq_dec j i) as [->|]; [|apply W; lia]. intros [Q' _]. apply (not_finite _ V). exact Q'.
  - specialize (D eq_refl). subst i. destruct (vec_is_finite (F p)) eqn:V; cbn [negb].
    + exists 0%nat. repeat (split; [reflexivity|]). apply finite_iff, V.
    + split; [reflexivity|]. exists 0%nat. split; [reflexivity|apply not_finite, V].
Qed.
End Solver.
Lemma lu_steps_answers n : forall ks (g : lu T) sp, lu_steps n ks g sp <> Panic.
Proof.
  induction ks as [|k ks IH]; intros g sp; cbn [lu_steps]; [discriminate|]. unfold lu_step.
  destruct (pivot_search n k (lu_matrix g)) as [pivot best]. destruct (best =? zero); [discriminate|].
  destruct (if negb _ then _ else _) as [[a perm] sign]. apply IH.
Qed.
Lemma mat_solve_answers n (m : mat T) b : mat_solve n m b <> Panic.
Proof.
  unfold mat_solve, lu_decompose, factor_lu. pose proof (lu_steps_answers n (range 0 n) {| lu_matrix := m; lu_perm := from_fn n (fun i => i); lu_sign := one |} max_value) as H.
  destruct (lu_steps _ _ _ _) as [[g sp]|e|]; try discriminate; [|congruence]. destruct (sp <=? _); discriminate.
Qed.

Lemma fold_length {A} (g : list T -> A -> list T) : (forall l a, length (g l a) = length l) -> forall ks l, length (fold_left g ks l) = length l.
Proof. intros H. induction ks as [|k ks IH]; intros l; cbn [fold_left]; [reflexivity|]. rewrite IH. apply H. Qed.
Lemma mat_solve_length n (m : mat T) b x : mat_solve n m b = Ok x -> length x = n.
Proof.
  unfold mat_solve. destruct (lu_decompose n m) as [g|e|]; intros E; try discriminate E. injection E as <-.
  unfold lu_solve, back_substitution, forward_substitution. rewrite fold_length by (intros; apply set_nth_length). rewrite fold_length by (intros; apply set_nth_length). apply from_fn_length.
Qed.
Lemma along_length (y step : list T) a : length step = length y -> length (along y step a) = length y.
Proof. intros H. unfold along. rewrite map_length, combine_length, H. apply Nat.min_id. Qed.
End Any.
