(** Smoothness of a formula holds near any point where it holds; the derivative theorems for formulas. *)
From Coq Require Import ZArith List Bool Reals Lra Lia Arith.
From Coquelicot Require Import Coquelicot.
From Flocq Require Import Core.Raux.
From Verif Require Import Base.Scalar Base.RNum Base.Trig Base.Lists Base.Deriv Base.Series Model.Dual Model.HyperDual Model.Jet
  Spec.Expr Proofs.DiffAlg Proofs.Dual Proofs.HyperDual Proofs.Jet Proofs.JetAlg.
Import ListNotations.
Local Open Scope R_scope.

Lemma not_integer_near v : not_integer v -> locally v not_integer.
Proof.
  intros H. pose proof (Zfloor_lb v) as L. pose proof (Zfloor_ub v) as U.
  assert (L' : IZR (Zfloor v) < v) by (specialize (H (Zfloor v)); lra).
  generalize (filter_and _ _ (locally_gt _ v _ (id_cont v) L') (locally_lt _ v _ (id_cont v) U)).
  apply filter_imp. intros w [A B] n E. subst w. rewrite <- plus_IZR in B. apply lt_IZR in A. apply lt_IZR in B. lia.
Qed.

Lemma un_ok_near o (g : R -> R) t : continuous g t -> un_ok o (g t) -> locally t (fun z => un_ok o (g z)).
Proof.
  intros C H. destruct o; cbn [un_ok] in *; try (apply filter_forall; auto; fail);
    try (apply locally_neq; auto; fail); try (apply locally_gt; auto; fail).
  - assert (Cc : continuous (fun z => Rtrigo_def.cos (g z)) t).
    { apply (continuous_comp g Rtrigo_def.cos); auto. apply continuity_pt_filterlim. apply continuity_cos. }
    apply (locally_neq _ _ _ Cc H).
  - exact (C _ (not_integer_near _ H)).
  - exact (C _ (not_integer_near _ H)).
  - pose proof (locally_shift _ _ _ (not_integer_near _ H)) as L. exact (C _ L).
  - assert (L : locally (g t) (fun v => forall n : Z, v = IZR n -> n = 0%Z)); [|exact (C _ L)].
    destruct (Req_dec (g t) 0) as [E|E].
    + rewrite E. pose proof (locally_gt _ 0 (-1) (id_cont 0) ltac:(cbv beta; lra)) as A. pose proof (locally_lt _ 0 1 (id_cont 0) ltac:(cbv beta; lra)) as B.
      generalize (filter_and _ _ A B). apply filter_imp. intros w [A' B'] n ->. apply lt_IZR in A'. apply lt_IZR in B'. lia.
    + assert (Ni : not_integer (g t)). { intros n En. pose proof (H n En). subst n. lra. }
      generalize (not_integer_near _ Ni). apply filter_imp. intros w W n En. exfalso. exact (W n En).
  - apply filter_and. apply locally_gt; tauto. apply locally_lt; tauto.
  - apply filter_and. apply locally_gt; tauto. apply locally_lt; tauto.
Qed.

Lemma diff_neq_near (g h : R -> R) t : continuous g t -> continuous h t -> g t <> h t -> locally t (fun z => g z <> h z).
Proof.
  intros C D N. assert (Cm : continuous (fun z => g z - h z) t) by (apply (continuous_minus g h); auto).
  pose proof (locally_neq _ _ 0 Cm ltac:(cbv beta; lra)) as L. revert L. apply filter_imp. intros z Z. lra.
Qed.
Lemma bin_ok_near o (g h : R -> R) t : continuous g t -> continuous h t -> bin_ok o (g t) (h t) ->
  locally t (fun z => bin_ok o (g z) (h z)).
Proof.
  intros C D H. destruct o; cbn [bin_ok] in *; try (apply filter_forall; auto; fail).
  - apply locally_neq; auto.
  - destruct H as [H|H].
    + generalize (locally_gt _ _ _ D H). apply filter_imp. auto.
    + generalize (locally_neq _ _ _ C H). apply filter_imp. auto.
  - apply filter_and; apply locally_neq; tauto.
  - apply diff_neq_near; auto.
  - apply diff_neq_near; auto.
  - destruct H as [H|H].
    + generalize (locally_neq _ _ _ C H). apply filter_imp. auto.
    + generalize (locally_neq _ _ _ D H). apply filter_imp. auto.
  - apply locally_gt; auto.
  - apply locally_neq; auto.
Qed.

Lemma eval_cont (env : R -> nat -> R) t e :
  (forall i, exists Dl, dual_rep (fun z => env z i) Dl t) -> smooth (env t) e -> continuous (fun z => eval (env z) e) t.
Proof.
  intros V S. assert (V' : forall i, exists dl, is_derive (fun z => env z i) t dl).
  { intros i. destruct (V i) as [Dl H]. exists (deriv (Dl t)). apply H. }
  (* a family of dual numbers for the environment; the slopes are those of Derive *)
  set (Env := fun z i => mkDual (env z i) (Derive (fun z => env z i) z)).
  pose proof (eval_rep dual_base _ _ _ dual_diffalg env Env t) as E.
  eapply dual_rep_cont. apply E; auto. intros i. split.
  - apply filter_forall. reflexivity.
  - cbn. destruct (V' i) as [dl Hd]. apply Derive_correct. exists dl. exact Hd.
Qed.

Lemma smooth_near (env : R -> nat -> R) t e :
  (forall i, exists Dl, dual_rep (fun z => env z i) Dl t) -> smooth (env t) e -> locally t (fun z => smooth (env z) e).
Proof.
  intros V. induction e; cbn [smooth]; intros S; try (apply filter_forall; auto; fail).
  - destruct S as [S O]. apply filter_and; auto. apply (un_ok_near o (fun z => eval (env z) e)); auto. apply eval_cont; auto.
  - destruct S as (S1 & S2 & O). apply filter_and; auto. apply filter_and; auto.
    apply (bin_ok_near o (fun z => eval (env z) e1) (fun z => eval (env z) e2)); auto; apply eval_cont; auto.
  - destruct S as (S1 & S2 & S3). apply filter_and; auto. apply filter_and; auto.
  - destruct S as [S O]. apply filter_and; auto. destruct (Z_lt_dec n 0) as [L|L].
    + pose proof (locally_neq _ _ _ (eval_cont _ _ _ V S) (O L)) as G. revert G. apply filter_imp. auto.
    + apply filter_forall. intros; contradiction.
  - destruct S as (S1 & S2 & N & S3). pose proof (eval_cont _ _ _ V S1) as C1. pose proof (eval_cont _ _ _ V S2) as C2.
    apply filter_and; auto. apply filter_and; auto. apply filter_and; [apply diff_neq_near; auto|].
    assert (Lc : locally t (fun z => eval_cmp c (eval (env z) e1) (eval (env z) e2) = eval_cmp c (eval (env t) e1) (eval (env t) e2))).
    { set (g := fun z => eval (env z) e1) in *. set (h := fun z => eval (env z) e2) in *.
      change (locally t (fun z => eval_cmp c (g z) (h z) = eval_cmp c (g t) (h t))). change (g t <> h t) in N.
      assert (Cm : continuous (fun z => g z - h z) t) by (apply (continuous_minus g h); auto).
      destruct (Rdichotomy _ _ N) as [L|L].
      - pose proof (locally_lt _ _ 0 Cm ltac:(cbv beta; lra)) as G. revert G. apply filter_imp. intros z Z.
        destruct c; cbn [eval_cmp]; rnum; unfold Rltb, Rleb, Reqb.
        + destruct (Rlt_dec (g z) (h z)), (Rlt_dec (g t) (h t)); auto; lra.
        + destruct (Rle_dec (g z) (h z)), (Rle_dec (g t) (h t)); auto; lra.
        + destruct (Req_EM_T (g z) (h z)), (Req_EM_T (g t) (h t)); auto; lra.
      - pose proof (locally_gt _ _ 0 Cm ltac:(cbv beta; lra)) as G. revert G. apply filter_imp. intros z Z.
        destruct c; cbn [eval_cmp]; rnum; unfold Rltb, Rleb, Reqb.
        + destruct (Rlt_dec (g z) (h z)), (Rlt_dec (g t) (h t)); auto; lra.
        + destruct (Rle_dec (g z) (h z)), (Rle_dec (g t) (h t)); auto; lra.
        + destruct (Req_EM_T (g z) (h z)), (Req_EM_T (g t) (h t)); auto; lra. }
    destruct (eval_cmp c (eval (env t) e1) (eval (env t) e2)).
    + generalize (filter_and _ _ Lc (IHe3 S3)). apply filter_imp. intros z [-> Z]. exact Z.
    + generalize (filter_and _ _ Lc (IHe4 S3)). apply filter_imp. intros z [-> Z]. exact Z.
Qed.

(** ** Lines *)
Lemma is_derive_line (x a t : R) : is_derive (fun s : R => x + s * a) t a.
Proof.
  eapply is_derive_eq. { apply (is_derive_sum (fun _ => x) (fun s => s * a)). apply is_derive_cst. apply (is_derive_prod (fun s => s) (fun _ => a)). apply is_derive_var. apply is_derive_cst. } ring.
Qed.
Lemma line_rep (x a : nat -> R) t i : dual_rep (fun s => x i + s * a i) (fun s => mkDual (x i + s * a i) (a i)) t.
Proof. split. apply filter_forall; reflexivity. cbn. apply is_derive_line. Qed.

(** ** Dual numbers *)
Lemma eval_ext {T} {NT : Num T} (u v : nat -> T) e : (forall i, u i = v i) -> eval u e = eval v e.
Proof.
  intros H. induction e; cbn [eval]; auto; try congruence.
  rewrite IHe1, IHe2, IHe3, IHe4. reflexivity.
Qed.

Lemma smooth_ext (u v : nat -> R) e : (forall i, u i = v i) -> smooth u e -> smooth v e.
Proof.
  intros H. induction e as [| | |o e IH|o e1 IH1 e2 IH2|e1 IH1 e2 IH2 e3 IH3|e IH n|c e1 IH1 e2 IH2 e3 IH3 e4 IH4]; cbn [smooth]; rewrite <- ?(eval_ext u v _ H); try tauto.
  destruct (eval_cmp c (eval u e1) (eval u e2)); tauto.
Qed.

Theorem dual_directional e (x a : nat -> R) : smooth x e ->
  let d := @eval _ dual_num (fun i => mkDual (x i) (a i)) e in
  value d = eval x e /\ is_derive (fun t => eval (fun i => x i + t * a i) e) 0 (deriv d).
Proof.
  intros S d. set (env := fun (t : R) (i : nat) => x i + t * a i). set (Env := fun (t : R) (i : nat) => mkDual (env t i) (a i)).
  assert (E0 : forall i, env 0 i = x i) by (intros; unfold env; ring).
  assert (S0 : smooth (env 0) e).
  { apply (smooth_ext x); auto. }
  pose proof (eval_rep dual_base _ _ _ dual_diffalg env Env 0 ltac:(intros i; apply line_rep) e S0) as H.
  assert (Ed : @eval _ dual_num (Env 0) e = d). { apply eval_ext. intros i. unfold Env. rewrite E0. reflexivity. }
  pose proof (dual_rep_val _ _ _ H) as V. destruct H as [_ D]. cbv beta in V, D.
  change (@with_defaults _ dual_base) with (@dual_num R Rnum) in *. rewrite Ed in V, D. split; auto.
  rewrite V. apply eval_ext. exact E0.
Qed.

(** one variable moving, the others held *)
Definition setv {T} (x : nat -> T) (j : nat) (v : T) (i : nat) : T := if Nat.eqb i j then v else x i.

Theorem dual_partial e (x : nat -> R) (j : nat) : smooth x e ->
  let d := @eval _ dual_num (fun i => if Nat.eqb i j then dual_variable (x i) else dual_constant (x i)) e in
  value d = eval x e /\ is_derive (fun v => eval (setv x j v) e) (x j) (deriv d).
Proof.
  intros S d. set (env := fun v => setv x j v).
  set (Env := fun (v : R) (i : nat) => if Nat.eqb i j then dual_variable v else dual_constant (x i)).
  assert (E0 : forall i, env (x j) i = x i). { intros i. unfold env, setv. destruct (Nat.eqb_spec i j); congruence. }
  assert (S0 : smooth (env (x j)) e) by (apply (smooth_ext x); auto).
  assert (Rp : forall i, dual_rep (fun q => env q i) (fun q => Env q i) (x j)).
  { intros i. unfold env, Env, setv. destruct (Nat.eqb i j); split; try (apply filter_forall; reflexivity). apply is_derive_var. apply is_derive_cst. }
  pose proof (eval_rep dual_base _ _ _ dual_diffalg env Env (x j) Rp e S0) as H.
  assert (Ed : @eval _ dual_num (Env (x j)) e = d). { apply eval_ext. intros i. unfold Env. destruct (Nat.eqb_spec i j); congruence. }
  pose proof (dual_rep_val _ _ _ H) as V. destruct H as [_ D]. cbv beta in V, D.
  change (@with_defaults _ dual_base) with (@dual_num R Rnum) in *. rewrite Ed in V, D. split; auto.
  rewrite V. apply eval_ext. exact E0.
Qed.

(** ** Hyper-dual numbers *)
Theorem hyper_directional e (x a b : nat -> R) : smooth x e ->
  let h := @eval _ hyper_num (fun i => mkHyper (x i) (a i) (b i) 0) e in
  let f s t := eval (fun i => x i + s * a i + t * b i) e in
  real h = eval x e /\
  is_derive (fun s => f s 0) 0 (eps1 h) /\
  is_derive (fun t => f 0 t) 0 (eps2 h) /\
  is_derive (fun t => Derive (fun s => f s t) 0) 0 (eps1eps2 h).
Proof.
  intros S h f. set (env := fun (p : R * R) (i : nat) => x i + fst p * a i + snd p * b i).
  set (Env := fun (p : R * R) (i : nat) => mkHyper (env p i) (a i) (b i) 0).
  assert (Rp : forall p i, hyper_rep (fun q => env q i) (fun q => Env q i) p).
  { intros [s t] i. unfold env, Env. split; (split; [apply filter_forall; reflexivity|split]); cbn.
    - eapply is_derive_eq. { apply (is_derive_sum (fun s => x i + s * a i) (fun _ => t * b i)). apply is_derive_line. apply is_derive_cst. } ring.
    - apply is_derive_cst.
    - apply is_derive_line.
    - apply is_derive_cst. }
  assert (E0 : forall i, env (0, 0) i = x i) by (intros; unfold env; cbn; ring).
  assert (S0 : smooth (env (0, 0)) e) by (apply (smooth_ext x); auto).
  assert (Sn : locally 0 (fun t => smooth (env (0, t)) e)).
  { apply (smooth_near (fun t => env (0, t)) 0 e); auto. intros i. eexists. unfold env. cbn [fst snd]. apply (line_rep (fun i => x i + 0 * a i) b). }
  assert (Ep : forall p, smooth (env p) e -> hyper_rep (fun q => eval (env q) e) (fun q => @eval _ hyper_num (Env q) e) p).
  { intros p Hp. apply (eval_rep hyper_base _ _ _ hyper_diffalg env Env p); auto. }
  assert (Ed : @eval _ hyper_num (Env (0, 0)) e = h). { apply eval_ext. intros i. unfold Env. rewrite E0. reflexivity. }
  pose proof (Ep (0, 0) S0) as H. pose proof (hyper_val _ _ _ H) as V. cbv beta in V. rewrite Ed in V.
  destruct H as [(_ & D1 & _) (_ & D2 & D12)]. cbn [fst snd] in *. rewrite Ed in D1, D2, D12.
  split; [rewrite V; apply eval_ext; exact E0|]. split; [exact D1|]. split; [exact D2|].
  apply (is_derive_ext_loc (fun t => eps1 (@eval _ hyper_num (Env (0, t)) e))); [|exact D12].
  revert Sn. apply filter_imp. intros t St. destruct (Ep (0, t) St) as [(_ & D & _) _]. cbn [fst snd] in D.
  symmetry. apply is_derive_unique. exact D.
Qed.

(** the second derivative along one variable *)
Theorem hyper_second e (x : nat -> R) (j : nat) : smooth x e ->
  let h := @eval _ hyper_num (fun i => if Nat.eqb i j then hyper_variable (x i) else hyper_constant (x i)) e in
  let f v := eval (setv x j v) e in
  real h = eval x e /\ is_derive f (x j) (eps1 h) /\ eps2 h = eps1 h /\ is_derive (Derive f) (x j) (eps1eps2 h).
Proof.
  intros S h f. set (d := fun i => if Nat.eqb i j then 1 else 0).
  pose proof (hyper_directional e x d d S) as H. cbv zeta in H.
  assert (Eh : @eval _ hyper_num (fun i => mkHyper (x i) (d i) (d i) 0) e = h).
  { apply eval_ext. intros i. unfold d. destruct (Nat.eqb i j); reflexivity. }
  rewrite Eh in H. destruct H as (V & D1 & D2 & D12).
  assert (Ef : forall s t, eval (fun i => x i + s * d i + t * d i) e = f (x j + (s + t))).
  { intros s t. apply eval_ext. intros i. unfold d, setv. destruct (Nat.eqb_spec i j); [subst; ring|ring]. }
  assert (Sh : forall (g : R -> R) l, is_derive (fun s => g (x j + s)) 0 l -> is_derive g (x j) l).
  { intros g l H. apply (is_derive_ext (fun v => g (x j + (v - x j)))). { intros t. f_equal. ring. }
    eapply is_derive_eq. { apply (is_derive_chain (fun s => g (x j + s)) (fun v => v - x j)).
      - replace (x j - x j) with 0 by ring. exact H.
      - apply is_derive_diff. apply is_derive_var. apply is_derive_cst. } ring. }
  assert (D1' : is_derive f (x j) (eps1 h)).
  { apply Sh. apply (is_derive_ext (fun s => eval (fun i => x i + s * d i + 0 * d i) e)); auto. intros s. rewrite Ef. f_equal. ring. }
  assert (D2' : is_derive f (x j) (eps2 h)).
  { apply Sh. apply (is_derive_ext (fun t => eval (fun i => x i + 0 * d i + t * d i) e)); auto. intros s. rewrite Ef. f_equal. ring. }
  split; [exact V|]. split; [exact D1'|]. split.
  - transitivity (Derive f (x j)); [symmetry; exact (is_derive_unique _ _ _ D2')|exact (is_derive_unique _ _ _ D1')].
  - apply Sh. apply (is_derive_ext (fun t => Derive (fun s => eval (fun i => x i + s * d i + t * d i) e) 0)); auto.
    intros t. rewrite (Derive_ext _ (fun s => f (s + (x j + t)))). 2: { intros s. rewrite Ef. f_equal. ring. }
    unfold Derive. f_equal. apply Lim_ext. intros y. replace (0 + y + (x j + t)) with (x j + t + y) by ring. replace (0 + (x j + t)) with (x j + t) by ring. reflexivity.
Qed.

(** ** Jets *)
Theorem jet_taylor N e (x : nat -> R) (j : nat) : (0 < N)%nat -> smooth x e ->
  let a := @eval _ (jet_num N) (fun i => if Nat.eqb i j then jet_variable N (x i) else jet_constant N (x i)) e in
  let f v := eval (setv x j v) e in
  length a = N /\
  forall k, (k < N)%nat -> ex_derive_n f k (x j) /\ nth k a 0 = Derive_n f k (x j) / INR (fact k).
Proof.
  intros HN S a f. set (env := fun v => setv x j v).
  set (Env := fun (v : R) (i : nat) => if Nat.eqb i j then jet_variable N v else jet_constant N (x i)).
  set (A := fun v => @eval _ (jet_num N) (Env v) e).
  assert (E0 : forall i, env (x j) i = x i). { intros i. unfold env, setv. destruct (Nat.eqb_spec i j); congruence. }
  assert (S0 : smooth (env (x j)) e) by (apply (smooth_ext x); auto).
  assert (Ed : A (x j) = a). { apply eval_ext. intros i. unfold Env. destruct (Nat.eqb_spec i j); congruence. }
  assert (Vd : forall v i, exists Dl, dual_rep (fun q => env q i) Dl v).
  { intros v i. unfold env, setv. destruct (Nat.eqb i j).
    - exists dual_variable. split. apply filter_forall; reflexivity. apply is_derive_var.
    - exists (fun _ => dual_constant (x i)). split. apply filter_forall; reflexivity. apply is_derive_cst. }
  assert (Rp : forall v i, jet_rep N (fun q => env q i) (fun q => Env q i) v).
  { intros v i. unfold env, Env, setv. destruct (Nat.eqb_spec i j).
    - split; [|split].
      + apply filter_forall. intros q. unfold jet_variable, sq. split. rewrite !set_nth_length. apply repeat_length.
        rewrite nth_set_nth_neq by lia. apply nth_set_nth_eq. rewrite repeat_length. auto.
      + intros k Hk. unfold jet_variable. destruct k.
        * apply (is_derive_ext (fun q => q)).
          { intros q. unfold sq. rewrite nth_set_nth_neq by lia. rewrite nth_set_nth_eq; auto. rewrite repeat_length; lia. }
          eapply is_derive_eq. apply is_derive_var. unfold D, sq. rewrite nth_set_nth_eq by (rewrite set_nth_length, repeat_length; lia). cbn. ring.
        * assert (E1 : forall q, sq (set_nth (set_nth (repeat 0 N) 0 q) 1 1) (Datatypes.S (Datatypes.S k)) = 0).
          { intros q. unfold sq. rewrite !nth_set_nth_neq by lia. apply nth_repeat. }
          apply (is_derive_ext (fun q => sq (set_nth (set_nth (repeat 0 N) 0 0) 1 1) (Datatypes.S k))).
          { intros q. unfold sq. destruct k. rewrite !nth_set_nth_eq; auto; rewrite set_nth_length, repeat_length; lia.
            rewrite !nth_set_nth_neq by lia. reflexivity. }
          eapply is_derive_eq. apply is_derive_cst. unfold D. change (@one R Rnum) with 1. change (@zero R Rnum) with 0. rewrite E1. ring.
      + exists dual_variable. split. apply filter_forall; reflexivity. apply is_derive_var.
    - apply rep_cst; auto. }
  assert (Ep : forall v, smooth (env v) e -> jet_rep N f A v).
  { intros v Hv. apply (eval_rep (jet_base N) _ _ _ (jet_diffalg N HN) env Env v); auto. }
  assert (Sn : locally (x j) (fun v => smooth (env v) e)) by (apply smooth_near; auto).
  assert (Dn : forall k, (k < N)%nat -> locally (x j) (fun v => Derive_n f k v = INR (fact k) * sq (A v) k)).
  { induction k as [|k IH]; intros Hk.
    - revert Sn. apply filter_imp. intros v Hv. cbn. rewrite (jet_rep_here N _ _ _ (Ep v Hv)). ring.
    - pose proof (locally_locally _ _ (IH ltac:(lia))) as IH'. generalize (filter_and _ _ Sn IH'). apply filter_imp. intros v [Hv Hl].
      cbn [Derive_n]. rewrite (Derive_ext_loc _ _ _ Hl). apply is_derive_unique.
      destruct (Ep v Hv) as (_ & T & _). eapply is_derive_eq.
      { apply (is_derive_prod (fun _ => INR (fact k)) (fun v => sq (A v) k)). apply is_derive_cst. apply T. lia. }
      unfold D. rewrite fact_simpl, mult_INR. ring. }
  split.
  - rewrite <- Ed. apply (locally_singleton _ _ (proj1 (Ep (x j) S0))).
  - intros k Hk. split.
    + destruct k as [|k]; cbn; auto.
      exists (INR (fact k) * D (sq (A (x j))) k).
      apply (is_derive_ext_loc (fun v => INR (fact k) * sq (A v) k)).
      * generalize (Dn k ltac:(lia)). apply filter_imp. auto.
      * destruct (Ep (x j) S0) as (_ & T & _). eapply is_derive_eq.
        { apply (is_derive_prod (fun _ => INR (fact k)) (fun v => sq (A v) k)). apply is_derive_cst. apply T. lia. } ring.
    + rewrite (locally_singleton _ _ (Dn k Hk)), Ed. unfold sq. field. apply INR_fact_neq_0.
Qed.

Lemma jet_factorial k : fold_left (fun f i => f * @of_nat R Rnum i) (seq 2 (k - 1)) 1 = INR (fact k).
Proof.
  destruct k as [|k]; [reflexivity|]. replace (Datatypes.S k - 1)%nat with k by lia. induction k as [|k IH]; [reflexivity|].
  replace (Datatypes.S k) with (k + 1)%nat at 1 by lia. rewrite seq_app, fold_left_app, IH. cbn [fold_left seq].
  rewrite of_nat_R. rewrite (fact_simpl (Datatypes.S k)), mult_INR. replace (2 + k)%nat with (Datatypes.S (Datatypes.S k)) by lia. ring.
Qed.
