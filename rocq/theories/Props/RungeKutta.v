(** C110: the classical Runge-Kutta method.  C111: one Dormand-Prince step. *)
From Coq Require Import ZArith Reals List Bool Arith Lia Lra Psatz.
From Coquelicot Require Import Coquelicot.
From Verif Require Import Base.Scalar Base.RNum Base.Series Model.Errors Model.Vector Model.Ode.
From Verif Require Import Spec.Ode Proofs.Expansion Proofs.Order Proofs.Stages Proofs.Vector Proofs.Ode Proofs.Tableau.
Import ListNotations.
Local Open Scope R_scope.
Local Notation length := List.length.
Local Notation exp := Rtrigo_def.exp.

Lemma smooth_points n p f y a b : smooth_along n p f y a b -> exists bound radius, 0 < radius /\ forall t, a <= t <= b -> exists c, coefficients_at n p f y bound radius t c.
Proof. intros (B & r & Hr & H). exists B, r. split; [auto|]. intros t Ht. destruct (H t Ht) as (c & H1 & H2). exists c. split; auto. Qed.
Lemma exact_conditions A b p : check_order A b p exact_weight_q = true -> forall j t, (j < S p)%nat -> In t (trees j) -> bsum (length b) (fun s => weight_of b s * stage_weight (Rentry A) t s) = exact_weight t.
Proof. intros H j t Hj Ht. rewrite <- Q2R_exact. apply (order_conditions A b p exact_weight_q H j t Hj Ht). Qed.

(** ** C110 *)
Theorem C110_one_step n f y a0 a b b0 : a0 < a -> a <= b -> b < b0 -> same_size n f -> solves n f y a0 b0 -> smooth_along n 4 f y a b ->
  exists K d, 0 < d /\ forall t h i, a <= t <= b -> Rabs h <= d -> (i < n)%nat ->
    Rabs (nth i (rk4_step f t (y t) h) 0 - nth i (y (t + h)) 0) <= K * Rabs h ^ 5.
Proof.
  intros Ha Hab Hb Size Sol Sm. destruct (smooth_points _ _ _ _ _ _ Sm) as (B & r & Hr & Hc).
  destruct (local_error n 4 f y a0 a b b0 Ha Hb ltac:(lia) Sol B r Hr (Rentry A4) 4 (stage4 f) (stage4_eq n f Size) (weight_of B4) Hc (exact_conditions A4 B4 4 order4)) as (K & d & HK & Hd & H).
  exists K, d. split; [lra|]. intros t h i Ht Hh Hi. rewrite (rk4_step_eq n f Size) by (apply (Sol t); lra). apply H; auto.
Qed.

Lemma rk4_loop_nodes {T} {NT : Num T} (f : T -> list T -> list T) h steps : forall time state,
  length (fst (rk4_loop f time state h steps)) = steps /\
  (forall k d, (k < steps)%nat -> nth k (fst (rk4_loop f time state h steps)) d =
     let '(t, z) := nth k ((time, state) :: fst (rk4_loop f time state h steps)) d in (add t h, rk4_step f t z h)) /\
  snd (rk4_loop f time state h steps) = snd (nth steps ((time, state) :: fst (rk4_loop f time state h steps)) (time, state)).
Proof.
  induction steps as [|n IH]; intros time state; [cbn; repeat split; intros; lia|].
  cbn [rk4_loop]. specialize (IH (add time h) (rk4_step f time state h)). destruct (rk4_loop f (add time h) (rk4_step f time state h) h n) as [nodes final] eqn:E. cbn [fst snd] in *. destruct IH as (L & N & F). split; [cbn; lia|]. split.
  - intros [|k] d Hk; [reflexivity|]. cbn [nth]. rewrite N by lia. reflexivity.
  - rewrite F. f_equal. apply (nth_indep ((add time h, rk4_step f time state h) :: nodes)). cbn. lia.
Qed.
(** The observer gets the start and then every step's end, in order, and the answer is the last. *)
Theorem C110_nodes {T} {NT : Num T} (f : T -> list T -> list T) time state h steps :
  let '(nodes, final) := rk4_integrate f time state h steps in
  length nodes = S steps /\ (forall d, nth 0 nodes d = (time, state)) /\
  (forall k d, (k < steps)%nat -> nth (S k) nodes d = (let '(t, z) := nth k nodes d in (add t h, rk4_step f t z h))) /\
  final = snd (nth steps nodes (time, state)).
Proof.
  unfold rk4_integrate. pose proof (rk4_loop_nodes f h steps time state) as H. destruct (rk4_loop f time state h steps) as [nodes final]. cbn [fst snd] in H. destruct H as (L & N & F). repeat split; [cbn; lia|intros k d Hk; cbn [nth]; apply N; auto|exact F].
Qed.

(** Whatever the number of steps, every node is within a multiple of the fourth power of the step of the solution. *)
Theorem C110_error n f y a0 a b b0 : a0 < a -> a <= b -> b < b0 -> same_size n f -> solves n f y a0 b0 -> smooth_along n 4 f y a b ->
  exists K d, 0 < d /\ forall h steps, 0 < h <= d -> a + INR steps * h <= b -> forall k i, (k <= steps)%nat -> (i < n)%nat ->
    let '(t, z) := nth k (fst (rk4_integrate f a (y a) h steps)) (a, y a) in
    t = a + INR k * h /\ Rabs (nth i z 0 - nth i (y t) 0) <= K * h ^ 4.
Proof.
  intros Ha Hab Hb Size Sol Sm. destruct (smooth_points _ _ _ _ _ _ Sm) as (B & r & Hr & Hc).
  destruct (step_error n 4 f y a0 a b b0 Ha Hb ltac:(lia) Sol B r Hr (Rentry A4) 4 (stage4 f) (stage4_eq n f Size) (weight_of B4) Hc (exact_conditions A4 B4 4 order4)) as (L & K & d & HL & HK & Hd & H).
  destruct (error_growth 4 L K (b - a) ltac:(lia) HL HK ltac:(lra)) as (G & d2 & HG & Hd2 & Grow).
  exists G, (Rmin (Rmin d d2) (/ (1 + G))). assert (PG : 0 < / (1 + G)) by (apply Rinv_0_lt_compat; lra). split; [repeat apply Rmin_glb_lt; lra|].
  intros h steps Hh Hend. assert (h <= d) by (eapply Rle_trans; [apply Hh|]; eapply Rle_trans; [apply Rmin_l|apply Rmin_l]). assert (h <= d2) by (eapply Rle_trans; [apply Hh|]; eapply Rle_trans; [apply Rmin_l|apply Rmin_r]). assert (HhG : h <= / (1 + G)) by (eapply Rle_trans; [apply Hh|]; apply Rmin_r).
  assert (Small : G * h ^ 4 <= h).
  { assert (G * h <= 1). { apply Rle_trans with (G * / (1 + G)); [apply Rmult_le_compat_l; lra|]. apply (Rmult_le_reg_r (1 + G)); [lra|]. rewrite Rmult_assoc, Rinv_l by lra. lra. } assert (h ^ 2 <= 1) by (apply pow_le_1; lra). pose proof (pow_le h 2 ltac:(lra)). replace (G * h ^ 4) with (G * h * h ^ 2 * h) by ring. assert (0 <= G * h) by (apply Rmult_le_pos; lra). assert (G * h * h ^ 2 <= 1) by nra. nra. }
  set (E := fix E (k : nat) : R := match k with O => 0 | S k => (1 + h * L) * E k + K * h ^ 5 end).
  assert (HE : forall k, (k <= steps)%nat -> 0 <= E k <= G * h ^ 4).
  { apply (Grow h E steps); [lra|lra|reflexivity|]. intros k Hk Ek. cbn [E]. split; [|lra]. assert (0 <= h * L) by (apply Rmult_le_pos; lra). pose proof (pow_le h 5 ltac:(lra)). assert (0 <= (1 + h * L) * E k) by (apply Rmult_le_pos; lra). assert (0 <= K * h ^ 5) by (apply Rmult_le_pos; lra). lra. }
  pose proof (C110_nodes f a (y a) h steps) as Nodes. destruct (rk4_integrate f a (y a) h steps) as [nodes final]. cbn [fst]. destruct Nodes as (Ln & N0 & Ns & _).
  assert (Claim : forall k, (k <= steps)%nat -> let '(t, z) := nth k nodes (a, y a) in t = a + INR k * h /\ length z = n /\ forall i, (i < n)%nat -> Rabs (nth i z 0 - nth i (y t) 0) <= E k).
  { induction k as [|k IH]; intros Hk.
    - rewrite N0. cbn [INR]. split; [ring|]. split; [apply (Sol a); lra|]. intros i Hi. rewrite Rminus_diag_eq by reflexivity. rewrite Rabs_R0. cbn. lra.
    - rewrite (Ns k _ ltac:(lia)). specialize (IH ltac:(lia)). destruct (nth k nodes (a, y a)) as [t z]. destruct IH as (Et & Lz & Ez). split; [rewrite Et, S_INR; rnum; ring|]. split; [apply (rk4_step_length n f Size); auto|].
      intros i Hi. rewrite (rk4_step_eq n f Size) by auto. rnum. pose proof (HE k ltac:(lia)). cbn [E]. assert (Ah : Rabs h = h) by (apply Rabs_right; lra). assert (INR k <= INR steps) by (apply le_INR; lia). assert (0 <= INR k * h <= INR steps * h) by (pose proof (pos_INR k); nra).
      pose proof (H t h z (E k) ltac:(lra) ltac:(lra) Lz ltac:(lra) Ez i Hi) as Q. rewrite Ah in Q. exact Q. }
  intros k i Hk Hi. specialize (Claim k Hk). destruct (nth k nodes (a, y a)) as [t z]. destruct Claim as (Et & _ & Ez). split; [exact Et|]. eapply Rle_trans; [apply Ez; auto|]. apply HE; auto.
Qed.

(** ** C111 *)
Theorem C111_one_step n f y a0 a b b0 : a0 < a -> a <= b -> b < b0 -> same_size n f -> solves n f y a0 b0 -> smooth_along n 5 f y a b ->
  exists K d, 0 < d /\ forall t h i, a <= t <= b -> Rabs h <= d -> (i < n)%nat ->
    let '(state, _, _) := dopri_step f t (y t) h (f t (y t)) in Rabs (nth i state 0 - nth i (y (t + h)) 0) <= K * Rabs h ^ 6.
Proof.
  intros Ha Hab Hb Size Sol Sm. destruct (smooth_points _ _ _ _ _ _ Sm) as (B & r & Hr & Hc).
  destruct (local_error n 5 f y a0 a b b0 Ha Hb ltac:(lia) Sol B r Hr (Rentry A5) 7 (stage5 f) (stage5_eq n f Size) (weight_of B5) Hc (exact_conditions A5 B5 5 order5)) as (K & d & HK & Hd & H).
  exists K, d. split; [lra|]. intros t h i Ht Hh Hi. destruct (dopri_step f t (y t) h (f t (y t))) as [[s e] k7] eqn:E. pose proof (dopri_state n f Size t (y t) h i ltac:(apply (Sol t); lra)) as D. rewrite E in D. cbn [fst] in D. rewrite D. apply H; auto.
Qed.
(** The error estimate is small, and taking it away leaves a method of order four. *)
Theorem C111_estimate n f y a0 a b b0 : a0 < a -> a <= b -> b < b0 -> same_size n f -> solves n f y a0 b0 -> smooth_along n 4 f y a b ->
  exists K d, 0 < d /\ forall t h i, a <= t <= b -> Rabs h <= d -> (i < n)%nat ->
    let '(state, err, _) := dopri_step f t (y t) h (f t (y t)) in
    Rabs (nth i err 0) <= K * Rabs h ^ 5 /\ Rabs (nth i state 0 - nth i err 0 - nth i (y (t + h)) 0) <= K * Rabs h ^ 5.
Proof.
  intros Ha Hab Hb Size Sol Sm. destruct (smooth_points _ _ _ _ _ _ Sm) as (B & r & Hr & Hc).
  assert (O4 : check_order A5 B5 4 exact_weight_q = true) by (vm_compute; reflexivity).
  assert (O0 : forall j t, (j < 5)%nat -> In t (trees j) -> bsum 7 (fun s => weight_of E5 s * stage_weight (Rentry A5) t s) = 0) by (intros j t Hj Ht; etransitivity; [apply (order_conditions A5 E5 4 (fun _ => QArith_base.Qmake 0 1) estimate4 j t Hj Ht)|apply RMicromega.Q2R_0]).
  destruct (local_error n 4 f y a0 a b b0 Ha Hb ltac:(lia) Sol B r Hr (Rentry A5) 7 (stage5 f) (stage5_eq n f Size) (weight_of B5) Hc (exact_conditions A5 B5 4 O4)) as (K & d & HK & Hd & H).
  destruct (estimate_small n 4 f y a0 a b b0 Ha Hb ltac:(lia) Sol B r Hr (Rentry A5) 7 (stage5 f) (stage5_eq n f Size) (weight_of E5) Hc O0) as (K2 & d2 & HK2 & Hd2 & H2).
  exists (K + K2), (Rmin d d2). split; [apply Rmin_glb_lt; lra|]. intros t h i Ht Hh Hi. assert (Lz : length (y t) = n) by (apply (Sol t); lra).
  specialize (H t h i Ht ltac:(eapply Rle_trans; [apply Hh|apply Rmin_l]) Hi). specialize (H2 t h i Ht ltac:(eapply Rle_trans; [apply Hh|apply Rmin_r]) Hi).
  pose proof (dopri_state n f Size t (y t) h i Lz) as D. pose proof (dopri_error n f Size t (y t) h i Lz) as D2. destruct (dopri_step f t (y t) h (f t (y t))) as [[s e] k7]. cbn [fst snd] in *. rewrite <- D in H. rewrite <- D2 in H2. pose proof (pow_le (Rabs h) 5 (Rabs_pos h)).
  split; [nra|]. replace (nth i s 0 - nth i e 0 - nth i (y (t + h)) 0) with ((nth i s 0 - nth i (y (t + h)) 0) + - nth i e 0) by ring. eapply Rle_trans; [apply Rabs_triang|]. rewrite Rabs_Ropp. lra.
Qed.
(** The derivative at the end of the step is what the next step starts with. *)
Theorem C111_last_stage {T} {NT : Num T} (f : T -> list T -> list T) t y h k :
  let '(state, _, last) := dopri_step f t y h k in last = f (add t h) state.
Proof. reflexivity. Qed.

(** Growth with a limit: [y' = y (1 - y)], whose solution from [1/2] is the logistic curve. *)
Definition growth (_ : R) (y : list R) : list R := map (fun v => v * (1 - v)) y.
Definition curve (t : R) : list R := [/ (1 + exp (- t))].
Lemma growth_solved : solves 1 growth curve (-3) 3.
Proof.
  intros t _. split; [reflexivity|]. intros i Hi. replace i with 0%nat by lia. unfold curve, growth. cbn [nth map]. pose proof (exp_pos (- t)). evar_last; [auto_derive; [lra|reflexivity]|]. match goal with |- ?x = ?y => change (@eq R x y) end. field. lra.
Qed.
Definition growth_form (t : R) (i : nat) (js : list nat) : R :=
  let y := nth 0 (curve t) 0 in match js with [] => y * (1 - y) | [O] => 1 - 2 * y | [O; O] => -1 | _ => 0 end.
Lemma growth_smooth p : (3 <= p)%nat -> smooth_along 1 p growth curve (-2) 2.
Proof.
  intros Hp. exists 1, 1. split; [lra|]. intros t _. exists (growth_form t). assert (Hy : 0 <= nth 0 (curve t) 0 <= 1).
  { unfold curve. cbn [nth]. pose proof (exp_pos (- t)). split; [left; apply Rinv_0_lt_compat; lra|]. rewrite <- Rinv_1 at 2. apply Rinv_le_contravar; lra. }
  split.
  - intros i js Hi Hj. unfold growth_form. set (y := nth 0 (curve t) 0) in *. cbv zeta. destruct js as [|[|?] [|[|?] [|? ?]]]; apply Rabs_le; nra.
  - intros v r i Hv Hr Hi. replace i with 0%nat by lia. assert (0 <= r) by (eapply Rle_trans; [apply Rabs_pos|apply (Hv 0%nat); lia]).
    assert (Z : forall k c, (forall js, c js = 0) -> form 2 k c v = 0) by (induction k as [|k IH]; intros c Hc; cbn [form]; [apply Hc|]; rewrite (bsum_ext 2 _ (fun _ => 0)) by (intros; rewrite IH by (intros; apply Hc); ring); apply bsum_0).
    match goal with |- Rabs ?x <= _ => replace x with 0 end; [rewrite Rabs_R0, Rmult_1_l; apply pow_le; auto|].
    replace p with (3 + (p - 3))%nat by lia. rewrite bsum_shift. rewrite (bsum_ext (p - 3) _ (fun _ => 0)).
    2:{ intros k _. change (3 + k)%nat with (S (S (S k))). cbn [form bsum]. rewrite !Z; [ring|..]; intros; reflexivity. }
    rewrite bsum_0. cbn [bsum form]. unfold growth_form, shifted, growth. cbn [map seq nth]. set (y := nth 0 (curve t) 0). ring.
Qed.
Example C110_example : exists K d, 0 < d /\ forall h steps, 0 < h <= d -> -2 + INR steps * h <= 2 -> forall k i, (k <= steps)%nat -> (i < 1)%nat ->
    let '(t, z) := nth k (fst (rk4_integrate growth (-2) (curve (-2)) h steps)) (-2, curve (-2)) in t = -2 + INR k * h /\ Rabs (nth i z 0 - nth i (curve t) 0) <= K * h ^ 4.
Proof.
  apply (C110_error 1 growth curve (-3) (-2) 2 3); try lra; [intros t y E; unfold growth; rewrite map_length; exact E|apply growth_solved|apply growth_smooth; lia].
Qed.
Example C111_example : exists K d, 0 < d /\ forall t h i, -2 <= t <= 2 -> Rabs h <= d -> (i < 1)%nat ->
    let '(state, _, _) := dopri_step growth t (curve t) h (growth t (curve t)) in Rabs (nth i state 0 - nth i (curve (t + h)) 0) <= K * Rabs h ^ 6.
Proof. apply (C111_one_step 1 growth curve (-3) (-2) 2 3); try lra; [intros t y E; unfold growth; rewrite map_length; exact E|apply growth_solved|apply growth_smooth; lia]. Qed.
Print Assumptions C110_one_step.
Print Assumptions C110_nodes.
Print Assumptions C110_error.
Print Assumptions C111_one_step.
Print Assumptions C111_estimate.
Print Assumptions C111_last_stage.
