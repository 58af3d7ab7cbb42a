(** Runge-Kutta methods of the crate: their stages, the order conditions, and their errors along a smooth solution. *)
From Coq Require Import Reals List Arith Lia Lra Psatz QArith Qreals.
From Coquelicot Require Import Coquelicot.
From Verif Require Import Base.Series Spec.Ode Proofs.Expansion Proofs.Order Proofs.Stages.
Import ListNotations.
Local Open Scope R_scope.
Local Notation length := List.length.

(** ** Order conditions, checked with rational numbers *)
Fixpoint qsum (n : nat) (f : nat -> Q) : Q := match n with O => 0%Q | S n => Qred (qsum n f + f n) end.
Definition qprod (l : list Q) : Q := fold_right (fun a b => Qred (a * b)) 1%Q l.
Fixpoint stage_weight_q (A : nat -> nat -> Q) (t : tree) (s : nat) : Q :=
  match t with Node ts => qprod (map (fun t => qsum s (fun r => (A s r * stage_weight_q A t r)%Q)) ts) end.
Fixpoint exact_weight_q (t : tree) : Q := match t with Node ts => Qred (qprod (map exact_weight_q ts) / inject_Z (Z.of_nat (vertices t))) end.
Definition entry (A : list (list Q)) (s r : nat) : Q := nth r (nth s A []) 0%Q.
Definition Rentry (A : list (list Q)) (s r : nat) : R := Q2R (entry A s r).
Definition weight_of (b : list Q) (s : nat) : R := Q2R (nth s b 0%Q).
Definition check_order (A : list (list Q)) (b : list Q) (p : nat) (target : tree -> Q) : bool :=
  forallb (fun j => forallb (fun t => Qeq_bool (qsum (List.length b) (fun s => (nth s b 0 * stage_weight_q (entry A) t s)%Q)) (target t)) (trees j)) (seq 0 (S p)).

Lemma tree_nested (X : tree -> Prop) : (forall ts, List.Forall X ts -> X (Node ts)) -> forall t, X t.
Proof. intros H. fix IH 1. intros [ts]. apply H. induction ts as [|t ts IHts]; constructor; [apply IH|exact IHts]. Qed.
Lemma Q2R_red q : Q2R (Qred q) = Q2R q.
Proof. apply Qeq_eqR, Qred_correct. Qed.
Lemma Q2R_qsum n f : Q2R (qsum n f) = bsum n (fun i => Q2R (f i)).
Proof. induction n as [|n IH]; cbn [qsum bsum]; [apply RMicromega.Q2R_0|]. rewrite Q2R_red, Q2R_plus, IH. reflexivity. Qed.
Lemma Q2R_qprod l : Q2R (qprod l) = prod (map Q2R l).
Proof. induction l as [|x l IH]; [apply RMicromega.Q2R_1|]. cbn [qprod fold_right map prod]. rewrite Q2R_red, Q2R_mult. fold (qprod l). rewrite IH. reflexivity. Qed.
Lemma Q2R_stage A t : forall s, Q2R (stage_weight_q (entry A) t s) = stage_weight (Rentry A) t s.
Proof.
  induction t as [ts H] using tree_nested. intros s. cbn [stage_weight_q stage_weight]. rewrite Q2R_qprod, map_map. f_equal. apply map_ext_in. intros t Ht. rewrite Q2R_qsum. apply bsum_ext. intros r _. rewrite Q2R_mult. rewrite Forall_forall in H. rewrite (H t Ht). reflexivity.
Qed.
Lemma Q2R_exact t : Q2R (exact_weight_q t) = exact_weight t.
Proof.
  induction t as [ts H] using tree_nested. cbn [exact_weight_q exact_weight]. rewrite Q2R_red, Q2R_div.
  - rewrite Q2R_qprod, map_map. f_equal; [f_equal; apply map_ext_in; intros t Ht; rewrite Forall_forall in H; auto|]. unfold Q2R, inject_Z. cbn [Qnum Qden]. rewrite Rinv_1, Rmult_1_r, <- INR_IZR_INZ. reflexivity.
  - cbn [vertices]. unfold inject_Z, Qeq. cbn [Qnum Qden]. lia.
Qed.
Lemma order_conditions A b p target : check_order A b p target = true -> forall j t, (j < S p)%nat -> In t (trees j) -> bsum (List.length b) (fun s => weight_of b s * stage_weight (Rentry A) t s) = Q2R (target t).
Proof.
  unfold check_order. intros H j t Hj Ht. rewrite forallb_forall in H. specialize (H j ltac:(apply in_seq; lia)). rewrite forallb_forall in H. specialize (H t Ht). apply Qeq_bool_eq, Qeq_eqR in H. rewrite <- H, Q2R_qsum. apply bsum_ext. intros s _. rewrite Q2R_mult, Q2R_stage. reflexivity.
Qed.

(** ** Along a solution *)
Lemma uniform_modulus (g : nat -> R -> R) n a b r : 0 < r -> (forall i t, (i < n)%nat -> a <= t <= b -> continuity_pt (g i) t) ->
  exists d, 0 < d /\ forall i s t, (i < n)%nat -> a <= s <= b -> a <= t <= b -> Rabs (s - t) < d -> Rabs (g i s - g i t) < r.
Proof.
  intros Hr H. induction n as [|n IH]; [exists 1; split; [lra|intros; lia]|]. destruct IH as (d & Hd & IH); [auto|].
  destruct (Heine (g n) (fun t => a <= t <= b) (compact_P3 a b) (fun t Ht => H n t ltac:(lia) Ht) (mkposreal r Hr)) as (d' & Hd'). exists (Rmin d d'). split; [apply Rmin_glb_lt; [auto|apply d']|].
  intros i s t Hi Hs Ht St. destruct (Nat.eq_dec i n) as [->|N]; [apply (Hd' s t Hs Ht); eapply Rlt_le_trans; [apply St|apply Rmin_r]|]. apply IH; try lia; auto. eapply Rlt_le_trans; [apply St|apply Rmin_l].
Qed.

Lemma nth_shifted n y v i : (i < n)%nat -> nth i (shifted n y v) 0 = nth i y 0 + v i.
Proof. intros Hi. unfold shifted. rewrite (nth_indep _ 0 (nth 0 y 0 + v 0%nat)) by (rewrite map_length, seq_length; auto). rewrite (map_nth (fun i => nth i y 0 + v i)). rewrite seq_nth by auto. reflexivity. Qed.
Lemma shifted_length n y v : length (shifted n y v) = n.
Proof. unfold shifted. rewrite map_length, seq_length. reflexivity. Qed.
Lemma shifted_ext n y z v w : (forall i, (i < n)%nat -> nth i y 0 + v i = nth i z 0 + w i) -> shifted n y v = shifted n z w.
Proof. intros H. apply (nth_ext _ _ 0 0); rewrite !shifted_length; [reflexivity|]. intros i Hi. rewrite !nth_shifted by auto. auto. Qed.
Lemma shifted_eq n y l v : length l = n -> (forall i, (i < n)%nat -> nth i l 0 = nth i y 0 + v i) -> l = shifted n y v.
Proof. intros L H. apply (nth_ext _ _ 0 0); [rewrite shifted_length; auto|]. intros i Hi. rewrite nth_shifted by lia. apply H. lia. Qed.

Section Method.
Variables (n p : nat) (f : R -> list R -> list R) (y : R -> list R) (a0 a b b0 : R).
Hypothesis (Ha : a0 < a) (Hb : b < b0) (Hab : a <= b) (Hp : (1 <= p)%nat).
Hypothesis Sol : solves n f y a0 b0.
Variables (bound radius : R).
Hypothesis Hradius : 0 < radius.
Definition coefficients_at (t : R) (c : nat -> list nat -> R) : Prop :=
  (forall i js, (i < n)%nat -> (length js < p)%nat -> Rabs (c i js) <= bound) /\ taylor n p f t (y t) c bound radius.
Definition points := { q : R * (nat -> list nat -> R) | a <= fst q <= b /\ coefficients_at (fst q) (snd q) }.
Definition at_time (q : points) : R := fst (proj1_sig q).
Let M := Rmax bound 1.
Let C (q : points) (i : nat) (js : list nat) : R := if Nat.ltb i n then snd (proj1_sig q) i js else match js with [] => 1 | _ => 0 end.
Let F (q : points) (v : vec) (i : nat) : R := if Nat.ltb i n then nth i (f (at_time q + v n) (shifted n (y (at_time q)) v)) 0 else 1.
Lemma M_pos : 0 <= M.
Proof. unfold M. pose proof (Rmax_r bound 1). lra. Qed.
Lemma C_bound q i js : (i < S n)%nat -> (length js < p)%nat -> Rabs (C q i js) <= M.
Proof.
  intros Hi Hj. unfold C. destruct q as [[t c] (Ht & Hc1 & Hc2)]. cbn [proj1_sig snd fst] in *. destruct (Nat.ltb_spec i n) as [L|L].
  - eapply Rle_trans; [apply Hc1; auto|apply Rmax_l].
  - pose proof (Rmax_r bound 1). destruct js; [rewrite Rabs_R1|rewrite Rabs_R0]; unfold M; lra.
Qed.
Lemma form_zero m k v : form m k (fun _ => 0) v = 0.
Proof. induction k as [|k IH]; [reflexivity|]. cbn [form]. rewrite (bsum_ext m _ (fun _ => 0)) by (intros; rewrite IH; ring). apply bsum_0. Qed.
Lemma F_taylor q v r i : (forall j, (j < S n)%nat -> Rabs (v j) <= r) -> r <= radius -> (i < S n)%nat -> Rabs (F q v i - bsum p (fun k => form (S n) k (C q i) v)) <= M * r ^ p.
Proof.
  intros Hv Hr Hi. assert (0 <= r) by (eapply Rle_trans; [apply Rabs_pos|apply (Hv 0%nat); lia]). pose proof (pow_le r p ltac:(auto)) as Pr. unfold F, C. destruct (Nat.ltb_spec i n) as [L|L].
  - destruct q as [[t c] (Ht & Hc1 & Hc2)]. unfold at_time. cbn [proj1_sig snd fst] in *. eapply Rle_trans; [apply (Hc2 v r i); [intros; apply Hv; lia|auto|auto]|]. apply Rmult_le_compat_r; [auto|apply Rmax_l].
  - destruct p as [|p']; [lia|]. rewrite bsum_first. cbn [form]. rewrite (bsum_ext p' _ (fun _ => 0)).
    2:{ intros k _. rewrite (bsum_ext (S n) _ (fun _ => 0)) by (intros; rewrite form_zero; ring). apply bsum_0. }
    rewrite bsum_0. replace (1 - (1 + 0)) with 0 by ring. rewrite Rabs_R0. apply Rmult_le_pos; [apply M_pos|auto].
Qed.

(** the solution, seen from one of its points *)
Let g (i : nat) (q : points) (h : R) : R := if Nat.ltb i n then nth i (y (at_time q + h)) 0 - nth i (y (at_time q)) 0 else h.
Lemma shifted_g q h : a0 < at_time q + h < b0 -> shifted n (y (at_time q)) (fun j => g j q h) = y (at_time q + h).
Proof.
  intros Ht. symmetry. apply shifted_eq; [apply (Sol _ Ht)|]. intros i Hi. unfold g. destruct (Nat.ltb_spec i n); [ring|lia].
Qed.
Lemma time_range q : a <= at_time q <= b.
Proof. apply (proj1 (proj2_sig q)). Qed.
Lemma g_derive i q h : (i < S n)%nat -> a0 < at_time q + h < b0 -> is_derive (g i q) h (F q (fun j => g j q h) i).
Proof.
  intros Hi Ht. unfold F. destruct (Nat.ltb_spec i n) as [L|L].
  - rewrite (shifted_g q h Ht). assert (E : g n q h = h) by (unfold g; rewrite Nat.ltb_irrefl; reflexivity). rewrite E. clear E. unfold g. destruct (Nat.ltb_spec i n); [|lia].
    destruct (Sol _ Ht) as (_ & D). specialize (D i L). evar_last.
    + apply (is_derive_minus (fun h => nth i (y (at_time q + h)) 0) (fun _ => nth i (y (at_time q)) 0)); [|apply @is_derive_const].
      apply (is_derive_comp (fun s => nth i (y s) 0) (fun h => at_time q + h) h _ 1 D). evar_last; [auto_derive; [exact I|reflexivity]|]. match goal with |- ?x = ?y => change (@eq R x y) end. ring.
    + match goal with |- ?x = ?y => change (@eq R x y) end. unfold minus, plus, opp, scal, zero. cbn. unfold mult. cbn. ring.
  - unfold g. destruct (Nat.ltb_spec i n); [lia|]. apply (@is_derive_id R_AbsRing).
Qed.
Lemma g_zero i q : g i q 0 = 0.
Proof. unfold g. destruct (Nat.ltb i n); rewrite ?Rplus_0_r; ring. Qed.

Definition reach0 : R := Rmin (Rmin ((a - a0) / 2) ((b0 - b) / 2)) 1.
Lemma reach0_pos : 0 < reach0.
Proof. unfold reach0. repeat apply Rmin_glb_lt; lra. Qed.
Lemma in_range t h : a <= t <= b -> Rabs h <= reach0 -> a0 < t + h < b0.
Proof.
  intros Ht Hh. assert (reach0 <= (a - a0) / 2) by (eapply Rle_trans; [apply Rmin_l|apply Rmin_l]). assert (reach0 <= (b0 - b) / 2) by (eapply Rle_trans; [apply Rmin_l|apply Rmin_r]). apply Rabs_le_between in Hh. lra.
Qed.
Lemma g_small : exists B d, 0 < d /\ d <= reach0 /\ forall i q h, (i < S n)%nat -> Rabs h <= d -> Rabs (g i q h) <= B * Rabs h.
Proof.
  set (r := Rmin 1 radius). assert (0 < r) by (apply Rmin_glb_lt; lra).
  destruct (uniform_modulus (fun i t => nth i (y t) 0) n ((a0 + a) / 2) ((b + b0) / 2) r) as (d & Hd & Hm); [auto| |].
  { intros i t Hi Ht. apply continuity_pt_filterlim. destruct (Sol t ltac:(lra)) as (_ & D). apply (ex_derive_continuous (fun s => nth i (y s) 0) t). exists (nth i (f t (y t)) 0). apply D; auto. }
  set (d' := Rmin (Rmin (d / 2) reach0) r). assert (D1 : 0 < d') by (repeat apply Rmin_glb_lt; try lra; apply reach0_pos). assert (D2 : d' <= d / 2) by (eapply Rle_trans; [apply Rmin_l|apply Rmin_l]). assert (D3 : d' <= reach0) by (eapply Rle_trans; [apply Rmin_l|apply Rmin_r]). assert (D4 : d' <= r) by apply Rmin_r.
  exists (size_bound (S n) p M), d'. split; [auto|]. split; [auto|]. intros i q h Hi Hh.
  assert (In_r : forall s j, Rabs s <= Rabs h -> (j < S n)%nat -> Rabs (g j q s) <= r).
  { intros s j Hs Hj. unfold g. destruct (Nat.ltb_spec j n); [|lra]. left. pose proof (time_range q) as Tq. assert (reach0 <= (a - a0) / 2) by (eapply Rle_trans; [apply Rmin_l|apply Rmin_l]). assert (reach0 <= (b0 - b) / 2) by (eapply Rle_trans; [apply Rmin_l|apply Rmin_r]).
    assert (Hs2 : Rabs s <= d') by lra. apply Rabs_le_between in Hs2. apply Hm; auto; try lra. replace (at_time q + s - at_time q) with s by ring. lra. }
  destruct (MVT_abs (g i q) (fun s => F q (fun j => g j q s) i) 0 h) as (c & E & Hc).
  { intros s Hs. apply is_derive_Reals. apply g_derive; [auto|]. apply in_range; [apply time_range|]. assert (Rabs s <= Rabs h) by (unfold Rmin, Rmax in Hs; destruct (Rle_dec 0 h); unfold Rabs; destruct (Rcase_abs s), (Rcase_abs h); lra). lra. }
  rewrite g_zero, !Rminus_0_r in E. rewrite E. apply Rmult_le_compat_r; [apply Rabs_pos|].
  assert (Rabs c <= Rabs h) by (unfold Rmin, Rmax in Hc; destruct (Rle_dec 0 h); unfold Rabs; destruct (Rcase_abs c), (Rcase_abs h); lra).
  apply (F_bound (S n) p C F M radius C_bound Hradius M_pos F_taylor); auto.
Qed.
Theorem solution_series : forall i, (i < S n)%nat -> expands (S p) (g i) (fun q j => combo (e (S n) C q) exact_weight (trees j) i).
Proof.
  destruct g_small as (B & d & Hd & Hd2 & HB). intros i Hi.
  apply (solution_expands (S n) p C F M radius C_bound Hradius F_taylor g d); auto.
  - intros j q h Hj Hh. apply g_derive; auto. apply in_range; [apply time_range|lra].
  - intros; apply g_zero.
  - exists B. exact HB.
Qed.

(** ** A method with the given stages *)
Variables (A : nat -> nat -> R) (N : nat) (stages : R -> list R -> R -> nat -> list R).
Hypothesis Stages : forall t z h s i, length z = n -> (s < N)%nat -> (i < n)%nat ->
  nth i (stages t z h s) 0 = nth i (f (t + h * bsum s (A s)) (shifted n z (fun j => h * bsum s (fun r => A s r * nth j (stages t z h r) 0)))) 0.
Let kk (z : points -> list R) (s i : nat) (q : points) (h : R) : R := if Nat.ltb i n then nth i (stages (at_time q) (z q) h s) 0 else 1.
Lemma bsum_kk_time z s q h : bsum s (fun r => A s r * kk z r n q h) = bsum s (A s).
Proof. apply bsum_ext. intros. unfold kk. rewrite Nat.ltb_irrefl. ring. Qed.
Lemma kk_stage z ev s i q h : length (z q) = n -> (forall j, (j < n)%nat -> nth j (z q) 0 = nth j (y (at_time q)) 0 + ev j) -> ev n = 0 -> (s < N)%nat -> (i < S n)%nat ->
  kk z s i q h = F q (fun j => ev j + h * bsum s (fun r => A s r * kk z r j q h)) i.
Proof.
  intros Lz Ez E0 Hs Hi. unfold F. destruct (Nat.ltb_spec i n) as [L|L].
  - unfold kk at 1. destruct (Nat.ltb_spec i n); [|lia]. rewrite Stages by auto. rewrite E0, bsum_kk_time, Rplus_0_l. f_equal. f_equal. apply shifted_ext. intros j Hj. rewrite Ez by auto. rewrite Rplus_assoc. do 2 f_equal. f_equal. apply bsum_ext. intros r _. unfold kk. destruct (Nat.ltb_spec j n); [reflexivity|lia].
  - unfold kk. destruct (Nat.ltb_spec i n); [lia|reflexivity].
Qed.
Lemma kk_exact s i q h : (s < N)%nat -> (i < S n)%nat -> kk (fun q => y (at_time q)) s i q h = F q (fun j => h * bsum s (fun r => A s r * kk (fun q => y (at_time q)) r j q h)) i.
Proof.
  intros Hs Hi. rewrite (kk_stage (fun q => y (at_time q)) (fun _ => 0) s i q h); auto.
  - unfold F. rewrite Rplus_0_l. destruct (Nat.ltb i n); [|reflexivity]. f_equal. f_equal. apply shifted_ext. intros; ring.
  - apply (Sol (at_time q)). pose proof (time_range q). lra.
  - intros; ring.
Qed.
Lemma weighted (w : nat -> R) (target : tree -> R) : (forall j t, (j < S p)%nat -> In t (trees j) -> bsum N (fun s => w s * stage_weight A t s) = target t) ->
  forall i, (i < S n)%nat -> expands (S p) (fun q h => h * bsum N (fun s => w s * kk (fun q => y (at_time q)) s i q h)) (fun q j => combo (e (S n) C q) target (trees j) i).
Proof.
  intros H i Hi. eapply expands_same; [intros; reflexivity| |apply (step_expands (S n) p C F M radius C_bound Hradius F_taylor A N (fun s j q h => kk (fun q => y (at_time q)) s j q h) w Hp); [|exact Hi]].
  - intros q j Hj. unfold combo. apply lsum_ext. intros t Ht. rewrite (H j t Hj Ht). reflexivity.
  - intros. apply kk_exact; auto.
Qed.
Theorem local_error (w : nat -> R) : (forall t, a <= t <= b -> exists c, coefficients_at t c) -> (forall j t, (j < S p)%nat -> In t (trees j) -> bsum N (fun s => w s * stage_weight A t s) = exact_weight t) ->
  exists K d, 0 <= K /\ 0 < d <= 1 /\ forall t h i, a <= t <= b -> Rabs h <= d -> (i < n)%nat ->
    Rabs (nth i (y t) 0 + h * bsum N (fun s => w s * nth i (stages t (y t) h s) 0) - nth i (y (t + h)) 0) <= K * Rabs h ^ S p.
Proof.
  intros Sm Hw. destruct (same_expansion (S n) C (fun i q h => h * bsum N (fun s => w s * kk (fun q => y (at_time q)) s i q h)) g exact_weight exact_weight (S p)) as (K & d & HK & Hd & H); [apply weighted; auto|apply solution_series|reflexivity|].
  exists K, d. split; [auto|]. split; [auto|]. intros t h i Ht Hh Hi. destruct (Sm t Ht) as (c & Hc). specialize (H (exist _ (t, c) (conj Ht Hc)) h i ltac:(lia) Hh). unfold kk, g, at_time in H. cbn [proj1_sig fst] in H.
  destruct (Nat.ltb_spec i n); [|lia]. eapply Rle_trans; [|exact H]. right. f_equal. ring.
Qed.
Theorem estimate_small (w : nat -> R) : (forall t, a <= t <= b -> exists c, coefficients_at t c) -> (forall j t, (j < S p)%nat -> In t (trees j) -> bsum N (fun s => w s * stage_weight A t s) = 0) ->
  exists K d, 0 <= K /\ 0 < d <= 1 /\ forall t h i, a <= t <= b -> Rabs h <= d -> (i < n)%nat ->
    Rabs (h * bsum N (fun s => w s * nth i (stages t (y t) h s) 0)) <= K * Rabs h ^ S p.
Proof.
  intros Sm Hw. destruct (same_expansion (S n) C (fun i q h => h * bsum N (fun s => w s * kk (fun q => y (at_time q)) s i q h)) (fun _ _ _ => 0) (fun _ => 0) (fun _ => 0) (S p)) as (K & d & HK & Hd & H); [apply weighted; auto| |reflexivity|].
  { intros i Hi. eapply expands_same; [| |apply expands_zero]; [reflexivity|]. intros q j _. unfold combo. rewrite (lsum_ext _ _ (fun _ => 0)) by (intros; ring). rewrite lsum_0. reflexivity. }
  exists K, d. split; [auto|]. split; [auto|]. intros t h i Ht Hh Hi. destruct (Sm t Ht) as (c & Hc). specialize (H (exist _ (t, c) (conj Ht Hc)) h i ltac:(lia) Hh). unfold kk, at_time in H. cbn [proj1_sig fst] in H.
  destruct (Nat.ltb_spec i n); [|lia]. rewrite Rminus_0_r in H. exact H.
Qed.
(** one step started beside the solution *)
Theorem step_error (w : nat -> R) : (forall t, a <= t <= b -> exists c, coefficients_at t c) -> (forall j t, (j < S p)%nat -> In t (trees j) -> bsum N (fun s => w s * stage_weight A t s) = exact_weight t) ->
  exists L K d, 0 <= L /\ 0 <= K /\ 0 < d <= 1 /\ forall t h z E, a <= t <= b -> Rabs h <= d -> length z = n -> 0 <= E <= Rabs h -> (forall i, (i < n)%nat -> Rabs (nth i z 0 - nth i (y t) 0) <= E) ->
    forall i, (i < n)%nat -> Rabs (nth i z 0 + h * bsum N (fun s => w s * nth i (stages t z h s) 0) - nth i (y (t + h)) 0) <= (1 + Rabs h * L) * E + K * Rabs h ^ S p.
Proof.
  intros Sm Hw. destruct (local_error w Sm Hw) as (K1 & d1 & HK1 & Hd1 & H1). destruct (stability (S n) p C F M radius C_bound Hradius M_pos F_taylor A N) as (K2 & HK2 & H2).
  set (sm := Rmin 1 radius / (1 + bsum N (fun s => bsum s (fun r => Rabs (A s r))) * size_bound (S n) p M)) in *.
  assert (Psm : 0 < sm) by (apply (step_max_pos (S n) p M radius Hradius M_pos A N)).
  set (W := bsum N (fun s => Rabs (w s))). assert (0 <= W) by (apply bsum_nonneg; intros; apply Rabs_pos).
  exists (W * K2), (K1 + W * K2), (Rmin d1 sm). split; [apply Rmult_le_pos; auto|]. split; [apply Rplus_le_le_0_compat; [auto|apply Rmult_le_pos; auto]|]. split; [split; [apply Rmin_glb_lt; lra|eapply Rle_trans; [apply Rmin_l|lra]]|].
  intros t h z E Ht Hh Lz HE Hz i Hi. assert (Hh1 : Rabs h <= d1) by (eapply Rle_trans; [apply Hh|apply Rmin_l]). assert (Hh2 : Rabs h <= sm) by (eapply Rle_trans; [apply Hh|apply Rmin_r]).
  specialize (H1 t h i Ht Hh1 Hi). destruct (Sm t Ht) as (c & Hc). set (q := exist _ (t, c) (conj Ht Hc) : points).
  set (ev := fun j => if Nat.ltb j n then nth j z 0 - nth j (y t) 0 else 0).
  assert (Hev : forall j, (j < S n)%nat -> Rabs (ev j) <= E) by (intros j Hj; unfold ev; destruct (Nat.ltb_spec j n); [auto|rewrite Rabs_R0; lra]).
  assert (X : forall s, (s < N)%nat -> Rabs (nth i (stages t z h s) 0 - nth i (stages t (y t) h s) 0) <= K2 * (E + Rabs h ^ p)).
  { intros s Hs. pose proof (H2 q h ev E (fun s j => kk (fun _ => z) s j q h) (fun s j => kk (fun q => y (at_time q)) s j q h) Hh2 HE Hev) as Y.
    assert (Y1 : stages_of (S n) F A N q h ev (fun s j => kk (fun _ => z) s j q h)).
    { intros s' j Hs' Hj. apply (kk_stage (fun _ => z) ev s' j q h); auto; [|unfold ev; rewrite Nat.ltb_irrefl; reflexivity]. intros l Hl. unfold ev. destruct (Nat.ltb_spec l n); [|lia]. unfold at_time, q. cbn [proj1_sig fst]. ring. }
    assert (Y2 : stages_of (S n) F A N q h (fun _ => 0) (fun s j => kk (fun q => y (at_time q)) s j q h)).
    { intros s' j Hs' Hj. apply (kk_stage (fun q => y (at_time q)) (fun _ => 0) s' j q h); auto; [|intros; ring]. apply (Sol t). lra. }
    specialize (Y Y1 Y2 s i Hs ltac:(lia)). unfold kk, at_time, q in Y. cbn [proj1_sig fst] in Y. destruct (Nat.ltb_spec i n); [exact Y|lia]. }
  assert (D : Rabs (bsum N (fun s => w s * nth i (stages t z h s) 0) - bsum N (fun s => w s * nth i (stages t (y t) h s) 0)) <= W * (K2 * (E + Rabs h ^ p))).
  { rewrite <- bsum_minus. eapply Rle_trans; [apply bsum_abs|]. unfold W. rewrite Rmult_comm, <- bsum_scal. apply bsum_le. intros s Hs. rewrite <- Rmult_minus_distr_l, Rabs_mult, Rmult_comm. apply Rmult_le_compat_r; [apply Rabs_pos|]. auto. }
  set (S1 := bsum N (fun s => w s * nth i (stages t z h s) 0)) in *. set (S0 := bsum N (fun s => w s * nth i (stages t (y t) h s) 0)) in *.
  replace (nth i z 0 + h * S1 - nth i (y (t + h)) 0) with ((nth i z 0 - nth i (y t) 0) + h * (S1 - S0) + (nth i (y t) 0 + h * S0 - nth i (y (t + h)) 0)) by ring.
  eapply Rle_trans; [apply Rabs_triang|]. eapply Rle_trans; [apply Rplus_le_compat_r, Rabs_triang|]. rewrite Rabs_mult. pose proof (Hz i Hi). pose proof (Rabs_pos h).
  assert (Rabs h * Rabs (S1 - S0) <= Rabs h * (W * (K2 * (E + Rabs h ^ p)))) by (apply Rmult_le_compat_l; auto). cbn [pow]. cbn [pow] in H1. lra.
Qed.
End Method.
