(** The order of a Runge-Kutta method, by Butcher's trees: a method and the exact solution have the same expansion when their
    weights agree on every tree. *)
From Coq Require Import Reals List Arith Lia Lra Psatz FunctionalExtensionality.
From Coquelicot Require Import Coquelicot.
From Verif Require Import Base.Series Spec.Ode Proofs.Expansion.
Import ListNotations.
Local Open Scope R_scope.

(** ** Sums over lists *)
Definition lsum {A} (l : list A) (g : A -> R) : R := fold_right (fun x s => g x + s) 0 l.
Lemma lsum_ext {A} (l : list A) f g : (forall x, In x l -> f x = g x) -> lsum l f = lsum l g.
Proof. induction l as [|x l IH]; intros H; [reflexivity|]. cbn. rewrite (H x) by (left; auto). f_equal. apply IH. intros; apply H; right; auto. Qed.
Lemma lsum_cons {A} (x : A) l f : lsum (x :: l) f = f x + lsum l f.
Proof. reflexivity. Qed.
Lemma lsum_app {A} (l k : list A) f : lsum (l ++ k) f = lsum l f + lsum k f.
Proof. induction l as [|x l IH]; [change (lsum k f = 0 + lsum k f); ring|]. cbn [app]. rewrite !lsum_cons, IH. ring. Qed.
Lemma lsum_map {A B} (h : A -> B) l f : lsum (map h l) f = lsum l (fun x => f (h x)).
Proof. induction l as [|x l IH]; [reflexivity|]. cbn [map]. rewrite !lsum_cons, IH. reflexivity. Qed.
Lemma lsum_flat_map {A B} (h : A -> list B) l f : lsum (flat_map h l) f = lsum l (fun x => lsum (h x) f).
Proof. induction l as [|x l IH]; [reflexivity|]. cbn [flat_map]. rewrite lsum_app, lsum_cons, IH. reflexivity. Qed.
Lemma lsum_scal {A} (l : list A) c f : lsum l (fun x => c * f x) = c * lsum l f.
Proof. induction l as [|x l IH]; [cbn; ring|]. rewrite !lsum_cons, IH. ring. Qed.
Lemma lsum_plus {A} (l : list A) f g : lsum l (fun x => f x + g x) = lsum l f + lsum l g.
Proof. induction l as [|x l IH]; [cbn; ring|]. rewrite !lsum_cons, IH. ring. Qed.
Lemma lsum_0 {A} (l : list A) : lsum l (fun _ => 0) = 0.
Proof. induction l as [|x l IH]; [reflexivity|]. rewrite lsum_cons, IH. ring. Qed.
Lemma bsum_lsum {A} m (l : list A) (f : nat -> A -> R) : bsum m (fun i => lsum l (f i)) = lsum l (fun x => bsum m (fun i => f i x)).
Proof. induction m as [|m IH]; cbn [bsum]; [rewrite lsum_0; reflexivity|]. rewrite IH, lsum_plus. reflexivity. Qed.
Lemma lsum_seq s n f : lsum (seq s n) f = bsum n (fun i => f (s + i)%nat).
Proof. revert s. induction n as [|n IH]; intros s; [reflexivity|]. cbn [seq]. rewrite lsum_cons, IH, bsum_first, Nat.add_0_r. f_equal. apply bsum_ext. intros. f_equal. lia. Qed.

(** ** Trees *)
Inductive tree := Node (ts : list tree).
Fixpoint vertices (t : tree) : nat := match t with Node ts => S (fold_right (fun t s => vertices t + s)%nat 0%nat ts) end.
Definition prod (l : list R) : R := fold_right Rmult 1 l.
(** the ways to write [j] as a sum of [k] positive numbers *)
Fixpoint comps (k j : nat) : list (list nat) :=
  match k with
  | O => if Nat.eqb j 0 then [[]] else []
  | S k => flat_map (fun a => map (cons a) (comps k (j - a))) (seq 1 j)
  end.
Fixpoint choices {A} (ls : list (list A)) : list (list A) :=
  match ls with [] => [[]] | l :: ls => flat_map (fun t => map (cons t) (choices ls)) l end.
Definition forests_of (T : nat -> list tree) (j : nat) : list (list tree) :=
  flat_map (fun k => flat_map (fun l => choices (map T l)) (comps k j)) (seq 0 (S j)).
Fixpoint table (n : nat) : nat -> list tree :=
  match n with O => fun _ => [] | S n => fun a => if Nat.eqb a (S n) then map Node (forests_of (table n) n) else table n a end.
(** the trees with [n] vertices *)
Definition trees (n : nat) : list tree := table n n.

Lemma comps_parts k : forall j l a, In l (comps k j) -> In a l -> (1 <= a <= j)%nat.
Proof.
  induction k as [|k IH]; intros j l a Hl Ha; cbn [comps] in Hl.
  - destruct (Nat.eqb j 0); [|contradiction]. destruct Hl as [<-|[]]. contradiction.
  - apply in_flat_map in Hl as (b & Hb & Hl). apply in_seq in Hb. apply in_map_iff in Hl as (l' & <- & Hl'). destruct Ha as [<-|Ha]; [lia|]. specialize (IH _ _ _ Hl' Ha). lia.
Qed.
Lemma comps_above k : forall j, (j < k)%nat -> comps k j = [].
Proof.
  induction k as [|k IH]; intros j H; [lia|]. cbn [comps]. assert (E : forall s n, (forall a, In a (seq s n) -> map (cons a) (comps k (j - a)) = []) -> flat_map (fun a => map (cons a) (comps k (j - a))) (seq s n) = []).
  { intros s n. revert s. induction n as [|n IHn]; intros s Hs; [reflexivity|]. cbn [seq flat_map]. rewrite Hs by (left; auto). cbn. apply IHn. intros a Ha. apply Hs. right. exact Ha. }
  apply E. intros a Ha. apply in_seq in Ha. rewrite IH by lia. reflexivity.
Qed.
Lemma comps_0 k : comps (S k) 0 = [].
Proof. apply comps_above. lia. Qed.
Lemma table_stable n a : (a <= n)%nat -> table n a = trees a.
Proof. induction n as [|n IH]; intros H; [replace a with O by lia; reflexivity|]. destruct (Nat.eq_dec a (S n)); [subst; reflexivity|]. cbn [table]. destruct (Nat.eqb_spec a (S n)); [lia|]. apply IH. lia. Qed.
Lemma flat_map_ext_in {A B} (f g : A -> list B) l : (forall x, In x l -> f x = g x) -> flat_map f l = flat_map g l.
Proof. induction l as [|x l IH]; intros H; [reflexivity|]. cbn. rewrite H by (left; auto). rewrite IH; [reflexivity|]. intros; apply H; right; auto. Qed.
Lemma trees_S n : trees (S n) = map Node (forests_of trees n).
Proof.
  unfold trees at 1. cbn [table]. rewrite Nat.eqb_refl. f_equal. unfold forests_of. apply flat_map_ext_in. intros k _. apply flat_map_ext_in. intros l Hl. f_equal. apply map_ext_in. intros a Ha. apply table_stable. apply (comps_parts k n l a Hl Ha).
Qed.
Lemma trees_0 : trees 0 = [].
Proof. reflexivity. Qed.
Lemma choices_vertices ls : forall js ts, Forall2 (fun j l => forall t, In t l -> vertices t = j) js ls -> In ts (choices ls) -> fold_right (fun t s => vertices t + s)%nat 0%nat ts = fold_right Nat.add 0%nat js.
Proof.
  induction ls as [|l ls IH]; intros js ts H I; inversion H; subst; cbn [choices] in I; [destruct I as [<-|[]]; reflexivity|].
  apply in_flat_map in I as (t & It & I). apply in_map_iff in I as (ts' & <- & I). cbn. f_equal; auto.
Qed.
Lemma comps_sum k : forall j l, In l (comps k j) -> fold_right Nat.add 0%nat l = j.
Proof.
  induction k as [|k IH]; intros j l H; cbn [comps] in H.
  - destruct (Nat.eqb_spec j 0); [|contradiction]. destruct H as [<-|[]]. auto.
  - apply in_flat_map in H as (b & Hb & Hl). apply in_seq in Hb. apply in_map_iff in Hl as (l' & <- & Hl'). cbn. rewrite (IH _ _ Hl'). lia.
Qed.
Lemma trees_vertices n : forall t, In t (trees n) -> vertices t = n.
Proof.
  induction n as [n IH] using lt_wf_ind. intros t H. destruct n as [|n]; [contradiction|]. rewrite trees_S in H. apply in_map_iff in H as (ts & <- & H). cbn [vertices]. f_equal.
  unfold forests_of in H. apply in_flat_map in H as (k & _ & H). apply in_flat_map in H as (l & Hl & H). rewrite <- (comps_sum k n l Hl). apply (choices_vertices (map trees l)); [|exact H].
  assert (Pl : forall a, In a l -> (a < S n)%nat) by (intros a Ha; pose proof (comps_parts k n l a Hl Ha); lia). clear H Hl. induction l as [|a l IHl]; constructor; [apply IH; apply Pl; left; auto|apply IHl; intros; apply Pl; right; auto].
Qed.

(** ** Multilinear forms *)
Definition vec := nat -> R.
Fixpoint mform (m : nat) (us : list vec) (c : list nat -> R) : R :=
  match us with [] => c [] | u :: us => bsum m (fun j => u j * mform m us (fun js => c (j :: js))) end.
Fixpoint elementary (m : nat) (c : nat -> list nat -> R) (t : tree) : vec :=
  match t with Node ts => fun i => mform m (map (elementary m c) ts) (c i) end.
Definition combo (e : tree -> vec) (w : tree -> R) (ts : list tree) : vec := fun i => lsum ts (fun t => w t * e t i).
Lemma mform_combo m e w ls : forall c, mform m (map (combo e w) ls) c = lsum (choices ls) (fun ts => prod (map w ts) * mform m (map e ts) c).
Proof.
  induction ls as [|l ls IH]; intros c; [cbn; ring|]. cbn [map mform choices]. rewrite lsum_flat_map.
  rewrite (bsum_ext m _ (fun j => lsum l (fun t => w t * e t j * mform m (map (combo e w) ls) (fun js => c (j :: js))))).
  2:{ intros j _. unfold combo at 1. rewrite Rmult_comm, <- lsum_scal. apply lsum_ext. intros; ring. }
  rewrite bsum_lsum. apply lsum_ext. intros t _. rewrite lsum_map.
  rewrite (bsum_ext m _ (fun j => lsum (choices ls) (fun ts => w t * e t j * (prod (map w ts) * mform m (map e ts) (fun js => c (j :: js)))))) by (intros j _; rewrite IH, <- lsum_scal; reflexivity).
  rewrite bsum_lsum. apply lsum_ext. intros ts _. cbn [map mform prod fold_right]. fold (prod (map w ts)). rewrite <- bsum_scal. apply bsum_ext. intros j _. ring.
Qed.

Section Composition.
Context {P : Type}.
Lemma form_expands o m (v : nat -> P -> R -> R) (V : P -> nat -> vec) M : (forall i, (i < m)%nat -> expands o (v i) (fun q j => V q j i)) -> (forall q i, V q 0%nat i = 0) ->
  forall k (c : P -> list nat -> R), (forall q js, length js = k -> Rabs (c q js) <= M) ->
  expands o (fun q h => form m k (c q) (fun i => v i q h)) (fun q j => lsum (comps k j) (fun l => mform m (map (V q) l) (c q))).
Proof.
  intros Hv V0. induction k as [|k IH]; intros c Hc.
  - cbn [form]. eapply expands_same; [| |apply (expands_const o (fun q => c q []) M); intros; apply Hc; reflexivity]; [reflexivity|]. intros q j _. cbn [comps]. destruct (Nat.eqb j 0); cbn; ring.
  - cbn [form]. eapply expands_same; [| |apply (expands_bsum o m (fun i q h => v i q h * form m k (fun js => c q (i :: js)) (fun i => v i q h)))].
    + reflexivity.
    + intros q j Hj. cbv beta.
      instantiate (1 := fun i q j => conv (fun j => V q j i) (fun j => lsum (comps k j) (fun l => mform m (map (V q) l) (fun js => c q (i :: js)))) j). cbv beta.
      cbn [comps]. rewrite lsum_flat_map, lsum_seq.
      rewrite (bsum_ext m _ (fun i => bsum j (fun a => V q (S a) i * lsum (comps k (j - S a)) (fun l => mform m (map (V q) l) (fun js => c q (i :: js)))))).
      2:{ intros i Hi. unfold conv. rewrite bsum_first, V0. rewrite Rmult_0_l, Rplus_0_l. reflexivity. }
      rewrite bsum_swap. apply bsum_ext. intros a Ha. rewrite lsum_map. change (1 + a)%nat with (S a).
      rewrite (bsum_ext m _ (fun i => lsum (comps k (j - S a)) (fun l => V q (S a) i * mform m (map (V q) l) (fun js => c q (i :: js))))) by (intros; rewrite lsum_scal; reflexivity).
      rewrite bsum_lsum. apply lsum_ext. intros l _. reflexivity.
    + intros i Hi. apply expands_mult; [apply Hv; auto|]. apply (IH (fun q js => c q (i :: js))). intros q js Hjs. apply Hc. cbn. lia.
Qed.
Lemma uniform_size m (v : nat -> P -> R -> R) (V : P -> nat -> vec) : (forall i, (i < m)%nat -> expands 1 (v i) (fun q j => V q j i)) -> (forall q i, V q 0%nat i = 0) ->
  exists C d, 0 <= C /\ 0 < d <= 1 /\ forall q h i, (i < m)%nat -> Rabs h <= d -> Rabs (v i q h) <= C * Rabs h.
Proof.
  intros Hv V0. induction m as [|m IH]; [exists 0, 1; repeat split; try lra; intros; lia|]. destruct IH as (C & d & HC & Hd & H); [auto|]. destruct (Hv m ltac:(lia)) as (_ & C' & d' & HC' & Hd' & H').
  exists (Rmax C C'), (Rmin d d'). split; [eapply Rle_trans; [apply HC|apply Rmax_l]|]. split; [split; [apply Rmin_glb_lt; lra|eapply Rle_trans; [apply Rmin_l|lra]]|]. intros q h i Hi Hh.
  pose proof (Rabs_pos h). destruct (Nat.eq_dec i m) as [->|N].
  - specialize (H' q h ltac:(eapply Rle_trans; [apply Hh|apply Rmin_r])). cbn [bsum pow] in H'. rewrite V0 in H'. replace (v m q h - (0 + 0 * 1)) with (v m q h) in H' by ring. pose proof (Rmax_r C C'). nra.
  - specialize (H q h i ltac:(lia) ltac:(eapply Rle_trans; [apply Hh|apply Rmin_l])). pose proof (Rmax_l C C'). nra.
Qed.

Variables (m p : nat) (c : P -> nat -> list nat -> R) (F : P -> vec -> vec) (M radius : R).
Hypothesis Hc : forall q i js, (i < m)%nat -> (length js < p)%nat -> Rabs (c q i js) <= M.
Hypothesis Hr : 0 < radius.
Hypothesis HF : forall q v r i, (forall j, (j < m)%nat -> Rabs (v j) <= r) -> r <= radius -> (i < m)%nat -> Rabs (F q v i - bsum p (fun k => form m k (c q i) v)) <= M * r ^ p.

Definition e (q : P) : tree -> vec := elementary m (c q).
(** the weight of a tree in [F] of something whose weights are [w] *)
Definition branches (w : tree -> R) (t : tree) : R := match t with Node ts => prod (map w ts) end.
Theorem compose o (v : nat -> P -> R -> R) (w : tree -> R) : (1 <= o <= p)%nat -> (forall i, (i < m)%nat -> expands o (v i) (fun q j => combo (e q) w (trees j) i)) ->
  forall i, (i < m)%nat -> expands o (fun q h => F q (fun j => v j q h) i) (fun q j => combo (e q) (branches w) (trees (S j)) i).
Proof.
  intros Ho Hv i Hi.
  assert (V0 : forall q k, combo (e q) w (trees 0) k = 0) by reflexivity.
  assert (S1 : expands o (fun q h => bsum p (fun k => form m k (c q i) (fun j => v j q h))) (fun q j => bsum p (fun k => lsum (comps k j) (fun l => mform m (map (fun j => combo (e q) w (trees j)) l) (c q i))))).
  { apply (expands_bsum o p (fun k q h => form m k (c q i) (fun j => v j q h)) (fun k q j => lsum (comps k j) (fun l => mform m (map (fun j => combo (e q) w (trees j)) l) (c q i)))).
    intros k Hk. apply (form_expands o m v (fun q j => combo (e q) w (trees j)) M Hv V0 k (fun q => c q i)). intros q js Hjs. apply Hc; [auto|lia]. }
  assert (S2 : expands o (fun q h => F q (fun j => v j q h) i - bsum p (fun k => form m k (c q i) (fun j => v j q h))) (fun _ _ => 0)).
  { apply expands_remainder. destruct (uniform_size m v (fun q j => combo (e q) w (trees j))) as (C & d & HC & Hd & H); [intros k Hk; apply (expands_weaken_to o 1); [lia|auto]|exact V0|].
    set (d' := Rmin d (Rmin 1 radius / (C + 1))). assert (0 < Rmin 1 radius) by (apply Rmin_glb_lt; lra). assert (D' : 0 < d') by (apply Rmin_glb_lt; [lra|apply Rdiv_lt_0_compat; lra]).
    exists (M * C ^ o), d'. split; [exact D'|]. intros q h Hh. assert (Rabs h <= d) by (eapply Rle_trans; [apply Hh|apply Rmin_l]).
    assert (Q : (C + 1) * Rabs h <= Rmin 1 radius). { apply Rle_trans with ((C + 1) * (Rmin 1 radius / (C + 1))); [apply Rmult_le_compat_l; [lra|]; eapply Rle_trans; [apply Hh|apply Rmin_r]|]. right. field. lra. }
    pose proof (Rabs_pos h). pose proof (Rmin_l 1 radius). pose proof (Rmin_r 1 radius).
    pose proof (HF q (fun j => v j q h) (C * Rabs h) i ltac:(intros; apply H; auto) ltac:(nra) Hi) as E. eapply Rle_trans; [apply E|].
    assert (0 <= M). { destruct p as [|p']; [lia|]. pose proof (Hc q i [] Hi ltac:(cbn; lia)). pose proof (Rabs_pos (c q i [])). lra. }
    rewrite Rmult_assoc, <- Rpow_mult_distr. apply Rmult_le_compat_l; [auto|]. apply pow_anti; [|lia]. split; [apply Rmult_le_pos; auto|nra]. }
  eapply expands_same; [| |apply (expands_plus o _ _ _ _ S1 S2)].
  - intros q h. cbv beta. ring.
  - intros q j Hj. cbv beta. rewrite Rplus_0_r. rewrite trees_S. unfold combo at 2. rewrite lsum_map. unfold forests_of. rewrite lsum_flat_map, lsum_seq.
    replace p with (S j + (p - S j))%nat by lia. rewrite bsum_shift. rewrite (bsum_ext (p - S j) _ (fun _ => 0)) by (intros; rewrite comps_above by lia; reflexivity). rewrite bsum_0, Rplus_0_r.
    apply bsum_ext. intros k Hk. rewrite lsum_flat_map. apply lsum_ext. intros l Hl. rewrite <- (map_map trees (combo (e q) w)), mform_combo. apply lsum_ext. intros ts _. reflexivity.
Qed.

(** ** Explicit Runge-Kutta methods *)
Variables (A : nat -> nat -> R).
Fixpoint stage_weight (t : tree) (s : nat) : R :=
  match t with Node ts => prod (map (fun t => bsum s (fun r => A s r * stage_weight t r)) ts) end.
Lemma stage_expands n (k : nat -> nat -> P -> R -> R) : (1 <= p)%nat ->
  (forall s i q h, (s < n)%nat -> (i < m)%nat -> k s i q h = F q (fun j => h * bsum s (fun r => A s r * k r j q h)) i) ->
  forall s, (s < n)%nat -> forall i, (i < m)%nat -> expands p (k s i) (fun q j => combo (e q) (fun t => stage_weight t s) (trees (S j)) i).
Proof.
  intros Hp Hk. induction s as [s IH] using lt_wf_ind. intros Hs i Hi.
  eapply expands_same; [intros q h; symmetry; apply Hk; auto|intros q j _|apply (compose p (fun j q h => h * bsum s (fun r => A s r * k r j q h)) (fun t => bsum s (fun r => A s r * stage_weight t r)))].
  - unfold combo. apply lsum_ext. intros [ts] _. reflexivity.
  - lia.
  - intros j Hj. apply expands_weaken. eapply expands_same; [intros; reflexivity| |apply expands_shift; apply (expands_bsum p s (fun r q h => A s r * k r j q h) (fun r q i => A s r * combo (e q) (fun t => stage_weight t r) (trees (S i)) j))].
    + intros q [|a] _; cbn [shift]; [reflexivity|]. unfold combo. rewrite (bsum_ext s _ (fun r => lsum (trees (S a)) (fun t => A s r * (stage_weight t r * e q t j)))) by (intros; rewrite lsum_scal; reflexivity).
      rewrite bsum_lsum. apply lsum_ext. intros t _. rewrite (Rmult_comm (bsum s _)), <- bsum_scal. apply bsum_ext. intros; ring.
    + intros r Hr'. apply (expands_scal p (fun _ => A s r) (Rabs (A s r))); [intros; lra|]. apply IH; lia || auto.
  - exact Hi.
Qed.
Lemma step_expands n (k : nat -> nat -> P -> R -> R) (b : nat -> R) : (1 <= p)%nat ->
  (forall s i q h, (s < n)%nat -> (i < m)%nat -> k s i q h = F q (fun j => h * bsum s (fun r => A s r * k r j q h)) i) ->
  forall i, (i < m)%nat -> expands (S p) (fun q h => h * bsum n (fun s => b s * k s i q h)) (fun q j => combo (e q) (fun t => bsum n (fun s => b s * stage_weight t s)) (trees j) i).
Proof.
  intros Hp Hk i Hi. eapply expands_same; [intros; reflexivity| |apply expands_shift; apply (expands_bsum p n (fun s q h => b s * k s i q h) (fun s q a => b s * combo (e q) (fun t => stage_weight t s) (trees (S a)) i))].
  - intros q [|a] _; cbn [shift]; [reflexivity|]. unfold combo. rewrite (bsum_ext n _ (fun r => lsum (trees (S a)) (fun t => b r * (stage_weight t r * e q t i)))) by (intros; rewrite lsum_scal; reflexivity).
    rewrite bsum_lsum. apply lsum_ext. intros t _. rewrite (Rmult_comm (bsum n _)), <- bsum_scal. apply bsum_ext. intros; ring.
  - intros s Hs. apply (expands_scal p (fun _ => b s) (Rabs (b s))); [intros; lra|]. apply (stage_expands n); auto.
Qed.

(** ** The exact solution *)
Fixpoint exact_weight (t : tree) : R := match t with Node ts => prod (map exact_weight ts) / INR (vertices t) end.
Lemma solution_expands (g : nat -> P -> R -> R) d0 : (1 <= p)%nat -> 0 < d0 -> (forall i q h, (i < m)%nat -> Rabs h <= d0 -> is_derive (g i q) h (F q (fun j => g j q h) i)) ->
  (forall i q, g i q 0 = 0) -> (exists C, forall i q h, (i < m)%nat -> Rabs h <= d0 -> Rabs (g i q h) <= C * Rabs h) ->
  forall o, (o <= p)%nat -> forall i, (i < m)%nat -> expands (S o) (g i) (fun q j => combo (e q) exact_weight (trees j) i).
Proof.
  intros Hp D0 Hg G0 (C & HC). induction o as [|o IH]; intros Ho i Hi.
  - eapply expands_same; [intros; reflexivity| |apply (expands_remainder 1 (g i))]; [intros q j Hj; replace j with O by lia; reflexivity|]. exists C, d0. split; [auto|]. intros q h Hh. cbn [pow]. rewrite Rmult_1_r. apply HC; auto.
  - eapply expands_same; [intros; reflexivity| |apply (expands_integral (S o) (fun q h => F q (fun j => g j q h) i) (fun q j => combo (e q) (branches exact_weight) (trees (S j)) i) (g i) d0 D0)].
    + intros q [|j] Hj; cbn [shift]; [reflexivity|]. unfold combo, Rdiv. rewrite Rmult_comm, <- lsum_scal. apply lsum_ext. intros t Ht. pose proof (trees_vertices _ _ Ht) as E. destruct t as [ts]. cbn [branches exact_weight]. rewrite E. unfold Rdiv. ring.
    + intros q h Hh. apply Hg; auto.
    + intros q. apply G0.
    + apply (compose (S o) g exact_weight); [lia|intros; apply IH; [lia|auto]|auto].
Qed.

(** ** Same weights, same expansion *)
Theorem same_expansion (y z : nat -> P -> R -> R) (w1 w2 : tree -> R) o : (forall i, (i < m)%nat -> expands o (y i) (fun q j => combo (e q) w1 (trees j) i)) -> (forall i, (i < m)%nat -> expands o (z i) (fun q j => combo (e q) w2 (trees j) i)) ->
  (forall j t, (j < o)%nat -> In t (trees j) -> w1 t = w2 t) ->
  exists C d, 0 <= C /\ 0 < d <= 1 /\ forall q h i, (i < m)%nat -> Rabs h <= d -> Rabs (y i q h - z i q h) <= C * Rabs h ^ o.
Proof.
  intros Hy Hz Hw. assert (X : forall m', (m' <= m)%nat -> exists C d, 0 <= C /\ 0 < d <= 1 /\ forall q h i, (i < m')%nat -> Rabs h <= d -> Rabs (y i q h - z i q h) <= C * Rabs h ^ o); [|apply (X m); lia].
  induction m' as [|k IH]; intros Hk; [exists 0, 1; repeat split; try lra; intros; lia|]. destruct IH as (C & d & HC & Hd & H); [lia|]. destruct (Hy k ltac:(lia)) as (_ & C1 & d1 & HC1 & Hd1 & H1). destruct (Hz k ltac:(lia)) as (_ & C2 & d2 & HC2 & Hd2 & H2).
  exists (C + C1 + C2), (Rmin d (Rmin d1 d2)). split; [lra|]. pose proof (Rmin_l d (Rmin d1 d2)). pose proof (Rmin_r d (Rmin d1 d2)). pose proof (Rmin_l d1 d2). pose proof (Rmin_r d1 d2).
  split; [split; [repeat apply Rmin_glb_lt; lra|lra]|]. intros q h i Hi Hh. pose proof (pow_le (Rabs h) o (Rabs_pos h)). destruct (Nat.eq_dec i k) as [->|N]; [|specialize (H q h i ltac:(lia) ltac:(lra)); nra].
  specialize (H1 q h ltac:(lra)). specialize (H2 q h ltac:(lra)).
  rewrite (bsum_ext o (fun j => combo (e q) w1 (trees j) k * h ^ j) (fun j => combo (e q) w2 (trees j) k * h ^ j)) in H1.
  2:{ intros j Hj. f_equal. unfold combo. apply lsum_ext. intros t Ht. rewrite (Hw j t Hj Ht). reflexivity. }
  set (B := bsum o _) in *. replace (y k q h - z k q h) with ((y k q h - B) - (z k q h - B)) by ring. eapply Rle_trans; [apply Rabs_triang|]. rewrite Rabs_Ropp. nra.
Qed.
End Composition.
