(** C134: the ready-made models: constant turn and speed, direct measurement, residuals with wrapped angles. *)
From Coq Require Import ZArith Reals List Bool Arith Lia Lra Psatz.
From Flocq Require Import Core.
From Coquelicot Require Import Coquelicot.
From Verif Require Import Base.Scalar Base.RNum Base.Lists Model.Errors Model.Vector Model.Matrix Model.Kalman.
Import ListNotations.
Local Open Scope R_scope.
Local Notation length := List.length.
Local Notation sin := Rtrigo_def.sin.
Local Notation cos := Rtrigo_def.cos.
Local Notation abs := Rabs.

Lemma round_away_near x : exists k : Z, Rround_away x = IZR k /\ Rabs (x - IZR k) <= / 2.
Proof.
  unfold Rround_away. destruct (Rlt_dec x 0) as [L|L].
  - exists (- Zfloor (- x + / 2))%Z. rewrite opp_IZR. split; [reflexivity|]. pose proof (Zfloor_lb (- x + / 2)). pose proof (Zfloor_ub (- x + / 2)). apply Rabs_le. lra.
  - exists (Zfloor (x + / 2)). split; [reflexivity|]. pose proof (Zfloor_lb (x + / 2)). pose proof (Zfloor_ub (x + / 2)). apply Rabs_le. lra.
Qed.
(** Folding an angle takes off whole turns and leaves it within half a turn of zero. *)
Theorem C134_wrap (x : R) : exists k : Z, wrap_to_pi x = x - 2 * PI * IZR k /\ - PI <= wrap_to_pi x <= PI.
Proof.
  unfold wrap_to_pi. rnum. destruct (round_away_near (x / (2 * PI))) as (k & E & B). pose proof PI_RGT_0. exists k.
  replace (PI * 2) with (2 * PI) in * by ring. rewrite E. split; [reflexivity|].
  apply Rabs_le_between in B || (unfold Rabs in B; destruct (Rcase_abs _) in B).
  all: assert (x = 2 * PI * (x / (2 * PI))) by (field; lra); set (t := x / (2 * PI)) in *; clearbody t; subst x; nra.
Qed.
Lemma turns_sin x k : sin (x - 2 * PI * IZR k) = sin x /\ cos (x - 2 * PI * IZR k) = cos x.
Proof.
  assert (G : forall n x, sin (x + 2 * INR n * PI) = sin x /\ cos (x + 2 * INR n * PI) = cos x) by (intros; split; [apply sin_period|apply cos_period]).
  destruct (Z_le_gt_dec 0 k) as [L|L].
  - destruct (G (Z.to_nat k) (x - 2 * PI * IZR k)) as [A B]. rewrite INR_IZR_INZ, Z2Nat.id in A, B by auto. rewrite <- A, <- B. split; f_equal; ring.
  - destruct (G (Z.to_nat (- k)) x) as [A B]. rewrite INR_IZR_INZ, Z2Nat.id in A, B by lia. rewrite opp_IZR in A, B. rewrite <- A, <- B. split; f_equal; ring.
Qed.
Lemma wrap_sin x : sin (wrap_to_pi x) = sin x /\ cos (wrap_to_pi x) = cos x.
Proof. destruct (C134_wrap x) as (k & -> & _). apply turns_sin. Qed.

(** The state is position, heading, speed and turn rate. *)
Definition vehicle (s : list R) (x y heading speed rate : R) : Prop := s = [x; y; heading; speed; rate].
Lemma sine_remainder a h : Rabs (sin (a + h) - sin a - h * cos a) <= h * h /\ Rabs (cos a - cos (a + h) - h * sin a) <= h * h.
Proof.
  assert (S : forall u v, Rabs (sin u - sin v) <= Rabs (u - v) /\ Rabs (cos u - cos v) <= Rabs (u - v)).
  { intros u v. split.
    - destruct (MVT_gen sin v u cos) as (c & _ & E); [intros; apply is_derive_Reals, derivable_pt_lim_sin|intros; apply continuity_sin|]. rewrite E, Rabs_mult. pose proof (COS_bound c). pose proof (Rabs_pos (u - v)).
      assert (Rabs (cos c) <= 1) by (apply Rabs_le; lra). nra.
    - destruct (MVT_gen cos v u (fun x => - sin x)) as (c & _ & E); [intros; apply is_derive_Reals, derivable_pt_lim_cos|intros; apply continuity_cos|]. rewrite E, Rabs_mult. pose proof (SIN_bound c). pose proof (Rabs_pos (u - v)).
      assert (Rabs (- sin c) <= 1) by (apply Rabs_le; lra). nra. }
  assert (B : forall c, Rmin a (a + h) <= c <= Rmax a (a + h) -> Rabs (c - a) <= Rabs h).
  { intros c. unfold Rmin, Rmax. destruct (Rle_dec a (a + h)); intros C; [rewrite !Rabs_pos_eq by lra; lra|]. rewrite !Rabs_left1 by lra. lra. }
  assert (H2 : Rabs h * Rabs h = h * h) by (rewrite <- Rabs_mult; apply Rabs_pos_eq; nra).
  split.
  - destruct (MVT_gen sin a (a + h) cos) as (c & C & E); [intros; apply is_derive_Reals, derivable_pt_lim_sin|intros; apply continuity_sin|].
    replace (sin (a + h) - sin a - h * cos a) with ((cos c - cos a) * h) by (rewrite E; ring). rewrite Rabs_mult. pose proof (proj2 (S c a)). pose proof (B c C). pose proof (Rabs_pos h). nra.
  - destruct (MVT_gen cos a (a + h) (fun x => - sin x)) as (c & C & E); [intros; apply is_derive_Reals, derivable_pt_lim_cos|intros; apply continuity_cos|].
    replace (cos a - cos (a + h) - h * sin a) with ((sin c - sin a) * h) by (assert (cos (a + h) - cos a = - sin c * (a + h - a)) by exact E; lra). rewrite Rabs_mult. pose proof (proj1 (S c a)). pose proof (B c C). pose proof (Rabs_pos h). nra.
Qed.

(** Whole seconds or split ones: the vehicle keeps its speed and turn rate, its heading turns at that rate (up to whole turns, and folded into
    half a turn either side of zero), and it starts where it was. *)
Theorem C134_heading t x y heading speed rate : exists k : Z,
  nth 2 (constant_turn t [x; y; heading; speed; rate]) 0 = heading + rate * t - 2 * PI * IZR k /\
  - PI <= nth 2 (constant_turn t [x; y; heading; speed; rate]) 0 <= PI /\
  nth 3 (constant_turn t [x; y; heading; speed; rate]) 0 = speed /\ nth 4 (constant_turn t [x; y; heading; speed; rate]) 0 = rate /\
  nth 0 (constant_turn 0 [x; y; heading; speed; rate]) 0 = x /\ nth 1 (constant_turn 0 [x; y; heading; speed; rate]) 0 = y /\
  length (constant_turn t [x; y; heading; speed; rate]) = 5%nat.
Proof.
  destruct (C134_wrap (heading + rate * t)) as (k & E & B). exists k. unfold constant_turn. cbn [nth]. rnum.
  destruct (Rltb _ _); cbn [nth length]; (split; [exact E|]; split; [exact B|]; split; [reflexivity|]; split; [reflexivity|]; split; [|split; [|reflexivity]]); rewrite ?Rmult_0_r, ?Rplus_0_r; ring.
Qed.
(** When it turns by more than a millionth, it moves at its speed in the direction it is heading at every moment: the arc is exact. *)
Theorem C134_turning t x y heading speed rate : / 1000000 < Rabs rate ->
  is_derive (fun t => nth 0 (constant_turn t [x; y; heading; speed; rate]) 0) t (speed * cos (nth 2 (constant_turn t [x; y; heading; speed; rate]) 0)) /\
  is_derive (fun t => nth 1 (constant_turn t [x; y; heading; speed; rate]) 0) t (speed * sin (nth 2 (constant_turn t [x; y; heading; speed; rate]) 0)).
Proof.
  intros L. assert (N : rate <> 0) by (intros ->; rewrite Rabs_R0 in L; lra).
  assert (E : forall t, constant_turn t [x; y; heading; speed; rate] =
    [x + speed / rate * (sin (heading + rate * t) - sin heading); y + speed / rate * (cos heading - cos (heading + rate * t)); wrap_to_pi (heading + rate * t); speed; rate]).
  { intros s. unfold constant_turn. cbn [nth]. rnum. rewrite (proj2 (Rltb_true _ _)); [reflexivity|]. lra. }
  rewrite E. cbn [nth]. destruct (wrap_sin (heading + rate * t)) as [-> ->]. split.
  - apply (is_derive_ext (fun t => x + speed / rate * (sin (heading + rate * t) - sin heading))); [intros s; rewrite E; reflexivity|]. auto_derive; [exact I|]. field. exact N.
  - apply (is_derive_ext (fun t => y + speed / rate * (cos heading - cos (heading + rate * t)))); [intros s; rewrite E; reflexivity|]. auto_derive; [exact I|]. field. exact N.
Qed.
(** When it turns by less, it moves in a straight line, which misses the end of the arc by at most speed times turn rate times time squared. *)
Theorem C134_straight t x y heading speed rate : Rabs rate <= / 1000000 ->
  nth 0 (constant_turn t [x; y; heading; speed; rate]) 0 = x + speed * cos heading * t /\ nth 1 (constant_turn t [x; y; heading; speed; rate]) 0 = y + speed * sin heading * t /\
  (rate <> 0 ->
   Rabs (nth 0 (constant_turn t [x; y; heading; speed; rate]) 0 - (x + speed / rate * (sin (heading + rate * t) - sin heading))) <= Rabs speed * Rabs rate * (t * t) /\
   Rabs (nth 1 (constant_turn t [x; y; heading; speed; rate]) 0 - (y + speed / rate * (cos heading - cos (heading + rate * t)))) <= Rabs speed * Rabs rate * (t * t)).
Proof.
  intros L. assert (E : constant_turn t [x; y; heading; speed; rate] = [x + speed * cos heading * t; y + speed * sin heading * t; wrap_to_pi (heading + rate * t); speed; rate]).
  { unfold constant_turn. cbn [nth]. rnum. rewrite (proj2 (Rltb_false _ _)); [reflexivity|]. lra. }
  rewrite E. cbn [nth]. split; [reflexivity|]. split; [reflexivity|]. intros N. destruct (sine_remainder heading (rate * t)) as [A B].
  assert (G : forall r, Rabs r <= rate * t * (rate * t) -> Rabs (- (speed / rate) * r) <= Rabs speed * Rabs rate * (t * t)).
  { intros r R. rewrite Rabs_mult, Rabs_Ropp. unfold Rdiv. rewrite Rabs_mult, Rabs_inv. pose proof (Rabs_pos_lt rate N) as P. pose proof (Rabs_pos speed) as Q.
    replace (rate * t * (rate * t)) with (Rabs rate * Rabs rate * (t * t)) in R by (rewrite <- (Rabs_mult rate rate), (Rabs_pos_eq (rate * rate)) by nra; ring).
    apply Rle_trans with (Rabs speed * / Rabs rate * (Rabs rate * Rabs rate * (t * t))).
    - apply Rmult_le_compat_l; [|exact R]. apply Rmult_le_pos; [exact Q|]. left. apply Rinv_0_lt_compat, P.
    - right. field. lra. }
  split.
  - replace (_ - _) with (- (speed / rate) * (sin (heading + rate * t) - sin heading - rate * t * cos heading)) by (field; exact N). apply G, A.
  - replace (_ - _) with (- (speed / rate) * (cos heading - cos (heading + rate * t) - rate * t * sin heading)) by (field; exact N). apply G, B.
Qed.

(** A direct measurement is made exactly from indices inside the state, and reads those components, in order. *)
Theorem C134_direct T (NT : Num T) n (indices : list nat) (state : list T) : length state = n ->
  ((forall i, In i indices -> (i < n)%nat) <-> direct_new n indices = Ok indices) /\
  ((exists i, In i indices /\ (n <= i)%nat) <-> direct_new n indices = Err EsStateIndexOutOfRange) /\
  (forall ok, direct_new n indices = Ok ok -> length (direct_eval ok state) = length indices /\
     forall position index, nth_error indices position = Some index -> exists v, nth_error state index = Some v /\ nth_error (direct_eval ok state) position = Some v).
Proof.
  intros L. unfold direct_new. destruct (existsb _ indices) eqn:E.
  - apply existsb_exists in E. destruct E as (i & A & B). apply Nat.leb_le in B. split; [split; [intros H; specialize (H i A); lia|discriminate]|]. split; [split; [reflexivity|eauto]|discriminate].
  - assert (F : forall i, In i indices -> (i < n)%nat).
    { intros i H. destruct (Nat.ltb_spec i n) as [G|G]; [exact G|]. assert (existsb (fun index => Nat.leb n index) indices = true); [|congruence]. apply existsb_exists. exists i. split; [exact H|]. apply Nat.leb_le, G. }
    split; [tauto|]. split; [split; [intros (i & A & B); specialize (F i A); lia|discriminate]|]. intros ok [= <-]. unfold direct_eval. split; [apply map_length|]. intros p i H.
    destruct (nth_error state i) as [v|] eqn:V; [|apply nth_error_None in V; specialize (F i (nth_error_In _ _ H)); lia]. exists v. split; [reflexivity|].
    rewrite nth_error_map, H. cbn. f_equal. apply nth_error_nth. exact V.
Qed.

(** A residual differs from the plain difference by whole turns, in the components listed as angles only, where it is at most half a turn. *)
Theorem C134_residual m measured predicted angular i : (i < m)%nat -> length (wrapped_residual m measured predicted angular) = m /\
  (~ In i angular -> nth i (wrapped_residual m measured predicted angular) 0 = nth i measured 0 - nth i predicted 0) /\
  (In i angular -> exists k : Z, nth i (wrapped_residual m measured predicted angular) 0 = nth i measured 0 - nth i predicted 0 - 2 * PI * IZR k /\
     - PI <= nth i (wrapped_residual m measured predicted angular) 0 <= PI).
Proof.
  intros H. unfold wrapped_residual. split; [apply from_fn_length|].
  assert (E : forall f : nat -> R, nth i (from_fn m f) 0 = f i) by (intros f; unfold from_fn; rewrite (nth_indep _ 0 (f 0%nat)) by (rewrite map_length, seq_length; auto); rewrite map_nth, seq_nth by auto; reflexivity).
  rewrite E. assert (X : existsb (Nat.eqb i) angular = true <-> In i angular).
  { rewrite existsb_exists. split; [intros (j & A & B); apply Nat.eqb_eq in B; subst; exact A|intros A; exists i; split; [exact A|apply Nat.eqb_refl]]. }
  destruct (existsb (Nat.eqb i) angular).
  - split; [intros N; destruct N; apply X; reflexivity|]. intros _. apply C134_wrap.
  - split; [intros _; reflexivity|]. intros A. apply X in A. discriminate.
Qed.
(** The range the documentation gives for it, above [-PI] and up to [PI], fails at the very end: half a turn is folded to minus half a turn. *)
Theorem C134_range_refuted : exists measured predicted : list R, length measured = 1%nat /\ length predicted = 1%nat /\
  ~ - PI < nth 0 (wrapped_residual 1 measured predicted [0%nat]) 0 <= PI.
Proof.
  exists [PI], [0]. split; [reflexivity|]. split; [reflexivity|]. cbn. unfold wrap_to_pi. rnum. pose proof PI_RGT_0.
  replace ((PI - 0) / (PI * 2)) with (/ 2) by (field; lra). unfold Rround_away. destruct (Rlt_dec (/ 2) 0); [lra|]. replace (Zfloor (/ 2 + / 2)) with 1%Z; [intros [A _]; lra|]. symmetry. apply Zfloor_imp. cbn. lra.
Qed.

Example C134_example : / 1000000 < Rabs (1 / 2) /\ direct_new 5 [0; 1]%nat = Ok [0; 1]%nat /\ direct_new 5 [0; 5]%nat = Err EsStateIndexOutOfRange /\
  nth 0 (wrapped_residual 1 [4] [0] [0%nat]) 0 = 4 - 2 * PI.
Proof.
  split; [rewrite Rabs_pos_eq; lra|]. split; [reflexivity|]. split; [reflexivity|]. cbn. unfold wrap_to_pi. rnum. pose proof PI_RGT_0. pose proof PI_4. assert (3 < PI) by (pose proof PI2_3_2; lra).
  assert (B : / 2 <= (4 - 0) / (PI * 2) < 3 / 2) by (split; [apply Rmult_le_reg_r with (PI * 2); [lra|]; field_simplify; lra|apply Rmult_lt_reg_r with (PI * 2); [lra|]; field_simplify; lra]).
  unfold Rround_away. destruct (Rlt_dec _ 0); [lra|]. replace (Zfloor _) with 1%Z; [ring|]. symmetry. apply Zfloor_imp. cbn. lra.
Qed.

Print Assumptions C134_wrap.
Print Assumptions C134_heading.
Print Assumptions C134_turning.
Print Assumptions C134_straight.
Print Assumptions C134_direct.
Print Assumptions C134_residual.
Print Assumptions C134_range_refuted.
