(** C68-C69: the rotor mixer and the rotor lag. *)
From Coq Require Import ZArith Reals List Bool Arith Lia Lra.
From Flocq Require Import Core IEEE754.BinarySingleNaN.
From Coquelicot Require Import Coquelicot.
From Verif Require Import Base.Scalar Base.RNum Base.FNum Base.FloatOps Base.Lists Base.Series Base.Det.
From Verif Require Import Model.Errors Model.Vector Model.Matrix Model.Plant Spec.Matrix Proofs.Matrix.
Import ListNotations.
Local Open Scope R_scope.

(** ** The mixer *)
(** What is asked for, as one vector: the push along z and the turn about x, y and z. *)
Definition wanted (collective : R) (torque : list R) : vector := vget [collective; vget torque 0; vget torque 1; vget torque 2].
(** The same of what comes out. *)
Definition produced (w : list R * list R) : vector := vget [vget (fst w) 2; vget (snd w) 0; vget (snd w) 1; vget (snd w) 2].

Lemma commands_spec {T} {NT : Num T} n (m : mixer) (collective : T) torque :
  let c := rotor_thrusts n m collective torque in
  let share := mat_vec n 4 (distribution m) [collective; vget torque 0; vget torque 1; vget torque 2] in
  length (thrusts c) = n /\ (forall i, (i < n)%nat -> vget (thrusts c) i = fst (limited m (vget share i))) /\
  (saturated c = true <-> exists i, (i < n)%nat /\ snd (limited m (vget share i)) = true).
Proof.
  cbv zeta. unfold rotor_thrusts. cbn [thrusts saturated]. set (share := mat_vec n 4 _ _). split; [|split].
  - rewrite map_length. apply from_fn_length.
  - intros i Hi. unfold from_fn. rewrite map_map. change (map (fun x => fst (limited m (vget share x))) (seq 0 n)) with (from_fn n (fun x => fst (limited m (vget share x)))).
    exact (vget_from_fn n (fun x => fst (limited m (vget share x))) i Hi).
  - rewrite existsb_exists. split.
    + intros (x & Hx & E). apply in_map_iff in Hx. destruct Hx as (i & <- & Hi). apply in_seq in Hi. exists i. split; auto; lia.
    + intros (i & Hi & E). exists (limited m (vget share i)). split; auto. apply in_map_iff. exists i. split; auto. apply in_seq. lia.
Qed.

Lemma mixer_new_ok {T} {NT : Num T} pinv n positions spins (k lo hi : T) m : mixer_new pinv n positions spins k lo hi = Ok m ->
  allocation m = layout n positions spins k /\ minimum_thrust m = lo /\ maximum_thrust m = hi /\
  leb hi lo = false /\ is_finite lo = true /\ is_finite hi = true /\ pinv (layout n positions spins k) = Ok (distribution m) /\
  round_trip_ok (mat_mul 4 n 4 (allocation m) (distribution m)) = true.
Proof.
  unfold mixer_new. destruct (is_finite k); cbn [negb orb]; [|discriminate]. destruct (is_finite lo); cbn [negb orb]; [|discriminate].
  destruct (is_finite hi); cbn [negb orb]; [|discriminate]. destruct (existsb _ positions); [discriminate|].
  destruct (leb k zero); [discriminate|]. destruct (leb hi lo) eqn:L; [discriminate|]. cbv zeta.
  destruct (pinv _) as [d|e|] eqn:P; [|discriminate|discriminate].
  destruct (round_trip_ok _) eqn:E; [|discriminate]. intros K. injection K as <-. cbn [allocation distribution minimum_thrust maximum_thrust]. auto 10.
Qed.

Lemma Rabs_bsum n f : Rabs (bsum n f) <= bsum n (fun k => Rabs (f k)).
Proof. induction n as [|n IH]; cbn [bsum]; [rewrite Rabs_R0; lra|]. eapply Rle_trans; [apply Rabs_triang|]. lra. Qed.

(** Whatever is asked for, every rotor is within its limits; the flag is set exactly when the even share of some rotor
    was outside them. *)
Theorem C68_limits pinv n positions spins k lo hi m collective torque :
  mixer_new pinv n positions spins k lo hi = Ok m ->
  let c := rotor_thrusts n m collective torque in
  let share := times 4 (mget (distribution m)) (wanted collective torque) in
  length (thrusts c) = n /\
  (forall i, (i < n)%nat -> lo <= vget (thrusts c) i <= hi) /\
  (saturated c = true <-> exists i, (i < n)%nat /\ (share i < lo \/ hi < share i)) /\
  (saturated c = false -> forall i, (i < n)%nat -> vget (thrusts c) i = share i).
Proof.
  intros E. destruct (mixer_new_ok _ _ _ _ _ _ _ _ E) as (_ & Elo & Ehi & L & _). rnum. rcases. cbv zeta.
  destruct (commands_spec n m collective torque) as (C1 & C2 & C3).
  set (c := rotor_thrusts n m collective torque) in *.
  assert (SH : forall i, (i < n)%nat -> vget (mat_vec n 4 (distribution m) [collective; vget torque 0; vget torque 1; vget torque 2]) i = times 4 (mget (distribution m)) (wanted collective torque) i)
    by (intros i Hi; rewrite vget_mat_vec by auto; reflexivity).
  set (share := times 4 _ _) in *.
  assert (LM : forall v, lo <= fst (limited m v) <= hi /\ (snd (limited m v) = true <-> v < lo \/ hi < v) /\ (snd (limited m v) = false -> fst (limited m v) = v)).
  { intros v. unfold limited. rewrite Elo, Ehi. rnum. destruct (Rltb v lo) eqn:A; rcases; cbn [fst snd].
    - split; [lra|]. split; [split; auto|discriminate].
    - destruct (Rltb hi v) eqn:B; rcases; cbn [fst snd].
      + split; [lra|]. split; [split; auto|discriminate].
      + split; [lra|]. split; [split; [discriminate|intros [|]; lra]|auto]. }
  split; auto. split; [|split].
  - intros i Hi. rewrite C2 by auto. apply LM.
  - rewrite C3. split; intros (i & Hi & S); exists i; split; auto; rewrite SH in * by auto; apply LM; auto.
  - intros F i Hi. rewrite C2, SH by auto. apply LM. destruct (snd (limited m (share i))) eqn:S; auto.
    assert (saturated c = true) by (apply C3; exists i; rewrite SH by auto; auto). congruence.
Qed.
(** With the flag clear, what the rotors produce is what was asked for: to within a ten-thousandth of the sum of its parts
    for every layout that is accepted, and exactly when the stored matrix inverts the layout exactly. *)
Theorem C68_wrench pinv n positions spins k lo hi m collective torque :
  mixer_new pinv n positions spins k lo hi = Ok m ->
  let c := rotor_thrusts n m collective torque in
  let w := wrench n m (thrusts c) in
  saturated c = false ->
  vget (fst w) 0 = 0 /\ vget (fst w) 1 = 0 /\
  (forall i, (i < 4)%nat -> Rabs (produced w i - wanted collective torque i) <= / 10000 * bsum 4 (fun j => Rabs (wanted collective torque j))) /\
  (equal 4 4 (product n (mget (allocation m)) (mget (distribution m))) unit_matrix -> equal_vectors 4 (produced w) (wanted collective torque)).
Proof.
  intros E. cbv zeta. intros F. split; [reflexivity|]. split; [reflexivity|].
  destruct (C68_limits _ _ _ _ _ _ _ _ collective torque E) as (_ & _ & _ & C). specialize (C F).
  destruct (mixer_new_ok _ _ _ _ _ _ _ _ E) as (_ & _ & _ & _ & _ & _ & _ & RT).
  set (wt := wanted collective torque) in *. set (c := rotor_thrusts n m collective torque) in *.
  assert (P : forall i, (i < 4)%nat -> produced (wrench n m (thrusts c)) i = times 4 (product n (mget (allocation m)) (mget (distribution m))) wt i).
  { intros i Hi. rewrite times_product. transitivity (times n (mget (allocation m)) (vget (thrusts c)) i).
    - rewrite <- (vget_mat_vec 4) by auto. unfold produced, wrench. destruct i as [|[|[|[|i]]]]; try lia; reflexivity.
    - apply times_ext; auto. }
  assert (D : forall i x, (i < 4)%nat -> times 4 x wt i - wt i = bsum 4 (fun j => (x i j - unit_matrix i j) * wt j)).
  { intros i x Hi. transitivity (times 4 x wt i - times 4 unit_matrix wt i); [rewrite times_unit by auto; reflexivity|]. unfold times. rewrite <- bsum_minus. apply bsum_ext. intros. ring. }
  split.
  - intros i Hi. rewrite P by auto. rewrite D by auto. eapply Rle_trans.
    + apply Rabs_bsum.
    + rewrite <- bsum_scal. apply bsum_le. intros j Hj. rewrite Rabs_mult. apply Rmult_le_compat_r; [apply Rabs_pos|].
      unfold round_trip_ok in RT. rewrite forallb_forall in RT. specialize (RT i ltac:(apply in_seq; lia)). rewrite forallb_forall in RT.
      specialize (RT j ltac:(apply in_seq; lia)). rewrite mget_mul in RT by auto. rnum. cbv beta in RT. rewrite negb_true_iff in RT.
      unfold unit_matrix. rcases. lra.
  - intros I i Hi. rewrite P by auto. apply Rminus_diag_uniq. rewrite D by auto. rewrite (bsum_ext 4 _ (fun _ => 0)); [apply bsum_0|].
    intros j Hj. rewrite I by auto. ring.
Qed.

(** What is refused, for any scalar. *)
Theorem C68_refuses {T} {NT : Num T} pinv n positions spins (k lo hi : T) :
  let r := mixer_new pinv n positions spins k lo hi in
  let finite := is_finite k = true /\ is_finite lo = true /\ is_finite hi = true /\ forall p, In p positions -> vec_is_finite p = true in
  (~ finite -> r = Err PlNonFinite) /\
  (finite -> leb k zero = true -> r = Err PlNonPositiveTorqueRatio) /\
  (finite -> leb k zero = false -> leb hi lo = true -> r = Err PlInvalidThrustLimits) /\
  (finite -> leb k zero = false -> leb hi lo = false -> forall e, pinv (layout n positions spins k) = Err e -> r = Err (PlLinalg e)).
Proof.
  cbv zeta. assert (F : (is_finite k = true /\ is_finite lo = true /\ is_finite hi = true /\ (forall p, In p positions -> vec_is_finite p = true)) <->
    negb (is_finite k) || negb (is_finite lo) || negb (is_finite hi) || existsb (fun p => negb (vec_is_finite p)) positions = false).
  { rewrite !orb_false_iff, !negb_false_iff. assert (X : (forall p, In p positions -> vec_is_finite p = true) <-> existsb (fun p => negb (vec_is_finite p)) positions = false).
    { induction positions as [|p ps IH]; cbn [existsb In]; [tauto|]. rewrite orb_false_iff, negb_false_iff, <- IH. split.
      - intros H. split; auto.
      - intros [H1 H2] q [<-|Hq]; auto. }
    tauto. }
  rewrite F. unfold mixer_new. destruct (_ || _); (split; [|split; [|split]]); intros; try congruence; auto.
  - rewrite H0. reflexivity.
  - rewrite H0, H1. reflexivity.
  - rewrite H0, H1. cbv zeta. rewrite H2. reflexivity.
Qed.
(** The wrench is the physics of the rotors: each pushes along z at its own place, and turns the body back by the torque
    ratio against its spin. *)
Theorem C68_physics pinv n positions spins k lo hi m ts :
  mixer_new pinv n positions spins k lo hi = Ok m ->
  let x i := vget (nth i positions []) 0 in let y i := vget (nth i positions []) 1 in
  let drag i := match nth i spins Clockwise with Clockwise => k | CounterClockwise => - k end in
  let t := vget ts in
  fst (wrench n m ts) = [0; 0; bsum n t] /\
  snd (wrench n m ts) = [bsum n (fun i => y i * t i); bsum n (fun i => - x i * t i); bsum n (fun i => drag i * t i)].
Proof.
  intros E. cbv zeta. destruct (mixer_new_ok _ _ _ _ _ _ _ _ E) as (A & _). unfold wrench. cbn [fst snd].
  assert (G : forall i, (i < 4)%nat -> vget (mat_vec 4 n (allocation m) ts) i = bsum n (fun j => mget (layout n positions spins k) i j * vget ts j)).
  { intros i Hi. rewrite vget_mat_vec by auto. rewrite A. reflexivity. }
  assert (L : forall i j, (i < 4)%nat -> (j < n)%nat -> mget (layout n positions spins k) i j = match i with 0%nat => 1 | 1%nat => vget (nth j positions []) 1 | 2%nat => - vget (nth j positions []) 0
     | _ => match nth j spins Clockwise with Clockwise => k | CounterClockwise => - k end end).
  { intros i j Hi Hj. unfold layout. rewrite mget_mat_fn by auto. destruct i as [|[|[|i]]]; rnum; reflexivity. }
  split.
  - rewrite (G 0%nat) by lia. rewrite (bsum_ext n _ (vget ts)); [reflexivity|]. intros j Hj. rewrite L by (auto; lia). ring.
  - rewrite (G 1%nat), (G 2%nat), (G 3%nat) by lia.
    f_equal; [apply bsum_ext; intros j Hj; rewrite L by (auto; lia); reflexivity|].
    f_equal; [apply bsum_ext; intros j Hj; rewrite L by (auto; lia); reflexivity|].
    f_equal; apply bsum_ext; intros j Hj; rewrite L by (auto; lia); reflexivity.
Qed.
(** A layout whose round trip is off by more than a ten-thousandth anywhere is refused: so an accepted layout can produce
    every push and turn. *)
Theorem C68_layout pinv n positions spins k lo hi m : mixer_new pinv n positions spins k lo hi = Ok m ->
  forall w : vector, (exists i, (i < 4)%nat /\ w i <> 0) -> exists j, (j < n)%nat /\ times 4 (transposed (mget (allocation m))) w j <> 0.
Proof.
  intros E w (i0 & Hi0 & N). destruct (mixer_new_ok _ _ _ _ _ _ _ _ E) as (_ & _ & _ & _ & _ & _ & _ & RT).
  set (A := mget (allocation m)) in *. set (D := mget (distribution m)) in *.
  assert (B : forall i j, (i < 4)%nat -> (j < 4)%nat -> Rabs (product n A D i j - unit_matrix i j) <= / 10000).
  { intros i j Hi Hj. unfold round_trip_ok in RT. rewrite forallb_forall in RT. specialize (RT i ltac:(apply in_seq; lia)). rewrite forallb_forall in RT.
    specialize (RT j ltac:(apply in_seq; lia)). rewrite mget_mul in RT by auto. rnum. cbv beta in RT. rewrite negb_true_iff in RT.
    unfold unit_matrix, A, D. rcases. lra. }
  destruct (Classical_Prop.classic (exists j, (j < n)%nat /\ times 4 (transposed A) w j <> 0)) as [|C]; auto. exfalso.
  assert (Z : forall j, (j < n)%nat -> times 4 (transposed A) w j = 0).
  { intros j Hj. destruct (Req_dec (times 4 (transposed A) w j) 0); auto. destruct C; exists j; auto. }
  (* w^T (A D) = 0, while A D is nearly the identity *)
  assert (W : forall j, (j < 4)%nat -> bsum 4 (fun i => w i * product n A D i j) = 0).
  { intros j Hj. unfold product. rewrite (bsum_ext 4 _ (fun i => bsum n (fun k => w i * (A i k * D k j)))) by (intros; rewrite bsum_scal; reflexivity).
    rewrite bsum_swap. rewrite (bsum_ext n _ (fun _ => 0)); [apply bsum_0|]. intros q Hq.
    rewrite (bsum_ext 4 _ (fun i => D q j * (transposed A q i * w i))) by (intros; unfold transposed; ring). rewrite bsum_scal. fold (times 4 (transposed A) w q). rewrite Z by auto. ring. }
  assert (V : forall j, (j < 4)%nat -> Rabs (w j) <= / 10000 * bsum 4 (fun i => Rabs (w i))).
  { intros j Hj. replace (w j) with (- bsum 4 (fun i => w i * (product n A D i j - unit_matrix i j))).
    - rewrite Rabs_Ropp. eapply Rle_trans; [apply Rabs_bsum|]. rewrite <- bsum_scal. apply bsum_le. intros i Hi.
      rewrite Rabs_mult, Rmult_comm. apply Rmult_le_compat_r; [apply Rabs_pos|]. auto.
    - rewrite (bsum_ext 4 _ (fun i => w i * product n A D i j - (if Nat.eqb i j then w j else 0))).
      + rewrite bsum_minus, W, bsum_delta by auto. ring.
      + intros i Hi. unfold unit_matrix. destruct (Nat.eqb_spec i j) as [->|]; ring. }
  pose proof (V 0%nat ltac:(lia)). pose proof (V 1%nat ltac:(lia)). pose proof (V 2%nat ltac:(lia)). pose proof (V 3%nat ltac:(lia)).
  pose proof (Rabs_pos_lt _ N). pose proof (V i0 Hi0). cbn [bsum] in *.
  pose proof (Rabs_pos (w 0%nat)). pose proof (Rabs_pos (w 1%nat)). pose proof (Rabs_pos (w 2%nat)). pose proof (Rabs_pos (w 3%nat)). lra.
Qed.

(** The same in 64-bit floats: whatever finite or infinite share each rotor is given its thrust is within the limits, and
    it is flagged exactly when the share was not. *)
Theorem C68_limits_f64 lm pinv n positions spins (k lo hi : f64) m collective torque :
  let NT := f64num lm in
  mixer_new pinv n positions spins k lo hi = Ok m ->
  let c := rotor_thrusts n m collective torque in
  let share := vget (mat_vec n 4 (distribution m) [collective; vget torque 0; vget torque 1; vget torque 2]) in
  length (thrusts c) = n /\
  (forall i, (i < n)%nat -> notnan 53 1024 (share i) -> Bleb lo (vget (thrusts c) i) = true /\ Bleb (vget (thrusts c) i) hi = true) /\
  (forall i, (i < n)%nat -> Bltb (share i) lo = false -> Bltb hi (share i) = false -> vget (thrusts c) i = share i) /\
  (saturated c = true <-> exists i, (i < n)%nat /\ (Bltb (share i) lo = true \/ Bltb hi (share i) = true)).
Proof.
  cbv zeta. intros E. pose proof (mixer_new_ok (NT := f64num lm) _ _ _ _ _ _ _ _ E) as (_ & Elo & Ehi & L & Flo & Fhi & _).
  pose proof (commands_spec (NT := f64num lm) n m collective torque) as (C1 & C2 & C3). cbv zeta in *.
  set (share := mat_vec n 4 _ _) in *. set (c := rotor_thrusts n m collective torque) in *.
  change (Scalar.is_finite lo) with (BinarySingleNaN.is_finite lo) in Flo. change (Scalar.is_finite hi) with (BinarySingleNaN.is_finite hi) in Fhi.
  change (Bleb hi lo = false) in L.
  assert (Nlo : notnan 53 1024 lo) by (unfold notnan; destruct lo; cbn in *; congruence).
  assert (Nhi : notnan 53 1024 hi) by (unfold notnan; destruct hi; cbn in *; congruence).
  assert (LH : Bleb lo hi = true).
  { apply fnlt_le; auto. destruct (Bltb hi lo) eqn:X; auto. apply flt_le in X. congruence. }
  assert (LM : forall v : f64, limited (NT := f64num lm) m v = if Bltb v lo then (lo, true) else if Bltb hi v then (hi, true) else (v, false)).
  { intros v. unfold limited. rewrite Elo, Ehi. reflexivity. }
  split; [exact C1|]. split; [|split].
  - intros i Hi Nv. rewrite C2 by auto. rewrite LM. destruct (Bltb (vget share i) lo) eqn:A; [cbn [fst]; split; [apply fleb_refl; auto|auto]|].
    destruct (Bltb hi (vget share i)) eqn:B; cbn [fst]; [split; [auto|apply fleb_refl; auto]|]. split; apply fnlt_le; auto.
  - intros i Hi A B. rewrite C2 by auto. rewrite LM, A, B. reflexivity.
  - rewrite C3. split; intros (i & Hi & S); exists i; split; auto; rewrite LM in *.
    + destruct (Bltb (vget share i) lo); auto. destruct (Bltb hi (vget share i)); auto.
    + destruct (Bltb (vget share i) lo); auto. destruct (Bltb hi (vget share i)); auto. destruct S; discriminate.
Qed.
(** A four-rotor X frame is accepted whenever its matrix is inverted, and a hover asks every rotor for a quarter. *)
Definition frame_inverse (h k : R) : mat R := mat_fn 4 4 (fun r c =>
  let a := / (4 * h) in let b := / (4 * k) in
  nth c (nth r [[/ 4; - a; - a; b]; [/ 4; a; a; b]; [/ 4; a; - a; - b]; [/ 4; - a; a; - b]] []) 0).
Lemma frame_inverts h k : h <> 0 -> k <> 0 ->
  equal 4 4 (product 4 (mget (layout 4 [[h; - h; 0]; [- h; h; 0]; [h; h; 0]; [- h; - h; 0]] [Clockwise; Clockwise; CounterClockwise; CounterClockwise] k)) (mget (frame_inverse h k))) unit_matrix.
Proof.
  intros H K i j Hi Hj. unfold product, layout, frame_inverse, unit_matrix.
  destruct i as [|[|[|[|i]]]]; try lia; destruct j as [|[|[|[|j]]]]; try lia; vm_compute; field; auto.
Qed.
Theorem C68_quadrotor pinv arm k lo hi : 0 < arm -> 0 < k -> lo < hi ->
  let h := arm / R_sqrt.sqrt 2 in
  (forall a d, equal 4 4 (product 4 (mget a) (mget d)) unit_matrix -> exists d', pinv a = Ok d' /\ equal 4 4 (product 4 (mget a) (mget d')) unit_matrix) ->
  exists m, quadrotor_x pinv arm k lo hi = Ok m /\ minimum_thrust m = lo /\ maximum_thrust m = hi /\
    (forall a b c d, wrench 4 m [a; b; c; d] = ([0; 0; a + b + c + d], [h * (- a + b + c - d); h * (- a + b - c + d); k * (a + b - c - d)])) /\
    forall collective torque, let c := rotor_thrusts 4 m collective torque in
      saturated c = false -> equal_vectors 4 (produced (wrench 4 m (thrusts c))) (wanted collective torque).
Proof.
  intros A K L h I. assert (S2 : 0 < R_sqrt.sqrt 2) by (apply sqrt_lt_R0; lra).
  assert (Hh : 0 < h) by (apply Rdiv_lt_0_compat; auto).
  destruct (I _ _ (frame_inverts h k ltac:(lra) ltac:(lra))) as (d & P & E).
  set (m := {| allocation := layout 4 [[h; - h; 0]; [- h; h; 0]; [h; h; 0]; [- h; - h; 0]] [Clockwise; Clockwise; CounterClockwise; CounterClockwise] k;
     distribution := d; minimum_thrust := lo; maximum_thrust := hi |}).
  assert (Q : mixer_new pinv 4 [[h; - h; 0]; [- h; h; 0]; [h; h; 0]; [- h; - h; 0]] [Clockwise; Clockwise; CounterClockwise; CounterClockwise] k lo hi = Ok m).
  { unfold mixer_new. rnum. cbn [negb orb existsb vec_is_finite forallb]. unfold vec_is_finite. cbn [forallb andb]. rnum. cbn [negb orb andb]. rdecide. cbv zeta. rewrite P.
    replace (round_trip_ok _) with true; [reflexivity|]. symmetry. unfold round_trip_ok. apply forallb_forall. intros i Hi. apply in_seq in Hi. apply forallb_forall. intros j Hj. apply in_seq in Hj.
    rewrite mget_mul by lia. rnum. cbv beta. rewrite E by lia. unfold unit_matrix. rewrite Rminus_diag_eq by reflexivity. rewrite Rabs_R0. rewrite negb_true_iff. rdecide. reflexivity. }
  exists m. split.
  - unfold quadrotor_x. rnum. cbn [negb]. rdecide. exact Q.
  - split; [reflexivity|]. split; [reflexivity|]. split.
    { intros a b c e. destruct (C68_physics _ _ _ _ _ _ _ _ [a; b; c; e] Q) as [W1 W2].
      rewrite (surjective_pairing (wrench 4 m _)), W1, W2. cbn.
      assert (X : forall p q r t p' q' r' t' : R, p = p' -> q = q' -> r = r' -> t = t' -> ([0; 0; p], [q; r; t]) = ([0; 0; p'], [q'; r'; t'])) by (intros; subst; reflexivity).
      apply X; ring. }
    intros collective torque. cbv zeta. intros F.
    destruct (C68_wrench _ _ _ _ _ _ _ _ collective torque Q) as (_ & _ & _ & W); auto. 
Qed.

(** ** The lag *)
(** One tick of the length the model was built with is the same as one of that length given each time, for any scalar. *)
Theorem C69_fixed_tick {T} {NT : Num T} n (tau dt : T) l ts c : lag_new n tau dt = Ok l ->
  stepped n (with_thrusts l ts) c = stepped_over n (with_thrusts l ts) c dt.
Proof.
  unfold lag_new. destruct (_ || _); [discriminate|]. destruct (leb tau zero); [discriminate|]. destruct (leb dt zero); [discriminate|].
  intros E. injection E as <-. reflexivity.
Qed.
Theorem C69_new n tau dt : (0 < tau -> 0 < dt -> exists l, lag_new n tau dt = Ok l /\ time_constant l = tau /\ timestep l = dt /\ lag_thrusts l = repeat 0 n) /\
  (tau <= 0 -> lag_new n tau dt = Err PlNonPositiveTimeConstant) /\ (0 < tau -> dt <= 0 -> lag_new n tau dt = Err PlNonPositiveTimestep).
Proof.
  unfold lag_new. rnum. cbn [negb orb]. split; [|split].
  - intros A B. rdecide. eexists. split; [reflexivity|]. auto.
  - intros A. rdecide. reflexivity.
  - intros A B. rdecide. reflexivity.
Qed.
(** Each tick, of any length, leaves a rotor at command + (thrust - command) e^(-dt/tau). *)
Theorem C69_tick n l c dt : time_constant l <> 0 ->
  let l' := stepped_over n l c dt in
  time_constant l' = time_constant l /\ timestep l' = timestep l /\ length (lag_thrusts l') = n /\
  forall i, (i < n)%nat -> vget (lag_thrusts l') i = vget c i + (vget (lag_thrusts l) i - vget c i) * Rtrigo_def.exp (- (dt / time_constant l)).
Proof.
  intros N. cbv zeta. split; [reflexivity|]. split; [reflexivity|]. split; [apply from_fn_length|].
  intros i Hi. unfold stepped_over. cbn [with_state lag_thrusts]. rewrite vget_from_fn by auto. rnum.
  replace (- dt / time_constant l) with (- (dt / time_constant l)) by (field; auto). ring.
Qed.
(** It never overshoots: with a positive lag and tick the new thrust is between the old one and the command. *)
Theorem C69_no_overshoot n l c dt i : 0 < time_constant l -> 0 <= dt -> (i < n)%nat ->
  let before := vget (lag_thrusts l) i in let after := vget (lag_thrusts (stepped_over n l c dt)) i in
  (before <= vget c i -> before <= after <= vget c i) /\ (vget c i <= before -> vget c i <= after <= before).
Proof.
  intros P D Hi. cbv zeta. destruct (C69_tick n l c dt ltac:(lra)) as (_ & _ & _ & E). rewrite E by auto.
  assert (X : 0 <= dt / time_constant l) by (apply Rmult_le_pos; [auto|left; apply Rinv_0_lt_compat; auto]).
  pose proof (exp_pos (- (dt / time_constant l))) as X1.
  assert (X2 : Rtrigo_def.exp (- (dt / time_constant l)) <= 1).
  { rewrite <- exp_0. destruct X as [X|X]; [left; apply exp_increasing; lra|rewrite <- X, Ropp_0; lra]. }
  set (e := Rtrigo_def.exp _) in *. split; intros; nra.
Qed.
(** Two ticks one after the other are one tick of their total length. *)
Theorem C69_split n l c s t : time_constant l <> 0 -> stepped_over n (stepped_over n l c s) c t = stepped_over n l c (s + t).
Proof.
  intros N. destruct (C69_tick n l c s N) as (T1 & T2 & _ & E1). destruct (C69_tick n l c (s + t) N) as (_ & _ & L2 & E2).
  destruct (C69_tick n (stepped_over n l c s) c t ltac:(rewrite T1; auto)) as (_ & _ & L3 & E3).
  change (stepped_over n l c (s + t)) with (with_state l (lag_thrusts (stepped_over n l c (s + t)))).
  change (stepped_over n (stepped_over n l c s) c t) with (with_state l (lag_thrusts (stepped_over n (stepped_over n l c s) c t))).
  f_equal. apply (vec_ext n); auto. intros i Hi. rewrite E2, E3 by auto. rewrite E1 by auto. rewrite T1.
  replace (- ((s + t) / time_constant l)) with (- (s / time_constant l) + - (t / time_constant l)) by (field; auto).
  rewrite exp_plus. ring.
Qed.
(** [k] ticks of a model toward a command held still close 1 - e^(-k dt/tau) of the gap. *)
Theorem C69_ticks n tau dt l ts c k : lag_new n tau dt = Ok l ->
  let after := Nat.iter k (fun l => stepped n l c) (with_thrusts l ts) in
  forall i, (i < n)%nat ->
  vget (lag_thrusts after) i = vget c i + (vget ts i - vget c i) * Rtrigo_def.exp (- (INR k * dt / tau)).
Proof.
  intros E. cbv zeta. assert (F : carried_over l = Rtrigo_def.exp (- (dt / tau)) /\ caught_up l = 1 - Rtrigo_def.exp (- (dt / tau))).
  { unfold lag_new in E. rnum. cbn [negb orb] in E. destruct (Rleb tau 0) eqn:T; [discriminate|]. destruct (Rleb dt 0); [discriminate|]. rcases.
    injection E as <-. cbn [carried_over caught_up]. replace (- dt / tau) with (- (dt / tau)) by (field; lra). split; ring. }
  destruct F as [F1 F2].
  assert (G : forall k, carried_over (Nat.iter k (fun l => stepped n l c) (with_thrusts l ts)) = carried_over l /\ caught_up (Nat.iter k (fun l => stepped n l c) (with_thrusts l ts)) = caught_up l /\
    forall i, (i < n)%nat -> vget (lag_thrusts (Nat.iter k (fun l => stepped n l c) (with_thrusts l ts))) i = vget c i + (vget ts i - vget c i) * Rtrigo_def.exp (- (INR k * dt / tau))).
  { clear k. induction k as [|k (I1 & I2 & I3)].
    - split; [reflexivity|]. split; [reflexivity|]. intros i Hi. cbn [Nat.iter nat_rect INR]. replace (- (0 * dt / tau)) with 0 by (unfold Rdiv; ring). rewrite exp_0. cbn [with_thrusts with_state lag_thrusts]. ring.
    - change (Nat.iter (S k) (fun l => stepped n l c) (with_thrusts l ts)) with (stepped n (Nat.iter k (fun l => stepped n l c) (with_thrusts l ts)) c).
      set (l0 := Nat.iter k _ _) in *.
      split; [exact I1|]. split; [exact I2|]. intros i Hi. unfold stepped. cbn [with_state lag_thrusts]. rewrite vget_from_fn by auto. rewrite I1, I2, I3, F1, F2 by auto. rnum.
      rewrite S_INR. replace (- ((INR k + 1) * dt / tau)) with (- (INR k * dt / tau) + - (dt / tau)) by (unfold Rdiv; ring). rewrite exp_plus. ring. }
  apply G.
Qed.
(** The rate is the derivative of the thrust along ticks of growing length, at every moment. *)
Theorem C69_rate n l c t i : time_constant l <> 0 -> (i < n)%nat ->
  is_derive (V := R_NormedModule) (fun t => vget (lag_thrusts (stepped_over n l c t)) i) t (vget (lag_rate n (stepped_over n l c t) c) i).
Proof.
  intros N Hi. apply (is_derive_ext (fun t => vget c i + (vget (lag_thrusts l) i - vget c i) * Rtrigo_def.exp (- (t / time_constant l)))).
  - intros x. symmetry. destruct (C69_tick n l c x N) as (_ & _ & _ & E). apply E; auto.
  - unfold lag_rate. rewrite vget_from_fn by auto. destruct (C69_tick n l c t N) as (T & _ & _ & E). rewrite E, T by auto. rnum.
    auto_derive; auto. unfold Rdiv. set (e := Rtrigo_def.exp _). field. auto.
Qed.
(** A reset puts every rotor back to nothing and changes nothing else. *)
Theorem C69_reset n (l : lag) : lag_thrusts (lag_reset n l) = repeat 0 n /\ with_thrusts (lag_reset n l) (lag_thrusts l) = l.
Proof. split; [reflexivity|]. destruct l; reflexivity. Qed.

(** ** Concrete cases *)
(** An X frame with arms of sqrt 2: a hover of 8 gives every rotor 2; a command beyond the limits is held at them. *)
Example C68_example : exists m, quadrotor_x (fun _ => Ok (frame_inverse 1 (/ 10))) (R_sqrt.sqrt 2) (/ 10) 0 5 = Ok m /\
  (let c := rotor_thrusts 4 m 8 [0; 0; 0] in thrusts c = [2; 2; 2; 2] /\ saturated c = false) /\
  (let c := rotor_thrusts 4 m 16 [4; 0; 0] in thrusts c = [3; 5; 5; 3] /\ saturated c = false) /\
  (let c := rotor_thrusts 4 m 40 [0; 0; 0] in thrusts c = [5; 5; 5; 5] /\ saturated c = true).
Proof.
  assert (S2 : 0 < R_sqrt.sqrt 2) by (apply sqrt_lt_R0; lra).
  set (m := {| allocation := layout 4 [[1; - (1); 0]; [- (1); 1; 0]; [1; 1; 0]; [- (1); - (1); 0]] [Clockwise; Clockwise; CounterClockwise; CounterClockwise] (/ 10);
     distribution := frame_inverse 1 (/ 10); minimum_thrust := 0; maximum_thrust := 5 |}).
  assert (SH : forall a b i, (i < 4)%nat -> vget (mat_vec 4 4 (distribution m) [a; vget [b; 0; 0] 0; vget [b; 0; 0] 1; vget [b; 0; 0] 2]) i = a / 4 + (match i with 1%nat | 2%nat => b | _ => - b end) / 4).
  { intros a b i Hi. rewrite vget_mat_vec by auto. destruct i as [|[|[|[|i]]]]; try lia; vm_compute; field. }
  assert (TH : forall a b ts, length ts = 4%nat -> (forall i, (i < 4)%nat -> vget ts i = fst (limited m (a / 4 + (match i with 1%nat | 2%nat => b | _ => - b end) / 4))) -> thrusts (rotor_thrusts 4 m a [b; 0; 0]) = ts).
  { intros a b ts HL HT. destruct (commands_spec 4 m a [b; 0; 0]) as (C1 & C2 & _). apply (vec_ext 4); auto.
    intros i Hi. rewrite C2, HT, SH by auto. reflexivity. }
  exists m. split; [|split; [|split]].
  - unfold quadrotor_x, mixer_new. rnum. unfold vec_is_finite. cbn [negb orb existsb forallb andb]. rnum. cbn [negb orb andb]. rdecide. cbv zeta.
    replace (R_sqrt.sqrt 2 / R_sqrt.sqrt 2) with 1 by (field; lra).
    replace (round_trip_ok _) with true; [reflexivity|]. symmetry. unfold round_trip_ok. apply forallb_forall. intros i Hi. apply in_seq in Hi. apply forallb_forall. intros j Hj. apply in_seq in Hj.
    rewrite mget_mul by lia. rnum. cbv beta. rewrite frame_inverts by (lra || lia). unfold unit_matrix. rewrite Rminus_diag_eq by reflexivity. rewrite Rabs_R0. rewrite negb_true_iff. rdecide. reflexivity.
  - cbv zeta. split.
    + apply TH; auto. intros i Hi. unfold limited. cbn [minimum_thrust maximum_thrust m]. rnum. destruct i as [|[|[|[|i]]]]; try lia; rdecide; cbn; lra.
    + destruct (commands_spec 4 m 8 [0; 0; 0]) as (_ & _ & C3). destruct (saturated _); auto. destruct C3 as [C3 _]. destruct (C3 eq_refl) as (i & Hi & E).
      rewrite SH in E by auto. unfold limited in E. cbn [minimum_thrust maximum_thrust m] in E. rnum. revert E. destruct i as [|[|[|[|i]]]]; try lia; rdecide; cbn; discriminate.
  - cbv zeta. split.
    + apply TH; auto. intros i Hi. unfold limited. cbn [minimum_thrust maximum_thrust m]. rnum. destruct i as [|[|[|[|i]]]]; try lia; rdecide; cbn; lra.
    + destruct (commands_spec 4 m 16 [4; 0; 0]) as (_ & _ & C3). destruct (saturated _); auto. destruct C3 as [C3 _]. destruct (C3 eq_refl) as (i & Hi & E).
      rewrite SH in E by auto. unfold limited in E. cbn [minimum_thrust maximum_thrust m] in E. rnum. revert E. destruct i as [|[|[|[|i]]]]; try lia; rdecide; cbn; discriminate.
  - cbv zeta. split.
    + apply TH; auto. intros i Hi. unfold limited. cbn [minimum_thrust maximum_thrust m]. rnum. destruct i as [|[|[|[|i]]]]; try lia; rdecide; cbn; lra.
    + destruct (commands_spec 4 m 40 [0; 0; 0]) as (_ & _ & C3). apply C3. exists 0%nat. split; [lia|].
      rewrite SH by auto. unfold limited. cbn [minimum_thrust maximum_thrust m]. rnum. rdecide. reflexivity.
Qed.
(** Two rotors from rest toward 4 and 8 with a lag of one tick: after a tick they have gone 1 - 1/e of the way. *)
Example C69_example : exists l, lag_new 2 3 3 = Ok l /\
  vget (lag_thrusts (stepped 2 l [4; 8])) 0 = 4 * (1 - Rtrigo_def.exp (-1)) /\ vget (lag_thrusts (stepped 2 l [4; 8])) 1 = 8 * (1 - Rtrigo_def.exp (-1)) /\
  4 * (1 - Rtrigo_def.exp (-1)) < 4.
Proof.
  destruct (proj1 (C69_new 2 3 3) ltac:(lra) ltac:(lra)) as (l & E & E1 & E2 & E3). exists l. split; auto.
  pose proof (C69_ticks 2 3 3 l [0; 0] [4; 8] 1 E) as H. cbv zeta in H. cbn [Nat.iter nat_rect] in H.
  replace (with_thrusts l [0; 0]) with l in H by (destruct l; cbn in *; subst; reflexivity).
  replace (- (INR 1 * 3 / 3)) with (-1) in H by (cbn [INR]; field).
  rewrite !H by (auto; lia). cbn. pose proof (exp_pos (-1)). split; [ring|]. split; [ring|lra].
Qed.

Print Assumptions C68_limits. Print Assumptions C68_wrench. Print Assumptions C68_refuses. Print Assumptions C68_physics. Print Assumptions C68_layout.
Print Assumptions C68_limits_f64. Print Assumptions C68_quadrotor.
Print Assumptions C69_fixed_tick. Print Assumptions C69_new. Print Assumptions C69_tick. Print Assumptions C69_no_overshoot. Print Assumptions C69_split.
Print Assumptions C69_ticks. Print Assumptions C69_rate. Print Assumptions C69_reset.
