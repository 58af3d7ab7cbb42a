(** C93: zero-order hold, Van Loan's discrete noise and the white-noise model. *)
From Coq Require Import ZArith Reals List Bool Arith Lia Lra Psatz FunctionalExtensionality.
From Coquelicot Require Import Coquelicot.
From Verif Require Import Base.Scalar Base.RNum Base.Lists Base.Series Model.Errors Model.Vector Model.Matrix Model.Lu Model.Expm.
From Verif Require Import Spec.Matrix Spec.MatrixExp Spec.Hold Proofs.Matrix Proofs.Lu Proofs.Algebra Proofs.Lyapunov Proofs.MatrixSeries Proofs.Pade Proofs.Expm Proofs.Flow.
From Verif Require Import Props.Expm.
Import ListNotations.
Local Open Scope R_scope.

(** ** Blocks of the two exponentials *)
Lemma bsum_app n m f : bsum (n + m) f = bsum n f + bsum m (fun i => f (n + i)%nat).
Proof. apply bsum_shift. Qed.
Lemma input_rows n a b i j : (i < n)%nat -> (j < n)%nat -> with_input n a b i j = a i j.
Proof. intros Hi Hj. unfold with_input. rewrite !(proj2 (Nat.ltb_lt _ _)) by auto. reflexivity. Qed.
Lemma input_right n a b i j : (i < n)%nat -> with_input n a b i (n + j)%nat = b i j.
Proof. intros Hi. unfold with_input. rewrite (proj2 (Nat.ltb_lt i n)) by auto. rewrite (proj2 (Nat.ltb_ge (n + j)%nat n)) by lia. f_equal. lia. Qed.
Lemma input_below n a b i j : with_input n a b (n + i)%nat j = 0.
Proof. unfold with_input. rewrite (proj2 (Nat.ltb_ge (n + i)%nat n)) by lia. reflexivity. Qed.
Lemma block_scaled n m (a b : mat R) dt : equal (n + m) (n + m) (mget (zoh_block n m a b dt)) (scaled_matrix dt (with_input n (mget a) (mget b))).
Proof.
  intros i j Hi Hj. unfold zoh_block. rewrite mget_mat_fn by auto. unfold scaled_matrix, with_input. destruct (Nat.ltb i n); cbn [andb]; [|rnum; ring]. destruct (Nat.ltb j n); rnum; ring.
Qed.
Lemma shape_block n m (a b : mat R) dt : shape (n + m) (n + m) (zoh_block n m a b dt).
Proof. apply shape_mat_fn. Qed.
Lemma input_power n m a b k i j : (i < n)%nat -> (j < n)%nat -> power (n + m) (with_input n a b) k i j = power n a k i j.
Proof.
  revert i j. induction k as [|k IH]; intros i j Hi Hj; [reflexivity|]. cbn [power]. unfold product. rewrite bsum_app. rewrite (bsum_ext m _ (fun _ => 0)) by (intros l Hl; rewrite input_below; ring). rewrite bsum_0, Rplus_0_r.
  apply bsum_ext. intros l Hl. rewrite IH, input_rows by auto. reflexivity.
Qed.
Lemma input_flow n m a b t i j : (i < n)%nat -> (j < n)%nat -> flow (n + m) (with_input n a b) t i j = flow n a t i j.
Proof. intros Hi Hj. unfold flow, series. apply Series_ext. intros k. rewrite input_power by auto. reflexivity. Qed.
Lemma input_flow_right n m a b dt : integral n m (fun t => product n (flow n a t) b) dt (fun i j => flow (n + m) (with_input n a b) dt i (n + j)%nat).
Proof.
  intros i j Hi Hj. set (M := with_input n a b).
  replace (flow (n + m) M dt i (n + j)%nat) with (minus (flow (n + m) M dt i (n + j)%nat) (flow (n + m) M 0 i (n + j)%nat)).
  2:{ rewrite (flow_zero (n + m) M i (n + j)%nat) by lia. unfold unit_matrix. destruct (Nat.eqb_spec i (n + j)%nat); [lia|]. apply Rminus_0_r. }
  apply (is_RInt_derive (fun t => flow (n + m) M t i (n + j)%nat) (fun t => product n (flow n a t) b i j)).
  - intros t _. replace (product n (flow n a t) b i j) with (product (n + m) (flow (n + m) M t) M i (n + j)%nat); [apply flow_derive'; lia|].
    unfold product. rewrite bsum_app. rewrite (bsum_ext m _ (fun _ => 0)) by (intros l Hl; unfold M; rewrite input_below; ring). rewrite bsum_0, Rplus_0_r. apply bsum_ext. intros l Hl. unfold M. rewrite input_flow, input_right by auto. reflexivity.
  - intros t _. apply (ex_derive_continuous (V := R_NormedModule) (fun t => product n (flow n a t) b i j)). exists (bsum n (fun l => product n a (flow n a t) i l * b l j)). apply (is_derive_sum n (fun l s => flow n a s i l * b l j)). intros l Hl. apply (is_derive_scal_l (fun s => flow n a s i l) t (product n a (flow n a t) i l) (b l j)). apply flow_derive; auto.
Qed.
Lemma times_bound n d x c : bounded n d c -> bsum n (fun i => Rabs (times n d x i)) <= bsum n (fun i => Rabs (x i)) * c.
Proof.
  intros B. apply Rle_trans with (bsum n (fun i => bsum n (fun j => Rabs (d i j) * Rabs (x j)))).
  - apply bsum_le. intros i Hi. unfold times. eapply Rle_trans; [apply bsum_abs|]. right. apply bsum_ext. intros. apply Rabs_mult.
  - rewrite bsum_swap. rewrite Rmult_comm, <- bsum_scal. apply bsum_le. intros j Hj. rewrite (bsum_ext n _ (fun i => Rabs (x j) * Rabs (d i j))) by (intros; ring). rewrite bsum_scal. pose proof (B j Hj). pose proof (Rabs_pos (x j)). nra.
Qed.

(** ** Zero-order hold *)
Lemma zoh_ok n m a b dt fuel f g : zoh fuel n m a b dt = Some (Ok (f, g)) -> 0 <= dt /\
  exists e, expm fuel (n + m) (zoh_block n m a b dt) = Some (Ok e) /\ f = mat_fn n n (fun i j => mget e i j) /\ g = mat_fn n m (fun i j => mget e i (n + j)%nat).
Proof.
  unfold zoh. change (is_finite dt) with true. change (ltb dt zero) with (Rltb dt 0). cbn [negb orb]. destruct (Rltb dt 0) eqn:E; [discriminate|]. destruct (expm fuel (n + m) _) as [[e|e|]|]; try discriminate. intros H. injection H as <- <-. rcases. split; [lra|]. eauto.
Qed.
(** A trajectory of [x' = A x + B u] under any held input [u], from any start, is at the end of the step within the
    exponential's relative error of [F x + G u]. *)
Theorem C93_hold n m a b dt fuel f g : INR (n + m) <= 2 ^ 50 -> zoh fuel n m a b dt = Some (Ok (f, g)) ->
  let whole := with_input n (mget a) (mget b) in
  shape n n f /\ shape n m g /\
  exists k, INR k <= Rmax 1 (4 * (dt * column_norm (n + m) whole)) /\ forall u x, trajectory n m (mget a) (mget b) u dt x ->
    bsum n (fun i => Rabs (x dt i - (times n (mget f) (x 0) i + times m (mget g) u i))) <=
    (bsum n (fun i => Rabs (x 0 i)) + bsum m (fun j => Rabs (u j))) * (column_norm (n + m) (exp_at (n + m) whole dt) * ((1 + / 2 ^ 53) ^ k - 1)).
Proof.
  intros Sz H whole. destruct (zoh_ok _ _ _ _ _ _ _ _ H) as (D & e & E & -> & ->). split; [apply shape_mat_fn|]. split; [apply shape_mat_fn|].
  destruct (accurate_any (n + m) _ _ _ Sz (shape_block n m a b dt) E) as (Se & k & K & B). exists k.
  assert (Q : equal (n + m) (n + m) (matrix_exp (n + m) (mget (zoh_block n m a b dt))) (exp_at (n + m) whole dt)) by (apply matrix_exp_ext, block_scaled).
  rewrite (norm_ext _ _ _ Q) in B. assert (NB : column_norm (n + m) (mget (zoh_block n m a b dt)) = dt * column_norm (n + m) whole).
  { rewrite (norm_ext _ _ _ (block_scaled n m a b dt)). fold whole. rewrite <- (Rabs_pos_eq dt D) at 2. apply norm_scaled. }
  split; [rewrite <- NB; exact K|]. intros u x X.
  set (z := fun t i => if Nat.ltb i n then x t i else u (i - n)%nat).
  assert (ZL : forall t i, (i < n)%nat -> z t i = x t i) by (intros t i Hi; unfold z; rewrite (proj2 (Nat.ltb_lt i n)) by auto; reflexivity).
  assert (ZR : forall t i, z t (n + i)%nat = u i) by (intros t i; unfold z; rewrite (proj2 (Nat.ltb_ge (n + i)%nat n)) by lia; f_equal; lia).
  assert (T : forall i, (i < n + m)%nat -> z dt i = times (n + m) (flow (n + m) whole dt) (z 0) i).
  { apply flow_trajectory; [exact D|]. intros t i Ht Hi. destruct (Nat.lt_ge_cases i n) as [L|L].
    - apply is_derive_ext with (fun s => x s i); [intros s; symmetry; apply ZL; auto|]. replace (times (n + m) whole (z t) i) with (times n (mget a) (x t) i + times m (mget b) u i); [apply X; auto|].
      unfold times. rewrite bsum_app. f_equal; apply bsum_ext; intros l Hl; unfold whole; [rewrite input_rows, ZL by auto|rewrite input_right, ZR by auto]; reflexivity.
    - replace i with (n + (i - n))%nat in * by lia. set (l := (i - n)%nat) in *. apply is_derive_ext with (fun _ => u l); [intros s; symmetry; apply ZR|]. replace (times (n + m) whole (z t) (n + l)%nat) with 0; [apply (is_derive_const (K := R_AbsRing) (V := R_NormedModule) (u l))|].
      unfold times. rewrite (bsum_ext (n + m) _ (fun _ => 0)); [rewrite bsum_0; reflexivity|]. intros p Hp. unfold whole. rewrite input_below. ring. }
  set (d := minus_matrix (mget e) (matrix_exp (n + m) (mget (zoh_block n m a b dt)))) in B. pose proof (times_bound (n + m) d (z 0) _ B) as TB. rewrite !bsum_app in TB.
  rewrite (bsum_ext n (fun i => Rabs (z 0 i)) (fun i => Rabs (x 0 i))) in TB by (intros i Hi; rewrite ZL by auto; reflexivity). rewrite (bsum_ext m (fun i => Rabs (z 0 (n + i)%nat)) (fun i => Rabs (u i))) in TB by (intros i Hi; rewrite ZR; reflexivity).
  eapply Rle_trans; [|exact TB]. apply Rle_trans with (bsum n (fun i => Rabs (times (n + m) d (z 0) i))); [right|pose proof (bsum_nonneg m (fun i => Rabs (times (n + m) d (z 0) (n + i)%nat)) ltac:(intros; apply Rabs_pos)); lra].
  apply bsum_ext. intros i Hi. rewrite <- Rabs_Ropp. f_equal. rewrite <- (ZL dt i Hi), T by lia.
  assert (S1 : times n (mget (mat_fn n n (fun i j => mget e i j))) (x 0) i + times m (mget (mat_fn n m (fun i j => mget e i (n + j)%nat))) u i = times (n + m) (mget e) (z 0) i).
  { unfold times. rewrite bsum_app. f_equal; apply bsum_ext; intros l Hl; rewrite mget_mat_fn by auto; [rewrite ZL by auto|rewrite ZR]; reflexivity. }
  rewrite S1. unfold times. rewrite Ropp_minus_distr, <- bsum_minus. apply bsum_ext. intros l Hl. unfold d, minus_matrix. rewrite (Q i l ltac:(lia) Hl), (flow_exp (n + m) whole dt i l ltac:(lia) Hl). unfold exp_at. ring.
Qed.
(** Every step of nonnegative length is accepted in exact arithmetic. *)
Theorem C93_accepts n m a b dt : INR (n + m) <= 2 ^ 50 -> 0 <= dt -> exists turns, forall fuel, (turns <= fuel)%nat -> exists f g, zoh fuel n m a b dt = Some (Ok (f, g)).
Proof.
  intros Sz D. destruct (C92_accurate (n + m) (zoh_block n m a b dt) Sz (shape_block n m a b dt)) as (turns & T). exists turns. intros fuel F. destruct (T fuel F) as (r & E & _).
  unfold zoh. change (is_finite dt) with true. change (ltb dt zero) with (Rltb dt 0). rdecide. cbn [negb orb]. rewrite E. eauto.
Qed.
(** Any scalar: a negative step, or one that is not finite, is refused by both. *)
Theorem C93_refuses {T} {NT : Num T} fuel n m (a b : mat T) dt : (is_finite dt = false \/ ltb dt zero = true) ->
  zoh fuel n m a b dt = Some (Err LaInvalidTimestep) /\ van_loan fuel n a b dt = Some (Err LaInvalidTimestep).
Proof. intros H. unfold zoh, van_loan. replace (negb (is_finite dt) || (ltb dt zero))%bool with true; [auto|]. symmetry. apply orb_true_iff. destruct H as [->| ->]; auto. Qed.
(** The documented answers: [F] is the exponential of [A dt], and [G] the integral of the exponential times [B]. *)
Theorem C93_documented n m a b dt fuel f g : INR (n + m) <= 2 ^ 50 -> zoh fuel n m a b dt = Some (Ok (f, g)) ->
  let whole := with_input n (mget a) (mget b) in
  exists k input, INR k <= Rmax 1 (4 * (dt * column_norm (n + m) whole)) /\
    integral n m (fun t => product n (exp_at n (mget a) t) (mget b)) dt input /\
    let error := column_norm (n + m) (exp_at (n + m) whole dt) * ((1 + / 2 ^ 53) ^ k - 1) in
    (forall j, (j < n)%nat -> bsum n (fun i => Rabs (mget f i j - exp_at n (mget a) dt i j)) <= error) /\
    (forall j, (j < m)%nat -> bsum n (fun i => Rabs (mget g i j - input i j)) <= error).
Proof.
  intros Sz H whole. destruct (zoh_ok _ _ _ _ _ _ _ _ H) as (D & e & E & -> & ->).
  destruct (accurate_any (n + m) _ _ _ Sz (shape_block n m a b dt) E) as (Se & k & K & B). exists k, (fun i j => flow (n + m) whole dt i (n + j)%nat).
  assert (Q : equal (n + m) (n + m) (matrix_exp (n + m) (mget (zoh_block n m a b dt))) (exp_at (n + m) whole dt)) by (apply matrix_exp_ext, block_scaled).
  rewrite (norm_ext _ _ _ Q) in B. assert (NB : column_norm (n + m) (mget (zoh_block n m a b dt)) = dt * column_norm (n + m) whole).
  { rewrite (norm_ext _ _ _ (block_scaled n m a b dt)). fold whole. rewrite <- (Rabs_pos_eq dt D) at 2. apply norm_scaled. }
  split; [rewrite <- NB; exact K|]. split.
  { intros i j Hi Hj. apply is_RInt_ext with (fun t => product n (flow n (mget a) t) (mget b) i j); [|apply input_flow_right; auto]. intros t _. apply product_ext; auto. intros l Hl. apply flow_exp; auto. }
  intros error. assert (G : forall j, (j < n + m)%nat -> bsum n (fun i => Rabs (mget e i j - flow (n + m) whole dt i j)) <= error).
  { intros j Hj. pose proof (B j Hj) as C. rewrite bsum_app in C. eapply Rle_trans; [|exact C].
    rewrite (bsum_ext n (fun i => Rabs (minus_matrix (mget e) (matrix_exp (n + m) (mget (zoh_block n m a b dt))) i j)) (fun i => Rabs (mget e i j - flow (n + m) whole dt i j))).
    - pose proof (bsum_nonneg m (fun i => Rabs (minus_matrix (mget e) (matrix_exp (n + m) (mget (zoh_block n m a b dt))) (n + i)%nat j)) ltac:(intros; apply Rabs_pos)). lra.
    - intros i Hi. unfold minus_matrix. rewrite (Q i j ltac:(lia) Hj), (flow_exp (n + m) whole dt i j ltac:(lia) Hj). reflexivity. }
  split; intros j Hj.
  - eapply Rle_trans; [right|apply (G j); lia]. apply bsum_ext. intros i Hi. rewrite mget_mat_fn by auto. unfold whole. rewrite input_flow by auto. rewrite (flow_exp n (mget a) dt i j Hi Hj). reflexivity.
  - eapply Rle_trans; [right|apply (G (n + j)%nat); lia]. apply bsum_ext. intros i Hi. rewrite mget_mat_fn by auto. reflexivity.
Qed.

(** ** Van Loan *)
Lemma noise_tl n a q i j : (i < n)%nat -> (j < n)%nat -> with_noise n a q i j = - a i j.
Proof. intros Hi Hj. unfold with_noise. rewrite !(proj2 (Nat.ltb_lt _ _)) by auto. reflexivity. Qed.
Lemma noise_tr n a q i j : (i < n)%nat -> with_noise n a q i (n + j)%nat = q i j.
Proof. intros Hi. unfold with_noise. rewrite (proj2 (Nat.ltb_lt i n)) by auto. rewrite (proj2 (Nat.ltb_ge (n + j) n)) by lia. f_equal. lia. Qed.
Lemma noise_bl n a q i j : (j < n)%nat -> with_noise n a q (n + i)%nat j = 0.
Proof. intros Hj. unfold with_noise. rewrite (proj2 (Nat.ltb_ge (n + i) n)) by lia. rewrite (proj2 (Nat.ltb_lt j n)) by auto. reflexivity. Qed.
Lemma noise_br n a q i j : with_noise n a q (n + i)%nat (n + j)%nat = transposed a i j.
Proof. unfold with_noise. rewrite (proj2 (Nat.ltb_ge (n + i) n)), (proj2 (Nat.ltb_ge (n + j) n)) by lia. unfold transposed. f_equal; lia. Qed.
Lemma noise_power n a q k i j : (i < n)%nat -> (j < n)%nat -> power (n + n) (with_noise n a q) k (n + i)%nat j = 0 /\ power (n + n) (with_noise n a q) k (n + i)%nat (n + j)%nat = power n (transposed a) k i j.
Proof.
  revert i j. induction k as [|k IH]; intros i j Hi Hj; cbn [power].
  - unfold unit_matrix. destruct (Nat.eqb_spec (n + i) j), (Nat.eqb_spec (n + i) (n + j)), (Nat.eqb_spec i j); try lia; auto.
  - unfold product. rewrite !bsum_app. split.
    + rewrite (bsum_ext n (fun i0 => power (n + n) (with_noise n a q) k (n + i)%nat i0 * _) (fun _ => 0)) by (intros l Hl; rewrite (proj1 (IH i l Hi Hl)); ring). rewrite bsum_0. rewrite (bsum_ext n _ (fun _ => 0)) by (intros l Hl; rewrite noise_bl by auto; ring). rewrite bsum_0. ring.
    + rewrite (bsum_ext n (fun i0 => power (n + n) (with_noise n a q) k (n + i)%nat i0 * _) (fun _ => 0)) by (intros l Hl; rewrite (proj1 (IH i l Hi Hl)); ring). rewrite bsum_0, Rplus_0_l. apply bsum_ext. intros l Hl. rewrite (proj2 (IH i l Hi Hl)), noise_br. reflexivity.
Qed.
Lemma noise_flow n a q t i j : (i < n)%nat -> (j < n)%nat -> flow (n + n) (with_noise n a q) t (n + i)%nat (n + j)%nat = flow n (transposed a) t i j.
Proof. intros Hi Hj. unfold flow, series. apply Series_ext. intros k. rewrite (proj2 (noise_power n a q k i j Hi Hj)). reflexivity. Qed.
Lemma flow_transposed n a t : equal n n (flow n (transposed a) t) (transposed (flow n a t)).
Proof.
  intros i j Hi Hj. unfold flow, series, transposed. apply Series_ext. intros k. f_equal. clear t. revert i j Hi Hj. induction k as [|k IH]; intros i j Hi Hj; [cbn; unfold unit_matrix; rewrite Nat.eqb_sym; reflexivity|].
  rewrite (power_left n a k j i Hj Hi). cbn [power]. unfold product, transposed. apply bsum_ext. intros l Hl. rewrite IH by auto. ring.
Qed.
Lemma is_derive_product n (f g : R -> matrix) df dg t i j : (forall l, (l < n)%nat -> is_derive (fun s => f s i l) t (df i l)) -> (forall l, (l < n)%nat -> is_derive (fun s => g s l j) t (dg l j)) ->
  is_derive (fun s => product n (f s) (g s) i j) t (product n df (g t) i j + product n (f t) dg i j).
Proof.
  intros F G. unfold product. rewrite <- bsum_plus. apply (is_derive_sum n (fun l s => f s i l * g s l j) (fun l => df i l * g t l j + f t i l * dg l j)). intros l Hl.
  apply (is_derive_mult (fun s => f s i l) (fun s => g s l j)); auto. intros; apply Rmult_comm.
Qed.
Lemma noise_integral n a q dt : integral n n (fun t => product n (flow n a t) (product n q (transposed (flow n a t)))) dt
  (product n (flow n a dt) (fun i j => flow (n + n) (with_noise n a q) dt i (n + j)%nat)).
Proof.
  intros i j Hi Hj. set (M := with_noise n a q). set (G := fun t i j => flow (n + n) M t i (n + j)%nat). set (S := fun t => product n (flow n a t) (G t) i j).
  assert (S0 : S 0 = 0). { unfold S, product. rewrite (bsum_ext n _ (fun _ => 0)); [apply bsum_0|]. intros l Hl. unfold G. rewrite (flow_zero (n + n) M l (n + j)%nat) by lia. unfold unit_matrix. destruct (Nat.eqb_spec l (n + j)); [lia|ring]. }
  replace (product n (flow n a dt) (fun i j => flow (n + n) M dt i (n + j)%nat) i j) with (minus (S dt) (S 0)) by (rewrite S0; apply Rminus_0_r).
  assert (DS : forall t, is_derive S t (product n (flow n a t) (product n q (transposed (flow n a t))) i j)).
  { intros t. replace (product n (flow n a t) (product n q (transposed (flow n a t))) i j) with (product n (product n (flow n a t) a) (G t) i j + product n (flow n a t) (fun i j => product (n + n) M (flow (n + n) M t) i (n + j)%nat) i j).
    - apply (is_derive_product n (flow n a) G); intros l Hl; [apply flow_derive'; auto|unfold G; apply flow_derive; lia].
    - assert (MG : forall l, (l < n)%nat -> product (n + n) M (flow (n + n) M t) l (n + j)%nat = - product n a (G t) l j + product n q (transposed (flow n a t)) l j).
      { intros l Hl. unfold product. rewrite bsum_app. f_equal.
        - transitivity (bsum n (fun p => -1 * (a l p * G t p j))); [apply bsum_ext; intros p Hp; unfold M; rewrite noise_tl by auto; unfold G, M; ring|rewrite bsum_scal; ring].
        - apply bsum_ext. intros p Hp. unfold M. rewrite noise_tr, noise_flow by auto. rewrite (flow_transposed n a t p j Hp Hj). reflexivity. }
      rewrite p_assoc. unfold product at 1 3 5. rewrite <- bsum_plus. apply bsum_ext. intros l Hl. rewrite MG by auto. ring. }
  apply (is_RInt_derive S (fun t => product n (flow n a t) (product n q (transposed (flow n a t))) i j)).
  - intros t _. apply DS.
  - intros t _. apply (ex_derive_continuous (V := R_NormedModule) (fun t => product n (flow n a t) (product n q (transposed (flow n a t))) i j)).
    eexists. apply (is_derive_product n (flow n a) (fun t => product n q (transposed (flow n a t))) (product n a (flow n a t)) (fun l j => bsum n (fun p => q l p * product n a (flow n a t) j p))); [intros l Hl; apply flow_derive; auto|]. intros l Hl.
    apply (is_derive_sum n (fun p s => q l p * transposed (flow n a s) p j) (fun p => q l p * product n a (flow n a t) j p)). intros p Hp. apply (is_derive_scal (fun s => flow n a s j p)). apply flow_derive; auto.
Qed.
Lemma noise_scaled n (a q : mat R) dt : equal (n + n) (n + n) (mget (van_loan_block n a q dt)) (scaled_matrix dt (with_noise n (mget a) (mget q))).
Proof.
  intros i j Hi Hj. unfold van_loan_block. replace (2 * n)%nat with (n + n)%nat by lia. rewrite mget_mat_fn by auto. unfold scaled_matrix, with_noise. destruct (Nat.ltb_spec i n), (Nat.ltb_spec j n), (Nat.leb_spec n j); cbn [andb]; try lia; rnum; ring.
Qed.
(** [F] is the exponential of [A dt], and the covariance is the integral of [e^(At) Q e^(A't)] over the step; a symmetric [Q] gives an exactly symmetric one. *)
Theorem C93_noise n a q dt fuel f qd : INR (n + n) <= 2 ^ 50 -> van_loan fuel n a q dt = Some (Ok (f, qd)) ->
  let whole := with_noise n (mget a) (mget q) in
  shape n n f /\ shape n n qd /\ (symmetric n (mget q) -> symmetric n (mget qd)) /\
  exists k covariance, INR k <= Rmax 1 (4 * (dt * column_norm (n + n) whole)) /\
    integral n n (fun t => product n (exp_at n (mget a) t) (product n (mget q) (transposed (exp_at n (mget a) t)))) dt covariance /\
    let size := column_norm (n + n) (exp_at (n + n) whole dt) in
    let relative := (1 + / 2 ^ 53) ^ k - 1 in
    forall i j, (i < n)%nat -> (j < n)%nat -> Rabs (mget f i j - exp_at n (mget a) dt i j) <= size * relative /\
      Rabs (mget qd i j - covariance i j) <= size * size * ((1 + relative) * (1 + relative) - 1).
Proof.
  intros Sz H whole. unfold van_loan in H. change (is_finite dt) with true in H. change (ltb dt zero) with (Rltb dt 0) in H. cbn [negb orb] in H. destruct (Rltb dt 0) eqn:ED; [discriminate H|]. rcases. replace (2 * n)%nat with (n + n)%nat in H by lia.
  destruct (expm fuel (n + n) (van_loan_block n a q dt)) as [[e|e|]|] eqn:E; try discriminate H. injection H as <- <-. set (g12 := mat_fn n n (fun i j => mget e i (n + j)%nat)). set (g22 := mat_fn n n (fun i j => mget e (n + i)%nat (n + j)%nat)).
  assert (Sb : shape (n + n) (n + n) (van_loan_block n a q dt)) by (unfold van_loan_block; replace (2 * n)%nat with (n + n)%nat by lia; apply shape_mat_fn).
  assert (FE : forall i j, (i < n)%nat -> (j < n)%nat -> mget (transpose n n g22) i j = mget e (n + j)%nat (n + i)%nat) by (intros i j Hi Hj; rewrite mget_transpose by auto; unfold g22; rewrite mget_mat_fn by auto; reflexivity).
  assert (GE : forall i j, (i < n)%nat -> (j < n)%nat -> mget g12 i j = mget e i (n + j)%nat) by (intros i j Hi Hj; unfold g12; rewrite mget_mat_fn by auto; reflexivity).
  split; [apply shape_mat_fn|]. split; [apply shape_mat_fn|]. split.
  - intros Y.
    set (J := fun i j : nat => if Nat.eqb j (n + i) then 1 else if Nat.eqb i (n + j) then -1 else 0).
    assert (JL : forall (c : matrix) i j, (i < n)%nat -> product (n + n) J c i j = c (n + i)%nat j).
    { intros c i j Hi. unfold product. rewrite bsum_app. rewrite (bsum_ext n (fun k => J i k * c k j) (fun _ => 0)) by (intros l Hl; unfold J; destruct (Nat.eqb_spec l (n + i)), (Nat.eqb_spec i (n + l)); try lia; ring). rewrite bsum_0, Rplus_0_l.
      rewrite (bsum_ext n _ (fun l => if Nat.eqb l i then c (n + i)%nat j else 0)); [apply bsum_delta; auto|]. intros l Hl. unfold J. destruct (Nat.eqb_spec (n + l) (n + i)), (Nat.eqb_spec i (n + (n + l))), (Nat.eqb_spec l i); try lia; subst; ring. }
    assert (JR : forall (c : matrix) i j, (i < n)%nat -> product (n + n) J c (n + i)%nat j = - c i j).
    { intros c i j Hi. unfold product. rewrite bsum_app. rewrite (bsum_ext n (fun k => J (n + i)%nat (n + k)%nat * c (n + k)%nat j) (fun _ => 0)) by (intros l Hl; unfold J; destruct (Nat.eqb_spec (n + l) (n + (n + i))), (Nat.eqb_spec (n + i) (n + (n + l))); try lia; ring). rewrite bsum_0, Rplus_0_r.
      rewrite (bsum_ext n _ (fun l => if Nat.eqb l i then - c i j else 0)); [apply bsum_delta; auto|]. intros l Hl. unfold J. destruct (Nat.eqb_spec l (n + (n + i))), (Nat.eqb_spec (n + i) (n + l)), (Nat.eqb_spec l i); try lia; subst; ring. }
    assert (JT : forall (c : matrix) i j, (i < n + n)%nat -> (j < n + n)%nat -> product (n + n) (transposed c) J i j = - product (n + n) J c j i).
    { intros c i j Hi Hj. unfold product, transposed. transitivity (bsum (n + n) (fun l => -1 * (J j l * c l i))); [|rewrite bsum_scal; ring]. apply bsum_ext. intros l Hl. assert (J l j = - J j l); [|rewrite H; ring]. unfold J. destruct (Nat.eqb_spec j (n + l)), (Nat.eqb_spec l (n + j)); try lia; ring. }
    assert (HJ : equal (n + n) (n + n) (plus_matrix (product (n + n) (transposed (mget (van_loan_block n a q dt))) J) (product (n + n) J (mget (van_loan_block n a q dt)))) zero_matrix).
    { intros i j Hi Hj. unfold plus_matrix, zero_matrix. rewrite JT by auto. pose proof (noise_scaled n a q dt) as NS.
      destruct (Nat.lt_ge_cases i n) as [Li|Li]; destruct (Nat.lt_ge_cases j n) as [Lj|Lj].
      - rewrite !JL by auto. rewrite !NS by lia. unfold scaled_matrix. rewrite !noise_bl by auto. ring.
      - replace j with (n + (j - n))%nat by lia. rewrite JR, JL by lia. rewrite !NS by lia. unfold scaled_matrix. rewrite noise_br, noise_tl by lia. unfold transposed. ring.
      - replace i with (n + (i - n))%nat by lia. rewrite JR, JL by lia. rewrite !NS by lia. unfold scaled_matrix. rewrite noise_br, noise_tl by lia. unfold transposed. ring.
      - replace i with (n + (i - n))%nat by lia. replace j with (n + (j - n))%nat by lia. rewrite !JR by lia. rewrite !NS by lia. unfold scaled_matrix. rewrite !noise_tr by lia. rewrite (Y (i - n)%nat (j - n)%nat) by lia. unfold transposed. ring. }
    pose proof (C92_preserves (n + n) _ fuel e J Sz Sb E HJ) as P. intros i j Hi Hj. specialize (P (n + i)%nat (n + j)%nat ltac:(lia) ltac:(lia)).
    assert (Z : J (n + i)%nat (n + j)%nat = 0) by (unfold J; destruct (Nat.eqb_spec (n + j) (n + (n + i))), (Nat.eqb_spec (n + i) (n + (n + j))); try lia; reflexivity). rewrite Z in P.
    unfold transposed. rewrite !mget_mul by auto.
    assert (P1 : product (n + n) (transposed (mget e)) (product (n + n) J (mget e)) (n + i)%nat (n + j)%nat = bsum n (fun l => mget e l (n + i)%nat * mget e (n + l)%nat (n + j)%nat) - bsum n (fun l => mget e (n + l)%nat (n + i)%nat * mget e l (n + j)%nat)).
    { unfold product at 1. rewrite bsum_app. unfold Rminus. f_equal; [apply bsum_ext; intros l Hl; rewrite JL by auto; reflexivity|]. transitivity (bsum n (fun l => -1 * (mget e (n + l)%nat (n + i)%nat * mget e l (n + j)%nat))); [|rewrite bsum_scal; ring]. apply bsum_ext. intros l Hl. rewrite JR by auto. unfold transposed. ring. }
    rewrite P1 in P. unfold product. rewrite (bsum_ext n (fun k => mget (transpose n n g22) i k * mget g12 k j) (fun l => mget e (n + l)%nat (n + i)%nat * mget e l (n + j)%nat)) by (intros l Hl; rewrite FE, GE by auto; reflexivity).
    rewrite (bsum_ext n (fun k => mget (transpose n n g22) j k * mget g12 k i) (fun l => mget e l (n + i)%nat * mget e (n + l)%nat (n + j)%nat)) by (intros l Hl; rewrite FE, GE by auto; ring). lra.
  - destruct (accurate_any (n + n) _ _ _ Sz Sb E) as (Se & k & K & B). exists k, (product n (flow n (mget a) dt) (fun i j => flow (n + n) whole dt i (n + j)%nat)).
    assert (Q : equal (n + n) (n + n) (matrix_exp (n + n) (mget (van_loan_block n a q dt))) (exp_at (n + n) whole dt)) by (apply matrix_exp_ext, noise_scaled).
    assert (NB : column_norm (n + n) (mget (van_loan_block n a q dt)) = dt * column_norm (n + n) whole).
    { rewrite (norm_ext _ _ _ (noise_scaled n a q dt)). fold whole. rewrite <- (Rabs_pos_eq dt) at 2 by lra. apply norm_scaled. }
    rewrite (norm_ext _ _ _ Q) in B. split; [rewrite <- NB; exact K|]. split.
    { intros i j Hi Hj. apply is_RInt_ext with (fun t => product n (flow n (mget a) t) (product n (mget q) (transposed (flow n (mget a) t))) i j); [|apply noise_integral; auto].
      intros t _. apply product_ext; auto; [intros l Hl; apply flow_exp; auto|]. intros l Hl. apply product_ext; auto. intros p Hp. unfold transposed. apply flow_exp; auto. }
    intros size relative i j Hi Hj. set (E0 := flow (n + n) whole dt).
    assert (EQ : equal (n + n) (n + n) (exp_at (n + n) whole dt) E0) by (apply equal_sym, flow_exp).
    assert (B1 : forall l, (l < n + n)%nat -> bsum (n + n) (fun i => Rabs (mget e i l - E0 i l)) <= size * relative).
    { intros l Hl. eapply Rle_trans; [right|apply (B l Hl)]. apply bsum_ext. intros p Hp. unfold minus_matrix. rewrite (Q p l Hp Hl), (EQ p l Hp Hl). reflexivity. }
    assert (B0 : forall l, (l < n + n)%nat -> bsum (n + n) (fun i => Rabs (E0 i l)) <= size).
    { intros l Hl. eapply Rle_trans; [right|apply (bounded_norm (n + n) (exp_at (n + n) whole dt) l Hl)]. apply bsum_ext. intros p Hp. rewrite (EQ p l Hp Hl). reflexivity. }
    assert (EN : forall p l, (p < n + n)%nat -> (l < n + n)%nat -> Rabs (mget e p l - E0 p l) <= size * relative) by (intros p l Hp Hl; eapply Rle_trans; [|apply (B1 l Hl)]; apply (abs_below (n + n) (fun p => mget e p l - E0 p l) p Hp)).
    assert (EM : forall p l, (p < n + n)%nat -> (l < n + n)%nat -> Rabs (E0 p l) <= size) by (intros p l Hp Hl; eapply Rle_trans; [|apply (B0 l Hl)]; apply (abs_below (n + n) (fun p => E0 p l) p Hp)).
    assert (FT : forall i j, (i < n)%nat -> (j < n)%nat -> flow n (mget a) dt i j = E0 (n + j)%nat (n + i)%nat).
    { intros p l Hp Hl. unfold E0, whole. rewrite noise_flow by auto. rewrite (flow_transposed n (mget a) dt l p Hl Hp). reflexivity. }
    split.
    { rewrite FE by auto. pose proof (flow_exp n (mget a) dt i j Hi Hj) as FX. fold (exp_at n (mget a) dt) in FX. rewrite <- FX, FT by auto. apply EN; lia. }
    rewrite mget_mul by auto. unfold product. rewrite (bsum_ext n (fun k => mget (transpose n n g22) i k * mget g12 k j) (fun l => mget e (n + l)%nat (n + i)%nat * mget e l (n + j)%nat)) by (intros l Hl; rewrite FE, GE by auto; reflexivity).
    rewrite (bsum_ext n (fun k => flow n (mget a) dt i k * flow (n + n) whole dt k (n + j)%nat) (fun l => E0 (n + l)%nat (n + i)%nat * E0 l (n + j)%nat)) by (intros l Hl; rewrite FT by auto; reflexivity).
    rewrite <- bsum_minus. eapply Rle_trans; [apply bsum_abs|].
    assert (TL : forall f, bsum n (fun l => f (n + l)%nat) = bsum (n + n) f - bsum n f) by (intros f; rewrite bsum_app; ring).
    assert (C1 : bsum n (fun l => Rabs (mget e (n + l)%nat (n + i)%nat - E0 (n + l)%nat (n + i)%nat)) <= size * relative).
    { rewrite (TL (fun l => Rabs (mget e l (n + i)%nat - E0 l (n + i)%nat))). pose proof (bsum_nonneg n (fun l => Rabs (mget e l (n + i)%nat - E0 l (n + i)%nat)) ltac:(intros; apply Rabs_pos)). pose proof (B1 (n + i)%nat ltac:(lia)). lra. }
    assert (C0 : bsum n (fun l => Rabs (E0 (n + l)%nat (n + i)%nat)) <= size).
    { rewrite (TL (fun l => Rabs (E0 l (n + i)%nat))). pose proof (bsum_nonneg n (fun l => Rabs (E0 l (n + i)%nat)) ltac:(intros; apply Rabs_pos)). pose proof (B0 (n + i)%nat ltac:(lia)). lra. }
    apply Rle_trans with (bsum n (fun l => size * (1 + relative) * Rabs (mget e (n + l)%nat (n + i)%nat - E0 (n + l)%nat (n + i)%nat) + size * relative * Rabs (E0 (n + l)%nat (n + i)%nat))).
    + apply bsum_le. intros l Hl. set (x := mget e (n + l)%nat (n + i)%nat). set (x0 := E0 (n + l)%nat (n + i)%nat). set (y := mget e l (n + j)%nat). set (y0 := E0 l (n + j)%nat).
      replace (x * y - x0 * y0) with ((x - x0) * y + x0 * (y - y0)) by ring. eapply Rle_trans; [apply Rabs_triang|]. rewrite !Rabs_mult.
      assert (Y : Rabs (y - y0) <= size * relative) by (apply EN; lia). assert (Y0 : Rabs y0 <= size) by (apply EM; lia). assert (YY : Rabs y <= size * (1 + relative)). { replace y with ((y - y0) + y0) by ring. eapply Rle_trans; [apply Rabs_triang|]. lra. }
      pose proof (Rabs_pos (x - x0)). pose proof (Rabs_pos x0). nra.
    + rewrite bsum_plus, !bsum_scal. assert (P0 : 0 <= size) by apply column_norm_nonneg. assert (P1 : 0 <= relative). { unfold relative. pose proof (pow_R1_Rle (1 + / 2 ^ 53) k). assert (0 < / 2 ^ 53) by (apply Rinv_0_lt_compat, pow_lt; lra). specialize (H ltac:(lra)). lra. }
      assert (0 <= size * relative) by nra. assert (0 <= size * (1 + relative)) by nra. set (s1 := bsum n (fun i0 => Rabs (mget e (n + i0)%nat (n + i)%nat - E0 (n + i0)%nat (n + i)%nat))) in *. set (s0 := bsum n (fun i0 => Rabs (E0 (n + i0)%nat (n + i)%nat))) in *.
      apply Rle_trans with (size * (1 + relative) * (size * relative) + size * relative * size); [apply Rplus_le_compat; apply Rmult_le_compat_l; auto|]. right. ring.
Qed.
Theorem C93_noise_accepts n a q dt : INR (n + n) <= 2 ^ 50 -> 0 <= dt -> exists turns, forall fuel, (turns <= fuel)%nat -> exists f qd, van_loan fuel n a q dt = Some (Ok (f, qd)).
Proof.
  intros Sz D. assert (Sb : shape (n + n) (n + n) (van_loan_block n a q dt)) by (unfold van_loan_block; replace (2 * n)%nat with (n + n)%nat by lia; apply shape_mat_fn).
  destruct (C92_accurate (n + n) _ Sz Sb) as (turns & T). exists turns. intros fuel F. destruct (T fuel F) as (r & E & _).
  unfold van_loan. change (is_finite dt) with true. change (ltb dt zero) with (Rltb dt 0). rdecide. cbn [negb orb]. replace (2 * n)%nat with (n + n)%nat by lia. rewrite E. eauto.
Qed.

(** ** White noise *)
(** What one unit of noise, held over the step, adds to position, velocity, acceleration (and the third derivative for four states). *)
Definition noise_gain (dim : nat) (dt : R) (i : nat) : R :=
  match dim, i with
  | 2%nat, 0%nat => dt ^ 2 / 2 | 2%nat, 1%nat => dt
  | 3%nat, 0%nat => dt ^ 2 / 2 | 3%nat, 1%nat => dt | 3%nat, 2%nat => 1
  | 4%nat, 0%nat => dt ^ 3 / 6 | 4%nat, 1%nat => dt ^ 2 / 2 | 4%nat, 2%nat => dt | 4%nat, 3%nat => 1
  | _, _ => 0
  end.
(** The covariance is the variance times the outer product of those gains; so it is never negative for a variance that is not. *)
Theorem C93_white dim dt variance : (2 <= dim <= 4)%nat -> let q := q_discrete_white_noise dim dt variance in
  shape dim dim q /\ equal dim dim (mget q) (fun i j => variance * noise_gain dim dt i * noise_gain dim dt j) /\ (0 <= variance -> positive_semidefinite dim (mget q)).
Proof.
  intros D q. assert (E : equal dim dim (mget q) (fun i j => variance * noise_gain dim dt i * noise_gain dim dt j)).
  { intros i j Hi Hj. unfold q, q_discrete_white_noise. rewrite mget_mat_fn by auto.
    destruct dim as [|[|[|[|[|dim]]]]]; try lia; destruct i as [|[|[|[|i]]]]; try lia; destruct j as [|[|[|[|j]]]]; try lia; cbn [white_noise_entry noise_gain]; rnum; field. }
  split; [apply shape_mat_fn|]. split; [exact E|]. intros V x.
  rewrite (quadratic_ext dim _ _ x E). unfold quadratic, dot_product, times. rewrite (bsum_ext dim _ (fun i => (bsum dim (fun j => noise_gain dim dt j * x j) * variance) * (noise_gain dim dt i * x i))).
  - rewrite bsum_scal. set (s := bsum dim _). nra.
  - intros i Hi. rewrite (bsum_ext dim _ (fun j => (variance * noise_gain dim dt i) * (noise_gain dim dt j * x j))) by (intros; ring). rewrite bsum_scal. ring.
Qed.
(** Any scalar, rounding included: symmetric to the last bit. *)
Theorem C93_white_symmetric {T} {NT : Num T} dim (dt variance : T) i j : (i < dim)%nat -> (j < dim)%nat ->
  mget (q_discrete_white_noise dim dt variance) i j = mget (q_discrete_white_noise dim dt variance) j i.
Proof.
  intros Hi Hj. unfold q_discrete_white_noise. rewrite !mget_mat_fn by auto. f_equal. destruct dim as [|[|[|[|[|dim]]]]]; try lia; [| | | |reflexivity]; destruct i as [|[|[|[|i]]]]; try lia; destruct j as [|[|[|[|j]]]]; try lia; reflexivity.
Qed.
(** The documentation calls the variance the continuous spectral intensity. For a position and a velocity driven by noise of unit intensity over two seconds the velocity's variance is two; the model's is four. *)
Theorem C93_intensity_refuted : let a := fun i j => if (Nat.eqb i 0 && Nat.eqb j 1)%bool then 1 else 0 in
  let q := fun i j => if (Nat.eqb i 1 && Nat.eqb j 1)%bool then 1 else 0 in
  is_RInt (fun t => product 2 (exp_at 2 a t) (product 2 q (transposed (exp_at 2 a t))) 1%nat 1%nat) 0 2 2 /\ mget (q_discrete_white_noise 2 2 1) 1 1 = 4.
Proof.
  intros a q. split; [|cbn; lra].
  assert (L : forall t j, (j < 2)%nat -> exp_at 2 a t 1%nat j = unit_matrix 1%nat j).
  { intros t j Hj. pose proof (flow_exp 2 a t 1%nat j ltac:(lia) Hj) as F. fold (exp_at 2 a t) in F. rewrite <- F. unfold flow, series. apply is_series_unique.
    pose proof (is_series_finite (fun k => exponent t k * power 2 a k 1%nat j) 1) as S. cbn [bsum] in S. assert (E0 : 0 + exponent t 0 * power 2 a 0 1%nat j = unit_matrix 1%nat j) by (unfold exponent; cbn; field). rewrite E0 in S. apply S.
    intros k Hk. destruct k as [|k]; [lia|]. rewrite (power_left 2 a k 1%nat j) by lia. unfold product, a. cbn [bsum Nat.eqb andb]. ring. }
  apply is_RInt_ext with (fun _ => 1).
  - intros t _. unfold product, transposed, q. cbn [bsum Nat.eqb andb]. rewrite !L by lia. unfold unit_matrix. cbn [Nat.eqb]. match goal with |- ?x = ?y => change (@eq R x y) end. ring.
  - replace 2 with (scal (2 - 0) 1) at 2 by (cbn; unfold mult; cbn; ring). apply (is_RInt_const 0 2 1).
Qed.

(** A mass under a held force: two states, one input, a tenth of a second. *)
Example C93_example : INR (2 + 1) <= 2 ^ 50 /\ (exists fuel f g, zoh fuel 2 1 [[0; 1]; [0; 0]] [[0]; [1]] (/ 10) = Some (Ok (f, g))) /\
  trajectory 2 1 (mget [[0; 1]; [0; 0]]) (mget [[0]; [1]]) (fun _ => 3) (/ 10) (fun t i => match i with O => 1 + 2 * t + 3 / 2 * t ^ 2 | _ => 2 + 3 * t end) /\
  INR (2 + 2) <= 2 ^ 50 /\ symmetric 2 (mget [[0; 0]; [0; 1]]) /\ (exists fuel f qd, van_loan fuel 2 [[0; 1]; [0; 0]] [[0; 0]; [0; 1]] (/ 10) = Some (Ok (f, qd))).
Proof.
  assert (Z : forall k, (k <= 4)%nat -> INR k <= 2 ^ 50). { intros k Hk. apply Rle_trans with 4; [replace 4 with (INR 4) by (cbn; lra); apply le_INR; lia|]. replace 50%nat with (2 + 48)%nat by lia. rewrite pow_add. pose proof (pow_R1_Rle 2 48 ltac:(lra)). lra. }
  split; [apply Z; lia|]. split; [|split; [|split; [apply Z; lia|split]]].
  - destruct (C93_accepts 2 1 [[0; 1]; [0; 0]] [[0]; [1]] (/ 10) (Z 3%nat ltac:(lia)) ltac:(lra)) as (t & H). destruct (H t (Nat.le_refl t)) as (f & g & E). eauto.
  - intros t i Ht Hi. destruct i as [|[|i]]; [| |lia]; unfold times; cbn; auto_derive; auto; cbn; field.
  - intros i j Hi Hj. destruct i as [|[|i]]; [| |lia]; (destruct j as [|[|j]]; [| |lia]); reflexivity.
  - destruct (C93_noise_accepts 2 [[0; 1]; [0; 0]] [[0; 0]; [0; 1]] (/ 10) (Z 4%nat ltac:(lia)) ltac:(lra)) as (t & H). destruct (H t (Nat.le_refl t)) as (f & g & E). eauto.
Qed.

Print Assumptions C93_hold.
Print Assumptions C93_accepts.
Print Assumptions C93_refuses.
Print Assumptions C93_documented.
Print Assumptions C93_noise.
Print Assumptions C93_noise_accepts.
Print Assumptions C93_white.
Print Assumptions C93_white_symmetric.
Print Assumptions C93_intensity_refuted.
