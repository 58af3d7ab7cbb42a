(** C143: the Monte Carlo localizer. *)
From Coq Require Import ZArith Reals List Bool Arith Lia Lra Psatz.
From Coquelicot Require Import Hierarchy RInt.
From Verif Require Import Base.Scalar Base.Lists Base.RNum Base.XNum Base.Trig Base.Series Model.Errors Model.Vector Model.Matrix Model.Cholesky Model.Kalman Model.Mapping Model.ParticleFilter Model.Localizer
  Proofs.Vector Proofs.Matrix Proofs.Angle Proofs.Quaternion Proofs.Particles Props.Cholesky Proofs.Resampling Props.Resampling Props.Mapping Props.EstimationModels Props.Particles Spec.Matrix Spec.Mapping Spec.Particles.
Import ListNotations.
Local Open Scope R_scope.
Local Notation exp := Rtrigo_def.exp.
Local Notation sqrt := R_sqrt.sqrt.
Local Notation cos := Rtrigo_def.cos.
Local Notation sin := Rtrigo_def.sin.

(** ** The cloud and its noise *)

Definition diagonal_root (d : list R) (l : mat R) : Prop :=
  forall i j, (i < 3)%nat -> (j < 3)%nat -> mget l i j = if Nat.eqb i j then sqrt (vget d i) else 0.
Definition all_positive (d : list R) : Prop := forall i, (i < 3)%nat -> 0 < vget d i.
Lemma diagonal_symmetric (d : list R) : symmetric 3 (mget (from_diagonal 3 d)).
Proof.
  intros i j Hi Hj. unfold transposed. rewrite !mget_from_diagonal by assumption. rewrite (Nat.eqb_sym j i). destruct (Nat.eqb_spec i j) as [->|]; reflexivity.
Qed.
Lemma diagonal_form (d : list R) x : dot_product 3 x (times 3 (mget (from_diagonal 3 d)) x) = vget d 0 * (x 0%nat * x 0%nat) + vget d 1 * (x 1%nat * x 1%nat) + vget d 2 * (x 2%nat * x 2%nat).
Proof.
  unfold dot_product, times. cbn [bsum]. rewrite !mget_from_diagonal by lia. cbn [Nat.eqb]. cbn [zero Rnum]. ring.
Qed.
Lemma diagonal_definite (d : list R) : positive_definite 3 (mget (from_diagonal 3 d)) <-> all_positive d.
Proof.
  split.
  - intros P i Hi. set (x := fun k => if Nat.eqb k i then 1 else 0). specialize (P x). rewrite diagonal_form in P.
    assert (E : exists k, (k < 3)%nat /\ x k <> 0) by (exists i; split; [exact Hi|]; unfold x; rewrite Nat.eqb_refl; lra). specialize (P E). unfold x in P.
    destruct i as [|[|[|i]]]; cbn [Nat.eqb] in P; try lra; lia.
  - intros A x (k & Hk & N). rewrite diagonal_form. pose proof (A 0%nat ltac:(lia)) as A0. pose proof (A 1%nat ltac:(lia)) as A1. pose proof (A 2%nat ltac:(lia)) as A2.
    pose proof (Rle_0_sqr (x 0%nat)) as Q0. pose proof (Rle_0_sqr (x 1%nat)) as Q1. pose proof (Rle_0_sqr (x 2%nat)) as Q2. unfold Rsqr in *.
    assert (Z0 := Rmult_le_pos _ _ (Rlt_le _ _ A0) Q0). assert (Z1 := Rmult_le_pos _ _ (Rlt_le _ _ A1) Q1). assert (Z2 := Rmult_le_pos _ _ (Rlt_le _ _ A2) Q2).
    pose proof (Rsqr_pos_lt (x k) N) as S. unfold Rsqr in S. pose proof (Rmult_lt_0_compat _ _ (A k Hk) S).
    destruct k as [|[|[|k]]]; try lra; lia.
Qed.
Lemma diagonal_cholesky (d : list R) :
  (all_positive d -> exists l, cholesky 3 (from_diagonal 3 d) = Ok l /\ diagonal_root d l) /\
  (~ all_positive d -> cholesky 3 (from_diagonal 3 d) = Err LaNotPositiveDefinite).
Proof.
  destruct (C79_accepts 3 _ (shape_from_diagonal 3 d) (diagonal_symmetric d)) as [A B]. rewrite diagonal_definite in A, B. split; [|exact (proj2 B)].
  intros P. destruct (proj2 A P) as [l E]. exists l. split; [exact E|].
  destruct (C79_factor 3 _ l (shape_from_diagonal 3 d) (diagonal_symmetric d) E) as (LT & PD & F). clear A B E.
  assert (G : forall i j, (i < 3)%nat -> (j < 3)%nat -> mget l i 0 * mget l j 0 + mget l i 1 * mget l j 1 + mget l i 2 * mget l j 2 = if Nat.eqb i j then vget d i else 0).
  { intros i j Hi Hj. specialize (F i j Hi Hj). rewrite mget_from_diagonal in F by assumption. unfold product, transposed in F. cbn [bsum zero Rnum] in F. lra. }
  pose proof (LT 0%nat 1%nat ltac:(lia) ltac:(lia) ltac:(lia)) as U1. pose proof (LT 0%nat 2%nat ltac:(lia) ltac:(lia) ltac:(lia)) as U2. pose proof (LT 1%nat 2%nat ltac:(lia) ltac:(lia) ltac:(lia)) as U3.
  pose proof (PD 0%nat ltac:(lia)) as P0. pose proof (PD 1%nat ltac:(lia)) as P1. pose proof (PD 2%nat ltac:(lia)) as P2.
  pose proof (G 0%nat 0%nat ltac:(lia) ltac:(lia)) as G00. pose proof (G 1%nat 0%nat ltac:(lia) ltac:(lia)) as G10. pose proof (G 2%nat 0%nat ltac:(lia) ltac:(lia)) as G20.
  pose proof (G 1%nat 1%nat ltac:(lia) ltac:(lia)) as G11. pose proof (G 2%nat 1%nat ltac:(lia) ltac:(lia)) as G21. pose proof (G 2%nat 2%nat ltac:(lia) ltac:(lia)) as G22.
  cbn [Nat.eqb] in *. rewrite U1, U2, ?U3 in *.
  assert (Z10 : mget l 1 0 = 0) by (apply (Rmult_eq_reg_r (mget l 0 0)); lra). rewrite Z10 in *.
  assert (Z20 : mget l 2 0 = 0) by (apply (Rmult_eq_reg_r (mget l 0 0)); lra). rewrite Z20 in *.
  assert (Z21 : mget l 2 1 = 0) by (apply (Rmult_eq_reg_r (mget l 1 1)); lra). rewrite Z21 in *.
  assert (SQ : forall a b, 0 < a -> a * a = b -> a = sqrt b) by (intros a b Ha <-; rewrite sqrt_square; lra).
  intros [|[|[|i]]] [|[|[|j]]] Hi Hj; try lia; cbn [Nat.eqb]; try assumption; apply SQ; lra.
Qed.
Lemma diagonal_times d (l : mat R) v i : diagonal_root d l -> (i < 3)%nat -> vget (mat_vec 3 3 l v) i = sqrt (vget d i) * vget v i.
Proof.
  intros D Hi. rewrite vget_mat_vec by exact Hi. unfold times. cbn [bsum]. rewrite !D by lia. destruct i as [|[|[|i]]]; cbn [Nat.eqb]; try lia; ring.
Qed.

Lemma diagonal_apply d (l : mat R) v : diagonal_root d l -> mat_vec 3 3 l v = [sqrt (vget d 0) * vget v 0; sqrt (vget d 1) * vget v 1; sqrt (vget d 2) * vget v 2].
Proof. intros D. rewrite <- !(diagonal_times d l v) by (exact D || lia). reflexivity. Qed.

(** Building a localizer: an empty cloud and a variance that is not positive are refused.  Otherwise each guess is the hint with
    independent normal draws added, scaled by the square roots of the variances, and every guess counts the same. *)
Theorem C143_new Rng (normal : Rng -> R * Rng) x y h count pv hv model g : let build := ml_new normal [x; y; h] {| cloud_particle_count := count; cloud_position_variance := pv; cloud_heading_variance := hv |} model g in
  (count = 0%nat -> build = Err EsWeightsDegenerate) /\
  ((0 < count)%nat -> ~ (0 < pv /\ 0 < hv) -> build = Err EsNotPositiveDefinite) /\
  ((0 < count)%nat -> 0 < pv -> 0 < hv -> exists l, build = Ok l /\ ml_particle_count l = count /\ ml_beam_model l = model /\
    (forall i, (i < count)%nat -> nth i (pf_particles (ml_filter l)) [] =
      [x + sqrt pv * nth_draw normal (i * 3) g; y + sqrt pv * nth_draw normal (i * 3 + 1) g; h + sqrt hv * nth_draw normal (i * 3 + 2) g]) /\
    pf_weights (ml_filter l) = repeat (/ INR count) count /\ distribution (pf_weights (ml_filter l)) /\
    diagonal_root [1/10000; 1/10000; 1/10000] (pf_process_noise_factor (ml_filter l)) /\
    pf_random (ml_filter l) = later normal (count * 3) g /\
    pf_resampling (ml_filter l) = Systematic /\ pf_resample_threshold (ml_filter l) = INR count / 2 /\ pf_roughening (ml_filter l) = 0).
Proof.
  cbv zeta. unfold ml_new. cbn [cloud_particle_count cloud_position_variance cloud_heading_variance].
  destruct (diagonal_cholesky [pv; pv; hv]) as [CA CB].
  destruct (diagonal_cholesky (repeat (of_ratio 1 10000) 3)) as [NA _]. destruct NA as (q & NE & NR). { intros [|[|[|i]]] Hi; cbn; try lra; lia. }
  unfold pf_from_random. split; [intros ->; reflexivity|]. split.
  - intros P N. destruct count as [|c]; [lia|]. rewrite CB; [reflexivity|]. intros A. apply N. split; [apply (A 0%nat)|apply (A 2%nat)]; lia.
  - intros P P1 P2. destruct count as [|c]; [lia|]. destruct CA as (l & E & LR). { intros [|[|[|i]]] Hi; cbn; try assumption; lia. }
    rewrite E, NE. pose proof (scatter_spec normal 3 [x; y; h] l (S c) g) as (A & C & B). destruct (scatter normal 3 (S c) [x; y; h] l g) as [ps g1]. cbn [fst snd] in *.
    eexists. split; [reflexivity|]. cbn [ml_beam_model ml_filter pf_process_noise_factor pf_particles pf_weights pf_random pf_resampling pf_resample_threshold pf_roughening].
    assert (W : (one / of_nat (S c))%num = / INR (S c)) by (rewrite of_nat_R; cbn [div one Rnum]; unfold Rdiv; ring). rewrite W.
    unfold ml_particle_count. cbn [ml_filter pf_particles]. split; [exact A|]. split; [reflexivity|]. split.
    { intros i Hi. rewrite B by exact Hi. set (v := map _ (seq 0 3)).
      rewrite (diagonal_apply _ l v LR). unfold v. cbn [seq map vget nth vec_add map2 add Rnum]. rewrite Nat.add_0_r. reflexivity. }
    split; [reflexivity|]. split; [apply even_distribution; lia|]. split.
    { intros i j Hi Hj. rewrite NR by assumption. destruct (Nat.eqb i j); [|reflexivity]. reflexivity. }
    split; [exact C|]. split; [reflexivity|]. split; [|reflexivity]. rewrite of_nat_R. cbn [mul half Rnum]. unfold Rdiv. reflexivity.
Qed.

(** Setting the motion noise: a variance that is not positive is refused and nothing changes; otherwise only the noise changes. *)
Theorem C143_motion_noise Rng a b c (l : MonteCarloLocalizer R Rng) :
  (~ (0 < a /\ 0 < b /\ 0 < c) -> ml_set_motion_noise [a; b; c] l = (l, Err EsNotPositiveDefinite)) /\
  (0 < a -> 0 < b -> 0 < c -> exists factor, diagonal_root [a; b; c] factor /\ ml_set_motion_noise [a; b; c] l =
    ({| ml_filter := {| pf_particles := pf_particles (ml_filter l); pf_weights := pf_weights (ml_filter l); pf_process_noise_factor := factor;
                        pf_resampling := pf_resampling (ml_filter l); pf_resample_threshold := pf_resample_threshold (ml_filter l);
                        pf_roughening := pf_roughening (ml_filter l); pf_random := pf_random (ml_filter l) |};
        ml_beam_model := ml_beam_model l |}, Ok tt)).
Proof.
  unfold ml_set_motion_noise, pf_set_process_noise. destruct (diagonal_cholesky [a; b; c]) as [A B]. split.
  - intros N. rewrite B; [destruct l; reflexivity|]. intros P. apply N. split; [|split]; [apply (P 0%nat)|apply (P 1%nat)|apply (P 2%nat)]; lia.
  - intros P0 P1 P2. destruct A as (f & E & D); [intros [|[|[|i]]] Hi; cbn; try assumption; lia|]. exists f. rewrite E. split; [exact D|reflexivity].
Qed.

(** Moving: every guess travels the distance along its own heading and turns by the angle, counted within half a turn of zero, with
    its own three draws of noise added; nothing else changes. *)
Theorem C143_predict Rng (normal : Rng -> R * Rng) step turn vs (l : MonteCarloLocalizer R Rng) : diagonal_root vs (pf_process_noise_factor (ml_filter l)) ->
  let l' := fst (ml_predict normal step turn l) in
  snd (ml_predict normal step turn l) = Ok tt /\ ml_particle_count l' = ml_particle_count l /\ pf_weights (ml_filter l') = pf_weights (ml_filter l) /\ ml_beam_model l' = ml_beam_model l /\
  pf_random (ml_filter l') = later normal (ml_particle_count l * 3) (pf_random (ml_filter l)) /\
  forall i x y h, (i < ml_particle_count l)%nat -> nth i (pf_particles (ml_filter l)) [] = [x; y; h] -> exists k : Z,
    - PI <= h + turn - 2 * PI * IZR k <= PI /\
    nth i (pf_particles (ml_filter l')) [] =
      [x + step * cos h + sqrt (vget vs 0) * nth_draw normal (i * 3) (pf_random (ml_filter l));
       y + step * sin h + sqrt (vget vs 1) * nth_draw normal (i * 3 + 1) (pf_random (ml_filter l));
       h + turn - 2 * PI * IZR k + sqrt (vget vs 2) * nth_draw normal (i * 3 + 2) (pf_random (ml_filter l))].
Proof.
  intros D. unfold ml_predict, ml_particle_count. pose proof (C140_predict R Rnum Rng normal 3 (localization_motion step turn) (ml_filter l)) as (A & B & C & G & _ & _ & _ & _ & S).
  destruct (pf_predict _ _ _ _) as [f r]. cbn [fst snd ml_filter ml_beam_model] in *.
  split. { rewrite S. replace (forallb _ (pf_particles f)) with true; [reflexivity|]. symmetry. apply forallb_forall. intros p _. apply forallb_forall. intros q _. reflexivity. }
  split; [exact A|]. split; [exact C|]. split; [reflexivity|]. split; [exact G|].
  intros i x y h Hi E. rewrite B by exact Hi. rewrite E. destruct (C134_wrap (h + turn)) as (k & EW & BW). exists k. rewrite EW in BW. split; [exact BW|].
  set (v := map _ (seq 0 3)). set (m := pf_process_noise_factor (ml_filter l)) in *.
  rewrite (diagonal_apply _ m v D). unfold v, localization_motion. cbn [seq map vget nth vec_add map2 add mul Rnum Scalar.cos Scalar.sin]. rewrite Nat.add_0_r, EW. reflexivity.
Qed.

(** ** Scans *)

(** What a map shows along a beam: the distance to the first occupied square, or nothing within range.  A beam that only touches the
    edge of a square may count either way. *)
Definition shows (m : OccupancyMap XR) (ox oy res : R) (start : R * R) (bearing limit : R) (answer : option R) : Prop :=
  let occupied row column := (0 <= row < om_rows m)%Z /\ (0 <= column < om_columns m)%Z /\ om_is_occupied m row column = true in
  match answer with
  | Some d => 0 <= d <= limit /\ (exists row column, occupied row column /\ in_closed ox oy res row column (beam start bearing d)) /\
      (forall u row column, 0 <= u < d -> occupied row column -> ~ in_interior ox oy res row column (beam start bearing u))
  | None => forall u row column, 0 <= u <= limit -> occupied row column -> ~ in_interior ox oy res row column (beam start bearing u)
  end.
(** The score of one reading: a number between the two ranges is a distance, anything else means nothing was seen. *)
Definition reading (low high : R) (measured : XR) : option R :=
  match measured with Fin r => if Rle_dec low r then if Rle_dec r high then Some r else None else None | _ => None end.
Definition agreement (deviation reward penalty : R) (expected measured : option R) : R :=
  match expected, measured with
  | Some a, Some b => - (1/2) * ((a - b) / deviation)² | None, None => reward | _, _ => penalty end.

Lemma score_sum (f : nat -> XR -> XR) (v : nat -> R) (scan : list XR) s : (forall k, (k < length scan)%nat -> f (s + k)%nat (nth k scan XNaN) = Fin (v (s + k)%nat)) -> forall a,
  fold_left (fun score '(index, measured) => (score + f index measured)%num) (combine (seq s (length scan)) scan) (Fin a) = Fin (a + bsum (length scan) (fun k => v (s + k)%nat)).
Proof.
  revert s. induction scan as [|x scan IH]; intros s H a; [cbn; f_equal; ring|]. cbn [length seq combine fold_left].
  pose proof (H 0%nat ltac:(cbn; lia)) as H0. cbn [nth] in H0. rewrite Nat.add_0_r in H0. rewrite H0. cbn [add Xnum xadd].
  rewrite IH. { f_equal. rewrite bsum_first, Nat.add_0_r. rewrite (bsum_ext _ (fun k => v (s + S k)%nat) (fun k => v (S s + k)%nat)) by (intros; f_equal; lia). ring. }
  intros k Hk. specialize (H (S k) ltac:(cbn; lia)). cbn [nth] in H. replace (S s + k)%nat with (s + S k)%nat by lia. exact H.
Qed.
Lemma reading_valid g low high measured : sc_minimum_range g = Fin low -> sc_maximum_range g = Fin high ->
  range_is_valid g measured = match reading low high measured with Some _ => true | None => false end /\ (forall r, reading low high measured = Some r -> measured = Fin r).
Proof.
  intros L H. unfold range_is_valid. rewrite L, H. destruct measured as [r| | |]; cbn; [|split; [reflexivity|discriminate]..]. unfold Rleb.
  destruct (Rle_dec low r), (Rle_dec r high); cbn; (split; [reflexivity|]); intros q Q; congruence.
Qed.
Lemma beam_angle_fin num_beams g fov k : (2 <= num_beams)%nat -> sc_field_of_view g = Fin fov -> (k < num_beams)%nat ->
  beam_angle num_beams g k = Some (Fin (even_beam fov num_beams k)).
Proof.
  intros N F K. unfold beam_angle. rewrite (proj2 (Nat.ltb_lt _ _) K), F. f_equal. unfold beam_angle_across, of_nat. cbn [of_Z Xnum mul neg half xneg xmul add xadd div].
  assert (P : IZR (Z.of_nat (num_beams - 1)) <> 0) by (apply not_0_IZR; lia). rewrite xdiv_fin by exact P. cbn [xadd]. f_equal. unfold even_beam. rewrite !INR_IZR_INZ. field. exact P.
Qed.
Lemma cast_ray_shows m ox oy res sx sy bearing limit : om_resolution m = Fin res -> om_origin m = (Fin ox, Fin oy) -> 0 < res ->
  (0 <= om_columns m < 2 ^ 63)%Z -> (0 <= om_rows m < 2 ^ 63)%Z ->
  exists answer, cast_ray m (Fin sx, Fin sy) (Fin bearing) (Fin limit) = option_map Fin answer /\ shows m ox oy res (sx, sy) bearing limit answer.
Proof.
  intros E1 E2 P C R. pose proof (C37_first_obstacle m sx sy ox oy res bearing (Fin limit) E1 E2 P C R) as Q. cbv zeta in Q.
  destruct (cast_ray _ _ _ _) as [d|].
  - destruct Q as (r & -> & A & B & D & F). exists (Some r). split; [reflexivity|]. cbn. auto.
  - exists None. split; [reflexivity|]. intros u row column U O. apply Q; [apply U|apply U|exact O].
Qed.

Definition seen (m : OccupancyMap XR) (x y bearing high : R) : option R :=
  match cast_ray m (Fin x, Fin y) (Fin bearing) (Fin high) with Some (Fin d) => Some d | _ => None end.
Lemma score_seen m ox oy res num_beams g fov low high model deviation reward penalty (scan : list XR) x y h :
  om_resolution m = Fin res -> om_origin m = (Fin ox, Fin oy) -> 0 < res -> (0 <= om_columns m < 2 ^ 63)%Z -> (0 <= om_rows m < 2 ^ 63)%Z ->
  (2 <= num_beams)%nat -> sc_field_of_view g = Fin fov -> sc_minimum_range g = Fin low -> sc_maximum_range g = Fin high ->
  model = {| bm_range_deviation := Fin deviation; bm_agreement_reward := Fin reward; bm_mismatch_penalty := Fin penalty |} -> deviation <> 0 -> length scan = num_beams ->
  let expected k := seen m x y (h + even_beam fov num_beams k) high in
    (forall k, (k < num_beams)%nat -> shows m ox oy res (x, y) (h + even_beam fov num_beams k) high (expected k)) /\
    scan_score num_beams scan m g model [Fin x; Fin y; Fin h] =
      Fin (bsum num_beams (fun k => agreement deviation reward penalty (expected k) (reading low high (nth k scan XNaN)))).
Proof.
  intros E1 E2 P C R N F L H -> DV LS expected. split.
  - intros k Hk. destruct (cast_ray_shows m ox oy res x y (h + even_beam fov num_beams k) high E1 E2 P C R) as (a & E & S). unfold expected, seen. rewrite E. destruct a; exact S.
  - unfold scan_score. change (@zero XR Xnum) with (Fin 0). subst num_beams.
    set (ff := fun (k : nat) (measured : XR) => beam_score (cast_ray m (Fin x, Fin y) (Fin (h + even_beam fov (length scan) k)) (Fin high)) measured (range_is_valid g measured)
       {| bm_range_deviation := Fin deviation; bm_agreement_reward := Fin reward; bm_mismatch_penalty := Fin penalty |}).
    transitivity (fold_left (fun score '(index, measured) => (score + ff index measured)%num) (combine (seq 0 (length scan)) scan) (Fin 0)).
    + assert (Q : forall l a, (forall p, In p l -> (fst p < length scan)%nat) -> fold_left (fun score '(index, measured) => match beam_angle (length scan) g index with
        | None => score | Some offset => (score + beam_score (cast_ray m (vget [Fin x; Fin y; Fin h] 0, vget [Fin x; Fin y; Fin h] 1) (vget [Fin x; Fin y; Fin h] 2 + offset) (sc_maximum_range g)) measured (range_is_valid g measured)
          {| bm_range_deviation := Fin deviation; bm_agreement_reward := Fin reward; bm_mismatch_penalty := Fin penalty |})%num end) l a
        = fold_left (fun score '(index, measured) => (score + ff index measured)%num) l a).
      { induction l as [|[k z] l IH]; intros a I; [reflexivity|]. cbn [fold_left]. rewrite (beam_angle_fin _ g fov k N F (I (k, z) (or_introl eq_refl))). rewrite IH by (intros p Hp; apply I; right; exact Hp). f_equal. unfold ff. rewrite H. reflexivity. }
      apply Q. intros [k z] I. apply in_combine_l, in_seq in I. cbn. lia.
    + rewrite (score_sum ff (fun k => agreement deviation reward penalty (expected k) (reading low high (nth k scan XNaN)))).
      * cbn. f_equal. ring.
      * intros k Hk. cbn [Nat.add]. unfold ff, expected, seen. destruct (cast_ray_shows m ox oy res x y (h + even_beam fov (length scan) k) high E1 E2 P C R) as (a & -> & _).
        destruct (reading_valid g low high (nth k scan XNaN) L H) as [-> V]. destruct (reading low high (nth k scan XNaN)) as [r|]; [rewrite (V r eq_refl)|];
          destruct a as [d|]; cbn [option_map beam_score agreement bm_range_deviation bm_agreement_reward bm_mismatch_penalty]; try reflexivity.
        cbn [sub div mul of_ratio Xnum xadd xneg]. rewrite xdiv_fin by exact DV. cbn. f_equal. unfold Rsqr. field. exact DV.
Qed.

(** What a scan is worth at a pose: beam by beam, what the map shows in the beam's direction is compared with the reading. *)
Theorem C143_score m ox oy res num_beams g fov low high model deviation reward penalty (scan : list XR) x y h :
  om_resolution m = Fin res -> om_origin m = (Fin ox, Fin oy) -> 0 < res -> (0 <= om_columns m < 2 ^ 63)%Z -> (0 <= om_rows m < 2 ^ 63)%Z ->
  (2 <= num_beams)%nat -> sc_field_of_view g = Fin fov -> sc_minimum_range g = Fin low -> sc_maximum_range g = Fin high ->
  model = {| bm_range_deviation := Fin deviation; bm_agreement_reward := Fin reward; bm_mismatch_penalty := Fin penalty |} -> deviation <> 0 -> length scan = num_beams ->
  exists expected : nat -> option R,
    (forall k, (k < num_beams)%nat -> shows m ox oy res (x, y) (h + even_beam fov num_beams k) high (expected k)) /\
    scan_score num_beams scan m g model [Fin x; Fin y; Fin h] =
      Fin (bsum num_beams (fun k => agreement deviation reward penalty (expected k) (reading low high (nth k scan XNaN)))).
Proof. intros E1 E2 P C R N F L H BM DV LS. eexists. exact (score_seen m ox oy res num_beams g fov low high model deviation reward penalty scan x y h E1 E2 P C R N F L H BM DV LS). Qed.

(** A scan: the new weight of each guess is its old weight times the exponential of what the scan is worth there, scaled so that the
    weights sum to one; the guesses are drawn anew exactly when the effective number of samples falls below the threshold. *)
Theorem C143_update Rng (nu : Rng -> R * Rng) (nn : Rng -> XR * Rng) m ox oy res num_beams g fov low high deviation reward penalty (scan : list XR) (l : MonteCarloLocalizer XR Rng) w (pose : nat -> R * R * R) :
  om_resolution m = Fin res -> om_origin m = (Fin ox, Fin oy) -> 0 < res -> (0 <= om_columns m < 2 ^ 63)%Z -> (0 <= om_rows m < 2 ^ 63)%Z ->
  (2 <= num_beams)%nat -> sc_field_of_view g = Fin fov -> sc_minimum_range g = Fin low -> sc_maximum_range g = Fin high ->
  ml_beam_model l = {| bm_range_deviation := Fin deviation; bm_agreement_reward := Fin reward; bm_mismatch_penalty := Fin penalty |} -> deviation <> 0 -> length scan = num_beams ->
  ready (ml_filter l) w -> (forall i, (i < length w)%nat -> nth i (pf_particles (ml_filter l)) [] = [Fin (fst (fst (pose i))); Fin (snd (fst (pose i))); Fin (snd (pose i))]) ->
  exists expected : nat -> nat -> option R,
    (forall i k, (i < length w)%nat -> (k < num_beams)%nat -> shows m ox oy res (fst (pose i)) (snd (pose i) + even_beam fov num_beams k) high (expected i k)) /\
    let worth i := bsum num_beams (fun k => agreement deviation reward penalty (expected i k) (reading low high (nth k scan XNaN))) in
    let w' := posteriors least w (fun i => exp (worth i)) in
    let f' := pf_with_cloud (ml_filter l) (pf_particles (ml_filter l)) (map Fin w') (pf_random (ml_filter l)) in
    let answer := ml_update (lifted nu) nn num_beams scan m g l in
    snd answer = Ok tt /\ ml_beam_model (fst answer) = ml_beam_model l /\ ready f' w' /\
    let few := xlt (Fin (/ bsum (length w) (fun i => weight w' i * weight w' i))) (pf_resample_threshold (ml_filter l)) in
    (few = false -> ml_filter (fst answer) = f') /\
    (few = true -> refreshed nu f' w' (ml_filter (fst answer))).
Proof.
  intros E1 E2 P C R N F L H BM DV LS RF PO.
  set (expected := fun i k => seen m (fst (fst (pose i))) (snd (fst (pose i))) (snd (pose i) + even_beam fov num_beams k) high).
  assert (Q : forall i, (forall k, (k < num_beams)%nat -> shows m ox oy res (fst (pose i)) (snd (pose i) + even_beam fov num_beams k) high (expected i k)) /\
    scan_score num_beams scan m g (ml_beam_model l) [Fin (fst (fst (pose i))); Fin (snd (fst (pose i))); Fin (snd (pose i))] =
      Fin (bsum num_beams (fun k => agreement deviation reward penalty (expected i k) (reading low high (nth k scan XNaN))))).
  { intros i. unfold expected. destruct (pose i) as [[x y] h]. exact (score_seen m ox oy res num_beams g fov low high _ deviation reward penalty scan x y h E1 E2 P C R N F L H BM DV LS). }
  exists expected. split; [intros i k _ Hk; apply Q, Hk|]. cbv zeta. set (worth := fun i => bsum num_beams _).
  destruct (C139_bayes nu nn 3 (fun _ => scan_score num_beams scan m g (ml_beam_model l)) (ml_filter l) w (fun i => exp (worth i)) RF) as [_ B].
  { intros i _. apply Rlt_le, exp_pos. }
  { intros i Hi. rewrite PO by exact Hi. rewrite (proj2 (Q i)). rewrite log_of_pos, ln_exp by apply exp_pos. reflexivity. }
  destruct (not_empty w (proj1 (proj2 RF))) as [_ LW]. specialize (B ltac:(exists 0%nat; split; [exact LW|apply exp_pos])). cbv zeta in B. destruct B as (R1 & OK & A & B).
  unfold ml_update. destruct (pf_update_with_log_weights _ _ _ _ _) as [f2 r]. cbn [fst snd ml_filter ml_beam_model] in *.
  split; [exact OK|]. split; [reflexivity|]. split; [exact R1|].
  rewrite (bsum_ext (length w) _ (fun i => posterior least w (fun i => exp (worth i)) i * posterior least w (fun i => exp (worth i)) i)); [split; assumption|].
  intros i Hi. assert (E : weight (posteriors least w (fun i => exp (worth i))) i = posterior least w (fun i => exp (worth i)) i); [|rewrite E; reflexivity].
  unfold weight, posteriors. rewrite (nth_indep _ 0 (posterior least w (fun i => exp (worth i)) 0)) by (rewrite map_length, seq_length; exact Hi). rewrite map_nth, seq_nth by exact Hi. reflexivity.
Qed.

(** ** The estimate *)

(** The mean of a quantity over the weighted guesses. *)
Definition average (w : list R) (f : nat -> R) : R := bsum (length w) (fun i => weight w i * f i).
Lemma average_const w c : distribution w -> average w (fun _ => c) = c.
Proof. intros [_ S]. unfold average. rewrite (bsum_ext _ _ (fun i => c * weight w i)) by (intros; ring). rewrite bsum_scal, S. ring. Qed.
Lemma average_plus w f g : average w (fun i => f i + g i) = average w f + average w g.
Proof. unfold average. rewrite <- bsum_plus. apply bsum_ext. intros; ring. Qed.
Lemma average_scal w c f : average w (fun i => c * f i) = c * average w f.
Proof. unfold average. rewrite <- bsum_scal. apply bsum_ext. intros; ring. Qed.
Lemma average_ext w f g : (forall i, (i < length w)%nat -> f i = g i) -> average w f = average w g.
Proof. intros H. apply bsum_ext. intros i Hi. rewrite H by exact Hi. reflexivity. Qed.
Lemma average_le w f g : distribution w -> (forall i, (i < length w)%nat -> f i <= g i) -> average w f <= average w g.
Proof. intros [D _] H. apply bsum_le. intros i Hi. apply Rmult_le_compat_l; [apply D|apply H, Hi]. Qed.
Lemma average_same w f c : distribution w -> (forall i, (i < length w)%nat -> weight w i <> 0 -> f i = c) -> average w f = c.
Proof.
  intros D H. rewrite <- (average_const w c D). apply bsum_ext. intros i Hi. destruct (Req_dec (weight w i) 0) as [->|N]; [ring|]. rewrite H by assumption. reflexivity.
Qed.

(** A localizer whose guesses are the poses [x i], [y i], [h i], weighted by [w]. *)
Definition holds {Rng} (l : MonteCarloLocalizer R Rng) (w : list R) (x y h : nat -> R) : Prop :=
  pf_weights (ml_filter l) = w /\ distribution w /\ length (pf_particles (ml_filter l)) = length w /\
  forall i, (i < length w)%nat -> nth i (pf_particles (ml_filter l)) [] = [x i; y i; h i].

Lemma cloud_sum_R Rng (l : MonteCarloLocalizer R Rng) w x y h term f : holds l w x y h -> (forall i, term [x i; y i; h i] (weight w i) = weight w i * f i) ->
  cloud_sum term l = average w f.
Proof.
  intros (W & D & L & P) H. unfold cloud_sum, average. rewrite W.
  transitivity (bsum (length w) (fun i => term (nth i (pf_particles (ml_filter l)) []) (weight w i))).
  - rewrite <- (fold_combine term _ _ L). cbn [zero Rnum]. generalize (combine (pf_particles (ml_filter l)) w). generalize 0. intros a k. revert a.
    induction k as [|[p v] k IH]; intros a; [reflexivity|]. cbn [fold_left fst snd]. apply IH.
  - apply bsum_ext. intros i Hi. rewrite P by exact Hi. apply H.
Qed.

(** The position is the mean of the positions.  The heading is an angle in (-pi, pi], and [rho], between zero and one, is how far the
    headings agree: against any direction [a], they agree on average as a heading of length [rho] would.  The spread holds the
    variances and the covariance of the position; that of the heading is [2 (1 - rho)], but at least a millionth. *)
Theorem C143_estimate Rng (l : MonteCarloLocalizer R Rng) w x y h : holds l w x y h ->
  exists heading rho, let mx := average w x in let my := average w y in
    fst (ml_estimate l) = [mx; my; heading] /\ - PI < heading <= PI /\ 0 <= rho <= 1 /\
    (forall a, average w (fun i => cos (h i - a)) = rho * cos (heading - a)) /\
    snd (ml_estimate l) =
      [[average w (fun i => (x i - mx)²); average w (fun i => (x i - mx) * (y i - my)); 0];
       [average w (fun i => (x i - mx) * (y i - my)); average w (fun i => (y i - my)²); 0];
       [0; 0; Rmax (2 * (1 - rho)) (1/1000000)]].
Proof.
  intros H. pose proof H as (W & D & L & P).
  set (mx := average w x). set (my := average w y). set (s := average w (fun i => sin (h i))). set (c := average w (fun i => cos (h i))).
  exists (Ratan2 s c), (sqrt (s * s + c * c)). cbv zeta.
  assert (EX : cloud_sum (fun guess weight => weight * vget guess 0)%num l = mx) by (apply (cloud_sum_R Rng l w x y h _ _ H); reflexivity).
  assert (EY : cloud_sum (fun guess weight => weight * vget guess 1)%num l = my) by (apply (cloud_sum_R Rng l w x y h _ _ H); reflexivity).
  assert (ES : cloud_sum (fun guess weight => weight * Scalar.sin (vget guess 2))%num l = s) by (apply (cloud_sum_R Rng l w x y h _ _ H); reflexivity).
  assert (EC : cloud_sum (fun guess weight => weight * Scalar.cos (vget guess 2))%num l = c) by (apply (cloud_sum_R Rng l w x y h _ _ H); reflexivity).
  assert (EXX : cloud_sum (fun guess weight => weight * (vget guess 0 - mx) * (vget guess 0 - mx)) l = average w (fun i => (x i - mx)²)) by (apply (cloud_sum_R Rng l w x y h _ _ H); intros i; unfold Rsqr; cbn; ring).
  assert (EYY : cloud_sum (fun guess weight => weight * (vget guess 1 - my) * (vget guess 1 - my)) l = average w (fun i => (y i - my)²)) by (apply (cloud_sum_R Rng l w x y h _ _ H); intros i; unfold Rsqr; cbn; ring).
  assert (EXY : cloud_sum (fun guess weight => weight * (vget guess 0 - mx) * (vget guess 1 - my)) l = average w (fun i => (x i - mx) * (y i - my))) by (apply (cloud_sum_R Rng l w x y h _ _ H); intros i; cbn; ring).
  destruct (polar_form c s) as [A B]. unfold hyp in A, B. rewrite (Rplus_comm (c * c)) in A, B. set (rho := sqrt (s * s + c * c)) in *.
  assert (T : forall a, average w (fun i => cos (h i - a)) = rho * cos (Ratan2 s c - a)).
  { intros a. rewrite cos_minus, (average_ext _ _ (fun i => cos a * cos (h i) + sin a * sin (h i))) by (intros; rewrite cos_minus; ring).
    rewrite average_plus, !average_scal. fold s c. transitivity (cos a * (rho * cos (Ratan2 s c)) + sin a * (rho * sin (Ratan2 s c))); [rewrite <- A, <- B; reflexivity|ring]. }
  assert (RB : 0 <= rho <= 1).
  { split; [apply sqrt_pos|]. specialize (T (Ratan2 s c)). rewrite Rminus_eq_0, cos_0, Rmult_1_r in T. rewrite <- T. pose proof (average_const w 1 D) as A1. rewrite <- A1. apply average_le; [exact D|]. intros i _. apply COS_bound. }
  unfold ml_estimate. rewrite EX, EY, ES, EC. cbn [fst snd atan2 Rnum]. split; [reflexivity|]. split; [apply atan2_range|]. split; [exact RB|]. split; [exact T|].
  unfold mat_fn. cbn [from_fn seq map]. cbn [min max hypot sub mul one two zero of_ratio Rnum]. fold rho. rewrite Rmin_left by lra.
  rewrite EXX, EYY, EXY.
  replace ((1 - rho) * 2) with (2 * (1 - rho)) by ring. reflexivity.
Qed.

(** No direction agrees with the headings better than the heading, and no place is nearer to the positions than the position: the mean
    squared distance to any place is the spread plus the squared distance of the two. *)
Theorem C143_best Rng (l : MonteCarloLocalizer R Rng) w x y h : holds l w x y h ->
  (forall a, average w (fun i => cos (h i - a)) <= average w (fun i => cos (h i - vget (fst (ml_estimate l)) 2))) /\
  (forall px py, average w (fun i => (x i - px)² + (y i - py)²) =
    mget (snd (ml_estimate l)) 0 0 + mget (snd (ml_estimate l)) 1 1 + (vget (fst (ml_estimate l)) 0 - px)² + (vget (fst (ml_estimate l)) 1 - py)²).
Proof.
  intros H. pose proof H as (W & D & L & P). destruct (C143_estimate Rng l w x y h H) as (heading & rho & E & _ & RB & T & S). rewrite E, S. cbn [vget nth mget]. split.
  - intros a. rewrite !T. rewrite Rminus_eq_0, cos_0. pose proof (COS_bound (heading - a)). nra.
  - intros px py. set (mx := average w x). set (my := average w y). cbn [vget mget nth].
    assert (V : forall f p, average w (fun i => (f i - p)²) = average w (fun i => (f i - average w f)²) + (average w f - p)²).
    { intros f p. set (m := average w f). rewrite (average_ext _ (fun i => (f i - p)²) (fun i => (f i - m)² + (2 * (m - p) * f i + (- (2 * (m - p) * m) + (m - p)²)))) by (intros; unfold Rsqr; ring).
      rewrite !average_plus, average_scal. fold m. rewrite !(average_const w _ D). ring. }
    rewrite average_plus, V, (V y py). unfold mx, my. ring.
Qed.

(** The spread is that of some cloud: symmetric, with no direction of negative variance, and never certain about the heading. *)
Theorem C143_spread Rng (l : MonteCarloLocalizer R Rng) w x y h : holds l w x y h ->
  let s := snd (ml_estimate l) in shape 3 3 s /\ symmetric 3 (mget s) /\
  (forall v, 0 <= dot_product 3 v (times 3 (mget s) v)) /\ 1/1000000 <= mget s 2 2 <= 2.
Proof.
  intros H. pose proof H as (W & D & L & P). cbv zeta. destruct (C143_estimate Rng l w x y h H) as (heading & rho & _ & _ & RB & _ & ->).
  set (mx := average w x). set (my := average w y). set (k := Rmax _ _). assert (K : 1/1000000 <= k <= 2) by (unfold k; split; [apply Rmax_r|apply Rmax_lub; lra]).
  split. { split; [reflexivity|]. intros [|[|[|i]]] Hi; cbn; try reflexivity; lia. }
  split. { intros [|[|[|i]]] [|[|[|j]]] Hi Hj; try lia; reflexivity. }
  split; [|exact K]. intros v. unfold dot_product, times. cbn [bsum mget vget nth].
  assert (Q : 0 <= average w (fun i => (v 0%nat * (x i - mx) + v 1%nat * (y i - my))²)).
  { rewrite <- (average_const w 0 D). apply average_le; [exact D|]. intros; apply Rle_0_sqr. }
  rewrite (average_ext _ (fun i => (v 0%nat * (x i - mx) + v 1%nat * (y i - my))²) (fun i => (v 0%nat)² * (x i - mx)² + (2 * v 0%nat * v 1%nat * ((x i - mx) * (y i - my)) + (v 1%nat)² * (y i - my)²))) in Q by (intros; unfold Rsqr; ring).
  rewrite !average_plus, !average_scal in Q. unfold Rsqr in Q. pose proof (Rle_0_sqr (v 2%nat)) as V2. unfold Rsqr in *. nra.
Qed.

(** A cloud whose guesses all agree — those of weight zero aside — is estimated where it is, with no spread but the millionth. *)
Theorem C143_agreed Rng (l : MonteCarloLocalizer R Rng) w x y h x0 y0 h0 : holds l w x y h ->
  (forall i, (i < length w)%nat -> weight w i <> 0 -> x i = x0 /\ y i = y0 /\ cos (h i) = cos h0 /\ sin (h i) = sin h0) ->
  exists heading, fst (ml_estimate l) = [x0; y0; heading] /\ cos heading = cos h0 /\ sin heading = sin h0 /\ - PI < heading <= PI /\
    snd (ml_estimate l) = [[0; 0; 0]; [0; 0; 0]; [0; 0; 1/1000000]].
Proof.
  intros H A. pose proof H as (W & D & L & P). destruct (C143_estimate Rng l w x y h H) as (heading & rho & E & HB & RB & T & S). cbv zeta in *.
  assert (MX : average w x = x0) by (apply average_same; [exact D|]; intros i Hi N; apply (A i Hi N)). assert (MY : average w y = y0) by (apply average_same; [exact D|]; intros i Hi N; apply (A i Hi N)).
  rewrite MX, MY in *. assert (TT : forall a, cos (h0 - a) = rho * cos (heading - a)).
  { intros a. rewrite <- T. symmetry. apply average_same; [exact D|]. intros i Hi N. rewrite !cos_minus. destruct (A i Hi N) as (_ & _ & -> & ->). reflexivity. }
  pose proof (TT h0) as T1. pose proof (TT heading) as T2. rewrite Rminus_eq_0, cos_0 in T1, T2. pose proof (COS_bound (heading - h0)) as CB. assert (rho = 1) by nra. subst rho.
  pose proof (TT 0) as C. pose proof (TT (PI/2)) as SI. rewrite !Rminus_0_r, Rmult_1_l in C. rewrite !cos_minus, cos_PI2, sin_PI2 in SI.
  exists heading. split; [exact E|]. split; [lra|]. split; [lra|]. split; [exact HB|]. rewrite S. rewrite Rmax_right by lra.
  rewrite (average_same w (fun i => (x i - x0)²) 0 D), (average_same w (fun i => (y i - y0)²) 0 D), (average_same w (fun i => (x i - x0) * (y i - y0)) 0 D); [reflexivity|..];
    intros i Hi N; destruct (A i Hi N) as (AX & AY & _); rewrite ?AX, ?AY; unfold Rsqr; ring.
Qed.

(** Converged: the mean squared distance from the mean position, and the spread of the headings, are below the limits.  A heading limit
    of a millionth or less is never met. *)
Theorem C143_converged Rng (l : MonteCarloLocalizer R Rng) w x y h a b : holds l w x y h ->
  (ml_is_converged a b l = true <->
    average w (fun i => (x i - average w x)² + (y i - average w y)²) < a /\ 1/1000000 < b /\ 1 - b / 2 < average w (fun i => cos (h i - vget (fst (ml_estimate l)) 2))).
Proof.
  intros H. destruct (C143_best Rng l w x y h H) as [_ BP]. destruct (C143_estimate Rng l w x y h H) as (heading & rho & E & _ & RB & T & S). cbv zeta in *.
  unfold ml_is_converged. rewrite E, S in *. cbn [vget mget nth] in *. rewrite (BP (average w x) (average w y)). rewrite T, !Rminus_eq_0, Rsqr_0, cos_0, !Rplus_0_r, Rmult_1_r.
  cbn [ltb add Rnum]. rewrite andb_true_iff, !Rltb_true. unfold Rmax. destruct (Rle_dec _ _); intuition lra.
Qed.

(** A concrete case: two guesses a metre apart that face opposite ways across the mark where headings wrap, equally weighted. *)
Example C143_example : exists l : MonteCarloLocalizer R unit, holds l [1/2; 1/2] (fun i => INR i) (fun _ => 3) (fun i => if Nat.eqb i 0 then PI else - PI) /\
  fst (ml_estimate l) = [1/2; 3; PI] /\ mget (snd (ml_estimate l)) 0 0 = 1/4 /\ ml_is_converged 1 (1/10) l = true.
Proof.
  set (f := {| pf_particles := [[0; 3; PI]; [1; 3; - PI]]; pf_weights := [1/2; 1/2]; pf_process_noise_factor := [[1; 0; 0]; [0; 1; 0]; [0; 0; 1]]; pf_resampling := Systematic;
     pf_resample_threshold := 1; pf_roughening := 0; pf_random := tt |}).
  set (l := {| ml_filter := f; ml_beam_model := beam_model_default |}). exists l.
  assert (H : holds l [1/2; 1/2] (fun i => INR i) (fun _ => 3) (fun i => if Nat.eqb i 0 then PI else - PI)).
  { split; [reflexivity|]. split; [split; [intros [|[|[|i]]]; unfold weight; cbn; lra|unfold weight; cbn; lra]|]. split; [reflexivity|]. intros [|[|i]] Hi; cbn in *; try reflexivity. lia. }
  split; [exact H|]. destruct (C143_estimate _ l _ _ _ _ H) as (heading & rho & E & HB & RB & T & S). cbv zeta in *.
  assert (TT : forall a, average [1/2; 1/2] (fun i => cos ((if Nat.eqb i 0 then PI else - PI) - a)) = - cos a).
  { intros a. unfold average, weight. cbn. rewrite !cos_minus, cos_neg, sin_neg, cos_PI, sin_PI. field. }
  pose proof (T PI) as T1. pose proof (T heading) as T2. rewrite TT in T1, T2. rewrite cos_PI, cos_minus, cos_PI, sin_PI in T1. rewrite Rminus_eq_0, cos_0 in T2.
  assert (rho = 1) by nra. subst rho. assert (CH : cos heading = -1) by lra. 
  assert (HP : heading = PI).
  { apply angle_unique; [exact HB|pose proof PI_RGT_0; lra|rewrite cos_PI; exact CH|]. rewrite sin_PI. pose proof (sin2_cos2 heading) as Q. unfold Rsqr in Q. rewrite CH in Q. nra. }
  subst heading. assert (X : average [1/2; 1/2] (fun i => INR i) = 1/2) by (unfold average, weight; cbn; lra). assert (Y : average [1/2; 1/2] (fun _ => 3) = 3) by (unfold average, weight; cbn; lra).
  rewrite X, Y in *. split; [exact E|]. rewrite S. split; [unfold average, weight, Rsqr; cbn; lra|].
  apply (C143_converged _ l _ _ _ _ 1 (1/10) H). rewrite E, X, Y. cbn [vget nth]. rewrite TT, cos_PI. unfold average, weight, Rsqr. cbn. lra.
Qed.

Print Assumptions C143_new.
Print Assumptions C143_motion_noise.
Print Assumptions C143_predict.
Print Assumptions C143_score.
Print Assumptions C143_update.
Print Assumptions C143_estimate.
Print Assumptions C143_best.
Print Assumptions C143_spread.
Print Assumptions C143_agreed.
Print Assumptions C143_converged.
