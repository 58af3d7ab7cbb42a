(** C01-C05: the random generator. *)
From Coq Require Import ZArith NArith List Bool Reals Lra Lia.
From Flocq Require Import Core IEEE754.BinarySingleNaN.
From Verif Require Import Base.Scalar Base.FNum Model.Random Spec.Random Proofs.Random.
Local Open Scope Z_scope.

(** ** C01 *)

(** Two moments of a run are the same generator exactly when they are a multiple of 2^64 draws apart. *)
Theorem C01_pcg_period : forall (T : Type) (seed stream : Z) (n m : N),
  let g := @with_stream T seed stream in
  after n g = after m g <-> (n mod 2 ^ 64 = m mod 2 ^ 64)%N.
Proof. intros T seed stream n m g. exact (after_eq n m g (with_stream_wf seed stream)). Qed.

(** Every 64-bit state is visited within one period. *)
Theorem C01_pcg_visits_all : forall (T : Type) (seed stream y : Z), is_u64 y ->
  exists n, (n < 2 ^ 64)%N /\ state (after n (@with_stream T seed stream)) = y.
Proof. intros T seed stream y. exact (after_surj _ y (with_stream_wf seed stream)). Qed.

(** An observable consequence: every 32-bit word is drawn. *)
Theorem C01_pcg_draws_every_word : forall (T : Type) (seed stream w : Z), 0 <= w < 2 ^ 32 ->
  exists n, (n < 2 ^ 64)%N /\ draw n (@with_stream T seed stream) = w.
Proof. intros T seed stream w. exact (word_drawn _ w (with_stream_wf seed stream)). Qed.

Example C01_example : is_u64 1234567890123456789 /\ (5 mod 2 ^ 64 <> 7 mod 2 ^ 64)%N.
Proof. split; [unfold is_u64; lia|]. discriminate. Qed.

(** ** C02 *)
Theorem C02_draw_ranges : forall (T : Type) (seed stream : Z) (n : N),
  let g := after n (@with_stream T seed stream) in
  0 <= fst (next_u32 g) < 2 ^ 32 /\ is_u64 (state g) /\ is_u64 (increment g) /\
  0 <= fst (next_u64 g) < 2 ^ 64.
Proof.
  intros T seed stream n g. pose proof (after_wf n _ (@with_stream_wf T seed stream)) as (H1 & H2 & _).
  repeat split; try apply next_u32_range; try apply next_u64_range; apply H1 || apply H2.
Qed.

Theorem C02_u64_is_two_draws : forall (T : Type) (g : Pcg32 T),
  fst (next_u64 g) = draw 0 g * 2 ^ 32 + draw 1 g /\ snd (next_u64 g) = after 2 g.
Proof. intros T g. exact (next_u64_words g). Qed.

(** Drawing is a run along one sequence: the [m]-th draw after [n] draws is draw [m + n]. *)
Theorem C02_draws_form_one_sequence : forall (T : Type) (g : Pcg32 T) (n m : N),
  draw m (after n g) = draw (m + n) g.
Proof. intros T g n m. unfold draw. rewrite after_add. reflexivity. Qed.

(** First words of the reference PCG32 run (seed 42, stream 54): 0xa15c02b7, 0x7b47f409. *)
Example C02_example :
  draw 0 (@with_stream unit 42 54) = 2707161783 /\ draw 1 (@with_stream unit 42 54) = 2068313097.
Proof. split; vm_compute; reflexivity. Qed.

(** ** C03: refuted, the top bit of the stream is dropped *)
Theorem C03_streams_distinct_refuted : exists (s1 s2 : Z), is_u64 s1 /\ is_u64 s2 /\ s1 <> s2 /\
  forall (T : Type) (seed : Z), @with_stream T seed s1 = with_stream seed s2.
Proof.
  exists 7, (u64 (7 + 2 ^ 63)). split; [unfold is_u64; lia|]. split; [apply u64_range|].
  split; [discriminate|]. intros T seed. symmetry. exact (streams_alias seed 7).
Qed.

(** In fact every stream has such a twin. *)
Theorem C03_every_stream_has_a_twin : forall (T : Type) (seed stream : Z),
  @with_stream T seed (u64 (stream + 2 ^ 63)) = with_stream seed stream.
Proof. intros T seed stream. exact (streams_alias seed stream). Qed.

(** What does hold: streams that differ in their low 63 bits give generators that never coincide,
    whatever the seeds and however many draws were made on each.  Missing from the full claim: that
    the sequences of words themselves differ. *)
Theorem C03_streams_distinct_partial : forall (T : Type) (seed seed' s1 s2 : Z) (n m : N),
  s1 mod 2 ^ 63 <> s2 mod 2 ^ 63 ->
  after n (@with_stream T seed s1) <> after m (with_stream seed' s2).
Proof. intros T seed seed' s1 s2 n m. exact (streams_differ seed s1 seed' s2 n m). Qed.

Example C03_example : 54 mod 2 ^ 63 <> 55 mod 2 ^ 63 /\
  draw 0 (@with_stream unit 42 54) <> draw 0 (@with_stream unit 42 55).
Proof. split; vm_compute; discriminate. Qed.

(** ** C04 *)
Theorem C04_unit_f64 : forall (g : Pcg32 f64),
  let u := fst (next_unit_f64 g) in
  ffinite u = true /\ (0 <= B2R u < 1)%R /\
  B2R u = (IZR (fst (next_u64 g) / 2 ^ 11) / IZR (2 ^ 53))%R /\
  snd (next_unit_f64 g) = after 2 g.
Proof.
  intros g u. destruct (unit_f64 g) as (Hk & Hf & Hv & Hs). fold u in Hf, Hv.
  rewrite Hs, next_u64_after, Hv.
  split; [exact Hf|]. split; [|split; reflexivity].
  set (k := fst (next_u64 g) / 2 ^ 11) in *.
  assert (0 <= IZR k)%R by (apply (IZR_le 0); lia).
  assert (IZR k < IZR (2 ^ 53))%R by (apply IZR_lt; lia).
  assert (0 < IZR (2 ^ 53))%R by (apply (IZR_lt 0); lia).
  split.
  - apply Rmult_le_pos; [assumption|]. left. apply Rinv_0_lt_compat. assumption.
  - apply Rmult_lt_reg_r with (IZR (2 ^ 53)); [assumption|]. unfold Rdiv.
    rewrite Rmult_assoc, Rinv_l by lra. lra.
Qed.

Theorem C04_unit_f32 : forall (g : Pcg32 f32),
  let u := fst (next_unit_f32 g) in
  ffinite u = true /\ (0 <= B2R u < 1)%R /\
  B2R u = (IZR (fst (next_u32 g) / 2 ^ 8) / IZR (2 ^ 24))%R /\
  snd (next_unit_f32 g) = after 1 g.
Proof.
  intros g u. destruct (unit_f32 g) as (Hk & Hf & Hv & Hs). fold u in Hf, Hv.
  rewrite Hs, Hv.
  split; [exact Hf|]. split; [|split; reflexivity].
  set (k := fst (next_u32 g) / 2 ^ 8) in *.
  assert (0 <= IZR k)%R by (apply (IZR_le 0); lia).
  assert (IZR k < IZR (2 ^ 24))%R by (apply IZR_lt; lia).
  assert (0 < IZR (2 ^ 24))%R by (apply (IZR_lt 0); lia).
  split.
  - apply Rmult_le_pos; [assumption|]. left. apply Rinv_0_lt_compat. assumption.
  - apply Rmult_lt_reg_r with (IZR (2 ^ 24)); [assumption|]. unfold Rdiv.
    rewrite Rmult_assoc, Rinv_l by lra. lra.
Qed.

(** The largest draw an f64 generator can make is strictly below one: the word with all bits set. *)
Example C04_example : (Z.shiftr (2 ^ 64 - 1) 11 = 2 ^ 53 - 1)%Z.
Proof. reflexivity. Qed.

(** ** C05 *)

(** With an empty cache a call returns exactly when some pair of uniform draws is accepted; it then
    uses the first such pair, hands back its first value and keeps its second. *)
Theorem C05_normal_uses_first_accepted_pair :
  forall (T : Type) (NT : Num T) (next_unit : Pcg32 T -> T * Pcg32 T) (fuel : nat) (g : Pcg32 T) r g',
  cache g = None ->
  standard_normal next_unit fuel g = Some (r, g') <->
  exists k, (k < fuel)%nat /\
    (forall j, (j < k)%nat ->
       accepted (unit_draw next_unit (2 * j) g) (unit_draw next_unit (2 * j + 1) g) = false) /\
    let u := unit_draw next_unit (2 * k) g in
    let v := unit_draw next_unit (2 * k + 1) g in
    accepted u v = true /\ r = first_normal u v /\
    g' = set_cache (units_after next_unit (2 * k + 2) g) (second_normal u v).
Proof.
  intros T NT next_unit fuel g r g' Hc. unfold standard_normal, get_cache. rewrite Hc.
  replace (mkPcg (state g) (increment g) None) with g by (destruct g; cbn in *; subst; reflexivity).
  apply polar_units.
Qed.

(** The call after that returns the kept value, whatever the fuel, draws nothing and empties the cache. *)
Theorem C05_normal_second_is_free :
  forall (T : Type) (NT : Num T) (next_unit : Pcg32 T -> T * Pcg32 T) (fuel : nat) (g : Pcg32 T) v,
  standard_normal next_unit fuel (set_cache g v) =
  Some (v, mkPcg (state g) (increment g) None).
Proof. reflexivity. Qed.

(** For f64: two calls from an empty cache return both values of the first accepted pair and leave the
    generator where 4(k+1) raw draws leave it, again with an empty cache. *)
Theorem C05_normal_pair_f64 : forall (lm : Libm f64) (fuel fuel' : nat) (g : Pcg32 f64) r g',
  cache g = None ->
  @standard_normal _ (f64num lm) next_unit_f64 fuel g = Some (r, g') ->
  exists k u v,
    u = unit_draw next_unit_f64 (2 * k) g /\ v = unit_draw next_unit_f64 (2 * k + 1) g /\
    @accepted _ (f64num lm) u v = true /\
    (forall j, (j < k)%nat ->
       @accepted _ (f64num lm) (unit_draw next_unit_f64 (2 * j) g) (unit_draw next_unit_f64 (2 * j + 1) g) = false) /\
    r = @first_normal _ (f64num lm) u v /\
    @standard_normal _ (f64num lm) next_unit_f64 fuel' g' =
      Some (@second_normal _ (f64num lm) u v, after (4 * (N.of_nat k + 1)) g).
Proof.
  intros lm fuel fuel' g r g' Hc H.
  apply (C05_normal_uses_first_accepted_pair f64 (f64num lm)) in H; [|exact Hc].
  destruct H as [k (_ & Hrej & Hacc & Hr & Hg)]. exists k. eexists. eexists.
  split; [reflexivity|]. split; [reflexivity|]. split; [exact Hacc|]. split; [exact Hrej|].
  split; [exact Hr|]. rewrite Hg, C05_normal_second_is_free. do 2 f_equal.
  rewrite units_after_f64. replace (2 * N.of_nat (2 * k + 2))%N with (4 * (N.of_nat k + 1))%N by lia.
  pose proof (after_cache (4 * (N.of_nat k + 1)) g) as Hcc. rewrite Hc in Hcc.
  destruct (after (4 * (N.of_nat k + 1)) g) as [s i c]. cbn [cache] in Hcc. cbn [state increment]. rewrite Hcc. reflexivity.
Qed.

(** A concrete generator on which the loop stops: seed 42, stream 54 accepts its first pair. *)
Definition some_libm : Libm f64 :=
  let i x := x in let k x (_ : f64) := x in
  {| lm_cbrt := i; lm_sin := i; lm_cos := i; lm_tan := i; lm_exp := i; lm_log := i; lm_expm1 := i;
     lm_log1p := i; lm_atan2 := k; lm_atan := i; lm_asin := i; lm_acos := i; lm_sinh := i; lm_cosh := i;
     lm_tanh := i; lm_hypot := k; lm_pow := k; lm_log2 := i; lm_log10 := i |}.
Example C05_example :
  @standard_normal _ (f64num some_libm) next_unit_f64 1 (with_stream 42 54) <> None.
Proof. vm_compute. discriminate. Qed.

Print Assumptions C01_pcg_period.
Print Assumptions C01_pcg_visits_all.
Print Assumptions C01_pcg_draws_every_word.
Print Assumptions C02_draw_ranges.
Print Assumptions C02_u64_is_two_draws.
Print Assumptions C03_streams_distinct_refuted.
Print Assumptions C03_streams_distinct_partial.
Print Assumptions C04_unit_f64.
Print Assumptions C04_unit_f32.
Print Assumptions C05_normal_uses_first_accepted_pair.
Print Assumptions C05_normal_pair_f64.
