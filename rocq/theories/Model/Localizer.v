(** The Monte Carlo localizer.

    Models crates/multicalc/src/estimation/monte_carlo_localizer.rs.  NUM_BEAMS is an argument of the functions; the random source is
    that of Model/ParticleFilter.v; a map is one of Model/Mapping.v. *)
From Coq Require Import ZArith List Bool.
From Verif Require Import Base.Scalar Base.Lists Model.Errors Model.Vector Model.Matrix Model.Cholesky Model.Kalman Model.Mapping Model.ParticleFilter.
Import ListNotations.

(** monte_carlo_localizer.rs:14-21 *)
Record InitialParticleCloud (T : Type) := { cloud_particle_count : nat; cloud_position_variance : T; cloud_heading_variance : T }.
Arguments cloud_particle_count {T}. Arguments cloud_position_variance {T}. Arguments cloud_heading_variance {T}.
(** monte_carlo_localizer.rs:38-45 *)
Record BeamModel (T : Type) := { bm_range_deviation : T; bm_agreement_reward : T; bm_mismatch_penalty : T }.
Arguments bm_range_deviation {T}. Arguments bm_agreement_reward {T}. Arguments bm_mismatch_penalty {T}.

Section Localizer.
  Context {T : Type} {NT : Num T} {Rng : Type}.
  Variable next_unit : Rng -> T * Rng.
  Variable next_standard_normal : Rng -> T * Rng.
  Local Open Scope num_scope.

  (** monte_carlo_localizer.rs:27-33 *)
  Definition cloud_default : InitialParticleCloud T :=
    {| cloud_particle_count := 2000; cloud_position_variance := of_ratio 16 100; cloud_heading_variance := of_ratio 4 1 |}.
  (** monte_carlo_localizer.rs:48-54 *)
  Definition beam_model_default : BeamModel T :=
    {| bm_range_deviation := of_ratio 10 100; bm_agreement_reward := of_ratio 1 10; bm_mismatch_penalty := of_ratio (-5) 1 |}.

  (** monte_carlo_localizer.rs:305-321 *)
  Definition beam_score (from_the_map : option T) (measured : T) (believed : bool) (model : BeamModel T) : T :=
    match from_the_map, believed with
    | Some range, true =>
        let error := (range - measured) / bm_range_deviation model in
        of_ratio (-1) 2 * error * error
    | None, false => bm_agreement_reward model
    | _, _ => bm_mismatch_penalty model
    end.
  (** monte_carlo_localizer.rs:287-302; the two numbers go through f64 on the way, which leaves an f32 or f64 as it is *)
  Definition localization_motion (delta_arc_length delta_heading : T) (state : list T) : list T :=
    let heading := vget state 2 in
    [vget state 0 + delta_arc_length * cos heading; vget state 1 + delta_arc_length * sin heading; wrap_to_pi (heading + delta_heading)].

  (** monte_carlo_localizer.rs:103-106 *)
  Record MonteCarloLocalizer := { ml_filter : ParticleFilter T Rng; ml_beam_model : BeamModel T }.

  (** monte_carlo_localizer.rs:116-135; [g] is the generator the seed stands for *)
  Definition ml_new (hint : list T) (cloud : InitialParticleCloud T) (beam_model : BeamModel T) (g : Rng) : Res MonteCarloLocalizer EstimationError :=
    let spread := from_diagonal 3 [cloud_position_variance cloud; cloud_position_variance cloud; cloud_heading_variance cloud] in
    match pf_from_random next_standard_normal 3 (cloud_particle_count cloud) hint spread (from_diagonal 3 (repeat (of_ratio 1 10000) 3)) g with
    | Ok filter => Ok {| ml_filter := filter; ml_beam_model := beam_model |}
    | Err e => Err e
    | Panic => Panic
    end.
  (** monte_carlo_localizer.rs:140-143 *)
  Definition ml_set_motion_noise (variances : list T) (l : MonteCarloLocalizer) : MonteCarloLocalizer * Res unit EstimationError :=
    let (filter, answer) := pf_set_process_noise 3 (from_diagonal 3 variances) (ml_filter l) in
    ({| ml_filter := filter; ml_beam_model := ml_beam_model l |}, answer).
  (** monte_carlo_localizer.rs:148-157 *)
  Definition ml_predict (delta_arc_length delta_heading : T) (l : MonteCarloLocalizer) : MonteCarloLocalizer * Res unit EstimationError :=
    let (filter, answer) := pf_predict next_standard_normal 3 (localization_motion delta_arc_length delta_heading) (ml_filter l) in
    ({| ml_filter := filter; ml_beam_model := ml_beam_model l |}, answer).
  (** monte_carlo_localizer.rs:173-185, what one guess scores *)
  Definition scan_score (num_beams : nat) (scan : list T) (map : OccupancyMap T) (geometry : Scan T) (model : BeamModel T) (guess : list T) : T :=
    fold_left (fun score '(index, measured) =>
      match beam_angle num_beams geometry index with
      | None => score
      | Some offset =>
          score + beam_score (cast_ray map (vget guess 0, vget guess 1) (vget guess 2 + offset) (sc_maximum_range geometry)) measured (range_is_valid geometry measured) model
      end) (combine (seq 0 (length scan)) scan) zero.
  (** monte_carlo_localizer.rs:165-186 *)
  Definition ml_update (num_beams : nat) (scan : list T) (map : OccupancyMap T) (geometry : Scan T) (l : MonteCarloLocalizer) : MonteCarloLocalizer * Res unit EstimationError :=
    let (filter, answer) := pf_update_with_log_weights next_unit next_standard_normal 3 (fun _ => scan_score num_beams scan map geometry (ml_beam_model l)) (ml_filter l) in
    ({| ml_filter := filter; ml_beam_model := ml_beam_model l |}, answer).

  (** monte_carlo_localizer.rs:226-231, 241-247: one of the sums over the cloud *)
  Definition cloud_sum (term : list T -> T -> T) (l : MonteCarloLocalizer) : T :=
    fold_left (fun sum '(guess, weight) => sum + term guess weight) (combine (pf_particles (ml_filter l)) (pf_weights (ml_filter l))) zero.
  (** monte_carlo_localizer.rs:215-256; the sums that share a loop are kept apart, which changes none of them *)
  Definition ml_estimate (l : MonteCarloLocalizer) : list T * mat T :=
    let mean_x := cloud_sum (fun guess weight => weight * vget guess 0) l in
    let mean_y := cloud_sum (fun guess weight => weight * vget guess 1) l in
    let sine_sum := cloud_sum (fun guess weight => weight * sin (vget guess 2)) l in
    let cosine_sum := cloud_sum (fun guess weight => weight * cos (vget guess 2)) l in
    let heading := atan2 sine_sum cosine_sum in
    let resultant := min (hypot sine_sum cosine_sum) one in
    let heading_spread := max ((one - resultant) * two) (of_ratio 1 1000000) in
    let offset_x guess := vget guess 0 - mean_x in
    let offset_y guess := vget guess 1 - mean_y in
    let spread_xx := cloud_sum (fun guess weight => weight * offset_x guess * offset_x guess) l in
    let spread_yy := cloud_sum (fun guess weight => weight * offset_y guess * offset_y guess) l in
    let spread_xy := cloud_sum (fun guess weight => weight * offset_x guess * offset_y guess) l in
    ([mean_x; mean_y; heading],
     mat_fn 3 3 (fun row column =>
       match row, column with
       | 0, 0 => spread_xx | 1, 1 => spread_yy | 0, 1 | 1, 0 => spread_xy | 2, 2 => heading_spread
       | _, _ => zero end)).
  (** monte_carlo_localizer.rs:261-265 *)
  Definition ml_is_converged (position_spread_limit heading_spread_limit : T) (l : MonteCarloLocalizer) : bool :=
    let spread := snd (ml_estimate l) in
    (mget spread 0 0 + mget spread 1 1 <? position_spread_limit) && (mget spread 2 2 <? heading_spread_limit).
  (** monte_carlo_localizer.rs:270-283 *)
  Definition ml_effective_sample_size (l : MonteCarloLocalizer) : T := effective_sample_size (pf_weights (ml_filter l)).
  Definition ml_particle_count (l : MonteCarloLocalizer) : nat := length (pf_particles (ml_filter l)).
End Localizer.
Arguments MonteCarloLocalizer T Rng : clear implicits.
