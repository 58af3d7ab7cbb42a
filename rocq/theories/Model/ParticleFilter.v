(** crates/multicalc/src/estimation/particle_filter.rs, over any scalar.  A [RandomSource] is a state with
    two operations, the uniform and the normal draw; [next_normal] is total, so a generator on which the rejection loop of
    random.rs:40-50 never ends is left out.  The models are only ever evaluated at the filter's own scalar, so they are plain
    functions here.  The three scratch buffers are written before they are read in every call and hold nothing between calls;
    they are left out.  A method on [&mut self] gives back the filter it leaves and its result. *)
From Coq Require Import ZArith List Bool Arith.
From Verif Require Import Base.Scalar Base.Lists Model.Errors Model.Vector Model.Matrix Model.Lu Model.Cholesky Model.Kalman.
Import ListNotations.

(** particle_filter.rs:36-47 *)
Inductive ResamplingScheme := Systematic | Stratified | Multinomial | Residual.

Section Particles.
  Context {T : Type} {NT : Num T}.
  Context {Rng : Type}.
  (** random.rs:27-29 and 35-51 *)
  Variable next_unit next_normal : Rng -> T * Rng.
  Local Open Scope num_scope.

  (** [count] draws one after the other *)
  Fixpoint draws (draw : Rng -> T * Rng) (count : nat) (g : Rng) : list T * Rng :=
    match count with
    | O => ([], g)
    | S count => let (x, g) := draw g in let (xs, g) := draws draw count g in (x :: xs, g)
    end.

  (** ** The resampling schemes *)

  (** particle_filter.rs:96-99, 120-123: the inner loop; [None] is an index out of range.  [source] grows at every turn and stays
      below [count], so [count] turns of fuel are enough *)
  Fixpoint advance (fuel count : nat) (weights : list T) (position : T) (source : nat) (running_sum : T) : option (nat * T) :=
    match fuel with
    | O => Some (source, running_sum)
    | S fuel =>
        if (position >=? running_sum) && (source + 1 <? count)%nat then
          match nth_error weights (source + 1) with
          | None => None
          | Some weight => advance fuel count weights position (source + 1) (running_sum + weight)
          end
        else Some (source, running_sum)
    end.
  (** particle_filter.rs:94-101, 117-125: the outer loop from [step] on, with the offset of each remaining step *)
  Fixpoint walk (count : nat) (weights offsets : list T) (step source : nat) (running_sum : T) : option (list nat) :=
    match offsets with
    | [] => Some []
    | offset :: offsets =>
        let position := (offset + of_nat step) / of_nat count in
        match advance count count weights position source running_sum with
        | None => None
        | Some (source, running_sum) =>
            match walk count weights offsets (S step) source running_sum with
            | None => None
            | Some rest => Some (source :: rest)
            end
        end
    end.
  (** particle_filter.rs:80-102 *)
  Definition systematic (weights : list T) (g : Rng) (count : nat) : option (list nat * Rng) :=
    let (offset, g) := next_unit g in
    match walk count weights (repeat offset count) 0 0 (vget weights 0) with None => None | Some l => Some (l, g) end.
  (** particle_filter.rs:105-126: the draws are made between the steps of the walk, which do not touch the source *)
  Definition stratified (weights : list T) (g : Rng) (count : nat) : option (list nat * Rng) :=
    let (offsets, g) := draws next_unit count g in
    match walk count weights offsets 0 0 (vget weights 0) with None => None | Some l => Some (l, g) end.

  (** particle_filter.rs:179-188, 198-206: the loop, over what each source adds to the running sum; [None] when no source reaches *)
  Fixpoint reach (steps : list T) (source : nat) (running_sum draw : T) : option nat :=
    match steps with
    | [] => None
    | step :: steps =>
        let running_sum := running_sum + step in
        if running_sum >=? draw then Some source else reach steps (S source) running_sum draw
    end.
  (** particle_filter.rs:179-188 *)
  Definition draw_from_weights (weights : list T) (draw : T) : nat :=
    match reach weights 0 zero draw with Some source => source | None => length weights - 1 end.
  (** particle_filter.rs:192-207 *)
  Definition draw_from_remainders (weights : list T) (count_scalar remainder_sum draw : T) : nat :=
    match reach (map (fun weight => (count_scalar * weight - floor (count_scalar * weight)) / remainder_sum) weights) 0 zero draw with
    | Some source => source | None => length weights - 1 end.
  (** particle_filter.rs:129-140 *)
  Definition multinomial (weights : list T) (g : Rng) (count : nat) : option (list nat * Rng) :=
    let (us, g) := draws next_unit count g in Some (map (draw_from_weights weights) us, g).

  (** particle_filter.rs:157-161: how many copies of a source are laid while there is room *)
  Fixpoint copies (room : nat) (laid target : T) : nat :=
    match room with
    | O => O
    | S room => if laid <? target then S (copies room (laid + one) target) else O
    end.
  (** particle_filter.rs:153-162: what is laid down from [source] on, with [room] slots free *)
  Fixpoint lay (count_scalar : T) (room : nat) (weights : list T) (source : nat) : list nat :=
    match weights with
    | [] => []
    | weight :: weights =>
        let laid := copies room zero (floor (count_scalar * weight)) in
        repeat source laid ++ lay count_scalar (room - laid) weights (S source)
    end.
  (** particle_filter.rs:144-175 *)
  Definition residual (weights : list T) (g : Rng) (count : nat) : option (list nat * Rng) :=
    let count_scalar := of_nat count in
    let laid := lay count_scalar count weights 0 in
    let remainder_sum := fold_left (fun sum weight => sum + (count_scalar * weight - floor (count_scalar * weight))) weights zero in
    let (us, g) := draws next_unit (count - length laid) g in
    Some (laid ++ map (draw_from_remainders weights count_scalar remainder_sum) us, g).

  (** particle_filter.rs:60-76; [None] is an index out of range *)
  Definition resample_indices (scheme : ResamplingScheme) (weights : list T) (g : Rng) (indices : list nat) : option (list nat * Rng) :=
    match weights with
    | [] => Some (indices, g)
    | _ :: _ =>
        let count := length indices in
        match scheme with
        | Systematic => systematic weights g count
        | Stratified => stratified weights g count
        | Multinomial => multinomial weights g count
        | Residual => residual weights g count
        end
    end.

  (** ** The Gaussian likelihood *)

  (** particle_filter.rs:247-254: the factor is the whole of the record *)
  Definition gaussian_new (m : nat) (measurement_noise : mat T) : Res (mat T) EstimationError :=
    match cholesky m measurement_noise with Ok factor => Ok factor | Err _ => Err EsNotPositiveDefinite | Panic => Panic end.
  (** particle_filter.rs:260-271 *)
  Definition gaussian_log_weight (m : nat) (noise_factor : mat T) (predicted measurement : list T) : T :=
    let residual := from_fn m (fun i => vget measurement i - vget predicted i) in
    - half * dot residual (cholesky_solve m noise_factor residual).

  (** ** The filter *)

  (** particle_filter.rs:328-344 *)
  Record ParticleFilter := {
    pf_particles : list (list T); pf_weights : list T; pf_process_noise_factor : mat T; pf_resampling : ResamplingScheme;
    pf_resample_threshold : T; pf_roughening : T; pf_random : Rng }.

  Definition pf_with_cloud (f : ParticleFilter) (particles : list (list T)) (weights : list T) (g : Rng) : ParticleFilter :=
    {| pf_particles := particles; pf_weights := weights; pf_process_noise_factor := pf_process_noise_factor f; pf_resampling := pf_resampling f;
       pf_resample_threshold := pf_resample_threshold f; pf_roughening := pf_roughening f; pf_random := g |}.

  (** particle_filter.rs:425-428, the loop that scatters the starting cloud *)
  Fixpoint scatter (n count : nat) (mean : list T) (factor : mat T) (g : Rng) : list (list T) * Rng :=
    match count with
    | O => ([], g)
    | S count =>
        let (sample, g) := draws next_normal n g in
        let (rest, g) := scatter n count mean factor g in
        (vec_add mean (mat_vec n n factor sample) :: rest, g)
    end.
  (** particle_filter.rs:383-451 *)
  Definition pf_from_random (n particle_count : nat) (initial_mean : list T) (initial_covariance process_noise : mat T) (g : Rng) : Res ParticleFilter EstimationError :=
    match particle_count with
    | O => Err EsWeightsDegenerate
    | S _ =>
        match cholesky n initial_covariance with
        | Panic => Panic
        | Err _ => Err EsNotPositiveDefinite
        | Ok initial_factor =>
            match cholesky n process_noise with
            | Panic => Panic
            | Err _ => Err EsNotPositiveDefinite
            | Ok process_noise_factor =>
                let (particles, g) := scatter n particle_count initial_mean initial_factor g in
                Ok {| pf_particles := particles; pf_weights := repeat (one / of_nat particle_count) particle_count;
                      pf_process_noise_factor := process_noise_factor; pf_resampling := Systematic;
                      pf_resample_threshold := of_nat particle_count * half; pf_roughening := zero; pf_random := g |}
            end
        end
    end.

  (** particle_filter.rs:456-475: the three builders *)
  Definition pf_with_resampling (scheme : ResamplingScheme) (f : ParticleFilter) : ParticleFilter :=
    {| pf_particles := pf_particles f; pf_weights := pf_weights f; pf_process_noise_factor := pf_process_noise_factor f; pf_resampling := scheme;
       pf_resample_threshold := pf_resample_threshold f; pf_roughening := pf_roughening f; pf_random := pf_random f |}.
  Definition pf_with_resample_threshold (threshold : T) (f : ParticleFilter) : ParticleFilter :=
    {| pf_particles := pf_particles f; pf_weights := pf_weights f; pf_process_noise_factor := pf_process_noise_factor f; pf_resampling := pf_resampling f;
       pf_resample_threshold := threshold; pf_roughening := pf_roughening f; pf_random := pf_random f |}.
  Definition pf_with_roughening (scale : T) (f : ParticleFilter) : ParticleFilter :=
    {| pf_particles := pf_particles f; pf_weights := pf_weights f; pf_process_noise_factor := pf_process_noise_factor f; pf_resampling := pf_resampling f;
       pf_resample_threshold := pf_resample_threshold f; pf_roughening := scale; pf_random := pf_random f |}.
  (** particle_filter.rs:481-490 *)
  Definition pf_set_process_noise (n : nat) (process_noise : mat T) (f : ParticleFilter) : ParticleFilter * Res unit EstimationError :=
    match cholesky n process_noise with
    | Panic => (f, Panic)
    | Err _ => (f, Err EsNotPositiveDefinite)
    | Ok factor =>
        ({| pf_particles := pf_particles f; pf_weights := pf_weights f; pf_process_noise_factor := factor; pf_resampling := pf_resampling f;
            pf_resample_threshold := pf_resample_threshold f; pf_roughening := pf_roughening f; pf_random := pf_random f |}, Ok tt)
    end.

  (** particle_filter.rs:507-514, the loop *)
  Fixpoint propagate (n : nat) (model : list T -> list T) (factor : mat T) (particles : list (list T)) (g : Rng) : list (list T) * Rng :=
    match particles with
    | [] => ([], g)
    | particle :: particles =>
        let propagated := model particle in
        let (noise, g) := draws next_normal n g in
        let (rest, g) := propagate n model factor particles g in
        (vec_add propagated (mat_vec n n factor noise) :: rest, g)
    end.
  (** particle_filter.rs:496-520 *)
  Definition pf_predict (n : nat) (model : list T -> list T) (f : ParticleFilter) : ParticleFilter * Res unit EstimationError :=
    let (particles, g) := propagate n model (pf_process_noise_factor f) (pf_particles f) (pf_random f) in
    (pf_with_cloud f particles (pf_weights f) g, if forallb vec_is_finite particles then Ok tt else Err EsNonFinite).

  (** particle_filter.rs:738-744 *)
  Definition effective_sample_size (weights : list T) : T :=
    one / fold_left (fun sum weight => sum + weight * weight) weights zero.

  (** particle_filter.rs:717-719, the jitter of one axis *)
  Fixpoint jitter (axis : nat) (scale : T) (particles : list (list T)) (g : Rng) : list (list T) * Rng :=
    match particles with
    | [] => ([], g)
    | particle :: particles =>
        let (x, g) := next_normal g in
        let (rest, g) := jitter axis scale particles g in
        (set_nth particle axis (vget particle axis + scale * x) :: rest, g)
    end.
  (** particle_filter.rs:698-708 *)
  Definition lowest (axis : nat) (particles : list (list T)) : T :=
    fold_left (fun low particle => if vget particle axis <? low then vget particle axis else low) particles (vget (nth 0 particles []) axis).
  Definition highest (axis : nat) (particles : list (list T)) : T :=
    fold_left (fun high particle => if vget particle axis >? high then vget particle axis else high) particles (vget (nth 0 particles []) axis).
  (** particle_filter.rs:693-721 *)
  Definition roughen (n : nat) (roughening : T) (cloud : list (list T) * Rng) : list (list T) * Rng :=
    fold_left (fun '(particles, g) axis =>
      let scale := roughening * (highest axis particles - lowest axis particles) in
      if scale <=? zero then (particles, g) else jitter axis scale particles g) (seq 0 n) cloud.

  (** particle_filter.rs:672-674: the chosen particles; [None] is an index out of range *)
  Fixpoint gather (particles : list (list T)) (indices : list nat) : option (list (list T)) :=
    match indices with
    | [] => Some []
    | source :: indices =>
        match nth_error particles source, gather particles indices with Some p, Some rest => Some (p :: rest) | _, _ => None end
    end.
  (** particle_filter.rs:666-689; [None] is a panic.  The index buffer has one slot per particle *)
  Definition pf_resample (n : nat) (f : ParticleFilter) : option ParticleFilter :=
    match resample_indices (pf_resampling f) (pf_weights f) (pf_random f) (repeat O (length (pf_particles f))) with
    | None => None
    | Some (indices, g) =>
        match gather (pf_particles f) indices with
        | None => None
        | Some particles =>
            let weights := map (fun _ => one / of_nat (length (pf_weights f))) (pf_weights f) in
            let (particles, g) := if zero <? pf_roughening f then roughen n (pf_roughening f) (particles, g) else (particles, g) in
            Some (pf_with_cloud f particles weights g)
        end
    end.

  (** particle_filter.rs:210-216 *)
  Definition recoverable_log_weight (weight : T) : T := if weight =? zero then log min_positive else log weight.

  (** particle_filter.rs:629-634 *)
  Definition largest_log_weight (log_weights : list T) : T :=
    fold_left (fun largest log_weight => if log_weight >? largest then log_weight else largest) log_weights neg_infinity.
  (** particle_filter.rs:625-662 *)
  Definition normalize_and_resample (n : nat) (log_weights : list T) (f : ParticleFilter) : ParticleFilter * Res unit EstimationError :=
    let largest := largest_log_weight log_weights in
    if negb (is_finite largest) then (f, Err EsWeightsDegenerate)
    else
      let weights := map (fun log_weight => exp (log_weight - largest)) log_weights in
      let sum := sum_list weights in
      if (sum <=? zero) || negb (is_finite sum) then (pf_with_cloud f (pf_particles f) weights (pf_random f), Err EsWeightsDegenerate)
      else
        let f := pf_with_cloud f (pf_particles f) (map (fun weight => weight / sum) weights) (pf_random f) in
        if effective_sample_size (pf_weights f) <? pf_resample_threshold f then
          match pf_resample n f with Some f => (f, Ok tt) | None => (f, Panic) end
        else (f, Ok tt).

  (** particle_filter.rs:607-620; [score i p] is what the closure answers on its [i]-th call, for the particle [p] *)
  Definition pf_update_with_log_weights (n : nat) (score : nat -> list T -> T) (f : ParticleFilter) : ParticleFilter * Res unit EstimationError :=
    normalize_and_resample n
      (map2 (fun weight iparticle => recoverable_log_weight weight + score (fst iparticle) (snd iparticle)) (pf_weights f)
         (combine (seq 0 (length (pf_particles f))) (pf_particles f))) f.
  (** particle_filter.rs:528-556 *)
  Definition pf_update (n : nat) (model : list T -> list T) (likelihood : list T -> list T -> T) (measurement : list T) (f : ParticleFilter) : ParticleFilter * Res unit EstimationError :=
    if negb (vec_is_finite measurement) then (f, Err EsNonFinite)
    else
      normalize_and_resample n
        (map2 (fun weight particle => recoverable_log_weight weight + likelihood (model particle) measurement) (pf_weights f) (pf_particles f)) f.

  (** particle_filter.rs:747-753 *)
  Definition pf_mean (n : nat) (f : ParticleFilter) : list T :=
    fold_left (fun acc pw => vec_add acc (vec_scale (fst pw) (snd pw))) (combine (pf_particles f) (pf_weights f)) (vec_zeros n).
  (** particle_filter.rs:757-767 *)
  Definition heaviest (weights : list T) : nat :=
    fst (fold_left (fun '(best, best_weight) '(index, weight) => if weight >? best_weight then (index, weight) else (best, best_weight))
           (combine (seq 0 (length weights)) weights) (O, vget weights 0)).
  Definition maximum_a_posteriori_state (f : ParticleFilter) : list T := nth (heaviest (pf_weights f)) (pf_particles f) [].
End Particles.
Arguments ParticleFilter T Rng : clear implicits.
