(** crates/multicalc/src/signal_processing/biquad.rs and cascade.rs *)
From Coq Require Import ZArith List Bool.
From Verif Require Import Base.Scalar Model.Errors Model.Summation.
Import ListNotations.

Section Biquad.
  Context {T : Type} {NT : Num T}.
  Local Open Scope num_scope.

  (** biquad.rs:39-46; feed_forward is [b0 b1 b2], feedback is [a1 a2] *)
  Record BiquadCoefficients := mkCoef { b0 : T; b1 : T; b2 : T; a1 : T; a2 : T; bq_timestep : T }.

  (** biquad.rs:50-56 *)
  Inductive Design := LowPass | HighPass | BandPass | Notch.

  (** biquad.rs:64-81 *)
  Definition coef_new (f0 f1 f2 g1 g2 timestep : T) : Res BiquadCoefficients SignalError :=
    if negb (forallb is_finite [f0; f1; f2; g1; g2]) then Err SigNonFinite
    else if negb (is_finite timestep) then Err SigNonFinite
    else if timestep <=? zero then Err SigNonPositiveTimestep
    else Ok (mkCoef f0 f1 f2 g1 g2 timestep).

  (** biquad.rs:269-271 *)
  Definition is_stable (c : BiquadCoefficients) : bool :=
    (abs (a2 c) <? one) && (abs (a1 c) <? one + a2 c).

  (** biquad.rs:276-293 *)
  Definition response_parts (c : BiquadCoefficients) (frequency_hz : T) : T * T * T * T :=
    let angle := two * pi * frequency_hz * bq_timestep c in
    let cosine := cos angle in
    let sine := sin angle in
    let double_cosine := cos (two * angle) in
    let double_sine := sin (two * angle) in
    (b0 c + b1 c * cosine + b2 c * double_cosine,
     - (b1 c * sine + b2 c * double_sine),
     one + a1 c * cosine + a2 c * double_cosine,
     - (a1 c * sine + a2 c * double_sine)).
  (** biquad.rs:197-201 *)
  Definition magnitude_at (c : BiquadCoefficients) (frequency_hz : T) : T :=
    let '(ir, ii, or_, oi) := response_parts c frequency_hz in
    hypot ir ii / hypot or_ oi.

  (** biquad.rs:223-231 *)
  Definition phase_at (c : BiquadCoefficients) (frequency_hz : T) : T :=
    let '(ir, ii, or_, oi) := response_parts c frequency_hz in
    atan2 ii ir - atan2 oi or_.
  (** biquad.rs:247-252 *)
  Definition delay_at (c : BiquadCoefficients) (frequency_hz : T) : T :=
    if frequency_hz =? zero then zero
    else - phase_at c frequency_hz / (two * pi * frequency_hz).

  (** biquad.rs:296-310 *)
  Definition check_design (frequency_hz quality_factor timestep : T) : option SignalError :=
    if negb (is_finite frequency_hz) || negb (is_finite quality_factor) || negb (is_finite timestep)
    then Some SigNonFinite
    else if timestep <=? zero then Some SigNonPositiveTimestep
    else if quality_factor <=? zero then Some SigNonPositiveQualityFactor
    else if (frequency_hz <=? zero) || (frequency_hz * timestep >=? half) then Some SigFrequencyOutOfRange
    else None.

  (** biquad.rs:358-369 *)
  Definition from_unnormalized (f0 f1 f2 g0 g1 g2 timestep : T) : BiquadCoefficients :=
    mkCoef (f0 / g0) (f1 / g0) (f2 / g0) (g1 / g0) (g2 / g0) timestep.

  (** biquad.rs:313-352 *)
  Definition design_build (design : Design) (frequency_hz quality_factor timestep : T)
      : Res BiquadCoefficients SignalError :=
    match check_design frequency_hz quality_factor timestep with
    | Some e => Err e
    | None =>
        let angle := two * pi * frequency_hz * timestep in
        let cosine := cos angle in
        let alpha :=
          match design with
          | LowPass | HighPass => sin angle / (two * quality_factor)
          | BandPass | Notch => tan (angle / (two * quality_factor))
          end in
        let '(f0, f1, f2) :=
          match design with
          | LowPass => let shared := one - cosine in (shared * half, shared, shared * half)
          | HighPass => let shared := one + cosine in (shared * half, - shared, shared * half)
          | BandPass => (alpha, zero, - alpha)
          | Notch => (one, - (two * cosine), one)
          end in
        Ok (from_unnormalized f0 f1 f2 (one + alpha) (- (two * cosine)) (one - alpha) timestep)
    end.
  (** biquad.rs:93-95, 117-119, 138-140, 158-160 *)
  Definition low_pass := design_build LowPass.
  Definition high_pass := design_build HighPass.
  Definition band_pass := design_build BandPass.
  Definition notch := design_build Notch.

  (** biquad.rs:415-420 *)
  Record Biquad := mkBiquad { bq_coef : BiquadCoefficients; bq_s1 : T; bq_s2 : T; bq_last : T }.
  (** biquad.rs:427-434 *)
  Definition biquad_new (c : BiquadCoefficients) : Biquad := mkBiquad c zero zero zero.
  (** biquad.rs:439-450 *)
  Definition biquad_filter (b : Biquad) (input : T) : Biquad * T :=
    let c := bq_coef b in
    let output := b0 c * input + bq_s1 b in
    let s1 := b1 c * input - a1 c * output + bq_s2 b in
    let s2 := b2 c * input - a2 c * output in
    (mkBiquad c s1 s2 output, output).
  (** biquad.rs:454-456 *)
  Definition biquad_set_coefficients (b : Biquad) (c : BiquadCoefficients) : Biquad :=
    mkBiquad c (bq_s1 b) (bq_s2 b) (bq_last b).
  (** biquad.rs:465-474 *)
  Definition biquad_settle_to (b : Biquad) (value : T) : Biquad :=
    let c := bq_coef b in
    let steady := value * (b0 c + b1 c + b2 c) / (one + a1 c + a2 c) in
    let s2 := b2 c * value - a2 c * steady in
    let s1 := b1 c * value - a1 c * steady + s2 in
    mkBiquad c s1 s2 steady.
  (** biquad.rs:478-482 *)
  Definition biquad_reset (b : Biquad) : Biquad := mkBiquad (bq_coef b) zero zero zero.

  (** BiquadCascade, cascade.rs:29-40 *)
  Definition cascade_new (cs : list BiquadCoefficients) : list Biquad := map biquad_new cs.
  (** cascade.rs:46-52 *)
  Fixpoint cascade_filter (sections : list Biquad) (input : T) : list Biquad * T :=
    match sections with
    | [] => ([], input)
    | s :: rest =>
        let (s', value) := biquad_filter s input in
        let (rest', out) := cascade_filter rest value in
        (s' :: rest', out)
    end.
  (** cascade.rs:57-67 *)
  Definition cascade_set_section (sections : list Biquad) (index : nat) (c : BiquadCoefficients)
      : list Biquad * Res unit SignalError :=
    match nth_error sections index with
    | None => (sections, Err SigSectionIndexOutOfRange)
    | Some s => (set_nth sections index (biquad_set_coefficients s c), Ok tt)
    end.
  (** cascade.rs:73-79 *)
  Fixpoint cascade_settle_to (sections : list Biquad) (value : T) : list Biquad :=
    match sections with
    | [] => []
    | s :: rest => let s' := biquad_settle_to s value in s' :: cascade_settle_to rest (bq_last s')
    end.
  (** cascade.rs:82-86 *)
  Definition cascade_reset (sections : list Biquad) : list Biquad := map biquad_reset sections.
  (** cascade.rs:91-95 *)
  Definition cascade_magnitude_at (sections : list Biquad) (frequency_hz : T) : T :=
    fold_left (fun carried s => carried * magnitude_at (bq_coef s) frequency_hz) sections one.
  (** cascade.rs:110-116 *)
  Definition cascade_phase_at (sections : list Biquad) (frequency_hz : T) : T :=
    fold_left (fun carried s => carried + phase_at (bq_coef s) frequency_hz) sections zero.
  (** cascade.rs:129-133 *)
  Definition cascade_is_stable (sections : list Biquad) : bool :=
    forallb (fun s => is_stable (bq_coef s)) sections.
  (** cascade.rs:137-139 *)
  Definition cascade_value (sections : list Biquad) : T :=
    match rev sections with [] => zero | s :: _ => bq_last s end.

  (** MultiChannelBiquad, cascade.rs:168-208; a Vector is a list *)
  Definition multi_new (channels : nat) (c : BiquadCoefficients) : list Biquad := repeat (biquad_new c) channels.
  Fixpoint multi_filter (channels : list Biquad) (input : list T) : list Biquad * list T :=
    match channels, input with
    | ch :: chs, x :: xs =>
        let (ch', y) := biquad_filter ch x in
        let (chs', ys) := multi_filter chs xs in (ch' :: chs', y :: ys)
    | _, _ => (channels, [])
    end.

  (** cascade.rs:185-203 *)
  Definition multi_set_coefficients (channels : list Biquad) (c : BiquadCoefficients) : list Biquad :=
    map (fun ch => biquad_set_coefficients ch c) channels.
  Definition multi_settle_to (channels : list Biquad) (value : list T) : list Biquad :=
    map (fun p => biquad_settle_to (fst p) (snd p)) (combine channels value).
  Definition multi_reset (channels : list Biquad) : list Biquad := map biquad_reset channels.

  (** cascade.rs:243-268 *)
  Fixpoint notch_sections (fundamental_hz quality_factor timestep : T) (index count : nat)
      : Res (list BiquadCoefficients) SignalError :=
    match count with
    | O => Ok []
    | S count =>
        match notch (fundamental_hz * of_nat (index + 1)) quality_factor timestep with
        | Ok c =>
            match notch_sections fundamental_hz quality_factor timestep (index + 1) count with
            | Ok rest => Ok (c :: rest)
            | e => e
            end
        | Err e => Err e
        | Panic => Panic
        end
    end.
  Definition harmonic_notch_coefficients (n : nat) (fundamental_hz quality_factor timestep : T)
      : Res (list BiquadCoefficients) SignalError :=
    if Nat.eqb n 0 then Err SigWindowTooShort
    else
      match notch fundamental_hz quality_factor timestep with
      | Err e => Err e
      | Panic => Panic
      | Ok fundamental =>
          if fundamental_hz * of_nat n * timestep >=? half then Err SigFrequencyOutOfRange
          else
            match notch_sections fundamental_hz quality_factor timestep 1 (n - 1) with
            | Ok rest => Ok (fundamental :: rest)
            | e => e
            end
      end.
End Biquad.
Arguments BiquadCoefficients T : clear implicits.
Arguments Biquad T : clear implicits.
