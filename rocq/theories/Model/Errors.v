(** crates/multicalc/src/error.rs: the error values the modelled functions return.  Only constructors that a
    modelled function can return are listed. *)

(** error.rs, enum LinalgError *)
Inductive LinalgError :=
| LaSingular | LaIllConditioned | LaNotPositiveDefinite | LaUnderdetermined | LaNonFinite | LaNotSymmetric
| LaInvalidTimestep | LaDidNotConverge (iters : nat).

(** error.rs:33-46, enum DiffError *)
Inductive DiffError :=
| DiOrderZero | DiOrderUnsupported | DiStepSizeZero | DiInvalidStepSize | DiIndexOutOfRange | DiEmptyFunctionSet.

(** error.rs:77-91, enum SolveError *)
Inductive SolveError :=
| SoDidNotConverge (iters : nat) | SoNonFinite | SoInvalidBracket | SoLinalg (e : LinalgError) | SoDiff (e : DiffError).

(** error.rs, enum SignalError *)
Inductive SignalError :=
| SigNonFinite | SigNonPositiveTimestep | SigCoefficientOutOfRange | SigFrequencyOutOfRange
| SigNonPositiveQualityFactor | SigNegativeThreshold | SigThresholdsOutOfOrder | SigNonPositiveRate
| SigWindowTooShort | SigWindowEvenLength | SigPolynomialOrderTooHigh | SigSectionIndexOutOfRange
| SigLinalg (e : LinalgError).

(** error.rs:333-363, enum PolynomialError *)
Inductive PolynomialError :=
| PoNonFinite | PoLeadingCoefficientZero | PoDegreeOverflow | PoCapacityExceeded | PoEmpty | PoVariableOutOfRange
| PoDuplicateNode | PoTooFewSamples | PoSpanNotPositive | PoToleranceNotPositive | PoRangeReversed
| PoDidNotConverge (steps : nat) | PoLinalg (e : LinalgError).

(** Result<A, E>, with a panic as a third outcome. *)
Inductive Res (A E : Type) := Ok (a : A) | Err (e : E) | Panic.
Arguments Ok {A E}. Arguments Err {A E}. Arguments Panic {A E}.

(** error.rs:283-300, enum MappingError *)
Inductive MappingError :=
| MpNonFinite | MpNonPositiveResolution | MpEmptyGrid | MpGridTooLarge
| MpTooFewBeams | MpInvalidFieldOfView | MpNonPositiveRange | MpInvalidRangeLimits.

(** error.rs, enum MotionError: the constructors returned by motion_profile.rs and polyline_path.rs *)
Inductive MotionError :=
| MoNonFinite | MoLimitNotPositive | MoJerkLimitRequired | MoDurationNotPositive
| MoCapacityExceeded | MoPathTooShort | MoOutOfSync.

(** error.rs:201-244, enum ControlError: the constructors returned by pid.rs, follow_the_gap.rs, pure_pursuit.rs and
    thrust_command.rs *)
Inductive ControlError :=
| CoNonFinite | CoNonPositiveTimestep | CoInvalidOutputLimits | CoNonPositiveLookaheadDistance | CoInvalidBeamCount
| CoInvalidFieldOfView | CoNonPositiveRange | CoNonPositiveChassisWidth | CoNonPositiveSpeed | CoInvalidSpeedScaling
| CoNegativeGoalBias | CoUndefinedThrustDirection | CoUndefinedHeadingDirection
| CoSignal (e : SignalError) | CoLinalg (e : LinalgError).

(** error.rs:261-278, enum PlantError *)
Inductive PlantError :=
| PlNonFinite | PlNonPositiveArmLength | PlNonPositiveTorqueRatio | PlInvalidThrustLimits | PlRotorLayoutNotIndependent
| PlNonPositiveTimeConstant | PlNonPositiveTimestep | PlLinalg (e : LinalgError).

(** error.rs:48-72, enum IntegrateError *)
Inductive IntegrateError :=
| InIterationsZero | InLimitsIllDefined | InQuadratureOrderOutOfRange | InStepSizeTooSmall | InDidNotConverge (steps : nat)
| InNonFinite | InIndexOutOfRange | InNonPositiveTimestep.
