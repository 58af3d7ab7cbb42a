# A machine-checked model of multicalc

The library under study is `kmolan/multicalc-rust` (source in `/repo`, read as text, never built here).
This directory holds a model of parts of it in Coq 8.16.1, and proofs of the properties listed in
`properties.jsonl`. `MANIFEST.json` says which theorem settles which property.

## 1. How the model is laid out

Everything is under `rocq/theories` (logical name `Verif`).

| folder | holds |
|---|---|
| `Base/` | the scalar interface, its instances, and general mathematics that has nothing to do with the library |
| `Model/` | the code, function by function. Every definition cites the file and lines it models |
| `Spec/` | small definitions used only to say what a property means. They never mention `Model/` helpers |
| `Proofs/` | lemmas |
| `Props/` | the theorems that answer the properties, each followed by an example showing that its hypotheses can be met and by `Print Assumptions` |

### The scalar

The Rust code is generic over the trait `Numeric`. The model is generic over a record `Num T` with the same
operations. Comparisons are booleans with the partial-order behaviour of floats, so a model function
run on a NaN takes the branch the Rust code takes. The instances are:

1. **any `Num T`** - a theorem proved for an arbitrary record holds for f64, f32, duals and jets, NaN and
   infinities included. Termination, "never indexes out of range", "the ring buffer holds the last N
   samples" and "the grid is a map" are of this kind. Sometimes a few order laws are assumed, and those laws
   are then proved of f64 too.
2. **exact reals `R`** - for mathematical correctness (what the formula computes if rounding is ignored).
   R has no infinities and no NaN, so no theorem about them is stated over R. Division by zero has no
   useful meaning in R either, so theorems over R carry the hypothesis that divisors are non-zero when the
   code does not check it.
3. **extended reals `XR`** - exact reals plus +inf, -inf and NaN with the IEEE rules for these
   three, for code which uses infinity as a value.
4. **rounded reals** - R with an arbitrary rounding of relative error at most u after each operation, for error bounds.
5. **f64 bit for bit** - Flocq's `binary_float 53 1024`, round to nearest even, used where the property is about
   rounding, NaN or overflow. The `libm` functions that IEEE does not fix (sin, exp, ...) are arbitrary
   functions there (a record `Libm`), so theorems hold for every implementation of them.
   `fma`, `sqrt`, `floor`, `ceil`, `round`, `trunc`, `fmin`, `fmax` are the exactly specified ones.
6. **Dual / HyperDual / Jet over any `Num`** - models of `scalar/`.

### Other conventions

* Integers: indices are `nat`; the random generator's words are `Z`/`N` with an explicit reduction modulo 2^64 or 2^32.
  `usize` overflow is not modelled except where said.
* `[T; N]` is a list, with its length as a stated invariant. Const generics are `nat` parameters.
* `&mut self` methods are functions from the old state to the new state and the result.
* `Result` is a sum type with the library's error constructors. A Rust panic is an explicit value, never a default.
* `while`/`loop` is a recursion on fuel that returns an explicit "out of fuel" value; theorems either show that
  the fuel is enough or speak of runs that finish.
* Debug-only checks, `#[inline]`, `Copy`/`Clone` and trait plumbing are not modelled.

## 2. Trusted base

* Coq's kernel (8.16.1), and `coqchk` which re-checks the compiled files.
* The axioms `Print Assumptions` lists. Only the standard library's are used:
  `ClassicalDedekindReals.sig_forall_dec`, `ClassicalDedekindReals.sig_not_dec`,
  `FunctionalExtensionality.functional_extensionality_dep` (all three come with the real numbers),
  and `Classical_Prop.classic` (used by Flocq and Coquelicot). Theorems with
  no reals are closed under the global context. See section 4.
* The model itself: nothing mechanical ties it to the Rust source. Each definition cites the lines it transcribes.
* The meaning of Rust's `f64` operations as IEEE 754 binary64, which is what Flocq formalises.
* That `libm::fma`, `sqrt`, `floor`, `ceil`, `round`, `trunc`, `fmin`, `fmax`, `copysign` meet their IEEE definitions.

## 3. Properties: what is modelled and how it is proved

The plan below was written before the proofs. Section 5 records what came out, including where the code and the
documented claim disagree.

| id | model | proof |
|---|---|---|
| C01 | PCG step on Z mod 2^64 | Hull-Dobell for modulus 2^k by induction on k |
| C02 | with_stream, next_u32, next_u64 | range invariants by induction on the number of draws; determinism as an equation between generators |
| C03 | with_stream | the stream number is shifted left and its top bit lost: refuted by a witness, and the true statement (streams differing below the top bit have different increments) proved |
| C04 | next_unit on Z for f64/f32 | Flocq: the cast and the product with a power of two are exact; range on the real value |
| C05 | standard_normal over an arbitrary source | recursion on fuel; induction over rejected pairs; law-free in the scalar |
| C06 | PairwiseSum, KahanSum over R | invariant: total of the levels equals the sum, by induction on the terms |
| C07 | the same with rounded addition | invariant carrying a depth per level |
| C08 | powi | induction on the bits, any commutative ring laws; over R equality with `pow` |
| C09 | Dual over R, expression language | induction on expressions with Coquelicot derivatives |
| C10 | HyperDual over R | induction on expressions, two directions |
| C11 | Jet over R | series arithmetic modulo x^N, induction on the order, linked to derivatives |
| C12 | Dual/HyperDual/Jet over any Num | simulation: value projection commutes with each operation and comparison, induction on programs with branches |
| C13 | clamp | refuted by a witness: reversed bounds panic; proved when min <= max |
| C14-C16 | bisection over any Num / R | loop invariant; interval halving; intermediate value theorem; default budget refuted by a wide bracket |
| C17 | Brent over R | loop invariant on the bracket |
| C18 | Newton over any Num | loop invariant |
| C19 C20 C24 C25 | Biquad, cascade over R (any ring where possible) | induction on the input list |
| C21 | is_stable | algebra on the two roots (real and complex case); boundedness by a quadratic Lyapunov function or by the two poles |
| C22 C23 | the four designs over R with trigonometry | algebra; refuted for small quality factors; proved for low/high-pass always and for band-pass/notch when f dt < Q/2 |
| C26 C27 C28 C29 | window filters | ring buffer as a rotated list, law-free; sorting for the median; normal equations for Savitzky-Golay |
| C30-C33 | conditioning filters, one-pole | case analysis and induction over histories |
| C34-C39 | occupancy grid | list updates; termination measure on the cell indices; geometry over R |
| C40 C41 | scan geometry | floor/round over R; float witness by computation |
| C42-C48 | polynomial | lists of coefficients, induction; Coquelicot for derivatives and integrals |
| C49-C53 | root finding for polynomials | algebra; Sturm chain; witnesses computed |
| C54-C56 | piecewise and multivariate | induction on pieces/terms |
| C57-C59 | motion profile | case analysis on phases; real analysis for optimality |
| C60 C61 | polyline path | induction on segments, convexity of the segment distance |
| C62-C65 | PID | any Num with order laws, f64; R for exactness; witness for set_gains |
| C66 C67 | follow-the-gap | law-free induction on beams |
| C68 C69 | mixer and rotor lag | list algebra; exponentials over R |
| C70 | complex frequency response of a biquad | steady sinusoid solves the recurrence, uniqueness by stability |
| C71 | quartic solver over R | resolvent cubic; case analysis on the factorization |
| C72 | jerk-limited profile | real analysis: any admissible motion is dominated |
| C73 | PID over extended reals | case analysis on the anti-windup branches |
| C74 | follow-the-gap margin | refuted by geometry; the clearance that holds proved |
| C75-C78 | LU, determinant, inverse | loop invariants on the partial factorization; multilinearity of the determinant |
| C79 C80 | Cholesky | induction on the leading minor; completeness from positive definiteness |
| C81-C83 | QR, least squares, damped solves | Householder reflections are orthogonal; normal equations |
| C84 C85 | one-sided Jacobi SVD, pseudo-inverse | rotations keep the product; perturbation bound from the stopping test |
| C86 | Jacobi eigendecomposition | orthogonal similarity; off-diagonal mass from the stopping test |
| C87 C88 | matrix and vector operations | entrywise; Cauchy-Schwarz |
| C89-C91 | Lyapunov and Riccati doubling, LQR | partial sums of the series; completing the square; induction on steps |
| C92 C93 | matrix exponential, discretization | Pade remainder in the Banach algebra of matrices; variation of constants |
| C94-C97 | quaternions | polynomial identities; uniqueness of the solution of x' = Ax for the exponential; Taylor bounds |
| C98-C101 | Euler angles, directions, matrices, interpolation | trigonometry; Shepperd's four pivots; spherical geometry through the inner product of quaternions |
| C102, C103 | rotations and rigid motions of the plane | all of so2.rs and se2.rs; the exponential is characterized as the solution of F' = AF, the jacobian as the integral of exp(s ad) and, through Duhamel's formula (Proofs/Duhamel.v), as the derivative of the exponential |
| C104, C107 | jacobians of rotations and motions of space | left_jacobian_so3/se3 and inverses; closed forms integrated (Proofs/SpaceJacobian.v, MotionJacobian.v), derivative through Duhamel's formula |
| C105, C106 | motions of space, velocities and loads | all of se3.rs, twist.rs and wrench.rs; meaning stated through the velocity of a particle, the moment about a point and matrix conjugation |
| C108, C109 | rigid bodies and the free joint | inertia.rs and free_joint.rs against finite sets of point masses (Spec/Inertia.v), and the Newton-Euler equation along differentiable trajectories |
| C110, C111 | Runge-Kutta orders | rk4.rs and the tableau of rk45.rs; order conditions over rooted trees checked in exact rationals by the kernel, and a general theorem that they imply the order (Proofs/Order.v, Proofs/Stages.v) for right-hand sides given by Taylor's formula (Spec/Ode.v) |
| C112, C113 | adaptive solving and dense output | the driver of rk45.rs as a fuelled loop returning the steps handed out and the answer |
| C114 | stepping orientations | exponential_map.rs against the matrix exponential |
| C115 | composite rules | weighted panels, exact on polynomials, Taylor remainder |
| C116 | infinite ranges | changes of variable, rules lifted to the extended reals |
| C117 | Gaussian tables | every moment of every table by integer interval arithmetic in the kernel; the weights' moments by calculus |
| C118 | several variables | induction on the nesting |
| C119 | integration errors | case analysis over any scalar |
| C120 | numerical_derivative/autodiff.rs, single variable | the derivative scalars' theorems (C04-C06) specialised to the seeds |
| C121 | partial derivatives by dual and hyper-dual numbers | directional theorems plus homomorphisms of hyper-dual numbers (swap, mixing of directions) |
| C122 | finite differences, nested | mean value theorem by induction on the nesting; remainder integrals for the order |
| C123 | jacobian and hessian loops | loop invariants over any scalar, values from C121/C122 |
| C124 | approximation/ | chain rule along the segment, Taylor-Lagrange; Cauchy-Schwarz for the metrics |
| C125 | curl, divergence | from C121 |
| C126 | line integrals | trapezoid against the curve's velocity, cell by cell |
| C127 | flux integrals | same, and a counterexample |
| C128 | Kalman filter covariances | Joseph form and F P F' + Q are sums of congruences; induction over the calls |
| C129 | Kalman update optimality | completing the square in the gain |
| C130 | Kalman filter as least squares | the combined inverse covariance; induction over the ticks |
| C131 | extended filter | reduction to the linear filter's update, with the jacobian theorems |
| C132 | unscented prediction | the variance of a weighted cloud of points, by the Cauchy inequality |
| C133 | unscented updates | the joint variance of states and readings; counterexamples computed |
| C134 | ready-made models | derivatives of the arc; rounding to whole turns |
| C135 | differential drive, odometry, unicycle | the arc is the unique solution of the rolling equations; one-parameter group for the ticks |
| C136 | attitude controller | derivatives of the relative rotation; energy and a mixed Lyapunov function |
| C137 | Mahony and Madgwick filters | the turn of a step; the angle to the vertical as a recurrence; a dipping field as counterexample |
| C138 | particle resampling schemes | positions on the cumulated weights; counting between ceilings; integral of a ceiling for unbiasedness |
| C139 | particle filter weights | log weights over the extended reals read as likelihoods; step invariant over histories; a NaN score as counterexample |
| C140 | particle cloud, likelihood, estimates | law-free unfolding; Cholesky solve; average over the offset |
| C141 | optimization/{mod, gauss_newton} | law-free loop invariant; the QR least-squares theorems; an explicit run for the refutation |
| C142 | optimization/{levenberg_marquardt, trust_region} | law-free loop invariant; descent by the acceptance test; damped normal equations from C83 |
| C143 | estimation/monte_carlo_localizer | The localizer over the particle filter, map and scan models; the factor of a diagonal covariance is computed, a scan is C139's Bayes update with the score read off C37, and the estimate is a mean minimising the mean square distance and the heading the direction of the mean unit vector (polar form). |
| C144 | kinematics/{joint, kinematic_tree} | `built` is the inductive set of trees reachable by accepted pushes; push is decided case by case against a list of problems in order; offsets are running totals by induction on the pushes |
| C145 | kinematics/{kinematic_tree, kinematic_tree_state} | law-free case analysis of the two loops; over the reals the pose equation by induction on the parent order, with turns from Rodrigues' formula |
| C146 | kinematics/{kinematic_tree, kinematic_jacobian} | every frame is a moving frame (quaternion derivative and translation derivative); composition adds velocities; the columns along the chain sum to that velocity by induction on the parent order |
| C147 | kinematics/inverse_kinematics | the loop by induction on the budget as a relation of passes; limits and distance are kept by every pass; refusals by cases |
| C148 | kinematics/{kinematic_jacobian, inverse_kinematics} | the push found by the decomposition solves a nearby system because its left columns are nearly orthonormal; completing the square makes the rates optimal; the smallest value by Cauchy-Schwarz for the form of the Gram matrix |
| C149 | kinematics/{multi_start_inverse_kinematics, kinematic_tree} | induction over the seeds with the answers kept so far; induction over the joints for the draws; each joint's share of the distance is determined by its specification |
| C150 | kinematics/collision | the squared distance of two axes is a quadratic in two parameters that is nowhere negative; the root of its least value over the second changes no faster than the root of its leading coefficient; solids by the triangle inequality; checks by a fold over the pairs looked at |
| C151 | dynamics/rigid_body | sums over the particles turned into mass, balance point and rotational inertia; the two vector equations solved for the accelerations both ways; derivatives of rotated points from that of the quaternion, summed over the particles; ticks by induction |
| C152 | motion/minimum_snap, polynomial/construction | the matrix of the cost in endpoint terms sends endpoint values to the higher derivatives at the ends; the loops of the assembly as sums, so a solved system makes derivatives four to six run on; integration by parts on each segment and a telescoping sum show any other path costs the plan plus the square of the difference; the same with nothing asked for shows the system regular |
| C153 | estimation/error_state_kalman_filter (NominalState) | the quaternion exponential and logarithm of C97 on the turn, plain sums on the rest; the step differentiated in its length |
| C154 | estimation/error_state_kalman_filter | entries of the transition read off the five blocks and matched with derivatives at zero of the error after the step along a nudge, where the exponential is a polynomial; the sensor slope by the dual number rule along the curve of the sixteen numbers; the update through the gain facts of C129, the reset as a congruence, histories by induction |
| C155 | root_finding/newton_system | the line search against "the first halving that lowers the residual, or the twentieth", the loop against runs of such moves, in both directions by induction; the step through C76 and C123; linear systems by computing the first move |

## 4. Axioms

Every file of `Props/` ends with `Print Assumptions` for each of its theorems, so the build log lists them. Only four
axioms ever appear, all of the standard library:

* `ClassicalDedekindReals.sig_forall_dec` and `sig_not_dec`, and `FunctionalExtensionality.functional_extensionality_dep`:
  the construction of the real numbers. Every theorem that mentions `R`, directly or through Flocq's real value of a
  float, depends on these.
* `Classical_Prop.classic`: used by Flocq and Coquelicot, so by theorems on f64/f32 values, derivatives and integrals.

Theorems stated over any scalar (`forall T (NT : Num T)`) and those on the random generator's integers are closed under the
global context, except where they also speak of f64.

<!-- generated below by tools/design.py -->

## 5. What came out

155 properties: 110 proved, 45 partial (most of these because the documented claim is false of the code: the theorem ending in `_refuted` gives the witness, and the other theorems say what does hold).

| id | status | property | remarks |
|---|---|---|---|
| C01 | proved | Pcg32 visits every 64-bit state before repeating |  |
| C02 | proved | Raw draws are a function of seed and stream and stay in range |  |
| C03 | partial | Different streams draw different sequences | The property as stated is false of the code: the top bit of the stream number is shifted out, so every stream has a twin drawing the same sequence. The partial theorem shows that streams differing below the top bit give generators that never coincide; that their words differ somewhere is not proved. |
| C04 | proved | next_unit is in the half-open unit interval |  |
| C05 | proved | Standard-normal draws come in pairs, the second one free |  |
| C06 | proved | Pairwise and Kahan sums lose and repeat nothing |  |
| C07 | proved | Rounding error of the pairwise sum is bounded |  |
| C08 | proved | powi is the mathematical power |  |
| C09 | proved | Forward-mode dual numbers compute exact derivatives |  |
| C10 | proved | Hyper-dual numbers compute exact second derivatives |  |
| C11 | proved | Jets compute every Taylor coefficient |  |
| C12 | partial | Derivative scalars never change the value computed | False of the code over floats, for each of the three scalars (signum and max on duals, division on hyper-duals, signed zeros on jets). The partial theorems say which formulas keep their value over every scalar, and under which laws of the scalar the rest do; over the reals they all hold. |
| C13 | partial | clamp never panics | False of the code: f64 and f32 clamp is the standard library's, which panics on reversed or NaN bounds. The partial theorem says it panics exactly then, and what it returns otherwise; the derivative scalars never panic. |
| C14 | partial | Bisection keeps a sign change and stays in the bracket | True in exact arithmetic, and for every f64 function and bracket whose width does not overflow. When the width overflows the f64 answer can be infinity (refuted); the rest of the report is truthful over every scalar. |
| C15 | proved | Bisection converges to a true root at the stated rate |  |
| C16 | partial | Bisection's default budget always suffices | False of the code: a wide f64 bracket exhausts the default 100 iterations, and the documented count ceil(log2(width/xtol)) is one short. The default budget does suffice, in exact arithmetic, for brackets up to 2^49 wide. |
| C17 | proved | Brent keeps the root bracketed and reports truthfully |  |
| C18 | proved | Newton's report is truthful and bounded |  |
| C19 | proved | A biquad realises its difference equation |  |
| C20 | proved | Linear filters are linear |  |
| C21 | proved | is_stable is exactly pole-inside-the-unit-circle, and implies bounded output |  |
| C22 | partial | Every designed filter is stable | False of the code for band-pass and notch with a small quality factor: tan(angle/2Q) goes negative once angle/2Q passes a quarter turn and the poles leave the unit circle. Low-pass and high-pass designs are always stable; band-pass and notch are whenever the tangent is positive, in particular when 2 f dt < Q. |
| C23 | proved | Designed filters have the advertised gain at zero frequency, at the centre and at half the sampling rate |  |
| C24 | proved | settle_to is a fixed point |  |
| C25 | proved | A cascade is the composition of its sections and retuning one touches only that one |  |
| C26 | proved | Moving average is the mean of the last WINDOW samples |  |
| C27 | proved | Running median is the middle of the last WINDOW samples |  |
| C28 | partial | Savitzky-Golay reproduces polynomials exactly | Proved for every window, number of terms, polynomial and history, assuming that the pseudo-inverse routine returns a generalised inverse of the matrix it is given. The routine is an iterative singular value decomposition and is not modelled. |
| C29 | partial | Constructors reject a zero window with an error, not a panic | False of the code: SavitzkyGolay::latest evaluates WINDOW - 1 before any check, which underflows for a zero window. The moving average, the median and the centred Savitzky-Golay constructor do return the documented errors (partial theorem). |
| C30 | proved | Deadband silences the band and joins continuously |  |
| C31 | proved | Hysteresis switches only on crossing the outer thresholds |  |
| C32 | proved | The slew limiter bounds every step, never overshoots and arrives |  |
| C33 | proved | The one-pole filter stays within the range of its inputs and converges |  |
| C34 | proved | An occupancy grid is a map from cells to flags | For any scalar, any size and any history of writes; the acceptance conditions over the reals with infinities and NaN. |
| C35 | partial | cell_of returns the cell containing the point | Proved with exact arithmetic for finite and infinite coordinates. The NaN clause is false of the code: in f64 the point (NaN, NaN) falls in cell (0, 0) of every grid (C35_nan_refuted). |
| C36 | proved | Casting a ray always finishes | For any scalar and any arithmetic; maps of any size. |
| C37 | proved | cast_ray reports the first obstacle along the beam | Exact reals with the infinities the code uses, for every finite start, bearing and placement; sizes below 2^63. C37_any_scalar is what survives rounding. |
| C38 | proved | A drawn polyline has no gaps | Exact arithmetic, every polyline whose edges need fewer than 2^64 samples (the cast to usize saturates beyond that). |
| C39 | partial | A drawn circle has no gaps | Proved for radii up to 1000 cells, closing gap included. False beyond: the angular step has a floor of 1e-3 rad, and a rim of radius 10000 cells passes through a patch without marking it (C39_circle_refuted). |
| C40 | proved | Beam numbering and beam angles agree | Exact arithmetic; C40_any_scalar for every scalar. |
| C41 | partial | Beam numbering round-trips in floating point | False of the code: with four beams over 0.1 rad the angle of the last beam rounds to just outside the arc and has no number. |
| C42 | proved | Polynomial evaluation is the sum of coefficient times power |  |
| C43 | proved | Polynomial calculus is calculus |  |
| C44 | proved | Polynomial algebra agrees with pointwise arithmetic |  |
| C45 | proved | Polynomial long division satisfies the division identity |  |
| C46 | proved | from_roots vanishes exactly at the given roots |  |
| C47 | proved | from_points interpolates |  |
| C48 | proved | Hermite end conditions are met |  |
| C49 | proved | Closed-form quadratic roots are exactly the real roots |  |
| C50 | partial | Closed-form cubic roots: soundness, completeness and repeats | The returned numbers are exactly the real zeros, always. Repeats are included except for a triple zero, which is returned once although the documentation says repeats are included (refuted). |
| C51 | partial | count_real_roots counts the distinct real roots in the half-open range | Sturm's theorem is proved for every polynomial of positive degree and every range whose ends are not repeated zeros. At a repeated zero the count is wrong (refuted), and a constant stored with room for higher powers underflows an index in a checked build (refuted). |
| C52 | partial | real_roots_in finds each root or reports failure within its budget | Termination, budget and order hold for every input. Accuracy and completeness, with an explicit sufficient budget, hold whenever no point reached by halving the range is a repeated zero. When one is, no budget is enough (refuted). |
| C53 | proved | The Cauchy bound exceeds every real root |  |
| C54 | proved | A piecewise curve clamps, follows its pieces and integrates exactly |  |
| C55 | proved | Multivariate polynomial operations preserve meaning |  |
| C56 | partial | A multivariate term raises each variable to its stated power | True up to i32::MAX; above it the code raises to i32::MAX instead, so x^(2^31) at -1 is -1 (refuted). |
| C57 | proved | A planned move reaches its target at rest within every limit | Exact arithmetic; C57_refusals for any scalar. |
| C58 | proved | The trapezoidal move is time-optimal | Exact arithmetic, against every motion with a derivative whose velocity changes no faster than the acceleration limit. |
| C59 | proved | Time-stretching preserves the path and cannot break a limit | Exact arithmetic, every profile obtained by planning and stretching in any order; C59_unchanged for any scalar. |
| C60 | proved | closest_point is the globally closest point of the path | Exact arithmetic, any dimension and any number of waypoints; C60_always_answers for any scalar, NaN included. |
| C61 | proved | Arc lengths are consistent and lookahead lands on the path | Storage for any scalar; lengths and lookahead with exact arithmetic. C61_before_the_start records that a negative target is extrapolated instead of clamped. |
| C62 | proved | The PID output respects its limits whatever it is fed | Every sequence of calls on every float, rounding, infinities and NaN included. |
| C63 | partial | The PID integral does not wind up | The rule is proved in exact arithmetic and in f64. It only prevents wind-up for non-negative integral gains: the code tests the sign of the error, so with a negative gain the integral grows without bound behind a saturated output (C63_negative_gain_refuted). |
| C64 | partial | PID handover is bumpless | Proved in exact arithmetic. The documentation's 'exactly' fails in f64 when the proportional term swamps the command (C64_handover_f64_refuted). |
| C65 | partial | Changing PID gains does not step the output | False as documented: a new integral gain or a new derivative gain steps the next output. The exact size of the step is proved, and that there is none in a loop at rest when only the proportional and derivative gains change. |
| C66 | proved | Follow-the-gap only drives through open, wide-enough gaps | Exact arithmetic on finite settings and goals; readings are arbitrary, NaN and infinities included. |
| C67 | partial | Follow-the-gap commands a bounded speed | Proved in exact arithmetic, the speed limits also in f64. Full speed is reached only when the clear distance is within the sensor's range, which with_speed_scaling does not check (C67_full_speed_refuted). |
| C68 | proved | The mixer keeps rotors within limits and flags saturation truthfully | The pseudo-inverse is a parameter; the exact-inverse half holds whenever the stored matrix inverts the layout. The float theorem needs a share that is not NaN. |
| C69 | proved | Rotor lag is the exact exponential approach |  |
| C70 | proved | The reported response is what a steady oscillation really comes out as |  |
| C71 | proved | Closed-form quartic roots are exactly the real roots, with repeats |  |
| C72 | proved | A jerk-limited move is as fast as its limits allow | Exact arithmetic, against every twice differentiable motion whose acceleration changes no faster than the jerk limit. |
| C73 | proved | The PID controller is the PID formula | Exact arithmetic, any limits including infinite ones. |
| C74 | partial | Follow-the-gap keeps half the robot's width clear of the gap's edges | False: the margin is atan(w/r), which leaves only w r / sqrt(w^2 + r^2). That bound is proved for fields of view up to pi. |
| C75 | proved | LU factors multiply back to the row-permuted matrix | Exact arithmetic; the permutation, the triangles and the absence of a panic for any scalar. A matrix holding NaN is accepted (C75_not_a_number). |
| C76 | proved | Solving a linear system gives its one solution | Exact arithmetic. |
| C77 | proved | The determinant is the determinant at every size | Exact arithmetic. |
| C78 | proved | An inverse that is returned is the inverse on both sides | Exact arithmetic. |
| C79 | proved | Cholesky accepts exactly the positive definite matrices | Exact arithmetic. A matrix holding NaN is accepted (C79_not_a_number). |
| C80 | proved | A Cholesky factor solves, inverts and gives the determinant | Exact arithmetic. |
| C81 | proved | Pivoted QR factors every matrix with at least as many rows as columns | C81_factor over exact arithmetic, for columns shorter than sqrt(MAX)/rows (beyond that enorm drops small components next to large ones); the other two over any scalar. |
| C82 | proved | Least squares returns the one closest fit, or refuses | Exact arithmetic, columns shorter than sqrt(MAX)/rows. |
| C83 | proved | Damped solves on one factorization solve the damped normal equations | Exact arithmetic, columns shorter than sqrt(MAX)/rows. |
| C84 | partial | The SVD takes every tall matrix apart | Exact arithmetic. The doc's orthonormal left columns are false for a rank-deficient matrix (C84_orthonormal_left_refuted). Convergence of the cyclic sweeps within 60 is not proved beyond two columns; without it the left columns are not shown near-perpendicular. |
| C85 | partial | The pseudo-inverse meets the Moore-Penrose conditions and its solve is the shortest least-squares fit | Exact arithmetic. All four conditions when the left columns are perpendicular and the dropped values zero (always with up to two columns of full rank); the error bound whenever the sweeps settle. Convergence of the sweeps beyond two columns is not proved. |
| C86 | partial | The symmetric eigendecomposition rebuilds the matrix in an orthonormal frame | Exact arithmetic. The eigenpair bound is conditional on the sweeps settling, which the code itself tests, and holds without condition for sizes up to two. |
| C87 | proved | Matrix arithmetic obeys the laws of linear algebra | The first five over any scalar, the others over exact arithmetic. |
| C88 | proved | Vector arithmetic obeys the laws of Euclidean geometry | Exact arithmetic. |
| C89 | partial | The discrete Lyapunov solver returns the accumulated cost, and its certificate means stability | Exact arithmetic. The doc's verdict (accepted only when A shrinks every direction) is false for small costs, because the settling test compares with max(\|P\|, 1) (C89_verdict_refuted). |
| C90 | proved | The discrete Riccati solver's answer is a cost to go that nearly satisfies the equation | Exact arithmetic; refusals for any scalar. That the passes settle for every stabilizable and detectable system is not stated by the property and not proved. |
| C91 | partial | The LQR control is the cheapest input, and the loop it closes settles | Exact arithmetic. The doc of certify_stability is false for small state costs (C91_certificate_refuted). |
| C92 | partial | The matrix exponential is accurate for every matrix, and keeps the exponential's exact identities | Exact arithmetic for the values; the loop in f64. A finite matrix whose column sum overflows never gets an answer (C92_returns_refuted). Rounding of the f64 operations is not bounded. |
| C93 | partial | Zero-order hold and Van Loan's discretization describe the continuous system | Exact arithmetic. The doc's reading of the variance as a continuous spectral intensity is false (C93_intensity_refuted). |
| C94 | proved | Quaternion arithmetic is Hamilton's, and a unit quaternion is a rotation | Exact arithmetic. |
| C95 | partial | The quaternion exponential and logarithm are the power series and its inverse | Exact arithmetic. False for quaternions of norm near the small-angle threshold: the logarithm's test is absolute (C95_tiny_refuted). |
| C96 | partial | Axis and angle go to the turn they describe and come back | Exact arithmetic. An axis no longer than machine epsilon gives the identity (C96_tiny_axis_refuted). |
| C97 | proved | Rotation vectors are the exponential coordinates of rotations | Exact arithmetic. |
| C98 | partial | Euler angles mean roll about x, then pitch about y, then yaw about z, and are read back | Exact arithmetic. In the tolerance band around gimbal lock the rotation read back is off by up to about 1e-7 (C98_pole_refuted). |
| C99 | proved | The rotation between two directions takes one to the other by the shortest turn | Exact arithmetic. |
| C100 | proved | Rotation matrices and pairs of directions determine the rotation | Exact arithmetic. |
| C101 | proved | The angle between rotations is a distance, and spherical interpolation follows the shortest way at constant speed | Exact arithmetic. |
| C102 | proved | Rotations of the plane form a group that angles parametrize | Exact arithmetic. |
| C103 | proved | Rigid motions of the plane: exponential, logarithm, adjoint and jacobians mean what they say | Exact arithmetic. |
| C104 | proved | Jacobians of the rotations of space are the integrals and derivatives they stand for | Exact arithmetic. |
| C105 | proved | Rigid motions of space: group, matrices, exponential, logarithm and interpolation | Exact arithmetic. |
| C106 | proved | Velocities and loads moved between frames keep their physical meaning | Exact arithmetic. |
| C107 | proved | Jacobians of the rigid motions of space are the integrals and derivatives they stand for | Exact arithmetic. |
| C108 | partial | A rigid body's momentum, energy and inertia are those of its particles, in every frame | Exact arithmetic. Construction accepts an indefinite inertia, whose energy is negative and which turned is no longer acceptable (C108_positive_refuted). |
| C109 | partial | A free body's state survives being written as numbers | Exact arithmetic. An orientation of norm at most 2^-52 is refused too (C109_refusal_refuted). |
| C110 | proved | The classical Runge-Kutta method is fourth order and visits the nodes it says | Errors over exact arithmetic; nodes over any scalar. |
| C111 | proved | The adaptive pair is fifth order with a fourth order companion | Exact arithmetic. |
| C112 | proved | An adaptive solve is a chain of accepted steps reaching the end time | Chain and errors over any scalar; content of the steps over exact arithmetic. |
| C113 | partial | Dense output interpolates the steps of a solve | A solve that stops within rounding of the last grid time reports limits out of range instead of the samples (C113_grid_refuted). |
| C114 | proved | Stepping an orientation keeps it a true rotation and follows steady turning exactly | Nodes and errors over any scalar; the rest over exact arithmetic. |
| C115 | partial | Numerical integration over a finite interval is within the composite rule's error of the integral | Exact arithmetic. Step counts above 12000 are not rounded to whole panels (C115_rounding_refuted). |
| C116 | proved | Integration over infinite ranges is the finite rule on the transformed integrand | Reals extended with infinities and NaN; what the cut-off leaves out is not bounded, it depends on the integrand's tail. |
| C117 | proved | Gaussian quadrature of order n is exact below degree 2n up to the digits of its tables | Exact arithmetic on the tabulated decimals; the Gaussian integral and the moments are proved in Proofs/Gaussian.v. |
| C118 | proved | Integrating over several variables gives the iterated integral | Iterative integrators; exact arithmetic. |
| C119 | partial | An integrator reports the first thing wrong and nothing else | No limits at all panics instead of giving an error (C119_empty_refuted). |
| C120 | proved | Automatic differentiation gives the exact derivative up to order six | Formulas of Spec/Expr.v; exact arithmetic. |
| C121 | proved | Automatic partial derivatives are exact, symmetric and consistent with directional ones | Third-order partial derivatives are modelled and shown not to be refused; their values are not proved. |
| C122 | proved | A finite difference is a derivative at a nearby point and converges at the order of its mode | Exact arithmetic: rounding error of the differences is not bounded. |
| C123 | proved | Jacobians hold the partial derivatives and hessians are symmetric | Loops over any scalar; values in exact arithmetic. |
| C124 | proved | Linear and quadratic approximations are the Taylor polynomials, with correct fit metrics | Exact arithmetic; C124_quadratic takes the hessian as the matrix of second partial derivatives, which C123_hessian_ok gives. |
| C125 | proved | Curl and divergence are the combinations of partial derivatives that define them | Formulas of Spec/Expr.v; exact arithmetic. |
| C126 | proved | Line integrals converge to the integral of the field along the curve | Exact arithmetic. |
| C127 | partial | The flux integral converges to the flux of the field across the curve | Refuted: each component is integrated against its own coordinate, so the field (x, y) reports no flux out of the unit circle. |
| C128 | proved | A Kalman filter's covariance is always a covariance, and predicting is exact | Exact arithmetic. |
| C129 | proved | A Kalman update uses the best gain there is, or changes nothing | Exact arithmetic; refusals over any scalar. |
| C130 | proved | A Kalman filter computes the weighted least squares fit of everything it has seen | Exact arithmetic; invertible covariances. |
| C131 | proved | An extended Kalman filter is the linear filter at the jacobian of its models | Refusals and the reduction to the linear filter over any scalar; the rest over exact arithmetic. |
| C132 | proved | An unscented prediction is the weighted average and spread of the model over the sigma points | Exact arithmetic. |
| C133 | partial | Unscented updates keep the covariance valid and agree with the linear filter on linear models | A second update after one prediction can make the covariance negative (C133_repeat_refuted). With process noise the update differs from the linear filter's, the readings being taken at points drawn before the noise was added (C133_affine_refuted); without it they agree (C133_affine_partial). |
| C134 | partial | The ready-made vehicle model follows the exact arc, and angle residuals are folded | A difference of exactly half a turn is folded to minus half a turn, outside the documented range (C134_range_refuted); the closed range is proved. |
| C135 | proved | A differential drive and its odometry are the motion of a body that rolls without slipping | Exact arithmetic; construction over the extended reals. |
| C136 | proved | A body under the attitude controller's torque converges to its moving target | Exact arithmetic; the inertia taken to be exactly symmetric. |
| C137 | partial | An attitude filter follows a body it starts on and comes level on a still one | In a field that dips, the magnetometer's correction also tips a level body (C137_heading_refuted); in a level field it is a turn about the vertical (C137_heading_partial). Coming level is proved with the offset gain zero. |
| C138 | partial | Resampling picks sources by weight | A draw of exactly zero makes multinomial and residual resampling pick a first source of weight zero (C138_zero_weight_refuted); that is the only case (C138_zero_weight_partial). |
| C139 | partial | A particle filter update is Bayes' rule, and its weights stay a distribution | One NaN score among good ones refuses the update but overwrites the weights with NaN, and every later update is refused until the caller resamples (C139_nan_stays, C139_refused_refuted). Histories are proved for scores that are never NaN. |
| C140 | proved | A particle cloud is drawn, moved, scored and summarized as documented | Prediction and update over any scalar; the rest over exact arithmetic with exactly symmetric covariances. |
| C141 | partial | Gauss-Newton reports the truth and solves affine problems in one step | With backtracking, a run whose 21 trials all fail takes the smallest step although it raises the cost, and may then report convergence at a worse point than the start (C141_backtracking_refuted); otherwise the norm goes down (C141_backtracking_partial). Reports and refusals over any scalar, the rest over exact arithmetic. |
| C142 | proved | Levenberg-Marquardt never makes the fit worse and its trial steps are optimal within their length | Reports and refusals over any scalar, the rest over exact arithmetic. |
| C143 | proved | A Monte Carlo localizer weighs its guesses by Bayes' rule and reports where they agree | Building, moving and the estimate in exact arithmetic; the scan over the extended reals, so readings may be infinite or NaN. A beam that only touches the edge of an occupied square may count either way, as in C37. |
| C144 | proved | A kinematic tree only ever holds joints that fit | Any scalar; the length of a stored axis in exact arithmetic. |
| C145 | proved | Forward kinematics puts every joint where its own motion, its origin and its parent take it | Which answer is given over any scalar, the poses in exact arithmetic with unit origins. A turn is taken to be none or at least 30 machine epsilons: below, the code takes a polynomial for the sine and cosine. |
| C146 | partial | The geometric Jacobian times the joint rates is the velocity of the tool | Exact arithmetic. C146_velocity takes a floating joint's origin to be unturned; with a turned origin the code's Jacobian is wrong: its first three columns are the world's axes although the joint slides along the turned ones (C146_floating_origin_refuted). |
| C147 | partial | Inverse kinematics reports what its run did and stays inside the joint limits | Refusals and the report over any scalar, the rest in exact arithmetic. With a budget of no passes the residuals reported are both zero whatever the target (C147_zero_budget_refuted); C147_report takes at least one pass to be allowed. What the step itself is: C148. |
| C148 | partial | The inverses of the Jacobian are damped least squares and the smallest singular value is the least push felt | Exact arithmetic. C148_step, C148_inverse and C148_projector take the library's decomposition of the six by six matrix to have come to rest with every value above the cut (C148_enough says when), and then hold for an error, twist or wish that differs by some parts in 2^52; C148_exact drops both for an exact decomposition of any rank. That the sweeps come to rest is not proved. With damping the projector's rates do move the tool (C148_projector_refuted). |
| C149 | proved | Inverse kinematics from several starts keeps the distinct branches, first found first | Runs and drawn seeds for any scalar; the distance, the range of a redrawn reading and the closest answer in exact arithmetic. Below 30 machine epsilons the angle between orientations is measured by twice the sine of its half. A floating joint whose quaternion has no direction counts for nothing (C149_unreadable_refuted). |
| C150 | proved | Spheres and capsules: the distance is that of the solids, and a query reports the closest pair looked at | Distances in exact arithmetic; filling and checking for any scalar, the least distance and is_clear in exact arithmetic. Two capsules that overlap can be given a clearance of 0.4, when one is short and at an angle (C150_parallel_refuted). A distance that is not a number is reported clear (C150_unreadable_refuted). Which of equally near pairs is reported is not stated. |
| C151 | proved | A rigid body moves as its particles do under Newton's laws, and the tick is the midpoint rule | Exact arithmetic; which inputs are refused as not finite for any scalar. Motions are those whose thirteen numbers are differentiable and follow the derivative at every time; that one exists for every load is not stated. That the error of many ticks shrinks with the square of the tick is not stated. A thin body is refused as singular although its inertia is positive definite and has an inverse (C151_thin_refuted). The two turns in a tick must be nought or no smaller than the cut-over to a series. |
| C152 | proved | The minimum snap plan passes its waypoints on time and no path with the same ends costs less snap | Exact arithmetic; the refusals for any scalar. Which durations leave the system of several segments well conditioned is not stated; two segments of one second are (C152_example). |
| C153 | proved | Folding an error into a tracked state and taking it back out are inverse, and the IMU step follows the motion | Exact arithmetic; finiteness for any scalar. |
| C154 | proved | The error-state filter carries its covariance with the true slope of the motion, folds readings in with the best gain, and keeps a covariance whatever is done to it | Exact arithmetic; the refusals for any scalar. The transition is the derivative of the error apart from the two blocks the code simplifies, which the theorem states exactly: the position rows leave out the half-step of the push, and the block from turn-rate offset to turn is exact only for a body not turning. The slope is for sensors given by formulas in the sixteen numbers of a state. |
| C155 | proved | Newton's method for systems reports the truth about where it stopped, and solves linear systems exactly | Outcomes for any scalar; the step, the fall of the residual and linear systems in exact arithmetic, the step for systems given by formulas where they are smooth. |

## 6. Which parts of the code are modelled

| model file | source files cited |
|---|---|
| `Approximation.v` | crates/multicalc/src/approximation/ |
| `AttitudeControl.v` | crates/multicalc/src/control/geometric_attitude.rs, over any scalar. |
| `AttitudeFilter.v` | crates/multicalc/src/estimation/{attitude_correction,mahony_filter,madgwick_filter}.rs, over any scalar. [MahonyFilter] and [MadgwickFilter] have the same six fields up to the names of the two gains and the same methods up to [step]; one record stands for both. A method on [&mut self] gives back the filter it leaves and its result. |
| `Biquad.v` | crates/multicalc/src/signal_processing/biquad.rs and cascade.rs |
| `Cholesky.v` | crates/multicalc/src/linear_algebra/cholesky.rs, over any scalar. |
| `Collision.v` | Spheres and capsules: how far apart two of them are, and the query over those attached to a kinematic tree and those around it. Models crates/multicalc/src/kinematics/collision.rs over any scalar. The capacities MAX_SELF, MAX_ENVIRONMENT and MAX_EXCLUDED are arguments of the functions that fill the lists; a list holds the entries in use, without the filler behind them. The state of a tree is the list of its poses, as in Model/KinematicTree.v. |
| `Conditioning.v` | crates/multicalc/src/signal_processing/conditioning.rs and one_pole.rs |
| `Derivative.v` | crates/multicalc/src/numerical_derivative/. A [ScalarFn], [ScalarFnN] or [VectorFn] is code generic over the scalar (function.rs:13-32): a function that works for every [Num]. Arrays are lists; the number of variables is the length of the point. Derivators carry no state. |
| `Drive.v` | crates/multicalc/src/kinematics: differential_drive.rs, odometry.rs and unicycle.rs, over any scalar. |
| `Dual.v` | crates/multicalc/src/scalar/dual.rs: forward-mode dual numbers, over any scalar. |
| `ErrorState.v` | crates/multicalc/src/estimation/error_state_kalman_filter.rs, over any scalar. The error has [ERROR_DIMENSION] = 15 numbers and [m] is MEASUREMENT_DIMENSION; the compile-time check that it is not zero is a hypothesis of the theorems that need it. A method on [&mut self] gives back the filter it leaves and its result. |
| `Errors.v` | crates/multicalc/src/error.rs: the error values the modelled functions return. Only constructors that a modelled function can return are listed. |
| `Expm.v` | crates/multicalc/src/linear_algebra/expm.rs and discretization/mod.rs, over any scalar. |
| `FollowGap.v` | crates/multicalc/src/control/follow_the_gap.rs, over any scalar. A scan [&[T; BEAMS]] is a list; [BEAMS] is passed as [beams]. [BodyTwist] (kinematics/differential_drive.rs:49-52) is its two fields, [fo_linear] and [fo_angular]. |
| `GaussTables.v` | crates/multicalc/src/gaussian_tables/{legendre,hermite,laguerre}.rs: the tabulated (weight, abscissa) pairs of every order. A decimal literal is its digits and how many of them follow the point. The lines of each table are cited beside it. |
| `HyperDual.v` | crates/multicalc/src/scalar/hyper_dual.rs: second-order dual numbers, over any scalar. |
| `Integration.v` | crates/multicalc/src/numerical_integration/ and gaussian_tables/mod.rs. A sampled integrand is a function to [Res T IntegrateError]: the closures the code passes only overwrite the slot of the integrated variable before each sample, so they are functions of the sample. Iteration counts, [u64] in the code, are naturals. |
| `InverseKinematics.v` | Weighted inverses of the geometric Jacobian, damped least squares inverse kinematics and its multi-start wrapper. Models crates/multicalc/src/kinematics/kinematic_jacobian.rs:180-424, inverse_kinematics.rs and multi_start_inverse_kinematics.rs, over any scalar. MAX_JOINTS, MAX_CONFIG and MAX_STARTS are arguments of the functions that read them. The builder methods are those of a record. A [Vector<MAX_CONFIG, T>] is the list of its entries, and writing past its end does nothing, as [get_mut] answers [None]. The loops over [0..tree.len()] that [continue] when the tree has no such joint are folds over the indices. The kept solutions of a MultiStartReport are the list of those in use, and the random source is any state with a function that draws from it. |
| `Jet.v` | crates/multicalc/src/scalar/jet.rs: truncated Taylor series, over any scalar. A [Jet<T, N>] is the list of its [N] coefficients. [N] is a parameter of the operations; with [N = 0] the code does not compile past [constant] (it indexes an empty array), so theorems ask for [N] at least one. Reads are [nth _ _ zero]; every index the code reads is below [N]. |
| `Kalman.v` | crates/multicalc/src/estimation/{kalman_filter,extended_kalman_filter,unscented_kalman_filter,models}.rs, over any scalar. [n] is STATE_DIMENSION and [m] is MEASUREMENT_DIMENSION; the compile-time checks that neither is zero are hypotheses of the theorems that need them. A method on [&mut self] gives back the filter it leaves and its result. |
| `KinematicTree.v` | Joints, kinematic trees, forward kinematics and the geometric Jacobian. Models crates/multicalc/src/kinematics/joint.rs, kinematic_tree.rs, kinematic_tree_state.rs and kinematic_jacobian.rs:1-178, over any scalar. MAX_JOINTS and MAX_CONFIG are arguments of the functions that read them. A tree is the lists of its joints and parents in use ([joints[..length]], [parents[..length]]); the slots past [length] are never read. The builder methods and getters of a joint are those of a record. A [Vector<3, T>] is the triple of its components; the armature, damping and friction of a joint are kept as the code keeps them, but only [push] looks at them. A KinematicTreeState is the list of its [length] poses. |
| `Lie.v` | crates/multicalc/src/spatial/lie (mod.rs, so2.rs, so3.rs, se2.rs, se3.rs), twist.rs, wrench.rs, inertia.rs and free_joint.rs, over any scalar. A [Vector<2, T>] is the pair of its components, a [Vector<6, T>] the pair of its first and last three. |
| `Localizer.v` | The Monte Carlo localizer. Models crates/multicalc/src/estimation/monte_carlo_localizer.rs. NUM_BEAMS is an argument of the functions; the random source is that of Model/ParticleFilter.v; a map is one of Model/Mapping.v. |
| `Lu.v` | crates/multicalc/src/linear_algebra/lu.rs, and the determinant and inverse of matrix.rs, over any scalar. |
| `Mapping.v` | Occupancy maps and the beams of a range scan. Models crates/multicalc/src/mapping/occupancy_grid.rs and mapping/scan_geometry.rs. Cell indices and sizes are integers: the code's usize and isize arithmetic does not wrap as long as a map has at most isize::MAX columns and rows, which the theorems that need it assume. [to_usize x] is [x.to_f64() as usize]; a whole number compared with zero after [to_f64] compares the same before it, because that conversion is exact for f32 and f64. |
| `Matrix.v` | crates/multicalc/src/linear_algebra/matrix.rs, over any scalar. A [Matrix<ROWS, COLS, T>] is the list of its rows, each the list of its entries. The sizes, which the compiler carries in the type, are arguments where the code reads them. Reading or writing an entry outside the matrix panics in the code; here the read gives zero and the write changes nothing, and the proofs show that the modelled functions stay inside. |
| `MinimumSnap.v` | Planning the smoothest path through waypoints. Models crates/multicalc/src/motion/minimum_snap.rs and polynomial/construction.rs:287-334, 403-426 over any scalar. A [Vector] is the list of its entries, a polynomial the list of its coefficients. The three sizes of the planner's type are the arguments [max_segments], [max_free] and [dimension]. |
| `Motion.v` | crates/multicalc/src/motion/motion_profile.rs and polyline_path.rs, over any scalar. |
| `Multivariate.v` | crates/multicalc/src/polynomial/multivariate.rs, over any scalar. A [MultivariatePolynomial<VARIABLES, MAX_TERMS>] is the list of its terms in use ([terms[..length]]); the slots past [length] are not modelled, since every method reads through [terms()] or below [length]. MAX_TERMS is an argument where it matters. Exponents (u32) are [N]. |
| `NewtonSystem.v` | crates/multicalc/src/root_finding/newton_system.rs, over any scalar. The number of unknowns N is the length of the initial guess. |
| `Ode.v` | crates/multicalc/src/ode/{rk4,rk45,tableau,exponential_map}.rs, over any scalar. The right-hand side is a pure function; the observer's calls are the list of what it was handed, oldest first. |
| `Optimization.v` | crates/multicalc/src/optimization/mod.rs, crates/multicalc/src/optimization/gauss_newton.rs, crates/multicalc/src/optimization/levenberg_marquardt.rs and crates/multicalc/src/optimization/trust_region.rs, over any scalar. [m] is the number of residuals (the const generic M); the number of parameters N is the length of the initial guess. |
| `ParticleFilter.v` | crates/multicalc/src/estimation/particle_filter.rs, over any scalar. A [RandomSource] is a state with two operations, the uniform and the normal draw; [next_normal] is total, so a generator on which the rejection loop of random.rs:40-50 never ends is left out. The models are only ever evaluated at the filter's own scalar, so they are plain functions here. The three scratch buffers are written before they are read in every call and hold nothing between calls; they are left out. A method on [&mut self] gives back the filter it leaves and its result. |
| `Pid.v` | crates/multicalc/src/control/pid.rs, over any scalar. |
| `Piecewise.v` | crates/multicalc/src/polynomial/piecewise.rs, over any scalar. A [PiecewisePolynomial<MAX_PIECES, COEFFICIENTS_PER_PIECE, DIMENSION>] is the list of its pieces in use and the list of their spans, both of length [length]; the unused slots of the two arrays are not modelled, since no method reads them. A piece is the list of its DIMENSION polynomials (Model/Polynomial.v), a Vector the list of its components. |
| `Plant.v` | crates/multicalc/src/plant: the rotor mixer and the rotor lag, over any scalar. |
| `Polynomial.v` | crates/multicalc/src/polynomial/polynomial.rs and construction.rs, over any scalar. A [Polynomial<COEFFICIENT_COUNT>] is the list of its coefficients, lowest power first; its length is COEFFICIENT_COUNT. Where the code names the size of an output, the size is an argument. |
| `Qr.v` | crates/multicalc/src/linear_algebra/qr.rs, over any scalar. |
| `Quaternion.v` | crates/multicalc/src/spatial/quaternion.rs and the thresholds of spatial/mod.rs, over any scalar. A [Vector<3, T>] is written as the triple of its components, and goes through the list of Model/Vector.v for the operations the code takes from vector.rs. |
| `Random.v` | crates/multicalc/src/random.rs |
| `Riccati.v` | crates/multicalc/src/linear_algebra/lyapunov.rs and riccati.rs, and control/lqr.rs, over any scalar. |
| `RigidBody.v` | A free rigid body and what the forces on it do to it. Models crates/multicalc/src/dynamics/rigid_body.rs over any scalar. A [Vector<13, T>] is the list of its entries. |
| `RootFinding.v` | crates/multicalc/src/root_finding: bisection, Brent and scalar Newton, over any scalar. The function whose root is sought is any function on the scalar: the library's [ScalarFn] at the solver's scalar type. Loops [for iter in 1..=max_iterations] recurse on the iterations left. |
| `Roots.v` | crates/multicalc/src/polynomial/roots.rs, over any scalar. |
| `Summation.v` | crates/multicalc/src/utils/summation.rs |
| `Svd.v` | crates/multicalc/src/linear_algebra/svd.rs and symmetric_eigendecomposition.rs, over any scalar. |
| `Unscented.v` | crates/multicalc/src/estimation/unscented_kalman_filter.rs, over any scalar. [n] is STATE_DIMENSION and [m] is MEASUREMENT_DIMENSION. The models are only ever evaluated at the filter's own scalar, so they are plain functions here. A method on [&mut self] gives back the filter it leaves and its result. |
| `Vector.v` | crates/multicalc/src/linear_algebra/vector.rs, over any scalar. A [Vector<N, T>] is the list of its N components. The compiler keeps the sizes of two operands equal; here the componentwise operations stop at the shorter list, and the theorems only put vectors of one size together. |
| `VectorField.v` | crates/multicalc/src/vector_field/ |
| `Window.v` | crates/multicalc/src/signal_processing/window.rs and savitzky_golay.rs |

Source files of `crates/multicalc/src` that no model file names are not modelled, and neither is the crate `multicalc-robot-model`.
