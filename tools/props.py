#!/usr/bin/env python3
"""Single source of properties.jsonl: run it to regenerate the file."""
import json, os
M = "crates/multicalc/src/"
P = []
def p(title, statement, quantifier, why, *anchors):
    P.append(dict(id="C%02d" % (len(P) + 1), title=title, statement=statement,
                  quantifier=quantifier, why_tests_cant=why,
                  anchors=[dict(file=M + f if not f.startswith("crates/") else f, symbols=s) for f, s in anchors]))

# ---------------------------------------------------------------- random
p("Pcg32 visits every 64-bit state before repeating",
  "For every stream, the state of a Pcg32 advances by a fixed rule whose orbit from any state is the whole set of 2^64 states: the generator returns to a state after exactly 2^64 draws and never earlier, and every 64-bit state is reached.",
  "every stream, every starting state, every number of draws",
  "The period is 2^64; no test can walk it.",
  ("random.rs", ["Pcg32::next_u32", "PCG_MULTIPLIER"]))
p("Raw draws are a function of seed and stream and stay in range",
  "Every 32-bit draw is in [0, 2^32), every 64-bit draw is the two consecutive 32-bit draws with the first in the high half, every state stays a 64-bit value, and the whole sequence of draws depends only on the seed and the stream.",
  "every seed, every stream, every number of draws",
  "Quantifies over all 2^128 seed/stream pairs and all sequence lengths.",
  ("random.rs", ["RandomSource::next_u32", "RandomSource::next_u64", "Pcg32::with_stream"]))
p("Different streams draw different sequences",
  "Two generators built from the same seed on two different streams do not produce the same sequence of draws.",
  "every seed and every pair of distinct streams",
  "The claim is about all pairs of 2^64 streams.",
  ("random.rs", ["Pcg32::with_stream"]))
p("next_unit is in the half-open unit interval",
  "A uniform draw is never negative and never reaches 1, for f64 (53 bits) and f32 (24 bits), whatever the generator returns, and equals k/2^53 (k/2^24) exactly for the top bits k of the draw.",
  "every raw word the generator can return, both float widths",
  "Needs all 2^64 raw words; rounding up to 1.0 is the classical failure.",
  ("random.rs", ["RandomScalar for f64", "RandomScalar for f32"]))
p("Standard-normal draws come in pairs, the second one free",
  "When standard_normal returns it has consumed whole pairs of uniform draws up to the first pair strictly inside the unit disc and not at its centre, returns the first of the two polar-method values of that pair, and the next call returns the second one without consuming any draw; a call after that starts afresh.",
  "every sequence of raw words on which the rejection loop stops, every interleaving of calls",
  "The property ranges over all histories of calls and all random words, including long rejection runs.",
  ("random.rs", ["RandomSource::standard_normal", "Pcg32::get_cache", "Pcg32::set_cache"]))
# ---------------------------------------------------------------- summation
p("Pairwise and Kahan sums lose and repeat nothing",
  "In exact arithmetic the total of the pairwise accumulator and of the Kahan accumulator after any run of additions is the plain sum of the terms added, whatever their number, including past every internal capacity.",
  "every sequence of terms of every length",
  "Block and level boundaries (128 terms, 32 levels, more than 2^38 terms) are out of reach of tests.",
  ("utils/summation.rs", ["PairwiseSum::add", "PairwiseSum::total", "KahanSum::add", "KahanSum::total"]))
p("Rounding error of the pairwise sum is bounded",
  "With every addition rounded to nearest, the pairwise total differs from the exact sum by at most ((1+u)^d - 1) times the sum of absolute values, where d counts the additions any one term goes through: at most one block of 128 plus one addition per level, instead of one per term.",
  "every sequence of finite terms, any rounding with relative error u",
  "An error bound is a statement about all inputs.",
  ("utils/summation.rs", ["PairwiseSum::add", "PairwiseSum::push", "PairwiseSum::total"]))
# ---------------------------------------------------------------- scalar
p("powi is the mathematical power",
  "powi(x, n) is x multiplied by itself n times, one for n = 0, and the reciprocal for negative n, for every 32-bit exponent including i32::MIN.",
  "every base of any commutative ring or field scalar, every i32 exponent",
  "Exponentiation by squaring has a case per exponent bit pattern.",
  ("scalar/numeric.rs", ["Numeric::powi"]))
p("Forward-mode dual numbers compute exact derivatives",
  "Evaluating any function written with the scalar operations on a dual number seeded with 1 returns the function's value and its exact derivative at that point, wherever the operations involved are differentiable.",
  "every formula built from the scalar operations, every point in its domain of differentiability",
  "Ranges over all programs.",
  ("scalar/dual.rs", ["Dual", "impl Numeric for Dual"]))
p("Hyper-dual numbers compute exact second derivatives",
  "Evaluating a function on a hyper-dual number returns the value, both first directional derivatives and the exact mixed second derivative.",
  "every formula built from the modelled operations, every point in its domain",
  "Ranges over all programs.",
  ("scalar/hyper_dual.rs", ["HyperDual::chain", "impl Mul for HyperDual"]))
p("Jets compute every Taylor coefficient",
  "Arithmetic on jets is arithmetic of power series cut off at the jet's order, so that evaluating a function on Jet::variable(x) yields f^(k)(x)/k! for every k below the order.",
  "every formula built from the modelled operations, every order, every point in the domain",
  "Ranges over all programs and all orders.",
  ("scalar/jet.rs", ["impl Mul for Jet", "impl Div for Jet", "Jet::sqrt", "Jet::exp", "Jet::log", "Jet::sin_cos"]))
p("Derivative scalars never change the value computed",
  "The value part of any formula, including formulas that branch on comparisons, evaluated over dual, hyper-dual or jet scalars equals the formula evaluated over the plain scalar.",
  "every formula built from the operations and comparisons, every input and every seed of derivative parts",
  "Ranges over all programs and all control flow paths.",
  ("scalar/dual.rs", ["impl PartialOrd for Dual"]), ("scalar/hyper_dual.rs", ["HyperDual"]), ("scalar/jet.rs", ["Jet"]))
p("clamp never panics",
  "Clamping a number between two bounds returns a number for every choice of bounds; the library advertises no panics.",
  "every value and every pair of bounds, including reversed and NaN bounds",
  "Needs every pair of floats.",
  ("scalar/numeric.rs", ["Numeric::clamp for f64"]))
# ---------------------------------------------------------------- root finding
p("Bisection keeps a sign change and stays in the bracket",
  "Whenever bisection succeeds, the reported root lies in the closed bracket the caller gave, the reported residual is the function's value there, and the iteration count is within the budget; the final bracket still holds a sign change.",
  "every function, every bracket, every tolerance and budget",
  "Ranges over all functions.",
  ("root_finding/bisection.rs", ["Bisection::solve"]))
p("Bisection converges to a true root at the stated rate",
  "For a continuous function with a sign change over the bracket, bisection with a budget of at least log2(width/tolerance) + 1 iterations succeeds and, unless it stopped on the residual tolerance, its answer is within the bracket tolerance of a true zero.",
  "every continuous function, every bracket with a sign change, every positive tolerance",
  "A convergence statement over all functions.",
  ("root_finding/bisection.rs", ["Bisection::solve"]))
p("Bisection's default budget always suffices",
  "With the default settings, a valid bracket never runs out of iterations (as documented on the budget).",
  "every valid bracket of finite numbers",
  "Depends on the widest representable bracket.",
  ("root_finding/bisection.rs", ["Bisection::new", "Bisection::solve"]))
p("Brent keeps the root bracketed and reports truthfully",
  "Whenever Brent's method succeeds, the reported point lies inside the caller's bracket, the residual is the function's value there, the count is within budget, and when it stops on the bracket width a sign change lies within twice the tolerance of the answer.",
  "every function, every bracket, every tolerance and budget",
  "Ranges over all functions and all interpolation/bisection schedules.",
  ("root_finding/brent.rs", ["Brent::solve"]))
p("Newton's report is truthful and bounded",
  "A successful Newton report's residual is the function's value at the reported root, is within tolerance when the reason given is the residual, the iteration count never exceeds the budget, and no branch of the solver evaluates more than a fixed number of backtracking points per iteration.",
  "every function with derivative, every start, every tolerance and budget",
  "Ranges over all functions.",
  ("root_finding/newton.rs", ["Newton::solve"]))
# ---------------------------------------------------------------- signal processing
p("A biquad realises its difference equation",
  "From rest, the outputs of a biquad are exactly y[n] = b0 x[n] + b1 x[n-1] + b2 x[n-2] - a1 y[n-1] - a2 y[n-2] with zero history, for every input sequence; reset returns it to that state.",
  "every coefficient set, every input sequence of every length",
  "The equivalence of the internal form with the equation is over all histories.",
  ("signal_processing/biquad.rs", ["Biquad::filter", "Biquad::reset"]))
p("Linear filters are linear",
  "Filtering a sum of two input sequences, or a scaled one, gives the sum, or the scaled, output sequence, for biquads, cascades and multi-channel filters.",
  "every coefficient set, every pair of input sequences, every scale",
  "Superposition is a statement over all inputs.",
  ("signal_processing/biquad.rs", ["Biquad::filter"]), ("signal_processing/cascade.rs", ["BiquadCascade::filter", "MultiChannelBiquad::filter"]))
p("is_stable is exactly pole-inside-the-unit-circle, and implies bounded output",
  "is_stable holds if and only if both poles of the filter lie strictly inside the unit circle; and for a stable filter every bounded input gives a bounded output while an input that stops leaves an output that decays to zero.",
  "every pair of feedback weights, every bounded input sequence",
  "Asymptotic statement over infinite histories.",
  ("signal_processing/biquad.rs", ["BiquadCoefficients::is_stable"]))
p("Every designed filter is stable",
  "Any coefficients returned by low_pass, high_pass, band_pass or notch are stable, as the documentation of is_stable states.",
  "every accepted frequency, quality factor and timestep",
  "Three real parameters; failures hide in corners such as low quality factors.",
  ("signal_processing/biquad.rs", ["BiquadCoefficients::low_pass", "BiquadCoefficients::high_pass", "BiquadCoefficients::band_pass", "BiquadCoefficients::notch", "BiquadCoefficients::is_stable"]))
p("Designed filters have the advertised gain at zero frequency, at the centre and at half the sampling rate",
  "A low-pass and a notch pass a constant unchanged, a high-pass and a band-pass remove it; a band-pass passes its centre frequency with gain one, a notch removes its centre frequency completely; low-pass and band-pass remove half the sampling rate, which high-pass and notch pass.",
  "every accepted frequency, quality factor and timestep",
  "Continuous family of designs.",
  ("signal_processing/biquad.rs", ["BiquadCoefficients::low_pass", "BiquadCoefficients::magnitude_at"]))
p("settle_to is a fixed point",
  "After settle_to(v), feeding v returns the same settled value forever, for a single section and for a cascade, whenever the filter's zero-frequency gain is defined.",
  "every coefficient set with a defined gain, every value, every number of further samples",
  "All histories.",
  ("signal_processing/biquad.rs", ["Biquad::settle_to"]), ("signal_processing/cascade.rs", ["BiquadCascade::settle_to"]))
p("A cascade is the composition of its sections and retuning one touches only that one",
  "The output sequence of a cascade is the composition of its sections' output sequences; set_section replaces exactly one section's weights, keeps all memories and leaves the others untouched; an index out of range changes nothing and is reported.",
  "every section list, every input sequence, every index",
  "All histories and indices.",
  ("signal_processing/cascade.rs", ["BiquadCascade::filter", "BiquadCascade::set_section", "BiquadCascade::reset"]))
p("Moving average is the mean of the last WINDOW samples",
  "Each output is the mean of the last WINDOW samples, where the time before the first sample counts as the first sample; reset forgets everything.",
  "every window size, every sequence of samples and resets",
  "Ring-buffer wrap-around over all histories.",
  ("signal_processing/window.rs", ["MovingAverage::filter", "MovingAverage::reset", "push"]))
p("Running median is the middle of the last WINDOW samples",
  "Each output is an element of the last WINDOW samples (padded with the first sample) with at most half of them below it and at most half above; so fewer than half outliers can never push the output outside the range of the others.",
  "every odd window size, every sequence of samples and resets",
  "All orderings and all histories.",
  ("signal_processing/window.rs", ["RunningMedian::filter", "RunningMedian::reset"]))
p("Savitzky-Golay reproduces polynomials exactly",
  "A Savitzky-Golay filter with TERMS terms reproduces every polynomial of degree below TERMS exactly once its window is full, at the position it was built for.",
  "every window, every number of terms, every polynomial of admissible degree, every window position",
  "All polynomials and all windows.",
  ("signal_processing/savitzky_golay.rs", ["SavitzkyGolay::centered", "SavitzkyGolay::latest", "SavitzkyGolay::filter"]))
p("Constructors reject a zero window with an error, not a panic",
  "Building a window filter with a zero-length window returns the documented error rather than failing.",
  "every constructor taking a window length",
  "Corner case in const-generic arithmetic.",
  ("signal_processing/savitzky_golay.rs", ["SavitzkyGolay::latest", "SavitzkyGolay::centered"]), ("signal_processing/window.rs", ["MovingAverage::new", "RunningMedian::new"]))
p("Deadband silences the band and joins continuously",
  "Inputs within the band give exactly zero; outside it the output follows the documented law, keeps the input's sign, and is never larger in size than the input.",
  "every width, every mode, every input",
  "All inputs.",
  ("signal_processing/conditioning.rs", ["Deadband::new", "Deadband::apply"]))
p("Hysteresis switches only on crossing the outer thresholds",
  "The output after any history is decided by the last sample that was outside the two thresholds (on if it was above the upper, off if below the lower), or the initial value if there is none.",
  "every pair of thresholds, every history including NaN samples",
  "All histories.",
  ("signal_processing/conditioning.rs", ["Hysteresis::new", "Hysteresis::update"]))
p("The slew limiter bounds every step, never overshoots and arrives",
  "Each output moves toward the target by at most the rise (fall) rate times the timestep, never passes the target, and a constant target is reached after a bounded number of samples and then held.",
  "every rates and timestep, every target history",
  "All histories.",
  ("signal_processing/conditioning.rs", ["SlewRateLimiter::new", "SlewRateLimiter::filter"]))
p("The one-pole filter stays within the range of its inputs and converges",
  "After any history the output lies between the smallest and largest sample since the last reset, a smoothing of one passes samples through, and a constant input makes the output approach it geometrically with ratio one minus the smoothing.",
  "every smoothing in [0,1], every history",
  "All histories.",
  ("signal_processing/one_pole.rs", ["OnePoleLowPass::new", "OnePoleLowPass::from_cutoff", "OnePoleLowPass::filter"]))
# ---------------------------------------------------------------- mapping
p("An occupancy grid is a map from cells to flags",
  "For any sequence of set_cell, clear and queries, a cell reads occupied exactly when the last write to that cell since the last clear marked it; writes outside the grid change nothing and outside cells read as not occupied; no write affects another cell.",
  "every grid size, every sequence of operations",
  "All operation histories.",
  ("mapping/occupancy_grid.rs", ["OccupancyGrid::set_cell", "OccupancyGrid::is_occupied", "DynamicOccupancyGrid::set_cell", "DynamicOccupancyGrid::index_of"]))
p("cell_of returns the cell containing the point",
  "cell_of returns a cell exactly when the point lies in the map, and then the point is within that cell's half-open square; anything else, including a coordinate that is not a number, gives none.",
  "every map placement and resolution, every point including NaN and infinities",
  "All floats.",
  ("mapping/occupancy_grid.rs", ["OccupancyMap::cell_of"]))
p("Casting a ray always finishes",
  "cast_ray finishes after at most columns + rows cell steps whatever the numbers are, including NaN, infinite and denormal positions and bearings.",
  "every scalar type and every value of start, bearing, resolution, range, every map",
  "Termination for all floats.",
  ("mapping/occupancy_grid.rs", ["OccupancyMap::cast_ray"]))
p("cast_ray reports the first obstacle along the beam",
  "If cast_ray returns a distance, it is within the maximum range, the beam's point at that distance is on an occupied cell, and the beam crosses the interior of no occupied cell before it; if it returns none, the beam enters no occupied cell's interior within the maximum range.",
  "every map, every start and bearing, every range",
  "Continuous family of beams over all maps.",
  ("mapping/occupancy_grid.rs", ["OccupancyMap::cast_ray", "entry_distance", "boundary_distance", "clamp_index"]))
p("A drawn polyline has no gaps",
  "The cells marked by occupy_polyline along one edge form a chain in which consecutive samples fall in the same or a neighbouring (edge or corner) cell, and both end points' cells are marked.",
  "every polyline, resolution and map",
  "All segments.",
  ("mapping/occupancy_grid.rs", ["OccupancyMap::occupy_polyline"]))
p("A drawn circle has no gaps",
  "Consecutive samples of occupy_circle fall in the same or a neighbouring cell, so that no beam slips through, as documented.",
  "every radius and resolution",
  "Large radii relative to the resolution are not sampled.",
  ("mapping/occupancy_grid.rs", ["OccupancyMap::occupy_circle"]))
p("Beam numbering and beam angles agree",
  "Beam angles increase evenly from minus half to plus half the field of view; nearest_beam_index of a beam's own angle is that beam; for any angle in the arc the index returned is of a nearest beam; outside the arc the answer is none.",
  "every accepted geometry, every beam index, every angle",
  "All angles and geometries.",
  ("mapping/scan_geometry.rs", ["ScanGeometry::beam_angle", "ScanGeometry::nearest_beam_index", "ScanGeometry::try_new"]))
p("Beam numbering round-trips in floating point",
  "In f64, nearest_beam_index(beam_angle(i)) is i for every beam of every accepted geometry.",
  "every f64 geometry, every beam index",
  "All floats: depends on rounding.",
  ("mapping/scan_geometry.rs", ["ScanGeometry::beam_angle", "ScanGeometry::nearest_beam_index"]))
# ---------------------------------------------------------------- polynomial
p("Polynomial evaluation is the sum of coefficient times power",
  "evaluate(x) is the sum of c_k x^k and evaluate_with_derivatives returns the value and every requested derivative at x, zero beyond the degree.",
  "every coefficient list of every length, every point, every number of orders",
  "All lengths and orders.",
  ("polynomial/polynomial.rs", ["Polynomial::evaluate", "Polynomial::evaluate_with_derivatives"]))
p("Polynomial calculus is calculus",
  "derivative and nth_derivative evaluate to the true derivatives of the evaluated function, and definite_integral is the true integral between the bounds (negated when reversed, additive over adjacent ranges).",
  "every polynomial, order and bounds",
  "All polynomials and bounds.",
  ("polynomial/polynomial.rs", ["Polynomial::derivative", "Polynomial::nth_derivative", "Polynomial::definite_integral"]))
p("Polynomial algebra agrees with pointwise arithmetic",
  "Addition, subtraction, negation, scaling, multiply_into, compose_into, shift_argument and scale_argument evaluate to the pointwise sum, difference, negation, multiple, product, composition, shift and stretch; try_resize and a successful product or composition never change a value silently, and they fail exactly when a non-zero term does not fit.",
  "every pair of polynomials of every length, every output size, every point",
  "All lengths and all values.",
  ("polynomial/polynomial.rs", ["Polynomial::multiply_into", "Polynomial::compose_into", "Polynomial::shift_argument", "Polynomial::scale_argument", "Polynomial::try_resize"]))
p("Polynomial long division satisfies the division identity",
  "Whenever divide succeeds, dividend = quotient * divisor + remainder as functions and the remainder's degree is below the divisor's; it fails only for a zero divisor or an output too small.",
  "every dividend and divisor, every output size",
  "All lengths and values.",
  ("polynomial/polynomial.rs", ["Polynomial::divide"]))
p("from_roots vanishes exactly at the given roots",
  "The polynomial built from roots evaluates to the product of (x - r) at every x, is monic, and is zero exactly at the roots.",
  "every list of roots that fits, every point",
  "All lists.",
  ("polynomial/construction.rs", ["Polynomial::from_roots"]))
p("from_points interpolates",
  "from_points returns a polynomial that takes each given value at its node whenever the nodes are distinct, and reports a duplicate otherwise.",
  "every set of nodes and values of every size",
  "All sizes and values.",
  ("polynomial/construction.rs", ["Polynomial::from_points"]))
p("Hermite end conditions are met",
  "The cubic built from end values and slopes has those values and slopes (measured on the outer parameter) at the ends.",
  "every end data, every positive span",
  "All values.",
  ("polynomial/construction.rs", ["Polynomial::<4>::from_endpoint_derivatives"]))
p("Closed-form quadratic roots are exactly the real roots",
  "The list returned for a quadratic is sorted, holds exactly its real zeros, both zeros (repeated when equal) when the discriminant is not negative and none otherwise.",
  "every quadratic with non-zero leading coefficient",
  "All coefficients.",
  ("polynomial/roots.rs", ["Polynomial::<3>::real_roots"]))
p("Closed-form cubic roots: soundness, completeness and repeats",
  "Every number returned for a cubic is a zero, every real zero is returned, in increasing order and with repeats included.",
  "every cubic with non-zero leading coefficient",
  "All coefficients; repeated roots are measure zero.",
  ("polynomial/roots.rs", ["Polynomial::<4>::real_roots", "RealRoots"]))
p("count_real_roots counts the distinct real roots in the half-open range",
  "count_real_roots(lower, upper) is the number of distinct real zeros in (lower, upper].",
  "every non-zero polynomial, every range",
  "All polynomials; degenerate end points are measure zero.",
  ("polynomial/roots.rs", ["Polynomial::count_real_roots", "sign_changes", "root_counting_chain"]))
p("real_roots_in finds each root or reports failure within its budget",
  "real_roots_in returns a sorted list, never does more halvings than allowed, and with enough budget finds every distinct root in the range.",
  "every polynomial, range, tolerance and budget",
  "All polynomials.",
  ("polynomial/roots.rs", ["Polynomial::real_roots_in"]))
p("The Cauchy bound exceeds every real root",
  "Every real zero r of a non-zero polynomial satisfies |r| < cauchy_root_bound.",
  "every non-zero polynomial",
  "All polynomials.",
  ("polynomial/roots.rs", ["Polynomial::cauchy_root_bound"]))
p("A piecewise curve clamps, follows its pieces and integrates exactly",
  "evaluate follows the piece containing the parameter on its own clock, clamps outside, derivatives are taken against the shared parameter, and definite_integral is the integral over the part of the range inside the curve, negated when reversed.",
  "every list of pieces and spans, every parameter and range",
  "All curves and parameters.",
  ("polynomial/piecewise.rs", ["PiecewisePolynomial::evaluate", "PiecewisePolynomial::evaluate_with_derivatives", "PiecewisePolynomial::definite_integral", "PiecewisePolynomial::nth_derivative"]))
p("Multivariate polynomial operations preserve meaning",
  "evaluate is the sum of coefficient times powers; collect_like_terms, add_into, multiply_into, substitute and the univariate conversions change no value at any point; partial_derivative and gradient_at give the true partial derivatives; partial_antiderivative differentiates back.",
  "every term list, every point, every variable index",
  "All polynomials and points.",
  ("polynomial/multivariate.rs", ["MultivariatePolynomial::evaluate", "MultivariatePolynomial::collect_like_terms", "MultivariatePolynomial::substitute", "MultivariatePolynomial::multiply_into"]))
p("A multivariate term raises each variable to its stated power",
  "evaluate uses the exponent stored in the term for every 32-bit exponent.",
  "every u32 exponent",
  "Exponents above i32::MAX are never tested.",
  ("polynomial/multivariate.rs", ["raise", "MultivariatePolynomial::evaluate"]))
# ---------------------------------------------------------------- motion
p("A planned move reaches its target at rest within every limit",
  "For every displacement the planned profile starts at rest at zero, ends at rest exactly at the displacement after its duration, position, velocity (and acceleration when jerk-limited) are continuous, velocity is the derivative of position, and speed, acceleration and jerk never exceed the limits at any time.",
  "every set of positive limits, every displacement, both shapes, every time",
  "All times and limits.",
  ("motion/motion_profile.rs", ["MotionProfilePlanner::plan", "MotionProfile::state_at"]))
p("The trapezoidal move is time-optimal",
  "No rest-to-rest motion over the same displacement that respects the same speed and acceleration limits finishes sooner.",
  "every admissible motion",
  "Quantifies over all functions of time.",
  ("motion/motion_profile.rs", ["plan_trapezoidal"]))
p("Time-stretching preserves the path and cannot break a limit",
  "stretched_to(longer) takes exactly the longer duration, visits the same positions at proportionally scaled times, and scales velocity, acceleration and jerk down by the first, second and third power; other requests return the profile unchanged. Synchronised axes all finish on target together.",
  "every planned profile, every duration, every time",
  "All times.",
  ("motion/motion_profile.rs", ["MotionProfile::stretched_to", "SynchronizedProfile::from_profiles", "SynchronizedProfile::try_from_profiles_over"]))
p("closest_point is the globally closest point of the path",
  "The projection returned lies on the path on the reported segment, its reported distance is the true distance, and no point of the path is closer.",
  "every path in every dimension, every query point",
  "All points of a continuous path.",
  ("motion/polyline_path.rs", ["PolylinePath::closest_point"]))
p("Arc lengths are consistent and lookahead lands on the path",
  "Pushing waypoints one at a time gives the same path as building it at once; the total is the sum of the segment lengths; a lookahead target between zero and the total lies on the path at that arc length, clamping or wrapping past the end as configured.",
  "every waypoint list, capacity, and non-negative target",
  "All paths and targets.",
  ("motion/polyline_path.rs", ["PolylinePath::push", "PolylinePath::try_from_points", "PolylinePath::lookahead_point", "PolylinePath::total_arc_length"]))
# ---------------------------------------------------------------- control
p("The PID output respects its limits whatever it is fed",
  "Every output of update lies within the configured limits, for every history of set points, measurements (including NaN and infinities), gain changes and resets.",
  "every f64 history",
  "All float histories.",
  ("control/pid.rs", ["Pid::update", "Pid::with_output_limits"]))
p("The PID integral does not wind up",
  "While the output is saturated and the error pushes further into the limit, the integral does not change; otherwise it grows by exactly gain * error * timestep.",
  "every history",
  "All histories.",
  ("control/pid.rs", ["Pid::update"]))
p("PID handover is bumpless",
  "After resume_from(output, setpoint, measurement) the next update with the same pair returns that output when it is within the limits.",
  "every controller state, every handover",
  "All states.",
  ("control/pid.rs", ["Pid::resume_from"]))
p("Changing PID gains does not step the output",
  "After set_gains the next update returns what the old gains would have given.",
  "every controller history, every new gain triple",
  "All histories and gains.",
  ("control/pid.rs", ["Pid::set_gains"]))
p("Follow-the-gap only drives through open, wide-enough gaps",
  "If the result is not blocked, every beam of the selected gap is open, the gap is maximal, it is wide enough or reaches the edge of the scan, and no other admissible gap scores higher; if it is blocked no admissible gap exists and the command is a full stop.",
  "every configuration, every scan of any number of beams including NaN readings",
  "All scans.",
  ("control/follow_the_gap.rs", ["FollowTheGap::compute"]))
p("Follow-the-gap commands a bounded speed",
  "The commanded speed lies between zero and the cruise speed, is zero when the nearest forward beam is within the stopping distance and full when every forward beam is beyond the clear distance; the turn rate is gain times heading.",
  "every accepted configuration, every scan",
  "All scans.",
  ("control/follow_the_gap.rs", ["FollowTheGap::compute"]))
# ---------------------------------------------------------------- plant
p("The mixer keeps rotors within limits and flags saturation truthfully",
  "Every commanded thrust lies in the rotor limits for finite commands, the saturated flag is set exactly when some share was outside, and when it is clear the produced wrench is the one asked for if the layout inverts exactly.",
  "every layout, every command",
  "All commands.",
  ("plant/multirotor_mixing.rs", ["MultirotorMixer::rotor_thrusts", "MultirotorMixer::wrench"]))
p("Rotor lag is the exact exponential approach",
  "Each tick moves a rotor to command + (thrust - command) e^(-dt/tau): it never overshoots, splitting a tick into two gives the same result, and n ticks close exactly 1 - e^(-n dt/tau) of the gap.",
  "every time constant, tick, command and history",
  "All histories.",
  ("plant/rotor_lag.rs", ["RotorLag::stepped", "RotorLag::stepped_over"]))
# ---------------------------------------------------------------- appended as the model grew
p("The reported response is what a steady oscillation really comes out as",
  "A stable cascade fed A cos(2 pi f t + phase) from rest settles, geometrically fast, onto A times magnitude_at(f) cos(2 pi f t + phase + phase_at(f)).",
  "every stable cascade, every frequency, amplitude and phase, every sample count",
  "A statement about the limit of infinite runs at every frequency.",
  ("signal_processing/biquad.rs", ["BiquadCoefficients::magnitude_at", "BiquadCoefficients::phase_at"]),
  ("signal_processing/cascade.rs", ["BiquadCascade::magnitude_at", "BiquadCascade::phase_at", "BiquadCascade::filter"]))
p("Closed-form quartic roots are exactly the real roots, with repeats",
  "The list returned for a quartic is sorted and holds exactly its real zeros, each as often as its multiplicity.",
  "every quartic with non-zero leading coefficient",
  "All coefficients; the split into two quadratics rests on the largest zero of a helper cubic being positive.",
  ("polynomial/roots.rs", ["Polynomial::<5>::real_roots"]))
p("A jerk-limited move is as fast as its limits allow",
  "The seven-phase move is a motion within its speed, acceleration and jerk limits, and no motion within those limits goes from rest to rest over the same displacement in less time.",
  "every positive limits, every displacement of either sign, every competing motion",
  "It compares the plan with every motion there is.",
  ("motion/motion_profile.rs", ["MotionProfilePlanner::plan"]))

p("The PID controller is the PID formula",
  "While the formula's values stay within the output limits, each output is the proportional gain times the error, plus the integral gain times the timestep times the sum of the errors, plus the derivative gain times the smoothed rate at which the measurement falls, over everything since the last reset.",
  "every gain, timestep, smoothing, every history of samples and resets",
  "All histories.",
  ("control/pid.rs", ["Pid::update", "Pid::reset"]))

p("Follow-the-gap keeps half the robot's width clear of the gap's edges",
  "When the safety margins of the chosen gap do not overlap, driving straight along the heading passes both obstacles bounding the gap at no less than half the chassis width.",
  "every configuration, every scan, every point along the heading",
  "All scans and all points of the path.",
  ("control/follow_the_gap.rs", ["FollowTheGap::compute", "FollowTheGap::aim_bounds"]))

p("LU factors multiply back to the row-permuted matrix",
  "For every square matrix the factorization accepts, a unit lower triangular factor with no entry above one in magnitude times an upper triangular factor is the matrix with its rows in the reported order, the order is a permutation, and every pivot exceeds 2^-52 times every entry; it is refused as singular exactly when it is, and as badly conditioned exactly when some pivot is at most 2^-52 times the largest entry.",
  "every size, every square matrix over exact arithmetic; for the permutation and the absence of a panic, every scalar type",
  "A test factors a handful of matrices of a few sizes; the pivot order and every fill-in depend on all entries.",
  ("linear_algebra/lu.rs", ["Matrix::lu_decompose", "LuDecomposition::lower", "LuDecomposition::upper", "LuDecomposition::permutation"]))
p("Solving a linear system gives its one solution",
  "Whenever a square system is solved, the answer satisfies it and is the only vector that does; solving for several right-hand sides satisfies each.",
  "every size, every square matrix and right-hand side, over exact arithmetic",
  "Uniqueness ranges over every candidate vector, and the answer over every matrix the factorization accepts.",
  ("linear_algebra/lu.rs", ["Matrix::solve", "LuDecomposition::solve", "LuDecomposition::solve_matrix"]))
p("The determinant is the determinant at every size",
  "The closed forms up to 4x4 and the factorization above give the same function, the alternating sum over cofactors, and it is zero exactly when some non-zero vector is sent to zero.",
  "every size and every square matrix, over exact arithmetic",
  "Four formulas and an algorithm must agree with one definition on every matrix.",
  ("linear_algebra/matrix.rs", ["Matrix::determinant"]),
  ("linear_algebra/lu.rs", ["LuDecomposition::determinant"]))
p("An inverse that is returned is the inverse on both sides",
  "Whenever a matrix is inverted, by closed form or factorization, the product with the matrix on either side is the identity; a singular matrix is refused as singular, and up to 4x4 a matrix is accepted whenever its determinant exceeds 2^-52 n times the n-th power of its largest entry.",
  "every size and every square matrix, over exact arithmetic",
  "Sixteen cofactors of the 4x4 form and the general algorithm have to be right for every matrix.",
  ("linear_algebra/matrix.rs", ["Matrix::inverse"]),
  ("linear_algebra/lu.rs", ["LuDecomposition::inverse"]))

p("Cholesky accepts exactly the positive definite matrices",
  "A symmetric matrix is factored exactly when it is positive definite and refused as not positive definite otherwise; the factor is lower triangular with a positive diagonal and times its transpose it is the matrix; only the lower triangle is read.",
  "every size and every symmetric matrix, over exact arithmetic",
  "Positive definiteness ranges over every vector, and acceptance over every matrix.",
  ("linear_algebra/cholesky.rs", ["Matrix::cholesky", "Cholesky::lower"]))
p("A Cholesky factor solves, inverts and gives the determinant",
  "Solving with the factor gives the one solution of the system, the inverse it forms is the inverse on both sides, and its determinant is the determinant and is positive.",
  "every size, every symmetric positive definite matrix and right-hand side, over exact arithmetic",
  "All matrices, all right-hand sides and all rival solutions.",
  ("linear_algebra/cholesky.rs", ["Cholesky::solve", "Cholesky::solve_matrix", "Cholesky::inverse", "Cholesky::determinant"]))

p("Pivoted QR factors every matrix with at least as many rows as columns",
  "The columns of the matrix, in the pivot order returned, are those of Q R with the columns of Q orthonormal, R upper triangular and its diagonal never growing in size; the pivot order is a rearrangement of the columns for every scalar, NaN included; fewer rows than columns are refused as underdetermined, and nothing else is.",
  "every shape and every matrix whose column lengths are below sqrt(MAX)/rows, over exact arithmetic; refusals and pivot order over any scalar",
  "Orthogonality and the product must hold for every matrix, rank-deficient ones included.",
  ("linear_algebra/qr.rs", ["PivotedQr::decompose", "PivotedQr::orthogonal", "PivotedQr::triangular", "PivotedQr::permutation", "enorm"]))
p("Least squares returns the one closest fit, or refuses",
  "The vector returned has a strictly shorter residual than every other vector; the solve is refused as singular exactly when some diagonal entry of R is at most 2^-52 max(rows, cols) times the first, so always when the columns are linearly dependent.",
  "every shape with rows >= cols, every matrix, right-hand side and rival vector, over exact arithmetic",
  "The minimum is over every vector.",
  ("linear_algebra/qr.rs", ["PivotedQr::solve_least_squares"]))
p("Damped solves on one factorization solve the damped normal equations",
  "For every diagonal D for which A'A + D^2 is regular (in particular every D without zeros, and D = 0 when the columns are independent) the vector returned is the only solution of (A'A + D^2) x = A'b, the triangle returned with it is upper triangular with square A'A + D^2 in the pivot order and its own solve inverts its transpose; the reported length of A x and the largest scaled gradient component are what their names say.",
  "every shape, matrix, right-hand side and diagonal, over exact arithmetic",
  "The rotations must preserve the normal equations for every matrix and every damping a trust region may try.",
  ("linear_algebra/qr.rs", ["PivotedQr::into_damped", "DampedLeastSquares::solve_with_diagonal", "DampedLeastSquares::solve_with_zero_diagonal", "DampedLeastSquares::a_x_norm", "DampedLeastSquares::max_a_t_b_scaled", "CholeskyFactor::solve"]))

p("The SVD takes every tall matrix apart",
  "U diag(S) V' is the matrix, V is orthogonal, the singular values are not negative and never grow, the columns of U S are as long as the singular values say, and once the sweeps settle they are perpendicular to within 2^-52 of their lengths (with one or two columns they always settle, exactly); fewer rows than columns and entries that are not finite are refused.",
  "every shape with rows >= cols and every matrix, over exact arithmetic",
  "The factorization must be exact and V orthogonal after any number of rotations on any matrix, rank-deficient ones included.",
  ("linear_algebra/svd.rs", ["Matrix::svd", "Svd::left", "Svd::singular_values", "Svd::right"]))
p("The pseudo-inverse meets the Moore-Penrose conditions and its solve is the shortest least-squares fit",
  "When the left columns are perpendicular and the values dropped are zero, the pseudo-inverse meets the four Moore-Penrose conditions, and the solve has a residual no longer than any rival's and is the shortest among those that tie; with settled sweeps every entry of A P A - A is within 2 rows cols 2^-52 of the largest singular value; a wide matrix is handled through its transpose.",
  "every shape and matrix, every rival vector, over exact arithmetic",
  "The minimum is over every vector, and the conditions over every matrix.",
  ("linear_algebra/svd.rs", ["Matrix::pseudo_inverse", "Matrix::pseudo_inverse_tol", "Svd::solve"]))
p("The symmetric eigendecomposition rebuilds the matrix in an orthonormal frame",
  "The eigenvectors are orthonormal, the eigenvalues never grow, their sum is the trace, A v is lambda v up to the off-diagonal rest, which once the sweeps settle (as they always do for sizes up to two) is within size*2^-52 of the largest entry; clamping the eigenvalues gives a symmetric matrix whose form is at least the floor; entries that are not finite and matrices that are not symmetric are refused.",
  "every size and every symmetric matrix, over exact arithmetic",
  "Orthogonality must survive every rotation on every symmetric matrix, repeated eigenvalues included.",
  ("linear_algebra/symmetric_eigendecomposition.rs", ["Matrix::symmetric_eigendecomposition", "SymmetricEigendecomposition::eigenvalues", "SymmetricEigendecomposition::eigenvectors", "SymmetricEigendecomposition::clamped"]))
p("Matrix arithmetic obeys the laws of linear algebra",
  "Products are associative, distribute over sums, keep the identity, reverse under transposition and compose when applied to a vector; the trace does not depend on the order of two factors; the Frobenius norm is zero only for the zero matrix; transposing twice changes nothing, symmetrizing gives a matrix symmetric to the last bit with the same quadratic form; rows, columns and entries outside the matrix and slices of the wrong length are refused, and a slice of the right length is laid out row by row.",
  "every size and every matrix; layout facts over any scalar, laws over exact arithmetic",
  "Laws over all triples of matrices of all compatible sizes.",
  ("linear_algebra/matrix.rs", ["Matrix::transpose", "Matrix::trace", "Matrix::frobenius_norm", "Matrix::symmetrized", "Matrix::try_from_row_slice", "Matrix::get", "Mul"]))
p("Vector arithmetic obeys the laws of Euclidean geometry",
  "The dot product is symmetric and bounded by the product of the lengths, the length of a sum is at most the sum of the lengths, only the zero vector has length zero; normalizing any other vector gives length one along the same direction and the checked form refuses the zero vector alone; the cross product is perpendicular to both factors, changes sign with their order and its length is the area they span.",
  "every size and all vectors, over exact arithmetic",
  "Inequalities over all pairs of vectors.",
  ("linear_algebra/vector.rs", ["Vector::dot", "Vector::norm", "Vector::normalized", "Vector::try_normalized", "Vector::cross"]))

p("The discrete Lyapunov solver returns the accumulated cost, and its certificate means stability",
  "An accepted answer is symmetric, is exactly the sum of the first 2^k costs along A (k at most 64), and what it leaves of A'PA - P + Q = 0 is the next cost, never negative for a cost that is not, and at most 30*2^-52 max(|P|, 1) times the square of where the state goes; when the cost is at least q0 |x|^2 and q0 exceeds that tolerance, P falls at every step and powers of A shrink geometrically; every A whose squared Frobenius norm is below one, far enough for the terms to settle, is accepted; the documented verdict 'accepted only if A shrinks every direction' is false for small costs; refusals are as documented.",
  "every size, every matrix, every symmetric cost and every state, over exact arithmetic; refusals over any scalar",
  "The claim is about every state and every number of steps, and about every matrix the solver accepts.",
  ("linear_algebra/lyapunov.rs", ["solve_discrete_lyapunov"]))
p("The discrete Riccati solver's answer is a cost to go that nearly satisfies the equation",
  "With a state cost that is never negative, an accepted P is symmetric and at least the state cost, R and R + B'PB are positive definite, and P put back into the Riccati equation leaves at most 2^-26 max(|P|, 1); non-finite entries, asymmetric costs and an input cost that is not positive definite are refused as documented.",
  "every size, every system and every cost, over exact arithmetic; refusals over any scalar",
  "Non-negativity must survive every doubling pass on every system, and is a statement about every state.",
  ("linear_algebra/riccati.rs", ["solve_discrete_riccati"]))
p("The LQR control is the cheapest input, and the loop it closes settles",
  "At every state the control is the only minimiser of the cost of the input plus the cost to go from the next state; the cost to go satisfies the Bellman equation to within 2^-26 max(|P|, 1) |x|^2; applying the control is multiplication by closed_loop, which is A - BK; tracking is feedforward plus the control for the error, and the error moves by the closed loop; when the state cost is at least q0 |x|^2 with q0 above that tolerance, every state shrinks geometrically; a certificate is symmetric, positive definite and solves the closed loop's Lyapunov equation to its tolerance. That a certificate is only issued when the loop settles is false for small state costs.",
  "every size, every system and cost accepted, every state and every rival input, over exact arithmetic",
  "The minimum is over every input and settling is about every state and every number of steps.",
  ("control/lqr.rs", ["Lqr::new", "Lqr::gain", "Lqr::closed_loop", "Lqr::cost_to_go", "Lqr::control", "Lqr::control_tracking", "Lqr::certify_stability"]))

p("The matrix exponential is accurate for every matrix, and keeps the exponential's exact identities",
  "In exact arithmetic every matrix of up to 2^50 rows gets an answer; for a largest column sum up to 2^40 the answer is within 2^-50 max(1/4, that sum) of the exponential series, relative to its largest column sum, and beyond that the error is (1 + 2^-53)^m - 1 with m at most four times the sum; the exponential of the opposite matrix is exactly the inverse; a matrix that commutes with the input commutes with the answer; symmetric stays symmetric; a skew-symmetric matrix gives an orthogonal one and a Hamiltonian matrix a symplectic one; zero gives the identity. For any scalar non-finite entries are refused and an answer is finite. In f64 the scaling loop ends within 1025 turns exactly when no column sum overflows; that a finite matrix always gets an answer or an error is false.",
  "every size, every matrix, every scalar for the refusals, every f64 matrix for the loop",
  "The accuracy compares with an infinite series on every matrix of every norm; the loop bound is about every input.",
  ("linear_algebra/expm.rs", ["Matrix::expm"]))
p("Zero-order hold and Van Loan's discretization describe the continuous system",
  "Every trajectory of x' = Ax + Bu under a held input ends, from every start and for every input, within the exponential's error of Fx + Gu; F is the exponential of A dt and G the integral of the exponential times B; Van Loan's covariance is the integral of e^(At) Q e^(A't) to that error and exactly symmetric when Q is; a negative or non-finite step is refused; the white-noise covariance is the variance times the outer product of the gains, never negative, and symmetric to the last bit for any scalar. That its variance is a continuous spectral intensity is false.",
  "every system, every step, every trajectory, input and start, over exact arithmetic; refusals and symmetry over any scalar",
  "A trajectory is any differentiable function satisfying the equation, and the exact answer is an integral of an infinite series.",
  ("discretization/mod.rs", ["zoh", "van_loan", "q_discrete_white_noise"]))


p("Quaternion arithmetic is Hamilton's, and a unit quaternion is a rotation",
  "Products follow i^2 = j^2 = k^2 = ijk = -1 and are associative, distribute over sums and multiply norms; every quaternion but zero has the inverse the code computes; rotating a point by a unit quaternion is its rotation matrix applied to the point, which is orthogonal of determinant one, and keeps lengths, angles and handedness; the product of two is one rotation after the other; two unit quaternions rotate alike exactly when they are equal up to sign; the checked normalization refuses exactly norms of at most machine epsilon.",
  "all quaternions, all points and vectors, over exact arithmetic",
  "Algebraic identities over four real dimensions, and uniqueness over all rotations.",
  ("spatial/quaternion.rs", ["Quaternion::inverse", "Quaternion::normalized", "Quaternion::try_normalized", "Quaternion::to_rotation_matrix", "Quaternion::transform_point", "Mul for Quaternion"]))
p("The quaternion exponential and logarithm are the power series and its inverse",
  "The exponential of a quaternion is the exponential of its left-multiplication matrix (the power series) to within the Taylor remainder below the small-angle threshold and exactly above it; the exponential of the logarithm gives the quaternion back, and the logarithm of the exponential gives back every vector part shorter than pi. For quaternions of tiny norm the logarithm is wrong, because the small-angle test is absolute.",
  "all quaternions but zero, over exact arithmetic",
  "The comparison is with an infinite series, and the small-angle branch has measure far below what sampling meets.",
  ("spatial/quaternion.rs", ["Quaternion::exp", "Quaternion::log"]))
p("Axis and angle go to the turn they describe and come back",
  "from_axis_angle is the counterclockwise turn by the angle about the axis's direction, whatever the axis's length; to_axis_angle gives a unit axis and an angle between 0 and pi of the same rotation; angles in that range and axes survive the round trip. An axis of length at most machine epsilon silently gives the identity.",
  "every axis, every angle, every unit quaternion, over exact arithmetic",
  "A statement about every point turned about every axis.",
  ("spatial/quaternion.rs", ["Quaternion::from_axis_angle", "Quaternion::to_axis_angle"]))
p("Rotation vectors are the exponential coordinates of rotations",
  "The rotation of a rotation vector is the matrix exponential of its cross-product matrix, exactly from 30 eps on and below that to within the fourth power of its length; the logarithm of a unit quaternion is a vector no longer than pi whose exponential is that rotation; vectors no longer than pi survive the round trip, exactly from 120 eps on and to the cube of their length below.",
  "every rotation vector and every unit quaternion, over exact arithmetic",
  "The comparison is with an infinite matrix series, across the branch at the small-angle threshold.",
  ("spatial/quaternion.rs", ["Quaternion::from_scaled_axis", "Quaternion::to_scaled_axis"]), ("spatial/lie/so3.rs", ["SO3::exp", "SO3::log"]))
p("Euler angles mean roll about x, then pitch about y, then yaw about z, and are read back",
  "from_euler_zyx is those three turns in that order; away from straight up or down the angles read back give exactly the same rotation and lie in their ranges, and angles in their ranges come back as given; pointing straight up or down the roll is zero and the rotation still comes back exactly; in the tolerance band around that every component comes back to within 2 sqrt(30 eps). In that band the rotation read back can be off by more than 1e-7.",
  "all angles, all unit quaternions, over exact arithmetic",
  "Gimbal lock is a band no sampled test meets, and the identity of rotations is about every point.",
  ("spatial/quaternion.rs", ["Quaternion::from_euler_zyx", "Quaternion::to_euler_zyx"]))
p("The rotation between two directions takes one to the other by the shortest turn",
  "For any two vectors but zero, opposite ones included, from_two_vectors is a unit quaternion that takes the direction of the first to that of the second, its angle is the angle between them, and no rotation doing so has a smaller angle; with a zero vector it is the identity.",
  "all pairs of vectors and every rival rotation, over exact arithmetic",
  "The minimum is over every rotation, and antiparallel pairs are a set of measure zero.",
  ("spatial/quaternion.rs", ["Quaternion::from_two_vectors"]))
p("Rotation matrices and pairs of directions determine the rotation",
  "Every orthogonal matrix of determinant one is accepted and the rotation returned has exactly that matrix, whichever of the four pivots is taken; what is accepted has columns orthonormal to 30 eps and positive determinant, so reflections are refused; a unit quaternion goes to its matrix and back to itself up to sign; two pairs of directions give the rotation carrying the first direction and the oriented plane of the pair, exactly when neither pair is degenerate, and recover any rotation both were turned by.",
  "every matrix, every unit quaternion, every two pairs of vectors, over exact arithmetic",
  "Which pivot is taken depends on the matrix, and the result must be right for all of them.",
  ("spatial/quaternion.rs", ["Quaternion::try_from_rotation_matrix", "Quaternion::to_rotation_matrix"]), ("spatial/lie/so3.rs", ["SO3::try_from_matrix", "SO3::from_two_direction_pairs"]))
p("The angle between rotations is a distance, and spherical interpolation follows the shortest way at constant speed",
  "rotation_angle_to lies in [0, pi], is symmetric, zero exactly for the same rotation, satisfies the triangle inequality and is the angle of the relative rotation; slerp returns a unit quaternion, starts at the first rotation, ends at the second, splits the angle between them into two parts that add up, and turns at constant speed unless the rotations are within machine epsilon of each other.",
  "all unit quaternions and all amounts in [0, 1], over exact arithmetic",
  "Inequalities over three rotations at once, and a statement about every pair of instants.",
  ("spatial/quaternion.rs", ["Quaternion::rotation_angle_to", "Quaternion::slerp"]), ("spatial/lie/so3.rs", ["SO3::interpolate"]))

p("Rotations of the plane form a group that angles parametrize",
  "Composition is associative and commutative with the inverse and identity the code gives; the matrix of a composition is the product of matrices and acting on a point is applying the matrix; the exponential of an angle is the turn by it and the matrix exponential of its generator; the logarithm lies in (-pi, pi] and inverts it both ways; jacobians are one and that is what composing demands; a rotation goes through its matrix and back unchanged, what is accepted is within 30 eps of the matrix and everything within 3 eps of a rotation is accepted; interpolation turns at constant speed the shorter way.",
  "all rotations of the plane, all angles, all 2 by 2 matrices, over exact arithmetic",
  "Group laws over a continuum, a comparison with an infinite series, and an acceptance band.",
  ("spatial/lie/so2.rs", ["SO2::compose", "SO2::exp", "SO2::log", "SO2::try_from_matrix", "SO2::interpolate", "SO2::normalized"]))
p("Rigid motions of the plane: exponential, logarithm, adjoint and jacobians mean what they say",
  "Motions form a group whose homogeneous matrices multiply and act on points; the exponential of a velocity is the matrix exponential, exactly unless it turns by less than 30 eps and then within w^4(|x|+|y|); the logarithm of every motion turns by an angle in (-pi, pi] and its exponential is the motion; the adjoint moves a velocity between frames; interpolation follows one velocity; the left and right jacobians are the integrals of exp(s ad) and hence the derivative of the exponential seen from either side; their inverses are inverses wherever one exists.",
  "all motions of the plane, all velocities, all matrices, over exact arithmetic",
  "Derivatives and integrals of an infinite series at every velocity, across small-angle branches.",
  ("spatial/lie/se2.rs", ["SE2::compose", "SE2::exp", "SE2::log", "SE2::adjoint", "SE2::left_jacobian", "SE2::right_jacobian", "SE2::left_jacobian_inverse", "SE2::interpolate", "SE2::try_from_matrix"]))

p("Jacobians of the rotations of space are the integrals and derivatives they stand for",
  "The left jacobian at a rotation vector is the integral of exp(s [phi]x) over s in [0, 1], and the right one that of the opposite vector: exactly once the angle is past the series threshold or zero, and within angle^5/720 + angle^6/5040 always. Hence they are the derivative of the exponential seen from the left and from the right. The inverse jacobians invert them wherever an inverse exists, exactly past the threshold and within angle^5 below.",
  "all rotation vectors, over exact arithmetic",
  "An integral and a derivative of an infinite series at every vector, across the small-angle branch.",
  ("spatial/lie/so3.rs", ["SO3::left_jacobian", "SO3::right_jacobian", "SO3::left_jacobian_inverse", "SO3::right_jacobian_inverse"]), ("spatial/lie/mod.rs", ["left_jacobian_so3", "inverse_left_jacobian_so3"]))

p("Rigid motions of space: group, matrices, exponential, logarithm and interpolation",
  "Motions form a group whose homogeneous matrices multiply and act on points; the exponential of a velocity is the matrix exponential of its matrix, exactly past the series threshold or without turning, and within a fourth power of the angle below; the logarithm of every motion turns by at most pi and its exponential is the motion; exponential and logarithm are mutually inverse; interpolation starts at the first motion, ends at the second and follows one velocity; a matrix is read back as the motion it came from and accepted exactly when rotation and last row pass.",
  "all motions, velocities and matrices, over exact arithmetic",
  "Equalities with an infinite series for every velocity, across small-angle branches.",
  ("spatial/lie/se3.rs", ["SE3::compose", "SE3::inverse", "SE3::act", "SE3::exp", "SE3::log", "SE3::to_matrix", "SE3::try_from_matrix", "SE3::interpolate", "SE3::hat", "SE3::vee"]))

p("Velocities and loads moved between frames keep their physical meaning",
  "Moving a spatial velocity by a motion gives the moved body's velocity: the particle at the moved point has the rotated velocity. Moving a load rotates the force and the moment about every corresponding point, and power is preserved. Moving back undoes it, composition moves twice, the adjoint matrices compute the same, and conjugating the velocity's matrix by the motion's does too. The cross product of velocities is the bracket of their matrices, satisfies Jacobi's identity, is dual to the one on loads, and both are the same in every frame.",
  "all motions, velocities, loads and points, over exact arithmetic",
  "Algebraic identities over all frames and points.",
  ("spatial/lie/se3.rs", ["SE3::adjoint", "SE3::force_adjoint", "SE3::act_twist", "SE3::act_wrench", "SE3::inverse_act_twist", "SE3::inverse_act_wrench"]), ("spatial/twist.rs", ["Twist::cross", "Twist::cross_wrench", "Twist::dot_wrench"]), ("spatial/wrench.rs", ["Wrench"]))

p("Jacobians of the rigid motions of space are the integrals and derivatives they stand for",
  "The left jacobian at a velocity is the integral of exp(s ad v) over s in [0, 1], where ad v takes a velocity to its bracket with v, and the right one that of -v: exactly past the series threshold or without turning, within angle^5 (1 + |linear|) below. Hence they are the derivative of the exponential seen from the left and from the right. The inverse jacobians invert them wherever an inverse exists.",
  "all velocities, over exact arithmetic",
  "An integral and a derivative of an infinite series of six by six matrices at every velocity, across several small-angle branches.",
  ("spatial/lie/se3.rs", ["SE3::left_jacobian", "SE3::right_jacobian", "SE3::left_jacobian_inverse", "SE3::right_jacobian_inverse"]), ("spatial/lie/mod.rs", ["left_jacobian_se3", "inverse_left_jacobian_se3", "q_matrix_se3"]))

p("A rigid body's momentum, energy and inertia are those of its particles, in every frame",
  "If a body's mass, balance point and rotational inertia are those of some point masses, its momentum, kinetic energy and inertia about any point are the sums over the points; combining two bodies or moving one gives the body of all, or of the moved, points. The matrix form gives the momentum, the bias load does no work, and along any motion the momentum seen from a fixed frame changes at the rate of the load inertia times acceleration plus bias. A body accepted at construction should have nonnegative energy and stay acceptable when moved.",
  "all bodies, finite sets of particles, velocities, motions and differentiable trajectories, over exact arithmetic",
  "Sums over arbitrary finite sets of particles and derivatives along arbitrary trajectories.",
  ("spatial/inertia.rs", ["SpatialInertia::new", "SpatialInertia::from_diagonal_inertia", "SpatialInertia::inertia_about", "SpatialInertia::momentum", "SpatialInertia::bias_wrench", "SpatialInertia::kinetic_energy", "SpatialInertia::to_matrix", "SpatialInertia::combined"]), ("spatial/lie/se3.rs", ["SE3::act_inertia", "SE3::inverse_act_inertia"]))

p("A free body's state survives being written as numbers",
  "Writing a state as seven place numbers and six motion numbers and reading them back gives the same state. Whatever is read has the given place and velocity and the given orientation scaled to norm one; reading fails only for an orientation of all zeros.",
  "all states and all numbers, over exact arithmetic",
  "Every real orientation, including those of tiny norm.",
  ("spatial/free_joint.rs", ["FreeJointState::from_generalized_vectors", "FreeJointState::generalized_position", "FreeJointState::generalized_velocity"]))

p("The classical Runge-Kutta method is fourth order and visits the nodes it says",
  "Along any solution of y' = f(t, y) where f obeys Taylor's formula to fourth order, one step errs by at most K|h|^5 and a whole run by at most K h^4 at every node, for any number of steps within the interval, K not depending on the step size or count. A run hands the observer steps + 1 nodes: the start, then each node one step after the one before; it returns the last.",
  "all right-hand sides, solutions, sizes, step sizes and step counts; exact arithmetic for the errors, any scalar for the nodes",
  "An order of accuracy bounds the error for every step size at once; tests sample a few equations and step sizes.",
  ("ode/rk4.rs", ["Rk4::step", "Rk4::integrate"]))

p("The adaptive pair is fifth order with a fourth order companion",
  "Along any solution of a smooth enough equation one Dormand-Prince step errs by at most K|h|^6; its error estimate is at most K|h|^5 and subtracting it leaves a fourth order answer; its last derivative is the derivative at the new node, so it serves as the next step's first.",
  "all right-hand sides, solutions, sizes and step sizes, over exact arithmetic",
  "Order conditions speak of every smooth equation.",
  ("ode/rk45.rs", ["Rk45::dopri_step"]), ("ode/tableau.rs", ["STAGE_A21", "WEIGHT1", "ERROR1"]))

p("An adaptive solve is a chain of accepted steps reaching the end time",
  "The steps handed to the caller chain from the start, each beginning where the last ended with its derivative, at most max_steps of them, all finite. On success the answer is the end of the chain, within epsilon (1 + |tf|) of the end time. Each error has its stated cause. Each accepted step is a Dormand-Prince step within tolerance, toward the end time and not past it, no longer than max_step.",
  "all configurations, equations, sizes and times; any scalar for the chain, exact arithmetic for the step's content",
  "A loop whose step sizes depend on the data; every history of acceptances and rejections.",
  ("ode/rk45.rs", ["Rk45::for_each_step", "Rk45::solve"]))

p("Dense output interpolates the steps of a solve",
  "Inside a step the interpolant meets both ends and both slopes, follows every cubic exactly, and is within M h^4 / 9 of any function with those ends whose fourth derivative is at most M. Solving on a grid gives for each time the interpolant of a step holding that time; it succeeds on every ordered grid after the start whose last time the solve reaches.",
  "all steps, times, functions and grids; any scalar for the grid's meaning, exact arithmetic for the rest",
  "Every time inside every step.",
  ("ode/rk45.rs", ["Step::interpolate", "Rk45::solve_on_grid"]))

p("Stepping an orientation keeps it a true rotation and follows steady turning exactly",
  "A step composes the orientation with the rotation by rate times time about the body's own axes; with a rate picking up speed about one axis the step ends where the turning body does. At a steady rate every node of a run is exactly the body's orientation at its time. Whatever the rates, after k steps the norm squared is within the k-th powers of 1 +- (30 eps)^4. The observer gets the start and one node per step; a step size that is not finite or not positive, or a rate that is not finite, gives the stated error.",
  "all orientations, rates, rate functions, step sizes and counts; any scalar for the nodes and errors, exact arithmetic for the rest",
  "Runs of every length and every rate function; drift only shows over unboundedly many steps.",
  ("ode/exponential_map.rs", ["ExponentialMap::attitude_step", "ExponentialMap::attitude_step_with_angular_acceleration", "ExponentialMap::integrate_attitude"]))

p("Numerical integration over a finite interval is within the composite rule's error of the integral",
  "For an integrand with enough derivatives (2 for the trapezoidal rule, 4 for Simpson's three-eighths, 6 for Boole's) the answer differs from the integral by at most a constant times the bound on the last derivative times the panel width to that power; it is exact for polynomials of lower degree. Requested step counts up to 12000 are rounded up to whole panels; above 12000 they are not, and then even a constant is integrated wrongly.",
  "all integrands, intervals, step counts, rules and summation methods; exact arithmetic",
  "Every smooth function on every interval at every resolution.",
  ("numerical_integration/iterative_integration.rs", ["IterativeSingle::integrate", "booles", "simpsons", "trapezoidal", "from_parameters"]),
  ("numerical_integration/mod.rs", ["integral"]))
p("Integration over infinite ranges is the finite rule on the transformed integrand",
  "With an infinite limit the answer is finite and differs by at most the composite rule's error for the transformed integrand from the integral over the range cut off where the new variable stops one epsilon short of the infinite end: up to 2^52 - 1 beyond a finite limit, and tan(pi (1/2 - eps)) either side when both limits are infinite.",
  "all integrands continuous on the range whose transformed integrand is smooth, all finite limits, rules and step counts; reals extended with infinities",
  "Unbounded ranges and arbitrary integrands; tests only try integrals with known values.",
  ("numerical_integration/integrator.rs", ["Domain", "classify", "t_bounds", "map_sample"]),
  ("numerical_integration/iterative_integration.rs", ["IterativeSingle::integrate"]))
p("Gaussian quadrature of order n is exact below degree 2n up to the digits of its tables",
  "For every order from 1 to 30 the Legendre, Laguerre and Hermite quadratures integrate every polynomial of degree below 2n (against 1, exp(-x) and exp(-x^2)) up to 1e-14, 1e-13 and 1e-14 relative to the sizes of its terms, and any other integrand up to a small multiple of its distance from such a polynomial.",
  "all orders 1 to 30, all integrands and coefficients, all finite intervals for Legendre; exact arithmetic on the tabulated decimals",
  "Ninety tables of printed digits against infinitely many integrands; one wrong digit shows only for some.",
  ("gaussian_tables/legendre.rs", ["LEGENDRE_1"]), ("gaussian_tables/hermite.rs", ["HERMITE_1"]), ("gaussian_tables/laguerre.rs", ["LAGUERRE_1"]),
  ("gaussian_tables/mod.rs", ["nodes"]), ("numerical_integration/gaussian_integration.rs", ["GaussianSingle::integrate"]))
p("Integrating over several variables gives the iterated integral",
  "The answer is the iterated integral over the listed variables between their limits, the last listed outermost, the other variables keeping the values given, exactly, for every integrand that is a polynomial below the rule's order in each listed variable (also when a variable is listed twice).",
  "all numbers of variables, all integrands polynomial in the integrated ones, all limits, points, rules and step counts; exact arithmetic",
  "Every nesting depth, variable choice and integrand.",
  ("numerical_integration/iterative_integration.rs", ["IterativeMulti::integrate"]))
p("An integrator reports the first thing wrong and nothing else",
  "Zero steps (or an order outside 1 to 30), then ill-defined limits, then a variable out of range, then a sample that is not finite each give their error, in this order; otherwise there is a value. On a finite interval there is a value exactly when the integrand is finite at the ends and at each step between. Asking for no integrations at all panics instead.",
  "all integrators, integrands, limits including NaN and infinities, variables and points; any scalar for the samples",
  "Every combination of inputs and every integrand.",
  ("numerical_integration/iterative_integration.rs", ["IterativeConfig::check_for_errors", "IterativeMulti::integrate"]),
  ("numerical_integration/gaussian_integration.rs", ["GaussianSingle::integrate", "GaussianMulti::integrate"]),
  ("numerical_integration/integrator.rs", ["classify"]))

p("Automatic differentiation gives the exact derivative up to order six",
  "Differentiating a formula one to six times at a point where it is smooth returns its exact derivative of that order, which exists; order zero and orders above six are refused.",
  "all formulas over the scalar operations, all points where they are smooth, all orders; exact arithmetic; refusals for any scalar",
  "Arbitrary compositions of operations; tests try a few functions at a few points.",
  ("numerical_derivative/autodiff.rs", ["AutoDiffSingle::differentiate", "MAX_ORDER"]), ("numerical_derivative/mod.rs", ["derivative", "second_derivative"]))
p("Automatic partial derivatives are exact, symmetric and consistent with directional ones",
  "First and second partial derivatives of a smooth formula of any number of variables are the exact ones, the second do not depend on the order of the two variables, and the derivative along any direction is the sum of the first ones weighted by the direction. An empty list, a variable out of range and more than three variables are refused, in this order.",
  "all formulas, numbers of variables, points where they are smooth and variables; exact arithmetic; refusals for any scalar",
  "Every formula, dimension and pair of variables.",
  ("numerical_derivative/autodiff.rs", ["AutoDiffMulti::differentiate"]), ("numerical_derivative/mod.rs", ["partial"]))
p("A finite difference is a derivative at a nearby point and converges at the order of its mode",
  "The forward, backward or central difference of any order is the exact derivative of that order at some point within its reach (the sum of its steps); it misses the derivative at the point itself by at most B/2 times the reach when one-sided and B/6 times the sum of the squared steps when central, B bounding the next derivative or the one after. Mixed differences of several variables are the exact mixed partial derivative at some point of the box reached. A zero step, a negative or non-finite step, order zero and variables out of range are refused.",
  "all functions with the derivatives named, all points, orders, positive steps and multipliers, modes and lists of variables; exact arithmetic; refusals for any scalar",
  "All functions, nesting depths and steps; tests compare a few values with a tolerance.",
  ("numerical_derivative/finite_difference.rs", ["FiniteDifferenceSingle::differentiate", "FiniteDifferenceMulti::differentiate", "FiniteDifferenceConfig"]),
  ("numerical_derivative/mode.rs", ["FiniteDifferenceMode"]))
p("Jacobians hold the partial derivatives and hessians are symmetric",
  "The jacobian holds in row i and column j the partial derivative of function i by variable j, exactly under automatic differentiation and within one step of the point under finite differences; the heap version agrees; an empty set of functions and the first refused column are reported. The hessian is symmetric with the second partial derivative of each pair, and fails only when one of those fails.",
  "all functions, numbers of functions and variables, points and derivators; any scalar for the loops",
  "Every size, derivator and pattern of failures or NaNs.",
  ("numerical_derivative/jacobian.rs", ["Jacobian::evaluate", "Jacobian::evaluate_on_heap"]), ("numerical_derivative/hessian.rs", ["Hessian::evaluate"]))
p("Linear and quadratic approximations are the Taylor polynomials, with correct fit metrics",
  "The linear (quadratic) approximation is exact at its point, has the function's slopes there and misses the function elsewhere by at most 1/2 (1/6) of the largest second (third) derivative along the segment; it equals its intercept plus gradient form. Over any set of points the mean absolute error is at most the root mean squared one, whose square is the mean squared one, R squared is at most 1, the adjusted one at most that, and a perfect fit has errors 0 and R squared 1.",
  "all smooth formulas, points, evaluation points, data sets and summation methods; exact arithmetic",
  "All functions and all data sets.",
  ("approximation/linear_approximation.rs", ["LinearApproximator", "LinearApproximation"]), ("approximation/quadratic_approximation.rs", ["QuadraticApproximator", "QuadraticApproximation"]),
  ("approximation/mod.rs", ["compute_metrics"]))
p("Curl and divergence are the combinations of partial derivatives that define them",
  "With automatic differentiation of smooth field components the curl and divergence in two and three dimensions are exactly the defining combinations of partial derivatives; a derivator's refusal is passed on.",
  "all fields given by smooth formulas, all points; exact arithmetic",
  "All fields and points; a swapped index shows only for some fields.",
  ("vector_field/curl.rs", ["curl_3d", "curl_2d"]), ("vector_field/divergence.rs", ["divergence_3d", "divergence_2d"]))
p("Line integrals converge to the integral of the field along the curve",
  "With n panels the line integral of a Lipschitz field along a continuously differentiable curve is within a constant over n of the exact one, and exact for constant fields; zero iterations and limits that do not increase are refused.",
  "all fields, curves, limits and panel counts meeting the hypotheses; exact arithmetic; refusals for any scalar",
  "All fields, curves and panel counts.",
  ("vector_field/line_integral.rs", ["line_integral_2d_custom", "line_integral_3d_custom", "line_integral_partial_2d"]))
p("The flux integral converges to the flux of the field across the curve",
  "With n panels the flux integral of a field (P, Q) across a curve (x, y) is within a constant over n of the integral of P y' - Q x'.",
  "all fields, curves, limits and panel counts; exact arithmetic",
  "All fields and curves; the documented example is one where a wrong formula gives the same value.",
  ("vector_field/flux_integral.rs", ["flux_integral_2d_custom"]))

p("A Kalman filter's covariance is always a covariance, and predicting is exact",
  "A prediction takes the state through the transition (plus the control) and the covariance P to F P F' + Q. Through any sequence of predictions, controls, updates in either mode, refused updates, state, noise and model changes, the covariance stays symmetric and positive semidefinite.",
  "all dimensions, models, noises, measurements and histories of calls; exact arithmetic",
  "Every history of calls and every model; tests run a few tracks.",
  ("estimation/kalman_filter.rs", ["KalmanFilter::predict", "KalmanFilter::predict_with_control", "KalmanFilter::update"]))
p("A Kalman update uses the best gain there is, or changes nothing",
  "A measurement is taken exactly when the innovation covariance S is positive definite (noise in every channel is enough) and otherwise refused with the estimate unchanged; the gain gives an error covariance no larger in any direction than any other gain, only that gain does, and never larger than before; both covariance modes agree; the normalized innovation is v' S^-1 v; a non-finite measurement is refused for any scalar.",
  "all dimensions, filters, measurements and competing gains; exact arithmetic for the values",
  "Optimality against every other gain in every direction.",
  ("estimation/kalman_filter.rs", ["KalmanFilter::update", "CovarianceUpdate", "KalmanFilter::normalized_innovation_squared"]))
p("A Kalman filter computes the weighted least squares fit of everything it has seen",
  "After an update the estimate is the unique minimizer of the disagreement with the previous estimate and with the measurement, each weighted by its inverse covariance, and the new inverse covariance is the curvature of that disagreement. Over any number of ticks of a linear system the filter's state is the last state of the history that fits the first estimate, all the motions and all the readings best.",
  "all dimensions, invertible noises, models changing from tick to tick, and histories of any length; exact arithmetic",
  "Optimality over all histories of states, for histories of any length.",
  ("estimation/kalman_filter.rs", ["KalmanFilter::predict", "KalmanFilter::predict_with_control", "KalmanFilter::update"]))
p("An extended Kalman filter is the linear filter at the jacobian of its models",
  "A prediction takes the state through the model and the covariance through the matrix of its partial derivatives; an update is the linear filter's update with the measurement matrix of partial derivatives and the caller's residual; for affine models the jacobian is the matrix of the model. A refused call (non-finite input or model output, differentiation error, S not positive definite) leaves state and covariance alone. Whatever the models and the derivator, the covariance stays symmetric and positive semidefinite.",
  "all dimensions, smooth formulas for the models (any code at all for the history), filters, residuals and histories; exact arithmetic for the values, any scalar for refusals",
  "All models and all histories of calls.",
  ("estimation/extended_kalman_filter.rs", ["ExtendedKalmanFilter::predict", "ExtendedKalmanFilter::update", "ExtendedKalmanFilter::update_with_residual"]))
p("An unscented prediction is the weighted average and spread of the model over the sigma points",
  "A prediction works exactly when the widened covariance can be factored; the points are one column of the factor either side of the estimate, the new state and covariance are their weighted average and spread through the model plus the process noise. For every model, smooth or not, the covariance stays symmetric, positive semidefinite and at least the process noise, for every tuning with n beta + alpha^2 kappa >= 0 (the default is one). For affine models it is exact. A tuning is taken exactly when alpha is not zero and kappa > -n.",
  "all dimensions, models, filters and tunings; exact arithmetic",
  "Positive semidefiniteness for every model and every tuning.",
  ("estimation/unscented_kalman_filter.rs", ["UnscentedKalmanFilter::predict", "UnscentedKalmanFilter::with_scaling", "UnscentedKalmanFilter::with_regularization"]))
p("Unscented updates keep the covariance valid and agree with the linear filter on linear models",
  "After a prediction an update with any sensor keeps the covariance symmetric, positive semidefinite and no larger; this holds along any run of predict and update cycles with the state re-wrapped in between. Noise in every channel is enough for a measurement to be taken. On a filter that never predicted an update leaves the estimate where it was. For affine models the update is the linear filter's. Refused calls leave state, covariance and innovation alone.",
  "all dimensions, process and measurement models, noises, residuals and runs of any length; exact arithmetic, any scalar for refusals",
  "All models and all histories; the failure with two updates per prediction needs a particular history.",
  ("estimation/unscented_kalman_filter.rs", ["UnscentedKalmanFilter::update", "UnscentedKalmanFilter::update_with_residual"]))
p("The ready-made vehicle model follows the exact arc, and angle residuals are folded",
  "The constant turn model moves at its speed along its heading at every moment (exactly above a turn rate of 1e-6, within speed times turn rate times time squared below), keeps speed and turn rate, and folds the heading by whole turns. A direct measurement is built exactly from indices inside the state and reads them in order. A residual differs from the plain difference by whole turns, only in the listed components, and lies within (-pi, pi].",
  "all states, timesteps, index lists and measurements; exact arithmetic, any scalar for direct measurements",
  "All headings, rates and timesteps; the range fails at one point only.",
  ("estimation/models.rs", ["ConstantTurnAndSpeed::eval", "DirectMeasurement::try_new", "DirectMeasurement::eval", "residual_with_wrapped_angles"]))

p("A differential drive and its odometry are the motion of a body that rolls without slipping",
  "The body velocity is the one for which each wheel's ground contact moves at its rim speed; forward and inverse undo each other. The unicycle's equation is exactly straight-ahead motion with turning, every such motion over a time step ends at the pose the odometry step gives (exactly outside a tiny-turn window, within fourth order of the turn inside it), any number of equal ticks is one long arc, and the chord is never longer than the travel. The odometry model used by filters gives the same pose with the heading folded. A drive is built exactly from finite positive sizes.",
  "all drives, wheel rates, body velocities, poses, paths, times and numbers of ticks; exact arithmetic, extended reals for construction",
  "All rolling motions and any number of ticks.",
  ("kinematics/differential_drive.rs", ["DifferentialDrive::new", "DifferentialDrive::forward", "DifferentialDrive::inverse", "DifferentialDrive::odometry_step", "BodyTwist::project_tangent"]),
  ("kinematics/odometry.rs", ["integrate", "OdometryStep"]), ("kinematics/unicycle.rs", ["Unicycle::derivative"]))
p("A body under the attitude controller's torque converges to its moving target",
  "The attitude error is the sine of the angle past the target along the axis of the turn, zero exactly when aligned or half a turn away. A rigid body obeying Euler's equation under the torque, following any smoothly turning target, has an error that moves as under a spring and a damper; the energy only falls, a body starting with less than half a turn's energy never reaches half a turn, and from there the error decays exponentially at one rate for all such starts and targets. A controller is built exactly from positive gains and a positive definite inertia.",
  "all gains, inertias, attitudes, targets and motions; exact arithmetic, any scalar for non-finite input",
  "Convergence of every continuous motion for all time.",
  ("control/geometric_attitude.rs", ["GeometricAttitudeController::new", "GeometricAttitudeController::attitude_error", "GeometricAttitudeController::torque"]))

p("An attitude filter follows a body it starts on and comes level on a still one",
  "Whatever the history of calls, the orientation stays a rotation and the two references perpendicular directions; a refused step leaves the filter alone. Started at the true orientation with the true offset, exact readings keep it on the true motion for ever, including in free fall and without a magnetometer. On a still body with a known offset the Mahony filter's tilt goes to zero geometrically from every start but upside down, and the Madgwick filter's goes down by the same angle each tick until within that angle and stays there. The magnetometer only ever moves the heading. New references are taken exactly when they are not along one line.",
  "all filters, gains, orientations, readings, motions and histories of any length; exact arithmetic, any scalar for refusals",
  "Convergence and invariants over histories of any length; the failure about the heading needs a dipping field.",
  ("estimation/mahony_filter.rs", ["MahonyFilter::step", "MahonyFilter::step_without_magnetometer", "MahonyFilter::with_reference_directions"]),
  ("estimation/madgwick_filter.rs", ["MadgwickFilter::step", "MadgwickFilter::with_reference_directions"]), ("estimation/attitude_correction.rs", ["correction", "stepped_orientation"]))

p("Resampling picks sources by weight",
  "No scheme fails and every pick is a source. Systematic and stratified pick k is the source on whose stretch of the weights (draw + k) / count falls, so a source gets its share to within one (two for stratified), and exactly its share on average over the systematic offset; multinomial picks the first source whose running weight reaches the draw; residual lays out every source's whole share first and draws the rest from the fractions. A source of weight zero is never picked.",
  "all weights, counts, draws and schemes; any scalar for the first sentence, exact arithmetic for the rest",
  "All weights and all random draws; the zero-weight failure needs a draw of exactly zero.",
  ("estimation/particle_filter.rs", ["ResamplingScheme", "resample_indices"]))
p("A particle filter update is Bayes' rule, and its weights stay a distribution",
  "An update multiplies each weight by its likelihood and scales the weights to sum to one (a displayed zero counts as the smallest positive number), and refreshes the cloud exactly when the effective number of samples is below the threshold; an update under which no particle is possible is refused with the filter unchanged. Through any history of predictions, updates, resamplings and changes of tuning nothing panics and the weights stay nonnegative and sum to one, over as many particles. The effective number of samples lies between one and the number of particles. A refused update leaves the filter as it was.",
  "all particle counts, weights, scores, draws and histories; reals with infinities and NaN",
  "All histories of calls; the failure needs one NaN score among good ones.",
  ("estimation/particle_filter.rs", ["ParticleFilter::update_with_log_weights", "ParticleFilter::resample", "ParticleFilter::effective_sample_size"]))
p("A particle cloud is drawn, moved, scored and summarized as documented",
  "A filter is built exactly from a positive count and positive definite covariances, particles being the mean plus a square root of the covariance times fresh normal draws. A prediction moves each particle through the model plus the noise factor times fresh draws and reports non-finite particles; an update scores each particle by the likelihood of its predicted measurement, a non-finite measurement being refused. The Gaussian score is minus half the mismatch squared in units of the noise, zero exactly at a match. The mean is the weighted mean, on average unmoved by systematic resampling; the most likely state is the first of the heaviest particles.",
  "all dimensions, counts, models, likelihoods, covariances and draws; any scalar for prediction and update, exact arithmetic for the rest",
  "All clouds and all draws, and an average over a continuum of offsets.",
  ("estimation/particle_filter.rs", ["ParticleFilter::from_random", "ParticleFilter::predict", "ParticleFilter::update", "GaussianLikelihood", "ParticleFilter::mean", "ParticleFilter::maximum_a_posteriori_state"]))

p("Gauss-Newton reports the truth and solves affine problems in one step",
  "Minimizing never panics when the derivator does not. A report names a point with finite residuals, its objective is half the squared norm of the residuals there, and the test it names (gradient, step or cost) holds; reports and failures to converge stay within one evaluation plus 1 (21 with backtracking) per pass. Stopping on the gradient means every jacobian column is at a right angle to the residuals up to gtol, so with exact derivatives and gtol zero every partial derivative of the cost is zero. Affine residuals are solved in one step to the unique point of least cost. With backtracking a step lowers the norm of the residuals.",
  "all residual functions, starting points, tolerances and budgets",
  "The iterates and stopping points depend on the function; tests try a few curves.",
  ("crates/multicalc/src/optimization/gauss_newton.rs",["GaussNewton","minimize","with_backtracking"]),("crates/multicalc/src/optimization/mod.rs",["MinimizationReport","TerminationReason"]))
p("Levenberg-Marquardt never makes the fit worse and its trial steps are optimal within their length",
  "Minimizing never panics when the derivator does not; a report names a point of the right size with finite residuals and its objective, the test it names holds, and the evaluations stay within one plus 100 per pass. The cost of the answer is never above that of the start. Stopping on the gradient means every jacobian column is at a right angle to the residuals up to gtol. Each trial step solves the damped normal equations with a damping that is not negative, leaves least of the linear model among all steps no longer in the scaling of the parameters, and is measured against exactly the reduction the linear model promises. Radius, damping and scaling stay positive.",
  "all residual functions, starting points, tolerances, radii and budgets",
  "Acceptance and damping depend on the whole history of trials; tests follow a few well-known curves.",
  ("crates/multicalc/src/optimization/levenberg_marquardt.rs",["LevenbergMarquardt","minimize"]),("crates/multicalc/src/optimization/trust_region.rs",["determine_lambda_and_parameter_update"]))

p("A Monte Carlo localizer weighs its guesses by Bayes' rule and reports where they agree",
  "Building a localizer scatters the asked number of guesses around the hint with independent normal errors of the given variances and equal weights; an empty cloud or a variance that is not positive is refused. Moving takes each guess the distance along its own heading and turns it, keeping the heading within half a turn of zero, plus noise of the set variances. A scan multiplies the weight of each guess by the exponential of its score, where each beam compares the first occupied square the map shows in its direction with the reading (a squared error when both see something, a reward when neither does, a penalty when only one does), scales the weights to sum to one, and redraws exactly when too few effective samples are left. The estimate's position is the place nearest to the guesses in mean square, its heading the direction they agree with best, its spread is symmetric and never negative in any direction, and a cloud whose guesses agree is estimated where it is, also across the mark where headings wrap.",
  "every map, scan geometry, scan (also with readings that are not numbers), cloud with finite poses and weights that sum to one, random source and motion",
  "The guesses, maps, scans and random draws range over infinite sets, and an average heading that is wrong only near the wrap or a beam that is scored the wrong way only for some reading passes most tests.",
  ("crates/multicalc/src/estimation/monte_carlo_localizer.rs", ["MonteCarloLocalizer::new", "MonteCarloLocalizer::set_motion_noise", "MonteCarloLocalizer::predict", "MonteCarloLocalizer::update", "MonteCarloLocalizer::estimate", "MonteCarloLocalizer::is_converged", "beam_score", "LocalizationMotion"]))

p("A kinematic tree only ever holds joints that fit",
  "A joint is appended exactly when there is room, its parent is already in the tree, a floating joint is the first and hangs from the world, its numbers are finite, its limits are in order (a continuous joint has none) and an axis it moves along or about has a direction; otherwise the tree stays as it was and the first problem, in a fixed order, is reported. The stored axis has length one. So in every tree parents come before children, and each joint owns a run of the configuration (seven numbers if floating, else one) and of the rates (six or one), one run after another. Building from slices keeps all joints or reports what the first refused one is refused for.",
  "every sequence of joints and parents, every capacity and every scalar type (NaN and infinities included)",
  "Trees are histories of pushes of any length; tests build a few robots.",
  ("crates/multicalc/src/kinematics/kinematic_tree.rs", ["KinematicTree::push", "KinematicTree::try_from_joints", "KinematicTree::config_offset", "KinematicTree::velocity_offset", "KinematicTree::config_len", "KinematicTree::velocity_len"]), ("crates/multicalc/src/kinematics/joint.rs", ["Joint", "JointKind", "JointParent"]))
p("Forward kinematics puts every joint where its own motion, its origin and its parent take it",
  "A configuration is answered with one pose per joint unless a number some joint reads is not finite or a floating joint's quaternion has no direction, and those two are told apart. Every pose is a rigid motion; it takes a point of the joint's frame first through the joint's own motion (a turn about the axis through its anchor by the reading less the zero offset, a slide along the axis, nothing, or the position and unit quaternion read), then its origin, then the pose it hangs from. A pose depends only on the readings of the joints between it and the world.",
  "every tree that can be built and every configuration",
  "The poses range over trees of any shape and depth and a continuum of readings; tests check a few robots at a few configurations.",
  ("crates/multicalc/src/kinematics/kinematic_tree.rs", ["KinematicTree::forward_kinematics"]), ("crates/multicalc/src/kinematics/kinematic_tree_state.rs", ["KinematicTreeState"]))
p("The geometric Jacobian times the joint rates is the velocity of the tool",
  "Along every motion whose readings change at the given rates, the tool's frame moves with the linear and angular velocity the Jacobian times the rates gives, in the world's axes or, with body axes, as seen from the tool. There is a column for each rate and no more, the product is the columns weighted with the rates, and rates of joints that do not carry the tool do not matter. A tool that is not in the tree or a state of the wrong length is refused.",
  "every tree that can be built, every tool, every differentiable motion through a configuration and every list of rates",
  "The claim is about derivatives along every curve through every configuration; tests compare finite differences at a few points.",
  ("crates/multicalc/src/kinematics/kinematic_tree.rs", ["KinematicTree::geometric_jacobian", "KinematicTree::geometric_jacobian_at"]), ("crates/multicalc/src/kinematics/kinematic_jacobian.rs", ["KinematicJacobian::tool_twist", "KinematicJacobian::column", "JacobianFrame"]))
p("Inverse kinematics reports what its run did and stays inside the joint limits",
  "A solve brings the seed inside the joint limits and makes passes from it, no more than allowed. It says Converged at the first configuration whose residuals are within both tolerances and nowhere else, Stalled where the next pass would move less than the stall tolerance, and out of budget when every pass was made; the residuals reported are those of the answer reported. One pass adds to each joint the damped least squares step, shortened to the longest allowed and without the entries of joints that cannot move, and brings the joint back inside its limits. With limits respected every limited joint of the answer is inside its limits, and without floating joints the answer is no farther from the seed than passes times the longest step. A frame that is not in the tree, numbers that are not finite and weights that are missing or not positive are refused, and nothing else is when the seed has orientations.",
  "every tree that can be built, every tool frame, target, seed and setting",
  "Runs of every length from every seed on every tree; tests solve for a few targets.",
  ("crates/multicalc/src/kinematics/inverse_kinematics.rs", ["InverseKinematics::solve", "InverseKinematicsReport", "InverseKinematicsTermination"]), ("crates/multicalc/src/kinematics/kinematic_jacobian.rs", ["KinematicJacobian"]))
p("The inverses of the Jacobian are damped least squares and the smallest singular value is the least push felt",
  "The damped inverse takes a twist to the joint rates that weigh the squared error against the damping times the weighted squared rates best, and with no damping to the weighted shortest rates that come closest; with damping the weighted rates are at most the twist over the damping. The null space projector keeps of a wish what does not move the tool. The step of inverse kinematics is the damped least squares step towards the measured error with the secondary objective as its wish, with no damping at or above the threshold and at most the square of the setting below it. The smallest singular value is the least length with which a push of length one on the tool is felt by the joints, nought with fewer than six rates; a singularity is called positional or rotational when more than two thirds of such a push is along or about the axes. A weight that is missing or not positive is refused.",
  "every Jacobian of a tree, every weight, damping, threshold, twist and wish",
  "Optimality is against every vector of joint rates; tests check that a few solutions reproduce a twist.",
  ("crates/multicalc/src/kinematics/kinematic_jacobian.rs", ["KinematicJacobian::damped_pseudo_inverse", "KinematicJacobian::null_space_projector", "KinematicJacobian::smallest_singular_value", "KinematicJacobian::classify_singularity", "SingularityKind"]), ("crates/multicalc/src/kinematics/inverse_kinematics.rs", ["InverseKinematics::solve"]))
p("Inverse kinematics from several starts keeps the distinct branches, first found first",
  "A run from seeds is refused when there are more of them than it has room for, and otherwise as the first refused seed is. Its report counts every seed, and keeps the converged answers in the order of their seeds, leaving out exactly those nearer than the threshold to one kept before; every answer kept meets the tolerances. A run that draws its seeds is the run from the seed given and copies of it in which each joint that moves is redrawn from a number of its own, uniformly between its limits or within the span of its reading, and all else is copied. The answer closest to a reference is the first of the nearest. The distance is the root of the summed squares of the joints' differences, the short way round for a joint that turns for ever and position and angle for a floating one; it is symmetric, nought from a configuration to itself and blind to whole turns.",
  "every tree, solver, threshold, list of seeds, source of random numbers and pair of configurations",
  "The order, the thresholds and the draws range over every run; tests use two seeds that meet.",
  ("crates/multicalc/src/kinematics/multi_start_inverse_kinematics.rs", ["MultiStartInverseKinematics::solve_from_seeds", "MultiStartInverseKinematics::solve_seeded", "MultiStartReport::closest_to", "MultiStartReport::solutions"]), ("crates/multicalc/src/kinematics/kinematic_tree.rs", ["KinematicTree::configuration_distance"]))
p("Spheres and capsules: the distance is that of the solids, and a query reports the closest pair looked at",
  "The distance of two shapes at their poses is, less a stated bound, no more than that of any two of their points. When it is not negative some two points are exactly that far apart, and when it is not positive the solids share a point. The bound is nought for every pair but a capsule whose axis is no longer than 2^-26, and two capsules whose axes have a product of lengths and sine of no more than 2^-26. It is the same in both orders up to the bound and the same after moving both rigidly. Calls that fill a query keep what was asked for first, up to each capacity, return the place of the entry, and change nothing when refused; a pair left out is left out in both orders. A check is refused exactly when an attached shape hangs on a frame the state does not have. Otherwise its closest pair is one looked at, at the least distance of all, and the report says clear exactly when no pair looked at is nearer than asked for.",
  "every pair of shapes with radii and half lengths that are not negative, every pose, every query, state and history of calls",
  "The closest points fall in a different case for every arrangement of the two axes; tests try a handful, none of them short or nearly parallel.",
  ("crates/multicalc/src/kinematics/collision.rs", ["Primitive::distance_to", "CollisionQuery::check", "CollisionQuery::push_self_primitive", "CollisionQuery::push_environment_primitive", "CollisionQuery::exclude_pair", "CollisionReport::is_clear"]))
p("A rigid body moves as its particles do under Newton's laws, and the tick is the midpoint rule",
  "Construction refuses what is not finite, and refuses as non-positive exactly a rotational inertia that is not positive definite; what it builds carries its inverse. For any particles with that mass, balance point and rotational inertia, the accelerations returned are the only ones for which mass times acceleration of all the particles, less gravity, adds up to the force and its moments to the torque. Along any motion that follows the state derivative from a rotation, the orientation stays a rotation, every particle's velocity and acceleration are the rates of change of its place and velocity, momentum changes by force and weight, its moment by theirs, energy by the power of force and torque; left alone the body keeps its energy, and without gravity its momentum and the moment of it. One tick is the midpoint rule: exact for a falling body over any number of ticks, and for a body spun about its own axis by a steady torque. The derivative reads only the direction of the four orientation numbers, is zero when they are all but zero, and a state survives being written as thirteen numbers.",
  "every rigid body, gravity, state, load over time, motion, length of tick and number of ticks",
  "Tests drop a body and spin it about one axis; they cannot follow every particle under every load, and a wrong cross term shows only when the balance point is off the origin and the body tumbles.",
  ("crates/multicalc/src/dynamics/rigid_body.rs", ["RigidBody::new", "RigidBody::accelerations", "RigidBody::stepped", "RigidBody::state_derivative", "state_vector_from_free_joint", "free_joint_from_state_vector"]))
p("The minimum snap plan passes its waypoints on time and no path with the same ends costs less snap",
  "Planning refuses, in this order, fewer than two waypoints, more segments than fit, a number of durations that is not the number of segments, a duration that is not positive, a waypoint or boundary value that is not finite and a workspace too small; once the arguments are in order it answers or reports a system too badly conditioned, never a singular one, and one segment lasting between a thousandth and a thousand is always answered. The plan keeps the durations, is a polynomial of degree seven on each, is at every waypoint on time, starts and ends with the velocity, acceleration and jerk asked for, and runs on through its sixth derivative where pieces meet. Among all paths through the same waypoints at the same times with the same ends, four times differentiable on each segment and with three derivatives running on, it has the least integral of squared snap along each axis, and any path that costs no more is the same path. Durations from an average speed are distance over speed; waypoints that coincide are refused with the earlier durations already written.",
  "every number of segments, dimension, waypoint, duration and boundary, and every competing path",
  "A test compares one plan with a few others; that no path at all is cheaper is a statement about every function, and a wrong sign in one term of the cost still gives smooth-looking plans through every waypoint.",
  ("crates/multicalc/src/motion/minimum_snap.rs", ["MinimumSnapPlanner::plan", "MinimumSnapPlanner::classify", "snap_cost", "ways_after_four_derivatives", "durations_from_average_speed"]), ("crates/multicalc/src/polynomial/construction.rs", ["from_endpoint_derivatives", "endpoint_mapping", "endpoint_mapping_inverse"]))
p("Folding an error into a tracked state and taking it back out are inverse, and the IMU step follows the motion",
  "Folding a fifteen-number error into a state adds four groups and turns the facing about the body's own axes by exactly the rotation of the turn, keeping it a rotation. Taking the error between two states and folding it in gives the first state back, up to the sign of the quaternion, with a turn of at most half a turn; folding an error in and taking it out gives the error back up to half a turn, and within its cube when the turn is too tiny to resolve. One IMU step, as its length varies, moves the position at the velocity, the velocity at the reading less its offset turned into the world plus gravity, and the facing at the turn rate read less its offset, and leaves the offsets alone; a body held still against gravity with its offsets known does not move. A state counts as finite exactly when all sixteen numbers are.",
  "every state, error, reading, gravity and length of step; every scalar for finiteness",
  "A test folds in a few errors; a swapped product or sign in the turn gives the same answer at the identity facing and small errors, and only shows at other facings.",
  ("crates/multicalc/src/estimation/error_state_kalman_filter.rs", ["NominalState::plus_error", "NominalState::error_from", "NominalState::propagated", "NominalState::is_finite"]))
p("The error-state filter carries its covariance with the true slope of the motion, folds readings in with the best gain, and keeps a covariance whatever is done to it",
  "Each entry of the transition of a step is how one number of the error after the step changes with one number before it, except that the position rows leave out the half-step of the push and the block from turn-rate offset to turn is the value for a body not turning. A step is never refused in exact arithmetic, moves the state, carries the covariance along and adds the noise of the step. The slope of a sensor given by formulas is how its readings change with each number of the error. A residual is folded in exactly when the spread expected of it is positive definite, with the one gain no other beats in any direction, and the covariance is what that gain leaves carried over to the corrected facing; otherwise nothing changes. Another sensor is folded in the same way and leaves the record of the last innovation alone. Readings that are not finite are refused with nothing changed. Lifting the covariance leaves no direction surer than the floor. The normalized error is the quadratic form of the inverse covariance. Whatever sequence of steps, readings, other sensors and retunings is applied, the covariance stays symmetric and positive semidefinite.",
  "every filter, reading, sensor formula, residual, length of step and sequence of actions; every scalar for the refusals",
  "A test sees whether a filter converges on one trajectory; a wrong block of the transition or a reset in the wrong direction still converges, only with the wrong confidence, and a covariance that stops being one shows only after long histories.",
  ("crates/multicalc/src/estimation/error_state_kalman_filter.rs", ["ErrorStateKalmanFilter::predict", "ErrorStateKalmanFilter::update", "ErrorStateKalmanFilter::update_with_residual", "ErrorStateKalmanFilter::update_other", "ErrorStateKalmanFilter::condition_covariance", "ErrorStateKalmanFilter::normalized_estimation_error_squared"]))
p("Newton's method for systems reports the truth about where it stopped, and solves linear systems exactly",
  "Each move adds to the point a multiple of the one vector that the matrix of derivatives there sends to minus the residual: the whole of it when not damped, and when damped the first halving that lowers the norm of the residual, or the twentieth. An answer is the end of such moves, with the norm of the residual at the root, the number of passes made, within the budget, and the tolerance that was met; an error says that a value or derivative was not finite, that the matrix could not be inverted, what the derivative reported, or that the whole budget was used, and in each case that is what happened at the point reached. Conversely the first point of the moves that meets a tolerance within the budget is the answer. Damped, the residual falls at every move unless no halving lowers it. A linear system whose matrix the factorization accepts is solved exactly within two passes from any start. The defaults are thirty times machine epsilon, a hundred passes and no damping, and each builder changes its own setting.",
  "every system, start, derivator, tolerance and budget; every scalar for the outcomes",
  "A test solves a few systems from good starts; a stale residual in the report, a sign lost in one branch of the line search or an off-by-one budget shows only on other histories.",
  ("crates/multicalc/src/root_finding/newton_system.rs", ["NewtonSystem::solve", "NewtonSystem::from_derivator", "NewtonSystem::with_backtracking"]),
  ("crates/multicalc/src/root_finding/mod.rs", ["RootReportN"]))

if __name__ == "__main__":
    out = os.path.join(os.path.dirname(os.path.dirname(os.path.abspath(__file__))), "properties.jsonl")
    with open(out, "w") as fh:
        for q in P:
            fh.write(json.dumps(q, ensure_ascii=False) + "\n")
    print(len(P), "properties")
