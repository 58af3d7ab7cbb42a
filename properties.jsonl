{"id": "C01", "title": "Pcg32 visits every 64-bit state before repeating", "statement": "For every stream, the state of a Pcg32 advances by a fixed rule whose orbit from any state is the whole set of 2^64 states: the generator returns to a state after exactly 2^64 draws and never earlier, and every 64-bit state is reached.", "quantifier": "every stream, every starting state, every number of draws", "why_tests_cant": "The period is 2^64; no test can walk it.", "anchors": [{"file": "crates/multicalc/src/random.rs", "symbols": ["Pcg32::next_u32", "PCG_MULTIPLIER"]}]}
{"id": "C02", "title": "Raw draws are a function of seed and stream and stay in range", "statement": "Every 32-bit draw is in [0, 2^32), every 64-bit draw is the two consecutive 32-bit draws with the first in the high half, every state stays a 64-bit value, and the whole sequence of draws depends only on the seed and the stream.", "quantifier": "every seed, every stream, every number of draws", "why_tests_cant": "Quantifies over all 2^128 seed/stream pairs and all sequence lengths.", "anchors": [{"file": "crates/multicalc/src/random.rs", "symbols": ["RandomSource::next_u32", "RandomSource::next_u64", "Pcg32::with_stream"]}]}
{"id": "C03", "title": "Different streams draw different sequences", "statement": "Two generators built from the same seed on two different streams do not produce the same sequence of draws.", "quantifier": "every seed and every pair of distinct streams", "why_tests_cant": "The claim is about all pairs of 2^64 streams.", "anchors": [{"file": "crates/multicalc/src/random.rs", "symbols": ["Pcg32::with_stream"]}]}
{"id": "C04", "title": "next_unit is in the half-open unit interval", "statement": "A uniform draw is never negative and never reaches 1, for f64 (53 bits) and f32 (24 bits), whatever the generator returns, and equals k/2^53 (k/2^24) exactly for the top bits k of the draw.", "quantifier": "every raw word the generator can return, both float widths", "why_tests_cant": "Needs all 2^64 raw words; rounding up to 1.0 is the classical failure.", "anchors": [{"file": "crates/multicalc/src/random.rs", "symbols": ["RandomScalar for f64", "RandomScalar for f32"]}]}
{"id": "C05", "title": "Standard-normal draws come in pairs, the second one free", "statement": "When standard_normal returns it has consumed whole pairs of uniform draws up to the first pair strictly inside the unit disc and not at its centre, returns the first of the two polar-method values of that pair, and the next call returns the second one without consuming any draw; a call after that starts afresh.", "quantifier": "every sequence of raw words on which the rejection loop stops, every interleaving of calls", "why_tests_cant": "The property ranges over all histories of calls and all random words, including long rejection runs.", "anchors": [{"file": "crates/multicalc/src/random.rs", "symbols": ["RandomSource::standard_normal", "Pcg32::get_cache", "Pcg32::set_cache"]}]}
{"id": "C06", "title": "Pairwise and Kahan sums lose and repeat nothing", "statement": "In exact arithmetic the total of the pairwise accumulator and of the Kahan accumulator after any run of additions is the plain sum of the terms added, whatever their number, including past every internal capacity.", "quantifier": "every sequence of terms of every length", "why_tests_cant": "Block and level boundaries (128 terms, 32 levels, more than 2^38 terms) are out of reach of tests.", "anchors": [{"file": "crates/multicalc/src/utils/summation.rs", "symbols": ["PairwiseSum::add", "PairwiseSum::total", "KahanSum::add", "KahanSum::total"]}]}
{"id": "C07", "title": "Rounding error of the pairwise sum is bounded", "statement": "With every addition rounded to nearest, the pairwise total differs from the exact sum by at most ((1+u)^d - 1) times the sum of absolute values, where d counts the additions any one term goes through: at most one block of 128 plus one addition per level, instead of one per term.", "quantifier": "every sequence of finite terms, any rounding with relative error u", "why_tests_cant": "An error bound is a statement about all inputs.", "anchors": [{"file": "crates/multicalc/src/utils/summation.rs", "symbols": ["PairwiseSum::add", "PairwiseSum::push", "PairwiseSum::total"]}]}
{"id": "C08", "title": "powi is the mathematical power", "statement": "powi(x, n) is x multiplied by itself n times, one for n = 0, and the reciprocal for negative n, for every 32-bit exponent including i32::MIN.", "quantifier": "every base of any commutative ring or field scalar, every i32 exponent", "why_tests_cant": "Exponentiation by squaring has a case per exponent bit pattern.", "anchors": [{"file": "crates/multicalc/src/scalar/numeric.rs", "symbols": ["Numeric::powi"]}]}
{"id": "C09", "title": "Forward-mode dual numbers compute exact derivatives", "statement": "Evaluating any function written with the scalar operations on a dual number seeded with 1 returns the function's value and its exact derivative at that point, wherever the operations involved are differentiable.", "quantifier": "every formula built from the scalar operations, every point in its domain of differentiability", "why_tests_cant": "Ranges over all programs.", "anchors": [{"file": "crates/multicalc/src/scalar/dual.rs", "symbols": ["Dual", "impl Numeric for Dual"]}]}
{"id": "C10", "title": "Hyper-dual numbers compute exact second derivatives", "statement": "Evaluating a function on a hyper-dual number returns the value, both first directional derivatives and the exact mixed second derivative.", "quantifier": "every formula built from the modelled operations, every point in its domain", "why_tests_cant": "Ranges over all programs.", "anchors": [{"file": "crates/multicalc/src/scalar/hyper_dual.rs", "symbols": ["HyperDual::chain", "impl Mul for HyperDual"]}]}
{"id": "C11", "title": "Jets compute every Taylor coefficient", "statement": "Arithmetic on jets is arithmetic of power series cut off at the jet's order, so that evaluating a function on Jet::variable(x) yields f^(k)(x)/k! for every k below the order.", "quantifier": "every formula built from the modelled operations, every order, every point in the domain", "why_tests_cant": "Ranges over all programs and all orders.", "anchors": [{"file": "crates/multicalc/src/scalar/jet.rs", "symbols": ["impl Mul for Jet", "impl Div for Jet", "Jet::sqrt", "Jet::exp", "Jet::log", "Jet::sin_cos"]}]}
{"id": "C12", "title": "Derivative scalars never change the value computed", "statement": "The value part of any formula, including formulas that branch on comparisons, evaluated over dual, hyper-dual or jet scalars equals the formula evaluated over the plain scalar.", "quantifier": "every formula built from the operations and comparisons, every input and every seed of derivative parts", "why_tests_cant": "Ranges over all programs and all control flow paths.", "anchors": [{"file": "crates/multicalc/src/scalar/dual.rs", "symbols": ["impl PartialOrd for Dual"]}, {"file": "crates/multicalc/src/scalar/hyper_dual.rs", "symbols": ["HyperDual"]}, {"file": "crates/multicalc/src/scalar/jet.rs", "symbols": ["Jet"]}]}
{"id": "C13", "title": "clamp never panics", "statement": "Clamping a number between two bounds returns a number for every choice of bounds; the library advertises no panics.", "quantifier": "every value and every pair of bounds, including reversed and NaN bounds", "why_tests_cant": "Needs every pair of floats.", "anchors": [{"file": "crates/multicalc/src/scalar/numeric.rs", "symbols": ["Numeric::clamp for f64"]}]}
{"id": "C14", "title": "Bisection keeps a sign change and stays in the bracket", "statement": "Whenever bisection succeeds, the reported root lies in the closed bracket the caller gave, the reported residual is the function's value there, and the iteration count is within the budget; the final bracket still holds a sign change.", "quantifier": "every function, every bracket, every tolerance and budget", "why_tests_cant": "Ranges over all functions.", "anchors": [{"file": "crates/multicalc/src/root_finding/bisection.rs", "symbols": ["Bisection::solve"]}]}
{"id": "C15", "title": "Bisection converges to a true root at the stated rate", "statement": "For a continuous function with a sign change over the bracket, bisection with a budget of at least log2(width/tolerance) + 1 iterations succeeds and, unless it stopped on the residual tolerance, its answer is within the bracket tolerance of a true zero.", "quantifier": "every continuous function, every bracket with a sign change, every positive tolerance", "why_tests_cant": "A convergence statement over all functions.", "anchors": [{"file": "crates/multicalc/src/root_finding/bisection.rs", "symbols": ["Bisection::solve"]}]}
{"id": "C16", "title": "Bisection's default budget always suffices", "statement": "With the default settings, a valid bracket never runs out of iterations (as documented on the budget).", "quantifier": "every valid bracket of finite numbers", "why_tests_cant": "Depends on the widest representable bracket.", "anchors": [{"file": "crates/multicalc/src/root_finding/bisection.rs", "symbols": ["Bisection::new", "Bisection::solve"]}]}
{"id": "C17", "title": "Brent keeps the root bracketed and reports truthfully", "statement": "Whenever Brent's method succeeds, the reported point lies inside the caller's bracket, the residual is the function's value there, the count is within budget, and when it stops on the bracket width a sign change lies within twice the tolerance of the answer.", "quantifier": "every function, every bracket, every tolerance and budget", "why_tests_cant": "Ranges over all functions and all interpolation/bisection schedules.", "anchors": [{"file": "crates/multicalc/src/root_finding/brent.rs", "symbols": ["Brent::solve"]}]}
{"id": "C18", "title": "Newton's report is truthful and bounded", "statement": "A successful Newton report's residual is the function's value at the reported root, is within tolerance when the reason given is the residual, the iteration count never exceeds the budget, and no branch of the solver evaluates more than a fixed number of backtracking points per iteration.", "quantifier": "every function with derivative, every start, every tolerance and budget", "why_tests_cant": "Ranges over all functions.", "anchors": [{"file": "crates/multicalc/src/root_finding/newton.rs", "symbols": ["Newton::solve"]}]}
{"id": "C19", "title": "A biquad realises its difference equation", "statement": "From rest, the outputs of a biquad are exactly y[n] = b0 x[n] + b1 x[n-1] + b2 x[n-2] - a1 y[n-1] - a2 y[n-2] with zero history, for every input sequence; reset returns it to that state.", "quantifier": "every coefficient set, every input sequence of every length", "why_tests_cant": "The equivalence of the internal form with the equation is over all histories.", "anchors": [{"file": "crates/multicalc/src/signal_processing/biquad.rs", "symbols": ["Biquad::filter", "Biquad::reset"]}]}
{"id": "C20", "title": "Linear filters are linear", "statement": "Filtering a sum of two input sequences, or a scaled one, gives the sum, or the scaled, output sequence, for biquads, cascades and multi-channel filters.", "quantifier": "every coefficient set, every pair of input sequences, every scale", "why_tests_cant": "Superposition is a statement over all inputs.", "anchors": [{"file": "crates/multicalc/src/signal_processing/biquad.rs", "symbols": ["Biquad::filter"]}, {"file": "crates/multicalc/src/signal_processing/cascade.rs", "symbols": ["BiquadCascade::filter", "MultiChannelBiquad::filter"]}]}
{"id": "C21", "title": "is_stable is exactly pole-inside-the-unit-circle, and implies bounded output", "statement": "is_stable holds if and only if both poles of the filter lie strictly inside the unit circle; and for a stable filter every bounded input gives a bounded output while an input that stops leaves an output that decays to zero.", "quantifier": "every pair of feedback weights, every bounded input sequence", "why_tests_cant": "Asymptotic statement over infinite histories.", "anchors": [{"file": "crates/multicalc/src/signal_processing/biquad.rs", "symbols": ["BiquadCoefficients::is_stable"]}]}
{"id": "C22", "title": "Every designed filter is stable", "statement": "Any coefficients returned by low_pass, high_pass, band_pass or notch are stable, as the documentation of is_stable states.", "quantifier": "every accepted frequency, quality factor and timestep", "why_tests_cant": "Three real parameters; failures hide in corners such as low quality factors.", "anchors": [{"file": "crates/multicalc/src/signal_processing/biquad.rs", "symbols": ["BiquadCoefficients::low_pass", "BiquadCoefficients::high_pass", "BiquadCoefficients::band_pass", "BiquadCoefficients::notch", "BiquadCoefficients::is_stable"]}]}
{"id": "C23", "title": "Designed filters have the advertised gain at zero frequency, at the centre and at half the sampling rate", "statement": "A low-pass and a notch pass a constant unchanged, a high-pass and a band-pass remove it; a band-pass passes its centre frequency with gain one, a notch removes its centre frequency completely; low-pass and band-pass remove half the sampling rate, which high-pass and notch pass.", "quantifier": "every accepted frequency, quality factor and timestep", "why_tests_cant": "Continuous family of designs.", "anchors": [{"file": "crates/multicalc/src/signal_processing/biquad.rs", "symbols": ["BiquadCoefficients::low_pass", "BiquadCoefficients::magnitude_at"]}]}
{"id": "C24", "title": "settle_to is a fixed point", "statement": "After settle_to(v), feeding v returns the same settled value forever, for a single section and for a cascade, whenever the filter's zero-frequency gain is defined.", "quantifier": "every coefficient set with a defined gain, every value, every number of further samples", "why_tests_cant": "All histories.", "anchors": [{"file": "crates/multicalc/src/signal_processing/biquad.rs", "symbols": ["Biquad::settle_to"]}, {"file": "crates/multicalc/src/signal_processing/cascade.rs", "symbols": ["BiquadCascade::settle_to"]}]}
{"id": "C25", "title": "A cascade is the composition of its sections and retuning one touches only that one", "statement": "The output sequence of a cascade is the composition of its sections' output sequences; set_section replaces exactly one section's weights, keeps all memories and leaves the others untouched; an index out of range changes nothing and is reported.", "quantifier": "every section list, every input sequence, every index", "why_tests_cant": "All histories and indices.", "anchors": [{"file": "crates/multicalc/src/signal_processing/cascade.rs", "symbols": ["BiquadCascade::filter", "BiquadCascade::set_section", "BiquadCascade::reset"]}]}
{"id": "C26", "title": "Moving average is the mean of the last WINDOW samples", "statement": "Each output is the mean of the last WINDOW samples, where the time before the first sample counts as the first sample; reset forgets everything.", "quantifier": "every window size, every sequence of samples and resets", "why_tests_cant": "Ring-buffer wrap-around over all histories.", "anchors": [{"file": "crates/multicalc/src/signal_processing/window.rs", "symbols": ["MovingAverage::filter", "MovingAverage::reset", "push"]}]}
{"id": "C27", "title": "Running median is the middle of the last WINDOW samples", "statement": "Each output is an element of the last WINDOW samples (padded with the first sample) with at most half of them below it and at most half above; so fewer than half outliers can never push the output outside the range of the others.", "quantifier": "every odd window size, every sequence of samples and resets", "why_tests_cant": "All orderings and all histories.", "anchors": [{"file": "crates/multicalc/src/signal_processing/window.rs", "symbols": ["RunningMedian::filter", "RunningMedian::reset"]}]}
{"id": "C28", "title": "Savitzky-Golay reproduces polynomials exactly", "statement": "A Savitzky-Golay filter with TERMS terms reproduces every polynomial of degree below TERMS exactly once its window is full, at the position it was built for.", "quantifier": "every window, every number of terms, every polynomial of admissible degree, every window position", "why_tests_cant": "All polynomials and all windows.", "anchors": [{"file": "crates/multicalc/src/signal_processing/savitzky_golay.rs", "symbols": ["SavitzkyGolay::centered", "SavitzkyGolay::latest", "SavitzkyGolay::filter"]}]}
{"id": "C29", "title": "Constructors reject a zero window with an error, not a panic", "statement": "Building a window filter with a zero-length window returns the documented error rather than failing.", "quantifier": "every constructor taking a window length", "why_tests_cant": "Corner case in const-generic arithmetic.", "anchors": [{"file": "crates/multicalc/src/signal_processing/savitzky_golay.rs", "symbols": ["SavitzkyGolay::latest", "SavitzkyGolay::centered"]}, {"file": "crates/multicalc/src/signal_processing/window.rs", "symbols": ["MovingAverage::new", "RunningMedian::new"]}]}
{"id": "C30", "title": "Deadband silences the band and joins continuously", "statement": "Inputs within the band give exactly zero; outside it the output follows the documented law, keeps the input's sign, and is never larger in size than the input.", "quantifier": "every width, every mode, every input", "why_tests_cant": "All inputs.", "anchors": [{"file": "crates/multicalc/src/signal_processing/conditioning.rs", "symbols": ["Deadband::new", "Deadband::apply"]}]}
{"id": "C31", "title": "Hysteresis switches only on crossing the outer thresholds", "statement": "The output after any history is decided by the last sample that was outside the two thresholds (on if it was above the upper, off if below the lower), or the initial value if there is none.", "quantifier": "every pair of thresholds, every history including NaN samples", "why_tests_cant": "All histories.", "anchors": [{"file": "crates/multicalc/src/signal_processing/conditioning.rs", "symbols": ["Hysteresis::new", "Hysteresis::update"]}]}
{"id": "C32", "title": "The slew limiter bounds every step, never overshoots and arrives", "statement": "Each output moves toward the target by at most the rise (fall) rate times the timestep, never passes the target, and a constant target is reached after a bounded number of samples and then held.", "quantifier": "every rates and timestep, every target history", "why_tests_cant": "All histories.", "anchors": [{"file": "crates/multicalc/src/signal_processing/conditioning.rs", "symbols": ["SlewRateLimiter::new", "SlewRateLimiter::filter"]}]}
{"id": "C33", "title": "The one-pole filter stays within the range of its inputs and converges", "statement": "After any history the output lies between the smallest and largest sample since the last reset, a smoothing of one passes samples through, and a constant input makes the output approach it geometrically with ratio one minus the smoothing.", "quantifier": "every smoothing in [0,1], every history", "why_tests_cant": "All histories.", "anchors": [{"file": "crates/multicalc/src/signal_processing/one_pole.rs", "symbols": ["OnePoleLowPass::new", "OnePoleLowPass::from_cutoff", "OnePoleLowPass::filter"]}]}
{"id": "C34", "title": "An occupancy grid is a map from cells to flags", "statement": "For any sequence of set_cell, clear and queries, a cell reads occupied exactly when the last write to that cell since the last clear marked it; writes outside the grid change nothing and outside cells read as not occupied; no write affects another cell.", "quantifier": "every grid size, every sequence of operations", "why_tests_cant": "All operation histories.", "anchors": [{"file": "crates/multicalc/src/mapping/occupancy_grid.rs", "symbols": ["OccupancyGrid::set_cell", "OccupancyGrid::is_occupied", "DynamicOccupancyGrid::set_cell", "DynamicOccupancyGrid::index_of"]}]}
{"id": "C35", "title": "cell_of returns the cell containing the point", "statement": "cell_of returns a cell exactly when the point lies in the map, and then the point is within that cell's half-open square; anything else, including a coordinate that is not a number, gives none.", "quantifier": "every map placement and resolution, every point including NaN and infinities", "why_tests_cant": "All floats.", "anchors": [{"file": "crates/multicalc/src/mapping/occupancy_grid.rs", "symbols": ["OccupancyMap::cell_of"]}]}
{"id": "C36", "title": "Casting a ray always finishes", "statement": "cast_ray finishes after at most columns + rows cell steps whatever the numbers are, including NaN, infinite and denormal positions and bearings.", "quantifier": "every scalar type and every value of start, bearing, resolution, range, every map", "why_tests_cant": "Termination for all floats.", "anchors": [{"file": "crates/multicalc/src/mapping/occupancy_grid.rs", "symbols": ["OccupancyMap::cast_ray"]}]}
{"id": "C37", "title": "cast_ray reports the first obstacle along the beam", "statement": "If cast_ray returns a distance, it is within the maximum range, the beam's point at that distance is on an occupied cell, and the beam crosses the interior of no occupied cell before it; if it returns none, the beam enters no occupied cell's interior within the maximum range.", "quantifier": "every map, every start and bearing, every range", "why_tests_cant": "Continuous family of beams over all maps.", "anchors": [{"file": "crates/multicalc/src/mapping/occupancy_grid.rs", "symbols": ["OccupancyMap::cast_ray", "entry_distance", "boundary_distance", "clamp_index"]}]}
{"id": "C38", "title": "A drawn polyline has no gaps", "statement": "The cells marked by occupy_polyline along one edge form a chain in which consecutive samples fall in the same or a neighbouring (edge or corner) cell, and both end points' cells are marked.", "quantifier": "every polyline, resolution and map", "why_tests_cant": "All segments.", "anchors": [{"file": "crates/multicalc/src/mapping/occupancy_grid.rs", "symbols": ["OccupancyMap::occupy_polyline"]}]}
{"id": "C39", "title": "A drawn circle has no gaps", "statement": "Consecutive samples of occupy_circle fall in the same or a neighbouring cell, so that no beam slips through, as documented.", "quantifier": "every radius and resolution", "why_tests_cant": "Large radii relative to the resolution are not sampled.", "anchors": [{"file": "crates/multicalc/src/mapping/occupancy_grid.rs", "symbols": ["OccupancyMap::occupy_circle"]}]}
{"id": "C40", "title": "Beam numbering and beam angles agree", "statement": "Beam angles increase evenly from minus half to plus half the field of view; nearest_beam_index of a beam's own angle is that beam; for any angle in the arc the index returned is of a nearest beam; outside the arc the answer is none.", "quantifier": "every accepted geometry, every beam index, every angle", "why_tests_cant": "All angles and geometries.", "anchors": [{"file": "crates/multicalc/src/mapping/scan_geometry.rs", "symbols": ["ScanGeometry::beam_angle", "ScanGeometry::nearest_beam_index", "ScanGeometry::try_new"]}]}
{"id": "C41", "title": "Beam numbering round-trips in floating point", "statement": "In f64, nearest_beam_index(beam_angle(i)) is i for every beam of every accepted geometry.", "quantifier": "every f64 geometry, every beam index", "why_tests_cant": "All floats: depends on rounding.", "anchors": [{"file": "crates/multicalc/src/mapping/scan_geometry.rs", "symbols": ["ScanGeometry::beam_angle", "ScanGeometry::nearest_beam_index"]}]}
{"id": "C42", "title": "Polynomial evaluation is the sum of coefficient times power", "statement": "evaluate(x) is the sum of c_k x^k and evaluate_with_derivatives returns the value and every requested derivative at x, zero beyond the degree.", "quantifier": "every coefficient list of every length, every point, every number of orders", "why_tests_cant": "All lengths and orders.", "anchors": [{"file": "crates/multicalc/src/polynomial/polynomial.rs", "symbols": ["Polynomial::evaluate", "Polynomial::evaluate_with_derivatives"]}]}
{"id": "C43", "title": "Polynomial calculus is calculus", "statement": "derivative and nth_derivative evaluate to the true derivatives of the evaluated function, and definite_integral is the true integral between the bounds (negated when reversed, additive over adjacent ranges).", "quantifier": "every polynomial, order and bounds", "why_tests_cant": "All polynomials and bounds.", "anchors": [{"file": "crates/multicalc/src/polynomial/polynomial.rs", "symbols": ["Polynomial::derivative", "Polynomial::nth_derivative", "Polynomial::definite_integral"]}]}
{"id": "C44", "title": "Polynomial algebra agrees with pointwise arithmetic", "statement": "Addition, subtraction, negation, scaling, multiply_into, compose_into, shift_argument and scale_argument evaluate to the pointwise sum, difference, negation, multiple, product, composition, shift and stretch; try_resize and a successful product or composition never change a value silently, and they fail exactly when a non-zero term does not fit.", "quantifier": "every pair of polynomials of every length, every output size, every point", "why_tests_cant": "All lengths and all values.", "anchors": [{"file": "crates/multicalc/src/polynomial/polynomial.rs", "symbols": ["Polynomial::multiply_into", "Polynomial::compose_into", "Polynomial::shift_argument", "Polynomial::scale_argument", "Polynomial::try_resize"]}]}
{"id": "C45", "title": "Polynomial long division satisfies the division identity", "statement": "Whenever divide succeeds, dividend = quotient * divisor + remainder as functions and the remainder's degree is below the divisor's; it fails only for a zero divisor or an output too small.", "quantifier": "every dividend and divisor, every output size", "why_tests_cant": "All lengths and values.", "anchors": [{"file": "crates/multicalc/src/polynomial/polynomial.rs", "symbols": ["Polynomial::divide"]}]}
{"id": "C46", "title": "from_roots vanishes exactly at the given roots", "statement": "The polynomial built from roots evaluates to the product of (x - r) at every x, is monic, and is zero exactly at the roots.", "quantifier": "every list of roots that fits, every point", "why_tests_cant": "All lists.", "anchors": [{"file": "crates/multicalc/src/polynomial/construction.rs", "symbols": ["Polynomial::from_roots"]}]}
{"id": "C47", "title": "from_points interpolates", "statement": "from_points returns a polynomial that takes each given value at its node whenever the nodes are distinct, and reports a duplicate otherwise.", "quantifier": "every set of nodes and values of every size", "why_tests_cant": "All sizes and values.", "anchors": [{"file": "crates/multicalc/src/polynomial/construction.rs", "symbols": ["Polynomial::from_points"]}]}
{"id": "C48", "title": "Hermite end conditions are met", "statement": "The cubic built from end values and slopes has those values and slopes (measured on the outer parameter) at the ends.", "quantifier": "every end data, every positive span", "why_tests_cant": "All values.", "anchors": [{"file": "crates/multicalc/src/polynomial/construction.rs", "symbols": ["Polynomial::<4>::from_endpoint_derivatives"]}]}
{"id": "C49", "title": "Closed-form quadratic roots are exactly the real roots", "statement": "The list returned for a quadratic is sorted, holds exactly its real zeros, both zeros (repeated when equal) when the discriminant is not negative and none otherwise.", "quantifier": "every quadratic with non-zero leading coefficient", "why_tests_cant": "All coefficients.", "anchors": [{"file": "crates/multicalc/src/polynomial/roots.rs", "symbols": ["Polynomial::<3>::real_roots"]}]}
{"id": "C50", "title": "Closed-form cubic roots: soundness, completeness and repeats", "statement": "Every number returned for a cubic is a zero, every real zero is returned, in increasing order and with repeats included.", "quantifier": "every cubic with non-zero leading coefficient", "why_tests_cant": "All coefficients; repeated roots are measure zero.", "anchors": [{"file": "crates/multicalc/src/polynomial/roots.rs", "symbols": ["Polynomial::<4>::real_roots", "RealRoots"]}]}
{"id": "C51", "title": "count_real_roots counts the distinct real roots in the half-open range", "statement": "count_real_roots(lower, upper) is the number of distinct real zeros in (lower, upper].", "quantifier": "every non-zero polynomial, every range", "why_tests_cant": "All polynomials; degenerate end points are measure zero.", "anchors": [{"file": "crates/multicalc/src/polynomial/roots.rs", "symbols": ["Polynomial::count_real_roots", "sign_changes", "root_counting_chain"]}]}
{"id": "C52", "title": "real_roots_in finds each root or reports failure within its budget", "statement": "real_roots_in returns a sorted list, never does more halvings than allowed, and with enough budget finds every distinct root in the range.", "quantifier": "every polynomial, range, tolerance and budget", "why_tests_cant": "All polynomials.", "anchors": [{"file": "crates/multicalc/src/polynomial/roots.rs", "symbols": ["Polynomial::real_roots_in"]}]}
{"id": "C53", "title": "The Cauchy bound exceeds every real root", "statement": "Every real zero r of a non-zero polynomial satisfies |r| < cauchy_root_bound.", "quantifier": "every non-zero polynomial", "why_tests_cant": "All polynomials.", "anchors": [{"file": "crates/multicalc/src/polynomial/roots.rs", "symbols": ["Polynomial::cauchy_root_bound"]}]}
{"id": "C54", "title": "A piecewise curve clamps, follows its pieces and integrates exactly", "statement": "evaluate follows the piece containing the parameter on its own clock, clamps outside, derivatives are taken against the shared parameter, and definite_integral is the integral over the part of the range inside the curve, negated when reversed.", "quantifier": "every list of pieces and spans, every parameter and range", "why_tests_cant": "All curves and parameters.", "anchors": [{"file": "crates/multicalc/src/polynomial/piecewise.rs", "symbols": ["PiecewisePolynomial::evaluate", "PiecewisePolynomial::evaluate_with_derivatives", "PiecewisePolynomial::definite_integral", "PiecewisePolynomial::nth_derivative"]}]}
{"id": "C55", "title": "Multivariate polynomial operations preserve meaning", "statement": "evaluate is the sum of coefficient times powers; collect_like_terms, add_into, multiply_into, substitute and the univariate conversions change no value at any point; partial_derivative and gradient_at give the true partial derivatives; partial_antiderivative differentiates back.", "quantifier": "every term list, every point, every variable index", "why_tests_cant": "All polynomials and points.", "anchors": [{"file": "crates/multicalc/src/polynomial/multivariate.rs", "symbols": ["MultivariatePolynomial::evaluate", "MultivariatePolynomial::collect_like_terms", "MultivariatePolynomial::substitute", "MultivariatePolynomial::multiply_into"]}]}
{"id": "C56", "title": "A multivariate term raises each variable to its stated power", "statement": "evaluate uses the exponent stored in the term for every 32-bit exponent.", "quantifier": "every u32 exponent", "why_tests_cant": "Exponents above i32::MAX are never tested.", "anchors": [{"file": "crates/multicalc/src/polynomial/multivariate.rs", "symbols": ["raise", "MultivariatePolynomial::evaluate"]}]}
{"id": "C57", "title": "A planned move reaches its target at rest within every limit", "statement": "For every displacement the planned profile starts at rest at zero, ends at rest exactly at the displacement after its duration, position, velocity (and acceleration when jerk-limited) are continuous, velocity is the derivative of position, and speed, acceleration and jerk never exceed the limits at any time.", "quantifier": "every set of positive limits, every displacement, both shapes, every time", "why_tests_cant": "All times and limits.", "anchors": [{"file": "crates/multicalc/src/motion/motion_profile.rs", "symbols": ["MotionProfilePlanner::plan", "MotionProfile::state_at"]}]}
{"id": "C58", "title": "The trapezoidal move is time-optimal", "statement": "No rest-to-rest motion over the same displacement that respects the same speed and acceleration limits finishes sooner.", "quantifier": "every admissible motion", "why_tests_cant": "Quantifies over all functions of time.", "anchors": [{"file": "crates/multicalc/src/motion/motion_profile.rs", "symbols": ["plan_trapezoidal"]}]}
{"id": "C59", "title": "Time-stretching preserves the path and cannot break a limit", "statement": "stretched_to(longer) takes exactly the longer duration, visits the same positions at proportionally scaled times, and scales velocity, acceleration and jerk down by the first, second and third power; other requests return the profile unchanged. Synchronised axes all finish on target together.", "quantifier": "every planned profile, every duration, every time", "why_tests_cant": "All times.", "anchors": [{"file": "crates/multicalc/src/motion/motion_profile.rs", "symbols": ["MotionProfile::stretched_to", "SynchronizedProfile::from_profiles", "SynchronizedProfile::try_from_profiles_over"]}]}
{"id": "C60", "title": "closest_point is the globally closest point of the path", "statement": "The projection returned lies on the path on the reported segment, its reported distance is the true distance, and no point of the path is closer.", "quantifier": "every path in every dimension, every query point", "why_tests_cant": "All points of a continuous path.", "anchors": [{"file": "crates/multicalc/src/motion/polyline_path.rs", "symbols": ["PolylinePath::closest_point"]}]}
{"id": "C61", "title": "Arc lengths are consistent and lookahead lands on the path", "statement": "Pushing waypoints one at a time gives the same path as building it at once; the total is the sum of the segment lengths; a lookahead target between zero and the total lies on the path at that arc length, clamping or wrapping past the end as configured.", "quantifier": "every waypoint list, capacity, and non-negative target", "why_tests_cant": "All paths and targets.", "anchors": [{"file": "crates/multicalc/src/motion/polyline_path.rs", "symbols": ["PolylinePath::push", "PolylinePath::try_from_points", "PolylinePath::lookahead_point", "PolylinePath::total_arc_length"]}]}
{"id": "C62", "title": "The PID output respects its limits whatever it is fed", "statement": "Every output of update lies within the configured limits, for every history of set points, measurements (including NaN and infinities), gain changes and resets.", "quantifier": "every f64 history", "why_tests_cant": "All float histories.", "anchors": [{"file": "crates/multicalc/src/control/pid.rs", "symbols": ["Pid::update", "Pid::with_output_limits"]}]}
{"id": "C63", "title": "The PID integral does not wind up", "statement": "While the output is saturated and the error pushes further into the limit, the integral does not change; otherwise it grows by exactly gain * error * timestep.", "quantifier": "every history", "why_tests_cant": "All histories.", "anchors": [{"file": "crates/multicalc/src/control/pid.rs", "symbols": ["Pid::update"]}]}
{"id": "C64", "title": "PID handover is bumpless", "statement": "After resume_from(output, setpoint, measurement) the next update with the same pair returns that output when it is within the limits.", "quantifier": "every controller state, every handover", "why_tests_cant": "All states.", "anchors": [{"file": "crates/multicalc/src/control/pid.rs", "symbols": ["Pid::resume_from"]}]}
{"id": "C65", "title": "Changing PID gains does not step the output", "statement": "After set_gains the next update returns what the old gains would have given.", "quantifier": "every controller history, every new gain triple", "why_tests_cant": "All histories and gains.", "anchors": [{"file": "crates/multicalc/src/control/pid.rs", "symbols": ["Pid::set_gains"]}]}
{"id": "C66", "title": "Follow-the-gap only drives through open, wide-enough gaps", "statement": "If the result is not blocked, every beam of the selected gap is open, the gap is maximal, it is wide enough or reaches the edge of the scan, and no other admissible gap scores higher; if it is blocked no admissible gap exists and the command is a full stop.", "quantifier": "every configuration, every scan of any number of beams including NaN readings", "why_tests_cant": "All scans.", "anchors": [{"file": "crates/multicalc/src/control/follow_the_gap.rs", "symbols": ["FollowTheGap::compute"]}]}
{"id": "C67", "title": "Follow-the-gap commands a bounded speed", "statement": "The commanded speed lies between zero and the cruise speed, is zero when the nearest forward beam is within the stopping distance and full when every forward beam is beyond the clear distance; the turn rate is gain times heading.", "quantifier": "every accepted configuration, every scan", "why_tests_cant": "All scans.", "anchors": [{"file": "crates/multicalc/src/control/follow_the_gap.rs", "symbols": ["FollowTheGap::compute"]}]}
{"id": "C68", "title": "The mixer keeps rotors within limits and flags saturation truthfully", "statement": "Every commanded thrust lies in the rotor limits for finite commands, the saturated flag is set exactly when some share was outside, and when it is clear the produced wrench is the one asked for if the layout inverts exactly.", "quantifier": "every layout, every command", "why_tests_cant": "All commands.", "anchors": [{"file": "crates/multicalc/src/plant/multirotor_mixing.rs", "symbols": ["MultirotorMixer::rotor_thrusts", "MultirotorMixer::wrench"]}]}
{"id": "C69", "title": "Rotor lag is the exact exponential approach", "statement": "Each tick moves a rotor to command + (thrust - command) e^(-dt/tau): it never overshoots, splitting a tick into two gives the same result, and n ticks close exactly 1 - e^(-n dt/tau) of the gap.", "quantifier": "every time constant, tick, command and history", "why_tests_cant": "All histories.", "anchors": [{"file": "crates/multicalc/src/plant/rotor_lag.rs", "symbols": ["RotorLag::stepped", "RotorLag::stepped_over"]}]}
{"id": "C70", "title": "The reported response is what a steady oscillation really comes out as", "statement": "A stable cascade fed A cos(2 pi f t + phase) from rest settles, geometrically fast, onto A times magnitude_at(f) cos(2 pi f t + phase + phase_at(f)).", "quantifier": "every stable cascade, every frequency, amplitude and phase, every sample count", "why_tests_cant": "A statement about the limit of infinite runs at every frequency.", "anchors": [{"file": "crates/multicalc/src/signal_processing/biquad.rs", "symbols": ["BiquadCoefficients::magnitude_at", "BiquadCoefficients::phase_at"]}, {"file": "crates/multicalc/src/signal_processing/cascade.rs", "symbols": ["BiquadCascade::magnitude_at", "BiquadCascade::phase_at", "BiquadCascade::filter"]}]}
{"id": "C71", "title": "Closed-form quartic roots are exactly the real roots, with repeats", "statement": "The list returned for a quartic is sorted and holds exactly its real zeros, each as often as its multiplicity.", "quantifier": "every quartic with non-zero leading coefficient", "why_tests_cant": "All coefficients; the split into two quadratics rests on the largest zero of a helper cubic being positive.", "anchors": [{"file": "crates/multicalc/src/polynomial/roots.rs", "symbols": ["Polynomial::<5>::real_roots"]}]}
{"id": "C72", "title": "A jerk-limited move is as fast as its limits allow", "statement": "The seven-phase move is a motion within its speed, acceleration and jerk limits, and no motion within those limits goes from rest to rest over the same displacement in less time.", "quantifier": "every positive limits, every displacement of either sign, every competing motion", "why_tests_cant": "It compares the plan with every motion there is.", "anchors": [{"file": "crates/multicalc/src/motion/motion_profile.rs", "symbols": ["MotionProfilePlanner::plan"]}]}
{"id": "C73", "title": "The PID controller is the PID formula", "statement": "While the formula's values stay within the output limits, each output is the proportional gain times the error, plus the integral gain times the timestep times the sum of the errors, plus the derivative gain times the smoothed rate at which the measurement falls, over everything since the last reset.", "quantifier": "every gain, timestep, smoothing, every history of samples and resets", "why_tests_cant": "All histories.", "anchors": [{"file": "crates/multicalc/src/control/pid.rs", "symbols": ["Pid::update", "Pid::reset"]}]}
{"id": "C74", "title": "Follow-the-gap keeps half the robot's width clear of the gap's edges", "statement": "When the safety margins of the chosen gap do not overlap, driving straight along the heading passes both obstacles bounding the gap at no less than half the chassis width.", "quantifier": "every configuration, every scan, every point along the heading", "why_tests_cant": "All scans and all points of the path.", "anchors": [{"file": "crates/multicalc/src/control/follow_the_gap.rs", "symbols": ["FollowTheGap::compute", "FollowTheGap::aim_bounds"]}]}
{"id": "C75", "title": "LU factors multiply back to the row-permuted matrix", "statement": "For every square matrix the factorization accepts, a unit lower triangular factor with no entry above one in magnitude times an upper triangular factor is the matrix with its rows in the reported order, the order is a permutation, and every pivot exceeds 2^-52 times every entry; it is refused as singular exactly when it is, and as badly conditioned exactly when some pivot is at most 2^-52 times the largest entry.", "quantifier": "every size, every square matrix over exact arithmetic; for the permutation and the absence of a panic, every scalar type", "why_tests_cant": "A test factors a handful of matrices of a few sizes; the pivot order and every fill-in depend on all entries.", "anchors": [{"file": "crates/multicalc/src/linear_algebra/lu.rs", "symbols": ["Matrix::lu_decompose", "LuDecomposition::lower", "LuDecomposition::upper", "LuDecomposition::permutation"]}]}
{"id": "C76", "title": "Solving a linear system gives its one solution", "statement": "Whenever a square system is solved, the answer satisfies it and is the only vector that does; solving for several right-hand sides satisfies each.", "quantifier": "every size, every square matrix and right-hand side, over exact arithmetic", "why_tests_cant": "Uniqueness ranges over every candidate vector, and the answer over every matrix the factorization accepts.", "anchors": [{"file": "crates/multicalc/src/linear_algebra/lu.rs", "symbols": ["Matrix::solve", "LuDecomposition::solve", "LuDecomposition::solve_matrix"]}]}
{"id": "C77", "title": "The determinant is the determinant at every size", "statement": "The closed forms up to 4x4 and the factorization above give the same function, the alternating sum over cofactors, and it is zero exactly when some non-zero vector is sent to zero.", "quantifier": "every size and every square matrix, over exact arithmetic", "why_tests_cant": "Four formulas and an algorithm must agree with one definition on every matrix.", "anchors": [{"file": "crates/multicalc/src/linear_algebra/matrix.rs", "symbols": ["Matrix::determinant"]}, {"file": "crates/multicalc/src/linear_algebra/lu.rs", "symbols": ["LuDecomposition::determinant"]}]}
{"id": "C78", "title": "An inverse that is returned is the inverse on both sides", "statement": "Whenever a matrix is inverted, by closed form or factorization, the product with the matrix on either side is the identity; a singular matrix is refused as singular, and up to 4x4 a matrix is accepted whenever its determinant exceeds 2^-52 n times the n-th power of its largest entry.", "quantifier": "every size and every square matrix, over exact arithmetic", "why_tests_cant": "Sixteen cofactors of the 4x4 form and the general algorithm have to be right for every matrix.", "anchors": [{"file": "crates/multicalc/src/linear_algebra/matrix.rs", "symbols": ["Matrix::inverse"]}, {"file": "crates/multicalc/src/linear_algebra/lu.rs", "symbols": ["LuDecomposition::inverse"]}]}
{"id": "C79", "title": "Cholesky accepts exactly the positive definite matrices", "statement": "A symmetric matrix is factored exactly when it is positive definite and refused as not positive definite otherwise; the factor is lower triangular with a positive diagonal and times its transpose it is the matrix; only the lower triangle is read.", "quantifier": "every size and every symmetric matrix, over exact arithmetic", "why_tests_cant": "Positive definiteness ranges over every vector, and acceptance over every matrix.", "anchors": [{"file": "crates/multicalc/src/linear_algebra/cholesky.rs", "symbols": ["Matrix::cholesky", "Cholesky::lower"]}]}
{"id": "C80", "title": "A Cholesky factor solves, inverts and gives the determinant", "statement": "Solving with the factor gives the one solution of the system, the inverse it forms is the inverse on both sides, and its determinant is the determinant and is positive.", "quantifier": "every size, every symmetric positive definite matrix and right-hand side, over exact arithmetic", "why_tests_cant": "All matrices, all right-hand sides and all rival solutions.", "anchors": [{"file": "crates/multicalc/src/linear_algebra/cholesky.rs", "symbols": ["Cholesky::solve", "Cholesky::solve_matrix", "Cholesky::inverse", "Cholesky::determinant"]}]}
{"id": "C81", "title": "Pivoted QR factors every matrix with at least as many rows as columns", "statement": "The columns of the matrix, in the pivot order returned, are those of Q R with the columns of Q orthonormal, R upper triangular and its diagonal never growing in size; the pivot order is a rearrangement of the columns for every scalar, NaN included; fewer rows than columns are refused as underdetermined, and nothing else is.", "quantifier": "every shape and every matrix whose column lengths are below sqrt(MAX)/rows, over exact arithmetic; refusals and pivot order over any scalar", "why_tests_cant": "Orthogonality and the product must hold for every matrix, rank-deficient ones included.", "anchors": [{"file": "crates/multicalc/src/linear_algebra/qr.rs", "symbols": ["PivotedQr::decompose", "PivotedQr::orthogonal", "PivotedQr::triangular", "PivotedQr::permutation", "enorm"]}]}
{"id": "C82", "title": "Least squares returns the one closest fit, or refuses", "statement": "The vector returned has a strictly shorter residual than every other vector; the solve is refused as singular exactly when some diagonal entry of R is at most 2^-52 max(rows, cols) times the first, so always when the columns are linearly dependent.", "quantifier": "every shape with rows >= cols, every matrix, right-hand side and rival vector, over exact arithmetic", "why_tests_cant": "The minimum is over every vector.", "anchors": [{"file": "crates/multicalc/src/linear_algebra/qr.rs", "symbols": ["PivotedQr::solve_least_squares"]}]}
{"id": "C83", "title": "Damped solves on one factorization solve the damped normal equations", "statement": "For every diagonal D for which A'A + D^2 is regular (in particular every D without zeros, and D = 0 when the columns are independent) the vector returned is the only solution of (A'A + D^2) x = A'b, the triangle returned with it is upper triangular with square A'A + D^2 in the pivot order and its own solve inverts its transpose; the reported length of A x and the largest scaled gradient component are what their names say.", "quantifier": "every shape, matrix, right-hand side and diagonal, over exact arithmetic", "why_tests_cant": "The rotations must preserve the normal equations for every matrix and every damping a trust region may try.", "anchors": [{"file": "crates/multicalc/src/linear_algebra/qr.rs", "symbols": ["PivotedQr::into_damped", "DampedLeastSquares::solve_with_diagonal", "DampedLeastSquares::solve_with_zero_diagonal", "DampedLeastSquares::a_x_norm", "DampedLeastSquares::max_a_t_b_scaled", "CholeskyFactor::solve"]}]}
{"id": "C84", "title": "The SVD takes every tall matrix apart", "statement": "U diag(S) V' is the matrix, V is orthogonal, the singular values are not negative and never grow, the columns of U S are as long as the singular values say, and once the sweeps settle they are perpendicular to within 2^-52 of their lengths (with one or two columns they always settle, exactly); fewer rows than columns and entries that are not finite are refused.", "quantifier": "every shape with rows >= cols and every matrix, over exact arithmetic", "why_tests_cant": "The factorization must be exact and V orthogonal after any number of rotations on any matrix, rank-deficient ones included.", "anchors": [{"file": "crates/multicalc/src/linear_algebra/svd.rs", "symbols": ["Matrix::svd", "Svd::left", "Svd::singular_values", "Svd::right"]}]}
{"id": "C85", "title": "The pseudo-inverse meets the Moore-Penrose conditions and its solve is the shortest least-squares fit", "statement": "When the left columns are perpendicular and the values dropped are zero, the pseudo-inverse meets the four Moore-Penrose conditions, and the solve has a residual no longer than any rival's and is the shortest among those that tie; with settled sweeps every entry of A P A - A is within 2 rows cols 2^-52 of the largest singular value; a wide matrix is handled through its transpose.", "quantifier": "every shape and matrix, every rival vector, over exact arithmetic", "why_tests_cant": "The minimum is over every vector, and the conditions over every matrix.", "anchors": [{"file": "crates/multicalc/src/linear_algebra/svd.rs", "symbols": ["Matrix::pseudo_inverse", "Matrix::pseudo_inverse_tol", "Svd::solve"]}]}
{"id": "C86", "title": "The symmetric eigendecomposition rebuilds the matrix in an orthonormal frame", "statement": "The eigenvectors are orthonormal, the eigenvalues never grow, their sum is the trace, A v is lambda v up to the off-diagonal rest, which once the sweeps settle (as they always do for sizes up to two) is within size*2^-52 of the largest entry; clamping the eigenvalues gives a symmetric matrix whose form is at least the floor; entries that are not finite and matrices that are not symmetric are refused.", "quantifier": "every size and every symmetric matrix, over exact arithmetic", "why_tests_cant": "Orthogonality must survive every rotation on every symmetric matrix, repeated eigenvalues included.", "anchors": [{"file": "crates/multicalc/src/linear_algebra/symmetric_eigendecomposition.rs", "symbols": ["Matrix::symmetric_eigendecomposition", "SymmetricEigendecomposition::eigenvalues", "SymmetricEigendecomposition::eigenvectors", "SymmetricEigendecomposition::clamped"]}]}
{"id": "C87", "title": "Matrix arithmetic obeys the laws of linear algebra", "statement": "Products are associative, distribute over sums, keep the identity, reverse under transposition and compose when applied to a vector; the trace does not depend on the order of two factors; the Frobenius norm is zero only for the zero matrix; transposing twice changes nothing, symmetrizing gives a matrix symmetric to the last bit with the same quadratic form; rows, columns and entries outside the matrix and slices of the wrong length are refused, and a slice of the right length is laid out row by row.", "quantifier": "every size and every matrix; layout facts over any scalar, laws over exact arithmetic", "why_tests_cant": "Laws over all triples of matrices of all compatible sizes.", "anchors": [{"file": "crates/multicalc/src/linear_algebra/matrix.rs", "symbols": ["Matrix::transpose", "Matrix::trace", "Matrix::frobenius_norm", "Matrix::symmetrized", "Matrix::try_from_row_slice", "Matrix::get", "Mul"]}]}
{"id": "C88", "title": "Vector arithmetic obeys the laws of Euclidean geometry", "statement": "The dot product is symmetric and bounded by the product of the lengths, the length of a sum is at most the sum of the lengths, only the zero vector has length zero; normalizing any other vector gives length one along the same direction and the checked form refuses the zero vector alone; the cross product is perpendicular to both factors, changes sign with their order and its length is the area they span.", "quantifier": "every size and all vectors, over exact arithmetic", "why_tests_cant": "Inequalities over all pairs of vectors.", "anchors": [{"file": "crates/multicalc/src/linear_algebra/vector.rs", "symbols": ["Vector::dot", "Vector::norm", "Vector::normalized", "Vector::try_normalized", "Vector::cross"]}]}
{"id": "C89", "title": "The discrete Lyapunov solver returns the accumulated cost, and its certificate means stability", "statement": "An accepted answer is symmetric, is exactly the sum of the first 2^k costs along A (k at most 64), and what it leaves of A'PA - P + Q = 0 is the next cost, never negative for a cost that is not, and at most 30*2^-52 max(|P|, 1) times the square of where the state goes; when the cost is at least q0 |x|^2 and q0 exceeds that tolerance, P falls at every step and powers of A shrink geometrically; every A whose squared Frobenius norm is below one, far enough for the terms to settle, is accepted; the documented verdict 'accepted only if A shrinks every direction' is false for small costs; refusals are as documented.", "quantifier": "every size, every matrix, every symmetric cost and every state, over exact arithmetic; refusals over any scalar", "why_tests_cant": "The claim is about every state and every number of steps, and about every matrix the solver accepts.", "anchors": [{"file": "crates/multicalc/src/linear_algebra/lyapunov.rs", "symbols": ["solve_discrete_lyapunov"]}]}
{"id": "C90", "title": "The discrete Riccati solver's answer is a cost to go that nearly satisfies the equation", "statement": "With a state cost that is never negative, an accepted P is symmetric and at least the state cost, R and R + B'PB are positive definite, and P put back into the Riccati equation leaves at most 2^-26 max(|P|, 1); non-finite entries, asymmetric costs and an input cost that is not positive definite are refused as documented.", "quantifier": "every size, every system and every cost, over exact arithmetic; refusals over any scalar", "why_tests_cant": "Non-negativity must survive every doubling pass on every system, and is a statement about every state.", "anchors": [{"file": "crates/multicalc/src/linear_algebra/riccati.rs", "symbols": ["solve_discrete_riccati"]}]}
{"id": "C91", "title": "The LQR control is the cheapest input, and the loop it closes settles", "statement": "At every state the control is the only minimiser of the cost of the input plus the cost to go from the next state; the cost to go satisfies the Bellman equation to within 2^-26 max(|P|, 1) |x|^2; applying the control is multiplication by closed_loop, which is A - BK; tracking is feedforward plus the control for the error, and the error moves by the closed loop; when the state cost is at least q0 |x|^2 with q0 above that tolerance, every state shrinks geometrically; a certificate is symmetric, positive definite and solves the closed loop's Lyapunov equation to its tolerance. That a certificate is only issued when the loop settles is false for small state costs.", "quantifier": "every size, every system and cost accepted, every state and every rival input, over exact arithmetic", "why_tests_cant": "The minimum is over every input and settling is about every state and every number of steps.", "anchors": [{"file": "crates/multicalc/src/control/lqr.rs", "symbols": ["Lqr::new", "Lqr::gain", "Lqr::closed_loop", "Lqr::cost_to_go", "Lqr::control", "Lqr::control_tracking", "Lqr::certify_stability"]}]}
{"id": "C92", "title": "The matrix exponential is accurate for every matrix, and keeps the exponential's exact identities", "statement": "In exact arithmetic every matrix of up to 2^50 rows gets an answer; for a largest column sum up to 2^40 the answer is within 2^-50 max(1/4, that sum) of the exponential series, relative to its largest column sum, and beyond that the error is (1 + 2^-53)^m - 1 with m at most four times the sum; the exponential of the opposite matrix is exactly the inverse; a matrix that commutes with the input commutes with the answer; symmetric stays symmetric; a skew-symmetric matrix gives an orthogonal one and a Hamiltonian matrix a symplectic one; zero gives the identity. For any scalar non-finite entries are refused and an answer is finite. In f64 the scaling loop ends within 1025 turns exactly when no column sum overflows; that a finite matrix always gets an answer or an error is false.", "quantifier": "every size, every matrix, every scalar for the refusals, every f64 matrix for the loop", "why_tests_cant": "The accuracy compares with an infinite series on every matrix of every norm; the loop bound is about every input.", "anchors": [{"file": "crates/multicalc/src/linear_algebra/expm.rs", "symbols": ["Matrix::expm"]}]}
{"id": "C93", "title": "Zero-order hold and Van Loan's discretization describe the continuous system", "statement": "Every trajectory of x' = Ax + Bu under a held input ends, from every start and for every input, within the exponential's error of Fx + Gu; F is the exponential of A dt and G the integral of the exponential times B; Van Loan's covariance is the integral of e^(At) Q e^(A't) to that error and exactly symmetric when Q is; a negative or non-finite step is refused; the white-noise covariance is the variance times the outer product of the gains, never negative, and symmetric to the last bit for any scalar. That its variance is a continuous spectral intensity is false.", "quantifier": "every system, every step, every trajectory, input and start, over exact arithmetic; refusals and symmetry over any scalar", "why_tests_cant": "A trajectory is any differentiable function satisfying the equation, and the exact answer is an integral of an infinite series.", "anchors": [{"file": "crates/multicalc/src/discretization/mod.rs", "symbols": ["zoh", "van_loan", "q_discrete_white_noise"]}]}
{"id": "C94", "title": "Quaternion arithmetic is Hamilton's, and a unit quaternion is a rotation", "statement": "Products follow i^2 = j^2 = k^2 = ijk = -1 and are associative, distribute over sums and multiply norms; every quaternion but zero has the inverse the code computes; rotating a point by a unit quaternion is its rotation matrix applied to the point, which is orthogonal of determinant one, and keeps lengths, angles and handedness; the product of two is one rotation after the other; two unit quaternions rotate alike exactly when they are equal up to sign; the checked normalization refuses exactly norms of at most machine epsilon.", "quantifier": "all quaternions, all points and vectors, over exact arithmetic", "why_tests_cant": "Algebraic identities over four real dimensions, and uniqueness over all rotations.", "anchors": [{"file": "crates/multicalc/src/spatial/quaternion.rs", "symbols": ["Quaternion::inverse", "Quaternion::normalized", "Quaternion::try_normalized", "Quaternion::to_rotation_matrix", "Quaternion::transform_point", "Mul for Quaternion"]}]}
{"id": "C95", "title": "The quaternion exponential and logarithm are the power series and its inverse", "statement": "The exponential of a quaternion is the exponential of its left-multiplication matrix (the power series) to within the Taylor remainder below the small-angle threshold and exactly above it; the exponential of the logarithm gives the quaternion back, and the logarithm of the exponential gives back every vector part shorter than pi. For quaternions of tiny norm the logarithm is wrong, because the small-angle test is absolute.", "quantifier": "all quaternions but zero, over exact arithmetic", "why_tests_cant": "The comparison is with an infinite series, and the small-angle branch has measure far below what sampling meets.", "anchors": [{"file": "crates/multicalc/src/spatial/quaternion.rs", "symbols": ["Quaternion::exp", "Quaternion::log"]}]}
{"id": "C96", "title": "Axis and angle go to the turn they describe and come back", "statement": "from_axis_angle is the counterclockwise turn by the angle about the axis's direction, whatever the axis's length; to_axis_angle gives a unit axis and an angle between 0 and pi of the same rotation; angles in that range and axes survive the round trip. An axis of length at most machine epsilon silently gives the identity.", "quantifier": "every axis, every angle, every unit quaternion, over exact arithmetic", "why_tests_cant": "A statement about every point turned about every axis.", "anchors": [{"file": "crates/multicalc/src/spatial/quaternion.rs", "symbols": ["Quaternion::from_axis_angle", "Quaternion::to_axis_angle"]}]}
{"id": "C97", "title": "Rotation vectors are the exponential coordinates of rotations", "statement": "The rotation of a rotation vector is the matrix exponential of its cross-product matrix, exactly from 30 eps on and below that to within the fourth power of its length; the logarithm of a unit quaternion is a vector no longer than pi whose exponential is that rotation; vectors no longer than pi survive the round trip, exactly from 120 eps on and to the cube of their length below.", "quantifier": "every rotation vector and every unit quaternion, over exact arithmetic", "why_tests_cant": "The comparison is with an infinite matrix series, across the branch at the small-angle threshold.", "anchors": [{"file": "crates/multicalc/src/spatial/quaternion.rs", "symbols": ["Quaternion::from_scaled_axis", "Quaternion::to_scaled_axis"]}, {"file": "crates/multicalc/src/spatial/lie/so3.rs", "symbols": ["SO3::exp", "SO3::log"]}]}
{"id": "C98", "title": "Euler angles mean roll about x, then pitch about y, then yaw about z, and are read back", "statement": "from_euler_zyx is those three turns in that order; away from straight up or down the angles read back give exactly the same rotation and lie in their ranges, and angles in their ranges come back as given; pointing straight up or down the roll is zero and the rotation still comes back exactly; in the tolerance band around that every component comes back to within 2 sqrt(30 eps). In that band the rotation read back can be off by more than 1e-7.", "quantifier": "all angles, all unit quaternions, over exact arithmetic", "why_tests_cant": "Gimbal lock is a band no sampled test meets, and the identity of rotations is about every point.", "anchors": [{"file": "crates/multicalc/src/spatial/quaternion.rs", "symbols": ["Quaternion::from_euler_zyx", "Quaternion::to_euler_zyx"]}]}
{"id": "C99", "title": "The rotation between two directions takes one to the other by the shortest turn", "statement": "For any two vectors but zero, opposite ones included, from_two_vectors is a unit quaternion that takes the direction of the first to that of the second, its angle is the angle between them, and no rotation doing so has a smaller angle; with a zero vector it is the identity.", "quantifier": "all pairs of vectors and every rival rotation, over exact arithmetic", "why_tests_cant": "The minimum is over every rotation, and antiparallel pairs are a set of measure zero.", "anchors": [{"file": "crates/multicalc/src/spatial/quaternion.rs", "symbols": ["Quaternion::from_two_vectors"]}]}
{"id": "C100", "title": "Rotation matrices and pairs of directions determine the rotation", "statement": "Every orthogonal matrix of determinant one is accepted and the rotation returned has exactly that matrix, whichever of the four pivots is taken; what is accepted has columns orthonormal to 30 eps and positive determinant, so reflections are refused; a unit quaternion goes to its matrix and back to itself up to sign; two pairs of directions give the rotation carrying the first direction and the oriented plane of the pair, exactly when neither pair is degenerate, and recover any rotation both were turned by.", "quantifier": "every matrix, every unit quaternion, every two pairs of vectors, over exact arithmetic", "why_tests_cant": "Which pivot is taken depends on the matrix, and the result must be right for all of them.", "anchors": [{"file": "crates/multicalc/src/spatial/quaternion.rs", "symbols": ["Quaternion::try_from_rotation_matrix", "Quaternion::to_rotation_matrix"]}, {"file": "crates/multicalc/src/spatial/lie/so3.rs", "symbols": ["SO3::try_from_matrix", "SO3::from_two_direction_pairs"]}]}
{"id": "C101", "title": "The angle between rotations is a distance, and spherical interpolation follows the shortest way at constant speed", "statement": "rotation_angle_to lies in [0, pi], is symmetric, zero exactly for the same rotation, satisfies the triangle inequality and is the angle of the relative rotation; slerp returns a unit quaternion, starts at the first rotation, ends at the second, splits the angle between them into two parts that add up, and turns at constant speed unless the rotations are within machine epsilon of each other.", "quantifier": "all unit quaternions and all amounts in [0, 1], over exact arithmetic", "why_tests_cant": "Inequalities over three rotations at once, and a statement about every pair of instants.", "anchors": [{"file": "crates/multicalc/src/spatial/quaternion.rs", "symbols": ["Quaternion::rotation_angle_to", "Quaternion::slerp"]}, {"file": "crates/multicalc/src/spatial/lie/so3.rs", "symbols": ["SO3::interpolate"]}]}
{"id": "C102", "title": "Rotations of the plane form a group that angles parametrize", "statement": "Composition is associative and commutative with the inverse and identity the code gives; the matrix of a composition is the product of matrices and acting on a point is applying the matrix; the exponential of an angle is the turn by it and the matrix exponential of its generator; the logarithm lies in (-pi, pi] and inverts it both ways; jacobians are one and that is what composing demands; a rotation goes through its matrix and back unchanged, what is accepted is within 30 eps of the matrix and everything within 3 eps of a rotation is accepted; interpolation turns at constant speed the shorter way.", "quantifier": "all rotations of the plane, all angles, all 2 by 2 matrices, over exact arithmetic", "why_tests_cant": "Group laws over a continuum, a comparison with an infinite series, and an acceptance band.", "anchors": [{"file": "crates/multicalc/src/spatial/lie/so2.rs", "symbols": ["SO2::compose", "SO2::exp", "SO2::log", "SO2::try_from_matrix", "SO2::interpolate", "SO2::normalized"]}]}
{"id": "C103", "title": "Rigid motions of the plane: exponential, logarithm, adjoint and jacobians mean what they say", "statement": "Motions form a group whose homogeneous matrices multiply and act on points; the exponential of a velocity is the matrix exponential, exactly unless it turns by less than 30 eps and then within w^4(|x|+|y|); the logarithm of every motion turns by an angle in (-pi, pi] and its exponential is the motion; the adjoint moves a velocity between frames; interpolation follows one velocity; the left and right jacobians are the integrals of exp(s ad) and hence the derivative of the exponential seen from either side; their inverses are inverses wherever one exists.", "quantifier": "all motions of the plane, all velocities, all matrices, over exact arithmetic", "why_tests_cant": "Derivatives and integrals of an infinite series at every velocity, across small-angle branches.", "anchors": [{"file": "crates/multicalc/src/spatial/lie/se2.rs", "symbols": ["SE2::compose", "SE2::exp", "SE2::log", "SE2::adjoint", "SE2::left_jacobian", "SE2::right_jacobian", "SE2::left_jacobian_inverse", "SE2::interpolate", "SE2::try_from_matrix"]}]}
{"id": "C104", "title": "Jacobians of the rotations of space are the integrals and derivatives they stand for", "statement": "The left jacobian at a rotation vector is the integral of exp(s [phi]x) over s in [0, 1], and the right one that of the opposite vector: exactly once the angle is past the series threshold or zero, and within angle^5/720 + angle^6/5040 always. Hence they are the derivative of the exponential seen from the left and from the right. The inverse jacobians invert them wherever an inverse exists, exactly past the threshold and within angle^5 below.", "quantifier": "all rotation vectors, over exact arithmetic", "why_tests_cant": "An integral and a derivative of an infinite series at every vector, across the small-angle branch.", "anchors": [{"file": "crates/multicalc/src/spatial/lie/so3.rs", "symbols": ["SO3::left_jacobian", "SO3::right_jacobian", "SO3::left_jacobian_inverse", "SO3::right_jacobian_inverse"]}, {"file": "crates/multicalc/src/spatial/lie/mod.rs", "symbols": ["left_jacobian_so3", "inverse_left_jacobian_so3"]}]}
{"id": "C105", "title": "Rigid motions of space: group, matrices, exponential, logarithm and interpolation", "statement": "Motions form a group whose homogeneous matrices multiply and act on points; the exponential of a velocity is the matrix exponential of its matrix, exactly past the series threshold or without turning, and within a fourth power of the angle below; the logarithm of every motion turns by at most pi and its exponential is the motion; exponential and logarithm are mutually inverse; interpolation starts at the first motion, ends at the second and follows one velocity; a matrix is read back as the motion it came from and accepted exactly when rotation and last row pass.", "quantifier": "all motions, velocities and matrices, over exact arithmetic", "why_tests_cant": "Equalities with an infinite series for every velocity, across small-angle branches.", "anchors": [{"file": "crates/multicalc/src/spatial/lie/se3.rs", "symbols": ["SE3::compose", "SE3::inverse", "SE3::act", "SE3::exp", "SE3::log", "SE3::to_matrix", "SE3::try_from_matrix", "SE3::interpolate", "SE3::hat", "SE3::vee"]}]}
{"id": "C106", "title": "Velocities and loads moved between frames keep their physical meaning", "statement": "Moving a spatial velocity by a motion gives the moved body's velocity: the particle at the moved point has the rotated velocity. Moving a load rotates the force and the moment about every corresponding point, and power is preserved. Moving back undoes it, composition moves twice, the adjoint matrices compute the same, and conjugating the velocity's matrix by the motion's does too. The cross product of velocities is the bracket of their matrices, satisfies Jacobi's identity, is dual to the one on loads, and both are the same in every frame.", "quantifier": "all motions, velocities, loads and points, over exact arithmetic", "why_tests_cant": "Algebraic identities over all frames and points.", "anchors": [{"file": "crates/multicalc/src/spatial/lie/se3.rs", "symbols": ["SE3::adjoint", "SE3::force_adjoint", "SE3::act_twist", "SE3::act_wrench", "SE3::inverse_act_twist", "SE3::inverse_act_wrench"]}, {"file": "crates/multicalc/src/spatial/twist.rs", "symbols": ["Twist::cross", "Twist::cross_wrench", "Twist::dot_wrench"]}, {"file": "crates/multicalc/src/spatial/wrench.rs", "symbols": ["Wrench"]}]}
{"id": "C107", "title": "Jacobians of the rigid motions of space are the integrals and derivatives they stand for", "statement": "The left jacobian at a velocity is the integral of exp(s ad v) over s in [0, 1], where ad v takes a velocity to its bracket with v, and the right one that of -v: exactly past the series threshold or without turning, within angle^5 (1 + |linear|) below. Hence they are the derivative of the exponential seen from the left and from the right. The inverse jacobians invert them wherever an inverse exists.", "quantifier": "all velocities, over exact arithmetic", "why_tests_cant": "An integral and a derivative of an infinite series of six by six matrices at every velocity, across several small-angle branches.", "anchors": [{"file": "crates/multicalc/src/spatial/lie/se3.rs", "symbols": ["SE3::left_jacobian", "SE3::right_jacobian", "SE3::left_jacobian_inverse", "SE3::right_jacobian_inverse"]}, {"file": "crates/multicalc/src/spatial/lie/mod.rs", "symbols": ["left_jacobian_se3", "inverse_left_jacobian_se3", "q_matrix_se3"]}]}
{"id": "C108", "title": "A rigid body's momentum, energy and inertia are those of its particles, in every frame", "statement": "If a body's mass, balance point and rotational inertia are those of some point masses, its momentum, kinetic energy and inertia about any point are the sums over the points; combining two bodies or moving one gives the body of all, or of the moved, points. The matrix form gives the momentum, the bias load does no work, and along any motion the momentum seen from a fixed frame changes at the rate of the load inertia times acceleration plus bias. A body accepted at construction should have nonnegative energy and stay acceptable when moved.", "quantifier": "all bodies, finite sets of particles, velocities, motions and differentiable trajectories, over exact arithmetic", "why_tests_cant": "Sums over arbitrary finite sets of particles and derivatives along arbitrary trajectories.", "anchors": [{"file": "crates/multicalc/src/spatial/inertia.rs", "symbols": ["SpatialInertia::new", "SpatialInertia::from_diagonal_inertia", "SpatialInertia::inertia_about", "SpatialInertia::momentum", "SpatialInertia::bias_wrench", "SpatialInertia::kinetic_energy", "SpatialInertia::to_matrix", "SpatialInertia::combined"]}, {"file": "crates/multicalc/src/spatial/lie/se3.rs", "symbols": ["SE3::act_inertia", "SE3::inverse_act_inertia"]}]}
{"id": "C109", "title": "A free body's state survives being written as numbers", "statement": "Writing a state as seven place numbers and six motion numbers and reading them back gives the same state. Whatever is read has the given place and velocity and the given orientation scaled to norm one; reading fails only for an orientation of all zeros.", "quantifier": "all states and all numbers, over exact arithmetic", "why_tests_cant": "Every real orientation, including those of tiny norm.", "anchors": [{"file": "crates/multicalc/src/spatial/free_joint.rs", "symbols": ["FreeJointState::from_generalized_vectors", "FreeJointState::generalized_position", "FreeJointState::generalized_velocity"]}]}
{"id": "C110", "title": "The classical Runge-Kutta method is fourth order and visits the nodes it says", "statement": "Along any solution of y' = f(t, y) where f obeys Taylor's formula to fourth order, one step errs by at most K|h|^5 and a whole run by at most K h^4 at every node, for any number of steps within the interval, K not depending on the step size or count. A run hands the observer steps + 1 nodes: the start, then each node one step after the one before; it returns the last.", "quantifier": "all right-hand sides, solutions, sizes, step sizes and step counts; exact arithmetic for the errors, any scalar for the nodes", "why_tests_cant": "An order of accuracy bounds the error for every step size at once; tests sample a few equations and step sizes.", "anchors": [{"file": "crates/multicalc/src/ode/rk4.rs", "symbols": ["Rk4::step", "Rk4::integrate"]}]}
{"id": "C111", "title": "The adaptive pair is fifth order with a fourth order companion", "statement": "Along any solution of a smooth enough equation one Dormand-Prince step errs by at most K|h|^6; its error estimate is at most K|h|^5 and subtracting it leaves a fourth order answer; its last derivative is the derivative at the new node, so it serves as the next step's first.", "quantifier": "all right-hand sides, solutions, sizes and step sizes, over exact arithmetic", "why_tests_cant": "Order conditions speak of every smooth equation.", "anchors": [{"file": "crates/multicalc/src/ode/rk45.rs", "symbols": ["Rk45::dopri_step"]}, {"file": "crates/multicalc/src/ode/tableau.rs", "symbols": ["STAGE_A21", "WEIGHT1", "ERROR1"]}]}
{"id": "C112", "title": "An adaptive solve is a chain of accepted steps reaching the end time", "statement": "The steps handed to the caller chain from the start, each beginning where the last ended with its derivative, at most max_steps of them, all finite. On success the answer is the end of the chain, within epsilon (1 + |tf|) of the end time. Each error has its stated cause. Each accepted step is a Dormand-Prince step within tolerance, toward the end time and not past it, no longer than max_step.", "quantifier": "all configurations, equations, sizes and times; any scalar for the chain, exact arithmetic for the step's content", "why_tests_cant": "A loop whose step sizes depend on the data; every history of acceptances and rejections.", "anchors": [{"file": "crates/multicalc/src/ode/rk45.rs", "symbols": ["Rk45::for_each_step", "Rk45::solve"]}]}
{"id": "C113", "title": "Dense output interpolates the steps of a solve", "statement": "Inside a step the interpolant meets both ends and both slopes, follows every cubic exactly, and is within M h^4 / 9 of any function with those ends whose fourth derivative is at most M. Solving on a grid gives for each time the interpolant of a step holding that time; it succeeds on every ordered grid after the start whose last time the solve reaches.", "quantifier": "all steps, times, functions and grids; any scalar for the grid's meaning, exact arithmetic for the rest", "why_tests_cant": "Every time inside every step.", "anchors": [{"file": "crates/multicalc/src/ode/rk45.rs", "symbols": ["Step::interpolate", "Rk45::solve_on_grid"]}]}
{"id": "C114", "title": "Stepping an orientation keeps it a true rotation and follows steady turning exactly", "statement": "A step composes the orientation with the rotation by rate times time about the body's own axes; with a rate picking up speed about one axis the step ends where the turning body does. At a steady rate every node of a run is exactly the body's orientation at its time. Whatever the rates, after k steps the norm squared is within the k-th powers of 1 +- (30 eps)^4. The observer gets the start and one node per step; a step size that is not finite or not positive, or a rate that is not finite, gives the stated error.", "quantifier": "all orientations, rates, rate functions, step sizes and counts; any scalar for the nodes and errors, exact arithmetic for the rest", "why_tests_cant": "Runs of every length and every rate function; drift only shows over unboundedly many steps.", "anchors": [{"file": "crates/multicalc/src/ode/exponential_map.rs", "symbols": ["ExponentialMap::attitude_step", "ExponentialMap::attitude_step_with_angular_acceleration", "ExponentialMap::integrate_attitude"]}]}
{"id": "C115", "title": "Numerical integration over a finite interval is within the composite rule's error of the integral", "statement": "For an integrand with enough derivatives (2 for the trapezoidal rule, 4 for Simpson's three-eighths, 6 for Boole's) the answer differs from the integral by at most a constant times the bound on the last derivative times the panel width to that power; it is exact for polynomials of lower degree. Requested step counts up to 12000 are rounded up to whole panels; above 12000 they are not, and then even a constant is integrated wrongly.", "quantifier": "all integrands, intervals, step counts, rules and summation methods; exact arithmetic", "why_tests_cant": "Every smooth function on every interval at every resolution.", "anchors": [{"file": "crates/multicalc/src/numerical_integration/iterative_integration.rs", "symbols": ["IterativeSingle::integrate", "booles", "simpsons", "trapezoidal", "from_parameters"]}, {"file": "crates/multicalc/src/numerical_integration/mod.rs", "symbols": ["integral"]}]}
{"id": "C116", "title": "Integration over infinite ranges is the finite rule on the transformed integrand", "statement": "With an infinite limit the answer is finite and differs by at most the composite rule's error for the transformed integrand from the integral over the range cut off where the new variable stops one epsilon short of the infinite end: up to 2^52 - 1 beyond a finite limit, and tan(pi (1/2 - eps)) either side when both limits are infinite.", "quantifier": "all integrands continuous on the range whose transformed integrand is smooth, all finite limits, rules and step counts; reals extended with infinities", "why_tests_cant": "Unbounded ranges and arbitrary integrands; tests only try integrals with known values.", "anchors": [{"file": "crates/multicalc/src/numerical_integration/integrator.rs", "symbols": ["Domain", "classify", "t_bounds", "map_sample"]}, {"file": "crates/multicalc/src/numerical_integration/iterative_integration.rs", "symbols": ["IterativeSingle::integrate"]}]}
{"id": "C117", "title": "Gaussian quadrature of order n is exact below degree 2n up to the digits of its tables", "statement": "For every order from 1 to 30 the Legendre, Laguerre and Hermite quadratures integrate every polynomial of degree below 2n (against 1, exp(-x) and exp(-x^2)) up to 1e-14, 1e-13 and 1e-14 relative to the sizes of its terms, and any other integrand up to a small multiple of its distance from such a polynomial.", "quantifier": "all orders 1 to 30, all integrands and coefficients, all finite intervals for Legendre; exact arithmetic on the tabulated decimals", "why_tests_cant": "Ninety tables of printed digits against infinitely many integrands; one wrong digit shows only for some.", "anchors": [{"file": "crates/multicalc/src/gaussian_tables/legendre.rs", "symbols": ["LEGENDRE_1"]}, {"file": "crates/multicalc/src/gaussian_tables/hermite.rs", "symbols": ["HERMITE_1"]}, {"file": "crates/multicalc/src/gaussian_tables/laguerre.rs", "symbols": ["LAGUERRE_1"]}, {"file": "crates/multicalc/src/gaussian_tables/mod.rs", "symbols": ["nodes"]}, {"file": "crates/multicalc/src/numerical_integration/gaussian_integration.rs", "symbols": ["GaussianSingle::integrate"]}]}
{"id": "C118", "title": "Integrating over several variables gives the iterated integral", "statement": "The answer is the iterated integral over the listed variables between their limits, the last listed outermost, the other variables keeping the values given, exactly, for every integrand that is a polynomial below the rule's order in each listed variable (also when a variable is listed twice).", "quantifier": "all numbers of variables, all integrands polynomial in the integrated ones, all limits, points, rules and step counts; exact arithmetic", "why_tests_cant": "Every nesting depth, variable choice and integrand.", "anchors": [{"file": "crates/multicalc/src/numerical_integration/iterative_integration.rs", "symbols": ["IterativeMulti::integrate"]}]}
{"id": "C119", "title": "An integrator reports the first thing wrong and nothing else", "statement": "Zero steps (or an order outside 1 to 30), then ill-defined limits, then a variable out of range, then a sample that is not finite each give their error, in this order; otherwise there is a value. On a finite interval there is a value exactly when the integrand is finite at the ends and at each step between. Asking for no integrations at all panics instead.", "quantifier": "all integrators, integrands, limits including NaN and infinities, variables and points; any scalar for the samples", "why_tests_cant": "Every combination of inputs and every integrand.", "anchors": [{"file": "crates/multicalc/src/numerical_integration/iterative_integration.rs", "symbols": ["IterativeConfig::check_for_errors", "IterativeMulti::integrate"]}, {"file": "crates/multicalc/src/numerical_integration/gaussian_integration.rs", "symbols": ["GaussianSingle::integrate", "GaussianMulti::integrate"]}, {"file": "crates/multicalc/src/numerical_integration/integrator.rs", "symbols": ["classify"]}]}
{"id": "C120", "title": "Automatic differentiation gives the exact derivative up to order six", "statement": "Differentiating a formula one to six times at a point where it is smooth returns its exact derivative of that order, which exists; order zero and orders above six are refused.", "quantifier": "all formulas over the scalar operations, all points where they are smooth, all orders; exact arithmetic; refusals for any scalar", "why_tests_cant": "Arbitrary compositions of operations; tests try a few functions at a few points.", "anchors": [{"file": "crates/multicalc/src/numerical_derivative/autodiff.rs", "symbols": ["AutoDiffSingle::differentiate", "MAX_ORDER"]}, {"file": "crates/multicalc/src/numerical_derivative/mod.rs", "symbols": ["derivative", "second_derivative"]}]}
{"id": "C121", "title": "Automatic partial derivatives are exact, symmetric and consistent with directional ones", "statement": "First and second partial derivatives of a smooth formula of any number of variables are the exact ones, the second do not depend on the order of the two variables, and the derivative along any direction is the sum of the first ones weighted by the direction. An empty list, a variable out of range and more than three variables are refused, in this order.", "quantifier": "all formulas, numbers of variables, points where they are smooth and variables; exact arithmetic; refusals for any scalar", "why_tests_cant": "Every formula, dimension and pair of variables.", "anchors": [{"file": "crates/multicalc/src/numerical_derivative/autodiff.rs", "symbols": ["AutoDiffMulti::differentiate"]}, {"file": "crates/multicalc/src/numerical_derivative/mod.rs", "symbols": ["partial"]}]}
{"id": "C122", "title": "A finite difference is a derivative at a nearby point and converges at the order of its mode", "statement": "The forward, backward or central difference of any order is the exact derivative of that order at some point within its reach (the sum of its steps); it misses the derivative at the point itself by at most B/2 times the reach when one-sided and B/6 times the sum of the squared steps when central, B bounding the next derivative or the one after. Mixed differences of several variables are the exact mixed partial derivative at some point of the box reached. A zero step, a negative or non-finite step, order zero and variables out of range are refused.", "quantifier": "all functions with the derivatives named, all points, orders, positive steps and multipliers, modes and lists of variables; exact arithmetic; refusals for any scalar", "why_tests_cant": "All functions, nesting depths and steps; tests compare a few values with a tolerance.", "anchors": [{"file": "crates/multicalc/src/numerical_derivative/finite_difference.rs", "symbols": ["FiniteDifferenceSingle::differentiate", "FiniteDifferenceMulti::differentiate", "FiniteDifferenceConfig"]}, {"file": "crates/multicalc/src/numerical_derivative/mode.rs", "symbols": ["FiniteDifferenceMode"]}]}
{"id": "C123", "title": "Jacobians hold the partial derivatives and hessians are symmetric", "statement": "The jacobian holds in row i and column j the partial derivative of function i by variable j, exactly under automatic differentiation and within one step of the point under finite differences; the heap version agrees; an empty set of functions and the first refused column are reported. The hessian is symmetric with the second partial derivative of each pair, and fails only when one of those fails.", "quantifier": "all functions, numbers of functions and variables, points and derivators; any scalar for the loops", "why_tests_cant": "Every size, derivator and pattern of failures or NaNs.", "anchors": [{"file": "crates/multicalc/src/numerical_derivative/jacobian.rs", "symbols": ["Jacobian::evaluate", "Jacobian::evaluate_on_heap"]}, {"file": "crates/multicalc/src/numerical_derivative/hessian.rs", "symbols": ["Hessian::evaluate"]}]}
{"id": "C124", "title": "Linear and quadratic approximations are the Taylor polynomials, with correct fit metrics", "statement": "The linear (quadratic) approximation is exact at its point, has the function's slopes there and misses the function elsewhere by at most 1/2 (1/6) of the largest second (third) derivative along the segment; it equals its intercept plus gradient form. Over any set of points the mean absolute error is at most the root mean squared one, whose square is the mean squared one, R squared is at most 1, the adjusted one at most that, and a perfect fit has errors 0 and R squared 1.", "quantifier": "all smooth formulas, points, evaluation points, data sets and summation methods; exact arithmetic", "why_tests_cant": "All functions and all data sets.", "anchors": [{"file": "crates/multicalc/src/approximation/linear_approximation.rs", "symbols": ["LinearApproximator", "LinearApproximation"]}, {"file": "crates/multicalc/src/approximation/quadratic_approximation.rs", "symbols": ["QuadraticApproximator", "QuadraticApproximation"]}, {"file": "crates/multicalc/src/approximation/mod.rs", "symbols": ["compute_metrics"]}]}
{"id": "C125", "title": "Curl and divergence are the combinations of partial derivatives that define them", "statement": "With automatic differentiation of smooth field components the curl and divergence in two and three dimensions are exactly the defining combinations of partial derivatives; a derivator's refusal is passed on.", "quantifier": "all fields given by smooth formulas, all points; exact arithmetic", "why_tests_cant": "All fields and points; a swapped index shows only for some fields.", "anchors": [{"file": "crates/multicalc/src/vector_field/curl.rs", "symbols": ["curl_3d", "curl_2d"]}, {"file": "crates/multicalc/src/vector_field/divergence.rs", "symbols": ["divergence_3d", "divergence_2d"]}]}
{"id": "C126", "title": "Line integrals converge to the integral of the field along the curve", "statement": "With n panels the line integral of a Lipschitz field along a continuously differentiable curve is within a constant over n of the exact one, and exact for constant fields; zero iterations and limits that do not increase are refused.", "quantifier": "all fields, curves, limits and panel counts meeting the hypotheses; exact arithmetic; refusals for any scalar", "why_tests_cant": "All fields, curves and panel counts.", "anchors": [{"file": "crates/multicalc/src/vector_field/line_integral.rs", "symbols": ["line_integral_2d_custom", "line_integral_3d_custom", "line_integral_partial_2d"]}]}
{"id": "C127", "title": "The flux integral converges to the flux of the field across the curve", "statement": "With n panels the flux integral of a field (P, Q) across a curve (x, y) is within a constant over n of the integral of P y' - Q x'.", "quantifier": "all fields, curves, limits and panel counts; exact arithmetic", "why_tests_cant": "All fields and curves; the documented example is one where a wrong formula gives the same value.", "anchors": [{"file": "crates/multicalc/src/vector_field/flux_integral.rs", "symbols": ["flux_integral_2d_custom"]}]}
{"id": "C128", "title": "A Kalman filter's covariance is always a covariance, and predicting is exact", "statement": "A prediction takes the state through the transition (plus the control) and the covariance P to F P F' + Q. Through any sequence of predictions, controls, updates in either mode, refused updates, state, noise and model changes, the covariance stays symmetric and positive semidefinite.", "quantifier": "all dimensions, models, noises, measurements and histories of calls; exact arithmetic", "why_tests_cant": "Every history of calls and every model; tests run a few tracks.", "anchors": [{"file": "crates/multicalc/src/estimation/kalman_filter.rs", "symbols": ["KalmanFilter::predict", "KalmanFilter::predict_with_control", "KalmanFilter::update"]}]}
{"id": "C129", "title": "A Kalman update uses the best gain there is, or changes nothing", "statement": "A measurement is taken exactly when the innovation covariance S is positive definite (noise in every channel is enough) and otherwise refused with the estimate unchanged; the gain gives an error covariance no larger in any direction than any other gain, only that gain does, and never larger than before; both covariance modes agree; the normalized innovation is v' S^-1 v; a non-finite measurement is refused for any scalar.", "quantifier": "all dimensions, filters, measurements and competing gains; exact arithmetic for the values", "why_tests_cant": "Optimality against every other gain in every direction.", "anchors": [{"file": "crates/multicalc/src/estimation/kalman_filter.rs", "symbols": ["KalmanFilter::update", "CovarianceUpdate", "KalmanFilter::normalized_innovation_squared"]}]}
{"id": "C130", "title": "A Kalman filter computes the weighted least squares fit of everything it has seen", "statement": "After an update the estimate is the unique minimizer of the disagreement with the previous estimate and with the measurement, each weighted by its inverse covariance, and the new inverse covariance is the curvature of that disagreement. Over any number of ticks of a linear system the filter's state is the last state of the history that fits the first estimate, all the motions and all the readings best.", "quantifier": "all dimensions, invertible noises, models changing from tick to tick, and histories of any length; exact arithmetic", "why_tests_cant": "Optimality over all histories of states, for histories of any length.", "anchors": [{"file": "crates/multicalc/src/estimation/kalman_filter.rs", "symbols": ["KalmanFilter::predict", "KalmanFilter::predict_with_control", "KalmanFilter::update"]}]}
{"id": "C131", "title": "An extended Kalman filter is the linear filter at the jacobian of its models", "statement": "A prediction takes the state through the model and the covariance through the matrix of its partial derivatives; an update is the linear filter's update with the measurement matrix of partial derivatives and the caller's residual; for affine models the jacobian is the matrix of the model. A refused call (non-finite input or model output, differentiation error, S not positive definite) leaves state and covariance alone. Whatever the models and the derivator, the covariance stays symmetric and positive semidefinite.", "quantifier": "all dimensions, smooth formulas for the models (any code at all for the history), filters, residuals and histories; exact arithmetic for the values, any scalar for refusals", "why_tests_cant": "All models and all histories of calls.", "anchors": [{"file": "crates/multicalc/src/estimation/extended_kalman_filter.rs", "symbols": ["ExtendedKalmanFilter::predict", "ExtendedKalmanFilter::update", "ExtendedKalmanFilter::update_with_residual"]}]}
{"id": "C132", "title": "An unscented prediction is the weighted average and spread of the model over the sigma points", "statement": "A prediction works exactly when the widened covariance can be factored; the points are one column of the factor either side of the estimate, the new state and covariance are their weighted average and spread through the model plus the process noise. For every model, smooth or not, the covariance stays symmetric, positive semidefinite and at least the process noise, for every tuning with n beta + alpha^2 kappa >= 0 (the default is one). For affine models it is exact. A tuning is taken exactly when alpha is not zero and kappa > -n.", "quantifier": "all dimensions, models, filters and tunings; exact arithmetic", "why_tests_cant": "Positive semidefiniteness for every model and every tuning.", "anchors": [{"file": "crates/multicalc/src/estimation/unscented_kalman_filter.rs", "symbols": ["UnscentedKalmanFilter::predict", "UnscentedKalmanFilter::with_scaling", "UnscentedKalmanFilter::with_regularization"]}]}
{"id": "C133", "title": "Unscented updates keep the covariance valid and agree with the linear filter on linear models", "statement": "After a prediction an update with any sensor keeps the covariance symmetric, positive semidefinite and no larger; this holds along any run of predict and update cycles with the state re-wrapped in between. Noise in every channel is enough for a measurement to be taken. On a filter that never predicted an update leaves the estimate where it was. For affine models the update is the linear filter's. Refused calls leave state, covariance and innovation alone.", "quantifier": "all dimensions, process and measurement models, noises, residuals and runs of any length; exact arithmetic, any scalar for refusals", "why_tests_cant": "All models and all histories; the failure with two updates per prediction needs a particular history.", "anchors": [{"file": "crates/multicalc/src/estimation/unscented_kalman_filter.rs", "symbols": ["UnscentedKalmanFilter::update", "UnscentedKalmanFilter::update_with_residual"]}]}
{"id": "C134", "title": "The ready-made vehicle model follows the exact arc, and angle residuals are folded", "statement": "The constant turn model moves at its speed along its heading at every moment (exactly above a turn rate of 1e-6, within speed times turn rate times time squared below), keeps speed and turn rate, and folds the heading by whole turns. A direct measurement is built exactly from indices inside the state and reads them in order. A residual differs from the plain difference by whole turns, only in the listed components, and lies within (-pi, pi].", "quantifier": "all states, timesteps, index lists and measurements; exact arithmetic, any scalar for direct measurements", "why_tests_cant": "All headings, rates and timesteps; the range fails at one point only.", "anchors": [{"file": "crates/multicalc/src/estimation/models.rs", "symbols": ["ConstantTurnAndSpeed::eval", "DirectMeasurement::try_new", "DirectMeasurement::eval", "residual_with_wrapped_angles"]}]}
{"id": "C135", "title": "A differential drive and its odometry are the motion of a body that rolls without slipping", "statement": "The body velocity is the one for which each wheel's ground contact moves at its rim speed; forward and inverse undo each other. The unicycle's equation is exactly straight-ahead motion with turning, every such motion over a time step ends at the pose the odometry step gives (exactly outside a tiny-turn window, within fourth order of the turn inside it), any number of equal ticks is one long arc, and the chord is never longer than the travel. The odometry model used by filters gives the same pose with the heading folded. A drive is built exactly from finite positive sizes.", "quantifier": "all drives, wheel rates, body velocities, poses, paths, times and numbers of ticks; exact arithmetic, extended reals for construction", "why_tests_cant": "All rolling motions and any number of ticks.", "anchors": [{"file": "crates/multicalc/src/kinematics/differential_drive.rs", "symbols": ["DifferentialDrive::new", "DifferentialDrive::forward", "DifferentialDrive::inverse", "DifferentialDrive::odometry_step", "BodyTwist::project_tangent"]}, {"file": "crates/multicalc/src/kinematics/odometry.rs", "symbols": ["integrate", "OdometryStep"]}, {"file": "crates/multicalc/src/kinematics/unicycle.rs", "symbols": ["Unicycle::derivative"]}]}
{"id": "C136", "title": "A body under the attitude controller's torque converges to its moving target", "statement": "The attitude error is the sine of the angle past the target along the axis of the turn, zero exactly when aligned or half a turn away. A rigid body obeying Euler's equation under the torque, following any smoothly turning target, has an error that moves as under a spring and a damper; the energy only falls, a body starting with less than half a turn's energy never reaches half a turn, and from there the error decays exponentially at one rate for all such starts and targets. A controller is built exactly from positive gains and a positive definite inertia.", "quantifier": "all gains, inertias, attitudes, targets and motions; exact arithmetic, any scalar for non-finite input", "why_tests_cant": "Convergence of every continuous motion for all time.", "anchors": [{"file": "crates/multicalc/src/control/geometric_attitude.rs", "symbols": ["GeometricAttitudeController::new", "GeometricAttitudeController::attitude_error", "GeometricAttitudeController::torque"]}]}
{"id": "C137", "title": "An attitude filter follows a body it starts on and comes level on a still one", "statement": "Whatever the history of calls, the orientation stays a rotation and the two references perpendicular directions; a refused step leaves the filter alone. Started at the true orientation with the true offset, exact readings keep it on the true motion for ever, including in free fall and without a magnetometer. On a still body with a known offset the Mahony filter's tilt goes to zero geometrically from every start but upside down, and the Madgwick filter's goes down by the same angle each tick until within that angle and stays there. The magnetometer only ever moves the heading. New references are taken exactly when they are not along one line.", "quantifier": "all filters, gains, orientations, readings, motions and histories of any length; exact arithmetic, any scalar for refusals", "why_tests_cant": "Convergence and invariants over histories of any length; the failure about the heading needs a dipping field.", "anchors": [{"file": "crates/multicalc/src/estimation/mahony_filter.rs", "symbols": ["MahonyFilter::step", "MahonyFilter::step_without_magnetometer", "MahonyFilter::with_reference_directions"]}, {"file": "crates/multicalc/src/estimation/madgwick_filter.rs", "symbols": ["MadgwickFilter::step", "MadgwickFilter::with_reference_directions"]}, {"file": "crates/multicalc/src/estimation/attitude_correction.rs", "symbols": ["correction", "stepped_orientation"]}]}
{"id": "C138", "title": "Resampling picks sources by weight", "statement": "No scheme fails and every pick is a source. Systematic and stratified pick k is the source on whose stretch of the weights (draw + k) / count falls, so a source gets its share to within one (two for stratified), and exactly its share on average over the systematic offset; multinomial picks the first source whose running weight reaches the draw; residual lays out every source's whole share first and draws the rest from the fractions. A source of weight zero is never picked.", "quantifier": "all weights, counts, draws and schemes; any scalar for the first sentence, exact arithmetic for the rest", "why_tests_cant": "All weights and all random draws; the zero-weight failure needs a draw of exactly zero.", "anchors": [{"file": "crates/multicalc/src/estimation/particle_filter.rs", "symbols": ["ResamplingScheme", "resample_indices"]}]}
{"id": "C139", "title": "A particle filter update is Bayes' rule, and its weights stay a distribution", "statement": "An update multiplies each weight by its likelihood and scales the weights to sum to one (a displayed zero counts as the smallest positive number), and refreshes the cloud exactly when the effective number of samples is below the threshold; an update under which no particle is possible is refused with the filter unchanged. Through any history of predictions, updates, resamplings and changes of tuning nothing panics and the weights stay nonnegative and sum to one, over as many particles. The effective number of samples lies between one and the number of particles. A refused update leaves the filter as it was.", "quantifier": "all particle counts, weights, scores, draws and histories; reals with infinities and NaN", "why_tests_cant": "All histories of calls; the failure needs one NaN score among good ones.", "anchors": [{"file": "crates/multicalc/src/estimation/particle_filter.rs", "symbols": ["ParticleFilter::update_with_log_weights", "ParticleFilter::resample", "ParticleFilter::effective_sample_size"]}]}
{"id": "C140", "title": "A particle cloud is drawn, moved, scored and summarized as documented", "statement": "A filter is built exactly from a positive count and positive definite covariances, particles being the mean plus a square root of the covariance times fresh normal draws. A prediction moves each particle through the model plus the noise factor times fresh draws and reports non-finite particles; an update scores each particle by the likelihood of its predicted measurement, a non-finite measurement being refused. The Gaussian score is minus half the mismatch squared in units of the noise, zero exactly at a match. The mean is the weighted mean, on average unmoved by systematic resampling; the most likely state is the first of the heaviest particles.", "quantifier": "all dimensions, counts, models, likelihoods, covariances and draws; any scalar for prediction and update, exact arithmetic for the rest", "why_tests_cant": "All clouds and all draws, and an average over a continuum of offsets.", "anchors": [{"file": "crates/multicalc/src/estimation/particle_filter.rs", "symbols": ["ParticleFilter::from_random", "ParticleFilter::predict", "ParticleFilter::update", "GaussianLikelihood", "ParticleFilter::mean", "ParticleFilter::maximum_a_posteriori_state"]}]}
{"id": "C141", "title": "Gauss-Newton reports the truth and solves affine problems in one step", "statement": "Minimizing never panics when the derivator does not. A report names a point with finite residuals, its objective is half the squared norm of the residuals there, and the test it names (gradient, step or cost) holds; reports and failures to converge stay within one evaluation plus 1 (21 with backtracking) per pass. Stopping on the gradient means every jacobian column is at a right angle to the residuals up to gtol, so with exact derivatives and gtol zero every partial derivative of the cost is zero. Affine residuals are solved in one step to the unique point of least cost. With backtracking a step lowers the norm of the residuals.", "quantifier": "all residual functions, starting points, tolerances and budgets", "why_tests_cant": "The iterates and stopping points depend on the function; tests try a few curves.", "anchors": [{"file": "crates/multicalc/src/optimization/gauss_newton.rs", "symbols": ["GaussNewton", "minimize", "with_backtracking"]}, {"file": "crates/multicalc/src/optimization/mod.rs", "symbols": ["MinimizationReport", "TerminationReason"]}]}
{"id": "C142", "title": "Levenberg-Marquardt never makes the fit worse and its trial steps are optimal within their length", "statement": "Minimizing never panics when the derivator does not; a report names a point of the right size with finite residuals and its objective, the test it names holds, and the evaluations stay within one plus 100 per pass. The cost of the answer is never above that of the start. Stopping on the gradient means every jacobian column is at a right angle to the residuals up to gtol. Each trial step solves the damped normal equations with a damping that is not negative, leaves least of the linear model among all steps no longer in the scaling of the parameters, and is measured against exactly the reduction the linear model promises. Radius, damping and scaling stay positive.", "quantifier": "all residual functions, starting points, tolerances, radii and budgets", "why_tests_cant": "Acceptance and damping depend on the whole history of trials; tests follow a few well-known curves.", "anchors": [{"file": "crates/multicalc/src/optimization/levenberg_marquardt.rs", "symbols": ["LevenbergMarquardt", "minimize"]}, {"file": "crates/multicalc/src/optimization/trust_region.rs", "symbols": ["determine_lambda_and_parameter_update"]}]}
{"id": "C143", "title": "A Monte Carlo localizer weighs its guesses by Bayes' rule and reports where they agree", "statement": "Building a localizer scatters the asked number of guesses around the hint with independent normal errors of the given variances and equal weights; an empty cloud or a variance that is not positive is refused. Moving takes each guess the distance along its own heading and turns it, keeping the heading within half a turn of zero, plus noise of the set variances. A scan multiplies the weight of each guess by the exponential of its score, where each beam compares the first occupied square the map shows in its direction with the reading (a squared error when both see something, a reward when neither does, a penalty when only one does), scales the weights to sum to one, and redraws exactly when too few effective samples are left. The estimate's position is the place nearest to the guesses in mean square, its heading the direction they agree with best, its spread is symmetric and never negative in any direction, and a cloud whose guesses agree is estimated where it is, also across the mark where headings wrap.", "quantifier": "every map, scan geometry, scan (also with readings that are not numbers), cloud with finite poses and weights that sum to one, random source and motion", "why_tests_cant": "The guesses, maps, scans and random draws range over infinite sets, and an average heading that is wrong only near the wrap or a beam that is scored the wrong way only for some reading passes most tests.", "anchors": [{"file": "crates/multicalc/src/estimation/monte_carlo_localizer.rs", "symbols": ["MonteCarloLocalizer::new", "MonteCarloLocalizer::set_motion_noise", "MonteCarloLocalizer::predict", "MonteCarloLocalizer::update", "MonteCarloLocalizer::estimate", "MonteCarloLocalizer::is_converged", "beam_score", "LocalizationMotion"]}]}
{"id": "C144", "title": "A kinematic tree only ever holds joints that fit", "statement": "A joint is appended exactly when there is room, its parent is already in the tree, a floating joint is the first and hangs from the world, its numbers are finite, its limits are in order (a continuous joint has none) and an axis it moves along or about has a direction; otherwise the tree stays as it was and the first problem, in a fixed order, is reported. The stored axis has length one. So in every tree parents come before children, and each joint owns a run of the configuration (seven numbers if floating, else one) and of the rates (six or one), one run after another. Building from slices keeps all joints or reports what the first refused one is refused for.", "quantifier": "every sequence of joints and parents, every capacity and every scalar type (NaN and infinities included)", "why_tests_cant": "Trees are histories of pushes of any length; tests build a few robots.", "anchors": [{"file": "crates/multicalc/src/kinematics/kinematic_tree.rs", "symbols": ["KinematicTree::push", "KinematicTree::try_from_joints", "KinematicTree::config_offset", "KinematicTree::velocity_offset", "KinematicTree::config_len", "KinematicTree::velocity_len"]}, {"file": "crates/multicalc/src/kinematics/joint.rs", "symbols": ["Joint", "JointKind", "JointParent"]}]}
{"id": "C145", "title": "Forward kinematics puts every joint where its own motion, its origin and its parent take it", "statement": "A configuration is answered with one pose per joint unless a number some joint reads is not finite or a floating joint's quaternion has no direction, and those two are told apart. Every pose is a rigid motion; it takes a point of the joint's frame first through the joint's own motion (a turn about the axis through its anchor by the reading less the zero offset, a slide along the axis, nothing, or the position and unit quaternion read), then its origin, then the pose it hangs from. A pose depends only on the readings of the joints between it and the world.", "quantifier": "every tree that can be built and every configuration", "why_tests_cant": "The poses range over trees of any shape and depth and a continuum of readings; tests check a few robots at a few configurations.", "anchors": [{"file": "crates/multicalc/src/kinematics/kinematic_tree.rs", "symbols": ["KinematicTree::forward_kinematics"]}, {"file": "crates/multicalc/src/kinematics/kinematic_tree_state.rs", "symbols": ["KinematicTreeState"]}]}
{"id": "C146", "title": "The geometric Jacobian times the joint rates is the velocity of the tool", "statement": "Along every motion whose readings change at the given rates, the tool's frame moves with the linear and angular velocity the Jacobian times the rates gives, in the world's axes or, with body axes, as seen from the tool. There is a column for each rate and no more, the product is the columns weighted with the rates, and rates of joints that do not carry the tool do not matter. A tool that is not in the tree or a state of the wrong length is refused.", "quantifier": "every tree that can be built, every tool, every differentiable motion through a configuration and every list of rates", "why_tests_cant": "The claim is about derivatives along every curve through every configuration; tests compare finite differences at a few points.", "anchors": [{"file": "crates/multicalc/src/kinematics/kinematic_tree.rs", "symbols": ["KinematicTree::geometric_jacobian", "KinematicTree::geometric_jacobian_at"]}, {"file": "crates/multicalc/src/kinematics/kinematic_jacobian.rs", "symbols": ["KinematicJacobian::tool_twist", "KinematicJacobian::column", "JacobianFrame"]}]}
{"id": "C147", "title": "Inverse kinematics reports what its run did and stays inside the joint limits", "statement": "A solve brings the seed inside the joint limits and makes passes from it, no more than allowed. It says Converged at the first configuration whose residuals are within both tolerances and nowhere else, Stalled where the next pass would move less than the stall tolerance, and out of budget when every pass was made; the residuals reported are those of the answer reported. One pass adds to each joint the damped least squares step, shortened to the longest allowed and without the entries of joints that cannot move, and brings the joint back inside its limits. With limits respected every limited joint of the answer is inside its limits, and without floating joints the answer is no farther from the seed than passes times the longest step. A frame that is not in the tree, numbers that are not finite and weights that are missing or not positive are refused, and nothing else is when the seed has orientations.", "quantifier": "every tree that can be built, every tool frame, target, seed and setting", "why_tests_cant": "Runs of every length from every seed on every tree; tests solve for a few targets.", "anchors": [{"file": "crates/multicalc/src/kinematics/inverse_kinematics.rs", "symbols": ["InverseKinematics::solve", "InverseKinematicsReport", "InverseKinematicsTermination"]}, {"file": "crates/multicalc/src/kinematics/kinematic_jacobian.rs", "symbols": ["KinematicJacobian"]}]}
{"id": "C148", "title": "The inverses of the Jacobian are damped least squares and the smallest singular value is the least push felt", "statement": "The damped inverse takes a twist to the joint rates that weigh the squared error against the damping times the weighted squared rates best, and with no damping to the weighted shortest rates that come closest; with damping the weighted rates are at most the twist over the damping. The null space projector keeps of a wish what does not move the tool. The step of inverse kinematics is the damped least squares step towards the measured error with the secondary objective as its wish, with no damping at or above the threshold and at most the square of the setting below it. The smallest singular value is the least length with which a push of length one on the tool is felt by the joints, nought with fewer than six rates; a singularity is called positional or rotational when more than two thirds of such a push is along or about the axes. A weight that is missing or not positive is refused.", "quantifier": "every Jacobian of a tree, every weight, damping, threshold, twist and wish", "why_tests_cant": "Optimality is against every vector of joint rates; tests check that a few solutions reproduce a twist.", "anchors": [{"file": "crates/multicalc/src/kinematics/kinematic_jacobian.rs", "symbols": ["KinematicJacobian::damped_pseudo_inverse", "KinematicJacobian::null_space_projector", "KinematicJacobian::smallest_singular_value", "KinematicJacobian::classify_singularity", "SingularityKind"]}, {"file": "crates/multicalc/src/kinematics/inverse_kinematics.rs", "symbols": ["InverseKinematics::solve"]}]}
{"id": "C149", "title": "Inverse kinematics from several starts keeps the distinct branches, first found first", "statement": "A run from seeds is refused when there are more of them than it has room for, and otherwise as the first refused seed is. Its report counts every seed, and keeps the converged answers in the order of their seeds, leaving out exactly those nearer than the threshold to one kept before; every answer kept meets the tolerances. A run that draws its seeds is the run from the seed given and copies of it in which each joint that moves is redrawn from a number of its own, uniformly between its limits or within the span of its reading, and all else is copied. The answer closest to a reference is the first of the nearest. The distance is the root of the summed squares of the joints' differences, the short way round for a joint that turns for ever and position and angle for a floating one; it is symmetric, nought from a configuration to itself and blind to whole turns.", "quantifier": "every tree, solver, threshold, list of seeds, source of random numbers and pair of configurations", "why_tests_cant": "The order, the thresholds and the draws range over every run; tests use two seeds that meet.", "anchors": [{"file": "crates/multicalc/src/kinematics/multi_start_inverse_kinematics.rs", "symbols": ["MultiStartInverseKinematics::solve_from_seeds", "MultiStartInverseKinematics::solve_seeded", "MultiStartReport::closest_to", "MultiStartReport::solutions"]}, {"file": "crates/multicalc/src/kinematics/kinematic_tree.rs", "symbols": ["KinematicTree::configuration_distance"]}]}
{"id": "C150", "title": "Spheres and capsules: the distance is that of the solids, and a query reports the closest pair looked at", "statement": "The distance of two shapes at their poses is, less a stated bound, no more than that of any two of their points. When it is not negative some two points are exactly that far apart, and when it is not positive the solids share a point. The bound is nought for every pair but a capsule whose axis is no longer than 2^-26, and two capsules whose axes have a product of lengths and sine of no more than 2^-26. It is the same in both orders up to the bound and the same after moving both rigidly. Calls that fill a query keep what was asked for first, up to each capacity, return the place of the entry, and change nothing when refused; a pair left out is left out in both orders. A check is refused exactly when an attached shape hangs on a frame the state does not have. Otherwise its closest pair is one looked at, at the least distance of all, and the report says clear exactly when no pair looked at is nearer than asked for.", "quantifier": "every pair of shapes with radii and half lengths that are not negative, every pose, every query, state and history of calls", "why_tests_cant": "The closest points fall in a different case for every arrangement of the two axes; tests try a handful, none of them short or nearly parallel.", "anchors": [{"file": "crates/multicalc/src/kinematics/collision.rs", "symbols": ["Primitive::distance_to", "CollisionQuery::check", "CollisionQuery::push_self_primitive", "CollisionQuery::push_environment_primitive", "CollisionQuery::exclude_pair", "CollisionReport::is_clear"]}]}
{"id": "C151", "title": "A rigid body moves as its particles do under Newton's laws, and the tick is the midpoint rule", "statement": "Construction refuses what is not finite, and refuses as non-positive exactly a rotational inertia that is not positive definite; what it builds carries its inverse. For any particles with that mass, balance point and rotational inertia, the accelerations returned are the only ones for which mass times acceleration of all the particles, less gravity, adds up to the force and its moments to the torque. Along any motion that follows the state derivative from a rotation, the orientation stays a rotation, every particle's velocity and acceleration are the rates of change of its place and velocity, momentum changes by force and weight, its moment by theirs, energy by the power of force and torque; left alone the body keeps its energy, and without gravity its momentum and the moment of it. One tick is the midpoint rule: exact for a falling body over any number of ticks, and for a body spun about its own axis by a steady torque. The derivative reads only the direction of the four orientation numbers, is zero when they are all but zero, and a state survives being written as thirteen numbers.", "quantifier": "every rigid body, gravity, state, load over time, motion, length of tick and number of ticks", "why_tests_cant": "Tests drop a body and spin it about one axis; they cannot follow every particle under every load, and a wrong cross term shows only when the balance point is off the origin and the body tumbles.", "anchors": [{"file": "crates/multicalc/src/dynamics/rigid_body.rs", "symbols": ["RigidBody::new", "RigidBody::accelerations", "RigidBody::stepped", "RigidBody::state_derivative", "state_vector_from_free_joint", "free_joint_from_state_vector"]}]}
{"id": "C152", "title": "The minimum snap plan passes its waypoints on time and no path with the same ends costs less snap", "statement": "Planning refuses, in this order, fewer than two waypoints, more segments than fit, a number of durations that is not the number of segments, a duration that is not positive, a waypoint or boundary value that is not finite and a workspace too small; once the arguments are in order it answers or reports a system too badly conditioned, never a singular one, and one segment lasting between a thousandth and a thousand is always answered. The plan keeps the durations, is a polynomial of degree seven on each, is at every waypoint on time, starts and ends with the velocity, acceleration and jerk asked for, and runs on through its sixth derivative where pieces meet. Among all paths through the same waypoints at the same times with the same ends, four times differentiable on each segment and with three derivatives running on, it has the least integral of squared snap along each axis, and any path that costs no more is the same path. Durations from an average speed are distance over speed; waypoints that coincide are refused with the earlier durations already written.", "quantifier": "every number of segments, dimension, waypoint, duration and boundary, and every competing path", "why_tests_cant": "A test compares one plan with a few others; that no path at all is cheaper is a statement about every function, and a wrong sign in one term of the cost still gives smooth-looking plans through every waypoint.", "anchors": [{"file": "crates/multicalc/src/motion/minimum_snap.rs", "symbols": ["MinimumSnapPlanner::plan", "MinimumSnapPlanner::classify", "snap_cost", "ways_after_four_derivatives", "durations_from_average_speed"]}, {"file": "crates/multicalc/src/polynomial/construction.rs", "symbols": ["from_endpoint_derivatives", "endpoint_mapping", "endpoint_mapping_inverse"]}]}
{"id": "C153", "title": "Folding an error into a tracked state and taking it back out are inverse, and the IMU step follows the motion", "statement": "Folding a fifteen-number error into a state adds four groups and turns the facing about the body's own axes by exactly the rotation of the turn, keeping it a rotation. Taking the error between two states and folding it in gives the first state back, up to the sign of the quaternion, with a turn of at most half a turn; folding an error in and taking it out gives the error back up to half a turn, and within its cube when the turn is too tiny to resolve. One IMU step, as its length varies, moves the position at the velocity, the velocity at the reading less its offset turned into the world plus gravity, and the facing at the turn rate read less its offset, and leaves the offsets alone; a body held still against gravity with its offsets known does not move. A state counts as finite exactly when all sixteen numbers are.", "quantifier": "every state, error, reading, gravity and length of step; every scalar for finiteness", "why_tests_cant": "A test folds in a few errors; a swapped product or sign in the turn gives the same answer at the identity facing and small errors, and only shows at other facings.", "anchors": [{"file": "crates/multicalc/src/estimation/error_state_kalman_filter.rs", "symbols": ["NominalState::plus_error", "NominalState::error_from", "NominalState::propagated", "NominalState::is_finite"]}]}
{"id": "C154", "title": "The error-state filter carries its covariance with the true slope of the motion, folds readings in with the best gain, and keeps a covariance whatever is done to it", "statement": "Each entry of the transition of a step is how one number of the error after the step changes with one number before it, except that the position rows leave out the half-step of the push and the block from turn-rate offset to turn is the value for a body not turning. A step is never refused in exact arithmetic, moves the state, carries the covariance along and adds the noise of the step. The slope of a sensor given by formulas is how its readings change with each number of the error. A residual is folded in exactly when the spread expected of it is positive definite, with the one gain no other beats in any direction, and the covariance is what that gain leaves carried over to the corrected facing; otherwise nothing changes. Another sensor is folded in the same way and leaves the record of the last innovation alone. Readings that are not finite are refused with nothing changed. Lifting the covariance leaves no direction surer than the floor. The normalized error is the quadratic form of the inverse covariance. Whatever sequence of steps, readings, other sensors and retunings is applied, the covariance stays symmetric and positive semidefinite.", "quantifier": "every filter, reading, sensor formula, residual, length of step and sequence of actions; every scalar for the refusals", "why_tests_cant": "A test sees whether a filter converges on one trajectory; a wrong block of the transition or a reset in the wrong direction still converges, only with the wrong confidence, and a covariance that stops being one shows only after long histories.", "anchors": [{"file": "crates/multicalc/src/estimation/error_state_kalman_filter.rs", "symbols": ["ErrorStateKalmanFilter::predict", "ErrorStateKalmanFilter::update", "ErrorStateKalmanFilter::update_with_residual", "ErrorStateKalmanFilter::update_other", "ErrorStateKalmanFilter::condition_covariance", "ErrorStateKalmanFilter::normalized_estimation_error_squared"]}]}
{"id": "C155", "title": "Newton's method for systems reports the truth about where it stopped, and solves linear systems exactly", "statement": "Each move adds to the point a multiple of the one vector that the matrix of derivatives there sends to minus the residual: the whole of it when not damped, and when damped the first halving that lowers the norm of the residual, or the twentieth. An answer is the end of such moves, with the norm of the residual at the root, the number of passes made, within the budget, and the tolerance that was met; an error says that a value or derivative was not finite, that the matrix could not be inverted, what the derivative reported, or that the whole budget was used, and in each case that is what happened at the point reached. Conversely the first point of the moves that meets a tolerance within the budget is the answer. Damped, the residual falls at every move unless no halving lowers it. A linear system whose matrix the factorization accepts is solved exactly within two passes from any start. The defaults are thirty times machine epsilon, a hundred passes and no damping, and each builder changes its own setting.", "quantifier": "every system, start, derivator, tolerance and budget; every scalar for the outcomes", "why_tests_cant": "A test solves a few systems from good starts; a stale residual in the report, a sign lost in one branch of the line search or an off-by-one budget shows only on other histories.", "anchors": [{"file": "crates/multicalc/src/root_finding/newton_system.rs", "symbols": ["NewtonSystem::solve", "NewtonSystem::from_derivator", "NewtonSystem::with_backtracking"]}, {"file": "crates/multicalc/src/root_finding/mod.rs", "symbols": ["RootReportN"]}]}
