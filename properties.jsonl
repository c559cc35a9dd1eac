{"id": "C01", "title": "Coeff arithmetic is a faithful encoding of the field", "statement": "Multiplying or adding two `Coeff` values and then taking `value()` gives the same field element as taking `value()` first and using field arithmetic; `is_zero()` returns true exactly when `value()` is zero.", "quantifier": "every pair of Coeff values (all variants, all embedded field elements), every field (of odd characteristic for is_zero)", "why_tests_cant": "there are infinitely many embedded elements and 36 variant pairs for each operator; a wrong shortcut in one cell of the case table (e.g. Two*Two, or NegativeArbitrary+One) only shows on that pair", "anchors": ["crates/ragu_arithmetic/src/coeff.rs: Coeff::value, is_zero, Add, Mul"]}
{"id": "C02", "title": "Linear expressions mean what their call sequence says", "statement": "A closure that builds a linear expression by any sequence of add / sub / add_term / gain / extend calls denotes the sum in which each term is multiplied by its own coefficient and by exactly those gains that were applied before it was added. Direct evaluation (wire-valued driver), wiring-polynomial evaluation and the table-based s(X,y) evaluator all agree on that sum.", "quantifier": "every finite sequence of builder calls, every wire assignment, every coefficient", "why_tests_cant": "the semantics is a statement about all call sequences and gains interleaved at arbitrary positions; tests exercise a few fixed shapes", "anchors": ["crates/ragu_core/src/drivers/linexp.rs: LinearExpression, DirectSum", "crates/ragu_circuits/src/s/common.rs: WireEvalSum", "crates/ragu_circuits/src/s/sy.rs: TermCollector, TermEnforcer"]}
{"id": "C03", "title": "Polynomial evaluation, dot product and geometric sums are exact", "statement": "`eval(coeffs, x)` is the sum of c_i x^i; `dot(a,b)` is the sum of pairwise products; `geosum(r, m)` is 1 + r + ... + r^(m-1), also at r = 1, r = 0 and m = 0.", "quantifier": "every coefficient list, every point, every m", "why_tests_cant": "geosum uses a binary square-and-multiply scheme whose result for every m is an inductive fact", "anchors": ["crates/ragu_arithmetic/src/util.rs: eval, dot, geosum"]}
{"id": "C04", "title": "Synthetic division and products of roots", "statement": "`factor(p, b)` returns the q with p(X) = q(X)(X - b) + p(b), with exactly one coefficient fewer than p; the streaming variant `factor_iter` yields the same coefficients from the top degree down. `poly_with_roots(rs)` is the monic polynomial that vanishes exactly at the listed roots with the given multiplicities.", "quantifier": "every polynomial, every point b, every list of roots", "why_tests_cant": "identity of polynomials of arbitrary degree", "anchors": ["crates/ragu_arithmetic/src/util.rs: factor, factor_iter, poly_with_roots"]}
{"id": "C05", "title": "FFT computes the discrete Fourier transform whatever the thread count", "statement": "For a domain of size 2^k, the forward transform maps a coefficient vector to its evaluations at 1, w, w^2, ..., in natural order; the result does not depend on how many threads the executor offers (serial iterative path and recursive parallel path agree); the inverse transform followed by the forward one, and conversely, is the identity.", "quantifier": "every k, every input vector of length 2^k, every log2 thread count", "why_tests_cant": "the code switches algorithm on size and thread count; tests run the transform for a few sizes on one machine", "anchors": ["crates/ragu_arithmetic/src/fft.rs: fft, recursive_butterfly, bitreverse", "crates/ragu_arithmetic/src/domain.rs: Domain::fft, ifft"]}
{"id": "C06", "title": "Evaluation domains are well formed and Lagrange evaluations are correct", "statement": "Every domain the constructor returns has size 2^k, a generator of exact order 2^k, and correct inverses; `contains(x)` is true exactly for powers of the generator; `ell(x, m)` returns the first m Lagrange basis polynomials at x when x lies outside the domain, and nothing when x lies inside; asking for m > n is rejected.", "quantifier": "every k up to the two-adicity, every x, every m", "why_tests_cant": "quantifies over every field point and every domain size", "anchors": ["crates/ragu_arithmetic/src/domain.rs: Domain::new, halve, contains, ell"]}
{"id": "C07", "title": "Bit reversal is a permutation and an involution", "statement": "On [0, 2^l) `bitreverse(., l)` is an involution that stays in range, it sends bit i to bit l-1-i, and the in-place swap loop in the FFT (swap only when k < rev k) realises exactly this permutation.", "quantifier": "every l <= 32 and every index below 2^l", "why_tests_cant": "2^32 indices", "anchors": ["crates/ragu_arithmetic/src/fft.rs: bitreverse, fft"]}
{"id": "C08", "title": "Multi-scalar multiplication equals the naive sum", "statement": "`mul(scalars, bases)` returns the sum of scalar*base for any equal-length inputs, including empty input, zero scalars, the identity point and repeated bases, for every bucket width the size heuristic may select.", "quantifier": "every list of scalars and bases in any abelian group, every window size", "why_tests_cant": "windowing and bucket accumulation must be right for every scalar bit pattern and window width", "anchors": ["crates/ragu_arithmetic/src/util.rs: mul, bucket_lookup"]}
{"id": "C09", "title": "Sparse polynomials keep their block invariants", "statement": "Every polynomial reachable through the public constructors and operations (from_coeffs, add, sub, scale, negate, dilate, fold, view building) has blocks that are non-empty, sorted, non-overlapping and inside the coefficient range, so the internal invariant assertion can never fire.", "quantifier": "every finite history of operations from any inputs accepted by the constructors", "why_tests_cant": "an invariant over unbounded operation histories, with a merge algorithm whose behaviour depends on how blocks overlap", "anchors": ["crates/ragu_circuits/src/polynomials/sparse/mod.rs: extend_runs, from_coeffs, combine_assign, scale, negate, dilate, fold"]}
{"id": "C10", "title": "Sparse polynomial operations agree with dense polynomials", "statement": "Addition, subtraction, scaling, negation, dilation, folding, evaluation, revdot, equality of coefficients and the double-ended coefficient iterator give the same answers as on the dense coefficient vector, however the coefficients are split into blocks.", "quantifier": "every pair of well-formed sparse polynomials, every scalar and point, every interleaving of next()/next_back()", "why_tests_cant": "block layouts are unbounded; the merge has several special paths that random tests hit rarely", "anchors": ["crates/ragu_circuits/src/polynomials/sparse/mod.rs: combine_assign, eval, revdot, dilate, CoeffIter"]}
{"id": "C11", "title": "Trace and wiring views are dual", "statement": "A trace polynomial built from gate vectors (a,b,c,d) and a wiring polynomial built from vectors (a',b',c',d') satisfy revdot(trace, wiring) = <a,a'> + <b,b'> + <c,c'> + <d,d'>; no two wires share a coefficient; the reversed pairing is what the view documentation says.", "quantifier": "every n, every eight vectors of length at most n", "why_tests_cant": "index arithmetic over all sizes", "anchors": ["crates/ragu_circuits/src/polynomials/sparse/view.rs: View::build, Trace, Wiring"]}
{"id": "C12", "title": "t(X,Z) evaluators agree and encode the multiplication gate", "statement": "t(X,z), t(x,Z) and t(x,z) agree at every point including zero, and adding t_z to the z-dilated trace makes revdot(r, r.dilate(z) + t_z) equal the random-z combination of the gate equations a*b - c (and c*d) of the trace, so it vanishes for every z exactly when every gate is satisfied.", "quantifier": "every trace, every x and z", "why_tests_cant": "universal over z and over traces; special cases at zero", "anchors": ["crates/ragu_circuits/src/polynomials/mod.rs: tz, tx, txz"]}
{"id": "C13", "title": "The in-circuit t(x,z) routine equals the native evaluator", "statement": "Executing the routine and predicting it give the same value, which is the native t(x,z); zero inputs are rejected on both paths.", "quantifier": "every rank and every pair x,z", "why_tests_cant": "doubling loop over log2 n steps for every rank", "anchors": ["crates/ragu_circuits/src/polynomials/txz.rs: Evaluate::execute, Evaluate::predict", "crates/ragu_circuits/src/polynomials/mod.rs: txz"]}
{"id": "C14", "title": "Floor plans are disjoint, contiguous and complete", "statement": "The floor plan assigns each routine segment a gate range and a constraint range of the measured sizes; ranges of different segments never overlap, together they cover [0,total) without holes, and the root starts at gate 0 and constraint 0.", "quantifier": "every list of segment records", "why_tests_cant": "unbounded numbers and sizes of segments", "anchors": ["crates/ragu_circuits/src/floor_planner.rs: floor_plan"]}
{"id": "C15", "title": "Measured sizes match what every evaluator consumes", "statement": "For any circuit, the number of segments and each segment's gate and constraint counts measured at registration equal those consumed by the wiring evaluators, including with nested routines and pending half-allocations, so the consistency assertions in the evaluators never fire.", "quantifier": "every circuit program with arbitrarily nested routines", "why_tests_cant": "all programs; the d-wire allocation reuse interacts with routine boundaries", "anchors": ["crates/ragu_circuits/src/metrics.rs: Counter, eval_raw", "crates/ragu_circuits/src/s/sxy.rs", "crates/ragu_circuits/src/s/sx.rs", "crates/ragu_circuits/src/s/sy.rs"]}
{"id": "C16", "title": "The three wiring evaluators agree", "statement": "s(x,y), s(x,Y) and s(X,y) computed for the same circuit agree: s(x,Y) evaluated at y and s(X,y) evaluated at x both equal s(x,y), for every x and y including zero.", "quantifier": "every circuit program (with nested routines), every x and y", "why_tests_cant": "all circuits and all points; the three evaluators use different algorithms (monomial jumps, reversed per-segment buffers, reference-counted virtual wires)", "anchors": ["crates/ragu_circuits/src/s/sxy.rs: eval", "crates/ragu_circuits/src/s/sx.rs: eval", "crates/ragu_circuits/src/s/sy.rs: eval"]}
{"id": "C17", "title": "Deferred virtual wires are resolved exactly once", "statement": "In the s(X,y) evaluator each virtual wire's accumulated coefficient is pushed into its constituents exactly once, when the last handle is dropped; no wire is freed twice, no slot is reused while referenced, nothing leaks at the end, and the resulting allocation-wire coefficients do not depend on drop order.", "quantifier": "every sequence of add / clone / drop / enforce operations on handles", "why_tests_cant": "a reference-counting protocol over all histories", "anchors": ["crates/ragu_circuits/src/s/sy.rs: VirtualTable::add, free, update, alloc"]}
{"id": "C18", "title": "Trace assembly is independent of scheduling", "statement": "Assembling a trace places each segment's gates at its floor-plan offset; whatever order parallel children finish in, and whether a routine is predicted or executed inline, the resulting trace polynomial is the same, and a trace that does not fit is rejected.", "quantifier": "every program, every completion order of the deferred segments", "why_tests_cant": "schedules", "anchors": ["crates/ragu_circuits/src/trace.rs: Trace::assemble, Evaluator::routine, finish"]}
{"id": "C19", "title": "The revdot identity characterises satisfied circuits", "statement": "A trace satisfies every gate and every linear constraint of a circuit with the given public inputs if and only if revdot(r, r.dilate(z) + s_y + t_z) = k(y) for all y and z; a fixed cheating trace is caught at all but a bounded number of challenge points.", "quantifier": "every circuit, every trace, every y and z", "why_tests_cant": "this is the protocol's soundness and completeness claim over all challenges", "anchors": ["crates/ragu_circuits/src/lib.rs: CircuitObject", "crates/ragu_pcd/src/internal/claims.rs: circuit_impl", "crates/ragu_circuits/src/polynomials/mod.rs: tz"]}
{"id": "C20", "title": "k(Y) encodes the public inputs injectively", "statement": "The k(Y) polynomial of an instance has the outputs as higher coefficients in the order written and the fixed ONE constraint last, evaluation by the streaming Horner buffer equals evaluation of that polynomial, and two instances with the same number of outputs and different values have different k.", "quantifier": "every output vector, every y", "why_tests_cant": "all instances", "anchors": ["crates/ragu_circuits/src/ky.rs", "crates/ragu_circuits/src/horner.rs: Horner", "crates/ragu_circuits/src/raw.rs: orchestrate"]}
{"id": "C21", "title": "Registry restrictions agree with interpolation", "statement": "The registry polynomial m(W,x,y), its restrictions at w, and the individual circuits agree: evaluating at the domain point of circuit i gives s_i(x,y) plus the key term, evaluating anywhere else gives the interpolation, slots with no circuit contribute zero, and all five query methods (xy, wx, wy, wxy, single circuit) are consistent. The registry key is the digest obtained by six evaluations of the registry polynomial along a hash chain; equal digests mean equal evaluations at all six points, or a hash collision.", "quantifier": "every list of circuits up to the bound, every w, x, y", "why_tests_cant": "all registry sizes and points, with three code paths (direct, empty, interpolate)", "anchors": ["crates/ragu_circuits/src/registry.rs: Registry::xy, at, RegistryAt::x, y, xy, circuit_y, circuit_xy"]}
{"id": "C22", "title": "Circuit identifiers do not depend on registry size", "statement": "omega_j of circuit index i is the same field element whatever the number of registered circuits, distinct indices have distinct identifiers, the lookup recovers i from its identifier, and exactly the identifiers of a 2^k registry pass the in-domain check.", "quantifier": "every registry size, every index", "why_tests_cant": "all sizes up to 2^32", "anchors": ["crates/ragu_circuits/src/registry.rs: CircuitIndex::omega_j, RegistryBuilder::finalize, circuit_in_domain"]}
{"id": "C23", "title": "Stages occupy disjoint, aligned gate ranges", "statement": "A stage's polynomial, the wires injected into the circuit for it, and the mask's active region all refer to the same gates; different stages in a chain and the final witness never overlap; adding all stage polynomials to the final one gives exactly the full trace; overlong stages are rejected.", "quantifier": "every stage chain, every value vector", "why_tests_cant": "all chains and sizes", "anchors": ["crates/ragu_circuits/src/staging/mod.rs: skip_gates, num_gates, rx_configured", "crates/ragu_circuits/src/staging/builder.rs: configure_stage, StageWireInjector"]}
{"id": "C24", "title": "Stage masks enforce exactly their zero region", "statement": "The mask's s(x,y), s(x,Y) and s(X,y) agree at all points, and a polynomial has revdot zero against the mask for all y exactly when all its coefficients outside the active gates and the system gate are zero.", "quantifier": "every skip/num pair within the rank, every polynomial, every x and y", "why_tests_cant": "closed-form expression versus coefficient table for all sizes", "anchors": ["crates/ragu_circuits/src/staging/mask.rs: StageMask::sxy, project, sx, sy"]}
{"id": "C25", "title": "Stripped bonding circuits remove the ONE constraint consistently", "statement": "For a bonding circuit the stripped s(x,y), s(x,Y), s(X,y) agree and equal the original minus the x^{2n} term, so the constant term in Y vanishes; the validator accepts exactly the witness methods whose constraints never mention gates, constants or ONE, and an accepted circuit's constraints depend only on stage wires (circuit outputs are outside the validator: C25_outputs_refuted gives an accepted circuit whose output constraint reads ONE).", "quantifier": "every bonding circuit program", "why_tests_cant": "all programs", "anchors": ["crates/ragu_circuits/src/staging/bonding.rs: BondingValidator, Stripped"]}
{"id": "C26", "title": "Folding revdot claims is exact and sound", "statement": "The in-circuit claim folder is satisfiable exactly for mu != 0 and returns the weighted sum of k(y) values and error terms; the revdot of the folded polynomials is the same weighted sum of all pairwise products; with the prover's error terms the two differ by each claim's own deviation times its own power of nu; and for adversarial error terms fixed in advance, acceptance on a grid of n distinct mu and n distinct nu forces every claim and error term to be right.", "quantifier": "every number of claims, all polynomials, every mu != 0 and nu", "why_tests_cant": "bilinear identity over all sizes", "anchors": ["crates/ragu_pcd/src/internal/fold_revdot.rs: fold, compute_errors_impl, fold_products_impl"]}
{"id": "C27", "title": "Two-layer folding composes and matches its evaluation form", "statement": "Chunked two-layer folding composes: the final claim and final revdot differ by the individual deviations weighted by powers of nu and nu', for full and partial groups; acceptance on nested grids forces every claim even for adversarial error terms; evaluating the folded polynomial equals folding the evaluations in circuit; polynomial folding and error-term computation reject too many claims (evaluation folding does not check, shown by a witness).", "quantifier": "all group counts and sizes, every number of claims up to capacity", "why_tests_cant": "padding of partial groups for all counts", "anchors": ["crates/ragu_pcd/src/internal/fold_revdot.rs: fold_inner, fold_outer, fold_two_layer, inner_error_terms, outer_error_terms, ClaimFolder"]}
{"id": "C28", "title": "Claims and expected values are listed in the same order", "statement": "Building claims from one proof or from two proofs yields a list in which the i-th (a,b) pair is matched with the right k(y) value: raw claims with c, application circuits with the application k, hashes_1 with the bridge k, the four unified circuits with the unified k and every bonding claim with zero, and no claim is left unmatched.", "quantifier": "native: every number of proofs in the source, all polynomials; nested: one proof, the only number for which its value iterator is right (refuted for every other number)", "why_tests_cant": "ordering contract between two independently written iterators", "anchors": ["crates/ragu_pcd/src/internal/native/claims.rs: build, ky_values", "crates/ragu_pcd/src/internal/nested/claims.rs: build, ky_values"]}
{"id": "C29", "title": "Endoscaling steps cover every input exactly once", "statement": "Splitting a Horner accumulation of P points into steps of four processes every point exactly once and in order, the last interstitial is the full accumulation, and each step circuit accepts exactly the next interstitial.", "quantifier": "every number of points from two on (one point: the step circuit panics, recorded as refuted), every list of non-identity points, every endoscalar", "why_tests_cant": "chunk boundaries for all P", "anchors": ["crates/ragu_pcd/src/internal/endoscalar.rs: num_steps, PointsWitness::new, EndoscalingStep::input_range"]}
{"id": "C30", "title": "Boolean gadgets are sound and complete", "statement": "Every Boolean wire produced by the library is 0 or 1 in any satisfying assignment, not/and/conditional select/conditional enforce/is_zero/is_equal/multipack compute the logical function, and honest witnesses always satisfy the constraints.", "quantifier": "every assignment satisfying the emitted constraints, every field", "why_tests_cant": "soundness quantifies over all malicious assignments", "anchors": ["crates/ragu_primitives/src/boolean.rs: Boolean::alloc, not, and, conditional_select, conditional_enforce_equal, is_zero, is_equal, multipack"]}
{"id": "C31", "title": "Field element gadgets are sound and complete", "statement": "mul, square, invert, divide, fold, sum, is-root-of-unity and alloc-square constrain their outputs to the exact field function of the inputs on every satisfying assignment; where the result is undetermined (0/0) this is exactly the documented exception.", "quantifier": "every satisfying assignment", "why_tests_cant": "all malicious assignments", "anchors": ["crates/ragu_primitives/src/element.rs: mul, square, alloc_square, invert, invert_with, div_nonzero, fold, enforce_root_of_unity, enforce_zero, enforce_nonzero"]}
{"id": "C32", "title": "Point gadgets follow the curve group law", "statement": "Allocated points lie on the curve; doubling, incomplete addition, double-and-add, endomorphism, negation and conditional variants return the group-law result for every satisfying assignment outside the documented exceptional cases, and the nonzero accumulator is nonzero exactly when no exceptional case occurred.", "quantifier": "every pair of curve points, every satisfying assignment, every curve y^2 = x^3 + b", "why_tests_cant": "all points", "anchors": ["crates/ragu_primitives/src/point.rs: alloc, double, add_incomplete, double_and_add_incomplete, endo, negate, conditional_endo, conditional_negate"]}
{"id": "C33", "title": "Endoscalar lifting and scaling agree", "statement": "The in-circuit lift equals the native lift for every bit pattern; multiplying a point by an endoscalar in-circuit equals multiplying it by the lifted scalar.", "quantifier": "every bit string, every point outside exceptional cases", "why_tests_cant": "2^128 bit patterns", "anchors": ["crates/ragu_primitives/src/endoscalar.rs: Endoscalar::lift, group_scale, lift_endoscalar, extract"]}
{"id": "C34", "title": "The sponge refines the duplex specification", "statement": "Any interleaving of absorb and squeeze calls yields exactly the outputs of the textbook sponge with the same rate; saving the state and resuming it gives the same squeezes as continuing without the save; the documented misuse errors are raised in exactly those modes.", "quantifier": "every sequence of absorb/squeeze/save/resume calls, every permutation", "why_tests_cant": "histories", "anchors": ["crates/ragu_primitives/src/poseidon.rs: Sponge::absorb, squeeze, save_state, resume_and_squeeze"]}
{"id": "C35", "title": "Transcript domain separation", "statement": "Transcripts created with different tags absorb different element sequences, whatever follows; equal tags absorb equal sequences.", "quantifier": "every pair of byte-string tags", "why_tests_cant": "all tags and lengths; chunking can create ambiguities at chunk boundaries", "anchors": ["crates/ragu_pcd/src/internal/transcript.rs: Transcript::new"]}
{"id": "C36", "title": "Header encodings separate types and values", "statement": "Distinct header suffixes encode to distinct numbers, internal suffixes never collide with application suffixes, a padded header always has exactly the configured size with the suffix last, oversize data is an error, and two headers with the same suffix and the same number of elements encode equally only if their data are equal.", "quantifier": "every suffix, every data vector, every header size", "why_tests_cant": "all headers", "anchors": ["crates/ragu_pcd/src/header.rs: Suffix::get", "crates/ragu_pcd/src/step/internal/padded.rs: for_header", "crates/ragu_pcd/src/internal/suffix.rs: WithSuffix"]}
{"id": "C37", "title": "Step registration and circuit indices line up", "statement": "Registering steps in order gives every step the registry slot its index computes to; registering out of order, or two different header types with one suffix, is rejected; internal circuit indices equal their position in the finalised registry; indices of distinct steps and circuits are distinct.", "quantifier": "every sequence of registrations", "why_tests_cant": "all histories", "anchors": ["crates/ragu_pcd/src/lib.rs: ApplicationBuilder::register, prevent_duplicate_suffixes", "crates/ragu_pcd/src/step/mod.rs: Index::circuit_index, assert_index", "crates/ragu_pcd/src/internal/native/mod.rs: InternalCircuitIndex::circuit_index", "crates/ragu_circuits/src/registry.rs: RegistryBuilder"]}
{"id": "C38", "title": "The multi-quotient evaluation matches the prover's polynomial", "statement": "If every claimed evaluation is correct, then the value f(u) recomputed by the verifier circuit from p_i(u), v_i and 1/(u - x_i) equals the prover's f polynomial at u, for the same query order and alpha; if some claimed evaluation is wrong, agreement can only happen for a bounded number of u.", "quantifier": "every list of polynomials and query points, every alpha, every u not a query point", "why_tests_cant": "identity in u and alpha of arbitrary degree", "anchors": ["crates/ragu_pcd/src/fuse/_08_f.rs: compute_native_f", "crates/ragu_pcd/src/internal/native/circuits/compute_v.rs: poly_queries, Inverter"]}
{"id": "C39", "title": "Tracked commitments equal direct commitments", "statement": "The commitment to the folded a polynomial computed from the recorded linear combination of child commitments equals committing to the folded polynomial directly; duplicate keys are merged without changing the result.", "quantifier": "every sequence of sums and folds, all child polynomials", "why_tests_cant": "all fold trees", "anchors": ["crates/ragu_pcd/src/fuse/claims.rs: TrackedPoly, CommitmentDecomposition", "crates/ragu_pcd/src/fuse/_06_ab.rs: compute_native_ab"]}
{"id": "C40", "title": "The simulator accepts exactly the satisfying executions", "statement": "Running a circuit in the simulator succeeds if and only if every gate equation and linear constraint emitted holds for the values, and the counters equal the numbers of emitted gates, allocations and constraints.", "quantifier": "every sequence of driver operations and values", "why_tests_cant": "all programs", "anchors": ["crates/ragu_primitives/src/simulator.rs: Simulator::gate, enforce_zero, alloc", "crates/ragu_core/src/drivers.rs: Driver defaults"]}
{"id": "C41", "title": "Fixed-length vectors always have their length", "statement": "Every FixedVec obtained through the public API has the length of its type parameter; conversions from other lengths are rejected with the expected and actual lengths.", "quantifier": "every construction sequence", "why_tests_cant": "all lengths", "anchors": ["crates/ragu_primitives/src/vec.rs: FixedVec, CollectFixed"]}
{"id": "C42", "title": "136-bit endoscalar integers are integers modulo 2^136", "statement": "Every operation the type has (conversion from u64 and u128, sampling, equality, and, or, left and right shift) refines the operation on integers modulo 2^136, every value has one representation, and bit i of a shift is the expected bit.", "quantifier": "every operand and shift amount", "why_tests_cant": "2^136 operands", "anchors": ["crates/ragu_arithmetic/src/uendo.rs: Uendo"]}
{"id": "C43", "title": "Claim polynomials and their evaluations", "statement": "For every list of proofs the claim builder pushes, for each claim, a = the raw a, the trace, the sum of the traces or their z-fold, and b = the raw b, a(zX)+s(X)+t(X,z) or the mask, coefficient by coefficient; the tracked builder used while fusing builds the same polynomials together with a correct decomposition over their sources; and the in-circuit evaluation processor, given the evaluations of the sources, computes exactly A(xz) and B(x) of the prover's two-layer folded polynomials.", "quantifier": "every nonempty list of proofs within the folding capacity, all polynomials, all challenges", "why_tests_cant": "agreement of three independent traversals of the same claim list for all inputs", "anchors": ["crates/ragu_pcd/src/internal/claims.rs: Builder, sum_polynomials, fold_bonding_polys", "crates/ragu_pcd/src/fuse/claims.rs: FuseBuilder", "crates/ragu_pcd/src/internal/native/circuits/compute_v.rs: EvaluationProcessor, compute_axbx"]}
{"id": "C44", "title": "Step outputs and the internal steps", "statement": "The output wires of every step circuit are its left, right and output headers, each padded to the header size, in that order; the rerandomize circuit does not depend on the header being rerandomized and is satisfied exactly when the output header equals the left header and the right header is trivial; the trivial circuit outputs three trivial headers; a padded header ends in the trivial marker exactly when its suffix is the trivial one.", "quantifier": "every header size, suffix and data vector, every witness", "why_tests_cant": "uniformity of the circuit over all header types and satisfaction by all witnesses", "anchors": ["crates/ragu_pcd/src/step/internal/adapter.rs: Adapter", "crates/ragu_pcd/src/step/encoder.rs: Encoded::write, new_uniform", "crates/ragu_pcd/src/step/internal/rerandomize.rs", "crates/ragu_pcd/src/step/internal/trivial.rs"]}
{"id": "C45", "title": "Unified instance coverage", "statement": "Each of the 21 fields of the unified instance is established by exactly one of the five recursion circuits; threading the instance through the circuits from the empty coverage reports complete coverage exactly after the last one; providing a field twice, or finishing a circuit that establishes an already covered field, fails; a point at infinity is rejected.", "quantifier": "every honest step, every builder state", "why_tests_cant": "all builder states and all instances", "anchors": ["crates/ragu_pcd/src/internal/native/unified.rs: OutputBuilder, Slot, Coverage, Instance", "crates/ragu_pcd/src/fuse/_11_circuits.rs: compute_internal_circuits"]}
{"id": "C46", "title": "Hash circuits check one transcript", "statement": "hashes_1 accepts exactly the roots-of-unity, instance-polynomial and first-half transcript conditions and publishes the instance with the children's headers; hashes_2 accepts exactly the second half resumed from the stored sponge state; both together accept exactly the instances whose eleven challenges come from a single uninterrupted transcript.", "quantifier": "every witness, instance, tag and parameter set", "why_tests_cant": "exactness over all witnesses", "anchors": ["crates/ragu_pcd/src/internal/native/circuits/hashes_1.rs", "crates/ragu_pcd/src/internal/native/circuits/hashes_2.rs", "crates/ragu_pcd/src/internal/transcript.rs"]}
{"id": "C47", "title": "Collapse circuits check the two folding layers", "statement": "inner_collapse accepts exactly when every stored collapsed value is the fold of its group of claimed values and error terms; outer_collapse accepts exactly when c is the fold of the collapsed values, except in the base case where c is free; together they fix c to the two-layer collapse used in the folding soundness theorem.", "quantifier": "every witness and instance, all group sizes and counts", "why_tests_cant": "exactness over all witnesses", "anchors": ["crates/ragu_pcd/src/internal/native/circuits/inner_collapse.rs", "crates/ragu_pcd/src/internal/native/circuits/outer_collapse.rs"]}
{"id": "C48", "title": "Children's instance polynomials", "statement": "The three values taken of each child at y are the native instance polynomials of exactly what the child's application circuit, its plain recursion circuits and its hashes_1 circuit publish; two different published vectors of equal length agree at no more points than their length.", "quantifier": "every child, every y", "why_tests_cant": "two independent encodings of the same vectors for all inputs", "anchors": ["crates/ragu_pcd/src/internal/native/stages/preamble.rs: unified_ky_values, application_ky", "crates/ragu_circuits/src/lib.rs: ky"]}
{"id": "C49", "title": "A recursion step as a whole", "statement": "The five recursion circuits accept and publish the same instance values if and only if one instance satisfies the conjunction of the transcript, root-of-unity, instance-polynomial, two-layer collapse and evaluation conditions on the shared stage values.", "quantifier": "every stage witness and instance", "why_tests_cant": "exactness over all witnesses", "anchors": ["crates/ragu_pcd/src/internal/native/circuits/mod.rs", "crates/ragu_pcd/src/fuse/_11_circuits.rs"]}
{"id": "C50", "title": "Circuit code is generic in its driver", "statement": "Every recursion circuit, the endoscaling step and the step adapters make the same driver calls and return the same wires with and without witness data. The wired emulator computes the values an honest run computes, and the wireless emulator computes the same values without wires.", "quantifier": "every stage data, instance, parameter choice and driver", "why_tests_cant": "parametricity over all witnesses and drivers", "anchors": ["crates/ragu_core/src/drivers/emulator.rs", "crates/ragu_pcd/src/internal/native/circuits/", "crates/ragu_pcd/src/step/internal/adapter.rs", "crates/ragu_circuits/src/lib.rs: Circuit"]}
{"id": "C51", "title": "An accepted polynomial is a run of the circuit's code", "statement": "For circuit code that is generic in its driver: the registered constraints are satisfiable with given outputs exactly when the gadget relations of the code are; every run meeting the relations has a trace polynomial passing the circuit claim at all challenges; a polynomial of degree below 4n passing at 4n x 4n challenges comes from such a run. In particular an accepted rerandomization polynomial keeps its header.", "quantifier": "every field, generic circuit code, rank, outputs, polynomial and challenge set of that size", "why_tests_cant": "quantifies over all circuits, all adversarial polynomials and all challenges", "anchors": ["crates/ragu_circuits/src/lib.rs: Circuit", "crates/ragu_circuits/src/raw.rs", "crates/ragu_circuits/src/s/sy.rs", "crates/ragu_circuits/src/trace.rs", "crates/ragu_pcd/src/step/internal/rerandomize.rs"]}
{"id": "C52", "title": "Accepted stage polynomials carry values meeting the multi-stage code", "statement": "For multi-stage circuit code that is generic in its driver: stage polynomials passing their stage masks, a final polynomial passing the final mask, and a combined polynomial passing the circuit claim at enough challenges carry stage values that meet the gadget relations of the code. Conversely values meeting the relations are carried by stage polynomials (any blinding) that pass every check.", "quantifier": "every field, list of stages, generic code, rank, polynomials and challenge set of that size", "why_tests_cant": "quantifies over all stage layouts, all adversarial polynomials and all challenges", "anchors": ["crates/ragu_circuits/src/staging/mod.rs: MultiStageCircuit, MultiStage", "crates/ragu_circuits/src/staging/builder.rs", "crates/ragu_circuits/src/staging/mask.rs"]}
{"id": "C53", "title": "Accepted polynomials of a recursion step prove the step relation", "statement": "Five stage polynomials (preamble, outer error, inner error, query, eval) passing their stage masks, and for each of the five recursion circuits a final and a combined polynomial passing its checks against the published instance at enough challenges, carry stage values for which the step relation holds: one transcript yields every challenge, the children's instances have the stated k(y), the collapsed values and c are right, and v is the folded opening. The published headers are the children's output headers. Conversely a step meeting the relation has such polynomials for every choice of blinds, and the stage polynomials are shared by all circuits.", "quantifier": "every field with the stated square-root facts, every sponge instance, header size, M, N, rank, published instance, polynomials and challenge set of that size", "why_tests_cant": "quantifies over adversarial polynomials for all ten stages and circuits at once, and over all instances", "anchors": ["crates/ragu_pcd/src/internal/native/circuits/hashes_1.rs", "crates/ragu_pcd/src/internal/native/circuits/hashes_2.rs", "crates/ragu_pcd/src/internal/native/circuits/inner_collapse.rs", "crates/ragu_pcd/src/internal/native/circuits/outer_collapse.rs", "crates/ragu_pcd/src/internal/native/circuits/compute_v.rs", "crates/ragu_pcd/src/internal/native/stages/", "crates/ragu_circuits/src/staging/"]}
{"id": "C54", "title": "The verifier accepts exactly the proofs whose claims hold, and acceptance proves the step", "statement": "Application::verify returns true exactly when the proof names a circuit of the registry's domain, its headers have the header size, its header data encodes, its eight points are finite, and every native claim, nested claim, opening, commitment and registry check holds for the wiring polynomials of the finalised registries. A proof accepted at enough challenges shows a run of the code of the step it names between the children's headers and the claimed header, and the recursion step relation over its five stages, with its own folded claim, opening and commitment. Its registry polynomial is the application's. Conversely, given a run of the step and a recursion step with those headers, there are traces for any blinds that the verifier accepts at all challenges. An application builds exactly when each of its circuits can be built and both registries have room for them.", "quantifier": "every application that builds (all steps, code generic in its driver, all parameters), every proof with well-formed polynomials, every header, all challenges; for soundness every set of 4n challenges y with 4n challenges z each", "why_tests_cant": "quantifies over all applications, adversarial proofs and challenges", "anchors": ["crates/ragu_pcd/src/verify.rs", "crates/ragu_pcd/src/proof/mod.rs", "crates/ragu_pcd/src/internal/native/mod.rs: register_all", "crates/ragu_pcd/src/lib.rs: ApplicationBuilder::finalize", "crates/ragu_circuits/src/registry.rs"]}
{"id": "C55", "title": "An accepted proof names the circuit of a step", "statement": "If the header suffix of the claimed header is not the one of internal circuits (zero), a proof accepted at enough challenges carries a circuit id that is the index of an internal or application step, never that of an internal recursion circuit, of a stage mask or of an empty slot of the domain.", "quantifier": "every application that builds, every proof with well-formed polynomials, every header with nonzero suffix, every set of 4n challenges y with 4n challenges z each", "why_tests_cant": "a prover may name any index and choose any polynomial; the tests try one wrong id", "anchors": ["crates/ragu_pcd/src/verify.rs", "crates/ragu_pcd/src/internal/suffix.rs", "crates/ragu_pcd/src/internal/native/circuits/", "crates/ragu_circuits/src/registry.rs"]}
{"id": "C56", "title": "Accepted nested polynomials carry an endoscaled Horner sum, and honest ones are accepted", "statement": "The registry of the other curve's circuits builds exactly when every endoscaling step fits the rank, its two stages and the chain of bridge stages fit it and there is room for the circuits. Nested polynomials of a proof that are accepted at enough challenges carry, in the endoscalar and points stages, bits, an initial point, inputs and interstitials that meet the relations of every endoscaling step; each polynomial uses only the gates of its own part. If the carried bits are those of an endoscalar and the carried points are finite points of the curve, the interstitials are the partial sums of the Horner rule in the lifted endoscalar, and the last is the combination of all points. Conversely wires that meet the relations of every step, with any blinds and bridge values, have polynomials that pass at every challenge, and so does the prover's witness unless an addition meets equal or opposite points. The same holds of whole proofs and Application::verify.", "quantifier": "every field with its two-adic data, every rank, number of points and number of bits, every polynomial, every set of 4n challenges y with 4n challenges z each; for the curve part every curve of the CurveGroup laws", "why_tests_cant": "quantifies over all curves, witnesses, adversarial polynomials and challenges", "anchors": ["crates/ragu_pcd/src/internal/nested/mod.rs", "crates/ragu_pcd/src/internal/nested/stages/mod.rs", "crates/ragu_pcd/src/internal/nested/claims.rs", "crates/ragu_pcd/src/internal/endoscalar.rs", "crates/ragu_pcd/src/verify.rs"]}
{"id": "C57", "title": "A step of the prover ends well, its circuits run, and every tree of fused proofs verifies", "statement": "Application::fuse on two well-formed child proofs completes unless a commitment it must hash is the identity or one of the inverted challenges mu, mu' is zero; its challenges are those of the Fiat-Shamir transcript of the bridge commitments. If both children carry the trivial header, or the claims of both hold, and x and z are nonzero and u is not one of the points opened, the values computed outside the circuits meet the step relation, the stage and bridge polynomials carry them, the five recursion circuits run on them and cover the instance. With passing traces (which exist for every run of the application step, and over a curve with its endomorphism whenever no endoscaled addition meets equal or opposite points) the returned proof is again well formed, its claims hold for the new header, and Application::verify accepts it at every challenge. Hence every fused proof of a tree of any shape and depth over trivial proofs is accepted for its header.", "quantifier": "every application that builds with 37 endoscaled points in nine steps, all fields with their two-adic data, every rank, header size, claim layout M x N of at least 22, sponge parameters, generators, blinds, child proofs, headers, steps, and every tree of fusions", "why_tests_cant": "tests fuse a few trees of fixed shape with one seed over one cycle of curves; the claim is an invariant over all child proofs, all randomness and all trees, including accumulated (non-fresh) polynomials", "anchors": ["crates/ragu_pcd/src/fuse/mod.rs", "crates/ragu_pcd/src/fuse/", "crates/ragu_pcd/src/proof/mod.rs", "crates/ragu_pcd/src/verify.rs", "crates/ragu_pcd/src/internal/native/circuits/"]}
{"id": "C58", "title": "Seeding and rerandomising return proofs that verify, and only for the right header", "statement": "Fusing two proofs made by the application (both fused, or both with the trivial header) by a step whose circuit has a run from their headers to (s, d) never fails on sizes or indices: it ends in an error that is due to a zero challenge or a point at infinity, or, unless a challenge is exceptional, returns a proof of the application that Application::verify accepts for (s, d) at every challenge. Hence Application::seed returns an accepted proof for every such step, the seeded trivial proof is accepted for the trivial header, and Application::rerandomize returns, for a proof with any header, a proof accepted for the same header. Conversely an accepted proof that names the rerandomisation step carries the header of its left child and its right child is trivial; and the bare trivial proof is not accepted for any header suffix other than that of the internal circuits.", "quantifier": "every application that builds, every tree of proofs it makes, every header that fits, all blinding factors, all steps, all challenges", "why_tests_cant": "tests seed and rerandomise one or two headers with a fixed seed; that the header is preserved for all headers and cannot be changed by any prover, and that no set of enough challenges accepts the trivial proof, is quantified over all proofs and challenges", "anchors": ["crates/ragu_pcd/src/lib.rs", "crates/ragu_pcd/src/step/internal/rerandomize.rs", "crates/ragu_pcd/src/step/internal/trivial.rs", "crates/ragu_pcd/src/step/internal/adapter.rs", "crates/ragu_pcd/src/proof/mod.rs"]}
{"id": "C59", "title": "The Pasta constants: literals, Poseidon parameters, field facts", "statement": "The literal macro `repr256!` accepts exactly the integers below 2^256 and yields their four little-endian 64-bit digits. Every literal of the four Poseidon tables (round constants and matrix, for Fp and for Fq) compiles and is the canonical representative of the element it denotes. Both parameter sets are well-formed (64 rows of 5 constants, a 5 by 5 matrix, alpha = 5, rate 4 of 5). Both matrices are maximum distance separable: a nonzero state and its image have at least six nonzero coordinates between them. Both Poseidon permutations are bijections on the states of five elements. In both fields 5 is not a square and of x and 5x one is a square (the endoscalar extraction relies on it), x^3 + 5 has no root (no curve point has y = 0), and the registry's lookup keys, the low 64 bits of 5w, are pairwise different over every domain of up to 2^13 roots of unity.", "quantifier": "every literal; every state of five elements of Fp and Fq; every field element; every pair of 2^k-th roots of unity for k <= 13", "why_tests_cant": "A test can hash a few inputs; that the permutation has no two colliding states, that no sparse state pair defeats the matrix, and that every field element has a square among x and 5x are statements about 2^1275 states and 2^254 elements. The constants have to be checked against the properties the design assumes of them, not against themselves.", "anchors": ["crates/ragu_macros/src/proc/repr.rs:7-28", "crates/ragu_pasta/src/macros.rs:4-19", "crates/ragu_pasta/src/poseidon_fp.rs:11-512", "crates/ragu_pasta/src/poseidon_fq.rs:11-512", "crates/ragu_circuits/src/registry.rs:339-354", "crates/ragu_primitives/src/endoscalar.rs:70-100"]}
{"id": "C60", "title": "Derived gadgets: wire maps, equality, consistency, serialization, promotion, prediction", "statement": "The three derive macros read a field's attributes alike: exactly one of value/wire/gadget/phantom, or none for a gadget. Mapping any well-typed gadget (derived structs, arrays, pairs, boxes, fixed vectors, demoted gadgets, nested to any depth) through any stateful, fallible wire map converts its wires from left to right, each once, stops at the first error with the state reached there, and otherwise returns a gadget of the same type with the converted wires and (if the destination carries values) the same values; stateless maps compose. num_wires is the number of wires and depends on the type alone; the emulator's extractor lists the wires in order; cloning is the identity; stripping keeps all but the wires. Two gadgets of one type are constrained equal exactly when all wires agree, with one constraint per wire. enforce_consistent constrains exactly that every Boolean wire is 0 or 1 and every Point is on the curve; with a witness it succeeds exactly if values and wires also agree. Serialization writes the non-skipped wires as elements from left to right with their values, into any buffer, and through a pipe allocates one element per written element with the same values. Demotion drops the values only, commutes with mapping, and promotion restores a Boolean. Answering the t(x,z) routine from its prediction, executing it without wires, and executing it on the simulator give the same element, and fail for the same inputs.", "quantifier": "every well-typed gadget of any shape and size; every wire map, state and error; every buffer; every field; every x, z, k", "why_tests_cant": "The code is generated by macros for types that do not exist yet; tests cover a handful of structs. The claims range over all declarations (attributes, nesting, lengths), all wire maps including failing and stateful ones, and all wire assignments.", "anchors": ["crates/ragu_macros/src/derive/gadget.rs:94-290", "crates/ragu_macros/src/derive/consistent.rs:49-108", "crates/ragu_macros/src/derive/gadgetwrite.rs:51-142", "crates/ragu_core/src/convert.rs:51-146", "crates/ragu_core/src/gadgets.rs:125-242", "crates/ragu_core/src/gadgets/foreign.rs:15-182", "crates/ragu_primitives/src/promotion.rs:85-190", "crates/ragu_primitives/src/consistent.rs:29-58", "crates/ragu_primitives/src/foreign.rs:13-61", "crates/ragu_primitives/src/io/pipe.rs:15-36", "crates/ragu_core/src/drivers/emulator.rs:173-192", "crates/ragu_core/src/drivers/emulator.rs:340-349"]}
{"id": "C61", "title": "Accumulation: forked steps force both children's deferred checks", "statement": "A step only folds its children's claims (revdot claim, opening, registry polynomial, circuit and stage checks) into one claim and one opening. If it can be run, with the two children fixed, so that the fused claim and opening hold at enough values of each challenge (w, y, z, mu, nu, mu', nu', x, alpha, u, beta, each message chosen only from what precedes it), then each child's revdot claim and opening hold, each child's registry polynomial is the registry's at the child's (x, y), and each child's application circuit, internal circuits and stages pass their checks at enough (y, z). Hence for two children of a step in a finalized application: a run of the code of the step each child names, on its headers, ending with its output header; an execution of the recursion step behind it; its claim, opening and registry value. This is what C54 obtains for a proof the verifier accepts, here for children no verifier looked at. Conversely, if the children's openings, registry polynomials and checks hold at all challenges, such forked runs exist; two proofs accepted by the verifier at all challenges are an instance. The recursion relation of a step (C54, C57) with the fused claim and opening is one run.", "quantifier": "every pair of children (values and polynomials) not both trivial, every field, registry, grid M x N with M*N >= 22, every prover strategy in the forked runs; every finalized application for the consequences", "why_tests_cant": "Tests fuse honest children and see the result accepted. That folding loses nothing - that no dishonest child, with any messages, survives enough challenges - quantifies over all polynomials and all prover strategies.", "anchors": ["crates/ragu_pcd/src/fuse/mod.rs:51-190", "crates/ragu_pcd/src/fuse/_06_ab.rs:53-110", "crates/ragu_pcd/src/fuse/_08_f.rs:76-184", "crates/ragu_pcd/src/fuse/_10_p.rs:51-180", "crates/ragu_pcd/src/internal/native/circuits/inner_collapse.rs", "crates/ragu_pcd/src/internal/native/circuits/outer_collapse.rs", "crates/ragu_pcd/src/internal/native/circuits/compute_v.rs", "crates/ragu_pcd/src/internal/claims.rs"]}
{"id": "C62", "title": "What an accepted proof says: its header is computed by a tree of the application's steps", "statement": "Call a header computed if it is the trivial one, or if some step of the application relates two computed headers to it (suffixes and data of its header types, data related by a satisfied run of the step's witness function). Let a proof be accepted by the verifier at enough challenges for a suffix that is not 0 and data that is empty if the suffix is the trivial one, and let its ancestors be available: recursively, a proof whose header is trivial or whose two input headers are trivial needs none, and any other has two children with its left and right header over which its step can be forked (C61). Then the claimed header is computed; rerandomisation and the trivial step add nothing. The circuits the application registers (witness function through the adapter, rerandomize, trivial) mean the steps in this sense. Every proof an application makes by seeding, fusing and rerandomising has its ancestors.", "quantifier": "every finalized application, every list of step witness functions, every proof tree of any depth, every header", "why_tests_cant": "Tests build small honest trees and check acceptance. The claim is the converse, by induction over trees of any depth: no accepted proof with extractable ancestors can carry a header that no tree of steps computes.", "anchors": ["crates/ragu_pcd/src/lib.rs", "crates/ragu_pcd/src/verify.rs", "crates/ragu_pcd/src/header.rs", "crates/ragu_pcd/src/step/mod.rs", "crates/ragu_pcd/src/step/internal/adapter.rs", "crates/ragu_pcd/src/step/internal/rerandomize.rs", "crates/ragu_pcd/src/step/internal/trivial.rs", "crates/ragu_pcd/src/fuse/mod.rs"]}
{"id": "C63", "title": "The production instantiation over the Pasta cycle: circuit sizes, capacity, and what an accepted proof says there", "statement": "At the constants the code fixes (Pasta fields, Poseidon parameters, ProductionRank, 19 groups of 7, headers of 65 elements as in the crate's tests): the five recursion circuits of an application whose registry has 2^log2 places have the gate and constraint numbers 2019+2 log2 / 3370+4 log2, 1879/2951, 1756/1918, 811/808, 1140/1773 (at log2 = 13 the numbers the crate pins), the stages take the pinned places; all thirteen native circuits compile exactly if log2 <= 14, all nested ones always; an application whose steps register and compile can be built exactly if it has at most 8192 - 15 steps. Over this instantiation the hypotheses of C62 on constants hold: an accepted proof with its ancestors carries a header computed by a tree of steps, and every proof made by seeding, fusing and rerandomising is accepted at every challenge, has its ancestors, and its header is computed. On both curves no point has a zero coordinate, so doubling and the addition of a point and its endomorphism image are defined everywhere.", "quantifier": "every application (any number of steps, any step circuits), every registry size up to 2^32, every square root function, hash and metric constants, every proof", "why_tests_cant": "The crate's tests pin the numbers for one application with 6000 steps; the formulas and the exact capacity hold for every number of steps, and the soundness statement quantifies over all proofs.", "anchors": ["crates/ragu_pcd/src/internal/tests.rs", "crates/ragu_pcd/src/internal/native/mod.rs", "crates/ragu_pcd/src/internal/nested/mod.rs", "crates/ragu_circuits/src/polynomials/mod.rs", "crates/ragu_pasta/src/lib.rs", "crates/ragu_pcd/src/lib.rs", "crates/ragu_circuits/src/registry.rs"]}
{"id": "C64", "title": "The hash tree application of the end-to-end tests: what its proofs show", "statement": "For the application of the crate's end-to-end test (the steps WitnessLeaf and Hash2, headers of 4 elements, over Pasta at the production rank): the circuit of WitnessLeaf admits exactly the outputs Poseidon(x), that of Hash2 exactly x, y and Poseidon(x, y), and honest execution computes them with the stated numbers of gates and constraints; a header is computed by a tree of these steps exactly if it is the trivial one, the padded hash of some x with the leaf suffix, or the padded hash of two hashes with the node suffix; the application can be built; a proof accepted often enough together with its ancestors carries a header for which such preimages exist; every proof the application makes is accepted at every challenge; seeding with x and fusing two leaves return proofs with exactly these headers unless the run meets an exceptional challenge or a point at infinity.", "quantifier": "every leaf value, every proof, every choice of hash and metric constants, square root function, generators and curve; the step and header parts for every field and well-formed Poseidon parameters with rate at least 2", "why_tests_cant": "The end-to-end test runs the application on one pair of random leaves; that no accepted proof can carry a header without preimages, and that honest runs succeed for all leaves and challenges, quantifies over all proofs and inputs.", "anchors": ["crates/ragu_testing/src/pcd/nontrivial.rs", "crates/ragu_pcd/tests/nontrivial.rs", "crates/ragu_primitives/src/poseidon.rs", "crates/ragu_pcd/src/step/internal/adapter.rs", "crates/ragu_pcd/src/lib.rs", "crates/ragu_pcd/src/header.rs"]}
{"id": "C65", "title": "The test fixtures: circuits of the crates' tests from code to accepted polynomial, and registry handles", "statement": "MySimpleCircuit admits exactly the outputs a+b, a-b with a^5 = b^2; the simulator accepts exactly such witnesses with 2 allocations, 4 gates and 9 constraints; it fits exactly the ranks with at least 6 gates; there a polynomial accepted at enough challenges for c, d shows that such a, b exist (in characteristic other than two: (c+d)^5 = 8 (c-d)^2), and every such a, b have a polynomial that passes at all challenges. SquareCircuit, for every number of squarings, outputs exactly the 2^times-th powers, fits exactly the ranks with at least times + 2 gates, and has the same soundness and completeness. The handles of the test registry builder name the places of their objects exactly if no circuit is registered after a bonding object; after a refused circuit every call panics.", "quantifier": "every field, rank, witness, public input, polynomial, number of squarings, and every sequence of builder calls", "why_tests_cant": "The tests run these circuits on single witnesses and ranks; that no polynomial is accepted for other public inputs quantifies over all polynomials.", "anchors": ["crates/ragu_testing/src/circuits/mod.rs", "crates/ragu_testing/src/registry.rs", "crates/ragu_circuits/src/registry.rs", "crates/ragu_primitives/src/element.rs"]}
{"id": "C66", "title": "Values that exist or not: Maybe is option, erased code runs through, the phantom driver", "statement": "For both kinds (Always, Empty) the operations of Maybe are those of option, with a value present for a whole driver or not at all: just, map, and_then, into, writing through as_mut, take exactly when there is a value, and cast of tuples and arrays of any size, whose components come out in order. Code over such values run at kind Empty neither panics nor returns an error nor runs a closure, whatever its closures do, and leaves as many values as the same code at kind Always. On the phantom driver generic circuit code runs through exactly if it compiles, with the same number of output elements, and always if its relations can be met. The tuple macro generates an impl for exactly the sizes from two to its argument.", "quantifier": "every value type, closure (with effects and panics), statement sequence, tuple of types, and every generic circuit", "why_tests_cant": "The crate tests single closures and tuples up to six components; that no closure of any code is run without values is a statement about all code.", "anchors": ["crates/ragu_core/src/maybe/mod.rs", "crates/ragu_core/src/maybe/always.rs", "crates/ragu_core/src/maybe/empty.rs", "crates/ragu_core/src/maybe/cast.rs", "crates/ragu_core/src/drivers/phantom.rs", "crates/ragu_macros/src/proc/maybe_cast.rs"]}
{"id": "C67", "title": "Routine fingerprints depend on exactly the constraints of a routine", "statement": "metrics::eval records the root segment without an identity and then one identity per routine call, in call order, and the identity is a function of the routine's number of inputs and its own driver calls only: a seed and the constraints as linear forms over the places of the wires, weighed by powers of y, plus the two counts. It is the same in every circuit and when the routine is fingerprinted alone, and does not depend on witness values, predictions or the caller's wires. Two routines whose fingerprints agree for all constants of large enough sets have the same sizes, the same number of constraints and the same coefficients in every constraint; conversely such routines are never told apart. At one point of the other constants fewer than m values of y make routines with m constraints of unequal values collide. Two fingerprints compare equal exactly if types, counts and the low 64 bits of the scalar agree. Equal fingerprints do not imply structural equivalence once routines call others (metrics.rs claims they do): two routines of the test suite agree for all constants although only one forces its input to zero.", "quantifier": "every circuit program and routine, every choice of the seven constants, every field", "why_tests_cant": "tests/identity.rs compares a few pairs of routines at the one derived point; independence of context and separation of all unequal routines quantify over all programs and points.", "anchors": ["crates/ragu_circuits/src/metrics.rs", "crates/ragu_arithmetic/src/util.rs"]}
{"id": "C68", "title": "The macros substitute what they should in types and generic parameters", "statement": "For types whose placeholders are in paths, tuples, angle brackets and bounds: what Kind! writes has, under every meaning of type constructs, the meaning of the given type with _ read as PhantomData of the field type and '_ as 'static; no placeholder is left and types without any are unchanged. In the generic parameters of a derived GadgetKind impl, D::F has become DriverField and nothing else changed; if the struct names its driver only as D::F, the impl's parameters do not name it. Rebind at the driver and its lifetime is the struct's own type, Kind is the impl's type at the driver's field, and the impl's type uses only declared parameters. The driver is D with 'dr unless a type parameter is marked; then the first marked one with the only lifetime of its first bound on a trait called Driver, and an error otherwise.", "quantifier": "every type expression, every list of generic parameters, every meaning of the constructs", "why_tests_cant": "The macro unit tests expand a handful of structs and compare tokens; substitution inside arbitrarily nested generic arguments and well-scopedness for all parameter lists quantify over all syntax trees.", "anchors": ["crates/ragu_macros/src/substitution.rs", "crates/ragu_macros/src/helpers.rs", "crates/ragu_macros/src/proc/kind.rs", "crates/ragu_macros/src/derive/mod.rs", "crates/ragu_macros/src/derive/gadget.rs"]}
{"id": "C69", "title": "Reported constraint counts match the wiring polynomials", "statement": "A circuit object reports counts exactly when it is built. Its gate count is the number of gates and at most n; its constraint count c is between 1 and 4n-1, and s(x,Y) is a polynomial of exactly c coefficients whose constant one is the monomial of ONE. The count of a bonding object never underflows and is the number of coefficients left once the constant one is stripped. The count 4n-1 of a stage mask is the number of coefficients of its polynomial in Y, the constant one is zero, and the last one is nonzero exactly when the stage does not hold gate 1.", "quantifier": "every circuit program, every rank, every mask, every x and y", "why_tests_cant": "Tests compare the counts of a few circuits with literals; that the reported numbers are the lengths of the polynomials, and that the subtraction cannot underflow, ranges over all circuits and ranks.", "anchors": ["crates/ragu_circuits/src/lib.rs", "crates/ragu_circuits/src/staging/mask.rs", "crates/ragu_circuits/src/staging/bonding.rs"]}
{"id": "C70", "title": "Gadgets keep the Send contract up to their markers", "statement": "For every gadget type built from derived structs, arrays, pairs, boxes, fixed vectors and demotion that rustc accepts, and every driver with Send wires: the gadget is Send exactly when the types named by its PhantomData fields are; a gadget with a wire is not Send when wires are not; what Sendable claims is then right and demotion keeps it. Refuted as documented: a derived gadget whose marker names a type that is not Send (or the driver) is accepted by the derive macro and by Sendable though it is not Send.", "quantifier": "every gadget type (any nesting), every driver", "why_tests_cant": "The contract of the unsafe trait is about all field types and drivers; tests compile a few gadgets and never assert what must not be Send.", "anchors": ["crates/ragu_core/src/gadgets.rs", "crates/ragu_macros/src/derive/gadget.rs", "crates/ragu_primitives/src/sendable.rs", "crates/ragu_primitives/src/promotion.rs", "crates/ragu_primitives/src/vec.rs"]}
{"id": "C71", "title": "The macros find the crates they name", "statement": "In every crate, whatever names its dependencies have, the paths put into generated code lead to the items of ragu_core and of ragu_primitives; resolution fails exactly when the crate is neither the library nor ragu and depends on neither; and a path leads to one library only.", "quantifier": "every calling crate and every renaming of its dependencies", "why_tests_cant": "No test calls the resolution; the macro tests use the default paths. It depends on the Cargo.toml of the calling crate.", "anchors": ["crates/ragu_macros/src/path_resolution.rs", "crates/ragu_macros/src/lib.rs"]}
{"id": "C72", "title": "Sizes fit machine integers", "statement": "For ranks 2 to 28 on words of at least 32 bits, num_coeffs, n and 4n-1 are computed without overflow and sums of four sizes fit; num_coeffs overflows exactly from the word size on. The floor planner overflows exactly when a total does not fit the word, otherwise it is the unbounded one, and on an accepted circuit's records it never overflows. A checked stage mask is the unbounded one or panics. Refuted without overflow checks: the bound check of StageMask::new accepts arguments over the bound when the sum wraps.", "quantifier": "every word size, rank, list of segment records, accepted circuit and mask arguments", "why_tests_cant": "Tests run on 64-bit words with ranks 7 and 13 only; overflow needs other words, ranks or sizes.", "anchors": ["crates/ragu_circuits/src/polynomials/mod.rs", "crates/ragu_circuits/src/floor_planner.rs", "crates/ragu_circuits/src/staging/mask.rs"]}
{"id": "C73", "title": "Baked parameters are the generated ones", "statement": "The file the build script writes from the generated Pasta parameters is read by the library as exactly these parameters, with nothing left over. A file read without an identity is the one the build script writes for what was read, and this consists of points of the curves in the asked numbers. Writing fails exactly when a parameter is the identity. Fewer than 2^32 generators are the hashes of pairwise different five-byte messages, none the message of the blinding generator; for more the generation panics.", "quantifier": "every pair of curves over fields below 2^256, every hash to the curves, every number of generators, every byte string", "why_tests_cant": "The tests compare one file with one parameter set; wrong files, other numbers and other generators are not tried.", "anchors": ["crates/ragu_pasta/pasta_common.rs", "crates/ragu_pasta/build.rs", "crates/ragu_pasta/src/lib.rs"]}
