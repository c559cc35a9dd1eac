{
 "claims": [
  {
   "property": "C01",
   "status": "proved",
   "theorems": [
    "C01_coeff_mul",
    "C01_coeff_add",
    "C01_coeff_is_zero"
   ],
   "note": "is_zero needs odd characteristic (Two is reported nonzero); the code only uses odd prime fields."
  },
  {
   "property": "C02",
   "status": "proved",
   "theorems": [
    "C02_direct_sum",
    "C02_wire_eval_sum"
   ],
   "note": ""
  },
  {
   "property": "C03",
   "status": "proved",
   "theorems": [
    "C03_eval",
    "C03_dot",
    "C03_geosum"
   ],
   "note": ""
  },
  {
   "property": "C04",
   "status": "proved",
   "theorems": [
    "C04_factor",
    "C04_factor_iter",
    "C04_poly_with_roots"
   ],
   "note": "poly_with_roots under the hypothesis that the required FFT size is available (two-adicity, and 32-bit bit reversal)."
  },
  {
   "property": "C05",
   "status": "proved",
   "theorems": [
    "C05_fft",
    "C05_thread_independent",
    "C05_ifft_fft",
    "C05_log2_floor"
   ],
   "note": "any module over the field (ring_fft), any positive thread count, sizes up to 2^32 as bitreverse is on u32."
  },
  {
   "property": "C06",
   "status": "proved",
   "theorems": [
    "C06_domain",
    "C06_contains",
    "C06_ell"
   ],
   "note": ""
  },
  {
   "property": "C07",
   "status": "proved",
   "theorems": [
    "C07_bitreverse",
    "C07_swap_loop"
   ],
   "note": ""
  },
  {
   "property": "C08",
   "status": "proved",
   "theorems": [
    "C08_msm",
    "C08_msm_truncates",
    "C08_window"
   ],
   "note": "any commutative monoid; scalars given by their little-endian canonical bytes."
  },
  {
   "property": "C09",
   "status": "proved",
   "theorems": [
    "C09_invariants",
    "C09_no_panic",
    "C09_constructors",
    "C09_compact"
   ],
   "note": ""
  },
  {
   "property": "C10",
   "status": "proved",
   "theorems": [
    "C10_coeff_ops",
    "C10_from_coeffs",
    "C10_fold",
    "C10_eval",
    "C10_revdot",
    "C10_iterator",
    "C10_commit"
   ],
   "note": ""
  },
  {
   "property": "C11",
   "status": "proved",
   "theorems": [
    "C11_duality",
    "C11_layout"
   ],
   "note": ""
  },
  {
   "property": "C12",
   "status": "proved",
   "theorems": [
    "C12_evaluators",
    "C12_gate_identity",
    "C12_gates_iff"
   ],
   "note": ""
  },
  {
   "property": "C13",
   "status": "proved",
   "theorems": [
    "C13_execute",
    "C13_predict"
   ],
   "note": ""
  },
  {
   "property": "C14",
   "status": "proved",
   "theorems": [
    "C14_floor_plan"
   ],
   "note": ""
  },
  {
   "property": "C15",
   "status": "proved",
   "theorems": [
    "C15_metrics",
    "C15_object"
   ],
   "note": ""
  },
  {
   "property": "C16",
   "status": "proved",
   "theorems": [
    "C16_agree",
    "C16_agree_raw",
    "C16_raw_at_zero_refuted"
   ],
   "note": ""
  },
  {
   "property": "C17",
   "status": "proved",
   "theorems": [
    "C17_refcounts",
    "C17_resolved",
    "C17_drop_order"
   ],
   "note": ""
  },
  {
   "property": "C18",
   "status": "proved",
   "theorems": [
    "C18_schedule_independent",
    "C18_assembled"
   ],
   "note": ""
  },
  {
   "property": "C19",
   "status": "proved",
   "theorems": [
    "C19_complete",
    "C19_sound",
    "C19_assembled"
   ],
   "note": ""
  },
  {
   "property": "C20",
   "status": "proved",
   "theorems": [
    "C20_ky",
    "C20_injective",
    "C20_length_refuted"
   ],
   "note": "C20_length_refuted shows the length bound in the hypotheses is needed."
  },
  {
   "property": "C21",
   "status": "proved",
   "theorems": [
    "C21_registry",
    "C21_finalize",
    "C21_digest",
    "C21_binding",
    "C21_objects"
   ],
   "note": "hypothesis: omega_key (low 64 bits of 5w) is injective on the domain, which registry.rs documents as checked for the Pasta fields only; hash and byte conversions are parameters."
  },
  {
   "property": "C22",
   "status": "proved",
   "theorems": [
    "C22_identifiers"
   ],
   "note": "same omega_key hypothesis as C21 for the lookup part; two-adicity at most 32 as bit reversal is on u32."
  },
  {
   "property": "C23",
   "status": "proved",
   "theorems": [
    "C23_layout",
    "C23_stage_polynomial",
    "C23_wires",
    "C23_sum",
    "C23_masked"
   ],
   "note": "any list of stages; stage polynomials, final trace and the single-trace circuit are related for every witness; refusal conditions exact."
  },
  {
   "property": "C24",
   "status": "proved",
   "theorems": [
    "C24_mask_values",
    "C24_mask_enforces",
    "C24_mask_bounds"
   ],
   "note": "enforcement direction needs 4n distinct y (root counting)."
  },
  {
   "property": "C25",
   "status": "proved",
   "theorems": [
    "C25_stripped",
    "C25_validator",
    "C25_claim",
    "C25_outputs_refuted"
   ],
   "note": "validator covers the witness method; C25_outputs_refuted records that outputs are not validated (an accepted circuit can output ONE)."
  },
  {
   "property": "C26",
   "status": "proved",
   "theorems": [
    "C26_circuit",
    "C26_identity",
    "C26_deviation",
    "C26_sound"
   ],
   "note": "All of fold_revdot.rs except the parallel iterators (sequential here). Soundness is the algebraic core: counting of bad challenges, not Fiat-Shamir."
  },
  {
   "property": "C27",
   "status": "proved",
   "theorems": [
    "C27_compose",
    "C27_sound",
    "C27_eval",
    "C27_reject",
    "C27_two_layer_bound_refuted"
   ],
   "note": "C27_two_layer_bound_refuted is a finding: fold_two_layer accepts more than M*N values, unlike fold_inner and the error computation."
  },
  {
   "property": "C28",
   "status": "proved",
   "theorems": [
    "C28_native_order",
    "C28_native_count",
    "C28_one_proof",
    "C28_two_proofs",
    "C28_nested",
    "C28_nested_several_refuted"
   ],
   "note": "native claims for every number of proofs; nested claims for one proof (C28_nested_several_refuted: the nested ky iterator is wrong for every other number, which only the one-proof verifier uses)."
  },
  {
   "property": "C29",
   "status": "proved",
   "theorems": [
    "C29_cover",
    "C29_witness",
    "C29_steps",
    "C29_sound",
    "C29_complete",
    "C29_single_point_refuted"
   ],
   "note": "abstract curve group as in C33; stages are loaded unenforced as in the code, so inputs are assumed to be non-identity points and the endoscalar bits boolean; C29_single_point_refuted: with one point the step circuit panics on its empty range."
  },
  {
   "property": "C30",
   "status": "proved",
   "theorems": [
    "C30_sound",
    "C30_complete",
    "C30_multipack"
   ],
   "note": ""
  },
  {
   "property": "C31",
   "status": "proved",
   "theorems": [
    "C31_exact",
    "C31_division",
    "C31_composite",
    "C31_complete"
   ],
   "note": ""
  },
  {
   "property": "C32",
   "status": "proved",
   "theorems": [
    "C32_alloc",
    "C32_maps",
    "C32_law",
    "C32_double",
    "C32_add",
    "C32_accumulator",
    "C32_double_and_add",
    "C32_add_equal_undetermined"
   ],
   "note": "on-curve inputs, characteristic not 2; exceptional inputs characterised exactly (unsatisfiable, or undetermined for equal points)."
  },
  {
   "property": "C33",
   "status": "proved",
   "theorems": [
    "C33_lift",
    "C33_alloc",
    "C33_scale",
    "C33_extract",
    "C33_extract_complete",
    "C33_extract_unique_refuted"
   ],
   "note": "scaling over an abstract curve group (CurveGroup record: prime-field module, affine map, cube-root endomorphism), inhabited by an order-103 curve; extraction uniqueness needs element+i nonzero (refuted otherwise)."
  },
  {
   "property": "C34",
   "status": "proved",
   "theorems": [
    "C34_permutation",
    "C34_duplex",
    "C34_hash",
    "C34_save_resume",
    "C34_errors",
    "C34_length_separation_refuted"
   ],
   "note": "full claim proved for the Poseidon permutation circuit (any well-formed parameters); C34_length_separation_refuted is not part of the claim: it records that additive absorption has no padding, as documented in transcript.rs."
  },
  {
   "property": "C35",
   "status": "proved",
   "theorems": [
    "C35_tags_separate",
    "C35_tag_absorbed",
    "C35_resume_guard"
   ],
   "note": "of_u is any conversion injective below 2^128 (the documented field-size assumption), shown for the certified Pallas base field."
  },
  {
   "property": "C36",
   "status": "proved",
   "theorems": [
    "C36_suffix",
    "C36_suffix_wrap_refuted",
    "C36_padded",
    "C36_separates",
    "C36_types"
   ],
   "note": "of_u is any u64 conversion injective below 2^64. C36_suffix_wrap_refuted: without overflow checks the two largest application suffixes wrap onto the internal ones. C36_separates gives the exact coincidence condition when lengths differ (trailing zeros)."
  },
  {
   "property": "C37",
   "status": "proved",
   "theorems": [
    "C37_register",
    "C37_slots",
    "C37_nested",
    "C37_trivial_suffix_refuted"
   ],
   "note": "TypeIds are numbers; building a circuit object is an option parameter. C37_trivial_suffix_refuted is a finding: internal steps' headers are not part of the duplicate check. Two-adicity at most 32 as circuit indices are u32."
  },
  {
   "property": "C38",
   "status": "proved",
   "theorems": [
    "C38_f",
    "C38_p",
    "C38_honest",
    "C38_sound",
    "C38_ab_coeffs",
    "C38_ab",
    "C38_step_coeffs",
    "C38_step",
    "C38_circuit"
   ],
   "note": "C38_circuit: the exact relation compute_v checks. C38_f, C38_p: the prover's quotient polynomial, accumulated polynomial and endoscaled commitment. C38_ab, C38_honest, C38_step (and the same for claims known by their coefficients, C38_ab_coeffs, C38_step_coeffs): a whole honest step over a finalised registry is accepted exactly with v = p(u). C38_sound: enough accepted runs (distinct alpha, u, beta) force every claimed evaluation. Randomness is not modelled: soundness is stated for sets of challenges."
  },
  {
   "property": "C39",
   "status": "proved",
   "theorems": [
    "C39_commitment",
    "C39_total",
    "C39_dedup"
   ],
   "note": "Tracked polynomials of fuse/claims.rs and the resolution of fuse/_06_ab.rs; mul (MSM) is its specification, proved in C08."
  },
  {
   "property": "C40",
   "status": "proved",
   "theorems": [
    "C40_exact",
    "C40_satisfying"
   ],
   "note": ""
  },
  {
   "property": "C41",
   "status": "proved",
   "theorems": [
    "C41_length",
    "C41_reject",
    "C41_total"
   ],
   "note": "FixedVec modelled as a length-checked list with every constructor and combinator of vec.rs; length, rejection and totality."
  },
  {
   "property": "C42",
   "status": "proved",
   "theorems": [
    "C42_refines",
    "C42_canonical",
    "C42_bits"
   ],
   "note": "Uendo modelled limb by limb (64-bit limbs, generic bit width, 136 in the crate); the type has no addition, subtraction, multiplication or ordering."
  },
  {
   "property": "C43",
   "status": "proved",
   "theorems": [
    "C43_builder",
    "C43_tracked",
    "C43_evaluations"
   ],
   "note": "wiring polynomials enter as registry lookups (cy); t(x,z) enters as its value, computed in circuit per C31/C33."
  },
  {
   "property": "C44",
   "status": "proved",
   "theorems": [
    "C44_adapter",
    "C44_rerandomize",
    "C44_trivial"
   ],
   "note": "padded headers, adapter output layout, the uniform encoding and the two internal steps."
  },
  {
   "property": "C45",
   "status": "proved",
   "theorems": [
    "C45_partition",
    "C45_complete",
    "C45_builder"
   ],
   "note": "Coverage of the native side; the instance is threaded as in _11_circuits.rs. Stage wires are inputs of the circuits (StageModel gives their placement)."
  },
  {
   "property": "C46",
   "status": "proved",
   "theorems": [
    "C46_hashes_1",
    "C46_hashes_2",
    "C46_transcript"
   ],
   "note": "Exact in wire semantics and complete in the simulator. The permutation is any Poseidon instance with well-formed parameters."
  },
  {
   "property": "C47",
   "status": "proved",
   "theorems": [
    "C47_inner",
    "C47_outer",
    "C47_chain",
    "C47_base"
   ],
   "note": "Exact in wire semantics and complete in the simulator. In the base case c is unconstrained, as the code intends (C47_base)."
  },
  {
   "property": "C48",
   "status": "proved",
   "theorems": [
    "C48_child_ky",
    "C48_binding"
   ],
   "note": "The headers published by hashes_1 are compared with the child's headers under the hypothesis that they are those of the grandchildren."
  },
  {
   "property": "C49",
   "status": "proved",
   "theorems": [
    "C49_step"
   ],
   "note": "Conjunction of the exactness theorems over shared stage values; soundness against wrong stage commitments is outside (polynomial commitments are not modelled)."
  },
  {
   "property": "C50",
   "status": "proved",
   "theorems": [
    "C50_hashes_1",
    "C50_hashes_2",
    "C50_inner",
    "C50_outer",
    "C50_compute_v",
    "C50_endoscaling",
    "C50_adapter",
    "C50_rerandomize",
    "C50_wired",
    "C50_wireless"
   ],
   "note": "Relational parametricity proved for the gadget trees themselves; a tree that fails early is covered as a prefix. Routines are inlined here; their short-circuiting in the wireless emulator is C60's."
  },
  {
   "property": "C51",
   "status": "proved",
   "theorems": [
    "C51_rows",
    "C51_total",
    "C51_complete",
    "C51_sound",
    "C51_rerandomize"
   ],
   "note": "Composes C50's genericity, the compilation of gadget trees and C16-C19. The number of challenges (4n for y, 4n for z each) is the exact degree bound; no probability statement."
  },
  {
   "property": "C52",
   "status": "proved",
   "theorems": [
    "C52_total",
    "C52_sound",
    "C52_complete"
   ],
   "note": "The final and combined polynomials are those of the staging protocol; masks are those of C24. Stage values are read from the coefficients of the stage polynomials."
  },
  {
   "property": "C53",
   "status": "proved",
   "theorems": [
    "C53_sound",
    "C53_complete"
   ],
   "note": "Composes C52 with the exactness of the recursion circuits (C45-C49); the circuits are compiled from the gadget code. 4n challenges for y and for z is the degree bound. The binding of commitments and the nested curve are outside."
  },
  {
   "property": "C54",
   "status": "proved",
   "theorems": [
    "C54_exact",
    "C54_sound",
    "C54_registry",
    "C54_complete",
    "C54_builds"
   ],
   "note": "The proof record keeps what the verifier reads. The nested circuits are arbitrary registered objects here; their claims are stated as sums over coefficients. Acceptance at 4n x 4n challenges stands for the random choice; binding of the commitment is outside."
  },
  {
   "property": "C55",
   "status": "proved",
   "theorems": [
    "C55_names_step"
   ],
   "note": "Rests on the zero suffix that every internal circuit writes last (C48), and on masks and empty slots having no constant term. Header suffix 0 is reserved for internal circuits; headers of applications and the trivial header have nonzero suffixes (C36)."
  },
  {
   "property": "C56",
   "status": "proved",
   "theorems": [
    "C56_builds",
    "C56_sound",
    "C56_complete",
    "C56_combo",
    "C56_honest",
    "C56_verifier",
    "C56_prover",
    "C56_on_curve_refuted"
   ],
   "note": "registry level (C56_builds, C56_sound, C56_complete, C56_combo, C56_honest) and verifier level (C56_verifier, C56_prover). Examples C56_ex (curve of order 211 over F241, n = 32) and C56_verifier_ex (F2161, n = 512) meet all hypotheses. C56_on_curve_refuted: the points are not checked to lie on the curve, as the source says."
  },
  {
   "property": "C57",
   "status": "proved",
   "theorems": [
    "C57_step",
    "C57_fused",
    "C57_trivial",
    "C57_runs",
    "C57_trivial_runs",
    "C57_made",
    "C57_traces"
   ],
   "note": "C57_runs, C57_trivial_runs: how a run ends. C57_step: the step relation and the circuits. C57_fused, C57_made: the proof returned, and trees of proofs. C57_traces: the traces exist over a curve with endomorphism. Example C57_ex fuses the trivial proofs of an application (F2161, F97, rank 9, nine steps) and meets the hypotheses of all but C57_traces; there the host curve is replaced by a stand-in that sends every element to the pair (0, 0), because a cycle with enough two-adicity is too large to compute with. Curve examples for the endoscaling part are C29 and C56_ex. Traces of the application's own step code are an argument; the random number generator is an argument (blinds)."
  },
  {
   "property": "C58",
   "status": "proved",
   "theorems": [
    "C58_fuse",
    "C58_seed",
    "C58_seeded_trivial",
    "C58_rerandomize",
    "C58_same_header",
    "C58_trivial_rejected"
   ],
   "note": "C58_fuse, C58_seed, C58_seeded_trivial, C58_rerandomize: what the entry points return. C58_same_header, C58_trivial_rejected: no other header. The predicate `returns` spells out how a run may end; `fortunate` excludes the exceptional challenges and, on a curve, additions of equal or opposite points (C57_traces shows that `scales` follows from no_clash). The lazily cached cell of seeded_trivial_pcd is not modelled: the theorem holds for whichever seeded proof is cached. Example C58_ex seeds the trivial proof and fuses by the rerandomisation step on the application of C57_ex; because its stand-in curve sends all commitments to one point, a second level would repeat the challenges, so the conclusion of C58_rerandomize is exercised there only up to its hypotheses."
  },
  {
   "property": "C59",
   "status": "proved",
   "theorems": [
    "C59_repr256",
    "C59_literals",
    "C59_wf",
    "C59_mds",
    "C59_permutation",
    "C59_squares",
    "C59_no_order_two",
    "C59_keys"
   ],
   "note": "Primality of both orders is proved from Pocklington certificates (Pasta.v), so Fp and Fq are fields without any assumption. from_raw and the field constants of pasta_curves (generator 5, root of unity) are that crate's and are taken at their documented values; they are checked here to have the properties used. The source claims distinct keys for every k up to 32; the theorem covers k <= 13 by computing the keys, that is registries of up to 8192 circuits, the most a registry of the production rank holds."
  },
  {
   "property": "C60",
   "status": "proved",
   "theorems": [
    "C60_attrs",
    "C60_map",
    "C60_compose",
    "C60_wires",
    "C60_demote",
    "C60_promote",
    "C60_equal",
    "C60_consistent",
    "C60_consistent_run",
    "C60_write",
    "C60_short_circuit",
    "C60_routine"
   ],
   "note": "A gadget instance is a tree carrying its declaration; combinations rustc rejects are excluded by the typing predicate. Generic parameters, lifetimes and Send bounds are not modelled. The prediction theorem is about the one routine the code predicts (t(x,z))."
  },
  {
   "property": "C61",
   "status": "proved",
   "theorems": [
    "C61_sound",
    "C61_complete",
    "C61_run",
    "C61_registry",
    "C61_children",
    "C61_accepted"
   ],
   "note": "Special soundness of the accumulation: the forking is stated over the relations the circuits were proved to enforce (C36-C39, C54), with the challenges free. Not covered: that the transcript's challenges are as good as free ones (Fiat-Shamir), that commitments bind the polynomials across runs (the children's polynomials, s', ab, f are the same wherever the transcript order fixes them), the link of beta and of the commitments to the nested curve, and the fused registry polynomial is taken to be the registry's. C61_sound/C61_children have a concrete instance in Props_AccEx (an application over GF(2161), its accepted proof as both children, with 37 endoscalars), obtained with C61_accepted (which uses C61_complete). C61_run has no separate example."
  },
  {
   "property": "C62",
   "status": "proved",
   "theorems": [
    "C62_means",
    "C62_history",
    "C62_accepted",
    "C62_made"
   ],
   "note": "Induction over the ancestor tree from C54 (root) and C61 (children). That ancestors are available is a hypothesis (special soundness as in C61, not a knowledge-extraction bound); C62_made shows honest proofs meet it. C62_made needs a field of at least 4n+80 elements and 37 determined betas; its other hypotheses are those of C57, exemplified there. C62_ex: a step putting out the square of its witness, seeded and rerandomised; C62_ex_square concludes the header's data is a square."
  },
  {
   "property": "C63",
   "status": "proved",
   "theorems": [
    "C63_points",
    "C63_counts",
    "C63_stages",
    "C63_objects",
    "C63_nested",
    "C63_builds",
    "C63_means",
    "C63_accepted",
    "C63_made"
   ],
   "note": "Instantiates C36-C62 at the Pasta cycle. The square root function of pasta_curves is a parameter, assumed correct (fp_sqrt_exists: one exists). C63_builds has no assumption on the lookup keys (C59_keys proves them distinct up to the capacity). The thirteen compile condition and the capacity differ: log2 = 14 compiles but the registry polynomial would exceed the rank. Examples: an application with one step is built and its code means its step, for every hash and square root; no proof over Pasta is computed (one Poseidon permutation takes half a minute in the prover), so C63_accepted and C63_made have their concrete instances over the small field (C57_ex, C58_ex, C62_ex)."
  },
  {
   "property": "C64",
   "status": "proved",
   "theorems": [
    "C64_steps",
    "C64_headers",
    "C64_means",
    "C64_builds",
    "C64_accepted",
    "C64_made",
    "C64_run"
   ],
   "note": "Instantiates C34, C44, C58, C62 and C63 at the test application. As in C63 the square root function of pasta_curves is a parameter, assumed correct, and acceptance is meant as in C54 (accepted for enough challenges, with the ancestors). No proof over Pasta is computed: C64_setting shows that the setting can be had there, C64_ex computes headers and a run over the small field."
  },
  {
   "property": "C65",
   "status": "proved",
   "theorems": [
    "C65_simple",
    "C65_simple_accepted",
    "C65_public",
    "C65_square",
    "C65_handles",
    "C65_poisoned"
   ],
   "note": "From C51 for code with a fixed meaning. Acceptance is at 4n challenges y with 4n challenges z each, as in C51. The doc comment of SquareCircuit says that the number of gates is equal to times; the compiled circuit has two more (SYSTEM and the allocation)."
  },
  {
   "property": "C66",
   "status": "proved",
   "theorems": [
    "C66_option",
    "C66_erased",
    "C66_phantom",
    "C66_sizes"
   ],
   "note": "Justifies the use of option for values in the rest of the model. References are modelled as the values they refer to; Empty::take and Always::empty, which do not compile in Rust when reached, are None. Code over Maybe is a language of statements whose closures may take any earlier value (Props_Maybe.stmt)."
  },
  {
   "property": "C67",
   "status": "proved",
   "theorems": [
    "C67_records",
    "C67_standalone",
    "C67_values",
    "C67_distinct",
    "C67_equal",
    "C67_collisions",
    "C67_compare",
    "C67_structure_refuted"
   ],
   "note": "Constraints of nested routines are not part of the caller's fingerprint, as in the code; only their output wires count. The constants are arbitrary; that the BLAKE2b-derived ones are a point where unequal routines differ is not shown (no such statement holds for all routines). Type ids are numbers. C67_structure_refuted: with nested routines, one fingerprint does not mean structural equivalence, for any constants."
  },
  {
   "property": "C68",
   "status": "proved",
   "theorems": [
    "C68_inferences",
    "C68_complete",
    "C68_macro",
    "C68_inside_refuted",
    "C68_driver_field",
    "C68_scope",
    "C68_rebind",
    "C68_kind",
    "C68_bound",
    "C68_extract"
   ],
   "note": "Syntax trees are cut down to what the functions inspect. C68_inside_refuted: placeholders inside references, arrays or before `as` are left as they are."
  },
  {
   "property": "C69",
   "status": "proved",
   "theorems": [
    "C69_circuit",
    "C69_bonding",
    "C69_mask"
   ],
   "note": "The reported counts of the three circuit objects. A mask over gate 1 reports one constraint more than its degree needs, and none of a mask's coefficients is the enforce_one its comment counts."
  },
  {
   "property": "C70",
   "status": "proved",
   "theorems": [
    "C70_send",
    "C70_wires",
    "C70_sendable",
    "C70_contract_refuted"
   ],
   "note": "Type checking of the generated code is modelled by the type each field must have. C70_contract_refuted: the derive macro checks value fields but not phantom ones; no gadget of the workspace is affected (the only marker is of a curve)."
  },
  {
   "property": "C71",
   "status": "proved",
   "theorems": [
    "C71_resolve",
    "C71_unique"
   ],
   "note": "proc_macro_crate is as it documents itself. That ragu has the two libraries' items at its root and in primitives is what path_resolution.rs says; at this commit ragu (src/lib.rs) exports nothing, so paths through it lead nowhere yet."
  },
  {
   "property": "C72",
   "status": "proved",
   "theorems": [
    "C72_rank",
    "C72_floor_plan",
    "C72_accepted",
    "C72_mask",
    "C72_mask_wrap_refuted"
   ],
   "note": "The counters of the metrics and other usize arithmetic stay unbounded. C72_mask_wrap_refuted needs stages with absurd values()."
  },
  {
   "property": "C73",
   "status": "proved",
   "theorems": [
    "C73_round_trip",
    "C73_only",
    "C73_identity",
    "C73_messages",
    "C73_baked"
   ],
   "note": "Hash to curve and from_xy (pasta_curves) are parameters; file access and lazy_static are left out. C73_only is for files without an identity; C73_ex_zeros shows why."
  }
 ]
}