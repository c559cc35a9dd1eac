# Formal model of ragu: design and trusted base

## 1. Method

The Rust code in `/repo` is read as text and transcribed function by function
into small total Gallina functions.  Four kinds of file live in
`rocq/theories/`:

| files | content |
|-------|---------|
| `*Model.v` | the transcription; every definition cites file and lines in `/repo` and states its simplifications |
| `*Spec.v`  | specifications written without the model's helpers: plain sums, sets of indices, textbook definitions |
| `*Proofs*.v`, `Runs.v`, `FieldDef.v`, `ModDef.v`, … | auxiliary mathematics and lemmas |
| `Props_*.v` | the property theorems `Cxx_name`, each with its full statement, `Print Assumptions`, and beside it an `Example` meeting its hypotheses |

Conventions:

* **Fields.**  A record `Field` (FieldDef.v) packs a carrier, operations,
  decidable equality and the standard library's `field_theory`.  Theorems
  quantify over every such field, and so cover both Pasta fields.  `GF.v` and
  `Pasta.v` build prime fields.  The latter has the two Pasta fields, primality by
  certificate (`PrimeCert.v`); C59 is about them.  The examples mostly use the field
  with 97 elements, which has two-adicity 5.
* **Groups.**  Commitments live in an `FMod F`, a module over the field.  The
  multi-scalar multiplication works over any commutative monoid `CMon`.  The
  point gadgets are constraints over the coordinate field; their specification
  is the affine chord-and-tangent law of `y² = x³ + b`.
* **Panics and errors** (`assert!`, slice indexing, `expect`, `Err`) are `None`
  or `GErr`; theorems say on which inputs they occur.
* **Parallelism** is an arbitrary thread count (FFT) or an arbitrary completion
  order of the spawned evaluators (trace generation).
* **Loops** without a structural measure carry fuel.  Where fuel could run out,
  the theorems show it does not.

## 2. Two embeddings of circuits

A Rust circuit is code generic over the `Driver` trait.  Two embeddings are
used, for two different questions.

* `prog F` (CircModel.v): the finite tree of driver calls (`gate`, `mul`,
  `alloc`, `add`, `enforce_zero`, `routine`, clone and drop of wires).  The
  structure evaluators run with `MaybeKind = Empty`, so driver calls cannot
  depend on witness values, and a circuit is such a tree.  The metrics counter,
  the three wiring evaluators, the trace generator and the bonding validator are
  interpreters of `prog`, each transcribed from its own Rust driver.
* `G F W A` (GadgetModel.v): trees whose continuations receive wires and
  witness values.  They express gadget code that is generic in the driver (Boolean,
  Element, Point, Endoscalar, Poseidon, the recursion circuits).  `holds` is the
  constraint semantics over an arbitrary assignment (soundness); `simulate` is
  the transcription of `simulator.rs` (completeness).

The two are connected by `compile` (CompileModel.v), which runs a gadget tree on
a driver whose wires are positions and records the calls.  `CompileProofs.v`
shows that satisfying the compiled program's rows and `holds` of the tree are the
same thing, for code that is generic in its wires (`generic`, CompileSpec.v).
C50 proves genericity for the recursion circuits and adapters.  C51 and C52 carry
this up to polynomials: an accepted trace polynomial (or an accepted family of
stage polynomials) carries values meeting the relations of the code.

C54 joins the parts.  An application is described by `built` (VerifySpec2.v):
registration and both finalisations succeed, the object registered for a step is
the one of its code, and keys identify the roots of unity of the domain.  Two
details of the code matter for its proof.  The registry adds the term
`key * (x*y)^(4n-1)` to every slot, so a claim also carries `key * c_0` times that
power, where `c_0` is the coefficient of the trace at degree zero; honest traces
have `c_0 = 0`.  The sum of circuit hashes_2 leaves the preamble out, so its code
runs on a preamble of zeros.  The example C54_ex builds an application over the
field of 2161 elements with n = 512 and gives a proof that is accepted at every
challenge; its nested circuits are the empty circuit.

C56 fills in the nested circuits: the endoscaling steps with the endoscalar and
points stages, and the chain of bridge stages.  Accepted nested polynomials carry
bits, points and interstitials that meet the relations of every step; on a curve
they are the partial sums of the Horner rule (C29).  C56_ex does this for a curve
of order 211 over the field of 241 elements with n = 32; C56_verifier_ex uses the
circuits inside an application with n = 512.

## 3. Trusted base

* Coq 8.16.1's kernel and `coqchk`; its VM for `vm_compute` in
  examples and in the checks of the Pasta constants (C59); `coqchk` repeats those
  without the VM.
* **Axioms.**  Every property theorem reports `Closed under the global context`.
  No axiom is used.  `coqchk` additionally lists the seven
  `Coq.ssr.ssrunder.Under_rel.*` entries, which belong to a standard library
  module type loaded with the library; no theorem depends on them.
* **The transcription** from Rust to Gallina.  Its residue is what sections 4
  and 5 list.
* **Contracts of dependencies**, stated as record fields or section hypotheses
  that appear in the theorem statements:
  * `TwoAdic F`: the documented equations of `ff::PrimeField::{S, ROOT_OF_UNITY,
    ROOT_OF_UNITY_INV, TWO_INV}`;
  * `ff::BatchInverter` inverts nonzero entries and leaves zeros;
  * `Field::invert`, `Field::sqrt` where gadgets use them;
  * BLAKE2b, `to_repr`, `from_uniform_bytes` are arbitrary functions (registry
    digest); a theorem that needs the omega keys to be distinct says so;
  * Poseidon's constants are arbitrary (`pparams`), the permutation itself is
    transcribed; the constants of `ragu_pasta` are transcribed in PastaModel and
    C59 shows that they are such parameters.

## 4. What is modelled

| crate / file | model | remarks |
|---|---|---|
| `ragu_arithmetic` coeff.rs, util.rs | ArithModel, RootsModel, MSMModel | scalars of `mul` are given by their little-endian bytes |
| fft.rs, domain.rs | FFTModel | both code paths, any ring module; `Domain::new/halve/contains/fft/ifft/ell` |
| uendo.rs | PrimModel | three 64-bit limbs, as integers with explicit wrap-around |
| `ragu_core` drivers.rs, linexp.rs | ArithModel, GadgetModel | default methods; `DirectSum` |
| `ragu_circuits` polynomials/ | SparseModel, TModel | blocks, views, `eval/dilate/revdot/commit`, `CoeffIter`, `tz/tx/txz` |
| raw.rs, metrics.rs, floor_planner.rs, s/{common,sxy,sx,sy}.rs | CircModel, SyModel | |
| trace.rs, ky.rs, horner.rs | TraceModel | |
| registry.rs | RegModel | BTreeMap as association list |
| staging/{mod,mask,builder,bonding}.rs | StageModel | a stage type is its `values()` and those of its parents |
| `ragu_primitives` boolean, element, point, endoscalar, simulator | GadgetModel | |
| poseidon.rs | SpongeModel | |
| vec.rs | PrimModel | |
| `ragu_pcd` header.rs, lib.rs, step/, internal/suffix.rs | AppModel | |
| internal/{claims,native/claims,nested/claims}.rs, fuse/claims.rs, verify.rs (claim lists) | ClaimModel, PcdModel | |
| internal/fold_revdot.rs, fuse/_06_ab.rs | FoldModel | |
| internal/endoscalar.rs | EscModel | |
| internal/transcript.rs | SpongeModel | |
| internal/native/{unified,circuits/*,stages/*}.rs | RecModel, RecStageModel | the five recursion circuits as gadget trees; their stages as wire layouts (`unenforced` loading) |
| `ragu_core` drivers/emulator.rs | EmuModel | `gate/alloc/add/enforce_zero` of both modes; routines are inlined |
| verify.rs, proof/{mod,components}.rs, internal/native/mod.rs (`register_all`) | VerifyModel | the parts of a proof that the verifier reads; nested circuits are arbitrary objects; the challenges are arguments |
| internal/nested/mod.rs (`register_all`), internal/nested/stages/mod.rs, internal/endoscalar.rs (as circuits) | NestedModel | bridge stages as their number of values; the points they hold are not tied to anything |
| fuse/mod.rs, fuse/_02 to _10, fuse/claims.rs, proof/mod.rs (`trivial_proof`) | FuseModel | the whole step on values, in source order; random elements and the traces are arguments; the two curves enter through a module and the affine coordinates of its elements |
| `ragu_pasta` macros.rs, poseidon_fp.rs, poseidon_fq.rs; `ragu_macros` proc/repr.rs | PastaModel | `from_raw` is the integer modulo the order |
| `ragu_pasta` lib.rs:62-70, `ragu_pcd` internal/tests.rs:42-109, `ragu_circuits` polynomials/mod.rs:39-42,111-114 | ProdModel | the square root function of pasta_curves is a parameter |
| `ragu_testing` pcd/nontrivial.rs, `ragu_pcd` tests/nontrivial.rs:14-51 | MerkleModel, MerkleSpec | the Poseidon parameters are an argument of the steps (the fixture stores a reference to them) |
| `ragu_testing` circuits/mod.rs, registry.rs | FixtureModel | the handle-taking evaluators of `TestRegistry` forward to the registry (RegModel) |
| `ragu_core` maybe/*.rs, drivers/phantom.rs, `ragu_macros` proc/maybe_cast.rs | MaybeModel | references are the values referred to; compile-time panics are `None` |
| `ragu_macros` substitution.rs, helpers.rs (`attr_is`, `GenericDriver`), proc/kind.rs, derive/mod.rs, derive/gadget.rs (generic parameters and arguments) | MacroModel | syntax trees without spans; types other than paths, tuples and `_` are a number with their lifetimes and inner types; generics of associated types are absent |
| `ragu_circuits` `constraint_counts` in lib.rs, staging/mask.rs, staging/bonding.rs | CountModel | an underflow is `None` |
| `ragu_primitives` sendable.rs; the Send bounds of `ragu_macros` derive/gadget.rs:228-282, `ragu_core` gadgets/foreign.rs, `ragu_primitives` vec.rs, promotion.rs | SendModel | rustc's check of generated code is the type each field must have; a type is Send when its parts are; lifetimes absent |
| `ragu_macros` path_resolution.rs, the calls of it in lib.rs | PathModel | `proc_macro_crate::crate_name` is a parameter |
| `ragu_circuits` polynomials/mod.rs:29-42, floor_planner.rs:80-97, staging/mask.rs:26-36,95-103 once more, on words of w bits | MachModel | checked operations and wrapping addition |
| `ragu_pasta` pasta_common.rs:36-53, build.rs:16-47, lib.rs:128-165 (`params_for_curve`, `write_point`, `write_params_for_curve`, `get_point`, `get_points_for_curve`, `PASTA_PARAMETERS`) | BakedModel | hash to curve and `from_xy` are parameters; a field element is its canonical integer; a panic is `None`; file access and `lazy_static` left out |
| `ragu_circuits` metrics.rs: `fingerprint_routine` (tests module), `RoutineFingerprint::of` | FingerModel | type ids are numbers |
| `ragu_macros` derive/*; `ragu_core` convert.rs, gadgets.rs, gadgets/foreign.rs, routines.rs, emulator.rs (`wires`, `short_circuit_routine`); `ragu_primitives` promotion.rs, consistent.rs, foreign.rs, io.rs, io/pipe.rs, vec.rs; internal/suffix.rs | DeriveModel | a gadget instance is a tree with its declaration; what rustc rejects is excluded by `typed` |
| fuse/_07_query, _08_f, _09_eval, _10_p, stages/{query,eval}.rs | QvModel | |

## 5. What is not modelled

* Rust's type system, ownership and memory layout, except that a moved or
  dropped wire handle is unusable (SyModel).
* `usize`/`u32` overflow, except in MachModel and where a model or a finding says so.
* Field and curve arithmetic of `pasta_curves` (the fields are `GF p`); the
  generators of `ragu_pasta` (hash to curve; the baked file is in BakedModel); random number generation;
  BLAKE2b; `rayon` itself.
* `ragu_macros` apart from `repr256!`, the bodies of the derived impls (DeriveModel;
  elsewhere a derived impl is represented by the list of wires in field order) and the
  substitutions in types and generic parameters (MacroModel) and the crate paths (PathModel):
  parsing, error messages; benches, tests (apart from tests/nontrivial.rs), the book.
* Fiat–Shamir as a random oracle and commitment binding.  Soundness theorems are
  of the form "for a wrong witness, at most so many challenges accept".  C61 is special
  soundness: runs forked at every challenge force both children's deferred checks; that a
  transcript can be so forked, and that commitments fix the polynomials across the forks,
  is not modelled.  C62 assumes such forks for every ancestor of a proof.
* Type ids (numbers in FingerModel, absent from the records of CircModel) and the
  BLAKE2b derivation of the fingerprint's constants, which are arbitrary parameters.

## 6. Findings (statements that are false of the model)

Each is a theorem named `_refuted` with a concrete witness.

| theorem | meaning |
|---|---|
| `C16_raw_at_zero_refuted` | a raw circuit that constrains the SYSTEM `d` wire has s(0,y) ≠ 0, which the x = 0 shortcut of `sx` and `sxy` misses |
| `C20_length_refuted` | k(Y) separates instances of one length only: a leading zero output is invisible |
| `C25_outputs_refuted` | the bonding validator never looks at the outputs: an output equal to ONE is accepted and its constraint stays |
| `C27_two_layer_bound_refuted` | `fold_two_layer` accepts more than M·N evaluations, where the other entry points reject |
| `C28_nested_several_refuted` | the nested expected values line up with the claims for exactly one proof |
| `C29_single_point_refuted` | with one point the single step has an empty range and its circuit fails |
| `C33_extract_unique_refuted` | endoscalar extraction leaves a bit free when the tested element is zero |
| `C34_length_separation_refuted` | additive absorption has no padding: a trailing zero in the last block is invisible (documented in transcript.rs) |
| `C36_suffix_wrap_refuted` | header suffixes can wrap in `usize` |
| `C37_trivial_suffix_refuted` | an application may register the trivial header's suffix |
| `C56_on_curve_refuted` | accepted nested polynomials may carry points off the curve (documented in endoscalar.rs: left to routing circuits that do not exist yet) |
| `C67_structure_refuted` | metrics.rs:31-33 says routines with one fingerprint are structurally equivalent with overwhelming probability; two routines of tests/identity.rs (`DelegatePadEnforceOutput`, `InternalEnforce`) have one fingerprint for all constants although one of them calls another routine and forces its input to zero (the suite compares neighbouring pairs, not this one). What does hold is `C67_distinct`: the constraints of the scope itself agree |
| `C68_inside_refuted` | `Kind!` leaves `_` and `'_` inside references, arrays and before `as` as they are (no use in the workspace does this) |
| `C70_contract_refuted` | the derive macro and `Sendable` accept a gadget whose `PhantomData` names a type that is not Send, against the safety section of `GadgetKind` (no gadget of the workspace does this) |
| `C72_mask_wrap_refuted` | without overflow checks `StageMask::new` accepts arguments over the gate bound whose sum wraps (only stages with absurd `values()` have them) |

Further observations, recorded in comments beside the definitions: `HEADER_SIZE = 0`
underflows; the gate bound is tested with `index == n`; `omega_j` collides for
indices of `2^S` and more; `verify.rs` leaves `wx0`, `wx1`, `wy` unchecked (a TODO
in the source); `outer_collapse` leaves `c` unconstrained in the base case
(`C47_base`).  The wireless emulator discards witness closures, so an error
inside a closure does not surface there (`C50_wireless` has the wired run as its
hypothesis).  The tests `verify_rejects_corrupted_*` in verify.rs start from the
trivial proof, which no test asserts to verify before corruption.

## 7. Properties and files

| properties | theorems in | proofs in |
|---|---|---|
| C01–C08 | Props_Arith | ArithProofs, FFTProofs, RootsProofs, MSMProofs |
| C09–C12 | Props_Poly | SparseProofs, SparseProofs2, TProofs |
| C13, C30–C33, C40 | Props_Gadget | GadgetProofs, PointProofs, EndoProofs, TxzProofs, SimProofs |
| C14–C20 | Props_Circ | CircProofs, CircProofs2, SProofs, SyEvents, SyProofs, SyProofs2, TraceProofs, SatProofs |
| C21, C22 | Props_Reg | RegProofs, RegProofs2 |
| C23–C25 | Props_Stage | StageProofs, StageProofs2, StageProofs3 |
| C26, C27, C39 | Props_Fold | FoldProofs, FoldProofs2, FoldProofs3 |
| C28, C43 | Props_Pcd | PcdProofs, PcdProofs2 |
| C29 | Props_Esc | EscProofs |
| C34, C35 | Props_Sponge | SpongeProofs, SpongeHash |
| C36, C37, C44 | Props_App | AppProofs |
| C38 | Props_Rec, Props_Qv, Props_Qv2 | QvProofs, QvProofs2 |
| C41, C42 | Props_Prim | PrimProofs |
| C45–C49 | Props_Rec, Props_RecEx | RecProofs, RecProofs2–5 |
| C50 | Props_Par | ParProofs, ParProofs2–3, EmuProofs |
| C51, C52 | Props_Comp | CompileProofs, CompileProofs2–3 |
| C53 | Props_Step, Props_StepEx | RecStageProofs |
| C54, C55 | Props_Verify, Props_VerifyEx | VerifyProofs to VerifyProofs10 |
| C56 | Props_Nested, Props_NestedEx, NestedExample | NestedProofs |
| C57 | Props_Fuse, Props_FuseEx | FuseProofs to FuseProofs7 |
| C58 | Props_Seed, Props_SeedEx | Props_Seed (from C44, C54, C57) |
| C59 | Props_Pasta | PastaProofs, PastaProofs2, KeyProofs, Pasta, PrimeCert |
| C60 | Props_Derive | DeriveProofs, DeriveProofs2, DeriveProofs3 |
| C61 | Props_Acc, Props_AccEx | AccProofs, AccProofs2, AccProofs3 |
| C62 | Props_Hist, Props_HistEx | (from C44, C54, C57, C61) |
| C63 | Props_Prod, Props_ProdEx, Props_Curve | ProdProofs (from C54, C57, C59, C62) |
| C64 | Props_Merkle, Props_MerkleEx | (from C34, C44, C58, C62, C63) |
| C65 | Props_Fixture | (from C51) |
| C66 | Props_Maybe | (C66_phantom from C51) |
| C67 | Props_Finger | FingerProofs |
| C68 | Props_Macro | MacroProofs |
| C69 | Props_Count | (from C15, C24, C25) |
| C70 | Props_Send | (in the same file) |
| C71 | Props_Path | (in the same file) |
| C72 | Props_Mach | (in the same file, from C15) |
| C73 | Props_Baked | (in the same file) |

## 8. Mutation testing

`seeded/LOG.jsonl` records, for each deliberate error put into a model
definition in a scratch copy: the definition, the edit, the claim it should
break, and the property theorems that no longer hold.  A failing lemma is
replaced by an admitted one and the build continued, so that the list contains
exactly the theorems whose `Print Assumptions` then mention an admitted lemma.
When a wrong program was not caught, the theorems were tightened and the entry
says which.
