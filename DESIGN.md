# Formal model of SCRAM in Rocq (Coq 8.16.1)

## Method

Every modelled C++ function becomes a small total Gallina function with a comment
citing `file:lines` of /repo/src. Mutation becomes state passing, loops become
structural recursion or fuelled recursion with an explicit out-of-fuel outcome,
exceptions become `option`/`result` outcomes, undefined behaviour (assert
violations, abort in `noexcept`) a distinct outcome (`None` or a constructor).
Where fuel is used the theorem says that enough fuel exists and that the result does not
depend on it. Specifications (Boolean semantics of connectives, "minimal cut set",
"prime implicant", "probability", ...) are in small separate files or sections that do not
mention the model's helpers. `P_*.v` files state the property theorems, each followed by a
concrete instance that meets the hypotheses.

The code is not compiled or run. A property that is false of the code is stated as a theorem
with suffix `_refuted`: a concrete execution of the model, faithful to the cited lines, that
violates the English claim; the property is then proved under the weakest condition found.

## Trusted base

* Coq 8.16.1's kernel (with `vm_compute` in closed examples and refutations).
* The reading of the C++: the model definitions in the non-`P_` files, each with its citation.
* `Print Assumptions`: no axioms of our own. Library axioms that occur:
  * the standard library's real numbers (`ClassicalDedekindReals.sig_not_dec`, `sig_forall_dec`,
    `FunctionalExtensionality.functional_extensionality_dep`, `Classical_Prop.classic`, and the opaque
    module fields of `Rdefinitions.RbaseSymbolsImpl` / `RinvImpl`) in the theorems over R and
    binary64: C19, C20, C21, C22, C23, C24, C33, C44;
  * `Coq.ssr.ssrunder.Under_rel` (module field of the standard library's `ssreflect` support,
    pulled in by std++; it has a definition, it is only opaque).
  All other theorems are closed under the global context.
* Hash functions, the choice of a pointer order, and `std::sort` with ties are universally
  quantified (any function, any permutation), so nothing is assumed of them.

## Not modelled

Reference counting and memory release (garbage only shrinks tables: C10, C11 speak of the weak
pointers), logging, XML parsing of input (libxml2), RelaxNG validation, the GUI but for its undo commands (C53), the command
line, random number generators, `double` printing, threads (the code has none).

## Per property


### C01 Adding an argument to a gate never changes what the gate means

* Modelled: pdag.cc `Gate::AddArg` and everything it calls (duplicate/complement processing per type, K/N cases with clones, constants, `MakeConstant`, `NegateNonNullGate`) on a heap of gates (Pdag.v).
* Not modelled / simplified: parents sets and the graph lists are only what the functions read; pointers are gate indices.
* Proof: case analysis per connective on the value of the gate under every consistent valuation; induction over the argument list for the construction; K/N duplicate defect as `_refuted`.
* Status: proved — `C01_add_argument`, `C01_build`, `C01_duplicate_refuted`. all cases but the repeated argument of a two-argument K/N gate, where the code is wrong (C01_duplicate_refuted proves the defect)

### C02 The analysis graph computes the fault tree

* Modelled: Pdag::Pdag, GatherVariables, AddArg, ConstructGate, ConstructComplexGate, ConstructSubstitution, CollectSubstitution (pdag.cc 449-766): registration of variables, map of processed gates, flags.
* Not modelled / simplified: the input reader: its checks are hypotheses (sound_model), proved for formulas (C28), substitutions (C29), cycles (C30)
* Proof: invariant on the graph under construction (what each finished gate describes), induction on layers of gates.
* Status: proved — `C02_graph`, `C02_coherent`, `C02_substitutions`, `C02_same_variables`, `valuation_exists`, `C02_exact_probability_refuted`. From the model to the graph: variables, gates, flags and function, with house events, CCF gates and substitutions; totality included (no assertion fails). C02_exact_probability_refuted: with an algorithm other than BDD the exact probability is of a graph built without the declarative substitutions.

### C03 Preprocessing never changes the Boolean function of the graph

* Modelled: the rewrites of preprocessor.cc and pdag.cc as functions on the heap (Preproc*.v, Complement.v, Decompose.v, BoolOpt.v, Distribute.v, NullGates.v, MultiDef.v) and the relation "any sequence of these phases" (P_Preprocess.v).
* Not modelled / simplified: traversal order and marks of CoalesceGates, MergeCommonArgs, DetectModules (any order is allowed), thresholds/heuristics that select candidates (any candidate is allowed), container orders and parent lists (oracles with stated properties).
* Proof: local rewrites keep the values of all gates; decomposition, Boolean optimization and distributive factoring keep the value of the root (edits of gates the root does not see); the arity invariant (Shaped*.v) is kept by every phase; sequences by induction.
* Status: proved — `C03_preprocess`, `C03_rewriting`, `C03_negative_gates`, `C03_null_gates`, `C03_trivial`, `C03_definitions`, `C03_definitions_loop`, `C03_definitions_no_voting`, `C03_definitions_refuted`. The pass ProcessMultipleDefinitions is modelled as a whole (detection, hash set, replacement, loop): it keeps the value and ends with no two non-module gates of one definition; below a 2-of-3 gate it is wrong (C03_definitions_refuted, defect). In general: any sequence of the phases of the preprocessor (null-gate removal, trivial root, negative gates, XOR and K/N expansion, coalescing, multiple definitions, common arguments, modules, distributive factoring, Boolean optimization, decomposition, complement propagation), any choice of the containers' orders and candidates. Excluded by hypothesis: the wrong rewriting of a K/N gate of three arguments with a duplicate (defect, C01_duplicate_refuted).

### C04 Normalisation eliminates every complex connective

* Modelled: NormalizeGates, NotifyParentsOfNegativeGates, NegateNonCoherentGateArgs, NormalizeGate, NormalizeXorGate, NormalizeAtleastGate (preprocessor.cc:479-629, pdag.h:610-624): Normalize.v, Preproc.v.
* Not modelled / simplified: args<Gate>() and the argument of maximal order are oracles; gates that are not below the root are not in the input graph.
* Proof: the traversals by induction on the rank with the set of marked gates: what is marked is flipped (finished), its gates are marked; the graph without its negative connectives keeps all values at every step; the K/N expansion by induction on the number of arguments.
* Status: proved — `C04_normalize_gates`, `C04_before_null_gates`, `C04_atleast`, `C04_xor`. C04_normalize_gates is the whole function for both flags; for partial normalisation it assumes that no K/N gate of three arguments meets a duplicate while pass-through gates are removed (C01_duplicate_refuted). Gates out of memory are left out of the input graph (all_alive).

### C05 Complement propagation yields negation normal form

* Modelled: RunPhaseFour up to the propagation and PropagateComplements with keep_modules = false, preprocessor.cc (Complement.v).
* Not modelled / simplified: parents().size() == 1 is an oracle that may answer yes only for gates with one parent among those in memory; the container order is any permutation; freed gates stay in the map.
* Proof: ghost maps from each gate to the gate of the initial graph it comes from and its sign, with the replacements that are due; induction on the depth; asserts are proved not to fail.
* Status: proved — `C05_complements`. every graph that the phase meets (AND/OR gates below the root, NULL only at the root, no constants); with and without the complement flag

### C06 Detected modules are independent

* Modelled: Preprocessor::DetectModules: AssignTiming, FindModules, ProcessModularArgs, FilterModularArgs, GroupModularArgs, CreateNewModule(s) (Modules.v); std::sort by its contract.
* Not modelled / simplified: the asserts
* Proof: invariant on the visit times of the traversal (ModulesTiming.v); the visit range of a sub-graph; groups of arguments that are closed under parents stay so while gates are created (ModulesGraph.v).
* Status: proved — `C06_modules`. Sound and complete for the gates of the graph, sound for the gates created; values kept; any outcome of std::sort.

### C07 Topological ordering is a linear extension

* Modelled: TopologicalOrder and OrderArguments, preprocessor.cc (Order.v).
* Not modelled / simplified: the sort by number of parents is any permutation
* Proof: DFS post-order invariant with the modules entered; the result meets the order hypotheses of the BDD and probability theorems.
* Status: proved — `C07_order`, `C07_analysis`. C07_analysis: the numbering meets the hypotheses on the order (prepared, ordered) of the BDD, product, probability and importance theorems.

### C08 The BDD computes the graph function

* Modelled: bdd.cc vertex store, unique table, And/Or tables, Apply, Consensus, ClearTables (Bdd.v); ConvertGraph and the constructor from the graph (BddGraph.v).
* Not modelled / simplified: reference counting: vertices are never freed (ids are never reused in the code, so lookups agree).
* Proof: store invariant over every history of manager operations; induction on the rank of the gate, modules as independent variables with diagrams of their own.
* Status: proved — `bdd_history_correct`, `C08_graph`, `C08_trivial`. Manager operations over every history; the conversion of a normalised graph with nested modules, memoisation by parents, every order of arguments.

### C09 BDDs are reduced, ordered and canonical

* Modelled: as C08.
* Proof: canonicity by Shannon induction on the order.
* Status: proved — `bdd_canonical`, `bdd_constant_detection`, `bdd_structure`. all histories, all injective orders, all hash functions

### C10 Computation caches are transparent

* Modelled: boost-like `CacheTable` (bdd.h) with an arbitrary hash function and resizing.
* Proof: refinement to "last stored value per bucket".
* Status: proved — `cache_hit_is_last_stored`, `cache_store_then_find`, `cache_size_exact`, `bdd_cache_transparent`

### C11 The unique table finds exactly the live entries

* Modelled: UniqueTable (bdd.h 377-545) with WeakIntrusivePtr, reference counts, cascaded destruction, chained buckets, growth, erasure of expired entries, clear; FindOrAddVertex of bdd.cc and zbdd.cc.
* Not modelled / simplified: attributes outside the signature; int overflow of sizes
* Proof: invariant over histories: exact counts, entries and vertices linked both ways, entries in the bucket of their hash, one live vertex per signature.
* Status: proved — `C11_safe`, `C11_lookup`, `C11_unique`, `C11_references`, `C11_no_leak`, `C11_new_ids`, `C11_trees`, `C11_all_trees`. Every history of lookups over held vertices, copies, drops (with cascades) and clears, every hash, growth policy and allocator; reference counts and weak pointers are in the model. C11_trees justifies the models of the algorithms that work on trees.

### C12 Set operations on ZBDDs compute families of sets

* Modelled: zbdd.cc Apply<kAnd>/Apply<kOr>, EliminateConstantModules with their tables, flags and limit (Zbdd.v).
* Not modelled / simplified: the unique table is abstracted to structural trees (hash consing = structural equality).
* Proof: simultaneous induction on the pair of diagrams under an invariant of the tables, against families of sets.
* Status: proved — `C12_or`, `C12_and`, `C12_and_signed`, `C12_or_signed`, `C12_canonical`, `C12_constant_modules`. Apply<kAnd>/Apply<kOr>, EliminateConstantModules of zbdd.cc with the computation tables and minimality flags as state, in every reachable state; exact families for positive literals, soundness and completeness with complements. Totality included (no assertion fails). Unique table abstracted to trees (hash consing).

### C13 Minimisation keeps exactly the minimal products

* Modelled: zbdd.cc Minimize, Subsume with tables and minimality flags.
* Not modelled / simplified: as C12
* Proof: as C12
* Status: proved — `C13_minimize`, `C13_subsume`. Minimize and Subsume of zbdd.cc, every reachable state of tables and flags.

### C14 Reported products of a coherent fault tree are its minimal cut sets

* Modelled: the ZBDD constructor from a PDAG with nested modules (ConvertGraph, GatherModules, EliminateConstantModules, Analyze) and the product iterators; the BDD algorithm (Bdd::Bdd, Bdd::Analyze, the ZBDD constructor from a BDD with modules, ConvertBdd, ConvertBddPrimeImplicants).
* Not modelled / simplified: `std::sort` of arguments is an arbitrary permutation
* Proof: induction on the graph: families of a level represent its cut sets, module substitution.
* Status: proved — `C14_zbdd`, `C14_trivial`, `C14_bdd`, `C14_bdd_trivial`. For the ZBDD and the BDD algorithms, from the normalised graph with nested modules to the iterated products, every limit; the BDD theorem also covers complements and non-coherent graphs. MOCUS is C17.

### C15 Prime implicants are exactly the prime implicants

* Modelled: ConvertBddPrimeImplicants.
* Proof: induction on the BDD against prime implicants.
* Status: proved — `C15_bdd`, `C15_bdd_trivial`. From the normalised graph with nested modules and complements to the iterated products, every limit. Modules with a constant function are excluded: they trip an assertion (C15_constant_module_refuted).

### C16 The product order limit is exact

* Modelled: as C12, C14, with the limit.
* Proof: truncation lemmas for each operation.
* Status: proved — `C16_prune`, `C16_and_or`, `C16_zbdd`, `C16_bdd`, `C16_bdd_refuted`. ZBDD algorithm, BDD algorithm for prime implicants and for minimal cut sets with coherent modules. With modules that are not coherent the BDD algorithm may lose minimal cut sets of as many literals as the limit: C16_bdd_refuted is the counterexample, C14_bdd proves that smaller ones are never lost.

### C17 MOCUS gives the same minimal cut sets

* Modelled: mocus.cc, CutSetContainer (Mocus.v), the inversion of the orders (InvertOrder.v).
* Not modelled / simplified: `std::sort` of the arguments is any permutation, of the gates by its contract
* Proof: the diagram represents the module after every expansion; the order of the topmost inner gate decreases.
* Status: proved — `C17_mocus`, `C17_same`, `C17_order`, `C17_pipeline`, `C17_trivial`. C17_pipeline starts from the normalised graph with modules and includes the topological order and its inversion; also non-coherent graphs.

### C18 Products with modules are enumerated exactly once

* Modelled: zbdd.h iterators as a state machine, ProductContainer (fault_tree_analysis.cc), CountProducts.
* Proof: induction on diagrams.
* Status: proved — `C18_iteration`, `C18_container`, `C18_count`, `C14_zbdd`. The iterators of zbdd.h as a state machine, ProductContainer and CountProducts; no product is reported twice (last clauses of C14_zbdd).

### C19 Exact probability equals the sum over satisfying assignments

* Modelled: CalculateTotalProbability with its marks and cached vertex probabilities, over R, for any history of calls on a BDD with modules (new, or used for products before).
* Not modelled / simplified: rounding (see C21)
* Proof: sum over sets of events = expectation; invariant on marks; independence across modules.
* Status: proved — `C19_bdd`, `C19_range`, `C19_C22_trivial`. Over real numbers (rounding: C21), for any sequence of calls with any probabilities, on a new BDD or one used for products before. The trivial theorem is for a root that passes one event or the constant.

### C20 Approximations bound the exact probability from above

* Modelled: RareEventCalculator, McubCalculator over R.
* Not modelled / simplified: rounding (see C21)
* Proof: correlation (Harris) inequality by induction on events.
* Status: proved — `C20_bounds`, `C20_graph`. C20_bounds for any family of cut sets; C20_graph: for a graph without complements the minimal cut sets give bounds on the probability of the graph.

### C21 Floating-point probability stays in [0,1]

* Modelled: the BDD recursion and the cut set calculators in binary64 (Flocq).
* Not modelled / simplified: overflow, which cannot occur in the ranges proved
* Proof: half-ulp bounds; invariant on vertices.
* Status: proved — `C21_bdd`, `C21_trivial`, `C21_approximations`. Flocq binary64 without overflow (all values are in [-1,1]); also the marginal importance in [-1,1] and the two approximations.

### C22 Importance factors mean what they say

* Modelled: CalculateMif on the BDD with marks, modules and ClearMarks, in any history of calls; the other factors; occurrences.
* Not modelled / simplified: rounding
* Proof: derivative of the expectation; invariant on marks; order of modules.
* Status: proved — `C22_mif`, `C22_coherent`, `C22_factors`, `C22_approximate`, `C22_occurrences`, `C19_C22_trivial`, `C22_mif_refuted`. Exact for graphs without complements, any history of calls, variables in modules included. With complements the reported marginal importance may have the wrong sign: CalculateMif(int) drops the complement flag of the root (C22_mif_refuted, an XOR of two events); C22_mif proves that the sign is the only error.

### C23 The SIL histogram is a partition of time

* Modelled: probability_analysis.cc PartitionY, AverageY, Sil computation over R.
* Not modelled / simplified: rounding
* Proof: case analysis on segments, induction on the curve.
* Status: proved — `C23_buckets`, `C23_nonnegative`, `C23_sum`, `C23_partition`, `C23_average`, `C23_report`, `C23_hourly`, `C23_flat_refuted`, `C23_hourly_refuted`. Over real numbers. Findings: a curve flat on a bucket bound is counted twice; hourly values above 1 fall in no bucket.

### C24 The time grid is complete and finite

* Modelled: the loop over time, exact and in binary64 (Flocq).
* Not modelled / simplified: overflow
* Proof: induction on fuel; Flocq rounding lemmas.
* Status: proved — `C24_fuel`, `C24_exact`, `C24_binary64`, `C24_curve`, `C24_stall_refuted`. In exact arithmetic and in binary64 (Flocq, no overflow); the loop does not end when the step is absorbed by rounding (C24_stall_refuted).

### C25 CCF models conserve the total failure probability

* Modelled: ccf_group.cc CalculateProbabilities over Q.
* Not modelled / simplified: rounding
* Proof: binomial identities over lists.
* Status: proved — `C25_conservation`, `C25_phi_total`, `C25_phi_refuted`. over the rationals; phi factors do not conserve Q (C25_phi_refuted)

### C26 CCF expansion enumerates every combination once

* Modelled: CcfGroup::ApplyModel, combination iterator (ext/combination_iterator.h).
* Proof: induction on lists.
* Status: proved — `C26_expansion`, `C26_single_level_refuted`. a validated alpha/phi group with level 1 only trips an assertion (C26_single_level_refuted)

### C27 CCF factor levels are validated

* Modelled: AddFactor, AddMember, AddDistribution, Validate.
* Proof: case analysis on every call sequence.
* Status: proved — `C27_add_factor`, `C27_add_member`, `C27_add_distribution`, `C27_validate`

### C28 Formula validation accepts exactly well-formed formulas

* Modelled: event.cc ArgSet, Formula constructor, Swap, ValidateNesting.
* Proof: case analysis; both directions (accepts iff well formed).
* Status: proved — `C28_argset_add`, `C28_argset_distinct`, `C28_construction`, `C28_swap`, `C28_always_ok`, `C28_wide_number_refuted`. for numbers that fit 16 bits; in a release build wider numbers wrap (C28_wide_number_refuted)

### C29 Substitutions are validated and classified consistently

* Modelled: substitution.cc Validate, type.
* Proof: case analysis; both directions.
* Status: proved — `C29_validate`, `C29_coherent`, `C29_type`, `C29_type_complete`

### C30 Cycle detection is sound and complete

* Modelled: cycle.h three-colour depth-first search on any graph; the instances for gates, parameters, branches, rules.
* Proof: colour invariant, simple paths.
* Status: proved — `C30_cycle_check`, `C30_gates`, `C30_parameters`, `C30_branches`, `C30_rules`, `C30_links`

### C31 Analysis settings stay mutually consistent

* Modelled: settings.h/.cc state machine.
* Proof: invariant over every sequence of calls.
* Status: proved — `settings_always_consistent`, `settings_throw_unchanged`, `settings_setter_sets`, `settings_float_ranges`, `settings_float_ranges_nan_refuted`, `settings_terminate_iff`, `settings_never_abort_refuted`. Consistency holds; 'no setter aborts' and NaN ranges are refuted on the faithful model (findings).

### C32 The linear containers behave like maps and sets

* Modelled: ext/linear_map.h, linear_set.h as lists with erase-by-move-last.
* Not modelled / simplified: iterators
* Proof: refinement to finite maps over histories.
* Status: proved — `C32_step`, `C32_map_history`, `C32_map_observations`, `C32_map_equality`, `C32_order`, `C32_set_history`, `C32_set_observations`

### C33 Expression intervals contain the expression's values

* Modelled: expression.h, numerical.h, conditional.cc intervals and values over R.
* Not modelled / simplified: rounding, random deviates
* Proof: induction on expressions; monotonicity of each operator.
* Status: proved — `C33_sound`, `C33_probability`, `C33_no_division_by_zero`, `C33_domain`, `C33_abs_refuted`, `C33_cosh_refuted`, `C33_tan_refuted`, `C33_not_refuted`, `C33_and_refuted`, `C33_or_refuted`, `C33_eq_refuted`, `C33_df_refuted`, `C33_mod_refuted`, `C33_pow_refuted`, `C33_probability_refuted`. Over real numbers, for operations monotone in each argument on their domains; each remaining operation has a refutation.

### C34 One Monte-Carlo trial samples each shared expression once

* Modelled: Expression::Sample/Reset flags on a shared graph; SampleExpressions.
* Not modelled / simplified: the deviate distributions (any stream of values)
* Proof: induction on the graph, invariant on flags.
* Status: proved — `C34_total`, `C34_once`, `C34_next_trial`, `C34_fresh`, `C34_second_analysis_refuted`. Holds for every trial of an analysis that starts unsampled; the first trial of a later analysis with other roots may reuse a stale sample (C34_second_analysis_refuted).

### C35 Event-tree sequences are the union of their paths

* Modelled: event_tree_analysis.cc.
* Proof: induction on trees.
* Status: proved — `C35_formulas`, `C35_certain`, `C35_expressions`, `C35_homogeneous`, `C35_no_mix_assertion`, `C35_certain_path_refuted`. Formula of a sequence = OR over paths with formulas of the AND of formulas under path house settings; finding: a path with no formula (certain) is dropped when another path has one.

### C36 Functional events occur in declared order on every path

* Modelled: CheckFunctionalEventOrder (initializer.cc) and CollectSequences.
* Proof: induction on trees, links included.
* Status: proved — `C36_order`, `C36_no_assertion`. Validated trees meet functional events in strictly increasing declared order, and the assertion in CollectSequences cannot fail, links included.

### C37 Analysing a phase leaves the model as it was

* Modelled: risk_analysis.cc RunAnalysis(context).
* Not modelled / simplified: the analysis itself (any function of the model)
* Proof: list induction on house-event settings.
* Status: proved — `C37_phase`, `C37_no_phase`, `C37_all_phases`, `C37_duplicate_refuted`. For phases that name each house event at most once; with duplicates the state is not restored (C37_duplicate_refuted).

### C38 Top events are the unreferenced gates

* Modelled: DetectTopEvents (fault_tree.cc).
* Proof: mark invariant.
* Status: proved — `C38_top_events`

### C39 The report writer only emits well-formed XML

* Modelled: xml_stream.h as an automaton writing bytes.
* Not modelled / simplified: doubles, I/O errors
* Proof: automaton invariant; parser round trip.
* Status: proved — `C39_round_trip`, `C39_well_formed`, `C39_misuse_is_error`, `C39_unchecked_name_refuted`, `C39_duplicate_attribute_refuted`, `C39_nul_truncation_refuted`. Doubles (%g) and write errors are not modelled; names are assumed to be XML names, as the code warns; the reader does not normalise white space in attribute values.

### C40 Numbers are written and read back exactly

* Modelled: PutValue for integers.
* Proof: digit induction.
* Status: proved — `C40_size_t`, `C40_buffer_is_tight`, `C40_int`, `C40_injective`, `C40_int_min_refuted`. INT_MIN is written wrongly (C40_int_min_refuted).

### C41 Element identifiers are unique and well-formed

* Modelled: element.cc ids, model.cc duplicates, registration histories.
* Proof: invariant over histories.
* Status: proved — `C41_construction`, `C41_has_dot`, `C41_unique`, `C41_path_injective`, `C41_rejection`. all registration histories of events

### C42 Reference resolution honours scope

* Modelled: GetEntity / GetEvent.
* Proof: case analysis.
* Status: proved — `C42_entity`, `C42_event`, `C42_ccf_member_refuted`. holds for every event with its own definition element; for private CCF group members local scope is not honoured (defect, C42_ccf_member_refuted)

### C43 Sorted-range intersection test is exact

* Modelled: ext/algorithm.h intersects.
* Proof: induction.
* Status: proved — `C43_intersects_exact`, `C43_integers`

### C44 Failure models yield probabilities

* Modelled: failure models of expression/exponential.cc over R.
* Not modelled / simplified: rounding
* Proof: analysis.
* Status: proved — `C44_exponential`, `C44_glm`, `C44_weibull`, `C44_instant_repair`, `C44_instant_test`, `C44_complete`, `C44_rate_needed`, `C44_glm_start`, `C44_before_first_test`, `C44_instant_repair_periodic`. Over real numbers; includes all assertions of the complete periodic-test model and the absence of division by zero.

### C45 Extern function signatures are told apart

* Modelled: extern.h / extern.cc signature codes.
* Proof: induction.
* Status: proved — `C45_encode_injective`, `C45_dispatch`, `C45_no_overflow`, `C45_table_size`

### C46 Coherence is detected exactly

* Modelled: MarkCoherence, preprocessor.cc.
* Proof: invariant on the marked gates; monotonicity by rank.
* Status: proved — `C46_coherence`, `C46_monotone`

### C47 The reported cut sets and probabilities are those of the fault tree

* Modelled: composition of C02, C03, C07, C14-C22 over the live part of the preprocessed graph; statements over events of the tree.
* Not modelled / simplified: merging of common arguments etc. enter as single rewriting steps (C03)
* Proof: correspondence of events and variables; transfer of minimality.
* Status: proved — `C47_bdd`, `C47_normal_form`, `C47_zbdd`, `C47_mocus`, `C47_trivial`, `C47_probability`. From the model (C02) through any sequence of modelled preprocessing phases (C03), with dead gates freed on the way, to the products. Negation normal form for ZBDD and MOCUS is proved (C47_normal_form, from C05 and C50), not assumed. It ends with the products and probabilities in terms of the events of the tree. The graph handed over is required to be finished: no constants, AND/OR gates with two or more arguments, valid module flags (C06); modules with constant functions are excluded for BDD (C15_constant_module_refuted). For BDD cut sets with non-coherent modules the limit is as in C16_bdd_refuted.

### C48 A saved model loads as the same model

* Modelled: serialization.cc as calls to the XML writer (C39); the parts of initializer.cc and xml.h that read its output; names through the registry (C42), formulas through the constructor (C28).
* Not modelled / simplified: RELAX NG validation, libxml (the reader of C39), printing and parsing of doubles (any pair of functions), validation of expressions and cycles
* Proof: explicit document; writer by frames, reader by list induction.
* Status: proved — `C48_round_trip`, `C48_stable`, `C48_fixed_point`, `C48_injective`, `C48_unsupported`, `C48_constant_refuted`, `C48_label_refuted`, `C48_name_refuted`. Numbers are abstract: the hypothesis is that a number reads as it prints (the code prints doubles with %g, six digits, so it holds only for such numbers). C48_constant_refuted: a formula over a constant (HouseEvent::kTrue) is saved as an event nobody defines and the file does not load.

### C49 Graph simplification always finishes

* Modelled: Both forms of CoalesceGates with the loop around it, RemoveNullGates with PropagateNullGate, all cases of AddArg.
* Not modelled / simplified: expired(), parents(), module() and the orders of containers are oracles with the properties in the statement; DetectModules (C06)
* Proof: measure: the size of the unfolding of the root, where a K/N gate counts 4 to the size of its arguments; rank by that size for the recursion.
* Status: proved — `C49_null_gates_end`, `C49_coalescing_ends`, `C49_phase_five_flat`. Fuel is shown to suffice, so that None in the models means a failed assertion, and none fails. K/N gates in the clash of C01_duplicate_refuted are excluded.

### C50 Once normalised, the graph stays normalised

* Modelled: all phases of C03 (P_Preprocess.v).
* Not modelled / simplified: which phases run is left open: any sequence
* Proof: invariant of every operation: the connectives, the signs of arguments, new nodes are gates.
* Status: proved — `C50_connectives`, `C50_complements`, `C50_coherent`, `C50_nothing_repaired`, `C50_marked`. Over the phases of C03; a complemented constant (false) counts as a leaf, as in the code where the constant is a special node.

### C51 Random deviates report their mean and their range

* Modelled: random_deviate.h/.cc whole; EnsureProbability (Deviates.v).
* Not modelled / simplified: reals for doubles; Boost.Math functions are arguments with assumed properties; a division by zero is None; samples are arbitrary members of the support
* Proof: case analysis; the mean of a histogram by induction over its bins and by integrals (Coquelicot); refutations by the Erlang form of Q.
* Status: proved — `C51_validate`, `C51_histogram`, `C51_mean_inside`, `C51_uniform_mean`, `C51_histogram_mean`, `C51_lognormal`, `C51_samples_inside`, `C51_samples_refuted`, `C51_gamma_refuted`, `C51_gamma_probability_refuted`, `C51_beta_refuted`, `C51_beta_margin`, `C51_lognormal_refuted`, `C51_level_refuted`, `C51_weightless_refuted`. Over the reals. The Boost.Math functions are any functions with the listed properties of the mathematical ones (real_functions, met by some_functions). Means of uniform and histogram deviates are integrals; those of the others are not derived from densities. Found: the interval of gamma and beta deviates is not the percentile its comment promises; a beta deviate is always rejected as a probability (unless 1/I rounds to 1); a gamma deviate with shape 2 and scale 1/2 is accepted though it often exceeds 1; level 1/2 and weightless histograms divide by zero.

### C52 Uncertainty analysis samples independent trials and averages them

* Modelled: GatherDeviateExpressions, SampleExpressions, UncertaintyAnalyzer::Sample, CalculateStatistics but for quantile and density estimates (Uncertainty.v).
* Not modelled / simplified: reals; mean and variance by the update formulas of Boost.Accumulators
* Proof: every trial resets all that was sampled (invariant from C34); induction over trials; the variance recurrence by algebra.
* Status: proved — `C52_trials`, `C52_independent`, `C52_ends`, `C52_mean`, `C52_statistics`, `C52_no_spread`, `C52_quantile_levels`, `C52_one_trial_refuted`, `C52_confidence_refuted`. Over the reals; on the sampling model of C34 and the totals of C19. Mean and variance follow the update formulas of Boost.Accumulators; its quantile and density estimates are not modelled.

### C53 Undo and redo restore the model

* Modelled: command.h; the commands of gui/model.h and model.cpp; Container::Add and Remove, Formula::Swap (Undo.v).
* Not modelled / simplified: Qt is not in /repo: QUndoStack is modelled from its documented behaviour (index, clean index, limit, macros without nesting; no merging); signals and views are left out; models are those gui.rng admits; container pointers and usage flags are a log of effects
* Proof: UndoSpec.v says what each edit makes and when it is allowed; redo makes it, undo takes it back and keeps redo; simulation of the stack by an editor with copies of models.
* Status: proved — `C53_undo_redo`, `C53_clean`, `C53_edit`, `C53_consistent`, `C53_undo_all`, `C53_flavor_refuted`, `C53_container_refuted`. plain_flavors: the flavor attribute of basic events is one the GUI writes; with another one undo loses it (C53_flavor_refuted). Equality is of the model's data; the container pointer of a renamed gate is not restored (C53_container_refuted). QUndoStack is modelled from its documentation.

### C54 The tables of the GUI show the model

* Modelled: the emit statements of the GUI commands, ElementContainerModel and its three subclasses, a view (Tables.v, TablesBelow.v, on top of Undo.v).
* Not modelled / simplified: Qt is not in /repo: signals are delivered when they are emitted, views follow the documentation of QAbstractItemModel; headers, roles other than display, proxies for sorting are left out
* Proof: the signalling programs mirror those of Undo.v; each signal with its change of the model keeps shows (rows, positions, connections, cells), whatever the preconditions; induction over commands, macros and the stack; C53 for the histories.
* Status: proved — `C54_tables`, `C54_loaded`, `C54_any_run`, `C54_initial`, `C54_once`, `C54_new_formula`, `C54_children`, `C54_children_initial`, `C54_children_refuted`, `C54_moved_refuted`. typed_action says only that an event inside a command has the C++ type of the command; C54_any_run needs no precondition of the edits. The view is a client of the item model that reads rows exactly when told. The rows below the gates stay right as long as no identifier changes and no gate leaves the table since the last new formula or reset (C54_children); otherwise they do go stale (C54_children_refuted, C54_moved_refuted); a new formula refreshes them all (C54_new_formula).

### C55 The tree of the GUI shows the model

* Modelled: ModelTree and the signals of AddFaultTree, AddEvent and ChangeEventType (ModelTree.v, on top of Tables.v and Undo.v).
* Not modelled / simplified: Qt and boost are not in /repo: signals are delivered when they are emitted, flat_set follows its documentation; roles other than display are left out
* Proof: lower_bound finds the place of a name in a sorted list; each signal with its change of the model keeps the sorted names and the four numbers, every other step keeps the names of the trees and the tables of proxies; induction over commands, macros and the stack; C53 for the histories.
* Status: proved — `C55_tree`, `C55_any_run`, `C55_initial`, `C55_displayed`. C55_any_run needs no precondition of the edits. boost::container::flat_set is modelled by its documented effects on the sorted list. The view reads rows exactly when told.

### C56 The report is well formed and says what the analyses found

* Modelled: Reporter as calls to the XML stream, Product and ProductContainer (Report.v, on top of XmlStream.v).
* Not modelled / simplified: numbers are abstract (their printed form and operations are parameters); opening of the file and indentation stream state of FILE are not modelled; Settings and Model are reduced to what the report uses
* Proof: a specification of what should be read per result; a reader of elements and attributes independent of the writer; every part is first shown to be a tree of good elements, then read back attribute by attribute; C39 for the stream.
* Status: proved — `C56_results`, `C56_information`, `C56_injective`, `C56_indentation`, `C56_distribution`, `C56_contributions`, `C56_product`. Numbers are abstract with any printing into text without control characters; that %g is precise enough is not claimed. good_analysis: names and texts without control characters, counts below 2^31. C56_contributions and C56_product are over the reals. Reader: the XML reader of C39/C48.

### C57 The project file and the command line configure the analysis

* Modelled: Project, ConstructSettings, ParseArguments and extract_version as sequences of setter calls (Project.v, on top of Settings.v).
* Not modelled / simplified: XML and command-line parsing (typed values are given), path normalisation, help, version, verbosity and debug options
* Proof: closed forms of the settings after each block of calls, then an equation for the outcome of every project and command line; the setters and their invariant from C31.
* Status: proved — `C57_consistent`, `C57_arguments`, `C57_no_project`, `C57_outcome`, `C57_settings`, `C57_aborts`, `C57_version`, `C57_later`, `C57_version_checked`, `C57_project_flags_refuted`, `C57_error_or_settings_refuted`. C57_consistent is for any children of <options> in any order; C57_outcome and C57_settings for those that follow the schema (document), limits in any order. The XML and the command line are taken as parsed; doubles as in C31; version numbers do not overflow.

### C58 The phases of an alignment cover the mission

* Modelled: Phase, Alignment::Validate, is_close and the definition of an alignment (Alignment.v), with the phase loop of Phase.v.
* Not modelled / simplified: rounding of floating-point sums; labels and attributes
* Proof: induction over the phases for the sum (or NaN) and the names; the times from the phase loop of C37.
* Status: proved — `C58_accepted`, `C58_times`, `C58_exact_refuted`. Finite numbers are rationals without rounding, with infinities and NaN; 1e-4 is 1/10000.

### C59 The GUI shows what the analyses found

* Modelled: ReportTree, ProductTableModel, ImportanceTableModel (Shown.v) on the findings of Report.v.
* Not modelled / simplified: Qt itself; roles other than display, headers, sorting by the proxy model; formatting of numbers in texts
* Proof: row by row for the tree and the tables; first occurrence of the separator for the texts.
* Status: proved — `C59_tree`, `C59_parents`, `C59_products`, `C59_importance`, `C59_as_reported`, `C59_texts`. of_gate: the result is of a gate, with products, importance only with probability; the schema of the GUI has no event trees. Only the display role.

### C60 Integers and truth values of input files are read for what they say

* Modelled: detail::to<int>, to<bool>, trim, attribute<T>, text<T> and strtoll (Numbers.v).
* Not modelled / simplified: the variant for double; the schema validation before
* Proof: strtoll returns the value of the longest white-space/sign/digits prefix, saturated; trim is characterised by a decomposition; the two meet in the length check.
* Status: proved — `C60_integer`, `C60_only`, `C60_attribute`, `C60_printed`, `C60_boolean`, `C60_white_space_refuted`, `C60_comment_refuted`. strtoll is modelled after the C standard (base 10, saturating). Not the variant for double. Found: a line end after a number makes a schema-valid text be refused; of a text with a comment inside only the part before it is read, and if that is blank strtoll gets a null pointer.

### C61 Values and ranges of expressions are accepted exactly where the documentation says

* Modelled: EnsureProbability, EnsurePositive, EnsureNonNegative, EnsureWithin and the interval predicates (Ensure.v).
* Not modelled / simplified: Boost.ICL itself (its comparisons are modelled from its documentation); infinite bounds
* Proof: points near the ends of a non-empty interval show that its bounds are necessary.
* Status: proved — `C61_probability`, `C61_within`, `C61_non_negative`, `C61_positive`, `C61_constant`, `C61_nan_refuted`, `C61_empty_refuted`. Finite bounds are rationals. Boost.ICL is not in the sandbox: contains, within and is_empty follow its documented definitions by comparisons (domain_less_equal is the negation of the opposite comparison, which is what lets NaN through). C61_non_negative and C61_positive are for ranges with points; C61_empty_refuted shows the others.

### C62 The settings dialog returns what it shows, and nothing inconsistent

* Modelled: SettingsDialog (Dialog.v): the buttons with their exclusive groups and signals, on the setters of Settings.v.
* Not modelled / simplified: Qt itself; typing inside a number box
* Proof: an invariant of the buttons, checked for each of their states and each widget by reflection, kept by induction over the actions.
* Status: proved — `C62_result`, `C62_click`, `C62_unchanged`, `C62_reset_refuted`. Qt's buttons are modelled from their documentation and source (exclusive groups, toggled). Found: the dialog builds its result from default settings, so accepting it resets uncertainty, CCF, SIL, seed, numbers of trials, quantiles and bins, time step and cut-off, and a limit order above 99 becomes 99 (C62_reset_refuted). The 512 states of the buttons are checked by computation inside the proof; the sequences are by induction.
