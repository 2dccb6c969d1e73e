{
 "claims": [
  {
   "property": "C31",
   "status": "proved",
   "theorems": [
    "settings_always_consistent",
    "settings_throw_unchanged",
    "settings_setter_sets",
    "settings_float_ranges",
    "settings_float_ranges_nan_refuted",
    "settings_terminate_iff",
    "settings_never_abort_refuted"
   ],
   "note": "Consistency holds; 'no setter aborts' and NaN ranges are refuted on the faithful model (findings)."
  },
  {
   "property": "C08",
   "status": "proved",
   "theorems": [
    "bdd_history_correct",
    "C08_graph",
    "C08_trivial"
   ],
   "note": "Manager operations over every history; the conversion of a normalised graph with nested modules, memoisation by parents, every order of arguments."
  },
  {
   "property": "C09",
   "status": "proved",
   "theorems": [
    "bdd_canonical",
    "bdd_constant_detection",
    "bdd_structure"
   ],
   "note": "all histories, all injective orders, all hash functions"
  },
  {
   "property": "C10",
   "status": "proved",
   "theorems": [
    "cache_hit_is_last_stored",
    "cache_store_then_find",
    "cache_size_exact",
    "bdd_cache_transparent"
   ],
   "note": ""
  },
  {
   "property": "C01",
   "status": "proved",
   "theorems": [
    "C01_add_argument",
    "C01_build",
    "C01_duplicate_refuted"
   ],
   "note": "all cases but the repeated argument of a two-argument K/N gate, where the code is wrong (C01_duplicate_refuted proves the defect)"
  },
  {
   "property": "C03",
   "status": "proved",
   "theorems": [
    "C03_preprocess",
    "C03_rewriting",
    "C03_negative_gates",
    "C03_null_gates",
    "C03_trivial",
    "C03_definitions",
    "C03_definitions_loop",
    "C03_definitions_no_voting",
    "C03_definitions_refuted"
   ],
   "note": "The pass ProcessMultipleDefinitions is modelled as a whole (detection, hash set, replacement, loop): it keeps the value and ends with no two non-module gates of one definition; below a 2-of-3 gate it is wrong (C03_definitions_refuted, defect). In general: any sequence of the phases of the preprocessor (null-gate removal, trivial root, negative gates, XOR and K/N expansion, coalescing, multiple definitions, common arguments, modules, distributive factoring, Boolean optimization, decomposition, complement propagation), any choice of the containers' orders and candidates. Excluded by hypothesis: the wrong rewriting of a K/N gate of three arguments with a duplicate (defect, C01_duplicate_refuted)."
  },
  {
   "property": "C04",
   "status": "proved",
   "theorems": [
    "C04_normalize_gates",
    "C04_before_null_gates",
    "C04_atleast",
    "C04_xor"
   ],
   "note": "C04_normalize_gates is the whole function for both flags; for partial normalisation it assumes that no K/N gate of three arguments meets a duplicate while pass-through gates are removed (C01_duplicate_refuted). Gates out of memory are left out of the input graph (all_alive)."
  },
  {
   "property": "C41",
   "status": "proved",
   "theorems": [
    "C41_construction",
    "C41_has_dot",
    "C41_unique",
    "C41_path_injective",
    "C41_rejection"
   ],
   "note": "all registration histories of events"
  },
  {
   "property": "C42",
   "status": "proved",
   "theorems": [
    "C42_entity",
    "C42_event",
    "C42_ccf_member_refuted"
   ],
   "note": "holds for every event with its own definition element; for private CCF group members local scope is not honoured (defect, C42_ccf_member_refuted)"
  },
  {
   "property": "C43",
   "status": "proved",
   "theorems": [
    "C43_intersects_exact",
    "C43_integers"
   ],
   "note": ""
  },
  {
   "property": "C45",
   "status": "proved",
   "theorems": [
    "C45_encode_injective",
    "C45_dispatch",
    "C45_no_overflow",
    "C45_table_size"
   ],
   "note": ""
  },
  {
   "property": "C38",
   "status": "proved",
   "theorems": [
    "C38_top_events"
   ],
   "note": ""
  },
  {
   "property": "C30",
   "status": "proved",
   "theorems": [
    "C30_cycle_check",
    "C30_gates",
    "C30_parameters",
    "C30_branches",
    "C30_rules",
    "C30_links"
   ],
   "note": ""
  },
  {
   "property": "C25",
   "status": "proved",
   "theorems": [
    "C25_conservation",
    "C25_phi_total",
    "C25_phi_refuted"
   ],
   "note": "over the rationals; phi factors do not conserve Q (C25_phi_refuted)"
  },
  {
   "property": "C26",
   "status": "proved",
   "theorems": [
    "C26_expansion",
    "C26_single_level_refuted"
   ],
   "note": "a validated alpha/phi group with level 1 only trips an assertion (C26_single_level_refuted)"
  },
  {
   "property": "C27",
   "status": "proved",
   "theorems": [
    "C27_add_factor",
    "C27_add_member",
    "C27_add_distribution",
    "C27_validate"
   ],
   "note": ""
  },
  {
   "property": "C28",
   "status": "proved",
   "theorems": [
    "C28_argset_add",
    "C28_argset_distinct",
    "C28_construction",
    "C28_swap",
    "C28_always_ok",
    "C28_wide_number_refuted"
   ],
   "note": "for numbers that fit 16 bits; in a release build wider numbers wrap (C28_wide_number_refuted)"
  },
  {
   "property": "C29",
   "status": "proved",
   "theorems": [
    "C29_validate",
    "C29_coherent",
    "C29_type",
    "C29_type_complete"
   ],
   "note": ""
  },
  {
   "property": "C32",
   "status": "proved",
   "theorems": [
    "C32_step",
    "C32_map_history",
    "C32_map_observations",
    "C32_map_equality",
    "C32_order",
    "C32_set_history",
    "C32_set_observations"
   ],
   "note": ""
  },
  {
   "property": "C35",
   "status": "proved",
   "theorems": [
    "C35_formulas",
    "C35_certain",
    "C35_expressions",
    "C35_homogeneous",
    "C35_no_mix_assertion",
    "C35_certain_path_refuted"
   ],
   "note": "Formula of a sequence = OR over paths with formulas of the AND of formulas under path house settings; finding: a path with no formula (certain) is dropped when another path has one."
  },
  {
   "property": "C36",
   "status": "proved",
   "theorems": [
    "C36_order",
    "C36_no_assertion"
   ],
   "note": "Validated trees meet functional events in strictly increasing declared order, and the assertion in CollectSequences cannot fail, links included."
  },
  {
   "property": "C37",
   "status": "proved",
   "theorems": [
    "C37_phase",
    "C37_no_phase",
    "C37_all_phases",
    "C37_duplicate_refuted"
   ],
   "note": "For phases that name each house event at most once; with duplicates the state is not restored (C37_duplicate_refuted)."
  },
  {
   "property": "C34",
   "status": "proved",
   "theorems": [
    "C34_total",
    "C34_once",
    "C34_next_trial",
    "C34_fresh",
    "C34_second_analysis_refuted"
   ],
   "note": "Holds for every trial of an analysis that starts unsampled; the first trial of a later analysis with other roots may reuse a stale sample (C34_second_analysis_refuted)."
  },
  {
   "property": "C33",
   "status": "proved",
   "theorems": [
    "C33_sound",
    "C33_probability",
    "C33_no_division_by_zero",
    "C33_domain",
    "C33_abs_refuted",
    "C33_cosh_refuted",
    "C33_tan_refuted",
    "C33_not_refuted",
    "C33_and_refuted",
    "C33_or_refuted",
    "C33_eq_refuted",
    "C33_df_refuted",
    "C33_mod_refuted",
    "C33_pow_refuted",
    "C33_probability_refuted"
   ],
   "note": "Over real numbers, for operations monotone in each argument on their domains; each remaining operation has a refutation."
  },
  {
   "property": "C44",
   "status": "proved",
   "theorems": [
    "C44_exponential",
    "C44_glm",
    "C44_weibull",
    "C44_instant_repair",
    "C44_instant_test",
    "C44_complete",
    "C44_rate_needed",
    "C44_glm_start",
    "C44_before_first_test",
    "C44_instant_repair_periodic"
   ],
   "note": "Over real numbers; includes all assertions of the complete periodic-test model and the absence of division by zero."
  },
  {
   "property": "C39",
   "status": "proved",
   "theorems": [
    "C39_round_trip",
    "C39_well_formed",
    "C39_misuse_is_error",
    "C39_unchecked_name_refuted",
    "C39_duplicate_attribute_refuted",
    "C39_nul_truncation_refuted"
   ],
   "note": "Doubles (%g) and write errors are not modelled; names are assumed to be XML names, as the code warns; the reader does not normalise white space in attribute values."
  },
  {
   "property": "C40",
   "status": "proved",
   "theorems": [
    "C40_size_t",
    "C40_buffer_is_tight",
    "C40_int",
    "C40_injective",
    "C40_int_min_refuted"
   ],
   "note": "INT_MIN is written wrongly (C40_int_min_refuted)."
  },
  {
   "property": "C23",
   "status": "proved",
   "theorems": [
    "C23_buckets",
    "C23_nonnegative",
    "C23_sum",
    "C23_partition",
    "C23_average",
    "C23_report",
    "C23_hourly",
    "C23_flat_refuted",
    "C23_hourly_refuted"
   ],
   "note": "Over real numbers. Findings: a curve flat on a bucket bound is counted twice; hourly values above 1 fall in no bucket."
  },
  {
   "property": "C24",
   "status": "proved",
   "theorems": [
    "C24_fuel",
    "C24_exact",
    "C24_binary64",
    "C24_curve",
    "C24_stall_refuted"
   ],
   "note": "In exact arithmetic and in binary64 (Flocq, no overflow); the loop does not end when the step is absorbed by rounding (C24_stall_refuted)."
  },
  {
   "property": "C12",
   "status": "proved",
   "theorems": [
    "C12_or",
    "C12_and",
    "C12_and_signed",
    "C12_or_signed",
    "C12_canonical",
    "C12_constant_modules"
   ],
   "note": "Apply<kAnd>/Apply<kOr>, EliminateConstantModules of zbdd.cc with the computation tables and minimality flags as state, in every reachable state; exact families for positive literals, soundness and completeness with complements. Totality included (no assertion fails). Unique table abstracted to trees (hash consing)."
  },
  {
   "property": "C13",
   "status": "proved",
   "theorems": [
    "C13_minimize",
    "C13_subsume"
   ],
   "note": "Minimize and Subsume of zbdd.cc, every reachable state of tables and flags."
  },
  {
   "property": "C14",
   "status": "proved",
   "theorems": [
    "C14_zbdd",
    "C14_trivial",
    "C14_bdd",
    "C14_bdd_trivial"
   ],
   "note": "For the ZBDD and the BDD algorithms, from the normalised graph with nested modules to the iterated products, every limit; the BDD theorem also covers complements and non-coherent graphs. MOCUS is C17."
  },
  {
   "property": "C15",
   "status": "proved",
   "theorems": [
    "C15_bdd",
    "C15_bdd_trivial"
   ],
   "note": "From the normalised graph with nested modules and complements to the iterated products, every limit. Modules with a constant function are excluded: they trip an assertion (C15_constant_module_refuted)."
  },
  {
   "property": "C16",
   "status": "proved",
   "theorems": [
    "C16_prune",
    "C16_and_or",
    "C16_zbdd",
    "C16_bdd",
    "C16_bdd_refuted"
   ],
   "note": "ZBDD algorithm, BDD algorithm for prime implicants and for minimal cut sets with coherent modules. With modules that are not coherent the BDD algorithm may lose minimal cut sets of as many literals as the limit: C16_bdd_refuted is the counterexample, C14_bdd proves that smaller ones are never lost."
  },
  {
   "property": "C18",
   "status": "proved",
   "theorems": [
    "C18_iteration",
    "C18_container",
    "C18_count",
    "C14_zbdd"
   ],
   "note": "The iterators of zbdd.h as a state machine, ProductContainer and CountProducts; no product is reported twice (last clauses of C14_zbdd)."
  },
  {
   "property": "C19",
   "status": "proved",
   "theorems": [
    "C19_bdd",
    "C19_range",
    "C19_C22_trivial"
   ],
   "note": "Over real numbers (rounding: C21), for any sequence of calls with any probabilities, on a new BDD or one used for products before. The trivial theorem is for a root that passes one event or the constant."
  },
  {
   "property": "C20",
   "status": "proved",
   "theorems": [
    "C20_bounds",
    "C20_graph"
   ],
   "note": "C20_bounds for any family of cut sets; C20_graph: for a graph without complements the minimal cut sets give bounds on the probability of the graph."
  },
  {
   "property": "C21",
   "status": "proved",
   "theorems": [
    "C21_bdd",
    "C21_trivial",
    "C21_approximations"
   ],
   "note": "Flocq binary64 without overflow (all values are in [-1,1]); also the marginal importance in [-1,1] and the two approximations."
  },
  {
   "property": "C22",
   "status": "proved",
   "theorems": [
    "C22_mif",
    "C22_coherent",
    "C22_factors",
    "C22_approximate",
    "C22_occurrences",
    "C19_C22_trivial",
    "C22_mif_refuted"
   ],
   "note": "Exact for graphs without complements, any history of calls, variables in modules included. With complements the reported marginal importance may have the wrong sign: CalculateMif(int) drops the complement flag of the root (C22_mif_refuted, an XOR of two events); C22_mif proves that the sign is the only error."
  },
  {
   "property": "C07",
   "status": "proved",
   "theorems": [
    "C07_order",
    "C07_analysis"
   ],
   "note": "C07_analysis: the numbering meets the hypotheses on the order (prepared, ordered) of the BDD, product, probability and importance theorems."
  },
  {
   "property": "C46",
   "status": "proved",
   "theorems": [
    "C46_coherence",
    "C46_monotone"
   ],
   "note": ""
  },
  {
   "property": "C06",
   "status": "proved",
   "theorems": [
    "C06_modules"
   ],
   "note": "Sound and complete for the gates of the graph, sound for the gates created; values kept; any outcome of std::sort."
  },
  {
   "property": "C17",
   "status": "proved",
   "theorems": [
    "C17_mocus",
    "C17_same",
    "C17_order",
    "C17_pipeline",
    "C17_trivial"
   ],
   "note": "C17_pipeline starts from the normalised graph with modules and includes the topological order and its inversion; also non-coherent graphs."
  },
  {
   "property": "C02",
   "status": "proved",
   "theorems": [
    "C02_graph",
    "C02_coherent",
    "C02_substitutions",
    "C02_same_variables",
    "valuation_exists",
    "C02_exact_probability_refuted"
   ],
   "note": "From the model to the graph: variables, gates, flags and function, with house events, CCF gates and substitutions; totality included (no assertion fails). C02_exact_probability_refuted: with an algorithm other than BDD the exact probability is of a graph built without the declarative substitutions."
  },
  {
   "property": "C11",
   "status": "proved",
   "theorems": [
    "C11_safe",
    "C11_lookup",
    "C11_unique",
    "C11_references",
    "C11_no_leak",
    "C11_new_ids",
    "C11_trees",
    "C11_all_trees"
   ],
   "note": "Every history of lookups over held vertices, copies, drops (with cascades) and clears, every hash, growth policy and allocator; reference counts and weak pointers are in the model. C11_trees justifies the models of the algorithms that work on trees."
  },
  {
   "property": "C05",
   "status": "proved",
   "theorems": [
    "C05_complements"
   ],
   "note": "every graph that the phase meets (AND/OR gates below the root, NULL only at the root, no constants); with and without the complement flag"
  },
  {
   "property": "C47",
   "status": "proved",
   "theorems": [
    "C47_bdd",
    "C47_normal_form",
    "C47_zbdd",
    "C47_mocus",
    "C47_trivial",
    "C47_probability"
   ],
   "note": "From the model (C02) through any sequence of modelled preprocessing phases (C03), with dead gates freed on the way, to the products. Negation normal form for ZBDD and MOCUS is proved (C47_normal_form, from C05 and C50), not assumed. It ends with the products and probabilities in terms of the events of the tree. The graph handed over is required to be finished: no constants, AND/OR gates with two or more arguments, valid module flags (C06); modules with constant functions are excluded for BDD (C15_constant_module_refuted). For BDD cut sets with non-coherent modules the limit is as in C16_bdd_refuted."
  },
  {
   "property": "C48",
   "status": "proved",
   "theorems": [
    "C48_round_trip",
    "C48_stable",
    "C48_fixed_point",
    "C48_injective",
    "C48_unsupported",
    "C48_constant_refuted",
    "C48_label_refuted",
    "C48_name_refuted"
   ],
   "note": "Numbers are abstract: the hypothesis is that a number reads as it prints (the code prints doubles with %g, six digits, so it holds only for such numbers). C48_constant_refuted: a formula over a constant (HouseEvent::kTrue) is saved as an event nobody defines and the file does not load."
  },
  {
   "property": "C49",
   "status": "proved",
   "theorems": [
    "C49_null_gates_end",
    "C49_coalescing_ends",
    "C49_phase_five_flat"
   ],
   "note": "Fuel is shown to suffice, so that None in the models means a failed assertion, and none fails. K/N gates in the clash of C01_duplicate_refuted are excluded."
  },
  {
   "property": "C50",
   "status": "proved",
   "theorems": [
    "C50_connectives",
    "C50_complements",
    "C50_coherent",
    "C50_nothing_repaired",
    "C50_marked"
   ],
   "note": "Over the phases of C03; a complemented constant (false) counts as a leaf, as in the code where the constant is a special node."
  },
  {
   "property": "C51",
   "status": "proved",
   "theorems": [
    "C51_validate",
    "C51_histogram",
    "C51_mean_inside",
    "C51_uniform_mean",
    "C51_histogram_mean",
    "C51_lognormal",
    "C51_samples_inside",
    "C51_samples_refuted",
    "C51_gamma_refuted",
    "C51_gamma_probability_refuted",
    "C51_beta_refuted",
    "C51_beta_margin",
    "C51_lognormal_refuted",
    "C51_level_refuted",
    "C51_weightless_refuted"
   ],
   "note": "Over the reals. The Boost.Math functions are any functions with the listed properties of the mathematical ones (real_functions, met by some_functions). Means of uniform and histogram deviates are integrals; those of the others are not derived from densities. Found: the interval of gamma and beta deviates is not the percentile its comment promises; a beta deviate is always rejected as a probability (unless 1/I rounds to 1); a gamma deviate with shape 2 and scale 1/2 is accepted though it often exceeds 1; level 1/2 and weightless histograms divide by zero."
  },
  {
   "property": "C52",
   "status": "proved",
   "theorems": [
    "C52_trials",
    "C52_independent",
    "C52_ends",
    "C52_mean",
    "C52_statistics",
    "C52_no_spread",
    "C52_quantile_levels",
    "C52_one_trial_refuted",
    "C52_confidence_refuted"
   ],
   "note": "Over the reals; on the sampling model of C34 and the totals of C19. Mean and variance follow the update formulas of Boost.Accumulators; its quantile and density estimates are not modelled."
  },
  {
   "property": "C53",
   "status": "proved",
   "theorems": [
    "C53_undo_redo",
    "C53_clean",
    "C53_edit",
    "C53_consistent",
    "C53_undo_all",
    "C53_flavor_refuted",
    "C53_container_refuted"
   ],
   "note": "plain_flavors: the flavor attribute of basic events is one the GUI writes; with another one undo loses it (C53_flavor_refuted). Equality is of the model's data; the container pointer of a renamed gate is not restored (C53_container_refuted). QUndoStack is modelled from its documentation."
  },
  {
   "property": "C54",
   "status": "proved",
   "theorems": [
    "C54_tables",
    "C54_loaded",
    "C54_any_run",
    "C54_initial",
    "C54_once",
    "C54_new_formula",
    "C54_children",
    "C54_children_initial",
    "C54_children_refuted",
    "C54_moved_refuted"
   ],
   "note": "typed_action says only that an event inside a command has the C++ type of the command; C54_any_run needs no precondition of the edits. The view is a client of the item model that reads rows exactly when told. The rows below the gates stay right as long as no identifier changes and no gate leaves the table since the last new formula or reset (C54_children); otherwise they do go stale (C54_children_refuted, C54_moved_refuted); a new formula refreshes them all (C54_new_formula)."
  },
  {
   "property": "C55",
   "status": "proved",
   "theorems": [
    "C55_tree",
    "C55_any_run",
    "C55_initial",
    "C55_displayed"
   ],
   "note": "C55_any_run needs no precondition of the edits. boost::container::flat_set is modelled by its documented effects on the sorted list. The view reads rows exactly when told."
  },
  {
   "property": "C56",
   "status": "proved",
   "theorems": [
    "C56_results",
    "C56_information",
    "C56_injective",
    "C56_indentation",
    "C56_distribution",
    "C56_contributions",
    "C56_product"
   ],
   "note": "Numbers are abstract with any printing into text without control characters; that %g is precise enough is not claimed. good_analysis: names and texts without control characters, counts below 2^31. C56_contributions and C56_product are over the reals. Reader: the XML reader of C39/C48."
  },
  {
   "property": "C57",
   "status": "proved",
   "theorems": [
    "C57_consistent",
    "C57_arguments",
    "C57_no_project",
    "C57_outcome",
    "C57_settings",
    "C57_aborts",
    "C57_version",
    "C57_later",
    "C57_version_checked",
    "C57_project_flags_refuted",
    "C57_error_or_settings_refuted"
   ],
   "note": "C57_consistent is for any children of <options> in any order; C57_outcome and C57_settings for those that follow the schema (document), limits in any order. The XML and the command line are taken as parsed; doubles as in C31; version numbers do not overflow."
  },
  {
   "property": "C58",
   "status": "proved",
   "theorems": [
    "C58_accepted",
    "C58_times",
    "C58_exact_refuted"
   ],
   "note": "Finite numbers are rationals without rounding, with infinities and NaN; 1e-4 is 1/10000."
  },
  {
   "property": "C59",
   "status": "proved",
   "theorems": [
    "C59_tree",
    "C59_parents",
    "C59_products",
    "C59_importance",
    "C59_as_reported",
    "C59_texts"
   ],
   "note": "of_gate: the result is of a gate, with products, importance only with probability; the schema of the GUI has no event trees. Only the display role."
  },
  {
   "property": "C60",
   "status": "proved",
   "theorems": [
    "C60_integer",
    "C60_only",
    "C60_attribute",
    "C60_printed",
    "C60_boolean",
    "C60_white_space_refuted",
    "C60_comment_refuted"
   ],
   "note": "strtoll is modelled after the C standard (base 10, saturating). Not the variant for double. Found: a line end after a number makes a schema-valid text be refused; of a text with a comment inside only the part before it is read, and if that is blank strtoll gets a null pointer."
  },
  {
   "property": "C61",
   "status": "proved",
   "theorems": [
    "C61_probability",
    "C61_within",
    "C61_non_negative",
    "C61_positive",
    "C61_constant",
    "C61_nan_refuted",
    "C61_empty_refuted"
   ],
   "note": "Finite bounds are rationals. Boost.ICL is not in the sandbox: contains, within and is_empty follow its documented definitions by comparisons (domain_less_equal is the negation of the opposite comparison, which is what lets NaN through). C61_non_negative and C61_positive are for ranges with points; C61_empty_refuted shows the others."
  },
  {
   "property": "C62",
   "status": "proved",
   "theorems": [
    "C62_result",
    "C62_click",
    "C62_unchanged",
    "C62_reset_refuted"
   ],
   "note": "Qt's buttons are modelled from their documentation and source (exclusive groups, toggled). Found: the dialog builds its result from default settings, so accepting it resets uncertainty, CCF, SIL, seed, numbers of trials, quantiles and bins, time step and cut-off, and a limit order above 99 becomes 99 (C62_reset_refuted). The 512 states of the buttons are checked by computation inside the proof; the sequences are by induction."
  }
 ]
}