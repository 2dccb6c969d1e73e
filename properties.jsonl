{"id": "C01", "title": "Adding an argument to a gate never changes what the gate means", "statement": "Building an analysis-graph gate argument by argument (literals of variables or gates, including duplicates and complements of arguments already present) leaves the gate, after all automatic simplifications (duplicate, complement, constant detection), with exactly the Boolean value of its connective applied to the full multiset of arguments supplied. (Known defect, proved as such: a two-argument K/N gate given one of its arguments again becomes the other argument.)", "quantifier": "every connective, min-number, argument list and assignment of truth values", "why_tests_cant": "the simplification cascade depends on which arguments coincide, and the argument lists are unbounded", "anchors": ["src/pdag.cc: Gate::AddArg, Gate::ProcessDuplicateArg, Gate::ProcessAtleastGateDuplicateArg, Gate::ProcessComplementArg, Gate::AddConstantArg", "src/pdag.h: class Gate"]}
{"id": "C02", "title": "The analysis graph computes the fault tree", "statement": "The graph that the analysis works on, constructed from a fault tree's top gate, evaluates, for each assignment of basic events, to the same truth value as the fault-tree formula under MEF semantics of and/or/atleast/cardinality/xor/not/nand/nor/iff/imply/null and house events.", "quantifier": "every acyclic model, every house-event setting, every assignment of basic events", "why_tests_cant": "unboundedly many formulas, nestings and connectives", "anchors": ["src/pdag.cc: Pdag::Pdag, Pdag::AddArg, Pdag::ConstructComplexGate, Pdag::ConstructGate"]}
{"id": "C03", "title": "Preprocessing never changes the Boolean function of the graph", "statement": "The rewriting steps applied before analysis (constant propagation, null-gate removal, gate normalisation, multiple-definition merging, coalescing, common-argument merging, distributivity, complement propagation) leave the value of the graph root unchanged for every assignment of the variables.", "quantifier": "every graph (with sharing), every assignment, every order in which the rewrites are applied", "why_tests_cant": "a rewrite may be sound for trees and wrong for shared nodes; graphs are unbounded", "anchors": ["src/preprocessor.cc: Preprocessor::NormalizeGates, Preprocessor::NormalizeXorGate, Preprocessor::NormalizeAtleastGate, Preprocessor::PropagateComplements, Preprocessor::CoalesceGates, Preprocessor::MergeCommonArgs, Preprocessor::ProcessMultipleDefinitions", "src/pdag.cc: Gate::JoinNullGate, Gate::CoalesceGate, Gate::ProcessConstantArg, Pdag::PropagateConstant"]}
{"id": "C04", "title": "Normalisation eliminates every complex connective", "statement": "Normalisation ends on every graph whose gates have the arities of their connectives, and no assertion on its way fails. Full normalisation leaves AND and OR gates only below the root (no XOR, K/N, NOT, NAND, NOR or pass-through gate, no constant); partial normalisation leaves no NOT, NAND or NOR gate until pass-through gates are removed. The value of the graph (with its complement flag) stays for every assignment.", "quantifier": "every graph, K, N, argument list, order of traversal and assignment", "why_tests_cant": "the K/N expansion is recursive in K and N; gates are shared without bound", "anchors": ["src/preprocessor.cc: Preprocessor::NormalizeGates, Preprocessor::NormalizeGate, Preprocessor::NotifyParentsOfNegativeGates, Preprocessor::NormalizeAtleastGate, Preprocessor::NormalizeXorGate", "src/pdag.h: Gate::NegateNonCoherentGateArgs"]}
{"id": "C05", "title": "Complement propagation yields negation normal form", "statement": "After complement propagation every gate argument is positive (negations occur only on variables) and the graph value is unchanged, also when a gate is used both complemented and not.", "quantifier": "every normalised graph and assignment", "why_tests_cant": "sharing patterns are unbounded", "anchors": ["src/preprocessor.cc: Preprocessor::PropagateComplements"]}
{"id": "C06", "title": "Detected modules are independent", "statement": "A gate marked as a module shares no variable or gate with the rest of the graph: every path from the root to a node strictly inside the module passes through the module gate.", "quantifier": "every graph and every gate in it", "why_tests_cant": "module detection relies on visit times over arbitrary DAGs", "anchors": ["src/preprocessor.cc: Preprocessor::DetectModules, Preprocessor::AssignTiming, Preprocessor::FindModules"]}
{"id": "C07", "title": "Topological ordering is a linear extension", "statement": "The ordering assigned to graph nodes before BDD/ZBDD construction numbers every reachable node once, gives every gate a larger number than each of its arguments, and keeps the nodes of a module together.", "quantifier": "every acyclic graph", "why_tests_cant": "graph shapes are unbounded", "anchors": ["src/preprocessor.cc: pdag::TopologicalOrder, pdag::OrderArguments"]}
{"id": "C08", "title": "The BDD computes the graph function", "statement": "The binary decision diagram built from a graph evaluates, for every assignment, to the graph root's value; conjunction and disjunction of diagrams compute conjunction and disjunction.", "quantifier": "every graph/diagram, every assignment, every history of operations on the manager (shared tables)", "why_tests_cant": "results depend on the shared unique table and computation caches, i.e. on the whole history", "anchors": ["src/bdd.cc: Bdd::Apply, Bdd::FindOrAddVertex, Bdd::ConvertGraph", "src/bdd.h"]}
{"id": "C09", "title": "BDDs are reduced, ordered and canonical", "statement": "Diagrams produced by the manager are ordered and reduced, and two functions with the same truth table are represented by the identical vertex and complement attribute (so tautology/contradiction detection is exact).", "quantifier": "every history of manager operations, every pair of functions", "why_tests_cant": "canonicity is an invariant of the whole table over all histories", "anchors": ["src/bdd.cc: Bdd::FindOrAddVertex, Bdd::Apply", "src/bdd.h: UniqueTable"]}
{"id": "C10", "title": "Computation caches are transparent", "statement": "The lossy, direct-mapped computation cache returns for a key only the value most recently stored for that very key (or nothing), through collisions, resizing and clearing; so the result of an operation does not depend on cache contents.", "quantifier": "every sequence of insert/find/clear/rehash and every hash function", "why_tests_cant": "collision patterns and histories are unbounded", "anchors": ["src/bdd.h: CacheTable"]}
{"id": "C11", "title": "The unique table finds exactly the live entries", "statement": "Looking up a triple in the hash-consing table returns the stored live vertex for that triple if there is one, and never another one, through insertions, expirations and rehashing.", "quantifier": "every history of insertions, deaths of vertices, erasures and rehashes, every hash function", "why_tests_cant": "histories are unbounded", "anchors": ["src/bdd.h: UniqueTable"]}
{"id": "C12", "title": "Set operations on ZBDDs compute families of sets", "statement": "Union (OR) and product (AND) of families of products represented by ZBDDs denote, after minimisation, the minimised union and the minimised pairwise union of products.", "quantifier": "every pair of diagrams", "why_tests_cant": "diagram sizes are unbounded", "anchors": ["src/zbdd.cc: Zbdd::Apply"]}
{"id": "C13", "title": "Minimisation keeps exactly the minimal products", "statement": "Minimising a family removes precisely the products which contain another product of the family, and subsumption removes precisely those products that contain some product of the other family.", "quantifier": "every diagram", "why_tests_cant": "diagram sizes are unbounded", "anchors": ["src/zbdd.cc: Zbdd::Minimize, Zbdd::Subsume"]}
{"id": "C14", "title": "Reported products of a coherent fault tree are its minimal cut sets", "statement": "With no order limit, the products extracted from the BDD of a coherent function are exactly its minimal cut sets: each is a cut set, none contains another, and every cut set contains one.", "quantifier": "every monotone function/BDD and every assignment", "why_tests_cant": "functions are unbounded", "anchors": ["src/zbdd.cc: Zbdd::ConvertBdd"]}
{"id": "C15", "title": "Prime implicants are exactly the prime implicants", "statement": "With the prime-implicants option, the products extracted from the BDD are exactly the prime implicants of the (possibly non-coherent) function.", "quantifier": "every BDD", "why_tests_cant": "functions are unbounded", "anchors": ["src/zbdd.cc: Zbdd::ConvertBddPrimeImplicants", "src/bdd.cc: Bdd::CalculateConsensus"]}
{"id": "C16", "title": "The product order limit is exact", "statement": "With a limit L on product order, the reported products are exactly those of the unlimited result that have at most L literals (except that the BDD algorithm, asked for minimal cut sets of a graph with non-coherent modules, may lose products of exactly L literals).", "quantifier": "every diagram, every limit", "why_tests_cant": "pruning interacts with minimisation at each recursion level", "anchors": ["src/zbdd.cc: Zbdd::Prune, Zbdd::Apply, Zbdd::ConvertBdd"]}
{"id": "C17", "title": "MOCUS gives the same minimal cut sets", "statement": "For a normalised graph, with or without complements and modules, the MOCUS expansion ends and yields exactly the minimal cut sets of the graph's function up to the order limit, each once: the same sets the ZBDD algorithm yields.", "quantifier": "every normalised AND/OR graph, every limit", "why_tests_cant": "graph shapes unbounded", "anchors": ["src/mocus.cc: Mocus::AnalyzeModule", "src/zbdd.cc: zbdd::CutSetContainer"]}
{"id": "C18", "title": "Products with modules are enumerated exactly once", "statement": "Iterating over products expands modules so that each product is produced exactly once, and the reported product count and order distribution agree with what iteration produces.", "quantifier": "every ZBDD with nested modules", "why_tests_cant": "diagram and module nesting unbounded", "anchors": ["src/zbdd.h: Zbdd::const_iterator", "src/zbdd.cc: Zbdd::CountProducts", "src/fault_tree_analysis.cc: ProductContainer::ProductContainer"]}
{"id": "C19", "title": "Exact probability equals the sum over satisfying assignments", "statement": "The total probability computed on the BDD equals the sum, over all assignments that satisfy the function, of the product of event probabilities (or complements), independent events assumed; it lies in [0,1].", "quantifier": "every BDD with complement edges and every probability assignment in [0,1]", "why_tests_cant": "real/rational inputs and graphs unbounded", "anchors": ["src/probability_analysis.cc: ProbabilityAnalyzer<Bdd>::CalculateProbability"]}
{"id": "C20", "title": "Approximations bound the exact probability from above", "statement": "For a family of cut sets with positive literals, the min-cut-upper-bound and rare-event approximations lie in [0,1], the rare-event value is not below the MCUB value, and both are at least the exact probability of the union of the cut sets.", "quantifier": "every family of cut sets and all probabilities in [0,1]", "why_tests_cant": "unbounded families and real inputs", "anchors": ["src/probability_analysis.cc: McubCalculator::Calculate, RareEventCalculator::Calculate"]}
{"id": "C21", "title": "Floating-point probability stays in [0,1]", "statement": "In IEEE binary64 arithmetic with round-to-nearest, the BDD probability recursion applied to event probabilities in [0,1] never produces a value outside [0,1].", "quantifier": "every BDD and every vector of binary64 probabilities in [0,1]", "why_tests_cant": "2^64 inputs per variable, unbounded depth", "anchors": ["src/probability_analysis.cc: ProbabilityAnalyzer<Bdd>::CalculateProbability"]}
{"id": "C22", "title": "Importance factors mean what they say", "statement": "The marginal importance computed on the BDD for a variable equals P(top|event)-P(top|not event), including variables inside modules; and CIF, DIF, RAW, RRW satisfy their defining equations.", "quantifier": "every BDD, variable and probability vector", "why_tests_cant": "unbounded diagrams and real inputs", "anchors": ["src/importance_analysis.cc: ImportanceAnalyzer<Bdd>::CalculateMif, ImportanceAnalysis::Analyze"]}
{"id": "C23", "title": "The SIL histogram is a partition of time", "statement": "The fractions of mission time reported for the SIL buckets are nonnegative, each is the fraction of time the interpolated curve spends in the bucket, and they add up to one (except that time spent flat exactly on an inner bucket bound is counted in both buckets), and average PFD lies between the extreme values of the curve.", "quantifier": "every non-empty probability-time curve", "why_tests_cant": "curves are unbounded, boundary coincidences are measure zero", "anchors": ["src/probability_analysis.cc: ProbabilityAnalysis::ComputeSil, AverageY, PartitionY"]}
{"id": "C24", "title": "The time grid is complete and finite", "statement": "The probability-over-time calculation evaluates a strictly increasing sequence of times starting at 0, ending exactly at mission time, with gaps at most the time step (up to rounding), and terminates whenever the step is not smaller than the spacing of doubles at the mission time; the mission time is restored afterwards.", "quantifier": "every mission time and positive time step", "why_tests_cant": "unbounded real (binary64) inputs", "anchors": ["src/probability_analysis.cc: ProbabilityAnalyzer::CalculateProbabilityOverTime"]}
{"id": "C25", "title": "CCF models conserve the total failure probability", "statement": "For every validated beta-factor, MGL and alpha-factor group (alpha factors not all zero), the sum, over all common-cause events that involve a given member, of their probabilities equals the member's total failure probability Q; for phi-factor groups it equals Q times the sum of the factors weighted by the number of subsets of that level containing the member (which is not Q in general).", "quantifier": "every group size, every factor vector, every Q", "why_tests_cant": "unbounded group sizes", "anchors": ["src/ccf_group.cc: BetaFactorModel::CalculateProbabilities, MglModel::CalculateProbabilities, AlphaFactorModel::CalculateProbabilities, PhiFactorModel::CalculateProbabilities"]}
{"id": "C26", "title": "CCF expansion enumerates every combination once", "statement": "Applying a CCF model makes, for each level k with a probability, one event for each k-element subset of members, and each member's proxy gate is the OR of exactly the events of the subsets that contain it.", "quantifier": "every group size and set of levels", "why_tests_cant": "unbounded sizes", "anchors": ["src/ccf_group.cc: CcfGroup::ApplyModel", "src/ext/combination.h: for_each_combination"]}
{"id": "C27", "title": "CCF factor levels are validated", "statement": "A factor is accepted exactly when its level (given, or deduced from the previous one) lies between the model's minimum level and the number of members and is not yet defined; validation passes exactly when, in addition, the distribution is given, the levels are consecutive from the minimum, every value is a probability, and phi factors sum to one within 1e-4.", "quantifier": "every sequence of AddFactor/AddMember/AddDistribution calls", "why_tests_cant": "unbounded call sequences", "anchors": ["src/ccf_group.cc: CcfGroup::AddFactor, CcfGroup::Validate, CcfGroup::AddMember, CcfGroup::AddDistribution"]}
{"id": "C28", "title": "Formula validation accepts exactly well-formed formulas", "statement": "Formula construction succeeds exactly if the connective's arity and min/max-number rules hold, arguments are pairwise distinct by id, and later argument swaps keep those rules.", "quantifier": "every connective, argument list and min/max", "why_tests_cant": "unbounded argument lists", "anchors": ["src/event.cc: Formula::Formula, Formula::ValidateConnective, Formula::ArgSet::Add, Formula::Swap"]}
{"id": "C29", "title": "Substitutions are validated and classified consistently", "statement": "Every substitution accepted by validation has a coherent hypothesis; the deduced traditional type is reported only when its structural conditions hold.", "quantifier": "every hypothesis, target, and source", "why_tests_cant": "unbounded hypothesis/argument lists", "anchors": ["src/substitution.cc: Substitution::Validate, Substitution::type"]}
{"id": "C30", "title": "Cycle detection is sound and complete", "statement": "Model validation reports a cycle if and only if the references (gates, parameters, rules, branches, links) contain one, and the reported node sequence is a real cycle.", "quantifier": "every finite reference graph", "why_tests_cant": "unbounded graphs", "anchors": ["src/cycle.h: DetectCycle, CheckCycle, PrintCycle"]}
{"id": "C31", "title": "Analysis settings stay mutually consistent", "statement": "Through every sequence of setter calls that does not raise, prime implicants imply exact BDD analysis and approximations never coexist with prime implicants, importance/uncertainty/SIL imply probability analysis, numeric settings stay in their documented ranges; a rejected setter leaves the settings unchanged and no setter aborts the process.", "quantifier": "every sequence of setter calls with any arguments", "why_tests_cant": "unbounded call sequences", "anchors": ["src/settings.cc: Settings", "src/settings.h"]}
{"id": "C32", "title": "The linear containers behave like maps and sets", "statement": "linear_map and linear_set behave like an abstract finite map/set under every sequence of insert, emplace, operator[], erase, find, at; keys stay unique.", "quantifier": "every operation sequence and both erasers", "why_tests_cant": "unbounded sequences", "anchors": ["src/ext/linear_map.h: linear_map", "src/ext/linear_set.h: linear_set"]}
{"id": "C33", "title": "Expression intervals contain the expression's values", "statement": "The interval reported for a validated expression contains every value the expression can take when its leaves stay within their intervals, if every operation used is monotone in each argument on its domain (arithmetic, min, max, mean, exp, log, roots, trigonometric functions with fixed ranges, order comparisons, conditionals, logical operations on non-negative domains, powers of positive bases). (Known defects, proved as such: abs, cosh, tan, equality tests, modulo, logical operations and powers on domains that straddle 0.)", "quantifier": "every expression tree and argument values", "why_tests_cant": "continuous domains", "anchors": ["src/expression.h: NaryExpression::interval", "src/expression/numerical.h", "src/expression/conditional.cc"]}
{"id": "C34", "title": "One Monte-Carlo trial samples each shared expression once", "statement": "Within a trial each random deviate is sampled at most once, so shared parameters get consistent values, and resetting before the next trial makes every expression used in it resample, if nothing was sampled before the analysis began (known defect, proved as such: the first trial of a later analysis may reuse a sample of an earlier one).", "quantifier": "every shared expression DAG and every sequence of trials", "why_tests_cant": "DAGs and histories unbounded", "anchors": ["src/expression.cc: Expression::Sample, Expression::Reset", "src/uncertainty_analysis.cc: UncertaintyAnalyzer::SampleExpressions"]}
{"id": "C35", "title": "Event-tree sequences are the union of their paths", "statement": "The Boolean formula produced for each end-state sequence is the disjunction, over the paths that lead to it and collect at least one formula, of the conjunction of the formulas collected on that path, evaluated with the house events set on that path at the moment of collection; likewise probabilities are the sum over paths of products. (Known defect, proved as such: a path that collects nothing, i.e. is certain, is ignored when another path to the same sequence has a formula.)", "quantifier": "every event tree (forks, links, instructions), every assignment", "why_tests_cant": "trees unbounded", "anchors": ["src/event_tree_analysis.cc: EventTreeAnalysis::Analyze, EventTreeAnalysis::CollectSequences, Clone"]}
{"id": "C36", "title": "Functional events occur in declared order on every path", "statement": "A model accepted by validation never meets the same functional event twice on a path of an event tree, and meets them in declaration order.", "quantifier": "every event tree with named branches and every path", "why_tests_cant": "trees unbounded", "anchors": ["src/initializer.cc: Initializer::CheckFunctionalEventOrder, Initializer::EnsureLinksOnlyInSequences"]}
{"id": "C37", "title": "Analysing a phase leaves the model as it was", "statement": "After the analysis of an alignment phase, mission time and the states of all house events are as before, and every phase of every alignment is analysed with exactly the states and time it asks for; provided that no phase sets a house event twice (otherwise, a known defect proved as such, the state is not restored).", "quantifier": "every phase (list of set-house-event instructions) and model state", "why_tests_cant": "instruction lists unbounded", "anchors": ["src/risk_analysis.cc: RiskAnalysis::RunAnalysis"]}
{"id": "C38", "title": "Top events are the unreferenced gates", "statement": "The automatically collected top events of a fault tree are exactly the gates that no other gate of that fault tree uses as an argument.", "quantifier": "every acyclic set of gates and visiting order", "why_tests_cant": "graphs unbounded, the container order is unspecified", "anchors": ["src/fault_tree.cc: FaultTree::CollectTopEvents, FaultTree::MarkNonTopGates"]}
{"id": "C39", "title": "The report writer only emits well-formed XML", "statement": "Every sequence of element, attribute and text calls that raises no error (and destroys elements in scope order) produces a well-formed tree of tags, and text and attribute values read back as given.", "quantifier": "every call sequence and every string", "why_tests_cant": "unbounded call sequences", "anchors": ["src/xml_stream.h: StreamElement, Stream"]}
{"id": "C40", "title": "Numbers are written and read back exactly", "statement": "Integers are written to the report in decimal such that reading them back gives the same integer, within the buffer provided.", "quantifier": "every int and size_t", "why_tests_cant": "2^64 inputs", "anchors": ["src/xml_stream.h: FileStream::write"]}
{"id": "C41", "title": "Element identifiers are unique and well-formed", "statement": "Names with dots or empty names are rejected, private elements have a non-empty base path, and the full path determines base path and name.", "quantifier": "every string", "why_tests_cant": "unbounded strings", "anchors": ["src/element.cc: Element::name, Role::Role, Id::Id", "src/element.h"]}
{"id": "C42", "title": "Reference resolution honours scope", "statement": "An entity reference resolves to the local-scope element if one exists, otherwise to the public element (undotted) or to the absolute path (dotted), and to an error otherwise.", "quantifier": "every reference, base path and table contents", "why_tests_cant": "unbounded tables", "anchors": ["src/initializer.cc: Initializer::GetEntity, Initializer::GetEvent"]}
{"id": "C43", "title": "Sorted-range intersection test is exact", "statement": "The intersection test on two sorted ranges returns true iff they share an element.", "quantifier": "every pair of sorted ranges", "why_tests_cant": "unbounded ranges", "anchors": ["src/ext/algorithm.h: intersects"]}
{"id": "C44", "title": "Failure models yield probabilities", "statement": "The exponential, GLM, Weibull and periodic-test failure expressions evaluate to values in [0,1] on validated parameters.", "quantifier": "all real parameter values admitted by validation", "why_tests_cant": "continuous domains", "anchors": ["src/expression/exponential.cc"]}
{"id": "C45", "title": "Extern function signatures are told apart", "statement": "Two extern-function declarations with at most five parameters get the same dispatch code only if return and parameter types are identical.", "quantifier": "all type lists", "why_tests_cant": "(finite) but also covers the encoding for all lengths", "anchors": ["src/initializer.cc: Encode"]}
{"id": "C46", "title": "Coherence is detected exactly", "statement": "A graph is treated as coherent exactly when its root is not complemented and no complement or negating connective is reachable; the failure of a coherent graph is monotone in the basic events.", "quantifier": "every acyclic graph, every assignment", "why_tests_cant": "graph shapes are unbounded; the analyses skip minimality work for coherent graphs", "anchors": ["src/preprocessor.cc: pdag::MarkCoherence"]}
{"id": "C47", "title": "The reported cut sets and probabilities are those of the fault tree", "statement": "An analysis from end to end (construction of the graph from the model, preprocessing, ordering, any of the three algorithms, products given back as events) reports exactly the minimal cut sets of the fault tree up to the limit order (or its prime implicants), no product twice and none inside another; and the exact total probability and the marginal importances are those defined by the fault tree, whatever the order in which the containers are traversed.", "quantifier": "every fault tree with house events, CCF groups and substitutions, every run of the preprocessor, every algorithm, limit order, sequence of questions to the probability analyzer", "why_tests_cant": "models unbounded; the stages meet only through invariants that no single test observes", "anchors": ["src/fault_tree_analysis.cc: FaultTreeAnalysis::Analyze", "src/fault_tree_analysis.h: FaultTreeAnalyzer", "src/preprocessor.cc", "src/probability_analysis.h"]}
{"id": "C48", "title": "A saved model loads as the same model", "statement": "Saving a model of fault trees, basic events and house events to a file and loading the file gives the same model: names, labels, attributes, formulas over the same events, expressions and states, in the same order; saving it again gives the same file.", "quantifier": "every model within the supported constructs with printable, trimmed names and texts, both indentation settings", "why_tests_cant": "models, texts and formula shapes are unbounded; name resolution and escaping interact", "anchors": ["src/serialization.cc: Serialize", "src/initializer.cc: Initializer::GetFormula, ConstructElement, AttachLabelAndAttributes", "src/xml.h: Element::attribute, trim", "src/xml_stream.h: StreamElement"]}
{"id": "C49", "title": "Graph simplification always finishes", "statement": "Removal of NULL gates and repeated gate coalescing end on every graph in shape, without a failed assertion; the function of every node is kept, the gates are again in shape, and afterwards no gate below the root has an argument it could have absorbed.", "quantifier": "every graph whose gates have the arities the preprocessor checks, every order of arguments and parents, every module marking", "why_tests_cant": "termination needs a measure over unbounded graphs that are rewritten while they are traversed", "anchors": ["src/preprocessor.cc: CoalesceGates, RunPhaseTwo, RunPhaseFive, TestGateStructure", "src/pdag.cc: Pdag::RemoveNullGates, PropagateNullGate, Gate::CoalesceGate, Gate::JoinNullGate"]}
{"id": "C50", "title": "Once normalised, the graph stays normalised", "statement": "After the preprocessor has removed the complex connectives, no later phase brings one back: a graph of AND, OR and pass-through gates stays one. Once complements are only on variables and the graph itself is not complemented, that stays so. A coherent graph (no complements, only AND, OR, K/N and pass-through gates) stays coherent through any run of the preprocessor, in it the failure of a node never repairs a gate, and the final coherence marks are all set, so the sanity checks and asserts about it never fire.", "quantifier": "every graph and every run of the phases in any order and number", "why_tests_cant": "each phase creates and rewrites gates on graphs of any size; a test sees one run", "anchors": ["src/preprocessor.cc: Run, CustomPreprocessor, MarkCoherence, TestGateStructure, NormalizeGates, PropagateComplements, BooleanOptimization, HandleDistributiveArgs, DecomposeCommonNodes", "src/pdag.cc: Gate::AddArg, Gate::ProcessConstantArg, Gate::CoalesceGate"]}
{"id": "C51", "title": "Random deviates report their mean and their range", "statement": "Validation of a random deviate accepts exactly the parameters of its distribution (min < max, positive deviation, shape and scale, level in (0, 1), error factor above 1, nonnegative weights and strictly increasing boundaries). The mean reported for a uniform or histogram deviate is the mean of its distribution; the location and scale of a log-normal deviate given by mean and error factor reproduce both. The reported interval contains the mean of uniform, normal, beta and (with some positive weight) histogram deviates, of log-normal ones exactly for scales in [0, 6], of gamma ones exactly if k Q(k, 0.01) <= 1; it contains every sample of uniform, beta and histogram deviates. (Not so: gamma deviates with a natural shape above 1 never have their mean in it, beta deviates are never accepted as a probability, a log-normal level of 1/2 divides by zero.)", "quantifier": "all parameter values, all histograms, all samples", "why_tests_cant": "parameters are arbitrary numbers; tests try one deviate of each kind", "anchors": ["src/expression/random_deviate.h: UniformDeviate, NormalDeviate, LognormalDeviate, GammaDeviate, BetaDeviate, Histogram", "src/expression/random_deviate.cc: Validate, interval, value, DoSample", "src/expression.cc: EnsureProbability"]}
{"id": "C52", "title": "Uncertainty analysis samples independent trials and averages them", "statement": "Every trial calculates the total probability with, for each basic event with an uncertain expression, the value sampled in this trial clamped to [0, 1] (events sharing an expression share its value), and for every other event its point probability, whatever earlier trials sampled. All totals and their mean are in [0, 1]; with two or more trials the mean is the average of the totals, sigma their corrected standard deviation (zero exactly if all totals agree), the confidence interval the mean plus and minus 1.96 standard errors; the quantile levels are 1/n, 2/n, ..., 1. (With one trial, which the settings accept, sigma is not a number.)", "quantifier": "every expression graph, event list, random stream and number of trials", "why_tests_cant": "trials share mutable expression state and the map of probabilities; a test sees few random runs", "anchors": ["src/uncertainty_analysis.cc: GatherDeviateExpressions, SampleExpressions, CalculateStatistics", "src/uncertainty_analysis.h: UncertaintyAnalyzer::Sample", "src/expression.cc: Sample, Reset"]}
{"id": "C53", "title": "Undo and redo restore the model", "statement": "In the GUI, after any sequence of allowed edits (labels, names, types of events, formulas, expressions, flavors, house states, the name of the model, adding and removing events and fault trees), macros, undos, redos and saves, no step fails and the model is the one an editor holds that keeps a copy of the model before every edit and puts copies back; the model shown as unmodified is the one loaded or last saved; an edited model stays consistent (unique names, no dangling arguments, every gate in one fault tree). Undoing all edits gives back the first model.", "quantifier": "every consistent model, history of edits, macros, undos, redos and saves, and limit of the undo stack", "why_tests_cant": "a command keeps what it needs to invert itself in moved-from members; tests try each command once on one model", "anchors": ["gui/command.h: Involution, Inverse", "gui/model.h: Element::SetLabel, SetId, Model::AddFaultTree, AddEvent, RemoveEvent, ChangeEventType", "gui/model.cpp: SetExpression, SetFlavor, SetState, SetFormula, SetName", "gui/mainwindow.cpp: undo stack, macros, clean state", "src/element.h: Container::Add, Remove", "src/event.cc: Formula::Swap"]}
{"id": "C54", "title": "The tables of the GUI show the model", "statement": "In the GUI, after any sequence of edits, macros, undos, redos and saves (allowed or not, as long as the run does not fail), the tables of basic events, house events and gates have exactly one row for each event of their kind, and a view that reads a row only when the table says that it was inserted, changed or reset shows the present name, flavor, expression, state, connective, number of arguments and label of every event. The rows below the gates stay right as long as no event is renamed and no gate is removed since the last new formula. (Not so in general: they keep the old name of a renamed argument, and a gate that moves into the row of a removed one is shown with the arguments of the removed one.)", "quantifier": "every consistent model, order of the rows, history of edits, undos and redos, limit of the undo stack", "why_tests_cant": "row numbers are kept in a map that each removal rewrites, and every command emits its own signals; a test tries one command on one table", "anchors": ["gui/elementcontainermodel.cpp: addElement, removeElement, connectElement, data, sourceData", "gui/elementcontainermodel.h: ElementContainerModel", "gui/model.h: signals of Element, BasicEvent, HouseEvent, Gate, Model; AddEvent, RemoveEvent, ChangeEventType", "gui/model.cpp: SetExpression, SetFlavor, SetState, SetFormula"]}
{"id": "C55", "title": "The tree of the GUI shows the model", "statement": "In the GUI, after any sequence of edits, macros, undos, redos and saves (allowed or not, as long as the run does not fail), the tree at the side lists the names of all fault trees of the model, each once and in increasing order, and the numbers it gives for fault trees, gates, basic events and house events are the numbers of those elements in the model, although it reads a row only when a signal of the model makes it do so.", "quantifier": "every consistent model, order in which its fault trees are loaded, history of edits, undos and redos, limit of the undo stack", "why_tests_cant": "the set of fault trees is searched by name when trees come and go, and removed ones come back by undo; a test adds one tree", "anchors": ["gui/modeltree.cpp: ModelTree, setupElementCountConnections, rowCount, index, data", "gui/modeltree.h: NameComparator", "gui/model.cpp: AddFaultTree", "gui/model.h: AddEvent, RemoveEvent, ChangeEventType, Model::added, Model::removed"]}
{"id": "C56", "title": "The report is well formed and says what the analyses found", "statement": "Whatever the analyses found, the report is written without a stream error and is an XML document; reading it back gives, for every result in order, its gate or sequence with alignment and phase, the products with their literals (also those of common-cause groups), orders, probabilities and contributions, their number by order and the number of different events in them, the probability over time, the safety integrity levels, the importance factors, the statistics of the uncertainty and the probabilities of the sequences, and also the settings, the numbers of elements of each kind, the warnings about unused elements, the times and the version. The contributions add up to one and the distribution to the number of products.", "quantifier": "every set of results, settings and model with printable names (no control characters), counts within int, both indentation settings", "why_tests_cant": "results and names are unbounded; missing attributes, an unclosed element or a name that is not escaped appear only for particular combinations of analyses", "anchors": ["src/reporter.cc: Reporter::Report, ReportInformation, ReportResults, PutId, ReportLiteral", "src/fault_tree_analysis.h: Product, ProductContainer", "src/fault_tree_analysis.cc: ProductContainer::ProductContainer", "src/xml_stream.h"]}
{"id": "C57", "title": "The project file and the command line configure the analysis", "statement": "From any project file and command line the analysis gets mutually consistent settings, or an error is reported. Each value (limits, times, numbers of trials, quantiles and bins, seed, cut-off) and the algorithm is the one of the command line if given there, else of the project if given there, else the default; a value out of range is an error even if it is overwritten; the input files are those of the project and then those of the command line; the version is checked. (Not so: the analyses and prime implicants that a project asks for are switched off unless the command line repeats them, and a project with prime implicants aborts the program if the command line asks for ZBDD or MOCUS.)", "quantifier": "every list of options in a project file, every combination of command-line options", "why_tests_cant": "options of two sources interact through setters that change each other; combinations are many", "anchors": ["src/project.cc: Project::Project, GatherOptions, SetAnalysis, SetLimits", "src/scram.cc: ParseArguments, ConstructSettings, RunScram", "src/ext/version.cc: extract_version", "src/settings.cc"]}
{"id": "C58", "title": "The phases of an alignment cover the mission", "statement": "An alignment is accepted exactly if its phases have different names, each fraction is a number above 0 and up to 1, and the fractions sum to 1 within 1/10000. The phases are then analysed one after the other, each with a positive part of the mission time, and the parts sum to the mission time within 1/10000 of it. (Not so: the sum may exceed the mission time.)", "quantifier": "every list of phases with any fractions (also infinities and NaN), any mission time", "why_tests_cant": "fractions are arbitrary floating-point numbers, the number of phases is unbounded", "anchors": ["src/alignment.cc: Phase::Phase, Alignment::Validate", "src/ext/float_compare.h: is_close", "src/initializer.cc: Define(Alignment), ConstructElement<Phase>", "src/risk_analysis.cc: RunAnalysis(context)"]}
{"id": "C59", "title": "The GUI shows what the analyses found", "statement": "For results of gates, a view of the report tree reads for each result, in order, its name and below it the number of products, the total probability and the number of importance records, exactly as far as these analyses were made; the tables it opens have one row per product (its literals, order and, with probabilities, probability and contribution: the numbers of the report) and one per importance record. Products shown with the same text have the same literals in the same order.", "quantifier": "every list of results and every container of products, every name without the two signs used in the texts", "why_tests_cant": "results are unbounded; the index of a row is packed into a pointer, the text of a product into one string", "anchors": ["gui/reporttree.cpp: ReportTree", "gui/producttablemodel.cpp: ProductTableModel", "gui/importancetablemodel.cpp: ImportanceTableModel", "gui/mainwindow.cpp: activateReportTree"]}
{"id": "C60", "title": "Integers and truth values of input files are read for what they say", "statement": "An integer in the form of the XML Schema (optional sign, digits), with blanks around it, is read for its value when it fits a 32-bit int and refused otherwise, from attributes and texts alike; nothing else is read, except that other white space may stand before the digits. A missing or blank attribute is no value. Truth values are true, false, 1, 0. What the program prints for an integer is read back.", "quantifier": "every text, with any number of digits, signs and blanks", "why_tests_cant": "texts and their numbers of digits are unbounded; the saturation of the library function is met by numbers of any length", "anchors": ["src/xml.h: detail::to<int>, detail::to<bool>, detail::trim, Element::attribute<T>, Element::text<T>"]}
{"id": "C61", "title": "Values and ranges of expressions are accepted exactly where the documentation says", "statement": "A value with its range is accepted as a probability, or for a closed domain such as that of acos, exactly if the value and every point of the range lie in it; as a positive or a non-negative argument exactly if the value and every point of the range are positive or non-negative. What is not a number is refused by the latter and accepted by the former (refuted).", "quantifier": "every value, every interval with finite bounds of any kind (open, closed, half-open)", "why_tests_cant": "there are infinitely many intervals and four kinds of bounds, each meeting the others' bounds", "anchors": ["src/expression.cc: EnsureProbability, EnsurePositive, EnsureNonNegative, EnsureWithin", "src/expression.h: Contains, IsProbability, IsNonNegative, IsPositive"]}
{"id": "C62", "title": "The settings dialog returns what it shows, and nothing inconsistent", "statement": "Opened on any consistent settings and after any clicks and entered numbers, the settings dialog returns consistent settings, exactly those its buttons and numbers show; no assertion fails and no exchange of signals goes on forever. A clicked check box changes and a clicked radio button is chosen. Accepted untouched, the dialog keeps what it shows.", "quantifier": "every consistent settings, every sequence of user actions of any length", "why_tests_cant": "sequences of user actions are unbounded, and the buttons change each other through signals", "anchors": ["gui/settingsdialog.cpp: SettingsDialog::settings, setupState, setupConnections", "gui/settingsdialog.ui", "src/settings.cc", "gui/mainwindow.cpp"]}
