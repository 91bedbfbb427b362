{"id": "C01", "title": "Building a collection from a list of tagged tuples keeps exactly its tuples, sorted, once each, with combined tags", "statement": "For any list of tagged tuples, the collection built from it is strictly sorted by tuple, contains a tuple iff the list does, and the tag stored for a tuple is the provenance sum, in input order, of all tags the list gives to that tuple.", "quantifier": "every finite list of tagged tuples, every total order on tuples, every provenance", "why_tests_cant": "the property ranges over all lists, duplicates patterns and all provenances; a test fixes one list and one tag type", "anchors": ["core/src/runtime/dynamic/collections/sorted.rs: DynamicSortedCollection::from_vec"]}
{"id": "C02", "title": "Merging two collections is tagged set union", "statement": "Merging two sorted collections yields a strictly sorted collection whose tuples are exactly the union, where a tuple in both carries the sum of both tags and a tuple in one carries its own tag.", "quantifier": "every pair of strictly sorted collections, every provenance", "why_tests_cant": "the merge has four fast paths and a two-pointer loop; only a proof covers all interleavings", "anchors": ["core/src/runtime/dynamic/collections/sorted.rs: DynamicSortedCollection::merge"]}
{"id": "C03", "title": "Galloping search returns the partition point", "statement": "For a list sorted with respect to a monotone predicate, the galloping search started at a position returns the first position at or after it where the predicate fails.", "quantifier": "every list, every monotone predicate, every starting position (the code violates this for starting positions above zero, which is stated and proved as a refutation)", "why_tests_cant": "exponential-then-binary search has off-by-one corners at every power of two", "anchors": ["core/src/runtime/utils/gallop.rs: gallop, gallop_index"]}
{"id": "C04", "title": "Point and range lookup agree with the list content", "statement": "Looking up a key in a sorted collection returns exactly the tagged tuples whose first component equals the key.", "quantifier": "every sorted collection and key", "why_tests_cant": "all list lengths and all positions of the key range matter", "anchors": ["core/src/runtime/dynamic/dataflow/find.rs", "core/src/runtime/utils/gallop.rs: gallop"]}
{"id": "C05", "title": "Scheduling a round loses no fact", "statement": "One scheduling round of a relation (whatever scheduler is selected: least-fixed-point, depth-first, A*, beam) never drops a tuple: each tuple that was pending, waiting, fresh or established before the round is fresh, waiting or established after it, and no tuple is invented.", "quantifier": "every relation state, every scheduler, every provenance", "why_tests_cant": "needs all states of the relation's four containers, i.e. all histories", "anchors": ["core/src/runtime/dynamic/relation.rs: DynamicRelation::changed", "core/src/runtime/env/schedulers/lfp.rs", "core/src/runtime/env/schedulers/dfs.rs", "core/src/runtime/env/schedulers/astar.rs", "core/src/runtime/env/schedulers/beam.rs"]}
{"id": "C06", "title": "A tuple is treated as new at most when its tag is new", "statement": "Under the default scheduler a tuple that is already established re-enters the fresh batch only if its combined tag was not saturated with respect to the old tag; a fresh tuple is otherwise not present among the established tuples.", "quantifier": "every relation state (refuted for large pending batches because of the galloping search defect; proved for the linear path)", "why_tests_cant": "depends on relative sizes of batches and positions of equal elements", "anchors": ["core/src/runtime/dynamic/relation.rs: DynamicRelation::changed", "core/src/runtime/env/schedulers/lfp.rs: LFPScheduler::schedule", "core/src/runtime/env/schedulers/utils.rs", "core/src/runtime/utils/gallop.rs: gallop_index"]}
{"id": "C07", "title": "Every relational operator computes its set-theoretic meaning incrementally", "statement": "For projection, selection, lookup, union, product, join and intersection, the tuples of the operator's established and fresh outputs together are exactly the operator applied to all established-and-fresh input tuples, and the fresh output covers every result using at least one fresh input.", "quantifier": "every operator tree, every pair of inputs split into established batches and fresh batch", "why_tests_cant": "infinitely many operator trees and batch splits", "anchors": ["core/src/runtime/dynamic/dataflow/join.rs", "core/src/runtime/dynamic/dataflow/product.rs", "core/src/runtime/dynamic/dataflow/intersect.rs", "core/src/runtime/dynamic/dataflow/find.rs", "core/src/runtime/dynamic/dataflow/filter.rs", "core/src/runtime/dynamic/dataflow/project.rs", "core/src/runtime/dynamic/dataflow/union.rs"]}
{"id": "C08", "title": "Evaluation is sound: only derivable facts are output", "statement": "Every tuple in the result of evaluating a recursive stratum is derivable from the input facts by finitely many rule applications.", "quantifier": "every positive program, every provenance, every scheduler, every number of executed iterations, including runs cut by an iteration limit", "why_tests_cant": "unbounded recursion depth and unbounded databases", "anchors": ["core/src/runtime/dynamic/iteration.rs: DynamicIteration::run", "core/src/runtime/dynamic/relation.rs", "core/src/runtime/dynamic/dataflow/dynamic_dataflow.rs"]}
{"id": "C09", "title": "Evaluation is complete: all derivable facts are output when the loop stops by itself", "statement": "If the evaluation loop ends because no relation changed, the output contains every derivable tuple, i.e. the output is exactly the least set closed under the rules.", "quantifier": "every positive program, every provenance without early discarding, every scheduler for which waiting facts count as changes", "why_tests_cant": "semi-naive evaluation can silently drop join combinations; completeness quantifies over all programs and databases", "anchors": ["core/src/runtime/dynamic/iteration.rs: DynamicIteration::run, need_to_iterate", "core/src/runtime/dynamic/relation.rs"]}
{"id": "C10", "title": "The answer set does not depend on the scheduler, on batch boundaries or on rule order", "statement": "Two runs of the same rules and facts that stop by themselves return the same set of tuples whatever the relation schedulers, the order of the rules and the way the facts are split in batches.", "quantifier": "all pairs of runs", "why_tests_cant": "quantifies over pairs of schedules", "anchors": ["core/src/runtime/dynamic/iteration.rs", "core/src/runtime/env/schedulers/*"]}
{"id": "C11", "title": "Recursive evaluation with a lattice provenance computes the best derivation", "statement": "With an idempotent absorptive provenance (max-min probabilities, Boolean) where saturation means 'tag unchanged', the tags at the end of the loop form the least solution of the rule equations: each tuple's tag is the sum over all its derivations of the product of the tags used.", "quantifier": "every positive program, every tagged database, every lattice provenance", "why_tests_cant": "unbounded number of derivations; update order differs between runs", "anchors": ["core/src/runtime/dynamic/iteration.rs", "core/src/runtime/dynamic/relation.rs", "core/src/runtime/provenance/probabilistic/min_max_prob.rs", "core/src/runtime/provenance/discrete/boolean.rs"]}
{"id": "C12", "title": "An iteration limit bounds the work", "statement": "With an iteration limit k the loop body runs at most k+1 times, so evaluation always terminates.", "quantifier": "every program, also those with infinite least models", "why_tests_cant": "non-terminating programs cannot be exhaustively tested", "anchors": ["core/src/runtime/dynamic/iteration.rs: need_to_iterate", "core/src/runtime/env/stopping_criteria.rs"]}
{"id": "C13", "title": "Stopping early still yields an output", "statement": "When evaluation stops because of an iteration limit or because a goal was found, the output collections can be produced without failure.", "quantifier": "every scheduler and state (proved for the default scheduler, refuted for schedulers with a waiting list)", "why_tests_cant": "failure needs a nonempty waiting list exactly at the cut", "anchors": ["core/src/runtime/dynamic/iteration.rs: need_to_iterate, run", "core/src/runtime/dynamic/relation.rs: complete"]}
{"id": "C14", "title": "Goal-directed stopping only stops when goals were reached", "statement": "If evaluation stops because of a goal criterion then every goal relation has at least one tuple.", "quantifier": "every program, scheduler and history", "why_tests_cant": "depends on the exact iteration at which facts appear", "anchors": ["core/src/runtime/dynamic/iteration.rs: need_to_iterate", "core/src/runtime/env/stopping_criteria.rs"]}
{"id": "C15", "title": "Negation over a completed relation is set difference", "statement": "When the negated relation is complete before the stratum starts, difference and anti-join return exactly the tuples (keys) not present in it, for provenances whose tags are only true and false; in probabilistic tags the tag is multiplied by the negated tag.", "quantifier": "all inputs; single completed batch (refuted for a negated side split into several batches)", "why_tests_cant": "positions and batch structure", "anchors": ["core/src/runtime/dynamic/dataflow/difference.rs", "core/src/runtime/dynamic/dataflow/antijoin.rs"]}
{"id": "C16", "title": "Provenance tags obey the algebra the evaluator relies on", "statement": "Addition is associative and commutative with zero as unit, multiplication is associative with one as unit and zero as annihilator, and multiplication distributes over addition, for the Boolean, natural, unit, tropical, max-min and proof-set provenances; negation is an involution where supported.", "quantifier": "all tags", "why_tests_cant": "algebraic identities range over all triples of tags", "anchors": ["core/src/runtime/provenance/discrete/*.rs", "core/src/runtime/provenance/probabilistic/min_max_prob.rs", "core/src/runtime/provenance/numerical/*.rs"]}
{"id": "C17", "title": "Proof-set formulas combine as Boolean formulas", "statement": "The tag of a disjunction (conjunction, negation) of proof sets, without pruning, denotes the disjunction (conjunction, negation) of the Boolean functions denoted by the operands; contradictory and mutually exclusive proofs are dropped without changing the denotation on consistent worlds.", "quantifier": "all formulas in disjunctive form, all truth assignments", "why_tests_cant": "exponentially many assignments and unboundedly many formulas", "anchors": ["core/src/runtime/provenance/common/dnf_context.rs", "core/src/runtime/provenance/common/clause.rs", "core/src/runtime/provenance/common/dnf_formula.rs"]}
{"id": "C18", "title": "Top-k pruning is sound and keeps the most probable proofs", "statement": "Top-k conjunction/disjunction returns at most k proofs, all of which are proofs of the unpruned result, and no dropped proof is strictly more probable than a kept one; with k at least the number of proofs nothing is dropped.", "quantifier": "all formulas, all k, all weights", "why_tests_cant": "ranges over all weight ties and all sizes", "anchors": ["core/src/runtime/provenance/common/dnf_context.rs: top_k, retain_k", "core/src/runtime/common/foreign_aggregates/top_k.rs: aggregate_top_k_helper"]}
{"id": "C19", "title": "Clause-set (CNF) tags combine as Boolean formulas", "statement": "Conjunction, disjunction and negation of mixed CNF/DNF tags denote the Boolean combination of the operands when k does not prune.", "quantifier": "all tags and assignments (refuted for an empty, i.e. true, CNF)", "why_tests_cant": "unbounded formulas", "anchors": ["core/src/runtime/provenance/common/cnf_dnf_context.rs", "core/src/runtime/provenance/common/cnf_dnf_formula.rs"]}
{"id": "C20", "title": "Mutual exclusion is detected exactly", "statement": "A set of facts is reported as conflicting iff it contains two distinct facts declared in the same mutually exclusive group.", "quantifier": "all sets of facts and all histories of group declarations", "why_tests_cant": "all interleavings of two sorted sets and all short cuts", "anchors": ["core/src/runtime/provenance/common/disjunction.rs"]}
{"id": "C21", "title": "The compiled decision diagram is equivalent to the formula", "statement": "The decision diagram built for a Boolean formula evaluates to the same truth value as the formula.", "quantifier": "every formula, every variable tree covering its variables, every assignment", "why_tests_cant": "unbounded formulas; caching and negation sharing make the state space infinite", "anchors": ["lib/sdd/src/bottom_up.rs: SDDBuilder::build, apply", "lib/sdd/src/sdd.rs: eval"]}
{"id": "C22", "title": "The probability of a formula is its weighted model count", "statement": "Evaluating the diagram with probabilities yields the sum over all satisfying assignments of the product of literal weights.", "quantifier": "every formula, every weight assignment in a commutative ring", "why_tests_cant": "requires determinism and decomposability of every built diagram", "anchors": ["lib/sdd/src/sdd.rs: eval_t", "core/src/runtime/provenance/common/as_boolean_formula.rs: wmc"]}
{"id": "C23", "title": "Diagram garbage collection does not change the function", "statement": "Removing unreachable nodes keeps the diagram's value under every assignment and weight.", "quantifier": "every diagram", "why_tests_cant": "renumbering of all reachable nodes", "anchors": ["lib/sdd/src/bottom_up.rs: garbage_collect"]}
{"id": "C24", "title": "Stratification orders strata so that negation and aggregation only read finished relations", "statement": "If stratification succeeds, every relation belongs to exactly one stratum; each relation read by a rule is in the same or an earlier stratum; relations read under negation or aggregation are in a strictly earlier one. It fails exactly when some relation depends on itself through a negation or aggregation.", "quantifier": "all dependency graphs", "why_tests_cant": "all graphs", "anchors": ["core/src/compiler/back/scc.rs: stratify"]}
{"id": "C25", "title": "Composing projection expressions equals running them in sequence", "statement": "Evaluating the composition of two projection expressions on a tuple equals evaluating the inner one and then the outer one.", "quantifier": "all expressions and tuples (refuted for accessors deeper than one level into a tuple constructor; proved otherwise)", "why_tests_cant": "expressions of unbounded size", "anchors": ["core/src/common/expr.rs: compose", "core/src/common/tuple_access.rs: join"]}
{"id": "C26", "title": "Fusing cascaded projections preserves query results", "statement": "Rewriting a projection of a projection into a single one leaves the operator tree's result unchanged, under the conditions of C25.", "quantifier": "all operator trees", "why_tests_cant": "unbounded trees", "anchors": ["core/src/compiler/ram/optimizations/project_cascade.rs"]}
{"id": "C27", "title": "Constant folding preserves rule meaning", "statement": "Replacing a computation whose operands are constants with its value keeps the set of substitutions satisfying the rule body; a computation that has no value makes the rule unsatisfiable.", "quantifier": "all rules and databases", "why_tests_cant": "all rule shapes and environments", "anchors": ["core/src/compiler/back/optimizations/constant_folding.rs"]}
{"id": "C28", "title": "Constant propagation preserves rule meaning", "statement": "Replacing a variable known to equal a constant keeps the facts derived by the rule.", "quantifier": "all rules (refuted when the variable is also assigned by a computation)", "why_tests_cant": "all rule shapes", "anchors": ["core/src/compiler/back/optimizations/constant_propagation.rs"]}
{"id": "C29", "title": "Equality propagation preserves rule meaning", "statement": "Merging variables related by an equality keeps the facts derived by the rule.", "quantifier": "all rules and databases", "why_tests_cant": "chains of equalities in any order", "anchors": ["core/src/compiler/back/optimizations/equality_propagation.rs"]}
{"id": "C30", "title": "Sharing identical temporary relations preserves program results", "statement": "Replacing a temporary relation by another one with the same definition leaves all results unchanged.", "quantifier": "all programs (refuted when a temporary relation has several defining rules)", "why_tests_cant": "all programs", "anchors": ["core/src/compiler/ram/optimizations/deduplicate.rs"]}
{"id": "C31", "title": "Counting and existence aggregates describe the possible worlds", "statement": "With tags interpreted as events, the tag of 'count = n' holds in a world iff exactly n input tuples hold in it, and exactly one count holds; likewise for exists.", "quantifier": "all input batches and all worlds", "why_tests_cant": "exponentially many worlds", "anchors": ["core/src/common/foreign_aggregates/count.rs", "core/src/common/foreign_aggregates/exists.rs"]}
{"id": "C32", "title": "Minimum and maximum aggregates describe the possible worlds", "statement": "The tag of 'x is the minimum' holds in a world iff x holds in the world and no smaller tuple holds in it; the argument form returns all tied arguments.", "quantifier": "all input batches and worlds (argument form refuted for ties)", "why_tests_cant": "exponentially many worlds, ties", "anchors": ["core/src/common/foreign_aggregates/min_max.rs"]}
{"id": "C33", "title": "Sum and product aggregates describe the possible worlds", "statement": "In every world the only sum (product) result whose tag holds is the sum (product) of the tuples that hold in it.", "quantifier": "all batches and worlds", "why_tests_cant": "exponentially many worlds", "anchors": ["core/src/common/foreign_aggregates/sum_prod.rs"]}
{"id": "C34", "title": "Symbols are interned injectively", "statement": "Over any sequence of registrations, two registrations return the same id iff the strings are equal, looking up an id returns its string, and ids never change.", "quantifier": "all histories", "why_tests_cant": "all histories of registrations", "anchors": ["core/src/common/symbol_registry.rs"]}
{"id": "C35", "title": "Allocated identifiers are unique", "statement": "Any sequence of allocations returns pairwise different identifiers.", "quantifier": "all histories", "why_tests_cant": "all histories", "anchors": ["core/src/utils/id_allocator.rs"]}
{"id": "C36", "title": "Combination enumeration is exhaustive and duplicate free", "statement": "Enumerating the cartesian product of lists yields each combination exactly once.", "quantifier": "all lists of lists, including empty ones", "why_tests_cant": "all sizes", "anchors": ["core/src/utils/cartesian.rs"]}
{"id": "C37", "title": "In-place filtering by index keeps exactly the selected elements in order", "statement": "Filtering a vector in place with a predicate on index and element keeps exactly the elements satisfying the predicate, in order.", "quantifier": "all vectors and predicates", "why_tests_cant": "swap-based compaction over all vectors", "anchors": ["core/src/utils/indexed_retain.rs"]}
{"id": "C38", "title": "Removing unused relations preserves outputs", "statement": "Deleting relations from which no output relation is reachable does not change any output relation's least model.", "quantifier": "all programs and output sets", "why_tests_cant": "all programs", "anchors": ["core/src/compiler/back/scc.rs: unused_relations"]}
{"id": "C39", "title": "Differentiable tags carry exact gradients", "statement": "Dual-number arithmetic on tags yields the value and the partial derivatives of the polynomial computed by the same arithmetic on plain numbers.", "quantifier": "all expressions and all variables", "why_tests_cant": "all polynomials", "anchors": ["core/src/runtime/provenance/common/dual_number.rs", "core/src/runtime/provenance/common/dual_number_2.rs"]}
{"id": "C40", "title": "Re-running a context does not change the answer", "statement": "Running an unchanged program twice on the same context yields the same tagged results.", "quantifier": "all programs, databases and provenances (refuted for non-idempotent provenances)", "why_tests_cant": "history dependent", "anchors": ["core/src/runtime/dynamic/incremental.rs", "core/src/runtime/database/extensional/database.rs: populate_program_facts, internalize"]}
{"id": "C41", "title": "Facts added after a run are taken into account by the next run", "statement": "After adding facts, running again yields the least model of all facts added so far.", "quantifier": "all histories of additions and runs", "why_tests_cant": "history dependent", "anchors": ["core/src/runtime/dynamic/incremental.rs: add_facts, incremental_execute_helper", "core/src/compiler/ram/incremental.rs: persistent_relations"]}
{"id": "C42", "title": "Relations reused across incremental compilations are unchanged", "statement": "A relation reported as persistent between two versions of a program has the same least model in both.", "quantifier": "all pairs of programs (refuted)", "why_tests_cant": "pairs of programs", "anchors": ["core/src/compiler/ram/incremental.rs"]}
{"id": "C43", "title": "Probabilities with mutually exclusive facts condition correctly", "statement": "Counting with mutual-exclusion groups counts only worlds in which no two facts of a group hold.", "quantifier": "all formulas and groups (refuted)", "why_tests_cant": "all formulas", "anchors": ["core/src/runtime/provenance/common/as_boolean_formula.rs: wmc_with_disjunctions"]}
{"id": "C44", "title": "Variable-tree rotations keep the variables", "statement": "Rotating a variable tree keeps its in-order variable sequence.", "quantifier": "all trees and nodes (refuted for non-root nodes)", "why_tests_cant": "all trees", "anchors": ["lib/sdd/src/vtree.rs: rotate_left, rotate_right"]}
{"id": "C45", "title": "Tuple comparison is a total order", "statement": "Comparing tuples is reflexive, antisymmetric, transitive and total on values without NaN.", "quantifier": "all tuples", "why_tests_cant": "all triples", "anchors": ["core/src/common/value.rs: Ord", "core/src/common/generic_tuple.rs"]}
{"id": "C46", "title": "The min-max-prob count picks the best subset of each size", "statement": "The specialised count of the min-max-prob provenance gives for each size k the maximum, over all subsets of k elements, of the tag the generic count gives that subset.", "quantifier": "all batches with tags in [0,1], all k", "why_tests_cant": "exponentially many subsets, rational tags with ties", "anchors": ["core/src/runtime/provenance/probabilistic/min_max_prob.rs", "core/src/common/foreign_aggregates/count.rs"]}
{"id": "C47", "title": "Grouping aggregates each group exactly once", "statement": "An implicit group-by yields for each key exactly the aggregate of the elements with that key; a join group-by yields it for each element of the group-by relation, including keys without elements, with the conjunction of tags.", "quantifier": "all batches sorted by key, all aggregators", "why_tests_cant": "boundary cases of the merge loop (gaps on either side, duplicates, ends) for unbounded inputs", "anchors": ["core/src/runtime/dynamic/dataflow/aggregation/implicit_group.rs", "core/src/runtime/dynamic/dataflow/aggregation/join_group.rs"]}
{"id": "C48", "title": "The rule optimization loop terminates", "statement": "Alternating constant folding and constant propagation until the rule no longer changes always ends, the inner fixpoint loops end, and the resulting rule is unchanged by a further round.", "quantifier": "all rules and programs", "why_tests_cant": "an unbounded loop over arbitrary rules", "anchors": ["core/src/compiler/back/compile.rs:18-34", "core/src/compiler/back/optimizations/constant_propagation.rs:13-45", "core/src/compiler/back/optimizations/equality_propagation.rs:145-181"]}
{"id": "C49", "title": "The rule optimizations together preserve the program's models", "statement": "Equality propagation, the folding/propagation loop, removal of true literals and false rules, and turning empty rules into facts leave the stable models of the program unchanged.", "quantifier": "all programs whose rules meet the side conditions that C27-C29 show to be needed, all databases", "why_tests_cant": "composition of five passes over all programs", "anchors": ["core/src/compiler/back/compile.rs:16-49", "core/src/compiler/back/optimizations/empty_rule_to_fact.rs", "core/src/compiler/back/optimizations/remove_false_rules.rs", "core/src/compiler/back/optimizations/remove_true_literals.rs"]}
{"id": "C50", "title": "Running a compiled program computes its stratified model", "statement": "After a successful run of a context, every output relation holds exactly the tuples of the stratified model: each stratum holds what its rules derive from the facts when all other relations are as in the model.", "quantifier": "all programs, context states, schedulers, both modes", "why_tests_cant": "all programs with any number of strata, and all contexts", "anchors": ["core/src/runtime/dynamic/incremental.rs: incremental_execute_helper, execute_stratum", "core/src/runtime/database/extensional/relation.rs", "core/src/runtime/database/extensional/database.rs", "core/src/runtime/database/intentional/database.rs"]}
{"id": "C51", "title": "Gradients refer to the inputs they belong to", "statement": "Every index in a reported gradient is the position, in the list of input tags handed back to the caller, of the external tag of the fact the derivative is for.", "quantifier": "all sequences of input facts with and without external tags", "why_tests_cant": "all input sequences; tests use facts that all have tags", "anchors": ["core/src/runtime/provenance/common/diff_prob_storage.rs: add_prob, input_tags, num_input_tags", "core/src/runtime/provenance/differentiable/diff_top_k_proofs.rs: recover_fn", "core/src/runtime/provenance/differentiable/diff_add_mult_prob.rs: tagging_fn, recover_fn"]}
{"id": "C52", "title": "The plan of a rule means its body", "statement": "For every rule body that is safe (every variable used by negation, comparisons, assignments and bounded arguments gets values elsewhere), whatever order the search over join orders prefers, planning succeeds, and the resulting tree of joins, filters, projections, antijoins and foreign predicate nodes is satisfied by exactly the assignments that satisfy all literals of the body.", "quantifier": "all rule bodies, all weights of the beam search, all relations and foreign predicates", "why_tests_cant": "unboundedly many bodies and join orders; tests look at the final results of a few programs", "anchors": ["core/src/compiler/back/query_plan/context.rs: from_rule, pos_atom_arcs, try_apply*, compute_foreign_predicate_*, get_query_plan", "core/src/compiler/back/query_plan/state.rs: next_states", "core/src/compiler/back/query_plan/plan.rs: Plan, HighRamNode"]}
{"id": "C53", "title": "The update a rule is compiled to derives the facts of the rule", "statement": "For every safe rule, when the relations hold the facts of their predicates and the temporary relations hold what their updates derive, the RAM dataflow the rule is lowered to holds exactly the laid-out tuples of the head facts the rule derives.", "quantifier": "all rules, all join orders, all relations, with and without temporary relations", "why_tests_cant": "all shapes of plans, goals and permutations; tests look at the final results of a few programs", "anchors": ["core/src/compiler/back/b2r.rs: rule_to_ram_updates, plan_to_ram_dataflow and the functions it calls", "core/src/compiler/back/var_tuple.rs: projection, projection_assigns, permutation", "core/src/compiler/back/query_plan/plan.rs"]}
{"id": "C54", "title": "The compiled strata compute the stable model of the program", "statement": "For every program with negation and aggregation that the compiler accepts, the dependency graph is stratified and the list of RAM strata that the rules are lowered to has exactly one model (each stratum the least relations closed under its updates), and the relations of this model hold exactly the facts of the only stable model of the source program.", "quantifier": "all programs, all join orders, all results of the SCC algorithm, all names given to temporary relations", "why_tests_cant": "relates the meaning of every program with the meaning of its compiled form; tests compare outputs of a few programs", "anchors": ["core/src/compiler/back/b2r.rs: strata_to_ram_strata, stratum_to_ram_stratum, rule_to_ram_updates", "core/src/compiler/back/scc.rs: dependency_graph, stratify", "core/src/compiler/back/b2r.rs: temporary, permuted and negative relations"]}
{"id": "C55", "title": "Compiling a program does not panic and drops nothing", "statement": "For every program whose rules are safe, lowering the planned rules to RAM strata succeeds (no lookup of a variable in a goal fails, no unwrap panics), and every relation made for negation is put in some stratum.", "quantifier": "all programs with safe rules, all join orders, all strata", "why_tests_cant": "needs all combinations of literals and goals; the panics need rare combinations (aggregation with argument variable under a foreign predicate, repeated variable and constant under negation)", "anchors": ["core/src/compiler/back/b2r.rs: plan_to_ram_dataflow, strata_to_ram_strata 93-169, 945-993", "core/src/compiler/back/var_tuple.rs: accessor_of, projection", "core/src/compiler/back/ast.rs: 773-779"]}
{"id": "C56", "title": "Compiling and running a program yields its stable model", "statement": "For every typed stratified program, whatever facts the context already stores, compiling the program to RAM and executing the result leaves in every output relation exactly the tuples of the only stable model of the source program together with those facts.", "quantifier": "all programs, all contexts, all provenances without differences, all join orders, all schedulers, incremental or not", "why_tests_cant": "relates the meaning of every source program with the state of the context after every run; tests compare outputs of a few programs", "anchors": ["core/src/compiler/back/b2r.rs: 94-344", "core/src/compiler/back/scc.rs", "core/src/runtime/dynamic/context.rs: execute_with_monitor", "core/src/runtime/dynamic/iteration.rs: run"]}
{"id": "C57", "title": "Runs of programs with finitely many derivable facts end", "statement": "If finitely many facts are derivable, executing a program ends: there are a number of rounds and a context such that every run that is allowed that many rounds or more ends in this context, and no check of the runtime fails on the way.", "quantifier": "all programs, all facts, all provenances whose tags improve on a well-founded order, all contexts", "why_tests_cant": "a test can only wait for a given run to end; that every run ends needs a measure that decreases on all of them", "anchors": ["core/src/runtime/dynamic/iteration.rs: run, need_to_iterate", "core/src/runtime/dynamic/relation.rs: changed", "core/src/runtime/env/scheduler/lfp.rs", "core/src/runtime/dynamic/context.rs: execute_with_monitor"]}
{"id": "C58", "title": "Rewriting formulas keeps their meaning", "statement": "The passes of the front end keep the meaning of rules: rewriting implications, splitting conjunctive heads, computing the disjunctive normal form of a body, turning facts with expressions, queries that are atoms, and ranges into rules and atoms give rules with the same consequences, in all models; the passes fail on no rule that the language admits.", "quantifier": "all formulas, heads, facts, queries and ranges; all substitutions; all models", "why_tests_cant": "formulas nest without bound and their meaning ranges over all models; tests run a few programs on a few databases", "anchors": ["core/src/compiler/front/ast/formula.rs: 19-43", "core/src/compiler/front/transformations/implies_to_disjunction.rs", "core/src/compiler/front/transformations/conjunctive_head.rs", "core/src/compiler/front/transformations/non_constant_fact_to_rule.rs", "core/src/compiler/front/transformations/atomic_query.rs", "core/src/compiler/front/transformations/desugar_range.rs", "core/src/compiler/front/analyzers/boundness/context.rs: 56-88, 123-129"]}
{"id": "C59", "title": "Flattening expressions keeps the meaning of rules", "statement": "The back-IR rules that the front end makes from a rule - one per alternative of the body, with the expressions of atoms, constraints and heads replaced by numbered variables and assignments - have together exactly the consequences of the rule, in all models; and what is planned from them has too.", "quantifier": "all rules, all nestings of expressions, all models and substitutions", "why_tests_cant": "expressions nest without bound and their meaning depends on the values of all relations; the assignments that are wrong or get dropped matter only for particular patterns of bound variables", "anchors": ["core/src/compiler/front/f2b/flatten_expr.rs: 77-301, 303-377, 386-517", "core/src/compiler/front/f2b/f2b.rs: 197-378", "core/src/compiler/front/analyzers/boundness/context.rs: 56-129", "core/src/common/binary_op.rs: 87-93"]}
{"id": "C60", "title": "The boundness analysis accepts the rules whose variables get values", "statement": "The fixpoint of the boundness analysis is the least set of locations closed under the dependencies, whatever the order of the rules; it is always reached; a conjunction is accepted exactly when all its variables get values from the flattened literals with equalities read in both directions; demanded head arguments count like an atom of the body; and a rule that is accepted has finitely many consequences over finite relations.", "quantifier": "all formulas and expressions, all demand patterns, all binding patterns of foreign predicates, all finite relations, all orders", "why_tests_cant": "the analysis is a fixpoint over arbitrarily nested expressions and any number of equalities; safety is about infinite sets of substitutions, which no run enumerates", "anchors": ["core/src/compiler/front/analyzers/boundness/local.rs: 8-254", "core/src/compiler/front/analyzers/boundness/dependency.rs: 3-38", "core/src/compiler/front/analyzers/boundness/context.rs: 14-198", "core/src/compiler/front/analyzers/boundness/boundness_analysis.rs: 35-68"]}
{"id": "C61", "title": "Front-end programs are compiled and run to their stable models", "statement": "A front-end program with disjunctions, conjunctive heads, arithmetic, comparisons and stratified negation is flattened, optimized, freed of unused relations, stratified, planned, lowered and executed without an error, and when the run ends every declared output relation holds exactly the tuples of the stable model of the front-end program.", "quantifier": "all front-end programs that are well-formed (typed, stratified, safe after flattening), all contexts of facts, all join orders, all orders of strongly connected components, all provenances without differences (or programs without negation)", "why_tests_cant": "the claim composes nine passes for programs of any size and facts of any number; tests run single programs", "anchors": ["core/src/compiler/front/f2b/f2b.rs: 16-189", "core/src/compiler/front/f2b/flatten_expr.rs: 16-420", "core/src/compiler/back/compile.rs: 5-40", "core/src/compiler/back/b2r.rs: 60-344", "core/src/compiler/compile.rs", "core/src/runtime/dynamic/iteration.rs: run"]}
{"id": "C62", "title": "The demand transformation keeps the demanded answers", "statement": "For a stratified program whose rules can compute the demand of every atom on demand without looking at a negated atom on demand (and that build no entities and aggregate no relation on demand in the rules concerned), the demand transformation yields a program whose stable model contains nothing that the original does not derive, everything it derives for relations not on demand, and, for relations on demand, everything that is demanded; tuples of relations on demand are facts or demanded. The transformation fails only for disjunctive heads of relations on demand, gives a rule no demand rules exactly when some demand cannot be computed, and keeps stratification when the relations on demand share a level with the rules that ask for them.", "quantifier": "all back-end programs, all adornments, all environments of foreign functions, predicates and aggregators, all stable models of both programs", "why_tests_cant": "demand flows through recursion and through layers of atoms of arbitrary depth; the existing tests check single queries such as Fibonacci and never negated atoms on demand or rules whose demand cannot be computed", "anchors": ["core/src/compiler/back/optimizations/demand_transform.rs: 9-480", "core/src/compiler/back/compile.rs: 16-49"]}
{"id": "C63", "title": "Programs with relations on demand are compiled and run to the demanded part of their stable models", "statement": "A back-end program with relations marked as computed on demand is optimized, demand-transformed, freed of unused relations, stratified, planned, lowered and executed without an error; when the run ends, every declared output relation that is not on demand holds exactly the stable model of the program as written, and every one on demand holds exactly those tuples of it that are facts or demanded by the transformed program. Without relations on demand the pipeline is the one without the transformation.", "quantifier": "all back-end programs that meet the conditions of the optimizations, of the demand transformation and of typing, all contexts of facts, all join orders, all orders of strongly connected components, all provenances without differences (or programs without negation)", "why_tests_cant": "the claim composes optimization, magic sets, planning, lowering and semi-naive evaluation for programs and facts of any size; the tests run a few queries", "anchors": ["core/src/compiler/back/compile.rs: 16-113", "core/src/compiler/back/optimizations/demand_transform.rs: 9-480", "core/src/compiler/back/optimizations/empty_rule_to_fact.rs", "core/src/compiler/back/b2r.rs: 60-344", "core/src/runtime/dynamic/iteration.rs: run"]}
{"id": "C64", "title": "Sets of types are intersected by unification", "statement": "Unifying two sets of types gives exactly the intersection of their types and fails exactly if they have none in common; it is commutative and associative, so that the order in which the sets of a variable or a relation column are unified does not matter; the default type of a set is one of its types; the set of a constant has exactly the types the constant can stand for; equality of sets holds exactly of equal sets.", "quantifier": "all sets of types, all lists of them in all orders, all constants", "why_tests_cant": "31 sets and 23 types in lists of any length and order; the tests unify a few pairs", "anchors": ["core/src/compiler/front/analyzers/type_inference/type_set.rs: 6-237", "core/src/common/value_type.rs: 100-227"]}
{"id": "C65", "title": "Accepted programs are well typed", "statement": "If type inference accepts a program, then the types it reports for expressions, variables and relations make every rule well typed: a variable has one type in a rule, an argument of an atom has the type of the column, constants can stand for their type, operators, casts and function calls are applied at types they are defined for, constraints are boolean, and numbers of arguments agree.", "quantifier": "all programs of any size, all registries of foreign predicates and functions, all amounts of fuel", "why_tests_cant": "the tests compare inferred types of a handful of programs; the claim is about what every combination of rules is left with after the passes over sets of types", "anchors": ["core/src/compiler/front/analyzers/type_inference/type_inference.rs: 270-352", "core/src/compiler/front/analyzers/type_inference/unification.rs", "core/src/compiler/front/analyzers/type_inference/local.rs", "core/src/compiler/front/analyzers/type_inference/operator_rules.rs", "core/src/compiler/front/analyzers/type_inference/foreign_function.rs: 100-139"]}
{"id": "C66", "title": "Operators, casts and constants give values of their inferred types", "statement": "Applied to values of types that inference accepts, an operator gives a value of the result type, or nothing when there is no value (not a number), or panics exactly on operands without a result that fits (overflow of products, division by zero); sums and differences of integers are exact or the nearest representable number, division truncates, casts between integers keep the number modulo the size of the target, the text of an integer parses back to it, and a constant becomes a value of its inferred type with its number.", "quantifier": "all operators, all pairs of the 23 types, all values of these types, all conversions of the platform for floats and characters", "why_tests_cant": "23 x 23 casts and 13 operators over 64- and 128-bit ranges; the boundaries differ per type", "anchors": ["core/src/runtime/env/environment.rs: 251-720", "core/src/compiler/front/ast/constant.rs: 117-149", "core/src/compiler/front/analyzers/type_inference/operator_rules.rs", "core/src/common/value_type.rs: 36-67", "core/src/compiler/front/f2b/flatten_expr.rs: 481-517"]}
{"id": "C67", "title": "Models of accepted programs are well typed", "statement": "If type inference accepts a program, every tuple of every relation in its stable model has the arity and the types that were inferred for the relation.", "quantifier": "all programs, all stable models, all foreign functions and predicates that respect their declared types, any extra facts", "why_tests_cant": "the derived tuples depend on the data; the claim is about all data, including values computed through recursion", "anchors": ["core/src/compiler/front/analyzers/type_inference/type_inference.rs", "core/src/compiler/front/f2b/f2b.rs: 16-189", "core/src/compiler/front/f2b/flatten_expr.rs: 481-517", "core/src/runtime/env/environment.rs: 251-720"]}
{"id": "C68", "title": "Type inference terminates", "statement": "The rounds of type inference come to an end for every program, with a result, an error or a panic, after a number of rounds that is at most six times the number of expressions plus two.", "quantifier": "all programs, all functions, predicates and aggregates whose parameters do not range over the unsigned integers", "why_tests_cant": "the loop compares sets of types of all expressions after each round; that they only shrink depends on all rules for operators, functions and aggregates", "anchors": ["core/src/compiler/front/analyzers/type_inference/type_inference.rs: 270-352", "core/src/compiler/front/analyzers/type_inference/type_set.rs: 39-53", "core/src/compiler/front/analyzers/type_inference/unification.rs", "core/src/compiler/front/analyzers/type_inference/local.rs: 147-224", "etc/scallopy/src/foreign_function.rs: 81, 240"]}
{"id": "C69", "title": "Declared types are kept and facts are compiled at the inferred types", "statement": "If type inference accepts a program, the types inferred for a declared relation are the declared ones; the constants of every fact can have the types inferred for its relation, and the fact is compiled, without a panic, to a tuple of these types with all constants.", "quantifier": "all programs, declarations, facts and sets of facts", "why_tests_cant": "inference overwrites the types of relations in every round by what it finds at the arguments of atoms; whether a declaration survives depends on all rules", "anchors": ["core/src/compiler/front/analyzers/type_inference/type_inference.rs: 182-250, 552-651", "core/src/compiler/front/analyzers/type_inference/local.rs: 205-224", "core/src/compiler/front/f2b/f2b.rs: 96-149", "core/src/compiler/front/ast/constant.rs: 117-149"]}
{"id": "C70", "title": "Constants and entity strings stand for the terms they are written as", "statement": "If the constant declarations of a program are accepted, every constant is a literal or an id from whose facts exactly the term is read that the constant is declared as, in whatever way it refers to other constants; there are facts for nothing but these terms and what they contain, constants with one value are one term, and the analysis does not panic. The same holds for an entity that is given as a string.", "quantifier": "all programs, entities, registries of variants and hash functions whose ids do not clash among the facts", "why_tests_cant": "terms nest without bound and refer to other constants; ids are hashes, so that a wrong or missing fact shows only when a pattern meets it", "anchors": ["core/src/compiler/front/ast/entity.rs: 41-106", "core/src/compiler/front/analyzers/constant_decl.rs: 144-185", "core/src/compiler/front/transformations/const_var_to_const.rs: 52-100", "core/src/common/adt_variant_registry.rs: 56-115", "core/src/common/entity.rs: 4-11"]}
{"id": "C71", "title": "Enumerations are numbered apart and constants are replaced after their declaration", "statement": "The members of an accepted enumeration are different constants with strictly increasing numbers, of which the given ones are kept; an occurrence of a variable is replaced by a constant exactly if the constant is declared before the occurrence, and then it has the value of the constant.", "quantifier": "all programs with accepted constant declarations", "why_tests_cant": "numbers depend on all members before, and uses on the order of all items", "anchors": ["core/src/compiler/front/analyzers/constant_decl.rs: 64-142, 195-237", "core/src/compiler/front/transformations/const_var_to_const.rs: 84-120"]}
{"id": "C72", "title": "Case formulas and destructors match what they say", "statement": "The rule that is left when patterns of cases and destructors in the body and the head are removed adds exactly the facts that the rule with the patterns does, in every database.", "quantifier": "all rules, patterns, databases", "why_tests_cant": "patterns nest without bound and the temporaries of different patterns must not meet", "anchors": ["core/src/compiler/front/transformations/desugar_case_is.rs: 15-86", "core/src/compiler/front/transformations/desugar_destruct.rs: 15-125"]}
{"id": "C73", "title": "The same term is the same entity", "statement": "A term has one id, whether it is declared as a constant, at whatever place, given as a string or made by a rule, and a string is accepted exactly if it stands for a term of the declared types.", "quantifier": "all terms and ways to write them", "why_tests_cant": "ids are compared only in programs that mix the ways", "anchors": ["core/src/compiler/front/ast/entity.rs: 41-96", "core/src/compiler/front/ast/utils.rs: 35-48, 199-203", "core/src/compiler/front/f2b/flatten_expr.rs: 467-480", "core/src/common/adt_variant_registry.rs: 56-115", "core/src/runtime/env/environment.rs: 739-758"]}
{"id": "C74", "title": "Aggregations in rules are compiled to what they mean", "statement": "The rules that are left of a rule with aggregations, once the bodies and where-clauses of the aggregations have become rules of temporary relations, add exactly the facts that the rule adds when an aggregation is read as its aggregator applied to the values of its arguments and bindings for which its body holds, separately for each group; so the stable models of the compiled program are, on the relations of the program, the least models of its rules.", "quantifier": "all programs, aggregators, nestings of aggregations, databases", "why_tests_cant": "aggregations nest without bound, groups come from three places, and temporaries of different aggregations must not meet", "anchors": ["core/src/compiler/front/f2b/f2b.rs: 186-593", "core/src/compiler/front/analyzers/boundness/context.rs: 56-129, 200-284", "core/src/compiler/front/ast/aggregate.rs"]}
{"id": "C75", "title": "Quantifiers in rules mean quantifiers", "statement": "After the passes that rewrite exists, not exists, forall and not forall into aggregations, such a formula holds exactly if there is, is not, are only or are not only values for its variables for which its body holds, given the values of the group-by variables.", "quantifier": "all bodies without aggregations, databases with decided relations, heads", "why_tests_cant": "truth of a quantified formula depends on the absence of facts in all of the database, and grouping on variables elsewhere in the rule", "anchors": ["core/src/compiler/front/transformations/desugar_forall_exists.rs: 26-66", "core/src/compiler/front/transformations/forall_to_not_exists.rs: 28-77", "core/src/compiler/front/transformations/implies_to_disjunction.rs", "core/src/compiler/front/transform.rs: 43-105"]}
{"id": "C76", "title": "Rules with aggregations that the boundness analysis accepts can be compiled and ground their variables", "statement": "A rule with aggregations that the boundness analysis accepts is translated without a panic, adds finitely many facts to finite relations, and of rules without aggregations the analysis says what that of C60 says.", "quantifier": "all rules, demand patterns", "why_tests_cant": "the analysis is computed twice, in the analyzer and in the translation, and the two must agree on all nested bodies", "anchors": ["core/src/compiler/front/analyzers/boundness/context.rs: 34-47, 163-325", "core/src/compiler/front/f2b/f2b.rs: 380-477"]}
{"id": "C77", "title": "Built-in predicates give exactly their relations", "statement": "range gives exactly the numbers from the first to before the last; string_chars gives every character with its position; string_find gives exactly the places where a pattern occurs, as ranges that can be cut out of the string; string_split gives the pieces between them, which joined by the pattern are the string; string_index gives the positions of the characters.", "quantifier": "all integer types, bounds, strings of unicode characters, patterns", "why_tests_cant": "positions in bytes and in characters agree on all ASCII strings, and overlapping occurrences are rare", "anchors": ["core/src/common/foreign_predicates/range.rs", "core/src/common/foreign_predicates/string_chars.rs", "core/src/common/foreign_predicates/string_find.rs", "core/src/common/foreign_predicates/string_index.rs", "core/src/common/foreign_predicates/string_split.rs"]}
{"id": "C78", "title": "Built-in functions on strings compute what they are named for", "statement": "substring gives the part between two positions and nothing for positions outside; string_index_of gives the first occurrence, and substring at this place gives the pattern; string_char_at is defined for exactly the positions below string_length; string_concat, string_replace and format put the pieces in place.", "quantifier": "all strings of unicode characters, positions, patterns, arguments", "why_tests_cant": "strings are unbounded and mixed positions differ only beyond ASCII", "anchors": ["core/src/common/foreign_functions/substring.rs", "core/src/common/foreign_functions/string_length.rs", "core/src/common/foreign_functions/string_char_at.rs", "core/src/common/foreign_functions/string_index_of.rs", "core/src/common/foreign_functions/string_concat.rs", "core/src/common/foreign_functions/string_replace.rs", "core/src/common/foreign_functions/format.rs"]}
{"id": "C79", "title": "Built-in numeric functions compute absolute values, signs, greatest and least arguments", "statement": "abs gives the absolute value, sign gives -1, 0 or 1 in the type it is declared with, max and min give an argument that is not exceeded by, or does not exceed, any other.", "quantifier": "all integer types, values, numbers of arguments", "why_tests_cant": "the errors are at single values of some types", "anchors": ["core/src/common/foreign_functions/abs.rs", "core/src/common/foreign_functions/sign.rs", "core/src/common/foreign_functions/max.rs", "core/src/common/foreign_functions/min.rs"]}
{"id": "C80", "title": "Soft comparisons give probabilities that agree with the comparisons", "statement": "The tags of soft_gt, soft_lt, soft_eq and soft_neq are between 0 and 1, those of soft_gt are above one half exactly if the first operand is greater, they grow with the difference of the operands, and soft_lt is the complement of soft_gt.", "quantifier": "all sigmoid functions with positive scale, operands", "why_tests_cant": "inequalities between real functions on all of their domains", "anchors": ["core/src/common/foreign_predicates/soft_cmp.rs", "core/src/common/foreign_predicates/soft_gt.rs", "core/src/common/foreign_predicates/soft_lt.rs", "core/src/common/foreign_predicates/soft_eq.rs", "core/src/common/foreign_predicates/soft_neq.rs"]}
{"id": "C81", "title": "Aggregators that order and select give right orders and selections", "statement": "sort, argsort, rank and enumerate give every element with its position in an order that is sorted and keeps equal elements as they came; top-k and the samplers give different elements, all if there are at most k, and top-k no element with a weight less than one it leaves out; all of this for the elements that hold in a world.", "quantifier": "all batches, tags, weights, k, random numbers", "why_tests_cant": "ties, positions at the ends of the batch and heap orders", "anchors": ["core/src/common/foreign_aggregates/sort.rs: 106-146", "core/src/common/foreign_aggregates/rank.rs: 66-98", "core/src/common/foreign_aggregates/enumerate.rs: 54-63", "core/src/common/foreign_aggregates/top_k.rs: 85-141", "core/src/common/foreign_aggregates/sampler.rs: 106-124", "core/src/common/foreign_aggregates/uniform.rs: 56-66", "core/src/common/foreign_aggregates/categorical.rs: 58-70"]}
{"id": "C82", "title": "string_join and avg describe the possible worlds", "statement": "In every world exactly one result of string_join (avg) holds, the joined strings (the quotient of sum and number) of the elements that hold; with all, the result for one element for each of the arguments.", "quantifier": "all batches, tags, worlds, separators, integer types", "why_tests_cant": "the number of worlds is exponential in the batch, and the empty world is among them", "anchors": ["core/src/common/foreign_aggregates/string_join.rs: 74-176", "core/src/common/foreign_aggregates/avg.rs: 80-115", "core/src/common/value_type.rs: 306-372"]}
{"id": "C83", "title": "disjunct and normalize make elements exclusive that should be", "statement": "disjunct gives two elements the same new exclusion exactly if they have the same arguments; normalize and softmax give one new exclusion and probabilities that sum to one, in the proportions of the weights or of their exponentials.", "quantifier": "all batches in the order of the runtime, numbers of arguments, weights", "why_tests_cant": "runs of arguments at the ends of batches; equalities of real numbers", "anchors": ["core/src/common/foreign_aggregates/disjunct.rs: 58-105", "core/src/common/foreign_aggregates/normalize.rs: 60-121"]}
{"id": "C84", "title": "A rule with a tag derives its head with the product of the tag and the tags of its body", "statement": "The rewriting of tagged rules makes a rule derive exactly the tuples of the untagged one whose tag expression has a value that stands for a float, each with the product of that float as a tag and the tag of the body; rules with the attribute tagged are multiplied by the tag of the fact of their predicate; every variable that the analysis accepts as a tag can be made one.", "quantifier": "all rules, tag expressions, bodies, tagged relations, provenances with a unit, values", "why_tests_cant": "all bodies and provenances; most types of tags are never run", "anchors": ["core/src/compiler/front/transformations/tagged_rule.rs: 18-67", "core/src/compiler/front/analyzers/tagged_rule.rs: 15-100", "core/src/compiler/front/analyzers/tagged_rule.rs: 151-185", "core/src/compiler/front/ast/relation_decl.rs: 91-103", "core/src/runtime/env/environment.rs: 599-715"]}
{"id": "C85", "title": "Relations get the facts that their files have", "statement": "A relation with an input file gets exactly the facts that its file has, under its options: for every row the values of the row in the types of the relation, those under the selected headers, or one fact for every cell that is not a key, with the tag of the row; otherwise an error is returned. Files are read once.", "quantifier": "all files, options, types, numbers of relations and files", "why_tests_cant": "all combinations of headers, keys, fields, tags and types, and of relations that share files", "anchors": ["core/src/runtime/database/extensional/relation.rs: 135-155", "core/src/runtime/database/extensional/relation.rs: 251-636", "core/src/runtime/database/extensional/database.rs: 203-246", "core/src/runtime/database/io/input_file_content.rs: 25-102", "core/src/runtime/database/io/input_file_registry.rs: 38-59", "core/src/common/input_file.rs: 3-44", "core/src/common/value_type.rs: 229-278"]}
{"id": "C86", "title": "Entities created while running reach their relations; monitoring changes nothing", "statement": "Facts of entities created while a stratum is evaluated are handed to their relations exactly once, whatever the order of updates, so that the relation has them when the evaluation ends and nothing else besides what rules derive; facts of relations of other strata stay stored. The relation of an entity is in the stratum of the rules that make it. Evaluating with a monitor gives the same relations as evaluating without.", "quantifier": "all programs, created entities, states, schedulers, provenances, numbers of iterations", "why_tests_cant": "side effects of evaluation in all orders and iterations, with all schedulers", "anchors": ["core/src/runtime/dynamic/iteration.rs: 96-257", "core/src/runtime/env/dynamic_entity_storage.rs: 8-71", "core/src/runtime/env/environment.rs: 739-760", "core/src/compiler/back/scc.rs: 266-295"]}
{"id": "C87", "title": "Facts exclude each other exactly if declared in the same disjunction", "statement": "Two facts are in conflict in the provenance context if and only if they were written in the same disjunction of the program, added by the same exclusive call to the database, or are outcomes of the same disjunctive head for the same binding of its body; conflicts do not depend on how the numbers of exclusions are given out.", "quantifier": "all programs, database calls, disjunctive heads, contexts, proofs", "why_tests_cant": "numbers are given out by independent counters in any interleaving and over any number of iterations", "anchors": ["core/src/common/input_tag.rs: 34-41", "core/src/compiler/back/b2r.rs: 276-294, 339-344", "core/src/runtime/database/extensional/database.rs: 318-356", "core/src/runtime/dynamic/dataflow/dynamic_exclusion.rs: 31-168", "core/src/runtime/env/environment.rs: 177-179", "core/src/runtime/provenance/probabilistic/top_k_proofs.rs: 77-89"]}
{"id": "C88", "title": "Loading a source adds it and its imports once each, or changes nothing", "statement": "Loading a source into a front context ends. It adds the source and every file it reaches through imports, each exactly once and after the files it imports, or it reports an error and leaves the context and its analysis as they were. Other contexts that share the analysis never see a change, and the analysis is never modified in place while it is shared. Files that import themselves, directly or not, are rejected; all other imports are accepted if their items are.", "quantifier": "all file systems, sources, contexts, clones of contexts, analyses and transformations", "why_tests_cant": "all import graphs and all states of sharing between contexts", "anchors": ["core/src/compiler/front/compile.rs: 195-372", "core/src/utils/copy_on_write.rs: 1-34", "core/src/utils/pointer_family.rs: 152-172", "core/src/compiler/front/source.rs: 11-22"]}
{"id": "C89", "title": "Facts enter the engine if they have the types of their relations, and mean the same inside and outside", "statement": "Facts given to a context are accepted if and only if every one of them has the type of its relation; rejected facts change nothing, accepted facts are appended to the facts of their relation and only the results of that relation become stale. Inside the engine every accepted fact is kept, has the same type, and stands for the same value: symbols for their text and entities for what their text names, with the facts of the entities added. Shown again, facts are as they were given. Two facts are the same inside if and only if they are the same outside, and they have the same order.", "quantifier": "all types, tuples, lists of facts, contexts, symbol tables, entity parsers and hash functions", "why_tests_cant": "all nested tuples and all earlier states of the symbol table", "anchors": ["core/src/common/tuple_type.rs: 30-58", "core/src/runtime/database/extensional/database.rs: 121-180, 278-305", "core/src/integrate/context.rs: 287-324, 612-648", "core/src/runtime/env/environment.rs: 190-271", "core/src/runtime/env/dynamic_entity_storage.rs: 31-53", "core/src/runtime/dynamic/incremental.rs: 612-624"]}
{"id": "C90", "title": "Reading a relation gives its facts, any number of times, and changes nothing", "statement": "After a run, reading a relation gives exactly its facts in order, with the text of symbols and with output tags, whether the relation was computed or given, with or without monitors. Reading again gives the same; collections handed out before never change; clones of the context and later runs are not affected by what was read.", "quantifier": "all results, input relations, symbol tables, provenances, sequences of reads, programs and owners of output collections", "why_tests_cant": "all orders of reads and clones and all states of sharing", "anchors": ["core/src/runtime/database/intentional/relation.rs: 7-145", "core/src/runtime/database/intentional/database.rs: 40-160", "core/src/runtime/dynamic/incremental.rs: 626-660", "core/src/integrate/context.rs: 546-557, 698-730"]}
{"id": "C91", "title": "Relations get the attributes that their declarations give them", "statement": "A relation is hidden, is the goal, has a demand pattern or has a scheduler exactly when a declaration about it says so, whatever the form of the declaration (type with one or several relations, annotated arguments, rule with atomic, conjunctive or disjunctive head). Programs whose attributes are malformed or contradict each other are rejected with an error, others are not, and the order of declarations does not matter.", "quantifier": "all sequences of declarations and all attributes on them", "why_tests_cant": "all combinations of attributes, forms of declarations and orders", "anchors": ["core/src/compiler/front/analyzers/demand_attr.rs: 27-157", "core/src/compiler/front/analyzers/goal_relation.rs: 27-104", "core/src/compiler/front/analyzers/hidden_relation.rs: 20-54", "core/src/compiler/front/analyzers/scheduler_attr.rs: 24-98", "core/src/compiler/front/analyzers/output_files.rs: 52-103", "core/src/compiler/front/transformations/desugar_arg_type_anno.rs: 16-61", "core/src/compiler/front/transformations/conjunctive_head.rs: 19-57", "core/src/compiler/front/transform.rs: 43-105", "core/src/compiler/front/analysis.rs: 56-122"]}
{"id": "C92", "title": "Declared types stand for base types, declared relations have the declared types, and algebraic data types become relations", "statement": "In a program that is accepted every declared name of a type stands for exactly one base type, the one at the end of its chain of declarations, and is declared once. Every declared relation is declared once, is not a foreign predicate and has the types that it was declared with; facts of it can have these types. Extern declarations agree with the foreign predicates. Every constructor is declared once, and its relation takes the entity and the declared arguments. The order of declarations and facts does not matter, and no program makes the analysis panic.", "quantifier": "all sequences of sources and declarations, all foreign predicates", "why_tests_cant": "all chains of declarations, all orders of declarations and facts, several sources", "anchors": ["core/src/compiler/front/analyzers/type_inference/type_inference.rs: 113-120, 158-252, 354-516, 555-745, 848-860", "core/src/compiler/front/analyzers/algebraic_data_type.rs: 31-66", "core/src/compiler/front/transformations/adt_to_relation.rs: 20-88", "core/src/compiler/front/transform.rs: 43-105"]}
{"id": "C93", "title": "Warnings name exactly the relations that are used but not available", "statement": "After each accepted source the compiler warns about exactly those relations that rules and queries of accepted sources need and that no accepted source declares or computes and that are not foreign predicates (names with a hash are the compiler's own). Each is named once and its location is a use of it. Sources that are rejected leave no trace, the order of items does not matter, and a warning is not repeated for later sources.", "quantifier": "all sequences of sources and registrations, all formulas", "why_tests_cant": "all nestings of formulas and all sessions", "anchors": ["core/src/compiler/front/analyzers/head_relation.rs: 8-86", "core/src/compiler/front/transformations/atomic_query.rs: 36-72", "core/src/compiler/front/transformations/desugar_reduce_rule.rs: 18-80", "core/src/compiler/front/analysis.rs: 74-121", "core/src/compiler/front/compile.rs: 112-135, 226-334"]}
{"id": "C94", "title": "Input files and storages of relations are what their attributes say", "statement": "A program is accepted exactly when every attribute file of a declaration describes a CSV file (a path with that extension; a delimiter that is one ASCII character; booleans for header and probability; texts for keys and fields) and every attribute storage names a storage and no relation is given two. Then each relation has exactly the file and the storage that its declaration describes, with the documented defaults; unknown options, attributes at the wrong place and conflicting files are reported.", "quantifier": "all programs, all attributes and values, all path extensions", "why_tests_cant": "all combinations of options, attributes and declarations", "anchors": ["core/src/compiler/front/analyzers/input_files.rs: 21-205", "core/src/compiler/front/analyzers/storage_attr.rs: 8-94", "core/src/compiler/front/ast/attr.rs: 60-90, 117-210", "core/src/common/input_file.rs: 27-43", "core/src/runtime/database/metadata.rs: 51-60"]}
