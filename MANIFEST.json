{
 "claims": [
  {
   "property": "C01",
   "status": "proved",
   "theorems": [
    "C01_from_vec"
   ],
   "note": ""
  },
  {
   "property": "C02",
   "status": "proved",
   "theorems": [
    "C02_merge",
    "C02_merge_comm"
   ],
   "note": ""
  },
  {
   "property": "C03",
   "status": "partial",
   "theorems": [
    "C03_gallop",
    "C03_gallop_from_start",
    "C03_search_ahead",
    "C03_gallop_refuted"
   ],
   "note": "Proved exactly where the code is right; refuted for start positions past the boundary."
  },
  {
   "property": "C04",
   "status": "proved",
   "theorems": [
    "C04_find",
    "C04_find_members"
   ],
   "note": "Sorted (possibly with repetitions) lists; Example shows sortedness is needed."
  },
  {
   "property": "C05",
   "status": "proved",
   "theorems": [
    "C05_no_tuple_lost",
    "C05_round_shape",
    "C05_round_sorted"
   ],
   "note": "All four schedulers, any state."
  },
  {
   "property": "C06",
   "status": "partial",
   "theorems": [
    "C06_lfp_round_partial",
    "C06_fresh_not_established_partial",
    "C06_galloping_refuted"
   ],
   "note": "Exact effect of a default round when the linear search is used (no stable batch is four times shorter than the pending batch, or has one element at most) and batches are tuple-disjoint. Refuted when the galloping variant is selected."
  },
  {
   "property": "C07",
   "status": "partial",
   "theorems": [
    "C07_operator_meaning",
    "C07_fresh_covers",
    "C07_stable_old",
    "C07_nested_difference_refuted",
    "C07_intersection_repeated_refuted"
   ],
   "note": "Arbitrary nestings of the listed operators (and foreign predicates, sorting, constants) with sorted inputs to join/lookup and repetition-free inputs to intersection. Without repetition-freeness the intersection claim is refuted; difference below a product is refuted."
  },
  {
   "property": "C08",
   "status": "proved",
   "theorems": [
    "C08_sound",
    "C08_sound_states"
   ],
   "note": "All provenances, schedulers and stopping reasons; negation over completed relations only; aggregation results are inputs."
  },
  {
   "property": "C09",
   "status": "proved",
   "theorems": [
    "C09_complete",
    "C09_least",
    "C09_output"
   ],
   "note": "All provenances and schedulers except beam size 0; early discarding only with provenances that discard nothing (C11 covers discarding lattice provenances; C09_discarding is the example)."
  },
  {
   "property": "C10",
   "status": "proved",
   "theorems": [
    "C10_same_answers"
   ],
   "note": "Same hypotheses as C09; the outputs list the same tuples in the same order."
  },
  {
   "property": "C11",
   "status": "proved",
   "theorems": [
    "C11_bool",
    "C11_minmax",
    "C11_tropical",
    "C11_real_tropical_refuted"
   ],
   "note": "Boolean, max-min and tropical provenances; the output tag is the best derivation tag and is attained. Refuted for the real-valued tropical provenance, whose saturation tolerates 0.001."
  },
  {
   "property": "C12",
   "status": "proved",
   "theorems": [
    "C12_limit",
    "C12_fuel_irrelevant"
   ],
   "note": ""
  },
  {
   "property": "C13",
   "status": "partial",
   "theorems": [
    "C13_output_lfp",
    "C13_output_other_schedulers_refuted",
    "C13_goal_stop_refuted"
   ],
   "note": "Holds for the default scheduler; refuted for depth-first, A* and beam scheduling."
  },
  {
   "property": "C14",
   "status": "proved",
   "theorems": [
    "C14_goal",
    "C14_goal_output_lfp",
    "C14_stops_when_reached_refuted"
   ],
   "note": "The converse (stops once goals have tuples) is refuted."
  },
  {
   "property": "C15",
   "status": "partial",
   "theorems": [
    "C15_difference",
    "C15_antijoin",
    "C15_unit",
    "C15_bool",
    "C15_minmax",
    "C15_dynamic_negation_refuted",
    "C15_repeated_left_refuted"
   ],
   "note": "Exact when the left input has no repeated tuple in a batch (difference) or is sorted (anti-join); refuted for repeated left tuples and for negated relations still being computed."
  },
  {
   "property": "C16",
   "status": "proved",
   "theorems": [
    "C16_bool",
    "C16_unit",
    "C16_nat",
    "C16_nat_refuted",
    "C16_tropical",
    "C16_minmax",
    "C16_real_tropical",
    "C16_real_tropical_saturation_refuted",
    "C16_proofs",
    "C16_proofs_context",
    "C16_proofs_input",
    "C16_proofs_late_exclusion_refuted",
    "C16_addmult_partial",
    "C16_addmult_refuted"
   ],
   "note": "Commutative semiring laws, exact discard and saturation tests per provenance; clamped add-mult probabilities are shown not to distribute (their provable part is C16_addmult_partial)."
  },
  {
   "property": "C17",
   "status": "proved",
   "theorems": [
    "C17_consistent_worlds",
    "C17_or",
    "C17_and",
    "C17_units",
    "C17_add",
    "C17_mult",
    "C17_negate",
    "C17_pruned_sound",
    "C17_chosen_set"
   ],
   "note": "Boolean semantics of DNF tags; exact on consistent worlds when k does not prune, sound (an under-approximation) otherwise. Heap pop order is abstract (any permutation-respecting maximum pop)."
  },
  {
   "property": "C18",
   "status": "proved",
   "theorems": [
    "C18_add",
    "C18_mult",
    "C18_negate_disjoint",
    "C18_negate_refuted"
   ],
   "note": "Top-k disjunction and conjunction keep the most probable proofs. Top-k negation does so when every fact occurs once; refuted in general."
  },
  {
   "property": "C19",
   "status": "proved",
   "theorems": [
    "C19_negate",
    "C19_mult",
    "C19_add",
    "C19_add_refuted",
    "C19_discard",
    "C19_kept"
   ],
   "note": "Exact when k does not prune; refuted for adding an empty (true) CNF to a CNF. C19_discard/C19_kept: a tag is discarded only if its formula is false under every assignment, and the formula true is kept."
  },
  {
   "property": "C20",
   "status": "proved",
   "theorems": [
    "C20_exclusion"
   ],
   "note": "For every history of group declarations and every sorted fact set."
  },
  {
   "property": "C21",
   "status": "proved",
   "theorems": [
    "C21_build_eval",
    "C21_with_formula",
    "C21_arena"
   ],
   "note": "Formula trees over the bottom-up builder, every variable-tree shape and every number of formulas in one builder."
  },
  {
   "property": "C22",
   "status": "proved",
   "theorems": [
    "C22_weighted_model_count",
    "C22_wmc",
    "C22_tag_dnf",
    "C22_tag_cnf_dnf",
    "C22_tag_proofs"
   ],
   "note": "For every ring-like weight structure in which the two literal weights of a variable sum to one; floats are outside the model."
  },
  {
   "property": "C23",
   "status": "proved",
   "theorems": [
    "C23_garbage_collect",
    "C23_total"
   ],
   "note": ""
  },
  {
   "property": "C24",
   "status": "proved",
   "theorems": [
    "C24_stratify",
    "C24_program",
    "sccs_of_contract"
   ],
   "note": "Strongly connected components are computed by reachability and shown to meet the contract of petgraph kosaraju_scc up to order; condensation and has_path_connecting are modelled from their documentation. C24_stratify: a stratification is returned exactly when no negative or aggregation edge lies inside a component; strata partition the predicates and every dependency points to an earlier or the same stratum. C24_program lifts this to rules: what a rule reads is in no later stratum, and strictly earlier under negation or aggregation."
  },
  {
   "property": "C25",
   "status": "partial",
   "theorems": [
    "C25_compose_partial",
    "C25_deep_refuted",
    "C25_partial_inner_refuted"
   ],
   "note": "False in general: refuted for accessors two levels into a tuple constructor and for inner expressions without a value. Proved for every expression whose accessors look at most one level into an inner tuple constructor, on every tuple on which the inner expression has a value."
  },
  {
   "property": "C26",
   "status": "partial",
   "theorems": [
    "C26_cascade_partial",
    "C26_inner_refuted",
    "C26_deep_refuted"
   ],
   "note": "Under the conditions of C25 at each fusion the rewritten dataflow yields exactly the same batches for every environment; refuted without them."
  },
  {
   "property": "C27",
   "status": "partial",
   "theorems": [
    "C27_fold",
    "C27_fold_entities",
    "C27_entity_refuted",
    "C27_panic_refuted"
   ],
   "note": "For every rule the folding pass accepts and every database, the folded rule yields the same head facts (C27_fold); if no entity constructor is folded it yields the same facts of every kind (C27_fold_entities).  Refuted: folding an entity constructor drops the facts the constructor inserts; folding a division by zero panics."
  },
  {
   "property": "C28",
   "status": "partial",
   "theorems": [
    "C28_prop_partial",
    "C28_assigned_refuted",
    "C28_groupby_refuted"
   ],
   "note": "Propagation keeps all facts the rule yields on every database when no variable compared with a constant is assigned by a computation or bound as an unjoined group-by variable.  Both exceptions are refuted."
  },
  {
   "property": "C29",
   "status": "partial",
   "theorems": [
    "C29_equality_partial",
    "C29_unified_partial",
    "C29_chain_refuted"
   ],
   "note": "Propagation keeps all facts the rule yields on every database when every variable occurs in at most one equality between variables (more generally when the collected substitution unifies the removed equalities) and none of them is an unjoined group-by variable.  Chains of equalities are refuted."
  },
  {
   "property": "C30",
   "status": "partial",
   "theorems": [
    "C30_shared_stage",
    "C30_no_dangling",
    "C30_second_update_refuted"
   ],
   "note": "Proved, at every stage of the bottom-up construction and for every set iteration order, for strata whose temporaries have one update, no facts and are not read by aggregations or indexed joins (what b2r.rs emits); false for temporaries with several updates. The Exclusion operator is not modelled."
  },
  {
   "property": "C31",
   "status": "proved",
   "theorems": [
    "C31_count",
    "C31_count_sound",
    "C31_exists",
    "C31_exists_sound",
    "C31_single_world",
    "C31_boolean",
    "C31_unit",
    "topk_sound",
    "all_proofs_exact"
   ],
   "note": "Worlds as interpretations of tags; exact for tags whose operations are the Boolean ones (instance: proof formulas with limits that do not prune), sound for pruned top-k formulas."
  },
  {
   "property": "C32",
   "status": "partial",
   "theorems": [
    "C32_min_max",
    "C32_arg_sound",
    "C32_arg_some",
    "C32_arg_exact",
    "C32_single_world",
    "C32_boolean",
    "C32_arg_ties_refuted",
    "C32_argmax_ties_refuted",
    "C32_row"
   ],
   "note": "Without arguments proved. Argument form: every reported argument is right, one is always found, all are found when keys are distinct; refuted with ties beyond the first stratum (the stratum key is never updated)."
  },
  {
   "property": "C33",
   "status": "proved",
   "theorems": [
    "C33_sum_prod",
    "C33_sum_prod_sound",
    "C33_single_world",
    "C33_boolean",
    "C33_no_overflow"
   ],
   "note": "Integer types; overflow is a panic of the model. Floats are not modelled here."
  },
  {
   "property": "C34",
   "status": "proved",
   "theorems": [
    "C34_interning",
    "C34_stable"
   ],
   "note": "All histories."
  },
  {
   "property": "C35",
   "status": "proved",
   "theorems": [
    "C35_unique",
    "C35_wraps"
   ],
   "note": "Unique up to the machine modulus, which is tight (the counter wraps)."
  },
  {
   "property": "C36",
   "status": "proved",
   "theorems": [
    "C36_cartesian"
   ],
   "note": ""
  },
  {
   "property": "C37",
   "status": "proved",
   "theorems": [
    "C37_retain",
    "C37_stateless"
   ],
   "note": "Also for predicates with state (FnMut)."
  },
  {
   "property": "C38",
   "status": "proved",
   "theorems": [
    "C38_unused",
    "C38_unused_reduced",
    "stable_exists",
    "stable_unique"
   ],
   "note": "Least model = stable model of the stratified program (BackSem.v). has_path_connecting is modelled from its documentation."
  },
  {
   "property": "C39",
   "status": "partial",
   "theorems": [
    "C39_nand_mult",
    "C39_max_mult_partial",
    "C39_nand_min_partial",
    "C39_add_mult_partial",
    "C39_min_max_partial",
    "C39_wmc_partial",
    "C39_add_mult_refuted",
    "C39_max_mult_refuted"
   ],
   "note": "Over the real numbers, with derivatives as limits. diff-nand-mult-prob: exact at every point. diff-max-mult, diff-nand-min, diff-min-max: exact where no maximum or minimum is of equal values (refuted at ties). diff-add-mult: exact where no sum is clamped (refuted where one is). Proof-based provenances: probability and gradient of the weighted model count are exact when facts with external tags come first; without mutual exclusion."
  },
  {
   "property": "C40",
   "status": "partial",
   "theorems": [
    "C40_rerun_partial",
    "C40_retag_refuted",
    "C40_moved_refuted",
    "C40_execute_refuted"
   ],
   "note": "In incremental mode, when tags form a semilattice and the tag of a fact does not depend on when it is tagged, running the same program again gives exactly the same tagged results (any program with distinct relation names). Refuted otherwise: with counting tags program facts are tagged again and their tags double; outside incremental mode facts of relations that are input and output are lost, and execute panics the second time."
  },
  {
   "property": "C41",
   "status": "partial",
   "theorems": [
    "C41_incremental_partial",
    "C41_execute_refuted",
    "C41_moved_refuted"
   ],
   "note": "For every history of additions and runs in incremental mode, running a program through incremental_execute gives its stratified model over all facts supplied so far. Refuted for execute on the stored program (new facts unseen, both modes) and for non-incremental mode (facts moved out of the database)."
  },
  {
   "property": "C42",
   "status": "partial",
   "theorems": [
    "C42_persistent_partial",
    "C42_source_refuted",
    "C42_need_refuted",
    "C42_recursive_refuted",
    "C42_parallel_refuted",
    "C42_ground_refuted"
   ],
   "note": "The full statement is false of the code in five ways, each with a witness. Proved for programs without recursion whose rules all read a relation, when the relations a reported one is computed from are reported as well."
  },
  {
   "property": "C43",
   "status": "partial",
   "theorems": [
    "C43_what_is_counted",
    "C43_refuted"
   ],
   "note": "The stated property is false of the code: counting sums over all worlds, including worlds that violate a mutual-exclusion group. C43_what_is_counted says what is counted, C43_refuted is the witness."
  },
  {
   "property": "C44",
   "status": "partial",
   "theorems": [
    "C44_built",
    "C44_rotate_left_root",
    "C44_rotate_right_root",
    "C44_rotate_back",
    "C44_swap",
    "C44_rotate_left_inner_loses",
    "C44_rotate_right_inner_loses",
    "C44_rotate_refuted",
    "C44_root_has_parent_refuted",
    "C44_lca_stale_refuted",
    "C44_rotate_errors"
   ],
   "note": "True at the root, proved for all trees. False below the root: every such rotation loses variables. The cached tables are never recomputed, so common ancestors can be wrong even after a rotation at the root."
  },
  {
   "property": "C45",
   "status": "proved",
   "theorems": [
    "C45_tuple_order",
    "C45_nan_refuted"
   ],
   "note": "Total order without NaN; refuted with NaN."
  },
  {
   "property": "C46",
   "status": "proved",
   "theorems": [
    "C46_minmax_count"
   ],
   "note": ""
  },
  {
   "property": "C47",
   "status": "proved",
   "theorems": [
    "C47_implicit_group",
    "C47_join_group"
   ],
   "note": "Inputs sorted by key, as collections are (C01)."
  },
  {
   "property": "C48",
   "status": "proved",
   "theorems": [
    "C48_terminates",
    "C48_fixpoint",
    "C48_optimizer_terminates",
    "cannot_substitute_total",
    "bounded_total"
   ],
   "note": "Weight argument: every round that changes the rule removes a comparison or turns an assignment into something lighter. The model's floats have no NaN; with a NaN constant the derived PartialEq of the code is not reflexive and its loop would not see the rule as unchanged."
  },
  {
   "property": "C49",
   "status": "partial",
   "theorems": [
    "C49_optimized_partial",
    "C49_compared_partial",
    "step_stable"
   ],
   "note": "Same stable models, for programs whose rules are `plain` (no variable both assigned and compared for equality, assigned at most once; entity constructors and conditionals that cannot be folded; unjoined group-by variables untouched) and use every variable in at most one equality between variables. Without the demand transform. C49_compared_partial: the same for rules that give the result of a computation to a fresh variable and equate this with a variable that is in no other equality, as flattening does for `d == y - x`."
  },
  {
   "property": "C50",
   "status": "partial",
   "theorems": [
    "C50_stratified_model"
   ],
   "note": "Every successful run, in both modes and from every context state, returns for each output relation the stratified model of the stored and program facts (as sets of tuples; without iteration limit or goal stop). Tags of facts and compilation itself are outside this statement; programs must satisfy xprog_ok (distinct names, well-formed dataflows)."
  },
  {
   "property": "C51",
   "status": "partial",
   "theorems": [
    "C51_dual_numbers",
    "C51_proofs_partial",
    "C51_proofs_refuted"
   ],
   "note": "Holds for all provenances whose tags are dual numbers, and for the proof-based ones when facts with external tags come first. Refuted otherwise: a probabilistic fact without external tag added first makes the gradient of a later fact refer to another input, and reporting the last one panics."
  },
  {
   "property": "C52",
   "status": "partial",
   "theorems": [
    "C52_plan_partial",
    "C52_plan_exact",
    "C52_plan_complete",
    "C52_total",
    "C52_assign_refuted",
    "C52_stale_refuted",
    "C52_new_refuted",
    "C52_negated_foreign_refuted",
    "C52_panic_refuted"
   ],
   "note": "The plan is the conjunction of the body without assignments of variables that get values elsewhere, hence exact when there are none; it always accepts at least what the body accepts; planning does not panic when there is a relation atom, an aggregation, no foreign atom, or a foreign atom with constant bounded arguments. Refuted: an assignment of a bounded variable is dropped (q(x*y,x,y)); a foreign test after a foreign generator forgets its values; comparisons of new entities are dropped; a negated foreign atom reads a relation; a body of assignments feeding a foreign predicate panics."
  },
  {
   "property": "C53",
   "status": "partial",
   "theorems": [
    "C53_rule_partial",
    "C53_world",
    "C53_dup_refuted",
    "C53_total_refuted",
    "C53_once_refuted",
    "C53_static_refuted",
    "C53_new_refuted",
    "C53_clash_refuted"
   ],
   "note": "For all safe rules with one head atom meeting the conditions of `lowerable` (B2RSpec.v) whose plan has no clash, for every search order, in-place or with temporaries, aggregates and foreign predicates included.  The temporaries can always be filled in (C53_world).  The refutations show rules that violate one condition each and are compiled to something else or panic.  Missing: disjunctive heads; the placement of temporaries in strata is C54."
  },
  {
   "property": "C54",
   "status": "partial",
   "theorems": [
    "C54_strata_partial",
    "C54_stratified_partial",
    "C54_model_partial",
    "C54_typed",
    "C54_compile"
   ],
   "note": "C54_compile: for typed programs (conditions on the text: types, safety, negation, comparisons, arithmetic) the dependency graph is built, the strata are found whatever the SCC algorithm returns within its contract, the rules are lowered, and the models of the result hold the facts of the only stable model. The _partial theorems also cover aggregation and foreign predicates, with conditions on the rules (program_ok). Missing: disjunctive heads, rules that make entities, goal relations."
  },
  {
   "property": "C55",
   "status": "partial",
   "theorems": [
    "C55_total",
    "C55_strata",
    "C55_placed",
    "C55_arg_refuted",
    "C55_unplaced_refuted"
   ],
   "note": "Planned rules are lowered and the relations made for negation are placed, under the conditions of rule_lowers and neg_simple. The full statement is false: an aggregation with an argument variable under a foreign predicate panics, and a relation made for negation over another one of the same stratum is dropped. Disjunctive heads are not modelled."
  },
  {
   "property": "C56",
   "status": "partial",
   "theorems": [
    "C56_run_partial",
    "C56_negation_refuted",
    "C54_laid_partial"
   ],
   "note": "Dependency graph, strata, plans, lowering, and the runtime's evaluation together: for typed stratified programs the compiler succeeds and a run that ends leaves exactly the stable model in the output relations, whatever the context stored before, the mode, the scheduler, the join orders. Left out: aggregation, foreign code, new entities, disjunctive heads, in-place ordering. Termination is C57. With a provenance that has differences (boolean) tuples whose negation holds stay, tagged false: refuted."
  },
  {
   "property": "C57",
   "status": "partial",
   "theorems": [
    "C57_loop_partial",
    "C57_limit",
    "C57_nonrecursive_partial",
    "C57_execute_partial",
    "C57_run_partial",
    "C57_finite",
    "C57_hang_refuted"
   ],
   "note": "Fixpoint loops end when finitely many tuples are derivable, tags improve on a well-founded order and every round is compared linearly; with an iteration limit always; without recursion in a number of rounds bounded by the depth. No check of a run fails. Typed programs without expressions in recursion have finite stable models, so their runs end with them. Left out: tags without a well-founded order (min-max) in recursion, schedulers other than the default one, aggregation, foreign code. Without the exception for galloping the claim is refuted: a typed program with nineteen facts whose run never ends."
  },
  {
   "property": "C58",
   "status": "partial",
   "theorems": [
    "C58_dnf",
    "C58_dnf_total",
    "C58_implies",
    "C58_implies_total",
    "C58_rule_partial",
    "C58_constraint_refuted",
    "C58_conjunctive_refuted",
    "C58_fact",
    "C58_query_partial",
    "C58_range_partial",
    "C58_range_refuted"
   ],
   "note": "Disjunctive normal forms and facts with expressions in full. Implications for substitutions that give values to arguments and models that are decided. Queries without type arguments (the pass drops them); ranges whose end is below the largest i32 (refuted there: the inclusive end saturates). That the passes fail on no rule is refuted: a constraint in the premise of an implication, and an implication under a conjunctive head, panic. Left out: case, aggregations, forall and exists, destructors."
  },
  {
   "property": "C59",
   "status": "partial",
   "theorems": [
    "C59_sound_partial",
    "C59_complete_partial",
    "C59_total",
    "C59_compile_partial",
    "C59_subtraction_refuted",
    "C59_sum_refuted",
    "C59_branch_refuted",
    "C59_wildcard_refuted",
    "C59_remainder_refuted",
    "stripped_meaning"
   ],
   "note": "Sound for all rules whose negated atoms have no wildcards; complete when all parts of the expressions have values, sums and differences of integers do not saturate, and only constants are subtracted. Refuted otherwise: the second operand of a difference is computed as a sum (x - y == z gives y = z + x in the plan), both branches of if-then-else are computed, a wildcard in a negated atom becomes a variable (the planner repairs this), and q(x) = p(x, x + 1) loses its condition in the planner, which drops assignments of bound variables. Rules with implications are composed in C58. C59_remainder_refuted: `q(x) = p(x), x % 2 == 0` is compiled without the condition. stripped_meaning: flattening without the inverse assignments keeps the meaning of rules exactly (sums may saturate)."
  },
  {
   "property": "C60",
   "status": "partial",
   "theorems": [
    "C60_least",
    "C60_order",
    "C60_total",
    "C60_limited",
    "C60_exact",
    "C60_rule",
    "C60_demand",
    "C60_finite",
    "C60_wildcard_refuted",
    "C60_chain_refuted",
    "C60_negated_refuted",
    "C60_demanded"
   ],
   "note": "Aggregations are left out. C60_least/C60_order: the least closed set, independent of order. C60_total: an answer unless the body has an implication. C60_exact needs distinct made-up names, foreign atoms of the declared arity and constraints without new entities; C60_limited and C60_rule (one direction) do not. C60_finite: for substitutions into values that are closed under the operations and for which sums can be undone (machine values are); wildcards are not bound arguments of foreign atoms. The refutations show that acceptance does not protect the planner: an atom with an unbound wildcard is dropped, a chain of equalities leaves the head unbound, a variable that occurs in a negated atom only changes the meaning."
  },
  {
   "property": "C61",
   "status": "partial",
   "theorems": [
    "C61_run_partial",
    "C61_total_partial"
   ],
   "note": "For front-end programs without implications, aggregations, new entities, foreign predicates, wildcards in negated atoms; the conditions `tame`, `apart` on the flattened rules and `typed_source` on the optimized ones are on the text that flattening makes. The assignments that undo sums and differences, some of which are wrong (C59), are shown to be without effect on the plans of these programs. C61_total_partial adds that runs end, unless a round gallops. Negation needs a provenance without differences (C56_negation_refuted)."
  },
  {
   "property": "C62",
   "status": "partial",
   "theorems": [
    "C62_demand_partial",
    "C62_relevant_partial",
    "C62_sips",
    "C62_total",
    "C62_adornments",
    "C62_stratified_partial",
    "C62_negated_refuted",
    "C62_ungrounded_refuted",
    "C62_stratified_refuted",
    "C62_unbound_refuted",
    "C62_entity_refuted",
    "C62_demand_body"
   ],
   "note": "Proved under the stated conditions (no aggregation over relations on demand; no entities built in the rules concerned; demand computable without negated atoms on demand). Outside of them the transformation is wrong: a negated atom on demand is used as a positive one in the demand of later atoms (answers lost), a rule with one ungroundable demand demands nothing (answers lost), stratified programs can become unstratified, demand rules keep negated atoms with unbound variables (the plan then asks that the negated relation be empty), entities built for a demand become visible; each is refuted with a witness."
  },
  {
   "property": "C63",
   "status": "partial",
   "theorems": [
    "C63_plain",
    "C63_run_partial",
    "C63_total_partial",
    "C63_complete"
   ],
   "note": "Under the conditions of C49, C62 and C56, the typing being asked of what is left after the transformation; the stratification of the transformed program is a hypothesis (C62_stratified_partial gives it when the relations on demand share a level with the rules that ask). Arithmetic in arguments on demand is outside (variables assigned and in atoms); aggregations and foreign predicates are outside."
  },
  {
   "property": "C64",
   "status": "partial",
   "theorems": [
    "C64_member",
    "C64_default",
    "C64_intersection",
    "C64_complete_partial",
    "C64_complete_refuted",
    "C64_comm",
    "C64_assoc",
    "C64_sets_order",
    "C64_sets_intersection",
    "C64_eq_sound",
    "C64_eq_complete_partial",
    "C64_eq_complete_refuted",
    "C64_constant_types"
   ],
   "note": "Intersections, order independence, defaults and constants in full. That unification fails only for disjoint sets, and that a set is equal to itself, holds for all sets but the one of unsigned integers: it cannot be unified with its own types and is not equal to itself (C64_complete_refuted, C64_eq_complete_refuted)."
  },
  {
   "property": "C65",
   "status": "partial",
   "theorems": [
    "C65_sound_partial",
    "C65_stale_refuted",
    "C65_aggregate_refuted",
    "C65_one_rule"
   ],
   "note": "For programs without aggregations whose result does not change when the last pass is run once more (a check that can be executed), with a location of its own for every node and declared column types for variants. Without the second look the claim is false: the last pass may narrow a column after a rule using it has been looked at (C65_stale_refuted). The input variables of aggregations are not tied to the aggregate (C65_aggregate_refuted)."
  },
  {
   "property": "C66",
   "status": "partial",
   "theorems": [
    "C66_integers",
    "C66_booleans",
    "C66_compare",
    "C66_binary_partial",
    "C66_mod_refuted",
    "C66_cast",
    "C66_text_roundtrip",
    "C66_negate",
    "C66_unary_partial",
    "C66_negate_refuted",
    "C66_cast_refuted",
    "C66_constant",
    "C66_constant_refuted",
    "C66_texts"
   ],
   "note": "True of all integer, boolean and comparison operators and of all casts. Not true: remainders of floats, negations of unsigned numbers and many casts (such as i16 to i32) are accepted and panic; integer constants out of range of their type wrap around; a string constant of type &str panics. Floats and times are given by the platform, of which only the types of results are assumed."
  },
  {
   "property": "C67",
   "status": "partial",
   "theorems": [
    "C67_model_typed_partial",
    "C67_inferred_partial",
    "C67_program_partial"
   ],
   "note": "For programs without aggregations, whose inferred types are settled (C65) and whose head variables are bound by atoms and equations. C67_program_partial is about the facts that the compiler makes of the items (under the conditions of C69); C67_inferred_partial assumes that the given facts have the inferred types."
  },
  {
   "property": "C68",
   "status": "partial",
   "theorems": [
    "C68_terminates_partial",
    "C68_unsigned_refuted"
   ],
   "note": "For programs whose expressions have different locations, and without parameters of the family UnsignedInteger; with such a parameter, which foreign functions of the Python interface can have, inference goes on for ever."
  },
  {
   "property": "C69",
   "status": "partial",
   "theorems": [
    "C69_declared_partial",
    "C69_facts_partial",
    "C69_compiled_partial",
    "C69_constant_refuted",
    "C69_arity_refuted"
   ],
   "note": "For programs without aggregations, in which no constant with a declared type is itself an argument of an atom and relations are used with one number of arguments. Not true without: such a constant overrides the declared type of the relation, and a declaration that follows facts of another number of arguments is accepted and cut off."
  },
  {
   "property": "C70",
   "status": "proved",
   "theorems": [
    "C70_constants",
    "C70_same_id",
    "C70_no_panic",
    "C70_strings",
    "C70_strings_complete",
    "C70_items"
   ],
   "note": "For hash functions that give the facts of the program no id twice. The analysis may only panic when the numbers of an enumeration do not fit into i64 (C70_no_panic). C70_strings_complete is about strings without symbols, dates and durations (C73)."
  },
  {
   "property": "C71",
   "status": "proved",
   "theorems": [
    "C71_enum",
    "C71_uses",
    "C71_before_refuted",
    "C71_alias_type_refuted"
   ],
   "note": "Occurrences have different locations. Shown besides: a constant that is used before its declaration is taken for a variable (C71_before_refuted), and a constant that is declared as another constant gets the type of entities (C71_alias_type_refuted)."
  },
  {
   "property": "C72",
   "status": "partial",
   "theorems": [
    "C72_formula",
    "C72_rule",
    "C72_sound",
    "C72_twice_refuted"
   ],
   "note": "For rules in which the temporaries of the patterns of a conjunction are apart (C72_formula, C72_rule); that nothing is matched wrongly holds for all rules (C72_sound). Not true of all rules: two cases of one variable in a conjunction share their temporaries (C72_twice_refuted). Implications, aggregations and destructors in negated atoms are left out."
  },
  {
   "property": "C73",
   "status": "partial",
   "theorems": [
    "C73_place_refuted",
    "C73_new_refuted",
    "C73_string_type_refuted",
    "C73_string_symbol_refuted"
   ],
   "note": "Not true: the places of the literals are hashed, so equal constants at different places differ; new hashes the name of the relation and not that of the functor; an entity string may have an entity where a number is declared, and may not have a symbol. What holds is C70."
  },
  {
   "property": "C74",
   "status": "partial",
   "theorems": [
    "C74_sound_partial",
    "C74_complete_partial",
    "C74_program_partial"
   ],
   "note": "For rules in which no conjunction is empty, negated atoms have no wildcards, where-clauses share a variable with the body and expressions are regular (as in C59, C61), and programs whose rules make no entities. Aggregators are any functions of sets of tuples; tags and weights, and what the runtime computes for each aggregator (C10-C12, C43), are separate. Quantifiers are C75."
  },
  {
   "property": "C75",
   "status": "partial",
   "theorems": [
    "C75_exists_partial",
    "C75_forall_partial",
    "C75_exists_where_partial",
    "C75_forall_where_partial",
    "C75_not_exists_refuted",
    "C75_forall_refuted"
   ],
   "note": "True if no variable of the head is in the body of the quantifier, and if there is a where-clause; quantified formulas have no aggregations inside. Not true of variables of the head: then not exists and forall add nothing (C75_not_exists_refuted, C75_forall_refuted), since only groups in which the body holds are made."
  },
  {
   "property": "C76",
   "status": "partial",
   "theorems": [
    "C76_same",
    "C76_translated_partial",
    "C76_where_refuted",
    "C76_demand_refuted",
    "C76_leak_refuted",
    "C76_bindings"
   ],
   "note": "The translation is without panic if there are no where-clauses and no demanded head arguments; otherwise it may panic (C76_where_refuted, C76_demand_refuted). Not true: variables inside an aggregation are taken for bound outside of it (C76_leak_refuted)."
  },
  {
   "property": "C77",
   "status": "partial",
   "theorems": [
    "C77_range",
    "C77_chars",
    "C77_chars_once",
    "C77_find_begin",
    "C77_find_apart",
    "C77_find_partial",
    "C77_find_cover_partial",
    "C77_find_all_refuted",
    "C77_find_range_refuted",
    "C77_split",
    "C77_split_free",
    "C77_split_count",
    "C77_index_partial",
    "C77_index_refuted"
   ],
   "note": "range, string_chars and string_split do. string_find gives a begin in bytes and an end that is the begin plus the number of characters of the pattern, so its ranges are right for ASCII patterns only and may not even be cut out (C77_find_range_refuted), and it gives only occurrences that do not overlap (C77_find_all_refuted); every occurrence overlaps a found one. string_index counts bytes, string_chars characters (C77_index_refuted)."
  },
  {
   "property": "C78",
   "status": "partial",
   "theorems": [
    "C78_substring",
    "C78_substring_rest",
    "C78_index_of",
    "C78_index_substring",
    "C78_char_at",
    "C78_length_partial",
    "C78_length_refuted",
    "C78_concat",
    "C78_concat_length",
    "C78_replace",
    "C78_format"
   ],
   "note": "Positions are in bytes except in string_char_at, so string_length bounds the positions of string_char_at for ASCII strings only (C78_length_refuted)."
  },
  {
   "property": "C79",
   "status": "partial",
   "theorems": [
    "C79_abs",
    "C79_abs_overflow",
    "C79_sign_partial",
    "C79_sign_refuted",
    "C79_sign_type_refuted",
    "C79_max",
    "C79_min"
   ],
   "note": "Integers and floats without NaN. abs panics at the least integer (C79_abs_overflow). sign of an unsigned 0 is 1 (C79_sign_refuted) and sign of a float is an i32 though declared with the type of its argument (C79_sign_type_refuted)."
  },
  {
   "property": "C80",
   "status": "partial",
   "theorems": [
    "C80_probability",
    "C80_half",
    "C80_monotone",
    "C80_symmetric",
    "C80_gt_partial",
    "C80_gt_lt",
    "C80_float",
    "C80_unsigned_refuted",
    "C80_unsigned",
    "C80_eq",
    "C80_neq",
    "C80_deriv_refuted"
   ],
   "note": "Real numbers instead of f64. Integers whose difference does not overflow: on unsigned integers soft_gt panics if the first is less (C80_unsigned_refuted). soft_eq is unimplemented for all sigmoids but the logistic one, and there is not the normalised derivative that its comment names (C80_deriv_refuted)."
  },
  {
   "property": "C81",
   "status": "partial",
   "theorems": [
    "C81_sort",
    "C81_rank",
    "C81_enumerate",
    "C81_world_refuted",
    "C81_top_k",
    "C81_top",
    "C81_draw"
   ],
   "note": "For all elements of the batch; positions are not among the elements that hold in a world, whose first element need not have position 0 (C81_world_refuted). Weights are rational numbers; sort_by_cached_key, sort_by and the binary heap by their documentation."
  },
  {
   "property": "C82",
   "status": "partial",
   "theorems": [
    "C82_worlds",
    "C82_worlds_sound",
    "C82_join",
    "C82_join_single_world",
    "C82_join_all",
    "C82_join_args",
    "C82_avg_single_world",
    "C82_avg_refuted"
   ],
   "note": "string_join does in all modes; with all and arguments in the worlds with exactly one element for each. avg of integers is right with an exclamation mark only: otherwise it divides by zero on every batch, since the empty set of elements is among the worlds (C82_avg_refuted). avg of floats, weighted_sum and weighted_avg are covered by C82_worlds with their function of the elements as a parameter."
  },
  {
   "property": "C83",
   "status": "proved",
   "theorems": [
    "C83_order",
    "C83_disjunct",
    "C83_disjunct_needs_order",
    "C83_normalize",
    "C83_softmax"
   ],
   "note": "Batches are sorted by tuple, as the grouping dataflows make them (C83_order); for others disjunct would split the exclusions (C83_disjunct_needs_order). Real numbers instead of f64; the sum of the weights is positive for normalize."
  },
  {
   "property": "C84",
   "status": "partial",
   "theorems": [
    "C84_value",
    "C84_panics",
    "C84_accepted",
    "C84_accepted_refuted",
    "C84_accepted_panics",
    "C84_rule_partial",
    "C84_attr",
    "C84_head"
   ],
   "note": "The last part is false: the analysis accepts f64, bool and most integer types, but the predicate of the tag casts to f64, and there is no cast to f64 from f64, bool and most integers, so that the rule panics when its tag is evaluated (C84_accepted_refuted, C84_panics). In C84_rule_partial a value whose cast panics derives nothing. Missing: the boundness of the rewritten body, the tags of the compiled dataflow, and the order of the factors in it; bodies have no implications or aggregations. Rules with heads that are not atoms panic (C84_head)."
  },
  {
   "property": "C85",
   "status": "partial",
   "theorems": [
    "C85_raw",
    "C85_fields",
    "C85_keys",
    "C85_keys_loaded",
    "C85_load",
    "C85_value",
    "C85_read_back",
    "C85_content",
    "C85_registry",
    "C85_options",
    "C85_once",
    "C85_registry_refuted",
    "C85_clone_refuted",
    "C85_symbol",
    "C85_symbol_refuted"
   ],
   "note": "True for relations that agree about the delimiters and headers of the files they share, with different headers in a file (C85_registry, C85_load, C85_raw, C85_fields, C85_keys). False otherwise: the contents of files are stored by path, so that a second relation with other options gets the contents as the first one splits them (C85_registry_refuted). Symbols cannot be read and panic instead of returning an error (C85_symbol_refuted), and so does loading a new file while a clone of the database is alive (C85_clone_refuted). C85_keys says what is loaded as a set; all facts of a row get its tag, as separate facts. The csv library is a parameter that splits a file into records; floats, characters, dates and durations are parsed by parameters."
  },
  {
   "property": "C86",
   "status": "partial",
   "theorems": [
    "C86_drain",
    "C86_add",
    "C86_delivered",
    "C86_only",
    "C86_output",
    "C86_plain",
    "C86_trace",
    "C86_monitor_partial",
    "C86_monitor_refuted",
    "C86_tag_refuted",
    "C86_stratum"
   ],
   "note": "Delivery holds for every function giving the facts created by an update (C86_delivered, C86_only, C86_output), if 'one' is not discarded, after at least one iteration; storing and draining lose and repeat nothing (C86_add, C86_drain); the stratum part is C86_stratum for rules that do not parse entities dynamically. Without created entities the loop is the one of the other theorems (C86_plain) and monitoring changes nothing (C86_monitor_partial); monitors see all iterations and the reason for stopping (C86_trace). Monitoring is not transparent otherwise: a monitored run never drains the store, so created entities and what follows from them are missing (C86_monitor_refuted). Tags: an entity made several times gets a sum of ones, e.g. 2 over natural numbers (C86_tag_refuted). Missing: the facts created are a parameter, not computed from the expressions of the dataflow."
  },
  {
   "property": "C87",
   "status": "partial",
   "theorems": [
    "C87_program",
    "C87_program_assert",
    "C87_database",
    "C87_heads",
    "C87_rounds_partial",
    "C87_sources_refuted",
    "C87_mixed_refuted",
    "C87_rounds_refuted",
    "C87_tag_refuted"
   ],
   "note": "Each source of numbers alone gives the declared exclusions: facts of a program with tags that are absent or probabilities (C87_program; disjunctions of fewer than two facts panic, C87_program_assert), calls to the database (C87_database), one evaluation of a disjunctive head whose numbers are new to the context (C87_heads), several iterations if no binding comes up in two of them (C87_rounds_partial). The full statement is false: all sources count from 0 into the same table, so facts of unrelated disjunctions exclude each other and their conjunction has no proof (C87_sources_refuted: program and head; C87_mixed_refuted: program and database); a binding that is recent in two iterations gets two numbers, so its outcomes do not exclude each other (C87_rounds_refuted); disjunctions with boolean tags lose the exclusion (C87_tag_refuted)."
  },
  {
   "property": "C88",
   "status": "partial",
   "theorems": [
    "C88_transaction",
    "C88_loaded",
    "C88_cycle",
    "C88_success",
    "C88_terminates",
    "C88_diamond_refuted",
    "C88_again_refuted",
    "C88_twice_refuted"
   ],
   "note": "Loading ends (C88_terminates), never panics, and on an error leaves the context and its analysis as they were; contexts sharing the analysis never see a change (C88_transaction). A loaded source has added each file it reaches once, imports first (C88_loaded); cyclic imports are never loaded (C88_cycle). A source gets past its imports exactly if they form a tree of files not imported before (C88_success). The full statement is false: imports without a cycle are rejected as cyclic if two files import the same file (C88_diamond_refuted) or if an earlier source imported it (C88_again_refuted), and a file that is given directly and not by an import is not checked, so its items are added twice (C88_twice_refuted). Foreign attribute processors and node ids are not modelled."
  },
  {
   "property": "C89",
   "status": "partial",
   "theorems": [
    "C89_add",
    "C89_database",
    "C89_internalize",
    "C89_entities",
    "C89_facts",
    "C89_shown",
    "C89_equal",
    "C89_dropped_refuted",
    "C89_symbol_refuted",
    "C89_untyped_refuted",
    "C89_error_refuted",
    "C89_order_refuted"
   ],
   "note": "Facts are accepted exactly if they have the type of their relation, errors change nothing, and only the results of the relation become stale (C89_add for contexts of the integration layer, C89_database for the database itself). Translation fails exactly on entity strings that name no entity and otherwise keeps types and meanings and all earlier symbols (C89_internalize, C89_facts), with exactly the facts of the entities added (C89_entities). Shown facts are as given, entities aside (C89_shown), and equality is kept (C89_equal). The rest of the statement is false: accepted facts are dropped if an entity string cannot be read, though entities of other arguments stay (C89_dropped_refuted); symbols given by an unused number are accepted and cannot be shown (C89_symbol_refuted); contexts with the default options accept no facts (C89_untyped_refuted); facts rejected by the database remove results (C89_error_refuted); the order of symbols is that of their first use (C89_order_refuted). Tensors and the text parser of entities are not modelled."
  },
  {
   "property": "C90",
   "status": "partial",
   "theorems": [
    "C90_read",
    "C90_reads",
    "C90_results",
    "C90_panic",
    "C90_monitor_partial",
    "C90_runs",
    "C90_clone_refuted",
    "C90_monitor_refuted",
    "C90_hidden_refuted",
    "C90_execute_refuted",
    "C90_drain_refuted"
   ],
   "note": "The results of a run are ready to be read (C90_results); a read gives exactly the facts, keeps everything others hold and all other relations (C90_read), and any sequence of reads gives each relation's facts each time (C90_reads). The exact condition for a panic is C90_panic. Later runs of a program do not see what was read (C90_runs, any stored results). With monitors computed relations with facts read the same and every fact is observed once (C90_monitor_partial). The rest is false: after cloning a context unread relations panic (C90_clone_refuted); with monitors empty and input relations have no result (C90_monitor_refuted); relations that were computed but not kept read as their given facts only (C90_hidden_refuted); running the stored program again after a read takes the relation to be empty (C90_execute_refuted, C90_drain_refuted). Tensors and storage other than lists of facts are not modelled."
  },
  {
   "property": "C91",
   "status": "partial",
   "theorems": [
    "C91_demand_errors",
    "C91_demand",
    "C91_goal",
    "C91_hidden",
    "C91_scheduler",
    "C91_result",
    "C91_adorned_refuted",
    "C91_conj_refuted",
    "C91_disj_refuted",
    "C91_order_refuted",
    "C91_output_refuted",
    "C91_beam_refuted"
   ],
   "note": "Hidden relations are exactly those declared so (C91_hidden, all programs). Schedulers: exact error condition and exact map (C91_scheduler, sizes of beams not negative). Goals: exact error condition and exact set for programs without conjunctive heads and without annotated relations declared in groups (C91_goal); demand: the same, and also without disjunctive heads (C91_demand_errors, C91_demand). The rest is false: annotated relations declared in groups lose their demand and their declaration (C91_adorned_refuted), rules with conjunctive heads lose goals and demand (C91_conj_refuted), demand on disjunctive heads is checked for the first relation only (C91_disj_refuted) and rejected by order even when there is none (C91_order_refuted), errors about output files are not reported (C91_output_refuted), negative beams become huge (C91_beam_refuted). The storage attribute and options of output files are not modelled."
  },
  {
   "property": "C92",
   "status": "partial",
   "theorems": [
    "C92_types",
    "C92_relations",
    "C92_facts",
    "C92_extern",
    "C92_variants",
    "C92_constructors",
    "C92_enum",
    "C92_constructor_facts",
    "C92_panic",
    "C92_forward_refuted",
    "C92_arity_refuted",
    "C92_annotation_refuted"
   ],
   "note": "For all accepted programs: names of types (C92_types), foreign predicates (C92_extern, C92_relations, C92_facts), one declaration of each relation and constructor (C92_relations, C92_constructors), values of members of enums (C92_enum). Types of declared relations, of their facts and of constructors under the condition that declarations and facts of the relation have one number of arguments (C92_relations, C92_facts, C92_variants), and for constructors and facts of them (C92_constructor_facts) that users do not write the attribute adt. Panics happen exactly for malformed attributes adt (C92_panic). The rest is false: a name must be declared before it is used (C92_forward_refuted), facts before a declaration with another number of arguments are not reported and cut the types (C92_arity_refuted), and an attribute adt written by a user makes the compiler panic (C92_annotation_refuted). Rules, queries and function types are not in this model."
  },
  {
   "property": "C93",
   "status": "partial",
   "theorems": [
    "C93_warnings",
    "C93_silent",
    "C93_rejected",
    "C93_order",
    "C93_location",
    "C93_once_refuted",
    "C93_location_refuted"
   ],
   "note": "Exact set of warnings after every accepted source of every session, each once (C93_warnings); consequences for silence (C93_silent) and order (C93_order); rejected sources leave no trace (C93_rejected); locations are uses (C93_location). False: warnings are repeated for every later source (C93_once_refuted), and relations used in queries of atoms get no location (C93_location_refuted). Whether a source is rejected is given."
  },
  {
   "property": "C94",
   "status": "partial",
   "theorems": [
    "C94_attr",
    "C94_not_ascii",
    "C94_input",
    "C94_storage",
    "C94_conflict_refuted",
    "C94_delim_refuted",
    "C94_ignored_refuted",
    "C94_header_refuted"
   ],
   "note": "An attribute is accepted exactly when it describes a file, and gives that file (C94_attr). For all programs the exact condition for errors and the exact map of files, that of the last declaration (C94_input), and of storages (C94_storage). The error about delimiters that are not ASCII never happens (C94_not_ascii). False: two declarations with different files are accepted and the order decides (C94_conflict_refuted); a single character that is not ASCII is reported as several (C94_delim_refuted); files of rules and unknown options such as delimiter are ignored (C94_ignored_refuted); has_header=false has no effect when keys or fields are given (C94_header_refuted). Reading the files is C85; the extension of a path is a parameter."
  }
 ]
}