# Formal model of Scallop in Rocq

## Trusted base

* The kernel of Coq 8.16.1, including `vm_compute`.
* `Print Assumptions` is printed by the build after the property theorems.  It
  reports "Closed under the global context" for all of them except those that use
  the real numbers of the standard library.  The theorems about gradients (C39,
  C51; `PropsDual.v`) depend on its axioms `ClassicalDedekindReals.sig_forall_dec`
  and `FunctionalExtensionality.functional_extensionality_dep`; those about soft
  comparisons and normalization (C80, C83; `PropsSoft.v`, `PropsNormal.v`) on these, `ClassicalDedekindReals.sig_not_dec`
  and `Classical_Prop.classic`, or some of them.
* Loading ssreflect (through the `lia`/`ring` machinery of the standard library or
  mathcomp) brings the opaque module `Coq.ssr.ssrunder` into scope, whose module
  type fields are listed as axioms by a whole-library check; loading the real
  numbers likewise lists the sealed definitions of `Coq.Reals.Rdefinitions`.  No
  theorem has these among its assumptions.
* The transcription from Rust to Gallina.  Every model definition carries a
  comment citing the file and lines of /repo it transcribes and the
  simplifications made.
* No axioms of our own, no functors, no module types, no admitted goals, no
  disabled checks.

## Modelling conventions

* `Vec<T>` is `list T`; maps and sets whose iteration order is not observable are
  association lists, functions or sorted lists.  Where a hash map's iteration
  order can be observed the order is a parameter and theorems hold for every one.
* Panics and `unimplemented!` are explicit error results where a property speaks
  about them; otherwise the defining comment says which panic is outside the model.
* Loops without structural bound take fuel; running out is a distinct result, and
  theorems either assume success or prove that enough fuel exists.
* Machine integers are `nat`/`Z` unless overflow matters to the property
  (`Eval.v`, `Aggregate.v`, C33, C35).
* Floating point probabilities and weights are exact numbers (rationals, reals, or
  elements of an arbitrary ring with the laws as hypotheses).
* Model files contain definitions only.  Specifications used by the theorems
  (`View.v`, `Denote.v`, `BackSem.v`, and the first section of each `Props*.v`) do
  not mention the helpers of the model.
* Theorem names start with the property id.  `_partial` marks a theorem with a
  restriction the statement of the property does not have, `_refuted` a
  counterexample to the full statement on the model.  Each theorem has an
  `Example` beside it that meets its hypotheses.

## Model files and the code they transcribe

Paths are relative to /repo/core/src unless they start with `lib`.

| File | What | Code | Simplifications |
|------|------|------|-----------------|
| Order.v, Value.v | Values, tuples and their order | common/value.rs, common/tuple.rs, common/generic_tuple.rs (derived `Ord`) | strings, entities and tensors are opaque numbers; floats are integers plus a NaN element (C45)  |
| Prov.v, ProvInst.v | The provenance interface and its instances unit, bool, natural, tropical, real-tropical, min-max-prob, add-mult-prob, proofs | runtime/provenance/provenance.rs, discrete/*.rs, probabilistic/{min_max_prob,add_mult_prob}.rs, common/proofs | probabilities are rationals |
| SortedCol.v | Sorted collections, merge, galloping search | runtime/dynamic/collection/sorted.rs, runtime/utils/{gallop,sorted}.rs |  |
| Schedulers.v, Relation.v | Schedulers, relations with stable/recent/pending batches | runtime/env/schedulers/*.rs, runtime/dynamic/relation.rs | heap order of A*/beam as a sort |
| Dataflow.v | Dataflow operators | runtime/dynamic/dataflow/*.rs | per-operator closures are parameters; foreign predicates are functions; Exclusion and sampling not modelled |
| Iteration.v | Evaluation of one stratum, stopping criteria | runtime/dynamic/iteration.rs, runtime/env/stopping_criteria.rs | entities created during a run are not internalized |
| Utils.v | Symbol registry, id allocator, cartesian product, indexed retain | common/symbol_registry.rs, utils/*.rs |  |
| Formula.v | Literals, clauses, DNF/CNF tags, top-k and top-bottom-k contexts, mutual exclusion | runtime/provenance/common/{clause,dnf_formula,dnf_context,cnf_dnf_formula,cnf_dnf_context,disjunction}.rs | binary heap by its contract |
| VTree.v, Sdd.v, VRotate.v | Variable trees, the bottom-up SDD compiler, weighted model counting, garbage collection, rotations | lib/sdd/src/*.rs | hash maps as association lists |
| Aggregate.v | count, exists, min/max, sum/prod aggregators and their specialisations, grouping dataflows | common/foreign_aggregates/*.rs, runtime/dynamic/dataflow/aggregation/*.rs | the other aggregators are in AggMore.v and Normal.v |
| Back.v, Scc.v | Back IR, dependency graph, strata, removal of unused relations | compiler/back/{ast,scc,compile}.rs | petgraph operations from their documentation |
| Eval.v | Expressions and evaluation | common/expr.rs, common/tuple_access.rs, runtime/env/environment.rs | integer arithmetic with overflow as panic; foreign functions are parameters |
| Optimize.v | Rule optimizations and their driver | compiler/back/optimizations/*.rs, compiler/back/compile.rs | the demand transform is in Demand.v |
| Ram.v, Dedup.v | RAM dataflows, projection cascade, sharing of temporaries | compiler/ram/ast.rs, compiler/ram/optimizations/*.rs | without Exclusion |
| Increm.v | Comparison of program versions | compiler/ram/{incremental,dependency}.rs | tags and types of relations left out |
| Exec.v | The execution context | runtime/dynamic/incremental.rs, runtime/database/{extensional,intentional}/*.rs | monitors left out; the stratum loop is that of Iteration.v |
| Dual.v | Differentiable tags | runtime/provenance/common/{dual_number,dual_number_2,diff_prob_storage}.rs, runtime/provenance/differentiable/*.rs | real numbers instead of f64; sprs::CsVec from its documentation |
| Plan.v | Query planner: beam search over join orders, application of literals, the plan | compiler/back/query_plan/{context,state,arc,plan}.rs | arc weights and heaps as an arbitrary permutation; names of made-up variables are parameters |
| VarTuple.v, B2R.v | Tuples of variables; lowering of plans to RAM dataflows | compiler/back/var_tuple.rs, compiler/back/b2r.rs | disjunctive heads, facts and attributes left out; names of made-up relations, listing order of hash sets and file attributes are parameters |
| B2RStrata.v | Lowering of strata: updates of rules, permuted copies, placement of the relations made for negation | compiler/back/b2r.rs 60-330 | order of rules in hash maps is a parameter of the planner; facts and attributes left out |
| RunSem.v | From back-end program to runtime program: relations with facts, output and immutability flags | compiler/back/b2r.rs 94-344, compiler/ram/ast.rs 102-175 | tuple types, input files, storage, disjunctive facts left out |
| Front.v | Front end: formulas, negation and implication, conjunctive heads, disjunctive normal form, flattening of expressions, facts with expressions, atomic queries, ranges | compiler/front/ast/{expr,formula,rule}.rs, compiler/front/transformations/*.rs, compiler/front/analyzers/boundness/context.rs, compiler/front/f2b/{f2b,flatten_expr}.rs | case, aggregations, destructors, tags and attributes left out; locations are replaced by the recursion; names of made-up variables are parameters |
| Bound.v | Boundness analysis: dependencies between locations, fixpoint, answers of conjunctions and rules, demand patterns | compiler/front/analyzers/boundness/{local,dependency,context,boundness_analysis}.rs | aggregations left out; locations are numbers given in the order of the walk; the map of booleans is the set of bound locations |
| Flat0.v | Flattening without the assignments that undo sums and differences, and how the real one differs from it | compiler/front/f2b/f2b.rs 96-149, compiler/front/f2b/flatten_expr.rs | (auxiliary: used to describe the output of Front.v) |
| FrontProg.v | Translation of whole front-end programs; their stable models | compiler/front/f2b/f2b.rs 16-189 | types, tags, attributes, disjunctive facts, aggregations left out |
| Demand.v | Demand transformation (magic sets): adornments, information passing, demand rules | compiler/back/optimizations/demand_transform.rs, compiler/back/compile.rs 16-49 | sets of variables are lists; the hash map of adornments is a list in the order of the relations; types of the demand relations left out |
| TypeSet.v | Sets of types, their unification and comparison, rules of the operators | compiler/front/analyzers/type_inference/{type_set,operator_rules}.rs, common/value_type.rs | source locations dropped |
| Infer.v | Type inference: unifications, local contexts of rules, the rounds, the last pass, visiting of declarations, facts and rules | compiler/front/analyzers/type_inference/{unification,local,type_inference,foreign_function}.rs, common/foreign_aggregate.rs | locations and names are numbers, type names resolved, texts of errors dropped; aggregates without left variables are errors; items are visited until the first error; algebraic data types by the relations of their variants |
| Cast.v | Casts, constants, what is compiled of a typed expression | runtime/env/environment.rs 598-720, compiler/front/ast/constant.rs 117-149, compiler/front/f2b/f2b.rs 96-149, compiler/front/f2b/flatten_expr.rs 481-517, common/value_type.rs 36-67 | conversions of floats, texts of floats and characters, and the symbol table are parameters (`conv`); literals of dates and durations are given as values; integer literals are numbers (the parser panics on those beyond i64) |
| Entity.v | Constant declarations, enumerations, entities | compiler/front/ast/entity.rs, compiler/front/analyzers/constant_decl.rs, compiler/front/transformations/const_var_to_const.rs, common/entity.rs, common/adt_variant_registry.rs 56-115, runtime/env/environment.rs 739-758 | the hash is a parameter; strings are their syntax trees; declared types of constants are value types; of rules only the occurrences of variables |
| Case.v | Removal of case patterns and destructors | compiler/front/transformations/desugar_case_is.rs, desugar_destruct.rs | the relation of a functor is the functor; aggregations and implications left out; destructors only as arguments of atoms and destructors |
| FrontAgg.v | Aggregations in the front end: quantifiers, contexts, boundness, translation with temporary relations, programs | compiler/front/ast/{formula,aggregate}.rs, compiler/front/transformations/{desugar_forall_exists,forall_to_not_exists,implies_to_disjunction}.rs, compiler/front/analyzers/boundness/context.rs 34-325, compiler/front/f2b/f2b.rs 186-593 | an aggregator with its parameters is a number; variables are ordered by number; names of temporary relations are an injective parameter; declarations of the temporary relations and attributes left out |
| Builtin.v | Built-in predicates and functions on strings and numbers | common/foreign_predicates/{range,string_chars,string_find,string_index,string_split}.rs, common/foreign_functions/{substring,string_length,string_char_at,string_index_of,string_concat,string_replace,format,abs,sign,max,min}.rs | a string is the list of its code points; printing of values for format is a parameter; floats without NaN |
| Soft.v | Soft comparisons | common/foreign_predicates/{soft_cmp,soft_gt,soft_lt,soft_eq,soft_neq}.rs | real numbers instead of f64 |
| AggMore.v | Aggregators sort, argsort, rank, enumerate, top-k, samplers, string_join, avg, disjunct | common/foreign_aggregates/{sort,rank,enumerate,top_k,sampler,uniform,categorical,string_join,avg,weighted_sum_avg,disjunct}.rs, common/value_type.rs 306-372 | weights are rationals; the heap is a list with a function that finds a least element; random numbers are parameters; avg of integers only |
| Normal.v | Aggregators normalize and softmax | common/foreign_aggregates/normalize.rs | real numbers instead of f64 |
| Tagged.v | Rules with tags: rewriting, accepted types, the predicate of the tag | compiler/front/transformations/tagged_rule.rs, compiler/front/analyzers/tagged_rule.rs, ast/relation_decl.rs 91-103 | names of the predicate and variable are parameters; messages of errors are dropped |
| CsvFile.v | Input files: contents, registry, loading by rows, fields and keys; parsing of values | runtime/database/io/{input_file_content,input_file_registry}.rs, runtime/database/extensional/relation.rs 135-155 and 251-636, runtime/database/extensional/database.rs 203-246, common/input_file.rs, common/value_type.rs 229-278, common/input_tag.rs 67-82 | the csv library is a parameter; floats, characters, dates and durations are parsed by parameters; paths are numbers; relations have flat tuple types |
| DynEnt.v | Entities created while running: store, draining, the loop with side effects, the monitored loop | runtime/env/dynamic_entity_storage.rs, runtime/dynamic/iteration.rs 94-257 | hash maps are association lists; which facts an update creates is a parameter; the parser of entity strings is not modelled; messages printed are not modelled |
| Exclusive.v | Mutual exclusion: input tags, facts of disjunctions, database calls, the exclusion dataflow, tagging in contexts of proofs | common/input_tag.rs, compiler/back/b2r.rs 262-294, 330-344, runtime/database/extensional/database.rs 318-356, runtime/dynamic/dataflow/dynamic_exclusion.rs, provenance tagging_fn | tensors left out; probabilities are abstract; the table of disjunctions is that of Formula.v; hash maps are association lists; type checks of added tuples not modelled |
| Loading.v | Loading sources: imports, the duplicated context, the shared analysis with reference counts | compiler/front/compile.rs 195-372, utils/copy_on_write.rs, utils/pointer_family.rs 152-172 | paths are canonical numbers; the file system does not change while loading; the analysis and the transformations are parameters; foreign attribute processors, node ids and locations are not modelled |
| Boundary.v | Facts entering and leaving the engine: type checks, symbols and entity strings | common/tuple_type.rs 30-58, runtime/database/extensional/database.rs 121-180 and 278-305, integrate/context.rs 287-324 and 612-648, runtime/env/environment.rs 190-271, runtime/dynamic/incremental.rs 612-624 | tensors left out; the text parser of entities is a parameter; relations are numbers; entity facts are one list |
| Results.v | Reading results: recovered relations, shared output collections, clones, monitors | runtime/database/intentional/relation.rs 7-145, intentional/database.rs 40-160, runtime/dynamic/incremental.rs 626-660, integrate/context.rs 546-557 and 698-730 | tensors left out; internal facts are lists; output collections are cells with reference counts |
| Attrs.v | Attributes of relations: demand, goal, hidden, scheduler, output file, and the transformations of declarations that carry them | compiler/front/analyzers/{demand_attr, goal_relation, hidden_relation, scheduler_attr, output_files}.rs, transformations/{desugar_arg_type_anno, conjunctive_head}.rs, transform.rs 43-105, analysis.rs 56-122 | a declaration is its attributes and the relations it is about; the arities are given; storage attribute and csv options left out |
| TypeDecls.v | Type declarations: names of types, types of declared relations and facts, algebraic data types as relations | compiler/front/analyzers/type_inference/type_inference.rs 113-120, 158-252, 354-516, 555-745, 848-860; analyzers/algebraic_data_type.rs; transformations/adt_to_relation.rs; transform.rs 43-105 | locations, names of fields, rules, queries and functions left out; maps are lists; None is a panic |
| HeadRel.v | Warnings about relations that are used but not computed, over a session | compiler/front/analyzers/head_relation.rs, transformations/{atomic_query, desugar_reduce_rule}.rs, analysis.rs 74-121, compile.rs 112-135, 226-334 | of formulas only predicates and locations of atoms are kept; rejection of sources for other reasons and known aggregates are given |
| InFiles.v | Attributes file and storage of relations | compiler/front/analyzers/{input_files, storage_attr}.rs, ast/attr.rs 60-90, 117-210, common/input_file.rs 27-43, runtime/database/metadata.rs 51-60 | a declaration is its attributes and relations; the extension of a path is a parameter; locations are left out |

The remaining files hold specifications (`View.v`, `Views.v`, `Denote.v`,
`BackSem.v`, `PlanSem.v`, `RamSem.v`, `B2RSpec.v`, `StrataSem.v`, `TypedProg.v`, `FrontSem.v`, `BoundSem.v`, `TypeSpec.v`, `ValSpec.v`, `AggSem.v`), lemmas (`*Facts.v`, `AggFacts2.v`, `ListAux.v`, `OSet.v`, `SchedLinear.v`,
`VTreeBuild.v`, `SddBuild.v`, `SddWmc.v`, `B2RRule.v`, `B2RScope.v`, `B2RTotal.v`, `B2RPlaced.v`, `PlanClash.v`, `PermOrder.v`, `B2RWf.v`, `PlanShape.v`, `StrataWf.v`, `RunFacts.v`, `Terminate.v`, `RunTotal.v`, `TermProg.v`, `BoundFacts2.v`, `BoundFinite.v`, `PlanPad.v`, `PadRun.v`, `OptPad.v`, `InferRun.v`, `InferSound.v`) and the property theorems (`Props*.v`).

## Properties

Statements are in properties.jsonl.

| Id | Property | Status | Theorems | Notes |
|----|----------|--------|----------|-------|
| C01 | Building a collection from a list of tagged tuples keeps exactly its tuples, sorted, once each, with combined tags | proved | `C01_from_vec` |  |
| C02 | Merging two collections is tagged set union | proved | `C02_merge`, `C02_merge_comm` |  |
| C03 | Galloping search returns the partition point | partial | `C03_gallop`, `C03_gallop_from_start`, `C03_search_ahead`, `C03_gallop_refuted` | Proved exactly where the code is right; refuted for start positions past the boundary. |
| C04 | Point and range lookup agree with the list content | proved | `C04_find`, `C04_find_members` | Sorted (possibly with repetitions) lists; Example shows sortedness is needed. |
| C05 | Scheduling a round loses no fact | proved | `C05_no_tuple_lost`, `C05_round_shape`, `C05_round_sorted` | All four schedulers, any state. |
| C06 | A tuple is treated as new at most when its tag is new | partial | `C06_lfp_round_partial`, `C06_fresh_not_established_partial`, `C06_galloping_refuted` | Exact effect of a default round when the linear search is used (no stable batch is four times shorter than the pending batch, or has one element at most) and batches are tuple-disjoint. Refuted when the galloping variant is selected. |
| C07 | Every relational operator computes its set-theoretic meaning incrementally | partial | `C07_operator_meaning`, `C07_fresh_covers`, `C07_stable_old`, `C07_nested_difference_refuted`, `C07_intersection_repeated_refuted` | Arbitrary nestings of the listed operators (and foreign predicates, sorting, constants) with sorted inputs to join/lookup and repetition-free inputs to intersection. Without repetition-freeness the intersection claim is refuted; difference below a product is refuted. |
| C08 | Evaluation is sound: only derivable facts are output | proved | `C08_sound`, `C08_sound_states` | All provenances, schedulers and stopping reasons; negation over completed relations only; aggregation results are inputs. |
| C09 | Evaluation is complete: all derivable facts are output when the loop stops by itself | proved | `C09_complete`, `C09_least`, `C09_output` | All provenances and schedulers except beam size 0; early discarding only with provenances that discard nothing (C11 covers discarding lattice provenances; C09_discarding is the example). |
| C10 | The answer set does not depend on the scheduler, on batch boundaries or on rule order | proved | `C10_same_answers` | Same hypotheses as C09; the outputs list the same tuples in the same order. |
| C11 | Recursive evaluation with a lattice provenance computes the best derivation | proved | `C11_bool`, `C11_minmax`, `C11_tropical`, `C11_real_tropical_refuted` | Boolean, max-min and tropical provenances; the output tag is the best derivation tag and is attained. Refuted for the real-valued tropical provenance, whose saturation tolerates 0.001. |
| C12 | An iteration limit bounds the work | proved | `C12_limit`, `C12_fuel_irrelevant` |  |
| C13 | Stopping early still yields an output | partial | `C13_output_lfp`, `C13_output_other_schedulers_refuted`, `C13_goal_stop_refuted` | Holds for the default scheduler; refuted for depth-first, A* and beam scheduling. |
| C14 | Goal-directed stopping only stops when goals were reached | proved | `C14_goal`, `C14_goal_output_lfp`, `C14_stops_when_reached_refuted` | The converse (stops once goals have tuples) is refuted. |
| C15 | Negation over a completed relation is set difference | partial | `C15_difference`, `C15_antijoin`, `C15_unit`, `C15_bool`, `C15_minmax`, `C15_dynamic_negation_refuted`, `C15_repeated_left_refuted` | Exact when the left input has no repeated tuple in a batch (difference) or is sorted (anti-join); refuted for repeated left tuples and for negated relations still being computed. |
| C16 | Provenance tags obey the algebra the evaluator relies on | proved | `C16_bool`, `C16_unit`, `C16_nat`, `C16_nat_refuted`, `C16_tropical`, `C16_minmax`, `C16_real_tropical`, `C16_real_tropical_saturation_refuted`, `C16_proofs`, `C16_proofs_context`, `C16_proofs_input`, `C16_proofs_late_exclusion_refuted`, `C16_addmult_partial`, `C16_addmult_refuted` | Commutative semiring laws, exact discard and saturation tests per provenance; clamped add-mult probabilities are shown not to distribute (their provable part is C16_addmult_partial). |
| C17 | Proof-set formulas combine as Boolean formulas | proved | `C17_consistent_worlds`, `C17_or`, `C17_and`, `C17_units`, `C17_add`, `C17_mult`, `C17_negate`, `C17_pruned_sound`, `C17_chosen_set` | Boolean semantics of DNF tags; exact on consistent worlds when k does not prune, sound (an under-approximation) otherwise. Heap pop order is abstract (any permutation-respecting maximum pop). |
| C18 | Top-k pruning is sound and keeps the most probable proofs | proved | `C18_add`, `C18_mult`, `C18_negate_disjoint`, `C18_negate_refuted` | Top-k disjunction and conjunction keep the most probable proofs. Top-k negation does so when every fact occurs once; refuted in general. |
| C19 | Clause-set (CNF) tags combine as Boolean formulas | proved | `C19_negate`, `C19_mult`, `C19_add`, `C19_add_refuted`, `C19_discard`, `C19_kept` | Exact when k does not prune; refuted for adding an empty (true) CNF to a CNF. C19_discard/C19_kept: a tag is discarded only if its formula is false under every assignment, and the formula true is kept. |
| C20 | Mutual exclusion is detected exactly | proved | `C20_exclusion` | For every history of group declarations and every sorted fact set. |
| C21 | The compiled decision diagram is equivalent to the formula | proved | `C21_build_eval`, `C21_with_formula`, `C21_arena` | Formula trees over the bottom-up builder, every variable-tree shape and every number of formulas in one builder. |
| C22 | The probability of a formula is its weighted model count | proved | `C22_weighted_model_count`, `C22_wmc`, `C22_tag_dnf`, `C22_tag_cnf_dnf`, `C22_tag_proofs` | For every ring-like weight structure in which the two literal weights of a variable sum to one; floats are outside the model. |
| C23 | Diagram garbage collection does not change the function | proved | `C23_garbage_collect`, `C23_total` |  |
| C24 | Stratification orders strata so that negation and aggregation only read finished relations | proved | `C24_stratify`, `C24_program`, `sccs_of_contract` | Strongly connected components are computed by reachability and shown to meet the contract of petgraph kosaraju_scc up to order; condensation and has_path_connecting are modelled from their documentation. C24_stratify: a stratification is returned exactly when no negative or aggregation edge lies inside a component; strata partition the predicates and every dependency points to an earlier or the same stratum. C24_program lifts this to rules: what a rule reads is in no later stratum, and strictly earlier under negation or aggregation. |
| C25 | Composing projection expressions equals running them in sequence | partial | `C25_compose_partial`, `C25_deep_refuted`, `C25_partial_inner_refuted` | False in general: refuted for accessors two levels into a tuple constructor and for inner expressions without a value. Proved for every expression whose accessors look at most one level into an inner tuple constructor, on every tuple on which the inner expression has a value. |
| C26 | Fusing cascaded projections preserves query results | partial | `C26_cascade_partial`, `C26_inner_refuted`, `C26_deep_refuted` | Under the conditions of C25 at each fusion the rewritten dataflow yields exactly the same batches for every environment; refuted without them. |
| C27 | Constant folding preserves rule meaning | partial | `C27_fold`, `C27_fold_entities`, `C27_entity_refuted`, `C27_panic_refuted` | For every rule the folding pass accepts and every database, the folded rule yields the same head facts (C27_fold); if no entity constructor is folded it yields the same facts of every kind (C27_fold_entities).  Refuted: folding an entity constructor drops the facts the constructor inserts; folding a division by zero panics. |
| C28 | Constant propagation preserves rule meaning | partial | `C28_prop_partial`, `C28_assigned_refuted`, `C28_groupby_refuted` | Propagation keeps all facts the rule yields on every database when no variable compared with a constant is assigned by a computation or bound as an unjoined group-by variable.  Both exceptions are refuted. |
| C29 | Equality propagation preserves rule meaning | partial | `C29_equality_partial`, `C29_unified_partial`, `C29_chain_refuted` | Propagation keeps all facts the rule yields on every database when every variable occurs in at most one equality between variables (more generally when the collected substitution unifies the removed equalities) and none of them is an unjoined group-by variable.  Chains of equalities are refuted. |
| C30 | Sharing identical temporary relations preserves program results | partial | `C30_shared_stage`, `C30_no_dangling`, `C30_second_update_refuted` | Proved, at every stage of the bottom-up construction and for every set iteration order, for strata whose temporaries have one update, no facts and are not read by aggregations or indexed joins (what b2r.rs emits); false for temporaries with several updates. The Exclusion operator is not modelled. |
| C31 | Counting and existence aggregates describe the possible worlds | proved | `C31_count`, `C31_count_sound`, `C31_exists`, `C31_exists_sound`, `C31_single_world`, `C31_boolean`, `C31_unit`, `topk_sound`, `all_proofs_exact` | Worlds as interpretations of tags; exact for tags whose operations are the Boolean ones (instance: proof formulas with limits that do not prune), sound for pruned top-k formulas. |
| C32 | Minimum and maximum aggregates describe the possible worlds | partial | `C32_min_max`, `C32_arg_sound`, `C32_arg_some`, `C32_arg_exact`, `C32_single_world`, `C32_boolean`, `C32_arg_ties_refuted`, `C32_argmax_ties_refuted`, `C32_row` | Without arguments proved. Argument form: every reported argument is right, one is always found, all are found when keys are distinct; refuted with ties beyond the first stratum (the stratum key is never updated). |
| C33 | Sum and product aggregates describe the possible worlds | proved | `C33_sum_prod`, `C33_sum_prod_sound`, `C33_single_world`, `C33_boolean`, `C33_no_overflow` | Integer types; overflow is a panic of the model. Floats are not modelled here. |
| C34 | Symbols are interned injectively | proved | `C34_interning`, `C34_stable` | All histories. |
| C35 | Allocated identifiers are unique | proved | `C35_unique`, `C35_wraps` | Unique up to the machine modulus, which is tight (the counter wraps). |
| C36 | Combination enumeration is exhaustive and duplicate free | proved | `C36_cartesian` |  |
| C37 | In-place filtering by index keeps exactly the selected elements in order | proved | `C37_retain`, `C37_stateless` | Also for predicates with state (FnMut). |
| C38 | Removing unused relations preserves outputs | proved | `C38_unused`, `C38_unused_reduced`, `stable_exists`, `stable_unique` | Least model = stable model of the stratified program (BackSem.v). has_path_connecting is modelled from its documentation. |
| C39 | Differentiable tags carry exact gradients | partial | `C39_nand_mult`, `C39_max_mult_partial`, `C39_nand_min_partial`, `C39_add_mult_partial`, `C39_min_max_partial`, `C39_wmc_partial`, `C39_add_mult_refuted`, `C39_max_mult_refuted` | Over the real numbers, with derivatives as limits. diff-nand-mult-prob: exact at every point. diff-max-mult, diff-nand-min, diff-min-max: exact where no maximum or minimum is of equal values (refuted at ties). diff-add-mult: exact where no sum is clamped (refuted where one is). Proof-based provenances: probability and gradient of the weighted model count are exact when facts with external tags come first; without mutual exclusion. |
| C40 | Re-running a context does not change the answer | partial | `C40_rerun_partial`, `C40_retag_refuted`, `C40_moved_refuted`, `C40_execute_refuted` | In incremental mode, when tags form a semilattice and the tag of a fact does not depend on when it is tagged, running the same program again gives exactly the same tagged results (any program with distinct relation names). Refuted otherwise: with counting tags program facts are tagged again and their tags double; outside incremental mode facts of relations that are input and output are lost, and execute panics the second time. |
| C41 | Facts added after a run are taken into account by the next run | partial | `C41_incremental_partial`, `C41_execute_refuted`, `C41_moved_refuted` | For every history of additions and runs in incremental mode, running a program through incremental_execute gives its stratified model over all facts supplied so far. Refuted for execute on the stored program (new facts unseen, both modes) and for non-incremental mode (facts moved out of the database). |
| C42 | Relations reused across incremental compilations are unchanged | partial | `C42_persistent_partial`, `C42_source_refuted`, `C42_need_refuted`, `C42_recursive_refuted`, `C42_parallel_refuted`, `C42_ground_refuted` | The full statement is false of the code in five ways, each with a witness. Proved for programs without recursion whose rules all read a relation, when the relations a reported one is computed from are reported as well. |
| C43 | Probabilities with mutually exclusive facts condition correctly | partial | `C43_what_is_counted`, `C43_refuted` | The stated property is false of the code: counting sums over all worlds, including worlds that violate a mutual-exclusion group. C43_what_is_counted says what is counted, C43_refuted is the witness. |
| C44 | Variable-tree rotations keep the variables | partial | `C44_built`, `C44_rotate_left_root`, `C44_rotate_right_root`, `C44_rotate_back`, `C44_swap`, `C44_rotate_left_inner_loses`, `C44_rotate_right_inner_loses`, `C44_rotate_refuted`, `C44_root_has_parent_refuted`, `C44_lca_stale_refuted`, `C44_rotate_errors` | True at the root, proved for all trees. False below the root: every such rotation loses variables. The cached tables are never recomputed, so common ancestors can be wrong even after a rotation at the root. |
| C45 | Tuple comparison is a total order | proved | `C45_tuple_order`, `C45_nan_refuted` | Total order without NaN; refuted with NaN. |
| C46 | The min-max-prob count picks the best subset of each size | proved | `C46_minmax_count` |  |
| C47 | Grouping aggregates each group exactly once | proved | `C47_implicit_group`, `C47_join_group` | Inputs sorted by key, as collections are (C01). |
| C48 | The rule optimization loop terminates | proved | `C48_terminates`, `C48_fixpoint`, `C48_optimizer_terminates`, `cannot_substitute_total`, `bounded_total` | Weight argument: every round that changes the rule removes a comparison or turns an assignment into something lighter. The model's floats have no NaN; with a NaN constant the derived PartialEq of the code is not reflexive and its loop would not see the rule as unchanged. |
| C49 | The rule optimizations together preserve the program's models | partial | `C49_optimized_partial`, `C49_compared_partial`, `step_stable` | Same stable models, for programs whose rules are `plain` (no variable both assigned and compared for equality, assigned at most once; entity constructors and conditionals that cannot be folded; unjoined group-by variables untouched) and use every variable in at most one equality between variables. Without the demand transform. C49_compared_partial: the same for rules that give the result of a computation to a fresh variable and equate this with a variable that is in no other equality, as flattening does for `d == y - x`. |
| C50 | Running a compiled program computes its stratified model | partial | `C50_stratified_model` | Every successful run, in both modes and from every context state, returns for each output relation the stratified model of the stored and program facts (as sets of tuples; without iteration limit or goal stop). Tags of facts and compilation itself are outside this statement; programs must satisfy xprog_ok (distinct names, well-formed dataflows). |
| C51 | Gradients refer to the inputs they belong to | partial | `C51_dual_numbers`, `C51_proofs_partial`, `C51_proofs_refuted` | Holds for all provenances whose tags are dual numbers, and for the proof-based ones when facts with external tags come first. Refuted otherwise: a probabilistic fact without external tag added first makes the gradient of a later fact refer to another input, and reporting the last one panics. |
| C52 | The plan of a rule means its body | partial | `C52_plan_partial`, `C52_plan_exact`, `C52_plan_complete`, `C52_total`, `C52_assign_refuted`, `C52_stale_refuted`, `C52_new_refuted`, `C52_negated_foreign_refuted`, `C52_panic_refuted` | The plan is the conjunction of the body without assignments of variables that get values elsewhere, hence exact when there are none; it always accepts at least what the body accepts; planning does not panic when there is a relation atom, an aggregation, no foreign atom, or a foreign atom with constant bounded arguments. Refuted: an assignment of a bounded variable is dropped (q(x*y,x,y)); a foreign test after a foreign generator forgets its values; comparisons of new entities are dropped; a negated foreign atom reads a relation; a body of assignments feeding a foreign predicate panics. |
| C53 | The update a rule is compiled to derives the facts of the rule | partial | `C53_rule_partial`, `C53_world`, `C53_dup_refuted`, `C53_total_refuted`, `C53_once_refuted`, `C53_static_refuted`, `C53_new_refuted`, `C53_clash_refuted` | For all safe rules with one head atom meeting the conditions of `lowerable` (B2RSpec.v) whose plan has no clash, for every search order, in-place or with temporaries, aggregates and foreign predicates included.  The temporaries can always be filled in (C53_world).  The refutations show rules that violate one condition each and are compiled to something else or panic.  Missing: disjunctive heads; the placement of temporaries in strata is C54. |
| C54 | The compiled strata compute the stable model of the program | partial | `C54_strata_partial`, `C54_stratified_partial`, `C54_model_partial`, `C54_typed`, `C54_compile` | C54_compile: for typed programs (conditions on the text: types, safety, negation, comparisons, arithmetic) the dependency graph is built, the strata are found whatever the SCC algorithm returns within its contract, the rules are lowered, and the models of the result hold the facts of the only stable model. The _partial theorems also cover aggregation and foreign predicates, with conditions on the rules (program_ok). Missing: disjunctive heads, rules that make entities, goal relations. |
| C55 | Compiling a program does not panic and drops nothing | partial | `C55_total`, `C55_strata`, `C55_placed`, `C55_arg_refuted`, `C55_unplaced_refuted` | Planned rules are lowered and the relations made for negation are placed, under the conditions of rule_lowers and neg_simple. The full statement is false: an aggregation with an argument variable under a foreign predicate panics, and a relation made for negation over another one of the same stratum is dropped. Disjunctive heads are not modelled. |
| C56 | Compiling and running a program yields its stable model | partial | `C56_run_partial`, `C56_negation_refuted`, `C54_laid_partial` | Dependency graph, strata, plans, lowering, and the runtime's evaluation together: for typed stratified programs the compiler succeeds and a run that ends leaves exactly the stable model in the output relations, whatever the context stored before, the mode, the scheduler, the join orders. Left out: aggregation, foreign code, new entities, disjunctive heads, in-place ordering. Termination is C57. With a provenance that has differences (boolean) tuples whose negation holds stay, tagged false: refuted. |
| C57 | Runs of programs with finitely many derivable facts end | partial | `C57_loop_partial`, `C57_limit`, `C57_nonrecursive_partial`, `C57_execute_partial`, `C57_run_partial`, `C57_finite`, `C57_hang_refuted` | Fixpoint loops end when finitely many tuples are derivable, tags improve on a well-founded order and every round is compared linearly; with an iteration limit always; without recursion in a number of rounds bounded by the depth. No check of a run fails. Typed programs without expressions in recursion have finite stable models, so their runs end with them. Left out: tags without a well-founded order (min-max) in recursion, schedulers other than the default one, aggregation, foreign code. Without the exception for galloping the claim is refuted: a typed program with nineteen facts whose run never ends. |
| C58 | Rewriting formulas keeps their meaning | partial | `C58_dnf`, `C58_dnf_total`, `C58_implies`, `C58_implies_total`, `C58_rule_partial`, `C58_constraint_refuted`, `C58_conjunctive_refuted`, `C58_fact`, `C58_query_partial`, `C58_range_partial`, `C58_range_refuted` | Disjunctive normal forms and facts with expressions in full. Implications for substitutions that give values to arguments and models that are decided. Queries without type arguments (the pass drops them); ranges whose end is below the largest i32 (refuted there: the inclusive end saturates). That the passes fail on no rule is refuted: a constraint in the premise of an implication, and an implication under a conjunctive head, panic. Left out: case, aggregations, forall and exists, destructors. |
| C59 | Flattening expressions keeps the meaning of rules | partial | `C59_sound_partial`, `C59_complete_partial`, `C59_total`, `C59_compile_partial`, `C59_subtraction_refuted`, `C59_sum_refuted`, `C59_branch_refuted`, `C59_wildcard_refuted`, `C59_remainder_refuted`, `stripped_meaning` | Sound for all rules whose negated atoms have no wildcards; complete when all parts of the expressions have values, sums and differences of integers do not saturate, and only constants are subtracted. Refuted otherwise: the second operand of a difference is computed as a sum (x - y == z gives y = z + x in the plan), both branches of if-then-else are computed, a wildcard in a negated atom becomes a variable (the planner repairs this), and q(x) = p(x, x + 1) loses its condition in the planner, which drops assignments of bound variables. Rules with implications are composed in C58. C59_remainder_refuted: `q(x) = p(x), x % 2 == 0` is compiled without the condition. stripped_meaning: flattening without the inverse assignments keeps the meaning of rules exactly (sums may saturate). |
| C60 | The boundness analysis accepts the rules whose variables get values | partial | `C60_least`, `C60_order`, `C60_total`, `C60_limited`, `C60_exact`, `C60_rule`, `C60_demand`, `C60_finite`, `C60_wildcard_refuted`, `C60_chain_refuted`, `C60_negated_refuted`, `C60_demanded` | Aggregations are left out. C60_least/C60_order: the least closed set, independent of order. C60_total: an answer unless the body has an implication. C60_exact needs distinct made-up names, foreign atoms of the declared arity and constraints without new entities; C60_limited and C60_rule (one direction) do not. C60_finite: for substitutions into values that are closed under the operations and for which sums can be undone (machine values are); wildcards are not bound arguments of foreign atoms. The refutations show that acceptance does not protect the planner: an atom with an unbound wildcard is dropped, a chain of equalities leaves the head unbound, a variable that occurs in a negated atom only changes the meaning. |
| C61 | Front-end programs are compiled and run to their stable models | partial | `C61_run_partial`, `C61_total_partial` | For front-end programs without implications, aggregations, new entities, foreign predicates, wildcards in negated atoms; the conditions `tame`, `apart` on the flattened rules and `typed_source` on the optimized ones are on the text that flattening makes. The assignments that undo sums and differences, some of which are wrong (C59), are shown to be without effect on the plans of these programs. C61_total_partial adds that runs end, unless a round gallops. Negation needs a provenance without differences (C56_negation_refuted). |
| C62 | The demand transformation keeps the demanded answers | partial | `C62_demand_partial`, `C62_relevant_partial`, `C62_sips`, `C62_total`, `C62_adornments`, `C62_stratified_partial`, `C62_negated_refuted`, `C62_ungrounded_refuted`, `C62_stratified_refuted`, `C62_unbound_refuted`, `C62_entity_refuted`, `C62_demand_body` | Proved under the stated conditions (no aggregation over relations on demand; no entities built in the rules concerned; demand computable without negated atoms on demand). Outside of them the transformation is wrong: a negated atom on demand is used as a positive one in the demand of later atoms (answers lost), a rule with one ungroundable demand demands nothing (answers lost), stratified programs can become unstratified, demand rules keep negated atoms with unbound variables (the plan then asks that the negated relation be empty), entities built for a demand become visible; each is refuted with a witness. |
| C63 | Programs with relations on demand are compiled and run to the demanded part of their stable models | partial | `C63_plain`, `C63_run_partial`, `C63_total_partial`, `C63_complete` | Under the conditions of C49, C62 and C56, the typing being asked of what is left after the transformation; the stratification of the transformed program is a hypothesis (C62_stratified_partial gives it when the relations on demand share a level with the rules that ask). Arithmetic in arguments on demand is outside (variables assigned and in atoms); aggregations and foreign predicates are outside. |
| C64 | Sets of types are intersected by unification | partial | `C64_member`, `C64_default`, `C64_intersection`, `C64_complete_partial`, `C64_complete_refuted`, `C64_comm`, `C64_assoc`, `C64_sets_order`, `C64_sets_intersection`, `C64_eq_sound`, `C64_eq_complete_partial`, `C64_eq_complete_refuted`, `C64_constant_types` | Intersections, order independence, defaults and constants in full. That unification fails only for disjoint sets, and that a set is equal to itself, holds for all sets but the one of unsigned integers: it cannot be unified with its own types and is not equal to itself (C64_complete_refuted, C64_eq_complete_refuted). |
| C65 | Accepted programs are well typed | partial | `C65_sound_partial`, `C65_stale_refuted`, `C65_aggregate_refuted`, `C65_one_rule` | For programs without aggregations whose result does not change when the last pass is run once more (a check that can be executed), with a location of its own for every node and declared column types for variants. Without the second look the claim is false: the last pass may narrow a column after a rule using it has been looked at (C65_stale_refuted). The input variables of aggregations are not tied to the aggregate (C65_aggregate_refuted). |
| C66 | Operators, casts and constants give values of their inferred types | partial | `C66_integers`, `C66_booleans`, `C66_compare`, `C66_binary_partial`, `C66_mod_refuted`, `C66_cast`, `C66_text_roundtrip`, `C66_negate`, `C66_unary_partial`, `C66_negate_refuted`, `C66_cast_refuted`, `C66_constant`, `C66_constant_refuted`, `C66_texts` | True of all integer, boolean and comparison operators and of all casts. Not true: remainders of floats, negations of unsigned numbers and many casts (such as i16 to i32) are accepted and panic; integer constants out of range of their type wrap around; a string constant of type &str panics. Floats and times are given by the platform, of which only the types of results are assumed. |
| C67 | Models of accepted programs are well typed | partial | `C67_model_typed_partial`, `C67_inferred_partial`, `C67_program_partial` | For programs without aggregations, whose inferred types are settled (C65) and whose head variables are bound by atoms and equations. C67_program_partial is about the facts that the compiler makes of the items (under the conditions of C69); C67_inferred_partial assumes that the given facts have the inferred types. |
| C68 | Type inference terminates | partial | `C68_terminates_partial`, `C68_unsigned_refuted` | For programs whose expressions have different locations, and without parameters of the family UnsignedInteger; with such a parameter, which foreign functions of the Python interface can have, inference goes on for ever. |
| C69 | Declared types are kept and facts are compiled at the inferred types | partial | `C69_declared_partial`, `C69_facts_partial`, `C69_compiled_partial`, `C69_constant_refuted`, `C69_arity_refuted` | For programs without aggregations, in which no constant with a declared type is itself an argument of an atom and relations are used with one number of arguments. Not true without: such a constant overrides the declared type of the relation, and a declaration that follows facts of another number of arguments is accepted and cut off. |
| C70 | Constants and entity strings stand for the terms they are written as | proved | `C70_constants`, `C70_same_id`, `C70_no_panic`, `C70_strings`, `C70_strings_complete`, `C70_items` | For hash functions that give the facts of the program no id twice. The analysis may only panic when the numbers of an enumeration do not fit into i64 (C70_no_panic). C70_strings_complete is about strings without symbols, dates and durations (C73). |
| C71 | Enumerations are numbered apart and constants are replaced after their declaration | proved | `C71_enum`, `C71_uses`, `C71_before_refuted`, `C71_alias_type_refuted` | Occurrences have different locations. Shown besides: a constant that is used before its declaration is taken for a variable (C71_before_refuted), and a constant that is declared as another constant gets the type of entities (C71_alias_type_refuted). |
| C72 | Case formulas and destructors match what they say | partial | `C72_formula`, `C72_rule`, `C72_sound`, `C72_twice_refuted` | For rules in which the temporaries of the patterns of a conjunction are apart (C72_formula, C72_rule); that nothing is matched wrongly holds for all rules (C72_sound). Not true of all rules: two cases of one variable in a conjunction share their temporaries (C72_twice_refuted). Implications, aggregations and destructors in negated atoms are left out. |
| C73 | The same term is the same entity | partial | `C73_place_refuted`, `C73_new_refuted`, `C73_string_type_refuted`, `C73_string_symbol_refuted` | Not true: the places of the literals are hashed, so equal constants at different places differ; new hashes the name of the relation and not that of the functor; an entity string may have an entity where a number is declared, and may not have a symbol. What holds is C70. |
| C74 | Aggregations in rules are compiled to what they mean | partial | `C74_sound_partial`, `C74_complete_partial`, `C74_program_partial` | For rules in which no conjunction is empty, negated atoms have no wildcards, where-clauses share a variable with the body and expressions are regular (as in C59, C61), and programs whose rules make no entities. Aggregators are any functions of sets of tuples; tags and weights, and what the runtime computes for each aggregator (C10-C12, C43), are separate. Quantifiers are C75. |
| C75 | Quantifiers in rules mean quantifiers | partial | `C75_exists_partial`, `C75_forall_partial`, `C75_exists_where_partial`, `C75_forall_where_partial`, `C75_not_exists_refuted`, `C75_forall_refuted` | True if no variable of the head is in the body of the quantifier, and if there is a where-clause; quantified formulas have no aggregations inside. Not true of variables of the head: then not exists and forall add nothing (C75_not_exists_refuted, C75_forall_refuted), since only groups in which the body holds are made. |
| C76 | Rules with aggregations that the boundness analysis accepts can be compiled and ground their variables | partial | `C76_same`, `C76_translated_partial`, `C76_where_refuted`, `C76_demand_refuted`, `C76_leak_refuted`, `C76_bindings` | The translation is without panic if there are no where-clauses and no demanded head arguments; otherwise it may panic (C76_where_refuted, C76_demand_refuted). Not true: variables inside an aggregation are taken for bound outside of it (C76_leak_refuted). |
| C77 | Built-in predicates give exactly their relations | partial | `C77_range`, `C77_chars`, `C77_chars_once`, `C77_find_begin`, `C77_find_apart`, `C77_find_partial`, `C77_find_cover_partial`, `C77_find_all_refuted`, `C77_find_range_refuted`, `C77_split`, `C77_split_free`, `C77_split_count`, `C77_index_partial`, `C77_index_refuted` | range, string_chars and string_split do. string_find gives a begin in bytes and an end that is the begin plus the number of characters of the pattern, so its ranges are right for ASCII patterns only and may not even be cut out (C77_find_range_refuted), and it gives only occurrences that do not overlap (C77_find_all_refuted); every occurrence overlaps a found one. string_index counts bytes, string_chars characters (C77_index_refuted). |
| C78 | Built-in functions on strings compute what they are named for | partial | `C78_substring`, `C78_substring_rest`, `C78_index_of`, `C78_index_substring`, `C78_char_at`, `C78_length_partial`, `C78_length_refuted`, `C78_concat`, `C78_concat_length`, `C78_replace`, `C78_format` | Positions are in bytes except in string_char_at, so string_length bounds the positions of string_char_at for ASCII strings only (C78_length_refuted). |
| C79 | Built-in numeric functions compute absolute values, signs, greatest and least arguments | partial | `C79_abs`, `C79_abs_overflow`, `C79_sign_partial`, `C79_sign_refuted`, `C79_sign_type_refuted`, `C79_max`, `C79_min` | Integers and floats without NaN. abs panics at the least integer (C79_abs_overflow). sign of an unsigned 0 is 1 (C79_sign_refuted) and sign of a float is an i32 though declared with the type of its argument (C79_sign_type_refuted). |
| C80 | Soft comparisons give probabilities that agree with the comparisons | partial | `C80_probability`, `C80_half`, `C80_monotone`, `C80_symmetric`, `C80_gt_partial`, `C80_gt_lt`, `C80_float`, `C80_unsigned_refuted`, `C80_unsigned`, `C80_eq`, `C80_neq`, `C80_deriv_refuted` | Real numbers instead of f64. Integers whose difference does not overflow: on unsigned integers soft_gt panics if the first is less (C80_unsigned_refuted). soft_eq is unimplemented for all sigmoids but the logistic one, and there is not the normalised derivative that its comment names (C80_deriv_refuted). |
| C81 | Aggregators that order and select give right orders and selections | partial | `C81_sort`, `C81_rank`, `C81_enumerate`, `C81_world_refuted`, `C81_top_k`, `C81_top`, `C81_draw` | For all elements of the batch; positions are not among the elements that hold in a world, whose first element need not have position 0 (C81_world_refuted). Weights are rational numbers; sort_by_cached_key, sort_by and the binary heap by their documentation. |
| C82 | string_join and avg describe the possible worlds | partial | `C82_worlds`, `C82_worlds_sound`, `C82_join`, `C82_join_single_world`, `C82_join_all`, `C82_join_args`, `C82_avg_single_world`, `C82_avg_refuted` | string_join does in all modes; with all and arguments in the worlds with exactly one element for each. avg of integers is right with an exclamation mark only: otherwise it divides by zero on every batch, since the empty set of elements is among the worlds (C82_avg_refuted). avg of floats, weighted_sum and weighted_avg are covered by C82_worlds with their function of the elements as a parameter. |
| C83 | disjunct and normalize make elements exclusive that should be | proved | `C83_order`, `C83_disjunct`, `C83_disjunct_needs_order`, `C83_normalize`, `C83_softmax` | Batches are sorted by tuple, as the grouping dataflows make them (C83_order); for others disjunct would split the exclusions (C83_disjunct_needs_order). Real numbers instead of f64; the sum of the weights is positive for normalize. |
| C84 | A rule with a tag derives its head with the product of the tag and the tags of its body | partial | `C84_value`, `C84_panics`, `C84_accepted`, `C84_accepted_refuted`, `C84_accepted_panics`, `C84_rule_partial`, `C84_attr`, `C84_head` | The last part is false: the analysis accepts f64, bool and most integer types, but the predicate of the tag casts to f64, and there is no cast to f64 from f64, bool and most integers, so that the rule panics when its tag is evaluated (C84_accepted_refuted, C84_panics). In C84_rule_partial a value whose cast panics derives nothing. Missing: the boundness of the rewritten body, the tags of the compiled dataflow, and the order of the factors in it; bodies have no implications or aggregations. Rules with heads that are not atoms panic (C84_head). |
| C85 | Relations get the facts that their files have | partial | `C85_raw`, `C85_fields`, `C85_keys`, `C85_keys_loaded`, `C85_load`, `C85_value`, `C85_read_back`, `C85_content`, `C85_registry`, `C85_options`, `C85_once`, `C85_registry_refuted`, `C85_clone_refuted`, `C85_symbol`, `C85_symbol_refuted` | True for relations that agree about the delimiters and headers of the files they share, with different headers in a file (C85_registry, C85_load, C85_raw, C85_fields, C85_keys). False otherwise: the contents of files are stored by path, so that a second relation with other options gets the contents as the first one splits them (C85_registry_refuted). Symbols cannot be read and panic instead of returning an error (C85_symbol_refuted), and so does loading a new file while a clone of the database is alive (C85_clone_refuted). C85_keys says what is loaded as a set; all facts of a row get its tag, as separate facts. The csv library is a parameter that splits a file into records; floats, characters, dates and durations are parsed by parameters. |
| C86 | Entities created while running reach their relations; monitoring changes nothing | partial | `C86_drain`, `C86_add`, `C86_delivered`, `C86_only`, `C86_output`, `C86_plain`, `C86_trace`, `C86_monitor_partial`, `C86_monitor_refuted`, `C86_tag_refuted`, `C86_stratum` | Delivery holds for every function giving the facts created by an update (C86_delivered, C86_only, C86_output), if 'one' is not discarded, after at least one iteration; storing and draining lose and repeat nothing (C86_add, C86_drain); the stratum part is C86_stratum for rules that do not parse entities dynamically. Without created entities the loop is the one of the other theorems (C86_plain) and monitoring changes nothing (C86_monitor_partial); monitors see all iterations and the reason for stopping (C86_trace). Monitoring is not transparent otherwise: a monitored run never drains the store, so created entities and what follows from them are missing (C86_monitor_refuted). Tags: an entity made several times gets a sum of ones, e.g. 2 over natural numbers (C86_tag_refuted). Missing: the facts created are a parameter, not computed from the expressions of the dataflow. |
| C87 | Facts exclude each other exactly if declared in the same disjunction | partial | `C87_program`, `C87_program_assert`, `C87_database`, `C87_heads`, `C87_rounds_partial`, `C87_sources_refuted`, `C87_mixed_refuted`, `C87_rounds_refuted`, `C87_tag_refuted` | Each source of numbers alone gives the declared exclusions: facts of a program with tags that are absent or probabilities (C87_program; disjunctions of fewer than two facts panic, C87_program_assert), calls to the database (C87_database), one evaluation of a disjunctive head whose numbers are new to the context (C87_heads), several iterations if no binding comes up in two of them (C87_rounds_partial). The full statement is false: all sources count from 0 into the same table, so facts of unrelated disjunctions exclude each other and their conjunction has no proof (C87_sources_refuted: program and head; C87_mixed_refuted: program and database); a binding that is recent in two iterations gets two numbers, so its outcomes do not exclude each other (C87_rounds_refuted); disjunctions with boolean tags lose the exclusion (C87_tag_refuted). |
| C88 | Loading a source adds it and its imports once each, or changes nothing | partial | `C88_transaction`, `C88_loaded`, `C88_cycle`, `C88_success`, `C88_terminates`, `C88_diamond_refuted`, `C88_again_refuted`, `C88_twice_refuted` | Loading ends (C88_terminates), never panics, and on an error leaves the context and its analysis as they were; contexts sharing the analysis never see a change (C88_transaction). A loaded source has added each file it reaches once, imports first (C88_loaded); cyclic imports are never loaded (C88_cycle). A source gets past its imports exactly if they form a tree of files not imported before (C88_success). The full statement is false: imports without a cycle are rejected as cyclic if two files import the same file (C88_diamond_refuted) or if an earlier source imported it (C88_again_refuted), and a file that is given directly and not by an import is not checked, so its items are added twice (C88_twice_refuted). Foreign attribute processors and node ids are not modelled. |
| C89 | Facts enter the engine if they have the types of their relations, and mean the same inside and outside | partial | `C89_add`, `C89_database`, `C89_internalize`, `C89_entities`, `C89_facts`, `C89_shown`, `C89_equal`, `C89_dropped_refuted`, `C89_symbol_refuted`, `C89_untyped_refuted`, `C89_error_refuted`, `C89_order_refuted` | Facts are accepted exactly if they have the type of their relation, errors change nothing, and only the results of the relation become stale (C89_add for contexts of the integration layer, C89_database for the database itself). Translation fails exactly on entity strings that name no entity and otherwise keeps types and meanings and all earlier symbols (C89_internalize, C89_facts), with exactly the facts of the entities added (C89_entities). Shown facts are as given, entities aside (C89_shown), and equality is kept (C89_equal). The rest of the statement is false: accepted facts are dropped if an entity string cannot be read, though entities of other arguments stay (C89_dropped_refuted); symbols given by an unused number are accepted and cannot be shown (C89_symbol_refuted); contexts with the default options accept no facts (C89_untyped_refuted); facts rejected by the database remove results (C89_error_refuted); the order of symbols is that of their first use (C89_order_refuted). Tensors and the text parser of entities are not modelled. |
| C90 | Reading a relation gives its facts, any number of times, and changes nothing | partial | `C90_read`, `C90_reads`, `C90_results`, `C90_panic`, `C90_monitor_partial`, `C90_runs`, `C90_clone_refuted`, `C90_monitor_refuted`, `C90_hidden_refuted`, `C90_execute_refuted`, `C90_drain_refuted` | The results of a run are ready to be read (C90_results); a read gives exactly the facts, keeps everything others hold and all other relations (C90_read), and any sequence of reads gives each relation's facts each time (C90_reads). The exact condition for a panic is C90_panic. Later runs of a program do not see what was read (C90_runs, any stored results). With monitors computed relations with facts read the same and every fact is observed once (C90_monitor_partial). The rest is false: after cloning a context unread relations panic (C90_clone_refuted); with monitors empty and input relations have no result (C90_monitor_refuted); relations that were computed but not kept read as their given facts only (C90_hidden_refuted); running the stored program again after a read takes the relation to be empty (C90_execute_refuted, C90_drain_refuted). Tensors and storage other than lists of facts are not modelled. |
| C91 | Relations get the attributes that their declarations give them | partial | `C91_demand_errors`, `C91_demand`, `C91_goal`, `C91_hidden`, `C91_scheduler`, `C91_result`, `C91_adorned_refuted`, `C91_conj_refuted`, `C91_disj_refuted`, `C91_order_refuted`, `C91_output_refuted`, `C91_beam_refuted` | Hidden relations are exactly those declared so (C91_hidden, all programs). Schedulers: exact error condition and exact map (C91_scheduler, sizes of beams not negative). Goals: exact error condition and exact set for programs without conjunctive heads and without annotated relations declared in groups (C91_goal); demand: the same, and also without disjunctive heads (C91_demand_errors, C91_demand). The rest is false: annotated relations declared in groups lose their demand and their declaration (C91_adorned_refuted), rules with conjunctive heads lose goals and demand (C91_conj_refuted), demand on disjunctive heads is checked for the first relation only (C91_disj_refuted) and rejected by order even when there is none (C91_order_refuted), errors about output files are not reported (C91_output_refuted), negative beams become huge (C91_beam_refuted). The storage attribute and options of output files are not modelled. |
| C92 | Declared types stand for base types, declared relations have the declared types, and algebraic data types become relations | partial | `C92_types`, `C92_relations`, `C92_facts`, `C92_extern`, `C92_variants`, `C92_constructors`, `C92_enum`, `C92_constructor_facts`, `C92_panic`, `C92_forward_refuted`, `C92_arity_refuted`, `C92_annotation_refuted` | For all accepted programs: names of types (C92_types), foreign predicates (C92_extern, C92_relations, C92_facts), one declaration of each relation and constructor (C92_relations, C92_constructors), values of members of enums (C92_enum). Types of declared relations, of their facts and of constructors under the condition that declarations and facts of the relation have one number of arguments (C92_relations, C92_facts, C92_variants), and for constructors and facts of them (C92_constructor_facts) that users do not write the attribute adt. Panics happen exactly for malformed attributes adt (C92_panic). The rest is false: a name must be declared before it is used (C92_forward_refuted), facts before a declaration with another number of arguments are not reported and cut the types (C92_arity_refuted), and an attribute adt written by a user makes the compiler panic (C92_annotation_refuted). Rules, queries and function types are not in this model. |
| C93 | Warnings name exactly the relations that are used but not available | partial | `C93_warnings`, `C93_silent`, `C93_rejected`, `C93_order`, `C93_location`, `C93_once_refuted`, `C93_location_refuted` | Exact set of warnings after every accepted source of every session, each once (C93_warnings); consequences for silence (C93_silent) and order (C93_order); rejected sources leave no trace (C93_rejected); locations are uses (C93_location). False: warnings are repeated for every later source (C93_once_refuted), and relations used in queries of atoms get no location (C93_location_refuted). Whether a source is rejected is given. |
| C94 | Input files and storages of relations are what their attributes say | partial | `C94_attr`, `C94_not_ascii`, `C94_input`, `C94_storage`, `C94_conflict_refuted`, `C94_delim_refuted`, `C94_ignored_refuted`, `C94_header_refuted` | An attribute is accepted exactly when it describes a file, and gives that file (C94_attr). For all programs the exact condition for errors and the exact map of files, that of the last declaration (C94_input), and of storages (C94_storage). The error about delimiters that are not ASCII never happens (C94_not_ascii). False: two declarations with different files are accepted and the order decides (C94_conflict_refuted); a single character that is not ASCII is reported as several (C94_delim_refuted); files of rules and unknown options such as delimiter are ignored (C94_ignored_refuted); has_header=false has no effect when keys or fields are given (C94_header_refuted). Reading the files is C85; the extension of a path is a parameter. |

## How theorems were tested

seeded/LOG.jsonl records edits to the model that imitate plausible programming
errors (off-by-one bounds, swapped branches, forgotten cases), made in a scratch
copy, with the theorems that stop proving.

## Not modelled

Parsing and the desugaring passes not named above, the
foreign
plug-ins, Python bindings, tensors, the compile-time (`statics`) runtime, the distributions of samples,
`sample-k-proofs`, iteration monitors, printing, the csv library, output files, and the parts
listed as simplifications above.
