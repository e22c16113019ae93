# Formal model of timvieira/dyna-pi in Rocq (Coq 8.16.1)

The properties are listed in `properties.jsonl`; `MANIFEST.json` maps each of
them to the theorems that prove it.  All Coq sources are in `rocq/theories`.

## Conventions

* Files come in groups.  `XModel.v` holds only definitions that mirror the
  Python code, each with a comment citing the file and lines it models and
  naming every simplification.  `XSpec.v` holds the independent vocabulary used
  to state the properties (substitutions, reachability, derivations, sums, ...).
  `XProofs.v` holds lemmas.  `XProps.v` holds the property theorems only, each
  followed by `Print Assumptions` and by an `Example` showing a concrete
  non-trivial instance of its hypotheses.
* Python exceptions are values; loops and recursions that are not structural
  take explicit fuel and return a distinguished "out of fuel" result; theorems
  about them say that enough fuel exists and rule that result out.
* Arbitrary choices of the runtime (`next(iter(set))`, `set.pop()`, dict/set
  iteration order, agenda order) are universally quantified parameters
  (oracles), so that a theorem covers every order.
* Semirings are a record of operations with the semiring laws as fields
  (the `semirings` package is an external dependency and not in the repo).
  Floating-point tolerance (`approx_equal`, `metric(...) <= 1e-7`) is modelled
  as exact equality; this is said at each use.
* `*_partial` marks a theorem that proves part of a property; `*_refuted` marks
  a machine-checked counterexample to a claim made by the code or its
  documentation.

## Plan: property by property

| id | what is modelled | how it is proved |
|----|------------------|------------------|
| C01-C03 | terms, binding store (heap of `Var.value`), `==`, `occurs_check`, `unify`/`unifyN` as loops over a body (continuation) in a state/exception monad | solution sets: a substitution solves the store after iff it solves the store before and unifies x,y; acyclicity (rank function) is preserved; lexicographic termination measure |
| C04 | `Subst.mgu/occur_check/__call__` on a finite map | same solution-set argument |
| C05-C07 | `Subst.cover`, `covers`, `same`, `canonicalize` | induction on terms; renaming lemmas; counterexamples by computation |
| C08, C09 | `Fresh`, `deref`, `snap`, `is_ground`, `term_vars` over a store | induction on the resolution relation |
| C10, C11 | `MostGeneralSet`, `NoDupsSet` as state machines over lists | invariant over operation histories |
| C12, C13 | `generalizer` with its two memo tables, `DisjointEstimate.add` | invariant; counterexample history |
| C14, C15 | `Product.match_comm`, `Rule.same`, `Program.__eq__`/`_check_bucket`/`align` | backtracking search = existence of permutation + renaming; greedy matching is complete for an equivalence relation |
| C16 | `Product._covers` | induction on the number of subgoals left |
| C17 | `BucketQueue` over finite maps with integer priorities | representation invariant over all operation histories |
| C18, C19 | `kleene` loops over matrices, `transitive_closure` | Lehmann's invariant A(k) = A + sum_{j<k} A(.,j) A(k)(j,.) |
| C20, C40 | `tarjan` as a fuelled DFS with the code's `lowest`/`stack`/`trail` | DFS invariant (stack, trail, lowlinks) |
| C21, C22 | `Hypergraph.reachability` with arbitrary `set.pop` order; pruning keeps rules whose nodes are reached | worklist invariants; induction on derivations |
| C23, C24 | the agenda loop of `execute/solver.py` (chart, change, agenda, join) | invariant chart + change = T(chart), by the telescoping product identity, for every pop schedule |
| C25 | `Chart` with lazily built per-mode indexes | representation invariant over operation histories |
| C26-C28, C41 | ground programs: `step`, `seminaive_update`, `agenda`; derivation trees and their values | sums over derivations by height; telescoping products |
| C29 | first-order rules, `Unfold`, `lookup`, `fresh`, `term_vars`; derivation trees of ground instances (TransSpec) | explicit derivation mappings, proved inverse and value preserving |
| C30 | `LinearRuleElimination`, `elim` | explicit derivation mappings; chains of the eliminated rule are decomposed by parity |
| C31 | `basic_fold` (with `safe_by_rev`), `define`, `hook`, `loop_absorption`, `binarize`; `==` on programs as a parameter | fold is unfold (C29) in reverse, up to renaming and order of rules and subgoals |
| C32 | `linearize` | the new definitions are single copies of a subgoal; explicit derivation mappings |
| C33-C35 | `Program.update/_update_bucket/pop/constant_folding/f2r/lookup` state machine | invariant over histories |
| C36 | name generators | injectivity of decimal printing; pigeonhole termination |
| C37 | `truncate_term` | induction |
| C38 | integer builtins | arithmetic (lia/nia) |
| C39 | `Interval`, `measure.py` | arithmetic over Python ints and z3 expressions (evaluated under any assignment) |
| C42, C43 | `Slash`, `LCT` (the new rules), `CoarseGraph.nodes`, `not_matches3` | each new rule's ground instances are characterised; derivations are cut along the spines that the positions select; explicit derivation mappings |
| C44 | sessions of `define`, `unfold`, `fold` with any `defs`; `Measure`, `measure_safety`, `compute_measure` | every rule is represented in the original program by derivations whose size lies in its interval; positive sizes make the mutual replacement well founded |
| C45 | `magic_templates` with its reordering, the coarse graph it consults, and pruning | induction on derivations: a demanded item gets a guarded derivation whose subgoals are demanded from left to right; stripping the guards gives back a derivation |
| C46 | `solve_linear`: the Boolean program and its agenda, the system of equations, `linsolve` | the Boolean agenda ends with the derivable items; the system is the equations restricted to instantiated rules; fixpoint and leastness of `linsolve` (C18) |
| C47 | `newton`: linear rules, linearized program, rounds | the invariant F(v) = v + B and change_p = B + F'(v); a second-order expansion of products; induction on rounds |
| C48 | `ConstraintPropagation` (chart, agenda, checks, equalities, rules, hooks), `Rewrites`: `__call__`, `intersect`, `covers` | types denote sets of ground terms in an arbitrary interpretation that satisfies the rules; invariant: every constraint in the chart holds of every assignment that satisfies the given ones, and every given constraint is in the chart up to the substitution |
| C49 | `TypeAnalyzer` with `_run_basic`: the type program, joins with the chart, relaxation, `MostGeneralSet` with `covers`, the agenda | invariant of the agenda: the processed types and the agenda cover the chart, and the chart covers every rule instance whose body is covered by processed types; induction on derivations |
| C50 | `CoarseGraph`: nodes, dependency graph, `possibly_cyclic`, `possibly_expansive`, `split_input_dependent` | every ground item of the program belongs to one node (because `root` is unique), so that ground dependencies map to edges; paths by C19; refutations for the split and for builtins by computation |
| C51 | `scc_solver`: the Boolean pass, `deps`, the outputs asked for, numbering by `tarjan`, the priority function; the solver with updates discarded by a priority | invariant of the solver restricted to kept items; the Boolean chart is the set of derivable items; keys of the numbering cover exactly the needed items (C20); uniqueness of solutions by induction on a rank; refutation by computation |
| C52 | solver2.py `Solver` (`lookup`, `update`, the agenda loop, linear drivers), base.py `join`, `run_rule`, `load`, program.py `multiple` | each result of a join is an extension of the heap determined by the rule's variables; the sum of the results that admit a ground instance is the product of its subgoals' values (induction on the join); exchange of the sum over results with the sum over instances; loop invariant for the equation of one ground item; closure for the support; refutation by computation |
| C53 | dead.py `_prune_specialize`, `_prune_dead`, program.py `_useful`, `usefulness_analysis`, `join`/`lookup` on the heads of the types | each result of the join is the most general common instance with one choice of types; every ground rule instance whose items are covered is an instance of a copy, and of only one if the types are disjoint; derivations map to derivations by induction; C49 for the types of the program of useful items; refutations by computation |
| C54 | program.py `normalize_unification2`, `snap_unifications`, term.py `Product.snap_unifications`; equations are subgoals worth one or zero | an invariant of the flattening (sound, solvable by new variables only, solution determined by the rest), by induction on terms; a bijection between the ground instances with true equations and the instances of the other rule; unification results for the resolution; refutations by computation |
| C55 | program.py `lift_semiring`, rule.py `Rule.lift`; the lifting function is a parameter | mutual induction on derivations (same shapes, value of each shape); the correspondence of derivations is one to one, so the sums of C26 carry over; homomorphisms commute with the iterates; a bijection between instances for rules with variables; refutation by computation |
| C56 | program.py `groundings`, `instantiate`; lookups in the chart as in C53 | counting: the number of firings with a given ground instance is the product of the numbers of chart heads that stand for its items (induction on the body, unification results); derivations one to one as in C53; infinitely many instances for ground results; refutation by computation |
| C57 | program.py `run_builtins`, `_run_builtins`, the builtins of `lookup`; `append` as in C54, `is` as in C38 | a rule and the rule with its evaluated constraints replaced by one have the same value (bijection between their nonzero instances, as in C54); the condition on the rules is kept by each round; induction on rounds and rules; the number of subgoals falls if a constraint is evaluated |
| C58 | search/search.py: the loop of `AgendaBasedSearch`, its two queues, chart and best program; `degrees` compared as tuples | an invariant over the iterations: both queues hold the same numbers, the oldest-first queue is increasing and starts at the number of oldest-first draws, the chart is closed under the moves |
| C59 | rule.py `RuleAnalyzer_`; program.py `degrees`, `CostDegrees` | instances over a domain are in bijection with assignments to the distinct variables of the rule, which are counted by induction |

## What is modelled

| model file | code | what is left out or simplified |
|------------|------|--------------------------------|
| TermModel | term.py: `Var`, `Term`, `deref`, `==`, `occurs_check`, `unify`, `unifies`, `covers`, `same`, `fresh`, `snap`, `term_vars`, `canonicalize`, `Subst`, `mgu`, `covers_slow` | constants are ints and strings (`1 == 1.0`, booleans and NaN are left out); `OCCURS_CHECK_ENABLED = True`; generators are closed promptly (CPython reference counting) |
| SetsModel | term.py: `NoDupsSet`, `MostGeneralSet`, `DisjointEstimate`, `generalizer`, `Product._covers`, rule.py: `same`, hashes and equality; program.py: `__eq__`, `same`, `align` | terms are not bound while they are stored |
| BQModel, KleeneModel, GraphModel | util/bucket_queue.py, execute/linear.py `kleene` and the last line of `linsolve`, util/graphs.py: `transitive_closure`, `tarjan`, `condensation`, `Hypergraph.reachability` | numpy storage; the packing of programs into matrices |
| PruneModel | analyze/dead.py: `prune_very_fast`, `prune_fast` | (type-based variants: SpecialModel) |
| SolverModel, BuiltinModel | execute/solver.py, execute/base.py, builtin.py | `$free`, `$bound`, `$not_matches`; floats; unbounded ranges; printing, timing, statistics |
| NamesModel | term.py/program.py: `gen_functor`, `syms` | non-string functors |
| TruncModel | analyze/types.py `truncate_term` | (TypesModel) |
| IntervalModel | transform/measure.py interval arithmetic, `compute_measure` of fold and unfold | the calls to z3; z3 expressions are evaluated under an arbitrary assignment |
| UpdateModel | program.py: `update`, `append`, `pop`, `_update_bucket`, `constant_folding_rhs`, `get_const_rhs`, `f2r`, `lookup`, `constant_folding` | inputs and builtins are looked up elsewhere; negative positions in `pop` |
| EvalModel | program.py: `step`, `fc`, `seminaive_update`, `seminaive`, `agenda`, derivations.py: enumeration of derivations | ground programs; tolerances are zero |
| TransModel | unfold.py (`defs=None`), `define`, `hook`, fold.py (`safe_by_rev`), `binarize`, `linearize` | `transform`/`untransform` as methods (the derivation mappings are constructed in the proofs) |
| SlashModel | slash.py, lct.py: the rules built by `Slash.__init__` and `LCT.__init__`; coarse_graph.py: the nodes and their look-ups; builtin.py `not_matches3` | positions are not negative and do not select a semiring value; `transform` and `compute_measure`; the edges of the coarse graph |
| SafeModel, FoldsModel | measure.py: `Measure`, `measure_safety`; `compute_measure` of `Program`, `Define`, `Unfold`, `Fold`; `unfold(defs=...)`, `manual_fold(defs=...)`, `lineage`; rule.py `folds_by` | programs of a session are numbered; z3 is any function that answers `sat` only for satisfiable conditions; the messages of `_freshness_violations`; all transformations other than define, unfold, fold |
| MagicModel | program.py: `magic_templates`; coarse_graph.py (nodes and outgoing edges) | `ys.remove(a)` by position; the hypergraph of the coarse graph; the semiring (rules are unweighted, derivability only) |
| NewtonModel | program.py: `solve_linear`, `booleanize`, `newton`, `_newton`; linear.py: `Linear` and `linsolve` | ground programs; the Boolean agenda's metric and the comparison of charts are exact; numpy arrays as functions, the Integerizer as a list |
| PropagateModel | propagate.py, analyze/rewrites.py: `__call__`, `intersect`, `covers` | evaluation of comparisons and `is` is a parameter; equalities whose left side is not a variable are rejected where the code builds a substitution from them; `disjoin`, `anti_unifier` |
| TypesModel | analyze/types.py: `to_type_program`, `_relax`, `step`, `_run_basic` | `_run_generalizing`; builtins that are not declared as type parameters; the index of the chart (C35) |
| CycleModel | analyze/coarse_graph.py: `CoarseGraph.__init__` (nodes and graph), `possibly_cyclic`, `possibly_expansive`, `split_input_dependent` | the hypergraph; `solve_input_independent`, `scc_decomposition`; nodes are named by positions |
| SccModel | program.py: `scc_solver`, `booleanize`, `lookup`, `is_exogenous`; solver.py: `priority` in `update` | `magic=True`, `solver=2`, budgets, the linearization of the program; the index over rule heads; `deps` of a builtin or a variable |
| Solver2Model | solver2.py: `Solver`; base.py: `join`, `run_rule`, `initialize`, `load`; program.py: `multiple` | interned items, the priority queue (any order), tolerance, BuiltinConstraint objects and `$not_matches`, the linearization of the program, budgets, `sol`, `user_query` |
| SpecialModel | analyze/dead.py: `_prune_specialize`, `_prune_dead`; program.py: `_useful`, `usefulness_analysis` (the chart), `join` on heads | `$lift`, `$not_matches`, `output_type` arguments, laziness of the join |
| NormalModel | program.py: `normalize_unification2`, `snap_unifications`; term.py: `Product.snap_unifications` | bound variables inside programs |
| LiftModel | program.py: `lift_semiring`; rule.py: `Rule.lift`, `is_const` | `semiring is None` (the program is returned as it is) |
| InstantModel | program.py: `groundings`, `instantiate` (with `__getitem__`, `lookup` as in SpecialModel) | the value of a grounding, charts with input declarations or without builtins, `chart=None` (which calls `agenda`) |
| RunModel | program.py: `run_builtins`, `_run_builtins`, builtins in `lookup` | `is` with several answers, `$free`, `$bound`, `$not_matches`, rules whose head is a comparison, variables as subgoals; equality of programs is any test |
| SearchModel | search/search.py: `Agenda`, `AgendaBasedSearch.__init__`, `run_agenda`, `_run_agenda`, `_update`; tuple comparison of `CostDegrees` | the moves (`drive` and the `_drive_*` methods), the safety check and the degrees are parameters; no counters, statistics, KeyboardInterrupt; moves raise no exception; `take(n)` takes at most n programs |
| DegreeModel | rule.py: `RuleAnalyzer_`; program.py: `degrees`, `CostDegrees` | bound variables; the fields that only printing uses |
| ElimModel | rule_elimination.py, `elim` | position, not object identity, finds the eliminated rule |

Not modelled: the parser (syntax.py), pretty printing, search/old.py and the moves of search/search.py,
abbreviate.py, `_run_generalizing` and `intersect` of types.py, runtime.py, `disjoin` and
`anti_unifier` of rewrites.py, visualisation, timeouts.
(Parts of this list that are modelled later are removed from it.)

## Findings about the code

Each of these is a machine-checked counterexample in the file of the property.

* C07: `same` and `covers` are wrong when the two terms share variables.
* C12/C13: the generalisation of non-overlapping terms is not an upper bound on its own; `DisjointEstimate` can hold overlapping members.
* C14: rule equality has false negatives when a variable is used as a subgoal (and so `hook` raises "invalid fold" there), and can go wrong on hash collisions.
* C21: `Hypergraph.reachability` may return underivable outputs.
* C23: when a variable is used as a subgoal and stands for an item, the result of the solver depends on the order of the agenda.
* C26: `fc(max_iter=0)` returns an unassigned variable.
* C29: inlining that loses a variable has no derivation-by-derivation counterpart (the library multiplies by `multiple(inf)`).
* C30: elimination captures variables when rules share them; a rule such as `total += f(X) * X` blocks the elimination of `f`.
* C31: `hook` and `binarize` move the new subgoal to the front, which changes values in noncommutative semirings.
* C32: `linearize` raises AttributeError on a variable that is used as a subgoal.
* C33: adding a constant rule for a head that has a rule with an empty body raises ValueError; a rule with a variable head cannot be added after the functor index was built.
* C35: the first and the second lookup of an item can differ if a rule head is a variable.
* C36: with prefixes that end in a digit, `gen_functor` can return the same name twice.
* C38: `X is abs(Y)` run backwards at a negative number, `0` as a neutral element with strings, and `0 is 0*Z`.
* C42: `slash` and `lct` lose derivations if a rule is recursive with a subgoal that does not unify with the head as written (`f(X) += f(g(X))`), or if an input has the functor of a rule's head; the coarse graph raises KeyError for some programs.
* C44: the safety check accepts a fold by definitions that are not in the program's own history (the result lacks their rules), and does not notice that an item gets another definition after it was unfolded.
* C45: `magic_templates` treats a subgoal that overlaps with an input declaration as exogenous and never demands it, so rules that define such items never fire; `scc_solver(magic=True)` would then discard them. The generated name is checked against the rules only, not against inputs and outputs.
* C46/C47: `solve_linear` and `newton` take a true builtin for an item without rules, so the value of `a += 5 * (2 < 3)` is lost; with one item and one builtin in a body they raise AssertionError. `newton(T=0)` runs without a bound.
* C48: constraints named `ks` or `ws` are always considered checked, so that `covers` answers wrongly for them; `f(Z) = f(3)` counts as a contradiction; of two equalities for one variable one is forgotten; a functional dependency (`A = B :- w(A,I), w(B,I)`) derives `A = A` and the substitution built from it recurses forever.
* C49: with a type parameter named `ks` the type analysis loses types of items that the program derives.
* C50: `split_input_dependent` compares canonical nodes with the input declarations as written, so that with declarations such as `f(_)` no rule is ever found to depend on the inputs (and `solve_input_independent` would solve such rules without their inputs); `possibly_expansive` raises KeyError on programs with builtins.
* C51: `scc_solver` discards the items that only rules for inputs use (`is_exogenous` stops the dependency search at an input), so that with `inputs: f(X)` and data such as `f(1) += g. g += 2.` the outputs lose values that `agenda` or the ordinary solver compute.
* C52: an item with variables can drive two subgoals of one rule that do not unify with each other (so `linearize` does not split them), and its update is counted twice: with `f(X) += 3. goal += f(1)*f(2).` the non-ground solver gives goal = 18 instead of 9.
* C53: DisjointEstimate joins a new term with one overlapping member without comparing the result with the others, so that it may return overlapping terms, and specialisation then counts a derivation twice; a variable used as a value is looked up among the items, so that `total += f(X) * X` loses its derivations when it is specialised.
* C54: `normalize_unification2` raises ValueError for a rule with a variable as a subgoal; `snap_unifications` forgets that a variable that occurs only in equations has infinitely many values (`goal += (X = Y)` becomes `goal += 1`).
* C55: `lift_semiring` lifts the constants written in the rules, not a constant that a variable is bound to when the program runs (`total += f(X) * X`).
* C56: `groundings` and `instantiate` repeat a firing for each rule of the chart for the same item (`f(1) += 1. f(1) += 2.`), so the chart must be merged first.

## Trusted base

* The kernel of Coq 8.16.1 (the build is checked again with `coqchk`).
* The statements in the `*Spec.v` and `*Props.v` files.
* The reading of the Python code recorded in the comments of the `*Model.v`
  files; in particular the simplifications named there and in the table above.
* Axioms: none.  `Print Assumptions` of every theorem below answers "Closed under the
  global context".  (`coqchk` lists seven names of `Coq.ssr.ssrunder`, which std++
  loads; no theorem depends on them.)

### Print Assumptions

"Closed under the global context" for all 270 theorems named in `MANIFEST.json`:

* C01: TermProps.C01_unify_mgu
* C02: TermProps.C02_unify_undoes_bindings
* C03: TermProps.C03_unify_terminates, TermProps.C03_readers_terminate
* C04: TermProps.C04_mgu
* C05: TermProps.C05_covers_subsumption
* C06: TermProps.C06_canonicalize_variant, TermProps.C06_canonicalize_idempotent, TermProps.C06_same_variant
* C07: TermProps.C07_same_unsound_with_shared_variables, TermProps.C07_covers_incomplete_with_shared_variables
* C08: TermProps.C08_fresh_renames_apart
* C09: TermProps.C09_binding_readers
* C10: SetsProps.C10_most_general_set, SetsProps.C10_order_independent
* C11: SetsProps.C11_nodups_any_equivalence, SetsProps.C11_nodups_set
* C12: SetsProps.C12_disjoint_estimate_upper_bound, SetsProps.C12_generalizer_not_upper_bound_in_general
* C13: SetsProps.C13_disjointness_refuted
* C14: RuleProps.C14_rule_same, RuleProps.C14_same_object, RuleProps.C14_equivalence, RuleProps.C14_bare_variable_refuted, RuleProps.C14_collision_refuted
* C15: RuleProps.C15_program_equality, RuleProps.C15_align
* C16: RuleProps.C16_product_covers
* C17: BQProps.C17_agenda_history, BQProps.C17_iteration_sorted
* C18: KleeneProps.C18_kleene_fixpoint, KleeneProps.C18_kleene_fixpoint_nonreflexive, KleeneProps.C18_kleene_least, KleeneProps.C18_linsolve_fixpoint, KleeneProps.C18_linsolve_least
* C19: KleeneProps.C19_transitive_closure, KleeneProps.C19_reflexive_transitive_closure
* C20: GraphProps.C20_tarjan
* C21: GraphProps.C21_reachability, GraphProps.C21_overapproximates
* C22: PruneProps.C22_prune_very_fast, PruneProps.C22_prune_fast
* C23: SolverProps.C23_solution, SolverProps.C23_solution_no_variables, SolverProps.C23_sum_unique, SolverProps.C23_variable_subgoal_refuted
* C24: SolverProps.C24_history, SolverProps.C24_facts
* C25: ChartProps.C25_lookup_exact, ChartProps.C25_write_total, ChartProps.C25_same_answers
* C26: EvalProps.C26_fc, EvalProps.C26_fc_returns, EvalProps.C26_fc_unlimited, EvalProps.C26_step, EvalProps.C26_zero_rounds_refuted
* C27: EvalProps.C27_seminaive, EvalProps.C27_seminaive_returns, EvalProps.C27_seminaive_unlimited, EvalProps.C27_change, EvalProps.C27_naive_derivations, EvalProps.C27_seminaive_derivations
* C28: EvalProps.C28_agenda, EvalProps.C28_agenda_returns
* C29: TransProps.C29_unfold, TransProps.C29_unfold_returns, TransProps.C29_kept, TransProps.C29_unfold_values, TransProps.C29_values, TransProps.C29_lost_refuted
* C30: ElimProps.C30_elimination, ElimProps.C30_elim, ElimProps.C30_returns, ElimProps.C30_linear, ElimProps.C30_output, ElimProps.C30_shared_refuted, ElimProps.C30_returns_refuted
* C31: FoldProps.C31_fold, FoldProps.C31_fold_values, FoldProps.C31_hook, FoldProps.C31_hook_shape, FoldProps.C31_hook_returns, FoldProps.C31_binarize, FoldProps.C31_binarize_returns, FoldProps.C31_equality, FoldProps.C31_order_refuted
* C32: LinearProps.C32_values, LinearProps.C32_linear, LinearProps.C32_shape, LinearProps.C32_locally_linear, LinearProps.C32_returns, LinearProps.C32_returns_refuted
* C33: UpdateProps.C33_update, UpdateProps.C33_update_returns, UpdateProps.C33_merged, UpdateProps.C33_zero, UpdateProps.C33_pop, UpdateProps.C33_empty_body_refuted, UpdateProps.C33_variable_head_refuted
* C34: UpdateProps.C34_constant_folding
* C35: UpdateProps.C35_lookup, UpdateProps.C35_lookup_returns, UpdateProps.C35_variable_head_refuted
* C36: NamesProps.C36_distinct, NamesProps.C36_distinct_one_prefix, NamesProps.C36_digit_prefix_refuted, NamesProps.C36_program, NamesProps.C36_local
* C37: TruncProps.C37_truncate
* C38: BuiltinProps.C38_exact, BuiltinProps.C38_exact_integers, BuiltinProps.C38_ready, BuiltinProps.C38_comparisons, BuiltinProps.C38_is_exact, BuiltinProps.C38_solver, BuiltinProps.C38_abs_refuted, BuiltinProps.C38_zero_refuted, BuiltinProps.C38_zero_times_refuted
* C39: IntervalProps.C39_interval, IntervalProps.C39_tight, IntervalProps.C39_sum, IntervalProps.C39_min_max, IntervalProps.C39_derivation, IntervalProps.C39_fold_unfold, IntervalProps.C39_conditions, IntervalProps.C39_min_size
* C40: GraphProps.C40_condensation
* C41: EvalProps.C41_valid_once, EvalProps.C41_fair, EvalProps.C41_complete
* C42: SlashProps.C42_slash, SlashProps.C42_ends, SlashProps.C42_self_overlap_refuted, SlashProps.C42_input_functor_refuted, SlashProps.C42_returns_refuted
* C43: SlashProps.C43_lct, SlashProps.C43_ends
* C44: SafeProps.C44_safe, SafeProps.C44_safe_transformations, SafeProps.C44_safe_new_items, SafeProps.C44_freshness, SafeProps.C44_fuel, SafeProps.C44_folds_by, SafeProps.C44_safe_witness, SafeProps.C44_unsafe_witness, SafeProps.C44_missing_definitions_refuted, SafeProps.C44_redefinition_refuted
* C45: MagicProps.C45_magic_templates, MagicProps.C45_witness, MagicProps.C45_defined_inputs_refuted
* C46: NewtonProps.C46_solution, NewtonProps.C46_least, NewtonProps.C46_returns, NewtonProps.C46_raises, NewtonProps.C46_witness, NewtonProps.C46_raises_witness, NewtonProps.C46_builtins_refuted
* C47: NewtonProps.C47_below, NewtonProps.C47_solution, NewtonProps.C47_faster, NewtonProps.C47_returns, NewtonProps.C47_zero_rounds, NewtonProps.C47_witness, NewtonProps.C47_builtins_refuted
* C48: RewriteProps.C48_propagate, RewriteProps.C48_rewrites, RewriteProps.C48_covers, RewriteProps.C48_intersect, RewriteProps.C48_witness, RewriteProps.C48_ks_refuted, RewriteProps.C48_equation_refuted, RewriteProps.C48_equalities_refuted, RewriteProps.C48_fundep_refuted
* C49: TypesProps.C49_types, TypesProps.C49_data, TypesProps.C49_witness, TypesProps.C49_ks_refuted
* C50: CycleProps.C50_cyclic, CycleProps.C50_expansive, CycleProps.C50_split, CycleProps.C50_split_never_dependent, CycleProps.C50_witness, CycleProps.C50_split_refuted, CycleProps.C50_expansive_builtin_refuted
* C51: SccProps.C51_pruned, SccProps.C51_history, SccProps.C51_scc, SccProps.C51_same, SccProps.C51_order, SccProps.C51_fuel, SccProps.C51_witness, SccProps.C51_inputs_refuted
* C52: Solver2Props.C52_solution, Solver2Props.C52_infinite, Solver2Props.C52_run, Solver2Props.C52_ground, Solver2Props.C52_sound, Solver2Props.C52_support, Solver2Props.C52_items, Solver2Props.C52_witness, Solver2Props.C52_infinite_witness, Solver2Proofs.integral_finite, Solver2Props.C52_two_drivers_refuted
* C53: SpecialProps.C53_specialize, SpecialProps.C53_specialize_estimate, SpecialProps.C53_specialize_any, SpecialProps.C53_dead, SpecialProps.C53_useful, SpecialProps.C53_prune, SpecialProps.C53_witness, SpecialProps.C53_prune_witness, SpecialProps.C53_overlap_refuted, SpecialProps.C53_value_variable_refuted
* C54: NormalProps.C54_normalize, NormalProps.C54_normal_form, NormalProps.C54_unchanged, NormalProps.C54_idempotent, NormalProps.C54_returns, NormalProps.C54_snap, NormalProps.C54_snap_returns, NormalProps.C54_resolved, NormalProps.C54_round_trip, NormalProps.C54_determined, NormalProps.C54_witness, NormalProps.C54_local_refuted, NormalProps.C54_value_variable_refuted
* C55: LiftProps.C55_derivations, LiftProps.C55_one, LiftProps.C55_ground, LiftProps.C55_fc, LiftProps.C55_hom, LiftProps.C55_fc_hom, LiftProps.C55_fc_unlimited, LiftProps.C55_solution, LiftProps.C55_value, LiftProps.C55_witness, LiftProps.C55_value_variable_refuted
* C56: InstantProps.C56_sound, InstantProps.C56_only, InstantProps.C56_complete, InstantProps.C56_ground_chart, InstantProps.C56_ground, InstantProps.C56_derivations, InstantProps.C56_returns, InstantProps.C56_returns_witness, InstantProps.C56_witness, InstantProps.C56_twice_refuted
* C57: RunProps.C57_value, RunProps.C57_done, RunProps.C57_round, RunProps.C57_determined, RunProps.C57_settled, RunProps.C57_settled_witness, RunProps.C57_witness, RunProps.C57_local_refuted
* C58: SearchProps.C58_best, SearchProps.C58_found, SearchProps.C58_no_error, SearchProps.C58_returns, SearchProps.C58_fair, SearchProps.C58_exhausted, SearchProps.C58_greedy, SearchProps.C58_invariant, SearchProps.C58_witness
* C59: DegreeProps.C59_degree, DegreeProps.C59_degrees, DegreeProps.C59_product, DegreeProps.C59_eliminate, DegreeProps.C59_returns, DegreeProps.C59_witness

## What the seeded bugs do not show

* An edit in seeded/LOG.jsonl counts as found when the proof of some lemma fails. A failed proof is not by itself a proof that the theorem is false of the edited program.
* Three edits survived and are still not found: `gen_traverse` (functor names are not compared), `check_driver` (a failed builtin constraint is ignored) and `is_leaf` (variables count as leaves). The notes in the log say why. So no theorem says that propagation finds every failed constraint, or fixes the order of subgoals.
* A fourth survivor, `min_size` (constants and builtins count as well), led to the theorem C39_min_size.
* For 17 edits the run stopped before the theorems were measured. Their empty lists of theorems mean "not known"; the notes say so.
