{
 "claims": [
  {
   "property": "C01",
   "status": "proved",
   "theorems": [
    "C01_unify_mgu"
   ],
   "note": "Generator modelled in continuation-passing style over an explicit binding store; solution-set characterisation of most general unifiers."
  },
  {
   "property": "C02",
   "status": "proved",
   "theorems": [
    "C02_unify_undoes_bindings"
   ],
   "note": "Relies on CPython closing an abandoned generator promptly (reference counting)."
  },
  {
   "property": "C03",
   "status": "proved",
   "theorems": [
    "C03_unify_terminates",
    "C03_readers_terminate"
   ],
   "note": "Fuel is existentially sufficient; occurs check enabled (as in the source)."
  },
  {
   "property": "C04",
   "status": "proved",
   "theorems": [
    "C04_mgu"
   ],
   "note": "Heap-free terms; in-place update of the receiver is modelled."
  },
  {
   "property": "C05",
   "status": "proved",
   "theorems": [
    "C05_covers_subsumption"
   ],
   "note": ""
  },
  {
   "property": "C06",
   "status": "proved",
   "theorems": [
    "C06_canonicalize_variant",
    "C06_canonicalize_idempotent",
    "C06_same_variant"
   ],
   "note": ""
  },
  {
   "property": "C07",
   "status": "proved",
   "theorems": [
    "C07_same_unsound_with_shared_variables",
    "C07_covers_incomplete_with_shared_variables"
   ],
   "note": "A limitation of the code, proved by concrete counterexamples."
  },
  {
   "property": "C08",
   "status": "proved",
   "theorems": [
    "C08_fresh_renames_apart"
   ],
   "note": ""
  },
  {
   "property": "C09",
   "status": "proved",
   "theorems": [
    "C09_binding_readers"
   ],
   "note": ""
  },
  {
   "property": "C10",
   "status": "proved",
   "theorems": [
    "C10_most_general_set",
    "C10_order_independent"
   ],
   "note": "every history; variable identities come from an arbitrary injective allocator"
  },
  {
   "property": "C11",
   "status": "proved",
   "theorems": [
    "C11_nodups_any_equivalence",
    "C11_nodups_set"
   ],
   "note": ""
  },
  {
   "property": "C12",
   "status": "proved",
   "theorems": [
    "C12_disjoint_estimate_upper_bound",
    "C12_generalizer_not_upper_bound_in_general"
   ],
   "note": "terms whose functors are constants; stated for all instances, not only ground ones. The second theorem records that the anti-unifier alone is not an upper bound on non-overlapping terms."
  },
  {
   "property": "C13",
   "status": "proved",
   "theorems": [
    "C13_disjointness_refuted"
   ],
   "note": "A limitation of the code, proved by a concrete history."
  },
  {
   "property": "C14",
   "status": "proved",
   "theorems": [
    "C14_rule_same",
    "C14_same_object",
    "C14_equivalence",
    "C14_bare_variable_refuted",
    "C14_collision_refuted"
   ],
   "note": "Shared variables are allowed. The two _refuted theorems show that the stated restrictions (no bare-variable subgoal; no hash collision between bodies of different lengths) are needed: both are limitations of the code."
  },
  {
   "property": "C15",
   "status": "proved",
   "theorems": [
    "C15_program_equality",
    "C15_align"
   ],
   "note": "for programs whose rules have no bare-variable subgoals (see C14)"
  },
  {
   "property": "C16",
   "status": "proved",
   "theorems": [
    "C16_product_covers"
   ],
   "note": ""
  },
  {
   "property": "C17",
   "status": "proved",
   "theorems": [
    "C17_agenda_history",
    "C17_iteration_sorted"
   ],
   "note": "every operation history, every runtime choice of item within a bucket"
  },
  {
   "property": "C18",
   "status": "proved",
   "theorems": [
    "C18_kleene_fixpoint",
    "C18_kleene_fixpoint_nonreflexive",
    "C18_kleene_least",
    "C18_linsolve_fixpoint",
    "C18_linsolve_least"
   ],
   "note": "any semiring (not nec. commutative) whose star satisfies star x = 1 + x star x; leastness for ordered semirings whose star is least"
  },
  {
   "property": "C19",
   "status": "proved",
   "theorems": [
    "C19_transitive_closure",
    "C19_reflexive_transitive_closure"
   ],
   "note": ""
  },
  {
   "property": "C20",
   "status": "proved",
   "theorems": [
    "C20_tarjan"
   ],
   "note": ""
  },
  {
   "property": "C21",
   "status": "proved",
   "theorems": [
    "C21_reachability",
    "C21_overapproximates"
   ],
   "note": "C21_overapproximates shows that the set may contain underivable outputs and nodes that feed only them."
  },
  {
   "property": "C22",
   "status": "proved",
   "theorems": [
    "C22_prune_very_fast",
    "C22_prune_fast"
   ],
   "note": "Model of dead.py: both pruning methods return a subsequence of the rules, and derivations of output items before and after correspond one-to-one with equal values in every semiring. A subgoal that is just a variable stands for a value (a leaf), as in the language. Declarations and rule heads are items with constant functors."
  },
  {
   "property": "C23",
   "status": "proved",
   "theorems": [
    "C23_solution",
    "C23_solution_no_variables",
    "C23_sum_unique",
    "C23_variable_subgoal_refuted"
   ],
   "note": "Model of execute/solver.py and execute/base.py. Every agenda order, every iteration order of sets. Condition: a variable used as a subgoal stands for a constant; C23_variable_subgoal_refuted shows that otherwise the result depends on the order. `is` is a parameter with an exactness law. The $free/$bound/$not_matches constraints are excluded."
  },
  {
   "property": "C24",
   "status": "proved",
   "theorems": [
    "C24_history",
    "C24_facts"
   ],
   "note": "Any interleaving of load_data and runs that ends with a run."
  },
  {
   "property": "C25",
   "status": "proved",
   "theorems": [
    "C25_lookup_exact",
    "C25_write_total",
    "C25_same_answers"
   ],
   "note": "Every history of writes and lookups; the order in which Python sets are iterated is arbitrary. Items are ground and queries have a constant functor."
  },
  {
   "property": "C26",
   "status": "proved",
   "theorems": [
    "C26_fc",
    "C26_fc_returns",
    "C26_fc_unlimited",
    "C26_step",
    "C26_zero_rounds_refuted"
   ],
   "note": "Ground programs in any (also noncommutative) semiring, rules with constants, items and ground builtins. `same` is the equality of charts that stops the loop (C15). C26_zero_rounds_refuted: fc(max_iter=0) never assigns its result."
  },
  {
   "property": "C27",
   "status": "proved",
   "theorems": [
    "C27_seminaive",
    "C27_seminaive_returns",
    "C27_seminaive_unlimited",
    "C27_change",
    "C27_naive_derivations",
    "C27_seminaive_derivations"
   ],
   "note": "Ground programs in any semiring. The derivation enumerations list every derivation of height at most k exactly once."
  },
  {
   "property": "C28",
   "status": "proved",
   "theorems": [
    "C28_agenda",
    "C28_agenda_returns"
   ],
   "note": "Ground programs in any semiring, every number of rounds; the precision test is exact (with a tolerance the code drops small changes)."
  },
  {
   "property": "C29",
   "status": "proved",
   "theorems": [
    "C29_unfold",
    "C29_unfold_returns",
    "C29_kept",
    "C29_unfold_values",
    "C29_values",
    "C29_lost_refuted"
   ],
   "note": "Any semiring (also noncommutative), recursive rules included, unfolding against the program itself (defs=None). Hypothesis `kept`: inlining loses no variable (C29_kept gives syntactic conditions). When a variable is lost the library multiplies by multiple(inf) instead and C29_lost_refuted shows that no one-to-one correspondence exists. Rule equality in list.remove is taken to be structural."
  },
  {
   "property": "C30",
   "status": "proved",
   "theorems": [
    "C30_elimination",
    "C30_elim",
    "C30_returns",
    "C30_linear",
    "C30_output",
    "C30_shared_refuted",
    "C30_returns_refuted"
   ],
   "note": "Commutative semirings, exact tests for 0 and 1, rules that share no variable with the eliminated one, no variable lost (kept). The derivations of what the rule does not define correspond one-to-one, with the same roots and values, to those in a program L; the rules of the result have the same right-hand sides as L for every interpretation (L before the constant folding and merging of update, see C33). C30_elim: the same for elim, which linearizes first. C30_returns/C30_linear: it succeeds exactly if no rule has two subgoals that overlap with the head. C30_shared_refuted: if rules share variables the result is wrong, because the library does not rename them. C30_returns_refuted: a rule with a variable as subgoal next to the eliminated item is always refused."
  },
  {
   "property": "C31",
   "status": "proved",
   "theorems": [
    "C31_fold",
    "C31_fold_values",
    "C31_hook",
    "C31_hook_shape",
    "C31_hook_returns",
    "C31_binarize",
    "C31_binarize_returns",
    "C31_equality",
    "C31_order_refuted"
   ],
   "note": "Fold with the reversibility check (basic_fold), hook and binarize, in commutative semirings: derivations correspond one-to-one with the same root and value (for hook and binarize, apart from items of the generated definitions); hook and binarize do not fail if generated names are new and no variable is used as a subgoal. Program equality is a parameter; C31_equality shows that the library's == meets the assumptions made about it. C31_order_refuted: in a noncommutative semiring binarize changes values, because the new subgoal is put first."
  },
  {
   "property": "C32",
   "status": "proved",
   "theorems": [
    "C32_values",
    "C32_linear",
    "C32_shape",
    "C32_locally_linear",
    "C32_returns",
    "C32_returns_refuted"
   ],
   "note": "Any semiring, with and without a driver. Values: derivations correspond one-to-one, variables used as subgoals stand for values (leaves). No overlap left: stated for every candidate subgoal (C32_linear), and for all rules of the new program when there is no driver (C32_locally_linear). C32_returns: no failure if generated names are new and no subgoal is a variable; C32_returns_refuted: a variable as a subgoal after an ordinary one raises AttributeError."
  },
  {
   "property": "C33",
   "status": "proved",
   "theorems": [
    "C33_update",
    "C33_update_returns",
    "C33_merged",
    "C33_zero",
    "C33_pop",
    "C33_empty_body_refuted",
    "C33_variable_head_refuted"
   ],
   "note": "Any interleaving of update/append, lookup and pop, under any bindings; commutative semiring, exact tests for zero and one, rules with ordinary heads and nonempty bodies. The _refuted theorems show the two failures outside that: adding to a head that has a rule with an empty body raises ValueError; adding a rule with a variable head after the functor index was built raises AttributeError."
  },
  {
   "property": "C34",
   "status": "proved",
   "theorems": [
    "C34_constant_folding"
   ],
   "note": "Every interpretation of the subgoals, any sort key. Items whose total is an infinite sum that exists only after coefficients cancel are not covered (the theorem goes from the original program to the folded one)."
  },
  {
   "property": "C35",
   "status": "proved",
   "theorems": [
    "C35_lookup",
    "C35_lookup_returns",
    "C35_variable_head_refuted"
   ],
   "note": "After any history of update/append, lookup and pop. Rule heads are ordinary items; C35_variable_head_refuted: with a rule whose head is a variable, the first and the second lookup of the same item differ (shadowed loop variable in f2r)."
  },
  {
   "property": "C36",
   "status": "proved",
   "theorems": [
    "C36_distinct",
    "C36_distinct_one_prefix",
    "C36_digit_prefix_refuted",
    "C36_program",
    "C36_local"
   ],
   "note": "Any interleaving of calls with any prefixes that do not end in a digit; C36_digit_prefix_refuted: with digit prefixes two calls can return the same name."
  },
  {
   "property": "C37",
   "status": "proved",
   "theorems": [
    "C37_truncate"
   ],
   "note": ""
  },
  {
   "property": "C38",
   "status": "proved",
   "theorems": [
    "C38_exact",
    "C38_exact_integers",
    "C38_ready",
    "C38_comparisons",
    "C38_is_exact",
    "C38_solver",
    "C38_abs_refuted",
    "C38_zero_refuted",
    "C38_zero_times_refuted"
   ],
   "note": "Integers and strings. C38_is_exact discharges the exactness law that C23/C24 assume of `is`, so C38_solver is C23 for programs with arithmetic. The _refuted theorems record modes in which the code is not exact (abs inverted at a negative number, 0 as neutral element of addition with strings, division by zero). Non-integer quotients and booleans as numbers are outside the model."
  },
  {
   "property": "C39",
   "status": "proved",
   "theorems": [
    "C39_interval",
    "C39_tight",
    "C39_sum",
    "C39_min_max",
    "C39_derivation",
    "C39_fold_unfold",
    "C39_conditions",
    "C39_min_size"
   ],
   "note": "Bounds are Python ints or z3 expressions; the theorems hold for every value of the z3 variables."
  },
  {
   "property": "C40",
   "status": "proved",
   "theorems": [
    "C40_condensation"
   ],
   "note": "roots = all nodes, the library's default"
  },
  {
   "property": "C41",
   "status": "proved",
   "theorems": [
    "C41_valid_once",
    "C41_fair",
    "C41_complete"
   ],
   "note": "Ground programs."
  },
  {
   "property": "C42",
   "status": "proved",
   "theorems": [
    "C42_slash",
    "C42_ends",
    "C42_self_overlap_refuted",
    "C42_input_functor_refuted",
    "C42_returns_refuted"
   ],
   "note": "Commutative semirings. Hypotheses (`slashable`): rules and inputs share no variables, no subgoal is a variable, positions select ordinary subgoals, no input has the functor of a head, and a head that overlaps with its own selected subgoal unifies with it as written. C42_self_overlap_refuted and C42_input_functor_refuted: without the last two, derivations are lost by the library. C42_returns_refuted: a program for which the call raises KeyError."
  },
  {
   "property": "C43",
   "status": "proved",
   "theorems": [
    "C43_lct",
    "C43_ends"
   ],
   "note": "As C42, for the left-corner transformation and any x (default: a variable)."
  },
  {
   "property": "C44",
   "status": "proved",
   "theorems": [
    "C44_safe",
    "C44_safe_transformations",
    "C44_safe_new_items",
    "C44_freshness",
    "C44_fuel",
    "C44_folds_by",
    "C44_safe_witness",
    "C44_unsafe_witness",
    "C44_missing_definitions_refuted",
    "C44_redefinition_refuted"
   ],
   "note": "Commutative semirings. Hypotheses (`regular`): no program has the same rule twice; every replaced subgoal is an item whose inlining loses no variable and which is not defined by definitions outside the history of defs; equal programs have the same definitions in their histories. C44_missing_definitions_refuted: a fold by definitions from another branch is judged safe although the result lacks them. C44_redefinition_refuted: when an item gets another definition after it was unfolded, programs before and after a fold are both judged safe but differ. C44_freshness: the check for conflicting definitions is exact."
  },
  {
   "property": "C45",
   "status": "proved",
   "theorems": [
    "C45_magic_templates",
    "C45_witness",
    "C45_defined_inputs_refuted"
   ],
   "note": "Includes the pruning at the end. Hypothesis: no rule defines an item that overlaps with a subgoal that overlaps with a declared input; C45_defined_inputs_refuted: without it an output is lost (the subgoal counts as exogenous and is never demanded, so that scc_solver(magic=True) would discard the item). Output declarations have constraints as bodies; no input uses the generated name."
  },
  {
   "property": "C46",
   "status": "proved",
   "theorems": [
    "C46_solution",
    "C46_least",
    "C46_returns",
    "C46_raises",
    "C46_witness",
    "C46_raises_witness",
    "C46_builtins_refuted"
   ],
   "note": "Commutative semirings; star x = 1 + x * star x, and for leastness an order for which star is least. C46_builtins_refuted: with builtins the claim fails in the library: for `a += 5 * (2 < 3)` the builtin is taken for an item without rules and a gets the value zero."
  },
  {
   "property": "C47",
   "status": "proved",
   "theorems": [
    "C47_below",
    "C47_solution",
    "C47_faster",
    "C47_returns",
    "C47_zero_rounds",
    "C47_witness",
    "C47_builtins_refuted"
   ],
   "note": "Commutative semirings with an antisymmetric order with least element zero and greatest differences (`newton_order`; the Booleans, the naturals with infinity). Comparison of charts is exact. C47_zero_rounds: newton(T=0) behaves like newton(T=None), the bound is never reached. C47_builtins_refuted: as C46."
  },
  {
   "property": "C48",
   "status": "proved",
   "theorems": [
    "C48_propagate",
    "C48_rewrites",
    "C48_covers",
    "C48_intersect",
    "C48_witness",
    "C48_ks_refuted",
    "C48_equation_refuted",
    "C48_equalities_refuted",
    "C48_fundep_refuted"
   ],
   "note": "For range-restricted propagation rules that derive no equalities, and constraints that share no variables with the rules; the evaluation of comparisons and `is` is a parameter (`chk_right`). The refutations show that the conditions are needed: constraints named ks or ws are always considered checked, so covers() answers wrongly for them; f(Z) = f(3) counts as contradictory; of two equalities for one variable one is forgotten; rules that derive equalities (functional dependencies) make the substitution recurse forever."
  },
  {
   "property": "C49",
   "status": "proved",
   "theorems": [
    "C49_types",
    "C49_data",
    "C49_witness",
    "C49_ks_refuted"
   ],
   "note": "For the default analysis (basic=True) whenever it returns. Type parameters are declared as whole relations n(X1,...,Xn) with names other than =, ks and ws; propagation rules as in C48, and builtin constraints compute numbers. C49_ks_refuted: with a type parameter named ks the analysis loses the type of items that the program derives."
  },
  {
   "property": "C50",
   "status": "proved",
   "theorems": [
    "C50_cyclic",
    "C50_expansive",
    "C50_split",
    "C50_split_never_dependent",
    "C50_witness",
    "C50_split_refuted",
    "C50_expansive_builtin_refuted"
   ],
   "note": "Whenever the coarse graph can be built (root() raises KeyError otherwise). The claim about split_input_dependent holds only for declared inputs that are ground and nodes of their own: C50_split_never_dependent shows that if every declared input has a variable, no rule at all is found to depend on the inputs (canonical nodes are compared with declarations as written), and C50_split_refuted gives a program whose only rule uses an input and is put into the input-independent part. C50_expansive_builtin_refuted: possibly_expansive raises KeyError on a program with a comparison."
  },
  {
   "property": "C51",
   "status": "proved",
   "theorems": [
    "C51_pruned",
    "C51_history",
    "C51_scc",
    "C51_same",
    "C51_order",
    "C51_fuel",
    "C51_witness",
    "C51_inputs_refuted"
   ],
   "note": "For magic=False and programs that linearize() leaves unchanged, without variables as subgoals; the solver is that of C23. Inputs are given by facts (inputs_given): C51_inputs_refuted shows that otherwise what only rules for inputs use is discarded, and an output loses its value. enough: the priority function returns (C51_fuel)."
  },
  {
   "property": "C52",
   "status": "proved",
   "theorems": [
    "C52_solution",
    "C52_infinite",
    "C52_run",
    "C52_ground",
    "C52_sound",
    "C52_support",
    "C52_items",
    "C52_witness",
    "C52_infinite_witness",
    "integral_finite",
    "C52_two_drivers_refuted"
   ],
   "note": "For programs that linearize() leaves unchanged, with exact comparison of values. The equation holds for ground items with finitely many derivation steps (C52_solution), and for all ground items with sums over infinite sets that count an infinite set as the multiplicity of infinity (C52_infinite; integral_finite says that these sums are the usual ones over finite sets), both under the condition that no item in the chart stands for two subgoals of one rule instance (automatic when all items are ground and subgoals differ: C52_ground). C52_two_drivers_refuted shows that this condition is needed: `f(X) += 3. goal += f(1)*f(2).` gives goal = 18 instead of 9, because the one item f(X) drives both subgoals after the chart was updated."
  },
  {
   "property": "C53",
   "status": "proved",
   "theorems": [
    "C53_specialize",
    "C53_specialize_estimate",
    "C53_specialize_any",
    "C53_dead",
    "C53_useful",
    "C53_prune",
    "C53_witness",
    "C53_prune_witness",
    "C53_overlap_refuted",
    "C53_value_variable_refuted"
   ],
   "note": "For programs without variables as subgoals. C53_prune puts the analysis (_run_basic, C49) and the specialisation together. Overlapping types: DisjointEstimate does not always return disjoint terms (C53_overlap_refuted: with the types f(X,a), f(b,c), f(d,Y) a derivation is counted twice). C53_value_variable_refuted: a variable used as a value is looked up among the items, and `total += f(X) * X` loses its derivations."
  },
  {
   "property": "C54",
   "status": "proved",
   "theorems": [
    "C54_normalize",
    "C54_normal_form",
    "C54_unchanged",
    "C54_idempotent",
    "C54_returns",
    "C54_snap",
    "C54_snap_returns",
    "C54_resolved",
    "C54_round_trip",
    "C54_determined",
    "C54_witness",
    "C54_local_refuted",
    "C54_value_variable_refuted"
   ],
   "note": "C54_determined gives a condition that is easy to check: the variables of the equations occur in the head or in other subgoals. Without it the claim is false (C54_local_refuted: `goal += (X = Y)` has infinitely many derivations and becomes `goal += 1`). C54_value_variable_refuted: normalising a rule with a variable as a subgoal raises ValueError."
  },
  {
   "property": "C55",
   "status": "proved",
   "theorems": [
    "C55_derivations",
    "C55_one",
    "C55_ground",
    "C55_fc",
    "C55_hom",
    "C55_fc_hom",
    "C55_fc_unlimited",
    "C55_solution",
    "C55_value",
    "C55_witness",
    "C55_value_variable_refuted"
   ],
   "note": "C55_derivations, C55_one and C55_fc hold for every lifting function, the others for homomorphisms. C55_fc_unlimited assumes that both evaluations return. C55_value is false for variables as subgoals (C55_value_variable_refuted: in `total += f(X) * X` the constant bound to X is not lifted)."
  },
  {
   "property": "C56",
   "status": "proved",
   "theorems": [
    "C56_sound",
    "C56_only",
    "C56_complete",
    "C56_ground_chart",
    "C56_ground",
    "C56_derivations",
    "C56_returns",
    "C56_returns_witness",
    "C56_witness",
    "C56_twice_refuted"
   ],
   "note": "C56_returns: the run always returns for bodies of ordinary items and constants; the other theorems are about any run that returns. A chart with the same item twice repeats the firing (C56_twice_refuted). The value that groundings() yields beside each rule is not modelled."
  },
  {
   "property": "C57",
   "status": "proved",
   "theorems": [
    "C57_value",
    "C57_done",
    "C57_round",
    "C57_determined",
    "C57_settled",
    "C57_settled_witness",
    "C57_witness",
    "C57_local_refuted"
   ],
   "note": "About runs that return, for rules whose constraints are determined; C57_determined and C57_settled give conditions on the text of a rule, and without one the claim is false (C57_local_refuted). An `is` with several answers, $free, $bound, $not_matches, rules with a comparison as head and variables as subgoals are not modelled."
  },
  {
   "property": "C58",
   "status": "proved",
   "theorems": [
    "C58_best",
    "C58_found",
    "C58_no_error",
    "C58_returns",
    "C58_fair",
    "C58_exhausted",
    "C58_greedy",
    "C58_invariant",
    "C58_witness"
   ],
   "note": "The moves (drive), the safety check (C44) and the degrees of a program are parameters: the theorems are about the search itself. C58_exhausted assumes that the moves from a state do not depend on when it is visited. The number of draws is the fuel."
  },
  {
   "property": "C59",
   "status": "proved",
   "theorems": [
    "C59_degree",
    "C59_degrees",
    "C59_product",
    "C59_eliminate",
    "C59_returns",
    "C59_witness"
   ],
   "note": "For rules whose variables are not bound; semiring values contain no variables."
  }
 ]
}