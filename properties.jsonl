{"id": "C01", "title": "unify finds a most general unifier exactly when one exists", "statement": "`for _ in unify(x, y): body` runs `body` exactly once if x and y have a unifier consistent with the bindings already in force, and not at all otherwise. While `body` runs, x and y denote the same term (`deref(x) == deref(y)`), and the bindings in force are the most general ones: every substitution that extends the earlier bindings and makes x and y equal is an instance of them.", "quantifier": "every acyclic store of variable bindings, every pair of terms x and y (any nesting, any sharing of variables), every loop body", "why_tests_cant": "Terms and binding stores are unboundedly many; soundness, completeness and generality are universally quantified statements over all substitutions.", "anchors": ["dyna/term.py: unify, unifyN, Var.occurs_check, Var.__eq__, unifies"]}
{"id": "C02", "title": "unify leaves no bindings behind, however the loop ends", "statement": "After a `for _ in unify(x, y)` loop ends, whether it runs to completion, is broken out of, or its body raises, every variable has the binding it had before the loop, provided the body itself leaves the bindings as it found them (e.g. consists of further unify loops).", "quantifier": "every store, terms x and y, every body and every way the body can end (normally, break, exception), arbitrarily nested", "why_tests_cant": "Exit paths compose through arbitrarily nested generators; a test observes finitely many of them.", "anchors": ["dyna/term.py: unify, unifyN"]}
{"id": "C03", "title": "unify terminates and never creates a cyclic binding", "statement": "Starting from acyclic bindings, unify(x, y) terminates, and the bindings in force while its body runs are again acyclic, so `deref`, `is_ground`, `term_vars` and `==` terminate on every term.", "quantifier": "every acyclic store and every pair of terms", "why_tests_cant": "Termination over all inputs is not testable.", "anchors": ["dyna/term.py: unify, Var.occurs_check, deref, snap, is_ground, term_vars"]}
{"id": "C04", "title": "Subst.mgu computes most general unifiers", "statement": "`s.mgu(x, y)` returns FAIL exactly when no substitution extending s unifies x and y; otherwise the result extends s, makes x and y equal when applied, and is most general; it always terminates with acyclic bindings.", "quantifier": "every acyclic substitution s and every pair of terms or tuples", "why_tests_cant": "Universally quantified over substitutions and terms.", "anchors": ["dyna/term.py: Subst.mgu, Subst.occur_check, Subst.__call__"]}
{"id": "C05", "title": "covers is subsumption for terms with separate variables", "statement": "If x and y share no variable, `covers(x, y)` is true iff y is an instance of x, and then the computed substitution maps x to y.", "quantifier": "every pair of variable-disjoint terms", "why_tests_cant": "Both directions quantify over all substitutions.", "anchors": ["dyna/term.py: Subst.cover, covers"]}
{"id": "C06", "title": "same and canonicalize agree: canonicalize(x) == canonicalize(y) iff x and y are variants", "statement": "`canonicalize(x) == canonicalize(y)` iff x and y are equal up to a bijective renaming of variables; when they share no variable this is also equivalent to `same(x, y)`. canonicalize(x) is itself a variant of x and canonicalize is idempotent.", "quantifier": "every pair of terms", "why_tests_cant": "Quantifies over all terms and renamings.", "anchors": ["dyna/term.py: canonicalize, _canonicalize, _canonicalize_var, same"]}
{"id": "C07", "title": "same and covers are not sound on terms that share variables (known limitation)", "statement": "The docstring claim `canonicalize(x) == canonicalize(y) <=> same(x,y)` fails when x and y share variables: there are terms with same(x,y) and different canonical forms, and terms y that are instances of x with covers(x,y) false.", "quantifier": "existence of counterexample terms", "why_tests_cant": "The suite only tries renamed-apart terms; the claim is about all terms.", "anchors": ["dyna/term.py: Subst.cover, same, canonicalize"]}
{"id": "C08", "title": "fresh renames apart and changes nothing else", "statement": "`fresh(x)` is x (with bound variables replaced by their values) with its free variables renamed one-to-one to variables that did not exist before; in particular it is a variant of x, shares no free variable with any earlier term, and contains no bound variable.", "quantifier": "every term, store and set of existing variables", "why_tests_cant": "Quantifies over all terms and all existing variables.", "anchors": ["dyna/term.py: Fresh, fresh, Term.fresh"]}
{"id": "C09", "title": "deref, snap, is_ground, term_vars agree with the binding semantics", "statement": "For every term: deref(x) contains no bound variable, denotes the same term as x, and is idempotent; is_ground(x) iff deref(x) has no variables; term_vars(x) lists exactly the variables of deref(x), each once, in order of first occurrence; x == y iff deref(x) and deref(y) are identical.", "quantifier": "every acyclic store and every term", "why_tests_cant": "Universal over stores and terms.", "anchors": ["dyna/term.py: deref, snap, is_ground, term_vars, Var.__eq__, Term.__eq__"]}
{"id": "C10", "title": "MostGeneralSet keeps an antichain that covers everything added", "statement": "After any sequence of `add` calls, no element of the set covers another, every element ever added is covered by an element of the set, every element of the set is a renamed copy of an added element, and `find(x)` fails only if nothing in the set covers x.", "quantifier": "every history of add operations over arbitrary terms", "why_tests_cant": "Histories are unbounded.", "anchors": ["dyna/term.py: MostGeneralSet.add, MostGeneralSet.find"]}
{"id": "C11", "title": "NoDupsSet keeps one representative per variant class", "statement": "After any sequence of `add` calls, no two stored elements are `same`, every added element is `same` as exactly one stored element, and `add` returns True iff a stored element was already `same`.", "quantifier": "every history of add operations and every equivalence `same`", "why_tests_cant": "Histories are unbounded.", "anchors": ["dyna/term.py: NoDupsSet.add, NoDupsSet.find"]}
{"id": "C12", "title": "DisjointEstimate is an upper bound on everything added", "statement": "After any sequence of `add` calls every ground instance of every added term is an instance of some stored term.", "quantifier": "every history of add operations over arbitrary terms", "why_tests_cant": "Histories are unbounded.", "anchors": ["dyna/term.py: DisjointEstimate.add, generalizer"]}
{"id": "C13", "title": "DisjointEstimate does not always stay disjoint (known limitation)", "statement": "There is a sequence of add calls after which two stored patterns overlap, so `find` raises 'did not find a unique type' on a term that was covered.", "quantifier": "existence of a history", "why_tests_cant": "A search for a failing history is not exhaustive; the claim in the docstring is universal.", "anchors": ["dyna/term.py: DisjointEstimate.add, find"]}
{"id": "C14", "title": "rule equality is equality up to renaming and reordering", "statement": "`r.same(s)` holds iff there is a bijective renaming of variables and a permutation of subgoals that turns r into s provided no subgoal is a bare variable and the hashes of rules with bodies of different lengths do not collide; it is sound for every rule, with shared variables allowed; hence it is an equivalence relation.", "quantifier": "every pair of rules with any number of subgoals", "why_tests_cant": "Quantifies over renamings and permutations.", "anchors": ["dyna/rule.py: Rule.same", "dyna/term.py: Product.match_comm"]}
{"id": "C15", "title": "program equality finds a one-to-one alignment of rules", "statement": "`p == q` is true only if there is a bijection between the rules of p and q that pairs `same` rules, and is true whenever such a bijection exists.", "quantifier": "every pair of programs with any number of rules", "why_tests_cant": "Greedy matching must be right for all orders and multiplicities.", "anchors": ["dyna/program.py: Program.__eq__, _bucket_equal, _check_bucket, align"]}
{"id": "C16", "title": "subgoal matching enumerates exactly the one-to-one matchings", "statement": "`xs.covers(ys)` yields (theta, alignment, rest) exactly for each injective assignment of the subgoals of xs to positions of ys such that theta maps each subgoal of xs to the subgoal it is assigned to; rest is exactly the unassigned positions.", "quantifier": "every pair of subgoal lists", "why_tests_cant": "Backtracking search over all injections.", "anchors": ["dyna/term.py: Product.covers, _covers"]}
{"id": "C17", "title": "the bucket agenda always pops an item of least priority", "statement": "After any sequence of assignments and deletions, popitem returns an item of the agenda together with its current priority, no item in the agenda has a smaller priority, and exactly that item is removed; iteration visits each item once in nondecreasing priority; popping terminates.", "quantifier": "every sequence of __setitem__, __delitem__ and popitem calls, with arbitrary integer priorities and reprioritisation", "why_tests_cant": "Operation histories are unbounded.", "anchors": ["dyna/util/bucket_queue.py: BucketQueue"]}
{"id": "C18", "title": "Kleene closure solves the matrix fixpoint equation", "statement": "For every square matrix A over a semiring with star satisfying star(x) = 1 + x*star(x), `kleene(A)` returns B with B = I + A*B (reflexive) resp. B = A + A*B (non reflexive).", "quantifier": "every matrix size, every matrix, every semiring satisfying the law", "why_tests_cant": "All sizes and semirings.", "anchors": ["dyna/execute/linear.py: kleene, kleene_linsolve"]}
{"id": "C19", "title": "transitive closure is reachability", "statement": "The transitive closure of a graph has an edge i->j exactly when there is a nonempty path (any path if reflexive) from i to j.", "quantifier": "every finite graph", "why_tests_cant": "All graphs and path lengths.", "anchors": ["dyna/util/graphs.py: Graph.transitive_closure", "dyna/execute/linear.py: kleene"]}
{"id": "C20", "title": "tarjan yields the strongly connected components in reverse topological order", "statement": "The components yielded by tarjan(successors, roots) are pairwise disjoint, together contain exactly the nodes reachable from the roots, two reachable nodes are in the same component iff each can reach the other, and every edge leads to the same or an earlier component.", "quantifier": "every finite successor relation and list of roots", "why_tests_cant": "All graphs.", "anchors": ["dyna/util/graphs.py: tarjan"]}
{"id": "C21", "title": "hypergraph reachability keeps every useful node and nothing underivable", "statement": "reachability(inputs, outputs) contains every node that occurs in any derivation of an output from the inputs, and contains only outputs and nodes that can themselves be derived from the inputs and from which some output can be reached along hyperedges; it terminates for every order of agenda pops.", "quantifier": "every finite hypergraph, inputs and outputs", "why_tests_cant": "All hypergraphs.", "anchors": ["dyna/util/graphs.py: Hypergraph.reachability", "dyna/analyze/dead.py: prune_very_fast, prune_fast"]}
{"id": "C22", "title": "pruning preserves every derivation of an output", "statement": "Every derivation of an output item from the inputs in the original program uses only rules that survive prune_fast/prune_very_fast, so the value of every output is unchanged.", "quantifier": "every program and every derivation of an output item", "why_tests_cant": "Derivations are unboundedly many.", "anchors": ["dyna/analyze/dead.py: prune_fast, prune_very_fast", "dyna/util/graphs.py: Hypergraph.reachability"]}
{"id": "C23", "title": "the agenda solver stops only at a solution of the program's equations", "statement": "For every semiring in which addition is exact, whenever the forward-chaining solver's agenda runs empty, the chart satisfies every equation of the program: chart[x] is the sum over all ground rule instances with head x of the product of the chart values of the subgoals. This holds for every order in which the agenda is popped, including rules in which the same item is used more than once.", "quantifier": "every program, semiring, and pop schedule", "why_tests_cant": "Schedules and programs are unbounded.", "anchors": ["dyna/execute/solver.py: Solver._forward_chaining, update, drive_rules", "dyna/execute/base.py: BaseSolver.__call__, init_rule"]}
{"id": "C24", "title": "agenda pop order does not matter for the converged chart's equations and adding data later is the same as adding it first", "statement": "Running the solver, loading more data, and running it again ends (if it ends) in a chart that satisfies the equations of the program with all the data.", "quantifier": "every interleaving of data loading and solver runs", "why_tests_cant": "Interleavings are unbounded.", "anchors": ["dyna/execute/base.py: __call__, load_data, init_rule", "dyna/execute/solver.py"]}
{"id": "C25", "title": "chart lookups through indexes return exactly the matching items", "statement": "After any interleaving of chart writes and queries with arbitrary bound/free patterns, a lookup returns exactly the items in the chart that match the query with their current values, each once, whichever indexes were built and when.", "quantifier": "every history of writes and lookups with every binding pattern", "why_tests_cant": "Histories are unbounded.", "anchors": ["dyna/execute/solver.py: Chart, query_mode"]}
{"id": "C26", "title": "k rounds of naive evaluation sum the derivations of height at most k", "statement": "For a ground program, after k applications of `step` to the empty chart, the value of each item is the semiring sum of the values of all its derivations of height at most k.", "quantifier": "every ground program, semiring, number of rounds", "why_tests_cant": "All programs and k.", "anchors": ["dyna/program.py: step, fc", "dyna/derivations.py: naive, step_derivations, Derivation.value"]}
{"id": "C27", "title": "semi-naive evaluation equals naive evaluation", "statement": "After the same number of rounds, `seminaive` has the same chart as naive forward chaining, and its change is the total value of the derivations of exactly the next height; each derivation is enumerated once.", "quantifier": "every ground program, semiring, number of rounds", "why_tests_cant": "All programs and k.", "anchors": ["dyna/program.py: seminaive, seminaive_update", "dyna/derivations.py: seminaive"]}
{"id": "C28", "title": "agenda evaluation of programs maintains old + change = consequence", "statement": "Throughout Program.agenda (with exact precision) the processed values plus the pending changes equal one application of the consequence operator to the processed values; so if it stops, the result is a fixpoint of `step`.", "quantifier": "every ground program, semiring, number of iterations", "why_tests_cant": "All programs and iteration counts.", "anchors": ["dyna/program.py: agenda"]}
{"id": "C29", "title": "unfolding preserves derivations and values", "statement": "For every program p, rule i and subgoal j, the derivations of p.unfold(i, j) are in one-to-one correspondence with those of p, with the same root item and the same value, so every item keeps its value.", "quantifier": "every program, rule index and subgoal index", "why_tests_cant": "Derivations are unboundedly many.", "anchors": ["dyna/transform/unfold.py: Unfold, transform, untransform"]}
{"id": "C30", "title": "rule elimination preserves derivations and values", "statement": "For every linear rule elimination accepted by the library, derivations of the original program that do not have the eliminated item at the root correspond one-to-one, with the same root and value, to derivations of the new program.", "quantifier": "every program and eliminated rule for which the transformation is accepted", "why_tests_cant": "Derivations are unboundedly many.", "anchors": ["dyna/transform/rule_elimination.py: LinearRuleElimination"]}
{"id": "C31", "title": "hook/fold introduces a definition without changing any value", "statement": "hook(i, js) replaces the subgoals js of rule i by a call to a fresh definition; every item of the original program keeps its derivations (one-to-one, same value).", "quantifier": "every program, rule index, and set of subgoal indices", "why_tests_cant": "Derivations are unboundedly many.", "anchors": ["dyna/program.py: hook, loop_absorption, binarize, define", "dyna/transform/fold.py: Fold"]}
{"id": "C32", "title": "linearize makes overlapping subgoals distinct and preserves values", "statement": "linearize() returns a program with the same value for every original item, in which no rule has two unifiable non-builtin subgoals among those it split.", "quantifier": "every program", "why_tests_cant": "All programs and derivations.", "anchors": ["dyna/program.py: linearize"]}
{"id": "C33", "title": "incremental update with constant folding preserves the meaning of the program", "statement": "Any sequence of `update`/`append` calls on a program yields a program whose rules have the same total right-hand side for each head as the plain list of added rules: constants are multiplied together, constant rules with the same head are merged by addition, zero rules are dropped.", "quantifier": "every sequence of update calls", "why_tests_cant": "Histories are unbounded.", "anchors": ["dyna/program.py: update, _update_bucket, _make_buckets, constant_folding_rhs, pop, _invalidate_caches"]}
{"id": "C34", "title": "constant_folding preserves the meaning of the program", "statement": "constant_folding() merges rules with the same skeleton (head and symbolic body up to renaming and reordering) by adding coefficients; for every interpretation of the subgoals the total contribution to each item is unchanged.", "quantifier": "every program and interpretation", "why_tests_cant": "All programs.", "anchors": ["dyna/program.py: ConstantFolded, constant_folding_rhs"]}
{"id": "C35", "title": "rule lookup through the functor index returns exactly the rules whose head unifies", "statement": "`lookup(q)` for an ordinary subgoal yields exactly the rules whose (renamed) head unifies with q, after any history of appends, updates and pops.", "quantifier": "every history of program edits and every query", "why_tests_cant": "Histories are unbounded.", "anchors": ["dyna/program.py: lookup, f2r, _add_rule, pop"]}
{"id": "C36", "title": "generated names are new", "statement": "Names produced by gen_functor/gen are pairwise distinct between resets, and the program-local generator returns a functor not used in the program and terminates.", "quantifier": "every sequence of generator calls, every program and prefix", "why_tests_cant": "Unbounded sequences.", "anchors": ["dyna/term.py: gen_functor, gen", "dyna/program.py: _gen_functor"]}
{"id": "C37", "title": "truncation over-approximates", "statement": "truncate_term(x, D) has depth at most D and covers x.", "quantifier": "every term and every depth bound", "why_tests_cant": "All terms.", "anchors": ["dyna/analyze/types.py: truncate_term"]}
{"id": "C38", "title": "integer builtins compute exactly the solutions of the equation", "statement": "When an `is` subgoal over integers (+, -, *, neg, comparison, range) is ready and evaluated, the bindings it yields are exactly the solutions for the unbound argument.", "quantifier": "all integers and all binding patterns declared ready", "why_tests_cant": "All integers.", "anchors": ["dyna/builtin.py: Builtins._dispatch, cmps"]}
{"id": "C39", "title": "interval measures are sound", "statement": "The interval arithmetic used by the fold safety check is sound: sums, differences, minima and maxima of values lying in the intervals lie in the computed interval.", "quantifier": "all intervals and values", "why_tests_cant": "All numeric values.", "anchors": ["dyna/transform/measure.py: Interval"]}
{"id": "C40", "title": "graph condensation is acyclic", "statement": "The condensation of a graph has the strongly connected components as nodes, an edge between two different components iff some edge crosses between them, and no cycle.", "quantifier": "every finite graph", "why_tests_cant": "All graphs.", "anchors": ["dyna/util/graphs.py: Graph.condensation, tarjan"]}
{"id": "C41", "title": "agenda enumeration of derivations is sound, duplicate-free, fair and complete", "statement": "For a ground program, the generator of derivations that works off an agenda yields only derivations of the program, none twice; every derivation is yielded after finitely many rounds; and if the agenda runs empty, all derivations have been yielded.", "quantifier": "every ground program, number of rounds, derivation", "why_tests_cant": "Derivations are unboundedly many; fairness is about infinite runs.", "anchors": ["dyna/derivations.py: agenda, step_derivations, Derivations"]}
{"id": "C42", "title": "the slash (speculation) transformation keeps the meaning of the program", "statement": "The derivations of all items other than the new ones (X/Y, $other(X)) in the program that slash(x, positions) returns correspond one-to-one to those in the original program, with the same root and the same value. The call ends; it fails only when x partly overlaps with a selected subgoal or when the coarse graph cannot be built.", "quantifier": "every program, slashed item, choice of positions, set of inputs, every derivation and every commutative semiring", "why_tests_cant": "Derivations are unbounded trees, and programs, positions and semirings are arbitrary.", "anchors": ["dyna/transform/slash.py: Slash", "dyna/program.py: slash, is_exogenous", "dyna/analyze/coarse_graph.py: CoarseGraph", "dyna/builtin.py: not_matches3"]}
{"id": "C43", "title": "the left-corner transformation keeps the meaning of the program", "statement": "The derivations of all items other than the new ones in the program that lct(positions, x) returns correspond one-to-one to those in the original program, with the same root and the same value; with the default x the call fails only when the coarse graph cannot be built.", "quantifier": "every program, choice of positions, set of inputs, every derivation and every commutative semiring", "why_tests_cant": "Derivations are unbounded trees, and programs, positions and semirings are arbitrary.", "anchors": ["dyna/transform/lct.py: LCT", "dyna/program.py: lct"]}
{"id": "C44", "title": "a sequence of unfolds, folds and definitions that is judged safe keeps the meaning of the program", "statement": "Starting from a program, apply any number of define, unfold(i, j, defs) and fold(r, S, defs) to any of the programs obtained so far. If safe_by_smt or safe_by_unit holds for one of them, then its derivations (together with definitions outside its history) correspond one-to-one, with the same root and the same value, to those of the first program together with all definitions; items that are not newly defined thus keep all their derivations.", "quantifier": "every program, every finite sequence of the three operations with any arguments, every order in which safety is asked, symbolic and unit measures, every sound solver, every derivation and commutative semiring", "why_tests_cant": "Sequences, programs and derivations are unbounded; an unsafe fold shows only in derivations of unbounded depth.", "anchors": ["dyna/transform/measure.py: Measure, make_smt_measure, measure_safety", "dyna/transform/unfold.py: Unfold.compute_measure", "dyna/transform/fold.py: Fold.compute_measure", "dyna/program.py: Define, lineage, safe_by_smt, safe_by_unit", "dyna/rule.py: folds_by"]}
{"id": "C45", "title": "magic templates keep everything an output needs and derive nothing new", "statement": "Every item in a derivation of an output item has a derivation in the program that magic_templates() returns; every item of the original program derived there is derivable in the original; and an item is demanded there only if it is an output or a subgoal of a rule for a demanded item whose earlier subgoals are derivable. The call fails only if the dependency graph is ambiguous or the generated name is taken.", "quantifier": "every program with declared inputs (that no rule defines) and outputs, every set of input items and builtin facts, every derivation", "why_tests_cant": "Derivations are unbounded trees, and the program, data and reordering of subgoals are arbitrary; a missing demand rule shows only on data that needs it.", "anchors": ["dyna/program.py: magic_templates, scc_solver, is_exogenous", "dyna/analyze/coarse_graph.py: CoarseGraph", "dyna/analyze/dead.py: prune_fast"]}
{"id": "C46", "title": "solve_linear() gives the least solution of a linear program, and refuses other programs", "statement": "On a ground program without builtins, the chart that solve_linear() returns satisfies the program's equations, and no other values that satisfy them (or lie above their right-hand sides) are smaller. It returns whenever no rule whose items all have a derivation has two of them, even if derivations are infinitely many; otherwise it raises an AssertionError and never returns a wrong chart.", "quantifier": "every ground program, every commutative semiring with a star, every order for which star is least", "why_tests_cant": "Programs are unbounded in size, recursive ones have infinitely many derivations, and the semiring is arbitrary.", "anchors": ["dyna/program.py: solve_linear, booleanize", "dyna/execute/linear.py: Linear, linsolve, kleene"]}
{"id": "C47", "title": "newton() never overshoots, is at least as far as naive evaluation, and stops only at the least solution", "statement": "On a ground program without builtins, whatever newton() returns lies below every solution of the equations; after T rounds it is at least the result of T rounds of naive evaluation; and if it stops by itself its result is the least solution. Every round ends, so that newton(T) returns for T >= 1.", "quantifier": "every ground program, every number of rounds, every commutative semiring with star and differences", "why_tests_cant": "The number of rounds, the size of the program and the semiring are unbounded; an error in the linearization shows only in some rounds of some programs.", "anchors": ["dyna/program.py: newton, _newton, solve_linear", "dyna/execute/linear.py: Linear"]}
{"id": "C48", "title": "Constraint propagation and the simplification, comparison and intersection of types lose no solutions", "statement": "Every assignment that satisfies the given constraints satisfies everything that ConstraintPropagation derives from them, and it answers 'contradiction' only if no assignment satisfies them. Rewrites(rules)(t) has exactly the ground instances of the type t. covers(r, s) returns True only if every ground instance of s is one of r; intersect(r, s) returns None only if r and s have no common instance, and otherwise has all of them.", "quantifier": "every set of constraints and propagation rules, every interpretation of the constraints that satisfies the rules, every order of the agenda and of sets", "why_tests_cant": "Rules can derive unboundedly many constraints, the order is that of Python sets, and an unsound step shows only for some interpretation and some assignment.", "anchors": ["dyna/propagate.py: Chart, ConstraintPropagation", "dyna/analyze/rewrites.py: Rewrites.__call__, intersect, covers"]}
{"id": "C49", "title": "The type analysis covers every item that the program can derive", "statement": "If every input fact is an instance of a declared input type, then every item that the program derives from the facts is an instance of one of the types that TypeAnalyzer returns, for every interpretation of the type parameters that satisfies the propagation rules. Truncating deep terms, dropping local constraints and removing redundant types lose nothing.", "quantifier": "every program, input types, propagation rules, data and interpretation of the type parameters, every depth limit, with and without insts", "why_tests_cant": "Data and derivations are unbounded and the types stand for infinitely many items; a type that is lost matters only for data that reaches it.", "anchors": ["dyna/analyze/types.py: TypeAnalyzer, to_type_program, add_free_constraints, _run_basic, _relax, truncate_term", "dyna/analyze/rewrites.py: covers, dedup", "dyna/term.py: MostGeneralSet"]}
{"id": "C50", "title": "The coarse-grained analyses of cyclicity and expansiveness are safe", "statement": "If possibly_cyclic() answers False, no ground item depends on itself and every chain of dependencies is at most as long as the coarse graph has nodes. If possibly_expansive() answers False, no item can be expanded by rules into two copies of itself. split_input_dependent() divides the rules so that nothing the first part can use is an input.", "quantifier": "every program and input declarations for which the coarse graph can be built, every ground instance of its rules, every chain and expansion", "why_tests_cant": "A program stands for infinitely many ground items and dependency chains are unbounded; a missed cycle shows only for some data.", "anchors": ["dyna/analyze/coarse_graph.py: CoarseGraph.__init__, possibly_cyclic, possibly_expansive, split_input_dependent", "dyna/term.py: DisjointEstimate.root", "dyna/util/graphs.py: transitive_closure"]}
{"id": "C51", "title": "scc_solver computes everything the outputs need, and little else", "statement": "When scc_solver ends, the value of every item that an output declaration asks for, and of every item that those depend on through rule instances that fire, satisfies the program's equations; on a program without cycles these values are those of the ordinary solver. The chart has no underivable item, and every item in it is needed by the outputs or is an input. A subgoal never has a later priority than the head it feeds. More generally a solver whose priority function discards some items satisfies the equations of all others.", "quantifier": "every program, data and output declarations, every order of the two agendas, every set of discarded items, every history of loading data and running", "why_tests_cant": "The set of needed items is found by a first pass over unbounded data, and an item that is discarded by mistake shows only as a wrong value of some output for some data.", "anchors": ["dyna/program.py: Program.scc_solver, booleanize, lookup, is_exogenous", "dyna/execute/solver.py: Solver.update (priority)", "dyna/util/graphs.py: tarjan"]}
{"id": "C52", "title": "The solver for items with variables computes the program's solution", "statement": "When a run of the solver for programs with non-ground items ends, after any history of loading data and running, the chart has an item for exactly the ground items that can be derived, no two of its items are equal up to names of variables, and the value it gives to a ground item (the values of all items that stand for it, added up) satisfies the program's equation, with the multiplicity of infinity for variables that occur in the body only.", "quantifier": "every program with item heads, semiring, data, order of the agenda, history of loads and runs, and every ground item", "why_tests_cant": "An item with variables stands for infinitely many ground items and joins may bind variables in any order; a wrong multiplicity or a lost or repeated update shows only for some combination of items and order.", "anchors": ["dyna/execute/solver2.py: Solver", "dyna/execute/base.py: BaseSolver, run_rule, join, load", "dyna/program.py: Program.multiple, linearize"]}
{"id": "C53", "title": "Fine-grained pruning keeps every derivation of every output", "statement": "Pruning by types (usefulness analysis, then specialisation of the rules to the types found, or removal of the rules that match no combination of types) gives a program whose outputs have the same derivations with the same values: removing dead rules keeps them one to one; specialising to types keeps them one to one when the types are disjoint, and neither loses nor invents a derivation (but may repeat some) when they overlap. The types found by the usefulness analysis stand for every item used by an output, for every database that the input type allows.", "quantifier": "every program without value variables, set of types, output declarations and leaves (input data, constants, true builtins), every derivation of an output, every semiring", "why_tests_cant": "The derivations of a program are infinitely many and the data is not known when the program is pruned; a dropped or repeated copy of a rule shows only for data that needs it.", "anchors": ["dyna/analyze/dead.py: _prune_specialize, _prune_dead, prune_bottom_up, prune", "dyna/program.py: Program.usefulness_analysis, _useful, join, lookup", "dyna/term.py: DisjointEstimate"]}
{"id": "C54", "title": "Unfolding nested terms into equations, and resolving equations, keeps the value of every item", "statement": "Program.normalize_unification2 returns a program in which every subgoal is a call with variables only or a shallow equation, every item has the same value as before, and normalising again changes nothing. Program.snap_unifications, its dual, removes the equations by unification and keeps the value of every item, provided the head and the other subgoals determine the variables of the equations; composing the two gives back an equivalent program.", "quantifier": "every program without variables as heads or subgoals (normalising) or with determined equations (snapping), every valuation of the other subgoals, every item, every commutative semiring", "why_tests_cant": "A nested term may have any shape and depth, and the number of ground instances of a rule is not bounded: a lost, repeated or captured variable changes only the values of some items.", "anchors": ["dyna/program.py: Program.normalize_unification2, Program.snap_unifications", "dyna/term.py: Product.snap_unifications"]}
{"id": "C55", "title": "Lifting a program into another semiring changes only the constants", "statement": "Program.lift_semiring returns a program with the same derivations as the original one. Bottom-up evaluation of it gives every item the sum, over the derivations of the original program, of the products of the lifted constants. If the lifting is a homomorphism of semirings, evaluating the lifted program is the same as evaluating the original one and mapping every value, with or without a limit on the rounds, and also for rules with variables.", "quantifier": "every ground program (derivations, evaluation) or program without variables as subgoals (values), every lifting function, every pair of commutative semirings, every item and number of rounds", "why_tests_cant": "Programs, semirings and lifting functions are not bounded; a lifted builtin, a constant that is skipped or lifted twice shows only in the values of some semirings.", "anchors": ["dyna/program.py: Program.lift_semiring", "dyna/rule.py: Rule.lift, is_const"]}
{"id": "C56", "title": "Instantiating a program against a chart gives exactly the rule firings", "statement": "Program.groundings(chart) yields, for each rule, exactly the instances of the rule whose items are in the chart and whose constraints hold, each once if the chart has no item twice. Against a ground chart the firings of a range-restricted rule without builtins are ground. If the chart has every item that the derivations of the outputs use, Program.instantiate(chart) keeps these derivations and their values.", "quantifier": "every program without variables as heads or subgoals, every chart (also with variables), every ground instance of every rule, every semiring", "why_tests_cant": "The number of instances and the size of the chart are not bounded; a missed or repeated firing changes only some values.", "anchors": ["dyna/program.py: Program.groundings, Program.instantiate, Program.__getitem__, Program.lookup"]}
{"id": "C57", "title": "Running the builtins of a program keeps the value of every item", "statement": "Program.run_builtins() evaluates the comparisons, equations and `is` constraints in the bodies of the rules, drops those that are true, drops rules with a false one, and keeps those that are not ready. Every item keeps its value, for every valuation of the other subgoals in which a constraint is worth one if it is true and zero if not. When it is done, no equation and no ground comparison is left in a body.", "quantifier": "every program whose heads and subgoals are no variables and whose true constraints are determined by the head and the other subgoals, every number of rounds, every valuation of the subgoals, every commutative semiring", "why_tests_cant": "The rounds go on until the program does not change; an error in one round, for one order of the constraints, changes the values of infinitely many items.", "anchors": ["dyna/program.py: Program.run_builtins, Program._run_builtins, Program.lookup_vals, Program.lookup, Program.append", "dyna/builtin.py: is_builtin, Builtins"]}
{"id": "C58", "title": "The program search returns the best program it has found, checks each, fails never and is fair", "statement": "AgendaBasedSearch(p).run(steps) visits programs found from p by its moves. Whatever the random draws: each visited program passed the safety check and was found by moves from programs that passed it; no state is visited twice; the search raises no exception of its own; optimize_plans() is p or a visited program, and neither p nor any visited program has lower degrees. A greedy draw takes a program of least priority. Once more than i draws have taken the oldest state, the i-th state pushed has been visited (unless it fails the check), and a search that stops early has visited everything that can be found.", "quantifier": "every move generator, every safety check and cost, every sequence of random draws, every number of steps, every way to break ties in the priority queue", "why_tests_cant": "The draws are random and the space of programs is infinite: a test follows one path; starvation and a lost best program show only on some paths.", "anchors": ["dyna/search/search.py: AgendaBasedSearch.run, AgendaBasedSearch.run_agenda, AgendaBasedSearch.optimize_plans, Agenda", "dyna/program.py: CostDegrees, Program.degrees"]}
{"id": "C59", "title": "The degree of a rule is the exponent of the number of its instances", "statement": "If rule.analyzer.degree is k, then over any domain of d terms the rule has exactly d**k ground instances. Program.degrees() lists the degrees of its rules, largest first, and the degrees of two programs together are the product of their costs. analyzer.can_elim are the variables that are not in the head and that some subgoal with variables does not use.", "quantifier": "every rule and program, every finite domain, every semiring", "why_tests_cant": "The claim is about all domain sizes; tests count for one.", "anchors": ["dyna/rule.py: RuleAnalyzer_, Rule.analyzer", "dyna/program.py: Program.degrees, CostDegrees"]}
