{"id": "C01", "title": "A sat answer comes with a satisfying assignment", "statement": "If Solver::check() on a purely propositional clause set returns sat, then every variable is assigned in trail().model<bool>() and every clause that was asserted has a literal that is true in that model.", "quantifier": "every number of variables, every list of non-empty asserted clauses (duplicate literals and tautologies allowed), every variable order that returns an unassigned variable while one exists, every restart policy, every phase option", "why_tests_cant": "sat_solver re-checks the model of one run; the property is about all clause sets and all decision/restart schedules.", "anchors": ["src/Solver.cpp: Solver::check, Solver::backtrack_with, Solver::restart", "src/bool/Bool_theory.cpp: Bool_theory::propagate, falsified, replace_second_watch", "src/Trail.h: Trail"]}
{"id": "C02", "title": "An unsat answer is right", "statement": "If Solver::check() on a purely propositional clause set returns unsat, no assignment of the variables satisfies all asserted clauses.", "quantifier": "every clause set, variable order, restart policy and phase, every length of run", "why_tests_cant": "An unsat answer has no witness that a test can check; exhaustive comparison is only possible for a handful of variables.", "anchors": ["src/Solver.cpp: Solver::check, analyze_conflicts, learn", "src/Conflict_analysis.cpp", "src/Subsumption.cpp: Subsumption::minimize, remove_subsumed"]}
{"id": "C03", "title": "check() terminates", "statement": "Solver::check() on a propositional clause set with non-empty clauses returns after finitely many steps.", "quantifier": "every clause set, every (even adversarial) sequence of picks, phases and restart decisions", "why_tests_cant": "A test can only observe that some runs end; non-termination needs an infinite schedule (e.g. restarts at every conflict combined with clause deletion).", "anchors": ["src/Solver.cpp: Solver::check", "src/Restart.h", "src/Subsumption.cpp: on_restart"]}
{"id": "C04", "title": "check() performs no undefined behaviour on legal input", "statement": "During Solver::check() on clauses that are non-empty and mention only existing variables, no out-of-range clause position, no out-of-range watch index, no dereference of an absent decision level and no failing internal assertion is reached; an empty asserted clause does reach an out-of-range access.", "quantifier": "every legal clause set and every schedule", "why_tests_cant": "Sanitised tests cover only the executed paths.", "anchors": ["src/bool/Bool_theory.cpp: initialize, falsified, replace_second_watch", "src/Conflict_analysis.cpp: init, finish", "src/Solver.cpp: is_semantic_split, backtrack_with"]}
{"id": "C05", "title": "Learned clauses are consequences of the input", "statement": "At every moment of check(), every clause in db().learned() is satisfied by every assignment that satisfies the asserted clauses.", "quantifier": "every clause set, every schedule, every moment of the run", "why_tests_cant": "Entailment is a statement about all assignments.", "anchors": ["src/Solver.cpp: learn", "src/Conflict_analysis.cpp: resolve", "src/Subsumption.cpp: minimize"]}
{"id": "C06", "title": "Asserted clauses are never lost or altered", "statement": "check() never adds, removes or replaces an asserted clause; it only permutes literals inside a clause, so db().asserted() keeps its length and each clause keeps its multiset of literals.", "quantifier": "every clause set and every schedule", "why_tests_cant": "In-place literal swaps happen along data-dependent paths.", "anchors": ["src/bool/Bool_theory.cpp: falsified, replace_second_watch", "src/Subsumption.cpp: remove_subsumed"]}
{"id": "C07", "title": "Propagation is exhaustive", "statement": "When boolean propagation returns no conflict, no clause of the database is false, and every clause without repeated literals whose literals are all false but one has its remaining literal true.", "quantifier": "every database and every trail reachable by propagate/decide/backtrack/restart", "why_tests_cant": "Missed propagations depend on the history of the lazily updated watch lists.", "anchors": ["src/bool/Bool_theory.cpp: propagate, falsified, initialize, on_learned_clause"]}
{"id": "C08", "title": "Propagation conflicts are real", "statement": "A conflict returned by boolean propagation is (up to literal order) a clause of the database and all its literals are false in the current model.", "quantifier": "every reachable database and trail", "why_tests_cant": "Depends on the history of watch lists.", "anchors": ["src/bool/Bool_theory.cpp: falsified"]}
{"id": "C09", "title": "Propagated values are implied", "statement": "Every variable on the trail that carries a reason clause has, in that clause, a literal which is true while all other literals are false and were assigned earlier; the value is therefore implied by the database and the earlier assignments.", "quantifier": "every reachable trail", "why_tests_cant": "Reasons are pointers to clauses whose literals keep being permuted.", "anchors": ["src/bool/Bool_theory.cpp: propagate", "src/Trail.h: propagate, reason"]}
{"id": "C10", "title": "Conflict analysis derives a clause that justifies the backjump", "statement": "Conflict_analysis::analyze on a clause false in the trail returns a clause that is implied by the conflict clause and the reason clauses on the trail, is false in the trail, is sorted by decreasing decision level, and - unless it is a semantic split - has exactly one literal above the returned level.", "quantifier": "every well-formed trail and every false clause", "why_tests_cant": "Unit tests use trails with a handful of levels.", "anchors": ["src/Conflict_analysis.cpp: init, resolve, finish", "src/Conflict_analysis.h: analyze"]}
{"id": "C11", "title": "Clause minimisation keeps the clause implied and asserting", "statement": "Subsumption::minimize only deletes literals, keeps their order, and the shorter clause is still implied by the original clause and the reason clauses, even though the redundancy test reads the vector while it is being compacted.", "quantifier": "every well-formed trail and every clause false in it", "why_tests_cant": "The stale elements visible during std::remove_if depend on the deletion pattern.", "anchors": ["src/Subsumption.cpp: minimize, selfsubsumes"]}
{"id": "C12", "title": "Subsumption removes only redundant learned clauses", "statement": "After Subsumption::on_restart, asserted clauses are untouched; each remaining learned clause was there before, in the same relative order; each removed learned clause has a remaining learned clause that is a strictly shorter subset of it.", "quantifier": "every list of learned clauses and every position of the old/new boundary", "why_tests_cant": "Chains of removals (a remover that is itself removed) need arbitrary many clauses.", "anchors": ["src/Subsumption.cpp: subsumes, index, remove_subsumed, on_restart"]}
{"id": "C13", "title": "Backtracking restores exactly the lower levels", "statement": "Trail::backtrack(k) makes unassigned exactly the variables whose decision level is above k, and leaves the level, reason and value of every other variable and the assignment lists 0..k unchanged.", "quantifier": "every trail reachable by decide/propagate/backtrack/clear/resize and every k", "why_tests_cant": "Variables propagated below the current level are listed in several levels, so the outcome depends on the history.", "anchors": ["src/Trail.h: backtrack, propagate, decide, clear"]}
{"id": "C14", "title": "Trail bookkeeping is consistent", "statement": "After any sequence of decide/propagate/backtrack/clear with legal arguments: decision_level(v) is present iff v is assigned, it never exceeds decision_level(), v is listed in assigned(i) for exactly the levels i from its own level up to the current one at the time it was propagated or later backtracked to, and recent() is assigned(decision_level()).", "quantifier": "every operation sequence", "why_tests_cant": "Histories are unbounded.", "anchors": ["src/Trail.h"]}
{"id": "C15", "title": "A changed value is always visible in its timestamp", "statement": "For any two moments in the life of a Model, if a variable is defined at both and has the same timestamp, it has had the same value throughout and was not reassigned in between; timestamps of later assignments are larger.", "quantifier": "every sequence of set_value/clear/resize calls", "why_tests_cant": "Staleness detection of bounds relies on it for arbitrarily long histories.", "anchors": ["src/Model.h: Model::set_value, timestamp, clear"]}
{"id": "C16", "title": "Literal encoding is faithful", "statement": "var(), is_negation(), operator~, comparison and the array index of a literal are mutually consistent: negation is an involution that keeps the variable, and distinct literals have distinct non-negative array indices below 2*num_vars.", "quantifier": "every variable ordinal", "why_tests_cant": "Infinite domain.", "anchors": ["src/Literal.h: Literal", "src/Literal_map.h: Literal_map"]}
{"id": "C17", "title": "Clause evaluation is three-valued truth", "statement": "eval(model, clause) is true iff some literal is true, false iff all literals are false, and none otherwise.", "quantifier": "every partial model and clause", "why_tests_cant": "Infinite domain.", "anchors": ["src/Model.h: eval"]}
{"id": "C18", "title": "The priority queue behaves like a finite map with maximum extraction", "statement": "After any sequence of push/pop/update/bump/rescale, the queue contains exactly the pushed and not yet removed variables with their latest scores, contains()/score() report that, top() is a variable of maximal score (ties broken by variable order), and empty() is exact.", "quantifier": "every operation sequence respecting the documented preconditions, every number of variables", "why_tests_cant": "Heap shape errors need specific long histories.", "anchors": ["src/variable_order/Variable_priority_queue.h"]}
{"id": "C19", "title": "A variable order never skips an unassigned variable", "statement": "pick() returns a variable only if it is unassigned, and returns none only if every variable is assigned.", "quantifier": "every trail and every history of scores", "why_tests_cant": "A skipped variable makes the solver answer sat with a partial model; it needs particular histories.", "anchors": ["src/variable_order/First_unassigned.h", "src/variable_order/Evsids.cpp: pick", "src/variable_order/Generalized_vsids.cpp: pick, on_before_backtrack"]}
{"id": "C20", "title": "Restart schedule follows the Luby sequence", "statement": "Luby_restart asks for its i-th restart exactly luby(i)*mult conflicts after the previous one, where luby is the Luby-Sinclair-Zuckerman sequence.", "quantifier": "every index below 2^31 and every multiplier", "why_tests_cant": "The sequence is defined by unbounded recursion; tests list a prefix.", "anchors": ["src/Restart.h: Luby_restart"]}
{"id": "C21", "title": "Rational arithmetic is exact", "statement": "a+b, a-b, a*b, a/b (b nonzero), unary minus and the compound assignment forms on Rational return exactly the mathematical rational, for operands in the 32-bit fast representation and in the multi-precision one, with no signed overflow on the fast path.", "quantifier": "every pair of representable operands", "why_tests_cant": "Overflow boundaries of the 32/64-bit fast path are too many to enumerate.", "anchors": ["src/lra/Long_fraction.h: addition, substraction, multiplication, division, additionAssign, substractionAssign, multiplicationAssign, divisionAssign"]}
{"id": "C22", "title": "Rational representation is canonical and ordered", "statement": "Every Rational produced by arithmetic is in lowest terms with positive denominator and uses the fast representation iff it fits; ==, <, compare, sign and isInteger agree with the order of the rationals.", "quantifier": "every pair of reachable values", "why_tests_cant": "Infinite domain.", "anchors": ["src/lra/Long_fraction.h: operator==, compare, sign, isInteger", "src/lra/Long_fraction.cpp"]}
{"id": "C23", "title": "floor and ceil round correctly", "statement": "r.floor() is the largest integer not above r and r.ceil() the smallest integer not below r.", "quantifier": "every Rational", "why_tests_cant": "Infinite domain.", "anchors": ["src/lra/Long_fraction.h: ceil, floor"]}
{"id": "C24", "title": "Constructing n/d and inverting give the expected value", "statement": "Rational(n, d) has value n/d for every 32-bit n and d > 0, r.inv() has value 1/r for every nonzero r, and a % b lies in [0,|b|) with a - a % b an integer multiple of b.", "quantifier": "every legal operand", "why_tests_cant": "Sign and width conversions go wrong only in corners.", "anchors": ["src/lra/Long_fraction.h: Long_fraction(word, uword), inv, operator%"]}
{"id": "C25", "title": "A linear constraint literal means the constraint that was requested", "statement": "The literal returned by linear_constraint(vars, coef, pred, rhs) is true under an assignment that respects the stored constraints iff sum coef*vars pred rhs holds, for all three predicates, any sign of the leading coefficient and zero coefficients, provided the variables with nonzero coefficients are distinct. (For repeated variables the claim is false of the code.)", "quantifier": "every list of variables and rational coefficients, predicate, right-hand side, and every assignment", "why_tests_cant": "Normalisation flips predicates and polarity depending on signs; infinite domain.", "anchors": ["src/lra/Linear_constraints.h: make, find_norm_constant, norm_pred", "src/lra/Linear_constraint.h"]}
{"id": "C26", "title": "Constraint interning does not mix up constraints", "statement": "In every history of requests (each with distinct variables) two requests return literals of the same variable iff one requested constraint is equivalent to the other (then the literals are equal) or to its negation (then they are complementary). In particular requests that differ only by a positive factor or the order of the variables return the same literal.", "quantifier": "every history of requests", "why_tests_cant": "Depends on the whole table contents.", "anchors": ["src/lra/Linear_constraints.h: make, Constraint_hash, Constraint_equal"]}
{"id": "C27", "title": "Linear polynomial operations compute what they say", "statement": "Linear_polynomial add/sub/negate/subtract_var change the value of the polynomial under every assignment exactly as named, and add/sub leave no zero coefficient or repeated variable behind.", "quantifier": "every polynomial and every assignment", "why_tests_cant": "Infinite domain.", "anchors": ["src/utils/Linear_polynomial.h"]}
{"id": "C28", "title": "A reported bound that is not obsolete is implied by the current trail", "statement": "A variable bound that is_obsolete() does not reject is implied by the constraints currently true on the trail and the currently assigned rational values.", "quantifier": "every history of assignments and backtracks", "why_tests_cant": "Staleness depends on unbounded histories of timestamps.", "anchors": ["src/lra/Variable_bounds.h: Implied_value::is_obsolete", "src/lra/Bounds.cpp: Bounds::update, deduce", "src/Model.h: timestamp"]}
{"id": "C29", "title": "Bound conflicts are valid lemmas", "statement": "The clause returned for a variable whose lower bound exceeds its upper bound is true under every rational assignment and is false in the current trail.", "quantifier": "every pair of conflicting bounds and every assignment", "why_tests_cant": "Validity quantifies over all rational assignments.", "anchors": ["src/lra/Lra_conflict_analysis.cpp: Bound_conflict_analysis", "src/lra/Lra_conflict_analysis.h: Fm_elimination"]}
{"id": "C30", "title": "Disequality conflicts are valid lemmas", "statement": "The clause returned for a variable whose lower and upper bound coincide with a disallowed value is true under every rational assignment and false in the current trail.", "quantifier": "every such bound configuration and every assignment", "why_tests_cant": "Validity quantifies over all rational assignments.", "anchors": ["src/lra/Lra_conflict_analysis.cpp: Inequality_conflict_analysis"]}
{"id": "C31", "title": "Fourier-Motzkin resolution is sound", "statement": "The constraint obtained by eliminating a variable from two constraints holds in every assignment that satisfies both.", "quantifier": "every pair of constraints with opposite bounds (or one equality) on the variable, every assignment", "why_tests_cant": "Infinite domain.", "anchors": ["src/lra/Lra_conflict_analysis.cpp: Fourier_motzkin_elimination::resolve"]}
{"id": "C32", "title": "Rational decisions respect the bounds and terminate", "statement": "Deciding a rational variable whose bounds are consistent assigns a value that satisfies every lower/upper bound (strict or not) and every disequality recorded for it, after finitely many steps.", "quantifier": "every consistent bound set, every cached value", "why_tests_cant": "Infinite domain; the search loop has no syntactic bound.", "anchors": ["src/lra/Linear_arithmetic.cpp: decide, find_integer", "src/lra/Bounds.h", "src/lra/Variable_bounds.h: is_allowed"]}
{"id": "C33", "title": "Evaluated constraints enter the trail with their true value", "statement": "At every moment of a check at which propagation found no conflict: when all variables of a linear constraint of the problem are assigned, the literal of the constraint is on the trail with the truth value of the constraint under the assignment.", "quantifier": "every history of decisions, propagations and backtracks", "why_tests_cant": "Watch-list histories are unbounded.", "anchors": ["src/lra/Linear_arithmetic.cpp: replace_watch, propagate, check_watch"]}
{"id": "C34", "title": "Constraint entailment from bounds is sound", "statement": "If Bounds::is_implied reports a constraint as implied, every assignment within the current bounds satisfies it.", "quantifier": "every constraint and bound set", "why_tests_cant": "Infinite domain.", "anchors": ["src/lra/Bounds.cpp: Bounds::is_implied"]}
{"id": "C35", "title": "Theory-independent soundness of unsat", "statement": "If a theory plugin keeps its contract (every conflict clause is a lemma of the theory and false in the trail; every literal it makes true has a reason clause whose other literals are false, not above the level and, above level 0, at least one on it, or has no reason and is, at level 0, a consequence), then whenever check() answers unsat the asserted clauses have no model of the theory - including runs with new variables, semantic splits, several conflicts at once, restarts and clause deletion.", "quantifier": "every plugin behaviour satisfying the contract, every schedule", "why_tests_cant": "Quantifies over plugins and schedules.", "anchors": ["src/Solver.cpp: check, analyze_conflicts, learn, backtrack_with", "src/Theory_combination.cpp"]}
{"id": "C36", "title": "Uninterpreted function conflicts are congruence lemmas", "statement": "The clause returned when two applications of the same function symbol agree on their arguments but not on their value is true in every interpretation of the function symbols.", "quantifier": "every pair of applications, argument and result sorts", "why_tests_cant": "Validity quantifies over all interpretations.", "anchors": ["src/uf/Uninterpreted_functions.cpp: add_function_value, assert_equality"]}
{"id": "C37", "title": "Recorded function tables agree with the assignment", "statement": "At any moment every entry of the function table of the UF plugin describes an application whose arguments and value are all still assigned and evaluate to the recorded tuple and value.", "quantifier": "every history of assignments and backtracks", "why_tests_cant": "Stale entries need particular backtrack histories.", "anchors": ["src/uf/Uninterpreted_functions.cpp: add_function_value, on_before_backtrack, get_model"]}
{"id": "C38", "title": "Printed function definitions reproduce the function table", "statement": "The define-fun printed for a function, read back as an ite-chain, maps every recorded argument tuple to its recorded value.", "quantifier": "every non-empty table and every function named by a simple symbol (names that need quotes are refuted separately)", "why_tests_cant": "Infinite domain.", "anchors": ["src/parser/Smt2_parser.cpp: Print_model::visit_fnc"]}
{"id": "C39", "title": "Terms are shared and immutable", "statement": "Constructing a term with the same kind, type and arguments twice yields the same handle; different content yields different handles; the content behind an existing handle never changes.", "quantifier": "every history of constructor calls, any hash collisions", "why_tests_cant": "Hash-consing errors depend on the whole history.", "anchors": ["src/terms/Terms.cpp", "src/terms/Term_hash_table.cpp"]}
{"id": "C40", "title": "Boolean term constructors preserve meaning", "statement": "mk_or, mk_and, mk_binary_or, mk_binary_and, mk_implies, mk_iff, mk_xor, mk_ite (boolean), not and distinct return a term with the truth value of the requested operation under every interpretation, including constants, duplicates and opposite pairs.", "quantifier": "every argument list and every interpretation", "why_tests_cant": "Simplifications depend on equalities among arbitrarily many arguments.", "anchors": ["src/terms/Term_manager.cpp: mk_or, mk_and, mk_binary_or, mk_iff, mk_xor, mk_bool_ite"]}
{"id": "C41", "title": "Arithmetic term constructors preserve meaning", "statement": "Whenever mk_arithmetic_plus/minus/times/unary_minus/ite, a comparison geq/leq/lt/gt/eq or the application of a declared function returns a term for well-typed arguments, its value under every interpretation is the requested one; and they do return for linear products and for all comparisons except the equality of a variable with one times itself.", "quantifier": "every argument and interpretation", "why_tests_cant": "Infinite domain of polynomials.", "anchors": ["src/terms/Term_manager.cpp: mk_arithmetic_plus, mk_arithmetic_minus, mk_arithmetic_times, mk_arithmetic_eq, mk_arithmetic_geq, term_to_poly, poly_to_term", "src/terms/Arithmetic_polynomial.h: merge"]}
{"id": "C42", "title": "Arithmetic equality never builds a degenerate atom", "statement": "mk_arithmetic_eq on two arithmetic terms returns true, false or an atom over at least one variable; it never returns an atom without variables.", "quantifier": "every pair of constructed arithmetic terms", "why_tests_cant": "Depends on how the two terms were built.", "anchors": ["src/terms/Term_manager.cpp: mk_arithmetic_eq, mk_arithmetic_times"]}
{"id": "C43", "title": "Decimal literals denote their exact value", "statement": "A decimal literal d1...dk.f1...fm is read as the exact rational d1...dk + f1...fm/10^m.", "quantifier": "every digit string", "why_tests_cant": "Infinite domain; large literals leave the fast rational path.", "anchors": ["src/terms/Term_manager.cpp: mk_rational_constant, mk_integer_constant"]}
{"id": "C44", "title": "Division by a constant is exact", "statement": "(/ t c) for a nonzero constant c denotes t divided by c.", "quantifier": "every term t and nonzero rational c", "why_tests_cant": "Large constants take another representation.", "anchors": ["src/terms/Term_manager.cpp: mk_divides", "src/lra/Long_fraction.h: inv"]}
{"id": "C45", "title": "Defined functions are expanded", "statement": "Applying a define-fun macro yields its body with every formal parameter replaced by the corresponding argument.", "quantifier": "every body and argument list", "why_tests_cant": "Infinite domain of bodies.", "anchors": ["src/parser/Parser_context.cpp: resolve", "src/terms/Term_rewriter.h: Rewriter::rewrite"]}
{"id": "C46", "title": "Terms are internalised bottom-up and once", "statement": "Visiting a set of assertions processes every reachable subterm exactly once and after all its children, also across several visit calls.", "quantifier": "every term DAG", "why_tests_cant": "Sharing patterns are unbounded.", "anchors": ["src/terms/Term_visitor.h: Visitor::visit"]}
{"id": "C47", "title": "Clausification is equisatisfiable", "statement": "The clauses asserted for a set of assertions (with constraint literals read as their constraints) are satisfiable iff the assertions are, and any satisfying assignment of the clauses satisfies the assertions when restricted to the user's variables.", "quantifier": "every assertion list over the supported term kinds and every assignment", "why_tests_cant": "Infinite domain of formulas.", "anchors": ["src/parser/Solver_wrapper.cpp: Internalizer_config::visit, Solver_wrapper::check"]}
{"id": "C48", "title": "Every check-sat answers about all assertions made so far", "statement": "A second (check-sat) after further (assert ...) commands is answered for the conjunction of all assertions.", "quantifier": "every script with several check-sat commands", "why_tests_cant": "Histories are unbounded.", "anchors": ["src/parser/Solver_wrapper.cpp: Solver_wrapper::check", "src/Yaga.cpp: Yaga::init", "src/Solver.cpp: Solver::check"]}
{"id": "C49", "title": "let scoping is lexical and parallel", "statement": "Inside a let body a symbol denotes the innermost binding, bindings of one let do not see each other, and after the let every symbol denotes what it denoted before.", "quantifier": "every nesting of scopes and every symbol", "why_tests_cant": "Unbounded nesting and shadowing.", "anchors": ["src/parser/Parser_context.h: Let_records, Let_binder", "src/parser/Smt2_term_parser.cpp: parse_term"]}
{"id": "C50", "title": "Term parsing inverts printing", "statement": "parse_term on the token sequence of a term built from symbols, numerals, applications and lets consumes exactly these tokens and returns the term denoted by it.", "quantifier": "every term and every following input", "why_tests_cant": "Unbounded nesting.", "anchors": ["src/parser/Smt2_term_parser.cpp: Smt2_term_parser::parse_term"]}
{"id": "C51", "title": "The SAT tool decides DIMACS files", "statement": "For every DIMACS CNF file the command line SAT tool ends and prints SAT if the clauses of the file are satisfiable and UNSAT if they are not, and never ERROR, whatever the spacing, the comments, the division into lines, empty clauses, repeated literals and tautologies. If the file lists fewer clauses than its problem line announces, it is refused (or UNSAT is printed when one of them is empty); clauses after the announced number and an unfinished last clause are ignored.", "quantifier": "every well-formed file: every number of variables and clauses below 2^31 and every layout", "why_tests_cant": "Files are unbounded and the answer must be right for all of them; the reader interacts with line structure and counts.", "anchors": ["src/sat_solver.cpp: main, is_satisfying", "src/Solver.cpp: check"]}
{"id": "C52", "title": "Events reach every registered listener exactly once", "statement": "Each event a solver raises is delivered to each registered listener as often as it is registered (once, for listeners added at most once at a time), in registration order, and to no removed listener. Whatever theories, variable orders and restart policies were installed and replaced before, an event is delivered exactly once to the current ones and never to a destroyed object.", "quantifier": "every history of additions and removals, every history of set_theory, set_variable_order and set_restart_policy (with any reuse of addresses of destroyed objects), every event", "why_tests_cant": "Histories are unbounded.", "anchors": ["src/Event_dispatcher.h: add, remove, on_*", "src/Solver.h: set_theory, set_variable_order, set_restart_policy", "src/Solver.cpp: Solver::Solver"]}
{"id": "C53", "title": "No trail element is skipped by a plugin", "statement": "Between two backtracks the ranges a plugin obtains from assigned(trail) at one decision level are consecutive and cover the whole level; after a backtrack the level is delivered again from its beginning.", "quantifier": "every history of trail operations and assigned() calls", "why_tests_cant": "Histories are unbounded.", "anchors": ["src/Theory.cpp: Theory::assigned, Theory::on_before_backtrack"]}
{"id": "C54", "title": "Combined propagation reaches a common fixpoint", "statement": "Theory_combination::propagate without conflict ends with a full round over all plugins in which nothing was added to the current level.", "quantifier": "every set of plugins", "why_tests_cant": "Quantifies over plugin behaviours.", "anchors": ["src/Theory_combination.cpp: Theory_combination::propagate"]}
{"id": "C55", "title": "All best conflicts are learned, once", "statement": "When a theory returns several conflicts at once, the solver backtracks to the least level derived from any of them and learns exactly the clauses derived at that level, each once, dropping semantic splits unless there is nothing else; asserted and older learned clauses are unchanged.", "quantifier": "every database, trail and non-empty list of conflicts", "why_tests_cant": "Depends on the combination of levels, duplicates and splits among arbitrarily many conflicts.", "anchors": ["src/Solver.cpp:Solver::analyze_conflicts", "src/Solver.cpp:Solver::learn", "src/Solver.cpp:Solver::is_semantic_split"]}
{"id": "C58", "title": "Soundness of unsat with assignments below the current level", "statement": "As C35, for plugins that also make literals true below the current decision level or with reason clauses that lie entirely below the level of the literal: whenever check() answers unsat, the asserted clauses have no model of the theory.", "quantifier": "every plugin behaviour satisfying the weaker contract, every schedule", "why_tests_cant": "Quantifies over plugins and schedules.", "anchors": ["src/Solver.cpp: check, analyze_conflicts, learn, backtrack_with", "src/Conflict_analysis.cpp", "src/Trail.h: propagate, decide"]}
{"id": "C60", "title": "A script is checked as written", "statement": "For every well-sorted SMT-LIB script (declarations, definitions, assertions, checks, exit) the solver is called once for each check-sat, in order, with assertions that are satisfiable exactly when the part of the script before that check-sat is satisfiable: when the declared symbols can be given values and functions of their sorts that make every asserted expression true, defined constants standing for their bodies. What follows exit is not read.", "quantifier": "every well-sorted script, of any length and nesting, in every theory of the two supported logics", "why_tests_cant": "Depends on names, scopes and sharing of terms over arbitrarily long scripts; both directions of the equivalence range over all interpretations.", "anchors": ["src/parser/Smt2_parser.cpp: Smt2_command_context::execute, parse_command", "src/parser/Smt2_term_parser.cpp: parse_sort, parse_sort_list, parse_sorted_var_list", "src/parser/Parser_context.cpp: declare_uninterpreted_constant, declare_uninterpreted_function, bind_vars, store_defined_fun", "src/terms/Terms.cpp: set_term_name"]}
{"id": "C56", "title": "Unsat answers are right (QF_LRA)", "statement": "If check() of a solver with boolean propagation and linear arithmetic answers unsat, no truth values of the boolean variables and rational values of the rational variables satisfy all clauses when the literal of each requested linear constraint means that constraint.", "quantifier": "every problem (any requests with distinct variables, any clauses), every hash function, every variable order that picks unassigned variables, every restart policy, every run", "why_tests_cant": "The interplay of semantic propagation, bounds, derived constraints, learning, backjumping, semantic splits, restarts and deletion depends on unbounded histories.", "anchors": ["src/Solver.cpp: check", "src/Theory_combination.cpp: propagate, decide", "src/bool/Bool_theory.cpp", "src/lra/Linear_arithmetic.cpp", "src/lra/Lra_conflict_analysis.cpp", "src/Yaga.cpp: Qf_lra"]}
{"id": "C57", "title": "Models of sat answers are solutions (QF_LRA)", "statement": "If check() of a solver with boolean propagation and linear arithmetic answers sat, every variable has a value, the values then in the boolean and the rational model satisfy every clause, and the literal of each requested linear constraint is true exactly when the constraint holds at the rational values.", "quantifier": "as C56, for variable orders that give up only when all variables of the problem are assigned", "why_tests_cant": "A watch list that misses one constraint in one history gives a wrong model.", "anchors": ["src/Solver.cpp: check", "src/Theory_combination.cpp: propagate, decide", "src/bool/Bool_theory.cpp", "src/lra/Linear_arithmetic.cpp: replace_watch, check_watch, decide", "src/Yaga.cpp: Qf_lra"]}
{"id": "C61", "title": "The answer to a script is right (QF_LRA)", "statement": "When the solver is asked to check a list of assertions and answers unsat, no interpretation of the declared constants satisfies them all. When it answers sat, the model it shows gives a value of the right sort to every declared constant that occurs in the assertions, and every interpretation with these values satisfies all of them. Hence the answer to the first check-sat of a well-sorted QF_LRA script is unsat only if the script up to there is unsatisfiable and sat only if it is satisfiable.", "quantifier": "every list of well-sorted assertions over terms made by the term manager, every script, every hash function, every variable order as in C57, every restart policy, every run that ends", "why_tests_cant": "Composes reading, normalisation, translation to clauses and the search; each depends on unbounded inputs and histories.", "anchors": ["src/parser/Solver_wrapper.cpp: Solver_wrapper::check, Solver_wrapper::model, Internalizer", "src/parser/Smt2_parser.cpp: execute", "src/Solver.cpp: check", "src/Yaga.cpp: Qf_lra"]}
{"id": "C62", "title": "The variable order of the QF_LRA solver does its duty", "statement": "In a QF_LRA check the solver's own variable order (Generalized_vsids) proposes only variables that exist and are unassigned, and it reports that nothing is left to decide only when every boolean and rational variable of the problem has a value, also after any number of conflicts, backjumps and restarts. With the default options none of its assertions fails. Hence the answers and models described in C61 are right for the solver as it is configured, whatever the scores are.", "quantifier": "every problem of linear constraints and clauses, every script, every reachable state of the search, every arithmetic of scores that is a total order closed under the operations used, every answer linear arithmetic gives to the order's questions, every restart policy", "why_tests_cant": "After a restart the order does not put back the variables of level 0; that no variable is forgotten depends on unit propagation over the clauses kept in every later state.", "anchors": ["src/variable_order/Generalized_vsids.h", "src/variable_order/Generalized_vsids.cpp: pick, on_before_backtrack, on_learned_clause, on_conflict_resolved, on_init, on_variable_resize", "src/Solver.cpp: check, restart", "src/Yaga.cpp: Qf_lra"]}
{"id": "C63", "title": "The answer to a script is right (QF_UFLRA)", "statement": "With uninterpreted functions: when a check of assertions answers unsat, no interpretation of the declared constants and functions satisfies them all. When it answers sat, the model shows a value for every declared constant that occurs in the assertions and a table of values for the functions; some interpretation has these values, and every interpretation that has them satisfies all assertions. Hence the answer to the first check-sat of a well-sorted QF_UFLRA script is right. This also holds with the solver's own variable order, without further assumptions on it.", "quantifier": "every list of well-sorted assertions over terms made by the term manager in which functions take and return reals and corresponding arguments of two applications of a function have the same monomials or none in common, every script of this kind, every hash function, every variable order as in C57 and the program's own one, every restart policy, every run that ends", "why_tests_cant": "The functions plugin adds linear constraints during the search and its tables must be exact after every backtrack; composes this with reading, translation, linear arithmetic and the search.", "anchors": ["src/uf/Uninterpreted_functions.cpp: propagate, decide, on_before_backtrack, register_application_term, get_model", "src/parser/Solver_wrapper.cpp: Solver_wrapper::check, Solver_wrapper::model, Internalizer", "src/Yaga.cpp: Qf_uflra, make_function_application", "src/Theory_combination.cpp", "src/Solver.cpp: check"]}
{"id": "C64", "title": "The smt tool prints the right answer for the file it is given", "statement": "Run as `smt [options] file`, with any of the documented options in any order and number, on a file that contains a well-sorted script, the tool's first printed answer is right for the commands before the first check-sat: `sat` only if the assertions made so far are satisfiable, `unsat` only if they are not (QF_LRA; for QF_UFLRA under C63's condition on the applications). Each option takes effect iff it is given, the last known phase and the last file name count, and the usage message is printed exactly when an argument looks like an option and is none, or no file is named. No answer is printed if there is no check-sat or no logic was set.", "quantifier": "all command lines, file systems, well-sorted scripts, score arithmetics, restart policies and hash functions", "why_tests_cant": "Command lines, scripts and the heuristics' choices are unbounded; a test sees one combination of options, script and search.", "anchors": ["src/smt_solver.cpp: main", "src/Options.h: Options", "src/parser/Smt2_parser.cpp: parse_file, parse_command, print_answer", "src/Yaga.cpp: Qf_lra::setup, Qf_uflra::setup"]}
{"id": "C65", "title": "QF_LRA checks fail no assertion, whatever the options", "statement": "With every combination of the options of the command line (derived bounds, propagation of effectively decided variables), a check of any problem built from Boolean and rational variables, linear constraints and non-empty clauses never violates an assertion of the solver, its plugins or its variable order, never reads outside a container and never reads a missing value: every conflict the plugins report is a clause of false literals, every clause of the explanation is of the kind the analysis asks for, and there is a permitted value for every rational variable that is decided. The same holds for checks of well-sorted assertions without functions, translation included, and for the smt tool on a QF_LRA script whose terms can be built: each run either goes on or prints the right answer.", "quantifier": "all problems, assertions and scripts, all histories of decisions, propagations, conflicts, backtracks and restarts, all variable orders that propose unassigned variables (in particular the one of the tool), restart policies, phases, hash functions and command lines", "why_tests_cant": "Assertions deep in the conflict analysis and in the bounds depend on the whole history of the search; a test run exercises one history of one problem.", "anchors": ["src/Solver.cpp: check, analyze_conflicts, learn, backtrack_with, restart", "src/Conflict_analysis.cpp: init, resolve, finish", "src/bool/Bool_theory.cpp: propagate, on_learned_clause", "src/lra/Linear_arithmetic.cpp: propagate, decide, check_bounds, watch, replace_watch", "src/lra/Bounds.cpp: update, deduce, is_implied", "src/lra/Lra_conflict_analysis.cpp: Fm_elimination, Bound_conflict_analysis, Inequality_conflict_analysis", "src/smt_solver.cpp: main"]}
{"id": "C66", "title": "QF_UFLRA checks with real functions fail no assertion, whatever the options", "statement": "With every combination of the options of the command line, a check of well-sorted assertions in which all functions take and return reals never violates an assertion of the translation, the solver, its three plugins or its variable order, never reads outside a container and never reads a missing value: every application has variables to watch, the equalities between arguments and between values that explain a conflict of a function can be built, evaluated and are all false, and the search goes on after them. The corresponding arguments of two applications of one function must be aligned (the same monomials or none in common), and in a build with assertions no equality may have an application as one of its sides. The same holds for the smt tool on a QF_UFLRA script whose terms can be built: each run either goes on or prints the right answer.", "quantifier": "all assertions and scripts of this kind, all histories of decisions, propagations, conflicts, backtracks and restarts, all variable orders that propose unassigned variables (in particular the one of the tool), restart policies, phases, hash functions and command lines", "why_tests_cant": "Which applications agree on their arguments, and in which order their variables get values, depends on the history of the search; a test run exercises one history of one problem.", "anchors": ["src/uf/Uninterpreted_functions.cpp: register_application_term, propagate, assert_equality, evaluate, on_before_backtrack", "src/parser/Solver_wrapper.cpp: visit, check", "src/Yaga.cpp: make_function_application", "src/Solver.cpp: check, analyze_conflicts, learn, backtrack_with, restart", "src/Conflict_analysis.cpp: init, resolve, finish", "src/bool/Bool_theory.cpp: propagate, on_learned_clause", "src/lra/Linear_arithmetic.cpp: propagate, decide, check_bounds, watch, replace_watch", "src/smt_solver.cpp: main"]}
{"id": "C67", "title": "Linear scripts as the SMT-LIB standard defines them are read, checked without a failing assertion and answered correctly", "statement": "Take a well-sorted script in which every product is a coefficient times a declared constant or an application of a declared function (a coefficient is a numeral or decimal, or a negation or quotient of such), every dividend is one of these too, and divisors are numerals. Reals may be related by every relation, equality and distinct included, and terms may be bound by let or defined. Then the smt tool reads the script to the end: every constructor returns a term and no assertion of the term manager fails. On a QF_LRA script of this kind, with any command line, the whole run fails no assertion and what it prints for the first check-sat is right. For QF_UFLRA the same holds under the conditions of C66. Outside this class it fails: a product of a product can be the term 1*x, and comparing that with x violates an assertion.", "quantifier": "all scripts of this kind, all command lines, hash functions, variable orders, restart policies and histories of the search", "why_tests_cant": "Which equalities can be built depends on the shapes of all terms made before, over unboundedly many scripts; the failing comparison needs a particular product that no test builds.", "anchors": ["src/terms/Term_manager.cpp: mk_arithmetic_eq, direct_arithmetic_binary_equality, mk_arithmetic_times, mk_divides, poly_to_term, mk_term, mk_and", "src/parser/Smt2_term_parser.cpp: parse_term", "src/parser/Smt2_parser.cpp: parse, parse_command", "src/smt_solver.cpp: main"]}
{"id": "C68", "title": "Fractions of two ints are exact", "statement": "Fraction<int> stores a rational number in lowest terms with a positive denominator. Constructing one from two ints, adding, subtracting, multiplying, dividing, negating and inverting return the exact value whenever its numerator and denominator in lowest terms are ints, and never a wrong value. All comparisons, between fractions and with ints in both orders, decide the order of the values without overflow. Equal fractions, and only those, are hashed from the same number. The conversion to int rounds down, as its comment says, and division by zero is rejected. Of this the following fails: the conversion rounds towards zero, division by zero returns a fraction with denominator 0, and operations with the smallest int as numerator or operand can overflow although the result is representable.", "quantifier": "all fractions and all ints", "why_tests_cant": "There are about 2^62 fractions and 2^124 pairs of operands; overflow occurs only near the limits and depends on the common divisors of all four numbers.", "anchors": ["src/lra/Fraction.h: Fraction, inv, operator+, operator-, operator*, operator/, operator<, operator<=, operator==, hash"]}
{"id": "C69", "title": "Rational numbers are independent values with safe memory", "statement": "In a program that starts without numbers, every sequence of constructions (from an int, an unsigned int or a text), copies, moves, copy and move assignments, destructions, resets, additions, subtractions, multiplications, divisions, negations (new or in place, with aliased operands), inverses, roundings up and down and comparisons of Rational objects runs without an invalid memory access, use of a released GMP object, or failed assertion. Each operation gives the named object the exact rational result and leaves the value of every other object unchanged; a moved-from object can still be used. No two objects share a GMP number, no GMP number is released twice or used after release, and every GMP number is either owned by one object or available for reuse.", "quantifier": "all finite sequences of operations on any number of objects, all values, all aliasing patterns", "why_tests_cant": "sharing and reuse of pooled memory depends on the whole history of allocations and releases; tests try a few short histories", "anchors": ["src/lra/Long_fraction.h: mpqPool, Long_fraction copy and move constructors, operator=, kill_mpq, ensure_mpq_valid, ensure_mpq_memory_allocated, try_fit_word, addition, substraction, multiplication, division, additionAssign, negate, compare", "src/lra/Long_fraction.cpp: mpqPool::alloc, mpqPool::release, reset, constructors"]}
{"id": "C70", "title": "Linear constraint objects describe themselves correctly", "statement": "For every constraint object returned by a request for a linear constraint, and for its negations: vars() are the variables of the request with a nonzero coefficient, each once, and the relation formed by vars(), coef(), pred() and rhs(), negated if lit() is negative, is the requested condition (or its negation). The relation shown is the requested one multiplied by a nonzero number (or 0 = 0 if the request has no variables). eval(model, cons) fails no assertion, answers nothing exactly if a variable of the constraint has no value, and otherwise gives the truth value of the condition. is_strict() is true exactly if values that make both sides equal violate the condition. If all variables but the first have values, implied_value(model) fails no assertion and gives the right-hand side of the equivalent constraint on the first variable. The text printed by operator<<, read as usual, is the condition.", "quantifier": "every history of requests with distinct variables, resizes and swaps of terms, every hash function, every model", "why_tests_cant": "Constraints are normalised, shared and their terms reordered in place; what an object shows depends on the whole history.", "anchors": ["src/lra/Linear_constraint.h: Linear_constraint::is_strict, operator~, eval, implied_value, vars, coef, operator<<", "src/lra/Linear_constraints.h: eval, implied_value, vars, coef"]}
