#!/usr/bin/env python3
# Generates properties.jsonl (kept as a script so that the list stays in one readable place).
import json
P=[]
def p(title, statement, quantifier, why, anchors):
    P.append(dict(id="C%02d"%(len(P)+1), title=title, statement=statement, quantifier=quantifier,
                  why_tests_cant=why, anchors=anchors))
S="src/"
p("A sat answer comes with a satisfying assignment",
  "If Solver::check() on a purely propositional clause set returns sat, then every variable is assigned in trail().model<bool>() and every clause that was asserted has a literal that is true in that model.",
  "every number of variables, every list of non-empty asserted clauses (duplicate literals and tautologies allowed), every variable order that returns an unassigned variable while one exists, every restart policy, every phase option",
  "sat_solver re-checks the model of one run; the property is about all clause sets and all decision/restart schedules.",
  ["src/Solver.cpp: Solver::check, Solver::backtrack_with, Solver::restart","src/bool/Bool_theory.cpp: Bool_theory::propagate, falsified, replace_second_watch","src/Trail.h: Trail"])
p("An unsat answer is right",
  "If Solver::check() on a purely propositional clause set returns unsat, no assignment of the variables satisfies all asserted clauses.",
  "every clause set, variable order, restart policy and phase, every length of run",
  "An unsat answer has no witness that a test can check; exhaustive comparison is only possible for a handful of variables.",
  ["src/Solver.cpp: Solver::check, analyze_conflicts, learn","src/Conflict_analysis.cpp","src/Subsumption.cpp: Subsumption::minimize, remove_subsumed"])
p("check() terminates",
  "Solver::check() on a propositional clause set with non-empty clauses returns after finitely many steps.",
  "every clause set, every (even adversarial) sequence of picks, phases and restart decisions",
  "A test can only observe that some runs end; non-termination needs an infinite schedule (e.g. restarts at every conflict combined with clause deletion).",
  ["src/Solver.cpp: Solver::check","src/Restart.h","src/Subsumption.cpp: on_restart"])
p("check() performs no undefined behaviour on legal input",
  "During Solver::check() on clauses that are non-empty and mention only existing variables, no out-of-range clause position, no out-of-range watch index, no dereference of an absent decision level and no failing internal assertion is reached; an empty asserted clause does reach an out-of-range access.",
  "every legal clause set and every schedule",
  "Sanitised tests cover only the executed paths.",
  ["src/bool/Bool_theory.cpp: initialize, falsified, replace_second_watch","src/Conflict_analysis.cpp: init, finish","src/Solver.cpp: is_semantic_split, backtrack_with"])
p("Learned clauses are consequences of the input",
  "At every moment of check(), every clause in db().learned() is satisfied by every assignment that satisfies the asserted clauses.",
  "every clause set, every schedule, every moment of the run",
  "Entailment is a statement about all assignments.",
  ["src/Solver.cpp: learn","src/Conflict_analysis.cpp: resolve","src/Subsumption.cpp: minimize"])
p("Asserted clauses are never lost or altered",
  "check() never adds, removes or replaces an asserted clause; it only permutes literals inside a clause, so db().asserted() keeps its length and each clause keeps its multiset of literals.",
  "every clause set and every schedule",
  "In-place literal swaps happen along data-dependent paths.",
  ["src/bool/Bool_theory.cpp: falsified, replace_second_watch","src/Subsumption.cpp: remove_subsumed"])
p("Propagation is exhaustive",
  "When boolean propagation returns no conflict, no clause of the database is false, and every clause without repeated literals whose literals are all false but one has its remaining literal true.",
  "every database and every trail reachable by propagate/decide/backtrack/restart",
  "Missed propagations depend on the history of the lazily updated watch lists.",
  ["src/bool/Bool_theory.cpp: propagate, falsified, initialize, on_learned_clause"])
p("Propagation conflicts are real",
  "A conflict returned by boolean propagation is (up to literal order) a clause of the database and all its literals are false in the current model.",
  "every reachable database and trail",
  "Depends on the history of watch lists.",
  ["src/bool/Bool_theory.cpp: falsified"])
p("Propagated values are implied",
  "Every variable on the trail that carries a reason clause has, in that clause, a literal which is true while all other literals are false and were assigned earlier; the value is therefore implied by the database and the earlier assignments.",
  "every reachable trail",
  "Reasons are pointers to clauses whose literals keep being permuted.",
  ["src/bool/Bool_theory.cpp: propagate","src/Trail.h: propagate, reason"])
p("Conflict analysis derives a clause that justifies the backjump",
  "Conflict_analysis::analyze on a clause false in the trail returns a clause that is implied by the conflict clause and the reason clauses on the trail, is false in the trail, is sorted by decreasing decision level, and - unless it is a semantic split - has exactly one literal above the returned level.",
  "every well-formed trail and every false clause",
  "Unit tests use trails with a handful of levels.",
  ["src/Conflict_analysis.cpp: init, resolve, finish","src/Conflict_analysis.h: analyze"])
p("Clause minimisation keeps the clause implied and asserting",
  "Subsumption::minimize only deletes literals, keeps their order, and the shorter clause is still implied by the original clause and the reason clauses, even though the redundancy test reads the vector while it is being compacted.",
  "every well-formed trail and every clause false in it",
  "The stale elements visible during std::remove_if depend on the deletion pattern.",
  ["src/Subsumption.cpp: minimize, selfsubsumes"])
p("Subsumption removes only redundant learned clauses",
  "After Subsumption::on_restart, asserted clauses are untouched; each remaining learned clause was there before, in the same relative order; each removed learned clause has a remaining learned clause that is a strictly shorter subset of it.",
  "every list of learned clauses and every position of the old/new boundary",
  "Chains of removals (a remover that is itself removed) need arbitrary many clauses.",
  ["src/Subsumption.cpp: subsumes, index, remove_subsumed, on_restart"])
p("Backtracking restores exactly the lower levels",
  "Trail::backtrack(k) makes unassigned exactly the variables whose decision level is above k, and leaves the level, reason and value of every other variable and the assignment lists 0..k unchanged.",
  "every trail reachable by decide/propagate/backtrack/clear/resize and every k",
  "Variables propagated below the current level are listed in several levels, so the outcome depends on the history.",
  ["src/Trail.h: backtrack, propagate, decide, clear"])
p("Trail bookkeeping is consistent",
  "After any sequence of decide/propagate/backtrack/clear with legal arguments: decision_level(v) is present iff v is assigned, it never exceeds decision_level(), v is listed in assigned(i) for exactly the levels i from its own level up to the current one at the time it was propagated or later backtracked to, and recent() is assigned(decision_level()).",
  "every operation sequence",
  "Histories are unbounded.",
  ["src/Trail.h"])
p("A changed value is always visible in its timestamp",
  "For any two moments in the life of a Model, if a variable is defined at both and has the same timestamp, it has had the same value throughout and was not reassigned in between; timestamps of later assignments are larger.",
  "every sequence of set_value/clear/resize calls",
  "Staleness detection of bounds relies on it for arbitrarily long histories.",
  ["src/Model.h: Model::set_value, timestamp, clear"])
p("Literal encoding is faithful",
  "var(), is_negation(), operator~, comparison and the array index of a literal are mutually consistent: negation is an involution that keeps the variable, and distinct literals have distinct non-negative array indices below 2*num_vars.",
  "every variable ordinal",
  "Infinite domain.",
  ["src/Literal.h: Literal","src/Literal_map.h: Literal_map"])
p("Clause evaluation is three-valued truth",
  "eval(model, clause) is true iff some literal is true, false iff all literals are false, and none otherwise.",
  "every partial model and clause",
  "Infinite domain.",
  ["src/Model.h: eval"])
p("The priority queue behaves like a finite map with maximum extraction",
  "After any sequence of push/pop/update/bump/rescale, the queue contains exactly the pushed and not yet removed variables with their latest scores, contains()/score() report that, top() is a variable of maximal score (ties broken by variable order), and empty() is exact.",
  "every operation sequence respecting the documented preconditions, every number of variables",
  "Heap shape errors need specific long histories.",
  ["src/variable_order/Variable_priority_queue.h"])
p("A variable order never skips an unassigned variable",
  "pick() returns a variable only if it is unassigned, and returns none only if every variable is assigned.",
  "every trail and every history of scores",
  "A skipped variable makes the solver answer sat with a partial model; it needs particular histories.",
  ["src/variable_order/First_unassigned.h","src/variable_order/Evsids.cpp: pick","src/variable_order/Generalized_vsids.cpp: pick, on_before_backtrack"])
p("Restart schedule follows the Luby sequence",
  "Luby_restart asks for its i-th restart exactly luby(i)*mult conflicts after the previous one, where luby is the Luby-Sinclair-Zuckerman sequence.",
  "every index below 2^31 and every multiplier",
  "The sequence is defined by unbounded recursion; tests list a prefix.",
  ["src/Restart.h: Luby_restart"])
p("Rational arithmetic is exact",
  "a+b, a-b, a*b, a/b (b nonzero), unary minus and the compound assignment forms on Rational return exactly the mathematical rational, for operands in the 32-bit fast representation and in the multi-precision one, with no signed overflow on the fast path.",
  "every pair of representable operands",
  "Overflow boundaries of the 32/64-bit fast path are too many to enumerate.",
  ["src/lra/Long_fraction.h: addition, substraction, multiplication, division, additionAssign, substractionAssign, multiplicationAssign, divisionAssign"])
p("Rational representation is canonical and ordered",
  "Every Rational produced by arithmetic is in lowest terms with positive denominator and uses the fast representation iff it fits; ==, <, compare, sign and isInteger agree with the order of the rationals.",
  "every pair of reachable values",
  "Infinite domain.",
  ["src/lra/Long_fraction.h: operator==, compare, sign, isInteger","src/lra/Long_fraction.cpp"])
p("floor and ceil round correctly",
  "r.floor() is the largest integer not above r and r.ceil() the smallest integer not below r.",
  "every Rational",
  "Infinite domain.",
  ["src/lra/Long_fraction.h: ceil, floor"])
p("Constructing n/d and inverting give the expected value",
  "Rational(n, d) has value n/d for every 32-bit n and d > 0, r.inv() has value 1/r for every nonzero r, and a % b lies in [0,|b|) with a - a % b an integer multiple of b.",
  "every legal operand",
  "Sign and width conversions go wrong only in corners.",
  ["src/lra/Long_fraction.h: Long_fraction(word, uword), inv, operator%"])
p("A linear constraint literal means the constraint that was requested",
  "The literal returned by linear_constraint(vars, coef, pred, rhs) is true under an assignment that respects the stored constraints iff sum coef*vars pred rhs holds, for all three predicates, any sign of the leading coefficient, repeated and zero coefficients.",
  "every list of variables and rational coefficients, predicate, right-hand side, and every assignment",
  "Normalisation flips predicates and polarity depending on signs; infinite domain.",
  ["src/lra/Linear_constraints.h: make, find_norm_constant, norm_pred","src/lra/Linear_constraint.h"])
p("Constraint interning does not mix up constraints",
  "Two requests return literals of the same variable only if one requested constraint is equivalent to the other or to its negation, and requests that differ only by a nonzero factor or the order of the variables return the same variable.",
  "every history of requests",
  "Depends on the whole table contents.",
  ["src/lra/Linear_constraints.h: make, Constraint_hash, Constraint_equal"])
p("Linear polynomial operations compute what they say",
  "Linear_polynomial add/sub/negate/subtract_var change the value of the polynomial under every assignment exactly as named, and add/sub leave no zero coefficient or repeated variable behind.",
  "every polynomial and every assignment",
  "Infinite domain.",
  ["src/utils/Linear_polynomial.h"])
p("A reported bound that is not obsolete is implied by the current trail",
  "A variable bound that is_obsolete() does not reject is implied by the constraints currently true on the trail and the currently assigned rational values.",
  "every history of assignments and backtracks",
  "Staleness depends on unbounded histories of timestamps.",
  ["src/lra/Variable_bounds.h: Implied_value::is_obsolete","src/lra/Bounds.cpp: Bounds::update, deduce","src/Model.h: timestamp"])
p("Bound conflicts are valid lemmas",
  "The clause returned for a variable whose lower bound exceeds its upper bound is true under every rational assignment and is false in the current trail.",
  "every pair of conflicting bounds and every assignment",
  "Validity quantifies over all rational assignments.",
  ["src/lra/Lra_conflict_analysis.cpp: Bound_conflict_analysis","src/lra/Lra_conflict_analysis.h: Fourier_motzkin_elimination"])
p("Disequality conflicts are valid lemmas",
  "The clause returned for a variable whose lower and upper bound coincide with a disallowed value is true under every rational assignment and false in the current trail.",
  "every such bound configuration and every assignment",
  "Validity quantifies over all rational assignments.",
  ["src/lra/Lra_conflict_analysis.cpp: Inequality_conflict_analysis"])
p("Fourier-Motzkin resolution is sound",
  "The constraint obtained by eliminating a variable from two constraints holds in every assignment that satisfies both.",
  "every pair of constraints with opposite bounds (or one equality) on the variable, every assignment",
  "Infinite domain.",
  ["src/lra/Lra_conflict_analysis.cpp: Fourier_motzkin_elimination::resolve"])
p("Rational decisions respect the bounds and terminate",
  "Deciding a rational variable whose bounds are consistent assigns a value that satisfies every lower/upper bound (strict or not) and every disequality recorded for it, after finitely many steps.",
  "every consistent bound set, every cached value",
  "Infinite domain; the search loop has no syntactic bound.",
  ["src/lra/Linear_arithmetic.cpp: decide, find_integer","src/lra/Bounds.h","src/lra/Variable_bounds.h: is_allowed"])
p("Evaluated constraints enter the trail with their true value",
  "When all variables of a linear constraint are assigned, the literal of the constraint is on the trail with the truth value of the constraint under the assignment.",
  "every history of decisions, propagations and backtracks",
  "Watch-list histories are unbounded.",
  ["src/lra/Linear_arithmetic.cpp: replace_watch, propagate, check_watch"])
p("Constraint entailment from bounds is sound",
  "If Bounds::is_implied reports a constraint as implied, every assignment within the current bounds satisfies it.",
  "every constraint and bound set",
  "Infinite domain.",
  ["src/lra/Bounds.cpp: Bounds::is_implied"])
p("Theory-independent soundness of unsat",
  "If every clause a theory plugin returns as a conflict is a valid lemma of the theory and false in the trail, then whenever check() answers unsat the asserted clauses have no model of the theory - including runs with semantic splits, several conflicts at once, restarts and clause deletion.",
  "every plugin behaviour satisfying the contract, every schedule",
  "Quantifies over plugins and schedules.",
  ["src/Solver.cpp: check, analyze_conflicts, learn, backtrack_with","src/Theory_combination.cpp"])
p("Uninterpreted function conflicts are congruence lemmas",
  "The clause returned when two applications of the same function symbol agree on their arguments but not on their value is true in every interpretation of the function symbols.",
  "every pair of applications, argument and result sorts",
  "Validity quantifies over all interpretations.",
  ["src/uf/Uninterpreted_functions.cpp: add_function_value, assert_equality"])
p("Recorded function tables agree with the assignment",
  "At any moment every entry of the function table of the UF plugin describes an application whose arguments and value are all still assigned and evaluate to the recorded tuple and value.",
  "every history of assignments and backtracks",
  "Stale entries need particular backtrack histories.",
  ["src/uf/Uninterpreted_functions.cpp: add_function_value, on_before_backtrack, get_model"])
p("Printed function definitions reproduce the function table",
  "The define-fun printed for a function, read back as an ite-chain, maps every recorded argument tuple to its recorded value.",
  "every non-empty table",
  "Infinite domain.",
  ["src/parser/Smt2_parser.cpp: Print_model::visit_fnc"])
p("Terms are shared and immutable",
  "Constructing a term with the same kind, type and arguments twice yields the same handle; different content yields different handles; the content behind an existing handle never changes.",
  "every history of constructor calls, any hash collisions",
  "Hash-consing errors depend on the whole history.",
  ["src/terms/Terms.cpp","src/terms/Term_hash_table.cpp"])
p("Boolean term constructors preserve meaning",
  "mk_or, mk_and, mk_binary_or, mk_binary_and, mk_implies, mk_iff, mk_xor, mk_ite (boolean), not and distinct return a term with the truth value of the requested operation under every interpretation, including constants, duplicates and opposite pairs.",
  "every argument list and every interpretation",
  "Simplifications depend on equalities among arbitrarily many arguments.",
  ["src/terms/Term_manager.cpp: mk_or, mk_and, mk_binary_or, mk_iff, mk_xor, mk_bool_ite"])
p("Arithmetic term constructors preserve meaning",
  "mk_arithmetic_plus/minus/times/unary_minus/ite and the comparisons geq/leq/lt/gt/eq return a term whose value under every interpretation is the requested one.",
  "every argument and interpretation",
  "Infinite domain of polynomials.",
  ["src/terms/Term_manager.cpp: mk_arithmetic_plus, mk_arithmetic_minus, mk_arithmetic_times, mk_arithmetic_eq, mk_arithmetic_geq, term_to_poly, poly_to_term","src/terms/Arithmetic_polynomial.h: merge"])
p("Arithmetic equality never builds a degenerate atom",
  "mk_arithmetic_eq on two arithmetic terms returns true, false or an atom over at least one variable; it never returns an atom without variables.",
  "every pair of constructed arithmetic terms",
  "Depends on how the two terms were built.",
  ["src/terms/Term_manager.cpp: mk_arithmetic_eq, mk_arithmetic_times"])
p("Decimal literals denote their exact value",
  "A decimal literal d1...dk.f1...fm is read as the exact rational d1...dk + f1...fm/10^m.",
  "every digit string",
  "Infinite domain; large literals leave the fast rational path.",
  ["src/terms/Term_manager.cpp: mk_rational_constant, mk_integer_constant"])
p("Division by a constant is exact",
  "(/ t c) for a nonzero constant c denotes t divided by c.",
  "every term t and nonzero rational c",
  "Large constants take another representation.",
  ["src/terms/Term_manager.cpp: mk_divides","src/lra/Long_fraction.h: inv"])
p("Defined functions are expanded",
  "Applying a define-fun macro yields its body with every formal parameter replaced by the corresponding argument.",
  "every body and argument list",
  "Infinite domain of bodies.",
  ["src/parser/Parser_context.cpp: resolve","src/terms/Term_rewriter.h: Rewriter::rewrite"])
p("Terms are internalised bottom-up and once",
  "Visiting a set of assertions processes every reachable subterm exactly once and after all its children, also across several visit calls.",
  "every term DAG",
  "Sharing patterns are unbounded.",
  ["src/terms/Term_visitor.h: Visitor::visit"])
p("Clausification is equisatisfiable",
  "The clauses asserted for a set of assertions (with constraint literals read as their constraints) are satisfiable iff the assertions are, and any satisfying assignment of the clauses satisfies the assertions when restricted to the user's variables.",
  "every assertion list over the supported term kinds and every assignment",
  "Infinite domain of formulas.",
  ["src/parser/Solver_wrapper.cpp: Internalizer_config::visit, Solver_wrapper::check"])
p("Every check-sat answers about all assertions made so far",
  "A second (check-sat) after further (assert ...) commands is answered for the conjunction of all assertions.",
  "every script with several check-sat commands",
  "Histories are unbounded.",
  ["src/parser/Solver_wrapper.cpp: Solver_wrapper::check","src/Yaga.cpp: Yaga::init","src/Solver.cpp: Solver::check"])
p("let scoping is lexical and parallel",
  "Inside a let body a symbol denotes the innermost binding, bindings of one let do not see each other, and after the let every symbol denotes what it denoted before.",
  "every nesting of scopes and every symbol",
  "Unbounded nesting and shadowing.",
  ["src/parser/Parser_context.h: Let_records, Let_binder","src/parser/Smt2_term_parser.cpp: parse_term"])
p("Term parsing inverts printing",
  "parse_term on the token sequence of a term built from symbols, numerals, applications and lets consumes exactly these tokens and returns the term denoted by it.",
  "every term and every following input",
  "Unbounded nesting.",
  ["src/parser/Smt2_term_parser.cpp: Smt2_term_parser::parse_term"])
p("DIMACS input is read literally",
  "For a DIMACS text with a correct header the clauses given to the solver are exactly the clauses of the text, in order.",
  "every clause list",
  "Infinite domain.",
  ["src/sat_solver.cpp: Sat_parser"])
p("Events reach every registered listener exactly once",
  "Each event is delivered once, in registration order, to each registered listener and to no removed listener.",
  "every history of add/remove and every event",
  "Histories are unbounded.",
  ["src/Event_dispatcher.h"])
p("No trail element is skipped by a plugin",
  "Between two backtracks the ranges a plugin obtains from assigned(trail) at one decision level are consecutive and cover the whole level; after a backtrack the level is delivered again from its beginning.",
  "every history of trail operations and assigned() calls",
  "Histories are unbounded.",
  ["src/Theory.cpp: Theory::assigned, Theory::on_before_backtrack"])
p("Combined propagation reaches a common fixpoint",
  "Theory_combination::propagate without conflict ends with a full round over all plugins in which nothing was added to the current level.",
  "every set of plugins",
  "Quantifies over plugin behaviours.",
  ["src/Theory_combination.cpp: Theory_combination::propagate"])
with open("/verif/properties.jsonl","w") as f:
    for x in P: f.write(json.dumps(x)+"\n")
print(len(P))
for x in P: print(x["id"],x["title"])
