# Formal model of d3sformal/yaga in Rocq: design

The sources of yaga (C++20) are in /repo. They are read as text; nothing there is built or run.
The model lives in `rocq/theories` (logical name `Verif`).

## 1. Method

* **Shallow functional model.** Every C++ function that matters is a total Gallina function on an
  explicit state record. `std::vector` is `list`, per-variable arrays are total maps with a
  separate range invariant, in-place swaps are list updates, pointers to clauses are symbolic
  references (`Asserted i` / `Learned i`), 32/64-bit machine integers are `Z` with explicit wrap
  or an explicit overflow test.
* **Outcomes.** A function that can misbehave returns `Ok x | UB | Fuel`. `UB` stands for
  undefined behaviour (out-of-range access, empty `optional` dereference, failing `assert`).
  `Fuel` marks exhausted recursion fuel of a C++ loop with no structural bound. Partial
  correctness theorems exclude `Fuel` in their statement; termination theorems show that some
  amount of fuel suffices.
* **Nondeterminism.** Heuristics (variable order, restart policy, phase, hash functions) are
  parameters of the functions (universally quantified in the theorems), constrained only by the
  contract the code gives them; where the code of the heuristic exists it is modelled separately
  and shown to meet the contract.
* **Layout.** `*_Model.v` files hold definitions with citations to /repo; `*_Proofs.v` hold
  lemmas; `*_Spec.v` hold the independent specification; `Prop_*.v` hold only the property
  theorems (each closed by `exact`), `Print Assumptions`, and the non-vacuity `Example`s.
* **Refuted properties.** Where the property is false of the code, the file has a theorem named
  `..._refuted` with a concrete witness, plus the strongest positive statement that does hold,
  named `..._partial` if part of the property is missing.

## 2. Trusted base

Coq 8.16.1 kernel (and `vm_compute` for concrete witnesses). No axioms of our own. The output of `Print Assumptions` for each theorem is
recorded in section 5. Not verified: that the Gallina text mirrors the C++ text (checked by
reading; each definition cites lines), the C++ compiler, GMP, the standard library containers.

## 3. Plan per property

| id | modelled | proof idea |
|----|----------|------------|
| C01,C02,C04-C09 | `Solver::check` with `Bool_theory`, `Trail`, `Conflict_analysis`, `Subsumption`, watch lists, clause database with in-place swaps | one global invariant (trail well-formedness, two-watched-literal invariant, reasons, entailment of learned clauses) preserved by propagate / analyze / learn / backtrack / restart / decide; sat and unsat read off the invariant |
| C03 | same machine | termination measure on learned clauses + LIFO argument for propagation |
| C10,C11 | `Conflict_analysis::analyze`, `Subsumption::minimize` on an arbitrary well-formed trail | induction over the top-level assignments; induction on trail position for redundancy |
| C12 | `Subsumption` (index, remove_subsumed, on_restart) | loop invariant: every cleared clause has an uncleared strict subset |
| C13,C14,C15 | `Trail`, `Model` | invariant over operation sequences |
| C16,C17 | `Literal`, `eval` | arithmetic / induction |
| C18 | `Variable_priority_queue` 4-ary heap with position array | heap invariant refinement to a finite map |
| C19 | `First_unassigned::pick`, `Evsids::pick`, `Generalized_vsids::pick` over the queues | invariant: unassigned variables are queued; findings: `C19_generalized_vsids_restart_refuted` (see C62), `C19_effectively_decided_refuted` |
| C20 | `Luby_restart` | strong induction against the textbook definition |
| C21-C24 | `Long_fraction` on 32-bit words with 64-bit intermediates and an MPQ fallback as exact rationals | number theory over `Z`/`Q`, explicit range tests |
| C25,C26 | `Linear_constraints::make` | evaluation of normalised constraint; hash-consing invariant |
| C27 | `Linear_polynomial` | evaluation homomorphism |
| C28-C34 | `Bounds`, `Variable_bounds`, conflict analyses, `Linear_arithmetic::decide`, watches | evaluation of linear forms over `Q`, timestamps invariant |
| C35, C58 | the main loop of `Solver` for an arbitrary plugin record; the contract of a plugin is `Spec_Theory.plugin_ok` (two strengths) | invariant of the trail (`Theory_Inv.GI`, `Theory_Strict.GS`) kept by every operation a plugin or the loop performs; clauses and level-0 literals are entailed by theory and input; `C58_refuted` runs a plugin that follows a script (`Prop_Weak.v`) |
| C55 | `analyze_conflicts`, `learn` | relational characterisation of the learned set (`Spec_Multi`) |
| C36,C37 | `Uninterpreted_functions` (`Uf_Model.v`): watch lists, evaluation, tables, conflict clauses, over the term table, the trail and the arithmetic plugin | congruence over all interpretations (`Uf_Confl`), invariant over histories of registrations, assignments, backtracks and restarts (`Uf_Proofs`) |
| C38 | `Print_model` and `Long_fraction::print` as texts (`Print_Model.v`), tokens of smt2_lexer.ll (`Lexer_Model.v`) | concatenation lemmas for the lexer; value of the ite-chain by induction over the rows; evaluation is shown to have one result |
| C39-C46 | `Terms`, `Term_manager`, `Arithmetic_polynomial`, `Term_visitor`, `Term_rewriter` | evaluation of the term DAG, hash-consing invariant |
| C47,C48 | `Solver_wrapper::check` and `Internalizer_config::visit` (`Internalizer_Model.v`, over the tables of `Terms_Model`, the visitor and `Linear_constraints`); parameter `ndebug`: the two C++ assertions that can fail are compiled or not | invariant over the visited terms: the value of each literal is the value of its term (`Internalizer_Step.J`), both directions; for C48 the definition clauses are dropped from the invariant, `C48_refuted` is a run of two checks; `Again_Model.check_again` is a later check with its search, `C48_again_refuted` a run of it |
| C49,C50 | `Let_records`, `Parser_context`, `Smt2_term_parser::parse_term` (Parser_Model.v; exceptions are UB) | refinement to a stack of frames; the loop with its explicit stack equals a recursive construction, by induction over expressions; meaning of the result by C41, C43; text by the lexer of C38 |
| C33, C56, C57 | `Theory_combination` with Bool_theory and Linear_arithmetic as composed in Yaga.cpp for QF_LRA (Comb_Model.v), under the main loop of Solver_Model.v; problems and solutions are Spec_Comb.v | a contract for plugins that speaks about decision levels (`Theory_Level.level_ok`): after a backjump to level k everything on levels up to k is still propagated. Kept by the combination (`Comb_Lra.bl_level`): watch lists of clauses (Comb_Bcp.v) and of linear constraints (Lra_Watch.v, Lra_Watch2.v), conflicts are lemmas (C29, C30). The contract gives soundness of unsat (as C35); at sat all watches are in order and everything is assigned |
| C60 | commands of a script (Script_Model.v; calls of the solver are recorded with their arguments, exceptions are UB) | invariant between the context and a specification-level list of declarations, by induction over the script; interpretations and meanings of the declared symbols correspond; text by C38; clauses by C47 |
| C61 | `Solver_wrapper::check` and `model` for the first check of a process (Check_Model.v): translation of the assertions, whose calls to the solver are recorded and replayed on the linear arithmetic plugin, then the search of C56/C57 | the replayed calls make a problem in the sense of Spec_Comb.v, solutions of the problem are exactly assignments that solve the translated clauses (C47), scripts by C60. Assumed of the variable order: it proposes unassigned variables and gives up only when all are assigned (C19); shown here for a simple order, in C62 for the order of the program |
| C62 | Generalized_vsids (Gvsids_Model.v) as the order of the search (Gvorder_Model.v): every event of the solver is forwarded; on_variable_resize is run at the next event. What the order asks linear arithmetic is answered arbitrarily: functions of the number of the event, so the answers of any real run are covered. After a failed assertion of the order (the program would stop) the model goes on with First_unassigned; `C62_no_failure` excludes this for the default options | invariant: a variable is queued, assigned, or a boolean variable whose literal follows by unit propagation from the clauses of the database (`Gvorder_Proofs.gst`). A restart loses the variables of level 0 (`C19_generalized_vsids_restart_refuted`): each has a reason on level 0, so its literal follows by unit propagation, from clauses that are kept or subsumed; after propagate() without conflict such literals are true (`Gvorder_Run.up_true`). Then C61 without a hypothesis on the order |
| C63 | `Solver_wrapper::check` and `model` with the functions plugin (Uf_Model.v, Ufcomb_Model.v, Ufcheck_Model.v): the translation registers each application, the search combines boolean propagation, linear arithmetic and the functions plugin, which adds equalities as linear constraints during the search | the combination meets the level-aware plugin contract (Ufcomb_Level.v: the table of a function holds exactly the fully assigned applications, all values current, after every backtrack), so C08/C09-style answers follow; the final table and the values of constants give the interpretation. Hypothesis `real_functions`: functions from reals to reals, and corresponding arguments have the same monomials or none in common. Finding: when they share some monomials (f(x+y), f(x+z)) the plugin propagates the equality of the arguments at the level of all variables, although the shared ones cancel, so after a backtrack a linear constraint whose variables are all assigned can be unassigned |
| C64 | `main` of smt_solver.cpp (Tool_Model.v): command line, file, commands up to the first check-sat (Script_Model.v), solver with the options of the command line (`check_assertions`, `check_assertions_uf`, Generalized_vsids), printed answer. Combines C60 (text to terms), C62 and C63; Script_Noapps.v shows that a script that never asks for QF_UFLRA makes no applications, so QF_LRA needs no condition on the terms. Command lines are specified as lists of items (Spec_Tool.v); every list of arguments is a list of items or contains an unrecognized option. |
| C65 | the complete search of C56/C57 (Comb_Model.v), the translation (C47) and the tool (C64); every assertion, `value()` of an optional and container access of the modelled functions yields `UB` when it fails | Theory_Safe.v: a contract for plugins under which conflict analysis, learning and backtracking fail no assertion (invariant: reasons and decisions of each level). Comb_Safe1.v: boolean propagation. Lra_Cut*.v, Lra_Safe1-6.v: the bounds at every lower level still have a permitted value and satisfy the unit constraints; the watched variables of a constraint; explaining a conflict. Lra_Safe7.v: with derived bounds, a constraint propagated at a lower level has all its variables assigned there, so every derived bound can be explained. Lra_Shape.v, Comb_Safe2-5.v: the invariants before and after each propagate, decide, backtrack and restart; Check_Safe.v: the translation makes no empty clause |
| C66 | the search of C63 with its translation, and the tool | Ufcomb_Safe1.v: with the variables of every application watched and the polynomials of its arguments available, evaluating arguments, comparing them and asserting the equalities of a conflict fail no assertion and keep the invariants of linear arithmetic (C65). Ufcomb_Safe2.v: so the three plugins meet the contract of Theory_Safe.v. Ufcheck_Safe.v: the translation registers every application after its arguments, with all variables of their polynomials |
| C67 | the parser, the script loop, the term manager and the tool | TermMgr_Unit.v: no constructor makes a product with coefficient 1, unless a product is multiplied or divided, so no equality fails (C42). Parser_Linear.v, Script_Linear.v: in a linear script (Spec_Linear.v) factors and dividends are constants, declared symbols or applications, by induction on expressions and on the commands; composed with C65_tool and C66_tool in Prop_Linear.v. |
| C68 | lra/Fraction.h | Fraction_Model.v: the operators with ints of 32 and intermediate results of 64 bits, overflow is UB. Against rational numbers (Spec_Fraction.v): results are proper fractions of the exact value if it fits; lowest terms are unique (Qred). |
| C69 | memory of lra/Long_fraction.{h,cpp} | Pool_Model.v: objects with state bits, words and a pointer into the pool of GMP rationals; constructors, assignments, destructor, reset and operators allocate, write and release cells. Invariant: the cells are split into those owned by exactly one object and the free ones; every operation simulates that of Rational_Model.v and leaves the other objects alone. Spec_Pool.v states the effect on values. |
| C70 | lra/Linear_constraint.h, Linear_constraints.h | Lincons_Model.v as for C25. Spec_Conobj.v lists the objects a user can hold (returned ones and negations) with the condition each stands for; Conobj_Proofs.v derives the accessors, eval, is_strict and implied_value from the invariant of the repository; Conobj_Model.v: operator<< as a list of tokens. |
| C51 | `main` of sat_solver.cpp (Dimacs_Model.v): lines, reading numbers with `>>`, the counters, the self check of a model; statistics are left out | Spec_Dimacs.v describes the files by their layout (any spacing, comments anywhere between lines, clauses over several lines); the reader returns the clauses of the file, then C01-C03 and C06. Finding: malformed files are accepted (`C51_malformed_refuted`): clauses after the announced number and the rest of a line after a word that is not a number are ignored |
| C52 | `Event_dispatcher` and the owned components of `Solver` with their addresses (Dispatch_Model.v); events themselves have no effect on the list | counting and order by induction over histories; invariant: the registered addresses are a permutation of the current components |
| C53,C54 | `Theory::assigned`, `Theory_combination::propagate` | induction over histories |

## 4. What is modelled and what is not

| file of the model | code in /repo/src |
|---|---|
| Core_Model, Trail_Model, Literal_Model | Variable.h, Literal.h, Literal_map.h, Clause.h, Database.h, Model.h, Trail.{h,cpp}, Theory.cpp |
| Analysis_Model | Conflict_analysis.{h,cpp}, Subsumption.{h,cpp} |
| Solver_Model | Solver.cpp: analyze_conflicts, learn, backtrack_with, restart, check |
| Bool_Model | bool/Bool_theory.{h,cpp}, Theory.cpp |
| Dispatch_Model | Event_dispatcher.h, registration of components in Solver.{h,cpp} |
| Queue_Model, Order_Model, Gvsids_Model, Gvorder_Model | variable_order/*, Restart.h |
| Rational_Model | lra/Long_fraction.{h,cpp} (lra/Rational.h) |
| Lincons_Model | lra/Linear_constraint.h, lra/Linear_constraints.h, utils/Linear_polynomial.{h,cpp} |
| Lra_Model | lra/Variable_bounds.h, lra/Bounds.{h,cpp}, lra/Lra_conflict_analysis.{h,cpp}, lra/Linear_arithmetic.{h,cpp} |
| Comb_Model, Ufcomb_Model | Theory_combination.{h,cpp} with the plugins of Yaga.cpp for QF_LRA and QF_UFLRA |
| Fraction_Model | lra/Fraction.h |
| Pool_Model | memory of lra/Long_fraction.{h,cpp}: mpqPool, copy and move, destructor, operators with aliased arguments (assumes that the copy of a returned local object is elided; with inverse, ceil and floor and its temporary objects; not the gcd and lcm functions, threads, or failed allocation) |
| Uf_Model | uf/Uninterpreted_functions.{h,cpp} |
| Terms_Model, TermMgr_Model, Decimal_Model, Visitor_Model, Rewriter_Model | terms/* |
| Internalizer_Model, Check_Model, Ufcheck_Model | parser/Solver_wrapper.{h,cpp} |
| Lexer_Model, Parser_Model, Script_Model, Print_Model | parser/smt2_lexer.ll, Smt2_term_parser.cpp, Parser_context.{h,cpp}, Smt2_parser.cpp |
| Dimacs_Model | sat_solver.cpp |
| Conobj_Model | printing in lra/Linear_constraint.h |
| Tool_Model | smt_solver.cpp, Options.h, set-up in Yaga.cpp |

Simplifications, each repeated at the definition it concerns:

* References, iterators and pointers are indices; moving a `std::deque` or `std::vector` of plugins is not modelled except in C52.
* Floating point scores of the variable orders are exact rationals, or arbitrary answers where a theorem does not depend on them.
* Numbers of the search are exact rationals (`Qc`); that `Long_fraction` computes with exact rationals is C21-C24, with the exceptions found there.
* Hash functions are arbitrary functions, so every order of buckets and every collision is covered.
* Sizes and counters are unbounded except where the code tests or wraps them (Long_fraction, literals, DIMACS numbers).
* C++ exceptions and failed assertions are both `UB`, except where a parameter `ndebug` tells them apart (C47, C48, C61, C63).

Not modelled: printing of lra/Fraction.h and its instances other than int (the tools use none), utils/Utils.cpp (debug output), statistics and time measurement,
Flex_lexer.cpp and generated scanner tables (only the rules of smt2_lexer.ll), lexer_test.cpp,
the second and later checks of one process beyond C48 (`Again_Model.v` follows such a check as long as it reads no pointer into the clause lists of the earlier one), and unsat cores (the code has none).

## 5. Print Assumptions

Each property theorem is followed by `Print Assumptions` in its `Prop_*.v` file. The output is "Closed under the global context" for
all of them: no axiom is used, neither of ours nor of a library. A checker that lists the axioms of all loaded modules also finds
those declared inside `Coq.ssr.ssrunder` (`Under_rel`), which Coq's standard library loads with `ssreflect`-based libraries; no
theorem depends on them. Theorems about concrete scripts use `vm_compute`, which is part of the kernel.

## 6. Findings

Claims that the faithful model refutes. Each theorem gives the witness.

| theorem | what happens |
|---|---|
| C19_generalized_vsids_restart_refuted, C19_effectively_decided_refuted | the order of QF_LRA can stop proposing a variable after a restart, or because it counts as decided (harmless for answers: C62) |
| C24_make_refuted, C24_inv_refuted, C24_mod_refuted | `Long_fraction`: construction from a negative numerator that shares a factor with the denominator (Rational(-2, 4)), `inv()` of a multi-precision number or of a denominator above 2^31, `%` with a negative dividend |
| C25_repeated_refuted | a request with a repeated variable can get the literal of a different constraint |
| C34_refuted | with 0 <= x <= 5 the equality x = 5 is reported as implied (only with an option that no tool sets) |
| C36_refuted, C63_boolean_refuted | conflict clauses of functions leave out Boolean arguments; a satisfiable script is answered with unsat |
| C37_refuted, C37_sign_refuted | stale function tables after a restart; wrong value for Boolean terms with a negative literal |
| C38_quoted_refuted, C38_empty_refuted | names that need quotes are printed without them; an empty function table is read out of bounds |
| C42_total_refuted, C47_total_refuted | constructors and the translation fail on well-sorted input |
| C44_refuted, C60_division_refuted | division by a numeral overflows; an unsatisfiable script is answered with sat |
| C45_refuted, C60_macro_refuted | calls of defined functions are not expanded; an unsatisfiable script is answered with sat |
| C46_root_refuted | visiting a root twice fails an assertion |
| C48_refuted | a second check forgets definitions of terms and can answer sat wrongly |
| C48_stale, C48_again_refuted | a second check keeps the trail of the first; if all variables have values it answers sat without looking at a clause: (or x y), check, then x and (not x), check answers sat twice |
| C51_malformed_refuted | malformed DIMACS files are read without a message |
| C58_refuted | with a plugin whose reason clauses lie below the level of the literal, the main loop can decide an assigned variable again; minimisation becomes circular and a satisfiable problem is answered with unsat. The propagations of the QF_LRA and QF_UFLRA plugins are shown to keep to the stronger condition in the proofs of C56 and C63 |
| C65_empty_refuted | an empty clause among those given to the solver: its first literal is read |
| C66_equality_refuted | (= (f x) 1) in a build with assertions: the translation fails one |
| C67_nested_refuted | (= x (* (- 1) (- x))) is well-sorted and linear, and reading it fails an assertion |
| C68_round_refuted | Fraction(-1, 2) is converted to 0, although the comment promises to round down |
| C68_zero_refuted | a fraction divided by zero is 1/0, without an assertion |
| C68_min_refuted | Fraction(INT_MIN, 2), -1 - INT_MIN and 2 / INT_MIN overflow although int can represent the results |
| C63_cancel_refuted | arguments that cancel make an assertion of linear arithmetic fail |

Observed while reading, without a theorem: `(<= a b c)` and `(- a b c)` fail an assertion and, without assertions, drop arguments;
functions declared under QF_LRA are ignored; a list value in `set-info` is read as one token; time stamps of trail bounds wrap at 2^31;
the default constructor of `Solver` keeps a reference to a destroyed temporary.
