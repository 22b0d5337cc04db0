{"claims": [
 {"property": "C01", "status": "proved", "theorems": ["C01_sat_model"], "note": "Propositional solver (Bool_theory plugin), any admissible variable order / restart policy / hash."},
 {"property": "C02", "status": "proved", "theorems": ["C02_unsat_sound"], "note": "Propositional solver (Bool_theory plugin), any admissible variable order / restart policy / hash."},
 {"property": "C03", "status": "proved", "theorems": ["C03_termination", "C03_decision_procedure"], "note": "Propositional solver (Bool_theory plugin), any admissible variable order / restart policy / hash."},
 {"property": "C04", "status": "proved", "theorems": ["C04_no_undefined_behaviour"], "note": "Propositional solver (Bool_theory plugin), any admissible variable order / restart policy / hash. Legal input excludes the empty clause, which is shown to reach undefined behaviour."},
 {"property": "C05", "status": "proved", "theorems": ["C05_learned_entailed"], "note": "Propositional solver (Bool_theory plugin), any admissible variable order / restart policy / hash."},
 {"property": "C06", "status": "proved", "theorems": ["C06_asserted_preserved"], "note": "Propositional solver (Bool_theory plugin), any admissible variable order / restart policy / hash."},
 {"property": "C07", "status": "proved", "theorems": ["C07_propagation_exhaustive"], "note": "Propositional solver (Bool_theory plugin), any admissible variable order / restart policy / hash."},
 {"property": "C08", "status": "proved", "theorems": ["C08_conflict_real"], "note": "Propositional solver (Bool_theory plugin), any admissible variable order / restart policy / hash."},
 {"property": "C09", "status": "proved", "theorems": ["C09_reasons_imply"], "note": "Propositional solver (Bool_theory plugin), any admissible variable order / restart policy / hash."},
 {"property": "C10", "status": "proved", "theorems": ["C10_conflict_analysis"], "note": "Propositional solver (Bool_theory plugin), any admissible variable order / restart policy / hash."},
 {"property": "C11", "status": "proved", "theorems": ["C11_minimisation"], "note": "Propositional solver (Bool_theory plugin), any admissible variable order / restart policy / hash."},
 {"property": "C12", "status": "proved", "theorems": ["C12_subsumption"], "note": "Propositional solver (Bool_theory plugin), any admissible variable order / restart policy / hash."},
 {"property": "C13", "status": "proved", "theorems": ["C13_backtrack"], "note": ""},
 {"property": "C14", "status": "proved", "theorems": ["C14_bookkeeping"], "note": ""},
 {"property": "C15", "status": "proved", "theorems": ["C15_timestamps", "C15_later_is_larger"], "note": "Timestamps are unbounded integers in the model; the int counter of the code wraps after 2^31 assignments."},
 {"property": "C16", "status": "proved", "theorems": ["C16_literal_encoding"], "note": ""},
 {"property": "C17", "status": "proved", "theorems": ["C17_clause_evaluation", "C17_literal_evaluation"], "note": ""},
 {"property": "C18", "status": "proved", "theorems": ["C18_priority_queue"], "note": "Scores are any values compared by a strict weak order."},
 {"property": "C19", "status": "proved", "theorems": ["C19_first_unassigned", "C19_evsids", "C19_combined", "C19_generalized_vsids", "C19_generalized_vsids_restart_refuted", "C19_effectively_decided_refuted"], "note": "Generalized_vsids alone does not satisfy the claim for variables that were on level 0 at a restart; the exact statement that holds and the counterexamples are theorems."},
 {"property": "C20", "status": "proved", "theorems": ["C20_luby_restarts", "C20_luby_unique"], "note": "Counters are unbounded; the theorem gives the range in which the int product does not overflow."},
 {"property": "C21", "status": "proved", "theorems": ["C21_exact_arithmetic", "C21_exact_assignment"], "note": "GMP operations are their documented contract; memory pool not modelled."},
 {"property": "C22", "status": "proved", "theorems": ["C22_canonical", "C22_order"], "note": "Objects built by the two-argument constructor only for the arguments it handles correctly (C24_make_refuted)."},
 {"property": "C23", "status": "proved", "theorems": ["C23_rounding", "C23_round_to_int"], "note": ""},
 {"property": "C24", "status": "partial", "theorems": ["C24_inverse", "C24_string", "C24_make_partial", "C24_make_refuted", "C24_inv_partial", "C24_inv_refuted", "C24_mod_partial", "C24_mod_refuted", "C24_floor_division"], "note": "The full statement is false of the code: Rational(-2,4), inv() of a multi-precision operand and -7 % 3 are counterexamples; the partial theorems give the exact conditions under which it holds."},
 {"property": "C25", "status": "proved", "theorems": ["C25", "C25_agreeing_assignment", "C25_eval", "C25_repeated_refuted"], "note": "Any hash functions. Requests with distinct variables; the counterexample for repeated variables is a theorem."},
 {"property": "C26", "status": "proved", "theorems": ["C26_no_mixup", "C26_equivalent", "C26_complementary"], "note": "Any hash functions."},
 {"property": "C27", "status": "proved", "theorems": ["C27_add", "C27_sub", "C27_negate", "C27_subtract_var", "C27_add_wf", "C27_sub_wf", "C27_sort"], "note": ""},
 {"property": "C28", "status": "proved", "theorems": ["C28"], "note": "for every run of the plugin, all options and hash functions; disequalities included"},
 {"property": "C29", "status": "proved", "theorems": ["C29", "C29_C30_propagate"], "note": "validity over all rational assignments; falsity in the trail after the analysis; also for all clauses of one propagate call"},
 {"property": "C30", "status": "proved", "theorems": ["C30", "C29_C30_propagate"], "note": "as C29, for disequality conflicts"},
 {"property": "C31", "status": "proved", "theorems": ["C31", "C31_sound", "C31_init"], "note": "stronger than the property: the result is exactly the projection"},
 {"property": "C32", "status": "proved", "theorems": ["C32"], "note": ""},
 {"property": "C33", "status": "proved", "theorems": ["C33"], "note": "for the option combinations the front end can select (prop_rational and prop_bounds free, prop_unassigned off); the state right after a propagation without conflict, in every reachable state of the main loop"},
 {"property": "C34", "status": "partial", "theorems": ["C34_partial", "C34_refuted"], "note": "false for equalities, as C34_refuted shows; proved for < and <= and their negations"},
 {"property": "C35", "status": "proved", "theorems": ["C35_unsat_sound", "C35_bool_plugin"], "note": "for every plugin, variable order and restart policy; the contract is Spec_Theory.plugin_ok with strict = true"},
 {"property": "C36", "status": "partial", "theorems": ["C36_partial", "C36_refuted"], "note": "Proved for real values and for Boolean arguments that are one term. The full claim is false (C36_refuted): equalities of different Boolean arguments are left out of the clause. After a restart the clause can be empty."},
 {"property": "C37", "status": "partial", "theorems": ["C37_partial", "C37_refuted", "C37_sign_refuted"], "note": "Proved for histories without a restart, and above level 0 after one, if Boolean terms have positive literals. False after a restart (C37_refuted) and for terms with negative literals (C37_sign_refuted)."},
 {"property": "C38", "status": "proved", "theorems": ["C38_function", "C38_value_unique", "C38_constant", "C38_keys", "C38_quoted_refuted", "C38_empty_refuted"], "note": "Characters of the output, tokens of smt2_lexer.ll, value of the s-expression. Names are simple symbols: names that need quotes are printed without them (C38_quoted_refuted). An empty table, which a backtrack can leave, is undefined behaviour (C38_empty_refuted)."},
 {"property": "C39", "status": "proved", "theorems": ["C39_sharing", "C39_immutable"], "note": "any hash functions, including constant ones"},
 {"property": "C40", "status": "proved", "theorems": ["C40_boolean", "C40_direct"], "note": ""},
 {"property": "C41", "status": "proved", "theorems": ["C41_sound", "C41_total", "C41_app"], "note": "tables are those reachable by declarations and constructor calls; division is C44; equality of a variable with one times itself does not return (C42)"},
 {"property": "C42", "status": "partial", "theorems": ["C42_atom", "C42_total_partial", "C42_total_refuted"], "note": "no atom without a variable is ever returned; but for a variable and one times this variable the call fails instead of returning true"},
 {"property": "C43", "status": "proved", "theorems": ["C43_numeral", "C43_decimal"], "note": "GMP string conversion is its documented contract"},
 {"property": "C44", "status": "partial", "theorems": ["C44_partial", "C44_refuted"], "note": "false for divisors outside the word range: inverse through Long_fraction::inv; exact conditions in C44_partial"},
 {"property": "C45", "status": "partial", "theorems": ["C45_partial", "C45_result", "C45_refuted"], "note": "False of the code: the rewriter's test for unprocessed children is inverted, so only a body that is itself a formal parameter is replaced (C45_refuted: (or x y)). Proved for bodies that are a formal parameter or contain none; C45_result says what is returned for every body."},
 {"property": "C46", "status": "proved", "theorems": ["C46", "C46_any", "C46_root_refuted"], "note": "The overload for a list of roots, any number of calls, the table may grow between calls. The overload for one root fails its assertion on a root visited before (C46_root_refuted)."},
 {"property": "C47", "status": "proved", "theorems": ["C47_sound", "C47_complete", "C47_equisat", "C47_unsat_now", "C47_total", "C47_total_refuted"], "note": "Both directions for every assertion list whose translation succeeds, in builds with and without C++ assertions. Totality on supported lists (all of QF_LRA); C47_total_refuted: (= (f x) 1) fails an assertion, (not (P x)) and (P false) fail in every build. With applications the clauses are related to interpretations that give applications the values of their variables (the congruence of these is C36)."},
 {"property": "C48", "status": "partial", "theorems": ["C48_partial", "C48_refuted", "C48_stale", "C48_again_refuted"], "note": "Unsat direction of the translation for every history of checks. The sat direction is false after the first check: definitions of terms translated before are not asserted again (C48_refuted), and the search of a later check keeps the trail of the earlier one and does not look at its clauses (C48_stale, C48_again_refuted)."},
 {"property": "C49", "status": "proved", "theorems": ["C49", "C49_restored"], "note": "Histories of opened scopes, bindings and closed scopes; refinement to a stack of frames. That bindings of one let do not see each other is part of C50 (value of a let)."},
 {"property": "C50", "status": "partial", "theorems": ["C50_text", "C50_consumes", "C50", "C50_total_partial"], "note": "Text to tokens, tokens to term, meaning of the term in every interpretation. Division as far as it is exact (C44): by a numeral or decimal whose numerator and denominator are below 2^31, or of two numbers. Left out: other divisions and calls of functions defined with parameters (C45, the expansion is wrong). That a result is returned needs products with a numeral as a factor and no equations between reals: without this constructors can fail (C42_total_refuted)."},
 {"property": "C51", "status": "proved", "theorems": ["C51", "C51_tool", "C51_counts", "C51_malformed_refuted"], "note": "from the text of the file to the printed answer, with termination; scores of Evsids are exact rationals. Files that are not DIMACS are not always refused (C51_malformed_refuted)."},
 {"property": "C52", "status": "proved", "theorems": ["C52", "C52_solver"], "note": "listeners do not add or remove listeners during an event (none does)"},
 {"property": "C53", "status": "proved", "theorems": ["C53_nothing_skipped"], "note": ""},
 {"property": "C54", "status": "proved", "theorems": ["C54_fixpoint", "C54_nothing_added", "C54_terminates"], "note": ""},
 {"property": "C55", "status": "proved", "theorems": ["C55"], "note": ""},
 {"property": "C56", "status": "proved", "theorems": ["C56", "C56_C57_agree"], "note": "whole check: Bool_theory and Linear_arithmetic combined as Yaga does for QF_LRA, any order that picks unassigned variables; hypotheses on the requests: distinct variables"},
 {"property": "C57", "status": "proved", "theorems": ["C57", "C56_C57_agree"], "note": "as C56; the order may give up only when the variables of the problem are assigned (C19)"},
 {"property": "C58", "status": "partial", "theorems": ["C58_unsat_sound_partial", "C58_refuted"], "note": "The full statement is false (C58_refuted): a conflict can decide again a variable that stays assigned below, minimisation then removes two literals because of each other, and a satisfiable problem is answered with unsat. Proved for runs in which no conflict raises the level of an assigned variable."},
 {"property": "C60", "status": "partial", "theorems": ["C60_text", "C60", "C60_checks", "C60_clauses", "C60_total_partial", "C60_macro_refuted", "C60_division_refuted"], "note": "Text to tokens to assertions, and (with C47) to the clauses of the first check. Scripts whose names are declared once and are not names of the theory. Left out: inexact divisions and calls of functions defined with parameters (as in C50); for both there are unsatisfiable scripts that are answered with sat (C60_macro_refuted, C60_division_refuted). That every well-sorted script is read to the end is proved for the expressions of C50_total_partial."},
 {"property": "C61", "status": "proved", "theorems": ["C61_unsat", "C61_sat", "C61_script"], "note": "first check of a process; assertions without function applications for the sat answer; variable order as in C57"},
 {"property": "C62", "status": "proved", "theorems": ["C62_order", "C62_no_failure", "C62_unsat", "C62_sat", "C62_script"], "note": "any score arithmetic with the laws of Spec_Queue.v and Spec_Order.v, any answers of linear arithmetic to the order; no failed assertion when linear arithmetic reports no effectively decided variables (the default)"},
 {"property": "C63", "status": "proved", "theorems": ["C63_unsat", "C63_sat", "C63_script", "C63_vsids_unsat", "C63_vsids_sat", "C63_boolean_refuted", "C63_cancel_refuted"], "note": "first check of a process; functions from reals to reals (with a function of Booleans a satisfiable script is answered with unsat: C63_boolean_refuted); corresponding arguments of two applications of a function have the same monomials or none in common (without this an assertion can fail: C63_cancel_refuted)"},
 {"property": "C64", "status": "proved", "theorems": ["C64_options", "C64_usage", "C64_effect", "C64_lra", "C64_uflra", "C64_printed"], "note": "first answer of a run; QF_UFLRA under the condition of C63; whether a run ends is not part of it; that it fails no assertion is C65 for QF_LRA"},
 {"property": "C65", "status": "proved", "theorems": ["C65", "C65_order", "C65_assertions", "C65_tool", "C65_empty_refuted"], "note": "all options of the command line (the option of the plugin that tries unassigned constraints is never set by the tool); of the tool, up to the first answer and for scripts whose terms can be built (C60_total_partial gives a class of them). Whether a run ends is not part of it. A problem with an empty clause is no problem: its first literal is read (C65_empty_refuted); the translation never makes one."},
 {"property": "C66", "status": "proved", "theorems": ["C66", "C66_assertions", "C66_tool", "C66_equality_refuted"], "note": "for real functions with aligned arguments (real_functions, as in C63), and in a build with assertions without equalities that have an application as a side (otherwise the check fails an assertion, C66_equality_refuted); of the tool, up to the first answer and for scripts whose terms can be built. Whether a run ends is not part of it."},
 {"property": "C67", "status": "proved", "theorems": ["C67", "C67_tool", "C67_uflra", "C67_nested_refuted"], "note": "linear expressions as in Spec_Linear.v; of the tool, up to the first answer; scores as in C39; for QF_UFLRA under the conditions of C66. C67_nested_refuted: a script where a product is multiplied is rejected"},
 {"property": "C68", "status": "partial", "theorems": ["C68_make_partial", "C68_add", "C68_mul", "C68_neg", "C68_inv", "C68_sub_partial", "C68_div_partial", "C68_mixed_partial", "C68_compare", "C68_compare_int", "C68_hash", "C68_to_int", "C68_round_refuted", "C68_zero_refuted", "C68_min_refuted"], "note": "everything proved except operands equal to the smallest int, division by zero and the direction of rounding, where the claim is false (_refuted)"},
 {"property": "C69", "status": "proved", "theorems": ["C69_independent_values", "C69_memory"], "note": "Assumes elision of the copy of a returned object and that allocation succeeds; single thread. The functions on integers (gcd, lcm, division) are not commands of the memory model."},
 {"property": "C70", "status": "proved", "theorems": ["C70_parts", "C70_eval", "C70_strict", "C70_strict_request", "C70_multiple", "C70_implied_value", "C70_print"], "note": "Requests with distinct variables, as in C25. Printing is modelled as tokens, not characters."}
]}
