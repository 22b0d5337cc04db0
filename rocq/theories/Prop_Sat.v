(** C01-C12: the propositional solver. *)
From Coq Require Import List Arith ZArith NArith QArith Bool Lia Permutation.
From Verif Require Import Base Core_Model Analysis_Model Bool_Model Solver_Model Spec_Sat Order_Model
  Subsumption_Proofs Sat_Main Sat_Thms Sat_Wrap Sat_Examples Order_Proofs.
Import ListNotations.
Open Scope nat_scope.

Example ex_legal : legal 6 ex_php /\ legal 4 ex_sat.
Proof. exact (conj (legal_dec 6 ex_php eq_refl) (legal_dec 4 ex_sat eq_refl)). Qed.
Example ex_admissible : admissible 6 ex_he (ex_h 6 ex_php) /\ admissible 4 ex_he (ex_h 4 ex_sat).
Proof. exact (conj (evsids_admissible 6 luby_restart (mkDb ex_php []) _) (evsids_admissible 4 luby_restart (mkDb ex_sat []) _)). Qed.
Example ex_answers :
  match ex_run 6 ex_php with Ok (s, Unsat) => 0 <? length (learned (s_db s)) | _ => false end = true /\
  match ex_run 4 ex_sat with Ok (s, Sat) => forallb (mdef (t_bm (s_trail s))) [0; 1; 2; 3] | _ => false end = true.
Proof. now vm_compute. Qed.

(** C01: sat => total model satisfying all asserted clauses. *)
Theorem C01_sat_model : forall HS (he : heur HS) hash n cs o h fuel s,
  legal n cs -> admissible n he h ->
  check_bool he hash fuel n cs o h = Ok (s, Sat) ->
  (forall i, i < n -> mdef (t_bm (s_trail s)) i = true) /\
  all_hold (mval (t_bm (s_trail s))) cs.
Proof. exact sat_model_lemma. Qed.
Print Assumptions C01_sat_model.

(** C02: unsat => no assignment satisfies the asserted clauses. *)
Theorem C02_unsat_sound : forall HS (he : heur HS) hash n cs o h fuel s,
  legal n cs -> admissible n he h ->
  check_bool he hash fuel n cs o h = Ok (s, Unsat) ->
  forall a, ~ all_hold a cs.
Proof. exact unsat_lemma. Qed.
Print Assumptions C02_unsat_sound.

(** C03: there is a number of loop iterations after which check() has returned. *)
Theorem C03_termination : forall HS (he : heur HS) hash n cs o h,
  legal n cs -> admissible n he h ->
  exists k s a, forall fuel, k <= fuel -> check_bool he hash fuel n cs o h = Ok (s, a).
Proof. exact termination_lemma. Qed.
Print Assumptions C03_termination.

(** Completeness, a consequence of C01-C03: check() answers exactly satisfiability. *)
Theorem C03_decision_procedure : forall HS (he : heur HS) hash n cs o h,
  legal n cs -> admissible n he h ->
  exists k s a, (forall fuel, k <= fuel -> check_bool he hash fuel n cs o h = Ok (s, a)) /\
    (a = Sat <-> exists v, all_hold v cs).
Proof. exact decision_lemma. Qed.
Print Assumptions C03_decision_procedure.

(** C04: no undefined behaviour or failing assertion on legal input; all literals in the database
    stay within the range of the watch lists; an empty clause does reach an out-of-range access. *)
Theorem C04_no_undefined_behaviour :
  (forall HS (he : heur HS) hash n cs o h fuel,
     legal n cs -> admissible n he h -> check_bool he hash fuel n cs o h <> UB) /\
  (forall HS (he : heur HS) hash n cs o h d t,
     legal n cs -> admissible n he h -> moment bool_theory he hash (solver_start n cs o h) d t ->
     legal n (asserted d ++ learned d)) /\
  (forall HS (he : heur HS) hash n cs o h fuel,
     In [] cs -> check_bool he hash (S fuel) n cs o h = UB).
Proof. exact no_UB_lemma. Qed.
Print Assumptions C04_no_undefined_behaviour.

(** C05 *)
Theorem C05_learned_entailed : forall HS (he : heur HS) hash n cs o h d t,
  legal n cs -> admissible n he h ->
  moment bool_theory he hash (solver_start n cs o h) d t ->
  forall c, In c (learned d) -> entails cs c.
Proof. exact learned_lemma. Qed.
Print Assumptions C05_learned_entailed.

(** C06: clause i of db().asserted() is at every moment a permutation of clause i as asserted. *)
Theorem C06_asserted_preserved : forall HS (he : heur HS) hash n cs o h d t,
  legal n cs -> admissible n he h ->
  moment bool_theory he hash (solver_start n cs o h) d t ->
  length (asserted d) = length cs /\
  forall i, Permutation (nth i cs []) (nth i (asserted d) []).
Proof. exact asserted_lemma. Qed.
Print Assumptions C06_asserted_preserved.

(** C07 *)
Theorem C07_propagation_exhaustive : forall HS (he : heur HS) hash n cs o h s fuel ts d t,
  legal n cs -> admissible n he h ->
  reach bool_theory he hash (solver_start n cs o h) s ->
  bool_propagate fuel (s_th s) (s_db s) (s_trail s) = Ok (ts, d, t, []) ->
  forall c, In c (asserted d ++ learned d) ->
    eval_clause (t_bm t) c <> Some false /\
    (NoDup c -> forall l, In l c ->
       (forall x, In x c -> x <> l -> eval_lit (t_bm t) x = Some false) ->
       eval_lit (t_bm t) l = Some true).
Proof. exact exhaustive_lemma. Qed.
Print Assumptions C07_propagation_exhaustive.

(** C08 *)
Theorem C08_conflict_real : forall HS (he : heur HS) hash n cs o h s fuel ts d t out,
  legal n cs -> admissible n he h ->
  reach bool_theory he hash (solver_start n cs o h) s ->
  bool_propagate fuel (s_th s) (s_db s) (s_trail s) = Ok (ts, d, t, out) ->
  forall c, In c out ->
    In c (asserted d ++ learned d) /\ forall l, In l c -> eval_lit (t_bm t) l = Some false.
Proof. exact conflict_lemma. Qed.
Print Assumptions C08_conflict_real.

(** C09 *)
Theorem C09_reasons_imply : forall HS (he : heur HS) hash n cs o h d t v r,
  legal n cs -> admissible n he h ->
  moment bool_theory he hash (solver_start n cs o h) d t ->
  t_rsn t v = Some r ->
  In (getc d r) (asserted d ++ learned d) /\
  exists l, In l (getc d r) /\ lvar l = v /\ eval_lit (t_bm t) l = Some true /\
    forall x, In x (getc d r) -> x <> l ->
      eval_lit (t_bm t) x = Some false /\ assigned_before t (lvar x) v.
Proof. exact reasons_lemma. Qed.
Print Assumptions C09_reasons_imply.

(** C10: analysis of any clause that is false on a reachable trail. Either the clause is false
    already at level 0, and the empty clause is returned, or the result has exactly one literal
    above the returned level, which is the level of another literal, or 0 for a unit clause. *)
Theorem C10_conflict_analysis : forall HS (he : heur HS) hash n cs o h d t c,
  legal n cs -> admissible n he h ->
  moment bool_theory he hash (solver_start n cs o h) d t ->
  (forall l, In l c -> eval_lit (t_bm t) l = Some false) ->
  exists c' lvl resolved, analyze d t c = Ok (c', lvl, resolved) /\
    (forall a, clause_holds a c -> (forall v r, t_rsn t v = Some r -> clause_holds a (getc d r)) ->
       clause_holds a c') /\
    (forall l, In l c' -> eval_lit (t_bm t) l = Some false) /\
    NoDup c' /\ levels_decrease t c' /\
    ((c' = [] /\ lvl = (-1)%Z /\ forall l, In l c -> lit_level t l = Some 0) \/
     (exists l0 rest k, c' = l0 :: rest /\ lit_level t l0 = Some k /\ (0 <= lvl < Z.of_nat k)%Z /\
        (forall l, In l rest -> exists j, lit_level t l = Some j /\ (Z.of_nat j <= lvl)%Z) /\
        (rest <> [] -> exists l, In l rest /\ lit_level t l = Some (Z.to_nat lvl)) /\
        (rest = [] -> lvl = 0%Z))).
Proof. exact analysis_lemma. Qed.
Print Assumptions C10_conflict_analysis.

(** C11: only deletions, order kept, still implied, and every level >= 1 that had a literal still
    has one (so an asserting clause stays asserting with the same backjump level). *)
Theorem C11_minimisation : forall HS (he : heur HS) hash n cs o h d t c,
  legal n cs -> admissible n he h ->
  moment bool_theory he hash (solver_start n cs o h) d t ->
  (forall l, In l c -> eval_lit (t_bm t) l = Some false) ->
  exists c', minimize d t c = Ok c' /\ sub c' c /\
    (forall a, clause_holds a c -> (forall v r, t_rsn t v = Some r -> clause_holds a (getc d r)) ->
       clause_holds a c') /\
    (forall k l, 1 <= k -> In l c -> lit_level t l = Some k ->
       exists l', In l' c' /\ lit_level t l' = Some k).
Proof. exact minimise_lemma. Qed.
Print Assumptions C11_minimisation.

(** C12: for every learned list, old/new boundary and hash function. *)
Theorem C12_subsumption : forall hash old L,
  old <= length L ->
  exists L', remove_subsumed hash old L = Ok L' /\
    sub L' L /\ (forall c, In c L' -> c <> []) /\
    (forall c, In c L -> c <> [] ->
       In c L' \/ exists c', In c' L' /\ incl c' c /\ length c' < length c).
Proof. exact remove_subsumed_ok. Qed.
Print Assumptions C12_subsumption.

Example C12_nonvacuous :
  remove_subsumed ex_hash 2
    [[mkLit 0 false; mkLit 1 false; mkLit 2 true]; [mkLit 3 false; mkLit 4 false];
     [mkLit 1 false; mkLit 2 true]; [mkLit 4 false]] =
  Ok [[mkLit 1 false; mkLit 2 true]; [mkLit 4 false]].
Proof. now vm_compute. Qed.

(** Non-vacuity of the statements over reachable states: a run of the pigeonhole instance reaches
    a state with an analysed conflict and a reason on the trail. *)
Example ex_moment :
  exists s ts d t c, reach bool_theory ex_he ex_hash (solver_start 6 ex_php PhaseCache (ex_h 6 ex_php)) s /\
    bool_propagate 50 (s_th s) (s_db s) (s_trail s) = Ok (ts, d, t, [c]) /\ dl t = 1 /\
    t_rsn t (VBool 3) <> None.
Proof. exact ex_moment_lemma. Qed.
