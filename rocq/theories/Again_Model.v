(** A later check of the same process, logic QF_LRA: what Solver_wrapper::check does when the solver already
    has a trail. *)
From Coq Require Import List Arith ZArith QArith NArith Bool.
From Verif Require Import Base Core_Model Bool_Model Trail_Model Solver_Model Lincons_Model Lra_Model Comb_Model
  Terms_Model Internalizer_Model Check_Model.
Import ListNotations.
Open Scope nat_scope.

Section C.
Variables (hi : nat -> Z) (hv : Q -> Z) (opt : lopt).

(** The calls of a translation (the latest first) made to a solver in use: as [replay] of Check_Model.v, Yaga.cpp 103-108 make and Yaga.h
    163-184 linear_constraint, from the plugin and the trail the last check left. *)
Fixpoint replay_from (a0 : lra) (t0 : trail) (cs : list call) : res (lra * trail) :=
  match cs with
  | [] => Ok (a0, t0)
  | CallBool :: cs' =>
      '(a, t) <- replay_from a0 t0 cs' ;; Ok (new_vars a t (S (mnum (t_bm t))) (mnum (t_qm t)))
  | CallReal :: cs' =>
      '(a, t) <- replay_from a0 t0 cs' ;; Ok (new_vars a t (mnum (t_bm t)) (S (mnum (t_qm t))))
  | CallLin ts p rhs :: cs' =>
      '(a, t) <- replay_from a0 t0 cs' ;; '(a', t', _) <- lra_constraint hi hv opt a t ts p rhs ;; Ok (a', t')
  end.

(** Yaga.cpp 63-67 init, before the translation, clears both lists of clauses; Solver.cpp 159-176 init, at the start of the search, keeps
    the trail and the states of the plugins. [cs]: the clauses of the new check. Simplification: the watch lists and the reasons in the
    trail point into the old lists; here such a pointer reads the new lists. The theorems speak about runs that follow none of them. *)
Definition next_solver {TS HS} (s : solver (TS := TS) (HS := HS)) (cs : list clause) (t : trail) (ts : TS) (hs : db -> trail -> HS)
  : solver (TS := TS) (HS := HS) :=
  mkS (mkDb cs []) t ts (hs (mkDb cs []) t) (s_old s).

(** Solver_wrapper.cpp 22-83 check, not the first of the process. [p] and [st]: what the internalizer has visited and its maps, [s]: the
    solver after the last check. The table of constraints is the one of the plugin. *)
Definition check_again {HS} (ndebug : bool) (he : heur HS) (hash : lit -> N) (df fuel : nat) (hs : db -> trail -> HS) (T : table)
           (p : list nat) (st : ist) (s : solver (TS := bstate * lra) (HS := HS)) (assertions : list term)
  : res (answer * option (ist * solver (TS := bstate * lra) (HS := HS))) :=
  x <- translate ndebug hi hv T p (mkIs (l_st (snd (s_th s))) (is_nreal st) (is_bool st) (is_real st) (is_cls st) (is_calls st)) assertions ;;
  match x with
  | None => Ok (Unsat, None)
  | Some (_, st') =>
      '(a, t) <- replay_from (snd (s_th s)) (s_trail s) (firstn (length (is_calls st') - length (is_calls st)) (is_calls st')) ;;
      '(s', ans) <- run (bl_theory hi hv opt df) he hash fuel (next_solver s (is_cls st') t (fst (s_th s), a) hs) ;;
      Ok (ans, Some (st', s'))
  end.
End C.
