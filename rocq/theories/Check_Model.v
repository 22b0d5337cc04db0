(** A check of assertions with the logic QF_LRA: the translation, the calls it makes to the solver, and the
    solver's search. *)
From Coq Require Import List Arith ZArith QArith NArith Bool.
From Verif Require Import Base Core_Model Bool_Model Trail_Model Solver_Model Lincons_Model Lra_Model Comb_Model
  Terms_Model Internalizer_Model.
Import ListNotations.
Open Scope nat_scope.

Section C.
Variables (hi : nat -> Z) (hv : Q -> Z) (opt : lopt).

(** Trail.cpp 6-18 resize and Linear_arithmetic.cpp 14-17 on_variable_resize, called by Yaga.cpp 103-108 make *)
Definition new_vars (a : lra) (t : trail) (nb nq : nat) : lra * trail :=
  (with_st a (lc_resize (l_st a) nb), trail_resize t nb nq).
(** The arithmetic plugin and the trail after the calls the translation made, the latest first: Yaga.cpp 103-108
    make (both types), Yaga.h 163-184 linear_constraint *)
Fixpoint replay (cs : list call) : res (lra * trail) :=
  match cs with
  | [] => Ok (lra_new, trail_new 0 0)
  | CallBool :: cs' =>
      '(a, t) <- replay cs' ;; Ok (new_vars a t (S (mnum (t_bm t))) (mnum (t_qm t)))
  | CallReal :: cs' =>
      '(a, t) <- replay cs' ;; Ok (new_vars a t (mnum (t_bm t)) (S (mnum (t_qm t))))
  | CallLin ts p rhs :: cs' =>
      '(a, t) <- replay cs' ;; '(a', t', _) <- lra_constraint hi hv opt a t ts p rhs ;; Ok (a', t')
  end.

(** Solver_wrapper.cpp 22-83 check, the first check of a process. [hs] is the state of the variable order and the restart policy once it
    was told the clauses and the numbers of variables (Solver.cpp 160-176). The result is the answer and, unless it was found without the
    solver, the maps of the translation and the solver. *)
Definition check_assertions {HS} (ndebug : bool) (he : heur HS) (hash : lit -> N) (df fuel : nat) (o : phase_opt)
           (hs : db -> trail -> HS) (T : table) (assertions : list term)
  : res (answer * option (ist * solver (TS := bstate * lra) (HS := HS))) :=
  x <- translate ndebug hi hv T [] is_new assertions ;;
  match x with
  | None => Ok (Unsat, None)
  | Some (_, st) =>
      '(a, t) <- replay (is_calls st) ;;
      '(s, ans) <- check_lra hi hv opt he hash df fuel (is_cls st) o a t (hs (mkDb (is_cls st) []) t) ;;
      Ok (ans, Some (st, s))
  end.
End C.

(** Solver_wrapper.cpp 51-66 (the map of variables, which forgets the sign of the literal) and 90-108 model: the declared
    constants that have a value, with the value. Function models (110-125) do not exist in QF_LRA; for QF_UFLRA see Ufcheck_Model.v. *)
Definition show_model {TS HS} (T : table) (st : ist) (s : solver (TS := TS) (HS := HS)) : list (term * (bool + Q)) :=
  let bm := t_bm (s_trail s) in
  let qm := t_qm (s_trail s) in
  map (fun e => (fst e, inl (mval bm (lord (snd e)))))
      (filter (fun e => is_uninterp T (fst e) && mdef bm (lord (snd e))) (is_bool st)) ++
  map (fun e => (fst e, inr (mval qm (snd e))))
      (filter (fun e => is_uninterp T (fst e) && mdef qm (snd e)) (is_real st)).
