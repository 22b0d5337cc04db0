(** A check of assertions with the logic QF_UFLRA: the translation, which also registers the applications with the plugin for
    uninterpreted functions, the calls it makes to the solver, and the solver's search. *)
From Coq Require Import List Arith ZArith QArith NArith Bool.
From Verif Require Import Base Core_Model Bool_Model Trail_Model Solver_Model Lincons_Model Lra_Model
  Terms_Model Visitor_Model Internalizer_Model Check_Model Uf_Model Ufcomb_Model.
Import ListNotations.
Open Scope nat_scope.

Section C.
Variables (hi : nat -> Z) (hv : Q -> Z) (opt : lopt).
Variable ndebug : bool.
Variable T : table.

(** Solver_wrapper.cpp 164-326 visit with Yaga.cpp 101-107 make_function_application: the new variable of an application is registered
    before the maps have it (225-248); other terms do not concern the plugin *)
Definition ufi_visit (p : ist * uf) (t : term) : res (ist * uf) :=
  let '(st, u) := p in
  u' <- match kind_of T t, type_of T t with
        | KApp, TReal => uf_register T (is_bool st) (is_real st) u (VRat (is_nreal st)) t
        | KApp, TBool => uf_register T (is_bool st) (is_real st) u (VBool (length (st_cons (is_store st)))) t
        | _, _ => Ok u
        end ;;
  st' <- int_visit ndebug hi hv T st t ;;
  Ok (st', u').

(** Solver_wrapper.cpp 24-49: check up to the call of the solver, the first check of a process *)
Definition translate_uf (assertions : list term) : res (option (ist * uf)) :=
  if existsb (fun t => t_eqb t false_term) assertions then Ok None
  else
    ' (_, (st1, u)) <- visit_span ufi_visit T [] (is_new, uf_new) assertions ;;
    st2 <- top_clauses st1 assertions ;;
    Ok (Some (st2, u)).

(** Solver_wrapper.cpp 22-83 check, the first check of a process; [hs] as in Check_Model.v. The plugin for uninterpreted functions reads the maps of
    the translation (Solver_wrapper.cpp 26-31). *)
Definition check_assertions_uf {HS} (he : heur HS) (hash : lit -> N) (df fuel : nat) (o : phase_opt)
           (hs : db -> trail -> HS) (assertions : list term)
  : res (answer * option (ist * solver (TS := bstate * lra * uf) (HS := HS))) :=
  x <- translate_uf assertions ;;
  match x with
  | None => Ok (Unsat, None)
  | Some (st, u) =>
      '(a, t) <- replay hi hv opt (is_calls st) ;;
      '(s, ans) <- check_uflra hi hv opt T (is_bool st) (is_real st) he hash df fuel (is_cls st) o a u t (hs (mkDb (is_cls st) []) t) ;;
      Ok (ans, Some (st, s))
  end.
End C.

(** Solver_wrapper.cpp 110-125 model: the values of the functions; the constants are shown by [show_model] *)
Definition show_functions {HS} (s : solver (TS := bstate * lra * uf) (HS := HS)) : list (term * list (list uval * uval)) :=
  uf_model (snd (s_th s)).
