(** Model of parser/Smt2_parser.cpp 154-414: the commands of a script. Calls of the solver are recorded, not made.
    Exceptions are [UB] (the handler of assert, 202-204, prints a message; parsing then goes on at the offending token). *)
From Coq Require Import Ascii String List Arith Bool.
From Verif Require Import Base Terms_Model TermMgr_Model Lexer_Model Parser_Model.
Import ListNotations.
Open Scope nat_scope.

(** 154-163 Smt2_command_context: context, assertions, whether the plugin for uninterpreted functions exists (Yaga.cpp 69-92; false
    before set-logic, where the pointer is not initialized), the arguments of the calls of check_sat with the terms then, last first. *)
Record kst : Type := mkK { k_ctx : pctx; k_asserts : list term; k_uf : bool; k_checks : list (list term * table) }.
Definition with_ctx (k : kst) (C : pctx) : kst := mkK C (k_asserts k) (k_uf k) (k_checks k).
(** Smt2_parser.cpp 456-461 parse *)
Definition k_new (H : hashes) : kst := mkK (mkCtx lets_new [] [] [] (table_new H)) [] false [].

(** Parser_context.cpp 49-58 get_type_for_symbol *)
Definition type_for_symbol (s : text) : res ty :=
  if text_eqb s (t_of "Bool") then Ok TBool else if text_eqb s (t_of "Real") then Ok TReal else UB.
(** Smt2_term_parser.cpp 242-247 parse_symbol *)
Definition parse_symbol (l : list tok) : res (text * list tok) := ' (t, r) <- next l ;; n <- token_symbol t ;; Ok (n, r).
(** 258-266 parse_sort *)
Definition parse_sort (l : list tok) : res (ty * list tok) :=
  ' (t, r) <- next l ;; match t with Sym s => y <- type_for_symbol s ;; Ok (y, r) | _ => UB end.
(** 268-283 parse_sort_list *)
Fixpoint parse_sort_list (l : list tok) : res (list ty * list tok) :=
  match l with
  | RParen :: r => Ok ([], r)
  | Sym s :: r => y <- type_for_symbol s ;; ' (ys, r') <- parse_sort_list r ;; Ok (y :: ys, r')
  | _ => UB
  end.
(** 301-314 parse_sorted_var_list, after the first parenthesis *)
Fixpoint parse_vars (l : list tok) : res (list (text * ty) * list tok) :=
  match l with
  | RParen :: r => Ok ([], r)
  | LParen :: t :: Sym s :: RParen :: r =>
      n <- token_symbol t ;; y <- type_for_symbol s ;; ' (vs, r') <- parse_vars r ;; Ok ((n, y) :: vs, r')
  | _ => UB
  end.
(** Terms.cpp 202-215 set_term_name *)
Definition set_name (C : pctx) (n : text) (t : term) : res pctx :=
  _ <- assertb (match tm_find (c_names C) n with None => true | Some _ => false end) ;;
  Ok (mkCtx (c_lets C) (c_defs C) (c_decls C) ((n, t) :: c_names C) (c_tab C)).
(** Parser_context.cpp 78-83 *)
Definition declare_const (C : pctx) (y : ty) (n : text) : res pctx :=
  let '(T, t) := new_uninterpreted (c_tab C) y in set_name (with_tab C T) n t.
(** 85-91, Parser_context.h 146-150 *)
Definition declare_fun (C : pctx) (y : ty) (sorts : list ty) (n : text) : res pctx :=
  C1 <- declare_const C y n ;;
  _ <- assertb (match tm_find (c_decls C1) n with None => true | Some _ => false end) ;;
  Ok (mkCtx (c_lets C1) (c_defs C1) ((n, (sorts, y)) :: c_decls C1) (c_names C1) (c_tab C1)).
(** 125-136 bind_vars *)
Fixpoint bind_vars (C : pctx) (vs : list (text * ty)) : list term * pctx :=
  match vs with
  | [] => ([], C)
  | (n, y) :: vs' =>
      let '(T, t) := new_uninterpreted (c_tab C) y in
      let '(ts, C') := bind_vars (mkCtx (add_binding (c_lets C) n t) (c_defs C) (c_decls C) (c_names C) T) vs' in (t :: ts, C')
  end.
(** 137-141 store_defined_fun, Parser_context.h 125-129 *)
Definition store_def (C : pctx) (n : text) (body : term) (formals : list term) (y : ty) : res pctx :=
  _ <- assertb (match tm_find (c_defs C) n with None => true | Some _ => false end) ;;
  Ok (mkCtx (c_lets C) ((n, (formals, y, body)) :: c_defs C) (c_decls C) (c_names C) (c_tab C)).

Section Script.
Variable H : hashes.
Definition word (w : text) (s : string) : bool := text_eqb w (t_of s).
(** 184-414: whether to go on, the state, the rest *)
Definition parse_command (k : kst) (toks : list tok) : res (bool * kst * list tok) :=
  let close (k' : kst) (r : list tok) : res (bool * kst * list tok) := r' <- eat is_rparen r ;; Ok (true, k', r') in
  match toks with
  | [] => Ok (false, k, [])
  | t0 :: toks1 =>
      _ <- assertb (is_lparen t0) ;;
      ' (t, r) <- next toks1 ;;
      match t with
      | Word w =>
          if word w "assert" then
            ' (u, r1, C) <- parse_term H (k_ctx k) r ;; close (mkK C (k_asserts k ++ [u]) (k_uf k) (k_checks k)) r1
          else if word w "check-sat" then
            close (mkK (k_ctx k) (k_asserts k) (k_uf k) ((k_asserts k, c_tab (k_ctx k)) :: k_checks k)) r
          else if word w "declare-const" then
            ' (n, r1) <- parse_symbol r ;; ' (y, r2) <- parse_sort r1 ;; C <- declare_const (k_ctx k) y n ;; close (with_ctx k C) r2
          else if word w "declare-fun" then
            ' (n, r1) <- parse_symbol r ;; r2 <- eat is_lparen r1 ;; ' (ys, r3) <- parse_sort_list r2 ;; ' (y, r4) <- parse_sort r3 ;;
            match ys with
            | [] => C <- declare_const (k_ctx k) y n ;; close (with_ctx k C) r4
            | _ => if k_uf k then C <- declare_fun (k_ctx k) y ys n ;; close (with_ctx k C) r4 else close k r4
            end
          else if word w "define-fun" then
            ' (n, r1) <- parse_symbol r ;; r2 <- eat is_lparen r1 ;; ' (vs, r3) <- parse_vars r2 ;; ' (y, r4) <- parse_sort r3 ;;
            let '(formals, C1) := bind_vars (with_lets (k_ctx k) (push_frame (c_lets (k_ctx k)))) vs in
            ' (body, r5, C2) <- parse_term H C1 r4 ;; L <- pop_frame (c_lets C2) ;;
            C <- store_def (with_lets C2 L) n body formals y ;; close (with_ctx k C) r5
          else if word w "exit" then Ok (false, k, r)
          else if word w "get-model" then close k r
          else if word w "set-info" || word w "set-option" then
            ' (kw, r1) <- next r ;; _ <- assertb (match kw with Kw _ => true | _ => false end) ;; ' (v, r2) <- next r1 ;; close k r2
          else if word w "set-logic" then
            ' (n, r1) <- parse_symbol r ;;
            if text_eqb n (t_of "QF_UFLRA") then close (mkK (k_ctx k) (k_asserts k) true (k_checks k)) r1
            else if text_eqb n (t_of "QF_LRA") then close (mkK (k_ctx k) (k_asserts k) false (k_checks k)) r1
            else Ok (false, k, r1)
          else UB
      | _ => UB
      end
  end.
(** 178-182 execute: one command for each unit of fuel *)
Fixpoint execute (fuel : nat) (k : kst) (toks : list tok) : res kst :=
  match fuel with
  | 0 => Fuel
  | S f => ' (go, k', r) <- parse_command k toks ;; if go : bool then execute f k' r else Ok k'
  end.
Definition run_script (toks : list tok) : res kst := execute (S (List.length toks)) (k_new H) toks.
End Script.
