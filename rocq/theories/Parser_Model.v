(** Model of parser/Parser_context.{h,cpp} and parser/Smt2_term_parser.cpp: scopes, names, parsing of terms.
    Thrown exceptions (unexpected tokens, unimplemented features, unknown function symbols) are [UB]. *)
From Coq Require Import List Arith ZArith QArith Qcanon Bool Ascii String.
From Verif Require Import Base Terms_Model TermMgr_Model Rewriter_Model Decimal_Model Lexer_Model.
Import ListNotations.
Close Scope Qc_scope.
Close Scope Q_scope.
Open Scope nat_scope.

(** ** Parser_context.h 32-91 *)
(** maps with texts as keys *)
Fixpoint tm_find {A} (m : list (text * A)) (k : text) : option A :=
  match m with [] => None | (a, x) :: m' => if text_eqb a k then Some x else tm_find m' k end.
Fixpoint tm_set {A} (m : list (text * A)) (k : text) (x : A) : list (text * A) :=
  match m with [] => [] | (a, y) :: m' => if text_eqb a k then (a, x) :: m' else (a, y) :: tm_set m' k x end.
Fixpoint tm_erase {A} (m : list (text * A)) (k : text) : list (text * A) :=
  match m with [] => [] | (a, y) :: m' => if text_eqb a k then m' else (a, y) :: tm_erase m' k end.

(** 32-48 Let_binder: the current value and the shadowed values, last one first *)
Record binder : Type := mkBd { bd_cur : term; bd_shadow : list term }.
(** 50-91 Let_records; known_binders with the last one first *)
Record lets : Type := mkLets { ls_map : list (text * binder); ls_known : list text; ls_limits : list nat }.
Definition lets_new : lets := mkLets [] [] [].
(** 57-63 get *)
Definition let_get (L : lets) (n : text) : option term := match tm_find (ls_map L) n with Some b => Some (bd_cur b) | None => None end.
(** 64 push_frame *)
Definition push_frame (L : lets) : lets := mkLets (ls_map L) (ls_known L) (List.length (ls_known L) :: ls_limits L).
(** 83-90 add_binding *)
Definition add_binding (L : lets) (n : text) (t : term) : lets :=
  match tm_find (ls_map L) n with
  | None => mkLets ((n, mkBd t []) :: ls_map L) (n :: ls_known L) (ls_limits L)
  | Some b => mkLets (tm_set (ls_map L) n (mkBd t (bd_cur b :: bd_shadow b))) (n :: ls_known L) (ls_limits L)
  end.
(** 66-81 pop_frame; back() of an empty vector is UB *)
Fixpoint pop_loop (limit : nat) (m : list (text * binder)) (known : list text) : res (list (text * binder) * list text) :=
  match known with
  | [] => Ok (m, [])
  | n :: known' =>
      if limit <? List.length known then
        match tm_find m n with
        | None => UB
        | Some b => pop_loop limit (match bd_shadow b with s :: ss => tm_set m n (mkBd s ss) | [] => tm_erase m n end) known'
        end
      else Ok (m, known)
  end.
Definition pop_frame (L : lets) : res lets :=
  match ls_limits L with
  | [] => UB
  | limit :: ls => ' (m, known) <- pop_loop limit (ls_map L) (ls_known L) ;; Ok (mkLets m known ls)
  end.
(** Parser_context.cpp 12-21 add_let_bindings *)
Definition add_bindings (L : lets) (bs : list (text * term)) : lets := fold_left (fun L b => add_binding L (fst b) (snd b)) bs L.
Definition add_let_bindings (L : lets) (bs : list (text * term)) : lets := add_bindings (push_frame L) bs.

(** ** Parser_context *)
(** 93-104, 196-201: scopes, defined functions (formal arguments, sort, body), declared functions (argument sorts, sort),
    symbol table of the term table (Terms.h 151), the terms. *)
Record pctx : Type := mkCtx {
  c_lets : lets;
  c_defs : list (text * (list term * ty * term));
  c_decls : list (text * (list ty * ty));
  c_names : list (text * term);
  c_tab : table }.
Definition with_tab (C : pctx) (T : table) : pctx := mkCtx (c_lets C) (c_defs C) (c_decls C) (c_names C) T.
Definition with_lets (C : pctx) (L : lets) : pctx := mkCtx L (c_defs C) (c_decls C) (c_names C) (c_tab C).

(** cpp 25-50 get_term_for_symbol *)
Definition term_for_symbol (C : pctx) (s : text) : res term :=
  if text_eqb s (t_of "true") then Ok true_term
  else if text_eqb s (t_of "false") then Ok false_term
  else match let_get (c_lets C) s with
       | Some t => Ok t
       | None =>
           match tm_find (c_defs C) s with
           | Some (args, _, body) => _ <- assertb (match args with [] => true | _ => false end) ;; Ok body
           | None => value_of (tm_find (c_names C) s)
           end
       end.

(** Term_manager.cpp 162-258: the names of the operators *)
Definition op_names : list (text * op) := map (fun p => (t_of (fst p), snd p))
  [(">=", OGe); ("<=", OLe); ("<", OLt); (">", OGt); ("=", OEq); ("or", OOr); ("and", OAnd); ("=>", OImp); ("not", ONot);
   ("-", OMinus); ("+", OPlus); ("*", OTimes); ("/", ODiv); ("ite", OIte); ("xor", OXor); ("distinct", ODistinct)]%string.

Section Parser.
Variable H : hashes.

(** Parser_context.cpp 100-121 resolve_term. The rewriter gets enough fuel (see C45_result). *)
Definition resolve_term (C : pctx) (name : text) (args : list term) : res (term * pctx) :=
  match tm_find (c_defs C) name with
  | Some (formals, _, body) =>
      ' (T, t) <- resolve H (S (List.length (get_args (c_tab C) body))) (c_tab C) formals body args ;; Ok (t, with_tab C T)
  | None =>
      match tm_find (c_decls C) name with
      | Some (sorts, ret) =>
          _ <- assertb (List.length sorts =? List.length args) ;;
          _ <- assertb (forallb (fun p => ty_eqb (fst p) (type_of (c_tab C) (snd p))) (combine sorts args)) ;;
          f <- value_of (tm_find (c_names C) name) ;;
          let '(T, t) := mk_app H (c_tab C) f ret args in Ok (t, with_tab C T)
      | None =>
          o <- value_of (tm_find op_names name) ;;
          ' (T, t) <- mk_term H (c_tab C) o args ;; Ok (t, with_tab C T)
      end
  end.

(** ** Smt2_term_parser.cpp *)
(** 13-49 ParseCtx with OpInfo and the arguments *)
Inductive frame : Type := FArg (name : text) (args : list term) | FBind (name : text) | FBody.
(** 212-233 token_to_symbol *)
Definition token_symbol (t : tok) : res text :=
  match t with
  | Sym s => Ok s
  | QSym s => match s with [] => UB | _ :: r => Ok (removelast r) end
  | _ => UB
  end.
(** the state of the loop 56-209: remaining tokens, ctx_stack (last first), letBinders (last first), context *)
Record pst : Type := mkPst { s_toks : list tok; s_stack : list frame; s_binds : list (list (text * term)); s_ctx : pctx }.

(** Flex_lexer.cpp 21-27 eat_token, 7-19 eat_token_choice *)
Definition is_lparen (t : tok) : bool := match t with LParen => true | _ => false end.
Definition is_rparen (t : tok) : bool := match t with RParen => true | _ => false end.
Definition next (l : list tok) : res (tok * list tok) := match l with [] => UB | t :: l' => Ok (t, l') end.
Definition eat (p : tok -> bool) (l : list tok) : res (list tok) := ' (t, l') <- next l ;; _ <- assertb (p t) ;; Ok l'.
Definition eat_choice (l : list tok) : res (bool * list tok) :=
  ' (t, l') <- next l ;; if is_lparen t then Ok (true, l') else _ <- assertb (is_rparen t) ;; Ok (false, l').

(** 181-192: another binding, or the end of the bindings *)
Definition next_binding (toks : list tok) (K : list frame) (bs : list (list (text * term))) (C : pctx) : res pst :=
  ' (more, toks1) <- eat_choice toks ;;
  if more : bool then
    ' (t, toks2) <- next toks1 ;; n <- token_symbol t ;; Ok (mkPst toks2 (FBind n :: K) bs C)
  else
    match bs with
    | [] => UB
    | b :: bs' => Ok (mkPst toks1 (FBody :: K) bs' (with_lets C (add_let_bindings (c_lets C) b)))
    end.
(** 148-206: the inner loop, with a term *)
Fixpoint return_term (K : list frame) (t : term) (toks : list tok) (bs : list (list (text * term))) (C : pctx) : res (option term * pst) :=
  match K with
  | [] => Ok (Some t, mkPst toks [] bs C)
  | FArg n args :: K' => Ok (None, mkPst toks (FArg n (args ++ [t]) :: K') bs C)
  | FBind n :: K' =>
      match bs with
      | [] => UB
      | b :: bs' =>
          toks1 <- eat is_rparen toks ;; s <- next_binding toks1 K' ((b ++ [(n, t)]) :: bs') C ;; Ok (None, s)
      end
  | FBody :: K' =>
      toks1 <- eat is_rparen toks ;; L <- pop_frame (c_lets C) ;; return_term K' t toks1 bs (with_lets C L)
  end.
(** 56-209: one iteration of the outer loop for each unit of fuel *)
Fixpoint parse_loop (fuel : nat) (s : pst) : res (term * list tok * pctx) :=
  match fuel with
  | 0 => Fuel
  | S f =>
      let done (r : option term * pst) : res (term * list tok * pctx) :=
        match s_stack (snd r) with
        | [] => t <- value_of (fst r) ;; Ok (t, s_toks (snd r), s_ctx (snd r))
        | _ => parse_loop f (snd r)
        end in
      let give (t : term) (toks : list tok) (K : list frame) (C : pctx) := r <- return_term K t toks (s_binds s) C ;; done r in
      ' (t, toks) <- next (s_toks s) ;;
      match t with
      | LParen =>
          ' (t1, toks1) <- next toks ;;
          match t1 with
          | Word w =>
              if text_eqb w (t_of "let") then
                (* 82-88, and 175-180 of the inner loop: the parenthesis of the binding list *)
                toks2 <- eat is_lparen toks1 ;; s1 <- next_binding toks2 (s_stack s) ([] :: s_binds s) (s_ctx s) ;; parse_loop f s1
              else UB
          | Sym _ | QSym _ => n <- token_symbol t1 ;; parse_loop f (mkPst toks1 (FArg n [] :: s_stack s) (s_binds s) (s_ctx s))
          | _ => UB
          end
      | RParen =>
          match s_stack s with
          | FArg n args :: K => ' (u, C) <- resolve_term (s_ctx s) n args ;; give u toks K C
          | _ => UB
          end
      | Sym _ | QSym _ => n <- token_symbol t ;; u <- term_for_symbol (s_ctx s) n ;; give u toks (s_stack s) (s_ctx s)
      | Num d => ' (T, u) <- mk_numeral H (c_tab (s_ctx s)) d ;; give u toks (s_stack s) (with_tab (s_ctx s) T)
      | Dec d => ' (T, u) <- mk_decimal H (c_tab (s_ctx s)) d ;; give u toks (s_stack s) (with_tab (s_ctx s) T)
      | _ => UB
      end
  end.
Definition parse_term (C : pctx) (toks : list tok) : res (term * list tok * pctx) :=
  parse_loop (List.length toks) (mkPst toks [] [] C).
End Parser.
