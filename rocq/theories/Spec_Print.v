(** Specification for C38: s-expressions and their value. *)
From Coq Require Import List Arith ZArith QArith Bool Ascii String.
From Verif Require Import Base Rational_Model Spec_Rational Lexer_Model Spec_Decimal Uf_Model Print_Model.
Import ListNotations.
Close Scope Q_scope.
Open Scope nat_scope.

(** ** S-expressions and their tokens *)
Inductive sexp : Type := At (t : tok) | Li (l : list sexp).
Fixpoint sx_toks (e : sexp) : list tok :=
  match e with At t => [t] | Li l => LParen :: flat_map sx_toks l ++ [RParen] end.
(** [s] is a text of [e] *)
Definition text_of (s : text) (e : sexp) : Prop := lex s = Some (sx_toks e).
Definition sy (s : string) : sexp := At (Sym (t_of s)).

(** ** Terms: symbols, true, false, numerals, - (one argument), /, =, and, ite *)
Section Value.
Variable env : list (text * uval).
Inductive evals : sexp -> uval -> Prop :=
| e_true : evals (sy "true") (PB true)
| e_false : evals (sy "false") (PB false)
| e_sym s v : In (s, v) env -> evals (At (Sym s)) v
| e_num s : Forall is_digit s -> s <> [] -> evals (At (Num s)) (PR (inject_Z (digits_value s)))
| e_neg e q q' : evals e (PR q) -> (q' == - q)%Q -> evals (Li [sy "-"; e]) (PR q')
| e_div e d p q q' : evals e (PR p) -> evals d (PR q) -> ~ (q == 0)%Q -> (q' == p / q)%Q -> evals (Li [sy "/"; e; d]) (PR q')
| e_eq e d v w : evals e v -> evals d w -> evals (Li [sy "="; e; d]) (PB (uval_eqb v w))
| e_and l bs : eands l bs -> evals (Li (sy "and" :: l)) (PB (forallb (fun b => b) bs))
| e_ite c (b : bool) x y v w : evals c (PB b) -> evals x v -> evals y w -> evals (Li [sy "ite"; c; x; y]) (if b then v else w)
with eands : list sexp -> list bool -> Prop :=
| a_nil : eands [] []
| a_cons e b l bs : evals e (PB b) -> eands l bs -> eands (e :: l) (b :: bs).
End Value.

(** ** A printed table *)
Definition pv (v : pval) : uval := match v with VB b => PB b | VF x => PR (value x) end.
Definition fine_val (v : pval) : Prop := match v with VB _ => True | VF x => canonical x end.
Definition sort_of (v : uval) : text := t_of (match v with PB _ => "Bool" | PR _ => "Real" end).
Definition pkey (e : list pval * pval) : list uval := map pv (fst e).
Definition pairwise {A} (R : A -> A -> Prop) (l : list A) : Prop := ForallOrdPairs R l.
(** All rows have the same sorts, at least one argument; keys are different. *)
Record table_ok (l : list (list pval * pval)) (sorts : list text) (ret : text) : Prop := {
  tk_vals : forall k v, In (k, v) l -> Forall fine_val k /\ fine_val v;
  tk_sort : forall k v, In (k, v) l -> map sort_of (map pv k) = sorts /\ sort_of (pv v) = ret;
  tk_args : sorts <> [];
  tk_keys : pairwise (fun a b => vals_eqb (pkey a) (pkey b) = false) l
}.
(** Simple symbols of SMT-LIB: letters, digits and ~ ! @ $ % ^ & * _ - + = < > . ? /, the first one no digit *)
Definition simple_chars : text := t_of "abcdefghijklmnopqrstuvwxyzABCDEFGHIJKLMNOPQRSTUVWXYZ~!@$%^&*_-+=<>.?/".
Definition simple_symbol (s : text) : Prop :=
  match s with c :: _ => In c simple_chars | [] => False end /\ Forall (fun c => In c simple_chars \/ is_digit c) s.
Definition reserved_words : list text :=
  [t_of "assert"; t_of "as"; t_of "!"; t_of "check-sat"; t_of "declare-const"; t_of "declare-fun"; t_of "declare-sort"; t_of "define-const"; t_of "define-fun"; t_of "define-sort";
   t_of "echo"; t_of "exit"; t_of "get-assertions"; t_of "get-assignment"; t_of "get-info"; t_of "get-model"; t_of "get-option"; t_of "get-unsat-core"; t_of "get-value"; t_of "_"; t_of "let";
   t_of "match"; t_of "par"; t_of "pop"; t_of "push"; t_of "reset"; t_of "set-info"; t_of "set-logic"; t_of "set-option"].
(** a name that is a simple symbol and no reserved word *)
Definition plain (s : text) : Prop := simple_symbol s /\ ~ In s reserved_words.
(** [(define-fun name ((x S) ...) ret body)] *)
Definition param_sx (p : text * text) : sexp := Li [At (Sym (fst p)); At (Sym (snd p))].
Definition defun_sx (name : text) (params : list (text * text)) (ret : text) (body : sexp) : sexp :=
  Li [At (Word (t_of "define-fun")); At (Sym name); Li (map param_sx params); At (Sym ret); body].
(** different names, none of them true or false *)
Definition env_ok (env : list (text * uval)) : Prop :=
  NoDup (map fst env) /\ ~ In (t_of "true") (map fst env) /\ ~ In (t_of "false") (map fst env).
