(** Specification for C60: scripts, what they declare and assert. *)
From Coq Require Import Ascii String List Arith ZArith QArith Qcanon Bool.
From Verif Require Import Base Terms_Model Spec_Terms TermMgr_Model Spec_TermMgr Lexer_Model Spec_Decimal Spec_Print Parser_Model Spec_Parser.
Import ListNotations.
Close Scope Qc_scope.
Close Scope Q_scope.
Open Scope nat_scope.

(** value of an attribute: a symbol or a number *)
Inductive attr : Type := AName (n : nm) | ADec (d f : text).
Inductive command : Type :=
| KAssert (e : expr)
| KCheck
| KDeclareConst (n : nm) (y : ty)
| KDeclareFun (n : nm) (sorts : list ty) (y : ty)
| KDefineFun (n : nm) (params : list (nm * ty)) (y : ty) (e : expr)
| KLogic (uf : bool)
| KInfo (kw : text) (v : attr)               (* set-info :kw v *)
| KOption (kw : text) (v : attr)
| KGetModel
| KExit.

(** ** Tokens *)
Definition sort_tok (y : ty) : tok := Sym (t_of match y with TReal => "Real" | _ => "Bool" end).
Definition attr_tok (v : attr) : tok := match v with AName n => nm_tok n | ADec d f => Dec (d ++ "."%char :: f) end.
Definition attr_str (v : attr) : text := match v with AName n => nm_str n | ADec d f => d ++ "."%char :: f end.
Definition w_ (s : string) : tok := Word (t_of s).
Definition ctoks (c : command) : list tok :=
  LParen :: match c with
            | KAssert e => w_ "assert" :: etoks e
            | KCheck => [w_ "check-sat"]
            | KDeclareConst n y => [w_ "declare-const"; nm_tok n; sort_tok y]
            | KDeclareFun n sorts y => w_ "declare-fun" :: nm_tok n :: LParen :: map sort_tok sorts ++ [RParen; sort_tok y]
            | KDefineFun n params y e =>
                w_ "define-fun" :: nm_tok n :: LParen :: flat_map (fun p => [LParen; nm_tok (fst p); sort_tok (snd p); RParen]) params ++ RParen :: sort_tok y :: etoks e
            | KLogic uf => [w_ "set-logic"; Sym (t_of (if uf then "QF_UFLRA" else "QF_LRA"))]
            | KInfo kw v => [w_ "set-info"; Kw (":"%char :: kw); attr_tok v]
            | KOption kw v => [w_ "set-option"; Kw (":"%char :: kw); attr_tok v]
            | KGetModel => [w_ "get-model"]
            | KExit => [w_ "exit"]
            end ++ [RParen].
Definition stoks (cs : list command) : list tok := flat_map ctoks cs.

(** ** Text, a command on each line *)
Definition sort_str (y : ty) : text := t_of match y with TReal => "Real" | _ => "Bool" end.
Definition nl : text := [ascii_of_nat 10].
Definition ctext (c : command) : text :=
  match c with
  | KAssert e => t_of "(assert " ++ etext e
  | KCheck => t_of "(check-sat"
  | KDeclareConst n y => t_of "(declare-const " ++ nm_str n ++ t_of " " ++ sort_str y
  | KDeclareFun n sorts y => t_of "(declare-fun " ++ nm_str n ++ t_of " (" ++ flat_map (fun s => t_of " " ++ sort_str s) sorts ++ t_of ") " ++ sort_str y
  | KDefineFun n params y e =>
      t_of "(define-fun " ++ nm_str n ++ t_of " (" ++ flat_map (fun p => t_of "(" ++ nm_str (fst p) ++ t_of " " ++ sort_str (snd p) ++ t_of ")") params ++
      t_of ") " ++ sort_str y ++ t_of " " ++ etext e
  | KLogic uf => t_of (if uf then "(set-logic QF_UFLRA" else "(set-logic QF_LRA")
  | KInfo kw v => t_of "(set-info :" ++ kw ++ t_of " " ++ attr_str v
  | KOption kw v => t_of "(set-option :" ++ kw ++ t_of " " ++ attr_str v
  | KGetModel => t_of "(get-model"
  | KExit => t_of "(exit"
  end ++ t_of ")" ++ nl.
Definition stext (cs : list command) : text := flat_map ctext cs.
(** well-formed names and numerals *)
Definition lexical (c : command) : Prop :=
  match c with
  | KAssert e => names_ok e /\ digits_ok e
  | KDeclareConst n _ | KDeclareFun n _ _ => nm_ok n
  | KDefineFun n params _ e => nm_ok n /\ Forall (fun p => nm_ok (fst p)) params /\ names_ok e /\ digits_ok e
  | KInfo kw v | KOption kw v => simple_symbol kw /\ match v with AName n => nm_ok n | ADec d f => digits_ok (EDec d f) end
  | _ => True
  end.

(** ** Declarations *)
(** declared symbols (argument sorts, sort), defined constants (sort), functions defined with parameters; the last one first *)
Record world : Type := mkW { w_decl : list (text * (list ty * ty)); w_def : list (text * ty); w_macro : list text }.
Definition w_new : world := mkW [] [] [].
Definition add_decl (w : world) (n : text) (d : list ty * ty) : world := mkW ((n, d) :: w_decl w) (w_def w) (w_macro w).
Definition add_def (w : world) (n : text) (y : ty) : world := mkW (w_decl w) ((n, y) :: w_def w) (w_macro w).
Definition add_macro (w : world) (n : text) : world := mkW (w_decl w) (w_def w) (n :: w_macro w).
Definition sig_of (w : world) : sigs := mkSig
  (fun n => match assoc (w_def w) n with Some y => Some y | None => match assoc (w_decl w) n with Some ([], y) => Some y | _ => None end end)
  (fun n => match assoc (w_decl w) n with Some (s :: l, y) => Some (s :: l, y) | _ => None end).
Definition used (w : world) : list text := map fst (w_decl w) ++ map fst (w_def w) ++ w_macro w.
(** names are declared once, and are not those of the theory *)
Definition fresh (w : world) (n : text) : Prop :=
  ~ In n (used w) /\ n <> t_of "true" /\ n <> t_of "false" /\ assoc theory_ops n = None.
Definition sort_ok (y : ty) : Prop := y = TBool \/ y = TReal.
Definition params_env (ps : list (nm * ty)) : list (text * ty) := map (fun p => (nm_text (fst p), snd p)) ps.

(** the world after a command *)
Definition declares (w : world) (c : command) : world :=
  match c with
  | KDeclareConst n y => add_decl w (nm_text n) ([], y)
  | KDeclareFun n sorts y => add_decl w (nm_text n) (sorts, y)
  | KDefineFun n [] y _ => add_def w (nm_text n) y
  | KDefineFun n _ _ _ => add_macro w (nm_text n)
  | _ => w
  end.
(** A well-sorted command, when uninterpreted functions are available iff [uf]. *)
Definition command_ok (w : world) (uf : bool) (c : command) : Prop :=
  match c with
  | KAssert e => digits_ok e /\ etype (sig_of w) [] e = Some TBool
  | KDeclareConst n y => fresh w (nm_text n) /\ sort_ok y
  | KDeclareFun n sorts y => fresh w (nm_text n) /\ sort_ok y /\ Forall sort_ok sorts /\ (sorts = [] \/ uf = true)
  | KDefineFun n ps y e =>
      fresh w (nm_text n) /\ sort_ok y /\ Forall (fun p => sort_ok (snd p)) ps /\ digits_ok e /\ etype (sig_of w) (bind_new (params_env ps) []) e = Some y
  | _ => True
  end.
Fixpoint script_ok (w : world) (uf : bool) (cs : list command) : Prop :=
  match cs with
  | [] => True
  | KExit :: _ => True
  | c :: cs' => command_ok w uf c /\ script_ok (declares w c) (match c with KLogic b => b | _ => uf end) cs'
  end.
Fixpoint world_of (w : world) (cs : list command) : world :=
  match cs with [] => w | KExit :: _ => w | c :: cs' => world_of (declares w c) cs' end.

(** the expressions for which a term is returned *)
Definition command_simple (w : world) (c : command) : Prop :=
  match c with
  | KAssert e => simple (sig_of w) [] e
  | KDefineFun _ ps _ e => simple (sig_of w) (bind_new (params_env ps) []) e
  | _ => True
  end.
Fixpoint script_simple (w : world) (cs : list command) : Prop :=
  match cs with [] => True | KExit :: _ => True | c :: cs' => command_simple w c /\ script_simple (declares w c) cs' end.

(** ** Meaning: the values of the assertions, when the declared symbols have meaning [M] *)
Definition define (M : meaning) (n : text) (v : value) : meaning :=
  mkMean (fun m => if text_eqb n m then v else mn_const M m) (mn_fun M).
Fixpoint asserted (M : meaning) (w : world) (cs : list command) : list value :=
  match cs with
  | [] => []
  | KExit :: _ => []
  | KAssert e :: cs' => evalue (sig_of w) M [] e :: asserted M w cs'
  | KDefineFun n [] y e :: cs' => asserted (define M (nm_text n) (evalue (sig_of w) M [] e)) (add_def w (nm_text n) y) cs'
  | c :: cs' => asserted M (declares w c) cs'
  end.
(** values have the declared sorts *)
Definition respects (ds : list (text * (list ty * ty))) (M : meaning) : Prop :=
  forall n sorts y, In (n, (sorts, y)) ds -> match sorts with [] => vty (mn_const M n) = y | _ => forall vs, vty (mn_fun M n vs) = y end.
(** The assertions of the script are satisfiable. *)
Definition script_sat (cs : list command) : Prop :=
  exists M, respects (w_decl (world_of w_new cs)) M /\ Forall (eq (VB true)) (asserted M w_new cs).
(** the commands before each check-sat *)
Fixpoint checked (pre cs : list command) : list (list command) :=
  match cs with
  | [] => []
  | KExit :: _ => []
  | KCheck :: cs' => pre :: checked (pre ++ [KCheck]) cs'
  | c :: cs' => checked (pre ++ [c]) cs'
  end.
