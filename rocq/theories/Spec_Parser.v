(** Specification for C49, C50: expressions, their tokens, sorts and values, with lexical scopes. *)
From Coq Require Import List Arith ZArith QArith Qcanon Bool Ascii String.
From Verif Require Import Base Terms_Model Spec_Terms TermMgr_Model Spec_TermMgr Spec_Rewriter Lexer_Model Spec_Decimal Spec_Print Parser_Model.
Import ListNotations.
Close Scope Qc_scope.
Close Scope Q_scope.
Open Scope nat_scope.

(** ** Expressions *)
(** a symbol, plain or between bars *)
Inductive nm : Type := Plain (s : text) | Quoted (s : text).
Definition nm_text (n : nm) : text := match n with Plain s | Quoted s => s end.
Definition nm_tok (n : nm) : tok := match n with Plain s => Sym s | Quoted s => QSym ("|"%char :: s ++ ["|"%char]) end.
Inductive expr : Type :=
| ESym (n : nm)
| ENum (d : text)                                  (* digits *)
| EDec (d f : text)                                (* digits.digits *)
| EApp (f : nm) (args : list expr)
| ELet (bs : list (nm * expr)) (body : expr).
Fixpoint etoks (e : expr) : list tok :=
  match e with
  | ESym n => [nm_tok n]
  | ENum d => [Num d]
  | EDec d f => [Dec (d ++ "."%char :: f)]
  | EApp f args => LParen :: nm_tok f :: flat_map etoks args ++ [RParen]
  | ELet bs body =>
      LParen :: Word (t_of "let") :: LParen :: flat_map (fun b => LParen :: nm_tok (fst b) :: etoks (snd b) ++ [RParen]) bs ++ RParen :: etoks body ++ [RParen]
  end.
Fixpoint digits_ok (e : expr) : Prop :=
  match e with
  | ESym _ => True
  | ENum d => Forall is_digit d /\ d <> []
  | EDec d f => Forall is_digit d /\ d <> [] /\ Forall is_digit f /\ f <> []
  | EApp _ args => fold_right and True (map digits_ok args)
  | ELet bs body => fold_right and True (map (fun b => digits_ok (snd b)) bs) /\ digits_ok body
  end.

(** ** Text, with one blank between arguments *)
Definition nm_str (n : nm) : text := match n with Plain s => s | Quoted s => "|"%char :: s ++ ["|"%char] end.
Fixpoint etext (e : expr) : text :=
  match e with
  | ESym n => nm_str n
  | ENum d => d
  | EDec d f => d ++ "."%char :: f
  | EApp f args => t_of "(" ++ nm_str f ++ flat_map (fun a => t_of " " ++ etext a) args ++ t_of ")"
  | ELet bs body =>
      t_of "(let (" ++ flat_map (fun b => t_of "(" ++ nm_str (fst b) ++ t_of " " ++ etext (snd b) ++ t_of ")") bs ++ t_of ") " ++ etext body ++ t_of ")"
  end.
(** simple symbols; any characters but bar and backslash between bars *)
Definition nm_ok (n : nm) : Prop :=
  match n with Plain s => plain s | Quoted s => ~ In "|"%char s /\ ~ In "\"%char s end.
Fixpoint names_ok (e : expr) : Prop :=
  match e with
  | ESym n => nm_ok n
  | ENum _ | EDec _ _ => True
  | EApp f args => nm_ok f /\ fold_right and True (map names_ok args)
  | ELet bs body => fold_right and True (map (fun b => nm_ok (fst b) /\ names_ok (snd b)) bs) /\ names_ok body
  end.

(** ** Scopes (C49): a stack of frames, innermost first, and in a frame the last binding first *)
Inductive sop : Type := SPush | SAdd (n : text) (t : term) | SPop.
Fixpoint assoc {A} (l : list (text * A)) (n : text) : option A :=
  match l with [] => None | (a, x) :: l' => if text_eqb a n then Some x else assoc l' n end.
(** the frames; bindings before the first push are in the last one *)
Definition sstep (fs : list (list (text * term))) (o : sop) : option (list (list (text * term))) :=
  match o, fs with
  | SPush, _ => Some ([] :: fs)
  | SAdd n t, f :: fs' => Some (((n, t) :: f) :: fs')
  | SPop, _ :: ((_ :: _) as fs') => Some fs'
  | _, _ => None
  end.
Definition mstep (L : lets) (o : sop) : res lets :=
  match o with SPush => Ok (push_frame L) | SAdd n t => Ok (add_binding L n t) | SPop => pop_frame L end.
Fixpoint srun (fs : list (list (text * term))) (os : list sop) : option (list (list (text * term))) :=
  match os with [] => Some fs | o :: os' => match sstep fs o with Some g => srun g os' | None => None end end.
Fixpoint mrun (L : lets) (os : list sop) : res lets :=
  match os with [] => Ok L | o :: os' => L' <- mstep L o ;; mrun L' os' end.

(** ** Sorts and values of expressions *)
Definition vty (v : value) : ty := match v with VB _ => TBool | VR _ => TReal end.
(** A signature: constants and functions (argument sorts, sort). *)
Record sigs : Type := mkSig { sg_const : text -> option ty; sg_fun : text -> option (list ty * ty) }.
(** What they denote. *)
Record meaning : Type := mkMean { mn_const : text -> value; mn_fun : text -> list value -> value }.

Fixpoint all_some {A} (l : list (option A)) : option (list A) :=
  match l with
  | [] => Some []
  | Some x :: l' => match all_some l' with Some r => Some (x :: r) | None => None end
  | None :: _ => None
  end.
Fixpoint ty_list_eqb (a b : list ty) : bool :=
  match a, b with [], [] => true | x :: a', y :: b' => ty_eqb x y && ty_list_eqb a' b' | _, _ => false end.
Definition bind_new {A} (bs : list (text * A)) (env : list (text * A)) : list (text * A) := rev bs ++ env.

(** The operators of the theory and their symbols *)
Definition theory_ops : list (text * op) :=
  [(t_of ">=", OGe); (t_of "<=", OLe); (t_of "<", OLt); (t_of ">", OGt); (t_of "=", OEq); (t_of "or", OOr); (t_of "and", OAnd); (t_of "=>", OImp); (t_of "not", ONot);
   (t_of "-", OMinus); (t_of "+", OPlus); (t_of "*", OTimes); (t_of "/", ODiv); (t_of "ite", OIte); (t_of "xor", OXor); (t_of "distinct", ODistinct)].
Definition builtin (n : text) : option op := assoc theory_ops n.
(** Division is covered as far as it is exact (C44): the divisor is a numeral or a decimal other than 0, and the
    dividend is one too, or the numerator and denominator of the divisor in lowest terms are below 2^31. *)
Definition is_num (e : expr) : bool := match e with ENum _ | EDec _ _ => true | _ => false end.
Definition num_value (e : expr) : option Q :=
  match e with ENum d => Some (inject_Z (digits_value d)) | EDec d f => Some (decimal_value d f) | _ => None end.
Definition exact_division (args : list expr) : bool :=
  match args with
  | [a; b] =>
      match num_value b with
      | Some q =>
          negb (Qeq_bool q 0) &&
          (is_num a || ((-2 ^ 31 <? Qnum (Qred q)) && (Qnum (Qred q) <? 2 ^ 31) && (Zpos (Qden (Qred q)) <? 2 ^ 31)))%Z
      | None => false
      end
  | _ => false
  end.
Section Typing.
Variable S : sigs.
Fixpoint etype (env : list (text * ty)) (e : expr) : option ty :=
  match e with
  | ESym n =>
      if text_eqb (nm_text n) (t_of "true") || text_eqb (nm_text n) (t_of "false") then Some TBool
      else match assoc env (nm_text n) with Some y => Some y | None => sg_const S (nm_text n) end
  | ENum _ | EDec _ _ => Some TReal
  | EApp f args =>
      match all_some (map (etype env) args) with
      | None => None
      | Some tys =>
          match sg_fun S (nm_text f) with
          | Some (sorts, ret) => if ty_list_eqb sorts tys then Some ret else None
          | None =>
              match builtin (nm_text f) with
              | Some ODiv => if exact_division args then op_sig ODiv tys else None
              | Some o => op_sig o tys
              | None => None
              end
          end
      end
  | ELet bs body =>
      match all_some (map (fun b => etype env (snd b)) bs) with
      | None => None
      | Some tys => etype (bind_new (combine (map (fun b => nm_text (fst b)) bs) tys) env) body
      end
  end.
Variable M : meaning.
Fixpoint evalue (env : list (text * value)) (e : expr) : value :=
  match e with
  | ESym n =>
      if text_eqb (nm_text n) (t_of "true") then VB true else if text_eqb (nm_text n) (t_of "false") then VB false
      else match assoc env (nm_text n) with Some v => v | None => mn_const M (nm_text n) end
  | ENum d => VR (Q2Qc (inject_Z (digits_value d)))
  | EDec d f => VR (Q2Qc (decimal_value d f))
  | EApp f args =>
      match sg_fun S (nm_text f) with
      | Some _ => mn_fun M (nm_text f) (map (evalue env) args)
      | None => match builtin (nm_text f) with Some o => op_sem o (map (evalue env) args) | None => VB false end
      end
  | ELet bs body => evalue (bind_new (combine (map (fun b => nm_text (fst b)) bs) (map (fun b => evalue env (snd b)) bs)) env) body
  end.
End Typing.

(** ** What a context declares *)
(** the term of a global constant: a definition without parameters, or a declared constant *)
Definition global (C : pctx) (n : text) : option term :=
  match assoc (c_defs C) n with
  | Some ([], _, body) => Some body
  | Some _ => None
  | None => assoc (c_names C) n
  end.
(** The context has the constants and functions of the signature. (Functions defined with parameters are not in
    the signature: see C45.) *)
Record describes (C : pctx) (S : sigs) : Prop := {
  ds_const : forall n y, sg_const S n = Some y -> exists t, global C n = Some t /\ has_type (c_tab C) t y;
  ds_fun : forall n sorts ret, sg_fun S n = Some (sorts, ret) ->
    assoc (c_defs C) n = None /\ assoc (c_decls C) n = Some (sorts, ret) /\ (ret = TBool \/ ret = TReal) /\
    exists f, assoc (c_names C) n = Some f /\ valid (c_tab C) f /\ tneg f = false /\ kind_of (c_tab C) f = KUninterp;
  ds_builtin : forall n o, sg_fun S n = None -> builtin n = Some o -> assoc (c_defs C) n = None /\ assoc (c_decls C) n = None }.
(** The meaning is the one that interpretation [I] gives to these terms. *)
Record interprets (C : pctx) (S : sigs) (I : interp) (M : meaning) : Prop := {
  it_const : forall n y t, sg_const S n = Some y -> global C n = Some t -> mn_const M n = teval I (c_tab C) t;
  it_fun : forall n sorts ret f vs, sg_fun S n = Some (sorts, ret) -> assoc (c_names C) n = Some f ->
    mn_fun M n vs = match ret with TReal => VR (i_freal I (tix f) vs) | _ => VB (i_fbool I (tix f) vs) end }.
(** local bindings with their sorts, and with their values *)
Definition local_types (T : table) (bs : list (text * term)) (env : list (text * ty)) : Prop :=
  Forall2 (fun b x => fst b = fst x /\ has_type T (snd b) (snd x)) bs env.
Definition local_values (I : interp) (T : table) (bs : list (text * term)) (env : list (text * value)) : Prop :=
  Forall2 (fun b x => fst b = fst x /\ teval I T (snd b) = snd x) bs env.

(** Expressions for which the term manager returns a result (C41_total): a product has at most two factors, one of
    them a numeral, and reals are not compared with = or distinct. *)
Section Simple.
Variable S : sigs.
Fixpoint simple (env : list (text * ty)) (e : expr) : Prop :=
  match e with
  | ESym _ | ENum _ | EDec _ _ => True
  | EApp f args =>
      fold_right and True (map (simple env) args) /\
      match sg_fun S (nm_text f) with
      | Some _ => True
      | None =>
          match builtin (nm_text f) with
          | Some OTimes => match args with [] | [_] => True | [a; b] => is_num a = true \/ is_num b = true | _ => False end
          | Some OEq | Some ODistinct => fold_right and True (map (fun a => etype S env a = Some TBool) args)
          | _ => True
          end
      end
  | ELet bs body =>
      fold_right and True (map (fun b => simple env (snd b)) bs) /\
      forall tys, all_some (map (fun b => etype S env (snd b)) bs) = Some tys ->
        simple (bind_new (combine (map (fun b => nm_text (fst b)) bs) tys) env) body
  end.
End Simple.
