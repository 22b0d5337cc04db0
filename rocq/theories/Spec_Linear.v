(** Linear expressions, as the logics QF_LRA and QF_UFLRA of SMT-LIB define them: a product is a coefficient times a
    declared constant or an application of a declared function. Real terms may be compared with all relations. *)
From Coq Require Import List Bool QArith.
From Verif Require Import Base Terms_Model TermMgr_Model Lexer_Model Parser_Model Spec_TermMgr Spec_Parser Script_Model Spec_Script.
Import ListNotations.

Section Linear.
Variable S : sigs.
(** the names of the declared constants *)
Variable V : text -> Prop.
(** numerals and decimals, and their negations and quotients: 3, (- 2.5), (/ 1 3), (- (/ 1 3)), (/ (- 1) 3) *)
Fixpoint coefficient (e : expr) : Prop :=
  match e with
  | ENum _ | EDec _ _ => True
  | EApp f args =>
      sg_fun S (nm_text f) = None /\
      match args with
      | [a] => builtin (nm_text f) = Some OMinus /\ coefficient a
      | [a; b] => builtin (nm_text f) = Some ODiv /\ coefficient a /\ is_num b = true
      | _ => False
      end
  | _ => False
  end.
(** a declared constant that is not hidden by a local binding, or an application of a declared function *)
Definition unknown (env : list (text * ty)) (e : expr) : Prop :=
  match e with
  | ESym n => V (nm_text n) /\ assoc env (nm_text n) = None
  | EApp f _ => sg_fun S (nm_text f) <> None
  | _ => False
  end.
Fixpoint linear (env : list (text * ty)) (e : expr) : Prop :=
  match e with
  | ESym _ | ENum _ | EDec _ _ => True
  | EApp f args =>
      fold_right and True (map (linear env) args) /\
      match sg_fun S (nm_text f) with
      | Some _ => True
      | None =>
          match builtin (nm_text f) with
          | Some OTimes =>
              match args with
              | [] | [_] => True
              | [a; b] => (coefficient a /\ (coefficient b \/ unknown env b)) \/ (unknown env a /\ coefficient b)
              | _ => False
              end
          | Some ODiv => match args with a :: _ => coefficient a \/ unknown env a | [] => True end
          | _ => True
          end
      end
  | ELet bs body =>
      fold_right and True (map (fun b => linear env (snd b)) bs) /\
      forall tys, all_some (map (fun b => etype S env (snd b)) bs) = Some tys ->
        linear (bind_new (combine (map (fun b => nm_text (fst b)) bs) tys) env) body
  end.
End Linear.

(** scripts all of whose expressions are linear *)
Definition is_declared (w : world) (n : text) : Prop := exists y, assoc (w_decl w) n = Some ([], y).
Definition command_linear (w : world) (c : command) : Prop :=
  match c with
  | KAssert e => linear (sig_of w) (is_declared w) [] e
  | KDefineFun _ ps _ e => linear (sig_of w) (is_declared w) (bind_new (params_env ps) []) e
  | _ => True
  end.
Fixpoint script_linear (w : world) (cs : list command) : Prop :=
  match cs with [] => True | KExit :: _ => True | c :: cs' => command_linear w c /\ script_linear (declares w c) cs' end.
