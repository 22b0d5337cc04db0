(** Specification of the term manager's constructors (C40-C44): the SMT-LIB meaning of the operators, their
    signatures, and the tables that calls can produce. *)
From Coq Require Import List Arith ZArith QArith Qcanon NArith Bool Lia.
From Verif Require Import Base Terms_Model Spec_Terms TermMgr_Model.
Import ListNotations.
Close Scope Qc_scope.
Close Scope Q_scope.
Open Scope nat_scope.

(** ** Meaning of the operators on values *)
Definition value_eqb (a b : value) : bool :=
  match a, b with VB x, VB y => eqb x y | VR x, VR y => Qc_eqb x y | _, _ => false end.
Fixpoint all_distinct (vs : list value) : bool :=
  match vs with [] => true | v :: l => negb (existsb (value_eqb v) l) && all_distinct l end.
Definition Qcprod (l : list Qc) : Qc := fold_right Qcmult 1%Qc l.

Definition op_sem (o : op) (vs : list value) : value :=
  match o, vs with
  | OGe, [VR a; VR b] => VB (Qc_geb a b)
  | OLe, [VR a; VR b] => VB (Qc_geb b a)
  | OLt, [VR a; VR b] => VB (negb (Qc_geb a b))
  | OGt, [VR a; VR b] => VB (negb (Qc_geb b a))
  | OEq, [a; b] => VB (value_eqb a b)
  | OOr, _ => VB (existsb as_b vs)
  | OAnd, _ => VB (forallb as_b vs)
  | OImp, [a; b] => VB (implb (as_b a) (as_b b))
  | ONot, [a] => VB (negb (as_b a))
  | OXor, [a; b] => VB (xorb (as_b a) (as_b b))
  | OMinus, [VR a] => VR (- a)%Qc
  | OMinus, [VR a; VR b] => VR (a - b)%Qc
  | OPlus, _ => VR (Qcsum (map as_r vs))
  | OTimes, _ => VR (Qcprod (map as_r vs))
  | ODiv, [VR a; VR b] => VR (a / b)%Qc
  | OIte, [c; t; e] => if as_b c then t else e
  | ODistinct, _ => VB (all_distinct vs)
  | _, _ => VB false
  end.

(** ** Signatures: result type for these argument types *)
Definition op_sig (o : op) (tys : list ty) : option ty :=
  match o, tys with
  | (OGe | OLe | OLt | OGt), [TReal; TReal] => Some TBool
  | OEq, [TReal; TReal] | OEq, [TBool; TBool] => Some TBool
  | (OOr | OAnd), _ => if forallb (ty_eqb TBool) tys then Some TBool else None
  | (OImp | OXor), [TBool; TBool] => Some TBool
  | ONot, [TBool] => Some TBool
  | OMinus, [TReal] | OMinus, [TReal; TReal] => Some TReal
  | (OPlus | OTimes), _ => if forallb (ty_eqb TReal) tys then Some TReal else None
  | ODiv, [TReal; TReal] => Some TReal
  | OIte, [TBool; TBool; TBool] => Some TBool
  | OIte, [TBool; TReal; TReal] => Some TReal
  | ODistinct, _ => if forallb (ty_eqb TBool) tys || forallb (ty_eqb TReal) tys then Some TBool else None
  | _, _ => None
  end.
Definition has_type (T : table) (t : term) (y : ty) : Prop :=
  match y with TBool => bool_t T t | TReal => real_t T t | TNull => False end.

(** the products the solver supports: at most two factors, one of them a constant *)
Definition lin (T : table) (args : list term) : Prop :=
  match args with
  | [] | [_] => True
  | [a; b] => is_arith_const T a = true \/ is_arith_const T b = true
  | _ => False
  end.
(** one of the terms is the other one, a variable, multiplied by the constant 1 *)
Definition unit_pair (T : table) (a b : term) : Prop :=
  exists k x, node_of T k = mkNode KArithConst TReal (DRat 1) /\
    ((b = x /\ node_of T a = mkNode KProduct TReal (DArgs [k; x])) \/
     (a = x /\ node_of T b = mkNode KProduct TReal (DArgs [k; x]))).

(** every term of the first table is still there, with the same content *)
Definition keeps (T T' : table) : Prop :=
  (forall t, valid T t -> valid T' t /\ node_of T' t = node_of T t) /\
  (forall I t, valid T t -> teval I T' t = teval I T t).

(** ** Tables produced by declarations and constructor calls *)
Inductive reach (H : hashes) : table -> Prop :=
| r_new : reach H (table_new H)
| r_decl : forall T ty T' t, reach H T -> ty = TBool \/ ty = TReal ->
    new_uninterpreted T ty = (T', t) -> reach H T'
| r_num : forall T q T' t, reach H T -> arith_const H T q = (T', t) -> reach H T'
| r_app : forall T f ret args T' t, reach H T -> valid T f -> tneg f = false -> kind_of T f = KUninterp ->
    ret = TBool \/ ret = TReal -> Forall (typed T) args -> mk_app H T f ret args = (T', t) -> reach H T'
| r_op : forall T o args tys ty T' t, reach H T -> Forall2 (has_type T) args tys -> op_sig o tys = Some ty ->
    mk_term H T o args = Ok (T', t) -> reach H T'.

(** ** Variables of a term *)
Inductive mentions (T : table) (t : term) : Prop :=
| m_var : kind_of T t = KUninterp \/ kind_of T t = KApp \/ kind_of T t = KIte -> mentions T t
| m_arg : forall a, In a (dargs (node_of T t)) -> mentions T a -> mentions T t.
