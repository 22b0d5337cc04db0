(** Specification for hash consing (C39) and the meaning of terms (C40-C47). *)
From Coq Require Import List Arith ZArith QArith Qcanon NArith Bool Lia.
From Verif Require Import Base Terms_Model.
Import ListNotations.
Close Scope Qc_scope.
Close Scope Q_scope.
Open Scope nat_scope.

(** ** Histories of constructor calls (C39) *)
Inductive t_op :=
| TGet (r : request)       (* a constructor that shares terms *)
| TNew (ty : ty).          (* declare a new constant *)
Definition t_do (H : hashes) (T : table) (o : t_op) : table * term :=
  match o with TGet r => get_term H T r | TNew ty => new_uninterpreted T ty end.
Fixpoint t_history (H : hashes) (T : table) (h : list t_op) : table * list term :=
  match h with
  | [] => (T, [])
  | o :: h' => let (T1, t) := t_do H T o in let (T2, ts) := t_history H T1 h' in (T2, t :: ts)
  end.
(** composite terms have composite kinds *)
Definition op_ok (o : t_op) : Prop :=
  match o with
  | TGet (RComp k _ _) => k <> KConst /\ k <> KArithConst /\ k <> KUninterp /\ k <> KReserved
  | _ => True
  end.
(** the content the call asks for *)
Definition op_node (o : t_op) : node :=
  match o with TGet r => req_node r | TNew ty => mkNode KUninterp ty DNone end.

(** ** Meaning of terms *)
Inductive value := VB (b : bool) | VR (q : Qc).
Definition as_b (v : value) : bool := match v with VB b => b | VR _ => false end.
Definition as_r (v : value) : Qc := match v with VR q => q | VB _ => 0%Qc end.
Definition vneg (v : value) : value := match v with VB b => VB (negb b) | VR q => VR q end.

(** Interpretation of the declared constants and functions, by index of their symbol. *)
Record interp : Type := mkI {
  i_bool : nat -> bool;
  i_real : nat -> Qc;
  i_fbool : nat -> list value -> bool;
  i_freal : nat -> list value -> Qc }.

(** value of a handle, given the values of the table's elements *)
Definition look (vs : list value) (t : term) : value :=
  let v := nth (tix t) vs (VB false) in if tneg t then vneg v else v.

Definition Qc_geb (a b : Qc) : bool := if Qclt_le_dec a b then false else true.
Definition Qc_eqb (a b : Qc) : bool := if Qc_eq_dec a b then true else false.
Definition Qcsum (l : list Qc) : Qc := fold_right Qcplus 0%Qc l.

(** value of the element with index [i], given the values of the elements before it *)
Definition node_value (I : interp) (i : nat) (vs : list value) (n : node) : value :=
  match n_kind n, n_desc n with
  | KConst, _ => VB true
  | KArithConst, DRat q => VR q
  | KUninterp, _ => match n_type n with TReal => VR (i_real I i) | _ => VB (i_bool I i) end
  | KIte, DArgs [c; t; e] => if as_b (look vs c) then look vs t else look vs e
  | KApp, DArgs (f :: args) =>
      match n_type n with
      | TReal => VR (i_freal I (tix f) (map (look vs) args))
      | _ => VB (i_fbool I (tix f) (map (look vs) args))
      end
  | KOr, DArgs args => VB (existsb (fun a => as_b (look vs a)) args)
  | KArithEq, DArgs [t] => VB (Qc_eqb (as_r (look vs t)) 0)
  | KArithGe, DArgs [t] => VB (Qc_geb (as_r (look vs t)) 0)
  | KArithBineq, DArgs [s; t] => VB (Qc_eqb (as_r (look vs s)) (as_r (look vs t)))
  | KProduct, DArgs [c; x] => VR (as_r (look vs c) * as_r (look vs x))%Qc
  | KPoly, DArgs ms => VR (Qcsum (map (fun m => as_r (look vs m)) ms))
  | _, _ => VB false
  end.
Definition values (I : interp) (ns : list node) : list value :=
  fold_left (fun vs n => vs ++ [node_value I (length vs) vs n]) ns [].

(** the value of term [t] of table [T] under [I] *)
Definition teval (I : interp) (T : table) (t : term) : value := look (values I (tt_nodes T)) t.
Definition tholds (I : interp) (T : table) (t : term) : bool := as_b (teval I T t).
Definition treal (I : interp) (T : table) (t : term) : Qc := as_r (teval I T t).

(** Handles of Boolean and of real terms (only Boolean handles can be negated). *)
Definition valid (T : table) (t : term) : Prop := 1 <= tix t < length (tt_nodes T).
Definition bool_t (T : table) (t : term) : Prop := valid T t /\ type_of T t = TBool.
Definition real_t (T : table) (t : term) : Prop := valid T t /\ type_of T t = TReal /\ tneg t = false.
Definition typed (T : table) (t : term) : Prop := bool_t T t \/ real_t T t.
