(** Specification for C45: the value of a macro's body when the formal parameters have the values of the
    arguments. *)
From Coq Require Import List Arith Bool Qcanon.
From Verif Require Import Base Terms_Model Spec_Terms.
Import ListNotations.
Open Scope nat_scope.

(** the interpretation that gives the constant with index [i] the value [v] *)
Definition set_const (I : interp) (i : nat) (v : value) : interp :=
  mkI (fun j => if j =? i then as_b v else i_bool I j)
      (fun j => if j =? i then as_r v else i_real I j)
      (i_fbool I) (i_freal I).
Fixpoint set_consts (I : interp) (cs : list (term * value)) : interp :=
  match cs with [] => I | (f, v) :: cs' => set_const (set_consts I cs') (tix f) v end.

(** [t'] is the body with every formal parameter replaced by its argument, semantically *)
Definition expands (T : table) (formals : list term) (body : term) (args : list term) (T' : table) (t' : term) : Prop :=
  forall I, teval I T' t' = teval (set_consts I (combine formals (map (teval I T) args))) T body.

(** a define-fun and a call of it: the formal parameters are distinct declared constants, the arguments have
    their types *)
Definition macro (T : table) (formals : list term) (body : term) (args : list term) : Prop :=
  NoDup (map tix formals) /\ valid T body /\ (tneg body = true -> type_of T body = TBool) /\
  Forall (fun f => valid T f /\ tneg f = false /\ kind_of T f = KUninterp) formals /\
  Forall2 (fun f a => match type_of T f with TBool => bool_t T a | TReal => real_t T a | TNull => False end) formals args.
