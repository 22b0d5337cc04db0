(** Specification for C46: subterms, and orders in which arguments come first. *)
From Coq Require Import List Arith Bool.
From Verif Require Import Base Terms_Model Spec_Terms TermMgr_Model Spec_TermMgr.
Import ListNotations.
Open Scope nat_scope.

(** [s] is a subterm of [t] (the function symbol of an application is not) *)
Inductive subterm (T : table) : term -> term -> Prop :=
| sub_refl : forall t, subterm T t t
| sub_arg : forall s a t, In a (get_args T t) -> subterm T s a -> subterm T s t.

(** every argument of a visited term has been visited before it (with either sign: the two signs
    share an element of the table) *)
Definition args_first (T : table) (order : list term) : Prop :=
  forall before t after, order = before ++ t :: after ->
    forall a, In a (get_args T t) -> In (tix a) (map tix before).

(** The calls are made on a table of terms that grows from [T]; the last one is [T']. *)
Fixpoint session (H : hashes) (T : table) (calls : list (table * list term)) (T' : table) : Prop :=
  match calls with
  | [] => T' = T
  | (T1, roots) :: calls' => keeps T T1 /\ reach H T1 /\ Forall (valid T1) roots /\ session H T1 calls' T'
  end.
