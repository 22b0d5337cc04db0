(** Specification of the histories of the generalized VSIDS order. *)
From Coq Require Import List Arith Bool.
From Verif Require Import Base Core_Model Order_Model Queue_Model Trail_Model Spec_Trail Gvsids_Model.
Import ListNotations.
Open Scope nat_scope.

Section Spec.
Variable cons_vars : nat -> list nat.

(** all boolean variables of a clause, and all rational variables of their constraints, exist *)
Definition clause_in (a : atrail) (c : clause) : Prop :=
  forall l, In l c -> lord l < at_nb a /\ forall x, In x (cons_vars (lord l)) -> x < at_nq a.

Definition g_legal (a : atrail) (o : gop) : Prop :=
  match o with
  | GTrail o => t_legal a o
  | GInit d => forall c, In c (asserted d ++ learned d) -> clause_in a c
  | GLearned c => clause_in a c
  | GResolved c => clause_in a c
  | GPick dec _ => Forall (fun x => x < at_nq a) dec
  end.
Definition g_at (a : atrail) (o : gop) : atrail := match o with GTrail o => at_step a o | _ => a end.
(** variables assigned at level 0 when the solver restarted *)
Definition g_lost (a : atrail) (o : gop) (lost : var -> Prop) : var -> Prop :=
  match o with
  | GTrail TClear => fun v => lost v \/ exists g, at_rec a v = Some g /\ a_level g = 0
  | _ => lost
  end.

(** legal histories; the trail they lead to; the variables that some restart found at level 0 *)
Inductive g_history : list gop -> atrail -> (var -> Prop) -> Prop :=
| gh_new : g_history [] (at_new 0 0) (fun _ => False)
| gh_step h a lost o : g_history h a lost -> g_legal a o ->
    g_history (h ++ [o]) (g_at a o) (g_lost a o lost).

(** the linear arithmetic plugin never reports an effectively decided variable (always so unless
    the option prop_rational is set, Linear_arithmetic.cpp 351) *)
Definition no_effectively_decided (h : list gop) : Prop :=
  forall dec ed, In (GPick dec ed) h -> dec = [].
End Spec.
