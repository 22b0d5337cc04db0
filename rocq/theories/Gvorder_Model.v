(** Generalized_vsids as the variable order of a solver with linear arithmetic. *)
From Coq Require Import List Arith ZArith Bool.
From Verif Require Import Base Core_Model Trail_Model Solver_Model Order_Model Queue_Model Gvsids_Model.
Import ListNotations.
Open Scope nat_scope.

Section Order.
Context {F : Type}.
Variable fo : fops F.
(** What the order asks Linear_arithmetic, at the n-th event it gets: the rational variables of the constraint of a
    boolean variable (Generalized_vsids.h 151-158), effectively_decided() and is_effectively_decided()
    (Generalized_vsids.cpp 78-101). Any answers are allowed. *)
Variable cons_vars : nat -> nat -> list nat.
Variable dec : nat -> list nat.
Variable ed : nat -> nat -> bool.

(** The state of the order and the number of events it got. None: an assertion of the order failed; the C++ program
    stops there, the model goes on with First_unassigned, so that the model's order is total. *)
Definition gvs : Type := option (@gv F) * nat.

(** An event. on_variable_resize (Generalized_vsids.cpp 5-18) is called when the trail grows (Trail.cpp 17); here it
    runs at the next event, which is the first to see its effect. *)
Definition gv_grow (g : @gv F) (t : trail) : res gv := g_resize fo g (mnum (t_bm t)) (mnum (t_qm t)).
Definition gv_event (s : gvs) (t : trail) (f : @gv F -> res gv) : gvs :=
  match fst s with
  | None => (None, S (snd s))
  | Some g => match (g1 <- gv_grow g t ;; f g1) with Ok g2 => (Some g2, S (snd s)) | _ => (None, S (snd s)) end
  end.
(** Generalized_vsids.cpp 103-130 pick *)
Definition gv_pick (s : gvs) (t : trail) : gvs * option var :=
  match fst s with
  | None => ((None, S (snd s)), fu_pick t)
  | Some g =>
      match (g1 <- gv_grow g t ;; g_pick fo g1 t (dec (snd s)) (ed (snd s))) with
      | Ok (g2, o) => ((Some g2, S (snd s)), o)
      | _ => ((None, S (snd s)), fu_pick t)
      end
  end.
(** Generalized_vsids.h 84-92 score, Generalized_vsids.cpp 73-76 is_before *)
Definition gv_score (g : @gv F) (v : var) : F := match g_score g v with Ok s => s | _ => f_zero fo end.
Definition gv_is_before (s : gvs) (a b : var) : bool :=
  match fst s with Some g => f_gt fo (gv_score g a) (gv_score g b) | None => var_ltb a b end.

(** Generalized_vsids.cpp 56-71 on_learned_clause, on_conflict_resolved; 42-55 on_before_backtrack *)
Definition gv_order : order gvs :=
  mkOrder gv_pick gv_is_before
          (fun s t c => gv_event s t (fun g => g_learned fo (cons_vars (snd s)) g c))
          (fun s t c => gv_event s t (fun g => g_bump_clause fo (cons_vars (snd s)) g c))
          (fun s t k => gv_event s t (fun g => g_before_backtrack fo g t k)).
(** Solver.cpp 160-176 init: the order learns the numbers of variables and the clauses *)
Definition gv_start (d : db) (t : trail) : gvs :=
  gv_event (Some (gv_new fo), 0) t (fun g => g_init fo (cons_vars 0) g d).
End Order.
