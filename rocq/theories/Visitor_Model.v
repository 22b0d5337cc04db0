(** Model of terms/Term_visitor.h: visits the terms of a DAG bottom-up, each once. *)
From Coq Require Import List Arith Bool.
From Verif Require Import Base Terms_Model.
Import ListNotations.
Open Scope nat_scope.

Section Visitor.
(** The configuration: its state and its method visit (which may fail). *)
Context {C : Type}.
Variable V : C -> term -> res C.
Variable T : table.

(** Term_visitor.h 39-43 DFSEntry: term and next_child *)
Definition entry : Type := term * nat.
(** the indices in [processed] *)
Definition seen (p : list nat) (t : term) : bool := existsb (Nat.eqb (tix t)) p.

(** Term_visitor.h 46-67: the loop. The top of the worklist is the head of the list. *)
Fixpoint visit_loop (fuel : nat) (work : list entry) (p : list nat) (c : C) : res (list nat * C) :=
  match work with
  | [] => Ok (p, c)
  | (t, k) :: w =>
      match fuel with
      | 0 => Fuel
      | S f =>
          match nth_error (get_args T t) k with
          | Some ch =>
              if seen p ch then visit_loop f ((t, S k) :: w) p c
              else visit_loop f ((ch, 0) :: (t, S k) :: w) p c
          | None =>
              _ <- assertb (negb (seen p t)) ;;
              c' <- V c t ;;
              visit_loop f w (tix t :: p) c'
          end
      end
  end.
(** steps that suffice (proved): one per argument of an element of the table and one per element *)
Definition visit_fuel : nat :=
  fold_right (fun n a => S (length (dargs n)) + a) 0 (tt_nodes T).
(** Term_visitor.h 37-45 visit(term_t) *)
Definition visit_root (p : list nat) (c : C) (t : term) : res (list nat * C) :=
  visit_loop visit_fuel [(t, 0)] p c.
(** Term_visitor.h 26-35 visit(std::span) *)
Fixpoint visit_span (p : list nat) (c : C) (roots : list term) : res (list nat * C) :=
  match roots with
  | [] => Ok (p, c)
  | t :: roots' =>
      if seen p t then visit_span p c roots'
      else ' (p', c') <- visit_root p c t ;; visit_span p' c' roots'
  end.
End Visitor.

(** Several calls of visit(std::span) on one visitor: the set [processed] is kept. Between the calls terms
    may have been added, so each call comes with the table at that time. *)
Fixpoint visit_calls {C} (V : table -> C -> term -> res C) (p : list nat) (c : C) (calls : list (table * list term)) : res (list nat * C) :=
  match calls with
  | [] => Ok (p, c)
  | (T, r) :: calls' => ' (p', c') <- visit_span (V T) T p c r ;; visit_calls V p' c' calls'
  end.

(** The configuration that records the terms it visits, in order. *)
Definition record (c : list term) (t : term) : res (list term) := Ok (c ++ [t]).
