(** Model of Event_dispatcher.h and of the components a Solver registers in it (Solver.h 70-133, Solver.cpp 5-10).
    Objects are addresses, natural numbers; nullptr is [None]. *)
From Coq Require Import List Arith Bool.
Import ListNotations.

(** Event_dispatcher.h 117-118 listeners *)
Definition listeners : Type := list nat.
(** 99 add *)
Definition d_add (l : listeners) (x : nat) : listeners := l ++ [x].
(** 107-114 remove: the first occurrence is erased *)
Fixpoint d_remove (l : listeners) (x : nat) : listeners :=
  match l with [] => [] | y :: l' => if y =? x then l' else y :: d_remove l' x end.
Definition d_remove_ptr (l : listeners) (p : option nat) : listeners := match p with None => l | Some x => d_remove l x end.
(** 20-93: each event [e] is sent to all listeners, one after the other: the calls that are made *)
Definition d_send {E} (l : listeners) (e : E) : list (nat * E) := fold_left (fun calls x => calls ++ [(x, e)]) l [].

Inductive d_op : Type := Add (x : nat) | Remove (x : nat).
Definition d_step (l : listeners) (o : d_op) : listeners := match o with Add x => d_add l x | Remove x => d_remove l x end.
Definition d_run (h : list d_op) : listeners := fold_left d_step h [].

(** Solver.h 178-186: the dispatcher and the owned components; [alive]: the objects that exist *)
Record parts : Type := mkP { p_disp : listeners; p_sub : nat; p_th : option nat; p_order : option nat; p_restart : option nat; alive : list nat }.
Inductive part : Type := PTheory | POrder | PRestart.
(** Solver.cpp 5-10: the constructor makes and registers a Subsumption, here object 0 *)
Definition p_new : parts := mkP [0] 0 None None None [0].
Definition drop (a : list nat) (p : option nat) : list nat := match p with None => a | Some x => filter (fun y => negb (y =? x)) a end.
(** Solver.h 82-133 set_theory, set_variable_order, set_restart_policy: the old component is unregistered, the new one is made
    at address [x], moving it into the pointer destroys the old one, and the new one is registered *)
Definition p_set (s : parts) (w : part) (x : nat) : parts :=
  match w with
  | PTheory => let d := d_remove_ptr (p_disp s) (p_th s) in mkP (d_add d x) (p_sub s) (Some x) (p_order s) (p_restart s) (drop (x :: alive s) (p_th s))
  | POrder => let d := d_remove_ptr (p_disp s) (p_order s) in mkP (d_add d x) (p_sub s) (p_th s) (Some x) (p_restart s) (drop (x :: alive s) (p_order s))
  | PRestart => let d := d_remove_ptr (p_disp s) (p_restart s) in mkP (d_add d x) (p_sub s) (p_th s) (p_order s) (Some x) (drop (x :: alive s) (p_restart s))
  end.
Definition p_run (h : list (part * nat)) : parts := fold_left (fun s o => p_set s (fst o) (snd o)) h p_new.
