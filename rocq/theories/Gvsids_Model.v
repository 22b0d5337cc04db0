(** Model of variable_order/Generalized_vsids.h/.cpp on top of the priority queue. *)
From Coq Require Import List Arith ZArith Bool.
From Verif Require Import Base Core_Model Order_Model Queue_Model Trail_Model.
Import ListNotations.
Open Scope nat_scope.

Section Gvsids.
Context {F : Type}.
Variable fo : fops F.
(** lra->constraint(ord).vars(): rational variables of the constraint attached to a boolean
    variable (empty for an ordinary boolean variable) *)
Variable cons_vars : nat -> list nat.

(** Generalized_vsids.h 99-110 fields; [vsids] per type *)
Record gv : Type := mkGv { g_sb : list F; g_sr : list F; g_vars : @queue F; g_ed : @queue F; g_inc : F }.
Definition gv_new : gv := mkGv [] [] q_new q_new (f_one fo).

(** Generalized_vsids.h 131 score(var) *)
Definition g_score (g : gv) (v : var) : res F :=
  match v with VBool i => at_ (g_sb g) i | VRat i => at_ (g_sr g) i end.
Definition g_set_score (g : gv) (v : var) (s : F) : gv :=
  match v with
  | VBool i => mkGv (set_nth i s (g_sb g)) (g_sr g) (g_vars g) (g_ed g) (g_inc g)
  | VRat i => mkGv (g_sb g) (set_nth i s (g_sr g)) (g_vars g) (g_ed g) (g_inc g)
  end.
Definition with_queues (g : gv) (v e : queue) : gv := mkGv (g_sb g) (g_sr g) v e (g_inc g).

(** Generalized_vsids.h 134-146 rescale *)
Definition g_rescale (g : gv) : res gv :=
  let dv s := f_div fo s (f_threshold fo) in
  v <- q_rescale fo (g_vars g) (f_threshold fo) ;;
  e <- q_rescale fo (g_ed g) (f_threshold fo) ;;
  Ok (mkGv (map dv (g_sb g)) (map dv (g_sr g)) v e (dv (g_inc g))).

(** Generalized_vsids.h 149 decay *)
Definition g_decay (g : gv) : gv := mkGv (g_sb g) (g_sr g) (g_vars g) (g_ed g) (f_mul fo (g_inc g) (f_grow fo)).

(** Generalized_vsids.h 160-173 bump(Variable) *)
Definition g_bump1 (g : gv) (v : var) : res gv :=
  s <- g_score g v ;;
  let s' := f_add fo s (g_inc g) in
  let g1 := g_set_score g v s' in
  if f_ge fo s' (f_threshold fo) then g_rescale g1
  else
    vs <- q_update fo (g_vars g1) v s' ;;
    ed <- q_update fo (g_ed g1) v s' ;;
    Ok (with_queues g1 vs ed).
Fixpoint g_bumps (g : gv) (vs : list var) : res gv :=
  match vs with [] => Ok g | v :: vs' => g1 <- g_bump1 g v ;; g_bumps g1 vs' end.
(** Generalized_vsids.h 151-158 bump(int), applied to the literals of a clause
    (Generalized_vsids.cpp 56-71) *)
Definition g_clause_vars (c : clause) : list var :=
  flat_map (fun l => VBool (lord l) :: map VRat (cons_vars (lord l))) c.
Definition g_bump_clause (g : gv) (c : clause) : res gv := g_bumps g (g_clause_vars c).
Definition g_learned (g : gv) (c : clause) : res gv := g1 <- g_bump_clause g c ;; Ok (g_decay g1).
Fixpoint g_bump_clauses (g : gv) (cs : list clause) : res gv :=
  match cs with [] => Ok g | c :: cs' => g1 <- g_bump_clause g c ;; g_bump_clauses g1 cs' end.

(** Generalized_vsids.cpp 20-40 on_init *)
Definition g_init (g : gv) (d : db) : res gv :=
  let z := fun _ : F => f_zero fo in
  g_bump_clauses (mkGv (map z (g_sb g)) (map z (g_sr g)) (g_vars g) (g_ed g) (g_inc g)) (asserted d ++ learned d).

(** Generalized_vsids.cpp 14-17: push the variables [i, i+k) of a type *)
Fixpoint g_push_new (g : gv) (mk : nat -> var) (i k : nat) : res gv :=
  match k with
  | 0 => Ok g
  | S k' => vs <- q_push fo (g_vars g) (mk i) (f_zero fo) ;; g_push_new (with_queues g vs (g_ed g)) mk (S i) k'
  end.
Definition resize_scores (l : list F) (n : nat) : list F := firstn n l ++ repeat (f_zero fo) (n - length l).
(** Generalized_vsids.cpp 5-18 on_variable_resize, boolean then rational (Solver.cpp 159-166) *)
Definition g_resize (g : gv) (nb nq : nat) : res gv :=
  let ob := length (g_sb g) in
  let oq := length (g_sr g) in
  g1 <- g_push_new (mkGv (resize_scores (g_sb g) nb) (g_sr g) (g_vars g) (g_ed g) (g_inc g)) VBool ob (nb - ob) ;;
  g_push_new (mkGv (g_sb g1) (resize_scores (g_sr g1) nq) (g_vars g1) (g_ed g1) (g_inc g1)) VRat oq (nq - oq).

(** Generalized_vsids.cpp 42-55 on_before_backtrack: the inner loop over one level *)
Fixpoint g_return (g : gv) (t : trail) (k : nat) (es : list entry) : res gv :=
  match es with
  | [] => Ok g
  | e :: es' =>
      if q_contains (g_vars g) (fst e) then g_return g t k es'
      else
        lv <- value_of (t_lvl t (fst e)) ;;
        if k <? lv then
          s <- g_score g (fst e) ;;
          vs <- q_push fo (g_vars g) (fst e) s ;;
          g_return (with_queues g vs (g_ed g)) t k es'
        else g_return g t k es'
  end.
(** levels k+n, k+n-1, ..., k+1 *)
Fixpoint g_return_levels (n : nat) (g : gv) (t : trail) (k : nat) : res gv :=
  match n with
  | 0 => Ok g
  | S n' => es <- assigned_at t (k + n) ;; g1 <- g_return g t k (rev es) ;; g_return_levels n' g1 t k
  end.
Definition g_before_backtrack (g : gv) (t : trail) (k : nat) : res gv := g_return_levels (dl t - k) g t k.

(** Generalized_vsids.cpp 103-116 pick_top; [fuel] bounds the loop *)
Definition assigned (t : trail) (v : var) : bool := match t_lvl t v with Some _ => true | None => false end.
Fixpoint g_pop_assigned (fuel : nat) (stale : var -> bool) (q : @queue F) : res queue :=
  if q_empty q then Ok q
  else
    v <- q_top q ;;
    if stale v then
      match fuel with 0 => Fuel | S f => q1 <- q_pop fo q ;; g_pop_assigned f stale q1 end
    else Ok q.
Definition g_front (q : @queue F) : option var := match q_pq q with [] => None | n :: _ => Some (fst n) end.

(** Generalized_vsids.cpp 78-101 pick_effectively_decided. [dec] is lra->effectively_decided(),
    [ed] is lra->is_effectively_decided. *)
Fixpoint g_push_ed (g : gv) (dec : list nat) : res gv :=
  match dec with
  | [] => Ok g
  | x :: dec' =>
      s <- g_score g (VRat x) ;;
      e <- q_push fo (g_ed g) (VRat x) s ;;
      g_push_ed (with_queues g (g_vars g) e) dec'
  end.
Definition g_pick (g : gv) (t : trail) (dec : list nat) (ed : nat -> bool) : res (gv * option var) :=
  g1 <- g_push_ed g dec ;;
  e <- g_pop_assigned (q_size (g_ed g1))
         (fun v => assigned t v || negb (ed (match v with VBool i => i | VRat i => i end))) (g_ed g1) ;;
  let g2 := with_queues g1 (g_vars g1) e in
  match g_front e with
  | Some v => Ok (g2, Some v)
  | None =>
      vs <- g_pop_assigned (q_size (g_vars g2)) (assigned t) (g_vars g2) ;;
      Ok (with_queues g2 vs (g_ed g2), g_front vs)
  end.

(** A solver run as seen by the order: operations on the trail with their notifications
    (on_before_backtrack before backtrack; on_before_backtrack to level 0 before clear, Solver.cpp
    177-180), events with clauses, and calls of pick. Resizing of the trail and the notification of
    Solver::init (159-166) are one step. *)
Inductive gop : Type :=
| GTrail (o : top)
| GInit (d : db)
| GLearned (c : clause)
| GResolved (c : clause)
| GPick (dec : list nat) (ed : nat -> bool).
Definition g_step (gt : gv * trail) (o : gop) : res (gv * trail) :=
  let (g, t) := gt in
  match o with
  | GTrail o =>
      g1 <- match o with
            | TBacktrack k => g_before_backtrack g t k
            | TClear => g_before_backtrack g t 0
            | TResize nb nq => g_resize g nb nq
            | _ => Ok g
            end ;;
      t1 <- t_step t o ;; Ok (g1, t1)
  | GInit d => g1 <- g_init g d ;; Ok (g1, t)
  | GLearned c => g1 <- g_learned g c ;; Ok (g1, t)
  | GResolved c => g1 <- g_bump_clause g c ;; Ok (g1, t)
  | GPick dec ed => '(g1, _) <- g_pick g t dec ed ;; Ok (g1, t)
  end.
Fixpoint g_run (gt : gv * trail) (h : list gop) : res (gv * trail) :=
  match h with [] => Ok gt | o :: h' => gt1 <- g_step gt o ;; g_run gt1 h' end.
End Gvsids.
