(** Model of the parts of Trail, Theory and Theory_combination used by every plugin: histories of
    trail operations, the per-plugin cursor of Theory::assigned and the propagation loop of
    Theory_combination. The trail itself is in Core_Model.v. *)
From Coq Require Import List Arith ZArith QArith Bool.
From Verif Require Import Base Core_Model.
Import ListNotations.
Open Scope nat_scope.

(** Value of a variable of either type; only the component of its type is used. *)
Definition xvalue : Type := (bool * Q)%type.

(** models.set_value(var.ord(), value), called by the plugins together with decide/propagate *)
Definition put (t : trail) (v : var) (x : xvalue) : trail :=
  match v with
  | VBool i => with_bm t (set_value (t_bm t) i (fst x))
  | VRat i => with_qm t (set_value (t_qm t) i (snd x))
  end.

Definition in_range (nb nq : nat) (v : var) : bool :=
  match v with VBool i => i <? nb | VRat i => i <? nq end.

(** Trail.cpp 6-18 resize, for both types at once (one type at a time in the code). *)
Definition trail_resize (t : trail) (nb nq : nat) : trail :=
  let keep v := in_range (Nat.min nb (mnum (t_bm t))) (Nat.min nq (mnum (t_qm t))) v in
  mkTrail (t_levels t)
          (fun v => if keep v then t_lvl t v else None)
          (fun v => if keep v then t_rsn t v else None)
          (model_resize false (t_bm t) nb) (model_resize 0%Q (t_qm t) nq).

(** Operations of a client of the trail. *)
Inductive top : Type :=
| TDecide (v : var) (x : xvalue)
| TPropagate (v : var) (r : option cref) (level : nat) (x : xvalue)
| TBacktrack (level : nat)
| TClear
| TResize (nb nq : nat).

Definition t_step (t : trail) (o : top) : res trail :=
  match o with
  | TDecide v x => Ok (trail_decide (put t v x) v)
  | TPropagate v r k x => trail_propagate (put t v x) v r k
  | TBacktrack k => trail_backtrack t k
  | TClear => Ok (trail_clear t)
  | TResize nb nq => Ok (trail_resize t nb nq)
  end.
Fixpoint t_run (t : trail) (h : list top) : res trail :=
  match h with [] => Ok t | o :: h' => t1 <- t_step t o ;; t_run t1 h' end.

(** Operations of a client of one Model (Model.h 29, 35, 83-107). *)
Inductive mop (T : Type) : Type :=
| MSet (i : nat) (x : T)
| MClear (i : nat)
| MClearAll
| MResize (n : nat).
Arguments MSet {T}.
Arguments MClear {T}.
Arguments MClearAll {T}.
Arguments MResize {T}.
Definition m_step {T} (x0 : T) (m : model T) (o : mop T) : model T :=
  match o with
  | MSet i x => set_value m i x
  | MClear i => model_clear m i
  | MClearAll => model_clear_all m
  | MResize n => model_resize x0 m n
  end.
Definition m_run {T} (x0 : T) (m : model T) (h : list (mop T)) : model T := fold_left (m_step x0) h m.

(** ** Theory.h 52-55: next_index and current_level (-1 is None) *)
Record cursor : Type := mkCur { cu_next : nat; cu_level : option nat }.
Definition cursor_new : cursor := mkCur 0 None.
(** Theory.cpp 5-9 on_before_backtrack *)
Definition cursor_reset (c : cursor) : cursor := mkCur 0 None.
(** Theory.cpp 11-17 assigned: the elements of recent() from position [skip] on, oldest first *)
Definition cursor_assigned (c : cursor) (t : trail) : cursor * list entry :=
  let skip := match cu_level c with
              | Some k => if dl t =? k then cu_next c else 0
              | None => 0
              end in
  (mkCur (length (recent t)) (Some (dl t)), skipn skip (rev (recent t))).

(** One plugin on one trail. The dispatcher calls on_before_backtrack before every backtrack and
    before clear (Solver.cpp 100, 180). *)
Inductive cop : Type :=
| COp (o : top)
| CAssignedCall.
Definition c_notify (c : cursor) (o : top) : cursor :=
  match o with TBacktrack _ | TClear => cursor_reset c | _ => c end.

(** ** Theory_combination.cpp 8-31 propagate *)
Section Combination.
Context {PS : Type}.
(** a plugin: state, database and trail to the same plus the list of conflicts *)
Definition plugin : Type := PS -> db -> trail -> res (PS * db * trail * list clause).

(** lines 13-20: one pass over the plugins; stops at the first conflict *)
Fixpoint comb_round (ps : list plugin) (ss : list PS) (d : db) (t : trail)
  : res (list PS * db * trail * list clause) :=
  match ps, ss with
  | [], [] => Ok ([], d, t, [])
  | p :: ps', s :: ss' =>
      '(s1, d1, t1, cs) <- p s d t ;;
      match cs with
      | _ :: _ => Ok (s1 :: ss', d1, t1, cs)
      | [] => '(ss1, d2, t2, cs2) <- comb_round ps' ss' d1 t1 ;; Ok (s1 :: ss1, d2, t2, cs2)
      end
  | _, _ => UB
  end.
(** lines 10-30 *)
Fixpoint comb_propagate (fuel : nat) (ps : list plugin) (ss : list PS) (d : db) (t : trail)
  : res (list PS * db * trail * list clause) :=
  match fuel with
  | 0 => Fuel
  | S f =>
      '(ss1, d1, t1, cs) <- comb_round ps ss d t ;;
      match cs with
      | _ :: _ => Ok (ss1, d1, t1, cs)
      | [] => if length (recent t) =? length (recent t1) then Ok (ss1, d1, t1, [])
              else comb_propagate f ps ss1 d1 t1
      end
  end.
End Combination.
