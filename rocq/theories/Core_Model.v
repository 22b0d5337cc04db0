(** Model of Variable.h, Literal.h, Clause.h, Database.h, Model.h and Trail.h. *)
From Coq Require Import List Arith ZArith QArith Bool Lia.
From Verif Require Import Base.
Import ListNotations.
Open Scope nat_scope.

(** Variable.h 9-65: a typed variable with a 0-based ordinal. *)
Inductive var : Type :=
| VBool (ord : nat)
| VRat (ord : nat).

(** Variable.h 31-34: operator==. *)
Definition var_eqb (a b : var) : bool :=
  match a, b with
  | VBool x, VBool y => x =? y
  | VRat x, VRat y => x =? y
  | _, _ => false
  end.

(** Variable.h 50-53: lexicographic comparison of (type, ord); here [a < b]. *)
Definition var_ltb (a b : var) : bool :=
  match a, b with
  | VBool x, VBool y => x <? y
  | VRat x, VRat y => x <? y
  | VBool _, VRat _ => true
  | VRat _, VBool _ => false
  end.

(** Literal.h 13-95: boolean variable ordinal and sign. The C++ class packs both in one int
    ([ord+1] or [-(ord+1)]); that encoding is modelled and related to this record in
    Literal_Model.v. *)
Record lit : Type := mkLit { lord : nat; lneg : bool }.

(** Literal.h operator==. *)
Definition lit_eqb (a b : lit) : bool :=
  (lord a =? lord b) && Bool.eqb (lneg a) (lneg b).

(** Literal.h operator~. *)
Definition neg (l : lit) : lit := mkLit (lord l) (negb (lneg l)).

(** Literal.h var(). *)
Definition lvar (l : lit) : var := VBool (lord l).

(** Literal.h index(): used by operator<=>. *)
Definition lidx (l : lit) : nat := 2 * lord l + (if lneg l then 1 else 0).

(** Clause.h: using Clause = std::vector<Literal>. *)
Notation clause := (list lit).

Definition mem_lit (l : lit) (c : clause) : bool := existsb (lit_eqb l) c.

(** Database.h: two deques of clauses. A [Clause*] is a symbolic reference into one of them
    (deque references stay valid under push_back). *)
Record db : Type := mkDb { asserted : list clause; learned : list clause }.

Inductive cref : Type :=
| CAsserted (i : nat)
| CLearned (i : nat).

Definition cref_eqb (a b : cref) : bool :=
  match a, b with
  | CAsserted i, CAsserted j => i =? j
  | CLearned i, CLearned j => i =? j
  | _, _ => false
  end.

(** dereference a clause pointer (total: the callers' references are kept valid by the
    invariants; an invalid reference reads as the empty clause, whose positions are all out of
    range and hence UB when accessed). *)
Definition getc (d : db) (r : cref) : clause :=
  match r with
  | CAsserted i => nth i (asserted d) []
  | CLearned i => nth i (learned d) []
  end.

(** write through a clause pointer *)
Definition setc (d : db) (r : cref) (c : clause) : db :=
  match r with
  | CAsserted i => mkDb (set_nth i c (asserted d)) (learned d)
  | CLearned i => mkDb (asserted d) (set_nth i c (learned d))
  end.

(** Model.h 12-112: values, defined flags, timestamps. [mnum] is num_vars(). *)
Record model (T : Type) : Type := mkModel {
  mval : nat -> T;
  mdef : nat -> bool;
  mts : nat -> Z;
  mgts : Z;
  mnum : nat }.
Arguments mkModel {T}.
Arguments mval {T}.
Arguments mdef {T}.
Arguments mts {T}.
Arguments mgts {T}.
Arguments mnum {T}.

(** Model.h 83-88 on a fresh model: all values [x0], nothing defined, timestamps -1. *)
Definition model_new {T} (x0 : T) (n : nat) : model T :=
  mkModel (fun _ => x0) (fun _ => false) (fun _ => (-1)%Z) 0%Z n.

(** Model.h 83-88 resize: only the number of variables changes in the total-map view; entries at
    or above the old size read as the defaults (value 0, undefined, timestamp -1). *)
Definition model_resize {T} (x0 : T) (m : model T) (n : nat) : model T :=
  mkModel (fun i => if i <? Nat.min n (mnum m) then mval m i else x0)
          (fun i => if i <? Nat.min n (mnum m) then mdef m i else false)
          (fun i => if i <? Nat.min n (mnum m) then mts m i else (-1)%Z)
          (mgts m) n.

(** Model.h 102-107 set_value. *)
Definition set_value {T} (m : model T) (i : nat) (x : T) : model T :=
  mkModel (upd (mval m) i x) (upd (mdef m) i true) (upd (mts m) i (mgts m)) (mgts m + 1)%Z (mnum m).

(** Model.h 29 clear(ord). *)
Definition model_clear {T} (m : model T) (i : nat) : model T :=
  mkModel (mval m) (upd (mdef m) i false) (mts m) (mgts m) (mnum m).

(** Model.h 35 clear(). *)
Definition model_clear_all {T} (m : model T) : model T :=
  mkModel (mval m) (fun _ => false) (mts m) (mgts m) (mnum m).

(** Model.h 122-126 eval(model, lit). *)
Definition eval_lit (m : model bool) (l : lit) : option bool :=
  if mdef m (lord l) then Some (Bool.eqb (mval m (lord l)) (negb (lneg l))) else None.

(** [eval(...) == true] and [eval(...) == false] on std::optional<bool>. *)
Definition is_true (o : option bool) : bool := match o with Some true => true | _ => false end.
Definition is_false (o : option bool) : bool := match o with Some false => true | _ => false end.

(** Model.h 136-153 eval(model, clause): the loop with the counter [num_assigned]. *)
Fixpoint eval_clause_loop (m : model bool) (c : clause) (num_assigned : nat) (size : nat)
  : option bool :=
  match c with
  | [] => if size <=? num_assigned then Some false else None
  | l :: c' =>
      match eval_lit m l with
      | Some true => Some true
      | Some false => eval_clause_loop m c' (S num_assigned) size
      | None => eval_clause_loop m c' num_assigned size
      end
  end.
Definition eval_clause (m : model bool) (c : clause) : option bool :=
  eval_clause_loop m c 0 (length c).

(** Trail.h 45-287. [t_levels] is the member [trail] with the current level first and each
    level's vector stored newest element first (push_back is cons). [t_lvl]/[t_rsn] are
    [var_level]/[var_reason] ([unassigned] = -1 is [None], nullptr is [None]). The models of the
    two variable types are [t_bm] and [t_qm]; rational values are exact (see Long_fraction). *)
Definition entry : Type := (var * option cref)%type.

Record trail : Type := mkTrail {
  t_levels : list (list entry);
  t_lvl : var -> option nat;
  t_rsn : var -> option cref;
  t_bm : model bool;
  t_qm : model Q }.

Definition vupd {A} (f : var -> A) (v : var) (x : A) : var -> A :=
  fun w => if var_eqb w v then x else f w.

(** Trail.h 58 with set_model/resize for [nb] boolean and [nq] rational variables. *)
Definition trail_new (nb nq : nat) : trail :=
  mkTrail [[]] (fun _ => None) (fun _ => None) (model_new false nb) (model_new 0%Q nq).

(** Trail.h 61 decision_level(). *)
Definition dl (t : trail) : nat := length (t_levels t) - 1.

(** Trail.h 89 recent(). *)
Definition recent (t : trail) : list entry := hd [] (t_levels t).

(** Trail.h 98 assigned(level); out of range is UB. *)
Definition assigned_at (t : trail) (level : nat) : res (list entry) :=
  if level <=? dl t then at_ (t_levels t) (dl t - level) else UB.

Definition with_bm (t : trail) (m : model bool) : trail :=
  mkTrail (t_levels t) (t_lvl t) (t_rsn t) m (t_qm t).
Definition with_qm (t : trail) (m : model Q) : trail :=
  mkTrail (t_levels t) (t_lvl t) (t_rsn t) (t_bm t) m.

(** Trail.h 177-186 decide. *)
Definition trail_decide (t : trail) (v : var) : trail :=
  mkTrail ([(v, None)] :: t_levels t)
          (vupd (t_lvl t) v (Some (length (t_levels t))))
          (vupd (t_rsn t) v None) (t_bm t) (t_qm t).

Fixpoint map_first {A} (n : nat) (f : A -> A) (l : list A) : list A :=
  match n, l with
  | S n', x :: l' => f x :: map_first n' f l'
  | _, _ => l
  end.

(** Trail.h 196-209 propagate: the element is appended to the lists of all levels from [level] to
    the current one. *)
Definition trail_propagate (t : trail) (v : var) (r : option cref) (level : nat) : res trail :=
  if level <=? dl t then
    Ok (mkTrail (map_first (dl t - level + 1) (cons (v, r)) (t_levels t))
                (vupd (t_lvl t) v (Some level))
                (vupd (t_rsn t) v r) (t_bm t) (t_qm t))
  else UB.

(** Model_base::clear(ord) through var_models[type]. *)
Definition clear_var (t : trail) (v : var) : trail :=
  match v with
  | VBool i => with_bm t (model_clear (t_bm t) i)
  | VRat i => with_qm t (model_clear (t_qm t) i)
  end.

(** Trail.h 221-229: body of the inner loop of backtrack. *)
Definition unassign (level : nat) (t : trail) (e : entry) : trail :=
  let v := fst e in
  match t_lvl t v with
  | Some k =>
      if level <? k then
        clear_var (mkTrail (t_levels t) (vupd (t_lvl t) v None) (vupd (t_rsn t) v None)
                           (t_bm t) (t_qm t)) v
      else t
  | None => t
  end.

(** trail.pop_back() *)
Definition pop_level (t : trail) : trail :=
  mkTrail (tl (t_levels t)) (t_lvl t) (t_rsn t) (t_bm t) (t_qm t).

(** Trail.h 219-230: outer loop, run [n] times. *)
Fixpoint backtrack_loop (n : nat) (level : nat) (t : trail) : trail :=
  match n with
  | 0 => t
  | S n' => backtrack_loop n' level (pop_level (fold_left (unassign level) (recent t) t))
  end.

(** Trail.h 215-232 backtrack; the final assert(level == decision_level()). *)
Definition trail_backtrack (t : trail) (level : nat) : res trail :=
  if level <=? dl t then Ok (backtrack_loop (dl t - level) level t) else UB.

(** Trail.h 238 empty(). *)
Definition trail_empty (t : trail) : bool :=
  match t_levels t with [[]] => true | _ => false end.

(** Trail.h 242-270 clear(). *)
Definition trail_clear (t : trail) : trail :=
  mkTrail [[]] (fun _ => None) (fun _ => None) (model_clear_all (t_bm t)) (model_clear_all (t_qm t)).

(** [trail.decision_level(lit.var())] *)
Definition lit_level (t : trail) (l : lit) : option nat := t_lvl t (lvar l).
