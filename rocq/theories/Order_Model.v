(** Model of variable_order/First_unassigned, variable_order/Evsids, variable_order/Combined_order
    and of Restart.h. *)
From Coq Require Import List Arith ZArith NArith QArith Bool.
From Verif Require Import Base Core_Model Analysis_Model Solver_Model.
Import ListNotations.
Open Scope nat_scope.

(** ** Variable_order.h: one variable order (a listener with pick and is_before) *)
Record order (OS : Type) : Type := mkOrder {
  o_pick : OS -> trail -> OS * option var;
  o_is_before : OS -> var -> var -> bool;
  o_learned : OS -> trail -> clause -> OS;
  o_resolved : OS -> trail -> clause -> OS;
  o_before_backtrack : OS -> trail -> nat -> OS }.
Arguments mkOrder {OS}.
Arguments o_pick {OS}.
Arguments o_is_before {OS}.
Arguments o_learned {OS}.
Arguments o_resolved {OS}.
Arguments o_before_backtrack {OS}.

(** first index in [i, i+k) that is not defined *)
Fixpoint first_undef (df : nat -> bool) (i k : nat) : option nat :=
  match k with
  | 0 => None
  | S k' => if df i then first_undef df (S i) k' else Some i
  end.

(** First_unassigned.cpp 10-27 pick (no type restriction): Trail::models() lists the boolean model
    before the rational one (types 0 and 1). *)
Definition fu_pick (t : trail) : option var :=
  match first_undef (mdef (t_bm t)) 0 (mnum (t_bm t)) with
  | Some i => Some (VBool i)
  | None => option_map VRat (first_undef (mdef (t_qm t)) 0 (mnum (t_qm t)))
  end.

(** First_unassigned.h/.cpp as a variable order; it ignores all events. *)
Definition first_unassigned : order unit :=
  mkOrder (fun s t => (s, fu_pick t)) (fun _ a b => var_ltb a b)
          (fun s _ _ => s) (fun s _ _ => s) (fun s _ _ => s).

(** ** Evsids. The score type is a parameter [F] with the float operations used by the code. *)
Record fops (F : Type) : Type := mkFops {
  f_zero : F; f_neg1 : F; f_one : F;
  f_add : F -> F -> F; f_mul : F -> F -> F; f_div : F -> F -> F;
  f_gt : F -> F -> bool; f_ge : F -> F -> bool; f_eq : F -> F -> bool;
  f_grow : F; f_threshold : F }.
Arguments f_zero {F}.
Arguments f_neg1 {F}.
Arguments f_one {F}.
Arguments f_add {F}.
Arguments f_mul {F}.
Arguments f_div {F}.
Arguments f_gt {F}.
Arguments f_ge {F}.
Arguments f_eq {F}.
Arguments f_grow {F}.
Arguments f_threshold {F}.

Section Evsids.
Context {F : Type}.
Variable fo : fops F.

(** Evsids.h 74-79: fields vsids, inc (grow and the threshold are in [fops]). *)
Record evsids : Type := mkEv { ev_scores : list F; ev_inc : F }.

(** Evsids.h 84-91 rescale *)
Definition ev_rescale (e : evsids) : evsids :=
  mkEv (map (fun s => f_div fo s (f_threshold fo)) (ev_scores e)) (f_div fo (ev_inc e) (f_threshold fo)).

(** Evsids.h 93 decay *)
Definition ev_decay (e : evsids) : evsids := mkEv (ev_scores e) (f_mul fo (ev_inc e) (f_grow fo)).

(** Evsids.h 95-102 bump; an index beyond the vector is not reachable for literals of existing
    variables and leaves the state unchanged here. *)
Definition ev_bump (e : evsids) (i : nat) : evsids :=
  match nth_error (ev_scores e) i with
  | None => e
  | Some s =>
      let s' := f_add fo s (ev_inc e) in
      let e' := mkEv (set_nth i s' (ev_scores e)) (ev_inc e) in
      if f_ge fo s' (f_threshold fo) then ev_rescale e' else e'
  end.

(** Evsids.cpp 32-47 on_conflict_resolved / on_learned_clause *)
Definition ev_bump_clause (e : evsids) (c : clause) : evsids :=
  fold_left (fun e l => ev_bump e (lord l)) c e.
Definition ev_learned (e : evsids) (c : clause) : evsids := ev_decay (ev_bump_clause e c).

(** Evsids.cpp 13-30 on_init. *)
Definition ev_init (e : evsids) (d : db) : evsids :=
  fold_left ev_bump_clause (asserted d ++ learned d) (mkEv (map (fun _ => f_zero fo) (ev_scores e)) (ev_inc e)).

(** Evsids.cpp 5-11 on_variable_resize. *)
Definition ev_resize (e : evsids) (n : nat) : evsids :=
  mkEv (firstn n (ev_scores e) ++ repeat (f_zero fo) (n - length (ev_scores e))) (ev_inc e).
Definition ev_new (n : nat) : evsids := ev_resize (mkEv [] (f_one fo)) n.

(** Evsids.cpp 56-76 pick: the loop with best_var (-1 is None) and best_score. *)
Fixpoint ev_pick_loop (df : nat -> bool) (i : nat) (scores : list F) (best : option nat) (bs : F) : option nat :=
  match scores with
  | [] => best
  | s :: scores' =>
      if negb (df i) && f_gt fo s bs then ev_pick_loop df (S i) scores' (Some i) s
      else ev_pick_loop df (S i) scores' best bs
  end.
Definition ev_pick (e : evsids) (t : trail) : option var :=
  option_map VBool (ev_pick_loop (mdef (t_bm t)) 0 (ev_scores e) None (f_neg1 fo)).

(** Evsids.cpp 49-54 is_before *)
Definition ev_is_before (e : evsids) (a b : var) : bool :=
  match a, b with
  | VBool i, VBool j => f_gt fo (nth i (ev_scores e) (f_zero fo)) (nth j (ev_scores e) (f_zero fo))
  | _, _ => false
  end.

Definition evsids_order : order evsids :=
  mkOrder (fun e t => (e, ev_pick e t)) ev_is_before
          (fun e _ c => ev_learned e c) (fun e _ c => ev_bump_clause e c) (fun e _ _ => e).

(** A run as seen by Evsids: events between two calls of pick. *)
Inductive evop : Type := EvInit (d : db) | EvLearned (c : clause) | EvResolved (c : clause).
Definition ev_step (e : evsids) (o : evop) : evsids :=
  match o with EvInit d => ev_init e d | EvLearned c => ev_learned e c | EvResolved c => ev_bump_clause e c end.
Definition ev_run (n : nat) (h : list evop) : evsids := fold_left ev_step h (ev_new n).
End Evsids.

(** Exact rational arithmetic in place of float. *)
Definition qops : fops Q :=
  mkFops Q 0%Q (-1)%Q 1%Q Qplus Qmult Qdiv (fun a b => negb (Qle_bool a b)) (fun a b => Qle_bool b a) Qeq_bool
         (21#20)%Q (inject_Z (10 ^ 35)).

(** ** Combined_order of two orders (Combined_order.h 129-139): the first that picks wins; note
    that on_conflict_resolved calls on_learned_clause of the members (lines 99-105). The deque of
    heuristics is modelled by nesting. *)
Definition combined {A B} (a : order A) (b : order B) : order (A * B) :=
  mkOrder
    (fun s t => let (sa, oa) := o_pick a (fst s) t in
                match oa with
                | Some v => ((sa, snd s), Some v)
                | None => let (sb, ob) := o_pick b (snd s) t in ((sa, sb), ob)
                end)
    (fun s x y => o_is_before a (fst s) x y)
    (fun s t c => (o_learned a (fst s) t c, o_learned b (snd s) t c))
    (fun s t c => (o_learned a (fst s) t c, o_learned b (snd s) t c))
    (fun s t k => (o_before_backtrack a (fst s) t k, o_before_backtrack b (snd s) t k)).

(** ** Restart.h *)
Record restart_policy (RS : Type) : Type := mkRP {
  r_should : RS -> bool;
  r_learned : RS -> trail -> clause -> RS;
  r_restart : RS -> RS }.
Arguments mkRP {RS}.
Arguments r_should {RS}.
Arguments r_learned {RS}.
Arguments r_restart {RS}.

(** Restart.h 21-30 No_restart *)
Definition no_restart : restart_policy unit := mkRP (fun _ => false) (fun s _ _ => s) (fun s => s).

(** Restart.h 72-74: inner loop [for (; mask >= index; mask >>= 1)]; [fuel] = number of bits. *)
Fixpoint luby_mask (fuel : nat) (mask index : N) : N :=
  match fuel with
  | 0 => mask
  | S f => if (index <=? mask)%N then luby_mask f (N.shiftr mask 1) index else mask
  end.
(** Restart.h 68-77 luby on uint32; the outer loop reduces the index, [fuel] bounds it. *)
Fixpoint luby_loop (fuel : nat) (mask index : N) : res Z :=
  if (N.land index ((index + 1) mod 2 ^ 32) =? 0)%N then Ok (Z.of_N (N.shiftr ((index + 1) mod 2 ^ 32) 1))
  else match fuel with
       | 0 => Fuel
       | S f => let m := luby_mask 33 mask index in luby_loop f m (index - m)%N
       end.
Definition luby (index : N) : res Z := luby_loop 33 (2 ^ 32 - 1) index.

(** Restart.h 34-88 Luby_restart: countdown, index, mult (550 in the code). Counters are unbounded
    integers; the int product luby * 550 overflows only from index 2^23 - 1 on. *)
Record luby_state : Type := mkLuby { lu_count : Z; lu_index : N; lu_mult : Z }.
Definition luby_value (i : N) : Z := match luby i with Ok z => z | _ => 0%Z end.
(** Restart.h 87 next() *)
Definition luby_next (s : luby_state) : luby_state :=
  mkLuby (luby_value (lu_index s + 1) * lu_mult s) (lu_index s + 1) (lu_mult s).
Definition luby_start (mult : Z) : luby_state := luby_next (mkLuby 0 0 mult).
Definition luby_restart : restart_policy luby_state :=
  mkRP (fun s => (lu_count s <=? 0)%Z)
       (fun s _ _ => mkLuby (lu_count s - 1) (lu_index s) (lu_mult s))
       luby_next.

(** A client of Luby_restart (Solver.cpp 175-183, 207-217): each segment of learned clauses but the
    last is ended by a restart. *)
Definition luby_after (mult : Z) (segs : list (list (trail * clause))) : luby_state :=
  fold_left (fun s seg => r_restart luby_restart (fold_left (fun s x => r_learned luby_restart s (fst x) (snd x)) seg s))
            segs (luby_start mult).

(** Restart.h 95-216 Glucose_restart; averages in exact rationals, [1 << exp] as a rational. *)
Record glucose_state : Type := mkGlu {
  g_count : Z; g_slow : Q; g_fast : Q; g_slow_den : Z; g_fast_den : Z; g_min : Z; g_thr : Q }.
Definition glucose_start : glucose_state := mkGlu 50 0 0 8192 32 50 (13#10).
(** Restart.h 115-126: number of distinct levels in the learned clause. *)
Definition lbd (t : trail) (c : clause) : nat :=
  length (nodup Nat.eq_dec (map (fun l => match lit_level t l with Some k => k | None => 0 end) c)).
Definition glucose_restart : restart_policy glucose_state :=
  mkRP (fun s => (g_count s <=? 0)%Z && Qle_bool (g_thr s * g_slow s)%Q (g_fast s))
       (fun s t c =>
          let x := inject_Z (Z.of_nat (lbd t c)) in
          mkGlu (g_count s - 1) (g_slow s + (x - g_slow s) / inject_Z (g_slow_den s))%Q
                (g_fast s + (x - g_fast s) / inject_Z (g_fast_den s))%Q
                (g_slow_den s) (g_fast_den s) (g_min s) (g_thr s))
       (fun s => mkGlu (g_min s) (g_slow s) (g_fast s) (g_slow_den s) (g_fast_den s) (g_min s) (g_thr s)).

(** A variable order and a restart policy together, as registered in the Solver. Listeners are
    called in the order: variable order, restart policy (Solver.h set_restart_policy /
    set_variable_order; their states are independent). *)
Definition heur_of {OS RS} (o : order OS) (r : restart_policy RS) : heur (OS * RS) :=
  mkHeur (fun h _ t => let (s, v) := o_pick o (fst h) t in ((s, snd h), v))
         (fun h a b => o_is_before o (fst h) a b)
         (fun h => r_should r (snd h))
         (fun h t c => (o_learned o (fst h) t c, r_learned r (snd h) t c))
         (fun h t c => (o_resolved o (fst h) t c, snd h))
         (fun h t k => (o_before_backtrack o (fst h) t k, snd h))
         (fun h => (fst h, r_restart r (snd h))).
