(** Specification of propositional satisfiability used by the SAT theorems, and the contract of the
    variable order. Independent of the solver's algorithms. *)
From Coq Require Import List Arith ZArith NArith Bool.
From Verif Require Import Base Core_Model Analysis_Model Bool_Model Solver_Model.
Import ListNotations.
Open Scope nat_scope.

(** value of a literal under a total assignment of the boolean variables *)
Definition lit_holds (a : nat -> bool) (l : lit) : bool :=
  if lneg l then negb (a (lord l)) else a (lord l).
(** a clause holds iff some literal holds *)
Definition clause_holds (a : nat -> bool) (c : clause) : Prop := exists l, In l c /\ lit_holds a l = true.
Definition all_hold (a : nat -> bool) (cs : list clause) : Prop :=
  forall c, In c cs -> clause_holds a c.
(** [c] holds in every assignment that satisfies all of [cs] *)
Definition entails (cs : list clause) (c : clause) : Prop :=
  forall a, all_hold a cs -> clause_holds a c.
(** clauses a user may assert: non-empty, over the variables 0..n-1 *)
Definition legal (n : nat) (cs : list clause) : Prop :=
  forall c, In c cs -> c <> [] /\ forall l, In l c -> lord l < n.

(** What check() needs from a variable order + restart policy: an invariant [HInv] between its
    state and the trail under which pick() returns an unassigned variable, or none only when all
    [n] variables are assigned. *)
Record order_ok {HS} (n : nat) (he : heur HS) (HInv : HS -> trail -> Prop) : Prop := mkOrderOk {
  ok_pick : forall h d t, HInv h t ->
    match h_pick he h d t with
    | (h', Some v) => exists i, v = VBool i /\ i < n /\ mdef (t_bm t) i = false /\
        forall x, HInv h' (trail_decide (with_bm t (set_value (t_bm t) i x)) (VBool i))
    | (h', None) => forall i, i < n -> mdef (t_bm t) i = true
    end;
  ok_more : forall h t t', HInv h t ->
    (forall i, mdef (t_bm t) i = true -> mdef (t_bm t') i = true) ->
    mnum (t_bm t') = mnum (t_bm t) -> t_qm t' = t_qm t -> HInv h t';
  ok_learned : forall h t c, HInv h t -> HInv (h_learned he h t c) t;
  ok_resolved : forall h t c, HInv h t -> HInv (h_resolved he h t c) t;
  ok_backtrack : forall h t k t', HInv h t -> trail_backtrack t k = Ok t' ->
    HInv (h_before_backtrack he h t k) t';
  ok_restart : forall h t, HInv h t ->
    HInv (h_restart he (h_before_backtrack he h t 0)) (trail_clear t) }.

(** An admissible variable order + restart policy, started in state [h]. *)
Definition admissible {HS} (n : nat) (he : heur HS) (h : HS) : Prop :=
  exists HInv, order_ok n he HInv /\ HInv h (trail_new n 0).

(** States of a run of check(): [reach] are the states at the beginning of an iteration of the
    main loop, [moment] adds the states inside an iteration in which the database has changed:
    after propagation and after learning. *)
Inductive reach {TS HS} (th : theory TS) (he : heur HS) (hash : lit -> N) (s0 : solver (TS := TS) (HS := HS))
  : solver (TS := TS) (HS := HS) -> Prop :=
| reach_start : reach th he hash s0 s0
| reach_step s fuel s' : reach th he hash s0 s -> step th he hash fuel s = Ok (s', None) -> reach th he hash s0 s'.

Inductive moment {TS HS} (th : theory TS) (he : heur HS) (hash : lit -> N) (s0 : solver (TS := TS) (HS := HS))
  : db -> trail -> Prop :=
| moment_iter s : reach th he hash s0 s -> moment th he hash s0 (s_db s) (s_trail s)
| moment_prop s fuel ts d t cs : reach th he hash s0 s ->
    th_propagate th fuel (s_th s) (s_db s) (s_trail s) = Ok (ts, d, t, cs) ->
    moment th he hash s0 d t
| moment_learn s fuel ts d t cs lc level h d1 ts1 h1 rs : reach th he hash s0 s ->
    th_propagate th fuel (s_th s) (s_db s) (s_trail s) = Ok (ts, d, t, cs) ->
    cs <> [] -> dl t <> 0 ->
    analyze_conflicts he d t (s_he s) cs [] None = Ok (lc, level, h) ->
    existsb is_nil lc = false ->
    learn th he d t ts h lc = Ok (d1, ts1, h1, rs) ->
    moment th he hash s0 d1 t.

(** variable [w] was put on the trail before variable [v] (levels and their elements are stored
    newest first) *)
Definition assigned_before (t : trail) (w v : var) : Prop :=
  exists newer ev between ew older,
    concat (t_levels t) = newer ++ (v, ev) :: between ++ (w, ew) :: older.

(** along the clause, decision levels do not increase *)
Definition levels_decrease (t : trail) (c : clause) : Prop :=
  forall c1 a c2 b c3, c = c1 ++ a :: c2 ++ b :: c3 ->
    match lit_level t a, lit_level t b with
    | Some i, Some j => j <= i
    | _, _ => True
    end.
