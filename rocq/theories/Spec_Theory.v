(** Contract between Solver and a theory plugin (Theory.h), for the theory-independent soundness of
    unsat answers. Nothing here depends on what a particular plugin does. *)
From Coq Require Import List Arith ZArith QArith NArith Bool Permutation.
From Verif Require Import Base Core_Model Trail_Model Analysis_Model Solver_Model Spec_Sat Spec_Trail.
Import ListNotations.
Open Scope nat_scope.

(** the clause behind a reference exists *)
Definition is_ref (d : db) (r : cref) : Prop :=
  match r with
  | CAsserted i => i < length (asserted d)
  | CLearned i => i < length (learned d)
  end.
(** the same clauses, up to the order of the literals inside each clause *)
Definition same_clauses (d d' : db) : Prop :=
  Forall2 (@Permutation lit) (asserted d) (asserted d') /\
  Forall2 (@Permutation lit) (learned d) (learned d').
Definition all_clauses (d : db) : list clause := asserted d ++ learned d.

(** [l] occurs in [c] exactly once *)
Definition once (l : lit) (c : clause) : Prop := exists rest, Permutation c (l :: rest) /\ ~ In l rest.

(** Why a plugin may make [l] true at level [k]: without a reason clause, anything goes above level
    0, but at level 0 the literal must be a consequence ([ent]). With a reason clause, the clause
    contains [l] once, its other literals are false and of level at most [k]; if [strict], one of them is
    of level [k]. *)
Definition justified (strict : bool) (d : db) (ent : lit -> Prop) (t : trail) (l : lit)
           (ro : option cref) (k : nat) : Prop :=
  match ro with
  | None => k = 0 -> ent l
  | Some r =>
      is_ref d r /\ once l (getc d r) /\
      (forall x, In x (getc d r) -> x = l \/
         (eval_lit (t_bm t) x = Some false /\ exists j, lit_level t x = Some j /\ j <= k)) /\
      (strict = true -> 1 <= k -> exists x, In x (getc d r) /\ x <> l /\ lit_level t x = Some k)
  end.

(** What propagate() may do to the trail: create boolean variables, make unassigned variables true
    or false with a justification, assign unassigned variables of the other type. *)
Inductive prop_ops (strict : bool) (d : db) (ent : lit -> Prop) : trail -> trail -> Prop :=
| po_done t : prop_ops strict d ent t t
| po_new t n t' : mnum (t_bm t) <= n ->
    prop_ops strict d ent (trail_resize t n (mnum (t_qm t))) t' -> prop_ops strict d ent t t'
| po_bool t l ro k t1 t' : lord l < mnum (t_bm t) -> lit_level t l = None ->
    justified strict d ent t l ro k ->
    t_step t (TPropagate (lvar l) ro k (negb (lneg l), 0%Q)) = Ok t1 ->
    prop_ops strict d ent t1 t' -> prop_ops strict d ent t t'
| po_rat t x k q t1 t' : x < mnum (t_qm t) -> t_lvl t (VRat x) = None ->
    t_step t (TPropagate (VRat x) None k (true, q)) = Ok t1 ->
    prop_ops strict d ent t1 t' -> prop_ops strict d ent t t'.

(** [tm ts a]: the truth assignment [a] of the boolean variables comes from a model of the theory,
    for the meaning that the plugin in state [ts] has given to the variables. New variables get a
    meaning in every model: a model for [ts] can be changed at variables from [n] on into one for
    [ts'], and models for [ts'] are models for [ts]. *)
Definition refines {TS} (tm : TS -> (nat -> bool) -> Prop) (n : nat) (ts ts' : TS) : Prop :=
  (forall a, tm ts' a -> tm ts a) /\
  (forall a, tm ts a -> exists a', tm ts' a' /\ forall i, i < n -> a' i = a i).
Definition same_models {TS} (tm : TS -> (nat -> bool) -> Prop) (ts ts' : TS) : Prop :=
  forall a, tm ts' a <-> tm ts a.
(** [c] is true in every model of the theory that satisfies the clauses of the database *)
Definition lemma_of {TS} (tm : TS -> (nat -> bool) -> Prop) (ts : TS) (d : db) (c : clause) : Prop :=
  forall a, tm ts a -> all_hold a (all_clauses d) -> clause_holds a c.

(** The contract. [PI] is whatever the plugin needs to know about its own state; it has to survive
    everything Solver does between two calls. *)
Record plugin_ok {TS} (strict : bool) (th : theory TS) (tm : TS -> (nat -> bool) -> Prop)
       (PI : TS -> db -> trail -> Prop) : Prop := mkPlugin {
  pk_propagate : forall fuel ts d t ts' d' t' cs, PI ts d t ->
    th_propagate th fuel ts d t = Ok (ts', d', t', cs) ->
    PI ts' d' t' /\ same_clauses d d' /\ refines tm (mnum (t_bm t)) ts ts' /\
    prop_ops strict d' (fun l => lemma_of tm ts' d [l]) t t' /\
    (forall c, In c cs -> lemma_of tm ts' d c /\
       forall l, In l c -> eval_lit (t_bm t') l = Some false);
  pk_decide : forall ts d t v ts' t', PI ts d t -> t_lvl t v = None ->
    in_range (mnum (t_bm t)) (mnum (t_qm t)) v = true ->
    th_decide th ts d t v = Ok (ts', t') ->
    PI ts' d t' /\ same_models tm ts ts' /\ exists x, t_step t (TDecide v x) = Ok t';
  pk_learned : forall ts d t c ts', PI ts d t -> c <> [] ->
    (forall l, In l c -> eval_lit (t_bm t) l = Some false) ->
    th_learned th ts (mkDb (asserted d) (learned d ++ [c])) t (CLearned (length (learned d))) = Ok ts' ->
    PI ts' (mkDb (asserted d) (learned d ++ [c])) t /\ same_models tm ts ts';
  pk_backtrack : forall ts d t k t', PI ts d t -> trail_backtrack t k = Ok t' ->
    PI (th_before_backtrack th ts d t k) d t' /\ same_models tm ts (th_before_backtrack th ts d t k);
  pk_assert : forall ts d t l r t', PI ts d t -> lord l < mnum (t_bm t) -> lit_level t l = None ->
    is_ref d r ->
    t_step t (TPropagate (lvar l) (Some r) (dl t) (negb (lneg l), 0%Q)) = Ok t' -> PI ts d t';
  pk_split : forall ts d t l t', PI ts d t -> lord l < mnum (t_bm t) -> lit_level t l = None ->
    t_step t (TDecide (lvar l) (negb (lneg l), 0%Q)) = Ok t' -> PI ts d t';
  pk_restart : forall ts d t L, PI ts d t -> (forall c, In c L -> In c (learned d)) ->
    let ts1 := th_before_backtrack th ts d t 0 in
    let d1 := mkDb (asserted d) L in
    let ts2 := th_restart th ts1 d1 (trail_clear t) in
    PI ts2 d1 (trail_clear t) /\ same_models tm ts ts2 }.

(** pick() returns only existing unassigned variables in the run from [s0] *)
Definition picks_unassigned {TS HS} (th : theory TS) (he : heur HS) (hash : lit -> N)
           (s0 : solver (TS := TS) (HS := HS)) : Prop :=
  forall s fuel ts d t h v, reach th he hash s0 s ->
    th_propagate th fuel (s_th s) (s_db s) (s_trail s) = Ok (ts, d, t, []) ->
    h_pick he (s_he s) d t = (h, Some v) ->
    is_def t v = false /\ in_range (mnum (t_bm t)) (mnum (t_qm t)) v = true.

(** nothing is assigned *)
Record fresh_trail (t : trail) : Prop := mkFresh {
  ft_levels : t_levels t = [[]];
  ft_lvl : forall v, t_lvl t v = None;
  ft_rsn : forall v, t_rsn t v = None;
  ft_bdef : forall i, mdef (t_bm t) i = false;
  ft_qdef : forall i, mdef (t_qm t) i = false }.

(** no conflict makes the decision level of a boolean variable larger *)
Definition levels_never_rise {TS HS} (th : theory TS) (he : heur HS) (hash : lit -> N)
           (s0 : solver (TS := TS) (HS := HS)) : Prop :=
  forall s fuel ts d t cs s', reach th he hash s0 s ->
    th_propagate th fuel (s_th s) (s_db s) (s_trail s) = Ok (ts, d, t, cs) -> cs <> [] ->
    on_conflict th he hash (mkS d t ts (s_he s) (s_old s)) cs = Ok (Some s') ->
    forall i k k', t_lvl t (VBool i) = Some k -> t_lvl (s_trail s') (VBool i) = Some k' -> k' <= k.
