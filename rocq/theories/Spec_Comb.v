(** Specification of complete checks with boolean propagation and linear arithmetic (logic QF_LRA):
    problems, their solutions, and what is asked of the variable order. *)
From Coq Require Import List Arith ZArith QArith NArith Bool.
From Verif Require Import Base Core_Model Trail_Model Solver_Model Lincons_Model Spec_Lincons Lra_Model Spec_Sat Spec_Trail Spec_Theory.
Import ListNotations.
Open Scope nat_scope.

(** Building a problem: starting from nothing, add variables of both types and linear constraints over
    existing variables, in any order. The list records the requests and the literals they returned. *)
Inductive problem (hi : nat -> Z) (hv : Q -> Z) (opt : lopt) : list (request * lit) -> lra -> trail -> Prop :=
| pb_new : problem hi hv opt [] lra_new (trail_new 0 0)
| pb_vars h a t nb nq : problem hi hv opt h a t -> mnum (t_bm t) <= nb -> mnum (t_qm t) <= nq ->
    problem hi hv opt h (with_st a (lc_resize (l_st a) nb)) (trail_resize t nb nq)
| pb_constraint h a t q a' t' c : problem hi hv opt h a t -> distinct_vars q ->
    (forall v k, In (v, k) (rq_terms q) -> v < mnum (t_qm t)) ->
    lra_constraint hi hv opt a t (rq_terms q) (rq_pred q) (rq_rhs q) = Ok (a', t', c) ->
    problem hi hv opt ((q, lc_lit c) :: h) a' t'.

(** A solution: truth values and rational values such that every clause holds and the literal of every
    requested linear constraint is true iff the constraint holds. *)
Definition solution (h : list (request * lit)) (cs : list clause) (b : nat -> bool) (r : nat -> Q) : Prop :=
  all_hold b cs /\ forall q l, In (q, l) h -> (Spec_Sat.lit_holds b l = true <-> req_holds r q).

(** the order only gives up when every variable of the problem is assigned (variables that the plugin
    creates during the search may be unassigned) *)
Definition picks_all {TS HS} (th : theory TS) (he : heur HS) (hash : lit -> N)
           (s0 : solver (TS := TS) (HS := HS)) : Prop :=
  forall s fuel ts d t h, reach th he hash s0 s ->
    th_propagate th fuel (s_th s) (s_db s) (s_trail s) = Ok (ts, d, t, []) ->
    h_pick he (s_he s) d t = (h, None) ->
    forall v, in_range (mnum (t_bm (s_trail s0))) (mnum (t_qm (s_trail s0))) v = true -> is_def t v = true.
