(** Specification of linear constraints: meaning of a request, legal histories of the repository
    of constraints, and the value of a polynomial. *)
From Coq Require Import List Arith ZArith QArith Bool Permutation.
From Verif Require Import Base Core_Model Lincons_Model.
Import ListNotations.
Open Scope nat_scope.

(** value of [sum of coefficient * variable] under an assignment of all rational variables *)
Fixpoint lin (r : nat -> Q) (ts : list (nat * Q)) : Q :=
  match ts with [] => 0 | (v, c) :: ts' => c * r v + lin r ts' end.

(** relation denoted by a predicate *)
Definition rel (p : opred) (a b : Q) : Prop :=
  match p with PEq => (a == b)%Q | PLt => (a < b)%Q | PLeq => (a <= b)%Q end.

(** a request [linear_constraint(vars, coef, pred, rhs)] and its meaning *)
Record request : Type := mkReq { rq_terms : list (nat * Q); rq_pred : opred; rq_rhs : Q }.
Definition req_holds (r : nat -> Q) (q : request) : Prop :=
  rel (rq_pred q) (lin r (rq_terms q)) (rq_rhs q).

(** the variables with a nonzero coefficient are distinct *)
Definition distinct_vars (q : request) : Prop :=
  NoDup (map fst (filter (fun t => negb (Qeq_bool (snd t) 0)) (rq_terms q))).

(** Histories of the repository, with the requests made and the literals they returned:
    requests, resizing when boolean variables are added, and the plugin's swaps of two terms of
    one constraint. [hi], [hv] are the hash functions of int and of the value type. *)
Inductive lc_history (hi : nat -> Z) (hv : Q -> Z) : store -> list (request * lcons) -> Prop :=
| lh_new : lc_history hi hv store_new []
| lh_make s h q s' c :
    lc_history hi hv s h ->
    distinct_vars q ->
    lc_make hi hv s (rq_terms q) (rq_pred q) (rq_rhs q) = (s', c) ->
    lc_history hi hv s' ((q, c) :: h)
| lh_resize s h n :
    lc_history hi hv s h ->
    lc_history hi hv (lc_resize s n) h
| lh_swap s h q c i j :
    lc_history hi hv s h -> In (q, c) h ->
    fst (lc_pos c) <= i < snd (lc_pos c) -> fst (lc_pos c) <= j < snd (lc_pos c) ->
    lc_history hi hv (lc_swap s i j) h.

(** truth of a literal *)
Definition lit_holds (b : nat -> bool) (l : lit) : Prop := b (lord l) = negb (lneg l).

(** The boolean assignment [b] and the rational assignment [r] agree on the stored constraints: the
    boolean variable of each constraint of the repository that represents a request is true iff
    the constraint stored for it (operator[]) holds. *)
Definition stored_holds (r : nat -> Q) (s : store) (v : nat) : Prop :=
  rel (lc_pred (lc_get s v)) (lin r (lc_terms s (lc_get s v))) (lc_rhs (lc_get s v)).
Definition respects (s : store) (h : list (request * lcons)) (r : nat -> Q) (b : nat -> bool) : Prop :=
  forall q c, In (q, c) h ->
    (b (lord (lc_lit c)) = true <-> stored_holds r s (lord (lc_lit c))).

(** ** polynomials *)
Definition pvalue (r : nat -> Q) (p : poly) : Q := lin r (p_terms p) + p_const p.
(** no repeated variable and no zero coefficient *)
Definition poly_wf (p : poly) : Prop :=
  NoDup (map fst (p_terms p)) /\ Forall (fun t => ~ snd t == 0)%Q (p_terms p).
