(** Specification for the linear arithmetic plugin: meaning of derived constraints and bounds. *)
From Coq Require Import List Arith ZArith QArith Bool.
From Verif Require Import Base Core_Model Trail_Model Lincons_Model Spec_Lincons Lra_Model.
Import ListNotations.
Open Scope nat_scope.

(** [polynomial + constant (=, <, <=) 0] under an assignment of the rational variables *)
Definition fm_holds (r : nat -> Q) (f : fm) : Prop :=
  rel (fm_pred f) (lin r (fm_terms f) + fm_const f)%Q 0%Q.
(** no repeated variable and no zero coefficient *)
Definition fm_wf (f : fm) : Prop :=
  NoDup (map fst (fm_terms f)) /\ Forall (fun u => ~ snd u == 0)%Q (fm_terms f).

(** [x] can be eliminated from [f] and [g]: one is an equality, or they bound [x] from opposite
    sides *)
Definition resolvable (f g : fm) (x : nat) : Prop :=
  fm_pred f = PEq \/ fm_pred g = PEq \/
  forall a b, In (x, a) (fm_terms f) -> In (x, b) (fm_terms g) -> (a * b < 0)%Q.

(** truth of the literal of a linear constraint: the constraint or its negation *)
Definition lc_holds (s : store) (r : nat -> Q) (c : lcons) : Prop :=
  let q := rel (lc_pred c) (lin r (lc_terms s c)) (lc_rhs c) in
  if lneg (lc_lit c) then ~ q else q.

(** what a lower / upper bound / disallowed value says about the value [v] of the variable *)
Definition above (b : bound) (v : Q) : Prop :=
  if b_strict b then (b_val b < v)%Q else (b_val b <= v)%Q.
Definition below (b : bound) (v : Q) : Prop :=
  if b_strict b then (v < b_val b)%Q else (v <= b_val b)%Q.
Definition differs (b : bound) (v : Q) : Prop := ~ (b_val b == v)%Q.

(** Histories of the bounds of one variable: additions and queries, each at any moment (the order
    of the variables in the constraints and the trail may be different each time). *)
Inductive vb_history : vbounds -> Prop :=
| vh_new : vb_history vb_new
| vh_add_upper w s t b : vb_history w -> vb_history (fst (add_upper_bound s t w b))
| vh_add_lower w s t b : vb_history w -> vb_history (fst (add_lower_bound s t w b))
| vh_add_neq w s t b w' h : vb_history w -> add_inequality s t w b = Ok (w', h) -> vb_history w'
| vh_upper w s t : vb_history w -> vb_history (fst (upper_bound s t w))
| vh_lower w s t : vb_history w -> vb_history (fst (lower_bound s t w))
| vh_neq w s t v : vb_history w -> vb_history (fst (inequality s t w v)).

(** [v] satisfies every recorded bound and disequality that is not obsolete *)
Definition permitted (s : store) (t : trail) (w : vbounds) (v : Q) : Prop :=
  (forall b, In b (vb_lb w) -> is_obsolete s t b = false -> above b v) /\
  (forall b, In b (vb_ub w) -> is_obsolete s t b = false -> below b v) /\
  (forall b, In b (vb_neq w) -> is_obsolete s t b = false -> differs b v).

(** [r] extends the assigned rational values and lies within the reported bounds *)
Definition within (s : store) (t : trail) (B : bnds) (r : nat -> Q) : Prop :=
  (forall x, mdef (t_qm t) x = true -> (r x == mval (t_qm t) x)%Q) /\
  (forall x b, snd (lower_bound s t (bd_of B x)) = Some b -> (b_val b <= r x)%Q) /\
  (forall x b, snd (upper_bound s t (bd_of B x)) = Some b -> (r x <= b_val b)%Q).

(** States of the plugin after any sequence of calls, each with any trail and models. *)
Inductive lra_history (hi : nat -> Z) (hv : Q -> Z) (opt : lopt) : lra -> Prop :=
| lh_new : lra_history hi hv opt lra_new
| lh_constraint a t ts p rhs a' t' c : lra_history hi hv opt a ->
    lra_constraint hi hv opt a t ts p rhs = Ok (a', t', c) -> lra_history hi hv opt a'
| lh_propagate a t a' t' cs : lra_history hi hv opt a ->
    lra_propagate hi hv opt a t = Ok (a', t', cs) -> lra_history hi hv opt a'
| lh_decide a t fuel v a' t' : lra_history hi hv opt a ->
    lra_decide fuel a t v = Ok (a', t') -> lra_history hi hv opt a'
| lh_backtrack a : lra_history hi hv opt a -> lra_history hi hv opt (lra_before_backtrack a).

(** the variable has been created *)
Definition has_var (t : trail) (v : var) : Prop :=
  match v with VBool i => i < mnum (t_bm t) | VRat x => x < mnum (t_qm t) end.
(** Operations of the rest of the solver on the trail between calls of the plugin: anything except
    an assignment of a rational variable (only this plugin assigns them). *)
Definition foreign (t : trail) (o : top) : Prop :=
  match o with
  | TDecide (VBool i) _ | TPropagate (VBool i) _ _ _ => has_var t (VBool i)
  | TBacktrack _ | TClear => True
  | _ => False
  end.
(** Runs of the plugin with its trail: calls of the plugin with the current trail, interleaved with
    operations of the rest of the solver and with the creation of variables. *)
Inductive lra_run (hi : nat -> Z) (hv : Q -> Z) (opt : lopt) : lra -> trail -> Prop :=
| lr_new : lra_run hi hv opt lra_new (trail_new 0 0)
| lr_foreign a t o t' : lra_run hi hv opt a t -> foreign t o -> t_step t o = Ok t' ->
    lra_run hi hv opt a t'
| lr_resize a t nb nq : lra_run hi hv opt a t -> mnum (t_bm t) <= nb -> mnum (t_qm t) <= nq ->
    lra_run hi hv opt (with_st a (lc_resize (l_st a) nb)) (trail_resize t nb nq)
| lr_constraint a t q a' t' c : lra_run hi hv opt a t -> distinct_vars q ->
    lra_constraint hi hv opt a t (rq_terms q) (rq_pred q) (rq_rhs q) = Ok (a', t', c) ->
    lra_run hi hv opt a' t'
| lr_propagate a t a' t' cs : lra_run hi hv opt a t ->
    lra_propagate hi hv opt a t = Ok (a', t', cs) -> lra_run hi hv opt a' t'
| lr_decide a t fuel v a' t' : lra_run hi hv opt a t -> has_var t v ->
    lra_decide fuel a t v = Ok (a', t') -> lra_run hi hv opt a' t'
| lr_backtrack a t : lra_run hi hv opt a t -> lra_run hi hv opt (lra_before_backtrack a) t.

(** [r] extends the values of the assigned rational variables, and the constraint of each assigned
    boolean variable that stands for a constraint holds iff the variable is true *)
Definition agrees (s : store) (t : trail) (r : nat -> Q) : Prop :=
  (forall x, mdef (t_qm t) x = true -> (r x == mval (t_qm t) x)%Q) /\
  (forall i, mdef (t_bm t) i = true -> lc_empty (lc_get s i) = false ->
     (mval (t_bm t) i = true <-> stored_holds r s i)).

(** Worlds of linear arithmetic: a value [r] of each rational variable and a value [b] of each
    boolean variable such that the boolean variable of each linear constraint is true iff the
    constraint holds. *)
Definition consistent (s : store) (r : nat -> Q) (b : nat -> bool) : Prop :=
  forall i, lc_empty (lc_get s i) = false -> (b i = true <-> stored_holds r s i).
(** the clause is true in every world *)
Definition theory_lemma (s : store) (cl : clause) : Prop :=
  forall r b, consistent s r b -> exists l, In l cl /\ lit_holds b l.
