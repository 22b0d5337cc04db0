(** Specification for C36, C37: interpretations of the functions, values under the trail, histories. *)
From Coq Require Import List Arith ZArith QArith Qcanon Bool.
From Verif Require Import Base Core_Model Trail_Model Spec_Trail Lincons_Model Spec_Lincons Lra_Model Terms_Model Spec_Terms TermMgr_Model
  Internalizer_Model Uf_Model.
Import ListNotations.
Close Scope Qc_scope.
Close Scope Q_scope.
Open Scope nat_scope.

(** The rational variables have the values of their terms in the interpretation. *)
Definition reads (T : table) (rv : list (term * nat)) (I : interp) (r : nat -> Q) : Prop :=
  forall t v, In (t, v) rv -> (r v == this (treal I T t))%Q.

(** The maps of the internalizer: variables for real constants, ites and applications, each its own. *)
Definition maps_ok (T : table) (rv : list (term * nat)) : Prop :=
  NoDup (map snd rv) /\ forall t v, In (t, v) rv -> real_t T t /\ (kind_of T t = KUninterp \/ kind_of T t = KIte \/ kind_of T t = KApp).

(** arguments and value of an application are real *)
Definition real_app (T : table) (t : term) : Prop := real_t T t /\ Forall (real_t T) (get_args T t).

(** ** Value of a term under the assigned variables; [None]-free: the relation holds only if all variables
    needed are assigned. A Boolean term has the value of its literal. *)
Section Denotes.
Variable T : table.
Variable bv : list (term * lit).
Variable rv : list (term * nat).
Variable tr : trail.
Inductive denotes : term -> uval -> Prop :=
| d_rat t v : type_of T t = TReal -> In (t, v) rv -> mdef (t_qm tr) v = true -> denotes t (PR (mval (t_qm tr) v))
| d_bool t l : type_of T t = TBool -> In (t, l) bv -> mdef (t_bm tr) (lord l) = true ->
    denotes t (PB (Bool.eqb (mval (t_bm tr) (lord l)) (negb (lneg l))))
| d_const t q : const_value T t = Ok q -> denotes t (PR (this q))
| d_true : denotes true_term (PB true)
| d_false : denotes false_term (PB false)
| d_prod t a b p q : kind_of T t = KProduct -> get_args T t = [a; b] -> denotes a (PR p) -> denotes b (PR q) ->
    denotes t (PR (p * q)%Q)
| d_poly t s : kind_of T t = KPoly -> sums (get_args T t) s -> denotes t (PR s)
with sums : list term -> Q -> Prop :=
| s_nil q : (q == 0)%Q -> sums [] q
| s_cons a l p s q : denotes a (PR p) -> sums l s -> (q == p + s)%Q -> sums (a :: l) q.

(** An entry of the table of [f]: an application of [f] whose arguments and value are assigned and have the recorded
    values. *)
Definition entry_ok (f : term) (e : list uval * fapp) : Prop :=
  kind_of T (fa_app (snd e)) = KApp /\ fnc_symbol T (fa_app (snd e)) = Ok f /\
  Forall2 denotes (get_args T (fa_app (snd e))) (fst e) /\ denotes (fa_app (snd e)) (fa_val (snd e)).
End Denotes.

(** ** Histories
    Operations on the trail by the rest of the solver: only unassigned variables are assigned. *)
Definition may (tr : trail) (o : top) : Prop :=
  match o with
  | TDecide v _ => in_range (mnum (t_bm tr)) (mnum (t_qm tr)) v = true /\ t_lvl tr v = None
  | TPropagate v _ k _ => in_range (mnum (t_bm tr)) (mnum (t_qm tr)) v = true /\ t_lvl tr v = None
  | TResize nb nq => mnum (t_bm tr) <= nb /\ mnum (t_qm tr) <= nq
  | TBacktrack _ | TClear => True
  end.
(** Solver.cpp 99, 180: the plugin is told before a backtrack, and before a restart (to level 0) *)
Definition told (u : uf) (o : top) : uf :=
  match o with TBacktrack k => uf_before_backtrack u k | TClear => uf_before_backtrack u 0 | _ => u end.
Definition is_clear (o : top) : bool := match o with TClear => true | _ => false end.

(** States of the plugin and of the trail; the flag says if there was a restart. The state of the
    arithmetic plugin is arbitrary at each call. *)
Inductive uf_history (hi : nat -> Z) (hv : Q -> Z) (opt : lopt) (T : table) (bv : list (term * lit)) (rv : list (term * nat))
  : bool -> uf -> trail -> Prop :=
| uh_new nb nq : uf_history hi hv opt T bv rv false uf_new (trail_new nb nq)
| uh_register r u tr v t u' : uf_history hi hv opt T bv rv r u tr -> uf_register T bv rv u v t = Ok u' ->
    uf_history hi hv opt T bv rv r u' tr
| uh_trail r u tr o tr' : uf_history hi hv opt T bv rv r u tr -> may tr o -> t_step tr o = Ok tr' ->
    uf_history hi hv opt T bv rv (r || is_clear o) (told u o) tr'
| uh_propagate r u tr a u' a' tr' cs : uf_history hi hv opt T bv rv r u tr ->
    uf_propagate hi hv opt T bv rv u a tr = Ok (u', a', tr', cs) ->
    uf_history hi hv opt T bv rv r u' tr'.

(** ** The lemmas
    Any two different registered applications of one function: the value is real, and each pair of corresponding
    arguments is a pair of real terms or one and the same Boolean term. *)
Definition covered (T : table) (u : uf) : Prop :=
  forall t1 w1 t2 w2 f, In (t1, w1) (u_watch u) -> In (t2, w2) (u_watch u) -> t1 <> t2 ->
    fnc_symbol T t1 = Ok f -> fnc_symbol T t2 = Ok f ->
    real_t T t1 /\ real_t T t2 /\
    Forall2 (fun x y => (x = y /\ bool_t T x) \/ (real_t T x /\ real_t T y)) (get_args T t1) (get_args T t2).
(** The clause is true in every interpretation: whenever the variables have the values of their terms and the
    Boolean variables of linear constraints have the truth values of the constraints. *)
Definition valid_lemma (T : table) (bv : list (term * lit)) (rv : list (term * nat)) (s : store) (c : clause) : Prop :=
  forall I b q,
    (forall i, lc_empty (lc_get s i) = false -> (b i = true <-> stored_holds q s i)) ->
    reads T rv I q -> (forall t l, In (t, l) bv -> (lit_holds b l <-> tholds I T t = true)) ->
    exists l, In l c /\ lit_holds b l.
