(** Specification for C63: checks of assertions with the logic QF_UFLRA. *)
From Coq Require Import List Arith ZArith QArith Qcanon NArith Bool.
From Verif Require Import Base Core_Model Bool_Model Trail_Model Solver_Model Spec_Sat Spec_Theory Lincons_Model Lra_Model Comb_Model
  Spec_Comb Terms_Model Spec_Terms TermMgr_Model Spec_TermMgr Spec_Visitor Internalizer_Model Spec_Internalizer Check_Model
  Uf_Model Spec_Uf Ufcomb_Model Ufcheck_Model.
Import ListNotations.
Open Scope nat_scope.

(** ** The assertions *)
(** the monomials of a real term, without its constant: terms that are no sums or products, and their coefficients *)
Definition monomial (T : table) (t : term) : list (term * Qc) :=
  match kind_of T t with
  | KUninterp | KIte | KApp => [(t, 1%Qc)]
  | KProduct => match get_args T t with [k; x] => match const_value T k with Ok q => [(x, q)] | _ => [] end | _ => [] end
  | _ => []
  end.
Definition monomials (T : table) (t : term) : list (term * Qc) :=
  match kind_of T t with KPoly => flat_map (monomial T) (get_args T t) | _ => monomial T t end.
(** two real terms whose difference is a constant, or which have no monomial in common *)
Definition aligned (T : table) (x y : term) : Prop :=
  (forall m, In m (monomials T x) <-> In m (monomials T y)) \/ (forall m, In m (monomials T x) -> ~ In m (monomials T y)).
(** an application in the assertions *)
Definition applied (T : table) (assertions : list term) (t : term) : Prop :=
  kind_of T t = KApp /\ exists root, In root assertions /\ subterm T t root.
(** arguments and values of functions are real, and corresponding arguments of two applications of a function are aligned *)
Definition real_functions (T : table) (assertions : list term) : Prop :=
  (forall t, applied T assertions t -> real_app T t) /\
  (forall t u f, applied T assertions t -> applied T assertions u -> fnc_symbol T t = Ok f -> fnc_symbol T u = Ok f ->
    Forall2 (aligned T) (get_args T t) (get_args T u)).

(** ** The variable order
    In the search a check of these assertions starts, it proposes unassigned variables of the problem, and gives up only
    when all of them are assigned. *)
Definition uf_order_ok {HS} (hi : nat -> Z) (hv : Q -> Z) (opt : lopt) (ndebug : bool) (he : heur HS) (hash : lit -> N) (df : nat)
           (o : phase_opt) (hs : db -> trail -> HS) (T : table) (assertions : list term) : Prop :=
  forall st u a t, translate_uf hi hv ndebug T assertions = Ok (Some (st, u)) -> replay hi hv opt (is_calls st) = Ok (a, t) ->
    let th := ul_theory hi hv opt T (is_bool st) (is_real st) df in
    let s0 := mkS (mkDb (is_cls st) []) t (bstate_new o, a, u) (hs (mkDb (is_cls st) []) t) 0 in
    picks_unassigned th he hash s0 /\ picks_all th he hash s0.

(** ** The model *)
Definition shown (x : uval) : value := match x with PB b => VB b | PR q => VR (Q2Qc q) end.
(** [I] gives every function the values shown for it *)
Definition reads_functions (F : list (term * list (list uval * uval))) (I : interp) : Prop :=
  forall f m args v, In (f, m) F -> In (args, v) m ->
    match v with
    | PB b => i_fbool I (tix f) (map shown args) = b
    | PR q => (this (i_freal I (tix f) (map shown args)) == q)%Q
    end.
