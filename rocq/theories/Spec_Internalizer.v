(** Specification for C47, C48: what the clauses and constraints given to the solver mean. *)
From Coq Require Import List Arith ZArith QArith Qcanon Bool.
From Verif Require Import Base Core_Model Lincons_Model Spec_Lincons Terms_Model Spec_Terms TermMgr_Model Spec_TermMgr Spec_Visitor Internalizer_Model.
Import ListNotations.
Open Scope nat_scope.

(** A Boolean assignment [b] and a rational assignment [r] of the solver's variables agree on linear constraints:
    the variable of a stored constraint is true iff the constraint holds. *)
Definition consistent (s : store) (b : nat -> bool) (r : nat -> Q) : Prop :=
  forall v, lc_empty (lc_get s v) = false -> (b v = true <-> stored_holds r s v).
Definition clause_holds (b : nat -> bool) (c : list lit) : Prop := exists l, In l c /\ lit_holds b l.
(** the assignment satisfies what the solver was given *)
Definition solves (st : ist) (b : nat -> bool) (r : nat -> Q) : Prop :=
  consistent (is_store st) b r /\ Forall (clause_holds b) (is_cls st).

(** symbols of the user: declared constants and applications of declared functions *)
Definition user (T : table) (t : term) : Prop := kind_of T t = KUninterp \/ kind_of T t = KApp.
(** [I] gives the user's constants and applications the values of the solver's variables for them *)
Definition agrees (T : table) (st : ist) (I : interp) (b : nat -> bool) (r : nat -> Q) : Prop :=
  (forall t l, In (t, l) (is_bool st) -> user T t -> (lit_holds b l <-> tholds I T t = true)) /\
  (forall t v, In (t, v) (is_real st) -> user T t -> (r v == this (treal I T t))%Q).

(** [I] satisfies the assertions *)
Definition satisfies (I : interp) (T : table) (assertions : list term) : Prop :=
  Forall (fun a => tholds I T a = true) assertions.

(** Assertions the translation handles: no negated Boolean application, no application in an equality of two
    variables (unless assertions are off), no constant false as an argument. Terms without applications (QF_LRA) are handled. *)
Definition supported (ndebug : bool) (T : table) (assertions : list term) : Prop :=
  forall s root, In root assertions -> subterm T s root ->
    (kind_of T s = KApp -> type_of T s = TBool -> tneg s = false) /\
    (ndebug = false -> kind_of T s = KArithBineq -> forall a, In a (get_args T s) -> kind_of T a <> KApp) /\
    (forall a, In a (get_args T s) -> a <> false_term).
Definition no_apps (T : table) (assertions : list term) : Prop :=
  forall s root, In root assertions -> subterm T s root -> kind_of T s <> KApp.

Definition with_store (st : ist) (s : store) : ist := mkIs s (is_nreal st) (is_bool st) (is_real st) (is_cls st) (is_calls st).
(** Histories with any number of checks (C48): [checks T p st]: table, visited indices and state of the translation
    after some checks. Between checks terms are added. While the solver runs, the arithmetic plugin derives
    constraints and reorders the terms of stored ones. *)
Inductive checks (ndebug : bool) (hi : nat -> Z) (hv : Q -> Z) (H : hashes) : table -> list nat -> ist -> Prop :=
| ck_new : checks ndebug hi hv H (table_new H) [] is_new
| ck_terms T T' p st : checks ndebug hi hv H T p st -> keeps T T' -> reach H T' -> checks ndebug hi hv H T' p st
| ck_check T p st assertions p' st' : checks ndebug hi hv H T p st -> Forall (bool_t T) assertions ->
    translate ndebug hi hv T p st assertions = Ok (Some (p', st')) -> checks ndebug hi hv H T p' st'
| ck_derive T p st q s' c : checks ndebug hi hv H T p st -> distinct_vars q ->
    lc_make hi hv (is_store st) (rq_terms q) (rq_pred q) (rq_rhs q) = (s', c) -> checks ndebug hi hv H T p (with_store st s')
| ck_swap T p st c i j : checks ndebug hi hv H T p st -> In c (st_set (is_store st)) ->
    fst (lc_pos c) <= i < snd (lc_pos c) -> fst (lc_pos c) <= j < snd (lc_pos c) ->
    checks ndebug hi hv H T p (with_store st (lc_swap (is_store st) i j)).
