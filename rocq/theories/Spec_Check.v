(** Specification for C61: checks of assertions with the logic QF_LRA. *)
From Coq Require Import List Arith ZArith QArith Qcanon NArith Bool.
From Verif Require Import Base Core_Model Bool_Model Trail_Model Solver_Model Spec_Sat Spec_Theory Lincons_Model Lra_Model Comb_Model
  Spec_Comb Prop_Comb Terms_Model Spec_Terms TermMgr_Model Spec_TermMgr Spec_Visitor Internalizer_Model Spec_Internalizer Check_Model.
Import ListNotations.
Open Scope nat_scope.

(** What is asked of the variable order, in the search a check of these assertions starts: it proposes unassigned
    variables of the problem, and gives up only when all of them are assigned. *)
Definition order_ok {HS} (hi : nat -> Z) (hv : Q -> Z) (opt : lopt) (ndebug : bool) (he : heur HS) (hash : lit -> N) (df : nat)
           (o : phase_opt) (hs : db -> trail -> HS) (T : table) (assertions : list term) : Prop :=
  forall p st a t, translate ndebug hi hv T [] is_new assertions = Ok (Some (p, st)) -> replay hi hv opt (is_calls st) = Ok (a, t) ->
    picks_unassigned (bl_theory hi hv opt df) he hash (start (is_cls st) o a t (hs (mkDb (is_cls st) []) t)) /\
    picks_all (bl_theory hi hv opt df) he hash (start (is_cls st) o a t (hs (mkDb (is_cls st) []) t)).

(** [I] gives every declared constant the value shown for it *)
Definition reads (T : table) (m : list (term * (bool + Q))) (I : interp) : Prop :=
  forall c x, In (c, x) m -> match x with inl b => tholds I T c = b | inr q => (this (treal I T c) == q)%Q end.
(** a declared constant that occurs in the assertions *)
Definition occurs (T : table) (assertions : list term) (c : term) : Prop :=
  kind_of T c = KUninterp /\ tneg c = false /\ exists root s, In root assertions /\ subterm T s root /\ pos s = c.
