(** A check of assertions with the logic QF_LRA fails no assertion. *)
From Coq Require Import List Arith ZArith QArith Qcanon NArith Bool Lia.
From Verif Require Import Base Core_Model Bool_Model Trail_Model Solver_Model Spec_Sat Spec_Theory Lincons_Model Lra_Model Comb_Model
  Spec_Comb Prop_Comb Terms_Model Spec_Terms TermMgr_Model Spec_TermMgr TermMgr_Base TermMgr_Arith TermMgr_Term TermMgr_Main Spec_Visitor Visitor_Proofs Internalizer_Model Spec_Internalizer
  Internalizer_Main Check_Model Spec_Check Check_Proofs Lra_Shape Comb_Safe1 Comb_Safe5.
Import ListNotations.
Close Scope Qc_scope.
Close Scope Q_scope.
Open Scope nat_scope.

Definition NEs (st : ist) : Prop := forall c, In c (is_cls st) -> c <> [].
Section V.
Variables (ndebug : bool) (hi : nat -> Z) (hv : Q -> Z) (T : table).
Lemma NE_put_bool st k l st' : NEs st -> put_bool st k l = Ok st' -> NEs st'.
Proof. unfold put_bool. destruct (m_find _ _); [discriminate|]. intros N H. injection H as <-. exact N. Qed.
Lemma NE_put_real st k l st' : NEs st -> put_real st k l = Ok st' -> NEs st'.
Proof. unfold put_real. destruct (m_find _ _); [discriminate|]. intros N H. injection H as <-. exact N. Qed.
Lemma NE_lin st p o st' l : NEs st -> linear_constraint hi hv st p o = Ok (st', l) -> NEs st'.
Proof.
  unfold linear_constraint. destruct (assertb _); cbn [bind]; try discriminate. destruct (lc_make _ _ _ _ _ _) as [s c]. intros N H. injection H as <- _. exact N.
Qed.
Lemma NE_clause st c : NEs st -> c <> [] -> NEs (add_clause st c).
Proof. intros N Hc c' H. cbn [add_clause is_cls] in H. apply in_app_iff in H. destruct H as [H|[<-|[]]]; auto. Qed.
Lemma NE_fold (f : lit -> list lit) : (forall l, f l <> []) -> forall ls st, NEs st -> NEs (fold_left (fun s a => add_clause s (f a)) ls st).
Proof. intros F ls. induction ls as [|l ls IH]; intros st N; cbn [fold_left]; auto. apply IH, NE_clause; auto. Qed.
Lemma NE_visit st t st' : NEs st -> int_visit ndebug hi hv T st t = Ok st' -> NEs st'.
Proof.
  intros N H. unfold int_visit in H.
  assert (MB : NEs (fst (make_bool st))) by exact N. assert (MR : NEs (fst (make_real st))) by exact N.
  destruct (kind_of T t); try discriminate; repeat (match type of H with
    | Ok _ = Ok _ => injection H as <-
    | bind ?m _ = Ok _ => let z := fresh "zz" in destruct m as [z| |] eqn:?; cbn [bind] in H; [|discriminate|discriminate]
    | (let (_, _) := ?m in _) = Ok _ => destruct m as [? ?] eqn:?
    | (match type_of T t with _ => _ end) = Ok _ => destruct (type_of T t)
    | (if ?b then _ else _) = Ok _ => destruct b
    end); try discriminate; auto;
    repeat match goal with x : (_ * _)%type |- _ => destruct x end; cbn [fst] in *;
    repeat match goal with
    | E : make_bool ?s = _, N : NEs (fst (make_bool ?s)) |- _ => rewrite E in N; cbn [fst] in N; clear E
    | E : make_real ?s = _, N : NEs (fst (make_real ?s)) |- _ => rewrite E in N; cbn [fst] in N; clear E
    | E : linear_constraint hi hv ?s _ _ = Ok _, N : NEs ?s |- _ => apply (NE_lin _ _ _ _ _ N) in E
    | E : put_bool ?s _ _ = Ok _, N : NEs ?s |- _ => apply (NE_put_bool _ _ _ _ N) in E
    | E : put_real ?s _ _ = Ok _, N : NEs ?s |- _ => apply (NE_put_real _ _ _ _ N) in E
    end; auto.
  all: first [apply NE_clause; [apply (NE_fold (fun a => [_; neg a])); [discriminate|assumption]|intros X; apply app_eq_nil in X; destruct X; discriminate]|
    apply NE_clause; [apply NE_clause; [assumption|discriminate]|discriminate]].
Qed.
Lemma NE_run : forall o st st', NEs st -> run (int_visit ndebug hi hv T) st o = Ok st' -> NEs st'.
Proof.
  induction o as [|t o IH]; simpl; intros st st' HK E; [now injection E as <-|].
  destruct (int_visit ndebug hi hv T st t) as [st1| |] eqn:E1; cbn [bind] in E; try discriminate. exact (IH _ _ (NE_visit _ _ _ HK E1) E).
Qed.
End V.

Section Check.
Variables (hi : nat -> Z) (hv : Q -> Z) (opt : lopt).
Hypothesis HU : o_unassigned opt = false.
Variables (ndebug : bool) (H : hashes) (T : table).
Hypothesis W : wf H T.
Variable assertions : list term.
Hypothesis B : Forall (bool_t T) assertions.

Lemma translated_ne p st : translate ndebug hi hv T [] is_new assertions = Ok (Some (p, st)) -> forall c, In c (is_cls st) -> c <> [].
Proof.
  unfold translate. destruct (existsb _ _); [discriminate|].
  destruct (visited H T W assertions B) as (p0 & o & E & _).
  rewrite (span_any (int_visit ndebug hi hv T) T assertions [] [] p0 o) by exact E.
  change (mkIs _ _ _ _ _ _) with is_new.
  destruct (run (int_visit ndebug hi hv T) is_new o) as [st1| |] eqn:R; cbn [bind]; try discriminate.
  destruct (top_clauses st1 assertions) as [st2| |] eqn:TC; cbn [bind]; try discriminate. intros [= <- <-].
  assert (N1 : NEs st1) by (eapply NE_run; [|exact R]; intros c []).
  destruct (top_ok _ _ _ TC) as (cs & -> & _ & E2). intros c Hc. cbn [is_cls] in Hc. apply in_app_iff in Hc. destruct Hc as [Hc|Hc]; [exact (N1 c Hc)|].
  destruct (E2 c Hc) as (x & y & _ & _ & ->). discriminate.
Qed.

Lemma assertions_safe {HS} (he : heur HS) hash df fuel o hs :
  translate ndebug hi hv T [] is_new assertions <> UB ->
  (forall p st a t, translate ndebug hi hv T [] is_new assertions = Ok (Some (p, st)) -> replay hi hv opt (is_calls st) = Ok (a, t) ->
    picks_unassigned (bl_theory hi hv opt df) he hash (start (is_cls st) o a t (hs (mkDb (is_cls st) []) t))) ->
  check_assertions hi hv opt ndebug he hash df fuel o hs T assertions <> UB.
Proof.
  intros NT OK. unfold check_assertions. apply bind_ub; [exact NT|]. intros [[p st]|] TR; [|discriminate].
  destruct (translated hi hv opt ndebug H T W assertions B p st TR) as (a & t & o0 & h & RP & X). rewrite RP. cbn [bind].
  apply bind_ub; [|intros [s ans] _; discriminate].
  apply (check_safe hi hv opt HU he hash df _ a t (is_cls st) o _ (tr_pb _ _ _ _ _ _ _ _ _ _ X) (clauses_ok hi hv opt T assertions st a t o0 h X)).
  - exact (translated_ne p st TR).
  - exact (OK p st a t TR RP).
Qed.
End Check.
