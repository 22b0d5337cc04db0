(** C61: answers to checks of assertions and scripts, logic QF_LRA. *)
From Coq Require Import Ascii String List Arith ZArith QArith Qcanon NArith Bool Lia.
From Verif Require Import Base Core_Model Bool_Model Trail_Model Spec_Trail Solver_Model Spec_Sat Spec_Theory Theory_Toy
  Lincons_Model Spec_Lincons Lra_Model Lra_Examples Comb_Model Spec_Comb Comb_Final Prop_Comb
  Terms_Model Spec_Terms Terms_Proofs TermMgr_Model Spec_TermMgr TermMgr_Base TermMgr_Term TermMgr_Main Spec_Visitor
  Internalizer_Model Spec_Internalizer Internalizer_Main Check_Model Spec_Check Check_Proofs
  Lexer_Model Spec_Print Print_Proofs Parser_Model Spec_Parser Script_Model Spec_Script Script_Text Prop_Terms Prop_Visitor Prop_Internalizer Prop_Parser Prop_Script.
Import ListNotations.
Close Scope Qc_scope.
Close Scope Q_scope.
Open Scope nat_scope.

(** ** C61 *)
(** If a check of assertions answers unsat, no interpretation satisfies all of them. *)
Theorem C61_unsat : forall hi hv opt ndebug H T assertions HS (he : heur HS) hash df fuel o hs x,
  reach H T -> Forall (bool_t T) assertions -> o_unassigned opt = false ->
  order_ok hi hv opt ndebug he hash df o hs T assertions ->
  check_assertions hi hv opt ndebug he hash df fuel o hs T assertions = Ok (Unsat, x) ->
  forall I, ~ satisfies I T assertions.
Proof.
  intros hi hv opt ndebug H T assertions HS he hash df fuel o hs x R B HU OK.
  exact (check_unsat hi hv opt ndebug H T (reach_wf H T R) assertions B he hash df fuel o hs HU OK x).
Qed.
Print Assumptions C61_unsat.

(** If it answers sat, a value is shown for each declared constant that occurs in the assertions, some interpretation has the
    shown values, and every such interpretation satisfies all assertions. *)
Theorem C61_sat : forall hi hv opt ndebug H T assertions HS (he : heur HS) hash df fuel o hs x,
  reach H T -> Forall (bool_t T) assertions -> no_apps T assertions -> o_unassigned opt = false ->
  order_ok hi hv opt ndebug he hash df o hs T assertions ->
  check_assertions hi hv opt ndebug he hash df fuel o hs T assertions = Ok (Sat, x) ->
  exists st s, x = Some (st, s) /\ (exists I, reads T (show_model T st s) I) /\
    (forall I, reads T (show_model T st s) I -> satisfies I T assertions) /\
    (forall c, occurs T assertions c -> exists v, In (c, v) (show_model T st s)).
Proof.
  intros hi hv opt ndebug H T assertions HS he hash df fuel o hs x R B NA HU OK E.
  exact (check_sat hi hv opt ndebug H T (reach_wf H T R) assertions B he hash df fuel o hs HU OK x E NA).
Qed.
Print Assumptions C61_sat.

(** The first check-sat of a well-sorted script: the answer is the right one for the part of the script before it. *)
Theorem C61_script : forall hi hv opt ndebug H cs k pre rest a T checks HS (he : heur HS) hash df fuel o hs x ans,
  script_ok w_new false cs -> run_script H (stoks cs) = Ok k ->
  checked [] cs = pre :: rest -> rev (k_checks k) = (a, T) :: checks -> o_unassigned opt = false ->
  order_ok hi hv opt ndebug he hash df o hs T a ->
  check_assertions hi hv opt ndebug he hash df fuel o hs T a = Ok (ans, x) ->
  match ans with Unsat => ~ script_sat pre | Sat => no_apps T a -> script_sat pre end.
Proof.
  intros hi hv opt ndebug H cs k pre rest a T checks HS he hash df fuel o hs x ans OK E CP CK HU OO EC.
  pose proof (C60_checks H cs k OK E) as F. rewrite CP, CK in F. inversion F as [|? ? ? ? (R & B & S) _]; subst. cbn [fst snd] in *.
  destruct ans.
  - intros NA. destruct (C61_sat hi hv opt ndebug H T a HS he hash df fuel o hs x R B NA HU OO EC) as (st & s & _ & (I & RI) & SI & _).
    apply S. exists I. auto.
  - rewrite <- S. intros (I & SI). exact (C61_unsat hi hv opt ndebug H T a HS he hash df fuel o hs x R B HU OO EC I SI).
Qed.
Print Assumptions C61_script.

(** *** Examples *)
(** the order that proposes the first unassigned variable *)
Lemma toy_order hi hv opt ndebug hash df o H T a : o_unassigned opt = false -> reach H T -> Forall (bool_t T) a ->
  order_ok hi hv opt ndebug toy_heur hash df o (fun _ _ => tt) T a.
Proof.
  intros HU R B p st a0 t TR RP. split; [apply toy_picks|].
  destruct (translated hi hv opt ndebug H T (reach_wf H T R) a B p st TR) as (a1 & t1 & o0 & h & RP1 & X). rewrite RP in RP1. injection RP1 as <- <-.
  exact (toy_all hi hv opt df hash _ a0 t (is_cls st) o HU (tr_pb _ _ _ _ _ _ _ _ _ _ X) (clauses_ok hi hv opt T a st a0 t o0 h X)).
Qed.
Definition q_opt : lopt := mkOpt true false true false.
Definition check_toy := check_assertions ex_hash ex_hashq q_opt false toy_heur (fun _ => 0%N) 50 200 PhaseCache (fun _ _ => tt).
(** two QF_LRA scripts *)
Definition l_decl : list command :=
  [KLogic false; KDeclareConst (pl "x") TReal; KDeclareConst (pl "y") TReal; KDeclareFun (pl "p") [] TBool;
   KAssert (p_app "or" [p_sym "p"; p_app ">=" [p_app "+" [p_sym "x"; p_sym "y"]; ENum (t_of "2")]]);
   KAssert (p_app "<" [p_sym "x"; ENum (t_of "1")]);
   KAssert (p_app "or" [p_app "not" [p_sym "p"]; p_app "=" [p_sym "x"; p_sym "y"]])].
Definition l_sat : list command := l_decl ++ [KCheck].
Definition l_un : list command := l_decl ++ [KAssert (p_app "<" [p_sym "y"; p_sym "x"]); KCheck].
Lemma l_sat_ok : script_ok w_new false l_sat.
Proof. unfold l_sat, l_decl. cbn [app]. do 8 (apply script_step; [cbn [command_ok]; cok|]). exact I. Qed.
Lemma l_un_ok : script_ok w_new false l_un.
Proof. unfold l_un, l_decl. cbn [app]. do 9 (apply script_step; [cbn [command_ok]; cok|]). exact I. Qed.
(** assertions and terms at the first check-sat *)
Definition first_check (cs : list command) : list term * table :=
  match run_script H0 (stoks cs) with Ok k => hd ([], table_new H0) (rev (k_checks k)) | _ => ([], table_new H0) end.
Lemma first_checked cs : script_ok w_new false cs -> match run_script H0 (stoks cs) with Ok k => negb (length (k_checks k) =? 0) | _ => false end = true ->
  exists k pre rest checks, run_script H0 (stoks cs) = Ok k /\ checked [] cs = pre :: rest /\
    rev (k_checks k) = (fst (first_check cs), snd (first_check cs)) :: checks /\
    reach H0 (snd (first_check cs)) /\ Forall (bool_t (snd (first_check cs))) (fst (first_check cs)).
Proof.
  intros OK L. unfold first_check. destruct (run_script H0 (stoks cs)) as [k| |] eqn:E; try discriminate L.
  pose proof (C60_checks H0 cs k OK E) as F.
  destruct (rev (k_checks k)) as [|[a T] checks] eqn:Ek.
  - exfalso. apply (f_equal (@length _)) in Ek. rewrite rev_length in Ek. rewrite Ek in L. discriminate L.
  - inversion F as [|pre ? rest ? (R & B & _) _ EP]; subst. cbn [hd fst snd] in *. exists k, pre, rest, checks. auto 6.
Qed.
Definition answers (cs : list command) (a : answer) : bool :=
  match check_toy (snd (first_check cs)) (fst (first_check cs)) with
  | Ok (Sat, _) => match a with Sat => true | Unsat => false end
  | Ok (Unsat, _) => match a with Sat => false | Unsat => true end
  | _ => false
  end.
Lemma answers_ok cs a : answers cs a = true -> exists x, check_toy (snd (first_check cs)) (fst (first_check cs)) = Ok (a, x).
Proof. unfold answers. destruct (check_toy _ _) as [[[|] x]| |]; destruct a; try discriminate; eauto. Qed.
(** the hypotheses of C61 hold for both, with these answers *)
Example C61_nonvacuous : forall cs a, (cs = l_sat /\ a = Sat) \/ (cs = l_un /\ a = Unsat) ->
  script_ok w_new false cs /\ let asserts := fst (first_check cs) in let T := snd (first_check cs) in
  exists k pre rest checks x, run_script H0 (stoks cs) = Ok k /\ checked [] cs = pre :: rest /\ rev (k_checks k) = (asserts, T) :: checks /\
    reach H0 T /\ Forall (bool_t T) asserts /\ no_apps T asserts /\ o_unassigned q_opt = false /\
    order_ok ex_hash ex_hashq q_opt false toy_heur (fun _ => 0%N) 50 PhaseCache (fun _ _ => tt) T asserts /\
    check_toy T asserts = Ok (a, x).
Proof.
  intros cs a C. assert (OK : script_ok w_new false cs) by (destruct C as [[-> ->]|[-> ->]]; [exact l_sat_ok|exact l_un_ok]). split; [exact OK|]. cbv zeta.
  assert (L : match run_script H0 (stoks cs) with Ok k => negb (length (k_checks k) =? 0) | _ => false end = true) by (destruct C as [[-> ->]|[-> ->]]; vm_compute; reflexivity).
  assert (A : answers cs a = true) by (destruct C as [[-> ->]|[-> ->]]; vm_compute; reflexivity).
  assert (N : app_free (snd (first_check cs)) = true) by (destruct C as [[-> ->]|[-> ->]]; vm_compute; reflexivity).
  destruct (first_checked cs OK L) as (k & pre & rest & checks & E & EP & EK & R & B). destruct (answers_ok cs a A) as (x & EX).
  exists k, pre, rest, checks, x. split; [exact E|]. split; [exact EP|]. split; [exact EK|]. split; [exact R|]. split; [exact B|].
  split; [exact (app_free_ok _ _ N)|]. split; [reflexivity|]. split; [|exact EX]. exact (toy_order _ _ q_opt _ _ _ _ _ _ _ eq_refl R B).
Qed.
(** so the second script is unsatisfiable and the first one satisfiable *)
Lemma used_gen cs a : (cs = l_sat /\ a = Sat) \/ (cs = l_un /\ a = Unsat) ->
  exists pre rest, checked [] cs = pre :: rest /\ match a with Unsat => ~ script_sat pre | Sat => script_sat pre end.
Proof.
  intros C. destruct (C61_nonvacuous cs a C) as (OK & k & pre & rest & checks & x & E & EP & EK & _ & _ & N & HU & OO & EX). clear C.
  exists pre, rest. split; [exact EP|]. unfold check_toy in EX. revert EK N OO EX. generalize (fst (first_check cs)) (snd (first_check cs)). intros asserts T EK N OO EX.
  pose proof (C61_script _ _ _ _ _ _ _ _ _ _ _ _ _ _ _ _ _ _ _ _ _ OK E EP EK HU OO EX) as X. destruct a; auto.
Qed.
Example C61_used : (exists pre rest, checked [] l_sat = pre :: rest /\ script_sat pre) /\ (exists pre rest, checked [] l_un = pre :: rest /\ ~ script_sat pre).
Proof. split; [apply (used_gen l_sat Sat)|apply (used_gen l_un Unsat)]; auto. Qed.
(** the model printed for the first one: p = true, y = 0, x = 0 *)
Example C61_model_nonvacuous : match check_toy (snd (first_check l_sat)) (fst (first_check l_sat)) with
  | Ok (Sat, Some (st, s)) => show_model (snd (first_check l_sat)) st s = [(mkT 5 false, inl true); (mkT 4 false, inr 0%Q); (mkT 3 false, inr 0%Q)]
  | _ => False
  end.
Proof. vm_compute. reflexivity. Qed.
