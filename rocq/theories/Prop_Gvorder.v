(** C62: the variable order of the QF_LRA solver, Generalized_vsids, in a run of the solver. *)
From Coq Require Import Ascii String List Arith ZArith QArith Qcanon NArith Bool Lia.
From Verif Require Import Base Core_Model Bool_Model Trail_Model Spec_Trail Solver_Model Spec_Sat Spec_Theory Theory_Inv Theory_Strict Theory_Sound Theory_Bool Comb_Bcp Theory_Level Theory_Toy
  Lincons_Model Spec_Lincons Lra_Model Lra_Examples Lra_Watch Comb_Model Spec_Comb Comb_Lra Comb_Final Prop_Comb
  Terms_Model Spec_Terms Terms_Proofs TermMgr_Model Spec_TermMgr TermMgr_Base TermMgr_Term TermMgr_Main Spec_Visitor
  Internalizer_Model Spec_Internalizer Internalizer_Main Check_Model Spec_Check Check_Proofs
  Lexer_Model Spec_Print Print_Proofs Parser_Model Spec_Parser Script_Model Spec_Script Script_Text Prop_Terms Prop_Visitor Prop_Internalizer Prop_Parser Prop_Script
  Order_Model Queue_Model Spec_Queue Spec_Order Queue_Proofs Gvsids_Model Order_Proofs Gvorder_Model Gvorder_Proofs Gvorder_Run Prop_Check.
Import ListNotations.
Close Scope Qc_scope.
Close Scope Q_scope.
Open Scope nat_scope.

(** ** the order in a check of linear constraints and clauses *)
Section Inst.
Context {F RS : Type}.
Variables (fo : fops F) (good : F -> Prop) (rp : restart_policy RS) (r0 : RS).
Hypothesis laws : score_laws fo good.
Hypothesis closed : score_closed fo good.
Variables (cv : nat -> nat -> list nat) (dec : nat -> list nat) (ed : nat -> nat -> bool).
Variables (hi : nat -> Z) (hv : Q -> Z) (opt : lopt) (hash : lit -> N) (df : nat).
Variables (h : list (Spec_Lincons.request * lit)) (a : lra) (t : trail) (cs : list clause) (o : phase_opt).
Hypothesis HU : o_unassigned opt = false.
Hypothesis HPb : problem hi hv opt h a t.
Hypothesis HR : clauses_in t cs.
Notation th := (bl_theory hi hv opt df).
Notation he := (heur_of (gv_order fo cv dec ed) rp).
Notation s0 := (start cs o a t (gv_start fo cv (mkDb cs []) t, r0)).

Lemma bl_ops fuel ts d t1 ts' d' t' ccs : PE hi hv opt (mnum (t_qm t)) (l_st a) ts d t1 -> (trail_empty t1 = false -> units_done d t1) ->
  th_propagate th fuel ts d t1 = Ok (ts', d', t', ccs) -> prop_ops true d' (fun _ => False) t1 t'.
Proof.
  destruct ts as [b a1], ts' as [b' a']. intros E U H. cbn [bl_theory th_propagate fst snd] in H.
  apply (bl_propagate_ok hi hv opt df (mnum (t_qm t)) (l_st a) HU (fun _ => False)) in H; auto. tauto.
Qed.
Lemma gv_picks s fuel ts d t1 h1 o1 : Spec_Sat.reach th he hash s0 s -> th_propagate th fuel (s_th s) (s_db s) (s_trail s) = Ok (ts, d, t1, []) ->
  h_pick he (s_he s) d t1 = (h1, o1) ->
  match o1 with
  | Some v => is_def t1 v = false /\ in_range (mnum (t_bm t1)) (mnum (t_qm t1)) v = true
  | None => forall v, in_range (mnum (t_bm t)) (mnum (t_qm t)) v = true -> is_def t1 v = true
  end.
Proof.
  pose proof (problem_SU hi hv opt h a t HPb) as [R W N T FF G C NE M A].
  apply (gv_order_ok th fo good rp hash laws closed cv dec ed ltm _ _ _ _ (bl_level hi hv opt df (mnum (t_qm t)) (l_st a) HU) bl_ops
    (fun ts d t H => proj1 (proj2 (proj2 (proj1 H)))) (fun k ts d t H => li_r _ _ _ _ _ _ _ (proj1 (proj2 (proj2 (proj2 H))))) cs (mnum (t_bm t)) HR (mnum (t_bm t)) (mnum (t_qm t)) t _ 0 r0); auto.
  exact (start_PE hi hv opt h a t cs o HPb HR).
Qed.
Lemma gv_alive : sure cv dec (mnum (t_qm t)) -> forall s, Spec_Sat.reach th he hash s0 s -> fst (fst (s_he s)) <> None /\
    forall fuel ts d t h o, th_propagate th fuel (s_th s) (s_db s) (s_trail s) = Ok (ts, d, t, []) -> h_pick he (s_he s) d t = (h, o) -> fst (fst h) <> None.
Proof.
  pose proof (problem_SU hi hv opt h a t HPb) as [R W N T FF G C NE M A]. intros S.
  apply (gv_order_alive th fo good rp hash laws closed cv dec ed ltm _ _ _ _ (bl_level hi hv opt df (mnum (t_qm t)) (l_st a) HU) bl_ops
    (fun ts d t H => proj1 (proj2 (proj2 (proj1 H)))) (fun k ts d t H => li_r _ _ _ _ _ _ _ (proj1 (proj2 (proj2 (proj2 H))))) cs (mnum (t_bm t)) HR (mnum (t_bm t)) (mnum (t_qm t)) t _ 0 r0); auto.
  exact (start_PE hi hv opt h a t cs o HPb HR).
Qed.
End Inst.

(** ** C62 *)
(** In every check of linear constraints and clauses, at every moment, whatever linear arithmetic answers to the order's
    questions and whatever the restart policy does: a proposed variable exists and is unassigned, and the order gives up
    only if every variable of the problem is assigned. *)
Theorem C62_order : forall F (fo : fops F) good RS (rp : restart_policy RS) r0 cv dec ed hi hv opt hash df h a t cs o,
  score_laws fo good -> score_closed fo good -> o_unassigned opt = false -> problem hi hv opt h a t -> clauses_in t cs ->
  let s0 := start cs o a t (gv_start fo cv (mkDb cs []) t, r0) in
  picks_unassigned (bl_theory hi hv opt df) (heur_of (gv_order fo cv dec ed) rp) hash s0 /\
  picks_all (bl_theory hi hv opt df) (heur_of (gv_order fo cv dec ed) rp) hash s0.
Proof.
  intros F fo good RS rp r0 cv dec ed hi hv opt hash df h a t cs o LW CL HU HPb HR s0. split.
  - intros s fuel ts d t1 h1 v R E1 E2. exact (gv_picks fo good rp r0 LW CL cv dec ed hi hv opt hash df h a t cs o HU HPb HR s fuel ts d t1 h1 (Some v) R E1 E2).
  - intros s fuel ts d t1 h1 R E1 E2. exact (gv_picks fo good rp r0 LW CL cv dec ed hi hv opt hash df h a t cs o HU HPb HR s fuel ts d t1 h1 None R E1 E2).
Qed.
Print Assumptions C62_order.

(** With linear arithmetic's default options (no effectively decided variables) no assertion of the order fails. *)
Theorem C62_no_failure : forall F (fo : fops F) good RS (rp : restart_policy RS) r0 cv dec ed hi hv opt hash df h a t cs o,
  score_laws fo good -> score_closed fo good -> o_unassigned opt = false -> problem hi hv opt h a t -> clauses_in t cs ->
  (forall n, dec n = []) -> (forall n b x, In x (cv n b) -> x < mnum (t_qm t)) ->
  let th := bl_theory hi hv opt df in
  let he := heur_of (gv_order fo cv dec ed) rp in
  forall s, Spec_Sat.reach th he hash (start cs o a t (gv_start fo cv (mkDb cs []) t, r0)) s ->
    fst (fst (s_he s)) <> None /\
    forall fuel ts d t1 h1 p, th_propagate th fuel (s_th s) (s_db s) (s_trail s) = Ok (ts, d, t1, []) -> h_pick he (s_he s) d t1 = (h1, p) -> fst (fst h1) <> None.
Proof.
  intros F fo good RS rp r0 cv dec ed hi hv opt hash df h a t cs o LW CL HU HPb HR D V.
  exact (gv_alive fo good rp r0 LW CL cv dec ed hi hv opt hash df h a t cs o HU HPb HR (conj D V)).
Qed.
Print Assumptions C62_no_failure.

Lemma gv_checks F (fo : fops F) good RS (rp : restart_policy RS) r0 cv dec ed hi hv opt ndebug hash df o H T a :
  score_laws fo good -> score_closed fo good -> o_unassigned opt = false -> reach H T -> Forall (bool_t T) a ->
  order_ok hi hv opt ndebug (heur_of (gv_order fo cv dec ed) rp) hash df o (fun d t => (gv_start fo cv d t, r0)) T a.
Proof.
  intros LW CL HU R B p st a0 t TR RP.
  destruct (translated hi hv opt ndebug H T (reach_wf H T R) a B p st TR) as (a1 & t1 & o0 & h & RP1 & X). rewrite RP in RP1. injection RP1 as <- <-.
  exact (C62_order F fo good RS rp r0 cv dec ed hi hv opt hash df _ a0 t (is_cls st) o LW CL HU (tr_pb _ _ _ _ _ _ _ _ _ _ X) (clauses_ok hi hv opt T a st a0 t o0 h X)).
Qed.

(** So C61 holds of the QF_LRA solver with its own variable order, without a hypothesis on the order. *)
Theorem C62_unsat : forall F (fo : fops F) good RS (rp : restart_policy RS) r0 cv dec ed hi hv opt ndebug H T assertions hash df fuel o x,
  score_laws fo good -> score_closed fo good -> reach H T -> Forall (bool_t T) assertions -> o_unassigned opt = false ->
  check_assertions hi hv opt ndebug (heur_of (gv_order fo cv dec ed) rp) hash df fuel o (fun d t => (gv_start fo cv d t, r0)) T assertions = Ok (Unsat, x) ->
  forall I, ~ satisfies I T assertions.
Proof.
  intros F fo good RS rp r0 cv dec ed hi hv opt ndebug H T assertions hash df fuel o x LW CL R B HU.
  exact (C61_unsat hi hv opt ndebug H T assertions _ _ hash df fuel o _ x R B HU (gv_checks F fo good RS rp r0 cv dec ed hi hv opt ndebug hash df o H T assertions LW CL HU R B)).
Qed.
Print Assumptions C62_unsat.

Theorem C62_sat : forall F (fo : fops F) good RS (rp : restart_policy RS) r0 cv dec ed hi hv opt ndebug H T assertions hash df fuel o x,
  score_laws fo good -> score_closed fo good -> reach H T -> Forall (bool_t T) assertions -> no_apps T assertions -> o_unassigned opt = false ->
  check_assertions hi hv opt ndebug (heur_of (gv_order fo cv dec ed) rp) hash df fuel o (fun d t => (gv_start fo cv d t, r0)) T assertions = Ok (Sat, x) ->
  exists st s, x = Some (st, s) /\ (exists I, reads T (show_model T st s) I) /\
    (forall I, reads T (show_model T st s) I -> satisfies I T assertions) /\
    (forall c, occurs T assertions c -> exists v, In (c, v) (show_model T st s)).
Proof.
  intros F fo good RS rp r0 cv dec ed hi hv opt ndebug H T assertions hash df fuel o x LW CL R B NA HU.
  exact (C61_sat hi hv opt ndebug H T assertions _ _ hash df fuel o _ x R B NA HU (gv_checks F fo good RS rp r0 cv dec ed hi hv opt ndebug hash df o H T assertions LW CL HU R B)).
Qed.
Print Assumptions C62_sat.

Theorem C62_script : forall F (fo : fops F) good RS (rp : restart_policy RS) r0 cv dec ed hi hv opt ndebug H cs k pre rest a T checks hash df fuel o x ans,
  score_laws fo good -> score_closed fo good ->
  script_ok w_new false cs -> run_script H (stoks cs) = Ok k ->
  checked [] cs = pre :: rest -> rev (k_checks k) = (a, T) :: checks -> o_unassigned opt = false ->
  check_assertions hi hv opt ndebug (heur_of (gv_order fo cv dec ed) rp) hash df fuel o (fun d t => (gv_start fo cv d t, r0)) T a = Ok (ans, x) ->
  match ans with Unsat => ~ script_sat pre | Sat => no_apps T a -> script_sat pre end.
Proof.
  intros F fo good RS rp r0 cv dec ed hi hv opt ndebug H cs k pre rest a T checks hash df fuel o x ans LW CL OK E CP CK HU EC.
  pose proof (C60_checks H cs k OK E) as FF. rewrite CP, CK in FF. inversion FF as [|? ? ? ? (R & B & _) _]; subst. cbn [fst snd] in *.
  exact (C61_script hi hv opt ndebug H cs k pre rest a T checks _ _ hash df fuel o _ x ans OK E CP CK HU
    (gv_checks F fo good RS rp r0 cv dec ed hi hv opt ndebug hash df o H T a LW CL HU R B) EC).
Qed.
Print Assumptions C62_script.

(** *** Examples *)
(** rational scores and Glucose restarts; the rational variables asked for are x and y for every constraint *)
Definition check_gv := check_assertions ex_hash ex_hashq q_opt false (heur_of (gv_order qops (fun _ _ => [0; 1]) (fun _ => []) (fun _ _ => false)) glucose_restart)
  (fun _ => 0%N) 50 200 PhaseCache (fun d t => (gv_start qops (fun _ _ => [0; 1]) d t, glucose_start)).
Definition gv_answers (cs : list command) (a : answer) : bool :=
  match check_gv (snd (first_check cs)) (fst (first_check cs)) with
  | Ok (Sat, Some (_, s)) => match a with Sat => match fst (fst (s_he s)) with Some _ => true | None => false end | Unsat => false end
  | Ok (Unsat, Some (_, s)) => match a with Sat => false | Unsat => match fst (fst (s_he s)) with Some _ => true | None => false end end
  | _ => false
  end.
Lemma gv_answers_ok cs a : gv_answers cs a = true -> exists x, check_gv (snd (first_check cs)) (fst (first_check cs)) = Ok (a, x).
Proof. unfold gv_answers. destruct (check_gv _ _) as [[[|] [[]|]]| |]; destruct a; try discriminate; eauto. Qed.
Example C62_nonvacuous : forall cs a, (cs = l_sat /\ a = Sat) \/ (cs = l_un /\ a = Unsat) ->
  script_ok w_new false cs /\ score_laws qops qpos /\ score_closed qops qpos /\
  let asserts := fst (first_check cs) in let T := snd (first_check cs) in
  exists k pre rest checks x, run_script H0 (stoks cs) = Ok k /\ checked [] cs = pre :: rest /\ rev (k_checks k) = (asserts, T) :: checks /\
    reach H0 T /\ Forall (bool_t T) asserts /\ no_apps T asserts /\ o_unassigned q_opt = false /\
    check_gv T asserts = Ok (a, x).
Proof.
  intros cs a C. assert (OK : script_ok w_new false cs) by (destruct C as [[-> ->]|[-> ->]]; [exact l_sat_ok|exact l_un_ok]). split; [exact OK|].
  split; [apply q_laws|]. split; [apply q_closed|]. cbv zeta.
  assert (L : match run_script H0 (stoks cs) with Ok k => negb (length (k_checks k) =? 0) | _ => false end = true) by (destruct C as [[-> ->]|[-> ->]]; vm_compute; reflexivity).
  assert (A : gv_answers cs a = true) by (destruct C as [[-> ->]|[-> ->]]; vm_compute; reflexivity).
  assert (N : app_free (snd (first_check cs)) = true) by (destruct C as [[-> ->]|[-> ->]]; vm_compute; reflexivity).
  destruct (first_checked cs OK L) as (k & pre & rest & checks & E & EP & EK & R & B). destruct (gv_answers_ok cs a A) as (x & EX).
  exists k, pre, rest, checks, x. split; [exact E|]. split; [exact EP|]. split; [exact EK|]. split; [exact R|]. split; [exact B|].
  split; [exact (app_free_ok _ _ N)|]. split; [reflexivity|exact EX].
Qed.
(** a problem, the state after [n] steps of its search with a restart at each conflict *)
Definition always_restart : restart_policy nat := mkRP (fun _ => true) (fun n _ _ => n) S.
Fixpoint steps {TS HS} (th : theory TS) (he : heur HS) (hash : lit -> N) (n : nat) (s : solver (TS := TS) (HS := HS)) : option (solver (TS := TS) (HS := HS)) :=
  match n with
  | 0 => Some s
  | S n' => match Solver_Model.step th he hash 50 s with Ok (s1, None) => steps th he hash n' s1 | _ => None end
  end.
Lemma steps_reach {TS HS} (th : theory TS) (he : heur HS) hash s0 : forall n s s', Spec_Sat.reach th he hash s0 s -> steps th he hash n s = Some s' -> Spec_Sat.reach th he hash s0 s'.
Proof.
  induction n as [|n IH]; intros s s' R H; cbn [steps] in H; [injection H as <-; exact R|].
  destruct (Solver_Model.step th he hash 50 s) as [[s1 [|]]| |] eqn:E; try discriminate H. eapply IH; [|exact H]. econstructor; eauto.
Qed.
Definition gv_ex := heur_of (gv_order qops (fun _ _ => [0; 1]) (fun _ => []) (fun _ _ => false)) always_restart.
Definition gv_ex0 := start ex_unsat PhasePositive (snd (fst ex_pb)) (snd ex_pb) (gv_start qops (fun _ _ => [0; 1]) (mkDb ex_unsat []) (snd ex_pb), 0).
(** the hypotheses of C62_order and C62_no_failure hold; after seven steps and two restarts the order proposes a variable *)
Example C62_order_nonvacuous :
  score_laws qops qpos /\ score_closed qops qpos /\ o_unassigned ex_opt = false /\
  problem ex_hash ex_hashq ex_opt (fst (fst ex_pb)) (snd (fst ex_pb)) (snd ex_pb) /\ clauses_in (snd ex_pb) ex_unsat /\ mnum (t_qm (snd ex_pb)) = 2 /\
  exists s ts d t h v, Spec_Sat.reach (bl_theory ex_hash ex_hashq ex_opt 50) gv_ex (fun _ => 0%N) gv_ex0 s /\
    th_propagate (bl_theory ex_hash ex_hashq ex_opt 50) 50 (s_th s) (s_db s) (s_trail s) = Ok (ts, d, t, []) /\
    h_pick gv_ex (s_he s) d t = (h, Some v) /\ snd (s_he s) = 2 /\ dl t = 1.
Proof.
  split; [apply q_laws|]. split; [apply q_closed|]. split; [reflexivity|]. split; [exact ex_problem|]. split; [apply ex_in; vm_compute; reflexivity|].
  split; [vm_compute; reflexivity|].
  assert (B : match steps (bl_theory ex_hash ex_hashq ex_opt 50) gv_ex (fun _ => 0%N) 7 gv_ex0 with
    | Some s => match th_propagate (bl_theory ex_hash ex_hashq ex_opt 50) 50 (s_th s) (s_db s) (s_trail s) with
      | Ok (ts, d, t, []) => match h_pick gv_ex (s_he s) d t with (_, Some _) => (snd (s_he s) =? 2) && (dl t =? 1) | _ => false end
      | _ => false end
    | None => false end = true) by (vm_compute; reflexivity).
  destruct (steps (bl_theory ex_hash ex_hashq ex_opt 50) gv_ex (fun _ => 0%N) 7 gv_ex0) as [s|] eqn:E; [|discriminate B].
  apply steps_reach with (s0 := gv_ex0) in E; [|constructor].
  destruct (th_propagate (bl_theory ex_hash ex_hashq ex_opt 50) 50 (s_th s) (s_db s) (s_trail s)) as [[[[ts d] t] [|]]| |] eqn:E2; try discriminate B.
  destruct (h_pick gv_ex (s_he s) d t) as [h [v|]] eqn:E3; [|discriminate B]. apply andb_true_iff in B. destruct B as [B1 B2]. apply Nat.eqb_eq in B1, B2.
  exists s, ts, d, t, h, v. auto 6.
Qed.
