(** C65: with every option of the command line a check of a QF_LRA problem fails no assertion. [UB] is the result of the model wherever the code
    would violate an assertion, index a container out of its range, read an empty optional or throw. *)
From Coq Require Import Ascii String List Arith ZArith QArith Qcanon NArith Bool Lia.
From Verif Require Import Base Core_Model Bool_Model Trail_Model Spec_Trail Solver_Model Spec_Sat Spec_Theory Theory_Toy
  Lincons_Model Spec_Lincons Lra_Model Lra_Examples Comb_Model Spec_Comb Comb_Final Prop_Comb
  Terms_Model Spec_Terms Terms_Proofs TermMgr_Model Spec_TermMgr TermMgr_Base TermMgr_Term TermMgr_Main Spec_Visitor
  Internalizer_Model Spec_Internalizer Internalizer_Main Check_Model Spec_Check Check_Proofs
  Lexer_Model Spec_Print Print_Proofs Parser_Model Spec_Parser Script_Model Spec_Script Script_Text Script_Proofs Script_Sem Script_Noapps
  Order_Model Spec_Order Spec_Queue Order_Proofs Gvsids_Model Gvorder_Model Prop_Terms Prop_Visitor Prop_Internalizer Prop_Parser Prop_Script Prop_Check
  Prop_Gvorder Tool_Model Spec_Tool Tool_Proofs Prop_Tool Theory_Safe Comb_Safe1 Comb_Safe5 Check_Safe.
Import ListNotations.
Close Scope Qc_scope.
Close Scope Q_scope.
Open Scope nat_scope.

(** A check of clauses over booleans and linear constraints, for every setting of the options of the command line; the tool never sets
    the option of Linear_arithmetic that tries unassigned constraints. *)
Theorem C65 : forall hi hv opt HS (he : heur HS) hash df fuel h a t cs o hs,
  o_unassigned opt = false -> problem hi hv opt h a t -> clauses_in t cs -> (forall c, In c cs -> c <> []) ->
  picks_unassigned (bl_theory hi hv opt df) he hash (start cs o a t hs) ->
  check_lra hi hv opt he hash df fuel cs o a t hs <> UB.
Proof.
  intros hi hv opt HS he hash df fuel h a t cs o hs HU HPb HV HN HP.
  exact (check_safe hi hv opt HU he hash df h a t cs o hs HPb HV HN HP fuel).
Qed.
Print Assumptions C65.

(** With the solver's variable order; its own assertions do not fail either. *)
Theorem C65_order : forall F (fo : fops F) good RS (rp : restart_policy RS) r0 cv dec ed hi hv opt hash df fuel h a t cs o,
  score_laws fo good -> score_closed fo good -> o_unassigned opt = false -> problem hi hv opt h a t -> clauses_in t cs -> (forall c, In c cs -> c <> []) ->
  (forall n, dec n = []) -> (forall n b x, In x (cv n b) -> x < mnum (t_qm t)) ->
  let th := bl_theory hi hv opt df in
  let he := heur_of (gv_order fo cv dec ed) rp in
  let s0 := start cs o a t (gv_start fo cv (mkDb cs []) t, r0) in
  check_lra hi hv opt he hash df fuel cs o a t (gv_start fo cv (mkDb cs []) t, r0) <> UB /\
  forall s, Spec_Sat.reach th he hash s0 s -> fst (fst (s_he s)) <> None.
Proof.
  intros F fo good RS rp r0 cv dec ed hi hv opt hash df fuel h a t cs o LW CL PO HPb HV HN D V th he s0. split.
  - apply (C65 hi hv opt _ he hash df fuel h); auto.
    exact (proj1 (C62_order F fo good RS rp r0 cv dec ed hi hv opt hash df h a t cs o LW CL PO HPb HV)).
  - intros s R. exact (proj1 (C62_no_failure F fo good RS rp r0 cv dec ed hi hv opt hash df h a t cs o LW CL PO HPb HV D V s R)).
Qed.
Print Assumptions C65_order.

(** A check of well-sorted assertions, translation included. *)
Theorem C65_assertions : forall F (fo : fops F) good RS (rp : restart_policy RS) r0 cv dec ed hi hv opt ndebug H T assertions hash df fuel o,
  score_laws fo good -> score_closed fo good -> o_unassigned opt = false -> reach H T -> Forall (bool_t T) assertions ->
  supported ndebug T assertions \/ no_apps T assertions ->
  check_assertions hi hv opt ndebug (heur_of (gv_order fo cv dec ed) rp) hash df fuel o (fun d t => (gv_start fo cv d t, r0)) T assertions <> UB.
Proof.
  intros F fo good RS rp r0 cv dec ed hi hv opt ndebug H T assertions hash df fuel o LW CL HU R B SP.
  apply (assertions_safe hi hv opt HU ndebug H T (reach_wf H T R) assertions B).
  - destruct (C47_total ndebug hi hv H T assertions R B SP) as (x & E). rewrite E. discriminate.
  - intros p st a t TR RP. exact (proj1 (gv_checks F fo good RS rp r0 cv dec ed hi hv opt ndebug hash df o H T assertions LW CL HU R B p st a t TR RP)).
Qed.
Print Assumptions C65_assertions.

(** The tool on a well-sorted QF_LRA script in a file, up to the first answer. That the terms
    of the script can be built is assumed here; by C60_total_partial it holds for the scripts called simple there, but not for all (C42_total_refuted). *)
Section Run.
Variable H : hashes.
Lemma run_some cs : forall n set k k', csorts cs -> effects H k cs = Ok k' -> k_checks k = [] -> List.length cs < n ->
  exists r, run_to_check H n set k (stoks cs) = Ok r.
Proof.
  induction cs as [|c cs IH]; intros n set k k' SO E CK L; (destruct n as [|n]; [cbn [List.length] in L; lia|]).
  - exists None. cbn [stoks flat_map run_to_check parse_command bind]. rewrite CK. reflexivity.
  - assert (D : c = KCheck \/ c = KExit \/ quiet c) by (destruct c; (left; reflexivity) || (right; left; reflexivity) || (right; right; split; discriminate)).
    destruct D as [->|[->|[D1 D2]]].
    + eexists. cbn [stoks flat_map run_to_check]. rewrite command_effect by (exact I || discriminate). cbn [effect bind k_checks]. reflexivity.
    + exists None. cbn. rewrite CK. reflexivity.
    + assert (S2 : csorts_ok c /\ csorts cs) by (destruct c; congruence || exact SO). destruct S2 as [S1 S2].
      assert (E2 : effects H k (c :: cs) = (k' <- effect H k c ;; effects H k' cs)) by (destruct c; congruence || reflexivity). rewrite E2 in E.
      cbn [stoks flat_map run_to_check]. fold (stoks cs). rewrite command_effect by auto. destruct (effect H k c) as [k1| |] eqn:EF; cbn [bind] in E |- *; try discriminate.
      assert (CK2 : k_checks k1 = []) by (rewrite (effect_checks H k c k1 EF); destruct c; congruence || exact CK). rewrite CK2.
      apply (IH n _ k1 k' S2); auto. cbn [List.length] in L. lia.
Qed.
End Run.

Theorem C65_tool : forall F (fo : fops F) good RS (rp : restart_policy RS) r0 cv dec ed hi hv hash H ndebug df fuel files is tail p cs,
  score_laws fo good -> score_closed fo good ->
  Forall item_ok is -> tail = [] \/ tail = [t_of "--phase"] -> path_asked is p -> p <> [] -> files p = Some (stext cs) ->
  Forall lexical cs -> script_ok w_new false cs -> (exists k, run_script H (stoks cs) = Ok k) ->
  (forall pre rest, checked [] cs = pre :: rest -> In (KLogic false) pre /\ ~ In (KLogic true) pre) ->
  let run := smt_tool fo rp r0 cv dec ed hi hv hash H ndebug df fuel files (line is ++ tail) in
  run <> UB /\
  forall out, run = Ok out -> match checked [] cs with
    | [] => out = PNothing
    | pre :: _ => (out = PAnswer Sat /\ script_sat pre) \/ (out = PAnswer Unsat /\ ~ script_sat pre)
    end.
Proof.
  intros F fo good RS rp r0 cv dec ed hi hv hash H ndebug df fuel files is tail p cs LW CL IO TO PO PN FO LO SO (k' & EE) LG run.
  rewrite (run_effects H cs (script_sorts _ _ _ SO)) in EE.
  pose proof (C64_printed F fo RS rp r0 cv dec ed hi hv hash H ndebug df fuel files is tail p cs IO TO PO PN FO LO SO) as PR. fold run in PR.
  destruct (checked [] cs) as [|pre rest] eqn:CP.
  { destruct (tool_unfold fo rp r0 cv dec ed hi hv hash H ndebug df fuel files is tail p cs IO TO PO PN FO LO) as (o & _ & E). unfold run. rewrite E.
    rewrite (run_none H cs [] _ false (k_new H) k' (script_sorts _ _ _ SO) CP EE eq_refl) by (pose proof (stoks_length cs); lia).
    split; [discriminate|]. intros out [= <-]. reflexivity. }
  destruct (LG pre rest eq_refl) as [L1 L2]. split.
  - unfold run. destruct (tool_unfold fo rp r0 cv dec ed hi hv hash H ndebug df fuel files is tail p cs IO TO PO PN FO LO) as (o & _ & ->).
    destruct (run_some H cs (S (List.length (stoks cs))) false (k_new H) k' (script_sorts _ _ _ SO) EE eq_refl) as (r & ER); [pose proof (stoks_length cs); lia|].
    rewrite ER. cbn [bind].
    destruct (run_first H cs pre rest _ r SO CP (stoks_length cs) ER) as (k & [a T] & -> & CK & U & RS1 & EF & OK & CH). rewrite CK, U.
    assert (LA : logic_after pre = Some false).
    { unfold logic_after. assert (G : forall l, (l = Some false \/ In (KLogic false) pre) ->
        fold_left (fun l c => match c with KLogic b => Some b | _ => l end) pre l = Some false).
      { clear - L2. induction pre as [|c pre IH]; intros l Hl; [destruct Hl as [Hl|[]]; exact Hl|]. cbn [fold_left]. apply IH; [intros X; apply L2; right; exact X|].
        destruct Hl as [->|[->|Hl]]; [left|left; reflexivity|right; exact Hl].
        destruct c; try reflexivity. destruct uf; [contradiction L2; left; reflexivity|reflexivity]. }
      apply G. right. exact L1. }
    rewrite LA. apply bind_ub; [|discriminate]. unfold answer_check. cbn [told isuf assertb bind fst snd].
    apply bind_ub; [|intros [a0 x] _; discriminate].
    assert (CK2 : rev (k_checks k) = [(a, T)]) by (rewrite CK; reflexivity).
    pose proof (C60_checks H _ k OK RS1) as FF. rewrite CH, CK2 in FF. inversion FF as [|? ? ? ? (R & B & _) _]; subst. cbn [fst snd] in R, B.
    apply (C65_assertions F fo good RS rp r0 cv dec ed hi hv (lra_options o) ndebug H T a hash df fuel (op_phase o) LW CL); auto.
    right. apply (script_noapps H (pre ++ [KCheck]) k a T); [|exact EF|rewrite CK; left; reflexivity].
      intros X. apply in_app_or in X. destruct X as [X|[X|[]]]; [exact (L2 X)|discriminate].
  - intros out E. destruct (PR out E) as [[ans ->] _].
    pose proof (C64_lra F fo good RS rp r0 cv dec ed hi hv hash H ndebug df fuel files is tail p cs pre rest ans LW CL IO TO PO PN FO LO SO CP L2 E) as A.
    destruct ans; [left|right]; split; auto.
Qed.
Print Assumptions C65_tool.

(** *** Examples *)
(** C65 with --deduce-bounds and --prop-rational and the problems of C56 and C57: both checks end, the first one with learned clauses *)
Definition d_pb : list (Spec_Lincons.request * lit) * lra * trail :=
  match make_all ex_opt ex_qs (ex_start 1 2) with Ok x => x | _ => ([], lra_new, trail_new 0 0) end.
Lemma d_problem : problem ex_hash ex_hashq ex_opt (fst (fst d_pb)) (snd (fst d_pb)) (snd d_pb).
Proof.
  assert (P0 : problem ex_hash ex_hashq ex_opt [] (with_st lra_new (lc_resize (l_st lra_new) 1)) (trail_resize (trail_new 0 0) 1 2))
    by (apply pb_vars; [constructor|cbn; lia|cbn; lia]).
  unfold d_pb. destruct (make_all ex_opt ex_qs (ex_start 1 2)) as [[[h a] t]| |] eqn:E; [|vm_compute in E; discriminate E..].
  exact (make_all_problem ex_opt 2 ex_qs ex_qs_ok _ _ _ _ _ _ P0 eq_refl E).
Qed.
Lemma d_in cs : forallb (fun c => negb (length c =? 0) && forallb (fun l => lord l <? mnum (t_bm (snd d_pb))) c) cs = true ->
  clauses_in (snd d_pb) cs /\ forall c, In c cs -> c <> [].
Proof.
  intros H. rewrite forallb_forall in H. split.
  - intros c l Hc Hl. specialize (H c Hc). apply andb_true_iff in H. destruct H as [_ H]. rewrite forallb_forall in H. now apply Nat.ltb_lt, H.
  - intros c Hc ->. specialize (H [] Hc). discriminate H.
Qed.
Example C65_nonvacuous : forall cs, cs = ex_sat \/ cs = ex_unsat ->
  o_unassigned ex_opt = false /\ problem ex_hash ex_hashq ex_opt (fst (fst d_pb)) (snd (fst d_pb)) (snd d_pb) /\
  clauses_in (snd d_pb) cs /\ (forall c, In c cs -> c <> []) /\
  picks_unassigned (bl_theory ex_hash ex_hashq ex_opt 50) toy_heur (fun _ => 0%N) (start cs PhasePositive (snd (fst d_pb)) (snd d_pb) tt) /\
  exists s' a, check_lra ex_hash ex_hashq ex_opt toy_heur (fun _ => 0%N) 50 50 cs PhasePositive (snd (fst d_pb)) (snd d_pb) tt = Ok (s', a) /\
    (cs = ex_unsat -> a = Unsat /\ 1 <= length (learned (s_db s'))).
Proof.
  intros cs HC. split; [reflexivity|]. split; [exact d_problem|].
  assert (I : clauses_in (snd d_pb) cs /\ forall c, In c cs -> c <> []) by (apply d_in; destruct HC as [->| ->]; vm_compute; reflexivity).
  destruct I as [I1 I2]. split; [exact I1|]. split; [exact I2|]. split; [apply toy_picks|].
  destruct HC as [->| ->].
  - assert (B : match check_lra ex_hash ex_hashq ex_opt toy_heur (fun _ => 0%N) 50 50 ex_sat PhasePositive (snd (fst d_pb)) (snd d_pb) tt with Ok _ => true | _ => false end = true)
      by (vm_compute; reflexivity).
    destruct (check_lra _ _ _ _ _ _ _ _ _ _ _ _) as [[s' a]| |]; try discriminate B. exists s', a. split; [reflexivity|discriminate].
  - assert (B : match check_lra ex_hash ex_hashq ex_opt toy_heur (fun _ => 0%N) 50 50 ex_unsat PhasePositive (snd (fst d_pb)) (snd d_pb) tt with
      Ok (s', Unsat) => 1 <=? length (learned (s_db s')) | _ => false end = true) by (vm_compute; reflexivity).
    destruct (check_lra _ _ _ _ _ _ _ _ _ _ _ _) as [[s' [|]]| |]; try discriminate B. exists s', Unsat. split; [reflexivity|]. intros _. split; [reflexivity|now apply Nat.leb_le].
Qed.
(** An empty clause cannot be given to the solver: its first literal is read. *)
Theorem C65_empty_refuted : clauses_in (snd d_pb) [[]] /\
  picks_unassigned (bl_theory ex_hash ex_hashq ex_opt 50) toy_heur (fun _ => 0%N) (start [[]] PhasePositive (snd (fst d_pb)) (snd d_pb) tt) /\
  check_lra ex_hash ex_hashq ex_opt toy_heur (fun _ => 0%N) 50 50 [[]] PhasePositive (snd (fst d_pb)) (snd d_pb) tt = UB.
Proof. split; [intros c l [<-|[]] []|]. split; [apply toy_picks|vm_compute; reflexivity]. Qed.
Print Assumptions C65_empty_refuted.

(** C65_tool for the scripts of C61, solved with --phase cache --deduce-bounds --prop-rational *)
Definition y_line : list item := [IPhase (t_of "cache"); IBounds; IRational; IPath (t_of "a.smt2")].
Definition y_tool (cs : list command) := smt_tool qops glucose_restart glucose_start (fun _ _ => [0; 1]) (fun _ => []) (fun _ _ => false) ex_hash ex_hashq (fun _ => 0%N) H0 false 50 200
  (x_files cs) (line y_line ++ []).
Example C65_tool_nonvacuous : forall cs a, In (cs, a) [(l_sat, Sat); (l_un, Unsat)] ->
  Forall item_ok y_line /\ path_asked y_line (t_of "a.smt2") /\ t_of "a.smt2" <> [] /\ x_files cs (t_of "a.smt2") = Some (stext cs) /\
  Forall lexical cs /\ script_ok w_new false cs /\ (exists k, run_script H0 (stoks cs) = Ok k) /\
  (forall pre rest, checked [] cs = pre :: rest -> In (KLogic false) pre /\ ~ In (KLogic true) pre) /\
  y_tool cs = Ok (PAnswer a).
Proof.
  intros cs a I. split; [repeat constructor; intros (r & E); discriminate|].
  split; [left; exists [IPhase (t_of "cache"); IBounds; IRational], []; split; [reflexivity|intros q []]|]. split; [discriminate|]. split; [reflexivity|].
  destruct x_lexical as (L1 & L2 & _).
  assert (A : match y_tool cs, a with Ok (PAnswer Sat), Sat => true | Ok (PAnswer Unsat), Unsat => true | _, _ => false end = true)
    by (destruct I as [I|[I|[]]]; injection I as <- <-; vm_compute; reflexivity).
  split; [destruct I as [I|[I|[]]]; injection I as <- <-; assumption|]. split; [destruct I as [I|[I|[]]]; injection I as <- <-; [exact l_sat_ok|exact l_un_ok]|].
  assert (RU : match run_script H0 (stoks cs) with Ok _ => true | _ => false end = true) by (destruct I as [I|[I|[]]]; injection I as <- <-; vm_compute; reflexivity).
  split; [destruct (run_script H0 (stoks cs)) as [k| |]; [eauto|discriminate RU|discriminate RU]|].
  split; [intros pre rest E; destruct I as [I|[I|[]]]; injection I as <- <-; cbn in E; injection E as <- <-; cbn; intuition discriminate|].
  destruct (y_tool cs) as [[| | |[|]]| |]; destruct a; try discriminate A; reflexivity.
Qed.
