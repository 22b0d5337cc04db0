(** C67: scripts whose expressions are linear as the SMT-LIB standard defines it are read, checked without a failing assertion, and answered correctly. *)
From Coq Require Import Ascii String List Arith ZArith QArith Qcanon NArith Bool Lia.
From Verif Require Import Base Core_Model Bool_Model Trail_Model Solver_Model Spec_Sat Theory_Toy Lra_Model Lra_Examples Comb_Model Spec_Comb Prop_Comb
  Terms_Model Spec_Terms Terms_Proofs TermMgr_Model Spec_TermMgr TermMgr_Base TermMgr_Term TermMgr_Main
  Internalizer_Model Spec_Internalizer Check_Model Spec_Check
  Lexer_Model Spec_Print Print_Proofs Parser_Model Spec_Parser Parser_Scopes Parser_Proofs Parser_Sem Script_Model Spec_Script Script_Text Script_Proofs Script_Sem
  Order_Model Spec_Order Spec_Queue Gvsids_Model Gvorder_Model Prop_Terms Prop_Parser Prop_Script Prop_Check Prop_Gvorder Tool_Model Spec_Tool Tool_Proofs Prop_Tool Prop_Safe Spec_Ufcheck Prop_Ufsafe
  Spec_Linear TermMgr_Unit Parser_Linear Script_Linear.
Import ListNotations.
Close Scope Qc_scope.
Close Scope Q_scope.
Open Scope nat_scope.

(** Every well-sorted script with linear expressions is read to the end, with any relations between reals. *)
Theorem C67 : forall H cs, script_ok w_new false cs -> script_linear w_new cs -> exists k, run_script H (stoks cs) = Ok k.
Proof. intros H cs OK SL. rewrite (run_effects H cs (script_sorts cs _ _ OK)). exact (run_linear H cs (k_new H) w_new false (inv_new H) (new_nu H) OK SL). Qed.
Print Assumptions C67.

(** The tool on a QF_LRA script with linear expressions: it fails no assertion, and what it prints is right. All hypotheses are about the text
    of the command line and of the script, apart from those about floating-point scores. *)
Theorem C67_tool : forall F (fo : fops F) good RS (rp : restart_policy RS) r0 cv dec ed hi hv hash H ndebug df fuel files is tail p cs,
  score_laws fo good -> score_closed fo good ->
  Forall item_ok is -> tail = [] \/ tail = [t_of "--phase"] -> path_asked is p -> p <> [] -> files p = Some (stext cs) ->
  Forall lexical cs -> script_ok w_new false cs -> script_linear w_new cs ->
  (forall pre rest, checked [] cs = pre :: rest -> In (KLogic false) pre /\ ~ In (KLogic true) pre) ->
  let run := smt_tool fo rp r0 cv dec ed hi hv hash H ndebug df fuel files (line is ++ tail) in
  run <> UB /\
  forall out, run = Ok out -> match checked [] cs with
    | [] => out = PNothing
    | pre :: _ => (out = PAnswer Sat /\ script_sat pre) \/ (out = PAnswer Unsat /\ ~ script_sat pre)
    end.
Proof.
  intros F fo good RS rp r0 cv dec ed hi hv hash H ndebug df fuel files is tail p cs LW CL IO TO PO PN FO LO SO SL LG.
  exact (C65_tool F fo good RS rp r0 cv dec ed hi hv hash H ndebug df fuel files is tail p cs LW CL IO TO PO PN FO LO SO (C67 H cs SO SL) LG).
Qed.
Print Assumptions C67_tool.

(** The same for QF_UFLRA, where the functions of the first check are real functions as in C66. *)
Theorem C67_uflra : forall F (fo : fops F) good RS (rp : restart_policy RS) r0 cv dec ed hi hv hash H ndebug df fuel files is tail p cs pre rest,
  score_laws fo good -> score_closed fo good ->
  Forall item_ok is -> tail = [] \/ tail = [t_of "--phase"] -> path_asked is p -> p <> [] -> files p = Some (stext cs) ->
  Forall lexical cs -> script_ok w_new false cs -> script_linear w_new cs -> checked [] cs = pre :: rest -> logic_after pre = Some true ->
  (forall k a T, run_script H (stoks (pre ++ [KCheck])) = Ok k -> k_checks k = [(a, T)] -> real_functions T a /\ apps_compared ndebug T a) ->
  let run := smt_tool fo rp r0 cv dec ed hi hv hash H ndebug df fuel files (line is ++ tail) in
  run <> UB /\
  forall out, run = Ok out -> (out = PAnswer Sat /\ script_sat pre) \/ (out = PAnswer Unsat /\ ~ script_sat pre).
Proof.
  intros F fo good RS rp r0 cv dec ed hi hv hash H ndebug df fuel files is tail p cs pre rest LW CL IO TO PO PN FO LO SO SL CP LA RF.
  exact (C66_tool F fo good RS rp r0 cv dec ed hi hv hash H ndebug df fuel files is tail p cs pre rest LW CL IO TO PO PN FO LO SO (C67 H cs SO SL) CP LA RF).
Qed.
Print Assumptions C67_uflra.

(** *** A linear script with equalities and disequalities of reals, and coefficients 3, (- 2.5) and (/ (- 1) 3) *)
Definition n_of (s : string) : expr := ENum (t_of s).
Definition g_body (last : expr) : list command :=
  [KLogic false; KDeclareConst (pl "x") TReal; KDeclareConst (pl "y") TReal;
   KDefineFun (pl "s") [] TReal (p_app "+" [p_app "*" [n_of "3"; p_sym "x"]; p_app "*" [p_sym "y"; p_app "-" [EDec (t_of "2") (t_of "5")]]]);
   KAssert (p_app "=" [p_sym "s"; n_of "1"]);
   KAssert (ELet [(pl "z", p_app "*" [p_app "/" [p_app "-" [n_of "1"]; n_of "3"]; p_sym "x"])] (p_app "distinct" [p_sym "z"; p_sym "y"; n_of "0"]));
   KAssert last; KCheck].
Definition g_sat : list command := g_body (p_app "=" [p_app "/" [p_sym "x"; n_of "2"]; p_app "-" [p_sym "y"]]).
Definition g_un : list command := g_body (p_app "=" [p_sym "y"; n_of "0"]).
Lemma g_ok : script_ok w_new false g_sat /\ script_ok w_new false g_un.
Proof. unfold g_sat, g_un, g_body. split; do 8 (apply script_step; [cbn [command_ok]; cok|]); exact I. Qed.
Ltac lin := vm_compute; repeat (split || exact I || reflexivity || (left; exact I) || (eexists; reflexivity) || (let X := fresh in intros ? X; injection X as <-) || auto).
Lemma g_linear : script_linear w_new g_sat /\ script_linear w_new g_un.
Proof. split; lin; intuition eauto. Qed.
Example C67_nonvacuous : forall cs a, In (cs, a) [(g_sat, Sat); (g_un, Unsat)] ->
  Forall item_ok y_line /\ path_asked y_line (t_of "a.smt2") /\ t_of "a.smt2" <> [] /\ x_files cs (t_of "a.smt2") = Some (stext cs) /\
  Forall lexical cs /\ script_ok w_new false cs /\ script_linear w_new cs /\ ~ script_simple w_new cs /\
  (forall pre rest, checked [] cs = pre :: rest -> In (KLogic false) pre /\ ~ In (KLogic true) pre) /\
  y_tool cs = Ok (PAnswer a).
Proof.
  intros cs a I. split; [repeat constructor; intros (r & E); discriminate|].
  split; [left; exists [IPhase (t_of "cache"); IBounds; IRational], []; split; [reflexivity|intros q []]|]. split; [discriminate|]. split; [reflexivity|].
  assert (A : match y_tool cs, a with Ok (PAnswer Sat), Sat => true | Ok (PAnswer Unsat), Unsat => true | _, _ => false end = true)
    by (destruct I as [I|[I|[]]]; injection I as <- <-; vm_compute; reflexivity).
  split; [destruct I as [I|[I|[]]]; injection I as <- <-; unfold g_sat, g_un, g_body; klex|]. split; [destruct g_ok; destruct I as [I|[I|[]]]; injection I as <- <-; assumption|].
  split; [destruct g_linear; destruct I as [I|[I|[]]]; injection I as <- <-; assumption|].
  split; [destruct I as [I|[I|[]]]; injection I as <- <-; vm_compute; intuition discriminate|].
  split; [intros pre rest E; destruct I as [I|[I|[]]]; injection I as <- <-; cbn in E; injection E as <- <-; cbn; intuition discriminate|].
  destruct (y_tool cs) as [[| | |[|]]| |]; destruct a; try discriminate A; reflexivity.
Qed.
(** Outside this class a well-sorted linear script can be rejected: (= x ( * (- 1) (- x))), where a product is multiplied. *)
Definition g_bad : list command := [KLogic false; KDeclareConst (pl "x") TReal; KAssert (p_app "=" [p_sym "x"; p_app "*" [p_app "-" [n_of "1"]; p_app "-" [p_sym "x"]]]); KCheck].
Theorem C67_nested_refuted : script_ok w_new false g_bad /\ run_script H0 (stoks g_bad) = UB.
Proof. split; [unfold g_bad; do 4 (apply script_step; [cbn [command_ok]; cok|]); exact I|vm_compute; reflexivity]. Qed.
Print Assumptions C67_nested_refuted.
