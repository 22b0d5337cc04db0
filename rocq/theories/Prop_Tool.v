(** C64: the SMT tool, from the command line to the printed answer. *)
From Coq Require Import Ascii String List Arith ZArith QArith Qcanon NArith Bool Lia.
From Verif Require Import Base Core_Model Bool_Model Trail_Model Solver_Model Spec_Sat Lra_Model Terms_Model Spec_Terms Terms_Proofs TermMgr_Model Spec_TermMgr TermMgr_Base TermMgr_Term TermMgr_Main
  Spec_Visitor Internalizer_Model Spec_Internalizer Check_Model Spec_Check Ufcheck_Model Spec_Ufcheck
  Lexer_Model Spec_Print Print_Proofs Parser_Model Spec_Parser Script_Model Spec_Script Script_Text Script_Proofs Script_Sem Script_Noapps
  Order_Model Spec_Order Spec_Queue Order_Proofs Gvsids_Model Gvorder_Model Lra_Examples Prop_Terms Prop_Visitor Prop_Internalizer Prop_Parser Prop_Script Prop_Check Prop_Gvorder Prop_Ufcheck
  Tool_Model Spec_Tool Tool_Proofs.
Import ListNotations.
Close Scope Qc_scope.
Close Scope Q_scope.
Open Scope nat_scope.

(** ** The command line *)
(** The options mean what the usage message says: each flag is set iff it is given, the phase is the last known one given
    (positive by default), the input is the last argument that is no option. *)
Theorem C64_options : forall is tail, Forall item_ok is -> tail = [] \/ tail = [t_of "--phase"] ->
  exists o p, read_args (line is ++ tail) options_default [] = Some (o, p) /\
    (op_rational o = true <-> In IRational is) /\ (op_bounds o = true <-> In IBounds is) /\ (op_stats o = true <-> In IStats is) /\
    phase_asked is (op_phase o) /\ path_asked is p.
Proof. exact options_ok. Qed.
Print Assumptions C64_options.

(** The usage message is printed, and nothing is solved, iff an argument looks like an option and is none, or no input is given. *)
Theorem C64_usage : forall F (fo : fops F) RS (rp : restart_policy RS) r0 cv dec ed hi hv hash H ndebug df fuel files args,
  smt_tool fo rp r0 cv dec ed hi hv hash H ndebug df fuel files args = Ok PUsage <->
  (exists is a rest, Forall item_ok is /\ args = line is ++ a :: rest /\ unrecognized a) \/
  (exists is tail, Forall item_ok is /\ args = line is ++ tail /\ (tail = [] \/ tail = [t_of "--phase"]) /\ path_asked is []).
Proof.
  intros F fo RS rp r0 cv dec ed hi hv hash H ndebug df fuel files args. split.
  - intros E. destruct (lines (List.length args) args (le_n _)) as [(is & tl & F1 & -> & T)|X]; [|left; exact X].
    right. exists is, tl. split; [exact F1|]. split; [reflexivity|]. split; [exact T|].
    destruct (options_ok is tl F1 T) as (o & p & R & _ & _ & _ & _ & P). unfold smt_tool in E. rewrite R in E. destruct p as [|c p]; [exact P|]. exfalso.
    destruct (files (c :: p)); [|discriminate]. destruct (value_of _); cbn [bind] in E; try discriminate. destruct (run_to_check _ _ _ _ _) as [[[set k]|]| |]; cbn [bind] in E; try discriminate.
    destruct (k_checks k) as [|x l]; [discriminate|]. destruct (answer_check fo rp r0 cv dec ed hi hv hash ndebug df fuel o set (k_uf k) x); discriminate.
  - intros [(is & a & rest & F1 & -> & U)|(is & tl & F1 & -> & T & P)]; unfold smt_tool.
    + rewrite (read_unrecognized is a rest F1 U). reflexivity.
    + destruct (options_ok is tl F1 T) as (o & p & R & _ & _ & _ & _ & Q). rewrite R, (path_unique is p [] Q P). reflexivity.
Qed.
Print Assumptions C64_usage.

(** ** The answer *)
(** A well-sorted script in a file, named on the command line with any options. *)
Section Answer.
Context {F RS : Type}.
Variables (fo : fops F) (good : F -> Prop) (rp : restart_policy RS) (r0 : RS).
Hypothesis laws : score_laws fo good.
Hypothesis closed : score_closed fo good.
Variables (cv : nat -> nat -> list nat) (dec : nat -> list nat) (ed : nat -> nat -> bool).
Variables (hi : nat -> Z) (hv : Q -> Z) (hash : lit -> N) (H : hashes) (ndebug : bool) (df fuel : nat).
Notation tool := (smt_tool fo rp r0 cv dec ed hi hv hash H ndebug df fuel).
Variables (files : text -> option text) (is : list item) (tail : list text) (p : text) (cs : list command).
Hypothesis IO : Forall item_ok is.
Hypothesis TO : tail = [] \/ tail = [t_of "--phase"].
Hypothesis PO : path_asked is p.
Hypothesis PN : p <> [].
Hypothesis FO : files p = Some (stext cs).
Hypothesis LO : Forall lexical cs.
Hypothesis SO : script_ok w_new false cs.

Lemma tool_unfold : exists o, ((op_bounds o = true <-> In IBounds is) /\ (op_rational o = true <-> In IRational is) /\ phase_asked is (op_phase o)) /\ tool files (line is ++ tail) =
  (r <- run_to_check H (S (List.length (stoks cs))) false (k_new H) (stoks cs) ;;
   match r with
   | None => Ok PNothing
   | Some (set, k) => match k_checks k with [] => Ok PNothing | c :: _ => a <- answer_check fo rp r0 cv dec ed hi hv hash ndebug df fuel o set (k_uf k) c ;; Ok (PAnswer a) end
   end).
Proof.
  destruct (options_ok is tail IO TO) as (o & q & R & OR & OB & _ & OP & Q). pose proof (path_unique is q p Q PO) as ->.
  exists o. split; [auto|]. unfold smt_tool. rewrite R. destruct p as [|c p']; [congruence|]. rewrite FO, (C60_text cs LO). reflexivity.
Qed.
Lemma tool_check pre rest out : checked [] cs = pre :: rest -> tool files (line is ++ tail) = Ok out ->
  exists o k a T ans, out = PAnswer ans /\ k_checks k = [(a, T)] /\ run_script H (stoks (pre ++ [KCheck])) = Ok k /\ effects H (k_new H) (pre ++ [KCheck]) = Ok k /\
    script_ok w_new false (pre ++ [KCheck]) /\ checked [] (pre ++ [KCheck]) = [pre] /\ ((op_bounds o = true <-> In IBounds is) /\ (op_rational o = true <-> In IRational is) /\ phase_asked is (op_phase o)) /\
    answer_check fo rp r0 cv dec ed hi hv hash ndebug df fuel o (told (logic_after pre)) (isuf (logic_after pre)) (a, T) = Ok ans.
Proof.
  intros CP E. destruct tool_unfold as (o & OO & E2). rewrite E2 in E.
  destruct (run_to_check H _ _ _ _) as [r| |] eqn:ER; cbn [bind] in E; try discriminate.
  destruct (run_first H cs pre rest _ r SO CP (stoks_length cs) ER) as (k & [a T] & -> & CK & U & RS1 & EF & OK & CH). rewrite CK, U in E.
  destruct (answer_check _ _ _ _ _ _ _ _ _ _ _ _ _ _ _ _) as [ans| |] eqn:EA; cbn [bind] in E; try discriminate. injection E as <-.
  exists o, k, a, T, ans. repeat (split; [assumption || reflexivity|]). exact EA.
Qed.
End Answer.

(** The options reach the solver: the answer is that of a check with derived bounds iff --deduce-bounds is given, with effectively decided
    variables iff --prop-rational is given, and with the phase asked for. *)
Theorem C64_effect : forall F (fo : fops F) RS (rp : restart_policy RS) r0 cv dec ed hi hv hash H ndebug df fuel files is tail p cs pre rest ans,
  Forall item_ok is -> tail = [] \/ tail = [t_of "--phase"] -> path_asked is p -> p <> [] -> files p = Some (stext cs) ->
  Forall lexical cs -> script_ok w_new false cs -> checked [] cs = pre :: rest ->
  smt_tool fo rp r0 cv dec ed hi hv hash H ndebug df fuel files (line is ++ tail) = Ok (PAnswer ans) ->
  exists k a T opt ph uf, run_script H (stoks (pre ++ [KCheck])) = Ok k /\ k_checks k = [(a, T)] /\ logic_after pre = Some uf /\
    (o_bounds opt = true <-> In IBounds is) /\ (o_rational opt = true <-> In IRational is) /\ o_unassigned opt = false /\ o_all opt = true /\ phase_asked is ph /\
    let he := heur_of (gv_order fo cv dec ed) rp in let hs := fun d t => (gv_start fo cv d t, r0) in
    if uf then exists x, check_assertions_uf hi hv opt ndebug T he hash df fuel ph hs a = Ok (ans, x)
    else exists x, check_assertions hi hv opt ndebug he hash df fuel ph hs T a = Ok (ans, x).
Proof.
  intros F fo RS rp r0 cv dec ed hi hv hash H ndebug df fuel files is tail p cs pre rest ans IO TO PO PN FO LO SO CP E.
  destruct (tool_check fo rp r0 cv dec ed hi hv hash H ndebug df fuel files is tail p cs IO TO PO PN FO LO SO pre rest _ CP E)
    as (o & k & a & T & ans' & X & CK & RS1 & EF & OK & CH & (OB & OR & OP) & EA). injection X as <-.
  unfold answer_check in EA. destruct (logic_after pre) as [uf|]; [|discriminate]. cbn [told isuf assertb bind snd fst] in EA.
  exists k, a, T, (lra_options o), (op_phase o), uf. repeat (split; [assumption || reflexivity|]). cbv zeta.
  destruct uf.
  - destruct (check_assertions_uf _ _ _ _ _ _ _ _ _ _ _ _) as [[ans1 x]| |] eqn:EC; cbn [bind] in EA; try discriminate. injection EA as ->. eauto.
  - destruct (check_assertions _ _ _ _ _ _ _ _ _ _ _ _) as [[ans1 x]| |] eqn:EC; cbn [bind] in EA; try discriminate. injection EA as ->. eauto.
Qed.
Print Assumptions C64_effect.

(** For QF_LRA the first answer is the right one for the commands before the first check-sat. *)
Theorem C64_lra : forall F (fo : fops F) good RS (rp : restart_policy RS) r0 cv dec ed hi hv hash H ndebug df fuel files is tail p cs pre rest ans,
  score_laws fo good -> score_closed fo good ->
  Forall item_ok is -> tail = [] \/ tail = [t_of "--phase"] -> path_asked is p -> p <> [] -> files p = Some (stext cs) ->
  Forall lexical cs -> script_ok w_new false cs -> checked [] cs = pre :: rest -> ~ In (KLogic true) pre ->
  smt_tool fo rp r0 cv dec ed hi hv hash H ndebug df fuel files (line is ++ tail) = Ok (PAnswer ans) ->
  match ans with Unsat => ~ script_sat pre | Sat => script_sat pre end.
Proof.
  intros F fo good RS rp r0 cv dec ed hi hv hash H ndebug df fuel files is tail p cs pre rest ans LW CL IO TO PO PN FO LO SO CP NL E.
  destruct (tool_check fo rp r0 cv dec ed hi hv hash H ndebug df fuel files is tail p cs IO TO PO PN FO LO SO pre rest _ CP E)
    as (o & k & a & T & ans' & X & CK & RS1 & EF & OK & CH & _ & EA). injection X as <-.
  assert (UF : isuf (logic_after pre) = false).
  { unfold logic_after. assert (G : forall l, isuf l = false -> isuf (fold_left (fun l c => match c with KLogic b => Some b | _ => l end) pre l) = false).
    { clear - NL. induction pre as [|c pre IH]; intros l Hl; [exact Hl|]. cbn [fold_left]. apply IH; [intros X; apply NL; right; exact X|].
      destruct c; try exact Hl. destruct uf; [contradiction NL; left; reflexivity|reflexivity]. }
    apply G. reflexivity. }
  unfold answer_check in EA. rewrite UF in EA. destruct (assertb _); cbn [bind snd fst] in EA; try discriminate.
  destruct (check_assertions _ _ _ _ _ _ _ _ _ _ _ _) as [[ans1 x]| |] eqn:EC; cbn [bind] in EA; try discriminate. injection EA as ->.
  assert (CK2 : rev (k_checks k) = [(a, T)]) by (rewrite CK; reflexivity).
  pose proof (C62_script F fo good RS rp r0 cv dec ed hi hv (lra_options o) ndebug H (pre ++ [KCheck]) k pre [] a T [] hash df fuel (op_phase o) x ans LW CL OK RS1 CH CK2 eq_refl EC) as R.
  destruct ans; [|exact R]. apply R. apply (script_noapps H (pre ++ [KCheck]) k a T); [|exact EF|rewrite CK; left; reflexivity].
  intros X. apply in_app_or in X. destruct X as [X|[X|[]]]; [exact (NL X)|discriminate].
Qed.
Print Assumptions C64_lra.

(** For QF_UFLRA so it is, if the applications among the assertions are of the kind C63 is about. *)
Theorem C64_uflra : forall F (fo : fops F) good RS (rp : restart_policy RS) r0 cv dec ed hi hv hash H ndebug df fuel files is tail p cs pre rest ans,
  score_laws fo good -> score_closed fo good ->
  Forall item_ok is -> tail = [] \/ tail = [t_of "--phase"] -> path_asked is p -> p <> [] -> files p = Some (stext cs) ->
  Forall lexical cs -> script_ok w_new false cs -> checked [] cs = pre :: rest -> logic_after pre = Some true ->
  (forall k a T, run_script H (stoks (pre ++ [KCheck])) = Ok k -> k_checks k = [(a, T)] -> real_functions T a) ->
  smt_tool fo rp r0 cv dec ed hi hv hash H ndebug df fuel files (line is ++ tail) = Ok (PAnswer ans) ->
  match ans with Unsat => ~ script_sat pre | Sat => script_sat pre end.
Proof.
  intros F fo good RS rp r0 cv dec ed hi hv hash H ndebug df fuel files is tail p cs pre rest ans LW CL IO TO PO PN FO LO SO CP UL RF E.
  destruct (tool_check fo rp r0 cv dec ed hi hv hash H ndebug df fuel files is tail p cs IO TO PO PN FO LO SO pre rest _ CP E)
    as (o & k & a & T & ans' & X & CK & RS1 & EF & OK & CH & _ & EA). injection X as <-. specialize (RF k a T RS1 CK).
  unfold answer_check in EA. rewrite UL in EA. cbn [told isuf assertb bind snd fst] in EA.
  destruct (check_assertions_uf _ _ _ _ _ _ _ _ _ _ _ _) as [[ans1 x]| |] eqn:EC; cbn [bind] in EA; try discriminate. injection EA as ->.
  assert (CK2 : rev (k_checks k) = [(a, T)]) by (rewrite CK; reflexivity).
  pose proof (C60_checks H _ k OK RS1) as FF. rewrite CH, CK2 in FF. inversion FF as [|? ? ? ? (R & B & _) _]; subst. cbn [fst snd] in R, B.
  exact (C63_script hi hv (lra_options o) ndebug H (pre ++ [KCheck]) k pre [] a T [] _ _ hash df fuel (op_phase o) _ x ans OK RS1 CH CK2 RF eq_refl
    (ugv_checks F fo good RS rp r0 cv dec ed hi hv (lra_options o) ndebug hash df (op_phase o) H T a LW CL eq_refl R B RF) EC).
Qed.
Print Assumptions C64_uflra.

(** An answer is printed only if there is a check-sat and a logic was set before it; with neither check-sat nor a failing command, none is. *)
Theorem C64_printed : forall F (fo : fops F) RS (rp : restart_policy RS) r0 cv dec ed hi hv hash H ndebug df fuel files is tail p cs,
  Forall item_ok is -> tail = [] \/ tail = [t_of "--phase"] -> path_asked is p -> p <> [] -> files p = Some (stext cs) ->
  Forall lexical cs -> script_ok w_new false cs ->
  let run := smt_tool fo rp r0 cv dec ed hi hv hash H ndebug df fuel files (line is ++ tail) in
  match checked [] cs with
  | pre :: _ => forall out, run = Ok out -> (exists ans, out = PAnswer ans) /\ logic_after pre <> None
  | [] => script_simple w_new cs -> run = Ok PNothing
  end.
Proof.
  intros F fo RS rp r0 cv dec ed hi hv hash H ndebug df fuel files is tail p cs IO TO PO PN FO LO SO run.
  destruct (checked [] cs) as [|pre rest] eqn:CP.
  - intros SS. destruct (tool_unfold fo rp r0 cv dec ed hi hv hash H ndebug df fuel files is tail p cs IO TO PO PN FO LO) as (o & _ & E). unfold run. rewrite E.
    destruct (run_total H cs (k_new H) w_new false (inv_new H) SO SS) as (k' & EE).
    rewrite (run_none H cs [] _ false (k_new H) k' (script_sorts _ _ _ SO) CP EE eq_refl) by (pose proof (stoks_length cs); lia). reflexivity.
  - intros out E. destruct (tool_check fo rp r0 cv dec ed hi hv hash H ndebug df fuel files is tail p cs IO TO PO PN FO LO SO pre rest _ CP E)
      as (o & k & a & T & ans' & -> & _ & _ & _ & _ & _ & _ & EA). split; [eauto|]. intros N. unfold answer_check in EA. rewrite N in EA. discriminate.
Qed.
Print Assumptions C64_printed.

(** *** Examples: the scripts of C62 and C63 in a file, solved with two options *)
Definition x_line : list item := [IBounds; IPhase (t_of "cache"); IPath (t_of "a.smt2")].
Definition x_files (cs : list command) (p : text) : option text := if text_eqb p (t_of "a.smt2") then Some (stext cs) else None.
Definition x_tool (cs : list command) := smt_tool qops glucose_restart glucose_start (fun _ _ => [0; 1]) (fun _ => []) (fun _ _ => false) ex_hash ex_hashq (fun _ => 0%N) H0 false 50 200
  (x_files cs) (line x_line).
Definition x_answers (cs : list command) (a : answer) : bool :=
  match x_tool cs, a with Ok (PAnswer Sat), Sat => true | Ok (PAnswer Unsat), Unsat => true | _, _ => false end.
Lemma x_answers_ok cs a : x_answers cs a = true -> x_tool cs = Ok (PAnswer a).
Proof. unfold x_answers. destruct (x_tool cs) as [[| | |[|]]| |]; destruct a; try discriminate; reflexivity. Qed.
Lemma x_line_ok : Forall item_ok x_line /\ path_asked x_line (t_of "a.smt2") /\ phase_asked x_line PhaseCache.
Proof.
  split; [|split].
  - repeat constructor. intros (r & E). discriminate.
  - left. exists [IBounds; IPhase (t_of "cache")], []. split; [reflexivity|intros q []].
  - left. exists [IBounds], (t_of "cache"), [IPath (t_of "a.smt2")]. split; [reflexivity|]. split; [constructor|]. intros w q [X|[]]. discriminate.
Qed.
Lemma x_lexical : Forall lexical l_sat /\ Forall lexical l_un /\ Forall lexical u_sat /\ Forall lexical u_un.
Proof. unfold l_sat, l_un, u_sat, u_un, l_decl, u_decl. cbn [app]. repeat split; klex. Qed.
Example C64_nonvacuous : forall cs a, In (cs, a) [(l_sat, Sat); (l_un, Unsat); (u_sat, Sat); (u_un, Unsat)] ->
  Forall item_ok x_line /\ path_asked x_line (t_of "a.smt2") /\ t_of "a.smt2" <> [] /\ x_files cs (t_of "a.smt2") = Some (stext cs) /\
  Forall lexical cs /\ script_ok w_new false cs /\ x_tool cs = Ok (PAnswer a).
Proof.
  intros cs a I. destruct x_line_ok as (X1 & X2 & _). split; [exact X1|]. split; [exact X2|]. split; [discriminate|]. split; [reflexivity|].
  destruct x_lexical as (L1 & L2 & L3 & L4).
  assert (A : x_answers cs a = true) by (destruct I as [I|[I|[I|[I|[]]]]]; injection I as <- <-; vm_compute; reflexivity).
  split; [|split; [|exact (x_answers_ok cs a A)]].
  - destruct I as [I|[I|[I|[I|[]]]]]; injection I as <- <-; assumption.
  - destruct I as [I|[I|[I|[I|[]]]]]; injection I as <- <-; [exact l_sat_ok|exact l_un_ok|exact u_sat_ok|exact u_un_ok].
Qed.
(** the remaining hypotheses of C64_uflra for the last two *)
Lemma x_real cs : cs = u_sat \/ cs = u_un -> forall k a T, run_script H0 (stoks cs) = Ok k -> k_checks k = [(a, T)] -> real_functions T a.
Proof.
  intros C k a T E K. assert (OK : script_ok w_new false cs) by (destruct C as [->| ->]; [exact u_sat_ok|exact u_un_ok]).
  assert (N : match run_script H0 (stoks cs) with Ok k => match k_checks k with [(_, T)] => rf_ok T | _ => false end | _ => false end = true) by (destruct C as [->| ->]; vm_compute; reflexivity).
  rewrite E, K in N. pose proof (C60_checks H0 cs k OK E) as FF. rewrite K in FF. inversion FF as [|? ? ? ? (R & B & _) _]; subst. cbn [fst snd] in R, B.
  exact (rf_ok_ok H0 T a (reach_wf _ _ R) B N).
Qed.
Example C64_uflra_nonvacuous : logic_after u_decl = Some true /\ checked [] u_sat = [u_decl] /\ ~ In (KLogic true) l_decl /\ checked [] l_sat = [l_decl] /\
  (forall k a T, run_script H0 (stoks (u_decl ++ [KCheck])) = Ok k -> k_checks k = [(a, T)] -> real_functions T a).
Proof.
  split; [reflexivity|]. split; [reflexivity|]. split; [cbn; intuition discriminate|]. split; [reflexivity|]. apply (x_real u_sat). left. reflexivity.
Qed.
(** an unknown option, and a line without a file *)
Example C64_usage_nonvacuous : unrecognized (t_of "--verbose") /\ (exists is, Forall item_ok is /\ path_asked is [] /\ line is = [t_of "--phase"; t_of "negative"]).
Proof.
  split.
  - split; [eexists; reflexivity|]. cbn [In]. intuition discriminate.
  - exists [IPhase (t_of "negative")]. split; [repeat constructor|]. split; [|reflexivity]. right. split; [reflexivity|]. intros q [X|[]]. discriminate.
Qed.
