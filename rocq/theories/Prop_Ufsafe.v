(** C66: the logic QF_UFLRA: a check whose functions are real functions fails no assertion. *)
From Coq Require Import Ascii String List Arith ZArith QArith Qcanon NArith Bool Lia.
From Verif Require Import Base Core_Model Bool_Model Trail_Model Spec_Trail Solver_Model Spec_Sat Spec_Theory Theory_Toy
  Lincons_Model Spec_Lincons Lra_Model Lra_Examples Comb_Model Spec_Comb Comb_Final Prop_Comb
  Terms_Model Spec_Terms Terms_Proofs TermMgr_Model Spec_TermMgr TermMgr_Base TermMgr_Term TermMgr_Main Spec_Visitor
  Internalizer_Model Spec_Internalizer Internalizer_Main Check_Model Spec_Check Check_Proofs
  Lexer_Model Spec_Print Print_Proofs Parser_Model Spec_Parser Script_Model Spec_Script Script_Text Script_Proofs Script_Sem Script_Noapps
  Order_Model Spec_Order Spec_Queue Order_Proofs Gvsids_Model Gvorder_Model Prop_Terms Prop_Visitor Prop_Internalizer Prop_Parser Prop_Script Prop_Check
  Prop_Gvorder Uf_Model Ufcheck_Model Spec_Ufcheck Prop_Ufcheck Tool_Model Spec_Tool Tool_Proofs Prop_Tool Theory_Safe Comb_Safe1 Comb_Safe5 Check_Safe
  Ufcheck_Safe Prop_Safe.
Import ListNotations.
Close Scope Qc_scope.
Close Scope Q_scope.
Open Scope nat_scope.

(** The build is one without assertions, or no equality of the assertions has an application as one of its sides (both sides a constant,
    an application, an if-then-else or, on the right, a number). *)
Definition apps_compared (ndebug : bool) (T : table) (assertions : list term) : Prop :=
  ndebug = true \/
  forall s root, In root assertions -> subterm T s root -> kind_of T s = KArithBineq -> forall a, In a (get_args T s) -> kind_of T a <> KApp.

(** A check of well-sorted assertions, translation included, with the solver's variable order and every setting of the options of the
    command line. *)
Theorem C66_assertions : forall F (fo : fops F) good RS (rp : restart_policy RS) r0 cv dec ed hi hv opt ndebug H T assertions hash df fuel o,
  score_laws fo good -> score_closed fo good -> o_unassigned opt = false -> reach H T -> Forall (bool_t T) assertions ->
  real_functions T assertions -> apps_compared ndebug T assertions ->
  check_assertions_uf hi hv opt ndebug T (heur_of (gv_order fo cv dec ed) rp) hash df fuel o (fun d t => (gv_start fo cv d t, r0)) assertions <> UB.
Proof.
  intros F fo good RS rp r0 cv dec ed hi hv opt ndebug H T assertions hash df fuel o LW CL HU R B RF AC.
  apply (uf_assertions_safe hi hv opt ndebug H T (reach_wf H T R) assertions B RF HU).
  - destruct (C47_total ndebug hi hv H T assertions R B (or_introl (real_supported hi ndebug H T (reach_wf H T R) assertions B RF AC))) as (x & E). rewrite E. discriminate.
  - exact (ugv_checks F fo good RS rp r0 cv dec ed hi hv opt ndebug hash df o H T assertions LW CL HU R B RF).
Qed.
Print Assumptions C66_assertions.
(** With any order that proposes unassigned variables of the problem. *)
Theorem C66 : forall hi hv opt ndebug H T assertions HS (he : heur HS) hash df fuel o hs,
  o_unassigned opt = false -> reach H T -> Forall (bool_t T) assertions -> real_functions T assertions -> apps_compared ndebug T assertions ->
  uf_order_ok hi hv opt ndebug he hash df o hs T assertions ->
  check_assertions_uf hi hv opt ndebug T he hash df fuel o hs assertions <> UB.
Proof.
  intros hi hv opt ndebug H T assertions HS he hash df fuel o hs HU R B RF AC OK.
  apply (uf_assertions_safe hi hv opt ndebug H T (reach_wf H T R) assertions B RF HU); [|exact OK].
  destruct (C47_total ndebug hi hv H T assertions R B (or_introl (real_supported hi ndebug H T (reach_wf H T R) assertions B RF AC))) as (x & E). rewrite E. discriminate.
Qed.
Print Assumptions C66.

(** The tool on a well-sorted QF_UFLRA script in a file, up to the first answer. *)
Theorem C66_tool : forall F (fo : fops F) good RS (rp : restart_policy RS) r0 cv dec ed hi hv hash H ndebug df fuel files is tail p cs pre rest,
  score_laws fo good -> score_closed fo good ->
  Forall item_ok is -> tail = [] \/ tail = [t_of "--phase"] -> path_asked is p -> p <> [] -> files p = Some (stext cs) ->
  Forall lexical cs -> script_ok w_new false cs -> (exists k, run_script H (stoks cs) = Ok k) ->
  checked [] cs = pre :: rest -> logic_after pre = Some true ->
  (forall k a T, run_script H (stoks (pre ++ [KCheck])) = Ok k -> k_checks k = [(a, T)] -> real_functions T a /\ apps_compared ndebug T a) ->
  let run := smt_tool fo rp r0 cv dec ed hi hv hash H ndebug df fuel files (line is ++ tail) in
  run <> UB /\
  forall out, run = Ok out -> (out = PAnswer Sat /\ script_sat pre) \/ (out = PAnswer Unsat /\ ~ script_sat pre).
Proof.
  intros F fo good RS rp r0 cv dec ed hi hv hash H ndebug df fuel files is tail p cs pre rest LW CL IO TO PO PN FO LO SO (k' & EE) CP LA RF run.
  rewrite (run_effects H cs (script_sorts _ _ _ SO)) in EE.
  pose proof (C64_printed F fo RS rp r0 cv dec ed hi hv hash H ndebug df fuel files is tail p cs IO TO PO PN FO LO SO) as PR. fold run in PR. rewrite CP in PR.
  split.
  - unfold run. destruct (tool_unfold fo rp r0 cv dec ed hi hv hash H ndebug df fuel files is tail p cs IO TO PO PN FO LO) as (o & _ & ->).
    destruct (run_some H cs (S (List.length (stoks cs))) false (k_new H) k' (script_sorts _ _ _ SO) EE eq_refl) as (r & ER); [pose proof (stoks_length cs); lia|].
    rewrite ER. cbn [bind].
    destruct (run_first H cs pre rest _ r SO CP (stoks_length cs) ER) as (k & [a T] & -> & CK & U & RS1 & EF & OK & CH). rewrite CK, U.
    rewrite LA. apply bind_ub; [|discriminate]. unfold answer_check. cbn [told isuf assertb bind fst snd].
    apply bind_ub; [|intros [a0 x] _; discriminate].
    assert (CK2 : rev (k_checks k) = [(a, T)]) by (rewrite CK; reflexivity).
    pose proof (C60_checks H _ k OK RS1) as FF. rewrite CH, CK2 in FF. inversion FF as [|? ? ? ? (R & B & _) _]; subst. cbn [fst snd] in R, B.
    destruct (RF k a T RS1 CK) as [RF1 AC].
    apply (C66_assertions F fo good RS rp r0 cv dec ed hi hv (lra_options o) ndebug H T a hash df fuel (op_phase o) LW CL); auto.
  - intros out E. destruct (PR out E) as [[ans ->] _].
    pose proof (C64_uflra F fo good RS rp r0 cv dec ed hi hv hash H ndebug df fuel files is tail p cs pre rest ans LW CL IO TO PO PN FO LO SO CP LA
      (fun k a T X Y => proj1 (RF k a T X Y)) E) as A.
    destruct ans; [left|right]; split; auto.
Qed.
Print Assumptions C66_tool.

(** *** Examples *)
Lemma x_compared cs : cs = u_sat \/ cs = u_un -> forall k a T, run_script H0 (stoks cs) = Ok k -> k_checks k = [(a, T)] -> apps_compared false T a.
Proof.
  intros C k a T E K. assert (S : match run_script H0 (stoks cs) with Ok k => forallb (fun x => supp false (snd x)) (k_checks k) | _ => false end = true)
    by (destruct C as [->| ->]; vm_compute; reflexivity).
  rewrite E, K in S. cbn [forallb snd] in S. rewrite andb_true_r in S. right. intros s root Ir Ss Ks.
  exact (proj1 (proj2 (supp_ok false T a S s root Ir Ss)) eq_refl Ks).
Qed.
(** two scripts with two applications each, solved with --phase cache --deduce-bounds --prop-rational *)
Example C66_nonvacuous : forall cs a, In (cs, a) [(u_sat, Sat); (u_un, Unsat)] ->
  Forall item_ok y_line /\ path_asked y_line (t_of "a.smt2") /\ t_of "a.smt2" <> [] /\ x_files cs (t_of "a.smt2") = Some (stext cs) /\
  Forall lexical cs /\ script_ok w_new false cs /\
  (exists k, run_script H0 (stoks cs) = Ok k) /\
  (exists pre, checked [] cs = [pre] /\ logic_after pre = Some true /\ cs = pre ++ [KCheck]) /\
  (forall k b T, run_script H0 (stoks cs) = Ok k -> k_checks k = [(b, T)] -> real_functions T b /\ apps_compared false T b) /\
  y_tool cs = Ok (PAnswer a).
Proof.
  intros cs a I. split; [repeat constructor; intros (r & E); discriminate|].
  split; [left; exists [IPhase (t_of "cache"); IBounds; IRational], []; split; [reflexivity|intros q []]|]. split; [discriminate|]. split; [reflexivity|].
  destruct x_lexical as (_ & _ & L1 & L2).
  assert (A : match y_tool cs, a with Ok (PAnswer Sat), Sat => true | Ok (PAnswer Unsat), Unsat => true | _, _ => false end = true)
    by (destruct I as [I|[I|[]]]; injection I as <- <-; vm_compute; reflexivity).
  split; [destruct I as [I|[I|[]]]; injection I as <- <-; assumption|]. split; [destruct I as [I|[I|[]]]; injection I as <- <-; [exact u_sat_ok|exact u_un_ok]|].
  assert (RU : match run_script H0 (stoks cs) with Ok _ => true | _ => false end = true) by (destruct I as [I|[I|[]]]; injection I as <- <-; vm_compute; reflexivity).
  split; [destruct (run_script H0 (stoks cs)) as [k| |]; [eauto|discriminate RU|discriminate RU]|].
  assert (C : cs = u_sat \/ cs = u_un) by (destruct I as [I|[I|[]]]; injection I as <- <-; auto).
  split; [destruct C as [->| ->]; eexists; (split; [reflexivity|split; reflexivity])|].
  split; [intros k b T E K; split; [exact (x_real cs C k b T E K)|exact (x_compared cs C k b T E K)]|].
  destruct (y_tool cs) as [[| | |[|]]| |]; destruct a; try discriminate A; reflexivity.
Qed.
(** In a build with assertions a check of (= (f x) 1) fails one. *)
Theorem C66_equality_refuted : reach H0 fx_T /\ Forall (bool_t fx_T) [mkT 7 false] /\ real_functions fx_T [mkT 7 false] /\ ~ apps_compared false fx_T [mkT 7 false] /\
  check_ugv fx_T [mkT 7 false] = UB.
Proof.
  assert (R : reach H0 fx_T) by (apply tab_reach; vm_compute; reflexivity). assert (B : Forall (bool_t fx_T) [mkT 7 false]) by (apply bools_ok; vm_compute; reflexivity).
  split; [exact R|]. split; [exact B|]. split; [apply (rf_ok_ok H0); [exact (reach_wf _ _ R)|exact B|vm_compute; reflexivity]|]. split.
  - intros [X|X]; [discriminate|]. apply (X (mkT 7 false) (mkT 7 false)) with (a := mkT 6 false); [left; reflexivity|apply sub_refl|vm_compute; reflexivity|vm_compute; auto|vm_compute; reflexivity].
  - vm_compute. reflexivity.
Qed.
Print Assumptions C66_equality_refuted.
