(** C60, C63: scripts that are answered wrongly. The findings C44_refuted (division), C45_refuted (defined functions) and C36_refuted
    (functions of Booleans) reach the answer. *)
From Coq Require Import Ascii String List Arith ZArith QArith Qcanon NArith Bool Lia.
From Verif Require Import Base Core_Model Bool_Model Trail_Model Solver_Model
  Lincons_Model Lra_Model Comb_Model Terms_Model Spec_Terms TermMgr_Model Spec_TermMgr Check_Model Spec_Check
  Lexer_Model Spec_Print Print_Proofs Parser_Model Spec_Parser Script_Model Spec_Script Prop_Terms Prop_Parser Prop_Script Order_Model Queue_Model Spec_Queue Spec_Order Gvsids_Model Order_Proofs Gvorder_Model Lra_Examples Prop_Check Prop_Gvorder
  Ufcheck_Model Prop_Ufcheck.
Import ListNotations.
Close Scope Qc_scope.
Close Scope Q_scope.
Open Scope nat_scope.

(** The check of C62 with the variable order of the program; the linear constraints of the script have the real variables [vs]. *)
Definition check_over (vs : list nat) := check_assertions ex_hash ex_hashq q_opt false (heur_of (gv_order qops (fun _ _ => vs) (fun _ => []) (fun _ _ => false)) glucose_restart)
  (fun _ => 0%N) 50 200 PhaseCache (fun d t => (gv_start qops (fun _ _ => vs) d t, glucose_start)).
(** The run of the script [cs] has one check, it is answered with sat, and no assertion of the variable order failed. *)
Definition answered_sat (vs : list nat) (cs : list command) : Prop :=
  exists k asserts T st s, run_script H0 (stoks cs) = Ok k /\ k_checks k = [(asserts, T)] /\ check_over vs T asserts = Ok (Sat, Some (st, s)) /\ fst (fst (s_he s)) <> None.
Definition answered_satb (vs : list nat) (cs : list command) : bool :=
  match run_script H0 (stoks cs) with
  | Ok k => match k_checks k with
            | [(asserts, T)] => match check_over vs T asserts with Ok (Sat, Some (_, s)) => match fst (fst (s_he s)) with Some _ => true | None => false end | _ => false end
            | _ => false
            end
  | _ => false
  end.
Lemma answered_ok vs cs : answered_satb vs cs = true -> answered_sat vs cs.
Proof.
  unfold answered_satb, answered_sat. intros B. destruct (run_script H0 (stoks cs)) as [k| |]; try discriminate B. destruct (k_checks k) as [|[a T] [|]] eqn:EK; try discriminate B.
  destruct (check_over vs T a) as [[[|] [[st s]|]]| |] eqn:E; try discriminate B. exists k, a, T, st, s. split; [reflexivity|]. split; [exact EK|]. split; [exact E|].
  intros N. rewrite N in B. discriminate B.
Qed.

(** ** Functions defined with parameters *)
(** A call of the function denotes the body, with the parameter bound to the argument. The first script has the call, the second one
    the body in its place. The second one is unsatisfiable and the first one is answered with sat. *)
Definition m_script (call : expr) : list command :=
  [KLogic false; KDeclareConst (pl "y") TBool; KDefineFun (pl "f") [(pl "x", TBool)] TBool (p_app "or" [p_sym "x"; p_sym "y"]);
   KAssert (p_app "not" [call]); KCheck].
Definition m_call : expr := p_app "f" [p_sym "true"].
Definition m_body : expr := ELet [(pl "x", p_sym "true")] (p_app "or" [p_sym "x"; p_sym "y"]).
Definition m_text : text := t_of "(set-logic QF_LRA)
(declare-const y Bool)
(define-fun f ((x Bool)) Bool (or x y))
(assert (not (f true)))
(check-sat)
".
Theorem C60_macro_refuted : stext (m_script m_call) = m_text /\ answered_sat [] (m_script m_call) /\
  script_ok w_new false (m_script m_body) /\ ~ script_sat (m_script m_body).
Proof.
  split; [vm_compute; reflexivity|]. split; [apply answered_ok; vm_compute; reflexivity|]. split.
  - unfold m_script. do 5 (apply script_step; [cbn [command_ok]; cok|]). exact I.
  - intros (M & _ & A). unfold m_script in A. apply Forall_inv in A.
    discriminate (A <: VB true = VB false).
Qed.
Print Assumptions C60_macro_refuted.

(** ** Division *)
(** x is positive, and x divided by 1/3000000000 is negative *)
Definition d_script : list command :=
  [KLogic false; KDeclareConst (pl "x") TReal; KAssert (p_app ">" [p_sym "x"; ENum (t_of "0")]);
   KAssert (p_app "<" [p_app "/" [p_sym "x"; p_app "/" [ENum (t_of "1"); ENum (t_of "3000000000")]]; ENum (t_of "0")]); KCheck].
Definition d_text : text := t_of "(set-logic QF_LRA)
(declare-const x Real)
(assert (> x 0))
(assert (< (/ x (/ 1 3000000000)) 0))
(check-sat)
".
Theorem C60_division_refuted : stext d_script = d_text /\ answered_sat [0] d_script /\ ~ script_sat d_script.
Proof.
  split; [vm_compute; reflexivity|]. split; [apply answered_ok; vm_compute; reflexivity|].
  intros (M & RS & A). unfold d_script in A.
  pose proof (Forall_inv A) as A1. apply Forall_inv_tail in A. pose proof (Forall_inv A) as A2. clear A.
  assert (B1 : VB true = op_sem OGt [mn_const M (t_of "x"); VR (Q2Qc 0)]) by exact (A1 <: VB true = op_sem OGt [mn_const M (t_of "x"); VR (Q2Qc 0)]).
  assert (B2 : VB true = op_sem OLt [op_sem ODiv [mn_const M (t_of "x"); VR tiny]; VR (Q2Qc 0)]) by exact (A2 <: VB true = op_sem OLt [op_sem ODiv [mn_const M (t_of "x"); VR tiny]; VR (Q2Qc 0)]).
  clear A1 A2. specialize (RS (t_of "x") [] TReal (or_introl eq_refl)). change (vty (mn_const M (t_of "x")) = TReal) in RS. destruct (mn_const M (t_of "x")) as [b|a]; [discriminate RS|].
  cbn [op_sem] in B1, B2. injection B1 as B1. injection B2 as B2. unfold Qc_geb in *.
  destruct (Qclt_le_dec (Q2Qc 0) a) as [L|]; [|discriminate B1]. destruct (Qclt_le_dec (a / tiny)%Qc (Q2Qc 0)) as [L2|]; [|discriminate B2].
  apply (Qclt_not_le _ _ L2). unfold Qcdiv. replace (Q2Qc 0) with (0 * / tiny)%Qc by apply Qcmult_0_l.
  apply Qcmult_le_compat_r; [apply Qclt_le_weak; exact L|]. discriminate.
Qed.
Print Assumptions C60_division_refuted.

(** ** Functions of Booleans (QF_UFLRA) *)
(** f(p) > f(q) is satisfiable: p true, q false. The answer is unsat: the clause the functions plugin learns says f(p) = f(q), the
    condition p = q is left out. *)
Definition b_script : list command :=
  [KLogic true; KDeclareConst (pl "p") TBool; KDeclareConst (pl "q") TBool; KDeclareFun (pl "f") [TBool] TReal;
   KAssert (p_app ">" [p_app "f" [p_sym "p"]; p_app "f" [p_sym "q"]]); KCheck].
Definition b_text : text := t_of "(set-logic QF_UFLRA)
(declare-const p Bool)
(declare-const q Bool)
(declare-fun f ( Bool) Real)
(assert (> (f p) (f q)))
(check-sat)
".
Definition b_M : meaning := mkMean (fun n => VB (text_eqb n (t_of "p"))) (fun _ vs => match vs with [VB true] => VR (Q2Qc 1) | _ => VR (Q2Qc 0) end).
Theorem C63_boolean_refuted : stext b_script = b_text /\ script_ok w_new false b_script /\ script_sat b_script /\
  exists k asserts T x, run_script H0 (stoks b_script) = Ok k /\ k_checks k = [(asserts, T)] /\ check_ugv T asserts = Ok (Unsat, x).
Proof.
  split; [vm_compute; reflexivity|]. split.
  { unfold b_script. do 6 (apply script_step; [cbn [command_ok]; cok|]). exact I. }
  split.
  { exists b_M. split.
    - intros n so y I. vm_compute in I. repeat (destruct I as [I|I]; [injection I as <- <- <-; try reflexivity|]); [|destruct I]. intros vs. cbn. destruct vs as [|[[|]|] [|]]; reflexivity.
    - match goal with |- Forall _ ?l => let v := eval vm_compute in l in change l with v end. repeat constructor. }
  assert (B : match run_script H0 (stoks b_script) with Ok k => length (k_checks k) =? 1 | _ => false end && u_answers b_script Unsat = true) by (vm_compute; reflexivity).
  revert B. generalize b_script. intros cs B. apply andb_true_iff in B. destruct B as [B1 B2]. destruct (u_answers_ok cs Unsat B2) as (x & E). clear B2. unfold first_check in E.
  destruct (run_script H0 (stoks cs)) as [k| |]; try discriminate B1. apply Nat.eqb_eq in B1. destruct (k_checks k) as [|[a T] [|]] eqn:EK; try discriminate B1.
  cbn [rev app hd fst snd] in E. exists k, a, T, x. split; [reflexivity|]. split; [exact EK|exact E].
Qed.
Print Assumptions C63_boolean_refuted.

(** ** Arguments that share a variable (QF_UFLRA) *)
(** The hypothesis of C63 on the arguments is needed. Here f(x+y) and f(x+z) share x, which cancels in the equation y = z of the arguments.
    With the variable order of the program y and z have the value 0 before x has one; the functions plugin then puts y = z on the level of
    x, the learned clause is negated there after the backtrack, and an assertion of linear arithmetic fails, that y = z has the value that
    y and z give to it. [c_vars]: the variables of the linear constraints, y is 0, z is 1, the values of f are 3 and 4. *)
Definition c_script : list command :=
  [KLogic true; KDeclareConst (pl "x") TReal; KDeclareConst (pl "y") TReal; KDeclareConst (pl "z") TReal; KDeclareFun (pl "f") [TReal] TReal;
   KAssert (p_app "or" [p_app "<" [p_sym "y"; ENum (t_of "5")]; p_app "<" [ENum (t_of "7"); p_sym "z"]]);
   KAssert (p_app "<" [p_app "f" [p_app "+" [p_sym "x"; p_sym "y"]]; p_app "f" [p_app "+" [p_sym "x"; p_sym "z"]]]); KCheck].
Definition c_text : text := t_of "(set-logic QF_UFLRA)
(declare-const x Real)
(declare-const y Real)
(declare-const z Real)
(declare-fun f ( Real) Real)
(assert (or (< y 5) (< 7 z)))
(assert (< (f (+ x y)) (f (+ x z))))
(check-sat)
".
Definition c_vars (_ b : nat) : list nat := match b with 0 => [0] | 1 => [1] | 3 => [3; 4] | _ => [] end.
Definition c_check (T : table) := check_assertions_uf ex_hash ex_hashq q_opt false T (heur_of (gv_order qops c_vars (fun _ => []) (fun _ _ => false)) glucose_restart)
  (fun _ => 0%N) 50 200 PhaseCache (fun d t => (gv_start qops c_vars d t, glucose_start)).
Definition is_ub {A} (r : res A) : bool := match r with UB => true | _ => false end.
Lemma is_ub_ok {A} (r : res A) : is_ub r = true -> r = UB. Proof. destruct r; try discriminate. reflexivity. Qed.
Theorem C63_cancel_refuted : stext c_script = c_text /\ script_ok w_new false c_script /\
  exists k asserts T, run_script H0 (stoks c_script) = Ok k /\ k_checks k = [(asserts, T)] /\ c_check T asserts = UB.
Proof.
  split; [vm_compute; reflexivity|]. split.
  { unfold c_script. do 8 (apply script_step; [cbn [command_ok]; cok|]). exact I. }
  assert (B : match run_script H0 (stoks c_script) with Ok k => match k_checks k with [(asserts, T)] => is_ub (c_check T asserts) | _ => false end | _ => false end = true) by (vm_compute; reflexivity).
  revert B. generalize c_script. intros cs B. destruct (run_script H0 (stoks cs)) as [k| |]; try discriminate B. destruct (k_checks k) as [|[a T] [|]] eqn:EK; try discriminate B.
  exists k, a, T. split; [reflexivity|]. split; [exact EK|]. exact (is_ub_ok _ B).
Qed.
Print Assumptions C63_cancel_refuted.
