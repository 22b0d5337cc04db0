(** C60: scripts. *)
From Coq Require Import Ascii String List Arith ZArith QArith Qcanon Bool Lia.
From Verif Require Import Base Terms_Model Spec_Terms Terms_Proofs TermMgr_Model Spec_TermMgr TermMgr_Base TermMgr_Term Rewriter_Model Decimal_Model
  Spec_Decimal Lexer_Model Spec_Print Print_Proofs Parser_Model Spec_Parser Parser_Scopes Parser_Proofs Parser_Sem Parser_Text Script_Model Spec_Script Script_Proofs Script_Sem Script_Text
  Spec_Internalizer Internalizer_Model Prop_Terms Prop_Internalizer Prop_Parser.
Import ListNotations.
Close Scope Qc_scope.
Close Scope Q_scope.
Open Scope nat_scope.

(** ** C60 *)
(** The text of a script has these tokens. *)
Theorem C60_text : forall cs, Forall lexical cs -> lex (stext cs) = Some (stoks cs).
Proof. exact stext_lex. Qed.
Print Assumptions C60_text.

(** The assertions collected from a well-sorted script are satisfiable iff the script is: iff the declared symbols have values of
    their sorts that make every asserted expression true, where defined constants stand for their values. *)
Theorem C60 : forall H cs k, script_ok w_new false cs -> run_script H (stoks cs) = Ok k ->
  reach H (c_tab (k_ctx k)) /\ Forall (bool_t (c_tab (k_ctx k))) (k_asserts k) /\
  ((exists I, satisfies I (c_tab (k_ctx k)) (k_asserts k)) <-> script_sat cs).
Proof. intros H cs k OK E. rewrite (run_effects H cs (script_sorts cs _ _ OK)) in E. exact (script_main H cs k OK E). Qed.
Print Assumptions C60.

(** The solver is called once for each check-sat, in this order, with assertions satisfiable iff the part of the script before the check-sat is. *)
Theorem C60_checks : forall H cs k, script_ok w_new false cs -> run_script H (stoks cs) = Ok k ->
  Forall2 (fun pre check => reach H (snd check) /\ Forall (bool_t (snd check)) (fst check) /\ ((exists I, satisfies I (snd check) (fst check)) <-> script_sat pre))
    (checked [] cs) (rev (k_checks k)).
Proof.
  intros H cs k OK E. rewrite (run_effects H cs (script_sorts cs _ _ OK)) in E.
  destruct (checks_ok H cs [] (k_new H) k (Forall_nil _) eq_refl E) as (l & A & B). cbn [k_new k_checks] in A. rewrite app_nil_r in A. rewrite A, rev_involutive.
  assert (P : forall p, In p (checked [] cs) -> script_ok w_new false p).
  { intros p I. destruct (checked_pre cs [] p (Forall_nil _) I) as (F & r & X). cbn [app] in X. rewrite X in OK. exact (script_pre r _ _ p F OK). }
  clear A. induction B as [|p x ps xs (km & C & ->) B IH]; constructor; [|apply IH; intros; apply P; now right]. exact (script_main H p km (P p (or_introl eq_refl)) C).
Qed.
Print Assumptions C60_checks.

(** Together with C47: the clauses the solver gets at the first check-sat. *)
Theorem C60_clauses : forall ndebug hi hv H cs k pre rest a T checks, script_ok w_new false cs -> run_script H (stoks cs) = Ok k ->
  checked [] cs = pre :: rest -> rev (k_checks k) = (a, T) :: checks ->
  match translate ndebug hi hv T [] is_new a with
  | Ok (Some (p, st)) =>
      (script_sat pre <-> exists I b r, solves st b r /\ agrees T st I b r) /\ (no_apps T a -> (script_sat pre <-> exists b r, solves st b r))
  | Ok None => ~ script_sat pre
  | _ => ~ (supported ndebug T a \/ no_apps T a)
  end.
Proof.
  intros ndebug hi hv H cs k pre rest a T checks OK E CP CK. pose proof (C60_checks H cs k OK E) as F. rewrite CP, CK in F. inversion F as [|? ? ? ? (R & B & S) _]; subst. cbn [fst snd] in *.
  pose proof (C47_total ndebug hi hv H T a R B) as TT.
  destruct (translate ndebug hi hv T [] is_new a) as [[[p st]|]| |] eqn:TR.
  - destruct (C47_equisat ndebug hi hv H T a p st R B TR) as [X Y]. split; [rewrite <- S; exact X|]. intros NA. rewrite <- S. auto.
  - rewrite <- S. intros (I & SI). exact (C47_unsat_now ndebug hi hv H T a R B TR I SI).
  - intros X. destruct (TT X). discriminate.
  - intros X. destruct (TT X). discriminate.
Qed.
Print Assumptions C60_clauses.

(** Well-sorted scripts are read to the end. Missing: products without a numeral as a factor, and reals compared with = or distinct, for which no
    term may be returned (C42_total_refuted). *)
Theorem C60_total_partial : forall H cs, script_ok w_new false cs -> script_simple w_new cs -> exists k, run_script H (stoks cs) = Ok k.
Proof. intros H cs OK SI. rewrite (run_effects H cs (script_sorts cs _ _ OK)). exact (run_total H cs (k_new H) w_new false (inv_new H) OK SI). Qed.
Print Assumptions C60_total_partial.

(** *** Example: two checks, a function, a defined constant; what follows exit is not read *)
Definition pl (s : string) : nm := Plain (t_of s).
Definition k_pre : list command :=
  [KInfo (t_of "smt-lib-version") (ADec (t_of "2") (t_of "6")); KLogic true; KDeclareConst (pl "x") TReal; KDeclareFun (pl "f") [TReal] TBool; KDeclareFun (Quoted (t_of "a b")) [] TBool;
   KDefineFun (pl "d") [] TBool (p_app "f" [p_app "+" [p_sym "x"; ENum (t_of "1")]]); KDefineFun (pl "m") [(pl "x", TBool)] TBool (p_app "not" [p_sym "x"]);
   KAssert (p_app "or" [p_app ">=" [p_sym "x"; ENum (t_of "2")]; ESym (Quoted (t_of "a b"))]); KAssert (p_sym "d")].
Definition k_cs : list command :=
  k_pre ++ [KCheck; KAssert (ELet [(pl "x", p_app "+" [p_sym "x"; ENum (t_of "1")])] (p_app "not" [p_app "f" [p_sym "x"]])); KCheck; KGetModel; KExit; KAssert (p_sym "nowhere")].
Definition k_text : text := t_of "(set-info :smt-lib-version 2.6)
(set-logic QF_UFLRA)
(declare-const x Real)
(declare-fun f ( Real) Bool)
(declare-fun |a b| () Bool)
(define-fun d () Bool (f (+ x 1)))
(define-fun m ((x Bool)) Bool (not x))
(assert (or (>= x 2) |a b|))
(assert d)
(check-sat)
(assert (let ((x (+ x 1))) (not (f x))))
(check-sat)
(get-model)
(exit)
(assert nowhere)
".
Lemma fresh_b w n : existsb (text_eqb n) (t_of "true" :: t_of "false" :: used w) = false -> assoc theory_ops n = None -> fresh w n.
Proof.
  intros E A. assert (X : forall m, In m (t_of "true" :: t_of "false" :: used w) -> n <> m).
  { intros m I N. rewrite <- not_true_iff_false in E. apply E. apply existsb_exists. exists m. split; [exact I|]. rewrite N. apply text_eqb_refl. }
  split; [intros I; exact (X n (or_intror (or_intror I)) eq_refl)|]. split; [exact (X _ (or_introl eq_refl))|]. split; [exact (X _ (or_intror (or_introl eq_refl)))|exact A].
Qed.
Lemma script_step w uf c cs : command_ok w uf c -> script_ok (declares w c) (logic_of uf c) cs -> script_ok w uf (c :: cs).
Proof. intros A B. destruct c; try (split; [exact A|exact B]). exact I. Qed.
Lemma simple_step w c cs : command_simple w c -> script_simple (declares w c) cs -> script_simple w (c :: cs).
Proof. intros A B. destruct c; try (split; [exact A|exact B]). exact I. Qed.
Ltac cok := repeat match goal with |- _ /\ _ => split | |- True => exact I | |- fresh _ _ => apply fresh_b; vm_compute; reflexivity | |- sort_ok _ => first [left; reflexivity|right; reflexivity]
    | |- Forall _ [] => constructor | |- Forall _ (_ :: _) => constructor | |- _ = [] \/ _ => first [left; reflexivity|right; reflexivity]
    | |- digits_ok _ => cbn | |- etype _ _ _ = _ => vm_compute; reflexivity | |- is_digit _ => cbn; tauto | |- _ <> _ => discriminate end.
Lemma k_ok : script_ok w_new false k_cs.
Proof. unfold k_cs, k_pre. cbn [app]. do 13 (apply script_step; [cbn [command_ok]; cok|]). exact I. Qed.
Ltac klex := repeat match goal with |- Forall _ (_ :: _) => constructor | |- Forall _ [] => constructor | |- lexical _ => cbn [lexical] | |- names_ok _ => cbn | |- nm_ok _ => cbn | |- simple_symbol _ => apply simple_ok; reflexivity
    | |- _ /\ _ => split | |- plain _ => apply plain_b; reflexivity | |- True => exact I | |- ~ In _ _ => cbn | |- ~ (_ \/ _) => intros X; repeat (destruct X as [X|X]; [discriminate X|]); exact X
    | |- digits_ok _ => cbn | |- is_digit _ => cbn; tauto | |- _ <> _ => discriminate end.
Lemma k_lexical : Forall lexical k_cs.
Proof. unfold k_cs, k_pre. cbn [app]. klex. Qed.
Lemma k_simple : script_simple w_new k_cs.
Proof. unfold k_cs, k_pre. cbn [app]. do 13 (apply simple_step; [cbn [command_simple]; first [exact I|vm_compute; repeat split]|]). exact I. Qed.
Definition k_M : meaning := mkMean (fun n => if text_eqb n (t_of "x") then VR (Q2Qc 2) else VB false) (fun _ _ => VB true).
Example C60_nonvacuous : Forall lexical k_cs /\ stext k_cs = k_text /\ script_ok w_new false k_cs /\ script_simple w_new k_cs /\
  match run_script H0 (stoks k_cs) with Ok k => List.length (k_asserts k) = 3 /\ map (fun c => List.length (fst c)) (k_checks k) = [3; 2] | _ => False end /\
  map (@List.length _) (checked [] k_cs) = [9; 11] /\ script_sat k_pre /\ ~ script_sat k_cs.
Proof.
  split; [exact k_lexical|]. split; [vm_compute; reflexivity|]. split; [exact k_ok|]. split; [exact k_simple|]. split; [vm_compute; auto|]. split; [reflexivity|]. split.
  - exists k_M. split.
    + intros n so y I. vm_compute in I. repeat (destruct I as [I|I]; [injection I as <- <- <-; reflexivity|]). destruct I.
    + match goal with |- Forall _ ?l => let v := eval vm_compute in l in change l with v end. repeat constructor.
  - intros (M & _ & A). unfold k_cs, k_pre in A. cbn [app asserted] in A. apply Forall_inv_tail in A. pose proof (Forall_inv A) as A1. apply Forall_inv_tail in A. pose proof (Forall_inv A) as A2. clear A.
    set (F := mn_fun M (t_of "f") [evalue (sig_of (world_of w_new k_pre)) M [] (p_app "+" [p_sym "x"; ENum (t_of "1")])]).
    assert (B1 : VB true = F) by exact (A1 <: VB true = F). assert (B2 : VB true = VB (negb (as_b F))) by exact (A2 <: VB true = VB (negb (as_b F))). rewrite <- B1 in B2. discriminate B2.
Qed.
