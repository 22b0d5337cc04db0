(** C49: scopes of let. C50: parsing of terms. *)
From Coq Require Import Ascii String List Arith ZArith QArith Qcanon Bool Lia.
From Verif Require Import Base Terms_Model Spec_Terms Terms_Proofs TermMgr_Model Spec_TermMgr TermMgr_Base TermMgr_Term Rewriter_Model Decimal_Model
  Spec_Decimal Lexer_Model Spec_Print Print_Proofs Parser_Model Spec_Parser Parser_Scopes Parser_Proofs Parser_Sem Parser_Text Prop_Terms Prop_Internalizer.
Import ListNotations.
Close Scope Qc_scope.
Close Scope Q_scope.
Open Scope nat_scope.

(** ** C49 *)
(** After every history of opened scopes, bindings and closed scopes a symbol denotes its innermost binding. *)
Theorem C49 : forall os fs, srun [[]] os = Some fs -> exists L, mrun lets_new os = Ok L /\ forall n, let_get L n = assoc (List.concat fs) n.
Proof.
  intros os fs E. destruct (run_scopes os lets_new [[]] fs new_scopes E) as (L & M & SC). exists L. split; auto. intros n. now apply get_scopes.
Qed.
Print Assumptions C49.

(** After a scope is closed every symbol denotes what it did before the scope was opened. *)
Lemma srun_app a : forall fs b, srun fs (a ++ b) = match srun fs a with Some g => srun g b | None => None end.
Proof. induction a as [|o a IH]; intros fs b; cbn; [reflexivity|]. destruct (sstep fs o); auto. Qed.
Lemma mrun_app a : forall L b, mrun L (a ++ b) = (L' <- mrun L a ;; mrun L' b).
Proof. induction a as [|o a IH]; intros L b; cbn; [reflexivity|]. destruct (mstep L o); cbn; auto. Qed.
(** the operations inside: every scope they open they close, so they never close the outer one *)
Fixpoint inner (depth : nat) (os : list sop) : bool :=
  match os with
  | [] => depth =? 0
  | SPush :: r => inner (S depth) r
  | SAdd _ _ :: r => inner depth r
  | SPop :: r => match depth with 0 => false | S d => inner d r end
  end.
Lemma inner_run os : forall d (top : list (list (text * term))) f fs, inner d os = true -> List.length top = d -> exists g, srun (top ++ f :: fs) os = Some (g :: fs).
Proof.
  induction os as [|o os IH]; intros d top f fs I L; cbn in I.
  - apply Nat.eqb_eq in I. subst. destruct top; [|discriminate]. cbn. eauto.
  - destruct o as [|n t|].
    + cbn. apply (IH (S d) ([] :: top)); auto. cbn. lia.
    + destruct top as [|g top]; cbn.
      * subst d. apply (IH 0 []); auto.
      * apply (IH d (((n, t) :: g) :: top)); auto.
    + destruct d as [|d]; [discriminate|]. destruct top as [|g top]; [discriminate|]. injection L as L. destruct top as [|h top]; cbn.
      * subst d. apply (IH 0 []); auto.
      * apply (IH d (h :: top)); auto.
Qed.
Theorem C49_restored : forall os fs ins, srun [[]] os = Some fs -> inner 0 ins = true ->
  exists L L', mrun lets_new os = Ok L /\ mrun L (SPush :: ins ++ [SPop]) = Ok L' /\ forall n, let_get L' n = let_get L n.
Proof.
  intros os fs ins E I. destruct (run_scopes os lets_new [[]] fs new_scopes E) as (L & M & SC). exists L.
  destruct (inner_run ins 0 [] [] fs I eq_refl) as (g & G). cbn [app] in G.
  assert (E2 : srun fs (SPush :: ins ++ [SPop]) = Some fs).
  { cbn [srun sstep]. rewrite srun_app, G. cbn. destruct fs as [|f fs]; [destruct SC; congruence|]. reflexivity. }
  destruct (run_scopes _ L fs fs SC E2) as (L' & M' & SC'). exists L'. split; auto. split; auto.
  intros n. now rewrite (get_scopes _ _ _ SC), (get_scopes _ _ _ SC').
Qed.
Print Assumptions C49_restored.
(** x is bound, and shadowed twice in the same inner scope *)
Example C49_nonvacuous :
  let x := t_of "x" in let y := t_of "y" in
  let os := [SPush; SAdd x (mkT 3 false); SPush; SAdd x (mkT 4 false); SAdd y (mkT 5 true); SAdd x (mkT 6 false)] in
  srun [[]] os <> None /\ inner 0 [SAdd y (mkT 7 false); SPush; SAdd x (mkT 8 false); SPop] = true /\
  match mrun lets_new os with Ok L => let_get L x = Some (mkT 6 false) | _ => False end /\
  match mrun lets_new (os ++ [SPop]) with Ok L => let_get L x = Some (mkT 3 false) /\ let_get L y = None | _ => False end.
Proof. cbv zeta. split; [discriminate|]. split; [reflexivity|]. vm_compute. auto. Qed.

(** ** C50 *)
(** The text of an expression has these tokens. *)
Theorem C50_text : forall e, names_ok e -> digits_ok e -> lex (etext e) = Some (etoks e).
Proof. exact etext_lex. Qed.
Print Assumptions C50_text.
(** Whatever the context is, the parser stops after the tokens of the expression. *)
Theorem C50_consumes : forall H C e rest t rest' C', parse_term H C (etoks e ++ rest) = Ok (t, rest', C') -> rest' = rest.
Proof. intros H C e rest t rest' C' E. rewrite parse_build in E. destruct (build H C e) as [[u C1]| |]; cbn in E; congruence. Qed.
Print Assumptions C50_consumes.

(** In a context of the signature, where the scopes have the given sorts, the term of a well-sorted expression has the sort of the
    expression, and in every interpretation its value is the value of the expression. The context gets new terms only. *)
Theorem C50 : forall H C sg os fs envt e y rest t rest' C',
  reach H (c_tab C) -> describes C sg -> srun [[]] os = Some fs -> mrun lets_new os = Ok (c_lets C) -> local_types (c_tab C) (List.concat fs) envt ->
  digits_ok e -> etype sg envt e = Some y -> parse_term H C (etoks e ++ rest) = Ok (t, rest', C') ->
  rest' = rest /\ reach H (c_tab C') /\ has_type (c_tab C') t y /\ keeps (c_tab C) (c_tab C') /\
  c_defs C' = c_defs C /\ c_decls C' = c_decls C /\ c_names C' = c_names C /\ (forall n, let_get (c_lets C') n = let_get (c_lets C) n) /\
  forall I M envv, interprets C sg I M -> local_values I (c_tab C) (List.concat fs) envv -> teval I (c_tab C') t = evalue sg M envv e.
Proof.
  intros H C sg os fs envt e y rest t rest' C' R D SR MR LT DG Y E. split; [eapply C50_consumes; eauto|].
  destruct (run_scopes os lets_new [[]] fs new_scopes SR) as (L & M & SC). rewrite M in MR. injection MR as ->.
  rewrite parse_build in E. destruct (build H C e) as [[u C1]| |] eqn:B; cbn [bind] in E; try discriminate. injection E as <- <- <-.
  destruct (sound_all H sg e C fs envt y u C1 R D SC LT DG Y B) as (R1 & HT & AF & EV). split; auto. split; auto. split; [apply AF|]. split; [apply AF|]. split; [apply AF|]. split; [apply AF|].
  split; auto. intros n. now rewrite (get_scopes _ _ _ SC), (get_scopes _ _ _ (af_scopes _ _ _ AF)).
Qed.
Print Assumptions C50.
(** A result is returned, if every product has a numeral as a factor and reals are not compared with =, distinct. (Without this the
    constructors can fail: C42_total_refuted.) *)
Theorem C50_total_partial : forall H C sg os fs envt e y rest,
  reach H (c_tab C) -> describes C sg -> srun [[]] os = Some fs -> mrun lets_new os = Ok (c_lets C) -> local_types (c_tab C) (List.concat fs) envt ->
  digits_ok e -> etype sg envt e = Some y -> simple sg envt e -> exists t C', parse_term H C (etoks e ++ rest) = Ok (t, rest, C').
Proof.
  intros H C sg os fs envt e y rest R D SR MR LT DG Y SI.
  destruct (run_scopes os lets_new [[]] fs new_scopes SR) as (L & M & SC). rewrite M in MR. injection MR as ->.
  rewrite parse_build. destruct (total_all H sg e C fs envt y R D SC LT DG Y SI) as (t & C' & ->). cbn. eauto.
Qed.
Print Assumptions C50_total_partial.

(** y real, p Boolean, f from reals to Booleans, and x bound to p in an open scope. In the let below the y of (f y) is the
    global one, the y of the body is (f y). *)
Definition p_tab : table := tab [CDecl TReal; CDecl TBool; CDecl TBool].
Definition p_x := mkT 3 false. Definition p_p := mkT 4 false. Definition p_f := mkT 5 false.
Definition p_ops : list sop := [SPush; SAdd (t_of "x") p_p].
Definition p_lets : lets := match mrun lets_new p_ops with Ok L => L | _ => lets_new end.
Definition p_ctx : pctx := mkCtx p_lets [] [(t_of "f", ([TReal], TBool))] [(t_of "y", p_x); (t_of "p", p_p); (t_of "f", p_f)] p_tab.
Definition p_sig : sigs := mkSig
  (fun n => if text_eqb (t_of "y") n then Some TReal else if text_eqb (t_of "p") n then Some TBool else None)
  (fun n => if text_eqb (t_of "f") n then Some ([TReal], TBool) else None).
Definition p_sym (s : string) : expr := ESym (Plain (t_of s)).
Definition p_app (s : string) (l : list expr) : expr := EApp (Plain (t_of s)) l.
Definition p_e : expr := ELet [(Plain (t_of "z"), p_app "+" [EDec (t_of "1") (t_of "5"); ESym (Quoted (t_of "y"))]); (Plain (t_of "y"), p_app "f" [p_sym "y"])]
  (p_app "and" [p_sym "y"; p_app ">=" [p_sym "z"; p_app "/" [p_app "*" [ENum (t_of "2"); p_sym "z"]; EDec (t_of "0") (t_of "5")]]; p_sym "x"]).
Definition p_text : text := t_of "(let ((z (+ 1.5 |y|))(y (f y))) (and y (>= z (/ (* 2 z) 0.5)) x))".
Definition p_bad : expr := ELet [(Plain (t_of "y"), p_app "f" [p_sym "y"])] (p_app "+" [p_sym "y"]).
(** divisions by a variable and by 0 are not covered *)
Definition p_div (e : expr) : expr := p_app "/" [p_sym "y"; e].
Lemma p_describes : describes p_ctx p_sig.
Proof.
  split.
  - intros n y E. cbn [p_sig sg_const] in E. destruct (text_eqb_spec (t_of "y") n) as [<-|]; [|destruct (text_eqb_spec (t_of "p") n) as [<-|]; [|discriminate]]; injection E as <-.
    + exists p_x. split; [reflexivity|]. apply has_typeb_ok. vm_compute. reflexivity.
    + exists p_p. split; [reflexivity|]. apply has_typeb_ok. vm_compute. reflexivity.
  - intros n so r E. cbn [p_sig sg_fun] in E. destruct (text_eqb_spec (t_of "f") n) as [<-|]; [|discriminate]. injection E as <- <-.
    split; [reflexivity|]. split; [reflexivity|]. split; [auto|]. exists p_f. split; [reflexivity|]. split; [vm_compute; lia|]. split; reflexivity.
  - intros n o E B. split; [reflexivity|]. cbn [c_decls p_ctx assoc]. destruct (text_eqb_spec (t_of "f") n) as [<-|]; [discriminate|reflexivity].
Qed.
Example C50_nonvacuous :
  reach H0 (c_tab p_ctx) /\ describes p_ctx p_sig /\ srun [[]] p_ops = Some [[(t_of "x", p_p)]; []] /\ mrun lets_new p_ops = Ok (c_lets p_ctx) /\
  local_types (c_tab p_ctx) (List.concat [[(t_of "x", p_p)]; []]) [(t_of "x", TBool)] /\ names_ok p_e /\ digits_ok p_e /\
  etype p_sig [(t_of "x", TBool)] p_e = Some TBool /\ etype p_sig [] p_bad = None /\
  etype p_sig [] (p_div (p_sym "y")) = None /\ etype p_sig [] (p_div (ENum (t_of "0"))) = None /\ etype p_sig [] (p_div (ENum (t_of "2147483647"))) = Some TReal /\ simple p_sig [(t_of "x", TBool)] p_e /\ etext p_e = p_text /\
  lex p_text = Some (etoks p_e) /\ interprets p_ctx p_sig at_one (mkMean (fun n => if text_eqb (t_of "y") n then VR 1%Qc else VB true) (fun _ _ => VB true)) /\
  evalue p_sig (mkMean (fun n => if text_eqb (t_of "y") n then VR 1%Qc else VB true) (fun _ _ => VB true)) [(t_of "x", VB true)] p_e = VB false.
Proof.
  assert (R : reach H0 p_tab) by (apply tab_reach; vm_compute; reflexivity).
  assert (NO : names_ok p_e). { cbn. repeat match goal with |- _ /\ _ => split | |- plain _ => apply plain_b; reflexivity | |- True => exact I end; intros [E|[]]; discriminate. }
  assert (DG : digits_ok p_e). { cbn. repeat match goal with |- _ /\ _ => split | |- True => exact I | |- _ <> _ => discriminate | |- Forall _ _ => constructor | |- is_digit _ => cbn; tauto end. }
  assert (TX : etext p_e = p_text) by reflexivity.
  split; [exact R|]. split; [exact p_describes|]. split; [reflexivity|]. split; [reflexivity|]. split.
  { constructor; [|constructor]. split; [reflexivity|]. apply has_typeb_ok. vm_compute. reflexivity. }
  split; [exact NO|]. split; [exact DG|]. split; [vm_compute; reflexivity|]. split; [vm_compute; reflexivity|].
  split; [vm_compute; reflexivity|]. split; [vm_compute; reflexivity|]. split; [vm_compute; reflexivity|]. split.
  { cbn. split; [tauto|]. intros tys E. split; auto. repeat (split; auto). }
  split; [exact TX|]. split; [rewrite <- TX; now apply C50_text|]. split.
  - split.
    + intros n y t E G. cbn [p_sig sg_const] in E. destruct (text_eqb_spec (t_of "y") n) as [<-|N1].
      * injection G as <-. vm_compute. reflexivity.
      * destruct (text_eqb_spec (t_of "p") n) as [<-|]; [|discriminate]. injection G as <-. cbn. reflexivity.
    + intros n so r f vs E G. cbn [p_sig sg_fun] in E. destruct (text_eqb_spec (t_of "f") n) as [<-|]; [|discriminate]. injection E as <- <-. reflexivity.
  - vm_compute. reflexivity.
Qed.
