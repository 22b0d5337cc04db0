(** Proofs: scripts with linear expressions are read to the end. *)
From Coq Require Import Ascii String List Arith ZArith QArith Qcanon Bool Lia.
From Verif Require Import Base Terms_Model Spec_Terms Terms_Proofs TermMgr_Model Spec_TermMgr TermMgr_Base TermMgr_Arith TermMgr_Term Rewriter_Model Decimal_Model
  Spec_Decimal Visitor_Proofs Lexer_Model Spec_Print Parser_Model Spec_Parser Parser_Scopes Parser_Proofs Parser_Sem Script_Model Spec_Script Script_Proofs Script_Sem Spec_Linear TermMgr_Unit Parser_Linear.
Import ListNotations.
Close Scope Qc_scope.
Close Scope Q_scope.
Open Scope nat_scope.

Section Lin.
Variable H : hashes.
Lemma declared_ok k w uf : inv H k w uf -> vars_ok (is_declared w) (k_ctx k).
Proof.
  intros V n t (y & DC) G. destruct (used_parts H k w uf V) as (ND & DJ & DM).
  assert (I : In n (map fst (w_decl w))). { apply in_map_iff. exists (n, ([], y)). split; [reflexivity|]. now apply assoc_in. }
  destruct (DJ n I) as [J1 J2]. unfold global in G. rewrite (iv_macros _ _ _ _ V n) in G; [|now apply assoc_none|exact J2].
  destruct (decl_name _ _ _ _ _ (iv_names _ _ _ _ V) DC) as (u & A & S). rewrite A in G. injection G as ->. destruct S as (_ & HT & _ & K & _). split; [eapply type_valid; exact HT|exact K].
Qed.
Lemma bind_vars_nu ps : forall C fo C', NU (c_tab C) -> bind_vars C ps = (fo, C') -> NU (c_tab C').
Proof.
  induction ps as [|[n y] ps IH]; intros C fo C' N E; cbn [bind_vars] in E; [injection E as <- <-; exact N|]. pose proof (nu_uninterp (c_tab C) y N) as P.
  destruct (new_uninterpreted (c_tab C) y) as [T t]. destruct (bind_vars _ ps) as [ts C1] eqn:B. injection E as <- <-. eapply IH; [|exact B]. exact P.
Qed.
Lemma step_linear k w uf c : inv H k w uf -> NU (c_tab (k_ctx k)) -> command_ok w uf c -> command_linear w c -> c <> KExit ->
  exists k', effect H k c = Ok k' /\ NU (c_tab (k_ctx k')).
Proof.
  intros V N OK SI NX. pose proof (inv_describes H k w uf V) as DS. pose proof (declared_ok k w uf V) as VO.
  assert (DC : forall n y, fresh w n -> sort_ok y -> exists C, declare_const (k_ctx k) y n = Ok C /\ NU (c_tab C)).
  { intros n y F S. destruct (fresh_parts w n F) as (FD & _). unfold declare_const. pose proof (nu_uninterp (c_tab (k_ctx k)) y N) as P.
    destruct (new_uninterpreted (c_tab (k_ctx k)) y) as [T' t]. unfold set_name. cbn [with_tab c_names].
    assert (NN : tm_find (c_names (k_ctx k)) n = None). { rewrite <- assoc_find. apply assoc_none. rewrite (names_fst _ _ _ (iv_names _ _ _ _ V)). now apply assoc_none. }
    rewrite NN. cbn [assertb bind]. eexists. split; [reflexivity|exact P]. }
  destruct c as [e| |n y|n ys y|n ps y e|b|kw v|kw v| |]; cbn [effect command_ok command_linear] in *; try (eexists; split; [reflexivity|exact N]).
  - destruct OK as [DO TY].
    destruct (linear_all H (sig_of w) (is_declared w) e (k_ctx k) [[]] [] TBool (iv_reach _ _ _ _ V) DS VO N (iv_scopes _ _ _ _ V) (Forall2_nil _) DO TY SI) as (t & C & -> & N1).
    cbn [bind]. eexists. split; [reflexivity|exact N1].
  - destruct OK as [F S]. destruct (DC _ y F S) as (C & -> & N1). cbn [bind]. eexists. split; [reflexivity|exact N1].
  - destruct OK as (F & S & _). destruct (DC _ y F S) as (C & EC & N1). destruct ys; [rewrite EC; cbn [bind]; eexists; split; [reflexivity|exact N1]|].
    destruct (k_uf k); [|eexists; split; [reflexivity|exact N]]. unfold declare_fun. rewrite EC. cbn [bind].
    assert (NN : tm_find (c_decls C) (nm_text n) = None).
    { unfold declare_const in EC. destruct (new_uninterpreted (c_tab (k_ctx k)) y) as [T' u]. unfold set_name in EC. destruct (assertb _); cbn in EC; try discriminate. injection EC as <-. cbn.
      rewrite (iv_decls _ _ _ _ V), <- assoc_find. apply filter_none; [|apply (used_parts H k w uf V)]. intros d X. destruct (fresh_parts w _ F) as (FD & _). congruence. }
    rewrite NN. cbn [assertb bind]. eexists. split; [reflexivity|exact N1].
  - destruct OK as (F & S & FS & DO & TY). destruct (fresh_parts w _ F) as (FD & FF & FM).
    assert (FS' : Forall (fun p : text * ty => sort_ok (snd p)) (params_env ps)). { unfold params_env. clear - FS. induction FS; constructor; auto. }
    destruct (bind_vars_ok H (params_env ps) (with_lets (k_ctx k) (push_frame (c_lets (k_ctx k)))) [] [[]] (iv_reach _ _ _ _ V) (push_scopes _ _ (iv_scopes _ _ _ _ V)) FS' [] (Forall2_nil _))
      as (bs & C1 & EB & SC & R1 & K1 & D1 & D2 & D3 & LT).
    assert (N1 : NU (c_tab C1)) by (eapply bind_vars_nu; [|exact EB]; exact N).
    rewrite EB. cbn [with_lets c_tab c_defs c_decls c_names] in K1, D1, D2, D3.
    assert (AF1 : after (k_ctx k) C1 [rev bs ++ []; []]) by (split; auto).
    assert (LT' : local_types (c_tab C1) (List.concat [rev bs ++ []; []]) (bind_new (params_env ps) [])). { cbn [List.concat]. rewrite !app_nil_r. unfold bind_new. rewrite !app_nil_r in *. exact LT. }
    destruct (linear_all H (sig_of w) (is_declared w) e C1 _ _ y R1 (after_describes _ _ _ _ AF1 DS) (vars_after _ _ _ _ AF1 VO) N1 SC LT' DO TY SI) as (body & C2 & B & N2). rewrite B. cbn [bind].
    destruct (sound_all H (sig_of w) e C1 _ _ y body C2 R1 (after_describes _ _ _ _ AF1 DS) SC LT' DO TY B) as (R2 & HT & AF2 & VL).
    pose proof (after_trans _ _ _ _ _ AF1 AF2) as AF. destruct (pop_scopes _ _ _ (af_scopes _ _ _ AF)) as (L & PL & SL); [discriminate|]. rewrite PL. cbn [bind].
    unfold store_def. cbn [with_lets c_defs]. rewrite (af_defs _ _ _ AF), <- assoc_find, (iv_macros _ _ _ _ V) by auto. cbn [assertb bind]. eexists. split; [reflexivity|exact N2].
Qed.
Lemma run_linear cs : forall k w uf, inv H k w uf -> NU (c_tab (k_ctx k)) -> script_ok w uf cs -> script_linear w cs -> exists k', effects H k cs = Ok k'.
Proof.
  induction cs as [|c cs IH]; intros k w uf V N OK SI; [cbn; eauto|]. assert (D : c = KExit \/ c <> KExit) by (destruct c; auto; right; discriminate). destruct D as [->|D]; [cbn; eauto|].
  destruct (script_cons _ _ _ _ D OK) as [OC OS]. assert (S2 : command_linear w c /\ script_linear (declares w c) cs) by (destruct c; congruence || exact SI).
  destruct S2 as [S1 S2]. destruct (step_linear k w uf c V N OC S1 D) as (k1 & E & N1). rewrite effects_cons, E by auto. cbn [bind].
  destruct (step_ok H k w uf c k1 V OC D E) as (V1 & _). exact (IH _ _ _ V1 N1 OS S2).
Qed.
Lemma new_nu : NU (c_tab (k_ctx (k_new H))).
Proof. apply nu_new. Qed.
End Lin.
