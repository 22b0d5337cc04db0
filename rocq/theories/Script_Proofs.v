(** Proofs for C60. *)
From Coq Require Import Ascii String List Arith ZArith QArith Qcanon Bool Lia.
From Verif Require Import Base Terms_Model Spec_Terms Terms_Proofs TermMgr_Model Spec_TermMgr TermMgr_Base TermMgr_Arith TermMgr_Term Rewriter_Model Decimal_Model
  Spec_Decimal Visitor_Proofs Lexer_Model Spec_Print Parser_Model Spec_Parser Parser_Scopes Parser_Proofs Parser_Sem Script_Model Spec_Script.
Import ListNotations.
Close Scope Qc_scope.
Close Scope Q_scope.
Open Scope nat_scope.

(** ** Commands *)
Section Effects.
Variable H : hashes.
Definition params_text (ps : list (nm * ty)) : list (text * ty) := params_env ps.
Definition effect (k : kst) (c : command) : res kst :=
  match c with
  | KAssert e => ' (u, C) <- build H (k_ctx k) e ;; Ok (mkK C (k_asserts k ++ [u]) (k_uf k) (k_checks k))
  | KCheck => Ok (mkK (k_ctx k) (k_asserts k) (k_uf k) ((k_asserts k, c_tab (k_ctx k)) :: k_checks k))
  | KDeclareConst n y => C <- declare_const (k_ctx k) y (nm_text n) ;; Ok (with_ctx k C)
  | KDeclareFun n ys y =>
      match ys with
      | [] => C <- declare_const (k_ctx k) y (nm_text n) ;; Ok (with_ctx k C)
      | _ => if k_uf k then C <- declare_fun (k_ctx k) y ys (nm_text n) ;; Ok (with_ctx k C) else Ok k
      end
  | KDefineFun n ps y e =>
      let '(formals, C1) := bind_vars (with_lets (k_ctx k) (push_frame (c_lets (k_ctx k)))) (params_env ps) in
      ' (body, C2) <- build H C1 e ;; L <- pop_frame (c_lets C2) ;; C <- store_def (with_lets C2 L) (nm_text n) body formals y ;; Ok (with_ctx k C)
  | KLogic b => Ok (mkK (k_ctx k) (k_asserts k) b (k_checks k))
  | _ => Ok k
  end.
Fixpoint effects (k : kst) (cs : list command) : res kst :=
  match cs with [] => Ok k | KExit :: _ => Ok k | c :: cs' => k' <- effect k c ;; effects k' cs' end.
Definition csorts_ok (c : command) : Prop :=
  match c with
  | KDeclareConst _ y => sort_ok y
  | KDeclareFun _ sorts y => sort_ok y /\ Forall sort_ok sorts
  | KDefineFun _ ps y _ => sort_ok y /\ Forall (fun p => sort_ok (snd p)) ps
  | _ => True
  end.
Lemma sort_sym y : sort_ok y -> exists s, sort_tok y = Sym s /\ type_for_symbol s = Ok y.
Proof. intros [-> | ->]; eexists; split; reflexivity. Qed.
Lemma parse_sort_ok y r : sort_ok y -> parse_sort (sort_tok y :: r) = Ok (y, r).
Proof. intros S. destruct (sort_sym y S) as (s & -> & E). cbn. now rewrite E. Qed.
Lemma parse_symbol_ok n r : parse_symbol (nm_tok n :: r) = Ok (nm_text n, r).
Proof. unfold parse_symbol. cbn [next bind]. now rewrite nm_symbol. Qed.
Lemma parse_sorts_ok ys r : Forall sort_ok ys -> parse_sort_list (map sort_tok ys ++ RParen :: r) = Ok (ys, r).
Proof. induction 1 as [|y ys S F IH]; [reflexivity|]. cbn [map app]. destruct (sort_sym y S) as (s & -> & E). cbn [parse_sort_list]. rewrite E. cbn [bind]. now rewrite IH. Qed.
Lemma parse_vars_ok ps r : Forall (fun p => sort_ok (snd p)) ps ->
  parse_vars (flat_map (fun p => [LParen; nm_tok (fst p); sort_tok (snd p); RParen]) ps ++ RParen :: r) = Ok (params_env ps, r).
Proof.
  induction 1 as [|[n y] ps S F IH]; [reflexivity|]. cbn [flat_map app fst snd] in *. destruct (sort_sym y S) as (s & -> & E). cbn [parse_vars].
  rewrite nm_symbol, E. cbn [bind]. rewrite IH. reflexivity.
Qed.
Lemma close_ok (k : kst) r : (r' <- eat is_rparen (RParen :: r) ;; Ok (true, k, r')) = Ok (true, k, r).
Proof. reflexivity. Qed.
Lemma command_effect k c rest : csorts_ok c -> c <> KExit -> parse_command H k (ctoks c ++ rest) = (k' <- effect k c ;; Ok (true, k', rest)).
Proof.
  intros SO NX. destruct c as [e| |n y|n ys y|n ps y e|b|kw v|kw v| |]; cbn [csorts_ok] in SO; try congruence.
  - cbn [ctoks app]. rewrite <- app_assoc. unfold parse_command. cbn [is_lparen assertb next bind]. change (word (t_of "assert") "assert") with true. cbv iota.
    rewrite parse_build. cbn [effect]. destruct (build H (k_ctx k) e) as [[u C]| |]; reflexivity.
  - reflexivity.
  - cbn [ctoks app]. unfold parse_command. cbn [is_lparen assertb next bind]. change (word (t_of "declare-const") "assert") with false. change (word (t_of "declare-const") "check-sat") with false. change (word (t_of "declare-const") "declare-const") with true. cbv iota.
    rewrite parse_symbol_ok. cbn [bind]. rewrite parse_sort_ok by exact SO. cbn [bind effect]. destruct (declare_const _ _ _); reflexivity.
  - destruct SO as [S1 S2]. cbn [ctoks app]. rewrite <- !app_assoc. unfold parse_command. cbn [is_lparen assertb next bind]. 
    change (word (t_of "declare-fun") "assert") with false. change (word (t_of "declare-fun") "check-sat") with false. change (word (t_of "declare-fun") "declare-const") with false. change (word (t_of "declare-fun") "declare-fun") with true. cbv iota.
    rewrite parse_symbol_ok. cbn [bind eat next is_lparen assertb app]. rewrite parse_sorts_ok by exact S2. cbn [bind]. rewrite parse_sort_ok by exact S1. cbn [bind effect].
    destruct ys; [destruct (declare_const _ _ _); reflexivity|]. destruct (k_uf k); [|reflexivity]. destruct (declare_fun _ _ _ _); reflexivity.
  - destruct SO as [S1 S2]. cbn [ctoks app]. rewrite <- !app_assoc. unfold parse_command. cbn [is_lparen assertb next bind].
    change (word (t_of "define-fun") "assert") with false. change (word (t_of "define-fun") "check-sat") with false. change (word (t_of "define-fun") "declare-const") with false. change (word (t_of "define-fun") "declare-fun") with false. change (word (t_of "define-fun") "define-fun") with true. cbv iota.
    rewrite parse_symbol_ok. cbn [bind eat next is_lparen assertb app]. rewrite parse_vars_ok by exact S2. cbn [bind]. rewrite parse_sort_ok by exact S1. cbn [bind effect].
    destruct (bind_vars _ _) as [formals C1]. rewrite parse_build. destruct (build H C1 e) as [[u C]| |]; cbn [bind]; auto. destruct (pop_frame (c_lets C)); cbn [bind]; auto.
    destruct (store_def _ _ _ _ _); reflexivity.
  - destruct b; reflexivity.
  - destruct v as [[]|]; reflexivity.
  - destruct v as [[]|]; reflexivity.
  - reflexivity.
Qed.
Fixpoint csorts (cs : list command) : Prop := match cs with [] => True | KExit :: _ => True | c :: cs' => csorts_ok c /\ csorts cs' end.
Lemma execute_effects cs : forall f k, csorts cs -> List.length cs < f -> execute H f k (stoks cs) = effects k cs.
Proof.
  induction cs as [|c cs IH]; intros f k F L; destruct f as [|f]; try (cbn in L; lia); [reflexivity|].
  cbn [stoks flat_map execute]. fold (stoks cs). assert (D : c = KExit \/ c <> KExit) by (destruct c; auto; right; discriminate). destruct D as [->|D]; [reflexivity|].
  assert (F2 : csorts_ok c /\ csorts cs) by (destruct c; congruence || exact F). destruct F2 as [F1 F2]. rewrite command_effect by auto. assert (E : effects k (c :: cs) = (k' <- effect k c ;; effects k' cs)) by (destruct c; congruence || reflexivity). rewrite E.
  destruct (effect k c); cbn [bind]; auto. apply IH; auto. cbn in L. lia.
Qed.
Lemma stoks_length cs : List.length cs <= List.length (stoks cs).
Proof. induction cs as [|c cs IH]; cbn [stoks flat_map List.length]; auto. fold (stoks cs). rewrite app_length. destruct c; cbn; lia. Qed.
Lemma run_effects cs : csorts cs -> run_script H (stoks cs) = effects (k_new H) cs.
Proof. intros F. apply execute_effects; auto. pose proof (stoks_length cs). lia. Qed.
End Effects.
