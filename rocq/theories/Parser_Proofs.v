(** Proofs for C50: the loop of the term parser builds the expression bottom up. *)
From Coq Require Import Ascii String List Arith ZArith QArith Qcanon Bool Lia.
From Verif Require Import Base Terms_Model Spec_Terms TermMgr_Model Spec_TermMgr Rewriter_Model Decimal_Model Spec_Decimal Lexer_Model
  Parser_Model Spec_Parser Parser_Scopes.
Import ListNotations.
Close Scope Qc_scope.
Close Scope Q_scope.
Open Scope nat_scope.

Section ExprInd.
Variable P : expr -> Prop.
Hypothesis HS : forall n, P (ESym n).
Hypothesis HN : forall d, P (ENum d).
Hypothesis HD : forall d f, P (EDec d f).
Hypothesis HA : forall f args, Forall P args -> P (EApp f args).
Hypothesis HL : forall bs body, Forall (fun b => P (snd b)) bs -> P body -> P (ELet bs body).
Fixpoint expr_ind2 (e : expr) : P e :=
  match e with
  | ESym n => HS n
  | ENum d => HN d
  | EDec d f => HD d f
  | EApp f args => HA f args ((fix go (l : list expr) : Forall P l := match l with [] => Forall_nil _ | a :: l' => Forall_cons a (expr_ind2 a) (go l') end) args)
  | ELet bs body => HL bs body
      ((fix go (l : list (nm * expr)) : Forall (fun b => P (snd b)) l := match l with [] => Forall_nil _ | b :: l' => Forall_cons b (expr_ind2 (snd b)) (go l') end) bs)
      (expr_ind2 body)
  end.
End ExprInd.

Lemma bind_assoc {A B C} (m : res A) (f : A -> res B) (g : B -> res C) : bind (bind m f) g = bind m (fun x => bind (f x) g).
Proof. destruct m; reflexivity. Qed.
Lemma bind_ext {A B} (m : res A) (f g : A -> res B) : (forall x, f x = g x) -> bind m f = bind m g.
Proof. intros E. destruct m; cbn; auto. Qed.
Lemma nm_symbol n : token_symbol (nm_tok n) = Ok (nm_text n).
Proof. destruct n as [s|s]; cbn; [reflexivity|]. now rewrite removelast_last. Qed.

Section Build.
Variable H : hashes.
(** the terms of the arguments, left to right *)
Fixpoint build (C : pctx) (e : expr) {struct e} : res (term * pctx) :=
  match e with
  | ESym n => t <- term_for_symbol C (nm_text n) ;; Ok (t, C)
  | ENum d => ' (T, u) <- mk_numeral H (c_tab C) d ;; Ok (u, with_tab C T)
  | EDec d f => ' (T, u) <- mk_decimal H (c_tab C) (d ++ "."%char :: f) ;; Ok (u, with_tab C T)
  | EApp f args =>
      ' (ts, C1) <- (fix go (C : pctx) (l : list expr) : res (list term * pctx) :=
        match l with [] => Ok ([], C) | a :: l' => ' (t, C1) <- build C a ;; ' (ts, C2) <- go C1 l' ;; Ok (t :: ts, C2) end) C args ;;
      resolve_term H C1 (nm_text f) ts
  | ELet bs body =>
      ' (ts, C1) <- (fix go (C : pctx) (l : list (nm * expr)) : res (list (text * term) * pctx) :=
        match l with [] => Ok ([], C) | b :: l' => ' (t, C1) <- build C (snd b) ;; ' (ts, C2) <- go C1 l' ;; Ok ((nm_text (fst b), t) :: ts, C2) end) C bs ;;
      ' (t, C2) <- build (with_lets C1 (add_let_bindings (c_lets C1) ts)) body ;;
      L <- pop_frame (c_lets C2) ;; Ok (t, with_lets C2 L)
  end.
Fixpoint build_list (C : pctx) (l : list expr) : res (list term * pctx) :=
  match l with [] => Ok ([], C) | a :: l' => ' (t, C1) <- build C a ;; ' (ts, C2) <- build_list C1 l' ;; Ok (t :: ts, C2) end.
Fixpoint build_binds (C : pctx) (l : list (nm * expr)) : res (list (text * term) * pctx) :=
  match l with [] => Ok ([], C) | b :: l' => ' (t, C1) <- build C (snd b) ;; ' (ts, C2) <- build_binds C1 l' ;; Ok ((nm_text (fst b), t) :: ts, C2) end.
Lemma build_app C f args : build C (EApp f args) = ' (ts, C1) <- build_list C args ;; resolve_term H C1 (nm_text f) ts.
Proof.
  reflexivity.
Qed.
Lemma build_let C bs body : build C (ELet bs body) =
  ' (ts, C1) <- build_binds C bs ;; ' (t, C2) <- build (with_lets C1 (add_let_bindings (c_lets C1) ts)) body ;;
  L <- pop_frame (c_lets C2) ;; Ok (t, with_lets C2 L).
Proof.
  reflexivity.
Qed.

(** iterations of the loop *)
Fixpoint cost (e : expr) : nat :=
  match e with
  | ESym _ | ENum _ | EDec _ _ => 1
  | EApp _ args => 1 + list_sum (map cost args) + 1
  | ELet bs body => 1 + list_sum (map (fun b => cost (snd b)) bs) + cost body
  end.
Lemma cost_toks e : cost e <= List.length (etoks e).
Proof.
  induction e as [| | |f args IH|bs body IH IHb] using expr_ind2; cbn [cost etoks List.length]; auto.
  - rewrite app_length. cbn [List.length]. assert (list_sum (map cost args) <= List.length (flat_map etoks args)); [|lia].
    induction IH as [|a l A F IH]; cbn; [lia|]. rewrite app_length. change (cost a + list_sum (map cost l) <= List.length (etoks a) + List.length (flat_map etoks l)). lia.
  - rewrite app_length. cbn [List.length]. rewrite app_length. cbn [List.length].
    assert (list_sum (map (fun b => cost (snd b)) bs) <= List.length (flat_map (fun b => LParen :: nm_tok (fst b) :: etoks (snd b) ++ [RParen]) bs)); [|lia].
    induction IH as [|a l A F IH]; [cbn; lia|]. cbn [map list_sum fold_right flat_map]. cbn [app List.length]. rewrite !app_length. cbn [List.length].
    change (cost (snd a) + list_sum (map (fun b => cost (snd b)) l) <= S (S (List.length (etoks (snd a)) + 1 + List.length (flat_map (fun b => LParen :: nm_tok (fst b) :: etoks (snd b) ++ [RParen]) l)))). lia.
Qed.

Definition finish (f : nat) (r : option term * pst) : res (term * list tok * pctx) :=
  match s_stack (snd r) with
  | [] => t <- value_of (fst r) ;; Ok (t, s_toks (snd r), s_ctx (snd r))
  | _ => parse_loop H f (snd r)
  end.
Lemma loop_atom f toks t K B C : (forall n, t = Sym n \/ t = QSym n -> exists s, token_symbol t = Ok s) ->
  parse_loop H (S f) (mkPst (t :: toks) K B C) =
  match t with
  | Sym _ | QSym _ => n <- token_symbol t ;; u <- term_for_symbol C n ;; r <- return_term K u toks B C ;; finish f r
  | Num d => ' (T, u) <- mk_numeral H (c_tab C) d ;; r <- return_term K u toks B (with_tab C T) ;; finish f r
  | Dec d => ' (T, u) <- mk_decimal H (c_tab C) d ;; r <- return_term K u toks B (with_tab C T) ;; finish f r
  | _ => parse_loop H (S f) (mkPst (t :: toks) K B C)
  end.
Proof. destruct t; reflexivity. Qed.
Lemma loop_rparen f toks n args K B C :
  parse_loop H (S f) (mkPst (RParen :: toks) (FArg n args :: K) B C) = ' (u, C') <- resolve_term H C n args ;; r <- return_term K u toks B C' ;; finish f r.
Proof. reflexivity. Qed.
Lemma loop_app f n toks K B C : parse_loop H (S f) (mkPst (LParen :: nm_tok n :: toks) K B C) = parse_loop H f (mkPst toks (FArg (nm_text n) [] :: K) B C).
Proof.
  pose proof (nm_symbol n) as E. destruct n as [s|s]; cbn [nm_tok nm_text] in *; cbn [parse_loop s_toks next bind]; rewrite E; reflexivity.
Qed.
Lemma loop_let f toks K B C : parse_loop H (S f) (mkPst (LParen :: Word (t_of "let") :: LParen :: toks) K B C) = (s1 <- next_binding toks K ([] :: B) C ;; parse_loop H f s1).
Proof. reflexivity. Qed.
Lemma next_more n toks K B C : next_binding (LParen :: nm_tok n :: toks) K B C = Ok (mkPst toks (FBind (nm_text n) :: K) B C).
Proof. unfold next_binding. cbn [eat_choice next bind is_lparen]. rewrite nm_symbol. reflexivity. Qed.
Lemma next_finish f toks K B C : (s <- next_binding toks K B C ;; finish f (None, s)) = (s <- next_binding toks K B C ;; parse_loop H f s).
Proof.
  unfold next_binding. destruct (eat_choice toks) as [[m l]| |]; cbn [bind]; auto. destruct m.
  - destruct (next l) as [[t l']| |]; cbn [bind]; auto. destruct (token_symbol t); reflexivity.
  - destruct B; reflexivity.
Qed.

Definition parses (e : expr) : Prop := forall C K B rest f,
  parse_loop H (cost e + f) (mkPst (etoks e ++ rest) K B C) = ' (t, C') <- build C e ;; r <- return_term K t rest B C' ;; finish f r.
Lemma parses_args args : Forall parses args -> forall C n acc K B rest f,
  parse_loop H (list_sum (map cost args) + f) (mkPst (flat_map etoks args ++ rest) (FArg n acc :: K) B C) =
  ' (ts, C') <- build_list C args ;; parse_loop H f (mkPst rest (FArg n (acc ++ ts) :: K) B C').
Proof.
  induction 1 as [|a l A F IH]; intros C n acc K B rest f; cbn [map flat_map build_list].
  - cbn [app bind]. rewrite app_nil_r. reflexivity.
  - change (list_sum (cost a :: map cost l)) with (cost a + list_sum (map cost l)). rewrite <- app_assoc, <- Nat.add_assoc, A.
    destruct (build C a) as [[t C1]| |]; cbn [bind]; auto. cbn [return_term]. cbn [bind]. unfold finish. cbn [snd s_stack].
    rewrite IH. destruct (build_list C1 l) as [[ts C2]| |]; cbn [bind]; auto. now rewrite <- app_assoc.
Qed.
Definition btoks (b : nm * expr) : list tok := LParen :: nm_tok (fst b) :: etoks (snd b) ++ [RParen].
Lemma parses_binds bs : Forall (fun b => parses (snd b)) bs -> forall C acc K B rest f,
  (s <- next_binding (flat_map btoks bs ++ RParen :: rest) K (acc :: B) C ;; parse_loop H (list_sum (map (fun b => cost (snd b)) bs) + f) s) =
  ' (ts, C1) <- build_binds C bs ;; parse_loop H f (mkPst rest (FBody :: K) B (with_lets C1 (add_let_bindings (c_lets C1) (acc ++ ts)))).
Proof.
  induction 1 as [|a l A F IH]; intros C acc K B rest f; cbn [map flat_map build_binds].
  - cbn [app bind]. rewrite app_nil_r. reflexivity.
  - change (list_sum (cost (snd a) :: map (fun b => cost (snd b)) l)) with (cost (snd a) + list_sum (map (fun b => cost (snd b)) l)).
    unfold btoks at 1. cbn [app]. rewrite next_more. cbn [bind]. rewrite <- !app_assoc, <- Nat.add_assoc, A.
    destruct (build C (snd a)) as [[t C1]| |]; cbn [bind]; auto. cbn [return_term app]. cbn [eat next bind is_rparen assertb].
    rewrite bind_assoc. cbn [bind]. rewrite next_finish, IH.
    destruct (build_binds C1 l) as [[ts C2]| |]; cbn [bind]; auto. now rewrite <- app_assoc.
Qed.
Lemma parses_all e : parses e.
Proof.
  induction e as [n|d|d f|g args IH|bs body IH IHb] using expr_ind2; intros C K B rest fu.
  - cbn [cost etoks app build Nat.add]. rewrite loop_atom by (intros; eexists; apply nm_symbol).
    pose proof (nm_symbol n) as E. destruct n as [s|s]; cbn [nm_tok] in *; rewrite E; cbn [bind]; destruct (term_for_symbol C _); reflexivity.
  - cbn [cost etoks app build Nat.add]. rewrite loop_atom by (intros n [?|?]; discriminate). destruct (mk_numeral H (c_tab C) d) as [[? ?]| |]; reflexivity.
  - cbn [cost etoks app build Nat.add]. rewrite loop_atom by (intros n [?|?]; discriminate). destruct (mk_decimal H (c_tab C) _) as [[? ?]| |]; reflexivity.
  - rewrite build_app. cbn [cost etoks app]. replace (1 + list_sum (map cost args) + 1 + fu) with (S (list_sum (map cost args) + (S fu))) by lia.
    rewrite loop_app. rewrite <- app_assoc. rewrite parses_args by exact IH.
    destruct (build_list C args) as [[ts C1]| |]; cbn [bind]; auto.
  - rewrite build_let. cbn [cost etoks app]. replace (1 + list_sum (map (fun b => cost (snd b)) bs) + cost body + fu) with (S (list_sum (map (fun b => cost (snd b)) bs) + (cost body + fu))) by lia.
    rewrite loop_let. fold btoks. rewrite <- app_assoc. change ((RParen :: etoks body ++ [RParen]) ++ rest) with (RParen :: (etoks body ++ [RParen]) ++ rest).
    rewrite <- (app_assoc (etoks body)). change (fun b : nm * expr => LParen :: nm_tok (fst b) :: etoks (snd b) ++ [RParen]) with btoks. rewrite parses_binds by exact IH.
    destruct (build_binds C bs) as [[ts C1]| |]; cbn [bind]; auto. cbn [app]. rewrite IHb.
    destruct (build _ body) as [[t C2]| |]; cbn [bind]; auto. cbn [return_term eat next bind is_rparen assertb].
    destruct (pop_frame (c_lets C2)); reflexivity.
Qed.
Lemma parse_build C e rest : parse_term H C (etoks e ++ rest) = ' (t, C') <- build C e ;; Ok (t, rest, C').
Proof.
  unfold parse_term. pose proof (cost_toks e) as L. rewrite app_length.
  replace (List.length (etoks e) + List.length rest) with (cost e + (List.length (etoks e) + List.length rest - cost e)) by lia.
  rewrite parses_all. destruct (build C e) as [[t C1]| |]; reflexivity.
Qed.
End Build.
