(** Proofs for C60: tokens of the text of a script. *)
From Coq Require Import Ascii String List Arith Bool Lia.
From Verif Require Import Base Terms_Model Lexer_Model Spec_Decimal Spec_Print Print_Proofs Parser_Model Spec_Parser Parser_Proofs Parser_Text Script_Model Spec_Script.
Import ListNotations.
Open Scope nat_scope.

Lemma D_kw kw : simple_symbol kw -> D (":"%char :: kw) [Kw (":"%char :: kw)].
Proof.
  intros SS. destruct (simple_lexed kw SS) as [S1 SC]. intros r ts' d HL. destruct kw as [|c s]; [destruct S1|]. apply (lexes_eq _ (Some (Kw (":"%char :: c :: s))) r); auto.
  - cbn [app]. unfold lex1. change (blank ":") with false. change (digitb ":") with false. change (sym1 ":") with false. cbn [Ascii.eqb Bool.eqb]. cbv iota. rewrite S1.
    change (c :: s ++ r) with ((c :: s) ++ r). rewrite (span_all symc (c :: s) r SC d). reflexivity.
  - cbn [List.length app]. rewrite app_length. lia.
Qed.
Lemma D_attr v : match v with AName n => nm_ok n | ADec d f => digits_ok (EDec d f) end -> D (attr_str v) [attr_tok v].
Proof. destruct v as [n|d f]; [apply D_nm|]. intros (A & B & C & E). now apply D_dec. Qed.
Lemma D_sort y : D (sort_str y) [sort_tok y].
Proof. unfold sort_str, sort_tok. destruct y; apply D_sym; apply plain_b; reflexivity. Qed.
Lemma P_end : P (t_of ")" ++ Spec_Script.nl) [RParen]. Proof. change [RParen] with ([RParen] ++ []). apply P_app; [apply P_rp|apply P_nl]. Qed.
Lemma end_D s ts : D s ts -> P (s ++ t_of ")" ++ Spec_Script.nl) (ts ++ [RParen]).
Proof. intros X. apply D_P; auto; [apply P_end|reflexivity|discriminate]. Qed.
Lemma sorts_P l : P (flat_map (fun s => t_of " " ++ sort_str s) l ++ t_of ") ") (map sort_tok l ++ [RParen]) /\
  delim (flat_map (fun s => t_of " " ++ sort_str s) l ++ t_of ") ") /\ flat_map (fun s => t_of " " ++ sort_str s) l ++ t_of ") " <> [].
Proof.
  induction l as [|y l (IH & ID & IN)]; cbn [flat_map map].
  - split; [apply P_rps|]. split; [reflexivity|discriminate].
  - split; [|split; [reflexivity|discriminate]]. rewrite <- !app_assoc. change ((sort_tok y :: map sort_tok l) ++ [RParen]) with ([] ++ [sort_tok y] ++ map sort_tok l ++ [RParen]).
    apply P_app; [apply P_sp|]. apply D_P; auto. apply D_sort.
Qed.
Lemma params_P (ps : list (nm * ty)) : Forall (fun p => nm_ok (fst p)) ps ->
  P (flat_map (fun p => t_of "(" ++ nm_str (fst p) ++ t_of " " ++ sort_str (snd p) ++ t_of ")") ps) (flat_map (fun p => [LParen; nm_tok (fst p); sort_tok (snd p); RParen]) ps).
Proof.
  induction 1 as [|p l A F IH]; cbn [flat_map]; [apply P_nil|]. apply P_app; auto. change [LParen; nm_tok (fst p); sort_tok (snd p); RParen] with ([LParen] ++ [nm_tok (fst p)] ++ [] ++ [sort_tok (snd p)] ++ [RParen]).
  apply P_app; [apply P_lp|]. apply D_P; [now apply D_nm| |reflexivity|discriminate].
  apply P_app; [apply P_sp|]. apply D_P; [apply D_sort|apply P_rp|reflexivity|discriminate].
Qed.
Lemma P_as : P (t_of "(assert ") [LParen; w_ "assert"]. Proof. lits. Qed.
Lemma P_dc : P (t_of "(declare-const ") [LParen; w_ "declare-const"]. Proof. lits. Qed.
Lemma P_dcf : P (t_of "(declare-fun ") [LParen; w_ "declare-fun"]. Proof. lits. Qed.
Lemma P_si : P (t_of "(set-info ") [LParen; w_ "set-info"]. Proof. lits. Qed.
Lemma P_so : P (t_of "(set-option ") [LParen; w_ "set-option"]. Proof. lits. Qed.
Lemma P_cs : P (t_of "(check-sat" ++ t_of ")" ++ Spec_Script.nl) [LParen; w_ "check-sat"; RParen]. Proof. unfold Spec_Script.nl. lits. Qed.
Lemma P_gm : P (t_of "(get-model" ++ t_of ")" ++ Spec_Script.nl) [LParen; w_ "get-model"; RParen]. Proof. unfold Spec_Script.nl. lits. Qed.
Lemma P_ex : P (t_of "(exit" ++ t_of ")" ++ Spec_Script.nl) [LParen; w_ "exit"; RParen]. Proof. unfold Spec_Script.nl. lits. Qed.
Lemma P_l1 : P (t_of "(set-logic QF_UFLRA" ++ t_of ")" ++ Spec_Script.nl) [LParen; w_ "set-logic"; Sym (t_of "QF_UFLRA"); RParen]. Proof. unfold Spec_Script.nl. lits. Qed.
Lemma P_l2 : P (t_of "(set-logic QF_LRA" ++ t_of ")" ++ Spec_Script.nl) [LParen; w_ "set-logic"; Sym (t_of "QF_LRA"); RParen]. Proof. unfold Spec_Script.nl. lits. Qed.
Lemma ctext_P c : lexical c -> P (ctext c) (ctoks c).
Proof.
  destruct c as [e| |n y|n ys y|n ps y e|b|kw v|kw v| |]; cbn [lexical]; intros L; unfold ctext, ctoks; cbn [app].
  - destruct L as [L1 L2]. change (LParen :: w_ "assert" :: etoks e ++ [RParen]) with ([LParen; w_ "assert"] ++ etoks e ++ [RParen]). rewrite <- app_assoc. apply P_app; [apply P_as|]. apply end_D. now apply etext_D.
  - exact P_cs.
  - rewrite <- !app_assoc. change [LParen; w_ "declare-const"; nm_tok n; sort_tok y; RParen] with ([LParen; w_ "declare-const"] ++ [nm_tok n] ++ [] ++ [sort_tok y] ++ [RParen]).
    apply P_app; [apply P_dc|]. apply D_P; [now apply D_nm| |reflexivity|discriminate]. apply P_app; [apply P_sp|]. apply end_D, D_sort.
  - rewrite <- !app_assoc. cbn [app].
    change (LParen :: w_ "declare-fun" :: nm_tok n :: LParen :: map sort_tok ys ++ [RParen; sort_tok y; RParen]) with
      ([LParen; w_ "declare-fun"] ++ [nm_tok n] ++ [LParen] ++ map sort_tok ys ++ [RParen] ++ [sort_tok y] ++ [RParen]).
    apply P_app; [apply P_dcf|]. apply D_P; [now apply D_nm| |reflexivity|discriminate]. apply P_app; [apply P_slp|].
    rewrite (app_assoc (flat_map _ _) (t_of ") ")), (app_assoc (map sort_tok ys) [RParen]). apply P_app; [apply sorts_P|]. apply end_D, D_sort.
  - destruct L as (L1 & L2 & L3 & L4). rewrite <- !app_assoc. cbn [app].
    change (LParen :: w_ "define-fun" :: nm_tok n :: LParen :: flat_map (fun p : nm * ty => [LParen; nm_tok (fst p); sort_tok (snd p); RParen]) ps ++ RParen :: sort_tok y :: etoks e ++ [RParen]) with
      ([LParen; w_ "define-fun"] ++ [nm_tok n] ++ [LParen] ++ flat_map (fun p : nm * ty => [LParen; nm_tok (fst p); sort_tok (snd p); RParen]) ps ++ [RParen] ++ [sort_tok y] ++ [] ++ etoks e ++ [RParen]).
    apply P_app; [apply P_df|]. apply D_P; [now apply D_nm| |reflexivity|discriminate]. apply P_app; [apply P_slp|]. apply P_app; [now apply params_P|]. apply P_app; [apply P_rps|].
    apply D_P; [apply D_sort| |reflexivity|discriminate]. apply P_app; [apply P_sp|]. apply end_D. now apply etext_D.
  - destruct b; [exact P_l1|exact P_l2].
  - destruct L as [L1 L2]. rewrite <- !app_assoc. change (t_of "(set-info :" ++ kw ++ t_of " " ++ attr_str v ++ t_of ")" ++ Spec_Script.nl) with (t_of "(set-info " ++ (":"%char :: kw) ++ t_of " " ++ attr_str v ++ t_of ")" ++ Spec_Script.nl).
    change [LParen; w_ "set-info"; Kw (":"%char :: kw); attr_tok v; RParen] with ([LParen; w_ "set-info"] ++ [Kw (":"%char :: kw)] ++ [] ++ [attr_tok v] ++ [RParen]).
    apply P_app; [apply P_si|]. apply D_P; [now apply D_kw| |reflexivity|discriminate]. apply P_app; [apply P_sp|]. apply end_D. now apply D_attr.
  - destruct L as [L1 L2]. rewrite <- !app_assoc. change (t_of "(set-option :" ++ kw ++ t_of " " ++ attr_str v ++ t_of ")" ++ Spec_Script.nl) with (t_of "(set-option " ++ (":"%char :: kw) ++ t_of " " ++ attr_str v ++ t_of ")" ++ Spec_Script.nl).
    change [LParen; w_ "set-option"; Kw (":"%char :: kw); attr_tok v; RParen] with ([LParen; w_ "set-option"] ++ [Kw (":"%char :: kw)] ++ [] ++ [attr_tok v] ++ [RParen]).
    apply P_app; [apply P_so|]. apply D_P; [now apply D_kw| |reflexivity|discriminate]. apply P_app; [apply P_sp|]. apply end_D. now apply D_attr.
  - exact P_gm.
  - exact P_ex.
Qed.
Lemma stext_P cs : Forall lexical cs -> P (stext cs) (stoks cs).
Proof. induction 1 as [|c cs L F IH]; [apply P_nil|]. cbn [stext stoks flat_map]. apply P_app; auto. now apply ctext_P. Qed.
Lemma stext_lex cs : Forall lexical cs -> lex (stext cs) = Some (stoks cs).
Proof. intros F. apply lexes_lex. rewrite <- (app_nil_r (stext cs)), <- (app_nil_r (stoks cs)). apply (stext_P cs F). apply lexes_nil. Qed.
