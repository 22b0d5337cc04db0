(** Proofs for C50: tokens of the text of an expression. *)
From Coq Require Import Ascii String List Arith Bool Lia.
From Verif Require Import Base Lexer_Model Spec_Decimal Spec_Print Print_Proofs Parser_Model Spec_Parser Parser_Proofs.
Import ListNotations.
Open Scope nat_scope.

Lemma D_dec d f : Forall is_digit d -> d <> [] -> Forall is_digit f -> f <> [] -> D (d ++ "."%char :: f) [Dec (d ++ "."%char :: f)].
Proof.
  intros Fd Nd Ff Nf r ts' de HL. destruct d as [|c d]; [congruence|]. destruct f as [|g f]; [congruence|].
  assert (A : forallb digitb (c :: d) = true) by (apply forallb_forall; intros x I; apply (proj1 (digit_cases x (proj1 (Forall_forall _ _) Fd x I)))).
  assert (B : forallb digitb (g :: f) = true) by (apply forallb_forall; intros x I; apply (proj1 (digit_cases x (proj1 (Forall_forall _ _) Ff x I)))).
  destruct (digit_cases c (Forall_inv Fd)) as (B0 & B1 & B2 & B3 & B4 & _). destruct (digit_cases g (Forall_inv Ff)) as (G0 & _).
  apply (lexes_eq _ (Some (Dec ((c :: d) ++ "."%char :: g :: f))) r); auto.
  - rewrite <- app_assoc. cbn [app lex1]. rewrite B1, B2, B3, B4, B0. change (c :: d ++ "."%char :: g :: f ++ r) with ((c :: d) ++ "."%char :: g :: f ++ r).
    rewrite (span_all digitb (c :: d) ("."%char :: g :: f ++ r) A eq_refl). cbn [Ascii.eqb]. rewrite G0. cbn [andb Bool.eqb tl]. change (g :: f ++ r) with ((g :: f) ++ r).
    rewrite (span_all digitb (g :: f) r B); [reflexivity|]. destruct r as [|p r]; [exact I|]. apply (symc_digit p de).
  - rewrite !app_length. simpl. lia.
Qed.
Lemma P_quoted s : ~ In "|"%char s -> ~ In "\"%char s -> P ("|"%char :: s ++ ["|"%char]) [QSym ("|"%char :: s ++ ["|"%char])].
Proof.
  intros N1 N2 r ts HL. cbn [app].
  apply (lexes_eq _ (Some (QSym ("|"%char :: s ++ ["|"%char]))) r); auto.
  - rewrite <- app_assoc. cbn [app]. unfold lex1. cbn [blank code Ascii.eqb Bool.eqb]. change (blank "|") with false. change (digitb "|") with false. change (sym1 "|") with false. cbv iota.
    rewrite (span_all (fun d => negb (Ascii.eqb d "|") && negb (code d =? 92)) s ("|"%char :: r)).
    + reflexivity.
    + apply forallb_forall. intros x Ix. apply andb_true_iff. split; apply negb_true_iff.
      * apply Ascii.eqb_neq. congruence.
      * apply Nat.eqb_neq. intros E. apply N2. replace "\"%char with x; auto. unfold code in E. rewrite <- (ascii_nat_embedding x), E. reflexivity.
    + reflexivity.
  - cbn [List.length]. rewrite !app_length. cbn. lia.
Qed.
Lemma D_nm n : nm_ok n -> D (nm_str n) [nm_tok n].
Proof. destruct n as [s|s]; cbn; [apply D_sym|]. intros [A B]. apply P_D. now apply P_quoted. Qed.
Lemma P_let : P (t_of "(let (") [LParen; Word (t_of "let"); LParen]. Proof. lits. Qed.

Lemma sp_delim (s : text) : delim (t_of " " ++ s) /\ t_of " " ++ s <> []. Proof. split; [reflexivity|discriminate]. Qed.
Lemma rp_delim (s : text) : delim (t_of ")" ++ s) /\ t_of ")" ++ s <> []. Proof. split; [reflexivity|discriminate]. Qed.
(** arguments, then a closing parenthesis *)
Lemma args_rp args : Forall (fun e => D (etext e) (etoks e)) args ->
  P (flat_map (fun a => t_of " " ++ etext a) args ++ t_of ")") (flat_map etoks args ++ [RParen]) /\
  delim (flat_map (fun a => t_of " " ++ etext a) args ++ t_of ")") /\ flat_map (fun a => t_of " " ++ etext a) args ++ t_of ")" <> [].
Proof.
  induction 1 as [|a l A F (IH & ID & IN)]; cbn [flat_map].
  - split; [apply P_rp|]. split; [reflexivity|discriminate].
  - split; [|split; [reflexivity|discriminate]]. rewrite <- !app_assoc. change (etoks a ++ flat_map etoks l ++ [RParen]) with ([] ++ etoks a ++ flat_map etoks l ++ [RParen]).
    apply P_app; [apply P_sp|]. apply D_P; auto.
Qed.
Lemma binds_P bs : Forall (fun b => nm_ok (fst b) /\ D (etext (snd b)) (etoks (snd b))) bs ->
  P (flat_map (fun b => t_of "(" ++ nm_str (fst b) ++ t_of " " ++ etext (snd b) ++ t_of ")") bs) (flat_map btoks bs).
Proof.
  induction 1 as [|b l [A B] F IH]; cbn [flat_map]; [apply P_nil|]. apply P_app; auto. unfold btoks. change (LParen :: nm_tok (fst b) :: etoks (snd b) ++ [RParen]) with ([LParen] ++ [nm_tok (fst b)] ++ [] ++ etoks (snd b) ++ [RParen]).
  apply P_app; [apply P_lp|]. apply D_P; [now apply D_nm| |reflexivity|discriminate].
  apply P_app; [apply P_sp|]. apply D_P; auto; [apply P_rp|reflexivity|discriminate].
Qed.
Lemma etext_D e : names_ok e -> digits_ok e -> D (etext e) (etoks e).
Proof.
  induction e as [n|d|d f|g args IH|bs body IH IHb] using expr_ind2; cbn [names_ok digits_ok etext etoks]; intros NO DG.
  - now apply D_nm.
  - now apply D_num.
  - destruct DG as (A & B & C & E). now apply D_dec.
  - destruct NO as [NG NO]. apply P_D. assert (F : Forall (fun e => D (etext e) (etoks e)) args).
    { clear NG. induction IH as [|a l A F IH2]; constructor; cbn [map fold_right] in *; [tauto|]. apply IH2; tauto. }
    destruct (args_rp args F) as (A & B & C). change (LParen :: nm_tok g :: flat_map etoks args ++ [RParen]) with ([LParen] ++ [nm_tok g] ++ flat_map etoks args ++ [RParen]).
    apply P_app; [apply P_lp|]. apply D_P; auto. now apply D_nm.
  - destruct NO as [NO NB], DG as [DG DB]. apply P_D. assert (F : Forall (fun b => nm_ok (fst b) /\ D (etext (snd b)) (etoks (snd b))) bs).
    { clear NB DB. induction IH as [|a l A F IH2]; constructor; cbn [map fold_right] in *; [tauto|]. apply IH2; tauto. }
    change (fun b : nm * expr => LParen :: nm_tok (fst b) :: etoks (snd b) ++ [RParen]) with btoks.
    change (LParen :: Word (t_of "let") :: LParen :: flat_map btoks bs ++ RParen :: etoks body ++ [RParen]) with
      ([LParen; Word (t_of "let"); LParen] ++ flat_map btoks bs ++ [RParen] ++ etoks body ++ [RParen]).
    apply P_app; [apply P_let|]. apply P_app; [now apply binds_P|]. apply P_app; [apply P_rps|]. apply D_P; [auto|apply P_rp|reflexivity|discriminate].
Qed.
Lemma etext_lex e : names_ok e -> digits_ok e -> lex (etext e) = Some (etoks e).
Proof. intros A B. apply lexes_lex. rewrite <- (app_nil_r (etext e)), <- (app_nil_r (etoks e)). apply (etext_D e A B); [exact I|apply lexes_nil]. Qed.
