(** The printer of models: lexing of its output, value of the printed expressions. *)
From Coq Require Import List Arith ZArith QArith Qfield Bool Ascii String Lia FinFun.
From Verif Require Import Base Rational_Model Spec_Rational Rational_Proofs Rational_Proofs2 Rational_Proofs3 Lexer_Model Spec_Decimal Uf_Model
  Print_Model Spec_Print.
Import ListNotations.
Close Scope Q_scope.
Open Scope nat_scope.

(** ** Lexing *)
Definition lexes (s : text) (ts : list tok) : Prop := forall f, List.length s < f -> lex_f f s = Some ts.
Lemma lexes_lex s ts : lexes s ts -> lex s = Some ts.
Proof. intros H. apply H. lia. Qed.
Lemma lexes_nil : lexes [] [].
Proof. intros [|f] H; [simpl in H; lia|reflexivity]. Qed.
Definition otoks (o : option tok) : list tok := match o with Some t => [t] | None => [] end.
Lemma lexes_eq s o r ts : lex1 s = Some (o, r) -> List.length r < List.length s -> lexes r ts -> lexes s (otoks o ++ ts).
Proof.
  intros E L H f F. destruct f as [|f]; [lia|]. cbn [lex_f]. destruct s as [|c s]; [discriminate E|]. rewrite E.
  destruct o as [t|]; rewrite (H f) by (simpl in *; lia); reflexivity.
Qed.
Definition delim (r : text) : Prop := match r with [] => True | c :: _ => symc c = false end.
Definition P (s : text) (ts : list tok) : Prop := forall r ts', lexes r ts' -> lexes (s ++ r) (ts ++ ts').
Definition D (s : text) (ts : list tok) : Prop := forall r ts', delim r -> lexes r ts' -> lexes (s ++ r) (ts ++ ts').
Lemma P_D s ts : P s ts -> D s ts.
Proof. intros H r ts' _. apply H. Qed.
Lemma P_nil : P [] [].
Proof. intros r ts H. exact H. Qed.
Lemma P_app a ta b tb : P a ta -> P b tb -> P (a ++ b) (ta ++ tb).
Proof. intros A B r ts H. rewrite <- !app_assoc. apply A, B, H. Qed.
Lemma D_app a ta b tb : P a ta -> D b tb -> D (a ++ b) (ta ++ tb).
Proof. intros A B r ts d H. rewrite <- !app_assoc. apply A, B; auto. Qed.
Lemma D_P a ta b tb : D a ta -> P b tb -> delim b -> b <> [] -> P (a ++ b) (ta ++ tb).
Proof. intros A B d N r ts H. rewrite <- !app_assoc. apply A; [destruct b; [congruence|exact d]|]. apply B, H. Qed.
Lemma P_lexes s ts : P s ts -> lexes s ts.
Proof. intros H. rewrite <- (app_nil_r s), <- (app_nil_r ts). apply H, lexes_nil. Qed.

Ltac step := match goal with |- lexes ?s ?ts => 
  let x := eval cbv in (lex1 s) in
  match x with Some (?o, ?r) => 
    let ts1 := match o with Some ?t => match ts with _ :: ?ts1 => ts1 end | None => ts end in
    refine (lexes_eq s o r ts1 _ _ _); [vm_cast_no_check (eq_refl (Some (o, r)))|cbn; lia|] end end.
Ltac lits := intros ?r ?ts ?H; cbn [t_of list_ascii_of_string app]; repeat first [exact H | step].
Lemma P_sp : P (t_of " ") []. Proof. lits. Qed.
Lemma P_lp : P (t_of "(") [LParen]. Proof. lits. Qed.
Lemma P_rp : P (t_of ")") [RParen]. Proof. lits. Qed.
Lemma P_nl : P nl []. Proof. unfold nl. lits. Qed.
Lemma P_df : P (t_of "(define-fun ") [LParen; Word (t_of "define-fun")]. Proof. lits. Qed.
Lemma P_slp : P (t_of " (") [LParen]. Proof. lits. Qed.
Lemma P_rps : P (t_of ") ") [RParen]. Proof. lits. Qed.
Lemma P_neg : P (t_of "(- ") [LParen; Sym (t_of "-")]. Proof. lits. Qed.
Lemma P_div : P (t_of "(/ ") [LParen; Sym (t_of "/")]. Proof. lits. Qed.
Lemma P_eqs : P (t_of " (= ") [LParen; Sym (t_of "=")]. Proof. lits. Qed.
Lemma P_pad : P (t_of "       ") []. Proof. lits. Qed.
Lemma P_unit : P (t_of " () ") [LParen; RParen]. Proof. lits. Qed.

Lemma span_all p s r : forallb p s = true -> match r with [] => True | c :: _ => p c = false end -> span p (s ++ r) = (s, r).
Proof.
  induction s as [|c s IH]; cbn [forallb app span].
  - intros _ H. destruct r as [|c r]; [reflexivity|]. cbn [span]. now rewrite H.
  - intros A H. apply andb_true_iff in A. destruct A as [-> A]. rewrite (IH A H). reflexivity.
Qed.
Lemma sym1_class c : sym1 c = true -> blank c = false /\ Ascii.eqb c "(" = false /\ Ascii.eqb c ")" = false /\ Ascii.eqb c ";" = false /\ digitb c = false.
Proof. destruct c as [[] [] [] [] [] [] [] []]; vm_compute; intros H; try discriminate H; auto. Qed.
Lemma simple_sym1 c : In c simple_chars -> sym1 c = true.
Proof. intros I. unfold simple_chars in I. cbn in I. repeat (destruct I as [<-|I]; [reflexivity|]). destruct I. Qed.
Lemma simple_lexed s : simple_symbol s -> match s with c :: _ => sym1 c = true | [] => False end /\ forallb symc s = true.
Proof.
  intros [A B]. split; [destruct s; auto; now apply simple_sym1|]. apply forallb_forall. intros c I. unfold symc.
  destruct (proj1 (Forall_forall _ _) B c I) as [X|X]; [now rewrite (simple_sym1 c X)|]. rewrite orb_comm. replace (digitb c) with true; [reflexivity|].
  repeat (destruct X as [<-|X]; [reflexivity|]). destruct X.
Qed.
Lemma tx_eqb_true a : forall b, text_eqb a b = true -> a = b.
Proof.
  induction a as [|x a IH]; intros [|y b] E; cbn in E; try discriminate; auto. apply andb_true_iff in E. destruct E as [E1 E2].
  apply Ascii.eqb_eq in E1. f_equal; auto.
Qed.
Lemma plain_lexed s : plain s -> match s with c :: _ => sym1 c = true | [] => False end /\ forallb symc s = true /\ reserved s = false.
Proof.
  intros [A B]. destruct (simple_lexed s A) as [C D]. split; auto. split; auto. unfold reserved. destruct (existsb _ words) eqn:E; [|reflexivity]. exfalso. apply B.
  apply existsb_exists in E. destruct E as (w & I & E). apply tx_eqb_true in E. subst w. exact I.
Qed.
Lemma D_sym s : plain s -> D s [Sym s].
Proof.
  intros PL. destruct (plain_lexed s PL) as (S1 & SC & R). intros r ts' d H. destruct s as [|c s]; [destruct S1|]. destruct (sym1_class c S1) as (B1 & B2 & B3 & B4 & B5).
  apply (lexes_eq _ (Some (Sym (c :: s))) r); auto.
  - cbn [app lex1]. rewrite B1, B2, B3, B4, B5, S1. change (c :: s ++ r) with ((c :: s) ++ r). rewrite (span_all symc (c :: s) r SC d).
    unfold sym_tok. now rewrite R.
  - rewrite app_length. simpl. lia.
Qed.
Lemma digit_cases c : is_digit c -> digitb c = true /\ blank c = false /\ Ascii.eqb c "(" = false /\ Ascii.eqb c ")" = false /\ Ascii.eqb c ";" = false /\ symc c = true.
Proof. intros H. repeat (destruct H as [<-|H]; [vm_compute; repeat split; reflexivity|]). destruct H. Qed.
Lemma symc_digit c : symc c = false -> digitb c = false /\ Ascii.eqb c "." = false.
Proof.
  unfold symc. intros H. apply orb_false_iff in H. destruct H as [H ->]. split; [reflexivity|].
  destruct (Ascii.eqb_spec c "."); [|reflexivity]. subst. discriminate H.
Qed.
Lemma D_num s : Forall is_digit s -> s <> [] -> D s [Num s].
Proof.
  intros F N r ts' d H. destruct s as [|c s]; [congruence|].
  assert (A : forallb digitb (c :: s) = true) by (apply forallb_forall; intros x I; apply (proj1 (digit_cases x (proj1 (Forall_forall _ _) F x I)))).
  destruct (digit_cases c (Forall_inv F)) as (B0 & B1 & B2 & B3 & B4 & _).
  apply (lexes_eq _ (Some (Num (c :: s))) r); auto.
  - cbn [app lex1]. rewrite B1, B2, B3, B4, B0. change (c :: s ++ r) with ((c :: s) ++ r).
    rewrite (span_all digitb (c :: s) r A).
    + destruct r as [|p [|q r]]; try reflexivity. destruct (symc_digit p d) as [_ ->]. reflexivity.
    + destruct r as [|p r]; [exact I|]. apply (symc_digit p d).
  - rewrite app_length. simpl. lia.
Qed.

(** ** Decimal digits *)
Lemma digit_ok z : (0 <= z < 10)%Z -> is_digit (digit z) /\ digit_value (digit z) = z.
Proof.
  intros B. assert (C : (z = 0 \/ z = 1 \/ z = 2 \/ z = 3 \/ z = 4 \/ z = 5 \/ z = 6 \/ z = 7 \/ z = 8 \/ z = 9)%Z) by lia.
  repeat (destruct C as [->|C]; [split; [vm_compute; tauto|reflexivity]|]). subst. split; [vm_compute; tauto|reflexivity].
Qed.
Lemma dv_snoc s c : digits_value (s ++ [c]) = (10 * digits_value s + digit_value c)%Z.
Proof.
  induction s as [|d s IH]; [simpl; lia|]. cbn [app digits_value]. rewrite IH, app_length. simpl (List.length [c]).
  rewrite Nat.add_1_r, Nat2Z.inj_succ, Z.pow_succ_r by lia. ring.
Qed.
Lemma dec_f_ok f : forall z, (0 <= z)%Z -> Z.to_nat (Z.log2 z) < f -> Forall is_digit (dec_f f z) /\ dec_f f z <> [] /\ digits_value (dec_f f z) = z.
Proof.
  induction f as [|f IH]; intros z Z0 F; [lia|]. cbn [dec_f]. destruct (Z.ltb_spec z 10).
  - destruct (digit_ok z) as [A B]; [lia|]. split; [constructor; [exact A|constructor]|]. split; [discriminate|]. cbn [digits_value List.length]. rewrite B. cbn. lia.
  - destruct (IH (z / 10)%Z) as (A & B & C).
    + apply Z.div_pos; lia.
    + assert (L : (Z.log2 (z / 10) < Z.log2 z)%Z).
      { apply Z.log2_lt_pow2; [apply Z.div_str_pos; lia|]. pose proof (Z.log2_spec z ltac:(lia)) as [S1 S2].
        apply Z.div_lt_upper_bound; [lia|]. rewrite Z.pow_succ_r in S2 by apply Z.log2_nonneg. lia. }
      pose proof (Z.log2_nonneg (z / 10)). lia.
    + destruct (digit_ok (z mod 10)%Z) as [G V]; [apply Z.mod_pos_bound; lia|].
      split; [apply Forall_app; split; auto|]. split; [destruct (dec_f f (z / 10)); discriminate|].
      rewrite dv_snoc, C, V. pose proof (Z.div_mod z 10 ltac:(lia)). lia.
Qed.
Lemma dec_ok z : (0 <= z)%Z -> Forall is_digit (dec_text z) /\ dec_text z <> [] /\ digits_value (dec_text z) = z.
Proof. intros H. apply dec_f_ok; auto. Qed.

(** ** Values *)
Definition num_sx (z : Z) : sexp := At (Num (dec_text z)).
Lemma num_D z : (0 <= z)%Z -> D (dec_text z) (sx_toks (num_sx z)).
Proof. intros H. destruct (dec_ok z H) as (A & B & _). now apply D_num. Qed.
Lemma num_ev env z : (0 <= z)%Z -> evals env (num_sx z) (PR (inject_Z z)).
Proof. intros H. destruct (dec_ok z H) as (A & B & C). rewrite <- C at 2. now constructor. Qed.
Definition sgn_sx (neg : bool) (z : Z) : sexp := if neg then Li [sy "-"; num_sx z] else num_sx z.
Lemma sgn_ev env (neg : bool) z : (0 <= z)%Z -> evals env (sgn_sx neg z) (PR (inject_Z (if neg then - z else z))).
Proof. intros H. destruct neg; [|now apply num_ev]. apply e_neg with (q := inject_Z z); [now apply num_ev|]. now rewrite inject_Z_opp. Qed.
Lemma sgn_D (neg : bool) z : (0 <= z)%Z ->
  D (t_of (if neg then "(- " else "") ++ dec_text z ++ t_of (if neg then ")" else "")) (sx_toks (sgn_sx neg z)).
Proof.
  intros H. destruct neg.
  - apply P_D. change (sx_toks (sgn_sx true z)) with ([LParen; Sym (t_of "-")] ++ sx_toks (num_sx z) ++ [RParen]).
    apply P_app; [exact P_neg|]. apply D_P; [now apply num_D|exact P_rp|reflexivity|discriminate].
  - cbn [t_of list_ascii_of_string app]. rewrite app_nil_r. now apply num_D.
Qed.
Lemma frac_P (neg : bool) z d : (0 <= z)%Z -> (0 <= d)%Z ->
  P (t_of "(/ " ++ t_of (if neg then "(- " else "") ++ dec_text z ++ t_of (if neg then ") " else " ") ++ dec_text d ++ t_of ")")
    (sx_toks (Li [sy "/"; sgn_sx neg z; num_sx d])).
Proof.
  intros H H'. change (sx_toks (Li [sy "/"; sgn_sx neg z; num_sx d]))
    with ([LParen; Sym (t_of "/")] ++ (sx_toks (sgn_sx neg z) ++ sx_toks (num_sx d) ++ []) ++ [RParen]).
  apply P_app; [exact P_div|].
  assert (K : P (t_of (if neg then "(- " else "") ++ dec_text z ++ t_of (if neg then ") " else " ")) (sx_toks (sgn_sx neg z) ++ [])).
  { replace (t_of (if neg then "(- " else "") ++ dec_text z ++ t_of (if neg then ") " else " "))
      with ((t_of (if neg then "(- " else "") ++ dec_text z ++ t_of (if neg then ")" else "")) ++ t_of " ")
      by (rewrite <- !app_assoc; destruct neg; reflexivity).
    apply D_P; [now apply sgn_D|exact P_sp|reflexivity|discriminate]. }
  rewrite app_nil_r in *. rewrite <- app_assoc.
  replace (t_of (if neg then "(- " else "") ++ dec_text z ++ t_of (if neg then ") " else " ") ++ dec_text d ++ t_of ")")
    with ((t_of (if neg then "(- " else "") ++ dec_text z ++ t_of (if neg then ") " else " ")) ++ dec_text d ++ t_of ")") by (now rewrite <- !app_assoc).
  apply P_app; [exact K|]. apply D_P; [now apply num_D|exact P_rp|reflexivity|discriminate].
Qed.
Lemma frac_ev env (neg : bool) z d : (0 <= z)%Z -> (0 < d)%Z ->
  evals env (Li [sy "/"; sgn_sx neg z; num_sx d]) (PR ((if neg then - z else z) # Z.to_pos d)).
Proof.
  intros H H'. eapply e_div; [apply (sgn_ev env neg z H)|apply (num_ev env d); lia| |].
  - unfold Qeq. cbn. lia.
  - rewrite Qmake_Qdiv. destruct d; try lia. reflexivity.
Qed.
Lemma lf_print_ok x : canonical x -> exists s e, lf_print x = Ok s /\ D s (sx_toks e) /\ forall env, evals env e (PR (value x)).
Proof.
  intros C. pose proof C as [SP MP [LP LG] AG FF]. unfold lf_print, lf_sign. destruct (wv x) eqn:W.
  - destruct (canonical_word x C W) as (Wn & Wd & _). unfold parts in LP, LG. rewrite W in LP, LG. cbn [fst snd] in LP, LG.
    unfold word in Wn. cbn [bind].
    assert (V : value x = (num x # Z.to_pos (den x))%Q) by (unfold value; rewrite parts_word by assumption; reflexivity). rewrite V.
    set (neg := (num x <? 0)%Z).
    assert (S0 : ((if neg then -1 else if 0 <? num x then 1 else 0) <? 0)%Z = neg) by (unfold neg; destruct (Z.ltb_spec (num x) 0), (Z.ltb_spec 0 (num x)); reflexivity).
    rewrite S0. rewrite absVal32_abs by assumption.
    assert (AB : (if neg then - Z.abs (num x) else Z.abs (num x))%Z = num x) by (unfold neg; destruct (Z.ltb_spec (num x) 0); lia).
    destruct (Z.eqb_spec (den x) 1) as [D1|D1].
    + eexists. exists (sgn_sx neg (Z.abs (num x))). split; [reflexivity|]. split; [apply sgn_D; lia|].
      intros env. rewrite D1. pose proof (sgn_ev env neg (Z.abs (num x)) ltac:(lia)) as E. rewrite AB in E. exact E.
    + eexists. exists (Li [sy "/"; sgn_sx neg (Z.abs (num x)); num_sx (den x)]). split; [reflexivity|]. split; [apply P_D, frac_P; lia|].
      intros env. pose proof (frac_ev env neg (Z.abs (num x)) (den x) ltac:(lia) LP) as E. rewrite AB in E. exact E.
  - destruct SP as [SP|SP]; [congruence|]. rewrite SP. cbn [assertb bind]. unfold parts in LP, LG. rewrite W in LP, LG.
    assert (V : value x = (fst (mq x) # Z.to_pos (snd (mq x)))%Q) by (unfold value, parts; rewrite W; reflexivity). rewrite V.
    set (neg := (Z.sgn (fst (mq x)) <? 0)%Z).
    assert (AB : fst (if neg then mpq_neg (mq x) else mq x) = Z.abs (fst (mq x)) /\ snd (if neg then mpq_neg (mq x) else mq x) = snd (mq x) /\
      (if neg then - Z.abs (fst (mq x)) else Z.abs (fst (mq x)))%Z = fst (mq x)).
    { unfold neg, mpq_neg. destruct (Z.ltb_spec (Z.sgn (fst (mq x))) 0); cbn [fst snd]; repeat split; lia. }
    destruct AB as (A1 & A2 & A3). rewrite A1, A2.
    eexists. exists (Li [sy "/"; sgn_sx neg (Z.abs (fst (mq x))); num_sx (snd (mq x))]). split; [reflexivity|]. split; [apply P_D, frac_P; lia|].
    intros env. pose proof (frac_ev env neg (Z.abs (fst (mq x))) (snd (mq x)) ltac:(lia) LP) as E. rewrite A3 in E. exact E.
Qed.
Lemma tx_eqb_refl a : text_eqb a a = true.
Proof. induction a as [|x a IH]; cbn; auto. now rewrite Ascii.eqb_refl. Qed.
Definition in_chars (l : text) (c : ascii) : bool := existsb (Ascii.eqb c) l.
Lemma in_chars_in l c : in_chars l c = true -> In c l.
Proof. intros E. apply existsb_exists in E. destruct E as (d & I & E). apply Ascii.eqb_eq in E. now subst. Qed.
Definition simple_b (s : text) : bool :=
  match s with c :: _ => in_chars simple_chars c | [] => false end && forallb (fun c => in_chars simple_chars c || in_chars (t_of "0123456789") c) s.
Lemma simple_ok s : simple_b s = true -> simple_symbol s.
Proof.
  unfold simple_b. rewrite andb_true_iff. intros [A B]. split; [destruct s; [discriminate A|now apply in_chars_in]|].
  apply Forall_forall. intros c I. apply (proj1 (forallb_forall _ _) B) in I. apply orb_true_iff in I. destruct I as [I|I]; [left|right]; now apply in_chars_in.
Qed.
Lemma plain_b s : (simple_b s && negb (existsb (text_eqb s) reserved_words))%bool = true -> plain s.
Proof.
  rewrite andb_true_iff, negb_true_iff. intros [A B]. split; [now apply simple_ok|]. intros I. rewrite <- not_true_iff_false in B. apply B.
  apply existsb_exists. exists s. split; auto. apply tx_eqb_refl.
Qed.
Lemma print_var_ok v : fine_val v -> exists s e, print_variable v = Ok s /\ D s (sx_toks e) /\ forall env, evals env e (pv v).
Proof.
  destruct v as [b|x]; intros F; [|now apply lf_print_ok]. exists (t_of (if b then "true" else "false")), (sy (if b then "true" else "false")).
  split; [reflexivity|]. split; [destruct b; apply D_sym, plain_b; vm_compute; reflexivity|]. intros env. destruct b; constructor.
Qed.
Lemma type_D v : D (print_type v) [Sym (sort_of (pv v))].
Proof. destruct v; apply D_sym, plain_b; vm_compute; reflexivity. Qed.

(** ** Names of arguments *)
Lemma arg_plain i : plain (arg_name i).
Proof.
  destruct (dec_ok (Z.of_nat i)) as (F & N & _); [lia|]. unfold arg_name. cbn [t_of list_ascii_of_string app]. split; [split; [apply in_chars_in; reflexivity|]|].
  - constructor; [left; apply in_chars_in; reflexivity|]. apply Forall_forall. intros c Ic. right. eapply Forall_forall; eauto.
  - intros Iw. unfold reserved_words in Iw. simpl in Iw. repeat (destruct Iw as [Iw|Iw]; [discriminate Iw|]). destruct Iw.
Qed.
Lemma arg_inj i j : arg_name i = arg_name j -> i = j.
Proof.
  unfold arg_name. intros E. apply app_inv_head in E. destruct (dec_ok (Z.of_nat i)) as (_ & _ & A); [lia|].
  destruct (dec_ok (Z.of_nat j)) as (_ & _ & B); [lia|]. rewrite E in A. lia.
Qed.
Fixpoint params_of (i : nat) (l : list pval) : list (text * text) :=
  match l with [] => [] | v :: l' => (arg_name i, sort_of (pv v)) :: params_of (S i) l' end.
Lemma args_P l : forall i, P (print_args i l) (flat_map sx_toks (map param_sx (params_of i l))).
Proof.
  induction l as [|v l IH]; intros i; [exact P_nil|]. cbn [print_args params_of map flat_map].
  change (sx_toks (param_sx (arg_name i, sort_of (pv v)))) with ([LParen] ++ ([Sym (arg_name i)] ++ []) ++ [Sym (sort_of (pv v))] ++ [RParen]).
  rewrite <- !app_assoc. apply P_app; [destruct (0 <? i); [exact P_slp|exact P_lp]|].
  rewrite !(app_assoc _ (t_of " ")), !(app_assoc [Sym _] []). apply P_app.
  { apply D_P; [apply D_sym, arg_plain|exact P_sp|reflexivity|discriminate]. }
  rewrite !(app_assoc _ (t_of ")")), !(app_assoc [Sym _] [RParen]). apply P_app.
  { apply D_P; [apply type_D|exact P_rp|reflexivity|discriminate]. }
  apply IH.
Qed.
Lemma params_names l : forall i, map fst (params_of i l) = map arg_name (seq i (List.length l)).
Proof. induction l as [|v l IH]; intros i; [reflexivity|]. cbn. now rewrite IH. Qed.
Lemma params_sorts l : forall i, map snd (params_of i l) = map sort_of (map pv l).
Proof. induction l as [|v l IH]; intros i; [reflexivity|]. cbn. now rewrite IH. Qed.

(** ** Rows *)
Definition eqs2 (a b : list uval) : list bool := map (fun p => uval_eqb (fst p) (snd p)) (combine a b).
Lemma eqs2_all a : forall b, List.length a = List.length b -> forallb (fun x => x) (eqs2 a b) = vals_eqb a b.
Proof. induction a as [|x a IH]; intros [|y b] L; try discriminate L; [reflexivity|]. cbn. f_equal. apply IH. simpl in L. lia. Qed.
Definition binds (env : list (text * uval)) (j : nat) (args : list uval) : Prop :=
  forall i a, nth_error args i = Some a -> In (arg_name (j + i), a) env.
Lemma eqs_ok n k : Forall fine_val k -> forall j, j + List.length k <= n -> exists s es, print_eqs n j k = Ok s /\ List.length es = List.length k /\
  P s (flat_map sx_toks es) /\
  forall env args, List.length args = List.length k -> binds env j args -> eands env es (eqs2 args (map pv k)).
Proof.
  induction 1 as [|v k Fv Fk IH]; intros j L.
  - exists [], []. split; [reflexivity|]. split; [reflexivity|]. split; [exact P_nil|]. intros env [|a args] E B; [constructor|discriminate E].
  - simpl in L. destruct (IH (S j) ltac:(lia)) as (s & es & E & Le & HP & EV). destruct (print_var_ok v Fv) as (sv & e & Ev & Dv & Vv).
    cbn [print_eqs]. destruct (Nat.ltb_spec j n); [|lia]. cbn [assertb bind]. rewrite Ev. cbn [bind]. rewrite E. cbn [bind].
    eexists. exists (Li [sy "="; At (Sym (arg_name j)); e] :: es). split; [reflexivity|]. split; [simpl; lia|]. split.
    + cbn [flat_map]. change (sx_toks (Li [sy "="; At (Sym (arg_name j)); e])) with ([LParen; Sym (t_of "=")] ++ (([Sym (arg_name j)] ++ []) ++ (sx_toks e ++ [])) ++ [RParen]).
      rewrite <- !app_assoc. apply P_app; [exact P_eqs|].
      rewrite !(app_assoc _ (t_of " ")), !(app_assoc [Sym _] []). apply P_app.
      { apply D_P; [apply D_sym, arg_plain|exact P_sp|reflexivity|discriminate]. }
      rewrite !(app_assoc _ (t_of ")")), app_nil_l, (app_assoc (sx_toks e) [RParen]). apply P_app; [|exact HP].
      apply D_P; [exact Dv|exact P_rp|reflexivity|discriminate].
    + intros env [|a args] La B; [discriminate La|]. cbn [map]. unfold eqs2. cbn [combine map fst snd].
      constructor.
      * apply e_eq; [|apply Vv]. constructor. specialize (B 0 a eq_refl). now rewrite Nat.add_0_r in B.
      * apply EV; [simpl in La; lia|]. intros i x Nx. specialize (B (S i) x Nx). now rewrite Nat.add_succ_r in B.
Qed.
Definition row_ok (n : nat) (env : list (text * uval)) (args : list uval) (r : list pval * pval) (c : sexp * sexp) : Prop :=
  evals env (fst c) (PB (vals_eqb args (map pv (fst r)))) /\ evals env (snd c) (pv (snd r)).
Definition row_toks (c : sexp * sexp) : list tok := LParen :: Sym (t_of "ite") :: sx_toks (fst c) ++ sx_toks (snd c).
Lemma D_ite : D (t_of "  (ite") [LParen; Sym (t_of "ite")].
Proof.
  change (t_of "  (ite") with (t_of "  (" ++ t_of "ite"). change [LParen; Sym (t_of "ite")] with ([LParen] ++ [Sym (t_of "ite")]).
  apply D_app; [lits|]. apply D_sym, plain_b. vm_compute. reflexivity.
Qed.
Lemma D_and : D (t_of " (and") [LParen; Sym (t_of "and")].
Proof.
  change (t_of " (and") with (t_of " (" ++ t_of "and"). change [LParen; Sym (t_of "and")] with ([LParen] ++ [Sym (t_of "and")]).
  apply D_app; [lits|]. apply D_sym, plain_b. vm_compute. reflexivity.
Qed.
Lemma eqs_delim n j k s : print_eqs n j k = Ok s -> k <> [] -> delim s /\ s <> [].
Proof.
  destruct k as [|v k]; [congruence|]. cbn [print_eqs]. intros E _. destruct (assertb _); [|discriminate E|discriminate E]. cbn [bind] in E.
  destruct (print_variable v); [|discriminate E|discriminate E]. cbn [bind] in E. destruct (print_eqs _ _ _); [|discriminate E|discriminate E].
  injection E as <-. split; [reflexivity|discriminate].
Qed.
Lemma ites_ok n l : 0 < n -> (forall k v, In (k, v) l -> Forall fine_val k /\ fine_val v /\ List.length k = n) ->
  exists s cs, print_ites n l = Ok s /\ P s (flat_map row_toks cs) /\
    forall env args, List.length args = n -> binds env 0 args -> Forall2 (row_ok n env args) l cs.
Proof.
  intros N0. induction l as [|[k v] l IH]; intros F.
  - exists [], []. split; [reflexivity|]. split; [exact P_nil|]. constructor.
  - destruct IH as (s & cs & E & HP & EV); [intros k' v' I; apply F; now right|].
    destruct (F k v (or_introl eq_refl)) as (Fk & Fv & Lk). destruct (eqs_ok n k Fk 0) as (se & es & Ee & Le & Pe & Ve); [lia|].
    destruct (print_var_ok v Fv) as (sv & e & Ev & Dv & Vv). destruct (eqs_delim n 0 k se Ee) as [De Ne]; [destruct k; [simpl in Lk; lia|discriminate]|].
    cbn [print_ites]. rewrite Ee. cbn [bind]. rewrite Ev. cbn [bind]. rewrite E. cbn [bind].
    assert (Q : exists c, P (t_of "  (ite" ++ t_of (if 1 <? n then " (and" else "") ++ se ++ t_of (if 1 <? n then ")" else "")) ([LParen; Sym (t_of "ite")] ++ sx_toks c) /\
      forall env args, List.length args = n -> binds env 0 args -> evals env c (PB (vals_eqb args (map pv k)))).
    { destruct (Nat.ltb_spec 1 n) as [N1|N1].
      - exists (Li (sy "and" :: es)). split.
        + change (sx_toks (Li (sy "and" :: es))) with ([LParen; Sym (t_of "and")] ++ flat_map sx_toks es ++ [RParen]).
          apply D_P; [exact D_ite| |reflexivity|discriminate]. apply D_P; [exact D_and| | |].
          * apply P_app; [exact Pe|exact P_rp].
          * destruct se; [congruence|exact De].
          * destruct se; discriminate.
        + intros env args La B. rewrite <- eqs2_all by (rewrite map_length; lia). constructor. apply Ve; [lia|exact B].
      - assert (n = 1) by lia. subst n. destruct es as [|c [|? ?]]; [simpl in Le; lia| |simpl in Le; lia]. exists c. split.
        + cbn [t_of list_ascii_of_string app]. rewrite app_nil_r. cbn [flat_map] in Pe. rewrite app_nil_r in Pe.
          apply (D_P (t_of "  (ite") [LParen; Sym (t_of "ite")]); [exact D_ite|exact Pe|exact De|exact Ne].
        + intros env args La B. rewrite <- eqs2_all by (rewrite map_length; lia). specialize (Ve env args ltac:(lia) B).
          inversion Ve as [|? b ? bs He Hr]; subst. inversion Hr; subst. cbn [forallb]. now rewrite andb_true_r. }
    destruct Q as (c & Pc & Vc). eexists. exists ((c, e) :: cs). split; [reflexivity|]. split.
    + set (ta := t_of "  (ite" ++ t_of (if 1 <? n then " (and" else "") ++ se ++ t_of (if 1 <? n then ")" else "")) in *.
      match goal with |- P ?x _ => replace x with (ta ++ (t_of " " ++ ((sv ++ nl) ++ s))) by (unfold ta; now rewrite <- !app_assoc) end.
      replace (flat_map row_toks ((c, e) :: cs)) with (([LParen; Sym (t_of "ite")] ++ sx_toks c) ++ ([] ++ ((sx_toks e ++ []) ++ flat_map row_toks cs)))
        by (cbn [flat_map]; unfold row_toks at 2; cbn [fst snd app]; rewrite app_nil_r, <- !app_assoc; reflexivity).
      apply P_app; [exact Pc|]. apply P_app; [exact P_sp|]. apply P_app; [|exact HP]. apply D_P; [exact Dv|exact P_nl|reflexivity|discriminate].
    + intros env args La B. constructor; [|now apply EV]. split; [now apply Vc|apply Vv].
Qed.

Definition chain (cs : list (sexp * sexp)) (e : sexp) : sexp := fold_right (fun c b => Li [sy "ite"; fst c; snd c; b]) e cs.
Lemma chain_toks cs e : sx_toks (chain cs e) = flat_map row_toks cs ++ sx_toks e ++ repeat RParen (List.length cs).
Proof.
  induction cs as [|[c v] cs IH]; cbn [chain fold_right flat_map List.length repeat]; [now rewrite app_nil_r|].
  fold (chain cs e). change (sx_toks (Li [sy "ite"; fst (c, v); snd (c, v); chain cs e]))
    with (LParen :: Sym (t_of "ite") :: (sx_toks c ++ sx_toks v ++ sx_toks (chain cs e) ++ []) ++ [RParen]).
  rewrite IH, app_nil_r. unfold row_toks. cbn [fst snd app]. do 2 f_equal. rewrite <- !app_assoc. do 3 f_equal. rewrite <- ?app_assoc. f_equal. f_equal.
  clear. induction (List.length cs) as [|m IH]; [reflexivity|]. cbn. now rewrite IH.
Qed.
Lemma parens_P n : P (parens n) (repeat RParen n).
Proof. induction n as [|n IH]; [exact P_nil|]. cbn [parens repeat]. change (RParen :: repeat RParen n) with ([RParen] ++ repeat RParen n). apply P_app; [exact P_rp|exact IH]. Qed.
Fixpoint look (l : list (list pval * pval)) (v0 : pval) (args : list uval) : pval :=
  match l with [] => v0 | (k, v) :: l' => if vals_eqb args (map pv k) then v else look l' v0 args end.
Lemma chain_ev n env args v0 e : evals env e (pv v0) -> forall l cs, Forall2 (row_ok n env args) l cs -> evals env (chain cs e) (pv (look l v0 args)).
Proof.
  intros E. induction 1 as [|[k v] c l cs [A B] F IH]; [exact E|]. cbn [chain fold_right look]. fold (chain cs e).
  replace (pv (if vals_eqb args (map pv k) then v else look l v0 args)) with (if vals_eqb args (map pv k) then pv v else pv (look l v0 args))
    by (destruct (vals_eqb args (map pv k)); reflexivity).
  apply e_ite; auto.
Qed.

(** ** Equality of values *)
Lemma uval_refl a : uval_eqb a a = true.
Proof. destruct a as [[]|q]; try reflexivity. apply Qeq_bool_iff. reflexivity. Qed.
Lemma uval_sym a b : uval_eqb a b = true -> uval_eqb b a = true.
Proof. destruct a as [[]|q], b as [[]|r]; simpl; auto. rewrite !Qeq_bool_iff. now symmetry. Qed.
Lemma uval_trans a b c : uval_eqb a b = true -> uval_eqb b c = true -> uval_eqb a c = true.
Proof. destruct a as [[]|q], b as [[]|r], c as [[]|t]; simpl; auto; try discriminate. rewrite !Qeq_bool_iff. intros -> ->. reflexivity. Qed.
Lemma vals_refl a : vals_eqb a a = true.
Proof. induction a as [|x a IH]; [reflexivity|]. cbn. now rewrite uval_refl. Qed.
Lemma vals_sym a : forall b, vals_eqb a b = true -> vals_eqb b a = true.
Proof. induction a as [|x a IH]; intros [|y b]; cbn; auto. rewrite !andb_true_iff. intros [A B]. split; [now apply uval_sym|now apply IH]. Qed.
Lemma vals_trans a : forall b c, vals_eqb a b = true -> vals_eqb b c = true -> vals_eqb a c = true.
Proof.
  induction a as [|x a IH]; intros [|y b] [|z c]; cbn; auto; try discriminate. rewrite !andb_true_iff. intros [A B] [A' B'].
  split; [eapply uval_trans; eauto|eapply IH; eauto].
Qed.
Lemma vals_length a : forall b, vals_eqb a b = true -> List.length a = List.length b.
Proof. induction a as [|x a IH]; intros [|y b]; cbn; auto; try discriminate. rewrite andb_true_iff. intros [_ B]. f_equal. auto. Qed.
Lemma look_hit l v0 args : forall k v, In (k, v) l -> vals_eqb args (map pv k) = true ->
  pairwise (fun a b => vals_eqb (pkey a) (pkey b) = false) l -> look l v0 args = v.
Proof.
  induction l as [|[k1 v1] l IH]; intros k v I E Pw; [destruct I|]. inversion Pw as [|? ? A B]; subst. cbn [look]. destruct I as [I|I].
  - injection I as -> ->. now rewrite E.
  - destruct (vals_eqb args (map pv k1)) eqn:E1; [|eapply IH; eauto]. exfalso.
    pose proof (proj1 (Forall_forall _ _) A _ I) as N. unfold pkey in N. cbn [fst] in N. rewrite (vals_trans _ _ _ (vals_sym _ _ E1) E) in N. discriminate N.
Qed.
Lemma look_miss l v0 args : (forall k v, In (k, v) l -> vals_eqb args (map pv k) = false) -> look l v0 args = v0.
Proof. induction l as [|[k v] l IH]; intros H; [reflexivity|]. cbn [look]. rewrite (H k v (or_introl eq_refl)). apply IH. intros k' v' I. apply (H k' v'). now right. Qed.
Lemma look_in l v0 args : look l v0 args = v0 \/ exists k, In (k, look l v0 args) l.
Proof.
  induction l as [|[k v] l IH]; [auto|]. cbn [look]. destruct (vals_eqb _ _); [right; exists k; now left|]. destruct IH as [->|(k' & I)]; [auto|]. right. exists k'. now right.
Qed.

(** ** Evaluation has one result *)
Scheme evals_mut := Induction for evals Sort Prop with eands_mut := Induction for eands Sort Prop.
Lemma env_fun (env : list (text * uval)) s v w : NoDup (map fst env) -> In (s, v) env -> In (s, w) env -> v = w.
Proof.
  induction env as [|[a b] env IH]; intros N A B; [destruct A|]. inversion N as [|? ? Na Nb]; subst. destruct A as [A|A], B as [B|B].
  - congruence.
  - injection A as -> ->. apply (in_map fst) in B. contradiction.
  - injection B as -> ->. apply (in_map fst) in A. contradiction.
  - auto.
Qed.
Lemma uval_cong a b c d : uval_eqb a b = true -> uval_eqb c d = true -> uval_eqb a c = uval_eqb b d.
Proof.
  intros A B. destruct (uval_eqb b d) eqn:E.
  - eapply uval_trans; [exact A|]. eapply uval_trans; [exact E|]. now apply uval_sym.
  - destruct (uval_eqb a c) eqn:F; [|reflexivity]. rewrite <- E. symmetry. eapply uval_trans; [apply uval_sym; exact A|]. eapply uval_trans; eauto.
Qed.
Lemma evals_det env : env_ok env -> forall e v, evals env e v -> forall w, evals env e w -> uval_eqb v w = true.
Proof.
  intros (N & NT & NF). 
  apply (evals_mut env (fun e v _ => forall w, evals env e w -> uval_eqb v w = true) (fun l bs _ => forall bs', eands env l bs' -> bs = bs')).
  - intros w E. inversion E; subst; try reflexivity. exfalso. apply NT. apply (in_map fst) in H0. exact H0.
  - intros w E. inversion E; subst; try reflexivity. exfalso. apply NF. apply (in_map fst) in H0. exact H0.
  - intros s v I w E. inversion E; subst.
    + exfalso. apply NT. apply (in_map fst) in I. exact I.
    + exfalso. apply NF. apply (in_map fst) in I. exact I.
    + rewrite (env_fun env s v w N I); [apply uval_refl|assumption].
  - intros s F H w E. inversion E; subst. apply uval_refl.
  - intros e q q' E IH Q w E'. inversion E' as [| | | |e1 q1 q1' Ea Qa| | | |]; subst. specialize (IH _ Ea). simpl in *. apply Qeq_bool_iff in IH.
    apply Qeq_bool_iff. rewrite Q, Qa, IH. reflexivity.
  - intros e d p q q' E1 IH1 E2 IH2 Nq Q w E'. inversion E' as [| | | | |e1 d1 p1 q1 q1' Ea Eb Nb Qa| | |]; subst. specialize (IH1 _ Ea). specialize (IH2 _ Eb).
    simpl in *. apply Qeq_bool_iff in IH1, IH2. apply Qeq_bool_iff. rewrite Q, Qa, IH1, IH2. reflexivity.
  - intros e d v w E1 IH1 E2 IH2 z E'. inversion E' as [| | | | | |e1 d1 v1 w1 Ea Eb| |]; subst. specialize (IH1 _ Ea). specialize (IH2 _ Eb).
    rewrite (uval_cong _ _ _ _ IH1 IH2). apply uval_refl.
  - intros l bs E IH w E'. inversion E' as [| | | | | | |l1 bs1 Ea|]; subst. rewrite (IH _ Ea). apply uval_refl.
  - intros c b x y v w E1 IH1 E2 IH2 E3 IH3 z E'. inversion E' as [| | | | | | | |c1 b1 x1 y1 v1 w1 Ea Eb Ec]; subst. specialize (IH1 _ Ea). specialize (IH2 _ Eb). specialize (IH3 _ Ec).
    assert (b = b1) by (destruct b, b1; simpl in IH1; congruence). subst. destruct b1; auto.
  - intros bs' E. inversion E. reflexivity.
  - intros e b l bs E IH E2 IH2 bs' E'. inversion E' as [|e1 b1 l1 bs1 Ea Eb]; subst. specialize (IH _ Ea). rewrite (IH2 _ Eb). destruct b, b1; simpl in IH; congruence.
Qed.

(** ** The printed definition *)
Lemma defun_toks name params ret body : sx_toks (defun_sx name params ret body) =
  [LParen; Word (t_of "define-fun")] ++ [Sym name] ++ [LParen] ++ flat_map sx_toks (map param_sx params) ++ [RParen] ++ [Sym ret] ++ sx_toks body ++ [RParen].
Proof. unfold defun_sx. cbn [sx_toks flat_map app]. rewrite ?app_nil_r. do 4 f_equal. rewrite <- !app_assoc. cbn [app]. rewrite ?app_nil_r. reflexivity. Qed.
Lemma binds_seq args : forall i, binds (combine (map arg_name (seq i (List.length args))) args) i args.
Proof.
  induction args as [|a args IH]; intros i j x N; [destruct j; discriminate N|]. cbn [List.length seq map combine]. destruct j as [|j].
  - injection N as ->. left. now rewrite Nat.add_0_r.
  - right. rewrite Nat.add_succ_r. apply (IH (S i) j x N).
Qed.
Lemma names_fst (args : list uval) i : map fst (combine (map arg_name (seq i (List.length args))) args) = map arg_name (seq i (List.length args)).
Proof. revert i. induction args as [|a args IH]; intros i; [reflexivity|]. cbn. now rewrite IH. Qed.
Lemma arg_nodup i n : NoDup (map arg_name (seq i n)).
Proof. apply FinFun.Injective_map_NoDup; [intros a b; apply arg_inj|apply seq_NoDup]. Qed.
Lemma env_args (args : list uval) : env_ok (combine (map arg_name (seq 0 (List.length args))) args).
Proof.
  unfold env_ok. rewrite names_fst. split; [apply arg_nodup|]. split; rewrite in_map_iff; intros (i & E & _); discriminate E.
Qed.
Lemma visit_fnc_ok name l sorts ret : plain name -> table_ok l sorts ret -> l <> [] ->
  exists s params body, visit_fnc (Some name) l = Ok s /\ text_of s (defun_sx name params ret body) /\
    map snd params = sorts /\ NoDup (map fst params) /\
    (forall args, List.length args = List.length sorts -> env_ok (combine (map fst params) args)) /\
    (forall args, List.length args = List.length sorts -> exists w, evals (combine (map fst params) args) body w /\ sort_of w = ret) /\
    (forall k v args w, In (k, v) l -> vals_eqb args (map pv k) = true ->
       evals (combine (map fst params) args) body w -> uval_eqb w (pv v) = true).
Proof.
  intros PN [TV TS TA TK] NE. destruct l as [|[k0 v0] rest]; [congruence|]. set (n := List.length k0).
  assert (Ls : List.length sorts = n). { destruct (TS k0 v0 (or_introl eq_refl)) as [<- _]. now rewrite !map_length. }
  assert (N0 : 0 < n) by (rewrite <- Ls; destruct sorts; [congruence|simpl; lia]).
  destruct (TV k0 v0 (or_introl eq_refl)) as [Fk0 Fv0].
  destruct (ites_ok n rest N0) as (sb & cs & Eb & Pb & Vb).
  { intros k v I. destruct (TV k v (or_intror I)) as [A B]. split; [auto|]. split; [auto|]. destruct (TS k v (or_intror I)) as [C _].
    rewrite <- Ls, <- C. now rewrite !map_length. }
  destruct (print_var_ok v0 Fv0) as (sv & e0 & Ev & Dv & Vv).
  assert (EVB : forall args, List.length args = n -> evals (combine (map fst (params_of 0 k0)) args) (chain cs e0) (pv (look rest v0 args))).
  { intros args La. rewrite params_names. fold n. rewrite <- La. eapply chain_ev; [apply Vv|]. apply Vb; [exact La|]. apply binds_seq. }
  assert (ENV : forall args : list uval, List.length args = n -> env_ok (combine (map fst (params_of 0 k0)) args)).
  { intros args La. rewrite params_names. fold n. rewrite <- La. apply env_args. }
  eexists. exists (params_of 0 k0), (chain cs e0). unfold visit_fnc. fold n. rewrite Eb. cbn [bind]. rewrite Ev. cbn [bind]. split; [reflexivity|].
  split; [|split; [rewrite params_sorts; apply (TS k0 v0 (or_introl eq_refl))|split; [rewrite params_names; apply arg_nodup|]]].
  - apply lexes_lex, P_lexes. rewrite defun_toks, chain_toks.
    assert (LC : List.length cs = List.length rest).
    { pose proof (Vb _ (map pv k0) ltac:(rewrite map_length; reflexivity) (binds_seq (map pv k0) 0)) as F2. clear - F2. induction F2; simpl; congruence. }
    assert (RS : D (print_type v0) [Sym ret]). { destruct (TS k0 v0 (or_introl eq_refl)) as [_ <-]. apply type_D. }
    assert (G : P (t_of "(define-fun " ++ (name ++ t_of " (") ++ print_args 0 k0 ++ t_of ") " ++ (print_type v0 ++ nl) ++ sb ++ t_of "       " ++ (sv ++ t_of " ") ++ parens (S (List.length rest)) ++ nl)
      ([LParen; Word (t_of "define-fun")] ++ ([Sym name] ++ [LParen]) ++ flat_map sx_toks (map param_sx (params_of 0 k0)) ++ [RParen] ++ ([Sym ret] ++ []) ++ flat_map row_toks cs ++ [] ++ (sx_toks e0 ++ []) ++ repeat RParen (S (List.length cs)) ++ [])).
    { apply P_app; [exact P_df|]. apply P_app; [apply D_P; [now apply D_sym|exact P_slp|reflexivity|discriminate]|].
      apply P_app; [apply args_P|]. apply P_app; [exact P_rps|]. apply P_app; [apply D_P; [exact RS|exact P_nl|reflexivity|discriminate]|].
      apply P_app; [exact Pb|]. apply P_app; [exact P_pad|]. apply P_app; [apply D_P; [exact Dv|exact P_sp|reflexivity|discriminate]|].
      rewrite LC. apply P_app; [apply parens_P|exact P_nl]. }
    match goal with |- P ?x ?y => match type of G with P ?x' ?y' => replace x with x'; [replace y with y'; [exact G|]|] end end.
    + assert (RR : repeat RParen (S (List.length cs)) = repeat RParen (List.length cs) ++ [RParen]).
      { clear. induction (List.length cs) as [|m IH]; [reflexivity|]. cbn [repeat app] in *. now rewrite <- IH. }
      rewrite RR, !app_nil_r, <- !app_assoc, app_nil_l. reflexivity.
    + rewrite <- !app_assoc. cbn [List.length]. reflexivity.
  - rewrite Ls. split; [exact ENV|]. split.
    + intros args La. exists (pv (look rest v0 args)). split; [now apply EVB|].
      destruct (look_in rest v0 args) as [->|(k & I)]; [apply (TS k0 v0 (or_introl eq_refl))|apply (TS k _ (or_intror I))].
    + intros k v args w I E W.
      assert (La : List.length args = n). { rewrite (vals_length _ _ E), map_length. rewrite <- Ls. destruct (TS k v I) as [<- _]. now rewrite !map_length. }
      eapply uval_trans; [apply (evals_det _ (ENV args La) _ _ W _ (EVB args La))|].
      inversion TK as [|? ? A B]; subst. destruct I as [I|I].
      * injection I as -> ->. rewrite look_miss; [apply uval_refl|]. intros k' v' I'. pose proof (proj1 (Forall_forall _ _) A _ I') as N. unfold pkey in N. cbn [fst] in N.
        destruct (vals_eqb args (map pv k')) eqn:X; [|reflexivity]. rewrite (vals_trans _ _ _ (vals_sym _ _ E) X) in N. discriminate N.
      * rewrite (look_hit rest v0 args k v I E B). apply uval_refl.
Qed.
Lemma visit_ok name v : plain name -> fine_val v -> exists s e, visit (Some name) v = Ok s /\
  text_of s (defun_sx name [] (sort_of (pv v)) e) /\ (exists w, evals [] e w) /\ forall w, evals [] e w -> uval_eqb w (pv v) = true.
Proof.
  intros PN F. destruct (print_var_ok v F) as (sv & e & Ev & Dv & Vv). unfold visit. rewrite Ev. cbn [bind]. eexists. exists e. split; [reflexivity|].
  split; [|split; [eexists; apply Vv|]].
  - apply lexes_lex, P_lexes. rewrite defun_toks. cbn [map flat_map].
    assert (G : P (t_of "(define-fun " ++ (name ++ t_of " () ") ++ (print_type v ++ t_of " ") ++ (sv ++ t_of ")") ++ nl)
      ([LParen; Word (t_of "define-fun")] ++ ([Sym name] ++ [LParen; RParen]) ++ ([Sym (sort_of (pv v))] ++ []) ++ (sx_toks e ++ [RParen]) ++ [])).
    { apply P_app; [exact P_df|]. apply P_app; [apply D_P; [now apply D_sym|exact P_unit|reflexivity|discriminate]|].
      apply P_app; [apply D_P; [apply type_D|exact P_sp|reflexivity|discriminate]|]. apply P_app; [|exact P_nl].
      apply D_P; [exact Dv|exact P_rp|reflexivity|discriminate]. }
    match goal with |- P ?x ?y => match type of G with P ?x' ?y' => replace x with x'; [replace y with y'; [exact G|]|] end end.
    + rewrite !app_nil_r, <- !app_assoc. reflexivity.
    + now rewrite <- !app_assoc.
  - intros w W. eapply evals_det; [|exact W|apply Vv]. split; [constructor|split; intros []].
Qed.
