(** Proofs for C50: the meaning of parsed terms. *)
From Coq Require Import Ascii String List Arith ZArith QArith Qcanon Bool Lia.
From Verif Require Import Base Terms_Model Spec_Terms Terms_Proofs TermMgr_Model Spec_TermMgr TermMgr_Base TermMgr_Arith TermMgr_Term Rewriter_Model Decimal_Model
  Spec_Decimal Decimal_Proofs Visitor_Proofs Lexer_Model Parser_Model Spec_Parser Parser_Scopes Parser_Proofs Prop_Terms.
Import ListNotations.
Close Scope Qc_scope.
Close Scope Q_scope.
Open Scope nat_scope.

Lemma keeps_type T T' t y : keeps T T' -> has_type T t y -> has_type T' t y.
Proof.
  intros [K _]. unfold has_type, bool_t, real_t. destruct y; try tauto.
  - intros [V E]. destruct (K t V) as [V' N]. split; auto. unfold type_of in *. now rewrite N.
  - intros [V [E NG]]. destruct (K t V) as [V' N]. split; auto. split; auto. unfold type_of in *. now rewrite N.
Qed.
Lemma type_valid T t y : has_type T t y -> valid T t.
Proof. destruct y; cbn; try tauto; unfold bool_t, real_t; tauto. Qed.
Lemma keeps_refl T : keeps T T. Proof. split; auto. Qed.
Lemma type_ty T t y : has_type T t y -> type_of T t = y.
Proof. destruct y; cbn; unfold bool_t, real_t; tauto. Qed.
Lemma has_typed T t y : has_type T t y -> typed T t.
Proof. destruct y; cbn; unfold typed; tauto. Qed.

Lemma op_name_ext n : assoc theory_ops n = tm_find op_names n. Proof. rewrite assoc_find. reflexivity. Qed.
Lemma describes_keeps C S T' : describes C S -> keeps (c_tab C) T' -> describes (with_tab C T') S.
Proof.
  intros [A B D] K. split; cbn.
  - intros n y E. destruct (A n y E) as (t & G & Ht). exists t. split; [exact G|]. eapply keeps_type; eauto.
  - intros n so r E. destruct (B n so r E) as (B1 & B2 & B3 & f & B4 & B5 & B6 & B7). split; auto. split; auto. split; auto. exists f.
    destruct K as [K _]. destruct (K f B5) as [V N]. split; auto. split; auto. split; auto. unfold kind_of in *. now rewrite N.
  - exact D.
Qed.
Lemma describes_lets C S L : describes C S -> describes (with_lets C L) S.
Proof. intros [A B D]. split; auto. Qed.
Lemma interprets_keeps C S I M T' : describes C S -> interprets C S I M -> keeps (c_tab C) T' -> interprets (with_tab C T') S I M.
Proof.
  intros D [A B] [_ K]. split; cbn.
  - intros n y t E G. rewrite K; [eapply A; eauto|]. destruct (ds_const _ _ D n y E) as (t' & G' & Ht). change (global (with_tab C T') n) with (global C n) in G. rewrite G in G'. injection G' as <-. eapply type_valid; eauto.
  - exact B.
Qed.
Lemma interprets_lets C S I M L : interprets C S I M -> interprets (with_lets C L) S I M.
Proof. intros [A B]. split; auto. Qed.
Lemma local_types_keeps T T' bs env : keeps T T' -> local_types T bs env -> local_types T' bs env.
Proof. intros K F. induction F as [|b x bs env [A B] F IH]; constructor; auto. split; auto. eapply keeps_type; eauto. Qed.
Lemma local_values_keeps I T T' bs env te : keeps T T' -> local_types T bs te -> local_values I T bs env -> local_values I T' bs env.
Proof.
  intros [_ K] F. revert env. induction F as [|b x bs te [A B] F IH]; intros env V; inversion V; subst; constructor.
  - destruct H1 as [P Q]. split; auto. rewrite K; [exact Q|]. eapply type_valid; eauto.
  - now apply IH.
Qed.
Lemma local_find T bs env n : local_types T bs env -> match assoc bs n, assoc env n with
  | Some t, Some y => has_type T t y | None, None => True | _, _ => False end.
Proof.
  intros F. induction F as [|[a t] [b y] bs env [A B] F IH]; cbn in *; auto. subst b. destruct (text_eqb a n); auto.
Qed.
Lemma local_val I T bs env n : local_values I T bs env -> match assoc bs n, assoc env n with
  | Some t, Some v => teval I T t = v | None, None => True | _, _ => False end.
Proof.
  intros F. induction F as [|[a t] [b y] bs env [A B] F IH]; cbn in *; auto. subst b. destruct (text_eqb a n); auto.
Qed.

(** the contexts of one parse differ in the table and in the scopes *)
Record after (C C' : pctx) (fs : list (list (text * term))) : Prop := {
  af_keeps : keeps (c_tab C) (c_tab C');
  af_defs : c_defs C' = c_defs C;
  af_decls : c_decls C' = c_decls C;
  af_names : c_names C' = c_names C;
  af_scopes : scopes (c_lets C') fs }.
Lemma after_describes C C' fs S : after C C' fs -> describes C S -> describes C' S.
Proof.
  intros [K A B D _] DS. destruct C as [l d k n T], C' as [l' d' k' n' T']; cbn in *; subst.
  apply (describes_lets (mkCtx l d k n T') S l'). apply (describes_keeps (mkCtx l d k n T) S T'); auto.
Qed.
Lemma after_interprets C C' fs S I M : after C C' fs -> describes C S -> interprets C S I M -> interprets C' S I M.
Proof.
  intros [K A B D _] DS IT. destruct C as [l d k n T], C' as [l' d' k' n' T']; cbn in *; subst.
  apply (interprets_lets (mkCtx l d k n T') S I M l'). apply (interprets_keeps (mkCtx l d k n T) S I M T'); auto.
Qed.
Lemma after_trans C C1 C2 fs fs2 : after C C1 fs -> after C1 C2 fs2 -> after C C2 fs2.
Proof. intros [A B D E F] [A' B' D' E' F']. split; try congruence; auto. eapply keeps_trans; eauto. Qed.

Lemma canon_of (a : Qc) (q : Q) : (this a == q)%Q -> a = Q2Qc q.
Proof. intros E. apply Qc_is_canon. unfold Q2Qc, this at 2. rewrite E. symmetry. apply Qred_correct. Qed.

Section Sem.
Variable H : hashes.
Variable sg : sigs.

Lemma all_some_f2 {A B} (f : A -> option B) l r : all_some (map f l) = Some r -> Forall2 (fun a b => f a = Some b) l r.
Proof.
  revert r. induction l as [|a l IH]; intros r E; cbn in E; [injection E as <-; constructor|].
  destruct (f a) eqn:F; [|discriminate]. destruct (all_some (map f l)); [|discriminate]. injection E as <-. constructor; auto.
Qed.
Lemma ty_list_eqb_eq a : forall b, ty_list_eqb a b = true -> a = b.
Proof.
  induction a as [|x a IH]; intros [|y b] E; cbn in E; try discriminate; auto. apply andb_true_iff in E. destruct E as [E1 E2].
  apply ty_eqb_eq in E1. apply IH in E2. congruence.
Qed.

(** numerals and decimals are constants of the term manager *)
Lemma keeps_node T T' t : keeps T T' -> valid T t -> node_of T' t = node_of T t.
Proof. intros [K _] V. apply K, V. Qed.
Lemma keeps_const T T' t : keeps T T' -> valid T t -> is_arith_const T t = true -> is_arith_const T' t = true.
Proof. intros [K _] V E. destruct (K t V) as [_ N]. unfold is_arith_const, kind_of in *. now rewrite N. Qed.
Lemma num_node C e t C' : reach H (c_tab C) -> is_num e = true -> build H C e = Ok (t, C') ->
  exists q, node_of (c_tab C') t = mkNode KArithConst TReal (DRat q).
Proof.
  intros R N E. destruct e; try discriminate; cbn [build] in E; unfold mk_numeral, mk_decimal in E.
  - destruct (integer_constant d) as [r| |]; cbn [bind] in E; try discriminate.
    destruct (const_ok H (c_tab C) (Q2Qc (Spec_Rational.value r)) (reach_wf H _ R)) as (T1 & k & EK & W1 & X1 & R1 & N1). rewrite EK in E. injection E as <- <-.
    exists (Q2Qc (Spec_Rational.value r)). exact N1.
  - destruct (rational_constant _) as [r| |]; cbn [bind] in E; try discriminate.
    destruct (const_ok H (c_tab C) (Q2Qc (Spec_Rational.value r)) (reach_wf H _ R)) as (T1 & k & EK & W1 & X1 & R1 & N1). rewrite EK in E. injection E as <- <-.
    exists (Q2Qc (Spec_Rational.value r)). exact N1.
Qed.
Lemma num_const C e t C' : reach H (c_tab C) -> is_num e = true -> build H C e = Ok (t, C') -> is_arith_const (c_tab C') t = true.
Proof. intros R N E. destruct (num_node C e t C' R N E) as (q & NQ). apply (const_kind _ _ _ NQ). Qed.
Definition any_interp : interp := mkI (fun _ => true) (fun _ => 0%Qc) (fun _ _ => true) (fun _ _ => 0%Qc).
Lemma num_value_node C e v t C' : reach H (c_tab C) -> num_value e = Some v -> digits_ok e -> build H C e = Ok (t, C') ->
  real_t (c_tab C') t /\ reach H (c_tab C') /\ node_of (c_tab C') t = mkNode KArithConst TReal (DRat (Q2Qc v)).
Proof.
  intros R N DG E. destruct (num_node C e t C' R) as (q & NQ); [destruct e; try discriminate; reflexivity|exact E|].
  destruct e; try discriminate; cbn [build digits_ok] in *; injection N as <-.
  - destruct DG as [DG1 DG2]. destruct (C43_numeral H (c_tab C) d R DG1 DG2) as (T' & u & EM & R' & RT & K & EV). rewrite EM in E. cbn [bind] in E. injection E as <- <-.
    cbn [c_tab with_tab] in *. split; auto. split; auto. rewrite NQ. do 2 f_equal. rewrite <- (const_eval H T' any_interp u q (reach_wf H _ R') RT NQ). apply canon_of, EV.
  - destruct DG as (DG1 & DG2 & DG3 & DG4). destruct (C43_decimal H (c_tab C) d f R DG1 DG2 DG3 DG4) as (T' & u & EM & R' & RT & K & EV). rewrite EM in E. cbn [bind] in E. injection E as <- <-.
    cbn [c_tab with_tab] in *. split; auto. split; auto. rewrite NQ. do 2 f_equal. rewrite <- (const_eval H T' any_interp u q (reach_wf H _ R') RT NQ). apply canon_of, EV.
Qed.
(** the arguments of a division that C44_partial covers *)
Definition divisible (T : table) (ts : list term) : Prop := exists a b q, ts = [a; b] /\ node_of T b = mkNode KArithConst TReal (DRat q) /\ q <> 0%Qc /\
  (is_arith_const T a = true \/ ((- 2 ^ 31 < Qnum q < 2 ^ 31)%Z /\ (Zpos (Qden q) < 2 ^ 31)%Z)).
(** a call of a function or an operator *)
Lemma call_sound C n ts tys y t C' : reach H (c_tab C) -> describes C sg -> Forall2 (has_type (c_tab C)) ts tys ->
  (match sg_fun sg n with
   | Some (sorts, ret) => if ty_list_eqb sorts tys then Some ret else None
   | None => match builtin n with Some o => op_sig o tys | None => None end
   end) = Some y ->
  (sg_fun sg n = None -> builtin n = Some ODiv -> divisible (c_tab C) ts) ->
  resolve_term H C n ts = Ok (t, C') ->
  exists T', C' = with_tab C T' /\ reach H T' /\ has_type T' t y /\ keeps (c_tab C) T' /\
    forall I M, interprets C sg I M ->
      teval I T' t = match sg_fun sg n with
                     | Some _ => mn_fun M n (map (teval I (c_tab C)) ts)
                     | None => match builtin n with Some o => op_sem o (map (teval I (c_tab C)) ts) | None => VB false end
                     end.
Proof.
  intros R D F Y DV E. unfold resolve_term in E. destruct (sg_fun sg n) as [[sorts ret]|] eqn:SF.
  - destruct (ds_fun _ _ D n sorts ret SF) as (D1 & D2 & RT & f & D3 & V & NG & KU). rewrite assoc_find in D1. rewrite assoc_find in D2. rewrite assoc_find in D3. rewrite D1, D2 in E.
    destruct (ty_list_eqb sorts tys) eqn:TE; [|discriminate]. injection Y as <-.
    destruct (assertb (List.length sorts =? List.length ts)); cbn [bind] in E; try discriminate.
    destruct (assertb _); cbn [bind] in E; try discriminate. rewrite D3 in E. cbn [value_of bind] in E.
    destruct (mk_app H (c_tab C) f ret ts) as [T' u] eqn:MA. injection E as <- <-.
    assert (FT : Forall (typed (c_tab C)) ts). { clear - F. induction F; constructor; auto. eapply has_typed; eauto. }
    destruct (C41_app H (c_tab C) f ret ts T' u R V NG KU RT FT MA) as (R' & HT & K & EV).
    exists T'. split; auto. split; auto. split; auto. split; auto. intros I M IT. rewrite EV. rewrite (it_fun _ _ _ _ IT n sorts ret f _ SF) by (rewrite assoc_find; exact D3). reflexivity.
  - destruct (builtin n) as [o|] eqn:BN; [|discriminate]. destruct (ds_builtin _ _ D n o SF BN) as [D1 D2]. rewrite assoc_find in D1. rewrite assoc_find in D2. rewrite D1, D2 in E.
    unfold builtin in BN. rewrite op_name_ext in BN. rewrite BN in E.
    cbn [value_of bind] in E. destruct (mk_term H (c_tab C) o ts) as [[T' u]| |] eqn:MT; cbn [bind] in E; try discriminate. injection E as <- <-.
    destruct (op_eq_dec o ODiv) as [->|NO].
    { destruct (DV eq_refl eq_refl) as (a & b & q & -> & NB & NZ & DC). inversion F as [|? ya ? la HA F1]; subst. inversion F1 as [|? yb ? lb HB F2]; subst. inversion F2; subst.
      destruct ya; try discriminate. destruct yb; try discriminate. cbn in Y. injection Y as <-.
      destruct (C44_partial H (c_tab C) a b q R HA HB NB NZ DC) as (T2 & u2 & E2 & R2 & RT & K & EV). rewrite MT in E2. injection E2 as <- <-.
      exists T'. repeat (split; [auto|]). intros I M IT. apply EV. }
    destruct (C41_sound H (c_tab C) o ts tys y T' u R F Y NO MT) as (R' & HT & K & EV). exists T'. repeat (split; [auto|]). intros I M IT. apply EV.
Qed.
Lemma symbol_sound C fs n envt y t : describes C sg -> scopes (c_lets C) fs -> reach H (c_tab C) ->
  local_types (c_tab C) (List.concat fs) envt -> etype sg envt (ESym n) = Some y -> term_for_symbol C (nm_text n) = Ok t ->
  has_type (c_tab C) t y /\ forall I M envv, interprets C sg I M -> local_values I (c_tab C) (List.concat fs) envv -> teval I (c_tab C) t = evalue sg M envv (ESym n).
Proof.
  intros D SC R LT Y E. unfold term_for_symbol in E. cbn [etype evalue] in *.
  destruct (text_eqb (nm_text n) (t_of "true")); cbn [orb] in Y.
  { injection E as <-. injection Y as <-. apply reach_wf in R. split; [apply (prim_types H _ R)|]. intros I M envv _ _. apply (prim_teval H _ I R). }
  destruct (text_eqb (nm_text n) (t_of "false")).
  { injection E as <-. injection Y as <-. apply reach_wf in R. split; [apply (prim_types H _ R)|]. intros I M envv _ _. apply (prim_teval H _ I R). }
  rewrite (get_scopes _ _ _ SC) in E. pose proof (local_find _ _ _ (nm_text n) LT) as LF.
  destruct (assoc (List.concat fs) (nm_text n)) as [u|] eqn:AF.
  - injection E as <-. destruct (assoc envt (nm_text n)) as [y'|]; [|tauto]. injection Y as <-. split; auto.
    intros I M envv IT LV. pose proof (local_val _ _ _ _ (nm_text n) LV) as X. rewrite AF in X. destruct (assoc envv (nm_text n)); tauto.
  - destruct (assoc envt (nm_text n)) as [y'|]; [tauto|]. destruct (ds_const _ _ D _ _ Y) as (u & G & HT).
    assert (u = t) as ->. { unfold global in G. rewrite (assoc_find (c_names C)), (assoc_find (c_defs C)) in G. destruct (tm_find (c_defs C) (nm_text n)) as [[[[|a l] r] body]|]; cbn [assertb bind value_of] in E; try discriminate; [congruence|]. rewrite G in E. cbn in E. congruence. }
    split; auto. intros I M envv IT LV. pose proof (local_val _ _ _ _ (nm_text n) LV) as X. rewrite AF in X. destruct (assoc envv (nm_text n)); [tauto|].
    symmetry. eapply it_const; eauto.
Qed.
Definition sound (e : expr) : Prop := forall C fs envt y t C', reach H (c_tab C) -> describes C sg -> scopes (c_lets C) fs ->
  local_types (c_tab C) (List.concat fs) envt -> digits_ok e -> etype sg envt e = Some y -> build H C e = Ok (t, C') ->
  reach H (c_tab C') /\ has_type (c_tab C') t y /\ after C C' fs /\
  forall I M envv, interprets C sg I M -> local_values I (c_tab C) (List.concat fs) envv -> teval I (c_tab C') t = evalue sg M envv e.

Lemma f2_types T T' ts tys : keeps T T' -> Forall2 (has_type T) ts tys -> Forall2 (has_type T') ts tys.
Proof. intros K F. induction F; constructor; auto. eapply keeps_type; eauto. Qed.
Lemma after_locals C C' fs bs env : after C C' fs -> local_types (c_tab C) bs env -> local_types (c_tab C') bs env.
Proof. intros A. apply local_types_keeps, A. Qed.
Lemma after_refl C fs : scopes (c_lets C) fs -> after C C fs.
Proof. intros. split; auto. apply keeps_refl. Qed.

Lemma sound_list args : Forall sound args -> forall C fs envt tys ts C', reach H (c_tab C) -> describes C sg -> scopes (c_lets C) fs ->
  local_types (c_tab C) (List.concat fs) envt -> fold_right and True (map digits_ok args) -> all_some (map (etype sg envt) args) = Some tys ->
  build_list H C args = Ok (ts, C') ->
  reach H (c_tab C') /\ Forall2 (has_type (c_tab C')) ts tys /\ after C C' fs /\
  forall I M envv, interprets C sg I M -> local_values I (c_tab C) (List.concat fs) envv -> map (teval I (c_tab C')) ts = map (evalue sg M envv) args.
Proof.
  induction 1 as [|a l A F IH]; intros C fs envt tys ts C' R D SC LT DG Y E; cbn [map all_some build_list fold_right] in *.
  - injection Y as <-. injection E as <- <-. split; auto. split; [constructor|]. split; [now apply after_refl|]. reflexivity.
  - destruct (etype sg envt a) as [y|] eqn:EA; [|discriminate]. destruct (all_some (map (etype sg envt) l)) as [tl|] eqn:EL; [|discriminate]. injection Y as <-.
    destruct (build H C a) as [[t C1]| |] eqn:BA; cbn [bind] in E; try discriminate. destruct (build_list H C1 l) as [[ts2 C2]| |] eqn:BL; cbn [bind] in E; try discriminate. injection E as <- <-.
    destruct DG as [DA DL]. destruct (A C fs envt y t C1 R D SC LT DA EA BA) as (R1 & HT & AF & EV).
    destruct (IH C1 fs envt tl ts2 C2 R1 (after_describes _ _ _ _ AF D) (af_scopes _ _ _ AF) (after_locals _ _ _ _ _ AF LT) DL EL BL) as (R2 & FT & AF2 & EV2).
    split; auto. split. { constructor; auto. eapply keeps_type; [apply AF2|]. auto. } split; [eapply after_trans; eauto|].
    intros I M envv IT LV. cbn [map]. f_equal.
    + rewrite <- (EV I M envv IT LV). apply AF2. eapply type_valid; eauto.
    + apply EV2; [eapply after_interprets; eauto|]. eapply local_values_keeps; [apply AF| |]; eauto.
Qed.
Lemma app_type o args (tys : list ty) y : match o with Some ODiv => if exact_division args then op_sig ODiv tys else None | Some o => op_sig o tys | None => None end = Some y ->
  match o with Some o => op_sig o tys | None => None end = Some y /\ (o = Some ODiv -> exact_division args = true).
Proof. destruct o as [[]|]; intros E; try (split; [exact E|discriminate]). destruct (exact_division args); [auto|discriminate]. Qed.
Lemma call_type n args tys y :
  match sg_fun sg n with
  | Some (sorts, ret) => if ty_list_eqb sorts tys then Some ret else None
  | None => match builtin n with Some ODiv => if exact_division args then op_sig ODiv tys else None | Some o => op_sig o tys | None => None end
  end = Some y ->
  match sg_fun sg n with
  | Some (sorts, ret) => if ty_list_eqb sorts tys then Some ret else None
  | None => match builtin n with Some o => op_sig o tys | None => None end
  end = Some y /\ (sg_fun sg n = None -> builtin n = Some ODiv -> exact_division args = true).
Proof.
  destruct (sg_fun sg n) as [[sorts ret]|]; [intros E; split; [exact E|discriminate]|]. intros E. apply app_type in E. destruct E as [E1 E2]. split; auto.
Qed.
Lemma divisible_args args : Forall sound args -> forall C fs envt tys ts C', reach H (c_tab C) -> describes C sg -> scopes (c_lets C) fs ->
  local_types (c_tab C) (List.concat fs) envt -> fold_right and True (map digits_ok args) -> all_some (map (etype sg envt) args) = Some tys ->
  build_list H C args = Ok (ts, C') -> exact_division args = true -> divisible (c_tab C') ts.
Proof.
  intros F C fs envt tys ts C' R D SC LT DG Y E X. destruct args as [|a [|b [|]]]; try discriminate. cbn [exact_division] in X.
  destruct (num_value b) as [q|] eqn:NV; [|discriminate]. apply andb_true_iff in X. destruct X as [X1 X2].
  cbn [map all_some build_list fold_right] in *.
  destruct (etype sg envt a) as [y|] eqn:EA; [|discriminate]. destruct (etype sg envt b) as [yb|] eqn:EB; [|discriminate].
  destruct (build H C a) as [[t C1]| |] eqn:BA; cbn [bind] in E; try discriminate. destruct (build H C1 b) as [[u C2]| |] eqn:BB; cbn [bind] in E; try discriminate. injection E as <- <-.
  destruct DG as (DA & DB & _). inversion F as [|? ? SA F1]; subst. inversion F1 as [|? ? SB F2]; subst.
  destruct (SA C fs envt y t C1 R D SC LT DA EA BA) as (R1 & HT & AF & EV).
  destruct (SB C1 fs envt yb u C2 R1 (after_describes _ _ _ _ AF D) (af_scopes _ _ _ AF) (after_locals _ _ _ _ _ AF LT) DB EB BB) as (R2 & HTB & AF2 & EVB).
  destruct (num_value_node C1 b q u C2 R1 NV DB BB) as (RT & _ & NB).
  exists t, u, (Q2Qc q). split; auto. split; auto. split.
  { intros Z. apply negb_true_iff in X1. assert (Q2 : (q == 0)%Q). { apply (f_equal this) in Z. cbn in Z. rewrite <- (Qred_correct q), Z. reflexivity. }
    apply Qeq_bool_iff in Q2. congruence. }
  apply orb_true_iff in X2. destruct X2 as [X2|X2].
  - left. eapply keeps_const; [apply AF2|eapply type_valid; exact HT|]. exact (num_const C a t C1 R X2 BA).
  - right. apply andb_true_iff in X2. destruct X2 as [X2 X3]. apply andb_true_iff in X2. destruct X2 as [X2 X4].
    apply Z.ltb_lt in X2. apply Z.ltb_lt in X3. apply Z.ltb_lt in X4. cbn [this Q2Qc]. lia.
Qed.
Lemma sound_binds bs : Forall (fun b => sound (snd b)) bs -> forall C fs envt tys ts C', reach H (c_tab C) -> describes C sg -> scopes (c_lets C) fs ->
  local_types (c_tab C) (List.concat fs) envt -> fold_right and True (map (fun b => digits_ok (snd b)) bs) -> all_some (map (fun b => etype sg envt (snd b)) bs) = Some tys ->
  build_binds H C bs = Ok (ts, C') ->
  reach H (c_tab C') /\ local_types (c_tab C') ts (combine (map (fun b => nm_text (fst b)) bs) tys) /\ after C C' fs /\
  forall I M envv, interprets C sg I M -> local_values I (c_tab C) (List.concat fs) envv ->
    local_values I (c_tab C') ts (combine (map (fun b => nm_text (fst b)) bs) (map (fun b => evalue sg M envv (snd b)) bs)).
Proof.
  induction 1 as [|[n a] l A F IH]; intros C fs envt tys ts C' R D SC LT DG Y E; cbn [map all_some build_binds fold_right snd fst] in *.
  - injection Y as <-. injection E as <- <-. split; auto. split; [constructor|]. split; [now apply after_refl|]. constructor.
  - destruct (etype sg envt a) as [y|] eqn:EA; [|discriminate]. destruct (all_some (map (fun b => etype sg envt (snd b)) l)) as [tl|] eqn:EL; [|discriminate]. injection Y as <-.
    destruct (build H C a) as [[t C1]| |] eqn:BA; cbn [bind] in E; try discriminate. destruct (build_binds H C1 l) as [[ts2 C2]| |] eqn:BL; cbn [bind] in E; try discriminate. injection E as <- <-.
    destruct DG as [DA DL]. destruct (A C fs envt y t C1 R D SC LT DA EA BA) as (R1 & HT & AF & EV).
    destruct (IH C1 fs envt tl ts2 C2 R1 (after_describes _ _ _ _ AF D) (af_scopes _ _ _ AF) (after_locals _ _ _ _ _ AF LT) DL EL BL) as (R2 & FT & AF2 & EV2).
    split; auto. cbn [combine]. split. { constructor; auto. split; auto. cbn. eapply keeps_type; [apply AF2|]. auto. } split; [eapply after_trans; eauto|].
    intros I M envv IT LV. constructor.
    + split; auto. cbn. rewrite <- (EV I M envv IT LV). apply AF2. eapply type_valid; eauto.
    + apply EV2; [eapply after_interprets; eauto|]. eapply local_values_keeps; [apply AF| |]; eauto.
Qed.
Lemma f2_rev {A B} (P : A -> B -> Prop) l m : Forall2 P l m -> Forall2 P (rev l) (rev m).
Proof. induction 1; cbn; [constructor|]. apply Forall2_app; auto. Qed.

Lemma sound_all e : sound e.
Proof.
  induction e as [n|d|d f|g args IH|bs body IH IHb] using expr_ind2; intros C fs envt y t C' R D SC LT DG Y E.
  - cbn [build] in E. destruct (term_for_symbol C (nm_text n)) as [u| |] eqn:TS; cbn [bind] in E; try discriminate. injection E as <- <-.
    destruct (symbol_sound C fs n envt y u D SC R LT Y TS) as [HT EV]. split; auto. split; auto. split; auto. now apply after_refl.
  - cbn [build digits_ok etype] in *. destruct DG as [DG1 DG2]. destruct (C43_numeral H (c_tab C) d R DG1 DG2) as (T' & u & EM & R' & RT & K & EV).
    rewrite EM in E. cbn [bind] in E. injection E as <- <-. injection Y as <-. cbn. split; auto. split; auto. split; [now split|].
    intros I M envv _ _. rewrite (real_value H T' I u (reach_wf H _ R') RT). cbn [evalue]. f_equal. apply canon_of, EV.
  - cbn [build digits_ok etype] in *. destruct DG as (DG1 & DG2 & DG3 & DG4). destruct (C43_decimal H (c_tab C) d f R DG1 DG2 DG3 DG4) as (T' & u & EM & R' & RT & K & EV).
    rewrite EM in E. cbn [bind] in E. injection E as <- <-. injection Y as <-. cbn. split; auto. split; auto. split; [now split|].
    intros I M envv _ _. rewrite (real_value H T' I u (reach_wf H _ R') RT). cbn [evalue]. f_equal. apply canon_of, EV.
  - rewrite build_app in E. cbn [digits_ok etype] in *. destruct (all_some (map (etype sg envt) args)) as [tys|] eqn:EA; [|discriminate].
    destruct (build_list H C args) as [[ts C1]| |] eqn:BL; cbn [bind] in E; try discriminate.
    destruct (sound_list args IH C fs envt tys ts C1 R D SC LT DG EA BL) as (R1 & FT & AF & EV).
    apply call_type in Y. destruct Y as [Y XD].
    pose proof (fun a b => divisible_args args IH C fs envt tys ts C1 R D SC LT DG EA BL (XD a b)) as DV.
    destruct (call_sound C1 (nm_text g) ts tys y t C' R1 (after_describes _ _ _ _ AF D) FT Y DV E) as (T' & -> & R2 & HT & K & EV2).
    cbn. split; auto. split; auto. split. { destruct AF as [A1 A2 A3 A4 A5]. split; auto. eapply keeps_trans; eauto. }
    intros I M envv IT LV. rewrite (EV2 I M (after_interprets _ _ _ _ _ _ AF D IT)). now rewrite (EV I M envv IT LV).
  - rewrite build_let in E. cbn [digits_ok etype] in *. destruct (all_some (map (fun b => etype sg envt (snd b)) bs)) as [tys|] eqn:EA; [|discriminate].
    destruct (build_binds H C bs) as [[ts C1]| |] eqn:BL; cbn [bind] in E; try discriminate. destruct DG as [DG1 DG2].
    destruct (sound_binds bs IH C fs envt tys ts C1 R D SC LT DG1 EA BL) as (R1 & FT & AF & EV).
    set (C1' := with_lets C1 (add_let_bindings (c_lets C1) ts)) in *.
    destruct (build H C1' body) as [[u C2]| |] eqn:BB; cbn [bind] in E; try discriminate.
    assert (SC1 : scopes (c_lets C1') (rev ts :: fs)) by apply let_scopes, AF.
    assert (LT1 : local_types (c_tab C1') (List.concat (rev ts :: fs)) (bind_new (combine (map (fun b => nm_text (fst b)) bs) tys) envt)).
    { cbn [List.concat]. unfold bind_new. apply Forall2_app; [apply f2_rev; exact FT|]. exact (after_locals _ _ _ _ _ AF LT). }
    destruct (IHb C1' (rev ts :: fs) _ y u C2 R1 (describes_lets _ _ _ (after_describes _ _ _ _ AF D)) SC1 LT1 DG2 Y BB) as (R2 & HT & AF2 & EV2).
    assert (NE : fs <> []) by apply SC.
    destruct (pop_scopes _ _ _ (af_scopes _ _ _ AF2) NE) as (L' & PE & SC2). rewrite PE in E. cbn [bind] in E. injection E as <- <-.
    cbn. split; auto. split; auto. split. { destruct AF as [A1 A2 A3 A4 A5], AF2 as [B1 B2 B3 B4 B5]. split; cbn in *; try congruence; auto. eapply keeps_trans; eauto. }
    intros I M envv IT LV. apply EV2. { apply interprets_lets. eapply after_interprets; eauto. }
    cbn [List.concat]. unfold bind_new. apply Forall2_app; [apply f2_rev, EV; auto|]. eapply local_values_keeps; [apply AF| |]; eauto.
Qed.

(** ** Results exist *)
Lemma f2_combine_eqb C tys ts : Forall2 (has_type (c_tab C)) ts tys -> forallb (fun p => ty_eqb (fst p) (type_of (c_tab C) (snd p))) (combine tys ts) = true.
Proof. induction 1 as [|t y ts tys A F IH]; cbn; auto. rewrite IH, (type_ty _ _ _ A), andb_true_r. now apply ty_eqb_eq. Qed.
Lemma call_total C n ts tys y : reach H (c_tab C) -> describes C sg -> Forall2 (has_type (c_tab C)) ts tys ->
  (match sg_fun sg n with
   | Some (sorts, ret) => if ty_list_eqb sorts tys then Some ret else None
   | None => match builtin n with Some o => op_sig o tys | None => None end
   end) = Some y ->
  (forall o, sg_fun sg n = None -> builtin n = Some o ->
     (o = OTimes -> lin (c_tab C) ts) /\ (o = OEq \/ o = ODistinct -> Forall (eq TBool) tys)) ->
  (sg_fun sg n = None -> builtin n = Some ODiv -> divisible (c_tab C) ts) ->
  exists t C', resolve_term H C n ts = Ok (t, C').
Proof.
  intros R D F Y Q DV. unfold resolve_term. destruct (sg_fun sg n) as [[sorts ret]|] eqn:SF.
  - destruct (ds_fun _ _ D n sorts ret SF) as (D1 & D2 & RT & f & D3 & V & NG & KU). rewrite assoc_find in D1. rewrite assoc_find in D2. rewrite assoc_find in D3. rewrite D1, D2.
    destruct (ty_list_eqb sorts tys) eqn:TE; [|discriminate]. apply ty_list_eqb_eq in TE. subst tys. rewrite (f2_length F), Nat.eqb_refl. cbn [assertb bind].
    rewrite (f2_combine_eqb C sorts ts F). cbn [assertb bind]. rewrite D3. cbn [value_of bind]. destruct (mk_app H (c_tab C) f ret ts) as [T' u]. eauto.
  - destruct (builtin n) as [o|] eqn:BN; [|discriminate]. destruct (ds_builtin _ _ D n o SF BN) as [D1 D2]. rewrite assoc_find in D1. rewrite assoc_find in D2. rewrite D1, D2.
    destruct (Q o eq_refl eq_refl) as [Q1 Q2].
    unfold builtin in BN. rewrite op_name_ext in BN. rewrite BN.
    cbn [value_of bind].
    destruct (op_eq_dec o ODiv) as [->|NO].
    { destruct (DV eq_refl eq_refl) as (a & b & q & -> & NB & NZ & DC). inversion F as [|? ya ? la HA F1]; subst. inversion F1 as [|? yb ? lb HB F2]; subst. inversion F2; subst.
      destruct ya; try discriminate. destruct yb; try discriminate.
      destruct (C44_partial H (c_tab C) a b q R HA HB NB NZ DC) as (T2 & u2 & -> & _). cbn [bind]. eauto. }
    destruct (C41_total H (c_tab C) o ts tys y R F Y NO Q1) as (T' & u & -> & _).
    { intros OE a b Ia Ib (k & x & NK & [[-> N]|[-> N]]); specialize (Q2 OE).
      - assert (B : has_type (c_tab C) a TBool). { clear - F Q2 Ia. induction F as [|t y ts tys A F IH]; [destruct Ia|]. inversion Q2; subst. destruct Ia as [->|Ia]; auto. }
        apply type_ty in B. unfold type_of in B. rewrite N in B. discriminate.
      - assert (B : has_type (c_tab C) b TBool). { clear - F Q2 Ib. induction F as [|t y ts tys A F IH]; [destruct Ib|]. inversion Q2; subst. destruct Ib as [->|Ib]; auto. }
        apply type_ty in B. unfold type_of in B. rewrite N in B. discriminate. }
    cbn [bind]. eauto.
Qed.
Lemma symbol_total C fs n envt y : describes C sg -> scopes (c_lets C) fs ->
  local_types (c_tab C) (List.concat fs) envt -> etype sg envt (ESym n) = Some y -> exists t, term_for_symbol C (nm_text n) = Ok t.
Proof.
  intros D SC LT Y. unfold term_for_symbol. cbn [etype] in Y.
  destruct (text_eqb (nm_text n) (t_of "true")); [eauto|]. destruct (text_eqb (nm_text n) (t_of "false")); [eauto|]. cbn [orb] in Y.
  rewrite (get_scopes _ _ _ SC). pose proof (local_find _ _ _ (nm_text n) LT) as LF. destruct (assoc (List.concat fs) (nm_text n)) as [u|]; [eauto|].
  destruct (assoc envt (nm_text n)); [tauto|]. destruct (ds_const _ _ D _ _ Y) as (u & G & HT). unfold global in G. rewrite (assoc_find (c_names C)), (assoc_find (c_defs C)) in G.
  destruct (tm_find (c_defs C) (nm_text n)) as [[[[|a l] r] body]|]; cbn [assertb bind]; try discriminate; eauto. rewrite G. cbn. eauto.
Qed.
Definition total (e : expr) : Prop := forall C fs envt y, reach H (c_tab C) -> describes C sg -> scopes (c_lets C) fs ->
  local_types (c_tab C) (List.concat fs) envt -> digits_ok e -> etype sg envt e = Some y -> simple sg envt e -> exists t C', build H C e = Ok (t, C').
Lemma total_list args : Forall total args -> forall C fs envt tys, reach H (c_tab C) -> describes C sg -> scopes (c_lets C) fs ->
  local_types (c_tab C) (List.concat fs) envt -> fold_right and True (map digits_ok args) -> all_some (map (etype sg envt) args) = Some tys ->
  fold_right and True (map (simple sg envt) args) ->
  exists ts C', build_list H C args = Ok (ts, C') /\ Forall2 (fun a t => is_num a = true -> is_arith_const (c_tab C') t = true) args ts.
Proof.
  induction 1 as [|a l A F IH]; intros C fs envt tys R D SC LT DG Y SI; cbn [map all_some build_list fold_right] in *.
  - exists [], C. split; auto.
  - destruct (etype sg envt a) as [y|] eqn:EA; [|discriminate]. destruct (all_some (map (etype sg envt) l)) as [tl|] eqn:EL; [|discriminate]. injection Y as <-.
    destruct DG as [DA DL], SI as [SA SL]. destruct (A C fs envt y R D SC LT DA EA SA) as (t & C1 & BA). rewrite BA. cbn [bind].
    destruct (sound_all a C fs envt y t C1 R D SC LT DA EA BA) as (R1 & HT & AF & EV).
    destruct (IH C1 fs envt tl R1 (after_describes _ _ _ _ AF D) (af_scopes _ _ _ AF) (after_locals _ _ _ _ _ AF LT) DL EL SL) as (ts & C2 & BL & FC).
    rewrite BL. cbn [bind]. exists (t :: ts), C2. split; auto. constructor; auto. intros N.
    destruct (sound_list l (proj2 (Forall_forall sound l) (fun x _ => sound_all x)) C1 fs envt tl ts C2 R1 (after_describes _ _ _ _ AF D) (af_scopes _ _ _ AF) (after_locals _ _ _ _ _ AF LT) DL EL BL) as (_ & _ & AF2 & _).
    eapply keeps_const; [apply AF2|eapply type_valid; exact HT|]. exact (num_const C a t C1 R N BA).
Qed.
Lemma total_binds bs : Forall (fun b => total (snd b)) bs -> forall C fs envt tys, reach H (c_tab C) -> describes C sg -> scopes (c_lets C) fs ->
  local_types (c_tab C) (List.concat fs) envt -> fold_right and True (map (fun b => digits_ok (snd b)) bs) -> all_some (map (fun b => etype sg envt (snd b)) bs) = Some tys ->
  fold_right and True (map (fun b => simple sg envt (snd b)) bs) -> exists ts C', build_binds H C bs = Ok (ts, C').
Proof.
  induction 1 as [|[n a] l A F IH]; intros C fs envt tys R D SC LT DG Y SI; cbn [map all_some build_binds fold_right snd fst] in *.
  - exists [], C. reflexivity.
  - destruct (etype sg envt a) as [y|] eqn:EA; [|discriminate]. destruct (all_some (map (fun b => etype sg envt (snd b)) l)) as [tl|] eqn:EL; [|discriminate]. injection Y as <-.
    destruct DG as [DA DL], SI as [SA SL]. destruct (A C fs envt y R D SC LT DA EA SA) as (t & C1 & BA). rewrite BA. cbn [bind].
    destruct (sound_all a C fs envt y t C1 R D SC LT DA EA BA) as (R1 & HT & AF & EV).
    destruct (IH C1 fs envt tl R1 (after_describes _ _ _ _ AF D) (af_scopes _ _ _ AF) (after_locals _ _ _ _ _ AF LT) DL EL SL) as (ts & C2 & BL).
    rewrite BL. cbn [bind]. eauto.
Qed.
Lemma all_bool envt args : forall tys, all_some (map (etype sg envt) args) = Some tys -> fold_right and True (map (fun a => etype sg envt a = Some TBool) args) -> Forall (eq TBool) tys.
Proof.
  induction args as [|a l IH]; intros tys E F; cbn in *; [injection E as <-; constructor|]. destruct F as [F1 F2]. rewrite F1 in E.
  destruct (all_some (map (etype sg envt) l)); [|discriminate]. injection E as <-. constructor; auto.
Qed.
Lemma total_all e : total e.
Proof.
  induction e as [n|d|d f|g args IH|bs body IH IHb] using expr_ind2; intros C fs envt y R D SC LT DG Y SI.
  - cbn [build]. destruct (symbol_total C fs n envt y D SC LT Y) as (t & ->). cbn. eauto.
  - cbn [build digits_ok] in *. destruct DG as [DG1 DG2]. destruct (C43_numeral H (c_tab C) d R DG1 DG2) as (T' & u & -> & _). cbn. eauto.
  - cbn [build digits_ok] in *. destruct DG as (DG1 & DG2 & DG3 & DG4). destruct (C43_decimal H (c_tab C) d f R DG1 DG2 DG3 DG4) as (T' & u & -> & _). cbn. eauto.
  - rewrite build_app. cbn [digits_ok etype simple] in *. destruct (all_some (map (etype sg envt) args)) as [tys|] eqn:EA; [|discriminate]. destruct SI as [SA SF].
    destruct (total_list args IH C fs envt tys R D SC LT DG EA SA) as (ts & C1 & BL & FC). rewrite BL. cbn [bind].
    destruct (sound_list args (proj2 (Forall_forall sound args) (fun x _ => sound_all x)) C fs envt tys ts C1 R D SC LT DG EA BL) as (R1 & FT & AF & _).
    apply call_type in Y. destruct Y as [Y XD].
    pose proof (fun a b => divisible_args args (proj2 (Forall_forall sound args) (fun x _ => sound_all x)) C fs envt tys ts C1 R D SC LT DG EA BL (XD a b)) as DV.
    apply (call_total C1 (nm_text g) ts tys y R1 (after_describes _ _ _ _ AF D) FT Y); [|exact DV]. intros o SN BN. rewrite SN, BN in SF. split.
    + intros ->. destruct FC as [|a t1 l1 l2 F1 FC]; [exact I|]. destruct FC as [|b t2 l1 l2 F2 FC]; [exact I|]. destruct FC; [|tauto]. cbn. tauto.
    + intros [-> | ->]; eapply all_bool; eauto.
  - rewrite build_let. cbn [digits_ok etype simple] in *. destruct (all_some (map (fun b => etype sg envt (snd b)) bs)) as [tys|] eqn:EA; [|discriminate].
    destruct DG as [DG1 DG2], SI as [SA SB]. destruct (total_binds bs IH C fs envt tys R D SC LT DG1 EA SA) as (ts & C1 & BL). rewrite BL. cbn [bind].
    destruct (sound_binds bs (proj2 (Forall_forall _ bs) (fun x _ => sound_all (snd x))) C fs envt tys ts C1 R D SC LT DG1 EA BL) as (R1 & FT & AF & _).
    set (C1' := with_lets C1 (add_let_bindings (c_lets C1) ts)) in *.
    assert (SC1 : scopes (c_lets C1') (rev ts :: fs)) by apply let_scopes, AF.
    assert (LT1 : local_types (c_tab C1') (List.concat (rev ts :: fs)) (bind_new (combine (map (fun b => nm_text (fst b)) bs) tys) envt)).
    { cbn [List.concat]. unfold bind_new. apply Forall2_app; [apply f2_rev; exact FT|]. exact (after_locals _ _ _ _ _ AF LT). }
    pose proof (describes_lets _ _ (add_let_bindings (c_lets C1) ts) (after_describes _ _ _ _ AF D)) as D1.
    destruct (IHb C1' (rev ts :: fs) _ y R1 D1 SC1 LT1 DG2 Y (SB tys eq_refl)) as (u & C2 & BB). rewrite BB. cbn [bind].
    destruct (sound_all body C1' (rev ts :: fs) _ y u C2 R1 D1 SC1 LT1 DG2 Y BB) as (_ & _ & AF2 & _).
    assert (NE : fs <> []) by apply SC. destruct (pop_scopes _ _ _ (af_scopes _ _ _ AF2) NE) as (L' & -> & _). cbn. eauto.
Qed.
End Sem.
