(** Proofs: linear expressions have a term. *)
From Coq Require Import Ascii String List Arith ZArith QArith Qcanon Bool Lia.
From Verif Require Import Base Terms_Model Spec_Terms Terms_Proofs TermMgr_Model Spec_TermMgr TermMgr_Base TermMgr_Arith TermMgr_Term Rewriter_Model Decimal_Model
  Spec_Decimal Decimal_Proofs Visitor_Proofs Lexer_Model Parser_Model Spec_Parser Parser_Scopes Parser_Proofs Prop_Terms Parser_Sem Script_Model Spec_Script Spec_Linear TermMgr_Unit.
Import ListNotations.
Close Scope Qc_scope.
Close Scope Q_scope.
Open Scope nat_scope.

Section Lin.
Variable H : hashes.
Variable sg : sigs.
Variable V : text -> Prop.

Definition vars_ok (C : pctx) : Prop := forall n t, V n -> global C n = Some t -> valid (c_tab C) t /\ kind_of (c_tab C) t = KUninterp.
Lemma vars_after C C' fs : after C C' fs -> vars_ok C -> vars_ok C'.
Proof.
  intros [K A B D _] VO n t N G. unfold global in *. rewrite A, D in G. destruct (VO n t N G) as [W X]. destruct K as [K _]. destruct (K t W) as [W' E].
  split; auto. unfold kind_of in *. now rewrite E.
Qed.

Lemma const_is T q : is_arith_const (fst (arith_const H T q)) (snd (arith_const H T q)) = true.
Proof.
  unfold is_arith_const, kind_of, arith_const, get_term. destruct (find _ _) as [e|] eqn:F; cbn [fst snd].
  - apply find_some in F. destruct F as [_ F]. apply andb_true_iff in F. destruct F as [_ F]. cbn [key_equal] in F. rewrite !andb_true_iff in F. tauto.
  - unfold node_of. cbn [tix tt_nodes]. rewrite app_nth2, Nat.sub_diag by lia. reflexivity.
Qed.
Lemma uminus_const T t T' u : is_arith_const T t = true -> mk_uminus H T t = Ok (T', u) -> is_arith_const T' u = true.
Proof.
  intros C E. unfold mk_uminus, term_to_poly in E. cbn [term_to_poly_f] in E. rewrite C in E. destruct (t_eqb t zero_term) eqn:Z.
  - cbn in E. injection E as <- <-. unfold t_eqb in Z. apply andb_true_iff in Z. destruct Z as [Z _]. apply Nat.eqb_eq in Z.
    unfold is_arith_const, kind_of, node_of in *. now rewrite <- Z.
  - destruct (const_value T t) as [v| |]; cbn [bind tp_negate map poly_to_term fst snd] in E; try discriminate. unfold mono_to_term in E. cbn [fst snd] in E.
    destruct (assertb _); cbn [bind] in E; try discriminate. injection E as E. pose proof (const_is T (- v)%Qc) as P. rewrite E in P. exact P.
Qed.
Lemma divides_const T t b T' u : is_arith_const T t = true -> mk_divides H T t b = Ok (T', u) -> is_arith_const T' u = true.
Proof.
  intros C E. unfold mk_divides in E. destruct (assertb _); cbn [bind] in E; try discriminate. destruct (const_value T b) as [v| |]; cbn [bind] in E; try discriminate. rewrite C in E.
  destruct (const_value T t) as [w| |]; cbn [bind] in E; try discriminate. destruct (q_eqb v 0); [discriminate|]. injection E as E. pose proof (const_is T (w / v)%Qc) as P. rewrite E in P. exact P.
Qed.
Lemma call_builtin C n o ts t C' : describes C sg -> sg_fun sg n = None -> builtin n = Some o -> resolve_term H C n ts = Ok (t, C') ->
  exists T', mk_term H (c_tab C) o ts = Ok (T', t) /\ C' = with_tab C T'.
Proof.
  intros D SF BN E. destruct (ds_builtin _ _ D n o SF BN) as [D1 D2]. unfold resolve_term in E. rewrite assoc_find in D1. rewrite assoc_find in D2. rewrite D1, D2 in E.
  unfold builtin in BN. rewrite op_name_ext in BN. rewrite BN in E. cbn [value_of bind] in E. destruct (mk_term H (c_tab C) o ts) as [[T' u]| |]; cbn [bind] in E; try discriminate.
  injection E as <- <-. eauto.
Qed.

Lemma sound_each (l : list expr) : Forall (sound H sg) l.
Proof. apply Forall_forall. intros x _. apply sound_all. Qed.
Lemma coef_const e : coefficient sg e -> forall C fs envt y t C', reach H (c_tab C) -> describes C sg -> scopes (c_lets C) fs ->
  local_types (c_tab C) (List.concat fs) envt -> digits_ok e -> etype sg envt e = Some y -> build H C e = Ok (t, C') -> is_arith_const (c_tab C') t = true.
Proof.
  induction e as [n|d|d f|g args IH|bs body IH IHb] using expr_ind2; intros CO C fs envt y t C' R D SC LT DG Y E; try destruct CO as [].
  - eapply num_const; eauto. reflexivity.
  - eapply num_const; eauto. reflexivity.
  - rewrite build_app in E. cbn [digits_ok etype] in *. destruct (all_some (map (etype sg envt) args)) as [tys|] eqn:EA; [|discriminate].
    destruct (build_list H C args) as [[ts C1]| |] eqn:BL; cbn [bind] in E; try discriminate.
    destruct (sound_list H sg args (sound_each args) C fs envt tys ts C1 R D SC LT DG EA BL) as (R1 & FT & AF & _).
    pose proof (after_describes _ _ _ _ AF D) as D1.
    destruct args as [|a [|b [|]]]; try tauto.
    + destruct H1 as [BN CA]. cbn [build_list map all_some fold_right] in *. destruct (etype sg envt a) as [ya|] eqn:YA; [|discriminate]. destruct DG as [DA _].
      destruct (build H C a) as [[ta Ca]| |] eqn:BA; cbn [bind] in BL; try discriminate. injection BL as <- <-.
      inversion IH as [|? ? IA _]; subst. pose proof (IA CA C fs envt ya ta Ca R D SC LT DA YA BA) as K.
      destruct (call_builtin _ _ _ _ _ _ D1 H0 BN E) as (T' & M & ->). cbn [mk_term] in M. cbn. exact (uminus_const _ _ _ _ K M).
    + destruct H1 as (BN & CA & NB). cbn [build_list map all_some fold_right] in *. destruct (etype sg envt a) as [ya|] eqn:YA; [|discriminate]. destruct DG as [DA [DB _]].
      destruct (build H C a) as [[ta Ca]| |] eqn:BA; cbn [bind] in BL; try discriminate. destruct (build H Ca b) as [[tb Cb]| |] eqn:BB; cbn [bind] in BL; try discriminate. injection BL as <- <-.
      inversion IH as [|? ? IA _]; subst. pose proof (IA CA C fs envt ya ta Ca R D SC LT DA YA BA) as K.
      destruct (sound_all H sg a C fs envt ya ta Ca R D SC LT DA YA BA) as (RA & HA & AA & _).
      destruct (etype sg envt b) as [yb|] eqn:YB; [|discriminate].
      destruct (sound_all H sg b Ca fs envt yb tb Cb RA (after_describes _ _ _ _ AA D) (af_scopes _ _ _ AA) (after_locals _ _ _ _ _ AA LT) DB YB BB) as (_ & _ & AB & _).
      pose proof (keeps_const _ _ _ (af_keeps _ _ _ AB) (type_valid _ _ _ HA) K) as K2.
      destruct (call_builtin _ _ _ _ _ _ D1 H0 BN E) as (T' & M & ->). cbn [mk_term] in M. cbn. exact (divides_const _ _ _ _ _ K2 M).
Qed.
Lemma true_kind T : reach H T -> kind_of T true_term = KConst /\ kind_of T false_term = KConst.
Proof. intros R. destruct (wf_prim _ _ (reach_wf H T R)) as (l & E). unfold kind_of, node_of. rewrite E. split; reflexivity. Qed.
Lemma app_kind T f ret ts : kind_of (fst (mk_app H T f ret ts)) (snd (mk_app H T f ret ts)) = KApp.
Proof.
  unfold kind_of, mk_app, app_term, get_term. destruct (find _ _) as [e|] eqn:F; cbn [fst snd].
  - apply find_some in F. destruct F as [_ F]. apply andb_true_iff in F. destruct F as [_ F]. cbn [key_equal] in F. rewrite !andb_true_iff in F.
    destruct F as [[F _] _]. destruct (n_kind (node_of T (snd e))); cbn in F; congruence.
  - unfold node_of. cbn [tix tt_nodes]. rewrite app_nth2, Nat.sub_diag by lia. reflexivity.
Qed.
Lemma unknown_kind envt e : unknown sg V envt e -> forall C fs y t C', reach H (c_tab C) -> describes C sg -> vars_ok C -> scopes (c_lets C) fs ->
  local_types (c_tab C) (List.concat fs) envt -> digits_ok e -> etype sg envt e = Some y -> build H C e = Ok (t, C') -> kind_of (c_tab C') t <> KProduct.
Proof.
  intros U C fs y t C' R D VO SC LT DG Y E. destruct e as [n|d|d f|g args|bs body]; cbn [unknown] in U; try contradiction.
  - destruct U as [H0 H1]. cbn [build] in E. destruct (term_for_symbol C (nm_text n)) as [u| |] eqn:TS; cbn [bind] in E; try discriminate. injection E as <- <-.
    unfold term_for_symbol in TS. destruct (true_kind _ R) as [TK FK].
    destruct (text_eqb _ _). { injection TS as <-. rewrite TK. discriminate. } destruct (text_eqb _ _). { injection TS as <-. rewrite FK. discriminate. }
    rewrite (get_scopes _ _ _ SC) in TS. pose proof (local_find _ _ _ (nm_text n) LT) as LF. rewrite H1 in LF. destruct (assoc (List.concat fs) (nm_text n)); [tauto|].
    assert (G : global C (nm_text n) = Some u).
    { unfold global. rewrite (assoc_find (c_defs C)), (assoc_find (c_names C)). destruct (tm_find (c_defs C) (nm_text n)) as [[[[|x l] r] body]|]; cbn in TS; try discriminate; [injection TS as <-; reflexivity|].
      destruct (tm_find (c_names C) (nm_text n)); cbn in TS; [injection TS as <-; reflexivity|discriminate]. }
    destruct (VO _ _ H0 G) as [_ K]. rewrite K. discriminate.
  - rewrite build_app in E. cbn [digits_ok etype] in *. destruct (all_some (map (etype sg envt) args)) as [tys|] eqn:EA; [|discriminate].
    destruct (build_list H C args) as [[ts C1]| |] eqn:BL; cbn [bind] in E; try discriminate.
    destruct (sound_list H sg args (sound_each args) C fs envt tys ts C1 R D SC LT DG EA BL) as (R1 & FT & AF & _).
    pose proof (after_describes _ _ _ _ AF D) as D1. destruct (sg_fun sg (nm_text g)) as [[sorts ret]|] eqn:SF; [|congruence].
    destruct (ds_fun _ _ D1 _ sorts ret SF) as (A1 & A2 & _). unfold resolve_term in E. rewrite assoc_find in A1. rewrite assoc_find in A2. rewrite A1, A2 in E.
    destruct (assertb _); cbn [bind] in E; try discriminate. destruct (assertb _); cbn [bind] in E; try discriminate. destruct (value_of _) as [f0| |]; cbn [bind] in E; try discriminate.
    pose proof (app_kind (c_tab C1) f0 ret ts) as K. destruct (mk_app H (c_tab C1) f0 ret ts) as [T' u]. injection E as <- <-. cbn in K |- *. rewrite K. discriminate.
Qed.
Lemma keeps_kind T T' t : keeps T T' -> valid T t -> kind_of T' t = kind_of T t.
Proof. intros [K _] W. unfold kind_of. now rewrite (proj2 (K t W)). Qed.
Definition part envt T (a : expr) (t : term) : Prop :=
  (coefficient sg a -> is_arith_const T t = true) /\ (unknown sg V envt a -> kind_of T t <> KProduct).
Lemma parts_list args : forall C fs envt tys ts C', reach H (c_tab C) -> describes C sg -> vars_ok C -> scopes (c_lets C) fs ->
  local_types (c_tab C) (List.concat fs) envt -> fold_right and True (map digits_ok args) -> all_some (map (etype sg envt) args) = Some tys ->
  build_list H C args = Ok (ts, C') -> Forall2 (part envt (c_tab C')) args ts.
Proof.
  induction args as [|a l IH]; intros C fs envt tys ts C' R D VO SC LT DG Y E; cbn [map all_some build_list fold_right] in *; [injection E as <- <-; constructor|].
  destruct (etype sg envt a) as [y|] eqn:EA; [|discriminate]. destruct (all_some (map (etype sg envt) l)) as [tl|] eqn:EL; [|discriminate]. destruct DG as [DA DL].
  destruct (build H C a) as [[t C1]| |] eqn:BA; cbn [bind] in E; try discriminate. destruct (build_list H C1 l) as [[us C2]| |] eqn:BL; cbn [bind] in E; try discriminate. injection E as <- <-.
  destruct (sound_all H sg a C fs envt y t C1 R D SC LT DA EA BA) as (R1 & HT & AF & _).
  destruct (sound_list H sg l (sound_each l) C1 fs envt tl us C2 R1 (after_describes _ _ _ _ AF D) (af_scopes _ _ _ AF) (after_locals _ _ _ _ _ AF LT) DL EL BL) as (_ & _ & AF2 & _).
  constructor.
  - split.
    + intros CO. eapply keeps_const; [apply AF2|eapply type_valid; exact HT|]. exact (coef_const a CO C fs envt y t C1 R D SC LT DA EA BA).
    + intros U. rewrite (keeps_kind _ _ _ (af_keeps _ _ _ AF2) (type_valid _ _ _ HT)). exact (unknown_kind envt a U C fs y t C1 R D VO SC LT DA EA BA).
  - exact (IH C1 fs envt tl us C2 R1 (after_describes _ _ _ _ AF D) (vars_after _ _ _ AF VO) (af_scopes _ _ _ AF) (after_locals _ _ _ _ _ AF LT) DL EL BL).
Qed.

Lemma const_kind_ne T t : is_arith_const T t = true -> kind_of T t <> KProduct.
Proof. unfold is_arith_const. destruct (kind_of T t); cbn; congruence. Qed.
Lemma call_linear C n ts tys y : reach H (c_tab C) -> describes C sg -> NU (c_tab C) -> Forall2 (has_type (c_tab C)) ts tys ->
  (match sg_fun sg n with
   | Some (sorts, ret) => if ty_list_eqb sorts tys then Some ret else None
   | None => match builtin n with Some o => op_sig o tys | None => None end
   end) = Some y ->
  (sg_fun sg n = None -> builtin n = Some OTimes -> lin (c_tab C) ts /\ (length ts = 2 -> Forall (fun t => kind_of (c_tab C) t <> KProduct) ts)) ->
  (sg_fun sg n = None -> builtin n = Some ODiv -> divisible (c_tab C) ts /\ forall a b, ts = [a; b] -> kind_of (c_tab C) a <> KProduct) ->
  exists t C', resolve_term H C n ts = Ok (t, C') /\ NU (c_tab C').
Proof.
  intros R D N F Y Q DV. unfold resolve_term. destruct (sg_fun sg n) as [[sorts ret]|] eqn:SF.
  - destruct (ds_fun _ _ D n sorts ret SF) as (D1 & D2 & RT & f & D3 & W & NG & KU). rewrite assoc_find in D1. rewrite assoc_find in D2. rewrite assoc_find in D3. rewrite D1, D2.
    destruct (ty_list_eqb sorts tys) eqn:TE; [|discriminate]. apply ty_list_eqb_eq in TE. subst tys. rewrite (f2_length F), Nat.eqb_refl. cbn [assertb bind].
    rewrite (f2_combine_eqb C sorts ts F). cbn [assertb bind]. rewrite D3. cbn [value_of bind]. pose proof (nu_app H (c_tab C) f ret ts N) as P.
    destruct (mk_app H (c_tab C) f ret ts) as [T' u]. eexists _, _. split; [reflexivity|exact P].
  - destruct (builtin n) as [o|] eqn:BN; [|discriminate]. destruct (ds_builtin _ _ D n o SF BN) as [D1 D2]. rewrite assoc_find in D1. rewrite assoc_find in D2. rewrite D1, D2.
    assert (BO := BN). unfold builtin in BN. rewrite op_name_ext in BN. rewrite BN.
    cbn [value_of bind].
    assert (P : post (mk_term H (c_tab C) o ts)).
    { apply nu_term; [exact N| |].
      - intros -> L. now apply (proj2 (Q eq_refl eq_refl)).
      - intros -> a b ->. destruct (DV eq_refl eq_refl) as [_ K]. split; [|exact (K a b eq_refl)]. inversion F as [|? ? ? ? X]; subst. apply type_valid in X. unfold valid in X. lia. }
    assert (E : exists T' u, mk_term H (c_tab C) o ts = Ok (T', u)).
    { destruct (op_eq_dec o ODiv) as [->|NO].
      { destruct (DV eq_refl eq_refl) as [(a & b & q & -> & NB & NZ & DC) _]. inversion F as [|? ya ? la HA F1]; subst. inversion F1 as [|? yb ? lb HB F2]; subst. inversion F2; subst.
        destruct ya; try discriminate. destruct yb; try discriminate.
        destruct (C44_partial H (c_tab C) a b q R HA HB NB NZ DC) as (T2 & u2 & E & _). eauto. }
      destruct (C41_total H (c_tab C) o ts tys y R F Y NO) as (T' & u & E & _); eauto.
      - intros ->. exact (proj1 (Q eq_refl eq_refl)).
      - intros _ a b _ _. now apply nu_pair. }
    destruct E as (T' & u & E). rewrite E in *. cbn [bind]. eexists _, _. split; [reflexivity|exact P].
Qed.

Definition total (e : expr) : Prop := forall C fs envt y, reach H (c_tab C) -> describes C sg -> vars_ok C -> NU (c_tab C) -> scopes (c_lets C) fs ->
  local_types (c_tab C) (List.concat fs) envt -> digits_ok e -> etype sg envt e = Some y -> linear sg V envt e -> exists t C', build H C e = Ok (t, C') /\ NU (c_tab C').
Lemma linear_list args : Forall total args -> forall C fs envt tys, reach H (c_tab C) -> describes C sg -> vars_ok C -> NU (c_tab C) -> scopes (c_lets C) fs ->
  local_types (c_tab C) (List.concat fs) envt -> fold_right and True (map digits_ok args) -> all_some (map (etype sg envt) args) = Some tys ->
  fold_right and True (map (linear sg V envt) args) -> exists ts C', build_list H C args = Ok (ts, C') /\ NU (c_tab C').
Proof.
  induction 1 as [|a l A F IH]; intros C fs envt tys R D VO N SC LT DG Y SI; cbn [map all_some build_list fold_right] in *.
  - exists [], C. split; auto.
  - destruct (etype sg envt a) as [y|] eqn:EA; [|discriminate]. destruct (all_some (map (etype sg envt) l)) as [tl|] eqn:EL; [|discriminate]. injection Y as <-.
    destruct DG as [DA DL], SI as [SA SL]. destruct (A C fs envt y R D VO N SC LT DA EA SA) as (t & C1 & BA & N1). rewrite BA. cbn [bind].
    destruct (sound_all H sg a C fs envt y t C1 R D SC LT DA EA BA) as (R1 & HT & AF & EV).
    destruct (IH C1 fs envt tl R1 (after_describes _ _ _ _ AF D) (vars_after _ _ _ AF VO) N1 (af_scopes _ _ _ AF) (after_locals _ _ _ _ _ AF LT) DL EL SL) as (ts & C2 & BL & N2).
    rewrite BL. cbn [bind]. eauto.
Qed.
Lemma linear_binds bs : Forall (fun b => total (snd b)) bs -> forall C fs envt tys, reach H (c_tab C) -> describes C sg -> vars_ok C -> NU (c_tab C) -> scopes (c_lets C) fs ->
  local_types (c_tab C) (List.concat fs) envt -> fold_right and True (map (fun b => digits_ok (snd b)) bs) -> all_some (map (fun b => etype sg envt (snd b)) bs) = Some tys ->
  fold_right and True (map (fun b => linear sg V envt (snd b)) bs) -> exists ts C', build_binds H C bs = Ok (ts, C') /\ NU (c_tab C').
Proof.
  induction 1 as [|[n a] l A F IH]; intros C fs envt tys R D VO N SC LT DG Y SI; cbn [map all_some build_binds fold_right snd fst] in *.
  - exists [], C. auto.
  - destruct (etype sg envt a) as [y|] eqn:EA; [|discriminate]. destruct (all_some (map (fun b => etype sg envt (snd b)) l)) as [tl|] eqn:EL; [|discriminate]. injection Y as <-.
    destruct DG as [DA DL], SI as [SA SL]. destruct (A C fs envt y R D VO N SC LT DA EA SA) as (t & C1 & BA & N1). rewrite BA. cbn [bind].
    destruct (sound_all H sg a C fs envt y t C1 R D SC LT DA EA BA) as (R1 & HT & AF & EV).
    destruct (IH C1 fs envt tl R1 (after_describes _ _ _ _ AF D) (vars_after _ _ _ AF VO) N1 (af_scopes _ _ _ AF) (after_locals _ _ _ _ _ AF LT) DL EL SL) as (ts & C2 & BL & N2).
    rewrite BL. cbn [bind]. eauto.
Qed.
Lemma linear_all e : total e.
Proof.
  induction e as [n|d|d f|g args IH|bs body IH IHb] using expr_ind2; intros C fs envt y R D VO N SC LT DG Y SI.
  - cbn [build]. destruct (symbol_total sg C fs n envt y D SC LT Y) as (t & ->). cbn. eauto.
  - cbn [build digits_ok] in *. destruct DG as [DG1 DG2]. destruct (C43_numeral H (c_tab C) d R DG1 DG2) as (T' & u & E & _). rewrite E. cbn [bind]. eexists _, _. split; [reflexivity|].
    cbn. unfold mk_numeral in E. destruct (integer_constant d) as [r| |] eqn:X; cbn [bind] in E; try discriminate. injection E as E. pose proof (nu_const H (c_tab C) (Q2Qc (Spec_Rational.value r)) N) as P. rewrite E in P. exact P.
  - cbn [build digits_ok] in *. destruct DG as (DG1 & DG2 & DG3 & DG4). destruct (C43_decimal H (c_tab C) d f R DG1 DG2 DG3 DG4) as (T' & u & E & _). rewrite E. cbn [bind]. eexists _, _. split; [reflexivity|].
    cbn. unfold mk_decimal in E. destruct (rational_constant _) as [r| |] eqn:X; cbn [bind] in E; try discriminate. injection E as E. pose proof (nu_const H (c_tab C) (Q2Qc (Spec_Rational.value r)) N) as P. rewrite E in P. exact P.
  - rewrite build_app. cbn [digits_ok etype linear] in *. destruct (all_some (map (etype sg envt) args)) as [tys|] eqn:EA; [|discriminate]. destruct SI as [SA SF].
    destruct (linear_list args IH C fs envt tys R D VO N SC LT DG EA SA) as (ts & C1 & BL & N1). rewrite BL. cbn [bind].
    pose proof (parts_list args C fs envt tys ts C1 R D VO SC LT DG EA BL) as PL.
    destruct (sound_list H sg args (sound_each args) C fs envt tys ts C1 R D SC LT DG EA BL) as (R1 & FT & AF & _).
    apply call_type in Y. destruct Y as [Y XD].
    pose proof (fun a b => divisible_args H sg args (sound_each args) C fs envt tys ts C1 R D SC LT DG EA BL (XD a b)) as DV.
    apply (call_linear C1 (nm_text g) ts tys y R1 (after_describes _ _ _ _ AF D) N1 FT Y).
    + intros SN BN. rewrite SN, BN in SF. destruct PL as [|a t1 l1 l2 [F1 U1] PL]; [split; [exact I|discriminate]|]. destruct PL as [|b t2 l1 l2 [F2 U2] PL]; [split; [exact I|discriminate]|].
      destruct PL; [|tauto]. destruct SF as [[CA [CB|UB]]|[UA CB]]; (split; [cbn; tauto|]); intros _; constructor; auto using const_kind_ne.
    + intros SN BN. split; [exact (DV SN BN)|]. intros a b ->. rewrite SN, BN in SF. inversion PL as [|x ? ? ? [F1 U1] PL2]; subst. destruct SF as [CA|UA]; auto using const_kind_ne.
  - rewrite build_let. cbn [digits_ok etype linear] in *. destruct (all_some (map (fun b => etype sg envt (snd b)) bs)) as [tys|] eqn:EA; [|discriminate].
    destruct DG as [DG1 DG2], SI as [SA SB]. destruct (linear_binds bs IH C fs envt tys R D VO N SC LT DG1 EA SA) as (ts & C1 & BL & N1). rewrite BL. cbn [bind].
    destruct (sound_binds H sg bs (proj2 (Forall_forall _ bs) (fun x _ => sound_all H sg (snd x))) C fs envt tys ts C1 R D SC LT DG1 EA BL) as (R1 & FT & AF & _).
    set (C1' := with_lets C1 (add_let_bindings (c_lets C1) ts)) in *.
    assert (SC1 : scopes (c_lets C1') (rev ts :: fs)) by apply let_scopes, AF.
    assert (LT1 : local_types (c_tab C1') (List.concat (rev ts :: fs)) (bind_new (combine (map (fun b => nm_text (fst b)) bs) tys) envt)).
    { cbn [List.concat]. unfold bind_new. apply Forall2_app; [apply f2_rev; exact FT|]. exact (after_locals _ _ _ _ _ AF LT). }
    pose proof (describes_lets _ _ (add_let_bindings (c_lets C1) ts) (after_describes _ _ _ _ AF D)) as D1.
    destruct (IHb C1' (rev ts :: fs) _ y R1 D1 (vars_after _ _ _ AF VO) N1 SC1 LT1 DG2 Y (SB tys eq_refl)) as (u & C2 & BB & N2). rewrite BB. cbn [bind].
    destruct (sound_all H sg body C1' (rev ts :: fs) _ y u C2 R1 D1 SC1 LT1 DG2 Y BB) as (_ & _ & AF2 & _).
    assert (NE : fs <> []) by apply SC. destruct (pop_scopes _ _ _ (af_scopes _ _ _ AF2) NE) as (L' & -> & _). cbn. eauto.
Qed.
End Lin.
