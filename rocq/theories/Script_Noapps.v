(** Without the logic QF_UFLRA, no application of a function symbol is made. *)
From Coq Require Import Ascii String List Arith ZArith QArith Qcanon Bool Lia.
From Verif Require Import Base Terms_Model TermMgr_Model Rewriter_Model Decimal_Model Lexer_Model Parser_Model Script_Model.
Import ListNotations.
Close Scope Qc_scope.
Close Scope Q_scope.
Open Scope nat_scope.

Definition NA (T : table) : Prop := Forall (fun n => n_kind n <> KApp) (tt_nodes T).
Definition post {A} (m : res (table * A)) : Prop := match m with Ok p => NA (fst p) | _ => True end.

Section NoApps.
Variable H : hashes.

Lemma na_get T r : NA T -> (forall ty a, r <> RComp KApp ty a) -> NA (fst (get_term H T r)).
Proof.
  unfold get_term. intros N R. destruct (find _ _); cbn [fst]; [exact N|]. unfold NA. cbn [tt_nodes]. apply Forall_app. split; [exact N|].
  constructor; [|constructor]. destruct r as [k ty a|q|ty i]; cbn; try discriminate. intros E. subst k. exact (R ty a eq_refl).
Qed.
Lemma na_const T q : NA T -> NA (fst (arith_const H T q)).
Proof. intros N. apply na_get; [exact N|discriminate]. Qed.
Lemma na_or T a : NA T -> NA (fst (or_term H T a)).
Proof. intros N. apply na_get; [exact N|discriminate]. Qed.
Lemma na_comp T k ty a : NA T -> k <> KApp -> NA (fst (get_term H T (RComp k ty a))).
Proof. intros N K. apply na_get; [exact N|]. intros ty0 a0 E. injection E as -> _ _. exact (K eq_refl). Qed.
Lemma na_new : NA (table_new H).
Proof.
  unfold table_new. assert (N : NA (mkTab [reserved_node] [])) by (constructor; [discriminate|constructor]).
  pose proof (na_get _ (RConst TBool 0) N ltac:(discriminate)) as N1. destruct (get_term H _ _) as [T1 t1]. apply na_get; [exact N1|discriminate].
Qed.
Lemma na_uninterp T ty : NA T -> NA (fst (new_uninterpreted T ty)).
Proof. intros N. unfold NA. cbn [fst new_uninterpreted tt_nodes]. apply Forall_app. split; [exact N|constructor; [discriminate|constructor]]. Qed.

Lemma na_kind T t : NA T -> kind_of T t <> KApp.
Proof.
  intros N. unfold kind_of, node_of. destruct (nth_in_or_default (tix t) (tt_nodes T) reserved_node) as [I | E]; [|rewrite E; discriminate].
  unfold NA in N. rewrite Forall_forall in N. exact (N _ I).
Qed.
Lemma post_ok {A} T (x : A) : NA T -> post (Ok (T, x)).
Proof. intros N. exact N. Qed.
Lemma post_pair p : NA (fst p) -> @post term (Ok p).
Proof. intros N. exact N. Qed.
End NoApps.

Create HintDb na.
#[global] Hint Resolve na_const na_or na_uninterp post_ok post_pair : na.
#[global] Hint Extern 1 (NA (fst (get_term _ _ (RComp _ _ _)))) => (apply na_comp; [auto with na|discriminate]) : na.
#[global] Hint Extern 0 (NA (fst (_, _))) => (cbn [fst]) : na.

Ltac na1 :=
  match goal with
  | |- post UB => exact I
  | |- post Fuel => exact I
  | |- post (bind ?m _) =>
      let P := fresh "P" in
      first [ assert (P : post m) by (auto with na); let E := fresh "E" in destruct m as [[? ?]| |] eqn:E; cbn [bind fst snd post] in P |- *;
              [|exact I|exact I]
            | destruct m as [?| |]; cbn [bind fst snd]; [|exact I|exact I] ]
  | |- post (let (_, _) := ?m in _) =>
      let P := fresh "P" in assert (P : NA (fst m)) by (auto with na); destruct m as [? ?]; cbn [fst snd] in P |- *
  | |- NA (fst (let (_, _) := ?m in _)) =>
      let P := fresh "P" in assert (P : NA (fst m)) by (auto with na); destruct m as [? ?]; cbn [fst snd] in P |- *
  | |- post (if ?b then _ else _) => destruct b
  | |- NA (fst (if ?b then _ else _)) => destruct b
  | |- post (match ?x with _ => _ end) => destruct x
  | |- _ => solve [auto with na]
  end.
Ltac na := intros; repeat na1.

Section Manager.
Variable H : hashes.
Lemma na_product T c x : NA T -> post (arith_product H T c x).
Proof. unfold arith_product. na. Qed.
Lemma na_poly T c : NA T -> post (arith_poly H T c).
Proof. unfold arith_poly. na. Qed.
Lemma na_gez T t : NA T -> post (arith_geq_zero H T t).
Proof. unfold arith_geq_zero. na. Qed.
Lemma na_eqz T t : NA T -> post (arith_eq_zero H T t).
Proof. unfold arith_eq_zero. na. Qed.
Lemma na_bineq T a b : NA T -> post (arith_bineq H T a b).
Proof. unfold arith_bineq. na. Qed.
Lemma na_aite T a b c : NA T -> post (arith_ite H T a b c).
Proof. unfold arith_ite. na. Qed.
#[local] Hint Resolve na_product na_poly na_gez na_eqz na_bineq na_aite : na.
Lemma na_mono T m : NA T -> post (mono_to_term H T m).
Proof. unfold mono_to_term. na. Qed.
#[local] Hint Resolve na_mono : na.
Lemma na_monos p : forall T, NA T -> post (monos_to_terms H T p).
Proof.
  induction p as [|m p IH]; intros T N; cbn [monos_to_terms]; [exact N|].
  pose proof (na_mono T m N) as P. destruct (mono_to_term H T m) as [[T1 t]| |]; cbn [bind fst snd post] in *; try exact I.
  specialize (IH T1 P). destruct (monos_to_terms H T1 p) as [[T2 ts]| |]; cbn [bind fst snd post] in *; try exact I. exact IH.
Qed.
#[local] Hint Resolve na_monos : na.
Lemma na_ptt T p : NA T -> post (poly_to_term H T p).
Proof. unfold poly_to_term. na. Qed.
#[local] Hint Resolve na_ptt : na.
Lemma na_mk_or T a : NA T -> post (mk_or H T a).
Proof. unfold mk_or. na. Qed.
#[local] Hint Resolve na_mk_or : na.
Lemma na_mk_and T a : NA T -> post (mk_and H T a).
Proof. unfold mk_and. na. Qed.
Lemma na_bor T x y : NA T -> NA (fst (mk_binary_or H T x y)).
Proof. unfold mk_binary_or. na. Qed.
#[local] Hint Resolve na_mk_and na_bor : na.
Lemma na_band T x y : NA T -> NA (fst (mk_binary_and H T x y)).
Proof. unfold mk_binary_and. na. Qed.
Lemma na_imp T x y : NA T -> NA (fst (mk_implies H T x y)).
Proof. unfold mk_implies. na. Qed.
#[local] Hint Resolve na_band na_imp : na.
Lemma na_iff T x y : NA T -> NA (fst (mk_iff H T x y)).
Proof. unfold mk_iff. na. Qed.
Lemma na_xor T x y : NA T -> NA (fst (mk_xor H T x y)).
Proof. unfold mk_xor. na. Qed.
#[local] Hint Resolve na_iff na_xor : na.
Lemma na_dbineq T x y : NA T -> post (direct_bineq H T x y).
Proof. unfold direct_bineq. na. Qed.
#[local] Hint Resolve na_dbineq : na.
Lemma na_aeq T x y : NA T -> post (mk_arith_eq H T x y).
Proof. unfold mk_arith_eq. na. Qed.
Lemma na_minus T x y : NA T -> post (mk_minus H T x y).
Proof. unfold mk_minus. na. Qed.
Lemma na_uminus T x : NA T -> post (mk_uminus H T x).
Proof. unfold mk_uminus. na. Qed.
#[local] Hint Resolve na_aeq na_minus na_uminus : na.
Lemma na_geq T x y : NA T -> post (mk_geq H T x y).
Proof. unfold mk_geq. na. Qed.
#[local] Hint Resolve na_geq : na.
Lemma na_lt T x y : NA T -> post (mk_lt H T x y).
Proof. unfold mk_lt. na. Qed.
#[local] Hint Resolve na_lt : na.
Lemma na_plus T a : NA T -> post (mk_plus H T a).
Proof. unfold mk_plus. na. Qed.
Lemma na_times T a : NA T -> post (mk_times H T a).
Proof. unfold mk_times. na. Qed.
#[local] Hint Resolve na_plus na_times : na.
Lemma na_div T x y : NA T -> post (mk_divides H T x y).
Proof. unfold mk_divides. na. Qed.
Lemma na_bite T c x y : NA T -> NA (fst (mk_bool_ite H T c x y)).
Proof. unfold mk_bool_ite. intros. destruct (tneg c); na. Qed.
Lemma na_rite T c x y : NA T -> post (mk_arith_ite H T c x y).
Proof. unfold mk_arith_ite. na. Qed.
#[local] Hint Resolve na_div na_bite na_rite : na.
Lemma na_ite T c x y : NA T -> post (mk_ite H T c x y).
Proof. unfold mk_ite. na. Qed.
Lemma na_beq T x y : NA T -> post (mk_binary_eq H T x y).
Proof. unfold mk_binary_eq. na. Qed.
#[local] Hint Resolve na_ite na_beq : na.
Lemma na_eq T a : NA T -> post (mk_eq H T a).
Proof. unfold mk_eq. na. Qed.
#[local] Hint Resolve na_eq : na.
Lemma na_neqs_with a l : forall T, NA T -> post (neqs_with H T a l).
Proof.
  induction l as [|b l IH]; intros T N; cbn [neqs_with]; [exact N|].
  pose proof (na_eq T [a; b] N) as P. destruct (mk_eq H T [a; b]) as [[T1 t]| |]; cbn [bind fst snd post] in *; try exact I.
  specialize (IH T1 P). destruct (neqs_with H T1 a l) as [[T2 ts]| |]; cbn [bind fst snd post] in *; try exact I. exact IH.
Qed.
#[local] Hint Resolve na_neqs_with : na.
Lemma na_neqs l : forall T, NA T -> post (neqs H T l).
Proof.
  induction l as [|a l IH]; intros T N; cbn [neqs]; [exact N|].
  pose proof (na_neqs_with a l T N) as P. destruct (neqs_with H T a l) as [[T1 t]| |]; cbn [bind fst snd post] in *; try exact I.
  specialize (IH T1 P). destruct (neqs H T1 l) as [[T2 ts]| |]; cbn [bind fst snd post] in *; try exact I. exact IH.
Qed.
#[local] Hint Resolve na_neqs : na.
Lemma na_distinct T a : NA T -> post (mk_distinct H T a).
Proof. unfold mk_distinct. na. Qed.
#[local] Hint Resolve na_distinct : na.
Lemma na_term T o a : NA T -> post (mk_term H T o a).
Proof. unfold mk_term, mk_leq, mk_gt. na. Qed.
#[local] Hint Resolve na_term : na.
Lemma na_mk_kind T k a : NA T -> k <> KApp -> post (mk_kind H T k a).
Proof. unfold mk_kind. intros N K. destruct k; try (contradiction K; reflexivity); na. Qed.
Lemma na_loop cfg : forall fuel w p s T, NA T -> post (rewrite_loop H cfg fuel w p s T).
Proof.
  induction fuel as [|f IH]; intros w p s T N; destruct w as [|[t k] w]; cbn [rewrite_loop]; try exact I; try exact N.
  destruct (assertb _) as [u| |]; cbn [bind]; try exact I. destruct (nth_error _ _) as [c|].
  - destruct (t_mem p c); apply IH; exact N.
  - destruct (assertb _) as [u1| |]; cbn [bind]; try exact I. destruct (new_args T s _) as [[na ch]| |]; cbn [bind fst snd]; try exact I.
    assert (P : post (if ch then mk_kind H T (kind_of T t) na else Ok (T, t))).
    { destruct ch; [apply na_mk_kind; [exact N|exact (na_kind T t N)]|exact N]. }
    destruct (if ch then _ else _) as [[T1 nt]| |]; cbn [bind post fst] in *; try exact I.
    destruct (_ || _); [|apply IH; exact P]. destruct (assertb _); cbn [bind]; try exact I. apply IH. exact P.
Qed.
Lemma na_resolve fuel T fs b a : NA T -> post (resolve H fuel T fs b a).
Proof.
  intros N. unfold resolve. destruct (assertb _); cbn [bind]; try exact I. unfold rewrite.
  pose proof (na_loop (fun T0 t => subst_var T0 (fold_left (fun m p => s_insert m (fst p) (snd p)) (combine fs a) []) t) fuel [(b, 0)] [] [] T N) as P.
  destruct (rewrite_loop _ _ _ _ _ _ _) as [[T1 s]| |]; cbn [bind post fst] in *; try exact I. exact P.
Qed.

(** ** The parser *)
Definition NC (C : pctx) : Prop := c_decls C = [] /\ NA (c_tab C).
Lemma nc_resolve C n a t C' : NC C -> resolve_term H C n a = Ok (t, C') -> NC C'.
Proof.
  intros [D N] E. unfold resolve_term in E. destruct (tm_find (c_defs C) n) as [[[fs y] b]|].
  - pose proof (na_resolve (S (List.length (get_args (c_tab C) b))) (c_tab C) fs b a N) as P. destruct (resolve _ _ _ _ _ _) as [[T1 u]| |]; cbn in E; try discriminate.
    injection E as <- <-. split; [exact D|exact P].
  - rewrite D in E. cbn [tm_find] in E. destruct (value_of (tm_find op_names n)) as [o| |]; cbn [bind] in E; try discriminate.
    pose proof (na_term (c_tab C) o a N) as P. destruct (mk_term _ _ _ _) as [[T1 u]| |]; cbn in E; try discriminate.
    injection E as <- <-. split; [exact D|exact P].
Qed.
Lemma nc_lets C L : NC C -> NC (with_lets C L).
Proof. intros N. exact N. Qed.
Lemma nc_binding toks K bs C s : NC C -> next_binding toks K bs C = Ok s -> NC (s_ctx s).
Proof.
  unfold next_binding. intros N E. destruct (eat_choice toks) as [[[] l]| |]; cbn [bind] in E; try discriminate.
  - destruct (next l) as [[t l2]| |]; cbn [bind] in E; try discriminate. destruct (token_symbol t); cbn [bind] in E; try discriminate. injection E as <-. exact N.
  - destruct bs; [discriminate|]. injection E as <-. exact N.
Qed.
Lemma nc_return K : forall t toks bs C r, NC C -> return_term K t toks bs C = Ok r -> NC (s_ctx (snd r)).
Proof.
  induction K as [|[n a|n|] K IH]; intros t toks bs C r N E; cbn [return_term] in E.
  - injection E as <-. exact N.
  - injection E as <-. exact N.
  - destruct bs; [discriminate|]. destruct (eat is_rparen toks); cbn [bind] in E; try discriminate.
    destruct (next_binding _ _ _ _) as [s| |] eqn:B; cbn [bind] in E; try discriminate. injection E as <-. exact (nc_binding _ _ _ _ _ N B).
  - destruct (eat is_rparen toks); cbn [bind] in E; try discriminate. destruct (pop_frame _); cbn [bind] in E; try discriminate.
    exact (IH _ _ _ _ _ (nc_lets C _ N) E).
Qed.
Lemma nc_loop : forall fuel s t r C, NC (s_ctx s) -> parse_loop H fuel s = Ok (t, r, C) -> NC C.
Proof.
  induction fuel as [|f IH]; intros s t r C N E; cbn [parse_loop] in E; [discriminate|].
  assert (D : forall r1, NC (s_ctx (snd r1)) ->
    match s_stack (snd r1) with [] => (t0 <- value_of (fst r1) ;; Ok (t0, s_toks (snd r1), s_ctx (snd r1))) | _ => parse_loop H f (snd r1) end = Ok (t, r, C) -> NC C).
  { intros r1 N1 E1. destruct (s_stack (snd r1)); [|exact (IH _ _ _ _ N1 E1)].
    destruct (value_of (fst r1)); cbn [bind] in E1; try discriminate. injection E1 as _ _ <-. exact N1. }
  assert (G : forall u toks K C1, NC C1 ->
    (r1 <- return_term K u toks (s_binds s) C1 ;;
     match s_stack (snd r1) with [] => (t0 <- value_of (fst r1) ;; Ok (t0, s_toks (snd r1), s_ctx (snd r1))) | _ => parse_loop H f (snd r1) end) = Ok (t, r, C) -> NC C).
  { intros u toks K C1 N1 E1. destruct (return_term K u toks (s_binds s) C1) as [r1| |] eqn:R1; cbn [bind] in E1; try discriminate.
    exact (D r1 (nc_return _ _ _ _ _ _ N1 R1) E1). }
  destruct (next (s_toks s)) as [[tk toks]| |]; cbn [bind] in E; try discriminate.
  destruct tk; try discriminate.
  - destruct (next toks) as [[t1 toks1]| |]; cbn [bind] in E; try discriminate.
    destruct t1; try discriminate.
    all: try (destruct (token_symbol _); cbn [bind] in E; try discriminate; exact (IH (mkPst _ _ _ _) _ _ _ N E)).
    destruct (text_eqb _ _); [|discriminate]. destruct (eat is_lparen toks1); cbn [bind] in E; try discriminate.
    destruct (next_binding _ _ _ _) as [s1| |] eqn:B; cbn [bind] in E; try discriminate. exact (IH _ _ _ _ (nc_binding _ _ _ _ _ N B) E).
  - destruct (s_stack s) as [|[n a|n|] K]; try discriminate. destruct (resolve_term H (s_ctx s) n a) as [[u C1]| |] eqn:R; cbn [bind] in E; try discriminate.
    exact (G _ _ _ _ (nc_resolve _ _ _ _ _ N R) E).
  - destruct (token_symbol _); cbn [bind] in E; try discriminate. destruct (term_for_symbol _ _); cbn [bind] in E; try discriminate. exact (G _ _ _ _ N E).
  - destruct (token_symbol _); cbn [bind] in E; try discriminate. destruct (term_for_symbol _ _); cbn [bind] in E; try discriminate. exact (G _ _ _ _ N E).
  - destruct (mk_numeral _ _ _) as [[T u]| |] eqn:M; cbn [bind] in E; try discriminate. eapply G; [|exact E].
    unfold mk_numeral in M. destruct (integer_constant _) as [v| |]; cbn [bind] in M; try discriminate. injection M as M.
    split; [exact (proj1 N)|]. cbn. pose proof (na_const H (c_tab (s_ctx s)) (Q2Qc (Spec_Rational.value v)) (proj2 N)) as P. rewrite M in P. exact P.
  - destruct (mk_decimal _ _ _) as [[T u]| |] eqn:M; cbn [bind] in E; try discriminate. eapply G; [|exact E].
    unfold mk_decimal in M. destruct (rational_constant _) as [v| |]; cbn [bind] in M; try discriminate. injection M as M.
    split; [exact (proj1 N)|]. cbn. pose proof (na_const H (c_tab (s_ctx s)) (Q2Qc (Spec_Rational.value v)) (proj2 N)) as P. rewrite M in P. exact P.
Qed.
End Manager.

(** ** Commands *)
From Verif Require Import Spec_Terms TermMgr_Base Spec_Parser Parser_Proofs Spec_Script Script_Proofs Spec_Internalizer.
Section Commands.
Variable H : hashes.
Lemma nc_build C e t C' : NC C -> build H C e = Ok (t, C') -> NC C'.
Proof.
  intros N B. pose proof (parse_build H C e []) as P. rewrite B in P. cbn [bind] in P. exact (nc_loop H _ (mkPst (etoks e ++ []) [] [] C) _ _ _ N P).
Qed.
Lemma nc_set_name C n t C' : NC C -> set_name C n t = Ok C' -> NC C'.
Proof. unfold set_name. intros N E. destruct (assertb _); cbn [bind] in E; try discriminate. injection E as <-. exact N. Qed.
Lemma nc_declare C y n C' : NC C -> declare_const C y n = Ok C' -> NC C'.
Proof.
  unfold declare_const. intros N E. pose proof (na_uninterp (c_tab C) y (proj2 N)) as P. destruct (new_uninterpreted (c_tab C) y) as [T t].
  eapply nc_set_name; [|exact E]. split; [exact (proj1 N)|exact P].
Qed.
Lemma nc_vars vs : forall C ts C', NC C -> bind_vars C vs = (ts, C') -> NC C'.
Proof.
  induction vs as [|[n y] vs IH]; intros C ts C' N E; cbn [bind_vars] in E; [injection E as _ <-; exact N|].
  pose proof (na_uninterp (c_tab C) y (proj2 N)) as P. destruct (new_uninterpreted (c_tab C) y) as [T t].
  destruct (bind_vars _ vs) as [us C1] eqn:B. injection E as _ <-. eapply IH; [|exact B]. split; [exact (proj1 N)|exact P].
Qed.
Definition NK (k : kst) : Prop := NC (k_ctx k) /\ k_uf k = false /\ Forall (fun c => NA (snd c)) (k_checks k).
Lemma nk_effect k c k' : NK k -> c <> KLogic true -> effect H k c = Ok k' -> NK k'.
Proof.
  intros (N & U & F) L E. destruct c as [e| |n y|n ys y|n ps y e|b|kw v|kw v| |]; cbn [effect] in E.
  - destruct (build H (k_ctx k) e) as [[u C]| |] eqn:B; cbn [bind] in E; try discriminate. injection E as <-. split; [exact (nc_build _ _ _ _ N B)|split; assumption].
  - injection E as <-. split; [exact N|split; [exact U|]]. constructor; [exact (proj2 N)|exact F].
  - destruct (declare_const _ _ _) as [C| |] eqn:D; cbn [bind] in E; try discriminate. injection E as <-. split; [exact (nc_declare _ _ _ _ N D)|split; assumption].
  - destruct ys.
    + destruct (declare_const _ _ _) as [C| |] eqn:D; cbn [bind] in E; try discriminate. injection E as <-. split; [exact (nc_declare _ _ _ _ N D)|split; assumption].
    + rewrite U in E. injection E as <-. split; [|split]; assumption.
  - destruct (bind_vars _ _) as [fs C1] eqn:V. destruct (build H C1 e) as [[u C2]| |] eqn:B; cbn [bind] in E; try discriminate.
    destruct (pop_frame _) as [L1| |]; cbn [bind] in E; try discriminate. unfold store_def in E. destruct (assertb _); cbn [bind] in E; try discriminate. injection E as <-.
    split; [|split; assumption]. pose proof (nc_build _ _ _ _ (nc_vars _ _ _ _ (nc_lets _ _ N) V) B) as N2. exact N2.
  - destruct b; [contradiction L; reflexivity|]. injection E as <-. split; [exact N|split; [reflexivity|exact F]].
  - injection E as <-. split; [|split]; assumption.
  - injection E as <-. split; [|split]; assumption.
  - injection E as <-. split; [|split]; assumption.
  - injection E as <-. split; [|split]; assumption.
Qed.
Lemma nk_effects cs : forall k k', NK k -> ~ In (KLogic true) cs -> effects H k cs = Ok k' -> NK k'.
Proof.
  induction cs as [|c cs IH]; intros k k' N L E; [injection E as <-; exact N|].
  assert (D : c = KExit \/ c <> KExit) by (destruct c; auto; right; discriminate). destruct D as [->|D]; [injection E as <-; exact N|].
  assert (E2 : effects H k (c :: cs) = (k1 <- effect H k c ;; effects H k1 cs)) by (destruct c; try reflexivity; congruence). rewrite E2 in E.
  destruct (effect H k c) as [k1| |] eqn:E1; cbn [bind] in E; try discriminate. eapply IH; [|intros X; apply L; right; exact X|exact E].
  eapply nk_effect; [exact N| |exact E1]. intros X. apply L. left. exact X.
Qed.
Lemma nk_new : NK (k_new H).
Proof. split; [split; [reflexivity|exact (na_new H)]|split; [reflexivity|constructor]]. Qed.
Lemma script_noapps cs k a T : ~ In (KLogic true) cs -> effects H (k_new H) cs = Ok k -> In (a, T) (k_checks k) -> no_apps T a.
Proof.
  intros L E I. destruct (nk_effects cs _ _ nk_new L E) as (_ & _ & F). rewrite Forall_forall in F. intros s root _ _. exact (na_kind T s (F _ I)).
Qed.
End Commands.
