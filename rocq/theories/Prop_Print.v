(** C38: the printed definitions give the recorded values. *)
From Coq Require Import List Arith ZArith QArith Bool Ascii String Lia.
From Verif Require Import Base Core_Model Trail_Model Spec_Trail Lincons_Model Lra_Model Terms_Model Internalizer_Model
  Rational_Model Spec_Rational Lexer_Model Spec_Decimal Uf_Model Spec_Uf Uf_Proofs Print_Model Spec_Print Print_Proofs
  Internalizer_Proofs Prop_Terms Prop_Internalizer Prop_Uf.
Import ListNotations.
Close Scope Q_scope.
Open Scope nat_scope.

(** ** C38 *)
(** Text printed for a non-empty table: it is a define-fun with the sorts of the table. With the parameters bound to any
    values of these sorts the body has exactly one value. For the arguments of a row it is the value of the row. *)
Theorem C38_function : forall name l sorts ret, plain name -> table_ok l sorts ret -> l <> [] ->
  exists s params body, visit_fnc (Some name) l = Ok s /\ text_of s (defun_sx name params ret body) /\
    map snd params = sorts /\ NoDup (map fst params) /\
    (forall args, List.length args = List.length sorts -> env_ok (combine (map fst params) args)) /\
    (forall args, List.length args = List.length sorts -> exists w, evals (combine (map fst params) args) body w /\ sort_of w = ret) /\
    (forall k v args w, In (k, v) l -> vals_eqb args (map pv k) = true ->
       evals (combine (map fst params) args) body w -> uval_eqb w (pv v) = true).
Proof. exact visit_fnc_ok. Qed.
Print Assumptions C38_function.
(** An expression has at most one value. *)
Theorem C38_value_unique : forall env e v w, env_ok env -> evals env e v -> evals env e w -> uval_eqb v w = true.
Proof. intros env e v w O A B. exact (evals_det env O e v A w B). Qed.
Print Assumptions C38_value_unique.
(** Constants: the printed expression has the value of the constant. *)
Theorem C38_constant : forall name v, plain name -> fine_val v -> exists s e, visit (Some name) v = Ok s /\
  text_of s (defun_sx name [] (sort_of (pv v)) e) /\ (exists w, evals [] e w) /\ forall w, evals [] e w -> uval_eqb w (pv v) = true.
Proof. exact visit_ok. Qed.
Print Assumptions C38_constant.

(** ** The rows of the tables of the plugin have different keys. *)
Lemma find_none m k : fm_find m k = None -> Forall (fun e : list uval * fapp => vals_eqb (fst e) k = false) m.
Proof. induction m as [|[a x] m IH]; cbn; [constructor|]. destruct (vals_eqb a k) eqn:E; [discriminate|]. intros H. constructor; [exact E|auto]. Qed.
Definition distinct (F : list (term * fmap)) : Prop := forall f m, In (f, m) F -> pairwise (fun a b => vals_eqb (fst a) (fst b) = false) m.
Lemma fop_snoc {A} (R : A -> A -> Prop) l x : ForallOrdPairs R l -> Forall (fun y => R y x) l -> ForallOrdPairs R (l ++ [x]).
Proof.
  induction 1 as [|a l H1 H2 IH]; intros F; [repeat constructor|]. inversion F; subst. constructor; [|auto]. apply Forall_app. auto.
Qed.
Lemma fop_filter {A} (R : A -> A -> Prop) p l : ForallOrdPairs R l -> ForallOrdPairs R (filter p l).
Proof.
  induction 1 as [|a l H1 H2 IH]; [constructor|]. cbn. destruct (p a); [|exact IH]. constructor; [|exact IH].
  rewrite Forall_forall in *. intros x I. apply filter_In in I. now apply H1.
Qed.
Section Keys.
Variables (hi : nat -> Z) (hv : Q -> Z) (opt : lopt) (T : table) (bv : list (term * lit)) (rv : list (term * nat)).
Lemma afv_keys F a tr t F' a' tr' cs : add_function_value hi hv opt T bv rv F a tr t = Ok (F', a', tr', cs) -> distinct F -> distinct F'.
Proof.
  unfold add_function_value. intros E Di. ba E K. bi E [vals k] Ea. bi E x Ex. bi E f Ef. destruct (fm_find (fns_get F f) vals) as [e|] eqn:Fi.
  - destruct (uval_eqb _ _); [inversion E; subst; exact Di|]. bi E [[a1 tr1] c1] E1. bi E [[a2 tr2] c2] E2. inversion E; subst. exact Di.
  - inversion E; subst. intros g n I. apply put_in in I. destruct I as [I|[-> ->]]; [eapply Di; eauto|]. apply fop_snoc; [|now apply find_none].
    unfold fns_get. destruct (m_find F f) as [m|] eqn:M; [|constructor]. apply m_find_in in M. eapply Di; eauto.
Qed.
Lemma pass_keys v : forall wl F a tr wl' F' a' tr' cs, watch_pass hi hv opt T bv rv v wl F a tr = Ok (wl', F', a', tr', cs) -> distinct F -> distinct F'.
Proof.
  induction wl as [|[t w] wl IH]; intros F a tr wl' F' a' tr' cs E Di; cbn [watch_pass] in E; [inversion E; subst; exact Di|].
  bi E w0 E0. destruct (var_eqb v w0).
  - bi E w1 E1. bi E al E2. bi E [[[F1 a1] tr1] c1] E3. bi E [[[[ws2 F2] a2] tr2] c2] E4. inversion E; subst. eapply IH; [exact E4|].
    destruct al; [eapply afv_keys; eauto|inversion E3; subst; exact Di].
  - bi E [[[[ws2 F2] a2] tr2] c2] E4. inversion E; subst. eapply IH; eauto.
Qed.
Lemma loop_keys : forall vs u a tr u' a' tr' cs, assigned_loop hi hv opt T bv rv vs u a tr = Ok (u', a', tr', cs) -> distinct (u_fns u) -> distinct (u_fns u').
Proof.
  induction vs as [|e vs IH]; intros u a tr u' a' tr' cs E Di; cbn [assigned_loop] in E; [inversion E; subst; exact Di|].
  bi E [[[[ws F] a1] tr1] c1] E1. bi E [[[u2 a2] tr2] c2] E2. inversion E; subst. eapply IH; [exact E2|]. cbn [u_fns]. eapply pass_keys; eauto.
Qed.
Lemma bb_keys u k : distinct (u_fns u) -> distinct (u_fns (uf_before_backtrack u k)).
Proof.
  intros Di f m I. cbn [uf_before_backtrack u_fns] in I. apply in_map_iff in I. destruct I as ([g n] & E & I). injection E as <- <-. apply fop_filter. eapply Di; eauto.
Qed.
End Keys.
Theorem C38_keys : forall hi hv opt T bv rv r u tr f rows, uf_history hi hv opt T bv rv r u tr -> In (f, rows) (uf_model u) ->
  pairwise (fun a b => vals_eqb (fst a) (fst b) = false) rows.
Proof.
  intros hi hv opt T bv rv r u tr f rows Hh I.
  assert (Di : distinct (u_fns u)).
  { clear I. induction Hh as [nb nq|r u tr v t u' Hh IH E|r u tr o tr' Hh IH M E|r u tr a u' a' tr' cs Hh IH E].
    - intros g m [].
    - unfold uf_register in E. ba E K. inversion E; subst. exact IH.
    - destruct o; cbn [told]; auto; now apply bb_keys.
    - unfold uf_propagate in E. eapply loop_keys; eauto. }
  unfold uf_model in I. apply in_map_iff in I. destruct I as ([g m] & E & I). injection E as <- <-. specialize (Di g m I). clear I. cbn [snd].
  induction Di as [|a m H1 H2 IH]; [constructor|]. cbn [map]. constructor; [|exact IH]. rewrite Forall_forall in *. intros x Ix. apply in_map_iff in Ix.
  destruct Ix as (b & <- & Ib). cbn [fst]. now apply H1.
Qed.
Print Assumptions C38_keys.

(** ** Examples *)
Definition half_neg : lf := mkLf true false false (-1) 2 (0, 1)%Z.
Definition big : lf := mkLf false true true 0 1 (-4294967296, 3)%Z.
Definition rows38 : list (list pval * pval) := [([VB true; VF (lf_word 3)], VF half_neg); ([VB false; VF half_neg], VF big); ([VB true; VF big], VF (lf_word (-7)))].
Lemma canon_word z : (-2147483648 <= z < 2147483648)%Z -> canonical (lf_word z).
Proof. intros H. split; cbn; auto; try discriminate. - split; cbn; [lia|apply Z.gcd_1_r]. - unfold fits. split; intros _; [cbn; lia|reflexivity]. Qed.
Lemma canon_half : canonical half_neg.
Proof. split; cbn; auto; try discriminate. - split; [cbn; lia|reflexivity]. - unfold fits. split; intros _; [cbn; lia|reflexivity]. Qed.
Lemma canon_big : canonical big.
Proof. split; cbn; auto; try discriminate. - split; [cbn; lia|reflexivity]. - unfold fits. split; [discriminate|]. cbn. lia. Qed.
Example C38_nonvacuous : plain (t_of "f") /\ table_ok rows38 [t_of "Bool"; t_of "Real"] (t_of "Real") /\ rows38 <> [] /\
  match visit_fnc (Some (t_of "f")) rows38 with
  | Ok s => string_of_list_ascii s = ("(define-fun f ((x0 Bool) (x1 Real)) Real
  (ite (and (= x0 false) (= x1 (/ (- 1) 2))) (/ (- 4294967296) 3)
  (ite (and (= x0 true) (= x1 (/ (- 4294967296) 3))) (- 7)
       (/ (- 1) 2) )))
")%string
  | _ => False
  end.
Proof.
  split; [apply plain_b; reflexivity|]. split; [|split; [discriminate|vm_compute; reflexivity]].
  assert (C3 := canon_word 3 ltac:(lia)). assert (C7 := canon_word (-7) ltac:(lia)). split.
  - intros k v I. repeat (destruct I as [I|I]; [injection I as <- <-; split; [apply Forall_cons; [exact Logic.I || auto using canon_half, canon_big|apply Forall_cons; [cbn; auto using canon_half, canon_big|constructor]]|cbn; auto using canon_half, canon_big]|]). destruct I.
  - intros k v I. repeat (destruct I as [I|I]; [injection I as <- <-; split; reflexivity|]). destruct I.
  - discriminate.
  - repeat constructor.
Qed.
Example C38_constant_nonvacuous : plain (t_of "x") /\ fine_val (VF big) /\
  match visit (Some (t_of "x")) (VF big) with Ok s => string_of_list_ascii s = ("(define-fun x () Real (/ (- 4294967296) 3))
")%string | _ => False end.
Proof. split; [apply plain_b; reflexivity|]. split; [exact canon_big|vm_compute; reflexivity]. Qed.

(** A name that needs quotes is printed without them: the text is not a definition of that name. *)
Theorem C38_quoted_refuted : exists name l sorts ret s, table_ok l sorts ret /\ l <> [] /\
  lex (t_of "|" ++ name ++ t_of "|") = Some [QSym (t_of "|" ++ name ++ t_of "|")] /\ visit_fnc (Some name) l = Ok s /\
  forall n params r body, n = Sym name \/ n = QSym (t_of "|" ++ name ++ t_of "|") ->
    ~ text_of s (Li [At (Word (t_of "define-fun")); At n; Li params; At (Sym r); body]).
Proof.
  exists (t_of "a b"), [([VB true], VB true)], [t_of "Bool"], (t_of "Bool"), (t_of "(define-fun a b ((x0 Bool)) Bool
       true )
"). split; [split|].
  - intros k v [I|[]]. injection I as <- <-. repeat constructor.
  - intros k v [I|[]]. injection I as <- <-. split; reflexivity.
  - discriminate.
  - repeat constructor.
  - split; [discriminate|]. split; [reflexivity|]. split; [reflexivity|]. intros n params r body H E. unfold text_of in E.
    cbn [sx_toks flat_map app] in E. vm_compute in E. destruct H as [->| ->]; discriminate E.
Qed.
Print Assumptions C38_quoted_refuted.
(** A table can be empty (after a backtrack); printing it dereferences the end of the map. *)
Theorem C38_empty_refuted : exists hi hv opt T bv rv u tr f, uf_history hi hv opt T bv rv false u tr /\ In (f, []) (uf_model u) /\
  forall name, visit_fnc (Some name) [] = UB.
Proof.
  exists Hi, Hv, opt_default, uf_T, uf_bv, uf_rv, (e_u uf_T uf_bv uf_rv (ex37 ++ [ETrail (TBacktrack 0)])), (e_t uf_T uf_bv uf_rv (ex37 ++ [ETrail (TBacktrack 0)])), (mkT 3 false).
  split; [apply (est_hist uf_T uf_bv uf_rv (ex37 ++ [ETrail (TBacktrack 0)])); vm_compute; reflexivity|]. split; [vm_compute; auto|reflexivity].
Qed.
Print Assumptions C38_empty_refuted.
