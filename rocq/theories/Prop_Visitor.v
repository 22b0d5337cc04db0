(** C45: expansion of defined functions. C46: order in which the terms are visited. *)
From Coq Require Import List Arith ZArith QArith Qcanon NArith Bool Lia.
From Verif Require Import Base Terms_Model Spec_Terms Terms_Proofs TermMgr_Model Spec_TermMgr TermMgr_Base TermMgr_Term
  Visitor_Model Spec_Visitor Visitor_Proofs Rewriter_Model Spec_Rewriter Rewriter_Proofs Prop_Terms.
Import ListNotations.
Close Scope Qc_scope.
Close Scope Q_scope.
Open Scope nat_scope.

(** ** C46 *)
(** Any number of visit calls on one visitor, between which the table of terms may grow. No call fails and
    none runs out of steps; over all calls the visited elements of the table are exactly those of the
    subterms of the roots, each visited once, and each after its arguments. *)
Theorem C46 : forall H calls T, session H (table_new H) calls T ->
  exists p order, visit_calls (fun _ => record) [] [] calls = Ok (p, order) /\
    NoDup (map tix order) /\ args_first T order /\
    (forall t, In t order -> exists root, In root (concat (map snd calls)) /\ subterm T t root) /\
    (forall s root, In root (concat (map snd calls)) -> subterm T s root -> In (tix s) (map tix order)).
Proof.
  intros H calls T S. destruct (visit_main H calls T S) as (p & o & E & ND & F & Fo & Q).
  exists p, o. split; auto. split; auto. split; auto. split.
  - intros t It. rewrite Forall_forall in Fo. exact (Fo t It).
  - intros s root Ir Ss. apply Q. exists root. auto.
Qed.
Print Assumptions C46.

(** Any configuration is called on these terms in this order, and stops at its first failure. *)
Theorem C46_any : forall H calls T C (V : C -> term -> res C) c, session H (table_new H) calls T ->
  exists p order, visit_calls (fun _ => record) [] [] calls = Ok (p, order) /\
    visit_calls (fun _ => V) [] c calls = (c' <- run V c order ;; Ok (p, c')).
Proof. exact visit_any. Qed.
Print Assumptions C46_any.

(** The single-root overload visit(term_t) fails its assertion on a root that was visited before. *)
Theorem C46_root_refuted : exists T t p o,
  visit_root record T [] [] t = Ok (p, o) /\ visit_root record T p o t = UB.
Proof.
  exists (table_new H0), true_term. eexists _, _. split; vm_compute; reflexivity.
Qed.
Print Assumptions C46_root_refuted.

(** declare x, y; (or x y), then (or (not y) (not (or x y))): two calls, the second after growth *)
Definition v_T0 : table := fst (new_uninterpreted (fst (new_uninterpreted (table_new H0) TBool)) TBool).
Definition v_r1 := mk_term H0 v_T0 OOr [mkT 3 false; mkT 4 false].
Definition v_T1 : table := fst (out v_r1).
Definition v_r2 := mk_term H0 v_T1 OOr [mkT 4 true; mkT 5 true].
Definition v_T2 : table := fst (out v_r2).
Lemma v_reach0 : reach H0 v_T0.
Proof.
  unfold v_T0. eapply r_decl; [eapply r_decl; [apply r_new|left; reflexivity|apply surjective_pairing]|left; reflexivity|apply surjective_pairing].
Qed.
Lemma v_reach1 : reach H0 v_T1.
Proof.
  eapply r_op with (o := OOr) (args := [mkT 3 false; mkT 4 false]) (tys := [TBool; TBool]) (t := snd (out v_r1)); [exact v_reach0| |reflexivity|].
  - repeat constructor; vm_compute; lia.
  - exact (out_ok v_r1 eq_refl).
Qed.
Lemma v_reach2 : reach H0 v_T2.
Proof.
  eapply r_op with (o := OOr) (args := [mkT 4 true; mkT 5 true]) (tys := [TBool; TBool]) (t := snd (out v_r2)); [exact v_reach1| |reflexivity|].
  - repeat constructor; vm_compute; lia.
  - exact (out_ok v_r2 eq_refl).
Qed.
Lemma v_keeps1 : keeps (table_new H0) v_T1.
Proof. apply ext_keeps. exists (skipn 3 (tt_nodes v_T1)). vm_compute. reflexivity. Qed.
Lemma v_keeps2 : keeps v_T1 v_T2.
Proof. apply ext_keeps. exists (skipn 6 (tt_nodes v_T2)). vm_compute. reflexivity. Qed.
Example C46_nonvacuous :
  let calls := [(v_T1, [mkT 5 true; mkT 3 false]); (v_T2, [mkT 6 false; mkT 5 false])] in
  session H0 (table_new H0) calls v_T2 /\
  visit_calls (fun _ => record) [] [] calls =
    Ok ([6; 5; 4; 3], [mkT 3 false; mkT 4 false; mkT 5 true; mkT 6 false]).
Proof.
  cbv zeta. split; [|vm_compute; reflexivity].
  split; [exact v_keeps1|]. split; [exact v_reach1|]. split; [repeat constructor; vm_compute; lia|].
  split; [exact v_keeps2|]. split; [exact v_reach2|]. split; [repeat constructor; vm_compute; lia|]. reflexivity.
Qed.

(** ** C45 *)
(** The call returns the argument if the body is a formal parameter, and otherwise the body unchanged. *)
Theorem C45_result : forall H T formals body args fuel, reach H T -> macro T formals body args ->
  length (get_args T body) < fuel ->
  exists t, resolve H fuel T formals body args = Ok (T, t) /\
    (t = body /\ ~ In body formals \/ exists i, nth_error formals i = Some body /\ nth_error args i = Some t).
Proof.
  intros H T formals body args fuel R M L. rewrite (resolve_char _ _ _ _ _ _ M L). eexists. split; [reflexivity|].
  destruct M as (ND & V & NB & F & F2). pose proof (TermMgr_Arith.f2_length F2) as LE.
  destruct (s_find (combine formals args) body) as [a|] eqn:E.
  - right. apply find_in in E. clear - E. revert args E. induction formals as [|f l IH]; intros [|b args] E; simpl in E; try tauto.
    destruct E as [E|E]; [injection E as -> ->; exists 0; auto|]. destruct (IH _ E) as (i & A & B). exists (S i). auto.
  - left. split; auto. apply find_none in E. now rewrite fst_combine in E.
Qed.
Print Assumptions C45_result.

(** Missing part: bodies in which a formal parameter occurs properly (see C45_refuted). *)
Theorem C45_partial : forall H T formals body args fuel, reach H T -> macro T formals body args ->
  length (get_args T body) < fuel ->
  In body formals \/ (forall s f, subterm T s body -> In f formals -> tix s <> tix f) ->
  exists t, resolve H fuel T formals body args = Ok (T, t) /\ expands T formals body args T t.
Proof.
  intros H T formals body args fuel R M L [I|N]; apply reach_wf in R;
    [eapply resolve_formal; eauto | eapply resolve_closed; eauto].
Qed.
Print Assumptions C45_partial.

(** (define-fun f ((x Bool)) Bool (or x y)): the call (f true) returns (or x y), not true. *)
Theorem C45_refuted : exists H T formals body args fuel, reach H T /\ macro T formals body args /\
  length (get_args T body) < fuel /\
  exists t, resolve H fuel T formals body args = Ok (T, t) /\ ~ expands T formals body args T t.
Proof.
  exists H0, v_T1, [mkT 3 false], (mkT 5 false), [true_term], 10.
  split; [exact v_reach1|]. split.
  { split; [repeat constructor; simpl; tauto|]. split; [vm_compute; lia|]. split; [discriminate|].
    split; repeat constructor; vm_compute; lia. }
  split; [vm_compute; lia|].
  exists (mkT 5 false). split; [exact (resolve_char H0 v_T1 [mkT 3 false] (mkT 5 false) [true_term] 10
    ltac:(split; [repeat constructor; simpl; tauto|]; split; [vm_compute; lia|]; split; [discriminate|]; split; repeat constructor; vm_compute; lia) ltac:(vm_compute; lia))|].
  intros E. specialize (E (mkI (fun _ => false) (fun _ => 0%Qc) (fun _ _ => false) (fun _ _ => 0%Qc))).
  vm_compute in E. discriminate.
Qed.
Print Assumptions C45_refuted.

(** (define-fun id ((x Bool)) Bool x), called on (not y); (define-fun c ((x Bool)) Bool y) *)
Example C45_nonvacuous :
  macro v_T1 [mkT 3 false] (mkT 3 false) [mkT 4 true] /\
  resolve H0 5 v_T1 [mkT 3 false] (mkT 3 false) [mkT 4 true] = Ok (v_T1, mkT 4 true) /\
  macro v_T1 [mkT 3 false] (mkT 4 false) [mkT 4 true] /\
  (forall s f, subterm v_T1 s (mkT 4 false) -> In f [mkT 3 false] -> tix s <> tix f).
Proof.
  assert (M : forall b, b = mkT 3 false \/ b = mkT 4 false -> macro v_T1 [mkT 3 false] b [mkT 4 true]).
  { intros b B. split; [repeat constructor; simpl; tauto|]. 
    split; [destruct B; subst; vm_compute; lia|]. split; [destruct B; subst; discriminate|].
    split; repeat constructor; vm_compute; lia. }
  split; [apply M; auto|]. split; [exact (resolve_char H0 v_T1 _ _ _ 5 (M (mkT 3 false) (or_introl eq_refl)) ltac:(vm_compute; lia))|].
  split; [apply M; auto|].
  intros s f Ss [<-|[]]. inversion Ss; subst; simpl; [lia|]. vm_compute in H. destruct H.
Qed.
