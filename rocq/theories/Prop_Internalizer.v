(** C47: the clauses given to the solver are equisatisfiable with the assertions. C48: several checks. *)
From Coq Require Import List Arith ZArith QArith Qcanon NArith Bool Lia.
From Verif Require Import Base Core_Model Lincons_Model Spec_Lincons Terms_Model Spec_Terms Terms_Proofs TermMgr_Model Spec_TermMgr
  TermMgr_Base TermMgr_Term TermMgr_Main Visitor_Model Spec_Visitor Visitor_Proofs Internalizer_Model Spec_Internalizer Internalizer_Main Prop_Terms Prop_Visitor.
Import ListNotations.
Close Scope Qc_scope.
Close Scope Q_scope.
Open Scope nat_scope.

(** ** C47 *)
(** An assignment that satisfies the clauses and gives every constraint literal the truth value of its
    constraint satisfies the assertions, read at the user's constants and applications. *)
Theorem C47_sound : forall ndebug hi hv H T assertions p st, reach H T -> Forall (bool_t T) assertions ->
  translate ndebug hi hv T [] is_new assertions = Ok (Some (p, st)) ->
  forall I b r, solves st b r -> agrees T st I b r -> satisfies I T assertions.
Proof. intros ndebug hi hv H T a p st R B E. exact (sound_main ndebug hi hv H T (reach_wf H T R) a B p st E). Qed.
Print Assumptions C47_sound.

(** An interpretation that satisfies the assertions extends to an assignment that satisfies the clauses. *)
Theorem C47_complete : forall ndebug hi hv H T assertions p st, reach H T -> Forall (bool_t T) assertions ->
  translate ndebug hi hv T [] is_new assertions = Ok (Some (p, st)) ->
  forall I, satisfies I T assertions -> exists b r, solves st b r /\ agrees T st I b r.
Proof. intros ndebug hi hv H T a p st R B E. exact (complete_main ndebug hi hv H T (reach_wf H T R) a B p st E). Qed.
Print Assumptions C47_complete.

(** The clauses are satisfiable iff the assertions are. With uninterpreted functions the assignment must come
    from an interpretation (the task of the plugin for uninterpreted functions). *)
Theorem C47_equisat : forall ndebug hi hv H T assertions p st, reach H T -> Forall (bool_t T) assertions ->
  translate ndebug hi hv T [] is_new assertions = Ok (Some (p, st)) ->
  ((exists I, satisfies I T assertions) <-> (exists I b r, solves st b r /\ agrees T st I b r)) /\
  (no_apps T assertions -> ((exists I, satisfies I T assertions) <-> (exists b r, solves st b r))).
Proof.
  intros ndebug hi hv H T a p st R B E. split.
  - split.
    + intros (I & S). destruct (C47_complete ndebug hi hv H T a p st R B E I S) as (b & r & X). eauto.
    + intros (I & b & r & S & A). exists I. exact (C47_sound ndebug hi hv H T a p st R B E I b r S A).
  - intros NA. exact (equisat_main ndebug hi hv H T (reach_wf H T R) a B p st NA E).
Qed.
Print Assumptions C47_equisat.

(** Answered without the solver: only unsatisfiable assertions *)
Theorem C47_unsat_now : forall ndebug hi hv H T assertions, reach H T -> Forall (bool_t T) assertions ->
  translate ndebug hi hv T [] is_new assertions = Ok None -> forall I, ~ satisfies I T assertions.
Proof. intros ndebug hi hv H T a R B. exact (none_main ndebug hi hv H T (reach_wf H T R) a B). Qed.
Print Assumptions C47_unsat_now.

(** The translation does not fail on supported assertions; assertions without applications are supported,
    unless one is the constant false (then it does not fail either). *)
Theorem C47_total : forall ndebug hi hv H T assertions, reach H T -> Forall (bool_t T) assertions ->
  supported ndebug T assertions \/ no_apps T assertions ->
  exists x, translate ndebug hi hv T [] is_new assertions = Ok x.
Proof.
  intros ndebug hi hv H T a R B [S|NA]; [exact (total_main ndebug hi hv H T (reach_wf H T R) a B S)|].
  destruct (existsb (fun t => t_eqb t false_term) a) eqn:E.
  - exists None. unfold translate. now rewrite E.
  - apply (total_main ndebug hi hv H T (reach_wf H T R) a B). apply (no_apps_supported ndebug hi H T (reach_wf H T R) a B NA).
    intros X. rewrite <- not_true_iff_false in E. apply E. apply existsb_exists. exists false_term. auto.
Qed.
Print Assumptions C47_total.

(** *** Scripts for the examples *)
Inductive cmd := CDecl (ty : ty) | CNum (q : Qc) | CApp (f : term) (ret : ty) (args : list term) | COp (o : op) (args : list term) (tys : list ty).
Definition has_typeb (T : table) (t : term) (y : ty) : bool :=
  (1 <=? tix t) && (tix t <? length (tt_nodes T)) && ty_eqb (type_of T t) y &&
  match y with TBool => true | TReal => negb (tneg t) | TNull => false end.
Lemma has_typeb_ok T t y : has_typeb T t y = true -> has_type T t y.
Proof.
  unfold has_typeb. rewrite !andb_true_iff. intros [[[A B] C] D]. apply Nat.leb_le in A. apply Nat.ltb_lt in B.
  assert (E : type_of T t = y) by (destruct (type_of T t), y; simpl in *; congruence).
  destruct y; simpl in *; try discriminate; unfold bool_t, real_t, valid; auto.
  split; [lia|]. split; auto. now apply negb_true_iff.
Qed.
Fixpoint types_ok (T : table) (args : list term) (tys : list ty) : bool :=
  match args, tys with [], [] => true | a :: l, y :: m => has_typeb T a y && types_ok T l m | _, _ => false end.
Lemma types_ok_ok T : forall args tys, types_ok T args tys = true -> Forall2 (has_type T) args tys.
Proof.
  induction args as [|a l IH]; intros [|y m]; simpl; try discriminate; constructor.
  - apply andb_true_iff in H. now apply has_typeb_ok.
  - apply andb_true_iff in H. now apply IH.
Qed.
Definition exec (T : table) (c : cmd) : option table :=
  match c with
  | CDecl TNull => None
  | CDecl y => Some (fst (new_uninterpreted T y))
  | CNum q => Some (fst (arith_const H0 T q))
  | CApp f ret args =>
      if (has_typeb T f TReal || has_typeb T f TBool) && negb (tneg f) && k_eqb (kind_of T f) KUninterp && negb (ty_eqb ret TNull)
         && forallb (fun a => has_typeb T a TBool || has_typeb T a TReal) args
      then Some (fst (mk_app H0 T f ret args)) else None
  | COp o args tys =>
      if types_ok T args tys && match op_sig o tys with Some _ => true | None => false end && done (mk_term H0 T o args)
      then Some (fst (out (mk_term H0 T o args))) else None
  end.
Fixpoint script (T : table) (l : list cmd) : option table :=
  match l with [] => Some T | c :: l' => match exec T c with Some T1 => script T1 l' | None => None end end.
Lemma exec_reach T c T' : reach H0 T -> exec T c = Some T' -> reach H0 T'.
Proof.
  intros R. destruct c as [y|q|f ret args|o args tys]; simpl.
  - destruct y; try discriminate; intros [= <-].
    + eapply r_decl with (ty := TBool); eauto; apply surjective_pairing.
    + eapply r_decl with (ty := TReal); eauto; apply surjective_pairing.
  - intros [= <-]. eapply r_num; eauto. apply surjective_pairing.
  - destruct (_ && _) eqn:E; try discriminate. intros [= <-]. rewrite !andb_true_iff in E. destruct E as [[[[E1 E2] E3] E4] E5].
    eapply r_app with (f := f) (ret := ret) (args := args); eauto.
    + apply orb_true_iff in E1. destruct E1 as [E1|E1]; apply has_typeb_ok in E1; apply E1.
    + now apply negb_true_iff.
    + destruct (kind_of T f); vm_compute in E3; congruence.
    + destruct ret; simpl in *; auto; discriminate.
    + apply Forall_forall. intros a Ia. rewrite forallb_forall in E5. specialize (E5 a Ia). apply orb_true_iff in E5.
      destruct E5 as [E5|E5]; apply has_typeb_ok in E5; [left|right]; auto.
    + apply surjective_pairing.
  - destruct (_ && _) eqn:E; try discriminate. intros [= <-]. rewrite !andb_true_iff in E. destruct E as [[E1 E2] E3].
    destruct (op_sig o tys) as [y|] eqn:OS; try discriminate.
    eapply r_op with (o := o) (args := args) (tys := tys); eauto; [now apply types_ok_ok|now apply out_ok].
Qed.
Lemma script_reach : forall l T T', reach H0 T -> script T l = Some T' -> reach H0 T'.
Proof.
  induction l as [|c l IH]; simpl; intros T T' R E; [congruence|].
  destruct (exec T c) as [T1|] eqn:X; try discriminate. exact (IH T1 T' (exec_reach T c T1 R X) E).
Qed.
Definition tab (l : list cmd) : table := match script (table_new H0) l with Some T => T | None => mkTab [] [] end.
Definition sdone (l : list cmd) : bool := match script (table_new H0) l with Some _ => true | None => false end.
Lemma tab_reach l : sdone l = true -> reach H0 (tab l).
Proof.
  unfold sdone, tab. destruct (script (table_new H0) l) as [T|] eqn:E; try discriminate. intros _.
  exact (script_reach l (table_new H0) T (r_new H0) E).
Qed.
Definition Hi : nat -> Z := fun _ => 0%Z.
Definition Hv : Q -> Z := fun _ => 0%Z.

(** p 3, x 4, y 5, 1 6, (ite p x y) 7, (>= (ite p x y) 1) 10, (or (not p) (not 10)) 11, (= x y) 12 *)
Definition ex_cmds : list cmd :=
  [CDecl TBool; CDecl TReal; CDecl TReal; CNum 1%Qc; COp OIte [mkT 3 false; mkT 4 false; mkT 5 false] [TBool; TReal; TReal];
   COp OGe [mkT 7 false; mkT 6 false] [TReal; TReal]; COp OOr [mkT 3 true; mkT 10 true] [TBool; TBool];
   COp OEq [mkT 4 false; mkT 5 false] [TReal; TReal]].
Definition ex_T : table := tab ex_cmds.
Definition ex_as : list term := [mkT 11 false; mkT 12 true; mkT 10 false].
Definition ex_I : interp := mkI (fun _ => false) (fun i => if i =? 4 then 0%Qc else (1 + 1)%Qc) (fun _ _ => false) (fun _ _ => 0%Qc).
Definition bools (T : table) (l : list term) : bool := forallb (fun t => has_typeb T t TBool) l.
Lemma bools_ok T l : bools T l = true -> Forall (bool_t T) l.
Proof. unfold bools. rewrite forallb_forall, Forall_forall. intros F t It. exact (has_typeb_ok T t TBool (F t It)). Qed.
Lemma node_in T t : n_kind (node_of T t) <> KReserved -> In (node_of T t) (tt_nodes T).
Proof.
  unfold node_of. intros N. destruct (Nat.lt_ge_cases (tix t) (length (tt_nodes T))) as [L|L]; [now apply nth_In|].
  rewrite nth_overflow in N by lia. now contradiction N.
Qed.
Definition app_free (T : table) : bool := forallb (fun n => negb (k_eqb (n_kind n) KApp)) (tt_nodes T).
Lemma app_free_ok T l : app_free T = true -> no_apps T l.
Proof.
  unfold app_free. rewrite forallb_forall. intros F s root _ _ K. unfold kind_of in K.
  assert (X := F _ (node_in T s ltac:(rewrite K; discriminate))). rewrite K in X. discriminate X.
Qed.
(** enough for [supported] *)
Definition supp (ndebug : bool) (T : table) : bool :=
  forallb (fun n => match n_kind n with
    | KApp => ty_eqb (n_type n) TReal
    | KArithBineq => ndebug || forallb (fun a => negb (k_eqb (kind_of T a) KApp)) (dargs n)
    | _ => true end && forallb (fun a => negb (t_eqb a false_term)) (dargs n)) (tt_nodes T).
Lemma args_in T s a : In a (get_args T s) -> In a (dargs (node_of T s)) /\ In (node_of T s) (tt_nodes T).
Proof.
  intros Ia. assert (X : In a (dargs (node_of T s))).
  { unfold get_args in Ia. destruct (kind_of T s); auto; try contradiction. destruct (dargs (node_of T s)); simpl in *; auto. }
  split; auto. unfold node_of in *. destruct (Nat.lt_ge_cases (tix s) (length (tt_nodes T))) as [L|L]; [now apply nth_In|].
  rewrite nth_overflow in X by lia. destruct X.
Qed.
Lemma supp_ok nd T l : supp nd T = true -> supported nd T l.
Proof.
  unfold supp. rewrite forallb_forall. intros F s root _ _. split; [|split].
  - unfold kind_of, type_of. intros K Y. assert (G := F _ (node_in T s ltac:(rewrite K; discriminate))). rewrite K, Y in G. discriminate G.
  - intros -> K a Ia Ka. destruct (args_in T s a Ia) as [Ia1 Ia2]. assert (G := F _ Ia2). unfold kind_of in K. rewrite K in G.
    apply andb_true_iff in G. destruct G as [G _]. cbn [orb] in G. rewrite forallb_forall in G. specialize (G a Ia1). rewrite Ka in G. discriminate G.
  - intros a Ia ->. destruct (args_in T s _ Ia) as [Ia1 Ia2]. assert (G := F _ Ia2). apply andb_true_iff in G. destruct G as [_ G].
    rewrite forallb_forall in G. specialize (G _ Ia1). discriminate G.
Qed.
Definition made {A} (x : res (option A)) : bool := match x with Ok (Some _) => true | _ => false end.
Definition stuck {A} (x : res A) : bool := match x with UB => true | _ => false end.
Lemma stuck_ok {A} (x : res A) : stuck x = true -> x = UB.
Proof. destruct x; simpl; congruence. Qed.
Lemma made_ok {A B} (x : res (option (A * B))) : made x = true -> exists p st, x = Ok (Some (p, st)).
Proof. destruct x as [[[p st]|]| |]; simpl; try discriminate. eauto. Qed.

(** ITE over reals, an inequality, an equality of two constants, a disjunction: the hypotheses of all the
    theorems hold, the interpretation above is a model. *)
Example C47_nonvacuous :
  reach H0 ex_T /\ Forall (bool_t ex_T) ex_as /\ no_apps ex_T ex_as /\ satisfies ex_I ex_T ex_as /\
  exists p st, translate false Hi Hv ex_T [] is_new ex_as = Ok (Some (p, st)) /\ length (is_cls st) = 8 /\
    exists b r, solves st b r /\ agrees ex_T st ex_I b r.
Proof.
  assert (R : reach H0 ex_T) by (apply tab_reach; vm_compute; reflexivity).
  assert (B : Forall (bool_t ex_T) ex_as) by (apply bools_ok; vm_compute; reflexivity).
  assert (S : satisfies ex_I ex_T ex_as) by (repeat constructor; vm_compute; reflexivity).
  split; [exact R|]. split; [exact B|]. split; [apply app_free_ok; vm_compute; reflexivity|]. split; [exact S|].
  assert (M : made (translate false Hi Hv ex_T [] is_new ex_as) = true) by (vm_compute; reflexivity).
  assert (L : match translate false Hi Hv ex_T [] is_new ex_as with Ok (Some (_, st)) => length (is_cls st) | _ => 0 end = 8) by (vm_compute; reflexivity).
  apply made_ok in M. destruct M as (p & st & E). exists p, st. split; [exact E|]. split; [rewrite E in L; exact L|].
  exact (C47_complete false Hi Hv H0 ex_T ex_as p st R B E ex_I S).
Qed.
(** and an unsatisfiable list: x >= 1 and not (x >= 1) has clauses without solution *)
Example C47_nonvacuous_unsat :
  exists p st, translate false Hi Hv ex_T [] is_new [mkT 10 false; mkT 10 true] = Ok (Some (p, st)) /\ forall b r, ~ solves st b r.
Proof.
  assert (R : reach H0 ex_T) by (apply tab_reach; vm_compute; reflexivity).
  assert (B : Forall (bool_t ex_T) [mkT 10 false; mkT 10 true]) by (apply bools_ok; vm_compute; reflexivity).
  assert (M : made (translate false Hi Hv ex_T [] is_new [mkT 10 false; mkT 10 true]) = true) by (vm_compute; reflexivity).
  apply made_ok in M. destruct M as (p & st & E). exists p, st. split; [exact E|]. intros b r S.
  assert (N : no_apps ex_T [mkT 10 false; mkT 10 true]) by (apply app_free_ok; vm_compute; reflexivity).
  destruct (C47_equisat _ _ _ _ _ _ _ _ R B E) as [_ X]. destruct (proj2 (X N) (ex_intro _ b (ex_intro _ r S))) as (I & F).
  inversion F as [|? ? F1 F2]; subst. inversion F2 as [|? ? F3 F4]; subst.
  unfold tholds, teval in F1, F3. unfold look in F1, F3. cbn [tix tneg] in F1, F3.
  destruct (nth 10 (values I (tt_nodes ex_T)) (VB false)) as [[|]|q]; simpl in F1, F3; discriminate.
Qed.
Example C47_unsat_now_nonvacuous : translate false Hi Hv ex_T [] is_new [mkT 11 false; false_term] = Ok None.
Proof. vm_compute. reflexivity. Qed.


(** f 3, x 4, 1 5, (f x) 6, then (= (f x) 1) 7, or (>= (f x) 1) 9. The equality is supported only without
    assertions in the C++ sense. *)
Definition fx_T : table := tab [CDecl TReal; CDecl TReal; CNum 1%Qc; CApp (mkT 3 false) TReal [mkT 4 false];
  COp OEq [mkT 6 false; mkT 5 false] [TReal; TReal]].
Definition fy_T : table := tab [CDecl TReal; CDecl TReal; CNum 1%Qc; CApp (mkT 3 false) TReal [mkT 4 false];
  COp OGe [mkT 6 false; mkT 5 false] [TReal; TReal]].
Example C47_total_nonvacuous :
  (reach H0 fy_T /\ Forall (bool_t fy_T) [mkT 9 false] /\ supported false fy_T [mkT 9 false] /\ ~ no_apps fy_T [mkT 9 false]) /\
  (reach H0 fx_T /\ Forall (bool_t fx_T) [mkT 7 false] /\ supported true fx_T [mkT 7 false]).
Proof.
  split; [split; [apply tab_reach; vm_compute; reflexivity|split; [apply bools_ok; vm_compute; reflexivity|split; [apply supp_ok; vm_compute; reflexivity|]]]|
          split; [apply tab_reach; vm_compute; reflexivity|split; [apply bools_ok; vm_compute; reflexivity|apply supp_ok; vm_compute; reflexivity]]].
  intros N. apply (N (mkT 6 false) (mkT 9 false)); [left; reflexivity| |vm_compute; reflexivity].
  apply sub_arg with (a := mkT 8 false); [vm_compute; auto|]. apply sub_arg with (a := mkT 6 false); [vm_compute; auto|]. apply sub_refl.
Qed.

(** Outside of [supported] well-sorted assertions make the translation fail: an assertion (debug build) for
    (= (f x) 1), and an error in every build for (not (P x)) and for (P false). *)
Definition px_T : table := tab [CDecl TBool; CDecl TReal; CApp (mkT 3 false) TBool [mkT 4 false]; CApp (mkT 3 false) TBool [false_term]].
Theorem C47_total_refuted :
  (reach H0 fx_T /\ Forall (bool_t fx_T) [mkT 7 false] /\ translate false Hi Hv fx_T [] is_new [mkT 7 false] = UB) /\
  (reach H0 px_T /\ Forall (bool_t px_T) [mkT 5 true; mkT 6 false] /\
   forall ndebug, translate ndebug Hi Hv px_T [] is_new [mkT 5 true] = UB /\ translate ndebug Hi Hv px_T [] is_new [mkT 6 false] = UB).
Proof.
  split; [split; [apply tab_reach; vm_compute; reflexivity|split; [apply bools_ok; vm_compute; reflexivity|apply stuck_ok; vm_compute; reflexivity]]|
          split; [apply tab_reach; vm_compute; reflexivity|split; [apply bools_ok; vm_compute; reflexivity|]]].
  intros []; split; apply stuck_ok; vm_compute; reflexivity.
Qed.
Print Assumptions C47_total_refuted.

(** ** C48 *)
(** Several checks. Whatever checks came before (with terms added and constraints derived in between), every
    interpretation that satisfies the current assertions gives an assignment that satisfies the clauses of
    the current check: earlier checks never make a later answer unsat wrongly. Missing: the other direction, which holds for the
    first check (C47_sound) and is false for later ones (C48_refuted). *)
Theorem C48_partial : forall ndebug hi hv H T p st assertions p' st', checks ndebug hi hv H T p st -> Forall (bool_t T) assertions ->
  translate ndebug hi hv T p st assertions = Ok (Some (p', st')) ->
  forall I, satisfies I T assertions -> exists b r, solves st' b r /\ agrees T st' I b r.
Proof. exact multi_main. Qed.
Print Assumptions C48_partial.

(** check (or x y); then check (or x y), (not x), (not y): the second check gets the unit clauses only. Its
    clauses are satisfiable though the assertions are not: the answer sat is wrong. *)
Theorem C48_refuted : exists T p st assertions p' st' b r,
  checks false Hi Hv H0 T p st /\ Forall (bool_t T) assertions /\
  translate false Hi Hv T p st assertions = Ok (Some (p', st')) /\
  solves st' b r /\ (forall I, ~ satisfies I T assertions).
Proof.
  assert (C0 : checks false Hi Hv H0 v_T1 [] is_new).
  { eapply ck_terms; [apply ck_new|exact v_keeps1|exact v_reach1]. }
  assert (M1 : made (translate false Hi Hv v_T1 [] is_new [mkT 5 false]) = true) by (vm_compute; reflexivity).
  apply made_ok in M1. destruct M1 as (p & st & E1).
  assert (C1 : checks false Hi Hv H0 v_T1 p st).
  { eapply ck_check; [exact C0| |exact E1]. apply bools_ok. vm_compute. reflexivity. }
  remember [mkT 5 false; mkT 3 true; mkT 4 true] as a2.
  exists v_T1, p, st, a2.
  vm_compute in E1. injection E1 as <- <-.
  eexists _, _, (fun v => v =? 2), (fun _ => 0%Q). split; [exact C1|]. split; [subst; apply bools_ok; vm_compute; reflexivity|].
  split; [subst; vm_compute; reflexivity|]. split.
  - split.
    + intros v L. exfalso. destruct v as [|[|[|v]]]; vm_compute in L; try discriminate. destruct v; discriminate.
    + repeat constructor; vm_compute; eexists; (split; [left; reflexivity|]); vm_compute; reflexivity.
  - intros I S. subst. inversion S as [|? ? S1 S2]; subst. inversion S2 as [|? ? S3 S4]; subst. inversion S4 as [|? ? S5 S6]; subst.
    vm_compute in S1, S3, S5. destruct I as [ib ir fb fr]. destruct (ib 3), (ib 4); discriminate.
Qed.
Print Assumptions C48_refuted.
(** the second check of two satisfiable ones, after a new term *)
Example C48_nonvacuous : exists T p st assertions p' st' I,
  checks false Hi Hv H0 T p st /\ p <> [] /\ Forall (bool_t T) assertions /\
  translate false Hi Hv T p st assertions = Ok (Some (p', st')) /\ satisfies I T assertions.
Proof.
  assert (C0 : checks false Hi Hv H0 v_T1 [] is_new).
  { eapply ck_terms; [apply ck_new|exact v_keeps1|exact v_reach1]. }
  assert (M1 : made (translate false Hi Hv v_T1 [] is_new [mkT 5 false]) = true) by (vm_compute; reflexivity).
  apply made_ok in M1. destruct M1 as (p & st & E1).
  assert (C1 : checks false Hi Hv H0 v_T2 p st).
  { eapply ck_terms; [eapply ck_check; [exact C0| |exact E1]|exact v_keeps2|exact v_reach2]. apply bools_ok. vm_compute. reflexivity. }
  exists v_T2, p, st, [mkT 5 false; mkT 6 false; mkT 4 true].
  vm_compute in E1. injection E1 as <- <-.
  eexists _, _, (mkI (fun i => i =? 3) (fun _ => 0%Qc) (fun _ _ => false) (fun _ _ => 0%Qc)).
  split; [exact C1|]. split; [discriminate|]. split; [apply bools_ok; vm_compute; reflexivity|].
  split; [vm_compute; reflexivity|]. repeat constructor; vm_compute; reflexivity.
Qed.
