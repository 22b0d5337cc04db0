(** C63: answers to checks of assertions and scripts, logic QF_UFLRA. *)
From Coq Require Import Ascii String List Arith ZArith QArith Qcanon NArith Bool Lia.
From Verif Require Import Base Core_Model Bool_Model Trail_Model Spec_Trail Solver_Model Spec_Sat Spec_Theory Theory_Inv Theory_Strict Theory_Sound Theory_Bool Comb_Bcp Theory_Level Theory_Toy
  Lincons_Model Spec_Lincons Lra_Model Lra_Examples Lra_Watch Comb_Model Spec_Comb Comb_Lra Comb_Final Prop_Comb
  Terms_Model Spec_Terms Terms_Proofs TermMgr_Model Spec_TermMgr TermMgr_Base TermMgr_Term TermMgr_Main Spec_Visitor
  Internalizer_Model Spec_Internalizer Internalizer_Proofs Internalizer_Main Check_Model Spec_Check Check_Proofs
  Lexer_Model Spec_Print Print_Proofs Parser_Model Spec_Parser Script_Model Spec_Script Script_Text Prop_Terms Prop_Visitor Prop_Internalizer Prop_Parser Prop_Script
  Order_Model Queue_Model Spec_Queue Spec_Order Queue_Proofs Gvsids_Model Order_Proofs Gvorder_Model Gvorder_Proofs Gvorder_Run Prop_Check
  Uf_Model Spec_Uf Uf_Proofs Ufcomb_Model Ufcomb_Eq Ufcomb_Watch Ufcomb_Level Ufcomb_Final Ufcheck_Model Spec_Ufcheck Ufcheck_Proofs.
Import ListNotations.
Close Scope Qc_scope.
Close Scope Q_scope.
Open Scope nat_scope.

(** ** C63 *)
(** If a check of assertions answers unsat, no interpretation of constants and functions satisfies all of them. *)
Theorem C63_unsat : forall hi hv opt ndebug H T assertions HS (he : heur HS) hash df fuel o hs x,
  reach H T -> Forall (bool_t T) assertions -> real_functions T assertions -> o_unassigned opt = false ->
  uf_order_ok hi hv opt ndebug he hash df o hs T assertions ->
  check_assertions_uf hi hv opt ndebug T he hash df fuel o hs assertions = Ok (Unsat, x) ->
  forall I, ~ satisfies I T assertions.
Proof.
  intros hi hv opt ndebug H T assertions HS he hash df fuel o hs x R B RF HU OK.
  exact (ucheck_unsat hi hv opt ndebug H T (reach_wf H T R) assertions B RF he hash df fuel o hs HU OK x).
Qed.
Print Assumptions C63_unsat.

(** If it answers sat, a value is shown for each declared constant that occurs in the assertions, some interpretation has the
    values shown for constants and functions, and every such interpretation satisfies all assertions. *)
Theorem C63_sat : forall hi hv opt ndebug H T assertions HS (he : heur HS) hash df fuel o hs x,
  reach H T -> Forall (bool_t T) assertions -> real_functions T assertions -> o_unassigned opt = false ->
  uf_order_ok hi hv opt ndebug he hash df o hs T assertions ->
  check_assertions_uf hi hv opt ndebug T he hash df fuel o hs assertions = Ok (Sat, x) ->
  exists st s, x = Some (st, s) /\
    (exists I, Spec_Check.reads T (show_model T st s) I /\ reads_functions (show_functions s) I) /\
    (forall I, Spec_Check.reads T (show_model T st s) I -> reads_functions (show_functions s) I -> satisfies I T assertions) /\
    (forall c, occurs T assertions c -> exists v, In (c, v) (show_model T st s)).
Proof.
  intros hi hv opt ndebug H T assertions HS he hash df fuel o hs x R B RF HU OK.
  exact (ucheck_sat hi hv opt ndebug H T (reach_wf H T R) assertions B RF he hash df fuel o hs HU OK x).
Qed.
Print Assumptions C63_sat.

(** The first check-sat of a well-sorted script: the answer is the right one for the part of the script before it. *)
Theorem C63_script : forall hi hv opt ndebug H cs k pre rest a T checks HS (he : heur HS) hash df fuel o hs x ans,
  script_ok w_new false cs -> run_script H (stoks cs) = Ok k ->
  checked [] cs = pre :: rest -> rev (k_checks k) = (a, T) :: checks -> real_functions T a -> o_unassigned opt = false ->
  uf_order_ok hi hv opt ndebug he hash df o hs T a ->
  check_assertions_uf hi hv opt ndebug T he hash df fuel o hs a = Ok (ans, x) ->
  match ans with Unsat => ~ script_sat pre | Sat => script_sat pre end.
Proof.
  intros hi hv opt ndebug H cs k pre rest a T checks HS he hash df fuel o hs x ans OK E CP CK RF HU OO EC.
  pose proof (C60_checks H cs k OK E) as F. rewrite CP, CK in F. inversion F as [|? ? ? ? (R & B & S) _]; subst. cbn [fst snd] in *.
  destruct ans.
  - destruct (C63_sat hi hv opt ndebug H T a HS he hash df fuel o hs x R B RF HU OO EC) as (st & s & _ & (I & RI & RG) & SI & _).
    apply S. exists I. auto.
  - rewrite <- S. intros (I & SI). exact (C63_unsat hi hv opt ndebug H T a HS he hash df fuel o hs x R B RF HU OO EC I SI).
Qed.
Print Assumptions C63_script.

(** *** The order of the QF_UFLRA solver, Generalized_vsids, meets the hypothesis on the order *)
Section Order.
Context {F RS : Type}.
Variables (fo : fops F) (good : F -> Prop) (rp : restart_policy RS) (r0 : RS).
Hypothesis laws : score_laws fo good.
Hypothesis closed : score_closed fo good.
Variables (cv : nat -> nat -> list nat) (dec : nat -> list nat) (ed : nat -> nat -> bool).
Variables (hi : nat -> Z) (hv : Q -> Z) (opt : lopt) (hash : lit -> N) (df : nat).
Variables (H : hashes) (T : table) (bv : list (term * lit)) (rv : list (term * nat)) (WF : wf H T) (M : maps_ok T rv).
Variables (h : list (Spec_Lincons.request * lit)) (a : lra) (u : uf) (t : trail) (cs : list clause) (o : phase_opt).
Hypothesis HU : o_unassigned opt = false.
Hypothesis NC : nc_ok T bv rv (map fst (u_watch u)).
Hypothesis HPb : problem hi hv opt h a t.
Hypothesis HR : clauses_in t cs.
Hypothesis HW : Forall (wl_ok T rv (mnum (t_qm t))) (u_watch u).
Hypothesis HF0 : u_fns u = [].
Notation th := (ul_theory hi hv opt T bv rv df).
Notation he := (heur_of (gv_order fo cv dec ed) rp).
Notation s0 := (mkS (mkDb cs []) t (bstate_new o, a, u) (gv_start fo cv (mkDb cs []) t, r0) 0).
Notation PE3 := (PE3 hi hv opt (mnum (t_qm t)) (l_st a) T bv rv (map fst (u_watch u))).
Lemma ul_ops fuel ts d t1 ts' d' t' ccs : PE3 ts d t1 -> (trail_empty t1 = false -> units_done d t1) ->
  th_propagate th fuel ts d t1 = Ok (ts', d', t', ccs) -> prop_ops true d' (fun _ => False) t1 t'.
Proof.
  destruct ts as [[b a1] u1], ts' as [[b' a'] u']. intros E U X. cbn [ul_theory th_propagate fst snd] in X.
  apply (ul_propagate_ok hi hv opt (mnum (t_qm t)) (l_st a) HU H T bv rv WF M _ NC (fun _ => False)) in X; auto. tauto.
Qed.
Lemma ugv_picks s fuel ts d t1 h1 o1 : Spec_Sat.reach th he hash s0 s -> th_propagate th fuel (s_th s) (s_db s) (s_trail s) = Ok (ts, d, t1, []) ->
  h_pick he (s_he s) d t1 = (h1, o1) ->
  match o1 with
  | Some v => is_def t1 v = false /\ in_range (mnum (t_bm t1)) (mnum (t_qm t1)) v = true
  | None => forall v, in_range (mnum (t_bm t)) (mnum (t_qm t)) v = true -> is_def t1 v = true
  end.
Proof.
  pose proof (problem_SU hi hv opt h a t HPb) as [R W N TTt FF G C NE Me A].
  apply (gv_order_ok th fo good rp hash laws closed cv dec ed (utm T rv) _ _ _ _ (ul_level hi hv opt df (mnum (t_qm t)) (l_st a) HU H T bv rv WF M _ NC) ul_ops
    (fun ts d t H => proj1 (proj2 (proj2 (proj1 (proj1 H))))) (fun k ts d t H => li_r _ _ _ _ _ _ _ (proj1 (proj2 (proj2 (proj2 (proj1 H)))))) cs (mnum (t_bm t)) HR (mnum (t_bm t)) (mnum (t_qm t)) t _ 0 r0); auto.
  exact (start_PE3 hi hv opt T bv rv h a u t cs o HPb HR HW HF0).
Qed.
End Order.
Lemma ugv_checks F (fo : fops F) good RS (rp : restart_policy RS) r0 cv dec ed hi hv opt ndebug hash df o H T a :
  score_laws fo good -> score_closed fo good -> o_unassigned opt = false -> reach H T -> Forall (bool_t T) a -> real_functions T a ->
  uf_order_ok hi hv opt ndebug (heur_of (gv_order fo cv dec ed) rp) hash df o (fun d t => (gv_start fo cv d t, r0)) T a.
Proof.
  intros LW CL HU R B RF st u a0 t TR RP. pose proof (reach_wf H T R) as W.
  destruct (translate_uf_inv hi hv ndebug H T W a B st u TR) as (o1 & st1 & X). destruct (tu_tr _ _ _ _ _ _ _ _ _ X) as [p TR0].
  destruct (translated hi hv opt ndebug H T W a B p st TR0) as (a1 & t1 & o0 & h & RP1 & Y). rewrite RP in RP1. injection RP1 as <- <-.
  destruct (tu_watch hi hv ndebug H T W a RF _ _ _ _ _ X (tr_nq _ _ _ _ _ _ _ _ _ _ Y)) as (HW & HF0 & NC & _).
  pose proof (tu_maps hi hv ndebug H T W a RF _ _ _ _ X) as MO.
  pose proof (ugv_picks fo good rp r0 LW CL cv dec ed hi hv opt hash df H T (is_bool st) (is_real st) W MO (lits_of h) a0 u t (is_cls st) o HU NC
    (tr_pb _ _ _ _ _ _ _ _ _ _ Y) (clauses_ok hi hv opt T a st a0 t o0 h Y) HW HF0) as PK. split.
  - intros s fuel ts d t1 h1 v R1 E1 E2. exact (PK s fuel ts d t1 h1 (Some v) R1 E1 E2).
  - intros s fuel ts d t1 h1 R1 E1 E2. exact (PK s fuel ts d t1 h1 None R1 E1 E2).
Qed.
(** so the theorems hold of the solver with its own variable order, without a hypothesis on the order *)
Theorem C63_vsids_unsat : forall F (fo : fops F) good RS (rp : restart_policy RS) r0 cv dec ed hi hv opt ndebug H T assertions hash df fuel o x,
  score_laws fo good -> score_closed fo good -> reach H T -> Forall (bool_t T) assertions -> real_functions T assertions -> o_unassigned opt = false ->
  check_assertions_uf hi hv opt ndebug T (heur_of (gv_order fo cv dec ed) rp) hash df fuel o (fun d t => (gv_start fo cv d t, r0)) assertions = Ok (Unsat, x) ->
  forall I, ~ satisfies I T assertions.
Proof.
  intros F fo good RS rp r0 cv dec ed hi hv opt ndebug H T assertions hash df fuel o x LW CL R B RF HU.
  exact (C63_unsat hi hv opt ndebug H T assertions _ _ hash df fuel o _ x R B RF HU (ugv_checks F fo good RS rp r0 cv dec ed hi hv opt ndebug hash df o H T assertions LW CL HU R B RF)).
Qed.
Print Assumptions C63_vsids_unsat.
Theorem C63_vsids_sat : forall F (fo : fops F) good RS (rp : restart_policy RS) r0 cv dec ed hi hv opt ndebug H T assertions hash df fuel o x,
  score_laws fo good -> score_closed fo good -> reach H T -> Forall (bool_t T) assertions -> real_functions T assertions -> o_unassigned opt = false ->
  check_assertions_uf hi hv opt ndebug T (heur_of (gv_order fo cv dec ed) rp) hash df fuel o (fun d t => (gv_start fo cv d t, r0)) assertions = Ok (Sat, x) ->
  exists st s, x = Some (st, s) /\
    (exists I, Spec_Check.reads T (show_model T st s) I /\ reads_functions (show_functions s) I) /\
    (forall I, Spec_Check.reads T (show_model T st s) I -> reads_functions (show_functions s) I -> satisfies I T assertions) /\
    (forall c, occurs T assertions c -> exists v, In (c, v) (show_model T st s)).
Proof.
  intros F fo good RS rp r0 cv dec ed hi hv opt ndebug H T assertions hash df fuel o x LW CL R B RF HU.
  exact (C63_sat hi hv opt ndebug H T assertions _ _ hash df fuel o _ x R B RF HU (ugv_checks F fo good RS rp r0 cv dec ed hi hv opt ndebug hash df o H T assertions LW CL HU R B RF)).
Qed.
Print Assumptions C63_vsids_sat.

(** *** Examples *)
(** a test for [real_functions] *)
Definition m_eqb (m n : term * Qc) : bool := t_eqb (fst m) (fst n) && Qeq_bool (this (snd m)) (this (snd n)).
Definition m_in (m : term * Qc) (l : list (term * Qc)) : bool := existsb (m_eqb m) l.
Definition alignedb (T : table) (x y : term) : bool :=
  (forallb (fun m => m_in m (monomials T y)) (monomials T x) && forallb (fun m => m_in m (monomials T x)) (monomials T y)) ||
  forallb (fun m => negb (m_in m (monomials T y))) (monomials T x).
Fixpoint all2 {A} (f : A -> A -> bool) (l l' : list A) : bool :=
  match l, l' with [], [] => true | x :: l, y :: l' => f x y && all2 f l l' | _, _ => false end.
Definition rf_ok (T : table) : bool :=
  let apps := filter (fun t => k_eqb (kind_of T t) KApp) (map (fun i => mkT i false) (seq 0 (length (tt_nodes T)))) in
  forallb (fun t => ty_eqb (type_of T t) TReal && forallb (fun a => ty_eqb (type_of T a) TReal) (get_args T t)) apps &&
  forallb (fun t => forallb (fun u => match fnc_symbol T t, fnc_symbol T u with
    | Ok f, Ok g => negb (t_eqb f g) || all2 (alignedb T) (get_args T t) (get_args T u)
    | _, _ => true end) apps) apps.
Lemma m_in_ok m l : m_in m l = true <-> In m l.
Proof.
  unfold m_in. rewrite existsb_exists. split.
  - intros (n & I & E). unfold m_eqb in E. apply andb_true_iff in E. destruct E as [E1 E2]. apply t_eqb_eq in E1. apply Qeq_bool_iff in E2.
    destruct m as [m p], n as [n q]. cbn [fst snd] in *. subst. apply Qc_is_canon in E2. now subst.
  - intros I. exists m. split; auto. unfold m_eqb. apply andb_true_iff. split; [now apply t_eqb_eq|]. apply Qeq_bool_iff. reflexivity.
Qed.
Lemma alignedb_ok T x y : alignedb T x y = true -> aligned T x y.
Proof.
  unfold alignedb, aligned. intros E. apply orb_true_iff in E. destruct E as [E|E].
  - left. apply andb_true_iff in E. destruct E as [E1 E2]. rewrite forallb_forall in E1, E2. intros m. rewrite <- !m_in_ok. split; intros I; [apply E1|apply E2]; now apply m_in_ok.
  - right. rewrite forallb_forall in E. intros m I J. specialize (E m I). apply m_in_ok in J. rewrite J in E. discriminate E.
Qed.
Lemma all2_ok {A} (f : A -> A -> bool) (R : A -> A -> Prop) : (forall x y, f x y = true -> R x y) -> forall l l', all2 f l l' = true -> Forall2 R l l'.
Proof.
  intros F. induction l as [|x l IH]; intros [|y l'] E; try discriminate; [constructor|]. cbn in E. apply andb_true_iff in E. destruct E. constructor; auto.
Qed.
Lemma sub_typed H T t root : wf H T -> subterm T t root -> typed T root -> typed T t.
Proof.
  intros W S. induction S as [|s a t Ia S IH]; auto. intros TY. apply IH. eapply args_typed; eauto. destruct TY as [[V _]|[V _]]; auto.
Qed.
Lemma rf_ok_ok H T a : wf H T -> Forall (bool_t T) a -> rf_ok T = true -> real_functions T a.
Proof.
  intros W B E. unfold rf_ok in E. cbv zeta in E. apply andb_true_iff in E. destruct E as [E1 E2].
  set (apps := filter _ _) in *. rewrite forallb_forall in E1, E2.
  assert (RE : forall t, typed T t -> ty_eqb (type_of T t) TReal = true -> real_t T t).
  { intros t [[_ Y]|Y] E; auto. rewrite Y in E. discriminate E. }
  assert (IN : forall t, applied T a t -> In t apps /\ real_t T t).
  { intros t [K (root & Ir & S)]. rewrite Forall_forall in B. pose proof (sub_typed H T t root W S (or_introl (B root Ir))) as TY.
    assert (L : tix t < length (tt_nodes T)) by (destruct TY as [[V _]|[V _]]; apply V).
    assert (I' : In (mkT (tix t) false) apps).
    { apply filter_In. split; [apply in_map_iff; exists (tix t); split; auto; apply in_seq; lia|]. unfold kind_of, node_of in *. cbn [tix]. rewrite K. reflexivity. }
    assert (R : real_t T t).
    { apply RE; auto. specialize (E1 _ I'). apply andb_true_iff in E1. destruct E1 as [E1 _]. exact E1. }
    split; auto. destruct R as (_ & _ & N). destruct t; cbn in *; now subst. }
  split.
  - intros t At. destruct (IN t At) as [It R]. split; auto. specialize (E1 _ It). apply andb_true_iff in E1. destruct E1 as [_ E1].
    rewrite forallb_forall in E1. apply Forall_forall. intros b Ib. apply RE; auto. eapply args_typed; eauto. apply R.
  - intros t u f At Au F1 F2. destruct (IN t At) as [It _]. destruct (IN u Au) as [Iu _]. specialize (E2 _ It). rewrite forallb_forall in E2. specialize (E2 _ Iu).
    rewrite F1, F2 in E2. assert (X : t_eqb f f = true) by now apply t_eqb_eq. rewrite X in E2. cbn in E2. revert E2. apply all2_ok. apply alignedb_ok.
Qed.
(** scripts with two applications: (f x) >= (f y) + 1 and x >= y; with y >= x also, they are unsatisfiable *)
Definition u_decl : list command :=
  [KLogic true; KDeclareConst (pl "x") TReal; KDeclareConst (pl "y") TReal; KDeclareFun (pl "f") [TReal] TReal;
   KAssert (p_app ">=" [p_app "f" [p_sym "x"]; p_app "+" [p_app "f" [p_sym "y"]; ENum (t_of "1")]]);
   KAssert (p_app ">=" [p_sym "x"; p_sym "y"])].
Definition u_sat : list command := u_decl ++ [KCheck].
Definition u_un : list command := u_decl ++ [KAssert (p_app ">=" [p_sym "y"; p_sym "x"]); KCheck].
Lemma u_sat_ok : script_ok w_new false u_sat.
Proof. unfold u_sat, u_decl. cbn [app]. do 7 (apply script_step; [cbn [command_ok]; cok|]). exact I. Qed.
Lemma u_un_ok : script_ok w_new false u_un.
Proof. unfold u_un, u_decl. cbn [app]. do 8 (apply script_step; [cbn [command_ok]; cok|]). exact I. Qed.
Definition check_ugv (T : table) := check_assertions_uf ex_hash ex_hashq q_opt false T (heur_of (gv_order qops (fun _ _ => [0; 1]) (fun _ => []) (fun _ _ => false)) glucose_restart)
  (fun _ => 0%N) 50 200 PhaseCache (fun d t => (gv_start qops (fun _ _ => [0; 1]) d t, glucose_start)).
Definition u_answers (cs : list command) (a : answer) : bool :=
  match check_ugv (snd (first_check cs)) (fst (first_check cs)) with
  | Ok (Sat, Some (_, s)) => match a with Sat => match fst (fst (s_he s)) with Some _ => true | None => false end | Unsat => false end
  | Ok (Unsat, Some (_, s)) => match a with Sat => false | Unsat => match fst (fst (s_he s)) with Some _ => true | None => false end end
  | _ => false
  end.
Lemma u_answers_ok cs a : u_answers cs a = true -> exists x, check_ugv (snd (first_check cs)) (fst (first_check cs)) = Ok (a, x).
Proof. unfold u_answers. destruct (check_ugv _ _) as [[[|] [[]|]]| |]; destruct a; try discriminate; eauto. Qed.
(** the hypotheses of C63 hold for both scripts, with these answers *)
Example C63_nonvacuous : forall cs a, (cs = u_sat /\ a = Sat) \/ (cs = u_un /\ a = Unsat) ->
  script_ok w_new false cs /\ score_laws qops qpos /\ score_closed qops qpos /\
  let asserts := fst (first_check cs) in let T := snd (first_check cs) in
  exists k pre rest checks x, run_script H0 (stoks cs) = Ok k /\ checked [] cs = pre :: rest /\ rev (k_checks k) = (asserts, T) :: checks /\
    reach H0 T /\ Forall (bool_t T) asserts /\ real_functions T asserts /\ o_unassigned q_opt = false /\
    uf_order_ok ex_hash ex_hashq q_opt false (heur_of (gv_order qops (fun _ _ => [0; 1]) (fun _ => []) (fun _ _ => false)) glucose_restart)
      (fun _ => 0%N) 50 PhaseCache (fun d t => (gv_start qops (fun _ _ => [0; 1]) d t, glucose_start)) T asserts /\
    check_ugv T asserts = Ok (a, x).
Proof.
  intros cs a C. assert (OK : script_ok w_new false cs) by (destruct C as [[-> ->]|[-> ->]]; [exact u_sat_ok|exact u_un_ok]). split; [exact OK|].
  split; [apply q_laws|]. split; [apply q_closed|]. cbv zeta.
  assert (L : match run_script H0 (stoks cs) with Ok k => negb (length (k_checks k) =? 0) | _ => false end = true) by (destruct C as [[-> ->]|[-> ->]]; vm_compute; reflexivity).
  assert (A : u_answers cs a = true) by (destruct C as [[-> ->]|[-> ->]]; vm_compute; reflexivity).
  assert (N : rf_ok (snd (first_check cs)) = true) by (destruct C as [[-> ->]|[-> ->]]; vm_compute; reflexivity).
  destruct (first_checked cs OK L) as (k & pre & rest & checks & E & EP & EK & R & B). destruct (u_answers_ok cs a A) as (x & EX).
  exists k, pre, rest, checks, x. split; [exact E|]. split; [exact EP|]. split; [exact EK|]. split; [exact R|]. split; [exact B|].
  pose proof (rf_ok_ok H0 _ _ (reach_wf _ _ R) B N) as RF.
  split; [exact RF|]. split; [reflexivity|]. split; [|exact EX]. exact (ugv_checks _ _ qpos _ _ _ _ _ _ _ _ q_opt _ _ _ _ _ _ _ (q_laws _) q_closed eq_refl R B RF).
Qed.
(** so the second script is unsatisfiable and the first one satisfiable *)
Lemma uused_gen cs a : (cs = u_sat /\ a = Sat) \/ (cs = u_un /\ a = Unsat) ->
  exists pre rest, checked [] cs = pre :: rest /\ match a with Unsat => ~ script_sat pre | Sat => script_sat pre end.
Proof.
  intros C. destruct (C63_nonvacuous cs a C) as (OK & _ & _ & k & pre & rest & checks & x & E & EP & EK & _ & _ & N & HU & OO & EX). clear C.
  exists pre, rest. split; [exact EP|]. unfold check_ugv in EX. revert EK N OO EX. generalize (fst (first_check cs)) (snd (first_check cs)). intros asserts T EK N OO EX.
  exact (C63_script _ _ _ _ _ _ _ _ _ _ _ _ _ _ _ _ _ _ _ _ _ OK E EP EK N HU OO EX).
Qed.
Example C63_used : (exists pre rest, checked [] u_sat = pre :: rest /\ script_sat pre) /\ (exists pre rest, checked [] u_un = pre :: rest /\ ~ script_sat pre).
Proof. split; [apply (uused_gen u_sat Sat)|apply (uused_gen u_un Unsat)]; auto. Qed.
(** the model printed for the first one: y = -1, x = 0, f(0) = 0 and f(-1) = -1 *)
Example C63_model_nonvacuous : match check_ugv (snd (first_check u_sat)) (fst (first_check u_sat)) with
  | Ok (Sat, Some (st, s)) => show_model (snd (first_check u_sat)) st s = [(mkT 4 false, inr (-1)%Q); (mkT 3 false, inr 0%Q)] /\
      show_functions s = [(mkT 5 false, [([PR 0%Q], PR 0%Q); ([PR (-1)%Q], PR (-1)%Q)])]
  | _ => False
  end.
Proof. vm_compute. split; reflexivity. Qed.
