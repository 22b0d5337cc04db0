(** C36: conflicts of the plugin for uninterpreted functions are congruence lemmas. C37: its tables agree with the
    trail. *)
From Coq Require Import List Arith ZArith QArith Qcanon NArith Bool Lia Lqa.
From Verif Require Import Base Core_Model Trail_Model Spec_Trail Lincons_Model Spec_Lincons Lra_Model Spec_Lra Lra_Steps
  Terms_Model Spec_Terms Terms_Proofs TermMgr_Model Spec_TermMgr TermMgr_Base TermMgr_Term TermMgr_Main Internalizer_Model
  Uf_Model Spec_Uf Uf_Proofs Uf_Confl Prop_Terms Prop_Internalizer.
Import ListNotations.
Close Scope Qc_scope.
Close Scope Q_scope.
Open Scope nat_scope.

(** ** C36 *)
(** After any history, with any reachable state of the arithmetic plugin, each clause returned by the plugin is
    true in every interpretation and is not empty. Partial: [covered] (no Boolean values, Boolean arguments only if
    they are the same term); after a restart the clause can be empty. *)
Theorem C36_partial : forall hi hv opt H T bv rv r u tr a tr0 u' a' tr' cs c,
  reach H T -> maps_ok T rv -> uf_history hi hv opt T bv rv r u tr -> covered T u -> lra_run hi hv opt a tr0 ->
  uf_propagate hi hv opt T bv rv u a tr = Ok (u', a', tr', cs) -> In c cs ->
  (c <> [] -> valid_lemma T bv rv (l_st a') c) /\ (r = false -> c <> []).
Proof.
  intros hi hv opt H T bv rv r u tr a tr0 u' a' tr' cs c R M Hh CV LR E Ic. destruct (run_steps hi hv opt a tr0 LR) as [_ Wa].
  destruct (congruence_lemma hi hv opt H T bv rv (reach_wf H T R) M r u tr a u' a' tr' cs Hh CV Wa E c Ic). auto.
Qed.
Print Assumptions C36_partial.

(** ** C37 *)
(** Every entry is an application of its function whose arguments and value are assigned and have the recorded
    values. Partial: after a restart this is said of entries above level 0 only; Boolean terms have positive literals. *)
Theorem C37_partial : forall hi hv opt H T bv rv r u tr f m e,
  reach H T -> (forall t l, In (t, l) bv -> lneg l = false) -> uf_history hi hv opt T bv rv r u tr ->
  In (f, m) (u_fns u) -> In e m -> r = false \/ 0 < fa_lvl (snd e) -> entry_ok T bv rv tr f e.
Proof.
  intros hi hv opt H T bv rv r u tr f m e R P Hh A B D.
  exact (table_lemma hi hv opt T bv rv (ex_intro _ H (reach_wf H T R)) P r u tr f m e Hh A B D).
Qed.
Print Assumptions C37_partial.

(** ** Examples *)
(** f 3, x 4, y 5, p 6, (f p x) 7, (f p y) 8, g 9, q 10, (g p) 11, (g q) 12, (P p) 13; real variables: x 0, y 1, (f p x) 2, (f p y) 3, (g p) 4, (g q) 5;
    Boolean variables p 0, q 1, (P p) 2 *)
Definition uf_T : table := tab [CDecl TReal; CDecl TReal; CDecl TReal; CDecl TBool;
  CApp (mkT 3 false) TReal [mkT 6 false; mkT 4 false]; CApp (mkT 3 false) TReal [mkT 6 false; mkT 5 false];
  CDecl TReal; CDecl TBool; CApp (mkT 9 false) TReal [mkT 6 false]; CApp (mkT 9 false) TReal [mkT 10 false];
  CApp (mkT 9 false) TBool [mkT 6 false]].
Definition uf_rv : list (term * nat) := [(mkT 4 false, 0); (mkT 5 false, 1); (mkT 7 false, 2); (mkT 8 false, 3); (mkT 11 false, 4); (mkT 12 false, 5)].
Definition uf_bv : list (term * lit) := [(mkT 6 false, mkLit 0 false); (mkT 10 false, mkLit 1 false); (mkT 13 false, mkLit 2 false)].
Lemma uf_T_reach : reach H0 uf_T. Proof. apply tab_reach. vm_compute. reflexivity. Qed.
Lemma uf_maps : maps_ok uf_T uf_rv.
Proof.
  split; [repeat constructor; simpl; intuition congruence|].
  intros t v J. assert (K : has_typeb uf_T t TReal = true /\ (kind_of uf_T t = KUninterp \/ kind_of uf_T t = KIte \/ kind_of uf_T t = KApp)).
  { simpl in J. repeat (destruct J as [J|J]; [injection J as <- <-; split; vm_compute; auto|]). destruct J. }
  split; [|apply K]. exact (has_typeb_ok uf_T t TReal (proj1 K)).
Qed.
Definition a0 : lra := with_st lra_new (lc_resize (l_st lra_new) 3).
Lemma a0_run : lra_run Hi Hv opt_default a0 (trail_resize (trail_new 0 0) 3 6).
Proof. exact (lr_resize Hi Hv opt_default lra_new (trail_new 0 0) 3 6 (lr_new Hi Hv opt_default) (Nat.le_0_l _) (Nat.le_0_l _)). Qed.

(** scripts of events *)
Inductive ev := EReg (v : var) (t : term) | ETrail (o : top) | EProp.
Definition mayb (tr : trail) (o : top) : bool :=
  match o with
  | TDecide v _ | TPropagate v _ _ _ => in_range (mnum (t_bm tr)) (mnum (t_qm tr)) v && match t_lvl tr v with None => true | _ => false end
  | TResize nb nq => (mnum (t_bm tr) <=? nb) && (mnum (t_qm tr) <=? nq)
  | _ => true
  end.
Lemma mayb_ok tr o : mayb tr o = true -> may tr o.
Proof.
  destruct o; simpl; rewrite ?andb_true_iff, ?Nat.leb_le; auto; destruct (t_lvl tr v); intuition congruence.
Qed.
Section Run.
Variables (T : table) (bv : list (term * lit)) (rv : list (term * nat)).
Notation hist := (uf_history Hi Hv opt_default T bv rv).
Definition estep1 (x : bool * uf * trail) (e : ev) : option (bool * uf * trail) :=
  let '(r, u, tr) := x in
  match e with
  | EReg v t => match uf_register T bv rv u v t with Ok u' => Some (r, u', tr) | _ => None end
  | ETrail o => if mayb tr o then match t_step tr o with Ok tr' => Some (r || is_clear o, told u o, tr') | _ => None end else None
  | EProp => match uf_propagate Hi Hv opt_default T bv rv u a0 tr with Ok (u', _, tr', _) => Some (r, u', tr') | _ => None end
  end.
Fixpoint erun (x : bool * uf * trail) (l : list ev) : option (bool * uf * trail) :=
  match l with [] => Some x | e :: l' => match estep1 x e with Some y => erun y l' | None => None end end.
Lemma erun_hist l : forall x y, hist (fst (fst x)) (snd (fst x)) (snd x) -> erun x l = Some y -> hist (fst (fst y)) (snd (fst y)) (snd y).
Proof.
  induction l as [|e l IH]; intros x y Hh E; [injection E as <-; exact Hh|]. cbn [erun] in E. destruct (estep1 x e) as [z|] eqn:S1; [|discriminate].
  apply (IH z y); auto. destruct x as [[r u] tr]. cbn [fst snd] in *. destruct e as [v t|o|]; cbn [estep1] in S1.
  - destruct (uf_register T bv rv u v t) as [u'| |] eqn:R; try discriminate. injection S1 as <-. eapply uh_register; eauto.
  - destruct (mayb tr o) eqn:MB; [|discriminate]. destruct (t_step tr o) as [tr'| |] eqn:TS; try discriminate. injection S1 as <-.
    eapply uh_trail; eauto. now apply mayb_ok.
  - destruct (uf_propagate _ _ _ _ _ _ _ _ _) as [[[[u' a'] tr'] cs]| |] eqn:UP; try discriminate. injection S1 as <-. eapply uh_propagate; eauto.
Qed.
Definition emade (l : list ev) : bool := match erun (false, uf_new, trail_new 3 6) l with Some _ => true | None => false end.
Definition est (l : list ev) : bool * uf * trail :=
  match erun (false, uf_new, trail_new 3 6) l with Some x => x | None => (false, uf_new, trail_new 3 6) end.
Definition e_r l := fst (fst (est l)).
Definition e_u l := snd (fst (est l)).
Definition e_t l := snd (est l).
Lemma est_hist l : emade l = true -> hist (e_r l) (e_u l) (e_t l).
Proof.
  unfold emade, e_r, e_u, e_t, est. destruct (erun _ l) as [y|] eqn:E; [|discriminate]. intros _.
  eapply erun_hist; [|exact E]. apply uh_new.
Qed.
Definition eout (l : list ev) : res (uf * lra * trail * list clause) := uf_propagate Hi Hv opt_default T bv rv (e_u l) a0 (e_t l).
End Run.
Definition got {A} (x : res A) : bool := match x with Ok _ => true | _ => false end.
Lemma got_ok {A} (x : res A) : got x = true -> exists y, x = Ok y.
Proof. destruct x; simpl; try discriminate. eauto. Qed.

Definition dec (v : var) (b : bool) (q : Q) : ev := ETrail (TDecide v (b, q)).
Definition prp (v : var) (b : bool) (q : Q) : ev := ETrail (TPropagate v None 1 (b, q)).
(** f(p,x), f(p,y): p true, x = y = 0, values 0 and 1 *)
Definition ex36 : list ev := [EReg (VRat 2) (mkT 7 false); EReg (VRat 3) (mkT 8 false);
  dec (VBool 0) true 0; prp (VRat 0) false 0; prp (VRat 1) false 0; prp (VRat 2) false 0; prp (VRat 3) false 1%Q].
Example C36_nonvacuous :
  reach H0 uf_T /\ maps_ok uf_T uf_rv /\
  uf_history Hi Hv opt_default uf_T uf_bv uf_rv false (e_u uf_T uf_bv uf_rv ex36) (e_t uf_T uf_bv uf_rv ex36) /\
  covered uf_T (e_u uf_T uf_bv uf_rv ex36) /\ lra_run Hi Hv opt_default a0 (trail_resize (trail_new 0 0) 3 6) /\
  match eout uf_T uf_bv uf_rv ex36 with Ok (_, _, _, [c]) => c = [mkLit 3 true; mkLit 4 false] | _ => False end.
Proof.
  split; [exact uf_T_reach|]. split; [exact uf_maps|]. split; [apply (est_hist uf_T uf_bv uf_rv ex36); vm_compute; reflexivity|].
  split; [|split; [exact a0_run|vm_compute; reflexivity]].
  assert (EW : map fst (u_watch (e_u uf_T uf_bv uf_rv ex36)) = [mkT 7 false; mkT 8 false]) by (vm_compute; reflexivity).
  assert (TB : has_typeb uf_T (mkT 6 false) TBool = true /\ has_typeb uf_T (mkT 4 false) TReal = true /\ has_typeb uf_T (mkT 5 false) TReal = true /\
    has_typeb uf_T (mkT 7 false) TReal = true /\ has_typeb uf_T (mkT 8 false) TReal = true) by (vm_compute; auto).
  destruct TB as (T1 & T2 & T3 & T4 & T5). apply has_typeb_ok in T1, T2, T3, T4, T5. simpl in T1, T2, T3, T4, T5.
  assert (G7 : get_args uf_T (mkT 7 false) = [mkT 6 false; mkT 4 false]) by (vm_compute; reflexivity).
  assert (G8 : get_args uf_T (mkT 8 false) = [mkT 6 false; mkT 5 false]) by (vm_compute; reflexivity).
  intros t1 w1 t2 w2 f I1 I2 N _ _. apply (in_map fst) in I1, I2. rewrite EW in I1, I2. cbn [fst In] in I1, I2.
  destruct I1 as [<-|[<-|[]]], I2 as [<-|[<-|[]]]; try congruence; rewrite G7, G8; split; auto; split; auto;
    (constructor; [left; auto|constructor; [right; auto|constructor]]).
Qed.

(** g(p), g(q): p and q true, values 0 and 1. The clause says only g(p) = g(q), and is false if p and q differ. *)
Definition ex36b : list ev := [EReg (VRat 4) (mkT 11 false); EReg (VRat 5) (mkT 12 false);
  dec (VBool 0) true 0; prp (VBool 1) true 0; prp (VRat 4) false 0; prp (VRat 5) false 1%Q].
Definition s36 : store := Eval vm_compute in match eout uf_T uf_bv uf_rv ex36b with Ok (_, a', _, _) => l_st a' | _ => store_new end.
Definition I36 : interp := mkI (fun i => i =? 6) (fun _ => 0%Qc)
  (fun _ _ => false) (fun f l => match l with [VB false] => 1%Qc | _ => 0%Qc end).
Theorem C36_refuted : exists hi hv opt H T bv rv u tr a tr0 u' a' tr' cs c,
  reach H T /\ maps_ok T rv /\ uf_history hi hv opt T bv rv false u tr /\ lra_run hi hv opt a tr0 /\
  uf_propagate hi hv opt T bv rv u a tr = Ok (u', a', tr', cs) /\ In c cs /\ c <> [] /\ ~ valid_lemma T bv rv (l_st a') c.
Proof.
  assert (G : got (eout uf_T uf_bv uf_rv ex36b) = true) by (vm_compute; reflexivity).
  assert (C : match eout uf_T uf_bv uf_rv ex36b with Ok (_, a', _, cs) => (l_st a', cs) | _ => (store_new, []) end = (s36, [[mkLit 3 false]]))
    by (vm_compute; reflexivity).
  apply got_ok in G. destruct G as ([[[u' a'] tr'] cs] & E). rewrite E in C. injection C as Es ->.
  exists Hi, Hv, opt_default, H0, uf_T, uf_bv, uf_rv, (e_u uf_T uf_bv uf_rv ex36b), (e_t uf_T uf_bv uf_rv ex36b), a0, (trail_resize (trail_new 0 0) 3 6),
    u', a', tr', [[mkLit 3 false]], [mkLit 3 false].
  split; [exact uf_T_reach|]. split; [exact uf_maps|]. split; [apply (est_hist uf_T uf_bv uf_rv ex36b); vm_compute; reflexivity|].
  split; [exact a0_run|]. split; [exact E|]. split; [left; reflexivity|]. split; [discriminate|]. intros V.
  destruct (V I36 (fun i => i =? 0) (fun i => if i =? 5 then 1 else 0)%Q) as (l & [<-|[]] & L).
  - rewrite Es. intros i Hi'. destruct i as [|[|[|[|i]]]]; try (vm_compute in Hi'; discriminate Hi').
    + split; intros X; vm_compute in X; [discriminate X|]. discriminate X.
    + exfalso. destruct i; vm_compute in Hi'; discriminate Hi'.
  - intros t v J. simpl in J. repeat (destruct J as [J|J]; [injection J as <- <-; vm_compute; reflexivity|]). destruct J.
  - intros t l J. simpl in J. repeat (destruct J as [J|J]; [injection J as <- <-; vm_compute; split; congruence|]). destruct J.
  - vm_compute in L. discriminate L.
Qed.
Print Assumptions C36_refuted.

(** f(p,x) with p true, x 0, value 0 is recorded, kept by a backtrack to its level, and describes the trail *)
Definition ex37 : list ev := [EReg (VRat 2) (mkT 7 false); EReg (VRat 3) (mkT 8 false); dec (VBool 0) true 0; prp (VRat 0) false 0; prp (VRat 2) false 0;
  EProp; dec (VRat 1) false 3%Q; dec (VRat 3) false 1%Q; EProp; ETrail (TBacktrack 2)].
Example C37_nonvacuous :
  (forall t l, In (t, l) uf_bv -> lneg l = false) /\
  uf_history Hi Hv opt_default uf_T uf_bv uf_rv false (e_u uf_T uf_bv uf_rv ex37) (e_t uf_T uf_bv uf_rv ex37) /\
  u_fns (e_u uf_T uf_bv uf_rv ex37) = [(mkT 3 false, [([PB true; PR 0%Q], mkFa (PR 0%Q) (mkT 7 false) 1)])].
Proof.
  split; [intros t l J; simpl in J; repeat (destruct J as [J|J]; [injection J as <- <-; reflexivity|]); destruct J|].
  split; [apply (est_hist uf_T uf_bv uf_rv ex37); vm_compute; reflexivity|vm_compute; reflexivity].
Qed.
Lemma denotes_bool T bv rv tr t b : denotes T bv rv tr t (PB b) -> t <> true_term -> t <> false_term ->
  exists l, In (t, l) bv /\ mdef (t_bm tr) (lord l) = true /\ b = Bool.eqb (mval (t_bm tr) (lord l)) (negb (lneg l)).
Proof. intros D A B. inversion D; subst; try contradiction. eauto. Qed.
(** P(p) with p and P(p) true at level 0: the entry stays after a restart, when nothing is assigned. *)
Definition prp0 (v : var) (b : bool) (q : Q) : ev := ETrail (TPropagate v None 0 (b, q)).
Definition ex37b : list ev := [EReg (VBool 2) (mkT 13 false); prp0 (VBool 0) true 0; prp0 (VBool 2) true 0; EProp; ETrail TClear].
Theorem C37_refuted : exists hi hv opt H T bv rv u tr f m e,
  reach H T /\ (forall t l, In (t, l) bv -> lneg l = false) /\ uf_history hi hv opt T bv rv true u tr /\
  In (f, m) (u_fns u) /\ In e m /\ ~ entry_ok T bv rv tr f e.
Proof.
  exists Hi, Hv, opt_default, H0, uf_T, uf_bv, uf_rv, (e_u uf_T uf_bv uf_rv ex37b), (e_t uf_T uf_bv uf_rv ex37b), (mkT 9 false),
    [([PB true], mkFa (PB true) (mkT 13 false) 0)], ([PB true], mkFa (PB true) (mkT 13 false) 0).
  split; [exact uf_T_reach|]. split; [apply C37_nonvacuous|]. split; [apply (est_hist uf_T uf_bv uf_rv ex37b); vm_compute; reflexivity|].
  split; [vm_compute; left; reflexivity|]. split; [left; reflexivity|]. intros (_ & _ & _ & D). cbn [snd fa_app fa_val] in D.
  destruct (denotes_bool _ _ _ _ _ _ D) as (l & I & M & _); [discriminate|discriminate|].
  assert (Z : mdef (t_bm (e_t uf_T uf_bv uf_rv ex37b)) 2 = false) by (vm_compute; reflexivity).
  destruct I as [I|[I|[I|[]]]]; try discriminate I. injection I as <-. cbn [lord] in M. rewrite Z in M. discriminate M.
Qed.
Print Assumptions C37_refuted.

(** The Boolean term (>= x 1) with a negative literal: the value of the variable is recorded. *)
Definition neg_bv : list (term * lit) := [(mkT 6 false, mkLit 0 true); (mkT 13 false, mkLit 2 false)].
Definition ex37c : list ev := [EReg (VBool 2) (mkT 13 false); dec (VBool 0) true 0; dec (VBool 2) true 0; EProp].
Theorem C37_sign_refuted : exists hi hv opt H T bv rv u tr f m e,
  reach H T /\ uf_history hi hv opt T bv rv false u tr /\
  In (f, m) (u_fns u) /\ In e m /\ ~ entry_ok T bv rv tr f e.
Proof.
  exists Hi, Hv, opt_default, H0, uf_T, neg_bv, uf_rv, (e_u uf_T neg_bv uf_rv ex37c), (e_t uf_T neg_bv uf_rv ex37c), (mkT 9 false),
    [([PB true], mkFa (PB true) (mkT 13 false) 2)], ([PB true], mkFa (PB true) (mkT 13 false) 2).
  split; [exact uf_T_reach|]. split; [apply (est_hist uf_T neg_bv uf_rv ex37c); vm_compute; reflexivity|].
  split; [vm_compute; left; reflexivity|]. split; [left; reflexivity|]. intros (_ & _ & D & _). cbn [snd fa_app fa_val fst] in D.
  assert (G : get_args uf_T (mkT 13 false) = [mkT 6 false]) by (vm_compute; reflexivity). rewrite G in D.
  assert (Dx : denotes uf_T neg_bv uf_rv (e_t uf_T neg_bv uf_rv ex37c) (mkT 6 false) (PB true))
    by (remember (e_t uf_T neg_bv uf_rv ex37c) as tr eqn:W; clear W; inversion D; assumption).
  destruct (denotes_bool _ _ _ _ _ _ Dx) as (l & I & M & W); [discriminate|discriminate|].
  assert (Z : mval (t_bm (e_t uf_T neg_bv uf_rv ex37c)) 0 = true) by (vm_compute; reflexivity).
  destruct I as [I|[I|[]]]; try discriminate I. injection I as <-. cbn [lord lneg negb] in W. rewrite Z in W. discriminate W.
Qed.
Print Assumptions C37_sign_refuted.
