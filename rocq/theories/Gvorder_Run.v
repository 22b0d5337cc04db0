(** Generalized_vsids in a run of the solver: variables of level 0 that a restart unassigns and that the order does not
    get back follow from the remaining clauses by unit propagation. *)
From Coq Require Import List Arith ZArith QArith NArith Bool Lia Permutation Sorted.
From Verif Require Import Base Core_Model Analysis_Model Bool_Model Sat_Base Sat_Inv Sat_Trail Sat_Prop Sat_Bcp
  Sort_Proofs Subsumption_Proofs Sat_Analysis Spec_Multi Multi_Proofs
  Trail_Model Spec_Trail Trail_Proofs Solver_Model Spec_Sat Spec_Theory Theory_Inv Theory_Strict Theory_Sound Theory_Bool Comb_Bcp Theory_Level
  Lra_Watch Comb_Lra Order_Model Queue_Model Spec_Queue Spec_Order Queue_Proofs Gvsids_Model Spec_Gvsids Order_Proofs Gvsids_Proofs Gvorder_Model Gvorder_Proofs.
Import ListNotations.
Open Scope nat_scope.

(** ** reasons *)
Record ZO (d : db) (t : trail) : Prop := mkZO {
  zo_lvl : forall i, t_lvl t (VBool i) = Some 0 -> t_rsn t (VBool i) <> None;
  zo_rsn : forall i r, t_rsn t (VBool i) = Some r -> valid d r /\ once (tlit (tval t) i) (getc d r);
  zo_le : forall c, In c (learned d) -> NoDup c /\ c <> [] }.

Lemma forall2_in_r {A B} (R : A -> B -> Prop) l l' : Forall2 R l l' -> forall y, In y l' -> exists x, In x l /\ R x y.
Proof. induction 1 as [|x y l l' H H' IH]; intros z []; [subst; eauto with datatypes|]. destruct (IH z) as (u & A1 & A2); eauto with datatypes. Qed.
Lemma forall2_in_l {A B} (R : A -> B -> Prop) l l' : Forall2 R l l' -> forall x, In x l -> exists y, In y l' /\ R x y.
Proof. induction 1 as [|x y l l' H H' IH]; intros z []; [subst; eauto with datatypes|]. destruct (IH z) as (u & A1 & A2); eauto with datatypes. Qed.

Lemma ZO_perm d d' t : dbperm d d' -> ZO d t -> ZO d' t.
Proof.
  intros P [A B C]. split; auto.
  - intros i r E. destruct (B i r E) as [V O]. split; [now apply (dbperm_valid _ _ r P)|]. eapply once_perm; [|exact O]. now apply dbperm_getc.
  - intros c Hc. destruct P as [_ P]. destruct (forall2_in_r _ _ _ P c Hc) as (c0 & H0 & P0). destruct (C c0 H0) as [C1 C2]. split.
    + eapply Permutation_NoDup; eauto.
    + intros ->. apply Permutation_sym, Permutation_nil in P0. congruence.
Qed.
Lemma ZO_prop d t l ro k t1 : t_step t (TPropagate (lvar l) ro k (negb (lneg l), 0%Q)) = Ok t1 ->
  match ro with Some r => valid d r /\ once l (getc d r) | None => k <> 0 end -> ZO d t -> ZO d t1.
Proof.
  intros S J [A B C]. destruct (step_prop_inv _ _ _ _ _ _ S) as (K & L1 & L2 & BM & _). cbn [put lvar fst] in BM. unfold lvar in *. cbn [t_bm with_bm] in BM.
  split; auto.
  - intros i. rewrite L1, L2. destruct (Nat.eq_dec i (lord l)) as [->|N].
    + rewrite !vupd_eq. destruct ro; [discriminate|]. congruence.
    + rewrite !vupd_neq by congruence. apply A.
  - intros i r. rewrite L2. unfold tval. rewrite BM. cbn [mval set_value]. destruct (Nat.eq_dec i (lord l)) as [->|N].
    + rewrite vupd_eq, tlit_put. intros ->. exact J.
    + rewrite vupd_neq by congruence. rewrite tlit_upd by auto. apply B.
Qed.
Lemma ZO_same d t t1 : (forall i, t_lvl t1 (VBool i) <> None -> t_lvl t1 (VBool i) = t_lvl t (VBool i)) ->
  (forall i, t_lvl t1 (VBool i) <> None -> t_rsn t1 (VBool i) = t_rsn t (VBool i)) ->
  (forall i, t_rsn t1 (VBool i) <> None -> t_rsn t1 (VBool i) = t_rsn t (VBool i)) ->
  (forall i, t_rsn t1 (VBool i) <> None -> mval (t_bm t1) i = mval (t_bm t) i) -> ZO d t -> ZO d t1.
Proof.
  intros H1 H2 H3 H4 [A B C]. split; auto.
  - intros i E. rewrite H2 by congruence. apply A. rewrite <- H1; congruence.
  - intros i r E. unfold tlit, tval. rewrite H4 by congruence. apply B. rewrite <- H3; congruence.
Qed.
Lemma ZO_ops d t t' : prop_ops true d (fun _ => False) t t' -> ZO d t -> ZO d t'.
Proof.
  induction 1 as [t|t n t' Hn H IH|t l ro k t1 t' H1 H2 H3 H4 H5 IH|t x k q t1 t' H1 H2 H3 H4 IH]; intros Z; auto.
  - apply IH. revert Z. apply ZO_same; intros i; cbn -[Nat.ltb Nat.min]; destruct (i <? Nat.min n (mnum (t_bm t))); congruence.
  - apply IH. eapply ZO_prop; [exact H4| |exact Z]. destruct ro as [r|]; [split; apply H3|]. intros ->. now apply H3.
  - apply IH. revert Z. destruct (step_prop_inv _ _ _ _ _ _ H3) as (K & L1 & L2 & B & _). cbn in B.
    apply ZO_same; intros i; rewrite ?L1, ?L2, ?B, !vupd_neq by discriminate; auto.
Qed.
Lemma ZO_decide d t v x t1 : t_levels t <> [] -> t_step t (TDecide v x) = Ok t1 -> ZO d t -> ZO d t1.
Proof.
  intros N H [A B C]. cbn in H. injection H as <-. destruct v as [j|j].
  - split; auto.
    + intros i. cbn. destruct (Nat.eq_dec i j) as [->|X]; [rewrite vupd_eq|rewrite !vupd_neq by congruence; apply A].
      intros E. injection E as E. destruct (t_levels t); [congruence|discriminate].
    + intros i r. cbn. destruct (Nat.eq_dec i j) as [->|X]; [rewrite vupd_eq; discriminate|rewrite vupd_neq by congruence].
      intros E. unfold tval. cbn. rewrite tlit_upd by auto. now apply B.
  - split; auto.
Qed.
Lemma ZO_backtrack e d t k t1 : GI e d t -> trail_backtrack t k = Ok t1 -> ZO d t -> ZO d t1.
Proof.
  intros G H. destruct (GI_backtrack _ _ _ _ _ G H) as (_ & _ & _ & EV & _ & _ & _ & EL & ER & _).
  apply ZO_same; intros i.
  - rewrite EL. destruct (t_lvl t (VBool i)) as [j|]; [|congruence]. destruct (j <=? k); congruence.
  - rewrite EL, ER. destruct (t_lvl t (VBool i)) as [j|]; [|congruence]. destruct (j <=? k); congruence.
  - rewrite ER. destruct (t_lvl t (VBool i)) as [j|]; [|congruence]. destruct (j <=? k); congruence.
  - intros _. now rewrite EV.
Qed.
Lemma ZO_clear d t L : (forall c, In c L -> In c (learned d)) -> ZO d t -> ZO (mkDb (asserted d) L) (trail_clear t).
Proof. intros H [A B C]. split; cbn; try discriminate. auto. Qed.
Lemma ZO_learn d t d1 new : asserted d1 = asserted d -> learned d1 = learned d ++ new -> (forall c, In c new -> NoDup c /\ c <> []) -> ZO d t -> ZO d1 t.
Proof.
  intros E1 E2 H [A B C]. split; auto.
  - intros i r E. destruct (B i r E) as [V O]. destruct r as [j|j]; cbn [valid getc] in *.
    + rewrite E1. auto.
    + rewrite E2, app_length, app_nth1 by auto. split; [lia|auto].
  - rewrite E2. intros c Hc. apply in_app_iff in Hc. destruct Hc; auto.
Qed.
Lemma ZO_all d k : forall rs t t', (forall r, In r rs -> valid d r /\ NoDup (getc d r)) -> propagate_all d t k rs = Ok t' -> ZO d t ->
  ZO d t' /\ mnum (t_bm t') = mnum (t_bm t) /\ mnum (t_qm t') = mnum (t_qm t) /\ forall v, t_lvl t v <> None -> t_lvl t' v <> None.
Proof.
  induction rs as [|r rs IH]; intros t t' Hr H Z; cbn [propagate_all] in H.
  - injection H as <-. auto.
  - destruct (Hr r (or_introl eq_refl)) as [V N]. destruct (getc d r) as [|l0 rest] eqn:Ec; [discriminate|]. change (at_ (l0 :: rest) 0) with (Ok l0) in H. cbn [bind] in H.
    destruct (mdef (t_bm t) (lord l0)); cbn [bind] in H.
    + apply IH in H; auto. intros r' Hr'. apply Hr. now right.
    + rewrite <- step_put in H. destruct (t_step t _) as [t1| |] eqn:Es; cbn [bind] in H; try discriminate.
      assert (Z1 : ZO d t1).
      { eapply ZO_prop; [exact Es| |exact Z]. split; auto. rewrite Ec. apply once_head. inversion N; auto. }
      destruct (step_prop_inv _ _ _ _ _ _ Es) as (_ & L1 & _ & B1 & B2).
      apply IH in H; [|intros r' Hr'; apply Hr; now right|exact Z1]. destruct H as (A & B & C & D).
      split; auto. rewrite B, C, B1, B2. split; auto. split; auto. intros v Hv. apply D. rewrite L1. unfold vupd. destruct (var_eqb _ _); congruence.
Qed.
(** a literal of level 0 follows by unit propagation *)
Lemma zero_up e d t : GI e d t -> ZO d t -> forall i, t_lvl t (VBool i) = Some 0 -> up (fun c => In c (all_clauses d)) (tlit (tval t) i).
Proof.
  intros G Z.
  assert (P : forall n i, (Z.to_nat (mts (t_bm t) i) < n) -> t_lvl t (VBool i) = Some 0 -> up (fun c => In c (all_clauses d)) (tlit (tval t) i)).
  { induction n as [|n IH]; intros i Hn L; [lia|].
    destruct (t_rsn t (VBool i)) as [r|] eqn:E; [|exfalso; eapply (zo_lvl _ _ Z); eauto].
    destruct (gi_rsn _ _ _ G i r E) as (k & Lk & V & I1 & I2). assert (k = 0) by congruence. subst k.
    apply (up_i _ (getc d r)); [now apply getc_in|now apply (zo_rsn _ _ Z)|].
    intros x X1 X2. destruct (I2 x X1) as [->|(Y1 & Y2 & j & Y3 & Y4)]; [congruence|]. assert (j = 0) by lia. subst j.
    assert (Ex : tlit (tval t) (lord x) = neg x).
    { change (lord x) with (lord (neg x)). apply true_lit_of. now apply eval_lit_neg_true. }
    rewrite <- Ex. apply IH; [|exact Y3]. unfold older in Y2.
    assert (D : mdef (t_bm t) (lord x) = true) by (unfold tv, eval_lit in Y1; destruct (mdef (t_bm t) (lord x)); auto; discriminate).
    apply (gi_ts _ _ _ G) in D. lia. }
  intros i. apply (P (S (Z.to_nat (mts (t_bm t) i)))). lia.
Qed.

(** every clause of [C] is in the database, or a part of it is *)
Definition covered (C : clause -> Prop) (d : db) : Prop :=
  forall c, C c -> exists c', In c' (all_clauses d) /\ (Permutation c c' \/ (incl c' c /\ NoDup c')).
Lemma covered_perm C d d' : dbperm d d' -> covered C d -> covered C d'.
Proof.
  intros [P1 P2] H c Hc. destruct (H c Hc) as (c1 & H1 & H2).
  assert (X : exists c2, In c2 (all_clauses d') /\ Permutation c1 c2).
  { unfold all_clauses in *. apply in_app_iff in H1. destruct H1 as [H1|H1].
    - destruct (forall2_in_l _ _ _ P1 _ H1) as (c2 & A & B). exists c2. split; auto. apply in_app_iff. auto.
    - destruct (forall2_in_l _ _ _ P2 _ H1) as (c2 & A & B). exists c2. split; auto. apply in_app_iff. auto. }
  destruct X as (c2 & A & B). exists c2. split; auto. destruct H2 as [H2|[H2 H3]].
  - left. eapply Permutation_trans; eauto.
  - right. split; [|eapply Permutation_NoDup; eauto]. intros x Hx. apply H2. eapply Permutation_in; [apply Permutation_sym|]; eauto.
Qed.
Lemma covered_more C d d1 : (forall c, In c (all_clauses d) -> In c (all_clauses d1)) -> covered C d -> covered C d1.
Proof. intros H A c Hc. destruct (A c Hc) as (c' & B & D). eauto. Qed.

(** after propagate() without conflict, what follows by unit propagation is true *)
Lemma up_true C d t : PB (S (dl t)) d t -> units_done d t -> covered C d -> (forall x k, lev t x = Some k -> k <= dl t) ->
  (forall x b, tv t x = Some b -> exists k, lev t x = Some k) -> forall l, up C l -> tv t l = Some true.
Proof.
  intros P U Cv LE LS l H. induction H as [c l Hc Ho _ IH].
  assert (F : forall x, In x c -> x <> l -> tv t x = Some false).
  { intros x Hx N. specialize (IH x Hx N). unfold tv in *. unfold eval_lit in *. cbn in IH. destruct (mdef (t_bm t) (lord x)); [|discriminate]. destruct (lneg x), (mval (t_bm t) (lord x)); cbn in *; congruence. }
  destruct (Cv c Hc) as (c' & H1 & H2). destruct (in_getc d c' H1) as (r & V & E). pose proof (P r V) as Q. rewrite E in Q.
  assert (I : incl c' c). { destruct H2 as [H2|[H2 _]]; auto. intros x Hx. eapply Permutation_in; [apply Permutation_sym|]; eauto. }
  destruct c' as [|x [|y c']]; cbn in Q.
  - easy.
  - specialize (U x H1). destruct (lit_eq_dec x l) as [->|N]; [apply Q; auto; lia|]. 
    assert (tv t x = Some true) by (apply Q; auto; lia). rewrite (F x) in H; [discriminate|apply I; simpl; auto|auto].
  - assert (W : forall x y, pair_b t (S (dl t)) x y -> In x c -> x <> l -> tv t y = Some true).
    { intros x0 y0 W Hx N. pose proof (F x0 Hx N) as Fx. destruct (LS x0 false Fx) as (k & K). apply (W k Fx K). apply LE in K. lia. }
    assert (Ix : In x c) by (apply I; simpl; auto). assert (Iy : In y c) by (apply I; simpl; auto).
    destruct (lit_eq_dec x l) as [->|Nx].
    + destruct (lit_eq_dec y l) as [->|Ny]; [|apply (W y l); tauto]. exfalso. destruct H2 as [H2|[_ H2]].
      * destruct Ho as (rest & Ho & No). apply No. eapply Permutation_trans in Ho; [|apply Permutation_sym, H2].
        apply Permutation_cons_inv in Ho. eapply Permutation_in; [exact Ho|simpl; auto].
      * inversion H2; subst. simpl in *. tauto.
    + pose proof (W x y (proj1 Q) Ix Nx) as T. destruct (lit_eq_dec y l) as [->|Ny]; auto. rewrite (F y Iy Ny) in T. discriminate.
Qed.

Lemma derived_nodup (models : (nat -> bool) -> Prop) d t (G : GI (fun l => forall a, models a -> lit_holds a l = true) d t)
  (HD : forall c, In c (clauses_of d) -> ment models c) c c' lz :
  all_false t c -> ment models c -> derived d t c c' lz -> NoDup c'.
Proof.
  intros Hf He (c1 & rs & A & B). destruct (analyze_inv models d t G HD c c1 lz rs Hf He A) as (I1 & _).
  destruct B as [[-> ->]|[N B]]; [constructor|].
  unfold minimize in B. apply (minimize_loop_inv d t c1 c1 [] []) in B; [|reflexivity|apply sub_nil|intros x []].
  destruct B as [B1 B2]. eapply sub_nodup; eauto.
Qed.

Section Run.
Context {TS RS F : Type}.
Variables (th : theory TS) (fo : fops F) (good : F -> Prop) (rp : restart_policy RS) (hash : lit -> N).
Hypothesis laws : score_laws fo good.
Hypothesis closed : score_closed fo good.
Variables (cons_vars : nat -> nat -> list nat) (dec : nat -> list nat) (ed : nat -> nat -> bool).
Variables (tm : TS -> (nat -> bool) -> Prop) (PE PA PD : TS -> db -> trail -> Prop) (PC : nat -> TS -> db -> trail -> Prop).
Hypothesis HP : level_ok th tm PE PA PD PC.
Hypothesis HZ : forall fuel ts d t ts' d' t' cs, PE ts d t -> (trail_empty t = false -> units_done d t) ->
  th_propagate th fuel ts d t = Ok (ts', d', t', cs) -> prop_ops true d' (fun _ => False) t t'.
Hypothesis HB : forall ts d t, PD ts d t -> PB (S (dl t)) d t.
Hypothesis HQ : forall k ts d t, PC k ts d t -> R1 t.
Variables (cs : list clause) (n0 : nat).
Hypothesis HR : forall c l, In c cs -> In l c -> lord l < n0.
Variables (nb0 nq0 : nat).
Notation order := (gv_order fo cons_vars dec ed).
Notation he := (heur_of order rp).
Notation state := (solver (TS := TS) (HS := gvs (F := F) * RS)).
Notation models := (@models TS tm cs).
Notation gvi := (gvi fo good cons_vars dec nb0 nq0).
Notation SE := (SE tm PE cs n0).

(** the part of the invariant that the order needs *)
Record JO (C : clause -> Prop) (d : db) (t : trail) (h : gvs (F := F)) : Prop := mkJO {
  jo_z : ZO d t;
  jo_c : covered C d;
  jo_b : nb0 <= mnum (t_bm t);
  jo_q : nq0 <= mnum (t_qm t);
  jo_v : forall c l, In c (all_clauses d) -> In l c -> lord l < mnum (t_bm t);
  jo_g : gvi C t h }.

Lemma JO_propagate C ts0 fuel ts d t ts' d' t' ccs h : SE ts0 ts d t -> JO C d t h -> th_propagate th fuel ts d t = Ok (ts', d', t', ccs) -> JO C d' t' h.
Proof.
  intros (I & E & U) [A1 A2 A3 A4 AV A5] H. pose proof (HZ _ _ _ _ _ _ _ _ E U H) as P.
  destruct (lk_propagate _ _ _ _ _ _ HP _ _ _ _ _ _ _ _ E U H) as (_ & _ & P2 & _).
  destruct (prop_ops_kept _ _ _ _ (gi_tr _ _ _ (si_gi _ _ _ _ _ _ _ _ _ I)) P) as (_ & [N1 N2] & L).
  split; auto; try lia.
  - apply (ZO_ops d' t); auto. eapply ZO_perm; eauto.
  - eapply covered_perm; eauto.
  - intros c l Hc Hl. assert (X : exists c1, In c1 (all_clauses d) /\ Permutation c1 c).
    { unfold all_clauses in *. destruct P2 as [P2 P3]. apply in_app_iff in Hc. destruct Hc as [Hc|Hc].
      - destruct (forall2_in_r _ _ _ P2 _ Hc) as (c1 & X1 & X2). exists c1. split; auto. apply in_app_iff. auto.
      - destruct (forall2_in_r _ _ _ P3 _ Hc) as (c1 & X1 & X2). exists c1. split; auto. apply in_app_iff. auto. }
    destruct X as (c1 & X1 & X2). apply Permutation_sym in X2. pose proof (AV c1 l X1 (Permutation_in _ X2 Hl)). lia.
  - eapply gvi_keep; [| | | |exact A5]; auto; [lia|]. intros v Hv. destruct (t_lvl t v) as [j|] eqn:E'; [|congruence]. rewrite (L v j E'). discriminate.
Qed.
Lemma JO_pick C ts0 fuel ts d t ts' d' t' h h' o : SE ts0 ts d t -> JO C d t (fst h) -> th_propagate th fuel ts d t = Ok (ts', d', t', []) ->
  h_pick he h d' t' = (h', o) ->
  JO C d' t' (fst h') /\ match o with
  | Some v => is_def t' v = false /\ in_range (mnum (t_bm t')) (mnum (t_qm t')) v = true
  | None => forall v, in_range nb0 nq0 v = true -> is_def t' v = true
  end.
Proof.
  intros I J H E. pose proof (JO_propagate _ _ _ _ _ _ _ _ _ _ _ I J H) as [A1 A2 A3 A4 AV A5].
  destruct (SE_propagate th tm PE PA PD PC HP cs n0 HR _ _ _ _ _ _ _ _ _ I H) as (I1 & HD & _). destruct (HD eq_refl) as [P1 P2].
  pose proof (si_gi _ _ _ _ _ _ _ _ _ I1) as G. cbn [h_pick heur_of o_pick gv_order] in E.
  destruct (gv_pick fo dec ed (fst h) t') as [s' o'] eqn:Ep. injection E as <- <-.
  destruct (pick_ok fo good laws closed cons_vars dec ed nb0 nq0 C t' (fst h) s' o' A3 A4 (fun v => gi_def _ _ _ G v) A5 Ep) as [B1 B2]. cbn [fst].
  split; [split; auto|]. destruct o' as [v|]; [tauto|]. intros v Hv.
  destruct (B2 v) as [X|(l & -> & X)]; auto.
  - destruct v as [i|i]; cbn -[Nat.ltb] in *; apply Nat.ltb_lt; apply Nat.ltb_lt in Hv; lia.
  - assert (T : tv t' l = Some true).
    { eapply (up_true C d' t'); eauto.
      - intros x k K. now apply (gi_lev_le _ _ _ G) in K.
      - intros x b. now apply (gi_tv_lev _ _ _ G). }
    cbn. unfold tv, eval_lit in T. destruct (mdef (t_bm t') (lord l)); [auto|discriminate].
Qed.

Lemma getc_range d n : (forall c l, In c (all_clauses d) -> In l c -> lord l < n) -> forall r l, In l (getc d r) -> lord l < n.
Proof.
  intros H r l Hl. apply (H (getc d r) l); auto. unfold all_clauses. apply in_app_iff.
  destruct r as [i|i]; cbn [getc] in *; [left|right]; apply nth_In.
  - destruct (Nat.lt_ge_cases i (length (asserted d))) as [X|X]; auto. rewrite nth_overflow in Hl by lia. destruct Hl.
  - destruct (Nat.lt_ge_cases i (length (learned d))) as [X|X]; auto. rewrite nth_overflow in Hl by lia. destruct Hl.
Qed.
Lemma analyze_loop_from d t top : forall es s n acc s' n' acc', analyze_loop d t top es s n acc = Ok (s', n', acc') ->
  (forall c, In c acc -> exists r, c = getc d r) -> forall c, In c acc' -> exists r, c = getc d r.
Proof.
  induction es as [|[[v|v] [r|]] es IH]; intros s n acc s' n' acc' H HA; cbn [analyze_loop] in H; destruct (can_backtrack s n);
    try (injection H as <- <- <-; exact HA); try (eapply IH; [exact H|exact HA]).
  destruct (t_lvl t (VBool v)) as [k|]; cbn [value_of bind] in H; [|discriminate]. destruct (_ && _) in H; [|eapply IH; [exact H|exact HA]].
  destruct (resolve _ _ _ _ _ _) as [[s1 n1]| |]; cbn [bind] in H; try discriminate. eapply IH; [exact H|].
  intros c Hc. apply in_app_iff in Hc. destruct Hc as [Hc|[<-|[]]]; eauto.
Qed.
Lemma analyze_from d t c c1 lz rs : analyze d t c = Ok (c1, lz, rs) -> forall c0, In c0 rs -> exists r, c0 = getc d r.
Proof.
  unfold analyze. destruct (is_false _); cbn [assertb bind]; [|discriminate].
  destruct (init_loop t c [] 0) as [[s top]| |]; cbn [bind]; try discriminate.
  destruct (assigned_at t top) as [es| |]; cbn [bind]; try discriminate.
  destruct (analyze_loop d t top es s _ []) as [[[s' n'] acc]| |] eqn:E; cbn [bind]; try discriminate.
  destruct (finish t top s' n') as [[c' level]| |]; cbn [bind]; try discriminate.
  intros H. injection H as <- <- <-. eapply analyze_loop_from; [exact E|]. intros x [].
Qed.
Lemma resolved_all C t : forall rs (h : gvs * RS), nb0 <= mnum (t_bm t) -> nq0 <= mnum (t_qm t) -> (forall c l, In c rs -> In l c -> lord l < mnum (t_bm t)) -> gvi C t (fst h) ->
  gvi C t (fst (fold_left (fun h c => h_resolved he h t c) rs h)).
Proof.
  induction rs as [|r rs IH]; intros h H1 H2 HV G; [exact G|]. cbn [fold_left]. apply IH; auto; [intros c l Hc; apply HV; now right|]. cbn [h_resolved heur_of fst].
  apply (resolved_ok fo good laws closed); auto. intros l. apply HV. now left.
Qed.
Lemma analyze_order C d t : forall ccs (h : gvs * RS) acc lv lc lv' h', nb0 <= mnum (t_bm t) -> nq0 <= mnum (t_qm t) ->
  (forall c l, In c (all_clauses d) -> In l c -> lord l < mnum (t_bm t)) -> gvi C t (fst h) ->
  analyze_conflicts he d t h ccs acc lv = Ok (lc, lv', h') -> gvi C t (fst h').
Proof.
  induction ccs as [|c ccs IH]; intros h acc lv lc lv' h' H1 H2 HV G; cbn [analyze_conflicts].
  - intros H. injection H as _ _ <-. exact G.
  - destruct (analyze d t c) as [[[c1 l1] rs]| |] eqn:EA; cbn [bind]; try discriminate.
    destruct (match c1 with [] => Ok [] | _ :: _ => minimize d t c1 end) as [c2| |]; cbn [bind]; try discriminate.
    pose proof (resolved_all C t rs h H1 H2 (fun c0 l Hc => match analyze_from _ _ _ _ _ _ EA c0 Hc with ex_intro _ r E => fun Hl => getc_range d _ HV r l (eq_rect _ (fun x => In l x) Hl _ E) end) G) as G1. destruct lv as [l|]; [destruct (l1 <? l)%Z; [|destruct (l1 =? l)%Z]|]; intros H; eapply IH in H; eauto.
Qed.
Lemma learn_order C t : forall new d ts (h : gvs * RS) d' ts' h', nb0 <= mnum (t_bm t) -> nq0 <= mnum (t_qm t) -> (forall c l, In c new -> In l c -> lord l < mnum (t_bm t)) -> gvi C t (fst h) ->
  learn_loop th he t new d ts h = Ok (d', ts', h') -> gvi C t (fst h').
Proof.
  induction new as [|c new IH]; intros d ts h d' ts' h' H1 H2 HV G H; cbn [learn_loop] in H; [injection H as _ _ <-; exact G|].
  destruct (th_learned _ _ _ _ _); cbn [bind] in H; try discriminate. eapply IH in H; auto; [intros c' l Hc; apply HV; now right|]. cbn [h_learned heur_of fst].
  apply (learned_ok fo good laws closed); auto. intros l. apply HV. now left.
Qed.

Lemma JO_restart C (s s' : state) e : GI e (s_db s) (s_trail s) -> R1 (s_trail s) -> JO C (s_db s) (s_trail s) (fst (s_he s)) ->
  restart th he hash s = Ok s' -> exists C', JO C' (s_db s') (s_trail s') (fst (s_he s')).
Proof.
  intros G R [A1 A2 A3 A4 AV A5] H. unfold restart in H.
  destruct (remove_subsumed hash (s_old s) (learned (s_db s))) as [L| |] eqn:E; cbn [bind] in H; try discriminate.
  injection H as <-. cbn [s_he s_db s_trail].
  assert (Hl : s_old s <= length (learned (s_db s))).
  { unfold remove_subsumed in E. destruct (Nat.leb_spec (s_old s) (length (learned (s_db s)))); [lia|discriminate]. }
  destruct (remove_subsumed_ok hash _ _ Hl) as (L' & E' & S1 & S2 & S3). rewrite E in E'. injection E' as <-.
  assert (SL : forall c, In c L -> In c (learned (s_db s))) by (intros c Hc; eapply sub_in; eauto).
  exists (fun c => C c \/ In c (all_clauses (s_db s))).
  assert (CV : forall c, In c (all_clauses (s_db s)) -> exists c', In c' (all_clauses (mkDb (asserted (s_db s)) L)) /\ (c' = c \/ (incl c' c /\ NoDup c'))).
  { intros c Hc. unfold all_clauses in *. cbn [asserted learned]. apply in_app_iff in Hc. destruct Hc as [Hc|Hc].
    - exists c. split; auto. apply in_app_iff. auto.
    - destruct (S3 c Hc) as [X|(c' & X1 & X2 & _)]; [now apply (zo_le _ _ A1)|exists c; split; auto; apply in_app_iff; auto|].
      exists c'. split; [apply in_app_iff; auto|]. right. split; auto. apply (zo_le _ _ A1). auto. }
  split; cbn [mnum trail_clear t_bm t_qm model_clear_all]; auto.
  - now apply ZO_clear.
  - intros c [Hc|Hc].
    + destruct (A2 c Hc) as (c1 & B1 & B2). destruct (CV c1 B1) as (c2 & D1 & [->|[D2 D3]]); [eauto|]. exists c2. split; auto. right. split; auto.
      destruct B2 as [B2|[B2 _]]; [|eapply incl_tran; eauto]. intros x Hx. eapply Permutation_in; [apply Permutation_sym; exact B2|auto].
    + destruct (CV c Hc) as (c2 & D1 & [->|D2]); [|eauto]. exists c. split; auto.
  - intros c l Hc. apply AV. unfold all_clauses in *. cbn [asserted learned] in Hc. apply in_app_iff in Hc. apply in_app_iff. destruct Hc; auto.
  - destruct (gi_tr _ _ _ G) as (a & T). cbn [h_before_backtrack h_restart heur_of fst].
    eapply (before_ok fo good laws closed cons_vars dec ed nb0 nq0 C); [exact A3|exact A4|exact T|lia|..|exact A5]; cbn [mnum trail_clear t_bm t_qm model_clear_all]; auto.
    intros v j Hj Lj. assert (j = 0) by lia. subst j. right. destruct v as [i|x]; [|exfalso; eapply R; exact Hj].
    exists (tlit (tval (s_trail s)) i). split; [reflexivity|]. eapply up_mono; [|eapply zero_up; eauto]. cbn. auto.
Qed.

Lemma JO_backtrack C (s s' : state) e rs lz : GI e (s_db s) (s_trail s) -> JO C (s_db s) (s_trail s) (fst (s_he s)) ->
  (forall r, In r rs -> valid (s_db s) r /\ NoDup (getc (s_db s) r)) ->
  backtrack_with th he s rs lz = Ok s' -> JO C (s_db s') (s_trail s') (fst (s_he s')).
Proof.
  intros G [A1 A2 A3 A4 AV A5] Hr H. unfold backtrack_with in H. destruct (Z.ltb_spec lz 0); [discriminate|].
  destruct (at_ rs 0) as [r0| |] eqn:E0; cbn [bind] in H; try discriminate.
  destruct (map_res _ rs) as [bs| |] eqn:Eb; cbn [bind] in H; try discriminate.
  destruct (is_semantic_split (s_trail s) (getc (s_db s) r0)) as [sp| |] eqn:Es; cbn [bind] in H; try discriminate.
  set (k := Z.to_nat lz) in *. destruct (gi_tr _ _ _ G) as (a & T).
  assert (BT : forall t1, trail_backtrack (s_trail s) k = Ok t1 ->
    ZO (s_db s) t1 /\ mnum (t_bm t1) = mnum (t_bm (s_trail s)) /\ mnum (t_qm t1) = mnum (t_qm (s_trail s)) /\ t_levels t1 <> [] /\
    gvi C t1 (fst (h_before_backtrack he (s_he s) (s_trail s) k))).
  { intros t1 Et. destruct (GI_backtrack _ _ _ _ _ G Et) as (G1 & ED & _ & _ & _ & EN & EQ & EL & _).
    split; [exact (ZO_backtrack _ _ _ _ _ G Et A1)|]. split; auto. split; auto. split; [apply (gi_ne _ _ _ G1)|]. cbn [h_before_backtrack heur_of fst].
    eapply (before_ok fo good laws closed cons_vars dec ed nb0 nq0 C); [exact A3|exact A4|exact T|..|exact A5]; auto; try lia.
    - unfold trail_backtrack in Et. destruct (Nat.leb_spec k (dl (s_trail s))); [auto|discriminate].
    - intros v j Hj Lj. left. rewrite EL, Hj. destruct (Nat.leb_spec j k); [discriminate|lia]. }
  destruct sp.
  - destruct (forallb _ bs); cbn [assertb bind] in H; [|discriminate].
    destruct (getc (s_db s) r0) as [|l0 c'] eqn:Ec; [discriminate|].
    destruct (lit_level (s_trail s) l0) as [k0|] eqn:Ek; cbn [value_of bind] in H; [|discriminate].
    destruct (pick_split he (s_trail s) _ k0 l0 c') as [l| |] eqn:Ep; cbn [bind] in H; try discriminate.
    destruct (assigned_at (s_trail s) (k + 1)) as [es| |]; cbn [bind] in H; try discriminate.
    destruct (match last es (VBool 0, None) with (VRat _, _) => true | _ => false end); cbn [assertb bind] in H; [|discriminate].
    destruct (trail_backtrack (s_trail s) k) as [t1| |] eqn:Et; cbn [bind] in H; try discriminate.
    injection H as <-. cbn [s_he s_db s_trail]. destruct (BT t1 eq_refl) as (B1 & B2 & B3 & B4 & B5).
    split; auto.
    + eapply (ZO_decide _ t1); [exact B4|apply step_put_decide|exact B1].
    + cbn. lia.
    + cbn. lia.
    + cbn [trail_decide t_bm with_bm mnum set_value]. rewrite B2. exact AV.
    + eapply gvi_keep; [| | | |exact B5]; auto.
      intros v Hv. cbn. unfold vupd. destruct (var_eqb _ _); [discriminate|auto].
  - destruct (forallb negb bs); cbn [assertb bind] in H; [|discriminate].
    destruct (trail_backtrack (s_trail s) k) as [t1| |] eqn:Et; cbn [bind] in H; try discriminate.
    destruct (propagate_all (s_db s) t1 k rs) as [t2| |] eqn:Ep; cbn [bind] in H; try discriminate.
    injection H as <-. cbn [s_he s_db s_trail]. destruct (BT t1 eq_refl) as (B1 & B2 & B3 & B4 & B5).
    destruct (ZO_all _ _ _ _ _ Hr Ep B1) as (D1 & D2 & D3 & D4). split; auto; try lia.
    + rewrite D2, B2. exact AV.
    + eapply gvi_keep; [| | | |exact B5]; auto; lia.
Qed.

Lemma JO_conflict C ts0 (s s' : state) ccs : ccs <> [] -> SI tm (fun _ _ _ => True) true cs n0 ts0 (s_th s) (s_db s) (s_trail s) -> R1 (s_trail s) ->
  (forall c, In c ccs -> ment (models (s_th s)) c /\ all_false (s_trail s) c) ->
  JO C (s_db s) (s_trail s) (fst (s_he s)) ->
  on_conflict th he hash s ccs = Ok (Some s') -> exists C', JO C' (s_db s') (s_trail s') (fst (s_he s')).
Proof.
  intros NE I R Hc [A1 A2 A3 A4 AV A5] H. unfold on_conflict in H.
  destruct (analyze_conflicts he (s_db s) (s_trail s) (s_he s) ccs [] None) as [[[lc level] h]| |] eqn:EA; cbn [bind] in H; try discriminate.
  pose proof (analyze_order C _ _ _ _ _ _ _ _ _ A3 A4 AV A5 EA) as G1.
  apply (analyze_conflicts_ok he) in EA; [|auto]. destruct level as [lz|]; [|tauto]. destruct EA as (_ & _ & EA).
  assert (GG := si_gi _ _ _ _ _ _ _ _ _ I). assert (GDB := si_db _ _ _ _ _ _ _ _ _ I).
  destruct (existsb is_nil lc) eqn:EN; [discriminate|].
  assert (NN : forall c, In c lc -> NoDup c /\ c <> []).
  { intros c C1. split.
    - apply EA in C1. destruct C1 as [[X _]|(c0 & C1 & C2)]; [discriminate|]. destruct (Hc c0 C1). eapply derived_nodup; eauto.
    - intros ->. assert (X : existsb is_nil lc = true) by (apply existsb_exists; exists []; auto). congruence. }
  assert (NV : forall c l, In c lc -> In l c -> lord l < mnum (t_bm (s_trail s))).
  { intros c l C1 C2. apply EA in C1. destruct C1 as [[X _]|(c0 & C1 & C3)]; [discriminate|]. destruct (Hc c0 C1) as [M1 M2].
    destruct (derived_inv _ _ _ GG GDB _ _ _ M2 M1 C3) as (AF & _). apply AF in C2. destruct (gi_tv_lev _ _ _ GG _ _ C2) as (k & K).
    destruct (gi_tr _ _ _ GG) as (a & [_ T']). destruct (sh_num _ _ T') as [Nb _]. unfold lev in K. rewrite (sh_lvl _ _ T') in K.
    destruct (at_rec a (lvar l)) as [gg|] eqn:Z; [|discriminate]. apply (sh_ok _ _ T') in Z. destruct Z as (Z & _). cbn in Z. apply Nat.ltb_lt in Z. congruence. }
  destruct (learn th he (s_db s) (s_trail s) (s_th s) h lc) as [[[[d1 ts1] h1] rs]| |] eqn:EL; cbn [bind] in H; try discriminate.
  pose proof EL as EL'. apply (learn_ok th he) in EL'. destruct EL' as (new & B1 & B2 & _ & B3 & B4).
  assert (G2 : gvi C (s_trail s) (fst h1)).
  { unfold learn in EL. destruct (drop_splits _ _) as [cs1| |] eqn:ED; cbn [bind] in EL; try discriminate.
    destruct (learn_loop th he (s_trail s) cs1 (s_db s) (s_th s) h) as [[[d2 ts2] h2]| |] eqn:ELL; cbn [bind] in EL; try discriminate.
    injection EL as -> -> -> ER. eapply learn_order in ELL; eauto. intros c l Hc1. apply (NV c l).
    apply learn_loop_db in ELL. destruct ELL as [_ X]. rewrite B2 in X. apply app_inv_head in X. subst cs1. now apply B4. }
  assert (GL : GI (entl tm cs (s_th s)) d1 (s_trail s)).
  { replace d1 with (mkDb (asserted (s_db s)) (learned (s_db s) ++ new)) by (destruct d1; cbn in *; congruence). now apply GI_app. }
  assert (JL : JO C d1 (s_trail s) (fst h1)).
  { split; auto.
    - eapply ZO_learn; [exact B1|exact B2| |exact A1]. intros c Hin. apply NN. now apply B4.
    - eapply covered_more; [|exact A2]. intros c. unfold all_clauses. rewrite B1, B2, !in_app_iff. tauto.
    - intros c l. unfold all_clauses. rewrite B1, B2, !in_app_iff. intros [X|[X|X]] Hl; [apply (AV c); auto; apply in_app_iff; auto..|apply (NV c); auto; now apply B4]. }
  destruct (h_should_restart he h1).
  - destruct (restart th he hash (mkS d1 (s_trail s) ts1 h1 (s_old s))) as [s2| |] eqn:ER; cbn [bind] in H; try discriminate.
    injection H as <-. eapply JO_restart in ER; [exact ER|exact GL|exact R|exact JL].
  - cbn [value_of bind] in H.
    destruct (backtrack_with th he (mkS d1 (s_trail s) ts1 h1 (s_old s)) rs lz) as [s2| |] eqn:EB; cbn [bind] in H; try discriminate.
    injection H as <-. exists C. eapply JO_backtrack in EB; [exact EB|exact GL|exact JL|].
    cbn [s_db]. rewrite B3. intros r Hr. apply in_map_iff in Hr. destruct Hr as (i & <- & Hi). apply in_seq in Hi. cbn [valid getc].
    rewrite B2, app_length. split; [lia|]. rewrite app_nth2 by lia. apply NN. apply B4. apply nth_In. lia.
Qed.

Lemma JO_step C ts0 fuel (s s' : state) : SE ts0 (s_th s) (s_db s) (s_trail s) -> JO C (s_db s) (s_trail s) (fst (s_he s)) ->
  step th he hash fuel s = Ok (s', None) ->
  SE ts0 (s_th s') (s_db s') (s_trail s') /\ exists C', JO C' (s_db s') (s_trail s') (fst (s_he s')).
Proof.
  intros I J H. split.
  - apply (SE_step th he hash tm PE PA PD PC HP cs n0 HR ts0) in H; auto. intros ts d t h v E1 E2.
    destruct (JO_pick C _ _ _ _ _ _ _ _ _ _ _ I J E1 E2) as [_ X]. exact X.
  - unfold step in H.
    destruct (th_propagate th fuel (s_th s) (s_db s) (s_trail s)) as [[[[ts1 d1] t1] ccs]| |] eqn:EP; cbn [bind] in H; try discriminate.
    destruct (SE_propagate th tm PE PA PD PC HP cs n0 HR _ _ _ _ _ _ _ _ _ I EP) as (I1 & HD & HCC & HC).
    destruct ccs as [|c ccs].
    + cbn [s_he] in H. destruct (h_pick he (s_he s) d1 t1) as [h1 ov] eqn:Eh. destruct ov as [v|]; [|discriminate].
      destruct (JO_pick C _ _ _ _ _ _ _ _ _ _ _ I J EP Eh) as [[A1 A2 A3 A4 AV A5] [X1 X2]].
      destruct (th_decide th ts1 d1 t1 v) as [[ts2 t2]| |] eqn:ED; cbn [bind] in H; try discriminate. injection H as <-.
      cbn [s_th s_db s_trail s_he]. pose proof (si_gi _ _ _ _ _ _ _ _ _ I1) as G.
      assert (U : t_lvl t1 v = None).
      { destruct (t_lvl t1 v) eqn:E; auto. assert (Y : is_def t1 v = true) by (apply (gi_def _ _ _ G); congruence). congruence. }
      destruct (lk_decide _ _ _ _ _ _ HP _ _ _ _ _ _ (proj1 (HD eq_refl)) U X2 ED) as (_ & _ & x & P3).
      exists C. pose proof (gi_ne _ _ _ G) as NE. pose proof (ZO_decide d1 _ _ _ _ NE P3 A1) as Z. cbn in P3. injection P3 as <-. split; auto.
      * destruct v; cbn; lia.
      * destruct v; cbn; lia.
      * destruct v; exact AV.
      * eapply gvi_keep; [| | | |exact A5]; auto; [destruct v; cbn; lia|destruct v; cbn; lia|].
        intros w Hw. unfold trail_decide. cbn [t_lvl]. unfold vupd. destruct (var_eqb _ _); [discriminate|]. destruct v; exact Hw.
    + destruct (Nat.eqb_spec (dl t1) 0) as [E0|E0]; [discriminate|].
      destruct (on_conflict th he hash (mkS d1 t1 ts1 (s_he s) (s_old s)) (c :: ccs)) as [o1| |] eqn:EO; cbn [bind] in H; try discriminate.
      destruct o1 as [s2|]; [|discriminate]. injection H as <-.
      assert (NE : c :: ccs <> []) by discriminate. destruct (HCC NE) as [P1 P2].
      eapply (JO_conflict C ts0) in EO; [exact EO|exact NE|exact I1|eapply HQ; exact P1|exact HC|].
      cbn [s_db s_trail s_he]. eapply JO_propagate; eauto.
Qed.

Lemma JO_reach s0 s C : SE (s_th s0) (s_th s0) (s_db s0) (s_trail s0) -> JO C (s_db s0) (s_trail s0) (fst (s_he s0)) -> reach th he hash s0 s ->
  SE (s_th s0) (s_th s) (s_db s) (s_trail s) /\ exists C', JO C' (s_db s) (s_trail s) (fst (s_he s)).
Proof.
  intros I J R. induction R as [|s fuel s' R IH H]; [eauto|]. destruct IH as (I1 & C1 & J1). eapply JO_step; eauto.
Qed.

Lemma gv_order_inv t0 ts0 old r0 : fresh_trail t0 -> (0 <= mgts (t_bm t0))%Z -> n0 <= mnum (t_bm t0) -> PE ts0 (mkDb cs []) t0 ->
  nb0 = mnum (t_bm t0) -> nq0 = mnum (t_qm t0) ->
  let s0 := mkS (mkDb cs []) t0 ts0 (gv_start fo cons_vars (mkDb cs []) t0, r0) old in
  forall s, reach th he hash s0 s -> SE ts0 (s_th s) (s_db s) (s_trail s) /\ exists C, JO C (s_db s) (s_trail s) (fst (s_he s)).
Proof.
  intros F0 FG FN P N1 N2 s0 s R. apply (JO_reach s0 s (fun _ => False)); auto.
  - now apply start_SE.
  - split; cbn [s0 s_db s_trail s_he fst]; try lia.
    + split; cbn; [intros i; rewrite (ft_lvl _ F0); discriminate|intros i r; rewrite (ft_rsn _ F0); discriminate|tauto].
    + intros c [].
    + intros c l Hc Hl. unfold all_clauses in Hc. cbn in Hc. rewrite app_nil_r in Hc. apply HR in Hl; auto. lia.
    + rewrite N1, N2. apply start_ok; auto. intros c l Hc Hl. cbn in Hc. rewrite app_nil_r in Hc. apply HR in Hl; auto. lia.
Qed.
(** the order does its duty *)
Lemma gv_order_ok t0 ts0 old r0 : fresh_trail t0 -> (0 <= mgts (t_bm t0))%Z -> n0 <= mnum (t_bm t0) -> PE ts0 (mkDb cs []) t0 ->
  nb0 = mnum (t_bm t0) -> nq0 = mnum (t_qm t0) ->
  let s0 := mkS (mkDb cs []) t0 ts0 (gv_start fo cons_vars (mkDb cs []) t0, r0) old in
  forall s fuel ts d t h o, reach th he hash s0 s -> th_propagate th fuel (s_th s) (s_db s) (s_trail s) = Ok (ts, d, t, []) ->
    h_pick he (s_he s) d t = (h, o) ->
    match o with
    | Some v => is_def t v = false /\ in_range (mnum (t_bm t)) (mnum (t_qm t)) v = true
    | None => forall v, in_range nb0 nq0 v = true -> is_def t v = true
    end.
Proof.
  intros F0 FG FN P N1 N2 s0 s fuel ts d t h o R E1 E2. destruct (gv_order_inv t0 ts0 old r0 F0 FG FN P N1 N2 s R) as (I & C & J).
  eapply JO_pick; eauto.
Qed.
(** none of its assertions fails *)
Lemma gv_order_alive t0 ts0 old r0 : fresh_trail t0 -> (0 <= mgts (t_bm t0))%Z -> n0 <= mnum (t_bm t0) -> PE ts0 (mkDb cs []) t0 ->
  nb0 = mnum (t_bm t0) -> nq0 = mnum (t_qm t0) -> sure cons_vars dec nq0 ->
  let s0 := mkS (mkDb cs []) t0 ts0 (gv_start fo cons_vars (mkDb cs []) t0, r0) old in
  forall s, reach th he hash s0 s -> fst (fst (s_he s)) <> None /\
    forall fuel ts d t h o, th_propagate th fuel (s_th s) (s_db s) (s_trail s) = Ok (ts, d, t, []) -> h_pick he (s_he s) d t = (h, o) -> fst (fst h) <> None.
Proof.
  intros F0 FG FN P N1 N2 SU s0 s R. destruct (gv_order_inv t0 ts0 old r0 F0 FG FN P N1 N2 s R) as (I & C & J).
  assert (X : forall t h, gvi C t h -> fst h <> None). { intros t h G. unfold Gvorder_Proofs.gvi in G. destruct (fst h); [discriminate|tauto]. }
  split; [eapply X, J|]. intros fuel ts d t h o E1 E2. destruct (JO_pick _ _ _ _ _ _ _ _ _ _ _ _ I J E1 E2) as [J1 _]. eapply X, J1.
Qed.
End Run.
