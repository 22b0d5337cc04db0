(** A contract for plugins whose invariant speaks about decision levels, and soundness of unsat answers from it. *)
From Coq Require Import List Arith ZArith QArith NArith Bool Lia Permutation Sorted.
From Verif Require Import Base Core_Model Analysis_Model Bool_Model Sat_Base Sat_Inv Sat_Trail Sat_Prop Sat_Bcp
  Sort_Proofs Subsumption_Proofs Sat_Analysis Spec_Multi Multi_Proofs
  Trail_Model Spec_Trail Trail_Proofs Solver_Model Spec_Sat Spec_Theory Theory_Inv Theory_Strict Theory_Sound Theory_Bool Comb_Bcp.
Import ListNotations.
Open Scope nat_scope.

(** [PE] before propagate(), [PA] after a backtrack and while learned clauses are asserted, [PD] after a propagate() without conflict, [PC k] after a conflict, for the levels below [k] *)
Record level_ok {TS} (th : theory TS) (tm : TS -> (nat -> bool) -> Prop)
       (PE PA PD : TS -> db -> trail -> Prop) (PC : nat -> TS -> db -> trail -> Prop) : Prop := mkLevel {
  lk_enter : forall ts d t, PA ts d t -> PE ts d t;
  lk_propagate : forall fuel ts d t ts' d' t' cs, PE ts d t -> (trail_empty t = false -> units_done d t) ->
    th_propagate th fuel ts d t = Ok (ts', d', t', cs) ->
    (cs = [] -> PD ts' d' t' /\ units_done d' t') /\ (cs <> [] -> PC (dl t') ts' d' t') /\
    same_clauses d d' /\ refines tm (mnum (t_bm t)) ts ts' /\
    prop_ops true d' (fun l => lemma_of tm ts' d [l]) t t' /\
    (forall c, In c cs -> lemma_of tm ts' d c /\ forall l, In l c -> eval_lit (t_bm t') l = Some false);
  lk_decide : forall ts d t v ts' t', PD ts d t -> t_lvl t v = None ->
    in_range (mnum (t_bm t)) (mnum (t_qm t)) v = true ->
    th_decide th ts d t v = Ok (ts', t') ->
    PE ts' d t' /\ same_models tm ts ts' /\ exists x, t_step t (TDecide v x) = Ok t';
  lk_learned : forall k ts d t c ts', PC k ts d t -> c <> [] ->
    (forall l, In l c -> eval_lit (t_bm t) l = Some false) ->
    (forall l, In l (firstn 2 c) -> exists j, lev t l = Some j /\ k <= j) ->
    th_learned th ts (mkDb (asserted d) (learned d ++ [c])) t (CLearned (length (learned d))) = Ok ts' ->
    PC k ts' (mkDb (asserted d) (learned d ++ [c])) t /\ same_models tm ts ts';
  lk_mono : forall k k' ts d t, k <= k' -> PC k' ts d t -> PC k ts d t;
  lk_backtrack : forall ts d t k t', PC k ts d t -> k < dl t -> trail_backtrack t k = Ok t' ->
    PA (th_before_backtrack th ts d t k) d t' /\ same_models tm ts (th_before_backtrack th ts d t k);
  lk_undo : forall ts d t k t', PC (S k) ts d t -> S k <= dl t -> trail_backtrack t k = Ok t' ->
    PD (th_before_backtrack th ts d t k) d t' /\ same_models tm ts (th_before_backtrack th ts d t k);
  lk_assert : forall ts d t l r t', PA ts d t -> lord l < mnum (t_bm t) -> lit_level t l = None ->
    is_ref d r ->
    t_step t (TPropagate (lvar l) (Some r) (dl t) (negb (lneg l), 0%Q)) = Ok t' -> PA ts d t';
  lk_split : forall ts d t l t', PD ts d t -> lord l < mnum (t_bm t) -> lit_level t l = None ->
    t_step t (TDecide (lvar l) (negb (lneg l), 0%Q)) = Ok t' -> PE ts d t';
  lk_restart : forall ts d t L, PC 0 ts d t -> (forall c, In c L -> In c (learned d)) ->
    let ts1 := th_before_backtrack th ts d t 0 in
    let d1 := mkDb (asserted d) L in
    let ts2 := th_restart th ts1 d1 (trail_clear t) in
    PE ts2 d1 (trail_clear t) /\ same_models tm ts ts2 }.

Lemma derived_sorted (models : (nat -> bool) -> Prop) d t (G : GI (fun l => forall a, models a -> lit_holds a l = true) d t)
  (HD : forall c, In c (clauses_of d) -> ment models c) c c' lz :
  all_false t c -> ment models c -> derived d t c c' lz -> StronglySorted (lev_ge t) c'.
Proof.
  intros Hf He (c1 & rs & A & B). destruct (analyze_inv models d t G HD c c1 lz rs Hf He A) as (I1 & I2 & I3 & I4 & I5).
  destruct B as [[-> ->]|[N B]]; [constructor|].
  unfold minimize in B. apply (minimize_loop_inv d t c1 c1 [] []) in B; [|reflexivity|apply sub_nil|intros x []].
  destruct B as [B1 B2]. eapply sub_sorted; eauto.
Qed.

Lemma split_dec t c : {split_clause t c} + {~ split_clause t c}.
Proof.
  destruct c as [|l0 [|l1 c]]; [right; intros (? & ? & ? & ? & E & _); discriminate..|].
  destruct (lit_level t l0) as [k|] eqn:K0; [|right; intros (? & ? & ? & ? & E & E1 & E2); injection E as <- <- <-; unfold lit_level in *; congruence].
  destruct (lit_level t l1) as [j|] eqn:K1; [|right; intros (? & ? & ? & ? & E & E1 & E2); injection E as <- <- <-; unfold lit_level in *; congruence].
  destruct (Nat.eq_dec k j) as [<-|N].
  - left. exists l0, l1, c, k. auto.
  - right. intros (? & ? & ? & ? & E & E1 & E2). injection E as <- <- <-. unfold lit_level in *; congruence.
Qed.

(** levels of the first two literals of a learned clause *)
Lemma first_two (models : (nat -> bool) -> Prop) d t (G : GI (fun l => forall a, models a -> lit_holds a l = true) d t)
  (HD : forall c, In c (clauses_of d) -> ment models c) (GSS : GS d t) c c' lz :
  all_false t c -> ment models c -> derived d t c c' lz -> (0 <= lz)%Z ->
  forall l, In l (firstn 2 c') -> exists j, lev t l = Some j /\
    (if split_dec t c' then S (Z.to_nat lz) else Z.to_nat lz) <= j.
Proof.
  intros Hf He D Hz l Hl.
  pose proof (derived_sorted _ _ _ G HD _ _ _ Hf He D) as S. destruct (derived_inv _ _ _ G HD _ _ _ Hf He D) as (F & _ & _).
  destruct (derived_strict _ _ _ G HD GSS _ _ _ Hf He D Hz) as [D1 D2].
  assert (LS : forall x, In x c' -> exists k, lev t x = Some k) by (intros; eapply (lev_some models d t G); eauto).
  assert (Hl' : In l c') by (destruct c' as [|x [|y r]]; cbn in Hl |- *; tauto).
  destruct (LS l Hl') as (j & J). exists j. split; auto. destruct (split_dec t c') as [SP|NS].
  - pose proof SP as (l0 & l1 & rest & k & E & K0 & K1). pose proof (D1 SP l0 (l1 :: rest) k E K0) as Q.
    subst c'. cbn in Hl. unfold lev in J. destruct Hl as [<-|[<-|[]]]; [rewrite K0 in J|rewrite K1 in J]; injection J as <-; lia.
  - destruct (Z.eq_dec lz 0) as [->|NZ]; [cbn; lia|].
    destruct c' as [|l0 rest]; [easy|]. destruct (D2 NS l0 rest eq_refl ltac:(lia)) as (x & X1 & X2 & X3).
    destruct rest as [|l1 rest]; [easy|].
    destruct (LS l0 ltac:(simpl; auto)) as (k0 & K0). destruct (LS l1 ltac:(simpl; auto)) as (k1 & K1).
    assert (A1 : k1 <= k0) by (eapply (sorted_head t); [exact S|reflexivity|simpl; auto|exact K0|exact K1]).
    assert (A2 : Z.to_nat lz <= k1).
    { destruct X1 as [<-|X1]; [rewrite X3 in K1; injection K1 as <-; lia|]. inversion S as [|? ? S1 S2]; subst.
      eapply (sorted_head t (l1 :: rest)); [exact S1|reflexivity|exact X1|exact K1|exact X3]. }
    cbn in Hl. destruct Hl as [<-|[<-|[]]]; [rewrite K0 in J|rewrite K1 in J]; injection J as <-; lia.
Qed.

Section Run.
Context {TS HS : Type}.
Variables (th : theory TS) (he : heur HS) (hash : lit -> N).
Variables (tm : TS -> (nat -> bool) -> Prop) (PE PA PD : TS -> db -> trail -> Prop) (PC : nat -> TS -> db -> trail -> Prop).
Hypothesis HP : level_ok th tm PE PA PD PC.
Variables (cs : list clause) (n0 : nat).
Hypothesis HR : forall c l, In c cs -> In l c -> lord l < n0.
Notation state := (solver (TS := TS) (HS := HS)).
Notation SI := (@SI TS tm (fun _ _ _ => True) true cs n0).
Notation models := (@models TS tm cs).
Definition SE (ts0 ts : TS) (d : db) (t : trail) : Prop := SI ts0 ts d t /\ PE ts d t /\ (trail_empty t = false -> units_done d t).

Lemma units_perm d d' t t' : dbperm d d' -> (forall x j, lev t x = Some j -> lev t' x = Some j) -> units_done d t -> units_done d' t'.
Proof.
  intros P L U u Hu. apply L, U. destruct (in_getc d' _ Hu) as (r & V & E).
  pose proof (dbperm_getc _ _ r P) as Q. rewrite E in Q. apply Permutation_sym, Permutation_length_1_inv in Q. rewrite <- Q.
  apply getc_in. now apply (dbperm_valid _ _ r P).
Qed.
Lemma prop_ops_lev d e : forall t t', (exists a, tinv t a) -> prop_ops true d e t t' -> dl t' = dl t /\ forall x j, lev t x = Some j -> lev t' x = Some j.
Proof.
  intros t t' T H. revert T. induction H as [t|t n t' Hn H IH|t l ro k t1 t' H1 H2 H3 H4 H5 IH|t x k q t1 t' H1 H2 H3 H4 IH]; intros (a & T); auto.
  - destruct (inv_step t a (TResize n (mnum (t_qm t))) T) as (t1' & E & T').
    { destruct T as [_ T]. destruct (sh_num _ _ T) as [E1 E2]. cbn. lia. }
    cbn [t_step] in E. injection E as <-. destruct IH as [A B]; [eauto|]. split; [exact A|].
    intros x j Hx. apply B. destruct T as [_ T], T' as [_ T']. unfold lev in *. rewrite (sh_lvl _ _ T'), <- Hx, (sh_lvl _ _ T). reflexivity.
  - destruct (step_prop_inv _ _ _ _ _ _ H4) as (K & L1 & _).
    destruct (inv_step t a (TPropagate (lvar l) ro k (negb (lneg l), 0%Q)) T) as (t1' & E & T').
    { destruct T as [_ T]. split; [|split].
      * destruct (sh_num _ _ T) as [<- _]. cbn. now apply Nat.ltb_lt.
      * eapply gi_rec_none; eauto.
      * now rewrite <- (sh_dl _ _ T). }
    rewrite H4 in E. injection E as <-. destruct IH as [A B]; [eauto|]. split.
    + rewrite A. destruct T as [_ T], T' as [_ T']. rewrite (sh_dl _ _ T), (sh_dl _ _ T'). reflexivity.
    + intros x j Hx. apply B. unfold lev in *. rewrite L1, vupd_neq; auto. intros E'. unfold lit_level in H2. congruence.
  - destruct (step_prop_inv _ _ _ _ _ _ H3) as (K & L1 & _).
    destruct (inv_step t a (TPropagate (VRat x) None k (true, q)) T) as (t1' & E & T').
    { destruct T as [_ T]. split; [|split].
      * destruct (sh_num _ _ T) as [_ <-]. cbn. now apply Nat.ltb_lt.
      * eapply gi_rec_none; eauto.
      * now rewrite <- (sh_dl _ _ T). }
    rewrite H3 in E. injection E as <-. destruct IH as [A B]; [eauto|]. split.
    + rewrite A. destruct T as [_ T], T' as [_ T']. rewrite (sh_dl _ _ T), (sh_dl _ _ T'). reflexivity.
    + intros z j Hz. apply B. unfold lev in *. rewrite L1, vupd_neq; auto. unfold lvar. discriminate.
Qed.

Lemma SE_propagate ts0 fuel ts d t ts' d' t' ccs : SE ts0 ts d t ->
  th_propagate th fuel ts d t = Ok (ts', d', t', ccs) ->
  SI ts0 ts' d' t' /\ (ccs = [] -> PD ts' d' t' /\ units_done d' t') /\
  (ccs <> [] -> PC (dl t') ts' d' t' /\ (1 <= dl t' -> units_done d' t')) /\
  forall c, In c ccs -> ment (models ts') c /\ all_false t' c.
Proof.
  intros (I & E & U) H. destruct (lk_propagate _ _ _ _ _ _ HP _ _ _ _ _ _ _ _ E U H) as (P0 & P0' & P2 & [R1 R2] & P4 & P5).
  assert (Hm : forall a, models ts' a -> models ts a) by (intros a [A B]; split; auto).
  assert (HA : forall a, models ts' a -> all_hold a (all_clauses d)).
  { intros a Ha c Hc. eapply (si_db _ _ _ _ _ _ _ _ _ I); eauto. }
  destruct (prop_ops_lev _ _ _ _ (gi_tr _ _ _ (si_gi _ _ _ _ _ _ _ _ _ I)) P4) as [ED EL].
  split; [|split; [exact P0|split]].
  - split; auto.
    + eapply (prop_ops_gi true); [|exact P4|].
      * intros l Hl a Ha. destruct (Hl a) as (x & [<-|[]] & X); [apply Ha|now apply HA|exact X].
      * eapply GI_perm; [exact P2|]. eapply GI_ent; [|apply (si_gi _ _ _ _ _ _ _ _ _ I)]. intros l Hl a Ha. apply Hl. auto.
    + destruct P2 as [P2 _]. eapply Forall2_perm_trans; [apply (si_as _ _ _ _ _ _ _ _ _ I)|exact P2].
    + intros c a Hc Ha. destruct P2 as [_ P2].
      eapply (all_hold_perm a (learned d)); eauto. intros c' Hc'. eapply si_le; eauto.
    + pose proof (prop_ops_mnum true _ _ _ _ P4). pose proof (si_num _ _ _ _ _ _ _ _ _ I). lia.
    + intros X. destruct (si_ex _ _ _ _ _ _ _ _ _ I X) as (a & A1 & A2). destruct (R2 a A1) as (a' & B1 & B2).
      exists a'. split; auto. intros c Hc. destruct (A2 c Hc) as (l & L1 & L2). exists l. split; auto.
      unfold lit_holds in *. rewrite B2; auto. pose proof (HR c l Hc L1). pose proof (si_num _ _ _ _ _ _ _ _ _ I). lia.
    + intros ST. eapply (prop_ops_gs true _ (entl tm cs ts')); [exact ST| |exact P4| |].
      * intros l Hl a Ha. destruct (Hl a) as (x & [<-|[]] & X); [apply Ha|now apply HA|exact X].
      * eapply GI_perm; [exact P2|]. eapply GI_ent; [|apply (si_gi _ _ _ _ _ _ _ _ _ I)]. intros l Hl a Ha. apply Hl. auto.
      * eapply GS_perm; [exact P2|]. now apply (si_gs _ _ _ _ _ _ _ _ _ I).
  - intros N. split; [now apply P0'|]. intros D. eapply units_perm; [exact P2|exact EL|]. apply U.
    destruct (trail_empty t) eqn:TE; auto. exfalso. unfold trail_empty in TE. unfold dl in ED, D.
    destruct (t_levels t) as [|[|] [|]]; try discriminate. cbn in ED. lia.
  - intros c Hc. destruct (P5 c Hc) as [A B]. split; auto. intros a Ha. apply A; [apply Ha|now apply HA].
Qed.

Lemma nonempty_step t o t' : t_step t o = Ok t' -> match o with TDecide _ _ | TPropagate _ _ _ _ => True | _ => False end ->
  t_levels t <> [] -> trail_empty t' = false.
Proof.
  destruct o as [v x|v ro k x| | |]; cbn [t_step]; intros H [] N.
  - injection H as <-. unfold trail_empty, trail_decide. destruct v; cbn; destruct (t_levels t); congruence.
  - unfold trail_propagate in H. destruct (k <=? dl (put t v x)); [|discriminate]. injection H as <-. unfold trail_empty. cbn [t_levels].
    assert (E : t_levels (put t v x) = t_levels t) by (destruct v; reflexivity). rewrite E.
    destruct (t_levels t) as [|e es]; [congruence|]. rewrite Nat.add_1_r. reflexivity.
Qed.

Lemma SE_decide ts0 ts d t v ts' t' : SI ts0 ts d t -> PD ts d t -> units_done d t -> is_def t v = false ->
  in_range (mnum (t_bm t)) (mnum (t_qm t)) v = true -> th_decide th ts d t v = Ok (ts', t') -> SE ts0 ts' d t'.
Proof.
  intros I P Un U R H.
  assert (U' : t_lvl t v = None).
  { destruct (t_lvl t v) eqn:E; auto. assert (X : is_def t v = true) by (apply (gi_def _ _ _ (si_gi _ _ _ _ _ _ _ _ _ I)); congruence). congruence. }
  destruct (lk_decide _ _ _ _ _ _ HP _ _ _ _ _ _ P U' R H) as (P1 & P2 & x & P3).
  split; [|split; [exact P1|]].
  - destruct I. split; auto.
    + eapply GI_decide; eauto. eapply GI_ent; [|eassumption]. intros l Hl a Ha. apply Hl. now apply (same_models_models _ _ _ _ _ P2).
    + intros c a Hc Ha. eapply si_le; eauto. now apply (same_models_models _ _ _ _ _ P2).
    + cbn in P3. injection P3 as <-. destruct v; exact si_num.
    + intros H0. destruct (si_ex H0) as (a & Ha). exists a. now apply (same_models_models _ _ _ _ _ P2).
    + intros ST. eapply GS_decide; eauto.
  - intros _ u Hu. specialize (Un u Hu). cbn in P3. injection P3 as <-. unfold lev, trail_decide in *. cbn [t_lvl].
    assert (E : t_lvl (put t v x) = t_lvl t) by (destruct v; reflexivity). rewrite E. rewrite vupd_neq; auto. congruence.
Qed.

Lemma SC_learn_loop ts0 k t : forall new d ts h d' ts' h', SI ts0 ts d t -> PC k ts d t ->
  (forall c, In c new -> c <> [] /\ all_false t c /\ ment (models ts) c /\ forall l, In l (firstn 2 c) -> exists j, lev t l = Some j /\ k <= j) ->
  learn_loop th he t new d ts h = Ok (d', ts', h') ->
  SI ts0 ts' d' t /\ PC k ts' d' t /\ (forall a, models ts' a <-> models ts a).
Proof.
  induction new as [|c new IH]; intros d ts h d' ts' h' I P Hn H; cbn [learn_loop] in H.
  - injection H as <- <- _. split; auto. split; auto. tauto.
  - destruct (th_learned th ts _ t _) as [ts1| |] eqn:El; cbn [bind] in H; try discriminate.
    destruct (Hn c (or_introl eq_refl)) as (N1 & N2 & N3 & N4).
    destruct (lk_learned _ _ _ _ _ _ HP _ _ _ _ _ _ P N1 N2 N4 El) as [P1 P2].
    assert (I1 : SI ts0 ts1 (mkDb (asserted d) (learned d ++ [c])) t).
    { destruct I. split; auto.
      - apply GI_app. eapply GI_ent; [|eassumption]. intros l Hl a Ha. apply Hl. now apply (same_models_models _ _ _ _ _ P2).
      - intros c' a Hc Ha. apply (same_models_models _ _ _ _ _ P2) in Ha. cbn in Hc. apply in_app_iff in Hc.
        destruct Hc as [Hc|[<-|[]]]; eauto.
      - intros H0. destruct (si_ex H0) as (a & Ha). exists a. now apply (same_models_models _ _ _ _ _ P2).
      - intros ST. eapply GS_app; eauto. }
    pose proof (fun X => IH _ _ _ _ _ _ I1 P1 X H) as IH'. destruct IH' as (J1 & J2 & J3).
    + intros c' Hc'. destruct (Hn c' (or_intror Hc')) as (A1 & A2 & A3 & A4). repeat split; auto.
      intros a Ha. apply A3. now apply (same_models_models _ _ _ _ _ P2).
    + split; auto. split; auto. intros a. rewrite J3. now apply same_models_models.
Qed.

Lemma SE_restart ts0 s s' : SI ts0 (s_th s) (s_db s) (s_trail s) -> PC 0 (s_th s) (s_db s) (s_trail s) -> restart th he hash s = Ok s' ->
  SE ts0 (s_th s') (s_db s') (s_trail s').
Proof.
  intros I P H. unfold restart in H.
  destruct (remove_subsumed hash (s_old s) (learned (s_db s))) as [L| |] eqn:E; cbn [bind] in H; try discriminate.
  injection H as <-. cbn [s_th s_db s_trail].
  assert (SL : forall c, In c L -> In c (learned (s_db s))).
  { destruct (le_gt_dec (s_old s) (length (learned (s_db s)))) as [Hl|Hl].
    - destruct (remove_subsumed_ok hash _ _ Hl) as (L' & E' & S & _). rewrite E in E'. injection E' as <-.
      intros c Hc. eapply sub_in; eauto.
    - unfold remove_subsumed in E. destruct (Nat.leb_spec (s_old s) (length (learned (s_db s)))); [lia|discriminate]. }
  destruct (lk_restart _ _ _ _ _ _ HP _ _ _ L P SL) as [P1 P2].
  split; [|split; [exact P1|]].
  - destruct I. split; auto.
    + eapply GI_clear. eapply GI_ent; [|eassumption]. intros l Hl a Ha. apply Hl. now apply (same_models_models _ _ _ _ _ P2).
    + intros c a Hc Ha. eapply si_le; eauto. now apply (same_models_models _ _ _ _ _ P2).
    + intros H0. destruct (si_ex H0) as (a & Ha). exists a. now apply (same_models_models _ _ _ _ _ P2).
    + intros ST. eapply GS_clear. now apply si_gs.
  - intros X. cbn in X. discriminate.
Qed.

Lemma SE_propagate_all ts0 ts d k : forall rs t t', SI ts0 ts d t -> PA ts d t -> dl t = k ->
  (forall r, In r rs -> ready true d t r) -> propagate_all d t k rs = Ok t' ->
  SI ts0 ts d t' /\ PA ts d t' /\ (forall x j, lev t x = Some j -> lev t' x = Some j) /\ dl t' = dl t /\
  (forall r u, In r rs -> getc d r = [u] -> lev t' u <> None).
Proof.
  induction rs as [|r rs IH]; intros t t' I P Hk Hr H; cbn [propagate_all] in H.
  - injection H as <-. split; [auto|]. split; [auto|]. split; [auto|]. split; [auto|]. intros r u [].
  - destruct (at_ (getc d r) 0) as [l| |] eqn:El; cbn [bind] in H; try discriminate.
    destruct (Hr r (or_introl eq_refl)) as [R1 R2].
    destruct (getc d r) as [|l0 rest] eqn:Ec; [discriminate|]. cbn in El. injection El as <-.
    destruct (R2 l0 rest eq_refl) as (R3 & R4 & R5).
    destruct (mdef (t_bm t) (lord l0)) eqn:Ed; cbn [bind] in H.
    + destruct (IH t t' I P Hk) as (A & B & C & C' & D); auto. { intros r' Hr'. apply Hr. simpl; auto. }
      split; auto. split; auto. split; auto. split; auto. intros r' u [<-|Hr'] E; [|eauto]. rewrite Ec in E. injection E as <- _.
      apply (gi_bdef _ _ _ (si_gi _ _ _ _ _ _ _ _ _ I)) in Ed. destruct (t_lvl t (VBool (lord l0))) as [j|] eqn:EJ; [|congruence].
      rewrite (C l0 j EJ). discriminate.
    + rewrite <- step_put in H. destruct (t_step t _) as [t1| |] eqn:Es; cbn [bind] in H; try discriminate.
      assert (U : lit_level t l0 = None).
      { unfold lit_level, lvar. destruct (t_lvl t (VBool (lord l0))) eqn:E; auto.
        assert (X : mdef (t_bm t) (lord l0) = true) by (apply (gi_bdef _ _ _ (si_gi _ _ _ _ _ _ _ _ _ I)); congruence). congruence. }
      destruct (assign_facts _ _ _ _ _ _ _ (si_gi _ _ _ _ _ _ _ _ _ I) R3 U Es) as (F1 & F2 & F3 & F4).
      destruct (IH t1 t') as (A & B & C & C' & D); auto.
      * pose proof I as []. split; auto.
        -- eapply GI_assign; [exact si_gi|exact R3|exact U| |exact Es]. split; auto. rewrite Ec. split; [apply (once_unit (t_bm t)); [exact Ed|intros y Hy; now apply R4]|].
           split; [|discriminate]. intros x [<-|Hx]; auto. right. destruct (R4 x Hx) as [A (j & J1 & J2)]. split; auto.
           exists j. split; [exact J1|lia].
        -- lia.
        -- intros ST. eapply GS_assign; [exact si_gi|now apply si_gs|exact R3|exact U| |exact Es]. split; auto. rewrite Ec. split; [apply (once_unit (t_bm t)); [exact Ed|intros y Hy; now apply R4]|].
           split.
           ++ intros x [<-|Hx]; auto. right. destruct (R4 x Hx) as [A (j & J1 & J2)]. split; auto. exists j. split; [exact J1|lia].
           ++ intros _ Hk1. destruct (R5 ST) as (x & X1 & X2 & X3); [lia|]. exists x. rewrite <- Hk. simpl. auto.
      * eapply (lk_assert _ _ _ _ _ _ HP); eauto. rewrite Hk. exact Es.
      * lia.
      * intros r' Hr'. destruct (Hr r' (or_intror Hr')) as [A B]. split; auto. intros y ys Ey. destruct (B y ys Ey) as (B1 & B2 & B3).
        split; [lia|]. split.
        -- intros x Hx. destruct (B2 x Hx) as [C (j & J1 & J2)]. split; auto. exists j. split; auto. lia.
        -- intros ST Hd. rewrite F1 in *. destruct (B3 ST Hd) as (x & X1 & X2 & X3). exists x. auto.
      * split; auto. split; auto. split; [auto|]. split; [congruence|]. intros r' u [<-|Hr'] E; [|eauto]. rewrite Ec in E. injection E as <- _.
        assert (X : lev t1 l0 = Some k).
        { destruct (step_prop_inv _ _ _ _ _ _ Es) as (_ & L1 & _). unfold lev. rewrite L1. apply vupd_eq. }
        rewrite (C _ _ X). discriminate.
Qed.

Lemma SE_backtrack_with ts0 (s s' : state) rs lz : SI ts0 (s_th s) (s_db s) (s_trail s) -> (0 <= lz)%Z -> Z.to_nat lz < dl (s_trail s) ->
  (forall r, at_ rs 0 = Ok r -> PC (if split_dec (s_trail s) (getc (s_db s) r) then S (Z.to_nat lz) else Z.to_nat lz) (s_th s) (s_db s) (s_trail s)) ->
  (forall r, In r rs -> is_ref (s_db s) r /\ all_false (s_trail s) (getc (s_db s) r) /\
     drest (s_trail s) (getc (s_db s) r) lz /\ dstrict (s_trail s) (getc (s_db s) r) lz) ->
  (forall u, In [u] (all_clauses (s_db s)) -> lev (s_trail s) u = Some 0 \/ exists r, In r rs /\ getc (s_db s) r = [u]) ->
  backtrack_with th he s rs lz = Ok s' -> SE ts0 (s_th s') (s_db s') (s_trail s').
Proof.
  intros I Hz0 Hzd HPC Hr HU H. unfold backtrack_with in H. destruct (Z.ltb_spec lz 0); [discriminate|].
  destruct (at_ rs 0) as [r0| |] eqn:E0; cbn [bind] in H; try discriminate.
  assert (Hin0 : In r0 rs).
  { destruct rs as [|r rs]; [discriminate|]. cbn in E0. injection E0 as <-. simpl; auto. }
  specialize (HPC r0 eq_refl).
  destruct (map_res _ rs) as [bs| |] eqn:Eb; cbn [bind] in H; try discriminate.
  destruct (is_semantic_split (s_trail s) (getc (s_db s) r0)) as [sp| |] eqn:Es; cbn [bind] in H; try discriminate.
  set (k := Z.to_nat lz) in *.
  assert (HB : forall t1, trail_backtrack (s_trail s) k = Ok t1 -> same_models tm (s_th s) (th_before_backtrack th (s_th s) (s_db s) (s_trail s) k) ->
    SI ts0 (th_before_backtrack th (s_th s) (s_db s) (s_trail s) k) (s_db s) t1).
  { intros t1 Ht P2.
    destruct I. destruct (GI_backtrack _ _ _ _ _ si_gi Ht) as (G1 & _ & _ & _ & _ & EN & _). split; auto.
    - eapply GI_ent; [|exact G1]. intros l Hl a Ha. apply Hl. now apply (same_models_models _ _ _ _ _ P2).
    - intros c a Hc Ha. eapply si_le; eauto. now apply (same_models_models _ _ _ _ _ P2).
    - rewrite EN. auto.
    - intros X. destruct (si_ex X) as (a & Ha). exists a. now apply (same_models_models _ _ _ _ _ P2).
    - intros ST. eapply GS_backtrack; [exact si_gi|now apply si_gs|exact Ht]. }
  assert (EBS : forall r, In r rs -> split_clause (s_trail s) (getc (s_db s) r) -> In true bs).
  { intros r Hin SC. apply map_res_in in Eb. destruct Eb as [EL1 EB].
    destruct (combine_in_l rs bs r EL1 Hin) as (b & Hb). pose proof (EB _ _ Hb) as X1. cbv beta in X1. apply split_spec in X1. apply X1 in SC. subst b.
    now apply in_combine_r in Hb. }
  assert (EBF : forall r, In r rs -> ~ split_clause (s_trail s) (getc (s_db s) r) -> In false bs).
  { intros r Hin SC. apply map_res_in in Eb. destruct Eb as [EL1 EB].
    destruct (combine_in_l rs bs r EL1 Hin) as (b & Hb). pose proof (EB _ _ Hb) as X1. cbv beta in X1. apply split_spec in X1.
    destruct b; [exfalso; apply SC, X1; auto|]. now apply in_combine_r in Hb. }
  destruct sp.
  - destruct (forallb _ bs) eqn:Ef; cbn [assertb bind] in H; [|discriminate]. rewrite forallb_forall in Ef.
    assert (SC : split_clause (s_trail s) (getc (s_db s) r0)) by (apply (split_spec _ _ _ Es); auto).
    destruct (split_dec (s_trail s) (getc (s_db s) r0)) as [_|N]; [|contradiction].
    destruct (Hr r0 Hin0) as (R1 & R2 & R3 & R4).
    destruct (getc (s_db s) r0) as [|l0 c'] eqn:Ec; [discriminate|].
    destruct (lit_level (s_trail s) l0) as [k0|] eqn:Ek; cbn [value_of bind] in H; [|discriminate].
    destruct (pick_split he (s_trail s) _ k0 l0 c') as [l| |] eqn:Ep; cbn [bind] in H; try discriminate.
    assert (Lj : lev (s_trail s) l = Some k0) by (eapply (pick_split_level he); eauto).
    pose proof (proj1 R4 SC l0 c' k0 eq_refl Ek) as Hj.
    assert (Hl : In l (l0 :: c')) by (apply (pick_split_in he) in Ep; simpl; intuition).
    destruct (assigned_at (s_trail s) (k + 1)) as [es| |]; cbn [bind] in H; try discriminate.
    destruct (match last es (VBool 0, None) with (VRat _, _) => true | _ => false end); cbn [assertb bind] in H; [|discriminate].
    destruct (trail_backtrack (s_trail s) k) as [t1| |] eqn:Et; cbn [bind] in H; try discriminate.
    injection H as <-. cbn [s_th s_db s_trail].
    assert (LD : S k <= dl (s_trail s)).
    { pose proof (gi_lev_le _ _ _ (si_gi _ _ _ _ _ _ _ _ _ I) _ _ Lj). unfold k. lia. }
    destruct (lk_undo _ _ _ _ _ _ HP _ _ _ _ _ HPC LD Et) as [P1 P2].
    pose proof (HB t1 eq_refl P2) as I1.
    destruct (GI_backtrack _ _ _ _ _ (si_gi _ _ _ _ _ _ _ _ _ I) Et) as (_ & _ & _ & _ & _ & EN & _ & EL & _).
    assert (U : t_lvl t1 (lvar l) = None).
    { rewrite EL. unfold lev in Lj. rewrite Lj. destruct (Nat.leb_spec k0 k); [|auto]. unfold k in *. lia. }
    assert (RG : lord l < mnum (t_bm t1)).
    { rewrite EN. pose proof (gi_range _ _ _ (si_gi _ _ _ _ _ _ _ _ _ I) _ _ Lj) as X. cbn in X. now apply Nat.ltb_lt. }
    split; [|split].
    + destruct I1. split; auto.
      * eapply GI_decide; [exact si_gi| |exact U|apply step_put_decide]. cbn. now apply Nat.ltb_lt.
      * intros ST. eapply GS_decide; [exact si_gi|now apply si_gs|exact U|apply step_put_decide].
    + eapply (lk_split _ _ _ _ _ _ HP); eauto.
    + intros _ u Hu. destruct (HU u Hu) as [L0|(r & Hrs & Er)].
      * unfold lev in *. cbn. rewrite vupd_neq; [rewrite EL, L0; reflexivity|]. intros E. rewrite E, EL in *. rewrite L0 in U. discriminate.
      * exfalso. specialize (Ef false). enough (false = true) by discriminate. apply Ef. eapply EBF; [exact Hrs|]. rewrite Er.
        intros (? & ? & ? & ? & E & _). discriminate.
  - destruct (forallb negb bs) eqn:Ef; cbn [assertb bind] in H; [|discriminate]. rewrite forallb_forall in Ef.
    assert (NSP : forall r, In r rs -> ~ split_clause (s_trail s) (getc (s_db s) r)).
    { intros r Hin SC. specialize (Ef true (EBS r Hin SC)). discriminate. }
    destruct (split_dec (s_trail s) (getc (s_db s) r0)) as [N|_]; [now apply NSP in N|].
    destruct (trail_backtrack (s_trail s) k) as [t1| |] eqn:Et; cbn [bind] in H; try discriminate.
    destruct (propagate_all (s_db s) t1 k rs) as [t2| |] eqn:Ep; cbn [bind] in H; try discriminate.
    injection H as <-. cbn [s_th s_db s_trail].
    destruct (lk_backtrack _ _ _ _ _ _ HP _ _ _ _ _ HPC Hzd Et) as [P1 P2].
    destruct (GI_backtrack _ _ _ _ _ (si_gi _ _ _ _ _ _ _ _ _ I) Et) as (_ & ED & _ & _ & _ & EN & _ & EL & _).
    eapply SE_propagate_all in Ep; [|apply HB; [reflexivity|exact P2]|exact P1|exact ED|].
    + destruct Ep as (A & B & C & C' & D). split; [exact A|]. split; [eapply (lk_enter _ _ _ _ _ _ HP); exact B|].
      intros _ u Hu. destruct (HU u Hu) as [L0|(r & Hrs & Er)].
      * apply C. unfold lev in *. rewrite EL, L0. reflexivity.
      * assert (K0 : k = 0).
        { destruct (Nat.eq_dec k 0) as [|NK]; auto. exfalso. destruct (Hr r Hrs) as (_ & _ & _ & _ & R6).
          destruct (R6 (NSP r Hrs) u []) as (x & [] & _); [rewrite Er; auto|unfold k in NK; lia]. }
        pose proof (D r u Hrs Er) as X. destruct (lev t2 u) as [j|] eqn:EJ; [|congruence].
        pose proof (gi_lev_le _ _ _ (si_gi _ _ _ _ _ _ _ _ _ A) _ _ EJ). f_equal. lia.
    + intros r Hin. destruct (Hr r Hin) as (R1 & R2 & R3 & R5). split; auto. intros y ys Ey. specialize (NSP r Hin). rewrite Ey in *.
      split; [|split].
      * rewrite EN. destruct (gi_tv_lev _ _ _ (si_gi _ _ _ _ _ _ _ _ _ I) y false) as (j & J); [apply R2; simpl; auto|].
        pose proof (gi_range _ _ _ (si_gi _ _ _ _ _ _ _ _ _ I) _ _ J) as X. cbn in X. now apply Nat.ltb_lt.
      * intros x Hx. destruct (R3 y ys eq_refl) as [SC|R4].
        -- tauto.
        -- destruct (R4 x Hx) as (j & J1 & J2). assert (j <= k) by (unfold k; lia). split.
           ++ eapply trail_backtrack_tv; [apply (si_gi _ _ _ _ _ _ _ _ _ I)|exact Et|apply R2; simpl; auto|eauto].
           ++ exists j. split; [|lia]. unfold lev in *. rewrite EL, J1. destruct (Nat.leb_spec j k); [auto|lia].
      * intros _ Hd. destruct R5 as [_ R6]. destruct (R6 NSP y ys eq_refl) as (x & X1 & X2 & X3); [unfold k in *; lia|].
        exists x. split; auto. split; auto. unfold lev in *. rewrite EL, X3. fold k. rewrite Nat.leb_refl, ED. auto.
Qed.

Lemma back_level t c lz : (forall l, In l c -> exists k, lev t l = Some k /\ k <= dl t) -> 1 <= dl t -> c <> [] ->
  StronglySorted (lev_ge t) c -> drest t c lz -> dstrict t c lz -> (0 <= lz)%Z -> Z.to_nat lz < dl t.
Proof.
  intros HL HD HN HQ R [S1 S2] Hz. destruct c as [|l0 rest]; [congruence|].
  destruct (HL l0 (or_introl eq_refl)) as (k0 & K0 & D0).
  destruct (split_dec t (l0 :: rest)) as [SC|SC].
  - pose proof (S1 SC _ _ _ eq_refl K0). lia.
  - destruct (Z.eq_dec lz 0) as [->|NZ]; [cbn; lia|]. destruct (S2 SC _ _ eq_refl ltac:(lia)) as (x & X1 & _ & X3).
    destruct rest as [|l1 rest]; [easy|]. destruct (HL l1 (or_intror (or_introl eq_refl))) as (k1 & K1 & D1).
    inversion HQ as [|? ? HQ1 HF]; subst. rewrite Forall_forall in HF. pose proof (HF l1 (or_introl eq_refl)) as G01.
    inversion HQ1 as [|? ? _ HF1]; subst. rewrite Forall_forall in HF1.
    unfold lev_ge, lvl_or, lit_level in G01; unfold lev in K0, K1, X3. rewrite K0, K1 in G01.
    assert (Z.to_nat lz <= k1).
    { destruct X1 as [<-|X1]; [rewrite K1 in X3; injection X3; lia|]. specialize (HF1 x X1). unfold lev_ge, lvl_or, lit_level in HF1. rewrite K1, X3 in HF1. lia. }
    destruct (Nat.eq_dec k0 k1) as [<-|N]; [|lia]. exfalso. apply SC. exists l0, l1, rest, k0. auto.
Qed.

Lemma SE_on_conflict ts0 (s : state) ccs o : ccs <> [] -> 1 <= dl (s_trail s) -> SI ts0 (s_th s) (s_db s) (s_trail s) ->
  PC (dl (s_trail s)) (s_th s) (s_db s) (s_trail s) -> units_done (s_db s) (s_trail s) ->
  (forall c, In c ccs -> ment (models (s_th s)) c /\ all_false (s_trail s) c) ->
  on_conflict th he hash s ccs = Ok o ->
  match o with None => ~ exists a, models (s_th s) a | Some s' => SE ts0 (s_th s') (s_db s') (s_trail s') end.
Proof.
  intros NE HD1 I P U Hc H. unfold on_conflict in H.
  destruct (analyze_conflicts he (s_db s) (s_trail s) (s_he s) ccs [] None) as [[[lc level] h]| |] eqn:EA; cbn [bind] in H; try discriminate.
  apply (analyze_conflicts_ok he) in EA; [|auto]. destruct level as [lz|]; [|tauto]. destruct EA as (_ & _ & EA).
  assert (GG := si_gi _ _ _ _ _ _ _ _ _ I). assert (GDB := si_db _ _ _ _ _ _ _ _ _ I). assert (GSS := si_gs _ _ _ _ _ _ _ _ _ I eq_refl).
  assert (DI : forall c', In c' lc -> (exists c, In c ccs /\ derived (s_db s) (s_trail s) c c' lz) /\
     all_false (s_trail s) c' /\ ment (models (s_th s)) c' /\ drest (s_trail s) c' lz /\
     ((0 <= lz)%Z -> dstrict (s_trail s) c' lz /\
        forall l, In l (firstn 2 c') -> exists j, lev (s_trail s) l = Some j /\
          (if split_dec (s_trail s) c' then S (Z.to_nat lz) else Z.to_nat lz) <= j)).
  { intros c' Hc'. apply EA in Hc'. destruct Hc' as [[X _]|(c & C1 & C2)]; [discriminate|]. split; [eauto|].
    destruct (Hc c C1). destruct (derived_inv (models (s_th s)) (s_db s) (s_trail s) GG GDB c c' lz) as (X1 & X2 & X3); auto.
    split; auto. split; auto. split; auto. intros Hz. split.
    - apply (derived_strict (models (s_th s)) (s_db s) (s_trail s) GG GDB GSS c c' lz); auto.
    - apply (first_two (models (s_th s)) (s_db s) (s_trail s) GG GDB GSS c c' lz); auto. }
  destruct (existsb is_nil lc) eqn:EN.
  - injection H as <-. apply existsb_exists in EN. destruct EN as (c & C1 & C2). destruct c; [|discriminate].
    destruct (DI _ C1) as (_ & _ & X & _). intros (a & Ha). destruct (X a Ha) as (l & [] & _).
  - assert (NN : forall c, In c lc -> c <> []).
    { intros c C1 ->. assert (X : existsb is_nil lc = true) by (apply existsb_exists; exists []; auto). congruence. }
    destruct (learn th he (s_db s) (s_trail s) (s_th s) h lc) as [[[[d1 ts1] h1] rs]| |] eqn:EL; cbn [bind] in H; try discriminate.
    assert (L : exists new, asserted d1 = asserted (s_db s) /\ learned d1 = learned (s_db s) ++ new /\
       (forall c, In c new -> In c lc /\ (split_clause (s_trail s) c -> forall c0, In c0 lc -> split_clause (s_trail s) c0)) /\
       (forall r, In r rs -> is_ref d1 r /\ In (getc d1 r) new) /\ (forall c, In c new -> exists r, In r rs /\ getc d1 r = c) /\
       (forall k, PC k (s_th s) (s_db s) (s_trail s) ->
          (forall c, In c new -> forall l, In l (firstn 2 c) -> exists j, lev (s_trail s) l = Some j /\ k <= j) ->
          SI ts0 ts1 d1 (s_trail s) /\ PC k ts1 d1 (s_trail s))).
    { pose proof EL as EL'. apply (learn_ok th he) in EL'. destruct EL' as (new & A1 & A2 & _ & A3 & A4).
      unfold learn in EL. destruct (drop_splits _ _) as [cs1| |] eqn:ED; cbn [bind] in EL; try discriminate.
      destruct (learn_loop th he (s_trail s) cs1 (s_db s) (s_th s) h) as [[[d2 ts2] h2]| |] eqn:ELL; cbn [bind] in EL; try discriminate.
      injection EL as -> -> -> ER.
      assert (cs1 = new).
      { destruct (learn_loop_db _ _ _ _ _ _ _ _ _ _ ELL) as [_ X]. rewrite A2 in X. now apply app_inv_head in X. }
      subst cs1. exists new. split; auto. split; auto. split; [intros c C1; now apply A4|]. split; [|split].
      - rewrite A3. intros r Hr. apply in_map_iff in Hr. destruct Hr as (i & <- & Hi). apply in_seq in Hi. cbn [is_ref getc].
        rewrite A2, app_length. split; [lia|]. rewrite app_nth2 by lia. apply nth_In. lia.
      - intros c C1. apply In_nth with (d := []) in C1. destruct C1 as (i & Hi & E). exists (CLearned (length (learned (s_db s)) + i)).
        rewrite A3. split; [apply in_map_iff; eexists; split; [reflexivity|]; apply in_seq; lia|]. cbn [getc]. rewrite A2, app_nth2 by lia.
        rewrite <- E. f_equal. lia.
      - intros k Pk Hk. eapply SC_learn_loop in ELL; [|exact I|exact Pk|].
        + destruct ELL as (B1 & B2 & _). auto.
        + intros c C1. pose proof (proj1 (proj1 (A4 c) C1)) as C2. destruct (DI _ C2) as (_ & X1 & X2 & _). repeat split; auto. now apply Hk. }
    destruct L as (new & L1 & L2 & L3 & L4 & L5 & L6).
    destruct (h_should_restart he h1).
    + destruct (restart th he hash (mkS d1 (s_trail s) ts1 h1 (s_old s))) as [s2| |] eqn:ER; cbn [bind] in H; try discriminate.
      injection H as <-. destruct (L6 0) as [A B].
      * eapply (lk_mono _ _ _ _ _ _ HP); [|exact P]. lia.
      * intros c C1 l Hl. destruct (DI c (proj1 (L3 c C1))) as (_ & F & _).
        assert (Hl' : In l c) by (destruct c as [|x [|y r]]; cbn in Hl |- *; tauto).
        destruct (gi_tv_lev _ _ _ GG l false (F l Hl')) as (j & J). exists j. split; [auto|lia].
      * eapply SE_restart; [| |exact ER]; [exact A|exact B].
    + cbn [value_of bind] in H.
      destruct (backtrack_with th he (mkS d1 (s_trail s) ts1 h1 (s_old s)) rs lz) as [s2| |] eqn:EB; cbn [bind] in H; try discriminate.
      injection H as <-.
      assert (Hz : (0 <= lz)%Z) by (unfold backtrack_with in EB; destruct (Z.ltb_spec lz 0); [discriminate|auto]).
      assert (E0 : exists r0, at_ rs 0 = Ok r0 /\ In r0 rs).
      { unfold backtrack_with in EB. destruct (lz <? 0)%Z; [discriminate|]. destruct (at_ rs 0) as [r0| |] eqn:E0; cbn [bind] in EB; try discriminate.
        exists r0. split; auto. destruct rs as [|r rs]; [discriminate|]. cbn in E0. injection E0 as <-. simpl; auto. }
      destruct E0 as (r0 & E0 & Hin0). destruct (L4 r0 Hin0) as [_ N0].
      set (k := if split_dec (s_trail s) (getc d1 r0) then S (Z.to_nat lz) else Z.to_nat lz).
      assert (KK : forall c, In c new -> forall l, In l (firstn 2 c) -> exists j, lev (s_trail s) l = Some j /\ k <= j).
      { intros c C1 l Hl. destruct (L3 c C1) as [C2 C3]. destruct (DI c C2) as (_ & _ & _ & _ & D). destruct (D Hz) as [_ D2].
        destruct (D2 l Hl) as (j & J1 & J2). exists j. split; auto. unfold k.
        destruct (split_dec (s_trail s) c) as [S1|S1], (split_dec (s_trail s) (getc d1 r0)) as [S2|S2]; auto; try lia.
        exfalso. apply S1. apply (proj2 (L3 _ N0)); auto. }
      assert (KD : k <= dl (s_trail s)).
      { destruct (getc d1 r0) as [|l0 rest] eqn:E.
        - exfalso. apply (NN []); auto. apply L3. exact N0.
        - destruct (KK (l0 :: rest) N0 l0) as (j & J1 & J2); [simpl; auto|]. pose proof (gi_lev_le _ _ _ GG _ _ J1). lia. }
      destruct (L6 k) as [A B]; [eapply (lk_mono _ _ _ _ _ _ HP); [exact KD|exact P]|exact KK|].
      eapply SE_backtrack_with; [| | | | | |exact EB]; cbn [s_th s_db s_trail].
      * exact A.
      * exact Hz.
      * destruct (L3 _ N0) as [C2 _]. destruct (DI _ C2) as ((c0 & Y0 & Y0') & Y1 & Y1' & Y2 & Y3). destruct (Y3 Hz) as [Y4 _].
        eapply back_level; [|exact HD1|apply NN, C2| |exact Y2|exact Y4|exact Hz].
        -- intros l Hl. destruct (gi_tv_lev _ _ _ GG l false (Y1 l Hl)) as (j & J). exists j. split; auto. eapply gi_lev_le; eauto.
        -- destruct (Hc c0 Y0). eapply derived_sorted; eauto.
      * intros r Er. rewrite E0 in Er. injection Er as <-. exact B.
      * intros r Hr. destruct (L4 r Hr) as [X1 X2]. destruct (DI _ (proj1 (L3 _ X2))) as (_ & Y1 & _ & Y2 & Y3). destruct (Y3 Hz). auto.
      * intros u Hu. unfold all_clauses in Hu. rewrite L1, L2, app_assoc, in_app_iff in Hu. destruct Hu as [Hu|Hu]; [left; now apply U|].
        right. now apply L5.
Qed.

(** what an answer means *)
Definition sat_state (R : state -> Prop) (s : state) : Prop :=
  PD (s_th s) (s_db s) (s_trail s) /\ units_done (s_db s) (s_trail s) /\
  Forall2 (@Permutation lit) cs (asserted (s_db s)) /\
  exists s0 fuel h', R s0 /\ th_propagate th fuel (s_th s0) (s_db s0) (s_trail s0) = Ok (s_th s, s_db s, s_trail s, []) /\
    h_pick he (s_he s0) (s_db s) (s_trail s) = (h', None).

Lemma SE_step ts0 fuel (s s' : state) o : SE ts0 (s_th s) (s_db s) (s_trail s) ->
  (forall ts d t h v, th_propagate th fuel (s_th s) (s_db s) (s_trail s) = Ok (ts, d, t, []) ->
     h_pick he (s_he s) d t = (h, Some v) -> is_def t v = false /\ in_range (mnum (t_bm t)) (mnum (t_qm t)) v = true) ->
  step th he hash fuel s = Ok (s', o) ->
  match o with
  | Some Unsat => ~ exists a, models ts0 a
  | Some Sat => sat_state (eq s) s'
  | None => SE ts0 (s_th s') (s_db s') (s_trail s')
  end.
Proof.
  intros I Hpick H. unfold step in H.
  destruct (th_propagate th fuel (s_th s) (s_db s) (s_trail s)) as [[[[ts1 d1] t1] ccs]| |] eqn:EP; cbn [bind] in H; try discriminate.
  destruct (SE_propagate _ _ _ _ _ _ _ _ _ I EP) as (I1 & HD & HCC & HC).
  destruct ccs as [|c ccs].
  - destruct (HD eq_refl) as [P1 P2]. cbn [s_he] in H. destruct (h_pick he (s_he s) d1 t1) as [h1 ov] eqn:Eh. destruct ov as [v|].
    + destruct (th_decide th ts1 d1 t1 v) as [[ts2 t2]| |] eqn:ED; cbn [bind] in H; try discriminate. injection H as <- <-.
      cbn [s_th s_db s_trail]. destruct (Hpick _ _ _ _ _ eq_refl Eh). eapply SE_decide; eauto.
    + injection H as <- <-. split; [exact P1|]. split; [exact P2|]. split; [exact (si_as _ _ _ _ _ _ _ _ _ I1)|]. exists s, fuel, h1. auto.
  - assert (NE : c :: ccs <> []) by discriminate. destruct (HCC NE) as [P1 P2].
    destruct (Nat.eqb_spec (dl t1) 0) as [E0|E0].
    + injection H as <- <-. intros X. destruct (si_ex _ _ _ _ _ _ _ _ _ I1 X) as (a & Ha).
      destruct (HC c (or_introl eq_refl)) as [C1 C2]. destruct (C1 a Ha) as (l & L1 & L2).
      destruct (gi_tv_lev _ _ _ (si_gi _ _ _ _ _ _ _ _ _ I1) l false (C2 l L1)) as (k & K).
      pose proof (gi_lev_le _ _ _ (si_gi _ _ _ _ _ _ _ _ _ I1) _ _ K) as LE. assert (k = 0) by lia. subst k.
      pose proof (zero_entailed (models ts1) d1 t1 (si_gi _ _ _ _ _ _ _ _ _ I1) (fun c a Hc Ha => si_db _ _ _ _ _ _ _ _ _ I1 c Hc a Ha) a Ha (lord l) K) as Z.
      assert (Ex : tlit (tval t1) (lord l) = neg l).
      { change (lord l) with (lord (neg l)). apply true_lit_of. apply eval_lit_neg_true. apply C2; auto. }
      rewrite Ex, lit_holds_neg, L2 in Z. discriminate.
    + destruct (on_conflict th he hash (mkS d1 t1 ts1 (s_he s) (s_old s)) (c :: ccs)) as [o1| |] eqn:EO; cbn [bind] in H; try discriminate.
      assert (R : match o1 with None => ~ exists a, models ts1 a | Some s2 => SE ts0 (s_th s2) (s_db s2) (s_trail s2) end).
      { apply (SE_on_conflict ts0 (mkS d1 t1 ts1 (s_he s) (s_old s)) (c :: ccs)); auto; cbn; [lia|]. apply P2. lia. }
      destruct o1 as [s2|]; injection H as <- <-; auto.
      intros X. apply R. apply (si_ex _ _ _ _ _ _ _ _ _ I1 X).
Qed.

Lemma run_level : forall fuel (s0 s s' : state) a, SE (s_th s0) (s_th s) (s_db s) (s_trail s) -> reach th he hash s0 s ->
  picks_unassigned th he hash s0 ->
  run th he hash fuel s = Ok (s', a) -> match a with Unsat => ~ exists a, models (s_th s0) a | Sat => sat_state (reach th he hash s0) s' end.
Proof.
  induction fuel as [|fuel IH]; intros s0 s s' a I R HPU H; [discriminate|]. cbn [run] in H.
  destruct (step th he hash (S fuel) s) as [[s1 o]| |] eqn:ES; cbn [bind] in H; try discriminate.
  assert (X := ES). apply (SE_step (s_th s0)) in X; auto.
  - destruct o as [a'|].
    + injection H as <- <-. destruct a'; auto. destruct X as (X1 & X2 & X3 & s2 & f & h & <- & X4). split; [|split; [|split]]; auto. exists s, f, h. auto.
    + eapply (IH s0 s1); eauto. econstructor; eauto.
  - intros ts d t h v E1 E2. eapply HPU; eauto.
Qed.

(** the states between two iterations *)
Lemma reach_level s0 s : SE (s_th s0) (s_th s0) (s_db s0) (s_trail s0) -> picks_unassigned th he hash s0 -> reach th he hash s0 s ->
  SE (s_th s0) (s_th s) (s_db s) (s_trail s).
Proof.
  intros I HPU R. induction R as [|s fuel s' R IH H]; auto.
  apply (SE_step (s_th s0)) in H; auto. intros ts d t h v E1 E2. eapply HPU; eauto.
Qed.
Lemma start_SE t0 ts0 : fresh_trail t0 -> (0 <= mgts (t_bm t0))%Z -> n0 <= mnum (t_bm t0) -> PE ts0 (mkDb cs []) t0 -> SE ts0 ts0 (mkDb cs []) t0.
Proof.
  intros F FG FN P. split; [|split; [exact P|]].
  - split; auto.
    + now apply GI_fresh.
    + apply Forall2_perm_refl.
    + intros c b [].
    + intros _. now apply GS_fresh.
  - unfold trail_empty. rewrite (ft_levels _ F). discriminate.
Qed.
(** after a propagate() without conflict *)
Lemma propagate_level t0 ts0 h old s fuel ts d t : fresh_trail t0 -> (0 <= mgts (t_bm t0))%Z -> n0 <= mnum (t_bm t0) ->
  PE ts0 (mkDb cs []) t0 -> picks_unassigned th he hash (mkS (mkDb cs []) t0 ts0 h old) ->
  reach th he hash (mkS (mkDb cs []) t0 ts0 h old) s ->
  th_propagate th fuel (s_th s) (s_db s) (s_trail s) = Ok (ts, d, t, []) ->
  PD ts d t /\ Forall2 (@Permutation lit) cs (asserted d) /\ n0 <= mnum (t_bm t).
Proof.
  intros F FG FN P HPU R H. apply reach_level in R; auto; [|now apply start_SE].
  destruct (SE_propagate _ _ _ _ _ _ _ _ _ R H) as (I1 & HD & _). split; [now apply HD|]. split; [exact (si_as _ _ _ _ _ _ _ _ _ I1)|exact (si_num _ _ _ _ _ _ _ _ _ I1)].
Qed.

Lemma run_level_start fuel t0 ts0 h old (s' : state) a : fresh_trail t0 -> (0 <= mgts (t_bm t0))%Z -> n0 <= mnum (t_bm t0) ->
  PE ts0 (mkDb cs []) t0 -> picks_unassigned th he hash (mkS (mkDb cs []) t0 ts0 h old) ->
  run th he hash fuel (mkS (mkDb cs []) t0 ts0 h old) = Ok (s', a) ->
  match a with Unsat => ~ exists a, tm ts0 a /\ all_hold a cs | Sat => sat_state (reach th he hash (mkS (mkDb cs []) t0 ts0 h old)) s' end.
Proof.
  intros F FG FN P HPU H. eapply (run_level fuel (mkS (mkDb cs []) t0 ts0 h old)) in H; eauto; [|constructor].
  now apply start_SE.
Qed.
End Run.
