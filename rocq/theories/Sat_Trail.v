(** Operations on the trail: effect of assigning, deciding and backtracking. *)
From Coq Require Import List Arith ZArith Bool Lia Permutation.
From Verif Require Import Base Core_Model Literal_Proofs Bool_Model Sat_Base Sat_Inv.
Import ListNotations.
Open Scope nat_scope.

(** ** The inner loop of backtrack, for any trail *)
Definition hit (level : nat) (t : trail) (es : list entry) (v : var) : bool :=
  existsb (fun e => var_eqb v (fst e)) es &&
  match t_lvl t v with Some k => level <? k | None => false end.

Lemma existsb_var es v : existsb (fun e : entry => var_eqb v (fst e)) es = true <-> In v (map fst es).
Proof.
  rewrite existsb_exists, in_map_iff. split; intros (e & H1 & H2).
  - apply var_eqb_eq in H2. eauto.
  - exists e. split; auto. apply var_eqb_eq. auto.
Qed.

Record same_model {T} (m m' : model T) : Prop := mkSM {
  sm_val : mval m' = mval m; sm_ts : mts m' = mts m; sm_gts : mgts m' = mgts m; sm_num : mnum m' = mnum m }.

Lemma unassign_fold level es : forall t,
  let t' := fold_left (unassign level) es t in
  t_levels t' = t_levels t /\
  (forall v, t_lvl t' v = if hit level t es v then None else t_lvl t v) /\
  (forall v, t_rsn t' v = if hit level t es v then None else t_rsn t v) /\
  same_model (t_bm t) (t_bm t') /\ same_model (t_qm t) (t_qm t') /\
  (forall i, mdef (t_bm t') i = if hit level t es (VBool i) then false else mdef (t_bm t) i) /\
  (forall i, mdef (t_qm t') i = if hit level t es (VRat i) then false else mdef (t_qm t) i).
Proof.
  induction es as [|e es IH]; intros t.
  - cbn. repeat split; auto.
  - cbn [fold_left]. specialize (IH (unassign level t e)).
    set (t1 := unassign level t e) in *. cbn zeta in *.
    destruct IH as (I1 & I2 & I3 & I4 & I5 & I6 & I7).
    set (t' := fold_left (unassign level) es t1) in *.
    assert (U : (t1 = t /\ match t_lvl t (fst e) with Some k => level <? k | None => false end = false) \/
                (exists k, t_lvl t (fst e) = Some k /\ (level <? k) = true /\
                   t1 = clear_var (mkTrail (t_levels t) (vupd (t_lvl t) (fst e) None)
                           (vupd (t_rsn t) (fst e) None) (t_bm t) (t_qm t)) (fst e))).
    { unfold t1, unassign. destruct (t_lvl t (fst e)) as [k|]; auto.
      destruct (level <? k) eqn:E; auto. right. exists k; auto. }
    assert (Hh : forall v, hit level t (e :: es) v = hit level t [e] v || hit level t es v).
    { intros v. unfold hit. simpl. rewrite orb_false_r.
      destruct (match t_lvl t v with Some k => level <? k | None => false end), (var_eqb v (fst e)),
        (existsb (fun e0 => var_eqb v (fst e0)) es); auto. }
    destruct U as [[E1 E2]|(k & E1 & E2 & E3)].
    + clearbody t'. clearbody t1. subst t1.
      assert (H0 : forall v, hit level t [e] v = false).
      { intros v. unfold hit. simpl. destruct (var_eqb v (fst e)) eqn:E; auto.
        apply var_eqb_eq in E; subst. rewrite E2. auto. }
      repeat split; intros; rewrite ?Hh, ?H0; simpl; auto; try apply I4; try apply I5.
    + assert (L1 : t_lvl t1 = vupd (t_lvl t) (fst e) None) by (rewrite E3; destruct (fst e); auto).
      assert (L2 : t_rsn t1 = vupd (t_rsn t) (fst e) None) by (rewrite E3; destruct (fst e); auto).
      assert (L0 : t_levels t1 = t_levels t) by (rewrite E3; destruct (fst e); auto).
      assert (H0 : hit level t [e] (fst e) = true).
      { unfold hit. simpl. rewrite (proj2 (var_eqb_eq _ _)) by auto. now rewrite E1. }
      assert (H0' : forall v, v <> fst e -> hit level t [e] v = false).
      { intros v Hv. unfold hit. simpl. destruct (var_eqb v (fst e)) eqn:E; auto.
        apply var_eqb_eq in E; congruence. }
      assert (H1 : forall v, v <> fst e -> hit level t1 es v = hit level t es v).
      { intros v Hv. unfold hit. rewrite L1, vupd_neq by auto. auto. }
      assert (H1' : hit level t1 es (fst e) = false).
      { unfold hit. rewrite L1, vupd_eq. apply andb_false_r. }
      assert (SB : same_model (t_bm t) (t_bm t1)) by (rewrite E3; destruct (fst e); repeat split; auto).
      assert (SQ : same_model (t_qm t) (t_qm t1)) by (rewrite E3; destruct (fst e); repeat split; auto).
      assert (DB : forall i, mdef (t_bm t1) i = if hit level t [e] (VBool i) then false else mdef (t_bm t) i).
      { intros i. rewrite E3. destruct (fst e) as [m|m] eqn:Ev; simpl.
        - destruct (Nat.eq_dec i m) as [->|Ne]; [rewrite upd_eq, H0; auto|].
          rewrite upd_neq by auto. rewrite H0' by congruence. auto.
        - rewrite H0' by congruence. auto. }
      assert (DQ : forall i, mdef (t_qm t1) i = if hit level t [e] (VRat i) then false else mdef (t_qm t) i).
      { intros i. rewrite E3. destruct (fst e) as [m|m] eqn:Ev; simpl.
        - rewrite H0' by congruence. auto.
        - destruct (Nat.eq_dec i m) as [->|Ne]; [rewrite upd_eq, H0; auto|].
          rewrite upd_neq by auto. rewrite H0' by congruence. auto. }
      destruct I4, I5, SB, SQ.
      repeat split; try congruence; intros.
      * rewrite Hh, I2. destruct (var_eq_dec v (fst e)) as [->|Hv].
        -- rewrite H1', H0, L1, vupd_eq. auto.
        -- rewrite H1, H0', L1, vupd_neq by auto. auto.
      * rewrite Hh, I3. destruct (var_eq_dec v (fst e)) as [->|Hv].
        -- rewrite H1', H0, L2, vupd_eq. auto.
        -- rewrite H1, H0', L2, vupd_neq by auto. auto.
      * rewrite Hh, I6, DB. destruct (var_eq_dec (VBool i) (fst e)) as [E|Hv].
        -- rewrite E, H1', H0. auto.
        -- rewrite H1, H0' by auto. auto.
      * rewrite Hh, I7, DQ. destruct (var_eq_dec (VRat i) (fst e)) as [E|Hv].
        -- rewrite E, H1', H0. auto.
        -- rewrite H1, H0' by auto. auto.
Qed.

(** ** Changing the values of unassigned variables and adding levels *)
Lemma flat_ok_ext d val val' es :
  (forall i, In (VBool i) (map fst es) -> val i = val' i) -> flat_ok d val es -> flat_ok d val' es.
Proof.
  induction es as [|[v ro] es IH]; simpl; auto. intros Hv (H1 & H2 & H3).
  split; [auto|split; [|apply IH; auto]].
  destruct ro as [r|]; auto. destruct H2 as (i & -> & K1 & K2 & K3).
  assert (Ei : tlit val' i = tlit val i) by (unfold tlit; rewrite (Hv i); auto).
  exists i. rewrite Ei. repeat split; auto. intros l Hl. destruct (K3 l Hl) as [?|[A B]]; auto.
  right. split; auto. rewrite <- B. unfold lit_holds. rewrite (Hv (lord l)); auto.
Qed.

Lemma levels_ok_ext d val val' lvl lvl' ls :
  (forall i, In (VBool i) (map fst (concat ls)) -> val i = val' i) ->
  (forall v k, lvl v = Some k -> k < length ls -> lvl' v = Some k) ->
  levels_ok d val lvl ls -> levels_ok d val' lvl' ls.
Proof.
  induction ls as [|es ls IH]; simpl; auto. intros Hv Hl [(H1 & H2 & H3) H4]. split.
  - repeat split; auto. intros K i r Hi. destruct (H3 K i r Hi) as (l & L1 & L2 & L3).
    exists l. repeat split; auto. unfold tlit in *. rewrite <- (Hv i); auto.
    rewrite map_app, in_app_iff. left. apply in_map_iff. exists (VBool i, Some r); auto.
  - apply IH; auto. intros i Hi. apply Hv. rewrite map_app, in_app_iff. auto.
Qed.

(** the trail after [propagate(var, reason, decision_level())] and set_value *)
Definition assign_top (t : trail) (l : lit) (r : cref) : trail :=
  mkTrail (map_first 1 (cons (lvar l, Some r)) (t_levels t))
          (vupd (t_lvl t) (lvar l) (Some (dl t))) (vupd (t_rsn t) (lvar l) (Some r))
          (set_value (t_bm t) (lord l) (negb (lneg l))) (t_qm t).

Lemma dl_assign t l r : dl (assign_top t l r) = dl t.
Proof. unfold dl, assign_top; simpl. destruct (t_levels t); auto. Qed.

Lemma lev_assign t l r x :
  lev (assign_top t l r) x = if lord x =? lord l then Some (dl t) else lev t x.
Proof.
  unfold lev, assign_top; simpl. unfold vupd, lvar. simpl. auto.
Qed.

Lemma tv_assign_eq t l r : tv (assign_top t l r) l = Some true.
Proof.
  unfold tv, eval_lit, assign_top; simpl. rewrite !upd_eq. now rewrite eqb_reflx.
Qed.
Lemma tv_assign_neg t l r : tv (assign_top t l r) (neg l) = Some false.
Proof. unfold tv. apply eval_lit_neg_false. apply tv_assign_eq. Qed.
Lemma tv_assign_neq t l r x : lord x <> lord l -> tv (assign_top t l r) x = tv t x.
Proof. intros H. unfold tv, eval_lit, assign_top; simpl. now rewrite !upd_neq. Qed.
Lemma tv_assign_some t l r x b : tv t l = None -> tv t x = Some b -> tv (assign_top t l r) x = Some b.
Proof.
  intros H1 H2. rewrite tv_assign_neq; auto. intros E. unfold tv in *.
  apply eval_lit_none in H1. rewrite <- E in H1. apply eval_lit_none in H1. congruence.
Qed.
Lemma lev_assign_some n d t l r x k :
  TI n d t -> tv t l = None -> lev t x = Some k -> lev (assign_top t l r) x = Some k.
Proof.
  intros HT H1 H2. rewrite lev_assign. destruct (Nat.eqb_spec (lord x) (lord l)) as [E|E]; auto.
  apply (tv_lev_none _ _ _ HT) in H1. unfold lev, lvar in *. congruence.
Qed.

Lemma TI_assign n d t l r :
  TI n d t -> tv t l = None -> lord l < n -> valid d r -> In l (getc d r) ->
  (forall x, In x (getc d r) -> x = l \/ tv t x = Some false) ->
  (1 <= dl t -> exists x, In x (getc d r) /\ x <> l /\ lev t x = Some (dl t)) ->
  TI n d (assign_top t l r).
Proof.
  intros HT Hl Hn Hr Hin Hoth Hwit.
  assert (Hnf : ~ In (lvar l) (map fst (flat t))).
  { intros I. apply (in_flat_tv _ _ _ HT) in I. congruence. }
  assert (Hnl : forall i, In (VBool i) (map fst (flat t)) -> i <> lord l) by (intros i Hi ->; auto).
  destruct (t_levels t) as [|es ls] eqn:EL; [destruct (ti_ne _ _ _ HT EL)|].
  assert (EF : flat (assign_top t l r) = (lvar l, Some r) :: flat t).
  { unfold flat, assign_top; simpl. rewrite EL. reflexivity. }
  assert (ED : dl t = length ls) by (unfold dl; rewrite EL; simpl; lia).
  assert (Hval : forall i, In (VBool i) (map fst (flat t)) -> tval t i = tval (assign_top t l r) i).
  { intros i Hi. unfold tval, assign_top; simpl. rewrite upd_neq; auto. }
  assert (Etl : tlit (tval (assign_top t l r)) (lord l) = l).
  { unfold tlit, tval, assign_top; simpl. rewrite upd_eq, negb_involutive. destruct l; auto. }
  constructor.
  - unfold assign_top; simpl. rewrite EL. discriminate.
  - rewrite EF. simpl. split; auto. split.
    + exists (lord l). rewrite Etl. repeat split; auto. intros x Hx. destruct (Hoth x Hx) as [?|K]; auto.
      right. pose proof (tv_in_flat _ _ _ HT _ _ K) as I. split; auto.
      apply (tv_holds t) in K. rewrite <- K. unfold lit_holds. rewrite (Hval (lord x) I). auto.
    + eapply flat_ok_ext; [|apply (ti_flat _ _ _ HT)]. auto.
  - rewrite EF. intros v [<-|Hv]; [|now apply (ti_range _ _ _ HT)]. exists (lord l); auto.
  - unfold assign_top at 3; cbn [t_levels]. rewrite EL. cbn [map_first levels_ok].
    pose proof (ti_lev _ _ _ HT) as HL.
    assert (HLv : forall v k, t_lvl t v = Some k -> t_lvl (assign_top t l r) v = Some k).
    { intros v k Hk. unfold assign_top; simpl. rewrite vupd_neq; auto. intros ->. apply Hnf.
      apply (ti_dom _ _ _ HT). congruence. }
    assert (HL' : levels_ok d (tval (assign_top t l r)) (t_lvl (assign_top t l r)) (t_levels t)).
    { eapply levels_ok_ext; [| |exact HL]; auto. }
    rewrite EL in HL'. destruct HL' as [(L1 & L2 & L3) L4]. split; auto. repeat split.
    + intros v [<-|Hv]; auto. unfold assign_top; simpl. rewrite vupd_eq. f_equal; auto.
    + destruct (length ls) eqn:E.
      * intros e [<-|He]; auto. discriminate.
      * destruct L2 as (es' & v & -> & L2). exists ((lvar l, Some r) :: es'), v. split; auto.
        intros e [<-|He]; auto. discriminate.
    + intros K i r' [Hi|Hi]; auto. inversion Hi; subst i r'. rewrite Etl.
      rewrite <- ED in K. destruct (Hwit K) as (x & X1 & X2 & X3). exists x. repeat split; auto.
      rewrite <- ED. apply HLv. exact X3.
  - intros v Hv. rewrite EF. simpl. unfold assign_top in Hv; simpl in Hv.
    destruct (var_eq_dec v (lvar l)) as [->|E]; auto. rewrite vupd_neq in Hv by auto.
    right. now apply (ti_dom _ _ _ HT).
  - intros i. rewrite EF. unfold assign_top; simpl.
    destruct (Nat.eq_dec i (lord l)) as [->|E].
    + rewrite upd_eq. split; auto.
    + rewrite upd_neq by auto. rewrite (ti_def _ _ _ HT). split; auto. intros [K|K]; auto.
      unfold lvar in K. congruence.
  - rewrite EF. intros v ro [K|K].
    + inversion K; subst. unfold assign_top; simpl. now rewrite vupd_eq.
    + unfold assign_top; simpl. rewrite vupd_neq. now apply (ti_rsn _ _ _ HT).
      intros ->. apply Hnf. apply in_map_iff. exists (lvar l, ro); auto.
  - rewrite EF. simpl. intros v Hv. unfold assign_top; simpl. rewrite vupd_neq by (intros ->; auto).
    apply (ti_rsn_none _ _ _ HT). auto.
Qed.

(** the trail after a decision *)
Definition decide_top (t : trail) (i : nat) (x : bool) : trail :=
  trail_decide (with_bm t (set_value (t_bm t) i x)) (VBool i).

Lemma TI_decide n d t i x :
  TI n d t -> mdef (t_bm t) i = false -> i < n -> TI n d (decide_top t i x).
Proof.
  intros HT Hi Hn.
  assert (Hnf : ~ In (VBool i) (map fst (flat t))).
  { intros I. apply (ti_def _ _ _ HT) in I. congruence. }
  assert (EF : flat (decide_top t i x) = (VBool i, None) :: flat t) by reflexivity.
  assert (Hval : forall j, In (VBool j) (map fst (flat t)) -> tval t j = tval (decide_top t i x) j).
  { intros j Hj. unfold tval, decide_top; simpl. rewrite upd_neq; auto. intros ->; auto. }
  assert (HLv : forall v k, t_lvl t v = Some k -> t_lvl (decide_top t i x) v = Some k).
  { intros v k Hk. unfold decide_top; simpl. rewrite vupd_neq; auto. intros ->. apply Hnf.
    apply (ti_dom _ _ _ HT). congruence. }
  constructor.
  - discriminate.
  - rewrite EF. simpl. repeat split; auto.
    eapply flat_ok_ext; [|apply (ti_flat _ _ _ HT)]. auto.
  - rewrite EF. intros v [<-|Hv]; [|now apply (ti_range _ _ _ HT)]. exists i; auto.
  - unfold decide_top at 3; cbn [t_levels trail_decide with_bm levels_ok]. split.
    + repeat split.
      * intros v [<-|[]]. unfold decide_top; simpl. now rewrite vupd_eq.
      * pose proof (ti_ne _ _ _ HT). destruct (t_levels t); [congruence|]. simpl.
        exists [], (VBool i). split; auto. intros e [].
      * intros _ j r [K|[]]. inversion K.
    + eapply levels_ok_ext; [| |apply (ti_lev _ _ _ HT)]; auto.
  - intros v Hv. rewrite EF. simpl. unfold decide_top in Hv; simpl in Hv.
    destruct (var_eq_dec v (VBool i)) as [->|E]; auto. rewrite vupd_neq in Hv by auto.
    right. now apply (ti_dom _ _ _ HT).
  - intros j. rewrite EF. unfold decide_top; simpl.
    destruct (Nat.eq_dec j i) as [->|E].
    + rewrite upd_eq. split; auto.
    + rewrite upd_neq by auto. rewrite (ti_def _ _ _ HT). split; auto. intros [K|K]; auto. congruence.
  - rewrite EF. intros v ro [K|K].
    + inversion K; subst. unfold decide_top; simpl. now rewrite vupd_eq.
    + unfold decide_top; simpl. rewrite vupd_neq. now apply (ti_rsn _ _ _ HT).
      intros ->. apply Hnf. apply in_map_iff. exists (VBool i, ro); auto.
  - rewrite EF. simpl. intros v Hv. unfold decide_top; simpl. rewrite vupd_neq by (intros ->; auto).
    apply (ti_rsn_none _ _ _ HT). auto.
Qed.

(** ** Backtracking *)
Definition keep (k : nat) (o : option nat) : bool :=
  match o with Some j => j <=? k | None => false end.

Lemma nodup_app_disj {A} (l1 l2 : list A) x : NoDup (l1 ++ l2) -> In x l1 -> In x l2 -> False.
Proof.
  induction l1 as [|u us IH]; simpl; intros ND H1 H2; auto. inversion ND as [|? ? N1 N2]; subst.
  destruct H1 as [E|H1]; auto. subst. apply N1. rewrite in_app_iff; auto.
Qed.

Lemma pop_TI n d t level :
  TI n d t -> level < dl t ->
  let t' := pop_level (fold_left (unassign level) (recent t) t) in
  TI n d t' /\ dl t = S (dl t') /\ tval t' = tval t /\ t_levels t' = tl (t_levels t) /\
  (forall v, t_lvl t' v = if keep (dl t') (t_lvl t v) then t_lvl t v else None) /\
  (forall v, t_rsn t' v = if keep (dl t') (t_lvl t v) then t_rsn t v else None) /\
  (forall i, mdef (t_bm t') i = keep (dl t') (t_lvl t (VBool i))).
Proof.
  intros HT Hlt t'.
  destruct (unassign_fold level (recent t) t) as (U1 & U2 & U3 & U4 & U5 & U6 & U7).
  assert (Hhit : forall v, hit level t (recent t) v = true <-> In v (map fst (recent t))).
  { intros v. unfold hit. rewrite andb_true_iff, existsb_var. split; [tauto|]. intros I. split; auto.
    apply (lev_dl_recent _ _ _ HT) in I. rewrite I. apply Nat.ltb_lt. auto. }
  assert (Hdl : dl t = S (dl t')).
  { pose proof (dl_S _ _ _ HT) as S1. unfold t', pop_level, dl at 2. simpl. rewrite U1.
    destruct (t_levels t); simpl in *; lia. }
  assert (Hhk : forall v, hit level t (recent t) v = negb (keep (dl t') (t_lvl t v)) \/ t_lvl t v = None).
  { intros v. destruct (t_lvl t v) as [k|] eqn:E; auto. left. simpl.
    pose proof (lev_le_dl _ _ _ HT _ _ E) as K.
    destruct (hit level t (recent t) v) eqn:Eh.
    - apply Hhit in Eh. apply (lev_dl_recent _ _ _ HT) in Eh.
      destruct (Nat.leb_spec k (dl t')); auto. rewrite E in Eh; inversion Eh. lia.
    - destruct (Nat.leb_spec k (dl t')); auto. exfalso.
      assert (In v (map fst (recent t))) by (apply (lev_dl_recent _ _ _ HT); rewrite E; f_equal; lia).
      apply Hhit in H0. congruence. }
  assert (L2 : forall v, t_lvl t' v = if keep (dl t') (t_lvl t v) then t_lvl t v else None).
  { intros v. unfold t'. simpl t_lvl. rewrite U2. destruct (Hhk v) as [E|E]; rewrite E; simpl.
    - destruct (keep _ _); auto.
    - destruct (hit _ _ _ _); auto. }
  assert (L3 : forall v, t_rsn t' v = if keep (dl t') (t_lvl t v) then t_rsn t v else None).
  { intros v. unfold t'. simpl t_rsn. rewrite U3. destruct (Hhk v) as [->|E]; simpl.
    - destruct (keep _ _); auto.
    - rewrite E; simpl. destruct (hit _ _ _ _); auto.
      apply (ti_rsn_none _ _ _ HT). intros I. apply (dom_iff _ _ _ HT) in I. congruence. }
  assert (L6 : forall i, mdef (t_bm t') i = keep (dl t') (t_lvl t (VBool i))).
  { intros i. unfold t'. simpl t_bm. rewrite U6. destruct (Hhk (VBool i)) as [->|E]; simpl.
    - destruct (keep _ _) eqn:K; simpl; auto. apply (ti_def _ _ _ HT). apply (dom_iff _ _ _ HT).
      destruct (t_lvl t (VBool i)); simpl in K; congruence.
    - rewrite E; simpl. destruct (hit _ _ _ _); auto.
      destruct (mdef (t_bm t) i) eqn:D; auto. apply (ti_def _ _ _ HT) in D.
      apply (dom_iff _ _ _ HT) in D. congruence. }
  assert (Lval : tval t' = tval t) by (unfold tval, t'; simpl; apply U4).
  assert (Llev : t_levels t' = tl (t_levels t)) by (unfold t', pop_level; simpl; now rewrite U1).
  repeat match goal with |- _ /\ _ => split end; auto.
  clearbody t'.
  destruct (t_levels t) as [|es ls] eqn:EL; [destruct (ti_ne _ _ _ HT EL)|].
  simpl in Llev.
  assert (Edl : dl t' = length ls - 1) by (unfold dl; now rewrite Llev).
  assert (Els : ls <> []) by (intros ->; unfold dl in Hdl; rewrite EL in Hdl; simpl in Hdl; lia).
  assert (EF : flat t = es ++ flat t') by (unfold flat; rewrite EL, Llev; auto).
  assert (Hin : forall v, In v (map fst (flat t')) <-> keep (dl t') (t_lvl t v) = true).
  { intros v. split; intros Hv.
    - assert (I : In v (map fst (flat t))) by (rewrite EF, map_app, in_app_iff; auto).
      destruct (Hhk v) as [E|E]; [|apply (dom_iff _ _ _ HT) in I; congruence].
      destruct (keep _ _) eqn:K; auto. exfalso. simpl in E.
      apply Hhit in E. unfold recent in E. rewrite EL in E. simpl in E.
      pose proof (flat_ok_nodup _ _ _ (ti_flat _ _ _ HT)) as ND. rewrite EF, map_app in ND.
      eapply nodup_app_disj; eauto.
    - assert (I : In v (map fst (flat t))).
      { apply (dom_iff _ _ _ HT). destruct (t_lvl t v); simpl in Hv; congruence. }
      rewrite EF, map_app, in_app_iff in I. destruct I as [I|I]; auto. exfalso.
      pose proof (ti_lev _ _ _ HT) as L. rewrite EL in L. destruct L as [[L _] _].
      rewrite (L v I) in Hv. simpl in Hv. apply Nat.leb_le in Hv. destruct ls; simpl in *; [congruence|lia]. }
  constructor.
  - rewrite Llev; auto.
  - rewrite Lval. pose proof (ti_flat _ _ _ HT) as F. rewrite EF in F. apply flat_ok_app in F. auto.
  - intros v Hv. apply (ti_range _ _ _ HT). rewrite EF, map_app, in_app_iff; auto.
  - rewrite Lval, Llev. pose proof (ti_lev _ _ _ HT) as L. rewrite EL in L. destruct L as [_ L].
    eapply levels_ok_ext; [| |exact L]; auto.
    intros v k Hv Hk. rewrite L2, Hv. simpl. destruct (Nat.leb_spec k (dl t')); auto. exfalso. unfold entry in *; lia.
  - intros v Hv. rewrite L2 in Hv. apply Hin. destruct (keep _ _); congruence.
  - intros i. rewrite L6. symmetry. apply Hin.
  - intros v ro Hv. rewrite L3.
    assert (I : In v (map fst (flat t'))) by (apply in_map_iff; exists (v, ro); auto).
    apply Hin in I. rewrite I. apply (ti_rsn _ _ _ HT). rewrite EF, in_app_iff; auto.
  - intros v Hv. rewrite L3. destruct (keep _ _) eqn:K; auto. apply Hin in K. tauto.
Qed.

Lemma keep_keep j k o : k <= j -> keep k (if keep j o then o else None) = keep k o.
Proof.
  intros H. destruct o as [i|]; simpl; auto.
  destruct (Nat.leb_spec i j); simpl; auto. destruct (Nat.leb_spec i k); auto. lia.
Qed.

Lemma backtrack_TI n d level : forall m t,
  TI n d t -> level <= dl t -> m = dl t - level ->
  let t' := backtrack_loop m level t in
  TI n d t' /\ dl t' = level /\ tval t' = tval t /\ t_levels t' = skipn m (t_levels t) /\
  (forall v, t_lvl t' v = if keep level (t_lvl t v) then t_lvl t v else None) /\
  (forall v, t_rsn t' v = if keep level (t_lvl t v) then t_rsn t v else None) /\
  (forall i, mdef (t_bm t') i = keep level (t_lvl t (VBool i))).
Proof.
  induction m; intros t HT Hle Hm.
  - simpl. assert (dl t = level) by lia.
    assert (Hk : forall v k, t_lvl t v = Some k -> keep level (Some k) = true).
    { intros v k Hk. simpl. apply Nat.leb_le. apply (lev_le_dl _ _ _ HT) in Hk. lia. }
    repeat match goal with |- _ /\ _ => split end; auto; intros.
    + destruct (t_lvl t v) eqn:E; auto. rewrite (Hk _ _ E). auto.
    + destruct (t_lvl t v) eqn:E; [rewrite (Hk _ _ E); auto|].
      apply (ti_rsn_none _ _ _ HT). intros I. apply (dom_iff _ _ _ HT) in I. congruence.
    + destruct (mdef (t_bm t) i) eqn:E.
      * apply (ti_def _ _ _ HT) in E. apply (dom_iff _ _ _ HT) in E.
        destruct (t_lvl t (VBool i)) eqn:E'; [|congruence]. rewrite (Hk _ _ E'). auto.
      * destruct (t_lvl t (VBool i)) eqn:E'; auto. exfalso.
        assert (In (VBool i) (map fst (flat t))) by (apply (dom_iff _ _ _ HT); congruence).
        apply (ti_def _ _ _ HT) in H0. congruence.
  - cbn [backtrack_loop]. destruct (pop_TI n d t level HT) as (P1 & P2 & P3 & P4 & P5 & P6 & P7); [lia|].
    set (t1 := pop_level (fold_left (unassign level) (recent t) t)) in *.
    destruct (IHm t1) as (I1 & I2 & I3 & I4 & I5 & I6 & I7); auto; try lia.
    repeat match goal with |- _ /\ _ => split end; auto; intros.
    + congruence.
    + rewrite I4, P4. destruct (t_levels t); simpl; auto. now rewrite skipn_nil.
    + rewrite I5, P5, keep_keep by lia.
      destruct (keep level (t_lvl t v)) eqn:E; auto. destruct (t_lvl t v) as [k|]; simpl in *; auto.
      apply Nat.leb_le in E. destruct (Nat.leb_spec k (dl t1)); auto; lia.
    + rewrite I6, P5, P6, keep_keep by lia.
      destruct (keep level (t_lvl t v)) eqn:E; auto. destruct (t_lvl t v) as [k|]; simpl in *; [|discriminate].
      apply Nat.leb_le in E. destruct (Nat.leb_spec k (dl t1)); auto; lia.
    + rewrite I7, P5, keep_keep by lia. auto.
Qed.

Lemma TI_clear n d t : TI n d (trail_clear t).
Proof.
  constructor; simpl; try easy.
Qed.

Lemma TI_new n d nq : TI n d (trail_new n nq).
Proof.
  constructor; simpl; try easy.
Qed.
