(** Conflict analysis and clause minimisation. *)
From Coq Require Import List Arith ZArith Bool Lia Permutation Sorting.Sorted.
From Verif Require Import Base Core_Model Literal_Proofs Analysis_Model Bool_Model Sat_Base Sat_Inv
  Sat_Trail Sat_Prop Sat_Bcp Sort_Proofs Subsumption_Proofs.
Import ListNotations.
Open Scope nat_scope.

Lemma entails_in cs c : In c cs -> entails cs c.
Proof. intros H a Ha. auto. Qed.
Lemma entails_incl cs c c' : (forall x, In x c -> In x c') -> entails cs c -> entails cs c'.
Proof. intros H H1 a Ha. destruct (H1 a Ha) as (l & A & B). exists l; auto. Qed.

Definition top_lits (t : trail) (s : list lit) : list lit := filter (at_level t (dl t)) s.

Lemma at_level_iff t k l : at_level t k l = true <-> lev t l = Some k.
Proof.
  unfold at_level, lit_level, lev. destruct (t_lvl t (lvar l)) as [j|]; [|split; discriminate].
  rewrite Nat.eqb_eq. split; [intros ->; auto|intros H; now inversion H].
Qed.

Lemma count_level_pos t k s x : In x s -> lev t x = Some k -> (1 <= count_level t k s)%Z.
Proof.
  intros H1 H2. unfold count_level.
  assert (I : In x (filter (at_level t k) s)) by (apply filter_In; split; auto; now apply at_level_iff).
  destruct (filter (at_level t k) s); simpl in *; [easy|lia].
Qed.

(** false literals of the same variable are equal *)
Lemma false_same t x y : tv t x = Some false -> tv t y = Some false -> lord x = lord y -> x = y.
Proof.
  intros Hx Hy E. apply same_var_lit in E. destruct E as [E|E]; auto. subst x.
  unfold tv in Hx. apply eval_lit_neg_false in Hx. unfold tv in Hy. congruence.
Qed.

Lemma cset_insert_spec l s s' b : cset_insert l s = (s', b) ->
  (b = true /\ ~ In l s /\ s' = l :: s) \/ (b = false /\ In l s /\ s' = s).
Proof.
  unfold cset_insert. destruct (mem_lit l s) eqn:E; intros H; inversion H; subst.
  - right. apply mem_lit_In in E. auto.
  - left. apply mem_lit_notIn in E. auto.
Qed.

Section Analysis.
Variables (n : nat) (d : db) (t : trail).
Hypothesis HT : TI n d t.
(** a clause set that contains all reason clauses on the trail *)
Variable cs : list clause.
Hypothesis HRS : forall v r, In (v, Some r) (flat t) -> In (getc d r) cs.

Lemma init_loop_ok : forall c s top,
  all_false t c -> NoDup s ->
  exists s' top', init_loop t c s top = Ok (s', top') /\ NoDup s' /\
    (forall x, In x s' <-> In x s \/ In x c) /\
    top <= top' /\ (forall x k, In x c -> lev t x = Some k -> k <= top') /\
    (top' = top \/ exists x, In x c /\ lev t x = Some top').
Proof.
  induction c as [|l c IH]; intros s top Hf Hs.
  - exists s, top. simpl. repeat split; auto; try tauto; try easy.
  - assert (Hl : tv t l = Some false) by (apply Hf; simpl; auto).
    destruct (tv_some_lev _ _ _ HT _ _ Hl) as (k & Hk). cbn [init_loop].
    unfold lit_level. unfold lev in Hk. rewrite Hk. cbn [value_of bind].
    destruct (cset_insert l s) as [s1 b] eqn:E. cbn [fst].
    destruct (IH s1 (Nat.max top k)) as (s' & top' & I1 & I2 & I3 & I4 & I5 & I6).
    { intros x Hx. apply Hf. simpl; auto. }
    { apply cset_insert_spec in E. destruct E as [(_ & ? & ->)|(_ & ? & ->)]; auto. constructor; auto. }
    exists s', top'. split; auto. split; auto. split; [|split; [lia|split]].
    + intros x. rewrite I3. apply cset_insert_spec in E. simpl.
      destruct E as [(_ & ? & ->)|(_ & ? & ->)]; simpl; intuition (subst; auto).
    + intros x j [<-|Hx] Hj; eauto. unfold lev in Hj. rewrite Hk in Hj. inversion Hj; subst. lia.
    + destruct I6 as [I6|(x & X1 & X2)]; [|right; exists x; simpl; auto].
      destruct (Nat.max_spec top k) as [[M1 M2]|[M1 M2]]; rewrite M2 in I6; auto.
      right. exists l. simpl. split; auto. unfold lev. congruence.
Qed.

Lemma resolve_loop_ok top cl : forall other s m s' m',
  resolve_loop t top cl other s m = (s', m') -> NoDup s -> m = count_level t top s ->
  NoDup s' /\ m' = count_level t top s' /\
  (forall x, In x s' <-> In x s \/ (In x other /\ x <> neg cl)).
Proof.
  induction other as [|l other IH]; intros s m s' m' H Hs Hm; simpl in H.
  - inversion H; subst. repeat split; auto. intros [?|[[] _]]; auto.
  - destruct (lit_eqb l (neg cl)) eqn:E.
    + apply lit_eqb_eq in E. apply IH in H; auto. destruct H as (H1 & H2 & H3). repeat split; auto.
      * intros K. apply H3 in K. simpl. tauto.
      * intros [K|[[K|K] K']]; apply H3; auto. congruence.
    + apply lit_eqb_neq in E. destruct (cset_insert l s) as [s1 b] eqn:Ei.
      apply cset_insert_spec in Ei.
      assert (K : NoDup s1 /\ (if b && at_level t top l then (m + 1)%Z else m) = count_level t top s1 /\
                  forall x, In x s1 <-> In x s \/ x = l).
      { destruct Ei as [(-> & I1 & ->)|(-> & I1 & ->)].
        - split; [constructor; auto|]. split.
          + unfold count_level in *. simpl. destruct (at_level t top l); cbn [andb length]; rewrite Hm; auto.
            rewrite Nat2Z.inj_succ. lia.
          + simpl. intuition.
        - split; auto. split; auto. intuition. subst; auto. }
      destruct K as (K1 & K2 & K3). apply IH in H; auto. destruct H as (H1 & H2 & H3).
      repeat split; auto.
      * intros K. apply H3 in K. rewrite K3 in K. simpl. destruct K as [[K|K]|[K K']]; auto. subst; auto.
      * intros [K|[[K|K] K']]; apply H3; rewrite K3; auto.
Qed.

Lemma cset_remove_in l s x : In x (cset_remove l s) <-> In x s /\ x <> l.
Proof.
  unfold cset_remove. rewrite filter_In, negb_true_iff, lit_eqb_neq. tauto.
Qed.
Lemma cset_remove_count k l s :
  NoDup s -> In l s -> lev t l = Some k -> (count_level t k (cset_remove l s) = count_level t k s - 1)%Z.
Proof.
  intros Hs Hin Hl. unfold count_level, cset_remove. revert Hin.
  induction s as [|x s IH]; [easy|]. inversion Hs as [|? ? N1 N2]; subst. intros [->|Hin].
  - cbn [filter]. rewrite lit_eqb_refl. cbn [negb].
    rewrite (proj2 (at_level_iff t k l) Hl). cbn [length].
    assert (E : filter (fun y => negb (lit_eqb y l)) s = s).
    { clear -N1. induction s as [|y s IH]; simpl; auto.
      assert (y <> l) by (intros ->; apply N1; simpl; auto).
      rewrite (proj2 (lit_eqb_neq y l)) by auto. simpl. f_equal. apply IH. intros K; apply N1; simpl; auto. }
    rewrite E. lia.
  - assert (x <> l) by (intros ->; auto). cbn [filter]. rewrite (proj2 (lit_eqb_neq x l)) by auto. cbn [filter negb].
    specialize (IH N2 Hin). destruct (at_level t k x); cbn [length]; lia.
Qed.

Definition cset_inv (s : list lit) (m : Z) (es : list entry) : Prop :=
  NoDup s /\ all_false t s /\ entails cs s /\
  m = count_level t (dl t) s /\ (1 <= m)%Z /\
  (forall l, In l s -> lev t l = Some (dl t) -> In (lvar l) (map fst es)).

Lemma flase_lit i : In (VBool i) (map fst (flat t)) -> tv t (mkLit i (mval (t_bm t) i)) = Some false.
Proof.
  intros I. rewrite (in_flat_tv _ _ _ HT) by auto. f_equal. unfold lit_holds, tval; simpl.
  destruct (mval (t_bm t) i) eqn:E; auto.
Qed.

Lemma analyze_loop_ok : forall es pre v s m acc,
  recent t = pre ++ es ++ [(v, None)] -> (forall e, In e es -> has_reason e) ->
  1 <= dl t ->
  cset_inv s m (es ++ [(v, None)]) ->
  exists s' acc', analyze_loop d t (dl t) (es ++ [(v, None)]) s m acc = Ok (s', 1%Z, acc') /\
    NoDup s' /\ all_false t s' /\ entails cs s' /\ count_level t (dl t) s' = 1%Z.
Proof.
  induction es as [|[u ro] es IH]; intros pre v s m acc Hrec Hr Hdl (I1 & I2 & I3 & I4 & I5 & I6).
  - cbn [app] in *.
    assert (Hm : m = 1%Z).
    { assert (Hone : forall a b, In a (filter (at_level t (dl t)) s) -> In b (filter (at_level t (dl t)) s) -> a = b).
      { intros a b Ha Hb. apply filter_In in Ha, Hb. destruct Ha as [A1 A2], Hb as [B1 B2].
        apply at_level_iff in A2, B2. apply (false_same t); auto.
        destruct (I6 a A1 A2) as [E1|[]], (I6 b B1 B2) as [E2|[]]. simpl in *.
        unfold lvar in *. congruence. }
      assert (HN : NoDup (filter (at_level t (dl t)) s)) by (now apply NoDup_filter).
      unfold count_level in I4. destruct (filter (at_level t (dl t)) s) as [|a [|b l]]; simpl in *; try lia.
      exfalso. inversion HN as [|? ? N1 N2]; subst. apply N1. left. apply Hone; auto. }
    exists s, acc. rewrite Hm in *. split; [|now repeat split].
    simpl. destruct (can_backtrack s 1); auto. destruct v; auto; destruct (can_backtrack s 1); auto.
  - cbn [app analyze_loop].
    destruct (can_backtrack s m) eqn:Ec.
    { exists s, acc. unfold can_backtrack in Ec. apply andb_true_iff in Ec. destruct Ec as [Ec _].
      apply Z.eqb_eq in Ec. rewrite Ec in *. repeat split; auto. }
    destruct ro as [r|]; [|destruct (Hr (u, None) (or_introl eq_refl)); auto].
    assert (Hrc : In (u, Some r) (recent t)) by (rewrite Hrec; rewrite in_app_iff; simpl; auto).
    pose proof (recent_flat _ _ _ _ HT Hrc) as Hfl.
    destruct (ti_range _ _ _ HT u) as (i & -> & Hi).
    { apply in_map_iff. exists (u, Some r); auto. }
    assert (Hlu : t_lvl t (VBool i) = Some (dl t)).
    { apply (lev_dl_recent _ _ _ HT). apply in_map_iff. exists (VBool i, Some r); auto. }
    rewrite Hlu. cbn [value_of bind]. rewrite Nat.eqb_refl. cbn [andb].
    set (l := mkLit i (mval (t_bm t) i)).
    assert (Hlf : tv t l = Some false) by (apply flase_lit; apply in_map_iff; exists (VBool i, Some r); auto).
    assert (Hrec' : recent t = (pre ++ [(VBool i, Some r)]) ++ es ++ [(v, None)]) by (rewrite <- app_assoc; auto).
    assert (Hr' : forall e, In e es -> has_reason e) by (intros; apply Hr; simpl; auto).
    assert (Hnl : neg l = tlit (tval t) i) by reflexivity.
    destruct (mem_lit l s) eqn:Em.
    + apply mem_lit_In in Em.
      destruct (flat_reason _ _ _ _ _ HT Hfl) as (R1 & R2 & R3).
      (* structure of the flat trail around this element *)
      assert (HF : exists low, flat t = (pre ++ [(VBool i, Some r)]) ++ (es ++ [(v, None)]) ++ low /\
                   forall w, In w (map fst low) -> t_lvl t w <> Some (dl t)).
      { unfold flat, recent in *. destruct (t_levels t) as [|top low] eqn:EL; [destruct (ti_ne _ _ _ HT EL)|].
        simpl in Hrec'. exists (concat low). simpl. rewrite Hrec'. rewrite <- !app_assoc. split; auto.
        intros w Hw Hc. 
        assert (I : In w (map fst top)).
        { apply (lev_dl_recent _ _ _ HT) in Hc. unfold recent in Hc. rewrite EL in Hc. auto. }
        pose proof (flat_ok_nodup _ _ _ (ti_flat _ _ _ HT)) as ND. unfold flat in ND. rewrite EL in ND.
        simpl in ND. rewrite map_app in ND. eapply nodup_app_disj; eauto. }
      destruct HF as (low & HF & Hlow).
      assert (Hpost : forall x, In x (getc d r) -> x = neg l \/
                 (In (lvar x) (map fst ((es ++ [(v, None)]) ++ low)) /\ tv t x = Some false)).
      { pose proof (ti_flat _ _ _ HT) as F. rewrite HF, <- app_assoc in F. simpl in F.
        apply flat_ok_mid in F. destruct F as (j & Ej & F1 & F2 & F3). inversion Ej; subst j.
        intros x Hx. destruct (F3 x Hx) as [?|[A B]]; [left; auto|right].
        split; auto. rewrite <- B. apply (in_flat_tv _ _ _ HT). rewrite HF, !map_app, !in_app_iff.
        rewrite !map_app, !in_app_iff in A. tauto. }
      assert (Hnot : ~ In (VBool i) (map fst ((es ++ [(v, None)]) ++ low))).
      { pose proof (ti_flat _ _ _ HT) as F. rewrite HF, <- app_assoc in F. simpl in F.
        apply flat_ok_app in F. simpl in F. tauto. }
      unfold resolve. destruct (resolve_loop t (dl t) l (getc d r) s m) as [s1 m1] eqn:Er.
      apply resolve_loop_ok in Er; auto. destruct Er as (E1 & E2 & E3).
      assert (Hal : at_level t (dl t) l = true) by (apply at_level_iff; exact Hlu).
      rewrite Hal. cbn [assertb bind].
      assert (Hl1 : In l s1) by (apply E3; auto).
      assert (Hne : forall x, In x (getc d r) -> x <> neg l -> x <> l).
      { intros x Hx Hx'. destruct (Hpost x Hx) as [?|[A _]]; [congruence|].
        intros ->. apply Hnot. exact A. }
      apply IH with (pre := pre ++ [(VBool i, Some r)]); auto.
      repeat split.
      * now apply NoDup_filter.
      * intros x Hx. apply cset_remove_in in Hx. destruct Hx as [Hx Hxl]. apply E3 in Hx.
        destruct Hx as [Hx|[Hx Hx']]; auto. destruct (R3 x Hx); auto. congruence.
      * intros a Ha. destruct (I3 a Ha) as (x & X1 & X2).
        destruct (lit_eq_dec x l) as [-> |Hxl].
        -- destruct (Ha (getc d r)) as (y & Y1 & Y2). { eapply HRS; exact Hfl. }
           assert (y <> neg l). { intros ->. rewrite lit_holds_neg, X2 in Y2. discriminate. }
           exists y. split; auto. apply cset_remove_in. split; auto. apply E3. auto.
        -- exists x. split; auto. apply cset_remove_in. split; auto. apply E3. auto.
      * rewrite E2. symmetry. apply cset_remove_count; auto.
      * rewrite E2, <- (cset_remove_count (dl t) l s1) by auto.
        pose proof (ti_lev _ _ _ HT) as HL. destruct (t_levels t) as [|top lows] eqn:EL; [destruct (ti_ne _ _ _ HT EL)|].
        destruct HL as [(_ & _ & HL) _].
        assert (Edl : dl t = length lows) by (unfold dl; rewrite EL; simpl; lia).
        unfold recent in Hrc. rewrite EL in Hrc. simpl in Hrc.
        rewrite <- Edl in HL.
        destruct (HL Hdl i r Hrc) as (x & X1 & X2 & X3). rewrite <- Hnl in X2.
        apply count_level_pos with (x := x); auto. apply cset_remove_in. split; auto. apply E3; auto.
      * intros x Hx Hlx. apply cset_remove_in in Hx. destruct Hx as [Hx Hxl]. apply E3 in Hx.
        destruct Hx as [Hx|[Hx Hx']].
        -- destruct (I6 x Hx Hlx) as [E|E]; auto. exfalso. apply Hxl. apply (false_same t); auto.
           simpl in *. unfold lvar in E. congruence.
        -- destruct (Hpost x Hx) as [?|[A _]]; [congruence|]. rewrite map_app, in_app_iff in A.
           destruct A as [A|A]; auto. exfalso. eapply Hlow; eauto.
    + apply mem_lit_notIn in Em.
      apply IH with (pre := pre ++ [(VBool i, Some r)]); auto.
      repeat split; auto. intros x Hx Hlx. destruct (I6 x Hx Hlx) as [E|E]; auto. exfalso.
      assert (x = l); [|congruence]. apply (false_same t); auto. simpl in *. unfold lvar in E. congruence.
Qed.

(** ** finish *)
Definition lev_ge (a b : lit) : Prop := lvl_or t b <= lvl_or t a.

Lemma finish_sorted s : StronglySorted lev_ge (sort_by (finish_lt t) s).
Proof.
  apply sort_sorted.
  - unfold lev_ge; intros; lia.
  - intros x y H. unfold finish_lt in H. unfold lev_ge.
    destruct (Nat.ltb_spec (lvl_or t y) (lvl_or t x)); [lia|].
    destruct (Nat.eqb_spec (lvl_or t x) (lvl_or t y)); simpl in H; [lia|discriminate].
  - intros x y H. unfold finish_lt in H. unfold lev_ge.
    destruct (Nat.ltb_spec (lvl_or t y) (lvl_or t x)); [discriminate|lia].
Qed.

(** shape of a clause returned by the analysis: the first literal is the only one of the current
    level, the others are sorted by decreasing level *)
Definition asserting (c : clause) : Prop :=
  exists l0 rest, c = l0 :: rest /\ lev t l0 = Some (dl t) /\
    (forall x, In x rest -> exists k, lev t x = Some k /\ k < dl t) /\
    StronglySorted lev_ge c.

Definition assert_level (c : clause) : nat :=
  match c with _ :: l1 :: _ => match lev t l1 with Some k => k | None => 0 end | _ => 0 end.

Lemma finish_ok s :
  NoDup s -> all_false t s -> count_level t (dl t) s = 1%Z ->
  exists c, finish t (dl t) s 1 = Ok (c, Z.of_nat (assert_level c)) /\ Permutation s c /\ asserting c.
Proof.
  intros H1 H2 H3. set (c := sort_by (finish_lt t) s).
  assert (HP : Permutation s c) by apply sort_perm.
  assert (HS : StronglySorted lev_ge c) by apply finish_sorted.
  assert (HF : all_false t c) by (eapply all_false_perm; eauto).
  assert (HN : NoDup c) by (eapply Permutation_NoDup; eauto).
  exists c. unfold finish. fold c.
  assert (HC : length (filter (at_level t (dl t)) c) = 1).
  { unfold count_level in H3.
    assert (E : length (filter (at_level t (dl t)) c) = length (filter (at_level t (dl t)) s)).
    { clear -HP. induction HP; simpl; auto.
      - destruct (at_level t (dl t) x); simpl; auto.
      - destruct (at_level t (dl t) x), (at_level t (dl t) y); simpl; auto.
      - congruence. }
    lia. }
  clearbody c. destruct c as [|l0 rest]; [discriminate|].
  split; [|split; auto].
  - rewrite (eval_clause_all_false t (l0 :: rest) HF). cbn [assertb bind]. simpl.
    destruct rest as [|l1 rest]; auto.
    assert (Hl1 : tv t l1 = Some false) by (apply HF; simpl; auto).
    destruct (tv_some_lev _ _ _ HT _ _ Hl1) as (k & Hk). unfold lit_level, lev in *. rewrite Hk. auto.
  - exists l0, rest. split; auto.
    assert (Hle : forall x, In x (l0 :: rest) -> exists k, lev t x = Some k /\ k <= dl t).
    { intros x Hx. destruct (tv_some_lev _ _ _ HT _ _ (HF x Hx)) as (k & Hk). exists k. split; auto.
      eapply lev_le_dl; eauto. }
    assert (H0 : lev t l0 = Some (dl t)).
    { destruct (at_level t (dl t) l0) eqn:E; [now apply at_level_iff in E|]. exfalso.
      simpl in HC. rewrite E in HC.
      destruct (filter (at_level t (dl t)) rest) as [|y ys] eqn:Ef; [discriminate|].
      assert (Iy : In y (filter (at_level t (dl t)) rest)) by (rewrite Ef; simpl; auto).
      apply filter_In in Iy. destruct Iy as [Iy1 Iy2]. apply at_level_iff in Iy2.
      inversion HS as [|? ? S1 S2]; subst. rewrite Forall_forall in S2. specialize (S2 y Iy1).
      unfold lev_ge, lvl_or, lit_level in S2. unfold lev in Iy2. rewrite Iy2 in S2.
      destruct (Hle l0 (or_introl eq_refl)) as (k & K1 & K2). unfold lev in K1. rewrite K1 in S2.
      assert (k = dl t) by lia. subst k.
      assert (at_level t (dl t) l0 = true) by (apply at_level_iff; exact K1). congruence. }
    split; auto. split; auto. intros x Hx. destruct (Hle x (or_intror Hx)) as (k & K1 & K2).
    exists k. split; auto. assert (k <> dl t); [|lia]. intros ->.
    simpl in HC. rewrite (proj2 (at_level_iff t (dl t) l0) H0) in HC. simpl in HC.
    assert (Ix : In x (filter (at_level t (dl t)) rest)) by (apply filter_In; split; auto; now apply at_level_iff).
    destruct (filter (at_level t (dl t)) rest); simpl in *; [easy|lia].
Qed.

Lemma analyze_ok c :
  1 <= dl t -> all_false t c -> entails cs c ->
  (exists x, In x c /\ lev t x = Some (dl t)) ->
  exists c' acc, analyze d t c = Ok (c', Z.of_nat (assert_level c'), acc) /\
    NoDup c' /\ all_false t c' /\ entails cs c' /\ asserting c'.
Proof.
  intros Hdl Hf He (x & X1 & X2). unfold analyze. rewrite (eval_clause_all_false t c Hf). cbn [assertb bind].
  destruct (init_loop_ok c [] 0 Hf (NoDup_nil _)) as (s & top & I1 & I2 & I3 & I4 & I5 & I6).
  rewrite I1. cbn [bind].
  assert (Htop : top = dl t).
  { specialize (I5 x _ X1 X2). destruct I6 as [->|(y & Y1 & Y2)]; [lia|].
    apply (lev_le_dl _ _ _ HT) in Y2. lia. }
  subst top.
  assert (HA : assigned_at t (dl t) = Ok (recent t)).
  { unfold assigned_at. rewrite Nat.leb_refl, Nat.sub_diag. unfold recent, at_.
    pose proof (ti_ne _ _ _ HT). destruct (t_levels t); [congruence|auto]. }
  rewrite HA. cbn [bind].
  assert (HR : exists es v, recent t = es ++ [(v, None)] /\ forall e, In e es -> has_reason e).
  { pose proof (ti_lev _ _ _ HT) as HL. unfold recent.
    destruct (t_levels t) as [|es ls] eqn:EL; [destruct (ti_ne _ _ _ HT EL)|].
    destruct HL as [(_ & HL & _) _]. simpl.
    assert (Edl : dl t = length ls) by (unfold dl; rewrite EL; simpl; lia).
    destruct (length ls); [lia|]. destruct HL as (es' & v & -> & K). eauto. }
  destruct HR as (es & v & HR & Hres). rewrite HR.
  assert (Hsf : all_false t s) by (intros y Hy; apply I3 in Hy; destruct Hy as [[]|Hy]; auto).
  destruct (analyze_loop_ok es [] v s (count_level t (dl t) s) []) as (s' & acc & L1 & L2 & L3 & L4 & L5); auto.
  { repeat split; auto.
    - eapply entails_incl; [|exact He]. intros y Hy. apply I3. auto.
    - apply count_level_pos with (x := x); auto. apply I3; auto.
    - intros y Hy Hly. rewrite <- HR. now apply (lev_dl_recent _ _ _ HT). }
  rewrite L1. cbn [bind].
  destruct (finish_ok s' L2 L3 L5) as (c' & F1 & F2 & F3). rewrite F1. cbn [bind].
  exists c', acc. split; auto. split; [eapply Permutation_NoDup; eauto|].
  split; [eapply all_false_perm; eauto|]. split; auto.
  eapply entails_incl; [|exact L4]. intros y Hy. eapply Permutation_in; eauto.
Qed.

(** ** minimisation *)
Lemma sub_sorted {A} (R : A -> A -> Prop) l l' : sub l l' -> StronglySorted R l' -> StronglySorted R l.
Proof.
  induction 1 as [|x l l' H IH|x l l' H IH]; intros S; auto; inversion S as [|? ? S1 S2]; subst; auto.
  constructor; auto. rewrite Forall_forall in *. intros y Hy. apply S2. eapply sub_in; eauto.
Qed.
(** removed literals have a reason whose other literals all occur in the clause *)
Definition removable (orig : clause) (l : lit) : Prop :=
  exists r, In (lvar l, Some r) (flat t) /\ forall x, In x (getc d r) -> x = neg l \/ In x orig.

Lemma rsn_flat v r : t_rsn t v = Some r -> In (v, Some r) (flat t).
Proof.
  intros H. assert (I : In v (map fst (flat t))).
  { destruct (in_dec var_eq_dec v (map fst (flat t))) as [K|K]; auto.
    apply (ti_rsn_none _ _ _ HT) in K. congruence. }
  apply in_map_iff in I. destruct I as ([v' ro] & E & I). simpl in E. subst v'.
  pose proof (ti_rsn _ _ _ HT _ _ I) as K. rewrite H in K. now subst ro.
Qed.

Lemma is_redundant_ok orig cur l :
  all_false t orig -> In l cur -> In l orig -> (forall x, In x cur -> In x orig) ->
  exists b, is_redundant d t cur l = Ok b /\ (b = true -> removable orig l).
Proof.
  intros Hf Hc Ho Hsub. unfold is_redundant.
  assert (Hl : tv t l = Some false) by auto.
  assert (Hn : tv t (neg l) = Some true) by (now apply eval_lit_neg_true).
  unfold tv in Hn. rewrite Hn. simpl.
  destruct (t_rsn t (lvar l)) as [r|] eqn:Er; [|eexists; split; [reflexivity|discriminate]].
  apply rsn_flat in Er.
  destruct (flat_reason _ _ _ _ _ HT Er) as (R1 & R2 & R3).
  assert (Etl : tlit (tval t) (lord l) = neg l).
  { change (lord l) with (lord (neg l)). apply true_lit_of. exact Hn. }
  rewrite Etl in *. unfold selfsubsumes.
  rewrite (proj2 (mem_lit_In (neg l) (getc d r))) by auto. rewrite neg_neg.
  rewrite (proj2 (mem_lit_In l cur)) by auto. cbn [assertb bind].
  eexists; split; [reflexivity|]. intros H. apply andb_true_iff in H. destruct H as [_ H].
  exists r. split; auto. intros x Hx. rewrite forallb_forall in H. specialize (H x Hx).
  apply orb_true_iff in H. destruct H as [H|H]; [left; now apply lit_eqb_eq|right].
  apply Hsub. now apply mem_lit_In.
Qed.

Lemma skipn_in {A} k (l : list A) x : In x (skipn k l) -> In x l.
Proof. intros H. rewrite <- (firstn_skipn k l). apply in_app_iff. auto. Qed.

Lemma minimize_loop_ok orig : all_false t orig ->
  forall rest tested kept, orig = tested ++ rest -> sub kept tested ->
  (forall x, In x tested -> In x kept \/ removable orig x) ->
  exists c, minimize_loop d t orig kept rest = Ok c /\ sub c orig /\
    (forall x, In x orig -> In x c \/ removable orig x).
Proof.
  intros Hf. induction rest as [|l rest IH]; intros tested kept Ho Hs Hr.
  - rewrite app_nil_r in Ho. subst tested. exists kept. simpl. auto.
  - cbn [minimize_loop].
    assert (Hlen : length kept <= length tested) by (now apply sub_length).
    destruct (is_redundant_ok orig (kept ++ skipn (length kept) orig) l) as (b & B1 & B2); auto.
    + apply in_app_iff. right. rewrite Ho, skipn_app, in_app_iff. right.
      replace (length kept - length tested) with 0 by lia. simpl; auto.
    + rewrite Ho. apply in_app_iff; simpl; auto.
    + intros x Hx. apply in_app_iff in Hx. destruct Hx as [Hx|Hx]; [|eapply skipn_in; eauto].
      rewrite Ho. apply in_app_iff. left. eapply sub_in; eauto.
    + rewrite B1. cbn [bind]. apply (IH (tested ++ [l])).
      * rewrite <- app_assoc. auto.
      * destruct b.
        -- rewrite <- (app_nil_r kept). apply sub_app; auto. repeat constructor.
        -- apply sub_app; auto. apply sub_refl.
      * intros x Hx. apply in_app_iff in Hx. destruct Hx as [Hx|[<-|[]]].
        -- destruct (Hr x Hx); auto. left. destruct b; auto. apply in_app_iff; auto.
        -- destruct b; [right; auto|left; apply in_app_iff; simpl; auto].
Qed.

Lemma flat_suffix_reason es1 v r es2 i :
  flat t = es1 ++ (v, Some r) :: es2 -> v = VBool i ->
  forall x, In x (getc d r) -> x = tlit (tval t) i \/ In (lvar x) (map fst es2).
Proof.
  intros E -> x Hx. pose proof (ti_flat _ _ _ HT) as F. rewrite E in F. apply flat_ok_mid in F.
  destruct F as (j & Ej & _ & _ & F). inversion Ej; subst j. destruct (F x Hx) as [?|[? _]]; auto.
Qed.

Lemma removed_false orig c a :
  all_false t orig ->
  (forall x, In x orig -> In x c \/ removable orig x) ->
  all_hold a cs -> (forall x, In x c -> lit_holds a x = false) ->
  forall es es1, flat t = es1 ++ es ->
  forall x, In x orig -> In (lvar x) (map fst es) -> lit_holds a x = false.
Proof.
  intros Hf Hr Ha Hc. induction es as [|[v ro] es IH]; intros es1 E x Hx Hin; [easy|].
  assert (E' : flat t = (es1 ++ [(v, ro)]) ++ es) by (rewrite <- app_assoc; auto).
  destruct Hin as [Hin|Hin]; [|eapply IH; eauto].
  simpl in Hin. destruct (Hr x Hx) as [K|(r & K1 & K2)]; auto.
  assert (Hro : ro = Some r).
  { apply (ti_rsn _ _ _ HT) in K1. assert (In (v, ro) (flat t)) as K3 by (rewrite E; apply in_app_iff; simpl; auto).
    apply (ti_rsn _ _ _ HT) in K3. congruence. }
  subst ro. destruct (flat_reason _ _ _ _ _ HT K1) as (R1 & R2 & R3).
  assert (Etl : tlit (tval t) (lord x) = neg x).
  { change (lord x) with (lord (neg x)). apply true_lit_of. apply eval_lit_neg_true. apply Hf; auto. }
  destruct (Ha (getc d r)) as (y & Y1 & Y2); [eapply HRS; exact K1|].
  destruct (flat_suffix_reason es1 v r es (lord x) E Hin y Y1) as [Ey|Ey].
  - rewrite Etl in Ey. subst y. rewrite lit_holds_neg in Y2. now apply negb_true_iff.
  - destruct (K2 y Y1) as [->|Hy].
    + rewrite lit_holds_neg in Y2. now apply negb_true_iff.
    + rewrite (IH _ E' y Hy Ey) in Y2. discriminate.
Qed.

(** some literal of level [k] survives *)
Lemma removed_level orig c k :
  all_false t orig -> 1 <= k ->
  (forall x, In x orig -> In x c \/ removable orig x) ->
  forall es es1, flat t = es1 ++ es ->
  forall x, In x orig -> In (lvar x) (map fst es) -> lev t x = Some k ->
  exists y, In y c /\ In y orig /\ lev t y = Some k.
Proof.
  intros Hf Hk Hr. induction es as [|[v ro] es IH]; intros es1 E x Hx Hin Hl; [easy|].
  assert (E' : flat t = (es1 ++ [(v, ro)]) ++ es) by (rewrite <- app_assoc; auto).
  destruct Hin as [Hin|Hin]; [|eapply IH; eauto].
  simpl in Hin. destruct (Hr x Hx) as [K|(r & K1 & K2)]; [exists x; auto|].
  assert (Hro : ro = Some r).
  { apply (ti_rsn _ _ _ HT) in K1. assert (In (v, ro) (flat t)) as K3 by (rewrite E; apply in_app_iff; simpl; auto).
    apply (ti_rsn _ _ _ HT) in K3. congruence. }
  subst ro.
  assert (Etl : tlit (tval t) (lord x) = neg x).
  { change (lord x) with (lord (neg x)). apply true_lit_of. apply eval_lit_neg_true. apply Hf; auto. }
  (* the reason contains another literal of level k *)
  assert (W : exists y, In y (getc d r) /\ y <> neg x /\ lev t y = Some k).
  { assert (I : In (lvar x) (map fst (flat t))) by (apply in_map_iff; exists (lvar x, Some r); auto).
    destruct (in_flat_level _ _ _ HT _ I) as (ls1 & es' & ls2 & EL & I1 & I2).
    unfold lev in Hl. rewrite Hl in I2. inversion I2 as [Ek].
    pose proof (ti_lev _ _ _ HT) as HL. rewrite EL in HL. apply levels_ok_split in HL.
    destruct HL as (_ & _ & HL). rewrite <- Ek in HL.
    assert (I3 : In (lvar x, Some r) es').
    { apply in_map_iff in I1. destruct I1 as ([v' ro'] & Ev & I1). simpl in Ev. subst v'.
      assert (I4 : In (lvar x, ro') (flat t)) by (unfold flat; rewrite EL; apply in_concat; exists es'; split; auto; apply in_app_iff; simpl; auto).
      apply (ti_rsn _ _ _ HT) in I4. apply (ti_rsn _ _ _ HT) in K1. congruence. }
    destruct (HL Hk (lord x) r I3) as (y & Y1 & Y2 & Y3). exists y. rewrite Etl in Y2. rewrite <- Ek. repeat split; auto. }
  destruct W as (y & Y1 & Y2 & Y3).
  destruct (K2 y Y1) as [?|Hy]; [congruence|].
  destruct (flat_suffix_reason es1 v r es (lord x) E Hin y Y1) as [Ey|Ey]; [congruence|].
  eapply IH; eauto.
Qed.

Lemma all_false_in_flat c x : all_false t c -> In x c -> In (lvar x) (map fst (flat t)).
Proof. intros H Hx. eapply tv_in_flat; eauto. Qed.

Lemma minimize_ok c :
  1 <= dl t -> NoDup c -> all_false t c -> entails cs c -> asserting c ->
  exists c', minimize d t c = Ok c' /\ sub c' c /\
    NoDup c' /\ all_false t c' /\ entails cs c' /\ asserting c' /\
    assert_level c' = assert_level c.
Proof.
  intros Hdl HN Hf He (l0 & rest & -> & A1 & A2 & A3).
  destruct (minimize_loop_ok (l0 :: rest) Hf (l0 :: rest) [] [] eq_refl sub_nil) as (c' & M1 & M2 & M3).
  { intros x []. }
  exists c'. split; auto. split; auto. split; [eapply sub_nodup; eauto|].
  assert (Hf' : all_false t c') by (intros x Hx; apply Hf; eapply sub_in; eauto).
  split; auto.
  assert (Hent : entails cs c').
  { intros a Ha. destruct (He a Ha) as (x & X1 & X2).
    assert (D : (exists y, In y c' /\ lit_holds a y = true) \/ forall y, In y c' -> lit_holds a y = false).
    { clear. induction c' as [|y c' IH]; [right; easy|].
      destruct (lit_holds a y) eqn:E; [left; exists y; simpl; auto|].
      destruct IH as [(z & Z1 & Z2)|IH]; [left; exists z; simpl; auto|right].
      intros z [<-|Hz]; auto. }
    destruct D as [D|D]; [exact D|]. exfalso.
    rewrite (removed_false (l0 :: rest) c' a Hf M3 Ha D (flat t) [] eq_refl x X1) in X2; [discriminate|].
    exact (all_false_in_flat (l0 :: rest) x Hf X1). }
  split; auto.
  assert (HS : StronglySorted lev_ge c') by (eapply sub_sorted; eauto).
  (* the first literal is kept *)
  assert (H0 : In l0 c').
  { destruct (removed_level (l0 :: rest) c' (dl t) Hf Hdl M3 (flat t) [] eq_refl l0) as (y & Y1 & Y2 & Y3); simpl; auto.
    { eapply all_false_in_flat; [exact Hf|simpl; auto]. }
    destruct Y2 as [<-|Y2]; auto. destruct (A2 y Y2) as (k & K1 & K2). rewrite K1 in Y3. inversion Y3. lia. }
  assert (Hc' : exists rest', c' = l0 :: rest' /\ sub rest' rest).
  { inversion M2 as [|x l l' S|x l l' S]; subst.
    - exfalso. inversion HN as [|? ? N1 N2]; subst. apply N1. eapply sub_in; eauto.
    - eauto. }
  destruct Hc' as (rest' & -> & Sr).
  split.
  { exists l0, rest'. repeat split; auto. intros x Hx. apply A2. eapply sub_in; eauto. }
  (* level of the second literal *)
  destruct rest as [|l1 rest]; [inversion Sr; subst; auto|].
  destruct (A2 l1 (or_introl eq_refl)) as (k & K1 & K2).
  assert (Ek : assert_level (l0 :: l1 :: rest) = k) by (simpl; rewrite K1; auto). rewrite Ek.
  assert (Hle : forall x, In x rest' -> exists j, lev t x = Some j /\ j <= k).
  { intros x Hx. apply (sub_in _ _ _ Sr) in Hx. destruct (A2 x Hx) as (j & J1 & J2). exists j. split; auto.
    destruct Hx as [<-|Hx]; [rewrite K1 in J1; inversion J1; lia|].
    inversion A3 as [|? ? S1 S2]; subst. inversion S1 as [|? ? S3 S4]; subst.
    rewrite Forall_forall in S4. specialize (S4 x Hx). unfold lev_ge, lvl_or, lit_level in S4.
    unfold lev in *. rewrite K1, J1 in S4. lia. }
  destruct (Nat.eq_dec k 0) as [->|Hk0].
  - destruct rest' as [|x rest']; simpl; auto. destruct (Hle x (or_introl eq_refl)) as (j & J1 & J2).
    rewrite J1. lia.
  - destruct (removed_level (l0 :: l1 :: rest) (l0 :: rest') k Hf ltac:(lia) M3 (flat t) [] eq_refl l1) as (y & Y1 & Y2 & Y3); simpl; auto.
    { eapply all_false_in_flat; [exact Hf|simpl; auto]. }
    destruct Y1 as [<-|Y1]; [rewrite A1 in Y3; inversion Y3; lia|].
    destruct rest' as [|x rest']; [easy|].
    destruct (Hle x (or_introl eq_refl)) as (j & J1 & J2). simpl. rewrite J1.
    destruct Y1 as [<-|Y1]; [rewrite J1 in Y3; inversion Y3; auto|].
    inversion HS as [|? ? S1 S2]; subst. inversion S1 as [|? ? S3 S4]; subst.
    rewrite Forall_forall in S4. specialize (S4 y Y1). unfold lev_ge, lvl_or, lit_level in S4.
    unfold lev in *. rewrite J1, Y3 in S4. lia.
Qed.
End Analysis.
