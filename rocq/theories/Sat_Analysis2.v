(** Conflict analysis of a clause that is false at any level of the trail. *)
From Coq Require Import List Arith ZArith Bool Lia Permutation Sorting.Sorted.
From Verif Require Import Base Core_Model Literal_Proofs Analysis_Model Bool_Model Sat_Base Sat_Inv
  Sat_Trail Sat_Prop Sat_Bcp Sort_Proofs Subsumption_Proofs Sat_Analysis.
Import ListNotations.
Open Scope nat_scope.

(** ** level 0 *)
Section Level0.
Variables (n : nat) (d : db) (t : trail).
Hypothesis HT : TI n d t.
Hypothesis H0 : dl t = 0.
Variable cs : list clause.
Hypothesis HRS : forall v r, In (v, Some r) (flat t) -> In (getc d r) cs.

Lemma level0_flat : flat t = recent t.
Proof.
  pose proof (dl_S _ _ _ HT) as D. unfold flat, recent. rewrite H0 in D.
  destruct (t_levels t) as [|es [|? ?]]; simpl in *; try lia. now rewrite app_nil_r.
Qed.
Lemma level0_lev x b : tv t x = Some b -> lev t x = Some 0.
Proof.
  intros H. destruct (tv_some_lev _ _ _ HT _ _ H) as (k & Hk). pose proof (lev_le_dl _ _ _ HT _ _ Hk).
  rewrite Hk. f_equal. lia.
Qed.
Lemma level0_count s : all_false t s -> count_level t 0 s = Z.of_nat (length s).
Proof.
  intros H. unfold count_level. f_equal. f_equal.
  induction s as [|x s IH]; auto. simpl. assert (E : at_level t 0 x = true).
  { apply at_level_iff. eapply level0_lev. apply H. simpl; auto. }
  rewrite E, IH; auto. intros y Hy. apply H. simpl; auto.
Qed.

Lemma analyze_loop0_ok : forall es pre s m acc,
  recent t = pre ++ es ->
  NoDup s -> all_false t s -> entails cs s -> m = count_level t 0 s ->
  (forall l, In l s -> In (lvar l) (map fst es)) ->
  exists acc', analyze_loop d t 0 es s m acc = Ok ([], 0%Z, acc') /\ entails cs [].
Proof.
  induction es as [|[u ro] es IH]; intros pre s m acc Hrec I1 I2 I3 I4 I6.
  - assert (s = []) as ->. { destruct s as [|x s]; auto. destruct (I6 x (or_introl eq_refl)). }
    subst m. exists acc. split; auto.
  - assert (Hcb : can_backtrack s m = false).
    { unfold can_backtrack. rewrite I4, level0_count by auto.
      destruct (Nat.ltb_spec 1 (length s)); [|apply andb_false_r].
      destruct (Z.eqb_spec (Z.of_nat (length s)) 1); [lia|auto]. }
    cbn [analyze_loop]. rewrite Hcb.
    assert (Hrc : In (u, ro) (recent t)) by (rewrite Hrec; rewrite in_app_iff; simpl; auto).
    assert (Hro : exists r, ro = Some r).
    { pose proof (ti_lev _ _ _ HT) as L. pose proof (dl_S _ _ _ HT) as D. rewrite H0 in D. unfold recent in Hrc.
      destruct (t_levels t) as [|es0 [|? ?]]; simpl in *; try lia. destruct L as [(_ & L & _) _].
      specialize (L _ Hrc). unfold has_reason in L. simpl in L. destruct ro; eauto. congruence. }
    destruct Hro as (r & ->).
    pose proof (recent_flat _ _ _ _ HT Hrc) as Hfl.
    destruct (ti_range _ _ _ HT u) as (i & -> & Hi).
    { apply in_map_iff. exists (u, Some r); auto. }
    assert (Hlu : t_lvl t (VBool i) = Some 0).
    { rewrite <- H0. apply (lev_dl_recent _ _ _ HT). apply in_map_iff. exists (VBool i, Some r); auto. }
    rewrite Hlu. cbn [value_of bind Nat.eqb andb].
    set (l := mkLit i (mval (t_bm t) i)).
    assert (Hlf : tv t l = Some false) by (eapply flase_lit; eauto; apply in_map_iff; exists (VBool i, Some r); auto).
    assert (Hrec' : recent t = (pre ++ [(VBool i, Some r)]) ++ es) by (rewrite <- app_assoc; auto).
    assert (Hnl : neg l = tlit (tval t) i) by reflexivity.
    destruct (mem_lit l s) eqn:Em.
    + apply mem_lit_In in Em.
      destruct (flat_reason _ _ _ _ _ HT Hfl) as (R1 & R2 & R3).
      assert (HF : flat t = (pre ++ [(VBool i, Some r)]) ++ es) by (rewrite level0_flat; auto).
      assert (Hpost : forall x, In x (getc d r) -> x = neg l \/
                 (In (lvar x) (map fst es) /\ tv t x = Some false)).
      { pose proof (ti_flat _ _ _ HT) as F. rewrite HF, <- app_assoc in F. simpl in F.
        apply flat_ok_mid in F. destruct F as (j & Ej & F1 & F2 & F3). inversion Ej; subst j.
        intros x Hx. destruct (F3 x Hx) as [?|[A B]]; [left; auto|right].
        split; auto. rewrite <- B. apply (in_flat_tv _ _ _ HT). rewrite HF, !map_app, !in_app_iff. tauto. }
      assert (Hnot : ~ In (VBool i) (map fst es)).
      { pose proof (ti_flat _ _ _ HT) as F. rewrite HF, <- app_assoc in F. simpl in F.
        apply flat_ok_app in F. simpl in F. tauto. }
      unfold resolve. destruct (resolve_loop t 0 l (getc d r) s m) as [s1 m1] eqn:Er.
      apply resolve_loop_ok in Er; auto. destruct Er as (E1 & E2 & E3).
      assert (Hal : at_level t 0 l = true) by (apply at_level_iff; exact Hlu).
      rewrite Hal. cbn [assertb bind].
      assert (Hl1 : In l s1) by (apply E3; auto).
      apply IH with (pre := pre ++ [(VBool i, Some r)]); auto.
      * now apply NoDup_filter.
      * intros x Hx. apply cset_remove_in in Hx. destruct Hx as [Hx Hxl]. apply E3 in Hx.
        destruct Hx as [Hx|[Hx Hx']]; auto. destruct (R3 x Hx); auto. congruence.
      * intros a Ha. destruct (I3 a Ha) as (x & X1 & X2).
        destruct (lit_eq_dec x l) as [-> |Hxl].
        -- destruct (Ha (getc d r)) as (y & Y1 & Y2). { eapply HRS; eauto. }
           assert (y <> neg l). { intros ->. rewrite lit_holds_neg, X2 in Y2. discriminate. }
           exists y. split; auto. apply cset_remove_in. split; [apply E3; auto|].
           intros ->. destruct (Hpost l Y1) as [?|[A _]]; auto.
        -- exists x. split; auto. apply cset_remove_in. split; auto. apply E3. auto.
      * rewrite E2. symmetry. apply cset_remove_count; auto.
      * intros x Hx. apply cset_remove_in in Hx. destruct Hx as [Hx Hxl]. apply E3 in Hx.
        destruct Hx as [Hx|[Hx Hx']].
        -- destruct (I6 x Hx) as [E|E]; auto. exfalso. apply Hxl. apply (false_same t); auto.
           simpl in *. unfold lvar in E. congruence.
        -- destruct (Hpost x Hx) as [?|[A _]]; [congruence|]. auto.
    + apply mem_lit_notIn in Em.
      apply IH with (pre := pre ++ [(VBool i, Some r)]); auto.
      intros x Hx. destruct (I6 x Hx) as [E|E]; auto. exfalso.
      assert (x = l); [|congruence]. apply (false_same t); auto. simpl in *. unfold lvar in E. congruence.
Qed.

Lemma analyze0_ok c : all_false t c -> entails cs c ->
  exists acc, analyze d t c = Ok ([], (-1)%Z, acc) /\ entails cs [].
Proof.
  intros Hf He. unfold analyze. rewrite (eval_clause_all_false t c Hf). cbn [assertb bind].
  destruct (init_loop_ok n d t HT c [] 0 Hf (NoDup_nil _)) as (s & top & I1 & I2 & I3 & I4 & I5 & I6).
  rewrite I1. cbn [bind].
  assert (Htop : top = 0).
  { destruct I6 as [->|(y & Y1 & Y2)]; auto. apply (lev_le_dl _ _ _ HT) in Y2. lia. }
  subst top.
  assert (HA : assigned_at t 0 = Ok (recent t)).
  { unfold assigned_at. rewrite H0. simpl. unfold recent, at_. pose proof (ti_ne _ _ _ HT).
    destruct (t_levels t); auto. congruence. }
  rewrite HA. cbn [bind].
  assert (Hfs : all_false t s). { intros x Hx. apply I3 in Hx. destruct Hx as [[]|Hx]; auto. }
  destruct (analyze_loop0_ok (recent t) [] s (count_level t 0 s) [] eq_refl I2 Hfs) as (acc & L1 & L2); auto.
  - eapply entails_incl; [|exact He]. intros y Hy. apply I3. auto.
  - intros l Hl. rewrite <- level0_flat. eapply tv_in_flat; eauto.
  - rewrite L1. cbn [bind finish sort_by fold_right]. eauto.
Qed.
End Level0.

(** ** trails that agree on the relevant literals *)
Section Agree.
Variables (d : db) (t t' : trail).
Definition same_lit (l : lit) : Prop :=
  lit_level t l = lit_level t' l /\ eval_lit (t_bm t) l = eval_lit (t_bm t') l.

Lemma init_loop_agree : forall c s top, (forall l, In l c -> same_lit l) ->
  init_loop t c s top = init_loop t' c s top.
Proof.
  induction c as [|l c IH]; intros s top H; auto. cbn [init_loop].
  destruct (H l (or_introl eq_refl)) as [-> _]. destruct (lit_level t' l); auto. cbn [value_of bind].
  apply IH. intros; apply H; simpl; auto.
Qed.
Lemma at_level_agree k l : same_lit l -> at_level t k l = at_level t' k l.
Proof. intros [H _]. unfold at_level. now rewrite H. Qed.
Lemma count_agree k s : (forall l, In l s -> same_lit l) -> count_level t k s = count_level t' k s.
Proof.
  intros H. unfold count_level. do 2 f_equal. apply filter_ext_in. intros l Hl. apply at_level_agree; auto.
Qed.
Lemma resolve_loop_agree top cl : forall other s m, (forall l, In l other -> same_lit l) ->
  resolve_loop t top cl other s m = resolve_loop t' top cl other s m.
Proof.
  induction other as [|l other IH]; intros s m H; auto. cbn [resolve_loop].
  destruct (lit_eqb l (neg cl)); [apply IH; intros; apply H; simpl; auto|].
  destruct (cset_insert l s) as [s' ins]. rewrite at_level_agree by (apply H; simpl; auto).
  apply IH; intros; apply H; simpl; auto.
Qed.
Lemma resolve_loop_in top cl : forall other s m s' m', resolve_loop t' top cl other s m = (s', m') ->
  forall x, In x s' -> In x s \/ In x other.
Proof.
  induction other as [|l other IH]; intros s m s' m' E x Hx; cbn [resolve_loop] in E.
  - inversion E; subst; auto.
  - destruct (lit_eqb l (neg cl)).
    + destruct (IH _ _ _ _ E x Hx); simpl; auto.
    + unfold cset_insert in E. destruct (mem_lit l s).
      * destruct (IH _ _ _ _ E x Hx); simpl; auto.
      * destruct (IH _ _ _ _ E x Hx) as [[->|?]|?]; simpl; auto.
Qed.
Lemma analyze_loop_agree top : (forall i, mval (t_bm t) i = mval (t_bm t') i) ->
  forall es s m acc,
  (forall l, In l s -> same_lit l) ->
  (forall i r, In (VBool i, Some r) es -> t_lvl t (VBool i) = t_lvl t' (VBool i) /\
     forall l, In l (getc d r) -> same_lit l) ->
  analyze_loop d t top es s m acc = analyze_loop d t' top es s m acc /\
  forall s' m' acc', analyze_loop d t' top es s m acc = Ok (s', m', acc') -> forall l, In l s' -> same_lit l.
Proof.
  intros Hv. induction es as [|[v ro] es IH]; intros s m acc Hs He; cbn [analyze_loop].
  - destruct (can_backtrack s m); split; auto; intros s' m' acc' E l Hl; inversion E; subst; auto.
  - destruct (can_backtrack s m).
    { split; auto; intros s' m' acc' E l Hl; inversion E; subst; auto. }
    assert (He' : forall i r, In (VBool i, Some r) es -> t_lvl t (VBool i) = t_lvl t' (VBool i) /\
     forall l, In l (getc d r) -> same_lit l) by (intros; apply He; simpl; auto).
    destruct v as [i|i]; [destruct ro as [r|]|]; try (apply IH; auto).
    destruct (He i r (or_introl eq_refl)) as [-> Hr]. destruct (t_lvl t' (VBool i)) as [k|] eqn:Ek; cbn [value_of bind]; [|split; auto; discriminate].
    rewrite Hv. destruct (k =? top) eqn:Ekt; cbn [andb]; [|apply IH; auto].
    destruct (mem_lit {| lord := i; lneg := mval (t_bm t') i |} s) eqn:Em; [|apply IH; auto].
    set (l := mkLit i (mval (t_bm t') i)). unfold resolve.
    rewrite resolve_loop_agree by auto. destruct (resolve_loop t' top l (getc d r) s m) as [s1 m1] eqn:Er.
    apply mem_lit_In in Em. rewrite (at_level_agree top l) by auto.
    destruct (at_level t' top l); cbn [assertb bind]; [|split; auto; discriminate].
    apply IH; auto. intros x Hx. apply cset_remove_in in Hx. destruct Hx as [Hx _].
    destruct (resolve_loop_in _ _ _ _ _ _ _ Er x Hx); auto.
Qed.
Lemma eval_agree c : (forall l, In l c -> same_lit l) -> eval_clause (t_bm t) c = eval_clause (t_bm t') c.
Proof.
  unfold eval_clause. generalize 0, (length c). induction c as [|l c IH]; intros a b H; auto.
  cbn [eval_clause_loop]. destruct (H l (or_introl eq_refl)) as [_ ->].
  destruct (eval_lit (t_bm t') l) as [[|]|]; auto; apply IH; intros; apply H; simpl; auto.
Qed.
Lemma insert_agree (f g : lit -> lit -> bool) x l :
  (forall a b, In a (x :: l) -> In b (x :: l) -> f a b = g a b) -> insert_by f x l = insert_by g x l.
Proof.
  induction l as [|y l IH]; intros H; auto. cbn [insert_by].
  rewrite (H y x) by (simpl; auto). destruct (g y x); auto. f_equal. apply IH.
  intros a b Ha Hb. apply H; simpl in *; tauto.
Qed.
Lemma sort_agree (f g : lit -> lit -> bool) s :
  (forall a b, In a s -> In b s -> f a b = g a b) -> sort_by f s = sort_by g s.
Proof.
  induction s as [|x s IH]; intros H; auto. cbn [sort_by fold_right]. fold (sort_by f s). fold (sort_by g s).
  rewrite IH by (intros; apply H; simpl; auto). apply insert_agree. intros a b Ha Hb.
  assert (K : forall z, In z (x :: sort_by g s) -> In z (x :: s)).
  { intros z [<-|Hz]; [simpl; auto|]. right. eapply Permutation_in; [apply Permutation_sym, sort_perm|exact Hz]. }
  apply H; apply K; auto.
Qed.
Lemma finish_agree top s m : (forall l, In l s -> same_lit l) -> finish t top s m = finish t' top s m.
Proof.
  intros H. unfold finish.
  assert (E : sort_by (finish_lt t) s = sort_by (finish_lt t') s).
  { apply sort_agree. intros a b Ha Hb. unfold finish_lt, lvl_or. destruct (H a Ha) as [-> _], (H b Hb) as [-> _]. auto. }
  rewrite E. assert (K : forall z, In z (sort_by (finish_lt t') s) -> same_lit z).
  { intros z Hz. apply H. eapply Permutation_in; [apply Permutation_sym, sort_perm|exact Hz]. }
  destruct (sort_by (finish_lt t') s) as [|l0 c] eqn:Es; auto.
  rewrite (eval_agree (l0 :: c)) by auto. destruct c as [|l1 c]; auto.
  destruct (K l1) as [-> _]; simpl; auto.
Qed.
End Agree.

(** ** the general statement *)
Section General.
Variables (n : nat) (d : db) (t : trail).
Hypothesis HT : TI n d t.

Lemma sort_lev_ge_irrel t1 t2 c : (forall l, In l c -> lit_level t1 l = lit_level t2 l) ->
  StronglySorted (lev_ge t1) c -> StronglySorted (lev_ge t2) c.
Proof.
  induction c as [|x c IH]; intros H S; [constructor|]. inversion S as [|? ? S1 S2]; subst.
  constructor. apply IH; auto. intros; apply H; simpl; auto.
  rewrite Forall_forall in *. intros y Hy. specialize (S2 y Hy). unfold lev_ge, lvl_or in *.
  rewrite <- (H x), <- (H y) by (simpl; auto). auto.
Qed.

Lemma nth_skipn {A} m (L : list (list A)) : skipn m L <> [] -> nth_error L m = Some (hd [] (skipn m L)).
Proof. revert L. induction m; intros [|x L] H; simpl in *; auto; congruence. Qed.

Lemma analyze_general c : all_false t c ->
  exists c' lvl acc, analyze d t c = Ok (c', lvl, acc) /\
    NoDup c' /\ all_false t c' /\
    (forall a, clause_holds a c -> (forall v r, t_rsn t v = Some r -> clause_holds a (getc d r)) ->
       clause_holds a c') /\
    StronglySorted (lev_ge t) c' /\
    ((c' = [] /\ lvl = (-1)%Z /\ forall x, In x c -> lev t x = Some 0) \/
     (exists l0 rest k, c' = l0 :: rest /\ lev t l0 = Some k /\ (0 <= lvl < Z.of_nat k)%Z /\
        (forall x, In x rest -> exists j, lev t x = Some j /\ (Z.of_nat j <= lvl)%Z) /\
        (rest <> [] -> exists x, In x rest /\ lev t x = Some (Z.to_nat lvl)) /\
        (rest = [] -> lvl = 0%Z) /\
        (exists x, In x c /\ lev t x = Some k))).
Proof.
  intros Hf.
  destruct (init_loop_ok n d t HT c [] 0 Hf (NoDup_nil _)) as (s & top & I1 & I2 & I3 & I4 & I5 & I6).
  assert (Htop : top <= dl t).
  { destruct I6 as [->|(y & Y1 & Y2)]; [lia|]. now apply (lev_le_dl _ _ _ HT) in Y2. }
  destruct (backtrack_TI n d top (dl t - top) t HT Htop eq_refl) as (T1 & T2 & T3 & T4 & T5 & T6 & T7).
  set (t' := backtrack_loop (dl t - top) top t) in *.
  assert (Hsame : forall l k, lev t l = Some k -> k <= top -> same_lit t t' l).
  { intros l k Hl Hk. unfold lev in Hl.
    assert (Hkeep : keep top (t_lvl t (lvar l)) = true) by (rewrite Hl; simpl; now apply Nat.leb_le). split.
    - unfold lit_level. rewrite T5, Hkeep. auto.
    - unfold eval_lit. rewrite T7. unfold lvar in *. rewrite Hkeep.
      assert (Hd : mdef (t_bm t) (lord l) = true).
      { apply (ti_def _ _ _ HT). apply (dom_iff _ _ _ HT). congruence. }
      rewrite Hd. unfold tval in T3. now rewrite T3. }
  assert (Hc : forall l, In l c -> same_lit t t' l).
  { intros l Hl. destruct (tv_some_lev _ _ _ HT _ _ (Hf l Hl)) as (k & Hk). apply (Hsame l k); auto. eapply I5; eauto. }
  assert (Hflat' : forall l, In (lvar l) (map fst (flat t')) -> same_lit t t' l).
  { intros l Hl. apply (dom_iff _ _ _ T1) in Hl. rewrite T5 in Hl.
    destruct (t_lvl t (lvar l)) as [k|] eqn:E; [|simpl in Hl; congruence].
    apply (Hsame l k); auto. simpl in Hl. destruct (Nat.leb_spec k top); auto. congruence. }
  assert (Hrec : assigned_at t top = Ok (recent t') /\ assigned_at t' top = Ok (recent t')).
  { pose proof (ti_ne _ _ _ T1) as NE. unfold assigned_at, recent, at_. rewrite T2, Nat.leb_refl, Nat.sub_diag.
    destruct (Nat.leb_spec top (dl t)); [|lia]. rewrite T4 in *.
    rewrite (nth_skipn _ _ NE). split; auto. destruct (skipn (dl t - top) (t_levels t)); auto; congruence. }
  destruct Hrec as [HA HA'].
  assert (Hin_s : forall l, In l s -> same_lit t t' l).
  { intros l Hl. apply I3 in Hl. destruct Hl as [[]|Hl]; auto. }
  assert (Hes : forall i r, In (VBool i, Some r) (recent t') -> t_lvl t (VBool i) = t_lvl t' (VBool i) /\
     forall l, In l (getc d r) -> same_lit t t' l).
  { intros i r Hi. pose proof (recent_flat _ _ _ _ T1 Hi) as Hfl.
    assert (Hin : In (VBool i) (map fst (flat t'))) by (apply in_map_iff; exists (VBool i, Some r); auto).
    split. { destruct (Hflat' (mkLit i true) Hin) as [E _]. exact E. }
    intros l Hl. apply Hflat'. destruct (flat_reason _ _ _ _ _ T1 Hfl) as (R1 & R2 & R3).
    destruct (R3 l Hl) as [->|Hlf]; [exact Hin|]. eapply tv_in_flat; eauto. }
  assert (Hval : forall i, mval (t_bm t) i = mval (t_bm t') i) by (intros i; unfold tval in T3; now rewrite T3).
  assert (EA : analyze d t c = analyze d t' c).
  { unfold analyze. rewrite (eval_agree t t' c Hc), <- (init_loop_agree t t' c [] 0 Hc), I1.
    destruct (assertb (is_false (eval_clause (t_bm t') c))) as [?| |]; cbn [bind]; auto.
    rewrite HA, HA'. cbn [bind]. rewrite (count_agree t t' top s Hin_s).
    destruct (analyze_loop_agree d t t' top Hval (recent t') s (count_level t' top s) [] Hin_s Hes) as [-> Hs'].
    destruct (analyze_loop d t' top (recent t') s (count_level t' top s) []) as [[[s1 m1] acc]| |]; auto.
    cbn [bind]. rewrite (finish_agree t t' top s1 m1); auto. eapply Hs'; eauto. }
  assert (Hf' : all_false t' c). { intros x Hx. destruct (Hc x Hx) as [_ E]. unfold tv. rewrite <- E. now apply Hf. }
  pose (rs := concat (map (fun e : entry => match snd e with Some r => [getc d r] | None => [] end) (flat t'))).
  assert (HRS : forall v r, In (v, Some r) (flat t') -> In (getc d r) (c :: rs)).
  { intros v r I. right. apply in_concat. exists [getc d r]. split; [|simpl; auto].
    apply in_map_iff. exists (v, Some r). auto. }
  assert (Hent : forall c', entails (c :: rs) c' ->
     forall a, clause_holds a c -> (forall v r, t_rsn t v = Some r -> clause_holds a (getc d r)) -> clause_holds a c').
  { intros c' He a Ha Hr. apply He. intros x [<-|Hx]; auto. apply in_concat in Hx.
    destruct Hx as (ys & Y1 & Y2). apply in_map_iff in Y1. destruct Y1 as ([v [r|]] & <- & Y3); [|destruct Y2].
    destruct Y2 as [<-|[]]. apply (Hr v). apply (ti_rsn _ _ _ T1) in Y3. rewrite T6 in Y3.
    destruct (keep top (t_lvl t v)); auto; discriminate. }
  rewrite EA. destruct (Nat.eq_dec top 0) as [Ez|Ez].
  - destruct (analyze0_ok n d t' T1 ltac:(lia) (c :: rs) HRS c Hf') as (acc & A1 & A2); [apply entails_in; simpl; auto|].
    exists [], (-1)%Z, acc. split; auto. split; [constructor|]. split; [easy|]. split; [now apply Hent|].
    split; [constructor|]. left. split; auto. split; auto. intros x Hx.
    destruct (tv_some_lev _ _ _ HT _ _ (Hf x Hx)) as (k & Hk). rewrite Hk. specialize (I5 x k Hx Hk). f_equal. lia.
  - destruct I6 as [->|(x & X1 & X2)]; [lia|].
    destruct (analyze_ok n d t' T1 (c :: rs) HRS c) as (c' & acc & A1 & A2 & A3 & A4 & A5); auto; try lia.
    { apply entails_in; simpl; auto. }
    { exists x. split; auto. rewrite T2. destruct (Hc x X1) as [E _]. unfold lev, lit_level in *. congruence. }
    pose proof (fun l b H => Hflat' l (tv_in_flat _ _ _ T1 l b H)) as Hs.
    assert (Hlev : forall l, In l c' -> lev t l = lev t' l) by (intros l Hl; apply (Hs l false); now apply A3).
    exists c', (Z.of_nat (assert_level t' c')), acc. split; auto. split; auto.
    split. { intros l Hl. destruct (Hs l false (A3 l Hl)) as [_ E]. unfold tv. rewrite E. now apply A3. }
    split; [now apply Hent|].
    destruct A5 as (l0 & rest & -> & B1 & B2 & B3).
    split. { eapply sort_lev_ge_irrel; [|exact B3]. intros l Hl. symmetry. now apply Hlev. }
    right. exists l0, rest, top. split; auto.
    split. { rewrite Hlev by (simpl; auto). congruence. }
    assert (Hal : assert_level t' (l0 :: rest) < top).
    { destruct rest as [|l1 rest]; simpl; [lia|]. destruct (B2 l1) as (k & K1 & K2); [simpl; auto|]. rewrite K1. lia. }
    split; [lia|].
    split.
    { intros y Hy. destruct (B2 y Hy) as (k & K1 & K2). exists k. split; [rewrite Hlev by (simpl; auto); auto|].
      destruct rest as [|l1 rest]; [easy|]. destruct (B2 l1) as (k1 & L1 & L2); [simpl; auto|].
      simpl. rewrite L1. apply inj_le. destruct Hy as [<-|Hy]; [rewrite K1 in L1; inversion L1; lia|].
      inversion_clear B3 as [|? ? S1 S2]. inversion_clear S1 as [|? ? S3 S4].
      rewrite Forall_forall in S4. specialize (S4 y Hy). unfold lev_ge, lvl_or, lit_level in S4.
      unfold lev in *. rewrite L1, K1 in S4. lia. }
    split.
    { intros Hne. destruct rest as [|l1 rest]; [congruence|]. exists l1. split; [simpl; auto|].
      destruct (B2 l1) as (k & K1 & K2); [simpl; auto|]. rewrite Hlev by (simpl; auto). simpl. rewrite K1, Nat2Z.id. auto. }
    split. { intros ->. reflexivity. }
    exists x. auto.
Qed.
End General.
