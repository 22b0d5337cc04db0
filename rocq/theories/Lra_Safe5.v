(** Bound queries and the constraints derived while conflicts are explained keep the invariants that
    rule out failed assertions. *)
From Coq Require Import List Arith ZArith QArith Bool Lia Permutation Lqa Sorted.
From Verif Require Import Base Core_Model Analysis_Model Bool_Model Sat_Base Sat_Inv Sat_Trail Sort_Proofs
  Trail_Model Spec_Trail Trail_Proofs Solver_Model Spec_Theory Theory_Inv Theory_Bool Comb_Bcp Comb_Safe1
  Lincons_Model Spec_Lincons Lincons_Proofs Lincons_Proofs2 Lra_Model Spec_Lra Lra_Fm Lra_Bounds Lra_Hist Lra_Steps Lra_Keep
  Lra_Range Lra_Good Lra_Good2 Lra_Confl Lra_Watch Lra_Watch2 Lra_Safe1 Lra_Safe2 Lra_Cut Lra_Cut2 Lra_Cut3 Lra_Safe3 Lra_Safe4.
Import ListNotations.
Open Scope nat_scope.

(** ** queries *)
Lemma vq_nkeep s t w w' : vq s t w w' -> nkeep s t w w'.
Proof.
  induction 1 as [w|w w' H IH|w w' H IH|w v w' H IH]; intros b Hb O; auto.
  apply IH; auto. now apply (neq_filter s t w).
Qed.
Lemma vq_perm s t t' B x w y v : linv s t B -> vq s t (bd_of B x) w -> tlater t t' ->
  (permitted s t' (bd_of (bd_set B x w) y) v <-> permitted s t' (bd_of B y) v).
Proof.
  intros I Q L. unfold bd_set. cbn [bd_of]. unfold upd. destruct (Nat.eqb_spec y x) as [E|N]; [subst y|tauto].
  destruct (vext_vq _ _ _ _ Q) as [V1 V2 V3]. pose proof (vq_nkeep _ _ _ _ Q) as V4. pose proof (li_s _ _ _ I) as HS.
  rewrite !permitted_iff. split; intros [A C]; split.
  - intros up b Hb O. apply A; auto. apply V2; auto. destruct (li_good _ _ _ I up x b Hb) as [_ Gd].
    exact (obs_mono s s t t' HS HS (grows_refl s) L up b Gd O).
  - intros b Hb O. apply C; auto. apply V4; auto. destruct (li_neq _ _ _ I x b Hb) as [_ Gd].
    exact (neq_mono s s t t' b HS HS (grows_refl s) L Gd O).
  - intros up b Hb O. apply A; auto. destruct (V1 up b Hb) as [|[]]; auto.
  - intros b Hb O. apply C; auto. destruct (V3 b Hb) as [|[]]; auto.
Qed.
Lemma vq_Ui s t t' B x w i : linv s t B -> vq s t (bd_of B x) w -> tlater t t' -> Ui s t' B i -> Ui s t' (bd_set B x w) i.
Proof. intros I Q L U y Hy D A Db v P. apply (U y); auto. now apply (vq_perm s t t' B x w y v I Q L). Qed.
Lemma vq_fe s t t' B x w y : linv s t B -> vq s t (bd_of B x) w -> tlater t t' -> fe s t' B y -> fe s t' (bd_set B x w) y.
Proof. intros I Q L [v P]. exists v. now apply (vq_perm s t t' B x w y v I Q L). Qed.
Lemma vq_Qi s t t' B x w : linv s t B -> vq s t (bd_of B x) w -> tlater t t' -> Qi s t' B -> Qi s t' (bd_set B x w).
Proof. intros I Q L [A C]. split; intros; [eapply vq_Ui|eapply vq_fe]; eauto. Qed.

Record FI (s : store) (W : nat -> list (lcons * nat)) (t : trail) (B : bnds) : Prop := {
  F_l : linv s t B; F_o : One t; F_w : WS W s;
  F_z : forall i, isC s i -> Zi (S (dl t)) s t i;
  F_q : forall j, j < dl t -> Qi s (cutl t j) B;
  F_u : forall i, isC s i -> Ui s t B i }.
Lemma FI_query s W t B x w : FI s W t B -> vq s t (bd_of B x) w -> FI s W t (bd_set B x w).
Proof.
  intros [A1 A3 A4 A5 A6 A7] Q. constructor; auto.
  - now apply linv_query.
  - intros j Hj. eapply vq_Qi; eauto. apply cutl_later.
  - intros i Hi. eapply vq_Ui; eauto. apply tlater_refl.
Qed.

(** ** a new constraint *)
Lemma WE_new W v c n y : NoDup (ords (W y)) -> (forall w, In w (W v) -> lord (lc_lit (fst w)) <> lord (lc_lit c)) ->
  NoDup (ords (upd W v (W v ++ [(c, n)]) y)).
Proof.
  intros N H. unfold upd. destruct (Nat.eqb_spec y v) as [E|]; [subst y|auto]. rewrite ords_app. cbn [ords map fst].
  eapply Permutation_NoDup; [apply Permutation_cons_append|]. constructor; auto.
  unfold ords. intros Hi. apply in_map_iff in Hi. destruct Hi as (w & E & Hw). exact (H w Hw E).
Qed.
Lemma in_new (W : nat -> list (lcons * nat)) v c n y w : In w (upd W v (W v ++ [(c, n)]) y) -> In w (W y) \/ (y = v /\ w = (c, n)).
Proof.
  unfold upd. destruct (Nat.eqb_spec y v) as [E|]; [subst y|auto]. rewrite in_app_iff. intros [H|[<-|[]]]; auto.
Qed.
Section Make.
Variables (hi : nat -> Z) (hv : Q -> Z) (opt : lopt).
Lemma constraint_ws a t q a' t' c : wsi a -> distinct_vars q -> length (st_cons (l_st a)) = mnum (t_bm t) -> Wc (l_watch a) (l_st a) ->
  WS (l_watch a) (l_st a) -> lra_constraint hi hv opt a t (rq_terms q) (rq_pred q) (rq_rhs q) = Ok (a', t', c) ->
  WS (l_watch a') (l_st a') /\ l_bd a' = l_bd a.
Proof.
  intros Ha Hd Hn HC HW H. destruct (constraint_shape hi hv opt a t q a' t' c Ha Hd Hn HC H) as (W1 & St & Cu & CS).
  assert (EB : l_bd a' = l_bd a).
  { unfold lra_constraint, watch_new, watch_cons in H. destruct (lc_make _ _ _ _ _ _) as [s c0]. destruct (_ <=? _); binv H; [|inversion H; reflexivity].
    destruct (1 <? _); binv Eq; inversion Eq; inversion H; subst; cbn; destruct (_ || _); reflexivity. }
  split; auto. destruct CS as [(E1 & E2 & _)|(Ei & Et & Ln & WC' & G & Hget & Hcv & Hi & Hset & _)]; [now rewrite E1, E2|].
  set (i := lord (lc_lit c)) in *. pose proof (ws_st _ W1) as S1. pose proof (ws_st _ Ha) as S0.
  assert (Old : forall y w, In w (l_watch a y) -> lord (lc_lit (fst w)) < i /\ WE (l_st a') y w).
  { intros y w Hw. destruct (proj2 (HW y) w Hw) as (A1 & A2 & A3 & A4). pose proof (stored_lord _ _ S0 A1) as L.
    assert (L' : lord (lc_lit (fst w)) < i) by lia. split; auto. eapply WE_same; [exact G| |split; eauto].
    apply Hcv; auto. now apply stored_isC. }
  assert (Hne : lc_size c <> 0).
  { rewrite <- (stored_size_cv _ c S1 St). fold i. pose proof (cv_ne _ _ S1 Hi). destruct (cv _ i); cbn; congruence. }
  assert (Hem : lc_empty c = false) by (unfold lc_empty; apply Nat.leb_gt; unfold lc_size in Hne; lia).
  pose proof (stored_size_cv _ c S1 St) as Hsz. fold i in Hsz. pose proof (cv_nodup _ c S1 St) as Hnd. fold i in Hnd.
  assert (Wd : exists n, (2 < lc_size c -> 2 <= n < lc_size c) /\ exists v0, nth_error (cv (l_st a') i) 0 = Some v0 /\
    (l_watch a' = upd (l_watch a) v0 (l_watch a v0 ++ [(c, n)]) \/
     exists v1, nth_error (cv (l_st a') i) 1 = Some v1 /\
       let W := upd (l_watch a) v0 (l_watch a v0 ++ [(c, n)]) in l_watch a' = upd W v1 (W v1 ++ [(c, n)]))).
  { exists (Nat.min 2 (lc_size c - 1)). split; [lia|].
    pose proof (proj1 (stored_cv _ c S1 St)) as CV. fold i in CV. rewrite <- CV.
    unfold lra_constraint in H. destruct (lc_make _ _ _ _ _ _) as [s c0].
    destruct (Nat.leb_spec (mnum (t_bm t)) (lord (lc_lit c0))) as [L|L]; binv H; inversion H; subst; [|unfold i in Ei; lia].
    set (a2 := if o_bounds opt || o_unassigned opt then _ else _) in Eq.
    assert (E2 : l_watch a2 = l_watch a) by (unfold a2; destruct (_ || _); auto). clearbody a2.
    unfold watch_new, watch_cons in Eq. binv Eq. cbn [with_st l_st l_watch] in *. rewrite E2 in Eq. apply at_nth in Eq0.
    destruct (1 <? _); binv Eq; inversion Eq; subst a'; cbn [with_watch with_st l_st l_watch] in *; eexists; (split; [exact Eq0|]); [right|left; auto].
    apply at_nth in Eq1. eexists. split; [exact Eq1|reflexivity]. }
  destruct Wd as (n & Hn' & v0 & N0 & Wd).
  assert (New : forall y, In y (firstn 2 (cv (l_st a') i)) -> WE (l_st a') y (c, n)) by (intros y Hy; split; [exact St|split; [exact Hem|split; [exact Hy|exact Hn']]]).
  destruct (cv (l_st a') i) as [|u0 l] eqn:Ecv; [discriminate|]. cbn in N0. injection N0 as ->.
  destruct Wd as [->|(v1 & N1 & ->)].
  - intros y. split.
    + apply WE_new; [apply HW|]. intros w Hw. destruct (Old _ _ Hw). unfold i in *. lia.
    + intros w Hw. apply in_new in Hw. destruct Hw as [Hw|[-> ->]]; [apply (Old y w Hw)|]. apply New. now left.
  - destruct l as [|u1 l]; [discriminate|]. cbn in N1. injection N1 as ->.
    assert (N01 : v1 <> v0). { inversion Hnd as [|? ? X _]; subst. intros ->. apply X. now left. }
    intros y. split.
    + apply WE_new; [apply WE_new; [apply HW|]; intros w Hw; destruct (Old _ _ Hw); unfold i in *; lia|].
      intros w Hw. apply in_new in Hw. destruct Hw as [Hw|[E _]]; [destruct (Old _ _ Hw); unfold i in *; lia|congruence].
    + intros w Hw. apply in_new in Hw. destruct Hw as [Hw|[-> ->]]; [|apply New; right; now left].
      apply in_new in Hw. destruct Hw as [Hw|[-> ->]]; [apply (Old y w Hw)|]. apply New. now left.
Qed.
End Make.
Lemma sorted_head t ts v j : StronglySorted (level_geq t) ts -> hd_error (map fst ts) = Some v -> lv t v = Some j ->
  (forall u, In u (map fst ts) -> lv t u <> None) -> below t j (map fst ts).
Proof.
  intros SS Hv E D u Hu. destruct ts as [|p0 ts]; [easy|]. inversion SS as [|? ? S1 F0]; subst. rewrite Forall_forall in F0. cbn in Hv. injection Hv as <-.
  destruct Hu as [<-|Hu]; [eauto|]. specialize (D u (or_intror Hu)). apply in_map_iff in Hu. destruct Hu as (p & <- & Hp).
  specialize (F0 p Hp). unfold level_geq in F0. unfold lv in *. rewrite E in F0. destruct (t_lvl t (VRat (fst p))) as [j'|]; [eauto|congruence].
Qed.
Section Finish.
Variables (hi : nat -> Z) (hv : Q -> Z) (opt : lopt).
Notation ent := (fun _ : lit => False).
Notation d0 := (mkDb [] []).
Lemma fm_finish_FI a t f a' t' c : wsi a -> JO (l_st a) (l_watch a) t -> fm_wf f -> FI (l_st a) (l_watch a) t (l_bd a) ->
  fm_finish hi hv opt a t f = Ok (a', t', c) -> FI (l_st a') (l_watch a') t' (l_bd a') /\ bd_upd (l_bd a') = bd_upd (l_bd a).
Proof.
  intros Ha HJ Hwf HF H.
  pose proof (fm_finish_ok hi hv opt d0 ent a t f a' t' c Ha HJ Hwf H) as (W' & J' & X & PO & _).
  pose proof (prop_ops_lx _ _ _ _ (jo_t _ _ _ HJ) PO (fx_lv _ _ X)) as LX.
  pose proof (fm_finish_facts hi hv opt _ _ _ _ _ _ Ha Hwf H) as FF.
  destruct Hwf as [Hd Hz]. destruct (fm_finish_steps hi hv opt a t f a' t' c Ha Hd H) as [[ST _] _].
  pose proof (linv_steps hi hv _ _ ST (F_l _ _ _ _ HF)) as L'. cbn [run3 fst snd] in L'.
  unfold fm_finish in H. destruct (fm_terms f) as [|u us] eqn:Ef.
  { inversion H; subst. auto. }
  rewrite <- Ef in *. assert (Hne : fm_terms f <> []) by congruence. clear Ef. binv H.
  pose proof (sort_perm (level_gt t) (fm_terms f)) as P.
  pose proof (distinct_perm hi hv _ _ (fm_pred f) (- fm_const f)%Q P Hd) as D.
  pose proof (constraint_shape hi hv opt a t (mkReq _ _ _) _ _ _ Ha D (jo_n _ _ _ HJ) (jo_c _ _ _ HJ) Eq) as CS. cbn [rq_terms] in CS.
  pose proof (constraint_ws hi hv opt a t (mkReq _ _ _) _ _ _ Ha D (jo_n _ _ _ HJ) (jo_c _ _ _ HJ) (F_w _ _ _ _ HF) Eq) as [WS' EB].
  cbn zeta in CS. destruct CS as (W1 & St & Cu & CS). rename l into c0, l0 into a1, t0 into t1.
  assert (EA : a' = a1 /\ c = c0).
  { destruct (mdef (t_bm t1) (lord (lc_lit c0))); [|binv H]; inversion H; auto. }
  destruct EA as [-> ->]. rewrite EB in *. split; auto.
  destruct CS as [(E1 & E2 & ->)|(Ei & E1 & Ln & WC' & G & Hget & Hcv & Hi & Hset & Hcvi)].
  - assert (Et : t' = t).
    { destruct (mdef (t_bm t) (lord (lc_lit c0))) eqn:Dc; [inversion H; auto|]. exfalso. binv H. inversion H; subst.
      rewrite E1 in *. pose proof (jo_s _ _ _ HJ) as HS. rename Dc into Dc0.
      assert (HC : isC (l_st a) (lord (lc_lit c0))).
      { apply (stored_cv (l_st a) c0); [exact HS|exact St|]. now apply (fi_means _ _ _ _ _ _ _ _ FF). }
      destruct (sem_ok _ _ _ _ HS St (cv_ne _ _ HS HC) (jo_t _ _ _ HJ) (jo_r _ _ _ HJ) Eq0) as (k & x & S1 & S2 & _ & _ & S5 & _).
      destruct (step_prop_inv _ _ _ _ _ _ S5) as (K & _). destruct (jo_ok _ _ _ HJ _ HC) as (_ & O & _).
      destruct (O k ltac:(lia) S2) as (j' & Y & _). congruence. }
    subst t'. rewrite E1, E2 in *. exact HF.
  - pose proof (ws_st _ W1) as HS'. set (i := lord (lc_lit c0)) in *. pose proof (jo_t _ _ _ HJ) as T. pose proof (jo_t _ _ _ J') as T'.
    assert (N1 : exists k, t_lvl t' (VBool i) = Some k /\ below t' k (cv (l_st a1) i) /\
      cv (l_st a1) i = map fst (sort_by (level_gt t) (fm_terms f))).
    { assert (Li : mnum (t_bm t) <= S i) by lia. pose proof (tt_add t (S i) T Li) as T1. rewrite <- E1 in T1.
      pose proof (fx_add t (S i) T Li) as F1. rewrite <- E1 in F1.
      assert (R : R1 t1) by (intros y; rewrite (fx_lv _ _ F1); apply (jo_r _ _ _ HJ)).
      destruct (mdef (t_bm t1) i) eqn:Dc.
      { exfalso. rewrite Ei, E1 in Dc. cbn -[Nat.min Nat.ltb] in Dc. rewrite Ei in Dc.
        destruct (Nat.ltb_spec (mnum (t_bm t)) (Nat.min (S (mnum (t_bm t))) (mnum (t_bm t)))); [lia|discriminate]. }
      binv H. injection H as ->.
      destruct (sem_ok _ _ _ _ HS' St (cv_ne _ _ HS' Hi) T1 R Eq0) as (k & x & S1 & S2 & S3 & S4 & S5 & S6). fold i in S1, S2, S3, S5, S6.
      exists k. destruct (step_prop_inv _ _ _ _ _ _ S5) as (_ & L1 & _). split; [now rewrite L1, vupd_eq|].
      split; [apply (fx_below t t'); auto; now apply (fx_below t t1)|].
      assert (Dd : forall v, In v (cv (l_st a1) i) -> mdef (t_qm t1) v = true).
      { intros v Hv. apply tt_q; auto. destruct (S2 v Hv) as (j' & Y & _). congruence. }
      specialize (Hcvi Dd). rewrite (nonzero_id (sort_by (level_gt t) (fm_terms f))) in Hcvi by (eapply Permutation_Forall; [exact P|exact Hz]).
      exact Hcvi. }
    destruct N1 as (k & Lk & Bk & Cvi). destruct HF as [A1 A3 A4 A5 A6 A7].
    assert (Old : forall j, isC (l_st a1) j -> j = i \/ (j < i /\ isC (l_st a) j /\ cv (l_st a1) j = cv (l_st a) j)).
    { intros j Hj. destruct (Nat.eq_dec j i) as [|Nj]; auto. right. assert (Hj' : j < i) by (apply (isC_lt _ _ HS') in Hj; lia).
      assert (Cj : isC (l_st a) j) by (unfold isC in *; now rewrite <- Hget). auto. }
    constructor; auto.
    + intros y z m. rewrite !(fx_lv _ _ X). apply A3.
    + intros j Hj. rewrite (fx_dl _ _ X). destruct (Old j Hj) as [->|(L & Cj & Ec)].
      * intros v0 m Hv0 Em _. rewrite (fx_lv _ _ X) in Em. apply (fx_below t t'); auto. rewrite Cvi in Hv0 |- *.
        eapply sorted_head; eauto; [apply level_sorted|]. intros z Hz'. rewrite <- (fx_lv _ _ X). rewrite <- Cvi in Hz'.
        destruct (Bk z Hz') as (j' & Y & _). congruence.
      * intros v0 m Hv0 Em Lm. rewrite (fx_lv _ _ X) in Em. apply (fx_below t t'); auto. rewrite Ec in Hv0 |- *. exact (A5 j Cj v0 m Hv0 Em Lm).
    + intros j Hj. rewrite (fx_dl _ _ X) in Hj. apply (lx_Q j (l_st a) (l_st a1) t t'); auto.
      intros m Hm. destruct (Old m Hm) as [->|(L & Cj & Ec)].
      * right. destruct (Nat.leb_spec k j) as [Lj|Lj].
        -- apply Ui_full. intros y Hy. apply cut_q; auto. destruct (Bk y Hy) as (j' & Y & Z). exists j'. split; [auto|lia].
        -- apply Ui_undef. destruct (mdef (t_bm (cutl t' j)) i) eqn:E; auto. apply cut_b in E; auto. destruct E as (k' & E & L). rewrite Lk in E. injection E as <-. lia.
      * left. split; auto. intros E k' E'. rewrite (fx_lvl _ _ X) in E' by lia. congruence.
    + intros j Hj. destruct (Old j Hj) as [->|(L & Cj & Ec)].
      * apply Ui_full. intros y Hy. apply tt_q; auto. destruct (Bk y Hy) as (j' & Y & _). congruence.
      * apply (Ui_env (l_st a) (l_st a1) t t'); auto; try apply LX.
        rewrite (proj1 (fx_b _ _ X j ltac:(lia))). auto.
Qed.
End Finish.
