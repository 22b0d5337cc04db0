(** Answers of a complete check with boolean propagation and linear arithmetic. *)
From Coq Require Import List Arith ZArith QArith NArith Bool Lia Permutation.
From Verif Require Import Base Core_Model Literal_Proofs Analysis_Model Bool_Model Sat_Base Sat_Inv Sat_Trail Sat_Prop Sat_Bcp Sat_Main Sort_Proofs
  Trail_Model Spec_Trail Trail_Proofs Solver_Model Spec_Sat Spec_Theory Theory_Inv Theory_Strict Theory_Sound Theory_Bool Comb_Bcp Theory_Level
  Lincons_Model Spec_Lincons Lincons_Proofs Lincons_Proofs2 Lra_Model Spec_Lra Lra_Fm Lra_Bounds Lra_Hist Lra_Steps Lra_Keep
  Lra_Range Lra_Good Lra_Confl Lra_Watch Lra_Watch2 Comb_Model Comb_Lra Spec_Comb.
Import ListNotations.
Open Scope nat_scope.

(** ** no constraint of a problem is constant *)
Section Make.
Variables (hi : nat -> Z) (hv : Q -> Z) (opt : lopt).
Lemma make_set s q s' c : inv s -> distinct_vars q ->
  lc_make hi hv s (rq_terms q) (rq_pred q) (rq_rhs q) = (s', c) ->
  s' = s \/ (lord (lc_lit c) = length (st_cons s) /\ exists d, st_set s' = st_set s ++ [d] /\ lc_pos d = lc_pos c).
Proof.
  intros HI Hd E. destruct q as [ts p rhs]. unfold distinct_vars in Hd. cbn [rq_terms rq_pred rq_rhs] in *. fold (nonzero ts) in Hd.
  destruct (find_norm ts) as [k|] eqn:Ek.
  - destruct (normalise_ok ts k Hd Ek) as (_ & _ & Hne).
    rewrite (lc_make_some hi hv s ts p rhs k (i_len s HI) Ek Hne) in E. unfold insert_cons in E.
    destruct (set_find _ _ _ _); cbn [fst snd] in E; inversion E; subst; [now left|]. right.
    split; [unfold with_sign; destruct (flips k p); reflexivity|]. eexists. split; [reflexivity|]. reflexivity.
  - rewrite (lc_make_none hi hv s ts p rhs Ek) in E. unfold insert_cons in E.
    destruct (set_find _ _ _ _); cbn [fst snd] in E; inversion E; subst; [now left|]. right.
    split; [unfold with_sign; destruct (negb _); reflexivity|]. eexists. split; reflexivity.
Qed.
Lemma move_front_set c qm : forall n s i out stop, st_set (move_front n s qm c i out stop) = st_set s.
Proof.
  induction n as [|n IH]; intros s i out stop; cbn [move_front]; auto.
  destruct (out =? stop); auto. destruct (nth_error _ _); auto. destruct (mdef qm n0); rewrite IH; reflexivity.
Qed.
Lemma constraint_set a t q a' t' c : wsi a -> distinct_vars q -> length (st_cons (l_st a)) = mnum (t_bm t) ->
  lra_constraint hi hv opt a t (rq_terms q) (rq_pred q) (rq_rhs q) = Ok (a', t', c) ->
  (forall d, In d (st_set (l_st a)) -> lc_empty d = false) -> forall d, In d (st_set (l_st a')) -> lc_empty d = false.
Proof.
  intros Ha Hd Hn H HE. unfold lra_constraint in H. destruct (lc_make _ _ _ _ _ _) as [s c0] eqn:Em.
  pose proof (make_set _ q s c0 (si_inv _ (ws_st a Ha)) Hd Em) as MC.
  destruct (make_sinv hi hv _ q s c0 (ws_st a Ha) Hd Em) as (S1 & G1 & C1).
  destruct (Nat.leb_spec (mnum (t_bm t)) (lord (lc_lit c0))) as [L|L].
  - binv H. inversion H; subst a0 t' c0. clear H.
    set (a2 := if o_bounds opt || o_unassigned opt then _ else _) in Eq.
    assert (W2 : l_st a2 = s) by (unfold a2; destruct (_ || _); auto). clearbody a2.
    unfold watch_new, watch_cons in Eq. binv Eq. apply negb_true_iff in As.
    assert (X : st_set (l_st a') = st_set s).
    { destruct (1 <? lc_size c); binv Eq; inversion Eq; subst a'; cbn [with_watch with_st l_st]; rewrite move_front_set; now rewrite W2. }
    rewrite X. destruct MC as [->|(_ & d & -> & Ed)]; auto.
    intros d' Hin. apply in_app_iff in Hin. destruct Hin as [Hin|[<-|[]]]; auto. unfold lc_empty in *. now rewrite Ed.
  - inversion H; subst. cbn [with_st l_st]. destruct MC as [->|(X & _)]; auto. lia.
Qed.

(** ** a problem *)
Record SU (h : list (request * lit)) (a : lra) (t : trail) : Prop := mkSU {
  su_run : lra_run hi hv opt a t;
  su_w : Wc (l_watch a) (l_st a);
  su_n : length (st_cons (l_st a)) = mnum (t_bm t);
  su_t : TT t;
  su_f : fresh_trail t;
  su_g : (0 <= mgts (t_bm t))%Z;
  su_c : cu_level (l_cur a) = None;
  su_ne : forall d, In d (st_set (l_st a)) -> lc_empty d = false;
  su_means : forall q l, In (q, l) h -> (exists c0 c, l = lc_lit c /\ means (l_st a) c0 c q) /\
    forall v k, In (v, k) (rq_terms q) -> v < mnum (t_qm t);
  su_all : forall i, isC (l_st a) i -> exists q l, In (q, l) h /\ lord l = i }.

Lemma fresh_resize t nb nq : fresh_trail t -> fresh_trail (trail_resize t nb nq).
Proof.
  intros [A B C D E]. split; cbn -[Nat.ltb Nat.min in_range]; auto; intros v.
  - destruct (in_range _ _ v); auto.
  - destruct (in_range _ _ v); auto.
  - destruct (v <? _); auto.
  - destruct (v <? _); auto.
Qed.
Lemma get_resize s n i : lc_get (lc_resize s n) i = lc_get s i.
Proof.
  unfold lc_get, lc_resize. cbn [st_cons]. destruct (Nat.lt_ge_cases i (length (st_cons s))) as [L|L].
  - now apply app_nth1.
  - rewrite app_nth2, (nth_overflow (st_cons s)) by auto. destruct (nth_in_or_default (i - length (st_cons s)) (repeat lc_default (n - length (st_cons s))) lc_default) as [H| ->]; auto.
    now apply repeat_spec in H.
Qed.

Lemma problem_SU h a t : problem hi hv opt h a t -> SU h a t.
Proof.
  induction 1 as [|h a t nb nq H IH L1 L2|h a t q a' t' c H IH Hd Hv E].
  - constructor; cbn; auto; try (now intros ? []); try lia.
    + apply lr_new.
    + intros i Hi. unfold isC, lc_get in Hi. cbn in Hi. destruct i; discriminate.
    + exists (at_new 0 0). apply Trail_Proofs.inv_new.
    + split; cbn; auto.
    + intros i Hi. unfold isC, lc_get in Hi. cbn in Hi. destruct i; discriminate.
  - destruct IH. constructor; cbn [with_st l_st l_watch l_cur]; auto.
    + now apply lr_resize.
    + intros i Hi v Hv. apply su_w0; [unfold isC in *; now rewrite get_resize in Hi|].
      unfold cv in *. rewrite get_resize in Hv. exact Hv.
    + cbn. rewrite app_length, repeat_length. lia.
    + destruct su_t0 as (x & T). exists (at_step x (TResize nb nq)). apply Trail_Proofs.inv_resize; auto.
      destruct T as [_ T]. destruct (sh_num _ _ T) as [E1 E2]. cbn. lia.
    + now apply fresh_resize.
    + intros q l Hin. destruct (su_means0 q l Hin) as ((c0 & c & X1 & X2) & X3). split.
      * exists c0, c. split; [exact X1|]. eapply means_grows; [|exact X2]. intros d Hd. split; [exact Hd|apply Permutation_refl].
      * intros v k Hk. specialize (X3 v k Hk). cbn. lia.
    + intros i Hi. apply su_all0. unfold isC in *. now rewrite get_resize in Hi.
  - destruct IH. destruct (run_sinv hi hv opt _ _ su_run0) as [W S].
    pose proof (constraint_set a t q a' t' c W Hd su_n0 E su_ne0) as NE.
    destruct (constraint_shape hi hv opt a t q a' t' c W Hd su_n0 su_w0 E) as (W' & Hst & Ec & Sh).
    destruct (constraint_facts hi hv opt a t q a' t' c W Hd E) as (_ & (c0 & M) & _).
    assert (R' : lra_run hi hv opt a' t') by (eapply lr_constraint; eauto).
    destruct Sh as [(S1 & S2 & ->)|(S1 & S2 & S3 & S4 & S5 & S6 & S7 & S8 & S9 & S10)].
    + constructor; auto; try congruence.
      * rewrite S1, S2. exact su_w0.
      * rewrite S1 in *. intros q' l [X|X]; [|auto]. injection X as <- <-. split; auto. exists c0, c. auto.
      * rewrite S1 in *. intros i Hi. destruct (su_all0 i Hi) as (q' & l & X1 & X2). exists q', l. cbn. auto.
    + constructor; auto; try congruence.
      * rewrite S3, S2. cbn. lia.
      * rewrite S2. apply tt_resize; auto. lia.
      * rewrite S2. now apply fresh_resize.
      * rewrite S2. exact su_g0.
      * intros q' l [X|X].
        -- injection X as <- <-. split; [exists c0, c; auto|]. rewrite S2. exact Hv.
        -- destruct (su_means0 q' l X) as ((c1 & c2 & X1 & X2) & X3). split; [|rewrite S2; exact X3].
           exists c1, c2. split; auto. eapply means_grows; eauto.
      * intros i Hi. destruct (Nat.eq_dec i (lord (lc_lit c))) as [->|Ni]; [exists q, (lc_lit c); cbn; auto|].
        assert (Hl : i < lord (lc_lit c)).
        { pose proof (stored_lord _ _ (ws_st _ W') (stored_get _ i (ws_st _ W') Hi)) as X. rewrite (get_lord _ i (ws_st _ W') Hi) in X. lia. }
        destruct (su_all0 i) as (q' & l & X1 & X2); [unfold isC in *; now rewrite <- S6|]. exists q', l. cbn. auto.
Qed.
End Make.

(** ** the answers *)
Section Answers.
Variables (hi : nat -> Z) (hv : Q -> Z) (opt : lopt) (HU : o_unassigned opt = false).
Context {HS : Type} (he : heur HS) (hash : lit -> N).
Variables (df : nat) (h : list (request * lit)) (a : lra) (t : trail) (cs : list clause) (o : phase_opt) (hs : HS).
Hypothesis HPb : problem hi hv opt h a t.
Hypothesis HR : forall c l, In c cs -> In l c -> lord l < mnum (t_bm t).
Let s0 := mkS (mkDb cs []) t (bstate_new o, a) hs 0.
Let th := bl_theory hi hv opt df.
Hypothesis HP : picks_unassigned th he hash s0.

Lemma start_PE : PE hi hv opt (mnum (t_qm t)) (l_st a) (bstate_new o, a) (mkDb cs []) t.
Proof.
  pose proof (problem_SU hi hv opt h a t HPb) as [R W N T F G C NE M A].
  assert (D0 : dl t = 0) by (unfold dl; now rewrite (ft_levels _ F)).
  assert (L0 : recent t = []) by (unfold recent; now rewrite (ft_levels _ F)).
  split; [|split; [|split; [|split]]].
  - split.
    + split; [exact T|]. split; [|discriminate]. intros c l Hc. unfold clauses_of in Hc. cbn in Hc. rewrite app_nil_r in Hc. now apply HR.
    + unfold trail_empty. rewrite (ft_levels _ F). discriminate.
  - constructor; cbn [snd]; auto; [|apply grows_refl]. intros x. unfold lv. rewrite (ft_lvl _ F). discriminate.
  - cbn [snd]. intros i Hi. destruct (run_sinv hi hv opt _ _ R) as [_ S]. apply lra_enter; auto.
    + intros v. rewrite (ft_lvl _ F). discriminate.
    + rewrite D0. split; [|split]; [intros v j _ _ X|intros j X|intros j j' X]; exfalso; lia.
  - cbn. lia.
  - unfold lskip. cbn [snd]. rewrite C. lia.
Qed.

Lemma check_cases fuel s' ans : check_lra hi hv opt he hash df fuel cs o a t hs = Ok (s', ans) ->
  match ans with
  | Unsat => ~ exists m, ltm (bstate_new o, a) m /\ all_hold m cs
  | Sat => sat_state th he (PD hi hv opt (mnum (t_qm t)) (l_st a)) cs (reach th he hash s0) s'
  end.
Proof.
  pose proof (problem_SU hi hv opt h a t HPb) as [R W N T F G C NE M A].
  intros H. eapply (run_level_start th he hash ltm _ _ _ _ (bl_level hi hv opt df (mnum (t_qm t)) (l_st a) HU) cs (mnum (t_bm t)) HR) in H; eauto.
  apply start_PE.
Qed.

Lemma solution_consistent b r : solution h cs b r -> Spec_Lra.consistent (l_st a) r b.
Proof.
  intros [H1 H2].
  pose proof (problem_SU hi hv opt h a t HPb) as [R W N T F G C NE M A]. destruct (run_sinv hi hv opt _ _ R) as [_ S].
  intros i Hi. cbn [snd] in *. destruct (A i Hi) as (q & l & X1 & <-). destruct (M q l X1) as ((c0 & c & -> & Me) & _).
  specialize (H2 q _ X1). pose proof Me as (M1 & M2 & M3 & M4 & M5 & M6 & M7).
  assert (Hst : stored (l_st a) c) by (exists c0; auto).
  destruct (stored_get_eq _ c S Hst) as (E1 & E2 & E3). unfold stored_holds.
  rewrite (terms_pos _ _ c0) by congruence. rewrite E2, E3, M4, M5, M7.
  unfold Spec_Sat.lit_holds in H2. unfold pm. destruct (lneg (lc_lit c)); cbn [negb] in *.
  - rewrite <- H2. destruct (b (lord (lc_lit c))); cbn; split; congruence || (intros X; try (exfalso; apply X); reflexivity).
  - exact H2.
Qed.

Lemma unsat_answer fuel s' : check_lra hi hv opt he hash df fuel cs o a t hs = Ok (s', Unsat) -> ~ exists b r, solution h cs b r.
Proof.
  intros H (b & r & H1). apply check_cases in H. apply H. exists b. split; [|apply H1]. exists r. now apply solution_consistent.
Qed.

Lemma req_dec r q : {req_holds r q} + {~ req_holds r q}.
Proof.
  unfold req_holds, rel. destruct (rq_pred q).
  - apply Qeq_dec.
  - destruct (Qlt_le_dec (lin r (rq_terms q)) (rq_rhs q)) as [X|X]; [now left|right; now apply Qle_not_lt].
  - destruct (Qlt_le_dec (rq_rhs q) (lin r (rq_terms q))) as [X|X]; [right; now apply Qlt_not_le|now left].
Qed.
Lemma Forall2_in_l {A B} (R : A -> B -> Prop) l l' : Forall2 R l l' -> forall x, In x l -> exists y, In y l' /\ R x y.
Proof.
  induction 1 as [|x y l l' H HF IH]; [intros x []|]. intros z [<-|Hz]; [exists y; cbn; auto|].
  destruct (IH z Hz) as (w & W1 & W2). exists w. cbn. auto.
Qed.
(** a constraint of the problem after a propagate() without conflict *)
Lemma PD_constraint p d t' q l : PD hi hv opt (mnum (t_qm t)) (l_st a) p d t' -> In (q, l) h ->
  (forall v k, In (v, k) (rq_terms q) -> ~ (k == 0)%Q -> mdef (t_qm t') v = true) ->
  mdef (t_bm t') (lord l) = true /\ (Spec_Sat.lit_holds (mval (t_bm t')) l = true <-> req_holds (mval (t_qm t')) q).
Proof.
  intros ((HT & HW & HB & LI' & OK) & _) Hin HV. set (a' := snd p) in *.
  pose proof (problem_SU hi hv opt h a t HPb) as [R W N T F G C NE M A].
  destruct LI' as [R' W' R1' N' Q' G']. destruct (run_sinv hi hv opt _ _ R') as [_ S'].
  assert (T' : TT t') by apply HT.
  destruct (M q l Hin) as ((c0 & c & -> & Me) & Hrg). assert (NE0 : lc_empty c0 = false) by (apply NE, Me).
  apply (means_grows _ _ _ _ _ G') in Me. pose proof Me as (M1 & M2 & M3 & M4 & M5 & M6 & M7). set (i := lord (lc_lit c)) in *.
  assert (Hst : stored (l_st a') c) by (exists c0; auto).
  destruct (stored_cv _ c S' Hst) as [CV IC]. fold i in CV, IC.
  assert (Hi : isC (l_st a') i) by (apply IC; unfold lc_empty in *; now rewrite M3).
  assert (Bl : Lra_Watch.below t' (dl t') (cv (l_st a') i)).
  { intros v Hv. rewrite <- CV, (lc_vars_terms _ _ S'), (terms_pos _ c c0 M3) in Hv.
    apply (Permutation_in _ M6), in_map_iff in Hv. destruct Hv as ((v' & k) & <- & Hv). apply filter_In in Hv. destruct Hv as [Hv Hk].
    cbn [fst]. assert (D : mdef (t_qm t') v' = true).
    { apply (HV v' k Hv). intros X. apply Qeq_bool_iff in X. cbn in Hk. now rewrite X in Hk. }
    apply tt_q in D; auto. destruct (lv t' v') as [j|] eqn:E; [|congruence]. exists j. split; auto. now apply (tt_le t' (VRat v')). }
  destruct (OK i Hi) as (_ & Ex & Ag). destruct (Ex (dl t') ltac:(lia) Bl) as (j & J1 & J2).
  split; [apply (tt_def t' (VBool i)); auto; congruence|].
  specialize (Ag (dl t') j ltac:(lia) ltac:(lia) Bl J1).
  destruct (stored_get_eq _ c S' Hst) as (E1 & E2 & E3). unfold agree, stored_holds in Ag. fold i in E1, E2, E3.
  rewrite (terms_pos _ _ c0) in Ag by congruence. rewrite E2, E3, M4, M5, M7 in Ag.
  unfold Spec_Sat.lit_holds. unfold pm in Ag. fold i. destruct (lneg (lc_lit c)); cbn [negb] in *.
  - set (b := mval (t_bm t') i) in *. destruct b; cbn; split; intros X; auto; try discriminate.
    + exfalso. now apply Ag.
    + destruct (req_dec (mval (t_qm t')) q) as [Y|Y]; auto. apply Ag in Y. discriminate.
  - exact Ag.
Qed.
Lemma sizes s fuel ts d t' : reach th he hash s0 s ->
  th_propagate th fuel (s_th s) (s_db s) (s_trail s) = Ok (ts, d, t', []) ->
  mnum (t_bm t) <= mnum (t_bm t') /\ mnum (t_qm t') = mnum (t_qm t).
Proof.
  pose proof (problem_SU hi hv opt h a t HPb) as [R W N T F G C NE M A].
  intros R1 EP. destruct (propagate_level th he hash ltm _ _ _ _ (bl_level hi hv opt df (mnum (t_qm t)) (l_st a) HU) cs (mnum (t_bm t)) HR t (bstate_new o, a) hs 0 s fuel ts d t' F G (le_n _) start_PE HP R1 EP) as (P & _ & Q0).
  split; auto. destruct P as ((_ & _ & _ & L & _) & _). apply L.
Qed.
Lemma evaluated s fuel ts d t' q l : reach th he hash s0 s ->
  th_propagate th fuel (s_th s) (s_db s) (s_trail s) = Ok (ts, d, t', []) -> In (q, l) h ->
  (forall v k, In (v, k) (rq_terms q) -> ~ (k == 0)%Q -> mdef (t_qm t') v = true) ->
  mdef (t_bm t') (lord l) = true /\ (Spec_Sat.lit_holds (mval (t_bm t')) l = true <-> req_holds (mval (t_qm t')) q).
Proof.
  pose proof (problem_SU hi hv opt h a t HPb) as [R W N T F G C NE M A].
  intros R1 EP. eapply PD_constraint.
  refine (proj1 (propagate_level th he hash ltm _ _ _ _ (bl_level hi hv opt df (mnum (t_qm t)) (l_st a) HU) cs (mnum (t_bm t)) HR t (bstate_new o, a) hs 0 s fuel ts d t' F G (le_n _) start_PE HP R1 EP)).
Qed.
(** the values after a propagate() without conflict that leaves no variable of the problem unassigned *)
Lemma PD_solution p d' t' : PD hi hv opt (mnum (t_qm t)) (l_st a) p d' t' -> units_done d' t' ->
  Forall2 (@Permutation lit) cs (asserted d') ->
  (forall v, in_range (mnum (t_bm t)) (mnum (t_qm t)) v = true -> is_def t' v = true) ->
  solution h cs (mval (t_bm t')) (mval (t_qm t')).
Proof.
  intros HPD HUn HF HA. pose proof HPD as ((HT & HW & HB & LI' & OK) & _).
  pose proof (problem_SU hi hv opt h a t HPb) as [R W N T F G C NE M A].
  assert (Tr : forall l, lord l < mnum (t_bm t) -> tv t' l = Some true \/ tv t' l = Some false).
  { intros l Hl. assert (D : is_def t' (VBool (lord l)) = true) by (apply HA; now apply Nat.ltb_lt).
    unfold tv, eval_lit. cbn in D. rewrite D. destruct (Bool.eqb _ _); auto. }
  assert (Th : forall l, tv t' l = Some true -> Spec_Sat.lit_holds (mval (t_bm t')) l = true).
  { intros l. unfold tv, eval_lit, Spec_Sat.lit_holds. destruct (mdef _ _); [|discriminate]. intros E. injection E as E.
    destruct (lneg l), (mval (t_bm t') (lord l)); cbn in *; congruence. }
  split.
  - intros c0 Hc0. destruct (Forall2_in_l _ _ _ HF c0 Hc0) as (c & Hc & P).
    assert (X : exists l, In l c /\ Spec_Sat.lit_holds (mval (t_bm t')) l = true).
    { assert (Hc' : In c (all_clauses d')) by (unfold all_clauses; apply in_app_iff; auto).
      destruct (in_getc d' c Hc') as (r & V & E). pose proof (HB r V) as Cb. rewrite E in Cb.
      destruct c as [|x [|y c]]; cbn in Cb; [tauto| |].
      - exists x. split; [now left|]. apply Th. apply Cb; [lia|]. now apply HUn.
      - destruct (Tr x) as [X|X]; [apply (HR c0); auto; eapply Permutation_in; [apply Permutation_sym, P|now left]| |].
        + exists x. split; [now left|]. now apply Th.
        + destruct (tpi_LT d' t' HT x false X) as (k & E1 & L1). destruct Cb as [P1 _].
          destruct (P1 k X E1) as (P2 & _); [lia|]. exists y. split; [cbn; auto|]. now apply Th. }
    destruct X as (l & L1 & L2). exists l. split; auto. eapply Permutation_in; [|exact L1]. now apply Permutation_sym.
  - intros q l Hin. eapply PD_constraint; [exact HPD|exact Hin|]. intros v k Hv _. destruct (M q l Hin) as [_ Hrg].
    change (is_def t' (VRat v) = true). apply HA. apply Nat.ltb_lt. now apply (Hrg v k).
Qed.
Lemma sat_answer fuel s' : picks_all th he hash s0 ->
  check_lra hi hv opt he hash df fuel cs o a t hs = Ok (s', Sat) ->
  solution h cs (mval (t_bm (s_trail s'))) (mval (t_qm (s_trail s'))).
Proof.
  intros HA H. apply check_cases in H. destruct H as (HPD & HUn & HF & s1 & f1 & h1 & R1 & EP & EK).
  specialize (HA _ _ _ _ _ _ R1 EP EK). cbn [s0 s_trail] in HA. exact (PD_solution _ _ _ HPD HUn HF HA).
Qed.
Lemma sat_assigned fuel s' : picks_all th he hash s0 ->
  check_lra hi hv opt he hash df fuel cs o a t hs = Ok (s', Sat) ->
  forall v, in_range (mnum (t_bm t)) (mnum (t_qm t)) v = true -> is_def (s_trail s') v = true.
Proof.
  intros HA H. apply check_cases in H. destruct H as (_ & _ & _ & s1 & f1 & h1 & R1 & EP & EK).
  exact (HA _ _ _ _ _ _ R1 EP EK).
Qed.
End Answers.
