(** Watched variables of linear constraints: constraints created while conflicts are explained. *)
From Coq Require Import List Arith ZArith QArith Bool Lia Permutation Sorted Lqa.
From Verif Require Import Base Core_Model Analysis_Model Bool_Model Sat_Base Sat_Inv Sat_Trail Sort_Proofs
  Trail_Model Spec_Trail Trail_Proofs Solver_Model Spec_Theory Theory_Inv Theory_Bool Comb_Bcp
  Lincons_Model Spec_Lincons Lincons_Proofs Lincons_Proofs2 Lra_Model Spec_Lra Lra_Fm Lra_Bounds Lra_Hist Lra_Steps Lra_Keep
  Lra_Range Lra_Good Lra_Confl Lra_Watch.
Import ListNotations.
Open Scope nat_scope.

(** ** trails that only gain boolean variables and their values *)
Record fx (t t' : trail) : Prop := {
  fx_dl : dl t' = dl t;
  fx_lv : forall x, lv t' x = lv t x;
  fx_lvl : forall i, i < mnum (t_bm t) -> t_lvl t' (VBool i) = t_lvl t (VBool i);
  fx_num : mnum (t_bm t) <= mnum (t_bm t');
  fx_b : forall i, i < mnum (t_bm t) -> mdef (t_bm t') i = mdef (t_bm t) i /\ mval (t_bm t') i = mval (t_bm t) i;
  fx_q : forall x, mdef (t_qm t) x = true -> mval (t_qm t') x = mval (t_qm t) x }.
Lemma fx_refl t : fx t t.
Proof. constructor; auto. Qed.
Lemma fx_trans t1 t2 t3 : TT t1 -> TT t2 -> fx t1 t2 -> fx t2 t3 -> fx t1 t3.
Proof.
  intros T1 T2 [A1 A2 A3 A4 A5 A6] [B1 B2 B3 B4 B5 B6]. constructor; try congruence; try lia.
  - intros i Hi. rewrite B3 by lia. auto.
  - intros i Hi. destruct (A5 i Hi), (B5 i ltac:(lia)). split; congruence.
  - intros x Hx. rewrite B6; auto. apply tt_q; auto. rewrite A2. now apply tt_q.
Qed.
Lemma fx_below t t' j vs : fx t t' -> below t' j vs <-> below t j vs.
Proof.
  intros F. unfold below. split; intros H v Hv; destruct (H v Hv) as (j' & E & L); exists j'; split; auto.
  - now rewrite <- (fx_lv _ _ F).
  - now rewrite (fx_lv _ _ F).
Qed.
Lemma stored_holds_ext s r r' i : sinv s -> (forall v, In v (cv s i) -> r v = r' v) -> (stored_holds r s i <-> stored_holds r' s i).
Proof.
  intros HS H. unfold stored_holds. apply rel_morph; [|reflexivity]. apply lin_ext_in. intros v c Hv.
  rewrite H; [reflexivity|]. unfold cv. rewrite lc_vars_terms by auto. apply in_map_iff. exists (v, c). auto.
Qed.
Lemma fx_OKi k s t t' i : sinv s -> TT t -> fx t t' -> i < mnum (t_bm t) -> OKi k s t i -> OKi k s t' i.
Proof.
  intros HS T F Hi (A & B & C). split; [|split].
  - intros v j Hv E L. rewrite (fx_lv _ _ F) in E. apply (fx_below t t'); auto. eapply A; eauto.
  - intros j L Bl. rewrite (fx_lvl _ _ F i Hi). apply B; auto. now apply (fx_below t t').
  - intros j j' L L' Bl E. rewrite (fx_lvl _ _ F i Hi) in E. apply (fx_below t t') in Bl; auto.
    specialize (C j j' L L' Bl E). unfold agree in *. rewrite (proj2 (fx_b _ _ F i Hi)), C.
    apply stored_holds_ext; auto. intros v Hv. symmetry. apply (fx_q _ _ F). apply below_def in Bl; auto.
    rewrite forallb_forall in Bl. auto.
Qed.

Lemma tt_range t v k : TT t -> t_lvl t v = Some k -> in_range (mnum (t_bm t)) (mnum (t_qm t)) v = true.
Proof.
  intros (a & _ & A) E. rewrite (sh_lvl _ _ A) in E. destruct (at_rec a v) as [g|] eqn:R; [|discriminate].
  destruct (sh_num _ _ A) as [-> ->]. apply (sh_ok _ _ A v g R).
Qed.
Lemma tt_add t n : TT t -> mnum (t_bm t) <= n -> TT (add_bool t n).
Proof.
  intros (a & T) L. exists (at_step a (TResize n (mnum (t_qm t)))). apply inv_resize; auto.
  destruct T as [_ T]. destruct (sh_num _ _ T) as [E1 E2]. split; lia.
Qed.
Lemma add_dl t n : dl (add_bool t n) = dl t.
Proof. reflexivity. Qed.
Lemma fx_add t n : TT t -> mnum (t_bm t) <= n -> fx t (add_bool t n).
Proof.
  intros T L. constructor; auto.
  - intros x. unfold lv, add_bool, trail_resize. cbn -[Nat.min Nat.ltb].
    destruct (t_lvl t (VRat x)) as [k|] eqn:E; [|destruct (_ <? _); auto].
    apply tt_range in E; auto. cbn in E. apply Nat.ltb_lt in E. destruct (Nat.ltb_spec x (Nat.min (mnum (t_qm t)) (mnum (t_qm t)))); auto; lia.
  - intros i Hi. cbn -[Nat.min Nat.ltb]. destruct (Nat.ltb_spec i (Nat.min n (mnum (t_bm t)))); auto; lia.
  - intros i Hi. cbn -[Nat.min Nat.ltb]. destruct (Nat.ltb_spec i (Nat.min n (mnum (t_bm t)))); auto; lia.
  - intros x Hx. cbn -[Nat.min Nat.ltb]. apply tt_q in Hx; auto. unfold lv in Hx. destruct (t_lvl t (VRat x)) as [k|] eqn:E; [|congruence].
    apply tt_range in E; auto. cbn in E. apply Nat.ltb_lt in E. destruct (Nat.ltb_spec x (Nat.min (mnum (t_qm t)) (mnum (t_qm t)))); auto; lia.
Qed.
Lemma add_none t n i : TT t -> mnum (t_bm t) <= i -> t_lvl (add_bool t n) (VBool i) = None.
Proof.
  intros T L. cbn -[Nat.min Nat.ltb]. destruct (Nat.ltb_spec i (Nat.min n (mnum (t_bm t)))); auto; lia.
Qed.
Lemma fx_prop t n i ro k x t1 : n <= i -> n <= mnum (t_bm t) -> t_lvl t (VBool i) = None -> t_step t (TPropagate (VBool i) ro k x) = Ok t1 ->
  dl t1 = dl t /\ (forall y, lv t1 y = lv t y) /\ (forall j, j < n -> t_lvl t1 (VBool j) = t_lvl t (VBool j)) /\ mnum (t_bm t1) = mnum (t_bm t) /\
  (forall j, j < n -> mdef (t_bm t1) j = mdef (t_bm t) j /\ mval (t_bm t1) j = mval (t_bm t) j) /\ t_qm t1 = t_qm t.
Proof.
  intros L N U S. pose proof S as S0. apply step_prop_inv in S. destruct S as (_ & L1 & _ & B & Q). cbn in B, Q.
  split; [|split; [|split; [|split; [|split]]]].
  - unfold t_step, trail_propagate in S0. destruct (_ <=? _); [|discriminate]. injection S0 as <-. unfold dl. cbn. now rewrite map_first_length.
  - intros y. unfold lv. rewrite L1, vupd_neq; auto. congruence.
  - intros j Hj. rewrite L1, vupd_neq; auto. intros X. injection X. lia.
  - now rewrite B.
  - intros j Hj. rewrite B. cbn. rewrite !upd_neq by lia. auto.
  - exact Q.
Qed.

(** ** creating a constraint *)
Section Make.
Variables (hi : nat -> Z) (hv : Q -> Z).

Lemma make_cases s q s' c : inv s -> distinct_vars q ->
  lc_make hi hv s (rq_terms q) (rq_pred q) (rq_rhs q) = (s', c) ->
  s' = s \/
  (exists d, st_cons s' = st_cons s ++ [d] /\ lord (lc_lit c) = length (st_cons s) /\
    (lc_empty c = true \/ (st_vars s' = st_vars s ++ map fst (nonzero (rq_terms q)) /\ lc_vars s' c = map fst (nonzero (rq_terms q))))).
Proof.
  intros HI Hd E. destruct q as [ts p rhs]. unfold distinct_vars in Hd. cbn [rq_terms rq_pred rq_rhs] in *. fold (nonzero ts) in Hd.
  destruct (find_norm ts) as [k|] eqn:Ek.
  - destruct (normalise_ok ts k Hd Ek) as (_ & _ & Hne).
    rewrite (lc_make_some hi hv s ts p rhs k (i_len s HI) Ek Hne) in E. unfold insert_cons in E.
    destruct (set_find _ _ _ _); cbn [fst snd] in E; inversion E; subst; [now left|]. right.
    eexists. split; [reflexivity|]. split; [unfold with_sign; destruct (flips k p); reflexivity|]. right.
    cbn [st_vars push]. rewrite scale_fst. split; [reflexivity|]. unfold lc_vars, with_sign. cbn [lc_pos st_vars].
    replace (length (scale k (nonzero ts))) with (length (map fst (nonzero ts))) by (rewrite <- (scale_fst k), map_length; reflexivity).
    cbn [push st_vars]. rewrite ?scale_fst. apply slice_app_r.
  - rewrite (lc_make_none hi hv s ts p rhs Ek) in E. unfold insert_cons in E.
    destruct (set_find _ _ _ _); cbn [fst snd] in E; inversion E; subst; [now left|]. right.
    eexists. split; [reflexivity|]. split; [unfold with_sign; destruct (negb _); reflexivity|]. left. reflexivity.
Qed.
Lemma move_front_ok c qm : forall n s i out stop, sinv s -> stored s c -> stop <= lc_size c -> out <= stop -> out <= i ->
  let s' := move_front n s qm c i out stop in
  sinv s' /\ grows s s' /\ st_cons s' = st_cons s /\ (forall j, isC s j -> j <> lord (lc_lit c) -> cv s' j = cv s j) /\
  ((forall v, In v (lc_vars s c) -> mdef qm v = true) -> s' = s).
Proof.
  induction n as [|n IH]; intros s i out stop HS Hc Hs Ho Hoi; cbn zeta; cbn [move_front]; [auto using grows_refl|].
  destruct (Nat.eqb_spec out stop) as [E|E]; [auto using grows_refl|].
  destruct (nth_error (lc_vars s c) i) as [v|] eqn:En; [|auto using grows_refl].
  assert (Hi : i < lc_size c). { rewrite <- (vars_size s c) by auto. apply nth_error_Some. congruence. }
  destruct (mdef qm v) eqn:Ev.
  { apply IH; auto. }
  destruct (swap_sinv s c i out) as [A G]; auto; try lia.
  destruct (IH (cons_swap s c i out) (S i) (S out) stop) as (K1 & K2 & K3 & K4 & K5); auto; try lia; eauto using stored_grows.
  split; auto. split; [eapply grows_trans; eauto|]. split; [rewrite K3; reflexivity|]. split.
  - intros j Hj Nj. rewrite K4; auto. apply swap_other; auto; try lia. apply HS.
  - intros H. exfalso. apply nth_error_In in En. rewrite (H v En) in Ev. discriminate.
Qed.

Lemma in_keep {A} (W : nat -> list A) v u y w : In w (W y) -> In w (upd W v (W v ++ [u]) y).
Proof. unfold upd. destruct (Nat.eqb_spec y v) as [->|]; auto. rewrite in_app_iff. auto. Qed.
Lemma hasw_keep W v u y j : hasw W y j -> hasw (upd W v (W v ++ [u])) y j.
Proof. unfold hasw, ords. rewrite !in_map_iff. intros (w & E & H). exists w. split; auto. now apply in_keep. Qed.
Lemma hasw_add W v c n : hasw (upd W v (W v ++ [(c, n)])) v (lord (lc_lit c)).
Proof. unfold hasw. rewrite upd_eq, ords_app, in_app_iff. right. cbn. auto. Qed.
Variable opt : lopt.
Lemma constraint_shape a t q a' t' c : wsi a -> distinct_vars q -> length (st_cons (l_st a)) = mnum (t_bm t) -> Wc (l_watch a) (l_st a) ->
  lra_constraint hi hv opt a t (rq_terms q) (rq_pred q) (rq_rhs q) = Ok (a', t', c) ->
  let i := lord (lc_lit c) in
  wsi a' /\ stored (l_st a') c /\ l_cur a' = l_cur a /\
  ((l_st a' = l_st a /\ l_watch a' = l_watch a /\ t' = t) \/
   (i = mnum (t_bm t) /\ t' = add_bool t (S i) /\ length (st_cons (l_st a')) = S i /\ Wc (l_watch a') (l_st a') /\ grows (l_st a) (l_st a') /\
    (forall j, j < i -> lc_get (l_st a') j = lc_get (l_st a) j) /\ (forall j, j < i -> isC (l_st a) j -> cv (l_st a') j = cv (l_st a) j) /\
    isC (l_st a') i /\ (forall v, In v (cv (l_st a') i) <-> In v (map fst (nonzero (rq_terms q)))) /\
    ((forall v, In v (cv (l_st a') i) -> mdef (t_qm t') v = true) -> cv (l_st a') i = map fst (nonzero (rq_terms q))))).
Proof.
  intros Ha Hd Hn HC H i. destruct (constraint_steps hi hv opt a t q a' t' c Ha Hd H) as [[_ Ha'] Hst]. split; auto. split; auto.
  revert H. unfold lra_constraint.
  destruct (lc_make _ _ _ _ _ _) as [s c0] eqn:Em.
  destruct (make_sinv hi hv _ q s c0 (ws_st a Ha) Hd Em) as (S1 & G1 & C1).
  pose proof (make_cases _ q s c0 (si_inv _ (ws_st a Ha)) Hd Em) as MC.
  pose proof (wsi_grows a s Ha S1 G1) as W1.
  destruct (Nat.leb_spec (mnum (t_bm t)) (lord (lc_lit c0))) as [L|L]; intros H; binv H.
  2:{ inversion H; subst. split; [reflexivity|]. left. cbn. split; auto. destruct MC as [MC|(d & _ & X & _)]; auto. lia. }
  inversion H; subst a0 t' c0. clear H.
  assert (MC' : exists d, st_cons s = st_cons (l_st a) ++ [d] /\ i = length (st_cons (l_st a)) /\
    (lc_empty c = true \/ (st_vars s = st_vars (l_st a) ++ map fst (nonzero (rq_terms q)) /\ lc_vars s c = map fst (nonzero (rq_terms q))))).
  { destruct MC as [->|MC]; auto. exfalso. pose proof (stored_lord _ _ (ws_st a Ha) C1). lia. }
  destruct MC' as (d & D1 & D2 & D3). clear MC.
  set (a2 := if o_bounds opt || o_unassigned opt then _ else _) in Eq.
  assert (W2 : l_st a2 = s /\ l_watch a2 = l_watch a /\ l_cur a2 = l_cur a) by (unfold a2; destruct (_ || _); auto).
  clearbody a2. destruct W2 as (E1 & E2 & E3).
  unfold watch_new in Eq. cbn zeta in Eq. set (stop := if lc_size c =? 1 then 1 else 2) in Eq. rewrite E1 in Eq.
  set (qm := t_qm (add_bool t (S (lord (lc_lit c))))) in *.
  set (s1 := move_front (lc_size c) s qm c 0 0 stop) in Eq.
  unfold watch_cons in Eq. binv Eq. apply negb_true_iff in As. destruct D3 as [D3|(D3 & D4)]; [congruence|].
  assert (HF : sinv s1 /\ grows s s1 /\ st_cons s1 = st_cons s /\ (forall j, isC s j -> j <> lord (lc_lit c) -> cv s1 j = cv s j) /\
    ((forall v, In v (lc_vars s c) -> mdef qm v = true) -> s1 = s)).
  { apply move_front_ok; auto; try lia. unfold lc_empty in As. apply Nat.leb_gt in As. unfold stop, lc_size.
    destruct (Nat.eqb_spec (snd (lc_pos c) - fst (lc_pos c)) 1); lia. }
  clearbody s1. destruct HF as (F1 & F2 & F3 & F4 & F5).
  assert (Hc1 : stored s1 c) by (eapply stored_grows; eauto).
  pose proof (proj1 (stored_cv s1 c F1 Hc1)) as CV1. fold i in CV1.
  pose proof (proj1 (stored_cv s c S1 C1)) as CV0. fold i in CV0.
  assert (Hset : forall v, In v (cv s1 i) <-> In v (map fst (nonzero (rq_terms q)))).
  { intros v. rewrite <- D4, <- CV1, !lc_vars_terms by auto. pose proof (stored_terms _ _ c F2 C1) as P.
    split; apply Permutation_in, Permutation_map; [now apply Permutation_sym|exact P]. }
  assert (HgetS : forall j, j < i -> lc_get s1 j = lc_get (l_st a) j).
  { intros j Hj. unfold lc_get. rewrite F3, D1. apply app_nth1. lia. }
  assert (Hcv : forall j, j < i -> isC (l_st a) j -> cv s1 j = cv (l_st a) j).
  { intros j Hj Cj. assert (Gj : lc_get s j = lc_get (l_st a) j) by (unfold lc_get; rewrite D1; apply app_nth1; lia).
    rewrite F4; [|unfold isC; rewrite Gj; exact Cj|unfold i in Hj; lia]. unfold cv. rewrite Gj. unfold lc_vars. rewrite D3. apply slice_app_l.
    destruct (stored_get _ _ (ws_st a Ha) Cj) as (d0 & H0 & _ & Ed & _). rewrite Ed.
    destruct (g_pos _ _ (i_good _ (si_inv _ (ws_st a Ha)) d0 H0)) as [(-> & _)|P]; cbn; lia. }
  assert (Hi : isC s1 i) by (apply (stored_cv s1 c F1 Hc1); exact As).
  cbn [with_st l_st l_watch] in Eq, Eq0. rewrite CV1 in Eq, Eq0.
  assert (W' : l_st a' = s1 /\ l_cur a' = l_cur a /\ (forall y w, In w (l_watch a y) -> In w (l_watch a' y)) /\ (forall v, In v (firstn 2 (cv s1 i)) -> hasw (l_watch a') v i)).
  { pose proof (stored_size_cv s1 c F1 Hc1) as Hsz. fold i in Hsz. apply at_nth in Eq0.
    rewrite E2 in Eq. set (w := (c, Nat.min 2 (lc_size c - 1))) in Eq.
    destruct (Nat.ltb_spec 1 (lc_size c)) as [L1|L1]; binv Eq; inversion Eq; subst a'; cbn [with_watch with_st l_st l_watch l_cur].
    - apply at_nth in Eq1. split; auto. split; auto. split.
      + intros y u Hu. now apply in_keep, in_keep.
      + intros v Hv. destruct (cv s1 i) as [|u0 [|u1 l]]; cbn in *; try lia. injection Eq0 as ->. injection Eq1 as ->.
        destruct Hv as [->|[->|[]]]; [apply hasw_keep|]; apply hasw_add.
    - split; auto. split; auto. split.
      + intros y u Hu. now apply in_keep.
      + intros v Hv. destruct (cv s1 i) as [|u0 [|u1 l]]; cbn in *; try lia; try discriminate. injection Eq0 as ->.
        destruct Hv as [->|[]]; apply hasw_add. }
  destruct W' as (W1' & W2' & W3' & W4'). split; auto. right. rewrite W1'. split; [lia|]. split; [reflexivity|].
  split; [rewrite F3, D1, app_length; cbn; lia|]. split; [|split; [eapply grows_trans; eauto|split; [exact HgetS|split; [exact Hcv|split; [exact Hi|split; [exact Hset|]]]]]].
  - intros j Cj v Hv. destruct (Nat.eq_dec j i) as [->|Nj]; [auto|].
    assert (Hj : j < i).
    { assert (j < S i); [|lia]. pose proof (stored_lord s1 _ F1 (stored_get s1 j F1 Cj)) as X. rewrite (get_lord s1 j F1 Cj), F3, D1, app_length in X. cbn in X. lia. }
    assert (Cj' : isC (l_st a) j) by (unfold isC in *; now rewrite <- HgetS).
    rewrite Hcv in Hv by auto. specialize (HC j Cj' v Hv). unfold hasw, ords in *. apply in_map_iff in HC. destruct HC as (w & X1 & X2).
    apply in_map_iff. exists w. auto.
  - intros HD. assert (X : s1 = s).
    { apply F5. intros v Hv. apply HD. apply Hset. now rewrite <- D4. }
    rewrite X, <- CV0. exact D4.
Qed.
End Make.

(** ** explaining a conflict *)
Record JO (s : store) (W : nat -> list (lcons * nat)) (t : trail) : Prop := {
  jo_s : sinv s;
  jo_t : TT t;
  jo_r : R1 t;
  jo_n : length (st_cons s) = mnum (t_bm t);
  jo_c : Wc W s;
  jo_ok : forall i, isC s i -> OKi (S (dl t)) s t i }.
Lemma sorted_below t ts v j : StronglySorted (level_geq t) ts -> In v (firstn 2 (map fst ts)) -> lv t v = Some j ->
  (forall u, In u (map fst ts) -> lv t u <> None) -> below t j (skipn 2 (map fst ts)).
Proof.
  intros S Hv E D u Hu.
  assert (G : forall p, level_geq t p (u, 0%Q) -> fst p = v -> exists j', lv t u = Some j' /\ j' <= j).
  { intros p G <-. unfold level_geq in G. cbn [fst] in G. unfold lv in *. rewrite E in G.
    destruct (t_lvl t (VRat u)) as [j'|] eqn:Eu; [eauto|]. exfalso. apply (D u); auto.
    rewrite <- (firstn_skipn 2 (map fst ts)). apply in_app_iff. auto. }
  destruct ts as [|p0 [|p1 ts]]; cbn in Hu; [easy|easy|]. inversion S as [|? ? S1 F0]; subst. inversion S1 as [|? ? S2 F1]; subst.
  apply in_map_iff in Hu. destruct Hu as (p & <- & Hp). rewrite Forall_forall in F0, F1.
  cbn in Hv. destruct Hv as [Hv|[Hv|[]]].
  - apply (G p0); auto. exact (F0 p (or_intror Hp)).
  - apply (G p1); auto. exact (F1 p Hp).
Qed.
Lemma level_sorted t ts : StronglySorted (level_geq t) (sort_by (level_gt t) ts).
Proof. exact (poly_sort_sorted t (mkPoly ts 0%Q)). Qed.
Lemma isC_lt s i : sinv s -> isC s i -> i < length (st_cons s).
Proof. intros HS H. pose proof (stored_lord s _ HS (stored_get s i HS H)) as X. now rewrite (get_lord s i HS H) in X. Qed.

Section Finish.
Variables (hi : nat -> Z) (hv : Q -> Z) (opt : lopt) (d : db) (ent : lit -> Prop).
Lemma fm_finish_ok a t f a' t' c : wsi a -> JO (l_st a) (l_watch a) t -> fm_wf f -> fm_finish hi hv opt a t f = Ok (a', t', c) ->
  wsi a' /\ JO (l_st a') (l_watch a') t' /\ fx t t' /\ prop_ops true d ent t t' /\ l_cur a' = l_cur a.
Proof.
  intros Ha HJ Hwf H. pose proof (fm_finish_facts hi hv opt _ _ _ _ _ _ Ha Hwf H) as FF. destruct Hwf as [Hd Hz].
  unfold fm_finish in H. destruct (fm_terms f) as [|u us] eqn:Ef.
  { inversion H; subst. split; auto. split; auto. split; [apply fx_refl|]. split; [constructor|auto]. }
  rewrite <- Ef in *. assert (Hne : fm_terms f <> []) by congruence. clear Ef. binv H.
  pose proof (sort_perm (level_gt t) (fm_terms f)) as P.
  pose proof (distinct_perm hi hv _ _ (fm_pred f) (- fm_const f)%Q P Hd) as D.
  pose proof (constraint_shape hi hv opt a t (mkReq _ _ _) _ _ _ Ha D (jo_n _ _ _ HJ) (jo_c _ _ _ HJ) Eq) as CS. cbn [rq_terms] in CS.
  cbn zeta in CS. destruct CS as (W1 & St & Cu & CS). rename l into c0, l0 into a1, t0 into t1.
  destruct (mdef (t_bm t1) (lord (lc_lit c0))) eqn:Dc.
  - destruct CS as [(E1 & E2 & ->)|(Ei & -> & _)].
    + inversion H; subst. rewrite E1, E2. split; auto. split; auto. split; [apply fx_refl|]. split; [constructor|auto].
    + exfalso. rewrite Ei in Dc. cbn -[Nat.min Nat.ltb] in Dc. destruct (Nat.ltb_spec (mnum (t_bm t)) (Nat.min (S (mnum (t_bm t))) (mnum (t_bm t)))); [lia|discriminate].
  - binv H. inversion H; subst. rename t' into t2. clear H.
    destruct CS as [(E1 & E2 & ->)|(Ei & E1 & Ln & WC' & G & Hget & Hcv & Hi & Hset & Hcvi)].
    + exfalso. rewrite E1 in *. pose proof (jo_s _ _ _ HJ) as HS.
      assert (HC : isC (l_st a) (lord (lc_lit c))).
      { rewrite <- E1. apply (stored_cv (l_st a') c); [apply W1|rewrite E1; exact St|]. now apply (fi_means _ _ _ _ _ _ _ _ FF). }
      destruct (sem_ok _ _ _ _ HS St (cv_ne _ _ HS HC) (jo_t _ _ _ HJ) (jo_r _ _ _ HJ) Eq0) as (k & x & S1 & S2 & _ & _ & S5 & _).
      destruct (step_prop_inv _ _ _ _ _ _ S5) as (K & _). destruct (jo_ok _ _ _ HJ _ HC) as (_ & O & _).
      destruct (O k ltac:(lia) S2) as (j' & X & _). congruence.
    + pose proof (ws_st _ W1) as HS'. set (i := lord (lc_lit c)) in *.
      assert (Li : mnum (t_bm t) <= S i) by lia. pose proof (tt_add t (S i) (jo_t _ _ _ HJ) Li) as T1. rewrite <- E1 in T1.
      pose proof (fx_add t (S i) (jo_t _ _ _ HJ) Li) as F1. rewrite <- E1 in F1.
      assert (R : R1 t1) by (intros y; rewrite (fx_lv _ _ F1); apply (jo_r _ _ _ HJ)).
      destruct (sem_ok _ _ _ _ HS' St (cv_ne _ _ HS' Hi) T1 R Eq0) as (k & x & S1 & S2 & S3 & S4 & S5 & S6). fold i in S1, S2, S3, S5, S6.
      assert (Nm : mnum (t_bm t1) = S i) by (rewrite E1; reflexivity).
      assert (Hi1 : i < mnum (t_bm t1)) by lia. assert (Hi2 : i <= mnum (t_bm t1)) by lia.
      pose proof (tt_prop _ _ _ _ _ T1 Hi1 S1 S5) as T2.
      destruct (fx_prop t1 i i _ _ _ _ (le_n i) Hi2 S1 S5) as (P1 & P2 & P3 & P4 & P5 & P6).
      assert (F2 : fx t t2).
      { constructor.
        - rewrite P1. apply F1.
        - intros y. rewrite P2. apply F1.
        - intros j Hj. rewrite P3 by lia. apply F1; auto.
        - rewrite P4. apply F1.
        - intros j Hj. destruct (P5 j ltac:(lia)), (fx_b _ _ F1 j Hj). split; congruence.
        - intros y Hy. rewrite P6. now apply F1. }
      assert (Kd : k <= dl t) by (destruct (step_prop_inv _ _ _ _ _ _ S5) as (K & _); rewrite (fx_dl _ _ F1) in K; exact K).
      split; auto. split; [|split; [exact F2|split; [|exact Cu]]].
      * constructor; auto.
        -- intros y. rewrite (fx_lv _ _ F2). apply (jo_r _ _ _ HJ).
        -- rewrite P4, Nm. exact Ln.
        -- intros j Hj. rewrite (fx_dl _ _ F2). destruct (Nat.eq_dec j i) as [->|Nj].
           ++ assert (Dd : forall v, In v (cv (l_st a') i) -> mdef (t_qm t1) v = true).
              { intros v Hv. apply tt_q; auto. destruct (S2 v Hv) as (j' & X & _). congruence. }
              specialize (Hcvi Dd). rewrite (nonzero_id (sort_by (level_gt t) (fm_terms f))) in Hcvi by (eapply Permutation_Forall; [exact P|exact Hz]).
              split; [|split].
              ** intros v j Hv E _. rewrite (fx_lv _ _ F2) in E. apply (fx_below t t2); auto. rewrite Hcvi in Hv |- *.
                 eapply sorted_below; eauto; [apply level_sorted|]. intros y Hy. rewrite <- (fx_lv _ _ F1).
                 rewrite <- Hcvi in Hy. destruct (S2 y Hy) as (j' & X & _). congruence.
              ** intros j _ B. destruct S3 as (v & V1 & V2). destruct (B v V1) as (j' & X & L). rewrite P2, V2 in X. injection X as <-.
                 exists k. split; auto. destruct (step_prop_inv _ _ _ _ _ _ S5) as (_ & L1 & _). now rewrite L1, vupd_eq.
              ** intros _ _ _ _ _ _. exact S6.
           ++ assert (Hj' : j < i) by (apply (isC_lt _ _ HS') in Hj; lia).
              assert (Cj : isC (l_st a) j) by (unfold isC in *; now rewrite <- Hget).
              apply fx_OKi with (t := t); auto; [apply HJ|lia|].
              assert (Ec := Hcv j Hj' Cj). eapply (re_OKi _ (l_st a)); [apply HJ|auto..|apply (jo_ok _ _ _ HJ); auto]; rewrite Ec; tauto.
      * apply (po_new true d ent t (S i)); [lia|]. change (trail_resize t (S i) (mnum (t_qm t))) with (add_bool t (S i)). rewrite <- E1.
        eapply po_one; [|exact S1|exact S4|exact S5]. lia.
Qed.

Definition fin (a : lra) (t : trail) (a' : lra) (t' : trail) : Prop :=
  wsi a' /\ JO (l_st a') (l_watch a') t' /\ fx t t' /\ prop_ops true d ent t t' /\ l_cur a' = l_cur a.
Lemma fin_refl a t : wsi a -> JO (l_st a) (l_watch a) t -> fin a t a t.
Proof. intros. split; auto. split; auto. split; [apply fx_refl|]. split; [constructor|auto]. Qed.
Lemma fin_trans a1 t1 a2 t2 a3 t3 : JO (l_st a1) (l_watch a1) t1 -> fin a1 t1 a2 t2 -> fin a2 t2 a3 t3 -> fin a1 t1 a3 t3.
Proof.
  intros J (A1 & A2 & A3 & A4 & A5) (B1 & B2 & B3 & B4 & B5). split; auto. split; auto.
  split; [eapply fx_trans; [apply J|apply A2|eauto|eauto]|]. split; [eapply prop_ops_trans; eauto|congruence].
Qed.
Lemma bound_conflict_ok a t x a' t' o : wsi a -> JO (l_st a) (l_watch a) t -> bound_conflict hi hv opt a t x = Ok (a', t', o) ->
  fin a t a' t' /\ (o = None -> t' = t).
Proof.
  intros Ha HJ H. unfold bound_conflict in H.
  destruct (lower_bound _ _ _) as [w1 lb] eqn:E1. destruct (upper_bound _ _ _) as [w2 ub] eqn:E2.
  assert (F0 : fin a t (with_bd a (bd_set (l_bd a) x w2)) t) by (apply (fin_refl (with_bd a (bd_set (l_bd a) x w2))); [now apply wsi_bd|exact HJ]).
  destruct lb as [lb|]; [|inversion H; subst; auto]. destruct ub as [ub|]; [|inversion H; subst; auto].
  destruct (_ || _); [inversion H; subst; auto|]. binv H.
  match goal with R : fm_resolve _ _ _ = Ok ?f, E : fm_finish _ _ _ _ _ ?f = _ |- _ =>
    apply fm_finish_ok in E; [|apply F0|apply F0|eapply resolve_vars; eauto]; rename E into F1 end.
  inversion H; subst. split; [|discriminate]. eapply fin_trans; [exact HJ|exact F0|exact F1].
Qed.
Lemma neq_side_ok a t n b m cl a' t' cl' : wsi a -> JO (l_st a) (l_watch a) t -> neq_side hi hv opt a t n b m cl = Ok (a', t', cl') ->
  fin a t a' t'.
Proof.
  intros Ha HJ H. unfold neq_side in H. binv H.
  match goal with R : fm_resolve _ _ _ = Ok ?f, E : fm_finish _ _ _ _ _ ?f = _ |- _ =>
    apply fm_finish_ok in E; [|exact Ha|exact HJ|eapply resolve_vars; eauto]; rename E into F1 end.
  destruct (lc_empty _); binv H; inversion H; subst; exact F1.
Qed.
Lemma neq_conflict_ok a t x a' t' o : wsi a -> JO (l_st a) (l_watch a) t -> neq_conflict hi hv opt a t x = Ok (a', t', o) ->
  fin a t a' t' /\ (o = None -> t' = t).
Proof.
  intros Ha HJ H. unfold neq_conflict in H.
  destruct (lower_bound _ _ _) as [w1 lb] eqn:E1. destruct (upper_bound _ _ _) as [w2 ub] eqn:E2.
  assert (F0 : forall B, fin a t (with_bd a B) t) by (intros B; apply (fin_refl (with_bd a B)); [now apply wsi_bd|exact HJ]).
  destruct lb as [lb|]; [|inversion H; subst; auto]. destruct ub as [ub|]; [|inversion H; subst; auto].
  destruct (_ || _); [inversion H; subst; auto|]. destruct (inequality _ _ _ _) as [w3 n] eqn:E3.
  destruct n as [nq|]; [|inversion H; subst; split; [apply (F0 _)|auto]].
  set (a0 := with_bd (with_bd a (bd_set (l_bd a) x w2)) (bd_set (bd_set (l_bd a) x w2) x w3)) in *.
  assert (F1 : fin a t a0 t) by (apply F0). binv H.
  match goal with E : neq_side _ _ _ (with_bd _ _) _ _ _ _ _ = _ |- _ => apply neq_side_ok in E; [rename E into F2|apply F1|apply F1] end.
  match goal with E : neq_side _ _ _ _ _ _ _ _ _ = _ |- _ => apply neq_side_ok in E; [rename E into F3|apply F2|apply F2] end.
  inversion H; subst. split; [|discriminate]. eapply fin_trans; [exact HJ|exact F1|]. eapply fin_trans; [apply F1|exact F2|exact F3].
Qed.
Lemma check_bounds_ok a t x a' t' o : wsi a -> JO (l_st a) (l_watch a) t -> check_bounds hi hv opt a t x = Ok (a', t', o) ->
  fin a t a' t' /\ (o = None -> t' = t).
Proof.
  intros Ha HJ H. unfold check_bounds in H. binv H.
  apply bound_conflict_ok in Eq; auto. destruct Eq as [F1 E1]. destruct o0 as [c|]; [inversion H; subst; split; [exact F1|discriminate]|].
  apply neq_conflict_ok in H; [|apply F1|apply F1]. destruct H as [F2 E2]. split; [eapply fin_trans; eauto|].
  intros N. rewrite (E2 N). auto.
Qed.
Lemma effectively_ok a t x a' b : wsi a -> JO (l_st a) (l_watch a) t -> effectively_decided a t x = (a', b) -> fin a t a' t.
Proof.
  intros Ha HJ H. assert (F0 : forall B, fin a t (with_bd a B) t) by (intros B; apply (fin_refl (with_bd a B)); [now apply wsi_bd|exact HJ]).
  unfold effectively_decided in H. destruct (mdef _ _); [inversion H; subst; now apply fin_refl|].
  destruct (lower_bound _ _ _) as [w1 lb]. destruct lb as [lb|]; [|inversion H; subst; apply F0].
  destruct (upper_bound _ _ _) as [w2 ub]. inversion H; subst. apply F0.
Qed.
Lemma finish_loop_ok : forall vs k a t acc a' t' cs, wsi a -> JO (l_st a) (l_watch a) t ->
  finish_loop hi hv opt vs k a t acc = Ok (a', t', cs) -> fin a t a' t' /\ (cs = [] -> t' = t /\ acc = []).
Proof.
  induction vs as [|x vs IH]; intros k a t acc a' t' cs Ha HJ; cbn [finish_loop]; intros H; [inversion H; subst; split; auto; now apply fin_refl|].
  destruct (existsb _ _); [eauto|]. binv H. apply check_bounds_ok in Eq; auto. destruct Eq as [F1 E1].
  destruct o as [c|].
  - destruct (o_all opt).
    + apply IH in H; [|apply F1|apply F1]. destruct H as [F2 E2]. split; [eapply fin_trans; eauto|]. intros N. destruct (E2 N) as [_ X]. now destruct acc.
    + inversion H; subst. split; auto. intros N. now destruct acc.
  - destruct (if o_rational opt then _ else _) as [a2 b] eqn:E.
    assert (F2 : fin l t0 a2 t0).
    { destruct (o_rational opt); [eapply effectively_ok; eauto; apply F1|]. inversion E; subst. apply fin_refl; apply F1. }
    assert (F3 : fin l t0 (if b then with_decided a2 (l_decided a2 ++ [x]) else a2) t0).
    { destruct b; [|exact F2]. destruct F2 as (A1 & A2 & A3 & A4 & A5). split; [destruct A1; constructor; auto|]. split; auto. }
    specialize (E1 eq_refl). apply IH in H; [|apply F3|apply F3]. destruct H as [F4 E4].
    split; [eapply fin_trans; [exact HJ|exact F1|]; eapply fin_trans; [apply F1|exact F3|exact F4]|]. intros N. destruct (E4 N). split; congruence.
Qed.
Lemma finish_ok a t a' t' cs : wsi a -> JO (l_st a) (l_watch a) t ->
  lra_finish hi hv opt a t = Ok (a', t', cs) -> fin a t a' t' /\ (cs = [] -> t' = t).
Proof.
  intros Ha HJ H. unfold lra_finish in H. destruct (bd_changed _) as [B ch] eqn:E. binv H. inversion H; subst.
  apply finish_loop_ok in Eq; [|now apply wsi_bd|exact HJ]. destruct Eq as [F1 E1]. split; [|intros N; now apply E1].
  destruct F1 as (A1 & A2 & A3 & A4 & A5). split; [destruct A1; constructor; auto|]. split; auto.
Qed.
End Finish.

Lemma propagate_bounds_same : forall es a t a', propagate_bounds es a t = Ok a' ->
  l_st a' = l_st a /\ l_watch a' = l_watch a /\ l_cur a' = l_cur a.
Proof.
  induction es as [|[[i|x] r] es IH]; intros a t a'; cbn [propagate_bounds]; intros H; [inversion H; auto| |eauto].
  destruct (lc_empty _); [eauto|]. binv H. apply IH in H. exact H.
Qed.
Lemma lra_propagate_ok hi hv opt d ent a t a' t' cs : o_unassigned opt = false -> wsi a -> TT t -> R1 t ->
  length (st_cons (l_st a)) = mnum (t_bm t) -> Wc (l_watch a) (l_st a) ->
  (forall i, isC (l_st a) i -> PEi (fun v => In v (map fst (snd (cursor_assigned (l_cur a) t)))) [] (l_st a) t i) ->
  lra_propagate hi hv opt a t = Ok (a', t', cs) ->
  wsi a' /\ JO (l_st a') (l_watch a') t' /\ l_cur a' = fst (cursor_assigned (l_cur a) t) /\ prop_ops true d ent t t' /\
  exists t1, bx t t1 /\ TT t1 /\ fx t1 t' /\ (cs = [] -> t' = t1).
Proof.
  intros Ho Ha T R Hn HC HP H. unfold lra_propagate in H. destruct (cursor_assigned (l_cur a) t) as [cur es] eqn:Ec. cbn [fst snd] in *. binv H.
  rewrite Ho in Eq1. inversion Eq1; subst. clear Eq1.
  assert (A0 : wsi (with_cur a cur)) by (destruct Ha; constructor; auto).
  assert (W1 : wsi l) by (apply (lra_vars_steps hi hv) in Eq; auto; apply Eq).
  apply (lra_vars_ok d ent) in Eq; auto.
  - destruct Eq as (K1 & K2 & K3 & K4 & K5 & K6 & K7).
    assert (W2 : wsi l0 /\ l_st l0 = l_st l /\ l_watch l0 = l_watch l /\ l_cur l0 = l_cur l).
    { destruct (o_bounds opt); [|inversion Eq0; subst; auto]. split; [|eapply propagate_bounds_same; eauto].
      apply (propagate_bounds_steps hi hv) in Eq0; auto. apply Eq0. }
    destruct W2 as (W2 & E1 & E2 & E3).
    assert (HJ : JO (l_st l0) (l_watch l0) t1).
    { rewrite E1, E2. constructor; auto; [apply W1| |].
      - intros y. rewrite (bx_lv t t1) by auto. apply R.
      - rewrite K1, (bx_num _ _ K2). exact Hn. }
    apply (finish_ok hi hv opt d ent) in H; auto. destruct H as [(F1 & F2 & F3 & F4 & F5) E]. split; auto. split; auto. split; [rewrite F5, E3, K6; reflexivity|].
    split; [eapply prop_ops_trans; eauto|]. exists t1. auto.
  - cbn. lia.
  - intros i Hi. cbn in Hi |- *. eapply PEi_P; [| |apply HP; exact Hi].
    + intros [[]|(v & V1 & V2)]. right. exists v. split; auto. apply filter_In. auto.
    + intros V. apply filter_In. split; auto. cbn. unfold isC in Hi. now rewrite Hi.
Qed.

(** ** entering propagation after the cursor was reset *)
Lemma below_not t K l : below t K l -> (forall v, In v l -> lv t v <> Some K) -> l <> [] -> 1 <= K /\ below t (K - 1) l.
Proof.
  intros B N Hl. split.
  - destruct l as [|v l]; [congruence|]. destruct (B v) as (j & E & L); [cbn; auto|]. destruct K; [|lia]. exfalso. apply (N v); [cbn; auto|]. rewrite E. f_equal. lia.
  - intros v Hv. destruct (B v Hv) as (j & E & L). exists j. split; auto. assert (j <> K) by (intros ->; exact (N v Hv E)). lia.
Qed.
Lemma lra_enter (P : var -> Prop) s t i : sinv s -> isC s i -> (forall v, t_lvl t v = Some (dl t) -> P v) -> OKi (dl t) s t i -> PEi P [] s t i.
Proof.
  intros HS Hi HP OK. split; auto. destruct OK as (V & E & A). set (K := dl t) in *.
  assert (Dec : (exists v, In v (firstn 2 (cv s i)) /\ lv t v = Some K) \/ (forall v, In v (firstn 2 (cv s i)) -> lv t v <> Some K)).
  { induction (firstn 2 (cv s i)) as [|v l IH]; [right; intros v []|].
    destruct (lv t v) as [j|] eqn:Ev; [destruct (Nat.eq_dec j K) as [->|N]|].
    - left. exists v. cbn. auto.
    - destruct IH as [(u & U1 & U2)|IH]; [left; exists u; cbn; auto|]. right. intros u [<-|Hu]; [congruence|auto].
    - destruct IH as [(u & U1 & U2)|IH]; [left; exists u; cbn; auto|]. right. intros u [<-|Hu]; [congruence|auto]. }
  destruct Dec as [(v & V1 & V2)|Dec].
  { assert (X : exists v, In v (firstn 2 (cv s i)) /\ P (VRat v)) by (exists v; split; auto; apply HP; exact V2). split; right; right; auto. }
  pose proof (cv_ne s i HS Hi) as Hne.
  assert (Low : below t K (cv s i) -> 1 <= K /\ below t (K - 1) (cv s i)).
  { intros B. assert (Hf : firstn 2 (cv s i) <> []) by (destruct (cv s i); cbn; congruence).
    assert (B1 : below t K (firstn 2 (cv s i))) by (intros v Hv; apply B; rewrite <- (firstn_skipn 2); apply in_app_iff; auto).
    destruct (below_not t K _ B1 Dec Hf) as [L B2]. split; auto.
    destruct (firstn 2 (cv s i)) as [|v0 l0] eqn:Ef; [congruence|]. destruct (B2 v0) as (j0 & E0 & L0); [cbn; auto|].
    assert (B3 : below t j0 (skipn 2 (cv s i))) by (apply (V v0 j0); [rewrite Ef; cbn; auto|exact E0|lia]).
    intros v Hv. rewrite <- (firstn_skipn 2) in Hv. apply in_app_iff in Hv. destruct Hv as [Hv|Hv].
    - rewrite Ef in Hv. auto.
    - destruct (B3 v Hv) as (j' & X & L'). exists j'. split; auto. lia. }
  split.
  - left. split.
    + intros v j Hv Ej L. assert (j <> K) by (intros ->; exact (Dec v Hv Ej)). apply (V v j); auto. lia.
    + intros j L B. destruct (Nat.eq_dec j K) as [->|N]; [|apply E; auto; lia].
      destruct (Low B) as [L1 B1]. destruct (E (K - 1) ltac:(lia) B1) as (j' & X & L'). exists j'. split; auto. lia.
  - destruct (t_lvl t (VBool i)) as [k|] eqn:Ek.
    2:{ left. intros j j' _ _ _ X. congruence. }
    destruct (Nat.eq_dec k K) as [->|N]; [right; left; now apply HP|]. left.
    intros j j' L L' B X. rewrite Ek in X. injection X as <-. destruct (Nat.eq_dec j K) as [->|N'].
    + destruct (Low B) as [L1 B1]. apply (A (K - 1) k); auto; lia.
    + apply (A j k); auto; lia.
Qed.
Lemma bool_enter b d t : TT t -> tpi false d t -> WC d (b_watched b) -> PB (dl t) d t -> bskip b t = 0 -> Ent b d t.
Proof.
  intros T HT HW HP Hs. split; auto. intros He. split; auto. intros r Hr. specialize (HP r Hr).
  assert (Pn : forall x, lev t x = Some (dl t) -> pnd b t x).
  { intros x Hx. unfold pnd. rewrite Hs. cbn [skipn]. rewrite map_rev. apply in_rev. rewrite rev_involutive. now apply tt_recent. }
  assert (LV : forall x, tv t x = Some false -> exists k, lev t x = Some k /\ k <= dl t).
  { intros x Hx. destruct (tpi_LT d t HT x false Hx) as (k & E & L). eauto. }
  destruct (getc d r) as [|x [|y c]]; cbn in *; auto.
  - intros F L. destruct (Nat.eq_dec (dl t) 0) as [E|N]; [split; auto; apply Pn; congruence|]. exfalso. specialize (HP ltac:(lia) L). congruence.
  - destruct HP as [P1 P2]. split; intros F; destruct (LV _ F) as (k & E & L); (destruct (Nat.eq_dec k (dl t)) as [->|N]; [right; auto|left]).
    + destruct (P1 k F E ltac:(lia)) as (A & j & B & C). split; auto. exists k, j. auto.
    + destruct (P2 k F E ltac:(lia)) as (A & j & B & C). split; auto. exists k, j. auto.
Qed.
