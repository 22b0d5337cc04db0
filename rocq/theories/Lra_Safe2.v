(** Explaining a conflict of linear constraints fails no assertion. *)
From Coq Require Import List Arith ZArith QArith Bool Lia Permutation Sorted Lqa.
From Verif Require Import Base Core_Model Literal_Proofs Analysis_Model Bool_Model Sat_Base Sat_Inv Sat_Trail Sort_Proofs
  Trail_Model Spec_Trail Trail_Proofs Solver_Model Spec_Theory Theory_Inv Theory_Bool Comb_Bcp Comb_Safe1
  Lincons_Model Spec_Lincons Lincons_Proofs Lincons_Proofs2 Lra_Model Spec_Lra Lra_Fm Lra_Bounds Lra_Hist Lra_Steps Lra_Keep
  Lra_Range Lra_Good Lra_Good2 Lra_Elim Lra_Confl Lra_Watch Lra_Watch2.
Import ListNotations.
Close Scope Q_scope.
Open Scope nat_scope.

Lemma assert_ub (b : bool) : b = true -> assertb b <> UB.
Proof. intros ->. discriminate. Qed.
Lemma at_ub {A} (l : list A) i : i < length l -> at_ l i <> UB.
Proof. intros H. unfold at_. destruct (nth_error l i) eqn:E; [discriminate|]. apply nth_error_None in E. lia. Qed.

(** ** evaluation with all variables assigned *)
Lemma max_level_tot t : TT t -> forall vs k, (forall v, In v vs -> mdef (t_qm t) v = true) -> k <= dl t ->
  exists m, max_level t vs k = Ok m /\ m <= dl t.
Proof.
  intros T. induction vs as [|v vs IH]; intros k H L; cbn [max_level]; [eauto|].
  assert (D : lv t v <> None) by (apply tt_q; auto; apply H; now left). unfold lv in D.
  destruct (t_lvl t (VRat v)) as [j|] eqn:E; [|congruence]. cbn [value_of bind]. apply IH; [intros u Hu; apply H; now right|].
  pose proof (tt_le _ _ _ T E). lia.
Qed.
Lemma lc_eval_tot s m c : sinv s -> (forall v, In v (lc_vars s c) -> mdef m v = true) -> exists b, lc_eval s m c = Ok b.
Proof.
  intros HS H. unfold lc_eval. rewrite lc_vars_terms in H by auto.
  destruct (eval_terms_ok m (lc_terms s c) (lc_rhs c)) as (x & E & _); [|rewrite E; eexists; reflexivity].
  apply forallb_forall. exact H.
Qed.
Lemma sem_tot s t c : sinv s -> TT t -> mdef (t_bm t) (lord (lc_lit c)) = false ->
  (forall v, In v (lc_vars s c) -> mdef (t_qm t) v = true) -> sem_propagate s t c <> UB.
Proof.
  intros HS T D H. unfold sem_propagate, eval_lit. rewrite D. cbn [assertb bind].
  destruct (max_level_tot t T _ 0 H ltac:(lia)) as (k & -> & L). cbn [bind].
  destruct (lc_eval_tot s _ c HS H) as (b & ->). cbn [bind]. unfold trail_propagate.
  match goal with |- (if ?x <=? ?y then _ else _) <> _ => destruct (Nat.leb_spec x y) as [X|X] end; [discriminate|].
  unfold dl in L. cbn in X. lia.
Qed.

(** ** interning the derived constraint *)
Section S.
Variables (hi : nat -> Z) (hv : Q -> Z) (opt : lopt).
Lemma watch_cons_tot a c : sinv (l_st a) -> stored (l_st a) c -> lc_empty c = false -> watch_cons a c <> UB.
Proof.
  intros HS Hc He. unfold watch_cons. rewrite He. cbn [negb assertb bind].
  pose proof (vars_size (l_st a) c HS Hc) as Z.
  assert (0 < lc_size c) by (unfold lc_empty in He; apply Nat.leb_gt in He; unfold lc_size; lia).
  apply bind_ub; [apply at_ub; lia|]. intros v0 _. destruct (Nat.ltb_spec 1 (lc_size c)); [|discriminate].
  apply bind_ub; [apply at_ub; lia|]. intros v1 _. discriminate.
Qed.
Lemma constraint_tot a t q : wsi a -> distinct_vars q -> nonzero (rq_terms q) <> [] ->
  lra_constraint hi hv opt a t (rq_terms q) (rq_pred q) (rq_rhs q) <> UB.
Proof.
  intros Ha Hd Hne. unfold lra_constraint.
  destruct (lc_make _ _ _ _ _ _) as [s c0] eqn:Em.
  destruct (make_ok hi hv _ q s c0 (si_inv _ (ws_st a Ha)) Hd Em) as (_ & _ & d & M).
  destruct (make_sinv hi hv _ q s c0 (ws_st a Ha) Hd Em) as (S1 & G1 & C1).
  assert (E : lc_empty c0 = false).
  { destruct (lc_empty c0) eqn:E; [|reflexivity]. exfalso. pose proof (stored_size _ _ S1 C1) as Z.
    unfold lc_empty, lc_size in *. apply Nat.leb_le in E.
    replace (snd (lc_pos c0) - fst (lc_pos c0)) with 0 in Z by lia.
    destruct M as (M1 & M2 & M3 & M4 & M5 & M6 & M7). rewrite (terms_pos s c0 d M3) in Z.
    apply Permutation_length in M6. rewrite !map_length in M6. rewrite Z in M6. apply Hne. now apply length_zero_iff_nil. }
  destruct (_ <=? _); [|discriminate]. apply bind_ub; [|intros x _; discriminate].
  set (a2 := if _ || _ then _ else _). assert (E2 : l_st a2 = s) by (unfold a2; destruct (_ || _); reflexivity).
  clearbody a2. unfold watch_new. rewrite E2.
  assert (L : 0 < lc_size c0) by (unfold lc_empty in E; apply Nat.leb_gt in E; unfold lc_size; lia).
  set (stop := if lc_size c0 =? 1 then 1 else 2).
  assert (LS : stop <= lc_size c0) by (unfold stop; destruct (Nat.eqb_spec (lc_size c0) 1); lia).
  destruct (move_front_ok c0 (t_qm (add_bool t (S (lord (lc_lit c0))))) (lc_size c0) s 0 0 stop S1 C1 LS (le_0_n _) (le_n _)) as (F1 & F2 & _).
  apply watch_cons_tot; [exact F1|eapply stored_grows; [exact F2|exact C1]|exact E].
Qed.

Lemma fm_finish_tot a t f : wsi a -> JO (l_st a) (l_watch a) t -> fm_wf f -> vfree f (t_qm t) ->
  fm_finish hi hv opt a t f <> UB.
Proof.
  intros Ha HJ [Hd Hz] HV. unfold fm_finish. destruct (fm_terms f) as [|u us] eqn:Ef; [discriminate|].
  rewrite <- Ef in *. assert (Hne : fm_terms f <> []) by congruence.
  apply bind_ub.
  { apply assert_ub, orb_true_iff. right. apply forallb_forall. intros p Hp.
    assert (D : lv t (fst p) <> None) by (apply tt_q; [apply HJ|]; apply HV; now apply in_map).
    unfold lv in D. destruct (t_lvl t (VRat (fst p))); congruence. }
  intros [] _. pose proof (sort_perm (level_gt t) (fm_terms f)) as P.
  pose proof (distinct_perm hi hv _ _ (fm_pred f) (- fm_const f)%Q P Hd) as D.
  assert (NZ : nonzero (sort_by (level_gt t) (fm_terms f)) = sort_by (level_gt t) (fm_terms f))
    by (apply nonzero_id; eapply Permutation_Forall; [exact P|exact Hz]).
  apply bind_ub.
  { apply (constraint_tot a t (mkReq (sort_by (level_gt t) (fm_terms f)) (fm_pred f) (- fm_const f)%Q)); auto. cbn [rq_terms]. rewrite NZ. intros X. rewrite X in P.
    apply Permutation_sym, Permutation_nil in P. contradiction. }
  intros [[a1 t1] c] E.
  pose proof (constraint_shape hi hv opt a t (mkReq _ _ _) _ _ _ Ha D (jo_n _ _ _ HJ) (jo_c _ _ _ HJ) E) as CS. cbn [rq_terms] in CS.
  cbn zeta in CS. destruct CS as (W1 & St & Cu & CS).
  destruct (mdef (t_bm t1) (lord (lc_lit c))) eqn:Dc; [discriminate|]. apply bind_ub; [|intros x _; discriminate].
  destruct (constraint_facts hi hv opt a t (mkReq _ _ _) _ _ _ Ha D E) as (_ & (c0 & M) & _).
  pose proof (proj1 (proj2 M)) as _. destruct M as (M1 & M2 & M3 & M4 & M5 & M6 & M7). cbn [rq_terms] in M6. rewrite NZ in M6.
  assert (HT : TT t1 /\ t_qm t1 = t_qm (add_bool t 0) \/ TT t1 /\ t_qm t1 = t_qm t).
  { destruct CS as [(_ & _ & ->)|(Ei & -> & _)]; [right; split; [apply HJ|reflexivity]|].
    left. split; [apply tt_add; [apply HJ|lia]|reflexivity]. }
  assert (T1 : TT t1) by (destruct HT as [[T _]|[T _]]; exact T).
  apply sem_tot; auto; [apply W1|]. intros v Hv.
  assert (Hv' : In v (map fst (fm_terms f))).
  { rewrite lc_vars_terms in Hv by apply W1. rewrite (terms_pos _ c c0 M3) in Hv.
    eapply Permutation_in; [apply Permutation_map, Permutation_sym; exact P|]. eapply Permutation_in; [exact M6|exact Hv]. }
  specialize (HV v Hv'). apply tt_q; auto. apply tt_q in HV; [|apply HJ].
  destruct CS as [(_ & _ & ->)|(Ei & -> & _)]; [exact HV|]. rewrite (fx_lv _ _ (fx_add t (S (lord (lc_lit c))) (jo_t _ _ _ HJ) ltac:(lia))). exact HV.
Qed.

(** the derived constraint is false and its literal is false *)
Lemma derived_false_val a t c : wsi a -> JO (l_st a) (l_watch a) t -> stored (l_st a) c -> lc_empty c = false ->
  (forall v, In v (lc_vars (l_st a) c) -> mdef (t_qm t) v = true) -> ~ lc_holds (l_st a) (mval (t_qm t)) c ->
  eval_lit (t_bm t) (lc_lit c) = Some false /\ derived_false a t c <> UB.
Proof.
  intros Ha HJ St He Hv Hh. pose proof (ws_st _ Ha) as HS. set (i := lord (lc_lit c)) in *.
  destruct (stored_cv (l_st a) c HS St) as [Ecv Ei]. fold i in Ecv, Ei.
  assert (HC : isC (l_st a) i) by (apply (stored_cv (l_st a) c HS St); exact He).
  destruct (jo_ok _ _ _ HJ i HC) as (_ & O2 & O3).
  assert (Bl : below t (dl t) (cv (l_st a) i)).
  { intros v Hv'. rewrite <- Ecv in Hv'. specialize (Hv v Hv'). apply tt_q in Hv; [|apply HJ]. destruct (lv t v) as [j|] eqn:Ej; [|congruence].
    exists j. split; auto. eapply tt_le; [apply HJ|exact Ej]. }
  destruct (O2 (dl t) ltac:(lia) Bl) as (j' & Ej & Lj). pose proof (O3 (dl t) j' ltac:(lia) ltac:(lia) Bl Ej) as AG. unfold agree in AG.
  assert (Db : mdef (t_bm t) i = true) by (apply tt_b; [apply HJ|congruence]).
  destruct (lc_eval_tot (l_st a) (t_qm t) c HS Hv) as (b & Eb).
  pose proof (eval_holds (l_st a) (t_qm t) c b HS St Eb) as EH. fold i in EH.
  destruct (stored_get_eq (l_st a) c HS St) as (E1 & E2 & E3). fold i in E1, E2, E3.
  assert (SH : stored_holds (mval (t_qm t)) (l_st a) i <-> lneg (lc_lit c) = true).
  { unfold stored_holds, lc_holds in *. cbn zeta in *. rewrite E2, E3, (terms_pos _ _ c E1).
    destruct (rel_dec (lc_pred c) (lin (mval (t_qm t)) (lc_terms (l_st a) c)) (lc_rhs c)) as [R|R];
      destruct (lneg (lc_lit c)); cbn in Hh; try tauto; try (split; auto; congruence). }
  assert (EL : eval_lit (t_bm t) (lc_lit c) = Some false).
  { unfold eval_lit. fold i. rewrite Db. f_equal. destruct (mval (t_bm t) i), (lneg (lc_lit c)); cbn; auto; exfalso.
    - assert (X : false = true) by (apply SH, AG; reflexivity). discriminate.
    - assert (X : false = true) by (apply AG, SH; reflexivity). discriminate. }
  split; [exact EL|]. unfold derived_false. rewrite EL. cbn [is_false assertb bind].
  unfold lc_eval_opt. replace (forallb _ _) with true by (symmetry; apply forallb_forall; exact Hv). rewrite Eb. cbn [bind].
  apply assert_ub. destruct b; [exfalso|reflexivity].
  destruct (lneg (lc_lit c)); cbn [xorb] in EH.
  - assert (X : false = true) by (apply EH, SH; reflexivity). discriminate.
  - assert (X : false = true) by (apply SH, EH; reflexivity). discriminate.
Qed.

Lemma fm_finish_vars a t f a' t' c : wsi a -> fm_wf f -> fm_finish hi hv opt a t f = Ok (a', t', c) -> fm_terms f <> [] ->
  forall v, In v (lc_vars (l_st a') c) -> In v (map fst (fm_terms f)).
Proof.
  intros Ha Hwf H Hne v Hv.
  pose proof (fi_goes _ _ _ _ _ _ _ _ (fm_finish_facts hi hv opt _ _ _ _ _ _ Ha Hwf H)) as [_ W'].
  destruct Hwf as [Hd Hz]. unfold fm_finish in H.
  destruct (fm_terms f) as [|u us] eqn:Ef; [congruence|]. rewrite <- Ef in *. clear Ef. binv H.
  pose proof (sort_perm (level_gt t) (fm_terms f)) as P.
  pose proof (distinct_perm hi hv _ _ (fm_pred f) (- fm_const f)%Q P Hd) as D.
  destruct (constraint_facts hi hv opt a t (mkReq _ _ _) _ _ _ Ha D Eq) as (_ & (c0 & M) & _).
  destruct M as (M1 & M2 & M3 & M4 & M5 & M6 & M7). cbn [rq_terms] in M6.
  rewrite nonzero_id in M6 by (eapply Permutation_Forall; [exact P|exact Hz]).
  assert (K : a' = l0 /\ c = l) by (destruct (mdef _ _); binv H; inversion H; auto). destruct K as [-> ->].
  rewrite lc_vars_terms in Hv by apply W'. rewrite (terms_pos _ l c0 M3) in Hv.
  eapply Permutation_in; [apply Permutation_map, Permutation_sym; exact P|]. eapply Permutation_in; [exact M6|exact Hv].
Qed.

(** ** literals of the explanation *)
Lemma one_sat s c : sinv s -> stored s c -> lc_empty c = false -> exists r, lc_holds s r c.
Proof.
  intros HS St He. pose proof (stored_size _ _ HS St) as Z. unfold lc_empty in He. apply Nat.leb_gt in He.
  destruct (lc_terms s c) as [|[x k] ts] eqn:Et; [cbn [length] in Z; unfold lc_size in Z; lia|].
  pose proof (coef_nz s c x k HS St ltac:(rewrite Et; now left)) as Hk.
  assert (V : forall v, exists r, (lin r (lc_terms s c) == v)%Q).
  { intros v. assert (Ck : (coef_sum x (lc_terms s c) == k)%Q).
    { apply coef_sum_in; [apply (stored_norm _ _ HS St)|rewrite Et; now left]. }
    exists (upd (fun _ => 0%Q) x ((v - lin (fun _ => 0%Q) (lc_terms s c)) / k)%Q). rewrite lin_upd_coef, Ck. field. exact Hk. }
  unfold lc_holds. cbn zeta. destruct (V (lc_rhs c - 1)%Q) as (r1 & E1). destruct (V (lc_rhs c)) as (r2 & E2). destruct (V (lc_rhs c + 1)%Q) as (r3 & E3).
  destruct (lneg (lc_lit c)), (lc_pred c); cbn [rel];
    first [exists r1; rewrite E1; lra|exists r2; rewrite E2; lra|exists r3; rewrite E3; lra|exists r3; rewrite E3; intros X; lra].
Qed.
Lemma same_lit_holds s c d r : sinv s -> stored s c -> stored s d -> lc_lit c = lc_lit d -> lc_holds s r c -> lc_holds s r d.
Proof.
  intros HS Hc Hd E. destruct (stored_get_eq s c HS Hc) as (A1 & A2 & A3). destruct (stored_get_eq s d HS Hd) as (B1 & B2 & B3).
  rewrite E in *. unfold lc_holds. cbn zeta. rewrite <- A2, <- A3, <- B2, <- B3, <- (terms_pos _ _ c A1), <- (terms_pos _ _ d B1), E. auto.
Qed.
Lemma derives_ne s t cs f : derives s t cs (fun _ => True) f -> cs <> [].
Proof.
  intros D ->. apply (dv_false _ _ _ _ _ D _ (ext_self _)). apply (dv_snd _ _ _ _ _ D); [intros c []|exact I].
Qed.
Lemma derives_two s t cs f : sinv s -> derives s t cs (fun _ => True) f -> fm_terms f = [] ->
  exists c d, In c cs /\ In d cs /\ lc_lit c <> lc_lit d.
Proof.
  intros HS D Ef. pose proof (derives_ne _ _ _ _ D) as Ne. destruct cs as [|c cs]; [congruence|].
  assert (Dec : (exists d, In d cs /\ lc_lit c <> lc_lit d) \/ (forall d, In d cs -> lc_lit c = lc_lit d)).
  { clear. induction cs as [|e cs IH]; [right; intros d []|]. destruct (lit_eqb (lc_lit c) (lc_lit e)) eqn:E.
    - apply lit_eqb_eq in E. destruct IH as [(d & H1 & H2)|IH]; [left; exists d; cbn; auto|right; intros d [<-|Hd]; auto].
    - left. exists e. split; [now left|]. intros X. apply lit_eqb_eq in X. congruence. }
  destruct Dec as [(d & H1 & H2)|Dec]; [exists c, d; cbn; auto|]. exfalso.
  pose proof (dv_rsn _ _ _ _ _ D) as R. rewrite Forall_forall in R.
  destruct (R c (or_introl eq_refl)) as (St & _ & He). destruct (one_sat s c HS St He) as (r & Hr).
  apply (dv_false _ _ _ _ _ D _ (ext_self _)). apply (no_terms f r); auto. apply (dv_snd _ _ _ _ _ D); [|exact I].
  intros d [<-|Hd]; [exact Hr|]. destruct (R d (or_intror Hd)) as (Sd & _ & _). apply (same_lit_holds s c d); auto.
Qed.
Lemma two_len (cl : clause) x y : In x cl -> In y cl -> x <> y -> 2 <= length cl.
Proof. destruct cl as [|a [|b cl]]; cbn; try tauto; try lia. intros [->|[]] [->|[]]; congruence. Qed.
Lemma neg_inj l m : neg l = neg m -> l = m.
Proof. destruct l, m. unfold neg. cbn. intros H. injection H as -> H. f_equal. now destruct lneg, lneg0. Qed.
Lemma reason_false s t t' cs l : Forall (reason s t) cs -> bext t t' -> In l (lits cs) -> eval_lit (t_bm t') l = Some false.
Proof.
  intros R X Hl. unfold lits in Hl. apply in_map_iff in Hl. destruct Hl as (c & <- & Hc). rewrite Forall_forall in R.
  destruct (R c Hc) as (_ & E & _). apply (eval_neg _ _ true). eapply bext_lit; eauto.
Qed.

(** ** the literal of the derived constraint *)
Lemma derived_step a t a0 t0 cs P f a' t' c : wsi a -> JO (l_st a) (l_watch a) t -> rng (l_st a) t ->
  derives a0 t0 cs P f -> t_qm t0 = t_qm t -> fm_finish hi hv opt a t f = Ok (a', t', c) ->
  finished hi hv a t f a' t' c /\ wsi a' /\ JO (l_st a') (l_watch a') t' /\ bext t t' /\ fx t t' /\
  (lc_empty c = false -> eval_lit (t_bm t') (lc_lit c) = Some false /\ derived_false a' t' c <> UB) /\ (lc_empty c = true <-> fm_terms f = []).
Proof.
  intros Ha HJ HR D E0 H. pose proof (fm_finish_facts hi hv opt _ _ _ _ _ _ Ha (dv_wf _ _ _ _ _ D) H) as FF.
  destruct (fm_finish_ok hi hv opt (mkDb [] []) (fun _ => True) _ _ _ _ _ _ Ha HJ (dv_wf _ _ _ _ _ D) H) as (W' & J' & F & _ & _).
  pose proof (fi_ext _ _ _ _ _ _ _ _ FF HR) as X.
  assert (EQ : lc_empty c = true <-> fm_terms f = []).
  { split; [|apply FF]. destruct (fm_terms f) as [|u us] eqn:Ef; auto. intros E. destruct (fi_means _ _ _ _ _ _ _ _ FF) as (_ & N & _); congruence. }
  split; auto. split; auto. split; auto. split; auto. split; auto. split; auto. intros He.
  assert (Hne : fm_terms f <> []) by (intros Z; apply EQ in Z; congruence).
  destruct (fi_means _ _ _ _ _ _ _ _ FF Hne) as (St & _ & MH).
  apply derived_false_val; auto.
  - intros v Hv. apply (fm_finish_vars _ _ _ _ _ _ Ha (dv_wf _ _ _ _ _ D) H Hne) in Hv. rewrite (bx_q _ _ X), <- E0. now apply (dv_vars _ _ _ _ _ D).
  - rewrite MH. apply (dv_false _ _ _ _ _ D). rewrite E0. intros y Hy. rewrite (proj1 (bx_v _ _ X y Hy)). reflexivity.
Qed.

Theorem bound_conflict_tot a t x : wsi a -> JO (l_st a) (l_watch a) t -> cinv a t -> bound_conflict hi hv opt a t x <> UB.
Proof.
  intros W HJ CI. unfold bound_conflict.
  destruct (lower_bound _ _ _) as [w1 lb] eqn:E1. destruct (upper_bound _ _ _) as [w2 ub] eqn:E2.
  pose proof (front_lower _ _ _ _ _ E1) as L1. pose proof (front_upper _ _ _ _ _ E2) as L2.
  pose proof (vq_trans _ _ _ _ _ (vq_lower' _ _ _ _ _ E1) (vq_upper' _ _ _ _ _ E2)) as VQ.
  pose proof (query_goes hi hv a t x w2 W VQ) as G0.
  assert (EB : vb_lb w2 = vb_lb w1) by (unfold upper_bound in E2; inversion E2; reflexivity).
  destruct lb as [lb|]; [|discriminate]. destruct ub as [ub|]; [|discriminate].
  destruct L1 as [O1 I1]. destruct L2 as [O2 I2]. rewrite <- EB in I1.
  destruct (_ || _) eqn:NR; [discriminate|].
  set (a0 := with_bd a (bd_set (l_bd a) x w2)) in *.
  pose proof (cinv_goes _ _ _ _ _ _ CI G0) as C0.
  assert (HL : In lb (lst (l_bd a0) false x)) by (unfold lst, a0; cbn [l_bd with_bd]; rewrite bd_set_same, Nat.eqb_refl; exact I1).
  assert (HU : In ub (lst (l_bd a0) true x)) by (unfold lst, a0; cbn [l_bd with_bd]; rewrite bd_set_same, Nat.eqb_refl; exact I2).
  destruct (bounds_clash (l_st a0) t (l_bd a0) x lb ub (ci_l _ _ C0) HL HU O1 O2 NR)
    as (f & cs1 & g & cs2 & f1 & F & G & R & D).
  destruct (li_good _ _ _ (ci_l _ _ C0) _ _ _ HU) as [Eu _]. destruct (li_good _ _ _ (ci_l _ _ C0) _ _ _ HL) as [El _].
  cbn [l_st with_bd a0] in F, G. rewrite El, Eu, Nat.eqb_refl. cbn [assertb bind]. rewrite F, G. cbn [bind]. rewrite R. cbn [bind].
  assert (J0 : JO (l_st a0) (l_watch a0) t) by exact HJ.
  apply bind_ub; [apply fm_finish_tot; [apply C0|exact J0|apply D|apply D]|]. intros [[a1 t1] c] EF.
  destruct (derived_step a0 t _ _ _ _ _ _ _ _ (ci_w _ _ C0) J0 (ci_r _ _ C0) D eq_refl EF) as (FF & W1 & J1 & X & _ & DF & EE).
  assert (LE : lits cs1 ++ lits cs2 = lits (cs1 ++ cs2)) by (unfold lits; now rewrite map_app). rewrite LE.
  pose proof (dv_rsn _ _ _ _ _ D) as RS.
  destruct (lc_empty c) eqn:Ec.
  - cbn [bind]. destruct (derives_two _ _ _ _ (ws_st _ (ci_w _ _ C0)) D (proj1 EE eq_refl)) as (d1 & d2 & D1 & D2 & D3).
    assert (LN : 2 <= length (sort_clause (lits (cs1 ++ cs2)))).
    { apply (two_len _ (neg (lc_lit d1)) (neg (lc_lit d2))); [apply sort_in; unfold lits; apply in_map_iff; eauto..|]. intros Z. apply neg_inj in Z. contradiction. }
    apply Nat.leb_le in LN. rewrite LN. cbn [assertb bind]. apply bind_ub; [|discriminate]. apply assert_ub, is_false_iff, eval_clause_false.
    intros l Hl. apply (proj1 (sort_in _ _)) in Hl. eapply reason_false; eauto.
  - destruct (DF eq_refl) as [DF1 DF2]. apply bind_ub; [apply bind_ub; [exact DF2|discriminate]|]. intros cl' Ecl. binv Ecl. injection Ecl as <-.
    assert (LN : 2 <= length (sort_clause (lits (cs1 ++ cs2)) ++ [lc_lit c])).
    { rewrite app_length. cbn [length]. pose proof (derives_ne _ _ _ _ D) as Ne. destruct (cs1 ++ cs2) as [|d1 ds]; [congruence|].
      assert (In (neg (lc_lit d1)) (sort_clause (lits (d1 :: ds)))) by (apply sort_in; now left).
      destruct (sort_clause (lits (d1 :: ds))); [contradiction|cbn [length]; lia]. }
    apply Nat.leb_le in LN. rewrite LN. cbn [assertb bind]. apply bind_ub; [|discriminate]. apply assert_ub, is_false_iff, eval_clause_false.
    intros l Hl. apply in_app_iff in Hl. destruct Hl as [Hl|[<-|[]]]; [|exact DF1]. apply (proj1 (sort_in _ _)) in Hl. eapply reason_false; eauto.
Qed.

Lemma neq_side_tot a t x up b nq mult cl : wsi a -> JO (l_st a) (l_watch a) t -> cinv a t -> In b (lst (l_bd a) up x) ->
  In nq (vb_neq (bd_of (l_bd a) x)) -> is_obsolete (l_st a) t b = false -> is_obsolete (l_st a) t nq = false ->
  mdef (t_qm t) x = false -> (b_val b == b_val nq)%Q ->
  side_sign up (mult * coef_sum x (lc_terms (l_st a) (b_cons nq)))%Q ->
  neq_side hi hv opt a t nq b mult cl <> UB /\
  forall a' t' cl', neq_side hi hv opt a t nq b mult cl = Ok (a', t', cl') -> wsi a' /\ JO (l_st a') (l_watch a') t' /\
    forall l, In l cl' -> In l cl \/ eval_lit (t_bm t') l = Some false.
Proof.
  intros W HJ CI Hb Hn Ob On Hx Ev Sg.
  destruct (neq_clash hi hv (l_st a) t (l_bd a) x up b nq mult (ci_l _ _ CI) Hb Hn Ob On Hx Ev Sg)
    as (f & cs & g & f1 & F & G & R & D).
  destruct (li_neq _ _ _ (ci_l _ _ CI) _ _ Hn) as [En _].
  unfold neq_side. rewrite F. cbn [bind]. rewrite G. cbn [bind]. rewrite En, R. cbn [bind].
  pose proof (dv_rsn _ _ _ _ _ D) as RS.
  split.
  - apply bind_ub; [apply fm_finish_tot; [exact W|exact HJ|apply D|apply D]|]. intros [[a1 t1] c] EF.
    destruct (derived_step a t _ _ _ _ _ _ _ _ W HJ (ci_r _ _ CI) D eq_refl EF) as (FF & W1 & J1 & X & _ & DF & EE).
    destruct (lc_empty c); [discriminate|]. apply bind_ub; [apply DF; reflexivity|]. intros z _. discriminate.
  - intros a' t' cl' H. destruct (fm_finish hi hv opt a t f1) as [[[a1 t1] c]| |] eqn:EF; [|discriminate|discriminate]. cbn [bind] in H.
    destruct (derived_step a t _ _ _ _ _ _ _ _ W HJ (ci_r _ _ CI) D eq_refl EF) as (FF & W1 & J1 & X & _ & DF & EE).
    destruct (lc_empty c); [|binv H]; inversion H; subst; split; auto; split; auto; intros l Hl; rewrite ?in_app_iff in Hl.
    + destruct Hl as [Hl|Hl]; [now left|right]. eapply reason_false; eauto.
    + destruct Hl as [Hl|[Hl|[<-|[]]]]; [now left|right; eapply reason_false; eauto|right; now apply DF].
Qed.

Theorem neq_conflict_tot a t x : wsi a -> JO (l_st a) (l_watch a) t -> cinv a t -> neq_conflict hi hv opt a t x <> UB.
Proof.
  intros W HJ CI. unfold neq_conflict.
  destruct (lower_bound _ _ _) as [w1 lb] eqn:E1. destruct (upper_bound _ _ _) as [w2 ub] eqn:E2.
  pose proof (front_lower _ _ _ _ _ E1) as L1. pose proof (front_upper _ _ _ _ _ E2) as L2.
  pose proof (vq_trans _ _ _ _ _ (vq_lower' _ _ _ _ _ E1) (vq_upper' _ _ _ _ _ E2)) as VQ.
  pose proof (query_goes hi hv a t x w2 W VQ) as G0.
  assert (EB : vb_lb w2 = vb_lb w1) by (unfold upper_bound in E2; inversion E2; reflexivity).
  destruct lb as [lb|]; [|discriminate]. destruct ub as [ub|]; [|discriminate].
  destruct L1 as [O1 I1]. destruct L2 as [O2 I2]. rewrite <- EB in I1.
  destruct (_ || _) eqn:NR; [discriminate|].
  apply orb_false_iff in NR. destruct NR as [NR _]. apply orb_false_iff in NR. destruct NR as [NR _].
  apply negb_false_iff, Qeq_bool_iff in NR.
  destruct (inequality _ _ _ _) as [w3 n] eqn:E3.
  destruct n as [nq|]; [|discriminate].
  assert (L3 : In nq (vb_neq w3) /\ is_obsolete (l_st a) t nq = false /\ (b_val nq == b_val lb)%Q /\
    vb_ub w3 = vb_ub w2 /\ vb_lb w3 = vb_lb w2).
  { unfold inequality in E3. inversion E3 as [[Ew Ef]]. cbn [vb_neq vb_ub vb_lb]. clear E3 Ew.
    destruct (find_some _ _ Ef) as [A1 A2]. apply Qeq_bool_iff in A2. split; [exact A1|].
    apply filter_In in A1. destruct A1 as [_ A1]. apply negb_true_iff in A1. auto. }
  destruct L3 as (I3 & O3 & V3 & EU & EL). rewrite <- EU in I2. rewrite <- EL in I1.
  set (a0 := with_bd (with_bd a (bd_set (l_bd a) x w2)) (bd_set (bd_set (l_bd a) x w2) x w3)) in *.
  assert (G1 : esteps hi hv (run3 a t) (run3 a0 t) /\ wsi a0).
  { eapply goes_trans; [exact G0|]. apply query_goes; [apply G0|]. cbn [l_st l_bd with_bd].
    rewrite bd_set_same, Nat.eqb_refl. eapply vq_neq'; eauto. }
  change (with_bd _ (bd_set (l_bd (with_bd a (bd_set (l_bd a) x w2))) x w3)) with a0.
  pose proof (cinv_goes _ _ _ _ _ _ CI G1) as C0.
  assert (J0 : JO (l_st a0) (l_watch a0) t) by exact HJ.
  assert (Bx : bd_of (l_bd a0) x = w3) by (unfold a0; cbn [l_bd with_bd]; rewrite bd_set_same, Nat.eqb_refl; reflexivity).
  assert (HL : In lb (lst (l_bd a0) false x)) by (unfold lst; rewrite Bx; exact I1).
  assert (HU : In ub (lst (l_bd a0) true x)) by (unfold lst; rewrite Bx; exact I2).
  assert (HN : In nq (vb_neq (bd_of (l_bd a0) x))) by (rewrite Bx; exact I3).
  assert (Es : l_st a0 = l_st a) by reflexivity.
  rewrite <- Es in O1, O2, O3. rewrite <- Es. clearbody a0. clear G0 CI Es E1 E2 E3 W VQ HJ.
  destruct (li_neq _ _ _ (ci_l _ _ C0) _ _ HN) as [En NK]. pose proof (li_s _ _ _ (ci_l _ _ C0)) as HS.
  destruct (li_good _ _ _ (ci_l _ _ C0) _ _ _ HU) as [Eu Gu]. destruct (li_good _ _ _ (ci_l _ _ C0) _ _ _ HL) as [El _].
  rewrite El, Eu, En, Nat.eqb_refl. cbn [assertb bind].
  assert (Hx : mdef (t_qm t) x = false).
  { destruct (mdef (t_qm t) x) eqn:E; [|reflexivity]. exfalso.
    destruct (proj1 (permitted_iff _ _ _ _) (li_val _ _ _ (ci_l _ _ C0) x E)) as [P PN].
    specialize (P false lb HL O1) as PL. specialize (P true ub HU O2) as PU. specialize (PN nq HN O3).
    cbn [dirholds] in *. unfold differs, above, Spec_Lra.below in *. apply PN.
    destruct (b_strict lb), (b_strict ub); lra. }
  destruct (neq_unit _ _ _ HS NK O3) as (l' & El' & _). rewrite En in El'.
  pose proof (nv_stored _ _ _ (nq_node _ _ _ NK)) as St.
  assert (Lk : exists k ks, lc_coef (l_st a0) (b_cons nq) = k :: ks).
  { pose proof (stored_size _ _ HS St) as Z1. pose proof (vars_size _ _ HS St) as Z2. rewrite El' in Z2. cbn [length] in Z2.
    unfold lc_terms in Z1. rewrite El', combine_length in Z1. cbn [length] in Z1.
    destruct (lc_coef (l_st a0) (b_cons nq)) as [|k ks]; [cbn [length] in Z1; rewrite Nat.min_0_r in Z1; lia|eauto]. }
  destruct Lk as (k & ks & Ec). rewrite Ec. unfold at_ at 1. cbn [nth_error value_of bind].
  assert (KK : (coef_sum x (lc_terms (l_st a0) (b_cons nq)) == k)%Q /\ ~ (k == 0)%Q).
  { assert (Hin : In (x, k) (lc_terms (l_st a0) (b_cons nq))) by (unfold lc_terms; rewrite El', Ec; now left).
    split; [|eapply coef_nz; eauto]. apply coef_sum_in; [|exact Hin]. apply (stored_norm _ _ HS St). }
  destruct KK as [K1 K2]. cbv zeta. set (mult := (if qltb 0 k then 1 else -1)%Q) in *.
  assert (MK : (0 < mult * k)%Q).
  { unfold mult. destruct (qltb 0 k) eqn:Q0; [apply qltb_lt in Q0; lra|]. apply qltb_ge in Q0.
    assert (k < 0)%Q by (destruct (Qlt_le_dec k 0); auto; exfalso; apply K2; lra). lra. }
  clearbody mult.
  assert (S1 : side_sign false (mult * coef_sum x (lc_terms (l_st a0) (b_cons nq)))%Q) by (cbn [side_sign]; rewrite K1; exact MK).
  assert (V1 : (b_val lb == b_val nq)%Q) by lra.
  destruct (neq_side_tot a0 t x false lb nq mult [neg (lc_lit (b_cons nq))] (ci_w _ _ C0) J0 C0 HL HN O1 O3 Hx V1 S1) as [T1 T2].
  apply bind_ub; [exact T1|]. intros [[a1 t1] cl1] N1.
  destruct (T2 _ _ _ N1) as (W1 & J1 & F1).
  apply (neq_side_lemma hi hv opt a0 t x false lb nq mult) in N1; auto.
  destruct N1 as (G2 & B2 & X2 & Sub1 & _).
  pose proof (cinv_goes _ _ _ _ _ _ C0 G2) as C1.
  destruct (esteps_grows _ _ _ _ _ _ (proj1 G2) (ci_w _ _ C0)) as (SA & SB & GR).
  pose proof (stored_terms _ _ _ GR St) as PT.
  assert (K3 : (coef_sum x (lc_terms (l_st a1) (b_cons nq)) == k)%Q)
    by (rewrite <- K1; unfold coef_sum; apply lin_perm; symmetry; exact PT).
  assert (O2' : is_obsolete (l_st a1) t1 ub = false) by (eapply obs_ext; [exact SA|exact SB|exact GR|exact X2|exact Gu|exact O2]).
  assert (O3' : is_obsolete (l_st a1) t1 nq = false) by (eapply neq_ext; [exact SA|exact SB|exact GR|exact X2|exact NK|exact O3]).
  assert (Hx' : mdef (t_qm t1) x = false) by (rewrite (bx_q _ _ X2); exact Hx).
  assert (S2 : side_sign true (- mult * coef_sum x (lc_terms (l_st a1) (b_cons nq)))%Q) by (cbn [side_sign]; rewrite K3; lra).
  assert (V2 : (b_val ub == b_val nq)%Q) by lra.
  assert (HU' : In ub (lst (l_bd a1) true x)) by (rewrite B2; exact HU).
  assert (HN' : In nq (vb_neq (bd_of (l_bd a1) x))) by (rewrite B2; exact HN).
  destruct (neq_side_tot a1 t1 x true ub nq (- mult)%Q cl1 W1 J1 C1 HU' HN' O2' O3' Hx' V2 S2) as [T3 T4].
  apply bind_ub; [exact T3|]. intros [[a2 t2] cl2] N2.
  destruct (T4 _ _ _ N2) as (W2 & J2 & F2).
  apply (neq_side_lemma hi hv opt a1 t1 x true ub nq (- mult)%Q) in N2; auto.
  destruct N2 as (G3 & B3 & X3 & Sub2 & _).
  apply bind_ub; [|intros z _; discriminate]. apply assert_ub, is_false_iff, eval_clause_false. intros l Hl.
  destruct (F2 l Hl) as [Hl1|E]; [|exact E]. destruct (F1 l Hl1) as [[<-|[]]|E]; [|eapply bext_lit; eauto].
  apply (bext_lit t t2); [exact (bext_trans _ _ _ X2 X3)|]. apply (eval_neg _ _ true).
  rewrite obsolete_eq, orb_false_iff in O3. destruct O3 as [O3 _]. unfold node_obs in O3. rewrite !orb_false_iff in O3.
  destruct O3 as [[A _] _]. apply negb_false_iff, is_true_iff in A. exact A.
Qed.

Theorem check_bounds_tot a t x : wsi a -> JO (l_st a) (l_watch a) t -> cinv a t -> check_bounds hi hv opt a t x <> UB.
Proof.
  intros W HJ CI. unfold check_bounds. apply bind_ub; [now apply bound_conflict_tot|]. intros [[a1 t1] o] E.
  destruct o; [discriminate|]. pose proof (bound_conflict_steps hi hv opt _ _ _ _ _ _ W E) as G.
  destruct (bound_conflict_ok hi hv opt (mkDb [] []) (fun _ => True) _ _ _ _ _ _ W HJ E) as [(W1 & J1 & _) _].
  apply neq_conflict_tot; auto. eapply cinv_goes; eauto.
Qed.
Lemma effectively_eq a t x a' b : effectively_decided a t x = (a', b) ->
  exists w, vq (l_st a) t (bd_of (l_bd a) x) w /\ (a' = a \/ a' = with_bd a (bd_set (l_bd a) x w)).
Proof.
  unfold effectively_decided. destruct (mdef _ _); [intros H; inversion H; subst; exists (bd_of (l_bd a') x); split; [constructor|auto]|]. intros H.
  destruct (lower_bound _ _ _) as [w1 lb] eqn:E1. apply vq_lower' in E1. destruct lb as [lb|]; [|inversion H; subst; eauto].
  destruct (upper_bound _ _ _) as [w2 ub] eqn:E2. apply vq_upper' in E2. inversion H; subst. exists w2. split; [eapply vq_trans; eauto|auto].
Qed.
(** with --prop-rational variables with one possible value are noted *)
Lemma noted_tot a t x a2 b : wsi a -> JO (l_st a) (l_watch a) t -> cinv a t -> (if o_rational opt then effectively_decided a t x else (a, false)) = (a2, b) ->
  let a3 := if b then with_decided a2 (l_decided a2 ++ [x]) else a2 in wsi a3 /\ JO (l_st a3) (l_watch a3) t /\ cinv a3 t.
Proof.
  intros W HJ CI E a3.
  assert (G : esteps hi hv (run3 a t) (run3 a2 t) /\ wsi a2) by (destruct (o_rational opt); [eapply effectively_steps; eauto|inversion E; subst; now apply goes_refl]).
  assert (G3 : esteps hi hv (run3 a t) (run3 a3 t) /\ wsi a3) by (unfold a3; destruct b; [now apply decided_goes|exact G]).
  assert (X : l_st a3 = l_st a /\ l_watch a3 = l_watch a).
  { destruct (o_rational opt).
    - apply effectively_eq in E. destruct E as (w & _ & [->| ->]); unfold a3; destruct b; auto.
    - inversion E; subst. unfold a3. auto. }
  destruct X as [-> ->]. split; [apply G3|]. split; [exact HJ|]. eapply cinv_goes; eauto.
Qed.
Lemma finish_loop_tot : forall vs k a t acc, wsi a -> JO (l_st a) (l_watch a) t -> cinv a t ->
  finish_loop hi hv opt vs k a t acc <> UB.
Proof.
  induction vs as [|x vs IH]; intros k a t acc W HJ CI; cbn [finish_loop]; [discriminate|].
  destruct (existsb _ _); [now apply IH|]. apply bind_ub; [now apply check_bounds_tot|]. intros [[a1 t1] o] E.
  pose proof (check_bounds_steps hi hv opt _ _ _ _ _ _ W E) as G. pose proof (cinv_goes _ _ _ _ _ _ CI G) as C1.
  destruct (check_bounds_ok hi hv opt (mkDb [] []) (fun _ => True) _ _ _ _ _ _ W HJ E) as [(W1 & J1 & _) _].
  destruct o as [c|]; [destruct (o_all opt); [now apply IH|discriminate]|].
  destruct (if o_rational opt then _ else _) as [a2 b] eqn:Er. destruct (noted_tot _ _ _ _ _ W1 J1 C1 Er) as (W2 & J2 & C2). now apply IH.
Qed.
Theorem lra_finish_tot a t : wsi a -> JO (l_st a) (l_watch a) t -> cinv a t -> lra_finish hi hv opt a t <> UB.
Proof.
  intros W HJ CI. unfold lra_finish. destruct (bd_changed _) as [B ch] eqn:E.
  assert (G5 : esteps hi hv (run3 a t) (run3 (with_bd a B) t) /\ wsi (with_bd a B)).
  { split; [|apply wsi_bd, W]. unfold bd_changed in E. inversion E; subst. apply e_one. apply es_mark. }
  apply bind_ub; [|intros [[a1 t1] cs] _; discriminate].
  apply finish_loop_tot; auto; [apply G5|eapply cinv_goes; eauto].
Qed.
End S.
