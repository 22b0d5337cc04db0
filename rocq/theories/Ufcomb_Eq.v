(** Equalities the plugin for uninterpreted functions creates: the values and levels it computes are those of the linear constraint. *)
From Coq Require Import List Arith ZArith QArith Qcanon Bool Lia Lqa Permutation.
From Verif Require Import Base Core_Model Analysis_Model Bool_Model Sat_Base Sat_Inv Sat_Trail Sort_Proofs
  Trail_Model Spec_Trail Trail_Proofs Solver_Model Spec_Theory Theory_Inv Theory_Bool Comb_Bcp
  Lincons_Model Spec_Lincons Lincons_Proofs Lincons_Proofs2 Lra_Model Spec_Lra Lra_Fm Lra_Bounds Lra_Hist Lra_Steps Lra_Keep
  Lra_Range Lra_Good Lra_Confl Lra_Watch Lra_Watch2
  Terms_Model Spec_Terms Terms_Proofs TermMgr_Model Spec_TermMgr TermMgr_Base TermMgr_Arith TermMgr_Term
  Internalizer_Model Spec_Internalizer Internalizer_Proofs Uf_Model Spec_Uf Uf_Proofs Uf_Confl.
Import ListNotations.
Close Scope Qc_scope.
Close Scope Q_scope.
Open Scope nat_scope.

Lemma max_level_app t : forall l1 l2 k, max_level t (l1 ++ l2) k = (j <- max_level t l1 k ;; max_level t l2 j).
Proof. induction l1 as [|v l1 IH]; intros l2 k; cbn [app max_level]; auto. destruct (t_lvl t (VRat v)); cbn [value_of bind]; auto. Qed.
Lemma max_level_def t : forall vs k, (forall v, In v vs -> lv t v <> None) -> exists m, max_level t vs k = Ok m.
Proof.
  induction vs as [|v vs IH]; intros k D; cbn [max_level]; [eauto|]. destruct (t_lvl t (VRat v)) as [j|] eqn:E.
  - cbn [value_of bind]. apply IH. intros w Hw. apply D. now right.
  - exfalso. apply (D v); [now left|exact E].
Qed.

Section E.
Variables (hi : nat -> Z) (hv : Q -> Z) (opt : lopt).
Variable H : hashes.
Variable T : table.
Variable bv : list (term * lit).
Variable rv : list (term * nat).
Hypothesis W : wf H T.
Hypothesis M : maps_ok T rv.
Notation evaluate := (evaluate T bv rv).
Notation evaluate_f := (evaluate_f T bv rv).
Notation st0 := (st0 rv).

Lemma var_real t : type_of T t = TReal -> uf_var T bv rv t = option_map VRat (m_find rv t).
Proof. intros R. unfold uf_var. rewrite R. now destruct (m_find rv t). Qed.
Lemma ev_var n tr t x l : varlike T t -> evaluate_f n tr t = Ok (x, l) ->
  exists v, m_find rv t = Some v /\ x = PR (mval (t_qm tr) v) /\ lv tr v = Some l.
Proof.
  intros [R K] E. destruct n as [|n]; [discriminate|]. cbn [Uf_Model.evaluate_f] in E. rewrite (var_real t) in E by apply R.
  destruct (m_find rv t) as [v|]; cbn [option_map] in E.
  - exists v. unfold lv. destruct (t_lvl tr (VRat v)); [|discriminate]. cbn [value_of bind] in E. inversion E; subst. auto.
  - destruct K as [K|[K|K]]; rewrite K in E; discriminate.
Qed.
Lemma ev_const n tr t q x l : real_t T t -> node_of T t = const_node q -> evaluate_f n tr t = Ok (x, l) -> x = PR (this q) /\ l = 0.
Proof.
  intros R N E. destruct n as [|n]; [discriminate|]. cbn [Uf_Model.evaluate_f] in E. rewrite (var_real t) in E by apply R.
  assert (K : kind_of T t = KArithConst) by (unfold kind_of; now rewrite N).
  rewrite (find_not T rv M t) in E by (rewrite K; intros [X|[X|X]]; discriminate X). cbn [option_map] in E.
  rewrite K, (proj2 (const_kind _ _ _ N)) in E. cbn [bind] in E. inversion E; auto.
Qed.
Lemma ev_prod n tr t c y q x l : real_t T t -> node_of T t = mkNode KProduct TReal (DArgs [c; y]) -> real_t T c -> node_of T c = const_node q ->
  varlike T y -> evaluate_f n tr t = Ok (x, l) -> exists v, m_find rv y = Some v /\ x = PR (this q * mval (t_qm tr) v)%Q /\ lv tr v = Some l.
Proof.
  intros R N Rc Nc V E. destruct n as [|n]; [discriminate|]. cbn [Uf_Model.evaluate_f] in E. rewrite (var_real t) in E by apply R.
  assert (K : kind_of T t = KProduct) by (unfold kind_of; now rewrite N).
  rewrite (find_not T rv M t) in E by (rewrite K; intros [X|[X|X]]; discriminate X). cbn [option_map] in E. rewrite K in E.
  ba E As. unfold get_args, dargs in E. rewrite K, N in E. cbn [n_desc] in E. bi E a0 Ea0. bi E b0 Eb0. injection Ea0 as <-. injection Eb0 as <-.
  bi E [x1 l1] E1. bi E [x2 l2] E2. bi E p1 E3. bi E p2 E4. cbn [fst snd] in *.
  destruct (ev_const _ _ _ _ _ _ Rc Nc E1) as [-> ->]. destruct (ev_var _ _ _ _ _ V E2) as (v & V1 & -> & V2).
  cbn in E3, E4. inversion E3; inversion E4; subst. inversion E; subst. eauto.
Qed.
(** a monomial *)
Lemma ev_mono n tr m t x l : mono_repr T m t -> evaluate_f n tr t = Ok (x, l) ->
  match fst m with
  | None => x = PR (this (snd m)) /\ l = 0
  | Some y => exists v q, m_find rv y = Some v /\ x = PR q /\ (q == this (snd m) * mval (t_qm tr) v)%Q /\ lv tr v = Some l
  end.
Proof.
  destruct m as [[y|] c]; cbn [fst snd]; intros (R & NZ & Mn) E; cbn [fst snd] in *.
  - destruct Mn as [V [[-> ->]|(N1 & k & Rk & Nk & L1 & L2 & Nt)]].
    + destruct (ev_var _ _ _ _ _ V E) as (v & V1 & -> & V2). exists v, (mval (t_qm tr) v). split; auto. split; auto. split; auto.
      change (this 1%Qc) with 1%Q. ring.
    + destruct (ev_prod _ _ _ _ _ _ _ _ R Nt Rk Nk V E) as (v & V1 & -> & V2). exists v, (this c * mval (t_qm tr) v)%Q. split; auto. split; auto. split; auto. reflexivity.
  - exact (ev_const _ _ _ _ _ _ R Mn E).
Qed.
Lemma ev_monos n tr : forall tp ms s k x l p q, Forall2 (mono_repr T) tp ms -> sorted_p tp -> (has_none tp -> p_const p == 0)%Q ->
  sum_values (evaluate_f n tr) s k ms = Ok (x, l) -> img st0 tp p = Ok q ->
  exists y new, x = PR y /\ (y - s == pvalue (mval (t_qm tr)) q - pvalue (mval (t_qm tr)) p)%Q /\
    p_terms q = p_terms p ++ new /\ max_level tr (map fst new) k = Ok l.
Proof.
  induction tp as [|m tp IH]; intros ms s k x l p q F S Z E I; inversion F as [|? t ? ms' Mt F']; subst; cbn [sum_values] in E.
  - cbn in I. inversion E; inversion I; subst. exists s, []. split; auto. split; [ring|]. rewrite app_nil_r. auto.
  - bi E [x1 l1] E1. bi E p1 E2. cbn [fst snd] in *. destruct S as [SF S]. pose proof (ev_mono _ _ _ _ _ _ Mt E1) as EM.
    destruct m as [[y|] c]; cbn [fst snd] in *.
    + destruct EM as (v & qv & V1 & -> & V2 & V3). cbn in E2. injection E2 as <-.
      cbn [img] in I. unfold rvar, Uf_Confl.st0 in I. cbn [Internalizer_Model.is_real] in I. rewrite V1 in I. cbn [value_of bind] in I.
      destruct (IH _ _ _ _ _ (mkPoly (p_terms p ++ [(v, this c)]) (p_const p)) _ F' S (fun N => Z ltac:(destruct N as (d & N); exists d; now right)) E I) as (y0 & new & Y1 & Y2 & Y3 & Y4).
      exists y0, ((v, this c) :: new). cbn [p_terms p_const] in *. split; auto. split; [|split].
      * unfold pvalue in *. cbn [p_terms p_const] in *. rewrite Internalizer_Proofs.lin_app in Y2. cbn [Spec_Lincons.lin] in Y2. rewrite V2 in Y2. lra.
      * rewrite Y3, <- app_assoc. reflexivity.
      * cbn [map fst max_level]. unfold lv in V3. rewrite V3. cbn [value_of bind]. exact Y4.
    + destruct EM as [-> ->]. cbn in E2. injection E2 as <-. cbn [img] in I.
      assert (Z0 : has_none tp -> (p_const (mkPoly (p_terms p) (this c)) == 0)%Q).
      { intros (d & N). rewrite Forall_forall in SF. specialize (SF _ N). cbn in SF. discriminate. }
      destruct (IH _ _ _ _ _ (mkPoly (p_terms p) (this c)) _ F' S Z0 E I) as (y0 & new & Y1 & Y2 & Y3 & Y4).
      exists y0, new. split; auto. split; [|split; auto].
      * unfold pvalue in *. cbn [p_terms p_const] in *. rewrite (Z (ex_intro _ c (or_introl eq_refl))). lra.
      * rewrite Nat.max_0_r in Y4. exact Y4.
Qed.
(** value and level of a term are those of its polynomial *)
Lemma eval_poly tr t x l p : real_t T t -> evaluate tr t = Ok (x, l) -> uf_poly T bv rv t = Ok p ->
  (exists y, x = PR y /\ (y == pvalue (mval (t_qm tr)) p)%Q) /\ max_level tr (map fst (p_terms p)) 0 = Ok l.
Proof.
  intros R E P. apply (ufpoly_int H T bv rv W M t p R) in P. destruct (poly_of_ex H T t W R) as [tp PO]. rewrite (ipoly_img H T st0 t tp W R PO) in P.
  pose proof PO as PO'. unfold Uf_Model.evaluate in E. destruct PO' as [->|q NZ N|K|k y q N Rk Nk NZ V|ms p0 N L S F].
  - destruct (small_node _ _ zero_term W (proj1 R) ltac:(simpl; lia)) as [[E1 _]|[_ E1]]; [discriminate|].
    destruct (ev_const _ _ _ 0%Qc _ _ R E1 E) as [-> ->]. cbn in P. inversion P; subst. split; [exists 0%Q; split; [reflexivity|]|reflexivity].
    unfold pvalue. cbn. reflexivity.
  - destruct (ev_const _ _ _ _ _ _ R N E) as [-> ->]. cbn in P. inversion P; subst. split; [exists (this q); split; auto|reflexivity].
    unfold pvalue. cbn. ring.
  - destruct (ev_var _ _ _ _ _ (conj R K) E) as (v & V1 & -> & V2). cbn [img] in P. unfold rvar, Uf_Confl.st0 in P. cbn [Internalizer_Model.is_real] in P.
    rewrite V1 in P. cbn in P. inversion P; subst. split.
    + exists (mval (t_qm tr) v). split; auto. unfold pvalue. cbn. change (Qred 1) with 1%Q. ring.
    + cbn. unfold lv in V2. rewrite V2. reflexivity.
  - destruct (ev_prod _ _ _ _ _ _ _ _ R N Rk Nk V E) as (v & V1 & -> & V2). cbn [img] in P. unfold rvar, Uf_Confl.st0 in P. cbn [Internalizer_Model.is_real] in P.
    rewrite V1 in P. cbn [value_of bind] in P. inversion P; subst. split.
    + exists (this q * mval (t_qm tr) v)%Q. split; auto. unfold pvalue. cbn. ring.
    + cbn. unfold lv in V2. rewrite V2. reflexivity.
  - assert (K : kind_of T t = KPoly) by (unfold kind_of; now rewrite N). cbn [Uf_Model.evaluate_f] in E. rewrite (var_real t) in E by apply R.
    rewrite (find_not T rv M t) in E by (rewrite K; intros [X|[X|X]]; discriminate X). cbn [option_map] in E. rewrite K in E. ba E As.
    unfold get_args, dargs in E. rewrite K, N in E. cbn [n_desc] in E.
    destruct (ev_monos _ _ _ _ _ _ _ _ (mkPoly [] 0%Q) _ F S (fun _ => Qeq_refl 0) E P) as (y & new & -> & Y2 & Y3 & Y4). cbn [p_terms app] in Y3. rewrite Y3. split; auto.
    exists y. split; auto. unfold pvalue in *. cbn in Y2. lra.
Qed.

(** ** the variables of a difference *)
Lemma insert_vars : forall ts v c w, In w (map fst (poly_insert ts v c)) -> w = v \/ In w (map fst ts).
Proof.
  induction ts as [|[u d] ts IH]; cbn [poly_insert map fst In]; intros v c w Hw; [intuition|].
  destruct (Nat.eqb_spec u v) as [->|N]; cbn zeta in *.
  - destruct (Qeq_bool _ 0); cbn in Hw; intuition.
  - cbn [map fst In] in Hw. destruct Hw as [<-|Hw]; auto. apply IH in Hw. tauto.
Qed.
Lemma sub_vars p1 p2 w : In w (map fst (p_terms (poly_sub p1 p2))) -> In w (map fst (p_terms p1)) \/ In w (map fst (p_terms p2)).
Proof.
  unfold poly_sub, poly_add. cbn [p_terms]. generalize (p_terms p1) as l1.
  assert (G : forall l2 l1, In w (map fst (fold_left (fun ts t => poly_insert ts (fst t) (snd t)) l2 l1)) -> In w (map fst l1) \/ In w (map fst l2)).
  { induction l2 as [|[v c] l2 IH]; cbn [fold_left map fst snd]; intros l1 Hw; auto. apply IH in Hw. destruct Hw as [Hw|Hw]; [|right; now right].
    apply insert_vars in Hw. cbn [In]. intuition. }
  intros l1 Hw. apply G in Hw. rewrite map_map in Hw. cbn [fst] in Hw. exact Hw.
Qed.
(** all variables of the two polynomials remain in their difference, or none does *)
Definition nocancel (t u : term) : Prop := forall p1 p2, uf_poly T bv rv t = Ok p1 -> uf_poly T bv rv u = Ok p2 ->
  p_terms (poly_sub p1 p2) = [] \/ incl (map fst (p_terms p1) ++ map fst (p_terms p2)) (map fst (p_terms (poly_sub p1 p2))).

Lemma max_level_set t vs ws k m : (forall v, In v vs <-> In v ws) -> max_level t vs k = Ok m -> max_level t ws k = Ok m.
Proof.
  intros S E. destruct (max_level_spec _ _ _ _ E) as (L1 & B1 & X1).
  destruct (max_level_def t ws k) as [m' E'].
  { intros v Hv. apply S in Hv. destruct (B1 v Hv) as (j & X & _). congruence. }
  rewrite E'. f_equal. destruct (max_level_spec _ _ _ _ E') as (L2 & B2 & X2). apply Nat.le_antisymm.
  - destruct X2 as [->|(v & Hv & X)]; auto. apply S in Hv. destruct (B1 v Hv) as (j & Y & L). rewrite X in Y. injection Y as <-. exact L.
  - destruct X1 as [->|(v & Hv & X)]; auto. apply S in Hv. destruct (B2 v Hv) as (j & Y & L). rewrite X in Y. injection Y as <-. exact L.
Qed.
Lemma max_level_max t : forall vs k j m, max_level t vs k = Ok m -> max_level t vs (Nat.max j k) = Ok (Nat.max j m).
Proof.
  induction vs as [|v vs IH]; intros k j m; cbn [max_level]; intros E; [inversion E; auto|].
  destruct (t_lvl t (VRat v)) as [i|]; [|discriminate]. cbn [value_of bind] in *. rewrite <- Nat.max_assoc. now apply IH.
Qed.
Lemma tt_tl t : TT t -> tl_ok t.
Proof.
  intros HT v k E. split; [eapply tt_range; eauto|]. apply tt_def; auto. congruence.
Qed.
Lemma uval_PR a b : uval_eqb (PR a) (PR b) = true <-> (a == b)%Q.
Proof. apply Qeq_bool_iff. Qed.

Variables (d : db) (ent : lit -> Prop).
Lemma aeq_finish t u a tr c m a' t' c' x k1 y k2 : real_t T t -> real_t T u -> wsi a -> JO (l_st a) (l_watch a) tr ->
  evaluate tr t = Ok (x, k1) -> evaluate tr u = Ok (y, k2) -> uval_eqb x y = negb m -> nocancel t u ->
  assert_equality hi hv opt T bv rv t u a tr c m = Ok (a', t', c') ->
  (a' = a /\ t' = tr /\ c' = c /\ m = false) \/
  exists p1 p2 lc, uf_poly T bv rv t = Ok p1 /\ uf_poly T bv rv u = Ok p2 /\ let p := poly_sub p1 p2 in p_terms p <> [] /\ poly_wf p /\
    fm_finish hi hv opt a tr (mkFm (p_terms p) (p_const p) PEq) = Ok (a', t', lc) /\ lneg (lc_lit lc) = false /\
    c' = c ++ [if m then lc_lit lc else neg (lc_lit lc)].
Proof.
  intros Rt Ru Ha HJ Et Eu XY NC E. unfold assert_equality in E. ba E As. rewrite (proj1 (proj2 Rt)) in E.
  bi E p1 E1. bi E p2 E2. cbn zeta in E.
  destruct (eval_poly tr t x k1 p1 Rt Et E1) as [(qx & -> & Qx) ML1]. destruct (eval_poly tr u y k2 p2 Ru Eu E2) as [(qy & -> & Qy) ML2].
  assert (VS : (pvalue (mval (t_qm tr)) (poly_sub p1 p2) == qx - qy)%Q) by (rewrite poly_sub_value, Qx, Qy; reflexivity).
  assert (W1 : poly_wf p1) by exact (proj1 (ufpoly_ok H T bv rv W M t p1 Rt E1)). assert (W2 : poly_wf p2) by exact (proj1 (ufpoly_ok H T bv rv W M u p2 Ru E2)).
  pose proof (poly_sub_wf p1 p2 W1 (proj2 W2)) as WS. destruct (NC p1 p2 E1 E2) as [PT|NC'].
  { rewrite PT in E. ba E Z. inversion E; subst. left. split; auto. split; auto. split; auto.
    apply Qeq_bool_iff in Z. unfold pvalue in VS. rewrite PT, Z in VS. cbn [Spec_Lincons.lin] in VS. assert (Y : (qx == qy)%Q) by lra. apply uval_PR in Y. rewrite Y in XY. now destruct m. }
  destruct (p_terms (poly_sub p1 p2)) as [|pt0 pts] eqn:PT.
  { ba E Z. inversion E; subst. left. split; auto. split; auto. split; auto.
    apply Qeq_bool_iff in Z. unfold pvalue in VS. rewrite PT, Z in VS. cbn [Spec_Lincons.lin] in VS. assert (Y : (qx == qy)%Q) by lra. apply uval_PR in Y. rewrite Y in XY. now destruct m. }
  assert (NE : p_terms (poly_sub p1 p2) <> []) by congruence. rewrite <- PT in *. clear PT pt0 pts. right.
  set (p := poly_sub p1 p2) in *. ba E As2. bi E [[a1 tr1] lc] Ec. ba E As3. apply negb_true_iff in As3. cbn [poly_sort p_terms p_const] in Ec.
  exists p1, p2, lc. split; auto. split; auto. cbn zeta. fold p. split; auto. split; auto.
  assert (DF : forall v, In v (map fst (p_terms p)) -> lv tr v <> None).
  { intros v Hv. destruct (max_level_spec _ _ _ _ ML1) as (_ & B1 & _). destruct (max_level_spec _ _ _ _ ML2) as (_ & B2 & _).
    apply sub_vars in Hv. destruct Hv as [Hv|Hv]; [destruct (B1 v Hv) as (? & X & _)|destruct (B2 v Hv) as (? & X & _)]; congruence. }
  assert (MLp : max_level tr (map fst (p_terms p)) 0 = Ok (Nat.max k1 k2)).
  { apply (max_level_set tr (map fst (p_terms p1) ++ map fst (p_terms p2))).
    - intros v. split; [apply NC'|]. intros Hv. apply in_app_iff. now apply sub_vars.
    - rewrite max_level_app, ML1. cbn [bind]. rewrite <- (Nat.max_0_r k1) at 1. now apply max_level_max. }
  pose proof (sort_perm (level_gt tr) (p_terms p)) as P.
  pose proof (distinct_perm hi hv _ _ PEq (- p_const p)%Q P (proj1 WS)) as D'.
  destruct (constraint_facts hi hv opt a tr (mkReq _ _ _) _ _ _ Ha D' Ec) as (_ & (c0 & Mn) & _). cbn [rq_terms] in Mn.
  destruct (constraint_steps hi hv opt a tr (mkReq _ _ _) _ _ _ Ha D' Ec) as ([St Wa] & Sc).
  pose proof (tt_tl _ (jo_t _ _ _ HJ)) as TL. destruct (constraint_fine hi hv opt a tr _ _ _ _ _ _ TL Ec) as [[TL1 K1] _].
  pose proof (eval_pres T bv rv _ _ _ _ _ _ (K1 k1) Et (le_n _)) as Et1. pose proof (eval_pres T bv rv _ _ _ _ _ _ (K1 k2) Eu (le_n _)) as Eu1.
  set (l := if m then lc_lit lc else neg (lc_lit lc)) in *. assert (Ll : lord l = lord (lc_lit lc)) by (unfold l; destruct m; reflexivity).
  assert (GOAL : forall r, (if mdef (t_bm tr1) (lord (lc_lit lc)) then Ok (a1, tr1, lc) else t2 <- sem_propagate (l_st a1) tr1 lc ;; Ok (a1, t2, lc)) = r ->
    fm_finish hi hv opt a tr (mkFm (p_terms p) (p_const p) PEq) = r).
  { intros r Er. unfold fm_finish. cbn [fm_terms fm_const fm_pred]. destruct (p_terms p) as [|z zs] eqn:PT; [congruence|]. rewrite <- PT in *.
    replace (_ || _) with true.
    2:{ symmetry. apply orb_true_iff. right. apply forallb_forall. intros z0 Hz. specialize (DF (fst z0) (in_map fst _ _ Hz)). unfold lv in DF.
        destruct (t_lvl tr (VRat (fst z0))); [reflexivity|congruence]. }
    cbn [assertb bind]. rewrite Ec. cbn [bind]. exact Er. }
  rewrite Ll in E. destruct (mdef (t_bm tr1) (lord (lc_lit lc))) eqn:Dm.
  - inversion E; subst. split; [now apply GOAL|]. auto.
  - rewrite Et1, Eu1 in E. cbn [bind fst snd] in E. ba E As4. bi E tr2 E4. inversion E; subst. split; [|auto]. apply GOAL.
    destruct Mn as (_ & _ & M3 & M4 & M5 & M6 & M7).
    assert (CVp : forall v, In v (map fst (lc_terms (l_st a') lc)) <-> In v (map fst (p_terms p))).
    { intros v. rewrite (terms_pos _ lc c0 M3). cbn [rq_terms] in M6. rewrite (Lra_Confl.nonzero_id _ (Permutation_Forall P (proj2 WS))) in M6.
      split; intros Hv.
      - apply (Permutation_in v M6) in Hv. eapply Permutation_in; [|exact Hv]. apply Permutation_map, Permutation_sym, P.
      - apply (Permutation_in v (Permutation_sym M6)). eapply Permutation_in; [|exact Hv]. apply Permutation_map, P. }
    assert (ML : max_level tr1 (lc_vars (l_st a') lc) 0 = Ok (Nat.max k1 k2)).
    { rewrite lc_vars_terms by apply Wa. apply (max_level_set tr1 (map fst (p_terms p))); [intros v; symmetry; apply CVp|].
      clear -K1 MLp. revert MLp. generalize 0 as k. generalize (map fst (p_terms p)) as vs. induction vs as [|v vs IH]; intros k; cbn [max_level]; auto.
      destruct (t_lvl tr (VRat v)) as [j|] eqn:Ej; [|discriminate]. cbn [value_of bind]. intros X.
      destruct (K1 j _ _ Ej (le_n _)) as [-> _]. cbn [value_of bind]. now apply IH. }
    unfold sem_propagate. unfold eval_lit. rewrite Dm. cbn [assertb bind]. rewrite ML. cbn [bind].
    assert (DD : forallb (mdef (t_qm tr1)) (map fst (lc_terms (l_st a') lc)) = true).
    { apply forallb_forall. intros v Hv. apply CVp in Hv. specialize (DF v Hv). unfold lv in DF. destruct (t_lvl tr (VRat v)) as [j|] eqn:Ej; [|congruence].
      destruct (K1 j _ _ Ej (le_n _)) as [X _]. apply (TL1 _ _ X). }
    destruct (eval_terms_ok (t_qm tr1) (lc_terms (l_st a') lc) (lc_rhs lc) DD) as (z & Z1 & Z2).
    assert (LE : lc_eval (l_st a') (t_qm tr1) lc = Ok (negb m)).
    { unfold lc_eval. rewrite Z1. cbn [bind]. rewrite As3. f_equal. cbn [xorb].
      assert (X : pred_eval (lc_pred lc) 0 z = true <-> (qx == qy)%Q).
      { rewrite pred_eval_rel. specialize (M7 (mval (t_qm tr1))). rewrite As3 in M7. cbn [pm negb] in M7. unfold req_holds in M7. cbn [rq_pred rq_terms rq_rhs] in M7.
        rewrite <- M4, <- M5, <- (terms_pos _ lc c0 M3) in M7.
        assert (Y : rel (lc_pred lc) 0%Q z <-> rel (lc_pred lc) (Spec_Lincons.lin (mval (t_qm tr1)) (lc_terms (l_st a') lc)) (lc_rhs lc)).
        { destruct (lc_pred lc); cbn [rel]; split; intros; lra. }
        rewrite Y, M7. cbn [rel].
        rewrite <- (Lincons_Proofs.lin_perm _ _ _ P).
        assert (VS1 : (pvalue (mval (t_qm tr1)) p == qx - qy)%Q).
        { destruct (eval_poly tr1 t _ _ p1 Rt Et1 E1) as [(q1 & X1 & Y1) _]. destruct (eval_poly tr1 u _ _ p2 Ru Eu1 E2) as [(q2 & X2 & Y2) _].
          injection X1 as <-. injection X2 as <-. unfold p. rewrite poly_sub_value, Y1, Y2. reflexivity. }
        unfold pvalue in VS1. split; intros; lra. }
      destruct m; cbn [negb] in *.
      - destruct (pred_eval (lc_pred lc) 0 z); auto. exfalso. assert (Y : (qx == qy)%Q) by now apply X. apply uval_PR in Y. congruence.
      - assert (Y : pred_eval (lc_pred lc) 0 z = true) by (apply X; now apply uval_PR). now rewrite Y. }
    rewrite LE. cbn [bind]. rewrite As3. cbn [xorb]. unfold lvar in *. rewrite Ll in *.
    unfold trail_propagate in *. destruct (_ <=? _) eqn:LL; [|discriminate]. cbn [with_bm t_levels] in *.
    inversion E4; subst. cbn [bind]. destruct m; reflexivity.
Qed.

(** ** what asserting an equality does *)
Notation goes a t a' t' := (esteps hi hv (run3 a t) (run3 a' t') /\ wsi a').
Definition all_false (t : trail) (c : clause) : Prop := forall l, In l c -> eval_lit (t_bm t) l = Some false.
Record asserted (a : lra) (t : trail) (a' : lra) (t' : trail) : Prop := {
  as_fin : fin d ent a t a' t';
  as_goes : esteps hi hv (run3 a t) (run3 a' t');
  as_run : lra_run hi hv opt a t -> lra_run hi hv opt a' t';
  as_false : forall l, eval_lit (t_bm t) l = Some false -> eval_lit (t_bm t') l = Some false }.
Lemma asserted_refl a t : wsi a -> JO (l_st a) (l_watch a) t -> asserted a t a t.
Proof. intros Ha HJ. constructor; auto; [now apply fin_refl|constructor]. Qed.
Lemma asserted_trans a1 t1 a2 t2 a3 t3 : JO (l_st a1) (l_watch a1) t1 -> asserted a1 t1 a2 t2 -> asserted a2 t2 a3 t3 -> asserted a1 t1 a3 t3.
Proof.
  intros HJ [A1 A2 A3 A4] [B1 B2 B3 B4]. constructor; auto; [eapply fin_trans; eauto|eapply e_trans; eauto].
Qed.
Lemma fx_false t t' l : TT t -> fx t t' -> eval_lit (t_bm t) l = Some false -> eval_lit (t_bm t') l = Some false.
Proof.
  intros HT F. unfold eval_lit. destruct (mdef (t_bm t) (lord l)) eqn:D; [|discriminate].
  assert (L : lord l < mnum (t_bm t)).
  { apply tt_b in D; auto. destruct (t_lvl t (VBool (lord l))) as [k|] eqn:E; [|congruence]. apply tt_range in E; auto. cbn in E. now apply Nat.ltb_lt. }
  destruct (fx_b _ _ F _ L) as [-> ->]. now rewrite D.
Qed.
Lemma finish_run a t f a' t' c : wsi a -> JO (l_st a) (l_watch a) t -> fm_wf f -> fm_finish hi hv opt a t f = Ok (a', t', c) -> asserted a t a' t'.
Proof.
  intros Ha HJ Hf E. pose proof (fm_finish_ok hi hv opt d ent a t f a' t' c Ha HJ Hf E) as F.
  pose proof (fm_finish_facts hi hv opt _ _ _ _ _ _ Ha Hf E) as FF. constructor.
  - exact F.
  - apply (fi_goes _ _ _ _ _ _ _ _ FF).
  - intros R. revert E. unfold fm_finish. destruct (fm_terms f) as [|z zs] eqn:PT; [intros E; inversion E; subst; exact R|]. rewrite <- PT in *. intros E.
    ba E As. cbn zeta in E. bi E [[a1 t1] c1] Ec.
    pose proof (sort_perm (level_gt t) (fm_terms f)) as P.
    pose proof (distinct_perm hi hv _ _ (fm_pred f) (- fm_const f)%Q P (proj1 Hf)) as D'.
    pose proof (lr_constraint hi hv opt a t (mkReq _ _ _) _ _ _ R D' Ec) as R1'.
    destruct (constraint_fine hi hv opt a t _ _ _ _ _ _ (tt_tl _ (jo_t _ _ _ HJ)) Ec) as [[TL1 K1] LT].
    destruct (mdef (t_bm t1) (lord (lc_lit c1))) eqn:Dm; [inversion E; subst; exact R1'|]. bi E t2 E2. inversion E; subst.
    unfold sem_propagate in E2. ba E2 As2. bi E2 k Ek. bi E2 b0 Eb.
    apply (lr_foreign hi hv opt a' t1 (TPropagate (VBool (lord (lc_lit c))) None k (xorb (lneg (lc_lit c)) b0, 0%Q))); auto.
  - intros l. apply fx_false; [apply HJ|apply F].
Qed.
Lemma pvalue_eq0 t u x k1 y k2 p1 p2 tr : real_t T t -> real_t T u -> evaluate tr t = Ok (x, k1) -> evaluate tr u = Ok (y, k2) ->
  uf_poly T bv rv t = Ok p1 -> uf_poly T bv rv u = Ok p2 ->
  (fm_holds (mval (t_qm tr)) (mkFm (p_terms (poly_sub p1 p2)) (p_const (poly_sub p1 p2)) PEq) <-> uval_eqb x y = true).
Proof.
  intros Rt Ru Et Eu E1 E2. destruct (eval_poly tr t x k1 p1 Rt Et E1) as [(qx & -> & Qx) ML1]. destruct (eval_poly tr u y k2 p2 Ru Eu E2) as [(qy & -> & Qy) ML2].
  assert (VS : (pvalue (mval (t_qm tr)) (poly_sub p1 p2) == qx - qy)%Q) by (rewrite poly_sub_value, Qx, Qy; reflexivity).
  rewrite uval_PR. unfold fm_holds. cbn [fm_pred fm_terms fm_const rel]. unfold pvalue in VS. split; intros; lra.
Qed.
Lemma aeq_fin t u a tr c m a' t' c' x k1 y k2 : real_t T t -> real_t T u -> wsi a -> JO (l_st a) (l_watch a) tr ->
  evaluate tr t = Ok (x, k1) -> evaluate tr u = Ok (y, k2) -> uval_eqb x y = negb m -> nocancel t u -> all_false tr c ->
  assert_equality hi hv opt T bv rv t u a tr c m = Ok (a', t', c') ->
  asserted a tr a' t' /\ all_false t' c'.
Proof.
  intros Rt Ru Ha HJ Et Eu XY NC AF E.
  destruct (aeq_finish t u a tr c m a' t' c' x k1 y k2 Rt Ru Ha HJ Et Eu XY NC E) as [(-> & -> & -> & _)|(p1 & p2 & lc & E1 & E2 & NE & WS & Ef & Ln & ->)].
  { split; [now apply asserted_refl|exact AF]. }
  assert (Hf : fm_wf (mkFm (p_terms (poly_sub p1 p2)) (p_const (poly_sub p1 p2)) PEq)) by exact WS.
  pose proof (finish_run _ _ _ _ _ _ Ha HJ Hf Ef) as AS. split; auto.
  pose proof (fm_finish_facts hi hv opt _ _ _ _ _ _ Ha Hf Ef) as FF. destruct (fi_means _ _ _ _ _ _ _ _ FF NE) as (St & Nem & Mn).
  destruct (as_fin _ _ _ _ AS) as (Ha' & HJ' & _).
  pose proof (aeq_fine hi hv opt T bv rv _ _ _ _ _ _ _ _ _ (tt_tl _ (jo_t _ _ _ HJ)) E) as [TL' K'].
  pose proof (eval_pres T bv rv _ _ _ _ _ _ (K' k1) Et (le_n _)) as Et'. pose proof (eval_pres T bv rv _ _ _ _ _ _ (K' k2) Eu (le_n _)) as Eu'.
  pose proof (ws_st _ Ha') as HS. destruct (stored_cv _ _ HS St) as [CV Hi]. specialize (Hi Nem). set (i := lord (lc_lit lc)) in *.
  assert (BL : below t' (dl t') (cv (l_st a') i)).
  { destruct (eval_poly t' t x k1 p1 Rt Et' E1) as [_ ML1]. destruct (eval_poly t' u y k2 p2 Ru Eu' E2) as [_ ML2].
    destruct (max_level_spec _ _ _ _ ML1) as (_ & B1 & _). destruct (max_level_spec _ _ _ _ ML2) as (_ & B2 & _).
    intros v Hv. assert (Hp : In v (map fst (p_terms (poly_sub p1 p2)))).
    { destruct (fm_finish_ok hi hv opt d ent a tr _ a' t' lc Ha HJ Hf Ef) as (_ & _ & _ & _ & _).
      rewrite <- CV, lc_vars_terms in Hv by auto. clear -Hv Ef Ha Hf NE. revert Ef. unfold fm_finish. cbn [fm_terms fm_const fm_pred].
      destruct (p_terms (poly_sub p1 p2)) as [|z zs] eqn:PT; [congruence|]. rewrite <- PT in *. intros E. ba E As. cbn zeta in E. bi E [[a1 t1] c1] Ec.
      pose proof (sort_perm (level_gt tr) (p_terms (poly_sub p1 p2))) as P.
      pose proof (distinct_perm hi hv _ _ PEq (- p_const (poly_sub p1 p2))%Q P (proj1 Hf)) as D'.
      destruct (constraint_facts hi hv opt a tr (mkReq _ _ _) _ _ _ Ha D' Ec) as (_ & (c0 & Mn) & _).
      assert (X : a' = a1 /\ lc = c1) by (destruct (mdef _ _); [inversion E; auto|bi E t2 E2; inversion E; auto]). destruct X as [-> ->].
      destruct Mn as (_ & _ & M3 & _ & _ & M6 & _). cbn [rq_terms] in M6. rewrite (Lra_Confl.nonzero_id _ (Permutation_Forall P (proj2 Hf))) in M6.
      rewrite (terms_pos _ c1 c0 M3) in Hv. apply (Permutation_in v M6) in Hv. eapply Permutation_in; [|exact Hv]. apply Permutation_map, Permutation_sym, P. }
    apply sub_vars in Hp. destruct Hp as [Hp|Hp]; [destruct (B1 v Hp) as (j & X & _)|destruct (B2 v Hp) as (j & X & _)]; exists j; split; auto; eapply tt_le; [apply HJ'|exact X|apply HJ'|exact X]. }
  destruct (jo_ok _ _ _ HJ' i Hi) as (_ & Ei' & Ai'). destruct (Ei' (dl t') ltac:(lia) BL) as (j & Lj & Lj').
  specialize (Ai' (dl t') j ltac:(lia) ltac:(lia) BL Lj). unfold agree in Ai'.
  assert (Dm : mdef (t_bm t') i = true) by (apply tt_b; [apply HJ'|congruence]).
  destruct (stored_get_eq _ lc HS St) as (G1 & G2 & G3).
  specialize (Mn (mval (t_qm t'))). rewrite (pvalue_eq0 t u x k1 y k2 p1 p2 t' Rt Ru Et' Eu' E1 E2) in Mn. unfold lc_holds in Mn. rewrite Ln in Mn.
  assert (V : mval (t_bm t') i = negb m).
  { rewrite <- XY. apply eq_true_iff_eq. rewrite Ai', <- Mn. unfold stored_holds. fold i in G1, G2, G3. rewrite G2, G3, (terms_pos _ _ lc G1). tauto. }
  intros l Hl. apply in_app_iff in Hl. destruct Hl as [Hl|[<-|[]]]; [apply (as_false _ _ _ _ AS); now apply AF|].
  unfold eval_lit. destruct m; cbn [neg lord lneg]; fold i; rewrite Dm, V, Ln; reflexivity.
Qed.
Lemma args_fin : forall l1 l2 a tr c a' t' c' vs1 vs2 j1 j2 k1 k2, Forall2 (fun x y => real_t T x /\ real_t T y /\ nocancel x y) l1 l2 -> wsi a -> JO (l_st a) (l_watch a) tr ->
  eval_args T bv rv tr l1 j1 = Ok (vs1, k1) -> eval_args T bv rv tr l2 j2 = Ok (vs2, k2) -> vals_eqb vs1 vs2 = true -> all_false tr c ->
  args_loop hi hv opt T bv rv l1 l2 a tr c = Ok (a', t', c') -> asserted a tr a' t' /\ all_false t' c'.
Proof.
  induction l1 as [|x l1 IH]; intros l2 a tr c a' t' c' vs1 vs2 j1 j2 k1 k2 F Ha HJ V1 V2 VE AF E; inversion F as [|? y ? l2' (Rx & Ry & NC) F']; subst; cbn [args_loop] in E.
  - inversion E; subst. split; auto. now apply asserted_refl.
  - bi E [[a1 t1] c1] Eq. cbn [eval_args] in V1, V2. bi V1 [x1 m1] X1. bi V1 [w1 n1] X2. bi V2 [x2 m2] Y1. bi V2 [w2 n2] Y2. cbn [fst snd] in *.
    inversion V1; inversion V2; subst. cbn [vals_eqb] in VE. apply andb_true_iff in VE. destruct VE as [VE1 VE2].
    destruct (aeq_fin x y a tr c false a1 t1 c1 x1 m1 x2 m2 Rx Ry Ha HJ X1 Y1 VE1 NC AF Eq) as [A1 A2].
    pose proof (aeq_fine hi hv opt T bv rv _ _ _ _ _ _ _ _ _ (tt_tl _ (jo_t _ _ _ HJ)) Eq) as [TL' K'].
    destruct (as_fin _ _ _ _ A1) as (Ha1 & HJ1 & _).
    destruct (IH l2' a1 t1 c1 a' t' c' w1 w2 _ _ k1 k2 F' Ha1 HJ1 (proj1 (args_pres T bv rv _ _ k1 (K' k1) _ _ _ _ X2 (le_n _)))
      (proj1 (args_pres T bv rv _ _ k2 (K' k2) _ _ _ _ Y2 (le_n _))) VE2 A2 E) as [B1 B2].
    split; auto. eapply asserted_trans; eauto.
Qed.
End E.
