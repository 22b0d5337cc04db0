(** The plugin for uninterpreted functions fails no assertion and keeps the invariants of linear arithmetic. *)
From Coq Require Import List Arith ZArith QArith Qcanon Bool Lia Lqa Permutation.
From Verif Require Import Base Core_Model Analysis_Model Bool_Model Sat_Base Sat_Inv Sat_Trail Sort_Proofs
  Trail_Model Spec_Trail Trail_Proofs Solver_Model Spec_Theory Theory_Inv Theory_Bool Comb_Bcp Comb_Safe1
  Lincons_Model Spec_Lincons Lincons_Proofs Lincons_Proofs2 Lra_Model Spec_Lra Lra_Fm Lra_Bounds Lra_Hist Lra_Steps Lra_Keep
  Lra_Range Lra_Good Lra_Good2 Lra_Confl Lra_Watch Lra_Watch2 Comb_Lra Lra_Safe1 Lra_Safe2 Lra_Cut Lra_Cut2 Lra_Cut3 Lra_Safe3 Lra_Safe4 Lra_Safe5 Lra_Safe6 Lra_Shape
  Terms_Model Spec_Terms Terms_Proofs TermMgr_Model Spec_TermMgr TermMgr_Base TermMgr_Arith TermMgr_Term Visitor_Model Spec_Visitor Visitor_Proofs
  Internalizer_Model Spec_Internalizer Internalizer_Proofs Uf_Model Spec_Uf Uf_Proofs Uf_Confl Ufcomb_Eq Ufcomb_Watch.
Import ListNotations.
Close Scope Qc_scope.
Close Scope Q_scope.
Open Scope nat_scope.

(** an equality is stored positively *)
Lemma make_pos hi hv s ts rhs s' c : inv s -> NoDup (map fst (nonzero ts)) -> nonzero ts <> [] ->
  lc_make hi hv s ts PEq rhs = (s', c) -> lneg (lc_lit c) = false.
Proof.
  intros HI Hd NE E. destruct (find_norm ts) as [k|] eqn:Ek.
  - destruct (normalise_ok ts k Hd Ek) as (Hn & Hk0 & Hne).
    rewrite (lc_make_some hi hv s ts PEq rhs k (i_len s HI) Ek Hne) in E. 
    set (c1 := mkLc _ _ _ _) in E. destruct (insert_cons hi hv s _ c1) as [s2 it] eqn:Ei. cbn in E. injection E as _ <-.
    apply insert_cons_ok in Ei; auto.
    + destruct Ei as (_ & _ & _ & I4 & _). unfold flips. cbn. exact I4.
    + cbn. apply Qred_complete, Qred_correct.
  - exfalso. pose proof (find_norm_none ts Ek) as Hz. destruct (nonzero ts) as [|t l] eqn:En; [congruence|].
    assert (Ht : In t (nonzero ts)) by (rewrite En; now left). apply in_nonzero in Ht. destruct Ht as [T1 T2]. apply T2. auto.
Qed.

(** ** on_assign *)
Lemma oa_all t : forall n w, let r := fold_left (oa t) (rev (seq 0 n)) w in
  Permutation w r /\ ((exists x, nth_error r 0 = Some x /\ t_lvl t x = None) \/ forall i x, i < n -> nth_error w i = Some x -> t_lvl t x <> None).
Proof.
  induction n as [|n IH]; intros w; cbn zeta; [cbn; split; auto; right; lia|]. rewrite seq_S, rev_app_distr. cbn [rev app plus fold_left].
  destruct (nth_error w n) as [x|] eqn:En.
  - destruct (t_lvl t x) eqn:Ex.
    + replace (oa t w n) with w by (unfold oa; now rewrite En, Ex). destruct (IH w) as [A [B|B]]; split; auto.
      right. intros i y Hi Hy. destruct (Nat.eq_dec i n) as [->|]; [congruence|]. apply (B i); auto. lia.
    + replace (oa t w n) with (swap_nth n 0 w) by (unfold oa; now rewrite En, Ex). destruct (IH (swap_nth n 0 w)) as [A _]. split; [eapply Permutation_trans; [apply swap_perm|exact A]|].
      left. destruct (oa_loop t n (swap_nth n 0 w)) as (_ & _ & C). destruct C as [C|C]; auto. rewrite C. exists x. split; auto. now apply swap_head.
  - replace (oa t w n) with w by (unfold oa; now rewrite En). destruct (IH w) as [A [B|B]]; split; auto. right. intros i y Hi Hy. destruct (Nat.eq_dec i n) as [->|]; [congruence|]. apply (B i); auto. lia.
Qed.
Lemma on_assign_all t w w' : on_assign t w = Ok w' -> Permutation w w' /\
  ((exists x, nth_error w' 0 = Some x /\ t_lvl t x = None) \/ forall x, In x w -> t_lvl t x <> None).
Proof.
  unfold on_assign. intros E. bi E w0 E0. ba E As. inversion E; subst. destruct (oa_all t (length w) w) as [A B]. split; [exact A|].
  destruct B as [B|B]; [left; exact B|right]. intros x Hx. apply In_nth_error in Hx. destruct Hx as (i & Hi). apply (B i); auto. apply nth_error_Some. congruence.
Qed.

Section S.
Variables (hi : nat -> Z) (hv : Q -> Z) (opt : lopt).
Variable H : hashes.
Variable T : table.
Variable bv : list (term * lit).
Variable rv : list (term * nat).
Hypothesis WF : wf H T.
Hypothesis M : maps_ok T rv.
Variable nq : nat.
Variable ws : list term.
Notation evaluate := (evaluate T bv rv).
Notation evaluate_f := (evaluate_f T bv rv).
Notation eval_args := (eval_args T bv rv).
Notation st0 := (st0 rv).
Notation uf_poly := (uf_poly T bv rv).

(** ** evaluation succeeds when the variables are assigned *)
Lemma evf_var n tr t v : varlike T t -> m_find rv t = Some v -> lv tr v <> None -> exists r, evaluate_f (S n) tr t = Ok r /\ exists q, fst r = PR q.
Proof.
  intros [R K] F L. cbn [Uf_Model.evaluate_f]. rewrite (var_real T bv rv t) by apply R. rewrite F. cbn [option_map].
  unfold lv in L. destruct (t_lvl tr (VRat v)); [|congruence]. cbn [value_of bind]. eexists. split; [reflexivity|]. cbn. eauto.
Qed.
Lemma evf_const n tr t q : real_t T t -> node_of T t = const_node q -> evaluate_f (S n) tr t = Ok (PR (this q), 0).
Proof.
  intros R N. cbn [Uf_Model.evaluate_f]. rewrite (var_real T bv rv t) by apply R.
  assert (K : kind_of T t = KArithConst) by (unfold kind_of; now rewrite N).
  rewrite (find_not T rv M t) by (rewrite K; intros [X|[X|X]]; discriminate X). cbn [option_map]. now rewrite K, (proj2 (const_kind _ _ _ N)).
Qed.
Lemma evf_prod n tr t c y q v : real_t T t -> node_of T t = mkNode KProduct TReal (DArgs [c; y]) -> real_t T c -> node_of T c = const_node q ->
  varlike T y -> m_find rv y = Some v -> lv tr v <> None -> exists r, evaluate_f (S (S n)) tr t = Ok r /\ exists q, fst r = PR q.
Proof.
  intros R N Rc Nc V F L. destruct (evf_var n tr y v V F L) as (r2 & E2 & q2 & Q2). pose proof (evf_const n tr c q Rc Nc) as E1.
  remember (S n) as n1. cbn [Uf_Model.evaluate_f]. rewrite (var_real T bv rv t) by apply R.
  assert (K : kind_of T t = KProduct) by (unfold kind_of; now rewrite N).
  rewrite (find_not T rv M t) by (rewrite K; intros [X|[X|X]]; discriminate X). cbn [option_map]. rewrite K.
  replace (Terms_Model.is_real T t) with true by (symmetry; unfold Terms_Model.is_real; apply ty_eqb_eq; apply R).
  cbn [assertb bind]. unfold get_args, dargs. rewrite K, N. cbn [n_desc at_ nth_error bind]. unfold at_. cbn [nth_error bind value_of]. rewrite E1. rewrite E2. cbn [bind fst snd get_rat]. rewrite Q2. cbn [get_rat bind].
  eexists. split; [reflexivity|]. cbn. eauto.
Qed.
Definition mset (tr : trail) (m : mono) : Prop := match fst m with None => True | Some y => exists v, m_find rv y = Some v /\ lv tr v <> None end.
Lemma evf_mono n tr m t : mono_repr T m t -> tix t < n -> mset tr m -> exists r, evaluate_f n tr t = Ok r /\ exists q, fst r = PR q.
Proof.
  destruct m as [[y|] c]; intros (R & NZ & Mn) L S; unfold mset in S; cbn [fst snd] in *; (destruct n as [|n]; [lia|]).
  - destruct S as (v & F & Lv). destruct Mn as [V [[-> ->]|(N1 & k & Rk & Nk & L1 & L2 & Nt)]].
    + now apply (evf_var _ _ _ v).
    + destruct n as [|n]; [lia|]. eapply evf_prod; eauto.
  - rewrite (evf_const n tr t c R Mn). eexists. split; [reflexivity|]. cbn. eauto.
Qed.
Lemma evf_monos n tr : forall tp ms s k, Forall2 (mono_repr T) tp ms -> (forall t, In t ms -> tix t < n) -> (forall m, In m tp -> mset tr m) ->
  exists r, sum_values (evaluate_f n tr) s k ms = Ok r.
Proof.
  induction tp as [|m tp IH]; intros ms s k F L S; inversion F as [|? t ? ms' Mt F']; subst; cbn [sum_values]; [eauto|].
  destruct (evf_mono n tr m t Mt (L t (or_introl eq_refl)) (S m (or_introl eq_refl))) as ([x l] & -> & q & Q0). cbn [bind fst snd] in *. subst x. cbn [get_rat bind].
  apply IH; auto; intros; [apply L|apply S]; now right.
Qed.
Lemma img_set : forall tp p q, img st0 tp p = Ok q -> incl (map fst (p_terms p)) (map fst (p_terms q)) /\
  forall y c, In (Some y, c) tp -> exists v, m_find rv y = Some v /\ In v (map fst (p_terms q)).
Proof.
  induction tp as [|[[y|] c] tp IH]; intros p q I; cbn [img] in I.
  - inversion I; subst. split; [apply incl_refl|]. intros y c [].
  - unfold rvar, Uf_Confl.st0 in I. cbn [Internalizer_Model.is_real] in I. destruct (m_find rv y) as [v|] eqn:F; [|discriminate]. cbn [value_of bind] in I.
    apply IH in I. destruct I as [I1 I2]. cbn [p_terms] in I1. rewrite map_app in I1. split; [intros z Hz; apply I1, in_app_iff; now left|].
    intros y' c' [E|Hy]; [|eauto]. injection E as <- <-. exists v. split; auto. apply I1, in_app_iff. right. now left.
  - apply IH in I. cbn [p_terms] in I. destruct I as [I1 I2]. split; auto. intros y c' [E|Hy]; [discriminate|eauto].
Qed.
Lemma eval_tot tr t p : real_t T t -> uf_poly t = Ok p -> (forall v, In v (map fst (p_terms p)) -> lv tr v <> None) ->
  exists x k, evaluate tr t = Ok (x, k).
Proof.
  intros R P L. apply (ufpoly_int H T bv rv WF M t p R) in P. destruct (poly_of_ex H T t WF R) as [tp PO]. rewrite (ipoly_img H T st0 t tp WF R PO) in P.
  destruct (img_set _ _ _ P) as [_ IS]. unfold Uf_Model.evaluate.
  assert (MS : forall m, In m tp -> mset tr m).
  { intros [[y|] c] Hm; unfold mset; cbn; auto. destruct (IS y c Hm) as (v & V1 & V2). exists v. split; auto. }
  assert (G : forall r : uval * nat, exists x k, Ok r = Ok (x, k)) by (intros [x k]; eauto).
  destruct PO as [->|q NZ N|K|k y q N Rk Nk NZ V|ms p0 N LL S F].
  - destruct (small_node _ _ zero_term WF (proj1 R) ltac:(simpl; lia)) as [[E1 _]|[_ E1]]; [discriminate|].
    rewrite (evf_const _ _ _ 0%Qc R E1). eauto.
  - rewrite (evf_const _ _ _ _ R N). eauto.
  - destruct (MS _ (or_introl eq_refl)) as (v & V1 & V2). destruct (evf_var (tix t) tr t v (conj R K) V1 V2) as (r & -> & _). apply G.
  - destruct (MS _ (or_introl eq_refl)) as (v & V1 & V2).
    assert (Z : exists n, tix t = S n).
    { destruct (tix t) as [|n] eqn:E; [|eauto]. exfalso. destruct (small_node _ _ t WF (proj1 R) ltac:(lia)) as [[_ E1]|[_ E1]]; rewrite E1 in N; discriminate. }
    destruct Z as (n & ->). destruct (evf_prod n tr t _ _ _ v R N Rk Nk V V1 V2) as (r & -> & _). apply G.
  - assert (K : kind_of T t = KPoly) by (unfold kind_of; now rewrite N). cbn [Uf_Model.evaluate_f]. rewrite (var_real T bv rv t) by apply R.
    rewrite (find_not T rv M t) by (rewrite K; intros [X|[X|X]]; discriminate X). cbn [option_map]. rewrite K.
    replace (Terms_Model.is_real T t) with true by (symmetry; unfold Terms_Model.is_real; apply ty_eqb_eq; apply R). cbn [assertb bind].
    destruct (evf_monos (tix t) tr p0 (get_args T t) 0%Q 0) as (r & E).
    + unfold get_args, dargs. rewrite K, N. exact F.
    + intros z Hz. exact (wf_acyclic _ _ WF t z Hz).
    + exact MS.
    + rewrite E. apply G.
Qed.
(** ** assert_equality *)
Lemma pos_lit a t ts rhs a' t' c : wsi a -> NoDup (map fst (nonzero ts)) -> nonzero ts <> [] ->
  lra_constraint hi hv opt a t ts PEq rhs = Ok (a', t', c) -> lneg (lc_lit c) = false.
Proof.
  intros Ha D NE E. unfold lra_constraint in E. destruct (lc_make hi hv (l_st a) ts PEq rhs) as [s c0] eqn:Em.
  apply make_pos in Em; auto; [|apply (si_inv _ (ws_st a Ha))]. destruct (_ <=? _); [bi E a3 E1|]; injection E as _ _ <-; exact Em.
Qed.
Lemma aeq_tot t u a tr c m x k1 y k2 p1 p2 : real_t T t -> real_t T u -> wsi a -> JO (l_st a) (l_watch a) tr ->
  evaluate tr t = Ok (x, k1) -> evaluate tr u = Ok (y, k2) -> uval_eqb x y = negb m ->
  uf_poly t = Ok p1 -> uf_poly u = Ok p2 -> (m = true -> p_terms (poly_sub p1 p2) <> []) ->
  assert_equality hi hv opt T bv rv t u a tr c m <> UB.
Proof.
  intros Rt Ru Ha HJ Et Eu XY E1 E2 NEm. unfold assert_equality.
  apply bind_ub; [apply assert_ub, ty_eqb_eq; rewrite (proj1 (proj2 Rt)), (proj1 (proj2 Ru)); reflexivity|]. intros [] _.
  rewrite (proj1 (proj2 Rt)), E1, E2. cbn [bind]. cbn zeta.
  destruct (eval_poly H T bv rv WF M tr t x k1 p1 Rt Et E1) as [(qx & -> & Qx) ML1]. destruct (eval_poly H T bv rv WF M tr u y k2 p2 Ru Eu E2) as [(qy & -> & Qy) ML2].
  assert (VS : (pvalue (mval (t_qm tr)) (poly_sub p1 p2) == qx - qy)%Q) by (rewrite poly_sub_value, Qx, Qy; reflexivity).
  assert (W1 : poly_wf p1) by exact (proj1 (ufpoly_ok H T bv rv WF M t p1 Rt E1)). assert (W2 : poly_wf p2) by exact (proj1 (ufpoly_ok H T bv rv WF M u p2 Ru E2)).
  pose proof (poly_sub_wf p1 p2 W1 (proj2 W2)) as WS0.
  destruct (p_terms (poly_sub p1 p2)) as [|pt0 pts] eqn:PT.
  { destruct m; [exfalso; now apply NEm|]. apply bind_ub; [|discriminate]. apply assert_ub, Qeq_bool_iff.
    unfold pvalue in VS. rewrite PT in VS. cbn [Spec_Lincons.lin] in VS. cbn in XY. apply Qeq_bool_iff in XY. lra. }
  assert (NE : p_terms (poly_sub p1 p2) <> []) by congruence. rewrite <- PT in *. clear PT pt0 pts NEm.
  set (p := poly_sub p1 p2) in *. cbn [poly_sort p_terms p_const].
  pose proof (jo_t _ _ _ HJ) as HT.
  assert (DF : forall v, In v (map fst (p_terms p)) -> lv tr v <> None).
  { intros v Hv. destruct (max_level_spec _ _ _ _ ML1) as (_ & B1 & _). destruct (max_level_spec _ _ _ _ ML2) as (_ & B2 & _).
    apply (sub_vars hi hv) in Hv. destruct Hv as [Hv|Hv]; [destruct (B1 v Hv) as (? & X & _)|destruct (B2 v Hv) as (? & X & _)]; congruence. }
  pose proof (sort_perm (level_gt tr) (p_terms p)) as P.
  apply bind_ub.
  { apply assert_ub, forallb_forall. intros z Hz. apply (Permutation_in z (Permutation_sym P)) in Hz. specialize (DF _ (in_map fst _ _ Hz)). unfold lv in DF.
    destruct (t_lvl tr (VRat (fst z))) as [j|] eqn:Ej; [|congruence]. apply tt_range in Ej; [exact Ej|exact HT]. }
  intros [] _. pose proof (distinct_perm hi hv _ _ PEq (- p_const p)%Q P (proj1 WS0)) as D'.
  assert (NZ : nonzero (sort_by (level_gt tr) (p_terms p)) = sort_by (level_gt tr) (p_terms p))
    by (apply Lra_Confl.nonzero_id; eapply Permutation_Forall; [exact P|apply WS0]).
  assert (NE' : sort_by (level_gt tr) (p_terms p) <> []) by (intros X; rewrite X in P; apply Permutation_sym, Permutation_nil in P; contradiction).
  apply bind_ub.
  { apply (constraint_tot hi hv opt a tr (mkReq (sort_by (level_gt tr) (p_terms p)) PEq (- p_const p)%Q) Ha D'). cbn [rq_terms]. now rewrite NZ. }
  intros [[a1 t1] lc] Ec. assert (PL : lneg (lc_lit lc) = false) by (apply pos_lit in Ec; auto; rewrite NZ; auto; exact (Permutation_NoDup (Permutation_map fst P) (proj1 WS0))).
  apply bind_ub; [apply assert_ub; now rewrite PL|]. intros [] _.
  pose proof (constraint_shape hi hv opt a tr (mkReq _ _ _) _ _ _ Ha D' (jo_n _ _ _ HJ) (jo_c _ _ _ HJ) Ec) as CS. cbn zeta in CS.
  assert (T1 : TT t1).
  { destruct CS as (_ & _ & _ & [(_ & _ & ->)|(Ei & -> & _)]); [exact HT|]. apply tt_add; [exact HT|lia]. }
  destruct (constraint_fine hi hv opt a tr _ _ _ _ _ _ (tt_tl _ HT) Ec) as [[TL1 K1] _].
  destruct (mdef _ _); [discriminate|].
  rewrite (eval_pres T bv rv _ _ _ _ _ _ (K1 k1) Et (le_n _)), (eval_pres T bv rv _ _ _ _ _ _ (K1 k2) Eu (le_n _)). cbn [bind fst snd].
  apply bind_ub; [apply assert_ub; rewrite XY; now destruct m|]. intros [] _. apply bind_ub; [|discriminate].
  pose proof (eval_level T bv rv t1 _ _ _ T1 (eval_pres T bv rv _ _ _ _ _ _ (K1 k1) Et (le_n _))) as L1.
  pose proof (eval_level T bv rv t1 _ _ _ T1 (eval_pres T bv rv _ _ _ _ _ _ (K1 k2) Eu (le_n _))) as L2.
  unfold trail_propagate. match goal with |- (if ?x <=? ?y then _ else _) <> _ => destruct (Nat.leb_spec x y) as [X|X] end; [discriminate|].
  unfold dl in *. cbn in X. lia.
Qed.
Notation ent := (fun _ : lit => False).
Notation d0 := (mkDb [] []).
(** what the plugin keeps of linear arithmetic *)
Definition kept (a : lra) (t : trail) (a' : lra) (t' : trail) : Prop := FS a t a' t' /\ fx t t' /\ (DD t -> DD t').
Lemma kept_refl a t : FA a t -> kept a t a t.
Proof. intros F. split; [split; auto|]. split; [apply fx_refl|auto]. Qed.
Lemma kept_trans a t a1 t1 a2 t2 : TT t -> kept a t a1 t1 -> kept a1 t1 a2 t2 -> kept a t a2 t2.
Proof. intros HT (A & B & C) (D & E & F). split; [eapply FS_trans; eauto|]. split; [|auto]. apply (fx_trans t t1 t2); auto. exact (jo_t _ _ _ (proj1 (proj2 (proj1 A)))). Qed.
Lemma kept_keep a t a' t' : TT t -> kept a t a' t' -> keep_all t t'.
Proof. intros HT (_ & F & _). now apply fx_keep. Qed.
Lemma aeq_safe t u a tr c m x k1 y k2 p1 p2 : real_t T t -> real_t T u -> FA a tr ->
  evaluate tr t = Ok (x, k1) -> evaluate tr u = Ok (y, k2) -> uval_eqb x y = negb m -> nocancel T bv rv t u ->
  uf_poly t = Ok p1 -> uf_poly u = Ok p2 -> (m = true -> p_terms (poly_sub p1 p2) <> []) ->
  assert_equality hi hv opt T bv rv t u a tr c m <> UB /\
  forall a' t' c', assert_equality hi hv opt T bv rv t u a tr c m = Ok (a', t', c') -> kept a tr a' t'.
Proof.
  intros Rt Ru (Ha & HJ & HF) Et Eu XY NC0 E1 E2 NEm. split; [eapply aeq_tot; eauto|].
  intros a' t' c' E. destruct (aeq_finish hi hv opt H T bv rv WF M t u a tr c m a' t' c' x k1 y k2 Rt Ru Ha HJ Et Eu XY NC0 E) as [(-> & -> & -> & _)|(q1 & q2 & lc & _ & _ & NE & W0 & Ef & Ln & ->)].
  { apply kept_refl. split; auto. }
  assert (W1 : fm_wf (mkFm (p_terms (poly_sub q1 q2)) (p_const (poly_sub q1 q2)) PEq)) by exact W0.
  split; [eapply fm_finish_FS; [|exact W1|exact Ef]; split; auto|]. split; [|intros D; eapply DD_fm; eauto].
  apply (fm_finish_ok hi hv opt d0 ent a tr _ a' t' lc Ha HJ W1 Ef).
Qed.
Definition polyb (t : term) : Prop := exists p, uf_poly t = Ok p.
Lemma args_safe : forall l1 l2 a tr c vs1 vs2 j1 j2 k1 k2, Forall2 (argpair T bv rv) l1 l2 -> Forall polyb l1 -> Forall polyb l2 -> FA a tr ->
  eval_args tr l1 j1 = Ok (vs1, k1) -> eval_args tr l2 j2 = Ok (vs2, k2) -> vals_eqb vs1 vs2 = true ->
  args_loop hi hv opt T bv rv l1 l2 a tr c <> UB /\
  forall a' t' c', args_loop hi hv opt T bv rv l1 l2 a tr c = Ok (a', t', c') -> kept a tr a' t'.
Proof.
  induction l1 as [|x l1 IH]; intros l2 a tr c vs1 vs2 j1 j2 k1 k2 F B1 B2 HA V1 V2 VE; inversion F as [|? y ? l2' (Rx & Ry & NC) F']; subst; cbn [args_loop].
  - split; [discriminate|]. intros a' t' c' E. inversion E; subst. now apply kept_refl.
  - cbn [Uf_Model.eval_args] in V1, V2. bi V1 [x1 m1] X1. bi V1 [w1 n1] X2. bi V2 [x2 m2] Y1. bi V2 [w2 n2] Y2. cbn [fst snd] in *.
    inversion V1; inversion V2; subst. cbn [vals_eqb] in VE. apply andb_true_iff in VE. destruct VE as [VE1 VE2].
    inversion B1 as [|? ? [p1 P1] B1']; subst. inversion B2 as [|? ? [p2 P2] B2']; subst.
    destruct (aeq_safe x y a tr c false x1 m1 x2 m2 p1 p2 Rx Ry HA X1 Y1 VE1 NC P1 P2 ltac:(discriminate)) as [S1 S2].
    pose proof (jo_t _ _ _ (proj1 (proj2 HA))) as HT.
    assert (ST : forall a1 t1 c1, assert_equality hi hv opt T bv rv x y a tr c false = Ok (a1, t1, c1) -> kept a tr a1 t1 /\
      (args_loop hi hv opt T bv rv l1 l2' a1 t1 c1 <> UB /\ forall a' t' c', args_loop hi hv opt T bv rv l1 l2' a1 t1 c1 = Ok (a', t', c') -> kept a1 t1 a' t')).
    { intros a1 t1 c1 Eq. pose proof (S2 _ _ _ Eq) as K. split; auto. pose proof (kept_keep _ _ _ _ HT K) as KA.
      eapply (IH l2' a1 t1 c1 w1 w2 _ _ k1 k2 F' B1' B2'); auto; [apply K|exact (proj1 (args_pres T bv rv _ _ k1 (KA k1) _ _ _ _ X2 (le_n _)))|
        exact (proj1 (args_pres T bv rv _ _ k2 (KA k2) _ _ _ _ Y2 (le_n _)))]. }
    split.
    + apply bind_ub; [exact S1|]. intros [[a1 t1] c1] Eq. apply (ST _ _ _ Eq).
    + intros a' t' c' E. bi E [[a1 t1] c1] Eq. destruct (ST _ _ _ Eq) as (K & _ & K2). eapply kept_trans; eauto.
Qed.
(** the registered applications *)
Definition reg_ok : Prop := forall tm, In tm ws -> (exists f, fnc_symbol T tm = Ok f) /\ Forall (fun a => real_t T a /\ polyb a) (get_args T tm).
Definition wcov (x : term * list var) : Prop :=
  (forall v, m_find rv (fst x) = Some v -> In (VRat v) (snd x)) /\
  forall a p v, In a (get_args T (fst x)) -> uf_poly a = Ok p -> In v (map fst (p_terms p)) -> In (VRat v) (snd x).
Hypothesis RG : reg_ok.
Hypothesis NC : nc_ok T bv rv ws.
Lemma args_tot tr : forall l k, Forall (fun a => real_t T a /\ polyb a) l -> (forall a p v, In a l -> uf_poly a = Ok p -> In v (map fst (p_terms p)) -> lv tr v <> None) ->
  exists vs j, eval_args tr l k = Ok (vs, j).
Proof.
  induction l as [|a l IH]; intros k F C; cbn [Uf_Model.eval_args]; [eauto|]. inversion F as [|? ? [R [p P]] F']; subst.
  destruct (eval_tot tr a p R P (fun v Hv => C a p v (or_introl eq_refl) P Hv)) as (x & j & ->). cbn [bind fst snd].
  destruct (IH (Nat.max k j) F' (fun b q v Hb => C b q v (or_intror Hb))) as (vs & i & ->). cbn. eauto.
Qed.
Lemma app_polyb t v : real_t T t -> m_find rv t = Some v -> uf_poly t = Ok (mkPoly [(v, 1%Q)] 0%Q).
Proof.
  intros R F. unfold Uf_Model.uf_poly. replace (Terms_Model.is_real T t) with true by (symmetry; unfold Terms_Model.is_real; apply ty_eqb_eq; apply R).
  cbn [assertb bind]. unfold uf_rvar. rewrite (var_real T bv rv t) by apply R. now rewrite F.
Qed.
Notation wl_ok := (wl_ok T rv nq).
Lemma afv_safe F a t tm w : FA a t -> tab_ok T bv rv false ws t F -> (forall e, In e ws -> real_t T e /\ exists v, m_find rv e = Some v) ->
  In tm ws -> wl_ok (tm, w) -> wcov (tm, w) -> (forall x, In x w -> t_lvl t x <> None) ->
  add_function_value hi hv opt T bv rv F a t tm <> UB /\
  forall F' a' t' cs, add_function_value hi hv opt T bv rv F a t tm = Ok (F', a', t', cs) -> kept a t a' t'.
Proof.
  intros HA TA WV Iw (_ & _ & Rt & Kt & v & Fv) [C1 C2] AL. cbn [fst snd] in *. pose proof (jo_t _ _ _ (proj1 (proj2 HA))) as HT.
  destruct (RG tm Iw) as [[f Ef] RA].
  destruct (args_tot t (get_args T tm) 0 RA) as (vals & k & Ev).
  { intros b p z Hb Pb Hz. apply (AL (VRat z)). eapply C2; eauto. }
  pose proof (app_polyb tm v Rt Fv) as Pt.
  destruct (eval_tot t tm _ Rt Pt) as (x & kx & Ex).
  { intros z [<-|[]]. apply (AL (VRat v)). now apply C1. }
  unfold add_function_value. rewrite Kt. change (k_eqb KApp KApp) with true. cbn [assertb bind]. rewrite Ev. cbn [bind]. rewrite Ex. cbn [bind]. rewrite Ef. cbn [bind fst snd]. cbn zeta.
  destruct (fm_find _ _) as [e|] eqn:FM.
  2:{ split; [discriminate|]. intros F' a' t' cs E. inversion E; subst. now apply kept_refl. }
  destruct (uval_eqb (fa_val e) x) eqn:UE.
  { split; [discriminate|]. intros F' a' t' cs E. inversion E; subst. now apply kept_refl. }
  assert (G : exists k', vals_eqb k' vals = true /\ kind_of T (fa_app e) = KApp /\ fnc_symbol T (fa_app e) = Ok f /\ In (fa_app e) ws /\ current T bv rv t (k', e)).
  { clear -FM TA.
    assert (G : forall m0 : fmap, fm_find m0 vals = Some e -> exists k0, In (k0, e) m0 /\ vals_eqb k0 vals = true).
    { induction m0 as [|[k0 e0] m0 IH]; cbn; [discriminate|]. destruct (vals_eqb k0 vals) eqn:V; [intros [= ->]; eauto|]. intros X. destruct (IH X) as (k3 & X1 & X2). eauto. }
    destruct (G _ FM) as (k0 & G1 & G2). apply get_in in G1. destruct G1 as (m' & G3 & G4). destruct (TA f m' (k0, e) G3 G4) as (D1 & D2 & D3 & D4). cbn [snd] in *. exists k0. auto 10. }
  destruct G as (k' & VE & K2 & S2 & I2 & k1 & k2 & D1 & D2 & D3). cbn [fst snd] in *.
  assert (TE : fa_app e <> tm).
  { intros X. rewrite X, Ex in D2. injection D2 as Z1 Z2. rewrite <- Z1, uval_eqb_refl in UE. discriminate. }
  destruct (NC (fa_app e) tm f I2 Iw TE S2 Ef) as (Re & _ & FP).
  assert (PB : forall tm0, In tm0 ws -> Forall polyb (get_args T tm0)) by (intros tm0 I0; eapply Forall_impl; [|apply (RG tm0 I0)]; intros z Hz; apply Hz).
  destruct (args_safe _ _ a t [] _ _ _ _ _ _ FP (PB _ I2) (PB _ Iw) HA D1 Ev VE) as [A1 A2].
  destruct (WV _ I2) as (_ & v2 & Fv2). pose proof (app_polyb _ v2 Re Fv2) as P2.
  assert (XE : uval_eqb x (fa_val e) = negb true).
  { change (negb true) with false. rewrite <- UE. clear. destruct x, (fa_val e); cbn; auto; [now destruct b, b0|]. apply eq_true_iff_eq. rewrite !Qeq_bool_iff. split; intros; lra. }
  assert (ST : forall a1 t1 c1, args_loop hi hv opt T bv rv (get_args T (fa_app e)) (get_args T tm) a t [] = Ok (a1, t1, c1) -> kept a t a1 t1 /\
    assert_equality hi hv opt T bv rv tm (fa_app e) a1 t1 c1 true <> UB /\
    forall a' t' c', assert_equality hi hv opt T bv rv tm (fa_app e) a1 t1 c1 true = Ok (a', t', c') -> kept a1 t1 a' t').
  { intros a1 t1 c1 E1. pose proof (A2 _ _ _ E1) as K. split; auto. pose proof (kept_keep _ _ _ _ HT K) as KA.
    refine (aeq_safe tm (fa_app e) a1 t1 c1 true x kx (fa_val e) k2 _ _ Rt Re (proj1 (proj1 K))
      (eval_pres T bv rv _ _ _ _ _ _ (KA kx) Ex (le_n _)) (eval_pres T bv rv _ _ _ _ _ _ (KA k2) D2 (le_n _)) XE (apps_nocancel T bv rv _ _ Kt K2 Rt Re) Pt P2 _).
    intros _. cbn [poly_sub poly_add p_terms fold_left map fst snd poly_insert]. destruct (Nat.eqb_spec v v2) as [->|N]; [|discriminate].
    exfalso. apply TE. symmetry. eapply nodup_inj; [apply M|apply m_find_in; exact Fv|apply m_find_in; exact Fv2]. }
  split.
  - apply bind_ub; [exact A1|]. intros [[a1 t1] c1] E1. destruct (ST _ _ _ E1) as (_ & X & _). apply bind_ub; [exact X|]. intros [[a2 t2] c2] _. discriminate.
  - intros F' a' t' cs E. bi E [[a1 t1] c1] E1. destruct (ST _ _ _ E1) as (K & _ & X). bi E [[a2 t2] c2] E2. inversion E; subst. eapply kept_trans; eauto.
Qed.
(** ** propagate *)
Lemma pass_safe : forall v wl F a t, FA a t -> tab_ok T bv rv false ws t F -> (forall e, In e ws -> real_t T e /\ exists v, m_find rv e = Some v) ->
  (forall x, In x wl -> In (fst x) ws) -> Forall wl_ok wl -> Forall wcov wl -> t_lvl t v <> None ->
  watch_pass hi hv opt T bv rv v wl F a t <> UB /\
  forall wl' F' a' t' cs, watch_pass hi hv opt T bv rv v wl F a t = Ok (wl', F', a', t', cs) -> kept a t a' t' /\ Forall wl_ok wl' /\ Forall wcov wl'.
Proof.
  intros v. induction wl as [|[tm w] wl IH]; intros F a t HA TA WV J FW FC LV; cbn [watch_pass].
  - split; [discriminate|]. intros wl' F' a' t' cs E. inversion E; subst. split; [now apply kept_refl|auto].
  - inversion FW as [|? ? Wx FW']; subst. inversion FC as [|? ? Cx FC']; subst. pose proof (jo_t _ _ _ (proj1 (proj2 HA))) as HT.
    assert (It : In tm ws) by (apply (J (tm, w)); left; auto). assert (J' : forall x, In x wl -> In (fst x) ws) by (intros x Ix; apply J; now right).
    destruct w as [|w0 w2]; [exfalso; now apply (proj1 Wx)|]. unfold at_ at 1 2. cbn [nth_error value_of bind]. destruct (var_eqb_spec v w0) as [->|NV].
    + set (w := w0 :: w2) in *.
      assert (OA : exists w1, on_assign t w = Ok w1).
      { unfold on_assign, w, at_. cbn [nth_error value_of bind]. destruct (t_lvl t w0); [|congruence]. cbn [assertb bind]. eexists. reflexivity. }
      destruct OA as [w1 Ew1]. rewrite Ew1. cbn [bind]. destruct (on_assign_all _ _ _ Ew1) as [P O3]. destruct (on_assign_ok _ _ _ Ew1) as (O1 & O2 & _).
      assert (Wx1 : wl_ok (tm, w1)).
      { destruct Wx as (N0 & N1 & N2). cbn [fst snd] in *. split; [cbn [snd]; intros Z; rewrite Z in O1; discriminate O1|]. split; [intros y Hy; apply N1; auto|exact N2]. }
      assert (Cx1 : wcov (tm, w1)).
      { destruct Cx as [X1 X2]. split; cbn [fst snd] in *; intros; apply (Permutation_in _ P); eauto. }
      assert (AA : exists al, all_assigned t w1 = Ok al /\ (al = true -> forall x, In x w -> t_lvl t x <> None)).
      { destruct w1 as [|x1 l1]; [discriminate O1|]. unfold all_assigned, at_. cbn [nth_error value_of bind]. eexists. split; [reflexivity|]. destruct (t_lvl t x1) eqn:E1; [|discriminate].
        intros _. destruct O3 as [(x & X1 & X2)|O3]; auto. cbn in X1. congruence. }
      destruct AA as (al & -> & AL). cbn [bind].
      assert (X : (if al : bool then add_function_value hi hv opt T bv rv F a t tm else Ok (F, a, t, [])) <> UB /\
        forall F1 a1 t1 c1, (if al : bool then add_function_value hi hv opt T bv rv F a t tm else Ok (F, a, t, [])) = Ok (F1, a1, t1, c1) -> kept a t a1 t1 /\ tab_ok T bv rv false ws t1 F1).
      { destruct al.
        - destruct (afv_safe F a t tm w HA TA WV It Wx Cx (AL eq_refl)) as [X1 X2]. split; [exact X1|]. intros F1 a1 t1 c1 E. split; [eapply X2; eauto|].
          exact (proj1 (afv_ok hi hv opt T bv rv false ws _ _ _ _ _ _ _ _ (tt_tl _ HT) TA It E)).
        - split; [discriminate|]. intros F1 a1 t1 c1 E. inversion E; subst. split; auto. now apply kept_refl. }
      destruct X as [X1 X2].
      assert (ST : forall F1 a1 t1 c1, (if al : bool then add_function_value hi hv opt T bv rv F a t tm else Ok (F, a, t, [])) = Ok (F1, a1, t1, c1) -> kept a t a1 t1 /\
        watch_pass hi hv opt T bv rv w0 wl F1 a1 t1 <> UB /\
        forall wl' F' a' t' cs, watch_pass hi hv opt T bv rv w0 wl F1 a1 t1 = Ok (wl', F', a', t', cs) -> kept a1 t1 a' t' /\ Forall wl_ok wl' /\ Forall wcov wl').
      { intros F1 a1 t1 c1 E. destruct (X2 _ _ _ _ E) as [K TA1]. split; auto. apply IH; auto; [apply K|].
        destruct (t_lvl t w0) as [j|] eqn:Ej; [|congruence]. pose proof (proj1 (kept_keep _ _ _ _ HT K j _ _ Ej (le_n _))) as Z. congruence. }
      split.
      * apply bind_ub; [exact X1|]. intros [[[F1 a1] t1] c1] E1. destruct (ST _ _ _ _ E1) as (_ & Y & _). apply bind_ub; [exact Y|]. intros [[[[ws2 F2] a4] t2] c2] _. discriminate.
      * intros wl' F' a' t' cs E. bi E [[[F1 a1] t1] c1] E1. destruct (ST _ _ _ _ E1) as (K & _ & Y). bi E [[[[ws2 F2] a4] t2] c2] E2. inversion E; subst.
        destruct (Y _ _ _ _ _ E2) as (Y1 & Y2 & Y3). split; [eapply kept_trans; eauto|]. split; constructor; auto.
    + destruct (IH F a t HA TA WV J' FW' FC' LV) as [Y1 Y2]. split.
      * apply bind_ub; [exact Y1|]. intros [[[[ws2 F2] a4] t2] c2] _. discriminate.
      * intros wl' F' a' t' cs E. bi E [[[[ws2 F2] a4] t2] c2] E2. inversion E; subst.
        destruct (Y2 _ _ _ _ _ E2) as (Z1 & Z2 & Z3). split; [exact Z1|]. split; constructor; auto.
Qed.
Lemma loop_safe : forall vs u a t, FA a t -> UI T bv rv nq ws u t -> Forall wcov (u_watch u) -> (forall e, In e vs -> t_lvl t (fst e) <> None) ->
  assigned_loop hi hv opt T bv rv vs u a t <> UB /\
  forall u' a' t' cs, assigned_loop hi hv opt T bv rv vs u a t = Ok (u', a', t', cs) -> kept a t a' t' /\ Forall wcov (u_watch u').
Proof.
  induction vs as [|e vs IH]; intros u a t HA (U1 & U2 & U3) FC LV; cbn [assigned_loop].
  - split; [discriminate|]. intros u' a' t' cs E. inversion E; subst. split; auto. now apply kept_refl.
  - pose proof (jo_t _ _ _ (proj1 (proj2 HA))) as HT.
    assert (J : forall x, In x (u_watch u) -> In (fst x) ws) by (intros x Ix; rewrite <- U2; now apply in_map).
    assert (WV : forall e, In e ws -> real_t T e /\ exists v, m_find rv e = Some v).
    { intros z Hz. rewrite <- U2 in Hz. apply in_map_iff in Hz. destruct Hz as (x & <- & Hx). destruct (proj1 (Forall_forall _ _) U1 x Hx) as (_ & _ & A & _ & B). auto. }
    destruct (pass_safe (fst e) (u_watch u) (u_fns u) a t HA U3 WV J U1 FC (LV e (or_introl eq_refl))) as [P1 P2].
    assert (ST : forall wl F a1 t1 c1, watch_pass hi hv opt T bv rv (fst e) (u_watch u) (u_fns u) a t = Ok (wl, F, a1, t1, c1) -> kept a t a1 t1 /\
      assigned_loop hi hv opt T bv rv vs (mkUf wl F) a1 t1 <> UB /\
      forall u' a' t' cs, assigned_loop hi hv opt T bv rv vs (mkUf wl F) a1 t1 = Ok (u', a', t', cs) -> kept a1 t1 a' t' /\ Forall wcov (u_watch u')).
    { intros wl F a1 t1 c1 E. destruct (P2 _ _ _ _ _ E) as (K & W1 & C1). split; auto.
      destruct (pass_ok hi hv opt T bv rv false ws _ _ _ _ _ _ _ _ _ _ (tt_tl _ HT) U3 J E) as (Q1 & Q2 & Q3).
      apply IH; auto; [apply K|split; [exact W1|split; [cbn [u_watch]; rewrite Q3; exact U2|exact Q1]]|].
      intros z Hz. specialize (LV z (or_intror Hz)). destruct (t_lvl t (fst z)) as [j|] eqn:Ej; [|congruence]. pose proof (proj1 (kept_keep _ _ _ _ HT K j _ _ Ej (le_n _))) as Z. congruence. }
    split.
    + apply bind_ub; [exact P1|]. intros [[[[wl F] a1] t1] c1] E1. destruct (ST _ _ _ _ _ E1) as (_ & Y & _). apply bind_ub; [exact Y|]. intros [[[u2 a2] t2] c2] _. discriminate.
    + intros u' a' t' cs E. bi E [[[[wl F] a1] t1] c1] E1. destruct (ST _ _ _ _ _ E1) as (K & _ & Y). bi E [[[u2 a2] t2] c2] E2. inversion E; subst.
      destruct (Y _ _ _ _ E2) as (Y1 & Y2). split; auto. eapply kept_trans; eauto.
Qed.
Lemma uf_safe u a t : FA a t -> UI T bv rv nq ws u t -> Forall wcov (u_watch u) ->
  uf_propagate hi hv opt T bv rv u a t <> UB /\
  forall u' a' t' cs, uf_propagate hi hv opt T bv rv u a t = Ok (u', a', t', cs) -> kept a t a' t' /\ Forall wcov (u_watch u').
Proof.
  intros HA HI FC. unfold uf_propagate. apply loop_safe; auto. intros [v ro] He. apply in_rev in He. pose proof (jo_t _ _ _ (proj1 (proj2 HA))) as HT.
  destruct HT as (a0 & N & A). rewrite recent_lists in He by auto. apply (sh_list _ _ A) in He; auto. destruct He as (g & E & _).
  cbn [fst]. rewrite (sh_lvl _ _ A), E. discriminate.
Qed.
End S.
