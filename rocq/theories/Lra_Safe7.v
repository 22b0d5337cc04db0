(** Deducing bounds from constraints with more unassigned variables fails no assertion and keeps the invariants. *)
From Coq Require Import List Arith ZArith QArith Bool Lia Permutation Lqa.
From Verif Require Import Base Core_Model Literal_Proofs Analysis_Model Bool_Model Sat_Base Sat_Inv Sat_Trail Sort_Proofs
  Trail_Model Spec_Trail Trail_Proofs Solver_Model Spec_Theory Theory_Inv Theory_Strict Theory_Bool Comb_Bcp Comb_Safe1
  Lincons_Model Spec_Lincons Lincons_Proofs Lincons_Proofs2 Lra_Model Spec_Lra Lra_Fm Lra_Bounds Lra_Hist Lra_Steps Lra_Keep
  Lra_Range Lra_Good Lra_Good2 Lra_Elim Lra_Confl Lra_Watch Lra_Watch2 Lra_Safe1 Lra_Safe2 Lra_Cut Lra_Cut2 Lra_Cut3
  Lra_Safe3 Lra_Safe4 Lra_Safe5 Lra_Safe6 Lra_Shape.
Import ListNotations.
Close Scope Q_scope.
Open Scope nat_scope.

(** only bounds that follow from [c] are added, and their variables are noted *)
Record gd (s : store) (t : trail) (c : lcons) (B B' : bnds) : Prop := {
  gd_keep : keeps s t B B';
  gd_in : forall up x b, In b (lst B' up x) -> In b (lst B up x) \/ b_cons b = c;
  gd_neq : forall x, vb_neq (bd_of B' x) = vb_neq (bd_of B x);
  gd_upd : forall x, In x (bd_upd B) -> In x (bd_upd B');
  gd_m : forall x, In x (bd_upd B') \/ forall up b, In b (lst B' up x) -> In b (lst B up x) }.
Lemma gd_refl s t c B : gd s t c B B.
Proof. constructor; auto. red; auto. Qed.
Lemma gd_trans s t c B1 B2 B3 : gd s t c B1 B2 -> gd s t c B2 B3 -> gd s t c B1 B3.
Proof.
  intros [A1 A2 A3 A4 A5] [C1 C2 C3 C4 C5]. constructor.
  - eapply keeps_trans; eauto.
  - intros up x b H. destruct (C2 up x b H); auto.
  - intros x. now rewrite C3.
  - auto.
  - intros x. destruct (C5 x) as [H|H]; [auto|]. destruct (A5 x) as [H'|H']; auto.
Qed.
Lemma gd_low s t c B x w o : lower_bound s t (bd_of B x) = (w, o) -> gd s t c B (bd_set B x w).
Proof.
  intros E. assert (V : vext s t (bd_of B x) w none2 none1) by (replace w with (fst (lower_bound s t (bd_of B x))) by (now rewrite E); apply vext_lower).
  assert (N : vb_neq w = vb_neq (bd_of B x)) by (unfold lower_bound in E; inversion E; reflexivity).
  constructor.
  - intros up y b. unfold lst. rewrite bd_set_same. destruct (Nat.eqb_spec y x) as [->|]; [|auto]. apply V.
  - intros up y b. unfold lst. rewrite bd_set_same. destruct (Nat.eqb_spec y x) as [->|]; [|auto]. intros H. apply V in H. destruct H as [|[]]; auto.
  - intros y. rewrite bd_set_same. destruct (Nat.eqb_spec y x) as [->|]; auto.
  - auto.
  - intros y. right. intros up b. unfold lst. rewrite bd_set_same. destruct (Nat.eqb_spec y x) as [->|]; [|auto]. intros H. apply V in H. destruct H as [|[]]; auto.
Qed.
Lemma gd_up s t c B x w o : upper_bound s t (bd_of B x) = (w, o) -> gd s t c B (bd_set B x w).
Proof.
  intros E. assert (V : vext s t (bd_of B x) w none2 none1) by (replace w with (fst (upper_bound s t (bd_of B x))) by (now rewrite E); apply vext_upper).
  assert (N : vb_neq w = vb_neq (bd_of B x)) by (unfold upper_bound in E; inversion E; reflexivity).
  constructor.
  - intros up y b. unfold lst. rewrite bd_set_same. destruct (Nat.eqb_spec y x) as [->|]; [|auto]. apply V.
  - intros up y b. unfold lst. rewrite bd_set_same. destruct (Nat.eqb_spec y x) as [->|]; [|auto]. intros H. apply V in H. destruct H as [|[]]; auto.
  - intros y. rewrite bd_set_same. destruct (Nat.eqb_spec y x) as [->|]; auto.
  - auto.
  - intros y. right. intros up b. unfold lst. rewrite bd_set_same. destruct (Nat.eqb_spec y x) as [->|]; [|auto]. intros H. apply V in H. destruct H as [|[]]; auto.
Qed.
Lemma gd_add s t c B x w ch b (up : bool) : b_cons b = c ->
  (if up then add_upper_bound else add_lower_bound) s t (bd_of B x) b = (w, ch) -> gd s t c B (bd_mark (bd_set B x w) x ch).
Proof.
  intros Eb E.
  assert (V : vext s t (bd_of B x) w (fun u e => u = up /\ e = b) none1) by (destruct up; [eapply vext_aub|eapply vext_alb]; exact E).
  assert (X : vb_neq w = vb_neq (bd_of B x) /\ (ch = false -> vext s t (bd_of B x) w none2 none1)).
  { destruct up; [unfold add_upper_bound in E; destruct (upper_bound _ _ _) as [w1 o] eqn:E1|unfold add_lower_bound in E; destruct (lower_bound _ _ _) as [w1 o] eqn:E1];
      (assert (N : vb_neq w1 = vb_neq (bd_of B x)) by (first [unfold upper_bound in E1|unfold lower_bound in E1]; inversion E1; reflexivity);
       destruct (match o with None => true | Some b0 => _ end); inversion E; subst; (split; [exact N|]); [discriminate|]); intros _.
    - replace w with (fst (upper_bound s t (bd_of B x))) by (now rewrite E1). apply vext_upper.
    - replace w with (fst (lower_bound s t (bd_of B x))) by (now rewrite E1). apply vext_lower. }
  destruct X as [N V0].
  assert (EL : forall u y, lst (bd_mark (bd_set B x w) x ch) u y = lst (bd_set B x w) u y) by (intros; unfold bd_mark; destruct ch; reflexivity).
  assert (EB : forall y, bd_of (bd_mark (bd_set B x w) x ch) y = bd_of (bd_set B x w) y) by (intros; unfold bd_mark; destruct ch; reflexivity).
  constructor.
  - intros u y e. rewrite EL. unfold lst. rewrite bd_set_same. destruct (Nat.eqb_spec y x) as [->|]; [|auto]. apply V.
  - intros u y e. rewrite EL. unfold lst. rewrite bd_set_same. destruct (Nat.eqb_spec y x) as [->|]; [|auto]. intros H. apply V in H. destruct H as [|[_ ->]]; auto.
  - intros y. rewrite EB, bd_set_same. destruct (Nat.eqb_spec y x) as [->|]; auto.
  - intros y H. unfold bd_mark. destruct ch; cbn; [apply in_app_iff|]; auto.
  - intros y. destruct (Nat.eq_dec y x) as [->|Ny].
    + destruct ch; [left; cbn; apply in_app_iff; right; now left|]. right. intros u e. rewrite EL. unfold lst. rewrite bd_set_same, Nat.eqb_refl. intros H.
      apply (V0 eq_refl) in H. destruct H as [|[]]; auto.
    + right. intros u e. rewrite EL. unfold lst. rewrite bd_set_same. destruct (Nat.eqb_spec y x); [congruence|auto].
Qed.
Lemma ineq_loop_gd s t c : forall ts B p B' o, ineq_loop s t c ts B p = (B', o) -> gd s t c B B'.
Proof.
  induction ts as [|[v k] ts IH]; intros B p B' o; cbn [ineq_loop].
  - intros H. inversion H; subst. apply gd_refl.
  - destruct (mdef _ v); [apply IH|]. destruct (if same_dir c k then _ else _) as [w u] eqn:E.
    assert (G : gd s t c B (bd_set B v w)) by (destruct (same_dir c k); [eapply gd_low|eapply gd_up]; exact E).
    destruct (dep_opt _ _); [intros H; inversion H; subst; exact G|]. intros H. eapply gd_trans; [exact G|]. eapply IH; eauto.
Qed.
Lemma gd_set2 s t c B x w1 w2 : gd s t c B (bd_set B x w1) -> gd s t c (bd_set B x w1) (bd_set (bd_set B x w1) x w2) -> gd s t c B (bd_set B x w2).
Proof.
  intros A C. pose proof (gd_trans _ _ _ _ _ _ A C) as D.
  assert (EB : forall y, bd_of (bd_set (bd_set B x w1) x w2) y = bd_of (bd_set B x w2) y) by (intros; rewrite !bd_set_same; destruct (y =? x); reflexivity).
  assert (EL : forall u y, lst (bd_set (bd_set B x w1) x w2) u y = lst (bd_set B x w2) u y) by (intros; unfold lst; now rewrite EB).
  destruct D as [D1 D2 D3 D4 D5]. constructor; auto.
  - intros u y e H O. rewrite <- EL. auto.
  - intros u y e. rewrite <- EL. auto.
  - intros y. rewrite <- EB. auto.
  - intros y. destruct (D5 y) as [H|H]; [auto|right]. intros u e. rewrite <- EL. auto.
Qed.
Lemma eq_loop_gd s t c : forall ts B p q B' o, eq_loop s t c ts B p q = (B', o) -> gd s t c B B'.
Proof.
  induction ts as [|[v k] ts IH]; intros B p q B' o; cbn [eq_loop].
  - intros H. inversion H; subst. apply gd_refl.
  - destruct (mdef _ v); [apply IH|].
    destruct (upper_bound s t (bd_of B v)) as [w1 u] eqn:E1. destruct (lower_bound s t w1) as [w2 l] eqn:E2.
    assert (G : gd s t c B (bd_set B v w2)).
    { eapply (gd_set2 s t c B v w1); [eapply gd_up; exact E1|]. eapply (gd_low s t c (bd_set B v w1) v). rewrite bd_set_same, Nat.eqb_refl. exact E2. }
    destruct (if qltb k 0 then (l, u) else (u, l)) as [b0 b1].
    destruct (_ || _); [intros H; inversion H; subst; exact G|]. intros H. eapply gd_trans; [exact G|]. eapply IH; eauto.
Qed.
Lemma eq_add_gd s t c f p B : lc_empty c = false -> exists B', eq_add s t c f p B = Ok B' /\ gd s t c B B'.
Proof.
  intros He. unfold eq_add. destruct (_ && _); [|eexists; split; [reflexivity|apply gd_refl]].
  unfold bound_dep. rewrite He. cbn [negb assertb bind].
  destruct (_ || _); [destruct (add_lower_bound _ _ _ _) as [w ch] eqn:E|destruct (add_upper_bound _ _ _ _) as [w ch] eqn:E];
    (eexists; split; [reflexivity|]); [eapply (gd_add s t c B _ w ch _ false)|eapply (gd_add s t c B _ w ch _ true)]; try exact E; reflexivity.
Qed.
Lemma deduce_gd s t c B : lc_empty c = false -> is_true (eval_lit (t_bm t) (lc_lit c)) = true ->
  exists B', deduce s t c B = Ok B' /\ gd s t c B B'.
Proof.
  intros He Ht. unfold deduce. rewrite Ht. cbn [assertb bind].
  destruct (lc_size c <=? 1); [eexists; split; [reflexivity|apply gd_refl]|].
  destruct (opred_eqb (lc_pred c) PEq) eqn:Ep.
  - destruct (lneg (lc_lit c)) eqn:En; [eexists; split; [reflexivity|apply gd_refl]|].
    unfold deduce_eq. rewrite En, Ep, Ht. cbn [negb assertb bind].
    destruct (eq_loop _ _ _ _ _ _ _) as [B1 [[p0 p1]|]] eqn:E; apply eq_loop_gd in E; [|eauto].
    destruct (eq_add_gd s t c true p0 B1 He) as (B2 & E2 & G2). rewrite E2. cbn [bind].
    destruct (eq_add_gd s t c false p1 B2 He) as (B3 & E3 & G3). exists B3. split; [exact E3|].
    eapply gd_trans; [exact E|]. eapply gd_trans; eauto.
  - unfold deduce_ineq. rewrite Ep, Ht. cbn [negb assertb bind].
    destruct (ineq_loop _ _ _ _ _ _) as [B1 [p|]] eqn:E; apply ineq_loop_gd in E; [|eauto].
    destruct (_ && _); [|eauto]. unfold bound_dep. rewrite He. cbn [negb assertb bind].
    destruct (same_dir _ _); [destruct (add_upper_bound _ _ _ _) as [w ch] eqn:Ea|destruct (add_lower_bound _ _ _ _) as [w ch] eqn:Ea];
      (eexists; split; [reflexivity|]); (eapply gd_trans; [exact E|]);
      [eapply (gd_add s t c B1 _ w ch _ true)|eapply (gd_add s t c B1 _ w ch _ false)]; try exact Ea; reflexivity.
Qed.

(** ** the values permitted by the bounds *)
Lemma gd_perm s t t' c B B' x v : linv s t B -> gd s t c B B' -> tlater t t' -> permitted s t' (bd_of B' x) v -> permitted s t' (bd_of B x) v.
Proof.
  intros I G L. pose proof (li_s _ _ _ I) as HS. rewrite !permitted_iff. intros [A C]. split.
  - intros up b Hb O. apply A; auto. apply (gd_keep _ _ _ _ _ G up x b Hb). destruct (li_good _ _ _ I up x b Hb) as [_ Gd].
    exact (obs_mono s s t t' HS HS (grows_refl s) L up b Gd O).
  - intros b Hb O. apply C; auto. now rewrite (gd_neq _ _ _ _ _ G).
Qed.
Lemma gd_perm_sub s t t' c B B' x v : gd s t c B B' -> (forall up b, In b (lst B' up x) -> is_obsolete s t' b = false -> In b (lst B up x)) ->
  permitted s t' (bd_of B x) v -> permitted s t' (bd_of B' x) v.
Proof.
  intros G H. rewrite !permitted_iff. intros [A C]. split.
  - intros up b Hb O. apply A; [apply H; auto|exact O].
  - intros b Hb O. apply C; auto. now rewrite (gd_neq _ _ _ _ _ G) in Hb.
Qed.
Lemma gd_FI s W t c B B' : FI s W t B -> linv s t B' -> gd s t c B B' -> (forall j, j < dl t -> mdef (t_bm (cutl t j)) (lord (lc_lit c)) = false) -> FI s W t B'.
Proof.
  intros [A1 A3 A4 A5 A6 A7] I' G HC.
  assert (U : forall t', tlater t t' -> forall i, Ui s t' B i -> Ui s t' B' i).
  { intros t' L i U y Hy D A Db v P. apply (U y); auto. eapply gd_perm; eauto. }
  constructor; auto.
  - intros j Hj. destruct (A6 j Hj) as [Q1 Q2]. destruct (cutl_later t j) as (L & _). split; [intros i Hi; apply U; auto|].
    intros x. destruct (Q2 x) as [v P]. exists v. eapply gd_perm_sub; [exact G| |exact P]. intros up b Hb O.
    destruct (gd_in _ _ _ _ _ G up x b Hb) as [|E]; auto. exfalso. apply live_lit in O. rewrite E in O. unfold eval_lit in O. rewrite (HC j Hj) in O. discriminate.
  - intros i Hi. apply U; auto. apply tlater_refl.
Qed.
Lemma gd_G s t c B B' : gd s t c B B' -> (forall x, fe s t B x \/ In x (bd_upd B)) -> forall x, fe s t B' x \/ In x (bd_upd B').
Proof.
  intros G H x. destruct (gd_m _ _ _ _ _ G x) as [|M]; [auto|]. destruct (H x) as [[v P]|Hx]; [left|right; now apply (gd_upd _ _ _ _ _ G)].
  exists v. eapply gd_perm_sub; eauto.
Qed.
Lemma get_pos s i : sinv s -> lc_empty (lc_get s i) = false -> lneg (lc_lit (lc_get s i)) = false.
Proof.
  intros HS HE. unfold lc_get in *. destruct (nth_error (st_cons s) i) as [c|] eqn:E.
  - rewrite (nth_error_nth _ _ _ E) in *. destruct (si_cons s HS _ _ E) as [[H1 _]|H1]; [|rewrite H1 in HE; discriminate HE].
    apply (i_good s (si_inv s HS) c H1).
  - rewrite nth_overflow in HE by now apply nth_error_None. discriminate HE.
Qed.
Lemma tt_entry0 t v ro : TT t -> In (v, ro) (recent t) -> t_lvl t v <> None.
Proof.
  intros (a & N & A) H. rewrite recent_lists in H by auto. apply (sh_list _ _ A) in H; auto. destruct H as (g & E & _).
  rewrite (sh_lvl _ _ A), E. discriminate.
Qed.
(** nothing is deduced from a constraint with all variables assigned *)
Lemma eq_loop_full s t c : forall ts B p q, (forall y k, In (y, k) ts -> mdef (t_qm t) y = true) ->
  exists p' q', eq_loop s t c ts B p q = (B, Some (p', q')) /\ dp_num p' = dp_num p /\ dp_num q' = dp_num q.
Proof.
  induction ts as [|[v k] ts IH]; intros B p q H; cbn [eq_loop]; [eauto|]. rewrite (H v k (or_introl eq_refl)).
  destruct (IH B (dp_sub p (k * mval (t_qm t) v)) (dp_sub q (k * mval (t_qm t) v))) as (p' & q' & E & E1 & E2); [intros; eapply H; right; eauto|].
  exists p', q'. auto.
Qed.
Lemma ineq_loop_full s t c : forall ts B p, (forall y k, In (y, k) ts -> mdef (t_qm t) y = true) ->
  exists p', ineq_loop s t c ts B p = (B, Some p') /\ dp_num p' = dp_num p.
Proof.
  induction ts as [|[v k] ts IH]; intros B p H; cbn [ineq_loop]; [eauto|]. rewrite (H v k (or_introl eq_refl)).
  destruct (IH B (dp_sub p (k * mval (t_qm t) v))) as (p' & E & E1); [intros; eapply H; right; eauto|]. exists p'. auto.
Qed.
Lemma deduce_full s t c B B' : (forall y k, In (y, k) (lc_terms s c) -> mdef (t_qm t) y = true) -> deduce s t c B = Ok B' -> B' = B.
Proof.
  intros H. unfold deduce. intros E. sb E. destruct (lc_size c <=? 1); [injection E as <-; reflexivity|].
  destruct (opred_eqb (lc_pred c) PEq).
  - destruct (lneg (lc_lit c)); [injection E as <-; reflexivity|]. unfold deduce_eq in E. sb E. sb E. sb E.
    destruct (eq_loop_full s t c (lc_terms s c) B (mkDp (lc_rhs c) [] 0 0 0) (mkDp (lc_rhs c) [] 0 0 0) H) as (p' & q' & E0 & E1 & E2).
    rewrite E0 in E. unfold eq_add in E. rewrite E1, E2 in E. cbn [dp_num] in E. cbn [Nat.eqb] in E. rewrite !andb_false_r in E. cbn [bind] in E. injection E as <-. reflexivity.
  - unfold deduce_ineq in E. sb E. sb E.
    destruct (ineq_loop_full s t c (lc_terms s c) B (mkDp (lc_rhs c) [] 0 0 0) H) as (p' & E0 & E1).
    rewrite E0, E1 in E. cbn [dp_num Nat.eqb] in E. rewrite andb_false_r in E. injection E as <-. reflexivity.
Qed.

(** ** constraints that were propagated at a lower level have all variables assigned *)
Definition NL (s : store) (t : trail) : Prop := forall i j ro k, j <= dl t -> In (VBool i, ro) (lists t j) ->
  t_lvl t (VBool i) = Some k -> k < j -> isC s i -> below t k (cv s i).
Record NI (s : store) (t : trail) : Prop := {
  ni_s : sinv s; ni_n : t_levels t <> []; ni_r : forall i k, t_lvl t (VBool i) = Some k -> i < mnum (t_bm t);
  ni_l : length (st_cons s) = mnum (t_bm t); ni_q : forall i k, t_lvl t (VRat i) = Some k -> i < mnum (t_qm t); ni_nl : NL s t }.
Lemma NL_grows s s' t : sinv s -> sinv s' -> grows s s' -> (forall i, isC s' i -> isC s i \/ t_lvl t (VBool i) = None) -> NL s t -> NL s' t.
Proof.
  intros S1 S2 G H N i j ro k L Hin E K Hi. destruct (H i Hi) as [Hs|Hs]; [|congruence].
  intros v Hv. apply (N i j ro k L Hin E K Hs). now apply (cv_grows s s' i).
Qed.
Lemma isC_app s s' l i : st_cons s' = st_cons s ++ l -> isC s' i -> isC s i \/ length (st_cons s) <= i.
Proof.
  intros E H. destruct (Nat.lt_ge_cases i (length (st_cons s))); [left|auto]. unfold isC, lc_get in *. rewrite E in H. now rewrite app_nth1 in H by auto.
Qed.
Lemma NL_prop s t i ro k x t' : t_levels t <> [] -> t_step t (TPropagate (VBool i) ro k x) = Ok t' -> (k = dl t \/ (isC s i -> below t k (cv s i))) -> NL s t -> NL s t'.
Proof.
  intros N S HK HN. destruct (lists_prop _ _ _ _ _ _ N S) as [ED LS]. destruct (step_prop_inv _ _ _ _ _ _ S) as (_ & L1 & _).
  assert (R : forall v, t_lvl t' (VRat v) = t_lvl t (VRat v)) by (intros v; rewrite L1; apply vupd_neq; congruence).
  intros i' j ro' k' L Hin E K Hi v Hv. unfold lv. rewrite R. rewrite ED in L. rewrite L1 in E.
  destruct (Nat.eq_dec i' i) as [->|NE].
  - rewrite vupd_eq in E. injection E as <-. destruct HK as [->|HK]; [lia|]. apply HK; auto.
  - rewrite vupd_neq in E by congruence. rewrite LS in Hin.
    assert (Hin' : In (VBool i', ro') (lists t j)) by (destruct (_ && _); [destruct Hin as [Hin|]; [congruence|auto]|auto]).
    apply (HN i' j ro' k' L Hin' E K Hi v Hv).
Qed.
Lemma dl_resize t nb nq : dl (trail_resize t nb nq) = dl t.
Proof. reflexivity. Qed.
Lemma NL_resize s t nb nq : (forall i k, t_lvl t (VRat i) = Some k -> i < Nat.min nq (mnum (t_qm t))) -> NL s t -> NL s (trail_resize t nb nq).
Proof.
  intros HQ HN i j ro k L Hin E K Hi v Hv. rewrite dl_resize in L.
  assert (Hin' : In (VBool i, ro) (lists t j)) by exact Hin.
  assert (E' : t_lvl t (VBool i) = Some k) by (cbn [trail_resize t_lvl] in E; destruct (in_range _ _ _); [exact E|discriminate]).
  destruct (HN i j ro k L Hin' E' K Hi v Hv) as (j' & J & Lj). exists j'. split; [|exact Lj]. unfold lv in *. cbn [trail_resize t_lvl].
  destruct (in_range _ _ (VRat v)) eqn:X; [exact J|]. cbn in X. apply Nat.ltb_ge in X. apply HQ in J. lia.
Qed.
Lemma ni_resize s s' t nb nq l : NI s t -> sinv s' -> grows s s' -> st_cons s' = st_cons s ++ l -> mnum (t_bm t) <= nb -> mnum (t_qm t) <= nq -> length (st_cons s') = nb ->
  NI s' (trail_resize t nb nq).
Proof.
  intros [S1 N1 R1 E1 Q1 L1] S2 G HA Lb Lq HL. constructor; auto.
  - intros i k E. cbn [trail_resize t_lvl] in E. destruct (in_range _ _ (VBool i)) eqn:Er; [|discriminate]. cbn in Er. apply Nat.ltb_lt in Er. cbn. lia.
  - intros i k E. cbn [trail_resize t_lvl] in E. destruct (in_range _ _ (VRat i)) eqn:Er; [|discriminate]. cbn in Er. apply Nat.ltb_lt in Er. cbn. lia.
  - apply NL_resize; [intros i k E; apply Q1 in E; lia|]. apply (NL_grows s); auto. intros i Hi. destruct (isC_app _ _ _ _ HA Hi) as [|Hl]; [auto|right].
    destruct (t_lvl t (VBool i)) as [k|] eqn:E; [|reflexivity]. apply R1 in E. lia.
Qed.
Section N.
Variables (hi : nat -> Z) (hv : Q -> Z).
Lemma NI_step s t B s' t' B' : estep hi hv (s, t, B) (s', t', B') -> dl t <= dl t' /\ (dl t' = dl t -> NI s t -> NI s' t').
Proof.
  intros H. pose proof (estep_sinv hi hv _ _ H) as ST. cbn [fst] in ST. inversion H; subst; try (split; [lia|]; intros _ X; exact X).
  - split; [lia|]. intros _ [S1 N1 R1 E1 Q1 L1]. destruct (ST S1) as [S2 G]. constructor; auto. apply (NL_grows s); auto.
  - split; [destruct (_ <=? _); exact (le_n (dl t))|]. intros _ X. pose proof X as [S1 N1 R1 E1 Q1 L1]. destruct (ST S1) as [S2 G].
    match goal with E : lc_make _ _ _ _ _ _ = _, Dv : distinct_vars _ |- _ =>
      destruct (make_shape hi hv s q s' c (si_inv s S1) Dv E) as [_ [ES|(d & ES & EL)]]; destruct (make_sinv hi hv s q s' c S1 Dv E) as (_ & _ & Hs) end.
    + destruct (Nat.leb_spec (mnum (t_bm t)) (lord (lc_lit c))) as [Lc|_].
      * exfalso. pose proof (stored_lord s' c S2 Hs) as Z. rewrite ES in Z. lia.
      * constructor; auto; [now rewrite ES|]. apply (NL_grows s); auto. intros i Hi. left. unfold isC, lc_get in *. now rewrite ES in Hi.
    + destruct (Nat.leb_spec (mnum (t_bm t)) (lord (lc_lit c))) as [Lc|Lc]; [|lia].
      apply (ni_resize s s' t _ _ [d]); auto; try lia. rewrite ES, app_length. cbn. lia.
  - split; [exact (le_n (dl t))|]. intros _ X. pose proof X as [S1 N1 R1 E1 Q1 L1]. destruct (ST S1) as [S2 G].
    eapply (ni_resize s _ t); auto; [cbn [lc_resize st_cons]; reflexivity|]. cbn [lc_resize st_cons]. rewrite app_length, repeat_length. lia.
  - match goal with E : t_step _ _ = _ |- _ => rename E into SP end.
    match goal with E : _ \/ _ |- _ => rename E into HK end.
    match goal with E : stored _ _ |- _ => rename E into Hc end.
    split; [destruct (step_prop_inv _ _ _ _ _ _ SP) as (_ & _ & _ & _ & _); cbn in SP; unfold trail_propagate in SP; destruct (_ <=? _); [|discriminate]; injection SP as <-; unfold dl; cbn [t_levels]; rewrite map_first_length; auto|].
    intros _ [S1 N1 R1 E1 Q1 L1]. destruct (step_prop_inv _ _ _ _ _ _ SP) as (_ & LV & _ & Bm & Qm). cbn [put fst snd with_bm t_bm t_qm set_value mnum] in Bm, Qm.
    constructor; auto.
    + cbn in SP. unfold trail_propagate in SP. destruct (k <=? _); [|discriminate]. injection SP as <-. cbn [t_levels].
      intros E. apply (f_equal (@length _)) in E. rewrite map_first_length in E. cbn in E. destruct (t_levels t); [congruence|discriminate].
    + intros i k' E. rewrite Bm. cbn [mnum set_value]. rewrite LV in E. destruct (Nat.eq_dec i (lord (lc_lit c))) as [->|NE].
      * pose proof (stored_lord s' c S1 Hc). lia.
      * rewrite vupd_neq in E by congruence. eauto.
    + rewrite Bm. cbn [mnum set_value]. exact E1.
    + intros i k' E. rewrite Qm. rewrite LV, vupd_neq in E by congruence. eauto.
    + apply (NL_prop s' t _ _ _ _ t' N1 SP); auto. destruct HK as [->|HK]; [auto|]. right. intros _ y Hy. apply HK. rewrite (proj1 (stored_cv s' c S1 Hc)). exact Hy.
  - assert (X : dl (trail_decide (with_qm t (set_value (t_qm t) x q)) (VRat x)) = length (t_levels t)) by (unfold dl, trail_decide; cbn; lia).
    rewrite X. unfold dl. split; [lia|]. intros E [_ N1 _ _ _ _]. destruct (t_levels t); [congruence|]. cbn in E. lia.
Qed.
Lemma NI_steps p q : esteps hi hv p q -> dl (snd (fst p)) <= dl (snd (fst q)) /\
  (dl (snd (fst q)) = dl (snd (fst p)) -> NI (fst (fst p)) (snd (fst p)) -> NI (fst (fst q)) (snd (fst q))).
Proof.
  induction 1 as [a|[[s t] B] [[s1 t1] B1] c H1 _ [IH1 IH2]]; [auto|]. cbn [fst snd] in *. destruct (NI_step _ _ _ _ _ _ H1) as [A1 A2].
  split; [lia|]. intros E X. apply IH2; [lia|]. apply A2; [lia|auto].
Qed.
Lemma TT_NI s t : sinv s -> TT t -> length (st_cons s) = mnum (t_bm t) -> NL s t -> NI s t.
Proof.
  intros S1 T L N. constructor; auto.
  - destruct T as (a & X & _). exact X.
  - intros i k E. apply (tt_range t) in E; auto. cbn in E. now apply Nat.ltb_lt.
  - intros i k E. apply (tt_range t) in E; auto. cbn in E. now apply Nat.ltb_lt.
Qed.
End N.
Lemma NL_bcp s : forall fuel t d w q t' d' w' o, t_levels t <> [] -> bcp_loop fuel t d w q = Ok (t', d', w', o) -> NL s t -> NL s t'.
Proof.
  induction fuel as [|fuel IH]; intros t d w [|[l ro] q] t' d' w' o N H D; cbn [bcp_loop] in H; try (injection H as <- _ _ _; exact D); [discriminate|].
  match type of H with bind ?m _ = _ => destruct m as [t1| |] eqn:E; cbn [bind] in H; try discriminate end.
  assert (D1 : NL s t1 /\ t_levels t1 <> []).
  { destruct ro as [r|]; [|injection E as <-; auto]. destruct (mdef _ _); [injection E as <-; auto|]. split.
    - apply (NL_prop s t (lord l) (Some r) (dl t) (negb (lneg l), 0%Q) t1 N E); auto.
    - unfold trail_propagate in E. destruct (_ <=? _); [|discriminate]. injection E as <-. cbn [t_levels].
      intros E. apply (f_equal (@length _)) in E. rewrite map_first_length in E. cbn in E. destruct (t_levels t); [congruence|discriminate]. }
  sb H. sb H. destruct (falsified _ _ _ _ _) as [[[[d2 w2] s2] [c|]]| |]; cbn [bind] in H; try discriminate.
  - injection H as <- _ _ _. apply D1.
  - eapply IH; [|exact H|]; apply D1.
Qed.
Lemma NL_bool s fuel b d t b' d' t' cs : t_levels t <> [] -> bool_propagate fuel b d t = Ok (b', d', t', cs) -> NL s t -> NL s t'.
Proof.
  unfold bool_propagate. intros N H D. destruct (bool_initialize _ _ _) as [[b1 q]| |]; cbn [bind] in H; try discriminate.
  destruct (bcp_loop _ _ _ _ _) as [[[[t2 d2] w2] o]| |] eqn:E; cbn [bind] in H; try discriminate. injection H as _ _ <- _. eapply NL_bcp; eauto.
Qed.
Lemma NL_decide s t v x t' : TT t -> t_lvl t v = None -> t_step t (TDecide v x) = Ok t' -> NL s t -> NL s t'.
Proof.
  intros T Nv H HN. assert (N : t_levels t <> []) by (destruct T as (a & X & _); exact X). pose proof (lists_dec _ _ _ _ N H) as LS.
  assert (Fd : dl t' = S (dl t)).
  { cbn in H. injection H as <-. unfold trail_decide, dl. cbn [t_levels length]. replace (t_levels (put t v x)) with (t_levels t) by (destruct v; reflexivity). destruct (t_levels t); [congruence|cbn; lia]. }
  assert (F : forall u, u <> v -> t_lvl t' u = t_lvl t u).
  { intros u NE. cbn in H. injection H as <-. unfold trail_decide. cbn [t_lvl]. rewrite vupd_neq by congruence. destruct v; reflexivity. }
  assert (Fv : t_lvl t' v = Some (S (dl t))).
  { cbn in H. injection H as <-. unfold trail_decide. cbn [t_lvl]. rewrite vupd_eq. f_equal.
    replace (t_levels (put t v x)) with (t_levels t) by (destruct v; reflexivity). unfold dl. destruct (t_levels t); [congruence|cbn; lia]. }
  intros i j ro k L Hin E K Hi. rewrite LS in Hin. destruct (Nat.eqb_spec j (S (dl t))) as [->|Nj].
  - destruct Hin as [Hin|[]]. injection Hin as -> _. rewrite Fv in E. injection E as <-. lia.
  - assert (Ni : VBool i <> v) by (intros E0; rewrite E0, Fv in E; injection E as <-; lia).
    rewrite F in E by auto. intros y Hy. destruct (HN i j ro k ltac:(lia) Hin E K Hi y Hy) as (j' & J & Lj).
    exists j'. split; [|exact Lj]. unfold lv in *. rewrite F; [exact J|]. intros E0. rewrite E0 in J. congruence.
Qed.
Lemma NL_back s t k t' : TT t -> trail_backtrack t k = Ok t' -> NL s t -> NL s t'.
Proof.
  intros T H HN. destruct (tt_back _ _ _ T H) as (EL & _ & LS & N1).
  assert (Ed : dl t' = k).
  { destruct T as (a & T). assert (K : k <= dl t) by (unfold trail_backtrack in H; destruct (Nat.leb_spec k (dl t)); [auto|discriminate]).
    destruct (inv_backtrack t a k T) as (t1' & E & T1 & _); [destruct T as [_ T]; simpl; now rewrite <- (sh_dl _ _ T)|].
    rewrite H in E. injection E as <-. destruct T1 as [_ A1]. rewrite (sh_dl _ _ A1). reflexivity. }
  intros i j ro k' L Hin E K Hi. rewrite Ed in L. rewrite LS in Hin by auto. rewrite EL in E.
  destruct (t_lvl t (VBool i)) as [k0|] eqn:E0; [|discriminate]. destruct (Nat.leb_spec k0 k); [|discriminate]. injection E as <-.
  assert (Ld : k <= dl t) by (unfold trail_backtrack in H; destruct (Nat.leb_spec k (dl t)); [auto|discriminate]).
  intros y Hy. destruct (HN i j ro k0 ltac:(lia) Hin E0 K Hi y Hy) as (j' & J & Lj). exists j'. split; [|exact Lj]. unfold lv in *. rewrite EL, J.
  destruct (Nat.leb_spec j' k); [reflexivity|lia].
Qed.

Section S.
Variables (hi : nat -> Z) (hv : Q -> Z).
Theorem propagate_bounds_safe : forall es a t, FA a t -> cinv a t -> NL (l_st a) t -> (forall v ro, In (v, ro) es -> In (v, ro) (recent t)) ->
  (forall x, fe (l_st a) t (l_bd a) x \/ In x (bd_upd (l_bd a))) ->
  propagate_bounds es a t <> UB /\ forall a', propagate_bounds es a t = Ok a' ->
    FA a' t /\ cinv a' t /\ (forall x, fe (l_st a') t (l_bd a') x \/ In x (bd_upd (l_bd a'))).
Proof.
  induction es as [|[[i|x] r] es IH]; intros a t HF CI HN Hes HG; cbn [propagate_bounds].
  { split; [discriminate|]. intros a' H. inversion H; subst. auto. }
  2:{ apply IH; auto. intros. apply Hes. now right. }
  destruct (lc_empty (lc_get (l_st a) i)) eqn:E0; [apply IH; auto; intros; apply Hes; now right|].
  pose proof HF as (Wa & HJ & HFI). pose proof (jo_t _ _ _ HJ) as T. pose proof (jo_s _ _ _ HJ) as HS.
  pose proof (Hes _ _ (or_introl eq_refl)) as Hin.
  assert (El : exists k, t_lvl t (VBool i) = Some k /\ k <= dl t /\ (k = dl t \/ below t k (cv (l_st a) i))).
  { destruct (t_lvl t (VBool i)) as [k|] eqn:E; [|exfalso; exact (tt_entry0 t _ _ T Hin E)]. exists k. split; [reflexivity|].
    pose proof (tt_le _ _ _ T E). split; [auto|]. destruct (Nat.eq_dec k (dl t)); [auto|right]. 
    rewrite recent_lists in Hin by (destruct T as (aa & X & _); exact X). apply (HN i (dl t) r k (le_n _) Hin E); [lia|exact E0]. }
  destruct El as (k & El & Lk & Hk).
  assert (Db : mdef (t_bm t) i = true) by (apply tt_b; auto; congruence).
  pose proof (get_lord (l_st a) i HS E0) as Ei. pose proof (stored_get (l_st a) i HS E0) as Hst.
  set (c1 := if mval (t_bm t) i then lc_get (l_st a) i else lc_neg (lc_get (l_st a) i)).
  assert (Hc1 : stored (l_st a) c1) by (unfold c1; destruct (mval (t_bm t) i); [|apply stored_neg]; exact Hst).
  assert (He1 : lc_empty c1 = false) by (unfold c1; destruct (mval (t_bm t) i); exact E0).
  assert (Eo : lord (lc_lit c1) = i) by (unfold c1; destruct (mval (t_bm t) i); exact Ei).
  assert (En : Bool.eqb (mval (t_bm t) i) (negb (lneg (lc_lit c1))) = true).
  { pose proof (get_pos (l_st a) i HS E0) as Ep. unfold c1. destruct (mval (t_bm t) i) eqn:Ev; [rewrite Ep; reflexivity|]. cbn [lc_neg lc_lit neg lneg]. now rewrite Ep. }
  rewrite Eo, En. cbn [assertb bind].
  assert (Ht : is_true (eval_lit (t_bm t) (lc_lit c1)) = true) by (unfold eval_lit; rewrite Eo, Db, En; reflexivity).
  destruct (deduce_gd (l_st a) t c1 (l_bd a) He1 Ht) as (B & EB & G). rewrite EB. cbn [bind].
  pose proof (deduce_inv _ _ _ _ _ (F_l _ _ _ _ HFI) Hc1 EB) as IB.
  apply IH.
  - split; [now apply wsi_bd|]. split; [exact HJ|]. cbn [with_bd l_st l_watch l_bd]. destruct Hk as [->|Hk].
    + eapply gd_FI; eauto. intros j Hj. rewrite Eo. destruct (mdef (t_bm (cutl t j)) i) eqn:Ed; [|reflexivity].
      apply cut_b in Ed; auto. destruct Ed as (k & Ek & Lj). rewrite El in Ek. injection Ek as <-. lia.
    + assert (B = l_bd a) as ->; [|exact HFI]. eapply deduce_full; [|exact EB]. intros y q Hy.
      apply tt_q; auto. destruct (Hk y) as (j & J & _); [|congruence].
      rewrite <- Eo, <- (proj1 (stored_cv (l_st a) c1 HS Hc1)), lc_vars_terms by auto. apply (in_map fst) in Hy. exact Hy.
  - apply (cinv_goes hi hv a t); auto. split; [|now apply wsi_bd]. apply e_one. eapply es_deduce; [|exact EB]. exact Hc1.
  - exact HN.
  - intros. apply Hes. now right.
  - cbn [with_bd l_st l_bd]. eapply gd_G; eauto.
Qed.
End S.
