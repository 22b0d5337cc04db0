(** The bounds in every state of the plugin are built by additions and queries. *)
From Coq Require Import List Arith ZArith QArith Qround Bool.
From Verif Require Import Base Core_Model Lincons_Model Spec_Lincons Trail_Model Lra_Model Spec_Lra Lra_Bounds.
Import ListNotations.
Open Scope nat_scope.

Definition bh (B : bnds) : Prop := forall x, vb_history (bd_of B x).

(** invert binds in a hypothesis that a computation succeeds *)
Ltac binv H :=
  repeat match type of H with
  | bind (assertb ?b) _ = Ok _ =>
      let E := fresh "As" in destruct b eqn:E; cbn [assertb bind] in H; [|discriminate H]
  | bind ?m _ = Ok _ =>
      let E := fresh "Eq" in destruct m eqn:E; cbn [bind] in H; [|discriminate H|discriminate H]
  | (let '(_, _) := ?p in _) = Ok _ => let E := fresh "Ep" in destruct p eqn:E
  | (let '(_, _) := ?p in _) = (_, _) => let E := fresh "Ep" in destruct p eqn:E
  end.

Ltac okinv H :=
  match type of H with Ok ?a = Ok ?b =>
    let E := fresh "Eo" in assert (E : a = b) by congruence; clear H; subst b end.

Ltac fin :=
  intros; first [ discriminate | assumption | congruence
  | match goal with
    | H : Ok _ = Ok _ |- _ => inversion H; subst; assumption
    | H : (_, _) = (_, _) |- _ => inversion H; subst; assumption
    end ].

Lemma bh_set B x w : bh B -> vb_history w -> bh (bd_set B x w).
Proof. intros H Hw y. rewrite bd_set_same. destruct (y =? x); auto. Qed.
Lemma bh_mark B x b : bh B -> bh (bd_mark B x b).
Proof. intros H. unfold bd_mark. destruct b; exact H. Qed.
Lemma vh_upper' s t w w' o : upper_bound s t w = (w', o) -> vb_history w -> vb_history w'.
Proof. intros E H. replace w' with (fst (upper_bound s t w)) by (rewrite E; reflexivity). now constructor. Qed.
Lemma vh_lower' s t w w' o : lower_bound s t w = (w', o) -> vb_history w -> vb_history w'.
Proof. intros E H. replace w' with (fst (lower_bound s t w)) by (rewrite E; reflexivity). now constructor. Qed.
Lemma vh_neq' s t w v w' o : inequality s t w v = (w', o) -> vb_history w -> vb_history w'.
Proof. intros E H. replace w' with (fst (inequality s t w v)) by (rewrite E; reflexivity). now constructor. Qed.
Lemma vh_aub s t w b w' o : add_upper_bound s t w b = (w', o) -> vb_history w -> vb_history w'.
Proof. intros E H. replace w' with (fst (add_upper_bound s t w b)) by (rewrite E; reflexivity). now constructor. Qed.
Lemma vh_alb s t w b w' o : add_lower_bound s t w b = (w', o) -> vb_history w -> vb_history w'.
Proof. intros E H. replace w' with (fst (add_lower_bound s t w b)) by (rewrite E; reflexivity). now constructor. Qed.
Lemma vh_allowed s t w v w' o : is_allowed s t w v = (w', o) -> vb_history w -> vb_history w'.
Proof.
  unfold is_allowed. destruct (inequality s t w v) as [w1 n] eqn:E1. intros H Hw.
  apply vh_neq' in E1; [|exact Hw]. destruct n; [fin|].
  unfold check_lower_bound in H. destruct (lower_bound s t w1) as [w2 lo] eqn:E2.
  apply vh_lower' in E2; [|exact E1]. destruct (match lo with Some _ => _ | None => _ end); [|fin].
  unfold check_upper_bound in H. destruct (upper_bound s t w2) as [w3 up] eqn:E3.
  apply vh_upper' in E3; [|exact E2]. fin.
Qed.

Lemma bh_update s t c B B' : bd_update s t c B = Ok B' -> bh B -> bh B'.
Proof.
  unfold bd_update. intros H HB. binv H.
  destruct (implies_eq _); [|destruct (implies_neq _); [|destruct (implies_lb _ _)]]; binv H;
    okinv H; apply bh_mark, bh_set; auto.
  - eapply vh_aub; [eassumption|]. eapply vh_alb; [eassumption|]. apply HB.
  - eapply vh_add_neq; [|eassumption]. apply HB.
  - eapply vh_alb; [eassumption|]. apply HB.
  - eapply vh_aub; [eassumption|]. apply HB.
Qed.
Lemma bh_eq_loop s t c : forall ts B p0 p1 B' o, eq_loop s t c ts B p0 p1 = (B', o) -> bh B -> bh B'.
Proof.
  induction ts as [|[v k] ts IH]; intros B p0 p1 B' o; cbn [eq_loop]; [fin|]. intros H HB.
  destruct (mdef (t_qm t) v); [eapply IH; eauto|]. binv H.
  assert (bh (bd_set B v v1)).
  { apply bh_set; auto. eapply vh_lower'; [eassumption|]. eapply vh_upper'; [eassumption|]. apply HB. }
  destruct (if qltb k 0 then _ else _) as [b0 b1].
  destruct (_ || _); [fin|]. eapply IH; eauto.
Qed.
Lemma bh_eq_add s t c f p B B' : eq_add s t c f p B = Ok B' -> bh B -> bh B'.
Proof.
  unfold eq_add. destruct (_ && _); [|fin]. intros H HB. binv H. okinv H.
  apply bh_mark, bh_set; auto.
  destruct (_ || _); [eapply vh_alb|eapply vh_aub]; try eassumption; apply HB.
Qed.
Lemma bh_ineq_loop s t c : forall ts B p B' o, ineq_loop s t c ts B p = (B', o) -> bh B -> bh B'.
Proof.
  induction ts as [|[v k] ts IH]; intros B p B' o; cbn [ineq_loop]; [fin|]. intros H HB.
  destruct (mdef (t_qm t) v); [eapply IH; eauto|]. binv H.
  assert (bh (bd_set B v v0)).
  { apply bh_set; auto. destruct (same_dir c k); [eapply vh_lower'|eapply vh_upper']; try eassumption; apply HB. }
  destruct (dep_opt _ _); [fin|]. eapply IH; eauto.
Qed.
Lemma bh_deduce s t c B B' : deduce s t c B = Ok B' -> bh B -> bh B'.
Proof.
  unfold deduce. intros H HB. binv H. destruct (_ <=? _); [fin|].
  destruct (opred_eqb _ _).
  - destruct (lneg _); [fin|]. unfold deduce_eq in H. binv H.
    apply bh_eq_loop in Ep; auto. destruct o as [[p0 p1]|]; [|fin].
    binv H. eapply bh_eq_add; [eassumption|]. eapply bh_eq_add; eauto.
  - unfold deduce_ineq in H. binv H.
    apply bh_ineq_loop in Ep; auto. destruct o as [p|]; [|fin].
    destruct (_ && _); [|fin]. binv H. okinv H. apply bh_mark, bh_set; auto.
    destruct (same_dir _ _); [eapply vh_aub|eapply vh_alb]; try eassumption; apply Ep.
Qed.
Lemma bh_implied s t c B B' b : is_implied s t c B = (B', b) -> bh B -> bh B'.
Proof.
  unfold is_implied. destruct (eval_lit _ _); [fin|].
  assert (G : forall ts B r B' o, implied_loop s t c ts B r = (B', o) -> bh B -> bh B').
  { induction ts as [|[v k] ts IH]; intros B0 r B1 o; cbn [implied_loop]; [fin|]. intros H HB.
    destruct (mdef (t_qm t) v); [eapply IH; eauto|]. binv H.
    assert (bh (bd_set B0 v v0)).
    { apply bh_set; auto. destruct (same_dir c k); [eapply vh_upper'|eapply vh_lower']; try eassumption; apply HB. }
    destruct o0; [|fin]. eapply IH; eauto. }
  destruct (implied_loop _ _ _ _ _ _) as [B1 [r|]] eqn:E; intros H HB; apply G in E; auto; fin.
Qed.

Lemma watch_loop_bh x : forall n s W t B d l s' W' t' B',
  watch_loop n x s W t B d l = Ok (s', W', t', B') -> bh B -> bh B'.
Proof.
  induction n as [|n IH]; intros s W t B d l s' W' t' B'; destruct l as [|w l]; cbn [watch_loop];
    intros H HB; try discriminate; [injection H as _ _ _ <-; exact HB..|]. binv H.
  destruct b; [eapply IH; eauto|]. binv H. eapply IH; [exact H|].
  unfold watch_kept in Eq0. destruct (mdef _ _); [destruct (fully_assigned _ _ _)|destruct (fully_assigned _ _ _)];
    binv Eq0; try (injection Eq0 as _ <-; try exact HB).
  eapply bh_update; eauto.
Qed.
Definition lh (a : lra) : Prop := bh (l_bd a).
Lemma lra_vars_bh : forall vs a t a' t', lra_vars vs a t = Ok (a', t') -> lh a -> lh a'.
Proof.
  induction vs as [|v vs IH]; intros a t a' t'; cbn [lra_vars]; intros H Ha; [fin|]. binv H.
  eapply IH; [exact H|]. destruct v as [i|x].
  - unfold lra_bool_var in Eq. binv Eq. destruct (fully_assigned _ _ _); binv Eq; [fin|].
    match type of Eq with (if ?b then _ else _) = _ => destruct b end; [|fin]. binv Eq. injection Eq as <- _. eapply bh_update; eauto.
  - unfold replace_watches in Eq. binv Eq. injection Eq as <- _. eapply watch_loop_bh; eauto.
Qed.
Lemma propagate_bounds_bh : forall es a t a', propagate_bounds es a t = Ok a' -> lh a -> lh a'.
Proof.
  induction es as [|[[i|x] r] es IH]; intros a t a'; cbn [propagate_bounds]; intros H Ha; [fin| |eauto].
  destruct (lc_empty _); [eauto|]. binv H. eapply IH; [exact H|]. eapply bh_deduce; eauto.
Qed.
Lemma try_implied_bh a t c a' t' : try_implied a t c = Ok (a', t') -> lh a -> lh a'.
Proof.
  unfold try_implied. intros H Ha. destruct (is_implied _ _ _ _) as [B b] eqn:E. apply bh_implied in E; auto.
  destruct b; binv H; injection H as <- _; exact E.
Qed.
Lemma unassigned_loop_bh : forall cs a t a' t', unassigned_loop cs a t = Ok (a', t') -> lh a -> lh a'.
Proof.
  induction cs as [|c cs IH]; intros a t a' t'; cbn [unassigned_loop]; intros H Ha; [fin|].
  destruct (mdef _ _); [eauto|]. binv H. eapply IH; [exact H|].
  eapply try_implied_bh; [eassumption|]. eapply try_implied_bh; eauto.
Qed.
Section H.
Variables (hi : nat -> Z) (hv : Q -> Z) (opt : lopt).
Lemma constraint_bh a t ts p q a' t' c : lra_constraint hi hv opt a t ts p q = Ok (a', t', c) ->
  l_bd a' = l_bd a.
Proof.
  unfold lra_constraint. destruct (lc_make _ _ _ _ _ _) as [s c0]. destruct (_ <=? _); intros H; binv H.
  - injection H as <- _ _. unfold watch_new, watch_cons in Eq. binv Eq.
    destruct (_ <? _); binv Eq; injection Eq as <-; cbn; destruct (_ || _); reflexivity.
  - injection H as <- _ _. reflexivity.
Qed.
Lemma fm_finish_bh a t f a' t' c : fm_finish hi hv opt a t f = Ok (a', t', c) -> l_bd a' = l_bd a.
Proof.
  unfold fm_finish. destruct (fm_terms f); intros H; [fin|]. binv H.
  apply constraint_bh in Eq. destruct (mdef _ _); binv H; fin.
Qed.
Lemma bound_conflict_bh a t x a' t' o : bound_conflict hi hv opt a t x = Ok (a', t', o) -> lh a -> lh a'.
Proof.
  unfold bound_conflict. intros H Ha.
  destruct (lower_bound _ _ _) as [w1 lb] eqn:E1. destruct (upper_bound _ _ _) as [w2 ub] eqn:E2.
  assert (lh (with_bd a (bd_set (l_bd a) x w2))).
  { apply bh_set; auto. eapply vh_upper'; [eassumption|]. eapply vh_lower'; [eassumption|]. apply Ha. }
  destruct lb as [lb|]; [|fin]. destruct ub as [ub|]; [|fin].
  destruct (_ || _); [fin|]. binv H.
  match goal with E : fm_finish _ _ _ _ _ _ = _ |- _ => apply fm_finish_bh in E end.
  injection H as <- _ _. unfold lh. rewrite Eq2. exact H0.
Qed.
Lemma neq_side_bh a t n b m cl a' t' cl' : neq_side hi hv opt a t n b m cl = Ok (a', t', cl') -> l_bd a' = l_bd a.
Proof.
  unfold neq_side. intros H. binv H.
  match goal with E : fm_finish _ _ _ _ _ _ = _ |- _ => apply fm_finish_bh in E end.
  destruct (lc_empty _); binv H; fin.
Qed.
Lemma neq_conflict_bh a t x a' t' o : neq_conflict hi hv opt a t x = Ok (a', t', o) -> lh a -> lh a'.
Proof.
  unfold neq_conflict. intros H Ha.
  destruct (lower_bound _ _ _) as [w1 lb] eqn:E1. destruct (upper_bound _ _ _) as [w2 ub] eqn:E2.
  assert (H2 : vb_history w2).
  { eapply vh_upper'; [eassumption|]. eapply vh_lower'; [eassumption|]. apply Ha. }
  assert (L2 : lh (with_bd a (bd_set (l_bd a) x w2))) by (apply bh_set; auto).
  destruct lb as [lb|]; [|fin]. destruct ub as [ub|]; [|fin].
  destruct (_ || _); [fin|]. destruct (inequality _ _ _ _) as [w3 n] eqn:E3.
  assert (L3 : lh (with_bd (with_bd a (bd_set (l_bd a) x w2)) (bd_set (bd_set (l_bd a) x w2) x w3))).
  { apply bh_set; [exact L2|]. eapply vh_neq'; eauto. }
  destruct n as [n|]; [|fin]. binv H.
  repeat match goal with E : neq_side _ _ _ _ _ _ _ _ _ = _ |- _ => apply neq_side_bh in E end.
  injection H as <- _ _. unfold lh.
  repeat match goal with E : l_bd _ = l_bd _ |- _ => rewrite E; clear E end. exact L3.
Qed.
Lemma check_bounds_bh a t x a' t' o : check_bounds hi hv opt a t x = Ok (a', t', o) -> lh a -> lh a'.
Proof.
  unfold check_bounds. intros H Ha. binv H. apply bound_conflict_bh in Eq; auto.
  destruct o0; [fin|]. eapply neq_conflict_bh; eauto.
Qed.
Lemma effectively_bh a t x a' b : effectively_decided a t x = (a', b) -> lh a -> lh a'.
Proof.
  unfold effectively_decided. destruct (mdef _ _); [fin|]. intros H Ha.
  destruct (lower_bound _ _ _) as [w1 lb] eqn:E1. apply vh_lower' in E1; [|apply Ha].
  destruct lb as [lb|]; [|injection H as <- _; apply bh_set; auto].
  destruct (upper_bound _ _ _) as [w2 ub] eqn:E2. apply vh_upper' in E2; [|exact E1].
  injection H as <- _. apply bh_set; auto.
Qed.
Lemma finish_loop_bh : forall vs k a t acc a' t' cs,
  finish_loop hi hv opt vs k a t acc = Ok (a', t', cs) -> lh a -> lh a'.
Proof.
  induction vs as [|x vs IH]; intros k a t acc a' t' cs; cbn [finish_loop]; intros H Ha; [fin|].
  destruct (existsb _ _); [eauto|]. binv H. apply check_bounds_bh in Eq; auto. destruct o as [c|].
  - destruct (o_all opt); [eauto|fin].
  - destruct (if o_rational opt then _ else _) as [a2 b] eqn:E.
    assert (lh a2) by (destruct (o_rational opt); [eapply effectively_bh; eauto|fin]).
    eapply IH; [exact H|]. destruct b; exact H0.
Qed.
Lemma propagate_bh a t a' t' cs : lra_propagate hi hv opt a t = Ok (a', t', cs) -> lh a -> lh a'.
Proof.
  unfold lra_propagate. intros H Ha. destruct (cursor_assigned _ _) as [cur es]. binv H.
  apply lra_vars_bh in Eq; [|exact Ha].
  assert (A2 : lh a1) by (destruct (o_bounds opt); [eapply propagate_bounds_bh; eauto|fin]).
  assert (A3 : lh l0).
  { destruct (o_unassigned opt); [|fin]. unfold propagate_unassigned in Eq1.
    destruct (_ =? _); [fin|]. destruct (rev _) as [|[[i|x] r] es']; try fin.
    eapply unassigned_loop_bh; eauto. }
  unfold lra_finish in H. destruct (bd_changed _) as [B ch] eqn:E. binv H. injection H as <- _ _.
  match goal with F : finish_loop _ _ _ _ _ _ _ _ = _ |- _ => eapply finish_loop_bh in F; [exact F|] end.
  unfold bd_changed in E. injection E as <- _. exact A3.
Qed.
End H.

Lemma loops_bh s t : forall fuel,
  (forall w v len w' o, around_zero fuel s t w v len = Ok (w', o) -> vb_history w -> vb_history w') /\
  (forall w v w' o, all_integers fuel s t w v = Ok (w', o) -> vb_history w -> vb_history w') /\
  (forall w v d w' o, walk fuel s t w v d = Ok (w', o) -> vb_history w -> vb_history w') /\
  (forall w f v d w' o, walk_within fuel s t w f v d = Ok (w', o) -> vb_history w -> vb_history w') /\
  (forall w v l w' o, halve fuel s t w v l = Ok (w', o) -> vb_history w -> vb_history w').
Proof.
  induction fuel as [|fuel (I1 & I2 & I3 & I4 & I5)]; [repeat split; discriminate|].
  repeat split; intros *; cbn [around_zero all_integers walk walk_within halve]; intros H Hw;
    repeat match type of H with
    | (if ?b then _ else _) = _ => destruct b
    | (let '(_, _) := is_allowed ?s ?t ?w ?v in _) = _ =>
        let E := fresh "E" in let w' := fresh "w" in destruct (is_allowed s t w v) as [w' ?] eqn:E;
        apply vh_allowed in E; [|assumption]
    end; try (injection H as <- _; assumption); eauto.
Qed.
Lemma find_integer_bh fuel s t w w' o : find_integer fuel s t w = Ok (w', o) -> vb_history w -> vb_history w'.
Proof.
  unfold find_integer. intros H Hw. destruct (loops_bh s t fuel) as (I1 & I2 & I3 & I4 & _).
  destruct (lower_bound _ _ _) as [w1 lb] eqn:E1. apply vh_lower' in E1; auto.
  destruct (upper_bound _ _ _) as [w2 ub] eqn:E2. apply vh_upper' in E2; auto.
  destruct lb as [lb|], ub as [ub|].
  - destruct (Qle_bool 0 _); [binv H; eauto|]. destruct (Qle_bool _ 0); binv H; eauto.
  - binv H. destruct o0; [injection H as <- _; eauto|]. binv H. injection H as <- _. eauto.
  - binv H. destruct o0; [injection H as <- _; eauto|]. binv H. injection H as <- _. eauto.
  - binv H. injection H as <- _. eauto.
Qed.
Lemma decide_bh fuel a t v a' t' : lra_decide fuel a t v = Ok (a', t') -> lh a -> lh a'.
Proof.
  unfold lra_decide. destruct v as [i|x]; [fin|]. intros H Ha. binv H. injection H as <- _.
  assert (vb_history v).
  { unfold pick_value in Eq. destruct (is_allowed _ _ _ _) as [w1 b1] eqn:E1.
    apply vh_allowed in E1; [|apply Ha]. destruct b1; [fin|]. binv Eq.
    apply find_integer_bh in Eq0; auto. destruct o; [fin|].
    destruct (lower_bound _ _ _) as [w3 lb] eqn:E3. apply vh_lower' in E3; auto.
    destruct (upper_bound _ _ _) as [w4 ub] eqn:E4. apply vh_upper' in E4; auto.
    binv Eq. destruct (loops_bh (l_st a) t fuel) as (_ & _ & _ & _ & I5). eauto. }
  apply vh_allowed in Ep0; auto. repeat apply bh_set; auto.
Qed.

Lemma history_bh hi hv opt a : lra_history hi hv opt a -> forall x, vb_history (bd_of (l_bd a) x).
Proof.
  induction 1 as [|a t ts p rhs a' t' c _ IH E|a t a' t' cs _ IH E|a t fuel v a' t' _ IH E|a _ IH].
  - intros x. constructor.
  - apply constraint_bh in E. rewrite E. exact IH.
  - apply propagate_bh in E; auto.
  - apply decide_bh in E; auto.
  - exact IH.
Qed.
