(** Checking the changed bounds keeps the invariants and, without a conflict, leaves a value for every variable. *)
From Coq Require Import List Arith ZArith QArith Bool Lia Permutation Lqa Sorted.
From Verif Require Import Base Core_Model Analysis_Model Bool_Model Sat_Base Sat_Inv Sat_Trail Sort_Proofs
  Trail_Model Spec_Trail Trail_Proofs Solver_Model Spec_Theory Theory_Inv Theory_Bool Comb_Bcp Comb_Safe1
  Lincons_Model Spec_Lincons Lincons_Proofs Lincons_Proofs2 Lra_Model Spec_Lra Lra_Fm Lra_Bounds Lra_Hist Lra_Steps Lra_Keep
  Lra_Range Lra_Good Lra_Good2 Lra_Confl Lra_Watch Lra_Watch2 Lra_Safe1 Lra_Safe2 Lra_Cut Lra_Cut2 Lra_Cut3 Lra_Safe3 Lra_Safe4 Lra_Safe5.
Import ListNotations.
Open Scope nat_scope.

Lemma unique_nat_in l x : In x (unique_nat l) <-> In x l.
Proof.
  induction l as [|a l IH]; [reflexivity|]. cbn [unique_nat]. destruct l as [|b l]; [reflexivity|].
  destruct (Nat.eqb_spec a b) as [E|N].
  - subst b. rewrite IH. cbn. tauto.
  - cbn [In] in *. rewrite IH. tauto.
Qed.
Section Finish.
Variables (hi : nat -> Z) (hv : Q -> Z) (opt : lopt).
Notation ent := (fun _ : lit => False).
Notation d0 := (mkDb [] []).
Definition FA (a : lra) (t : trail) : Prop := wsi a /\ JO (l_st a) (l_watch a) t /\ FI (l_st a) (l_watch a) t (l_bd a).
Definition FS (a : lra) (t : trail) (a' : lra) (t' : trail) : Prop :=
  FA a' t' /\ bd_upd (l_bd a') = bd_upd (l_bd a).
(** no conflict: only obsolete bounds are removed *)
Definition FN (a : lra) (t : trail) (a' : lra) (t' : trail) : Prop :=
  t' = t /\ l_st a' = l_st a /\ l_watch a' = l_watch a /\ forall y, fe (l_st a) t (l_bd a) y -> fe (l_st a) t (l_bd a') y.
Lemma FA_query a t x w : FA a t -> vq (l_st a) t (bd_of (l_bd a) x) w -> FA (with_bd a (bd_set (l_bd a) x w)) t.
Proof. intros (A & B & C) Q. split; [now apply wsi_bd|]. split; [exact B|]. now apply FI_query. Qed.
Lemma FN_query a t x w : FA a t -> vq (l_st a) t (bd_of (l_bd a) x) w -> FN a t (with_bd a (bd_set (l_bd a) x w)) t.
Proof. intros (A & B & C) Q. repeat split; auto. intros y. apply (vq_fe (l_st a) t t); auto; [apply C|apply tlater_refl]. Qed.
Lemma FN_trans a t a1 t1 a2 t2 : FN a t a1 t1 -> FN a1 t1 a2 t2 -> FN a t a2 t2.
Proof. intros (A1 & A2 & A3 & A4) (B1 & B2 & B3 & B4). subst t1 t2. rewrite A2 in *. split; auto. split; [congruence|]. split; [congruence|auto]. Qed.
Lemma fm_finish_FS a t f a' t' c : FA a t -> fm_wf f -> fm_finish hi hv opt a t f = Ok (a', t', c) -> FS a t a' t'.
Proof.
  intros (A & J & F) Hw H. destruct (fm_finish_FI hi hv opt a t f a' t' c A J Hw F H) as [F' U].
  destruct (fm_finish_ok hi hv opt d0 ent a t f a' t' c A J Hw H) as (A' & J' & _). split; [split; auto|auto].
Qed.
Lemma FS_trans a t a1 t1 a2 t2 : FS a t a1 t1 -> FS a1 t1 a2 t2 -> FS a t a2 t2.
Proof. intros (A & B) (C & D). split; auto. congruence. Qed.
Lemma FS_query a t x w : FA a t -> vq (l_st a) t (bd_of (l_bd a) x) w -> FS a t (with_bd a (bd_set (l_bd a) x w)) t.
Proof. intros F Q. split; [now apply FA_query|auto]. Qed.

Definition apart (s : store) (t : trail) (w : vbounds) : Prop :=
  forall lb ub, snd (lower_bound s t w) = Some lb -> snd (upper_bound s t w) = Some ub ->
    (b_val lb < b_val ub)%Q \/ ((b_val lb == b_val ub)%Q /\ b_strict lb = false /\ b_strict ub = false).
Lemma bound_conflict_FS a t x a' t' o : FA a t -> bound_conflict hi hv opt a t x = Ok (a', t', o) ->
  FS a t a' t' /\ (o = None -> FN a t a' t' /\ apart (l_st a) t (bd_of (l_bd a') x)).
Proof.
  intros HF H. unfold bound_conflict in H.
  destruct (lower_bound _ _ _) as [w1 lb] eqn:E1. destruct (upper_bound _ _ _) as [w2 ub] eqn:E2.
  assert (V : vq (l_st a) t (bd_of (l_bd a) x) w2) by (eapply vq_trans; [eapply vq_lower'|eapply vq_upper']; eauto).
  pose proof (FS_query a t x w2 HF V) as F0. pose proof (FN_query a t x w2 HF V) as N0.
  assert (VV : view (l_st a) t w2 = view (l_st a) t (bd_of (l_bd a) x) /\ view (l_st a) t w1 = view (l_st a) t (bd_of (l_bd a) x)).
  { pose proof (view_lower (l_st a) t (bd_of (l_bd a) x)) as X. rewrite E1 in X. pose proof (view_upper (l_st a) t w1) as Y. rewrite E2 in Y. cbn [fst] in *. split; congruence. }
  assert (LE : snd (lower_bound (l_st a) t w2) = lb) by (rewrite lower_view, (proj1 VV), <- lower_view, E1; reflexivity).
  assert (UE : snd (upper_bound (l_st a) t w2) = ub) by (rewrite upper_view, (proj1 VV), <- (proj2 VV), <- upper_view, E2; reflexivity).
  assert (Ebd : bd_of (bd_set (l_bd a) x w2) x = w2) by (unfold bd_set; cbn; apply upd_eq).
  destruct lb as [lb|]; [|inversion H; subst; split; auto; intros _; split; auto; cbn [with_bd l_bd]; rewrite Ebd; intros lb ub' X; congruence].
  destruct ub as [ub|]; [|inversion H; subst; split; auto; intros _; split; auto; cbn [with_bd l_bd]; rewrite Ebd; intros lb' ub' _ X; congruence].
  destruct (_ || _) eqn:Eb.
  - inversion H; subst. split; auto. intros _. split; auto. cbn [with_bd l_bd]. rewrite Ebd. intros lb' ub' X Y. rewrite LE in X. rewrite UE in Y. injection X as <-. injection Y as <-.
    apply orb_true_iff in Eb. destruct Eb as [Eb|Eb]; [left; now apply qltb_lt|right]. apply andb_true_iff in Eb. destruct Eb as [B1 B2].
    apply Qeq_bool_iff in B1. apply negb_true_iff, orb_false_iff in B2. tauto.
  - binv H.
    match goal with R : fm_resolve _ _ _ = Ok ?f, E : fm_finish _ _ _ _ _ ?f = _ |- _ =>
      apply fm_finish_FS in E; [|apply F0|eapply resolve_vars; eauto]; rename E into F1 end.
    inversion H; subst. split; [|discriminate]. eapply FS_trans; [exact F0|exact F1].
Qed.
Lemma neq_side_FS a t n b m cl a' t' cl' : FA a t -> neq_side hi hv opt a t n b m cl = Ok (a', t', cl') -> FS a t a' t'.
Proof.
  intros HF H. unfold neq_side in H. binv H.
  match goal with R : fm_resolve _ _ _ = Ok ?f, E : fm_finish _ _ _ _ _ ?f = _ |- _ =>
    apply fm_finish_FS in E; [|exact HF|eapply resolve_vars; eauto]; rename E into F1 end.
  destruct (lc_empty _); binv H; inversion H; subst; exact F1.
Qed.
Lemma neq_conflict_FS a t x a' t' o : FA a t -> apart (l_st a) t (bd_of (l_bd a) x) -> neq_conflict hi hv opt a t x = Ok (a', t', o) ->
  FS a t a' t' /\ (o = None -> FN a t a' t' /\ fe (l_st a) t (l_bd a') x).
Proof.
  intros HF HA H. unfold neq_conflict in H.
  destruct (lower_bound _ _ _) as [w1 lb] eqn:E1. destruct (upper_bound _ _ _) as [w2 ub] eqn:E2.
  assert (V : vq (l_st a) t (bd_of (l_bd a) x) w2) by (eapply vq_trans; [eapply vq_lower'|eapply vq_upper']; eauto).
  pose proof (FS_query a t x w2 HF V) as F0. pose proof (FN_query a t x w2 HF V) as N0.
  assert (VV : view (l_st a) t w1 = view (l_st a) t (bd_of (l_bd a) x)).
  { pose proof (view_lower (l_st a) t (bd_of (l_bd a) x)) as X. rewrite E1 in X. exact X. }
  assert (LE : snd (lower_bound (l_st a) t (bd_of (l_bd a) x)) = lb) by (rewrite E1; reflexivity).
  assert (UE : snd (upper_bound (l_st a) t (bd_of (l_bd a) x)) = ub) by (rewrite upper_view, <- VV, <- upper_view, E2; reflexivity).
  pose proof (li_h _ _ _ (F_l _ _ _ _ (proj2 (proj2 HF))) x) as HH.
  unfold apart in HA. rewrite LE, UE in HA.
  assert (FR : (forall lb' ub', lb = Some lb' -> ub = Some ub' -> (b_val lb' < b_val ub')%Q \/
     (b_val lb' == b_val ub')%Q /\ b_strict lb' = false /\ b_strict ub' = false /\
     forall b, In b (vb_neq (bd_of (l_bd a) x)) -> is_obsolete (l_st a) t b = false -> differs b (b_val lb')) -> fe (l_st a) t (l_bd a) x).
  { intros C. apply free_value; auto. intros lb' ub' X Y. rewrite LE in X. rewrite UE in Y. auto. }
  destruct lb as [lb|]; [|inversion H; subst; split; auto; intros _; split; auto; apply N0, FR; intros; congruence].
  destruct ub as [ub|]; [|inversion H; subst; split; auto; intros _; split; auto; apply N0, FR; intros; congruence].
  destruct (_ || _) eqn:Eb.
  { inversion H; subst. split; auto. intros _. split; auto. apply N0, FR. intros lb' ub' X Y. injection X as <-. injection Y as <-.
    destruct (HA lb ub eq_refl eq_refl) as [L|(E & S1 & S2)]; [auto|]. exfalso. apply Qeq_bool_iff in E. rewrite E in Eb. cbn [negb orb] in Eb.
    unfold b_strict in S1, S2. apply orb_false_iff in S1. apply orb_false_iff in S2. destruct S1 as [S1 _], S2 as [S2 _]. rewrite S1, S2 in Eb. discriminate. }
  destruct (inequality _ _ _ _) as [w3 n] eqn:E3.
  assert (V3 : vq (l_st a) t (bd_of (bd_set (l_bd a) x w2) x) w3).
  { replace (bd_of (bd_set (l_bd a) x w2) x) with w2 by (unfold bd_set; cbn; symmetry; apply upd_eq). eapply vq_neq'; eauto. }
  set (a0 := with_bd a (bd_set (l_bd a) x w2)) in *.
  pose proof (FS_query a0 t x w3 (proj1 F0) V3) as F1. pose proof (FN_query a0 t x w3 (proj1 F0) V3) as N1.
  destruct n as [nq|].
  - binv H.
    match goal with E : neq_side _ _ _ (with_bd _ _) _ _ _ _ _ = _ |- _ => apply neq_side_FS in E; [rename E into F2|apply F1] end.
    match goal with E : neq_side _ _ _ _ _ _ _ _ _ = _ |- _ => apply neq_side_FS in E; [rename E into F3|apply F2] end.
    inversion H; subst. split; [|discriminate]. eapply FS_trans; [exact F0|]. eapply FS_trans; [exact F1|]. eapply FS_trans; [exact F2|exact F3].
  - inversion H; subst. split; [eapply FS_trans; [exact F0|exact F1]|]. intros _. pose proof (FN_trans _ _ _ _ _ _ N0 N1) as N2. split; [exact N2|].
    apply N2, FR. intros lb' ub' X Y. injection X as <-. injection Y as <-.
    destruct (HA lb ub eq_refl eq_refl) as [L|(E & S1 & S2)]; [auto|]. right. split; auto. split; auto. split; auto.
    intros b Hb O. unfold inequality in E3. injection E3 as _ E3.
    assert (Hn : vb_neq w2 = vb_neq (bd_of (l_bd a) x)).
    { unfold upper_bound in E2. injection E2 as <- _. unfold lower_bound in E1. injection E1 as <- _. reflexivity. }
    rewrite Hn in E3. pose proof (find_none _ _ E3 b) as X. cbn beta in X. unfold differs. apply Qeq_bool_neq. apply X. apply filter_In. now rewrite O.
Qed.
Lemma check_bounds_FS a t x a' t' o : FA a t -> check_bounds hi hv opt a t x = Ok (a', t', o) ->
  FS a t a' t' /\ (o = None -> FN a t a' t' /\ fe (l_st a) t (l_bd a') x).
Proof.
  intros HF H. unfold check_bounds in H. binv H. apply bound_conflict_FS in Eq; auto. destruct Eq as [F1 N1].
  destruct o0 as [c|]; [inversion H; subst; split; [exact F1|discriminate]|]. destruct (N1 eq_refl) as [N2 Ap]. clear N1.
  destruct N2 as (-> & Es & Ew & Fe). rewrite <- Es in Ap. apply neq_conflict_FS in H; [|apply F1|exact Ap].
  destruct H as [F2 N3]. split; [eapply FS_trans; eauto|]. intros E. destruct (N3 E) as [N4 Fx]. rewrite Es in Fx. split; auto.
  eapply FN_trans; [|exact N4]. split; auto.
Qed.
Lemma noted_FS a t x a2 b : FA a t -> (if o_rational opt then effectively_decided a t x else (a, false)) = (a2, b) ->
  let a3 := if b then with_decided a2 (l_decided a2 ++ [x]) else a2 in FS a t a3 t /\ FN a t a3 t.
Proof.
  intros HF E a3.
  assert (X : FS a t a2 t /\ FN a t a2 t).
  { assert (R : FS a t a t /\ FN a t a t) by (split; [split; auto|repeat split; auto]).
    destruct (o_rational opt); [|inversion E; subst; exact R].
    apply effectively_eq in E. destruct E as (w & V & [->| ->]); [exact R|]. split; [now apply FS_query|now apply FN_query]. }
  unfold a3. destruct b; [|exact X]. destruct X as [[(W & J & F) U] (N1 & N2 & N3 & N4)].
  split; [split; [split; [destruct W; constructor; auto|split; auto]|exact U]|repeat split; auto].
Qed.
Lemma finish_loop_FS : forall vs k a t acc a' t' cs, FA a t ->
  finish_loop hi hv opt vs k a t acc = Ok (a', t', cs) ->
  FS a t a' t' /\ (cs = [] -> (forall x, In x k -> fe (l_st a) t (l_bd a) x) ->
     FN a t a' t' /\ forall x, In x vs -> fe (l_st a) t (l_bd a') x).
Proof.
  induction vs as [|x vs IH]; intros k a t acc a' t' cs HF; cbn [finish_loop]; intros H.
  { inversion H; subst. split; [split; auto|]. intros _ _. split; [repeat split; auto|easy]. }
  destruct (existsb _ _) eqn:Ex.
  { destruct (IH _ _ _ _ _ _ _ HF H) as [F1 N1]. split; auto. intros E K. destruct (N1 E K) as [N2 V2]. split; auto.
    intros y [<-|Hy]; [|auto]. apply existsb_exists in Ex. destruct Ex as (z & Hz & E1). apply Nat.eqb_eq in E1. subst z.
    apply N2. auto. }
  binv H. pose proof Eq as Eq'. apply check_bounds_FS in Eq; auto. destruct Eq as [F1 N1].
  destruct o as [c|].
  - destruct (o_all opt).
    + destruct (IH _ _ _ _ _ _ _ (proj1 F1) H) as [F2 _]. split; [eapply FS_trans; eauto|]. intros -> _.
      apply (finish_loop_ok hi hv opt d0 ent) in H; [|apply F1|apply F1]. destruct H as [_ H]. destruct (H eq_refl) as [_ X]. now destruct acc.
    + inversion H; subst. split; auto. intros N. now destruct acc.
  - destruct (if o_rational opt then _ else _) as [a2 b] eqn:Er. destruct (noted_FS _ _ _ _ _ (proj1 F1) Er) as [F3 N0].
    set (a3 := if b then _ else _) in *. clearbody a3. clear Er.
    destruct (IH _ _ _ _ _ _ _ (proj1 F3) H) as [F2 N2]. split; [eapply FS_trans; [exact F1|]; eapply FS_trans; eauto|].
    intros E K. destruct (N1 eq_refl) as [N3 Fx]. pose proof (FN_trans _ _ _ _ _ _ N3 N0) as N03. pose proof N03 as (-> & Es & Ew & Fe). rewrite Es in N2.
    assert (Fx3 : fe (l_st a) t (l_bd a3) x) by (destruct N0 as (_ & _ & _ & Z); destruct N3 as (_ & Es1 & _); rewrite Es1 in Z; auto).
    destruct (N2 E) as [N4 V4].
    { intros y [<-|Hy]; auto. }
    pose proof (FN_trans _ _ _ _ _ _ N03 N4) as N5. split; [exact N5|]. intros y [<-|Hy]; [|auto].
    destruct N4 as (_ & _ & _ & X). rewrite Es in X. auto.
Qed.
Lemma finish_FS a t a' t' cs : FA a t -> (forall x, fe (l_st a) t (l_bd a) x \/ In x (bd_upd (l_bd a))) ->
  lra_finish hi hv opt a t = Ok (a', t', cs) ->
  FA a' t' /\ bd_upd (l_bd a') = [] /\ (cs = [] -> t' = t /\ forall x, fe (l_st a') t' (l_bd a') x).
Proof.
  intros HF Hx H. unfold lra_finish, bd_changed in H. cbn zeta in H. binv H. inversion H; subst. clear H.
  set (a0 := with_bd a (mkBd (bd_of (l_bd a)) [])) in *.
  assert (F0 : FA a0 t).
  { destruct HF as (A & J & [B1 B3 B4 B5 B6 B7]). split; [now apply wsi_bd|]. split; [exact J|]. constructor; auto. now apply linv_upd. }
  apply finish_loop_FS in Eq; auto. destruct Eq as [(F1 & U1) N1]. split; [|split; [exact U1|]].
  - destruct F1 as (A & J & F). split; [destruct A; constructor; auto|]. split; auto.
  - intros E. destruct (N1 E ltac:(easy)) as [N2 V2]. pose proof N2 as (-> & Es & _ & Fe). split; auto. cbn [with_check l_st l_bd]. rewrite Es.
    intros x. destruct (Hx x) as [X|X]; [apply Fe; exact X|]. apply V2. apply in_app_iff. right. apply unique_nat_in. eapply Permutation_in; [apply sort_perm|exact X].
Qed.
End Finish.
