(** Unit constraints and their bounds, now and at the lower decision levels. *)
From Coq Require Import List Arith ZArith QArith Bool Lia Permutation Lqa.
From Verif Require Import Base Core_Model Analysis_Model Bool_Model Sat_Base Sat_Inv Sat_Trail Sort_Proofs
  Trail_Model Spec_Trail Trail_Proofs Solver_Model Spec_Theory Theory_Inv Theory_Bool Comb_Bcp
  Lincons_Model Spec_Lincons Lincons_Proofs Lincons_Proofs2 Lra_Model Spec_Lra Lra_Fm Lra_Bounds Lra_Hist Lra_Steps Lra_Keep
  Lra_Range Lra_Good Lra_Good2 Lra_Confl Lra_Watch Lra_Watch2 Lra_Cut.
Import ListNotations.
Open Scope nat_scope.

(** the values permitted for the last unassigned variable of constraint [i] make it agree with its literal *)
Definition Ui (s : store) (t : trail) (B : bnds) (i : nat) : Prop :=
  forall x, In x (cv s i) -> mdef (t_qm t) x = false -> (forall y, In y (cv s i) -> y <> x -> mdef (t_qm t) y = true) ->
    mdef (t_bm t) i = true -> forall v, permitted s t (bd_of B x) v ->
    (mval (t_bm t) i = true <-> stored_holds (upd (mval (t_qm t)) x v) s i).
Definition fe (s : store) (t : trail) (B : bnds) (x : nat) : Prop := exists v, permitted s t (bd_of B x) v.
Definition Qi (s : store) (t : trail) (B : bnds) : Prop := (forall i, isC s i -> Ui s t B i) /\ forall x, fe s t B x.

Lemma Ui_full s t B i : (forall y, In y (cv s i) -> mdef (t_qm t) y = true) -> Ui s t B i.
Proof. intros H x Hx D. rewrite (H x Hx) in D. discriminate. Qed.
Lemma Ui_undef s t B i : mdef (t_bm t) i = false -> Ui s t B i.
Proof. intros H x _ _ _ D. congruence. Qed.
Lemma Ui_two s t B i v r : In v (cv s i) -> In r (cv s i) -> v <> r -> mdef (t_qm t) v = false -> mdef (t_qm t) r = false -> Ui s t B i.
Proof.
  intros Hv Hr N Dv Dr x Hx D A. destruct (Nat.eq_dec x v) as [->|Nx].
  - rewrite (A r Hr) in Dr; [discriminate|auto].
  - rewrite (A v Hv) in Dv; [discriminate|auto].
Qed.

(** permitted values do not change when the trail only gets boolean variables *)
Lemma perm_env s s' t t' B x v : linv s t B -> sinv s' -> grows s s' -> bext t t' -> tlater t t' ->
  (permitted s t (bd_of B x) v <-> permitted s' t' (bd_of B x) v).
Proof.
  intros [I1 I2 I3 I4 I5 I6 I7] S' G X L. rewrite !permitted_iff. split; intros [A C]; split.
  - intros up b Hb O. apply A; auto. destruct (I4 up x b Hb) as [_ Gd]. eapply (obs_mono s s' t t'); eauto.
  - intros b Hb O. apply C; auto. destruct (I6 x b Hb) as [_ Gd]. eapply (neq_mono s s' t t'); eauto.
  - intros up b Hb O. apply A; auto. destruct (I4 up x b Hb) as [_ Gd]. eapply (obs_ext s s' t t'); eauto.
  - intros b Hb O. apply C; auto. destruct (I6 x b Hb) as [_ Gd]. eapply (neq_ext s s' t t'); eauto.
Qed.
Lemma cv_grows s s' i : sinv s -> sinv s' -> grows s s' -> isC s i -> forall v, In v (cv s' i) <-> In v (cv s i).
Proof.
  intros S1 S2 G He. pose proof (stored_get s i S1 He) as Hc. pose proof (get_lord s i S1 He) as Ei.
  pose proof (stored_grows _ _ _ G Hc) as Hc'. destruct (stored_cv s' _ S2 Hc') as [E1 _]. rewrite Ei in E1.
  unfold cv at 2. rewrite <- E1. rewrite !lc_vars_terms by auto. intros v. pose proof (Permutation_map fst (stored_terms s s' _ G Hc)) as P.
  split; intros H; eapply Permutation_in; [apply Permutation_sym, P| |exact P|]; auto.
Qed.
Lemma isC_grows s s' i : sinv s -> sinv s' -> grows s s' -> isC s i -> isC s' i.
Proof.
  intros S1 S2 G He. pose proof (stored_get s i S1 He) as Hc. pose proof (get_lord s i S1 He) as Ei.
  pose proof (stored_grows _ _ _ G Hc) as Hc'. destruct (stored_cv s' _ S2 Hc') as [_ E2]. rewrite Ei in E2. now apply E2.
Qed.
Lemma lin_upd_ext r r' x v ts : (forall y k, In (y, k) ts -> y <> x -> (r y == r' y)%Q) -> (lin (upd r x v) ts == lin (upd r' x v) ts)%Q.
Proof. intros H. apply lin_ext_in. intros y k Hy. unfold upd. destruct (Nat.eqb_spec y x); [reflexivity|eauto]. Qed.
Lemma stored_upd_ext s r r' x v i : sinv s -> (forall y, In y (cv s i) -> y <> x -> r y = r' y) ->
  stored_holds (upd r x v) s i <-> stored_holds (upd r' x v) s i.
Proof.
  intros HS H. unfold stored_holds. apply rel_morph; [|reflexivity]. apply lin_upd_ext. intros y k Hy N. rewrite (H y); [reflexivity| |auto].
  unfold cv. rewrite lc_vars_terms by auto. apply (in_map fst) in Hy. exact Hy.
Qed.
Lemma Ui_env s s' t t' B i : linv s t B -> sinv s' -> grows s s' -> bext t t' -> tlater t t' -> isC s i ->
  (mdef (t_bm t') i = true -> mdef (t_bm t) i = true) -> Ui s t B i -> Ui s' t' B i.
Proof.
  intros I S' G X L Hi HB U x Hx D A Db v P. pose proof (li_s _ _ _ I) as HS.
  pose proof (cv_grows s s' i HS S' G Hi) as C. apply C in Hx. rewrite (bx_q _ _ X) in D.
  assert (A' : forall y, In y (cv s i) -> y <> x -> mdef (t_qm t) y = true) by (intros y Hy N; rewrite <- (bx_q _ _ X); apply A; auto; now apply C).
  specialize (HB Db). apply (perm_env s s' t t') in P; auto. specialize (U x Hx D A' HB v P).
  destruct (bx_b _ _ X i HB) as (_ & E & _). rewrite E, U, (stored_holds_grows s s') by auto.
  apply stored_upd_ext; auto. intros y Hy N. symmetry. apply (bx_v _ _ X). auto.
Qed.
Lemma fe_env s s' t t' B x : linv s t B -> sinv s' -> grows s s' -> bext t t' -> tlater t t' -> fe s t B x -> fe s' t' B x.
Proof. intros I S' G X L (v & P). exists v. now apply (perm_env s s' t t'). Qed.

(** a constraint and its literal *)
Lemma cons_iff s c (bm : model bool) r : sinv s -> stored s c -> eval_lit bm (lc_lit c) = Some true ->
  (lc_holds s r c <-> (mval bm (lord (lc_lit c)) = true <-> stored_holds r s (lord (lc_lit c)))).
Proof.
  intros HS Hc E. destruct (stored_get_eq s c HS Hc) as (E1 & E2 & E3). unfold stored_holds, lc_holds. rewrite E2, E3, (terms_pos s _ c E1).
  unfold eval_lit in E. destruct (mdef bm _); [|discriminate]. injection E as E. destruct (mval bm _), (lneg (lc_lit c)); cbn in E; try discriminate; intuition congruence.
Qed.
Lemma live_lit s t b : is_obsolete s t b = false -> eval_lit (t_bm t) (lc_lit (b_cons b)) = Some true.
Proof.
  rewrite obsolete_eq. unfold node_obs. rewrite !orb_false_iff. intros [[[A _] _] _]. apply negb_false_iff in A.
  destruct (eval_lit _ _) as [[|]|]; cbn in A; congruence.
Qed.
Lemma live_others s t b y : b_deps b = [] -> is_obsolete s t b = false -> In y (lc_vars s (b_cons b)) -> y <> b_var b -> mdef (t_qm t) y = true.
Proof.
  intros D O Hy N. rewrite obsolete_eq, D, orb_false_r in O. unfold node_obs in O. apply orb_false_iff in O. destruct O as [_ O].
  destruct (mdef (t_qm t) y) eqn:E; auto. rewrite <- not_true_iff_false in O. exfalso. apply O. apply existsb_exists. exists y. split; auto.
  unfold other. rewrite D, E. apply Nat.eqb_neq in N. rewrite N. reflexivity.
Qed.
Lemma lit_neg_lord c : lord (lc_lit (lc_neg c)) = lord (lc_lit c).
Proof. reflexivity. Qed.

Section Upd.
Variables (s : store) (t : trail) (c : lcons) (B B' : bnds) (x : nat).
Hypothesis I : linv s t B.
Hypothesis I' : linv s t B'.
Hypothesis Hc : stored s c.
Hypothesis He : lc_empty c = false.
Hypothesis U : upds s t c B B' x.

(** [t'] is a lower level *)
Lemma upd_perm t' y v : tlater t t' -> permitted s t' (bd_of B' y) v -> permitted s t' (bd_of B y) v.
Proof.
  intros L. destruct (Nat.eq_dec y x) as [->|N]; [|rewrite (us_oth _ _ _ _ _ _ U) by auto; auto].
  rewrite !permitted_iff. intros [A C]. pose proof (li_s _ _ _ I) as HS. split.
  - intros up b Hb O. apply A; auto. apply (us_keep _ _ _ _ _ _ U); auto. destruct (li_good _ _ _ I up x b Hb) as [_ G].
    eapply (obs_mono s s t t'); eauto using grows_refl.
  - intros b Hb O. apply C; auto. apply (us_nkeep _ _ _ _ _ _ U); auto. destruct (li_neq _ _ _ I x b Hb) as [_ G].
    eapply (neq_mono s s t t'); eauto using grows_refl.
Qed.
Lemma upd_Ui t' i : tlater t t' -> Ui s t' B i -> Ui s t' B' i.
Proof. intros L H y Hy D A Db v P. apply (H y Hy D A Db v). now apply upd_perm. Qed.

Lemma new_iff b t' v : (b_cons b = c \/ b_cons b = lc_neg c) -> b_deps b = [] -> b_var b = x -> is_obsolete s t' b = false -> mdef (t_qm t') x = false ->
  Ui s t' B (lord (lc_lit c)) -> permitted s t' (bd_of B x) v -> lc_holds s (upd (mval (t_qm t')) x v) (b_cons b).
Proof.
  intros Hb D Ex O Dx H P. pose proof (li_s _ _ _ I) as HS. pose proof (live_lit _ _ _ O) as El.
  assert (Hcb : stored s (b_cons b)) by (destruct Hb as [->| ->]; auto using stored_neg).
  assert (EL : lord (lc_lit (b_cons b)) = lord (lc_lit c)) by (destruct Hb as [->| ->]; reflexivity).
  apply (cons_iff s _ (t_bm t')); auto. rewrite EL. destruct (us_vars _ _ _ _ _ _ U) as (rest & Ev & _).
  pose proof (proj1 (stored_cv s c HS Hc)) as Ec.
  assert (EV : lc_vars s (b_cons b) = lc_vars s c) by (destruct Hb as [->| ->]; reflexivity).
  apply (H x); auto.
  - rewrite <- Ec, Ev. now left.
  - intros y Hy N. apply (live_others s t' b); auto; [rewrite EV, Ec; exact Hy|congruence].
  - unfold eval_lit in El. rewrite EL in El. destruct (mdef (t_bm t') (lord (lc_lit c))); [auto|discriminate].
Qed.
Lemma upd_Q t' : tlater t t' -> restr (t_qm t) (t_qm t') -> Qi s t' B -> Qi s t' B'.
Proof.
  intros L R [Q1 Q2]. pose proof (li_s _ _ _ I) as HS. split; [intros i Hi; apply upd_Ui; auto|].
  assert (Dx : mdef (t_qm t') x = false).
  { destruct (mdef (t_qm t') x) eqn:E; auto. destruct R as [_ R]. destruct (R x E) as (D & _). rewrite (us_x _ _ _ _ _ _ U) in D. discriminate. }
  intros y. destruct (Q2 y) as (v & P). exists v. destruct (Nat.eq_dec y x) as [->|N]; [|rewrite (us_oth _ _ _ _ _ _ U) by auto; auto].
  pose proof P as P0. rewrite permitted_iff in P. destruct P as [A C]. apply permitted_iff.
  assert (Ci : isC s (lord (lc_lit c))) by (apply (stored_cv s c HS Hc); auto). specialize (Q1 _ Ci).
  assert (EX : forall z, mdef (t_qm t') z = true -> (upd (mval (t_qm t')) x v z == mval (t_qm t') z)%Q).
  { intros z Dz. rewrite upd_neq; [reflexivity|congruence]. }
  split.
  - intros up b Hb O. destruct (us_in _ _ _ _ _ _ U up b Hb) as [H|[H D]]; [auto|].
    destruct (li_good _ _ _ I' up x b Hb) as [Ex G]. pose proof (bgood_pres s s t t' HS HS (grows_refl s) L up b G) as G'.
    inversion G' as [? ? Nd Dr Hd]; subst up0 b0. 
    replace v with (upd (mval (t_qm t')) x v (b_var b)) by (rewrite Ex; apply upd_eq).
    apply (follows s t'); auto.
    + rewrite obsolete_eq, D, orb_false_r in O. exact O.
    + eapply new_iff; eauto.
    + rewrite D. intros d [].
  - intros b Hb O. destruct (us_neq _ _ _ _ _ _ U b Hb) as [H|[H D]]; [auto|].
    destruct (li_neq _ _ _ I' x b Hb) as [Ex G]. pose proof (neqok_pres s s t t' b HS HS (grows_refl s) (kept_refl s _) L G) as G'.
    pose proof (new_iff b t' v H D Ex O Dx Q1 P0) as Hh. unfold lc_holds in Hh. rewrite (nq_pred _ _ _ G'), (nq_neg _ _ _ G') in Hh. cbn [rel] in Hh.
    pose proof (neq_value s t' b (upd (mval (t_qm t')) x v) HS G' O EX) as V. rewrite Ex, upd_eq in V.
    unfold differs. intros E. apply Hh. assert (v - b_val b == 0)%Q by lra. rewrite H0 in V. lra.
Qed.
(** the current level *)
Lemma upd_now : Ui s t B' (lord (lc_lit c)).
Proof.
  intros y Hy D A Db v P. pose proof (li_s _ _ _ I) as HS. destruct (us_vars _ _ _ _ _ _ U) as (rest & Ev & Hr).
  pose proof (proj1 (stored_cv s c HS Hc)) as Ec. rewrite <- Ec, Ev in Hy. destruct Hy as [<-|Hy]; [|rewrite (Hr y Hy) in D; discriminate].
  destruct (eval_lit (t_bm t) (lc_lit c)) as [b|] eqn:El; [|unfold eval_lit in El; rewrite Db in El; discriminate].
  pose proof (us_holds _ _ _ _ _ _ U v b P El) as H. destruct b.
  - now apply (cons_iff s c (t_bm t)).
  - rewrite <- (lit_neg_lord c). apply (cons_iff s (lc_neg c) (t_bm t)); auto using stored_neg. cbn [lc_neg lc_lit]. now rewrite (eval_neg _ _ _ El).
Qed.
Lemma upd_fb : (forall y, fe s t B y \/ In y (bd_upd B)) -> forall y, fe s t B' y \/ In y (bd_upd B').
Proof.
  intros H y. destruct (Nat.eq_dec y x) as [->|N].
  - destruct (us_mark _ _ _ _ _ _ U) as [->|[-> M]]; [right; apply in_app_iff; right; now left|].
    destruct (H x) as [(v & P)|Hx]; [left; exists v; auto|auto].
  - destruct (H y) as [(v & P)|Hy]; [left; exists v; rewrite (us_oth _ _ _ _ _ _ U) by auto; auto|right].
    destruct (us_mark _ _ _ _ _ _ U) as [->|[-> _]]; [apply in_app_iff|]; auto.
Qed.
End Upd.
