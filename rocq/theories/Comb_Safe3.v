(** Decisions, backtracking and restarts keep the invariants of Comb_Safe2. *)
From Coq Require Import List Arith ZArith QArith NArith Bool Lia Permutation Sorted.
From Verif Require Import Base Core_Model Literal_Proofs Analysis_Model Bool_Model Sat_Base Sat_Inv Sat_Trail Sat_Prop Sat_Bcp Sat_Main Sort_Proofs
  Trail_Model Spec_Trail Trail_Proofs Solver_Model Spec_Sat Spec_Theory Theory_Inv Theory_Strict Theory_Sound Theory_Bool Comb_Bcp Theory_Level
  Lincons_Model Spec_Lincons Lincons_Proofs Lincons_Proofs2 Lra_Model Spec_Lra Lra_Fm Lra_Bounds Lra_Hist Lra_Steps Lra_Keep
  Lra_Range Lra_Good Lra_Good2 Lra_Confl Lra_Watch Lra_Watch2 Comb_Model Comb_Lra Theory_Safe Comb_Safe1
  Lra_Safe1 Lra_Safe2 Lra_Cut Lra_Cut2 Lra_Cut3 Lra_Safe3 Lra_Safe4 Lra_Safe5 Lra_Safe6 Lra_Shape Lra_Safe7 Comb_Safe2.
Import ListNotations.
Open Scope nat_scope.

Lemma kx_Zi k s t t' i : kx k t t' -> Zi k s t i -> Zi k s t' i.
Proof. intros K Z v0 j H1 H2 L. apply (kx_below k t t'); auto. apply (Z v0); auto. now apply (K (VRat v0) j). Qed.
Lemma kx_OZ k s t t' i : sinv s -> kx k t t' -> OZ k s t i -> OZ k s t' i.
Proof. intros HS K [O Z]. split; [now apply (kx_OKi k s t)|now apply (kx_Zi k s t)]. Qed.

Lemma XC_back a t k t' : TT t -> linv (l_st a) t (l_bd a) -> linv (l_st a) t' (l_bd a) -> k < dl t -> trail_backtrack t k = Ok t' ->
  XC a t -> XD (lra_before_backtrack a) t'.
Proof.
  intros T L L' Hk H (X & O & Q). destruct (kx_back _ _ _ T H) as (K & D & _ & T' & _). pose proof (kt_back t k t' T H) as KT.
  pose proof (li_s _ _ _ L) as HS.
  assert (Q' : forall j, j <= k -> Qi (l_st a) (cutl t' j) (l_bd a)).
  { intros j Hj. apply (kt_Q j (l_st a) (l_st a) t); auto using grows_refl; [eapply kt_le; eauto|]. apply Q. lia. }
  destruct X as (X2 & X3 & X4).
  split; [split; [exact X2|split; [split; [exact (DD_back t k t' T H (proj1 X3))|exact (NL_back _ t k t' T H (proj2 X3))]|exact X4]]|]. cbn [lra_before_backtrack with_cur l_st l_bd].
  split; [|split].
  - intros i Hi. rewrite D. apply (kx_OZ (S k) _ t); auto. eapply OZ_mono; [|apply O; exact Hi]. lia.
  - intros j Hj. rewrite D in Hj. cbn. apply Q'. lia.
  - apply (Q_full (l_st a) t'); auto. rewrite D. apply Q'. lia.
Qed.

(** ** decisions *)
Record kp (t t' : trail) : Prop := {
  kp_q : forall x, mdef (t_qm t) x = true -> mdef (t_qm t') x = true /\ mval (t_qm t') x = mval (t_qm t) x /\ mts (t_qm t') x = mts (t_qm t) x;
  kp_b : forall i, mdef (t_bm t) i = true -> mdef (t_bm t') i = true /\ mval (t_bm t') i = mval (t_bm t) i /\ mts (t_bm t') i = mts (t_bm t) i }.
Lemma set_kp {T} (m : model T) i x : mdef m i = false -> forall j, mdef m j = true ->
  mdef (set_value m i x) j = true /\ mval (set_value m i x) j = mval m j /\ mts (set_value m i x) j = mts m j.
Proof.
  intros N j D. unfold set_value. cbn [mdef mval mts]. unfold upd. destruct (Nat.eqb_spec j i) as [E|NE]; [subst; congruence|auto].
Qed.
Lemma set_later {T} (m : model T) i x : mdef m i = false -> later m (set_value m i x).
Proof.
  intros N. split; [unfold set_value; cbn; lia|]. intros j. unfold set_value. cbn [mdef mval mts mgts]. unfold upd.
  destruct (Nat.eqb_spec j i); intros D; [right; lia|left; auto].
Qed.
Lemma step_kp t v x t' : TT t -> t_lvl t v = None -> t_step t (TDecide v x) = Ok t' ->
  kp t t' /\ tlater t t'.
Proof.
  intros T N H. cbn [t_step] in H. injection H as <-.
  assert (D : is_def t v = false) by (destruct (is_def t v) eqn:E; auto; apply (tt_def t v T) in E; congruence).
  unfold trail_decide. destruct v as [i|y]; cbn in D; cbn [put]; split; constructor; cbn [t_bm t_qm with_bm with_qm]; intros; auto using later_refl.
  - now apply set_kp.
  - now apply set_later.
  - now apply set_kp.
  - now apply set_later.
Qed.
Lemma kp_live s t t' b : kp t t' -> node_obs s t b = false -> node_obs s t' b = false.
Proof.
  intros X. unfold node_obs. rewrite !orb_false_iff. intros [[A B] C].
  apply negb_false_iff in A. unfold eval_lit in A |- *.
  destruct (mdef (t_bm t) (lord (lc_lit (b_cons b)))) eqn:D; [|discriminate].
  destruct (kp_b _ _ X _ D) as (D1 & D2 & D3). rewrite D1, D2, D3.
  split; [split|]; [now apply negb_false_iff|exact B|].
  apply not_true_iff_false. intros E. apply existsb_exists in E. destruct E as (y & Hy & E).
  rewrite <- not_true_iff_false in C. apply C. apply existsb_exists. exists y. split; [exact Hy|].
  apply andb_true_iff in E. destruct E as [E1 E2]. rewrite E1. cbn [andb].
  destruct (mdef (t_qm t) y) eqn:Dy; [|reflexivity]. destruct (kp_q _ _ X y Dy) as (Y1 & Y2 & Y3). rewrite Y1, Y3 in E2. exact E2.
Qed.
Lemma bound_ind2 (P : bound -> Prop) : (forall b, (forall d, In d (b_deps b) -> P d) -> P b) -> forall b, P b.
Proof.
  intros H. fix F 1. intros [x v c deps ct vt]. apply H. cbn [b_deps]. induction deps as [|d ds IH]; [intros d []|].
  intros e [<-|He]; [apply F|apply IH; exact He].
Qed.
Lemma kp_obs s t t' : kp t t' -> forall b, is_obsolete s t b = false -> is_obsolete s t' b = false.
Proof.
  intros K. apply (bound_ind2 (fun b => is_obsolete s t b = false -> is_obsolete s t' b = false)). intros b IH. rewrite !obsolete_eq, !orb_false_iff. intros [A C].
  split; [now apply (kp_live s t)|]. apply not_true_iff_false. intros E. apply existsb_exists in E. destruct E as (d & Hd & E).
  rewrite (IH d Hd) in E; [discriminate|]. destruct (is_obsolete s t d) eqn:F; auto. rewrite <- not_true_iff_false in C. exfalso. apply C, existsb_exists. eauto.
Qed.
Lemma kp_perm s t t' B y v : linv s t B -> kp t t' -> permitted s t' (bd_of B y) v -> permitted s t (bd_of B y) v.
Proof.
  intros I K. rewrite !permitted_iff. intros [A C]. split.
  - intros up b Hb O. apply A; auto. now apply (kp_obs s t).
  - intros b Hb O. apply C; auto. now apply (kp_obs s t).
Qed.
Lemma later_perm s t t' B y v : linv s t B -> tlater t t' -> permitted s t (bd_of B y) v -> permitted s t' (bd_of B y) v.
Proof.
  intros I L. pose proof (li_s _ _ _ I) as HS. rewrite !permitted_iff. intros [A C]. split.
  - intros up b Hb O. apply A; auto. destruct (li_good _ _ _ I up y b Hb) as [_ Gd]. eapply (obs_mono s s t t'); eauto using grows_refl.
  - intros b Hb O. apply C; auto. destruct (li_neq _ _ _ I y b Hb) as [_ Gd]. eapply (neq_mono s s t t'); eauto using grows_refl.
Qed.
Lemma later_fe s t t' B y : linv s t B -> tlater t t' -> fe s t B y -> fe s t' B y.
Proof. intros I L (v & P). exists v. now apply (later_perm s t). Qed.
Lemma kp_Ui s t t' B i : linv s t B -> kp t t' -> (forall y, In y (cv s i) -> mdef (t_qm t') y = mdef (t_qm t) y) ->
  (mdef (t_bm t') i = true -> mdef (t_bm t) i = true) -> Ui s t B i -> Ui s t' B i.
Proof.
  intros I K EQ EB U x Hx D A Db v P. pose proof (li_s _ _ _ I) as HS.
  rewrite EQ in D by auto. specialize (EB Db). destruct (kp_b _ _ K i EB) as (_ & -> & _).
  assert (A' : forall y, In y (cv s i) -> y <> x -> mdef (t_qm t) y = true) by (intros y Hy N; rewrite <- EQ by auto; auto).
  rewrite (U x Hx D A' EB v (kp_perm s t t' B x v I K P)). apply stored_upd_ext; auto.
  intros y Hy N. destruct (kp_q _ _ K y (A' y Hy N)) as (_ & -> & _). reflexivity.
Qed.
Lemma dec_lvl t v x t' : t_levels t <> [] -> t_step t (TDecide v x) = Ok t' -> t_lvl t' = vupd (t_lvl t) v (Some (S (dl t))) /\ recent t' = [(v, None)].
Proof.
  intros N S. cbn [t_step] in S. injection S as <-. split; [|reflexivity].
  unfold trail_decide. cbn [t_lvl]. destruct v; cbn [put]; unfold dl; cbn [t_levels with_bm with_qm t_lvl]; destruct (t_levels t); try congruence; cbn; repeat f_equal; lia.
Qed.
Lemma tt_dec t v x t' : TT t -> in_range (mnum (t_bm t)) (mnum (t_qm t)) v = true -> t_lvl t v = None -> t_step t (TDecide v x) = Ok t' -> TT t'.
Proof.
  intros T R U S. assert (P : tpi false (mkDb [] []) t) by (split; [exact T|split; [intros c l []|discriminate]]).
  exact (proj1 (tpi_decide false (mkDb [] []) t v x t' P R U S)).
Qed.
Lemma dec_QC a t t' v x B : TT t -> TT t' -> linv (l_st a) t (l_bd a) -> t_lvl t v = None -> t_step t (TDecide v x) = Ok t' ->
  XD a t -> B = l_bd a -> forall j, j < dl t' -> Qi (l_st a) (cutl t' j) B.
Proof.
  intros T T' L U S (_ & _ & Q1 & Q2) -> j Hj. pose proof T as (a0 & N & _). destruct (kx_decide _ _ _ _ N U S) as (_ & D & _). rewrite D in Hj.
  pose proof (li_s _ _ _ L) as HS. pose proof (kt_decide t v x t' T U S) as K.
  apply (kt_Q j (l_st a) (l_st a) t); auto using grows_refl; [eapply kt_le; [|exact K]; lia|].
  destruct (Nat.eq_dec j (dl t)) as [->|NE]; [now apply (Q_full (l_st a) t)|apply Q1; lia].
Qed.
Lemma below_low t j vs : TT t -> below t j vs -> below t (Nat.min j (dl t)) vs.
Proof. intros T H v Hv. destruct (H v Hv) as (j' & E & L). exists j'. split; auto. pose proof (tt_le t (VRat v) j' T E). lia. Qed.

(** a boolean decision *)
Lemma dec_bool a t b x t' : TT t -> linv (l_st a) t (l_bd a) -> t_lvl t (VBool b) = None -> b < mnum (t_bm t) ->
  (forall m, cu_level (l_cur a) = Some m -> m <= dl t) -> t_step t (TDecide (VBool b) x) = Ok t' -> XD a t -> EN a t'.
Proof.
  intros T L U Rb HC SD X. pose proof T as (a0 & N & _). destruct (kx_decide _ _ _ _ N U SD) as (K & D & _).
  assert (T' : TT t') by (eapply tt_dec; [exact T| |exact U|exact SD]; cbn; now apply Nat.ltb_lt).
  destruct (dec_lvl t _ x t' N SD) as [LV RC]. destruct (step_kp t _ x t' T U SD) as [KP TL].
  pose proof (dec_QC a t t' _ x _ T T' L U SD X eq_refl) as Q'.
  destruct X as ((X2 & X3 & X4) & O & Q1 & Q2). pose proof (li_s _ _ _ L) as HS.
  assert (QE : t_qm t' = t_qm t) by (cbn in SD; injection SD as <-; reflexivity).
  assert (LR : forall y, lv t' y = lv t y) by (intros y; unfold lv; rewrite LV, vupd_neq by congruence; reflexivity).
  assert (BL : forall j vs, below t' j vs <-> below t j vs).
  { intros j vs. unfold below. split; intros H v Hv; destruct (H v Hv) as (j' & E & Lj); exists j'; split; auto; [rewrite <- LR|rewrite LR]; exact E. }
  assert (KB : forall i j, t_lvl t (VBool i) = Some j -> t_lvl t' (VBool i) = Some j).
  { intros i j E. rewrite LV. rewrite vupd_neq; [exact E|]. congruence. }
  split; [split; [exact X2|split; [split; [exact (DD_decide t _ x t' T U SD (proj1 X3))|exact (NL_decide _ t _ x t' T U SD (proj2 X3))]|exact X4]]|].
  split; [|split; [|split]].
  - intros i Hi. rewrite D. destruct (O i Hi) as [(V & E & A) Z]. split; [split; [|split]|].
    + intros v j Hv Ej Hj. rewrite LR in Ej. apply BL. apply (V v j Hv Ej). pose proof (tt_le t (VRat v) j T Ej). lia.
    + intros j Hj Hb. apply BL in Hb. apply (below_low t j _ T) in Hb. destruct (E (Nat.min j (dl t)) ltac:(lia) Hb) as (j' & E1 & E2).
      exists j'. split; [now apply KB|lia].
    + intros j j' Hj Hj' Hb Hl. apply BL in Hb. apply (below_low t j _ T) in Hb.
      destruct (E (Nat.min j (dl t)) ltac:(lia) Hb) as (j2 & E1 & E2).
      pose proof (A (Nat.min j (dl t)) j2 ltac:(lia) ltac:(lia) Hb E1) as AG. unfold agree in *. rewrite QE.
      assert (Db : mdef (t_bm t) i = true) by (apply tt_b; auto; congruence). destruct (kp_b _ _ KP i Db) as (_ & -> & _). exact AG.
    + intros v0 j Hh Ej Hj. rewrite LR in Ej. apply BL. apply (Z v0 j Hh Ej). pose proof (tt_le t (VRat v0) j T Ej). lia.
  - exact Q'.
  - intros y. apply (later_fe _ t); auto. apply Q2.
  - intros i Hi. destruct (Nat.eq_dec i b) as [E|NE].
    + right. subst i. unfold lpnd, cursor_assigned. cbn [snd]. fold (lskip a t'). 
      assert (SK : lskip a t' = 0).
      { unfold lskip. destruct (cu_level (l_cur a)) as [m|]; [|reflexivity]. specialize (HC m eq_refl). rewrite D. destruct (Nat.eqb_spec (S (dl t)) m); [lia|reflexivity]. }
      rewrite SK, RC. cbn. auto.
    + left. apply (kp_Ui _ t); auto; [intros y _; now rewrite QE| |apply Q2; exact Hi].
      intros Db. apply tt_b in Db; auto. apply tt_b; auto. rewrite LV in Db. rewrite vupd_neq in Db by congruence. exact Db.
Qed.

(** a rational decision *)
Lemma dec_rat a t x q t' : TT t -> linv (l_st a) t (l_bd a) -> t_lvl t (VRat x) = None -> x < mnum (t_qm t) ->
  (forall m, cu_level (l_cur a) = Some m -> m <= dl t) -> Wc (l_watch a) (l_st a) -> permitted (l_st a) t (bd_of (l_bd a) x) q ->
  t_step t (TDecide (VRat x) (true, q)) = Ok t' -> XD a t -> ED x a t'.
Proof.
  intros T L U Rx HC WC0 PQ SD X. pose proof T as (a0 & N & _). destruct (kx_decide _ _ _ _ N U SD) as (K & D & _).
  assert (T' : TT t') by (eapply tt_dec; [exact T| |exact U|exact SD]; cbn; now apply Nat.ltb_lt).
  destruct (dec_lvl t _ _ t' N SD) as [LV RC]. destruct (step_kp t _ _ t' T U SD) as [KP TL].
  pose proof (dec_QC a t t' _ _ _ T T' L U SD X eq_refl) as Q'.
  destruct X as ((X2 & X3 & X4) & O & Q1 & Q2). pose proof (li_s _ _ _ L) as HS.
  assert (QE : t_qm t' = set_value (t_qm t) x q /\ t_bm t' = t_bm t) by (cbn in SD; injection SD as <-; split; reflexivity).
  destruct QE as [QE BE].
  assert (LB : forall i, t_lvl t' (VBool i) = t_lvl t (VBool i)) by (intros i; rewrite LV, vupd_neq by congruence; reflexivity).
  assert (LR : forall y, y <> x -> lv t' y = lv t y) by (intros y Ny; unfold lv; rewrite LV, vupd_neq by congruence; reflexivity).
  assert (DQ : forall y, y <> x -> mdef (t_qm t') y = mdef (t_qm t) y).
  { intros y Ny. rewrite QE. cbn [set_value mdef]. unfold upd. destruct (Nat.eqb_spec y x); congruence. }
  assert (UX : lv t x = None) by exact U.
  assert (UD : mdef (t_qm t) x = false) by (destruct (mdef (t_qm t) x) eqn:E; auto; apply tt_q in E; auto; congruence).
  assert (UP : forall j vs, below t j vs -> below t' j vs).
  { intros j vs H v Hv. destruct (H v Hv) as (j' & E & Lj). exists j'. split; auto. rewrite LR; [exact E|]. intros ->. congruence. }
  assert (DN : forall j vs, ~ In x vs -> below t' j vs -> below t (Nat.min j (dl t)) vs).
  { intros j vs Nx H. apply below_low; auto. intros v Hv. destruct (H v Hv) as (j' & E & Lj). exists j'. split; auto. rewrite <- LR; [exact E|]. intros ->. auto. }
  assert (F2 : forall i v, isC (l_st a) i -> ~ In x (firstn 2 (cv (l_st a) i)) -> In x (cv (l_st a) i) -> In v (firstn 2 (cv (l_st a) i)) -> lv t v = None).
  { intros i v Hi Nx Hx Hv. destruct (lv t v) as [j|] eqn:E; auto. exfalso. destruct (O i Hi) as [(V & _) _].
    pose proof (tt_le t (VRat v) j T E). pose proof (V v j Hv E ltac:(lia)) as Bl.
    rewrite <- (firstn_skipn 2 (cv (l_st a) i)) in Hx. apply in_app_iff in Hx. destruct Hx as [Hx|Hx]; [auto|]. destruct (Bl x Hx) as (j' & E' & _). congruence. }
  assert (IN : forall i, isC (l_st a) i -> In x (firstn 2 (cv (l_st a) i)) -> In i (ords (l_watch a x))) by (intros i Hi Hx; exact (WC0 i Hi x Hx)).
  assert (H0 : forall i, isC (l_st a) i -> exists v, In v (firstn 2 (cv (l_st a) i))).
  { intros i Hi. pose proof (cv_ne _ _ HS Hi) as Ne. destruct (cv (l_st a) i) as [|u l]; [congruence|]. exists u. now left. }
  split; [split; [exact X2|split; [split; [exact (DD_decide t _ _ t' T U SD (proj1 X3))|exact (NL_decide _ t _ _ t' T U SD (proj2 X3))]|exact X4]]|].
  split; [rewrite RC; reflexivity|]. split; [lia|]. split; [|split; [|split; [exact Q'|split]]].
  - unfold lskip. destruct (cu_level (l_cur a)) as [m|]; [|reflexivity]. specialize (HC m eq_refl). rewrite D. destruct (Nat.eqb_spec (S (dl t)) m); [lia|reflexivity].
  - intros i Hi. destruct (O i Hi) as [OO Z]. pose proof OO as (V & E & A). unfold Mi. rewrite D.
    split; [apply (kx_OKi _ _ t); auto|]. split; [apply (kx_Zi _ _ t); auto|]. split.
    + intros j j' Hj Hj' Hb Hl. rewrite LB in Hl. unfold agree. rewrite BE.
      assert (Db : mdef (t_bm t) i = true) by (apply tt_b; auto; congruence).
      destruct (in_dec Nat.eq_dec x (cv (l_st a) i)) as [Hx|Nx].
      * destruct Q2 as [Q2 _]. specialize (Q2 i Hi x Hx UD). rewrite QE. cbn [set_value mval]. apply Q2; auto.
        intros y Hy Ny. rewrite <- DQ by auto. apply tt_q; auto. destruct (Hb y Hy) as (j2 & E2 & _). congruence.
      * apply DN in Hb; auto. pose proof (tt_le t (VBool i) j' T Hl).
        pose proof (A (Nat.min j (dl t)) j' ltac:(lia) ltac:(lia) Hb Hl) as AG. unfold agree in AG. rewrite AG. rewrite QE. cbn [set_value mval].
        unfold stored_holds. apply rel_morph; [|reflexivity]. apply lin_ext_in. intros y k Hy. unfold upd. destruct (Nat.eqb_spec y x) as [Ey|_]; [|reflexivity].
        exfalso. apply Nx. subst y. unfold cv. rewrite lc_vars_terms by auto. apply (in_map fst) in Hy. exact Hy.
    + destruct (in_dec Nat.eq_dec x (firstn 2 (cv (l_st a) i))) as [Hx|Nx]; [right; auto|left]. split; [|split].
      * intros v j Hv Ej Hj. rewrite LR in Ej by (intros ->; auto). apply UP. apply (V v j Hv Ej). pose proof (tt_le t (VRat v) j T Ej). lia.
      * intros j Hj Hb. destruct (in_dec Nat.eq_dec x (cv (l_st a) i)) as [Hx|Nx'].
        -- exfalso. destruct (H0 i Hi) as (v & Hv). pose proof (F2 i v Hi Nx Hx Hv) as Ev.
           assert (Hv' : In v (cv (l_st a) i)) by (rewrite <- (firstn_skipn 2 (cv (l_st a) i)); apply in_app_iff; auto).
           destruct (Hb v Hv') as (j2 & E2 & _). rewrite LR in E2 by (intros ->; auto). congruence.
        -- apply DN in Hb; auto. destruct (E (Nat.min j (dl t)) ltac:(lia) Hb) as (j' & E1 & E2). exists j'. rewrite LB. split; auto. lia.
      * intros v0 j Hh Ej Hj. assert (Hv : In v0 (firstn 2 (cv (l_st a) i))).
        { destruct (cv (l_st a) i) as [|u l]; [discriminate|]. cbn in Hh. injection Hh as ->. now left. }
        rewrite LR in Ej by (intros ->; auto). apply UP. apply (Z v0 j Hh Ej). pose proof (tt_le t (VRat v0) j T Ej). lia.
  - intros y. apply (later_fe _ t); auto. apply Q2.
  - intros i Hi. destruct (in_dec Nat.eq_dec x (firstn 2 (cv (l_st a) i))) as [Hx|Nx]; [right; auto|left].
    destruct (in_dec Nat.eq_dec x (cv (l_st a) i)) as [Hx|Nx'].
    + assert (ND : NoDup (cv (l_st a) i)).
      { pose proof (cv_nodup (l_st a) _ HS (stored_get _ i HS Hi)) as ND. rewrite (get_lord _ i HS Hi) in ND. exact ND. }
      pose proof (F2 i) as F. destruct (cv (l_st a) i) as [|u [|u' l]] eqn:EC.
      * destruct Hx.
      * exfalso. apply Nx. exact Hx.
      * assert (G : forall v, In v [u; u'] -> mdef (t_qm t') v = false).
        { intros v Hv. assert (v <> x) by (intros ->; apply Nx; exact Hv). rewrite DQ by auto.
          pose proof (F v Hi Nx Hx Hv) as Ev. destruct (mdef (t_qm t) v) eqn:E; auto. apply tt_q in E; auto. congruence. }
        apply (Ui_two _ _ _ i u u'); try rewrite EC; cbn; auto; [|apply G; cbn; auto|apply G; cbn; auto].
        intros ->. inversion ND as [|? ? NI _]. apply NI. now left.
    + apply (kp_Ui _ t); auto; [|rewrite BE; auto|apply Q2; exact Hi]. intros y Hy. apply DQ. intros ->. auto.
Qed.
