(** The trail restricted to its lower levels. *)
From Coq Require Import List Arith ZArith QArith Bool Lia Permutation Lqa.
From Verif Require Import Base Core_Model Analysis_Model Bool_Model Sat_Base Sat_Inv Sat_Trail Sort_Proofs
  Trail_Model Spec_Trail Trail_Proofs Solver_Model Spec_Theory Theory_Inv Theory_Bool Comb_Bcp
  Lincons_Model Spec_Lincons Lincons_Proofs Lincons_Proofs2 Lra_Model Spec_Lra Lra_Fm Lra_Bounds Lra_Hist Lra_Steps Lra_Keep
  Lra_Range Lra_Good Lra_Good2 Lra_Confl Lra_Watch Lra_Watch2 Lra_Cut Lra_Cut2 Comb_Lra.
Import ListNotations.
Open Scope nat_scope.

Definition lvle (t : trail) (v : var) (j : nat) : bool := match t_lvl t v with Some k => k <=? j | None => false end.
Definition cutm {T} (m : model T) (p : nat -> bool) : model T := mkModel (mval m) (fun i => mdef m i && p i) (mts m) (mgts m) (mnum m).
Definition cutl (t : trail) (j : nat) : trail :=
  with_qm (with_bm t (cutm (t_bm t) (fun i => lvle t (VBool i) j))) (cutm (t_qm t) (fun x => lvle t (VRat x) j)).

Lemma cutm_restr {T} (m : model T) p : restr m (cutm m p).
Proof. split; [reflexivity|]. cbn. intros i H. apply andb_true_iff in H. tauto. Qed.
Lemma cutl_later t j : tlater t (cutl t j) /\ restr (t_bm t) (t_bm (cutl t j)) /\ restr (t_qm t) (t_qm (cutl t j)).
Proof. split; [constructor; apply restr_later, cutm_restr|split; apply cutm_restr]. Qed.
Lemma linv_cut s t B j : linv s t B -> linv s (cutl t j) B.
Proof.
  intros I. destruct (cutl_later t j) as (L & R1 & R2). apply (restr_env s t); auto using grows_refl, kept_refl; [apply I|].
  destruct (li_c _ _ _ I) as [C1 C2]. split; [eapply restr_clocked; [exact R1|auto]|eapply restr_clocked; [exact R2|auto]].
Qed.
Lemma cut_q t j x : TT t -> mdef (t_qm (cutl t j)) x = true <-> exists k, lv t x = Some k /\ k <= j.
Proof.
  intros T. cbn. unfold lvle. rewrite andb_true_iff. unfold lv. split.
  - intros [_ H]. destruct (t_lvl t (VRat x)) as [k|]; [|discriminate]. apply Nat.leb_le in H. eauto.
  - intros (k & E & L). rewrite E. split; [apply tt_q; auto; unfold lv; congruence|now apply Nat.leb_le].
Qed.
Lemma cut_b t j i : TT t -> mdef (t_bm (cutl t j)) i = true <-> exists k, t_lvl t (VBool i) = Some k /\ k <= j.
Proof.
  intros T. cbn. unfold lvle. rewrite andb_true_iff. split.
  - intros [_ H]. destruct (t_lvl t (VBool i)) as [k|]; [|discriminate]. apply Nat.leb_le in H. eauto.
  - intros (k & E & L). rewrite E. split; [apply tt_b; auto; congruence|now apply Nat.leb_le].
Qed.
Lemma bool_eq a b : (a = true <-> b = true) -> a = b.
Proof. destruct a, b; intuition congruence. Qed.

(** trails that agree up to level [j] *)
Record kt (j : nat) (t t' : trail) : Prop := {
  kt_l : forall v k, k <= j -> (t_lvl t v = Some k <-> t_lvl t' v = Some k);
  kt_b : forall i k, t_lvl t (VBool i) = Some k -> k <= j -> mval (t_bm t') i = mval (t_bm t) i /\ mts (t_bm t') i = mts (t_bm t) i;
  kt_q : forall i k, t_lvl t (VRat i) = Some k -> k <= j -> mval (t_qm t') i = mval (t_qm t) i /\ mts (t_qm t') i = mts (t_qm t) i;
  kt_g : (mgts (t_bm t) <= mgts (t_bm t'))%Z /\ (mgts (t_qm t) <= mgts (t_qm t'))%Z }.
Lemma kt_cut j t t' : TT t -> TT t' -> kt j t t' -> bext (cutl t j) (cutl t' j) /\ tlater (cutl t j) (cutl t' j) /\
  forall i, mdef (t_bm (cutl t' j)) i = mdef (t_bm (cutl t j)) i.
Proof.
  intros T T' [K1 K2 K3 [K4 K5]].
  assert (Q : forall x, mdef (t_qm (cutl t' j)) x = mdef (t_qm (cutl t j)) x).
  { intros x. apply bool_eq. rewrite !cut_q by auto. unfold lv. split; intros (k & E & L); exists k; split; auto; now apply (K1 (VRat x) k L). }
  assert (Bm : forall i, mdef (t_bm (cutl t' j)) i = mdef (t_bm (cutl t j)) i).
  { intros i. apply bool_eq. rewrite !cut_b by auto. split; intros (k & E & L); exists k; split; auto; now apply (K1 (VBool i) k L). }
  assert (VQ : forall x, mdef (t_qm (cutl t j)) x = true -> mval (t_qm t') x = mval (t_qm t) x /\ mts (t_qm t') x = mts (t_qm t) x).
  { intros x D. apply cut_q in D; auto. destruct D as (k & E & L). apply (K3 x k); auto. }
  assert (VB : forall x, mdef (t_bm (cutl t j)) x = true -> mval (t_bm t') x = mval (t_bm t) x /\ mts (t_bm t') x = mts (t_bm t) x).
  { intros x D. apply cut_b in D; auto. destruct D as (k & E & L). apply (K2 x k); auto. }
  split; [|split; [|exact Bm]].
  - constructor; auto. intros i D. split; [rewrite Bm; auto|]. now apply VB.
  - constructor; (split; [assumption|]); intros i D; left.
    + rewrite Bm in D. split; auto. now apply VB.
    + rewrite Q in D. split; auto. now apply VQ.
Qed.
Lemma kt_Q j s s' t t' B : TT t -> TT t' -> linv s t B -> sinv s' -> grows s s' -> kt j t t' ->
  (forall i, isC s' i -> isC s i \/ Ui s' (cutl t' j) B i) -> Qi s (cutl t j) B -> Qi s' (cutl t' j) B.
Proof.
  intros T T' I S' G K HN [Q1 Q2]. destruct (kt_cut j t t' T T' K) as (X & L & E). pose proof (linv_cut s t B j I) as IC. split.
  - intros i Hi. destruct (HN i Hi) as [Hs|Hs]; [|auto]. apply (Ui_env s s' (cutl t j)); auto. now rewrite E.
  - intros x. apply (fe_env s s' (cutl t j)); auto.
Qed.
Lemma kt_le j j' t t' : j <= j' -> kt j' t t' -> kt j t t'.
Proof.
  intros L [A B C D]. constructor; auto; intros; [apply A; lia|apply (B i k); auto; lia|apply (C i k); auto; lia].
Qed.
Lemma kt_refl j t : kt j t t.
Proof. constructor; intros; auto; [tauto|lia]. Qed.
Lemma kt_trans j t1 t2 t3 : kt j t1 t2 -> kt j t2 t3 -> kt j t1 t3.
Proof.
  intros [A1 A2 A3 A4] [B1 B2 B3 B4]. constructor.
  - intros v k L. rewrite (A1 v k L). auto.
  - intros i k E L. destruct (A2 i k E L). apply A1 in E; auto. destruct (B2 i k E L). split; congruence.
  - intros i k E L. destruct (A3 i k E L). apply A1 in E; auto. destruct (B3 i k E L). split; congruence.
  - lia.
Qed.
(** the whole trail *)
Lemma full_cut t : TT t -> (bext t (cutl t (dl t)) /\ tlater t (cutl t (dl t))) /\ (bext (cutl t (dl t)) t /\ tlater (cutl t (dl t)) t) /\
  forall i, mdef (t_bm (cutl t (dl t))) i = mdef (t_bm t) i.
Proof.
  intros T.
  assert (Q : forall x, mdef (t_qm (cutl t (dl t))) x = mdef (t_qm t) x).
  { intros x. apply bool_eq. rewrite cut_q by auto. rewrite tt_q by auto. split; [intros (k & E & _); congruence|].
    intros N. destruct (lv t x) as [k|] eqn:E; [|congruence]. exists k. split; auto. eapply tt_le; eauto. }
  assert (Bm : forall x, mdef (t_bm (cutl t (dl t))) x = mdef (t_bm t) x).
  { intros x. apply bool_eq. rewrite cut_b by auto. rewrite tt_b by auto. split; [intros (k & E & _); congruence|].
    intros N. destruct (t_lvl t (VBool x)) as [k|] eqn:E; [|congruence]. exists k. split; auto. eapply tt_le; eauto. }
  split; [|split; [|exact Bm]].
  - split; [|apply cutl_later]. constructor; auto. intros i D. rewrite Bm. auto.
  - split; [constructor; [auto|cbn; auto|]|].
    + intros i D. rewrite Bm in D. auto.
    + constructor; (split; [cbn; lia|]); intros i D; left; rewrite ?Q, ?Bm; auto.
Qed.
Lemma Q_full s t B : TT t -> linv s t B -> Qi s (cutl t (dl t)) B <-> Qi s t B.
Proof.
  intros T I. destruct (full_cut t T) as ((X1 & L1) & (X2 & L2) & E). pose proof (li_s _ _ _ I) as HS. pose proof (linv_cut s t B (dl t) I) as IC.
  split; intros [Q1 Q2]; split; intros.
  - apply (Ui_env s s (cutl t (dl t))); auto using grows_refl. now rewrite E.
  - apply (fe_env s s (cutl t (dl t))); auto using grows_refl.
  - apply (Ui_env s s t); auto using grows_refl. now rewrite E.
  - apply (fe_env s s t); auto using grows_refl.
Qed.

(** ** steps of the trail *)
Lemma kt_decide t v x t' : TT t -> t_lvl t v = None -> t_step t (TDecide v x) = Ok t' -> kt (dl t) t t'.
Proof.
  intros T U HS. assert (N : t_levels t <> []) by (destruct T as (a0 & N & _); exact N).
  destruct (kx_decide _ _ _ _ N U HS) as (K & _). cbn [t_step] in HS. injection HS as HS.
  assert (NV : forall w k, t_lvl t w = Some k -> w <> v) by congruence.
  assert (KL : forall k, k <= dl t -> k < S (dl t)) by (intros; lia).
  constructor.
  - intros w k L. apply K. auto.
  - intros i k E L. apply NV in E. rewrite <- HS. destruct v as [z|z]; cbn; auto. unfold upd. destruct (Nat.eqb_spec i z); [congruence|auto].
  - intros i k E L. apply NV in E. rewrite <- HS. destruct v as [z|z]; cbn; auto. unfold upd. destruct (Nat.eqb_spec i z); [congruence|auto].
  - rewrite <- HS. destruct v; cbn; lia.
Qed.
Lemma kt_back t k t' : TT t -> trail_backtrack t k = Ok t' -> kt k t t'.
Proof.
  intros T H. destruct (kx_back _ _ _ T H) as (K & D & _ & T' & LE). destruct (backtrack_restr _ _ _ H) as [[G1 R1] [G2 R2]].
  constructor.
  - intros v i L. apply K. lia.
  - intros i j E L. apply (R1 i). apply tt_b; auto. assert (Lj : j < S k) by lia. apply (proj1 (proj1 (K (VBool i) j Lj))) in E. congruence.
  - intros i j E L. apply (R2 i). apply tt_q; auto. assert (Lj : j < S k) by lia. apply (proj1 (proj1 (K (VRat i) j Lj))) in E. unfold lv. congruence.
  - lia.
Qed.

(** boolean steps *)
Record lx (t t' : trail) : Prop := {
  lx_x : bext t t'; lx_l : tlater t t'; lx_q : forall x, lv t' x = lv t x;
  lx_b : forall i k, t_lvl t (VBool i) = Some k -> t_lvl t' (VBool i) = Some k }.
Lemma later_trans {T} (a b c : model T) : later a b -> later b c -> later a c.
Proof.
  intros [A1 A2] [B1 B2]. split; [lia|]. intros i D. destruct (B2 i D) as [(D1 & V1 & T1)|X]; [|right; lia].
  destruct (A2 i D1) as [(D0 & V0 & T0)|X]; [left; split; [auto|split; congruence]|right; lia].
Qed.
Lemma lx_refl t : lx t t.
Proof. constructor; auto; [apply bext_refl|apply tlater_refl]. Qed.
Lemma lx_trans t1 t2 t3 : lx t1 t2 -> lx t2 t3 -> lx t1 t3.
Proof.
  intros [A1 [A2 A2'] A3 A4] [B1 [B2 B2'] B3 B4]. constructor; [eapply bext_trans; eauto|constructor; eapply later_trans; eauto|intros; now rewrite B3|auto].
Qed.
Lemma lx_cut j t t' : TT t -> TT t' -> lx t t' -> bext (cutl t j) (cutl t' j) /\ tlater (cutl t j) (cutl t' j).
Proof.
  intros T T' [[X1 X2 X3] [[L1 L2] [L3 L4]] Q Bl].
  assert (QD : forall x, mdef (t_qm (cutl t' j)) x = mdef (t_qm (cutl t j)) x).
  { intros x. apply bool_eq. rewrite !cut_q by auto. rewrite Q. tauto. }
  assert (DQ : forall x, mdef (t_qm (cutl t j)) x = true -> mdef (t_qm t) x = true) by (cbn; intros x H; apply andb_true_iff in H; tauto).
  assert (DB : forall x, mdef (t_bm (cutl t j)) x = true -> mdef (t_bm t) x = true) by (cbn; intros x H; apply andb_true_iff in H; tauto).
  assert (DB' : forall x, mdef (t_bm (cutl t' j)) x = true -> mdef (t_bm t') x = true) by (cbn; intros x H; apply andb_true_iff in H; tauto).
  split; [constructor; [exact QD| |]|constructor; (split; [assumption|])].
  - intros x D. cbn. apply X2. auto.
  - intros i D. destruct (X3 i (DB i D)) as (_ & V). split; [|exact V]. apply cut_b; auto. apply cut_b in D; auto. destruct D as (k & E & L). eauto.
  - intros i D. destruct (L2 i (DB' i D)) as [(D0 & V)|Hn]; [left|right; exact Hn]. split; [|exact V].
    apply cut_b in D; auto. destruct D as (k & E & L). apply cut_b; auto. apply tt_b in D0; auto. destruct (t_lvl t (VBool i)) as [k0|] eqn:E0; [|congruence].
    pose proof (Bl i k0 E0). exists k. split; congruence.
  - intros i D. rewrite QD in D. left. split; [exact D|]. cbn. apply X2. auto.
Qed.
Lemma lx_Q j s s' t t' B : TT t -> TT t' -> linv s t B -> sinv s' -> grows s s' -> lx t t' ->
  (forall i, isC s' i -> (isC s i /\ (t_lvl t (VBool i) = None -> forall k, t_lvl t' (VBool i) = Some k -> j < k)) \/ Ui s' (cutl t' j) B i) ->
  Qi s (cutl t j) B -> Qi s' (cutl t' j) B.
Proof.
  intros T T' I S' G X HN [Q1 Q2]. destruct (lx_cut j t t' T T' X) as (X' & L). pose proof (linv_cut s t B j I) as IC. split.
  - intros i Hi. destruct (HN i Hi) as [[Hs Hn]|Hs]; [|auto]. apply (Ui_env s s' (cutl t j)); auto.
    rewrite !cut_b by auto. intros (k & E & Lk). destruct (t_lvl t (VBool i)) as [k0|] eqn:E0; [|specialize (Hn eq_refl k E); lia].
    pose proof (lx_b _ _ X i k0 E0). exists k. split; congruence.
  - intros x. apply (fe_env s s' (cutl t j)); auto.
Qed.
Lemma lx_step t i ro k x t1 : TT t -> t_lvl t (VBool i) = None -> t_step t (TPropagate (VBool i) ro k x) = Ok t1 -> lx t t1.
Proof.
  intros T U S. destruct (step_prop_inv _ _ _ _ _ _ S) as (K & L1 & _ & B1 & B2). cbn [put] in B1, B2.
  assert (Nd : mdef (t_bm t) i = false).
  { destruct (mdef (t_bm t) i) eqn:E; auto. apply tt_b in E; auto. congruence. }
  constructor.
  - constructor; rewrite ?B1, ?B2; cbn; auto. intros j D. unfold upd. destruct (Nat.eqb_spec j i) as [->|]; [congruence|auto].
  - constructor; [rewrite B1; apply set_later|rewrite B2; apply later_refl].
  - intros y. unfold lv. rewrite L1, vupd_neq; [auto|discriminate].
  - intros j k' E. rewrite L1, vupd_neq; [auto|congruence].
Qed.
Lemma lx_resize t n : TT t -> mnum (t_bm t) <= n -> lx t (trail_resize t n (mnum (t_qm t))).
Proof.
  intros T H.
  assert (RB : forall i, mdef (t_bm t) i = true -> i < mnum (t_bm t)).
  { intros i D. apply tt_b in D; auto. destruct (t_lvl t (VBool i)) as [k|] eqn:E; [|congruence]. apply (tt_range t) in E; auto. cbn in E. now apply Nat.ltb_lt. }
  assert (RQ : forall i, mdef (t_qm t) i = true -> i < mnum (t_qm t)).
  { intros i D. apply tt_q in D; auto. unfold lv in D. destruct (t_lvl t (VRat i)) as [k|] eqn:E; [|congruence]. apply (tt_range t) in E; auto. cbn in E. now apply Nat.ltb_lt. }
  constructor.
  - constructor; cbn [trail_resize t_qm t_bm model_resize mdef mval mts].
    + intros x. rewrite Nat.min_id. destruct (Nat.ltb_spec x (mnum (t_qm t))); auto. destruct (mdef (t_qm t) x) eqn:E; auto. apply RQ in E. lia.
    + intros x E. rewrite Nat.min_id. apply RQ in E. destruct (Nat.ltb_spec x (mnum (t_qm t))); auto. lia.
    + intros i E. pose proof (RB i E). destruct (Nat.ltb_spec i (Nat.min n (mnum (t_bm t)))); auto. lia.
  - constructor; apply restr_later, resize_restr.
  - intros x. unfold lv, trail_resize. cbn [t_lvl]. rewrite Nat.min_id. cbn [in_range]. destruct (t_lvl t (VRat x)) as [k|] eqn:E.
    + pose proof (tt_range _ _ _ T E) as R. cbn [in_range] in R. now rewrite R.
    + destruct (x <? mnum (t_qm t)); auto.
  - intros i k E. unfold trail_resize. cbn [t_lvl in_range]. pose proof (tt_range _ _ _ T E) as R. cbn [in_range] in R. apply Nat.ltb_lt in R.
    rewrite Nat.min_r by lia. apply Nat.ltb_lt in R. now rewrite R.
Qed.
Lemma prop_ops_lx d e t t' : TT t -> prop_ops true d e t t' -> (forall x, lv t' x = lv t x) -> lx t t'.
Proof.
  intros T H. revert T. induction H as [t|t n t' Hn H IH|t l ro k t1 t' H1 H2 H3 H4 H5 IH|t x k q t1 t' H1 H2 H3 H4 IH]; intros T L.
  - apply lx_refl.
  - pose proof (tt_resize t n T Hn) as T1. pose proof (lx_resize t n T Hn) as X. eapply lx_trans; [exact X|]. apply IH; auto.
    intros y. rewrite L. symmetry. apply (lx_q _ _ X).
  - assert (RG : in_range (mnum (t_bm t)) (mnum (t_qm t)) (lvar l) = true) by (cbn; now apply Nat.ltb_lt).
    pose proof (tt_any _ _ _ _ _ _ T RG H2 H4) as T1. pose proof (lx_step t (lord l) ro k _ t1 T H2 H4) as X. eapply lx_trans; [exact X|]. apply IH; auto.
    intros y. rewrite L. symmetry. apply (lx_q _ _ X).
  - exfalso. assert (RG : in_range (mnum (t_bm t)) (mnum (t_qm t)) (VRat x) = true) by (cbn; now apply Nat.ltb_lt).
    pose proof (tt_any _ _ _ _ _ _ T RG H2 H3) as T1. destruct (step_prop_inv _ _ _ _ _ _ H3) as (K & L1 & _).
    destruct (prop_ops_kept _ _ _ _ T1 H4) as (_ & _ & C). specialize (C (VRat x) k). rewrite L1, vupd_eq in C. specialize (C eq_refl).
    specialize (L x). unfold lv in L. congruence.
Qed.
(** a boolean step at the top level does not change the lower ones *)
Lemma bx_kt j t t' : TT t -> TT t' -> bx t t' -> lx t t' -> j < dl t -> kt j t t'.
Proof.
  intros T T' B [[X1 X2 X3] [[L1 L2] [L3 L4]] Q Bl] Lj. constructor.
  - intros v k L. split; [apply (bx_lvl _ _ B)|]. intros E. destruct (t_lvl t v) as [k0|] eqn:E0.
    + pose proof (bx_lvl _ _ B _ _ E0). congruence.
    + pose proof (bx_top _ _ B _ _ E0 E). lia.
  - intros i k E L. apply X3. apply tt_b; auto. congruence.
  - intros i k E L. apply X2. apply tt_q; auto. unfold lv. congruence.
  - auto.
Qed.
