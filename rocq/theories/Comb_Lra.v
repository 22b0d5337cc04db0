(** Boolean propagation and linear arithmetic together satisfy the level-aware plugin contract. *)
From Coq Require Import List Arith ZArith QArith NArith Bool Lia Permutation Sorted.
From Verif Require Import Base Core_Model Literal_Proofs Analysis_Model Bool_Model Sat_Base Sat_Inv Sat_Trail Sat_Prop Sat_Bcp Sat_Main Sort_Proofs
  Trail_Model Spec_Trail Trail_Proofs Solver_Model Spec_Sat Spec_Theory Theory_Inv Theory_Strict Theory_Sound Theory_Bool Comb_Bcp Theory_Level
  Lincons_Model Spec_Lincons Lincons_Proofs Lincons_Proofs2 Lra_Model Spec_Lra Lra_Fm Lra_Bounds Lra_Hist Lra_Steps Lra_Keep
  Lra_Range Lra_Good Lra_Confl Lra_Watch Lra_Watch2 Comb_Model.
Import ListNotations.
Open Scope nat_scope.

(** ** trails that agree on the levels below [k] *)
Definition sameval (t t' : trail) (v : var) : Prop :=
  match v with VBool i => mval (t_bm t') i = mval (t_bm t) i | VRat x => mval (t_qm t') x = mval (t_qm t) x end.
Definition kx (k : nat) (t t' : trail) : Prop :=
  forall v j, j < k -> (t_lvl t v = Some j <-> t_lvl t' v = Some j) /\ (t_lvl t v = Some j -> sameval t t' v).
Lemma kx_le k k' t t' : k <= k' -> kx k' t t' -> kx k t t'.
Proof. intros L H v j Hj. apply H. lia. Qed.
Lemma kx_trans k t1 t2 t3 : kx k t1 t2 -> kx k t2 t3 -> kx k t1 t3.
Proof.
  intros A B v j Hj. destruct (A v j Hj) as [A1 A2], (B v j Hj) as [B1 B2]. split; [tauto|].
  intros E. specialize (A2 E). apply A1 in E. specialize (B2 E). destruct v; cbn in *; congruence.
Qed.
Lemma kx_tv k t t' x j b : TT t -> TT t' -> kx k t t' -> j < k -> lev t x = Some j -> tv t x = Some b <-> tv t' x = Some b.
Proof.
  intros T T' K L E. destruct (K (VBool (lord x)) j L) as [K1 K2]. unfold lev in E.
  assert (D : mdef (t_bm t) (lord x) = true) by (apply tt_b; auto; unfold lvar in E; congruence).
  assert (D' : mdef (t_bm t') (lord x) = true) by (apply tt_b; auto; apply K1 in E; unfold lvar in E; congruence).
  specialize (K2 E). cbn in K2. unfold tv, eval_lit. rewrite D, D', K2. tauto.
Qed.
Lemma kx_PB k d t t' : TT t -> TT t' -> kx k t t' -> PB k d t -> PB k d t'.
Proof.
  intros T T' K P r Hr. specialize (P r Hr). destruct (getc d r) as [|x [|y c]]; cbn in *; auto.
  - intros L E. assert (L0 : 0 < k) by lia. destruct (K (VBool (lord x)) 0 L0) as [K1 _]. apply K1 in E.
    apply (kx_tv k t t' x 0 true); auto.
  - assert (W : forall a b, pair_b t k a b -> pair_b t' k a b).
    { intros a b H i F E L. destruct (K (VBool (lord a)) i L) as [K1 _]. apply K1 in E.
      apply (kx_tv k t t' a i false) in F; auto. destruct (H i F E L) as (H1 & j & H2 & H3).
      assert (j < k) by lia. split; [apply (kx_tv k t t' b j true); auto|]. exists j. split; auto.
      unfold lev in *. now apply (K (lvar b) j). }
    destruct P. split; apply W; auto.
Qed.
Lemma kx_below k t t' j vs : kx k t t' -> j < k -> below t j vs <-> below t' j vs.
Proof.
  intros K L. unfold below. split; intros H v Hv; destruct (H v Hv) as (j' & E & L'); exists j'; split; auto;
    apply (K (VRat v) j'); auto; lia.
Qed.
Lemma kx_OKi k s t t' i : sinv s -> kx k t t' -> OKi k s t i -> OKi k s t' i.
Proof.
  intros HS K (A & B & C). split; [|split].
  - intros v j Hv E L. apply (kx_below k t t'); auto. eapply A; eauto. now apply (K (VRat v) j).
  - intros j L Hb. apply (kx_below k t t') in Hb; auto. destruct (B j L Hb) as (j' & E & L'). exists j'. split; auto. apply (K (VBool i) j'); auto; lia.
  - intros j j' L L' Hb E. apply (kx_below k t t') in Hb; auto. destruct (K (VBool i) j' L') as [K1 K2]. apply K1 in E.
    specialize (C j j' L L' Hb E). specialize (K2 E). cbn in K2. unfold agree in *. rewrite K2, C. apply stored_holds_ext; auto.
    intros v Hv. destruct (Hb v Hv) as (j1 & E1 & L1). assert (L2 : j1 < k) by lia. destruct (K (VRat v) j1 L2) as [_ K4]. symmetry. now apply K4.
Qed.
Lemma kx_R1 k t t' : 1 <= k -> kx k t t' -> R1 t -> R1 t'.
Proof. intros L K R x E. apply (R x). now apply (K (VRat x) 0). Qed.

Lemma kx_decide t v x t' : t_levels t <> [] -> t_lvl t v = None -> t_step t (TDecide v x) = Ok t' -> kx (S (dl t)) t t' /\ dl t' = S (dl t) /\
  mnum (t_bm t') = mnum (t_bm t) /\ mnum (t_qm t') = mnum (t_qm t).
Proof.
  intros N U S. cbn [t_step] in S. injection S as <-.
  assert (L : t_lvl (trail_decide (put t v x) v) = vupd (t_lvl t) v (Some (S (dl t)))).
  { unfold trail_decide. cbn [t_lvl]. destruct v; cbn [put]; unfold dl; cbn [t_levels with_bm with_qm t_lvl]; destruct (t_levels t); try congruence; cbn; repeat f_equal; lia. }
  split; [|split].
  - intros w j Hj. rewrite L. destruct (var_eq_dec w v) as [->|Nw].
    + rewrite vupd_eq. split; [split; [congruence|intros E; injection E as <-; lia]|congruence].
    + rewrite vupd_neq by auto. split; [tauto|]. intros E. destruct w as [i|i], v as [k|k]; cbn; unfold upd; auto;
        destruct (Nat.eqb_spec i k); congruence.
  - destruct v; unfold dl; cbn; destruct (t_levels t); cbn; congruence || lia.
  - destruct v; split; reflexivity.
Qed.
Lemma kx_back t k t' : TT t -> trail_backtrack t k = Ok t' -> kx (S k) t t' /\ dl t' = k /\ (mnum (t_bm t') = mnum (t_bm t) /\ mnum (t_qm t') = mnum (t_qm t)) /\ TT t' /\
  (forall v j, t_lvl t' v = Some j -> t_lvl t v = Some j).
Proof.
  intros (a & T) H.
  assert (K : k <= dl t) by (unfold trail_backtrack in H; destruct (Nat.leb_spec k (dl t)); [auto|discriminate]).
  destruct (inv_backtrack t a k T) as (t1' & E & T1 & LS); [destruct T as [_ T]; simpl; now rewrite <- (sh_dl _ _ T)|].
  rewrite H in E. injection E as <-. pose proof T as [N A]. pose proof T1 as [N1 A1].
  unfold trail_backtrack in H. destruct (k <=? dl t); [|discriminate]. injection H as H.
  destruct (backtrack_loop_spec k (dl t - k) t) as (_ & _ & _ & [M1 M1'] & [M2 M2'] & _). rewrite H in *.
  assert (LV : forall v, t_lvl t' v = match t_lvl t v with Some j => if j <=? k then Some j else None | None => None end).
  { intros v. rewrite (sh_lvl _ _ A1), (sh_lvl _ _ A). cbn. unfold cut. destruct (at_rec a v) as [g|]; auto. cbn. destruct (a_level g <=? k); auto. }
  split; [|split; [rewrite (sh_dl _ _ A1); reflexivity|split; [|split; [eexists; eauto|]]]].
  - intros v j Hj. rewrite LV. split.
    + destruct (t_lvl t v) as [i|]; [|tauto]. destruct (Nat.leb_spec i k); [tauto|]. split; [|discriminate]. intros E. injection E as ->. lia.
    + intros _. destruct v; cbn; congruence.
  - split; congruence.
  - intros v j E. rewrite LV in E. destruct (t_lvl t v) as [i|]; [|discriminate]. destruct (i <=? k); congruence.
Qed.
Lemma kx_bx t t' : TT t -> TT t' -> bx t t' -> kx (dl t) t t'.
Proof.
  intros T T' B v j L. split; [split|].
  - apply (bx_lvl _ _ B).
  - intros E. destruct (t_lvl t v) as [i|] eqn:E1; [apply (bx_lvl _ _ B) in E1; congruence|]. pose proof (bx_top _ _ B _ _ E1 E). lia.
  - intros E. destruct v as [i|x]; cbn; [|now rewrite (bx_qm _ _ B)].
    assert (D : mdef (t_bm t) i = true) by (apply tt_b; auto; congruence).
    pose proof (bx_val _ _ B (mkLit i false) (mval (t_bm t) i)) as V. unfold tv, eval_lit in V. cbn in V. rewrite D in V.
    destruct (mval (t_bm t) i) eqn:EV; specialize (V eq_refl); destruct (mdef (t_bm t') i); try discriminate; injection V as V; destruct (mval (t_bm t') i); auto; discriminate.
Qed.
(** literals of the clauses exist, so new boolean variables do not matter to them *)
Lemma fx_PB k d t t' : TT t -> TT t' -> in_vars (mnum (t_bm t)) d -> fx t t' -> PB k d t -> PB k d t'.
Proof.
  intros T T' V F P r Hr. specialize (P r Hr).
  assert (I : forall x, In x (getc d r) -> lev t' x = lev t x /\ tv t' x = tv t x).
  { intros x Hx. pose proof (V (getc d r) x (getc_in d r Hr) Hx) as R. unfold lev, lvar, tv, eval_lit. rewrite (fx_lvl _ _ F) by auto.
    destruct (fx_b _ _ F (lord x) R) as [-> ->]. auto. }
  destruct (getc d r) as [|x [|y c]]; cbn in *; auto.
  - destruct (I x) as [-> ->]; auto.
  - destruct (I x) as [I1 I2]; auto. destruct (I y) as [I3 I4]; auto.
    destruct P as [P1 P2]. unfold pair_b in *. rewrite I1, I2, I3, I4. auto.
Qed.
Lemma fx_R1 t t' : fx t t' -> R1 t -> R1 t'.
Proof. intros F R x. rewrite (fx_lv _ _ F). apply R. Qed.
Lemma bx_R1 t t' : bx t t' -> R1 t -> R1 t'.
Proof. intros F R x. rewrite (bx_lv _ _ x F). apply R. Qed.

(** ** operations of propagate() *)
Lemma tt_resize t n : TT t -> mnum (t_bm t) <= n -> TT (trail_resize t n (mnum (t_qm t))).
Proof.
  intros (a & T) H. exists (at_step a (TResize n (mnum (t_qm t)))). apply inv_resize; auto.
  destruct T as [_ T]. destruct (sh_num _ _ T) as [E1 E2]. cbn. lia.
Qed.
Lemma tt_any t v ro k x t1 : TT t -> in_range (mnum (t_bm t)) (mnum (t_qm t)) v = true -> t_lvl t v = None ->
  t_step t (TPropagate v ro k x) = Ok t1 -> TT t1.
Proof.
  intros (a & T) R U S. destruct (step_prop_inv _ _ _ _ _ _ S) as (K & _).
  destruct (inv_step t a (TPropagate v ro k x) T) as (t1' & E & T').
  { destruct T as [_ T]. split; [|split].
    * destruct (sh_num _ _ T) as [<- <-]. auto.
    * eapply gi_rec_none; eauto.
    * now rewrite <- (sh_dl _ _ T). }
  rewrite S in E. injection E as <-. eexists; eauto.
Qed.
Lemma prop_ops_kept d e t t' : TT t -> prop_ops true d e t t' -> TT t' /\ (mnum (t_bm t) <= mnum (t_bm t') /\ mnum (t_qm t') = mnum (t_qm t)) /\
  (forall v j, t_lvl t v = Some j -> t_lvl t' v = Some j).
Proof.
  intros T H. revert T. induction H as [t|t n t' Hn H IH|t l ro k t1 t' H1 H2 H3 H4 H5 IH|t x k q t1 t' H1 H2 H3 H4 IH]; intros T.
  - auto.
  - destruct IH as (A & B & C); [now apply tt_resize|]. split; auto. split; [cbn in B; lia|]. intros v j E. apply C.
    pose proof (tt_range _ _ _ T E) as R. unfold trail_resize. cbn [t_lvl].
    rewrite Nat.min_r, Nat.min_id by lia. now rewrite R.
  - assert (R : in_range (mnum (t_bm t)) (mnum (t_qm t)) (lvar l) = true) by (cbn; now apply Nat.ltb_lt).
    destruct IH as (A & B & C); [eapply tt_any; eauto|]. destruct (step_prop_inv _ _ _ _ _ _ H4) as (K & L1 & _ & B1 & B2).
    split; auto. split; [rewrite B1, B2 in B; exact B|]. intros v j E. apply C. rewrite L1, vupd_neq; auto. intros ->. unfold lit_level in H2. congruence.
  - assert (R : in_range (mnum (t_bm t)) (mnum (t_qm t)) (VRat x) = true) by (cbn; now apply Nat.ltb_lt).
    destruct IH as (A & B & C); [eapply tt_any; eauto|]. destruct (step_prop_inv _ _ _ _ _ _ H3) as (K & L1 & _ & B1 & B2).
    split; auto. split; [rewrite B1, B2 in B; exact B|]. intros v j E. apply C. rewrite L1, vupd_neq; auto. intros ->. congruence.
Qed.

(** operations that create no boolean variable and assign no rational variable are foreign to the plugin *)
Lemma prop_ops_run hi hv opt d e a t t' : TT t -> prop_ops true d e t t' -> lra_run hi hv opt a t ->
  length (st_cons (l_st a)) = mnum (t_bm t) -> mnum (t_bm t') = mnum (t_bm t) -> (forall x, lv t' x = lv t x) ->
  lra_run hi hv opt a t'.
Proof.
  intros T H. revert T. induction H as [t|t n t' Hn H IH|t l ro k t1 t' H1 H2 H3 H4 H5 IH|t x k q t1 t' H1 H2 H3 H4 IH]; intros T R NB N L.
  - auto.
  - pose proof (tt_resize t n T Hn) as T1. destruct (prop_ops_kept _ _ _ _ T1 H) as (_ & [M _] & _). cbn in M.
    assert (n = mnum (t_bm t)) by lia. subst n. apply IH; auto.
    + pose proof (lr_resize hi hv opt a t _ _ R (le_n (mnum (t_bm t))) (le_n (mnum (t_qm t)))) as R1.
      assert (E : with_st a (lc_resize (l_st a) (mnum (t_bm t))) = a); [|now rewrite E in R1].
      unfold lc_resize. rewrite NB, Nat.sub_diag. cbn. rewrite app_nil_r. destruct a as [s ? ? ? ? ? ? ?]. cbn. destruct s. reflexivity.
    + intros x. rewrite L. unfold lv, trail_resize. cbn [t_lvl]. rewrite !Nat.min_id. cbn [in_range].
      destruct (t_lvl t (VRat x)) as [j|] eqn:E; [|destruct (x <? mnum (t_qm t)); auto]. pose proof (tt_range _ _ _ T E) as RR. cbn [in_range] in RR. now rewrite RR.
  - assert (RG : in_range (mnum (t_bm t)) (mnum (t_qm t)) (lvar l) = true) by (cbn; now apply Nat.ltb_lt).
    pose proof (tt_any _ _ _ _ _ _ T RG H2 H4) as T1. destruct (step_prop_inv _ _ _ _ _ _ H4) as (K & L1 & _ & B1 & _).
    assert (EB : mnum (t_bm t1) = mnum (t_bm t)) by (now rewrite B1).
    apply IH; auto; try congruence.
    + eapply lr_foreign; [exact R| |exact H4]. cbn. exact H1.
    + intros x. rewrite L. unfold lv. rewrite L1. rewrite vupd_neq; auto. discriminate.
  - exfalso. assert (RG : in_range (mnum (t_bm t)) (mnum (t_qm t)) (VRat x) = true) by (cbn; now apply Nat.ltb_lt).
    pose proof (tt_any _ _ _ _ _ _ T RG H2 H3) as T1. destruct (step_prop_inv _ _ _ _ _ _ H3) as (K & L1 & _).
    destruct (prop_ops_kept _ _ _ _ T1 H4) as (_ & _ & C). specialize (C (VRat x) k). rewrite L1, vupd_eq in C. specialize (C eq_refl).
    specialize (L x). unfold lv in L. congruence.
Qed.
Lemma prop_ops_tpi d e t t' : tpi false d t -> prop_ops true d e t t' -> tpi false d t'.
Proof.
  intros (T & V & _) H. destruct (prop_ops_kept _ _ _ _ T H) as (A & [B _] & _). split; auto. split; [|discriminate].
  intros c l Hc Hl. specialize (V c l Hc Hl). lia.
Qed.

(** ** the store only grows at the end *)
Lemma estep_app hi hv p q : estep hi hv p q -> sinv (fst (fst p)) -> exists l, st_cons (fst (fst q)) = st_cons (fst (fst p)) ++ l.
Proof.
  destruct 1; cbn [fst]; intros HS; try (exists []; now rewrite app_nil_r).
  - destruct (make_shape hi hv s q s' c (si_inv _ HS) H H0) as [_ [E|(d & E & _)]]; [exists []; now rewrite app_nil_r|eauto].
  - cbn. eauto.
Qed.
Lemma esteps_app hi hv p q : esteps hi hv p q -> sinv (fst (fst p)) -> exists l, st_cons (fst (fst q)) = st_cons (fst (fst p)) ++ l.
Proof.
  induction 1 as [p|p q r H1 H2 IH]; intros HS; [exists []; now rewrite app_nil_r|].
  destruct (estep_sinv hi hv _ _ H1 HS) as [S1 _]. destruct (estep_app _ _ _ _ H1 HS) as (l & E). destruct (IH S1) as (l' & E').
  exists (l ++ l'). rewrite E', E. now rewrite app_assoc.
Qed.
Definition ltm (p : bstate * lra) (m : nat -> bool) : Prop := exists r, consistent (l_st (snd p)) r m.
Lemma steps_refine hi hv b b' a t a' t' : esteps hi hv (run3 a t) (run3 a' t') -> wsi a ->
  refines ltm (length (st_cons (l_st a))) (b, a) (b', a').
Proof.
  intros H W. destruct (esteps_grows _ _ _ _ _ _ H W) as (S1 & S2 & G). destruct (esteps_app _ _ _ _ H S1) as (l & E). cbn in E.
  split; intros m (r & C); cbn in *.
  - exists r. eapply consistent_grows; eauto.
  - exists (fun i => if i <? length (st_cons (l_st a)) then m i else
      if Lra_Confl.rel_dec (lc_pred (lc_get (l_st a') i)) (lin r (lc_terms (l_st a') (lc_get (l_st a') i))) (lc_rhs (lc_get (l_st a') i)) then true else false).
    split.
    + exists r. intros i He. destruct (Nat.ltb_spec i (length (st_cons (l_st a)))).
      * assert (EG : lc_get (l_st a') i = lc_get (l_st a) i) by (unfold lc_get; rewrite E; now apply app_nth1).
        assert (Hi : isC (l_st a) i) by (unfold isC; now rewrite <- EG). rewrite (C i Hi). symmetry. now apply stored_holds_grows.
      * unfold stored_holds. destruct (Lra_Confl.rel_dec _ _ _); split; auto; discriminate.
    + intros i Hi. apply Nat.ltb_lt in Hi. now rewrite Hi.
Qed.

(** ** the contract *)
Section L.
Variables (hi : nat -> Z) (hv : Q -> Z) (opt : lopt) (df : nat) (nq : nat) (s0 : store).
Hypothesis HU : o_unassigned opt = false.

Definition lskip (a : lra) (t : trail) : nat :=
  match cu_level (l_cur a) with Some k => if dl t =? k then cu_next (l_cur a) else 0 | None => 0 end.
Definition lpnd (a : lra) (t : trail) (v : var) : Prop := In v (map fst (snd (cursor_assigned (l_cur a) t))).
Record LI (a : lra) (t : trail) : Prop := mkLI {
  li_run : lra_run hi hv opt a t;
  li_w : Wc (l_watch a) (l_st a);
  li_r : R1 t;
  li_n : length (st_cons (l_st a)) = mnum (t_bm t);
  li_q : mnum (t_qm t) = nq;
  li_g : grows s0 (l_st a) }.
Definition PE (p : bstate * lra) (d : db) (t : trail) : Prop :=
  Ent (fst p) d t /\ LI (snd p) t /\ (forall i, isC (l_st (snd p)) i -> PEi (lpnd (snd p) t) [] (l_st (snd p)) t i) /\
  bskip (fst p) t <= length (recent t) /\ lskip (snd p) t <= length (recent t).
Definition PA (p : bstate * lra) (d : db) (t : trail) : Prop :=
  PE p d t /\ WC d (b_watched (fst p)) /\ forall r, valid d r -> cen (fst p) t (getc d r).
Definition PC (k : nat) (p : bstate * lra) (d : db) (t : trail) : Prop :=
  tpi false d t /\ WC d (b_watched (fst p)) /\ PB k d t /\ LI (snd p) t /\ forall i, isC (l_st (snd p)) i -> OKi k (l_st (snd p)) t i.
Definition PD (p : bstate * lra) (d : db) (t : trail) : Prop :=
  PC (S (dl t)) p d t /\ (forall m, b_level (fst p) = Some m -> m <= dl t) /\
  (forall m, cu_level (l_cur (snd p)) = Some m -> m <= dl t).

Lemma run_sinv a t : lra_run hi hv opt a t -> wsi a /\ sinv (l_st a).
Proof. intros H. destruct (run_steps _ _ _ _ _ H) as [_ W]. split; [exact W|apply W]. Qed.

Lemma skipn_more {A} (n : nat) (l1 l2 : list A) : forall x, In x (skipn n l1) -> In x (skipn n (l1 ++ l2)).
Proof. intros x H. rewrite skipn_app. apply in_app_iff. auto. Qed.
Lemma skipn_new {A} (n : nat) (l1 l2 : list A) : n <= length l1 -> forall x, In x l2 -> In x (skipn n (l1 ++ l2)).
Proof. intros L x H. rewrite skipn_app. replace (n - length l1) with 0 by lia. apply in_app_iff. auto. Qed.

(** pending entries stay pending, new ones are pending *)
Lemma pend_old n t t' v : bx t t' -> In v (map fst (skipn n (rev (recent t)))) -> In v (map fst (skipn n (rev (recent t')))).
Proof.
  intros B H. destruct (bx_new _ _ B) as (new & E & _). rewrite E, rev_app_distr. apply in_map_iff in H. destruct H as (e & E1 & H).
  apply in_map_iff. exists e. split; auto. now apply skipn_more.
Qed.
Lemma pend_new n t t' v : bx t t' -> n <= length (recent t) -> t_lvl t v = None -> t_lvl t' v <> None ->
  In v (map fst (skipn n (rev (recent t')))).
Proof.
  intros B L U D. destruct (bx_new _ _ B) as (new & E & _ & N). specialize (N v U D). rewrite E, rev_app_distr.
  apply in_map_iff in N. destruct N as (e & E1 & H). apply in_map_iff. exists e. split; auto. apply skipn_new; [now rewrite rev_length|]. now apply in_rev in H.
Qed.
Lemma bx_length t t' : bx t t' -> length (recent t) <= length (recent t').
Proof. intros B. destruct (bx_new _ _ B) as (new & -> & _). rewrite app_length. lia. Qed.
Lemma lskip_bx a t t' : bx t t' -> lskip a t' = lskip a t.
Proof. intros B. unfold lskip. now rewrite (bx_dl _ _ B). Qed.
Lemma bskip_bx b t t' : bx t t' -> bskip b t' = bskip b t.
Proof. intros B. unfold bskip. now rewrite (bx_dl _ _ B). Qed.

Lemma LI_bx d e a t t' : TT t -> bx t t' -> prop_ops true d e t t' -> LI a t -> LI a t'.
Proof.
  intros T B P [A1 A2 A3 A4 A5 A6]. constructor; auto.
  - eapply prop_ops_run; eauto; [apply (bx_num _ _ B)|]. intros x. now apply bx_lv.
  - now apply (bx_R1 t).
  - now rewrite (bx_num _ _ B).
  - now rewrite (bx_qm _ _ B).
Qed.
Lemma PEi_bx a t t' i : TT t -> bx t t' -> lskip a t <= length (recent t) -> PEi (lpnd a t) [] (l_st a) t i -> PEi (lpnd a t') [] (l_st a) t' i.
Proof.
  intros T B L H. eapply bx_PEi; [exact T|exact B| | |exact H].
  - unfold lpnd, cursor_assigned. cbn [snd]. intros v Hv. fold (lskip a t) in Hv. fold (lskip a t'). rewrite (lskip_bx a t t' B). now apply (pend_old _ t).
  - unfold lpnd, cursor_assigned. cbn [snd]. intros U D. fold (lskip a t'). rewrite (lskip_bx a t t' B). now apply (pend_new _ t).
Qed.
(** a false literal of [t'] was false before or is new *)
Lemma bx_old t t' x : TT t -> TT t' -> bx t t' -> tv t' x = Some false ->
  (tv t x = Some false /\ exists k, lev t x = Some k /\ lev t' x = Some k) \/ (lev t x = None /\ lev t' x = Some (dl t)).
Proof.
  intros T T' B F. unfold tv, eval_lit in F. destruct (mdef (t_bm t') (lord x)) eqn:D'; [|discriminate].
  apply tt_b in D'; auto. unfold lev, lvar. destruct (t_lvl t (VBool (lord x))) as [k|] eqn:E.
  - left. pose proof (bx_lvl _ _ B _ _ E) as E'. split; [|eauto].
    assert (D : mdef (t_bm t) (lord x) = true) by (apply tt_b; auto; congruence).
    destruct (tv t x) as [[|]|] eqn:Et; auto.
    + apply (bx_val _ _ B) in Et. unfold tv, eval_lit in Et. destruct (mdef (t_bm t') (lord x)); congruence.
    + unfold tv, eval_lit in Et. rewrite D in Et. discriminate.
  - right. split; auto. destruct (t_lvl t' (VBool (lord x))) as [k|] eqn:E'; [|congruence]. f_equal. exact (bx_top _ _ B _ _ E E').
Qed.
Lemma grd_bx t t' x y : bx t t' -> grd t x y -> grd t' x y.
Proof.
  intros B (G1 & k & k' & G2 & G3 & G4). split; [now apply (bx_val _ _ B)|]. exists k, k'. unfold lev in *.
  split; [now apply (bx_lvl _ _ B)|]. split; [now apply (bx_lvl _ _ B)|auto].
Qed.
Lemma cen_bx b t t' c : TT t -> TT t' -> bx t t' -> bskip b t <= length (recent t) -> cen b t c -> cen b t' c.
Proof.
  intros T T' B L H.
  assert (O : forall x, pnd b t x -> pnd b t' x) by (intros x; unfold pnd; rewrite (bskip_bx b t t' B); now apply pend_old).
  assert (N : forall x, lev t x = None -> lev t' x <> None -> pnd b t' x) by (intros x; unfold pnd, lev; rewrite (bskip_bx b t t' B); now apply pend_new).
  destruct c as [|x [|y c]]; cbn in *; auto.
  - intros F E. rewrite (bx_dl _ _ B). destruct (bx_old t t' x T T' B F) as [(F1 & k & E1 & E2)|[E1 E2]].
    + assert (k = 0) by congruence. subst k. destruct (H F1 E1). auto.
    + split; [congruence|]. apply N; congruence.
  - assert (W : forall x y, (tv t x = Some false -> grd t x y \/ lev t x = Some (dl t) /\ pnd b t x) ->
       tv t' x = Some false -> grd t' x y \/ lev t' x = Some (dl t') /\ pnd b t' x).
    { intros x0 y0 HH F. rewrite (bx_dl _ _ B). destruct (bx_old t t' x0 T T' B F) as [(F1 & k & E1 & E2)|[E1 E2]].
      - destruct (HH F1) as [G|[G1 G2]]; [left; now apply (grd_bx t)|right; split; [congruence|auto]].
      - right. split; auto. apply N; congruence. }
    destruct H. split; apply W; auto.
Qed.
(** after boolean propagation, further boolean literals of the other plugin are pending *)
Lemma cen_round b t t' c : TT t -> TT t' -> bx t t' -> bskip b t <= length (recent t) ->
  cbl t (S (dl t)) c -> (forall u, c = [u] -> lev t u = Some 0) -> cen b t' c.
Proof.
  intros T T' B L H HUn.
  assert (N : forall x, lev t x = None -> lev t' x <> None -> pnd b t' x) by (intros x; unfold pnd, lev; rewrite (bskip_bx b t t' B); now apply pend_new).
  destruct c as [|x [|y c]]; cbn in *; auto.
  - intros F E. exfalso. specialize (HUn x eq_refl). assert (1 <= S (dl t)) by lia. specialize (H H0 HUn). apply (bx_val _ _ B) in H. congruence.
  - assert (W : forall x y, pair_b t (S (dl t)) x y -> tv t' x = Some false -> grd t' x y \/ lev t' x = Some (dl t') /\ pnd b t' x).
    { intros x0 y0 HH F. rewrite (bx_dl _ _ B). destruct (bx_old t t' x0 T T' B F) as [(F1 & k & E1 & E2)|[E1 E2]].
      - left. destruct (HH k F1 E1) as (G & j & G1 & G2); [apply (tt_le t) in E1; auto; lia|]. apply (grd_bx t); auto. split; auto. exists k, j. auto.
      - right. split; auto. apply N; congruence. }
    destruct H. split; apply W; auto.
Qed.
(** no new entry, no change *)
Lemma bx_same t t' : bx t t' -> length (recent t') = length (recent t) -> forall v, t_lvl t' v = t_lvl t v.
Proof.
  intros B L v. destruct (t_lvl t v) as [k|] eqn:E; [now apply (bx_lvl _ _ B)|]. destruct (bx_new _ _ B) as (new & E1 & _ & N).
  destruct (t_lvl t' v) as [k|] eqn:E'; auto. assert (H : In v (map fst new)) by (apply N; congruence).
  rewrite E1, app_length in L. destruct new; [easy|cbn in L; lia].
Qed.
Lemma bx_same_kx k t t' : TT t -> TT t' -> bx t t' -> length (recent t') = length (recent t) -> kx k t t'.
Proof.
  intros T T' B L v j _. rewrite (bx_same t t' B L v). split; [tauto|]. intros E.
  assert (K : j < S j) by lia.
  destruct v as [i|x]; cbn; [|now rewrite (bx_qm _ _ B)].
  assert (D : mdef (t_bm t) i = true) by (apply tt_b; auto; congruence).
  pose proof (bx_val _ _ B (mkLit i false) (mval (t_bm t) i)) as V. unfold tv, eval_lit in V. cbn in V. rewrite D in V.
  destruct (mval (t_bm t) i) eqn:EV; specialize (V eq_refl); destruct (mdef (t_bm t') i); try discriminate; injection V as V; destruct (mval (t_bm t') i); auto; discriminate.
Qed.
Lemma units_bx d t t' : bx t t' -> units_done d t -> units_done d t'.
Proof. intros B U u Hu. unfold lev in *. apply (bx_lvl _ _ B). now apply U. Qed.
Lemma refines_trans n n1 (p q r : bstate * lra) : n <= n1 -> refines ltm n p q -> refines ltm n1 q r -> refines ltm n p r.
Proof.
  intros L [A1 A2] [B1 B2]. split; [auto|]. intros m H. destruct (A2 m H) as (m1 & H1 & E1). destruct (B2 m1 H1) as (m2 & H2 & E2).
  exists m2. split; auto. intros i Hi. rewrite E2, E1; auto. lia.
Qed.
Lemma refines_bool n b b' a : refines ltm n (b, a) (b', a).
Proof. split; [auto|]. intros m H. exists m. auto. Qed.

Lemma bl_propagate_ok ent : forall n fuel b a d t b' a' d' t' cs, PE (b, a) d t -> (trail_empty t = false -> units_done d t) ->
  bl_propagate hi hv opt n fuel b a d t = Ok ((b', a'), d', t', cs) ->
  (cs = [] -> PD (b', a') d' t' /\ units_done d' t') /\ (cs <> [] -> PC (dl t') (b', a') d' t') /\
  dbperm d d' /\ refines ltm (mnum (t_bm t)) (b, a) (b', a') /\ prop_ops true d' ent t t' /\
  (forall c, In c cs -> lemma_of ltm (b', a') d c /\ forall l, In l c -> eval_lit (t_bm t') l = Some false).
Proof.
  induction n as [|n IH]; intros fuel b a d t b' a' d' t' cs (HE & HL & HP & KB & KL) HUn H; [discriminate|]. cbn [fst snd] in *.
  cbn [bl_propagate] in H. destruct (bool_propagate fuel b d t) as [[[[b1 d1] t1] c1]| |] eqn:EB; cbn [bind] in H; try discriminate.
  pose proof (proj1 HE) as (T & V & _).
  destruct (bool_propagate2 ent _ _ _ _ _ _ _ _ HE HUn EB) as (B1 & B2 & B3 & B4 & B5 & B6 & B7 & B8 & B9 & B10).
  pose proof (proj1 B2) as T1. pose proof (LI_bx _ _ _ _ _ T B4 B3 HL) as HL1. pose proof HL1 as [R1' W1 R01 N1 Q1 G1].
  destruct (run_sinv _ _ R1') as [WS SI].
  destruct c1 as [|cl c1].
  - destruct (lra_propagate hi hv opt a t1) as [[[a2 t2] c2]| |] eqn:EL; cbn [bind] in H; try discriminate.
    assert (HP1 : forall i, isC (l_st a) i -> PEi (lpnd a t1) [] (l_st a) t1 i) by (intros i Hi; exact (PEi_bx a t t1 i T B4 KL (HP i Hi))).
    destruct (lra_propagate_ok hi hv opt d1 ent a t1 a2 t2 c2 HU WS T1 R01 N1 W1 HP1 EL) as (L1 & L2 & L3 & L4 & tm & L5 & L6 & L7 & L8).
    pose proof (propagate_steps hi hv opt _ _ _ _ _ WS EL) as [G _].
    pose proof (steps_refine _ _ b1 b1 _ _ _ _ G WS) as RF. rewrite N1, (bx_num _ _ B4) in RF.
    assert (RF' : refines ltm (mnum (t_bm t)) (b, a) (b1, a2)) by (eapply refines_trans; [apply le_n|apply (refines_bool _ b b1)|exact RF]).
    pose proof (lr_propagate hi hv opt _ _ _ _ _ R1' EL) as R2.
    assert (HL2 : LI a2 t2) by (constructor; [exact R2|apply (jo_c _ _ _ L2)|apply (jo_r _ _ _ L2)|apply (jo_n _ _ _ L2)|destruct (prop_ops_kept _ _ _ _ T1 L4) as (_ & [_ ->] & _); exact Q1|
      eapply grows_trans; [exact G1|apply (esteps_grows _ _ _ _ _ _ G WS)]]).
    pose proof (jo_t _ _ _ L2) as T2.
    pose proof (prop_ops_tpi _ _ _ _ B2 L4) as P2.
    assert (PO : prop_ops true d1 ent t t2) by (eapply prop_ops_trans; eauto).
    destruct (B9 eq_refl) as [PB1 U1].
    destruct c2 as [|cl c2].
    + specialize (L8 eq_refl). subst tm.
      destruct (Nat.eqb_spec (length (recent t2)) (length (recent t))) as [EQ|NQ].
      * injection H as <- <- <- <- <-.
        assert (LE : length (recent t2) = length (recent t1)).
        { pose proof (bx_length _ _ B4). pose proof (bx_length _ _ L5). lia. }
        split; [intros _|split; [congruence|]].
        -- split; [|eapply units_bx; eauto]. split; [|cbn [fst snd]; split].
           ++ split; [exact P2|]. split; [exact B5|]. split; [|split; [exact HL2|exact (jo_ok _ _ _ L2)]].
              eapply kx_PB; [exact T1|exact T2| |rewrite (bx_dl _ _ L5); exact PB1]. now apply bx_same_kx.
           ++ intros m E. rewrite B6 in E. injection E as <-. rewrite (bx_dl _ _ L5). lia.
           ++ intros m E. rewrite L3 in E. cbn in E. injection E as <-. rewrite (bx_dl _ _ L5). lia.
        -- split; [exact B1|]. split; [exact RF'|]. split; [exact PO|]. intros c [].
      * assert (HB1 : bskip b1 t1 <= length (recent t1)).
        { unfold bskip. rewrite B6, Nat.eqb_refl, B7. now apply bx_length. }
        eapply IH in H.
        -- destruct H as (I1 & I2 & I3 & I4 & I5 & I6). split; [exact I1|]. split; [exact I2|]. split; [eapply dbperm_trans; eauto|].
           split; [eapply refines_trans; [|exact RF'|exact I4]; rewrite (bx_num _ _ L5), (bx_num _ _ B4); lia|].
           split; [eapply prop_ops_trans; [eapply prop_ops_perm; [exact I3|exact PO]|exact I5]|].
           intros c Hc. destruct (I6 c Hc) as [J1 J2]. split; auto. intros m Hm Hall. apply J1; auto. eapply perm_hold; eauto.
        -- split; [|cbn [fst snd]; split; [exact HL2|split; [|split]]].
           ++ split; [exact P2|]. intros _. split; [exact B5|]. intros r Hr. cbn [fst]. eapply (cen_round b1 t1 t2); auto.
              intros u Eu. apply U1. rewrite <- Eu. now apply getc_in.
           ++ intros i Hi. apply OKi_PEi. apply (jo_ok _ _ _ L2). exact Hi.
           ++ rewrite (bskip_bx _ _ _ L5). pose proof (bx_length _ _ L5). lia.
           ++ unfold lskip. rewrite L3. cbn. pose proof (bx_length _ _ L5). destruct (dl t2 =? dl t1); lia.
        -- intros _. eapply units_bx; eauto.
    + injection H as <- <- <- <- <-. split; [discriminate|]. split; [intros _|].
      * split; [exact P2|]. split; [exact B5|]. split; [|split; [exact HL2|]].
        -- assert (D2 : dl t2 = dl t1) by (rewrite (fx_dl _ _ L7); apply (bx_dl _ _ L5)).
           assert (IV : in_vars (mnum (t_bm tm)) d1) by (rewrite (bx_num _ _ L5); apply B2).
           apply (fx_PB _ _ tm t2); auto. rewrite D2. eapply kx_PB; [exact T1|exact L6|now apply kx_bx|exact B8].
        -- intros i Hi. eapply OKi_mono; [|apply (jo_ok _ _ _ L2); exact Hi]. lia.
      * split; [exact B1|]. split; [exact RF'|]. split; [exact PO|].
        intros c Hc. destruct (propagate_lemma hi hv opt _ _ _ _ _ (run_cinv _ _ _ _ _ R1') EL c Hc) as [J1 J2]. split.
        -- intros m (r & Hm) _. destruct (J1 r m Hm) as (l & Hl & Hh). exists l. split; auto. unfold lit_holds in Hh. unfold Spec_Sat.lit_holds. rewrite Hh. destruct (lneg l); reflexivity.
        -- apply cl_false. now rewrite J2.
  - injection H as <- <- <- <- <-. split; [discriminate|]. split; [intros _|].
    + split; [exact B2|]. split; [exact B5|]. split; [exact B8|]. split; [exact HL1|]. intros i Hi. cbn [snd] in *.
      eapply kx_OKi; [exact SI|rewrite (bx_dl _ _ B4); now apply kx_bx|]. destruct (HP i Hi) as [O _]. rewrite (bx_dl _ _ B4). exact O.
    + split; [exact B1|]. split; [apply refines_bool|]. split; [exact B3|]. intros c Hc. destruct (B10 c Hc) as [J1 J2]. split; [|exact J2].
      intros m _ Hall. apply (perm_hold _ _ _ B1 Hall). exact J1.
Qed.

(** everything assigned on the current level is pending once the cursors are behind *)
Lemma PA_enter p d t : PC (dl t) p d t -> bskip (fst p) t = 0 -> lskip (snd p) t = 0 -> PA p d t.
Proof.
  intros (P1 & P2 & P3 & P4 & P5) B L. pose proof (proj1 P1) as T.
  assert (LP : forall v, t_lvl t v = Some (dl t) -> lpnd (snd p) t v).
  { intros v Hv. unfold lpnd, cursor_assigned. cbn [snd]. fold (lskip (snd p) t). rewrite L. cbn [skipn].
    rewrite map_rev. apply in_rev. rewrite rev_involutive. now apply tt_recent. }
  assert (PN : forall x, lev t x = Some (dl t) -> pnd (fst p) t x).
  { intros x Hx. unfold pnd. rewrite B. cbn [skipn]. rewrite map_rev. apply in_rev. rewrite rev_involutive. now apply tt_recent. }
  assert (C : forall r, valid d r -> cen (fst p) t (getc d r)).
  { intros r Hr. specialize (P3 r Hr).
    assert (W : forall x y, pair_b t (dl t) x y -> tv t x = Some false -> grd t x y \/ lev t x = Some (dl t) /\ pnd (fst p) t x).
    { intros x y H F. destruct (tpi_LT d t P1 x false F) as (k & E & K). destruct (Nat.eq_dec k (dl t)) as [->|N]; [auto|].
      left. destruct (H k F E) as (G & j & G1 & G2); [lia|]. split; auto. exists k, j. auto. }
    destruct (getc d r) as [|x [|y c]]; cbn in *; auto.
    - intros F E. destruct (dl t) as [|k] eqn:D; [split; auto; apply PN; congruence|]. rewrite P3 in F; auto; [discriminate|lia].
    - destruct P3. split; apply W; auto. }
  split; [|split; [exact P2|exact C]]. split; [|split; [exact P4|split; [|lia]]].
  - split; [exact P1|]. intros _. auto.
  - destruct (run_sinv _ _ (li_run _ _ P4)) as [_ SI]. intros i Hi. apply lra_enter; auto.
Qed.
Lemma bskip_none b t : b_level b = None -> bskip b t = 0.
Proof. unfold bskip. now intros ->. Qed.
Lemma skip_decide p t t' : dl t' = S (dl t) -> (forall m, b_level (fst p) = Some m -> m <= dl t) ->
  (forall m, cu_level (l_cur (snd p)) = Some m -> m <= dl t) -> bskip (fst p) t' = 0 /\ lskip (snd p) t' = 0.
Proof.
  intros D A B. unfold bskip, lskip. rewrite D. split.
  - destruct (b_level (fst p)) as [m|]; auto. specialize (A m eq_refl). destruct (Nat.eqb_spec (S (dl t)) m); auto; lia.
  - destruct (cu_level (l_cur (snd p))) as [m|]; auto. specialize (B m eq_refl). destruct (Nat.eqb_spec (S (dl t)) m); auto; lia.
Qed.
Lemma PC_kx k p d t t' : kx k t t' -> tpi false d t' -> LI (snd p) t' -> PC k p d t -> PC k p d t'.
Proof.
  intros K P' L' (P1 & P2 & P3 & P4 & P5). split; [exact P'|]. split; [exact P2|]. split; [eapply kx_PB; [apply P1|apply P'|exact K|exact P3]|].
  split; [exact L'|]. intros i Hi. destruct (run_sinv _ _ (li_run _ _ P4)) as [_ SI]. eapply kx_OKi; eauto.
Qed.
(** an assignment by a decision *)
Lemma decide_step b a a' d t v x t' : PD (b, a) d t -> t_lvl t v = None -> in_range (mnum (t_bm t)) (mnum (t_qm t)) v = true ->
  t_step t (TDecide v x) = Ok t' -> l_st a' = l_st a -> l_watch a' = l_watch a -> l_cur a' = l_cur a ->
  lra_run hi hv opt a' t' -> PA (b, a') d t'.
Proof.
  intros (P & B & C) U R S E1 E2 E3 RN. pose proof P as (P1 & P2 & P3 & P4 & P5). cbn [fst snd] in *.
  assert (N : t_levels t <> []) by (destruct P1 as ((a0 & N & _) & _); exact N).
  destruct (kx_decide _ _ _ _ N U S) as (K & D & M & MQ). rewrite <- E3 in C. destruct (skip_decide (b, a') t t' D B C) as [S1 S2].
  pose proof (tpi_decide false d t v x t' P1 R U S) as P'.
  destruct (run_sinv _ _ (li_run _ _ P4)) as [_ SI].
  apply PA_enter; auto. rewrite D. split; [exact P'|]. split; [exact P2|]. split; [eapply kx_PB; [apply P1|apply P'|exact K|exact P3]|].
  cbn [snd]. rewrite E1. split; [|intros i Hi; eapply kx_OKi; eauto].
  destruct P4 as [Q1 Q2 Q3 Q4 Q5 Q6]. constructor; [exact RN|now rewrite E1, E2|eapply kx_R1; [|exact K|exact Q3]; lia|rewrite E1; congruence|congruence|now rewrite E1].
Qed.
Lemma learned_is b d r l0 c b' : getc d r = l0 :: c -> bool_learned b d r = Ok b' ->
  b_watched b' = learned_watches d r (b_watched b) (l0 :: c).
Proof. intros E H. unfold bool_learned in H. rewrite E in H. injection H as <-. cbn. destruct c; reflexivity. Qed.

Lemma bl_level : level_ok (bl_theory hi hv opt df) ltm PE PA PD PC.
Proof.
  split.
  - intros p d t H. apply H.
  - intros fuel [b a] d t [b' a'] d' t' cs HE Hn H. cbn [bl_theory th_propagate fst snd] in H.
    apply (bl_propagate_ok (fun l => lemma_of ltm (b', a') d [l])) in H; auto.
  - intros [b a] d t v ts' t' HD U R H. cbn [bl_theory th_decide fst snd] in H. unfold bl_decide in H.
    destruct (lra_decide df a (bool_decide b t v) v) as [[a1 t1]| |] eqn:E; cbn [bind] in H; try discriminate. injection H as <- <-.
    pose proof HD as ((P1 & P2 & P3 & P4 & P5) & B & C). cbn [fst snd] in *.
    destruct v as [i|x].
    + cbn in E. injection E as <- <-.
      assert (SD : t_step t (TDecide (VBool i) (match b_opt b with PhasePositive => true | PhaseNegative => false | PhaseCache => b_phase b i end, 0%Q)) =
        Ok (bool_decide b t (VBool i))) by reflexivity.
      split; [|split; [intros m; tauto|eauto]]. apply (decide_step b a a d t _ _ _ HD U R SD); auto.
      eapply lr_foreign; [apply (li_run _ _ P4)| |exact SD]. cbn in *. now apply Nat.ltb_lt.
    + cbn [bool_decide] in E.
      assert (RN : lra_run hi hv opt a1 t1).
      { eapply lr_decide; [apply (li_run _ _ P4)| |exact E]. cbn in *. now apply Nat.ltb_lt. }
      unfold lra_decide in E. binv E. injection E as <- <-.
      match goal with |- context [trail_decide (with_qm t (set_value (t_qm t) x ?q)) (VRat x)] =>
        assert (SD : t_step t (TDecide (VRat x) (true, q)) = Ok (trail_decide (with_qm t (set_value (t_qm t) x q)) (VRat x))) by reflexivity end.
      split; [|split; [intros m; cbn; tauto|eauto]]. eapply (decide_step b a _ d t); [exact HD|exact U|exact R|exact SD| | | |exact RN]; reflexivity.
  - intros k [b a] d t c ts' (P1 & P2 & P3 & P4 & P5) N F K H. cbn [bl_theory th_learned fst snd] in *.
    destruct (bool_learned b _ _) as [b1| |] eqn:E; cbn [bind] in H; try discriminate. injection H as <-. split; [|intros m; cbn; tauto].
    assert (EG : getc (mkDb (asserted d) (learned d ++ [c])) (CLearned (length (learned d))) = c) by (apply (getc_add_new d c)).
    destruct c as [|l0 c]; [congruence|]. pose proof (learned_is _ _ _ _ _ _ EG E) as EW.
    split; [|cbn [fst snd]; split; [|split; [|split; [exact P4|exact P5]]]].
    + destruct P1 as (A & V & C). split; auto. split; auto. intros c' l Hc Hl. unfold clauses_of in Hc. cbn in Hc. rewrite app_assoc, in_app_iff in Hc.
      destruct Hc as [Hc|[<-|[]]]; [eapply V; eauto|]. specialize (F l Hl).
      destruct (tpi_LT d t (conj A (conj V C)) l false F) as (j & E1 & _). apply (tt_range t) in E1; auto. cbn in E1. now apply Nat.ltb_lt.
    + rewrite EW. apply (WC_learn d (l0 :: c) (b_watched b)); [discriminate|exact P2].
    + intros r Hr. change (mkDb (asserted d) (learned d ++ [l0 :: c])) with (add_learned d (l0 :: c)) in *. apply valid_add in Hr. destruct Hr as [Hr|Hr].
      * rewrite getc_add_old by auto. now apply P3.
      * subst r. unfold new_ref. rewrite EG. cbn in K. destruct c as [|l1 c]; cbn.
        -- intros L E0. destruct (K l0 (or_introl eq_refl)) as (j & J1 & J2). assert (j = 0) by congruence. lia.
        -- split; intros i _ E0 L; exfalso.
           ++ destruct (K l0 (or_introl eq_refl)) as (j & J1 & J2). assert (j = i) by congruence. lia.
           ++ destruct (K l1 (or_intror (or_introl eq_refl))) as (j & J1 & J2). assert (j = i) by congruence. lia.
  - intros k k' p d t L (P1 & P2 & P3 & P4 & P5). split; [exact P1|]. split; [exact P2|]. split; [eapply PB_mono; eauto|]. split; [exact P4|].
    intros i Hi. eapply OKi_mono; eauto.
  - intros [b a] d t k t' P _ H. split; [|intros m; cbn; tauto]. cbn [bl_theory th_before_backtrack fst snd].
    pose proof P as (P1 & P2 & P3 & P4 & P5). destruct (kx_back _ _ _ (proj1 P1) H) as (K & D & [M MQ] & T' & LE).
    apply PA_enter; [|reflexivity|reflexivity]. rewrite D.
    assert (X : PC k (b, lra_before_backtrack a) d t').
    { eapply PC_kx; [eapply kx_le; [|exact K]; lia|eapply tpi_backtrack; eauto| |].
      - destruct P4 as [Q1 Q2 Q3 Q4 Q5 Q6]. cbn [snd] in *. constructor; cbn [snd].
        + eapply (lr_foreign _ _ _ _ _ (TBacktrack k)); [apply lr_backtrack; exact Q1|exact I|exact H].
        + exact Q2.
        + intros x Ex. apply LE in Ex. now apply Q3 in Ex.
        + rewrite M. exact Q4.
        + now rewrite MQ.
        + exact Q6.
      - split; [exact P1|]. split; [exact P2|]. split; [exact P3|]. split; [destruct P4 as [Q1 Q2 Q3 Q4 Q5 Q6]; constructor; [now apply lr_backtrack|exact Q2|exact Q3|exact Q4|exact Q5|exact Q6]|exact P5]. }
    exact X.
  - intros [b a] d t k t' P LD H. split; [|intros m; cbn; tauto]. cbn [bl_theory th_before_backtrack fst snd].
    pose proof P as (P1 & P2 & P3 & P4 & P5). destruct (kx_back _ _ _ (proj1 P1) H) as (K & D & [M MQ] & T' & LE).
    split; [|cbn; split; discriminate]. rewrite D.
    assert (X : PC (S k) (b, lra_before_backtrack a) d t').
    { eapply PC_kx; [exact K|eapply tpi_backtrack; eauto| |].
      - destruct P4 as [Q1 Q2 Q3 Q4 Q5 Q6]. cbn [snd] in *. constructor; cbn [snd].
        + eapply (lr_foreign _ _ _ _ _ (TBacktrack k)); [apply lr_backtrack; exact Q1|exact I|exact H].
        + exact Q2.
        + intros x Ex. apply LE in Ex. now apply Q3 in Ex.
        + rewrite M. exact Q4.
        + now rewrite MQ.
        + exact Q6.
      - split; [exact P1|]. split; [exact P2|]. split; [exact P3|]. split; [destruct P4 as [Q1 Q2 Q3 Q4 Q5 Q6]; constructor; [now apply lr_backtrack|exact Q2|exact Q3|exact Q4|exact Q5|exact Q6]|exact P5]. }
    exact X.
  - intros [b a] d t l r t' ((E & HL & HP & KB & KL) & W & C) R U Hr S. cbn [fst snd] in *.
    pose proof (proj1 E) as TP. pose proof (proj1 TP) as T.
    assert (RG : in_range (mnum (t_bm t)) (mnum (t_qm t)) (lvar l) = true) by (cbn; now apply Nat.ltb_lt).
    assert (TP' : tpi false d t') by (eapply tpi_prop; [exact TP|exact RG|exact U|discriminate|exact S]). pose proof (proj1 TP') as T'.
    pose proof (bx_prop t (lord l) _ _ _ _ T U eq_refl S) as B.
    assert (C' : forall r, valid d r -> cen b t' (getc d r)) by (intros r0 Hr0; eapply cen_bx; [exact T|exact T'|exact B|exact KB|auto]).
    assert (PL := bx_length _ _ B).
    split; [|cbn [fst]; auto]. split; [split; [exact TP'|auto]|]. cbn [snd fst]. split; [|split; [|split]].
    + destruct HL. constructor; auto; [|now apply (bx_R1 t)|now rewrite (bx_num _ _ B)|now rewrite (bx_qm _ _ B)]. eapply lr_foreign; [exact li_run0| |exact S]. exact R.
    + intros i Hi. exact (PEi_bx a t t' i T B KL (HP i Hi)).
    + rewrite (bskip_bx b t t' B). lia.
    + rewrite (lskip_bx a t t' B). lia.
  - intros [b a] d t l t' HD R U S.
    assert (RG : in_range (mnum (t_bm t)) (mnum (t_qm t)) (lvar l) = true) by (cbn; now apply Nat.ltb_lt).
    apply (decide_step b a a d t _ _ _ HD U RG S); auto.
    eapply lr_foreign; [apply HD| |exact S]. exact R.
  - intros [b a] d t L (P1 & P2 & P3 & P4 & P5) HL. cbn [bl_theory th_before_backtrack th_restart fst snd]. split; [|intros m; cbn; tauto].
    assert (TP : tpi false (mkDb (asserted d) L) (trail_clear t)).
    { eapply tpi_clear; [exact P1|]. intros c Hc. unfold clauses_of in *. cbn in Hc. apply in_app_iff in Hc. apply in_app_iff. destruct Hc; auto. }
    split; [|cbn [fst snd]; split; [|split; [|cbn; auto]]].
    + split; [exact TP|]. intros X. discriminate.
    + destruct P4. constructor; cbn; auto; [|intros x X; discriminate].
      eapply (lr_foreign _ _ _ _ _ TClear); [apply lr_backtrack; exact li_run0|exact I|reflexivity].
    + intros i Hi. cbn in Hi. destruct (run_sinv _ _ (li_run _ _ P4)) as [_ SI]. apply lra_enter; auto; [intros v X; discriminate X|].
      cbn. split; [|split]; intros v j; intros; lia.
Qed.
End L.
