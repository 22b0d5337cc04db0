(** Trail invariant for arbitrary plugins: reasons, time stamps and level 0. *)
From Coq Require Import List Arith ZArith QArith NArith Bool Lia Permutation.
From Verif Require Import Base Core_Model Analysis_Model Bool_Model Sat_Base Sat_Inv Sat_Trail Sat_Prop Sat_Bcp
  Trail_Model Spec_Trail Trail_Proofs Solver_Model Spec_Sat Spec_Theory.
Import ListNotations.
Open Scope nat_scope.

Definition older (t : trail) (x : lit) (i : nat) : Prop := (mts (t_bm t) (lord x) < mts (t_bm t) i)%Z.
Definition implied_by (d : db) (t : trail) (i k : nat) (r : cref) : Prop :=
  valid d r /\ In (tlit (tval t) i) (getc d r) /\
  forall x, In x (getc d r) -> x = tlit (tval t) i \/
    (tv t x = Some false /\ older t x i /\ exists j, lev t x = Some j /\ j <= k).

Lemma once_in l c : once l c -> In l c.
Proof. intros (r & P & _). eapply Permutation_in; [apply Permutation_sym, P|now left]. Qed.
Lemma once_perm l c c' : Permutation c c' -> once l c -> once l c'.
Proof. intros P (r & A & B). exists r. split; auto. eapply Permutation_trans; [apply Permutation_sym, P|exact A]. Qed.
Lemma once_head l c : ~ In l c -> once l (l :: c).
Proof. intros N. exists c. auto. Qed.
Lemma once_unit m l c : mdef m (lord l) = false -> (forall x, In x c -> eval_lit m x = Some false) -> once l (l :: c).
Proof.
  intros M H. apply once_head. intros X. apply H in X. unfold eval_lit in X. rewrite M in X. discriminate.
Qed.

Record GI (ent : lit -> Prop) (d : db) (t : trail) : Prop := mkGI {
  gi_tr : exists a, tinv t a;
  gi_g : (0 <= mgts (t_bm t))%Z;
  gi_ts : forall i, mdef (t_bm t) i = true -> (0 <= mts (t_bm t) i < mgts (t_bm t))%Z;
  gi_rsn : forall i r, t_rsn t (VBool i) = Some r ->
    exists k, t_lvl t (VBool i) = Some k /\ implied_by d t i k r;
  gi_zero : forall i, t_lvl t (VBool i) = Some 0 -> t_rsn t (VBool i) = None ->
    ent (tlit (tval t) i) }.

Section Facts.
Variables (ent : lit -> Prop) (d : db) (t : trail).
Hypothesis G : GI ent d t.

Lemma gi_def v : is_def t v = true <-> t_lvl t v <> None.
Proof.
  destruct (gi_tr _ _ _ G) as (a & _ & A). rewrite (sh_def _ _ A), (sh_lvl _ _ A).
  destruct (at_rec a v); simpl; split; congruence.
Qed.
Lemma gi_bdef i : mdef (t_bm t) i = true <-> t_lvl t (VBool i) <> None.
Proof. apply (gi_def (VBool i)). Qed.
Lemma gi_tv_lev x b : tv t x = Some b -> exists k, lev t x = Some k.
Proof.
  intros H. unfold tv, eval_lit in H. destruct (mdef (t_bm t) (lord x)) eqn:E; [|discriminate].
  apply gi_bdef in E. unfold lev, lvar. destruct (t_lvl t (VBool (lord x))); [eauto|congruence].
Qed.
Lemma gi_lev_tv x k : lev t x = Some k -> exists b, tv t x = Some b.
Proof.
  intros H. unfold tv, eval_lit. rewrite (proj2 (gi_bdef (lord x))); [eauto|].
  unfold lev, lvar in H. congruence.
Qed.
Lemma gi_lev_le v k : t_lvl t v = Some k -> k <= dl t.
Proof.
  destruct (gi_tr _ _ _ G) as (a & _ & A). rewrite (sh_lvl _ _ A). destruct (at_rec a v) as [g|] eqn:E; [|discriminate].
  simpl. intros H. injection H as <-. destruct (sh_ok _ _ A _ _ E) as [_ R]. rewrite (sh_dl _ _ A). lia.
Qed.
Lemma gi_range v k : t_lvl t v = Some k -> in_range (mnum (t_bm t)) (mnum (t_qm t)) v = true.
Proof.
  destruct (gi_tr _ _ _ G) as (a & _ & A). rewrite (sh_lvl _ _ A). destruct (at_rec a v) as [g|] eqn:E; [|discriminate].
  intros _. destruct (sh_ok _ _ A _ _ E) as [R _]. destruct (sh_num _ _ A) as [-> ->]. exact R.
Qed.
Lemma gi_ne : t_levels t <> [].
Proof. destruct (gi_tr _ _ _ G) as (a & N & _). exact N. Qed.
Lemma gi_dlS : length (t_levels t) = S (dl t).
Proof. pose proof gi_ne. unfold dl. destruct (t_levels t); [congruence|simpl; lia]. Qed.
Lemma gi_rec_none a v : shows t a -> t_lvl t v = None -> at_rec a v = None.
Proof. intros A H. rewrite (sh_lvl _ _ A) in H. destruct (at_rec a v); [discriminate|auto]. Qed.
(** elements of the lists *)
Lemma gi_entry k v ro : k <= dl t -> In (v, ro) (lists t k) -> t_rsn t v = ro /\ exists j, t_lvl t v = Some j /\ j <= k.
Proof.
  destruct (gi_tr _ _ _ G) as (a & _ & A). intros Hk H. apply (sh_list _ _ A) in H; auto.
  destruct H as (g & E & R1 & R2). rewrite (sh_rsn _ _ A), (sh_lvl _ _ A), E. simpl. split; auto.
  exists (a_level g). split; [auto|lia].
Qed.
Lemma gi_listed v k : t_lvl t v = Some k -> In (v, t_rsn t v) (lists t k).
Proof.
  intros H. pose proof (gi_lev_le _ _ H) as L. destruct (gi_tr _ _ _ G) as (a & _ & A).
  apply (sh_list _ _ A); auto. rewrite (sh_lvl _ _ A) in H. rewrite (sh_rsn _ _ A).
  destruct (at_rec a v) as [g|] eqn:E; [|discriminate]. injection H as <-. exists g.
  split; auto. split; auto. destruct (sh_ok _ _ A _ _ E). lia.
Qed.
(** no other literal of a reason is on the same variable *)
Lemma gi_not_in i k r x : implied_by d t i k r -> In x (getc d r) -> lord x = i -> x = tlit (tval t) i.
Proof.
  intros (_ & _ & H) Hx E. destruct (H x Hx) as [?|(_ & O & _)]; auto. unfold older in O. rewrite E in O. lia.
Qed.
End Facts.

Lemma GI_ent (e1 e2 : lit -> Prop) d t : (forall l, e1 l -> e2 l) -> GI e1 d t -> GI e2 d t.
Proof. intros H []. split; auto. Qed.

Lemma implied_perm d d' t i k r : dbperm d d' -> implied_by d t i k r -> implied_by d' t i k r.
Proof.
  intros P (A & B & C). pose proof (dbperm_getc _ _ r P) as Q. split; [now apply (dbperm_valid _ _ r P)|].
  split; [eapply Permutation_in; eauto|]. intros x Hx. apply C.
  eapply Permutation_in; [apply Permutation_sym|]; eauto.
Qed.
Lemma GI_perm e d d' t : dbperm d d' -> GI e d t -> GI e d' t.
Proof.
  intros P []. split; auto. intros i r E. destruct (gi_rsn0 i r E) as (k & K & I). exists k. split; auto.
  eapply implied_perm; eauto.
Qed.
Lemma GI_app e d t cs : GI e d t -> GI e (mkDb (asserted d) (learned d ++ cs)) t.
Proof.
  intros []. split; auto. intros i r E. destruct (gi_rsn0 i r E) as (k & K & V & I). exists k. split; auto.
  assert (Eg : getc (mkDb (asserted d) (learned d ++ cs)) r = getc d r).
  { destruct r; simpl in *; auto. now rewrite app_nth1. }
  unfold implied_by. rewrite Eg. split; auto. destruct r; simpl in *; auto. rewrite app_length. lia.
Qed.

(** ** Operations *)
Lemma step_prop_inv t v ro k x t1 : t_step t (TPropagate v ro k x) = Ok t1 ->
  k <= dl t /\ t_lvl t1 = vupd (t_lvl t) v (Some k) /\ t_rsn t1 = vupd (t_rsn t) v ro /\
  t_bm t1 = t_bm (put t v x) /\ t_qm t1 = t_qm (put t v x).
Proof.
  unfold t_step, trail_propagate. replace (dl (put t v x)) with (dl t) by (destruct v; reflexivity).
  destruct (Nat.leb_spec k (dl t)); [|discriminate]. intros H0. injection H0 as <-. cbn [t_lvl t_rsn t_bm t_qm].
  destruct v; auto.
Qed.

Lemma tlit_upd val i b j : i <> j -> tlit (upd val i b) j = tlit val j.
Proof. intros H. unfold tlit. rewrite upd_neq; auto. Qed.
Lemma tlit_put l val : tlit (upd val (lord l) (negb (lneg l))) (lord l) = l.
Proof. unfold tlit. rewrite upd_eq, negb_involutive. now destruct l. Qed.

Lemma GI_assign e d t l ro k t1 : GI e d t -> lord l < mnum (t_bm t) -> lit_level t l = None ->
  justified false d e t l ro k ->
  t_step t (TPropagate (lvar l) ro k (negb (lneg l), 0%Q)) = Ok t1 -> GI e d t1.
Proof.
  intros G R U J S. destruct (step_prop_inv _ _ _ _ _ _ S) as (K & L1 & L2 & B & _).
  pose proof G as [GT GG GTS GR GZ]. destruct GT as (a & T).
  assert (UD : mdef (t_bm t) (lord l) = false).
  { destruct (mdef (t_bm t) (lord l)) eqn:E; auto. apply (gi_bdef _ _ _ G) in E. elim E. exact U. }
  cbn [put lvar fst] in B. unfold lvar in B, L1, L2. cbn [t_bm with_bm] in B.
  assert (KV : forall x b, tv t x = Some b -> lord x <> lord l /\ tv t1 x = Some b).
  { intros x b E. assert (NE : lord x <> lord l).
    { intros E'. unfold tv, eval_lit in E. rewrite E', UD in E. discriminate. }
    split; auto. unfold tv, eval_lit in *. rewrite B. cbn. rewrite !upd_neq by auto. exact E. }
  assert (KL : forall x j, lev t x = Some j -> lev t1 x = Some j).
  { intros x j E. unfold lev in *. rewrite L1. rewrite vupd_neq; auto.
    intros E'. unfold lit_level in U. unfold lvar in *. injection E' as E'. congruence. }
  assert (KO : forall x i b, tv t x = Some b -> i <> lord l -> older t x i -> older t1 x i).
  { intros x i b E N O. destruct (KV _ _ E) as [N' _]. unfold older in *. rewrite B. cbn. rewrite !upd_neq; auto. }
  split.
  - destruct (inv_step t a (TPropagate (lvar l) ro k (negb (lneg l), 0%Q)) T) as (t1' & E & T').
    + destruct T as [_ T]. split; [|split].
      * destruct (sh_num _ _ T) as [<- _]. cbn. now apply Nat.ltb_lt.
      * eapply gi_rec_none; eauto.
      * now rewrite <- (sh_dl _ _ T).
    + rewrite S in E. injection E as <-. eauto.
  - rewrite B. cbn. lia.
  - intros i D. rewrite B in *. cbn in *. unfold upd in *. destruct (Nat.eqb_spec i (lord l)); [lia|].
    specialize (GTS i D). lia.
  - intros i r E. rewrite L2 in E. destruct (Nat.eq_dec i (lord l)) as [->|N].
    + rewrite vupd_eq in E. subst ro. exists k. rewrite L1, vupd_eq. split; auto.
      destruct J as (J1 & J2 & J3 & _). apply once_in in J2. unfold implied_by, tval. rewrite B. cbn [mval set_value]. rewrite tlit_put.
      split; [exact J1|]. split; auto. intros x Hx. destruct (J3 x Hx) as [?|(X1 & j & X2 & X3)]; auto. right.
      destruct (KV _ _ X1) as [X4 X5]. split; auto. split; [|exists j; split; auto; now apply KL].
      unfold older. rewrite B. cbn. rewrite upd_eq, upd_neq by auto. apply GTS.
      unfold eval_lit in X1. destruct (mdef (t_bm t) (lord x)); auto; discriminate.
    + rewrite vupd_neq in E by congruence. destruct (GR i r E) as (j & Lj & I1 & I2 & I3). exists j.
      rewrite L1, vupd_neq by congruence. split; auto.
      assert (ET : tlit (tval t1) i = tlit (tval t) i) by (unfold tval; rewrite B; cbn; apply tlit_upd; auto).
      unfold implied_by. rewrite ET. split; auto. split; auto. intros x Hx.
      destruct (I3 x Hx) as [?|(X1 & X2 & j' & X3 & X4)]; auto. right. split; [apply (KV _ _ X1)|].
      split; [eapply KO; eauto|]. exists j'. split; auto.
  - intros i E0 E1. rewrite L1 in E0. rewrite L2 in E1. unfold tval. rewrite B. cbn [mval set_value].
    destruct (Nat.eq_dec i (lord l)) as [->|N].
    + rewrite vupd_eq in E0; rewrite vupd_eq in E1. rewrite tlit_put. injection E0 as ->. subst ro. apply J. auto.
    + rewrite vupd_neq in E0 by congruence; rewrite vupd_neq in E1 by congruence. rewrite tlit_upd by auto. apply GZ; auto.
Qed.

(** operations that keep everything about assigned boolean variables *)
Lemma GI_keep e d t t1 : GI e d t -> (exists a, tinv t1 a) -> mgts (t_bm t1) = mgts (t_bm t) ->
  (forall i, t_lvl t (VBool i) <> None -> mval (t_bm t1) i = mval (t_bm t) i /\ mts (t_bm t1) i = mts (t_bm t) i /\
     t_lvl t1 (VBool i) = t_lvl t (VBool i) /\ t_rsn t1 (VBool i) = t_rsn t (VBool i)) ->
  (forall i, t_lvl t (VBool i) = None -> t_lvl t1 (VBool i) = None /\ t_rsn t1 (VBool i) = None) -> GI e d t1.
Proof.
  intros G T1 Eg K N. pose proof G as [GT GG GTS GR GZ].
  assert (D1 : forall i, mdef (t_bm t1) i = true <-> t_lvl t1 (VBool i) <> None).
  { intros i. destruct T1 as (a & _ & A). pose proof (sh_def _ _ A (VBool i)) as E. simpl in E. rewrite E, (sh_lvl _ _ A).
    destruct (at_rec a (VBool i)); simpl; split; congruence. }
  assert (DE : forall i, t_lvl t1 (VBool i) <> None -> t_lvl t (VBool i) <> None).
  { intros i H E. apply N in E. tauto. }
  assert (KT : forall x b, tv t x = Some b -> tv t1 x = Some b).
  { intros x b E. destruct (gi_tv_lev _ _ _ G _ _ E) as (k & Lk). unfold lev, lvar in Lk.
    assert (X : t_lvl t (VBool (lord x)) <> None) by congruence. destruct (K _ X) as (A & _ & C & _).
    unfold tv, eval_lit in *. rewrite (proj2 (D1 (lord x))) by (rewrite C; congruence). rewrite A.
    destruct (mdef (t_bm t) (lord x)); [auto|discriminate]. }
  split; auto.
  - lia.
  - intros i D. apply D1, DE in D. destruct (K i D) as (_ & E & _). rewrite E, Eg. apply GTS.
    now apply (gi_bdef _ _ _ G).
  - intros i r E.
    destruct (t_lvl t (VBool i)) as [k|] eqn:EL; [|destruct (N i EL); congruence].
    assert (X : t_lvl t (VBool i) <> None) by congruence. destruct (K i X) as (A & B & C & D). rewrite D in E.
    destruct (GR i r E) as (k' & Lk & I1 & I2 & I3). exists k'. rewrite C. split; auto.
    unfold implied_by. assert (ET : tlit (tval t1) i = tlit (tval t) i) by (unfold tlit, tval; now rewrite A).
    rewrite ET. split; auto. split; auto. intros x Hx. destruct (I3 x Hx) as [?|(X1 & X2 & j & X3 & X4)]; auto.
    right. unfold lev, lvar in X3. assert (Y : t_lvl t (VBool (lord x)) <> None) by congruence.
    destruct (K _ Y) as (A' & B' & C' & D'). split; [auto|]. split; [unfold older in *; congruence|].
    exists j. split; auto. unfold lev, lvar. congruence.
  - intros i E0 E1. assert (X : t_lvl t (VBool i) <> None) by (apply DE; congruence).
    destruct (K i X) as (A & B & C & D). unfold tlit, tval. rewrite A. apply GZ; congruence.
Qed.

Lemma GI_rat e d t x k q t1 : GI e d t -> x < mnum (t_qm t) -> t_lvl t (VRat x) = None ->
  t_step t (TPropagate (VRat x) None k (true, q)) = Ok t1 -> GI e d t1.
Proof.
  intros G R U S. destruct (step_prop_inv _ _ _ _ _ _ S) as (K & L1 & L2 & B & _). cbn in B.
  destruct (gi_tr _ _ _ G) as (a & T). apply (GI_keep e d t); auto.
  - destruct (inv_step t a (TPropagate (VRat x) None k (true, q)) T) as (t1' & E & T').
    + destruct T as [_ T]. split; [|split].
      * destruct (sh_num _ _ T) as [_ <-]. cbn. now apply Nat.ltb_lt.
      * eapply gi_rec_none; eauto.
      * now rewrite <- (sh_dl _ _ T).
    + rewrite S in E. injection E as <-. eauto.
  - now rewrite B.
  - intros i H. rewrite B, L1, L2, !vupd_neq by discriminate. auto.
  - intros i H. rewrite L1, L2, !vupd_neq by discriminate. split; auto.
    destruct T as [_ T]. rewrite (sh_rsn _ _ T), (gi_rec_none _ _ _ T H). auto.
Qed.

Lemma rsn_none e d t v : GI e d t -> t_lvl t v = None -> t_rsn t v = None.
Proof.
  intros G H. destruct (gi_tr _ _ _ G) as (a & _ & T). rewrite (sh_rsn _ _ T), (gi_rec_none _ _ _ T H). auto.
Qed.

Lemma GI_resize e d t n : GI e d t -> mnum (t_bm t) <= n -> GI e d (trail_resize t n (mnum (t_qm t))).
Proof.
  intros G R. destruct (gi_tr _ _ _ G) as (a & T). apply (GI_keep e d t); auto.
  - exists (at_step a (TResize n (mnum (t_qm t)))). apply inv_resize; auto.
    destruct T as [_ T]. destruct (sh_num _ _ T) as [E1 E2]. split; lia.
  - intros i H. destruct (t_lvl t (VBool i)) as [k|] eqn:E; [|congruence].
    pose proof (gi_range _ _ _ G _ _ E) as X. simpl in X. apply Nat.ltb_lt in X.
    cbn -[Nat.ltb Nat.min]. destruct (Nat.ltb_spec i (Nat.min n (mnum (t_bm t)))); [|lia]. auto.
  - intros i H. cbn -[Nat.ltb Nat.min]. destruct (i <? _); auto. split; auto. eapply rsn_none; eauto.
Qed.

Lemma GI_decide e d t v x t1 : GI e d t -> in_range (mnum (t_bm t)) (mnum (t_qm t)) v = true -> t_lvl t v = None ->
  t_step t (TDecide v x) = Ok t1 -> GI e d t1.
Proof.
  intros G R U S. destruct (gi_tr _ _ _ G) as (a & T).
  assert (T1 : tinv t1 (at_step a (TDecide v x))).
  { destruct (inv_step t a (TDecide v x) T) as (t1' & E & T').
    - destruct T as [_ T]. split; [destruct (sh_num _ _ T) as [<- <-]; auto|eapply gi_rec_none; eauto].
    - rewrite S in E. injection E as <-. auto. }
  cbn [t_step] in S. injection S as <-. destruct v as [i0|x0].
  - (* a boolean decision: like an assignment at a new level, without reason *)
    pose proof G as [GT GG GTS GR GZ].
    assert (UD : mdef (t_bm t) i0 = false).
    { destruct (mdef (t_bm t) i0) eqn:E; auto. apply (gi_bdef _ _ _ G) in E. congruence. }
    set (t1 := trail_decide _ _) in *.
    assert (B : t_bm t1 = set_value (t_bm t) i0 (fst x)) by reflexivity.
    assert (L1 : t_lvl t1 = vupd (t_lvl t) (VBool i0) (Some (S (dl t)))).
    { unfold t1. cbn. rewrite (gi_dlS _ _ _ G). reflexivity. }
    assert (L2 : t_rsn t1 = vupd (t_rsn t) (VBool i0) None) by reflexivity.
    clearbody t1.
    assert (KV : forall y b, tv t y = Some b -> lord y <> i0 /\ tv t1 y = Some b).
    { intros y b E. assert (NE : lord y <> i0).
      { intros E'. unfold tv, eval_lit in E. rewrite E', UD in E. discriminate. }
      split; auto. unfold tv, eval_lit in *. rewrite B. cbn. rewrite !upd_neq by auto. exact E. }
    split; eauto.
    + rewrite B. cbn. lia.
    + intros i D. rewrite B in *. cbn in *. unfold upd in *. destruct (Nat.eqb_spec i i0); [lia|].
      specialize (GTS i D). lia.
    + intros i r E. rewrite L2 in E. destruct (Nat.eq_dec i i0) as [->|N]; [rewrite vupd_eq in E; discriminate|].
      rewrite vupd_neq in E by congruence. destruct (GR i r E) as (j & Lj & I1 & I2 & I3). exists j.
      rewrite L1, vupd_neq by congruence. split; auto.
      assert (ET : tlit (tval t1) i = tlit (tval t) i) by (unfold tval; rewrite B; cbn; apply tlit_upd; auto).
      unfold implied_by. rewrite ET. split; auto. split; auto. intros y Hy.
      destruct (I3 y Hy) as [?|(X1 & X2 & j' & X3 & X4)]; auto. right. destruct (KV _ _ X1) as [N1 N2]. split; auto.
      split; [unfold older in *; rewrite B; cbn; rewrite !upd_neq; auto|].
      exists j'. split; auto. unfold lev, lvar in *. rewrite L1, vupd_neq by congruence. auto.
    + intros i E0 E1. rewrite L1 in E0. rewrite L2 in E1. destruct (Nat.eq_dec i i0) as [->|N].
      * rewrite vupd_eq in E0. discriminate.
      * rewrite vupd_neq in E0 by congruence; rewrite vupd_neq in E1 by congruence. unfold tval. rewrite B. cbn. rewrite tlit_upd by auto. apply GZ; auto.
  - apply (GI_keep e d t); eauto.
    intros i H. cbn. split; auto. eapply rsn_none; eauto.
Qed.

Lemma GI_backtrack e d t k t1 : GI e d t -> trail_backtrack t k = Ok t1 ->
  GI e d t1 /\ dl t1 = k /\ mgts (t_bm t1) = mgts (t_bm t) /\ mval (t_bm t1) = mval (t_bm t) /\ mts (t_bm t1) = mts (t_bm t) /\
  mnum (t_bm t1) = mnum (t_bm t) /\ mnum (t_qm t1) = mnum (t_qm t) /\
  (forall v, t_lvl t1 v = match t_lvl t v with Some j => if j <=? k then Some j else None | None => None end) /\
  (forall v, t_rsn t1 v = match t_lvl t v with Some j => if j <=? k then t_rsn t v else None | None => None end) /\
  (forall i, i <= k -> lists t1 i = lists t i).
Proof.
  intros G S. destruct (gi_tr _ _ _ G) as (a & T).
  assert (K : k <= dl t) by (unfold trail_backtrack in S; destruct (Nat.leb_spec k (dl t)); [auto|discriminate]).
  destruct (inv_backtrack t a k T) as (t1' & E & T1 & LS).
  { destruct T as [_ T]. simpl. now rewrite <- (sh_dl _ _ T). }
  rewrite S in E. injection E as <-.
  pose proof T as [_ A]. pose proof T1 as [_ A1].
  assert (L : forall v, t_lvl t1 v = match t_lvl t v with Some j => if j <=? k then Some j else None | None => None end).
  { intros v. rewrite (sh_lvl _ _ A1), (sh_lvl _ _ A). simpl. destruct (at_rec a v) as [g|]; simpl; auto.
    destruct (a_level g <=? k); auto. }
  assert (LR : forall v, t_rsn t1 v = match t_lvl t v with Some j => if j <=? k then t_rsn t v else None | None => None end).
  { intros v. rewrite (sh_rsn _ _ A1), (sh_lvl _ _ A), (sh_rsn _ _ A). simpl. destruct (at_rec a v) as [g|]; simpl; auto.
    destruct (a_level g <=? k); auto. }
  assert (SM : same_model (t_bm t) (t_bm t1)).
  { unfold trail_backtrack in S. destruct (k <=? dl t); [|discriminate]. injection S as <-.
    apply (backtrack_loop_spec k (dl t - k) t). }
  assert (DL : dl t1 = k) by (rewrite (sh_dl _ _ A1); reflexivity).
  assert (NQ : mnum (t_qm t1) = mnum (t_qm t)).
  { destruct (sh_num _ _ A1) as [_ ->]. destruct (sh_num _ _ A) as [_ ->]. reflexivity. }
  destruct SM as [SV ST SG SN].
  split; [|repeat (split; auto)].
  pose proof G as [GT GG GTS GR GZ].
  assert (D1 : forall i, mdef (t_bm t1) i = true <-> t_lvl t1 (VBool i) <> None).
  { intros i. pose proof (sh_def _ _ A1 (VBool i)) as E. simpl in E. rewrite E. rewrite (sh_lvl _ _ A1). simpl.
    destruct (cut k (at_rec a (VBool i))); simpl; split; congruence. }
  assert (LD : forall v, t_lvl t1 v <> None -> t_lvl t v <> None).
  { intros v H. rewrite L in H. destruct (t_lvl t v); congruence. }
  split; eauto.
  - congruence.
  - intros i D. apply D1, LD in D. rewrite ST, SG. apply GTS. now apply (gi_bdef _ _ _ G).
  - intros i r E. rewrite LR in E. destruct (t_lvl t (VBool i)) as [j|] eqn:Ej; [|discriminate].
    destruct (Nat.leb_spec j k) as [Hj|]; [|discriminate].
    destruct (GR i r E) as (j' & Lj & I1 & I2 & I3). exists j. rewrite L, Ej. destruct (Nat.leb_spec j k); [|lia].
    split; auto. assert (j' = j) by congruence. subst j'. unfold implied_by, tval, older. rewrite SV, ST.
    split; auto. split; auto. intros x Hx. destruct (I3 x Hx) as [?|(X1 & X2 & j' & X3 & X4)]; auto. right.
    assert (X5 : lev t1 x = Some j').
    { unfold lev in *. rewrite L, X3. destruct (Nat.leb_spec j' k); [auto|lia]. }
    split; [|split; [exact X2|eauto]]. unfold tv, eval_lit in *.
    rewrite (proj2 (D1 (lord x))) by (unfold lev, lvar in X5; congruence). rewrite SV.
    destruct (mdef (t_bm t) (lord x)); [auto|discriminate].
  - intros i E0 E1. rewrite L in E0. rewrite LR in E1. destruct (t_lvl t (VBool i)) as [j|] eqn:Ej; [|discriminate].
    destruct (j <=? k) eqn:Ek; [|discriminate]. injection E0 as ->. unfold tval. rewrite SV. apply GZ; auto.
Qed.

Lemma GI_clear e d d' t : GI e d t -> GI e d' (trail_clear t).
Proof.
  intros G. destruct (gi_tr _ _ _ G) as (a & T). split; cbn; try discriminate.
  - exists (at_step a TClear). now apply inv_clear.
  - apply G.
Qed.

Lemma GI_fresh e d t : fresh_trail t -> (0 <= mgts (t_bm t))%Z -> GI e d t.
Proof.
  intros [F1 F2 F3 F4 F5] GG.
  assert (DL : dl t = 0) by (unfold dl; now rewrite F1).
  assert (LS : forall i, lists t i = []).
  { intros i. unfold lists, assigned_at. rewrite DL. destruct i; cbn; auto. unfold at_. now rewrite F1. }
  split; auto.
  - exists (at_new (mnum (t_bm t)) (mnum (t_qm t))). split; [rewrite F1; discriminate|]. split; cbn; auto; try discriminate.
    + intros [i|i]; cbn; auto.
    + intros i v r _. rewrite LS. split; [easy|]. intros (g & E & _). discriminate.
    + intros i. rewrite LS. constructor.
  - intros i E. rewrite F4 in E. discriminate.
  - intros i r E. rewrite F3 in E. discriminate.
  - intros i E. rewrite F2 in E. discriminate.
Qed.

(** ** Level 0 *)
Lemma zero_entailed (M : (nat -> bool) -> Prop) d t :
  GI (fun l => forall a, M a -> lit_holds a l = true) d t ->
  (forall c a, In c (clauses_of d) -> M a -> clause_holds a c) ->
  forall a, M a -> forall i, t_lvl t (VBool i) = Some 0 -> lit_holds a (tlit (tval t) i) = true.
Proof.
  intros G HD a Ha.
  assert (P : forall n i, (Z.to_nat (mts (t_bm t) i) < n) -> t_lvl t (VBool i) = Some 0 -> lit_holds a (tlit (tval t) i) = true).
  { induction n as [|n IH]; intros i Hn L; [lia|].
    destruct (t_rsn t (VBool i)) as [r|] eqn:E; [|eapply (gi_zero _ _ _ G); eauto].
    destruct (gi_rsn _ _ _ G i r E) as (k & Lk & V & I1 & I2). assert (k = 0) by congruence. subst k.
    destruct (HD _ a (getc_in _ _ V) Ha) as (x & X1 & X2). destruct (I2 x X1) as [<-|(Y1 & Y2 & j & Y3 & Y4)]; auto.
    exfalso. assert (j = 0) by lia. subst j.
    assert (Ex : tlit (tval t) (lord x) = neg x).
    { change (lord x) with (lord (neg x)). apply true_lit_of. now apply eval_lit_neg_true. }
    assert (H : lit_holds a (neg x) = true).
    { rewrite <- Ex. apply IH; [|exact Y3]. unfold older in Y2.
      assert (D : mdef (t_bm t) (lord x) = true) by (unfold tv, eval_lit in Y1; destruct (mdef (t_bm t) (lord x)); auto; discriminate).
      apply (gi_ts _ _ _ G) in D. lia. }
    rewrite lit_holds_neg, X2 in H. discriminate. }
  intros i. apply (P (S (Z.to_nat (mts (t_bm t) i)))). lia.
Qed.
