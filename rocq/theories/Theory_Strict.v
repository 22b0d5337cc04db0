(** Level lists in chronological order, and reasons with another literal of the same level. *)
From Coq Require Import List Arith ZArith QArith NArith Bool Lia Permutation Sorting.Sorted.
From Verif Require Import Base Core_Model Analysis_Model Bool_Model Sat_Base Sat_Inv Sat_Trail Sat_Prop Sat_Bcp
  Trail_Model Spec_Trail Trail_Proofs Solver_Model Spec_Sat Spec_Theory Theory_Inv.
Import ListNotations.
Open Scope nat_scope.

Definition newer (t : trail) (e1 e2 : entry) : Prop :=
  match fst e1, fst e2 with
  | VBool i, VBool j => (mts (t_bm t) j < mts (t_bm t) i)%Z
  | _, _ => True
  end.
Record GS (d : db) (t : trail) : Prop := mkGS {
  gs_sorted : forall k, StronglySorted (newer t) (lists t k);
  gs_strict : forall i r k, t_rsn t (VBool i) = Some r -> t_lvl t (VBool i) = Some k -> 1 <= k ->
    exists x, In x (getc d r) /\ x <> tlit (tval t) i /\ lev t x = Some k }.

Lemma SS_impl {A} (R R' : A -> A -> Prop) l : (forall x y, In x l -> In y l -> R x y -> R' x y) ->
  StronglySorted R l -> StronglySorted R' l.
Proof.
  intros H S. induction S as [|x l S IH F]; constructor.
  - apply IH. intros; apply H; simpl; auto.
  - rewrite Forall_forall in *. intros y Hy. apply H; simpl; auto.
Qed.

Lemma lists_prop t v r k x t1 : t_levels t <> [] -> t_step t (TPropagate v r k x) = Ok t1 ->
  dl t1 = dl t /\ forall i, lists t1 i = if (k <=? i) && (i <=? dl t) then (v, r) :: lists t i else lists t i.
Proof.
  intros N S. destruct (put_frame t v x) as (P1 & _). unfold t_step, trail_propagate in S.
  replace (dl (put t v x)) with (dl t) in S by (unfold dl; now rewrite P1).
  destruct (Nat.leb_spec k (dl t)); [|discriminate]. injection S as <-. rewrite P1. set (t' := mkTrail _ _ _ _ _).
  assert (LL : length (t_levels t') = length (t_levels t)) by (unfold t'; simpl t_levels; apply map_first_length).
  assert (D : dl t' = dl t) by (unfold dl; now rewrite LL).
  assert (N' : t_levels t' <> []). { intros E. rewrite E in LL. destruct (t_levels t); [congruence|discriminate]. }
  assert (LD : length (t_levels t) = S (dl t)) by (unfold dl; destruct (t_levels t); [congruence|simpl; lia]).
  split; auto. intros i. destruct (Nat.leb_spec i (dl t)) as [Hi|Hi].
  - rewrite !lists_nth; auto; [|lia]. rewrite D. unfold t'. simpl t_levels. rewrite map_first_nth by lia.
    destruct (Nat.ltb_spec (dl t - i) (dl t - k + 1)), (Nat.leb_spec k i); auto; lia.
  - rewrite andb_false_r. rewrite !lists_out; auto. lia.
Qed.
Lemma lists_dec t v x t1 : t_levels t <> [] -> t_step t (TDecide v x) = Ok t1 ->
  forall i, lists t1 i = if i =? S (dl t) then [(v, None)] else lists t i.
Proof.
  intros N S. destruct (put_frame t v x) as (P1 & _). cbn in S. injection S as <-.
  set (t' := trail_decide _ _). assert (D : dl t' = S (dl t)).
  { unfold t', dl. simpl. rewrite P1. destruct (t_levels t); [congruence|simpl; lia]. }
  intros i. destruct (Nat.eqb_spec i (S (dl t))) as [->|Ni].
  - rewrite lists_nth; [|lia|discriminate]. rewrite D, Nat.sub_diag. reflexivity.
  - destruct (le_lt_dec i (dl t)) as [Hi|Hi].
    + rewrite !lists_nth; auto; [|lia|discriminate]. rewrite D. unfold t'. simpl t_levels. rewrite P1.
      replace (S (dl t) - i) with (S (dl t - i)) by lia. reflexivity.
    + rewrite !lists_out; auto. lia.
Qed.

Lemma in_lists_le t k e : In e (lists t k) -> k <= dl t.
Proof. intros H. destruct (le_lt_dec k (dl t)); auto. rewrite lists_out in H by auto. easy. Qed.
Lemma entry_def e d t k i ro : GI e d t -> In (VBool i, ro) (lists t k) -> mdef (t_bm t) i = true.
Proof.
  intros G H. destruct (gi_entry _ _ _ G k (VBool i) ro (in_lists_le _ _ _ H) H) as [_ (j & J & _)].
  apply (gi_bdef _ _ _ G). congruence.
Qed.

(** a new assignment with a later time stamp *)
Lemma newer_new e d t k t1 i ro : GI e d t -> StronglySorted (newer t) (lists t k) -> mdef (t_bm t) i = false ->
  (forall j, j <> i -> mts (t_bm t1) j = mts (t_bm t) j) -> mts (t_bm t1) i = mgts (t_bm t) ->
  StronglySorted (newer t1) (lists t k) /\ StronglySorted (newer t1) ((VBool i, ro) :: lists t k).
Proof.
  intros G S U E1 E2.
  assert (NE : forall j ro', In (VBool j, ro') (lists t k) -> j <> i).
  { intros j ro' H ->. rewrite (entry_def _ _ _ _ _ _ G H) in U. discriminate. }
  assert (A : StronglySorted (newer t1) (lists t k)).
  { eapply SS_impl; [|exact S]. intros [[a|a] ra] [[b|b] rb] Ha Hb; unfold newer; simpl; auto.
    rewrite !E1; eauto. }
  split; auto. constructor; auto. rewrite Forall_forall. intros [[b|b] rb] Hb; unfold newer; simpl; auto.
  rewrite E2, E1 by eauto. apply (gi_ts _ _ _ G). eapply entry_def; eauto.
Qed.

Lemma GS_assign e d t l ro k t1 : GI e d t -> GS d t -> lord l < mnum (t_bm t) -> lit_level t l = None ->
  justified true d e t l ro k ->
  t_step t (TPropagate (lvar l) ro k (negb (lneg l), 0%Q)) = Ok t1 -> GS d t1.
Proof.
  intros G GSS R U J S. destruct (step_prop_inv _ _ _ _ _ _ S) as (K & L1 & L2 & B & _).
  assert (UD : mdef (t_bm t) (lord l) = false).
  { destruct (mdef (t_bm t) (lord l)) eqn:E; auto. apply (gi_bdef _ _ _ G) in E. elim E. exact U. }
  destruct (lists_prop _ _ _ _ _ _ (gi_ne _ _ _ G) S) as [_ LS].
  unfold lvar in B, L1, L2. cbn in B. destruct GSS as [GS1 GS2]. split.
  - intros i. destruct (newer_new e d t i t1 (lord l) ro G (GS1 i) UD) as [X1 X2].
    + intros j Hj. rewrite B. cbn. now apply upd_neq.
    + rewrite B. cbn. apply upd_eq.
    + rewrite LS. destruct ((k <=? i) && (i <=? dl t)); auto.
  - assert (KL : forall x j, lev t x = Some j -> lev t1 x = Some j).
    { intros x j E. unfold lev in *. rewrite L1. rewrite vupd_neq; auto.
      intros E'. unfold lit_level in U. unfold lvar in *. injection E' as E'. congruence. }
    intros i r j E1 E2 Hj. rewrite L2 in E1. rewrite L1 in E2. unfold tval. rewrite B. cbn [mval set_value].
    destruct (Nat.eq_dec i (lord l)) as [->|N].
    + rewrite vupd_eq in E1. rewrite vupd_eq in E2. injection E2 as ->. subst ro. rewrite tlit_put.
      destruct J as (_ & _ & _ & J). destruct (J eq_refl Hj) as (x & X1 & X2 & X3). exists x. split; auto.
    + rewrite vupd_neq in E1 by congruence. rewrite vupd_neq in E2 by congruence. rewrite tlit_upd by auto.
      destruct (GS2 i r j E1 E2 Hj) as (x & X1 & X2 & X3). exists x. split; auto.
Qed.

Lemma GS_keep d t t1 : GS d t -> (forall i k ro, In (VBool i, ro) (lists t k) -> t_lvl t (VBool i) <> None) ->
  (forall i, t_lvl t (VBool i) = None -> t_rsn t1 (VBool i) = None) ->
  (forall i, t_lvl t (VBool i) <> None -> mval (t_bm t1) i = mval (t_bm t) i /\ mts (t_bm t1) i = mts (t_bm t) i /\
     t_lvl t1 (VBool i) = t_lvl t (VBool i) /\ t_rsn t1 (VBool i) = t_rsn t (VBool i)) ->
  (forall k, exists es, lists t1 k = es ++ lists t k /\
     (es = [] \/ exists x ro, es = [(VRat x, ro)])) -> GS d t1.
Proof.
  intros [S1 S2] HL HN HK HE. split.
  - intros k. destruct (HE k) as (es & -> & Hes).
    assert (A : StronglySorted (newer t1) (lists t k)).
    { eapply SS_impl; [|apply S1]. intros [[a|a] ra] [[b|b] rb] Ha Hb; unfold newer; simpl; auto.
      destruct (HK a) as (_ & Ea & _); [eauto|]. destruct (HK b) as (_ & Eb & _); [eauto|]. rewrite Ea, Eb. auto. }
    destruct Hes as [->|(x & ro & ->)]; auto. simpl. constructor; auto. rewrite Forall_forall. intros [[b|b] rb] Hb; unfold newer; simpl; auto.
  - intros i r k E1 E2 Hk. destruct (t_lvl t (VBool i)) as [j|] eqn:E; [|rewrite HN in E1 by auto; discriminate].
    destruct (HK i) as (A & _ & C & D); [congruence|]. rewrite D in E1. rewrite C, E in E2. injection E2 as ->.
    destruct (S2 i r k E1 E Hk) as (x & X1 & X2 & X3). exists x. split; auto.
    split; [unfold tlit, tval in *; now rewrite A|]. unfold lev, lvar in *. destruct (HK (lord x)) as (_ & _ & C' & _); congruence.
Qed.

Lemma GS_rat e d t x k q t1 : GI e d t -> GS d t ->
  t_step t (TPropagate (VRat x) None k (true, q)) = Ok t1 -> GS d t1.
Proof.
  intros G GSS S. destruct (step_prop_inv _ _ _ _ _ _ S) as (K & L1 & L2 & B & _). cbn in B.
  destruct (lists_prop _ _ _ _ _ _ (gi_ne _ _ _ G) S) as [_ LS].
  apply (GS_keep d t); auto.
  - intros i j ro H. apply (gi_bdef _ _ _ G). eapply entry_def; eauto.
  - intros i H. rewrite L2, vupd_neq by discriminate. eapply rsn_none; eauto.
  - intros i H. rewrite B, L1, L2, !vupd_neq by discriminate. auto.
  - intros j. rewrite LS. destruct (_ && _); [exists [(VRat x, None)]; eauto|exists []; auto].
Qed.
Lemma GS_resize e d t n : GI e d t -> GS d t -> mnum (t_bm t) <= n -> GS d (trail_resize t n (mnum (t_qm t))).
Proof.
  intros G GSS R. apply (GS_keep d t); auto.
  - intros i j ro H. apply (gi_bdef _ _ _ G). eapply entry_def; eauto.
  - intros i H. cbn -[Nat.ltb Nat.min]. destruct (i <? _); auto. eapply rsn_none; eauto.
  - intros i H. destruct (t_lvl t (VBool i)) as [k|] eqn:E; [|congruence].
    pose proof (gi_range _ _ _ G _ _ E) as X. simpl in X. apply Nat.ltb_lt in X.
    cbn -[Nat.ltb Nat.min]. destruct (Nat.ltb_spec i (Nat.min n (mnum (t_bm t)))); [|lia]. auto.
  - intros k. exists []. split; auto.
Qed.
Lemma GS_decide e d t v x t1 : GI e d t -> GS d t -> t_lvl t v = None -> t_step t (TDecide v x) = Ok t1 -> GS d t1.
Proof.
  intros G GSS U S. pose proof (lists_dec _ _ _ _ (gi_ne _ _ _ G) S) as LS. cbn in S. injection S as <-.
  destruct v as [i0|x0].
  - assert (UD : mdef (t_bm t) i0 = false).
    { destruct (mdef (t_bm t) i0) eqn:E; auto. apply (gi_bdef _ _ _ G) in E. congruence. }
    set (t1 := trail_decide _ _) in *.
    assert (B : t_bm t1 = set_value (t_bm t) i0 (fst x)) by reflexivity.
    assert (L1 : t_lvl t1 = vupd (t_lvl t) (VBool i0) (Some (S (dl t)))).
    { unfold t1. cbn. rewrite (gi_dlS _ _ _ G). reflexivity. }
    assert (L2 : t_rsn t1 = vupd (t_rsn t) (VBool i0) None) by reflexivity.
    clearbody t1. destruct GSS as [GS1 GS2]. split.
    + intros k. rewrite LS. destruct (k =? S (dl t)); [repeat constructor|].
      apply (newer_new e d t k t1 i0 None G (GS1 k) UD).
      * intros j Hj. rewrite B. cbn. now apply upd_neq.
      * rewrite B. cbn. apply upd_eq.
    + intros i r k E1 E2 Hk. rewrite L2 in E1. rewrite L1 in E2. destruct (Nat.eq_dec i i0) as [->|N]; [rewrite vupd_eq in E1; discriminate|].
      rewrite vupd_neq in E1 by congruence. rewrite vupd_neq in E2 by congruence.
      destruct (GS2 i r k E1 E2 Hk) as (y & Y1 & Y2 & Y3). exists y. split; auto. unfold tval. rewrite B. cbn.
      rewrite tlit_upd by auto. split; auto. unfold lev, lvar in *. rewrite L1, vupd_neq; auto. intros E. injection E as E. congruence.
  - apply (GS_keep d t); auto.
    + intros i j ro H. apply (gi_bdef _ _ _ G). eapply entry_def; eauto.
    + intros i H. cbn. eapply rsn_none; eauto.
    + intros k. rewrite LS. destruct (Nat.eqb_spec k (S (dl t))) as [->|]; [|exists []; auto].
      rewrite (lists_out t (S (dl t))) by lia. exists [(VRat x0, None)]. split; eauto.
Qed.
Lemma GS_perm d d' t : dbperm d d' -> GS d t -> GS d' t.
Proof.
  intros P [S1 S2]. split; auto. intros i r k A B C. destruct (S2 i r k A B C) as (x & X1 & X2). exists x.
  split; auto. eapply Permutation_in; [apply (dbperm_getc _ _ r P)|auto].
Qed.
Lemma GS_app e d t cs : GI e d t -> GS d t -> GS (mkDb (asserted d) (learned d ++ cs)) t.
Proof.
  intros G [S1 S2]. split; auto. intros i r k A B C. destruct (S2 i r k A B C) as (x & X1 & X2). exists x. split; auto.
  destruct (gi_rsn _ _ _ G _ _ A) as (_ & _ & V & _). destruct r; simpl in *; auto. now rewrite app_nth1.
Qed.
Lemma GS_backtrack e d t k t1 : GI e d t -> GS d t -> trail_backtrack t k = Ok t1 -> GS d t1.
Proof.
  intros G [S1 S2] H. destruct (GI_backtrack _ _ _ _ _ G H) as (G1 & ED & _ & EV & ET & _ & _ & EL & ER & LS). split.
  - intros j. destruct (le_lt_dec j k) as [Hj|Hj]; [|rewrite lists_out by lia; constructor].
    rewrite LS by auto. eapply SS_impl; [|apply S1]. unfold newer. rewrite ET. auto.
  - intros i r j E1 E2 Hj. rewrite ER in E1. rewrite EL in E2. destruct (t_lvl t (VBool i)) as [j'|] eqn:E; [|discriminate].
    destruct (Nat.leb_spec j' k); [|discriminate]. injection E2 as ->. destruct (S2 i r j E1 E Hj) as (x & X1 & X2 & X3).
    exists x. split; auto. unfold tval. rewrite EV. split; auto. unfold lev in *. rewrite EL, X3. destruct (Nat.leb_spec j k); [auto|lia].
Qed.
Lemma GS_clear d d' t : GS d t -> GS d' (trail_clear t).
Proof.
  intros _. split; [|discriminate]. intros k. destruct k; unfold lists, assigned_at; cbn; constructor.
Qed.
Lemma GS_fresh d t : fresh_trail t -> GS d t.
Proof.
  intros [F1 F2 F3 F4 F5]. split.
  - intros k. unfold lists, assigned_at, dl. rewrite F1. destruct k; cbn; [|constructor]. unfold at_. cbn. constructor.
  - intros i r k E. rewrite F3 in E. discriminate.
Qed.
