(** Bool_theory satisfies the plugin contract. *)
From Coq Require Import List Arith ZArith QArith NArith Bool Lia Permutation Sorting.Sorted.
From Verif Require Import Base Core_Model Literal_Proofs Analysis_Model Bool_Model Sat_Base Sat_Inv Sat_Trail Sat_Prop Sat_Bcp
  Trail_Model Spec_Trail Trail_Proofs Solver_Model Spec_Sat Spec_Theory Theory_Inv Theory_Strict.
Import ListNotations.
Open Scope nat_scope.

Definition in_vars (n : nat) (d : db) : Prop := forall c l, In c (clauses_of d) -> In l c -> lord l < n.
Definition tpi (strict : bool) (d : db) (t : trail) : Prop :=
  (exists a, tinv t a) /\ in_vars (mnum (t_bm t)) d /\
  (strict = true -> forall k v ro, In (v, ro) (lists t k) -> t_lvl t v = Some k).

Section B.
Variable strict : bool.

Lemma tpi_def d t i : tpi strict d t -> mdef (t_bm t) i = true <-> t_lvl t (VBool i) <> None.
Proof.
  intros ((a & _ & A) & _). pose proof (sh_def _ _ A (VBool i)) as E. cbn in E. rewrite E, (sh_lvl _ _ A).
  destruct (at_rec a (VBool i)); simpl; split; congruence.
Qed.
Lemma tpi_lev_le d t v k : tpi strict d t -> t_lvl t v = Some k -> k <= dl t.
Proof.
  intros ((a & _ & A) & _). rewrite (sh_lvl _ _ A). destruct (at_rec a v) as [g|] eqn:E; [|discriminate].
  simpl. intros H. injection H as <-. destruct (sh_ok _ _ A _ _ E) as [_ R]. rewrite (sh_dl _ _ A). lia.
Qed.
Lemma tpi_false d t x : tpi strict d t -> eval_lit (t_bm t) x = Some false -> exists j, lit_level t x = Some j /\ j <= dl t.
Proof.
  intros P H. unfold eval_lit in H. destruct (mdef (t_bm t) (lord x)) eqn:E; [|discriminate].
  apply (tpi_def _ _ _ P) in E. unfold lit_level, lvar. destruct (t_lvl t (VBool (lord x))) as [j|] eqn:EL; [|congruence].
  exists j. split; auto. eapply tpi_lev_le; eauto.
Qed.
Lemma dbperm_vars n d d' : dbperm d d' -> in_vars n d -> in_vars n d'.
Proof.
  intros [P1 P2] H c l Hc Hl. unfold clauses_of in Hc. apply in_app_iff in Hc.
  assert (X : forall L L', Forall2 (@Permutation lit) L L' -> (forall c, In c L -> In c (clauses_of d)) -> In c L' -> lord l < n).
  { intros L L' F. induction F as [|y z L L' P F IH]; intros HL; [easy|]. intros [<-|Hin].
    - apply (H y); [apply HL; simpl; auto|]. eapply Permutation_in; [apply Permutation_sym|]; eauto.
    - apply IH; auto. intros; apply HL; simpl; auto. }
  destruct Hc as [Hc|Hc]; [apply (X _ _ P1)|apply (X _ _ P2)]; auto; unfold clauses_of; intros; apply in_app_iff; auto.
Qed.
Lemma tpi_perm d d' t : dbperm d d' -> tpi strict d t -> tpi strict d' t.
Proof. intros P (A & B & C). split; auto. split; auto. eapply dbperm_vars; eauto. Qed.

Lemma tpi_prop d t v r k x t1 : tpi strict d t -> in_range (mnum (t_bm t)) (mnum (t_qm t)) v = true -> t_lvl t v = None ->
  (strict = true -> k = dl t) -> t_step t (TPropagate v r k x) = Ok t1 -> tpi strict d t1.
Proof.
  intros ((a & T) & B & C) R U K S. pose proof T as [N A].
  destruct (step_prop_inv _ _ _ _ _ _ S) as (Hk & L1 & _).
  destruct (lists_prop _ _ _ _ _ _ N S) as [D LS]. split; [|split].
  - destruct (inv_step t a (TPropagate v r k x) T) as (t1' & E & T').
    + split; [destruct (sh_num _ _ A) as [<- <-]; auto|]. split; [eapply gi_rec_none; eauto|now rewrite <- (sh_dl _ _ A)].
    + rewrite S in E. injection E as <-. eauto.
  - destruct (step_prop_inv _ _ _ _ _ _ S) as (_ & _ & _ & -> & _). destruct (put_frame t v x) as (_ & _ & _ & -> & _). exact B.
  - intros ST i w ro Hin. rewrite LS in Hin. rewrite L1. specialize (C ST). specialize (K ST). subst k.
    destruct ((dl t <=? i) && (i <=? dl t)) eqn:E.
    + apply andb_true_iff in E. destruct E as [E1 E2]. apply Nat.leb_le in E1, E2. assert (i = dl t) by lia. subst i.
      destruct Hin as [Hin|Hin]; [injection Hin as <- <-; apply vupd_eq|].
      rewrite vupd_neq; [eapply C; eauto|]. intros ->. apply C in Hin. congruence.
    + rewrite vupd_neq; [eapply C; eauto|]. intros ->. apply C in Hin. congruence.
Qed.
Lemma tpi_decide d t v x t1 : tpi strict d t -> in_range (mnum (t_bm t)) (mnum (t_qm t)) v = true -> t_lvl t v = None ->
  t_step t (TDecide v x) = Ok t1 -> tpi strict d t1.
Proof.
  intros ((a & T) & B & C) R U S. pose proof T as [N A]. pose proof (lists_dec _ _ _ _ N S) as LS. split; [|split].
  - destruct (inv_step t a (TDecide v x) T) as (t1' & E & T').
    + split; [destruct (sh_num _ _ A) as [<- <-]; auto|]. eapply gi_rec_none; eauto.
    + rewrite S in E. injection E as <-. eauto.
  - cbn in S. injection S as <-. cbn. destruct (put_frame t v x) as (_ & _ & _ & -> & _). exact B.
  - intros ST i w ro Hin. rewrite LS in Hin. specialize (C ST). cbn in S. injection S as <-. cbn [t_lvl trail_decide].
    destruct (put_frame t v x) as (P1 & P2 & _). rewrite P1, P2.
    destruct (Nat.eqb_spec i (S (dl t))) as [->|Ni].
    + destruct Hin as [Hin|[]]. injection Hin as <- <-. rewrite vupd_eq. f_equal. unfold dl. destruct (t_levels t); [congruence|simpl; lia].
    + rewrite vupd_neq; [eapply C; eauto|]. intros ->. apply C in Hin. congruence.
Qed.
Lemma tpi_backtrack d t k t1 : tpi strict d t -> trail_backtrack t k = Ok t1 -> tpi strict d t1.
Proof.
  intros ((a & T) & B & C) H. pose proof T as [N A].
  assert (K : k <= dl t) by (unfold trail_backtrack in H; destruct (Nat.leb_spec k (dl t)); [auto|discriminate]).
  destruct (inv_backtrack t a k T) as (t1' & E & T1 & LS); [simpl; now rewrite <- (sh_dl _ _ A)|].
  rewrite H in E. injection E as <-. pose proof T1 as [_ A1]. split; [eauto|]. split.
  - destruct (sh_num _ _ A1) as [E1 _]. destruct (sh_num _ _ A) as [E2 _]. rewrite E1. cbn. rewrite <- E2. exact B.
  - intros ST i v ro Hin. pose proof (in_lists_le _ _ _ Hin) as Hi. rewrite (sh_dl _ _ A1) in Hi. cbn in Hi. rewrite LS in Hin by auto.
    specialize (C ST _ _ _ Hin). rewrite (sh_lvl _ _ A1). rewrite (sh_lvl _ _ A) in C. cbn. unfold cut.
    destruct (at_rec a v) as [g|]; [|discriminate]. cbn in C. injection C as ->. destruct (Nat.leb_spec i k); [auto|lia].
Qed.
Lemma tpi_clear d d' t : tpi strict d t -> (forall c, In c (clauses_of d') -> In c (clauses_of d)) -> tpi strict d' (trail_clear t).
Proof.
  intros ((a & T) & B & C) H. split; [|split].
  - exists (at_step a TClear). now apply inv_clear.
  - cbn. intros c l Hc. apply B. auto.
  - intros ST k v ro Hin. destruct k; unfold lists, assigned_at in Hin; cbn in Hin; easy.
Qed.

(** ** BCP *)
Definition unit_in (d : db) (t : trail) (l : lit) (r : cref) : Prop :=
  is_ref d r /\ once l (getc d r) /\ (forall x, In x (getc d r) -> x = l \/ eval_lit (t_bm t) x = Some false) /\
  (strict = true -> 1 <= dl t -> exists x, In x (getc d r) /\ x <> l /\ lit_level t x = Some (dl t)).
Definition stk (d : db) (t : trail) (s : sat_stack) : Prop :=
  forall l ro, In (l, ro) s ->
    (mdef (t_bm t) (lord l) = true /\ (strict = true -> lit_level t l = Some (dl t))) \/ (mdef (t_bm t) (lord l) = false /\ exists r, ro = Some r /\ unit_in d t l r).

Lemma getc_nonempty d r : getc d r <> [] -> valid d r.
Proof.
  destruct r as [i|i]; cbn; intros H.
  - destruct (le_lt_dec (length (asserted d)) i); auto. rewrite nth_overflow in H by auto. congruence.
  - destruct (le_lt_dec (length (learned d)) i); auto. rewrite nth_overflow in H by auto. congruence.
Qed.

Lemma unit_in_perm d d' t l r : dbperm d d' -> unit_in d t l r -> unit_in d' t l r.
Proof.
  intros P (A & B & C & D). pose proof (dbperm_getc _ _ r P) as G. split; [|split; [|split]].
  - now apply (dbperm_valid _ _ r P).
  - eapply once_perm; eauto.
  - intros x Hx. apply C. eapply Permutation_in; [apply Permutation_sym|]; eauto.
  - intros S1 S2. destruct (D S1 S2) as (x & X1 & X2 & X3). exists x. split; auto. eapply Permutation_in; eauto.
Qed.
Lemma stk_perm d d' t s : dbperm d d' -> stk d t s -> stk d' t s.
Proof.
  intros P H l ro Hin. destruct (H _ _ Hin) as [X|(M & r & E & U)]; [left; auto|right; split; auto; exists r; split; auto]. eapply unit_in_perm; eauto.
Qed.

Lemma is_false_iff o : is_false o = true <-> o = Some false.
Proof. destruct o as [[|]|]; simpl; split; congruence. Qed.
Lemma is_true_iff o : is_true o = true <-> o = Some true.
Proof. destruct o as [[|]|]; simpl; split; congruence. Qed.
Lemma cl_false m c : is_false (eval_clause m c) = true -> forall x, In x c -> eval_lit m x = Some false.
Proof. intros H. apply is_false_iff in H. now apply (proj1 (eval_clause_false m c)). Qed.

Lemma undef_lit m l : is_true (eval_lit m l) = false -> is_false (eval_lit m l) = false -> mdef m (lord l) = false.
Proof. unfold eval_lit. destruct (mdef m (lord l)); [|auto]. destruct (mval m (lord l)), (lneg l); simpl; congruence. Qed.
Lemma falsified_ok t fl : eval_lit (t_bm t) fl = Some false -> (strict = true -> lit_level t fl = Some (dl t)) ->
  forall n d w done todo s d' w' s' co, stk d t s ->
  falsified_loop n t fl d w done todo s = Ok (d', w', s', co) ->
  dbperm d d' /\ stk d' t s' /\
  (forall c, co = Some c -> In c (clauses_of d') /\ forall x, In x c -> eval_lit (t_bm t) x = Some false).
Proof.
  intros FL LV. induction n as [|n IH]; intros d w done todo s d' w' s' co ST H.
  - destruct todo as [|[r idx] rest]; cbn in H; [|discriminate]. injection H as <- <- <- <-.
    split; [apply dbperm_refl|]. split; auto. discriminate.
  - destruct todo as [|[r idx] rest]; cbn [falsified_loop] in H.
    { injection H as <- <- <- <-. split; [apply dbperm_refl|]. split; auto. discriminate. }
    unfold assertb at 1 in H. destruct (1 <=? length (getc d r)) eqn:E1; [|discriminate]. cbn [bind] in H.
    assert (V : valid d r) by (apply getc_nonempty; intros E; rewrite E in E1; discriminate).
    destruct (length (getc d r) =? 1) eqn:E2.
    { unfold assertb in H. destruct (is_false (eval_clause (t_bm t) (getc d r))) eqn:E3; [|discriminate]. cbn [bind] in H.
      injection H as <- <- <- <-. split; [apply dbperm_refl|]. split; auto. intros c Hc. injection Hc as <-. split; [now apply getc_in|].
      now apply cl_false. }
    destruct (at_ (getc d r) 0) as [l0| |] eqn:E3; cbn [bind] in H; try discriminate.
    set (c1 := if lit_eqb l0 fl then swap 0 1 (getc d r) else getc d r) in *.
    assert (P1 : Permutation (getc d r) c1) by (unfold c1; destruct (lit_eqb l0 fl); auto using swap_perm).
    pose proof (dbperm_setc _ _ _ V P1) as DP. set (d1 := setc d r c1) in *.
    assert (G1 : getc d1 r = c1) by (apply getc_setc_eq; auto).
    assert (V1 : valid d1 r) by (apply valid_setc; auto).
    destruct (at_ c1 0) as [l0'| |] eqn:E4; cbn [bind] in H; try discriminate.
    destruct (at_ c1 1) as [l1'| |] eqn:E5; cbn [bind] in H; try discriminate.
    unfold assertb at 1 in H. destruct (lit_eqb l1' fl) eqn:E6; [|discriminate]. cbn [bind] in H. apply lit_eqb_eq in E6. subst l1'.
    destruct (is_true (eval_lit (t_bm t) l0')) eqn:E7.
    { eapply IH in H; [|eapply stk_perm; eauto]. destruct H as (A & B & C). split; [eapply dbperm_trans; eauto|auto]. }
    destruct (replace_second_watch (t_bm t) c1 idx) as [[j|]| |] eqn:E8; cbn [bind] in H; try discriminate.
    { destruct (at_ (swap 1 j c1) 1) as [l1''| |] eqn:E9; cbn [bind] in H; try discriminate.
      unfold assertb at 1 in H. destruct (negb (lit_eqb l1'' fl)) eqn:E10; [|discriminate]. cbn [bind] in H.
      assert (DP2 : dbperm d (setc d1 r (swap 1 j c1))).
      { eapply dbperm_trans; [exact DP|]. apply dbperm_setc; auto. rewrite G1. apply swap_perm. }
      eapply IH in H; [|eapply stk_perm; eauto]. destruct H as (A & B & C). split; [eapply dbperm_trans; eauto|auto]. }
    unfold assertb at 1 in H. destruct (level_check t c1) eqn:E9; [|discriminate]. cbn [bind] in H.
    destruct (is_false (eval_lit (t_bm t) l0')) eqn:E10.
    { unfold assertb in H. destruct (is_false (eval_clause (t_bm t) c1)) eqn:E11; [|discriminate]. cbn [bind] in H.
      injection H as <- <- <- <-. split; auto. split; [eapply stk_perm; eauto|]. intros c Hc. injection Hc as <-. split; [rewrite <- G1; now apply getc_in|].
      now apply cl_false. }
    unfold assertb at 1 in H. destruct (forallb (fun l => is_false (eval_lit (t_bm t) l)) (tl c1)) eqn:E11; [|discriminate]. cbn [bind] in H.
    eapply IH in H; [destruct H as (A & B & C); split; [eapply dbperm_trans; eauto|auto]|].
    intros l ro [Hin|Hin]; [|eapply stk_perm; eauto].
    injection Hin as <- <-. right. split; [now apply undef_lit|]. exists r. split; auto. unfold unit_in. rewrite G1.
    destruct c1 as [|y0 [|y1 cr]]; [discriminate|discriminate|]. cbn in E4, E5. injection E4 as ->. injection E5 as ->.
    rewrite forallb_forall in E11. split; [exact V1|].
    split; [apply (once_unit (t_bm t)); [now apply undef_lit|intros x Hx; apply is_false_iff; now apply E11]|]. split.
    + intros x [<-|Hx]; [auto|right]. apply is_false_iff. now apply E11.
    + intros S1 _. exists fl. split; [simpl; auto|]. split; [|auto]. intros ->. rewrite FL in E10. discriminate.
Qed.

(** what a run of BCP from [t] may have done *)
Lemma mdef_lit t l b : eval_lit (t_bm t) l = Some b -> mdef (t_bm t) (lord l) = true.
Proof. unfold eval_lit. destruct (mdef (t_bm t) (lord l)); [auto|discriminate]. Qed.

Lemma stk_step d t l r k t1 s : tpi strict d t -> lord l < mnum (t_bm t) -> lit_level t l = None -> k = dl t ->
  t_step t (TPropagate (lvar l) r k (negb (lneg l), 0%Q)) = Ok t1 -> stk d t s -> stk d t1 s.
Proof.
  intros P R U -> S ST. pose proof P as ((a & T) & _). pose proof T as [N _].
  destruct (step_prop_inv _ _ _ _ _ _ S) as (Hk & L1 & _ & BM & _).
  destruct (lists_prop _ _ _ _ _ _ N S) as [D _].
  assert (ML : mdef (t_bm t) (lord l) = false).
  { destruct (mdef (t_bm t) (lord l)) eqn:E; auto. apply (tpi_def _ _ _ P) in E. unfold lit_level, lvar in U. congruence. }
  assert (KE : forall x b, eval_lit (t_bm t) x = Some b -> eval_lit (t_bm t1) x = Some b).
  { intros x b Hx. pose proof (mdef_lit _ _ _ Hx) as M. rewrite BM. unfold eval_lit in *. cbn.
    assert (lord x <> lord l) by congruence. rewrite !upd_neq by auto. exact Hx. }
  assert (KL : forall x j, lit_level t x = Some j -> lit_level t1 x = Some j).
  { intros x j Hx. unfold lit_level in *. rewrite L1, vupd_neq; auto. unfold lvar in *. intros E. injection E as E. congruence. }
  intros m ro Hin. destruct (ST _ _ Hin) as [[M1 M2]|(M & r0 & E & (A & B & C & F))].
  - left. split.
    + assert (lord m <> lord l) by congruence. rewrite BM. cbn. now rewrite upd_neq by auto.
    + intros S1. rewrite D. auto.
  - destruct (Nat.eq_dec (lord m) (lord l)) as [El|Nl].
    { left. split; [rewrite BM; cbn; rewrite El; apply upd_eq|]. intros _. unfold lit_level, lvar in *. rewrite El, L1, D. apply vupd_eq. }
    right. split; [rewrite BM; cbn; now rewrite upd_neq by auto|]. exists r0. split; auto. split; auto. split; auto. split.
    + intros x Hx. destruct (C x Hx); auto.
    + rewrite D. intros S1 S2. destruct (F S1 S2) as (x & X1 & X2 & X3). eauto.
Qed.

Lemma prop_ops_perm d d' ent t t' : dbperm d d' -> prop_ops strict d ent t t' -> prop_ops strict d' ent t t'.
Proof.
  intros P H. induction H as [t|t n t' A B IH|t l ro k t1 t' A B C D E IH|t x k q t1 t' A B C D IH].
  - constructor.
  - eapply po_new; eauto.
  - eapply po_bool; eauto. destruct ro as [r|]; auto. destruct C as (C1 & C2 & C3 & C4). pose proof (dbperm_getc _ _ r P) as G.
    split; [now apply (dbperm_valid _ _ r P)|]. split; [eapply once_perm; eauto|]. split.
    + intros y Hy. apply C3. eapply Permutation_in; [apply Permutation_sym|]; eauto.
    + intros S1 S2. destruct (C4 S1 S2) as (y & Y1 & Y2 & Y3). exists y. split; auto. eapply Permutation_in; eauto.
  - eapply po_rat; eauto.
Qed.
Lemma prop_ops_ent d (e e' : lit -> Prop) t t' : (forall l, e l -> e' l) -> prop_ops strict d e t t' -> prop_ops strict d e' t t'.
Proof.
  intros P H. induction H as [t|t n t' A B IH|t l ro k t1 t' A B C D E IH|t x k q t1 t' A B C D IH].
  - constructor.
  - eapply po_new; eauto.
  - eapply po_bool; eauto. destruct ro as [r|]; auto. intros Hk. apply P. now apply C.
  - eapply po_rat; eauto.
Qed.
Lemma prop_ops_trans d ent t1 t2 t3 : prop_ops strict d ent t1 t2 -> prop_ops strict d ent t2 t3 -> prop_ops strict d ent t1 t3.
Proof.
  intros H K. induction H as [t|t n t' A B IH|t l ro k t1 t' A B C D E IH|t x k q t1 t' A B C D IH]; auto.
  - eapply po_new; eauto.
  - eapply po_bool; eauto.
  - eapply po_rat; eauto.
Qed.

Lemma bcp_ok ent : forall fuel t d w s t' d' w' co, tpi strict d t -> stk d t s ->
  bcp_loop fuel t d w s = Ok (t', d', w', co) ->
  dbperm d d' /\ tpi strict d' t' /\ prop_ops strict d' ent t t' /\ mnum (t_qm t') = mnum (t_qm t) /\
  (forall c, co = Some c -> In c (clauses_of d') /\ forall x, In x c -> eval_lit (t_bm t') x = Some false).
Proof.
  induction fuel as [|fuel IH]; intros t d w s t' d' w' co P ST H.
  - destruct s as [|[l ro] s']; cbn in H; [|discriminate]. injection H as <- <- <- <-.
    split; [apply dbperm_refl|]. split; auto. split; [constructor|]. split; auto. discriminate.
  - destruct s as [|[l ro] s']; cbn [bcp_loop] in H.
    { injection H as <- <- <- <-. split; [apply dbperm_refl|]. split; auto. split; [constructor|]. split; auto. discriminate. }
    match type of H with bind ?m _ = _ => destruct m as [t1| |] eqn:E1; cbn [bind] in H; try discriminate end.
    unfold assertb at 1 in H. destruct (is_true (eval_lit (t_bm t1) l)) eqn:E2; [|discriminate]. cbn [bind] in H.
    match type of H with bind (assertb ?b) _ = _ => destruct b eqn:E3; [|discriminate] end. cbn [assertb bind] in H.
    apply is_true_iff in E2.
    assert (ST' : stk d t s') by (intros m r Hin; apply ST; simpl; auto).
    assert (X : tpi strict d t1 /\ stk d t1 s' /\ prop_ops strict d ent t t1 /\ mnum (t_qm t1) = mnum (t_qm t) /\
                (strict = true -> lit_level t1 l = Some (dl t1))).
    { destruct (ST l ro (or_introl eq_refl)) as [[M1 M2]|(M & r & -> & U)].
      - assert (t1 = t). { destruct ro as [r|]; [rewrite M1 in E1|]; congruence. } subst t1.
        split; auto. split; auto. split; [constructor|]. auto.
      - rewrite M in E1.
        assert (S1 : t_step t (TPropagate (lvar l) (Some r) (dl t) (negb (lneg l), 0%Q)) = Ok t1).
          { exact E1. }
          assert (U0 : lit_level t l = None).
          { unfold lit_level. destruct (t_lvl t (lvar l)) eqn:EL; auto. exfalso.
            assert (t_lvl t (VBool (lord l)) <> None) by (unfold lvar in EL; congruence). apply (tpi_def _ _ _ P) in H0. congruence. }
          assert (R0 : lord l < mnum (t_bm t)).
          { destruct P as (_ & V & _). destruct U as (U1 & U2 & _). eapply V; [apply getc_in; exact U1|now apply once_in]. }
          pose proof P as ((a & [N _]) & _).
          destruct (step_prop_inv _ _ _ _ _ _ S1) as (Hk & L1 & _ & BM & QM). destruct (lists_prop _ _ _ _ _ _ N S1) as [D _].
          split; [|split; [|split; [|split]]].
          * eapply tpi_prop; [exact P| |exact U0|auto|exact S1]. cbn. now apply Nat.ltb_lt.
          * exact (stk_step d t l (Some r) (dl t) t1 s' P R0 U0 eq_refl S1 ST').
          * eapply po_bool; [exact R0|exact U0| |exact S1|constructor]. destruct U as (U1 & U2 & U3 & U4). split; auto. split; auto. split; auto.
            intros x Hx. destruct (U3 x Hx) as [|F]; auto. right. split; auto. eapply tpi_false; eauto.
          * rewrite QM. now destruct (put_frame t (lvar l) (negb (lneg l), 0%Q)) as (_ & _ & _ & _ & ?).
          * intros _. unfold lit_level. rewrite L1, vupd_eq, D. auto. }
    destruct X as (P1 & ST1 & O1 & Q1 & LV).
    unfold falsified in H. unfold assertb at 1 in H. destruct (is_false (eval_lit (t_bm t1) (neg l))) eqn:E4; [|discriminate]. cbn [bind] in H.
    apply is_false_iff in E4.
    match type of H with bind ?m _ = _ => destruct m as [[[[d2 w2] s2] co2]| |] eqn:E5; cbn [bind] in H; try discriminate end.
    eapply falsified_ok in E5; eauto. destruct E5 as (A & B & C).
    destruct co2 as [c2|].
    + injection H as <- <- <- <-. split; auto. split; [eapply tpi_perm; eauto|]. split; [eapply prop_ops_perm; eauto|]. split; auto.
    + eapply IH in H; [|eapply tpi_perm; eauto|exact B]. destruct H as (A' & B' & C' & D' & E').
      split; [eapply dbperm_trans; eauto|]. split; auto. split; [|split; [congruence|auto]].
      eapply prop_ops_trans; [eapply prop_ops_perm; [|exact O1]; eapply dbperm_trans; eauto|exact C'].
Qed.

Lemma recent_lists t : t_levels t <> [] -> recent t = lists t (dl t).
Proof.
  intros N. unfold lists, assigned_at, recent. rewrite Nat.leb_refl, Nat.sub_diag. destruct (t_levels t); [congruence|reflexivity].
Qed.
Lemma stk_pushed d t : tpi strict d t -> forall es s, (forall e, In e es -> In e (recent t)) -> stk d t s ->
  stk d t (push_assigned (t_bm t) es s).
Proof.
  intros P. induction es as [|[[v|v] r] es IH]; intros s HE ST; cbn; auto.
  - apply IH; [intros; apply HE; simpl; auto|]. intros l ro [Hin|Hin]; [|auto]. injection Hin as <- <-. left.
    pose proof (HE _ (or_introl eq_refl)) as Hin. pose proof P as ((a & [N A]) & _ & C). rewrite recent_lists in Hin by auto.
    split; [|intros S1; apply (C S1 _ _ _ Hin)]. apply (tpi_def _ _ _ P). cbn.
    apply (sh_list _ _ A) in Hin; auto. destruct Hin as (g & E & _). rewrite (sh_lvl _ _ A), E. discriminate.
  - apply IH; auto. intros; apply HE; simpl; auto.
Qed.
Lemma skipn_sub {A} n (l : list A) x : In x (skipn n l) -> In x l.
Proof. intros H. rewrite <- (firstn_skipn n l). apply in_app_iff. auto. Qed.
Lemma stk_init d t : tpi strict d t -> trail_empty t = true -> forall rs w s w' s', (forall r, In r rs -> valid d r) -> stk d t s ->
  init_clauses d rs (w, s) = Ok (w', s') -> stk d t s'.
Proof.
  intros P TE.
  assert (D0 : dl t = 0) by (unfold trail_empty in TE; unfold dl; destruct (t_levels t) as [|[|] [|]]; try discriminate; auto).
  induction rs as [|r rs IH]; intros w s w' s' V ST H; cbn in H.
  - now injection H as <- <-.
  - destruct (getc d r) as [|l0 [|l1 c]] eqn:EC; cbn [bind] in H; try discriminate.
    + eapply IH; [| |exact H]; [intros; apply V; simpl; auto|]. intros l ro [Hin|Hin]; [|auto]. injection Hin as <- <-.
      destruct (mdef (t_bm t) (lord l0)) eqn:M; [left|right].
      * split; auto. intros _. apply (tpi_def _ _ _ P) in M. unfold lit_level, lvar. destruct (t_lvl t (VBool (lord l0))) as [k|] eqn:EL; [|congruence].
        apply (tpi_lev_le _ _ _ _ P) in EL. f_equal. lia.
      * split; auto. exists r. split; auto. split; [apply V; simpl; auto|]. rewrite EC. split; [now apply once_head|]. split.
        -- intros x [<-|[]]; auto.
        -- lia.
    + eapply IH; [| |exact H]; [intros; apply V; simpl; auto|auto].
Qed.
Lemma all_refs_valid d r : In r (all_refs d) -> valid d r.
Proof.
  unfold all_refs. rewrite in_app_iff, !in_map_iff. intros [(i & <- & Hi)|(i & <- & Hi)]; apply in_seq in Hi; cbn; lia.
Qed.

(** Bool_theory::propagate *)
Lemma bool_propagate_ok ent fuel b d t b' d' t' cs : tpi strict d t ->
  bool_propagate fuel b d t = Ok (b', d', t', cs) ->
  dbperm d d' /\ tpi strict d' t' /\ prop_ops strict d' ent t t' /\ mnum (t_qm t') = mnum (t_qm t) /\
  (forall c, In c cs -> In c (clauses_of d') /\ forall x, In x c -> eval_lit (t_bm t') x = Some false).
Proof.
  intros P H. unfold bool_propagate in H. destruct (bool_initialize b d t) as [[b1 s]| |] eqn:EI; cbn [bind] in H; try discriminate.
  destruct (bcp_loop fuel t d (b_watched b1) s) as [[[[t2 d2] w2] co]| |] eqn:EB; cbn [bind] in H; try discriminate.
  injection H as <- <- <- <-.
  assert (ST : stk d t s).
  { unfold bool_initialize in EI.
    match type of EI with bind ?m _ = _ => destruct m as [[w s0]| |] eqn:E1; cbn [bind] in EI; try discriminate end.
    cbn [theory_assigned] in EI. injection EI as _ <-. apply stk_pushed; auto.
    - intros e He. apply skipn_sub in He. now apply in_rev.
    - destruct (trail_empty t) eqn:TE.
      + eapply stk_init; [exact P|exact TE| | |exact E1]; [apply all_refs_valid|easy].
      + injection E1 as _ <-. easy. }
  eapply bcp_ok in EB; eauto. destruct EB as (A & B & C & D & E). split; auto. split; auto. split; [exact C|]. split; auto.
  intros c Hc. destruct co as [c0|]; [|easy]. destruct Hc as [<-|[]]. now apply E.
Qed.

Lemma perm_hold a d d' : dbperm d d' -> all_hold a (all_clauses d) -> all_hold a (all_clauses d').
Proof.
  intros P H c Hc. destruct (in_getc d' c Hc) as (r & V & <-). eapply clause_holds_perm; [apply (dbperm_getc _ _ r P)|].
  apply H. apply getc_in. now apply (dbperm_valid _ _ r P).
Qed.

(** the contract, for Bool_theory alone *)
Definition bool_pi (b : bstate) (d : db) (t : trail) : Prop := tpi strict d t /\ mnum (t_qm t) = 0.

Lemma bool_plugin : plugin_ok strict bool_theory (fun _ _ => True) bool_pi.
Proof.
  split.
  - intros fuel ts d t ts' d' t' cs (P & Q0) H. cbn in H.
    eapply (bool_propagate_ok (fun l => lemma_of (fun _ _ => True) ts' d [l])) in H; eauto. destruct H as (A & B & C & D & E).
    split; [split; [auto|congruence]|]. split; [exact A|]. split; [split; [auto|intros a _; exists a; auto]|]. split; [exact C|].
    intros c Hc. destruct (E c Hc) as [E1 E2]. split; auto. intros a _ Ha. apply (perm_hold _ _ _ A Ha). exact E1.
  - intros ts d t v ts' t' (P & Q0) U R H. cbn in H. injection H as <- <-.
    destruct v as [i|i]; [|cbn in R; rewrite Q0 in R; discriminate].
    match goal with |- context [bool_decide ts t (VBool i)] =>
      assert (E : exists x, t_step t (TDecide (VBool i) x) = Ok (bool_decide ts t (VBool i))) by
        (eexists (_, 0%Q); reflexivity) end.
    split; [|split; [intros a; tauto|exact E]]. destruct E as [x E]. split; [eapply tpi_decide; eauto|exact Q0].
  - intros ts d t c ts' ((A & V & C) & Q0) N F H. split; [|intros a; tauto]. split; auto. split; auto. split; auto.
    intros c' l Hc Hl. unfold clauses_of in Hc. cbn in Hc. rewrite app_assoc, in_app_iff in Hc. destruct Hc as [Hc|[<-|[]]]; [eapply V; eauto|].
    destruct (tpi_false d t l (conj A (conj V C)) (F l Hl)) as (j & Hj & _). destruct A as (a & [_ A]).
    unfold lit_level in Hj. rewrite (sh_lvl _ _ A) in Hj. destruct (at_rec a (lvar l)) as [g|] eqn:E; [|discriminate].
    destruct (sh_ok _ _ A _ _ E) as [R _]. destruct (sh_num _ _ A) as [-> _]. cbn in R. now apply Nat.ltb_lt.
  - intros ts d t k t' (P & Q0) H. split; [|intros a; tauto]. split; [eapply tpi_backtrack; eauto|].
    destruct P as ((a & T) & _). assert (K : k <= dl t) by (unfold trail_backtrack in H; destruct (Nat.leb_spec k (dl t)); [auto|discriminate]).
    pose proof T as [_ A].
    destruct (inv_backtrack t a k T) as (t1' & E & [_ A1] & _); [simpl; now rewrite <- (sh_dl _ _ A)|]. rewrite H in E. injection E as <-.
    destruct (sh_num _ _ A1) as [_ ->]. cbn. destruct (sh_num _ _ A) as [_ <-]. exact Q0.
  - intros ts d t l r t' (P & Q0) R U V H. split.
    + eapply tpi_prop; [exact P| |exact U| |exact H]; auto. cbn. now apply Nat.ltb_lt.
    + destruct (step_prop_inv _ _ _ _ _ _ H) as (_ & _ & _ & _ & ->). exact Q0.
  - intros ts d t l t' (P & Q0) R U H. split.
    + eapply tpi_decide; [exact P| |exact U|exact H]. cbn. now apply Nat.ltb_lt.
    + cbn in H. injection H as <-. exact Q0.
  - intros ts d t L (P & Q0) HL. split; [|intros a; tauto]. split; [|exact Q0]. eapply tpi_clear; eauto.
    intros c Hc. unfold clauses_of in *. cbn in Hc. apply in_app_iff in Hc. apply in_app_iff. destruct Hc; auto.
Qed.
End B.
