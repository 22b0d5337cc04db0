(** Boolean propagation next to other plugins: literals may sit on levels below the current one. The
    watch invariant by decision level. *)
From Coq Require Import List Arith ZArith QArith NArith Bool Lia Permutation.
From Verif Require Import Base Core_Model Literal_Proofs Analysis_Model Bool_Model Sat_Base Sat_Inv Sat_Trail Sat_Prop Sat_Bcp Sat_Bcp2
  Trail_Model Spec_Trail Trail_Proofs Solver_Model Spec_Sat Spec_Theory Theory_Inv Theory_Strict Theory_Bool.
Import ListNotations.
Open Scope nat_scope.

Definition LT (t : trail) : Prop := forall x b, tv t x = Some b -> exists k, lev t x = Some k /\ k <= dl t.
Definition grd (t : trail) (x y : lit) : Prop :=
  tv t y = Some true /\ exists k k', lev t x = Some k /\ lev t y = Some k' /\ k' <= k.
Definition wok (t : trail) (s : sat_stack) (fl : lit) (todo : list watch) (r : cref) (rest : clause) (x y : lit) : Prop :=
  grd t x y \/
  (lev t x = Some (dl t) /\
    (In (neg x) (map fst s) \/ (x = fl /\ In r (map fst todo)) \/
     (all_false t rest /\ ((tv t y = None /\ In (y, Some r) s) \/ (y = fl /\ In r (map fst todo)))))).
Definition cok (t : trail) (s : sat_stack) (fl : lit) (todo : list watch) (r : cref) (c : clause) : Prop :=
  match c with
  | [] => False
  | [u] =>
      (tv t u = Some true /\ lev t u = Some 0) \/
      (dl t = 0 /\
       ((tv t u = None /\ In (u, Some r) s) \/ (u = fl /\ In r (map fst todo)) \/
        (tv t u = Some false /\ In (neg u) (map fst s))))
  | x :: y :: rest =>
      (tv t x = Some false -> wok t s fl todo r rest x y) /\
      (tv t y = Some false -> wok t s fl todo r rest y x)
  end.
Definition CI (d : db) (t : trail) (w : watch_map) (s : sat_stack) (fl : lit) (todo : list watch) : Prop :=
  WC d w /\ forall r, valid d r -> cok t s fl todo r (getc d r).

(** false watches of levels below [k] are guarded by a true literal of no larger level; units of level 0 are true *)
Definition pair_b (t : trail) (k : nat) (x y : lit) : Prop :=
  forall i, tv t x = Some false -> lev t x = Some i -> i < k ->
    tv t y = Some true /\ exists j, lev t y = Some j /\ j <= i.
Definition cbl (t : trail) (k : nat) (c : clause) : Prop :=
  match c with
  | [] => False
  | [u] => 1 <= k -> lev t u = Some 0 -> tv t u = Some true
  | x :: y :: _ => pair_b t k x y /\ pair_b t k y x
  end.
Definition PB (k : nat) (d : db) (t : trail) : Prop := forall r, valid d r -> cbl t k (getc d r).

Lemma PB_mono k k' d t : k <= k' -> PB k' d t -> PB k d t.
Proof.
  intros H P r Hr. specialize (P r Hr). destruct (getc d r) as [|x [|y c]]; cbn in *; auto.
  - intros. apply P; auto. lia.
  - destruct P as [A B]. split; intros i H1 H2 H3; [apply A|apply B]; auto; lia.
Qed.
Lemma CI_weak d t w s fl todo : CI d t w s fl todo -> PB (dl t) d t.
Proof.
  intros [_ H] r Hr. specialize (H r Hr). destruct (getc d r) as [|x [|y c]]; cbn in *; auto.
  - destruct H as [[H _]|[H _]]; auto. lia.
  - assert (W : forall a b, (tv t a = Some false -> wok t s fl todo r c a b) -> pair_b t (dl t) a b).
    { intros a b Hw i H1 H2 H3. destruct (Hw H1) as [(G1 & k & k' & G2 & G3 & G4)|[G _]]; [|rewrite G in H2; injection H2 as <-; lia].
      rewrite H2 in G2. injection G2 as <-. eauto. }
    destruct H. split; apply W; auto.
Qed.
Definition units_done (d : db) (t : trail) : Prop := forall u, In [u] (all_clauses d) -> lev t u = Some 0.
Lemma CI_units d t w fl : CI d t w [] fl [] -> units_done d t.
Proof.
  intros [_ H] u Hu. destruct (in_getc d _ Hu) as (r & V & E). specialize (H r V). rewrite E in H. cbn in H. tauto.
Qed.
Lemma CI_done d t w fl : CI d t w [] fl [] -> PB (S (dl t)) d t.
Proof.
  intros [_ H] r Hr. specialize (H r Hr). destruct (getc d r) as [|x [|y c]]; cbn in *; auto.
  - tauto.
  - assert (W : forall a b, (tv t a = Some false -> wok t [] fl [] r c a b) -> pair_b t (S (dl t)) a b).
    { intros a b Hw i H1 H2 H3. destruct (Hw H1) as [(G1 & k & k' & G2 & G3 & G4)|[_ G]]; [|cbn in G; tauto].
      rewrite H2 in G2. injection G2 as <-. eauto. }
    destruct H. split; apply W; auto.
Qed.

Lemma wok_mono t s s' fl todo todo' r rest x y :
  (forall e, In e s -> In e s') -> (In r (map fst todo) -> In r (map fst todo')) ->
  wok t s fl todo r rest x y -> wok t s' fl todo' r rest x y.
Proof.
  intros Hs Ht [H|[L [H|[[H1 H2]|(H2 & H3)]]]]; [left; auto|right; split; [exact L|]..].
  - left. apply in_map_iff in H. destruct H as (e & E & H). apply in_map_iff; eauto.
  - right; left; auto.
  - right; right. split; auto. destruct H3 as [[]|[]]; auto.
Qed.
Lemma cok_mono t s s' fl todo todo' r c :
  (forall e, In e s -> In e s') -> (In r (map fst todo) -> In r (map fst todo')) ->
  cok t s fl todo r c -> cok t s' fl todo' r c.
Proof.
  intros Hs Ht. destruct c as [|x [|y rest]]; simpl; auto.
  - intros [H|(H1 & [[A B]|[[A B]|[A B]]])]; [left; auto|right; split; [exact H1|]..]; auto.
    right; right; split; auto. apply in_map_iff in B. destruct B as (e & E & B). apply in_map_iff; eauto.
  - intros [H1 H2]; split; intros; eapply wok_mono; eauto.
Qed.

Lemma CI_swap d t w s fl todo r x y rest :
  valid d r -> getc d r = x :: y :: rest -> CI d t w s fl todo -> CI (setc d r (y :: x :: rest)) t w s fl todo.
Proof.
  intros Hr Hc [H1 H2]. split.
  - apply WC_setc; auto; rewrite Hc; auto. intros l. apply expected_swap.
  - intros r' Hr'. apply valid_setc in Hr'. destruct (cref_eq_dec r r') as [<-|E].
    + rewrite getc_setc_eq by auto. specialize (H2 r Hr). rewrite Hc in H2. simpl in *. tauto.
    + rewrite getc_setc_neq by auto. auto.
Qed.
Lemma CI_same d t w s fl todo r c : valid d r -> getc d r = c -> CI d t w s fl todo -> CI (setc d r c) t w s fl todo.
Proof.
  intros Hr Hc [H1 H2].
  assert (E : forall r', getc (setc d r c) r' = getc d r').
  { intros r'. destruct (cref_eq_dec r r') as [<-|E]; [rewrite getc_setc_eq by auto; auto|now rewrite getc_setc_neq]. }
  split; [apply WC_setc; auto; rewrite Hc; auto|]. intros r' Hr'. rewrite E. apply H2. now apply valid_setc in Hr'.
Qed.

Lemma CI_keep d t w s s' fl done r idx rest a rest0 :
  LT t -> tv t fl = Some false -> valid d r -> getc d r = a :: fl :: rest0 ->
  (s' = s /\ tv t a = Some true \/ s' = (a, Some r) :: s /\ tv t a = None /\ all_false t rest0) ->
  CI d t (wm_set w fl (done ++ (r, idx) :: rest)) s fl ((r, idx) :: rest) ->
  CI d t (wm_set w fl ((done ++ [(r, idx)]) ++ rest)) s' fl rest.
Proof.
  intros HT Hfl Hr Hc Hs [H1 H2].
  assert (Hsub : forall e, In e s -> In e s') by (destruct Hs as [[-> _]|[-> _]]; simpl; auto).
  split; [rewrite <- app_assoc; exact H1|].
  intros r' Hr'. destruct (cref_eq_dec r r') as [<-|E].
  - specialize (H2 r Hr). rewrite Hc in *. destruct H2 as [_ H2]. specialize (H2 Hfl). simpl.
    destruct Hs as [[-> Ha]|(-> & Ha & Hall)].
    + split; intros; [congruence|]. left. destruct H2 as [H2|[H2 _]]; auto. split; auto.
      destruct (HT _ _ Ha) as (k' & Hk' & Hl). exists (dl t), k'. auto.
    + split; intros; [congruence|]. destruct H2 as [[H2 _]|[H2 _]]; [congruence|]. right. split; auto. right; right. split; auto.
      left; simpl; auto.
  - eapply cok_mono; [exact Hsub| |apply H2; auto]. simpl. intros [?|?]; auto; congruence.
Qed.

Lemma WC_move d w fl done r idx rest rest' a z i rest0 :
  valid d r -> getc d r = a :: fl :: rest0 -> nth_error rest0 i = Some z -> z <> fl -> Permutation rest rest' ->
  WC d (wm_set w fl (done ++ (r, idx) :: rest)) ->
  WC (setc d r (a :: z :: set_nth i fl rest0)) (wm_set (wm_push w z (r, S (S i))) fl (done ++ rest')).
Proof.
  intros Hr Hc Hz Hzfl HP [C1 C2].
  assert (Hzin : In z rest0) by (eapply nth_error_In; eauto).
  assert (Hi : i < length rest0) by (apply nth_error_Some; congruence).
  assert (Hlen : length (a :: z :: set_nth i fl rest0) = length (getc d r)).
  { rewrite Hc; simpl. now rewrite set_nth_length. }
  split.
  - intros r' l Hr'. apply valid_setc in Hr'. specialize (C1 r' l Hr').
    destruct (lit_eq_dec l fl) as [->|El].
    + rewrite wm_set_eq in *. rewrite count_watch_app in *.
      rewrite <- (count_watch_perm _ _ _ HP).
      destruct (cref_eq_dec r r') as [<-|E].
      * rewrite getc_setc_eq by auto. rewrite Hc in C1.
        rewrite count_watch_cons_eq in C1. cbn [expected] in *. rewrite b2n_refl in C1.
        rewrite (proj2 (lit_eqb_neq z fl)) by auto. simpl. lia.
      * rewrite getc_setc_neq by auto. rewrite count_watch_cons_neq in C1 by auto. auto.
    + rewrite wm_set_neq in * by auto. unfold wm_push.
      destruct (lit_eq_dec l z) as [->|Ez].
      * rewrite wm_set_eq, count_watch_app.
        destruct (cref_eq_dec r r') as [<-|E].
        -- rewrite getc_setc_eq by auto. rewrite Hc in C1. rewrite count_watch_cons_eq.
           change (count_watch r []) with 0. cbn [expected] in *. rewrite b2n_refl. rewrite (proj2 (lit_eqb_neq fl z)) in C1 by auto.
           simpl in *. lia.
        -- rewrite getc_setc_neq by auto. rewrite count_watch_cons_neq by auto.
           change (count_watch r' []) with 0. lia.
      * rewrite wm_set_neq by auto. destruct (cref_eq_dec r r') as [<-|E].
        -- rewrite getc_setc_eq by auto. rewrite Hc in C1. cbn [expected] in *.
           rewrite (proj2 (lit_eqb_neq fl l)) in C1 by auto.
           rewrite (proj2 (lit_eqb_neq z l)) by auto. auto.
        -- rewrite getc_setc_neq by auto. auto.
  - intros l p Hp. destruct (lit_eq_dec l fl) as [->|El].
    + rewrite wm_set_eq in Hp. apply idx_ok_setc; auto. apply (C2 fl). rewrite wm_set_eq.
      apply in_app_iff in Hp. apply in_app_iff. destruct Hp; auto. right; right.
      eapply Permutation_in; [apply Permutation_sym; eauto|auto].
    + rewrite wm_set_neq in Hp by auto. unfold wm_push in Hp.
      assert (K : In p (w l) -> watch_idx_ok (setc d r (a :: z :: set_nth i fl rest0)) p).
      { intros Hp'. apply idx_ok_setc; auto. apply (C2 l). now rewrite wm_set_neq. }
      destruct (lit_eq_dec l z) as [->|Ez]; [|rewrite wm_set_neq in Hp; auto].
      rewrite wm_set_eq in Hp. apply in_app_iff in Hp. destruct Hp as [Hp|[<-|[]]]; auto.
      split; simpl. now apply valid_setc. rewrite getc_setc_eq by auto. simpl.
      rewrite set_nth_length. lia.
Qed.

Lemma CI_move d t w s fl done r idx rest rest' a z i rest0 :
  tv t fl = Some false -> valid d r -> getc d r = a :: fl :: rest0 ->
  nth_error rest0 i = Some z -> tv t z <> Some false ->
  Permutation rest rest' -> done_ok d t fl done ->
  CI d t (wm_set w fl (done ++ (r, idx) :: rest)) s fl ((r, idx) :: rest) ->
  CI (setc d r (a :: z :: set_nth i fl rest0)) t
     (wm_set (wm_push w z (r, S (S i))) fl (done ++ rest')) s fl rest'.
Proof.
  intros Hfl Hr Hc Hz Hzv HP Hd [H1 H2].
  assert (Hzfl : z <> fl) by congruence.
  assert (Hzin : In z rest0) by (eapply nth_error_In; eauto).
  assert (Hin : forall r', r' <> r -> In r' (map fst ((r, idx) :: rest)) -> In r' (map fst rest')).
  { intros r' E [K|K]; simpl in K; [congruence|].
    eapply Permutation_in; [apply Permutation_map; eauto|auto]. }
  split; [eapply WC_move; eauto|].
  intros r' Hr'. apply valid_setc in Hr'. destruct (cref_eq_dec r r') as [<-|E].
  - rewrite getc_setc_eq by auto. specialize (H2 r Hr). rewrite Hc in H2. simpl in *.
    destruct H2 as [H2 _]. split; [|congruence]. intros Ha. specialize (H2 Ha).
    destruct H2 as [[K _]|[L [K|[[-> K]|(K & _)]]]].
    + congruence.
    + right. split; auto.
    + right. split; auto. right; left. split; auto.
      destruct H1 as [C1 _]. specialize (C1 r fl Hr). rewrite wm_set_eq, Hc in C1.
      cbn [expected] in C1. rewrite b2n_refl in C1.
      rewrite count_watch_app, count_watch_cons_eq in C1.
      assert (Z : count_watch r done = 0).
      { destruct (count_watch r done) eqn:Z; auto. exfalso.
        assert (I : In r (map fst done)) by (apply count_watch_In; lia).
        apply in_map_iff in I. destruct I as (p & E & I). apply Hd in I.
        destruct I as (a' & r0 & I1 & I2). rewrite E, Hc in I1. inversion I1; subst. congruence. }
      rewrite <- (Permutation_map fst HP). apply count_watch_In. lia.
    + rewrite (K z Hzin) in Hzv. congruence.
  - rewrite getc_setc_neq by auto. eapply cok_mono; [| |apply H2; auto]; auto.
Qed.

(** unassigned literals on the stack have a reason that is unit *)
Definition stk2 (d : db) (t : trail) (s : sat_stack) : Prop :=
  forall l ro, In (l, ro) s -> mdef (t_bm t) (lord l) = false -> exists r, ro = Some r /\ unit_in true d t l r.
Lemma stk2_perm d d' t s : dbperm d d' -> stk2 d t s -> stk2 d' t s.
Proof. intros P H l ro Hin M. destruct (H _ _ Hin M) as (r & E & U). exists r. split; auto. eapply unit_in_perm; eauto. Qed.

Lemma falsified2 t fl : LT t -> tv t fl = Some false ->
  forall n d w done todo s d' w' s' co,
  CI d t (wm_set w fl (done ++ todo)) s fl todo -> done_ok d t fl done -> stk2 d t s ->
  falsified_loop n t fl d w done todo s = Ok (d', w', s', co) ->
  dbperm d d' /\ stk2 d' t s' /\
  match co with
  | None => CI d' t w' s' fl []
  | Some c => WC d' w' /\ PB (dl t) d' t /\ In c (clauses_of d') /\ all_false t c
  end.
Proof.
  intros HT Hfl. induction n as [|n IH]; intros d w done todo s d' w' s' co HW Hd ST H.
  - destruct todo as [|[r idx] rest]; cbn in H; [|discriminate]. injection H as <- <- <- <-. rewrite app_nil_r in HW.
    split; [apply dbperm_refl|]. auto.
  - destruct todo as [|[r idx] rest].
    { cbn in H. injection H as <- <- <- <-. rewrite app_nil_r in HW. split; [apply dbperm_refl|]. auto. }
    assert (Hidx : watch_idx_ok d (r, idx)).
    { apply (proj2 (proj1 HW) fl). rewrite wm_set_eq. apply in_app_iff. simpl; auto. }
    destruct Hidx as [Hr Hidx]. simpl in Hr, Hidx.
    assert (Hpos : 0 < expected (getc d r) fl).
    { rewrite <- (proj1 (proj1 HW)) by auto. rewrite wm_set_eq. rewrite count_watch_app, count_watch_cons_eq. lia. }
    cbn [falsified_loop] in H.
    destruct (expected_pos _ _ Hpos) as [Hc|(x & y & rest0 & Hc & Hxy)].
    { rewrite Hc in H. cbn [length Nat.leb Nat.eqb assertb bind] in H.
      assert (Haf : all_false t [fl]) by (intros z [<-|[]]; auto).
      rewrite (eval_clause_all_false t [fl]) in H by auto. cbn [assertb bind] in H. injection H as <- <- <- <-.
      split; [apply dbperm_refl|]. split; auto. split; [apply HW|]. split; [eapply CI_weak; eauto|]. split; auto.
      rewrite <- Hc. now apply getc_in. }
    assert (Hmain : exists a, (if lit_eqb x fl then swap 0 1 (getc d r) else getc d r) = a :: fl :: rest0 /\
       Permutation (getc d r) (a :: fl :: rest0) /\
       CI (setc d r (a :: fl :: rest0)) t (wm_set w fl (done ++ (r, idx) :: rest)) s fl ((r, idx) :: rest) /\
       done_ok (setc d r (a :: fl :: rest0)) t fl done).
    { rewrite Hc. destruct (lit_eqb x fl) eqn:Ex.
      - apply lit_eqb_eq in Ex. subst x. rewrite swap01. exists y. split; auto. split; [apply perm_swap|].
        split; [now apply CI_swap|].
        intros p Hp. destruct (Hd p Hp) as (a & r0 & K1 & K2).
        destruct (cref_eq_dec r (fst p)) as [E|E].
        + rewrite <- E, Hc in K1. inversion K1; subst. congruence.
        + rewrite getc_setc_neq by auto. eauto.
      - apply lit_eqb_neq in Ex. destruct Hxy as [Hxy|Hxy]; [congruence|subst y]. exists x. split; auto. split; auto.
        split; [now apply CI_same|].
        intros p Hp. destruct (Hd p Hp) as (a & r0 & K1 & K2).
        destruct (cref_eq_dec r (fst p)) as [E|E].
        + rewrite <- E, getc_setc_eq by auto. rewrite <- E, Hc in K1. inversion K1; subst. eauto.
        + rewrite getc_setc_neq by auto. eauto. }
    clear Hxy. destruct Hmain as (a & Hswap & HPc & HW1 & Hd1).
    assert (L1 : (1 <=? length (getc d r)) = true) by (rewrite Hc; auto).
    assert (L2 : (length (getc d r) =? 1) = false) by (rewrite Hc; auto).
    rewrite L1, L2 in H. cbn [assertb bind] in H.
    assert (A0 : at_ (getc d r) 0 = Ok x) by (rewrite Hc; auto).
    rewrite A0 in H. cbn [bind] in H. rewrite Hswap in H. unfold at_ at 1 2 in H. cbn [nth_error value_of bind] in H.
    rewrite lit_eqb_refl in H. cbn [assertb bind] in H.
    set (d1 := setc d r (a :: fl :: rest0)) in *.
    assert (HPd : dbperm d d1) by (apply dbperm_setc; auto).
    assert (Hr1 : valid d1 r) by (now apply valid_setc).
    assert (Hc1 : getc d1 r = a :: fl :: rest0) by (unfold d1; now rewrite getc_setc_eq).
    assert (ST1 : stk2 d1 t s) by (eapply stk2_perm; eauto).
    fold (tv t a) in H. destruct (is_true (tv t a)) eqn:Et.
    { apply is_true_iff in Et. eapply IH in H; [destruct H as (B1 & B2 & B3); split; [eapply dbperm_trans; eauto|auto]| | |exact ST1].
      - eapply CI_keep; eauto.
      - intros p Hp. apply in_app_iff in Hp. destruct Hp as [Hp|[<-|[]]]; auto. exists a, rest0. split; auto. congruence. }
    destruct (replace_spec t a fl rest0 idx Hfl) as (o & Ho & Hspec).
    { intros L. assert (E : length (getc d r) = length (a :: fl :: rest0)) by (apply Permutation_length; auto).
      rewrite <- E in *. auto. }
    rewrite Ho in H. cbn [bind] in H. destruct o as [j|].
    { destruct Hspec as (i & z & -> & Hz & Hzv).
      rewrite (swap1j a fl z rest0 i Hz) in H. unfold at_ in H. cbn [nth_error value_of bind] in H.
      assert (Hne : z <> fl) by congruence. rewrite (proj2 (lit_eqb_neq z fl) Hne) in H. cbn [negb assertb bind] in H.
      assert (HP2 : dbperm d1 (setc d1 r (a :: z :: set_nth i fl rest0))).
      { apply dbperm_setc; auto. rewrite Hc1, <- (swap1j a fl z rest0 i Hz). apply swap_perm. }
      eapply IH in H; [destruct H as (B1 & B2 & B3); split; [eapply dbperm_trans; [exact HPd|eapply dbperm_trans; eauto]|auto]| | |].
      - eapply (CI_move d1 t w s fl done r idx rest); eauto. apply rotate_perm.
      - apply done_ok_setc; auto. intros I. apply in_map_iff in I. destruct I as (p & E & I).
        destruct (Hd1 _ I) as (a' & r0 & K1 & K2). rewrite E, Hc1 in K1. inversion K1; subst a' r0.
        pose proof (proj1 (proj1 HW1) r fl Hr1) as C.
        rewrite wm_set_eq, Hc1, count_watch_app, count_watch_cons_eq in C. cbn [expected] in C.
        rewrite b2n_refl in C.
        assert (0 < count_watch r done) by (apply count_watch_In; rewrite <- E; now apply in_map).
        destruct (lit_eqb a fl) eqn:Ea; [apply lit_eqb_eq in Ea; congruence|simpl in C; lia].
      - eapply stk2_perm; eauto. }
    destruct (level_check t (a :: fl :: rest0)); cbn [assertb bind] in H; [|discriminate].
    destruct (is_false (tv t a)) eqn:Ef.
    { apply is_false_iff in Ef.
      assert (Haf : all_false t (a :: fl :: rest0)) by (intros z [<-|[<-|Hz]]; auto).
      rewrite (eval_clause_all_false t (a :: fl :: rest0)) in H by auto. cbn [assertb bind] in H. injection H as <- <- <- <-.
      split; auto. split; auto. split; [apply HW1|]. split; [eapply CI_weak; eauto|]. split; auto. rewrite <- Hc1. now apply getc_in. }
    destruct (forallb _ _); cbn [assertb bind] in H; [|discriminate].
    assert (Hn : tv t a = None) by (destruct (tv t a) as [[|]|]; auto; discriminate).
    eapply IH in H; [destruct H as (B1 & B2 & B3); split; [eapply dbperm_trans; eauto|auto]| | |].
    + eapply CI_keep; eauto.
    + intros p Hp. apply in_app_iff in Hp. destruct Hp as [Hp|[<-|[]]]; auto. exists a, rest0. split; auto. congruence.
    + intros l ro [Hin|Hin] M; [|eauto]. injection Hin as <- <-. exists r. split; auto. split; [exact Hr1|]. rewrite Hc1.
      split; [apply (once_unit (t_bm t)); [exact M|intros z [<-|Hz]; [exact Hfl|now apply Hspec]]|]. split.
      * intros z [<-|[<-|Hz]]; [auto|right; exact Hfl|right; now apply Hspec].
      * intros _ _. exists fl. split; [simpl; auto|]. split; [congruence|].
        pose proof (proj2 HW1 r Hr1) as K. rewrite Hc1 in K. destruct K as [_ K]. destruct (K Hfl) as [[K1 _]|[K1 _]]; [congruence|exact K1].
Qed.

Lemma pop_same2 d t w s fl0 l ro :
  tv t l = Some true -> CI d t w ((l, ro) :: s) fl0 [] -> CI d t w s (neg l) (w (neg l)).
Proof.
  intros Hl [H1 H2].
  assert (HN : forall x, In (neg x) (map fst ((l, ro) :: s)) -> x = neg l \/ In (neg x) (map fst s)).
  { intros x [K|K]; auto. left. simpl in K. rewrite K. now rewrite neg_neg. }
  split; auto.
  intros r Hr. specialize (H2 r Hr). destruct (getc d r) as [|x [|y rest]] eqn:Hc; auto.
  - destruct H2 as [H2|[Hd H2]]; [left; auto|right; split; auto].
    destruct H2 as [[K1 [K2|K2]]|[[_ []]|[K1 K2]]].
    + inversion K2; subst. congruence.
    + left; auto.
    + apply HN in K2. destruct K2 as [K2|K2]; [|right; right; auto]. right; left. subst x.
      split; auto. eapply watched_in; eauto.
  - assert (HW : forall a b, (a = x \/ a = y) -> tv t a = Some false ->
        wok t ((l, ro) :: s) fl0 [] r rest a b -> wok t s (neg l) (w (neg l)) r rest a b).
    { intros a b Hab Ha [K|[L [K|[[_ []]|(K2 & [[K3 K4]|[_ []]])]]]].
      - left; auto.
      - right. split; auto. apply HN in K. destruct K as [K|K]; [|left; auto]. right; left. subst a. split; auto.
        destruct Hab as [E|E].
        + apply watched_in with (d := d); auto. left. rewrite E. eauto.
        + apply watched_in with (d := d); auto. right. rewrite E. eauto.
      - right. split; auto. right; right. split; auto. left; split; auto.
        destruct K4 as [K4|K4]; auto. inversion K4; subst. congruence. }
    destruct H2 as [H2 H2']. split; intros; apply HW; auto.
Qed.

Lemma pop_assign2 d t w s fl0 l r0 :
  tv t l = None -> CI d t w ((l, Some r0) :: s) fl0 [] -> CI d (assign_top t l r0) w s (neg l) (w (neg l)).
Proof.
  intros Hl [H1 H2]. set (t1 := assign_top t l r0).
  assert (Hdl : dl t1 = dl t) by apply dl_assign.
  assert (HS : forall x b, tv t x = Some b -> tv t1 x = Some b) by (intros; now apply tv_assign_some).
  assert (Hll : lev t1 l = Some (dl t1)).
  { unfold t1. rewrite lev_assign, Nat.eqb_refl, dl_assign. auto. }
  assert (Hl1 : tv t1 l = Some true) by apply tv_assign_eq.
  assert (Hn1 : tv t1 (neg l) = Some false) by apply tv_assign_neg.
  assert (HLn : lev t1 (neg l) = Some (dl t1)) by exact Hll.
  assert (HLv : forall x k, lord x <> lord l -> lev t x = Some k -> lev t1 x = Some k).
  { intros x k E K. unfold t1. rewrite lev_assign. destruct (Nat.eqb_spec (lord x) (lord l)); congruence. }
  assert (Hc3 : forall x, x = l \/ x = neg l \/ (lord x <> lord l /\ tv t1 x = tv t x)).
  { intros x. destruct (Nat.eq_dec (lord x) (lord l)) as [E|E].
    - apply same_var_lit in E. tauto.
    - right; right. split; auto. now apply tv_assign_neq. }
  assert (Hln : forall x, lord x = lord l -> tv t x = None).
  { intros x E. unfold tv, eval_lit in *. rewrite E. destruct (mdef (t_bm t) (lord l)); [discriminate|auto]. }
  assert (HAF : forall c, all_false t c -> all_false t1 c) by (intros c H x Hx; auto).
  split; auto.
  intros r Hr. specialize (H2 r Hr). destruct (getc d r) as [|x [|y rest]] eqn:Hc; auto.
  - destruct H2 as [[H2 H2']|[Hd H2]].
    + left; split; auto. apply HLv; auto. intros E. rewrite (Hln x E) in H2. discriminate.
    + destruct H2 as [[K1 K2]|[[_ []]|[K1 K2]]].
      * destruct (Hc3 x) as [E|[E|[E E']]].
        -- subst x. left. split; auto. rewrite Hll. congruence.
        -- right. split; [congruence|]. right; left. split; auto. subst x. eapply watched_in; eauto.
        -- right. split; [congruence|]. left. split; [congruence|].
           destruct K2 as [K2|K2]; auto. inversion K2; subst. congruence.
      * right. split; [congruence|]. right; right. split; auto.
        destruct K2 as [K2|K2]; auto. simpl in K2. exfalso.
        assert (tv t l = Some true) by (rewrite K2; now apply eval_lit_neg_true). congruence.
  - assert (HW : forall a b, ((a = x /\ b = y) \/ (a = y /\ b = x)) ->
        (tv t a = Some false -> wok t ((l, Some r0) :: s) fl0 [] r rest a b) ->
        tv t1 a = Some false -> wok t1 s (neg l) (w (neg l)) r rest a b).
    { intros a b Hab Hok Ha.
      assert (Hwa : In r (map fst (w a))).
      { destruct Hab as [[E _]|[E _]]; rewrite E; eapply watched_in; eauto. }
      assert (Hwb : In r (map fst (w b))).
      { destruct Hab as [[_ E]|[_ E]]; rewrite E; eapply watched_in; eauto. }
      destruct (Hc3 a) as [E|[E|[E E']]].
      - subst a. congruence.
      - right. split; [subst a; exact HLn|]. right; left. split; auto. now rewrite <- E.
      - rewrite E' in Ha. destruct (Hok Ha) as [(K & k & k' & A1 & A2 & A3)|[L K]].
        + left. split; auto. exists k, k'. split; [auto|]. split; auto. apply HLv; auto. intros E1. rewrite (Hln b E1) in K. discriminate.
        + destruct K as [K|[[_ []]|(K2 & [[K3 K4]|[_ []]])]].
          * right. split; [rewrite Hdl; auto|]. left. destruct K as [K|K]; auto. simpl in K. exfalso. apply E. now rewrite K.
          * destruct (Hc3 b) as [F|[F|[F F']]].
            -- left. subst b. split; auto. exists (dl t), (dl t). split; [auto|]. split; [rewrite Hll; congruence|lia].
            -- right. split; [rewrite Hdl; auto|]. right; right. split; auto. right. split; auto. now rewrite <- F.
            -- right. split; [rewrite Hdl; auto|]. right; right. split; auto. left. split; [congruence|].
               destruct K4 as [K4|K4]; auto. inversion K4; subst. congruence. }
    destruct H2 as [H2 H2']. split; apply HW; auto.
Qed.

(** ** what boolean propagation does to the trail: it adds boolean variables on the current level *)
Record bx (t t' : trail) : Prop := mkBx {
  bx_qm : t_qm t' = t_qm t;
  bx_num : mnum (t_bm t') = mnum (t_bm t);
  bx_dl : dl t' = dl t;
  bx_tl : tl (t_levels t') = tl (t_levels t);
  bx_new : exists new, recent t' = new ++ recent t /\
    (forall e, In e new -> exists i, fst e = VBool i /\ t_lvl t (VBool i) = None) /\
    (forall v, t_lvl t v = None -> t_lvl t' v <> None -> In v (map fst new));
  bx_lvl : forall v k, t_lvl t v = Some k -> t_lvl t' v = Some k;
  bx_top : forall v k, t_lvl t v = None -> t_lvl t' v = Some k -> k = dl t;
  bx_val : forall x b, tv t x = Some b -> tv t' x = Some b }.
Lemma bx_refl t : bx t t.
Proof.
  split; auto; [exists []; split; [auto|split; [easy|congruence]]|congruence].
Qed.
Lemma bx_trans a b c : bx a b -> bx b c -> bx a c.
Proof.
  intros [A1 A2 A3 A4 A5 A6 A7 A8] [B1 B2 B3 B4 B5 B6 B7 B8]. split; try congruence; auto.
  - destruct A5 as (n1 & A5 & A5' & A5''). destruct B5 as (n2 & B5 & B5' & B5''). exists (n2 ++ n1). split; [rewrite B5, A5; now rewrite app_assoc|].
    split.
    + intros e He. apply in_app_iff in He. destruct He as [He|He]; [|auto]. destruct (B5' e He) as (i & E & L). exists i. split; auto.
      destruct (t_lvl a (VBool i)) as [k|] eqn:EA; auto. apply A6 in EA. congruence.
    + intros v V1 V2. rewrite map_app, in_app_iff. destruct (t_lvl b v) as [k|] eqn:EB.
      * right. apply A5''; congruence.
      * left. auto.
  - intros v k V1 V2. destruct (t_lvl b v) as [j|] eqn:EB.
    + pose proof (B6 _ _ EB). rewrite V2 in H. injection H as <-. eauto.
    + rewrite <- A3. eauto.
Qed.
Lemma bx_assign t l r : t_levels t <> [] -> tv t l = None -> t_lvl t (lvar l) = None -> bx t (assign_top t l r).
Proof.
  intros N U L. split; cbn; auto.
  - apply dl_assign.
  - destruct (t_levels t); auto.
  - exists [(lvar l, Some r)]. split; [|split].
    + unfold recent, assign_top. cbn. destruct (t_levels t); [congruence|reflexivity].
    + intros e [<-|[]]. exists (lord l). auto.
    + intros v V1 V2. destruct (var_eqb v (lvar l)) eqn:E.
      * left. destruct v as [i|i], l as [j n]; cbn in *; try discriminate. apply Nat.eqb_eq in E. now subst.
      * exfalso. unfold vupd in V2. rewrite E in V2. auto.
  - intros v k V. unfold vupd. destruct (var_eqb v (lvar l)) eqn:E; auto.
    destruct v as [i|i], l as [j n]; cbn in *; try discriminate. apply Nat.eqb_eq in E. unfold lvar in L. cbn in L. congruence.
  - intros v k V. unfold vupd. destruct (var_eqb v (lvar l)) eqn:E; congruence.
  - intros. now apply tv_assign_some.
Qed.

Lemma tpi_LT d t : tpi false d t -> LT t.
Proof.
  intros P x b H. unfold tv, eval_lit in H. destruct (mdef (t_bm t) (lord x)) eqn:E; [|discriminate].
  apply (tpi_def _ _ _ _ P) in E. unfold lev, lvar. destruct (t_lvl t (VBool (lord x))) as [j|] eqn:EL; [|congruence].
  exists j. split; auto. eapply tpi_lev_le; eauto.
Qed.
Lemma tpi_ne strict d t : tpi strict d t -> t_levels t <> [].
Proof. intros ((a & N & _) & _). exact N. Qed.
Lemma tpi_none strict d t i : tpi strict d t -> mdef (t_bm t) i = false -> t_lvl t (VBool i) = None.
Proof.
  intros P M. destruct (t_lvl t (VBool i)) eqn:E; auto. exfalso.
  assert (X : t_lvl t (VBool i) <> None) by congruence. apply (tpi_def _ _ _ _ P) in X. congruence.
Qed.
Lemma stk2_keep d t t' s : bx t t' -> (forall l ro, In (l, ro) s -> mdef (t_bm t') (lord l) = false -> mdef (t_bm t) (lord l) = false) ->
  (forall x k, lev t x = Some k -> lev t' x = Some k) ->
  stk2 d t s -> stk2 d t' s.
Proof.
  intros B M L H l ro Hin E. destruct (H l ro Hin (M _ _ Hin E)) as (r & -> & U1 & U2 & U3 & U4). exists r. split; auto.
  split; auto. split; auto. split.
  - intros x Hx. destruct (U3 x Hx); auto. right. now apply (bx_val _ _ B).
  - rewrite (bx_dl _ _ B). intros S1 D. destruct (U4 S1 D) as (x & A1 & A2 & A3). exists x. auto.
Qed.

Lemma bcp2 ent : forall fuel t d w s fl0 t' d' w' co, tpi false d t -> stk2 d t s -> CI d t w s fl0 [] ->
  bcp_loop fuel t d w s = Ok (t', d', w', co) ->
  dbperm d d' /\ tpi false d' t' /\ prop_ops true d' ent t t' /\ bx t t' /\
  match co with
  | None => WC d' w' /\ PB (S (dl t')) d' t' /\ units_done d' t'
  | Some c => WC d' w' /\ PB (dl t') d' t' /\ In c (clauses_of d') /\ all_false t' c
  end.
Proof.
  induction fuel as [|fuel IH]; intros t d w s fl0 t' d' w' co P ST HC H.
  - destruct s as [|[l ro] s']; cbn in H; [|discriminate]. injection H as <- <- <- <-.
    split; [apply dbperm_refl|]. split; auto. split; [constructor|]. split; [apply bx_refl|]. split; [apply HC|]. split; [eapply CI_done; eauto|eapply CI_units; eauto].
  - destruct s as [|[l ro] s']; cbn [bcp_loop] in H.
    { injection H as <- <- <- <-.
      split; [apply dbperm_refl|]. split; auto. split; [constructor|]. split; [apply bx_refl|]. split; [apply HC|]. split; [eapply CI_done; eauto|eapply CI_units; eauto]. }
    match type of H with bind ?m _ = _ => destruct m as [t1| |] eqn:E1; cbn [bind] in H; try discriminate end.
    unfold assertb at 1 in H. destruct (is_true (eval_lit (t_bm t1) l)) eqn:E2; [|discriminate]. cbn [bind] in H.
    match type of H with bind (assertb ?b) _ = _ => destruct b eqn:E3; [|discriminate] end. cbn [assertb bind] in H.
    apply is_true_iff in E2.
    assert (ST' : stk2 d t s') by (intros m r Hin; apply ST; simpl; auto).
    assert (X : tpi false d t1 /\ stk2 d t1 s' /\ prop_ops true d ent t t1 /\ bx t t1 /\ CI d t1 w s' (neg l) (w (neg l))).
    { destruct (mdef (t_bm t) (lord l)) eqn:M.
      - assert (t1 = t) by (destruct ro; congruence). subst t1. split; auto. split; auto. split; [constructor|]. split; [apply bx_refl|].
        eapply pop_same2; eauto.
      - destruct (ST l ro (or_introl eq_refl) M) as (r & -> & U).
        assert (S1 : t_step t (TPropagate (lvar l) (Some r) (dl t) (negb (lneg l), 0%Q)) = Ok t1) by exact E1.
        assert (HA : t1 = assign_top t l r).
        { unfold trail_propagate in E1. change (dl (with_bm t (set_value (t_bm t) (lord l) (negb (lneg l))))) with (dl t) in E1.
          rewrite Nat.leb_refl in E1. injection E1 as <-. unfold assign_top. rewrite Nat.sub_diag. reflexivity. }
        assert (U0 : lit_level t l = None) by (exact (tpi_none _ _ _ _ P M)).
        assert (R0 : lord l < mnum (t_bm t)).
        { destruct P as (_ & V & _). destruct U as (U1 & U2 & _). eapply V; [apply getc_in; exact U1|now apply once_in]. }
        assert (Hn : tv t l = None) by (unfold tv, eval_lit; now rewrite M).
        assert (BX : bx t t1) by (rewrite HA; apply bx_assign; auto; eapply tpi_ne; eauto).
        split; [|split; [|split; [|split]]].
        + eapply (tpi_prop false); [exact P| |exact U0|auto|exact S1]. cbn. now apply Nat.ltb_lt.
        + eapply stk2_keep; [exact BX| |intros; now apply (bx_lvl _ _ BX)|exact ST'].
          intros m ro' _ D. rewrite HA in D. cbn in D. unfold upd in D. destruct (lord m =? lord l); [discriminate|auto].
        + eapply po_bool; [exact R0|exact U0| |exact S1|constructor]. destruct U as (U1 & U2 & U3 & U4). split; auto. split; auto. split; auto.
          intros x Hx. destruct (U3 x Hx) as [|F]; auto. right. split; auto. eapply tpi_false; eauto.
        + exact BX.
        + rewrite HA. eapply pop_assign2; eauto. }
    destruct X as (P1 & ST1 & O1 & BX1 & CI1).
    unfold falsified in H. unfold assertb at 1 in H. destruct (is_false (eval_lit (t_bm t1) (neg l))) eqn:E4; [|discriminate]. cbn [bind] in H.
    apply is_false_iff in E4.
    match type of H with bind ?m _ = _ => destruct m as [[[[d2 w2] s2] co2]| |] eqn:E5; cbn [bind] in H; try discriminate end.
    eapply falsified2 in E5; [|eapply tpi_LT; eauto|exact E4| | |exact ST1].
    2:{ destruct CI1 as [C1 C2]. split; [|exact C2]. cbn [app]. eapply WC_ext; [|exact C1]. intros x.
        destruct (lit_eq_dec x (neg l)) as [->|E]; [now rewrite wm_set_eq|now rewrite wm_set_neq]. }
    2:{ intros p []. }
    destruct E5 as (A & B & C).
    destruct co2 as [c2|].
    + injection H as <- <- <- <-. split; auto. split; [eapply tpi_perm; eauto|]. split; [eapply prop_ops_perm; eauto|]. split; auto.
    + eapply IH in H; [|eapply tpi_perm; eauto|exact B|exact C]. destruct H as (A' & B' & C' & D' & E').
      split; [eapply dbperm_trans; eauto|]. split; auto. split; [|split; [eapply bx_trans; eauto|auto]].
      eapply prop_ops_trans; [eapply prop_ops_perm; [|exact O1]; eapply dbperm_trans; eauto|exact C'].
Qed.

(** ** the state in which Bool_theory::propagate is called *)
Definition bskip (b : bstate) (t : trail) : nat :=
  match b_level b with Some k => if dl t =? k then b_next b else 0 | None => 0 end.
Definition pnd (b : bstate) (t : trail) (x : lit) : Prop := In (VBool (lord x)) (map fst (skipn (bskip b t) (rev (recent t)))).
Definition cen (b : bstate) (t : trail) (c : clause) : Prop :=
  match c with
  | [] => False
  | [u] => tv t u = Some false -> lev t u = Some 0 -> dl t = 0 /\ pnd b t u
  | x :: y :: _ =>
      (tv t x = Some false -> grd t x y \/ (lev t x = Some (dl t) /\ pnd b t x)) /\
      (tv t y = Some false -> grd t y x \/ (lev t y = Some (dl t) /\ pnd b t y))
  end.
Definition Ent (b : bstate) (d : db) (t : trail) : Prop :=
  tpi false d t /\ (trail_empty t = false -> WC d (b_watched b) /\ forall r, valid d r -> cen b t (getc d r)).

Lemma pnd_stack b t x s : tv t x = Some false -> pnd b t x ->
  In (neg x) (map fst (push_assigned (t_bm t) (skipn (bskip b t) (rev (recent t))) s)).
Proof.
  intros F H. unfold pnd in H. apply in_map_iff in H. destruct H as ([v r] & E & H). cbn in E. subst v.
  apply in_map_iff. exists (true_lit (t_bm t) (lord x), r). split.
  - cbn. unfold tv, eval_lit in F. destruct (mdef (t_bm t) (lord x)); [|discriminate]. injection F as F.
    unfold true_lit, neg. destruct x as [i n]. cbn in *. f_equal. destruct (mval (t_bm t) i), n; cbn in *; congruence.
  - apply push_assigned_in. right. eauto.
Qed.
Lemma init_nonempty d : forall rs acc acc', init_clauses d rs acc = Ok acc' -> forall r, In r rs -> getc d r <> [].
Proof.
  induction rs as [|r rs IH]; intros acc acc' H r0 Hr; [easy|]. cbn in H.
  destruct (init_clause d acc r) as [a| |] eqn:E; cbn in H; try discriminate. destruct Hr as [<-|Hr]; [|eauto].
  unfold init_clause in E. destruct acc. intros E'. rewrite E' in E. discriminate.
Qed.
Lemma empty_undef strict d t x : tpi strict d t -> trail_empty t = true -> tv t x = None /\ dl t = 0 /\ recent t = [].
Proof.
  intros P E.
  assert (EL : t_levels t = [[]]) by (unfold trail_empty in E; destruct (t_levels t) as [|[|] [|]]; congruence).
  assert (D : dl t = 0) by (unfold dl; now rewrite EL). split; [|split; [auto|unfold recent; now rewrite EL]].
  unfold tv, eval_lit. destruct (mdef (t_bm t) (lord x)) eqn:M; auto. exfalso.
  pose proof P as ((a & N & A) & _).
  pose proof (sh_def _ _ A (VBool (lord x))) as SD. cbn in SD. rewrite M in SD. destruct (at_rec a (VBool (lord x))) as [g|] eqn:EG; [|discriminate].
  assert (In (VBool (lord x), a_reason g) (lists t 0)).
  { apply (sh_list _ _ A); [lia|]. exists g. split; auto. split; auto. destruct (sh_ok _ _ A _ _ EG). rewrite <- (sh_dl _ _ A) in *. lia. }
  unfold lists, assigned_at in H. rewrite D, EL in H. cbn in H. exact H.
Qed.

Lemma bool_propagate2 ent fuel b d t b' d' t' cs : Ent b d t -> (trail_empty t = false -> units_done d t) ->
  bool_propagate fuel b d t = Ok (b', d', t', cs) ->
  dbperm d d' /\ tpi false d' t' /\ prop_ops true d' ent t t' /\ bx t t' /\ WC d' (b_watched b') /\
  b_level b' = Some (dl t') /\ b_next b' = length (recent t) /\ PB (dl t') d' t' /\
  (cs = [] -> PB (S (dl t')) d' t' /\ units_done d' t') /\
  (forall c, In c cs -> In c (clauses_of d') /\ all_false t' c).
Proof.
  intros [P HE] HU H. unfold bool_propagate in H. destruct (bool_initialize b d t) as [[b1 s]| |] eqn:EI; cbn [bind] in H; try discriminate.
  destruct (bcp_loop fuel t d (b_watched b1) s) as [[[[t2 d2] w2] co]| |] eqn:EB; cbn [bind] in H; try discriminate.
  injection H as <- <- <- <-.
  assert (X : stk2 d t s /\ CI d t (b_watched b1) s (mkLit 0 false) [] /\ b_level b1 = Some (dl t) /\ b_next b1 = length (recent t)).
  { unfold bool_initialize in EI.
    match type of EI with bind ?m _ = _ => destruct m as [[w s0]| |] eqn:E1; cbn [bind] in EI; try discriminate end.
    cbn [theory_assigned] in EI. injection EI as <- <-. cbn [b_level b_next b_watched].
    destruct (trail_empty t) eqn:TE.
    - assert (Und : forall x, tv t x = None) by (intros x; eapply empty_undef; eauto).
      destruct (empty_undef false d t (mkLit 0 false) P TE) as (_ & D & R).
      destruct (init_clauses_ok d (all_refs d) (fun _ => []) []) as (w' & s' & I0 & I1 & I2 & I3 & I4 & I5 & I6).
      { intros r Hr. split; [now apply all_refs_valid|]. eapply init_nonempty; eauto. }
      { apply all_refs_nodup. }
      unfold watch_map, sat_stack in *. rewrite I0 in E1. injection E1 as -> ->. rewrite R. cbn [rev]. rewrite skipn_nil. cbn [push_assigned length].
      split; [|split; [split|auto]].
      + intros l ro Hin M. apply I4 in Hin. destruct Hin as [[]|(u & r & E & Hr & Hc)]. injection E as -> ->. exists r. split; auto.
        split; [now apply all_refs_valid|]. rewrite Hc. split; [now apply once_head|]. split; [intros x [<-|[]]; auto|lia].
      + split.
        * intros r l Hr. rewrite I1 by (now apply Sat_Prop.all_refs_valid). reflexivity.
        * intros l p Hp. apply I3 in Hp. destruct Hp as [[]|Hp]; auto.
      + intros r Hr. destruct (getc d r) as [|x [|y rest]] eqn:Hc.
        * eapply (init_nonempty d (all_refs d)); [exact I0| |exact Hc]. now apply Sat_Prop.all_refs_valid.
        * simpl. right. split; auto. left. split; auto. apply I6; auto. now apply Sat_Prop.all_refs_valid.
        * simpl. rewrite !Und. split; discriminate.
    - injection E1 as <- <-. destruct (HE eq_refl) as [W1 W2].
      change (match b_level b with Some k => if dl t =? k then b_next b else 0 | None => 0 end) with (bskip b t).
      split; [|split; [split; [exact W1|]|auto]].
      + intros l ro Hin M. exfalso. apply push_assigned_in in Hin. destruct Hin as [[]|(v & r & Hin & E)]. injection E as -> ->. cbn in M.
        apply skipn_sub, in_rev in Hin. rewrite recent_lists in Hin by (eapply tpi_ne; eauto).
        pose proof P as ((a & N & A) & _). apply (sh_list _ _ A) in Hin; auto. destruct Hin as (g & E & _).
        pose proof (sh_def _ _ A (VBool v)) as K. rewrite E in K. cbn in K. congruence.
      + intros r Hr. specialize (W2 r Hr). pose proof (getc_in d r Hr) as Hin. destruct (getc d r) as [|x [|y rest]]; auto.
        * pose proof (HU eq_refl x Hin) as L. cbn in W2. destruct (tv t x) as [[|]|] eqn:Tx; [left; auto| |].
          -- right. destruct (W2 eq_refl L) as [D N]. split; auto. right; right. split; auto. now apply pnd_stack.
          -- exfalso. unfold tv, eval_lit in Tx. destruct (mdef (t_bm t) (lord x)) eqn:M; [discriminate|].
             apply (tpi_none _ _ _ _ P) in M. unfold lev, lvar in L. congruence.
        * assert (K : forall a c, (tv t a = Some false -> grd t a c \/ (lev t a = Some (dl t) /\ pnd b t a)) ->
            tv t a = Some false -> wok t (push_assigned (t_bm t) (skipn (bskip b t) (rev (recent t))) []) (mkLit 0 false) [] r rest a c).
          { intros a c Hw F. destruct (Hw F) as [G|[L N]]; [left; auto|right]. split; auto. left. now apply pnd_stack. }
          destruct W2. split; apply K; auto. }
  destruct X as (X1 & X2 & X3 & X4).
  eapply bcp2 in EB; eauto. destruct EB as (A & B & C & D & E). cbn [b_level b_next b_watched]. rewrite X3, X4, (bx_dl _ _ D) in *.
  split; auto. split; auto. split; [exact C|]. split; auto. rewrite <- (bx_dl _ _ D) in *.
  destruct co as [c0|].
  - destruct E as (E1 & E2 & E3 & E4). split; auto. split; auto. split; auto. split; auto. split; [discriminate|]. intros c [<-|[]]; auto.
  - destruct E as (E1 & E2 & E3). split; auto. split; auto. split; auto. split; [eapply PB_mono; [|exact E2]; lia|]. split; auto. easy.
Qed.
