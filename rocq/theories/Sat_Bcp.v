(** Boolean propagation preserves the invariants. *)
From Coq Require Import List Arith ZArith Bool Lia Permutation.
From Verif Require Import Base Core_Model Literal_Proofs Bool_Model Sat_Base Sat_Inv.
Import ListNotations.
Open Scope nat_scope.

(** ** watch lists as multisets *)
Lemma rotate_perm {A} (x : A) (rest : list A) :
  Permutation rest (match rest with [] => [] | _ => last rest x :: removelast rest end).
Proof.
  destruct rest as [|a rest]; auto.
  rewrite (app_removelast_last x (l := a :: rest)) at 1 by discriminate.
  apply Permutation_sym, Permutation_cons_append.
Qed.

Lemma count_watch_app r a b : count_watch r (a ++ b) = count_watch r a + count_watch r b.
Proof. unfold count_watch. rewrite map_app. apply count_occ_app. Qed.
Lemma count_watch_perm r a b : Permutation a b -> count_watch r a = count_watch r b.
Proof.
  intros H. unfold count_watch. apply Permutation_count_occ. now apply Permutation_map.
Qed.
Lemma count_watch_cons_eq r i a : count_watch r ((r, i) :: a) = S (count_watch r a).
Proof. unfold count_watch; simpl. destruct (cref_eq_dec r r); congruence. Qed.
Lemma count_watch_cons_neq r r' i a : r' <> r -> count_watch r ((r', i) :: a) = count_watch r a.
Proof. unfold count_watch; simpl. destruct (cref_eq_dec r' r); congruence. Qed.
Lemma count_watch_In r a : 0 < count_watch r a <-> In r (map fst a).
Proof. unfold count_watch. symmetry. apply (count_occ_In cref_eq_dec). Qed.

Lemma wm_set_eq w l x : wm_set w l x l = x.
Proof. unfold wm_set. now rewrite lit_eqb_refl. Qed.
Lemma wm_set_neq w l k x : k <> l -> wm_set w l x k = w k.
Proof. unfold wm_set. intros H. now rewrite (proj2 (lit_eqb_neq k l) H). Qed.

Lemma WC_ext d w w' : (forall l, w l = w' l) -> WC d w -> WC d w'.
Proof.
  intros E [H1 H2]; split.
  - intros r l Hr. rewrite <- E. auto.
  - intros l p Hp. rewrite <- E in Hp. eauto.
Qed.

Lemma expected_swap x y rest l : expected (x :: y :: rest) l = expected (y :: x :: rest) l.
Proof. simpl. lia. Qed.

Lemma b2n_refl l : b2n (lit_eqb l l) = 1.
Proof. now rewrite lit_eqb_refl. Qed.

(** replacing the contents of one clause *)
Lemma idx_ok_setc d r c p :
  valid d r -> length c = length (getc d r) -> watch_idx_ok d p -> watch_idx_ok (setc d r c) p.
Proof.
  intros Hr Hl [H1 H2]. split. now apply valid_setc.
  destruct (cref_eq_dec r (fst p)) as [E|E].
  - rewrite <- E, getc_setc_eq by auto. rewrite <- E, <- Hl in H2. auto.
  - rewrite getc_setc_neq by auto. auto.
Qed.

Lemma WC_setc d w r c :
  valid d r -> length c = length (getc d r) -> (forall l, expected c l = expected (getc d r) l) ->
  WC d w -> WC (setc d r c) w.
Proof.
  intros Hr Hl He [H1 H2]. split.
  - intros r' l Hr'. apply valid_setc in Hr'. rewrite H1 by auto.
    destruct (cref_eq_dec r r') as [<-|E].
    + rewrite getc_setc_eq by auto. auto.
    + now rewrite getc_setc_neq.
  - intros l p Hp. apply idx_ok_setc; eauto.
Qed.

(** ** monotonicity *)
Lemma wlit_ok_mono t s s' fl todo todo' r rest x y :
  (forall e, In e s -> In e s') -> (In r (map fst todo) -> In r (map fst todo')) ->
  wlit_ok t s fl todo r rest x y -> wlit_ok t s' fl todo' r rest x y.
Proof.
  intros Hs Ht [H|[[H1 H2]|[H|(H1 & H2 & H3)]]].
  - left. apply in_map_iff in H. destruct H as (e & E & H). apply in_map_iff; eauto.
  - right; left; auto.
  - right; right; left; auto.
  - right; right; right. repeat split; auto. destruct H3 as [[]|[]]; auto.
Qed.

Lemma clause_ok_mono t s s' fl todo todo' r c :
  (forall e, In e s -> In e s') -> (In r (map fst todo) -> In r (map fst todo')) ->
  clause_ok t s fl todo r c -> clause_ok t s' fl todo' r c.
Proof.
  intros Hs Ht. destruct c as [|x [|y rest]]; simpl; auto.
  - intros [H|(H1 & [[]|[[]|[]]])]; auto.
    + right; split; auto.
    + right; split; auto.
    + right; split; auto. right; right; split; auto.
      apply in_map_iff in H0. destruct H0 as (e & E & H0). apply in_map_iff; eauto.
  - intros [H1 H2]; split; intros; eapply wlit_ok_mono; eauto.
Qed.

Lemma clause_ok_swap t s fl todo r x y rest :
  clause_ok t s fl todo r (x :: y :: rest) -> clause_ok t s fl todo r (y :: x :: rest).
Proof. simpl; tauto. Qed.

Lemma unit_at_swap t x y rest l : unit_at t (x :: y :: rest) l -> unit_at t (y :: x :: rest) l.
Proof.
  intros (re & H1 & [H2|(z & re' & H2 & H3)]).
  - inversion H2; subst. exists (y :: rest). split; auto. right. exists y, rest; auto.
  - inversion H3; subst. exists (z :: re'). split; auto.
Qed.

Lemma all_false_perm t c c' : Permutation c c' -> all_false t c -> all_false t c'.
Proof.
  intros P H x Hx. apply H. eapply Permutation_in; [apply Permutation_sym; eauto|auto].
Qed.

Lemma In_setc_perm d r c x r' :
  valid d r -> Permutation (getc d r) c -> (In x (getc (setc d r c) r') <-> In x (getc d r')).
Proof.
  intros Hr HP. destruct (cref_eq_dec r r') as [<-|E].
  - rewrite getc_setc_eq by auto. split; intros; eapply Permutation_in; [apply Permutation_sym| |idtac|]; eauto.
  - rewrite getc_setc_neq by auto. tauto.
Qed.

Lemma stack_ok_swap d t fl todo r x y rest e :
  valid d r -> getc d r = x :: y :: rest ->
  stack_ok d t fl todo e -> stack_ok (setc d r (y :: x :: rest)) t fl todo e.
Proof.
  intros Hr Hc. destruct e as [l ro]. unfold stack_ok.
  assert (HP : Permutation (getc d r) (y :: x :: rest)) by (rewrite Hc; apply perm_swap).
  intros [(H1 & H2 & H3)|[(r' & H1 & H2 & H3 & H4 & H5)|(r' & H1 & H2 & H3 & H4 & H5)]].
  - left. repeat split; auto. destruct ro; auto. intros z Hz.
    apply (In_setc_perm d r _ z c Hr HP) in Hz. auto.
  - right; left. exists r'. repeat split; auto.
    + now apply valid_setc.
    + destruct (cref_eq_dec r r') as [<-|E].
      * rewrite getc_setc_eq by auto. apply unit_at_swap. now rewrite <- Hc.
      * rewrite getc_setc_neq by auto. auto.
    + intros K. destruct (H5 K) as (z & Hz & ?). exists z. split; auto.
      now apply (In_setc_perm d r _ z r' Hr HP).
  - right; right. exists r'. repeat split; auto.
    + now apply valid_setc.
    + intros z Hz. apply H5. now apply (In_setc_perm d r _ z r' Hr HP) in Hz.
Qed.

Lemma WI_swap d t w s fl todo r x y rest :
  valid d r -> getc d r = x :: y :: rest ->
  WI d t w s fl todo -> WI (setc d r (y :: x :: rest)) t w s fl todo.
Proof.
  intros Hr Hc [H1 H2 H3]. constructor.
  - apply WC_setc; auto; rewrite Hc; auto. intros l. apply expected_swap.
  - intros r' Hr'. apply valid_setc in Hr'. destruct (cref_eq_dec r r') as [<-|E].
    + rewrite getc_setc_eq by auto. apply clause_ok_swap. rewrite <- Hc. auto.
    + rewrite getc_setc_neq by auto. auto.
  - intros e He. eapply stack_ok_swap; eauto.
Qed.

(** after a conflict *)
Lemma WI_weak n d t w s fl todo :
  TI n d t -> tv t fl = Some false -> lev t fl = Some (dl t) ->
  WI d t w s fl todo -> WW d t w.
Proof.
  intros HT Hfl Hlfl [H1 H2 H3]. constructor; auto.
  assert (HS : forall x, tv t x = Some false -> In (neg x) (map fst s) -> lev t x = Some (dl t)).
  { intros x Hx Hin. apply in_map_iff in Hin. destruct Hin as ([l ro] & E & Hin). simpl in E. subst l.
    apply H3 in Hin. unfold stack_ok in Hin.
    assert (Hn : tv t (neg x) = Some true) by (apply eval_lit_neg_true; auto).
    destruct Hin as [(_ & K & _)|[(r & _ & _ & _ & [K|[_ K]] & _)|(r & _ & _ & K & _)]]; auto; try congruence. }
  intros r Hr. specialize (H2 r Hr). destruct (getc d r) as [|x [|y rest]]; simpl in *; auto.
  - tauto.
  - assert (HW : forall a b k, tv t a = Some false -> wlit_ok t s fl todo r rest a b ->
        lev t a = Some k -> k < dl t ->
        tv t b = Some true /\ exists k', lev t b = Some k' /\ k' <= k).
    { intros a b k Ha [H|[[-> H]|[[H (k1 & k2 & K1 & K2 & K3)]|(H & _)]]] Hk Hlt.
      - apply HS in H; auto. rewrite Hk in H. inversion H. lia.
      - rewrite Hlfl in Hk. inversion Hk. lia.
      - split; auto. rewrite Hk in K1. inversion K1; subst. eauto.
      - rewrite Hk in H. inversion H. lia. }
    destruct H2. split; intros; eapply HW; eauto.
Qed.

(** ** search for a replacement watch *)
Lemma watch_search_spec m c : forall fuel idx stop,
  2 <= idx < length c -> 2 <= stop < length c ->
  (if stop <? idx then length c - idx + (stop - 2) else if idx <? stop then stop - idx else length c - 2) <= fuel ->
  safe (watch_search fuel m c idx stop)
    (fun o => match o with
              | Some j => 2 <= j < length c /\ exists z, nth_error c j = Some z /\ eval_lit m z <> Some false
              | None => forall j z, (if stop <? idx then (idx <= j < length c \/ 2 <= j < stop)
                                     else if idx <? stop then idx <= j < stop else 2 <= j < length c) ->
                          nth_error c j = Some z -> eval_lit m z = Some false
              end) /\ (exists o, watch_search fuel m c idx stop = Ok o).
Proof.
  induction fuel; intros idx stop Hi Hs Hf.
  - exfalso. destruct (Nat.ltb_spec stop idx); try lia. destruct (Nat.ltb_spec idx stop); lia.
  - simpl. unfold at_.
    destruct (nth_error c idx) as [l|] eqn:E; [|apply nth_error_None in E; lia].
    simpl. destruct (is_false (eval_lit m l)) eqn:F; simpl.
    + apply is_false_iff in F.
      assert (Hone : forall j z, j = idx -> nth_error c j = Some z -> eval_lit m z = Some false)
        by (intros; subst; congruence).
      set (idx' := if length c <=? idx + 1 then 2 else idx + 1).
      assert (Hidx' : 2 <= idx' < length c)
        by (unfold idx'; destruct (Nat.leb_spec (length c) (idx + 1)); lia).
      destruct (Nat.eqb_spec idx' stop) as [Es|Es].
      * split; [|eauto]. simpl. intros j z Hj Hz.
        destruct (Nat.ltb_spec stop idx); [|destruct (Nat.ltb_spec idx stop)].
        -- apply (Hone j z); auto. unfold idx' in Es. destruct (Nat.leb_spec (length c) (idx + 1)); lia.
        -- apply (Hone j z); auto. unfold idx' in Es. destruct (Nat.leb_spec (length c) (idx + 1)); lia.
        -- apply (Hone j z); auto. unfold idx' in Es. destruct (Nat.leb_spec (length c) (idx + 1)); lia.
      * destruct (IHfuel idx' stop) as [IH1 IH2]; auto.
        { unfold idx' in *. destruct (Nat.leb_spec (length c) (idx + 1));
          destruct (Nat.ltb_spec stop idx); destruct (Nat.ltb_spec idx stop);
          repeat match goal with |- context [?a <? ?b] => destruct (Nat.ltb_spec a b) end; lia. }
        split; auto. eapply safe_weaken; [exact IH1|]. intros o. destruct o; auto.
        intros H j z Hj Hz.
        destruct (Nat.eq_dec j idx); [apply (Hone j z); auto|].
        apply (H j z); auto. clear IH1 IH2 H IHfuel.
        unfold idx' in *. destruct (Nat.leb_spec (length c) (idx + 1));
          destruct (Nat.ltb_spec stop idx); destruct (Nat.ltb_spec idx stop);
          repeat match goal with |- context [?a <? ?b] => destruct (Nat.ltb_spec a b) end; lia.
    + split; [|eauto]. simpl. split; auto. exists l; split; auto. intros K. rewrite K in F. discriminate.
Qed.

Lemma replace_spec t a fl rest idx :
  tv t fl = Some false -> (2 < length (a :: fl :: rest) -> 2 <= idx < length (a :: fl :: rest)) ->
  exists o, replace_second_watch (t_bm t) (a :: fl :: rest) idx = Ok o /\
    match o with
    | Some j => exists i z, j = S (S i) /\ nth_error rest i = Some z /\ tv t z <> Some false
    | None => all_false t rest
    end.
Proof.
  intros Hfl Hidx. unfold replace_second_watch.
  assert (E2 : (2 <=? length (a :: fl :: rest)) = true) by (simpl; auto).
  rewrite E2. cbn [assertb bind]. unfold at_. cbn [nth_error value_of bind].
  unfold tv in Hfl. rewrite Hfl. cbn [is_false assertb bind].
  destruct (Nat.ltb_spec 2 (length (a :: fl :: rest))) as [L|L].
  - specialize (Hidx L).
    assert (E3 : (2 <=? idx) && (idx <? length (a :: fl :: rest)) = true).
    { apply andb_true_iff; split; [apply Nat.leb_le|apply Nat.ltb_lt]; lia. }
    rewrite E3. cbn [assertb bind].
    destruct (watch_search_spec (t_bm t) (a :: fl :: rest) (length (a :: fl :: rest)) idx idx) as [S1 (o & S2)]; auto.
    { rewrite Nat.ltb_irrefl. lia. }
    exists o; split; auto. rewrite S2 in S1. simpl in S1. destruct o as [j|].
    + destruct S1 as (Hj & z & Hz & Hf). destruct j as [|[|i]]; try lia. exists i, z. auto.
    + intros x Hx. apply In_nth_error in Hx. destruct Hx as (i & Hi).
      apply (S1 (S (S i)) x); auto. rewrite Nat.ltb_irrefl.
      assert (i < length rest) by (apply nth_error_Some; congruence). lia.
  - exists None. split; auto. destruct rest; simpl in L; try lia. intros x [].
Qed.

Lemma expected_pos c l : 0 < expected c l ->
  c = [l] \/ exists x y rest, c = x :: y :: rest /\ (x = l \/ y = l).
Proof.
  destruct c as [|a [|b rest]]; simpl; intros H; try lia.
  - destruct (lit_eqb a l) eqn:E; simpl in H; try lia. apply lit_eqb_eq in E. subst; auto.
  - right. exists a, b, rest; split; auto.
    destruct (lit_eqb a l) eqn:E; [left; now apply lit_eqb_eq|].
    destruct (lit_eqb b l) eqn:E'; [right; now apply lit_eqb_eq|]. simpl in H; lia.
Qed.

Lemma swap01 {A} (x y : A) rest : swap 0 1 (x :: y :: rest) = y :: x :: rest.
Proof. reflexivity. Qed.

Lemma swap1j {A} (a b z : A) rest i :
  nth_error rest i = Some z -> swap 1 (S (S i)) (a :: b :: rest) = a :: z :: set_nth i b rest.
Proof. intros H. unfold swap. simpl. rewrite H. reflexivity. Qed.

Lemma eval_clause_all_false t c : all_false t c -> is_false (eval_clause (t_bm t) c) = true.
Proof. intros H. apply is_false_iff. now apply eval_clause_false. Qed.

Definition done_ok (d : db) (t : trail) (fl : lit) (done : list watch) : Prop :=
  forall p, In p done -> exists a rest, getc d (fst p) = a :: fl :: rest /\ tv t a <> Some false.

Lemma done_ok_setc d t fl done r c :
  ~ In r (map fst done) -> done_ok d t fl done -> done_ok (setc d r c) t fl done.
Proof.
  intros Hn H p Hp. rewrite getc_setc_neq; auto.
  intros ->. apply Hn. now apply in_map.
Qed.

Lemma level_check_ok n d t fl a rest :
  TI n d t -> lev t fl = Some (dl t) -> all_false t rest -> level_check t (a :: fl :: rest) = true.
Proof.
  intros HT Hl Hr. unfold level_check. simpl. unfold lit_level. unfold lev in Hl. rewrite Hl.
  apply forallb_forall. intros x Hx. apply Hr in Hx.
  destruct (tv_some_lev _ _ _ HT _ _ Hx) as (k & Hk). unfold lev in Hk. rewrite Hk.
  apply Nat.leb_le. eapply lev_le_dl; eauto.
Qed.

(** the current watch stays in the list *)
Lemma WI_keep n d t w s s' fl done r idx rest a rest0 :
  TI n d t -> tv t fl = Some false -> lev t fl = Some (dl t) ->
  valid d r -> getc d r = a :: fl :: rest0 ->
  (s' = s /\ tv t a = Some true \/ s' = (a, Some r) :: s /\ tv t a = None /\ all_false t rest0) ->
  WI d t (wm_set w fl (done ++ (r, idx) :: rest)) s fl ((r, idx) :: rest) ->
  WI d t (wm_set w fl ((done ++ [(r, idx)]) ++ rest)) s' fl rest.
Proof.
  intros HT Hfl Hlfl Hr Hc Hs [H1 H2 H3].
  assert (Hsub : forall e, In e s -> In e s') by (destruct Hs as [[-> _]|[-> _]]; simpl; auto).
  constructor.
  - rewrite <- app_assoc. exact H1.
  - intros r' Hr'. destruct (cref_eq_dec r r') as [<-|E].
    + rewrite Hc. simpl. destruct Hs as [[-> Ha]|(-> & Ha & Hall)].
      * split; intros; [congruence|]. right; right; left. split; auto.
        destruct (tv_some_lev _ _ _ HT _ _ Ha) as (k' & Hk'). exists (dl t), k'. repeat split; auto.
        eapply lev_le_dl; eauto.
      * split; intros; [congruence|]. right; right; right. repeat split; auto. left; simpl; auto.
    + eapply clause_ok_mono; [exact Hsub| |apply H2; auto].
      simpl. intros [?|?]; auto; congruence.
  - assert (Hold : forall e, In e s -> stack_ok d t fl rest e).
    { intros [l ro] He. specialize (H3 _ He). unfold stack_ok in *.
      destruct H3 as [?|[?|(r' & K1 & K2 & K3 & K4 & K5)]]; auto.
      right; right. exists r'. repeat split; auto. simpl in K4. destruct K4 as [<-|?]; auto.
      exfalso. rewrite Hc in K5. specialize (K5 a (or_introl eq_refl)).
      destruct Hs as [[_ ?]|(_ & ? & _)]; congruence. }
    destruct Hs as [[-> Ha]|(-> & Ha & Hall)]; auto.
    intros e [<-|He]; auto. unfold stack_ok. right; left. exists r. repeat split; auto.
    + exists (fl :: rest0). split; auto. intros x [<-|Hx]; auto.
    + intros _. exists fl. rewrite Hc. simpl. repeat split; auto. congruence.
Qed.

(** the current watch moves to the literal [z] *)
Lemma WI_move n d t w s fl done r idx rest rest' a z i rest0 :
  TI n d t -> tv t fl = Some false -> lev t fl = Some (dl t) ->
  valid d r -> getc d r = a :: fl :: rest0 ->
  nth_error rest0 i = Some z -> tv t z <> Some false ->
  Permutation rest rest' -> done_ok d t fl done -> 
  WI d t (wm_set w fl (done ++ (r, idx) :: rest)) s fl ((r, idx) :: rest) ->
  WI (setc d r (a :: z :: set_nth i fl rest0)) t
     (wm_set (wm_push w z (r, S (S i))) fl (done ++ rest')) s fl rest'.
Proof.
  intros HT Hfl Hlfl Hr Hc Hz Hzv HP Hd [H1 H2 H3].
  assert (Hzfl : z <> fl) by congruence.
  assert (Hzin : In z rest0) by (eapply nth_error_In; eauto).
  assert (Hi : i < length rest0) by (apply nth_error_Some; congruence).
  assert (HPc : Permutation (getc d r) (a :: z :: set_nth i fl rest0)).
  { rewrite Hc. rewrite <- (swap1j a fl z rest0 i Hz). apply swap_perm. }
  assert (Hlen : length (a :: z :: set_nth i fl rest0) = length (getc d r)).
  { rewrite Hc; simpl. now rewrite set_nth_length. }
  assert (Hin : forall r', r' <> r -> In r' (map fst ((r, idx) :: rest)) -> In r' (map fst rest')).
  { intros r' E [K|K]; simpl in K; [congruence|].
    eapply Permutation_in; [apply Permutation_map; eauto|auto]. }
  constructor.
  - destruct H1 as [C1 C2]. split.
    + intros r' l Hr'. apply valid_setc in Hr'. specialize (C1 r' l Hr').
      destruct (lit_eq_dec l fl) as [->|El].
      * rewrite wm_set_eq in *. rewrite count_watch_app in *.
        rewrite <- (count_watch_perm _ _ _ HP).
        destruct (cref_eq_dec r r') as [<-|E].
        -- rewrite getc_setc_eq by auto. rewrite Hc in C1.
           rewrite count_watch_cons_eq in C1. cbn [expected] in *. rewrite b2n_refl in C1.
           rewrite (proj2 (lit_eqb_neq z fl)) by auto. simpl. lia.
        -- rewrite getc_setc_neq by auto. rewrite count_watch_cons_neq in C1 by auto. auto.
      * rewrite wm_set_neq in * by auto. unfold wm_push.
        destruct (lit_eq_dec l z) as [->|Ez].
        -- rewrite wm_set_eq, count_watch_app.
           destruct (cref_eq_dec r r') as [<-|E].
           ++ rewrite getc_setc_eq by auto. rewrite Hc in C1. rewrite count_watch_cons_eq.
              change (count_watch r []) with 0. cbn [expected] in *. rewrite b2n_refl. rewrite (proj2 (lit_eqb_neq fl z)) in C1 by auto.
              simpl in *. lia.
           ++ rewrite getc_setc_neq by auto. rewrite count_watch_cons_neq by auto.
              change (count_watch r' []) with 0. lia.
        -- rewrite wm_set_neq by auto. destruct (cref_eq_dec r r') as [<-|E].
           ++ rewrite getc_setc_eq by auto. rewrite Hc in C1. cbn [expected] in *.
              rewrite (proj2 (lit_eqb_neq fl l)) in C1 by auto.
              rewrite (proj2 (lit_eqb_neq z l)) by auto. auto.
           ++ rewrite getc_setc_neq by auto. auto.
    + intros l p Hp. destruct (lit_eq_dec l fl) as [->|El].
      * rewrite wm_set_eq in Hp. apply idx_ok_setc; auto. apply (C2 fl). rewrite wm_set_eq.
        apply in_app_iff in Hp. apply in_app_iff. destruct Hp; auto. right; right.
        eapply Permutation_in; [apply Permutation_sym; eauto|auto].
      * rewrite wm_set_neq in Hp by auto. unfold wm_push in Hp.
        assert (K : In p (w l) -> watch_idx_ok (setc d r (a :: z :: set_nth i fl rest0)) p).
        { intros Hp'. apply idx_ok_setc; auto. apply (C2 l). now rewrite wm_set_neq. }
        destruct (lit_eq_dec l z) as [->|Ez]; [|rewrite wm_set_neq in Hp; auto].
        rewrite wm_set_eq in Hp. apply in_app_iff in Hp. destruct Hp as [Hp|[<-|[]]]; auto.
        split; simpl. now apply valid_setc. rewrite getc_setc_eq by auto. simpl.
        rewrite set_nth_length. lia.
  - intros r' Hr'. apply valid_setc in Hr'. destruct (cref_eq_dec r r') as [<-|E].
    + rewrite getc_setc_eq by auto. specialize (H2 r Hr). rewrite Hc in H2. simpl in *.
      destruct H2 as [H2 _]. split; [|congruence]. intros Ha. specialize (H2 Ha).
      destruct H2 as [K|[[-> K]|[[K _]|(_ & K & _)]]].
      * left; auto.
      * right; left. split; auto.
        destruct H1 as [C1 _]. specialize (C1 r fl Hr). rewrite wm_set_eq, Hc in C1.
        cbn [expected] in C1. rewrite b2n_refl in C1.
        rewrite count_watch_app, count_watch_cons_eq in C1.
        assert (Z : count_watch r done = 0).
        { destruct (count_watch r done) eqn:Z; auto. exfalso.
          assert (I : In r (map fst done)) by (apply count_watch_In; lia).
          apply in_map_iff in I. destruct I as (p & E & I). apply Hd in I.
          destruct I as (a' & r0 & I1 & I2). rewrite E, Hc in I1. inversion I1; subst. congruence. }
        rewrite <- (Permutation_map fst HP). apply count_watch_In. lia.
      * congruence.
      * rewrite (K z Hzin) in Hzv. congruence.
    + rewrite getc_setc_neq by auto. eapply clause_ok_mono; [| |apply H2; auto]; auto.
  - intros [l ro] He. specialize (H3 _ He). unfold stack_ok in *.
    destruct H3 as [(K1 & K2 & K3)|[(r' & K1 & K2 & K3 & K4 & K5)|(r' & K1 & K2 & K3 & K4 & K5)]].
    + left. repeat split; auto. destruct ro as [r'|]; auto. intros x Hx.
      apply (In_setc_perm d r _ x r' Hr HPc) in Hx. auto.
    + right; left. exists r'. destruct (cref_eq_dec r r') as [<-|E].
      * exfalso. rewrite Hc in K3. destruct K3 as (re & F1 & [F2|(y & re' & F2 & F3)]).
        -- inversion F2; subst. apply Hzv. apply F1. now right.
        -- inversion F3; subst. apply Hzv. apply F1. now right.
      * rewrite getc_setc_neq by auto. repeat split; auto. now apply valid_setc.
    + right; right. exists r'. destruct (cref_eq_dec r r') as [<-|E].
      * exfalso. apply Hzv. apply K5. rewrite Hc. simpl; auto.
      * rewrite getc_setc_neq by auto. repeat split; auto. now apply valid_setc.
Qed.

Lemma falsified_loop_ok n0 t fl :
  tv t fl = Some false -> lev t fl = Some (dl t) ->
  forall n d w done todo s,
  TI n0 d t -> length todo <= n ->
  WI d t (wm_set w fl (done ++ todo)) s fl todo -> done_ok d t fl done ->
  exists d' w' s' o, falsified_loop n t fl d w done todo s = Ok (d', w', s', o) /\
    dbperm d d' /\
    (exists new, s' = new ++ s /\ forall e, In e new -> tv t (fst e) = None) /\
    match o with
    | None => WI d' t w' s' fl []
    | Some c => WW d' t w' /\ exists r, valid d' r /\ c = getc d' r /\ all_false t c /\ In fl c
    end.
Proof.
  intros Hfl Hlfl. induction n; intros d w done todo s HT Hn HW Hd.
  - destruct todo; simpl in Hn; try lia. simpl. rewrite app_nil_r in HW.
    exists d, (wm_set w fl done), s, None. split; auto. split; [apply dbperm_refl|].
    split; auto. exists []; split; auto. intros e [].
  - destruct todo as [|[r idx] rest].
    { simpl. rewrite app_nil_r in HW.
      exists d, (wm_set w fl done), s, None. split; auto. split; [apply dbperm_refl|].
      split; auto. exists []; split; auto. intros e []. }
    simpl in Hn.
    assert (Hidx : watch_idx_ok d (r, idx)).
    { apply (proj2 (wi_count _ _ _ _ _ _ HW) fl). rewrite wm_set_eq. apply in_app_iff. simpl; auto. }
    destruct Hidx as [Hr Hidx]. simpl in Hr, Hidx.
    assert (Hpos : 0 < expected (getc d r) fl).
    { rewrite <- (proj1 (wi_count _ _ _ _ _ _ HW)) by auto. rewrite wm_set_eq.
      rewrite count_watch_app, count_watch_cons_eq. lia. }
    cbn [falsified_loop].
    destruct (expected_pos _ _ Hpos) as [Hc|(x & y & rest0 & Hc & Hxy)].
    { (* unit clause: conflict *)
      rewrite Hc. cbn [length Nat.leb Nat.eqb assertb bind].
      assert (Haf : all_false t [fl]) by (intros z [<-|[]]; auto).
      rewrite (eval_clause_all_false t [fl]) by auto. cbn [assertb bind].
      do 4 eexists. split; [reflexivity|]. split; [apply dbperm_refl|].
      split; [exists []; split; auto; intros e []|].
      split. eapply WI_weak; eauto. exists r. rewrite Hc. repeat split; auto. simpl; auto. }
    assert (Hmain : exists a, (if lit_eqb x fl then swap 0 1 (getc d r) else getc d r) = a :: fl :: rest0 /\
       Permutation (getc d r) (a :: fl :: rest0) /\
       WI (setc d r (a :: fl :: rest0)) t (wm_set w fl (done ++ (r, idx) :: rest)) s fl ((r, idx) :: rest) /\
       done_ok (setc d r (a :: fl :: rest0)) t fl done).
    { rewrite Hc. destruct (lit_eqb x fl) eqn:Ex.
      - apply lit_eqb_eq in Ex. subst x. rewrite swap01. exists y. split; auto. split; [apply perm_swap|].
        split. now apply WI_swap.
        intros p Hp. destruct (Hd p Hp) as (a & r0 & K1 & K2).
        destruct (cref_eq_dec r (fst p)) as [E|E].
        + rewrite <- E, Hc in K1. inversion K1; subst. congruence.
        + rewrite getc_setc_neq by auto. eauto.
      - apply lit_eqb_neq in Ex. destruct Hxy as [Hxy|Hxy]; [congruence|subst y]. exists x. split; auto. split; auto.
        split.
        + assert (E : forall r', getc (setc d r (x :: fl :: rest0)) r' = getc d r').
          { intros r'. destruct (cref_eq_dec r r') as [<-|E]; [rewrite getc_setc_eq by auto; auto|now rewrite getc_setc_neq]. }
          destruct HW as [H1 H2 H3]. constructor.
          * apply WC_setc; auto; rewrite Hc; auto.
          * intros r' Hr'. rewrite E. apply H2. now apply valid_setc in Hr'.
          * intros [l ro] He. specialize (H3 _ He). unfold stack_ok in *.
            destruct H3 as [(K1 & K2 & K3)|[(r' & K1 & K2 & K3)|(r' & K1 & K2 & K3)]].
            -- left. repeat split; auto. destruct ro; auto. rewrite E. auto.
            -- right; left. exists r'. rewrite E. repeat split; try tauto. now apply valid_setc.
            -- right; right. exists r'. rewrite E. repeat split; try tauto. now apply valid_setc.
        + intros p Hp. destruct (Hd p Hp) as (a & r0 & K1 & K2).
          destruct (cref_eq_dec r (fst p)) as [E|E].
          * rewrite <- E, getc_setc_eq by auto. rewrite <- E, Hc in K1. inversion K1; subst. eauto.
          * rewrite getc_setc_neq by auto. eauto. }
    clear Hxy. destruct Hmain as (a & Hswap & HPc & HW1 & Hd1).
    assert (L1 : (1 <=? length (getc d r)) = true) by (rewrite Hc; auto).
    assert (L2 : (length (getc d r) =? 1) = false) by (rewrite Hc; auto).
    rewrite L1, L2. cbn [assertb bind].
    assert (A0 : at_ (getc d r) 0 = Ok x) by (rewrite Hc; auto).
    rewrite A0. cbn [bind]. rewrite Hswap. unfold at_ at 1 2. cbn [nth_error value_of bind].
    rewrite lit_eqb_refl. cbn [assertb bind].
    set (d1 := setc d r (a :: fl :: rest0)) in *.
    assert (HPd : dbperm d d1) by (apply dbperm_setc; auto).
    assert (HT1 : TI n0 d1 t) by (eapply TI_perm; eauto).
    assert (Hr1 : valid d1 r) by (now apply valid_setc).
    assert (Hc1 : getc d1 r = a :: fl :: rest0) by (unfold d1; now rewrite getc_setc_eq).
    fold (tv t a). destruct (is_true (tv t a)) eqn:Et.
    { apply is_true_iff in Et.
      edestruct (IHn d1 w (done ++ [(r, idx)]) rest s) as (d' & w' & s' & o & R1 & R2 & R3 & R4); auto; try lia.
      - eapply WI_keep; eauto.
      - intros p Hp. apply in_app_iff in Hp. destruct Hp as [Hp|[<-|[]]]; auto.
        exists a, rest0. split; auto. congruence.
      - exists d', w', s', o. split; auto. split; auto. eapply dbperm_trans; eauto. }
    destruct (replace_spec t a fl rest0 idx Hfl) as (o & Ho & Hspec).
    { intros L. assert (E : length (getc d r) = length (a :: fl :: rest0)) by (apply Permutation_length; auto).
      rewrite <- E in *. auto. }
    rewrite Ho. cbn [bind]. destruct o as [j|].
    { destruct Hspec as (i & z & -> & Hz & Hzv).
      rewrite (swap1j a fl z rest0 i Hz). unfold at_. cbn [nth_error value_of bind].
      assert (Hne : z <> fl) by congruence. rewrite (proj2 (lit_eqb_neq z fl) Hne). cbn [negb assertb bind].
      edestruct (IHn (setc d1 r (a :: z :: set_nth i fl rest0)) (wm_push w z (r, S (S i))) done
        (match rest with [] => [] | _ => last rest (r, idx) :: removelast rest end) s)
        as (d' & w' & s' & o & R1 & R2 & R3 & R4).
      - eapply TI_perm; [|exact HT1]. apply dbperm_setc; auto.
        rewrite Hc1, <- (swap1j a fl z rest0 i Hz). apply swap_perm.
      - pose proof (Permutation_length (rotate_perm (r, idx) rest)) as EL. unfold watch in *. lia.
      - eapply (WI_move n0 d1 t w s fl done r idx rest); eauto. apply rotate_perm.
      - apply done_ok_setc; auto. intros I. apply in_map_iff in I. destruct I as (p & E & I).
        destruct (Hd1 _ I) as (a' & r0 & K1 & K2). rewrite E, Hc1 in K1. inversion K1; subst a' r0.
        (* r would be watched twice by fl, hence a = fl, but a is not false *)
        pose proof (proj1 (wi_count _ _ _ _ _ _ HW1) r fl Hr1) as C.
        rewrite wm_set_eq, Hc1, count_watch_app, count_watch_cons_eq in C. cbn [expected] in C.
        rewrite b2n_refl in C.
        assert (0 < count_watch r done) by (apply count_watch_In; rewrite <- E; now apply in_map).
        destruct (lit_eqb a fl) eqn:Ea; [apply lit_eqb_eq in Ea; congruence|simpl in C; lia].
      - exists d', w', s', o. split; auto. split; auto. eapply dbperm_trans; [|eauto].
        eapply dbperm_trans; eauto. apply dbperm_setc; auto.
        rewrite Hc1, <- (swap1j a fl z rest0 i Hz). apply swap_perm. }
    rewrite (level_check_ok n0 d1 t fl a rest0) by auto. cbn [assertb bind].
    destruct (is_false (tv t a)) eqn:Ef.
    { apply is_false_iff in Ef.
      assert (Haf : all_false t (a :: fl :: rest0)) by (intros z [<-|[<-|Hz]]; auto).
      rewrite (eval_clause_all_false t (a :: fl :: rest0)) by auto. cbn [assertb bind].
      do 4 eexists. split; [reflexivity|]. split; auto.
      split; [exists []; split; auto; intros e []|].
      split; [apply (WI_weak n0 d1 t _ s fl ((r, idx) :: rest)); auto|]. exists r. rewrite Hc1. repeat split; auto. simpl; auto. }
    assert (Hall : forallb (fun l => is_false (eval_lit (t_bm t) l)) (tl (a :: fl :: rest0)) = true).
    { apply forallb_forall. cbn [tl]. intros z Hz. apply is_false_iff.
      destruct Hz as [<-|Hz]; [exact Hfl|exact (Hspec z Hz)]. }
    rewrite Hall. cbn [assertb bind].
    assert (Ha : tv t a = None).
    { destruct (tv t a) as [[]|]; auto; discriminate. }
    edestruct (IHn d1 w (done ++ [(r, idx)]) rest ((a, Some r) :: s)) as (d' & w' & s' & o & R1 & R2 & R3 & R4); auto; try lia.
    + eapply WI_keep; eauto.
    + intros p Hp. apply in_app_iff in Hp. destruct Hp as [Hp|[<-|[]]]; auto.
      exists a, rest0. split; auto. congruence.
    + exists d', w', s', o. split; auto. split; [eapply dbperm_trans; eauto|]. split; auto.
      destruct R3 as (new & -> & Hnew). exists (new ++ [(a, Some r)]). split.
      * now rewrite <- app_assoc.
      * intros e He. apply in_app_iff in He. destruct He as [He|[<-|[]]]; auto.
Qed.
