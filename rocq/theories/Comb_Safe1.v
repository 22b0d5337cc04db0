(** Boolean propagation fails no assertion on the trails of the combined solver (with rational
    variables and literals assigned without a reason). *)
From Coq Require Import List Arith ZArith QArith Bool Lia Permutation.
From Verif Require Import Base Core_Model Literal_Proofs Bool_Model Solver_Model Sat_Base Sat_Inv Sat_Bcp Sat_Trail Sat_Bcp2 Sat_Prop
  Trail_Model Spec_Trail Trail_Proofs Spec_Theory Theory_Inv Theory_Bool Comb_Bcp Theory_Safe.
Import ListNotations.
Open Scope nat_scope.

Lemma bind_ub {A B} (m : res A) (f : A -> res B) : m <> UB -> (forall x, m = Ok x -> f x <> UB) -> bind m f <> UB.
Proof. intros H1 H2. destruct m; cbn; auto; discriminate. Qed.

(** an element of the stack of implied literals *)
Definition sok (d : db) (t : trail) (fl : lit) (todo : list watch) (e : lit * option cref) : Prop :=
  let (l, ro) := e in
  (tv t l = Some true /\ match ro with None => True | Some r => forall x, In x (getc d r) -> x = l \/ tv t x = Some false end) \/
  (exists r, ro = Some r /\ valid d r /\ unit_at t (getc d r) l /\ (tv t l = None \/ tv t l = Some true)) \/
  (exists r, ro = Some r /\ valid d r /\ l = fl /\ In r (map fst todo) /\ all_false t (getc d r)).
Lemma sok_swap d t fl todo r x y rest e :
  valid d r -> getc d r = x :: y :: rest -> sok d t fl todo e -> sok (setc d r (y :: x :: rest)) t fl todo e.
Proof.
  intros Hr Hc. destruct e as [l ro]. unfold sok.
  assert (HP : Permutation (getc d r) (y :: x :: rest)) by (rewrite Hc; apply perm_swap).
  intros [(H1 & H3)|[(r' & H1 & H2 & H3 & H4)|(r' & H1 & H2 & H3 & H4 & H5)]].
  - left. repeat split; auto. destruct ro; auto. intros z Hz.
    apply (In_setc_perm d r _ z c Hr HP) in Hz. auto.
  - right; left. exists r'. repeat split; auto.
    + now apply valid_setc.
    + destruct (cref_eq_dec r r') as [<-|E].
      * rewrite getc_setc_eq by auto. apply unit_at_swap. now rewrite <- Hc.
      * rewrite getc_setc_neq by auto. auto.
  - right; right. exists r'. repeat split; auto.
    + now apply valid_setc.
    + intros z Hz. apply H5. now apply (In_setc_perm d r _ z r' Hr HP) in Hz.
Qed.
Definition SK (d : db) (t : trail) (fl : lit) (todo : list watch) (s : sat_stack) : Prop :=
  forall e, In e s -> sok d t fl todo e.

Lemma SK_same d t fl todo s r c : valid d r -> getc d r = c -> SK d t fl todo s -> SK (setc d r c) t fl todo s.
Proof.
  intros Hr Hc H3.
  assert (E : forall r', getc (setc d r c) r' = getc d r').
  { intros r'. destruct (cref_eq_dec r r') as [<-|E]; [rewrite getc_setc_eq by auto; auto|now rewrite getc_setc_neq]. }
  intros [l ro] He. specialize (H3 _ He). unfold sok in *.
  destruct H3 as [(K1 & K3)|[(r' & K1 & K2 & K3)|(r' & K1 & K2 & K3)]].
  - left. repeat split; auto. destruct ro; auto. rewrite E. auto.
  - right; left. exists r'. rewrite E. repeat split; try tauto. now apply valid_setc.
  - right; right. exists r'. rewrite E. repeat split; try tauto. now apply valid_setc.
Qed.
Lemma SK_keep d t s s' fl r idx rest a rest0 :
  tv t fl = Some false -> valid d r -> getc d r = a :: fl :: rest0 ->
  (s' = s /\ tv t a = Some true \/ s' = (a, Some r) :: s /\ tv t a = None /\ all_false t rest0) ->
  SK d t fl ((r, idx) :: rest) s -> SK d t fl rest s'.
Proof.
  intros Hfl Hr Hc Hs H3.
  assert (Hold : forall e, In e s -> sok d t fl rest e).
  { intros [l ro] He. specialize (H3 _ He). unfold sok in *.
    destruct H3 as [?|[?|(r' & K1 & K2 & K3 & K4 & K5)]]; auto.
    right; right. exists r'. repeat split; auto. simpl in K4. destruct K4 as [<-|?]; auto.
    exfalso. rewrite Hc in K5. specialize (K5 a (or_introl eq_refl)).
    destruct Hs as [[_ ?]|(_ & ? & _)]; congruence. }
  destruct Hs as [[-> Ha]|(-> & Ha & Hall)]; auto.
  intros e [<-|He]; auto. unfold sok. right; left. exists r. repeat split; auto.
  exists (fl :: rest0). split; auto. intros x [<-|Hx]; auto.
Qed.
Lemma SK_move d t s fl r idx rest rest' a z i rest0 :
  valid d r -> getc d r = a :: fl :: rest0 -> nth_error rest0 i = Some z -> tv t z <> Some false -> Permutation rest rest' ->
  SK d t fl ((r, idx) :: rest) s -> SK (setc d r (a :: z :: set_nth i fl rest0)) t fl rest' s.
Proof.
  intros Hr Hc Hz Hzv HP H3.
  assert (Hzin : In z rest0) by (eapply nth_error_In; eauto).
  assert (HPc : Permutation (getc d r) (a :: z :: set_nth i fl rest0)).
  { rewrite Hc. rewrite <- (swap1j a fl z rest0 i Hz). apply swap_perm. }
  assert (Hin : forall r', r' <> r -> In r' (map fst ((r, idx) :: rest)) -> In r' (map fst rest')).
  { intros r' E [K|K]; simpl in K; [congruence|].
    eapply Permutation_in; [apply Permutation_map; eauto|auto]. }
  intros [l ro] He. specialize (H3 _ He). unfold sok in *.
  destruct H3 as [(K1 & K3)|[(r' & K1 & K2 & K3 & K4)|(r' & K1 & K2 & K3 & K4 & K5)]].
  + left. repeat split; auto. destruct ro as [r'|]; auto. intros x Hx.
    apply (In_setc_perm d r _ x r' Hr HPc) in Hx. auto.
  + right; left. exists r'. destruct (cref_eq_dec r r') as [<-|E].
    * exfalso. rewrite Hc in K3. destruct K3 as (re & F1 & [F2|(y & re' & F2 & F3)]).
      -- inversion F2; subst. apply Hzv. apply F1. now right.
      -- inversion F3; subst. apply Hzv. apply F1. now right.
    * rewrite getc_setc_neq by auto. repeat split; auto. now apply valid_setc.
  + right; right. exists r'. destruct (cref_eq_dec r r') as [<-|E].
    * exfalso. apply Hzv. apply K5. rewrite Hc. simpl; auto.
    * rewrite getc_setc_neq by auto. repeat split; auto. now apply valid_setc.
Qed.

Lemma level_check2 t fl a rest :
  LT t -> lev t fl = Some (dl t) -> all_false t rest -> level_check t (a :: fl :: rest) = true.
Proof.
  intros HT Hl Hr. unfold level_check. simpl. unfold lit_level. unfold lev in Hl. rewrite Hl.
  apply forallb_forall. intros x Hx. apply Hr in Hx.
  destruct (HT _ _ Hx) as (k & Hk & L). unfold lev in Hk. rewrite Hk. now apply Nat.leb_le.
Qed.

Lemma falsified_tot t fl : LT t -> tv t fl = Some false ->
  forall n d w done todo s,
  CI d t (wm_set w fl (done ++ todo)) s fl todo -> done_ok d t fl done -> SK d t fl todo s ->
  falsified_loop n t fl d w done todo s <> UB /\
  forall d' w' s', falsified_loop n t fl d w done todo s = Ok (d', w', s', None) -> SK d' t fl [] s'.
Proof.
  intros HT Hfl. induction n as [|n IH]; intros d w done todo s HW Hd ST.
  - destruct todo as [|[r idx] rest]; cbn; split; try discriminate. intros d' w' s' H. injection H as <- <- <-. auto.
  - destruct todo as [|[r idx] rest].
    { cbn. split; [discriminate|]. intros d' w' s' H. injection H as <- <- <-. auto. }
    assert (Hidx : watch_idx_ok d (r, idx)).
    { apply (proj2 (proj1 HW) fl). rewrite wm_set_eq. apply in_app_iff. simpl; auto. }
    destruct Hidx as [Hr Hidx]. simpl in Hr, Hidx.
    assert (Hpos : 0 < expected (getc d r) fl).
    { rewrite <- (proj1 (proj1 HW)) by auto. rewrite wm_set_eq. rewrite count_watch_app, count_watch_cons_eq. lia. }
    cbn [falsified_loop].
    destruct (expected_pos _ _ Hpos) as [Hc|(x & y & rest0 & Hc & Hxy)].
    { rewrite Hc. cbn [length Nat.leb Nat.eqb assertb bind].
      assert (Haf : all_false t [fl]) by (intros z [<-|[]]; auto).
      rewrite (eval_clause_all_false t [fl]) by auto. cbn [assertb bind]. split; [discriminate|]. intros. discriminate. }
    assert (Hmain : exists a, (if lit_eqb x fl then swap 0 1 (getc d r) else getc d r) = a :: fl :: rest0 /\
       Permutation (getc d r) (a :: fl :: rest0) /\
       CI (setc d r (a :: fl :: rest0)) t (wm_set w fl (done ++ (r, idx) :: rest)) s fl ((r, idx) :: rest) /\
       done_ok (setc d r (a :: fl :: rest0)) t fl done /\ SK (setc d r (a :: fl :: rest0)) t fl ((r, idx) :: rest) s).
    { rewrite Hc. destruct (lit_eqb x fl) eqn:Ex.
      - apply lit_eqb_eq in Ex. subst x. rewrite swap01. exists y. split; auto. split; [apply perm_swap|].
        split; [now apply CI_swap|]. split.
        + intros p Hp. destruct (Hd p Hp) as (a & r0 & K1 & K2).
          destruct (cref_eq_dec r (fst p)) as [E|E].
          * rewrite <- E, Hc in K1. inversion K1; subst. congruence.
          * rewrite getc_setc_neq by auto. eauto.
        + intros e He. eapply sok_swap; eauto.
      - apply lit_eqb_neq in Ex. destruct Hxy as [Hxy|Hxy]; [congruence|subst y]. exists x. split; auto. split; auto.
        split; [now apply CI_same|]. split; [|now apply SK_same].
        intros p Hp. destruct (Hd p Hp) as (a & r0 & K1 & K2).
        destruct (cref_eq_dec r (fst p)) as [E|E].
        + rewrite <- E, getc_setc_eq by auto. rewrite <- E, Hc in K1. inversion K1; subst. eauto.
        + rewrite getc_setc_neq by auto. eauto. }
    clear Hxy. destruct Hmain as (a & Hswap & HPc & HW1 & Hd1 & ST1).
    assert (L1 : (1 <=? length (getc d r)) = true) by (rewrite Hc; auto).
    assert (L2 : (length (getc d r) =? 1) = false) by (rewrite Hc; auto).
    rewrite L1, L2. cbn [assertb bind].
    assert (A0 : at_ (getc d r) 0 = Ok x) by (rewrite Hc; auto).
    rewrite A0. cbn [bind]. rewrite Hswap. unfold at_ at 1 2 4 5. cbn [nth_error value_of bind].
    rewrite lit_eqb_refl. cbn [assertb bind].
    set (d1 := setc d r (a :: fl :: rest0)) in *.
    assert (Hr1 : valid d1 r) by (now apply valid_setc).
    assert (Hc1 : getc d1 r = a :: fl :: rest0) by (unfold d1; now rewrite getc_setc_eq).
    fold (tv t a). destruct (is_true (tv t a)) eqn:Et.
    { apply is_true_iff in Et. apply IH.
      - eapply CI_keep; eauto.
      - intros p Hp. apply in_app_iff in Hp. destruct Hp as [Hp|[<-|[]]]; auto. exists a, rest0. split; auto. congruence.
      - eapply SK_keep; eauto. }
    destruct (replace_spec t a fl rest0 idx Hfl) as (o & Ho & Hspec).
    { intros L. assert (E : length (getc d r) = length (a :: fl :: rest0)) by (apply Permutation_length; auto).
      rewrite <- E in *. auto. }
    rewrite Ho. cbn [bind]. destruct o as [j|].
    { destruct Hspec as (i & z & -> & Hz & Hzv).
      rewrite (swap1j a fl z rest0 i Hz). unfold at_. cbn [nth_error value_of bind].
      assert (Hne : z <> fl) by congruence. rewrite (proj2 (lit_eqb_neq z fl) Hne). cbn [negb assertb bind].
      apply IH.
      - eapply (CI_move d1 t w s fl done r idx rest); eauto. apply rotate_perm.
      - apply done_ok_setc; auto. intros I. apply in_map_iff in I. destruct I as (p & E & I).
        destruct (Hd1 _ I) as (a' & r0 & K1 & K2). rewrite E, Hc1 in K1. inversion K1; subst a' r0.
        pose proof (proj1 (proj1 HW1) r fl Hr1) as C.
        rewrite wm_set_eq, Hc1, count_watch_app, count_watch_cons_eq in C. cbn [expected] in C.
        rewrite b2n_refl in C.
        assert (0 < count_watch r done) by (apply count_watch_In; rewrite <- E; now apply in_map).
        destruct (lit_eqb a fl) eqn:Ea; [apply lit_eqb_eq in Ea; congruence|simpl in C; lia].
      - eapply (SK_move d1 t s fl r idx rest); [exact Hr1|exact Hc1|exact Hz|exact Hzv|apply rotate_perm|exact ST1]. }
    assert (Lfl : lev t fl = Some (dl t)).
    { pose proof (proj2 HW1 r Hr1) as K. rewrite Hc1 in K. destruct K as [_ K].
      destruct (K Hfl) as [[G _]|[L _]]; auto. apply is_true_iff in G. congruence. }
    rewrite (level_check2 t fl a rest0) by auto. cbn [assertb bind].
    destruct (is_false (tv t a)) eqn:Ef.
    { apply is_false_iff in Ef.
      assert (Haf : all_false t (a :: fl :: rest0)) by (intros z [<-|[<-|Hz]]; auto).
      rewrite (eval_clause_all_false t (a :: fl :: rest0)) by auto. cbn [assertb bind]. split; [discriminate|]. intros. discriminate. }
    assert (Hall : forallb (fun l => is_false (eval_lit (t_bm t) l)) (tl (a :: fl :: rest0)) = true).
    { apply forallb_forall. cbn [tl]. intros z Hz. apply is_false_iff.
      destruct Hz as [<-|Hz]; [exact Hfl|exact (Hspec z Hz)]. }
    rewrite Hall. cbn [assertb bind].
    assert (Hn : tv t a = None) by (destruct (tv t a) as [[|]|]; auto; discriminate).
    apply IH.
    + eapply CI_keep; eauto.
    + intros p Hp. apply in_app_iff in Hp. destruct Hp as [Hp|[<-|[]]]; auto. exists a, rest0. split; auto. congruence.
    + eapply SK_keep; eauto.
Qed.

Lemma SK_pop d t fl0 l ro s : SK d t fl0 [] ((l, ro) :: s) -> SK d t (neg l) [] s.
Proof.
  intros H e He. specialize (H e (or_intror He)). destruct e as [l' ro']. unfold sok in *.
  destruct H as [H|[H|(r & _ & _ & _ & [] & _)]]; auto.
Qed.
Lemma SK_todo d t fl todo s : SK d t fl [] s -> SK d t fl todo s.
Proof.
  intros H e He. specialize (H e He). destruct e as [l' ro']. unfold sok in *.
  destruct H as [H|[H|(r & _ & _ & _ & [] & _)]]; auto.
Qed.
Lemma SK_assign d t w fl0 s l r0 : WC d w -> tv t l = None -> SK d t fl0 [] ((l, Some r0) :: s) ->
  SK d (assign_top t l r0) (neg l) (w (neg l)) s.
Proof.
  intros HW Hl H0. set (t1 := assign_top t l r0).
  assert (Hdl : dl t1 = dl t) by apply dl_assign.
  assert (HS : forall x b, tv t x = Some b -> tv t1 x = Some b) by (intros; now apply tv_assign_some).
  assert (Hl1 : tv t1 l = Some true) by apply tv_assign_eq.
  assert (Hn1 : tv t1 (neg l) = Some false) by apply tv_assign_neg.
  assert (Hc3 : forall x, x = l \/ x = neg l \/ (lord x <> lord l /\ tv t1 x = tv t x)).
  { intros x. destruct (Nat.eq_dec (lord x) (lord l)) as [E|E].
    - apply same_var_lit in E. tauto.
    - right; right. split; auto. now apply tv_assign_neq. }
  assert (HAF : forall c, all_false t c -> all_false t1 c) by (intros c H x Hx; auto).
  intros [l' ro'] He. specialize (H0 _ (or_intror He)). unfold sok in *.
  destruct H0 as [(K1 & K3)|[(r & K1 & K2 & K3 & K4)|(r & _ & _ & _ & [] & _)]].
  + left. split; auto. destruct ro'; auto. intros x Hx.
    destruct (K3 x Hx); auto.
  + assert (K3' : unit_at t1 (getc d r) l').
    { destruct K3 as (re & R1 & R2). exists re. auto. }
    destruct (Hc3 l') as [E|[E|[E E']]].
    * right; left. exists r. repeat split; auto. right. subst l'. auto.
    * destruct K4 as [K4|K4].
      -- right; right. exists r. repeat split; auto.
         ++ rewrite <- E. eapply unit_at_watched; eauto.
         ++ destruct K3' as (re & R1 & [R2|(y & re' & R2 & R3)]).
            ** rewrite R2. intros x [<-|Hx]; auto. now rewrite E.
            ** rewrite R3. intros x [<-|[<-|Hx]]; [apply R1; rewrite R2; simpl; auto|now rewrite E|].
               apply R1. rewrite R2. simpl; auto.
      -- subst l'. exfalso. apply eval_lit_neg_true in K4. unfold tv in Hl. congruence.
    * right; left. exists r. repeat split; auto. rewrite E'. auto.
Qed.
Lemma SK_head d t fl0 l ro s : SK d t fl0 [] ((l, ro) :: s) ->
  (tv t l = Some true /\ match ro with None => True | Some r => forall x, In x (getc d r) -> x = l \/ tv t x = Some false end) \/
  (exists r, ro = Some r /\ valid d r /\ tv t l = None /\ forall x, In x (getc d r) -> x = l \/ tv t x = Some false).
Proof.
  intros H. specialize (H _ (or_introl eq_refl)). unfold sok in H.
  destruct H as [H|[(r & -> & V & U & [N|T])|(r & _ & _ & _ & [] & _)]]; auto.
  - right. exists r. apply unit_at_all in U. destruct U. auto.
  - left. apply unit_at_all in U. destruct U. auto.
Qed.
Lemma mdef_tv t l : mdef (t_bm t) (lord l) = false <-> tv t l = None.
Proof. unfold tv, eval_lit. destruct (mdef (t_bm t) (lord l)); split; congruence. Qed.

Lemma bcp_tot : forall fuel t d w s fl0, tpi false d t -> stk2 d t s -> CI d t w s fl0 [] -> SK d t fl0 [] s ->
  bcp_loop fuel t d w s <> UB.
Proof.
  induction fuel as [|fuel IH]; intros t d w s fl0 P ST HC HK; destruct s as [|[l ro] s']; cbn [bcp_loop]; try discriminate.
  assert (ST' : stk2 d t s') by (intros m r Hin; apply ST; simpl; auto).
  assert (X : exists t1, (match ro with Some r => if mdef (t_bm t) (lord l) then Ok t
                     else trail_propagate (with_bm t (set_value (t_bm t) (lord l) (negb (lneg l)))) (lvar l) (Some r) (dl t)
                 | None => Ok t end) = Ok t1 /\ tpi false d t1 /\ stk2 d t1 s' /\ CI d t1 w s' (neg l) (w (neg l)) /\
      SK d t1 (neg l) (w (neg l)) s' /\ tv t1 l = Some true /\
      match ro with None => True | Some r => forall x, In x (getc d r) -> x = l \/ tv t1 x = Some false end).
  { destruct (SK_head _ _ _ _ _ _ HK) as [(A1 & A3)|(r & -> & V & N & A3)].
    - exists t. assert (M : mdef (t_bm t) (lord l) = true) by (unfold tv, eval_lit in A1; destruct (mdef (t_bm t) (lord l)); congruence).
      rewrite M. split; [destruct ro; auto|]. split; auto. split; auto. split; [eapply pop_same2; eauto|]. split; [apply SK_todo; eapply SK_pop; eauto|auto].
    - assert (M : mdef (t_bm t) (lord l) = false) by (now apply mdef_tv). rewrite M.
      exists (assign_top t l r). split.
      { unfold trail_propagate. change (dl (with_bm t (set_value (t_bm t) (lord l) (negb (lneg l))))) with (dl t).
        rewrite Nat.leb_refl, Nat.sub_diag. reflexivity. }
      assert (S1 : t_step t (TPropagate (lvar l) (Some r) (dl t) (negb (lneg l), 0%Q)) = Ok (assign_top t l r)).
      { cbn [t_step put fst lvar]. unfold trail_propagate. change (dl (with_bm t (set_value (t_bm t) (lord l) (negb (lneg l))))) with (dl t).
        rewrite Nat.leb_refl, Nat.sub_diag. reflexivity. }
      destruct (ST l (Some r) (or_introl eq_refl) M) as (r' & Er & U). injection Er as <-.
      assert (U0 : lit_level t l = None) by (exact (tpi_none _ _ _ _ P M)).
      assert (R0 : lord l < mnum (t_bm t)).
      { destruct P as (_ & VV & _). destruct U as (U1 & U2 & _). eapply VV; [apply getc_in; exact U1|now apply once_in]. }
      assert (BX : bx t (assign_top t l r)) by (apply bx_assign; auto; eapply tpi_ne; eauto).
      split; [|split; [|split; [|split; [|split]]]].
      + eapply (tpi_prop false); [exact P| |exact U0|auto|exact S1]. cbn. now apply Nat.ltb_lt.
      + eapply stk2_keep; [exact BX| |intros; now apply (bx_lvl _ _ BX)|exact ST'].
        intros m ro' _ D. cbn in D. unfold upd in D. destruct (lord m =? lord l); [discriminate|auto].
      + eapply pop_assign2; eauto.
      + eapply SK_assign; [apply HC|exact N|exact HK].
      + apply tv_assign_eq.
      + intros x Hx. destruct (A3 x Hx); auto. right. now apply tv_assign_some. }
  destruct X as (t1 & -> & P1 & ST1 & C1 & K1 & L1 & R1). cbn [bind].
  rewrite (proj2 (is_true_iff (eval_lit (t_bm t1) l)) L1). cbn [assertb bind].
  match goal with |- context [assertb ?b] => assert (E3 : b = true) end.
  { destruct ro as [r|]; auto. apply forallb_forall. intros x Hx. destruct (R1 x Hx) as [->|F]; [now rewrite lit_eqb_refl|].
    apply orb_true_iff. right. now apply is_false_iff. }
  rewrite E3. cbn [assertb bind]. unfold falsified.
  assert (F1 : tv t1 (neg l) = Some false) by (unfold tv in *; now apply eval_lit_neg_false).
  rewrite (proj2 (is_false_iff (eval_lit (t_bm t1) (neg l))) F1). cbn [assertb bind].
  assert (HCI : CI d t1 (wm_set w (neg l) ([] ++ w (neg l))) s' (neg l) (w (neg l))).
  { destruct C1 as [C1 C2]. split; [|exact C2]. cbn [app]. eapply WC_ext; [|exact C1]. intros x.
    destruct (lit_eq_dec x (neg l)) as [->|E]; [now rewrite wm_set_eq|now rewrite wm_set_neq]. }
  destruct (falsified_tot t1 (neg l) (tpi_LT _ _ P1) F1 (length (w (neg l))) d w [] (w (neg l)) s') as [NU KU]; auto.
  { intros p []. }
  destruct (falsified_loop _ _ _ _ _ _ _ _) as [[[[d2 w2] s2] co2]| |] eqn:E5; cbn [bind]; [|congruence|discriminate].
  destruct co2 as [c2|]; [discriminate|].
  pose proof E5 as E6. eapply falsified2 in E5; [|eapply tpi_LT; eauto|exact F1|exact HCI|intros p []|exact ST1].
  destruct E5 as (A & B & C). eapply (IH _ _ _ _ (neg l)); [eapply tpi_perm; eauto|exact B|exact C|].
  eapply KU; eauto.
Qed.

Definition NEc (d : db) : Prop := forall c, In c (clauses_of d) -> c <> [].

Lemma bool_propagate_tot fuel b d t : Ent b d t -> (trail_empty t = false -> units_done d t) -> RS d t -> NEc d ->
  bool_propagate fuel b d t <> UB.
Proof.
  intros [P HE] HU HR HN. unfold bool_propagate, bool_initialize.
  destruct (trail_empty t) eqn:TE.
  - assert (Und : forall x, tv t x = None) by (intros x; eapply empty_undef; eauto).
    destruct (empty_undef false d t (mkLit 0 false) P TE) as (_ & D & R).
    destruct (init_clauses_ok d (all_refs d) (fun _ => []) []) as (w' & s' & I0 & I1 & I2 & I3 & I4 & I5 & I6).
    { intros r Hr. assert (V : valid d r) by (now apply all_refs_valid). split; auto. apply HN. now apply getc_in. }
    { apply all_refs_nodup. }
    unfold watch_map, sat_stack in *. rewrite I0. cbn [bind]. unfold theory_assigned. rewrite R. cbn [rev]. rewrite skipn_nil. cbn [push_assigned bind b_watched].
    match goal with |- bind ?m _ <> UB => assert (NU : m <> UB) end.
    { eapply (bcp_tot _ _ _ _ _ (mkLit 0 false)); auto.
      + intros l ro Hin M. apply I4 in Hin. destruct Hin as [[]|(u & r & E & Hr & Hc)]. injection E as -> ->. exists r. split; auto.
        split; [now apply all_refs_valid|]. rewrite Hc. split; [now apply once_head|]. split; [intros x [<-|[]]; auto|lia].
      + split; [split|].
        * intros r l Hr. rewrite I1 by (now apply Sat_Prop.all_refs_valid). reflexivity.
        * intros l p Hp. apply I3 in Hp. destruct Hp as [[]|Hp]; auto.
        * intros r Hr. destruct (getc d r) as [|x [|y rest]] eqn:Hc.
          -- apply (HN _ (getc_in d r Hr)). exact Hc.
          -- simpl. right. split; auto. left. split; auto. apply I6; auto. now apply Sat_Prop.all_refs_valid.
          -- simpl. rewrite !Und. split; discriminate.
      + intros e Hin. apply I4 in Hin. destruct Hin as [[]|(u & r & -> & Hr & Hc)]. right; left. exists r. split; auto.
        split; [now apply all_refs_valid|]. rewrite Hc. split; [exists []; split; [intros x []|auto]|auto]. }
    apply bind_ub; [exact NU|intros [[[t2 d2] w2] co]; discriminate].
  - cbn [bind]. unfold theory_assigned. change (match b_level b with Some k => if dl t =? k then b_next b else 0 | None => 0 end) with (bskip b t).
    destruct (HE eq_refl) as [W1 W2]. cbn [bind b_watched].
    assert (RL : forall v ro, In (VBool v, ro) (recent t) -> tv t (true_lit (t_bm t) v) = Some true).
    { intros v ro Hin. rewrite recent_lists in Hin by (eapply tpi_ne; eauto).
      pose proof P as ((a & N & A) & _). apply (sh_list _ _ A) in Hin; auto. destruct Hin as (g & E & E1 & _).
      pose proof (sh_def _ _ A (VBool v)) as K. rewrite E in K. cbn in K.
      unfold tv, eval_lit, true_lit. cbn. rewrite K. f_equal. destruct (mval (t_bm t) v); auto. }
    match goal with |- bind ?m _ <> UB => assert (NU : m <> UB) end.
    { eapply (bcp_tot _ _ _ _ _ (mkLit 0 false)); auto.
      + intros l ro Hin M. exfalso. apply push_assigned_in in Hin. destruct Hin as [[]|(v & r & Hin & E)]. injection E as -> ->. cbn in M.
        apply skipn_sub, in_rev in Hin. pose proof (RL _ _ Hin) as X. unfold tv, eval_lit in X. cbn in X. rewrite M in X. discriminate.
      + split; [exact W1|]. intros r Hr. specialize (W2 r Hr). pose proof (getc_in d r Hr) as Hin. destruct (getc d r) as [|x [|y rest]]; auto.
        * pose proof (HU eq_refl x Hin) as L. cbn in W2. destruct (tv t x) as [[|]|] eqn:Tx; [left; auto| |].
          -- right. destruct (W2 eq_refl L) as [D N]. split; auto. right; right. split; auto. now apply pnd_stack.
          -- exfalso. apply mdef_tv in Tx. apply (tpi_none _ _ _ _ P) in Tx. unfold lev, lvar in L. congruence.
        * assert (K : forall a c, (tv t a = Some false -> grd t a c \/ (lev t a = Some (dl t) /\ pnd b t a)) ->
            tv t a = Some false -> wok t (push_assigned (t_bm t) (skipn (bskip b t) (rev (recent t))) []) (mkLit 0 false) [] r rest a c).
          { intros a c Hw F. destruct (Hw F) as [G|[L N]]; [left; auto|right]. split; auto. left. now apply pnd_stack. }
          destruct W2. split; apply K; auto.
      + intros [l ro] Hin. apply push_assigned_in in Hin. destruct Hin as [[]|(v & r & Hin & E)]. injection E as -> ->.
        apply skipn_sub, in_rev in Hin. left. split; [eapply RL; eauto|].
        destruct r as [r|]; auto. intros x Hx. exact (HR _ _ Hin x Hx). }
    apply bind_ub; [exact NU|intros [[[t2 d2] w2] co]; discriminate].
Qed.
