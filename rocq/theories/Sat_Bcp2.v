(** The propagation loop and Bool_theory::propagate. *)
From Coq Require Import List Arith ZArith Bool Lia Permutation Wellfounded.
From Verif Require Import Base Core_Model Literal_Proofs Bool_Model Sat_Base Sat_Inv Sat_Bcp Sat_Trail.
Import ListNotations.
Open Scope nat_scope.

Lemma watched_in d w r x :
  WC d w -> valid d r ->
  (exists rest, getc d r = x :: rest) \/ (exists y rest, getc d r = y :: x :: rest) ->
  In r (map fst (w x)).
Proof.
  intros [H1 _] Hr Hc. apply count_watch_In. rewrite H1 by auto.
  destruct Hc as [(rest & ->)|(y & rest & ->)].
  - destruct rest; simpl; rewrite b2n_refl; lia.
  - simpl. rewrite b2n_refl. lia.
Qed.

Lemma unit_at_watched d w t r l :
  WC d w -> valid d r -> unit_at t (getc d r) l -> In r (map fst (w l)).
Proof.
  intros HW Hr (rest & _ & [H|(y & rest' & _ & H)]).
  - eapply watched_in; eauto. 
  - eapply watched_in; eauto.
Qed.

Lemma pop_same n d t w s fl0 l ro :
  TI n d t -> tv t l = Some true ->
  WI d t w ((l, ro) :: s) fl0 [] -> WI d t w s (neg l) (w (neg l)).
Proof.
  intros HT Hl [H1 H2 H3].
  assert (HN : forall x, In (neg x) (map fst ((l, ro) :: s)) -> x = neg l \/ In (neg x) (map fst s)).
  { intros x [K|K]; auto. left. simpl in K. rewrite K. now rewrite neg_neg. }
  constructor; auto.
  - intros r Hr. specialize (H2 r Hr). destruct (getc d r) as [|x [|y rest]] eqn:Hc; auto.
    + destruct H2 as [H2|[Hd H2]]; [left; auto|right; split; auto].
      destruct H2 as [[K1 [K2|K2]]|[[_ []]|[K1 K2]]].
      * inversion K2; subst. congruence.
      * left; auto.
      * apply HN in K2. destruct K2 as [K2|K2]; [|right; right; auto]. right; left. subst x.
        split; auto. eapply watched_in; eauto.
    + assert (HW : forall a b, (a = x \/ a = y) -> tv t a = Some false ->
          wlit_ok t ((l, ro) :: s) fl0 [] r rest a b -> wlit_ok t s (neg l) (w (neg l)) r rest a b).
      { intros a b Hab Ha [K|[[_ []]|[K|(K1 & K2 & [[K3 K4]|[_ []]])]]].
        - apply HN in K. destruct K as [K|K]; [|left; auto]. right; left. subst a. split; auto.
          destruct Hab as [E|E].
          + apply watched_in with (d := d); auto. left. rewrite E. eauto.
          + apply watched_in with (d := d); auto. right. rewrite E. eauto.
        - right; right; left; auto.
        - right; right; right. repeat split; auto. left; split; auto.
          destruct K4 as [K4|K4]; auto. inversion K4; subst. congruence. }
      destruct H2 as [H2 H2']. split; intros; apply HW; auto.
  - intros [l' ro'] He. specialize (H3 _ (or_intror He)). unfold stack_ok in *.
    destruct H3 as [H3|[H3|(r & _ & _ & _ & [] & _)]]; auto.
Qed.

Lemma pop_assign n d t w s fl0 l r0 :
  TI n d t -> tv t l = None ->
  WI d t w ((l, Some r0) :: s) fl0 [] ->
  WI d (assign_top t l r0) w s (neg l) (w (neg l)).
Proof.
  intros HT Hl [H1 H2 H3]. set (t1 := assign_top t l r0).
  assert (Hdl : dl t1 = dl t) by apply dl_assign.
  assert (HS : forall x b, tv t x = Some b -> tv t1 x = Some b) by (intros; now apply tv_assign_some).
  assert (HLv : forall x k, lev t x = Some k -> lev t1 x = Some k) by (intros; eapply lev_assign_some; eauto).
  assert (Hl1 : tv t1 l = Some true) by apply tv_assign_eq.
  assert (Hll : lev t1 l = Some (dl t1)).
  { unfold t1. rewrite lev_assign, Nat.eqb_refl, dl_assign. auto. }
  assert (Hn1 : tv t1 (neg l) = Some false) by apply tv_assign_neg.
  assert (Hc3 : forall x, x = l \/ x = neg l \/ (lord x <> lord l /\ tv t1 x = tv t x)).
  { intros x. destruct (Nat.eq_dec (lord x) (lord l)) as [E|E].
    - apply same_var_lit in E. tauto.
    - right; right. split; auto. now apply tv_assign_neq. }
  assert (HAF : forall c, all_false t c -> all_false t1 c) by (intros c H x Hx; auto).
  constructor; auto.
  - intros r Hr. specialize (H2 r Hr). destruct (getc d r) as [|x [|y rest]] eqn:Hc; auto.
    + destruct H2 as [[H2 H2']|[Hd H2]]; [left; split; auto|].
      destruct H2 as [[K1 K2]|[[_ []]|[K1 K2]]].
      * destruct (Hc3 x) as [E|[E|[E E']]].
        -- subst x. left. split; auto. rewrite Hll. congruence.
        -- right. split; [congruence|]. right; left. split; auto. subst x. eapply watched_in; eauto.
        -- right. split; [congruence|]. left. split; [congruence|].
           destruct K2 as [K2|K2]; auto. inversion K2; subst. congruence.
      * right. split; [congruence|]. right; right. split; auto.
        destruct K2 as [K2|K2]; auto. simpl in K2. exfalso.
        assert (tv t l = Some true) by (rewrite K2; now apply eval_lit_neg_true). congruence.
    + assert (HW : forall a b, ((a = x /\ b = y) \/ (a = y /\ b = x)) ->
          (tv t a = Some false -> wlit_ok t ((l, Some r0) :: s) fl0 [] r rest a b) ->
          tv t1 a = Some false -> wlit_ok t1 s (neg l) (w (neg l)) r rest a b).
      { intros a b Hab Hok Ha.
        assert (Hwa : In r (map fst (w a))).
        { destruct Hab as [[E _]|[E _]]; rewrite E.
          - eapply watched_in; eauto.
          - eapply watched_in; eauto. }
        assert (Hwb : In r (map fst (w b))).
        { destruct Hab as [[_ E]|[_ E]]; rewrite E.
          - eapply watched_in; eauto.
          - eapply watched_in; eauto. }
        destruct (Hc3 a) as [E|[E|[E E']]].
        - subst a. congruence.
        - right; left. split; auto. now rewrite <- E.
        - rewrite E' in Ha. destruct (Hok Ha) as [K|[[_ []]|[K|(K1 & K2 & [[K3 K4]|[_ []]])]]].
          + left. destruct K as [K|K]; auto. simpl in K. exfalso. apply E. now rewrite K.
          + right; right; left. destruct K as [K (k & k' & A1 & A2 & A3)]. split; auto.
            exists k, k'. auto.
          + destruct (Hc3 b) as [F|[F|[F F']]].
            * right; right; left. subst b. split; auto. exists (dl t), (dl t).
              split; [auto|]. split; [rewrite Hll; congruence|lia].
            * right; right; right. split; [rewrite Hdl; auto|]. split; auto. right. split; auto.
              now rewrite <- F.
            * right; right; right. split; [rewrite Hdl; auto|]. split; auto. left. split; [congruence|].
              destruct K4 as [K4|K4]; auto. inversion K4; subst. congruence. }
      destruct H2 as [H2 H2']. split; apply HW; auto.
  - intros [l' ro'] He. specialize (H3 _ (or_intror He)). unfold stack_ok in *.
    destruct H3 as [(K1 & K2 & K3)|[(r & K1 & K2 & K3 & K4 & K5)|(r & _ & _ & _ & [] & _)]].
    + left. split; auto. split; [rewrite Hdl; auto|]. destruct ro'; auto. intros x Hx.
      destruct (K3 x Hx); auto.
    + assert (K5' : 1 <= dl t1 -> exists x, In x (getc d r) /\ x <> l' /\ lev t1 x = Some (dl t1)).
      { rewrite Hdl. intros K. destruct (K5 K) as (x & X1 & X2 & X3). exists x. auto. }
      assert (K3' : unit_at t1 (getc d r) l').
      { destruct K3 as (re & R1 & R2). exists re. auto. }
      destruct (Hc3 l') as [E|[E|[E E']]].
      * right; left. exists r. repeat split; auto. right. subst l'. auto.
      * destruct K4 as [K4|[K4 _]].
        -- right; right. exists r. repeat split; auto.
           ++ rewrite <- E. eapply unit_at_watched; eauto.
           ++ destruct K3' as (re & R1 & [R2|(y & re' & R2 & R3)]).
              ** rewrite R2. intros x [<-|Hx]; auto. now rewrite E.
              ** rewrite R3. intros x [<-|[<-|Hx]]; [apply R1; rewrite R2; simpl; auto|now rewrite E|].
                 apply R1. rewrite R2. simpl; auto.
        -- subst l'. exfalso. apply eval_lit_neg_true in K4. unfold tv in Hl. congruence.
      * right; left. exists r. repeat split; auto. rewrite E'. destruct K4 as [K4|[K4 K6]]; auto.
        right. split; auto. rewrite Hdl; auto.
Qed.

Lemma unit_at_all t c l : unit_at t c l -> In l c /\ forall x, In x c -> x = l \/ tv t x = Some false.
Proof.
  intros (rest & R1 & [-> |(y & re' & -> & ->)]).
  - split; simpl; auto. intros x [<-|Hx]; auto.
  - split; simpl; auto. intros x [<-|[<-|Hx]]; auto; right; apply R1; simpl; auto.
Qed.

(** [t'] extends [t] at the current level by propagations *)
Definition ext (t t' : trail) : Prop :=
  tl (t_levels t') = tl (t_levels t) /\
  exists new, recent t' = new ++ recent t /\ forall e, In e new -> has_reason e.

Lemma ext_refl t : ext t t.
Proof. split; auto. exists []. split; auto. intros e []. Qed.
Lemma ext_trans a b c : ext a b -> ext b c -> ext a c.
Proof.
  intros [H1 (n1 & H2 & H3)] [H4 (n2 & H5 & H6)]. split; [congruence|].
  exists (n2 ++ n1). split. rewrite H5, H2. apply app_assoc.
  intros e He. apply in_app_iff in He. destruct He; auto.
Qed.
Lemma ext_assign n d t l r : TI n d t -> ext t (assign_top t l r).
Proof.
  intros HT. pose proof (ti_ne _ _ _ HT). unfold ext, recent, assign_top; simpl.
  destruct (t_levels t); [congruence|]. simpl. split; auto. exists [(lvar l, Some r)]. split; auto.
  intros e [<-|[]]. discriminate.
Qed.

Definition unassigned_count (n : nat) (t : trail) : nat :=
  length (filter (fun i => negb (mdef (t_bm t) i)) (seq 0 n)).

(** one iteration of the propagation loop *)
Lemma bcp_step n d t w s fl0 l ro :
  TI n d t -> DBI n d -> WI d t w ((l, ro) :: s) fl0 [] ->
  exists t1 d2 w2 s2 o,
    (forall fuel, bcp_loop (S fuel) t d w ((l, ro) :: s) =
       match o with Some c => Ok (t1, d2, w2, Some c) | None => bcp_loop fuel t1 d2 w2 s2 end) /\
    dbperm d d2 /\ TI n d2 t1 /\ dl t1 = dl t /\ ext t t1 /\
    (forall x b, tv t x = Some b -> tv t1 x = Some b) /\
    ((t1 = t /\ tv t l = Some true) \/ (tv t l = None /\ exists r, t1 = assign_top t l r /\ lord l < n)) /\
    (exists new, s2 = new ++ s /\ forall e, In e new -> tv t1 (fst e) = None) /\
    match o with
    | None => WI d2 t1 w2 s2 (neg l) []
    | Some c => WW d2 t1 w2 /\ exists r, valid d2 r /\ c = getc d2 r /\ all_false t1 c /\
                  exists x, In x c /\ lev t1 x = Some (dl t1)
    end.
Proof.
  intros HT HD HW.
  pose proof (wi_stack _ _ _ _ _ _ HW (l, ro) (or_introl eq_refl)) as HS. unfold stack_ok in HS.
  assert (Hmain : exists t1,
     (match ro with
      | Some r => if mdef (t_bm t) (lord l) then Ok t
                  else trail_propagate (with_bm t (set_value (t_bm t) (lord l) (negb (lneg l)))) (lvar l) (Some r) (dl t)
      | None => Ok t end) = Ok t1 /\
     tv t1 l = Some true /\ lev t1 l = Some (dl t1) /\
     (match ro with Some r => forall x, In x (getc d r) -> x = l \/ tv t1 x = Some false | None => True end) /\
     TI n d t1 /\ dl t1 = dl t /\ ext t t1 /\ (forall x b, tv t x = Some b -> tv t1 x = Some b) /\
     ((t1 = t /\ tv t l = Some true) \/ (tv t l = None /\ exists r, t1 = assign_top t l r /\ lord l < n)) /\
     WI d t1 w s (neg l) (w (neg l))).
  { assert (Hsame : tv t l = Some true -> lev t l = Some (dl t) ->
       match ro with Some r => forall x, In x (getc d r) -> x = l \/ tv t x = Some false | None => True end -> 
       exists t1,
     (match ro with
      | Some r => if mdef (t_bm t) (lord l) then Ok t
                  else trail_propagate (with_bm t (set_value (t_bm t) (lord l) (negb (lneg l)))) (lvar l) (Some r) (dl t)
      | None => Ok t end) = Ok t1 /\
     tv t1 l = Some true /\ lev t1 l = Some (dl t1) /\
     (match ro with Some r => forall x, In x (getc d r) -> x = l \/ tv t1 x = Some false | None => True end) /\
     TI n d t1 /\ dl t1 = dl t /\ ext t t1 /\ (forall x b, tv t x = Some b -> tv t1 x = Some b) /\
     ((t1 = t /\ tv t l = Some true) \/ (tv t l = None /\ exists r, t1 = assign_top t l r /\ lord l < n)) /\
     WI d t1 w s (neg l) (w (neg l))).
    { intros A1 A2 A3. exists t.
      assert (D : mdef (t_bm t) (lord l) = true).
      { destruct (mdef (t_bm t) (lord l)) eqn:E; auto. apply (eval_lit_none (t_bm t) l) in E. unfold tv in A1. congruence. }
      rewrite D. split; [destruct ro; auto|]. repeat (split; [auto using ext_refl|]).
      eapply pop_same; eauto. }
    destruct HS as [(K1 & K2 & K3)|[(r & K1 & K2 & K3 & K4 & K5)|(r & _ & _ & _ & [] & _)]]; auto.
    subst ro. destruct (unit_at_all _ _ _ K3) as [U1 U2].
    destruct K4 as [K4|[K4 K4']]; auto.
    assert (D : mdef (t_bm t) (lord l) = false) by (apply (eval_lit_none (t_bm t) l); auto).
    assert (Hn : lord l < n) by (eapply HD; eauto).
    exists (assign_top t l r). rewrite D.
    split.
    { unfold trail_propagate, assign_top. change (dl (with_bm t (set_value (t_bm t) (lord l) (negb (lneg l))))) with (dl t).
      rewrite Nat.leb_refl. rewrite Nat.sub_diag. reflexivity. }
    split; [apply tv_assign_eq|].
    split; [rewrite lev_assign, Nat.eqb_refl, dl_assign; auto|].
    split. { intros x Hx. destruct (U2 x Hx); auto. right. now apply tv_assign_some. }
    split. { apply TI_assign; auto. }
    split; [apply dl_assign|].
    split; [eapply ext_assign; eauto|].
    split. { intros. now apply tv_assign_some. }
    split. { right. split; auto. exists r. auto. }
    eapply pop_assign; eauto. }
  destruct Hmain as (t1 & M1 & M2 & M3 & M4 & M5 & M6 & M7 & M8 & M9 & M10).
  assert (Hf : tv t1 (neg l) = Some false) by (now apply eval_lit_neg_false).
  destruct (falsified_loop_ok n t1 (neg l) Hf M3 (length (w (neg l))) d w [] (w (neg l)) s)
    as (d2 & w2 & s2 & o & F1 & F2 & F3 & F4); auto.
  - destruct M10 as [W1 W2 W3]. constructor; auto. eapply WC_ext; [|exact W1].
    intros x. simpl. destruct (lit_eq_dec x (neg l)) as [-> |E]; [now rewrite wm_set_eq|now rewrite wm_set_neq].
  - intros p [].
  - exists t1, d2, w2, s2, o. split.
    { intros fuel. cbn [bcp_loop]. rewrite M1. cbn [bind].
      unfold tv in M2. rewrite M2. cbn [is_true assertb bind].
      assert (A : match ro with
                  | None => true
                  | Some r => forallb (fun x => lit_eqb x l || is_false (eval_lit (t_bm t1) x)) (getc d r) end = true).
      { destruct ro; auto. apply forallb_forall. intros x Hx. destruct (M4 x Hx) as [-> |E].
        - now rewrite lit_eqb_refl.
        - unfold tv in E. rewrite E. apply orb_true_r. }
      rewrite A. cbn [assertb bind]. unfold falsified. unfold tv in Hf. rewrite Hf. cbn [is_false assertb bind].
      rewrite F1. cbn [bind]. destruct o; auto. }
    split; auto. split; [eapply TI_perm; eauto|]. repeat (split; [auto|]).
    destruct o; auto. destruct F4 as [G1 (r & G2 & G3 & G4 & G5)]. split; auto.
    exists r. repeat split; auto. exists (neg l). split; auto.
Qed.

(** what propagation guarantees *)
Definition bcp_post (n : nat) (d : db) (t : trail) (q : trail * db * watch_map * option clause) : Prop :=
  let '(t', d', w', o) := q in
  dbperm d d' /\ TI n d' t' /\ dl t' = dl t /\ ext t t' /\
  (forall x b, tv t x = Some b -> tv t' x = Some b) /\
  match o with
  | None => exists fl, WI d' t' w' [] fl []
  | Some c => WW d' t' w' /\ exists r, valid d' r /\ c = getc d' r /\ all_false t' c /\
                exists x, In x c /\ lev t' x = Some (dl t')
  end.

Lemma bcp_ok n : forall fuel d t w s fl0,
  TI n d t -> DBI n d -> WI d t w s fl0 [] ->
  safe (bcp_loop fuel t d w s) (bcp_post n d t).
Proof.
  induction fuel; intros d t w s fl0 HT HD HW.
  - destruct s as [|[l ro] s]; simpl; auto.
    split; [apply dbperm_refl|]. split; auto. split; auto. split; [apply ext_refl|]. eauto.
  - destruct s as [|[l ro] s].
    { simpl. split; [apply dbperm_refl|]. split; auto. split; auto. split; [apply ext_refl|]. eauto. }
    destruct (bcp_step n d t w s fl0 l ro HT HD HW) as (t1 & d2 & w2 & s2 & o & S1 & S2 & S3 & S4 & S5 & S6 & S7 & S8 & S9).
    rewrite S1. destruct o as [c|].
    + simpl. repeat (split; auto).
    + eapply safe_weaken. eapply IHfuel; eauto. eapply DBI_perm; eauto.
      intros [[[t' d'] w'] o] (P1 & P2 & P3 & P4 & P5 & P6).
      split; [eapply dbperm_trans; eauto|]. split; auto. split; [congruence|].
      split; [eapply ext_trans; eauto|]. split; auto.
Qed.

(** ** Termination of the propagation loop *)
Lemma unassigned_assign n t l r :
  tv t l = None -> lord l < n -> unassigned_count n (assign_top t l r) < unassigned_count n t.
Proof.
  intros Hl Hn. apply (eval_lit_none (t_bm t) l) in Hl.
  unfold unassigned_count, assign_top. cbn [t_bm set_value mdef].
  assert (G : forall a m, a <= lord l < a + m ->
    length (filter (fun i => negb (upd (mdef (t_bm t)) (lord l) true i)) (seq a m)) <
    length (filter (fun i => negb (mdef (t_bm t) i)) (seq a m))).
  { intros a m; revert a; induction m; intros a Ha; try lia. simpl.
    destruct (Nat.eq_dec a (lord l)) as [-> |E].
    - rewrite upd_eq, Hl. simpl.
      assert (K : forall b k, lord l < b ->
        length (filter (fun i => negb (upd (mdef (t_bm t)) (lord l) true i)) (seq b k)) =
        length (filter (fun i => negb (mdef (t_bm t) i)) (seq b k))).
      { intros b k; revert b; induction k; intros b Hb; simpl; auto. rewrite upd_neq by lia.
        destruct (negb (mdef (t_bm t) b)); simpl; rewrite IHk by lia; auto. }
      rewrite K by lia. lia.
    - rewrite upd_neq by auto. specialize (IHm (S a)).
      destruct (negb (mdef (t_bm t) a)); simpl; lia. }
  apply G. lia.
Qed.

Definition top_defined (t : trail) (s : sat_stack) : nat :=
  match s with (l, _) :: _ => if mdef (t_bm t) (lord l) then 1 else 0 | [] => 0 end.

Lemma top_defined_le t s : top_defined t s <= 1.
Proof. destruct s as [|[l ?] ?]; simpl; [lia|]. destruct (mdef _ _); lia. Qed.

Lemma bcp_terminates n d t w s fl0 :
  TI n d t -> DBI n d -> WI d t w s fl0 [] -> exists k, forall fuel, k <= fuel -> bcp_loop fuel t d w s <> Fuel.
Proof.
  remember (unassigned_count n t) as u eqn:Hu.
  revert d t w s fl0 Hu. induction u as [u IHu] using lt_wf_ind. intros d t w s fl0 Hu.
  remember (top_defined t s) as b eqn:Hb.
  revert d w s fl0 Hb. induction b as [b IHb] using lt_wf_ind. intros d w s fl0 Hb.
  remember (length s) as m eqn:Hm.
  revert d w s fl0 Hb Hm. induction m as [m IHm] using lt_wf_ind. intros d w s fl0 Hb Hm HT HD HW.
  destruct s as [|[l ro] s]; [exists 0; intros [|fuel] _; simpl; discriminate|].
  destruct (bcp_step n d t w s fl0 l ro HT HD HW) as (t1 & d2 & w2 & s2 & o & S1 & S2 & S3 & S4 & S5 & S6 & S7 & S8 & S9).
  destruct o as [c|].
  { exists 1. intros [|fuel] H; [lia|]. rewrite S1. discriminate. }
  assert (HD2 : DBI n d2) by (eapply DBI_perm; eauto).
  assert (K : exists k, forall fuel, k <= fuel -> bcp_loop fuel t1 d2 w2 s2 <> Fuel).
  { destruct S7 as [[-> Hl]|(Hl & r & -> & Hn)].
    - destruct S8 as (new & -> & Hnew).
      assert (D1 : mdef (t_bm t) (lord l) = true).
      { destruct (mdef (t_bm t) (lord l)) eqn:E; auto. apply (eval_lit_none (t_bm t) l) in E. unfold tv in Hl. congruence. }
      assert (Hb1 : b = 1) by (rewrite Hb; simpl; now rewrite D1).
      destruct new as [|[l' ro'] new].
      + cbn [app] in *. destruct (Nat.eq_dec (top_defined t s) 1) as [E|E].
        * eapply (IHm (length s)); eauto; simpl in Hm; lia.
        * eapply (IHb (top_defined t s)); eauto. rewrite Hb1.
          pose proof (top_defined_le t s). lia.
      + assert (E : top_defined t (((l', ro') :: new) ++ s) = 0).
        { simpl. pose proof (Hnew (l', ro') (or_introl eq_refl)) as N. simpl in N.
          apply eval_lit_none in N. now rewrite N. }
        eapply (IHb 0); eauto. lia.
    - eapply IHu; eauto. rewrite Hu. now apply unassigned_assign. }
  destruct K as (k & K). exists (S k). intros [|fuel] H; [lia|]. rewrite S1. apply K. lia.
Qed.
