(** The main loop of the propositional solver: invariant, safety, answers. *)
From Coq Require Import List Arith ZArith NArith Bool Lia Permutation Sorting.Sorted.
From Verif Require Import Base Core_Model Literal_Proofs Analysis_Model Bool_Model Solver_Model Sat_Base Sat_Inv
  Sat_Bcp Sat_Trail Sat_Bcp2 Sat_Prop Sort_Proofs Subsumption_Proofs Sat_Analysis.
Import ListNotations.
Open Scope nat_scope.

(** ** consequences of the trail *)
Lemma implied_by_decisions n d t a :
  TI n d t -> all_hold a (clauses_of d) ->
  (forall i, In (VBool i, None) (flat t) -> a i = tval t i) ->
  forall i, In (VBool i) (map fst (flat t)) -> a i = tval t i.
Proof.
  intros HT Ha Hdec.
  assert (G : forall es es1, flat t = es1 ++ es -> forall i, In (VBool i) (map fst es) -> a i = tval t i).
  { induction es as [|[v ro] es IH]; intros es1 E i Hi; [easy|].
    assert (E' : flat t = (es1 ++ [(v, ro)]) ++ es) by (rewrite <- app_assoc; auto).
    destruct Hi as [Hi|Hi]; [|eapply IH; eauto]. simpl in Hi. subst v.
    destruct ro as [r|]; [|apply Hdec; rewrite E; apply in_app_iff; simpl; auto].
    pose proof (ti_flat _ _ _ HT) as F. rewrite E in F. apply flat_ok_mid in F.
    destruct F as (j & Ej & F1 & F2 & F3). inversion Ej; subst j.
    destruct (Ha (getc d r)) as (y & Y1 & Y2); [apply getc_in; auto|].
    destruct (F3 y Y1) as [->|[A B]].
    - unfold lit_holds, tlit in Y2. simpl in Y2. destruct (tval t i); simpl in Y2; auto.
      now apply negb_true_iff in Y2.
    - exfalso. assert (K : a (lord y) = tval t (lord y)) by (eapply IH; eauto).
      unfold lit_holds in *. rewrite K in Y2. congruence. }
  intros i Hi. apply (G (flat t) [] eq_refl i Hi).
Qed.

Lemma level0_no_model n d t c a :
  TI n d t -> dl t = 0 -> all_false t c -> all_hold a (clauses_of d) -> ~ clause_holds a c.
Proof.
  intros HT H0 Hc Ha (l & L1 & L2).
  assert (K : a (lord l) = tval t (lord l)).
  { apply (implied_by_decisions n d t a HT Ha).
    - intros i Hi. exfalso. pose proof (ti_lev _ _ _ HT) as HL. unfold flat in Hi.
      pose proof (dl_S _ _ _ HT) as DS. rewrite H0 in DS.
      destruct (t_levels t) as [|es [|? ?]]; try discriminate. simpl in *. rewrite app_nil_r in Hi.
      destruct HL as [(_ & HL & _) _]. apply (HL _ Hi). reflexivity.
    - apply (tv_in_flat _ _ _ HT l false). auto. }
  pose proof (tv_holds _ _ _ (Hc l L1)) as E. unfold lit_holds in *. rewrite K in L2. congruence.
Qed.

(** ** propagation only adds boolean values *)
Lemma bcp_frame : forall fuel t d w s t' d' w' o,
  bcp_loop fuel t d w s = Ok (t', d', w', o) ->
  t_qm t' = t_qm t /\ mnum (t_bm t') = mnum (t_bm t).
Proof.
  induction fuel as [|fuel IH]; intros t d w s t' d' w' o H; destruct s as [|[l r] s]; simpl in H;
    try discriminate; try (inversion H; subst; auto; fail).
  assert (K : forall t1, match r with
                 | Some r0 => if mdef (t_bm t) (lord l) then Ok t
                     else trail_propagate (with_bm t (set_value (t_bm t) (lord l) (negb (lneg l)))) (lvar l) (Some r0) (dl t)
                 | None => Ok t end = Ok t1 -> t_qm t1 = t_qm t /\ mnum (t_bm t1) = mnum (t_bm t)).
  { intros t1 E. destruct r; [|inversion E; subst; auto]. destruct (mdef (t_bm t) (lord l)); [inversion E; subst; auto|].
    unfold trail_propagate in E. match type of E with (if ?b then _ else _) = _ => destruct b end; [|discriminate].
    inversion E; subst; auto. }
  match type of H with bind ?m _ = _ => destruct m as [t1| |] eqn:E1; try discriminate end. cbn [bind] in H.
  destruct (K t1 eq_refl) as [K1 K2]. clear K E1.
  match type of H with bind ?m _ = _ => destruct m as [[]| |]; try discriminate end. cbn [bind] in H.
  match type of H with bind ?m _ = _ => destruct m as [[]| |]; try discriminate end. cbn [bind] in H.
  match type of H with bind ?m _ = _ => destruct m as [[[[d2 w2] s2] [c|]]| |]; try discriminate end; cbn [bind] in H.
  - inversion H; subst; auto.
  - apply IH in H. destruct H. split; congruence.
Qed.
Lemma propagate_frame fuel b d t b' d' t' cs :
  bool_propagate fuel b d t = Ok (b', d', t', cs) -> t_qm t' = t_qm t /\ mnum (t_bm t') = mnum (t_bm t).
Proof.
  unfold bool_propagate. intros H.
  match type of H with bind ?m _ = _ => destruct m as [[b1 s]| |]; try discriminate end. cbn [bind] in H.
  destruct (bcp_loop fuel t d (b_watched b1) s) as [[[[t2 d2] w2] o]| |] eqn:E; try discriminate. cbn [bind] in H.
  inversion H; subst. eapply bcp_frame; eauto.
Qed.

(** ** adding a learned clause *)
Definition add_learned (d : db) (c : clause) : db := mkDb (asserted d) (learned d ++ [c]).
Definition new_ref (d : db) : cref := CLearned (length (learned d)).

Lemma valid_add d c r : valid (add_learned d c) r <-> valid d r \/ r = new_ref d.
Proof.
  destruct r as [i|i]; simpl.
  - split; auto. intros [?|?]; auto. discriminate.
  - rewrite app_length. simpl. split.
    + intros H. destruct (Nat.eq_dec i (length (learned d))) as [->|]; [right; auto|left; lia].
    + intros [H|H]; [lia|]. unfold new_ref in H. inversion H. lia.
Qed.
Lemma getc_add_old d c r : valid d r -> getc (add_learned d c) r = getc d r.
Proof. destruct r; simpl; intros; auto. now rewrite app_nth1. Qed.
Lemma getc_add_new d c : getc (add_learned d c) (new_ref d) = c.
Proof. simpl. rewrite app_nth2, Nat.sub_diag; auto. Qed.
Lemma new_ref_invalid d : ~ valid d (new_ref d).
Proof. simpl. lia. Qed.

Lemma TI_add n d t c : TI n d t -> TI n (add_learned d c) t.
Proof.
  intros [H1 H2 H3 H4 H5 H6 H7 H8]. constructor; auto.
  - clear -H2. induction (flat t) as [|[v ro] es IH]; simpl in *; auto.
    destruct H2 as (A & B & C). repeat split; auto. destruct ro as [r|]; auto.
    destruct B as (i & B1 & B2 & B3 & B4). exists i. rewrite getc_add_old by auto.
    repeat split; auto. apply valid_add; auto.
  - assert (HV : forall v r, In (v, Some r) (concat (t_levels t)) -> valid d r).
    { clear -H2. unfold flat in H2. induction (concat (t_levels t)) as [|[v ro] es IH]; simpl in *; [easy|].
      destruct H2 as (A & B & C). intros v' r [E|E]; eauto. inversion E; subst.
      destruct B as (i & _ & B & _). auto. }
    clear -H4 HV. induction (t_levels t) as [|es ls IH]; simpl in *; auto.
    destruct H4 as ((A & B & C) & D). split.
    + repeat split; auto. intros K i r I. destruct (C K i r I) as (l & L1 & L2 & L3).
      exists l. rewrite getc_add_old; auto. eapply HV. apply in_app_iff. left; eauto.
    + apply IH; auto. intros v r I. eapply HV. apply in_app_iff. right; eauto.
Qed.

Lemma DBI_add n d c : DBI n d -> c <> [] -> (forall l, In l c -> lord l < n) -> DBI n (add_learned d c).
Proof.
  intros H H1 H2 r Hr. apply valid_add in Hr. destruct Hr as [Hr| ->].
  - rewrite getc_add_old by auto. auto.
  - rewrite getc_add_new. auto.
Qed.

(** the two watches added by on_learned_clause *)
Definition learned_watches (d1 : db) (r : cref) (w : watch_map) (c : clause) : watch_map :=
  match c with
  | [] => w
  | [l0] => wm_push w l0 (new_watch d1 r)
  | l0 :: l1 :: _ => wm_push (wm_push w l0 (new_watch d1 r)) l1 (new_watch d1 r)
  end.

Lemma WC_learn d c w :
  c <> [] -> WC d w -> WC (add_learned d c) (learned_watches (add_learned d c) (new_ref d) w c).
Proof.
  intros Hne [W1 W2]. set (d1 := add_learned d c). set (r0 := new_ref d).
  assert (V0 : valid d1 r0) by (apply valid_add; auto).
  assert (Z0 : forall l, count_watch r0 (w l) = 0).
  { intros l. unfold count_watch. apply count_occ_not_In. intros I. apply in_map_iff in I.
    destruct I as (p & E & I). apply W2 in I. destruct I as [I _]. rewrite E in I. now apply new_ref_invalid in I. }
  assert (NI : watch_idx_ok d1 (new_watch d1 r0)) by (now apply new_watch_idx).
  assert (G0 : getc d1 r0 = c) by apply getc_add_new.
  split.
  - intros r l Hr. apply valid_add in Hr. destruct Hr as [Hr|Hr].
    + unfold d1 at 2. rewrite getc_add_old by auto. rewrite <- W1 by auto.
      assert (Hn : r0 <> r) by (intros <-; now apply new_ref_invalid in Hr).
      unfold learned_watches. destruct c as [|l0 [|l1 c]]; auto; rewrite ?wm_push_count, new_watch_fst;
        destruct (cref_eq_dec r0 r); try congruence; destruct (lit_eqb l0 l); try destruct (lit_eqb l1 l); lia.
    + fold r0 in Hr. subst r. rewrite G0. unfold learned_watches, expected, b2n.
      destruct c as [|l0 [|l1 c]]; [congruence| |]; rewrite ?wm_push_count, new_watch_fst, Z0;
        destruct (cref_eq_dec r0 r0); try congruence; destruct (lit_eqb l0 l); try destruct (lit_eqb l1 l); lia.
  - intros l p Hp.
    assert (K : In p (w l) \/ p = new_watch d1 r0).
    { unfold learned_watches in Hp. destruct c as [|l0 [|l1 c]]; auto.
      - now apply wm_push_in in Hp.
      - apply wm_push_in in Hp. destruct Hp as [Hp|Hp]; auto. now apply wm_push_in in Hp. }
    destruct K as [K| ->]; auto. apply W2 in K. destruct K as [K1 K2].
    split; [apply valid_add; auto|]. unfold d1. rewrite getc_add_old; auto.
Qed.

Lemma bool_learned_ok d c b :
  c <> [] ->
  bool_learned b (add_learned d c) (new_ref d) =
  Ok (mkB (learned_watches (add_learned d c) (new_ref d) (b_watched b) c)
          (b_phase b) (b_opt b) (b_level b) (b_next b)).
Proof.
  intros H. unfold bool_learned. rewrite getc_add_new. unfold learned_watches.
  destruct c as [|l0 [|l1 c]]; auto. congruence.
Qed.

Lemma reasons_in_db n d t : TI n d t -> forall v r, In (v, Some r) (flat t) -> In (getc d r) (clauses_of d).
Proof.
  intros HT v r I. destruct (ti_range _ _ _ HT v) as (i & -> & _).
  { apply in_map_iff. exists (v, Some r); auto. }
  destruct (flat_reason _ _ _ _ _ HT I) as (R & _). now apply getc_in.
Qed.

(** ** the clause produced by the analysis of one conflict *)
Definition learnable (n : nat) (d : db) (t : trail) (c : clause) : Prop :=
  NoDup c /\ all_false t c /\ entails (clauses_of d) c /\ asserting t c.

Lemma asserting_ne t c : asserting t c -> c <> [].
Proof. intros (l0 & rest & -> & _). discriminate. Qed.

Section Main.
Context {HS : Type}.
Variable he : heur HS.
Variable hash : lit -> N.
Variable n : nat.
Variable HInv : HS -> trail -> Prop.
Hypothesis HO : order_ok n he HInv.

Lemma fold_resolved h t cs : HInv h t -> HInv (fold_left (fun h c => h_resolved he h t c) cs h) t.
Proof. revert h. induction cs; simpl; intros; auto. apply IHcs. now apply (ok_resolved _ _ _ HO). Qed.

Lemma analyze_conflicts_ok d t h c :
  TI n d t -> 1 <= dl t -> all_false t c -> entails (clauses_of d) c ->
  (exists x, In x c /\ lev t x = Some (dl t)) -> HInv h t ->
  exists c' h', analyze_conflicts he d t h [c] [] None = Ok ([c'], Some (Z.of_nat (assert_level t c')), h') /\
    learnable n d t c' /\ HInv h' t.
Proof.
  intros HT Hdl Hf He Hx Hh.
  destruct (analyze_ok n d t HT (clauses_of d) (reasons_in_db n d t HT) c Hdl Hf He Hx) as (c1 & acc & A1 & A2 & A3 & A4 & A5).
  destruct (minimize_ok n d t HT (clauses_of d) (reasons_in_db n d t HT) c1 Hdl A2 A3 A4 A5) as (c2 & M1 & M2 & M3 & M4 & M5 & M6 & M7).
  cbn [analyze_conflicts]. rewrite A1. cbn [bind].
  pose proof (asserting_ne _ _ A5) as Hne. destruct c1 as [|l0 c1]; [congruence|].
  rewrite M1. cbn [bind]. rewrite <- M7. do 2 eexists. split; [reflexivity|].
  split; [repeat split; auto|]. now apply fold_resolved.
Qed.

Lemma split_false t c : TI n (mkDb [] []) t \/ True -> asserting t c -> is_semantic_split t c = Ok false.
Proof.
  intros _ (l0 & rest & -> & A1 & A2 & _). destruct rest as [|l1 rest]; auto. simpl.
  destruct (A2 l1 (or_introl eq_refl)) as (k & K1 & K2). unfold lit_level, lev in *. rewrite A1, K1. simpl.
  destruct (Nat.eqb_spec (dl t) k); [lia|]. auto.
Qed.

Lemma learn_ok d t b h c :
  asserting t c ->
  learn bool_theory he d t b h [c] =
  Ok (add_learned d c,
      mkB (learned_watches (add_learned d c) (new_ref d) (b_watched b) c)
          (b_phase b) (b_opt b) (b_level b) (b_next b),
      h_learned he h t c, [new_ref d]).
Proof.
  intros Ha. unfold learn. cbn [sort_by fold_right insert_by unique].
  unfold drop_splits. cbn [map_res]. rewrite (split_false t c (or_intror I) Ha). cbn [bind existsb negb orb combine filter map fst snd].
  cbn [learn_loop th_learned bool_theory]. fold (add_learned d c). fold (new_ref d).
  rewrite (bool_learned_ok d c b (asserting_ne _ _ Ha)). reflexivity.
Qed.

Lemma propagate_all_one d t k r l0 rest :
  getc d r = l0 :: rest -> mdef (t_bm t) (lord l0) = false -> dl t = k ->
  propagate_all d t k [r] = Ok (assign_top t l0 r).
Proof.
  intros Hc Hd <-. cbn [propagate_all]. rewrite Hc. cbn [at_ nth_error value_of bind]. rewrite Hd.
  unfold trail_propagate. rewrite Nat.leb_refl, Nat.sub_diag. reflexivity.
Qed.

(** ** the invariant between iterations *)
Record SI (cs0 : list clause) (s : solver (TS := bstate) (HS := HS)) : Prop := mkSI {
  si_bi : BI n (s_db s) (s_trail s) (s_th s);
  si_asserted : Forall2 (@Permutation lit) cs0 (asserted (s_db s));
  si_learned : forall c, In c (learned (s_db s)) -> entails cs0 c;
  si_nodup : forall c, In c (learned (s_db s)) -> NoDup c;
  si_old : s_old s <= length (learned (s_db s));
  si_he : HInv (s_he s) (s_trail s) }.

Lemma asserted_entailed cs0 cs c : Forall2 (@Permutation lit) cs0 cs -> In c cs -> entails cs0 c.
Proof.
  intros H Hc a Ha. induction H as [|x y cs0 cs P F IH]; [easy|].
  destruct Hc as [<-|Hc].
  - eapply clause_holds_perm; eauto. apply Ha. simpl; auto.
  - apply IH; auto. intros z Hz. apply Ha. simpl; auto.
Qed.

Lemma db_entailed cs0 d :
  Forall2 (@Permutation lit) cs0 (asserted d) -> (forall c, In c (learned d) -> entails cs0 c) ->
  forall a, all_hold a cs0 -> all_hold a (clauses_of d).
Proof.
  intros H1 H2 a Ha c Hc. unfold clauses_of in Hc. apply in_app_iff in Hc. destruct Hc as [Hc|Hc].
  - now apply (asserted_entailed cs0 (asserted d)).
  - now apply H2.
Qed.

Lemma learned_perm d d' (P : clause -> Prop) :
  dbperm d d' -> (forall c c', Permutation c c' -> P c -> P c') ->
  (forall c, In c (learned d) -> P c) -> forall c, In c (learned d') -> P c.
Proof.
  intros [_ H] HP. induction H as [|x y L L' PP F IH]; [easy|]. intros Hall c [<-|Hc].
  - eapply HP; eauto. apply Hall; simpl; auto.
  - apply IH; auto. intros; apply Hall; simpl; auto.
Qed.

Lemma entails_perm cs c c' : Permutation c c' -> entails cs c -> entails cs c'.
Proof. intros P H a Ha. eapply clause_holds_perm; eauto. Qed.

(** state right after a propagate that found a conflict or not *)
Record MidI (cs0 : list clause) (s : solver (TS := bstate) (HS := HS)) (o : option clause) : Prop := mkMid {
  mi_ti : TI n (s_db s) (s_trail s);
  mi_db : DBI n (s_db s);
  mi_level : b_level (s_th s) = Some (dl (s_trail s));
  mi_watch : match o with
             | None => exists fl, WI (s_db s) (s_trail s) (b_watched (s_th s)) [] fl []
             | Some c => WW (s_db s) (s_trail s) (b_watched (s_th s)) /\
                  exists r, valid (s_db s) r /\ c = getc (s_db s) r /\ all_false (s_trail s) c /\
                    exists x, In x c /\ lev (s_trail s) x = Some (dl (s_trail s))
             end;
  mi_asserted : Forall2 (@Permutation lit) cs0 (asserted (s_db s));
  mi_learned : forall c, In c (learned (s_db s)) -> entails cs0 c;
  mi_nodup : forall c, In c (learned (s_db s)) -> NoDup c;
  mi_old : s_old s <= length (learned (s_db s));
  mi_he : HInv (s_he s) (s_trail s) }.

Lemma propagate_mid cs0 s fuel :
  SI cs0 s ->
  safe (bool_propagate fuel (s_th s) (s_db s) (s_trail s))
       (fun q => let '(b', d', t', cs) := q in
          exists o, cs = match o with Some c => [c] | None => [] end /\
          MidI cs0 (mkS d' t' b' (s_he s) (s_old s)) o /\ dl t' = dl (s_trail s) /\
          dbperm (s_db s) d').
Proof.
  intros [H1 H2 H3 H4 H5 H6]. pose proof (propagate_ok n _ _ _ fuel H1) as HP.
  destruct (bool_propagate fuel (s_th s) (s_db s) (s_trail s)) as [[[[b' d'] t'] cs]| |] eqn:EF; [|exact HP|exact HP].
  apply propagate_frame in EF. destruct EF as [EF1 EF2].
  destruct HP as (o & E & L1 & _ & _ & P). exists o. split; auto.
  destruct P as (P1 & P2 & P3 & P4 & P5 & P6). split; [|auto].
  constructor; simpl; auto.
  - eapply DBI_perm; eauto. apply H1.
  - eapply Forall2_perm_trans; eauto. apply P1.
  - eapply learned_perm; eauto. intros; eapply entails_perm; eauto.
  - eapply learned_perm; eauto. intros; eapply Permutation_NoDup; eauto.
  - destruct P1 as [_ P1]. apply Forall2_length' in P1. lia.
  - eapply (ok_more _ _ _ HO); eauto. intros i Hi.
    assert (K : tv (s_trail s) (mkLit i false) = Some (lit_holds (tval (s_trail s)) (mkLit i false)))
      by (apply eval_lit_some; auto).
    apply P5 in K. destruct (mdef (t_bm t') i) eqn:E'; auto.
    apply (eval_lit_none (t_bm t') (mkLit i false)) in E'. unfold tv in K. congruence.
Qed.

(** *** decision *)
Lemma decide_SI cs0 s h' i x :
  MidI cs0 s None -> i < n -> mdef (t_bm (s_trail s)) i = false ->
  HInv h' (decide_top (s_trail s) i x) ->
  SI cs0 (mkS (s_db s) (decide_top (s_trail s) i x) (s_th s) h' (s_old s)).
Proof.
  intros [H1 H2 H3 (fl & H4) H5 H6 H7 H8 H9] Hi Hd Hh. set (t := s_trail s) in *.
  assert (Hlen : t_levels t <> []) by apply H1.
  assert (Hdl : dl (decide_top t i x) = S (dl t)).
  { pose proof (dl_S _ _ _ H1) as E. change (dl (decide_top t i x)) with (length (t_levels t) - 0). lia. }
  assert (Hun : tv t (mkLit i false) = None) by (now apply (eval_lit_none (t_bm t) (mkLit i false))).
  assert (Htv : forall y b, tv t y = Some b -> tv (decide_top t i x) y = Some b).
  { intros y b Hy. assert (lord y <> i).
    { intros E. unfold tv, eval_lit in Hy. rewrite E, Hd in Hy. discriminate. }
    unfold tv, eval_lit, decide_top in *. simpl. rewrite !upd_neq by auto. auto. }
  assert (Hlv : forall y k, lev t y = Some k -> lev (decide_top t i x) y = Some k).
  { intros y k Hy. unfold lev, decide_top. simpl. rewrite vupd_neq; auto. intros E.
    assert (tv t y = None); [|apply (tv_lev_none _ _ _ H1) in H; congruence].
    apply eval_lit_none. unfold lvar in E. inversion E. subst; auto. }
  assert (Hnew : forall y b, tv (decide_top t i x) y = Some b -> tv t y = None -> lev (decide_top t i x) y = Some (dl (decide_top t i x))).
  { intros y b Hy1 Hy2. destruct (Nat.eq_dec (lord y) i) as [E|E].
    - unfold lev, decide_top. simpl. unfold lvar. rewrite E. rewrite vupd_eq. f_equal.
      change (dl (trail_decide (with_bm t (set_value (t_bm t) i x)) (VBool i))) with (dl (decide_top t i x)).
      rewrite Hdl. rewrite (dl_S _ _ _ H1). auto.
    - exfalso. unfold tv, eval_lit, decide_top in *. simpl in Hy1. rewrite !upd_neq in Hy1 by auto. congruence. }
  constructor; auto. cbn [s_db s_trail s_th]. constructor.
  - apply TI_decide; auto.
  - auto.
  - rewrite H3, Hdl. intros E. inversion E. lia.
  - right. destruct H4 as [W1 W2 W3]. split; auto. intros r Hr. specialize (W2 r Hr).
    assert (G : forall r rest u v, (tv t u = Some false -> wlit_ok t [] fl [] r rest u v) ->
      tv (decide_top t i x) u = Some false -> lev (decide_top t i x) u = Some (dl (decide_top t i x)) \/
      (tv (decide_top t i x) v = Some true /\ exists k k', lev (decide_top t i x) u = Some k /\
         lev (decide_top t i x) v = Some k' /\ k' <= k)).
    { intros r' rest u v Huv Hu. destruct (tv t u) as [bu|] eqn:Eu.
      - assert (bu = false) by (apply Htv in Eu; congruence). subst bu.
        destruct (Huv eq_refl) as [[]|[[_ []]|[(K1 & k & k' & K2 & K3 & K4)|(_ & _ & [[_ []]|[_ []]])]]].
        right. split; auto. exists k, k'. auto.
      - left. eapply Hnew; eauto. }
    destruct (getc (s_db s) r) as [|u [|v rest]] eqn:Hc; auto.
    + simpl in W2. destruct W2 as [[W2 W2']|(_ & [[_ []]|[[_ []]|[_ []]]])]. split; [apply Htv|apply Hlv]; auto.
    + destruct W2 as [Wa Wb]. split; eapply G; eauto.
Qed.

(** *** backjump *)
Lemma backjump_SI cs0 s c h' :
  forall (conf : clause), MidI cs0 s (Some conf) -> 1 <= dl (s_trail s) -> learnable n (s_db s) (s_trail s) c ->
  HInv h' (s_trail s) ->
  let d1 := add_learned (s_db s) c in
  let b1 := mkB (learned_watches d1 (new_ref (s_db s)) (b_watched (s_th s)) c)
              (b_phase (s_th s)) (b_opt (s_th s)) (b_level (s_th s)) (b_next (s_th s)) in
  exists s', backtrack_with bool_theory he (mkS d1 (s_trail s) b1 h' (s_old s)) [new_ref (s_db s)]
               (Z.of_nat (assert_level (s_trail s) c)) = Ok s' /\ SI cs0 s' /\ s_db s' = d1.
Proof.
  intros conf [H1 H2 H3 (HW & _) H5 H6 H7 H8 H9] Hdl (L1 & L2 & L3 & L4) Hh d1 b1.
  set (t := s_trail s) in *. set (d := s_db s) in *. set (k := assert_level t c).
  pose proof L4 as Lsplit. destruct L4 as (l0 & rest & Ec & A1 & A2 & A3).
  assert (Hne : c <> []) by (rewrite Ec; discriminate).
  assert (Hvars : forall l, In l c -> lord l < n).
  { intros l Hl. pose proof (tv_in_flat _ _ _ H1 _ _ (L2 l Hl)) as I.
    destruct (ti_range _ _ _ H1 _ I) as (i & E & Hi). unfold lvar in E. inversion E; subst; auto. }
  assert (Hlt : k < dl t).
  { unfold k. rewrite Ec. unfold assert_level. destruct rest as [|l1 rest]; [lia|].
    destruct (A2 l1 (or_introl eq_refl)) as (j & J1 & J2). rewrite J1. auto. }
  assert (Hrest : forall x, In x rest -> exists j, lev t x = Some j /\ j <= k).
  { intros x Hx. destruct (A2 x Hx) as (j & J1 & J2). exists j. split; auto. unfold k. rewrite Ec.
    unfold assert_level. destruct rest as [|l1 rest]; [easy|].
    destruct (A2 l1 (or_introl eq_refl)) as (j1 & K1 & K2). rewrite K1.
    destruct Hx as [<-|Hx]; [congruence + (rewrite J1 in K1; inversion K1; lia)|].
    rewrite Ec in A3. inversion A3 as [|? ? S1 S2]; subst. inversion S1 as [|? ? S3 S4]; subst.
    rewrite Forall_forall in S4. specialize (S4 x Hx). unfold lev_ge, lvl_or, lit_level in S4.
    unfold lev in *. rewrite J1, K1 in S4. lia. }
  assert (HT1 : TI n d1 t) by (now apply TI_add).
  assert (HD1 : DBI n d1) by (now apply DBI_add).
  assert (HWC : WC d1 (b_watched b1)) by (apply WC_learn; auto; apply HW).
  destruct (backtrack_TI n d1 k (dl t - k) t HT1 ltac:(lia) eq_refl) as (B1 & B2 & B3 & B4 & B5 & B6 & B7).
  set (t1 := backtrack_loop (dl t - k) k t) in *.
  assert (V0 : valid d1 (new_ref d)) by (apply valid_add; auto).
  assert (G0 : getc d1 (new_ref d) = c) by apply getc_add_new.
  assert (Hu0 : mdef (t_bm t1) (lord l0) = false).
  { rewrite B7. unfold lev, lvar in A1. rewrite A1. simpl. destruct (Nat.leb_spec (dl t) k); auto; lia. }
  assert (Hun : tv t1 l0 = None) by (now apply eval_lit_none).
  assert (Hkeep : forall x b, tv t x = Some b -> (exists j, lev t x = Some j /\ j <= k) ->
            tv t1 x = Some b /\ lev t1 x = lev t x).
  { intros x b Hx (j & J1 & J2). split.
    - unfold tv in *. rewrite (eval_lit_some (t_bm t1)).
      + f_equal. change (mval (t_bm t1)) with (tval t1). rewrite B3. now apply tv_holds.
      + rewrite B7. unfold lev, lvar in J1. rewrite J1. simpl. now apply Nat.leb_le.
    - unfold lev in *. rewrite B5, J1. simpl. now rewrite (proj2 (Nat.leb_le j k) J2). }
  assert (Hback : forall x b, tv t1 x = Some b -> tv t x = Some b /\ exists j, lev t x = Some j /\ j <= k).
  { intros x b Hx. assert (Hm : mdef (t_bm t1) (lord x) = true).
    { destruct (mdef (t_bm t1) (lord x)) eqn:E; auto. apply eval_lit_none in E. unfold tv in Hx. congruence. }
    rewrite B7 in Hm. unfold lev, lvar. destruct (t_lvl t (VBool (lord x))) as [j|] eqn:Ej; [|discriminate].
    simpl in Hm. apply Nat.leb_le in Hm. split; [|exists j; auto].
    assert (I : In (lvar x) (map fst (flat t))) by (apply (dom_iff _ _ _ H1); unfold lvar; congruence).
    rewrite (in_flat_tv _ _ _ H1 _ I). rewrite <- B3. f_equal. apply tv_holds. auto. }
  assert (HTI2 : TI n d1 (assign_top t1 l0 (new_ref d))).
  { apply TI_assign; auto.
    - apply Hvars. rewrite Ec; simpl; auto.
    - rewrite G0, Ec. simpl; auto.
    - rewrite G0, Ec. intros x [<-|Hx]; auto. right. apply Hkeep; auto. apply L2. rewrite Ec; simpl; auto.
    - rewrite B2. intros Hk. rewrite G0, Ec. destruct rest as [|l1 rest].
      + exfalso. unfold k in Hk. rewrite Ec in Hk. simpl in Hk. lia.
      + exists l1. split; [simpl; auto|]. split.
        * intros ->. rewrite Ec in L1. inversion L1 as [|? ? N1 N2]. apply N1. simpl; auto.
        * destruct (A2 l1 (or_introl eq_refl)) as (j & J1 & J2).
          assert (j = k) by (unfold k; rewrite Ec; simpl; rewrite J1; auto). subst j.
          rewrite <- J1. apply Hkeep with (b := false); [apply L2; rewrite Ec; simpl; auto|exists k; auto]. }
  set (t2 := assign_top t1 l0 (new_ref d)) in *.
  assert (Hdl2 : dl t2 = k) by (unfold t2; rewrite dl_assign; auto).
  eexists. split.
  { unfold backtrack_with. destruct (Z.ltb_spec (Z.of_nat k) 0); [lia|]. rewrite Nat2Z.id.
    cbn [s_db s_trail s_th s_he]. cbn [at_ nth_error value_of bind map_res].
    rewrite G0, (split_false t c (or_intror I) Lsplit). cbn [bind forallb negb andb assertb].
    unfold trail_backtrack. destruct (Nat.leb_spec k (dl t)); [|lia]. cbn [bind]. fold t1.
    rewrite (propagate_all_one d1 t1 k (new_ref d) l0 rest); auto; [|now rewrite G0]. cbn [bind]. reflexivity. }
  split; [|reflexivity].
  constructor; cbn [s_db s_trail s_th s_he s_old].
  - constructor; auto.
    + simpl. discriminate.
    + right. split; [exact HWC|].
      intros r Hr. apply valid_add in Hr. destruct Hr as [Hr| ->].
      * unfold d1. rewrite getc_add_old by auto. destruct HW as [_ HW]. specialize (HW r Hr).
        assert (G : forall u v, (forall j, tv t u = Some false -> lev t u = Some j -> j < dl t ->
               tv t v = Some true /\ exists k', lev t v = Some k' /\ k' <= j) ->
             tv t2 u = Some false -> lev t2 u = Some (dl t2) \/
             (tv t2 v = Some true /\ exists j j', lev t2 u = Some j /\ lev t2 v = Some j' /\ j' <= j)).
        { intros u v Huv Hu. destruct (Nat.eq_dec (lord u) (lord l0)) as [E|E].
          - left. unfold t2. rewrite lev_assign, dl_assign. rewrite E, Nat.eqb_refl. auto.
          - unfold t2 in Hu. rewrite tv_assign_neq in Hu by auto. apply Hback in Hu.
            destruct Hu as (Hu & j & J1 & J2). destruct (Huv j Hu J1 ltac:(lia)) as (V1 & j' & V2 & V3).
            right. destruct (Hkeep v true V1) as [K1 K2]; [exists j'; split; auto; lia|].
            destruct (Hkeep u false Hu) as [K3 K4]; [exists j; split; auto|].
            split; [apply tv_assign_some; auto|]. exists j, j'. repeat split; auto.
            + eapply lev_assign_some; eauto. congruence.
            + eapply lev_assign_some; eauto. congruence. }
        destruct (getc d r) as [|u [|v rs]] eqn:Hcr; auto.
        -- simpl in HW. destruct HW as [[HW1 HW2]|HW]; [|lia].
           destruct (Hkeep u true HW1) as [K1 K2]; [exists 0; split; auto; lia|].
           split; [apply tv_assign_some; auto|]. eapply lev_assign_some; eauto. congruence.
        -- destruct HW as [Wa Wb]. split; apply G; auto.
      * rewrite G0, Ec. destruct rest as [|l1 rest].
        -- split; [apply tv_assign_eq|]. unfold t2. rewrite lev_assign, Nat.eqb_refl, B2.
           unfold k. rewrite Ec. auto.
        -- split.
           ++ unfold t2. rewrite tv_assign_eq. discriminate.
           ++ intros _. left. change (lev t2 l1 = Some (dl t2)). rewrite Hdl2.
              destruct (A2 l1 (or_introl eq_refl)) as (j & J1 & J2).
              assert (j = k) by (unfold k; rewrite Ec; simpl; rewrite J1; auto). subst j.
              eapply lev_assign_some; eauto.
              destruct (Hkeep l1 false) as [K1 K2]; [apply L2; rewrite Ec; simpl; auto|exists k; auto|]. congruence.
  - exact H5.
  - intros x Hx. simpl in Hx. apply in_app_iff in Hx. destruct Hx as [Hx|[<-|[]]]; auto.
    intros a Ha. apply L3. eapply db_entailed; eauto.
  - intros x Hx. simpl in Hx. apply in_app_iff in Hx. destruct Hx as [Hx|[<-|[]]]; auto.
  - simpl. rewrite app_length. lia.
  - eapply (ok_more _ _ _ HO); [apply (ok_backtrack _ _ _ HO _ _ k t1); [eauto|unfold trail_backtrack; fold t; rewrite (proj2 (Nat.leb_le k (dl t))) by lia; reflexivity]| |reflexivity|reflexivity].
    fold t. fold t1. intros i Hi. unfold t2, assign_top. simpl. unfold upd. destruct (i =? lord l0); auto.
Qed.

(** *** restart *)
Lemma restart_SI cs0 d t b h old :
  DBI n d -> Forall2 (@Permutation lit) cs0 (asserted d) ->
  (forall c, In c (learned d) -> entails cs0 c) -> (forall c, In c (learned d) -> NoDup c) ->
  old <= length (learned d) -> HInv h t ->
  exists s' L', restart bool_theory he hash (mkS d t b h old) = Ok s' /\ SI cs0 s' /\
    s_db s' = mkDb (asserted d) L' /\
    (forall c, In c L' -> In c (learned d)) /\
    (forall c, In c (learned d) -> exists c', In c' L' /\ incl c' c) .
Proof.
  intros H1 H2 H3 H4 H5 H6.
  destruct (remove_subsumed_ok hash old (learned d) H5) as (L' & R1 & R2 & R3 & R4).
  exists (mkS (mkDb (asserted d) L') (trail_clear t)
           (bool_before_backtrack b t 0) (h_restart he (h_before_backtrack he h t 0)) (length L')).
  exists L'. split; [|split; [|split; [|split]]]; auto.
  - unfold restart. cbn [s_old s_db s_trail s_th s_he]. rewrite R1. reflexivity.
  - constructor; cbn [s_db s_trail s_th s_he s_old asserted learned]; auto.
    + constructor.
      * apply TI_clear.
      * intros r Hr. destruct r as [i|i].
        -- apply (H1 (CAsserted i)). exact Hr.
        -- simpl in Hr. simpl. assert (I : In (nth i L' []) L') by (now apply nth_In).
           split; [now apply R3|]. intros l Hl.
           assert (I2 : In (nth i L' []) (clauses_of d)) by (apply in_app_iff; right; eapply sub_in; eauto).
           apply in_getc in I2. destruct I2 as (r & V & E). destruct (H1 r V) as [_ K]. apply K. now rewrite E.
      * simpl. discriminate.
      * left. reflexivity.
    + intros c Hc. apply H3. eapply sub_in; eauto.
    + intros c Hc. apply H4. eapply sub_in; eauto.
    + now apply (ok_restart _ _ _ HO).
  - intros c Hc. eapply sub_in; eauto.
  - intros c Hc.
    assert (c <> []).
    { assert (I2 : In c (clauses_of d)) by (apply in_app_iff; auto).
      apply in_getc in I2. destruct I2 as (r & V & <-). apply H1; auto. }
    destruct (R4 c Hc H) as [K|(c' & K1 & K2 & _)]; [exists c; split; auto; apply incl_refl|eauto].
Qed.

(** *** after a conflict *)
Lemma on_conflict_ok cs0 s c :
  MidI cs0 s (Some c) -> 1 <= dl (s_trail s) ->
  exists s' c', on_conflict bool_theory he hash s [c] = Ok (Some s') /\ SI cs0 s' /\
    learnable n (s_db s) (s_trail s) c' /\
    asserted (s_db s') = asserted (s_db s) /\
    (forall x, In x (learned (s_db s')) -> In x (learned (s_db s)) \/ x = c') /\
    (forall x, In x (learned (s_db s)) \/ x = c' -> exists x', In x' (learned (s_db s')) /\ incl x' x).
Proof.
  intros HM Hdl. pose proof HM as [H1 H2 H3 (HW & r & R1 & R2 & R3 & R4) H5 H6 H7 H8 H9].
  destruct (analyze_conflicts_ok (s_db s) (s_trail s) (s_he s) c) as (c' & h' & A1 & A2 & A3); auto.
  { apply entails_in. rewrite R2. now apply getc_in. }
  unfold on_conflict. rewrite A1. cbn [bind].
  pose proof A2 as (L1 & L2 & L3 & L4).
  assert (E0 : existsb is_nil [c'] = false).
  { pose proof (asserting_ne _ _ L4). destruct c'; [congruence|reflexivity]. }
  rewrite E0. rewrite (learn_ok (s_db s) (s_trail s) (s_th s) h' c' L4). cbn [bind].
  assert (A4 : HInv (h_learned he h' (s_trail s) c') (s_trail s)) by (now apply (ok_learned _ _ _ HO)).
  destruct (h_should_restart he (h_learned he h' (s_trail s) c')).
  - edestruct (restart_SI cs0 (add_learned (s_db s) c') (s_trail s)) as (s' & L' & S1 & S2 & S3 & S4 & S5).
    + apply DBI_add; auto.
      * now apply asserting_ne in L4.
      * intros l Hl. pose proof (tv_in_flat _ _ _ H1 _ _ (L2 l Hl)) as I.
        destruct (ti_range _ _ _ H1 _ I) as (i & E & Hi). unfold lvar in E. inversion E; subst; auto.
    + exact H5.
    + intros x Hx. simpl in Hx. apply in_app_iff in Hx. destruct Hx as [Hx|[<-|[]]]; auto.
      intros a Ha. apply L3. eapply db_entailed; eauto.
    + intros x Hx. simpl in Hx. apply in_app_iff in Hx. destruct Hx as [Hx|[<-|[]]]; auto.
    + instantiate (1 := s_old s). simpl. rewrite app_length. lia.
    + exact A4.
    + rewrite S1. cbn [bind]. exists s', c'. split; auto. split; auto. split; auto.
      rewrite S3. simpl. split; auto. split.
      * intros x Hx. apply S4 in Hx. simpl in Hx. apply in_app_iff in Hx. destruct Hx as [Hx|[<-|[]]]; auto.
      * intros x Hx. apply S5. simpl. apply in_app_iff. simpl. destruct Hx; auto.
  - destruct (backjump_SI cs0 s c' _ c HM Hdl A2 A4) as (s' & S1 & S2 & S3).
    cbn [value_of bind]. rewrite S1. cbn [bind]. exists s', c'. split; auto. split; auto. split; auto.
    rewrite S3. simpl. split; auto. split.
    + intros x Hx. apply in_app_iff in Hx. destruct Hx as [Hx|[<-|[]]]; auto.
    + intros x Hx. exists x. split; [|apply incl_refl]. apply in_app_iff. simpl. destruct Hx; auto.
Qed.

(** *** the answers *)
Lemma sat_all_true cs0 s c :
  MidI cs0 s None -> (forall i, i < n -> mdef (t_bm (s_trail s)) i = true) ->
  In c cs0 -> clause_holds (tval (s_trail s)) c.
Proof.
  intros [H1 H2 H3 (fl & H4) H5 H6 H7 H8 H9] Hall Hc.
  assert (I : exists c', In c' (asserted (s_db s)) /\ Permutation c c').
  { clear -H5 Hc. induction H5 as [|x y L L' P F IH]; [easy|]. destruct Hc as [->|Hc]; [exists y; simpl; auto|].
    destruct (IH Hc) as (c' & K1 & K2). exists c'; simpl; auto. }
  destruct I as (c' & I & P). eapply clause_holds_perm; [apply Permutation_sym; eauto|].
  assert (I2 : In c' (clauses_of (s_db s))) by (apply in_app_iff; auto).
  apply in_getc in I2. destruct I2 as (r & V & <-). destruct H4 as [_ W2 _]. specialize (W2 r V).
  destruct (H2 r V) as [_ Hv].
  destruct (getc (s_db s) r) as [|u [|v rest]] eqn:Hcr; [destruct W2| |].
  - destruct W2 as [[W2 _]|(_ & [[_ []]|[[_ []]|[_ []]]])].
    exists u. split; [simpl; auto|now apply tv_holds].
  - destruct W2 as [Wa _].
    assert (D : tv (s_trail s) u = Some (lit_holds (tval (s_trail s)) u)).
    { apply eval_lit_some. apply Hall. apply Hv. simpl; auto. }
    destruct (lit_holds (tval (s_trail s)) u) eqn:Eu; [exists u; simpl; auto|].
    destruct (Wa D) as [[]|[[_ []]|[(K1 & _)|(_ & _ & [[_ []]|[_ []]])]]].
    exists v. split; [simpl; auto|now apply tv_holds].
Qed.

Definition answer_ok (cs0 : list clause) (s : solver (TS := bstate) (HS := HS)) (a : answer) : Prop :=
  match a with
  | Sat => (forall i, i < n -> mdef (t_bm (s_trail s)) i = true) /\ all_hold (tval (s_trail s)) cs0
  | Unsat => forall a, ~ all_hold a cs0
  end.

(** state at the end of an iteration *)
Definition post_step (cs0 : list clause) (q : solver (TS := bstate) (HS := HS) * option answer) : Prop :=
  let '(s', o) := q in
  match o with
  | None => SI cs0 s'
  | Some a => (exists oc, MidI cs0 s' oc \/ exists h, MidI cs0 (mkS (s_db s') (s_trail s') (s_th s') h (s_old s')) oc) /\
              answer_ok cs0 s' a
  end.

Lemma step_ok cs0 s fuel : SI cs0 s -> safe (step bool_theory he hash fuel s) (post_step cs0).
Proof.
  intros HS0. unfold step. eapply safe_bind; [apply (propagate_mid cs0 s fuel HS0)|].
  intros [[[b' d'] t'] cs] (o & -> & HM & Hdl & HP). destruct o as [c|].
  - destruct (Nat.eqb_spec (dl t') 0) as [E|E].
    + simpl. split; [exists (Some c); auto|].
      intros a Ha. destruct HM as [H1 H2 H3 (HW & r & R1 & R2 & R3 & R4) H5 H6 H7 H8 H9]. simpl in *.
      apply (level0_no_model n d' t' c a H1 E R3).
      * eapply db_entailed; eauto.
      * pose proof (db_entailed cs0 d' H5 H6 a Ha) as K. apply K. rewrite R2. now apply getc_in.
    + destruct (on_conflict_ok cs0 _ c HM) as (s' & c' & S1 & S2 & _); [simpl; lia|].
      cbn [s_db s_trail s_th s_he s_old] in *. rewrite S1. cbn [bind]. exact S2.
  - cbn [s_he]. pose proof (ok_pick _ _ _ HO (s_he s) d' t') as HP'.
    pose proof (mi_he _ _ _ HM) as Hh. simpl in Hh. specialize (HP' Hh).
    destruct (h_pick he (s_he s) d' t') as [h1 [v|]].
    + destruct HP' as (i & -> & Hi & Hd & Hx). cbn [th_decide bool_theory bind]. simpl.
      apply (decide_SI cs0 (mkS d' t' b' (s_he s) (s_old s)) h1 i); auto. apply Hx.
    + simpl. split; [exists None; right; exists (s_he s); exact HM|]. split; auto.
      intros c Hc. eapply (sat_all_true cs0 (mkS d' t' b' (s_he s) (s_old s))); eauto.
Qed.

Lemma run_ok cs0 : forall fuel s, SI cs0 s ->
  safe (run bool_theory he hash fuel s) (fun q => post_step cs0 (fst q, Some (snd q))).
Proof.
  induction fuel as [|fuel IH]; intros s HS0; [exact I|].
  cbn [run]. eapply safe_bind; [apply (step_ok cs0 s (S fuel) HS0)|].
  intros [s1 [a|]] HP; [exact HP|]. apply IH. exact HP.
Qed.

Lemma start_SI cs o h :
  legal n cs ->
  HInv h (trail_new n 0) -> SI cs (solver_start n cs o h).
Proof.
  intros Hcs Hh. constructor; simpl; auto; try easy.
  - constructor.
    + apply TI_new.
    + intros r Hr. destruct r as [i|i]; simpl in *; [|lia]. apply Hcs. now apply nth_In.
    + discriminate.
    + left. reflexivity.
  - apply Forall2_perm_refl.
Qed.
End Main.
