(** Bool_theory::propagate. *)
From Coq Require Import List Arith ZArith Bool Lia Permutation.
From Verif Require Import Base Core_Model Literal_Proofs Bool_Model Sat_Base Sat_Inv Sat_Bcp Sat_Trail Sat_Bcp2.
Import ListNotations.
Open Scope nat_scope.

(** state of a clause between two calls of propagate *)
Definition clause_pre (t : trail) (c : clause) : Prop :=
  match c with
  | [] => False
  | [u] => tv t u = Some true /\ lev t u = Some 0
  | x :: y :: _ =>
      (tv t x = Some false -> lev t x = Some (dl t) \/
         (tv t y = Some true /\ exists k k', lev t x = Some k /\ lev t y = Some k' /\ k' <= k)) /\
      (tv t y = Some false -> lev t y = Some (dl t) \/
         (tv t x = Some true /\ exists k k', lev t y = Some k /\ lev t x = Some k' /\ k' <= k))
  end.

Record BI (n : nat) (d : db) (t : trail) (b : bstate) : Prop := mkBI {
  bi_ti : TI n d t;
  bi_db : DBI n d;
  bi_level : b_level b <> Some (dl t);
  bi_watch : trail_empty t = true \/
             (WC d (b_watched b) /\ forall r, valid d r -> clause_pre t (getc d r)) }.

(** ** rebuilding the watch lists *)
Lemma new_watch_fst d r : fst (new_watch d r) = r.
Proof. reflexivity. Qed.
Lemma new_watch_idx d r : valid d r -> watch_idx_ok d (new_watch d r).
Proof. intros H. split; auto. unfold new_watch. cbn [fst snd]. intros L. destruct (Nat.min_spec 2 (length (getc d r) - 1)) as [[? ->]|[? ->]]; lia. Qed.

Lemma wm_push_count w l p r x :
  count_watch r (wm_push w l p x) = count_watch r (w x) + (if lit_eqb l x then (if cref_eq_dec (fst p) r then 1 else 0) else 0).
Proof.
  unfold wm_push. destruct (lit_eq_dec x l) as [-> |E].
  - rewrite wm_set_eq, lit_eqb_refl, count_watch_app.
    destruct p as [r' i]. unfold count_watch; simpl. destruct (cref_eq_dec r' r); auto.
  - rewrite wm_set_neq by auto. rewrite (proj2 (lit_eqb_neq l x)) by auto. lia.
Qed.
Lemma wm_push_in w l p x q : In q (wm_push w l p x) -> In q (w x) \/ q = p.
Proof.
  unfold wm_push. destruct (lit_eq_dec x l) as [-> |E].
  - rewrite wm_set_eq, in_app_iff. simpl. intuition.
  - rewrite wm_set_neq by auto. auto.
Qed.

Lemma init_clauses_ok d : forall rs w s,
  (forall r, In r rs -> valid d r /\ getc d r <> []) -> NoDup rs ->
  exists w' s', init_clauses d rs (w, s) = Ok (w', s') /\
    (forall r l, In r rs -> count_watch r (w' l) = count_watch r (w l) + expected (getc d r) l) /\
    (forall r l, ~ In r rs -> count_watch r (w' l) = count_watch r (w l)) /\
    (forall l p, In p (w' l) -> In p (w l) \/ watch_idx_ok d p) /\
    (forall e, In e s' -> In e s \/ exists u r, e = (u, Some r) /\ In r rs /\ getc d r = [u]) /\
    (forall e, In e s -> In e s') /\
    (forall r u, In r rs -> getc d r = [u] -> In (u, Some r) s').
Proof.
  induction rs as [|r rs IH]; intros w s Hv Hnd.
  - exists w, s. simpl. repeat split; auto; try easy.
  - inversion Hnd as [|? ? N1 N2]; subst.
    destruct (Hv r (or_introl eq_refl)) as [V1 V2].
    assert (E : exists w1 s1, init_clause d (w, s) r = Ok (w1, s1) /\
      (forall l, count_watch r (w1 l) = count_watch r (w l) + expected (getc d r) l) /\
      (forall r' l, r' <> r -> count_watch r' (w1 l) = count_watch r' (w l)) /\
      (forall l p, In p (w1 l) -> In p (w l) \/ watch_idx_ok d p) /\
      (forall e, In e s1 -> In e s \/ exists u, e = (u, Some r) /\ getc d r = [u]) /\
      (forall e, In e s -> In e s1) /\ (forall u, getc d r = [u] -> In (u, Some r) s1)).
    { unfold init_clause. pose proof (new_watch_idx d r V1) as NI.
      destruct (getc d r) as [|x [|y rest]] eqn:Hc; [congruence| |].
      - do 2 eexists. split; [reflexivity|]. repeat split.
        + intros l. rewrite wm_push_count, new_watch_fst. destruct (cref_eq_dec r r); [|congruence].
          simpl. unfold b2n. destruct (lit_eqb x l); auto.
        + intros r' l Hn. rewrite wm_push_count, new_watch_fst. destruct (cref_eq_dec r r'); [congruence|].
          destruct (lit_eqb x l); auto.
        + intros l p Hp. apply wm_push_in in Hp. destruct Hp as [Hp|Hp]; [auto|rewrite Hp; auto].
        + intros e [<-|He]; eauto.
        + simpl; auto.
        + intros u Hu. inversion Hu; subst. simpl; auto.
      - do 2 eexists. split; [reflexivity|]. repeat split; auto.
        + intros l. rewrite !wm_push_count, new_watch_fst. destruct (cref_eq_dec r r); [|congruence].
          simpl. unfold b2n. destruct (lit_eqb x l), (lit_eqb y l); lia.
        + intros r' l Hn. rewrite !wm_push_count, new_watch_fst. destruct (cref_eq_dec r r'); [congruence|].
          destruct (lit_eqb x l), (lit_eqb y l); lia.
        + intros l p Hp. apply wm_push_in in Hp. destruct Hp as [Hp|Hp]; [|rewrite Hp; auto].
          apply wm_push_in in Hp. destruct Hp as [Hp|Hp]; [auto|rewrite Hp; auto].
        + intros u Hu. discriminate. }
    destruct E as (w1 & s1 & E0 & E1 & E2 & E3 & E4 & E5 & E6).
    destruct (IH w1 s1) as (w' & s' & I0 & I1 & I2 & I3 & I4 & I5 & I6); auto.
    { intros r' Hr'. apply Hv. now right. }
    exists w', s'. cbn [init_clauses]. rewrite E0. cbn [bind]. split; auto. repeat split.
    + intros r' l [<-|Hr'].
      * rewrite I2 by auto. auto.
      * rewrite I1 by auto. rewrite E2; auto. intros ->. auto.
    + intros r' l Hn. rewrite I2 by (intros K; apply Hn; now right). apply E2. intros ->. apply Hn. now left.
    + intros l p Hp. apply I3 in Hp. destruct Hp; auto.
    + intros e He. apply I4 in He. destruct He as [He|(u & r' & A & B & C)].
      * apply E4 in He. destruct He as [He|(u & A & B)]; auto. right. exists u, r. simpl; auto.
      * right. exists u, r'. simpl; auto.
    + auto.
    + intros r' u [<-|Hr'] Hu; auto.
Qed.

Lemma all_refs_valid d r : In r (all_refs d) <-> valid d r.
Proof.
  unfold all_refs. rewrite in_app_iff, !in_map_iff. split.
  - intros [(i & <- & H)|(i & <- & H)]; apply in_seq in H; simpl; lia.
  - destruct r as [i|i]; simpl; intros H; [left|right]; exists i; split; auto; apply in_seq; lia.
Qed.
Lemma all_refs_nodup d : NoDup (all_refs d).
Proof.
  unfold all_refs. assert (N1 : NoDup (map CAsserted (seq 0 (length (asserted d))))).
  { apply FinFun.Injective_map_NoDup; [intros x y H; now inversion H|apply seq_NoDup]. }
  assert (N2 : NoDup (map CLearned (seq 0 (length (learned d))))).
  { apply FinFun.Injective_map_NoDup; [intros x y H; now inversion H|apply seq_NoDup]. }
  induction (seq 0 (length (asserted d))) as [|a l IH]; simpl; auto.
  inversion N1; subst. constructor; auto. rewrite in_app_iff. intros [K|K]; auto.
  apply in_map_iff in K. destruct K as (? & K & _). discriminate.
Qed.

(** ** the stack of already assigned literals *)
Lemma push_assigned_in m e : forall es s,
  In e (push_assigned m es s) <->
  In e s \/ exists v r, In (VBool v, r) es /\ e = (true_lit m v, r).
Proof.
  induction es as [|[v r] es IH]; intros s; simpl.
  - split; auto. intros [H|(v & r & [] & _)]; auto.
  - destruct v as [v|v]; rewrite IH; simpl.
    + split.
      * intros [[K|K]|(v' & r' & K1 & K2)]; [right; exists v, r; auto|auto|right; exists v', r'; auto].
      * intros [K|(v' & r' & [K1|K1] & K2)]; [auto| |right; exists v', r'; auto].
        inversion K1; subst. auto.
    + split.
      * intros [K|(v' & r' & K1 & K2)]; [auto|right; exists v', r'; auto].
      * intros [K|(v' & r' & [K1|K1] & K2)]; [auto|inversion K1|right; exists v', r'; auto].
Qed.

Lemma recent_flat n d t e : TI n d t -> In e (recent t) -> In e (flat t).
Proof.
  intros HT. unfold recent, flat. destruct (t_levels t); simpl; [easy|]. intros; apply in_app_iff; auto.
Qed.

Lemma flat_reason n d t i r :
  TI n d t -> In (VBool i, Some r) (flat t) ->
  valid d r /\ In (tlit (tval t) i) (getc d r) /\
  forall x, In x (getc d r) -> x = tlit (tval t) i \/ tv t x = Some false.
Proof.
  intros HT H. pose proof (ti_flat _ _ _ HT) as F.
  apply in_split in H. destruct H as (e1 & e2 & E). rewrite E in F. apply flat_ok_mid in F.
  destruct F as (j & Ej & F1 & F2 & F3). inversion Ej; subst j. repeat split; auto.
  intros x Hx. destruct (F3 x Hx) as [?|[A B]]; auto. right.
  rewrite <- B. apply (in_flat_tv _ _ _ HT). rewrite E, map_app, in_app_iff. simpl; auto.
Qed.

Lemma tv_tlit n d t i r : TI n d t -> In (VBool i, r) (flat t) -> tv t (tlit (tval t) i) = Some true.
Proof.
  intros HT H.
  assert (I : In (lvar (tlit (tval t) i)) (map fst (flat t))) by (apply in_map_iff; exists (VBool i, r); auto).
  rewrite (in_flat_tv _ _ _ HT _ I). f_equal. unfold lit_holds, tlit; simpl. destruct (tval t i); auto.
Qed.

Lemma true_lit_of t x : tv t x = Some true -> tlit (tval t) (lord x) = x.
Proof.
  intros H. apply (tv_holds t) in H. unfold tlit, lit_holds in *. destruct x as [i b]; simpl in *.
  destruct b; simpl in *.
  - destruct (tval t i); auto; discriminate.
  - rewrite H. auto.
Qed.

Lemma stack_top_in n d t x b :
  TI n d t -> tv t x = Some b -> lev t x = Some (dl t) ->
  exists r, In (VBool (lord x), r) (recent t).
Proof.
  intros HT Hx Hl. apply (lev_dl_recent _ _ _ HT) in Hl. apply in_map_iff in Hl.
  destruct Hl as ([v r] & E & H). simpl in E. subst v. exists r. exact H.
Qed.

Lemma initialize_ok n d t b :
  BI n d t b ->
  exists w s, bool_initialize b d t =
      Ok (mkB w (b_phase b) (b_opt b) (Some (dl t)) (length (recent t)), s) /\
    WI d t w s (mkLit 0 false) [].
Proof.
  intros [HT HD Hlv Hw].
  assert (HTA : theory_assigned (b_level b) (b_next b) t = (rev (recent t), Some (dl t), length (recent t))).
  { unfold theory_assigned. destruct (b_level b) as [k|]; auto.
    destruct (Nat.eqb_spec (dl t) k); [congruence|]. auto. }
  unfold bool_initialize. rewrite HTA.
  destruct (trail_empty t) eqn:Em.
  - assert (EL : t_levels t = [[]]).
    { unfold trail_empty in Em. destruct (t_levels t) as [|[|] [|]]; congruence. }
    assert (Und : forall x, tv t x = None).
    { intros x. destruct (tv t x) eqn:E; auto. apply (tv_in_flat _ _ _ HT) in E.
      unfold flat in E. rewrite EL in E. destruct E. }
    assert (Hdl : dl t = 0) by (unfold dl; rewrite EL; auto).
    assert (Hrec : recent t = []) by (unfold recent; rewrite EL; auto).
    destruct (init_clauses_ok d (all_refs d) (fun _ => []) []) as (w & s & I0 & I1 & I2 & I3 & I4 & I5 & I6).
    { intros r Hr. apply all_refs_valid in Hr. split; auto. apply HD; auto. }
    { apply all_refs_nodup. }
    unfold watch_map, sat_stack in *. rewrite I0. cbn [bind]. rewrite Hrec. simpl. exists w, s. split; auto.
    constructor.
    + split.
      * intros r l Hr. rewrite I1 by (now apply all_refs_valid). reflexivity.
      * intros l p Hp. apply I3 in Hp. destruct Hp as [[]|Hp]; auto.
    + intros r Hr. pose proof (proj1 (HD r Hr)) as Hne.
      destruct (getc d r) as [|x [|y rest]] eqn:Hc; [congruence| |].
      * simpl. right. split; auto. left. split; auto. apply I6; auto. now apply all_refs_valid.
      * simpl. rewrite !Und. split; discriminate.
    + intros e He. apply I4 in He. destruct He as [[]|(u & r & -> & Hr & Hc)].
      unfold stack_ok. right; left. exists r. repeat split; auto.
      * now apply all_refs_valid.
      * rewrite Hc. exists []. split; auto. intros x [].
      * lia.
  - destruct Hw as [Hw|[W1 W2]]; [congruence|]. cbn [bind]. do 2 eexists. split; [reflexivity|].
    assert (HS : forall e, In e (push_assigned (t_bm t) (rev (recent t)) []) <->
                 exists v r, In (VBool v, r) (recent t) /\ e = (tlit (tval t) v, r)).
    { intros e. rewrite push_assigned_in. simpl. split.
      - intros [[]|(v & r & K1 & K2)]. exists v, r. split; auto. now apply in_rev.
      - intros (v & r & K1 & K2). right. exists v, r. split; auto. now apply in_rev in K1. }
    constructor; auto.
    + intros r Hr. specialize (W2 r Hr). destruct (getc d r) as [|x [|y rest]]; auto.
      * left; auto.
      * assert (G : forall a b, tv t a = Some false -> (lev t a = Some (dl t) \/
           (tv t b = Some true /\ exists k k', lev t a = Some k /\ lev t b = Some k' /\ k' <= k)) ->
           wlit_ok t (push_assigned (t_bm t) (rev (recent t)) []) (mkLit 0 false) [] r rest a b).
        { intros a c Ha [K|K]; [left|right; right; left; auto].
          destruct (stack_top_in _ _ _ _ _ HT Ha K) as (ra & Hra).
          apply in_map_iff. exists (tlit (tval t) (lord a), ra). split.
          - simpl. change (lord a) with (lord (neg a)). apply true_lit_of. now apply eval_lit_neg_true.
          - apply HS. exists (lord a), ra; auto. }
        destruct W2 as [W2 W2']. split; intros; apply G; auto.
    + intros [l ro] He. apply HS in He. destruct He as (v & r & K1 & K2). inversion K2; subst l ro.
      pose proof (recent_flat _ _ _ _ HT K1) as KF.
      left. split; [eapply tv_tlit; eauto|]. split.
      * apply (lev_dl_recent _ _ _ HT). apply in_map_iff. exists (VBool v, r); auto.
      * destruct r; auto. apply (flat_reason _ _ _ _ _ HT) in KF. tauto.
Qed.

Definition prop_post (n : nat) (d : db) (t : trail) (b : bstate)
  (q : bstate * db * trail * list clause) : Prop :=
  let '(b', d', t', cs) := q in
  exists o, cs = match o with Some c => [c] | None => [] end /\
  b_level b' = Some (dl t') /\ b_phase b' = b_phase b /\ b_opt b' = b_opt b /\
  bcp_post n d t (t', d', b_watched b', o).

Lemma propagate_ok n d t b fuel :
  BI n d t b -> safe (bool_propagate fuel b d t) (prop_post n d t b).
Proof.
  intros HB. destruct (initialize_ok n d t b HB) as (w & s & I1 & I2). destruct HB as [HT HD _ _].
  unfold bool_propagate. rewrite I1. cbn [bind b_watched].
  eapply safe_bind. eapply bcp_ok; eauto.
  intros [[[t' d'] w'] o] P. simpl. exists o. repeat split; auto; try apply P.
  f_equal. symmetry. apply P.
Qed.

Lemma propagate_terminates n d t b :
  BI n d t b -> exists k, forall fuel, k <= fuel -> bool_propagate fuel b d t <> Fuel.
Proof.
  intros HB. destruct (initialize_ok n d t b HB) as (w & s & I1 & I2). destruct HB as [HT HD _ _].
  destruct (bcp_terminates n d t w s _ HT HD I2) as (k & Hk). exists k. intros fuel Hf.
  unfold bool_propagate. rewrite I1. cbn [bind b_watched]. specialize (Hk fuel Hf).
  destruct (bcp_loop fuel t d w s) as [[[[? ?] ?] ?]| |]; simpl; congruence.
Qed.
