(** Invariants of the term table. *)
From Coq Require Import List Arith ZArith QArith Qcanon NArith Bool Lia.
From Verif Require Import Base Terms_Model Spec_Terms.
Import ListNotations.
Close Scope Qc_scope.
Close Scope Q_scope.
Open Scope nat_scope.

(** ** Decisions *)
Lemma t_eqb_eq : forall a b, t_eqb a b = true <-> a = b.
Proof.
  intros [i m] [j n]; unfold t_eqb; simpl. rewrite andb_true_iff, Nat.eqb_eq, eqb_true_iff.
  split; [intros [-> ->]; auto | intros H; inversion H; auto].
Qed.
Lemma t_eqb_neq : forall a b, t_eqb a b = false <-> a <> b.
Proof.
  intros a b. rewrite <- not_true_iff_false, t_eqb_eq. tauto.
Qed.
Lemma t_eqb_refl : forall a, t_eqb a a = true. Proof. intros; now apply t_eqb_eq. Qed.
Lemma ty_eqb_eq : forall a b, ty_eqb a b = true <-> a = b.
Proof. intros [] []; simpl; split; congruence. Qed.
Lemma k_eqb_eq : forall a b, k_eqb a b = true <-> a = b.
Proof. intros [] []; unfold k_eqb; simpl; split; congruence. Qed.
Lemma args_eqb_eq : forall a b, args_eqb a b = true <-> a = b.
Proof.
  induction a as [|x a IH]; intros [|y b]; simpl; try (split; congruence).
  rewrite andb_true_iff, t_eqb_eq, IH. split; [intros [-> ->]; auto | intros H; inversion H; auto].
Qed.
Lemma opp_opp : forall t, opp (opp t) = t.
Proof. intros [i m]; unfold opp; simpl; now rewrite negb_involutive. Qed.
Lemma opp_neq : forall t, opp t <> t.
Proof. intros [i []]; unfold opp; simpl; congruence. Qed.
Lemma tx_inj : forall a b, tx a = tx b -> a = b.
Proof. intros [i []] [j []]; unfold tx; simpl; intros; f_equal; lia. Qed.

(** ** Sharing *)
(** the request whose answer has content [n] *)
Definition node_req (n : node) : option request :=
  match n_kind n, n_desc n with
  | KUninterp, _ | KReserved, _ => None
  | KConst, DConst i => Some (RConst (n_type n) i)
  | KArithConst, DRat q => Some (RRat q)
  | k, DArgs a => Some (RComp k (n_type n) a)
  | _, _ => None
  end.
Definition req_ok (r : request) : Prop := op_ok (TGet r).

Lemma node_req_node : forall r, req_ok r -> node_req (req_node r) = Some r.
Proof.
  intros [k ty a|q|ty i] H; unfold node_req; simpl; auto.
  simpl in H. destruct k; simpl; try reflexivity; destruct H as (H1 & H2 & H3 & H4); congruence.
Qed.
Lemma req_node_inj : forall r r', req_ok r -> req_ok r' -> req_node r = req_node r' -> r = r'.
Proof.
  intros r r' H H' E. apply node_req_node in H, H'. rewrite E in H. congruence.
Qed.

Lemma key_equal_eq : forall T r e, key_equal T r e = true <-> node_of T e = req_node r.
Proof.
  intros T [k ty a|q|ty i] e; unfold key_equal; simpl; destruct (node_of T e) as [k' ty' d]; simpl;
    rewrite !andb_true_iff, k_eqb_eq, ty_eqb_eq; (split; [intros [[-> ->] Hd]|intros Hd; inversion Hd; subst]).
  - destruct d; try discriminate. apply args_eqb_eq in Hd. now subst.
  - repeat split; auto. now apply args_eqb_eq.
  - destruct d; try discriminate. destruct (Qc_eq_dec q0 q); [now subst | discriminate].
  - repeat split; auto. destruct (Qc_eq_dec q q); auto.
  - destruct d; try discriminate. apply Nat.eqb_eq in Hd. now subst.
  - repeat split; auto. now rewrite Nat.eqb_refl.
Qed.

(** the table before the primitive terms *)
Definition table0 : table := mkTab [reserved_node] [].

Record shares (H : hashes) (T : table) : Prop := {
  sh_known : forall h e, In (h, e) (tt_known T) -> tneg e = false /\ tix e < length (tt_nodes T);
  sh_uniq : forall i j n r, nth_error (tt_nodes T) i = Some n -> nth_error (tt_nodes T) j = Some n ->
      node_req n = Some r -> i = j;
  sh_all : forall i n r, nth_error (tt_nodes T) i = Some n -> node_req n = Some r ->
      In (req_hash H r, mkT i false) (tt_known T);
  sh_len : 0 < length (tt_nodes T) }.

Lemma shares0 : forall H, shares H table0.
Proof.
  intros H. split; simpl.
  - tauto.
  - intros i j n r E1 E2 E3; destruct i as [|[|i]], j as [|[|j]]; simpl in *; try discriminate; auto.
  - intros i n r E1 E2; destruct i as [|[|i]]; simpl in *; try discriminate. inversion E1; subst. discriminate.
  - lia.
Qed.

(** [T'] has the elements of [T], and perhaps more. *)
Definition ext (T T' : table) : Prop := exists l, tt_nodes T' = tt_nodes T ++ l.
Lemma ext_refl : forall T, ext T T. Proof. intros; exists []; now rewrite app_nil_r. Qed.
Lemma ext_trans : forall a b c, ext a b -> ext b c -> ext a c.
Proof. intros a b c [l E] [l' E']. exists (l ++ l'). now rewrite E', E, app_assoc. Qed.
Lemma ext_len : forall a b, ext a b -> length (tt_nodes a) <= length (tt_nodes b).
Proof. intros a b [l E]. rewrite E, app_length. lia. Qed.
Lemma ext_node : forall a b t, ext a b -> tix t < length (tt_nodes a) -> node_of b t = node_of a t.
Proof. intros a b t [l E] L. unfold node_of. rewrite E, app_nth1; auto. Qed.

Lemma node_of_some : forall T t, tix t < length (tt_nodes T) ->
  nth_error (tt_nodes T) (tix t) = Some (node_of T t).
Proof. intros. unfold node_of. now apply nth_error_nth'. Qed.

Lemma get_term_cases : forall H T r T' t, get_term H T r = (T', t) ->
  (T' = T /\ node_of T t = req_node r /\ exists h, In (h, t) (tt_known T)) \/
  (t = mkT (length (tt_nodes T)) false /\
   T' = mkTab (tt_nodes T ++ [req_node r]) ((req_hash H r, t) :: tt_known T) /\
   forall e, In (req_hash H r, e) (tt_known T) -> node_of T e <> req_node r).
Proof.
  intros H T r T' t E. unfold get_term in E.
  destruct (find _ _) as [[h e]|] eqn:F; inversion E; subst; clear E.
  - left. apply find_some in F. destruct F as [I F]. simpl in F. apply andb_prop in F.
    destruct F as [_ F]. apply key_equal_eq in F. simpl. eauto.
  - right. repeat split; auto. intros e I N. apply (find_none _ _ F) in I. simpl in I.
    rewrite N.eqb_refl in I. simpl in I. apply not_true_iff_false in I. apply I. now apply key_equal_eq.
Qed.

Lemma nth_error_snoc : forall {A} (l : list A) x i y, nth_error (l ++ [x]) i = Some y ->
  (i < length l /\ nth_error l i = Some y) \/ (i = length l /\ y = x).
Proof.
  intros A l x i y E. destruct (Nat.lt_ge_cases i (length l)).
  - left. rewrite nth_error_app1 in E; auto.
  - right. rewrite nth_error_app2 in E by lia. destruct (i - length l) as [|[|]] eqn:D; simpl in E; try discriminate.
    split; [lia | congruence].
Qed.

Lemma shares_get : forall H T r T' t, shares H T -> req_ok r -> get_term H T r = (T', t) ->
  shares H T' /\ ext T T' /\ tneg t = false /\ tix t < length (tt_nodes T') /\ node_of T' t = req_node r.
Proof.
  intros H T r T' t S0 R E. apply get_term_cases in E. destruct E as [(-> & N & h & I)|(-> & -> & F)].
  - pose proof (sh_known _ _ S0 _ _ I) as (A & B). auto using ext_refl.
  - simpl. split; [|split; [eexists; simpl; reflexivity|]].
    + destruct S0 as [K U A L]. split; simpl.
      * intros h e [X|I]; [inversion X; subst; simpl; rewrite app_length; simpl; split; [auto|lia]|].
        apply K in I. destruct I; split; auto. rewrite app_length; simpl; lia.
      * intros i j n q E1 E2 Q.
        assert (NEW : forall i0, nth_error (tt_nodes T) i0 = Some (req_node r) -> False).
        { intros i0 E. pose proof (A _ _ _ E (node_req_node _ R)) as I.
          apply (F _ I). unfold node_of; simpl. erewrite nth_error_nth; eauto. }
        apply nth_error_snoc in E1. apply nth_error_snoc in E2.
        destruct E1 as [[L1 E1]|[-> ->]], E2 as [[L2 E2]|[-> E2]]; subst; auto.
        -- eauto.
        -- exfalso; eauto.
        -- exfalso; eauto.
      * intros i n q E Q. apply nth_error_snoc in E. destruct E as [[L1 E]|[-> ->]].
        -- right; eauto.
        -- left. rewrite (node_req_node _ R) in Q. congruence.
      * rewrite app_length; simpl; lia.
    + unfold node_of; simpl. rewrite app_length; simpl. repeat split; try lia.
      rewrite app_nth2, Nat.sub_diag by lia. reflexivity.
Qed.

Lemma shares_new : forall H T ty T' t, shares H T -> new_uninterpreted T ty = (T', t) ->
  shares H T' /\ ext T T' /\ t = mkT (length (tt_nodes T)) false /\
  tix t < length (tt_nodes T') /\ node_of T' t = mkNode KUninterp ty DNone.
Proof.
  intros H T ty T' t [K U A L] E. inversion E; subst; clear E. simpl.
  split; [|split; [eexists; simpl; reflexivity|]].
  - split; simpl.
    + intros h e I. apply K in I. rewrite app_length; simpl. destruct I; split; [auto|lia].
    + intros i j n q E1 E2 Q. apply nth_error_snoc in E1. apply nth_error_snoc in E2.
      destruct E1 as [[L1 E1]|[-> ->]], E2 as [[L2 E2]|[-> E2]]; subst; auto; try discriminate. eauto.
    + intros i n q E Q. apply nth_error_snoc in E. destruct E as [[L1 E]|[-> ->]]; [eauto|discriminate].
    + rewrite app_length; simpl; lia.
  - unfold node_of; simpl. rewrite app_length; simpl. repeat split; try lia.
    rewrite app_nth2, Nat.sub_diag by lia. reflexivity.
Qed.

Lemma shares_do : forall H T o T' t, shares H T -> op_ok o -> t_do H T o = (T', t) ->
  shares H T' /\ ext T T' /\ tneg t = false /\ tix t < length (tt_nodes T') /\ node_of T' t = op_node o.
Proof.
  intros H T [r|ty] T' t S0 O E; simpl in E.
  - eapply shares_get; eauto.
  - eapply shares_new in E; eauto. destruct E as (A & B & -> & C & D). auto.
Qed.

Lemma table_new_eq : forall H, exists T1,
  get_term H table0 (RConst TBool 0) = (T1, true_term) /\
  get_term H T1 (RRat 0) = (table_new H, zero_term).
Proof.
  intros H. exists (mkTab [reserved_node; mkNode KConst TBool (DConst 0)] [(h_int H KConst TBool 0, true_term)]).
  split; [reflexivity|].
  unfold table_new, get_term; simpl.
  destruct (h_int H KConst TBool 0 =? h_rat H 0)%N; reflexivity.
Qed.

Lemma shares_table_new : forall H, shares H (table_new H) /\
  tt_nodes (table_new H) = [reserved_node; mkNode KConst TBool (DConst 0); mkNode KArithConst TReal (DRat 0)].
Proof.
  intros H. destruct (table_new_eq H) as (T1 & E1 & E2).
  pose proof (shares_get _ _ (RConst TBool 0) _ _ (shares0 H) I E1) as (S1 & _).
  pose proof (shares_get _ _ (RRat 0) _ _ S1 I E2) as (S2 & _). split; auto.
  unfold table_new, get_term; simpl. destruct (h_int H KConst TBool 0 =? h_rat H 0)%N; reflexivity.
Qed.

Lemma shares_same : forall H T t r, shares H T -> req_ok r -> tneg t = false -> tix t < length (tt_nodes T) ->
  node_of T t = req_node r -> get_term H T r = (T, t).
Proof.
  intros H T t r S0 R N L E. destruct (get_term H T r) as [T' t'] eqn:G.
  pose proof (node_of_some _ _ L) as X. rewrite E in X.
  apply get_term_cases in G. destruct G as [(-> & N' & h & I)|(-> & -> & F)].
  - pose proof (sh_known _ _ S0 _ _ I) as (A & B).
    pose proof (node_of_some _ _ B) as X'. rewrite N' in X'.
    pose proof (sh_uniq _ _ S0 _ _ _ _ X X' (node_req_node _ R)) as EQ.
    destruct t, t'; simpl in *; subst; auto.
  - exfalso. pose proof (sh_all _ _ S0 _ _ _ X (node_req_node _ R)) as I. apply (F _ I).
    rewrite <- E. destruct t; simpl in *; subst. reflexivity.
Qed.

(** ** Histories *)
Lemma history_app : forall H h1 h2 T, t_history H T (h1 ++ h2) =
  let (T1, ts1) := t_history H T h1 in let (T2, ts2) := t_history H T1 h2 in (T2, ts1 ++ ts2).
Proof.
  induction h1 as [|o h1 IH]; intros h2 T; simpl.
  - destruct (t_history H T h2); reflexivity.
  - destruct (t_do H T o) as [T1 t]. rewrite IH. destruct (t_history H T1 h1) as [T2 ts].
    destruct (t_history H T2 h2); reflexivity.
Qed.
Lemma history_ok : forall H h T T' ts, shares H T -> Forall op_ok h -> t_history H T h = (T', ts) ->
  shares H T' /\ ext T T' /\
  Forall2 (fun o t => node_of T' t = op_node o /\ tneg t = false /\ tix t < length (tt_nodes T')) h ts.
Proof.
  induction h as [|o h IH]; intros T T' ts S0 O E; simpl in E.
  - inversion E; subst. auto using ext_refl.
  - destruct (t_do H T o) as [T1 t] eqn:D. destruct (t_history H T1 h) as [T2 ts2] eqn:R.
    inversion E; subst. inversion O; subst.
    pose proof (shares_do _ _ _ _ _ S0 H2 D) as (S1 & X1 & N1 & L1 & C1).
    specialize (IH _ _ _ S1 H3 R). destruct IH as (S2 & X2 & F). split; [|split]; eauto using ext_trans.
    constructor; auto. rewrite (ext_node _ _ _ X2 L1). pose proof (ext_len _ _ X2). repeat split; auto; lia.
Qed.

(** every TNew in a history returns a handle past the table it started from *)
Lemma history_news : forall H h T T' ts, shares H T -> Forall op_ok h -> t_history H T h = (T', ts) ->
  forall i ty t, nth_error h i = Some (TNew ty) -> nth_error ts i = Some t -> length (tt_nodes T) <= tix t.
Proof.
  induction h as [|o h IH]; intros T T' ts S0 O E i ty t Hi Ht; simpl in E.
  - destruct i; discriminate.
  - destruct (t_do H T o) as [T1 t1] eqn:D. destruct (t_history H T1 h) as [T2 ts2] eqn:R.
    inversion E; subst. inversion O; subst.
    pose proof (shares_do _ _ _ _ _ S0 H2 D) as (S1 & X1 & _).
    destruct i as [|i]; simpl in *.
    + inversion Hi; inversion Ht; subst. simpl in D. inversion D; subst. simpl. lia.
    + pose proof (ext_len _ _ X1). specialize (IH _ _ _ S1 H3 R _ _ _ Hi Ht). lia.
Qed.
Lemma history_bound : forall H h T T' ts, shares H T -> Forall op_ok h -> t_history H T h = (T', ts) ->
  forall t, In t ts -> tix t < length (tt_nodes T').
Proof.
  intros H h T T' ts S0 O E t I. pose proof (history_ok _ _ _ _ _ S0 O E) as (_ & _ & F).
  clear E. induction F; simpl in I; [tauto|]. destruct I as [->|I]; [intuition|].
  apply IHF; auto. inversion O; auto.
Qed.

Lemma nth_split_ts : forall H h T T' ts i o t, t_history H T h = (T', ts) ->
  nth_error h i = Some o -> nth_error ts i = Some t ->
  exists h1 h2 T1 T2 ts1 ts2, h = h1 ++ o :: h2 /\ length h1 = i /\ t_history H T h1 = (T1, ts1) /\
    t_do H T1 o = (T2, t) /\ t_history H T2 h2 = (T', ts2) /\ ts = ts1 ++ t :: ts2 /\ length ts1 = i.
Proof.
  induction h as [|o' h IH]; intros T T' ts i o t E Hi Ht; simpl in E.
  - destruct i; discriminate.
  - destruct (t_do H T o') as [T1 t1] eqn:D. destruct (t_history H T1 h) as [T2 ts2] eqn:R.
    inversion E; subst. destruct i as [|i]; simpl in *.
    + inversion Hi; inversion Ht; subst. exists [], h, T, T1, [], ts2. repeat split; auto.
    + destruct (IH _ _ _ _ _ _ R Hi Ht) as (h1 & h2 & Ta & Tb & tsa & tsb & -> & L & A & B & C & -> & L').
      exists (o' :: h1), h2, Ta, Tb, (t1 :: tsa), tsb. simpl. rewrite D, A. repeat split; auto.
Qed.

Lemma history_eq : forall H h T T' ts, shares H T -> Forall op_ok h -> t_history H T h = (T', ts) ->
  forall i j oi oj ti tj, i < j -> nth_error h i = Some oi -> nth_error h j = Some oj ->
    nth_error ts i = Some ti -> nth_error ts j = Some tj ->
    (ti = tj <-> oi = oj /\ exists r, oi = TGet r).
Proof.
  intros H h T T' ts S0 O E i j oi oj ti tj L Hi Hj Ti Tj.
  destruct (nth_split_ts _ _ _ _ _ _ _ _ E Hj Tj) as (h1 & h2 & T1 & T2 & ts1 & ts2 & -> & L1 & A & B & C & -> & L2).
  rewrite nth_error_app1 in Hi, Ti by lia.
  apply Forall_app in O. destruct O as [O1 O2]. inversion O2 as [|? ? O3 O4]; subst.
  pose proof (history_ok _ _ _ _ _ S0 O1 A) as (S1 & X1 & F1).
  assert (Fi : node_of T1 ti = op_node oi /\ tneg ti = false /\ tix ti < length (tt_nodes T1)).
  { clear - F1 Hi Ti. revert i Hi Ti. induction F1; intros [|i] Hi Ti; simpl in *; try discriminate; eauto.
    inversion Hi; inversion Ti; subst; auto. }
  destruct Fi as (N & P & LL).
  assert (Oi : op_ok oi). { eapply Forall_forall; [exact O1|]. eapply nth_error_In; eauto. }
  pose proof (shares_do _ _ _ _ _ S1 O3 B) as (S2 & X2 & N2 & LL2 & C2).
  split.
  - intros ->. rewrite (ext_node _ _ _ X2 LL) in C2. rewrite N in C2.
    destruct oi as [r|ty], oj as [r'|ty']; simpl in *.
    + apply req_node_inj in C2; auto. subst; eauto.
    + exfalso. destruct r; inversion C2.
    + exfalso. destruct r'; inversion C2.
    + inversion B; subst. simpl in LL. lia.
  - intros [-> [r ->]]. simpl in *. rewrite (shares_same _ _ _ _ S1 Oi P LL N) in B. congruence.
Qed.
