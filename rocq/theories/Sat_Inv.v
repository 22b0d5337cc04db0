(** Invariants of the propositional solver: trail, database, watch lists. *)
From Coq Require Import List Arith ZArith Bool Lia Permutation.
From Verif Require Import Base Core_Model Literal_Proofs Bool_Model Sat_Base.
Import ListNotations.
Open Scope nat_scope.

Definition tv (t : trail) (l : lit) : option bool := eval_lit (t_bm t) l.
Definition lev (t : trail) (l : lit) : option nat := t_lvl t (lvar l).
Definition tval (t : trail) : nat -> bool := mval (t_bm t).
Definition flat (t : trail) : list entry := concat (t_levels t).
(** the literal of variable [i] that is true under [val] *)
Definition tlit (val : nat -> bool) (i : nat) : lit := mkLit i (negb (val i)).

(** The clause [r] implies the literal of [v] from the elements [post]. *)
Definition reason_ok (d : db) (val : nat -> bool) (v : var) (r : cref) (post : list entry) : Prop :=
  exists i, v = VBool i /\ valid d r /\ In (tlit val i) (getc d r) /\
    forall l, In l (getc d r) ->
      l = tlit val i \/ (In (lvar l) (map fst post) /\ lit_holds val l = false).

Fixpoint flat_ok (d : db) (val : nat -> bool) (es : list entry) : Prop :=
  match es with
  | [] => True
  | (v, ro) :: post =>
      ~ In v (map fst post) /\
      (match ro with None => True | Some r => reason_ok d val v r post end) /\
      flat_ok d val post
  end.

Definition has_reason (e : entry) : Prop := snd e <> None.

Definition level_ok (d : db) (val : nat -> bool) (lvl : var -> option nat) (es : list entry) (k : nat)
  : Prop :=
  (forall v, In v (map fst es) -> lvl v = Some k) /\
  (match k with
   | 0 => forall e, In e es -> has_reason e
   | S _ => exists es' v, es = es' ++ [(v, None)] /\ forall e, In e es' -> has_reason e
   end) /\
  (1 <= k -> forall i r, In (VBool i, Some r) es ->
     exists l, In l (getc d r) /\ l <> tlit val i /\ lvl (lvar l) = Some k).

Fixpoint levels_ok (d : db) (val : nat -> bool) (lvl : var -> option nat) (ls : list (list entry))
  : Prop :=
  match ls with
  | [] => True
  | es :: post => level_ok d val lvl es (length post) /\ levels_ok d val lvl post
  end.

Record TI (n : nat) (d : db) (t : trail) : Prop := mkTI {
  ti_ne : t_levels t <> [];
  ti_flat : flat_ok d (tval t) (flat t);
  ti_range : forall v, In v (map fst (flat t)) -> exists i, v = VBool i /\ i < n;
  ti_lev : levels_ok d (tval t) (t_lvl t) (t_levels t);
  ti_dom : forall v, t_lvl t v <> None -> In v (map fst (flat t));
  ti_def : forall i, mdef (t_bm t) i = true <-> In (VBool i) (map fst (flat t));
  ti_rsn : forall v r, In (v, r) (flat t) -> t_rsn t v = r;
  ti_rsn_none : forall v, ~ In v (map fst (flat t)) -> t_rsn t v = None }.

(** every clause is non-empty and mentions only existing variables *)
Definition DBI (n : nat) (d : db) : Prop :=
  forall r, valid d r -> getc d r <> [] /\ forall l, In l (getc d r) -> lord l < n.

Lemma DBI_perm n d d' : dbperm d d' -> DBI n d -> DBI n d'.
Proof.
  intros HP H r Hr. apply (dbperm_valid _ _ r HP) in Hr. destruct (H r Hr) as [H1 H2].
  pose proof (dbperm_getc _ _ r HP) as Hc. split.
  - intros E. rewrite E in Hc. apply Permutation_sym, Permutation_nil in Hc. auto.
  - intros l Hl. apply H2. eapply Permutation_in; [apply Permutation_sym; eauto|auto].
Qed.

(** ** Consequences of the trail invariant *)
Section TI_facts.
Variables (n : nat) (d : db) (t : trail).
Hypothesis HT : TI n d t.

Lemma flat_ok_app val es1 es2 : flat_ok d val (es1 ++ es2) -> flat_ok d val es2.
Proof. induction es1 as [|[v ro] es1 IH]; simpl; auto. intros (_ & _ & H); auto. Qed.

Lemma flat_ok_nodup val es : flat_ok d val es -> NoDup (map fst es).
Proof.
  induction es as [|[v ro] es IH]; simpl; intros H; constructor; destruct H as (H1 & H2 & H3); auto.
Qed.

Lemma flat_ok_mid val es1 v r es2 :
  flat_ok d val (es1 ++ (v, Some r) :: es2) -> reason_ok d val v r es2.
Proof. intros H. apply flat_ok_app in H. simpl in H. tauto. Qed.

Lemma levels_ok_split ls1 es ls2 lvl val :
  levels_ok d val lvl (ls1 ++ es :: ls2) -> level_ok d val lvl es (length ls2).
Proof. induction ls1; simpl; intros [H1 H2]; auto. Qed.

Lemma in_flat_level v : In v (map fst (flat t)) ->
  exists ls1 es ls2, t_levels t = ls1 ++ es :: ls2 /\ In v (map fst es) /\ t_lvl t v = Some (length ls2).
Proof.
  unfold flat. rewrite concat_map, in_concat. intros (vs & H1 & H2).
  apply in_map_iff in H1. destruct H1 as (es & <- & H1).
  apply in_split in H1. destruct H1 as (ls1 & ls2 & E).
  exists ls1, es, ls2. split; auto. split; auto.
  pose proof (ti_lev _ _ _ HT) as L. rewrite E in L. apply levels_ok_split in L.
  destruct L as [L _]. auto.
Qed.

Lemma dom_iff v : t_lvl t v <> None <-> In v (map fst (flat t)).
Proof.
  split. apply (ti_dom _ _ _ HT). intros H. apply in_flat_level in H.
  destruct H as (? & ? & ? & _ & _ & ->). discriminate.
Qed.

Lemma tv_lev_none l : tv t l = None <-> lev t l = None.
Proof.
  unfold tv, lev. rewrite eval_lit_none. split; intros H.
  - destruct (t_lvl t (lvar l)) eqn:E; auto. exfalso.
    assert (In (lvar l) (map fst (flat t))) as I by (apply dom_iff; congruence).
    apply (ti_def _ _ _ HT) in I. congruence.
  - destruct (mdef (t_bm t) (lord l)) eqn:E; auto. apply (ti_def _ _ _ HT) in E.
    apply dom_iff in E. unfold lvar in H. congruence.
Qed.

Lemma tv_some_lev l b : tv t l = Some b -> exists k, lev t l = Some k.
Proof.
  intros H. destruct (lev t l) eqn:E; eauto. apply tv_lev_none in E. congruence.
Qed.

Lemma lev_le_dl v k : t_lvl t v = Some k -> k <= dl t.
Proof.
  intros H. assert (In v (map fst (flat t))) as I by (apply dom_iff; congruence).
  apply in_flat_level in I. destruct I as (ls1 & es & ls2 & E & _ & E2).
  unfold dl. rewrite E, app_length. simpl. assert (k = length ls2) by congruence. lia.
Qed.

Lemma tv_in_flat l b : tv t l = Some b -> In (lvar l) (map fst (flat t)).
Proof.
  intros H. apply (ti_def _ _ _ HT). unfold tv in H.
  destruct (mdef (t_bm t) (lord l)) eqn:E; auto. apply (eval_lit_none (t_bm t) l) in E. congruence.
Qed.

Lemma in_flat_tv l : In (lvar l) (map fst (flat t)) -> tv t l = Some (lit_holds (tval t) l).
Proof. intros H. apply eval_lit_some. now apply (ti_def _ _ _ HT). Qed.

Lemma tv_holds l b : tv t l = Some b -> lit_holds (tval t) l = b.
Proof. apply eval_lit_holds. Qed.

Lemma dl_S : length (t_levels t) = S (dl t).
Proof. unfold dl. pose proof (ti_ne _ _ _ HT). destruct (t_levels t); simpl in *; try congruence; lia. Qed.

(** variables of the current level are exactly those of [recent] *)
Lemma lev_dl_recent v : t_lvl t v = Some (dl t) <-> In v (map fst (recent t)).
Proof.
  pose proof dl_S as DS.
  split.
  - intros H. assert (In v (map fst (flat t))) as I by (apply dom_iff; congruence).
    apply in_flat_level in I. destruct I as (ls1 & es & ls2 & E & I & E2).
    rewrite H in E2. inversion E2 as [E3]. rewrite E, app_length in DS. simpl in DS.
    destruct ls1; simpl in DS; try lia. unfold recent. rewrite E. auto.
  - intros H. unfold recent in H. destruct (t_levels t) as [|es ls] eqn:E; [easy|].
    pose proof (ti_lev _ _ _ HT) as L. rewrite E in L. destruct L as [[L _] _].
    simpl in DS. injection DS as <-. auto.
Qed.
End TI_facts.

Lemma reason_ok_perm d d' val v r post :
  dbperm d d' -> reason_ok d val v r post -> reason_ok d' val v r post.
Proof.
  intros HP (i & -> & H1 & H2 & H3). pose proof (dbperm_getc _ _ r HP) as Hc.
  exists i. repeat split; auto.
  - now apply (dbperm_valid _ _ r HP).
  - eapply Permutation_in; eauto.
  - intros l Hl. apply H3. eapply Permutation_in; [apply Permutation_sym; eauto|auto].
Qed.

Lemma TI_perm n d d' t : dbperm d d' -> TI n d t -> TI n d' t.
Proof.
  intros HP [H1 H2 H3 H4 H5 H6 H7 H8]. constructor; auto.
  - clear -HP H2. induction (flat t) as [|[v ro] es IH]; simpl in *; auto.
    destruct H2 as (A & B & C). repeat split; auto. destruct ro; auto.
    eapply reason_ok_perm; eauto.
  - clear -HP H4. induction (t_levels t) as [|es ls IH]; simpl in *; auto.
    destruct H4 as ((A & B & C) & D). split; auto. repeat split; auto.
    intros K i r I. destruct (C K i r I) as (l & L1 & L2 & L3). exists l. repeat split; auto.
    eapply Permutation_in; [apply dbperm_getc; eauto|auto].
Qed.

(** ** Watch list invariant *)
Definition b2n (b : bool) : nat := if b then 1 else 0.
(** number of watches clause [c] must have in the list of literal [l] *)
Definition expected (c : clause) (l : lit) : nat :=
  match c with
  | [] => 0
  | [a] => b2n (lit_eqb a l)
  | a :: b :: _ => b2n (lit_eqb a l) + b2n (lit_eqb b l)
  end.

Definition count_watch (r : cref) (ws : list watch) : nat :=
  count_occ cref_eq_dec (map fst ws) r.

Definition watch_idx_ok (d : db) (p : watch) : Prop :=
  valid d (fst p) /\ (2 < length (getc d (fst p)) -> 2 <= snd p < length (getc d (fst p))).

(** watch lists mention exactly the first two literals of each clause *)
Definition WC (d : db) (w : watch_map) : Prop :=
  (forall r l, valid d r -> count_watch r (w l) = expected (getc d r) l) /\
  (forall l p, In p (w l) -> watch_idx_ok d p).

Definition all_false (t : trail) (c : clause) : Prop := forall x, In x c -> tv t x = Some false.

(** what must hold for a false watched literal [x] when the other watched literal is [y] and the
    remaining literals are [rest] *)
Definition wlit_ok (t : trail) (s : sat_stack) (fl : lit) (todo : list watch) (r : cref)
           (rest : clause) (x y : lit) : Prop :=
  In (neg x) (map fst s) \/
  (x = fl /\ In r (map fst todo)) \/
  (tv t y = Some true /\ exists k k', lev t x = Some k /\ lev t y = Some k' /\ k' <= k) \/
  (lev t x = Some (dl t) /\ all_false t rest /\
     ((tv t y = None /\ In (y, Some r) s) \/ (y = fl /\ In r (map fst todo)))).

Definition clause_ok (t : trail) (s : sat_stack) (fl : lit) (todo : list watch) (r : cref) (c : clause)
  : Prop :=
  match c with
  | [] => False
  | [u] =>
      (tv t u = Some true /\ lev t u = Some 0) \/
      (dl t = 0 /\
       ((tv t u = None /\ In (u, Some r) s) \/ (u = fl /\ In r (map fst todo)) \/
        (tv t u = Some false /\ In (neg u) (map fst s))))
  | x :: y :: rest =>
      (tv t x = Some false -> wlit_ok t s fl todo r rest x y) /\
      (tv t y = Some false -> wlit_ok t s fl todo r rest y x)
  end.

(** pending literal [l] is one of the watched literals and all other literals are false *)
Definition unit_at (t : trail) (c : clause) (l : lit) : Prop :=
  exists rest, all_false t rest /\
    (c = l :: rest \/ exists y rest', rest = y :: rest' /\ c = y :: l :: rest').

Definition stack_ok (d : db) (t : trail) (fl : lit) (todo : list watch) (e : lit * option cref) : Prop :=
  let (l, ro) := e in
  (tv t l = Some true /\ lev t l = Some (dl t) /\
     match ro with
     | None => True
     | Some r => forall x, In x (getc d r) -> x = l \/ tv t x = Some false
     end) \/
  (exists r, ro = Some r /\ valid d r /\ unit_at t (getc d r) l /\
     (tv t l = None \/ (tv t l = Some true /\ lev t l = Some (dl t))) /\
     (1 <= dl t -> exists x, In x (getc d r) /\ x <> l /\ lev t x = Some (dl t))) \/
  (exists r, ro = Some r /\ valid d r /\ l = fl /\ In r (map fst todo) /\ all_false t (getc d r)).

Record WI (d : db) (t : trail) (w : watch_map) (s : sat_stack) (fl : lit) (todo : list watch) : Prop :=
  mkWI {
  wi_count : WC d w;
  wi_clause : forall r, valid d r -> clause_ok t s fl todo r (getc d r);
  wi_stack : forall e, In e s -> stack_ok d t fl todo e }.

(** what remains of the invariant after a conflict: false watches below the current level are
    guarded by a true literal *)
Definition clause_weak (t : trail) (c : clause) : Prop :=
  match c with
  | [] => False
  | [u] => (tv t u = Some true /\ lev t u = Some 0) \/ dl t = 0
  | x :: y :: _ =>
      (forall k, tv t x = Some false -> lev t x = Some k -> k < dl t ->
         tv t y = Some true /\ exists k', lev t y = Some k' /\ k' <= k) /\
      (forall k, tv t y = Some false -> lev t y = Some k -> k < dl t ->
         tv t x = Some true /\ exists k', lev t x = Some k' /\ k' <= k)
  end.

Record WW (d : db) (t : trail) (w : watch_map) : Prop := mkWW {
  ww_count : WC d w;
  ww_clause : forall r, valid d r -> clause_weak t (getc d r) }.
