From Coq Require Import List Arith ZArith Bool Lia.
From Verif Require Import Base Core_Model Sat_Base Order_Model Queue_Model Spec_Queue Queue_Proofs Trail_Model Spec_Trail Trail_Proofs
  Gvsids_Model Spec_Gvsids Order_Proofs.
Import ListNotations.
Open Scope nat_scope.

Section Gv.
Context {F : Type}.
Variable fo : fops F.
Variable good : F -> Prop.
Hypothesis laws : score_laws fo good.
Hypothesis closed : score_closed fo good.
Let good_zero := sc_zero _ _ closed.
Let good_one := sc_one _ _ closed.
Let good_add := sc_add _ _ closed.
Let good_mul := sc_mul _ _ closed.
Let good_div := sc_div _ _ closed.
Variable cons_vars : nat -> list nat.
Notation qinv := (qinv fo good).

Definition qdom (q : @queue F) (D : var -> Prop) : Prop := exists M, qinv q M /\ forall v, M v <> None <-> D v.

Record gcore (g : @gv F) (nb nq : nat) (D E : var -> Prop) : Prop := mkGC {
  gc_lb : length (g_sb g) = nb; gc_lq : length (g_sr g) = nq;
  gc_gb : Forall good (g_sb g); gc_gq : Forall good (g_sr g); gc_inc : good (g_inc g);
  gc_v : qdom (g_vars g) D; gc_e : qdom (g_ed g) E }.

Lemma qdom_update q D v s : qdom q D -> good s -> exists q', q_update fo q v s = Ok q' /\ qdom q' D.
Proof.
  intros (M & I & HD) Gs.
  destruct (update_inv fo good laws q M v s (fun w => match M w with None => None | Some r => if var_eqb w v then Some s else Some r end))
    as (q' & E & I'); auto.
  exists q'. split; auto. eexists. split; eauto. intros w. rewrite <- HD. simpl. destruct (M w); [|tauto].
  destruct (var_eqb w v); split; discriminate.
Qed.
Lemma qdom_rescale q D : qdom q D -> exists q', q_rescale fo q (f_threshold fo) = Ok q' /\ qdom q' D.
Proof.
  intros (M & I & HD).
  destruct (rescale_inv fo good laws q M (f_threshold fo) (fun w => match M w with None => None | Some r => Some (f_div fo r (f_threshold fo)) end))
    as (q' & E & I'); auto.
  exists q'. split; auto. eexists. split; eauto. intros w. rewrite <- HD. simpl. destruct (M w); [|tauto]. split; discriminate.
Qed.
Lemma qdom_push q D v s : qdom q D -> ~ D v -> good s -> exists q', q_push fo q v s = Ok q' /\ qdom q' (fun w => D w \/ w = v).
Proof.
  intros (M & I & HD) Nv Gs.
  assert (M v = None). { destruct (M v) eqn:X; auto. exfalso. apply Nv. apply HD. congruence. }
  destruct (push_inv fo good laws q M v s (fun w => if var_eqb w v then Some s else M w)) as (q' & E & I'); auto.
  exists q'. split; auto. eexists. split; eauto. intros w. rewrite <- HD. simpl.
  destruct (var_eqb w v) eqn:X.
  - apply var_eqb_eq in X. split; [auto|discriminate].
  - split; [auto|]. intros [Y|Y]; auto. subst. rewrite var_eqb_refl in X. discriminate.
Qed.
Lemma qdom_contains q D v : qdom q D -> (q_contains q v = true <-> D v).
Proof. intros (M & I & HD). rewrite (contains_spec fo good _ _ _ I). apply HD. Qed.
(** a push that does not fail its assertion is of a missing variable *)
Lemma push_missing q D v s q' : qdom q D -> q_push fo q v s = Ok q' -> ~ D v.
Proof.
  intros HD E Dv. apply (qdom_contains q D v HD) in Dv. unfold q_contains in Dv. unfold q_push in E.
  destruct (pget q v) as [z|] eqn:P; [|discriminate]. rewrite (reserve_old q v v z P) in E. simpl in E.
  apply negb_true_iff in Dv. rewrite Dv in E. discriminate.
Qed.
Lemma push_dom q D v s q' : qdom q D -> good s -> q_push fo q v s = Ok q' -> qdom q' (fun w => D w \/ w = v).
Proof.
  intros HD Gs E. pose proof (push_missing _ _ _ _ _ HD E) as N. destruct (qdom_push q D v s HD N Gs) as (q2 & E2 & R).
  rewrite E in E2. injection E2 as <-. exact R.
Qed.
Lemma push_outcome q D v s : qdom q D -> good s -> q_push fo q v s <> Fuel.
Proof.
  intros HD Gs E. destruct (q_contains q v) eqn:C.
  - unfold q_contains in C. unfold q_push in E.
    destruct (pget q v) as [z|] eqn:P; [|discriminate]. rewrite (reserve_old q v v z P) in E. simpl in E.
    apply negb_true_iff in C. rewrite C in E. discriminate.
  - destruct (qdom_push q D v s HD) as (q' & E' & _); auto; [|congruence].
    intros Dv. apply (qdom_contains q D v HD) in Dv. congruence.
Qed.
Lemma qdom_ext q D D' : (forall v, D v <-> D' v) -> qdom q D -> qdom q D'.
Proof. intros H (M & I & HD). exists M. split; auto. intros v. rewrite HD. apply H. Qed.
Lemma gcore_ext g nb nq D D' E : (forall v, D v <-> D' v) -> gcore g nb nq D E -> gcore g nb nq D' E.
Proof. intros H [A1 A2 A3 A4 A5 A6 A7]. split; auto. eapply qdom_ext; eauto. Qed.

Lemma score_ok g nb nq D E v : gcore g nb nq D E -> in_range nb nq v = true -> exists s, g_score g v = Ok s /\ good s.
Proof.
  intros [A1 A2 A3 A4 A5 A6 A7] R. destruct v as [i|i]; simpl in *; apply Nat.ltb_lt in R; unfold at_.
  - destruct (nth_error (g_sb g) i) eqn:X; [|apply nth_error_None in X; lia]. exists f. split; auto.
    rewrite Forall_forall in A3. apply A3. eapply nth_error_In; eauto.
  - destruct (nth_error (g_sr g) i) eqn:X; [|apply nth_error_None in X; lia]. exists f. split; auto.
    rewrite Forall_forall in A4. apply A4. eapply nth_error_In; eauto.
Qed.
Lemma Forall_map_good (f : F -> F) l : (forall a, good a -> good (f a)) -> Forall good l -> Forall good (map f l).
Proof. intros H. induction 1; simpl; auto. Qed.

Lemma core_bump1 g nb nq D E v : gcore g nb nq D E -> in_range nb nq v = true ->
  exists g', g_bump1 fo g v = Ok g' /\ gcore g' nb nq D E.
Proof.
  intros H R. unfold g_bump1. destruct (score_ok _ _ _ _ _ _ H R) as (s & Es & Gs). rewrite Es. simpl.
  pose proof H as [A1 A2 A3 A4 A5 A6 A7].
  set (s' := f_add fo s (g_inc g)). assert (Gs' : good s') by (unfold s'; auto).
  assert (C : gcore (g_set_score g v s') nb nq D E).
  { destruct v as [i|i]; split; simpl; auto; try (rewrite set_nth_length; auto); apply Forall_set_nth; auto. }
  destruct (f_ge fo s' (f_threshold fo)).
  - unfold g_rescale. destruct C as [B1 B2 B3 B4 B5 B6 B7].
    destruct (qdom_rescale _ _ B6) as (q1 & E1 & Q1). destruct (qdom_rescale _ _ B7) as (q2 & E2 & Q2).
    rewrite E1. cbn [bind]. rewrite E2. cbn [bind]. eexists. split; [reflexivity|].
    split; simpl; auto; try (rewrite map_length; auto); apply Forall_map_good; auto.
  - destruct C as [B1 B2 B3 B4 B5 B6 B7].
    destruct (qdom_update _ _ v s' B6 Gs') as (q1 & E1 & Q1). destruct (qdom_update _ _ v s' B7 Gs') as (q2 & E2 & Q2).
    rewrite E1. cbn [bind]. rewrite E2. cbn [bind]. eexists. split; [reflexivity|]. split; simpl; auto.
Qed.
Lemma core_bumps nb nq D E : forall vs g, gcore g nb nq D E -> (forall v, In v vs -> in_range nb nq v = true) ->
  exists g', g_bumps fo g vs = Ok g' /\ gcore g' nb nq D E.
Proof.
  induction vs as [|v vs IH]; intros g H R; simpl; [eauto|].
  destruct (core_bump1 g nb nq D E v) as (g1 & E1 & H1); auto; [apply R; left; auto|]. rewrite E1. simpl.
  apply IH; auto. intros w Hw. apply R. right; auto.
Qed.
Lemma clause_range a c : clause_in cons_vars a c ->
  forall v, In v (g_clause_vars cons_vars c) -> in_range (at_nb a) (at_nq a) v = true.
Proof.
  intros H v Hv. unfold g_clause_vars in Hv. apply in_flat_map in Hv. destruct Hv as (l & Hl & [<-|Hv]).
  - simpl. apply Nat.ltb_lt. now apply H.
  - apply in_map_iff in Hv. destruct Hv as (x & <- & Hx). simpl. apply Nat.ltb_lt. now apply (H l).
Qed.
Lemma core_bump_clause g a D E c : gcore g (at_nb a) (at_nq a) D E -> clause_in cons_vars a c ->
  exists g', g_bump_clause fo cons_vars g c = Ok g' /\ gcore g' (at_nb a) (at_nq a) D E.
Proof. intros H C. apply core_bumps; auto. now apply clause_range. Qed.
Lemma core_bump_clauses a D E : forall cs g, gcore g (at_nb a) (at_nq a) D E -> (forall c, In c cs -> clause_in cons_vars a c) ->
  exists g', g_bump_clauses fo cons_vars g cs = Ok g' /\ gcore g' (at_nb a) (at_nq a) D E.
Proof.
  induction cs as [|c cs IH]; intros g H C; simpl; [eauto|].
  destruct (core_bump_clause g a D E c) as (g1 & E1 & H1); auto; [apply C; left; auto|]. rewrite E1. simpl.
  apply IH; auto. intros c' Hc. apply C. right; auto.
Qed.

Lemma core_push_new nb nq E mk : (forall i j, mk i = mk j -> i = j) -> forall k i g D,
  gcore g nb nq D E -> (forall j, i <= j < i + k -> ~ D (mk j)) ->
  exists g', g_push_new fo g mk i k = Ok g' /\ gcore g' nb nq (fun v => D v \/ exists j, i <= j < i + k /\ v = mk j) E /\
    g_sb g' = g_sb g /\ g_sr g' = g_sr g.
Proof.
  intros inj. induction k as [|k IH]; intros i g D H N; cbn [g_push_new].
  - exists g. split; auto. split; auto. eapply gcore_ext; [|exact H]. intros v. split; auto. intros [X|(j & J & _)]; auto. lia.
  - pose proof H as [A1 A2 A3 A4 A5 A6 A7].
    destruct (qdom_push (g_vars g) D (mk i) (f_zero fo)) as (q' & E1 & Q1); auto; [apply N; lia|].
    rewrite E1. cbn [bind].
    destruct (IH (S i) (with_queues g q' (g_ed g)) (fun w => D w \/ w = mk i)) as (g' & E2 & G2 & S1 & S2).
    + split; auto.
    + intros j Hj [X|X]; [revert X; apply N; lia|]. apply inj in X. lia.
    + exists g'. split; auto. split; auto. eapply gcore_ext; [|exact G2]. intros v. split.
      * intros [[X|X]|(j & J & X)]; auto; right; [exists i|exists j]; split; auto; lia.
      * intros [X|(j & J & X)]; auto. destruct (Nat.eq_dec j i) as [->|Nj]; auto. right. exists j. split; auto. lia.
Qed.

Lemma resize_scores_length l n : length l <= n -> length (resize_scores fo l n) = n.
Proof. intros H. unfold resize_scores. rewrite app_length, firstn_length, repeat_length. lia. Qed.
Lemma resize_scores_good l n : Forall good l -> Forall good (resize_scores fo l n).
Proof.
  intros H. unfold resize_scores. apply Forall_app. split.
  - rewrite Forall_forall in *. intros x Hx. apply H. rewrite <- (firstn_skipn n l). apply in_or_app. auto.
  - apply Forall_forall. intros x Hx. apply repeat_spec in Hx. subst; auto.
Qed.

Lemma core_resize g nb nq nb' nq' D E : gcore g nb nq D E -> (forall v, D v -> in_range nb nq v = true) ->
  nb <= nb' -> nq <= nq' ->
  exists g', g_resize fo g nb' nq' = Ok g' /\
    gcore g' nb' nq' (fun v => D v \/ (in_range nb' nq' v = true /\ in_range nb nq v = false)) E.
Proof.
  intros H R Hb Hq. unfold g_resize. pose proof H as [A1 A2 A3 A4 A5 A6 A7]. rewrite A1, A2.
  destruct (core_push_new nb' nq E VBool ltac:(congruence) (nb' - nb) nb
    (mkGv (resize_scores fo (g_sb g) nb') (g_sr g) (g_vars g) (g_ed g) (g_inc g)) D) as (g1 & E1 & G1 & S1 & S2).
  - split; simpl; auto; [apply resize_scores_length; lia|apply resize_scores_good; auto].
  - intros j Hj X. apply R in X. simpl in X. apply Nat.ltb_lt in X. lia.
  - rewrite E1. cbn [bind]. pose proof G1 as [B1 B2 B3 B4 B5 B6 B7].
    destruct (core_push_new nb' nq' E VRat ltac:(congruence) (nq' - nq) nq
      (mkGv (g_sb g1) (resize_scores fo (g_sr g1) nq') (g_vars g1) (g_ed g1) (g_inc g1))
      (fun v => D v \/ exists j, nb <= j < nb + (nb' - nb) /\ v = VBool j)) as (g2 & E2 & G2 & S3 & S4).
    + split; simpl; auto; [apply resize_scores_length; lia|apply resize_scores_good; auto].
    + intros j Hj [X|(i & _ & X)]; [|discriminate]. apply R in X. simpl in X. apply Nat.ltb_lt in X. lia.
    + exists g2. split; auto. eapply gcore_ext; [|exact G2]. intros v. split.
      * intros [[X|(j & J & ->)]|(j & J & ->)]; auto; right; simpl; rewrite Nat.ltb_lt, Nat.ltb_ge; lia.
      * intros [X|[X Y]]; auto. destruct v as [j|j]; simpl in X, Y; rewrite Nat.ltb_lt in X; rewrite Nat.ltb_ge in Y.
        -- left. right. exists j. split; auto. lia.
        -- right. exists j. split; auto. lia.
Qed.

Definition lvl_gt (t : trail) (k : nat) (v : var) : Prop := exists l, t_lvl t v = Some l /\ k < l.

Lemma core_return nb nq E t k : forall es g D, gcore g nb nq D E ->
  (forall e, In e es -> in_range nb nq (fst e) = true /\ exists l, t_lvl t (fst e) = Some l) ->
  exists g', g_return fo g t k es = Ok g' /\
    gcore g' nb nq (fun v => D v \/ (In v (map fst es) /\ lvl_gt t k v)) E.
Proof.
  induction es as [|e es IH]; intros g D H R; cbn [g_return].
  - exists g. split; auto. eapply gcore_ext; [|exact H]. intros v. simpl. tauto.
  - pose proof H as [A1 A2 A3 A4 A5 A6 A7].
    assert (R' : forall e0, In e0 es -> in_range nb nq (fst e0) = true /\ exists l, t_lvl t (fst e0) = Some l) by (intros; apply R; right; auto).
    destruct (R e (or_introl eq_refl)) as (Re & l & Le).
    destruct (q_contains (g_vars g) (fst e)) eqn:C.
    + apply (qdom_contains _ _ _ A6) in C.
      destruct (IH g D) as (g' & E1 & G1); auto. exists g'. split; auto. eapply gcore_ext; [|exact G1].
      intros v. simpl. split; [tauto|]. intros [X|[[X|X] Y]]; auto. subst. auto.
    + rewrite Le. cbn [bind value_of]. destruct (Nat.ltb_spec k l).
      * destruct (score_ok _ _ _ _ _ _ H Re) as (s & Es & Gs). rewrite Es. cbn [bind].
        destruct (qdom_push (g_vars g) D (fst e) s) as (q' & E1 & Q1); auto.
        { intros X. apply (qdom_contains _ _ _ A6) in X. congruence. }
        rewrite E1. cbn [bind].
        destruct (IH (with_queues g q' (g_ed g)) (fun w => D w \/ w = fst e)) as (g' & E2 & G2); auto.
        { split; auto. }
        exists g'. split; auto. eapply gcore_ext; [|exact G2]. intros v. simpl. split.
        -- intros [[X|X]|[X Y]]; auto. subst. right. split; auto. exists l. auto.
        -- intros [X|[[X|X] Y]]; auto.
      * destruct (IH g D) as (g' & E1 & G1); auto. exists g'. split; auto. eapply gcore_ext; [|exact G1].
        intros v. simpl. split; [tauto|]. intros [X|[[X|X] Y]]; auto. subst. destruct Y as (l' & Y1 & Y2). rewrite Le in Y1. inversion Y1. lia.
Qed.

Lemma assigned_at_ok t i : t_levels t <> [] -> i <= dl t -> assigned_at t i = Ok (lists t i).
Proof.
  intros N H. unfold lists, assigned_at. destruct (Nat.leb_spec i (dl t)); [|lia]. unfold at_.
  destruct (nth_error (t_levels t) (dl t - i)) eqn:X; auto. apply nth_error_None in X.
  unfold dl in *. destruct (t_levels t); [congruence|]. cbn [length] in *. lia.
Qed.

Lemma core_return_levels a t k E : tinv t a -> forall n g D, k + n <= dl t -> gcore g (at_nb a) (at_nq a) D E ->
  exists g', g_return_levels fo n g t k = Ok g' /\
    gcore g' (at_nb a) (at_nq a) (fun v => D v \/ exists i, k < i <= k + n /\ In v (map fst (lists t i)) /\ lvl_gt t k v) E.
Proof.
  intros [N [T1 T2 T3 T4 T5 T6 T7 T8 T9]]. induction n as [|n IH]; intros g D Hn H; cbn [g_return_levels].
  - exists g. split; auto. eapply gcore_ext; [|exact H]. intros v. split; auto. intros [X|(i & I & _)]; auto. lia.
  - rewrite assigned_at_ok; auto. cbn [bind].
    destruct (core_return (at_nb a) (at_nq a) E t k (rev (lists t (k + S n))) g D) as (g1 & E1 & G1); auto.
    { intros [v r] He. apply in_rev in He. apply T7 in He; auto. destruct He as (gg & X & _). simpl. rewrite T3, X. simpl.
      split; eauto. now apply (T9 _ _ X). }
    rewrite E1. cbn [bind]. destruct (IH g1 _ ltac:(lia) G1) as (g2 & E2 & G2). exists g2. split; auto.
    eapply gcore_ext; [|exact G2]. intros v. split.
    + intros [[X|[X Y]]|(i & I & X)]; auto; right.
      * exists (k + S n). split; [lia|]. split; auto. rewrite map_rev in X. now apply in_rev in X.
      * exists i. split; auto. lia.
    + intros [X|(i & I & X & Y)]; auto. destruct (Nat.eq_dec i (k + S n)) as [->|Ni].
      * left. right. split; auto. rewrite map_rev. now apply in_rev in X.
      * right. exists i. split; [lia|auto].
Qed.

Lemma core_before_backtrack a t k g D E : tinv t a -> k <= dl t -> gcore g (at_nb a) (at_nq a) D E ->
  exists g', g_before_backtrack fo g t k = Ok g' /\
    gcore g' (at_nb a) (at_nq a) (fun v => D v \/ lvl_gt t k v) E.
Proof.
  intros T Hk H. unfold g_before_backtrack.
  destruct (core_return_levels a t k E T (dl t - k) g D ltac:(lia) H) as (g' & E1 & G1).
  exists g'. split; auto. eapply gcore_ext; [|exact G1]. intros v. split.
  - intros [X|(i & I & X & Y)]; auto.
  - intros [X|(l & Y & Z)]; auto. right. destruct T as [N [T1 T2 T3 T4 T5 T6 T7 T8 T9]].
    rewrite T3 in Y. destruct (at_rec a v) as [gg|] eqn:X; [|discriminate]. injection Y as <-.
    destruct (T9 _ _ X) as [R1 R2]. exists (a_level gg). split; [lia|]. split.
    + apply in_map_iff. exists (v, a_reason gg). split; auto. apply T7; [lia|]. exists gg. split; auto. split; auto; lia.
    + exists (a_level gg). rewrite T3, X. auto.
Qed.

(** popping *)
Lemma qinv_nodup q M : qinv q M -> NoDup (map fst (q_pq q)).
Proof. intros [A B C D E]. now apply W1_nodup. Qed.
Lemma pop_assigned_spec stale : forall fuel q D, qdom q D -> q_size q <= fuel ->
  exists q' D', g_pop_assigned fo fuel stale q = Ok q' /\ qdom q' D' /\
    (forall v, D' v -> D v) /\ (forall v, D v -> D' v \/ stale v = true) /\
    match g_front q' with
    | Some v => D' v /\ stale v = false
    | None => forall v, ~ D' v
    end.
Proof.
  assert (ST : forall fuel q (M : var -> option F) (D : var -> Prop), qinv q M -> (forall v, M v <> None <-> D v) ->
    (q_empty q = true \/ exists v, q_top q = Ok v /\ stale v = false) ->
    exists q' D', g_pop_assigned fo fuel stale q = Ok q' /\ qdom q' D' /\
    (forall v, D' v -> D v) /\ (forall v, D v -> D' v \/ stale v = true) /\
    match g_front q' with Some v => D' v /\ stale v = false | None => forall v, ~ D' v end).
  { intros fuel q M D I HD C. exists q, D.
    assert (X : g_pop_assigned fo fuel stale q = Ok q).
    { destruct C as [C|(v & C1 & C2)].
      - destruct fuel; simpl; rewrite C; auto.
      - unfold q_top, q_empty in *. destruct (q_pq q) eqn:Q; [discriminate|]. 
        destruct fuel; simpl; unfold q_empty, q_top; rewrite Q; cbn [bind]; injection C1 as ->; rewrite C2; auto. }
    split; auto. split; [exists M; auto|]. split; auto. split; auto.
    pose proof (top_spec fo good laws q M I) as T. unfold g_front. unfold q_empty, q_top in C. destruct (q_pq q) as [|n l].
    - intros v Dv. apply HD in Dv. now rewrite T in Dv.
    - destruct T as (s & T & _). split; [apply HD; congruence|]. destruct C as [C|(v & C1 & C2)]; [discriminate|]. injection C1 as ->. auto. }
  induction fuel as [|fuel IH]; intros q D (M & I & HD) Hs.
  - apply (ST 0 q M D); auto. left. unfold q_size, q_empty in *. destruct (q_pq q); auto. simpl in Hs. lia.
  - destruct (q_empty q) eqn:Qe; [apply (ST (S fuel) q M D); auto|].
    pose proof (top_spec fo good laws q M I) as T. pose proof (qinv_nodup _ _ I) as ND.
    destruct (q_pq q) as [|[v s] l] eqn:Q; [unfold q_empty in Qe; rewrite Q in Qe; discriminate|].
    destruct (stale v) eqn:Sv; [|apply (ST (S fuel) q M D); auto; right; exists v; unfold q_top; rewrite Q; auto].
    destruct (pop_inv fo good laws q M v (fun w => if var_eqb w v then None else M w) I T) as (q1 & E1 & I1); auto.
    destruct (IH q1 (fun w => D w /\ w <> v)) as (q' & D' & E2 & Q2 & K1 & K2 & K3).
    + eexists. split; [exact I1|]. intros w. simpl. destruct (var_eqb w v) eqn:X.
      * apply var_eqb_eq in X. split; [congruence|tauto].
      * rewrite HD. split; [|tauto]. intros Y. split; auto. intros ->. rewrite var_eqb_refl in X. discriminate.
    + pose proof (qinv_nodup _ _ I1) as ND1. unfold q_size in *. rewrite Q in Hs. cbn [length] in Hs.
      assert (L : length (map fst (q_pq q1)) <= length (map fst l)).
      { apply NoDup_incl_length; auto. intros w Hw. apply in_map_iff in Hw. destruct Hw as ((w0 & r) & <- & Hw). simpl.
        apply (qi_rep _ _ _ _ I1) in Hw. destruct (var_eqb w0 v) eqn:X; [discriminate|].
        apply (qi_rep _ _ _ _ I) in Hw. rewrite Q in Hw. destruct Hw as [Hw|Hw].
        - injection Hw as -> ->. rewrite var_eqb_refl in X. discriminate.
        - apply in_map_iff. exists (w0, r). auto. }
      rewrite !map_length in L. lia.
    + exists q', D'. split.
      { cbn [g_pop_assigned]. rewrite Qe. unfold q_top. rewrite Q. cbn [bind fst]. rewrite Sv, E1. exact E2. }
      split; auto. split; [intros w Hw; now apply K1|]. split; auto.
      intros w Hw. destruct (var_eqb w v) eqn:X.
      * apply var_eqb_eq in X. subst. auto.
      * apply K2. split; auto. intros ->. rewrite var_eqb_refl in X. discriminate.
Qed.

Definition outcome {A} (r : res A) (quiet : Prop) (Q : A -> Prop) : Prop :=
  match r with Ok x => Q x | UB => ~ quiet | Fuel => False end.

Lemma core_push_ed nb nq D : forall dec g E, gcore g nb nq D E -> Forall (fun x => x < nq) dec ->
  outcome (g_push_ed fo g dec) (dec = []) (fun g' => exists E', gcore g' nb nq D E' /\ (forall v, E' v -> E v \/ in_range nb nq v = true) /\
     (dec = [] -> g' = g)).
Proof.
  assert (X : forall dec g E, gcore g nb nq D E -> Forall (fun x => x < nq) dec ->
    match g_push_ed fo g dec with Ok g' => exists E', gcore g' nb nq D E' /\ (forall v, E' v -> E v \/ in_range nb nq v = true)
     | UB => dec <> [] | Fuel => False end).
  { induction dec as [|x dec IH]; intros g E H R; cbn [g_push_ed].
    - exists E. auto.
    - inversion R; subst. assert (Rx : in_range nb nq (VRat x) = true) by (simpl; now apply Nat.ltb_lt).
      destruct (score_ok _ _ _ _ _ _ H Rx) as (s & Es & Gs). rewrite Es. cbn [bind].
      pose proof H as [A1 A2 A3 A4 A5 A6 A7].
      destruct (q_push fo (g_ed g) (VRat x) s) as [e| |] eqn:P; cbn [bind].
      + pose proof (push_dom _ _ _ _ _ A7 Gs P) as Q.
        specialize (IH (with_queues g (g_vars g) e) (fun w => E w \/ w = VRat x)).
        destruct (g_push_ed fo (with_queues g (g_vars g) e) dec) as [g'| |].
        * destruct IH as (E' & K1 & K2); auto; [split; auto|]. exists E'. split; auto. intros v Hv. apply K2 in Hv.
          destruct Hv as [[Hv| ->]|Hv]; auto.
        * discriminate.
        * apply IH; auto. split; auto.
      + discriminate.
      + now apply (push_outcome _ _ _ _ A7 Gs) in P. }
  intros dec g E H R. specialize (X dec g E H R). unfold outcome. destruct (g_push_ed fo g dec) as [g'| |] eqn:P; auto.
  destruct X as (E' & K1 & K2). exists E'. split; auto. split; auto. intros ->. simpl in P. congruence.
Qed.

Lemma core_pick nb nq t g D E dec ed : gcore g nb nq D E -> (forall v, D v -> in_range nb nq v = true) ->
  (forall v, E v -> in_range nb nq v = true) -> Forall (fun x => x < nq) dec ->
  outcome (g_pick fo g t dec ed) (dec = []) (fun r => exists D' E', gcore (fst r) nb nq D' E' /\
    (forall v, D' v -> D v) /\ (forall v, D v -> D' v \/ assigned t v = true) /\
    (forall v, E' v -> in_range nb nq v = true) /\
    match snd r with
    | Some v => in_range nb nq v = true /\ assigned t v = false
    | None => forall v, ~ D' v
    end).
Proof.
  intros H RD RE R. unfold g_pick. pose proof (core_push_ed nb nq D dec g E H R) as K.
  destruct (g_push_ed fo g dec) as [g1| |]; cbn [bind]; [|exact K|exact K].
  destruct K as (E1 & G1 & K1 & _). pose proof G1 as [A1 A2 A3 A4 A5 A6 A7].
  destruct (pop_assigned_spec (fun v => assigned t v || negb (ed match v with VBool i => i | VRat i => i end)) (q_size (g_ed g1)) (g_ed g1) E1 A7)
    as (e & E2 & P1 & P2 & P3 & P4 & P5); auto.
  rewrite P1. cbn [bind].
  destruct (g_front e) as [v|].
  - destruct P5 as [P5 P6]. apply orb_false_iff in P6. simpl. exists D, E2. split; [split; auto|]. split; auto. split; auto.
    assert (RV : forall w, E2 w -> in_range nb nq w = true). { intros w Hw. apply P3, K1 in Hw. destruct Hw; auto. }
    split; auto. split; [auto|tauto].
  - destruct (pop_assigned_spec (assigned t) (q_size (g_vars g1)) (g_vars g1) D A6) as (q & D2 & R1 & R2 & R3 & R4 & R5); auto.
    cbn [with_queues g_vars]. rewrite R1. cbn [bind outcome fst snd].
    exists D2, E2. split; [split; auto|]. split; auto. split; auto. split.
    { intros w Hw. apply P3, K1 in Hw. destruct Hw; auto. }
    destruct (g_front q) as [v|]; auto. destruct R5. split; auto.
Qed.

(** the invariant of the whole history *)
Record ginv (gt : @gv F * trail) (a : atrail) (lost : var -> Prop) : Prop := mkGI {
  gi_t : tinv (snd gt) a;
  gi_g : exists D E, gcore (fst gt) (at_nb a) (at_nq a) D E /\ (forall v, D v -> in_range (at_nb a) (at_nq a) v = true) /\
         (forall v, E v -> in_range (at_nb a) (at_nq a) v = true) /\
         (forall v, in_range (at_nb a) (at_nq a) v = true -> D v \/ at_rec a v <> None \/ lost v) }.

Lemma tinv_assigned t a v : tinv t a -> (assigned t v = true <-> at_rec a v <> None).
Proof.
  intros [_ T]. unfold assigned. rewrite (sh_lvl _ _ T). destruct (at_rec a v); simpl; split; try congruence; auto.
Qed.

Definition quiet_op (o : gop) : Prop := match o with GPick dec _ => dec = [] | _ => True end.

Lemma gstep_inv gt a lost o : ginv gt a lost -> g_legal cons_vars a o ->
  outcome (g_step fo cons_vars gt o) (quiet_op o) (fun gt' => ginv gt' (g_at a o) (g_lost a o lost)).
Proof.
  destruct gt as [g t]. intros [T (D & E & G & RD & RE & C)] L. simpl in T, G.
  destruct o as [o|d|c|c|dec ed]; cbn [g_step].
  - simpl in L. destruct (inv_step t a o T L) as (t' & Et & T').
    assert (PT : match o with TBacktrack _ | TClear | TResize _ _ => True | _ =>
       outcome (t1 <- t_step t o ;; Ok (g, t1))%res True (fun gt' => ginv gt' (g_at a (GTrail o)) (g_lost a (GTrail o) lost)) end).
    { destruct o; auto; rewrite Et; cbn [bind outcome]; (split; [exact T'|]); exists D, E; simpl; (split; [exact G|]); (split; [exact RD|]);
        (split; [exact RE|]); intros w Hw; destruct (C w Hw) as [X|[X|X]]; auto; right; left; unfold vupd; destruct (var_eqb w v); auto; discriminate. }
    destruct o; try exact PT; clear PT; simpl in L.
    + destruct (core_before_backtrack a t level g D E T) as (g' & E1 & G1); auto.
      { destruct T as [_ T]. rewrite (sh_dl _ _ T). exact L. }
      rewrite E1. cbn [bind]. rewrite Et. cbn [bind outcome]. split; [exact T'|]. simpl. eexists _, E. split; [exact G1|].
      split; [|split; auto].
      * intros w [X|(l & X & Y)]; auto. destruct T as [_ T]. rewrite (sh_lvl _ _ T) in X. destruct (at_rec a w) eqn:Z; [|discriminate].
        now apply (sh_ok _ _ T _ _ Z).
      * intros w Hw. destruct (C w Hw) as [X|[X|X]]; auto. destruct (at_rec a w) as [gg|] eqn:Z; [|congruence]. simpl.
        destruct (Nat.leb_spec (a_level gg) level); [right; left; discriminate|]. left. right. exists (a_level gg).
        destruct T as [_ T]. rewrite (sh_lvl _ _ T), Z. auto.
    + destruct (core_before_backtrack a t 0 g D E T) as (g' & E1 & G1); auto; [lia|].
      rewrite E1. cbn [bind]. rewrite Et. cbn [bind outcome]. split; [exact T'|]. simpl. eexists _, E. split; [exact G1|].
      split; [|split; auto].
      * intros w [X|(l & X & Y)]; auto. destruct T as [_ T]. rewrite (sh_lvl _ _ T) in X. destruct (at_rec a w) eqn:Z; [|discriminate].
        now apply (sh_ok _ _ T _ _ Z).
      * intros w Hw. destruct (C w Hw) as [X|[X|X]]; auto. destruct (at_rec a w) as [gg|] eqn:Z; [|congruence].
        destruct (Nat.eq_dec (a_level gg) 0); [right; right; right; eauto|]. left. right. exists (a_level gg).
        destruct T as [_ T]. rewrite (sh_lvl _ _ T), Z. split; auto. lia.
    + destruct L as [L1 L2]. destruct (core_resize g _ _ nb nq D E G RD L1 L2) as (g' & E1 & G1).
      rewrite E1. cbn [bind]. rewrite Et. cbn [bind outcome]. split; [exact T'|]. simpl. eexists _, E. split; [exact G1|].
      assert (MON : forall w, in_range (at_nb a) (at_nq a) w = true -> in_range nb nq w = true).
      { intros [i|i]; simpl; rewrite !Nat.ltb_lt; lia. }
      split; [|split].
      * intros w [X|[X Y]]; auto.
      * auto.
      * intros w Hw. destruct (in_range (at_nb a) (at_nq a) w) eqn:X; auto. destruct (C w X) as [Y|[Y|Y]]; auto.
  - unfold g_init. destruct (core_bump_clauses a D E (asserted d ++ learned d)
      (mkGv (map (fun _ => f_zero fo) (g_sb g)) (map (fun _ => f_zero fo) (g_sr g)) (g_vars g) (g_ed g) (g_inc g))) as (g' & E1 & G1); auto.
    { destruct G as [A1 A2 A3 A4 A5 A6 A7]. split; simpl; auto; try (rewrite map_length; auto); apply Forall_map_good; auto. }
    rewrite E1. cbn [bind outcome]. split; auto. exists D, E. simpl. auto.
  - unfold g_learned. destruct (core_bump_clause g a D E c G L) as (g' & E1 & G1). rewrite E1. cbn [bind outcome].
    split; auto. exists D, E. simpl. split; auto. destruct G1 as [A1 A2 A3 A4 A5 A6 A7]. split; simpl; auto.
  - destruct (core_bump_clause g a D E c G L) as (g' & E1 & G1). rewrite E1. cbn [bind outcome].
    split; auto. exists D, E. simpl. auto.
  - pose proof (core_pick _ _ t g D E dec ed G RD RE L) as K. destruct (g_pick fo g t dec ed) as [[g' o]| |]; cbn [bind]; [|exact K|exact K].
    cbn [outcome fst snd] in *. destruct K as (D' & E' & K1 & K2 & K3 & K4 & _). split; auto. exists D', E'. simpl. split; auto.
    split; auto. split; auto. intros w Hw. destruct (C w Hw) as [X|[X|X]]; auto.
    apply K3 in X. destruct X as [X|X]; auto. right. left. now apply (tinv_assigned t a w T).
Qed.

Lemma g_run_app h o : forall gt, g_run fo cons_vars gt (h ++ [o]) = bind (g_run fo cons_vars gt h) (fun x => g_step fo cons_vars x o).
Proof.
  induction h as [|o' h IH]; intros gt; cbn [g_run app].
  - cbn [bind]. destruct (g_step fo cons_vars gt o); auto.
  - destruct (g_step fo cons_vars gt o'); cbn [bind]; auto.
Qed.

Lemma ghistory_inv h a lost : g_history cons_vars h a lost ->
  outcome (g_run fo cons_vars (gv_new fo, trail_new 0 0) h) (no_effectively_decided h) (fun gt => ginv gt a lost).
Proof.
  induction 1 as [|h a lost o Hh IH L].
  - cbn. split; [apply inv_new|]. exists (fun _ => False), (fun _ => False). simpl. split.
    + split; simpl; auto; exists (fun _ => None); (split; [apply new_inv; auto|]); intros v; split; congruence || tauto.
    + split; [tauto|]. split; [tauto|]. intros [i|i]; discriminate.
  - rewrite g_run_app. destruct (g_run fo cons_vars (gv_new fo, trail_new 0 0) h) as [gt| |]; cbn [bind]; [|intros N; apply IH; intros dec ed Hd|exact IH].
    + simpl in IH. pose proof (gstep_inv _ _ _ _ IH L) as K.
      destruct (g_step fo cons_vars gt o); cbn [outcome] in *; auto. intros N. apply K. destruct o; simpl; auto.
      apply (N dec ed). apply in_or_app. right. left. auto.
    + apply (N dec ed). apply in_or_app. auto.
Qed.

Lemma gvsids_lemma h a lost dec ed : g_history cons_vars h a lost -> Forall (fun x => x < at_nq a) dec ->
  match g_run fo cons_vars (gv_new fo, trail_new 0 0) h with
  | Ok (g, t) =>
      shows t a /\
      match g_pick fo g t dec ed with
      | Ok (_, Some v) => in_range (at_nb a) (at_nq a) v = true /\ at_rec a v = None
      | Ok (_, None) => forall v, in_range (at_nb a) (at_nq a) v = true -> at_rec a v <> None \/ lost v
      | UB => dec <> []
      | Fuel => False
      end
  | UB => ~ no_effectively_decided h
  | Fuel => False
  end.
Proof.
  intros H R. pose proof (ghistory_inv _ _ _ H) as K.
  destruct (g_run fo cons_vars (gv_new fo, trail_new 0 0) h) as [[g t]| |]; cbn [outcome] in *; auto.
  destruct K as [T (D & E & G & RD & RE & C)]. simpl in T, G. split; [apply T|].
  pose proof (core_pick _ _ t g D E dec ed G RD RE R) as P.
  destruct (g_pick fo g t dec ed) as [[g' o]| |]; cbn [outcome fst snd] in *; auto.
  destruct P as (D' & E' & P1 & P2 & P3 & P4 & P5). destruct o as [v|].
  - destruct P5 as [P5 P6]. split; auto. destruct (at_rec a v) eqn:X; auto. exfalso.
    assert (assigned t v = true) by (apply (tinv_assigned t a v T); congruence). congruence.
  - intros v Hv. destruct (C v Hv) as [X|X]; auto. apply P3 in X. destruct X as [X|X]; [now apply P5 in X|].
    left. now apply (tinv_assigned t a v T).
Qed.
End Gv.
