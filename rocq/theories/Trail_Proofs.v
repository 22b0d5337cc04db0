From Coq Require Import List Arith ZArith QArith Bool Lia.
From Verif Require Import Base Core_Model Bool_Model Sat_Base Sat_Trail Trail_Model Spec_Trail.
Import ListNotations.
Open Scope nat_scope.

Lemma var_eqb_refl v : var_eqb v v = true.
Proof. now apply var_eqb_eq. Qed.

Lemma hit_app level t e1 e2 v : hit level t (e1 ++ e2) v = hit level t e1 v || hit level t e2 v.
Proof. unfold hit. rewrite existsb_app. now rewrite andb_orb_distrib_l. Qed.

Lemma backtrack_loop_spec level : forall n t,
  let t' := backtrack_loop n level t in
  let es := concat (firstn n (t_levels t)) in
  t_levels t' = skipn n (t_levels t) /\
  (forall v, t_lvl t' v = if hit level t es v then None else t_lvl t v) /\
  (forall v, t_rsn t' v = if hit level t es v then None else t_rsn t v) /\
  same_model (t_bm t) (t_bm t') /\ same_model (t_qm t) (t_qm t') /\
  (forall v, is_def t' v = if hit level t es v then false else is_def t v).
Proof.
  induction n as [|n IH]; intros t.
  - cbn. repeat split; auto.
  - cbn [backtrack_loop].
    pose proof (unassign_fold level (recent t) t) as U. cbn zeta in U.
    set (t1 := pop_level (fold_left (unassign level) (recent t) t)).
    specialize (IH t1). cbn zeta in *.
    destruct U as (U1 & U2 & U3 & U4 & U5 & U6 & U7). destruct IH as (I1 & I2 & I3 & I4 & I5 & I6).
    assert (L1 : t_levels t1 = tl (t_levels t)) by (unfold t1; simpl; now rewrite U1).
    assert (E : forall v, hit level t1 (concat (firstn n (t_levels t1))) v =
      hit level t (concat (firstn n (t_levels t1))) v && negb (hit level t (recent t) v)).
    { intros v. unfold hit at 1. change (t_lvl t1 v) with (t_lvl (fold_left (unassign level) (recent t) t) v). rewrite U2.
      destruct (hit level t (recent t) v) eqn:H; simpl.
      - now rewrite !andb_false_r.
      - unfold hit. now rewrite andb_true_r. }
    assert (E2 : forall v, hit level t (concat (firstn (S n) (t_levels t))) v =
      hit level t (recent t) v || hit level t (concat (firstn n (t_levels t1))) v).
    { intros v. rewrite L1. unfold recent. destruct (t_levels t) as [|es ls]; simpl.
      - rewrite firstn_nil. reflexivity.
      - apply hit_app. }
    split.
    { rewrite I1, L1. destruct (t_levels t); simpl; auto. now rewrite skipn_nil. }
    split; [|split; [|split; [|split]]].
    + intros v. rewrite I2, E, E2. change (t_lvl t1 v) with (t_lvl (fold_left (unassign level) (recent t) t) v). rewrite U2.
      destruct (hit level t (recent t) v), (hit level t (concat (firstn n (t_levels t1))) v); auto.
    + intros v. rewrite I3, E, E2. change (t_rsn t1 v) with (t_rsn (fold_left (unassign level) (recent t) t) v). rewrite U3.
      destruct (hit level t (recent t) v), (hit level t (concat (firstn n (t_levels t1))) v); auto.
    + destruct U4, I4. split; unfold t1 in *; simpl in *; congruence.
    + destruct U5, I5. split; unfold t1 in *; simpl in *; congruence.
    + intros v. rewrite I6, E, E2.
      assert (D : is_def t1 v = if hit level t (recent t) v then false else is_def t v).
      { destruct v; simpl; [apply U6|apply U7]. }
      rewrite D. destruct (hit level t (recent t) v), (hit level t (concat (firstn n (t_levels t1))) v); auto.
Qed.

Lemma lists_nth t i : i <= dl t -> t_levels t <> [] -> lists t i = nth (dl t - i) (t_levels t) [].
Proof.
  intros H N. unfold lists, assigned_at. destruct (Nat.leb_spec i (dl t)); [|lia]. unfold at_.
  destruct (nth_error (t_levels t) (dl t - i)) eqn:E; simpl.
  - symmetry. now apply nth_error_nth.
  - apply nth_error_None in E. unfold dl in *. destruct (t_levels t); [congruence|]. simpl in *. lia.
Qed.
Lemma lists_out t i : dl t < i -> lists t i = [].
Proof. intros H. unfold lists, assigned_at. destruct (Nat.leb_spec i (dl t)); auto. lia. Qed.

(** [shows] plus non-emptiness *)
Definition tinv (t : trail) (a : atrail) : Prop := t_levels t <> [] /\ shows t a.

Lemma is_def_put t v x w : is_def (put t v x) w = if var_eqb w v then true else is_def t w.
Proof.
  destruct v as [i|i], w as [j|j]; simpl; auto; unfold upd; destruct (Nat.eqb_spec j i); auto.
Qed.
Lemma has_value_put_eq t v x : has_value (put t v x) v x.
Proof. destruct v; simpl; apply upd_eq. Qed.
Lemma has_value_put_neq t v x w y : var_eqb w v = false -> has_value t w y -> has_value (put t v x) w y.
Proof.
  destruct v as [i|i], w as [j|j]; simpl; auto; unfold upd; destruct (Nat.eqb_spec j i); auto; discriminate.
Qed.
Lemma put_frame t v x : t_levels (put t v x) = t_levels t /\ t_lvl (put t v x) = t_lvl t /\ t_rsn (put t v x) = t_rsn t /\
  mnum (t_bm (put t v x)) = mnum (t_bm t) /\ mnum (t_qm (put t v x)) = mnum (t_qm t).
Proof. destruct v; simpl; auto. Qed.

Lemma inv_decide t a v x : tinv t a -> t_legal a (TDecide v x) ->
  tinv (trail_decide (put t v x) v) (at_step a (TDecide v x)).
Proof.
  intros [N H] [L1 L2]. pose proof H as [A1 A2 A3 A4 A5 A6 A7 A8 A9].
  destruct (put_frame t v x) as (P1 & P2 & P3 & P4 & P5).
  set (t' := trail_decide (put t v x) v).
  assert (D : dl t' = S (dl t)).
  { unfold t', dl. simpl. rewrite P1. destruct (t_levels t); [congruence|simpl; lia]. }
  assert (LS : forall i, i <= dl t -> lists t' i = lists t i).
  { intros i Hi. rewrite !lists_nth; auto; [|lia|discriminate]. rewrite D. unfold t'. simpl t_levels. rewrite P1.
    replace (S (dl t) - i) with (S (dl t - i)) by lia. reflexivity. }
  assert (LT : lists t' (S (dl t)) = [(v, None)]).
  { rewrite lists_nth; [|lia|discriminate]. rewrite D, Nat.sub_diag. reflexivity. }
  assert (RV : forall w g, at_rec a w = Some g -> var_eqb w v = false).
  { intros w g E. destruct (var_eqb w v) eqn:F; auto. apply var_eqb_eq in F. subst. congruence. }
  assert (LEN : length (t_levels (put t v x)) = S (dl t)).
  { rewrite P1. unfold dl. destruct (t_levels t); [congruence|simpl; lia]. }
  split; [discriminate|]. split.
  - now rewrite D, A1.
  - split; [exact (eq_trans P4 (proj1 A2))|exact (eq_trans P5 (proj2 A2))].
  - intros w. unfold t'. simpl. unfold vupd. rewrite P2. destruct (var_eqb w v); [|apply A3].
    simpl. change (Some (length (t_levels (put t v x))) = Some (S (at_dl a))). now rewrite LEN, A1.
  - intros w. unfold t'. simpl. unfold vupd. rewrite P3. destruct (var_eqb w v); [|apply A4]. auto.
  - intros w. unfold t'. change (is_def (trail_decide (put t v x) v) w) with (is_def (put t v x) w).
    rewrite is_def_put. simpl. unfold vupd. destruct (var_eqb w v); auto.
  - intros w g E. change (has_value (put t v x) w (a_value g)). simpl in E. unfold vupd in E.
    destruct (var_eqb w v) eqn:F.
    + apply var_eqb_eq in F. subst. inversion E; subst. apply has_value_put_eq.
    + apply has_value_put_neq; auto.
  - intros i w r Hi. rewrite D in Hi. simpl. unfold vupd. destruct (Nat.eq_dec i (S (dl t))) as [->|Ni].
    + rewrite LT. split.
      * intros [E|[]]. inversion E; subst. rewrite var_eqb_refl. eexists. split; [reflexivity|]. simpl. split; auto; lia.
      * intros (g & E & G1 & G2). destruct (var_eqb w v) eqn:F.
        -- apply var_eqb_eq in F. inversion E; subst. left. reflexivity.
        -- apply A9 in E. lia.
    + rewrite LS by lia. rewrite A7 by lia. split.
      * intros (g & E & G). exists g. rewrite (RV _ _ E). auto.
      * intros (g & E & G1 & G2). destruct (var_eqb w v) eqn:F.
        -- inversion E; subst. simpl in G1. rewrite <- A1 in G1. lia.
        -- exists g. auto.
  - intros i. destruct (le_lt_dec i (dl t)) as [Hi|Hi]; [rewrite LS; auto|].
    destruct (Nat.eq_dec i (S (dl t))) as [->|Ni].
    + rewrite LT. simpl. constructor; auto. constructor.
    + rewrite lists_out; [constructor|lia].
  - intros w g. simpl. unfold vupd. destruct (var_eqb w v) eqn:F.
    + intros E. inversion E; subst. simpl. apply var_eqb_eq in F. subst. split; auto; lia.
    + intros E. destruct (A9 _ _ E). split; auto; lia.
Qed.

Lemma map_first_length {A} n (f : A -> A) l : length (map_first n f l) = length l.
Proof. revert n. induction l; destruct n; simpl; auto. Qed.
Lemma map_first_nth {A} (f : A -> A) d : forall n l j, j < length l ->
  nth j (map_first n f l) d = if j <? n then f (nth j l d) else nth j l d.
Proof.
  induction n as [|n IH]; intros [|x l] j Hj; simpl in *; try lia; auto.
  destruct j; simpl; auto. rewrite IH by lia. reflexivity.
Qed.

Lemma inv_propagate t a v r k x : tinv t a -> t_legal a (TPropagate v r k x) ->
  exists t', trail_propagate (put t v x) v r k = Ok t' /\ tinv t' (at_step a (TPropagate v r k x)).
Proof.
  intros [N H] (L1 & L2 & L3). pose proof H as [A1 A2 A3 A4 A5 A6 A7 A8 A9].
  destruct (put_frame t v x) as (P1 & P2 & P3 & P4 & P5).
  assert (Dp : dl (put t v x) = dl t) by (unfold dl; now rewrite P1).
  unfold trail_propagate. rewrite Dp. destruct (Nat.leb_spec k (dl t)); [|lia].
  eexists. split; [reflexivity|]. rewrite P1, P2, P3. set (t' := mkTrail _ _ _ _ _).
  assert (LL : length (t_levels t') = length (t_levels t)) by (unfold t'; simpl t_levels; apply map_first_length).
  assert (D : dl t' = dl t) by (unfold dl; now rewrite LL).
  assert (N' : t_levels t' <> []). { intros E. rewrite E in LL. destruct (t_levels t); [congruence|discriminate]. }
  assert (LD : length (t_levels t) = S (dl t)) by (unfold dl; destruct (t_levels t); [congruence|simpl; lia]).
  assert (LS : forall i, i <= dl t -> lists t' i = if k <=? i then (v, r) :: lists t i else lists t i).
  { intros i Hi. rewrite !lists_nth; auto; [|lia]. rewrite D. unfold t'. simpl t_levels. rewrite map_first_nth by lia.
    destruct (Nat.ltb_spec (dl t - i) (dl t - k + 1)), (Nat.leb_spec k i); auto; lia. }
  assert (RV : forall w g, at_rec a w = Some g -> var_eqb w v = false).
  { intros w g E. destruct (var_eqb w v) eqn:F; auto. apply var_eqb_eq in F. subst. congruence. }
  assert (NV : forall i, i <= dl t -> ~ In v (map fst (lists t i))).
  { intros i Hi E. apply in_map_iff in E. destruct E as ((w & r') & E1 & E2). simpl in E1. subst.
    apply A7 in E2; auto. destruct E2 as (g & E2 & _). congruence. }
  split; [exact N'|]. split.
  - now rewrite D, A1.
  - split; [exact (eq_trans P4 (proj1 A2))|exact (eq_trans P5 (proj2 A2))].
  - intros w. unfold t'. simpl. unfold vupd. destruct (var_eqb w v); [|apply A3]. auto.
  - intros w. unfold t'. simpl. unfold vupd. destruct (var_eqb w v); [|apply A4]. auto.
  - intros w. change (is_def t' w) with (is_def (put t v x) w).
    rewrite is_def_put. simpl. unfold vupd. destruct (var_eqb w v); auto.
  - intros w g E. change (has_value (put t v x) w (a_value g)). simpl in E. unfold vupd in E.
    destruct (var_eqb w v) eqn:F.
    + apply var_eqb_eq in F. subst. inversion E; subst. apply has_value_put_eq.
    + apply has_value_put_neq; auto.
  - intros i w r' Hi. rewrite D in Hi. rewrite LS by auto. simpl. unfold vupd. split.
    + intros E. destruct (Nat.leb_spec k i).
      * destruct E as [E|E].
        -- inversion E; subst. rewrite var_eqb_refl. eexists. split; [reflexivity|]. simpl. split; auto; lia.
        -- apply A7 in E; auto. destruct E as (g & E & G). exists g. rewrite (RV _ _ E). auto.
      * apply A7 in E; auto. destruct E as (g & E & G). exists g. rewrite (RV _ _ E). auto.
    + intros (g & E & G1 & G2). destruct (var_eqb w v) eqn:F.
      * apply var_eqb_eq in F. inversion E; subst. simpl in *. destruct (Nat.leb_spec k i); [left; auto|lia].
      * assert (In (w, r') (lists t i)) by (apply A7; eauto). destruct (k <=? i); auto. right; auto.
  - intros i. destruct (le_lt_dec i (dl t)) as [Hi|Hi]; [|rewrite lists_out; [constructor|lia]].
    rewrite LS; auto. destruct (k <=? i); auto. simpl. constructor; auto.
  - intros w g. simpl. unfold vupd. destruct (var_eqb w v) eqn:F.
    + intros E. inversion E; subst. simpl. apply var_eqb_eq in F. subst. split; auto; lia.
    + intros E. destruct (A9 _ _ E). split; auto; lia.
Qed.

Lemma in_concat_firstn (ls : list (list entry)) n v :
  In v (map fst (concat (firstn n ls))) -> exists j, j < n /\ j < length ls /\ In v (map fst (nth j ls [])).
Proof.
  revert ls. induction n as [|n IH]; intros [|es ls]; simpl; try tauto.
  rewrite map_app, in_app_iff. intros [H|H].
  - exists 0. simpl. split; [lia|split; [lia|auto]].
  - destruct (IH _ H) as (j & J1 & J2 & J3). exists (S j). simpl. split; [lia|split; [lia|auto]].
Qed.
Lemma in_concat_firstn_r (ls : list (list entry)) n v j :
  j < n -> In v (map fst (nth j ls [])) -> In v (map fst (concat (firstn n ls))).
Proof.
  revert ls j. induction n as [|n IH]; intros [|es ls] j Hj; simpl; try lia.
  - destruct j; simpl; tauto.
  - rewrite map_app, in_app_iff. destruct j; simpl; auto. intros H. right. apply (IH ls j); auto; lia.
Qed.

Lemma inv_backtrack t a k : tinv t a -> t_legal a (TBacktrack k) ->
  exists t', trail_backtrack t k = Ok t' /\ tinv t' (at_step a (TBacktrack k)) /\
    (forall i, i <= k -> lists t' i = lists t i).
Proof.
  intros [N H] L. simpl in L. pose proof H as [A1 A2 A3 A4 A5 A6 A7 A8 A9].
  unfold trail_backtrack. destruct (Nat.leb_spec k (dl t)); [|lia].
  eexists. split; [reflexivity|].
  pose proof (backtrack_loop_spec k (dl t - k) t) as B. cbn zeta in B.
  set (t' := backtrack_loop (dl t - k) k t) in *. set (es := concat (firstn (dl t - k) (t_levels t))) in *.
  destruct B as (B1 & B2 & B3 & B4 & B5 & B6).
  assert (LD : length (t_levels t) = S (dl t)) by (unfold dl; destruct (t_levels t); [congruence|simpl; lia]).
  assert (LL : length (t_levels t') = S k) by (rewrite B1, skipn_length; lia).
  assert (D : dl t' = k) by (unfold dl; lia).
  assert (N' : t_levels t' <> []) by (intros E; rewrite E in LL; discriminate).
  assert (LS : forall i, i <= k -> lists t' i = lists t i).
  { intros i Hi. rewrite !lists_nth; auto; try lia. rewrite B1, D. 
    rewrite <- (firstn_skipn (dl t - k) (t_levels t)) at 2. rewrite app_nth2; rewrite firstn_length; [|lia].
    f_equal. lia. }
  assert (HIT : forall v, hit k t es v = match at_rec a v with Some g => negb (a_level g <=? k) | None => false end).
  { intros v. unfold hit. rewrite A3. destruct (at_rec a v) as [g|] eqn:E; simpl; [|apply andb_false_r].
    destruct (Nat.leb_spec (a_level g) k); simpl.
    - destruct (Nat.ltb_spec k (a_level g)); [lia|]. apply andb_false_r.
    - destruct (Nat.ltb_spec k (a_level g)); [|lia]. rewrite andb_true_r. apply existsb_var.
      destruct (A9 _ _ E) as [_ R].
      apply (in_concat_firstn_r _ _ _ (dl t - a_level g)); [lia|].
      rewrite <- lists_nth; auto; [|lia]. apply in_map_iff. exists (v, a_reason g). split; auto.
      apply A7; [lia|]. exists g. split; auto. split; [lia|auto]. }
  split; [|exact LS]. split; [exact N'|]. split.
  - auto.
  - simpl. destruct B4 as [? ? ? B4], B5 as [? ? ? B5]. rewrite B4, B5. auto.
  - intros v. rewrite B2, HIT, A3. simpl. unfold cut. destruct (at_rec a v) as [g|]; auto. destruct (a_level g <=? k); auto.
  - intros v. rewrite B3, HIT, A4. simpl. unfold cut. destruct (at_rec a v) as [g|]; auto. destruct (a_level g <=? k); auto.
  - intros v. rewrite B6, HIT, A5. simpl. unfold cut. destruct (at_rec a v) as [g|]; auto. destruct (a_level g <=? k); auto.
  - intros v g E. simpl in E. unfold cut in E. destruct (at_rec a v) as [g'|] eqn:F; [|discriminate].
    destruct (a_level g' <=? k); [|discriminate]. injection E as <-. simpl. pose proof (A6 _ _ F) as V.
    destruct B4 as [B4 _ _ _], B5 as [B5 _ _ _]. destruct v; simpl in *; congruence.
  - intros i v r Hi. rewrite D in Hi. rewrite LS by auto. rewrite A7 by lia. simpl. split.
    + intros (g & E & G1 & G2). rewrite E. simpl. destruct (Nat.leb_spec (a_level g) k); [|lia].
      eexists. split; [reflexivity|]. simpl. split; auto. lia.
    + intros (g & E & G1 & G2). unfold cut in E. destruct (at_rec a v) as [g'|] eqn:F; [|discriminate].
      destruct (a_level g' <=? k); [|discriminate]. injection E as <-. simpl in *. exists g'. split; auto. split; auto. lia.
  - intros i. destruct (le_lt_dec i k); [rewrite LS; auto|]. rewrite lists_out; [constructor|lia].
  - intros v g E. simpl in *. unfold cut in E. destruct (at_rec a v) as [g'|] eqn:F; [|discriminate].
    destruct (Nat.leb_spec (a_level g') k); [|discriminate]. injection E as <-. simpl in *. destruct (A9 _ _ F). split; auto. lia.
Qed.

Lemma inv_clear t a : tinv t a -> tinv (trail_clear t) (at_step a TClear).
Proof.
  intros [N [A1 A2 A3 A4 A5 A6 A7 A8 A9]]. split; [discriminate|]. split; simpl; auto; try discriminate.
  - intros v. destruct v; auto.
  - intros i v r Hi. cbn in Hi. assert (i = 0) by lia. subst. cbn. split; [tauto|]. intros (g & E & _). discriminate.
  - intros i. destruct i; cbn; [constructor|]. unfold lists, assigned_at. cbn. constructor.
Qed.

Lemma inv_resize t a nb nq : tinv t a -> t_legal a (TResize nb nq) ->
  tinv (trail_resize t nb nq) (at_step a (TResize nb nq)).
Proof.
  intros [N H] [L1 L2]. pose proof H as [A1 A2 A3 A4 A5 A6 A7 A8 A9].
  destruct A2 as [A2 A2'].
  assert (KEEP : forall v, at_rec a v <> None -> in_range (Nat.min nb (mnum (t_bm t))) (Nat.min nq (mnum (t_qm t))) v = true).
  { intros v Hv. destruct (at_rec a v) as [g|] eqn:E; [|congruence]. destruct (A9 _ _ E) as [R _].
    rewrite A2, A2'. destruct v as [i|i]; simpl in *; apply Nat.ltb_lt in R; apply Nat.ltb_lt; lia. }
  split; [exact N|]. split; simpl; auto.
  - intros v. pose proof (KEEP v) as K. rewrite A3. destruct (at_rec a v); simpl.
    + rewrite K; auto; discriminate.
    + destruct (in_range _ _ v); auto.
  - intros v. pose proof (KEEP v) as K. rewrite A4. destruct (at_rec a v); simpl.
    + rewrite K; auto; discriminate.
    + destruct (in_range _ _ v); auto.
  - intros v. pose proof (KEEP v) as K. pose proof (A5 v) as B. destruct (at_rec a v) as [g|].
    + specialize (K ltac:(discriminate)). destruct v; simpl in *; rewrite K; auto.
    + destruct v as [i|i]; simpl in *; destruct (_ <? _); auto.
  - intros v g E. pose proof (KEEP v) as K. rewrite E in K. specialize (K ltac:(discriminate)). pose proof (A6 _ _ E) as V.
    destruct v; simpl in *; rewrite K; auto.
  - intros v g E. destruct (A9 _ _ E) as [R1 R2]. split; auto.
    destruct v as [i|i]; simpl in *; apply Nat.ltb_lt in R1; apply Nat.ltb_lt; lia.
Qed.

Lemma inv_new nb nq : tinv (trail_new nb nq) (at_new nb nq).
Proof.
  split; [discriminate|]. split; simpl; auto; try discriminate.
  - intros v. destruct v; auto.
  - intros i v r Hi. cbn in Hi. assert (i = 0) by lia. subst. cbn. split; [tauto|]. intros (g & E & _). discriminate.
  - intros i. destruct i; cbn; [constructor|]. unfold lists, assigned_at. cbn. constructor.
Qed.

Lemma inv_step t a o : tinv t a -> t_legal a o -> exists t', t_step t o = Ok t' /\ tinv t' (at_step a o).
Proof.
  intros H L. destruct o; simpl t_step.
  - eexists. split; [reflexivity|]. now apply inv_decide.
  - now apply inv_propagate.
  - destruct (inv_backtrack _ _ _ H L) as (t' & E & T & _). eauto.
  - eexists. split; [reflexivity|]. now apply inv_clear.
  - eexists. split; [reflexivity|]. now apply inv_resize.
Qed.

Lemma t_run_app h o : forall t, t_run t (h ++ [o]) = bind (t_run t h) (fun t1 => t_step t1 o).
Proof.
  induction h as [|o' h IH]; intros t; simpl.
  - destruct (t_step t o); auto.
  - destruct (t_step t o'); simpl; auto.
Qed.

Lemma history_tinv nb nq h a : t_history nb nq h a -> exists t, t_run (trail_new nb nq) h = Ok t /\ tinv t a.
Proof.
  induction 1 as [|h a o Hh (t & E & T) L].
  - exists (trail_new nb nq). split; auto. apply inv_new.
  - destruct (inv_step _ _ _ T L) as (t' & E' & T'). exists t'. rewrite t_run_app, E. auto.
Qed.

Lemma trail_history_lemma nb nq h a : t_history nb nq h a ->
  exists t, t_run (trail_new nb nq) h = Ok t /\ shows t a /\ lists t (dl t) = recent t.
Proof.
  intros H. destruct (history_tinv _ _ _ _ H) as (t & E & T). exists t. split; auto. destruct T as [N T]. split; auto.
  rewrite lists_nth; auto. rewrite Nat.sub_diag. unfold recent. destruct (t_levels t); auto.
Qed.

Lemma backtrack_lemma nb nq h a k t : t_history nb nq h a -> t_run (trail_new nb nq) h = Ok t -> k <= dl t ->
  exists t', trail_backtrack t k = Ok t' /\ dl t' = k /\
    (forall v, is_def t' v = true <-> is_def t v = true /\ exists j, t_lvl t v = Some j /\ j <= k) /\
    (forall v, is_def t' v = true -> t_lvl t' v = t_lvl t v /\ t_rsn t' v = t_rsn t v /\
       (forall x, has_value t v x -> has_value t' v x)) /\
    (forall v, is_def t' v = false -> t_lvl t' v = None /\ t_rsn t' v = None) /\
    (forall i, i <= k -> assigned_at t' i = assigned_at t i).
Proof.
  intros H E Hk. destruct (history_tinv _ _ _ _ H) as (t0 & E0 & T). rewrite E in E0. inversion E0; subst t0.
  destruct (inv_backtrack t a k T) as (t' & B & T' & LS).
  { simpl. destruct T as [_ T]. now rewrite <- (sh_dl _ _ T). }
  exists t'. split; auto. destruct T as [N [A1 A2 A3 A4 A5 A6 A7 A8 A9]]. destruct T' as [N' [B1 B2 B3 B4 B5 B6 B7 B8 B9]].
  simpl in *. split; auto. split; [|split; [|split]].
  - intros v. rewrite B5, A5, A3. destruct (at_rec a v) as [g|]; simpl.
    + destruct (Nat.leb_spec (a_level g) k); split; try discriminate; auto.
      * intros _. split; auto. eauto.
      * intros (_ & j & J1 & J2). inversion J1. lia.
    + split; [discriminate|]. intros [? _]. discriminate.
  - intros v Hd. rewrite B5 in Hd. rewrite B3, B4, A3, A4. destruct (at_rec a v) as [g|] eqn:Eg; simpl in *; [|discriminate].
    destruct (a_level g <=? k) eqn:Ek; [|discriminate]. simpl. split; auto. split; auto. intros x Hx.
    assert (V := A6 _ _ Eg). assert (V' := B6 v). rewrite Eg in V'. simpl in V'. rewrite Ek in V'. specialize (V' _ eq_refl). simpl in V'.
    destruct v; simpl in *; congruence.
  - intros v Hd. rewrite B5 in Hd. rewrite B3, B4. destruct (cut k (at_rec a v)); [discriminate|auto].
  - intros i Hi. specialize (LS i Hi). unfold lists in LS. unfold assigned_at in *.
    assert (D : length (t_levels t) = S (dl t)) by (unfold dl; destruct (t_levels t); [congruence|simpl; lia]).
    assert (D' : length (t_levels t') = S (dl t')) by (unfold dl; destruct (t_levels t'); [congruence|simpl; lia]).
    destruct (Nat.leb_spec i (dl t)); [|lia]. destruct (Nat.leb_spec i (dl t')); [|lia]. unfold at_ in *.
    destruct (nth_error (t_levels t) (dl t - i)) eqn:X; [|apply nth_error_None in X; lia].
    destruct (nth_error (t_levels t') (dl t' - i)) eqn:X'; [|apply nth_error_None in X'; lia].
    simpl in *. congruence.
Qed.

(** * timestamps *)
Section Ts.
Context {T : Type}.
Variable x0 : T.

Definition ts_inv (m : model T) : Prop := (0 <= mgts m)%Z /\ forall i, (mts m i < mgts m)%Z.
Lemma ts_step m o : ts_inv m -> ts_inv (m_step x0 m o) /\ (mgts m <= mgts (m_step x0 m o))%Z.
Proof.
  intros [H0 H]. destruct o; simpl; (split; [split|]); simpl; try lia; try (intros j; simpl); auto.
  - unfold upd. destruct (j =? i); [lia|]. specialize (H j). lia.
  - destruct (j <? _); auto. lia.
Qed.
Lemma ts_run h : forall m, ts_inv m -> ts_inv (m_run x0 m h) /\ (mgts m <= mgts (m_run x0 m h))%Z.
Proof.
  induction h as [|o h IH]; intros m H; simpl; [split; auto; lia|].
  destruct (ts_step m o H) as [A B]. destruct (IH _ A) as [C D]. unfold m_run in *. split; auto. lia.
Qed.
(** once a variable is undefined or newer than a time, it stays so *)
Definition fresh (i : nat) (g : Z) (m : model T) : Prop := mdef m i = false \/ (g <= mts m i)%Z.
Lemma fresh_step i g m o : (g <= mgts m)%Z -> fresh i g m -> fresh i g (m_step x0 m o).
Proof.
  unfold fresh. intros G H. destruct o as [j x|j| |n]; simpl; unfold upd; auto.
  - destruct (Nat.eqb_spec i j); auto.
  - destruct (Nat.eqb_spec i j); auto.
  - destruct (i <? _); auto.
Qed.
Lemma fresh_run h i : forall g m, ts_inv m -> (g <= mgts m)%Z -> fresh i g m -> fresh i g (m_run x0 m h).
Proof.
  induction h as [|o h IH]; intros g m I G H; simpl; auto.
  destruct (ts_step m o I) as [A B]. apply IH; auto; [lia|]. now apply fresh_step.
Qed.
Lemma untouched_step m o i : mdef m i = true ->
  (mdef (m_step x0 m o) i = true /\ mts (m_step x0 m o) i = mts m i /\ mval (m_step x0 m o) i = mval m i /\
   (forall y, o <> MSet i y) /\ o <> MClear i /\ o <> MClearAll) \/
  fresh i (mgts m) (m_step x0 m o).
Proof.
  intros D. unfold fresh. destruct o as [j x|j| |n]; simpl; unfold upd.
  - destruct (Nat.eqb_spec i j); [right; right; lia|].
    left. repeat split; auto; try discriminate. intros y E. inversion E. auto.
  - destruct (Nat.eqb_spec i j); auto.
    left. repeat split; auto; try discriminate. intros E. inversion E. auto.
  - auto.
  - destruct (i <? _); auto. left. repeat split; auto; discriminate.
Qed.
Lemma same_ts_run i : forall h m, ts_inv m -> mdef m i = true -> mdef (m_run x0 m h) i = true -> mts (m_run x0 m h) i = mts m i ->
  (forall y, ~ In (MSet i y) h) /\ ~ In (MClear i) h /\ ~ In MClearAll h /\
  forall p q, h = p ++ q -> mdef (m_run x0 m p) i = true /\ mval (m_run x0 m p) i = mval m i.
Proof.
  induction h as [|o h IH]; intros m I D D' E.
  - repeat split; auto; destruct p; try discriminate; auto.
  - change (m_run x0 m (o :: h)) with (m_run x0 (m_step x0 m o) h) in *.
    destruct (ts_step m o I) as [A B].
    destruct (untouched_step m o i D) as [(U1 & U2 & U3 & U4 & U5 & U6)|U].
    + destruct (IH _ A U1 D') as (J1 & J2 & J3 & J4); [congruence|].
      split; [|split; [|split]].
      * intros y [F|F]; [now apply (U4 y)|now apply (J1 y)].
      * intros [F|F]; auto.
      * intros [F|F]; auto.
      * intros p q F. destruct p as [|o' p]; [split; auto|]. inversion F; subst. 
        change (m_run x0 m (o' :: p)) with (m_run x0 (m_step x0 m o') p).
        destruct (J4 p q eq_refl). split; congruence.
    + exfalso. destruct (fresh_run h i _ _ A B U) as [F|F]; [congruence|]. destruct I as [_ I]. specialize (I i). lia.
Qed.
Lemma ts_new n : ts_inv (model_new x0 n).
Proof. split; simpl; intros; lia. Qed.

Lemma timestamp_lemma n h1 h2 i :
  let m1 := m_run x0 (model_new x0 n) h1 in
  let m2 := m_run x0 (model_new x0 n) (h1 ++ h2) in
  mdef m1 i = true -> mdef m2 i = true -> mts m1 i = mts m2 i ->
  (forall y, ~ In (MSet i y) h2) /\ ~ In (MClear i) h2 /\ ~ In MClearAll h2 /\
  forall p q, h2 = p ++ q ->
    mdef (m_run x0 (model_new x0 n) (h1 ++ p)) i = true /\
    mval (m_run x0 (model_new x0 n) (h1 ++ p)) i = mval m1 i.
Proof.
  intros m1 m2 D1 D2 E. 
  assert (X : forall p, m_run x0 (model_new x0 n) (h1 ++ p) = m_run x0 m1 p) by (intros; unfold m1, m_run; apply fold_left_app).
  unfold m2 in *. rewrite X in *.
  destruct (same_ts_run i h2 m1) as (A & B & C & F); auto.
  { apply (ts_run h1). apply ts_new. }
  split; auto. split; auto. split; auto. intros p q P. rewrite X. eauto.
Qed.

Lemma timestamp_later n h1 h2 i j y :
  let m1 := m_run x0 (model_new x0 n) h1 in
  let m2 := m_run x0 (model_new x0 n) (h1 ++ h2) in
  let m3 := set_value m2 j y in
  mdef m3 j = true /\ mval m3 j = y /\ (mts m1 i < mts m3 j)%Z.
Proof.
  intros m1 m2 m3. unfold m3. simpl. rewrite !upd_eq. split; auto. split; auto.
  destruct (ts_run h1 (model_new x0 n) (ts_new n)) as [[_ A] _].
  destruct (ts_run h2 (m_run x0 (model_new x0 n) h1)) as [_ B]; [apply (ts_run h1), ts_new|].
  unfold m2, m_run in *. rewrite fold_left_app. specialize (A i). fold m1 in A |- *. unfold m1, m_run in *. lia.
Qed.
End Ts.

(** * C53 *)
Lemma levels_step t o t' : t_levels t <> [] -> t_step t o = Ok t' -> t_levels t' <> [].
Proof.
  intros N E. destruct o; simpl in E.
  - inversion E; subst. discriminate.
  - unfold trail_propagate in E. destruct (_ <=? _); [|discriminate]. inversion E; subst. simpl.
    destruct (put_frame t v x) as (P1 & _). rewrite P1. intros F. apply (f_equal (@length _)) in F. rewrite map_first_length in F.
    destruct (t_levels t); [congruence|discriminate].
  - unfold trail_backtrack in E. destruct (Nat.leb_spec level (dl t)); [|discriminate]. inversion E; subst.
    destruct (backtrack_loop_spec level (dl t - level) t) as (B & _). intros F. rewrite B in F.
    apply (f_equal (@length _)) in F. rewrite skipn_length in F. change (length (@nil (list entry))) with 0 in F. clear B E. unfold dl in *. destruct (t_levels t); [congruence|cbn [length] in *; lia].
  - inversion E; subst. discriminate.
  - inversion E; subst. exact N.
Qed.

Definition cinv (t : trail) (c : cursor) (acc : list entry) : Prop :=
  match cu_level c with
  | None => acc = []
  | Some j => (j = dl t /\ acc = firstn (cu_next c) (rev (recent t)) /\ cu_next c <= length (recent t)) \/
              (j < dl t /\ acc = [])
  end.

Lemma cinv_step t c acc o t' : t_levels t <> [] -> t_step t o = Ok t' -> cinv t c acc ->
  cinv t' (c_notify c o) (if starts_level o then [] else acc).
Proof.
  intros N E H. destruct o; simpl in *.
  - inversion E; subst. unfold cinv in *. destruct (cu_level c) as [j|]; auto. right. split; auto.
    destruct (put_frame t v x) as (P1 & _). unfold dl. simpl. rewrite P1.
    assert (LD : length (t_levels t) = S (dl t)) by (unfold dl; destruct (t_levels t); [congruence|simpl; lia]).
    destruct H as [[-> _]|[H _]]; lia.
  - unfold trail_propagate in E. destruct (_ <=? _); [|discriminate]. inversion E; subst. clear E.
    destruct (put_frame t v x) as (P1 & _). unfold cinv in *. destruct (cu_level c) as [j|]; auto.
    assert (D : dl (mkTrail (map_first (dl (put t v x) - level + 1) (cons (v, r)) (t_levels (put t v x)))
      (vupd (t_lvl (put t v x)) v (Some level)) (vupd (t_rsn (put t v x)) v r) (t_bm (put t v x)) (t_qm (put t v x))) = dl t).
    { unfold dl at 1. simpl t_levels. rewrite map_first_length, P1. reflexivity. }
    rewrite D. unfold recent. simpl t_levels. rewrite P1. unfold recent in H.
    destruct H as [(H1 & H2 & H3)|H]; auto. left. split; auto. subst.
    destruct (t_levels t) as [|es ls]; [congruence|].
    replace (dl (put t v x) - level + 1) with (S (dl (put t v x) - level)) by lia. simpl in *.
    rewrite firstn_app, rev_length. replace (cu_next c - length es) with 0 by lia. simpl. rewrite app_nil_r. split; auto.
  - unfold cinv. simpl. auto.
  - unfold cinv. simpl. auto.
  - inversion E; subst. exact H.
Qed.

Lemma cinv_call t c acc : cinv t c acc ->
  let (c', r) := cursor_assigned c t in cinv t c' (acc ++ r) /\ acc ++ r = rev (recent t).
Proof.
  intros H. unfold cursor_assigned, cinv in *. simpl.
  assert (X : acc ++ skipn (match cu_level c with Some k => if dl t =? k then cu_next c else 0 | None => 0 end) (rev (recent t)) = rev (recent t)).
  { destruct (cu_level c) as [j|]; [|subst; auto]. destruct H as [(H1 & H2 & _)|[H1 H2]].
    - subst. rewrite Nat.eqb_refl. apply firstn_skipn.
    - subst. destruct (Nat.eqb_spec (dl t) j); auto. lia. }
  rewrite X. split; auto. left. split; auto. split; [|lia]. rewrite <- (rev_length (recent t)). now rewrite firstn_all.
Qed.

Lemma c_run_inv h : forall t c acc t' c' acc', t_levels t <> [] -> cinv t c acc ->
  c_run t c acc h = Ok (t', c', acc') -> t_levels t' <> [] /\ cinv t' c' acc'.
Proof.
  induction h as [|o h IH]; intros t c acc t' c' acc' N H E; simpl in E.
  - inversion E; subst. auto.
  - destruct o as [o|].
    + destruct (t_step t o) as [t1| |] eqn:F; simpl in E; try discriminate.
      apply IH in E; auto; [eapply levels_step; eauto|eapply cinv_step; eauto].
    + pose proof (cinv_call _ _ _ H) as K. destruct (cursor_assigned c t) as [c1 r] eqn:CA. injection CA as <- <-. destruct K as [K1 K2]. exact (IH _ _ _ _ _ _ N K1 E).
Qed.
Lemma c_run_app h2 : forall h1 t c acc, c_run t c acc (h1 ++ h2) =
  bind (c_run t c acc h1) (fun '(t1, c1, a1) => c_run t1 c1 a1 h2).
Proof.
  induction h1 as [|o h IH]; intros t c acc; simpl; auto.
  destruct o as [o|].
  - destruct (t_step t o); simpl; auto.
  - apply IH.
Qed.
Lemma cursor_lemma nb nq h t c acc :
  c_run (trail_new nb nq) cursor_new [] (h ++ [CAssignedCall]) = Ok (t, c, acc) -> acc = rev (recent t).
Proof.
  rewrite c_run_app. destruct (c_run (trail_new nb nq) cursor_new [] h) as [((t1 & c1) & a1)| |] eqn:E; simpl; try discriminate.
  apply c_run_inv in E; [|discriminate|reflexivity]. destruct E as [_ E]. apply cinv_call in E.
  destruct (cursor_assigned c1 t1) eqn:CA. injection CA as <- <-. destruct E as [_ E]. intros F. injection F as <- <- <-. exact E.
Qed.

(** * C54 *)
Section Comb.
Context {PS : Type}.
Notation plug := (@plugin PS).
Lemma comb_round_spec : forall (ps : list plug) ss d t ss' d' t' cs,
  comb_round ps ss d t = Ok (ss', d', t', cs) ->
  (cs = [] -> quiet_pass ps ss d t ss' d' t') /\
  (cs <> [] -> exists p s d1 t1 s', In p ps /\ p s d1 t1 = Ok (s', d', t', cs)).
Proof.
  induction ps as [|p ps IH]; intros [|s ss] d t ss' d' t' cs E; simpl in E; try discriminate.
  - inversion E; subst. split; [constructor|congruence].
  - destruct (p s d t) as [(((s1 & d1) & t1) & cs1)| |] eqn:F; simpl in E; try discriminate.
    destruct cs1 as [|c cs1].
    + destruct (comb_round ps ss d1 t1) as [(((ss1 & d2) & t2) & cs2)| |] eqn:G; simpl in E; try discriminate.
      inversion E; subst. apply IH in G. destruct G as [G1 G2]. split.
      * intros Hc. specialize (G1 Hc). subst. econstructor; eauto.
      * intros Hc. destruct (G2 Hc) as (p' & s' & d3 & t3 & s3 & I & R). exists p', s', d3, t3, s3. split; auto. right; auto.
    + inversion E; subst. split; [discriminate|]. intros _. exists p, s, d, t, s1. split; auto. left; auto.
Qed.

Lemma comb_lemma : forall fuel (ps : list plug) ss d t ss' d' t' cs,
  comb_propagate fuel ps ss d t = Ok (ss', d', t', cs) ->
  (cs = [] -> exists ss0 d0 t0, quiet_pass ps ss0 d0 t0 ss' d' t' /\ length (recent t') = length (recent t0)) /\
  (cs <> [] -> exists p s d1 t1 s', In p ps /\ p s d1 t1 = Ok (s', d', t', cs)).
Proof.
  induction fuel as [|f IH]; intros ps ss d t ss' d' t' cs E; simpl in E; [discriminate|].
  destruct (comb_round ps ss d t) as [(((s1 & d1) & t1) & cs1)| |] eqn:F; simpl in E; try discriminate.
  apply comb_round_spec in F. destruct F as [F1 F2]. destruct cs1 as [|c cs1].
  - destruct (Nat.eqb_spec (length (recent t)) (length (recent t1))).
    + inversion E; subst. split; [|congruence]. intros _. exists ss, d, t. split; auto.
    + apply IH in E. auto.
  - inversion E; subst. split; [discriminate|]. intros _. apply F2. discriminate.
Qed.

Lemma quiet_recent (ps : list plug) : (forall p s d t s' d' t' cs, In p ps -> p s d t = Ok (s', d', t', cs) -> exists es, recent t' = es ++ recent t) ->
  forall ss d t ss' d' t', quiet_pass ps ss d t ss' d' t' -> exists es, recent t' = es ++ recent t.
Proof.
  intros A ss d t ss' d' t' H. induction H as [d t|p ps s ss d t s1 d1 t1 ss1 d2 t2 E H IH].
  - exists []. auto.
  - destruct (A _ _ _ _ _ _ _ _ (or_introl eq_refl) E) as (e1 & E1). destruct IH as (e2 & E2).
    + intros. eapply A; eauto. right; auto.
    + exists (e2 ++ e1). rewrite E2, E1. now rewrite app_assoc.
Qed.
(** in a pass that leaves the size unchanged no plugin adds anything *)
Lemma quiet_unchanged (ps : list plug) : (forall p s d t s' d' t' cs, In p ps -> p s d t = Ok (s', d', t', cs) -> exists es, recent t' = es ++ recent t) ->
  forall ss d t ss' d' t', quiet_pass ps ss d t ss' d' t' -> length (recent t') = length (recent t) ->
  silent_pass ps ss d t ss' d' t'.
Proof.
  intros A ss d t ss' d' t' H. induction H as [d t|p ps s ss d t s1 d1 t1 ss1 d2 t2 E H IH]; intros L.
  - constructor.
  - destruct (A _ _ _ _ _ _ _ _ (or_introl eq_refl) E) as (e1 & E1).
    destruct (quiet_recent ps) with (ss := ss) (d := d1) (t := t1) (ss' := ss1) (d' := d2) (t' := t2) as (e2 & E2); auto.
    { intros. eapply A; eauto. right; auto. }
    rewrite E2, E1, !app_length in L. destruct e1; [|simpl in L; lia]. destruct e2; [|simpl in L; lia]. simpl in *.
    econstructor; eauto. apply IH; [intros; eapply A; eauto; right; auto|]. congruence.
Qed.

Lemma comb_terminates (ps : list plug) (P : trail -> Prop) n :
  (forall p s d t, In p ps -> P t -> exists s' d' t' cs, p s d t = Ok (s', d', t', cs) /\ P t' /\ length (recent t) <= length (recent t') <= n) ->
  forall k fuel ss d t, length ss = length ps -> P t -> length (recent t) <= n -> n - length (recent t) <= k -> k < fuel ->
  exists r, comb_propagate fuel ps ss d t = Ok r.
Proof.
  intros H.
  assert (R : forall ps0 ss d t, incl ps0 ps -> length ss = length ps0 -> P t -> length (recent t) <= n ->
    exists ss' d' t' cs, comb_round ps0 ss d t = Ok (ss', d', t', cs) /\ P t' /\ length ss' = length ps0 /\ length (recent t) <= length (recent t') <= n).
  { induction ps0 as [|p ps0 IH]; intros [|s ss] d t I L Pt Ln; simpl in L; try discriminate.
    - simpl. exists [], d, t, []. auto.
    - destruct (H p s d t) as (s' & d' & t' & cs & E & P' & B); auto; [apply I; left; auto|].
      simpl. rewrite E. simpl. destruct cs as [|c cs].
      + destruct (IH ss d' t') as (ss2 & d2 & t2 & cs2 & E2 & P2 & L2 & B2); auto; [intros x Hx; apply I; right; auto|lia|].
        rewrite E2. simpl. exists (s' :: ss2), d2, t2, cs2. split; auto. split; auto. split; [simpl; auto|lia].
      + exists (s' :: ss), d', t', (c :: cs). split; auto. }
  induction k as [|k IH]; intros fuel ss d t L Pt Ln K F; (destruct fuel as [|fuel]; [lia|]); simpl;
    (destruct (R ps ss d t) as (ss' & d' & t' & cs & E & P' & L' & B); auto; [apply incl_refl|]); rewrite E; simpl;
    (destruct cs; [|eauto]); (destruct (Nat.eqb_spec (length (recent t)) (length (recent t'))); [eauto|]).
  - lia.
  - apply IH; auto; try lia.
Qed.
End Comb.
