(** Variable orders satisfy the contract used by the SAT theorems; restart policies. *)
From Coq Require Import List Arith ZArith NArith QArith Bool Lia.
From Verif Require Import Base Core_Model Analysis_Model Solver_Model Spec_Sat Sat_Base Sat_Inv Sat_Trail Order_Model.
From Verif Require Export Spec_Order.
Import ListNotations.
Open Scope nat_scope.

(** ** scans *)
Lemma first_undef_spec df : forall k i,
  match first_undef df i k with
  | Some j => i <= j < i + k /\ df j = false /\ forall m, i <= m < j -> df m = true
  | None => forall m, i <= m < i + k -> df m = true
  end.
Proof.
  induction k as [|k IH]; intros i; simpl; [intros; lia|].
  destruct (df i) eqn:E.
  - specialize (IH (S i)). destruct (first_undef df (S i) k) as [j|].
    + destruct IH as (A & B & C). repeat split; auto; try lia. intros m Hm.
      destruct (Nat.eq_dec m i) as [->|]; auto. apply C. lia.
    + intros m Hm. destruct (Nat.eq_dec m i) as [->|]; auto. apply IH. lia.
  - repeat split; auto; lia.
Qed.


Lemma fu_pick_spec t :
  match fu_pick t with
  | Some v => var_exists t v /\ var_defined t v = false /\
              forall w, var_exists t w -> var_ltb w v = true -> var_defined t w = true
  | None => forall v, var_exists t v -> var_defined t v = true
  end.
Proof.
  unfold fu_pick. pose proof (first_undef_spec (mdef (t_bm t)) (mnum (t_bm t)) 0) as H1.
  destruct (first_undef (mdef (t_bm t)) 0 (mnum (t_bm t))) as [i|].
  - destruct H1 as (A & B & C). repeat split; simpl; auto; try lia.
    intros [j|j] Hj Hlt; simpl in *; [|discriminate]. apply C. destruct (Nat.ltb_spec j i); [lia|discriminate].
  - pose proof (first_undef_spec (mdef (t_qm t)) (mnum (t_qm t)) 0) as H2.
    destruct (first_undef (mdef (t_qm t)) 0 (mnum (t_qm t))) as [i|]; simpl.
    + destruct H2 as (A & B & C). repeat split; auto; try lia.
      intros [j|j] Hj Hlt; simpl in *; [apply H1; lia|]. apply C. destruct (Nat.ltb_spec j i); [lia|discriminate].
    + intros [j|j] Hj; simpl in *; [apply H1|apply H2]; lia.
Qed.

(** ** Evsids *)
Section Evsids.
Context {F : Type}.
Variable fo : fops F.
(** values that occur as scores: closed under the operations and greater than -1 *)
Variable pos : F -> Prop.
Hypothesis pos_zero : pos (f_zero fo).
Hypothesis pos_one : pos (f_one fo).
Hypothesis pos_add : forall a b, pos a -> pos b -> pos (f_add fo a b).
Hypothesis pos_grow : forall a, pos a -> pos (f_mul fo a (f_grow fo)).
Hypothesis pos_div : forall a, pos a -> pos (f_div fo a (f_threshold fo)).
Hypothesis pos_gt : forall a, pos a -> f_gt fo a (f_neg1 fo) = true.

Definition ev_ok (n : nat) (e : evsids) : Prop :=
  length (ev_scores e) = n /\ Forall pos (ev_scores e) /\ pos (ev_inc e).

Lemma Forall_set_nth {A} (P : A -> Prop) i x l : Forall P l -> P x -> Forall P (set_nth i x l).
Proof.
  intros H Hx. apply Forall_forall. intros y Hy. apply set_nth_In in Hy. destruct Hy as [->|Hy]; auto.
  rewrite Forall_forall in H. auto.
Qed.

Lemma ev_bump_ok n e i : ev_ok n e -> ev_ok n (ev_bump fo e i).
Proof.
  intros (H1 & H2 & H3). unfold ev_bump. destruct (nth_error (ev_scores e) i) as [s|] eqn:E; [|repeat split; auto].
  assert (Hs : pos s). { rewrite Forall_forall in H2. apply H2. eapply nth_error_In; eauto. }
  assert (G : ev_ok n (mkEv (set_nth i (f_add fo s (ev_inc e)) (ev_scores e)) (ev_inc e))).
  { repeat split; simpl; auto. rewrite set_nth_length; auto. apply Forall_set_nth; auto. }
  destruct (f_ge fo (f_add fo s (ev_inc e)) (f_threshold fo)); auto.
  destruct G as (G1 & G2 & G3). repeat split; simpl in *; auto.
  - rewrite map_length; auto.
  - apply Forall_forall. intros y Hy. apply in_map_iff in Hy. destruct Hy as (z & <- & Hz).
    apply pos_div. rewrite Forall_forall in G2. auto.
Qed.
Lemma ev_bump_clause_ok n c : forall e, ev_ok n e -> ev_ok n (ev_bump_clause fo e c).
Proof. unfold ev_bump_clause. induction c; simpl; intros; auto. apply IHc. now apply ev_bump_ok. Qed.
Lemma ev_learned_ok n c e : ev_ok n e -> ev_ok n (ev_learned fo e c).
Proof. intros H. apply (ev_bump_clause_ok n c) in H. destruct H as (A & B & C). repeat split; simpl; auto. Qed.
Lemma ev_init_ok n d e : ev_ok n e -> ev_ok n (ev_init fo e d).
Proof.
  intros (A & B & C). unfold ev_init.
  assert (G : ev_ok n (mkEv (map (fun _ => f_zero fo) (ev_scores e)) (ev_inc e))).
  { repeat split; simpl; auto. rewrite map_length; auto. apply Forall_forall. intros y Hy.
    apply in_map_iff in Hy. destruct Hy as (z & <- & _). auto. }
  revert G. generalize (mkEv (map (fun _ => f_zero fo) (ev_scores e)) (ev_inc e)).
  induction (asserted d ++ learned d); simpl; intros; auto. apply IHl. now apply ev_bump_clause_ok.
Qed.
Lemma ev_new_ok n : ev_ok n (ev_new fo n).
Proof.
  unfold ev_new, ev_resize. simpl. rewrite firstn_nil. simpl. repeat split; simpl; auto.
  - rewrite repeat_length. lia.
  - apply Forall_forall. intros y Hy. apply repeat_spec in Hy. subst; auto.
Qed.

(** [best] is the best candidate among the scanned indices *)
Lemma ev_pick_loop_spec df : forall scores i best bs,
  Forall pos scores ->
  (best = None -> bs = f_neg1 fo) ->
  match ev_pick_loop fo df i scores best bs with
  | Some j => best = Some j \/ (i <= j < i + length scores /\ df j = false)
  | None => best = None /\ forall j, i <= j < i + length scores -> df j = true
  end.
Proof.
  induction scores as [|s scores IH]; intros i best bs HP Hb; simpl.
  - destruct best; auto. split; auto. intros; lia.
  - inversion HP as [|? ? P1 P2]; subst.
    destruct (df i) eqn:E; simpl.
    + specialize (IH (S i) best bs P2 Hb). destruct (ev_pick_loop fo df (S i) scores best bs) as [j|].
      * destruct IH as [IH|[IH1 IH2]]; auto. right. split; auto. lia.
      * destruct IH as [IH1 IH2]. split; auto. intros j Hj. destruct (Nat.eq_dec j i) as [->|]; auto. apply IH2. lia.
    + destruct (f_gt fo s bs) eqn:G.
      * specialize (IH (S i) (Some i) s P2 ltac:(discriminate)).
        destruct (ev_pick_loop fo df (S i) scores (Some i) s) as [j|].
        -- destruct IH as [IH|[IH1 IH2]]; [inversion IH; subst; right; split; auto; lia|right; split; auto; lia].
        -- destruct IH as [IH _]; discriminate.
      * specialize (IH (S i) best bs P2 Hb). destruct (ev_pick_loop fo df (S i) scores best bs) as [j|].
        -- destruct IH as [IH|[IH1 IH2]]; auto. right. split; auto. lia.
        -- destruct IH as [IH1 IH2]. rewrite (Hb IH1) in G. rewrite pos_gt in G by auto. discriminate.
Qed.

Lemma ev_pick_spec n e t : ev_ok n e ->
  match ev_pick fo e t with
  | Some v => exists i, v = VBool i /\ i < n /\ mdef (t_bm t) i = false
  | None => forall i, i < n -> mdef (t_bm t) i = true
  end.
Proof.
  intros (H1 & H2 & H3). unfold ev_pick.
  pose proof (ev_pick_loop_spec (mdef (t_bm t)) (ev_scores e) 0 None (f_neg1 fo) H2 (fun _ => eq_refl)) as H.
  destruct (ev_pick_loop fo (mdef (t_bm t)) 0 (ev_scores e) None (f_neg1 fo)) as [j|]; simpl.
  - destruct H as [H|[A B]]; [discriminate|]. exists j. repeat split; auto. lia.
  - destruct H as [_ H]. intros i Hi. apply H. lia.
Qed.
End Evsids.

(** ** the contract *)
Record order_spec {OS} (n : nat) (o : order OS) (I : OS -> trail -> Prop) : Prop := mkOSpec {
  os_pick : forall s t, I s t ->
    match o_pick o s t with
    | (s', Some v) => exists i, v = VBool i /\ i < n /\ mdef (t_bm t) i = false /\
                      forall x, I s' (decide_top t i x)
    | (s', None) => forall i, i < n -> mdef (t_bm t) i = true
    end;
  os_more : forall s t t', I s t -> (forall i, mdef (t_bm t) i = true -> mdef (t_bm t') i = true) ->
    mnum (t_bm t') = mnum (t_bm t) -> t_qm t' = t_qm t -> I s t';
  os_learned : forall s t c, I s t -> I (o_learned o s t c) t;
  os_resolved : forall s t c, I s t -> I (o_resolved o s t c) t;
  os_backtrack : forall s t k t', I s t -> trail_backtrack t k = Ok t' -> I (o_before_backtrack o s t k) t';
  os_restart : forall s t, I s t -> I (o_before_backtrack o s t 0) (trail_clear t) }.

Lemma heur_of_ok {OS RS} n (o : order OS) (r : restart_policy RS) I :
  order_spec n o I -> order_ok n (heur_of o r) (fun h t => I (fst h) t).
Proof.
  intros [H1 H2 H3 H4 H5 H6]. constructor; simpl; auto.
  - intros h d t Hh. specialize (H1 (fst h) t Hh). destruct (o_pick o (fst h) t) as [s [v|]]; simpl; auto.
  - intros h t t' Hh A B C. eapply H2; eauto.
Qed.

Lemma backtrack_loop_frame k : forall m t,
  let t' := backtrack_loop m k t in
  mnum (t_bm t') = mnum (t_bm t) /\ mnum (t_qm t') = mnum (t_qm t).
Proof.
  induction m as [|m IH]; intros t; simpl; auto.
  destruct (unassign_fold k (recent t) t) as (_ & _ & _ & S1 & S2 & _).
  destruct (IH (pop_level (fold_left (unassign k) (recent t) t))) as [A B]. rewrite A, B. simpl.
  split; [apply S1|apply S2].
Qed.
Lemma backtrack_frame t k t' : trail_backtrack t k = Ok t' ->
  mnum (t_bm t') = mnum (t_bm t) /\ mnum (t_qm t') = mnum (t_qm t).
Proof.
  unfold trail_backtrack. destruct (k <=? dl t); [|discriminate]. intros E. inversion E. apply backtrack_loop_frame.
Qed.

Lemma first_unassigned_spec n :
  order_spec n first_unassigned (fun _ t => mnum (t_bm t) = n /\ mnum (t_qm t) = 0).
Proof.
  constructor; simpl; auto.
  - intros s t [H1 H2]. pose proof (fu_pick_spec t) as H. destruct (fu_pick t) as [[i|i]|].
    + simpl in H. destruct H as (A & B & _). exists i. repeat split; auto. lia.
    + simpl in H. lia.
    + intros i Hi. apply (H (VBool i)). simpl. lia.
  - intros s t t' [H1 H2] _ E1 E2. rewrite E2. split; congruence.
  - intros s t k t' [H1 H2] E. apply backtrack_frame in E. lia.
Qed.

Section EvsidsSpec.
Context {F : Type}.
Variable fo : fops F.
Variable pos : F -> Prop.
Hypothesis pos_zero : pos (f_zero fo).
Hypothesis pos_add : forall a b, pos a -> pos b -> pos (f_add fo a b).
Hypothesis pos_grow : forall a, pos a -> pos (f_mul fo a (f_grow fo)).
Hypothesis pos_div : forall a, pos a -> pos (f_div fo a (f_threshold fo)).
Hypothesis pos_gt : forall a, pos a -> f_gt fo a (f_neg1 fo) = true.
Lemma evsids_spec n : order_spec n (evsids_order fo) (fun e _ => ev_ok pos n e).
Proof.
  constructor; simpl; auto.
  - intros e t H. pose proof (ev_pick_spec fo pos pos_gt n e t H) as K.
    destruct (ev_pick fo e t) as [v|]; auto. destruct K as (i & A & B & C). exists i. auto.
  - intros e t c H. now apply ev_learned_ok.
  - intros e t c H. now apply ev_bump_clause_ok.
Qed.
End EvsidsSpec.

Lemma combined_spec {A B} n (a : order A) (b : order B) IA IB :
  order_spec n a IA -> order_spec n b IB -> order_spec n (combined a b) (fun s t => IA (fst s) t /\ IB (snd s) t).
Proof.
  intros HA HB. constructor; simpl.
  - intros s t [I1 I2]. pose proof (os_pick _ _ _ HA (fst s) t I1) as H1.
    destruct (o_pick a (fst s) t) as [sa [v|]].
    + destruct H1 as (i & -> & Hi & Hd & Hx). exists i. repeat split; auto. simpl.
      eapply (os_more _ _ _ HB); eauto; simpl. intros j Hj. unfold upd. destruct (j =? i); auto.
    + pose proof (os_pick _ _ _ HB (snd s) t I2) as H2.
      destruct (o_pick b (snd s) t) as [sb [v|]]; auto.
      destruct H2 as (i & -> & Hi & Hd & Hx). rewrite H1 in Hd by auto. discriminate.
  - intros s t t' [I1 I2] E1 E2 E3. split; [eapply (os_more _ _ _ HA)|eapply (os_more _ _ _ HB)]; eauto.
  - intros s t c [I1 I2]. split; [apply (os_learned _ _ _ HA)|apply (os_learned _ _ _ HB)]; auto.
  - intros s t c [I1 I2]. split; [apply (os_learned _ _ _ HA)|apply (os_learned _ _ _ HB)]; auto.
  - intros s t k t' [I1 I2] E. split; [eapply (os_backtrack _ _ _ HA)|eapply (os_backtrack _ _ _ HB)]; eauto.
  - intros s t [I1 I2]. split; [apply (os_restart _ _ _ HA)|apply (os_restart _ _ _ HB)]; auto.
Qed.

(** exact rational scores *)
Definition qpos (q : Q) : Prop := (0 <= q)%Q.
Lemma qpos_gt a : qpos a -> f_gt qops a (f_neg1 qops) = true.
Proof.
  intros H. simpl. apply negb_true_iff. destruct (Qle_bool a (-1)) eqn:E; auto. exfalso.
  apply Qle_bool_iff in E. unfold qpos in H. apply (Qle_trans _ _ _ H) in E. discriminate E || (unfold Qle in E; simpl in E; lia).
Qed.
Lemma evsids_q_spec n : order_spec n (evsids_order qops) (fun e _ => ev_ok qpos n e).
Proof.
  apply evsids_spec; unfold qpos; cbn [qops f_zero f_add f_mul f_div f_grow f_threshold].
  - intros a b Ha Hb. setoid_replace 0%Q with (0 + 0)%Q by reflexivity. now apply Qplus_le_compat.
  - intros a Ha. apply Qmult_le_0_compat; auto. discriminate.
  - intros a Ha. unfold Qdiv. apply Qmult_le_0_compat; auto. apply Qinv_le_0_compat. discriminate.
  - apply qpos_gt.
Qed.
Lemma ev_new_q n : ev_ok qpos n (ev_new qops n).
Proof. apply ev_new_ok; unfold qpos; simpl; discriminate. Qed.

Lemma ev_init_q n d e : ev_ok qpos n e -> ev_ok qpos n (ev_init qops e d).
Proof.
  apply ev_init_ok; unfold qpos; cbn [qops f_zero f_add f_mul f_div f_grow f_threshold].
  - apply Qle_refl.
  - intros a b Ha Hb. setoid_replace 0%Q with (0 + 0)%Q by reflexivity. now apply Qplus_le_compat.
  - intros a Ha. unfold Qdiv. apply Qmult_le_0_compat; auto. apply Qinv_le_0_compat. discriminate.
Qed.

(** ** Luby *)
Lemma ones_shift k : N.shiftr (2 ^ k - 1) 1 = (2 ^ (k - 1) - 1)%N.
Proof.
  rewrite N.shiftr_div_pow2. change (2 ^ 1)%N with 2%N.
  destruct (N.eq_dec k 0) as [->|Hk]; [reflexivity|].
  replace k with (N.succ (k - 1)) at 1 by lia. rewrite N.pow_succ_r'.
  assert (1 <= 2 ^ (k - 1))%N by (pose proof (N.pow_nonzero 2 (k - 1)); lia).
  replace (2 * 2 ^ (k - 1) - 1)%N with (1 + (2 ^ (k - 1) - 1) * 2)%N by lia.
  rewrite N.div_add by lia. reflexivity.
Qed.
Lemma pow2_pos k : (1 <= 2 ^ k)%N.
Proof. pose proof (N.pow_nonzero 2 k). lia. Qed.

Lemma luby_mask_spec : forall fuel k index, (k <= N.of_nat fuel)%N -> (1 <= index)%N ->
  exists j, luby_mask fuel (2 ^ k - 1) index = (2 ^ j - 1)%N /\ (j <= k)%N /\ (2 ^ j - 1 < index)%N /\
            (j = k \/ (index <= 2 ^ (j + 1) - 1)%N).
Proof.
  induction fuel as [|fuel IH]; intros k index Hk Hi; cbn [luby_mask].
  - exists 0%N. assert (k = 0)%N by lia. subst. split; [reflexivity|]. split; [lia|]. split; [simpl; lia|auto].
  - destruct (N.leb_spec index (2 ^ k - 1)) as [H|H].
    + destruct (N.eq_dec k 0) as [->|Hk0]; [simpl in H; lia|].
      rewrite ones_shift. destruct (IH (k - 1)%N index) as (j & J1 & J2 & J3 & J4); [lia|lia|].
      exists j. split; auto. split; [lia|]. split; auto. right. destruct J4 as [->|J4]; auto.
      replace (k - 1 + 1)%N with k by lia. auto.
    + exists k. split; auto. split; [lia|]. split; auto.
Qed.

Lemma land_succ_zero i : N.land i (i + 1) = 0%N -> exists k, i = (2 ^ k - 1)%N.
Proof.
  revert i. induction i using N.binary_ind; intros H.
  - exists 0%N. reflexivity.
  - (* even: land (2i) (2i+1) = 2i *)
    rewrite N.double_spec in *.
    exists 0%N. assert (E : N.land (2 * i) (2 * i + 1) = (2 * i)%N).
    { apply N.bits_inj. intros b. rewrite N.land_spec. destruct (N.eq_dec b 0) as [->|Hb].
      - rewrite N.testbit_even_0. reflexivity.
      - replace b with (N.succ (b - 1)) by lia. rewrite N.testbit_even_succ by lia.
        rewrite N.testbit_odd_succ by lia. apply andb_diag. }
    rewrite E in H. rewrite H. reflexivity.
  - rewrite N.succ_double_spec in *. assert (E : N.land (2 * i + 1) (2 * i + 1 + 1) = (2 * N.land i (i + 1))%N).
    { apply N.bits_inj. intros b. rewrite N.land_spec. replace (2 * i + 1 + 1)%N with (2 * (i + 1))%N by lia.
      destruct (N.eq_dec b 0) as [->|Hb].
      - rewrite !N.testbit_even_0. apply andb_false_r.
      - replace b with (N.succ (b - 1)) by lia. rewrite N.testbit_odd_succ, !N.testbit_even_succ by lia.
        now rewrite N.land_spec. }
    rewrite E in H. destruct IHi as (k & Hk); [lia|]. exists (k + 1)%N. rewrite N.pow_add_r. change (2 ^ 1)%N with 2%N. pose proof (pow2_pos k). lia.
Qed.
Lemma land_ones_succ k : N.land (2 ^ k - 1) (2 ^ k - 1 + 1) = 0%N.
Proof.
  replace (2 ^ k - 1 + 1)%N with (2 ^ k)%N by (pose proof (pow2_pos k); lia).
  replace (2 ^ k - 1)%N with (N.ones k) by (rewrite N.ones_equiv; lia).
  rewrite N.land_comm, N.land_ones, N.mod_same; auto. apply N.pow_nonzero; lia.
Qed.

Lemma luby_loop_spec : forall fuel k index,
  (k <= N.of_nat fuel)%N -> (k <= 32)%N -> (1 <= index)%N -> (index < 2 ^ 32 - 1)%N ->
  (index <= 2 ^ k - 1 \/ k = 32)%N ->
  exists z, luby_loop fuel (2 ^ k - 1) index = Ok z /\ luby_seq index z.
Proof.
  induction fuel as [|fuel IH]; intros k index Hk Hk32 Hi Hlt Hik.
  - assert (k = 0)%N by lia. subst. destruct Hik as [Hik|Hik]; [simpl in Hik; lia|lia].
  - cbn [luby_loop]. rewrite (N.mod_small (index + 1)) by (simpl in *; lia).
    destruct (N.eqb_spec (N.land index (index + 1)) 0) as [E|E].
    + destruct (land_succ_zero _ E) as (j & ->).
      assert (1 <= j)%N. { destruct (N.eq_dec j 0) as [->|]; [simpl in Hi; lia|lia]. }
      eexists. split; [reflexivity|]. pose proof (luby_top j H) as L.
      replace (2 ^ j - 1 + 1)%N with (2 ^ j)%N by (pose proof (pow2_pos j); lia).
      replace (Z.of_N (N.shiftr (2 ^ j) 1)) with (2 ^ (Z.of_N j - 1))%Z; auto.
      rewrite N.shiftr_div_pow2. change (2 ^ 1)%N with 2%N.
      replace j with (N.succ (j - 1)) at 2 by lia. rewrite N.pow_succ_r', N.mul_comm, N.div_mul by lia.
      rewrite N2Z.inj_pow. f_equal. lia.
    + destruct (luby_mask_spec 33 k index ltac:(lia) Hi) as (j & J1 & J2 & J3 & J4).
      rewrite J1.
      assert (Hj : (index <= 2 ^ (j + 1) - 1)%N).
      { destruct J4 as [->|J4]; auto. destruct Hik as [Hik|Hik].
        - rewrite N.pow_add_r. change (2 ^ 1)%N with 2%N. lia.
        - subst k. simpl in *. lia. }
      assert (Hj1 : index <> (2 ^ (j + 1) - 1)%N).
      { intros Ei. apply E. rewrite Ei. apply land_ones_succ. }
      assert (Hjk : (j < k)%N).
      { destruct (N.eq_dec j k) as [->|]; [|lia]. destruct Hik as [Hik|Hik]; [lia|].
        subst k. simpl in *. lia. }
      pose proof (pow2_pos j) as Pj. rewrite N.pow_add_r in Hj, Hj1. change (2 ^ 1)%N with 2%N in Hj, Hj1.
      assert (Hne : index <> (2 ^ j - 1)%N) by lia.
      destruct (IH j (index - (2 ^ j - 1))%N) as (z & Z1 & Z2); try lia.
      exists z. split; auto. apply luby_rec with (k := (j + 1)%N).
      * lia.
      * replace (j + 1 - 1)%N with j by lia. rewrite N.pow_add_r. change (2 ^ 1)%N with 2%N. lia.
      * replace (j + 1 - 1)%N with j by lia. auto.
Qed.

Lemma luby_spec index : (1 <= index < 2 ^ 32 - 1)%N -> exists z, luby index = Ok z /\ luby_seq index z.
Proof.
  intros H. unfold luby. apply (luby_loop_spec 33 32 index); try lia.
Qed.

(** the sequence is a function of the index *)
Lemma luby_seq_fun i z : luby_seq i z -> forall z', luby_seq i z' -> z' = z.
Proof.
  induction 1 as [k Hk|k i z Hk Hi Hz IH]; intros z' H'.
  - inversion H' as [k' Hk' E|k' i' z'' Hk' Hi' Hz' E]; subst.
    + assert (2 ^ k' = 2 ^ k)%N by (pose proof (pow2_pos k); pose proof (pow2_pos k'); lia).
      apply N.pow_inj_r in H; [subst; auto|lia].
    + exfalso. destruct Hi' as [A B].
      assert (k' - 1 < k)%N. { apply (N.pow_lt_mono_r_iff 2); [lia|]. pose proof (pow2_pos k). lia. }
      assert (k < k')%N. { apply (N.pow_lt_mono_r_iff 2); [lia|]. pose proof (pow2_pos k). pose proof (pow2_pos k'). lia. }
      lia.
  - inversion H' as [k' Hk' E|k' i' z'' Hk' Hi' Hz' E]; subst.
    + exfalso. destruct Hi as [A B].
      assert (k - 1 < k')%N. { apply (N.pow_lt_mono_r_iff 2); [lia|]. pose proof (pow2_pos k'). lia. }
      assert (k' < k)%N. { apply (N.pow_lt_mono_r_iff 2); [lia|]. pose proof (pow2_pos k). pose proof (pow2_pos k'). lia. }
      lia.
    + apply IH. assert (k' = k); [|subst; auto].
      destruct Hi as [A B], Hi' as [A' B'].
      assert (k - 1 < k')%N. { apply (N.pow_lt_mono_r_iff 2); [lia|]. lia. }
      assert (k' - 1 < k)%N. { apply (N.pow_lt_mono_r_iff 2); [lia|]. lia. }
      lia.
Qed.

(** ** Luby restarts *)
Lemma luby_le i z : luby_seq i z -> (2 * z <= Z.of_N i + 1)%Z /\ exists j, (0 <= j)%Z /\ z = (2 ^ j)%Z.
Proof.
  induction 1 as [k Hk|k i z Hk Hi Hz [IH1 IH2]].
  - split; [|exists (Z.of_N k - 1)%Z; split; [lia|reflexivity]].
    rewrite <- Z.pow_succ_r by lia. replace (Z.succ (Z.of_N k - 1)) with (Z.of_N k) by lia.
    rewrite N2Z.inj_sub by (pose proof (pow2_pos k); lia). rewrite N2Z.inj_pow. simpl. lia.
  - split; auto. lia.
Qed.

Lemma luby_seg seg : forall s, 
  let s' := fold_left (fun s (x : trail * clause) => r_learned luby_restart s (fst x) (snd x)) seg s in
  lu_count s' = (lu_count s - Z.of_nat (length seg))%Z /\ lu_index s' = lu_index s /\ lu_mult s' = lu_mult s.
Proof.
  induction seg as [|x seg IH]; intros s; cbn [fold_left].
  - simpl. repeat split; auto. lia.
  - specialize (IH (r_learned luby_restart s (fst x) (snd x))). cbn zeta in *. destruct IH as (A & B & C).
    rewrite A, B, C. simpl. repeat split; auto. lia.
Qed.
Lemma luby_after_state mult segs :
  let s := luby_after mult segs in
  lu_index s = (N.of_nat (length segs) + 1)%N /\ lu_mult s = mult /\
  lu_count s = (luby_value (N.of_nat (length segs) + 1) * mult)%Z.
Proof.
  unfold luby_after. induction segs as [|seg segs IH] using rev_ind.
  - simpl. auto.
  - rewrite fold_left_app. cbn [fold_left]. rewrite app_length. cbn [length].
    set (s := fold_left _ segs _) in *. cbn zeta in IH. destruct IH as (A & B & C).
    destruct (luby_seg seg s) as (D & E & F). set (s' := fold_left _ seg s) in *.
    change (r_restart luby_restart s') with (luby_next s'). unfold luby_next. cbn [lu_index lu_mult lu_count]. rewrite E, F, A, B.
    replace (N.of_nat (length segs + 1)) with (N.of_nat (length segs) + 1)%N by lia. auto.
Qed.

Lemma luby_lemma mult segs seg :
  (N.of_nat (length segs) + 1 < 2 ^ 32 - 1)%N ->
  exists z, luby_seq (N.of_nat (length segs) + 1) z /\
  (r_should luby_restart
     (fold_left (fun s x => r_learned luby_restart s (fst x) (snd x)) seg (luby_after mult segs)) = true <->
   (z * mult <= Z.of_nat (length seg))%Z) /\
  (mult = 550%Z -> (N.of_nat (length segs) + 1 < 2 ^ 23 - 1)%N -> (0 < z * mult < 2 ^ 31)%Z).
Proof.
  intros H. destruct (luby_spec (N.of_nat (length segs) + 1)) as (z & E & L); [lia|].
  exists z. split; auto. split.
  - pose proof (luby_after_state mult segs) as (A & B & C). destruct (luby_seg seg (luby_after mult segs)) as (D & _).
    set (s' := fold_left _ seg _) in *. change (r_should luby_restart s') with (lu_count s' <=? 0)%Z. rewrite Z.leb_le, D, C.
    unfold luby_value. rewrite E. lia.
  - intros -> Hs. apply luby_le in L. destruct L as (L1 & j & Hj & ->).
    assert (2 ^ j < 2 ^ 22)%Z by lia. apply Z.pow_lt_mono_r_iff in H0; [|lia|lia].
    assert (2 ^ j <= 2 ^ 21)%Z by (apply Z.pow_le_mono_r; lia).
    assert (0 < 2 ^ j)%Z by (apply Z.pow_pos_nonneg; lia). lia.
Qed.

(** ** statements of C19 *)
Lemma fu_pick_lemma t : pick_sound t (fu_pick t) /\ pick_complete t (fun _ => True) (fu_pick t) /\
  (forall v w, fu_pick t = Some v -> var_exists t w -> var_ltb w v = true -> var_defined t w = true).
Proof.
  pose proof (fu_pick_spec t) as H. unfold pick_sound, pick_complete. destruct (fu_pick t) as [v|].
  - destruct H as (A & B & C). split; [|split].
    + intros w E. injection E as <-. auto.
    + discriminate.
    + intros v0 w E. injection E as <-. apply C.
  - split; [discriminate|]. split; [auto|discriminate].
Qed.

Lemma ev_run_ok {F} (fo : fops F) good n h : score_closed fo good -> ev_ok good n (ev_run fo n h).
Proof.
  intros [A B C D E G]. unfold ev_run.
  assert (X : forall e, ev_ok good n e -> ev_ok good n (fold_left (ev_step fo) h e)).
  { induction h as [|o h IH]; intros e He; simpl; auto. apply IH. destruct o; simpl.
    - apply ev_init_ok; auto.
    - apply ev_learned_ok; auto.
    - apply ev_bump_clause_ok; auto. }
  apply X. apply ev_new_ok; auto.
Qed.
Lemma ev_pick_lemma {F} (fo : fops F) good n h t : score_closed fo good -> n = mnum (t_bm t) ->
  pick_sound t (ev_pick fo (ev_run fo n h) t) /\
  pick_complete t (fun v => match v with VBool _ => True | VRat _ => False end) (ev_pick fo (ev_run fo n h) t).
Proof.
  intros L ->. pose proof (ev_pick_spec fo good (sc_gt _ _ L) _ _ t (ev_run_ok fo good (mnum (t_bm t)) h L)) as H.
  unfold pick_sound, pick_complete. destruct (ev_pick fo (ev_run fo (mnum (t_bm t)) h) t) as [v|].
  - destruct H as (i & -> & Hi & Hd). split; [|discriminate]. intros w E. injection E as <-. simpl. auto.
  - split; [discriminate|]. intros _ [i|i] HA Hx; [|tauto]. simpl in *. auto.
Qed.
Lemma combined_pick_lemma {A B} (a : order A) (b : order B) sa sb t VA VB :
  pick_sound t (snd (o_pick a sa t)) -> pick_complete t VA (snd (o_pick a sa t)) ->
  pick_sound t (snd (o_pick b sb t)) -> pick_complete t VB (snd (o_pick b sb t)) ->
  pick_sound t (snd (o_pick (combined a b) (sa, sb) t)) /\
  pick_complete t (fun v => VA v \/ VB v) (snd (o_pick (combined a b) (sa, sb) t)).
Proof.
  intros SA CA SB CB. simpl. destruct (o_pick a sa t) as [sa' [v|]]; simpl in *.
  - split; auto. intros E. discriminate.
  - destruct (o_pick b sb t) as [sb' ob]; simpl in *. split; auto. intros -> v [X|X] Hx; auto.
Qed.
Lemma q_closed : score_closed qops qpos.
Proof.
  split; unfold qpos; cbn [qops f_zero f_one f_add f_mul f_div f_grow f_threshold].
  - apply Qle_refl.
  - discriminate.
  - intros a b Ha Hb. setoid_replace 0%Q with (0 + 0)%Q by reflexivity. now apply Qplus_le_compat.
  - intros a Ha. apply Qmult_le_0_compat; auto. discriminate.
  - intros a Ha. unfold Qdiv. apply Qmult_le_0_compat; auto. discriminate.
  - apply qpos_gt.
Qed.
