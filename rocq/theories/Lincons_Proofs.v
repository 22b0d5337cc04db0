From Coq Require Import List Arith ZArith QArith Bool Lia Permutation Sorted Lqa Qfield.
From Verif Require Import Base Core_Model Sort_Proofs Lincons_Model Spec_Lincons.
Import ListNotations.
Open Scope nat_scope.
Arguments Qred : simpl never.
Arguments Qmult : simpl never.
Arguments Qplus : simpl never.
Arguments Qminus : simpl never.

(** ** linear sums *)
Lemma lin_app r a b : (lin r (a ++ b) == lin r a + lin r b)%Q.
Proof. induction a as [|[v c] a IH]; simpl; [ring|]. rewrite IH. ring. Qed.
Lemma lin_perm r a b : Permutation a b -> (lin r a == lin r b)%Q.
Proof.
  induction 1 as [|[v c]|[v c] [w d]|]; simpl; try ring.
  - now rewrite IHPermutation.
  - now rewrite IHPermutation1.
Qed.
Lemma lin_nonzero r ts : (lin r (nonzero ts) == lin r ts)%Q.
Proof.
  unfold nonzero. induction ts as [|[v c] ts IH]; simpl; [reflexivity|].
  destruct (Qeq_bool c 0) eqn:E; simpl; rewrite IH; [|reflexivity].
  apply Qeq_bool_iff in E. rewrite E. ring.
Qed.
Lemma lin_scale r k ts : (lin r (scale k ts) == k * lin r ts)%Q.
Proof.
  unfold scale. induction ts as [|[v c] ts IH]; cbn [map lin fst snd]; [ring|]. rewrite IH. rewrite Qred_correct. ring.
Qed.

(** ** predicates *)
Lemma qltb_lt a b : qltb a b = true <-> (a < b)%Q.
Proof.
  unfold qltb. rewrite negb_true_iff. rewrite <- not_true_iff_false, Qle_bool_iff.
  split; intros H; [now apply Qnot_le_lt|now apply Qlt_not_le].
Qed.
Lemma qltb_ge a b : qltb a b = false <-> (b <= a)%Q.
Proof. unfold qltb. rewrite negb_false_iff. apply Qle_bool_iff. Qed.
Lemma pred_eval_rel p a b : pred_eval p a b = true <-> rel p a b.
Proof.
  destruct p; simpl; [apply Qeq_bool_iff|apply qltb_lt|apply Qle_bool_iff].
Qed.
Lemma rel_morph p a a' b b' : (a == a')%Q -> (b == b')%Q -> rel p a b <-> rel p a' b'.
Proof. intros Ha Hb. destruct p; simpl; rewrite Ha, Hb; tauto. Qed.
Lemma rel_dec p a b : {rel p a b} + {~ rel p a b}.
Proof.
  destruct (pred_eval p a b) eqn:E; [left; now apply pred_eval_rel|right].
  intros H. apply pred_eval_rel in H. congruence.
Qed.
Lemma opred_eqb_eq a b : opred_eqb a b = true <-> a = b.
Proof. destruct a, b; simpl; split; congruence. Qed.

(** [flip]: whether multiplying by [k] and normalising the predicate negates the constraint *)
Definition flips (k : Q) (p : opred) : bool := negb (opred_eqb p PEq) && qltb k 0.

Lemma rel_scale k p a b : ~ (k == 0)%Q ->
  rel (norm_pred k p) (k * a) (k * b) <-> (if flips k p then ~ rel p a b else rel p a b).
Proof.
  intros Hk. unfold norm_pred, flips. destruct (qltb k 0) eqn:E.
  - apply qltb_lt in E. destruct p; simpl.
    + split; intros H.
      * apply Qmult_inj_l in H; auto.
      * now rewrite H.
    + (* lt -> leq *)
      split; intros H.
      * intros H2. assert (k * b < k * a)%Q; [|now apply (Qlt_not_le _ _ H0)].
        setoid_replace (k * b)%Q with (- ((-k) * b))%Q by ring.
        setoid_replace (k * a)%Q with (- ((-k) * a))%Q by ring.
        assert ((-k) * a < (-k) * b)%Q by (apply Qmult_lt_l; lra). lra.
      * apply Qnot_lt_le in H. assert ((-k) * b <= (-k) * a)%Q by (apply Qmult_le_l; lra). lra.
    + split; intros H.
      * intros H2. assert ((-k) * a <= (-k) * b)%Q by (apply Qmult_le_l; lra). lra.
      * apply Qnot_le_lt in H. assert ((-k) * b < (-k) * a)%Q by (apply Qmult_lt_l; lra). lra.
  - apply qltb_ge in E. assert (0 < k)%Q by (apply Qle_lt_or_eq in E; destruct E as [E|E]; auto; exfalso; apply Hk; now rewrite E).
    rewrite andb_false_r. destruct p; simpl.
    + split; intros H1; [apply Qmult_inj_l in H1; auto|now rewrite H1].
    + apply Qmult_lt_l; auto.
    + apply Qmult_le_l; auto.
Qed.

(** ** the normalisation constant *)
Definition is_min (ts : list (nat * Q)) (t : nat * Q) : Prop :=
  In t ts /\ ~ (snd t == 0)%Q /\ forall u, In u ts -> ~ (snd u == 0)%Q -> fst t <= fst u.

Lemma min_term_spec ts best :
  match min_term ts best with
  | Some t => (best = Some t \/ (In t ts /\ ~ (snd t == 0)%Q)) /\
              (match best with Some b => fst t <= fst b | None => True end) /\
              (forall u, In u ts -> ~ (snd u == 0)%Q -> fst t <= fst u)
  | None => best = None /\ forall u, In u ts -> (snd u == 0)%Q
  end.
Proof.
  revert best. induction ts as [|[v c] ts IH]; intros best; cbn [min_term].
  - destruct best; simpl; (split; [auto|]); try split; auto; intros u [].

  - specialize (IH (if match best with None => true | Some (b, _) => v <? b end && negb (Qeq_bool c 0)
                    then Some (v, c) else best)).
    destruct (min_term ts _) as [t|].
    + destruct IH as (H1 & H2 & H3).
      destruct (match best with None => true | Some (b, _) => v <? b end) eqn:Eb; cbn [andb] in *.
      * destruct (Qeq_bool c 0) eqn:Ec; cbn [negb] in *.
        -- apply Qeq_bool_iff in Ec. repeat split; auto.
           ++ destruct H1 as [H1|[H1 H1']]; auto. right. split; auto. now right.
           ++ intros u [<-|Hu] Hn; auto. simpl in Hn. now contradict Hn.
        -- apply Qeq_bool_neq in Ec. repeat split; auto.
           ++ destruct H1 as [H1|[H1 H1']].
              ** injection H1 as <-. right. simpl. auto.
              ** right. split; auto. now right.
           ++ destruct best as [[b d]|]; auto. simpl in *. apply Nat.ltb_lt in Eb. lia.
           ++ intros u [<-|Hu] Hn; auto.
      * destruct best as [[b d]|]; try discriminate. apply Nat.ltb_ge in Eb. simpl in *.
        repeat split; auto.
        -- destruct H1 as [H1|[H1 H1']]; auto.
        -- intros u [<-|Hu] Hn; auto. simpl. lia.
    + destruct IH as (H1 & H2).
      destruct (match best with None => true | Some (b, _) => v <? b end) eqn:Eb; cbn [andb] in *.
      * destruct (Qeq_bool c 0) eqn:Ec; cbn [negb] in *; try discriminate.
        apply Qeq_bool_iff in Ec. split; auto. intros u [<-|Hu]; auto.
      * subst best. discriminate.
Qed.

Lemma find_norm_some ts k : find_norm ts = Some k ->
  exists t, is_min ts t /\ (k == / snd t)%Q /\ Qred k = k.
Proof.
  unfold find_norm. intros H. pose proof (min_term_spec ts None) as Hs.
  destruct (min_term ts None) as [[v c]|]; try discriminate.
  destruct Hs as ([H1|[H1 H2]] & _ & H3); try discriminate.
  destruct (Qeq_bool c 0) eqn:E; try discriminate.
  assert (Hk : k = Qred (1 / c)) by congruence. clear H. subst k.
  exists (v, c). repeat split; auto.
  - rewrite Qred_correct. simpl. field. apply Qeq_bool_neq in E. auto.
  - apply Qred_complete, Qred_correct.
Qed.
Lemma find_norm_none ts : find_norm ts = None -> forall u, In u ts -> (snd u == 0)%Q.
Proof.
  unfold find_norm. intros H. pose proof (min_term_spec ts None) as Hs.
  destruct (min_term ts None) as [[v c]|].
  - destruct (Qeq_bool c 0) eqn:E; try discriminate. apply Qeq_bool_iff in E.
    destruct Hs as ([H1|[H1 H2]] & _ & H3); try discriminate. now contradict H2.
  - apply Hs.
Qed.
Lemma lin_zero r ts : (forall u, In u ts -> (snd u == 0)%Q) -> (lin r ts == 0)%Q.
Proof.
  induction ts as [|[v c] ts IH]; simpl; intros H; [reflexivity|].
  rewrite IH by auto. specialize (H (v, c) (or_introl eq_refl)). simpl in H. rewrite H. ring.
Qed.

(** ** normalised constraints *)
Record norm_terms (ts : list (nat * Q)) : Prop := {
  nt_nodup : NoDup (map fst ts);
  nt_canon : forall t, In t ts -> Qred (snd t) = snd t;
  nt_nz : forall t, In t ts -> ~ (snd t == 0)%Q;
  nt_min : ts <> [] -> exists v, In (v, 1%Q) ts /\ forall t, In t ts -> v <= fst t }.

Lemma norm_terms_perm a b : Permutation a b -> norm_terms a -> norm_terms b.
Proof.
  intros HP [H1 H2 H3 H4]. pose proof (Permutation_sym HP) as HP'. constructor.
  - eapply Permutation_NoDup; [|exact H1]. now apply Permutation_map.
  - intros t Ht. apply H2. eapply Permutation_in; eauto.
  - intros t Ht. apply H3. eapply Permutation_in; eauto.
  - intros Hn. destruct H4 as (v & Hv & Hm).
    { intros ->. apply Permutation_nil in HP. auto. }
    exists v. split; [eapply Permutation_in; eauto|]. intros t Ht. apply Hm. eapply Permutation_in; eauto.
Qed.

Lemma scale_fst k ts : map fst (scale k ts) = map fst ts.
Proof. unfold scale. rewrite map_map. apply map_ext. auto. Qed.
Lemma in_nonzero t ts : In t (nonzero ts) <-> In t ts /\ ~ (snd t == 0)%Q.
Proof.
  unfold nonzero. rewrite filter_In. rewrite negb_true_iff. split; intros [H1 H2]; split; auto.
  - now apply Qeq_bool_neq.
  - destruct (Qeq_bool (snd t) 0) eqn:E; auto. apply Qeq_bool_iff in E. contradiction.
Qed.
Lemma in_scale t k ts : In t (scale k ts) <-> exists u, In u ts /\ t = (fst u, Qred (snd u * k)).
Proof. unfold scale. rewrite in_map_iff. split; intros (u & H1 & H2); eauto. Qed.

Lemma normalise_ok ts k : NoDup (map fst (nonzero ts)) -> find_norm ts = Some k ->
  norm_terms (scale k (nonzero ts)) /\ ~ (k == 0)%Q /\ scale k (nonzero ts) <> [].
Proof.
  intros Hnd Hk. apply find_norm_some in Hk. destruct Hk as (t & (H1 & H2 & H3) & Hk & Hc).
  assert (Hk0 : ~ (k == 0)%Q).
  { rewrite Hk. intros H. apply H2. rewrite <- (Qinv_involutive (snd t)), H. reflexivity. }
  assert (Hin : In t (nonzero ts)) by (apply in_nonzero; auto).
  assert (Hone : In (fst t, 1%Q) (scale k (nonzero ts))).
  { apply in_scale. exists t. split; auto. f_equal. symmetry. change 1%Q with (Qred 1).
    apply Qred_complete. rewrite Hk. field. auto. }
  repeat split; auto.
  - now rewrite scale_fst.
  - intros u Hu. apply in_scale in Hu. destruct Hu as (w & Hw & ->). cbn [fst snd].
    apply Qred_complete, Qred_correct.
  - intros u Hu. apply in_scale in Hu. destruct Hu as (w & Hw & ->). cbn [fst snd].
    rewrite Qred_correct. apply in_nonzero in Hw. intros H. apply Qmult_integral in H. tauto.
  - intros _. exists (fst t). split; auto. intros u Hu. apply in_scale in Hu.
    destruct Hu as (w & Hw & ->). cbn [fst snd]. apply in_nonzero in Hw. destruct Hw. auto.
  - intros H. rewrite H in Hone. destruct Hone.
Qed.

Lemma canon_eq a b : Qred a = a -> Qred b = b -> (a == b)%Q -> a = b.
Proof. intros Ha Hb H. rewrite <- Ha, <- Hb. now apply Qred_complete. Qed.

(** ** comparison of constraints *)
Lemma coef_at_in v ts c : coef_at v ts = Some c -> In (v, c) ts.
Proof.
  induction ts as [|[w d] ts IH]; simpl; try discriminate.
  destruct (Nat.eqb_spec w v); [injection 1 as <-; subst; auto|auto].
Qed.
Lemma in_coef_at v ts c : NoDup (map fst ts) -> In (v, c) ts -> coef_at v ts = Some c.
Proof.
  induction ts as [|[w d] ts IH]; simpl; intros Hn H; [tauto|].
  apply NoDup_cons_iff in Hn. destruct Hn as [Hn1 Hn2].
  destruct H as [[= -> ->]|H]; [now rewrite Nat.eqb_refl|].
  destruct (Nat.eqb_spec w v) as [->|]; auto. exfalso. apply Hn1.
  change v with (fst (v, c)). now apply in_map.
Qed.
Lemma coef_at_none v ts : coef_at v ts = None -> ~ In v (map fst ts).
Proof.
  induction ts as [|[w d] ts IH]; simpl; intros H; [tauto|].
  destruct (Nat.eqb_spec w v); try discriminate. intros [|]; [tauto|]. now apply IH.
Qed.

Lemma NoDup_fst {A B} (l : list (A * B)) : NoDup (map fst l) -> NoDup l.
Proof. apply NoDup_map_inv. Qed.

Lemma brute_force_spec a b : norm_terms a -> norm_terms b -> length a = length b ->
  brute_force_equal a b = true <-> Permutation a b.
Proof.
  intros Ha Hb Hl. unfold brute_force_equal. rewrite forallb_forall. split; intros H.
  - apply NoDup_Permutation_bis.
    + apply NoDup_fst, Ha.
    + lia.
    + intros t Ht. specialize (H t Ht). destruct (coef_at (fst t) b) as [c|] eqn:E; try discriminate.
      apply coef_at_in in E. apply Qeq_bool_iff in H.
      destruct t as [v d]. simpl in *. replace d with c; auto.
      apply canon_eq; [apply (nt_canon _ Hb (v, c)); auto|apply (nt_canon _ Ha (v, d)); auto|now symmetry].
  - intros [v c] Ht. simpl. rewrite (in_coef_at v b c); [apply Qeq_bool_iff; reflexivity| apply Hb |].
    now apply (Permutation_in _ H).
Qed.

Definition pair_le (a b : nat * Q) : Prop :=
  fst a < fst b \/ (fst a = fst b /\ (snd a <= snd b)%Q).
Lemma pair_lt_true a b : pair_lt a b = true <-> fst a < fst b \/ (fst a = fst b /\ (snd a < snd b)%Q).
Proof.
  unfold pair_lt. rewrite orb_true_iff, andb_true_iff, Nat.ltb_lt, Nat.eqb_eq, qltb_lt. tauto.
Qed.
Lemma pair_lt_false a b : pair_lt a b = false -> pair_le b a.
Proof.
  intros H. unfold pair_le. destruct (lt_eq_lt_dec (fst a) (fst b)) as [[E|E]|E]; auto.
  - exfalso. rewrite <- not_true_iff_false, pair_lt_true in H. auto.
  - right. split; auto. apply Qnot_lt_le. intros H2. rewrite <- not_true_iff_false, pair_lt_true in H. auto.
Qed.
Lemma pair_lt_le a b : pair_lt a b = true -> pair_le a b.
Proof.
  intros H. apply pair_lt_true in H. unfold pair_le. destruct H as [H|[H1 H2]]; auto.
  right. split; auto. now apply Qlt_le_weak.
Qed.
Lemma pair_le_trans a b c : pair_le a b -> pair_le b c -> pair_le a c.
Proof.
  unfold pair_le. intros [H|[H1 H2]] [K|[K1 K2]]; try (left; lia).
  right. split; [lia|]. eapply Qle_trans; eauto.
Qed.

Lemma lower_bound_in key l : StronglySorted pair_le l -> In key l ->
  exists u, lower_bound key l = Some u /\ pair_le u key /\ pair_le key u /\ In u l.
Proof.
  unfold lower_bound. induction 1 as [|x l Hs IH Hf]; intros Hin; [destruct Hin|].
  simpl. destruct (pair_lt x key) eqn:E; simpl.
  - destruct Hin as [->|Hin].
    + exfalso. apply pair_lt_true in E. destruct E as [E|[_ E]]; [lia|]. now apply Qlt_irrefl in E.
    + destruct (IH Hin) as (u & H1 & H2 & H3 & H4). exists u. repeat split; auto.
  - exists x. apply pair_lt_false in E. repeat split; auto.
    destruct Hin as [->|Hin]; auto. rewrite Forall_forall in Hf. auto.
Qed.
Lemma pair_le_antisym a b : pair_le a b -> pair_le b a -> fst a = fst b /\ (snd a == snd b)%Q.
Proof.
  unfold pair_le. intros [H|[H1 H2]] [K|[K1 K2]]; try lia. split; auto. now apply Qle_antisym.
Qed.

Lemma sort_equal_spec a b : norm_terms a -> norm_terms b -> length a = length b ->
  sort_equal a b = true <-> Permutation a b.
Proof.
  intros Ha Hb Hl. unfold sort_equal. rewrite forallb_forall.
  pose proof (sort_perm pair_lt a) as HP.
  split; intros H.
  - symmetry. apply NoDup_Permutation_bis.
    + apply NoDup_fst, Hb.
    + lia.
    + intros t Ht. specialize (H t Ht). destruct (lower_bound t _) as [u|] eqn:E; try discriminate.
      apply andb_true_iff in H. destruct H as [H1 H2]. apply Nat.eqb_eq in H1. apply Qeq_bool_iff in H2.
      unfold lower_bound in E. apply find_some in E. destruct E as [E _].
      assert (Hu : In u a) by (eapply Permutation_in; [apply Permutation_sym; exact HP|exact E]).
      replace t with u; auto. destruct t as [v d], u as [w c]. simpl in *. subst w. f_equal.
      apply canon_eq; auto; [apply (nt_canon _ Ha (v, c)); auto|apply (nt_canon _ Hb (v, d)); auto].
  - intros t Ht.
    destruct (lower_bound_in t (sort_by pair_lt a)) as (u & H1 & H2 & H3 & H4).
    + apply sort_sorted; [exact pair_le_trans|exact pair_lt_le|exact pair_lt_false].
    + eapply Permutation_in; [exact HP|]. eapply Permutation_in; [apply Permutation_sym; exact H|auto].
    + rewrite H1. destruct (pair_le_antisym _ _ H2 H3) as [E1 E2].
      rewrite E1, Nat.eqb_refl. simpl. now apply Qeq_bool_iff.
Qed.

(** ** slices of the shared vectors *)
Lemma slice_app_l {A} p (l l' : list A) : snd p <= length l -> slice p (l ++ l') = slice p l.
Proof.
  intros H. unfold slice. destruct (le_gt_dec (fst p) (length l)).
  - rewrite skipn_app, firstn_app.
    replace (fst p - length l) with 0 by lia. simpl.
    replace (snd p - fst p - length (skipn (fst p) l)) with 0 by (rewrite skipn_length; lia).
    simpl. apply app_nil_r.
  - replace (snd p - fst p) with 0 by lia. auto.
Qed.
Lemma slice_app_r {A} (l l' : list A) : slice (length l, length l + length l') (l ++ l') = l'.
Proof.
  unfold slice. simpl. rewrite skipn_app, skipn_all, Nat.sub_diag. simpl.
  replace (length l + length l' - length l) with (length l') by lia. apply firstn_all.
Qed.
Lemma slice_length {A} p (l : list A) : snd p <= length l -> length (slice p l) = snd p - fst p.
Proof. intros H. unfold slice. rewrite firstn_length, skipn_length. lia. Qed.
Lemma erase_app {A} (l l' : list A) : erase (length l, length l + length l') (l ++ l') = l.
Proof.
  unfold erase. simpl. rewrite firstn_app, Nat.sub_diag, firstn_all. simpl. rewrite app_nil_r.
  rewrite skipn_all2 by (rewrite app_length; lia). apply app_nil_r.
Qed.
Lemma combine_skipn {A B} n (a : list A) (b : list B) : combine (skipn n a) (skipn n b) = skipn n (combine a b).
Proof.
  revert a b. induction n; intros a b; auto. destruct a, b; simpl; auto. now rewrite combine_nil.
Qed.
Lemma slice_combine {A B} p (a : list A) (b : list B) :
  combine (slice p a) (slice p b) = slice p (combine a b).
Proof. unfold slice. now rewrite <- combine_firstn, combine_skipn. Qed.

Definition all_terms (s : store) : list (nat * Q) := combine (st_vars s) (st_coef s).
Lemma lc_terms_slice s c : lc_terms s c = slice (lc_pos c) (all_terms s).
Proof. apply slice_combine. Qed.

Lemma swap_nth_length {A} i j (l : list A) : length (swap_nth i j l) = length l.
Proof.
  unfold swap_nth. destruct (nth_error l i); auto. destruct (nth_error l j); auto. now rewrite !set_nth_length.
Qed.
Lemma nth_error_swap {A} i j k (l : list A) : i < length l -> j < length l ->
  nth_error (swap_nth i j l) k =
  if k =? i then nth_error l j else if k =? j then nth_error l i else nth_error l k.
Proof.
  intros Hi Hj. unfold swap_nth.
  destruct (nth_error l i) as [x|] eqn:Ei; [|apply nth_error_None in Ei; lia].
  destruct (nth_error l j) as [y|] eqn:Ej; [|apply nth_error_None in Ej; lia].
  destruct (Nat.eqb_spec k i) as [->|Hki].
  - apply nth_error_set_nth_eq. now rewrite set_nth_length.
  - rewrite nth_error_set_nth_neq by auto. destruct (Nat.eqb_spec k j) as [->|Hkj].
    + now apply nth_error_set_nth_eq.
    + apply nth_error_set_nth_neq. auto.
Qed.
Lemma list_ext {A} (a b : list A) : (forall k, nth_error a k = nth_error b k) -> a = b.
Proof.
  revert b. induction a as [|x a IH]; intros [|y b] H; auto.
  - specialize (H 0). discriminate.
  - specialize (H 0). discriminate.
  - f_equal; [specialize (H 0); now injection H|]. apply IH. intros k. apply (H (S k)).
Qed.
Lemma nth_error_combine {A B} (a : list A) (b : list B) k :
  nth_error (combine a b) k =
  match nth_error a k, nth_error b k with Some x, Some y => Some (x, y) | _, _ => None end.
Proof.
  revert b k. induction a as [|x a IH]; intros b k; simpl.
  - destruct k; auto.
  - destruct b as [|y b]; simpl.
    + destruct k; simpl; auto. now destruct (nth_error a k).
    + destruct k; simpl; auto.
Qed.
Lemma combine_swap {A B} i j (a : list A) (b : list B) : length a = length b ->
  i < length a -> j < length a ->
  combine (swap_nth i j a) (swap_nth i j b) = swap_nth i j (combine a b).
Proof.
  intros Hl Hi Hj. apply list_ext. intros k. rewrite nth_error_combine.
  rewrite !nth_error_swap; rewrite ?combine_length; try lia. rewrite !nth_error_combine.
  destruct (k =? i); auto. destruct (k =? j); auto.
Qed.
Lemma nth_error_skipn {A} n (l : list A) k : nth_error (skipn n l) k = nth_error l (n + k).
Proof.
  revert l. induction n; intros l; simpl; auto. destruct l; simpl; auto. now destruct k.
Qed.
Lemma nth_error_firstn {A} n (l : list A) k : nth_error (firstn n l) k = if k <? n then nth_error l k else None.
Proof.
  revert l k. induction n; intros l k.
  - simpl. now destruct k.
  - destruct l; simpl.
    + destruct k; simpl; auto. now destruct (S k <? S n).
    + destruct k; simpl; auto. rewrite IHn. reflexivity.
Qed.
Lemma nth_error_slice {A} p (l : list A) k :
  nth_error (slice p l) k = if k <? snd p - fst p then nth_error l (fst p + k) else None.
Proof. unfold slice. now rewrite nth_error_firstn, nth_error_skipn. Qed.

Lemma slice_swap_out {A} i j p (l : list A) : i < length l -> j < length l ->
  ~ (fst p <= i < snd p) -> ~ (fst p <= j < snd p) -> slice p (swap_nth i j l) = slice p l.
Proof.
  intros Hi Hj Ni Nj. apply list_ext. intros k. rewrite !nth_error_slice.
  destruct (Nat.ltb_spec k (snd p - fst p)); auto. rewrite nth_error_swap by auto.
  destruct (Nat.eqb_spec (fst p + k) i); [lia|]. destruct (Nat.eqb_spec (fst p + k) j); [lia|]. auto.
Qed.
Lemma slice_swap_in {A} i j p (l : list A) : snd p <= length l ->
  fst p <= i < snd p -> fst p <= j < snd p ->
  slice p (swap_nth i j l) = swap_nth (i - fst p) (j - fst p) (slice p l).
Proof.
  intros Hl Hi Hj. apply list_ext. intros k.
  rewrite nth_error_swap by (rewrite slice_length; lia). rewrite !nth_error_slice.
  destruct (Nat.ltb_spec (i - fst p) (snd p - fst p)); [|lia].
  destruct (Nat.ltb_spec (j - fst p) (snd p - fst p)); [|lia].
  replace (fst p + (i - fst p)) with i by lia. replace (fst p + (j - fst p)) with j by lia.
  destruct (Nat.ltb_spec k (snd p - fst p)).
  - rewrite nth_error_swap by lia.
    destruct (Nat.eqb_spec (fst p + k) i), (Nat.eqb_spec k (i - fst p)); try lia; auto.
    destruct (Nat.eqb_spec (fst p + k) j), (Nat.eqb_spec k (j - fst p)); try lia; auto.
  - destruct (Nat.eqb_spec k (i - fst p)); [lia|]. destruct (Nat.eqb_spec k (j - fst p)); [lia|]. auto.
Qed.
Lemma swap_perm {A} i j (l : list A) : Permutation l (swap_nth i j l).
Proof.
  destruct (lt_dec i (length l)) as [Hi|Hi];
    [|unfold swap_nth; rewrite (proj2 (nth_error_None l i)) by lia; auto].
  destruct (lt_dec j (length l)) as [Hj|Hj];
    [|unfold swap_nth; destruct (nth_error l i); auto; rewrite (proj2 (nth_error_None l j)) by lia; auto].
  apply Permutation_nth_error. split; [now rewrite swap_nth_length|].
  exists (fun k => if k =? i then j else if k =? j then i else k). split.
  - intros a b. destruct (Nat.eqb_spec a i), (Nat.eqb_spec b i), (Nat.eqb_spec a j), (Nat.eqb_spec b j); lia.
  - intros k. rewrite nth_error_swap by auto. destruct (k =? i); auto. destruct (k =? j); auto.
Qed.
