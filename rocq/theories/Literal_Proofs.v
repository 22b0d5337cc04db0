From Coq Require Import List Arith ZArith Bool Lia.
From Verif Require Import Base Core_Model Literal_Model.
Import ListNotations.
Open Scope Z_scope.

Lemma L_reachable_range v : L_reachable v -> 1 <= Z.abs v < 2 ^ 31.
Proof. induction 1; unfold L_make, L_neg in *; lia. Qed.

Lemma L_ord_make o : 0 <= o -> L_ord (L_make o) = o.
Proof. unfold L_ord, L_make; lia. Qed.
Lemma L_is_neg_make o : 0 <= o -> L_is_neg (L_make o) = false.
Proof. unfold L_is_neg, L_make; lia. Qed.
Lemma L_neg_neg v : L_neg (L_neg v) = v.
Proof. unfold L_neg; lia. Qed.
Lemma L_ord_neg v : L_ord (L_neg v) = L_ord v.
Proof. unfold L_ord, L_neg; lia. Qed.
Lemma L_is_neg_neg v : L_reachable v -> L_is_neg (L_neg v) = negb (L_is_neg v).
Proof. intros H; apply L_reachable_range in H. unfold L_is_neg, L_neg; lia. Qed.

Lemma L_eq_iff a b : L_reachable a -> L_reachable b ->
  (L_eq a b = true <-> L_ord a = L_ord b /\ L_is_neg a = L_is_neg b).
Proof.
  intros Ha Hb; apply L_reachable_range in Ha; apply L_reachable_range in Hb.
  unfold L_eq, L_ord, L_is_neg. lia.
Qed.

Lemma L_index_inj a b : L_reachable a -> L_reachable b -> L_index a = L_index b -> a = b.
Proof.
  intros Ha Hb; apply L_reachable_range in Ha; apply L_reachable_range in Hb.
  unfold L_index, L_ord, L_is_neg. destruct (a <? 0) eqn:?, (b <? 0) eqn:?; lia.
Qed.

Lemma L_index_range v n : L_reachable v -> L_ord v < n -> 0 <= L_index v < LM_slots n.
Proof.
  intros Ha; apply L_reachable_range in Ha.
  unfold L_index, L_ord, L_is_neg, LM_slots. destruct (v <? 0); lia.
Qed.

Lemma L_cmp_zero a b : L_reachable a -> L_reachable b -> (L_cmp a b = 0 <-> a = b).
Proof.
  intros Ha Hb. unfold L_cmp. split; [intros | intros ->; lia].
  apply L_index_inj; auto; lia.
Qed.

Lemma L_cmp_trans a b c : L_cmp a b < 0 -> L_cmp b c < 0 -> L_cmp a c < 0.
Proof. unfold L_cmp; lia. Qed.
Lemma L_cmp_antisym a b : L_cmp a b = - L_cmp b a.
Proof. unfold L_cmp; lia. Qed.

Lemma literal_encoding_lemma :
  (forall ord, 0 <= ord -> L_ord (L_make ord) = ord /\ L_is_neg (L_make ord) = false) /\
  (forall v, L_reachable v ->
     L_neg (L_neg v) = v /\ L_ord (L_neg v) = L_ord v /\
     L_is_neg (L_neg v) = negb (L_is_neg v) /\ 0 <= L_ord v < 2 ^ 31 - 1 /\
     - 2 ^ 31 <= L_neg v < 2 ^ 31) /\
  (forall a b, L_reachable a -> L_reachable b ->
     (L_eq a b = true <-> L_ord a = L_ord b /\ L_is_neg a = L_is_neg b) /\
     (L_index a = L_index b -> a = b) /\
     (L_cmp a b = 0 <-> a = b)) /\
  (forall a b c, L_cmp a b < 0 -> L_cmp b c < 0 -> L_cmp a c < 0) /\
  (forall v n, L_reachable v -> L_ord v < n -> 0 <= L_index v < LM_slots n).
Proof.
  repeat split; intros;
    try solve [ apply L_ord_make; auto | apply L_is_neg_make; auto | apply L_neg_neg
              | apply L_ord_neg | apply L_is_neg_neg; auto
              | apply L_reachable_range in H; unfold L_ord, L_neg; lia
              | eapply L_cmp_trans; eauto
              | apply L_index_inj; auto
              | apply L_eq_iff in H1; auto; tauto
              | apply L_eq_iff; auto
              | apply L_cmp_zero; auto
              | eapply L_index_range; eauto ].
Qed.

(** ** Clause evaluation *)
Lemma eval_clause_loop_spec m c : forall k size, (k + length c = size \/ k + length c < size)%nat ->
  eval_clause_loop m c k size =
  if existsb (fun l => is_true (eval_lit m l)) c then Some true
  else if (forallb (fun l => is_false (eval_lit m l)) c && (k + length c =? size)%nat)%bool
       then Some false else None.
Proof.
  induction c as [|l c IH]; intros k size H; simpl in *.
  - destruct (Nat.leb_spec size k), (Nat.eqb_spec (k + 0) size); auto; lia.
  - destruct (eval_lit m l) as [[|]|]; simpl; auto.
    + rewrite IH by lia. replace (S k + length c)%nat with (k + S (length c))%nat by lia. auto.
    + rewrite IH by lia. destruct existsb; auto.
      destruct (Nat.eqb_spec (k + length c) size); try lia.
      now rewrite !andb_false_r.
Qed.

Lemma eval_clause_unfold m c :
  eval_clause m c =
  if existsb (fun l => is_true (eval_lit m l)) c then Some true
  else if forallb (fun l => is_false (eval_lit m l)) c then Some false else None.
Proof.
  unfold eval_clause. rewrite eval_clause_loop_spec by auto. simpl.
  rewrite Nat.eqb_refl, andb_true_r. reflexivity.
Qed.

Lemma is_true_iff o : is_true o = true <-> o = Some true.
Proof. destruct o as [[|]|]; simpl; split; congruence. Qed.
Lemma is_false_iff o : is_false o = true <-> o = Some false.
Proof. destruct o as [[|]|]; simpl; split; congruence. Qed.

Lemma eval_clause_true m c :
  eval_clause m c = Some true <-> exists l, In l c /\ eval_lit m l = Some true.
Proof.
  rewrite eval_clause_unfold. destruct existsb eqn:E.
  - split; auto. intros _. apply existsb_exists in E. destruct E as (l & H1 & H2).
    exists l; split; auto. now apply is_true_iff.
  - split. destruct forallb; congruence. intros (l & H1 & H2).
    rewrite <- not_true_iff_false in E. exfalso; apply E. apply existsb_exists.
    exists l; split; auto. now apply is_true_iff.
Qed.

Lemma eval_clause_false m c :
  eval_clause m c = Some false <-> forall l, In l c -> eval_lit m l = Some false.
Proof.
  rewrite eval_clause_unfold. destruct existsb eqn:E.
  - split; try congruence. intros H. apply existsb_exists in E. destruct E as (l & H1 & H2).
    rewrite (H l H1) in H2. discriminate.
  - destruct forallb eqn:F.
    + split; auto. intros _ l Hl. rewrite forallb_forall in F. now apply is_false_iff, F.
    + split; try congruence. intros H. rewrite <- not_true_iff_false in F. exfalso; apply F.
      apply forallb_forall. intros x Hx. now apply is_false_iff, H.
Qed.

Lemma eval_clause_none m c :
  eval_clause m c = None <->
  (forall l, In l c -> eval_lit m l <> Some true) /\ (exists l, In l c /\ eval_lit m l = None).
Proof.
  split.
  - intros H. split.
    + intros l Hl Ht. assert (eval_clause m c = Some true) by (apply eval_clause_true; eauto).
      congruence.
    + rewrite eval_clause_unfold in H. destruct existsb eqn:E; try discriminate.
      destruct forallb eqn:F; try discriminate.
      clear H. induction c; simpl in *; try discriminate.
      apply orb_false_iff in E. destruct E as [E1 E2].
      destruct (eval_lit m a) as [[|]|] eqn:V; simpl in *; try discriminate; eauto.
      destruct IHc as (l & ? & ?); eauto.
  - intros [H1 (l & H2 & H3)]. destruct (eval_clause m c) as [[|]|] eqn:E; auto.
    + apply eval_clause_true in E. destruct E as (l' & ? & ?). exfalso; eapply H1; eauto.
    + rewrite eval_clause_false in E. rewrite E in H3; auto; discriminate.
Qed.

Lemma eval_lit_spec (m : model bool) (l : lit) :
  (eval_lit m l = None <-> mdef m (lord l) = false) /\
  (forall b, eval_lit m l = Some b <->
     mdef m (lord l) = true /\ b = (if lneg l then negb (mval m (lord l)) else mval m (lord l))).
Proof.
  unfold eval_lit. destruct (mdef m (lord l)); split; try (split; congruence).
  - intros b. destruct (mval m (lord l)), (lneg l), b; simpl; intuition congruence.
  - intros b; split; [discriminate | intros [? _]; discriminate].
Qed.
