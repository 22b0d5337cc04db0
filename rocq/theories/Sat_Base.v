(** Basic lemmas and the independent notion of satisfaction used by the SAT theorems. *)
From Coq Require Import List Arith ZArith Bool Lia Permutation.
From Verif Require Import Base Core_Model Literal_Proofs.
From Verif Require Export Spec_Sat.
Import ListNotations.
Open Scope nat_scope.

Lemma lit_eqb_eq a b : lit_eqb a b = true <-> a = b.
Proof.
  destruct a as [x p], b as [y q]. unfold lit_eqb; simpl.
  rewrite andb_true_iff, Nat.eqb_eq, Bool.eqb_true_iff. split; [intros [-> ->]; auto | intros H; inversion H; auto].
Qed.
Lemma lit_eqb_refl a : lit_eqb a a = true.
Proof. now apply lit_eqb_eq. Qed.
Lemma lit_eqb_neq a b : lit_eqb a b = false <-> a <> b.
Proof. rewrite <- not_true_iff_false, lit_eqb_eq. tauto. Qed.
Lemma lit_eq_dec (a b : lit) : {a = b} + {a <> b}.
Proof. destruct (lit_eqb a b) eqn:E; [left; now apply lit_eqb_eq | right; now apply lit_eqb_neq]. Qed.
Lemma cref_eqb_eq a b : cref_eqb a b = true <-> a = b.
Proof. destruct a, b; simpl; rewrite ?Nat.eqb_eq; split; intros H; try discriminate; try congruence. Qed.
Lemma cref_eq_dec (a b : cref) : {a = b} + {a <> b}.
Proof.
  destruct (cref_eqb a b) eqn:E; [left; now apply cref_eqb_eq | right].
  intros H. apply cref_eqb_eq in H. congruence.
Qed.
Lemma var_eqb_eq a b : var_eqb a b = true <-> a = b.
Proof. destruct a, b; simpl; rewrite ?Nat.eqb_eq; split; intros H; try discriminate; try congruence. Qed.
Lemma var_eq_dec (a b : var) : {a = b} + {a <> b}.
Proof.
  destruct (var_eqb a b) eqn:E; [left; now apply var_eqb_eq | right].
  intros H. apply var_eqb_eq in H. congruence.
Qed.
Lemma vupd_eq {A} (f : var -> A) v x : vupd f v x v = x.
Proof. unfold vupd. now rewrite (proj2 (var_eqb_eq v v)). Qed.
Lemma vupd_neq {A} (f : var -> A) v w x : w <> v -> vupd f v x w = f w.
Proof.
  unfold vupd. intros H. destruct (var_eqb w v) eqn:E; auto. apply var_eqb_eq in E; congruence.
Qed.

Lemma mem_lit_In l c : mem_lit l c = true <-> In l c.
Proof.
  unfold mem_lit. rewrite existsb_exists. split.
  - intros (x & H1 & H2). apply lit_eqb_eq in H2. now subst.
  - intros H; exists l; split; auto. apply lit_eqb_refl.
Qed.
Lemma mem_lit_notIn l c : mem_lit l c = false <-> ~ In l c.
Proof. rewrite <- not_true_iff_false, mem_lit_In. tauto. Qed.

Lemma neg_neg l : neg (neg l) = l.
Proof. destruct l; unfold neg; simpl. now rewrite negb_involutive. Qed.
Lemma lvar_neg l : lvar (neg l) = lvar l.
Proof. reflexivity. Qed.
Lemma neg_neq l : neg l <> l.
Proof. destruct l as [x []]; unfold neg; simpl; congruence. Qed.
Lemma neg_inj a b : neg a = neg b -> a = b.
Proof. intros H. rewrite <- (neg_neg a), H. apply neg_neg. Qed.

Lemma lit_holds_neg a l : lit_holds a (neg l) = negb (lit_holds a l).
Proof. destruct l as [x []]; unfold lit_holds, neg; simpl; auto. now rewrite negb_involutive. Qed.

Lemma eval_lit_holds m l b : eval_lit m l = Some b -> lit_holds (mval m) l = b.
Proof.
  intros H. apply (proj2 (eval_lit_spec m l)) in H. destruct H as [_ ->]. reflexivity.
Qed.
Lemma eval_lit_some m l : mdef m (lord l) = true -> eval_lit m l = Some (lit_holds (mval m) l).
Proof. intros H. apply (proj2 (eval_lit_spec m l)). split; auto. Qed.
Lemma eval_lit_none m l : eval_lit m l = None <-> mdef m (lord l) = false.
Proof. apply eval_lit_spec. Qed.
Lemma eval_lit_neg m l : eval_lit m (neg l) = option_map negb (eval_lit m l).
Proof.
  unfold eval_lit; simpl. destruct (mdef m (lord l)); simpl; auto.
  destruct (mval m (lord l)), (lneg l); auto.
Qed.
Lemma eval_lit_neg_true m l : eval_lit m (neg l) = Some true <-> eval_lit m l = Some false.
Proof. rewrite eval_lit_neg. destruct (eval_lit m l) as [[|]|]; simpl; split; congruence. Qed.
Lemma eval_lit_neg_false m l : eval_lit m (neg l) = Some false <-> eval_lit m l = Some true.
Proof. rewrite eval_lit_neg. destruct (eval_lit m l) as [[|]|]; simpl; split; congruence. Qed.

Lemma same_var_lit a b : lord a = lord b -> a = b \/ a = neg b.
Proof.
  destruct a as [x p], b as [y q]; simpl; intros ->. unfold neg; simpl.
  destruct p, q; auto.
Qed.

Lemma clause_holds_perm a c c' : Permutation c c' -> clause_holds a c -> clause_holds a c'.
Proof. intros HP (l & H1 & H2). exists l; split; auto. eapply Permutation_in; eauto. Qed.

(** ** Swaps *)
From Verif Require Import Bool_Model.

Lemma set_nth_split {A} i (x : A) l :
  i < length l -> exists l1 y l2, l = l1 ++ y :: l2 /\ length l1 = i /\ set_nth i x l = l1 ++ x :: l2.
Proof.
  revert i; induction l; intros i Hi; simpl in Hi; try lia.
  destruct i.
  - exists [], a, l. auto.
  - destruct (IHl i) as (l1 & y & l2 & -> & H2 & H3); try lia.
    exists (a :: l1), y, l2. simpl. rewrite H3. auto.
Qed.

Lemma nth_error_swap {A} i j (l : list A) k :
  i < length l -> j < length l ->
  nth_error (swap i j l) k =
  if k =? i then nth_error l j else if k =? j then nth_error l i else nth_error l k.
Proof.
  intros Hi Hj. unfold swap.
  destruct (nth_error l i) as [x|] eqn:Ei; [|apply nth_error_None in Ei; lia].
  destruct (nth_error l j) as [y|] eqn:Ej; [|apply nth_error_None in Ej; lia].
  destruct (Nat.eqb_spec k i) as [->|Hki].
  - rewrite nth_error_set_nth_eq; auto. now rewrite set_nth_length.
  - rewrite nth_error_set_nth_neq by auto.
    destruct (Nat.eqb_spec k j) as [->|Hkj].
    + rewrite nth_error_set_nth_eq; auto.
    + rewrite nth_error_set_nth_neq by auto. auto.
Qed.

Lemma swap_length {A} i j (l : list A) : length (swap i j l) = length l.
Proof.
  unfold swap. destruct (nth_error l i), (nth_error l j); rewrite ?set_nth_length; auto.
Qed.

Lemma swap_perm {A} i j (l : list A) : Permutation l (swap i j l).
Proof.
  destruct (nth_error l i) as [x|] eqn:Ei; [|unfold swap; rewrite Ei; auto].
  destruct (nth_error l j) as [y|] eqn:Ej; [|unfold swap; rewrite Ei, Ej; auto].
  assert (Hi : i < length l) by (apply nth_error_Some; congruence).
  assert (Hj : j < length l) by (apply nth_error_Some; congruence).
  apply Permutation_nth_error. split; [now rewrite swap_length|].
  exists (fun k => if k =? i then j else if k =? j then i else k). split.
  - intros a b. destruct (Nat.eqb_spec a i), (Nat.eqb_spec a j), (Nat.eqb_spec b i), (Nat.eqb_spec b j); lia.
  - intros k. rewrite nth_error_swap by auto.
    destruct (k =? i); auto. destruct (k =? j); auto.
Qed.

(** ** References into the database *)
Definition valid (d : db) (r : cref) : Prop :=
  match r with
  | CAsserted i => i < length (asserted d)
  | CLearned i => i < length (learned d)
  end.

Lemma getc_setc_eq d r c : valid d r -> getc (setc d r c) r = c.
Proof. destruct r; simpl; intros; apply nth_set_nth_eq; auto. Qed.
Lemma getc_setc_neq d r r' c : r <> r' -> getc (setc d r c) r' = getc d r'.
Proof.
  destruct r, r'; simpl; intros; auto; apply nth_set_nth_neq; congruence.
Qed.
Lemma valid_setc d r c r' : valid (setc d r c) r' <-> valid d r'.
Proof. destruct r, r'; simpl; rewrite ?set_nth_length; tauto. Qed.

(** Same clauses up to the order of literals inside each clause. *)
Definition dbperm (d d' : db) : Prop :=
  Forall2 (@Permutation lit) (asserted d) (asserted d') /\
  Forall2 (@Permutation lit) (learned d) (learned d').

Lemma Forall2_perm_refl (l : list clause) : Forall2 (@Permutation lit) l l.
Proof. induction l; auto. Qed.
Lemma dbperm_refl d : dbperm d d.
Proof. split; apply Forall2_perm_refl. Qed.
Lemma Forall2_perm_trans (a b c : list clause) :
  Forall2 (@Permutation lit) a b -> Forall2 (@Permutation lit) b c -> Forall2 (@Permutation lit) a c.
Proof.
  intros H; revert c; induction H; intros c Hc; inversion Hc; subst; constructor; auto.
  etransitivity; eauto.
Qed.
Lemma dbperm_trans a b c : dbperm a b -> dbperm b c -> dbperm a c.
Proof. intros [] []; split; eapply Forall2_perm_trans; eauto. Qed.

Lemma Forall2_set_nth i (c : clause) l :
  i < length l -> Permutation (nth i l []) c -> Forall2 (@Permutation lit) l (set_nth i c l).
Proof.
  revert i; induction l; destruct i; simpl; intros; try lia; constructor; auto.
  - apply Forall2_perm_refl.
  - apply IHl; auto; lia.
Qed.

Lemma dbperm_setc d r c : valid d r -> Permutation (getc d r) c -> dbperm d (setc d r c).
Proof.
  destruct r; simpl; intros; split; simpl; auto using Forall2_perm_refl, Forall2_set_nth.
Qed.

Lemma Forall2_length' {A B} (R : A -> B -> Prop) l l' : Forall2 R l l' -> length l = length l'.
Proof. induction 1; simpl; auto. Qed.

Lemma Forall2_perm_nth (l l' : list clause) i :
  Forall2 (@Permutation lit) l l' -> Permutation (nth i l []) (nth i l' []).
Proof. intros H; revert i; induction H; destruct i; simpl; auto. Qed.

Lemma dbperm_valid d d' r : dbperm d d' -> (valid d r <-> valid d' r).
Proof.
  intros [H1 H2]. apply Forall2_length' in H1. apply Forall2_length' in H2.
  destruct r; simpl; lia.
Qed.
Lemma dbperm_getc d d' r : dbperm d d' -> Permutation (getc d r) (getc d' r).
Proof. intros [H1 H2]. destruct r; simpl; apply Forall2_perm_nth; auto. Qed.

(** All clauses of the database. *)
Definition clauses_of (d : db) : list clause := asserted d ++ learned d.

Lemma getc_in d r : valid d r -> In (getc d r) (clauses_of d).
Proof.
  unfold clauses_of. rewrite in_app_iff. destruct r; simpl; intros; [left|right]; apply nth_In; auto.
Qed.
Lemma in_getc d c : In c (clauses_of d) -> exists r, valid d r /\ getc d r = c.
Proof.
  unfold clauses_of. rewrite in_app_iff. intros [H|H]; apply (In_nth _ _ []) in H;
    destruct H as (i & H1 & H2).
  - exists (CAsserted i); auto.
  - exists (CLearned i); auto.
Qed.
