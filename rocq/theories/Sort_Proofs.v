(** Insertion sort: permutation, sortedness, and uniqueness of the sorted result. *)
From Coq Require Import List Arith Bool Lia Permutation Sorting.Sorted.
From Verif Require Import Base.
Import ListNotations.

Section Sort.
Context {A : Type}.
Variable lt : A -> A -> bool.

Lemma insert_perm x l : Permutation (x :: l) (insert_by lt x l).
Proof.
  induction l as [|y l IH]; simpl; auto. destruct (lt y x); auto.
  etransitivity; [apply perm_swap|]. now constructor.
Qed.
Lemma sort_perm l : Permutation l (sort_by lt l).
Proof.
  induction l as [|x l IH]; simpl; auto. etransitivity; [|apply insert_perm]. now constructor.
Qed.

Variable R : A -> A -> Prop.
Hypothesis R_trans : forall x y z, R x y -> R y z -> R x z.
Hypothesis lt_R : forall x y, lt x y = true -> R x y.
Hypothesis nlt_R : forall x y, lt x y = false -> R y x.

Lemma insert_sorted x l : StronglySorted R l -> StronglySorted R (insert_by lt x l).
Proof.
  induction 1 as [|y l Hs IH Hf]; simpl. repeat constructor.
  destruct (lt y x) eqn:E.
  - constructor; auto. rewrite Forall_forall in *. intros z Hz.
    apply (Permutation_in z (Permutation_sym (insert_perm x l))) in Hz.
    destruct Hz as [<-|Hz]; auto.
  - constructor; [constructor; auto|]. constructor; auto. rewrite Forall_forall in *. intros z Hz.
    eauto.
Qed.
Lemma sort_sorted l : StronglySorted R (sort_by lt l).
Proof. induction l; simpl; [constructor|now apply insert_sorted]. Qed.
End Sort.

(** Two permutations of each other sorted by the same order are equal when the order is
    antisymmetric: std::sort gives the same result as insertion sort. *)
Lemma sorted_unique {A} (R : A -> A -> Prop) (l l' : list A) :
  (forall x y, In x l -> In y l -> R x y -> R y x -> x = y) ->
  Permutation l l' -> StronglySorted R l -> StronglySorted R l' -> l = l'.
Proof.
  intros Ha HP. revert l' HP. induction l as [|x l IH]; intros l' HP Hs Hs'.
  - apply Permutation_nil in HP. auto.
  - destruct l' as [|y l']; [apply Permutation_sym, Permutation_nil in HP; discriminate|].
    inversion Hs as [|? ? S1 F1]; inversion Hs' as [|? ? S2 F2]; subst.
    rewrite Forall_forall in *.
    assert (x = y).
    { assert (Hy : In y (x :: l)) by (eapply Permutation_in; [apply Permutation_sym; eauto|simpl; auto]).
      assert (Hx : In x (y :: l')) by (eapply Permutation_in; [eauto|simpl; auto]).
      destruct Hy as [Hy|Hy]; auto. destruct Hx as [Hx|Hx]; auto.
      apply Ha; simpl; auto. }
    subst y. f_equal. apply IH; auto. intros; apply Ha; simpl; auto.
    eapply Permutation_cons_inv; eauto.
Qed.
