(** Subsumption::remove_subsumed (Subsumption.cpp 87-158). *)
From Coq Require Import List Arith ZArith NArith Bool Lia.
From Verif Require Import Base Core_Model Literal_Proofs Analysis_Model Sat_Base.
Import ListNotations.
Open Scope nat_scope.

(** order preserving sublist *)
Inductive sub {A} : list A -> list A -> Prop :=
| sub_nil : sub [] []
| sub_skip x l l' : sub l l' -> sub l (x :: l')
| sub_keep x l l' : sub l l' -> sub (x :: l) (x :: l').

Lemma sub_in {A} (l l' : list A) x : sub l l' -> In x l -> In x l'.
Proof. induction 1; simpl; intuition. Qed.
Lemma sub_app {A} (a a' b b' : list A) : sub a a' -> sub b b' -> sub (a ++ b) (a' ++ b').
Proof. induction 1; simpl; intros K; auto; constructor; apply IHsub; auto. Qed.
Lemma sub_refl {A} (l : list A) : sub l l.
Proof. induction l; [apply sub_nil|apply sub_keep; auto]. Qed.
Lemma sub_nodup {A} (l l' : list A) : sub l l' -> NoDup l' -> NoDup l.
Proof.
  induction 1 as [|x l l' H IH|x l l' H IH]; intros S; auto; inversion S as [|? ? S1 S2]; subst; auto.
  constructor; auto. intros K. apply S1. eapply sub_in; eauto.
Qed.
Lemma sub_length {A} (l l' : list A) : sub l l' -> length l <= length l'.
Proof. induction 1; simpl; lia. Qed.

(** [c'] is a strictly shorter subset of [c] *)
Definition shorter_subset (c' c : clause) : Prop := incl c' c /\ length c' < length c.

Section S.
Variable hash : lit -> N.

Lemma subsumes_spec s1 c1 s2 c2 : subsumes s1 c1 s2 c2 = true -> shorter_subset c1 c2.
Proof.
  unfold subsumes. intros H. apply andb_true_iff in H. destruct H as [H H3].
  apply andb_true_iff in H. destruct H as [_ H2]. split.
  - intros x Hx. rewrite forallb_forall in H3. specialize (H3 x Hx). now apply mem_lit_In.
  - destruct (Nat.ltb_spec (length c1) (length c2)); auto; discriminate.
Qed.

(** [L] arises from [L0] by clearing clauses that are covered *)
Definition cov (L0 L : list clause) : Prop :=
  length L = length L0 /\
  (forall i, nth i L [] = nth i L0 [] \/ nth i L [] = []) /\
  (forall i, nth i L0 [] <> [] ->
     nth i L [] = nth i L0 [] \/
     exists j, nth j L [] <> [] /\ shorter_subset (nth j L []) (nth i L0 [])).

Lemma cov_refl L : cov L L.
Proof. repeat split; auto. Qed.

Lemma nth_set_nth_cases {A} i (x : A) l d0 j :
  nth j (set_nth i x l) d0 = if (j =? i) && (i <? length l) then x else nth j l d0.
Proof.
  destruct (Nat.eqb_spec j i) as [->|E]; simpl.
  - destruct (Nat.ltb_spec i (length l)); [now apply nth_set_nth_eq|].
    rewrite !nth_overflow; auto. now rewrite set_nth_length.
  - apply nth_set_nth_neq; auto.
Qed.

Lemma cov_clear L0 L i j :
  cov L0 L -> i <> j -> nth i L [] <> [] -> shorter_subset (nth i L []) (nth j L []) ->
  cov L0 (set_nth j [] L).
Proof.
  intros (H1 & H2 & H3) Hij Hi Hs.
  assert (Hj : nth j L [] <> []).
  { intros E. rewrite E in Hs. destruct Hs as [_ Hs]. simpl in Hs. lia. }
  assert (Hjl : j < length L). { destruct (Nat.lt_ge_cases j (length L)); auto. rewrite nth_overflow in Hj; congruence. }
  assert (Hi' : nth i (set_nth j [] L) [] = nth i L []) by (rewrite nth_set_nth_neq; auto).
  repeat split.
  - now rewrite set_nth_length.
  - intros k. rewrite nth_set_nth_cases. destruct ((k =? j) && (j <? length L)); auto.
  - intros k Hk. destruct (Nat.eq_dec k j) as [-> |Hkj].
    + right. exists i. rewrite Hi'. split; auto.
      destruct (H2 j) as [E|E]; [|congruence]. now rewrite <- E.
    + destruct (H3 k Hk) as [E|(m & M1 & M2)].
      * left. rewrite nth_set_nth_neq; auto.
      * right. destruct (Nat.eq_dec m j) as [-> |Hmj].
        -- exists i. rewrite Hi'. split; auto. destruct Hs as [S1 S2], M2 as [M2 M3]. split; [|lia].
           intros x Hx. auto.
        -- exists m. rewrite nth_set_nth_neq; auto.
Qed.

Lemma clear_loop_cov i s : forall others L0 L,
  cov L0 L -> nth i L [] <> [] -> cov L0 (clear_loop i s others L).
Proof.
  induction others as [|[j sj] others IH]; intros L0 L HC Hi; simpl; auto.
  destruct (Nat.eqb_spec j i) as [->|E]; simpl; auto.
  destruct (subsumes s (nth i L []) sj (nth j L [])) eqn:Es; auto.
  apply subsumes_spec in Es. apply IH.
  - eapply cov_clear; eauto.
  - rewrite nth_set_nth_neq; auto.
Qed.

Lemma remove_by_cov occ L0 L i : cov L0 L -> cov L0 (remove_subsumed_by hash occ L i).
Proof.
  intros HC. unfold remove_subsumed_by. destruct (nth i L []) as [|l c] eqn:E; auto.
  apply clear_loop_cov; auto. rewrite E; discriminate.
Qed.

Lemma fold_cov occ : forall is L0 L, cov L0 L -> cov L0 (fold_left (remove_subsumed_by hash occ) is L).
Proof. induction is as [|i is IH]; simpl; intros; auto. apply IH. now apply remove_by_cov. Qed.

Definition nonempty (c : clause) : bool := negb (match c with [] => true | _ => false end).

Lemma filter_sub : forall L0 L, length L = length L0 ->
  (forall i, nth i L [] = nth i L0 [] \/ nth i L [] = []) -> sub (filter nonempty L) L0.
Proof.
  induction L0 as [|c L0 IH]; intros [|x L] H1 H2; try discriminate; simpl; [constructor|].
  assert (K : sub (filter nonempty L) L0).
  { apply IH. now injection H1. intros i. apply (H2 (S i)). }
  destruct (H2 0) as [E|E]; simpl in E; subst x.
  - destruct c as [|l c]; simpl; [now apply sub_skip|now apply sub_keep].
  - simpl. now apply sub_skip.
Qed.

Lemma remove_subsumed_ok old L :
  old <= length L ->
  exists L', remove_subsumed hash old L = Ok L' /\
    sub L' L /\ (forall c, In c L' -> c <> []) /\
    (forall c, In c L -> c <> [] -> In c L' \/ exists c', In c' L' /\ shorter_subset c' c).
Proof.
  intros Hold. unfold remove_subsumed. rewrite (proj2 (Nat.leb_le _ _) Hold).
  eexists. split; [reflexivity|].
  set (L1 := fold_left _ (seq old _) L).
  set (L2 := fold_left _ (seq 0 _) L1).
  assert (C1 : cov L L1) by (apply fold_cov, cov_refl).
  assert (C2 : cov L L2) by (apply fold_cov; exact C1).
  clearbody L2. destruct C2 as (H1 & H2 & H3).
  fold nonempty. change (filter (fun c => negb match c with [] => true | _ => false end) L2) with (filter nonempty L2).
  split; [now apply filter_sub|]. split.
  - intros c Hc. apply filter_In in Hc. destruct Hc as [_ Hc]. intros ->. discriminate.
  - intros c Hc Hne. apply (In_nth L c []) in Hc. destruct Hc as (i & Hi & Ei).
    assert (NE : forall j, nth j L2 [] <> [] -> In (nth j L2 []) (filter nonempty L2)).
    { intros j Hj. apply filter_In. split.
      - apply nth_In. destruct (Nat.lt_ge_cases j (length L2)); auto. rewrite nth_overflow in Hj; congruence.
      - destruct (nth j L2 []); auto. }
    destruct (H3 i) as [E|(j & J1 & J2)]; [congruence| |].
    + left. rewrite <- Ei, <- E. apply NE. congruence.
    + right. exists (nth j L2 []). rewrite <- Ei. auto.
Qed.
End S.
