(** Boolean constructors of the term manager. *)
From Coq Require Import List Arith ZArith QArith Qcanon NArith Bool Lia Sorting.Permutation.
From Verif Require Import Base Terms_Model Spec_Terms Terms_Proofs TermMgr_Model TermMgr_Base.
Import ListNotations.
Close Scope Qc_scope.
Close Scope Q_scope.
Open Scope nat_scope.

Section B.
Variable H : hashes.

(** the call returned a Boolean term with the truth value [f] *)
Definition yb (T : table) (r : table * term) (f : interp -> bool) : Prop :=
  wf H (fst r) /\ ext T (fst r) /\ bool_t (fst r) (snd r) /\ forall I, tholds I (fst r) (snd r) = f I.

Lemma yb_same : forall T t f, wf H T -> bool_t T t -> (forall I, tholds I T t = f I) -> yb T (T, t) f.
Proof. intros T t f W B E. split; [|split; [|split]]; simpl; auto using ext_refl. Qed.
Lemma yb_true : forall T f, wf H T -> (forall I, f I = true) -> yb T (T, true_term) f.
Proof.
  intros T f W E. apply yb_same; auto. { apply (prim_types _ _ W). }
  intros I. unfold tholds. rewrite (proj1 (prim_teval _ _ I W)), E. reflexivity.
Qed.
Lemma yb_false : forall T f, wf H T -> (forall I, f I = false) -> yb T (T, false_term) f.
Proof.
  intros T f W E. apply yb_same; auto. { apply (prim_types _ _ W). }
  intros I. unfold tholds. rewrite (proj1 (proj2 (prim_teval _ _ I W))), E. reflexivity.
Qed.
Lemma yb_ext : forall T r f g, yb T r f -> (forall I, f I = g I) -> yb T r g.
Proof. intros T r f g (A & B & C & D) E. split; [|split; [|split]]; auto. intros; now rewrite D. Qed.
Lemma yb_opp : forall T r f, yb T r f -> yb T (fst r, opp (snd r)) (fun I => negb (f I)).
Proof.
  intros T [T' t] f (A & B & C & D). simpl in *. split; [|split; [|split]]; simpl; auto using bool_opp.
  intros I. now rewrite (tholds_opp _ _ I _ A C), D.
Qed.

Lemma tholds_true : forall T I, wf H T -> tholds I T true_term = true.
Proof. intros T I W. unfold tholds. now rewrite (proj1 (prim_teval _ _ I W)). Qed.
Lemma tholds_false : forall T I, wf H T -> tholds I T false_term = false.
Proof. intros T I W. unfold tholds. now rewrite (proj1 (proj2 (prim_teval _ _ I W))). Qed.

Lemma or_term_ok : forall T args, wf H T -> 2 <= length args -> Forall (bool_t T) args ->
  (forall a, In a args -> a <> true_term /\ a <> false_term) ->
  yb T (or_term H T args) (fun I => existsb (tholds I T) args).
Proof.
  intros T args W L B C. unfold or_term.
  destruct (get_term H T (RComp KOr TBool args)) as [T' t] eqn:E.
  assert (RO : req_ok (RComp KOr TBool args)) by (unfold req_ok, op_ok; repeat split; discriminate).
  destruct (get_wf _ _ _ _ _ W RO E) as (W' & X & V & N & D & Q & _).
  { right; right. split.
    - unfold wf_node; simpl. split; auto. split; auto. apply Forall_forall. intros a Ia.
      split; [eapply Forall_forall; eauto|]. destruct (C _ Ia) as [C1 C2].
      intro E1. destruct a as [i []]; simpl in E1; subst; [apply C2|apply C1]; reflexivity.
    - simpl. intros a Ia. eapply Forall_forall in B; eauto. apply B. }
  split; [|split; [|split]]; simpl; auto.
  - split; auto. unfold type_of. rewrite D. reflexivity.
  - intros I. unfold tholds at 1. rewrite (teval_node _ _ I t W' V N), D. simpl.
    clear -B X. induction B as [|a l Ba B IH]; simpl; auto. rewrite IH. f_equal.
    fold (teval I T' a). apply (tholds_ext I _ _ _ X). apply Ba.
Qed.

(** [x] and [y] in [T] *)
Lemma binary_or_ok : forall T x y, wf H T -> bool_t T x -> bool_t T y ->
  yb T (mk_binary_or H T x y) (fun I => tholds I T x || tholds I T y).
Proof.
  intros T x y W X Y. unfold mk_binary_or.
  destruct (t_eqb x y) eqn:E1.
  { apply t_eqb_eq in E1; subst. apply yb_same; auto. intros; now rewrite orb_diag. }
  destruct (t_eqb x true_term) eqn:E2.
  { apply t_eqb_eq in E2; subst. apply yb_same; auto. intros. now rewrite tholds_true. }
  destruct (t_eqb y true_term) eqn:E3.
  { apply t_eqb_eq in E3; subst. apply yb_same; auto. intros. rewrite tholds_true; auto. now rewrite orb_true_r. }
  destruct (t_eqb x false_term) eqn:E4.
  { apply t_eqb_eq in E4; subst. apply yb_same; auto. intros. now rewrite tholds_false. }
  destruct (t_eqb y false_term) eqn:E5.
  { apply t_eqb_eq in E5; subst. apply yb_same; auto. intros. rewrite tholds_false; auto. now rewrite orb_false_r. }
  destruct (t_eqb (opp x) y) eqn:E6.
  { apply t_eqb_eq in E6; subst. apply yb_true; auto. intros I.
    rewrite (tholds_opp _ _ I _ W X). apply orb_negb_r. }
  apply t_eqb_neq in E2, E3, E4, E5.
  assert (C : forall a, In a [x; y] \/ In a [y; x] -> a <> true_term /\ a <> false_term).
  { intros a Ia. simpl in Ia. intuition (subst; auto). }
  destruct (t_ltb y x).
  - eapply yb_ext; [apply or_term_ok; auto|]. intros I; simpl. rewrite orb_false_r. apply orb_comm.
  - eapply yb_ext; [apply or_term_ok; auto|]. intros I; simpl. now rewrite orb_false_r.
Qed.
Lemma binary_and_ok : forall T x y, wf H T -> bool_t T x -> bool_t T y ->
  yb T (mk_binary_and H T x y) (fun I => tholds I T x && tholds I T y).
Proof.
  intros T x y W X Y. unfold mk_binary_and.
  pose proof (binary_or_ok T (opp x) (opp y) W (bool_opp _ _ X) (bool_opp _ _ Y)) as P.
  destruct (mk_binary_or H T (opp x) (opp y)) as [T1 t]. apply yb_opp in P.
  eapply yb_ext; [exact P|]. intros I; simpl. rewrite (tholds_opp _ _ I _ W X), (tholds_opp _ _ I _ W Y).
  now rewrite <- negb_andb, negb_involutive.
Qed.
Lemma implies_ok : forall T x y, wf H T -> bool_t T x -> bool_t T y ->
  yb T (mk_implies H T x y) (fun I => implb (tholds I T x) (tholds I T y)).
Proof.
  intros T x y W X Y. eapply yb_ext; [apply binary_or_ok; auto using bool_opp|].
  intros I; simpl. rewrite (tholds_opp _ _ I _ W X). now destruct (tholds I T x).
Qed.
(** chaining: a call on a table that extends [T] *)
Lemma yb_from : forall T T1 r f, ext T T1 -> yb T1 r f -> yb T r f.
Proof. intros T T1 r f X (A & B & C & D). split; [|split; [|split]]; auto. eapply ext_trans; eauto. Qed.
Lemma iff_ok : forall T x y, wf H T -> bool_t T x -> bool_t T y ->
  yb T (mk_iff H T x y) (fun I => eqb (tholds I T x) (tholds I T y)).
Proof.
  intros T x y W X Y. unfold mk_iff. pose proof (implies_ok T x y W X Y) as P1.
  destruct (mk_implies H T x y) as [T1 a]. destruct P1 as (W1 & X1 & B1 & E1). simpl in *.
  pose proof (implies_ok T1 y x W1 (bool_ext _ _ _ X1 Y) (bool_ext _ _ _ X1 X)) as P2.
  destruct (mk_implies H T1 y x) as [T2 b]. destruct P2 as (W2 & X2 & B2 & E2). simpl in *.
  eapply yb_from; [eapply ext_trans; eauto|].
  eapply yb_ext; [apply binary_and_ok; auto; eapply bool_ext; eauto|]. intros I; simpl.
  rewrite (tholds_ext I _ _ a X2 (proj1 B1)), E1, E2, !(tholds_ext I _ _ _ X1); try apply X; try apply Y.
  now destruct (tholds I T x), (tholds I T y).
Qed.
Lemma xor_ok : forall T x y, wf H T -> bool_t T x -> bool_t T y ->
  yb T (mk_xor H T x y) (fun I => xorb (tholds I T x) (tholds I T y)).
Proof.
  intros T x y W X Y. unfold mk_xor. pose proof (binary_or_ok T x y W X Y) as P1.
  destruct (mk_binary_or H T x y) as [T1 a]. destruct P1 as (W1 & X1 & B1 & E1). simpl in *.
  pose proof (binary_and_ok T1 x y W1 (bool_ext _ _ _ X1 X) (bool_ext _ _ _ X1 Y)) as P2.
  destruct (mk_binary_and H T1 x y) as [T2 b]. destruct P2 as (W2 & X2 & B2 & E2). simpl in *.
  eapply yb_from; [eapply ext_trans; eauto|].
  eapply yb_ext; [apply binary_and_ok; auto using bool_opp; eapply bool_ext; eauto|]. intros I; simpl.
  rewrite (tholds_opp _ _ I _ W2 B2), (tholds_ext I _ _ a X2 (proj1 B1)), E1, E2, !(tholds_ext I _ _ _ X1);
    try apply X; try apply Y.
  now destruct (tholds I T x), (tholds I T y).
Qed.
Lemma bool_ite_ok : forall T c t e, wf H T -> bool_t T c -> bool_t T t -> bool_t T e ->
  yb T (mk_bool_ite H T c t e) (fun I => if tholds I T c then tholds I T t else tholds I T e).
Proof.
  intros T c t e W C X Y. unfold mk_bool_ite.
  assert (NC : forall I, tholds I T (opp c) = negb (tholds I T c)) by (intros; eapply tholds_opp; eauto).
  assert (NT : forall I, tholds I T (opp t) = negb (tholds I T t)) by (intros; eapply tholds_opp; eauto).
  assert (NE : forall I, tholds I T (opp e) = negb (tholds I T e)) by (intros; eapply tholds_opp; eauto).
  assert (TT : forall I, tholds I T true_term = true) by (intros; now apply tholds_true).
  assert (FF : forall I, tholds I T false_term = false) by (intros; now apply tholds_false).
  repeat match goal with
  | |- yb _ (if t_eqb ?a ?b then _ else _) _ =>
      let E := fresh "E" in destruct (t_eqb a b) eqn:E;
      [apply t_eqb_eq in E; try subst; clear -W C X Y NC NT NE TT FF|]
  end.
  - apply yb_same; auto. intros I; now destruct (tholds I T c).
  - apply yb_same; auto. intros I. now rewrite TT.
  - apply yb_same; auto. intros I. now rewrite FF.
  - eapply yb_ext; [apply iff_ok; auto|]. intros I; simpl. rewrite NE. now destruct (tholds I T c), (tholds I T e).
  - eapply yb_ext; [apply binary_or_ok; auto|]. intros I; simpl. now destruct (tholds I T t).
  - eapply yb_ext; [apply binary_and_ok; auto|]. intros I; simpl. now destruct (tholds I T e).
  - eapply yb_ext; [apply binary_and_ok; auto|]. intros I; simpl. rewrite NT. now destruct (tholds I T t).
  - eapply yb_ext; [apply binary_or_ok; auto|]. intros I; simpl. rewrite NE. now destruct (tholds I T e).
  - eapply yb_ext; [apply binary_or_ok; auto|]. intros I; simpl. rewrite TT. now destruct (tholds I T c).
  - eapply yb_ext; [apply binary_and_ok; auto using bool_opp|]. intros I; simpl. rewrite NC, FF. now destruct (tholds I T c).
  - eapply yb_ext; [apply binary_and_ok; auto|]. intros I; simpl. rewrite FF. now destruct (tholds I T c).
  - eapply yb_ext; [apply binary_or_ok; auto using bool_opp|]. intros I; simpl. rewrite NC, TT. now destruct (tholds I T c).
  - assert (G : forall c t e, bool_t T c -> bool_t T t -> bool_t T e ->
      yb T (let (T1, a) := mk_implies H T c t in
            let (T2, b) := mk_implies H T1 (opp c) e in mk_binary_and H T2 a b)
         (fun I => if tholds I T c then tholds I T t else tholds I T e)).
    { clear -W. intros c t e C X Y. pose proof (implies_ok T c t W C X) as P1.
      destruct (mk_implies H T c t) as [T1 a]. destruct P1 as (W1 & X1 & B1 & E1). simpl in *.
      pose proof (implies_ok T1 (opp c) e W1 (bool_opp _ _ (bool_ext _ _ _ X1 C)) (bool_ext _ _ _ X1 Y)) as P2.
      destruct (mk_implies H T1 (opp c) e) as [T2 b]. destruct P2 as (W2 & X2 & B2 & E2). simpl in *.
      eapply yb_from; [eapply ext_trans; eauto|].
      eapply yb_ext; [apply binary_and_ok; auto; eapply bool_ext; eauto|]. intros I; simpl.
      rewrite (tholds_ext I _ _ a X2 (proj1 B1)), E1, E2, (tholds_opp _ _ I _ W1 (bool_ext _ _ _ X1 C)),
        !(tholds_ext I _ _ _ X1); try apply C; try apply Y.
      now destruct (tholds I T c), (tholds I T t), (tholds I T e). }
    destruct (tneg c).
    + eapply yb_ext; [apply G; auto using bool_opp|]. intros I; simpl. rewrite NC. now destruct (tholds I T c).
    + apply G; auto.
Qed.

(** *** mk_or *)
Lemma insert_perm : forall x l, Permutation (insert_by t_ltb x l) (x :: l).
Proof.
  induction l as [|y l IH]; simpl; auto. destruct (t_ltb y x); auto.
  rewrite IH. constructor.
Qed.
Lemma sort_perm : forall l, Permutation (sort_by t_ltb l) l.
Proof.
  induction l as [|x l IH]; simpl; auto. unfold sort_by; simpl. rewrite insert_perm. now constructor.
Qed.
Fixpoint srt (l : list term) : Prop :=
  match l with [] => True | x :: l' => Forall (fun y => tx x <= tx y) l' /\ srt l' end.
Lemma insert_srt : forall x l, srt l -> srt (insert_by t_ltb x l).
Proof.
  induction l as [|y l IH]; simpl; auto. intros [A B].
  unfold t_ltb. destruct (Nat.ltb_spec (tx y) (tx x)); simpl.
  - split; auto. eapply Permutation_Forall; [symmetry; apply insert_perm|]. constructor; auto. lia.
  - split; auto. constructor; auto. eapply Forall_impl; [|exact A]. simpl; intros; lia.
Qed.
Lemma sort_srt : forall l, srt (sort_by t_ltb l).
Proof. induction l; simpl; auto. unfold sort_by; simpl. now apply insert_srt. Qed.

Lemma existsb_perm : forall (f : term -> bool) a b, Permutation a b -> existsb f a = existsb f b.
Proof.
  intros f a b P. induction P; simpl; auto.
  - now rewrite IHP.
  - now rewrite !orb_assoc, (orb_comm (f y)).
  - congruence.
Qed.

(** the loop keeps the disjunction of [kept] and the rest *)
Definition kept_ok (T : table) (prev : term) (kept : list term) : Prop :=
  Forall (bool_t T) kept /\ (forall a, In a kept -> a <> true_term /\ a <> false_term) /\
  ((kept = [] /\ prev = false_term) \/ exists k', kept = prev :: k').

Lemma valid_tx : forall T t, valid T t -> 2 <= tx t.
Proof. intros T [i m] [V _]; unfold tx; simpl in *. destruct m; lia. Qed.

Lemma or_loop_ok : forall T l prev kept, wf H T -> bool_t T prev -> Forall (bool_t T) l ->
  srt (prev :: l) -> prev <> true_term -> kept_ok T prev kept ->
  match or_loop prev kept l with
  | Ok None => forall I, existsb (tholds I T) (kept ++ l) = true
  | Ok (Some (p, k)) => kept_ok T p k /\ bool_t T p /\
      forall I, existsb (tholds I T) k = existsb (tholds I T) (kept ++ l)
  | _ => False
  end.
Proof.
  intros T l. induction l as [|c l IH]; intros prev kept W BP BL SO NT K; simpl.
  - split; auto. split; auto. intros. now rewrite app_nil_r.
  - inversion BL as [|? ? BC BL']; subst. destruct SO as [SO1 [SO2 SO3]].
    inversion SO1 as [|? ? SO4 SO5]; subst.
    destruct (t_eqb prev c) eqn:E1.
    + apply t_eqb_eq in E1; subst c.
      specialize (IH prev kept W BP BL'). simpl in IH. specialize (IH (conj SO5 SO3) NT K).
      destruct K as (K1 & K2 & K3).
      assert (D : forall I, existsb (tholds I T) (kept ++ prev :: l) = existsb (tholds I T) (kept ++ l)).
      { intros I. rewrite !existsb_app. simpl. destruct K3 as [[-> ->]|[k' ->]]; simpl.
        - now rewrite tholds_false.
        - destruct (tholds I T prev); auto. }
      destruct (or_loop prev kept l) as [[[p k]|]| |]; auto.
      * destruct IH as (A & B & C). split; auto. split; auto. intros I. now rewrite D.
      * intros I. now rewrite D.
    + apply t_eqb_neq in E1. destruct (t_eqb c (opp prev)) eqn:E2.
      * apply t_eqb_eq in E2; subst c. intros I. destruct K as (K1 & K2 & K3).
        rewrite existsb_app. simpl. rewrite (tholds_opp _ _ I _ W BP).
        destruct K3 as [[-> ->]|[k' ->]]; simpl.
        -- rewrite tholds_false; auto.
        -- destruct (tholds I T prev); simpl; auto. apply orb_true_r.
      * apply t_eqb_neq in E2.
        assert (NC : c <> true_term /\ c <> false_term).
        { pose proof (valid_tx _ _ (proj1 BP)) as V.
          split; intros ->.
          - change (tx true_term) with 2 in SO4. apply NT, tx_inj. change (tx true_term) with 2. lia.
          - change (tx false_term) with 3 in SO4. assert (tx prev = 2 \/ tx prev = 3) as [P|P] by lia.
            + apply NT, tx_inj. exact P.
            + apply E1, tx_inj. exact P. }
        destruct NC as [NC1 NC2].
        rewrite (proj2 (t_eqb_neq _ _) NC1), (proj2 (t_eqb_neq _ _) NC2). simpl.
        assert (K' : kept_ok T c (c :: kept)).
        { destruct K as (K1 & K2 & K3). split; [constructor; auto|split; [|right; eauto]].
          intros a [<-|Ia]; auto. }
        specialize (IH c (c :: kept) W BC BL' (conj SO2 SO3) NC1 K').
        assert (D : forall I, existsb (tholds I T) ((c :: kept) ++ l) = existsb (tholds I T) (kept ++ c :: l)).
        { intros I. simpl. rewrite !existsb_app. simpl.
          now destruct (tholds I T c), (existsb (tholds I T) kept). }
        destruct (or_loop c (c :: kept) l) as [[[p k]|]| |]; auto.
        -- destruct IH as (A & B & C). split; auto. split; auto. intros I. now rewrite <- D, C.
        -- intros I. now rewrite <- D.
Qed.

Definition yrb (T : table) (r : res (table * term)) (f : interp -> bool) : Prop :=
  exists p, r = Ok p /\ yb T p f.

Lemma or_ok : forall T args, wf H T -> Forall (bool_t T) args ->
  yrb T (mk_or H T args) (fun I => existsb (tholds I T) args).
Proof.
  intros T args W B. unfold mk_or.
  pose proof (sort_perm args) as P. pose proof (sort_srt args) as SO.
  assert (B' : Forall (bool_t T) (sort_by t_ltb args)).
  { eapply Permutation_Forall; [symmetry; exact P|auto]. }
  assert (D : forall I, existsb (tholds I T) args = existsb (tholds I T) (sort_by t_ltb args)).
  { intros; apply existsb_perm. now symmetry. }
  destruct (sort_by t_ltb args) as [|first l].
  { eexists; split; [reflexivity|]. apply yb_false; auto. }
  inversion B' as [|? ? BF BL]; subst.
  destruct (t_eqb first true_term) eqn:E1.
  { apply t_eqb_eq in E1; subst. eexists; split; [reflexivity|]. apply yb_true; auto.
    intros I. rewrite D. simpl. now rewrite tholds_true. }
  apply t_eqb_neq in E1.
  set (kept := if t_eqb first false_term then [] else [first]).
  assert (K : kept_ok T first kept /\ forall I, existsb (tholds I T) (kept ++ l) = existsb (tholds I T) (first :: l)).
  { subst kept. destruct (t_eqb first false_term) eqn:E2.
    - apply t_eqb_eq in E2; subst. split; [split; [constructor|split; [simpl; tauto|auto]]|].
      intros I. simpl. now rewrite tholds_false.
    - apply t_eqb_neq in E2. split; auto. split; [constructor; auto|split; [|right; eauto]].
      simpl. intros a [<-|[]]; auto. }
  destruct K as [K DK].
  pose proof (or_loop_ok T l first kept W BF BL SO E1 K) as R.
  destruct (or_loop first kept l) as [[[p k]|]| |]; try tauto; simpl.
  - destruct R as ((K1 & K2 & K3) & BP & DR). destruct (Nat.leb_spec (length k) 1) as [L|L].
    + eexists; split; [reflexivity|]. apply yb_same; auto. intros I. rewrite D, <- DK, <- DR.
      destruct K3 as [[-> ->]|[k' ->]]; simpl; [now rewrite tholds_false|].
      simpl in L. destruct k'; simpl in *; [now rewrite orb_false_r|lia].
    + eexists; split; [reflexivity|]. eapply yb_ext; [apply or_term_ok; auto|].
      * now rewrite rev_length.
      * apply Forall_rev; auto.
      * intros a Ia. apply K2. now apply in_rev.
      * intros I. rewrite D, <- DK, <- DR. apply existsb_perm. symmetry. apply Permutation_rev.
  - eexists; split; [reflexivity|]. apply yb_true; auto. intros I. now rewrite D, <- DK, R.
Qed.
Lemma and_ok : forall T args, wf H T -> Forall (bool_t T) args ->
  yrb T (mk_and H T args) (fun I => forallb (tholds I T) args).
Proof.
  intros T args W B. unfold mk_and.
  destruct (or_ok T (map opp args) W) as (p & E & Y).
  { apply Forall_map. eapply Forall_impl; [|exact B]. intros; now apply bool_opp. }
  rewrite E. simpl. eexists; split; [reflexivity|]. apply yb_opp in Y. eapply yb_ext; [exact Y|].
  intros I; simpl. clear E Y p. induction B as [|a l Ba Bl IH]; simpl; auto.
  rewrite (tholds_opp _ _ I _ W Ba), negb_orb, negb_involutive. now rewrite IH.
Qed.
End B.
