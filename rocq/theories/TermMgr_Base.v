(** Well-formed term tables and the meaning of their terms. *)
From Coq Require Import List Arith ZArith QArith Qcanon NArith Bool Lia.
From Verif Require Import Base Terms_Model Spec_Terms Terms_Proofs TermMgr_Model.
Import ListNotations.
Close Scope Qc_scope.
Close Scope Q_scope.
Open Scope nat_scope.

(** ** Values *)
Definition step (I : interp) (vs : list value) (n : node) : list value :=
  vs ++ [node_value I (length vs) vs n].
Lemma values_app : forall I a b, values I (a ++ b) = fold_left (step I) b (values I a).
Proof. intros. unfold values. now rewrite fold_left_app. Qed.
Lemma fold_step_len : forall I b vs, length (fold_left (step I) b vs) = length vs + length b.
Proof.
  induction b as [|n b IH]; intros vs; simpl; [lia|]. rewrite IH. unfold step. rewrite app_length; simpl; lia.
Qed.
Lemma values_len : forall I a, length (values I a) = length a.
Proof. intros. unfold values. fold (step I). rewrite fold_step_len. reflexivity. Qed.
Lemma fold_step_pre : forall I b vs, exists l, fold_left (step I) b vs = vs ++ l.
Proof.
  induction b as [|n b IH]; intros vs; simpl; [exists []; now rewrite app_nil_r|].
  destruct (IH (step I vs n)) as [l E]. rewrite E. unfold step. rewrite <- app_assoc. eauto.
Qed.
Lemma values_nth_app : forall I a b i, i < length a ->
  nth i (values I (a ++ b)) (VB false) = nth i (values I a) (VB false).
Proof.
  intros. rewrite values_app. destruct (fold_step_pre I b (values I a)) as [l E]. rewrite E.
  apply app_nth1. now rewrite values_len.
Qed.
Lemma look_ext : forall I a b t, tix t < length a -> look (values I (a ++ b)) t = look (values I a) t.
Proof. intros. unfold look. now rewrite values_nth_app. Qed.

Lemma node_value_local : forall I i vs vs' n, (forall t, In t (dargs n) -> look vs t = look vs' t) ->
  node_value I i vs n = node_value I i vs' n.
Proof.
  intros I i vs vs' [k ty d] E. unfold dargs in E; simpl in E. unfold node_value; simpl.
  destruct k, d as [|args|q|j]; auto.
  - destruct args as [|c [|t [|e [|]]]]; auto. rewrite !E; simpl; auto.
  - destruct args as [|f args]; auto.
    rewrite (map_ext_in (look vs) (look vs') args); auto. intros; apply E; simpl; auto.
  - f_equal. induction args; simpl; auto. rewrite E, IHargs; simpl; auto. intros; apply E; simpl; auto.
  - destruct args as [|c [|]]; auto. rewrite !E; simpl; auto.
  - destruct args as [|c [|]]; auto. rewrite !E; simpl; auto.
  - destruct args as [|c [|t [|]]]; auto. rewrite !E; simpl; auto.
  - destruct args as [|c [|t [|]]]; auto. rewrite !E; simpl; auto.
  - f_equal. induction args; simpl; auto. rewrite E, IHargs; simpl; auto. intros; apply E; simpl; auto.
Qed.

Lemma values_nth : forall I ns i n, nth_error ns i = Some n -> (forall t, In t (dargs n) -> tix t < i) ->
  nth i (values I ns) (VB false) = node_value I i (values I ns) n.
Proof.
  intros I ns i n E B.
  assert (L : i < length ns) by (apply nth_error_Some; congruence).
  destruct (nth_error_split _ _ E) as (a & b & -> & L').
  change (n :: b) with ([n] ++ b). rewrite app_assoc.
  rewrite values_nth_app by (rewrite app_length; simpl; lia).
  rewrite values_app. simpl. unfold step at 1.
  rewrite app_nth2 by (rewrite values_len; lia). rewrite values_len, L', Nat.sub_diag. simpl.
  apply node_value_local. intros t I'. apply B in I'.
  rewrite !look_ext; auto; rewrite ?app_length; simpl; lia.
Qed.

Lemma vneg_vneg : forall v, vneg (vneg v) = v.
Proof. intros [b|q]; simpl; now rewrite ?negb_involutive. Qed.
Lemma teval_opp : forall I T t, teval I T (opp t) = vneg (teval I T t).
Proof.
  intros I T [i []]; unfold teval, look, opp; simpl; now rewrite ?vneg_vneg.
Qed.
Lemma teval_ext : forall I T T' t, ext T T' -> tix t < length (tt_nodes T) -> teval I T' t = teval I T t.
Proof. intros I T T' t [l E] L. unfold teval. rewrite E. now apply look_ext. Qed.

(** ** Well-formed tables *)
Definition varkind (k : kind) : Prop := k = KUninterp \/ k = KIte \/ k = KApp.
Definition varlike (T : table) (t : term) : Prop := real_t T t /\ varkind (kind_of T t).

Definition const_node (q : Qc) : node := mkNode KArithConst TReal (DRat q).
(** [m] is the term poly_to_term makes for the monomial *)
Definition mono_repr (T : table) (m : mono) (t : term) : Prop :=
  real_t T t /\ snd m <> 0%Qc /\
  match fst m with
  | None => node_of T t = const_node (snd m)
  | Some x => varlike T x /\
      ((snd m = 1%Qc /\ t = x) \/
       (snd m <> 1%Qc /\ exists c, real_t T c /\ node_of T c = const_node (snd m) /\
          tix x < tix t /\ tix c < tix t /\ node_of T t = mkNode KProduct TReal (DArgs [c; x])))
  end.
(** monomials in strictly increasing order *)
Fixpoint sorted_p (p : tpoly) : Prop :=
  match p with
  | [] => True
  | m :: p' => Forall (fun m' => mv_ltb (fst m) (fst m') = true) p' /\ sorted_p p'
  end.

Definition wf_node (T : table) (n : node) : Prop :=
  match n_kind n, n_desc n with
  | KArithConst, DRat q => n_type n = TReal /\ q <> 0%Qc
  | KUninterp, DNone => n_type n = TBool \/ n_type n = TReal
  | KIte, DArgs [c; t; e] => n_type n = TReal /\ bool_t T c /\ tix c <> 1 /\ tneg c = false /\ real_t T t /\ real_t T e
  | KApp, DArgs (f :: args) =>
      (n_type n = TBool \/ n_type n = TReal) /\ valid T f /\ tneg f = false /\ kind_of T f = KUninterp /\
      Forall (typed T) args
  | KOr, DArgs args => n_type n = TBool /\ 2 <= length args /\ Forall (fun a => bool_t T a /\ tix a <> 1) args
  | KArithEq, DArgs [t] => n_type n = TBool /\ real_t T t /\ is_arith_const T t = false
  | KArithGe, DArgs [t] => n_type n = TBool /\ real_t T t /\ is_arith_const T t = false
  | KArithBineq, DArgs [s; t] =>
      n_type n = TBool /\ varlike T s /\ (varlike T t \/ real_t T t /\ is_arith_const T t = true) /\ s <> t
  | KProduct, DArgs [c; x] =>
      n_type n = TReal /\ real_t T c /\ (exists q, node_of T c = const_node q /\ q <> 0%Qc) /\ varlike T x
  | KPoly, DArgs ms =>
      n_type n = TReal /\ 2 <= length ms /\ exists p, sorted_p p /\ Forall2 (mono_repr T) p ms
  | _, _ => False
  end.

Definition prim_nodes : list node := [reserved_node; mkNode KConst TBool (DConst 0); const_node 0].
Record wf (H : hashes) (T : table) : Prop := {
  wf_shares : shares H T;
  wf_prim : exists l, tt_nodes T = prim_nodes ++ l;
  wf_nodes : forall i n, 3 <= i -> nth_error (tt_nodes T) i = Some n ->
      wf_node T n /\ forall t, In t (dargs n) -> tix t < i }.

Lemma wf_len : forall H T, wf H T -> 3 <= length (tt_nodes T).
Proof. intros H T W. destruct (wf_prim _ _ W) as [l E]. rewrite E, app_length. simpl. lia. Qed.

(** *** stability *)
Lemma valid_ext : forall T T' t, ext T T' -> valid T t -> valid T' t.
Proof. intros T T' t X [A B]. pose proof (ext_len _ _ X). split; lia. Qed.
Lemma type_ext : forall T T' t, ext T T' -> valid T t -> type_of T' t = type_of T t.
Proof. intros T T' t X [A B]. unfold type_of. now rewrite (ext_node _ _ _ X B). Qed.
Lemma kind_ext : forall T T' t, ext T T' -> valid T t -> kind_of T' t = kind_of T t.
Proof. intros T T' t X [A B]. unfold kind_of. now rewrite (ext_node _ _ _ X B). Qed.
Lemma node_ext : forall T T' t, ext T T' -> valid T t -> node_of T' t = node_of T t.
Proof. intros T T' t X [A B]. now apply ext_node. Qed.
Lemma bool_ext : forall T T' t, ext T T' -> bool_t T t -> bool_t T' t.
Proof. intros T T' t X [A B]. split; [eapply valid_ext; eauto|]. now rewrite (type_ext _ _ _ X A). Qed.
Lemma real_ext : forall T T' t, ext T T' -> real_t T t -> real_t T' t.
Proof.
  intros T T' t X (A & B & C). split; [eapply valid_ext; eauto|]. now rewrite (type_ext _ _ _ X A).
Qed.
Lemma typed_ext : forall T T' t, ext T T' -> typed T t -> typed T' t.
Proof. intros T T' t X [B|B]; [left; eapply bool_ext|right; eapply real_ext]; eauto. Qed.
Lemma var_ext : forall T T' t, ext T T' -> varlike T t -> varlike T' t.
Proof.
  intros T T' t X [A B]. split; [eapply real_ext; eauto|]. rewrite (kind_ext _ _ _ X); auto. apply A.
Qed.
Lemma repr_ext : forall T T' m t, ext T T' -> mono_repr T m t -> mono_repr T' m t.
Proof.
  intros T T' [v c] t X (A & B & C). split; [eapply real_ext; eauto|]. split; auto. simpl in *.
  destruct v as [x|].
  - destruct C as [V C]. split; [eapply var_ext; eauto|]. destruct C as [C|(C1 & k & Rk & Nk & L1 & L2 & N)]; [left; auto|].
    right. split; auto. exists k. split; [eapply real_ext; eauto|].
    rewrite (node_ext _ _ _ X), (node_ext _ _ t X); auto; [apply A | apply Rk].
  - rewrite (node_ext _ _ _ X); auto; apply A.
Qed.
Lemma const_ext : forall T T' t, ext T T' -> valid T t -> is_arith_const T' t = is_arith_const T t.
Proof. intros. unfold is_arith_const. now rewrite (kind_ext T T'). Qed.

Lemma wf_node_ext : forall T T' n, ext T T' -> wf_node T n -> wf_node T' n.
Proof.
  intros T T' [k ty d] X. unfold wf_node; simpl.
  destruct k, d as [|args|q|j]; try tauto.
  - destruct args as [|c [|t [|e [|]]]]; try tauto. intuition eauto using bool_ext, real_ext.
  - destruct args as [|f args]; try tauto. intros (A & B & C & D & E).
    split; auto. split; [eapply valid_ext; eauto|]. split; auto. split; [now rewrite (kind_ext _ _ _ X)|].
    eapply Forall_impl; [|exact E]. intros; eapply typed_ext; eauto.
  - intros (A & B & C). split; auto. split; auto. eapply Forall_impl; [|exact C].
    intros a [P Q]. split; auto. eapply bool_ext; eauto.
  - destruct args as [|c [|]]; try tauto. intros (A & B & C). split; auto. split; [eapply real_ext; eauto|].
    rewrite (const_ext _ _ _ X); auto; apply B.
  - destruct args as [|c [|]]; try tauto. intros (A & B & C). split; auto. split; [eapply real_ext; eauto|].
    rewrite (const_ext _ _ _ X); auto; apply B.
  - destruct args as [|c [|t [|]]]; try tauto. intros (A & B & C & D). split; auto. split; [eapply var_ext; eauto|].
    split; auto. destruct C as [C|[C E]]; [left; eapply var_ext; eauto|right].
    split; [eapply real_ext; eauto|]. rewrite (const_ext _ _ _ X); auto; apply C.
  - destruct args as [|c [|t [|]]]; try tauto. intros (A & B & C & D). split; auto. split; [eapply real_ext; eauto|].
    rewrite (node_ext _ _ _ X); [|apply B]. split; auto. eapply var_ext; eauto.
  - intros (A & B & p & S0 & F). split; auto. split; auto. exists p. split; auto.
    clear S0 A B. induction F; constructor; auto. eapply repr_ext; eauto.
Qed.

(** ** Adding elements *)
Lemma table_new_wf : forall H, wf H (table_new H).
Proof.
  intros H. destruct (shares_table_new H) as [S0 E]. split; auto.
  - rewrite E. exists []. reflexivity.
  - intros i n L N. rewrite E in N. do 3 (destruct i as [|i]; [lia|]). destruct i; discriminate.
Qed.

Definition kcomp (r : request) : Prop := req_ok r.
Lemma get_wf : forall H T r T' t, wf H T -> req_ok r -> get_term H T r = (T', t) ->
  (r = RConst TBool 0 \/ r = RRat 0 \/
   (wf_node T (req_node r) /\ forall a, In a (dargs (req_node r)) -> valid T a)) ->
  wf H T' /\ ext T T' /\ valid T' t /\ tneg t = false /\ node_of T' t = req_node r /\
  (forall a, In a (dargs (req_node r)) -> tix a < tix t) /\ (tix t < length (tt_nodes T) -> T' = T).
Proof.
  intros H T r T' t W R E C.
  pose proof (shares_get _ _ _ _ _ (wf_shares _ _ W) R E) as (S1 & X & N & L & C1).
  pose proof (wf_len _ _ W) as L3.
  assert (OLD : forall i, i < 3 -> nth_error (tt_nodes T) i = nth_error prim_nodes i).
  { intros i Li. destruct (wf_prim _ _ W) as [l El]. rewrite El. apply nth_error_app1. simpl. lia. }
  destruct (Nat.lt_ge_cases (tix t) (length (tt_nodes T))) as [O|O].
  - (* found *)
    assert (T' = T).
    { pose proof E as E'. apply get_term_cases in E'. destruct E' as [(-> & _)|(-> & -> & _)]; auto. simpl in O; lia. }
    subst T'. split; auto. split; auto. split; [|split; auto; split; auto; split; auto].
    + split; auto. destruct t as [i m]; simpl in *; subst m. destruct i; [|lia]. exfalso.
      assert (X0 := node_of_some T (mkT 0 false) L). cbn [tix] in X0. rewrite OLD in X0 by lia. simpl in X0.
      inversion X0 as [X1]. rewrite C1 in X1. destruct r; simpl in *; try discriminate.
    + intros a Ia. pose proof (node_of_some _ _ L) as X0. rewrite C1 in X0.
      destruct (Nat.lt_ge_cases (tix t) 3) as [U|U].
      * rewrite OLD in X0 by auto.
        assert (dargs (req_node r) = []).
        { destruct (tix t) as [|[|[|]]]; simpl in X0; try lia; inversion X0; reflexivity. }
        rewrite H0 in Ia. destruct Ia.
      * apply (wf_nodes _ _ W) in X0; auto. apply X0; auto.
  - (* new *)
    apply get_term_cases in E. destruct E as [(-> & E1 & h & Ih)|(-> & -> & F)].
    { exfalso. apply (sh_known _ _ (wf_shares _ _ W)) in Ih. lia. }
    assert (CC : wf_node T (req_node r) /\ forall a, In a (dargs (req_node r)) -> valid T a).
    { destruct C as [C|[C|C]]; auto; exfalso; subst r.
      - apply (F true_term); [|unfold node_of; destruct (wf_prim _ _ W) as [l ->]; reflexivity].
        apply (sh_all _ _ (wf_shares _ _ W) 1 (mkNode KConst TBool (DConst 0)) (RConst TBool 0)); auto.
        rewrite OLD by lia; reflexivity.
      - apply (F zero_term); [|unfold node_of; destruct (wf_prim _ _ W) as [l ->]; reflexivity].
        apply (sh_all _ _ (wf_shares _ _ W) 2 (const_node 0) (RRat 0)); auto.
        rewrite OLD by lia; reflexivity. }
    clear C. destruct CC as [C2 C3]. simpl in *. split; [|split; auto; split; [|split; auto; split; auto; split]].
    + split; auto.
      * destruct (wf_prim _ _ W) as [l El]. cbn [tt_nodes]. rewrite El, <- app_assoc. eexists; reflexivity.
      * simpl. intros i n Li E. apply nth_error_snoc in E. destruct E as [[Li' E]|[-> ->]].
        -- apply (wf_nodes _ _ W) in E; auto. destruct E as [E1 E2]. split; auto. eapply wf_node_ext; eauto.
        -- split; [eapply wf_node_ext; eauto|]. intros a Ia. apply C3 in Ia. apply Ia.
    + split; simpl in *; lia.
    + intros a Ia. apply C3 in Ia. apply Ia.
    + intros; lia.
Qed.

Lemma new_wf : forall H T ty T' t, wf H T -> ty = TBool \/ ty = TReal -> new_uninterpreted T ty = (T', t) ->
  wf H T' /\ ext T T' /\ valid T' t /\ tneg t = false /\ node_of T' t = mkNode KUninterp ty DNone /\
  tix t = length (tt_nodes T).
Proof.
  intros H T ty T' t W TY E. pose proof (wf_len _ _ W) as L3.
  pose proof (shares_new _ _ _ _ _ (wf_shares _ _ W) E) as (S1 & X & -> & L & C).
  split; [|split; auto; split; [split; simpl in *; lia|split; auto]].
  inversion E; subst. split; auto.
  - destruct (wf_prim _ _ W) as [l El]. cbn [tt_nodes]. rewrite El, <- app_assoc. eexists; reflexivity.
  - simpl. intros i n Li N. apply nth_error_snoc in N. destruct N as [[Li' N]|[-> ->]].
    + apply (wf_nodes _ _ W) in N; auto. destruct N as [E1 E2]. split; auto. eapply wf_node_ext; eauto.
    + split; [simpl; auto|]. simpl. tauto.
Qed.

(** ** Meaning of the elements *)
Lemma prim_teval : forall H T I, wf H T ->
  teval I T true_term = VB true /\ teval I T false_term = VB false /\ teval I T zero_term = VR 0%Qc.
Proof.
  intros H T I W. destruct (wf_prim _ _ W) as [l E]. unfold teval. rewrite E.
  rewrite !look_ext by (simpl; lia). auto.
Qed.
Lemma prim_types : forall H T, wf H T -> bool_t T true_term /\ bool_t T false_term /\ real_t T zero_term.
Proof.
  intros H T W. pose proof (wf_len _ _ W). destruct (wf_prim _ _ W) as [l E].
  unfold bool_t, real_t, valid, type_of, node_of. rewrite E in *. simpl in *. repeat split; auto; lia.
Qed.

Lemma teval_node : forall H T I t, wf H T -> valid T t -> tneg t = false ->
  teval I T t = node_value I (tix t) (values I (tt_nodes T)) (node_of T t).
Proof.
  intros H T I [i m] W [V1 V2] N; simpl in *; subst m. unfold teval, look; simpl.
  pose proof (node_of_some T (mkT i false) V2) as E; simpl in E.
  apply values_nth; auto. intros t It.
  destruct (Nat.lt_ge_cases i 3) as [U|U].
  - destruct (wf_prim _ _ W) as [l El]. unfold node_of in It. rewrite El in It. simpl in It.
    destruct i as [|[|[|]]]; try lia; simpl in It; tauto.
  - apply (wf_nodes _ _ W) in E; auto. now apply E.
Qed.
Lemma node_wf : forall H T t, wf H T -> 3 <= tix t -> tix t < length (tt_nodes T) ->
  wf_node T (node_of T t) /\ forall a, In a (dargs (node_of T t)) -> tix a < tix t.
Proof. intros H T t W U L. apply (wf_nodes _ _ W); auto. now apply node_of_some. Qed.

Lemma small_node : forall H T t, wf H T -> valid T t -> tix t < 3 ->
  (tix t = 1 /\ node_of T t = mkNode KConst TBool (DConst 0)) \/ (tix t = 2 /\ node_of T t = const_node 0).
Proof.
  intros H T [i m] W [V1 V2] U; simpl in *. destruct (wf_prim _ _ W) as [l E].
  unfold node_of; rewrite E; simpl. destruct i as [|[|[|]]]; try lia; auto.
Qed.

Definition isB (v : value) : Prop := exists b, v = VB b.
Definition isR (v : value) : Prop := exists q, v = VR q.
Lemma typed_value : forall H T I, wf H T -> forall k t, tix t < k -> valid T t ->
  (type_of T t = TBool -> isB (teval I T t)) /\ (real_t T t -> isR (teval I T t)).
Proof.
  intros H T I W. induction k as [|k IH]; intros t L V; [lia|].
  assert (B : forall t, tix t < S k -> valid T t -> tneg t = false -> type_of T t = TBool -> isB (teval I T t)).
  { clear t L V. intros t L V N TY. rewrite (teval_node _ _ I t W V N).
    destruct (Nat.lt_ge_cases (tix t) 3) as [U|U].
    - destruct (small_node _ _ _ W V U) as [[_ E]|[_ E]]; rewrite E; unfold isB.
      + exists true; reflexivity.
      + unfold type_of in TY; rewrite E in TY; discriminate.
    - pose proof (node_wf _ _ _ W U (proj2 V)) as [Wn _]. unfold type_of in TY.
      destruct (node_of T t) as [kd ty d]. unfold wf_node in Wn; simpl in *. subst ty.
      unfold node_value, isB; simpl. destruct kd, d as [|args|q|j]; eauto; try tauto;
        try (destruct Wn; congruence).
      + destruct args as [|c [|t1 [|e [|]]]]; try tauto. destruct Wn; congruence.
      + destruct args as [|f args]; eauto.
      + destruct args as [|c [|]]; try tauto; eauto.
      + destruct args as [|c [|]]; try tauto; eauto.
      + destruct args as [|c [|t1 [|]]]; try tauto; eauto.
      + destruct args as [|c [|t1 [|]]]; try tauto. destruct Wn; congruence. }
  split.
  - intros TY. destruct t as [i []] eqn:Et; [|apply B; auto].
    change (mkT i true) with (opp (mkT i false)). rewrite teval_opp.
    destruct (B (mkT i false)) as [b Eb]; auto. rewrite Eb. simpl. unfold isB; eauto.
  - intros (_ & TY & N). rewrite (teval_node _ _ I t W V N).
    destruct (Nat.lt_ge_cases (tix t) 3) as [U|U].
    + destruct (small_node _ _ _ W V U) as [[_ E]|[_ E]]; rewrite E; unfold isR.
      * unfold type_of in TY; rewrite E in TY; discriminate.
      * exists 0%Qc; reflexivity.
    + pose proof (node_wf _ _ _ W U (proj2 V)) as [Wn Ln]. unfold type_of in TY.
      destruct (node_of T t) as [kd ty d]. unfold wf_node in Wn; simpl in *. subst ty.
      unfold node_value, isR; simpl. destruct kd, d as [|args|q|j]; eauto; try tauto;
        try (destruct Wn; congruence).
      * destruct args as [|c [|t1 [|e [|]]]]; try tauto. destruct Wn as (_ & _ & _ & _ & R1 & R2).
        unfold dargs in Ln; simpl in Ln.
        destruct (as_b _); [apply (IH t1)|apply (IH e)]; auto; try apply R1; try apply R2;
          eapply Nat.lt_le_trans; try apply Ln; auto; lia.
      * destruct args as [|f args]; try tauto; eauto.
      * destruct args as [|c [|]]; try tauto; destruct Wn; congruence.
      * destruct args as [|c [|]]; try tauto; destruct Wn; congruence.
      * destruct args as [|c [|t1 [|]]]; try tauto; destruct Wn; congruence.
      * destruct args as [|c [|t1 [|]]]; try tauto; eauto.
Qed.
Lemma bool_value : forall H T I t, wf H T -> bool_t T t -> teval I T t = VB (tholds I T t).
Proof.
  intros H T I t W [V B]. destruct (proj1 (typed_value _ _ I W (S (tix t)) t (Nat.lt_succ_diag_r _) V) B) as [b E].
  unfold tholds. now rewrite E.
Qed.
Lemma real_value : forall H T I t, wf H T -> real_t T t -> teval I T t = VR (treal I T t).
Proof.
  intros H T I t W R. destruct (proj2 (typed_value _ _ I W (S (tix t)) t (Nat.lt_succ_diag_r _) (proj1 R)) R) as [b E].
  unfold treal. now rewrite E.
Qed.
Lemma tholds_opp : forall H T I t, wf H T -> bool_t T t -> tholds I T (opp t) = negb (tholds I T t).
Proof.
  intros H T I t W B. unfold tholds at 1. rewrite teval_opp, (bool_value _ _ I _ W B). reflexivity.
Qed.
Lemma bool_opp : forall T t, bool_t T t -> bool_t T (opp t).
Proof. intros T t [V B]. split; auto. Qed.
Lemma tholds_ext : forall I T T' t, ext T T' -> valid T t -> tholds I T' t = tholds I T t.
Proof. intros. unfold tholds. rewrite (teval_ext I T T'); auto. apply H0. Qed.
Lemma treal_ext : forall I T T' t, ext T T' -> valid T t -> treal I T' t = treal I T t.
Proof. intros. unfold treal. rewrite (teval_ext I T T'); auto. apply H0. Qed.
