(** Proofs for C46: the visitor. *)
From Coq Require Import List Arith Bool Lia Permutation.
From Verif Require Import Base Terms_Model Spec_Terms Terms_Proofs TermMgr_Model Spec_TermMgr TermMgr_Base TermMgr_Term Visitor_Model Spec_Visitor.
Import ListNotations.
Open Scope nat_scope.

Lemma seen_spec p t : seen p t = true <-> In (tix t) p.
Proof.
  unfold seen. rewrite existsb_exists. split.
  - intros (x & I & E). apply Nat.eqb_eq in E. now subst.
  - intros I. exists (tix t). split; auto. apply Nat.eqb_refl.
Qed.
Lemma seen_false p t : seen p t = false <-> ~ In (tix t) p.
Proof. rewrite <- seen_spec. destruct (seen p t); split; congruence. Qed.

(** ** The arguments of an element come before it *)
Definition acyclic (T : table) : Prop :=
  forall t a, In a (get_args T t) -> tix a < tix t.

Definition in_table (T : table) (t : term) : Prop := tix t < length (tt_nodes T).

Section Run.
Variable T : table.
Hypothesis AC : acyclic T.

(** steps for the element with this index *)
Definition nargs (i : nat) : nat := length (get_args T (mkT i false)).
Fixpoint cost (p : list nat) : nat := match p with [] => 0 | i :: p' => S (nargs i) + cost p' end.
Lemma cost_app p q : cost (p ++ q) = cost p + cost q.
Proof. induction p; simpl; lia. Qed.
Lemma args_sign t : get_args T t = get_args T (mkT (tix t) false).
Proof. reflexivity. Qed.
Lemma nargs_t t : nargs (tix t) = length (get_args T t).
Proof. reflexivity. Qed.

(** consistent state: what has been visited *)
Record vinv (p : list nat) (o : list term) : Prop := {
  v_eq : p = rev (map tix o);
  v_nd : NoDup p;
  v_first : args_first T o }.

Lemma args_first_snoc o t : args_first T o -> (forall a, In a (get_args T t) -> In (tix a) (map tix o)) ->
  args_first T (o ++ [t]).
Proof.
  intros F A b x l E a Ia.
  destruct l as [|y l] using rev_ind.
  - apply app_inj_tail in E. destruct E; subst. auto.
  - clear IHl. rewrite app_comm_cons, app_assoc in E. apply app_inj_tail in E. destruct E; subst.
    eapply F; eauto.
Qed.

(** what a piece of the run adds *)
Record adds (Pp : term -> Prop) (m : nat) (p p' : list nat) (o o' : list term) : Prop := {
  a_inv : vinv p' o';
  a_new : exists n, o' = o ++ n /\ Forall (fun t => Pp t /\ tix t <= m) n }.
Lemma adds_p Pp m p p' o o' : vinv p o -> adds Pp m p p' o o' -> exists q, p' = q ++ p /\ Forall (fun i => i <= m) q.
Proof.
  intros IV [A (n & E & F)]. exists (rev (map tix n)). rewrite (v_eq _ _ A), (v_eq _ _ IV), E, map_app, rev_app_distr.
  split; auto. apply Forall_rev. apply Forall_map. eapply Forall_impl; [|exact F]. intros x H; apply H.
Qed.

Variable Pp : term -> Prop.
Hypothesis closed : forall t a, Pp t -> In a (get_args T t) -> Pp a.

Lemma loop_entry : forall m t k w p o,
  tix t <= m -> Pp t -> vinv p o -> ~ In (tix t) p -> k <= length (get_args T t) ->
  (forall j a, j < k -> nth_error (get_args T t) j = Some a -> In (tix a) p) ->
  exists n p' o', adds Pp (tix t) p p' o o' /\ In (tix t) p' /\ n + k + cost p = cost p' /\
    forall f, visit_loop record T (n + f) ((t, k) :: w) p o = visit_loop record T f w p' o'.
Proof.
  induction m as [m IHm] using lt_wf_ind. intros t k w p o Lm Pt. 
  remember (length (get_args T t) - k) as d eqn:Ed. revert k p o Ed.
  induction d as [|d IHd]; intros k p o Ed IV NI Lk KK.
  - assert (k = length (get_args T t)) by lia. subst k.
    exists 1, (tix t :: p), (o ++ [t]).
    assert (IV' : vinv (tix t :: p) (o ++ [t])).
    { split.
      - rewrite map_app, rev_app_distr; simpl. now rewrite <- (v_eq _ _ IV).
      - constructor; auto. apply IV.
      - apply args_first_snoc; [apply IV|]. intros a Ia. apply In_nth_error in Ia. destruct Ia as [j Ej].
        assert (j < length (get_args T t)) by (apply nth_error_Some; congruence).
        specialize (KK j a H Ej). rewrite (v_eq _ _ IV) in KK. now apply in_rev in KK. }
    split; [split; auto; exists [t]; auto|]. split; [left; auto|]. split; [simpl cost; rewrite nargs_t; lia|].
    intros f. cbn [Nat.add visit_loop]. rewrite (proj2 (nth_error_None _ _)) by lia.
    rewrite (proj2 (seen_false p t) NI). reflexivity.
  - destruct (nth_error (get_args T t) k) as [a|] eqn:Ea; [|apply nth_error_None in Ea; lia].
    assert (Ia : In a (get_args T t)) by (eapply nth_error_In; eauto).
    destruct (seen p a) eqn:Sa.
    + apply seen_spec in Sa. destruct (IHd (S k) p o) as (n & p' & o' & A & B & N & R); auto; try lia.
      { intros j b Lj Ej. destruct (Nat.eq_dec j k); [subst; congruence|]. apply (KK j b); auto; lia. }
      exists (S n), p', o'. split; auto. split; auto. split; [lia|].
      intros f. cbn [Nat.add visit_loop]. rewrite Ea. rewrite (proj2 (seen_spec p a) Sa). apply R.
    + apply seen_false in Sa. pose proof (AC t a Ia) as La.
      destruct (IHm (tix a) ltac:(lia) a 0 ((t, S k) :: w) p o) as (n1 & p1 & o1 & A1 & B1 & N1 & R1); auto; try lia.
      { eapply closed; eauto. }
      destruct (adds_p _ _ _ _ _ _ IV A1) as (q1 & Eq1 & F1).
      destruct (IHd (S k) p1 o1) as (n & p' & o' & A & B & N & R); auto; try lia.
      { apply A1. }
      { rewrite Eq1, in_app_iff. intros [I|I]; auto. rewrite Forall_forall in F1. apply F1 in I. lia. }
      { intros j b Lj Ej. destruct (Nat.eq_dec j k) as [->|]; [congruence|].
        rewrite Eq1, in_app_iff. right. apply (KK j b); auto; lia. }
      exists (S (n1 + n)), p', o'. split; [|split; auto; split; [lia|]].
      { destruct A as [AI (x & Ex & Fx)], A1 as [AI1 (x1 & Ex1 & Fx1)]. split; auto.
        exists (x1 ++ x). subst o1. rewrite app_assoc. split; auto. apply Forall_app. split; auto.
        eapply Forall_impl; [|exact Fx1]. intros y [Y1 Y2]. split; auto; lia. }
      intros f. cbn [Nat.add visit_loop]. rewrite Ea, (proj2 (seen_false p a) Sa).
      rewrite <- Nat.add_assoc, R1. apply R.
Qed.

(** ** the fuel suffices *)
Lemma nargs_le i : nargs i <= match nth_error (tt_nodes T) i with Some n => length (dargs n) | None => 0 end.
Proof.
  unfold nargs, get_args, kind_of, node_of. cbn [tix].
  destruct (nth_error (tt_nodes T) i) as [n|] eqn:E.
  - rewrite (nth_error_nth _ _ _ E). destruct (n_kind n); simpl; try lia. destruct (dargs n); simpl; lia.
  - rewrite nth_overflow by (now apply nth_error_None). simpl. lia.
Qed.
Lemma fuel_split : forall l i n, nth_error l i = Some n ->
  fold_right (fun n a => S (length (dargs n)) + a) 0 l =
  S (length (dargs n)) + fold_right (fun n a => S (length (dargs n)) + a) 0 (firstn i l ++ skipn (S i) l).
Proof.
  induction l as [|x l IH]; intros [|i] n E; simpl in E; try discriminate.
  - injection E as ->. reflexivity.
  - cbn [firstn skipn app fold_right]. rewrite (IH _ _ E). simpl. lia.
Qed.
Lemma cost_bound : forall p, NoDup p -> Forall (fun i => i < length (tt_nodes T)) p -> cost p <= visit_fuel T.
Proof.
  intros p ND F.
  assert (G : forall k q, NoDup q -> Forall (fun i => i < k) q -> k <= length (tt_nodes T) ->
     cost q <= fold_right (fun n a => S (length (dargs n)) + a) 0 (firstn k (tt_nodes T))).
  { clear p ND F. induction k as [|k IH]; intros q ND F L.
    - destruct q; [simpl; lia|]. inversion F; subst. lia.
    - destruct (nth_error (tt_nodes T) k) as [n|] eqn:E; [|apply nth_error_None in E; lia].
      assert (EF : firstn (S k) (tt_nodes T) = firstn k (tt_nodes T) ++ [n]).
      { clear - E. revert k E. induction (tt_nodes T) as [|x l IH]; intros [|k] E; simpl in *; try discriminate.
        - now injection E as ->.
        - f_equal. auto. }
      rewrite EF, fold_right_app. simpl fold_right at 1.
      assert (FR : forall l z, fold_right (fun n a => S (length (dargs n)) + a) z l = fold_right (fun n a => S (length (dargs n)) + a) 0 l + z).
      { clear. induction l; intros; simpl in *; auto. rewrite IHl. lia. }
      destruct (in_dec Nat.eq_dec k q) as [I|I].
      + apply in_split in I. destruct I as (q1 & q2 & ->).
        apply NoDup_remove in ND. destruct ND as [ND NI].
        assert (F' : Forall (fun i => i < k) (q1 ++ q2)).
        { rewrite Forall_forall in *. intros x Ix.
          assert (x < S k). { apply F. apply in_app_iff. apply in_app_iff in Ix. simpl. tauto. }
          assert (x <> k) by (intros ->; auto). lia. }
        specialize (IH _ ND F' ltac:(lia)). rewrite cost_app in *. simpl cost.
        pose proof (nargs_le k) as NL. rewrite E in NL. rewrite FR. lia.
      + assert (F' : Forall (fun i => i < k) q).
        { rewrite Forall_forall in *. intros x Ix. specialize (F x Ix). simpl in F.
          assert (x <> k) by (intros ->; auto). lia. }
        specialize (IH _ ND F' ltac:(lia)). rewrite FR. lia. }
  specialize (G (length (tt_nodes T)) p ND F (le_n _)). now rewrite firstn_all in G.
Qed.

Lemma loop_nil f p o : visit_loop record T f [] p o = Ok (p, o).
Proof. destruct f; reflexivity. Qed.

Lemma root_ok t p o : Pp t -> in_table T t -> Forall (fun i => i < length (tt_nodes T)) p ->
  vinv p o -> ~ In (tix t) p ->
  exists p' o', visit_root record T p o t = Ok (p', o') /\ adds Pp (tix t) p p' o o' /\ In (tix t) p'.
Proof.
  intros Pt It Fp IV NI.
  destruct (loop_entry (tix t) t 0 [] p o) as (n & p' & o' & A & B & N & R); auto; try lia.
  exists p', o'. split; auto. unfold visit_root.
  destruct (adds_p _ _ _ _ _ _ IV A) as (q & Eq & F).
  assert (cost p' <= visit_fuel T).
  { apply cost_bound; [apply A|]. rewrite Eq. apply Forall_app. split; auto.
    eapply Forall_impl; [|exact F]. unfold in_table in It. simpl. intros; lia. }
  replace (visit_fuel T) with (n + (visit_fuel T - n)) by lia. now rewrite R, loop_nil.
Qed.

Lemma span_ok : forall roots p o, Forall (fun t => Pp t /\ in_table T t) roots ->
  Forall (fun i => i < length (tt_nodes T)) p -> vinv p o ->
  exists p' o', visit_span record T p o roots = Ok (p', o') /\ vinv p' o' /\
    Forall (fun i => i < length (tt_nodes T)) p' /\
    (exists n, o' = o ++ n /\ Forall Pp n) /\
    Forall (fun t => In (tix t) p') roots.
Proof.
  induction roots as [|t l IH]; intros p o F Fp IV; simpl.
  - exists p, o. split; auto. split; auto. split; auto. split; auto. exists []. rewrite app_nil_r. auto.
  - inversion F as [|? ? [Pt It] F']; subst. destruct (seen p t) eqn:S.
    + destruct (IH p o F' Fp IV) as (p' & o' & R & IV' & Fp' & (n & E & Fn) & Q).
      exists p', o'. split; auto. split; auto. split; auto. split; eauto.
      constructor; auto. apply seen_spec in S. rewrite (v_eq _ _ IV), <- in_rev in S.
      rewrite (v_eq _ _ IV'), <- in_rev, E, map_app, in_app_iff. auto.
    + apply seen_false in S. destruct (root_ok t p o Pt It Fp IV S) as (p1 & o1 & R1 & A1 & B1).
      destruct (adds_p _ _ _ _ _ _ IV A1) as (q1 & Eq1 & Fq1).
      assert (Fp1 : Forall (fun i => i < length (tt_nodes T)) p1).
      { rewrite Eq1. apply Forall_app. split; auto. eapply Forall_impl; [|exact Fq1].
        unfold in_table in It. simpl. intros; lia. }
      destruct (IH p1 o1 F' Fp1 (a_inv _ _ _ _ _ _ A1)) as (p' & o' & R & IV' & Fp' & (n & E & Fn) & Q).
      exists p', o'. rewrite R1. cbn [bind]. split; auto. split; auto. split; auto.
      destruct A1 as [IV1 (n1 & E1 & Fn1)]. split.
      * exists (n1 ++ n). rewrite app_assoc, <- E1. split; auto. apply Forall_app. split; auto.
        eapply Forall_impl; [|exact Fn1]. intros x Hx; apply Hx.
      * constructor; auto. rewrite (v_eq _ _ IV1), <- in_rev in B1.
        rewrite (v_eq _ _ IV'), <- in_rev, E, map_app, in_app_iff. auto.
Qed.

End Run.

(** ** any configuration is called on the recorded order *)
Section Any.
Context {C : Type}.
Variable V : C -> term -> res C.
Variable T : table.
Fixpoint run (c : C) (o : list term) : res C :=
  match o with [] => Ok c | t :: o' => c' <- V c t ;; run c' o' end.
Lemma run_app : forall o1 o2 c, run c (o1 ++ o2) = (c' <- run c o1 ;; run c' o2).
Proof. induction o1; intros; simpl; auto. destruct (V c a); simpl; auto. Qed.

Lemma record_grows : forall f w p o p' o', visit_loop record T f w p o = Ok (p', o') -> exists n, o' = o ++ n.
Proof.
  induction f; intros [|[t k] w] p o p' o' E; simpl in E.
  - injection E as <- <-. exists []. now rewrite app_nil_r.
  - discriminate.
  - injection E as <- <-. exists []. now rewrite app_nil_r.
  - destruct (nth_error (get_args T t) k).
    + destruct (seen p t0); eauto.
    + destruct (seen p t); simpl in E; [discriminate|]. apply IHf in E. destruct E as [n ->].
      rewrite <- app_assoc. eauto.
Qed.
Lemma loop_any : forall f w p o p' n c, visit_loop record T f w p o = Ok (p', o ++ n) ->
  visit_loop V T f w p c = (c' <- run c n ;; Ok (p', c')).
Proof.
  induction f; intros [|[t k] w] p o p' n c E; simpl in E.
  - injection E as <- E. rewrite <- (app_nil_r o) in E at 1. apply app_inv_head in E. subst. reflexivity.
  - discriminate.
  - injection E as <- E. rewrite <- (app_nil_r o) in E at 1. apply app_inv_head in E. subst. reflexivity.
  - simpl. destruct (nth_error (get_args T t) k).
    + destruct (seen p t0); eauto.
    + destruct (seen p t); simpl in *; [discriminate|].
      destruct (record_grows _ _ _ _ _ _ E) as [n' En]. rewrite <- app_assoc in En. apply app_inv_head in En. subst n.
      cbn [app run]. destruct (V c t); simpl; auto.
      apply (IHf _ _ (o ++ [t])). rewrite <- app_assoc. exact E.
Qed.
Lemma span_grows : forall r p o p' o', visit_span record T p o r = Ok (p', o') -> exists n, o' = o ++ n.
Proof.
  induction r as [|t r IH]; intros p o p' o' E; simpl in E.
  - injection E as <- <-. exists []. now rewrite app_nil_r.
  - destruct (seen p t); eauto. destruct (visit_root record T p o t) as [[p1 o1]| |] eqn:R; try discriminate.
    simpl in E. apply IH in E. unfold visit_root in R. apply record_grows in R.
    destruct R as [n1 ->], E as [n ->]. rewrite <- app_assoc. eauto.
Qed.
Lemma span_any : forall r p o p' n c, visit_span record T p o r = Ok (p', o ++ n) ->
  visit_span V T p c r = (c' <- run c n ;; Ok (p', c')).
Proof.
  induction r as [|t r IH]; intros p o p' n c E; simpl in *.
  - injection E as <- E. rewrite <- (app_nil_r o) in E at 1. apply app_inv_head in E. subst. reflexivity.
  - destruct (seen p t); eauto. destruct (visit_root record T p o t) as [[p1 o1]| |] eqn:R; try discriminate.
    simpl in E. unfold visit_root in *. pose proof (record_grows _ _ _ _ _ _ R) as [n1 ->].
    pose proof (span_grows _ _ _ _ _ E) as [n2 En]. rewrite <- app_assoc in En. apply app_inv_head in En. subst n.
    rewrite (loop_any _ _ _ _ _ _ c R), run_app. destruct (run c n1) as [c1| |]; simpl; auto.
    apply (IH _ (o ++ n1)). rewrite <- app_assoc. exact E.
Qed.
End Any.

Lemma calls_grows : forall l p o p' o', visit_calls (fun _ => record) p o l = Ok (p', o') -> exists n, o' = o ++ n.
Proof.
  induction l as [|[T r] l IH]; intros p o p' o' E; simpl in E.
  - injection E as <- <-. exists []. now rewrite app_nil_r.
  - destruct (visit_span record T p o r) as [[p1 o1]| |] eqn:R; try discriminate.
    simpl in E. apply IH in E. apply span_grows in R.
    destruct R as [n1 ->], E as [n ->]. rewrite <- app_assoc. eauto.
Qed.
Lemma calls_any {C} (V : C -> term -> res C) : forall l p o p' n c, visit_calls (fun _ => record) p o l = Ok (p', o ++ n) ->
  visit_calls (fun _ => V) p c l = (c' <- run V c n ;; Ok (p', c')).
Proof.
  induction l as [|[T r] l IH]; intros p o p' n c E; simpl in *.
  - injection E as <- E. rewrite <- (app_nil_r o) in E at 1. apply app_inv_head in E. subst. reflexivity.
  - destruct (visit_span record T p o r) as [[p1 o1]| |] eqn:R; try discriminate.
    simpl in E. pose proof (span_grows _ _ _ _ _ _ R) as [n1 ->].
    pose proof (calls_grows _ _ _ _ _ E) as [n2 En]. rewrite <- app_assoc in En. apply app_inv_head in En. subst n.
    rewrite (span_any _ _ _ _ _ _ _ c R), run_app. destruct (run V c n1) as [c1| |]; simpl; auto.
    apply (IH _ (o ++ n1)). rewrite <- app_assoc. exact E.
Qed.

(** ** Tables of the term manager *)
Lemma wf_acyclic H T : wf H T -> acyclic T.
Proof.
  intros W t a Ia.
  assert (Id : In a (dargs (node_of T t))).
  { revert Ia. unfold get_args. destruct (kind_of T t); simpl; auto; try tauto. destruct (dargs (node_of T t)); simpl; auto. }
  destruct (Nat.lt_ge_cases (tix t) (length (tt_nodes T))) as [L|L].
  - destruct (Nat.lt_ge_cases (tix t) 3) as [U|U].
    + destruct (wf_prim _ _ W) as [l E]. unfold node_of in Id. rewrite E in Id.
      destruct t as [i s]; simpl in *. destruct i as [|[|[|]]]; simpl in *; try tauto; lia.
    + destruct (nth_error (tt_nodes T) (tix t)) as [n|] eqn:E; [|apply nth_error_None in E; lia].
      destruct (wf_nodes _ _ W _ _ U E) as [_ K]. apply K. unfold node_of in Id. now rewrite (nth_error_nth _ _ _ E) in Id.
  - unfold node_of in Id. rewrite nth_overflow in Id by lia. destruct Id.
Qed.

Lemma subterm_trans T a b c : subterm T a b -> subterm T b c -> subterm T a c.
Proof. intros A B. induction B; auto. econstructor; eauto. Qed.

Lemma first_closed T o : args_first T o -> forall t s, In (tix t) (map tix o) -> subterm T s t -> In (tix s) (map tix o).
Proof.
  intros F t s It S. induction S as [|s a t Ia S IH]; auto. apply IH.
  apply in_map_iff in It. destruct It as (u & Eu & Iu). apply in_split in Iu. destruct Iu as (l1 & l2 & E).
  rewrite E, map_app, in_app_iff. left. eapply F; eauto. unfold get_args, kind_of, node_of in *. now rewrite Eu.
Qed.

Lemma in_dargs T t a : In a (get_args T t) -> In a (dargs (node_of T t)).
Proof.
  unfold get_args. destruct (kind_of T t); simpl; auto; try tauto. destruct (dargs (node_of T t)); simpl; auto.
Qed.
Lemma keeps_args T T' t : keeps T T' -> valid T t -> get_args T' t = get_args T t.
Proof. intros [K _] V. destruct (K t V) as [_ E]. unfold get_args, kind_of. now rewrite E. Qed.
Lemma args_in_table H T t a : wf H T -> valid T t -> In a (get_args T t) -> valid T a.
Proof.
  intros W V I. apply in_dargs in I. split; [|eapply args_valid; eauto].
  destruct (le_lt_dec 3 (tix t)) as [L|L].
  - destruct (node_wf _ _ _ W L (proj2 V)) as [N _]. revert N I. unfold wf_node, dargs.
    destruct (n_kind (node_of T t)), (n_desc (node_of T t)) as [|l| |]; simpl; try tauto;
      repeat match goal with |- context [match ?l with [] => _ | _ :: _ => _ end] => destruct l end; simpl; try tauto;
      intros N I.
    + destruct N as (_ & [V1 _] & _ & _ & [V2 _] & [V3 _]). destruct I as [<-|[<-|[<-|[]]]]; [apply V1|apply V2|apply V3].
    + destruct N as (_ & V1 & _ & _ & F). destruct I as [<-|I]; [apply V1|].
      rewrite Forall_forall in F. destruct (F _ I) as [[V2 _]|[V2 _]]; apply V2.
    + destruct N as (_ & _ & F). rewrite Forall_forall in F. destruct (F _ I) as [[V2 _] _]. apply V2.
    + destruct N as (_ & [V1 _] & _). destruct I as [<-|[]]. apply V1.
    + destruct N as (_ & [V1 _] & _). destruct I as [<-|[]]. apply V1.
    + destruct N as (_ & [[V1 _] _] & N & _). destruct I as [<-|[<-|[]]]; [apply V1|].
      destruct N as [[[V2 _] _]|[[V2 _] _]]; apply V2.
    + destruct N as (_ & [V1 _] & _ & [[V2 _] _]). destruct I as [<-|[<-|[]]]; [apply V1|apply V2].
    + destruct N as (_ & _ & p & _ & F). clear - F I. induction F as [|m x p l [[V2 _] _] F IH]; destruct I; subst; auto. apply V2.
  - exfalso. destruct (small_node _ _ _ W V L) as [[_ E]|[_ E]]; rewrite E in I; destruct I.
Qed.
Lemma sub_valid H T s t : wf H T -> subterm T s t -> valid T t -> valid T s.
Proof. intros W S. induction S; auto. intros V. apply IHS. eapply args_in_table; eauto. Qed.
Lemma sub_keeps H T T' s t : wf H T -> keeps T T' -> valid T t -> (subterm T' s t <-> subterm T s t).
Proof.
  intros W K V. split; intros S; revert V; induction S; intros V; try constructor.
  - rewrite (keeps_args _ _ _ K V) in H0. econstructor; eauto. apply IHS. eapply args_in_table; eauto.
  - econstructor; [rewrite (keeps_args _ _ _ K V); eauto|]. apply IHS. eapply args_in_table; eauto.
Qed.
Lemma first_keeps T T' o : keeps T T' -> Forall (valid T) o -> args_first T o -> args_first T' o.
Proof.
  intros K F A b t l E a Ia. assert (V : valid T t).
  { rewrite Forall_forall in F. apply F. rewrite E. apply in_app_iff. simpl. auto. }
  rewrite (keeps_args _ _ _ K V) in Ia. eapply A; eauto.
Qed.
Lemma keeps_trans T1 T2 T3 : keeps T1 T2 -> keeps T2 T3 -> keeps T1 T3.
Proof.
  intros [A1 B1] [A2 B2]. split.
  - intros t V. destruct (A1 t V) as [V2 E2]. destruct (A2 t V2) as [V3 E3]. split; auto. congruence.
  - intros I t V. destruct (A1 t V) as [V2 _]. rewrite B2; auto.
Qed.
Lemma session_keeps H : forall calls T T', session H T calls T' -> keeps T T'.
Proof.
  induction calls as [|[T1 r] l IH]; simpl; intros T T' S.
  - subst. split; auto.
  - destruct S as (K & _ & _ & S). eapply keeps_trans; eauto.
Qed.
Lemma session_wf H : forall calls T T', session H T calls T' -> wf H T -> wf H T'.
Proof.
  induction calls as [|[T1 r] l IH]; simpl; intros T T' S W.
  - now subst.
  - destruct S as (K & R & _ & S). eapply IH; eauto. now apply reach_wf.
Qed.

Definition of_roots (T : table) (roots : list term) (t : term) : Prop :=
  exists root, In root roots /\ subterm T t root.

Lemma calls_main H : forall calls T p o T', session H T calls T' -> wf H T -> vinv T p o -> Forall (valid T) o ->
  exists p' o', visit_calls (fun _ => record) p o calls = Ok (p', o') /\ vinv T' p' o' /\ Forall (valid T') o' /\
    (exists n, o' = o ++ n /\ Forall (of_roots T' (concat (map snd calls))) n) /\
    Forall (fun t => valid T' t /\ In (tix t) (map tix o')) (concat (map snd calls)).
Proof.
  induction calls as [|[T1 r] l IH]; intros T p o T' S W IV Fo; simpl in *.
  - subst T'. exists p, o. split; auto. split; auto. split; auto. split; auto. exists []. rewrite app_nil_r. auto.
  - destruct S as (K & R1 & Fr & S). pose proof (reach_wf _ _ R1) as W1.
    assert (Fo1 : Forall (valid T1) o).
    { eapply Forall_impl; [|exact Fo]. intros t V. now apply K. }
    assert (IV1 : vinv T1 p o).
    { split; [apply IV | apply IV | eapply first_keeps; eauto; apply IV]. }
    destruct (span_ok T1 (wf_acyclic _ _ W1) (fun t => of_roots T1 r t /\ valid T1 t)) with (roots := r) (p := p) (o := o)
      as (p1 & o1 & E1 & IV2 & Fp1 & (n1 & En1 & Fn1) & Q1); auto.
    + intros t a [(root & Ir & St) V] Ia. split.
      * exists root. split; auto. eapply subterm_trans; [|exact St]. econstructor; eauto. constructor.
      * eapply args_in_table; eauto.
    + rewrite Forall_forall in *. intros t It. pose proof (Fr t It) as V. split; [|apply V]. split; auto.
      exists t. split; auto. constructor.
    + rewrite (v_eq _ _ _ IV). apply Forall_rev. apply Forall_map. eapply Forall_impl; [|exact Fo1].
      intros t V. apply V.
    + assert (Fo2 : Forall (valid T1) o1).
      { subst o1. apply Forall_app. split; auto. eapply Forall_impl; [|exact Fn1]. intros t Ht; apply Ht. }
      destruct (IH T1 p1 o1 T' S W1 IV2 Fo2) as (p' & o' & E & IV' & Fo' & (n & En & Fn) & Q).
      pose proof (session_keeps _ _ _ _ S) as K'.
      exists p', o'. rewrite E1. cbn [bind]. split; auto. split; auto. split; auto. split.
      * exists (n1 ++ n). split; [subst; now rewrite app_assoc|]. apply Forall_app. split.
        -- eapply Forall_impl; [|exact Fn1]. intros t [(root & Ir & St) V]. exists root. split; [apply in_app_iff; auto|].
           rewrite Forall_forall in Fr. rewrite (sub_keeps H T1 T'); auto.
        -- eapply Forall_impl; [|exact Fn]. intros t (root & Ir & St). exists root. split; auto. apply in_app_iff; auto.
      * apply Forall_app. split; auto. rewrite Forall_forall in *. intros t It. split; [apply K'; auto|].
        specialize (Q1 t It). rewrite (v_eq _ _ _ IV2), <- in_rev in Q1. rewrite En, map_app, in_app_iff. auto.
Qed.

Lemma vinv_nil T : vinv T [] [].
Proof. split; simpl; auto; [constructor|]. intros b t l E. destruct b; discriminate. Qed.

Lemma visit_main H calls T : session H (table_new H) calls T ->
  exists p order, visit_calls (fun _ => record) [] [] calls = Ok (p, order) /\
    NoDup (map tix order) /\ args_first T order /\
    Forall (of_roots T (concat (map snd calls))) order /\
    (forall s, of_roots T (concat (map snd calls)) s -> In (tix s) (map tix order)).
Proof.
  intros S. pose proof (reach_wf _ _ (r_new H)) as W.
  destruct (calls_main H calls (table_new H) [] [] T S W (vinv_nil _) (Forall_nil _))
    as (p & o & E & IV & Fo & (n & En & Fn) & Q).
  simpl in En. subst n. exists p, o. split; auto.
  split. { rewrite <- (rev_involutive (map tix o)), <- (v_eq _ _ _ IV). apply NoDup_rev. apply IV. }
  split; [apply IV|]. split; auto.
  intros s (root & Ir & St). apply (first_closed T o (v_first _ _ _ IV) root); auto.
  rewrite Forall_forall in Q. now apply Q.
Qed.

Lemma visit_any H calls T C (V : C -> term -> res C) c : session H (table_new H) calls T ->
  exists p order, visit_calls (fun _ => record) [] [] calls = Ok (p, order) /\
    visit_calls (fun _ => V) [] c calls = (c' <- run V c order ;; Ok (p, c')).
Proof.
  intros S. destruct (visit_main _ _ _ S) as (p & o & E & _). exists p, o. split; auto.
  eapply calls_any with (o := []). exact E.
Qed.
